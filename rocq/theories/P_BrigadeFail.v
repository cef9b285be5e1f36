(** Claim C100: grouping and filtering edges when allocations, callback functions and destructors may fail. *)
From Coq Require Import List Arith NArith Lia Bool Permutation.
From Verif Require Import Base Brigade BrigadeProofs P_Brigade BrigadeFail.
Import ListNotations.

Set Implicit Arguments.

Section Balance.
  Context {A : Type}.
  Variable dec : forall x y : A, {x = y} + {x <> y}.
  Variable judy : bool.
  Variable heap : nat -> bool.
  Variable dies : A -> option N.

  Local Notation occ x l := (count_occ dec l x).
  Local Notation st := (@st A).

  Lemma occ_app x (l m : list A) : occ x (l ++ m) = occ x l + occ x m.
  Proof. apply count_occ_app. Qed.
  Lemma perm_occ (l m : list A) : Permutation l m <-> forall x, occ x l = occ x m.
  Proof. apply (Permutation_count_occ dec). Qed.
  Lemma occ_perm x (l m : list A) : Permutation l m -> occ x l = occ x m.
  Proof. intros H. now apply perm_occ. Qed.

  Definition keeps (s s' : st) : Prop := forall e, err s = Some e -> err s' = Some e.
  (** What was in [inn] is in [out] or has been freed, and the number of buckets allocated was [cin] and is [cout]. *)
  Definition bal (s s' : st) (inn out : list A) (cin cout : nat) : Prop :=
    (forall x, occ x inn + occ x (gone s) = occ x out + occ x (gone s')) /\
    made s' + unmade s + cin = made s + unmade s' + cout /\ keeps s s'.

  Lemma keeps_refl s : keeps s s.
  Proof. intros e H. exact H. Qed.
  Lemma keeps_trans s1 s2 s3 : keeps s1 s2 -> keeps s2 s3 -> keeps s1 s3.
  Proof. unfold keeps. auto. Qed.
  Lemma keeps_failing s s' : keeps s s' -> failing s = true -> failing s' = true.
  Proof. unfold keeps, failing. intros H. destruct (err s) as [e|]; [|discriminate]. now rewrite (H e). Qed.
  Lemma keeps_ok s s' : keeps s s' -> failing s' = false -> failing s = false.
  Proof. intros H F. destruct (failing s) eqn:E; auto. rewrite (keeps_failing H E) in F. discriminate. Qed.

  Lemma bal_refl s l n : bal s s l l n n.
  Proof. split; [reflexivity|]. split; [lia|apply keeps_refl]. Qed.
  Lemma bal_trans s1 s2 s3 a b b' d m n n' k :
    bal s1 s2 a b m n -> bal s2 s3 b' d n' k -> (forall x, occ x b = occ x b') -> n = n' -> bal s1 s3 a d m k.
  Proof.
    intros [A1 [A2 A3]] [B1 [B2 B3]] E ->. split; [|split; [lia|eauto using keeps_trans]].
    intros x. specialize (A1 x). specialize (B1 x). specialize (E x). lia.
  Qed.
  Lemma bal_keeps s s' a b m n : bal s s' a b m n -> keeps s s'.
  Proof. intros [_ [_ H]]. exact H. Qed.

  (** *** Elementary operations *)
  Lemma raise_fields o (s : st) : gone (raise o s) = gone s /\ made (raise o s) = made s /\ unmade (raise o s) = unmade s /\ keeps s (raise o s).
  Proof. unfold raise, keeps. simpl. repeat split. intros e ->. reflexivity. Qed.
  Lemma alloc_bal s b s' : alloc heap s = (b, s') ->
    bal s s' [] [] 0 0 /\ (b = false -> failing s' = true) /\ (b = true -> err s' = err s).
  Proof.
    unfold alloc, bal, keeps, raise, ticked, failing. destruct (heap (tick s)); intros [= <- <-]; simpl.
    - split; [|split; [discriminate|auto]]. split; [reflexivity|]. split; [lia|auto].
    - split; [|split; [destruct (err s); auto|discriminate]]. split; [reflexivity|]. split; [lia|]. intros e ->. reflexivity.
  Qed.
  Lemma passed_bal f s b s' : passed f s = (b, s') -> bal s s' [] [] 0 0 /\ (b = true -> failing s' = false).
  Proof.
    unfold passed. destruct (failing s) eqn:F.
    - intros [= <- <-]. split; [apply bal_refl|discriminate].
    - destruct (f (tick s)) as [c e]. intros [= <- <-]. split.
      + unfold bal, keeps, raise, ticked. simpl. split; [reflexivity|]. split; [lia|]. intros e' ->. reflexivity.
      + destruct e; [discriminate|]. intros _. unfold failing, raise, ticked in *. simpl. destruct (err s); auto.
  Qed.
  (** What a call returns if there is no error *)
  Lemma passed_ok (f : nat -> bool * option N) (v : bool) (s : st) b s' : passed f s = (b, s') -> failing s' = false -> (forall n, fst (f n) = v) -> b = v.
  Proof.
    unfold passed. intros E F V. destruct (failing s) eqn:G; [injection E as <- <-; congruence|].
    destruct (f (tick s)) as [c e] eqn:C. injection E as <- <-. specialize (V (tick s)). rewrite C in V. simpl in V. subst v.
    destruct e; auto. unfold failing, raise in F. simpl in F. destruct (err s); discriminate.
  Qed.
  Lemma free_edges_bal l : forall s, bal s (free_edges dies l s) l [] 0 0.
  Proof.
    unfold free_edges. induction l as [|x l IH]; intros s; [apply bal_refl|]. simpl fold_left.
    eapply bal_trans with (b := l) (n := 0); [|apply IH|reflexivity|reflexivity].
    unfold free_edge. destruct (raise_fields (dies x) (mkSt (tick s) (err s) (x :: gone s) (made s) (unmade s))) as [E1 [E2 [E3 E4]]].
    unfold bal. rewrite E1, E2, E3. cbn [gone made unmade] in *. split; [|split; [lia|exact E4]].
    intros y. cbn [count_occ]. destruct (dec x y); lia.
  Qed.
  Lemma free_cells_bal n s l : bal s (free_cells n s) l l n 0.
  Proof. unfold free_cells, bal, keeps. simpl. split; [reflexivity|]. split; [lia|auto]. Qed.
  Lemma push_bal bucket b s b' s' : push_bucket heap dies bucket b s = (b', s') ->
    bal s s' (bucket ++ concat b) (concat b') (length b) (length b') /\
    (b' = bucket :: b /\ err s' = err s \/ b' = b /\ failing s' = true).
  Proof.
    unfold push_bucket. destruct (alloc heap s) as [[|] s1] eqn:E; apply alloc_bal in E as [[B1 [B2 B3]] [N1 N2]]; intros [= <- <-].
    - split; [|left; split; auto]. unfold bal, keeps in *. simpl. split; [|split; [lia|auto]].
      intros x. specialize (B1 x). simpl in B1. lia.
    - destruct (free_edges_bal bucket s1) as [F1 [F2 F3]]. split; [|right; split; auto; eapply keeps_failing; eauto].
      split; [|split; [lia|eauto using keeps_trans]]. intros x. specialize (B1 x). specialize (F1 x). rewrite occ_app. simpl in *. lia.
  Qed.

  (** *** Brigades *)
  Lemma unbundled_occ x b : occ x (unbundled b) = occ x (concat b).
  Proof.
    assert (H : forall acc, occ x (fold_left (fun r k => k ++ r) b acc) = occ x (concat b) + occ x acc).
    { induction b as [|k b IH]; intros acc; [reflexivity|]. simpl. rewrite IH, !occ_app. lia. }
    unfold unbundled. rewrite H. simpl. lia.
  Qed.
  Section Relation.
    Variable r : nat -> A -> A -> bool * option N.

    Lemma place_bal x : forall bs s bs' p s', place heap dies r x bs s = (bs', p, s') ->
      bal s s' (x :: concat bs) (concat bs' ++ if p then [] else [x]) (length bs) (length bs') /\
      (p = false -> failing s' = true) /\ (p = true -> failing s = false -> failing s' = false).
    Proof.
      induction bs as [|[|y b] bs IH]; intros s bs' p s'; cbn [place].
      - destruct (push_bucket heap dies [] [] s) as [[|q bb] s1] eqn:E; apply push_bal in E as [[B1 [B2 B3]] [[C1 C2]|[C1 C2]]]; try discriminate.
        + intros [= <- <- <-]. split; [|split; [auto|discriminate]]. split; [|split; [exact B2|exact B3]].
          intros z. specialize (B1 z). simpl in *. destruct (dec x z); lia.
        + injection C1 as -> ->. destruct (failing s1) eqn:F; intros [= <- <- <-].
          * split; [|split; [auto|discriminate]]. split; [|split; [exact B2|exact B3]]. intros z. specialize (B1 z). simpl in *. destruct (dec x z); lia.
          * split; [|split; [discriminate|auto]]. split; [|split; [exact B2|exact B3]]. intros z. specialize (B1 z). simpl in *. destruct (dec x z); lia.
      - intros [= <- <- <-]. split; [|split; [discriminate|auto]]. split; [|split; [simpl; lia|apply keeps_refl]]. intros z. simpl. now rewrite app_nil_r.
      - destruct (passed (fun n => r n y x) s) as [[|] s1] eqn:E; apply passed_bal in E as [[B1 [B2 B3]] N].
        + intros [= <- <- <-]. split; [|split; [discriminate|auto]]. split; [|split; [simpl in *; lia|exact B3]].
          intros z. specialize (B1 z). simpl in *. rewrite app_nil_r. destruct (dec x z), (dec y z); lia.
        + destruct (failing s1) eqn:F.
          * intros [= <- <- <-]. split; [|split; [auto|discriminate]]. split; [|split; [simpl in *; lia|exact B3]].
            intros z. specialize (B1 z). simpl in *. rewrite !occ_app. simpl. destruct (dec x z), (dec y z); lia.
          * destruct (place heap dies r x bs s1) as [[bs2 p2] s2] eqn:E2. apply IH in E2 as [[D1 [D2 D3]] [D4 D5]]. intros [= <- <- <-].
            split; [|split; [auto|auto]]. split; [|split; [simpl in *; lia|eauto using keeps_trans]].
            intros z. specialize (B1 z). specialize (D1 z). simpl in *. rewrite !occ_app in *. destruct (dec x z), (dec y z); lia.
    Qed.
    Lemma bundling_bal : forall e t s e' t' s', bundling heap dies r e t s = (e', t', s') ->
      bal s s' (e ++ concat t) (e' ++ concat t') (length t) (length t') /\ (e' <> [] -> failing s' = true) /\
      (failing s = false -> e' = [] -> failing s' = false) /\ (failing s = true -> e' = e).
    Proof.
      induction e as [|x e IH]; intros t s e' t' s'; cbn [bundling].
      - intros [= <- <- <-]. split; [apply bal_refl|]. split; [congruence|auto].
      - destruct (failing s) eqn:F.
        + intros [= <- <- <-]. split; [apply bal_refl|]. split; [auto|]. split; [discriminate|auto].
        + destruct (place heap dies r x t s) as [[t1 [|]] s1] eqn:E; apply place_bal in E as [B [N1 N2]].
          * intros H. apply IH in H as [C [M1 [M2 M3]]]. split; [|split; [exact M1|split; [auto|discriminate]]].
            eapply bal_trans with (b := e ++ concat t1); [|exact C|reflexivity|reflexivity].
            destruct B as [B1 [B2 B3]]. split; [|split; auto]. intros z. specialize (B1 z). simpl in *. rewrite !occ_app in *. simpl in *.
            destruct (dec x z); lia.
          * intros [= <- <- <-]. split; [|split; [auto|split; [discriminate|discriminate]]].
            destruct B as [B1 [B2 B3]]. split; [|split; auto]. intros z. specialize (B1 z). simpl in *. rewrite !occ_app in *. simpl in *.
            destruct (dec x z); lia.
    Qed.
  End Relation.
  Lemma bundling_null_bal : forall e t s e' t' s', bundling_null heap dies e t s = (e', t', s') ->
    bal s s' (e ++ concat t) (e' ++ concat t') (length t) (length t') /\ (e' <> [] -> failing s' = true) /\
    (failing s = false -> e' = [] -> failing s' = false) /\ (failing s = true -> e' = e).
  Proof.
    induction e as [|x e IH]; intros t s e' t' s'; cbn [bundling_null].
    - intros [= <- <- <-]. split; [apply bal_refl|]. split; [congruence|auto].
    - destruct (failing s) eqn:F.
      + intros [= <- <- <-]. split; [apply bal_refl|]. split; [auto|]. split; [discriminate|auto].
      + destruct (push_bucket heap dies [] t s) as [[|b t1] s1] eqn:E; apply push_bal in E as [[B1 [B2 B3]] [[C1 C2]|[C1 C2]]]; try discriminate.
        * subst t. intros [= <- <- <-]. split; [|split; [auto|split; discriminate]]. split; [|split; auto]. intros z. specialize (B1 z).
          simpl in *. rewrite !occ_app. lia.
        * injection C1 as -> ->. destruct (failing s1) eqn:F1; [unfold failing in *; rewrite C2 in F1; congruence|].
          intros H. apply IH in H as [C [M1 [M2 M3]]]. split; [|split; [exact M1|split; [auto|discriminate]]].
          eapply bal_trans with (b := x :: e ++ concat t); [|exact C| |reflexivity].
          -- split; [|split; [exact B2|exact B3]]. intros z. specialize (B1 z). simpl in *. rewrite !occ_app in *. destruct (dec x z); lia.
          -- intros z. simpl. rewrite !occ_app. simpl. destruct (dec x z); lia.
        * subst t. rewrite C2. intros [= <- <- <-]. split; [|split; [auto|split; discriminate]]. split; [|split; auto]. intros z. specialize (B1 z).
          simpl in *. rewrite !occ_app in *. simpl. destruct (dec x z); lia.
  Qed.
  Lemma bundled_bal r e s e' b s' : bundled_f heap dies r e s = (e', b, s') ->
    bal s s' e (e' ++ concat b) 0 (length b) /\ (failing s' = true -> b = []) /\ (failing s' = false -> e' = []).
  Proof.
    unfold bundled_f. destruct e as [|x e]; [intros [= <- <- <-]; split; [apply bal_refl|auto]|].
    destruct (match r with Some r => bundling heap dies r (x :: e) [] s | None => bundling_null heap dies (x :: e) [] s end) as [[e1 t1] s1] eqn:E.
    assert (H : bal s s1 ((x :: e) ++ []) (e1 ++ concat t1) 0 (length t1) /\ (e1 <> [] -> failing s1 = true) /\
      (failing s = false -> e1 = [] -> failing s1 = false) /\ (failing s = true -> e1 = x :: e)).
    { destruct r as [r|]; [exact (bundling_bal _ _ _ _ E)|exact (bundling_null_bal _ _ _ E)]. }
    clear E. destruct H as [[B1 [B2 B3]] [N1 [N2 N3]]]. unfold bundle_end.
    assert (D : e1 = [] /\ failing s1 = false \/ e1 <> [] /\ failing s1 = true).
    { destruct e1 as [|y e1]; [left|right; split; [discriminate|apply N1; discriminate]]. split; auto.
      destruct (failing s) eqn:F; [discriminate (N3 eq_refl)|auto]. }
    destruct D as [[-> F]|[Ne F]]; rewrite F.
    - intros [= <- <- <-]. split; [|split; [congruence|auto]]. split; [|split; [exact B2|exact B3]]. intros z. specialize (B1 z).
      now rewrite app_nil_r in B1.
    - assert (G : exists y l, unbundled t1 ++ e1 = y :: l).
      { destruct (unbundled t1); [destruct e1; [congruence|]|]; simpl; eauto. }
      destruct G as [y [l G]]. rewrite G.
      assert (Q : ([], false) <> (e1, failing s1)) by congruence.
      intros H. assert (K : (y :: l, [], free_cells (length t1) s1) = (e', b, s')) by (destruct e1; [congruence|exact H]).
      injection K as <- <- <-. split; [|split; [auto|unfold failing, free_cells in *; simpl; congruence]].
      destruct (free_cells_bal (length t1) s1 []) as [K1 [K2 K3]].
      split; [|split; [simpl in *; lia|eauto using keeps_trans]]. intros z. specialize (B1 z). specialize (K1 z).
      simpl concat. rewrite app_nil_r in *. rewrite <- G, occ_app, unbundled_occ. rewrite occ_app in B1. cbn [free_cells gone] in *. lia.
  Qed.

  (** *** Buckets by terminus *)
  Lemma place_by_bal key x : forall bs s bs' p s', place_by heap dies key x bs s = (bs', p, s') ->
    bal s s' (x :: concat bs) (concat bs' ++ if p then [] else [x]) (length bs) (length bs') /\
    (p = false -> failing s' = true) /\ (p = true -> err s' = err s).
  Proof.
    induction bs as [|[|y b] bs IH]; intros s bs' p s'; cbn [place_by].
    - destruct (push_bucket heap dies [] [] s) as [[|q bb] s1] eqn:E; apply push_bal in E as [[B1 [B2 B3]] [[C1 C2]|[C1 C2]]]; try discriminate.
      + intros [= <- <- <-]. split; [|split; [auto|discriminate]]. split; [|split; [exact B2|exact B3]].
        intros z. specialize (B1 z). simpl in *. destruct (dec x z); lia.
      + injection C1 as -> ->. intros [= <- <- <-]. split; [|split; [discriminate|auto]]. split; [|split; [exact B2|exact B3]].
        intros z. specialize (B1 z). simpl in *. destruct (dec x z); lia.
    - intros [= <- <- <-]. split; [|split; [discriminate|auto]]. split; [|split; [simpl; lia|apply keeps_refl]]. intros z. simpl. now rewrite app_nil_r.
    - destruct (N.eqb (key y) (key x)).
      + intros [= <- <- <-]. split; [|split; [discriminate|auto]]. split; [|split; [simpl; lia|apply keeps_refl]].
        intros z. simpl. rewrite app_nil_r. destruct (dec x z), (dec y z); lia.
      + destruct (place_by heap dies key x bs s) as [[bs2 p2] s2] eqn:E2. apply IH in E2 as [[D1 [D2 D3]] [D4 D5]]. intros [= <- <- <-].
        split; [|split; auto]. split; [|split; [simpl in *; lia|auto]].
        intros z. specialize (D1 z). simpl in *. rewrite !occ_app in *. destruct (dec x z), (dec y z); lia.
  Qed.
  Lemma bucketed_bal key : forall e t s e' t' s', bucketed_f heap dies key e t s = (e', t', s') ->
    bal s s' (e ++ concat t) (e' ++ concat t') (length t) (length t') /\ (e' <> [] -> failing s' = true).
  Proof.
    induction e as [|x e IH]; intros t s e' t' s'; cbn [bucketed_f].
    - intros [= <- <- <-]. split; [apply bal_refl|congruence].
    - destruct (place_by heap dies key x t s) as [[t1 [|]] s1] eqn:E; apply place_by_bal in E as [B [N1 N2]].
      + intros H. apply IH in H as [C M1]. split; [|exact M1].
        eapply bal_trans with (b := e ++ concat t1); [|exact C|reflexivity|reflexivity].
        destruct B as [B1 [B2 B3]]. split; [|split; auto]. intros z. specialize (B1 z). simpl in *. rewrite !occ_app in *. simpl in *.
        destruct (dec x z); lia.
      + intros [= <- <- <-]. split; [|auto].
        destruct B as [B1 [B2 B3]]. split; [|split; auto]. intros z. specialize (B1 z). simpl in *. rewrite !occ_app in *. simpl in *.
        destruct (dec x z); lia.
  Qed.

  (** *** Tables *)
  Local Notation flat t := (concat (map snd t)).
  Lemma jli_occ z k x (t : list (N * list A)) : occ z (flat (jli k x t)) = occ z (x :: flat t).
  Proof. apply occ_perm, jli_perm. Qed.
  Lemma tabulated_bal key : forall e t s e' t' s', tabulated heap key e t s = (e', t', s') ->
    bal s s' (e ++ flat t) (e' ++ flat t') 0 0 /\ (e' <> [] -> failing s' = true).
  Proof.
    induction e as [|x e IH]; intros t s e' t' s'; cbn [tabulated].
    - intros [= <- <- <-]. split; [apply bal_refl|congruence].
    - destruct (failing s) eqn:F; [intros [= <- <- <-]; split; [apply bal_refl|auto]|].
      destruct (alloc heap s) as [[|] s1] eqn:E; apply alloc_bal in E as [[B1 [B2 B3]] [N1 N2]].
      + intros H. apply IH in H as [[C1 [C2 C3]] M]. split; [|exact M]. split; [|split; [lia|eauto using keeps_trans]].
        intros z. specialize (B1 z). specialize (C1 z). rewrite !occ_app, jli_occ in C1. simpl in *. rewrite !occ_app in *.
        destruct (dec x z); lia.
      + intros [= <- <- <-]. split; [|auto]. split; [|split; [lia|auto]]. intros z. specialize (B1 z). simpl in *. rewrite !occ_app.
        destruct (dec x z); lia.
  Qed.
  Lemma pushing_bal : forall p b s p' b' s', pushing heap dies p b s = (p', b', s') ->
    bal s s' (flat p ++ concat b) (flat p' ++ concat b') (length b) (length b') /\ (p' <> [] -> failing s' = true).
  Proof.
    induction p as [|[k l] p IH]; intros b s p' b' s'; cbn [pushing].
    - intros [= <- <- <-]. split; [apply bal_refl|congruence].
    - destruct (failing s) eqn:F; [intros [= <- <- <-]; split; [apply bal_refl|auto]|].
      destruct (push_bucket heap dies l b s) as [b1 s1] eqn:E; apply push_bal in E as [B N].
      intros H. apply IH in H as [C M]. split; [|exact M].
      eapply bal_trans with (b := flat p ++ concat b1); [|exact C|reflexivity|reflexivity].
      destruct B as [B1 [B2 B3]]. split; [|split; auto]. intros z. specialize (B1 z). simpl in *. rewrite !occ_app in *. lia.
  Qed.
  Lemma unwind_occ z p : forall acc : list A, occ z (fold_left (fun e (kl : N * list A) => snd kl ++ e) p acc) = occ z (flat p) + occ z acc.
  Proof. induction p as [|[k l] p IH]; intros acc; [reflexivity|]. simpl. rewrite IH, !occ_app. lia. Qed.
  Lemma unwind_bal e b p s e' b' s' : unwind e b p s = (e', b', s') -> (p <> [] -> failing s = true) -> (e <> [] -> failing s = true) ->
    bal s s' (e ++ flat p ++ concat b) (e' ++ concat b') (length b) (length b') /\ (failing s' = true -> b' = []) /\
    (failing s' = false -> e' = []).
  Proof.
    unfold unwind. intros E Hp He. destruct (failing s) eqn:F.
    - injection E as <- <- <-. split; [|split; [auto|unfold failing, free_cells in *; simpl; congruence]].
      destruct (free_cells_bal (length b) s []) as [K1 [K2 K3]]. split; [|split; [simpl in *; lia|exact K3]].
      intros z. specialize (K1 z). simpl concat. rewrite app_nil_r, unwind_occ, !occ_app, unbundled_occ. cbn [free_cells gone] in *. lia.
    - injection E as <- <- <-. destruct p; [|discriminate Hp; discriminate]. destruct e; [|discriminate He; discriminate].
      split; [apply bal_refl|split; [congruence|auto]].
  Qed.
  Lemma marshalled_bal key e s e' b s' : marshalled_f judy heap dies key e s = (e', b, s') ->
    bal s s' e (e' ++ concat b) 0 (length b) /\ (failing s' = false -> e' = []).
  Proof.
    unfold marshalled_f. destruct judy.
    - destruct (tabulated heap key e [] s) as [[e1 t] s1] eqn:E1. destruct (pushing heap dies t [] s1) as [[p b1] s2] eqn:E2.
      apply tabulated_bal in E1 as [B1 N1]. apply pushing_bal in E2 as [B2 N2]. intros E3. apply unwind_bal in E3 as [B3 [N3 N4]]; auto.
      2: { intros H. eapply keeps_failing; [exact (bal_keeps B2)|auto]. }
      split; [|exact N4].
      eapply bal_trans with (b := e1 ++ flat p ++ concat b1) (n := length b1); [|exact B3|reflexivity|reflexivity].
      destruct B1 as [A1 [A2 A3]], B2 as [D1 [D2 D3]]. split; [|split; [simpl in *; lia|eauto using keeps_trans]].
      intros z. specialize (A1 z). specialize (D1 z). simpl in *. rewrite !occ_app in *. simpl in *. lia.
    - intros E. apply bucketed_bal in E as [B N]. split.
      + destruct B as [A1 [A2 A3]]. split; [|split; auto]. intros z. specialize (A1 z). simpl in *. now rewrite app_nil_r in A1.
      + intros F. destruct e'; auto. rewrite N in F; [discriminate|discriminate].
  Qed.
  Lemma rallying_bal r : forall p b s p' b' s', rallying heap dies r p b s = (p', b', s') ->
    bal s s' (flat p ++ concat b) (flat p' ++ concat b') (length b) (length b') /\ (p' <> [] -> failing s' = true).
  Proof.
    induction p as [|[k l] p IH]; intros b s p' b' s'; cbn [rallying].
    - intros [= <- <- <-]. split; [apply bal_refl|congruence].
    - destruct (failing s) eqn:F; [intros [= <- <- <-]; split; [apply bal_refl|auto]|].
      destruct (bundled_f heap dies (Some r) l s) as [[l1 t] s1] eqn:E; apply bundled_bal in E as [[B1 [B2 B3]] [N1 N2]].
      destruct (failing s1) eqn:F1.
      + intros [= <- <- <-]. split; [|auto]. rewrite (N1 eq_refl) in *. split; [|split; [simpl in *; lia|exact B3]].
        intros z. specialize (B1 z). simpl in *. rewrite !occ_app in *. simpl in *. lia.
      + intros H. apply IH in H as [C M]. split; [|exact M].
        eapply bal_trans with (b := flat p ++ concat (t ++ b)); [|exact C|reflexivity|reflexivity].
        rewrite (N2 eq_refl) in *. split; [|split; [rewrite app_length; simpl in *; lia|exact B3]].
        intros z. specialize (B1 z). rewrite concat_app. simpl in *. rewrite !occ_app in *. lia.
  Qed.
  Lemma rallied_bal hash r e s e' b s' : rallied_f judy heap dies hash r e s = (e', b, s') ->
    bal s s' e (e' ++ concat b) 0 (length b) /\ (failing s' = true -> b = []) /\ (failing s' = false -> e' = []).
  Proof.
    unfold rallied_f. destruct judy; [|apply bundled_bal].
    destruct (tabulated heap hash e [] s) as [[e1 t] s1] eqn:E1. destruct (rallying heap dies r t [] s1) as [[p b1] s2] eqn:E2.
    apply tabulated_bal in E1 as [B1 N1]. apply rallying_bal in E2 as [B2 N2]. intros E3. apply unwind_bal in E3 as [B3 N3]; auto.
    2: { intros H. eapply keeps_failing; [exact (bal_keeps B2)|auto]. }
    split; [|exact N3].
    eapply bal_trans with (b := e1 ++ flat p ++ concat b1) (n := length b1); [|exact B3|reflexivity|reflexivity].
    destruct B1 as [A1 [A2 A3]], B2 as [D1 [D2 D3]]. split; [|split; [simpl in *; lia|eauto using keeps_trans]].
    intros z. specialize (A1 z). specialize (D1 z). simpl in *. rewrite !occ_app in *. simpl in *. lia.
  Qed.
End Balance.

Section More.
  Context {A : Type}.
  Variable dec : forall x y : A, {x = y} + {x <> y}.
  Variable lab : A -> N.
  Variable judy : bool.
  Variable heap : nat -> bool.
  Variable dies : A -> option N.

  Local Notation occ x l := (count_occ dec l x).
  Local Notation st := (@st A).
  Local Notation bal := (bal dec).

  (** *** Deduplication *)
  Section Dedup.
    Variable eeq : nat -> N -> N -> bool * option N.
    Variable ehash : N -> N.

    Lemma found_bal l : forall t (s : st) b s', found judy eeq ehash l t s = (b, s') -> bal s s' [] [] 0 0.
    Proof.
      induction t as [|[h l'] t IH]; intros s b s'; cbn [found]; [intros [= <- <-]; apply bal_refl|].
      destruct (same_bin judy (ehash l) h); [|apply IH].
      destruct (failed (fun n => eeq n l l') s) as [[|] s1] eqn:E; unfold failed in E; apply (passed_bal dec) in E as [B _].
      - intros H. apply IH in H. eapply bal_trans; eauto.
      - intros [= <- <-]. exact B.
    Qed.
    Lemma maybe_alloc_bal (s : st) b s' : (if judy then alloc heap s else (true, s)) = (b, s') -> bal s s' [] [] 0 0 /\ (b = false -> failing s' = true).
    Proof.
      destruct judy; [intros E; apply (alloc_bal dec) in E as [B [N _]]; auto|]. intros [= <- <-]. split; [apply bal_refl|discriminate].
    Qed.
    Lemma recorded_bal l t (s : st) b s' : recorded_f judy heap eeq ehash l t s = (b, s') -> bal s s' [] [] 0 0.
    Proof.
      unfold recorded_f. destruct t as [|x t]; [intros [= <- <-]; apply bal_refl|].
      destruct (if judy then alloc heap s else (true, s)) as [c s1] eqn:E1. apply maybe_alloc_bal in E1 as [B1 _].
      destruct c.
      - destruct (found judy eeq ehash l (x :: t) s1) as [p s2] eqn:E2. apply found_bal in E2. intros [= <- <-].
        eapply bal_trans; eauto.
      - intros [= <- <-]. exact B1.
    Qed.
    Lemma record_bal l t (s : st) t' s' : record_f judy heap eeq ehash l t s = (t', s') -> bal s s' [] [] 0 0.
    Proof.
      unfold record_f. destruct (if judy then alloc heap s else (true, s)) as [c s1] eqn:E1. apply maybe_alloc_bal in E1 as [B1 _].
      destruct c; [|intros [= <- <-]; exact B1].
      destruct (found judy eeq ehash l t s1) as [p s2] eqn:E2. apply found_bal in E2.
      assert (B2 : bal s s2 [] [] 0 0) by (eapply bal_trans; eauto).
      destruct (failing s2 || p); [intros [= <- <-]; exact B2|].
      destruct (alloc heap s2) as [[|] s3] eqn:E3; apply (alloc_bal dec) in E3 as [B3 _]; intros [= <- <-]; eapply bal_trans; eauto.
    Qed.
    Lemma repeating_bal : forall e t r (s : st) k r' s', repeating_f lab judy heap eeq ehash t e r s = (k, r', s') ->
      bal s s' (e ++ r) (k ++ r') 0 0.
    Proof.
      induction e as [|x e IH]; intros t r s k r' s'; cbn [repeating_f]; [intros [= <- <- <-]; apply bal_refl|].
      destruct (failing s); [intros [= <- <- <-]; apply bal_refl|].
      destruct (recorded_f judy heap eeq ehash (lab x) t s) as [[|] s1] eqn:E1; apply recorded_bal in E1 as [B1 [B2 B3]].
      - intros H. apply IH in H as [C1 [C2 C3]]. split; [|split; [lia|eauto using keeps_trans]].
        intros z. specialize (B1 z). specialize (C1 z). simpl in *. rewrite !(occ_app dec) in *. simpl in *. destruct (dec x z); lia.
      - destruct (record_f judy heap eeq ehash (lab x) t s1) as [t' s2] eqn:E2. apply record_bal in E2 as [D1 [D2 D3]].
        destruct (repeating_f lab judy heap eeq ehash t' e r s2) as [[k1 r1] s3] eqn:E3. apply IH in E3 as [C1 [C2 C3]].
        intros [= <- <- <-]. split; [|split; [lia|eauto using keeps_trans]].
        intros z. specialize (B1 z). specialize (C1 z). specialize (D1 z). simpl in *. rewrite !(occ_app dec) in *. simpl in *. destruct (dec x z); lia.
    Qed.
    Lemma repeating_labels_bal e (s : st) k r s' : repeating_labels_f lab judy heap eeq ehash e s = (k, r, s') -> bal s s' e (k ++ r) 0 0.
    Proof.
      unfold repeating_labels_f. destruct e as [|x [|y e]].
      1-2: intros [= <- <- <-]; rewrite app_nil_r; apply bal_refl.
      intros H. apply repeating_bal in H. now rewrite app_nil_r in H.
    Qed.
    Lemma deduplicating_bal : forall t res (s : st) res' s', deduplicating lab judy heap dies eeq ehash t res s = (res', s') ->
      bal s s' (concat t ++ res) res' (length t) 0.
    Proof.
      induction t as [|b t IH]; intros res s res' s'; cbn [deduplicating]; [intros [= <- <-]; apply bal_refl|].
      destruct (repeating_labels_f lab judy heap eeq ehash b s) as [[k r] s1] eqn:E. apply repeating_labels_bal in E as [B1 [B2 B3]].
      intros H. apply IH in H as [C1 [C2 C3]].
      destruct (free_edges_bal dec dies r s1) as [F1 [F2 F3]].
      destruct (free_cells_bal dec 1 (free_edges dies r s1) []) as [G1 [G2 G3]].
      split; [|split; [cbn [length] in *; lia|eauto using keeps_trans]].
      intros z. specialize (B1 z). specialize (C1 z). specialize (F1 z). specialize (G1 z). cbn [concat count_occ] in *.
      rewrite !(occ_app dec) in *. lia.
    Qed.
    Lemma dedup_brigade_bal t (s : st) res s' : deduplicated_brigade_f lab judy heap dies eeq ehash t s = (res, s') ->
      bal s s' (concat t) res (length t) 0 /\ (failing s' = true -> res = []).
    Proof.
      unfold deduplicated_brigade_f. destruct (deduplicating lab judy heap dies eeq ehash t [] s) as [r1 s1] eqn:E.
      apply deduplicating_bal in E. rewrite app_nil_r in E. destruct (failing s1) eqn:F; intros [= <- <-].
      - split; [|auto]. eapply bal_trans; [exact E|apply free_edges_bal|reflexivity|reflexivity].
      - split; [exact E|congruence].
    Qed.
    Lemma dedup_edges_bal key e (s : st) res s' : deduplicated_edges_f lab judy heap dies eeq ehash key e s = (res, s') ->
      bal s s' e res 0 0 /\ (failing s' = true -> res = []).
    Proof.
      unfold deduplicated_edges_f. destruct (marshalled_f judy heap dies key e s) as [[e1 b] s1] eqn:E1.
      destruct (deduplicated_brigade_f lab judy heap dies eeq ehash b s1) as [r2 s2] eqn:E2. intros [= <- <-].
      apply (marshalled_bal dec) in E1 as [[B1 [B2 B3]] N1]. apply dedup_brigade_bal in E2 as [[C1 [C2 C3]] N2].
      destruct (free_edges_bal dec dies e1 s2) as [F1 [F2 F3]].
      split.
      - split; [|split; [lia|eauto using keeps_trans]]. intros z. specialize (B1 z). specialize (C1 z). specialize (F1 z).
        rewrite !(occ_app dec) in *. simpl in *. lia.
      - intros F. destruct (failing s2) eqn:F'; [auto|]. destruct e1 as [|y e1]; [simpl in F; congruence|].
        destruct (failing s1) eqn:F''; [rewrite (keeps_failing C3 F'') in F'; discriminate|]. discriminate (N1 eq_refl).
    Qed.
  End Dedup.

  (** *** Uniqueness *)
  Section Unique.
    Variable hash : A -> N.
    Variable eeq veq : nat -> A -> A -> bool * option N.
    Variable ident : A -> A -> bool.

    Lemma duplicate_bal p : forall l (s : st) b s', duplicate veq ident p l s = (b, s') -> bal s s' [] [] 0 0.
    Proof.
      induction l as [|x l IH]; intros s b s'; cbn [duplicate]; [intros [= <- <-]; apply bal_refl|].
      destruct (ident p x); [intros [= <- <-]; apply bal_refl|].
      destruct (failed (fun n => veq n p x) s) as [[|] s1] eqn:E; unfold failed in E; apply (passed_bal dec) in E as [B _].
      - intros H. apply IH in H. eapply bal_trans; eauto.
      - intros [= <- <-]. exact B.
    Qed.
    Lemma unique_in_bal : forall b r (s : st) r' s', unique_in dies veq ident b r s = (r', s') -> bal s s' (b ++ r) r' 0 0.
    Proof.
      induction b as [|p b IH]; intros r s r' s'; cbn [unique_in]; [intros [= <- <-]; apply bal_refl|].
      destruct (duplicate veq ident p b s) as [d s1] eqn:E. apply duplicate_bal in E as [B1 [B2 B3]].
      destruct (d || failing s1); intros H; apply IH in H as [C1 [C2 C3]].
      - destruct (free_edges_bal dec dies [p] s1) as [F1 [F2 F3]]. cbn [free_edges fold_left] in F1, F2, F3.
        split; [|split; [lia|eauto using keeps_trans]]. intros z. specialize (B1 z). specialize (C1 z). specialize (F1 z).
        simpl in *. rewrite !(occ_app dec) in *. destruct (dec p z); lia.
      - split; [|split; [lia|eauto using keeps_trans]]. intros z. specialize (B1 z). specialize (C1 z).
        simpl in *. rewrite !(occ_app dec) in *. simpl in *. destruct (dec p z); lia.
    Qed.
    Lemma uniques_bal : forall t r (s : st) r' s', uniques dies veq ident t r s = (r', s') -> bal s s' (concat t ++ r) r' (length t) 0.
    Proof.
      induction t as [|b t IH]; intros r s r' s'; cbn [uniques]; [intros [= <- <-]; apply bal_refl|].
      destruct (unique_in dies veq ident b r s) as [r1 s1] eqn:E. apply unique_in_bal in E as [B1 [B2 B3]].
      intros H. apply IH in H as [C1 [C2 C3]].
      destruct (free_cells_bal dec 1 s1 []) as [G1 [G2 G3]].
      split; [|split; [cbn [length] in *; lia|eauto using keeps_trans]].
      intros z. specialize (B1 z). specialize (C1 z). specialize (G1 z). cbn [concat count_occ] in *.
      rewrite !(occ_app dec) in *. lia.
    Qed.
    Lemma unique_bal e (s : st) r s' : unique_f judy heap dies hash eeq veq ident e s = (r, s') -> bal s s' e r 0 0.
    Proof.
      unfold unique_f. destruct (rallied_f judy heap dies hash eeq e s) as [[e1 t] s1] eqn:E.
      apply (rallied_bal dec) in E as [[B1 [B2 B3]] _]. intros H. apply uniques_bal in H as [C1 [C2 C3]].
      destruct (free_edges_bal dec dies e1 s1) as [F1 [F2 F3]].
      split; [|split; [lia|eauto using keeps_trans]]. intros z. specialize (B1 z). specialize (C1 z). specialize (F1 z).
      rewrite !(occ_app dec) in *. simpl in *. lia.
    Qed.
  End Unique.

  (** *** Pruning and filtering *)
  Section Filters.
    Variable keep : nat -> A -> bool * option N.
    Variable test : nat -> A -> N * option N.
    Variable reduction : nat -> list A -> N * option N.
    Variable trash : N -> option N.
    Variable less : nat -> A -> A -> bool * option N.

    Lemma keeping_bal : forall e q (s : st) k q' s', keeping keep e q s = (k, q', s') -> bal s s' (e ++ q) (k ++ q') 0 0.
    Proof.
      induction e as [|x e IH]; intros q s k q' s'; cbn [keeping]; [intros [= <- <- <-]; apply bal_refl|].
      destruct (passed (fun n => keep n x) s) as [[|] s1] eqn:E; apply (passed_bal dec) in E as [[B1 [B2 B3]] _].
      - destruct (keeping keep e q s1) as [[k1 q1] s2] eqn:E2. apply IH in E2 as [C1 [C2 C3]]. intros [= <- <- <-].
        split; [|split; [lia|eauto using keeps_trans]]. intros z. specialize (B1 z). specialize (C1 z).
        simpl in *. rewrite !(occ_app dec) in *. destruct (dec x z); lia.
      - intros H. apply IH in H as [C1 [C2 C3]].
        split; [|split; [lia|eauto using keeps_trans]]. intros z. specialize (B1 z). specialize (C1 z).
        simpl in *. rewrite !(occ_app dec) in *. simpl in *. destruct (dec x z); lia.
    Qed.
    Lemma filter_edges_bal pruner e (s : st) k s' : filter_edges_f dies keep pruner e s = (k, s') -> bal s s' e k 0 0.
    Proof.
      unfold filter_edges_f. destruct pruner; [|intros [= <- <-]; apply bal_refl].
      destruct (keeping keep e [] s) as [[k1 q] s1] eqn:E. apply keeping_bal in E as [B1 [B2 B3]]. intros [= <- <-].
      destruct (free_edges_bal dec dies q s1) as [F1 [F2 F3]].
      split; [|split; [lia|eauto using keeps_trans]]. intros z. specialize (B1 z). specialize (F1 z). rewrite !(occ_app dec) in *. simpl in *. lia.
    Qed.
    Lemma tested_bal f (s : st) b s' : tested trash f s = (b, s') -> bal s s' [] [] 0 0.
    Proof.
      unfold tested. destruct (failing s); [intros [= <- <-]; apply bal_refl|]. destruct (f (tick s)) as [w e].
      assert (B : bal s (raise e (ticked s)) [] [] 0 0).
      { split; [reflexivity|]. split; [simpl; lia|]. unfold keeps, raise, ticked. simpl. intros c ->. reflexivity. }
      destruct (N.eqb w 0); intros [= <- <-]; [exact B|].
      destruct B as [B1 [B2 B3]]. split; [exact B1|]. split; [exact B2|]. intros c H. apply B3 in H. unfold raise at 1. cbn [err]. now rewrite H.
    Qed.
    Lemma separated_bal : forall e p c (s : st) p' c' s', separated test trash e p c s = (p', c', s') -> bal s s' (e ++ p ++ c) (p' ++ c') 0 0.
    Proof.
      induction e as [|x e IH]; intros p c s p' c' s'; cbn [separated]; [intros [= <- <- <-]; apply bal_refl|].
      destruct (tested trash (fun n => test n x) s) as [[|] s1] eqn:E; apply tested_bal in E as [B1 [B2 B3]];
        intros H; apply IH in H as [C1 [C2 C3]]; (split; [|split; [lia|eauto using keeps_trans]]); intros z; specialize (B1 z); specialize (C1 z);
        repeat (progress (simpl in *; rewrite ?(occ_app dec) in *)); destruct (dec x z); lia.
    Qed.
    Lemma minimum_bal {B} (lt : nat -> B -> B -> bool * option N) : forall e m j (s : st) o s', minimum lt m j e s = (o, s') ->
      bal s s' [] [] 0 0 /\ (failing s' = true -> o = None).
    Proof.
      induction e as [|x e IH]; intros m j s o s'; cbn [minimum].
      - intros [= <- <-]. split; [apply bal_refl|]. intros ->. reflexivity.
      - destruct (failing s) eqn:F; [intros [= <- <-]; split; [apply bal_refl|auto]|].
        destruct m as [[i y]|]; [|apply IH].
        destruct (passed (fun n => lt n x y) s) as [[|] s1] eqn:E; apply (passed_bal dec) in E as [B1 _]; intros H; apply IH in H as [C N];
          (split; [eapply bal_trans; eauto|exact N]).
    Qed.
    Lemma minimum_at {B} (lt : nat -> B -> B -> bool * option N) (l : list B) : forall e m j (s : st) o s', minimum lt m j e s = (o, s') ->
      (forall k, nth_error e k = nth_error l (j + k)) -> (forall i y, m = Some (i, y) -> nth_error l i = Some y) ->
      forall i y, o = Some (i, y) -> nth_error l i = Some y.
    Proof.
      induction e as [|x e IH]; intros m j s o s'; cbn [minimum].
      - intros [= <- <-] H K i y. destruct (failing s); [discriminate|apply K].
      - destruct (failing s); [intros [= <- <-]; discriminate|]. intros E H K.
        assert (Hx : nth_error l j = Some x) by (specialize (H 0); rewrite Nat.add_0_r in H; now rewrite <- H).
        assert (H' : forall k, nth_error e k = nth_error l (S j + k)) by (intros k; specialize (H (S k)); rewrite Nat.add_succ_r in H; exact H).
        destruct m as [[i y]|].
        + destruct (passed (fun n => lt n x y) s) as [[|] s1]; (eapply IH; [exact E|exact H'|]); [intros ? ? [= <- <-]; exact Hx|exact K].
        + eapply IH; [exact E|exact H'|]. intros ? ? [= <- <-]; exact Hx.
    Qed.
    Lemma nth_perm {B} : forall (l : list B) i y, nth_error l i = Some y -> Permutation l (y :: firstn i l ++ skipn (S i) l).
    Proof.
      induction l as [|x l IH]; intros [|i] y; try discriminate.
      - intros [= ->]. reflexivity.
      - intros H. apply IH in H. cbn [firstn skipn app]. rewrite perm_swap. now constructor.
    Qed.
    Lemma minimum_f_perm {B} (lt : nat -> B -> B -> bool * option N) e (s : st) o l s' : minimum_f lt e s = (o, l, s') ->
      bal s s' [] [] 0 0 /\ Permutation e (match o with Some m => [m] | None => [] end ++ l) /\ (failing s' = true -> o = None).
    Proof.
      unfold minimum_f. destruct (minimum lt None 0 e s) as [[[i m]|] s1] eqn:E; intros [= <- <- <-];
        destruct (minimum_bal _ _ _ _ _ E) as [B1 N]; (split; [exact B1|]).
      - split; [|intros F; discriminate (N F)]. cbn [app]. apply nth_perm. eapply minimum_at; [exact E|intros; reflexivity|discriminate|reflexivity].
      - split; [reflexivity|auto].
    Qed.
    Lemma individually_bal thin e c (s : st) e' c' s' : individually_f test trash less thin e c s = (e', c', s') -> bal s s' (e ++ c) (e' ++ c') 0 0.
    Proof.
      unfold individually_f. destruct (separated test trash e [] c s) as [[p c1] s1] eqn:E. apply separated_bal in E. cbn [app] in E.
      destruct thin; [|intros [= <- <- <-]; exact E]. destruct p as [|x p]; [intros [= <- <- <-]; exact E|].
      destruct (minimum_f less (x :: p) s1) as [[[m|] p1] s2] eqn:E2; apply minimum_f_perm in E2 as [B [P _]]; intros [= <- <- <-];
        (eapply bal_trans with (b := (x :: p) ++ c1) (b' := (x :: p) ++ c1); [exact E| |reflexivity|reflexivity]);
        destruct B as [B1 [B2 B3]]; (split; [|split; [lia|exact B3]]); intros z; specialize (B1 z); apply (occ_perm dec z) in P;
        rewrite !(occ_app dec) in *; simpl in *; lia.
    Qed.
    Lemma jointly_bal : forall b e c (s : st) e' c' s', jointly reduction trash b e c s = (e', c', s') -> bal s s' (concat b ++ e ++ c) (e' ++ c') 0 0.
    Proof.
      induction b as [|l b IH]; intros e c s e' c' s'; cbn [jointly]; [intros [= <- <- <-]; apply bal_refl|].
      destruct (tested trash _ s) as [[|] s1] eqn:E; apply tested_bal in E as [B1 [B2 B3]];
        intros H; apply IH in H as [C1 [C2 C3]]; (split; [|split; [lia|eauto using keeps_trans]]); intros z; specialize (B1 z); specialize (C1 z);
        simpl in *; rewrite !(occ_app dec) in *; lia.
    Qed.
    Lemma passing_bal : forall b p c (s : st) p' c' s', passing reduction trash b p c s = (p', c', s') ->
      bal s s' (concat b ++ concat p ++ c) (concat p' ++ c') (length b + length p) (length p').
    Proof.
      induction b as [|l b IH]; intros p c s p' c' s'; cbn [passing]; [intros [= <- <- <-]; apply bal_refl|].
      destruct (tested trash _ s) as [[|] s1] eqn:E; apply tested_bal in E as [B1 [B2 B3]]; intros H; apply IH in H as [C1 [C2 C3]].
      - split; [|split; [cbn [length] in *; lia|eauto using keeps_trans]]. intros z; specialize (B1 z); specialize (C1 z);
          simpl in *; rewrite !(occ_app dec) in *; lia.
      - split; [|split; [cbn [length free_cells made unmade] in *; lia|]].
        + intros z; specialize (B1 z); specialize (C1 z); simpl in *; rewrite !(occ_app dec) in *; lia.
        + intros c0 H. apply C3. cbn [free_cells err]. auto.
    Qed.
    Lemma cat_all_occ z p : forall c : list A, occ z (cat_all p c) = occ z (concat p) + occ z c.
    Proof. unfold cat_all. induction p as [|l p IH]; intros c; [reflexivity|]. simpl. rewrite IH, !(occ_app dec). lia. Qed.
    Lemma jointly_filtered_bal b c (s : st) e' c' s' : jointly_filtered_f reduction trash b c s = (e', c', s') ->
      bal s s' (concat b ++ c) (e' ++ c') (length b) 0.
    Proof.
      unfold jointly_filtered_f. destruct (jointly reduction trash b [] c s) as [[e1 c1] s1] eqn:E. apply jointly_bal in E as [B1 [B2 B3]].
      intros [= <- <- <-]. split; [exact B1|]. split; [simpl in *; lia|exact B3].
    Qed.
    Lemma concat_perm (b b' : list (list A)) : Permutation b b' -> Permutation (concat b) (concat b').
    Proof.
      induction 1 as [|x l l' P IH|x y l|]; simpl; [constructor|now apply Permutation_app_head| |eauto using perm_trans].
      rewrite !app_assoc. apply Permutation_app_tail, Permutation_app_comm.
    Qed.
    Lemma jointly_thinned_bal b c (s : st) e' c' s' : jointly_thinned_f reduction trash less b c s = (e', c', s') ->
      bal s s' (concat b ++ c) (e' ++ c') (length b) 0.
    Proof.
      unfold jointly_thinned_f. destruct (passing reduction trash b [] c s) as [[p c1] s1] eqn:E. apply passing_bal in E.
      cbn [concat app length] in E. rewrite Nat.add_0_r in E. destruct p as [|x p]; [intros [= <- <- <-]; exact E|].
      destruct (minimum_f (first_less less) (x :: p) s1) as [[[m|] p1] s2] eqn:E2; apply minimum_f_perm in E2 as [[B1 [B2 B3]] [P _]]; intros [= <- <- <-];
        (eapply bal_trans with (b := concat (x :: p) ++ c1) (b' := concat (x :: p) ++ c1); [exact E| |reflexivity|reflexivity]);
        pose proof (Permutation_length P) as Pl; apply concat_perm in P;
        (split; [|split; [cbn [free_cells made unmade] in *; rewrite app_length in Pl; cbn [length] in *; lia|exact B3]]);
        intros z; specialize (B1 z); apply (occ_perm dec z) in P; cbn [free_cells gone] in *;
        rewrite !(occ_app dec), ?cat_all_occ in *; rewrite ?concat_app, ?(occ_app dec) in P; cbn [concat count_occ app] in *;
        rewrite ?app_nil_r in P; lia.
    Qed.
    Lemma filtered_bal individual thin order e c (s : st) e' c' s' :
      filtered_f judy heap dies test reduction trash less individual thin order e c s = (e', c', s') -> bal s s' (e ++ c) (e' ++ c') 0 0.
    Proof.
      unfold filtered_f. destruct (failing s) eqn:F; [intros [= <- <- <-]; apply bal_refl|].
      destruct individual; [apply individually_bal|].
      destruct (match order with None => bundled_f heap dies None e s | Some (h, r) => rallied_f judy heap dies h r e s end) as [[e1 b] s1] eqn:E.
      assert (H : bal s s1 e (e1 ++ concat b) 0 (length b) /\ (failing s1 = true -> b = []) /\ (failing s1 = false -> e1 = [])).
      { destruct order as [[h r]|]; [eapply rallied_bal|eapply bundled_bal]; exact E. }
      destruct H as [[B1 [B2 B3]] [N1 N2]]. destruct e1 as [|x e1].
      - intros H. assert (C : bal s1 s' (concat b ++ c) (e' ++ c') (length b) 0).
        { destruct thin; [eapply jointly_thinned_bal|eapply jointly_filtered_bal]; exact H. }
        destruct C as [C1 [C2 C3]]. split; [|split; [lia|eauto using keeps_trans]]. intros z. specialize (B1 z). specialize (C1 z).
        rewrite !(occ_app dec) in *. simpl in *. lia.
      - intros [= <- <- <-]. destruct (failing s1) eqn:F1; [|discriminate (N2 eq_refl)]. rewrite (N1 eq_refl) in *.
        split; [|split; [simpl in *; lia|exact B3]]. intros z. specialize (B1 z). rewrite !(occ_app dec) in *. simpl in *. destruct (dec x z); lia.
    Qed.
  End Filters.

  (** *** Reduction.  New labels are in the result, or have been destroyed. *)
  Section Reduce.
    Variable red : nat -> list A -> N * option N.
    Variable kills : N -> option N.
    Local Notation rst := (@rst A).
    Local Notation occn x l := (count_occ N.eq_dec l x).
    Definition nonnull (l : list N) : list N := filter (fun w => negb (N.eqb w 0)) l.
    Definition lbal (s s' : rst) (inn out : list N) : Prop :=
      forall w, occn w (nonnull inn) + occn w (newl s') + occn w (dead s) = occn w (nonnull out) + occn w (newl s) + occn w (dead s').

    Lemma occn_app w l m : occn w (nonnull (l ++ m)) = occn w (nonnull l) + occn w (nonnull m).
    Proof. unfold nonnull. rewrite filter_app. apply count_occ_app. Qed.
    Lemma occn_cons w x l : occn w (nonnull (x :: l)) = occn w (nonnull [x]) + occn w (nonnull l).
    Proof. apply (occn_app w [x] l). Qed.
    Lemma destroy_bal l (s : rst) : bal (below s) (below (destroy_label kills l s)) [] [] 0 0 /\ lbal s (destroy_label kills l s) [l] [].
    Proof.
      unfold destroy_label. destruct (N.eqb l 0) eqn:E.
      - split; [apply bal_refl|]. intros w. simpl. rewrite E. simpl. lia.
      - split.
        + cbn [below]. destruct (raise_fields (kills l) (below s)) as [E1 [E2 [E3 E4]]]. unfold P_BrigadeFail.bal. rewrite E1, E2, E3.
          split; [reflexivity|]. split; [lia|exact E4].
        + intros w. simpl. rewrite E. simpl. destruct (N.eq_dec l w); lia.
    Qed.
    Lemma new_edge_bal l (s : rst) o s' : new_edge heap kills l s = (o, s') ->
      bal (below s) (below s') [] [] 0 0 /\ lbal s s' [l] (match o with Some l => [l] | None => [] end) /\
      (o = None -> failing (below s') = true) /\ (forall l', o = Some l' -> l' = l /\ err (below s') = err (below s)).
    Proof.
      unfold new_edge. destruct (failing (below s)) eqn:F.
      - intros [= <- <-]. destruct (destroy_bal l s) as [B L]. split; [exact B|]. split; [exact L|]. split; [|discriminate].
        intros _. eapply keeps_failing; [eapply bal_keeps; exact B|exact F].
      - destruct (alloc heap (below s)) as [[|] s1] eqn:E; apply (alloc_bal dec) in E as [B [N1 N2]]; intros [= <- <-].
        + split; [exact B|]. split; [intros w; cbn [newl dead]; lia|]. split; [discriminate|]. intros l' [= <-]. auto.
        + destruct (destroy_bal l (mkR s1 (newl s) (dead s))) as [B' L]. split; [eapply bal_trans; eauto|]. split; [exact L|]. split; [|discriminate].
          intros _. eapply keeps_failing; [eapply bal_keeps; exact B'|auto].
    Qed.
    Lemma reduce_bucket_bal b (s : rst) l s' : reduce_bucket red b s = (l, s') ->
      bal (below s) (below s') [] [] 0 0 /\ lbal s s' [] [l] /\ (failing (below s') = false -> exists n, red n b = (l, None)).
    Proof.
      unfold reduce_bucket. destruct (failing (below s)) eqn:F.
      - intros [= <- <-]. split; [apply bal_refl|]. split; [intros w; simpl; lia|congruence].
      - destruct (red (tick (below s)) b) as [l1 [e|]] eqn:E; intros [= <- <-].
        + split; [|split; [intros w; simpl; lia|]].
          * split; [reflexivity|]. split; [simpl; lia|]. unfold keeps, raise, ticked. simpl. intros c ->. reflexivity.
          * unfold failing, raise, ticked in *. simpl. destruct (err (below s)); discriminate.
        + split; [|split; [|eauto]].
          * split; [reflexivity|]. split; [simpl; lia|]. unfold keeps, ticked. simpl. auto.
          * intros w. simpl. destruct (N.eqb l1 0) eqn:E0; simpl; [lia|]. destruct (N.eq_dec l1 w); lia.
    Qed.
    Lemma reducing_bal : forall t res (s : rst) res' s', reducing heap dies red kills t res s = (res', s') ->
      bal (below s) (below s') (concat t) [] (length t) 0 /\ lbal s s' (map fst res) (map fst res').
    Proof.
      induction t as [|b t IH]; intros res s res' s'; cbn [reducing].
      - intros [= <- <-]. split; [apply bal_refl|]. intros w. lia.
      - destruct (reduce_bucket red b s) as [l s1] eqn:E1. apply reduce_bucket_bal in E1 as [[B1 [B2 B3]] [L1 _]].
        destruct (new_edge heap kills l s1) as [o s2] eqn:E2. apply new_edge_bal in E2 as [[C1 [C2 C3]] [L2 _]].
        intros H. apply IH in H as [[D1 [D2 D3]] L3]. cbn [below] in *.
        destruct (free_edges_bal dec dies b (below s2)) as [F1 [F2 F3]].
        split; [split; [|split]|].
        + intros z. specialize (B1 z). specialize (C1 z). specialize (D1 z). specialize (F1 z). cbn [concat free_cells gone] in *.
          rewrite (occ_app dec). simpl in *. lia.
        + cbn [length free_cells made unmade] in *. lia.
        + intros e H. apply D3. cbn [free_cells err]. auto.
        + intros w. specialize (L1 w). specialize (L2 w). specialize (L3 w). cbn [newl dead] in *.
          destruct o as [l'|]; cbn [map fst] in *; rewrite ?(occn_cons w l' (map fst res)) in *; change (occn w (nonnull [])) with 0 in *; lia.
    Qed.
    Lemma destroy_all_bal : forall (res : list (N * list A)) (s : rst),
      bal (below s) (below (fold_left (fun s x => destroy_label kills (fst x) s) res s)) [] [] 0 0 /\
      lbal s (fold_left (fun s x => destroy_label kills (fst x) s) res s) (map fst res) [].
    Proof.
      induction res as [|x res IH]; intros s; [split; [apply bal_refl|intros w; simpl; lia]|]. cbn [fold_left map].
      destruct (destroy_bal (fst x) s) as [B L]. destruct (IH (destroy_label kills (fst x) s)) as [B' L'].
      split; [eapply bal_trans; eauto|]. intros w. specialize (L w). specialize (L' w). rewrite occn_cons.
      change (occn w (nonnull [])) with 0 in *. lia.
    Qed.
    Lemma reduced_bal t (s : rst) res s' : reduced_brigade_f heap dies red kills t s = (res, s') ->
      bal (below s) (below s') (concat t) [] (length t) 0 /\ lbal s s' [] (map fst res) /\ (failing (below s') = true -> res = []).
    Proof.
      unfold reduced_brigade_f. destruct (reducing heap dies red kills t [] s) as [r1 s1] eqn:E. apply reducing_bal in E as [B L].
      destruct (failing (below s1)) eqn:F; intros [= <- <-].
      - destruct (destroy_all_bal r1 s1) as [B' L']. split; [eapply bal_trans; eauto|]. split; [|auto].
        intros w. specialize (L w). specialize (L' w). cbn [map] in *. lia.
      - split; [exact B|]. split; [exact L|congruence].
    Qed.
  End Reduce.
End More.

(** ** What is done if no error is reported, even though allocations might have failed *)
Section Right.
  Context {A : Type}.
  Variable dec : forall x y : A, {x = y} + {x <> y}.
  Variable lab : A -> N.
  Variable judy : bool.
  Variable heap : nat -> bool.
  Variable dies : A -> option N.
  Local Notation st := (@st A).

  Lemma back (s s' : st) inn out m n : bal dec s s' inn out m n -> failing s' = false -> failing s = false.
  Proof. intros H. exact (keeps_ok (bal_keeps H)). Qed.

  Section Relation.
    Variable r : nat -> A -> A -> bool * option N.
    Variable rr : A -> A -> bool.
    Hypothesis Hr : forall n x y, fst (r n x y) = rr x y.

    Lemma place_right x : forall bs (s : st) bs' p s', place heap dies r x bs s = (bs', p, s') -> failing s' = false -> p = true /\ bs' = put rr x bs.
    Proof.
      induction bs as [|[|y b] bs IH]; intros s bs' p s'; cbn [place put].
      - destruct (push_bucket heap dies [] [] s) as [[|q bb] s1] eqn:E; apply (push_bal dec) in E as [_ [[C1 C2]|[C1 C2]]]; try discriminate.
        + intros [= <- <- <-]. congruence.
        + destruct (failing s1) eqn:F; intros [= <- <- <-]; [congruence|auto].
      - intros [= <- <- <-]. auto.
      - destruct (passed (fun n => r n y x) s) as [c s1] eqn:E. destruct c.
        + intros [= <- <- <-] F. apply passed_ok with (v := rr y x) in E; auto. rewrite <- E. auto.
        + destruct (failing s1) eqn:F; [intros [= <- <- <-]; congruence|].
          apply passed_ok with (v := rr y x) in E; auto. rewrite <- E.
          destruct (place heap dies r x bs s1) as [[bs2 p2] s2] eqn:E2. intros [= <- <- <-] F2. apply IH in E2 as [-> ->]; auto.
    Qed.
    Lemma bundling_right : forall e t (s : st) e' t' s', bundling heap dies r e t s = (e', t', s') -> failing s' = false ->
      e' = [] /\ t' = fold_left (fun bs x => put rr x bs) e t.
    Proof.
      induction e as [|x e IH]; intros t s e' t' s'; cbn [bundling fold_left]; [intros [= <- <- <-]; auto|].
      destruct (failing s) eqn:F; [intros [= <- <- <-]; congruence|].
      destruct (place heap dies r x t s) as [[t1 [|]] s1] eqn:E.
      - intros H F'. pose proof H as Hq1; apply (bundling_bal dec) in Hq1 as [B _]. apply place_right in E as [_ ->]; [eauto|eapply back; eauto].
      - intros [= <- <- <-] F'. apply place_right in E as [E _]; congruence.
    Qed.
    Lemma bundled_right e (s : st) e' b s' : bundled_f heap dies (Some r) e s = (e', b, s') -> failing s' = false -> b = bundled rr e.
    Proof.
      unfold bundled_f. destruct e as [|x e]; [intros [= <- <- <-]; reflexivity|].
      destruct (bundling heap dies r (x :: e) [] s) as [[e1 t1] s1] eqn:E. unfold bundle_end. intros H F.
      assert (F1 : failing s1 = false).
      { destruct e1; [destruct (failing s1) eqn:F1|]; auto; [|destruct (unbundled t1 ++ a :: e1); injection H as <- <- <-; exact F].
        destruct (unbundled t1 ++ []); injection H as <- <- <-; unfold failing, free_cells in *; simpl in *; congruence. }
      apply bundling_right in E as [-> ->]; auto. rewrite F1 in H. injection H as <- <- <-. reflexivity.
    Qed.
    Lemma rallying_right : forall p b (s : st) p' b' s', rallying heap dies r p b s = (p', b', s') -> failing s' = false ->
      b' = fold_left (fun b kl => bundled rr (snd kl) ++ b) p b.
    Proof.
      induction p as [|[k l] p IH]; intros b s p' b' s'; cbn [rallying fold_left]; [intros [= <- <- <-]; auto|].
      destruct (failing s) eqn:F; [intros [= <- <- <-]; congruence|].
      destruct (bundled_f heap dies (Some r) l s) as [[l1 t] s1] eqn:E. destruct (failing s1) eqn:F1; [intros [= <- <- <-]; congruence|].
      apply bundled_right in E; auto. subst t. apply IH.
    Qed.
  End Relation.

  Lemma place_by_right key x : forall bs (s : st) bs' p s', place_by heap dies key x bs s = (bs', p, s') -> failing s' = false ->
    p = true /\ bs' = put (fun y x => N.eqb (key y) (key x)) x bs.
  Proof.
    induction bs as [|[|y b] bs IH]; intros s bs' p s'; cbn [place_by put].
    - destruct (push_bucket heap dies [] [] s) as [[|q bb] s1] eqn:E; apply (push_bal dec) in E as [_ [[C1 C2]|[C1 C2]]]; try discriminate;
        intros [= <- <- <-]; [congruence|auto].
    - intros [= <- <- <-]. auto.
    - destruct (N.eqb (key y) (key x)); [intros [= <- <- <-]; auto|].
      destruct (place_by heap dies key x bs s) as [[bs2 p2] s2] eqn:E2. intros [= <- <- <-] F2. apply IH in E2 as [-> ->]; auto.
  Qed.
  Lemma bucketed_right key : forall e t (s : st) e' t' s', bucketed_f heap dies key e t s = (e', t', s') -> failing s' = false ->
    t' = fold_left (fun bs x => put (fun y x => N.eqb (key y) (key x)) x bs) e t.
  Proof.
    induction e as [|x e IH]; intros t s e' t' s'; cbn [bucketed_f fold_left]; [intros [= <- <- <-]; auto|].
    destruct (place_by heap dies key x t s) as [[t1 [|]] s1] eqn:E.
    - intros H F'. pose proof H as Hq2; apply (bucketed_bal dec) in Hq2 as [B _]. apply place_by_right in E as [_ ->]; [eauto|eapply back; eauto].
    - intros [= <- <- <-] F'. apply place_by_right in E as [E _]; congruence.
  Qed.
  Lemma tabulated_right key : forall e t (s : st) e' t' s', tabulated heap key e t s = (e', t', s') -> failing s' = false ->
    t' = fold_left (fun t x => jli (key x) x t) e t.
  Proof.
    induction e as [|x e IH]; intros t s e' t' s'; cbn [tabulated fold_left]; [intros [= <- <- <-]; auto|].
    destruct (failing s) eqn:F; [intros [= <- <- <-]; congruence|].
    destruct (alloc heap s) as [[|] s1] eqn:E; apply (alloc_bal dec) in E as [_ [N1 _]]; [apply IH|].
    intros [= <- <- <-]. rewrite (N1 eq_refl). discriminate.
  Qed.
  Lemma pushing_right : forall p b (s : st) p' b' s', pushing heap dies p b s = (p', b', s') -> failing s' = false ->
    b' = fold_left (fun b kl => snd kl :: b) p b.
  Proof.
    induction p as [|[k l] p IH]; intros b s p' b' s'; cbn [pushing fold_left]; [intros [= <- <- <-]; auto|].
    destruct (failing s) eqn:F; [intros [= <- <- <-]; congruence|].
    destruct (push_bucket heap dies l b s) as [b1 s1] eqn:E. intros H F'. pose proof H as Hq3; apply (pushing_bal dec) in Hq3 as [B _].
    apply (push_bal dec) in E as [_ [[-> C]|[_ C]]]; [eauto|]. rewrite (back B F') in C. discriminate.
  Qed.
  Lemma unwind_right e b p (s : st) e' b' s' : unwind e b p s = (e', b', s') -> failing s' = false -> s' = s /\ b' = b.
  Proof.
    unfold unwind. destruct (failing s) eqn:F; intros [= <- <- <-]; auto. unfold failing, free_cells in *. simpl. congruence.
  Qed.
  Lemma marshalled_right key e (s : st) e' b s' : marshalled_f judy heap dies key e s = (e', b, s') -> failing s' = false ->
    b = marshalled judy key e.
  Proof.
    unfold marshalled_f, marshalled. destruct judy.
    - destruct (tabulated heap key e [] s) as [[e1 t] s1] eqn:E1. destruct (pushing heap dies t [] s1) as [[p b1] s2] eqn:E2.
      intros E3 F. apply unwind_right in E3 as [-> ->]; auto. pose proof E2 as Hq4; apply (pushing_bal dec) in Hq4 as [B _].
      apply pushing_right in E2; auto. apply tabulated_right in E1; [|eapply back; eauto]. now subst.
    - intros E F. apply bucketed_right in E; auto.
  Qed.
  Lemma rallied_right hash r rr e (s : st) e' b s' : (forall n x y, fst (r n x y) = rr x y) ->
    rallied_f judy heap dies hash r e s = (e', b, s') -> failing s' = false -> b = rallied judy hash rr e.
  Proof.
    intros Hr. unfold rallied_f, rallied. destruct judy.
    - destruct (tabulated heap hash e [] s) as [[e1 t] s1] eqn:E1. destruct (rallying heap dies r t [] s1) as [[p b1] s2] eqn:E2.
      intros E3 F. apply unwind_right in E3 as [-> ->]; auto. pose proof E2 as Hq5; apply (rallying_bal dec) in Hq5 as [B _].
      apply rallying_right with (rr := rr) in E2; auto. apply tabulated_right in E1; [|eapply back; eauto]. now subst.
    - intros E F. eapply bundled_right; eauto.
  Qed.

  (** *** Deduplication *)
  Section Dedup.
    Variable eeq : nat -> N -> N -> bool * option N.
    Variable eq : N -> N -> bool.
    Hypothesis Heq : forall n x y, fst (eeq n x y) = eq x y.
    Variable ehash : N -> N.

    Lemma failed_right (f : nat -> bool * option N) (v : bool) (s : st) b s' : failed f s = (b, s') -> failing s' = false -> (forall n, fst (f n) = v) -> b = negb v.
    Proof. unfold failed. intros E F V. eapply passed_ok; eauto. intros n. simpl. specialize (V n). destruct (f n). simpl in *. now subst. Qed.
    Lemma found_right l : forall t (s : st) b s', found judy eeq ehash l t s = (b, s') -> failing s' = false ->
      b = existsb (fun hl => same_bin judy (ehash l) (fst hl) && eq l (snd hl)) t.
    Proof.
      induction t as [|[h l'] t IH]; intros s b s'; cbn [found existsb fst snd]; [intros [= <- <-]; auto|].
      destruct (same_bin judy (ehash l) h); [|apply IH]. cbn [andb].
      destruct (failed (fun n => eeq n l l') s) as [c s1] eqn:E. destruct c; intros H F.
      - pose proof H as Hq6; apply (found_bal dec) in Hq6 as B. apply failed_right with (v := eq l l') in E; auto; [|eapply back; eauto].
        destruct (eq l l'); [discriminate|]. eauto.
      - injection H as <- <-. apply failed_right with (v := eq l l') in E; auto. now destruct (eq l l').
    Qed.
    Lemma recorded_right l t (s : st) b s' : recorded_f judy heap eeq ehash l t s = (b, s') -> failing s' = false ->
      b = recorded eq judy (ehash l) l t.
    Proof.
      unfold recorded_f, recorded. destruct t as [|x t]; [intros [= <- <-]; auto|].
      destruct (if judy then alloc heap s else (true, s)) as [c s1] eqn:E1. apply (maybe_alloc_bal dec) in E1 as [_ N].
      destruct c.
      - destruct (found judy eeq ehash l (x :: t) s1) as [p s2] eqn:E2. intros [= <- <-] F. rewrite F. eapply found_right; eauto.
      - intros [= <- <-]. rewrite (N eq_refl). discriminate.
    Qed.
    Lemma record_right l t (s : st) t' s' : record_f judy heap eeq ehash l t s = (t', s') -> failing s' = false ->
      t' = record_edge eq judy (ehash l) l t.
    Proof.
      unfold record_f, record_edge. destruct (if judy then alloc heap s else (true, s)) as [c s1] eqn:E1. apply (maybe_alloc_bal dec) in E1 as [_ N].
      destruct c; [|intros [= <- <-]; rewrite (N eq_refl); discriminate].
      destruct (found judy eeq ehash l t s1) as [p s2] eqn:E2. destruct (failing s2) eqn:F2; cbn [orb].
      - intros [= <- <-]. congruence.
      - apply found_right in E2; auto. unfold recorded. rewrite <- E2. destruct p; [intros [= <- <-]; auto|].
        destruct (alloc heap s2) as [[|] s3] eqn:E3; apply (alloc_bal dec) in E3 as [_ [N3 _]]; intros [= <- <-]; auto. rewrite (N3 eq_refl). discriminate.
    Qed.
    Lemma repeating_right : forall e t r (s : st) k r' s', repeating_f lab judy heap eeq ehash t e r s = (k, r', s') -> failing s' = false ->
      (k, r') = repeating eq judy ehash lab t e r.
    Proof.
      induction e as [|x e IH]; intros t r s k r' s'; cbn [repeating_f repeating]; [intros [= <- <- <-]; auto|].
      destruct (failing s) eqn:F0; [intros [= <- <- <-]; congruence|].
      destruct (recorded_f judy heap eeq ehash (lab x) t s) as [c s1] eqn:E1.
      destruct c.
      - intros H F. pose proof H as Hq7; apply (repeating_bal dec) in Hq7 as B. apply recorded_right in E1; [|eapply back; eauto]. rewrite <- E1. eauto.
      - destruct (record_f judy heap eeq ehash (lab x) t s1) as [t' s2] eqn:E2.
        destruct (repeating_f lab judy heap eeq ehash t' e r s2) as [[k1 r1] s3] eqn:E3. intros [= <- <- <-] F.
        pose proof E3 as Hq8; apply (repeating_bal dec) in Hq8 as B3. pose proof (back B3 F) as F2. pose proof E2 as Hq9; apply (record_bal dec) in Hq9 as B2.
        apply recorded_right in E1; [|eapply back; eauto]. rewrite <- E1. apply record_right in E2; auto. rewrite <- E2.
        apply IH in E3; auto. rewrite <- E3. reflexivity.
    Qed.
    Lemma repeating_labels_right e (s : st) k r s' : repeating_labels_f lab judy heap eeq ehash e s = (k, r, s') -> failing s' = false ->
      (k, r) = repeating_labels eq judy ehash lab e.
    Proof.
      unfold repeating_labels_f, repeating_labels. destruct e as [|x [|y e]]; [intros [= <- <- <-]; auto..|]. apply repeating_right.
    Qed.
    Lemma deduplicating_right : forall t res f (s : st) res' s', deduplicating lab judy heap dies eeq ehash t res s = (res', s') -> failing s' = false ->
      res' = fst (fold_left (fun kf b => let (k, r) := repeating_labels eq judy ehash lab b in (k ++ fst kf, r ++ snd kf)) t (res, f)).
    Proof.
      induction t as [|b t IH]; intros res f s res' s'; cbn [deduplicating fold_left]; [intros [= <- <-]; auto|].
      destruct (repeating_labels_f lab judy heap eeq ehash b s) as [[k r] s1] eqn:E. intros H F.
      pose proof H as Hq10; apply (deduplicating_bal dec) in Hq10 as B. pose proof (back B F) as F1.
      apply repeating_labels_right in E.
      - rewrite <- E. cbn [fst snd]. eapply IH; eauto.
      - unfold failing, free_cells in F1. cbn [err] in F1. pose proof (free_edges_bal dec dies r s1) as B1. exact (back B1 F1).
    Qed.
    Lemma dedup_edges_right key e (s : st) res s' : deduplicated_edges_f lab judy heap dies eeq ehash key e s = (res, s') -> failing s' = false ->
      res = fst (deduplicated_edges eq judy ehash lab key e).
    Proof.
      unfold deduplicated_edges_f. destruct (marshalled_f judy heap dies key e s) as [[e1 b] s1] eqn:E1.
      destruct (deduplicated_brigade_f lab judy heap dies eeq ehash b s1) as [r2 s2] eqn:E2. intros [= <- <-] F.
      pose proof (free_edges_bal dec dies e1 s2) as B1. pose proof (back B1 F) as F2.
      pose proof E2 as Hq11; apply (dedup_brigade_bal dec) in Hq11 as [B2 _]. pose proof (back B2 F2) as F1.
      apply marshalled_right in E1; auto. subst b.
      unfold deduplicated_brigade_f in E2. destruct (deduplicating lab judy heap dies eeq ehash (marshalled judy key e) [] s1) as [r3 s3] eqn:E3.
      destruct (failing s3) eqn:F3.
      - injection E2 as <- <-. pose proof (free_edges_bal dec dies r3 s3) as B4. rewrite (back B4 F2) in F3. discriminate.
      - injection E2 as <- <-. eapply deduplicating_right in E3; eauto.
    Qed.
  End Dedup.

  (** *** Uniqueness *)
  Section Unique.
    Variable hash : A -> N.
    Variable eeq veq : nat -> A -> A -> bool * option N.
    Variable eq same : A -> A -> bool.
    Variable ident : A -> A -> bool.
    Hypothesis Heq : forall n x y, fst (eeq n x y) = eq x y.
    Hypothesis Hveq : forall n x y, fst (veq n x y) = same x y.
    Hypothesis Hid : forall x y, ident x y = true -> same x y = true.

    Lemma duplicate_right p : forall l (s : st) b s', duplicate veq ident p l s = (b, s') -> failing s' = false -> b = existsb (fun x => same p x) l.
    Proof.
      induction l as [|x l IH]; intros s b s'; cbn [duplicate existsb]; [intros [= <- <-]; auto|].
      destruct (ident p x) eqn:I; [intros [= <- <-] _; now rewrite (Hid I)|].
      destruct (failed (fun n => veq n p x) s) as [c s1] eqn:E. destruct c; intros H F.
      - pose proof H as Hq12; apply (duplicate_bal dec) in Hq12 as B. apply failed_right with (v := same p x) in E; auto; [|eapply back; eauto].
        destruct (same p x); [discriminate|]. eauto.
      - injection H as <- <-. apply failed_right with (v := same p x) in E; auto. now destruct (same p x).
    Qed.
    Lemma unique_in_right : forall b r f (s : st) r' s', unique_in dies veq ident b r s = (r', s') -> failing s' = false ->
      r' = fst (unique_bucket same b (r, f)) .
    Proof.
      induction b as [|p b IH]; intros r f s r' s'; cbn [unique_in unique_bucket]; [intros [= <- <-]; auto|].
      destruct (duplicate veq ident p b s) as [d s1] eqn:E. cbn [fst snd]. destruct (failing s1) eqn:F1.
      - rewrite orb_true_r. intros H F. pose proof H as Hq13; apply (unique_in_bal dec) in Hq13 as B. pose proof (back B F) as F2.
        pose proof (free_edges_bal dec dies [p] s1) as B2. rewrite (back B2 F2) in F1. discriminate.
      - apply duplicate_right in E; auto. rewrite orb_false_r. rewrite <- E. destruct d; intros; eauto.
    Qed.
    Lemma unique_bucket_fst b : forall r f f', fst (unique_bucket same b (r, f)) = fst (unique_bucket same b (r, f')).
    Proof. induction b as [|p b IH]; intros r f f'; cbn [unique_bucket]; auto. cbn [fst snd]. destruct (existsb _ b); apply IH. Qed.
    Lemma uniques_right : forall t r f (s : st) r' s', uniques dies veq ident t r s = (r', s') -> failing s' = false ->
      r' = fst (fold_left (fun rf b => unique_bucket same b rf) t (r, f)).
    Proof.
      induction t as [|b t IH]; intros r f s r' s'; cbn [uniques fold_left]; [intros [= <- <-]; auto|].
      destruct (unique_in dies veq ident b r s) as [r1 s1] eqn:E. intros H F.
      pose proof H as Hq14; apply (uniques_bal dec) in Hq14 as B. pose proof (back B F) as F1.
      apply unique_in_right with (f := f) in E; [|exact F1]. destruct (unique_bucket same b (r, f)) as [r2 f2]. cbn [fst] in E. subst r2. eapply IH; eauto.
    Qed.
    Lemma unique_right e (s : st) r s' : unique_f judy heap dies hash eeq veq ident e s = (r, s') -> failing s' = false ->
      r = fst (unique judy hash eq same e).
    Proof.
      unfold unique_f, unique. destruct (rallied_f judy heap dies hash eeq e s) as [[e1 t] s1] eqn:E. intros H F.
      pose proof H as Hq15; apply (uniques_bal dec) in Hq15 as B. pose proof (back B F) as F1. pose proof (free_edges_bal dec dies e1 s1) as B1.
      pose proof (back B1 F1) as F2. eapply rallied_right in E; eauto. subst t. eapply uniques_right; eauto.
    Qed.
  End Unique.

  (** *** Reduction *)
  Section Reduce.
    Variable red : nat -> list A -> N * option N.
    Variable kills : N -> option N.
    Variable value : list A -> N.
    Hypothesis Hred : forall n b, fst (red n b) = value b.

    Lemma reducing_right : forall t res s res' s', reducing heap dies red kills t res s = (res', s') -> failing (below s') = false ->
      res' = rev (map (fun b => (value b, b)) t) ++ res.
    Proof.
      induction t as [|b t IH]; intros res s res' s'; cbn [reducing]; [intros [= <- <-]; auto|].
      destruct (reduce_bucket red b s) as [l s1] eqn:E1. destruct (new_edge heap kills l s1) as [o s2] eqn:E2. intros H F.
      pose proof H as Hq16; apply (reducing_bal dec) in Hq16 as [B _]. pose proof (back B F) as F1. cbn [below] in F1.
      assert (F2 : failing (below s2) = false) by exact (back (free_edges_bal dec dies b (below s2)) F1).
      pose proof E2 as Hq17; apply (new_edge_bal dec) in Hq17 as [C [_ [N1 N2]]]. pose proof E1 as Hq18; apply (reduce_bucket_bal dec) in Hq18 as [_ [_ N3]].
      destruct o as [l'|]; [|rewrite (N1 eq_refl) in F2; discriminate]. destruct (N2 l' eq_refl) as [-> _].
      destruct (N3 (back C F2)) as [n Hn]. specialize (Hred n b). rewrite Hn in Hred. cbn [fst] in Hred. subst l.
      apply IH in H; auto. rewrite H. cbn [map rev]. now rewrite <- app_assoc.
    Qed.
    Lemma reduced_right t s res s' : reduced_brigade_f heap dies red kills t s = (res, s') -> failing (below s') = false ->
      res = rev (map (fun b => (value b, b)) t).
    Proof.
      unfold reduced_brigade_f. destruct (reducing heap dies red kills t [] s) as [r1 s1] eqn:E.
      destruct (failing (below s1)) eqn:F; intros [= <- <-] F'.
      - destruct (destroy_all_bal dec kills r1 s1) as [B _]. rewrite (back B F') in F. discriminate.
      - apply reducing_right in E; auto. now rewrite app_nil_r in E.
    Qed.
  End Reduce.

  (** *** Filters *)
  Section Filters.
    Variable keep : nat -> A -> bool * option N.
    Variable kept : A -> bool.
    Hypothesis Hkeep : forall n x, fst (keep n x) = kept x.
    Variable test : nat -> A -> N * option N.
    Variable reduction : nat -> list A -> N * option N.
    Variable trash : N -> option N.
    Variable less : nat -> A -> A -> bool * option N.
    Variable good : A -> bool.
    Hypothesis Hgood : forall n x, N.eqb (fst (test n x)) 0 = negb (good x).
    Variable fine : list A -> bool.
    Hypothesis Hfine : forall n x, N.eqb (fst (reduction n x)) 0 = negb (fine x).

    Lemma keeping_right : forall e q (s : st) k q' s', keeping keep e q s = (k, q', s') -> failing s' = false -> k = filter kept e.
    Proof.
      induction e as [|x e IH]; intros q s k q' s'; cbn [keeping filter]; [intros [= <- <- <-]; auto|].
      destruct (passed (fun n => keep n x) s) as [c s1] eqn:E. destruct c.
      - destruct (keeping keep e q s1) as [[k1 q1] s2] eqn:E2. intros [= <- <- <-] F. pose proof E2 as Hq19; apply (keeping_bal dec) in Hq19 as B.
        apply passed_ok with (v := kept x) in E; auto; [|eapply back; eauto]. rewrite <- E. f_equal. eauto.
      - intros H F. pose proof H as Hq20; apply (keeping_bal dec) in Hq20 as B.
        apply passed_ok with (v := kept x) in E; auto; [|eapply back; eauto]. rewrite <- E. eauto.
    Qed.
    Lemma filter_edges_right e (s : st) k s' : filter_edges_f dies keep true e s = (k, s') -> failing s' = false -> k = filter kept e.
    Proof.
      unfold filter_edges_f. destruct (keeping keep e [] s) as [[k1 q] s1] eqn:E. intros [= <- <-] F.
      eapply keeping_right; eauto. exact (back (free_edges_bal dec dies q s1) F).
    Qed.
    Lemma tested_right f v (s : st) b s' : tested trash f s = (b, s') -> failing s' = false -> (forall n, snd (f n) = None -> N.eqb (fst (f n)) 0 = negb v) -> b = v.
    Proof.
      unfold tested. intros E F V. destruct (failing s) eqn:G; [injection E as <- <-; congruence|].
      destruct (f (tick s)) as [w e] eqn:C. specialize (V (tick s)). rewrite C in V. cbn [fst snd] in V.
      assert (N : e = None).
      { unfold failing in G. destruct e; auto. destruct (N.eqb w 0); injection E as <- <-; unfold failing, raise, ticked in F; cbn [err] in F; destruct (err s); discriminate. }
      rewrite (V N) in E. destruct v; cbn [negb] in E; now injection E.
    Qed.
    Lemma separated_right : forall e p c (s : st) p' c' s', separated test trash e p c s = (p', c', s') -> failing s' = false ->
      p' = rev (filter good e) ++ p /\ c' = rev (filter (fun x => negb (good x)) e) ++ c.
    Proof.
      induction e as [|x e IH]; intros p c s p' c' s'; cbn [separated filter]; [intros [= <- <- <-]; auto|].
      destruct (tested trash (fun n => test n x) s) as [b s1] eqn:E. destruct b; intros H F; pose proof H as B; apply (separated_bal dec) in B;
        (apply tested_right with (v := good x) in E; [|eapply back; eauto|auto]); rewrite <- E; apply IH in H as [-> ->]; auto; cbn [negb rev]; now rewrite <- app_assoc.
    Qed.
    Definition cats (l : list (list A)) (acc : list A) : list A := fold_left (fun c b => b ++ c) l acc.
    Lemma joint_right l (s : st) b s' : tested trash (fun n => match reduction n l with (w, None) => (w, None) | (_, o) => (0%N, o) end) s = (b, s') ->
      failing s' = false -> b = fine l.
    Proof.
      intros E F. eapply tested_right; eauto. intros n. specialize (Hfine n l). cbn beta. destruct (reduction n l) as [w [e|]]; simpl in *; [discriminate|auto].
    Qed.
    Lemma jointly_right : forall b e c (s : st) e' c' s', jointly reduction trash b e c s = (e', c', s') -> failing s' = false ->
      e' = cats (filter fine b) e /\ c' = cats (filter (fun l => negb (fine l)) b) c.
    Proof.
      induction b as [|l b IH]; intros e c s e' c' s'; cbn [jointly filter]; [intros [= <- <- <-]; auto|].
      destruct (tested trash _ s) as [t s1] eqn:E. destruct t; intros H F; pose proof H as B; apply (jointly_bal dec) in B;
        (apply joint_right in E; [|eapply back; eauto]); rewrite <- E; apply IH in H as [-> ->]; auto.
    Qed.
  End Filters.
End Right.

(** ** No error is reported unless something fails. *)
Section Calm.
  Context {A : Type}.
  Variable lab : A -> N.
  Variable judy : bool.
  Variable heap : nat -> bool.
  Variable dies : A -> option N.
  Hypothesis Hheap : forall n, heap n = true.
  Hypothesis Hdies : forall x, dies x = None.
  Local Notation st := (@st A).
  Local Notation ok s := (err s = None).

  Lemma alloc_calm (s : st) b s' : alloc heap s = (b, s') -> ok s -> b = true /\ ok s'.
  Proof. unfold alloc. rewrite Hheap. intros [= <- <-]. auto. Qed.
  Lemma passed_calm (f : nat -> bool * option N) (s : st) b s' : passed f s = (b, s') -> ok s -> (forall n, snd (f n) = None) -> ok s'.
  Proof.
    unfold passed. intros E H F. destruct (failing s); [now injection E as <- <-|]. specialize (F (tick s)).
    destruct (f (tick s)) as [c e]. cbn [snd] in F. subst e. injection E as <- <-. simpl. now rewrite H.
  Qed.
  Lemma failed_calm (f : nat -> bool * option N) (s : st) b s' : failed f s = (b, s') -> ok s -> (forall n, snd (f n) = None) -> ok s'.
  Proof. unfold failed. intros E H F. eapply passed_calm; eauto. intros n. specialize (F n). cbn beta. destruct (f n). exact F. Qed.
  Lemma free_calm l : forall s : st, ok s -> ok (free_edges dies l s).
  Proof. induction l as [|x l IH]; intros s H; auto. apply IH. simpl. now rewrite H. Qed.
  Lemma calm_failing (s : st) : ok s -> failing s = false.
  Proof. unfold failing. now intros ->. Qed.
  Lemma push_calm bucket b (s : st) b' s' : push_bucket heap dies bucket b s = (b', s') -> ok s -> b' = bucket :: b /\ ok s'.
  Proof.
    unfold push_bucket. destruct (alloc heap s) as [c s1] eqn:E. intros H O. apply alloc_calm in E as [-> O1]; auto. injection H as <- <-. auto.
  Qed.

  Section Relation.
    Variable r : nat -> A -> A -> bool * option N.
    Hypothesis Hr : forall n x y, snd (r n x y) = None.
    Lemma place_calm x : forall bs (s : st) bs' p s', place heap dies r x bs s = (bs', p, s') -> ok s -> p = true /\ ok s'.
    Proof.
      induction bs as [|[|y b] bs IH]; intros s bs' p s'; cbn [place].
      - destruct (push_bucket heap dies [] [] s) as [b s1] eqn:E. intros H O. apply push_calm in E as [-> O1]; auto.
        rewrite (calm_failing _ O1) in H. injection H as <- <- <-. auto.
      - intros [= <- <- <-]. auto.
      - destruct (passed (fun n => r n y x) s) as [c s1] eqn:E. intros H O. apply passed_calm in E; auto. destruct c.
        + injection H as <- <- <-. auto.
        + rewrite (calm_failing _ E) in H. destruct (place heap dies r x bs s1) as [[bs2 p2] s2] eqn:E2. injection H as <- <- <-. eauto.
    Qed.
    Lemma bundling_calm : forall e t (s : st) e' t' s', bundling heap dies r e t s = (e', t', s') -> ok s -> e' = [] /\ ok s'.
    Proof.
      induction e as [|x e IH]; intros t s e' t' s'; cbn [bundling]; [intros [= <- <- <-]; auto|].
      intros H O. rewrite (calm_failing _ O) in H. destruct (place heap dies r x t s) as [[t1 p] s1] eqn:E.
      apply place_calm in E as [-> O1]; auto. eauto.
    Qed.
  End Relation.
  Lemma bundling_null_calm : forall e t (s : st) e' t' s', bundling_null heap dies e t s = (e', t', s') -> ok s -> e' = [] /\ ok s'.
  Proof.
    induction e as [|x e IH]; intros t s e' t' s'; cbn [bundling_null]; [intros [= <- <- <-]; auto|].
    intros H O. rewrite (calm_failing _ O) in H. destruct (push_bucket heap dies [] t s) as [b1 s1] eqn:E.
    apply push_calm in E as [-> O1]; auto. rewrite (calm_failing _ O1) in H. eauto.
  Qed.
  Definition quiet (r : option (nat -> A -> A -> bool * option N)) : Prop :=
    match r with Some r => forall n x y, snd (r n x y) = None | None => True end.
  Lemma bundled_calm r e (s : st) e' b s' : bundled_f heap dies r e s = (e', b, s') -> quiet r -> ok s -> ok s'.
  Proof.
    unfold bundled_f. destruct e as [|x e]; [intros [= <- <- <-]; auto|]. intros H Q O.
    destruct (match r with Some r => bundling heap dies r (x :: e) [] s | None => bundling_null heap dies (x :: e) [] s end) as [[e1 t1] s1] eqn:E.
    assert (K : e1 = [] /\ ok s1) by (destruct r as [r|]; [eapply bundling_calm in E|eapply bundling_null_calm in E]; eauto).
    destruct K as [-> O1]. unfold bundle_end in H. rewrite (calm_failing _ O1) in H. now injection H as <- <- <-.
  Qed.
  Lemma place_by_calm key x : forall bs (s : st) bs' p s', place_by heap dies key x bs s = (bs', p, s') -> ok s -> p = true /\ ok s'.
  Proof.
    induction bs as [|[|y b] bs IH]; intros s bs' p s'; cbn [place_by].
    - destruct (push_bucket heap dies [] [] s) as [b s1] eqn:E. intros H O. apply push_calm in E as [-> O1]; auto. injection H as <- <- <-. auto.
    - intros [= <- <- <-]. auto.
    - destruct (N.eqb (key y) (key x)); [intros [= <- <- <-]; auto|].
      destruct (place_by heap dies key x bs s) as [[bs2 p2] s2] eqn:E2. intros [= <- <- <-]. eauto.
  Qed.
  Lemma bucketed_calm key : forall e t (s : st) e' t' s', bucketed_f heap dies key e t s = (e', t', s') -> ok s -> ok s'.
  Proof.
    induction e as [|x e IH]; intros t s e' t' s'; cbn [bucketed_f]; [intros [= <- <- <-]; auto|].
    destruct (place_by heap dies key x t s) as [[t1 p] s1] eqn:E. intros H O. apply place_by_calm in E as [-> O1]; eauto.
  Qed.
  Lemma tabulated_calm key : forall e t (s : st) e' t' s', tabulated heap key e t s = (e', t', s') -> ok s -> ok s'.
  Proof.
    induction e as [|x e IH]; intros t s e' t' s'; cbn [tabulated]; [intros [= <- <- <-]; auto|].
    intros H O. rewrite (calm_failing _ O) in H. destruct (alloc heap s) as [b s1] eqn:E. apply alloc_calm in E as [-> O1]; eauto.
  Qed.
  Lemma pushing_calm : forall p b (s : st) p' b' s', pushing heap dies p b s = (p', b', s') -> ok s -> ok s'.
  Proof.
    induction p as [|[k l] p IH]; intros b s p' b' s'; cbn [pushing]; [intros [= <- <- <-]; auto|].
    intros H O. rewrite (calm_failing _ O) in H. destruct (push_bucket heap dies l b s) as [b1 s1] eqn:E. apply push_calm in E as [-> O1]; eauto.
  Qed.
  Lemma rallying_calm r : (forall n x y, snd (r n x y) = None) ->
    forall p b (s : st) p' b' s', rallying heap dies r p b s = (p', b', s') -> ok s -> ok s'.
  Proof.
    intros Hr. induction p as [|[k l] p IH]; intros b s p' b' s'; cbn [rallying]; [intros [= <- <- <-]; auto|].
    intros H O. rewrite (calm_failing _ O) in H. destruct (bundled_f heap dies (Some r) l s) as [[l1 t] s1] eqn:E. apply bundled_calm in E; auto.
    rewrite (calm_failing _ E) in H. eauto.
  Qed.
  Lemma unwind_calm e b p (s : st) e' b' s' : unwind e b p s = (e', b', s') -> ok s -> ok s'.
  Proof. unfold unwind. intros H O. rewrite (calm_failing _ O) in H. now injection H as <- <- <-. Qed.
  Lemma marshalled_calm key e (s : st) e' b s' : marshalled_f judy heap dies key e s = (e', b, s') -> ok s -> ok s'.
  Proof.
    unfold marshalled_f. destruct judy; [|apply bucketed_calm].
    destruct (tabulated heap key e [] s) as [[e1 t] s1] eqn:E1. destruct (pushing heap dies t [] s1) as [[p b1] s2] eqn:E2. intros E3 O.
    eapply unwind_calm; eauto. eapply pushing_calm; eauto. eapply tabulated_calm; eauto.
  Qed.
  Lemma rallied_calm hash r e (s : st) e' b s' : rallied_f judy heap dies hash r e s = (e', b, s') -> (forall n x y, snd (r n x y) = None) -> ok s -> ok s'.
  Proof.
    unfold rallied_f. destruct judy; [|intros; eapply bundled_calm; eauto].
    destruct (tabulated heap hash e [] s) as [[e1 t] s1] eqn:E1. destruct (rallying heap dies r t [] s1) as [[p b1] s2] eqn:E2. intros E3 Hr O.
    eapply unwind_calm; eauto. eapply rallying_calm; eauto. eapply tabulated_calm; eauto.
  Qed.

  Section Dedup.
    Variable eeq : nat -> N -> N -> bool * option N.
    Hypothesis Heq : forall n x y, snd (eeq n x y) = None.
    Variable ehash : N -> N.
    Lemma found_calm l : forall t (s : st) b s', found judy eeq ehash l t s = (b, s') -> ok s -> ok s'.
    Proof.
      induction t as [|[h l'] t IH]; intros s b s'; cbn [found]; [intros [= <- <-]; auto|].
      destruct (same_bin judy (ehash l) h); [|apply IH].
      destruct (failed (fun n => eeq n l l') s) as [c s1] eqn:E. intros H O. apply failed_calm in E; auto. destruct c; [eauto|].
      now injection H as <- <-.
    Qed.
    Lemma maybe_calm (s : st) b s' : (if judy then alloc heap s else (true, s)) = (b, s') -> ok s -> b = true /\ ok s'.
    Proof. destruct judy; [apply alloc_calm|]. intros [= <- <-]. auto. Qed.
    Lemma recorded_calm l t (s : st) b s' : recorded_f judy heap eeq ehash l t s = (b, s') -> ok s -> ok s'.
    Proof.
      unfold recorded_f. destruct t as [|x t]; [intros [= <- <-]; auto|].
      destruct (if judy then alloc heap s else (true, s)) as [c s1] eqn:E1. intros H O. apply maybe_calm in E1 as [-> O1]; auto.
      destruct (found judy eeq ehash l (x :: t) s1) as [p s2] eqn:E2. injection H as <- <-. eapply found_calm; eauto.
    Qed.
    Lemma record_calm l t (s : st) t' s' : record_f judy heap eeq ehash l t s = (t', s') -> ok s -> ok s'.
    Proof.
      unfold record_f. destruct (if judy then alloc heap s else (true, s)) as [c s1] eqn:E1. intros H O. apply maybe_calm in E1 as [-> O1]; auto.
      destruct (found judy eeq ehash l t s1) as [p s2] eqn:E2. apply found_calm in E2; auto. rewrite (calm_failing _ E2) in H. cbn [orb] in H.
      destruct p; [now injection H as <- <-|]. destruct (alloc heap s2) as [d s3] eqn:E3. apply alloc_calm in E3 as [-> O3]; auto. now injection H as <- <-.
    Qed.
    Lemma repeating_calm : forall e t r (s : st) k r' s', repeating_f lab judy heap eeq ehash t e r s = (k, r', s') -> ok s -> ok s'.
    Proof.
      induction e as [|x e IH]; intros t r s k r' s'; cbn [repeating_f]; [intros [= <- <- <-]; auto|].
      intros H O. rewrite (calm_failing _ O) in H. destruct (recorded_f judy heap eeq ehash (lab x) t s) as [c s1] eqn:E1. apply recorded_calm in E1; auto.
      destruct c; [eauto|]. destruct (record_f judy heap eeq ehash (lab x) t s1) as [t' s2] eqn:E2. apply record_calm in E2; auto.
      destruct (repeating_f lab judy heap eeq ehash t' e r s2) as [[k1 r1] s3] eqn:E3. injection H as <- <- <-. eauto.
    Qed.
    Lemma deduplicating_calm : forall t res (s : st) res' s', deduplicating lab judy heap dies eeq ehash t res s = (res', s') -> ok s -> ok s'.
    Proof.
      induction t as [|b t IH]; intros res s res' s'; cbn [deduplicating]; [intros [= <- <-]; auto|].
      destruct (repeating_labels_f lab judy heap eeq ehash b s) as [[k r] s1] eqn:E. intros H O. eapply IH; [exact H|].
      cbn [free_cells err]. apply free_calm. unfold repeating_labels_f in E. destruct b as [|x [|y b]]; [now injection E as <- <- <-..|].
      eapply repeating_calm; eauto.
    Qed.
    Lemma dedup_edges_calm key e (s : st) res s' : deduplicated_edges_f lab judy heap dies eeq ehash key e s = (res, s') -> ok s -> ok s'.
    Proof.
      unfold deduplicated_edges_f, deduplicated_brigade_f. destruct (marshalled_f judy heap dies key e s) as [[e1 b] s1] eqn:E1. intros H O.
      apply marshalled_calm in E1; auto. destruct (deduplicating lab judy heap dies eeq ehash b [] s1) as [r2 s2] eqn:E2.
      apply deduplicating_calm in E2; auto. rewrite (calm_failing _ E2) in H. injection H as <- <-. now apply free_calm.
    Qed.
  End Dedup.
  Section Unique.
    Variable hash : A -> N.
    Variable eeq veq : nat -> A -> A -> bool * option N.
    Variable ident : A -> A -> bool.
    Hypothesis Heq : forall n x y, snd (eeq n x y) = None.
    Hypothesis Hveq : forall n x y, snd (veq n x y) = None.
    Lemma duplicate_calm p : forall l (s : st) b s', duplicate veq ident p l s = (b, s') -> ok s -> ok s'.
    Proof.
      induction l as [|x l IH]; intros s b s'; cbn [duplicate]; [intros [= <- <-]; auto|].
      destruct (ident p x); [intros [= <- <-]; auto|].
      destruct (failed (fun n => veq n p x) s) as [c s1] eqn:E. intros H O. apply failed_calm in E; auto. destruct c; [eauto|].
      now injection H as <- <-.
    Qed.
    Lemma unique_in_calm : forall b r (s : st) r' s', unique_in dies veq ident b r s = (r', s') -> ok s -> ok s'.
    Proof.
      induction b as [|p b IH]; intros r s r' s'; cbn [unique_in]; [intros [= <- <-]; auto|].
      destruct (duplicate veq ident p b s) as [d s1] eqn:E. intros H O. apply duplicate_calm in E; auto.
      destruct (d || failing s1); [eapply IH; [exact H|]|eauto]. apply (free_calm [p]). exact E.
    Qed.
    Lemma uniques_calm : forall t r (s : st) r' s', uniques dies veq ident t r s = (r', s') -> ok s -> ok s'.
    Proof.
      induction t as [|b t IH]; intros r s r' s'; cbn [uniques]; [intros [= <- <-]; auto|].
      destruct (unique_in dies veq ident b r s) as [r1 s1] eqn:E. intros H O. apply unique_in_calm in E; auto. eapply IH; [exact H|exact E].
    Qed.
    Lemma unique_calm e (s : st) r s' : unique_f judy heap dies hash eeq veq ident e s = (r, s') -> ok s -> ok s'.
    Proof.
      unfold unique_f. destruct (rallied_f judy heap dies hash eeq e s) as [[e1 t] s1] eqn:E. intros H O. apply rallied_calm in E; auto.
      eapply uniques_calm; [exact H|]. now apply free_calm.
    Qed.
  End Unique.
  Section Reduce.
    Variable red : nat -> list A -> N * option N.
    Variable kills : N -> option N.
    Hypothesis Hred : forall n b, snd (red n b) = None.
    Lemma reducing_calm : forall t res s res' s', reducing heap dies red kills t res s = (res', s') -> ok (below s) -> ok (below s').
    Proof.
      induction t as [|b t IH]; intros res s res' s'; cbn [reducing]; [intros [= <- <-]; auto|]. intros H O.
      unfold reduce_bucket in H. rewrite (calm_failing _ O) in H. specialize (Hred (tick (below s)) b) as Hb.
      destruct (red (tick (below s)) b) as [l o]. cbn [snd] in Hb. subst o. unfold new_edge in H. cbn [below] in H.
      rewrite (calm_failing (ticked (below s)) O) in H. destruct (alloc heap (ticked (below s))) as [c s1] eqn:E.
      apply alloc_calm in E as [-> O1]; auto. eapply IH; [exact H|]. cbn [below free_cells err]. now apply free_calm.
    Qed.
    Lemma reduced_calm t s res s' : reduced_brigade_f heap dies red kills t s = (res, s') -> ok (below s) -> ok (below s').
    Proof.
      unfold reduced_brigade_f. destruct (reducing heap dies red kills t [] s) as [r1 s1] eqn:E. intros H O. apply reducing_calm in E; auto.
      rewrite (calm_failing _ E) in H. now injection H as <- <-.
    Qed.
  End Reduce.
  Section Filters.
    Variable keep : nat -> A -> bool * option N.
    Hypothesis Hkeep : forall n x, snd (keep n x) = None.
    Variable test : nat -> A -> N * option N.
    Hypothesis Htest : forall n x, snd (test n x) = None.
    Variable reduction : nat -> list A -> N * option N.
    Hypothesis Hred : forall n x, snd (reduction n x) = None.
    Variable trash : N -> option N.
    Hypothesis Htrash : forall w, trash w = None.
    Variable less : nat -> A -> A -> bool * option N.
    Hypothesis Hless : forall n x y, snd (less n x y) = None.

    Lemma keeping_calm : forall e q (s : st) k q' s', keeping keep e q s = (k, q', s') -> ok s -> ok s'.
    Proof.
      induction e as [|x e IH]; intros q s k q' s'; cbn [keeping]; [intros [= <- <- <-]; auto|].
      destruct (passed (fun n => keep n x) s) as [c s1] eqn:E. intros H O. apply passed_calm in E; auto. destruct c; [|eauto].
      destruct (keeping keep e q s1) as [[k1 q1] s2] eqn:E2. injection H as <- <- <-. eauto.
    Qed.
    Lemma filter_edges_calm pruner e (s : st) k s' : filter_edges_f dies keep pruner e s = (k, s') -> ok s -> ok s'.
    Proof.
      unfold filter_edges_f. destruct pruner; [|intros [= <- <-]; auto]. destruct (keeping keep e [] s) as [[k1 q] s1] eqn:E. intros [= <- <-] O.
      apply free_calm. eapply keeping_calm; eauto.
    Qed.
    Lemma tested_calm f (s : st) b s' : tested trash f s = (b, s') -> ok s -> (forall n, snd (f n) = None) -> ok s'.
    Proof.
      unfold tested. intros H O F. rewrite (calm_failing _ O) in H. specialize (F (tick s)). destruct (f (tick s)) as [w o]. cbn [snd] in F. subst o.
      destruct (N.eqb w 0); injection H as <- <-; simpl; now rewrite O.
    Qed.
    Lemma separated_calm : forall e p c (s : st) p' c' s', separated test trash e p c s = (p', c', s') -> ok s -> ok s'.
    Proof.
      induction e as [|x e IH]; intros p c s p' c' s'; cbn [separated]; [intros [= <- <- <-]; auto|].
      destruct (tested trash (fun n => test n x) s) as [b s1] eqn:E. intros H O. apply tested_calm in E; auto. destruct b; eauto.
    Qed.
    Lemma minimum_calm {B} (lt : nat -> B -> B -> bool * option N) : (forall n x y, snd (lt n x y) = None) ->
      forall e m j (s : st) o s', minimum lt m j e s = (o, s') -> ok s -> ok s'.
    Proof.
      intros Hlt. induction e as [|x e IH]; intros m j s o s'; cbn [minimum]; [intros [= <- <-]; auto|]. intros H O.
      rewrite (calm_failing _ O) in H. destruct m as [[i y]|]; [|eauto]. destruct (passed (fun n => lt n x y) s) as [c s1] eqn:E.
      apply passed_calm in E; auto. destruct c; eauto.
    Qed.
    Lemma minimum_f_calm {B} (lt : nat -> B -> B -> bool * option N) e (s : st) o l s' : minimum_f lt e s = (o, l, s') ->
      (forall n x y, snd (lt n x y) = None) -> ok s -> ok s'.
    Proof.
      unfold minimum_f. destruct (minimum lt None 0 e s) as [[[i m]|] s1] eqn:E; intros [= <- <- <-]; intros; eapply minimum_calm; eauto.
    Qed.
    Lemma joint_calm l n : snd (match reduction n l with (w, None) => (w, None) | (_, o) => (0%N, o) end) = None.
    Proof. specialize (Hred n l). destruct (reduction n l) as [w [e|]]; auto. Qed.
    Lemma jointly_calm : forall b e c (s : st) e' c' s', jointly reduction trash b e c s = (e', c', s') -> ok s -> ok s'.
    Proof.
      induction b as [|l b IH]; intros e c s e' c' s'; cbn [jointly]; [intros [= <- <- <-]; auto|].
      destruct (tested trash _ s) as [t s1] eqn:E. intros H O. apply tested_calm in E; auto; [|intros n; apply joint_calm]. destruct t; eauto.
    Qed.
    Lemma passing_calm : forall b p c (s : st) p' c' s', passing reduction trash b p c s = (p', c', s') -> ok s -> ok s'.
    Proof.
      induction b as [|l b IH]; intros p c s p' c' s'; cbn [passing]; [intros [= <- <- <-]; auto|].
      destruct (tested trash _ s) as [t s1] eqn:E. intros H O. apply tested_calm in E; auto; [|intros n; apply joint_calm]. destruct t; eauto.
    Qed.
    Lemma filtered_calm individual thin order e c (s : st) e' c' s' :
      filtered_f judy heap dies test reduction trash less individual thin order e c s = (e', c', s') ->
      (forall h r, order = Some (h, r) -> forall n x y, snd (r n x y) = None) -> ok s -> ok s'.
    Proof.
      unfold filtered_f. intros H Q O. rewrite (calm_failing _ O) in H. destruct individual.
      - unfold individually_f in H. destruct (separated test trash e [] c s) as [[p c1] s1] eqn:E. apply separated_calm in E; auto.
        destruct thin; [|now injection H as <- <- <-]. destruct p as [|x p]; [now injection H as <- <- <-|].
        destruct (minimum_f less (x :: p) s1) as [[[m|] p1] s2] eqn:E2; injection H as <- <- <-; eapply minimum_f_calm; eauto.
      - destruct (match order with None => bundled_f heap dies None e s | Some (h, r) => rallied_f judy heap dies h r e s end) as [[e1 b] s1] eqn:E.
        assert (O1 : ok s1) by (destruct order as [[h r]|]; [eapply rallied_calm; eauto|eapply bundled_calm; [exact E|exact I|exact O]]). clear E.
        destruct e1; [|now injection H as <- <- <-]. destruct thin.
        + unfold jointly_thinned_f in H. destruct (passing reduction trash b [] c s1) as [[p c1] s2] eqn:E. apply passing_calm in E; auto.
          destruct p as [|x p]; [now injection H as <- <- <-|].
          destruct (minimum_f (first_less less) (x :: p) s2) as [[[m|] p1] s3] eqn:E2; injection H as <- <- <-; cbn [free_cells err];
            (eapply minimum_f_calm; [exact E2| |exact E]); intros n [|y b1] [|z b2]; simpl; auto.
        + unfold jointly_filtered_f in H. destruct (jointly reduction trash b [] c s1) as [[p c1] s2] eqn:E. apply jointly_calm in E; auto.
          now injection H as <- <- <-.
    Qed.
  End Filters.
End Calm.

(** ** Nothing is freed by grouping with a relation, or by filters. *)
Section Intact.
  Context {A : Type}.
  Variable judy : bool.
  Variable heap : nat -> bool.
  Variable dies : A -> option N.
  Local Notation st := (@st A).
  Local Notation same s s' := (gone s' = gone s).

  Lemma alloc_intact (s : st) b s' : alloc heap s = (b, s') -> same s s'.
  Proof. unfold alloc. destruct (heap (tick s)); intros [= <- <-]; reflexivity. Qed.
  Lemma passed_intact f (s : st) b s' : passed f s = (b, s') -> same s s'.
  Proof. unfold passed. destruct (failing s); [intros [= <- <-]; auto|]. destruct (f (tick s)). intros [= <- <-]. reflexivity. Qed.
  Lemma push_intact t (s : st) b s' : push_bucket heap dies [] t s = (b, s') -> same s s'.
  Proof. unfold push_bucket. destruct (alloc heap s) as [[|] s1] eqn:E; apply alloc_intact in E; intros [= <- <-]; exact E. Qed.
  Lemma place_intact r x : forall bs (s : st) bs' p s', place heap dies r x bs s = (bs', p, s') -> same s s'.
  Proof.
    induction bs as [|[|y b] bs IH]; intros s bs' p s'; cbn [place].
    - destruct (push_bucket heap dies [] [] s) as [[|q bb] s1] eqn:E; apply push_intact in E; [intros [= <- <- <-]; exact E|].
      destruct (failing s1); intros [= <- <- <-]; exact E.
    - intros [= <- <- <-]. reflexivity.
    - destruct (passed (fun n => r n y x) s) as [[|] s1] eqn:E; apply passed_intact in E; [intros [= <- <- <-]; exact E|].
      destruct (failing s1); [intros [= <- <- <-]; exact E|].
      destruct (place heap dies r x bs s1) as [[bs2 p2] s2] eqn:E2. apply IH in E2. intros [= <- <- <-]. congruence.
  Qed.
  Lemma bundling_intact r : forall e t (s : st) e' t' s', bundling heap dies r e t s = (e', t', s') -> same s s'.
  Proof.
    induction e as [|x e IH]; intros t s e' t' s'; cbn [bundling]; [intros [= <- <- <-]; auto|].
    destruct (failing s); [intros [= <- <- <-]; auto|]. destruct (place heap dies r x t s) as [[t1 [|]] s1] eqn:E; apply place_intact in E.
    - intros H. apply IH in H. congruence.
    - intros [= <- <- <-]. exact E.
  Qed.
  Lemma bundling_null_intact : forall e t (s : st) e' t' s', bundling_null heap dies e t s = (e', t', s') -> same s s'.
  Proof.
    induction e as [|x e IH]; intros t s e' t' s'; cbn [bundling_null]; [intros [= <- <- <-]; auto|].
    destruct (failing s); [intros [= <- <- <-]; auto|]. destruct (push_bucket heap dies [] t s) as [[|b t1] s1] eqn:E; apply push_intact in E.
    - intros [= <- <- <-]. exact E.
    - destruct (failing s1); [intros [= <- <- <-]; exact E|]. intros H. apply IH in H. congruence.
  Qed.
  Lemma bundled_intact r e (s : st) e' b s' : bundled_f heap dies r e s = (e', b, s') -> same s s'.
  Proof.
    unfold bundled_f. destruct e as [|x e]; [intros [= <- <- <-]; auto|].
    destruct (match r with Some r => bundling heap dies r (x :: e) [] s | None => bundling_null heap dies (x :: e) [] s end) as [[e1 t1] s1] eqn:E.
    assert (H : same s s1) by (destruct r; [eapply bundling_intact|eapply bundling_null_intact]; eauto). clear E. unfold bundle_end.
    destruct e1 as [|y e1]; [destruct (failing s1)|]; [destruct (unbundled t1 ++ [])| |destruct (unbundled t1 ++ y :: e1)]; intros [= <- <- <-]; exact H.
  Qed.
  Lemma tabulated_intact key : forall e t (s : st) e' t' s', tabulated heap key e t s = (e', t', s') -> same s s'.
  Proof.
    induction e as [|x e IH]; intros t s e' t' s'; cbn [tabulated]; [intros [= <- <- <-]; auto|].
    destruct (failing s); [intros [= <- <- <-]; auto|]. destruct (alloc heap s) as [[|] s1] eqn:E; apply alloc_intact in E.
    - intros H. apply IH in H. congruence.
    - intros [= <- <- <-]. exact E.
  Qed.
  Lemma rallying_intact r : forall p b (s : st) p' b' s', rallying heap dies r p b s = (p', b', s') -> same s s'.
  Proof.
    induction p as [|[k l] p IH]; intros b s p' b' s'; cbn [rallying]; [intros [= <- <- <-]; auto|].
    destruct (failing s); [intros [= <- <- <-]; auto|]. destruct (bundled_f heap dies (Some r) l s) as [[l1 t] s1] eqn:E. apply bundled_intact in E.
    destruct (failing s1); [intros [= <- <- <-]; exact E|]. intros H. apply IH in H. congruence.
  Qed.
  Lemma rallied_intact hash r e (s : st) e' b s' : rallied_f judy heap dies hash r e s = (e', b, s') -> same s s'.
  Proof.
    unfold rallied_f. destruct judy; [|apply bundled_intact].
    destruct (tabulated heap hash e [] s) as [[e1 t] s1] eqn:E1. destruct (rallying heap dies r t [] s1) as [[p b1] s2] eqn:E2.
    apply tabulated_intact in E1. apply rallying_intact in E2. unfold unwind. destruct (failing s2); intros [= <- <- <-]; cbn [free_cells gone]; congruence.
  Qed.
  Section Filters.
    Variable test : nat -> A -> N * option N.
    Variable reduction : nat -> list A -> N * option N.
    Variable trash : N -> option N.
    Variable less : nat -> A -> A -> bool * option N.
    Lemma tested_intact f (s : st) b s' : tested trash f s = (b, s') -> same s s'.
    Proof.
      unfold tested. destruct (failing s); [intros [= <- <-]; auto|]. destruct (f (tick s)) as [w e]. destruct (N.eqb w 0); intros [= <- <-]; reflexivity.
    Qed.
    Lemma separated_intact : forall e p c (s : st) p' c' s', separated test trash e p c s = (p', c', s') -> same s s'.
    Proof.
      induction e as [|x e IH]; intros p c s p' c' s'; cbn [separated]; [intros [= <- <- <-]; auto|].
      destruct (tested trash (fun n => test n x) s) as [[|] s1] eqn:E; apply tested_intact in E; intros H; apply IH in H; congruence.
    Qed.
    Lemma minimum_intact {B} (lt : nat -> B -> B -> bool * option N) : forall e m j (s : st) o s', minimum lt m j e s = (o, s') -> same s s'.
    Proof.
      induction e as [|x e IH]; intros m j s o s'; cbn [minimum]; [intros [= <- <-]; auto|]. destruct (failing s); [intros [= <- <-]; auto|].
      destruct m as [[i y]|]; [|apply IH]. destruct (passed (fun n => lt n x y) s) as [[|] s1] eqn:E; apply passed_intact in E; intros H; apply IH in H; congruence.
    Qed.
    Lemma minimum_f_intact {B} (lt : nat -> B -> B -> bool * option N) e (s : st) o l s' : minimum_f lt e s = (o, l, s') -> same s s'.
    Proof. unfold minimum_f. destruct (minimum lt None 0 e s) as [[[i m]|] s1] eqn:E; apply minimum_intact in E; intros [= <- <- <-]; exact E. Qed.
    Lemma jointly_intact : forall b e c (s : st) e' c' s', jointly reduction trash b e c s = (e', c', s') -> same s s'.
    Proof.
      induction b as [|l b IH]; intros e c s e' c' s'; cbn [jointly]; [intros [= <- <- <-]; auto|].
      destruct (tested trash _ s) as [[|] s1] eqn:E; apply tested_intact in E; intros H; apply IH in H; congruence.
    Qed.
    Lemma passing_intact : forall b p c (s : st) p' c' s', passing reduction trash b p c s = (p', c', s') -> same s s'.
    Proof.
      induction b as [|l b IH]; intros p c s p' c' s'; cbn [passing]; [intros [= <- <- <-]; auto|].
      destruct (tested trash _ s) as [[|] s1] eqn:E; apply tested_intact in E; intros H; apply IH in H; cbn [free_cells gone] in H; congruence.
    Qed.
    Lemma filtered_intact individual thin order e c (s : st) e' c' s' :
      filtered_f judy heap dies test reduction trash less individual thin order e c s = (e', c', s') -> same s s'.
    Proof.
      unfold filtered_f. destruct (failing s); [intros [= <- <- <-]; auto|]. destruct individual.
      - unfold individually_f. destruct (separated test trash e [] c s) as [[p c1] s1] eqn:E. apply separated_intact in E.
        destruct thin; [|intros [= <- <- <-]; exact E]. destruct p as [|x p]; [intros [= <- <- <-]; exact E|].
        destruct (minimum_f less (x :: p) s1) as [[[m|] p1] s2] eqn:E2; apply minimum_f_intact in E2; intros [= <- <- <-]; congruence.
      - destruct (match order with None => bundled_f heap dies None e s | Some (h, r) => rallied_f judy heap dies h r e s end) as [[e1 b] s1] eqn:E.
        assert (H : same s s1) by (destruct order as [[h r]|]; [eapply rallied_intact|eapply bundled_intact]; eauto). clear E.
        destruct e1 as [|y e1]; [|intros [= <- <- <-]; exact H]. destruct thin.
        + unfold jointly_thinned_f. destruct (passing reduction trash b [] c s1) as [[p c1] s2] eqn:E. apply passing_intact in E.
          destruct p as [|x p]; [intros [= <- <- <-]; congruence|].
          destruct (minimum_f (first_less less) (x :: p) s2) as [[[m|] p1] s3] eqn:E2; apply minimum_f_intact in E2; intros [= <- <- <-];
            cbn [free_cells gone]; congruence.
        + unfold jointly_filtered_f. destruct (jointly reduction trash b [] c s1) as [[p c1] s2] eqn:E. apply jointly_intact in E.
          intros [= <- <- <-]. cbn [free_cells gone]. congruence.
    Qed.
  End Filters.
End Intact.

(** ** Theorems.  In the beginning, [o] is the status, nothing has been freed, and no buckets have been allocated. *)
Definition start {A} (n : nat) (o : option N) : @st A := mkSt n o [] 0 0.

Section Theorems.
  Context {A : Type}.
  (** edges as they are in memory *)
  Variable dec : forall x y : A, {x = y} + {x <> y}.
  Variable judy : bool.
  Variable heap : nat -> bool.
  Variable dies : A -> option N.

  Lemma bal_perm (s' : @st A) n o inn out m k : bal dec (start n o) s' inn out m k ->
    Permutation inn (out ++ gone s') /\ made s' + m = unmade s' + k /\ (o <> None -> err s' = o).
  Proof.
    intros [B1 [B2 B3]]. split; [|split].
    - apply (perm_occ dec). intros z. specialize (B1 z). rewrite (occ_app dec). simpl in B1. lia.
    - simpl in B2. lia.
    - destruct o as [e|]; [intros _; apply B3; reflexivity|congruence].
  Qed.
  Lemma err_ok (s : @st A) : err s = None -> failing s = false.
  Proof. unfold failing. now intros ->. Qed.
  Lemma err_bad (s : @st A) : err s <> None -> failing s = true.
  Proof. unfold failing. destruct (err s); congruence. Qed.
  Lemma reducing_dead red kills : forall t r (s : @rst A) r' s', reducing heap dies red kills t r s = (r', s') -> failing (below s') = false -> dead s' = dead s.
  Proof.
    induction t as [|b t IH]; intros r s r' s'; cbn [reducing]; [intros [= <- <-]; auto|].
    destruct (reduce_bucket red b s) as [l s1] eqn:E1. destruct (new_edge heap kills l s1) as [x s2] eqn:E2. intros H F.
    pose proof H as Q. apply (reducing_bal dec) in Q as [B _]. pose proof (back B F) as F1. cbn [below] in F1.
    assert (F2 : failing (below s2) = false) by exact (back (free_edges_bal dec dies b (below s2)) F1).
    apply IH in H; auto. rewrite H. cbn [dead].
    assert (D1 : dead s1 = dead s).
    { unfold reduce_bucket in E1. destruct (failing (below s)); [injection E1 as <- <-; reflexivity|].
      destruct (red (tick (below s)) b) as [l1 [e|]]; injection E1 as <- <-; reflexivity. }
    rewrite <- D1. unfold new_edge in E2. destruct (failing (below s1)) eqn:G1.
    - injection E2 as <- <-. destruct (destroy_bal dec kills l s1) as [B' _]. rewrite (back B' F2) in G1. discriminate.
    - destruct (alloc heap (below s1)) as [[|] s3] eqn:E3; [injection E2 as <- <-; reflexivity|].
      apply (alloc_bal dec) in E3 as [_ [N3 _]]. injection E2 as <- <-. destruct (destroy_bal dec kills l (mkR s3 (newl s1) (dead s1))) as [B' _].
      specialize (N3 eq_refl). pose proof (back B' F2) as K. cbn [below] in K. congruence.
  Qed.
  Lemma reduced_dead red kills t (s : @rst A) r s' : reduced_brigade_f heap dies red kills t s = (r, s') -> failing (below s') = false -> dead s' = dead s.
  Proof.
    unfold reduced_brigade_f. destruct (reducing heap dies red kills t [] s) as [r1 s1] eqn:E.
    destruct (failing (below s1)) eqn:F; intros [= <- <-] F'.
    - destruct (destroy_all_bal dec kills r1 s1) as [B _]. rewrite (back B F') in F. discriminate.
    - eapply reducing_dead; eauto.
  Qed.

  (** Grouping by terminus *)
  Theorem C100_grouping_by_terminus key e n o e' b s' :
    marshalled_f judy heap dies key e (start n o) = (e', b, s') ->
    Permutation e ((e' ++ concat b) ++ gone s') /\ made s' = unmade s' + length b /\ (o <> None -> err s' = o) /\
    (err s' = None -> e' = [] /\ gone s' = [] /\ Permutation (concat b) e /\ (forall l, In l b -> l <> []) /\
       (forall l x y, In l b -> In x l -> (In y l <-> In y e /\ key y = key x))).
  Proof.
    intros E. pose proof E as Q. apply (marshalled_bal dec) in Q as [B N]. apply bal_perm in B as [P [M O]].
    split; [exact P|]. split; [lia|]. split; [exact O|]. intros F. apply err_ok in F. pose proof (N F) as ->.
    apply (marshalled_right dec) in E; auto. subst b. destruct (C46_grouping_by_terminus judy key e) as [G1 [G2 G3]].
    split; [reflexivity|]. split; [|auto].
    apply Permutation_length in P, G1. rewrite app_length in P. cbn [app] in P. destruct (gone s'); [reflexivity|]. simpl in P. lia.
  Qed.

  (** ... and by a relation: nothing is freed. *)
  Theorem C100_grouping_by_label hash r e n o e' b s' :
    rallied_f judy heap dies hash r e (start n o) = (e', b, s') ->
    Permutation e (e' ++ concat b) /\ gone s' = [] /\ made s' = unmade s' + length b /\ (o <> None -> err s' = o) /\
    (err s' <> None -> b = []) /\
    (forall rr, err s' = None -> (forall n x y, fst (r n x y) = rr x y) -> equivalence rr -> (forall x y, rr x y = true -> hash x = hash y) ->
       e' = [] /\ (forall l, In l b -> l <> []) /\ (forall l x y, In l b -> In x l -> (In y l <-> In y e /\ rr x y = true))).
  Proof.
    intros E. pose proof E as Q. apply (rallied_bal dec) in Q as [B [N1 N2]]. apply bal_perm in B as [P [M O]].
    pose proof E as I. apply rallied_intact in I. rewrite I in P. cbn [start gone] in P. rewrite app_nil_r in P.
    split; [exact P|]. split; [exact I|]. split; [lia|]. split; [exact O|]. split; [intros F; apply N1, err_bad; exact F|].
    intros rr F Hr Eq Hh. apply err_ok in F. apply rallied_right with (rr := rr) in E; auto. subst b.
    destruct (C46_grouping_by_label judy hash e Eq Hh) as [G1 [G2 G3]]. auto.
  Qed.

  (** Deduplication *)
  Theorem C100_deduplication lab eeq ehash key e n o res s' :
    deduplicated_edges_f lab judy heap dies eeq ehash key e (start n o) = (res, s') ->
    Permutation e (res ++ gone s') /\ made s' = unmade s' /\ (o <> None -> err s' = o) /\ (err s' <> None -> res = []) /\
    (forall eq, err s' = None -> (forall n x y, fst (eeq n x y) = eq x y) -> equivalence eq -> (forall x y, eq x y = true -> ehash x = ehash y) ->
       ForallOrdPairs (fun x y => ~ (key x = key y /\ eq (lab x) (lab y) = true)) res /\
       (forall x, In x e -> exists y, In y res /\ key y = key x /\ eq (lab x) (lab y) = true)).
  Proof.
    intros E. pose proof E as Q. apply (dedup_edges_bal dec) in Q as [B N]. apply bal_perm in B as [P [M O]].
    split; [exact P|]. split; [lia|]. split; [exact O|]. split; [intros F; apply N, err_bad; exact F|].
    intros eq F Heq Eq Hh. apply err_ok in F. apply dedup_edges_right with (eq := eq) in E; auto. subst res.
    destruct (C46_deduplication judy ehash lab key e Eq Hh) as [_ G]. exact G.
  Qed.

  (** Edges to equal vertices in build.c *)
  Theorem C100_uniqueness hash eeq veq ident e n o res s' :
    unique_f judy heap dies hash eeq veq ident e (start n o) = (res, s') ->
    Permutation e (res ++ gone s') /\ made s' = unmade s' /\ (o <> None -> err s' = o) /\
    (forall eq same, err s' = None -> (forall n x y, fst (eeq n x y) = eq x y) -> (forall n x y, fst (veq n x y) = same x y) ->
       equivalence eq -> equivalence same -> (forall x y, ident x y = true -> same x y = true) -> (forall x y, eq x y = true -> hash x = hash y) ->
       ForallOrdPairs (fun x y => ~ (eq x y = true /\ same x y = true)) res /\
       (forall x, In x e -> exists y, In y res /\ eq x y = true /\ same x y = true)).
  Proof.
    intros E. pose proof E as Q. apply (unique_bal dec) in Q as B. apply bal_perm in B as [P [M O]].
    split; [exact P|]. split; [lia|]. split; [exact O|].
    intros eq same F Heq Hveq Eq Es Hid Hh. apply err_ok in F. apply unique_right with (eq := eq) (same := same) in E; auto. subst res.
    destruct (unique_dedup judy hash e Eq Es Hh) as [_ G1 G2]. split.
    - revert G1. apply FOP_imp. intros x y _ _ H [H1 H2]. rewrite H1, H2 in H. discriminate.
    - intros x Hx. destruct (G2 x Hx) as (y & Hy & H). apply andb_true_iff in H as [H1 H2]. eauto.
  Qed.

  (** Reductions: all edges of the brigade are freed. The labels obtained are those of the result, or have been destroyed. *)
  Theorem C100_reduction red kills t n o k res s' :
    reduced_brigade_f heap dies red kills t (mkR (mkSt n o [] (length t + k) k) [] []) = (res, s') ->
    Permutation (concat t) (gone (below s')) /\ made (below s') = unmade (below s') /\ (o <> None -> err (below s') = o) /\
    Permutation (newl s') (filter (fun w => negb (N.eqb w 0)) (map fst res) ++ dead s') /\
    (err (below s') <> None -> res = []) /\
    (forall value, err (below s') = None -> (forall n b, fst (red n b) = value b) -> map snd res = rev t /\ map fst res = map value (rev t) /\ dead s' = []).
  Proof.
    intros E. pose proof E as Q. apply (reduced_bal dec) in Q as [[B1 [B2 B3]] [L N]]. cbn [below gone made unmade err] in *.
    split; [|split; [lia|split]].
    - apply (perm_occ dec). intros z. specialize (B1 z). simpl in B1. lia.
    - destruct o; [intros _; apply B3; reflexivity|congruence].
    - assert (PL : Permutation (newl s') (filter (fun w => negb (N.eqb w 0)) (map fst res) ++ dead s')).
      { apply (Permutation_count_occ N.eq_dec). intros w. specialize (L w). rewrite count_occ_app. unfold nonnull in L. simpl in L. lia. }
      split; [exact PL|]. split; [intros F; apply N, err_bad; exact F|]. intros value F V. apply err_ok in F.
      assert (D : dead s' = []) by (apply reduced_dead in E; auto).
      apply reduced_right with (value := value) in E; auto. split; [|split; [|exact D]].
      + rewrite E, map_rev, map_map. cbn [snd]. now rewrite map_id.
      + rewrite E, map_rev, map_map. cbn [fst]. now rewrite map_rev.
  Qed.

  (** Pruning by mergers *)
  Theorem C100_pruning keep pruner e n o k s' :
    filter_edges_f dies keep pruner e (start n o) = (k, s') ->
    Permutation e (k ++ gone s') /\ (o <> None -> err s' = o) /\
    (forall kept, err s' = None -> (forall n x, fst (keep n x) = kept x) -> k = if pruner then filter kept e else e).
  Proof.
    intros E. pose proof E as Q. apply (filter_edges_bal dec) in Q as B. apply bal_perm in B as [P [M O]].
    split; [exact P|]. split; [exact O|]. intros kept F K. apply err_ok in F. destruct pruner.
    - apply filter_edges_right with (kept := kept) in E; auto.
    - unfold filter_edges_f in E. now injection E as <- <-.
  Qed.

  (** Filters *)
  Theorem C100_filters test reduction trash less individual thin order e c n o e' c' s' :
    filtered_f judy heap dies test reduction trash less individual thin order e c (start n o) = (e', c', s') ->
    Permutation (e ++ c) (e' ++ c') /\ gone s' = [] /\ made s' = unmade s' /\ (o <> None -> err s' = o).
  Proof.
    intros E. pose proof E as Q. apply (filtered_bal dec) in Q as B. apply bal_perm in B as [P [M O]]. apply filtered_intact in E.
    rewrite E in P. cbn [start gone] in P. rewrite app_nil_r in P. split; [exact P|]. split; [exact E|]. split; [lia|exact O].
  Qed.
  (** With neither a thinner nor an order, an edge stays if it passes. *)
  Theorem C100_individual_filters test reduction trash less order e c n e' c' s' good :
    filtered_f judy heap dies test reduction trash less true false order e c (start n None) = (e', c', s') -> err s' = None ->
    (forall n x, fst (test n x) = 0%N <-> good x = false) ->
    e' = rev (filter good e) /\ c' = rev (filter (fun x => negb (good x)) e) ++ c.
  Proof.
    intros E F G. apply err_ok in F. unfold filtered_f, individually_f in E. cbn [start failing err] in E.
    destruct (separated test trash e [] c (start n None)) as [[p c1] s1] eqn:E1.
    injection E as <- <- <-.
    apply (separated_right dec) with (good := good) in E1 as [-> ->]; auto; [now rewrite app_nil_r|].
    intros m x. destruct (good x) eqn:K; simpl.
    - apply N.eqb_neq. intros H. apply G in H. congruence.
    - apply N.eqb_eq. now apply G.
  Qed.
  (** Without a thinner, classes stay if they pass. *)
  Theorem C100_joint_filters test reduction trash less hash r rr fine e c n e' c' s' :
    filtered_f judy heap dies test reduction trash less false false (Some (hash, r)) e c (start n None) = (e', c', s') -> err s' = None ->
    (forall n x y, fst (r n x y) = rr x y) -> equivalence rr -> (forall x y, rr x y = true -> hash x = hash y) ->
    (forall n l, fst (reduction n l) = 0%N <-> fine l = false) ->
    exists b, Permutation (concat b) e /\ (forall l, In l b -> l <> []) /\ (forall l x y, In l b -> In x l -> (In y l <-> In y e /\ rr x y = true)) /\
              Permutation e' (concat (filter fine b)) /\ Permutation c' (concat (filter (fun l => negb (fine l)) b) ++ c).
  Proof.
    intros E F Hr Eq Hh Hf. apply err_ok in F. unfold filtered_f in E. cbn [start failing err] in E.
    destruct (rallied_f judy heap dies hash r e (start n None)) as [[e1 b] s1] eqn:E1.
    assert (F1 : failing s1 = false).
    { destruct e1; [|now injection E as <- <- <-]. unfold jointly_filtered_f in E. destruct (jointly reduction trash b [] c s1) as [[e2 c2] s2] eqn:E2.
      injection E as <- <- <-. apply (jointly_bal dec) in E2. exact (back E2 F). }
    pose proof E1 as Q. apply (rallied_bal dec) in Q as [_ [_ N]]. rewrite (N F1) in E.
    apply (rallied_right dec) with (rr := rr) in E1; auto. exists b. subst b. destruct (C46_grouping_by_label judy hash e Eq Hh) as [G1 [G2 G3]].
    split; [exact G1|]. split; [exact G2|]. split; [exact G3|].
    unfold jointly_filtered_f in E. destruct (jointly reduction trash (rallied judy hash rr e) [] c s1) as [[e2 c2] s2] eqn:E2. injection E as <- <- <-.
    apply (jointly_right dec) with (fine := fine) in E2 as [-> ->]; auto.
    - assert (K : forall l acc, Permutation (@cats A l acc) (concat l ++ acc)).
      { unfold cats. induction l as [|x l IH]; intros acc; [reflexivity|]. simpl. rewrite IH, <- app_assoc. rewrite !app_assoc. apply Permutation_app_tail, Permutation_app_comm. }
      split; [rewrite (K _ []), app_nil_r; reflexivity|apply K].
    - intros m x. destruct (fine x) eqn:K; simpl.
      + apply N.eqb_neq. intros H. apply Hf in H. congruence.
      + apply N.eqb_eq. now apply Hf.
  Qed.

  (** No error is reported if there is enough memory and none is raised by a function or a destructor. *)
  Theorem C100_no_spurious_errors lab eeq ehash key hash r veq ident red kills t keep pruner test reduction trash less individual thin order e c n :
    (forall n, heap n = true) -> (forall x, dies x = None) ->
    (forall n x y, snd (eeq n x y) = None) -> (forall n x y, snd (r n x y) = None) -> (forall n x y, snd (veq n x y) = None) ->
    (forall n l, snd (red n l) = None) -> (forall n x, snd (keep n x) = None) -> (forall n x, snd (test n x) = None) ->
    (forall n l, snd (reduction n l) = None) -> (forall w, trash w = None) -> (forall n x y, snd (less n x y) = None) ->
    (forall h q, order = Some (h, q) -> forall n x y, snd (q n x y) = None) ->
    err (snd (marshalled_f judy heap dies key e (start n None))) = None /\
    err (snd (rallied_f judy heap dies hash r e (start n None))) = None /\
    err (snd (deduplicated_edges_f lab judy heap dies eeq ehash key e (start n None))) = None /\
    err (snd (unique_f judy heap dies hash r veq ident e (start n None))) = None /\
    err (below (snd (reduced_brigade_f heap dies red kills t (mkR (start n None) [] [])))) = None /\
    err (snd (filter_edges_f dies keep pruner e (start n None))) = None /\
    err (snd (filtered_f judy heap dies test reduction trash less individual thin order e c (start n None))) = None.
  Proof.
    intros H1 H2 H3 H4 H5 H6 H7 H8 H9 H10 H11 H12.
    split; [|split; [|split; [|split; [|split; [|split]]]]].
    - destruct (marshalled_f judy heap dies key e (start n None)) as [[? ?] s] eqn:E. eapply marshalled_calm in E; eauto.
    - destruct (rallied_f judy heap dies hash r e (start n None)) as [[? ?] s] eqn:E. eapply rallied_calm in E; eauto.
    - destruct (deduplicated_edges_f lab judy heap dies eeq ehash key e (start n None)) as [? s] eqn:E. eapply dedup_edges_calm in E; eauto.
    - destruct (unique_f judy heap dies hash r veq ident e (start n None)) as [? s] eqn:E. eapply unique_calm in E; eauto.
    - destruct (reduced_brigade_f heap dies red kills t (mkR (start n None) [] [])) as [? s] eqn:E. eapply reduced_calm in E; eauto.
    - destruct (filter_edges_f dies keep pruner e (start n None)) as [? s] eqn:E. eapply filter_edges_calm in E; eauto.
    - destruct (filtered_f judy heap dies test reduction trash less individual thin order e c (start n None)) as [[? ?] s] eqn:E. eapply filtered_calm in E; eauto.
  Qed.
End Theorems.

(** ** Examples.  Six edges, two termini, labels modulo 3 *)
Definition xe : list nat := [0; 1; 2; 3; 4; 5].
Definition xlab (x : nat) : N := N.of_nat (x mod 3).
Definition xkey (x : nat) : N := N.of_nat (x / 4).
Definition xrel (n : nat) (x y : nat) : bool * option N := (Nat.eqb (x mod 3) (y mod 3), None).
Definition xeq (n : nat) (x y : N) : bool * option N := (N.eqb x y, None).
(** a relation that fails at a given time *)
Definition xbad (m n : nat) (x y : nat) : bool * option N := if Nat.eqb n m then (true, Some 7%N) else xrel n x y.
Definition xheap (m n : nat) : bool := negb (Nat.eqb n m).
Definition xdies (x : nat) : option N := if Nat.eqb x 5 then Some 9%N else None.
Definition never {B} (_ : B) : option N := None.


Example C100_grouping_by_terminus_ex :
  marshalled_f true (xheap 7) never xkey xe (start 0 None) = ([3; 2; 1; 0], [], mkSt 8 (Some 12%N) [4; 5] 1 1) /\
  marshalled_f false (xheap 1) never xkey xe (start 0 None) = ([4; 5], [[3; 2; 1; 0]], mkSt 2 (Some 12%N) [] 1 0) /\
  marshalled_f true (xheap 99) never xkey xe (start 0 None) = ([], [[5; 4]; [3; 2; 1; 0]], mkSt 8 None [] 2 0).
Proof. repeat split; vm_compute; reflexivity. Qed.

Definition xhash (x : nat) : N := N.of_nat ((x mod 3) mod 2).
Example C100_grouping_by_label_ex :
  rallied_f true (xheap 99) never xhash (xbad 9) xe (start 0 None) = ([4; 1; 3; 5; 2; 0], [], mkSt 10 (Some 7%N) [] 2 2) /\
  rallied_f false (xheap 2) never xhash (xbad 99) xe (start 0 None) = ([0; 1; 2; 3; 4; 5], [], mkSt 3 (Some 12%N) [] 1 1) /\
  rallied_f true (xheap 99) never xhash xrel xe (start 0 None) = ([], [[1; 4]; [2; 5]; [0; 3]], mkSt 14 None [] 3 0).
Proof. repeat split; vm_compute; reflexivity. Qed.

Example C100_deduplication_ex :
  deduplicated_edges_f xlab true (xheap 12) never xeq (fun x => x) xkey xe (start 0 None) = ([], mkSt 13 (Some 12%N) [4; 5; 0; 1; 2; 3] 2 2) /\
  deduplicated_edges_f xlab false (xheap 1) xdies xeq (fun x => x) xkey xe (start 0 None) = ([], mkSt 2 (Some 12%N) [5; 4; 0; 1; 2; 3] 1 1) /\
  deduplicated_edges_f xlab true (xheap 99) never xeq (fun x => x) xkey xe (start 0 None) = ([3; 2; 1; 5; 4], mkSt 23 None [0] 2 2).
Proof. repeat split; vm_compute; reflexivity. Qed.

(** The vertices are the termini. *)
Definition xveq (m n : nat) (x y : nat) : bool * option N := if Nat.eqb n m then (true, Some 7%N) else (N.eqb (xkey x) (xkey y), None).
Example C100_uniqueness_ex :
  unique_f true (xheap 99) never xlab xrel (xveq 13) Nat.eqb xe (start 0 None) = ([5; 2], mkSt 14 (Some 7%N) [3; 0; 4; 1] 3 3) /\
  unique_f true (xheap 99) never xlab xrel (xveq 99) Nat.eqb xe (start 0 None) = ([3; 4; 1; 5; 2], mkSt 15 None [0] 3 3).
Proof. split; vm_compute; reflexivity. Qed.

Definition xred (n : nat) (b : list nat) : N * option N := (N.of_nat (length b), None).
Example C100_reduction_ex :
  reduced_brigade_f (xheap 3) never xred never [[0; 1]; [2; 3; 4]; [5]] (mkR (mkSt 0 None [] 3 0) [] []) =
    ([], mkR (mkSt 4 (Some 12%N) [5; 4; 3; 2; 1; 0] 3 3) [3%N; 2%N] [2%N; 3%N]) /\
  reduced_brigade_f (xheap 99) never xred never [[0; 1]; [2; 3; 4]; [5]] (mkR (mkSt 0 None [] 3 0) [] []) =
    ([(1%N, [5]); (3%N, [2; 3; 4]); (2%N, [0; 1])], mkR (mkSt 6 None [5; 4; 3; 2; 1; 0] 3 3) [1%N; 3%N; 2%N] []).
Proof. split; vm_compute; reflexivity. Qed.

Definition xkeep (m n : nat) (x : nat) : bool * option N := if Nat.eqb n m then (true, Some 4%N) else (Nat.even x, None).
Example C100_pruning_ex :
  filter_edges_f xdies (xkeep 2) true xe (start 0 None) = ([0], mkSt 3 (Some 4%N) [1; 2; 3; 4; 5] 0 0) /\
  filter_edges_f never (xkeep 99) true xe (start 0 None) = ([0; 2; 4], mkSt 6 None [1; 3; 5] 0 0).
Proof. split; vm_compute; reflexivity. Qed.

(** Odd numbers pass, and so do classes with at least two edges. *)
Definition xtest (n : nat) (x : nat) : N * option N := (N.of_nat (x mod 2), None).
Definition xclass (n : nat) (l : list nat) : N * option N := (N.of_nat (length l - 1), None).
Definition xless (m n : nat) (x y : nat) : bool * option N := (Nat.ltb x y, if Nat.eqb n m then Some 7%N else None).
Definition xhalf (n : nat) (x y : nat) : bool * option N := (Nat.eqb (x / 2) (y / 2), None).
Definition xfilter m := filtered_f true (xheap 99) never xtest xclass never (xless m).
Definition xorder : option ((nat -> N) * (nat -> nat -> nat -> bool * option N)) := Some (fun x => N.of_nat ((x / 2) mod 2), xhalf).
Example C100_filters_ex :
  xfilter 15 false true xorder [0; 1; 2; 3; 4] [10] (start 0 None) = ([], [2; 3; 0; 1; 4; 10], mkSt 16 (Some 7%N) [] 3 3) /\
  xfilter 99 false true xorder [0; 1; 2; 3; 4] [10] (start 0 None) = ([0; 1], [2; 3; 4; 10], mkSt 16 None [] 3 3) /\
  xfilter 99 true true None xe [10] (start 0 None) = ([1], [5; 3; 4; 2; 0; 10], mkSt 8 None [] 0 0).
Proof. repeat split; vm_compute; reflexivity. Qed.
Example C100_individual_filters_ex :
  xfilter 99 true false None xe [10] (start 0 None) = ([5; 3; 1], [4; 2; 0; 10], mkSt 6 None [] 0 0) /\
  (forall n x, fst (xtest n x) = 0%N <-> Nat.odd x = false).
Proof.
  split; [vm_compute; reflexivity|]. intros n x. unfold xtest. cbn [fst].
  assert (H : x mod 2 = if Nat.odd x then 1 else 0) by (rewrite <- Nat.bit0_mod, Nat.bit0_odd; destruct (Nat.odd x); reflexivity).
  rewrite H. destruct (Nat.odd x); split; (reflexivity || discriminate).
Qed.
Example C100_joint_filters_ex :
  xfilter 99 false false xorder [0; 1; 2; 3; 4] [10] (start 0 None) = ([0; 1; 2; 3], [4; 10], mkSt 15 None [] 3 3) /\
  equivalence (fun x y => Nat.eqb (x / 2) (y / 2)) /\
  (forall x y, Nat.eqb (x / 2) (y / 2) = true -> N.of_nat ((x / 2) mod 2) = N.of_nat ((y / 2) mod 2)) /\
  (forall n l, fst (xclass n l) = 0%N <-> Nat.leb 2 (length l) = false).
Proof.
  split; [vm_compute; reflexivity|]. split; [|split].
  - split; intros *.
    + apply Nat.eqb_refl.
    + intros H. now rewrite Nat.eqb_sym.
    + intros H1 H2. apply Nat.eqb_eq in H1, H2. apply Nat.eqb_eq. congruence.
  - intros x y H. apply Nat.eqb_eq in H. now rewrite H.
  - intros n l. unfold xclass. cbn [fst]. destruct l as [|x [|y l]]; simpl; split; (reflexivity || discriminate).
Qed.
Example C100_no_spurious_errors_ex :
  (forall n, (fun _ : nat => true) n = true) /\ (forall n x y, snd (xrel n x y) = None) /\ (forall n l, snd (xred n l) = None).
Proof. repeat split. Qed.
