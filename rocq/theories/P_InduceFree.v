(** Properties of InduceFree.v: C110 *)
From Coq Require Import List Arith Bool Lia Permutation.
From Verif Require Import MakeFree P_MakeFree MapFree P_MapFree InduceFree.
Import ListNotations.

Set Implicit Arguments.

(** values in the hands of anyone *)
Definition stored (w : world) : list nat :=
  vals (map snd (acc w)) ++ match res w with Some v => opt v | None => [] end ++ match ph w with Concluded v _ => opt v | _ => [] end.

Section Proofs.
  Variable heap : nat -> bool.
  Variable user : nat -> bool * bool.
  Variable dies : nat -> bool.
  Variable succ : nat -> list nat.
  Variable lane : nat -> nat.
  Variable base : nat.

  (** nodes reachable from the base node *)
  Inductive linked : nat -> Prop :=
  | linked_base : linked base
  | linked_succ n k : linked n -> In k (succ n) -> linked k.

  Definition keys (w : world) : list nat := map fst (acc w).
  Definition rval (r : option (option nat)) : list nat := match r with Some v => opt v | None => [] end.
  Definition rcell (r : option (option nat)) : nat := match r with Some _ => 1 | None => 0 end.

  Definition early (w : world) : Prop :=
    good (common w) (vals (map snd (acc w)) ++ rval (res w)) (rcell (res w)) /\ NoDup (keys w) /\
    (forall n, In n (keys w) -> linked n) /\ (forall n, In n (sent w) -> linked n) /\
    (forall n, In n (keys w) -> In n (vis w) \/ off w (lane n) = true).
  Definition closed (w : world) : Prop :=
    (forall l, errs w l = false) /\ (In base (seen w) \/ In base (flight w)) /\
    (forall n, In n (seen w) -> ~ In n (keys w) /\ forall k, In k (succ n) -> In k (seen w) \/ In k (flight w)).
  Definition late (w : world) : Prop :=
    good (common w) (vals (map snd (acc w)) ++ rval (res w)) 0 /\ NoDup (keys w) /\
    (forall n, In n (keys w) -> linked n) /\ (bad w = false -> closed w).
  Definition inv (w : world) : Prop :=
    match ph w with
    | Inducing => early w
    | Deducing => late w
    | Concluded r f => good (common w) (opt r) 0 /\ acc w = [] /\ res w = None /\ (f = true -> r = None)
    end.

  Lemma good_all : forall vs s f n, good s (vals vs ++ f) n -> good (destroy_all dies vs s) f n.
  Proof.
    induction vs as [|v vs IH]; intros s f n G; simpl; auto. apply IH. apply good_destroy. unfold vals in *. simpl in G. rewrite <- app_assoc in G. exact G.
  Qed.
  Lemma clear_same : forall n a, ~ In n (map fst a) -> clear n a = a.
  Proof.
    induction a as [|[k v] a IH]; intros N; simpl in *; auto. destruct (k =? n) eqn:E; simpl.
    - apply Nat.eqb_eq in E. subst k. contradict N. auto.
    - f_equal. apply IH. intros K. apply N. auto.
  Qed.
  Lemma clear_keys : forall n a k, In k (map fst (clear n a)) <-> In k (map fst a) /\ k <> n.
  Proof.
    intros n a k. unfold clear. rewrite !in_map_iff. split.
    - intros (p & <- & K). apply filter_In in K as [K E]. apply negb_true_iff in E. apply Nat.eqb_neq in E. split; eauto.
    - intros ((p & <- & K) & E). exists p. split; auto. apply filter_In. split; auto. apply negb_true_iff. apply Nat.eqb_neq. exact E.
  Qed.
  Lemma clear_nodup : forall n a, NoDup (map fst a) -> NoDup (map fst (clear n a)).
  Proof.
    induction a as [|[k v] a IH]; intros N; simpl; auto. inversion N. subst. destruct (k =? n); simpl; auto. constructor; auto.
    intros K. apply clear_keys in K as [K _]. contradiction.
  Qed.
  Lemma clear_occ : forall n a v, NoDup (map fst a) -> occ (vals (map snd a)) v = occ (opt (accumulator n a)) v + occ (vals (map snd (clear n a))) v.
  Proof.
    unfold accumulator. induction a as [|[k x] a IH]; intros v N; simpl; auto. inversion N. subst. unfold vals in *. simpl.
    destruct (k =? n) eqn:E; simpl; rewrite ?count_occ_app.
    - apply Nat.eqb_eq in E. subst k. rewrite clear_same by assumption. reflexivity.
    - rewrite (IH v) by assumption. lia.
  Qed.

  Lemma early_disabled : forall l s w, early w -> good s (vals (map snd (acc w)) ++ rval (res w)) (rcell (res w)) -> early (disabled l s w).
  Proof.
    intros l s w (_ & A & B & C & D) G. split; [exact G|]. split; [exact A|]. split; [exact B|]. split; [exact C|].
    intros n K. simpl. unfold upd. destruct (lane n =? l); auto.
  Qed.

  Lemma early_visit : forall n s w, early w -> good s (vals (map snd (acc w)) ++ rval (res w)) (rcell (res w)) ->
    linked n -> ~ In n (vis w) -> off w (lane n) = false -> early (visit heap user dies lane base n s w).
  Proof.
    intros n s w E G L V O. unfold visit. destruct (if lane n =? lane base then res w else None) eqn:R.
    { apply early_disabled; auto. }
    destruct (applied user s) as [a s1] eqn:A. apply good_applied with (f := vals (map snd (acc w)) ++ rval (res w)) (n := rcell (res w)) in A; auto.
    destruct (err s1). { apply early_disabled; auto. apply good_destroy. exact A. }
    destruct (n =? base) eqn:EB.
    - apply Nat.eqb_eq in EB. rewrite EB, Nat.eqb_refl in R. rewrite R in A. destruct (new_maybe heap (Present a) s1) as [m s2] eqn:M.
      apply good_new with (a := opt a) (f := vals (map snd (acc w)) ++ []) (n := 0) in M; auto.
      destruct m as [m|].
      + destruct M as [_ M]. destruct E as (_ & B1 & B2 & B3 & B4). split; [|auto]. simpl. eapply good_perm; [exact M| |reflexivity].
        intros k. rewrite !count_occ_app. simpl. lia.
      + apply early_disabled; auto. rewrite R. apply good_destroy. exact M.
    - assert (N : ~ In n (keys w)).
      { intros K. destruct E as (_ & _ & _ & _ & D). destruct (D n K) as [H|H]; [auto|congruence]. }
      destruct E as (_ & B1 & B2 & B3 & B4).
      assert (G2 : forall s2, good s2 (opt a ++ vals (map snd (acc w)) ++ rval (res w)) (rcell (res w)) ->
        good s2 (vals (map snd ((n, a) :: clear n (acc w))) ++ rval (res w)) (rcell (res w))).
      { intros s2 Gs. rewrite clear_same by exact N. simpl. unfold vals in *. simpl. rewrite <- app_assoc. exact Gs. }
      assert (NN : NoDup (n :: map fst (clear n (acc w)))).
      { rewrite clear_same by exact N. constructor; auto. }
      assert (LL : forall k, In k (n :: map fst (clear n (acc w))) -> linked k).
      { intros k [<-|K]; auto. apply clear_keys in K as [K _]. apply B2. exact K. }
      destruct (alloc heap s1) as [b s2] eqn:AL. apply good_alloc with (f := opt a ++ vals (map snd (acc w)) ++ rval (res w)) (n := rcell (res w)) in AL; auto.
      destruct b.
      + split; [apply G2; exact AL|]. split; [exact NN|]. split; [exact LL|]. split; [exact B3|].
        intros k [<-|K]; [left; left; reflexivity|]. simpl in *. apply clear_keys in K as [K _]. destruct (B4 k K); auto.
      + split; [apply G2; exact AL|]. split; [exact NN|]. split; [exact LL|]. split; [exact B3|].
        intros k K. simpl in *. unfold upd. destruct (lane k =? lane n) eqn:EL; auto.
        destruct K as [<-|K]; [rewrite Nat.eqb_refl in EL; discriminate|]. apply clear_keys in K as [K _]. apply B4. exact K.
  Qed.

  Lemma early_receive : forall n k m v u w, early w -> linked n -> early (receive heap user dies succ lane base n k m v u w).
  Proof.
    intros n k m v u w E L. unfold receive. destruct (off w (lane n)) eqn:O; auto. destruct (errs w (lane n) || k).
    { apply early_disabled; auto. apply E. }
    destruct (in_dec Nat.eq_dec n (vis w)) as [|V]; auto.
    set (P := fun (b : bool) (w' : world) => early w' /\ (b = true -> vis w' = vis w /\ off w' = off w)).
    assert (Q : forall x : bool * world, P (fst x) (snd x) ->
      early (let (ok, w) := x in if negb ok then w else if v then visit heap user dies lane base n (with_err (errs w (lane n)) (common w)) w
             else if u then disabled (lane n) (with_err (errs w (lane n)) (common w)) w else w)).
    { intros [ok w'] [E1 X]. simpl in *. destruct ok; simpl; auto. destruct (X eq_refl) as [X1 X2]. destruct v.
      - apply early_visit; auto; [apply E1|rewrite X1; exact V|rewrite X2; exact O].
      - destruct u; auto. apply early_disabled; auto. apply E1. }
    apply Q. clear Q. unfold P. destruct (in_dec Nat.eq_dec n (seen w)); [simpl; auto|].
    destruct (alloc heap (with_err (errs w (lane n)) (common w))) as [b s1] eqn:A.
    apply good_alloc with (f := vals (map snd (acc w)) ++ rval (res w)) (n := rcell (res w)) in A; [|apply E].
    destruct b; [|simpl; split; [apply early_disabled; auto|discriminate]].
    assert (E2 : early (mkWorld s1 (firstn m (succ n) ++ sent w) (errs w) (off w) (n :: seen w) (vis w) (acc w) (res w) (ph w) (flight w) (bad w))).
    { destruct E as (_ & B1 & B2 & B3 & B4). split; [exact A|]. split; [exact B1|]. split; [exact B2|]. split; [|exact B4].
      intros j K. simpl in K. apply in_app_or in K as [K|K]; auto. apply linked_succ with n; auto. rewrite <- (firstn_skipn m). apply in_or_app. auto. }
    destruct (length (succ n) <=? m); simpl; split; auto; [|discriminate]. apply early_disabled; auto.
  Qed.

  Lemma ph_visit : forall n s w, ph (visit heap user dies lane base n s w) = ph w.
  Proof.
    intros n s w. unfold visit. destruct (if lane n =? lane base then res w else None); auto. destruct (applied user s) as [a s1]. destruct (err s1); auto.
    destruct (n =? base); [destruct (new_maybe heap (Present a) s1) as [[m|] s2]; auto|]. destruct (alloc heap s1) as [[|] s2]; auto.
  Qed.
  Lemma ph_receive : forall n k m v u w, ph (receive heap user dies succ lane base n k m v u w) = ph w.
  Proof.
    intros n k m v u w. unfold receive. destruct (off w (lane n)); auto. destruct (errs w (lane n) || k); auto.
    destruct (in_dec Nat.eq_dec n (vis w)); auto.
    match goal with |- ph (let (ok, w0) := ?x in _) = _ => assert (Q : ph (snd x) = ph w); [|destruct x as [[|] w']; simpl in Q] end.
    - destruct (in_dec Nat.eq_dec n (seen w)); auto. destruct (alloc heap (with_err (errs w (lane n)) (common w))) as [[|] s1]; auto.
      destruct (length (succ n) <=? m); auto.
    - simpl. destruct v; [rewrite ph_visit; auto|]. destruct u; auto.
    - exact Q.
  Qed.

  Lemma mid_in : forall (l1 l2 : list nat) n k, In k (l1 ++ n :: l2) -> k = n \/ In k (l1 ++ l2).
  Proof. intros l1 l2 n k K. apply in_app_or in K as [K|[K|K]]; auto using in_or_app. Qed.

  Lemma late_deduce : forall n m l1 l2 w, late w -> flight w = l1 ++ n :: l2 -> late (deduce heap dies succ lane n m (l1 ++ l2) w).
  Proof.
    intros n m l1 l2 w (G & N & L & C) F. unfold deduce.
    set (s0 := with_err (errs w (lane n)) (common w)).
    assert (G0 : good s0 (vals (map snd (acc w)) ++ rval (res w)) 0) by exact G.
    set (x := if in_dec Nat.eq_dec n (seen w) then (seen w, [], s0) else
      match alloc heap s0 with
      | (false, s) => (seen w, [], s)
      | (true, s) =>
          if err s then (n :: seen w, [], s) else
          (n :: seen w, firstn m (succ n), if length (succ n) <=? m then s else fail s)
      end).
    assert (X : let '(d, p, s) := x in good s (vals (map snd (acc w)) ++ rval (res w)) 0 /\
      (err s = false -> In n d /\ (forall k, In k d -> k = n \/ In k (seen w)) /\ (forall k, In k (seen w) -> In k d) /\
         (In n (seen w) \/ forall k, In k (succ n) -> In k p))).
    { unfold x. destruct (in_dec Nat.eq_dec n (seen w)) as [I|I]; [simpl; auto 8|].
      destruct (alloc heap s0) as [b s1] eqn:A. pose proof A as A'. apply good_alloc with (f := vals (map snd (acc w)) ++ rval (res w)) (n := 0) in A; auto.
      destruct b.
      - destruct (err s1) eqn:E1; [split; auto; congruence|]. destruct (length (succ n) <=? m) eqn:E2.
        + split; auto. intros _. apply Nat.leb_le in E2. rewrite firstn_all2 by exact E2. simpl. repeat split; auto. intros k [K|K]; auto.
        + split; [exact A|]. simpl. discriminate.
      - split; auto. intros K. unfold alloc in A'. destruct (heap (clock s0)); [discriminate|]. injection A' as <-. discriminate K. }
    destruct x as [[d p] s1]. destruct X as [G1 X].
    assert (G2 : good (destroy dies (accumulator n (acc w)) s1) (vals (map snd (clear n (acc w))) ++ rval (res w)) 0).
    { apply good_destroy. eapply good_perm; [exact G1| |reflexivity]. intros k. rewrite !count_occ_app. rewrite (clear_occ n (acc w) k N). lia. }
    split; [exact G2|]. split; [apply clear_nodup; exact N|]. split; [intros k K; apply clear_keys in K as [K _]; auto|].
    simpl. intros B. apply orb_false_iff in B as [B1 B2]. destruct (C B1) as (C1 & C2 & C3).
    assert (E1 : err s1 = false).
    { destruct (err s1) eqn:E; auto. destruct (destroy_same dies (accumulator n (acc w)) s1) as (_ & K & _). rewrite (K E) in B2. discriminate. }
    destruct (X E1) as (X1 & X2 & X3 & X4). split; [|split].
    - intros l. simpl. unfold upd. destruct (l =? lane n); auto.
    - simpl. rewrite F in C2. destruct C2 as [C2|C2]; [left; auto|]. apply mid_in in C2 as [->|C2]; auto. right. apply in_or_app. auto.
    - simpl. unfold keys. simpl. intros k K.
      assert (T : forall j, In j (seen w) \/ In j (flight w) -> In j d \/ In j (p ++ l1 ++ l2)).
      { intros j [J|J]; [left; auto|]. rewrite F in J. apply mid_in in J as [->|J]; [left; auto|]. right. apply in_or_app. auto. }
      split.
      + intros J. apply clear_keys in J as [J1 J2]. destruct (X2 k K) as [->|Z]; [congruence|]. destruct (C3 k Z) as [Z1 _]. contradiction.
      + destruct (X2 k K) as [->|Z].
        * destruct X4 as [X4|X4]; [|intros j J; right; apply in_or_app; auto]. intros j J. destruct (C3 n X4) as [_ Z2]. auto.
        * intros j J. destruct (C3 k Z) as [_ Z2]. auto.
  Qed.

  Lemma linked_seen : forall w, closed w -> flight w = [] -> forall n, linked n -> In n (seen w).
  Proof.
    intros w (_ & B & C) F n L. rewrite F in *. induction L as [|n k L IH K]; [destruct B as [B|[]]; exact B|].
    destruct (C n IH) as [_ Z]. destruct (Z k K) as [J|[]]. exact J.
  Qed.

  Lemma step_inv : forall w w', inv w -> step heap user dies succ lane base w w' -> inv w'.
  Proof.
    intros w w' I T. unfold inv in I. destruct T; rewrite H in I; unfold inv.
    - rewrite ph_receive, H. apply early_receive; auto. apply I. exact H0.
    - simpl. rewrite H. apply early_disabled; auto. apply I.
    - simpl. destruct I as (G & N & L & _ & _). split; [|split; [exact N|split; [exact L|]]].
      + simpl. destruct (res w) as [v|]; [|exact G]. apply good_free. exact G.
      + simpl. intros B. apply orb_false_iff in B as [_ ->]. split; [reflexivity|]. split; [right; left; reflexivity|]. intros n [].
    - assert (ph (deduce heap dies succ lane n m (l1 ++ l2) w) = ph w) as ->.
      { unfold deduce. destruct (in_dec Nat.eq_dec n (seen w)); [reflexivity|].
        destruct (alloc heap (with_err (errs w (lane n)) (common w))) as [[|] s]; [destruct (err s)|]; reflexivity. }
      rewrite H. apply late_deduce; auto.
    - simpl. rewrite H. destruct I as (G & N & L & _). split; [exact G|]. split; [exact N|]. split; [exact L|]. simpl. discriminate.
    - simpl. destruct I as (G & N & L & C).
      assert (A : good s (rval (res w)) 0 /\ (if e then [] else acc w) = []).
      { unfold s. destruct e eqn:E.
        - split; auto. apply good_all. exact G.
        - apply orb_false_iff in E as [E _]. assert (Z : acc w = []).
          { pose proof (linked_seen (C E) H0) as S. destruct (acc w) as [|[k a] r] eqn:K; auto. exfalso.
            assert (J : In k (keys w)) by (unfold keys; rewrite K; left; reflexivity). destruct (C E) as (_ & _ & C3).
            destruct (C3 k (S k (L k J))) as [Z _]. contradiction. }
          split; auto. rewrite Z in G. exact G. }
      destruct A as [A1 A2]. split; [|split; [exact A2|split; [reflexivity|]]].
      + destruct (e || late0); [|unfold v; destruct (res w); exact A1]. apply good_destroy. unfold v. rewrite app_nil_r. destruct (res w); exact A1.
      + intros ->. reflexivity.
  Qed.
  Lemma reaches_inv : forall w, reaches heap user dies succ lane base w -> inv w.
  Proof.
    intros w R. induction R; [|eapply step_inv; eauto]. simpl. split; [split; [intros k; reflexivity|split; [split; [constructor|intros v []]|reflexivity]]|].
    split; [constructor|]. split; [intros n []|]. split; [intros n [<-|[]]; constructor|]. intros n [].
  Qed.
End Proofs.

(** At any time, every value is either destroyed, exactly once, or held by exactly one node, by the worker for the base node or by the
    launching thread. *)
Theorem C110_accounted : forall heap user dies succ lane base w, reaches heap user dies succ lane base w ->
  NoDup (made (common w)) /\ Permutation (made (common w)) (dead (common w) ++ stored w).
Proof.
  intros heap user dies succ lane base w R. apply reaches_inv in R. unfold inv in R. unfold stored.
  assert (G : exists f n, good (common w) f n /\ forall k, occ f k = occ (stored w) k).
  { unfold stored. destruct (ph w) as [| |r b].
    - destruct R as (G & _). eexists _, _. split; [exact G|]. intros k. rewrite app_nil_r. reflexivity.
    - destruct R as (G & _). eexists _, _. split; [exact G|]. intros k. rewrite app_nil_r. reflexivity.
    - destruct R as (G & A & B & _). eexists _, _. split; [exact G|]. intros k. rewrite A, B. reflexivity. }
  destruct G as (f & n & (A & [B _] & _) & E). split; auto. apply occ_perm. intros k. rewrite (A k), count_occ_app, (E k). reflexivity.
Qed.

(** In the end there are no values left in the nodes, nothing but the result remains, and not even that after an error. *)
Theorem C110_concluded : forall heap user dies succ lane base w r f, reaches heap user dies succ lane base w -> ph w = Concluded r f ->
  acc w = [] /\ NoDup (dead (common w)) /\ pmade (common w) = pfreed (common w) /\ (f = true -> r = None) /\
  Permutation (made (common w)) (dead (common w) ++ match r with Some v => [v] | None => [] end).
Proof.
  intros heap user dies succ lane base w r f R P. pose proof (C110_accounted R) as [N Q]. apply reaches_inv in R. unfold inv in R. rewrite P in R.
  destruct R as ((_ & _ & O) & A & B & F). unfold stored in Q. rewrite A, B, P in Q. simpl in Q. split; auto. split; [|split; [|split; auto]].
  - eapply Permutation_NoDup in N; [|exact Q]. clear -N. induction (dead (common w)) as [|a l IH]; [constructor|]. simpl in N. inversion N. constructor; auto.
    intros K. apply H1. apply in_or_app. left. exact K.
  - unfold owing in O. lia.
Qed.

(** Examples *)
Inductive act := Receive (n : nat) (killed : bool) (m : nat) (v u : bool) | Trouble (l : nat) | Deduce (e failed : bool) | Packet (i m : nat)
               | Other (l : nat) | Conclude (other late : bool).

Section Playing.
  Variable heap : nat -> bool.
  Variable user : nat -> bool * bool.
  Variable dies : nat -> bool.
  Variable succ : nat -> list nat.
  Variable lane : nat -> nat.
  Variable base : nat.

  Definition play (a : act) (w : world) : option world :=
    match ph w, a with
    | Inducing, Receive n killed m v u =>
        if in_dec Nat.eq_dec n (sent w) then Some (receive heap user dies succ lane base n killed m v u w) else None
    | Inducing, Trouble l => Some (disabled l (fail (common w)) w)
    | Inducing, Deduce e failed =>
        Some (mkWorld (match res w with Some v => free_maybe dies (Some (Present None false)) (common w) | None => common w end)
                      (sent w) (fun _ => false) (off w) [] (vis w) (acc w) (res w) Deducing
                      (if failed then [] else [base]) (e || failed))
    | Deducing, Packet i m =>
        match pick i (flight w) with Some (l1, n, l2) => Some (deduce heap dies succ lane n m (l1 ++ l2) w) | None => None end
    | Deducing, Other l =>
        Some (mkWorld (common w) (sent w) (upd (errs w) l true) (off w) (seen w) (vis w) (acc w) (res w) (ph w) (flight w) true)
    | Deducing, Conclude other late =>
        if is_nil (flight w)
        then let e := bad w || other in
             let s := if e then destroy_all dies (map snd (acc w)) (common w) else common w in
             let v := match res w with Some v => v | None => None end in
             Some (mkWorld (if e || late then destroy dies v s else s) (sent w) (errs w) (off w) (seen w) (vis w) (if e then [] else acc w)
                           None (Concluded (if e || late then None else v) (e || late)) [] (e || late))
        else None
    | _, _ => None
    end.
  Lemma play_step : forall a w w', play a w = Some w' -> step heap user dies succ lane base w w'.
  Proof.
    intros a w w' E. unfold play in E. destruct (ph w) eqn:P; [| |discriminate E]; destruct a; try discriminate E.
    - destruct (in_dec Nat.eq_dec n (sent w)); [|discriminate E]. injection E as <-. apply receive_step; auto.
    - injection E as <-. apply trouble_step. exact P.
    - injection E as <-. apply deduce_step. exact P.
    - destruct (pick i (flight w)) as [[[l1 n] l2]|] eqn:K; [|discriminate E]. apply pick_eq in K. injection E as <-. apply packet_step; auto.
    - injection E as <-. rewrite <- P at 1. apply other_step. exact P.
    - destruct (is_nil (flight w)) eqn:K; [|discriminate E]. apply is_nil_eq in K. injection E as <-. apply conclude_step; auto.
  Qed.
  Fixpoint plays (l : list act) (w : world) : option world :=
    match l with [] => Some w | a :: l => match play a w with Some w => plays l w | None => None end end.
  Lemma plays_reach : forall l w w', reaches heap user dies succ lane base w -> plays l w = Some w' -> reaches heap user dies succ lane base w'.
  Proof.
    induction l as [|a l IH]; intros w w' R E; simpl in E; [injection E as <-; exact R|]. destruct (play a w) as [w1|] eqn:P; [|discriminate].
    apply play_step in P. eapply IH; [|exact E]. eapply reaches_step; eauto.
  Qed.
End Playing.

(** a graph of four nodes and two workers *)
Definition diamond (n : nat) : list nat := match n with 0 => [1; 2] | 1 => [3] | 2 => [3] | _ => [] end.
Definition run (full bad : nat) (l : list act) : option world :=
  plays (fun n => negb (n =? full)) (user bad) (fun _ => false) diamond (fun n => n mod 2) 0 l (begin 0).
Definition attained (full bad : nat) (w : world) : Prop :=
  reaches (fun n => negb (n =? full)) (user bad) (fun _ => false) diamond (fun n => n mod 2) 0 w.
Definition summary (w : world) := (length (made (common w)), dead (common w), acc w, res w, ph w, pmade (common w)).
Definition see (full bad : nat) (l : list act) := match run full bad l with Some w => Some (summary w) | None => None end.
Lemma run_attained : forall full bad l w, run full bad l = Some w -> attained full bad w.
Proof. intros full bad l w E. eapply plays_reach; [apply reaches_begin|exact E]. Qed.
Definition up : list act :=
  [Receive 0 false 2 false false; Receive 1 false 1 false false; Receive 2 false 1 false false; Receive 3 false 0 true false;
   Receive 2 false 0 true false; Receive 1 false 0 true false].
Definition down : list act := [Deduce false false; Packet 0 2; Packet 1 1; Packet 0 1; Packet 0 1; Packet 0 0; Conclude false false].
Ltac show acts := match goal with |- context [attained ?a ?b] =>
  let x := eval vm_compute in (run a b acts) in
  match x with Some ?w => exists w; split; [apply run_attained with (l := acts); vm_compute; reflexivity|vm_compute; reflexivity] end end.

(** all nodes but the base node have been visited *)
Example C110_accounted_ex : exists w, attained 100 100 w /\
  summary w = (3, [], [(1, Some 2); (2, Some 1); (3, Some 0)], None, Inducing, 0).
Proof. show up. Qed.
(** the user function returns a value and raises an error *)
Example C110_accounted_ex_user : exists w, attained 100 8 w /\ summary w = (3, [2], [(2, Some 1); (3, Some 0)], None, Inducing, 0).
Proof. show up. Qed.
(** memory is exhausted when a node is about to be marked as visited, so it isn't visited again *)
Example C110_accounted_ex_full : exists w, attained 7 100 w /\
  (summary w, vis w) = ((3, [], [(1, Some 2); (2, Some 1); (3, Some 0)], None, Inducing, 0), [1; 3]).
Proof. show (up ++ [Receive 2 false 0 true false; Receive 0 false 0 true false]). Qed.
(** all goes well *)
Example C110_concluded_ex : exists w, attained 100 100 w /\
  summary w = (4, [2; 0; 1], [], None, Concluded (Some 3) false, 1).
Proof. show (up ++ [Receive 0 false 0 true false] ++ down). Qed.
(** memory is exhausted in the deduction, so the values are destroyed by the launching thread *)
Example C110_concluded_ex_full : exists w, attained 12 100 w /\
  summary w = (4, [3; 0; 1; 2], [], None, Concluded None true, 1).
Proof. show (up ++ [Receive 0 false 0 true false; Deduce false false; Packet 0 2; Conclude false false]). Qed.
(** it is killed before the base node is visited *)
Example C110_concluded_ex_killed : exists w, attained 100 100 w /\
  summary w = (3, [2; 0; 1], [], None, Concluded None true, 0).
Proof. show (up ++ [Receive 0 true 0 true false; Deduce false false; Packet 0 2; Packet 1 1; Packet 0 1; Packet 0 1; Packet 0 0; Conclude false true]). Qed.
