(** Proofs about grouping and deduplication (Brigade.v). *)
From Coq Require Import List Arith NArith Lia Bool Permutation Sorted.
From Verif Require Import Base Brigade.
Import ListNotations.

Set Implicit Arguments.

(** Boolean equivalence relations, as required of the user's equality functions
    (include/cru/data_types.h, [cru_order_s]: "must be transitive, reflexive,
    and symmetric"). *)
Record equivalence {A} (r : A -> A -> bool) : Prop := {
  eqv_refl : forall x, r x x = true;
  eqv_sym : forall x y, r x y = true -> r y x = true;
  eqv_trans : forall x y z, r x y = true -> r y z = true -> r x z = true
}.

Lemma eqv_symb {A} (r : A -> A -> bool) : equivalence r -> forall x y, r x y = r y x.
Proof.
  intros H x y. destruct (r x y) eqn:E1, (r y x) eqn:E2; auto.
  - apply (eqv_sym H) in E1. congruence.
  - apply (eqv_sym H) in E2. congruence.
Qed.

Lemma eqv_l {A} (r : A -> A -> bool) : equivalence r -> forall x y z, r x y = true -> r x z = r y z.
Proof.
  intros H x y z E. destruct (r y z) eqn:E2.
  - eapply eqv_trans; eauto.
  - destruct (r x z) eqn:E3; auto.
    assert (r y z = true) by (eapply eqv_trans; eauto; eapply eqv_sym; eauto). congruence.
Qed.

Lemma eqv_r {A} (r : A -> A -> bool) : equivalence r -> forall x y z, r x y = true -> r z x = r z y.
Proof. intros H x y z E. rewrite (eqv_symb H z x), (eqv_symb H z y). now apply eqv_l. Qed.

Lemma equivalence_key {A} (key : A -> N) : equivalence (fun y x => N.eqb (key y) (key x)).
Proof.
  split; intros *; rewrite ?N.eqb_eq; congruence.
Qed.

(** [bs] is the list of classes of [e] under the relation [r]. *)
Record grouping {A} (r : A -> A -> bool) (e : list A) (bs : list (list A)) : Prop := {
  gr_perm : Permutation (concat bs) e;
  gr_nonempty : forall b, In b bs -> b <> [];
  gr_same : forall b x y, In b bs -> In x b -> In y b -> r x y = true;
  gr_diff : ForallOrdPairs (fun b b' => forall x y, In x b -> In y b' -> r x y = false) bs
}.

Lemma FOP_app {A} (R : A -> A -> Prop) l1 l2 :
  ForallOrdPairs R l1 -> ForallOrdPairs R l2 -> (forall x y, In x l1 -> In y l2 -> R x y) ->
  ForallOrdPairs R (l1 ++ l2).
Proof.
  intros H1 H2 H. induction H1; simpl; auto.
  constructor.
  - rewrite Forall_forall in *. intros x Hx. apply in_app_or in Hx as [Hx|Hx]; auto.
    apply H; simpl; auto.
  - apply IHForallOrdPairs. intros. apply H; simpl; auto.
Qed.

Lemma FOP_app_inv {A} (R : A -> A -> Prop) l1 l2 :
  ForallOrdPairs R (l1 ++ l2) ->
  ForallOrdPairs R l1 /\ ForallOrdPairs R l2 /\ (forall x y, In x l1 -> In y l2 -> R x y).
Proof.
  induction l1; simpl; intros H.
  - repeat split; auto. constructor. simpl. tauto.
  - inversion H; subst. apply IHl1 in H3 as (H4 & H5 & H6).
    rewrite Forall_forall in H2. repeat split; auto.
    + constructor; auto. apply Forall_forall. intros. apply H2, in_or_app; auto.
    + intros x y [->|Hx] Hy; auto. apply H2, in_or_app; auto.
Qed.

Lemma FOP_perm {A} (R : A -> A -> Prop) l l' :
  (forall x y, R x y -> R y x) -> Permutation l l' -> ForallOrdPairs R l -> ForallOrdPairs R l'.
Proof.
  intros Hs Hp. induction Hp; intros H; auto.
  - inversion H; subst. constructor; auto. eapply Permutation_Forall; eauto.
  - inversion H as [|? ? H1 H2]; subst. inversion H2 as [|? ? H3 H4]; subst.
    inversion H1; subst. constructor; [constructor; auto|]. constructor; auto.
Qed.

Lemma FOP_map {A B} (f : A -> B) (R : B -> B -> Prop) l :
  ForallOrdPairs R (map f l) <-> ForallOrdPairs (fun x y => R (f x) (f y)) l.
Proof.
  induction l; simpl; split; intros H; try constructor; inversion H; subst.
  - now rewrite Forall_map in H2.
  - now apply IHl.
  - now rewrite Forall_map.
  - now apply IHl.
Qed.

Lemma FOP_imp {A} (R R' : A -> A -> Prop) l :
  (forall x y, In x l -> In y l -> R x y -> R' x y) -> ForallOrdPairs R l -> ForallOrdPairs R' l.
Proof.
  intros H H0. induction H0; constructor.
  - rewrite Forall_forall in *. intros. apply H; simpl; auto.
  - apply IHForallOrdPairs. intros. apply H; simpl; auto.
Qed.

Section Group.
  Context {A : Type}.
  Variable r : A -> A -> bool.
  Hypothesis Hr : equivalence r.

  Lemma put_in x bs b z : In b (put r x bs) -> In z b -> z = x \/ exists b0, In b0 bs /\ In z b0.
  Proof.
    induction bs as [|[|y b0] bs IH]; simpl; intros Hb Hz.
    - destruct Hb as [<-|[]]. destruct Hz as [->|[]]. auto.
    - destruct Hb as [<-|Hb]; eauto. destruct Hz as [->|[]]; auto.
    - destruct (r y x).
      + destruct Hb as [<-|Hb]; eauto. destruct Hz as [->|Hz]; eauto.
      + destruct Hb as [<-|Hb]; [right; eauto|].
        destruct (IH Hb Hz) as [->|(b1 & H1 & H2)]; eauto.
  Qed.

  Lemma put_grouping x e bs : grouping r e bs -> grouping r (x :: e) (put r x bs).
  Proof.
    intros [P N S D]. revert e P.
    induction bs as [|[|y b] bs IH]; intros e P.
    - simpl in *. apply Permutation_nil in P. subst. split; simpl; auto.
      + intros b [<-|[]]. discriminate.
      + intros b x0 y [<-|[]] [<-|[]] [<-|[]]. apply (eqv_refl Hr).
      + repeat constructor.
    - exfalso. apply (N []); simpl; auto.
    - simpl in D. inversion D as [|? ? D1 D2]; subst. rewrite Forall_forall in D1.
      simpl. destruct (r y x) eqn:E.
      + split; simpl in *.
        * now constructor.
        * intros b0 [<-|H]; [discriminate|auto].
        * assert (Hy : forall z, In z (y :: b) -> r x z = true).
          { intros z Hz. eapply (eqv_trans Hr); [apply (eqv_sym Hr), E|]. apply (S (y :: b)); simpl; auto. }
          intros b0 u v [<-|H]; [|apply S; auto].
          intros [<-|Hu] [<-|Hv]; auto.
          -- apply (eqv_refl Hr).
          -- apply (eqv_sym Hr); auto.
          -- apply (S (y :: b)); simpl; auto.
        * constructor; auto. apply Forall_forall. intros b' Hb' u v [<-|Hu] Hv; [|apply (D1 b'); auto].
          assert (F : r y v = false) by (apply (D1 b'); simpl; auto).
          rewrite (eqv_symb Hr), (eqv_symb Hr v), <- F. symmetry. now apply (eqv_l Hr).
      + assert (IH' : forall e', Permutation (concat bs) e' -> grouping r (x :: e') (put r x bs)).
        { apply IH; auto.
          - intros. apply N; simpl; auto.
          - intros b0 u v H. apply S; simpl; auto. }
        destruct (IH' (concat bs) (Permutation_refl _)) as [P' N' S' D'].
        split; simpl.
        * rewrite P'. rewrite <- P. simpl. perm_solve.
        * intros b0 [<-|H]; [discriminate|auto].
        * intros b0 u v [<-|H]; [|apply S'; auto]. apply S; simpl; auto.
        * constructor; auto. apply Forall_forall. intros b' Hb' u v Hu Hv.
          destruct (put_in _ _ _ _ Hb' Hv) as [->|(b1 & H1 & H2)].
          -- destruct (r u x) eqn:E2; auto.
             assert (r y u = true) by (apply (S (y :: b)); simpl; auto).
             assert (r y x = true) by (eapply (eqv_trans Hr); eauto). congruence.
          -- apply (D1 b1); auto.
  Qed.

  Lemma grouping_perm e e' bs : Permutation e e' -> grouping r e bs -> grouping r e' bs.
  Proof. intros H [P N S D]. split; auto. now rewrite P. Qed.

  Lemma grouping_nil : grouping r [] [].
  Proof. split; simpl; auto; try tauto. constructor. Qed.

  Lemma bundled_from e0 e bs :
    grouping r e0 bs -> grouping r (e0 ++ e) (fold_left (fun bs x => put r x bs) e bs).
  Proof.
    revert e0 bs. induction e as [|x e IH]; intros e0 bs H; simpl.
    - now rewrite app_nil_r.
    - eapply grouping_perm; [|apply IH, put_grouping, H]. simpl. perm_solve.
  Qed.

  Lemma bundled_grouping e : grouping r e (bundled r e).
  Proof. apply (@bundled_from [] e []), grouping_nil. Qed.

  Lemma grouping_app e1 e2 b1 b2 :
    grouping r e1 b1 -> grouping r e2 b2 -> (forall x y, In x e1 -> In y e2 -> r x y = false) ->
    grouping r (e1 ++ e2) (b1 ++ b2).
  Proof.
    intros [P1 N1 S1 D1] [P2 N2 S2 D2] H. split.
    - rewrite concat_app. now apply Permutation_app.
    - intros b Hb. apply in_app_or in Hb as [Hb|Hb]; auto.
    - intros b x y Hb. apply in_app_or in Hb as [Hb|Hb]; eauto.
    - apply FOP_app; auto. intros b b' Hb Hb' x y Hx Hy. apply H.
      + eapply Permutation_in; [exact P1|]. apply in_concat. eauto.
      + eapply Permutation_in; [exact P2|]. apply in_concat. eauto.
  Qed.
End Group.

Section Judy.
  Context {A : Type}.
  Variable key : A -> N.

  (** The contents of the table: sorted keys, each bin holding the edges of that key. *)
  Definition jok (t : list (N * list A)) : Prop :=
    StronglySorted N.lt (map fst t) /\ forall k l, In (k, l) t -> l <> [] /\ forall x, In x l -> key x = k.

  Lemma jli_in k (x : A) t k' l' :
    In (k', l') (jli k x t) -> (k' = k /\ l' = [x]) \/ (k' = k /\ exists l, In (k, l) t /\ l' = x :: l) \/ In (k', l') t.
  Proof.
    induction t as [|[k0 l0] t IH]; simpl; [intuition congruence|].
    destruct (N.compare_spec k k0); simpl.
    - intros [H0|H0]; [inversion H0; subst; right; left; eauto|auto].
    - intros [H0|[H0|H0]]; auto. inversion H0; auto.
    - intros [H0|H0]; auto. destruct (IH H0) as [?|[(? & l & ? & ?)|?]]; eauto 8.
  Qed.

  Lemma jli_keys k (x : A) t : Forall (fun k0 => (k0 < k)%N -> True) (map fst t) ->
    forall k', In k' (map fst (jli k x t)) -> k' = k \/ In k' (map fst t).
  Proof.
    intros _. induction t as [|[k0 l0] t IH]; simpl; intros k'; [intuition auto|].
    destruct (N.compare_spec k k0); simpl; [tauto| |].
    - intros [?|[?|?]]; auto.
    - intros [?|?]; auto. destruct (IH _ H0); auto.
  Qed.

  Lemma jli_ok x t : jok t -> jok (jli (key x) x t).
  Proof.
    intros [S H]. split.
    - induction t as [|[k0 l0] t IH]; simpl; [repeat constructor|].
      simpl in S. inversion S as [|? ? S1 S2]; subst.
      destruct (N.compare_spec (key x) k0); simpl.
      + constructor; auto.
      + constructor; auto. constructor; auto. rewrite Forall_forall in *. intros k Hk.
        specialize (S2 _ Hk). lia.
      + constructor.
        * apply IH; auto. intros. apply H. simpl. auto.
        * apply Forall_forall. intros k Hk. rewrite Forall_forall in S2.
          apply jli_keys in Hk; [|apply Forall_forall; auto]. destruct Hk as [->|Hk]; auto.
    - intros k l Hl. apply jli_in in Hl as [(-> & ->)|[(-> & l0 & Hl & ->)|Hl]].
      + split; [discriminate|]. intros y [<-|[]]. auto.
      + split; [discriminate|]. intros y [<-|Hy]; auto. apply H in Hl as [_ Hl]. auto.
      + now apply H.
  Qed.

  Lemma jli_perm k (x : A) t : Permutation (concat (map snd (jli k x t))) (x :: concat (map snd t)).
  Proof.
    induction t as [|[k0 l0] t IH]; simpl; auto.
    destruct (N.compare k k0); simpl; auto. rewrite IH. perm_solve.
  Qed.

  Lemma jtable_from e t :
    jok t -> jok (fold_left (fun t x => jli (key x) x t) e t) /\
    Permutation (concat (map snd (fold_left (fun t x => jli (key x) x t) e t))) (e ++ concat (map snd t)).
  Proof.
    revert t. induction e as [|x e IH]; simpl; intros t H; [auto|].
    destruct (IH (jli (key x) x t)) as [H1 H2]; [now apply jli_ok|].
    split; auto. rewrite H2, jli_perm. perm_solve.
  Qed.

  Lemma jtable_ok e : jok (jtable key e) /\ Permutation (concat (map snd (jtable key e))) e.
  Proof.
    unfold jtable. destruct (@jtable_from e []) as [H1 H2].
    - split; simpl; [constructor|tauto].
    - simpl in H2. rewrite app_nil_r in H2. auto.
  Qed.

  Lemma jtable_keys t k l k' l' R :
    jok t -> t = (k, l) :: R -> In (k', l') R -> forall x y, In x l -> In y l' -> key x <> key y.
  Proof.
    intros [S H] -> Hi x y Hx Hy. simpl in S. inversion S as [|? ? S1 S2]; subst.
    rewrite Forall_forall in S2. specialize (S2 k' (in_map fst _ _ Hi)).
    destruct (H k l) as [_ H1]; simpl; auto. destruct (H k' l') as [_ H2]; simpl; auto.
    rewrite (H1 _ Hx), (H2 _ Hy). lia.
  Qed.
End Judy.

Theorem rallied_grouping {A} judy hash (r : A -> A -> bool) e :
  equivalence r -> (forall x y, r x y = true -> hash x = hash y) ->
  grouping r e (rallied judy hash r e).
Proof.
  intros Hr Hh. unfold rallied. destruct judy; [|now apply bundled_grouping].
  destruct (jtable_ok hash e) as [J P]. revert J P. generalize (jtable hash e) as t.
  assert (G : forall t e0 bs e1, jok hash t -> Permutation (concat (map snd t)) e1 -> grouping r e0 bs ->
            (forall x y, In x e0 -> In y e1 -> hash x <> hash y) ->
            grouping r (e1 ++ e0) (fold_left (fun b kl => bundled r (snd kl) ++ b) t bs)).
  { intros t. induction t as [|[k l] t IH]; simpl; intros e0 bs e1 J P G D.
    - apply Permutation_nil in P. subst. auto.
    - eapply grouping_perm with (e := concat (map snd t) ++ (l ++ e0)).
      + rewrite <- P. perm_solve.
      + assert (J' : jok hash t).
        { destruct J as [S H]. split; [now inversion S|]. intros. apply H; simpl; auto. }
        apply IH; auto.
        * apply grouping_app; auto using bundled_grouping.
          intros x y Hx Hy. destruct (r x y) eqn:E; auto. exfalso.
          apply (D y x); auto. { eapply Permutation_in; [exact P|]. apply in_or_app; auto. }
          symmetry; auto.
        * intros x y Hx Hy. apply in_app_or in Hx as [Hx|Hx].
          -- apply in_concat in Hy as (l' & Hl & Hy). apply in_map_iff in Hl as ([k' l''] & <- & Hl).
             exact (@jtable_keys _ hash ((k, l) :: t) k l k' l'' t J eq_refl Hl x y Hx Hy).
          -- apply D; auto. eapply Permutation_in; [exact P|]. apply in_or_app; auto. }
  intros t J P. specialize (G t [] [] e J P (grouping_nil r)). rewrite app_nil_r in G. apply G.
  simpl. tauto.
Qed.

Theorem marshalled_grouping {A} judy (key : A -> N) e :
  grouping (fun y x => N.eqb (key y) (key x)) e (marshalled judy key e).
Proof.
  unfold marshalled. destruct judy; [|apply bundled_grouping, equivalence_key].
  destruct (jtable_ok key e) as [J P]. revert J P. generalize (jtable key e) as t.
  assert (G : forall t e0 bs e1, jok key t -> Permutation (concat (map snd t)) e1 ->
            grouping (fun y x => N.eqb (key y) (key x)) e0 bs ->
            (forall x y, In x e0 -> In y e1 -> key x <> key y) ->
            grouping (fun y x => N.eqb (key y) (key x)) (e1 ++ e0) (fold_left (fun b kl => snd kl :: b) t bs)).
  { intros t. induction t as [|[k l] t IH]; simpl; intros e0 bs e1 J P G D.
    - apply Permutation_nil in P. subst. auto.
    - eapply grouping_perm with (e := concat (map snd t) ++ (l ++ e0)).
      + rewrite <- P. perm_solve.
      + assert (J' : jok key t).
        { destruct J as [S H]. split; [now inversion S|]. intros. apply H; simpl; auto. }
        destruct (proj2 J k l) as [N K]; [simpl; auto|].
        apply IH; auto.
        * change (l :: bs) with ([l] ++ bs). apply grouping_app; auto.
          -- split; simpl.
             ++ now rewrite app_nil_r.
             ++ intros b [<-|[]]. auto.
             ++ intros b x y [<-|[]] Hx Hy. apply N.eqb_eq. rewrite (K x), (K y); auto.
             ++ repeat constructor.
          -- intros x y Hx Hy. apply N.eqb_neq. intros E. apply (D y x); auto.
             eapply Permutation_in; [exact P|]. apply in_or_app; auto.
        * intros x y Hx Hy. apply in_app_or in Hx as [Hx|Hx].
          -- apply in_concat in Hy as (l' & Hl & Hy). apply in_map_iff in Hl as ([k' l''] & <- & Hl).
             exact (@jtable_keys _ key ((k, l) :: t) k l k' l'' t J eq_refl Hl x y Hx Hy).
          -- apply D; auto. eapply Permutation_in; [exact P|]. apply in_or_app; auto. }
  intros t J P. specialize (G t [] [] e J P (grouping_nil _)). rewrite app_nil_r in G. apply G.
  simpl. tauto.
Qed.

(** [k] is [e] with duplicates removed and [f] the duplicates, for the relation [r]. *)
Record dedup {A} (r : A -> A -> bool) (e k f : list A) : Prop := {
  dd_perm : Permutation e (k ++ f);
  dd_distinct : ForallOrdPairs (fun x y => r x y = false) k;
  dd_cover : forall x, In x e -> exists y, In y k /\ r x y = true
}.

(** Deduplicating every group with respect to [s] deduplicates with respect to [r && s]. *)
Lemma dedup_groups {A} (r s : A -> A -> bool) (Hr : equivalence r) (Hs : equivalence s)
      (step : list A * list A -> list A -> list A * list A) e bs :
  grouping r e bs ->
  (forall kf b, exists k f, dedup s b k f /\ Permutation (fst (step kf b)) (k ++ fst kf) /\
                            Permutation (snd (step kf b)) (f ++ snd kf)) ->
  dedup (fun x y => r x y && s x y) e (fst (fold_left step bs ([], []))) (snd (fold_left step bs ([], []))).
Proof.
  intros G Hst.
  assert (H : forall bs e0 e1 k0 f0 kf, grouping r e1 bs ->
    dedup (fun x y => r x y && s x y) e0 k0 f0 -> Permutation (fst kf) k0 -> Permutation (snd kf) f0 ->
    (forall x y, In x e0 -> In y e1 -> r x y = false) ->
    dedup (fun x y => r x y && s x y) (e0 ++ e1) (fst (fold_left step bs kf)) (snd (fold_left step bs kf))).
  { clear e bs G. intros bs. induction bs as [|b bs IH]; intros e0 e1 k0 f0 kf [P N S D] D0 Pk Pf C; simpl in *.
    - apply Permutation_nil in P. subst. rewrite app_nil_r. destruct D0 as [D1 D2 D3]. split.
      + now rewrite Pk, Pf.
      + eapply FOP_perm; [|symmetry; exact Pk|exact D2]. intros x y. now rewrite (eqv_symb Hr), (eqv_symb Hs).
      + intros x Hx. destruct (D3 x Hx) as (y & Hy & E). exists y. split; auto.
        eapply Permutation_in; [symmetry; exact Pk|auto].
    - inversion D as [|? ? Dh Dt]; subst. rewrite Forall_forall in Dh.
      destruct (Hst kf b) as (k & f & [E1 E2 E3] & Qk & Qf).
      destruct D0 as [D1 D2 D3].
      enough (H : dedup (fun x y : A => r x y && s x y) ((b ++ e0) ++ concat bs)
                   (fst (fold_left step bs (step kf b))) (snd (fold_left step bs (step kf b)))).
      { destruct H as [H1 H2 H3]. split; auto.
        * rewrite <- H1, <- P. perm_solve.
        * intros x Hx. apply H3. rewrite <- P in Hx. rewrite !in_app_iff in *. tauto. }
      apply (IH (b ++ e0) (concat bs) (k ++ k0) (f ++ f0) (step kf b)).
      + split; auto. intros. eapply S; eauto.
      + split.
        * rewrite E1, D1. perm_solve.
        * apply FOP_app.
          -- eapply FOP_imp; [|exact E2]. intros x y _ _ ->. apply andb_false_r.
          -- auto.
          -- intros x y Hx Hy. rewrite (eqv_symb Hr). rewrite (C y x); auto.
             ++ eapply Permutation_in; [symmetry; exact D1|]. apply in_or_app; auto.
             ++ eapply Permutation_in; [exact P|]. apply in_or_app. left.
                eapply Permutation_in; [symmetry; exact E1|]. apply in_or_app; auto.
        * intros x Hx. apply in_app_or in Hx as [Hx|Hx].
          -- destruct (E3 x Hx) as (y & Hy & E). exists y. split; [apply in_or_app; auto|].
             rewrite E, andb_true_r. apply (S b); auto.
             eapply Permutation_in; [symmetry; exact E1|]. apply in_or_app; auto.
          -- destruct (D3 x Hx) as (y & Hy & E). exists y. split; [apply in_or_app; auto|auto].
      + rewrite Qk. now apply Permutation_app_head.
      + rewrite Qf. now apply Permutation_app_head.
      + intros x y Hx Hy. apply in_app_or in Hx as [Hx|Hx].
        * apply in_concat in Hy as (b' & Hb & Hy). apply (Dh b'); auto.
        * apply C; auto. eapply Permutation_in; [exact P|]. apply in_or_app; auto. }
  apply (H bs [] e [] [] ([], [])); auto.
  - split; simpl; auto; [constructor|tauto].
  - simpl. tauto.
Qed.

Section Unique.
  Context {A : Type}.
  Variable s : A -> A -> bool.
  Hypothesis Hs : equivalence s.

  Lemma unique_bucket_from b kf :
    exists k f, dedup s b k f /\ Permutation (fst (unique_bucket s b kf)) (k ++ fst kf) /\
                Permutation (snd (unique_bucket s b kf)) (f ++ snd kf).
  Proof.
    revert kf. induction b as [|p b IH]; intros kf; simpl.
    - exists [], []. repeat split; auto; try tauto. constructor. simpl; tauto.
    - destruct (existsb (fun x => s p x) b) eqn:E.
      + apply existsb_exists in E as (x & Hx & E).
        destruct (IH (fst kf, p :: snd kf)) as (k & f & [D1 D2 D3] & P1 & P2). simpl in *.
        exists k, (p :: f). split; [split|split]; auto.
        * rewrite D1. perm_solve.
        * intros y [<-|Hy]; auto. destruct (D3 x Hx) as (z & Hz & F). exists z. split; auto.
          eapply eqv_trans; eauto.
        * rewrite P2. perm_solve.
      + destruct (IH (p :: fst kf, snd kf)) as (k & f & [D1 D2 D3] & P1 & P2). simpl in *.
        exists (p :: k), f. split; [split|split]; auto.
        * simpl. rewrite D1. auto.
        * constructor; auto. apply Forall_forall. intros y Hy.
          destruct (s p y) eqn:F; auto. exfalso.
          assert (existsb (fun x => s p x) b = true); [|congruence].
          apply existsb_exists. exists y. split; auto.
          eapply Permutation_in; [symmetry; exact D1|]. apply in_or_app; auto.
        * intros y [<-|Hy].
          -- exists p. split; simpl; auto. apply (eqv_refl Hs).
          -- destruct (D3 y Hy) as (z & Hz & F). exists z. simpl; auto.
        * rewrite P1. perm_solve.
  Qed.
End Unique.

(** [unique] removes exactly the duplicates with respect to label and remote vertex. *)
Theorem unique_dedup {A} judy ehash (r s : A -> A -> bool) e :
  equivalence r -> equivalence s -> (forall x y, r x y = true -> ehash x = ehash y) ->
  dedup (fun x y => r x y && s x y) e (fst (unique judy ehash r s e)) (snd (unique judy ehash r s e)).
Proof.
  intros Hr Hs Hh. unfold unique.
  apply (dedup_groups Hr Hs (fun rf b => unique_bucket s b rf) (rallied_grouping judy ehash e Hr Hh)).
  intros. now apply unique_bucket_from.
Qed.

Section Repeating.
  Context {A E : Type}.
  Variables (eeq : E -> E -> bool) (judy : bool) (ehash : E -> N) (lab : A -> E).
  Hypothesis He : equivalence eeq.
  Hypothesis Hh : forall x y, eeq x y = true -> ehash x = ehash y.

  Let s x y := eeq (lab x) (lab y).

  Definition tabok (t : list (N * E)) := forall h l, In (h, l) t -> h = ehash l.

  Lemma recorded_spec t l :
    tabok t -> (recorded eeq judy (ehash l) l t = true <-> exists l', In l' (map snd t) /\ eeq l l' = true).
  Proof.
    intros Ht. unfold recorded. rewrite existsb_exists. split.
    - intros ([h l'] & Hi & E1). apply andb_prop in E1 as [_ E1]. exists l'. split; auto.
      apply in_map_iff. exists (h, l'). auto.
    - intros (l' & Hi & E1). apply in_map_iff in Hi as ([h l''] & <- & Hi). exists (h, l''). split; auto.
      simpl in *. rewrite E1, andb_true_r. unfold same_bin. destruct judy; auto.
      rewrite (Ht _ _ Hi). apply N.eqb_eq. auto.
  Qed.

  Lemma record_ok t l : tabok t -> tabok (record_edge eeq judy (ehash l) l t).
  Proof.
    intros Ht. unfold record_edge. destruct (recorded _ _ _ _ _); auto.
    intros h l' Hi. apply in_app_or in Hi as [Hi|[Hi|[]]]; auto. now inversion Hi.
  Qed.

  Lemma repeating_dedup e : forall t r, tabok t ->
    let kf := repeating eeq judy ehash lab t e r in
    Permutation (e ++ r) (fst kf ++ snd kf) /\
    ForallOrdPairs (fun x y => s x y = false) (fst kf) /\
    (forall x, In x (fst kf) -> In x e /\ forall l, In l (map snd t) -> eeq (lab x) l = false) /\
    (forall x, In x e -> (exists l, In l (map snd t) /\ eeq (lab x) l = true) \/
                         exists y, In y (fst kf) /\ s x y = true).
  Proof.
    induction e as [|x e IH]; simpl; intros t r Ht.
    - repeat split; auto; try tauto. constructor.
    - destruct (recorded eeq judy (ehash (lab x)) (lab x) t) eqn:R.
      + apply recorded_spec in R as (l & Hl & R); auto.
        destruct (IH t (x :: r) Ht) as (P & D & N & C). repeat split; auto.
        * rewrite <- P. perm_solve.
        * apply N in H. tauto.
        * apply N in H. tauto.
        * intros y [<-|Hy]; eauto.
      + set (t' := record_edge eeq judy (ehash (lab x)) (lab x) t).
        assert (Ht' : tabok t') by now apply record_ok.
        assert (Em : map snd t' = map snd t ++ [lab x]).
        { unfold t', record_edge. rewrite R, map_app. reflexivity. }
        destruct (IH t' r Ht') as (P & D & N & C).
        destruct (repeating eeq judy ehash lab t' e r) as [k f]. simpl in *.
        assert (Nx : forall y, In y k -> eeq (lab y) (lab x) = false).
        { intros y Hy. apply N in Hy as [_ Hy]. apply Hy. rewrite Em. apply in_or_app. simpl. auto. }
        repeat split.
        * now rewrite P.
        * constructor; auto. apply Forall_forall. intros y Hy. unfold s.
          rewrite (eqv_symb He). auto.
        * destruct H as [<-|H]; auto. right. now apply N.
        * destruct H as [<-|H].
          -- intros l Hl. destruct (eeq (lab x) l) eqn:F; auto. exfalso.
             enough (recorded eeq judy (ehash (lab x)) (lab x) t = true) by congruence.
             apply recorded_spec; eauto.
          -- intros l Hl. apply N in H as [_ H]. apply H. rewrite Em. apply in_or_app. auto.
        * intros y [<-|Hy].
          -- right. exists x. split; auto. apply (eqv_refl He).
          -- destruct (C y Hy) as [(l & Hl & F)|(z & Hz & F)]; [|eauto].
             rewrite Em in Hl. apply in_app_or in Hl as [Hl|[<-|[]]]; [eauto|].
             right. exists x. split; auto.
  Qed.

  Lemma repeating_labels_dedup e :
    dedup s e (fst (repeating_labels eeq judy ehash lab e)) (snd (repeating_labels eeq judy ehash lab e)).
  Proof.
    unfold repeating_labels. destruct e as [|x [|y e]].
    - split; simpl; auto; [constructor|tauto].
    - split; simpl; auto; [repeat constructor|].
      intros z [<-|[]]. exists x. split; auto. apply (eqv_refl He).
    - generalize (x :: y :: e). clear x y e. intros e.
      destruct (@repeating_dedup e [] []) as (P & D & N & C); [intros ? ? []|].
      rewrite app_nil_r in P. split; auto.
      intros x Hx. destruct (C x Hx) as [(l & [] & _)|?]; auto.
  Qed.
End Repeating.

(** [_cru_deduplicated_edges] removes exactly the duplicates with respect to label and terminus. *)
Theorem deduplicated_edges_dedup {A E} (eeq : E -> E -> bool) judy ehash (lab : A -> E) terminus e :
  equivalence eeq -> (forall x y, eeq x y = true -> ehash x = ehash y) ->
  dedup (fun x y => N.eqb (terminus x) (terminus y) && eeq (lab x) (lab y)) e
        (fst (deduplicated_edges eeq judy ehash lab terminus e))
        (snd (deduplicated_edges eeq judy ehash lab terminus e)).
Proof.
  intros He Hh. unfold deduplicated_edges, deduplicated_brigade.
  apply (@dedup_groups A (fun y x => N.eqb (terminus y) (terminus x)) (fun x y => eeq (lab x) (lab y))).
  - apply equivalence_key.
  - split; intros *; [apply (eqv_refl He)|apply (eqv_sym He)|apply (eqv_trans He)].
  - apply marshalled_grouping.
  - intros kf b. pose proof (@repeating_labels_dedup A E eeq judy ehash lab He Hh b) as D.
    destruct (repeating_labels eeq judy ehash lab b) as [k f]. exists k, f. auto.
Qed.
