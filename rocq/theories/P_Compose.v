(** Composition: claims C27, C28, C50, C67 and C68, and kill requests. *)
From Coq Require Import List Arith NArith Lia Bool Permutation.
From Verif Require Import Base Machine Ports PortsProofs PortsTerm PortsExec P_Ports BrigadeProofs Env Hash Graph Visitor VisitorProofs Walk Run Pass Fold P_Fold
  Traverse TraverseProofs P_Traverse Fabricate Containers P_Containers Brigade P_Brigade Partition P_Partition Filter P_Filter P_Killed MergeProofs P_Merge Compose.
Import ListNotations.

Set Implicit Arguments.

Local Opaque lane_of node_hash.

(** ** The specification *)
Section Spec.
  Variable c : composer.
  Variable eeq : word -> word -> bool.

  (** [p] has the value [w] for a vertex with the value [v] and the given edges. *)
  Definition has_value (p : prop) (v : word) (ins outs : list redge) (w : word) : Prop :=
    exists s s1 s2, mapped_node p v ins outs fresh = (w, (s, s1, s2)) /\ err s = None.

  Section Edges.
    Variable E : nat -> list edge.

    (** The edges as they are seen by a fold. *)
    Definition outward (v : nat -> word) (n : nat) : list redge := map (fun e => (fst e, v (snd e))) (E n).

    (** [L] and [A] are the local and adjacent properties of the vertices [v] of [N], if they have no
        incoming edges. *)
    Definition local_values (N : list nat) (v L : nat -> word) : Prop :=
      forall n, In n N -> has_value (local_prop c) (v n) [] (outward v n) (L n).
    Definition adjacent_values (N : list nat) (v A : nat -> word) : Prop :=
      forall n, In n N -> has_value (adjacent_prop c) (v n) [] (outward v n) (A n).

    Variables L A : nat -> word.

    (** The edge with label [l] from [n] is followed by one with label [l'] that leads to [k], where the
        predicate is given the adjacent property of [a]. *)
    Definition qualified (n : nat) (l : word) (a : nat) (l' : word) : Prop :=
      fst (qpred c (L n) l (A a) l') = true.

    (** There should be an edge from [n] to [k] with the label [t] *)
    Definition bypass (n : nat) (t : word) (k : nat) : Prop :=
      exists l m l', In (l, m) (E n) /\ In (l', k) (E m) /\ qualified n l k l' /\ t = fst (qop c (L n) l (A k) l').
    (** and this is the first of a qualifying pair. *)
    Definition launching (n : nat) (e : edge) : Prop :=
      In e (E n) /\ exists l' k, In (l', k) (E (snd e)) /\ qualified n (fst e) k l'.

    (** No user function reports an error. *)
    Definition smooth (n : nat) : Prop :=
      forall l m l' k, In (l, m) (E n) -> In (l', k) (E m) ->
        snd (qpred c (L n) l (A k) l') = None /\
        (qualified n l k l' -> snd (qop c (L n) l (A k) l') = None).

    (** The composition at one vertex reports this error. *)
    Definition reported (n : nat) (x : error) : Prop :=
      exists l m l' k, In (l, m) (E n) /\ In (l', k) (E m) /\
        (snd (qpred c (L n) l (A k) l') = Some x \/
         qualified n l k l' /\ snd (qop c (L n) l (A k) l') = Some x).
  End Edges.

  (** Edges that are not worth having both. *)
  Definition similar (e e' : edge) : Prop := snd e = snd e' /\ eeq (fst e) (fst e') = true.
  Definition unrepeated (l : list edge) : Prop := ForallOrdPairs (fun e e' => ~ similar e e') l.

  (** The edges [E' n] are the edges [E n] with the bypasses, and nothing else. *)
  Record extended (E E' : nat -> list edge) (L A : nat -> word) (n : nat) : Prop := {
    x_old : forall e, In e (E n) -> exists e', In e' (E' n) /\ similar e e';
    x_new : forall t k, bypass E L A n t k -> exists e', In e' (E' n) /\ similar (t, k) e';
    x_only : forall e, In e (E' n) -> In e (E n) \/ bypass E L A n (fst e) (snd e);
    x_unique : unrepeated (E' n)
  }.

  (** One pass over the graph [g] without deletion *)
  Definition pass (g h : graph word word) : Prop :=
    wf h /\ root h = root g /\ vx h = vx g /\ Permutation (ids h) (ids g) /\
    exists L A, local_values (es g) (ids g) (vx g) L /\ adjacent_values (es g) (ids g) (vx g) A /\
      forall n, In n (ids g) -> smooth (es g) L A n /\ extended (es g) (es h) L A n.

  Inductive passes : nat -> graph word word -> graph word word -> Prop :=
  | passes_one g h : pass g h -> passes 1 g h
  | passes_more k g f h : pass g f -> passes k f h -> passes (S k) g h.
End Spec.

(** ** Lemmas about one node *)
Section Node.
  Variable X : env.
  Variable c : composer.
  Variable eeq : word -> word -> bool.
  Variable ehash : word -> N.
  Hypothesis He : equivalence eeq.
  Hypothesis Heh : forall x y, eeq x y = true -> ehash x = ehash y.
  Variable o : edges.
  Variable L A : nat -> word.

  Lemma with_ok n l es : forall r b, compose_with c L A n l es = (r, b, None) ->
    (forall l' k, In (l', k) es -> snd (qpred c (L n) l (A k) l') = None /\
       (qualified c L A n l k l' -> snd (qop c (L n) l (A k) l') = None)) /\
    (forall t k, In (t, k) r <-> exists l', In (l', k) es /\ qualified c L A n l k l' /\ t = fst (qop c (L n) l (A k) l')) /\
    (b = true <-> exists l' k, In (l', k) es /\ qualified c L A n l k l').
  Proof.
    unfold qualified. induction es as [|[l1 m] es IH]; simpl; intros r b H.
    - injection H as <- <-. split; [intros ? ? []|]. split; [|split; [discriminate|intros (? & ? & [] & _)]].
      intros t k. split; [intros []|intros (? & [] & _)].
    - destruct (qpred c (L n) l (A m) l1) as [[|] [e|]] eqn:Eq; try discriminate.
      + destruct (qop c (L n) l (A m) l1) as [t0 [e|]] eqn:Eo; [discriminate|].
        destruct (compose_with c L A n l es) as [[r0 b0] e0] eqn:Er. injection H as <- <- ->.
        destruct (IH _ _ eq_refl) as (I1 & I2 & I3). split; [|split].
        * intros l' k [[= -> ->]|Hin]; [|auto]. rewrite Eq, Eo. simpl. auto.
        * intros t k. simpl. rewrite I2. split.
          -- intros [[= <- <-]|(l' & B1 & B2)]; [exists l1; rewrite Eq, Eo; simpl; auto|exists l'; auto].
          -- intros (l' & [[= -> ->]|B1] & B2 & ->); [left; now rewrite Eo|right; exists l'; auto].
        * split; auto. intros _. exists l1, m. rewrite Eq. simpl. auto.
      + destruct (IH _ _ H) as (I1 & I2 & I3). split; [|split].
        * intros l' k [[= -> ->]|Hin]; [|auto]. rewrite Eq. simpl. split; [auto|discriminate].
        * intros t k. rewrite I2. split; intros (l' & B1 & B2).
          -- exists l'. auto.
          -- destruct B1 as [[= -> ->]|B1]; [rewrite Eq in B2; destruct B2; discriminate|eauto].
        * rewrite I3. split; intros (l' & k & B1 & B2).
          -- exists l', k. auto.
          -- destruct B1 as [[= -> ->]|B1]; [rewrite Eq in B2; discriminate|eauto].
  Qed.

  Lemma with_err n l es : forall r b e, compose_with c L A n l es = (r, b, Some e) ->
    exists l' k, In (l', k) es /\
      (snd (qpred c (L n) l (A k) l') = Some e \/ qualified c L A n l k l' /\ snd (qop c (L n) l (A k) l') = Some e).
  Proof.
    unfold qualified. induction es as [|[l1 m] es IH]; simpl; intros r b e H; [discriminate|].
    destruct (qpred c (L n) l (A m) l1) as [q [e1|]] eqn:Eq.
    - assert (e1 = e) as -> by (destruct q; congruence). exists l1, m. rewrite Eq. auto.
    - destruct q.
      + destruct (qop c (L n) l (A m) l1) as [t0 [e1|]] eqn:Eo.
        * injection H as <- <- <-. exists l1, m. rewrite Eq, Eo. auto.
        * destruct (compose_with c L A n l es) as [[r0 b0] e0] eqn:Er. injection H as <- <- ->.
          destruct (IH _ _ _ eq_refl) as (l' & k & B1 & B2). eauto 6.
      + destruct (IH _ _ _ H) as (l' & k & B1 & B2). eauto 6.
  Qed.

  Lemma all_ok n es : forall r ls, compose_all c o L A n es = (r, ls, None) ->
    (forall l m l' k, In (l, m) es -> In (l', k) (o m) -> snd (qpred c (L n) l (A k) l') = None /\
       (qualified c L A n l k l' -> snd (qop c (L n) l (A k) l') = None)) /\
    (forall t k, In (t, k) r <-> exists l m l', In (l, m) es /\ In (l', k) (o m) /\ qualified c L A n l k l' /\
       t = fst (qop c (L n) l (A k) l')) /\
    (forall l, In l ls <-> exists m l' k, In (l, m) es /\ In (l', k) (o m) /\ qualified c L A n l k l').
  Proof.
    induction es as [|[l1 m1] es IH]; simpl; intros r ls H.
    - injection H as <- <-. split; [intros ? ? ? ? []|]. split.
      + intros t k. split; [intros []|intros (? & ? & ? & [] & _)].
      + intros l. split; [intros []|intros (? & ? & ? & [] & _)].
    - destruct (compose_with c L A n l1 (o m1)) as [[r1 b1] [e1|]] eqn:E1; [discriminate|].
      destruct (compose_all c o L A n es) as [[r2 ls2] e2] eqn:E2. injection H as <- <- ->.
      destruct (IH _ _ eq_refl) as (I1 & I2 & I3). destruct (with_ok _ _ _ E1) as (W1 & W2 & W3). split; [|split].
      + intros l m l' k [[= <- <-]|Hin] B; [apply W1; auto|eapply I1; eauto].
      + intros t k. rewrite in_app_iff, W2, I2. split.
        * intros [(l' & B1 & B2 & B3)|(l & m & l' & B1 & B2 & B3 & B4)]; [exists l1, m1, l'; auto|exists l, m, l'; auto].
        * intros (l & m & l' & [[= <- <-]|B1] & B2 & B3 & B4); [left; eauto|right; exists l, m, l'; auto].
      + intros l. assert (B : In l (if b1 then l1 :: ls2 else ls2) <-> (b1 = true /\ l1 = l) \/ In l ls2).
        { destruct b1; simpl; intuition discriminate. }
        rewrite B, W3, I3. split.
        * intros [[(l' & k & B1 & B2) <-]|(m & l' & k & B1 & B2 & B3)]; [exists m1, l', k; auto|exists m, l', k; auto].
        * intros (m & l' & k & [[= <- <-]|B1] & B2 & B3); [left; eauto|right; exists m, l', k; auto].
  Qed.

  Lemma all_err n es : forall r ls e, compose_all c o L A n es = (r, ls, Some e) ->
    exists l m l' k, In (l, m) es /\ In (l', k) (o m) /\
      (snd (qpred c (L n) l (A k) l') = Some e \/ qualified c L A n l k l' /\ snd (qop c (L n) l (A k) l') = Some e).
  Proof.
    induction es as [|[l1 m1] es IH]; simpl; intros r ls e H; [discriminate|].
    destruct (compose_with c L A n l1 (o m1)) as [[r1 b1] [e1|]] eqn:E1.
    - injection H as <- <- <-. destruct (with_err _ _ _ E1) as (l' & k & B1 & B2). exists l1, m1, l', k. auto.
    - destruct (compose_all c o L A n es) as [[r2 ls2] e2] eqn:E2. injection H as <- <- ->.
      destruct (IH _ _ _ eq_refl) as (l & m & l' & k & B1 & B2 & B3). exists l, m, l', k. auto.
  Qed.

  Lemma composed_ok n : snd (composed c o L A n) = None ->
    smooth c o L A n /\
    (forall t k, In (t, k) (fst (fst (composed c o L A n))) <-> bypass c o L A n t k) /\
    (forall l, In l (snd (fst (composed c o L A n))) <-> exists m, launching c o L A n (l, m)).
  Proof.
    unfold composed. destruct (compose_all c o L A n (o n)) as [[r ls] e] eqn:E. simpl. intros ->.
    destruct (all_ok _ _ E) as (A1 & A2 & A3). split; [|split].
    - intros l m l' k. apply A1.
    - intros t k. apply A2.
    - intros l. rewrite A3. unfold launching. simpl. split.
      + intros (m & l' & k & B1 & B2 & B3). exists m. eauto.
      + intros (m & B1 & l' & k & B2 & B3). eauto 6.
  Qed.
  Lemma composed_err n e : snd (composed c o L A n) = Some e -> reported c o L A n e.
  Proof.
    unfold composed. destruct (compose_all c o L A n (o n)) as [[r ls] e'] eqn:E. simpl. intros ->.
    destruct (all_err _ _ E) as (l & m & l' & k & B1 & B2 & B3). exists l, m, l', k. auto.
  Qed.

  Lemma similar_refl e : similar eeq e e.
  Proof. split; auto. apply (eqv_refl He). Qed.
  Lemma similar_trans e1 e2 e3 : similar eeq e1 e2 -> similar eeq e2 e3 -> similar eeq e1 e3.
  Proof. intros [A1 A2] [B1 B2]. split; [congruence|]. eapply (eqv_trans He); eauto. Qed.
  Lemma similar_sym e1 e2 : similar eeq e1 e2 -> similar eeq e2 e1.
  Proof. intros [A1 A2]. split; [congruence|]. now apply (eqv_sym He). Qed.

  Lemma dedup_in l e : In e (dedup X eeq ehash l) -> In e l.
  Proof.
    intros H. destruct (C46_deduplication (judy X) ehash fst (fun e : edge => N.of_nat (snd e)) l He Heh) as (P & _).
    apply (Permutation_in _ (Permutation_sym P)). apply in_app_iff. now left.
  Qed.
  Lemma dedup_unique l : unrepeated eeq (dedup X eeq ehash l).
  Proof.
    destruct (C46_deduplication (judy X) ehash fst (fun e : edge => N.of_nat (snd e)) l He Heh) as (_ & P & _).
    revert P. apply FOP_imp. intros x y _ _ H [H1 H2]. apply H. split; auto.
  Qed.
  Lemma dedup_cover l e : In e l -> exists e', In e' (dedup X eeq ehash l) /\ similar eeq e e'.
  Proof.
    intros H. destruct (C46_deduplication (judy X) ehash fst (fun e : edge => N.of_nat (snd e)) l He Heh) as (_ & _ & P).
    destruct (P e H) as (e' & A1 & A2 & A3). exists e'. split; auto. split; auto. now apply Nat2N.inj.
  Qed.
  Lemma dedup_length l : length (dedup X eeq ehash l) <= length l.
  Proof.
    destruct (C46_deduplication (judy X) ehash fst (fun e : edge => N.of_nat (snd e)) l He Heh) as (P & _).
    apply Permutation_length in P. rewrite app_length in P. unfold dedup. unfold edge in *. lia.
  Qed.

  Lemma united_extended d n : d n = true -> snd (composed c o L A n) = None ->
    extended c eeq o (united X c eeq ehash o L A d) L A n.
  Proof.
    intros Hd Hn. destruct (composed_ok _ Hn) as (_ & B & _).
    constructor; unfold united; rewrite Hd.
    - intros e Hin. apply dedup_cover. apply in_app_iff. auto.
    - intros t k Hb. apply B in Hb. apply dedup_cover in Hb as (e1 & B1 & B2).
      destruct (dedup_cover (o n ++ by_edges X c eeq ehash o L A n) e1) as (e2 & C1 & C2).
      { apply in_app_iff. right. exact B1. }
      exists e2. split; auto. eapply similar_trans; eauto.
    - intros e Hin. apply dedup_in, in_app_iff in Hin as [Hin|Hin]; auto. right. apply dedup_in in Hin.
      apply B. destruct e; exact Hin.
    - apply dedup_unique.
  Qed.
End Node.

(** ** One round *)
Section Round.
  Variable X : env.
  Variable g : graph word word.
  Variable c : composer.
  Variable eeq : word -> word -> bool.
  Variable ehash : word -> N.
  Variable cut : nat -> nat -> option nat.
  Variable kills : nat -> nat -> bool.
  Hypothesis Hl : 0 < lanes X.
  Hypothesis He : equivalence eeq.
  Hypothesis Heh : forall x y, eeq x y = true -> ehash x = ehash y.
  Hypothesis K1 : forall i l, cut i l = None.
  Hypothesis K2 : never_killed kills.

  Lemma property_value p o n w : property g p o n = (w, None) -> has_value p (vx g n) [] (outward o (vx g) n) w.
  Proof.
    unfold property, has_value. change (outward o (vx g) n) with (view g o n). change fresh with no_values.
    destruct (mapped_node p (vx g n) [] (view g o n) no_values) as [w' [[s s1] s2]].
    intros H. injection H as E1 E2. subst w'. exists s, s1, s2. auto.
  Qed.

  Lemma guard_acts o nodes : forall d d', NoDup nodes -> acts (guard g c o) d nodes = Some d' ->
    surv d' = rev nodes ++ surv d /\
    (forall n, In n nodes -> property g (local_prop c) o n = (loc d' n, None) /\
                             property g (adjacent_prop c) o n = (adj d' n, None)) /\
    forall n, ~ In n nodes -> loc d' n = loc d n /\ adj d' n = adj d n.
  Proof.
    induction nodes as [|m ns IH]; simpl; intros d d' N H.
    - injection H as <-. split; auto. split; [intros n []|auto].
    - inversion N; subst. unfold guard in H at 1.
      destruct (property g (local_prop c) o m) as [x [e|]] eqn:E1; [discriminate|].
      destruct (property g (adjacent_prop c) o m) as [y [e|]] eqn:E2; [discriminate|].
      destruct (IH _ _ H3 H) as (I1 & I2 & I3). split; [|split].
      + rewrite I1. simpl. rewrite <- app_assoc. reflexivity.
      + intros n [<-|Hn]; [|auto]. destruct (I3 m H2) as [-> ->]. simpl. rewrite !upd_same. auto.
      + intros n Hn. destruct (I3 n) as [-> ->]; [tauto|]. simpl. rewrite !upd_diff by (intros ->; tauto). auto.
  Qed.

  Definition graph_of (o : edges) : graph word word := mkGraph (ids g) (vx g) o (root g).

  Lemma graph_eta : graph_of (es g) = g.
  Proof. unfold graph_of. destruct g. reflexivity. Qed.

  Lemma started v : composes X g c eeq ehash cut kills v ->
    exists i old, rounds X g c eeq ehash cut kills i old (es g) v.
  Proof. intros H. exists 0, []. exact H. Qed.

  Lemma all_done i d n : done X cut i d n = true.
  Proof. unfold done. now rewrite K1. Qed.

  Lemma identity_order : Permutation (seq 0 (lanes X)) (seq 0 (lanes X)).
  Proof. reflexivity. Qed.

  Lemma guarded o s : wf (graph_of o) ->
    ran (lanes X) (walk_dest X) (guarding X g c o) (vstart gstart) (initial (root g)) s ->
    (forall order, Permutation order (seq 0 (lanes X)) -> pass_status order s = None) ->
    NoDup (surv (data s)) /\ (forall n, In n (surv (data s)) <-> In n (ids g)) /\
    local_values c o (ids g) (vx g) (loc (data s)) /\ adjacent_values c o (ids g) (vx g) (adj (data s)) /\
    forall n, In n (ids g) -> property g (local_prop c) o n = (loc (data s) n, None) /\
                              property g (adjacent_prop c) o n = (adj (data s) n, None).
  Proof.
    intros W R St. apply ran_completes in R; [|now apply vdest_lt].
    assert (V : vstatus (unkillable X) (seq 0 (lanes X)) s = None).
    { eapply pass_unkilled; eauto using identity_order; reflexivity. }
    destruct (gwalk_success (X := unkillable X) Hl identity_order R V) as (nv & A1 & A2 & A3).
    destruct (guard_acts _ _ A1 A3) as (B1 & B2 & _). simpl in B1. rewrite app_nil_r in B1.
    assert (M : forall n, In n nv <-> In n (ids g)).
    { intros n. rewrite A2. exact (along_ids n W). }
    split; [|split; [|split; [|split]]].
    - rewrite B1. apply (Permutation_NoDup (Permutation_rev nv)), A1.
    - intros n. rewrite B1, <- in_rev. apply M.
    - intros n Hn. apply property_value. apply B2. now apply M.
    - intros n Hn. apply property_value. apply B2. now apply M.
    - intros n Hn. apply B2. now apply M.
  Qed.

  Lemma guarding_error o s order e : wf (graph_of o) ->
    ran (lanes X) (walk_dest X) (guarding X g c o) (vstart gstart) (initial (root g)) s ->
    pass_status order s = Some e ->
    exists n, In n (ids g) /\ (snd (property g (local_prop c) o n) = Some e \/ snd (property g (adjacent_prop c) o n) = Some e).
  Proof.
    intros W R St. apply ran_completes in R; [|now apply vdest_lt].
    destruct (pass_error _ _ St) as (l & Hle). destruct (gwalk_any R) as (nodes & _ & In1 & _ & D).
    destruct (D l e Hle) as (n1 & n & n2 & -> & Ha & _). exists n. split.
    - apply (fun n => @along_ids _ _ _ n W). apply In1. apply in_app_iff. simpl. auto.
    - unfold guard in Ha. destruct (property g (local_prop c) o n) as [x [e1|]]; simpl in Ha; auto.
      destruct (property g (adjacent_prop c) o n) as [y [e1|]]; simpl in Ha; [auto|discriminate].
  Qed.

  Lemma pruned o i s :
    ran (lanes X) (walk_dest X) (cpruning (in_pass X kills i) o) (vstart []) (initial (root g)) s ->
    NoDup (data s) /\ (forall n, In n (data s) <-> along o (root g) n) /\ queued X s = data s /\
    (forall l, lkil s l = false) /\
    (forall order old, Permutation order (seq 0 (lanes X)) -> end_status X kills i old order s = None).
  Proof.
    intros R. apply ran_completes in R; [|now apply vdest_lt].
    assert (V : forall order, pass_status order s = None).
    { intros order. destruct (pass_status order s) as [z|] eqn:Ez; auto. destruct (pass_error _ _ Ez) as (l & Hle).
      destruct (gwalk_any R) as (nodes & _ & _ & _ & D). destruct (D l z Hle) as (n1 & n & n2 & _ & Ha & _). discriminate. }
    assert (V' : forall order, Permutation order (seq 0 (lanes X)) -> vstatus (in_pass X kills i) order s = None).
    { intros order Ho. eapply pass_unkilled; eauto. intros k. apply K2. }
    destruct (gwalk_success (X := in_pass X kills i) Hl identity_order R (V' _ identity_order)) as (nq & A1 & A2 & A3).
    apply collect_acts in A3. simpl in A3. subst nq.
    assert (F : forall l, lkil s l = false).
    { assert (Kn : forall k, killcalls (in_pass X kills i) k = false) by (intros k; apply K2).
      exact (proj2 (pass_unflagged (X := in_pass X kills i) Hl identity_order Kn R (V _))). }
    split; auto. split; auto. split; [|split; auto].
    - unfold queued. rewrite <- (filter_true (data s)) at 2. apply filter_ext. intros n. now rewrite F.
    - intros order old Ho. unfold end_status. destruct (leftover _ _ _ && _); auto.
  Qed.

  (** A round of which nothing is known but the edges it starts with. *)
  Lemma round_facts i o s o' sq : wf (graph_of o) -> round X g c eeq ehash cut kills i o s o' sq ->
    exists L A, L = loc (data s) /\ A = adj (data s) /\
    local_values c o (ids g) (vx g) L /\ adjacent_values c o (ids g) (vx g) A /\
    (forall n, In n (surv (data s)) <-> In n (ids g)) /\
    (forall n, In n (ids g) -> smooth c o L A n /\
       extended c eeq o (united X c eeq ehash o L A (fun _ => true)) L A n) /\
    (forall n, o' n = filter (fun e => negb (deletable c o L A n (fst e))) (united X c eeq ehash o L A (fun _ => true) n)) /\
    (forall n, changed X c eeq ehash o L A (done X cut i (data s)) n =
               negb (length (o n) =? length (united X c eeq ehash o L A (fun _ => true) n))).
  Proof.
    intros W [R1 R2 R3 R4 R5]. destruct (guarded W R1 R2) as (G1 & G2 & G3 & G4 & _).
    exists (loc (data s)), (adj (data s)). do 4 (split; [auto|]). split; [exact G2|]. split; [|split].
    - intros n Hn. assert (Hc : snd (composed c o (loc (data s)) (adj (data s)) n) = None).
      { apply R3; [now apply G2|apply all_done]. }
      split; [apply (composed_ok _ _ _ _ _ Hc)|]. apply united_extended; auto.
    - intros n. subst o'. unfold bypass_edges, united. rewrite all_done. reflexivity.
    - intros n. unfold changed, united. rewrite all_done. reflexivity.
  Qed.

  Lemma along_incl (o o' : edges) : (forall n, along o (root g) n -> forall l m, In (l, m) (o n) -> along o' (root g) n -> along o' (root g) m) ->
    forall n, along o (root g) n -> along o' (root g) n.
  Proof. intros H n Hn. induction Hn as [|n l m A1 IH E]; [constructor|]. eapply H; eauto. Qed.

  Section Plain.
    Hypothesis Hd : destructive c = false.

    (** A round without deletion *)
    Lemma plain_round i o s o' sq : wf (graph_of o) -> round X g c eeq ehash cut kills i o s o' sq ->
      wf (graph_of o') /\ Permutation (data sq) (ids g) /\
      exists L A, local_values c o (ids g) (vx g) L /\ adjacent_values c o (ids g) (vx g) A /\
        (forall n, In n (ids g) -> smooth c o L A n /\ extended c eeq o o' L A n) /\
        (forall n, In n (ids g) -> length (o' n) = length (united X c eeq ehash o L A (fun _ => true) n)) /\
        grown X c eeq ehash cut i o s = existsb (fun n => negb (length (o n) =? length (o' n))) (surv (data s)) /\
        (forall n, In n (surv (data s)) <-> In n (ids g)).
    Proof.
      intros W R. destruct (round_facts W R) as (L & A & -> & -> & F1 & F2 & F3 & F4 & F5 & F6).
      assert (AI : forall n, along o (root g) n <-> In n (ids g)) by (intros n; exact (along_ids n W)).
      set (L := loc (data s)) in *. set (A := adj (data s)) in *.
      assert (Eo : forall n, o' n = united X c eeq ehash o L A (fun _ => true) n).
      { intros n. rewrite F5. unfold deletable. rewrite Hd. simpl. apply filter_true. }
      assert (Ex : forall n, In n (ids g) -> extended c eeq o o' L A n).
      { intros n Hn. destruct (F4 n Hn) as [_ [E1 E2 E3 E4]]. constructor; rewrite Eo; auto. }
      assert (Al : forall n, along o' (root g) n <-> In n (ids g)).
      { intros n. split.
        - intros Hn. apply AI. revert n Hn. induction 1 as [|n l m B1 B2 B3]; [constructor|].
          assert (Hn : In n (ids g)) by (apply AI; auto).
          destruct (x_only (Ex n Hn) _ B3) as [B|(l1 & m1 & l2 & C1 & C2 & _)]; [econstructor; eauto|].
          simpl in C2. econstructor; [|exact C2]. econstructor; eauto.
        - intros Hn. apply AI in Hn. revert n Hn. simpl. apply along_incl. intros n B1 l m B2 B3.
          assert (Hn : In n (ids g)) by (apply AI; auto).
          destruct (x_old (Ex n Hn) _ B2) as ([l' m'] & C1 & C2 & _). simpl in C2. subst m'. econstructor; eauto. }
      split; [|split].
      - destruct W as [W1 W2 W3 W4]. constructor; simpl in *; auto.
        + intros n l m Hn Hm. apply Al. econstructor; [apply Al; exact Hn|exact Hm].
        + intros n Hn. apply Al in Hn. induction Hn as [|n l m B1 B2 B3]; [constructor|].
          econstructor; eauto.
      - destruct (pruned (r_pruned R)) as (P1 & P2 & _). apply NoDup_Permutation; auto; [exact (wf_nodup W)|].
        intros n. rewrite P2. apply Al.
      - exists L, A. split; [auto|]. split; [auto|]. split; [intros n Hn; split; [apply F4; auto|auto]|].
        split; [intros n _; now rewrite Eo|]. split; [|auto]. unfold grown. fold L A.
        clear F3. induction (surv (data s)) as [|n l IH]; simpl; auto. rewrite F6, Eo, IH. reflexivity.
    Qed.
  End Plain.

  (** ** Composition without deletion *)
  Section Claims.
    Hypothesis Hd : destructive c = false.

    (** A failure to compute a property of [n] *)
    Definition property_error (o : edges) (n : nat) (x : error) : Prop :=
      snd (property g (local_prop c) o n) = Some x \/ snd (property g (adjacent_prop c) o n) = Some x.

    Lemma plain_pass i o s o' sq : wf (graph_of o) -> round X g c eeq ehash cut kills i o s o' sq ->
      pass c eeq (graph_of o) (graph_of o').
    Proof.
      intros W R. destruct (plain_round Hd W R) as (W' & P & L & A & F1 & F2 & F3 & _).
      split; [auto|]. split; [auto|]. split; [auto|]. split; [reflexivity|]. exists L, A. auto.
    Qed.

    Lemma pass_perm g1 h l : Permutation l (ids h) -> pass c eeq g1 h -> pass c eeq g1 (mkGraph l (vx h) (es h) (root h)).
    Proof.
      intros P (W & R & V & I & L & A & F). split; [|split; [auto|split; [auto|split]]].
      - destruct W as [W1 W2 W3 W4]. constructor; simpl.
        + eapply Permutation_NoDup; [symmetry; exact P|exact W1].
        + eapply Permutation_in; [symmetry; exact P|exact W2].
        + intros n x m Hn Hm. eapply Permutation_in; [symmetry; exact P|]. apply (W3 n x m); [eapply Permutation_in; [exact P|exact Hn]|exact Hm].
        + intros n Hn. assert (H : path h (root h) n) by (apply W4; eapply Permutation_in; [exact P|auto]).
          clear -H. induction H; [constructor|econstructor; eauto].
      - etransitivity; [exact P|exact I].
      - exists L, A. exact F.
    Qed.

    Lemma plain_rounds i old o v : wf (graph_of o) -> rounds X g c eeq ehash cut kills i old o v ->
      (exists h k, v = Done (Some h, None) /\ passes c eeq k (graph_of o) h /\ (co_fix c = false -> k = 1)) \/
      (exists e, v = Done (None, Some e)).
    Proof.
      intros W H. induction H as [i old o s order e R O St|i old o s n e R St Hn Hd' Hc|i old o s o' sq order R G O|
        i old o s o' sq R G Hk|i old o s o' sq v R G Hk R' IH]; eauto.
      - left. destruct (pruned (r_pruned R)) as (P1 & P2 & P3 & P4 & P5). rewrite P5 by exact O.
        eexists. exists 1. split; [reflexivity|]. split; auto. constructor. rewrite P3.
        apply (@pass_perm (graph_of o) (graph_of o')); [|exact (plain_pass W R)].
        destruct (plain_round Hd W R) as (_ & P & _). exact P.
      - exfalso. destruct (pruned (r_pruned R)) as (P1 & P2 & P3 & P4 & P5).
        apply existsb_exists in Hk as (l & _ & B). now rewrite P4 in B.
      - assert (W' : wf (graph_of o')) by (destruct (plain_round Hd W R); auto).
        destruct (IH W') as [(h & k & -> & B & Hk')|B]; [|auto]. left. exists h, (S k). split; auto.
        apply andb_true_iff in G as [G _]. split; [|congruence].
        eapply passes_more; [exact (plain_pass W R)|exact B].
    Qed.

    Hypothesis W : wf g.

    (** One pass adds the bypasses, if it is successful, and it is or else it returns an error. *)
    Theorem C27_one_pass v : co_fix c = false -> composes X g c eeq ehash cut kills v ->
      (exists h, v = Done (Some h, None) /\ pass c eeq g h) \/ (exists e, v = Done (None, Some e)).
    Proof.
      intros Hf H. unfold composes in H. pose proof W as W0. rewrite <- graph_eta in W0.
      destruct (plain_rounds W0 H) as [(h & k & -> & P & Hk)|B]; [|auto]. left. exists h. split; auto.
      rewrite graph_eta in P. rewrite (Hk Hf) in P. inversion P; subst; auto. inversion H2.
    Qed.

    (** Iteration makes any number of passes. *)
    Theorem C27_iterated v : composes X g c eeq ehash cut kills v ->
      (exists h k, v = Done (Some h, None) /\ passes c eeq k g h) \/ (exists e, v = Done (None, Some e)).
    Proof.
      intros H. unfold composes in H. pose proof W as W0. rewrite <- graph_eta in W0.
      destruct (plain_rounds W0 H) as [(h & k & -> & P & Hk)|B]; [|auto]. left. exists h, k. split; auto.
      now rewrite graph_eta in P.
    Qed.

    (** An error is one reported by a user function in the pass. *)
    Theorem C27_errors e : co_fix c = false -> composes X g c eeq ehash cut kills (Done (None, Some e)) ->
      (exists n, In n (ids g) /\ property_error (es g) n e) \/
      (exists n L A, In n (ids g) /\ local_values c (es g) (ids g) (vx g) L /\ adjacent_values c (es g) (ids g) (vx g) A /\
         reported c (es g) L A n e).
    Proof.
      intros Hf H. apply started in H as (i0 & old0 & H). pose proof W as W0. rewrite <- graph_eta in W0.
      remember (Done (None, Some e)) as v eqn:Ev. remember (es g) as o eqn:Eo.
      destruct H as [i old o s order e' R O St|i old o s n e' R St Hn Hd' Hc|i old o s o' sq order R G O|
        i old o s o' sq R G Hk|i old o s o' sq v R G Hk R']; try discriminate.
      - injection Ev as ->. left. exact (guarding_error _ W0 R St).
      - injection Ev as ->. right. destruct (guarded W0 R St) as (G1 & G2 & G3 & G4 & _).
        exists n, (loc (data s)), (adj (data s)). split; [now apply G2|]. split; [auto|]. split; [auto|].
        now apply composed_err.
      - exfalso. destruct (pruned (r_pruned R)) as (P1 & P2 & P3 & P4 & P5). rewrite P5 in Ev by exact O. discriminate.
      - rewrite Hf in G. discriminate.
    Qed.

    (** Any two passes over the same graph have the same result. *)
    Theorem C27_schedule_is_immaterial h h' :
      co_fix c = false -> composes X g c eeq ehash cut kills (Done (Some h, None)) ->
      composes X g c eeq ehash cut kills (Done (Some h', None)) ->
      root h = root h' /\ Permutation (ids h) (ids h') /\ (forall n, In n (ids h) -> vx h n = vx h' n /\ es h n = es h' n).
    Proof.
      intros Hf. pose proof W as W0. rewrite <- graph_eta in W0.
      assert (Main : forall f, composes X g c eeq ehash cut kills (Done (Some f, None)) ->
        root f = root g /\ Permutation (ids f) (ids g) /\ vx f = vx g /\
        exists s : @vst gdata nat, (forall n, In n (ids g) -> property g (local_prop c) (es g) n = (loc (data s) n, None) /\
                              property g (adjacent_prop c) (es g) n = (adj (data s) n, None)) /\
        forall n, es f n = united X c eeq ehash (es g) (loc (data s)) (adj (data s)) (fun _ => true) n).
      { intros f H. apply started in H as (i0 & old0 & H). remember (Done (Some f, None)) as v eqn:Ev. remember (es g) as o eqn:Eo.
        destruct H as [i old o s order e' R O St|i old o s n e' R St Hn Hd' Hc|i old o s o' sq order R G O|
          i old o s o' sq R G Hk|i old o s o' sq v R G Hk R']; try discriminate.
        - destruct (pruned (r_pruned R)) as (P1 & P2 & P3 & P4 & P5). rewrite P5 in Ev by exact O.
          injection Ev as <-. simpl. split; auto. rewrite P3.
          destruct (plain_round Hd W0 R) as (_ & P & _). split; auto. split; auto. exists s.
          destruct (guarded W0 (r_guarded R) (r_status R)) as (_ & _ & _ & _ & G5). split; auto.
          destruct (round_facts W0 R) as (L & A & -> & -> & F1 & F2 & F3 & F4 & F5 & F6).
          intros n. rewrite F5. unfold deletable. rewrite Hd. simpl. apply filter_true.
        - rewrite Hf in G. discriminate. }
      intros H1 H2. destruct (Main _ H1) as (R1 & P1 & V1 & s1 & B1 & C1).
      destruct (Main _ H2) as (R2 & P2 & V2 & s2 & B2 & C2). split; [congruence|].
      split; [etransitivity; [exact P1|now symmetry]|]. intros n Hn. split; [congruence|].
      assert (Hn' : In n (ids g)) by (exact (Permutation_in _ P1 Hn)). rewrite C1, C2.
      assert (EL : forall m, In m (ids g) -> loc (data s1) m = loc (data s2) m /\ adj (data s1) m = adj (data s2) m).
      { intros m Hm. destruct (B1 m Hm) as [D1 D2], (B2 m Hm) as [D3 D4]. split; congruence. }
      unfold united, by_edges, composed. 
      assert (Wi : forall n l ee, In n (ids g) -> (forall l' k, In (l', k) ee -> In k (ids g)) ->
        compose_with c (loc (data s1)) (adj (data s1)) n l ee = compose_with c (loc (data s2)) (adj (data s2)) n l ee).
      { clear -EL. intros n l ee Hn. induction ee as [|[l1 m1] ee IH]; simpl; intros Hk; auto.
        destruct (EL n Hn) as [-> _]. destruct (EL m1) as [_ ->]; [eapply Hk; left; reflexivity|].
        rewrite IH by (intros l' k Hl'; eapply Hk; right; eauto). reflexivity. }
      assert (Ea : forall l, (forall x m, In (x, m) l -> In m (ids g)) ->
        compose_all c (es g) (loc (data s1)) (adj (data s1)) n l = compose_all c (es g) (loc (data s2)) (adj (data s2)) n l).
      { induction l as [|[l1 m1] ll IH]; simpl; intros Hc; auto.
        rewrite Wi; auto.
        2:{ intros l' k Hk. eapply (wf_closed W); [|exact Hk]. eapply Hc; eauto. }
        rewrite IH by eauto. reflexivity. }
      rewrite Ea; auto. intros x m. exact (wf_closed W n x m Hn').
    Qed.

    (** ** Iteration to a fixed point.  Two lists have the same edges *)
    Definition alike (l l' : list edge) : Prop :=
      (forall e, In e l -> exists e', In e' l' /\ similar eeq e e') /\
      (forall e', In e' l' -> exists e, In e l /\ similar eeq e' e).

    (** Everything that could be added to the edges [E n] is already there. *)
    Definition saturated (E : edges) (L A : nat -> word) (n : nat) : Prop :=
      forall t k, bypass c E L A n t k -> exists e, In e (E n) /\ similar eeq (t, k) e.

    Lemma unrepeated_cons e l : unrepeated eeq (e :: l) -> unrepeated eeq l /\ forall x, In x l -> ~ similar eeq e x.
    Proof. intros H. inversion H; subst. rewrite Forall_forall in H2. auto. Qed.

    Lemma unrepeated_remove a : forall e b, unrepeated eeq (a ++ e :: b) -> unrepeated eeq (a ++ b).
    Proof.
      induction a as [|x a IH]; simpl; intros e b H.
      - now apply unrepeated_cons in H.
      - inversion H; subst. constructor; [|eapply IH; eauto].
        rewrite Forall_forall in *. intros y Hy. apply H2. apply in_app_iff. apply in_app_iff in Hy. simpl. tauto.
    Qed.

    (** Pigeonholes *)
    Lemma covered l : forall l', unrepeated eeq l -> unrepeated eeq l' ->
      (forall e, In e l -> exists e', In e' l' /\ similar eeq e e') ->
      length l <= length l' /\
      (length l = length l' -> forall e', In e' l' -> exists e, In e l /\ similar eeq e' e).
    Proof.
      induction l as [|e l IH]; intros l' U U' H.
      - split; [simpl; lia|]. intros E. symmetry in E. apply length_zero_iff_nil in E. subst. intros ? [].
      - destruct (H e) as (e' & B1 & B2); [now left|]. apply in_split in B1 as (a & b & ->).
        apply unrepeated_cons in U as [U1 U2].
        assert (Hn : forall x, In x l -> exists y, In y (a ++ b) /\ similar eeq x y).
        { intros x Hx. destruct (H x) as (y & C1 & C2); [now right|]. exists y. split; auto.
          apply in_app_iff in C1 as [C1|[<-|C1]]; [apply in_app_iff; auto| |apply in_app_iff; auto].
          exfalso. apply (U2 x Hx). apply (similar_trans He B2). now apply similar_sym. }
        destruct (IH (a ++ b) U1 (unrepeated_remove _ _ _ U') Hn) as [I1 I2].
        rewrite app_length in *. simpl. split; [lia|]. intros E y Hy.
        apply in_app_iff in Hy as [Hy|[<-|Hy]].
        + destruct I2 with (e' := y) as (x & C1 & C2); [lia|apply in_app_iff; auto|exists x; split; auto; now right].
        + exists e. split; [now left|]. now apply similar_sym.
        + destruct I2 with (e' := y) as (x & C1 & C2); [lia|apply in_app_iff; auto|exists x; split; auto; now right].
    Qed.

    Lemma plain_fixed i old o h : wf (graph_of o) -> (forall n, In n (ids g) -> unrepeated eeq (o n)) -> co_fix c = true ->
      rounds X g c eeq ehash cut kills i old o (Done (Some h, None)) ->
      Permutation (ids h) (ids g) /\ vx h = vx g /\
      exists E L A, local_values c E (ids g) (vx g) L /\ adjacent_values c E (ids g) (vx g) A /\
        forall n, In n (ids g) -> unrepeated eeq (E n) /\ unrepeated eeq (es h n) /\
          alike (E n) (es h n) /\ saturated E L A n.
    Proof.
      clear W. intros W U Hf H. remember (Done (Some h, None)) as v eqn:Ev.
      induction H as [i old o s order e R O St|i old o s n e R St Hn Hd' Hc|i old o s o' sq order R G O|
        i old o s o' sq R G Hk|i old o s o' sq v R G Hk R' IH]; try discriminate.
      - destruct (pruned (r_pruned R)) as (P1 & P2 & P3 & P4 & P5). rewrite P5 in Ev by exact O.
        injection Ev as <-. simpl. rewrite P3.
        destruct (plain_round Hd W R) as (W' & P & L & A & F1 & F2 & F3 & F4 & F5 & F6). split; [auto|]. split; [auto|].
        exists o, L, A. split; [auto|]. split; [auto|]. intros n Hn.
        destruct (F3 n Hn) as [_ [E1 E2 E3 E4]]. rewrite Hf in G. simpl in G. rewrite F5 in G.
        assert (Len : length (o n) = length (o' n)).
        { apply Nat.eqb_eq. destruct (length (o n) =? length (o' n)) eqn:El; auto.
          assert (B : existsb (fun n => negb (length (o n) =? length (o' n))) (surv (data s)) = true).
          { apply existsb_exists. exists n. rewrite El. split; auto. now apply F6. }
          congruence. }
        destruct (covered (U n Hn) E4 E1) as [_ C]. specialize (C Len).
        split; [auto|]. split; [auto|]. split; [split; auto|].
        intros t k B. destruct (E2 t k B) as (e' & D1 & D2). destruct (C e' D1) as (e & D3 & D4).
        exists e. split; auto. eapply similar_trans; eauto.
      - destruct (plain_round Hd W R) as (W' & P & L & A & F1 & F2 & F3 & _). apply IH; auto.
        intros n Hn. apply (F3 n Hn).
    Qed.

    (** Provided that no edge is repeated in the given graph, the iteration ends with a graph to which
        no edges could be added in the last pass.  The order of the edges in the lists may have
        changed in that, and edges may have been replaced by equal ones. *)
    Theorem C50_composition_to_a_fixed_point h :
      co_fix c = true -> (forall n, In n (ids g) -> unrepeated eeq (es g n)) ->
      composes X g c eeq ehash cut kills (Done (Some h, None)) ->
      Permutation (ids h) (ids g) /\ vx h = vx g /\
      exists E L A, local_values c E (ids g) (vx g) L /\ adjacent_values c E (ids g) (vx g) A /\
        forall n, In n (ids g) -> unrepeated eeq (E n) /\ unrepeated eeq (es h n) /\ 
          alike (E n) (es h n) /\ saturated E L A n.
    Proof.
      intros Hf U H. pose proof W as W0. rewrite <- graph_eta in W0. apply (plain_fixed W0 U Hf H).
    Qed.

    (** If the properties do not depend on the order of the edges and no two labels are considered equal,
        then another pass would add no edges. *)
    Definition unordered (p : prop) : Prop :=
      forall v l l' w, Permutation l l' -> has_value p v [] l w -> has_value p v [] l' w.
  End Claims.

  Theorem C50_another_pass_would_add_nothing h :
    destructive c = false -> wf g -> co_fix c = true -> (forall x y, eeq x y = true -> x = y) ->
    unordered (local_prop c) -> unordered (adjacent_prop c) ->
    (forall n, In n (ids g) -> NoDup (es g n)) ->
    composes X g c eeq ehash cut kills (Done (Some h, None)) ->
    exists L A, local_values c (es h) (ids h) (vx h) L /\ adjacent_values c (es h) (ids h) (vx h) A /\
      forall n t k, In n (ids h) -> bypass c (es h) L A n t k -> In (t, k) (es h n).
  Proof.
    intros Hd W Hf Hq Ul Ua U H.
    assert (Q : forall e e', similar eeq e e' -> e = e').
    { intros [l m] [l' m'] [B1 B2]. simpl in *. apply Hq in B2. congruence. }
    assert (ND : forall l, NoDup l -> unrepeated eeq l).
    { induction 1 as [|e l Hn _ IH]; constructor; auto. apply Forall_forall. intros x Hx S. apply Q in S. now subst. }
    assert (DN : forall l, unrepeated eeq l -> NoDup l).
    { induction l as [|e l IH]; intros B; constructor; apply unrepeated_cons in B as [B1 B2]; auto.
      intros Hin. apply (B2 e Hin). now apply similar_refl. }
    destruct (C50_composition_to_a_fixed_point Hd W Hf (fun n Hn => ND _ (U n Hn)) H) as (P & V & E & L & A & F1 & F2 & F3).
    assert (Pe : forall n, In n (ids g) -> Permutation (E n) (es h n)).
    { intros n Hn. destruct (F3 n Hn) as (B1 & B2 & [B3 B4] & _). apply NoDup_Permutation; auto.
      intros e. split; intros He'.
      - destruct (B3 e He') as (e' & C1 & C2). apply Q in C2. now subst.
      - destruct (B4 e He') as (e' & C1 & C2). apply Q in C2. now subst. }
    assert (Vi : forall p M, unordered p -> (forall n, In n (ids g) -> has_value p (vx g n) [] (outward E (vx g) n) (M n)) ->
                 forall n, In n (ids h) -> has_value p (vx h n) [] (outward (es h) (vx h) n) (M n)).
    { intros p M Up B n Hn. rewrite V. apply (Permutation_in _ P) in Hn. eapply Up; [|apply B; auto].
      unfold outward. apply Permutation_map. now apply Pe. }
    exists L, A. split; [exact (Vi _ _ Ul F1)|]. split; [exact (Vi _ _ Ua F2)|].
    intros n t k Hn (l & m & l' & B1 & B2 & B3). apply (Permutation_in _ P) in Hn.
    assert (C1 : In (l, m) (E n)) by (apply (Permutation_in _ (Permutation_sym (Pe n Hn))); auto).
    assert (Hm : In m (ids g)).
    { apply (Permutation_in _ P). pose proof W as W0. rewrite <- graph_eta in W0.
      destruct (C27_iterated Hd W H) as [(h' & k' & [= <-] & C)|(? & C)]; [|discriminate].
      assert (Wh : wf h) by (clear -C; induction C as [? ? (B & _)|]; auto).
      eapply (wf_closed Wh); eauto. apply (Permutation_in _ (Permutation_sym P)). auto. }
    destruct (F3 n Hn) as (_ & _ & _ & S). destruct (S t k) as (e & C3 & C4).
    { exists l, m, l'. split; auto. split; auto. apply (Permutation_in _ (Permutation_sym (Pe m Hm))); auto. }
    apply Q in C4. subst e. apply (Permutation_in _ (Pe n Hn)). auto.
  Qed.

  (** ** Deletion *)
  Theorem C28_deletion_if_labels_are_distinct h :
    wf g -> destructive c = true -> co_fix c = false ->
    (forall n, In n (ids g) -> ForallOrdPairs (fun e e' => eeq (fst e) (fst e') = false) (es g n)) ->
    (forall n L A t k e, In n (ids g) -> local_values c (es g) (ids g) (vx g) L -> adjacent_values c (es g) (ids g) (vx g) A ->
       bypass c (es g) L A n t k -> In e (es g n) -> eeq t (fst e) = false) ->
    composes X g c eeq ehash cut kills (Done (Some h, None)) ->
    root h = root g /\ vx h = vx g /\ NoDup (ids h) /\ (forall n, In n (ids h) <-> path h (root h) n) /\
    (forall n, In n (ids h) -> In n (ids g)) /\
    exists L A, local_values c (es g) (ids g) (vx g) L /\ adjacent_values c (es g) (ids g) (vx g) A /\
      forall n, In n (ids g) ->
        (forall e, In e (es g n) -> (In e (es h n) <-> ~ launching c (es g) L A n e)) /\
        (forall t k, bypass c (es g) L A n t k -> exists e, In e (es h n) /\ similar eeq (t, k) e) /\
        (forall e, In e (es h n) -> In e (es g n) \/ bypass c (es g) L A n (fst e) (snd e)) /\
        unrepeated eeq (es h n).
  Proof.
    intros W Hd Hf Dist Fr H. pose proof W as W0. rewrite <- graph_eta in W0. apply started in H as (i0 & old0 & H).
    remember (Done (Some h, None)) as v eqn:Ev. remember (es g) as o eqn:Eo.
    destruct H as [i old o s order e' R O St|i old o s n e' R St Hn Hd' Hc|i old o s o' sq order R G O|
      i old o s o' sq R G Hk|i old o s o' sq v R G Hk R']; try discriminate.
    2:{ rewrite Hf in G. discriminate. }
    destruct (pruned (r_pruned R)) as (P1 & P2 & P3 & P4 & P5). rewrite P5 in Ev by exact O.
    injection Ev as <-. simpl. rewrite P3. split; auto. split; auto. split; auto.
    destruct (round_facts W0 R) as (L & A & EL & EA & F1 & F2 & F3 & F4 & F5 & F6).
    assert (AI : forall n, along o (root g) n <-> In n (ids g)) by (intros n; exact (along_ids n W0)).
    assert (Sub : forall n e, In e (o' n) -> In n (ids g) -> In (snd e) (ids g)).
    { intros n [l m] Hin Hn. rewrite F5 in Hin. apply filter_In in Hin as [Hin _].
      destruct (x_only (proj2 (F4 n Hn)) _ Hin) as [B|(l1 & m1 & l2 & B1 & B2 & _)]; simpl in *.
      - subst o. eapply (wf_closed W); eauto.
      - subst o. eapply (wf_closed W); [|exact B2]. eapply (wf_closed W); eauto. }
    split; [|split].
    { intros n. rewrite P2. split; (induction 1 as [|? ? ? ? ? ?]; [constructor|econstructor; eauto]). }
    { intros n Hn. apply P2 in Hn. induction Hn as [|n l m B1 B2 B3]; [apply (wf_root W)|].
      exact (Sub n (l, m) B3 B2). }
    exists L, A. split; auto. split; auto. intros n Hn. destruct (F4 n Hn) as [_ [E1 E2 E3 E4]].
    assert (Hc : snd (composed c o L A n) = None).
    { subst L A. apply (r_composed R); [now apply F3|now apply all_done]. }
    destruct (composed_ok _ _ _ _ _ Hc) as (_ & _ & Del).
    assert (Same : forall e e', In e (o n) -> In e' (o n) -> eeq (fst e) (fst e') = true -> e = e').
    { intros e e' B1 B2 B3. destruct (ForallOrdPairs_In (Dist n Hn) e e' B1 B2) as [B|[B|B]]; auto; [congruence|].
      rewrite (eqv_symb He) in B3. congruence. }
    assert (Dl : forall l, deletable c o L A n l = true <-> exists m, launching c o L A n (l, m)).
    { intros l. unfold deletable. rewrite Hd, <- Del. simpl. rewrite existsb_exists. split.
      - intros (x & B1 & B2). apply N.eqb_eq in B2. now subst.
      - intros B. exists l. split; auto. apply N.eqb_refl. }
    rewrite F5. split; [|split; [|split]].
    - intros e Hin. rewrite filter_In, negb_true_iff. split.
      + intros [_ B] La. assert (D : deletable c o L A n (fst e) = true) by (apply Dl; exists (snd e); destruct e; exact La). congruence.
      + intros La. split.
        * destruct (E1 e Hin) as (e' & B1 & B2 & B3). destruct (E3 e' B1) as [B|B].
          -- now rewrite (Same e e' Hin B B3).
          -- rewrite (eqv_symb He) in B3. rewrite (Fr n L A _ _ e Hn F1 F2 B Hin) in B3. discriminate.
        * destruct (deletable c o L A n (fst e)) eqn:D; auto. exfalso. apply La. apply Dl in D as (m & D).
          assert (B : (fst e, m) = e); [|now rewrite <- B].
          apply Same; auto; [apply D|]. simpl. apply (eqv_refl He).
    - intros t k B. destruct (E2 t k B) as (e & B1 & B2 & B3). exists e. split; [|split; auto].
      apply filter_In. split; auto. apply negb_true_iff. destruct (deletable c o L A n (fst e)) eqn:D; auto.
      exfalso. apply Dl in D as (m & D & _). pose proof (Fr n L A t k _ Hn F1 F2 B D) as C. simpl in *. congruence.
    - intros e B. apply filter_In in B as [B _]. auto.
    - clear -E4. unfold unrepeated in *. induction E4 as [|x l B1 B2 IH]; simpl; [constructor|].
      destruct (negb _); auto. constructor; auto. rewrite Forall_forall in *. intros y Hy. apply filter_In in Hy as [Hy _]. auto.
  Qed.
End Round.

(** ** Runs with a schedule in which all threads take turns *)
Fixpoint run_rounds X g c eeq ehash cut kills (fuel k i : nat) (old : list nat) (o : edges) : option cverdict :=
  match fuel with
  | 0 => None
  | S fuel =>
      let all := seq 0 (lanes X) in
      let y := sched_run (lanes X) (walk_dest X) (guarding X g c o) (vstart gstart) (initial (root g)) k in
      let s := sh y in
      let co := composed c o (loc (data s)) (adj (data s)) in
      match mainpc y, pass_status all s with
      | MDone, Some e => Some (Done (None, Some e))
      | MDone, None =>
          match find (fun n => done X cut i (data s) n && is_some (snd (co n))) (surv (data s)) with
          | Some n => match snd (co n) with Some e => Some (Done (None, Some e)) | None => None end
          | None =>
              let o' := bypass_edges X c eeq ehash o (loc (data s)) (adj (data s)) (done X cut i (data s)) in
              let z := sched_run (lanes X) (walk_dest X) (cpruning (in_pass X kills i) o') (vstart []) (initial (root g)) k in
              match mainpc z with
              | MDone =>
                  if co_fix c && grown X c eeq ehash cut i o s then
                    if existsb (lkil (sh z)) all then Some Crashed
                    else run_rounds X g c eeq ehash cut kills fuel k (S i)
                           (filter (fun n => negb (existsb (Nat.eqb n) (data (sh z)))) (surv (data s) ++ old)) o'
                  else Some (Done (match end_status X kills i (surv (data s) ++ old) all (sh z) with
                                   | None => (Some (mkGraph (queued X (sh z)) (vx g) o' (root g)), None)
                                   | Some e => (None, Some e)
                                   end))
              | _ => None
              end
          end
      | _, _ => None
      end
  end.

Lemma status_any X {S} order order' (s : @vst S nat) :
  Permutation order (seq 0 (lanes X)) -> Permutation order' (seq 0 (lanes X)) ->
  pass_status order s = None -> pass_status order' s = None.
Proof.
  unfold pass_status. intros P P'. rewrite !first_error_none. intros H l Hl. apply H.
  eapply Permutation_in; [symmetry; exact P|]. eapply Permutation_in; eauto.
Qed.

Lemma run_rounds_sound X g c eeq ehash cut kills fuel k : forall i old o v,
  run_rounds X g c eeq ehash cut kills fuel k i old o = Some v -> rounds X g c eeq ehash cut kills i old o v.
Proof.
  induction fuel as [|fuel IH]; cbn [run_rounds]; intros i old o v; [discriminate|].
  set (y := sched_run (lanes X) (walk_dest X) (guarding X g c o) _ _ k).
  destruct (mainpc y) eqn:E1; try discriminate. apply sched_ran in E1. fold y in E1.
  destruct (pass_status (seq 0 (lanes X)) (sh y)) as [e|] eqn:E2.
  { intros [= <-]. eapply rd_unguarded; eauto. }
  destruct (find _ _) as [n|] eqn:E3.
  { apply find_some in E3 as [B1 B2]. apply andb_true_iff in B2 as [B2 B3].
    destruct (snd (composed c o (loc (data (sh y))) (adj (data (sh y))) n)) as [e|] eqn:E4; [|discriminate].
    intros [= <-]. eapply rd_uncomposed; eauto. intros order P. exact (status_any _ _ (Permutation_refl _) P E2). }
  set (o' := bypass_edges X c eeq ehash o _ _ _).
  set (z := sched_run (lanes X) (walk_dest X) (cpruning (in_pass X kills i) o') _ _ k).
  destruct (mainpc z) eqn:E5; try discriminate. apply sched_ran in E5. fold z in E5.
  assert (R : round X g c eeq ehash cut kills i o (sh y) o' (sh z)).
  { constructor; auto.
    - intros order P. exact (status_any _ _ (Permutation_refl _) P E2).
    - intros n Hn Hd. pose proof (find_none _ _ E3 n Hn) as B. cbn beta in B. rewrite Hd in B.
      destruct (snd (composed c o (loc (data (sh y))) (adj (data (sh y))) n)); [discriminate|auto]. }
  destruct (co_fix c && grown X c eeq ehash cut i o (sh y)) eqn:E6.
  - destruct (existsb (lkil (sh z)) (seq 0 (lanes X))) eqn:E7.
    + intros [= <-]. eapply rd_crash; eauto.
    + intros H. apply IH in H. eapply rd_next; eauto.
  - intros [= <-]. eapply rd_last; eauto.
Qed.

Definition run_compose X g c eeq ehash cut kills fuel k := run_rounds X g c eeq ehash cut kills fuel k 0 [] (es g).
Definition graph_in (v : option cverdict) : graph word word :=
  match v with Some (Done (Some h, _)) => h | _ => mkGraph [] (fun _ => null) (fun _ => []) 0 end.
Definition shown (v : option cverdict) : list (nat * list edge) :=
  map (fun n => (n, es (graph_in v) n)) (ids (graph_in v)).

Lemma run_compose_ran X g c eeq ehash cut kills fuel k :
  match run_compose X g c eeq ehash cut kills fuel k with Some (Done (Some _, None)) => true | _ => false end = true ->
  composes X g c eeq ehash cut kills (Done (Some (graph_in (run_compose X g c eeq ehash cut kills fuel k)), None)).
Proof.
  intros H. apply run_rounds_sound with (fuel := fuel) (k := k). fold (run_compose X g c eeq ehash cut kills fuel k).
  destruct (run_compose X g c eeq ehash cut kills fuel k) as [[|[[h|] [e|]]]|]; try discriminate. reflexivity.
Qed.

(** ** Examples *)
Definition no_cut (i l : nat) : option nat := None.
Definition identity_fold : fold := mkFold (Some identity_top) None None None None None.
(** The vertex itself, and the sum of the labels of its outgoing edges plus the vertex *)
Definition vertex_itself : prop := mkProp identity_fold no_fold no_fold.
Definition label_sum : fold := mkFold None (Some (fun _ l => (l, None))) (Some (fun x y => ((x + y)%N, None))) (Some (0%N, None)) None None.
Definition out_sum : prop := mkProp (mkFold (Some (fun _ v x => ((v + x)%N, None))) None None None None None) no_fold label_sum.
Definition in_sum : prop := mkProp (mkFold (Some (fun i _ _ => (i, None))) None None None None None) label_sum no_fold.

(** Labels are lengths, and a detour of at most a given length is shortened. *)
Definition short (f d : bool) : composer :=
  mkComposer (fun w x y z => (N.leb (x + z) (w + y), None)) (fun w x y z => ((x + z)%N, None)) out_sum vertex_itself d f.
Definition always (d f : bool) (q : word -> word -> word -> word -> outcome) : composer :=
  mkComposer (fun _ _ _ _ => (true, None)) q vertex_itself vertex_itself d f.
Definition sum_qop (w x y z : word) : outcome := ((x + z)%N, None).

Definition CG : graph word word :=
  mkGraph [1; 2; 3; 4; 5] N.of_nat
    (fun n => match n with
              | 1 => [(3%N, 2); (4%N, 3)] | 2 => [(2%N, 3); (9%N, 4)] | 3 => [(1%N, 4); (8%N, 5)]
              | 4 => [(5%N, 5); (1%N, 1)] | 5 => [(2%N, 2)] | _ => [] end) 1.
Definition crun1 := run_compose X3 CG (short false false) N.eqb (fun x => x) no_cut no_kills 5 300.

Lemma CG_wf : wf CG.
Proof.
  constructor; simpl.
  - repeat constructor; simpl; intuition lia.
  - auto.
  - intros n l m H E. repeat (destruct H as [<-|H]; [simpl in E; repeat (destruct E as [[= <- <-]|E]; [auto 9|]); destruct E|]). destruct H.
  - assert (H1 : path CG 1 1) by constructor.
    assert (H2 : path CG 1 2) by (econstructor; [exact H1|now left]).
    assert (H3 : path CG 1 3) by (econstructor; [exact H1|right; now left]).
    assert (H4 : path CG 1 4) by (econstructor; [exact H3|now left]).
    assert (H5 : path CG 1 5) by (econstructor; [exact H3|right; now left]).
    intros n H. repeat (destruct H as [<-|H]; [assumption|]). destruct H.
Qed.

Example C27_one_pass_ex :
  wf CG /\ composes X3 CG (short false false) N.eqb (fun x => x) no_cut no_kills (Done (Some (graph_in crun1), None)) /\
  shown crun1 =
    [(1, [(3%N, 2); (5%N, 3); (4%N, 3); (12%N, 4); (5%N, 4); (12%N, 5)]);
     (2, [(10%N, 1); (2%N, 3); (3%N, 4); (9%N, 4); (10%N, 5); (14%N, 5)]);
     (4, [(1%N, 1); (7%N, 2); (4%N, 2); (5%N, 3); (5%N, 5)]);
     (5, [(2%N, 2); (4%N, 3); (11%N, 4)]);
     (3, [(2%N, 1); (10%N, 2); (1%N, 4); (6%N, 5); (8%N, 5)])].
Proof.
  split; [exact CG_wf|]. split; [|vm_compute; reflexivity].
  unfold crun1. apply run_compose_ran. vm_compute. reflexivity.
Qed.

(** With another number of workers, the lists are in the same order, but not the nodes. *)
Definition crun1' := run_compose X1 CG (short false false) N.eqb (fun x => x) no_cut no_kills 5 300.
Example C27_schedule_is_immaterial_ex :
  composes X1 CG (short false false) N.eqb (fun x => x) no_cut no_kills (Done (Some (graph_in crun1'), None)) /\
  map (es (graph_in crun1')) [1; 2; 3; 4; 5] = map (es (graph_in crun1)) [1; 2; 3; 4; 5] /\
  ids (graph_in crun1') <> ids (graph_in crun1).
Proof.
  split; [unfold crun1'; apply run_compose_ran; vm_compute; reflexivity|].
  split; [vm_compute; reflexivity|]. vm_compute. discriminate.
Qed.

Definition failing : composer :=
  mkComposer (fun w x y z => (true, if N.eqb x 9 then Some (USERERR 50) else None)) sum_qop vertex_itself vertex_itself false false.
Example C27_errors_ex : composes X3 CG failing N.eqb (fun x => x) no_cut no_kills (Done (None, Some (USERERR 50))).
Proof.
  apply run_rounds_sound with (fuel := 2) (k := 300). vm_compute. reflexivity.
Qed.

(** A path with five vertices *)
Definition PG : graph word word :=
  mkGraph [1; 2; 3; 4; 5] N.of_nat
    (fun n => match n with 1 => [(1%N, 2)] | 2 => [(1%N, 3)] | 3 => [(1%N, 4)] | 4 => [(1%N, 5)] | _ => [] end) 1.
Lemma PG_wf : wf PG.
Proof.
  constructor; simpl.
  - repeat constructor; simpl; intuition lia.
  - auto.
  - intros n l m H E. repeat (destruct H as [<-|H]; [simpl in E; repeat (destruct E as [[= <- <-]|E]; [auto 9|]); destruct E|]). destruct H.
  - assert (H1 : path PG 1 1) by constructor.
    assert (H2 : path PG 1 2) by (econstructor; [exact H1|now left]).
    assert (H3 : path PG 1 3) by (econstructor; [exact H2|now left]).
    assert (H4 : path PG 1 4) by (econstructor; [exact H3|now left]).
    assert (H5 : path PG 1 5) by (econstructor; [exact H4|now left]).
    intros n H. repeat (destruct H as [<-|H]; [assumption|]). destruct H.
Qed.
Definition crun2 := run_compose X3 PG (always false true sum_qop) N.eqb (fun x => x) no_cut no_kills 9 300.

Lemma itself_value v ins outs w : has_value vertex_itself v ins outs w <-> w = v.
Proof.
  unfold has_value. cbn. unfold applied, note_made. cbn. split.
  - intros (s & s1 & s2 & H & _). destruct (is_null v); cbn in H; congruence.
  - intros ->. destruct (is_null v); cbn; do 3 eexists; split; reflexivity.
Qed.
Lemma itself_unordered : unordered vertex_itself.
Proof. intros v l l' w _ H. apply itself_value. now apply itself_value in H. Qed.

Example C50_composition_ex :
  wf PG /\ composes X3 PG (always false true sum_qop) N.eqb (fun x => x) no_cut no_kills (Done (Some (graph_in crun2), None)) /\
  unordered (local_prop (always false true sum_qop)) /\ unordered (adjacent_prop (always false true sum_qop)) /\
  (forall n, In n (ids PG) -> NoDup (es PG n)) /\ ids (graph_in crun2) = [1; 2; 4; 5; 3] /\
  map (es (graph_in crun2)) [1; 2; 3; 4; 5] =
    [[(1%N, 2); (2%N, 3); (3%N, 4); (4%N, 5)]; [(1%N, 3); (2%N, 4); (3%N, 5)]; [(1%N, 4); (2%N, 5)]; [(1%N, 5)]; []].
Proof.
  split; [exact PG_wf|]. split; [unfold crun2; apply run_compose_ran; vm_compute; reflexivity|].
  split; [exact itself_unordered|]. split; [exact itself_unordered|]. split.
  { intros n H. repeat (destruct H as [<-|H]; [repeat constructor; simpl; intuition congruence|]). destruct H. }
  split; vm_compute; reflexivity.
Qed.

(** ** What falls short *)

(** Some edges may be repeated, and then the number of edges removed as duplicates may be the same as
    that of edges added at each vertex. *)
Definition RG : graph word word :=
  mkGraph [1; 2; 3; 4] N.of_nat
    (fun n => match n with 1 => [(1%N, 2); (1%N, 2)] | 2 => [(1%N, 3); (1%N, 3)] | 3 => [(1%N, 4)] | _ => [] end) 1.
Lemma RG_wf : wf RG.
Proof.
  constructor; simpl.
  - repeat constructor; simpl; intuition lia.
  - auto.
  - intros n l m H E. repeat (destruct H as [<-|H]; [simpl in E; repeat (destruct E as [[= <- <-]|E]; [auto 9|]); destruct E|]). destruct H.
  - assert (H1 : path RG 1 1) by constructor.
    assert (H2 : path RG 1 2) by (econstructor; [exact H1|now left]).
    assert (H3 : path RG 1 3) by (econstructor; [exact H2|now left]).
    assert (H4 : path RG 1 4) by (econstructor; [exact H3|now left]).
    intros n H. repeat (destruct H as [<-|H]; [assumption|]). destruct H.
Qed.
Definition crun3 := run_compose X3 RG (always false true sum_qop) N.eqb (fun x => x) no_cut no_kills 9 300.
Theorem C50_composition_refuted :
  exists X g c h, wf g /\ 0 < lanes X /\ destructive c = false /\ co_fix c = true /\
    composes X g c N.eqb (fun x => x) no_cut no_kills (Done (Some h, None)) /\
    exists n t k, In n (ids h) /\ (forall L A, bypass c (es h) L A n t k) /\
      forall e, In e (es h n) -> ~ similar N.eqb (t, k) e.
Proof.
  exists X3, RG, (always false true sum_qop), (graph_in crun3).
  split; [exact RG_wf|]. split; [simpl; lia|]. split; [auto|]. split; [auto|].
  split; [unfold crun3; apply run_compose_ran; vm_compute; reflexivity|].
  assert (E1 : es (graph_in crun3) 1 = [(1%N, 2); (2%N, 3)]) by (vm_compute; reflexivity).
  assert (E2 : es (graph_in crun3) 2 = [(1%N, 3); (2%N, 4)]) by (vm_compute; reflexivity).
  exists 1, 3%N, 4. split; [vm_compute; auto|]. split.
  - intros L A. exists 1%N, 2, 2%N. rewrite E1, E2. split; [now left|]. split; [right; now left|]. split; reflexivity.
  - rewrite E1. intros e [<-|[<-|[]]] [B1 B2]; discriminate.
Qed.

(** Deletion is by labels: an edge is deleted if another one with the same label launches a
    composition. *)
Definition SG : graph word word :=
  mkGraph [1; 2; 3; 4] N.of_nat
    (fun n => match n with 1 => [(5%N, 2); (5%N, 3)] | 2 => [(6%N, 4)] | _ => [] end) 1.
Lemma SG_wf : wf SG.
Proof.
  constructor; simpl.
  - repeat constructor; simpl; intuition lia.
  - auto.
  - intros n l m H E. repeat (destruct H as [<-|H]; [simpl in E; repeat (destruct E as [[= <- <-]|E]; [auto 9|]); destruct E|]). destruct H.
  - assert (H1 : path SG 1 1) by constructor.
    assert (H2 : path SG 1 2) by (econstructor; [exact H1|now left]).
    assert (H3 : path SG 1 3) by (econstructor; [exact H1|right; now left]).
    assert (H4 : path SG 1 4) by (econstructor; [exact H2|now left]).
    intros n H. repeat (destruct H as [<-|H]; [assumption|]). destruct H.
Qed.
Definition crun4 := run_compose X3 SG (always true false sum_qop) N.eqb (fun x => x) no_cut no_kills 9 300.
Theorem C28_other_edges_refuted :
  exists X g c h, wf g /\ 0 < lanes X /\ destructive c = true /\ co_fix c = false /\
    composes X g c N.eqb (fun x => x) no_cut no_kills (Done (Some h, None)) /\
    exists n e, In n (ids h) /\ In e (es g n) /\ (forall L A, ~ launching c (es g) L A n e) /\
      ~ In e (es h n) /\ ~ In (snd e) (ids h).
Proof.
  exists X3, SG, (always true false sum_qop), (graph_in crun4).
  split; [exact SG_wf|]. split; [simpl; lia|]. split; [auto|]. split; [auto|].
  split; [unfold crun4; apply run_compose_ran; vm_compute; reflexivity|].
  assert (E1 : es (graph_in crun4) 1 = [(11%N, 4)]) by (vm_compute; reflexivity).
  assert (E2 : ids (graph_in crun4) = [1; 4]) by (vm_compute; reflexivity).
  exists 1, (5%N, 3). rewrite E1, E2. split; [now left|]. split; [right; now left|]. split; [|split].
  - intros L A (_ & l' & k & [] & _).
  - intros [H|[]]. discriminate.
  - simpl. intuition lia.
Qed.

(** The new edges are deleted themselves if they have the labels they are given by default. *)
Definition crun5 := run_compose X3 PG (always true false identity_qop) N.eqb (fun x => x) no_cut no_kills 9 300.
Theorem C28_new_edges_refuted :
  exists X g c h, wf g /\ 0 < lanes X /\ destructive c = true /\ qop c = identity_qop /\
    composes X g c N.eqb (fun x => x) no_cut no_kills (Done (Some h, None)) /\
    exists n t k, In n (ids h) /\ (forall L A, bypass c (es g) L A n t k) /\
      (forall e, In e (es h n) -> ~ similar N.eqb (t, k) e) /\ ids h = [root g] /\ 1 < length (ids g).
Proof.
  exists X3, PG, (always true false identity_qop), (graph_in crun5).
  split; [exact PG_wf|]. split; [simpl; lia|]. split; [auto|]. split; [auto|].
  split; [unfold crun5; apply run_compose_ran; vm_compute; reflexivity|].
  assert (E1 : es (graph_in crun5) 1 = []) by (vm_compute; reflexivity).
  assert (E2 : ids (graph_in crun5) = [1]) by (vm_compute; reflexivity).
  exists 1, 1%N, 3. rewrite E1, E2. split; [now left|]. split; [|split; [intros ? []|split; [auto|simpl; lia]]].
  intros L A. exists 1%N, 2, 1%N. split; [now left|]. split; [now left|]. split; reflexivity.
Qed.

(** Labels that are all different and stay so *)
Definition DG2 : graph word word :=
  mkGraph [1; 2; 3; 4] N.of_nat
    (fun n => match n with 1 => [(5%N, 2); (7%N, 3)] | 2 => [(6%N, 4); (8%N, 1)] | _ => [] end) 1.
Lemma DG2_wf : wf DG2.
Proof.
  constructor; simpl.
  - repeat constructor; simpl; intuition lia.
  - auto.
  - intros n l m H E. repeat (destruct H as [<-|H]; [simpl in E; repeat (destruct E as [[= <- <-]|E]; [auto 9|]); destruct E|]). destruct H.
  - assert (H1 : path DG2 1 1) by constructor.
    assert (H2 : path DG2 1 2) by (econstructor; [exact H1|now left]).
    assert (H3 : path DG2 1 3) by (econstructor; [exact H1|right; now left]).
    assert (H4 : path DG2 1 4) by (econstructor; [exact H2|now left]).
    intros n H. repeat (destruct H as [<-|H]; [assumption|]). destruct H.
Qed.
Definition crun6 := run_compose X3 DG2 (always true false sum_qop) N.eqb (fun x => x) no_cut no_kills 9 300.
Example C28_deletion_ex :
  wf DG2 /\ (forall n, In n (ids DG2) -> ForallOrdPairs (fun e e' => N.eqb (fst e) (fst e') = false) (es DG2 n)) /\
  (forall n L A t k e, In n (ids DG2) -> bypass (always true false sum_qop) (es DG2) L A n t k -> In e (es DG2 n) ->
     N.eqb t (fst e) = false) /\
  composes X3 DG2 (always true false sum_qop) N.eqb (fun x => x) no_cut no_kills (Done (Some (graph_in crun6), None)) /\
  shown crun6 = [(1, [(13%N, 1); (7%N, 3); (11%N, 4)]); (4, []); (3, [])].
Proof.
  split; [exact DG2_wf|]. split; [|split; [|split]].
  - intros n H. repeat (destruct H as [<-|H]; [repeat constructor|]). destruct H.
  - intros n L A t k e Hn (l & m & l' & B1 & B2 & _ & ->) He.
    repeat (destruct Hn as [<-|Hn]; [cbn in B1, He; repeat (destruct B1 as [[= <- <-]|B1];
      [cbn in B2; repeat (destruct B2 as [[= <- <-]|B2]; [repeat (destruct He as [<-|He]; [reflexivity|]); destruct He|]); destruct B2|]);
      destruct B1|]). destruct Hn.
  - unfold crun6. apply run_compose_ran. vm_compute. reflexivity.
  - vm_compute. reflexivity.
Qed.

(** According to cru_composer(7) the third operand is "the adjacent property of the adjacent vertex", and
    cru_prop_pair(7) calls that "the intermediate vertex". *)
Definition documented_bypass (c : composer) (E : edges) (L A : nat -> word) (n : nat) (t : word) (k : nat) : Prop :=
  exists l m l', In (l, m) (E n) /\ In (l', k) (E m) /\ qualified c L A n l m l' /\ t = fst (qop c (L n) l (A m) l').

Definition by_middle : composer :=
  mkComposer (fun _ _ y _ => (N.eqb y 2, None)) sum_qop vertex_itself vertex_itself false false.
Definition crun7 := run_compose X3 PG by_middle N.eqb (fun x => x) no_cut no_kills 9 300.
Definition by_end : composer :=
  mkComposer (fun _ _ y _ => (N.eqb y 3, None)) sum_qop vertex_itself vertex_itself false false.
Definition crun8 := run_compose X3 PG by_end N.eqb (fun x => x) no_cut no_kills 9 300.

Theorem C67_operands_refuted :
  exists X g c h, wf g /\ 0 < lanes X /\ destructive c = false /\ co_fix c = false /\
    composes X g c N.eqb (fun x => x) no_cut no_kills (Done (Some h, None)) /\
    (forall L A, local_values c (es g) (ids g) (vx g) L -> adjacent_values c (es g) (ids g) (vx g) A ->
       (exists n t k, In n (ids g) /\ documented_bypass c (es g) L A n t k /\
          forall e, In e (es h n) -> ~ similar N.eqb (t, k) e)).
Proof.
  exists X3, PG, by_middle, (graph_in crun7).
  split; [exact PG_wf|]. split; [simpl; lia|]. split; [auto|]. split; [auto|].
  split; [unfold crun7; apply run_compose_ran; vm_compute; reflexivity|].
  intros L A _ HA. exists 1, 2%N, 3. split; [now left|]. split.
  - exists 1%N, 2, 1%N. split; [now left|]. split; [now left|]. split; [|reflexivity]. unfold qualified. simpl.
    assert (B : A 2 = 2%N) by (specialize (HA 2); simpl in HA; rewrite itself_value in HA; apply HA; auto).
    now rewrite B.
  - assert (E1 : es (graph_in crun7) 1 = [(1%N, 2)]) by (vm_compute; reflexivity). rewrite E1.
    intros e [<-|[]] [B1 B2]; discriminate.
Qed.

Theorem C67_unwarranted_edge_refuted :
  exists X g c h, wf g /\ 0 < lanes X /\ destructive c = false /\ co_fix c = false /\
    composes X g c N.eqb (fun x => x) no_cut no_kills (Done (Some h, None)) /\
    (forall L A, local_values c (es g) (ids g) (vx g) L -> adjacent_values c (es g) (ids g) (vx g) A ->
       exists n t k, In n (ids g) /\ In (t, k) (es h n) /\ ~ In (t, k) (es g n) /\ ~ documented_bypass c (es g) L A n t k).
Proof.
  exists X3, PG, by_end, (graph_in crun8).
  split; [exact PG_wf|]. split; [simpl; lia|]. split; [auto|]. split; [auto|].
  split; [unfold crun8; apply run_compose_ran; vm_compute; reflexivity|].
  intros L A _ HA. exists 1, 2%N, 3. split; [now left|].
  assert (E1 : es (graph_in crun8) 1 = [(1%N, 2); (2%N, 3)]) by (vm_compute; reflexivity). rewrite E1.
  split; [right; now left|]. split; [intros [H|[]]; discriminate|].
  intros (l & m & l' & B1 & B2 & B3 & _). destruct B1 as [[= <- <-]|[]]. unfold qualified in B3. simpl in B3.
  assert (B : A 2 = 2%N) by (specialize (HA 2); simpl in HA; rewrite itself_value in HA; apply HA; auto).
  rewrite B in B3. discriminate.
Qed.

(** According to cru_prop_pair(7), the properties depend on the edges of a vertex and its adjacent
    vertices "in either direction". *)
Definition inward (g : graph word word) (n : nat) : list redge :=
  flat_map (fun m => map (fun e => (fst e, vx g m)) (filter (fun e => snd e =? n) (es g m))) (ids g).
Definition true_value (p : prop) (g : graph word word) (n : nat) (w : word) : Prop :=
  has_value p (vx g n) (inward g n) (outward (es g) (vx g) n) w.

Definition by_incident : composer :=
  mkComposer (fun w _ _ _ => (N.eqb w 1, None)) sum_qop in_sum vertex_itself false false.
Definition crun9 := run_compose X3 PG by_incident N.eqb (fun x => x) no_cut no_kills 9 300.
Theorem C68_incident_properties_refuted :
  exists X g c h, wf g /\ 0 < lanes X /\ destructive c = false /\ co_fix c = false /\
    composes X g c N.eqb (fun x => x) no_cut no_kills (Done (Some h, None)) /\
    (forall L A, (forall n, In n (ids g) -> true_value (local_prop c) g n (L n)) ->
       exists n t k, In n (ids g) /\ bypass c (es g) L A n t k /\ forall e, In e (es h n) -> ~ similar N.eqb (t, k) e) /\
    exists L, forall n, In n (ids g) -> true_value (local_prop c) g n (L n).
Proof.
  exists X3, PG, by_incident, (graph_in crun9).
  split; [exact PG_wf|]. split; [simpl; lia|]. split; [auto|]. split; [auto|].
  split; [unfold crun9; apply run_compose_ran; vm_compute; reflexivity|].
  assert (V : forall n, In n [2; 3; 4; 5] -> forall w, true_value in_sum PG n w <-> w = 1%N).
  { intros n Hn w. repeat (destruct Hn as [<-|Hn]; [unfold true_value, has_value; vm_compute; split;
      [intros (s & s1 & s2 & H & _); now injection H as <- _ _|intros ->; do 3 eexists; split; reflexivity]|]). destruct Hn. }
  split.
  - intros L A HL. exists 2, 2%N, 4. split; [simpl; auto|]. split.
    + exists 1%N, 3, 1%N. split; [now left|]. split; [now left|]. split; [|reflexivity]. unfold qualified. simpl.
      rewrite (proj1 (V 2 (or_introl eq_refl) (L 2)) (HL 2 (or_intror (or_introl eq_refl)))). reflexivity.
    + assert (E1 : es (graph_in crun9) 2 = [(1%N, 3)]) by (vm_compute; reflexivity). rewrite E1.
      intros e [<-|[]] [B1 B2]; discriminate.
  - exists (fun n => if n =? 1 then 0%N else 1%N). intros n Hn.
    destruct Hn as [<-|Hn]; [unfold true_value, has_value; vm_compute; do 3 eexists; split; reflexivity|].
    assert (E : (n =? 1) = false) by (apply Nat.eqb_neq; intros ->; simpl in Hn; intuition lia).
    rewrite E. now apply V.
Qed.

(** Without a vacuous case, which isn't needed if every vertex has an incoming edge, there is an error. *)
Definition label_max : fold := mkFold None (Some (fun _ l => (l, None))) (Some (fun x y => (N.max x y, None))) None None None.
Definition in_max : prop := mkProp (mkFold (Some (fun i _ _ => (i, None))) None None None None None) label_max no_fold.
Definition by_max : composer := mkComposer (fun _ _ _ _ => (true, None)) sum_qop in_max vertex_itself false false.
Theorem C68_spurious_error_refuted :
  exists X g c, wf g /\ 0 < lanes X /\
    composes X g c N.eqb (fun x => x) no_cut no_kills (Done (None, Some UNDVAC)) /\
    (exists L A, forall n, In n (ids g) -> true_value (local_prop c) g n (L n) /\ true_value (adjacent_prop c) g n (A n)) /\
    (forall w x y z, snd (qpred c w x y z) = None /\ snd (qop c w x y z) = None).
Proof.
  exists X3, CG, by_max. split; [exact CG_wf|]. split; [simpl; lia|]. split; [|split; [|auto]].
  - apply run_rounds_sound with (fuel := 2) (k := 300). vm_compute. reflexivity.
  - exists (fun n => match n with 1 => 1%N | 2 => 3%N | 3 => 4%N | 4 => 9%N | _ => 8%N end), N.of_nat.
    intros n Hn. repeat (destruct Hn as [<-|Hn]; [split; [unfold true_value, has_value; vm_compute; do 3 eexists; split; reflexivity|
      apply itself_value; reflexivity]|]). destruct Hn.
Qed.

(** A worker that notices a kill request while composing leaves out the remaining vertices, but this is
    not reported. *)
Definition LG : graph word word :=
  mkGraph (seq 1 40) N.of_nat (fun n => if (0 <? n) && (n <? 40) then [(1%N, S n)] else []) 1.
Lemma LG_wf : wf LG.
Proof.
  constructor; cbn [ids root es LG].
  - apply seq_NoDup.
  - apply in_seq. simpl. lia.
  - intros n l m H E. apply in_seq. apply in_seq in H. 
    destruct ((0 <? n) && (n <? 40)) eqn:B; [|destruct E]. destruct E as [[= <- <-]|[]].
    apply andb_true_iff in B as [B1 B2]. apply Nat.ltb_lt in B1, B2. lia.
  - assert (H : forall k, k < 40 -> path LG 1 (S k)).
    { induction k as [|k IH]; intros Hk; [constructor|]. eapply path_step; [apply IH; lia|]. cbn [es LG].
      assert (B : (0 <? S k) && (S k <? 40) = true) by (apply andb_true_iff; split; apply Nat.ltb_lt; lia).
      rewrite B. left. reflexivity. }
    intros n Hn. apply in_seq in Hn. destruct n as [|n]; [lia|]. apply H. lia.
Qed.
Definition cut_at (i l : nat) : option nat := if (i =? 0) && (l =? 0) then Some 0 else None.
Definition crun10 := run_compose X1n LG (always false false sum_qop) N.eqb (fun x => x) cut_at no_kills 3 400.
Theorem C36_composition_killed_refuted :
  exists X g c cut h, wf g /\ 0 < lanes X /\ destructive c = false /\ co_fix c = false /\ (exists l, cut 0 l <> None) /\
    composes X g c N.eqb (fun x => x) cut no_kills (Done (Some h, None)) /\
    exists n t k, In n (ids h) /\ (forall L A, bypass c (es g) L A n t k) /\ forall e, In e (es h n) -> ~ similar N.eqb (t, k) e.
Proof.
  exists X1n, LG, (always false false sum_qop), cut_at, (graph_in crun10).
  split; [exact LG_wf|]. split; [simpl; lia|]. split; [auto|]. split; [auto|]. split; [exists 0; discriminate|].
  split; [unfold crun10; apply run_compose_ran; vm_compute; reflexivity|].
  assert (E1 : es (graph_in crun10) 1 = [(1%N, 2)]) by (vm_compute; reflexivity).
  exists 1, 2%N, 3. rewrite E1. split; [vm_compute; auto|]. split.
  - intros L A. exists 1%N, 2, 1%N. split; [now left|]. split; [now left|]. split; reflexivity.
  - intros e [<-|[]] [B1 B2]; discriminate.
Qed.

(** A worker that notices one while pruning frees its nodes, and they are visited again if the
    composition is iterated. *)
Definition Xp : env := mkEnv 1 true (fun k => k mod 32 =? 31) (fun _ => false).
Theorem C36_iterated_composition_crash_refuted :
  exists X g c kills, wf g /\ 0 < lanes X /\ destructive c = false /\ co_fix c = true /\
    (forall i k, kills i k = true -> i = 0 /\ k = 3) /\
    composes X g c N.eqb (fun x => x) no_cut kills Crashed.
Proof.
  exists Xp, LG, (always false true sum_qop), (fun i k => (i =? 0) && (k =? 3)).
  split; [exact LG_wf|]. split; [simpl; lia|]. split; [auto|]. split; [auto|].
  split; [intros i k H; apply andb_true_iff in H as [H1 H2]; apply Nat.eqb_eq in H1, H2; auto|].
  apply run_rounds_sound with (fuel := 2) (k := 400). vm_compute. reflexivity.
Qed.
