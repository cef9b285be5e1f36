(** Invariants of deduplication. *)
From Coq Require Import List Arith NArith Lia Bool Permutation.
From Verif Require Import Base Machine Env Hash Graph Visitor VisitorProofs Walk Run Pass Fold Fabricate Containers P_Containers Brigade BrigadeProofs P_Brigade Partition Filter P_Filter Ports PortsTerm P_Ports Dedup.
Import ListNotations.

Set Implicit Arguments.

Section Proofs.
  Variable X : env.
  Variable g : graph word word.
  Variable veq : word -> word -> bool.
  Variable vhash : word -> N.
  Variable eeq : word -> word -> bool.
  Variable ehash : word -> N.
  Hypothesis Hv : equivalence veq.
  Hypothesis Hvh : forall x y, veq x y = true -> vhash x = vhash y.
  Hypothesis He : equivalence eeq.
  Hypothesis Heh : forall x y, eeq x y = true -> ehash x = ehash y.

  Notation deduplicating := (deduplicating X g veq vhash eeq ehash).
  Notation dstart := (dstart g).
  Notation edges_of := (edges_of g).
  Notation label := (label g).
  Notation target := (target g).
  Notation own_edges := (own_edges X g eeq ehash).

  Definition al (n m : nat) : Prop := veq (vx g n) (vx g m) = true.
  Definition sl (e e' : eid) : Prop := eeq (label e) (label e') = true.

  Lemma al_refl n : al n n. Proof. apply (eqv_refl Hv). Qed.
  Lemma al_sym n m : al n m -> al m n. Proof. apply (eqv_sym Hv). Qed.
  Lemma al_trans n m k : al n m -> al m k -> al n k. Proof. apply (eqv_trans Hv). Qed.
  Lemma sl_refl e : sl e e. Proof. apply (eqv_refl He). Qed.
  Lemma sl_sym n m : sl n m -> sl m n. Proof. apply (eqv_sym He). Qed.
  Lemma sl_trans n m k : sl n m -> sl m k -> sl n k. Proof. apply (eqv_trans He). Qed.

  Lemma same_al n m : same veq (vx g) n m = true <-> al n m.
  Proof.
    unfold same, al. rewrite orb_true_iff. split; auto. intros [H|H]; auto.
    apply N.eqb_eq in H. rewrite H. apply (eqv_refl Hv).
  Qed.

  Notation lane n := (clane X vhash (vx g) n).
  Notation slot n := (cslot X vhash (vx g) n).

  Definition isrep (s : ddata) (r : nat) : Prop := In r (cell (stored s (lane r)) (slot r)).
  Definition expanded (s : ddata) (n : nat) : Prop := isrep s n \/ In n (deletions s).

  Lemma al_place n r : al n r -> lane n = lane r /\ slot n = slot r.
  Proof. intros H. unfold clane, cslot, prop_hash. rewrite (Hvh H). auto. Qed.

  Lemma eid_eqb_eq e e' : eid_eqb e e' = true <-> e = e'.
  Proof.
    destruct e as [a b], e' as [c d]. unfold eid_eqb. simpl. rewrite andb_true_iff, !Nat.eqb_eq.
    split; [intros [-> ->]; auto|intros [= -> ->]; auto].
  Qed.
  Lemma redirect_same f e r : redirect f e r e = r.
  Proof. unfold redirect. now rewrite (proj2 (eid_eqb_eq e e) eq_refl). Qed.
  Lemma redirect_cases f e r e' : e' = e /\ redirect f e r e' = r \/ e' <> e /\ redirect f e r e' = f e'.
  Proof.
    unfold redirect. destruct (eid_eqb e' e) eqn:E.
    - apply eid_eqb_eq in E. auto.
    - right. split; auto. intros ->. rewrite (proj2 (eid_eqb_eq e e) eq_refl) in E. discriminate.
  Qed.

  (** The cases of the task *)
  Record owned (s : ddata) (n : nat) (kept lost : list eid) : Prop := {
    ow_perm : Permutation (outs s n) (kept ++ lost);
    ow_pair : ForallOrdPairs (fun x y => ~ (remote s x = remote s y /\ sl x y)) kept;
    ow_cover : forall x, In x (outs s n) -> exists y, In y kept /\ remote s y = remote s x /\ sl x y
  }.
  Lemma own_owned s n : owned s n (fst (own_edges s n)) (snd (own_edges s n)).
  Proof.
    destruct (C46_deduplication (judy X) ehash label (fun e => N.of_nat (remote s e)) (outs s n) He Heh) as (P & F & C).
    constructor; auto.
    - revert F. apply FOP_imp. intros x y _ _ H [H1 H2]. apply H. split; [congruence|exact H2].
    - intros x Hx. destruct (C x Hx) as (y & H1 & H2 & H3). exists y. do 2 (split; auto). now apply Nnat.Nat2N.inj.
  Qed.

  Record thinned (l kept lost : list eid) : Prop := {
    th_perm : Permutation l (kept ++ lost);
    th_pair : ForallOrdPairs (fun x y => eeq (label x) (label y) = false) kept;
    th_cover : forall x, In x l -> exists y, In y kept /\ sl x y
  }.
  Lemma rep_thinned l :
    thinned l (fst (repeating_labels eeq (judy X) ehash label l)) (snd (repeating_labels eeq (judy X) ehash label l)).
  Proof.
    destruct (@repeating_labels_dedup eid word eeq (judy X) ehash label He Heh l) as [P F C]. constructor; auto.
  Qed.

  Inductive move (s : ddata) : dpkt -> ddata -> list dpkt -> Prop :=
  | mv_broken p : broken s = true -> move s p s []
  | mv_fail n r out : broken s = false -> isrep s r -> al n r -> move s (n, None) (fail s) out
  | mv_stay n e : broken s = false -> isrep s n -> move s (n, Some e) s []
  | mv_graft n r e kept lost k x : broken s = false -> isrep s r -> al n r -> n <> r ->
      owned s n kept lost -> thinned (kept ++ outs s r) k x ->
      move s (n, Some e)
        (mkDD (upd (upd (outs s) n []) r k) (redirect (remote s) e r) (stored s)
              (if existsb (Nat.eqb n) (deletions s) then deletions s else n :: deletions s)
              (x ++ disconnections s) (lost ++ unlabelled s) false)
        (scattered s kept)
  | mv_new n c kept lost : broken s = false -> (forall r, isrep s r -> ~ al n r) ->
      owned s n kept lost ->
      move s (n, c)
        (mkDD (upd (outs s) n kept) (remote s)
              (upd (stored s) (lane n) (Containers.put (stored s (lane n)) (slot n) (cell (stored s (lane n)) (slot n) ++ [n])))
              (deletions s) (disconnections s) (lost ++ unlabelled s) false)
        (scattered s kept).

  Definition placed (s : ddata) : Prop :=
    forall l k r, In r (cell (stored s l) k) -> lane r = l /\ slot r = k.

  Lemma task_move s p s' out : deduplicating s p = Some (s', out) -> move s p s' out.
  Proof.
    destruct p as [n c]. unfold Dedup.deduplicating. cbn [fst snd].
    destruct (broken s) eqn:Hb; [intros [= <- <-]; now constructor|].
    destruct (find _ _) as [r|] eqn:F.
    - apply find_some in F as [F1 F2]. apply same_al in F2. destruct (al_place F2) as [P1 P2].
      assert (R : isrep s r) by (unfold isrep; congruence).
      destruct c as [e|].
      + destruct (Nat.eqb_spec n r) as [->|Hne]; [intros [= <- <-]; now constructor|].
        pose proof (own_owned s n) as O. destruct (own_edges s n) as [kept lost]. cbn [fst snd] in O.
        unfold grafted. pose proof (rep_thinned (kept ++ outs s r)) as T.
        destruct (repeating_labels _ _ _ _ _) as [k x]. cbn [fst snd] in T.
        intros [= <- <-]. rewrite Hb. now apply mv_graft.
      + intros [= <- <-]. now apply mv_fail with (r := r).
    - pose proof (own_owned s n) as O. destruct (own_edges s n) as [kept lost]. cbn [fst snd] in O.
      intros [= <- <-]. apply mv_new; auto. intros r R A. destruct (al_place A) as [P1 P2].
      apply find_none with (x := r) in F; [|rewrite P1, P2; exact R].
      apply same_al in A. congruence.
  Qed.

  Lemma edges_of_in e n : In e (edges_of n) -> fst e = n /\ In (label e, target e) (es g n).
  Proof.
    unfold Dedup.edges_of. intros H. apply in_map_iff in H as (i & <- & Hi). apply in_seq in Hi. split; auto.
    unfold Dedup.label, Dedup.target, described. cbn [fst snd]. rewrite <- surjective_pairing. apply nth_In. lia.
  Qed.
  Lemma in_edges_of n l k : In (l, k) (es g n) -> exists e, In e (edges_of n) /\ label e = l /\ target e = k.
  Proof.
    intros H. apply In_nth with (d := (null, 0)) in H as (i & Hi & E). exists (n, i).
    unfold Dedup.edges_of, Dedup.label, Dedup.target, described. cbn [fst snd]. rewrite E. split; auto.
    apply in_map. apply in_seq. lia.
  Qed.

  (** The invariant *)
  Record inv (s : ddata) (b : list dpkt) : Prop := {
    i_unbroken : broken s = false;
    i_placed : placed s;
    i_unique : forall r r', isrep s r -> isrep s r' -> al r r' -> r = r';
    i_deleted : forall n, In n (deletions s) -> outs s n = [] /\ exists r, isrep s r /\ al n r /\ n <> r;
    i_new : forall n, ~ expanded s n -> outs s n = edges_of n /\ forall e, In e (edges_of n) -> remote s e = target e;
    i_packet : forall n e, In (n, Some e) b -> n = target e /\ In e (edges_of (fst e)) /\ expanded s (fst e);
    i_root : (forall n, In (n, None) b -> n = root g /\ b = [(n, None)] /\ forall m, ~ expanded s m) /\
             (isrep s (root g) \/ In (root g, None) b);
    i_edge : forall r e, isrep s r -> In e (outs s r) ->
      In e (edges_of (fst e)) /\ expanded s (fst e) /\ al (fst e) r /\
      (In (target e, Some e) b \/ isrep s (remote s e) /\ al (target e) (remote s e));
    i_remote : forall e, remote s e = target e \/ isrep s (remote s e) /\ al (target e) (remote s e);
    i_follow : forall n e, expanded s n -> In e (edges_of n) ->
      expanded s (target e) \/ exists c, In (target e, c) b;
    i_label : forall n r e, expanded s n -> isrep s r -> al n r -> In e (edges_of n) ->
      exists e', In e' (outs s r) /\ sl e e';
    i_ids : wf g -> (forall n, expanded s n -> In n (ids g)) /\ (forall n c, In (n, c) b -> In n (ids g))
  }.

  Lemma inv_perm s b b' : Permutation b b' -> inv s b -> inv s b'.
  Proof.
    intros P [I1 I2 I3 I4 I5 I6 [I7 I7'] I8 Ir I9 I10 I11].
    assert (M : forall p, In p b <-> In p b') by (intros p; split; apply Permutation_in; auto; now symmetry).
    constructor; auto.
    - intros n e H. apply I6, M, H.
    - split; [|destruct I7' as [?|H]; [now left|right; now apply M]].
      intros n H. apply M in H. destruct (I7 n H) as (A & B & C). split; auto. split; auto.
      subst b. apply Permutation_length_1_inv in P. auto.
    - intros r e H1 H2. destruct (I8 r e H1 H2) as (A & B & C & [D|D]); repeat (split; auto). left. now apply M.
    - intros n e H1 H2. destruct (I9 n e H1 H2) as [A|(c & A)]; auto. right. exists c. now apply M.
    - intros W. destruct (I11 W) as [A B]. split; auto. intros n c H. apply (B n c), M, H.
  Qed.

  Lemma inv_start : inv dstart [(root g, None)].
  Proof.
    assert (N : forall n, ~ expanded dstart n) by (intros n [H|H]; exact H).
    constructor; simpl; auto.
    - intros l k r H. destruct H.
    - intros r r' H. destruct H.
    - tauto.
    - intros n e [H|H]; [discriminate|tauto].
    - split; [|auto]. intros n [H|[]]. injection H as <-. auto.
    - intros r e H. destruct H.
    - intros n r e H. destruct (N n H).
    - intros W. split; [intros n H; destruct (N _ H)|]. intros n c [H|[]]. injection H as <- _. apply wf_root, W.
  Qed.

  Lemma in_own s b n kept lost e : inv s b -> owned s n kept lost -> In e kept ->
    ~ expanded s n /\ In e (edges_of n) /\ remote s e = target e \/ isrep s n.
  Proof.
    intros I O K. assert (K' : In e (outs s n)).
    { eapply Permutation_in; [symmetry; apply (ow_perm O)|]. apply in_or_app. auto. }
    destruct (in_dec Nat.eq_dec n (deletions s)) as [D|D].
    - rewrite (proj1 (i_deleted I n D)) in K'. destruct K'.
    - destruct (in_dec Nat.eq_dec n (cell (stored s (lane n)) (slot n))) as [R|R]; [auto|].
      left. assert (N : ~ expanded s n) by (intros [?|?]; auto).
      destruct (i_new I N) as [A B]. rewrite A in K'. split; auto.
  Qed.
  (** All edges of a node that wasn't expanded are covered by those left *)
  Lemma own_cover s b n kept lost e : inv s b -> owned s n kept lost -> ~ expanded s n -> In e (edges_of n) ->
    exists e', In e' kept /\ target e' = target e /\ sl e e'.
  Proof.
    intros I O N H. destruct (i_new I N) as [A B].
    destruct (ow_cover O e) as (y & H1 & H2 & H3); [now rewrite A|].
    exists y. split; auto. split; auto.
    rewrite <- (B e H), <- H2. symmetry. apply B. rewrite <- A.
    eapply Permutation_in; [symmetry; apply (ow_perm O)|]. apply in_or_app. auto.
  Qed.
  Lemma expanded_dec s n : {expanded s n} + {~ expanded s n}.
  Proof.
    unfold expanded, isrep.
    destruct (in_dec Nat.eq_dec n (deletions s)); [left; auto|].
    destruct (in_dec Nat.eq_dec n (cell (stored s (lane n)) (slot n))); [left; auto|right; tauto].
  Qed.
  Lemma rep_of s b n : inv s b -> expanded s n -> exists r, isrep s r /\ al n r.
  Proof.
    intros I [R|D]; [exists n; split; auto; apply al_refl|]. destruct (i_deleted I n D) as (_ & r & H1 & H2 & _). eauto.
  Qed.
  Lemma in_scattered s kept n c : In (n, c) (scattered s kept) <-> exists e, c = Some e /\ In e kept /\ n = remote s e.
  Proof.
    unfold scattered. rewrite in_map_iff. split.
    - intros (e & [= <- <-] & H). eauto.
    - intros (e & -> & H & ->). eauto.
  Qed.
  Lemma mem_cons n m l : In m (if existsb (Nat.eqb n) l then l else n :: l) <-> m = n \/ In m l.
  Proof.
    destruct (existsb (Nat.eqb n) l) eqn:E; simpl; [|intuition].
    apply existsb_exists in E as (x & Hx & E). apply Nat.eqb_eq in E. subst x. split; auto. intros [->|?]; auto.
  Qed.

  Lemma closed_target : wf g -> forall n e, In n (ids g) -> In e (edges_of n) -> In (target e) (ids g).
  Proof.
    intros W n e H E. apply edges_of_in in E as [_ E]. eapply (wf_closed W); eauto.
  Qed.

  Lemma step_graft s b n r e kept lost k x :
    inv s ((n, Some e) :: b) -> isrep s r -> al n r -> n <> r -> owned s n kept lost ->
    thinned (kept ++ outs s r) k x ->
    inv (mkDD (upd (upd (outs s) n []) r k) (redirect (remote s) e r) (stored s)
              (if existsb (Nat.eqb n) (deletions s) then deletions s else n :: deletions s)
              (x ++ disconnections s) (lost ++ unlabelled s) false) (scattered s kept ++ b).
  Proof.
    intros I R A Hne O T.
    set (s' := mkDD _ _ _ _ _ _ _).
    assert (Nr : ~ isrep s n) by (intros H; apply Hne, (i_unique I); auto).
    assert (Rs : forall m, isrep s' m <-> isrep s m) by (intros m; reflexivity).
    assert (Ex : forall m, expanded s' m <-> m = n \/ expanded s m).
    { intros m. unfold expanded. rewrite Rs. unfold s'. cbn [deletions]. rewrite mem_cons. tauto. }
    assert (Or : outs s' r = k) by (unfold s'; cbn [outs]; apply upd_same).
    assert (On : outs s' n = []) by (unfold s'; cbn [outs]; rewrite upd_diff, upd_same; auto).
    assert (Oo : forall m, m <> n -> m <> r -> outs s' m = outs s m).
    { intros m H1 H2. unfold s'; cbn [outs]; rewrite !upd_diff; auto. }
    destruct (i_packet I n e (or_introl eq_refl)) as (Te & Ee & Ef).
    assert (Kin : forall y, In y kept -> ~ expanded s n /\ In y (edges_of n) /\ remote s y = target y).
    { intros y Hy. destruct (in_own _ I O Hy) as [?|?]; [auto|tauto]. }
    assert (Rem : forall y, remote s' y = remote s y \/ y = e /\ remote s' y = r).
    { intros y. unfold s'. cbn [remote]. destruct (redirect_cases (remote s) e r y) as [[-> H]|[_ H]]; auto. }
    assert (Reme : remote s' e = r) by (unfold s'; cbn [remote]; apply redirect_same).
    constructor; auto.
    - exact (i_placed I).
    - intros r1 r2. rewrite !Rs. apply (i_unique I).
    - intros m Hm. cbn [deletions s'] in Hm. unfold s' in Hm. cbn [deletions] in Hm. apply mem_cons in Hm.
      destruct (Nat.eq_dec m n) as [->|Hmn].
      + split; auto. exists r. rewrite Rs. auto.
      + destruct Hm as [->|Hm]; [tauto|]. destruct (i_deleted I m Hm) as (H1 & q & H2 & H3 & H4). split.
        * destruct (Nat.eq_dec m r) as [->|Hmr].
          -- exfalso. apply H4. apply (i_unique I); auto.
          -- rewrite Oo; auto.
        * exists q. rewrite Rs. auto.
    - intros m Hm. rewrite Ex in Hm.
      assert (Hm1 : m <> n) by tauto. assert (Hm2 : ~ expanded s m) by tauto.
      destruct (i_new I Hm2) as [H1 H2]. split.
      + rewrite Oo; auto. intros ->. apply Hm2. now left.
      + intros y Hy. destruct (Rem y) as [->|[-> _]]; auto.
        apply edges_of_in in Hy as [Hy _]. exfalso. apply Hm2. rewrite <- Hy. auto.
    - intros m y Hm. rewrite Ex. apply in_app_or in Hm as [Hm|Hm].
      + apply in_scattered in Hm as (z & [= <-] & Hz & ->). destruct (Kin y Hz) as (H1 & H2 & H3).
        destruct (edges_of_in _ _ H2) as [H4 _]. rewrite H4. auto.
      + destruct (i_packet I m y (or_intror Hm)) as (H1 & H2 & H3). auto.
    - destruct (i_root I) as [I7 I7']. split.
      + intros m Hm. apply in_app_or in Hm as [Hm|Hm]; [apply in_scattered in Hm as (z & Hz & _); discriminate|].
        destruct (I7 m (or_intror Hm)) as (_ & H & _). discriminate.
      + left. rewrite Rs. destruct I7' as [?|[?|H]]; [auto|discriminate|].
        destruct (I7 _ (or_intror H)) as (_ & H' & _). discriminate.
    - intros q y Hq Hy. rewrite Rs in Hq.
      assert (Done : isrep s (remote s y) /\ al (target y) (remote s y) ->
                     isrep s' (remote s' y) /\ al (target y) (remote s' y)).
      { intros [H1 H2]. rewrite Rs. destruct (Rem y) as [->|[-> ->]]; auto. split; auto. rewrite <- Te. auto. }
      assert (Old : forall q, isrep s q -> In y (outs s q) -> In y (edges_of (fst y)) /\ expanded s' (fst y) /\ al (fst y) q /\
         (In (target y, Some y) (scattered s kept ++ b) \/ isrep s' (remote s' y) /\ al (target y) (remote s' y))).
      { intros q' Hq' Hy'. destruct (i_edge I q' y Hq' Hy') as (H1 & H2 & H3 & H4). rewrite Ex. do 3 (split; auto).
        destruct H4 as [[H4|H4]|H4]; auto.
        - injection H4 as H4 <-. right. rewrite Reme, Rs. rewrite <- H4. auto.
        - left. apply in_or_app. auto. }
      destruct (Nat.eq_dec q n) as [->|Hqn]; [tauto|].
      destruct (Nat.eq_dec q r) as [->|Hqr].
      + rewrite Or in Hy. assert (Hy' : In y (kept ++ outs s r)).
        { eapply Permutation_in; [symmetry; apply (th_perm T)|]. apply in_or_app. auto. }
        apply in_app_or in Hy' as [Hy'|Hy']; [|apply Old; auto].
        destruct (Kin y Hy') as (H1 & H2 & H3). destruct (edges_of_in _ _ H2) as [H4 _]. rewrite Ex, H4.
        do 3 (split; auto). left. apply in_or_app. left. apply in_scattered. eauto.
      + rewrite Oo in Hy; auto.
    - intros y. rewrite Rs. destruct (Rem y) as [->|[-> ->]]; [apply (i_remote I)|]. right. split; auto. rewrite <- Te. auto.
    - intros m y Hm Hy. rewrite Ex in Hm. rewrite Ex.
      destruct (expanded_dec s m) as [Em|Em].
      + destruct (i_follow I y Em Hy) as [H|(c & [H|H])]; auto.
        * injection H as H _. rewrite <- H. auto.
        * right. exists c. apply in_or_app. auto.
      + destruct Hm as [->|Hm]; [|tauto]. right.
        destruct (own_cover _ I O Em Hy) as (z & Hz & Tz & _). exists (Some z). apply in_or_app. left.
        apply in_scattered. exists z. do 2 (split; auto). destruct (Kin z Hz) as (_ & _ & H). congruence.
    - intros m q y Hm Hq Al Hy. rewrite Ex in Hm. rewrite Rs in Hq.
      destruct (Nat.eq_dec q r) as [->|Hqr].
      + rewrite Or. destruct (expanded_dec s m) as [Em|Em].
        * destruct (i_label I _ Em Hq Al Hy) as (z & Hz & Sz). destruct (th_cover T z) as (w & Hw & Sw).
          { apply in_or_app. auto. }
          exists w. split; auto. eapply sl_trans; eauto.
        * destruct Hm as [->|Hm]; [|tauto].
          destruct (own_cover _ I O Em Hy) as (z & Hz & _ & Sz). destruct (th_cover T z) as (w & Hw & Sw).
          { apply in_or_app. auto. }
          exists w. split; auto. eapply sl_trans; eauto.
      + assert (Hqn : q <> n) by (intros ->; tauto). rewrite Oo; auto.
        destruct Hm as [->|Hm].
        * exfalso. apply Hqr. apply (i_unique I); auto. eapply al_trans; [apply al_sym; exact Al|exact A].
        * eapply (i_label I); eauto.
    - intros W. destruct (i_ids I W) as [J1 J2].
      assert (Hn : In n (ids g)) by (apply (J2 n (Some e)); now left).
      split.
      + intros m Hm. rewrite Ex in Hm. destruct Hm as [->|Hm]; auto.
      + intros m c Hm. apply in_app_or in Hm as [Hm|Hm]; [|eapply J2; right; exact Hm].
        apply in_scattered in Hm as (z & _ & Hz & ->). destruct (Kin z Hz) as (_ & H2 & H3). rewrite H3.
        eapply closed_target; eauto.
  Qed.

  Lemma step_new s b n c kept lost :
    inv s ((n, c) :: b) -> (forall r, isrep s r -> ~ al n r) -> owned s n kept lost ->
    inv (mkDD (upd (outs s) n kept) (remote s)
              (upd (stored s) (lane n) (Containers.put (stored s (lane n)) (slot n) (cell (stored s (lane n)) (slot n) ++ [n])))
              (deletions s) (disconnections s) (lost ++ unlabelled s) false) (scattered s kept ++ b).
  Proof.
    intros I N O.
    set (s' := mkDD _ _ _ _ _ _ _).
    assert (Nx : ~ expanded s n).
    { intros H. destruct (rep_of I H) as (r & H1 & H2). exact (N r H1 H2). }
    assert (Ce : forall l k, cell (stored s' l) k =
              if (l =? lane n) && N.eqb k (slot n) then cell (stored s l) k ++ [n] else cell (stored s l) k).
    { intros l k. unfold s'. cbn [stored]. destruct (Nat.eqb_spec l (lane n)) as [->|Hl].
      - rewrite upd_same, cell_put. simpl. destruct (N.eqb_spec k (slot n)) as [->|]; auto.
      - rewrite upd_diff; auto. }
    assert (Rs : forall m, isrep s' m <-> m = n \/ isrep s m).
    { intros m. unfold isrep. rewrite Ce.
      destruct (Nat.eqb_spec (lane m) (lane n)); simpl.
      - destruct (N.eqb_spec (slot m) (slot n)); simpl.
        + rewrite in_app_iff. simpl. intuition.
        + intuition (subst; tauto).
      - intuition (subst; tauto). }
    assert (Ex : forall m, expanded s' m <-> m = n \/ expanded s m).
    { intros m. unfold expanded. rewrite Rs. unfold s'. cbn [deletions]. tauto. }
    assert (On : outs s' n = kept) by (unfold s'; cbn [outs]; apply upd_same).
    assert (Oo : forall m, m <> n -> outs s' m = outs s m).
    { intros m H1. unfold s'; cbn [outs]; rewrite !upd_diff; auto. }
    assert (Rem : forall y, remote s' y = remote s y) by reflexivity.
    assert (Kin : forall y, In y kept -> In y (edges_of n) /\ remote s y = target y).
    { intros y Hy. destruct (in_own _ I O Hy) as [H|H]; [tauto|]. exfalso. apply Nx. now left. }
    constructor; auto.
    - intros l k r. rewrite Ce. destruct (Nat.eqb_spec l (lane n)) as [->|Hl]; simpl; [|apply (i_placed I)].
      destruct (N.eqb_spec k (slot n)) as [->|Hk]; [|apply (i_placed I)].
      rewrite in_app_iff. intros [H|[<-|[]]]; auto. apply (i_placed I). auto.
    - intros r1 r2. rewrite !Rs. intros [->|H1] [->|H2] A; auto.
      + exfalso. exact (N _ H2 A).
      + exfalso. apply (N _ H1). now apply al_sym.
      + now apply (i_unique I).
    - intros m Hm. unfold s' in Hm. cbn [deletions] in Hm. destruct (i_deleted I m Hm) as (H1 & q & H2 & H3 & H4). split.
      + rewrite Oo; auto. intros ->. apply Nx. now right.
      + exists q. rewrite Rs. auto.
    - intros m Hm. rewrite Ex in Hm. assert (Hm1 : m <> n) by tauto. assert (Hm2 : ~ expanded s m) by tauto.
      rewrite Oo; auto. apply (i_new I); auto.
    - intros m y Hm. rewrite Ex. apply in_app_or in Hm as [Hm|Hm].
      + apply in_scattered in Hm as (z & [= <-] & Hz & ->). destruct (Kin y Hz) as (H2 & H3).
        destruct (edges_of_in _ _ H2) as [H4 _]. rewrite H4. auto.
      + destruct (i_packet I m y (or_intror Hm)) as (H1 & H2 & H3). auto.
    - destruct (i_root I) as [I7 I7']. split.
      + intros m Hm. apply in_app_or in Hm as [Hm|Hm]; [apply in_scattered in Hm as (z & Hz & _); discriminate|].
        destruct (I7 m (or_intror Hm)) as (_ & H & _). injection H as H1 H2 H3. rewrite H3 in Hm. destruct Hm.
      + left. rewrite Rs. destruct I7' as [?|[H|H]]; [auto|injection H as <- _; auto|].
        destruct (I7 _ (or_intror H)) as (_ & H' & _). injection H' as _ _ ->. destruct H.
    - intros q y Hq Hy. rewrite Rs in Hq. rewrite Ex, Rem, Rs. destruct (Nat.eq_dec q n) as [->|Hqn].
      + rewrite On in Hy. destruct (Kin y Hy) as (H2 & H3). destruct (edges_of_in _ _ H2) as [H4 _]. rewrite H4.
        do 2 (split; auto). split; [apply al_refl|]. left. apply in_or_app. left. apply in_scattered. eauto.
      + destruct Hq as [->|Hq]; [tauto|]. rewrite Oo in Hy; auto.
        destruct (i_edge I q y Hq Hy) as (H1 & H2 & H3 & H4). do 3 (split; auto).
        destruct H4 as [[H4|H4]|[H4 H5]]; auto.
        * injection H4 as H4 H5. right.
          (* the carrier's target is now a representative, and it was not redirected *)
          assert (Hrem : remote s y = n).
          { destruct (i_remote I y) as [H|[H H']]; [congruence|]. rewrite <- H4 in H'. destruct (N _ H H'). }
          rewrite Hrem, H4. split; auto. apply al_refl.
        * left. apply in_or_app. auto.
    - intros y. rewrite Rem, Rs. destruct (i_remote I y) as [H|[H H']]; auto.
    - intros m y Hm Hy. rewrite Ex in Hm. rewrite Ex.
      destruct (Nat.eq_dec m n) as [->|Hmn].
      + right. destruct (own_cover _ I O Nx Hy) as (z & Hz & Tz & _). exists (Some z). apply in_or_app. left.
        apply in_scattered. exists z. do 2 (split; auto). destruct (Kin z Hz) as (_ & H). congruence.
      + destruct Hm as [->|Hm]; [tauto|].
        destruct (i_follow I y Hm Hy) as [H|(c' & [H|H])]; auto.
        * injection H as H _. rewrite <- H. auto.
        * right. exists c'. apply in_or_app. auto.
    - intros m q y Hm Hq Al Hy. rewrite Ex in Hm. rewrite Rs in Hq.
      destruct (Nat.eq_dec q n) as [->|Hqn].
      + rewrite On. destruct (Nat.eq_dec m n) as [->|Hmn].
        * destruct (own_cover _ I O Nx Hy) as (z & Hz & _ & Sz). eauto.
        * destruct Hm as [->|Hm]; [tauto|]. exfalso. destruct (rep_of I Hm) as (r & H1 & H2). apply (N r H1).
          eapply al_trans; [apply al_sym; exact Al|exact H2].
      + destruct Hq as [->|Hq]; [tauto|]. rewrite Oo; auto. destruct Hm as [->|Hm].
        * exfalso. exact (N q Hq Al).
        * eapply (i_label I); eauto.
    - intros W. destruct (i_ids I W) as [J1 J2].
      assert (Hn : In n (ids g)) by (apply (J2 n c); now left).
      split.
      + intros m Hm. rewrite Ex in Hm. destruct Hm as [->|Hm]; auto.
      + intros m c' Hm. apply in_app_or in Hm as [Hm|Hm]; [|eapply J2; right; exact Hm].
        apply in_scattered in Hm as (z & _ & Hz & ->). destruct (Kin z Hz) as (H2 & H3). rewrite H3.
        eapply closed_target; eauto.
  Qed.

  Lemma step_stay s b n e : inv s ((n, Some e) :: b) -> isrep s n -> inv s b.
  Proof.
    intros I R. destruct (i_packet I n e (or_introl eq_refl)) as (Te & Ee & Ef).
    pose proof I as I0. destruct I0 as [I1 I2 I3 I4 I5 I6 [I7 I7'] I8 Ir I9 I10 I11]. constructor; auto.
    - intros m y H. apply I6. now right.
    - split.
      + intros m H. destruct (I7 m (or_intror H)) as (_ & H' & _). discriminate.
      + destruct I7' as [?|[H|H]]; auto. discriminate.
    - intros q y Hq Hy. destruct (I8 q y Hq Hy) as (H1 & H2 & H3 & H4). do 3 (split; auto).
      destruct H4 as [[H4|H4]|H4]; auto. injection H4 as H4 <-. right.
      destruct (Ir e) as [H|H]; auto. rewrite H, <- H4. split; auto. apply al_refl.
    - intros m y Hm Hy. destruct (I9 m y Hm Hy) as [H|(c & [H|H])]; auto.
      + injection H as <- _. left. now left.
      + right. eauto.
    - intros W. destruct (I11 W) as [J1 J2]. split; auto. intros m c H. apply (J2 m c). now right.
  Qed.

  Lemma inv_step s p b s' out : inv s (p :: b) -> deduplicating s p = Some (s', out) -> inv s' (out ++ b).
  Proof.
    intros I T. apply task_move in T. destruct T as [p B|n r out B R A|n e B R|n r e kept lost k x B R A Hne O T|n c kept lost B N O].
    - rewrite (i_unbroken I) in B. discriminate.
    - destruct (i_root I) as [I7 _]. destruct (I7 n (or_introl eq_refl)) as (_ & _ & H). destruct (H r). now left.
    - now apply step_stay with (n := n) (e := e).
    - now apply step_graft.
    - now apply step_new with (c := c).
  Qed.

  Theorem inv_end s : completes deduplicating dstart (root g, None) s -> inv s [].
  Proof.
    intros H. refine (mruns_inv _ _ _ _ H); [apply inv_perm|apply inv_step|apply inv_start].
  Qed.

  Section Ended.
    Variable s : ddata.
    Hypothesis W : wf g.
    Hypothesis Hs : inv s [].

    Lemma root_rep : isrep s (root g).
    Proof. destruct (i_root Hs) as [_ [?|[]]]; auto. Qed.

    Lemma all_expanded n : In n (ids g) <-> expanded s n.
    Proof.
      split; [|apply (i_ids Hs W)]. intros H. apply (wf_reach W) in H.
      induction H as [|m l k P IH E]; [left; apply root_rep|].
      apply in_edges_of in E as (e & E & _ & <-). destruct (i_follow Hs e IH E) as [H|(c & [])]; auto.
    Qed.

    (** The edges of representatives *)
    Lemma end_edge r e : isrep s r -> In e (outs s r) ->
      In (fst e) (ids g) /\ In (label e, target e) (es g (fst e)) /\ al (fst e) r /\
      isrep s (remote s e) /\ al (target e) (remote s e).
    Proof.
      intros R H. destruct (i_edge Hs r e R H) as (H1 & H2 & H3 & [[]|[H4 H5]]).
      split; [now apply all_expanded|]. apply edges_of_in in H1 as [_ H1]. auto.
    Qed.
    Lemma end_label r m l k : isrep s r -> In m (ids g) -> al m r -> In (l, k) (es g m) ->
      exists e, In e (outs s r) /\ eeq l (label e) = true.
    Proof.
      intros R M A H. apply in_edges_of in H as (e & H & <- & _). apply all_expanded in M.
      destruct (i_label Hs _ M R A H) as (e' & H1 & H2). eauto.
    Qed.
    Lemma end_class m : In m (ids g) -> exists r, isrep s r /\ al m r.
    Proof. intros H. apply all_expanded in H. eapply rep_of; eauto. Qed.
    Lemma rep_in r : isrep s r -> In r (ids g).
    Proof. intros H. apply all_expanded. now left. Qed.
  End Ended.

  (** Edges with equal labels and the same origin *)
  Definition functional : Prop :=
    forall n l k l' k', In (l, k) (es g n) -> In (l', k') (es g n) -> eeq l l' = true -> k = k'.

  Definition distinct (l : list eid) : Prop := ForallOrdPairs (fun x y => eeq (label x) (label y) = false) l.

  Lemma distinct_end s : functional -> completes deduplicating dstart (root g, None) s ->
    forall r, isrep s r -> distinct (outs s r).
  Proof.
    intros F H. refine (proj2 (mruns_inv (fun s b => inv s b /\ forall r, isrep s r -> distinct (outs s r)) _ _ _ H)); clear s H.
    - intros s b b' P [I D]. split; auto. now apply inv_perm with (b := b).
    - intros s p b s' out [I D] T. split; [now apply inv_step with (s := s) (p := p)|].
      apply task_move in T. destruct T as [p B|n r out B R A|n e B R|n r e kept lost k x B R A Hne O T|n c kept lost B N O].
      + rewrite (i_unbroken I) in B. discriminate.
      + destruct (i_root I) as [I7 _]. destruct (I7 n (or_introl eq_refl)) as (_ & _ & H). destruct (H r). now left.
      + auto.
      + intros q Q. change (isrep s q) in Q. cbn [outs]. destruct (Nat.eq_dec q r) as [->|Hqr].
        * rewrite upd_same. apply (th_pair T).
        * rewrite upd_diff; auto. destruct (Nat.eq_dec q n) as [->|Hqn].
          -- rewrite upd_same. constructor.
          -- rewrite upd_diff; auto.
      + intros q Q. cbn [outs]. destruct (Nat.eq_dec q n) as [->|Hqn].
        * rewrite upd_same. generalize (ow_pair O). apply FOP_imp. intros y z Hy Hz H.
          assert (Nx : ~ expanded s n).
          { intros H'. destruct (rep_of I H') as (r & H1 & H2). exact (N r H1 H2). }
          destruct (in_own _ I O Hy) as [(_ & Y1 & Y2)|Y]; [|destruct Nx; now left].
          destruct (in_own _ I O Hz) as [(_ & Z1 & Z2)|Z]; [|destruct Nx; now left].
          destruct (eeq (label y) (label z)) eqn:E; auto. exfalso. apply H. split; auto.
          rewrite Y2, Z2. apply edges_of_in in Y1 as [_ Y1]. apply edges_of_in in Z1 as [_ Z1].
          eapply F; eauto.
        * rewrite upd_diff; auto. apply D. revert Q. unfold isrep. cbn [stored].
          destruct (Nat.eq_dec (lane q) (lane n)) as [El|El]; [|rewrite upd_diff; auto].
          rewrite El, upd_same, cell_put. destruct (N.eqb_spec (slot q) (slot n)) as [->|]; auto.
          rewrite in_app_iff. intros [?|[?|[]]]; auto. congruence.
    - split; [apply inv_start|]. intros r [].
  Qed.

  (** If the vertices are distinct, nothing is grafted. *)
  Lemma apart_end s : wf g -> (forall n m, In n (ids g) -> In m (ids g) -> al n m -> n = m) ->
    completes deduplicating dstart (root g, None) s ->
    forall r, isrep s r ->
      (forall e, In e (edges_of r) -> exists e', In e' (outs s r) /\ target e' = target e /\ sl e e') /\
      ForallOrdPairs (fun x y => ~ (target x = target y /\ sl x y)) (outs s r).
  Proof.
    intros W Apart H.
    refine (proj2 (mruns_inv (fun s b => inv s b /\ forall r, isrep s r ->
      (forall e, In e (edges_of r) -> exists e', In e' (outs s r) /\ target e' = target e /\ sl e e') /\
      ForallOrdPairs (fun x y => ~ (target x = target y /\ sl x y)) (outs s r)) _ _ _ H)); clear s H.
    - intros s b b' P [I D]. split; auto. now apply inv_perm with (b := b).
    - intros s p b s' out [I D] T. split; [now apply inv_step with (s := s) (p := p)|].
      destruct (i_ids I W) as [J1 J2].
      apply task_move in T. destruct T as [p B|n r out B R A|n e B R|n r e kept lost k x B R A Hne O T|n c kept lost B N O].
      + auto.
      + auto.
      + auto.
      + exfalso. apply Hne, Apart; auto; [apply (J2 n (Some e)); now left|apply J1; now left].
      + assert (Nx : ~ expanded s n).
        { intros H'. destruct (rep_of I H') as (r & H1 & H2). exact (N r H1 H2). }
        intros q Q. cbn [outs]. destruct (Nat.eq_dec q n) as [->|Hqn].
        * rewrite upd_same. split.
          -- intros e E. destruct (own_cover _ I O Nx E) as (e' & H). exists e'. tauto.
          -- generalize (ow_pair O). apply FOP_imp. intros y z Hy Hz H [H1 H2]. apply H. split; auto.
             destruct (in_own _ I O Hy) as [(_ & Y1 & Y2)|Y]; [|destruct Nx; now left].
             destruct (in_own _ I O Hz) as [(_ & Z1 & Z2)|Z]; [|destruct Nx; now left]. congruence.
        * rewrite upd_diff; auto. apply D. revert Q. unfold isrep. cbn [stored].
          destruct (Nat.eq_dec (lane q) (lane n)) as [El|El]; [|rewrite upd_diff; auto].
          rewrite El, upd_same, cell_put. destruct (N.eqb_spec (slot q) (slot n)) as [->|]; auto.
          rewrite in_app_iff. intros [?|[?|[]]]; auto. congruence.
    - split; [apply inv_start|]. intros r [].
  Qed.

  (** Every edge is in one place. *)
  Definition all_edges (s : ddata) : list eid := flat_map (outs s) (ids g) ++ disconnections s ++ unlabelled s.
  Lemma flat_split (n : nat) l : In n l -> NoDup l ->
    exists r, Permutation l (n :: r) /\ ~ In n r.
  Proof.
    intros H D. apply in_split in H as (l1 & l2 & ->). exists (l1 ++ l2). split.
    - symmetry. apply Permutation_middle.
    - now apply NoDup_remove_2 in D.
  Qed.
  Lemma flat_same {A} (f f' : nat -> list A) l : (forall x, In x l -> f x = f' x) -> flat_map f l = flat_map f' l.
  Proof.
    induction l as [|a l IH]; simpl; intros H; auto. rewrite (H a), IH; auto.
  Qed.

  Lemma conserved_end s : wf g -> completes deduplicating dstart (root g, None) s ->
    Permutation (all_edges s) (flat_map edges_of (ids g)).
  Proof.
    intros W H. refine (proj2 (mruns_inv (fun s b => inv s b /\ Permutation (all_edges s) (flat_map edges_of (ids g))) _ _ _ H)); clear s H.
    - intros s b b' P [I D]. split; auto. now apply inv_perm with (b := b).
    - intros s p b s' out [I D] T. split; [now apply inv_step with (s := s) (p := p)|].
      apply task_move in T. destruct T as [p B|n r out B R A|n e B R|n r e kept lost k x B R A Hne O T|n c kept lost B N O].
      + auto.
      + auto.
      + auto.
      + rewrite <- D. unfold all_edges. cbn [outs disconnections unlabelled].
        destruct (i_ids I W) as [J1 J2].
        assert (Hn : In n (ids g)) by (apply (J2 n (Some e)); now left).
        assert (Hr : In r (ids g)) by (apply J1; now left).
        destruct (flat_split n Hn (wf_nodup W)) as (l1 & P1 & N1).
        assert (ND : NoDup (n :: l1)) by (eapply Permutation_NoDup; [exact P1|apply (wf_nodup W)]).
        assert (Hr1 : In r l1).
        { eapply Permutation_in in Hr; [|exact P1]. destruct Hr; [congruence|auto]. }
        inversion ND; subst.
        destruct (flat_split r Hr1 ltac:(auto)) as (l2 & P2 & N2).
        assert (P3 : Permutation (ids g) (n :: r :: l2)) by (rewrite P1; now constructor).
        rewrite (Permutation_flat_map _ P3), (Permutation_flat_map (outs s) P3). simpl.
        rewrite (@upd_diff _ _ r n), upd_same, upd_same; auto. simpl.
        rewrite (@flat_same _ (upd (upd (outs s) n []) r k) (outs s) l2).
        2:{ intros y Hy. rewrite !upd_diff; auto; intros ->; auto. apply N1. rewrite P2. now right. }
        rewrite (ow_perm O). pose proof (th_perm T) as TP.
        assert (Permutation (k ++ x) (kept ++ outs s r)) by now symmetry.
        transitivity ((k ++ x) ++ lost ++ flat_map (outs s) l2 ++ disconnections s ++ unlabelled s).
        * perm_solve.
        * rewrite H. perm_solve.
      + rewrite <- D. unfold all_edges. cbn [outs disconnections unlabelled].
        destruct (i_ids I W) as [J1 J2].
        assert (Hn : In n (ids g)) by (apply (J2 n c); now left).
        destruct (flat_split n Hn (wf_nodup W)) as (l1 & P1 & N1).
        rewrite (Permutation_flat_map _ P1), (Permutation_flat_map (outs s) P1). simpl. rewrite upd_same.
        rewrite (@flat_same _ (upd (outs s) n kept) (outs s) l1).
        2:{ intros y Hy. rewrite !upd_diff; auto; intros ->; auto. }
        rewrite (ow_perm O). perm_solve.
    - split; [apply inv_start|]. unfold all_edges. simpl. rewrite app_nil_r. auto.
  Qed.

  (** Termination *)
  Definition pending (s : ddata) : nat := length (filter (fun n => if expanded_dec s n then false else true) (ids g)).

  Lemma filter_mono (f f' : nat -> bool) l : (forall n, In n l -> f' n = true -> f n = true) ->
    length (filter f' l) <= length (filter f l).
  Proof.
    induction l as [|a l IH]; simpl; intros H; auto.
    assert (IH' : length (filter f' l) <= length (filter f l)) by auto.
    destruct (f' a) eqn:E.
    - rewrite (H a); auto. simpl. lia.
    - destruct (f a); simpl; lia.
  Qed.
  Lemma filter_mono_lt (f f' : nat -> bool) l m : (forall n, In n l -> f' n = true -> f n = true) ->
    In m l -> f m = true -> f' m = false -> length (filter f' l) < length (filter f l).
  Proof.
    induction l as [|a l IH]; simpl; intros H M F F'; [destruct M|]. destruct M as [->|M].
    - rewrite F, F'. simpl. apply le_n_S, filter_mono. auto.
    - assert (IH' : length (filter f' l) < length (filter f l)) by auto.
      destruct (f' a) eqn:E.
      + rewrite (H a); auto. simpl. lia.
      + destruct (f a); simpl; lia.
  Qed.

  Lemma pending_move s p b s' out : wf g -> inv s (p :: b) -> deduplicating s p = Some (s', out) ->
    pending s' < pending s \/ pending s' = pending s /\ out = [].
  Proof.
    intros W I T. apply task_move in T.
    destruct (i_ids I W) as [J1 J2]. destruct T as [p B|n r out B R A|n e B R|n r e kept lost k x B R A Hne O T|n c kept lost B N O].
    - auto.
    - destruct (i_root I) as [I7 _]. destruct (I7 n (or_introl eq_refl)) as (_ & _ & H). destruct (H r). now left.
    - auto.
    - set (s' := mkDD _ _ _ _ _ _ _).
      assert (Ex : forall m, expanded s' m <-> m = n \/ expanded s m).
      { intros m. unfold expanded, isrep. unfold s'. cbn [deletions stored]. rewrite mem_cons. tauto. }
      destruct (expanded_dec s n) as [E|E].
      + right. split.
        * unfold pending. f_equal. apply filter_ext. intros m.
          destruct (expanded_dec s' m) as [E1|E1], (expanded_dec s m) as [E2|E2]; auto; rewrite Ex in E1; exfalso.
          -- destruct E1 as [->|?]; auto.
          -- auto.
        * assert (K : outs s n = []).
          { destruct E as [E|E]; [|apply (i_deleted I n E)]. exfalso. apply Hne, (i_unique I); auto. }
          pose proof (ow_perm O) as P. rewrite K in P. apply Permutation_nil in P. apply app_eq_nil in P as [-> _]. reflexivity.
      + left. apply filter_mono_lt with (m := n).
        * intros m _. destruct (expanded_dec s' m) as [E1|E1], (expanded_dec s m) as [E2|E2]; auto; rewrite Ex in E1; tauto.
        * apply (J2 n (Some e)). now left.
        * destruct (expanded_dec s n); tauto.
        * destruct (expanded_dec s' n) as [|E1]; auto. rewrite Ex in E1. tauto.
    - set (s' := mkDD _ _ _ _ _ _ _).
      assert (Nx : ~ expanded s n).
      { intros H'. destruct (rep_of I H') as (r & H1 & H2). exact (N r H1 H2). }
      assert (Up : forall m, expanded s m -> expanded s' m).
      { intros m [H|H]; [left|right; exact H]. unfold isrep, s'. cbn [stored].
        destruct (Nat.eq_dec (lane m) (lane n)) as [El|El]; [|rewrite upd_diff; auto].
        rewrite El, upd_same, cell_put. rewrite <- El. destruct (N.eqb_spec (slot m) (slot n)) as [<-|]; auto.
        rewrite in_app_iff. auto. }
      assert (En : expanded s' n).
      { left. unfold isrep, s'. cbn [stored]. rewrite upd_same, cell_put, N.eqb_refl. apply in_or_app. simpl. auto. }
      left. apply filter_mono_lt with (m := n).
      + intros m _. destruct (expanded_dec s' m) as [E1|E1], (expanded_dec s m) as [E2|E2]; auto.
      + apply (J2 n c). now left.
      + destruct (expanded_dec s n); tauto.
      + destruct (expanded_dec s' n); tauto.
  Qed.

  Theorem dedup_terminates : wf g -> terminates deduplicating (dstart, [(root g, None)]).
  Proof.
    intros W. apply lex_inv_terminates with (I := inv) (m := pending).
    - apply inv_perm.
    - intros s p R s' out I T. split; [now apply inv_step with (s := s) (p := p)|now apply pending_move with (p := p) (b := R)].
    - apply inv_start.
  Qed.
End Proofs.
