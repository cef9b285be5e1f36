(** Deduplication: claim C33, and what falls short of it. *)
From Coq Require Import List Arith NArith Lia Bool Permutation.
From Verif Require Import Base Machine Ports PortsProofs PortsTerm P_Ports BrigadeProofs Env Hash Graph Visitor VisitorProofs Walk Run Pass Fold P_Fold
  Traverse TraverseProofs P_Traverse Fabricate Containers P_Containers Brigade P_Brigade Partition P_Partition Filter P_Filter P_Killed MergeProofs P_Merge Dedup DedupProofs.
Import ListNotations.

Set Implicit Arguments.

Local Opaque lane_of node_hash.

(** ** The specification *)
Section Fused.
  Variable veq eeq : word -> word -> bool.
  Variable g h : graph word word.

  (** A vertex of [h] stands for the vertices of [g] that are equal to it. *)
  Definition stands (n m : nat) : Prop := In n (ids h) /\ In m (ids g) /\ veq (vx g m) (vx h n) = true.

  (** There is nothing in [h] that wasn't in [g], and no two vertices of [h] are equal. *)
  Record fused : Prop := {
    fu_wf : wf h;
    fu_root : root h = root g /\ vx h (root h) = vx g (root g);
    fu_unique : forall n m, In n (ids h) -> In m (ids h) -> veq (vx h n) (vx h m) = true -> n = m;
    fu_vertices : forall n, In n (ids h) -> exists m, In m (ids g) /\ vx h n = vx g m;
    fu_edges : forall n l k, In n (ids h) -> In (l, k) (es h n) ->
      exists m k', stands n m /\ In (l, k') (es g m) /\ stands k k'
  }.
  (** Every label at a vertex in [g] is also found where it is represented. *)
  Definition labels_kept : Prop :=
    forall n m l k, stands n m -> In (l, k) (es g m) -> exists l' k', In (l', k') (es h n) /\ eeq l l' = true.

  (** Everything in [g] is in [h]. *)
  Definition vertices_kept : Prop := forall m, In m (ids g) -> exists n, stands n m.
  Definition edges_kept : Prop :=
    forall n m l k, stands n m -> In (l, k) (es g m) ->
      exists l' k', In (l', k') (es h n) /\ eeq l l' = true /\ stands k' k.

  (** No edge is repeated. *)
  Definition edges_unique : Prop :=
    forall n, In n (ids h) -> ForallOrdPairs (fun e e' => ~ (eeq (fst e) (fst e') = true /\ snd e = snd e')) (es h n).
End Fused.

(** Edges with equal labels from equal vertices lead to equal vertices. *)
Definition deterministic (veq eeq : word -> word -> bool) (g : graph word word) : Prop :=
  forall n l k n' l' k', In n (ids g) -> In n' (ids g) -> In (l, k) (es g n) -> In (l', k') (es g n') ->
    veq (vx g n) (vx g n') = true -> eeq l l' = true -> veq (vx g k) (vx g k') = true.
(** Edges with equal labels from the same node lead to the same node. *)
Definition single_valued (eeq : word -> word -> bool) (g : graph word word) : Prop :=
  forall n l k l' k', In (l, k) (es g n) -> In (l', k') (es g n) -> eeq l l' = true -> k = k'.
Definition distinct_vertices (veq : word -> word -> bool) (g : graph word word) : Prop :=
  forall n m, In n (ids g) -> In m (ids g) -> veq (vx g n) (vx g m) = true -> n = m.

Lemma FOP_map {A B} (f : A -> B) (R : B -> B -> Prop) l :
  ForallOrdPairs (fun x y => R (f x) (f y)) l -> ForallOrdPairs R (map f l).
Proof.
  induction 1 as [|a l F _ IH]; simpl; constructor; auto.
  apply Forall_forall. intros b Hb. apply in_map_iff in Hb as (x & <- & Hx). rewrite Forall_forall in F. auto.
Qed.

Section Claims.
  Variable X : env.
  Variable g : graph word word.
  Variable veq : word -> word -> bool.
  Variable vhash : word -> N.
  Variable eeq : word -> word -> bool.
  Variable ehash : word -> N.
  Variable kills : nat -> nat -> bool.
  Hypothesis W : wf g.
  Hypothesis Hl : 0 < lanes X.
  Hypothesis Hv : equivalence veq.
  Hypothesis Hvh : forall x y, veq x y = true -> vhash x = vhash y.
  Hypothesis He : equivalence eeq.
  Hypothesis Heh : forall x y, eeq x y = true -> ehash x = ehash y.
  Hypothesis K : never_killed kills.

  Notation task := (deduplicating X g veq vhash eeq ehash).
  Notation rep := (isrep X g vhash).

  Lemma ddest_lt p : ddest X g vhash p < lanes X.
  Proof. now apply lane_of_lt. Qed.

  Lemma collected l : forall d, acts collect d l = Some (d ++ l).
  Proof.
    induction l as [|n l IH]; intros d; simpl; [now rewrite app_nil_r|]. rewrite IH, <- app_assoc. reflexivity.
  Qed.

  (** All passes in one *)
  Lemma dedup_facts d e : deduplicates X g veq vhash eeq ehash kills (d, e) ->
    e = None /\ exists v s q,
      NoDup v /\ (forall n, In n v <-> In n (ids g)) /\
      completes task (dstart g) (root g, None) s /\ broken s = false /\
      NoDup q /\ (forall n, In n q <-> along (joined g s) (root g) n) /\
      d = cleared g v q s.
  Proof.
    intros H. remember (d, e) as r eqn:Er. revert Er. destruct H as [v order s q order' R1 O1 V1 R2 R3 O3|v order e' R1 O1 V1].
    - apply ran_completes in R1; [|now apply vdest_lt]. apply ran_completes in R2; [|exact ddest_lt].
      apply ran_completes in R3; [|now apply vdest_lt].
      assert (V1' : vstatus (unkillable X) order v = None) by (eapply pass_unkilled; eauto; reflexivity).
      destruct (gwalk_success (X := unkillable X) Hl O1 R1 V1') as (nv & A1 & A2 & A3). rewrite collected in A3. injection A3 as A3.
      assert (V3 : pass_status order' q = None).
      { destruct (pass_status order' q) as [z|] eqn:Ez; auto. destruct (pass_error _ _ Ez) as (l & Hle).
        destruct (gwalk_any R3) as (nodes & _ & _ & _ & D). destruct (D l z Hle) as (n1 & n & n2 & _ & Ha & _). discriminate. }
      assert (V3' : vstatus (in_pass X kills 0) order' q = None).
      { eapply pass_unkilled; eauto. intros k. apply K. }
      destruct (gwalk_success (X := in_pass X kills 0) Hl O3 R3 V3') as (nq & B1 & B2 & B3). rewrite collected in B3. injection B3 as B3.
      assert (I : broken s = false) by exact (i_unbroken (inv_end Hv Hvh He Heh R2)). rewrite I.
      assert (St : cleared_status X kills (data v) s order' q = None).
      { unfold cleared_status. destruct (cluttered _ _ _ && _); auto. }
      rewrite St. intros [= <- <-]. split; auto. exists nv, s, nq. rewrite <- A3, <- B3. simpl.
      do 2 (split; auto). { intros n. rewrite A2. now apply along_ids. }
    - intros [= <- <-]. exfalso. destruct (pass_error _ _ V1) as (l & Hle).
      apply ran_completes in R1; [|now apply vdest_lt].
      destruct (gwalk_any R1) as (nodes & _ & _ & _ & D). destruct (D l _ Hle) as (n1 & n & n2 & _ & Ha & _). discriminate.
  Qed.

  Theorem C33_deduplication_succeeds d e :
    deduplicates X g veq vhash eeq ehash kills (d, e) -> e = None /\ exists h, remains d = Some h.
  Proof. intros H. destruct (dedup_facts H) as (-> & v & s & q & _ & _ & _ & _ & _ & _ & ->). split; eauto. eexists. reflexivity. Qed.

  Section Result.
    Variable v q : list nat.
    Variable s : ddata.
    Hypothesis Hc : completes task (dstart g) (root g, None) s.
    Hypothesis Hq : NoDup q.
    Hypothesis Hq' : forall n, In n q <-> along (joined g s) (root g) n.
    Let Hs : inv X g veq vhash eeq s [] := @inv_end X g veq vhash eeq ehash Hv Hvh He Heh s Hc.
    Let h := mkGraph q (vx g) (joined g s) (root g).

    Lemma joined_in n l k : In (l, k) (joined g s n) -> exists e, In e (outs s n) /\ l = label g e /\ k = remote s e.
    Proof. unfold joined. rewrite in_map_iff. intros (e & [= <- <-] & H). eauto. Qed.
    Lemma in_joined n e : In e (outs s n) -> In (label g e, remote s e) (joined g s n).
    Proof. intros H. unfold joined. apply in_map_iff. eauto. Qed.

    Lemma queue_rep n : In n q -> rep s n.
    Proof.
      rewrite Hq'. induction 1 as [|n l m A IH E]; [exact (root_rep Hs)|].
      apply joined_in in E as (e & E & -> & ->). destruct (end_edge W Hs _ _ IH E) as (_ & _ & _ & H & _). exact H.
    Qed.

    Lemma dedup_fused : fused veq g h.
    Proof.
      constructor.
      - split; simpl; auto.
        + apply Hq'. constructor.
        + intros n l m A E. apply Hq'. apply Hq' in A. econstructor; eauto.
        + intros n A. apply Hq' in A. now apply along_path.
      - auto.
      - simpl. intros n m A B E. apply (i_unique Hs); auto; now apply queue_rep.
      - simpl. intros n A. exists n. split; auto. apply (rep_in W Hs). now apply queue_rep.
      - simpl. intros n l k A E. assert (A' := queue_rep _ A). pose proof E as E0. apply joined_in in E as (e & E & -> & ->).
        destruct (end_edge W Hs _ _ A' E) as (H1 & H2 & H3 & H4 & H5). exists (fst e), (target g e).
        split; [split; [exact A|split; auto]|]. split; auto. split; [|split; auto].
        + simpl. apply Hq'. apply Hq' in A. econstructor; eauto.
        + eapply (wf_closed W); eauto.
    Qed.

    Lemma dedup_labels : labels_kept veq eeq g h.
    Proof.
      intros n m l k (A & B & C) E. simpl in A, C. apply queue_rep in A.
      destruct (end_label W Hs _ _ A B C E) as (e & H1 & H2). exists (label g e), (remote s e). split; auto. now apply in_joined.
    Qed.

    (** The edges of representatives for each edge of a member *)
    Definition followed : Prop :=
      forall r m l k, rep s r -> In m (ids g) -> veq (vx g m) (vx g r) = true -> In (l, k) (es g m) ->
        exists e, In e (outs s r) /\ eeq l (label g e) = true /\ veq (vx g k) (vx g (target g e)) = true.

    Lemma followed_edges : followed -> edges_kept veq eeq g h.
    Proof.
      intros F n m l k (A & B & C) E. simpl in A, C. assert (A' := queue_rep _ A).
      destruct (F n m l k A' B C E) as (e & H1 & H2 & H3). exists (label g e), (remote s e).
      split; [now apply in_joined|]. split; auto.
      destruct (end_edge W Hs _ _ A' H1) as (_ & _ & _ & _ & H5). split; [|split].
      - simpl. apply Hq'. apply Hq' in A. econstructor; eauto. now apply in_joined.
      - eapply (wf_closed W); eauto.
      - simpl. eapply (eqv_trans Hv); eauto.
    Qed.
    Lemma followed_vertices : followed -> vertices_kept veq g h.
    Proof.
      intros F m M. apply (wf_reach W) in M. induction M as [|m l k P IH E].
      - exists (root g). split; [|split].
        + apply Hq'. constructor.
        + apply (wf_root W).
        + apply (eqv_refl Hv).
      - destruct IH as (n & IH). destruct (followed_edges F _ _ IH E) as (l' & k' & _ & _ & H). eauto.
    Qed.

    Lemma deterministic_followed : deterministic veq eeq g -> followed.
    Proof.
      intros D r m l k R M A E. destruct (end_label W Hs _ _ R M A E) as (e & H1 & H2).
      destruct (end_edge W Hs _ _ R H1) as (H3 & H4 & H5 & _ & _). exists e. do 2 (split; auto).
      apply (D m l k (fst e) (label g e) (target g e)); auto. eapply (eqv_trans Hv); [exact A|]. now apply (eqv_sym Hv).
    Qed.
    Lemma distinct_followed : distinct_vertices veq g -> followed.
    Proof.
      intros D r m l k R M A E. assert (r = m) as <-.
      { symmetry. apply D; auto. now apply (rep_in W Hs). }
      apply in_edges_of in E as (e & E & <- & <-).
      destruct (apart_end Hv Hvh He Heh W D Hc _ R) as [Cv _]. destruct (Cv e E) as (e' & H1 & H2 & H3).
      exists e'. do 2 (split; auto). rewrite H2. apply (eqv_refl Hv).
    Qed.
  End Result.

  (** What is left is a graph of vertices of the original one that are all different, it has no other
      edges, and each vertex has all the labels of the vertices it stands for. *)
  Theorem C33_deduplication_sound d h :
    deduplicates X g veq vhash eeq ehash kills (d, None) -> remains d = Some h ->
    fused veq g h /\ labels_kept veq eeq g h.
  Proof.
    intros H R. destruct (dedup_facts H) as (_ & v & s & q & _ & _ & Hc & _ & Q1 & Q2 & ->). injection R as <-.
    split; [now apply dedup_fused|now apply dedup_labels].
  Qed.

  (** Nothing is lost from a graph in which edges with equal labels from equal vertices lead to equal
      vertices, or in which all vertices are different. *)
  Theorem C33_nothing_is_lost d h :
    deterministic veq eeq g \/ distinct_vertices veq g ->
    deduplicates X g veq vhash eeq ehash kills (d, None) -> remains d = Some h ->
    fused veq g h /\ vertices_kept veq g h /\ edges_kept veq eeq g h.
  Proof.
    intros D H R. destruct (dedup_facts H) as (_ & v & s & q & _ & _ & Hc & _ & Q1 & Q2 & ->). injection R as <-.
    assert (F : followed s).
    { destruct D; [now apply deterministic_followed|now apply distinct_followed]. }
    split; [now apply dedup_fused|]. split; [now apply followed_vertices|now apply followed_edges].
  Qed.

  (** No edges are repeated if those with equal labels from the same vertex lead to the same vertex,
      or if all vertices are different. *)
  Theorem C33_no_repeated_edges d h :
    single_valued eeq g \/ distinct_vertices veq g ->
    deduplicates X g veq vhash eeq ehash kills (d, None) -> remains d = Some h -> edges_unique eeq h.
  Proof.
    intros D H R. destruct (dedup_facts H) as (_ & v & s & q & _ & _ & Hc & _ & Q1 & Q2 & ->). injection R as <-.
    intros n Hn. simpl in *. pose proof (@queue_rep q s Hc Q2 n Hn) as Rn. apply FOP_map.
    destruct D as [D|D].
    - generalize (distinct_end Hv Hvh He Heh D Hc _ Rn). apply FOP_imp. intros x y _ _ E [E' _]. simpl in E'. congruence.
    - destruct (apart_end Hv Hvh He Heh W D Hc _ Rn) as [_ U]. revert U. apply FOP_imp. simpl. intros x y Hx Hy U [E E'].
      apply U. split; auto.
      pose proof (inv_end Hv Hvh He Heh Hc) as Hs.
      destruct (end_edge W Hs _ _ Rn Hx) as (X1 & X2 & _ & X4 & X5). destruct (end_edge W Hs _ _ Rn Hy) as (Y1 & Y2 & _ & Y4 & Y5).
      rewrite E' in X5. apply D; [exact (wf_closed W _ _ _ X1 X2)|exact (wf_closed W _ _ _ Y1 Y2)|].
      eapply (eqv_trans Hv); [exact X5|]. now apply (eqv_sym Hv).
  Qed.

  Definition labels_of (g : graph word word) : list word := flat_map (fun n => map fst (es g n)) (ids g).

  Lemma labels_edges_of : map (label g) (flat_map (edges_of g) (ids g)) = labels_of g.
  Proof.
    unfold labels_of. induction (ids g) as [|n l IH]; simpl; auto. rewrite map_app, IH. f_equal.
    unfold edges_of. rewrite map_map. unfold label, described. cbn [fst snd]. clear. generalize (es g n) as L.
    induction L as [|x L IH]; simpl; auto. f_equal. rewrite <- seq_shift, map_map. exact IH.
  Qed.

  Lemma NoDup_edges_of : NoDup (flat_map (edges_of g) (ids g)).
  Proof.
    generalize (wf_nodup W). induction (ids g) as [|n l IH]; simpl; intros D; [constructor|]. inversion D; subst.
    apply nodup_app; auto.
    - unfold edges_of. apply FinFun.Injective_map_NoDup; [|apply seq_NoDup]. intros a b [= ->]. auto.
    - intros e H3 H4. apply in_flat_map in H4 as (m & H5 & H6).
      apply edges_of_in in H3 as [<- _]. apply edges_of_in in H6 as [<- _]. auto.
  Qed.

  (** Each vertex and each label is either in the result or it is destroyed, but only once. *)
  Theorem C33_conservation d h :
    deduplicates X g veq vhash eeq ehash kills (d, None) -> remains d = Some h ->
    Permutation (ids h ++ vertices_freed d) (ids g) /\
    Permutation (labels_of h ++ map (label g) (labels_freed d)) (labels_of g) /\ NoDup (labels_freed d).
  Proof.
    intros H R. destruct (dedup_facts H) as (_ & v & s & q & V1 & V2 & Hc & _ & Q1 & Q2 & ->). injection R as <-. simpl.
    pose proof (inv_end Hv Hvh He Heh Hc) as Hs.
    assert (Sub : forall n, In n q -> In n v).
    { intros n Hn. apply V2. apply (rep_in W Hs). now apply (@queue_rep q s Hc Q2). }
    assert (P : Permutation (q ++ unqueued v q) (ids g)).
    { apply NoDup_Permutation; [|apply (wf_nodup W)|].
      - apply nodup_app; auto; [now apply NoDup_filter|]. intros n H1 H2. apply filter_In in H2 as [_ H2].
        apply negb_true_iff in H2. assert (existsb (Nat.eqb n) q = true); [|congruence].
        apply existsb_exists. exists n. split; auto. apply Nat.eqb_refl.
      - intros n. rewrite in_app_iff, <- V2. unfold unqueued. rewrite filter_In. split; [intros [?|[? _]]; auto|].
        intros Hn. destruct (existsb (Nat.eqb n) q) eqn:E; [|auto]. left.
        apply existsb_exists in E as (m & Hm & E). apply Nat.eqb_eq in E. now subst. }
    split; auto.
    pose proof (conserved_end Hv Hvh He Heh W Hc) as C. unfold all_edges in C.
    rewrite <- (Permutation_flat_map (outs s) P), flat_map_app in C.
    split.
    - rewrite <- labels_edges_of, <- C. unfold labels_of. simpl. rewrite !map_app.
      assert (E : flat_map (fun n => map fst (joined g s n)) q = map (label g) (flat_map (outs s) q)).
      { clear. induction q as [|n q IH]; simpl; auto. rewrite map_app, IH. f_equal. unfold joined. rewrite map_map. reflexivity. }
      rewrite E. perm_solve.
    - pose proof NoDup_edges_of as Nd.
      apply Permutation_NoDup with (l' := flat_map (outs s) q ++ disconnections s ++ unlabelled s ++ flat_map (outs s) (unqueued v q)) in Nd;
        [|rewrite <- C; perm_solve]. eapply NoDup_app_r; eauto.
  Qed.

  Theorem C33_deduplication_terminates y :
    reachable (lanes X) (ddest X g vhash) task (root g, None) (dstart g) y ->
    Acc (fun y' x => step (lanes X) (ddest X g vhash) task (root g, None) x y') y.
  Proof.
    intros Hy. eapply C11_every_schedule_terminates; eauto.
    - exact ddest_lt.
    - intros s [n c]. unfold deduplicating. cbn [fst snd]. destruct (broken s); [discriminate|].
      destruct (find _ _) as [r|], (own_edges _ _ _ _ s n) as [kept lost]; [|discriminate].
      destruct c as [e|]; [|discriminate]. destruct (n =? r); [discriminate|]. discriminate.
    - now apply dedup_terminates.
  Qed.
End Claims.

(** ** Examples *)

(** Deduplication by a schedule in which all threads take turns *)
Definition run_dedup X g veq vhash eeq ehash kills k : option (result dedup_result) :=
  let all := seq 0 (lanes X) in
  let y := sched_run (lanes X) (gwalk_dest X (vertex_hash g vhash)) (spreading X g vhash) (vstart []) (initial (root g)) k in
  let z := sched_run (lanes X) (ddest X g vhash) (deduplicating X g veq vhash eeq ehash) (dstart g) (root g, None) k in
  let q := sched_run (lanes X) (gwalk_dest X (vertex_hash g vhash)) (weeding g vhash (in_pass X kills 0) (sh z)) (vstart [])
             (initial (root g)) k in
  match mainpc y, pass_status all (sh y), mainpc z, mainpc q with
  | MDone, None, MDone, MDone =>
      Some (if broken (sh z) then (nothing, Some IER)
            else match cleared_status X kills (data (sh y)) (sh z) all (sh q) with
                 | None => (cleared g (data (sh y)) (data (sh q)) (sh z), None)
                 | Some e => (nothing, Some e)
                 end)
  | _, _, _, _ => None
  end.

Lemma run_dedup_sound X g veq vhash eeq ehash kills k v :
  run_dedup X g veq vhash eeq ehash kills k = Some v -> deduplicates X g veq vhash eeq ehash kills v.
Proof.
  unfold run_dedup. set (y := sched_run (lanes X) _ (spreading X g vhash) _ _ k).
  set (z := sched_run (lanes X) _ (deduplicating X g veq vhash eeq ehash) _ _ k).
  set (q := sched_run (lanes X) _ (weeding g vhash _ _) _ _ k).
  destruct (mainpc y) eqn:E1; try discriminate. apply sched_ran in E1. fold y in E1.
  destruct (pass_status (seq 0 (lanes X)) (sh y)) as [e|] eqn:E2; [discriminate|].
  destruct (mainpc z) eqn:E3; try discriminate. apply sched_ran in E3. fold z in E3.
  destruct (mainpc q) eqn:E4; try discriminate. apply sched_ran in E4. fold q in E4.
  intros [= <-]. eapply dedup_passes; eauto; apply Permutation_refl.
Qed.

Definition dedup_of (v : option (result dedup_result)) : dedup_result := match v with Some (d, _) => d | None => nothing end.
Definition left_of (v : option (result dedup_result)) : graph word word :=
  match remains (dedup_of v) with Some h => h | None => mkGraph [] (fun _ => null) (fun _ => []) 0 end.
(** The nodes and edges of the result, and what is destroyed *)
Definition seen_of (v : option (result dedup_result)) : list (nat * list (word * nat)) * list nat * list eid :=
  (map (fun n => (n, es (left_of v) n)) (ids (left_of v)), vertices_freed (dedup_of v), labels_freed (dedup_of v)).

Lemma run_dedup_ran X g veq vhash eeq ehash kills k :
  match run_dedup X g veq vhash eeq ehash kills k with Some (mkDR (Some _) _ _, None) => true | _ => false end = true ->
  deduplicates X g veq vhash eeq ehash kills (dedup_of (run_dedup X g veq vhash eeq ehash kills k), None) /\
  remains (dedup_of (run_dedup X g veq vhash eeq ehash kills k)) = Some (left_of (run_dedup X g veq vhash eeq ehash kills k)).
Proof.
  intros H. split.
  - apply run_dedup_sound with (k := k). destruct (run_dedup X g veq vhash eeq ehash kills k) as [[d [e|]]|]; try discriminate.
    + destruct d as [[|] ? ?]; discriminate.
    + reflexivity.
  - unfold left_of. destruct (run_dedup X g veq vhash eeq ehash kills k) as [[[[h|] ? ?] [e|]]|]; try discriminate. reflexivity.
Qed.

(** Vertices are equal if they are the same modulo 3. *)
Definition mod_eq (x y : word) : bool := N.eqb (x mod 3) (y mod 3).
Definition mod_hash (x : word) : N := (x mod 3)%N.
Lemma mod_equivalence : equivalence mod_eq.
Proof.
  unfold mod_eq. split; intros.
  - apply N.eqb_refl.
  - now rewrite N.eqb_sym.
  - apply N.eqb_eq in H, H0. apply N.eqb_eq. congruence.
Qed.
Lemma mod_hashes x y : mod_eq x y = true -> mod_hash x = mod_hash y.
Proof. unfold mod_eq. now rewrite N.eqb_eq. Qed.
Lemma id_hashes (x y : word) : N.eqb x y = true -> x = y.
Proof. apply N.eqb_eq. Qed.

Definition UG : graph word word :=
  mkGraph [1; 2; 3; 4; 5; 6; 7] N.of_nat
    (fun n => match n with
              | 1 => [(10%N, 2); (11%N, 4)] | 2 => [(10%N, 3); (11%N, 5)] | 3 => [(10%N, 4)]
              | 4 => [(10%N, 5); (11%N, 7)] | 5 => [(10%N, 6); (11%N, 2)] | 6 => [(10%N, 1)]
              | 7 => [(10%N, 2); (12%N, 6); (10%N, 2)] | _ => [] end) 1.
Lemma UG_wf : wf UG.
Proof.
  split.
  - repeat constructor; simpl; intuition discriminate.
  - now left.
  - intros n l m [<-|[<-|[<-|[<-|[<-|[<-|[<-|[]]]]]]]]; simpl; intuition; match goal with H : _ = _ |- _ => inversion H; auto 12 end.
  - assert (P1 : path UG 1 1) by constructor.
    assert (P2 : path UG 1 2) by (eapply path_step; [exact P1|simpl; eauto]).
    assert (P4 : path UG 1 4) by (eapply path_step; [exact P1|simpl; eauto]).
    assert (P3 : path UG 1 3) by (eapply path_step; [exact P2|simpl; eauto]).
    assert (P5 : path UG 1 5) by (eapply path_step; [exact P2|simpl; eauto]).
    assert (P7 : path UG 1 7) by (eapply path_step; [exact P4|simpl; eauto]).
    assert (P6 : path UG 1 6) by (eapply path_step; [exact P5|simpl; eauto]).
    intros n [<-|[<-|[<-|[<-|[<-|[<-|[<-|[]]]]]]]]; assumption.
Qed.

Definition drun1 := run_dedup X3 UG mod_eq mod_hash N.eqb (fun x => x) no_kills 400.

(** Determinism and the like can be decided for a given graph. *)
Definition edge_list_of (g : graph word word) : list (nat * (word * nat)) := flat_map (fun n => map (pair n) (es g n)) (ids g).
Lemma edge_listed g n l k : In n (ids g) -> In (l, k) (es g n) -> In (n, (l, k)) (edge_list_of g).
Proof. intros H E. apply in_flat_map. exists n. split; auto. now apply in_map. Qed.
Lemma deterministic_check veq eeq g :
  forallb (fun x => forallb (fun y => negb (veq (vx g (fst x)) (vx g (fst y)) && eeq (fst (snd x)) (fst (snd y)))
                                    || veq (vx g (snd (snd x))) (vx g (snd (snd y)))) (edge_list_of g)) (edge_list_of g) = true ->
  deterministic veq eeq g.
Proof.
  intros H n l k n' l' k' H1 H2 E1 E2 V E. rewrite forallb_forall in H.
  specialize (H _ (edge_listed g n l k H1 E1)). rewrite forallb_forall in H.
  specialize (H _ (edge_listed g n' l' k' H2 E2)). cbn [fst snd] in H. rewrite V, E in H. exact H.
Qed.
Lemma single_valued_check eeq g : (forall n, ~ In n (ids g) -> es g n = []) ->
  forallb (fun n => forallb (fun x => forallb (fun y => negb (eeq (fst x) (fst y)) || (snd x =? snd y)) (es g n)) (es g n)) (ids g) = true ->
  single_valued eeq g.
Proof.
  intros H0 H n l k l' k' E1 E2 E. rewrite forallb_forall in H.
  destruct (in_dec Nat.eq_dec n (ids g)) as [Hn|Hn]; [|rewrite H0 in E1; auto; destruct E1].
  specialize (H n Hn). rewrite forallb_forall in H. specialize (H _ E1). rewrite forallb_forall in H. specialize (H _ E2).
  cbn [fst snd] in H. rewrite E in H. now apply Nat.eqb_eq in H.
Qed.
Lemma distinct_check veq g :
  forallb (fun n => forallb (fun m => negb (veq (vx g n) (vx g m)) || (n =? m)) (ids g)) (ids g) = true -> distinct_vertices veq g.
Proof.
  intros H n m Hn Hm E. rewrite forallb_forall in H. specialize (H n Hn). rewrite forallb_forall in H. specialize (H m Hm).
  rewrite E in H. now apply Nat.eqb_eq in H.
Qed.
Lemma UG_outside n : ~ In n (ids UG) -> es UG n = [].
Proof. do 8 (destruct n as [|n]; [simpl; tauto|]). reflexivity. Qed.

(** Three vertices are left of seven, with edges from several of the original ones. *)
Example C33_deduplication_ex :
  wf UG /\ equivalence mod_eq /\ (forall x y, mod_eq x y = true -> mod_hash x = mod_hash y) /\ equivalence N.eqb /\
  deterministic mod_eq N.eqb UG /\ single_valued N.eqb UG /\
  (deduplicates X3 UG mod_eq mod_hash N.eqb (fun x => x) no_kills (dedup_of drun1, None) /\ remains (dedup_of drun1) = Some (left_of drun1)) /\
  seen_of drun1 = ([(1, [(10%N, 2); (12%N, 6); (11%N, 1)]); (6, [(10%N, 1)]); (2, [(11%N, 2); (10%N, 6)])],
                   [4; 7; 5; 3], [(6, 0); (2, 1); (2, 0); (4, 0); (1, 1); (1, 0); (7, 0)]).
Proof.
  split; [exact UG_wf|]. split; [exact mod_equivalence|]. split; [exact mod_hashes|]. split; [exact eqb_equivalence|].
  split; [apply deterministic_check; vm_compute; reflexivity|].
  split; [apply single_valued_check; [exact UG_outside|vm_compute; reflexivity]|].
  split; [apply run_dedup_ran; vm_compute; reflexivity|vm_compute; reflexivity].
Qed.

(** The same with a single worker and without Judy arrays *)
Definition drun2 := run_dedup X1n UG mod_eq mod_hash N.eqb (fun x => x) no_kills 400.
Example C33_deduplication_single_ex :
  (deduplicates X1n UG mod_eq mod_hash N.eqb (fun x => x) no_kills (dedup_of drun2, None) /\ remains (dedup_of drun2) = Some (left_of drun2)) /\
  length (ids (left_of drun2)) = 3 /\ length (flat_map (es (left_of drun2)) (ids (left_of drun2))) = 6.
Proof. split; [apply run_dedup_ran; vm_compute; reflexivity|vm_compute; auto]. Qed.

(** All vertices are different, and there are edges with equal labels from vertex 7 to different
    vertices. *)
Definition UG' : graph word word :=
  mkGraph (ids UG) (vx UG) (fun n => match n with 7 => [(10%N, 2); (10%N, 6); (10%N, 2); (12%N, 2)] | _ => es UG n end) 1.
Definition drun3 := run_dedup X3 UG' N.eqb (fun x => x) N.eqb (fun x => x) no_kills 400.
Example C33_distinct_vertices_ex :
  distinct_vertices N.eqb UG' /\ ~ single_valued N.eqb UG' /\
  (deduplicates X3 UG' N.eqb (fun x => x) N.eqb (fun x => x) no_kills (dedup_of drun3, None) /\ remains (dedup_of drun3) = Some (left_of drun3)) /\
  es (left_of drun3) 7 = [(12%N, 2); (10%N, 2); (10%N, 6)] /\ labels_freed (dedup_of drun3) = [(7, 0)].
Proof.
  split; [apply distinct_check; vm_compute; reflexivity|].
  split; [intros H; specialize (H 7 10%N 2 10%N 6); simpl in H; assert (2 = 6) by auto 10; discriminate|].
  split; [apply run_dedup_ran; vm_compute; reflexivity|vm_compute; auto].
Qed.

(** ** What is wrong with it *)

(** The vertices 2 and 3 are equal, but their edges labelled 12 lead to different vertices. *)
Definition LG : graph word word :=
  mkGraph [1; 2; 3; 4; 5] (fun n => match n with 2 | 3 => 23%N | _ => N.of_nat n end)
    (fun n => match n with 1 => [(10%N, 2); (11%N, 3)] | 2 => [(12%N, 4)] | 3 => [(12%N, 5)] | _ => [] end) 1.
Definition LG' : graph word word :=
  mkGraph (ids LG) (vx LG) (fun n => match n with 1 => [(10%N, 2); (11%N, 3); (13%N, 4); (14%N, 5)] | _ => es LG n end) 1.
Lemma LG_wf : wf LG.
Proof.
  split.
  - repeat constructor; simpl; intuition discriminate.
  - now left.
  - intros n l m [<-|[<-|[<-|[<-|[<-|[]]]]]]; simpl; intuition; match goal with H : _ = _ |- _ => inversion H; auto 12 end.
  - assert (P1 : path LG 1 1) by constructor.
    assert (P2 : path LG 1 2) by (eapply path_step; [exact P1|simpl; eauto]).
    assert (P3 : path LG 1 3) by (eapply path_step; [exact P1|simpl; eauto]).
    assert (P4 : path LG 1 4) by (eapply path_step; [exact P2|simpl; eauto]).
    assert (P5 : path LG 1 5) by (eapply path_step; [exact P3|simpl; eauto]).
    intros n [<-|[<-|[<-|[<-|[<-|[]]]]]]; assumption.
Qed.
Lemma LG'_wf : wf LG'.
Proof.
  split.
  - exact (wf_nodup LG_wf).
  - now left.
  - intros n l m [<-|[<-|[<-|[<-|[<-|[]]]]]]; simpl; intuition; match goal with H : _ = _ |- _ => inversion H; auto 12 end.
  - intros n H. apply (wf_reach LG_wf) in H. induction H as [|n l m P IH E]; [constructor|].
    eapply path_step; [exact IH|]. destruct n as [|[|n]]; simpl in *; eauto. intuition eauto.
Qed.
Definition drun4 := run_dedup X3 LG N.eqb (fun x => x) N.eqb (fun x => x) no_kills 400.
Definition drun5 := run_dedup X3 LG' N.eqb (fun x => x) N.eqb (fun x => x) no_kills 400.

(** Vertices are lost. *)
Theorem C33_vertices_lost_refuted :
  exists X g d h m, wf g /\ 0 < lanes X /\ deduplicates X g N.eqb (fun x => x) N.eqb (fun x => x) no_kills (d, None) /\
    remains d = Some h /\ In m (ids g) /\ ~ exists n, stands N.eqb g h n m.
Proof.
  assert (R := fun H => @run_dedup_ran X3 LG N.eqb (fun x => x) N.eqb (fun x => x) no_kills 400 H).
  destruct R as [R1 R2]; [vm_compute; reflexivity|].
  exists X3, LG, (dedup_of drun4), (left_of drun4), 5. split; [exact LG_wf|]. split; [simpl; lia|]. split; [exact R1|].
  split; [exact R2|]. split; [simpl; auto 10|]. intros (n & A & _ & E).
  replace (ids (left_of drun4)) with [1; 3; 4] in A by (vm_compute; reflexivity).
  destruct A as [<-|[<-|[<-|[]]]]; vm_compute in E; discriminate.
Qed.

(** Edges are lost even if the vertices are still there. *)
Theorem C33_edges_lost_refuted :
  exists X g d h n m l k k', wf g /\ 0 < lanes X /\ deduplicates X g N.eqb (fun x => x) N.eqb (fun x => x) no_kills (d, None) /\
    remains d = Some h /\ stands N.eqb g h n m /\ In (l, k) (es g m) /\ stands N.eqb g h k' k /\ ~ In (l, k') (es h n).
Proof.
  assert (R := fun H => @run_dedup_ran X3 LG' N.eqb (fun x => x) N.eqb (fun x => x) no_kills 400 H).
  destruct R as [R1 R2]; [vm_compute; reflexivity|].
  exists X3, LG', (dedup_of drun5), (left_of drun5), 3, 3, 12%N, 5, 5. split; [exact LG'_wf|]. split; [simpl; lia|]. split; [exact R1|].
  split; [exact R2|]. split; [vm_compute; auto 10|]. split; [simpl; auto|]. split; [vm_compute; auto 10|].
  vm_compute. intuition discriminate.
Qed.

(** Edges are repeated. *)
Definition RG : graph word word :=
  mkGraph [1; 2; 3] (fun n => match n with 2 | 3 => 23%N | _ => N.of_nat n end)
    (fun n => match n with 1 => [(10%N, 2); (10%N, 3)] | _ => [] end) 1.
Lemma RG_wf : wf RG.
Proof.
  split.
  - repeat constructor; simpl; intuition discriminate.
  - now left.
  - intros n l m [<-|[<-|[<-|[]]]]; simpl; intuition; match goal with H : _ = _ |- _ => inversion H; auto 12 end.
  - assert (P1 : path RG 1 1) by constructor.
    assert (P2 : path RG 1 2) by (eapply path_step; [exact P1|simpl; eauto]).
    assert (P3 : path RG 1 3) by (eapply path_step; [exact P1|simpl; eauto]).
    intros n [<-|[<-|[<-|[]]]]; assumption.
Qed.
Definition drun6 := run_dedup X3 RG N.eqb (fun x => x) N.eqb (fun x => x) no_kills 400.
Theorem C33_edges_repeated_refuted :
  exists X g d h, wf g /\ 0 < lanes X /\ deterministic N.eqb N.eqb g /\
    deduplicates X g N.eqb (fun x => x) N.eqb (fun x => x) no_kills (d, None) /\
    remains d = Some h /\ ~ edges_unique N.eqb h.
Proof.
  assert (R := fun H => @run_dedup_ran X3 RG N.eqb (fun x => x) N.eqb (fun x => x) no_kills 400 H).
  destruct R as [R1 R2]; [vm_compute; reflexivity|].
  exists X3, RG, (dedup_of drun6), (left_of drun6). split; [exact RG_wf|]. split; [simpl; lia|].
  split; [apply deterministic_check; vm_compute; reflexivity|]. split; [exact R1|]. split; [exact R2|].
  intros U. specialize (U 1). replace (es (left_of drun6) 1) with [(10%N, 3); (10%N, 3)] in U by (vm_compute; reflexivity).
  assert (In 1 (ids (left_of drun6))) as H by (vm_compute; auto). specialize (U H).
  inversion U as [|a l F _]; subst. inversion F as [|b l' F' _]; subst. apply F'. split; reflexivity.
Qed.

(** If the last pass is killed, a graph without some of its vertices can be returned as if
    successful. *)
Definition drun7 := run_dedup X3 UG mod_eq mod_hash N.eqb (fun x => x) (kill_at 0 1) 400.
Theorem C36_killed_deduplication_refuted :
  exists X g kills d h, wf g /\ 0 < lanes X /\
    deduplicates X g mod_eq mod_hash N.eqb (fun x => x) kills (d, None) /\ remains d = Some h /\
    exists n l m, In n (ids h) /\ In (l, m) (es h n) /\ ~ In m (ids h) /\ In m (vertices_freed d).
Proof.
  assert (R := fun H => @run_dedup_ran X3 UG mod_eq mod_hash N.eqb (fun x => x) (kill_at 0 1) 400 H).
  destruct R as [R1 R2]; [vm_compute; reflexivity|].
  exists X3, UG, (kill_at 0 1), (dedup_of drun7), (left_of drun7). split; [exact UG_wf|]. split; [simpl; lia|]. split; [exact R1|].
  split; [exact R2|]. exists 1, 10%N, 2. split; [vm_compute; auto|]. split; [vm_compute; auto 10|].
  split; [vm_compute; intros [H|[]]; discriminate|vm_compute; auto 10].
Qed.
