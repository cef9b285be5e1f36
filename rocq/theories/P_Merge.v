(** Merging: claims C22 and C23, and what falls short of them. *)
From Coq Require Import List Arith NArith Lia Bool Permutation.
From Verif Require Import Base Machine Ports PortsProofs P_Ports BrigadeProofs Env Hash Graph Visitor VisitorProofs Walk Run Pass Fold P_Fold
  Traverse TraverseProofs P_Traverse Fabricate Containers P_Containers Brigade P_Brigade Partition P_Partition Filter P_Killed Merge MergeProofs.
Import ListNotations.

Set Implicit Arguments.

Local Opaque lane_of node_hash.

(** ** The specification *)
Section Quotient.
  Variable g : graph word word.
  Variable property : nat -> word.
  Variable equal eeq : word -> word -> bool.
  Variable prune : option (bool -> word -> bool * option error).

  (** Are two vertices in the same class? *)
  Definition related (n m : nat) : bool := N.eqb (property n) (property m) || equal (property n) (property m).
  Definition mates (n : nat) : list nat := filter (related n) (ids g).

  (** Does every vertex in the class of [n] have an outgoing edge with a label equal to [l]? *)
  Definition everywhere (n : nat) (l : word) : bool :=
    forallb (fun m => existsb (fun x => eeq l (fst x)) (es g m)) (mates n).
  Definition retained (n : nat) (l : word) : bool :=
    match prune with None => true | Some f => fst (f (everywhere n l) l) end.

  (** The vertices in the classes that can be reached from the root's. *)
  Inductive reached : nat -> Prop :=
  | reached_root : reached (root g)
  | reached_mate n m : reached n -> In m (mates n) -> reached m
  | reached_edge n l m : reached n -> In (l, m) (es g n) -> retained n l = true -> reached m.

  (** [rep] gives a representative of each class, which is the node in [h] that stands for it. *)
  Record quotient_vertices (value : list word -> word) (h : graph word word) (rep : nat -> nat) : Prop := {
    q_same : forall n m, In n (ids g) -> In m (ids g) -> (rep n = rep m <-> related n m = true);
    q_rep : forall n, In n (ids g) -> In (rep n) (mates n);
    q_root : root h = root g /\ rep (root g) = root g;
    q_nodup : NoDup (ids h);
    q_ids : forall a, In a (ids h) <-> exists n, reached n /\ a = rep n;
    q_value : forall n, In n (ids g) -> exists l, Permutation l (mates n) /\ vx h (rep n) = value (map (vx g) l)
  }.

  (** Edges that are not combined: there is one for every label and class, up to equality. *)
  Record quotient_edges (h : graph word word) (rep : nat -> nat) : Prop := {
    qe_sound : forall n l b, In n (ids g) -> In (l, b) (es h (rep n)) ->
      exists m k, In m (mates n) /\ In (l, k) (es g m) /\ retained n l = true /\ b = rep k;
    qe_complete : forall n l k, In n (ids g) -> In (l, k) (es g n) -> retained n l = true ->
      exists l', In (l', rep k) (es h (rep n)) /\ eeq l l' = true;
    qe_once : forall n, In n (ids g) ->
      ForallOrdPairs (fun x y => ~ (snd x = snd y /\ eeq (fst x) (fst y) = true)) (es h (rep n))
  }.

  (** Edges that are combined: there is one for every class, whose label is made of the retained ones
      by mapping each of them and the two composite vertices by [f], and then reducing by [r]. *)
  Definition labels_between (n b : nat) (rep : nat -> nat) : list word :=
    flat_map (fun m => map fst (filter (fun x => (rep (snd x) =? b) && retained n (fst x)) (es g m))) (mates n).
  Record combined_edges (x0 : option word) f r (h : graph word word) (rep : nat -> nat) : Prop := {
    ce_once : forall n, In n (ids g) -> NoDup (map snd (es h (rep n)));
    ce_exists : forall n b, In n (ids g) ->
      (In b (map snd (es h (rep n))) <-> exists m l k, In m (mates n) /\ In (l, k) (es g m) /\ retained n l = true /\ b = rep k);
    ce_label : forall n w b, In n (ids g) -> In (w, b) (es h (rep n)) ->
      exists L, Permutation L (labels_between n b rep) /\
        w = combined x0 (fun l => f (vx h (rep n)) l (vx h b)) r L
  }.
End Quotient.

Section Merged.
  Variable X : env.
  Variable g : graph word word.
  Variable mapped : nat -> outcome.
  Variable equal : word -> word -> bool.
  Variable phash : word -> N.
  Variable c : merger.
  Variable eeq : word -> word -> bool.
  Variable ehash : word -> N.
  Variable kills : nat -> nat -> bool.
  Hypothesis W : wf g.
  Hypothesis Hl : 0 < lanes X.
  Hypothesis K : never_killed kills.
  Hypothesis Heq : equivalence (alike equal).
  Hypothesis Hcompat : forall x y, alike equal x y = true -> phash x = phash y.
  Hypothesis He : equivalence eeq.
  Hypothesis Hh : forall x y, eeq x y = true -> ehash x = ehash y.

  Notation property := (fun n => fst (mapped n)).
  Notation related := (related property equal).
  Notation mates := (mates g property equal).
  Notation retained := (retained g property equal eeq (pruner c)).
  Notation reached := (reached g property equal eeq (pruner c)).

  Lemma related_sym n m : related n m = related m n.
  Proof. apply eq_true_iff_eq. split; apply (eqv_sym Heq). Qed.
  Lemma related_trans n m k : related n m = true -> related m k = true -> related n k = true.
  Proof. apply (eqv_trans Heq). Qed.
  Lemma related_refl n : related n n = true.
  Proof. apply (eqv_refl Heq). Qed.
  Lemma mates_eq n m : related n m = true -> mates n = mates m.
  Proof.
    intros H. apply filter_ext. intros k. apply eq_true_iff_eq. split; intros H'.
    - eapply related_trans; [|exact H']. now rewrite related_sym.
    - eapply related_trans; eauto.
  Qed.
  Lemma retained_eq n m l : related n m = true -> retained n l = retained m l.
  Proof. intros H. unfold P_Merge.retained, everywhere. now rewrite (mates_eq _ _ H). Qed.

  (** What is known of the classes when merging is successful. *)
  Lemma merged_facts h e :
    merges X g mapped equal phash c eeq ehash kills (Done (Some h, e)) ->
    e = None /\ exists prop cs sq order,
      (forall n, In n (ids g) -> prop n = fst (mapped n) /\ snd (mapped n) = None) /\
      partitioned g equal prop cs /\
      snd (fused_vertices g c cs) = [] /\ edge_errors X g c eeq ehash cs (fst (fused_vertices g c cs)) = [] /\
      ran (lanes X) (gwalk_dest X (prop_hash phash prop))
          (merge_pruning phash (in_pass X kills 1) prop (merged_edges X g c eeq ehash cs (fst (fused_vertices g c cs)))) (vstart [])
          (initial (root g)) sq /\
      Permutation order (seq 0 (lanes X)) /\ pass_status order sq = None /\
      h = mkGraph (data sq) (fst (fused_vertices g c cs)) (merged_edges X g c eeq ehash cs (fst (fused_vertices g c cs))) (root g).
  Proof.
    intros H. remember (Done (Some h, e)) as v eqn:Ev. destruct H as [|s order s' order' cs v R1 O1 V1 R2 O2 V2 Hc M]; [discriminate|].
    pose proof (properties_set W Hl K R1 O1 V1) as Hp.
    assert (Pt : partitioned g equal (data s) cs) by (eapply vertices_classified; eauto).
    destruct M as [| | |prop cs sq o Hm Hv Hee R3 O3]; try discriminate.
    destruct (pass_status o sq) eqn:E3; [discriminate|].
    assert (E1 : e = None) by congruence. split; [exact E1|].
    exists prop, cs, sq, o.
    split; [intros n Hn; now rewrite (Hp n Hn)|]. do 6 (split; [assumption|]). congruence.
  Qed.

  Section Facts.
    Variable prop : nat -> word.
    Variable cs : list (list nat).
    Hypothesis Hp : forall n, In n (ids g) -> prop n = fst (mapped n) /\ snd (mapped n) = None.
    Hypothesis Pt : partitioned g equal prop cs.
    Notation vs := (fst (fused_vertices g c cs)).
    Notation rep := (head_of cs).
    Notation out := (merged_edges X g c eeq ehash cs vs).
    Hypothesis Hv : snd (fused_vertices g c cs) = [].
    Hypothesis Hee : edge_errors X g c eeq ehash cs vs = [].

    Lemma same_related n m : In n (ids g) -> In m (ids g) -> same equal prop n m = related n m.
    Proof.
      intros Hn Hm. rewrite same_alike. unfold alike, P_Merge.related.
      destruct (Hp n Hn) as [-> _], (Hp m Hm) as [-> _]. reflexivity.
    Qed.

    Lemma class_of n : In n (ids g) -> exists h t, In (h :: t) cs /\ In n (h :: t) /\ rep n = h /\ Permutation (h :: t) (mates n).
    Proof.
      intros Hn. destruct (@class_found g equal prop cs Pt n Hn) as (h & t & Hk & Hn'). exists h, t.
      split; [exact Hk|]. split; [exact Hn'|]. split; [eapply head_of_in; eauto|].
      rewrite (@class_members g equal prop cs Pt h t n (wf_nodup W) Hk Hn').
      unfold P_Merge.mates. erewrite filter_ext_in; [reflexivity|]. intros m Hm. now apply same_related.
    Qed.

    Lemma rep_mate n : In n (ids g) -> In (rep n) (mates n).
    Proof.
      intros Hn. destruct (class_of n Hn) as (h & t & _ & _ & -> & P). eapply Permutation_in; [exact P|]. simpl. auto.
    Qed.
    Lemma mate_ids n m : In m (mates n) -> In m (ids g) /\ related n m = true.
    Proof. apply filter_In. Qed.

    Lemma rep_same n m : In n (ids g) -> In m (ids g) -> (rep n = rep m <-> related n m = true).
    Proof.
      intros Hn Hm. destruct (class_of n Hn) as (h & t & Hk & Hin & -> & P). destruct (class_of m Hm) as (h' & t' & Hk' & Hin' & -> & P').
      split.
      - intros <-. destruct (mate_ids n h) as [A1 A2]; [eapply Permutation_in; [exact P|simpl; auto]|].
        destruct (mate_ids m h) as [B1 B2]; [eapply Permutation_in; [exact P'|simpl; auto]|].
        eapply related_trans; [exact A2|]. now rewrite related_sym.
      - intros H. assert (E1 : h :: t = h' :: t').
        { eapply (pt_diff Pt); eauto. now rewrite same_related. }
        congruence.
    Qed.

    Lemma rep_root : rep (root g) = root g.
    Proof. destruct (pt_root Pt) as [k Hk]. eapply head_of_in; eauto. simpl. auto. Qed.

    Lemma class_unanimous n h t l : In n (ids g) -> Permutation (h :: t) (mates n) ->
      keeps g c eeq (h :: t) l = retained n l.
    Proof.
      intros Hn P. unfold keeps, P_Merge.retained. destruct (pruner c) as [f|]; auto. f_equal. f_equal.
      unfold unanimous, everywhere. apply eq_true_iff_eq. rewrite !forallb_forall. split; intros H x Hx; apply H.
      - eapply Permutation_in; [symmetry; exact P|exact Hx].
      - eapply Permutation_in; [exact P|exact Hx].
    Qed.

    Lemma no_edge_errors k : In k cs -> snd (fused_edges X g c eeq ehash vs rep k) = [].
    Proof.
      intros Hk. destruct (snd (fused_edges X g c eeq ehash vs rep k)) as [|e l] eqn:E1; auto. exfalso.
      assert (H : In e (edge_errors X g c eeq ehash cs vs)).
      { unfold edge_errors. apply in_flat_map. exists k. split; auto. rewrite E1. simpl. auto. }
      rewrite Hee in H. destruct H.
    Qed.

    (** Where the edges of a class lead to, with or without an operation on edges. *)
    Definition edges_spec : Prop := forall n b, In n (ids g) ->
      (In b (map snd (out (rep n))) <-> exists m l k, In m (mates n) /\ In (l, k) (es g m) /\ retained n l = true /\ b = rep k).

    Lemma out_class n h t : In (h :: t) cs -> In n (h :: t) -> out (rep n) = fst (fused_edges X g c eeq ehash vs rep (h :: t)).
    Proof.
      intros Hk Hn. rewrite (@head_of_in g equal prop cs Heq Pt h t n Hk Hn). eapply edges_of_head; eauto.
    Qed.

    Lemma plain_edges_spec n : e_op c = None -> In n (ids g) ->
      (forall l b, In (l, b) (out (rep n)) -> exists m k, In m (mates n) /\ In (l, k) (es g m) /\ retained n l = true /\ b = rep k) /\
      (forall m l k, In m (mates n) -> In (l, k) (es g m) -> retained n l = true ->
         exists l', In (l', rep k) (out (rep n)) /\ eeq l l' = true) /\
      ForallOrdPairs (fun x y => ~ (snd x = snd y /\ eeq (fst x) (fst y) = true)) (out (rep n)).
    Proof.
      intros Eo Hn. destruct (class_of n Hn) as (h & t & Hk & Hin & _ & P). rewrite (out_class Hk Hin).
      destruct (@fused_without_op X g c eeq ehash He Hh vs rep (h :: t) Eo (no_edge_errors _ Hk)) as (A & B & C).
      split; [|split; [|exact C]].
      - intros l b H. destruct (A l b H) as (m & k & Hm & Hk1 & Hk2 & Hb). exists m, k.
        split; [eapply Permutation_in; eauto|]. split; [auto|]. split; [|auto]. now rewrite <- (@class_unanimous n h t l Hn P).
      - intros m l k Hm Hk1 Hk2. apply (B m l k); auto; [eapply Permutation_in; [symmetry; exact P|exact Hm]|].
        now rewrite (@class_unanimous n h t l Hn P).
    Qed.

    Lemma flat_map_perm {A B} (F : A -> list B) l l' : Permutation l l' -> Permutation (flat_map F l) (flat_map F l').
    Proof.
      induction 1; simpl; auto; [now apply Permutation_app_head| |etransitivity; eauto].
      rewrite !app_assoc. apply Permutation_app_tail, Permutation_app_comm.
    Qed.

    Lemma combined_edges_spec n m x0 f r : e_op c = Some m -> plain_fold m x0 f r -> In n (ids g) ->
      NoDup (map snd (out (rep n))) /\
      (forall b, In b (map snd (out (rep n))) <-> exists m l k, In m (mates n) /\ In (l, k) (es g m) /\ retained n l = true /\ b = rep k) /\
      (forall w b, In (w, b) (out (rep n)) -> exists L, Permutation L (labels_between g property equal eeq (pruner c) n b rep) /\
         w = combined x0 (fun l => f (vs (rep n)) l (vs b)) r L).
    Proof.
      intros Eo Hf Hn. destruct (class_of n Hn) as (h & t & Hk & Hin & Eh & P). rewrite (out_class Hk Hin), Eh.
      destruct (@fused_with_op X g c eeq ehash He Hh vs rep m x0 f r (h :: t) h t Eo Hf eq_refl (no_edge_errors _ Hk)) as (A & B & C).
      split; [exact A|]. split.
      - intros b. rewrite B. split; intros (m' & l & k & Hm & Hk1 & Hk2 & Hb); exists m', l, k.
        + split; [eapply Permutation_in; eauto|]. split; [auto|]. split; [|auto]. now rewrite <- (@class_unanimous n h t l Hn P).
        + split; [eapply Permutation_in; [symmetry; exact P|exact Hm]|]. split; [auto|]. split; [|auto]. now rewrite (@class_unanimous n h t l Hn P).
      - intros w b H. destruct (C w b H) as (L & PL & Ew). exists L. split; [|exact Ew].
        rewrite PL. unfold labels_between. rewrite (flat_map_perm _ P).
        match goal with |- Permutation (flat_map ?F _) (flat_map ?G _) => rewrite (flat_map_ext F G); [reflexivity|] end.
        intros a. f_equal. apply filter_ext. intros x. f_equal.
        now apply class_unanimous.
    Qed.

    Hypothesis Hes : edges_spec.

    Lemma reached_ids n : reached n -> In n (ids g).
    Proof.
      induction 1 as [|n m _ _ Hm|n l m _ IH Hm _]; [apply (wf_root W)|now apply mate_ids in Hm|].
      eapply (wf_closed W); eauto.
    Qed.

    Lemma along_reached a : along out (root g) a <-> exists n, reached n /\ a = rep n.
    Proof.
      split.
      - induction 1 as [|a l b _ (n & Hn & ->) Hb].
        + exists (root g). split; [constructor|]. now rewrite rep_root.
        + assert (Hin := reached_ids Hn). assert (Hb' : In b (map snd (out (rep n)))) by (apply in_map_iff; exists (l, b); auto).
          apply (Hes n b Hin) in Hb' as (m & l' & k & Hm & Hk & Hr & ->). exists k. split; auto.
          eapply reached_edge with (n := m) (l := l'); [eapply reached_mate; eauto|auto|].
          rewrite <- (@retained_eq n m); auto. now apply mate_ids in Hm.
      - intros (n & Hn & ->). induction Hn as [|n m Hn IH Hm|n l m Hn IH Hm Hr].
        + rewrite rep_root. constructor.
        + replace (rep m) with (rep n); auto. apply mate_ids in Hm as [A B]. apply rep_same; auto. now apply reached_ids.
        + assert (Hin := reached_ids Hn).
          assert (Hb : In (rep m) (map snd (out (rep n)))).
          { apply (Hes n (rep m) Hin). exists n, l, m. split; [|auto]. apply filter_In. split; auto. apply related_refl. }
          apply in_map_iff in Hb as ([l' b] & E1 & Hb). simpl in E1. subst b. eapply along_step; eauto.
    Qed.

    Variable value : list word -> word.
    Hypothesis Hval : computes (v_op c) value.

    Lemma quotient_facts sq order :
      ran (lanes X) (gwalk_dest X (prop_hash phash prop)) (merge_pruning phash (in_pass X kills 1) prop out) (vstart [])
          (initial (root g)) sq ->
      Permutation order (seq 0 (lanes X)) -> pass_status order sq = None ->
      quotient_vertices g property equal eeq (pruner c) value (mkGraph (data sq) vs out (root g)) rep.
    Proof.
      intros R O V. apply ran_completes in R; [|now apply vdest_lt].
      assert (V' : vstatus (in_pass X kills 1) order sq = None) by (eapply pass_unkilled; [exact Hl|exact O|intros; apply K|exact R|exact V]).
      destruct (@gwalk_success _ _ (in_pass X kills 1) _ _ _ _ _ _ _ Hl O R V') as (nodes & A & B & C).
      assert (Hd : Permutation (data sq) nodes).
      { clear - C. enough (G : forall d d', acts collect d nodes = Some d' -> Permutation d' (d ++ nodes)) by now apply (G []).
        clear C. induction nodes as [|n nodes IH]; simpl; intros d d' H; [inversion H; now rewrite app_nil_r|].
        apply IH in H. rewrite H, <- app_assoc. reflexivity. }
      split; cbn [root ids vx es].
      - apply rep_same.
      - apply rep_mate.
      - split; [reflexivity|apply rep_root].
      - eapply Permutation_NoDup; [symmetry; exact Hd|exact A].
      - intros a. rewrite <- along_reached, <- B. split; apply Permutation_in; [exact Hd|now symmetry].
      - intros n Hn. destruct (class_of n Hn) as (h & t & Hk & Hin & -> & P). exists (h :: t). split; auto.
        destruct (@fused_values g c value Hval cs (vx g)) as (_ & F & _); auto.
        + eapply Permutation_NoDup; [symmetry; exact (pt_perm Pt)|apply (wf_nodup W)].
        + apply (pt_ne Pt).
    Qed.
  End Facts.

  (** ** C22: merging makes the quotient graph *)

  (** The operation on edges is either missing or free of errors. *)
  Definition plain_edge_op : Prop :=
    match e_op c with None => True | Some m => exists x0 f r, plain_fold m x0 f r end.

  Theorem C22_merging_makes_the_quotient value h e :
    computes (v_op c) value -> plain_edge_op ->
    merges X g mapped equal phash c eeq ehash kills (Done (Some h, e)) ->
    e = None /\ wf h /\ exists rep,
      quotient_vertices g property equal eeq (pruner c) value h rep /\
      (e_op c = None -> quotient_edges g property equal eeq (pruner c) h rep) /\
      (forall m x0 f r, e_op c = Some m -> plain_fold m x0 f r -> combined_edges g property equal eeq (pruner c) x0 f r h rep).
  Proof.
    intros Hval Hop H. destruct (merged_facts H) as (E0 & prop & cs & sq & order & Hp & Pt & Hv & Hee & R & O & V & ->).
    split; [exact E0|]. clear E0 H.
    assert (Hes : edges_spec cs).
    { intros n b Hn. unfold plain_edge_op in Hop. destruct (e_op c) as [m|] eqn:Eo.
      - destruct Hop as (x0 & f & r & Hf). apply (@combined_edges_spec prop cs Hp Pt Hee n m x0 f r Eo Hf Hn).
      - destruct (@plain_edges_spec prop cs Hp Pt Hee n Eo Hn) as (A & B & _). split.
        + intros Hb. apply in_map_iff in Hb as ([l b'] & <- & Hb). destruct (A l b' Hb) as (m & k & H1 & H2 & H3 & H4). exists m, l, k. auto.
        + intros (m & l & k & H1 & H2 & H3 & ->). destruct (B m l k H1 H2 H3) as (l' & Hl' & _). apply in_map_iff. exists (l', head_of cs k). auto. }
    pose proof (@quotient_facts prop cs Hp Pt Hv Hes value Hval sq order R O V) as Q.
    split; [|exists (head_of cs); split; [exact Q|split]].
    - destruct Q as [_ _ [_ Qr] Qn Qi _]. split.
      + exact Qn.
      + apply Qi. exists (root g). split; [constructor|]. now rewrite Qr.
      + intros n l m Hn Hm. apply Qi in Hn. apply Qi. apply (@along_reached prop cs Hp Pt Hes) in Hn.
        apply (@along_reached prop cs Hp Pt Hes). eapply along_step; eauto.
      + intros n Hn. apply Qi in Hn. apply (@along_reached prop cs Hp Pt Hes) in Hn. now apply along_path.
    - intros Eo. split.
      + intros n l b Hn Hb. destruct (@plain_edges_spec prop cs Hp Pt Hee n Eo Hn) as (A & _ & _). now apply A.
      + intros n l k Hn Hk Hr. destruct (@plain_edges_spec prop cs Hp Pt Hee n Eo Hn) as (_ & B & _). apply (B n); auto.
        apply filter_In. split; auto. apply related_refl.
      + intros n Hn. now destruct (@plain_edges_spec prop cs Hp Pt Hee n Eo Hn) as (_ & _ & C).
    - intros m x0 f r Eo Hf. split; intros; eapply (@combined_edges_spec prop cs Hp Pt Hee); eauto.
  Qed.

  (** Nothing else can happen if the user's functions don't raise errors, and if the vertices are in
      classes of their own whenever there is no operation on vertices. *)
  Theorem C22_merging_succeeds value v :
    computes (v_op c) value -> plain_edge_op -> (forall n, In n (ids g) -> snd (mapped n) = None) ->
    (forall f b l, pruner c = Some f -> snd (f b l) = None) ->
    (v_op c = None -> forall n m, In n (ids g) -> In m (ids g) -> related n m = true -> n = m) ->
    merges X g mapped equal phash c eeq ehash kills v -> exists h, v = Done (Some h, None).
  Proof.
    intros Hval Hop Hm Hpr Hone H. destruct H as [s order e R1 O1 V1|s order s' order' cs v R1 O1 V1 R2 O2 V2 Hc M].
    - exfalso. destruct (pass_error _ _ V1) as (l & Hle).
      apply ran_completes in R1; [|now apply vdest_lt]. destruct (gwalk_any R1) as (nodes & A & B & C & D).
      destruct (D l e Hle) as (n1 & n & n2 & -> & Ha & _).
      assert (Hn : In n (ids g)) by (apply along_ids; auto; apply B; apply in_elt). specialize (Hm n Hn).
      unfold prop_act in Ha. destruct (mapped n) as [x [e0|]]; simpl in *; congruence.
    - pose proof (properties_set W Hl K R1 O1 V1) as Hp'.
      assert (Pt : partitioned g equal (data s) cs) by (eapply vertices_classified; eauto).
      assert (Hp : forall n, In n (ids g) -> data s n = fst (mapped n) /\ snd (mapped n) = None).
      { intros n Hn. now rewrite (Hp' n Hn). }
      assert (Hrm : reads_mark c = false).
      { unfold reads_mark. destruct Hval as [|p x0 f r [Hin _ _ _ _ _]]; auto. now rewrite Hin. }
      assert (Hvs : snd (fused_vertices g c cs) = []).
      { unfold fused_vertices. generalize (vx g). pose proof (pt_ne Pt) as Hne.
        assert (H1 : v_op c = None -> forall k, In k cs -> length k <= 1).
        { intros Ev k Hk. destruct k as [|a [|b k]]; simpl; auto. exfalso.
          assert (Ia : In a (ids g)) by (eapply class_ids; eauto; simpl; auto).
          assert (Ib : In b (ids g)) by (eapply class_ids; eauto; simpl; auto).
          assert (Eab : a = b).
          { apply Hone; auto. rewrite <- (@same_related (data s) Hp a b Ia Ib). eapply (pt_same Pt); eauto; simpl; auto. }
          subst b. pose proof (Permutation_NoDup (Permutation_sym (pt_perm Pt)) (wf_nodup W)) as N.
          apply in_split in Hk as (l1 & l2 & ->). rewrite concat_app in N. apply NoDup_app_r in N. cbn [concat] in N.
          apply NoDup_app_l in N. inversion N as [|? ? N1 _]. apply N1. simpl. auto. }
        clear - Hne H1 Hval. induction cs as [|k cs' IH]; intros vs; [reflexivity|]. cbn [fold_left].
        assert (Hk : k <> []) by (apply Hne; simpl; auto).
        assert (E1 : exists vs', fuse_class g c (vs, []) k = (vs', [])).
        { unfold fuse_class. destruct Hval as [|p x0 f r Hpl].
          - specialize (H1 eq_refl k (or_introl eq_refl)). destruct k as [|a [|b k]]; simpl in *; [eauto|eauto|lia].
          - rewrite (plain_reduced Hpl) by (destruct k; [congruence|discriminate]). eauto. }
        destruct E1 as (vs' & ->). apply IH; intros; [apply Hne|apply H1]; simpl; auto. }
      assert (Hes : edge_errors X g c eeq ehash cs (fst (fused_vertices g c cs)) = []).
      { unfold edge_errors. generalize (fst (fused_vertices g c cs)) (head_of cs). intros vs cls.
        assert (Hf : forall k, snd (filtered_edges X g c eeq ehash k) = None).
        { intros k. unfold filtered_edges. destruct (pruner c) as [f|]; auto. generalize (gathered g k). intros l.
          induction l as [|x l IH]; simpl; auto.
          destruct (f (flag X eeq ehash (class_labels X g eeq ehash k) (length k - 1) (fst x)) (fst x)) as [b e] eqn:Ef.
          specialize (Hpr f (flag X eeq ehash (class_labels X g eeq ehash k) (length k - 1) (fst x)) (fst x) eq_refl).
          rewrite Ef in Hpr. simpl in Hpr. subst e.
          destruct (filter_edges X eeq ehash f (class_labels X g eeq ehash k) (length k - 1) l) as [[r a] e]. exact IH. }
        clear - Hf Hop He Hh. induction cs as [|k cs' IH]; auto. cbn [flat_map]. rewrite IH, app_nil_r.
        unfold fused_edges. specialize (Hf k). destruct (filtered_edges X g c eeq ehash k) as [[l a] e]. simpl in Hf. subst e.
        unfold plain_edge_op in Hop. destruct (e_op c) as [m|]; auto. destruct Hop as (x0 & f & r & Hpf).
        set (key := fun y : word * nat => N.of_nat (cls (snd y))).
        destruct (marshalled_grouping (judy X) key l) as [P Nb S D].
        eapply reduced_brigade_spec; eauto.
        intros b x y Hb Hx Hy. pose proof (S b x y Hb Hx Hy) as H. apply N.eqb_eq in H. unfold key in H. lia. }
      destruct M as [prop cs Hr|prop cs e Hr Hi|prop cs e Hr Hi Hi'|prop cs sq o Hr Hv Hee R3 O3].
      + congruence.
      + rewrite Hvs in Hi. destruct Hi.
      + rewrite Hes in Hi'. destruct Hi'.
      + destruct (pass_status o sq) eqn:E3; [|eauto]. exfalso. destruct (pass_error _ _ E3) as (l & Hle).
        apply ran_completes in R3; [|now apply vdest_lt]. destruct (gwalk_any R3) as (nodes & A & B & C & D).
        destruct (D l _ Hle) as (n1 & n & n2 & _ & Ha & _). discriminate.
  Qed.
End Merged.

(** ** Schedules *)

(** The order of the members doesn't matter if the reduction is associative and commutative. *)
Lemma combined_perm x0 f r l l' :
  (forall a b, r a b = r b a) -> (forall a b d, r a (r b d) = r (r a b) d) ->
  Permutation l l' -> combined x0 f r l = combined x0 f r l'.
Proof.
  intros Hc Ha.
  assert (S : forall l l', Permutation l l' -> forall x, fold_left (fun a v => r (f v) a) l x = fold_left (fun a v => r (f v) a) l' x).
  { induction 1 as [|y l1 l2 _ IH|y z l1|l1 l2 l3 _ IH1 _ IH2]; intros x; simpl; auto.
    - f_equal. rewrite !Ha. f_equal. apply Hc.
    - now rewrite IH1. }
  intros P. unfold combined. destruct x0 as [x|]; [now apply S|].
  induction P as [|y l1 l2 P IH|y z l1|l1 l2 l3 _ IH1 _ IH2]; auto.
  - cbn [fold_left]. now rewrite (Hc (f y) (f z)).
  - now rewrite IH1.
Qed.

(** Two results for the same graph by any schedules and any numbers of workers have the same vertices,
    and the same edges up to equality of labels. *)
Theorem C22_independent_of_schedule X X' g mapped equal phash c eeq ehash kills kills' value h h' e e' :
  wf g -> 0 < lanes X -> 0 < lanes X' -> never_killed kills -> never_killed kills' ->
  equivalence (alike equal) -> (forall x y, alike equal x y = true -> phash x = phash y) ->
  equivalence eeq -> (forall x y, eeq x y = true -> ehash x = ehash y) ->
  computes (v_op c) value -> (forall l l', Permutation l l' -> value l = value l') -> e_op c = None ->
  merges X g mapped equal phash c eeq ehash kills (Done (Some h, e)) ->
  merges X' g mapped equal phash c eeq ehash kills' (Done (Some h', e')) ->
  exists rep rep',
    (forall n m, In n (ids g) -> In m (ids g) -> (rep n = rep m <-> rep' n = rep' m)) /\
    (forall n, In n (ids g) -> (In (rep n) (ids h) <-> In (rep' n) (ids h'))) /\
    (forall a, In a (ids h) -> exists n, In n (ids g) /\ a = rep n) /\
    (forall a, In a (ids h') -> exists n, In n (ids g) /\ a = rep' n) /\
    rep (root g) = root h /\ rep' (root g) = root h' /\
    (forall n, In n (ids g) -> vx h (rep n) = vx h' (rep' n)) /\
    (forall n k l, In n (ids g) -> In k (ids g) ->
       ((exists l', In (l', rep k) (es h (rep n)) /\ eeq l l' = true) <->
        (exists l', In (l', rep' k) (es h' (rep' n)) /\ eeq l l' = true))).
Proof.
  intros W Hl Hl' K K' Heq Hcompat He Hh Hval Hperm Eo H H'.
  assert (Hop : plain_edge_op c) by (unfold plain_edge_op; now rewrite Eo).
  destruct (C22_merging_makes_the_quotient W Hl K Heq Hcompat He Hh Hval Hop H) as (_ & _ & rep & Q & E & _).
  destruct (C22_merging_makes_the_quotient W Hl' K' Heq Hcompat He Hh Hval Hop H') as (_ & _ & rep' & Q' & E' & _).
  specialize (E Eo). specialize (E' Eo).
  set (P := fun n : nat => fst (mapped n)) in *.
  assert (Hids : forall n, reached g P equal eeq (pruner c) n -> In n (ids g)).
  { induction 1 as [|n m _ _ Hm|n l m _ IH Hm _]; [apply (wf_root W)|now apply filter_In in Hm|]. eapply (wf_closed W); eauto. }
  assert (Hin : forall h rep, quotient_vertices g P equal eeq (pruner c) value h rep ->
     forall n, In n (ids g) -> (In (rep n) (ids h) <-> reached g P equal eeq (pruner c) n)).
  { clear - Hids. intros h rep Q n Hn. rewrite (q_ids Q). split.
    - intros (m & Hm & E1). apply (q_same Q) in E1; auto. eapply reached_mate; eauto. apply filter_In. split; auto.
      assert (E2 : rep m = rep n) by (symmetry; apply (q_same Q); auto).
      apply (q_same Q) in E2; auto.
    - intros Hr. eauto. }
  assert (Hedge : forall h h' rep rep', quotient_vertices g P equal eeq (pruner c) value h rep -> quotient_vertices g P equal eeq (pruner c) value h' rep' ->
     quotient_edges g P equal eeq (pruner c) h rep -> quotient_edges g P equal eeq (pruner c) h' rep' ->
     forall n k l, In n (ids g) -> In k (ids g) ->
     (exists l', In (l', rep k) (es h (rep n)) /\ eeq l l' = true) -> exists l', In (l', rep' k) (es h' (rep' n)) /\ eeq l l' = true).
  { clear - W He Heq. intros h h' rep rep' Q Q' E E' n k l Hn Hk (l' & Hl & Heql).
    destruct (qe_sound E n _ _ Hn Hl) as (m & k' & Hm & Hk' & Hr & Hrep).
    apply filter_In in Hm as [Hm Hnm]. assert (Ik' : In k' (ids g)) by (eapply (wf_closed W); eauto).
    assert (Hkk : rep' k = rep' k').
    { apply (q_same Q'); auto. apply (q_same Q); auto. }
    assert (Hnn : rep' n = rep' m) by (apply (q_same Q'); auto).
    assert (Hr' : retained g P equal eeq (pruner c) m l' = true) by (pose proof (@retained_eq g mapped equal c eeq Heq n m l' Hnm) as E0; unfold P in *; congruence).
    destruct (qe_complete E' m _ _ Hm Hk' Hr') as (l2 & Hl2 & E2).
    exists l2. split; [now rewrite Hkk, Hnn|]. eapply (eqv_trans He); eauto. }
  exists rep, rep'. split; [|split; [|split; [|split; [|split; [|split; [|split]]]]]].
  - intros n m Hn Hm. rewrite (q_same Q), (q_same Q'); auto. reflexivity.
  - intros n Hn. rewrite (Hin _ _ Q n Hn), (Hin _ _ Q' n Hn). reflexivity.
  - intros a Ha. apply (q_ids Q) in Ha as (n & Hn & ->). eauto.
  - intros a Ha. apply (q_ids Q') in Ha as (n & Hn & ->). eauto.
  - destruct (q_root Q) as [-> ->]. reflexivity.
  - destruct (q_root Q') as [-> ->]. reflexivity.
  - intros n Hn. destruct (q_value Q n Hn) as (l & Pl & ->). destruct (q_value Q' n Hn) as (l' & Pl' & ->).
    apply Hperm. apply Permutation_map. now rewrite Pl, Pl'.
  - intros n k l Hn Hk. split; [apply (Hedge h h' rep rep')|apply (Hedge h' h rep' rep)]; auto.
Qed.

(** ** C23: the pruner's flag *)

(** Does every vertex in a list have an outgoing edge with an equal label? *)
Definition on_every (g : graph word word) (eeq : word -> word -> bool) (k : list nat) (l : word) : Prop :=
  forall n, In n k -> exists l' m, In (l', m) (es g n) /\ eeq l l' = true.

Lemma unanimous_spec g eeq k l : unanimous g eeq k l = true <-> on_every g eeq k l.
Proof.
  unfold unanimous, on_every. rewrite forallb_forall. split; intros H n Hn.
  - apply H in Hn. apply existsb_exists in Hn as ([l' m] & A & B). eauto.
  - destruct (H n Hn) as (l' & m & A & B). apply existsb_exists. exists (l', m). auto.
Qed.

(** For a class [k], the pruner is called with the label of every edge in some order until it raises an
    error, and with a flag that is set exactly if the label is on every member.  If it raises no error,
    the edges retained are exactly those for which it holds. *)
Theorem C23_flag_is_exact X g c eeq ehash f k e a x :
  equivalence eeq -> (forall x y, eeq x y = true -> ehash x = ehash y) -> pruner c = Some f ->
  filtered_edges X g c eeq ehash k = (e, a, x) ->
  (forall b l, In (b, l) a -> (b = true <-> on_every g eeq k l)) /\
  exists edges, Permutation edges (flat_map (es g) k) /\
    match x with
    | None => map snd a = map fst edges /\ (forall b l, In (b, l) a -> snd (f b l) = None) /\
              forall y, In y e <-> In y edges /\ exists b, fst (f b (fst y)) = true /\ (b = true <-> on_every g eeq k (fst y))
    | Some err => exists a' b l rest, a = a' ++ [(b, l)] /\ map fst edges = map snd a ++ rest /\ snd (f b l) = Some err
    end.
Proof.
  intros He Hh Hp H.
  assert (Hflag : forall y, In y (gathered g k) ->
            flag X eeq ehash (class_labels X g eeq ehash k) (length k - 1) (fst y) = unanimous g eeq k (fst y)).
  { intros [l m] Hy. apply flag_exact; auto. exists m. exact Hy. }
  unfold filtered_edges in H. rewrite Hp in H.
  assert (G : forall l e a x, filter_edges X eeq ehash f (class_labels X g eeq ehash k) (length k - 1) l = (e, a, x) ->
     (forall y, In y l -> In y (gathered g k)) ->
     (forall b l, In (b, l) a -> (b = true <-> on_every g eeq k l)) /\
     match x with
     | None => map snd a = map fst l /\ (forall b l, In (b, l) a -> snd (f b l) = None) /\
               forall y, In y e <-> In y l /\ fst (f (unanimous g eeq k (fst y)) (fst y)) = true
     | Some err => exists a' b l0 rest, a = a' ++ [(b, l0)] /\ map fst l = map snd a ++ rest /\ snd (f b l0) = Some err
     end).
  { clear H e a x. induction l as [|y l IH]; intros e a x H Hin; simpl in H.
    - inversion H; subst. split; [intros b l []|]. simpl. split; [auto|]. split; [intros b l []|]. tauto.
    - assert (Hy := Hflag y (Hin y (or_introl eq_refl))). rewrite Hy in H.
      destruct (f (unanimous g eeq k (fst y)) (fst y)) as [keep [err|]] eqn:Ef.
      + inversion H; subst. split.
        * intros b l' [E1|[]]. injection E1 as <- <-. apply unanimous_spec.
        * exists [], (unanimous g eeq k (fst y)), (fst y), (map fst l). simpl. rewrite Ef. auto.
      + destruct (filter_edges X eeq ehash f (class_labels X g eeq ehash k) (length k - 1) l) as [[r a'] e'] eqn:El.
        assert (H0 : e = (if keep then y :: r else r) /\ a = (unanimous g eeq k (fst y), fst y) :: a' /\ x = e') by (inversion H; auto).
        destruct H0 as (-> & -> & ->). destruct (IH _ _ _ eq_refl) as [A B]; [intros; apply Hin; simpl; auto|]. split.
        * intros b l' [E1|E1]; [injection E1 as <- <-; apply unanimous_spec|now apply A].
        * destruct e' as [err|].
          -- destruct B as (a1 & b & l0 & rest & -> & E2 & E3).
             exists ((unanimous g eeq k (fst y), fst y) :: a1), b, l0, rest. simpl. rewrite E2. auto.
          -- destruct B as (B1 & B2 & B3). split; [simpl; now rewrite B1|]. split.
             ++ intros b l' [E1|E1]; [injection E1 as <- <-; now rewrite Ef|auto].
             ++ intros z. destruct keep; simpl; rewrite B3; split.
                ** intros [<-|[Hz Hk]]; [rewrite Ef|]; auto.
                ** intros [[<-|Hz] Hk]; auto.
                ** tauto.
                ** intros [[<-|Hz] Hk]; [rewrite Ef in Hk; discriminate|auto]. }
  destruct (G _ _ _ _ H) as [A B]; auto. split; [exact A|]. exists (gathered g k). split; [apply gathered_perm|].
  destruct x as [err|]; [exact B|]. destruct B as (B1 & B2 & B3). split; [exact B1|]. split; [exact B2|].
  intros y. rewrite B3. split; intros [Hy Hk]; split; auto.
  - exists (unanimous g eeq k (fst y)). split; auto. apply unanimous_spec.
  - destruct Hk as (b & Hk & Hb). replace (unanimous g eeq k (fst y)) with b; auto. apply eq_true_iff_eq. rewrite Hb. symmetry. apply unanimous_spec.
Qed.

(** ** Examples *)

(** Merging by a schedule in which all threads take turns; [flip] tells in which order the classes are
    fused. *)
Definition run_merge X g mapped equal phash c eeq ehash kills (flip : bool) k : option verdict :=
  let all := seq 0 (lanes X) in
  let y := sched_run (lanes X) (walk_dest X) (property_setting g mapped (in_pass X kills 0)) (vstart (fun _ => null)) (initial (root g)) k in
  match mainpc y, pass_status all (sh y) with
  | MDone, Some e => Some (Done (None, Some e))
  | MDone, None =>
      let prop := data (sh y) in
      let z := sched_run (lanes X) (gwalk_dest X (prop_hash phash prop)) (vertex_merging X g equal phash prop) (vstart (fun _ => []))
                 (initial (root g)) k in
      match mainpc z, pass_status all (sh z) with
      | MDone, None =>
          let cs := (if flip then @rev _ else fun x => x) (classes X (data (sh z))) in
          if reads_mark c then Some Crashed
          else match snd (fused_vertices g c cs), edge_errors X g c eeq ehash cs (fst (fused_vertices g c cs)) with
          | e :: _, _ => Some (Done (None, Some e))
          | [], e :: _ => Some (Done (None, Some e))
          | [], [] =>
              let q := sched_run (lanes X) (gwalk_dest X (prop_hash phash prop))
                (merge_pruning phash (in_pass X kills 1) prop (merged_edges X g c eeq ehash cs (fst (fused_vertices g c cs)))) (vstart [])
                (initial (root g)) k in
              match mainpc q with
              | MDone => Some (Done (match pass_status all (sh q) with
                   | None => (Some (mkGraph (data (sh q)) (fst (fused_vertices g c cs)) (merged_edges X g c eeq ehash cs (fst (fused_vertices g c cs))) (root g)), None)
                   | Some e => (None, Some e)
                   end))
              | _ => None
              end
          end
      | _, _ => None
      end
  | _, _ => None
  end.

Lemma run_merge_sound X g mapped equal phash c eeq ehash kills flip k v :
  run_merge X g mapped equal phash c eeq ehash kills flip k = Some v -> merges X g mapped equal phash c eeq ehash kills v.
Proof.
  unfold run_merge. set (y := sched_run (lanes X) (walk_dest X) _ _ _ k).
  destruct (mainpc y) eqn:E1; try discriminate. apply sched_ran in E1. fold y in E1.
  destruct (pass_status (seq 0 (lanes X)) (sh y)) as [e|] eqn:E2.
  { intros H. injection H as <-. eapply mg_unprop; eauto; apply Permutation_refl. }
  set (z := sched_run (lanes X) (gwalk_dest X (prop_hash phash (data (sh y)))) (vertex_merging X g equal phash (data (sh y))) _ _ k).
  destruct (mainpc z) eqn:E3; try discriminate. apply sched_ran in E3. fold z in E3.
  destruct (pass_status (seq 0 (lanes X)) (sh z)) eqn:E4; [discriminate|].
  set (cs := (if flip then @rev _ else fun x => x) (classes X (data (sh z)))).
  assert (Hc : Permutation cs (classes X (data (sh z)))).
  { unfold cs. destruct flip; [symmetry; apply Permutation_rev|apply Permutation_refl]. }
  clearbody cs. intros H. eapply mg_classes; [exact E1|apply Permutation_refl|exact E2|exact E3|apply Permutation_refl|exact E4|exact Hc|].
  destruct (reads_mark c) eqn:Er; [injection H as <-; now apply mc_crash|].
  destruct (snd (fused_vertices g c cs)) as [|e errs] eqn:Ev.
  2:{ injection H as <-. apply mc_vertex_error; auto. rewrite Ev. simpl. auto. }
  destruct (edge_errors X g c eeq ehash cs (fst (fused_vertices g c cs))) as [|e errs] eqn:Ee.
  2:{ injection H as <-. apply mc_edge_error; auto. rewrite Ee. simpl. auto. }
  set (q := sched_run (lanes X) _ (merge_pruning phash _ _ _) _ _ k) in H.
  destruct (mainpc q) eqn:E5; try discriminate. apply sched_ran in E5. fold q in E5.
  injection H as <-. eapply mc_pruned; eauto; apply Permutation_refl.
Qed.

(** The nodes, vertices and edges of the result. *)
Definition shown (v : option verdict) : option (list (nat * word * list (word * nat)) * option error) :=
  match v with
  | Some (Done (Some h, e)) => Some (map (fun n => (n, vx h n, es h n)) (ids h), e)
  | Some (Done (None, e)) => Some ([], e)
  | _ => None
  end.
Definition graph_of (v : option verdict) : graph word word :=
  match v with Some (Done (Some h, _)) => h | _ => mkGraph [] (fun _ => null) (fun _ => []) 0 end.

Lemma run_merge_ran X g mapped equal phash c eeq ehash kills flip k :
  match run_merge X g mapped equal phash c eeq ehash kills flip k with Some (Done (Some _, None)) => true | _ => false end = true ->
  merges X g mapped equal phash c eeq ehash kills (Done (Some (graph_of (run_merge X g mapped equal phash c eeq ehash kills flip k)), None)).
Proof.
  intros H. apply run_merge_sound with (flip := flip) (k := k).
  destruct (run_merge X g mapped equal phash c eeq ehash kills flip k) as [[|[[h|] [e|]]]|]; try discriminate. reflexivity.
Qed.

(** The nodes 1, 4 and 7 are in a class, also 2 and 5, 3 and 6, and 8 is only reached by edges that
    the pruner deletes. *)
Definition MG : graph word word :=
  mkGraph [1; 2; 3; 4; 5; 6; 7; 8] N.of_nat
    (fun n => match n with
              | 1 => [(10%N, 2); (11%N, 3); (12%N, 8)] | 2 => [(10%N, 4); (13%N, 6)] | 3 => [(14%N, 5)]
              | 4 => [(10%N, 5); (11%N, 7)] | 5 => [(10%N, 1)] | 6 => [(15%N, 7)] | 7 => [(10%N, 2); (16%N, 6)] | _ => [] end) 1.
Lemma MG_wf : wf MG.
Proof.
  split.
  - repeat constructor; simpl; intuition discriminate.
  - now left.
  - intros n l m [<-|[<-|[<-|[<-|[<-|[<-|[<-|[<-|[]]]]]]]]]; simpl; intuition; match goal with H : _ = _ |- _ => inversion H; auto 12 end.
  - assert (P1 : path MG 1 1) by constructor.
    assert (P2 : path MG 1 2) by (eapply path_step; [exact P1|simpl; eauto]).
    assert (P3 : path MG 1 3) by (eapply path_step; [exact P1|simpl; eauto]).
    assert (P8 : path MG 1 8) by (eapply path_step; [exact P1|simpl; eauto]).
    assert (P4 : path MG 1 4) by (eapply path_step; [exact P2|simpl; eauto]).
    assert (P6 : path MG 1 6) by (eapply path_step; [exact P2|simpl; eauto]).
    assert (P5 : path MG 1 5) by (eapply path_step; [exact P3|simpl; eauto]).
    assert (P7 : path MG 1 7) by (eapply path_step; [exact P4|simpl; eauto]).
    intros n [<-|[<-|[<-|[<-|[<-|[<-|[<-|[<-|[]]]]]]]]]; auto.
Qed.
Definition mod3 (n : nat) : outcome := (match n with 8 => 8%N | _ => (N.of_nat n mod 3)%N end, None).
Definition adding : prop :=
  mkProp (mkFold (Some (fun _ v _ => (v, None))) None (Some (fun x y => ((x + y)%N, None))) None None None) no_fold no_fold.
Definition largest : fold :=
  mkFold (Some (fun v l w => (l, None))) None (Some (fun x y => (N.max x y, None))) (Some (null, None)) None None.
Definition common : bool -> word -> bool * option error := fun b l => (b || N.ltb 12 l, None).

Lemma adding_computes : computes (Some adding) (combined None (fun v => v) N.add).
Proof.
  apply computes_plain. split; try reflexivity.
  - right. split; auto. eexists. split; [reflexivity|]. reflexivity.
  - eexists. split; [reflexivity|]. reflexivity.
  - split; intros ? ?; discriminate.
  - split; reflexivity.
Qed.
Lemma largest_plain : plain_fold largest (Some null) (fun _ l _ => l) N.max.
Proof.
  split.
  - intros v. left. eexists. split; [reflexivity|]. split; reflexivity.
  - eexists. split; [reflexivity|]. reflexivity.
  - split; intros ? ?; discriminate.
  - reflexivity.
Qed.
Lemma eqb_alike : equivalence (alike N.eqb).
Proof.
  assert (E : forall x y, alike N.eqb x y = N.eqb x y) by (intros x y; unfold alike; destruct (N.eqb x y); reflexivity).
  split; intros *; rewrite !E; [apply N.eqb_refl| |]; rewrite !N.eqb_eq; congruence.
Qed.
Lemma alike_hash x y : alike N.eqb x y = true -> x = y.
Proof. unfold alike. rewrite orb_diag. apply N.eqb_eq. Qed.

Definition M1 : merger := mkMerger (Some adding) None (Some common).
Definition run1 := run_merge X3 MG mod3 N.eqb (fun x => x) M1 N.eqb (fun x => x) no_kills false 400.
Example C22_merging_makes_the_quotient_ex :
  wf MG /\ computes (v_op M1) (combined None (fun v => v) N.add) /\ plain_edge_op M1 /\
  equivalence (alike N.eqb) /\ (forall x y, alike N.eqb x y = true -> x = y) /\ equivalence N.eqb /\
  merges X3 MG mod3 N.eqb (fun x => x) M1 N.eqb (fun x => x) no_kills (Done (Some (graph_of run1), None)) /\
  shown run1 = Some ([(1, 12%N, [(10%N, 2); (16%N, 3)]); (3, 9%N, [(15%N, 1); (14%N, 2)]); (2, 7%N, [(10%N, 1); (13%N, 3)])], None).
Proof.
  split; [exact MG_wf|]. split; [exact adding_computes|]. split; [exact I|]. split; [exact eqb_alike|]. split; [exact alike_hash|].
  split; [exact eqb_equivalence|]. split; [apply run_merge_ran; vm_compute; reflexivity|vm_compute; reflexivity].
Qed.

Definition M2 : merger := mkMerger (Some adding) (Some largest) None.
Definition run2 := run_merge X3 MG mod3 N.eqb (fun x => x) M2 N.eqb (fun x => x) no_kills false 400.
Example C22_combined_edges_ex :
  plain_edge_op M2 /\ merges X3 MG mod3 N.eqb (fun x => x) M2 N.eqb (fun x => x) no_kills (Done (Some (graph_of run2), None)) /\
  shown run2 = Some ([(1, 12%N, [(11%N, 1); (10%N, 2); (16%N, 3); (12%N, 8)]); (3, 9%N, [(15%N, 1); (14%N, 2)]); (8, 8%N, []);
                      (2, 7%N, [(10%N, 1); (13%N, 3)])], None).
Proof.
  split; [do 3 eexists; exact largest_plain|]. split; [apply run_merge_ran; vm_compute; reflexivity|vm_compute; reflexivity].
Qed.

Example C22_merging_succeeds_ex :
  (forall n, In n (ids MG) -> snd (mod3 n) = None) /\ (forall f b l, pruner M1 = Some f -> snd (f b l) = None) /\ v_op M1 <> None.
Proof. split; [reflexivity|]. split; [intros f b l H; injection H as <-; reflexivity|discriminate]. Qed.

(** A single worker without Judy arrays gets the same quotient. *)
Definition M0 : merger := mkMerger (Some adding) None None.
Definition X1n : env := mkEnv 1 false (fun _ => true) (fun _ => false).
Definition run3 := run_merge X3 MG mod3 N.eqb (fun x => x) M0 N.eqb (fun x => x) no_kills true 400.
Definition run4 := run_merge X1n MG mod3 N.eqb (fun x => x) M0 N.eqb (fun x => x) no_kills false 400.
Example C22_independent_of_schedule_ex :
  (forall l l', Permutation l l' -> combined None (fun v => v) N.add l = combined None (fun v => v) N.add l') /\
  merges X3 MG mod3 N.eqb (fun x => x) M0 N.eqb (fun x => x) no_kills (Done (Some (graph_of run3), None)) /\
  merges X1n MG mod3 N.eqb (fun x => x) M0 N.eqb (fun x => x) no_kills (Done (Some (graph_of run4), None)) /\
  map (vx (graph_of run3)) [1; 2; 3; 8] = [12%N; 7%N; 9%N; 8%N] /\ map (vx (graph_of run4)) [1; 2; 3; 8] = [12%N; 7%N; 9%N; 8%N].
Proof.
  split; [intros l l'; apply combined_perm; intros; lia|].
  split; [apply run_merge_ran; vm_compute; reflexivity|]. split; [apply run_merge_ran; vm_compute; reflexivity|].
  split; vm_compute; reflexivity.
Qed.

Example C23_flag_is_exact_ex :
  filtered_edges X3 MG M1 N.eqb (fun x => x) [1; 7; 4] =
    ([(10%N, 5); (16%N, 6); (10%N, 2); (10%N, 2)],
     [(false, 11%N); (true, 10%N); (false, 16%N); (true, 10%N); (false, 12%N); (false, 11%N); (true, 10%N)], None) /\
  filtered_edges X3 MG (mkMerger None None (Some (fun b l => (b, if N.eqb l 16 then Some (USERERR 9) else None)))) N.eqb (fun x => x) [1; 7; 4] =
    ([(10%N, 5)], [(false, 11%N); (true, 10%N); (false, 16%N)], Some (USERERR 9)).
Proof. split; vm_compute; reflexivity. Qed.

(** ** What is wrong *)

(** Without a classifier, every vertex should be put in a class by itself (man/man7/cru_merger.7.in).
    But if two vertices are the same word, they are in the same class, because only vertices with
    different properties are compared by the predicate that doesn't hold (src/merge.c:131-133,
    src/infer.c:350), and there is no operation to reduce them by (src/merge.c:99). *)
Definition two_alike : graph word word := mkGraph [1; 2] (fun _ => 7%N) (fun n => if n =? 1 then [(10%N, 2)] else []) 1.
Lemma two_alike_wf : wf two_alike.
Proof.
  split.
  - repeat constructor; simpl; intuition discriminate.
  - now left.
  - intros n l m [<-|[<-|[]]]; simpl; intuition; match goal with H : _ = _ |- _ => inversion H; auto end.
  - intros n [<-|[<-|[]]]; [constructor|eapply path_step; [constructor|simpl; eauto]].
Qed.
Theorem C59_default_classifier_refuted :
  exists X g, wf g /\ 0 < lanes X /\
    merges X g (fun n => (vx g n, None)) (fun _ _ => false) (fun x => x) (mkMerger None None None) N.eqb (fun x => x) no_kills
      (Done (None, Some IER)).
Proof.
  exists X1n, two_alike. split; [exact two_alike_wf|]. split; [simpl; lia|].
  apply run_merge_sound with (flip := false) (k := 200). vm_compute. reflexivity.
Qed.

(** It is as documented if the vertices are all different. *)
Theorem C59_default_classifier_on_distinct_vertices X g eeq ehash kills v :
  wf g -> 0 < lanes X -> never_killed kills -> equivalence eeq -> (forall x y, eeq x y = true -> ehash x = ehash y) ->
  (forall n m, In n (ids g) -> In m (ids g) -> vx g n = vx g m -> n = m) ->
  merges X g (fun n => (vx g n, None)) (fun _ _ => false) (fun x => x) (mkMerger None None None) eeq ehash kills v ->
  exists h, v = Done (Some h, None) /\ wf h /\ root h = root g /\ (forall n, In n (ids h) <-> In n (ids g)) /\
    (forall n, In n (ids g) -> vx h n = vx g n) /\
    (forall n k l, In n (ids g) -> In (l, k) (es h n) -> In (l, k) (es g n)) /\
    (forall n k l, In n (ids g) -> In (l, k) (es g n) -> exists l', In (l', k) (es h n) /\ eeq l l' = true).
Proof.
  intros W Hl K He Hh D H.
  assert (Ea : forall x y, alike (fun _ _ => false) x y = N.eqb x y) by (intros; unfold alike; apply orb_false_r).
  assert (Heq : equivalence (alike (fun _ _ => false))).
  { split; intros *; rewrite !Ea; [apply N.eqb_refl| |]; rewrite !N.eqb_eq; congruence. }
  assert (Hcomp : forall x y, alike (fun _ _ => false) x y = true -> x = y) by (intros x y; rewrite Ea; apply N.eqb_eq).
  assert (Hop : plain_edge_op (mkMerger None None None)) by exact I.
  assert (Hcn : computes (v_op (mkMerger None None None)) (hd null)) by exact computes_nothing.
  assert (Hr : forall n m, related (fun n => vx g n) (fun _ _ => false) n m = true -> vx g n = vx g m).
  { intros n m. unfold related. rewrite orb_false_r. apply N.eqb_eq. }
  destruct (@C22_merging_succeeds X g (fun n => (vx g n, None)) (fun _ _ => false) (fun x => x) (mkMerger None None None) eeq ehash kills W Hl K Heq Hcomp (hd null) v Hcn Hop) as (h & ->); auto.
  { intros f b l E. discriminate. }
  destruct (C22_merging_makes_the_quotient W Hl K Heq Hcomp He Hh Hcn Hop H) as (_ & Wh & rep & Q & E & _).
  specialize (E eq_refl). cbn [fst pruner] in Q, E. exists h. split; [reflexivity|]. split; [exact Wh|].
  assert (Hrep : forall n, In n (ids g) -> rep n = n).
  { intros n Hn. pose proof (q_rep Q n Hn) as Hm. apply filter_In in Hm as [Hm Hs]. symmetry. apply D; auto. }
  assert (Hmate : forall n m, In n (ids g) -> In m (mates g (fun n => vx g n) (fun _ _ => false) n) -> m = n).
  { intros n m Hn Hm. apply filter_In in Hm as [Hm Hs]. symmetry. apply D; auto. }
  split; [apply (q_root Q)|]. split; [|split; [|split]].
  - intros n. rewrite (q_ids Q). split.
    + intros (m & Hm & ->). assert (Hi : In m (ids g)).
      { clear - W Hm. induction Hm as [|n m _ _ Hm|n l m _ IH Hm _]; [apply (wf_root W)|now apply filter_In in Hm|eapply (wf_closed W); eauto]. }
      now rewrite Hrep.
    + intros Hn. exists n. rewrite Hrep by auto. split; auto.
      apply (along_ids n W) in Hn. induction Hn as [|n l m _ IH Hm]; [constructor|]. eapply reached_edge; eauto.
  - intros n Hn. destruct (q_value Q n Hn) as (l & Pl & E1). rewrite (Hrep n Hn) in E1. rewrite E1.
    assert (Hin : In n l).
    { eapply Permutation_in; [symmetry; exact Pl|]. apply filter_In. split; auto. unfold related. now rewrite N.eqb_refl. }
    destruct l as [|a l]; [destruct Hin|]. simpl. f_equal. apply (Hmate n); auto. eapply Permutation_in; [exact Pl|simpl; auto].
  - intros n k l Hn Hk. rewrite <- (Hrep n Hn) in Hk. destruct (qe_sound E n _ _ Hn Hk) as (m & k' & Hm & Hk' & _ & ->).
    apply (Hmate n) in Hm; auto. subst m. rewrite Hrep; auto. eapply (wf_closed W); eauto.
  - intros n k l Hn Hk. destruct (qe_complete E n _ _ Hn Hk eq_refl) as (l' & Hl' & Heq').
    assert (Hik : In k (ids g)) by (eapply (wf_closed W); eauto).
    rewrite (Hrep n Hn), (Hrep k Hik) in Hl'. eauto.
Qed.
Definition run5 := run_merge X3 MG (fun n => (vx MG n, None)) (fun _ _ => false) (fun x => x) (mkMerger None None None) N.eqb (fun x => x) no_kills false 400.
Example C59_default_classifier_on_distinct_vertices_ex :
  (forall n m, In n (ids MG) -> In m (ids MG) -> vx MG n = vx MG m -> n = m) /\
  merges X3 MG (fun n => (vx MG n, None)) (fun _ _ => false) (fun x => x) (mkMerger None None None) N.eqb (fun x => x) no_kills
    (Done (Some (graph_of run5), None)) /\ length (ids (graph_of run5)) = 8.
Proof.
  split; [intros n m _ _ H; simpl in H; lia|]. split; [apply run_merge_ran; vm_compute; reflexivity|vm_compute; reflexivity].
Qed.

(** The operation on vertices may depend on edges by the usual conventions (man/man7/cru_prop.7.in).
    But if it depends on incoming edges, the program crashes. *)
Definition counting_in : prop :=
  mkProp (mkFold (Some (fun i v _ => ((i + v)%N, None))) None (Some (fun x y => ((x + y)%N, None))) None None None)
         (mkFold (Some (fun v l w => (1%N, None))) None (Some (fun x y => ((x + y)%N, None))) (Some (null, None)) None None) no_fold.
Theorem C60_incoming_edges_of_classes_refuted :
  exists X g c, wf g /\ 0 < lanes X /\ v_op c = Some counting_in /\
    merges X g mod3 N.eqb (fun x => x) c N.eqb (fun x => x) no_kills Crashed /\
    forall v, merges X g mod3 N.eqb (fun x => x) c N.eqb (fun x => x) no_kills v -> v = Crashed \/ exists e, v = Done (None, Some e).
Proof.
  exists X3, MG, (mkMerger (Some counting_in) None None). split; [exact MG_wf|]. split; [simpl; lia|]. split; [reflexivity|]. split.
  - apply run_merge_sound with (flip := false) (k := 400). vm_compute. reflexivity.
  - intros v H. destruct H as [|s order s' order' cs v R1 O1 V1 R2 O2 V2 Hc M]; [eauto|].
    destruct M as [| | |prop cs sq o Hm]; eauto. discriminate.
Qed.

(** If it depends on outgoing edges, then the operands are not the given vertices, but some of them
    have already been combined or cleared: the node 1 has edges to 2 and 3, whose vertices are 20 and
    30, and each is in a class of its own.  The result also depends on which comes first. *)
Definition star : graph word word :=
  mkGraph [1; 2; 3] (fun n => (N.of_nat n * 10)%N) (fun n => if n =? 1 then [(1%N, 2); (1%N, 3)] else []) 1.
Lemma star_wf : wf star.
Proof.
  split.
  - repeat constructor; simpl; intuition discriminate.
  - now left.
  - intros n l m [<-|[<-|[<-|[]]]]; simpl; intuition; match goal with H : _ = _ |- _ => inversion H; auto end.
  - intros n [<-|[<-|[<-|[]]]]; [constructor|eapply path_step; [constructor|simpl; eauto]..].
Qed.
Definition adding_out : prop :=
  mkProp (mkFold (Some (fun _ v o => ((1000 + v + o)%N, None))) None (Some (fun x y => ((x + y)%N, None))) None None None) no_fold
         (mkFold (Some (fun v l w => (w, None))) None (Some (fun x y => ((x + y)%N, None))) (Some (null, None)) None None).
Definition by_id (n : nat) : outcome := (N.of_nat n, None).
Definition run6 flip := run_merge X1n star by_id N.eqb (fun x => x) (mkMerger (Some adding_out) None None) N.eqb (fun x => x) no_kills flip 400.
Theorem C61_outgoing_edges_of_classes_refuted :
  exists X g h h', wf g /\ 0 < lanes X /\
    (* the property of a vertex and the sum of those at the ends of its edges *)
    (let wanted n := fst (mapped_node adding_out (vx g n) [] (map (fun x => (fst x, vx g (snd x))) (es g n)) no_values) in
     merges X g by_id N.eqb (fun x => x) (mkMerger (Some adding_out) None None) N.eqb (fun x => x) no_kills (Done (Some h, None)) /\
     merges X g by_id N.eqb (fun x => x) (mkMerger (Some adding_out) None None) N.eqb (fun x => x) no_kills (Done (Some h', None)) /\
     vx h 1 = wanted 1 /\ vx h' 1 <> wanted 1).
Proof.
  exists X1n, star, (graph_of (run6 false)), (graph_of (run6 true)). split; [exact star_wf|]. split; [simpl; lia|]. cbv zeta. unfold run6.
  split; [apply run_merge_ran; vm_compute; reflexivity|]. split; [apply run_merge_ran; vm_compute; reflexivity|].
  split; vm_compute; [reflexivity|discriminate].
Qed.

(** If the last pass is killed, then a graph without some of its vertices is returned as if
    successful. *)
Definition run7 := run_merge X3 MG mod3 N.eqb (fun x => x) M0 N.eqb (fun x => x) (kill_at 1 1) false 400.
Theorem C36_killed_merger_refuted :
  exists X g c kills h, wf g /\ 0 < lanes X /\
    merges X g mod3 N.eqb (fun x => x) c N.eqb (fun x => x) kills (Done (Some h, None)) /\
    exists n l m, In n (ids h) /\ In (l, m) (es h n) /\ ~ In m (ids h).
Proof.
  exists X3, MG, M0, (kill_at 1 1), (graph_of run7). split; [exact MG_wf|]. split; [simpl; lia|].
  split; [apply run_merge_ran; vm_compute; reflexivity|].
  exists 1, 10%N, 2. split; [vm_compute; auto|]. split; [vm_compute; auto 10|vm_compute; intuition discriminate].
Qed.
