(** * Merging, mutation and the signatures of graphs (C44, C64-C66)

    The remaining top level structures, whose inference depends on the
    signature of the graph they are applied to and determines that of the
    result, and what is known of signatures after any sequence of
    operations. *)

From Coq Require Import List Arith Bool Lia.
From Verif Require Import Infer P_Infer.
Import ListNotations.
Set Implicit Arguments.

#[local] Hint Extern 2 (callable (Some _)) => (apply lib_callable; discriminate) : infer.
#[local] Hint Resolve plain_callable given_callable kept_refl kept_allow kept_order_refl
  plain_settled : infer.

(** ** Merging *)

Definition plain_merger (c : merger) :=
  plain_classifier (me_classifier c) /\ plain_order (me_vorder c) /\ plain_order (me_eorder c)
  /\ plain_prop (me_vop c) /\ plain_fold (me_eop c) /\ plain (me_pruner c).

Definition classifier0 := mkClassifier prop0 order0.

Lemma empty_classifier_plain k :
  plain_classifier k -> (empty_classifier k = true <-> k = classifier0).
Proof.
  intros (P & O). destruct k as [p o]. unfold empty_classifier. simpl in *.
  rewrite andb_true_iff, (empty_order_plain O), (empty_prop_plain P). unfold classifier0.
  split; [intros (-> & ->); auto|]. intros E. injection E as -> ->. auto.
Qed.

(** Without a classifier every vertex is in a class by itself: the properties
    are never equal. *)
Lemma merger_classifier_empty :
  merger_classifier classifier0
  = ok (mkClassifier (mkProp (mkFold (Some IdentityTop) None (Some UndefinedBop) None None None)
                             fold0 fold0)
                     (mkOrder (Some ScalarHash) (Some FalseBpred))).
Proof. reflexivity. Qed.

(** What a merging must have to be performed on a graph of signature [s], and
    the signature of the graph it makes. *)
Definition merging (c c' : merger) (s s' : sig) : Prop :=
  (me_vop c = prop0 <-> me_classifier c = classifier0)
  /\ (me_classifier c <> classifier0 -> classifying (me_classifier c) (me_classifier c'))
  /\ (me_classifier c = classifier0 -> o_equal (cl_order (me_classifier c')) = Some FalseBpred)
  /\ (me_vop c <> prop0 ->
      property (me_vop c) (me_vop c') /\ evaluable (p_vertex (me_vop c'))
      /\ kept_prop (me_vop c) (me_vop c')
      /\ s_vfree s' = f_rfree (p_vertex (me_vop c)) /\ s_vorder s' = me_vorder c)
  /\ (me_vop c = prop0 -> s_vfree s' = s_vfree s /\ s_vorder s' = s_vorder s)
  /\ (me_eop c <> fold0 ->
      evaluable (me_eop c') /\ kept_fold (me_eop c) (me_eop c')
      /\ s_efree s' = f_rfree (me_eop c) /\ s_eorder s' = me_eorder c)
  /\ (me_eop c = fold0 -> me_eop c' = fold0 /\ s_efree s' = s_efree s /\ s_eorder s' = s_eorder s)
  /\ me_pruner c' = me_pruner c
  /\ (me_pruner c <> None -> complete_order (me_eorder c'))
  /\ s_limit s' = s_limit s.

(** The comparison of edges that pruning needs. *)
Definition pruning_fault (c : merger) (s : sig) (e : code) : Prop :=
  me_pruner c <> None
  /\ ((e = UNDHSH /\ o_hash (me_eorder c) = None
       /\ (me_eop c = fold0 -> ~ callable (o_hash (s_eorder s))))
      \/ (e = UNDEQU /\ o_equal (me_eorder c) = None
          /\ (me_eop c = fold0 -> ~ callable (o_equal (s_eorder s))))).

Definition merger_fault (c : merger) (s : sig) (e : code) : Prop :=
  (e = INCMRG /\ ((me_vop c = prop0 /\ me_classifier c <> classifier0)
                  \/ (me_vop c <> prop0 /\ me_classifier c = classifier0)))
  \/ reduced_prop_fault (me_vop c) e \/ fold_fault (me_eop c) e
  \/ classifier_fault (me_classifier c) e \/ pruning_fault c s e.

Lemma merger_classifier_spec k :
  plain_classifier k ->
  match merger_classifier k with
  | ok k' => (k <> classifier0 -> classifying k k')
             /\ (k = classifier0 -> o_equal (cl_order k') = Some FalseBpred)
  | bad e => classifier_fault k e
  end.
Proof.
  intros P. destruct (empty_classifier k) eqn:E.
  - apply (empty_classifier_plain P) in E. subst k. rewrite merger_classifier_empty.
    split; [congruence|reflexivity].
  - assert (N : k <> classifier0) by (intros ->; discriminate).
    assert (Q : merger_classifier k = inferred_classifier (Some k)).
    { unfold merger_classifier. rewrite E. reflexivity. }
    rewrite Q. destruct (inferred_classifier (Some k)) as [k'|e] eqn:F.
    + split; [|congruence]. intros _. apply (C44_classifier_accepted P F).
    + apply (C44_classifier_rejected P F).
Qed.

Lemma merger_vertices_spec c s :
  plain_merger c ->
  match merger_vertices c s with
  | ok (c1, s1) =>
      (exists vo vp, c1 = mkMerger (me_classifier c) vo (me_eorder c) vp (me_eop c) (me_pruner c))
      /\ (me_vop c <> prop0 ->
          property (me_vop c) (me_vop c1) /\ evaluable (p_vertex (me_vop c1))
          /\ kept_prop (me_vop c) (me_vop c1)
          /\ s_vfree s1 = f_rfree (p_vertex (me_vop c)) /\ s_vorder s1 = me_vorder c)
      /\ (me_vop c = prop0 -> s_vfree s1 = s_vfree s /\ s_vorder s1 = s_vorder s)
      /\ s_limit s1 = s_limit s /\ s_efree s1 = s_efree s /\ s_eorder s1 = s_eorder s
  | bad e => reduced_prop_fault (me_vop c) e
  end.
Proof.
  intros (_ & _ & _ & P & _). unfold merger_vertices. destruct (empty_prop (me_vop c)) eqn:E.
  - apply (empty_prop_plain P) in E. simpl. split; [eauto|]. split; [congruence|]. auto.
  - destruct (filled_prop (me_vop c)) as [p|e] eqn:F; simpl.
    + split; [eauto|]. destruct (prop_accepted P F) as (A & B & C & D & _).
      split; [auto 6|]. split; [|destruct s; auto].
      intros Q. rewrite Q in E. discriminate.
    + apply prop_rejected; auto.
Qed.

Lemma merger_edges_spec c s :
  plain_fold (me_eop c) ->
  match merger_edges c s with
  | ok (c1, s1) =>
      (exists eo ep, c1 = mkMerger (me_classifier c) (me_vorder c) eo (me_vop c) ep (me_pruner c)
         /\ (me_eop c = fold0 -> ep = fold0 /\ eo = allow_order (me_eorder c) (s_eorder s))
         /\ (me_eop c <> fold0 -> evaluable ep /\ kept_fold (me_eop c) ep /\ eo = me_eorder c
             /\ s_efree s1 = f_rfree (me_eop c) /\ s_eorder s1 = me_eorder c))
      /\ (me_eop c = fold0 -> s_efree s1 = s_efree s /\ s_eorder s1 = s_eorder s)
      /\ s_limit s1 = s_limit s /\ s_vfree s1 = s_vfree s /\ s_vorder s1 = s_vorder s
  | bad e => fold_fault (me_eop c) e
  end.
Proof.
  intros P. unfold merger_edges. destruct (empty_fold (me_eop c)) eqn:E.
  - apply (empty_fold_plain P) in E. split; [|auto].
    eexists. eexists. split; [reflexivity|]. split; [auto|congruence].
  - assert (N : me_eop c <> fold0) by (intros Q; rewrite Q in E; discriminate).
    destruct (filled_fold (me_eop c)) as [f|e] eqn:F; simpl.
    + destruct (C44_fold_accepted P F) as (M & K & R & _).
      split; [|split; [congruence|destruct s; auto]].
      eexists. eexists. split; [reflexivity|]. split; [congruence|]. intros _. auto 6.
    + apply C44_fold_rejected; auto.
Qed.

Lemma typed_allow o o' : plain_order o -> typed_order o' -> typed_order (allow_order o o').
Proof.
  destruct o as [h e], o' as [h' e']. intros (A & B) (C & D).
  split; simpl in *; [destruct h|destruct e]; simpl; auto.
Qed.

Lemma plain_typed o : plain_order o -> typed_order o.
Proof. intros P. apply (plain_settled P). Qed.

Theorem C44_merger c s :
  plain_merger c -> typed_order (s_eorder s) ->
  match inferred_merger c s with
  | ok (c', s') => merging c c' s s'
  | bad e => merger_fault c s e
  end.
Proof.
  intros P T. pose proof P as (Pk & Pv & Pe & Pvo & Peo & Pp).
  unfold inferred_merger, unless.
  pose proof (empty_prop_plain Pvo) as EV. pose proof (empty_classifier_plain Pk) as EK.
  assert (Dec : me_vop c = prop0 <-> empty_prop (me_vop c) = true) by (rewrite EV; reflexivity).
  clear EV.
  assert (Dek : me_classifier c = classifier0 <-> empty_classifier (me_classifier c) = true)
    by (rewrite EK; reflexivity).
  clear EK.
  destruct (Bool.eqb (empty_prop (me_vop c)) (empty_classifier (me_classifier c))) eqn:X; simpl.
  2: { left. split; auto. rewrite Dec, Dek.
       destruct (empty_prop _), (empty_classifier _); try discriminate; [left|right]; split; auto. }
  apply eqb_prop in X.
  assert (I : me_vop c = prop0 <-> me_classifier c = classifier0).
  { rewrite Dec, Dek, X. reflexivity. }
  clear X Dec Dek. unfold complete_merger.
  pose proof (merger_vertices_spec s P) as V.
  destruct (merger_vertices c s) as [[c1 s1]|e]; simpl; [|right; left; auto].
  destruct V as ((vo & vp & ->) & V1 & V2 & V3 & V4 & V5). simpl in V1.
  set (c1 := mkMerger _ vo _ vp _ _).
  pose proof (@merger_edges_spec c1 s1 Peo) as W.
  destruct (merger_edges c1 s1) as [[c2 s2]|e]; simpl; [|right; right; left; auto].
  destruct W as ((eo & ep & -> & W1 & W2) & W3 & W4 & W5 & W6). simpl in W1, W2, W3.
  pose proof (merger_classifier_spec Pk) as K.
  assert (Te : typed_order eo).
  { destruct (empty_fold (me_eop c)) eqn:E.
    - apply (empty_fold_plain Peo) in E. destruct (W1 E) as (_ & ->). apply typed_allow; auto. congruence.
    - destruct W2 as (_ & _ & -> & _); [intros Q; rewrite Q in E; discriminate|]. apply plain_typed; auto. }
  assert (Fin : forall eo', (me_pruner c <> None -> complete_order eo') ->
    match (k <- merger_classifier (me_classifier c) ;;
           ok (mkMerger k vo eo' vp ep (me_pruner c), s2)) with
    | ok (c', s') => merging c c' s s'
    | bad e => merger_fault c s e
    end).
  { intros eo' C. destruct (merger_classifier (me_classifier c)) as [k|e]; simpl.
    2: { unfold merger_fault. auto. }
    destruct K as (K1 & K2). unfold merging. simpl.
    split; [exact I|]. split; [exact K1|]. split; [exact K2|].
    split; [intros N; destruct (V1 N) as (Q1 & Q2 & Q3 & Q4 & Q5); repeat (split; auto); congruence|].
    split; [intros N; destruct (V2 N); split; congruence|].
    split; [intros N; destruct (W2 N) as (Q1 & Q2 & Q3 & Q4 & Q5); auto|].
    split; [intros N; destruct (W1 N), (W3 N); split; auto; split; congruence|].
    split; [auto|]. split; [auto|]. congruence. }
  unfold merger_pruning. simpl. destruct (me_pruner c) as [q|] eqn:Q; simpl.
  - destruct (full_order eo) as [u|e] eqn:F; simpl.
    + try rewrite Q in Fin. apply Fin. intros _. eapply full_order_accepted; eauto.
    + apply full_order_rejected in F. right. right. right. right. unfold pruning_fault.
      try rewrite Q. split; [discriminate|].
      assert (H : forall (f : order -> ptr),
        (forall o o', f (allow_order o o') = allow (f o) (f o')) -> plain (f (me_eorder c)) ->
        ~ callable (f eo) ->
        f (me_eorder c) = None /\ (me_eop c = fold0 -> ~ callable (f (s_eorder s)))).
      { intros f Hf Pf NC.
        destruct (empty_fold (me_eop c)) eqn:E.
        - apply (empty_fold_plain Peo) in E. destruct (W1 E) as (_ & ->). rewrite Hf in NC.
          destruct Pf as [Pf|(n & Pf)]; rewrite Pf in NC; simpl in NC.
          + split; auto. intros _. rewrite V5 in NC. auto.
          + destruct NC. auto with infer.
        - assert (N : me_eop c <> fold0) by (intros R; rewrite R in E; discriminate).
          destruct (W2 N) as (_ & _ & -> & _). split; [|congruence].
          apply plain_not_callable; auto. }
      destruct Pe as (Pe1 & Pe2). destruct F as [(-> & F)|(-> & F)].
      * left. split; [reflexivity|]. apply (H o_hash); auto.
      * right. split; [reflexivity|]. apply (H o_equal); auto.
  - try rewrite Q in Fin. apply Fin. congruence.
Qed.

(** The example of cru_merger(7) for contraction, and the same with pruning on
    a graph whose edges are compared by the user's functions. *)
Example C44_merger_ex :
  let p := mkProp (mkFold (Some (User 1)) None (Some (User 2)) None None None) fold0 fold0 in
  let k := mkClassifier (mkProp (mkFold (Some (User 3)) None None None None None) fold0 fold0) order0 in
  (exists c' s', inferred_merger (mkMerger k order0 order0 p fold0 None) (scalar_sig 5) = ok (c', s')
     /\ f_map (p_vertex (me_vop c')) = Some (User 1) /\ s_limit s' = 5)
  /\ (exists c' s', inferred_merger (mkMerger k order0 order0 p fold0 (Some (User 4)))
         (mkSig 0 order0 (mkOrder (Some (User 6)) (Some (User 7))) None (Some (User 8))) = ok (c', s')
       /\ o_hash (me_eorder c') = Some (User 6))
  /\ inferred_merger (mkMerger k order0 order0 prop0 fold0 None) (scalar_sig 5) = bad INCMRG
  /\ inferred_merger (mkMerger k order0 order0 p fold0 (Some (User 4)))
        (mkSig 5 order0 order0 None None) = bad UNDHSH.
Proof.
  split; [eexists; eexists; split; [vm_compute; reflexivity|split; reflexivity]|].
  split; [eexists; eexists; split; [vm_compute; reflexivity|reflexivity]|]. split; reflexivity.
Qed.

(** "If the kernel's vertex operation specifies a vertex reduction [...] but
    with a NULL destructor field in me_kernel.v_op.vertex.r_free, then a
    default scalar vertex ordering is inferred", and likewise for edges
    (cru_merger(7)).  The order the user gave is copied as it is instead
    (src/infer.c:332 and 341), so that pruning by a scalar edge operation
    without an order is rejected. *)
Theorem C64_merged_orders_refuted :
  exists c s c' s', plain_merger c
    /\ f_rfree (p_vertex (me_vop c)) = None /\ f_rfree (me_eop c) = None
    /\ me_vop c <> prop0 /\ me_eop c <> fold0
    /\ inferred_merger c s = ok (c', s')
    /\ ~ callable (o_hash (s_vorder s')) /\ ~ callable (o_hash (s_eorder s')).
Proof.
  set (f := fun a b => mkFold (Some (User a)) None (Some (User b)) None None None).
  exists (mkMerger (mkClassifier (mkProp (f 3 5) fold0 fold0) order0) order0 order0
            (mkProp (f 1 2) fold0 fold0) (f 6 7) None), (scalar_sig 0).
  eexists. eexists.
  split.
  { unfold plain_merger, plain_classifier, plain_prop, plain_fold, plain_order, plain, given.
    simpl. repeat split; eauto. }
  split; [reflexivity|]. split; [reflexivity|]. split; [discriminate|]. split; [discriminate|].
  split; [vm_compute; reflexivity|]. simpl. split; apply callable_none.
Qed.

Theorem C64_scalar_pruning_refuted :
  exists c s, plain_merger c /\ f_rfree (me_eop c) = None /\ me_eop c <> fold0
    /\ (forall o, inferred_merger (mkMerger (me_classifier c) (me_vorder c) o (me_vop c) (me_eop c) None) s
                  <> bad UNDHSH)
    /\ inferred_merger c s = bad UNDHSH.
Proof.
  set (f := fun a b => mkFold (Some (User a)) None (Some (User b)) None None None).
  exists (mkMerger (mkClassifier (mkProp (f 3 5) fold0 fold0) order0) order0 order0
            (mkProp (f 1 2) fold0 fold0) (f 6 7) (Some (User 9))), (scalar_sig 0).
  split.
  { unfold plain_merger, plain_classifier, plain_prop, plain_fold, plain_order, plain, given.
    simpl. repeat split; eauto. }
  split; [reflexivity|]. split; [discriminate|]. split; [|reflexivity].
  intros o H. vm_compute in H. discriminate.
Qed.

(** ** Deduplication *)

(** A graph can be deduplicated if both of its orders are complete, and only
    then; the vertices are classified by their contents in their own order,
    and the signature stays. *)
Theorem C44_deduplicator s :
  sound s ->
  match deduplicator s with
  | ok (c, s') =>
      complete_order (s_vorder s) /\ complete_order (s_eorder s) /\ s' = s
      /\ cl_order (me_classifier c) = s_vorder s
      /\ f_map (p_vertex (cl_prop (me_classifier c))) = Some IdentityTop
      /\ me_pruner c = None /\ me_eop c = fold0
  | bad e => order_fault (s_vorder s) e \/ order_fault (s_eorder s) e
  end.
Proof.
  intros (Sv & Te & _). unfold deduplicator.
  destruct (full_order (s_eorder s)) as [u|e] eqn:Fe; cbn [bind].
  2: { right. apply full_order_rejected; auto. }
  destruct (full_order (s_vorder s)) as [u'|e] eqn:Fv; cbn [bind].
  2: { left. apply full_order_rejected; auto. }
  pose proof (full_order_accepted Te Fe) as Ce. pose proof (full_order_accepted (proj1 Sv) Fv) as Cv.
  clear Fe Fv u u'. set (c := mkMerger _ _ _ _ _ _).
  assert (V : exists vo vp, merger_vertices c s = ok (mkMerger (me_classifier c) vo (s_eorder s) vp fold0 None, s)).
  { eexists. eexists. reflexivity. }
  destruct V as (vo & vp & V). unfold complete_merger. rewrite V. cbn [bind fst snd].
  set (c1 := mkMerger _ vo _ vp _ _).
  assert (W : exists eo, merger_edges c1 s = ok (mkMerger (me_classifier c) vo eo vp fold0 None, s)).
  { eexists. reflexivity. }
  destruct W as (eo & W). rewrite W. cbn [bind fst snd].
  set (c2 := mkMerger _ vo eo vp _ _).
  assert (X : exists eo', merger_pruning c2 = ok (mkMerger (me_classifier c) vo eo' vp fold0 None)).
  { eexists. reflexivity. }
  destruct X as (eo' & X). rewrite X. cbn [bind fst snd me_classifier me_vorder me_eorder me_vop me_eop me_pruner].
  clear V W X. unfold merger_classifier.
  assert (E : empty_classifier (me_classifier c) = false) by reflexivity.
  rewrite E. cbn [bind]. unfold filled_classifier. cbn [me_classifier c cl_prop cl_order].
  set (p := set_vertex _ (set_reduction _ _)).
  assert (P : filled_prop p
              = ok (mkProp (mkFold (Some IdentityTop) None (Some UndefinedBop) None None None) fold0 fold0))
    by (vm_compute; reflexivity).
  rewrite P. cbn [bind p_vertex f_mfree nonnull negb]. rewrite (complete_scalar Cv), (complete_full Cv).
  cbn [bind]. auto 10.
Qed.

Example C44_deduplicator_ex :
  let s := mkSig 3 (mkOrder (Some (User 1)) (Some (User 2))) (mkOrder (Some ScalarHash) (Some EqualityBpred))
             (Some (User 3)) None in
  (exists c, deduplicator s = ok (c, s)) /\ sound s
  /\ deduplicator (mkSig 3 order0 order0 None None) = bad UNDHSH.
Proof.
  split; [eexists; vm_compute; reflexivity|]. split; [|vm_compute; reflexivity].
  unfold sound, settled, typed_order, plain, given. simpl.
  repeat split; eauto; try discriminate.
Qed.

(** ** Mutation *)

Definition plain_mutator (m : mutator) :=
  plain_prop (mu_vop m) /\ plain_fold (mu_eop m) /\ plain_order (mu_vorder m)
  /\ plain_order (mu_eorder m).

(** An edge fold whose result depends on no other vertex. *)
Definition independent (m : fold) : Prop := m = fold0 \/ (f_map m = None /\ f_bmap m <> None).

(** "If not all fields of mu_kernel.v_op.incident are NULL, then
    mu_kernel.v_op.incident.vacuous_case must refer to an appropriate nullary
    operator" (cru_mutator(7)), and likewise for the outgoing edges. *)
Definition total (m : fold) : Prop := m = fold0 \/ f_vacuous m <> None.

(** The order of evaluation is determined: by a priority, but not both, or by
    having nothing that depends on it. *)
Definition determined (m : mutator) : Prop :=
  (mu_local m = true -> mu_remote m = true -> False)
  /\ (mu_vop m <> prop0 -> mu_local m = false -> mu_remote m = false ->
      mu_eop m = fold0 /\ independent (p_incident (mu_vop m)) /\ independent (p_outgoing (mu_vop m))).

Definition mutating (m m' : mutator) : Prop :=
  determined m /\ mu_local m' = mu_local m /\ mu_remote m' = mu_remote m
  /\ (mu_vop m = prop0 -> mu_vop m' = prop0)
  /\ (mu_vop m <> prop0 ->
      property (mu_vop m) (mu_vop m') /\ kept_prop (mu_vop m) (mu_vop m')
      /\ default_map (p_vertex (mu_vop m)) (p_vertex (mu_vop m')))
  /\ total (p_incident (mu_vop m)) /\ total (p_outgoing (mu_vop m))
  /\ (mu_eop m = fold0 -> f_map (mu_eop m') = None /\ f_bmap (mu_eop m') = None)
  /\ (mu_eop m <> fold0 -> mapping (mu_eop m') /\ kept_fold (mu_eop m) (mu_eop m')
                           /\ default_map (mu_eop m) (mu_eop m')).

Definition mutator_fault (m : mutator) (c : code) : Prop :=
  (c = INCMUT /\ ~ determined m)
  \/ prop_fault (mu_vop m) c \/ map_fault (mu_eop m) c
  \/ (c = UNDVAC /\ (~ total (p_incident (mu_vop m)) \/ ~ total (p_outgoing (mu_vop m)))).

Lemma dependent_fold_spec f : plain_fold f ->
  (dependent_fold f = false <-> independent f).
Proof.
  intros P. unfold dependent_fold, independent. destruct (empty_fold f) eqn:E; simpl.
  - apply (empty_fold_plain P) in E. split; auto.
  - assert (N : f <> fold0) by (intros ->; discriminate).
    rewrite orb_false_iff, negb_false_iff, nonnull_not, null_is. split; auto.
    intros [Q|Q]; [contradiction|auto].
Qed.

(** The edge fold after line 477 of src/infer.c. *)
Lemma undefined_reduction_empty f :
  plain_fold f -> empty_fold (with_undefined f) = empty_fold f.
Proof.
  destruct f as [a b r v rf mf]. unfold plain_fold. simpl. intros P. cases; reflexivity.
Qed.

Lemma filled_map_undefined f :
  plain_fold f -> filled_map (with_undefined f) = filled_map f.
Proof.
  destruct f as [a b r v rf mf]. unfold plain_fold, filled_map, with_undefined. simpl. intros P.
  destruct P as (_ & _ & [->|(n & ->)] & _); reflexivity.
Qed.

Lemma total_checked f f' :
  plain_fold f -> filled_unless_empty f = ok f' ->
  (negb (empty_fold f') && negb (nonnull (f_vacuous f')) = false <-> total f).
Proof.
  intros P F. destruct (optional_accepted P F) as (O & (_ & _ & _ & K & _)).
  unfold filled_unless_empty in F. unfold total.
  destruct (empty_fold f) eqn:E.
  - injection F as <-. rewrite E. apply (empty_fold_plain P) in E. simpl. split; auto.
  - assert (N : f <> fold0) by (intros ->; discriminate).
    destruct O as [(X & _)|(M & R & _)]; [contradiction|].
    assert (E' : empty_fold f' = false).
    { assert (Q : differs (f_reduction f') UndefinedBop = true).
      { destruct R as (h & R & Nh). rewrite R. unfold differs. simpl.
        destruct (peqP (Some h) (Some UndefinedBop)) as [X|X]; auto.
        injection X as ->. destruct Nh. unfold stand_in; auto. }
      unfold empty_fold. rewrite Q. destruct (_ && _); auto.
      destruct (differs (f_bmap f') UndefinedBop); auto. }
    rewrite E', K. simpl. rewrite negb_false_iff, nonnull_not. split; auto.
    intros [X|X]; auto.
Qed.

Lemma map_prop_edges p p' :
  filled_map_prop p = ok p' ->
  filled_unless_empty (p_incident p) = ok (p_incident p')
  /\ filled_unless_empty (p_outgoing p) = ok (p_outgoing p').
Proof.
  unfold filled_map_prop, filled_prop. destruct (filled_map (p_vertex p)) as [v|c]; [|discriminate].
  cbn [bind set_vertex p_incident p_outgoing p_vertex].
  destruct (filled_unless_empty (p_incident p)) as [i|c]; [|discriminate]. cbn [bind].
  destruct (filled_unless_empty (p_outgoing p)) as [o|c]; [|discriminate]. cbn [bind].
  destruct (filled_fold v); [|discriminate]. cbn [bind]. intros H. injection H as <-. auto.
Qed.

Theorem C44_mutator m s :
  plain_mutator m ->
  match inferred_mutator m s with
  | ok (m', _) => mutating m m'
  | bad c => mutator_fault m c
  end.
Proof.
  intros (Pv & Pe & _ & _). unfold inferred_mutator, unless.
  set (t := inferred_sig _ _ _ _ _). clearbody t.
  destruct (mu_local m && mu_remote m) eqn:L; cbn [bind].
  { left. split; auto. intros (D & _). apply andb_true_iff in L. destruct L; auto. }
  assert (D1 : mu_local m = true -> mu_remote m = true -> False).
  { intros A B. rewrite A, B in L. discriminate. }
  clear L. pose proof Pv as (Pvv & Pvi & Pvo).
  assert (Edge : forall v,
    (mu_vop m = prop0 -> v = prop0) ->
    (mu_vop m <> prop0 -> property (mu_vop m) v /\ kept_prop (mu_vop m) v
                          /\ default_map (p_vertex (mu_vop m)) (p_vertex v)) ->
    determined m ->
    filled_unless_empty (p_incident (mu_vop m)) = ok (p_incident v) ->
    filled_unless_empty (p_outgoing (mu_vop m)) = ok (p_outgoing v) ->
    match (e <- (if empty_fold (with_undefined (mu_eop m)) then ok (with_undefined (mu_eop m))
                 else filled_map (with_undefined (mu_eop m))) ;;
           _ <- (if negb (empty_fold (p_incident v)) && negb (nonnull (f_vacuous (p_incident v)))
                 then bad UNDVAC else ok tt) ;;
           _ <- (if negb (empty_fold (p_outgoing v)) && negb (nonnull (f_vacuous (p_outgoing v)))
                 then bad UNDVAC else ok tt) ;;
           ok (mkMutator (mu_local m) (mu_remote m) v e (mu_vorder m) (mu_eorder m), t)) with
    | ok (m', _) => mutating m m'
    | bad c => mutator_fault m c
    end).
  { intros v V0 V1 D Fi Fo. rewrite (undefined_reduction_empty Pe), (filled_map_undefined Pe).
    pose proof (total_checked Pvi Fi) as Ti. pose proof (total_checked Pvo Fo) as To.
    assert (E : match (if empty_fold (mu_eop m) then ok (with_undefined (mu_eop m))
                       else filled_map (mu_eop m)) with
                | ok e => (mu_eop m = fold0 -> f_map e = None /\ f_bmap e = None)
                          /\ (mu_eop m <> fold0 -> mapping e /\ kept_fold (mu_eop m) e
                                                   /\ default_map (mu_eop m) e)
                | bad c => map_fault (mu_eop m) c
                end).
    { destruct (empty_fold (mu_eop m)) eqn:E.
      - apply (empty_fold_plain Pe) in E. rewrite E. split; [auto|congruence].
      - destruct (filled_map (mu_eop m)) as [e|c] eqn:F.
        + destruct (C44_map_accepted Pe F) as (A & B & C & _). split; [|auto].
          intros Q. rewrite Q in E. discriminate.
        + apply C44_map_rejected; auto. }
    destruct (if empty_fold (mu_eop m) then _ else _) as [e|c]; cbn [bind].
    2: { right. right. left. exact E. }
    destruct (negb (empty_fold (p_incident v)) && _); cbn [bind].
    { right. right. right. split; auto. left. rewrite <- Ti. discriminate. }
    destruct (negb (empty_fold (p_outgoing v)) && _); cbn [bind].
    { right. right. right. split; auto. right. rewrite <- To. discriminate. }
    destruct E as (E0 & E1). unfold mutating. cbn [mu_local mu_remote mu_vop mu_eop].
    split; [exact D|]. split; [auto|]. split; [auto|]. split; [exact V0|]. split; [exact V1|].
    split; [apply Ti; auto|]. split; [apply To; auto|]. split; [exact E0|exact E1]. }
  destruct (empty_prop (mu_vop m)) eqn:E; cbn [bind].
  - apply (empty_prop_plain Pv) in E.
    refine (Edge (mu_vop m) _ _ _ _ _); auto.
    + congruence.
    + split; auto. congruence.
    + rewrite E. reflexivity.
    + rewrite E. reflexivity.
  - assert (N : mu_vop m <> prop0) by (intros Q; rewrite Q in E; discriminate).
    destruct (negb (mu_remote m) && negb (mu_local m) && _) eqn:L; cbn [bind].
    { left. split; auto. intros (_ & D). rewrite !andb_true_iff, !negb_true_iff, !orb_true_iff in L.
      destruct L as ((L1 & L2) & L3). destruct (D N L2 L1) as (De & Di & Do).
      rewrite <- (dependent_fold_spec Pvi) in Di. rewrite <- (dependent_fold_spec Pvo) in Do.
      destruct L3 as [[L3|L3]|L3]; try congruence. rewrite De in L3. discriminate. }
    assert (D : determined m).
    { split; auto. intros _ Ll Lr. rewrite Ll, Lr in L. simpl in L. rewrite !orb_false_iff in L.
      destruct L as ((L1 & L2) & L3). rewrite negb_false_iff in L1.
      rewrite <- (dependent_fold_spec Pvi), <- (dependent_fold_spec Pvo).
      apply (empty_fold_plain Pe) in L1. auto. }
    destruct (filled_map_prop (mu_vop m)) as [v|c] eqn:F; cbn [bind].
    2: { right. left. apply map_prop_rejected; auto. }
    destruct (@map_prop_edges _ _ F) as (Fi & Fo).
    refine (Edge v _ _ D Fi Fo); [contradiction|]. intros _. apply map_prop_accepted; auto.
Qed.

(** The example of cru_mutator(7): with a priority any edge fold is admitted,
    without one only a fold that depends on no other vertex. *)
Example C44_mutator_ex :
  let dep := mkFold (Some (User 1)) None (Some (User 2)) (Some (User 3)) None None in
  let ind := mkFold None (Some (User 1)) (Some (User 2)) (Some (User 3)) None None in
  let v := mkFold (Some (User 4)) None None None None None in
  (exists m' s', inferred_mutator (mkMutator true false (mkProp v fold0 dep) fold0 order0 order0)
                   (scalar_sig 4) = ok (m', s'))
  /\ inferred_mutator (mkMutator false false (mkProp v fold0 dep) fold0 order0 order0) (scalar_sig 4)
     = bad INCMUT
  /\ (exists m' s', inferred_mutator (mkMutator false false (mkProp v fold0 ind) fold0 order0 order0)
                   (scalar_sig 4) = ok (m', s')).
Proof.
  split; [eexists; eexists; vm_compute; reflexivity|].
  split; [vm_compute; reflexivity|]. eexists; eexists; vm_compute; reflexivity.
Qed.

(** CRU_INCTRP (cru_plan(7)) is documented
    for a request of both, but never reported. *)
Theorem C44_both_priorities_refuted :
  exists m s c, plain_mutator m /\ mu_local m = true /\ mu_remote m = true
    /\ inferred_mutator m s = bad c /\ c <> INCTRP.
Proof.
  exists (mkMutator true true prop0 fold0 order0 order0), (scalar_sig 0), INCMUT.
  split.
  { unfold plain_mutator, plain_prop, plain_fold, plain_order, plain. simpl. repeat split; auto. }
  repeat split; discriminate.
Qed.

(** ** The signature of a mutated graph *)

Lemma settled_allow o o' : plain_order o -> settled o' -> settled (allow_order o o').
Proof.
  intros P S. pose proof P as (A & B). destruct S as (T & N1 & N2).
  split; [apply typed_allow; auto|].
  destruct o as [h e]; simpl in *. destruct A as [->|(n & ->)], B as [->|(k & ->)]; simpl;
  split; auto; discriminate.
Qed.

Lemma allow_order0 o : allow_order order0 o = o.
Proof. destruct o. reflexivity. Qed.

(** The signature is that of the results: the destructors are those of the
    maps, and the given orders are kept (cru_mutator(7)). *)
Definition mutated_sig (m : mutator) (s s' : sig) : Prop :=
  s_vfree s' = (if empty_prop (mu_vop m) then s_vfree s else f_mfree (p_vertex (mu_vop m)))
  /\ s_efree s' = (if empty_fold (mu_eop m) then s_efree s else f_mfree (mu_eop m))
  /\ kept_order (mu_vorder m) (s_vorder s') /\ kept_order (mu_eorder m) (s_eorder s').

Lemma mutator_sig m s m' s' :
  inferred_mutator m s = ok (m', s') ->
  s' = inferred_sig s (mu_vorder m) (mu_eorder m) (mu_vop m) (mu_eop m).
Proof.
  unfold inferred_mutator, unless. set (t := inferred_sig _ _ _ _ _). clearbody t.
  destruct (mu_local m && mu_remote m); [discriminate|]. cbn [bind].
  destruct (if empty_prop (mu_vop m) then _ else _) as [v|c]; [|discriminate]. cbn [bind].
  destruct (if empty_fold _ then _ else _) as [e|c]; [|discriminate]. cbn [bind].
  destruct (_ && _); [discriminate|]. cbn [bind].
  destruct (_ && _); [discriminate|]. cbn [bind]. intros H. injection H as _ <-. reflexivity.
Qed.

Lemma inferred_sig_eq s vo eo vop eop :
  plain_order vo -> plain_order eo ->
  let e := empty_fold eop || peq (f_mfree eop) (s_efree s) in
  let v := empty_prop vop || peq (f_mfree (p_vertex vop)) (s_vfree s) in
  let ef := if e then s_efree s else f_mfree eop in
  let eo' := if e then allow_order eo (s_eorder s) else eo in
  inferred_sig s vo eo vop eop
  = mkSig 0 (if v then allow_order vo (s_vorder s) else vo)
            (if nonnull ef then eo' else allow_scalar_order eo')
            (if v then s_vfree s else f_mfree (p_vertex vop)) ef.
Proof.
  intros _ _. simpl. unfold inferred_sig.
  destruct (empty_fold eop || _), (empty_prop vop || _); cbn -[allow_order allow_scalar_order];
  rewrite ?allow_order0;
  (match goal with |- context [nonnull ?x] => destruct (nonnull x) end); reflexivity.
Qed.

Theorem C44_mutated_signature m s m' s' :
  plain_mutator m -> inferred_mutator m s = ok (m', s') -> mutated_sig m s s'.
Proof.
  intros (Pv & Pe & Pvo & Peo) H. apply mutator_sig in H. subst s'.
  rewrite (inferred_sig_eq _ _ _ Pvo Peo). unfold mutated_sig. simpl.
  split; [|split; [|split]].
  - destruct (empty_prop (mu_vop m)); simpl; auto.
    destruct (peqP (f_mfree (p_vertex (mu_vop m))) (s_vfree s)); auto.
  - destruct (empty_fold (mu_eop m)); simpl; auto.
    destruct (peqP (f_mfree (mu_eop m)) (s_efree s)); auto.
  - destruct (_ || _); [|auto with infer]. destruct (mu_vorder m). split; simpl; auto with infer.
  - match goal with |- kept_order _ (if _ then ?x else _) => set (o := x) end.
    assert (K : kept_order (mu_eorder m) o).
    { unfold o. destruct (_ || _); [|auto with infer].
      destruct (mu_eorder m). split; simpl; auto with infer. }
    clearbody o. destruct (nonnull _); auto.
    destruct K as (K1 & K2), o as [h e]. split; simpl in *; intros f Hf.
    + rewrite (K1 _ Hf). reflexivity.
    + rewrite (K2 _ Hf). reflexivity.
Qed.

Example C44_mutated_signature_ex :
  let m := mkMutator true false prop0 (mkFold (Some (User 1)) None None None None (Some (User 2)))
             order0 (mkOrder (Some (User 3)) (Some (User 4))) in
  exists m' s', inferred_mutator m (scalar_sig 4) = ok (m', s')
    /\ s_efree s' = Some (User 2) /\ s_eorder s' = mkOrder (Some (User 3)) (Some (User 4)).
Proof. eexists. eexists. split; [vm_compute; reflexivity|]. split; reflexivity. Qed.

(** If a map is given "with a NULL destructor field [...] then a default scalar
    vertex ordering is inferred", and likewise for edges (cru_mutator(7)).
    This is true of edges (src/infer.c:420-421) but not of vertices. *)
Theorem C64_mutated_edge_order m s m' s' :
  plain_mutator m -> sound s -> inferred_mutator m s = ok (m', s') ->
  s_efree s' = None -> complete_order (s_eorder s').
Proof.
  intros (Pv & Pe & Pvo & Peo) (_ & Te & Se) H. apply mutator_sig in H. subst s'.
  rewrite (inferred_sig_eq _ _ _ Pvo Peo). cbn [s_efree s_eorder].
  destruct (empty_fold (mu_eop m) || _) eqn:E; intros Q; rewrite Q; cbn [nonnull].
  - apply scalar_complete. apply settled_allow; auto.
  - apply scalar_complete. auto with infer.
Qed.

Theorem C64_mutated_vertex_order_refuted :
  exists m s m' s', plain_mutator m /\ sound s
    /\ mu_vop m <> prop0 /\ f_mfree (p_vertex (mu_vop m)) = None
    /\ inferred_mutator m s = ok (m', s')
    /\ s_vfree s' = None /\ ~ callable (o_hash (s_vorder s')).
Proof.
  exists (mkMutator false false (mkProp (mkFold (Some (User 1)) None None None None None) fold0 fold0)
            fold0 order0 order0).
  exists (mkSig 0 (mkOrder (Some (User 2)) (Some (User 3))) (mkOrder (Some ScalarHash) (Some EqualityBpred))
            (Some (User 4)) None).
  eexists. eexists.
  split.
  { unfold plain_mutator, plain_prop, plain_fold, plain_order, plain, given. simpl.
    repeat split; eauto. }
  split.
  { unfold sound, settled, typed_order, plain, given. simpl. repeat split; eauto; try discriminate. }
  split; [discriminate|]. split; [reflexivity|].
  split; [vm_compute; reflexivity|]. split; [reflexivity|]. apply callable_none.
Qed.

(** "A vertex limit previously associated with the graph during its creation"
    bounds stretching (cru_stretcher(7), and cru_splitter(7)).  It is gone after
    any mutation, even one that does nothing; stretching and splitting go by
    it (src/stretch.c:305, src/split.c:247). *)
Theorem C65_mutation_forgets_limit m s m' s' :
  inferred_mutator m s = ok (m', s') -> s_limit s' = 0.
Proof.
  intros H. apply mutator_sig in H. subst s'. unfold inferred_sig.
  destruct (_ || _), (_ || _); simpl; destruct (nonnull _); reflexivity.
Qed.

Theorem C65_vertex_limit_refuted :
  exists m s m' s', plain_mutator m /\ sound s /\ mu_vop m = prop0 /\ mu_eop m = fold0
    /\ inferred_mutator m s = ok (m', s') /\ s_limit s <> 0 /\ s_limit s' <> s_limit s.
Proof.
  exists (mkMutator false false prop0 fold0 order0 order0), (scalar_sig 100).
  eexists. eexists.
  split.
  { unfold plain_mutator, plain_prop, plain_fold, plain_order, plain, given. simpl.
    repeat split; auto. }
  split.
  { unfold sound, settled, typed_order, plain, given. simpl. repeat split; auto; discriminate. }
  split; [reflexivity|]. split; [reflexivity|]. split; [vm_compute; reflexivity|].
  split; discriminate.
Qed.

(** Every other operation keeps it. *)
Theorem C65_limit_kept_partial s s' :
  (exists c c', plain_merger c /\ typed_order (s_eorder s) /\ inferred_merger c s = ok (c', s'))
  \/ (sound s /\ exists x x', inferred_stretcher x s = ok (x', s'))
  \/ (sound s /\ exists x x', inferred_splitter x s = ok (x', s')) ->
  s_limit s' = s_limit s.
Proof.
  intros [(c & c' & P & T & H)|[(S & x & x' & H)|(S & x & x' & H)]].
  - pose proof (@C44_merger c s P T) as M. rewrite H in M. apply M.
  - unfold inferred_stretcher in H. destruct (filled_sig s) as [t|e] eqn:F; [|discriminate].
    cbn [bind] in H. destruct (filled_map_prop _); [|discriminate]. cbn [bind] in H.
    destruct (unless _ _); [|discriminate]. cbn [bind] in H. injection H as _ <-.
    apply (filled_sig_accepted S F).
  - unfold inferred_splitter in H. destruct (filled_sig s) as [t|e] eqn:F; [|discriminate].
    cbn [bind] in H. destruct (filled_map_prop _); [|discriminate]. cbn [bind] in H.
    destruct (unless _ _); [|discriminate]. cbn [bind] in H.
    destruct (unless _ _); [|discriminate]. cbn [bind] in H.
    destruct (filled_ctop _); [|discriminate]. cbn [bind] in H.
    destruct (filled_ctop _); [|discriminate]. cbn [bind] in H.
    destruct (filled_ctop _); [|discriminate]. cbn [bind] in H.
    destruct (filled_ctop _); [|discriminate]. cbn [bind] in H.
    injection H as _ <-. apply (filled_sig_accepted S F).
Qed.

(** ** Histories

    The signatures graphs can have: those an application obtains by building,
    crossing and fabricating, and then by any sequence of the operations that
    install a new signature (mutation, src/mutate.c:797; merging,
    src/merge.c:481; and in place by stretching and splitting, src/entry.c:704
    and 737).  All other operations leave it alone. *)
Inductive history : sig -> Prop :=
| built r b b' : plain_builder b -> inferred_builder r b = ok b' -> history (b_sig b')
| crossed c c' : plain_crosser c -> inferred_crosser c = ok c' -> history (x_sig c')
| fabricated a s a' :
    history s -> plain_fabricator a -> inferred_fabricator a s = ok a' -> history (fa_sig a')
| mutated m s m' s' :
    history s -> plain_mutator m -> inferred_mutator m s = ok (m', s') -> history s'
| merged c s c' s' :
    history s -> plain_merger c -> inferred_merger c s = ok (c', s') -> history s'
| deduplicated s c s' : history s -> deduplicator s = ok (c, s') -> history s'
| stretched x s x' s' :
    history s -> plain_stretcher x -> inferred_stretcher x s = ok (x', s') -> history s'
| divided x s x' s' :
    history s -> plain_splitter x -> inferred_splitter x s = ok (x', s') -> history s'.

Ltac sound_fields :=
  unfold sound, settled, typed_order, plain, given; simpl;
  repeat match goal with
  | |- _ /\ _ => split
  | |- _ -> _ => intros; try discriminate
  end; eauto; try discriminate.

Lemma built_sound r b b' : plain_builder b -> inferred_builder r b = ok b' -> sound (b_sig b').
Proof.
  destruct b as [c sc [lim [vh ve] [eh ee] vf ef]]. intros (Pc & Ps & P) E. split_orders;
  destruct r as [[]|]; cbv in E; try discriminate;
  match goal with E : ok _ = ok _ |- _ => injection E as <- end; sound_fields.
Qed.

Lemma crossed_sound c c' : plain_crosser c -> inferred_crosser c = ok c' -> sound (x_sig c').
Proof.
  destruct c as [vp [lim [vh ve] [eh ee] vf ef] bp bo]. intros (P1 & P2 & P3 & P) E.
  split_orders; cbv in E; try discriminate;
  match goal with E : ok _ = ok _ |- _ => injection E as <- end; sound_fields.
Qed.

Lemma fabricated_sound a s a' :
  sound s -> plain_fabricator a -> inferred_fabricator a s = ok a' -> sound (fa_sig a').
Proof.
  intros (Sv & Te & Se) (_ & _ & Pvo & Peo & Pvf & Pef).
  destruct a as [vp ep [lim vo eo vf ef]]. unfold inferred_fabricator, unless. simpl in *.
  intros H.
  assert (X : exists vo' eo' vf' ef',
    a' = mkFabricator (fa_vfab a') (fa_efab a') (mkSig lim vo' eo' vf' ef')
    /\ (vo' = vo \/ vo' = allow_order vo (s_vorder s))
    /\ ((eo' = eo /\ ef' = ef) \/ (eo' = allow_order eo (s_eorder s) /\ ef' = s_efree s))).
  { destruct ep, ef, vp, vf; simpl in H; try discriminate; injection H as <-;
    do 4 eexists; (split; [reflexivity|]); auto. }
  destruct X as (vo' & eo' & vf' & ef' & -> & V & E). simpl.
  split; [|split]; simpl.
  - destruct V as [->| ->]; [auto with infer|]. apply settled_allow; auto.
  - destruct E as [(-> & _)|(-> & _)]; [apply plain_typed; auto|]. apply typed_allow; auto.
  - destruct E as [(-> & ->)|(-> & ->)]; intros Q; [auto with infer|]. apply settled_allow; auto.
Qed.

Lemma mutated_sound m s m' s' :
  sound s -> plain_mutator m -> inferred_mutator m s = ok (m', s') -> sound s'.
Proof.
  intros (Sv & Te & Se) (Pv & Pe & Pvo & Peo) H. apply mutator_sig in H. subst s'.
  rewrite (inferred_sig_eq _ _ _ Pvo Peo). unfold sound. cbn [s_vorder s_eorder s_efree].
  split; [destruct (_ || _); [apply settled_allow; auto|auto with infer]|].
  split.
  - match goal with |- typed_order (if _ then ?x else _) => set (o := x) end.
    assert (T : typed_order o).
    { unfold o. destruct (_ || _); [apply typed_allow; auto|apply plain_typed; auto]. }
    clearbody o. destruct (nonnull _); auto. apply typed_scalar; auto.
  - destruct (empty_fold (mu_eop m) || _); intros Q; rewrite Q; cbn [nonnull];
    apply settled_scalar; [apply settled_allow; auto|auto with infer].
Qed.

Lemma merged_sound c s c' s' :
  sound s -> plain_merger c -> inferred_merger c s = ok (c', s') -> sound s'.
Proof.
  intros (Sv & Te & Se) P H. pose proof (@C44_merger c s P Te) as M. rewrite H in M.
  destruct M as (_ & _ & _ & V1 & V0 & E1 & E0 & _).
  pose proof P as (_ & Pv & Pe & Pvo & Peo & _).
  split; [|].
  - destruct (empty_prop (me_vop c)) eqn:E.
    + apply (empty_prop_plain Pvo) in E. destruct (V0 E) as (_ & ->). auto.
    + destruct V1 as (_ & _ & _ & _ & ->); [|auto with infer].
      intros Q. rewrite Q in E. discriminate.
  - destruct (empty_fold (me_eop c)) eqn:E.
    + apply (empty_fold_plain Peo) in E. destruct (E0 E) as (_ & -> & ->). auto.
    + destruct E1 as (_ & _ & _ & ->); [intros Q; rewrite Q in E; discriminate|].
      split; [apply plain_typed; auto|auto with infer].
Qed.

Lemma stretched_sound x s x' s' :
  sound s -> inferred_stretcher x s = ok (x', s') -> sound s'.
Proof.
  intros S. unfold inferred_stretcher. destruct (filled_sig s) as [t|e] eqn:F; [|discriminate].
  cbn [bind]. destruct (filled_map_prop _); [|discriminate]. cbn [bind].
  destruct (unless _ _); [|discriminate]. cbn [bind]. intros H. injection H as _ <-.
  apply (filled_sig_accepted S F).
Qed.

Lemma divided_sound x s x' s' :
  sound s -> inferred_splitter x s = ok (x', s') -> sound s'.
Proof.
  intros S H.
  unfold inferred_splitter in H. destruct (filled_sig s) as [t|e] eqn:F; [|discriminate].
  cbn [bind] in H. destruct (filled_map_prop _); [|discriminate]. cbn [bind] in H.
  destruct (unless _ _); [|discriminate]. cbn [bind] in H.
  destruct (unless _ _); [|discriminate]. cbn [bind] in H.
  destruct (filled_ctop _); [|discriminate]. cbn [bind] in H.
  destruct (filled_ctop _); [|discriminate]. cbn [bind] in H.
  destruct (filled_ctop _); [|discriminate]. cbn [bind] in H.
  destruct (filled_ctop _); [|discriminate]. cbn [bind] in H.
  injection H as _ <-. apply (filled_sig_accepted S F).
Qed.

(** No stand-in is ever stored where it could be called for comparing
    vertices, or for comparing scalar edge labels. *)
Theorem C66_signatures_stay_sound s : history s -> sound s.
Proof.
  induction 1; eauto using built_sound, crossed_sound, fabricated_sound, mutated_sound, merged_sound,
    stretched_sound, divided_sound.
  pose proof (C44_deduplicator IHhistory) as D.
  match goal with H : deduplicator _ = _ |- _ => rewrite H in D end.
  destruct D as (_ & _ & -> & _). auto.
Qed.

(** So stretching and splitting, once accepted, have everything to compare
    vertices and edges, whatever happened to the graph before; and if labels
    and vertices are scalars they are not rejected for a missing order. *)
Theorem C66_stretching_is_ordered s x x' s' :
  history s -> plain_stretcher x -> inferred_stretcher x s = ok (x', s') ->
  complete_order (s_vorder s') /\ complete_order (s_eorder s').
Proof.
  intros H P E. destruct (C44_stretcher_accepted P (C66_signatures_stay_sound H) E)
    as (_ & _ & _ & _ & _ & A & B). auto.
Qed.

Theorem C66_splitting_is_ordered s x x' s' :
  history s -> plain_splitter x -> inferred_splitter x s = ok (x', s') ->
  complete_order (s_vorder s') /\ complete_order (s_eorder s').
Proof.
  intros H P E. pose proof (C66_signatures_stay_sound H) as S.
  unfold inferred_splitter in E. destruct (filled_sig s) as [t|e] eqn:F; [|discriminate].
  cbn [bind] in E. destruct (filled_map_prop _); [|discriminate]. cbn [bind] in E.
  destruct (unless _ _); [|discriminate]. cbn [bind] in E.
  destruct (unless _ _); [|discriminate]. cbn [bind] in E.
  destruct (filled_ctop _); [|discriminate]. cbn [bind] in E.
  destruct (filled_ctop _); [|discriminate]. cbn [bind] in E.
  destruct (filled_ctop _); [|discriminate]. cbn [bind] in E.
  destruct (filled_ctop _); [|discriminate]. cbn [bind] in E.
  injection E as _ <-. destruct (filled_sig_accepted S F) as (A & B & _). auto.
Qed.

Theorem C66_scalars_need_no_order s c :
  history s -> s_vfree s = None -> s_efree s = None ->
  (forall x, plain_stretcher x -> inferred_stretcher x s = bad c -> c <> UNDHSH /\ c <> UNDEQU)
  /\ (forall p, plain_postponer p -> inferred_postponer p s = bad c -> c <> UNDHSH /\ c <> UNDEQU).
Proof.
  intros H Nv Ne. pose proof (C66_signatures_stay_sound H) as S. split.
  - intros x P E. destruct (C44_stretcher_rejected s P E) as [(-> & _)|[F|[(F & _)|(F & _)]]];
      try congruence; [split; discriminate|].
    unfold prop_fault, map_fault, fold_fault in F.
    split; intros ->; repeat match goal with
      | F : _ \/ _ |- _ => destruct F
      | F : _ = _ /\ _ |- _ => destruct F
      end; discriminate.
  - intros p P E. unfold inferred_postponer in E. rewrite Ne in E. cbn [nonnull negb] in E.
    destruct S as (_ & _ & Se). destruct (scalar_complete (Se Ne)) as (C & _).
    cbn [set_eorder s_eorder] in E. rewrite (complete_full C) in E. cbn [bind] in E.
    unfold unless in E. destruct (negb (nonnull (po_postponable p))); cbn [bind] in E.
    + injection E as <-. split; discriminate.
    + destruct (negb (nonnull (allow _ _))); cbn [bind] in E; [injection E as <-; split; discriminate|].
      discriminate.
Qed.

(** Built, mutated so that vertices lose their destructor, and stretched. *)
Example C66_history_ex :
  exists s s' s'' x',
    history s /\ history s' /\ s_vfree s <> None /\ s_vfree s' = None
    /\ ~ callable (o_hash (s_vorder s'))
    /\ inferred_stretcher (mkStretcher (Some (User 9)) prop0) s' = ok (x', s'')
    /\ complete_order (s_vorder s'').
Proof.
  set (b := mkBuilder (Some (User 1)) None (mkSig 7 (mkOrder (Some (User 2)) (Some (User 3))) order0
                                                    (Some (User 4)) None)).
  set (m := mkMutator false false (mkProp (mkFold (Some (User 5)) None None None None None) fold0 fold0)
            fold0 order0 order0).
  destruct (inferred_builder (ok true) b) as [b'|] eqn:B; [|vm_compute in B; discriminate].
  assert (Pb : plain_builder b).
  { unfold plain_builder, plain_sig, plain_order, plain, given; simpl; repeat split; eauto. }
  assert (Pm : plain_mutator m).
  { unfold plain_mutator, plain_prop, plain_fold, plain_order, plain, given; simpl; repeat split; eauto. }
  pose proof (@built (ok true) b b' Pb B) as Hb.
  vm_compute in B. injection B as <-.
  cbn [b_sig] in Hb. match type of Hb with history ?x => set (s := x) in * end.
  destruct (inferred_mutator m s) as [[m' s']|] eqn:M; [|vm_compute in M; discriminate].
  pose proof (mutated Hb Pm M) as Hm.
  vm_compute in M. injection M as <- <-.
  eexists. eexists. eexists. eexists. split; [exact Hb|]. split; [exact Hm|].
  split; [discriminate|]. split; [reflexivity|]. split; [apply callable_none|].
  split; [vm_compute; reflexivity|]. split; apply lib_callable; discriminate.
Qed.
