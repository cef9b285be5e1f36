(** Partitions: claims C24, C25, C26, C41 and C51. *)
From Coq Require Import List Arith NArith Lia Bool Permutation Relations.
From Verif Require Import Base Machine Ports PortsProofs P_Ports BrigadeProofs Env Hash Graph Visitor VisitorProofs Walk Run Pass Fold
  Traverse TraverseProofs P_Traverse Fabricate Containers P_Containers Partition.
Import ListNotations.

Set Implicit Arguments.

(** ** Properties *)
Lemma prop_acts (mapped : nat -> outcome) nodes : forall d d',
  NoDup nodes -> acts (prop_act mapped) d nodes = Some d' ->
  forall n, In n nodes -> mapped n = (d' n, None).
Proof.
  assert (K : forall nodes d d', acts (prop_act mapped) d nodes = Some d' -> forall n, ~ In n nodes -> d' n = d n).
  { intros ns. induction ns as [|m ns IH]; simpl; intros d d' H n Hn; [congruence|].
    unfold prop_act in H at 1. destruct (mapped m) as [x [e|]]; [discriminate|].
    rewrite (IH _ _ H n) by tauto. apply upd_diff. intros ->. tauto. }
  induction nodes as [|m nodes IH]; simpl; intros d d' N H n Hn; [destruct Hn|].
  inversion N; subst. unfold prop_act in H at 1. destruct (mapped m) as [x [e|]] eqn:Em; [discriminate|].
  destruct Hn as [<-|Hn].
  - now rewrite (K _ _ _ H m), upd_same.
  - eapply IH; eauto.
Qed.

Lemma filter_none {A} (p : A -> bool) l : (forall x, In x l -> p x = false) -> filter p l = [].
Proof. induction l as [|x l IH]; simpl; intros H; auto. rewrite (H x) by auto. apply IH. auto. Qed.

(** ** Classification *)
Lemma image_none_keys (m : @vmap nat) v : image_nj m v = None <-> ~ In v (map fst m).
Proof.
  induction m as [|[w c] m IH]; simpl; [tauto|]. destruct (N.eqb_spec w v) as [->|Hn]; [split; [discriminate|tauto]|].
  rewrite IH. intuition.
Qed.

Lemma associate_fresh j (m : @vmap nat) v k :
  image_nj m v = None -> associate j m v k = (m ++ [(v, k)], None, false).
Proof. intros H. unfold associate. rewrite associate_nj_spec, H. destruct j; reflexivity. Qed.

Lemma associate_dup (m : @vmap nat) v k c : image_nj m v = Some c -> associate true m v k = (m, Some k, true).
Proof. intros H. unfold associate. now rewrite H. Qed.

Lemma nodup_map_filter {A B} (f : A -> B) p l : NoDup (map f l) -> NoDup (map f (filter p l)).
Proof.
  induction l as [|x l IH]; simpl; intros N; auto. inversion N; subst. destruct (p x); simpl; auto.
  constructor; auto. intros H. apply H1. apply in_map_iff in H as (y & <- & Hy). apply in_map.
  now apply filter_In in Hy.
Qed.

Section Classify.
  Context {E : Type}.
  Variable X : env.
  Variable g : graph word E.
  Variable equal : word -> word -> bool.
  Variable phash : word -> N.
  Variable prop : nat -> word.
  Notation clane := (clane X phash prop).
  Notation cslot := (cslot X phash prop).
  Notation same := (same equal prop).
  Notation classify := (classify X g equal phash prop).

  (** What holds without any assumptions on the vertices. *)
  Definition reps_done (done : list nat) (d : cdata) : Prop :=
    forall l h m, In m (cell (colls d l) h) -> In m done /\ clane m = l /\ cslot m = h.

  Definition onlane (l : nat) (ns : list nat) : list nat := filter (fun n => clane n =? l) ns.

  (** Vertices stored by a worker are those of the nodes it has visited, if they are all new. *)
  Definition stored (done : list nat) (d : cdata) : Prop :=
    reps_done done d /\ forall l, map fst (cmaps d l) = map (vx g) (onlane l done).

  Lemma reps_put done d n d' :
    reps_done done d ->
    colls d' = upd (colls d) (clane n) (put (colls d (clane n)) (cslot n) (cell (colls d (clane n)) (cslot n) ++ [n])) ->
    reps_done (done ++ [n]) d'.
  Proof.
    intros H Hd l h m. rewrite Hd. unfold upd. destruct (Nat.eqb_spec l (clane n)) as [->|Hl].
    - rewrite cell_put. destruct (N.eqb_spec h (cslot n)) as [->|Hh].
      + intros Hm. apply in_app_or in Hm as [Hm|[<-|[]]].
        * destruct (H _ _ _ Hm) as (A & B & C). repeat split; auto. apply in_or_app; auto.
        * repeat split; auto. apply in_or_app. simpl. auto.
      + intros Hm. destruct (H _ _ _ Hm) as (A & B & C). repeat split; auto. apply in_or_app; auto.
    - intros Hm. destruct (H _ _ _ Hm) as (A & B & C). repeat split; auto. apply in_or_app; auto.
  Qed.

  Lemma reps_same done d n d' : reps_done done d -> colls d' = colls d -> reps_done (done ++ [n]) d'.
  Proof.
    intros H Hd l h m. rewrite Hd. intros Hm. destruct (H _ _ _ Hm) as (A & B & C). repeat split; auto.
    apply in_or_app; auto.
  Qed.

  Lemma onlane_snoc l done n : onlane l (done ++ [n]) = onlane l done ++ if clane n =? l then [n] else [].
  Proof. unfold onlane. rewrite filter_app. simpl. destruct (clane n =? l); reflexivity. Qed.

  Lemma stored_step done d n :
    stored done d ->
    match image_nj (cmaps d (clane n)) (vx g n) with
    | None => snd (classify d n) = None /\ stored (done ++ [n]) (fst (classify d n))
    | Some _ => judy X = true -> snd (classify d n) = Some PARDPV
    end.
  Proof.
    intros [HB HM]. unfold classify.
    destruct (image_nj (cmaps d (clane n)) (vx g n)) as [c0|] eqn:Ei.
    - intros Hj. rewrite Hj. destruct (find (same n) _) as [r|] eqn:Ef.
      + apply find_some in Ef as [Hr _]. destruct (HB _ _ _ Hr) as (Hd & Hl & _).
        destruct (image_nj (cmaps d (clane n)) (vx g r)) as [k|] eqn:Er.
        * rewrite (associate_dup _ _ _ Ei). reflexivity.
        * exfalso. apply image_none_keys in Er. apply Er. rewrite HM. apply in_map. unfold onlane. apply filter_In.
          split; auto. apply Nat.eqb_eq. auto.
      + rewrite (associate_dup _ _ _ Ei). reflexivity.
    - destruct (find (same n) _) as [r|] eqn:Ef.
      + apply find_some in Ef as [Hr _]. destruct (HB _ _ _ Hr) as (Hd & Hl & _).
        destruct (image_nj (cmaps d (clane n)) (vx g r)) as [k|] eqn:Er.
        * rewrite (associate_fresh _ _ _ _ Ei). split; [reflexivity|]. split; [eapply reps_same; eauto; reflexivity|].
          intros l. cbn [fst cmaps]. unfold upd. rewrite onlane_snoc, map_app. destruct (Nat.eqb_spec l (clane n)) as [->|Hn].
          -- rewrite map_app, HM, Nat.eqb_refl. reflexivity.
          -- rewrite HM. destruct (Nat.eqb_spec (clane n) l); [congruence|]. now rewrite app_nil_r.
        * exfalso. apply image_none_keys in Er. apply Er. rewrite HM. apply in_map. unfold onlane. apply filter_In.
          split; auto. apply Nat.eqb_eq. auto.
      + rewrite (associate_fresh _ _ _ _ Ei). split; [reflexivity|]. split; [eapply reps_put; eauto; reflexivity|].
        intros l. cbn [fst cmaps]. unfold upd. rewrite onlane_snoc, map_app. destruct (Nat.eqb_spec l (clane n)) as [->|Hn].
        * rewrite map_app, HM, Nat.eqb_refl. reflexivity.
        * rewrite HM. destruct (Nat.eqb_spec (clane n) l); [congruence|]. now rewrite app_nil_r.
  Qed.

  Lemma stored_start : stored [] cstart.
  Proof. split; [intros l h m []|reflexivity]. Qed.

  (** With Judy arrays, success means that no worker has seen a vertex twice. *)
  Lemma judy_success nodes : forall done d d',
    judy X = true -> stored done d -> (forall l, NoDup (map (vx g) (onlane l done))) ->
    acts classify d nodes = Some d' -> forall l, NoDup (map (vx g) (onlane l (done ++ nodes))).
  Proof.
    induction nodes as [|n nodes IH]; intros done d d' Hj Hs Hd Ha l.
    - now rewrite app_nil_r.
    - simpl in Ha. pose proof (@stored_step done d n Hs) as St.
      destruct (classify d n) as [d1 [e|]] eqn:Ec; [discriminate|].
      destruct (image_nj (cmaps d (clane n)) (vx g n)) eqn:Ei; [specialize (St Hj); discriminate|].
      destruct St as [_ St]. replace (done ++ n :: nodes) with ((done ++ [n]) ++ nodes) by now rewrite <- app_assoc.
      eapply IH; eauto. intros l'. rewrite onlane_snoc, map_app. destruct (Nat.eqb_spec (clane n) l') as [<-|Hn]; simpl.
      + apply nodup_app; [apply Hd|repeat constructor; auto|]. intros x Hx [<-|[]].
        apply image_none_keys in Ei. apply Ei. now rewrite (proj2 Hs).
      + rewrite app_nil_r. apply Hd.
  Qed.

  (** There is no error if the vertices are distinct. *)
  Lemma distinct_no_error nodes : forall n,
    NoDup (map (vx g) (nodes ++ [n])) ->
    stored nodes (performed classify cstart nodes) /\ snd (classify (performed classify cstart nodes) n) = None.
  Proof.
    assert (A : NoDup (map (vx g) nodes) -> stored nodes (performed classify cstart nodes)).
    { rewrite <- (rev_involutive nodes). induction (rev nodes) as [|m ns IH]; simpl; intros N; [apply stored_start|].
      rewrite map_app in N. apply NoDup_remove in N as [N1 N2]. rewrite app_nil_r in N1, N2.
      specialize (IH N1). unfold performed. rewrite fold_left_app. fold (performed classify cstart (rev ns)). simpl.
      pose proof (@stored_step _ _ m IH) as St.
      destruct (image_nj (cmaps (performed classify cstart (rev ns)) (clane m)) (vx g m)) eqn:Ei; [|apply St].
      exfalso. assert (H : image_nj (cmaps (performed classify cstart (rev ns)) (clane m)) (vx g m) <> None) by congruence.
      apply H, image_none_keys. rewrite (proj2 IH). intros Hin. apply N2. apply in_map_iff in Hin as (y & <- & Hy).
      apply in_map. unfold onlane in Hy. now apply filter_In in Hy. }
    intros n N. rewrite map_app in N. apply NoDup_remove in N as [N1 N2]. rewrite app_nil_r in N1, N2.
    specialize (A N1). split; auto. pose proof (@stored_step _ _ n A) as St.
    destruct (image_nj (cmaps (performed classify cstart nodes) (clane n)) (vx g n)) eqn:Ei; [|apply St].
    exfalso. assert (H : image_nj (cmaps (performed classify cstart nodes) (clane n)) (vx g n) <> None) by congruence.
    apply H, image_none_keys. rewrite (proj2 A). intros Hin. apply N2. apply in_map_iff in Hin as (y & <- & Hy).
    apply in_map. unfold onlane in Hy. now apply filter_In in Hy.
  Qed.

  (** *** With distinct vertices and a proper equality *)
  Hypothesis Heq : equivalence equal.
  Hypothesis Hcompat : forall x y, equal x y = true -> phash x = phash y.

  Lemma same_equal n m : same n m = equal (prop n) (prop m).
  Proof.
    unfold Partition.same. destruct (N.eqb_spec (prop n) (prop m)) as [->|]; simpl; auto. now rewrite (eqv_refl Heq).
  Qed.
  Lemma same_place n m : same n m = true -> clane n = clane m /\ cslot n = cslot m.
  Proof.
    rewrite same_equal. intros H. apply Hcompat in H. unfold Partition.clane, Partition.cslot, prop_hash. now rewrite H.
  Qed.

  Record classified (done : list nat) (d : cdata) (c : nat -> nat) : Prop := {
    cl_maps : forall l, cmaps d l = map (fun n => (vx g n, c n)) (onlane l done);
    cl_same : forall n m, In n done -> In m done -> (same n m = true <-> c n = c m);
    cl_next : forall n, In n done -> c n < next d;
    cl_refs : forall k, crefs d k = match length (filter (fun n => c n =? k) done) with 0 => None | S r => Some r end;
    cl_reps : reps_done done d;
    cl_cover : forall n, In n done -> exists m, In m (cell (colls d (clane n)) (cslot n)) /\ same n m = true
  }.

  Lemma classified_start : classified [] cstart (fun _ => 0).
  Proof. split; simpl; try tauto; auto. intros l h m []. Qed.

  Lemma image_of (c : nat -> nat) ns n :
    NoDup (map (vx g) ns) -> In n ns -> image_nj (map (fun n => (vx g n, c n)) ns) (vx g n) = Some (c n).
  Proof.
    induction ns as [|m ns IH]; simpl; intros N Hn; [destruct Hn|]. destruct Hn as [<-|Hn]; [now rewrite N.eqb_refl|].
    inversion N; subst. destruct (N.eqb_spec (vx g m) (vx g n)) as [E1|_]; [|auto].
    exfalso. apply H1. rewrite E1. now apply in_map.
  Qed.

  Lemma filter_new (c : nat -> nat) n k j done :
    ~ In n done -> length (filter (fun m => upd c n k m =? j) (done ++ [n])) =
    length (filter (fun m => c m =? j) done) + if k =? j then 1 else 0.
  Proof.
    intros Hn. rewrite filter_app, app_length. simpl. rewrite upd_same. f_equal.
    - f_equal. apply filter_ext_in. intros m Hm. rewrite upd_diff; auto. congruence.
    - destruct (k =? j); reflexivity.
  Qed.

  Lemma classified_step done d c n d' :
    classified done d c -> NoDup (map (vx g) (done ++ [n])) -> classify d n = (d', None) ->
    exists c', classified (done ++ [n]) d' c'.
  Proof.
    intros [Hm Hs Hx Hr Hb Hv] N Hc.
    rewrite map_app in N. apply NoDup_remove in N as [N1 N2]. rewrite app_nil_r in N1, N2.
    assert (Hnew : ~ In n done) by (intros H; apply N2; now apply in_map).
    assert (Hi : image_nj (cmaps d (clane n)) (vx g n) = None).
    { apply image_none_keys. rewrite Hm, map_map. simpl. intros H. apply N2. apply in_map_iff in H as (y & <- & Hy).
      apply in_map. unfold onlane in Hy. now apply filter_In in Hy. }
    unfold classify in Hc. rewrite Hm in Hc.
    destruct (find (same n) (cell (colls d (clane n)) (cslot n))) as [r|] eqn:Ef.
    - apply find_some in Ef as [Hin Hsame]. destruct (Hb _ _ _ Hin) as (Hd & Hl & Hh).
      rewrite (image_of c) in Hc; [|now apply nodup_map_filter|apply filter_In; split; auto; now apply Nat.eqb_eq].
      rewrite <- Hm in Hc. rewrite (associate_fresh _ _ _ _ Hi) in Hc. inversion Hc; subst; clear Hc.
      exists (upd c n (c r)). split; cbn [cmaps colls crefs next].
      + intros l. unfold upd at 1. rewrite onlane_snoc, map_app.
        assert (E1 : map (fun m => (vx g m, upd c n (c r) m)) (onlane l done) = map (fun m => (vx g m, c m)) (onlane l done)).
        { apply map_ext_in. intros m Hm'. rewrite upd_diff; auto. intros ->. unfold onlane in Hm'. apply filter_In in Hm'. tauto. }
        rewrite E1. destruct (Nat.eqb_spec l (clane n)) as [->|Hn].
        * rewrite Hm, Nat.eqb_refl. simpl. now rewrite upd_same.
        * rewrite Hm. destruct (Nat.eqb_spec (clane n) l); [congruence|]. simpl. now rewrite app_nil_r.
      + assert (A : forall m, In m done -> (same n m = true <-> c r = c m)).
        { intros m Hm'. rewrite <- (Hs r m Hd Hm'). rewrite !same_equal in *. now rewrite (eqv_l Heq _ _ _ Hsame). }
        assert (A' : forall m, In m done -> (same m n = true <-> c m = c r)).
        { intros m Hm'. rewrite same_equal, (eqv_symb Heq), <- same_equal, A by auto. split; auto. }
        intros x y Hx' Hy'. apply in_app_or in Hx' as [Hx'|[<-|[]]]; apply in_app_or in Hy' as [Hy'|[<-|[]]];
          rewrite ?upd_same, ?upd_diff; try congruence; auto; try (apply A; auto); try (apply A'; auto); try (apply Hs; auto).
        split; auto. intros _. rewrite same_equal. apply (eqv_refl Heq).
      + intros m Hm'. apply in_app_or in Hm' as [Hm'|[<-|[]]]; [rewrite upd_diff by congruence; auto|].
        rewrite upd_same. auto.
      + intros k. rewrite filter_new by auto. unfold upd. rewrite (Nat.eqb_sym (c r) k).
        destruct (Nat.eqb_spec k (c r)) as [->|]; [|now rewrite Nat.add_0_r].
        rewrite Hr. rewrite Nat.add_1_r.
        destruct (length (filter (fun m => c m =? c r) done)) eqn:El; auto.
        exfalso. assert (In r (filter (fun m => c m =? c r) done)) by (apply filter_In; split; auto; apply Nat.eqb_refl).
        destruct (filter (fun m => c m =? c r) done); [auto|discriminate].
      + eapply reps_same; eauto.
      + intros m Hm'. apply in_app_or in Hm' as [Hm'|[<-|[]]]; auto. exists r. auto.
    - assert (Hno : forall m, In m done -> same n m = false).
      { intros m Hm'. destruct (same n m) eqn:Es; auto. destruct (same_place _ _ Es) as [P1 P2].
        destruct (Hv m Hm') as (q & Hq & Hq'). rewrite <- P1, <- P2 in Hq.
        pose proof (find_none _ _ Ef q Hq) as Hf. rewrite !same_equal in *. rewrite (eqv_l Heq _ _ _ Es) in Hf. congruence. }
      rewrite <- Hm in Hc. rewrite (associate_fresh _ _ _ _ Hi) in Hc. inversion Hc; subst; clear Hc.
      exists (upd c n (next d)). split; cbn [cmaps colls crefs next].
      + intros l. unfold upd at 1. rewrite onlane_snoc, map_app.
        assert (E1 : map (fun m => (vx g m, upd c n (next d) m)) (onlane l done) = map (fun m => (vx g m, c m)) (onlane l done)).
        { apply map_ext_in. intros m Hm'. rewrite upd_diff; auto. intros ->. unfold onlane in Hm'. apply filter_In in Hm'. tauto. }
        rewrite E1. destruct (Nat.eqb_spec l (clane n)) as [->|Hn].
        * rewrite Hm, Nat.eqb_refl. simpl. now rewrite upd_same.
        * rewrite Hm. destruct (Nat.eqb_spec (clane n) l); [congruence|]. simpl. now rewrite app_nil_r.
      + intros x y Hx' Hy'. apply in_app_or in Hx' as [Hx'|[<-|[]]]; apply in_app_or in Hy' as [Hy'|[<-|[]]];
          rewrite ?upd_same, ?upd_diff; try congruence; auto.
        * rewrite same_equal, (eqv_symb Heq), <- same_equal, Hno by auto. apply Hx in Hx'. split; [discriminate|lia].
        * rewrite Hno by auto. apply Hx in Hy'. split; [discriminate|lia].
        * split; auto. intros _. rewrite same_equal. apply (eqv_refl Heq).
      + intros m Hm'. apply in_app_or in Hm' as [Hm'|[<-|[]]]; [rewrite upd_diff by congruence; apply Hx in Hm'; lia|].
        rewrite upd_same. lia.
      + intros k. rewrite filter_new by auto. unfold upd. rewrite (Nat.eqb_sym (next d) k).
        destruct (Nat.eqb_spec k (next d)) as [->|]; [|now rewrite Nat.add_0_r, Hr].
        replace (filter (fun m => c m =? next d) done) with (@nil nat); auto.
        symmetry. apply filter_none. intros m Hm'. apply Nat.eqb_neq. apply Hx in Hm'. lia.
      + eapply reps_put; eauto.
      + intros m Hm'. unfold upd. apply in_app_or in Hm' as [Hm'|[<-|[]]].
        * destruct (Hv m Hm') as (q & Hq & Hq'). exists q. split; auto.
          destruct (Nat.eqb_spec (clane m) (clane n)) as [El|]; auto. rewrite cell_put.
          destruct (N.eqb_spec (cslot m) (cslot n)) as [Eh|]; [|now rewrite <- El].
          apply in_or_app. left. now rewrite <- El, <- Eh.
        * exists n. rewrite Nat.eqb_refl, cell_put, N.eqb_refl. split; [apply in_or_app; simpl; auto|].
          rewrite same_equal. apply (eqv_refl Heq).
  Qed.

  Lemma classified_acts nodes : forall done d c d',
    classified done d c -> NoDup (map (vx g) (done ++ nodes)) -> acts classify d nodes = Some d' ->
    exists c', classified (done ++ nodes) d' c'.
  Proof.
    induction nodes as [|n nodes IH]; intros done d c d' Hc N Ha.
    - inversion Ha; subst. rewrite app_nil_r. eauto.
    - simpl in Ha. destruct (classify d n) as [d1 [e|]] eqn:Ec; [discriminate|].
      replace (done ++ n :: nodes) with ((done ++ [n]) ++ nodes) in * by now rewrite <- app_assoc.
      assert (N' : NoDup (map (vx g) (done ++ [n]))).
      { rewrite map_app in N. clear - N. revert N. generalize (map (vx g) (done ++ [n])), (map (vx g) nodes). intros a b.
        induction a as [|x a IH]; simpl; intros N; constructor; inversion N; subst; auto. intros H. apply H1, in_or_app. auto. }
      destruct (@classified_step _ _ _ n _ Hc N' Ec) as (c1 & Hc1). eapply IH; eauto.
  Qed.
End Classify.

(** *** The result *)
Section Made.
  Context {E : Type}.
  Variable X : env.
  Variable g : graph word E.
  Variable mapped : nat -> outcome.
  Variable equal : word -> word -> bool.
  Variable phash : word -> N.
  Hypothesis W : wf g.
  Hypothesis Hl : 0 < lanes X.

  Variable kills : nat -> nat -> bool.
  Hypothesis K : never_killed kills.

  Lemma properties_set s order :
    ran (lanes X) (walk_dest X) (property_setting g mapped (in_pass X kills 0)) (vstart (fun _ => null)) (initial (root g)) s ->
    Permutation order (seq 0 (lanes X)) -> pass_status order s = None ->
    forall n, In n (ids g) -> mapped n = (data s n, None).
  Proof.
    intros Hr Ho Hs n Hn. apply ran_completes in Hr; [|now apply vdest_lt].
    assert (Hs' : vstatus (in_pass X kills 0) order s = None) by (eapply pass_unkilled; [exact Hl|exact Ho|intros; apply K|exact Hr|exact Hs]).
    destruct (@walk_success _ _ (in_pass X kills 0) _ _ _ _ _ _ Hl Ho Hr Hs') as (nodes & A & B & C).
    eapply prop_acts; eauto. apply B. now apply along_ids.
  Qed.

  Lemma made_facts p :
    partitions X g mapped equal phash kills (Some p, None) ->
    exists prop d nodes,
      (forall n, In n (ids g) -> mapped n = (prop n, None)) /\
      NoDup nodes /\ (forall n, In n nodes <-> In n (ids g)) /\
      acts (classify X g equal phash prop) cstart nodes = Some d /\
      p = mkPart (lanes X) (cmaps d) (crefs d) (fun _ => None).
  Proof.
    intros H. remember (Some p, @None error) as r eqn:Er. destruct H as [|s order s' order' R1 O1 V1 R2 O2]; [discriminate|].
    apply pair_equal_spec in Er as [Er V2]. assert (Ep : p = mkPart (lanes X) (cmaps (data s')) (crefs (data s')) (fun _ => None)) by congruence.
    clear Er. subst p.
    pose proof (properties_set R1 O1 V1) as Hp.
    apply ran_completes in R2; [|now apply vdest_lt].
    assert (V2' : vstatus (in_pass X kills 1) order' s' = None) by (eapply pass_unkilled; [exact Hl|exact O2|intros; apply K|exact R2|exact V2]).
    destruct (@gwalk_success _ _ (in_pass X kills 1) _ _ _ _ _ _ _ Hl O2 R2 V2') as (nodes & A & B & C).
    exists (data s), (data s'), nodes. split; [exact Hp|]. split; [exact A|]. split; [|split; [exact C|reflexivity]].
    intros n. rewrite B. now apply along_ids.
  Qed.
End Made.

Lemma firsts_at {A} (f : nat -> option A) x l0 k :
  (forall l, l < k -> f l = if l =? l0 then Some x else None) -> l0 < k -> firsts (map f (seq 0 k)) = Some x.
Proof.
  enough (G : forall a, (forall l, a <= l < a + k -> f l = if l =? l0 then Some x else None) -> a <= l0 < a + k ->
                        firsts (map f (seq a k)) = Some x).
  { intros H H0. apply G; [intros; apply H; lia|lia]. }
  induction k as [|k IH]; intros a H H0; [lia|]. simpl. rewrite H by lia.
  destruct (Nat.eqb_spec a l0) as [|Hn]; auto. apply IH; [intros; apply H; lia|lia].
Qed.
Lemma firsts_none {A} (f : nat -> option A) ls :
  (forall l, f l = None) -> firsts (map f ls) = None.
Proof. intros H. induction ls; simpl; auto. now rewrite H. Qed.

(** What is known of a partition: the assignment [c] of classes to nodes. *)
Record assigned {E} (g : graph word E) (mapped : nat -> outcome) (equal : word -> word -> bool) (p : partition)
       (c : nat -> nat) : Prop := {
  as_class : forall n, In n (ids g) -> initial_class p (vx g n) = Some (c n);
  as_none : forall v, ~ In v (map (vx g) (ids g)) -> initial_class p v = None;
  as_same : forall n m, In n (ids g) -> In m (ids g) ->
              (c n = c m <-> equal (fst (mapped n)) (fst (mapped m)) = true);
  as_refs : forall k, refs p k = match length (filter (fun n => c n =? k) (ids g)) with 0 => None | S r => Some r end;
  as_super : super p = (fun _ => None);
  as_all : Permutation (flat_map (fun l => map snd (pmaps p l)) (seq 0 (width p))) (map c (ids g))
}.

Lemma filter_length_perm {A} (q : A -> bool) l l' : Permutation l l' -> length (filter q l) = length (filter q l').
Proof. intros P. induction P; simpl; auto; repeat destruct (q _); simpl; auto; congruence. Qed.

Lemma flat_lanes (f : nat -> nat) k ns :
  (forall n, In n ns -> f n < k) -> Permutation (flat_map (fun l => filter (fun n => f n =? l) ns) (seq 0 k)) ns.
Proof.
  revert ns. induction k as [|k IH]; intros ns H.
  - destruct ns as [|n ns]; auto. specialize (H n (or_introl eq_refl)). lia.
  - rewrite seq_S, flat_map_app. simpl. rewrite app_nil_r.
    assert (S1 : Permutation (filter (fun n => f n =? k) ns ++ filter (fun n => negb (f n =? k)) ns) ns).
    { clear. induction ns as [|n ns IH]; simpl; auto. destruct (f n =? k); simpl; [now constructor|].
      rewrite <- Permutation_middle. now constructor. }
    etransitivity; [|exact S1]. etransitivity; [apply Permutation_app_comm|]. apply Permutation_app_head.
    etransitivity; [|apply (IH (filter (fun n => negb (f n =? k)) ns))].
    + match goal with |- Permutation ?a ?b => enough (E0 : a = b) by (rewrite E0; apply Permutation_refl) end.
      rewrite !flat_map_concat_map. f_equal. apply map_ext_in. intros l Hl. apply in_seq in Hl.
      clear - Hl. induction ns as [|n ns IH]; simpl; auto.
      destruct (Nat.eqb_spec (f n) l) as [E1|E1].
      * destruct (Nat.eqb_spec (f n) k); [lia|]. simpl. rewrite E1, Nat.eqb_refl. now f_equal.
      * destruct (negb (f n =? k)); simpl; auto. apply Nat.eqb_neq in E1. now rewrite E1.
    + intros n Hn. apply filter_In in Hn as [Hn E1]. apply negb_true_iff, Nat.eqb_neq in E1. specialize (H n Hn). lia.
Qed.

Lemma made_assigned {E} X (g : graph word E) mapped equal phash kills p :
  wf g -> 0 < lanes X -> equivalence equal -> (forall x y, equal x y = true -> phash x = phash y) ->
  NoDup (map (vx g) (ids g)) -> never_killed kills -> partitions X g mapped equal phash kills (Some p, None) ->
  exists c, assigned g mapped equal p c.
Proof.
  intros W Hl Heq Hcompat N K H. destruct (made_facts W Hl K H) as (prop & d & nodes & Hp & Nn & Hn & Ha & ->).
  assert (P : Permutation nodes (ids g)) by (apply NoDup_Permutation; auto; apply (wf_nodup W)).
  assert (N' : NoDup (map (vx g) nodes)) by (eapply Permutation_NoDup; [|exact N]; apply Permutation_map; now symmetry).
  destruct (@classified_acts _ X g equal phash prop Heq Hcompat nodes [] cstart _ d (classified_start X g equal phash prop) N' Ha) as (c & Hc).
  simpl in Hc. destruct Hc as [Hm Hs Hx Hr Hb Hv].
  assert (Im : forall n l, In n nodes -> image_nj (cmaps d l) (vx g n) = if l =? clane X phash prop n then Some (c n) else None).
  { intros n l Hin. rewrite Hm. destruct (Nat.eqb_spec l (clane X phash prop n)) as [->|Hne].
    - apply image_of; [now apply nodup_map_filter|]. apply filter_In. split; auto. apply Nat.eqb_refl.
    - apply image_none_keys. rewrite map_map. simpl. intros Hk. apply in_map_iff in Hk as (y & E1 & Hy).
      apply filter_In in Hy as [Hy E2]. apply Nat.eqb_eq in E2.
      assert (y = n); [|congruence]. clear - N' E1 Hy Hin. revert N' Hy Hin. induction nodes as [|z ns IH]; simpl; [tauto|].
      intros N [->|Hy] [->|Hn]; inversion N; subst; auto.
      + exfalso. apply H1. rewrite E1. now apply in_map.
      + exfalso. apply H1. rewrite <- E1. now apply in_map. }
  exists c. split; simpl.
  - intros n Hin. unfold initial_class. simpl. apply firsts_at with (l0 := clane X phash prop n).
    + intros l _. apply Im. now apply Hn.
    + now apply lane_of_lt.
  - intros v Hv'. unfold initial_class. simpl. apply firsts_none. intros l. rewrite Hm. apply image_none_keys.
    rewrite map_map. simpl. intros Hk. apply in_map_iff in Hk as (y & E1 & Hy). apply filter_In in Hy as [Hy _].
    apply Hv'. rewrite <- E1. apply in_map. now apply Hn.
  - intros n m Hin Hin'. rewrite (Hp n Hin), (Hp m Hin'). simpl. rewrite <- Hs; [|apply Hn; auto..].
    now rewrite (same_equal _ Heq).
  - intros k. rewrite Hr. now rewrite (filter_length_perm _ P).
  - reflexivity.
  - assert (F : Permutation (flat_map (fun l => filter (fun n => clane X phash prop n =? l) nodes) (seq 0 (lanes X))) (ids g)).
    { etransitivity; [|exact P]. apply flat_lanes. intros. now apply lane_of_lt. }
    etransitivity; [|apply Permutation_map; exact F].
    match goal with |- Permutation ?a ?b => enough (E0 : a = b) by (rewrite E0; apply Permutation_refl) end.
    clear - Hm. induction (seq 0 (lanes X)) as [|l ls IH]; simpl; auto.
    rewrite map_app, IH, Hm, map_map. reflexivity.
Qed.

(** ** C24: two vertices are in the same class if and only if their properties are equal, and the
    size of a class is the number of vertices in it. *)
Theorem C24_classes_reflect_properties (E : Type) X (g : graph word E) mapped equal phash kills p :
  wf g -> 0 < lanes X -> equivalence equal -> (forall x y, equal x y = true -> phash x = phash y) ->
  NoDup (map (vx g) (ids g)) -> never_killed kills -> partitions X g mapped equal phash kills (Some p, None) ->
  (forall n, In n (ids g) -> snd (mapped n) = None) /\
  (forall n, In n (ids g) -> exists c, class_of p (vx g n) (Some c, None)) /\
  (forall n m c c', In n (ids g) -> In m (ids g) ->
     class_of p (vx g n) (Some c, None) -> class_of p (vx g m) (Some c', None) ->
     (c = c' <-> equal (fst (mapped n)) (fst (mapped m)) = true)) /\
  (forall v, ~ In v (map (vx g) (ids g)) -> forall r, class_of p v r <-> r = (None, Some PARVNF)).
Proof.
  intros W Hl Heq Hc N K H. destruct (made_facts W Hl K H) as (prop & d & nodes & Hp & _).
  destruct (made_assigned W Hl Heq Hc N K H) as (c & [A1 A2 A3 A4 A5 A6]).
  assert (U : forall n r, In n (ids g) -> class_of p (vx g n) r -> r = (Some (c n), None)).
  { intros n r Hn Hr. inversion Hr as [Hi|i path r' Hi Hcl]; subst; rewrite (A1 n Hn) in Hi; [discriminate|].
    inversion Hi; subst. rewrite A5 in Hcl. inversion Hcl; subst; [auto|discriminate]. }
  split; [|split; [|split]].
  - intros n Hn. now rewrite (Hp n Hn).
  - intros n Hn. exists (c n). econstructor; eauto. rewrite A5. now constructor.
  - intros n m k k' Hn Hm Hk Hk'. apply U in Hk; auto. apply U in Hk'; auto. inversion Hk; inversion Hk'; subst. auto.
  - intros v Hv r. split.
    + intros Hr. inversion Hr as [|i path r' Hi]; subst; auto. rewrite (A2 v Hv) in Hi. discriminate.
    + intros ->. constructor. auto.
Qed.

Theorem C24_size_of_class (E : Type) X (g : graph word E) mapped equal phash kills p n c :
  wf g -> 0 < lanes X -> equivalence equal -> (forall x y, equal x y = true -> phash x = phash y) ->
  NoDup (map (vx g) (ids g)) -> never_killed kills -> partitions X g mapped equal phash kills (Some p, None) ->
  In n (ids g) -> class_of p (vx g n) (Some c, None) ->
  class_size p c = Some (length (filter (fun m => equal (fst (mapped n)) (fst (mapped m))) (ids g))).
Proof.
  intros W Hl Heq Hc N K H Hn Hcl. destruct (made_assigned W Hl Heq Hc N K H) as (f & [A1 A2 A3 A4 A5 A6]).
  inversion Hcl as [|i path r' Hi Hr]; subst. rewrite (A1 n Hn) in Hi. inversion Hi; subst.
  rewrite A5 in Hr. inversion Hr; subst; [|discriminate]. unfold class_size. rewrite A4.
  rewrite (filter_ext_in (fun m => f m =? f n) (fun m => equal (fst (mapped n)) (fst (mapped m)))).
  - destruct (length (filter _ (ids g))) eqn:El; auto. exfalso.
    assert (In n (filter (fun m => equal (fst (mapped n)) (fst (mapped m))) (ids g))) by (apply filter_In; split; auto; apply (eqv_refl Heq)).
    destruct (filter _ (ids g)); [auto|discriminate].
  - intros m Hm. specialize (A3 n m Hn Hm). destruct (Nat.eqb_spec (f m) (f n)) as [E1|E1].
    + symmetry. apply A3. auto.
    + destruct (equal _ _) eqn:E2; auto. exfalso. apply E1. symmetry. now apply A3.
Qed.

(** ** C51: freeing a partition frees every class exactly once. *)
Lemma free_classes cs : forall f,
  (forall k, f k = match length (filter (fun c => c =? k) cs) with 0 => None | S r => Some r end) ->
  exists f', fold_left free_class cs (Some f) = Some f' /\ forall k, f' k = None.
Proof.
  induction cs as [|c cs IH]; intros f H; simpl; [eauto|].
  pose proof (H c) as Hc. simpl in Hc. rewrite Nat.eqb_refl in Hc. simpl in Hc. rewrite Hc.
  assert (Ho : forall k, k <> c -> f k = match length (filter (fun x => x =? k) cs) with 0 => None | S r => Some r end).
  { intros k Hk. rewrite H. simpl. destruct (Nat.eqb_spec c k); [congruence|reflexivity]. }
  destruct (length (filter (fun x => x =? c) cs)) as [|i] eqn:El; apply IH; intros k; unfold upd;
    destruct (Nat.eqb_spec k c) as [->|Hk]; auto; rewrite El; auto.
Qed.

Theorem C51_partitions_are_freed (E : Type) X (g : graph word E) mapped equal phash kills p :
  wf g -> 0 < lanes X -> equivalence equal -> (forall x y, equal x y = true -> phash x = phash y) ->
  NoDup (map (vx g) (ids g)) -> never_killed kills -> partitions X g mapped equal phash kills (Some p, None) ->
  exists f, free_partition p = Some f /\ forall k, f k = None.
Proof.
  intros W Hl Heq Hc N K H. destruct (made_assigned W Hl Heq Hc N K H) as (c & [A1 A2 A3 A4 A5 A6]).
  unfold free_partition. apply free_classes. intros k. rewrite A4.
  assert (P : Permutation (flat_map (fun l => map snd (pmaps p l)) (rev (seq 0 (width p)))) (map c (ids g))).
  { rewrite <- A6. rewrite !flat_map_concat_map. generalize (fun l => map snd (pmaps p l)). intros q. clear.
    induction (seq 0 (width p)) as [|l ls IH]; simpl; auto. rewrite map_app, concat_app. simpl. rewrite app_nil_r.
    etransitivity; [apply Permutation_app_comm|]. now apply Permutation_app_head. }
  rewrite (filter_length_perm _ P). clear. 
  assert (E1 : length (filter (fun x => x =? k) (map c (ids g))) = length (filter (fun n => c n =? k) (ids g))).
  { induction (ids g) as [|n l IH]; simpl; auto. destruct (c n =? k); simpl; auto. }
  now rewrite E1.
Qed.


(** ** C25: uniting classes *)
Lemma climbs_unique sup i p1 r1 : climbs sup i p1 r1 -> forall p2 r2, climbs sup i p2 r2 -> p1 = p2 /\ r1 = r2.
Proof.
  induction 1 as [i H|i j p1 r1 Hj _ IH]; intros p2 r2 H2; inversion H2; subst; auto; try congruence.
  rewrite Hj in H. inversion H; subst. destruct (IH _ _ H0). subst. auto.
Qed.
Lemma climbs_top_none sup i path r : climbs sup i path r -> sup r = None.
Proof. induction 1; auto. Qed.
Lemma climbs_path sup i path r : climbs sup i path r -> forall k, In k path -> sup k <> None /\ exists q, climbs sup k q r.
Proof.
  induction 1 as [i H|i j path r Hj Hc IH]; intros k Hk; [destruct Hk|]. destruct Hk as [<-|Hk]; [|auto].
  split; [congruence|]. eexists. econstructor; eauto.
Qed.

Lemma redirected (to : nat) path : forall (sup : nat -> option nat) k,
  fold_left (fun f k => upd f k (Some to)) path sup k = if in_dec Nat.eq_dec k path then Some to else sup k.
Proof.
  induction path as [|a path IH]; intros sup k; simpl fold_left.
  - reflexivity.
  - rewrite IH. destruct (in_dec Nat.eq_dec k path) as [Hi|Hi]; destruct (in_dec Nat.eq_dec k (a :: path)) as [Hj|Hj]; auto.
    + exfalso. apply Hj. now right.
    + destruct Hj as [->|Hj]; [apply upd_same|contradiction].
    + apply upd_diff. intros ->. apply Hj. now left.
Qed.

Lemma climbs_redirect sup x px rx ry i path r :
  climbs sup x px rx -> sup ry = None -> rx <> ry -> climbs sup i path r ->
  exists path', climbs (redirect sup px rx ry) i path' (if r =? rx then ry else r).
Proof.
  intros Hx Hy Hne Hi.
  assert (Hr : forall k, redirect sup px rx ry k = if k =? rx then Some ry else if in_dec Nat.eq_dec k px then Some ry else sup k).
  { intros k. unfold redirect, upd. destruct (Nat.eqb_spec k rx) as [->|Hk]; auto. apply redirected. }
  assert (Ny : ~ In ry px) by (intros H; apply (climbs_path Hx) in H; tauto).
  assert (Ty : climbs (redirect sup px rx ry) ry [] ry).
  { constructor. rewrite Hr. destruct (Nat.eqb_spec ry rx); [congruence|]. destruct (in_dec Nat.eq_dec ry px); [contradiction|auto]. }
  induction Hi as [i H|i j path r Hj Hc IH].
  - destruct (Nat.eqb_spec i rx) as [->|Hn].
    + eexists. eapply climbs_up; [|exact Ty]. now rewrite Hr, Nat.eqb_refl.
    + exists []. constructor. rewrite Hr. apply Nat.eqb_neq in Hn. rewrite Hn.
      destruct (in_dec Nat.eq_dec i px) as [Hin|]; auto. apply (climbs_path Hx) in Hin. tauto.
  - destruct IH as (path' & IH). destruct (in_dec Nat.eq_dec i px) as [Hin|Hin].
    + destruct (climbs_path Hx _ Hin) as (_ & q & Hq).
      destruct (climbs_unique Hq (climbs_up _ Hj Hc)) as [_ <-]. rewrite Nat.eqb_refl.
      eexists. eapply climbs_up; [|exact Ty]. rewrite Hr. destruct (i =? rx); auto. now destruct (in_dec Nat.eq_dec i px).
    + eexists. eapply climbs_up; [|exact IH]. rewrite Hr. destruct (Nat.eqb_spec i rx) as [->|Hn].
      * pose proof (climbs_top_none Hx). congruence.
      * destruct (in_dec Nat.eq_dec i px); [contradiction|auto].
Qed.

(** The classes [i] and [j] have been made one. *)
Definition joined (p : partition) (i j : nat) : Prop :=
  exists r q q', climbs (super p) i q r /\ climbs (super p) j q' r.
Definition sound (p : partition) : Prop := forall i, exists q r, climbs (super p) i q r.

Lemma united_facts p x y p' b :
  sound p -> united p x y p' b ->
  b = true /\ sound p' /\ width p' = width p /\ pmaps p' = pmaps p /\ refs p' = refs p /\
  (forall i j, joined p' i j <-> joined p i j \/ (joined p i x /\ joined p j y) \/ (joined p i y /\ joined p j x)) /\
  (joined p x y -> super p' = super p).
Proof.
  intros Hs H. destruct H as [px rx py ry Hx Hy]. simpl.
  assert (J : forall i j qi ri qj rj, climbs (super p) i qi ri -> climbs (super p) j qj rj -> (joined p i j <-> ri = rj)).
  { intros i j qi ri qj rj Hi Hj. split.
    - intros (r & q & q' & H1 & H2). destruct (climbs_unique Hi H1), (climbs_unique Hj H2). congruence.
    - intros <-. exists ri, qi, qj. auto. }
  assert (T : joined p x y -> super p = (if rx =? ry then super p else if weight p px <? weight p py
            then redirect (super p) px rx ry else redirect (super p) py ry rx)).
  { intros Hj. apply (J _ _ _ _ _ _ Hx Hy) in Hj as ->. now rewrite Nat.eqb_refl. }
  destruct (Nat.eqb_spec rx ry) as [->|Hne].
  - split; auto. split; [exact Hs|]. repeat (split; [reflexivity|]). split; [|auto].
    intros i j. split; [auto|]. destruct (Hs i) as (qi & ri & Hi), (Hs j) as (qj & rj & Hj).
    intros [H|[[H1 H2]|[H1 H2]]]; [exact H|..].
    + apply (J _ _ _ _ _ _ Hi Hx) in H1. apply (J _ _ _ _ _ _ Hj Hy) in H2. subst. exists ry, qi, qj. auto.
    + apply (J _ _ _ _ _ _ Hi Hy) in H1. apply (J _ _ _ _ _ _ Hj Hx) in H2. subst. exists ry, qi, qj. auto.
  - split; auto. set (sup' := if weight p px <? weight p py then _ else _).
    assert (K : exists a b, ((a = rx /\ b = ry) \/ (a = ry /\ b = rx)) /\
                 forall i q r, climbs (super p) i q r -> exists q', climbs sup' i q' (if r =? a then b else r)).
    { unfold sup'. destruct (weight p px <? weight p py).
      - exists rx, ry. split; auto. intros i q r Hi. eapply climbs_redirect; eauto. eapply climbs_top_none; eauto.
      - exists ry, rx. split; auto. intros i q r Hi. eapply climbs_redirect; eauto. eapply climbs_top_none; eauto. }
    destruct K as (a & b & Hab & K). split; [|split; [reflexivity|split; [reflexivity|split; [reflexivity|split; [|]]]]].
    + intros i. destruct (Hs i) as (q & r & Hi). destruct (K _ _ _ Hi) as (q' & Hi'). eauto.
    + intros i j. destruct (Hs i) as (qi & ri & Hi), (Hs j) as (qj & rj & Hj).
      rewrite (J _ _ _ _ _ _ Hi Hj), (J _ _ _ _ _ _ Hi Hx), (J _ _ _ _ _ _ Hj Hy), (J _ _ _ _ _ _ Hi Hy), (J _ _ _ _ _ _ Hj Hx).
      destruct (K _ _ _ Hi) as (qi' & Hi'), (K _ _ _ Hj) as (qj' & Hj').
      assert (J' : joined {| width := width p; pmaps := pmaps p; refs := refs p; super := sup' |} i j <->
                   (if ri =? a then b else ri) = (if rj =? a then b else rj)).
      { split.
        - intros (r & q & q' & H1 & H2). simpl in H1, H2. destruct (climbs_unique Hi' H1), (climbs_unique Hj' H2). congruence.
        - intros E0. rewrite E0 in Hi'. eexists _, _, _. simpl. eauto. }
      rewrite J'. clear - Hab Hne. destruct (Nat.eqb_spec ri a), (Nat.eqb_spec rj a); lia.
    + intros Hj. apply (J _ _ _ _ _ _ Hx Hy) in Hj. contradiction.
Qed.

Lemma joined_eq p : sound p -> (forall i, joined p i i) /\ (forall i j, joined p i j -> joined p j i) /\
  (forall i j k, joined p i j -> joined p j k -> joined p i k).
Proof.
  intros Hs. split; [|split].
  - intros i. destruct (Hs i) as (q & r & H). exists r, q, q. auto.
  - intros i j (r & q & q' & H1 & H2). exists r, q', q. auto.
  - intros i j k (r & q & q' & H1 & H2) (r' & q1 & q2 & H3 & H4). destruct (climbs_unique H2 H3). subst.
    exists r', q, q2. auto.
Qed.

(** Any number of unions of classes that were obtained from [cru_class_of] at any earlier time, by
    the vertices that were looked up.  The states of the partition are listed latest first. *)
Inductive history (p : partition) : list partition -> list (word * word) -> Prop :=
| hist_start : history p [p] []
| hist_unite p1 ps l q q' v w x y p2 b :
    history p (p1 :: ps) l -> In q (p1 :: ps) -> In q' (p1 :: ps) ->
    class_of q v (Some x, None) -> class_of q' w (Some y, None) -> united p1 x y p2 b ->
    history p (p2 :: p1 :: ps) (l ++ [(v, w)]).

Definition tied (p : partition) (l : list (word * word)) (i j : nat) : Prop :=
  exists v w, In (v, w) l /\ initial_class p v = Some i /\ initial_class p w = Some j.

Lemma rst_mono {A} (R R' : A -> A -> Prop) x y :
  (forall a b, R a b -> R' a b) -> clos_refl_sym_trans A R x y -> clos_refl_sym_trans A R' x y.
Proof. intros H C. induction C; [apply rst_step; auto|apply rst_refl|now apply rst_sym|eapply rst_trans; eauto]. Qed.

Lemma initial_class_maps p q v : width q = width p -> pmaps q = pmaps p -> initial_class q v = initial_class p v.
Proof. intros H1 H2. unfold initial_class. now rewrite H1, H2. Qed.

Lemma history_facts p : super p = (fun _ => None) -> forall ps l, history p ps l ->
  exists p1 ps', ps = p1 :: ps' /\
    (forall q, In q ps -> sound q /\ width q = width p /\ pmaps q = pmaps p /\ refs q = refs p /\ forall i j, joined q i j -> joined p1 i j) /\
    (forall i j, joined p1 i j <-> clos_refl_sym_trans nat (tied p l) i j).
Proof.
  intros Hp ps l H. induction H as [|p1 ps l q q' v w x y p2 b H (p1' & ps' & E0 & A & B) Hq Hq' Hv Hw Hu].
  - assert (Hs : sound p) by (intros i; exists [], i; constructor; now rewrite Hp).
    exists p, []. split; auto. split; [intros q [<-|[]]; auto|]. intros i j. split.
    + intros (r & q & q' & H1 & H2). rewrite Hp in H1, H2. inversion H1; subst; [|discriminate]. inversion H2; subst; [|discriminate].
      apply rst_refl.
    + intros H. induction H as [i j (v & w & [] & _)|i|i j _ IH|i j k _ IH1 _ IH2].
      * apply (proj1 (joined_eq Hs)).
      * now apply (proj1 (proj2 (joined_eq Hs))).
      * eapply (proj2 (proj2 (joined_eq Hs))); eauto.
  - inversion E0; subst p1' ps'. destruct (A p1 (or_introl eq_refl)) as (S1 & W1 & M1 & R1 & _).
    destruct (united_facts S1 Hu) as (_ & S2 & W2 & M2 & R2 & U & _).
    exists p2, (p1 :: ps). split; auto.
    assert (Mono : forall i j, joined p1 i j -> joined p2 i j) by (intros i j Hj; apply U; auto).
    split.
    + intros q0 [<-|Hq0].
      * rewrite W2, M2, R2. auto.
      * destruct (A q0 Hq0) as (a1 & a2 & a3 & a4 & a5). auto 8.
    + assert (Lv : exists i, initial_class p v = Some i /\ joined p1 i x).
      { inversion Hv as [|i path r Hi Hc]; subst. exists i. destruct (A q Hq) as (a1 & a2 & a3 & a4 & a5).
        rewrite (@initial_class_maps p q v a2 a3) in Hi. split; auto. apply a5. exists x, path, []. split; auto.
        constructor. eapply climbs_top_none; eauto. }
      assert (Lw : exists i, initial_class p w = Some i /\ joined p1 i y).
      { inversion Hw as [|i path r Hi Hc]; subst. exists i. destruct (A q' Hq') as (a1 & a2 & a3 & a4 & a5).
        rewrite (@initial_class_maps p q' w a2 a3) in Hi. split; auto. apply a5. exists y, path, []. split; auto.
        constructor. eapply climbs_top_none; eauto. }
      destruct Lv as (a & Ha & Hax), Lw as (c & Hc & Hcy).
      destruct (joined_eq S1) as (r1 & s1 & t1), (joined_eq S2) as (r2 & s2 & t2).
      assert (Hac : clos_refl_sym_trans nat (tied p (l ++ [(v, w)])) a c).
      { apply rst_step. exists v, w. split; [apply in_or_app; right; now left|auto]. }
      assert (Old : forall i j, joined p1 i j -> clos_refl_sym_trans nat (tied p (l ++ [(v, w)])) i j).
      { intros i j Hj. apply B in Hj. eapply rst_mono; [|exact Hj]. intros m n (v0 & w0 & Hin & Hi).
        exists v0, w0. split; auto. apply in_or_app. auto. }
      intros i j. split.
      * intros Hj. apply U in Hj as [Hj|[[H1 H2]|[H1 H2]]].
        -- auto.
        -- apply rst_trans with a; [apply Old; eauto|]. apply rst_trans with c; auto. apply Old. eauto.
        -- apply rst_trans with c; [apply Old; eauto|]. apply rst_trans with a; [now apply rst_sym|]. apply Old. eauto.
      * intros Hj. induction Hj as [i j (v0 & w0 & Hin & Hi1 & Hi2)|i|i j _ IH|i j k _ IH1 _ IH2]; eauto.
        apply in_app_or in Hin as [Hin|[Hin|[]]].
        -- apply Mono, B, rst_step. exists v0, w0. auto.
        -- inversion Hin; subst. rewrite Ha in Hi1. rewrite Hc in Hi2. inversion Hi1; inversion Hi2; subst. apply U. eauto.
Qed.

Theorem C25_unions_generate_equivalence (E : Type) X (g : graph word E) mapped equal phash kills p p' ps l :
  wf g -> 0 < lanes X -> equivalence equal -> (forall x y, equal x y = true -> phash x = phash y) ->
  NoDup (map (vx g) (ids g)) -> never_killed kills -> partitions X g mapped equal phash kills (Some p, None) -> history p (p' :: ps) l ->
  (forall n, In n (ids g) -> exists c, class_of p' (vx g n) (Some c, None)) /\
  forall n m c c', In n (ids g) -> In m (ids g) ->
    class_of p' (vx g n) (Some c, None) -> class_of p' (vx g m) (Some c', None) ->
    (c = c' <->
     clos_refl_sym_trans nat
       (fun a b => In a (ids g) /\ In b (ids g) /\
                   (equal (fst (mapped a)) (fst (mapped b)) = true \/ In (vx g a, vx g b) l)) n m).
Proof.
  intros W Hl Heq Hc N K H Hh. destruct (made_assigned W Hl Heq Hc N K H) as (f & [A1 A2 A3 A4 A5 A6]).
  destruct (history_facts A5 Hh) as (p1 & ps' & E0 & A & B). inversion E0; subst p1 ps'.
  destruct (A p' (or_introl eq_refl)) as (S1 & W1 & M1 & R1 & _). destruct (joined_eq S1) as (r1 & s1 & t1).
  assert (I : forall n, In n (ids g) -> initial_class p' (vx g n) = Some (f n)).
  { intros n Hn. rewrite (initial_class_maps _ _ _ W1 M1). auto. }
  split.
  - intros n Hn. destruct (S1 (f n)) as (q & r & Hr). exists r. econstructor; eauto.
  - intros n m c c' Hn Hm Hcn Hcm.
    inversion Hcn as [|i path r Hi Hr]; subst. rewrite (I n Hn) in Hi. inversion Hi; subst i. clear Hi.
    inversion Hcm as [|i path' r Hi Hr']; subst. rewrite (I m Hm) in Hi. inversion Hi; subst i. clear Hi.
    assert (J : c = c' <-> joined p' (f n) (f m)).
    { split.
      - intros <-. exists c, path, path'. auto.
      - intros (r & q & q' & H1 & H2). destruct (climbs_unique Hr H1), (climbs_unique Hr' H2). congruence. }
    rewrite J, B. set (R := fun a b => In a (ids g) /\ _). split.
    + intros Hj. assert (G : forall i j, clos_refl_sym_trans nat (tied p l) i j -> i = j \/
        exists a b, In a (ids g) /\ In b (ids g) /\ f a = i /\ f b = j /\ clos_refl_sym_trans nat R a b).
      { assert (V : forall v i, initial_class p v = Some i -> exists a, In a (ids g) /\ vx g a = v /\ f a = i).
        { intros v i Hv. destruct (in_dec N.eq_dec v (map (vx g) (ids g))) as [Hin|Hin].
          - apply in_map_iff in Hin as (a & <- & Ha). exists a. rewrite (A1 a Ha) in Hv. inversion Hv. auto.
          - rewrite (A2 v Hin) in Hv. discriminate. }
        intros i j Hij. induction Hij as [i j (v & w & Hin & Hv & Hw)|i|i j _ IH|i j k _ IH1 _ IH2].
        - right. destruct (V _ _ Hv) as (a & Ha & <- & Fa), (V _ _ Hw) as (b & Hb & <- & Fb).
          exists a, b. repeat split; auto. apply rst_step. split; auto.
        - auto.
        - destruct IH as [->|(a & b & Ha & Hb & Fa & Fb & Hab)]; auto. right. exists b, a. repeat split; auto. now apply rst_sym.
        - destruct IH1 as [->|(a & b & Ha & Hb & Fa & Fb & Hab)]; auto.
          destruct IH2 as [->|(a' & b' & Ha' & Hb' & Fa' & Fb' & Hab')]; [right; exists a, b; auto|].
          right. exists a, b'. repeat split; auto. apply rst_trans with b; auto. apply rst_trans with a'; auto.
          apply rst_step. split; auto. split; auto. left. apply A3; auto. congruence. }
      apply G in Hj as [E1|(a & b & Ha & Hb & Fa & Fb & Hab)].
      * apply rst_step. split; auto. split; auto. left. now apply A3.
      * apply rst_trans with a; [|apply rst_trans with b; auto]; apply rst_step; split; auto; split; auto; left; apply A3; auto.
    + intros Hj. clear - A1 A3 Hj. induction Hj as [a b (Ha & Hb & [He|Hin])|a|a b _ IH|a b c0 _ IH1 _ IH2].
      * apply A3 in He; auto. rewrite He. apply rst_refl.
      * apply rst_step. exists (vx g a), (vx g b). auto.
      * apply rst_refl.
      * now apply rst_sym.
      * eapply rst_trans; eauto.
Qed.

(** Valid classes can always be united, which is reported by a non-zero value, and has no effect if
    they are the same. *)
Theorem C25_united (E : Type) X (g : graph word E) mapped equal phash kills p p' ps l x y :
  wf g -> 0 < lanes X -> equivalence equal -> (forall x y, equal x y = true -> phash x = phash y) ->
  NoDup (map (vx g) (ids g)) -> never_killed kills -> partitions X g mapped equal phash kills (Some p, None) -> history p (p' :: ps) l ->
  (exists p2, united p' x y p2 true) /\ (forall p2 b, united p' x y p2 b -> b = true) /\
  forall v w p2 b, class_of p' v (Some x, None) -> class_of p' w (Some y, None) -> united p' x y p2 b ->
    (x = y -> p2 = p') /\ forall z, class_of p2 v z <-> class_of p2 w z.
Proof.
  intros W Hl Heq Hc N K H Hh. destruct (made_assigned W Hl Heq Hc N K H) as (f & [A1 A2 A3 A4 A5 A6]).
  destruct (history_facts A5 Hh) as (p1 & ps' & E0 & A & B). inversion E0; subst p1 ps'.
  destruct (A p' (or_introl eq_refl)) as (S1 & _). split; [|split].
  - destruct (S1 x) as (px & rx & Hx), (S1 y) as (py & ry & Hy). eexists. econstructor; eauto.
  - intros p2 b Hu. apply (united_facts S1 Hu).
  - intros v w p2 b Hv Hw Hu. destruct (united_facts S1 Hu) as (_ & S2 & W2 & M2 & R2 & U & T). split.
    + intros <-. destruct (joined_eq S1) as (r1 & _). specialize (T (r1 x)). destruct p', p2. simpl in *. congruence.
    + inversion Hv as [|i q r Hi Hr]; subst. inversion Hw as [|j q' r' Hj Hr']; subst.
      assert (Jx : joined p' i x) by (exists x, q, []; split; auto; constructor; eapply climbs_top_none; eauto).
      assert (Jy : joined p' j y) by (exists y, q', []; split; auto; constructor; eapply climbs_top_none; eauto).
      assert (J2 : joined p2 i j) by (apply U; eauto). destruct J2 as (r & q1 & q2 & H1 & H2).
      assert (Iv : initial_class p2 v = Some i) by now rewrite (@initial_class_maps p' p2 v W2 M2).
      assert (Iw : initial_class p2 w = Some j) by now rewrite (@initial_class_maps p' p2 w W2 M2).
      intros z. split; intros Hz.
      * inversion Hz as [Hi'|i' q3 r3 Hi' Hr3]; subst; rewrite Iv in Hi'; [discriminate|]. inversion Hi'; subst i'.
        destruct (climbs_unique H1 Hr3). subst. econstructor; eauto.
      * inversion Hz as [Hi'|i' q3 r3 Hi' Hr3]; subst; rewrite Iw in Hi'; [discriminate|]. inversion Hi'; subst i'.
        destruct (climbs_unique H2 Hr3). subst. econstructor; eauto.
Qed.

(** ** C26: the size of a class is that of one of the original classes, however many are united. *)
Theorem C26_size_is_that_of_original_partial (E : Type) X (g : graph word E) mapped equal phash kills p p' ps l n c :
  wf g -> 0 < lanes X -> equivalence equal -> (forall x y, equal x y = true -> phash x = phash y) ->
  NoDup (map (vx g) (ids g)) -> never_killed kills -> partitions X g mapped equal phash kills (Some p, None) -> history p (p' :: ps) l ->
  In n (ids g) -> class_of p (vx g n) (Some c, None) ->
  class_size p' c = Some (length (filter (fun m => equal (fst (mapped n)) (fst (mapped m))) (ids g))).
Proof.
  intros W Hl Heq Hc N K H Hh Hn Hcl. rewrite <- (@C24_size_of_class _ X g mapped equal phash kills p n c W Hl Heq Hc N K H Hn Hcl).
  destruct (made_assigned W Hl Heq Hc N K H) as (f & A). destruct (history_facts (as_super A) Hh) as (p1 & ps' & E0 & B & _).
  inversion E0; subst p1 ps'. destruct (B p' (or_introl eq_refl)) as (_ & _ & _ & R & _). unfold class_size. now rewrite R.
Qed.

(** ** C41: duplicate vertices *)
Theorem C41_success_partial (E : Type) X (g : graph word E) mapped equal phash kills p n m :
  wf g -> 0 < lanes X -> judy X = true -> never_killed kills -> partitions X g mapped equal phash kills (Some p, None) ->
  In n (ids g) -> In m (ids g) -> n <> m -> vx g n = vx g m ->
  lane_of (lanes X) (phash (fst (mapped n))) <> lane_of (lanes X) (phash (fst (mapped m))).
Proof.
  intros W Hl Hj K H Hn Hm Hne Ev. destruct (made_facts W Hl K H) as (prop & d & nodes & Hp & Nn & Hi & Ha & _).
  assert (D : forall l, NoDup (map (vx g) (onlane X phash prop l []))) by (intros l; constructor).
  pose proof (@judy_success _ X g equal phash prop nodes [] cstart d Hj (stored_start X g phash prop) D Ha) as J.
  rewrite (Hp n Hn), (Hp m Hm). simpl. intros El. specialize (J (clane X phash prop n)). simpl in J.
  apply Hi in Hn. apply Hi in Hm.
  assert (In n (onlane X phash prop (clane X phash prop n) nodes)) by (apply filter_In; split; auto; apply Nat.eqb_refl).
  assert (In m (onlane X phash prop (clane X phash prop n) nodes)).
  { apply filter_In; split; auto. apply Nat.eqb_eq. unfold clane, prop_hash. auto. }
  revert J H0 H1. generalize (onlane X phash prop (clane X phash prop n) nodes). intros l. clear - Hne Ev.
  induction l as [|z l IH]; simpl; intros N H1 H2; [auto|]. inversion N; subst.
  destruct H1 as [->|H1], H2 as [->|H2]; auto.
  - apply H3. rewrite Ev. now apply in_map.
  - apply H3. rewrite <- Ev. now apply in_map.
Qed.

Lemma status_error {S K} X order (s : @vst S K) e :
  vstatus X order s = Some e -> e = INTKIL \/ exists l, lerr s l = Some e.
Proof.
  unfold vstatus, final_status. induction order as [|l order IH]; simpl.
  - destruct (is_killed X s); [|discriminate]. intros H. inversion H. auto.
  - destruct (lerr s l) eqn:El; auto. intros H. inversion H; subst. eauto.
Qed.

Lemma pass_error {S K} order (s : @vst S K) e : pass_status order s = Some e -> exists l, lerr s l = Some e.
Proof.
  unfold pass_status. induction order as [|l order IH]; simpl; [discriminate|].
  destruct (lerr s l) eqn:El; auto. intros H. inversion H; subst. eauto.
Qed.

(** If the vertices are distinct, the only errors are those of the user's functions. *)
Theorem C41_no_false_alarm (E : Type) X (g : graph word E) mapped equal phash kills r e :
  wf g -> 0 < lanes X -> NoDup (map (vx g) (ids g)) -> partitions X g mapped equal phash kills (r, Some e) ->
  r = None /\ exists n, In n (ids g) /\ snd (mapped n) = Some e.
Proof.
  intros W Hl N H. inversion H as [s order e' R1 O1 V1|s order s' order' R1 O1 V1 R2 O2 [Hr V2]]; subst.
  - split; auto. destruct (pass_error _ _ V1) as (l & Hle).
    apply ran_completes in R1; [|now apply vdest_lt]. destruct (gwalk_any R1) as (nodes & A & B & C & D).
    destruct (D l e Hle) as (n1 & n & n2 & -> & Ha & _). exists n. split.
    + apply along_ids; auto. apply B. apply in_elt.
    + unfold prop_act in Ha. destruct (mapped n) as [x [e0|]]; simpl in *; congruence.
  - destruct (pass_error _ _ V2) as (l & Hle). exfalso.
    apply ran_completes in R2; [|now apply vdest_lt]. destruct (gwalk_any R2) as (nodes & A & B & C & D).
    destruct (D l e Hle) as (n1 & n & n2 & -> & Ha & _).
    assert (N' : NoDup (map (vx g) (n1 ++ [n]))).
    { assert (I : incl (n1 ++ [n]) (ids g)).
      { intros m Hm. apply along_ids; auto. apply B. apply in_app_or in Hm as [Hm|[<-|[]]]; apply in_or_app; [auto|right; now left]. }
      assert (A' : NoDup (n1 ++ [n])).
      { replace (n1 ++ n :: n2) with ((n1 ++ [n]) ++ n2) in A by now rewrite <- app_assoc.
        clear - A. induction (n1 ++ [n]) as [|z ns IH]; [constructor|]. simpl in A. inversion A; subst. constructor; auto.
        intros Hz. apply H1. apply in_or_app. auto. }
      clear - N I A'. induction (n1 ++ [n]) as [|z ns IH]; simpl; [constructor|]. inversion A'; subst.
      constructor; [|apply IH; auto; intros y Hy; apply I; now right].
      intros Hz. apply in_map_iff in Hz as (y & Ey & Hy).
      assert (y = z); [|subst; contradiction].
      assert (Iy : In y (ids g)) by (apply I; now right). assert (Iz : In z (ids g)) by (apply I; now left).
      clear - N Ey Iy Iz. induction (ids g) as [|a l IH]; [destruct Iy|]. simpl in N. inversion N; subst.
      destruct Iy as [->|Iy], Iz as [->|Iz]; auto.
      - exfalso. apply H1. rewrite Ey. now apply in_map.
      - exfalso. apply H1. rewrite <- Ey. now apply in_map. }
    destruct (distinct_no_error X g equal phash (data s) n1 n N') as [_ E0]. congruence.
Qed.

(** ** Examples *)
Definition relabelled {V V' E} (g : graph V E) (f : nat -> V') : graph V' E := mkGraph (ids g) f (es g) (root g).
Lemma relabelled_wf {V V' E} (g : graph V E) (f : nat -> V') : wf g -> wf (relabelled g f).
Proof.
  intros [A B C D]. split; auto. intros n Hn. specialize (D n Hn). simpl. clear Hn.
  induction D as [|b l c _ IH Hc]; [constructor|]. eapply path_step; [exact IH|exact Hc].
Qed.

Lemma eqb_equivalence : equivalence N.eqb.
Proof.
  split.
  - apply N.eqb_refl.
  - intros x y H. now rewrite N.eqb_sym.
  - intros x y z H1 H2. apply N.eqb_eq in H1, H2. subst. apply N.eqb_refl.
Qed.

Definition no_kills (i k : nat) : bool := false.
Lemma no_kills_never : never_killed no_kills.
Proof. intros i k. reflexivity. Qed.

Local Notation props X kills g mapped k :=
  (sched_run (lanes X) (walk_dest X) (property_setting g mapped (in_pass X kills 0)) (vstart (fun _ => null)) (initial (root g)) k).
Local Notation classes X kills g equal phash prop k :=
  (sched_run (lanes X) (classifying_dest X phash prop) (classifying X g equal phash prop (in_pass X kills 1)) (vstart cstart)
     (initial (root g)) k).
Definition part_of X (s : @vst cdata nat) : partition := mkPart (lanes X) (cmaps (data s)) (crefs (data s)) (fun _ => None).

Lemma partitions_ran {E} X kills (g : graph word E) mapped equal phash k k' e :
  mainpc (props X kills g mapped k) = MDone -> pass_status (seq 0 (lanes X)) (sh (props X kills g mapped k)) = None ->
  mainpc (classes X kills g equal phash (data (sh (props X kills g mapped k))) k') = MDone ->
  pass_status (seq 0 (lanes X)) (sh (classes X kills g equal phash (data (sh (props X kills g mapped k))) k')) = e ->
  partitions X g mapped equal phash kills
    (Some (part_of X (sh (classes X kills g equal phash (data (sh (props X kills g mapped k))) k'))), e).
Proof.
  intros H1 H2 H3 <-. apply sched_ran in H1. apply sched_ran in H3. eapply part_made; eauto using Permutation_refl.
Qed.

(** The vertices 10, ..., 50 by their quotients by 20: three classes. *)
Definition G5w : graph word nat := relabelled G5 N.of_nat.
Definition by20 (n : nat) : outcome := (N.of_nat (n / 20), None).
Definition P5 : partition := part_of X3 (sh (classes X3 no_kills G5w N.eqb (fun x => x) (data (sh (props X3 no_kills G5w by20 150))) 150)).
Lemma P5_made : partitions X3 G5w by20 N.eqb (fun x => x) no_kills (Some P5, None).
Proof. apply partitions_ran; vm_compute; reflexivity. Qed.
Lemma G5w_distinct : NoDup (map (vx G5w) (ids G5w)).
Proof. simpl. repeat constructor; simpl; intuition discriminate. Qed.

Ltac look := eapply class_of_some; [vm_compute; reflexivity|repeat (constructor || (eapply climbs_up; [vm_compute; reflexivity|]))].

Example C24_partition_ex :
  wf G5w /\ equivalence N.eqb /\ NoDup (map (vx G5w) (ids G5w)) /\
  partitions X3 G5w by20 N.eqb (fun x => x) no_kills (Some P5, None) /\
  (exists c c', c <> c' /\ class_of P5 20%N (Some c, None) /\ class_of P5 30%N (Some c, None) /\ class_of P5 40%N (Some c', None) /\
                class_size P5 c = Some 2) /\
  class_of P5 60%N (None, Some PARVNF).
Proof.
  split; [apply relabelled_wf, G5_wf|]. split; [exact eqb_equivalence|]. split; [exact G5w_distinct|]. split; [exact P5_made|].
  split; [|constructor; vm_compute; reflexivity].
  eexists _, _. split; [|split; [look|split; [look|split; [look|vm_compute; reflexivity]]]]. discriminate.
Qed.

(** Uniting the classes of 10 and 20. *)
Definition P5' : partition := mkPart (width P5) (pmaps P5) (refs P5) (redirect (super P5) [] 1 0).
Lemma P5_history : history P5 [P5'; P5] [(10%N, 20%N)].
Proof.
  apply (@hist_unite P5 P5 [] [] P5 P5 10%N 20%N 0 1 P5' true).
  - constructor.
  - now left.
  - now left.
  - look.
  - look.
  - apply (@united_by P5 0 1 [] 0 [] 1); constructor; reflexivity.
Qed.

Example C25_unions_ex :
  history P5 [P5'; P5] [(10%N, 20%N)] /\
  exists c c', c <> c' /\ class_of P5' 10%N (Some c, None) /\ class_of P5' 30%N (Some c, None) /\ class_of P5' 40%N (Some c', None).
Proof.
  split; [exact P5_history|]. eexists _, _. split; [|split; [look|split; [look|look]]]. discriminate.
Qed.

(** The size of the united class is 1, though there are three vertices in it. *)
Theorem C26_size_of_united_class_refuted :
  exists (g : graph word nat) X mapped equal phash kills p p' ps l c vs,
    wf g /\ 0 < lanes X /\ equivalence equal /\ (forall x y, equal x y = true -> phash x = phash y) /\
    NoDup (map (vx g) (ids g)) /\ never_killed kills /\ partitions X g mapped equal phash kills (Some p, None) /\ history p (p' :: ps) l /\
    NoDup vs /\ length vs = 3 /\ (forall v, In v vs -> In v (map (vx g) (ids g)) /\ class_of p' v (Some c, None)) /\
    class_size p' c = Some 1.
Proof.
  exists G5w, X3, by20, N.eqb, (fun x => x), no_kills, P5, P5', [P5], [(10%N, 20%N)], 0, [10%N; 20%N; 30%N].
  split; [apply relabelled_wf, G5_wf|]. split; [simpl; lia|]. split; [exact eqb_equivalence|].
  split; [intros x y H; now apply N.eqb_eq in H|]. split; [exact G5w_distinct|]. split; [exact no_kills_never|]. split; [exact P5_made|]. split; [exact P5_history|].
  split; [repeat constructor; simpl; intuition discriminate|]. split; [reflexivity|]. split; [|vm_compute; reflexivity].
  intros v Hv. simpl in Hv. destruct Hv as [<-|[<-|[<-|[]]]]; (split; [vm_compute; tauto|look]).
Qed.

(** A chain of four nodes, the first two having the same vertex. *)
Definition G4w : graph word nat :=
  mkGraph [1; 2; 3; 4] (fun n => match n with 3 => 8%N | 4 => 9%N | _ => 7%N end)
    (fun n => match n with 1 => [(0, 2)] | 2 => [(0, 3)] | 3 => [(0, 4)] | _ => [] end) 1.
Lemma G4w_wf : wf G4w.
Proof.
  split.
  - repeat constructor; simpl; intuition discriminate.
  - now left.
  - intros n l m [<-|[<-|[<-|[<-|[]]]]]; simpl; [intros [H|[]]; inversion H; auto..|tauto].
  - assert (P2 : path G4w 1 2) by (eapply path_step; [constructor|simpl; eauto]).
    assert (P3 : path G4w 1 3) by (eapply path_step; [exact P2|simpl; eauto]).
    intros n [<-|[<-|[<-|[<-|[]]]]]; [constructor|exact P2|exact P3|eapply path_step; [exact P3|simpl; eauto]].
Qed.
Definition middle (n : nat) : outcome := (match n with 2 | 3 => 101%N | _ => 100%N end, None).
Definition X3nj : env := mkEnv 3 false (fun _ => true) (fun _ => false).

(** Without Judy arrays, a duplicate vertex is not reported, and as a consequence other vertices can
    get into the same class in spite of different properties. *)
Theorem C41_without_judy_refuted :
  exists (g : graph word nat) X mapped equal phash kills p n m,
    wf g /\ 0 < lanes X /\ judy X = false /\ equivalence equal /\ (forall x y, equal x y = true -> phash x = phash y) /\
    In n (ids g) /\ In m (ids g) /\ n <> m /\ vx g n = vx g m /\ never_killed kills /\
    partitions X g mapped equal phash kills (Some p, None) /\
    exists a b c, In a (ids g) /\ In b (ids g) /\ (forall k, In k (ids g) -> vx g k = vx g a -> k = a) /\
      (forall k, In k (ids g) -> vx g k = vx g b -> k = b) /\ equal (fst (mapped a)) (fst (mapped b)) = false /\
      class_of p (vx g a) (Some c, None) /\ class_of p (vx g b) (Some c, None).
Proof.
  exists G4w, X3nj, middle, N.eqb, (fun _ => 0%N), no_kills. eexists. exists 1, 2.
  split; [exact G4w_wf|]. split; [simpl; lia|]. split; [reflexivity|]. split; [exact eqb_equivalence|]. split; [auto|].
  split; [simpl; auto|]. split; [simpl; auto|]. split; [discriminate|]. split; [reflexivity|].
  split; [exact no_kills_never|].
  split; [apply partitions_ran with (k := 150) (k' := 150); vm_compute; reflexivity|].
  exists 3, 4, 0. split; [simpl; auto|]. split; [simpl; auto|].
  split; [intros k [<-|[<-|[<-|[<-|[]]]]]; simpl; congruence|]. split; [intros k [<-|[<-|[<-|[<-|[]]]]]; simpl; congruence|].
  split; [reflexivity|]. split; look.
Qed.

(** With Judy arrays, it is not reported if the properties are assigned to different workers. *)
Theorem C41_across_workers_refuted :
  exists (g : graph word nat) X mapped equal phash kills p n m,
    wf g /\ 0 < lanes X /\ judy X = true /\ equivalence equal /\ (forall x y, equal x y = true -> phash x = phash y) /\
    In n (ids g) /\ In m (ids g) /\ n <> m /\ vx g n = vx g m /\ never_killed kills /\
    partitions X g mapped equal phash kills (Some p, None).
Proof.
  exists G4w, X3, middle, N.eqb, (fun x => x), no_kills. eexists. exists 1, 2.
  split; [exact G4w_wf|]. split; [simpl; lia|]. split; [reflexivity|]. split; [exact eqb_equivalence|].
  split; [intros x y H; now apply N.eqb_eq in H|].
  split; [simpl; auto|]. split; [simpl; auto|]. split; [discriminate|]. split; [reflexivity|].
  split; [exact no_kills_never|].
  apply partitions_ran with (k := 150) (k' := 150); vm_compute; reflexivity.
Qed.

(** With Judy arrays and a single worker for both, it is. *)
Example C41_reported_ex : exists p, partitions X3 G4w middle N.eqb (fun _ => 0%N) no_kills (p, Some PARDPV).
Proof. eexists. apply partitions_ran with (k := 150) (k' := 150); vm_compute; reflexivity. Qed.

Example C51_freed_ex : match free_partition P5 with Some f => map f [0; 1; 2] = [None; None; None] | None => False end /\
  map (refs P5) [0; 1; 2; 3] = [Some 0; Some 1; Some 1; None].
Proof. vm_compute. split; reflexivity. Qed.
