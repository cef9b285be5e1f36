(** Splitting: claims C29, C70 and C71, and kill requests. *)
From Coq Require Import List Arith NArith Lia Bool Permutation.
From Verif Require Import Base Machine Ports PortsProofs PortsTerm PortsExec P_Ports BrigadeProofs Env Hash Graph Visitor VisitorProofs Walk Run Pass Fold P_Fold
  Traverse TraverseProofs P_Traverse Fabricate Containers P_Containers Brigade P_Brigade Partition P_Partition Filter P_Filter P_Killed MergeProofs P_Merge
  Compose P_Compose Props Split.
Import ListNotations.

Set Implicit Arguments.

Local Opaque lane_of node_hash.

Lemma outcome_value p v ins' outs' w : outcome_of (mapped_node p v ins' outs' no_values) = (w, None) ->
  has_value p v ins' outs' w.
Proof.
  unfold outcome_of, has_value. change fresh with no_values.
  destruct (mapped_node p v ins' outs' no_values) as [w' [[t t1] t2]]. intros [= <- E]. exists t, t1, t2. auto.
Qed.

(** ** The specification *)
Section Spec.
  Variable g : graph word word.
  Variable s : splitter.
  Variable copy : nat -> nat.
  (** The properties of the vertices given, and of those made by cata *)
  Variables P D : nat -> word.

  Definition splitting_at (n : nat) : bool := fst (fissile s (vx g n) (P n)).
  Definition ana_vertex (n : nat) : word := fst (ana s (vx g n) (P n)).
  Definition cata_vertex (n : nat) : word := fst (cata s (vx g n) (P n)).
  Definition new_vertex (n : nat) : word := if splitting_at n then ana_vertex n else vx g n.

  (** A copy of an edge with the label given by the labeler, if it wants one *)
  Definition relabeled (t : labeler) (x l y : word) (m : nat) : list edge :=
    if fst (tpred t x l y) then [(fst (top t x l y), m)] else [].

  (** The copies of the edges of [n] that originate from one of the vertices instead of [n] *)
  Definition departing (t : labeler) (n : nat) : list edge :=
    if splitting_at n then flat_map (fun e => relabeled t (P n) (fst e) (P (snd e)) (snd e)) (es g n) else es g n.
  (** The copies of such an edge, whose origin has the property [w], by the vertices it leads to *)
  Definition arriving (w : word) (e : edge) : list edge :=
    if splitting_at (snd e) then
      relabeled (in_ana s) w (fst e) (P (snd e)) (snd e) ++ relabeled (in_cata s) w (fst e) (P (snd e)) (copy (snd e))
    else [e].
  Definition edges_from_ana (n : nat) : list edge := flat_map (arriving (P n)) (departing (out_ana s) n).
  Definition edges_from_cata (n : nat) : list edge := flat_map (arriving (D n)) (departing (out_cata s) n).

  (** The outcome should consist of the vertices that can be reached from the base vertex, or the one
      made from it by ana. *)
  Record split_result (h : graph word word) : Prop := {
    sr_wf : wf h;
    sr_root : root h = root g;
    sr_node : forall x, In x (ids h) ->
      In x (ids g) /\ vx h x = new_vertex x /\ Permutation (es h x) (edges_from_ana x) \/
      exists n, In n (ids g) /\ splitting_at n = true /\ x = copy n /\ vx h x = cata_vertex n /\
        Permutation (es h x) (edges_from_cata n)
  }.

  (** No function of the user reports an error that is ignored. *)
  Definition calm (t : labeler) (x l y : word) : Prop :=
    snd (tpred t x l y) = None /\ (fst (tpred t x l y) = true -> snd (top t x l y) = None).
  Definition calm_node (n : nat) : Prop :=
    snd (fissile s (vx g n) (P n)) = None /\
    (splitting_at n = true ->
       snd (ana s (vx g n) (P n)) = None /\ snd (cata s (vx g n) (P n)) = None /\
       forall l m, In (l, m) (es g n) -> calm (out_ana s) (P n) l (P m) /\ calm (out_cata s) (P n) l (P m)).
  Definition calm_arrival (w : word) (e : edge) : Prop :=
    splitting_at (snd e) = true -> calm (in_ana s) w (fst e) (P (snd e)) /\ calm (in_cata s) w (fst e) (P (snd e)).
  Definition calm_edges (n : nat) : Prop :=
    (forall e, In e (departing (out_ana s) n) -> calm_arrival (P n) e) /\
    (splitting_at n = true -> forall e, In e (departing (out_cata s) n) -> calm_arrival (D n) e).
End Spec.

(** ** Lists of edges with addresses *)
Definition tags (l : list sedge) : list nat := flat_map (fun y => match fst y with Some i => [i] | None => [] end) l.

Lemma tags_app l l' : tags (l ++ l') = tags l ++ tags l'.
Proof. unfold tags. apply flat_map_app. Qed.

Lemma in_tags i e (l : list sedge) : In (Some i, e) l -> In i (tags l).
Proof. intros H. unfold tags. apply in_flat_map. exists (Some i, e). simpl. auto. Qed.

Lemma tagged_fst (l : list edge) : map fst (tagged l) = seq 0 (length l).
Proof.
  unfold tagged. generalize 0. induction l as [|e l IH]; simpl; intros k; auto. now rewrite IH.
Qed.
Lemma tagged_snd (l : list edge) : map snd (tagged l) = l.
Proof.
  unfold tagged. generalize 0. induction l as [|e l IH]; simpl; intros k; auto. now rewrite IH.
Qed.
Lemma tagged_nodup (l : list edge) : NoDup (map fst (tagged l)).
Proof. rewrite tagged_fst. apply seq_NoDup. Qed.

Definition some_tag (x : nat * edge) : sedge := (Some (fst x), snd x).

Lemma tags_some l : tags (map some_tag l) = map fst l.
Proof. induction l as [|x l IH]; simpl; auto. unfold tags in *. simpl. now rewrite IH. Qed.

Lemma at_tag_other i l : ~ In i (tags l) -> forall y, In y l -> at_tag i y = false.
Proof.
  intros H [t e] Hy. unfold at_tag. simpl. destruct t as [j|]; auto. apply Nat.eqb_neq. intros ->.
  apply H. eapply in_tags; eauto.
Qed.

Lemma partition_fst {A} (f : A -> bool) l : fst (List.partition f l) = filter f l.
Proof. induction l as [|x l IH]; simpl; auto. destruct (List.partition f l). simpl in IH. destruct (f x); simpl; congruence. Qed.

(** The position of an edge in a list *)
Lemma tag_split i e l : NoDup (tags l) -> In (Some i, e) l ->
  exists l1 l2, l = l1 ++ (Some i, e) :: l2 /\ find (at_tag i) l = Some (Some i, e) /\
    (forall e', set_edge i e' l = l1 ++ (Some i, e') :: l2) /\
    List.partition (at_tag i) l = ([(Some i, e)], l1 ++ l2).
Proof.
  intros N H. apply in_split in H as (l1 & l2 & ->). exists l1, l2. split; auto.
  rewrite tags_app in N. change (tags ((Some i, e) :: l2)) with (i :: tags l2) in N. apply NoDup_remove_2 in N.
  assert (F1 : forall y, In y l1 -> at_tag i y = false).
  { apply at_tag_other. intros B. apply N, in_or_app. auto. }
  assert (F2 : forall y, In y l2 -> at_tag i y = false).
  { apply at_tag_other. intros B. apply N, in_or_app. auto. }
  assert (Fi : at_tag i (Some i, e) = true) by (unfold at_tag; simpl; apply Nat.eqb_refl).
  clear N. split; [|split].
  - induction l1 as [|y l1 IH]; cbn [app find]; [now rewrite Fi|]. rewrite (F1 y (or_introl eq_refl)).
    apply IH. intros z Hz. apply F1. now right.
  - intros e'. unfold set_edge. rewrite map_app. cbn [map]. rewrite Fi. cbn [fst]. f_equal; [|f_equal].
    + rewrite <- (map_id l1) at 2. apply map_ext_in. intros y Hy. now rewrite F1.
    + rewrite <- (map_id l2) at 2. apply map_ext_in. intros y Hy. now rewrite F2.
  - assert (Q : List.partition (at_tag i) l2 = ([], l2)).
    { clear F1. induction l2 as [|y l2 IH]; auto. simpl. rewrite IH by (intros z Hz; apply F2; now right).
      now rewrite F2 by now left. }
    clear F2. induction l1 as [|y l1 IH]; cbn [app List.partition].
    + now rewrite Q, Fi.
    + rewrite IH by (intros z Hz; apply F1; now right). now rewrite F1 by now left.
Qed.

Lemma NoDup_app_intro {A} (l l' : list A) : NoDup l -> NoDup l' -> (forall x, In x l -> ~ In x l') -> NoDup (l ++ l').
Proof.
  intros N N' H. induction l as [|x l IH]; simpl; auto. inversion N; subst. constructor.
  - rewrite in_app_iff. intros [B|B]; [auto|]. apply (H x); simpl; auto.
  - apply IH; auto. intros y Hy. apply H. now right.
Qed.

(** ** The labelers *)
Lemma labels_ok a c x l y u w : labels a c x l y = (u, w, None) ->
  calm a x l y /\ calm c x l y /\
  u = (if fst (tpred a x l y) then Some (fst (top a x l y)) else None) /\
  w = (if fst (tpred c x l y) then Some (fst (top c x l y)) else None).
Proof.
  unfold labels, calm. destruct (tpred a x l y) as [p [e|]]; [discriminate|]. simpl.
  destruct p.
  - destruct (top a x l y) as [u0 [e|]]; [discriminate|]. simpl.
    destruct (tpred c x l y) as [q [e|]]; [discriminate|]. simpl. destruct q.
    + destruct (top c x l y) as [w0 [e|]]; [discriminate|]. intros [= <- <-]. auto.
    + intros [= <- <-]. repeat split; auto. discriminate.
  - destruct (tpred c x l y) as [q [e|]]; [discriminate|]. simpl. destruct q.
    + destruct (top c x l y) as [w0 [e|]]; [discriminate|]. intros [= <- <-]. repeat split; auto. discriminate.
    + intros [= <- <-]. repeat split; auto; discriminate.
Qed.

Lemma labels_calm a c x l y : calm a x l y -> calm c x l y -> snd (labels a c x l y) = None.
Proof.
  unfold labels, calm. destruct (tpred a x l y) as [p e]. simpl. intros [-> A2] [C1 C2].
  destruct p.
  - destruct (top a x l y) as [u0 e0]. simpl in *. rewrite A2 by auto.
    destruct (tpred c x l y) as [q e1]. simpl in *. subst e1. destruct q; auto.
    destruct (top c x l y) as [w0 e1]. simpl in *. now rewrite C2.
  - destruct (tpred c x l y) as [q e1]. simpl in *. subst e1. destruct q; auto.
    destruct (top c x l y) as [w0 e1]. simpl in *. now rewrite C2.
Qed.

Section Run.
  Variable X : env.
  Variable g : graph word word.
  Variable ins : nat -> list edge.
  Variable s : splitter.
  Variable vertex_limit : nat.
  Variable copy : nat -> nat.
  Variable P : nat -> word.

  Hypothesis W : wf g.
  Hypothesis Cinj : forall n m, In n (ids g) -> In m (ids g) -> copy n = copy m -> n = m.
  Hypothesis Cnew : forall n, In n (ids g) -> ~ In (copy n) (ids g).

  Notation fiss := (splitting_at g s P).

  (** The edges by address when the terminus is informed, from [n] or its copy *)
  Definition slots (b : bool) (n : nat) : list (nat * edge) :=
    if fiss n then
      flat_map (fun x => map (pair (fst x))
                  (relabeled (if b then out_cata s else out_ana s) (P n) (fst (snd x)) (P (snd (snd x))) (snd (snd x))))
               (tagged (es g n))
    else tagged (es g n).
  Definition place (b : bool) (n : nat) : nat := if b then copy n else n.

  Lemma slots_snd b n : map snd (slots b n) = departing g s P (if b then out_cata s else out_ana s) n.
  Proof.
    unfold slots, departing. destruct (fiss n); [|apply tagged_snd].
    rewrite <- (tagged_snd (es g n)) at 2. generalize (tagged (es g n)). intros l.
    induction l as [|[i [x m]] l IH]; simpl; auto. rewrite map_app, IH. f_equal.
    unfold relabeled. destruct b; match goal with |- context [if ?c then _ else _] => destruct c end; auto.
  Qed.

  Lemma slots_nodup b n : NoDup (map fst (slots b n)).
  Proof.
    unfold slots. destruct (fiss n); [|apply tagged_nodup].
    generalize (tagged_nodup (es g n)). generalize (tagged (es g n)) as l.
    set (t := if b then out_cata s else out_ana s).
    induction l as [|[i [x m]] l IH]; simpl; intros N; [constructor|]. inversion N; subst.
    rewrite map_app. unfold relabeled at 1. destruct (fst (tpred t (P n) x (P m))); simpl; auto.
    constructor; auto. intros B. apply H1. apply in_map_iff in B as ([j e] & E & B). simpl in E. subst j.
    apply in_flat_map in B as ([k [y o]] & B1 & B2). apply in_map_iff in B2 as (e' & [= <- <-] & B3).
    apply in_map_iff. exists (k, (y, o)). auto.
  Qed.

  Lemma slots_target b n i l m : In n (ids g) -> In (i, (l, m)) (slots b n) -> In m (ids g).
  Proof.
    intros Hn H. unfold slots in H.
    assert (T : forall i x, In (i, x) (tagged (es g n)) -> In x (es g n)).
    { intros j x B. rewrite <- (tagged_snd (es g n)). apply in_map_iff. exists (j, x). auto. }
    destruct (fiss n).
    - apply in_flat_map in H as ([j [x k]] & H1 & H2). apply in_map_iff in H2 as (e & [= <- ->] & H3).
      simpl in H3. unfold relabeled in H3. destruct (fst (tpred _ _ _ _)) in H3; [|destruct H3].
      destruct H3 as [[= <- <-]|[]]. apply T in H1. eapply wf_closed; eauto.
    - apply T in H. eapply wf_closed; eauto.
  Qed.

  (** What is left of an edge after its terminus was informed *)
  Definition settled (w : word) (x : nat * edge) : list sedge :=
    let '(i, (l, m)) := x in
    if fiss m then
      if fst (tpred (in_ana s) w l (P m)) then
        (Some i, (fst (top (in_ana s) w l (P m)), m)) ::
        (if fst (tpred (in_cata s) w l (P m)) then [(None, (fst (top (in_cata s) w l (P m)), copy m))] else [])
      else if fst (tpred (in_cata s) w l (P m)) then [(Some i, (fst (top (in_cata s) w l (P m)), copy m))] else []
    else [(Some i, (l, m))].

  Lemma settled_snd w x : map snd (settled w x) = arriving g s copy P w (snd x).
  Proof.
    destruct x as [i [l m]]. unfold settled, arriving, relabeled. simpl. destruct (fiss m); auto.
    destruct (fst (tpred (in_ana s) w l (P m))), (fst (tpred (in_cata s) w l (P m))); auto.
  Qed.

  (** ** The bag of packets *)
  Definition keys (b : list spkt) : list (nat * nat) :=
    flat_map (fun p => match p with Visits _ (Some k) => [k] | Disconnects x i => [(x, i)] | _ => [] end) b.
  Definition visits (b : list spkt) (x i : nat) : bool :=
    existsb (fun p => match p with Visits _ (Some (y, j)) => (y =? x) && (j =? i) | _ => false end) b.
  Definition cuts (b : list spkt) (x i : nat) : bool :=
    existsb (fun p => match p with Disconnects y j => (y =? x) && (j =? i) | _ => false end) b.
  Definition conns (b : list spkt) (x : nat) : list sedge :=
    flat_map (fun p => match p with Connects y e => if y =? x then [(None, e)] else [] | _ => [] end) b.

  Lemma visits_iff b x i : visits b x i = true <-> exists m, In (Visits m (Some (x, i))) b.
  Proof.
    unfold visits. rewrite existsb_exists. split.
    - intros (p & Hp & E). destruct p as [m [[y j]|]| | |]; try discriminate.
      apply andb_true_iff in E as [E1 E2]. apply Nat.eqb_eq in E1, E2. subst. eauto.
    - intros (m & H). eexists. split; [exact H|]. simpl. now rewrite !Nat.eqb_refl.
  Qed.
  Lemma cuts_iff b x i : cuts b x i = true <-> In (Disconnects x i) b.
  Proof.
    unfold cuts. rewrite existsb_exists. split.
    - intros (p & Hp & E). destruct p as [| | |y j]; try discriminate.
      apply andb_true_iff in E as [E1 E2]. apply Nat.eqb_eq in E1, E2. now subst.
    - intros H. eexists. split; [exact H|]. simpl. now rewrite !Nat.eqb_refl.
  Qed.
  Lemma bool_iff (a b : bool) : (a = true <-> b = true) -> a = b.
  Proof. destruct a, b; intuition congruence. Qed.
  Lemma visits_perm b b' x i : Permutation b b' -> visits b x i = visits b' x i.
  Proof.
    intros H. apply bool_iff. rewrite !visits_iff. split; intros (m & A); exists m.
    - exact (Permutation_in _ H A).
    - exact (Permutation_in _ (Permutation_sym H) A).
  Qed.
  Lemma cuts_perm b b' x i : Permutation b b' -> cuts b x i = cuts b' x i.
  Proof.
    intros H. apply bool_iff. rewrite !cuts_iff. split; intros A.
    - exact (Permutation_in _ H A).
    - exact (Permutation_in _ (Permutation_sym H) A).
  Qed.
  Lemma keys_app b b' : keys (b ++ b') = keys b ++ keys b'.
  Proof. apply flat_map_app. Qed.
  Lemma conns_app b b' x : conns (b ++ b') x = conns b x ++ conns b' x.
  Proof. apply flat_map_app. Qed.
  Lemma visits_app b b' x i : visits (b ++ b') x i = visits b x i || visits b' x i.
  Proof. apply existsb_app. Qed.
  Lemma cuts_app b b' x i : cuts (b ++ b') x i = cuts b x i || cuts b' x i.
  Proof. apply existsb_app. Qed.
  Lemma conns_in b x y : In y (conns b x) <-> fst y = None /\ In (Connects x (snd y)) b.
  Proof.
    unfold conns. rewrite in_flat_map. split.
    - intros (p & Hp & H). destruct p as [| |z e|]; try destruct H. destruct (Nat.eqb_spec z x) as [->|]; [|destruct H].
      destruct H as [<-|[]]. auto.
    - intros [H1 H2]. eexists. split; [exact H2|]. simpl. rewrite Nat.eqb_refl. left. destruct y. simpl in *. now subst.
  Qed.
  Lemma key_in b x i : In (x, i) (keys b) <-> visits b x i = true \/ cuts b x i = true.
  Proof.
    rewrite visits_iff, cuts_iff. unfold keys. rewrite in_flat_map. split.
    - intros (p & Hp & H). destruct p as [m [k|]| | |y j]; try destruct H; subst; eauto;
        try (destruct H as [[= -> ->]|[]]; eauto); try contradiction.
      injection H as -> ->. auto.
    - intros [(m & H)|H]; eexists; (split; [exact H|]); simpl; auto.
  Qed.

  (** What there should be for an edge at the moment *)
  Definition current (b : list spkt) (y : nat) (w : word) (x : nat * edge) : list sedge :=
    if visits b y (fst x) then [some_tag x]
    else if cuts b y (fst x) then [(Some (fst x), (null, snd (snd x)))]
    else settled w x.

  Definition live (d : sdata) (b : bool) (n : nat) : Prop := In n (sseen d) /\ (b = true -> fiss n = true).

  (** The property of the copy is computed from the vertices as they were or will be. *)
  Definition copy_value (n : nat) (w : word) : Prop :=
    exists v, (forall m, In m (ids g) -> v m = vx g m \/ v m = new_vertex g s P m) /\ v n = vx g n /\
      has_value (sp_prop s) (cata_vertex g s P n) [] (outward (es g) v n) w.

  Record inv (d : sdata) (b : list spkt) : Prop := {
    i_seen : forall n, In n (sseen d) -> In n (ids g);
    i_dopp : forall n, In n (dopp d) <-> In n (sseen d) /\ fiss n = true;
    i_prp : forall n, In n (ids g) -> prp d n = P n;
    i_vtx : forall n, In n (ids g) -> vtx d n = if existsb (Nat.eqb n) (sseen d) then new_vertex g s P n else vx g n;
    i_copy : forall n, In n (sseen d) -> fiss n = true ->
      vtx d (copy n) = cata_vertex g s P n /\ copy_value n (prp d (copy n));
    i_calm : forall n, In n (sseen d) -> calm_node g s P n;
    i_unseen : forall n, In n (ids g) -> ~ In n (sseen d) -> outs d n = addressed (es g n);
    i_tags : forall t n, live d t n -> NoDup (tags (outs d (place t n)));
    i_outs : forall t n, live d t n ->
      Permutation (outs d (place t n) ++ conns b (place t n))
                  (flat_map (current b (place t n) (prp d (place t n))) (slots t n));
    i_keys : NoDup (keys b);
    i_visit : forall n o, In (Visits n o) b -> In n (ids g) /\
      match o with
      | None => True
      | Some (x, i) => exists t m l, live d t m /\ x = place t m /\ In (i, (l, n)) (slots t m)
      end;
    i_cut : forall x i, In (Disconnects x i) b -> exists t n l m, live d t n /\ x = place t n /\ In (i, (l, m)) (slots t n) /\
      settled (prp d x) (i, (l, m)) = [];
    i_conn : forall x e, In (Connects x e) b -> exists t n, live d t n /\ x = place t n;
    i_done : forall t n i l m, live d t n -> In (i, (l, m)) (slots t n) -> visits b (place t n) i = false ->
      In m (sseen d) /\ calm_arrival g s P (prp d (place t n)) (l, m);
    i_root : In (root g) (sseen d) \/ In (Visits (root g) None) b
  }.

  Lemma inv_perm d b b' : Permutation b b' -> inv d b -> inv d b'.
  Proof.
    intros H I. constructor; try apply I.
    - intros t n L. rewrite <- (Permutation_flat_map _ H : Permutation (conns b (place t n)) (conns b' (place t n))).
      rewrite (i_outs I L). erewrite flat_map_ext; [reflexivity|]. intros [i e]. unfold current.
      now rewrite (visits_perm _ _ H), (cuts_perm _ _ H).
    - apply (Permutation_NoDup (l := keys b)); [|apply I]. apply (Permutation_flat_map _ H).
    - intros n o Hn. apply (i_visit I n o). exact (Permutation_in _ (Permutation_sym H) Hn).
    - intros x i Hn. apply (i_cut I x i). exact (Permutation_in _ (Permutation_sym H) Hn).
    - intros x e Hn. apply (i_conn I x e). exact (Permutation_in _ (Permutation_sym H) Hn).
    - intros t n i l m A B C. apply (i_done I i l m A B). now rewrite (visits_perm _ _ H).
    - destruct (i_root I) as [A|A]; auto. right. exact (Permutation_in _ H A).
  Qed.

  Lemma place_inj d t n t' n' : (forall n, In n (sseen d) -> In n (ids g)) ->
    live d t n -> live d t' n' -> place t n = place t' n' -> t = t' /\ n = n'.
  Proof.
    intros Hs [A _] [B _] E. apply Hs in A, B. destruct t, t'; simpl in E; auto.
    - exfalso. subst n'. now apply (Cnew _ A).
    - exfalso. subst n. now apply (Cnew _ B).
  Qed.

  (** *** A node is visited for the first time *)
  Definition calls (t : bool) (m : nat) : list spkt :=
    map (fun x => Visits (snd (snd x)) (Some (place t m, fst x))) (slots t m).
  Definition news (cr : list spkt) (m : nat) : list spkt :=
    cr ++ (if fiss m then calls true m else []) ++ calls false m.

  Lemma calls_keys t m : keys (calls t m) = map (fun x => (place t m, fst x)) (slots t m).
  Proof. unfold calls. induction (slots t m) as [|x l IH]; simpl; auto. unfold keys in *. now rewrite IH. Qed.
  Lemma calls_conns t m x : conns (calls t m) x = [].
  Proof. unfold calls. induction (slots t m) as [|y l IH]; simpl; auto. Qed.
  Lemma calls_cuts t m x i : cuts (calls t m) x i = false.
  Proof. unfold calls. induction (slots t m) as [|y l IH]; simpl; auto. Qed.
  Lemma calls_visits t m x i : visits (calls t m) x i = true <-> x = place t m /\ exists e, In (i, e) (slots t m).
  Proof.
    rewrite visits_iff. unfold calls. split.
    - intros (k & H). apply in_map_iff in H as ([j e] & [= _ <- <-] & H). simpl. split; eauto.
    - intros (-> & e & H). exists (snd e). apply in_map_iff. exists (i, e). auto.
  Qed.

  Definition creations (cr : list spkt) : Prop := forall p, In p cr -> exists c, p = Creates c.
  Lemma cr_nil cr x i : creations cr -> keys cr = [] /\ conns cr x = [] /\ visits cr x i = false /\ cuts cr x i = false.
  Proof.
    intros H. induction cr as [|p cr IH]; simpl; auto.
    destruct (H p (or_introl eq_refl)) as (c & ->). apply IH. intros q Hq. apply H. now right.
  Qed.

  Lemma place_new d t m t' n : (forall n, In n (sseen d) -> In n (ids g)) -> In m (ids g) -> ~ In m (sseen d) ->
    live d t' n -> place t m <> place t' n.
  Proof.
    intros Hs Hm Hu [B _] E. apply Hu. assert (B' := Hs _ B). destruct t, t'; simpl in E; subst; auto.
    - now rewrite (Cinj Hm B' E).
    - exfalso. now apply (Cnew _ Hm).
    - exfalso. now apply (Cnew _ B').
  Qed.

  Lemma flat_map_single {A B} (f : A -> B) (h : A -> list B) l : (forall x, In x l -> h x = [f x]) -> flat_map h l = map f l.
  Proof.
    induction l as [|x l IH]; simpl; intros H; auto. rewrite H by now left. simpl. f_equal. apply IH. intros; apply H. now right.
  Qed.
  Lemma flat_map_same {A B} (f h : A -> list B) l : (forall x, In x l -> f x = h x) -> flat_map f l = flat_map h l.
  Proof.
    induction l as [|x l IH]; simpl; intros H; auto. rewrite H by now left. f_equal. apply IH. intros; apply H. now right.
  Qed.

  Lemma live_grow d d1 m t n : sseen d1 = m :: sseen d -> live d1 t n -> live d t n \/ n = m /\ (t = true -> fiss m = true).
  Proof. intros E [A B]. rewrite E in A. destruct A as [<-|A]; [auto|left; split; auto]. Qed.
  Lemma live_grow' d d1 m t n : sseen d1 = m :: sseen d -> live d t n -> live d1 t n.
  Proof. intros E [A B]. split; auto. rewrite E. now right. Qed.

  Lemma grow d d1 b m cr :
    inv d b -> In m (ids g) -> ~ In m (sseen d) -> creations cr ->
    sseen d1 = m :: sseen d -> (forall n, In n (dopp d1) <-> In n (dopp d) \/ n = m /\ fiss m = true) ->
    (forall x, x <> copy m -> prp d1 x = prp d x) -> (fiss m = false -> prp d1 = prp d) ->
    (forall x, x <> copy m -> x <> m -> vtx d1 x = vtx d x) -> vtx d1 m = new_vertex g s P m ->
    (fiss m = true -> vtx d1 (copy m) = cata_vertex g s P m /\ copy_value m (prp d1 (copy m))) ->
    calm_node g s P m ->
    (forall x, x <> copy m -> x <> m -> outs d1 x = outs d x) ->
    (forall t, (t = true -> fiss m = true) -> Permutation (outs d1 (place t m)) (map some_tag (slots t m))) ->
    inv d1 (news cr m ++ b).
  Proof.
    intros I Hm Hu Hcr E1 E2 E3 E3' E4 E5 E6 E7 E8 E9.
    assert (Ap : forall t n, live d t n -> place t n <> copy m /\ place t n <> m).
    { intros t n L. split; intros E; symmetry in E; revert E.
      - exact (@place_new d true m t n (i_seen I) Hm Hu L).
      - exact (@place_new d false m t n (i_seen I) Hm Hu L). }
    assert (Nv : forall x i, visits (news cr m) x i = true <->
                 exists t, (t = true -> fiss m = true) /\ x = place t m /\ exists e, In (i, e) (slots t m)).
    { intros x i. unfold news. rewrite !visits_app. rewrite (proj1 (proj2 (proj2 (cr_nil x i Hcr)))). simpl.
      rewrite orb_true_iff, calls_visits. split.
      - intros [H|(-> & e & H)].
        + destruct (fiss m) eqn:Ef; [|discriminate]. apply calls_visits in H as (-> & e & H). exists true. eauto.
        + exists false. split; [discriminate|]. eauto.
      - intros ([|] & H1 & -> & e & H); [left|right; eauto]. rewrite H1 by auto. apply calls_visits. eauto. }
    assert (Nc : forall x i, cuts (news cr m) x i = false).
    { intros x i. unfold news. rewrite !cuts_app. rewrite (proj2 (proj2 (proj2 (cr_nil x i Hcr)))), calls_cuts.
      destruct (fiss m); [now rewrite calls_cuts|reflexivity]. }
    assert (Nn : forall x, conns (news cr m) x = []).
    { intros x. unfold news. rewrite !conns_app. rewrite (proj1 (proj2 (cr_nil x 0 Hcr))), calls_conns.
      destruct (fiss m); [now rewrite calls_conns|reflexivity]. }
    assert (Old : forall x i, In (x, i) (keys b) -> exists t n, live d t n /\ x = place t n).
    { intros x i H. apply key_in in H as [H|H].
      - apply visits_iff in H as (k & H). apply (i_visit I) in H as (_ & t & n & l & H1 & H2 & _). eauto.
      - apply cuts_iff in H. apply (i_cut I) in H as (t & n & l & k & H1 & H2 & _). eauto. }
    assert (Vn : forall t n i, live d t n -> visits (news cr m ++ b) (place t n) i = visits b (place t n) i).
    { intros t n i L. rewrite visits_app. destruct (visits (news cr m) (place t n) i) eqn:Ev; auto.
      apply Nv in Ev as (t' & _ & E & _). exfalso. destruct (Ap _ _ L) as [B1 B2]. destruct t'; simpl in E; congruence. }
    assert (Vm : forall t i e, (t = true -> fiss m = true) -> In (i, e) (slots t m) -> visits (news cr m ++ b) (place t m) i = true).
    { intros t i e Ht H. rewrite visits_app. apply orb_true_iff. left. apply Nv. eauto. }
    constructor.
    - intros n. rewrite E1. intros [<-|H]; auto. now apply I.
    - intros n. rewrite E2, E1, (i_dopp I). simpl. intuition (subst; auto).
    - intros n Hn. rewrite E3; [now apply I|]. intros ->. now apply (Cnew _ Hm).
    - intros n Hn. rewrite E1. simpl. destruct (Nat.eqb_spec n m) as [->|Hnm]; simpl; auto.
      rewrite E4; auto; [now apply I|]. intros ->. now apply (Cnew _ Hm).
    - intros n. rewrite E1. intros [<-|H] Hf; auto.
      assert (Hnm : n <> m) by congruence. assert (Hi := i_seen I n H).
      assert (Hc : copy n <> copy m) by (intros E; apply Hnm; now apply Cinj).
      rewrite E4, E3; auto; [now apply I|]. intros E. apply (Cnew _ Hi). now rewrite E.
    - intros n. rewrite E1. intros [<-|H]; auto. now apply I.
    - intros n Hn. rewrite E1. simpl. intros H. rewrite E8; [apply I; auto| |].
      + intros ->. now apply (Cnew _ Hm).
      + intros ->. auto.
    - intros t n L. destruct (live_grow _ E1 L) as [L'|[-> Ht]].
      + destruct (Ap _ _ L') as [B1 B2]. rewrite E8 by auto. now apply I.
      + apply (Permutation_NoDup (l := tags (map some_tag (slots t m)))).
        * apply Permutation_flat_map. symmetry. now apply E9.
        * rewrite tags_some. apply slots_nodup.
    - intros t n L. rewrite conns_app, Nn. simpl. destruct (live_grow _ E1 L) as [L'|[-> Ht]].
      + destruct (Ap _ _ L') as [B1 B2]. rewrite E8, E3 by auto. rewrite (i_outs I L').
        erewrite flat_map_ext; [reflexivity|]. intros [i e]. unfold current.
        rewrite (Vn t n (fst (i, e)) L'), cuts_app, Nc. reflexivity.
      + assert (C : conns b (place t m) = []).
        { destruct (conns b (place t m)) as [|y l] eqn:Ec; auto. exfalso.
          assert (H : In y (conns b (place t m))) by (rewrite Ec; now left). apply conns_in in H as [_ H].
          apply (i_conn I) in H as (t' & n' & L' & E). destruct (Ap _ _ L') as [B1 B2]. destruct t; simpl in E; congruence. }
        rewrite C, app_nil_r, (E9 t Ht). rewrite (flat_map_single some_tag); [reflexivity|].
        intros [i e] H. unfold current. simpl fst. now rewrite (Vm t i e).
    - unfold news. rewrite !keys_app. rewrite (proj1 (cr_nil 0 0 Hcr)). simpl.
      assert (Nd : forall t, NoDup (keys (calls t m))).
      { intros t. rewrite calls_keys. assert (N := slots_nodup t m). revert N.
        generalize (slots t m) as l. induction l as [|x l IH]; simpl; intros N; [constructor|]. inversion N; subst.
        constructor; auto. intros B. apply H1. apply in_map_iff in B as (y & [= E] & B). apply in_map_iff. eauto. }
      assert (Nk : forall t x i, In (x, i) (keys (calls t m)) -> x = place t m).
      { intros t x i H. rewrite calls_keys in H. apply in_map_iff in H as (y & [= <- _] & _). auto. }
      rewrite <- app_assoc. apply NoDup_app_intro; [| |].
      + destruct (fiss m); [apply Nd|constructor].
      + apply NoDup_app_intro; [apply Nd|apply I|]. intros [x i] H1 H2. apply Nk in H1. apply Old in H2 as (t & n & L & E).
        destruct (Ap _ _ L). simpl in *. congruence.
      + intros [x i] H1 H2. destruct (fiss m); [|destruct H1]. apply Nk in H1. apply in_app_or in H2 as [H2|H2].
        * apply Nk in H2. simpl in *. apply (Cnew _ Hm). congruence.
        * apply Old in H2 as (t & n & L & E). destruct (Ap _ _ L). simpl in *. congruence.
    - intros n o H. apply in_app_or in H as [H|H].
      + unfold news in H. apply in_app_or in H as [H|H]; [apply Hcr in H as (c & H); discriminate|].
        assert (H' : exists t, (t = true -> fiss m = true) /\ In (Visits n o) (calls t m)).
        { apply in_app_or in H as [H|H]; [|exists false; split; [discriminate|auto]].
          destruct (fiss m) eqn:Ef; [|destruct H]. exists true. auto. }
        destruct H' as (t & Ht & H'). unfold calls in H'. apply in_map_iff in H' as ([i [l k]] & [= <- <-] & H').
        split; [eapply slots_target; eauto|]. exists t, m, l. split; [|split; auto]. split; auto. rewrite E1. now left.
      + apply (i_visit I) in H as [H1 H2]. split; auto. destruct o as [[x i]|]; auto.
        destruct H2 as (t & k & l & L & H2). exists t, k, l. split; auto. eapply live_grow'; eauto.
    - intros x i H. apply in_app_or in H as [H|H].
      + apply cuts_iff in H. rewrite Nc in H. discriminate.
      + apply (i_cut I) in H as (t & n & l & k & L & -> & H1 & H2). exists t, n, l, k.
        destruct (Ap _ _ L). rewrite E3 by auto. split; [eapply live_grow'; eauto|auto].
    - intros x e H. apply in_app_or in H as [H|H].
      + exfalso. assert (B : In (None, e) (conns (news cr m) x)) by (apply conns_in; auto). now rewrite Nn in B.
      + apply (i_conn I) in H as (t & n & L & E). exists t, n. split; auto. eapply live_grow'; eauto.
    - intros t n i l k L Hs Hv. destruct (live_grow _ E1 L) as [L'|[-> Ht]].
      + rewrite Vn in Hv by auto. destruct (i_done I i l k L' Hs Hv) as [B1 B2]. destruct (Ap _ _ L').
        rewrite E3 by auto. split; auto. rewrite E1. now right.
      + rewrite (Vm t i (l, k)) in Hv by auto. discriminate.
    - destruct (i_root I) as [H|H]; [left; rewrite E1; now right|right; apply in_or_app; auto].
  Qed.

  Lemma fan_ok Q n l0 : forall la lc, fan s Q n (map some_tag l0) = (la, lc, None) ->
    Q n = P n -> (forall i x m, In (i, (x, m)) l0 -> Q m = P m) ->
    let sel t := flat_map (fun x => map (pair (fst x)) (relabeled t (P n) (fst (snd x)) (P (snd (snd x))) (snd (snd x)))) l0 in
    la = map some_tag (sel (out_ana s)) /\ lc = rev (map some_tag (sel (out_cata s))) /\
    forall i x m, In (i, (x, m)) l0 -> calm (out_ana s) (P n) x (P m) /\ calm (out_cata s) (P n) x (P m).
  Proof.
    induction l0 as [|[i [x m]] l0 IH]; cbn [map some_tag fan fst snd]; intros la lc H Hn Hm.
    - injection H as <- <-. simpl. split; [auto|split; [auto|intros ? ? ? []]].
    - destruct (labels (out_ana s) (out_cata s) (Q n) x (Q m)) as [[a c] [e|]] eqn:El; [discriminate|].
      fold (map some_tag l0) in H. destruct (fan s Q n (map some_tag l0)) as [[la' lc'] e'] eqn:Ef.
      injection H as <- <- ->.
      rewrite Hn, (Hm i x m) in El by now left. apply labels_ok in El as (C1 & C2 & -> & ->).
      destruct (IH _ _ eq_refl Hn) as (-> & -> & C). { intros j y k H. apply (Hm j y k). now right. }
      cbn [flat_map fst snd]. rewrite !map_app, rev_app_distr.
      split; [|split].
      + unfold relabeled. destruct (fst (tpred (out_ana s) (P n) x (P m))); reflexivity.
      + f_equal. unfold relabeled. destruct (fst (tpred (out_cata s) (P n) x (P m))); reflexivity.
      + intros j y k [[= <- <- <-]|H]; auto. exact (C _ _ _ H).
  Qed.

  Lemma scatter_some d n l : outs d n = map some_tag l ->
    scatter_out d n = map (fun x => Visits (snd (snd x)) (Some (n, fst x))) l.
  Proof. intros E. unfold scatter_out. rewrite E, map_map. reflexivity. Qed.

  Lemma addressed_some l : addressed l = map some_tag (tagged l).
  Proof. reflexivity. Qed.

  Definition marked_seen (d : sdata) (n : nat) : sdata := mkSD (vtx d) (prp d) (outs d) (n :: sseen d) (dopp d) (counts d).

  Lemma fan_out_inv d b m d1 o1 :
    inv d b -> In m (ids g) -> ~ In m (sseen d) -> fan_out s copy (marked_seen d m) m = (d1, o1, None) ->
    inv d1 (o1 ++ b) /\ In m (sseen d1).
  Proof.
    intros I Hm Hu H. unfold fan_out in H. cbn [marked_seen vtx prp outs sseen dopp counts] in H.
    assert (Hv : vtx d m = vx g m).
    { rewrite (i_vtx I) by auto. destruct (existsb (Nat.eqb m) (sseen d)) eqn:E; auto.
      apply existsb_exists in E as (k & B & E). apply Nat.eqb_eq in E. subst k. contradiction. }
    rewrite Hv, (i_prp I m Hm) in H.
    assert (Ho := i_unseen I m Hm Hu). rewrite addressed_some in Ho.
    destruct (fissile s (vx g m) (P m)) as [fm [e|]] eqn:Ef; [destruct fm; discriminate|].
    assert (Fm : fiss m = fm) by (unfold splitting_at; now rewrite Ef).
    destruct fm.
    - destruct (cata s (vx g m) (P m)) as [t [e|]] eqn:Ec; [discriminate|].
      destruct (copy_property s (marked_seen d m) m t) as [q [e|]] eqn:Eq; [discriminate|].
      destruct (ana s (vx g m) (P m)) as [u [e|]] eqn:Ea; [discriminate|].
      rewrite Ho in H. destruct (fan s (prp d) m (map some_tag (tagged (es g m)))) as [[la lc] e0] eqn:En.
      injection H as <- <- E0. subst e0.
      assert (Tg : forall i x k, In (i, (x, k)) (tagged (es g m)) -> In (x, k) (es g m)).
      { intros i x k B. rewrite <- (tagged_snd (es g m)). apply in_map_iff. exists (i, (x, k)). auto. }
      apply fan_ok in En as (Ela & Elc & Cf).
      2:{ now apply I. }
      2:{ intros i x k B. apply I. apply Tg in B. eapply wf_closed; eauto. }
      assert (Sl : forall t, slots t m = flat_map (fun x => map (pair (fst x))
                  (relabeled (if t then out_cata s else out_ana s) (P m) (fst (snd x)) (P (snd (snd x))) (snd (snd x))))
               (tagged (es g m))).
      { intros z. unfold slots. now rewrite Fm. }
      rewrite <- (Sl false) in Ela. rewrite <- (Sl true) in Elc.
      set (d' := mkSD _ _ _ _ _ _).
      assert (Hne : m <> copy m) by (intros E; apply (Cnew _ Hm); now rewrite <- E).
      assert (Om : outs d' m = map some_tag (slots false m)) by (simpl; now rewrite upd_same).
      assert (Oc : outs d' (copy m) = map some_tag (rev (slots true m))).
      { simpl. rewrite upd_diff by auto. rewrite upd_same, Elc. apply eq_sym, map_rev. }
      split; [|simpl; auto].
      apply inv_perm with (b := news [Creates (copy m)] m ++ b).
      { apply Permutation_app_tail. unfold news. rewrite Fm. cbn [app]. constructor. apply Permutation_app.
        - rewrite (scatter_some d' (copy m) _ Oc). unfold calls. apply Permutation_map, Permutation_rev.
        - rewrite (scatter_some d' m _ Om). reflexivity. }
      apply grow with (d := d); auto.
      + intros p [<-|[]]. eauto.
      + intros n. simpl. rewrite Fm. intuition.
      + intros x Hx. simpl. now rewrite upd_diff by auto.
      + congruence.
      + intros x H1 H2. simpl. now rewrite !upd_diff by auto.
      + simpl. rewrite upd_same. unfold new_vertex, ana_vertex. now rewrite Fm, Ea.
      + intros _. simpl. rewrite upd_diff by auto. rewrite !upd_same. unfold copy_value, cata_vertex. rewrite Ec. simpl.
        split; auto. exists (vtx d). split; [|split; [exact Hv|]].
        * intros k Hk. rewrite (i_vtx I k Hk). destruct (existsb _ _); auto.
        * apply outcome_value. unfold copy_property in Eq. cbn [marked_seen outs vtx] in Eq. rewrite Ho, map_map in Eq.
          unfold outward. rewrite <- (tagged_snd (es g m)), map_map. exact Eq.
      + split; [now rewrite Ef|]. intros _. rewrite Ea, Ec. simpl. split; auto. split; auto.
        intros l k B. rewrite <- (tagged_snd (es g m)) in B. apply in_map_iff in B as ([i x] & E & B). simpl in E. subst x.
        exact (Cf _ _ _ B).
      + intros x H1 H2. simpl. now rewrite !upd_diff by auto.
      + intros [|] _; cbn [place].
        * rewrite Oc. apply Permutation_map. symmetry. apply Permutation_rev.
        * now rewrite Om.
    - injection H as <- <-. fold (marked_seen d m). set (d' := marked_seen d m).
      assert (Sl : slots false m = tagged (es g m)) by (unfold slots; now rewrite Fm).
      assert (Om : outs d' m = map some_tag (slots false m)) by (rewrite Sl; exact Ho).
      split; [|simpl; auto].
      apply inv_perm with (b := news [] m ++ b).
      { apply Permutation_app_tail. unfold news. rewrite Fm. cbn [app]. rewrite (scatter_some d' m _ Om). reflexivity. }
      apply grow with (d := d); auto.
      + intros p [].
      + intros n. rewrite Fm. simpl. intuition congruence.
      + simpl. rewrite Hv. unfold new_vertex. now rewrite Fm.
      + congruence.
      + split; [now rewrite Ef|congruence].
      + intros [|] Ht; [rewrite Fm in Ht; specialize (Ht eq_refl); discriminate|]. cbn [place]. now rewrite Om.
  Qed.

  (** *** The terminus of an edge is informed *)
  Lemma key_fresh b m x i : NoDup (keys (Visits m (Some (x, i)) :: b)) -> visits b x i = false /\ cuts b x i = false.
  Proof.
    intros N. change (NoDup ((x, i) :: keys b)) in N. inversion N; subst.
    split; apply not_true_is_false; intros E; apply H1, key_in; auto.
  Qed.
  Lemma visits_cons b m x i y j : (y, j) <> (x, i) -> visits (Visits m (Some (x, i)) :: b) y j = visits b y j.
  Proof.
    intros H. simpl. destruct (Nat.eqb_spec x y); auto. destruct (Nat.eqb_spec i j); auto. subst. congruence.
  Qed.
  Lemma slot_split t n i e : In (i, e) (slots t n) ->
    exists s1 s2, slots t n = s1 ++ (i, e) :: s2 /\ forall j e', In (j, e') (s1 ++ s2) -> j <> i.
  Proof.
    intros H. apply in_split in H as (s1 & s2 & E). exists s1, s2. split; auto.
    assert (N := slots_nodup t n). rewrite E, map_app in N. simpl in N. apply NoDup_remove_2 in N.
    intros j e' B ->. apply N. rewrite <- map_app. apply in_map_iff. exists (i, e'). auto.
  Qed.

  Definition replies (x i : nat) (o2 : list spkt) : Prop :=
    o2 = [Disconnects x i] \/ forall p, In p o2 -> exists e, p = Connects x e.
  Lemma replies_visits x i o2 y j : replies x i o2 -> visits o2 y j = false.
  Proof.
    intros [->|H]; auto. apply not_true_is_false. intros E. apply visits_iff in E as (k & E). apply H in E as (e & E). discriminate.
  Qed.
  Lemma replies_cuts x i o2 y j : replies x i o2 -> (y, j) <> (x, i) -> cuts o2 y j = false.
  Proof.
    intros H Hn. apply not_true_is_false. intros E. apply cuts_iff in E. destruct H as [->|H].
    - destruct E as [[= -> ->]|[]]. congruence.
    - apply H in E as (e & E). discriminate.
  Qed.
  Lemma replies_conns x i o2 y : replies x i o2 -> y <> x -> conns o2 y = [].
  Proof.
    intros H Hn. destruct (conns o2 y) as [|z l] eqn:E; auto. exfalso.
    assert (B : In z (conns o2 y)) by (rewrite E; now left). apply conns_in in B as [_ B].
    destruct H as [->|H]; [destruct B as [B|[]]; discriminate|]. apply H in B as (e & B). congruence.
  Qed.

  Lemma settle d d2 b m t n i l l1 l2 e' o2 :
    let x := place t n in
    inv d (Visits m (Some (x, i)) :: b) -> In m (sseen d) -> live d t n -> In (i, (l, m)) (slots t n) ->
    outs d x = l1 ++ (Some i, (l, m)) :: l2 ->
    vtx d2 = vtx d -> prp d2 = prp d -> sseen d2 = sseen d -> dopp d2 = dopp d ->
    outs d2 x = l1 ++ (Some i, e') :: l2 -> (forall y, y <> x -> outs d2 y = outs d y) ->
    calm_arrival g s P (prp d x) (l, m) ->
    (o2 = [Disconnects x i] /\ settled (prp d x) (i, (l, m)) = [] /\ e' = (null, m) \/
     (forall p, In p o2 -> exists e, p = Connects x e) /\ Permutation ((Some i, e') :: conns o2 x) (settled (prp d x) (i, (l, m)))) ->
    inv d2 (o2 ++ b).
  Proof.
    intros x I Hm L Hs Eo Ev Ep Es Ed Eo2 Eo' Hc Hr.
    assert (R : replies x i o2) by (destruct Hr as [(-> & _)|[H _]]; [left|right]; auto).
    destruct (key_fresh (i_keys I)) as [Fv Fc].
    assert (Vy : forall y j, (y, j) <> (x, i) -> visits (o2 ++ b) y j = visits (Visits m (Some (x, i)) :: b) y j).
    { intros y j H. now rewrite visits_app, (replies_visits y j R), visits_cons. }
    assert (Vx : visits (o2 ++ b) x i = false) by (now rewrite visits_app, (replies_visits x i R)).
    assert (Cy : forall y j, (y, j) <> (x, i) -> cuts (o2 ++ b) y j = cuts (Visits m (Some (x, i)) :: b) y j).
    { intros y j H. now rewrite cuts_app, (replies_cuts R H). }
    assert (Lv : forall t' n', live d2 t' n' <-> live d t' n') by (intros; unfold live; now rewrite Es).
    assert (Px : forall t' n', live d t' n' -> place t' n' = x -> t' = t /\ n' = n).
    { intros t' n' L' E. eapply place_inj; eauto. apply I. }
    destruct (slot_split t n i (l, m) Hs) as (s1 & s2 & Esl & Hdis).
    assert (Old : forall t' n' j e, live d t' n' -> In (j, e) (slots t' n') -> (place t' n', j) = (x, i) ->
                  t' = t /\ n' = n /\ j = i /\ e = (l, m)).
    { intros t' n' j e L' Hj [= E ->]. destruct (Px _ _ L' E) as [-> ->].
      split; auto. split; auto. split; auto. rewrite Esl in Hj. apply in_app_or in Hj as [Hj|[[= <-]|Hj]]; auto.
      - exfalso. now apply (Hdis i e (in_or_app s1 s2 _ (or_introl Hj))).
      - exfalso. now apply (Hdis i e (in_or_app s1 s2 _ (or_intror Hj))). }
    constructor.
    - rewrite Es. apply I.
    - rewrite Ed, Es. apply I.
    - rewrite Ep. apply I.
    - rewrite Ev, Es. apply I.
    - rewrite Ev, Es, Ep. apply I.
    - rewrite Es. apply I.
    - rewrite Es. intros k Hk Hu. rewrite Eo'; [now apply I|]. intros E.
      unfold x in E.
      destruct L as [L1 L2]. destruct t; simpl in E; subst k; [|contradiction]. apply (Cnew n); auto. now apply I.
    - intros t' n' L'. apply Lv in L'. destruct (Nat.eq_dec (place t' n') x) as [E|E].
      + rewrite E, Eo2. assert (N := i_tags I L'). rewrite E, Eo in N. rewrite tags_app in *. exact N.
      + rewrite Eo' by auto. apply (i_tags I L').
    - intros t' n' L'. apply Lv in L'. rewrite Ep. destruct (Nat.eq_dec (place t' n') x) as [E|E].
      + destruct (Px _ _ L' E) as [-> ->]. fold x. rewrite Eo2.
        assert (Q := i_outs I L). fold x in Q. rewrite Eo, Esl in Q. rewrite Esl.
        rewrite flat_map_app in Q |- *. cbn [flat_map] in Q |- *.
        assert (C0 : current (Visits m (Some (x, i)) :: b) x (prp d x) (i, (l, m)) = [(Some i, (l, m))]).
        { unfold current. simpl. now rewrite !Nat.eqb_refl. }
        unfold sedge, edge in *. rewrite C0 in Q. clear C0.
        assert (Sm : forall z, (forall j e, In (j, e) z -> In (j, e) (s1 ++ s2)) ->
                  flat_map (current (o2 ++ b) x (prp d x)) z = flat_map (current (Visits m (Some (x, i)) :: b) x (prp d x)) z).
        { intros z Hz. apply flat_map_same. intros [j e] Hj. unfold current. simpl fst.
          assert (Hji : (x, j) <> (x, i)) by (intros [= F]; apply (Hdis j e); auto).
          now rewrite (Vy x j Hji), (Cy x j Hji). }
        unfold sedge, edge in *. rewrite (Sm s1), (Sm s2) by (intros; apply in_or_app; auto). clear Sm.
        set (A1 := flat_map _ s1) in *. set (A2 := flat_map _ s2) in *.
        change (conns (Visits m (Some (x, i)) :: b) x) with (conns b x) in Q.
        rewrite <- !app_assoc in Q. cbn [app] in Q. apply Permutation_app_inv in Q.
        assert (G : Permutation ((Some i, e') :: conns o2 x) (current (o2 ++ b) x (prp d x) (i, (l, m)))).
        { unfold current. simpl fst. rewrite Vx, cuts_app, Fc, orb_false_r.
          destruct Hr as [(-> & Z1 & ->)|[Z1 Z2]].
          - simpl. rewrite !Nat.eqb_refl. reflexivity.
          - assert (K : cuts o2 x i = false).
            { apply not_true_is_false. intros K. apply cuts_iff, Z1 in K as (e & K). discriminate. }
            now rewrite K. }
        unfold sedge, edge in *. rewrite conns_app, <- G. rewrite <- !app_assoc. cbn [app].
        rewrite <- !Permutation_middle. constructor.
        transitivity (conns o2 x ++ (l1 ++ l2 ++ conns b x)); [|rewrite Q].
        * rewrite !app_assoc. apply Permutation_app_tail. rewrite <- (app_assoc (conns o2 x)). apply Permutation_app_comm.
        * rewrite !app_assoc. apply Permutation_app_tail, Permutation_app_comm.
      + rewrite Eo' by auto. rewrite conns_app, (replies_conns R E). simpl.
        assert (Q := i_outs I L'). change (conns (Visits m (Some (x, i)) :: b) (place t' n')) with (conns b (place t' n')) in Q.
        rewrite Q. erewrite flat_map_ext; [reflexivity|]. intros [j e]. unfold current. simpl fst.
        rewrite (Vy (place t' n') j), (Cy (place t' n') j) by congruence. reflexivity.
    - rewrite keys_app. assert (N := i_keys I). change (NoDup ((x, i) :: keys b)) in N.
      destruct Hr as [(-> & _)|[Z1 _]]; [exact N|].
      assert (K : keys o2 = []).
      { destruct (keys o2) as [|[y j] ks] eqn:E; auto. exfalso.
        assert (B : In (y, j) (keys o2)) by (rewrite E; now left). apply key_in in B as [B|B].
        - apply visits_iff in B as (k & B). apply Z1 in B as (e & B). discriminate.
        - apply cuts_iff in B. apply Z1 in B as (e & B). discriminate. }
      rewrite K. now inversion N.
    - intros k o H. assert (H' : In (Visits k o) b).
      { apply in_app_or in H as [H|H]; auto. destruct Hr as [(-> & _)|[Z1 _]]; [destruct H as [H|[]]; discriminate|].
        apply Z1 in H as (e & H). discriminate. }
      destruct (i_visit I k o (or_intror H')) as [B1 B2]. split; auto. destruct o as [[y j]|]; auto.
      destruct B2 as (t' & n' & l' & L' & B2). exists t', n', l'. split; auto. now apply Lv.
    - intros y j H. rewrite Ep. apply in_app_or in H as [H|H].
      + destruct Hr as [(-> & Z1 & _)|[Z1 _]].
        * destruct H as [[= <- <-]|[]]. exists t, n, l, m. split; [now apply Lv|auto].
        * apply Z1 in H as (e & H). discriminate.
      + destruct (i_cut I y j (or_intror H)) as (t' & n' & l' & k & L' & B). exists t', n', l', k. split; auto. now apply Lv.
    - intros y e H. apply in_app_or in H as [H|H].
      + destruct Hr as [(-> & Z1 & _)|[Z1 _]].
        * destruct H as [H|[]]. discriminate.
        * apply Z1 in H as (e0 & [= -> ->]). exists t, n. split; [now apply Lv|auto].
      + destruct (i_conn I y e (or_intror H)) as (t' & n' & L' & B). exists t', n'. split; auto. now apply Lv.
    - intros t' n' j l' k L' Hj Hv. apply Lv in L'. rewrite Es, Ep.
      destruct (Nat.eq_dec (place t' n') x) as [E|E].
      + destruct (Nat.eq_dec j i) as [->|Hji].
        * destruct (Old t' n' i (l', k) L' Hj) as (-> & -> & _ & [= -> ->]); [congruence|]. auto.
        * apply (i_done I j l' k L' Hj). rewrite <- Vy; auto. congruence.
      + apply (i_done I j l' k L' Hj). rewrite <- Vy; auto. congruence.
    - rewrite Es. destruct (i_root I) as [H|[H|H]]; auto; [discriminate|]. right. apply in_or_app. auto.
  Qed.

  Lemma in_outs d b m t n i l : let x := place t n in
    inv d (Visits m (Some (x, i)) :: b) -> live d t n -> In (i, (l, m)) (slots t n) -> In (Some i, (l, m)) (outs d x).
  Proof.
    intros x I L Hs. assert (H : In (Some i, (l, m)) (flat_map (current (Visits m (Some (x, i)) :: b) x (prp d x)) (slots t n))).
    { apply in_flat_map. exists (i, (l, m)). split; auto. unfold current. simpl. rewrite !Nat.eqb_refl. now left. }
    apply (Permutation_in _ (Permutation_sym (i_outs I L))) in H. apply in_app_or in H as [H|H]; auto.
    apply conns_in in H as [H _]. discriminate.
  Qed.

  Lemma drop_visit d b m : inv d (Visits m None :: b) -> In m (sseen d) -> inv d b.
  Proof.
    intros I Hm. constructor; try apply I.
    - intros n o H. apply (i_visit I n o). now right.
    - intros x i H. apply (i_cut I x i). now right.
    - intros x e H. apply (i_conn I x e). now right.
    - destruct (i_root I) as [H|[[= <-]|H]]; auto.
  Qed.

  Lemma fan_in_inv d b m o d2 o2 : inv d (Visits m o :: b) -> In m (sseen d) ->
    fan_in s copy d m o = (d2, o2, None) -> inv d2 (o2 ++ b).
  Proof.
    intros I Hm H. unfold fan_in in H.
    destruct o as [[x i]|].
    2:{ destruct (negb _) in H; injection H as <- <-; now apply (drop_visit I). }
    destruct (i_visit I m (Some (x, i)) (or_introl eq_refl)) as (Hi & t & n & l & L & -> & Hs).
    assert (Ho := @in_outs d b m t n i l I L Hs). destruct (tag_split _ _ _ (i_tags I L) Ho) as (l1 & l2 & El & Ef & Es & _).
    destruct (existsb (Nat.eqb m) (dopp d)) eqn:Ed; cbn [negb] in H.
    - assert (Fm : fiss m = true).
      { apply existsb_exists in Ed as (k & B & E). apply Nat.eqb_eq in E. subst k. now apply (i_dopp I). }
      rewrite Ef in H. cbn [fst snd] in H.
      destruct (labels (in_ana s) (in_cata s) (prp d (place t n)) l (prp d m)) as [[u w] [e|]] eqn:E.
      { destruct u, w; discriminate. }
      rewrite (i_prp I m Hi) in E. apply labels_ok in E as (C1 & C2 & Eu & Ew).
      assert (Ca : calm_arrival g s P (prp d (place t n)) (l, m)) by (intros _; auto).
      assert (G : exists e', d2 = with_edges d (place t n) (set_edge i e' (outs d (place t n))) /\
        (o2 = [Disconnects (place t n) i] /\ settled (prp d (place t n)) (i, (l, m)) = [] /\ e' = (null, m) \/
         (forall p, In p o2 -> exists e, p = Connects (place t n) e) /\
         Permutation ((Some i, e') :: conns o2 (place t n)) (settled (prp d (place t n)) (i, (l, m))))).
      { unfold settled. rewrite Fm.
        destruct (fst (tpred (in_ana s) (prp d (place t n)) l (P m))), (fst (tpred (in_cata s) (prp d (place t n)) l (P m)));
          subst u w; injection H as <- <-; eexists; (split; [reflexivity|]).
        - right. split; [intros p [<-|[]]; eauto|]. simpl. rewrite Nat.eqb_refl. reflexivity.
        - right. split; [intros p []|]. reflexivity.
        - right. split; [intros p []|]. reflexivity.
        - left. auto. }
      destruct G as (e' & -> & G).
      eapply settle; eauto; simpl; auto.
      + rewrite upd_same. apply Es.
      + intros y Hy. now rewrite upd_diff by auto.
    - injection H as <- <-.
      assert (Fm : fiss m = false).
      { apply not_true_is_false. intros F. assert (B : In m (dopp d)) by (apply (i_dopp I); auto).
        assert (T : existsb (Nat.eqb m) (dopp d) = true) by (apply existsb_exists; exists m; split; auto; apply Nat.eqb_refl).
        congruence. }
      eapply settle with (e' := (l, m)); eauto.
      + intros F. cbn [snd] in F. congruence.
      + right. split; [intros p []|]. unfold settled. rewrite Fm. reflexivity.
  Qed.

  (** *** The other requests *)
  Lemma connect_inv d b x e : inv d (Connects x e :: b) -> inv (with_edges d x ((None, e) :: outs d x)) b.
  Proof.
    intros I. destruct (i_conn I x e (or_introl eq_refl)) as (t & n & L & ->).
    assert (Px : forall t' n', live d t' n' -> place t' n' = place t n -> t' = t /\ n' = n).
    { intros t' n' L' E. eapply place_inj; eauto. apply I. }
    constructor; try apply I; cbn [with_edges vtx prp outs sseen dopp counts].
    - intros k Hk Hu. rewrite upd_diff; [now apply I|]. intros E. destruct L as [L1 L2].
      destruct t; simpl in E; subst k; [|contradiction]. apply (Cnew n); auto. now apply I.
    - intros t' n' L'. unfold upd. destruct (Nat.eqb_spec (place t' n') (place t n)) as [E|E]; [|apply (i_tags I L')].
      destruct (Px _ _ L' E) as [-> ->]. exact (i_tags I L).
    - intros t' n' L'. unfold upd. assert (Q := i_outs I L'). simpl in Q.
      destruct (Nat.eqb_spec (place t' n') (place t n)) as [E|E].
      + destruct (Px _ _ L' E) as [-> ->]. rewrite Nat.eqb_refl in Q.
        simpl. rewrite <- Q. simpl. apply Permutation_middle.
      + rewrite (proj2 (Nat.eqb_neq (place t n) (place t' n'))) in Q by auto. exact Q.
    - intros k o H. apply (i_visit I k o). now right.
    - intros y j H. apply (i_cut I y j). now right.
    - intros y e' H. apply (i_conn I y e'). now right.
    - destruct (i_root I) as [H|[H|H]]; auto. discriminate.
  Qed.

  Lemma create_inv d d' b c : vtx d' = vtx d -> prp d' = prp d -> outs d' = outs d -> sseen d' = sseen d -> dopp d' = dopp d ->
    inv d (Creates c :: b) -> inv d' b.
  Proof.
    intros E1 E2 E3 E4 E5 I.
    assert (Lv : forall t' n', live d' t' n' <-> live d t' n') by (intros; unfold live; now rewrite E4).
    constructor; rewrite ?E1, ?E2, ?E3, ?E4, ?E5; try apply I.
    - intros t n L. apply Lv in L. apply (i_tags I L).
    - intros t n L. apply Lv in L. apply (i_outs I L).
    - intros k o H. destruct (i_visit I k o (or_intror H)) as [B1 B2]. split; auto. destruct o as [[y j]|]; auto.
      destruct B2 as (t' & n' & l' & L' & B2). exists t', n', l'. split; auto. now apply Lv.
    - intros y j H. destruct (i_cut I y j (or_intror H)) as (t' & n' & l' & k & L' & B). exists t', n', l', k.
      split; auto. now apply Lv.
    - intros y e H. destruct (i_conn I y e (or_intror H)) as (t' & n' & L' & B). exists t', n'. split; auto. now apply Lv.
    - intros t n i l m L. apply Lv in L. apply (i_done I i l m L).
    - destruct (i_root I) as [H|[H|H]]; auto. discriminate.
  Qed.

  Lemma cut_inv d b x i : inv d (Disconnects x i :: b) ->
    exists l, List.partition (at_tag i) (outs d x) = (filter (at_tag i) (outs d x), l) /\ filter (at_tag i) (outs d x) <> [] /\
      inv (with_edges d x l) b.
  Proof.
    intros I. destruct (i_cut I x i (or_introl eq_refl)) as (t & n & l & m & L & -> & Hs & Hz).
    assert (Px : forall t' n', live d t' n' -> place t' n' = place t n -> t' = t /\ n' = n).
    { intros t' n' L' E. eapply place_inj; eauto. apply I. }
    assert (N := i_keys I). change (NoDup ((place t n, i) :: keys b)) in N. inversion N as [|k0 ks N1 N2]; subst.
    assert (Fv : visits b (place t n) i = false).
    { apply not_true_is_false. intros E. apply N1, key_in. auto. }
    assert (Fc : cuts b (place t n) i = false).
    { apply not_true_is_false. intros E. apply N1, key_in. auto. }
    assert (C0 : current (Disconnects (place t n) i :: b) (place t n) (prp d (place t n)) (i, (l, m)) = [(Some i, (null, m))]).
    { unfold current. simpl. rewrite Fv, !Nat.eqb_refl. reflexivity. }
    assert (Ho : In (Some i, (null, m)) (outs d (place t n))).
    { assert (H : In (Some i, (null, m)) (flat_map (current (Disconnects (place t n) i :: b) (place t n) (prp d (place t n))) (slots t n))).
      { apply in_flat_map. exists (i, (l, m)). split; auto. rewrite C0. now left. }
      apply (Permutation_in _ (Permutation_sym (i_outs I L))) in H. apply in_app_or in H as [H|H]; auto.
      apply conns_in in H as [H _]. discriminate. }
    destruct (tag_split _ _ _ (i_tags I L) Ho) as (l1 & l2 & El & _ & _ & Ep). exists (l1 ++ l2).
    assert (Ef : filter (at_tag i) (outs d (place t n)) = [(Some i, (null, m))]).
    { rewrite <- partition_fst, Ep. reflexivity. }
    rewrite Ef. split; [exact Ep|]. split; [discriminate|].
    destruct (slot_split t n i (l, m) Hs) as (s1 & s2 & Esl & Hdis).
    constructor; try apply I; cbn [with_edges vtx prp outs sseen dopp counts].
    - intros k Hk Hu. rewrite upd_diff; [now apply I|]. intros E. destruct L as [L1 L2].
      destruct t; simpl in E; subst k; [|contradiction]. apply (Cnew n); auto. now apply I.
    - intros t' n' L'. unfold upd. destruct (Nat.eqb_spec (place t' n') (place t n)) as [E|E]; [|apply (i_tags I L')].
      assert (T := i_tags I L). rewrite El in T. rewrite tags_app in *. apply NoDup_remove_1 in T. exact T.
    - intros t' n' L'. unfold upd. assert (Q := i_outs I L'). destruct (Nat.eqb_spec (place t' n') (place t n)) as [E|E].
      + destruct (Px _ _ L' E) as [-> ->]. clear E L'. rewrite El, Esl in Q. rewrite Esl.
        rewrite flat_map_app in Q |- *. cbn [flat_map] in Q |- *. unfold sedge, edge in *. rewrite C0 in Q.
        assert (Sm : forall z, (forall j e, In (j, e) z -> In (j, e) (s1 ++ s2)) ->
                  flat_map (current (Disconnects (place t n) i :: b) (place t n) (prp d (place t n))) z =
                  flat_map (current b (place t n) (prp d (place t n))) z).
        { intros z Hz'. apply flat_map_same. intros [j e] Hj. unfold current. simpl.
          rewrite (proj2 (Nat.eqb_neq i j)); [now rewrite andb_false_r|]. intros <-. now apply (Hdis i e (Hz' i e Hj)). }
        unfold sedge, edge in *. rewrite (Sm s1), (Sm s2) in Q by (intros; apply in_or_app; auto).
        assert (C1 : current b (place t n) (prp d (place t n)) (i, (l, m)) = []).
        { unfold current. cbn [fst snd]. rewrite Fv, Fc. exact Hz. }
        unfold sedge, edge in *. rewrite C1. cbn [app]. rewrite <- app_assoc in Q |- *. cbn [app] in Q.
        apply Permutation_app_inv in Q. exact Q.
      + change (conns (Disconnects (place t n) i :: b) (place t' n')) with (conns b (place t' n')) in Q. rewrite Q.
        erewrite flat_map_ext; [reflexivity|]. intros [j e]. unfold current. simpl.
        rewrite (proj2 (Nat.eqb_neq (place t n) (place t' n'))) by auto. reflexivity.
    - exact N2.
    - intros k o H. apply (i_visit I k o). now right.
    - intros y j H. apply (i_cut I y j). now right.
    - intros y e' H. apply (i_conn I y e'). now right.
    - destruct (i_root I) as [H|[H|H]]; auto. discriminate.
  Qed.

  Lemma step_inv d p b d' out : inv d (p :: b) -> split_step X s vertex_limit copy d p = (d', out, None) -> inv d' (out ++ b).
  Proof.
    intros I H. destruct p as [m o|c|x e|x i]; cbn [split_step] in H.
    - destruct (i_visit I m o (or_introl eq_refl)) as [Hi _].
      destruct (existsb (Nat.eqb m) (sseen d)) eqn:Es.
      + assert (Hm : In m (sseen d)).
        { apply existsb_exists in Es as (k & B & E). apply Nat.eqb_eq in E. now subst k. }
        destruct (fan_in s copy d m o) as [[d2 o2] e2] eqn:Ef. injection H as <- <- ->. simpl.
        eapply fan_in_inv; eauto.
      + assert (Hm : ~ In m (sseen d)).
        { intros B. assert (T : existsb (Nat.eqb m) (sseen d) = true) by (apply existsb_exists; exists m; split; auto; apply Nat.eqb_refl).
          congruence. }
        fold (marked_seen d m) in H.
        destruct (fan_out s copy (marked_seen d m) m) as [[d1 o1] [e1|]] eqn:Ef; [discriminate|].
        destruct (fan_in s copy d1 m o) as [[d2 o2] e2] eqn:Eg. injection H as <- <- ->.
        destruct (fan_out_inv m I Hi Hm Ef) as [I1 B1].
        apply inv_perm with (b' := Visits m o :: o1 ++ b) in I1; [|symmetry; apply Permutation_middle].
        rewrite <- app_assoc. apply inv_perm with (b := o2 ++ (o1 ++ b)).
        * rewrite !app_assoc. apply Permutation_app_tail, Permutation_app_comm.
        * eapply fan_in_inv; eauto.
    - injection H as <- <- _. simpl. eapply create_inv; [..|exact I]; reflexivity.
    - injection H as <- <-. now apply connect_inv.
    - destruct (cut_inv I) as (l & E1 & E2 & I'). rewrite E1 in H.
      destruct (filter (at_tag i) (outs d x)); [congruence|]. injection H as <- <-. exact I'.
  Qed.

  Lemma start_inv sv : inv (sstart X g P sv) [Visits (root g) None].
  Proof.
    constructor; simpl; auto; try (now intros; contradiction); try (intros ? ? [[] _]; fail).
    - intros n. split; [intros []|intros [[] _]].
    - constructor.
    - intros n o [[= <- <-]|[]]. split; auto. now apply wf_root.
    - intros x i [E|[]]. discriminate.
    - intros x e [E|[]]. discriminate.
    - intros t n i l m [[] _].
  Qed.

  (** ** The end *)
  Record finished (d : sdata) : Prop := {
    f_root : In (root g) (sseen d);
    f_seen : forall n, In n (sseen d) -> In n (ids g);
    f_vtx : forall n, In n (sseen d) -> vtx d n = new_vertex g s P n;
    f_copy : forall n, In n (sseen d) -> fiss n = true -> vtx d (copy n) = cata_vertex g s P n /\ copy_value n (prp d (copy n));
    f_calm : forall n, In n (sseen d) -> calm_node g s P n /\ calm_edges g s P (fun n => prp d (copy n)) n;
    f_ana : forall n, In n (sseen d) -> Permutation (left_edges d n) (edges_from_ana g s copy P n);
    f_cata : forall n, In n (sseen d) -> fiss n = true ->
      Permutation (left_edges d (copy n)) (edges_from_cata g s copy P (fun n => prp d (copy n)) n);
    f_closed : forall t n l m, In n (sseen d) -> (t = true -> fiss n = true) ->
      In (l, m) (departing g s P (if t then out_cata s else out_ana s) n) -> In m (sseen d);
    f_dopp : forall n, In n (sseen d) -> fiss n = true -> In n (dopp d)
  }.

  Lemma inv_finished d : inv d [] -> finished d.
  Proof.
    intros I.
    assert (G : forall t n, live d t n -> Permutation (left_edges d (place t n))
                (flat_map (arriving g s copy P (prp d (place t n))) (departing g s P (if t then out_cata s else out_ana s) n))).
    { intros t n L. assert (Q := i_outs I L). simpl in Q. rewrite app_nil_r in Q. unfold left_edges.
      rewrite Q. rewrite <- slots_snd. clear. induction (slots t n) as [|x l IH]; auto. cbn [flat_map map]. rewrite map_app.
      apply Permutation_app; auto. unfold current. simpl. now rewrite settled_snd. }
    assert (D : forall t n e, live d t n -> In e (departing g s P (if t then out_cata s else out_ana s) n) ->
                In (snd e) (sseen d) /\ calm_arrival g s P (prp d (place t n)) e).
    { intros t n [l m] L H. rewrite <- slots_snd in H. apply in_map_iff in H as ([i e] & E & H). simpl in E. subst e.
      apply (i_done I i l m L H). reflexivity. }
    constructor.
    - destruct (i_root I) as [H|[]]; auto.
    - apply I.
    - intros n H. rewrite (i_vtx I) by now apply I.
      assert (T : existsb (Nat.eqb n) (sseen d) = true) by (apply existsb_exists; exists n; split; auto; apply Nat.eqb_refl).
      now rewrite T.
    - apply I.
    - intros n H. split; [now apply I|]. split.
      + intros e He. assert (L : live d false n) by (split; [auto|discriminate]). destruct (D false n e L He) as [_ B].
        simpl in B. now rewrite (i_prp I n (i_seen I n H)) in B.
      + intros Hf e He. assert (L : live d true n) by (split; auto). now destruct (D true n e L He).
    - intros n H. assert (L : live d false n) by (split; [auto|discriminate]). rewrite (G false n L). simpl.
      now rewrite (i_prp I n (i_seen I n H)).
    - intros n H Hf. assert (L : live d true n) by (split; auto). now rewrite (G true n L).
    - intros t n l m H Ht He. assert (L : live d t n) by (split; auto). now destruct (D t n (l, m) L He).
    - intros n H Hf. now apply (i_dopp I).
  Qed.
End Run.

(** ** Properties *)
Lemma set_properties g ins p nodes : forall d d', NoDup nodes -> acts (set_property g ins p) d nodes = Some d' ->
  (forall n, In n nodes -> outcome_of (mapped_node p (vx g n) (map (seen_edge g) (ins n)) (map (seen_edge g) (es g n)) no_values) = (d' n, None)) /\
  (forall n, ~ In n nodes -> d' n = d n).
Proof.
  induction nodes as [|m nodes IH]; simpl; intros d d' N H.
  - injection H as <-. split; auto. intros n [].
  - unfold set_property at 1 in H.
    destruct (outcome_of _) as [w [e|]] eqn:E; [discriminate|]. inversion N; subst.
    destruct (IH _ _ H3 H) as [A B]. split.
    + intros n [<-|Hn]; auto. rewrite (B m H2), upd_same. exact E.
    + intros n Hn. rewrite B by auto. apply upd_diff. auto.
Qed.

(** The property of a vertex, where the incident edges may come in any order *)
Definition true_property (p : prop) (g : graph word word) (n : nat) (w : word) : Prop :=
  exists I, Permutation I (inward g n) /\ has_value p (vx g n) I (outward (es g) (vx g) n) w.
(** Back edges are made only if they are needed. *)
Definition back_edges (p : prop) (g : graph word word) (ins : nat -> list edge) : Prop :=
  empty_fold (incident p) = true \/ forall n, In n (ids g) -> Permutation (ins n) (edges_to g n).

Lemma empty_incident p v I I' o : empty_fold (incident p) = true -> mapped_node p v I o fresh = mapped_node p v I' o fresh.
Proof. intros H. unfold mapped_node, folded. rewrite H. reflexivity. Qed.

Lemma edges_to_inward (g : graph word word) n : map (seen_edge g) (edges_to g n) = inward g n.
Proof.
  unfold edges_to, inward. induction (ids g) as [|m l IH]; simpl; auto. rewrite map_app, IH. f_equal.
  rewrite map_map. apply map_ext. intros e. reflexivity.
Qed.

Lemma set_ok X g ins p kills i sp order : 0 < lanes X -> wf g -> never_killed kills ->
  ran (lanes X) (walk_dest X) (setting g ins p (in_pass X kills i)) (vstart (fun _ => null)) (initial (root g)) sp ->
  Permutation order (seq 0 (lanes X)) -> pass_status order sp = None -> back_edges p g ins ->
  forall n, In n (ids g) -> true_property p g n (data sp n).
Proof.
  intros Hl W K R Ho St B n Hn.
  apply ran_completes in R; [|now apply vdest_lt].
  assert (V : vstatus (in_pass X kills i) order sp = None) by (eapply pass_unkilled; eauto; intros k; apply K).
  destruct (gwalk_success (X := in_pass X kills i) Hl Ho R V) as (nodes & A1 & A2 & A3).
  destruct (set_properties _ _ _ _ A1 A3) as [A4 _]. assert (Hm : In n nodes) by (apply A2, along_ids; auto).
  specialize (A4 n Hm). apply outcome_value in A4. destruct B as [B|B].
  - exists (inward g n). split; auto. unfold has_value in *. destruct A4 as (z & z1 & z2 & A4 & A5).
    exists z, z1, z2. split; auto. rewrite <- A4. now apply empty_incident.
  - exists (map (seen_edge g) (ins n)). split; [|exact A4]. rewrite <- edges_to_inward. apply Permutation_map. auto.
Qed.

(** ** What is left in the end *)
Section End.
  Variable X : env.
  Variable g : graph word word.
  Variable ins : nat -> list edge.
  Variable s : splitter.
  Variable vertex_limit : nat.
  Variable owned : bool.
  Variable copy : nat -> nat.
  Variable kills : nat -> nat -> bool.

  Hypothesis Hl : 0 < lanes X.
  Hypothesis W : wf g.
  Hypothesis Cinj : forall n m, In n (ids g) -> In m (ids g) -> copy n = copy m -> n = m.
  Hypothesis Cnew : forall n, In n (ids g) -> ~ In (copy n) (ids g).

  Lemma split_serial P sv st vis :
    serial sreceiver Nat.eqb (split_step X s vertex_limit copy) (split_step X s vertex_limit copy) (fun _ _ => true)
      (sstart X g P sv) (Visits (root g) None) st vis ->
    finished g s copy P st.
  Proof.
    intros R. apply inv_finished. unfold serial, completes in R.
    refine (mruns_inv (fun (q : sdata * list spkt) b => inv g s copy P (fst q) b) _ _ _ R); clear R st vis.
    - intros q b b' H. now apply inv_perm.
    - intros [d vis] p b [d' vis'] out I H. unfold ptask in H. simpl in H.
      assert (E : (if was_seen sreceiver Nat.eqb vis p then split_step X s vertex_limit copy d p else split_step X s vertex_limit copy d p)
                  = split_step X s vertex_limit copy d p) by (destruct (was_seen _ _ _ _); auto).
      rewrite E in H. destruct (split_step X s vertex_limit copy d p) as [[d1 o1] [e1|]] eqn:Es; [discriminate|].
      injection H as <- _ <-. simpl in *. eapply step_inv; eauto.
    - now apply start_inv.
  Qed.

  (** The nodes that can be reached *)
  Lemma reached P d : finished g s copy P d -> forall x, along (left_edges d) (root g) x ->
    exists t n, In n (sseen d) /\ (t = true -> splitting_at g s P n = true) /\ x = place copy t n.
  Proof.
    intros F x H. induction H as [|x l y H IH Hy].
    - exists false, (root g). split; [apply F|]. split; [discriminate|reflexivity].
    - destruct IH as (t & n & H1 & H2 & ->).
      assert (Q : In (l, y) (flat_map (arriving g s copy P (if t then prp d (copy n) else P n))
                    (departing g s P (if t then out_cata s else out_ana s) n))).
      { destruct t; simpl in Hy.
        - exact (Permutation_in _ (f_cata F n H1 (H2 eq_refl)) Hy).
        - exact (Permutation_in _ (f_ana F n H1) Hy). }
      apply in_flat_map in Q as ([l' m] & Q1 & Q2). assert (Hm := f_closed F _ l' m H1 H2 Q1).
      unfold arriving in Q2. simpl in Q2. destruct (splitting_at g s P m) eqn:Em.
      + apply in_app_or in Q2 as [Q2|Q2]; unfold relabeled in Q2.
        * destruct (fst (tpred _ _ _ _)) in Q2; [|destruct Q2]. destruct Q2 as [[= _ <-]|[]]. exists false, m. repeat split; auto; discriminate.
        * destruct (fst (tpred _ _ _ _)) in Q2; [|destruct Q2]. destruct Q2 as [[= _ <-]|[]]. exists true, m. repeat split; auto.
      + destruct Q2 as [[= _ <-]|[]]. exists false, m. repeat split; auto; discriminate.
  Qed.

  Lemma finished_result P d nodes : finished g s copy P d -> NoDup nodes ->
    (forall x, In x nodes <-> along (left_edges d) (root g) x) ->
    split_result g s copy P (fun n => prp d (copy n)) (mkGraph nodes (vtx d) (left_edges d) (root g)).
  Proof.
    intros F N Hn. constructor; simpl; auto.
    - constructor; simpl; auto.
      + apply Hn. constructor.
      + intros x l y Hx Hy. apply Hn. apply Hn in Hx. econstructor; eauto.
      + intros x Hx. apply along_path. now apply Hn in Hx.
    - intros x Hx. apply Hn in Hx. destruct (reached F Hx) as (t & n & H1 & H2 & ->). destruct t; simpl.
      + right. exists n. split; [now apply F|]. split; auto. split; auto. split.
        * now apply (f_copy F n H1 (H2 eq_refl)).
        * now apply F, H2.
      + left. split; [now apply F|]. split; now apply F.
  Qed.

  Lemma split_ok i P sv st order : never_killed kills ->
    ran (lanes X) (sdest X) (splitting X s vertex_limit copy (in_pass X kills i)) (vstart (sstart X g P sv)) (Visits (root g) None) st ->
    Permutation order (seq 0 (lanes X)) -> pass_status order st = None ->
    finished g s copy P (data st).
  Proof.
    intros K R Ho St. apply ran_completes in R; [|now apply vdest_lt].
    assert (V : vstatus (in_pass X kills i) order st = None) by (eapply pass_unkilled; eauto; intros k; apply K).
    apply visit_success with (order := order) in R as (vis & R); auto.
    - eapply split_serial; eauto.
    - intros k k' H. apply Nat.eqb_eq in H. now subst.
    - intros q. now apply lane_of_lt.
  Qed.

  (** *** C29 *)
  Theorem C29_splitting h : never_killed kills -> back_edges (sp_prop s) g ins ->
    splits X g ins s vertex_limit owned copy kills (Some h, None) ->
    exists P D,
      (forall n, In n (ids g) -> true_property (sp_prop s) g n (P n)) /\
      split_result g s copy P D h /\
      (forall n, In (copy n) (ids h) -> In n (ids g) -> copy_value g s P n (D n)) /\
      (forall n, In n (ids g) -> In n (ids h) \/ In (copy n) (ids h) -> calm_node g s P n /\ calm_edges g s P D n).
  Proof.
    intros K B H. inversion H as [|sp order sv order' st order'' e R1 O1 S1 R2 O2 S2 R3 O3 S3 E|
                                 sp order sv order' st order'' sq order3 R1 O1 S1 R2 O2 S2 R3 O3 S3 R4 O4 E].
    clear H. assert (F := split_ok K R3 O3 S3).
    destruct (pruned g Hl K R4) as (Q1 & Q2 & Q3 & Q4 & _).
    assert (Eh : h = mkGraph (queued X sq) (vtx (data st)) (left_edges (data st)) (root g)).
    { destruct (split_status X owned copy kills (data sv) (data st) order3 sq); [discriminate|]. now injection E as <-. }
    subst h. clear E. rewrite Q3.
    assert (Rd : forall x, In x (data sq) -> exists t n, In n (sseen (data st)) /\ (t = true -> splitting_at g s (data sp) n = true) /\ x = place copy t n).
    { intros x Hx. apply (reached F). now apply Q2. }
    exists (data sp), (fun n => prp (data st) (copy n)). split; [|split; [|split]].
    - exact (set_ok Hl W K R1 O1 S1 B).
    - apply finished_result; auto.
    - simpl. intros n Hx Hn. destruct (Rd _ Hx) as (t & m & H1 & H2 & E). assert (Hm := f_seen F m H1). destruct t; simpl in E.
      + rewrite (Cinj Hn Hm E). apply (f_copy F m H1 (H2 eq_refl)).
      + exfalso. apply (Cnew _ Hn). now rewrite E.
    - simpl. intros n Hn Hx. apply (f_calm F). destruct Hx as [Hx|Hx]; destruct (Rd _ Hx) as (t & m & H1 & H2 & E); assert (Hm := f_seen F m H1); destruct t; simpl in E.
      + exfalso. apply (Cnew _ Hm). now rewrite <- E.
      + now subst.
      + now rewrite (Cinj Hn Hm E).
      + exfalso. apply (Cnew _ Hn). now rewrite E.
  Qed.
End End.

(** *** The result does not depend on the schedule if the properties depend only on the vertices. *)
Lemma value_of_vertex p v I I' o o' w w' :
  empty_fold (incident p) = true -> empty_fold (outgoing p) = true ->
  has_value p v I o w -> has_value p v I' o' w' -> w = w'.
Proof.
  intros E1 E2 (a & a1 & a2 & A & _) (b & b1 & b2 & B & _).
  assert (E : mapped_node p v I o fresh = mapped_node p v I' o' fresh).
  { unfold mapped_node, folded. now rewrite E1, E2. }
  rewrite A, B in E. now injection E.
Qed.

Section Determined.
  Variable g : graph word word.
  Variable s : splitter.
  Variable copy : nat -> nat.
  Hypothesis W : wf g.
  Hypothesis Cinj : forall n m, In n (ids g) -> In m (ids g) -> copy n = copy m -> n = m.
  Hypothesis Cnew : forall n, In n (ids g) -> ~ In (copy n) (ids g).
  Variables P P' D D' : nat -> word.
  Hypothesis EP : forall n, In n (ids g) -> P n = P' n.

  Lemma same_splitting n : In n (ids g) -> splitting_at g s P n = splitting_at g s P' n.
  Proof. intros H. unfold splitting_at. now rewrite EP. Qed.
  Lemma same_departing t n : In n (ids g) -> departing g s P t n = departing g s P' t n.
  Proof.
    intros H. unfold departing. rewrite (same_splitting _ H). destruct (splitting_at g s P' n); auto.
    apply flat_map_same. intros [l m] He. simpl. assert (In m (ids g)) by (eapply wf_closed; eauto).
    now rewrite (EP _ H), (EP _ H0).
  Qed.
  Lemma departing_in t n l m : In n (ids g) -> In (l, m) (departing g s P t n) -> In m (ids g).
  Proof.
    intros H B. unfold departing in B. destruct (splitting_at g s P n).
    - apply in_flat_map in B as ([l' m'] & B1 & B2). simpl in B2. unfold relabeled in B2.
      destruct (fst (tpred _ _ _ _)) in B2; [|destruct B2]. destruct B2 as [[= _ <-]|[]]. eapply wf_closed; eauto.
    - eapply wf_closed; eauto.
  Qed.
  Lemma same_edges t n w : In n (ids g) ->
    flat_map (arriving g s copy P w) (departing g s P t n) = flat_map (arriving g s copy P' w) (departing g s P' t n).
  Proof.
    intros H. rewrite <- (same_departing t _ H). apply flat_map_same. intros [l m] He.
    apply departing_in in He; auto. unfold arriving. simpl. rewrite (same_splitting _ He). now rewrite (EP _ He).
  Qed.

  Lemma result_incl h h' : split_result g s copy P D h -> split_result g s copy P' D' h' ->
    (forall n, In n (ids g) -> In (copy n) (ids h) -> In (copy n) (ids h') -> D n = D' n) ->
    forall x, In x (ids h) -> In x (ids h') /\ vx h x = vx h' x /\ Permutation (es h x) (es h' x).
  Proof.
    intros R R' ED.
    assert (G : forall x, In x (ids h) -> In x (ids h') -> vx h x = vx h' x /\ Permutation (es h x) (es h' x)).
    { intros x Hx Hx'. destruct (sr_node R x Hx) as [(A1 & A2 & A3)|(n & A1 & A2 & A3 & A4 & A5)];
        destruct (sr_node R' x Hx') as [(B1 & B2 & B3)|(m & B1 & B2 & B3 & B4 & B5)].
      - rewrite A2, B2, A3, B3. unfold new_vertex, ana_vertex. rewrite (same_splitting _ A1), (EP _ A1). split; auto.
        unfold edges_from_ana. rewrite (same_edges _ _ _ A1). now rewrite (EP _ A1).
      - exfalso. apply (Cnew _ B1). now rewrite <- B3.
      - exfalso. apply (Cnew _ A1). now rewrite <- A3.
      - assert (n = m) by (apply Cinj; auto; congruence). subst m. subst x. rewrite A4, B4, A5, B5.
        unfold cata_vertex. rewrite (EP _ A1). split; auto.
        unfold edges_from_cata. rewrite (same_edges _ _ _ A1). now rewrite (ED n A1 Hx Hx'). }
    assert (I : forall x, In x (ids h) -> In x (ids h')).
    { intros x Hx. apply (along_ids _ (sr_wf R)) in Hx. induction Hx as [|x l y Hx IH Hy].
      - rewrite (sr_root R), <- (sr_root R'). apply (wf_root (sr_wf R')).
      - apply (along_ids _ (sr_wf R)) in Hx. destruct (G x Hx IH) as [_ B].
        eapply (wf_closed (sr_wf R')); [exact IH|]. exact (Permutation_in _ B Hy). }
    intros x Hx. split; auto.
  Qed.
End Determined.

Section Same.
  Variable g : graph word word.
  Variable s : splitter.
  Variable copy : nat -> nat.
  Hypothesis W : wf g.
  Hypothesis Cinj : forall n m, In n (ids g) -> In m (ids g) -> copy n = copy m -> n = m.
  Hypothesis Cnew : forall n, In n (ids g) -> ~ In (copy n) (ids g).

  (** [X'], the bound and the moment of kill requests may also differ. *)
  Theorem C29_schedule_is_immaterial X X' ins ins' limit limit' owned owned' kills kills' h h' :
    0 < lanes X -> 0 < lanes X' -> never_killed kills -> never_killed kills' ->
    empty_fold (incident (sp_prop s)) = true -> empty_fold (outgoing (sp_prop s)) = true ->
    splits X g ins s limit owned copy kills (Some h, None) ->
    splits X' g ins' s limit' owned' copy kills' (Some h', None) ->
    Permutation (ids h) (ids h') /\ root h = root h' /\
    forall x, In x (ids h) -> vx h x = vx h' x /\ Permutation (es h x) (es h' x).
  Proof.
    intros Hl Hl' K K' E1 E2 H H'.
    destruct (C29_splitting Hl W Cinj Cnew K (or_introl E1) H) as (P & D & A1 & A2 & A3 & _).
    destruct (C29_splitting Hl' W Cinj Cnew K' (or_introl E1) H') as (P' & D' & B1 & B2 & B3 & _).
    assert (EP : forall n, In n (ids g) -> P n = P' n).
    { intros n Hn. destruct (A1 n Hn) as (I & _ & V). destruct (B1 n Hn) as (I' & _ & V'). eapply value_of_vertex; eauto. }
    assert (ED : forall n, In n (ids g) -> In (copy n) (ids h) -> In (copy n) (ids h') -> D n = D' n).
    { intros n Hn Hx Hx'. destruct (A3 n Hx Hn) as (v & _ & _ & V). destruct (B3 n Hx' Hn) as (v' & _ & _ & V').
      unfold cata_vertex in *. rewrite (EP n Hn) in V. eapply value_of_vertex; eauto. }
    assert (Q := result_incl W Cinj Cnew EP A2 B2 ED).
    assert (Q' := result_incl W Cinj Cnew (fun n H => eq_sym (EP n H)) B2 A2 (fun n H X Y => eq_sym (ED n H Y X))).
    split; [|split].
    - apply NoDup_Permutation; [apply (wf_nodup (sr_wf A2))|apply (wf_nodup (sr_wf B2))|].
      intros x. split; intros Hx; [now apply Q|now apply Q'].
    - now rewrite (sr_root A2), (sr_root B2).
    - intros x Hx. now apply Q.
  Qed.
End Same.

(** ** Errors and termination *)
(** What the functions of the user, or the computation of a property by them, report *)
Definition labeler_error (t : labeler) (e : error) : Prop :=
  exists x l y, snd (tpred t x l y) = Some e \/ snd (top t x l y) = Some e.
Definition reported (s : splitter) (e : error) : Prop :=
  (exists v w, snd (fissile s v w) = Some e \/ snd (ana s v w) = Some e \/ snd (cata s v w) = Some e) \/
  (exists v i o w t t1 t2, mapped_node (sp_prop s) v i o fresh = (w, (t, t1, t2)) /\ err t = Some e) \/
  labeler_error (in_ana s) e \/ labeler_error (in_cata s) e \/ labeler_error (out_ana s) e \/ labeler_error (out_cata s) e.

Lemma labels_error a c x l y e : snd (labels a c x l y) = Some e -> labeler_error a e \/ labeler_error c e.
Proof.
  unfold labels, labeler_error. destruct (tpred a x l y) as [p [e1|]] eqn:E1.
  { simpl. intros [= ->]. left. exists x, l, y. rewrite E1. auto. }
  destruct p.
  - destruct (top a x l y) as [u [e2|]] eqn:E2. { simpl. intros [= ->]. left. exists x, l, y. rewrite E2. auto. }
    destruct (tpred c x l y) as [q [e3|]] eqn:E3. { simpl. intros [= ->]. right. exists x, l, y. rewrite E3. auto. }
    destruct q; [|discriminate].
    destruct (top c x l y) as [w [e4|]] eqn:E4; [|discriminate]. simpl. intros [= ->]. right. exists x, l, y. rewrite E4. auto.
  - destruct (tpred c x l y) as [q [e3|]] eqn:E3. { simpl. intros [= ->]. right. exists x, l, y. rewrite E3. auto. }
    destruct q; [|discriminate].
    destruct (top c x l y) as [w [e4|]] eqn:E4; [|discriminate]. simpl. intros [= ->]. right. exists x, l, y. rewrite E4. auto.
Qed.

Lemma fan_error s P n l e : snd (fan s P n l) = Some e -> labeler_error (out_ana s) e \/ labeler_error (out_cata s) e.
Proof.
  induction l as [|[t [x m]] l IH]; simpl; [discriminate|].
  destruct (labels (out_ana s) (out_cata s) (P n) x (P m)) as [[a c] [e1|]] eqn:E.
  - simpl. intros [= ->]. apply (labels_error _ _ (P n) x (P m)). now rewrite E.
  - destruct (fan s P n l) as [[la lc] e2]. simpl in *. auto.
Qed.

Definition within (l' l : list sedge) : Prop :=
  length l' <= length l /\ (forall i, In i (tags l') -> In i (tags l)) /\ (NoDup (tags l) -> NoDup (tags l')) /\
  (forall y, In y l' -> exists y', In y' l /\ snd (snd y) = snd (snd y')).
Lemma fan_within s P n l : forall la lc e, fan s P n l = (la, lc, e) -> within la l /\ within lc l.
Proof.
  induction l as [|[t [x m]] l IH]; simpl; intros la lc e H.
  - injection H as <- <- _. split; (split; [auto|]); (split; [auto|]); (split; [auto|]); intros y [].
  - destruct (labels _ _ _ _ _) as [[a c] [e1|]].
    { injection H as <- <- _. split; (split; [simpl; lia|]); (split; [simpl; tauto|]); (split; [auto|]).
      - eauto.
      - constructor.
      - intros y []. }
    destruct (fan s P n l) as [[la0 lc0] e0]. injection H as <- <- _.
    destruct (IH _ _ _ eq_refl) as [(A1 & A2 & A3 & A4) (B1 & B2 & B3 & B4)].
    assert (T : forall w z, tags ((t, (w, m)) :: z) = tags [(t, (x, m))] ++ tags z) by (intros; destruct t; reflexivity).
    assert (Tx : forall w, tags [(t, (w, m))] = tags [(t, (x, m))]) by (intros; destruct t; reflexivity).
    unfold within, sedge, edge in *. split.
    + destruct a as [w|].
      * split; [simpl; lia|]. split; [|split].
        -- intros i. rewrite (T w la0), (T x l), !in_app_iff. intuition.
        -- rewrite (T w la0), (T x l). destruct t as [j|]; simpl; auto. intros N. inversion N; subst. constructor; auto.
        -- intros y [<-|Hy]; [eexists; split; [now left|reflexivity]|]. destruct (A4 y Hy) as (y' & ? & ?). exists y'. simpl. auto.
      * split; [simpl; lia|]. split; [|split].
        -- intros i Hi. rewrite (T x l), in_app_iff. auto.
        -- rewrite (T x l). destruct t as [j|]; simpl; auto. intros N. inversion N; subst. auto.
        -- intros y Hy. destruct (A4 y Hy) as (y' & ? & ?). exists y'. simpl. auto.
    + destruct c as [w|].
      * split; [rewrite app_length; simpl; lia|]. split; [|split].
        -- intros i. rewrite tags_app, (Tx w), (T x l), !in_app_iff. intuition.
        -- rewrite tags_app, (Tx w), (T x l). destruct t as [j|]; simpl; [|now rewrite app_nil_r].
           intros N. inversion N; subst. apply NoDup_app_intro; auto; [repeat constructor; intros []|].
           intros i Hi [<-|[]]. auto.
        -- intros y Hy. apply in_app_or in Hy as [Hy|[<-|[]]].
           ++ destruct (B4 y Hy) as (y' & ? & ?). exists y'. simpl. auto.
           ++ eexists; split; [now left|reflexivity].
      * rewrite app_nil_r. split; [simpl; lia|]. split; [|split].
        -- intros i Hi. rewrite (T x l), in_app_iff. auto.
        -- rewrite (T x l). destruct t as [j|]; simpl; auto. intros N. inversion N; subst. auto.
        -- intros y Hy. destruct (B4 y Hy) as (y' & ? & ?). exists y'. simpl. auto.
Qed.

Lemma scatter_keys d n : keys (scatter_out d n) = map (pair n) (tags (outs d n)).
Proof.
  unfold scatter_out, keys, tags. induction (outs d n) as [|[[i|] e] l IH]; simpl; auto. now rewrite IH.
Qed.
Lemma set_edge_tags i e l : tags (set_edge i e l) = tags l.
Proof.
  unfold set_edge, tags. induction l as [|[t e'] l IH]; simpl; auto. rewrite IH. f_equal. destruct (at_tag i (t, e')); auto.
Qed.
Lemma addressed_tags l : tags (addressed l) = seq 0 (length l).
Proof. rewrite addressed_some, tags_some. apply tagged_fst. Qed.
Lemma in_tags_find i l : In i (tags l) -> exists e, In (Some i, e) l.
Proof.
  unfold tags. intros H. apply in_flat_map in H as ([[j|] e] & H1 & H2); [|destruct H2]. destruct H2 as [<-|[]]. eauto.
Qed.
Lemma addressed_length l : length (addressed l) = length l.
Proof. unfold addressed. rewrite map_length. rewrite <- (map_length fst), tagged_fst, seq_length. reflexivity. Qed.
Lemma addressed_target l y : In y (addressed l) -> In (snd y) l.
Proof.
  unfold addressed. intros H. apply in_map_iff in H as (x & <- & H). simpl. rewrite <- (tagged_snd l). now apply in_map.
Qed.
Lemma existsb_in n l : existsb (Nat.eqb n) l = true <-> In n l.
Proof.
  rewrite existsb_exists. split.
  - intros (m & H & E). apply Nat.eqb_eq in E. now subst.
  - intros H. exists n. split; auto. apply Nat.eqb_refl.
Qed.
Lemma existsb_out n l : existsb (Nat.eqb n) l = false <-> ~ In n l.
Proof. rewrite <- existsb_in. destruct (existsb (Nat.eqb n) l); intuition congruence. Qed.

Section Safe.
  Variable X : env.
  Variable g : graph word word.
  Variable s : splitter.
  Variable vertex_limit : nat.
  Variable copy : nat -> nat.
  Hypothesis W : wf g.
  Hypothesis Cinj : forall n m, In n (ids g) -> In m (ids g) -> copy n = copy m -> n = m.
  Hypothesis Cnew : forall n, In n (ids g) -> ~ In (copy n) (ids g).

  Definition placed (d : sdata) (x : nat) : Prop := exists t n, In n (sseen d) /\ x = place copy t n.

  Record safe (d : sdata) (b : list spkt) : Prop := {
    a_seen : forall n, In n (sseen d) -> In n (ids g);
    a_dopp : forall n, In n (dopp d) -> In n (sseen d);
    a_unseen : forall n, In n (ids g) -> ~ In n (sseen d) -> outs d n = addressed (es g n);
    a_tags : forall x, NoDup (tags (outs d x));
    a_keys : NoDup (keys b);
    a_key : forall x i, In (x, i) (keys b) -> In i (tags (outs d x)) /\ placed d x;
    a_conn : forall x e, In (Connects x e) b -> placed d x;
    a_visit : forall n o, In (Visits n o) b -> In n (ids g)
  }.

  Lemma safe_perm d b b' : Permutation b b' -> safe d b -> safe d b'.
  Proof.
    intros H I. assert (Hk : Permutation (keys b) (keys b')) by (apply (Permutation_flat_map _ H)).
    constructor; try apply I.
    - exact (Permutation_NoDup Hk (a_keys I)).
    - intros x i B. apply (a_key I x i). exact (Permutation_in _ (Permutation_sym Hk) B).
    - intros x e B. apply (a_conn I x e). exact (Permutation_in _ (Permutation_sym H) B).
    - intros n o B. apply (a_visit I n o). exact (Permutation_in _ (Permutation_sym H) B).
  Qed.

  Lemma placed_old d n x : safe d [] -> In n (ids g) -> ~ In n (sseen d) -> placed d x -> x <> n /\ x <> copy n.
  Proof.
    intros I Hn Hu (t & m & H1 & ->). assert (Hm := a_seen I m H1). destruct t; simpl; split.
    - intros E. apply (Cnew _ Hm). now rewrite E.
    - intros E. apply Hu. now rewrite <- (Cinj Hm Hn E).
    - intros ->. contradiction.
    - intros E. apply (Cnew _ Hn). now rewrite <- E.
  Qed.
  Lemma safe_nil d b : safe d b -> safe d [].
  Proof. intros I. constructor; try apply I; try (intros; contradiction). constructor. Qed.

  Lemma grow_safe d d1 b m o1 :
    safe d b -> In m (ids g) -> ~ In m (sseen d) ->
    sseen d1 = m :: sseen d -> (forall n, In n (dopp d1) -> In n (sseen d1)) ->
    (forall x, x <> m -> x <> copy m -> outs d1 x = outs d x) -> NoDup (tags (outs d1 m)) -> NoDup (tags (outs d1 (copy m))) ->
    NoDup (keys o1) -> (forall x i, In (x, i) (keys o1) -> (x = m \/ x = copy m) /\ In i (tags (outs d1 x))) ->
    (forall x e, ~ In (Connects x e) o1) -> (forall n o, In (Visits n o) o1 -> In n (ids g)) ->
    safe d1 (o1 ++ b).
  Proof.
    intros I Hm Hu E1 E2 E3 T1 T2 N K C V.
    assert (Pl : forall x, placed d x -> placed d1 x).
    { intros x (t & n & B & ->). exists t, n. rewrite E1. simpl. auto. }
    assert (Old := fun x => @placed_old d m x (safe_nil I) Hm Hu).
    constructor.
    - intros n. rewrite E1. intros [<-|B]; auto. now apply I.
    - exact E2.
    - intros n Hn B. rewrite E1 in B. rewrite E3.
      + apply I; auto. intros B'. apply B. now right.
      + intros ->. apply B. now left.
      + intros ->. now apply (Cnew _ Hm).
    - intros x. destruct (Nat.eq_dec x m) as [->|H1]; auto. destruct (Nat.eq_dec x (copy m)) as [->|H2]; auto.
      rewrite E3 by auto. apply I.
    - rewrite keys_app. apply NoDup_app_intro; auto; [apply I|]. intros [x i] B1 B2.
      apply K in B1 as [B1 _]. destruct (a_key I x i B2) as [_ B3]. destruct (Old x B3) as [A1 A2]. destruct B1; auto.
    - intros x i. rewrite keys_app, in_app_iff. intros [B|B].
      + destruct (K x i B) as [[->| ->] B']; split; auto.
        * exists false, m. rewrite E1. simpl. auto.
        * exists true, m. rewrite E1. simpl. auto.
      + destruct (a_key I x i B) as [B1 B2]. destruct (Old x B2) as [A1 A2]. rewrite E3 by auto. auto.
    - intros x e B. apply in_app_or in B as [B|B]; [now apply C in B|]. apply Pl. eapply a_conn; eauto.
    - intros n o B. apply in_app_or in B as [B|B]; [eauto|]. eapply a_visit; eauto.
  Qed.

  Definition weight (p : spkt) : nat := match p with Visits _ _ => 2 | _ => 1 end.
  Definition weights (b : list spkt) : nat := list_sum (map weight b).
  Definition unseen (d : sdata) : nat :=
    list_sum (map (fun n => if existsb (Nat.eqb n) (sseen d) then 0 else 2 + 4 * length (es g n)) (ids g)).
  Lemma weights_app b b' : weights (b ++ b') = weights b + weights b'.
  Proof. unfold weights. now rewrite map_app, list_sum_app. Qed.
  Lemma scatter_weights d n : weights (scatter_out d n) = 2 * length (outs d n).
  Proof. unfold weights, scatter_out. induction (outs d n) as [|y l IH]; simpl; auto. simpl in IH. rewrite IH. lia. Qed.

  Lemma fan_out_safe d b m d1 o1 e : safe d b -> In m (ids g) -> ~ In m (sseen d) ->
    fan_out s copy (marked_seen d m) m = (d1, o1, e) ->
    safe d1 (o1 ++ b) /\ In m (sseen d1) /\ sseen d1 = m :: sseen d /\ (forall e', e = Some e' -> reported s e') /\
    weights o1 <= 1 + 4 * length (es g m).
  Proof.
    intros I Hm Hu H. assert (Eo := a_unseen I m Hm Hu).
    assert (T : forall x, NoDup (tags (outs d x))) by apply I.
    assert (Nc : m <> copy m) by (intros E; apply (Cnew _ Hm); now rewrite <- E).
    assert (Dp : forall n, In n (dopp d) -> m = n \/ In n (sseen d)) by (intros n B; right; now apply I).
    assert (Quiet : forall d2 o2, d2 = marked_seen d m -> o2 = [] -> safe d2 (o2 ++ b) /\ In m (sseen d2) /\ sseen d2 = m :: sseen d).
    { intros d2 o2 -> ->. split; [|simpl; auto]. eapply grow_safe with (m := m); eauto; try (simpl; auto; fail); try (now constructor); now intros ? ?. }
    unfold fan_out in H. cbn [marked_seen vtx prp outs sseen dopp counts] in H.
    destruct (fissile s (vtx d m) (prp d m)) as [[] [e0|]] eqn:Ef.
    - injection H as <- <- <-. destruct (Quiet _ _ eq_refl eq_refl) as (A & B & C). split; [exact A|split; [exact B|split; [exact C|split; [|unfold weights, list_sum; simpl; lia]]]].
      intros e' [= <-]. left. exists (vtx d m), (prp d m). rewrite Ef. auto.
    - destruct (cata s (vtx d m) (prp d m)) as [t [e0|]] eqn:Ec.
      { injection H as <- <- <-. destruct (Quiet _ _ eq_refl eq_refl) as (A & B & C). split; [exact A|split; [exact B|split; [exact C|split; [|unfold weights, list_sum; simpl; lia]]]].
        intros e' [= <-]. left. exists (vtx d m), (prp d m). rewrite Ec. auto. }
      destruct (copy_property s (marked_seen d m) m t) as [q [e0|]] eqn:Eq.
      { injection H as <- <- <-. destruct (Quiet _ _ eq_refl eq_refl) as (A & B & C). split; [exact A|split; [exact B|split; [exact C|split; [|unfold weights, list_sum; simpl; lia]]]].
        intros e' [= <-]. right. left. unfold copy_property, outcome_of in Eq.
        destruct (mapped_node _ _ _ _ _) as [w [[z z1] z2]] eqn:Em in Eq. injection Eq as <- Ez.
        exists t, [], (map (fun y => (fst (snd y), vtx (marked_seen d m) (snd (snd y)))) (outs (marked_seen d m) m)), w, z, z1, z2. auto. }
      destruct (ana s (vtx d m) (prp d m)) as [u [e0|]] eqn:Ea.
      { injection H as <- <- <-. split; [|split; [simpl; auto|split; [reflexivity|split; [|unfold weights, list_sum; simpl; lia]]]].
        - eapply grow_safe with (m := m); eauto; try (simpl; auto; fail).
          + constructor.
          + intros x i [].
          + simpl. intros x e' [E|[]]. discriminate.
          + simpl. intros n o [E|[]]. discriminate.
        - intros e' [= <-]. left. exists (vtx d m), (prp d m). rewrite Ea. auto. }
      destruct (fan s (prp d) m (outs d m)) as [[la lc] e0] eqn:Eg.
      assert (Er : forall e', e0 = Some e' -> reported s e').
      { intros e' ->. right. right. right. right. apply (@fan_error s (prp d) m (outs d m)). now rewrite Eg. }
      destruct (fan_within _ _ _ _ Eg) as [(A1 & A2 & A3 & A4) (B1 & B2 & B3 & B4)].
      assert (Tg : forall y, In y (outs d m) -> In (snd (snd y)) (ids g)).
      { intros y Hy. rewrite Eo in Hy. apply addressed_target in Hy. destruct y as [? [l k]]. simpl in *. eapply wf_closed; eauto. }
      assert (Ln : length (outs d m) = length (es g m)) by (rewrite Eo; apply addressed_length).
      injection H as <- <- <-.
      set (d' := mkSD _ _ _ _ _ _).
      assert (O1 : outs d' m = la) by (unfold d'; simpl; apply upd_same).
      assert (O2 : outs d' (copy m) = lc) by (unfold d'; simpl; rewrite upd_diff by auto; apply upd_same).
      split; [|split; [simpl; auto|split; [reflexivity|split; [exact Er|]]]].
      + eapply grow_safe with (m := m); eauto.
        * simpl. intros n [<-|B]; auto.
        * intros x H1 H2. unfold d'. simpl. now rewrite !upd_diff by auto.
        * rewrite O1. auto.
        * rewrite O2. auto.
        * destruct e0; [constructor|]. change (NoDup (keys (scatter_out d' (copy m) ++ scatter_out d' m))).
          rewrite keys_app, !scatter_keys, O1, O2.
          apply NoDup_app_intro; try (apply FinFun.Injective_map_NoDup; [intros a c E; congruence|auto]).
          intros [x i] C1 C2. apply in_map_iff in C1 as (? & [= <- _] & _), C2 as (? & [= E _] & _). auto.
        * intros x i C. destruct e0; [destruct C|]. change (In (x, i) (keys (scatter_out d' (copy m) ++ scatter_out d' m))) in C.
          rewrite keys_app, !scatter_keys in C. apply in_app_or in C as [C|C]; apply in_map_iff in C as (j & [= <- <-] & C); auto.
        * intros x e' [C|C]; [discriminate|]. destruct e0; [destruct C|]. unfold scatter_out in C.
          apply in_app_or in C as [C|C]; apply in_map_iff in C as (? & ? & _); discriminate.
        * intros n o [C|C]; [discriminate|]. destruct e0; [destruct C|]. unfold scatter_out in C. rewrite O1, O2 in C.
          apply in_app_or in C as [C|C]; apply in_map_iff in C as (y & [= <- _] & C).
          -- destruct (B4 y C) as (y' & C1 & ->). auto.
          -- destruct (A4 y C) as (y' & C1 & ->). auto.
      + change (1 + weights (match e0 with Some _ => [] | None => scatter_out d' (copy m) ++ scatter_out d' m end) <= 1 + 4 * length (es g m)).
        destruct e0; [unfold weights, list_sum; simpl; lia|]. rewrite weights_app, !scatter_weights, O1, O2. unfold sedge, edge in *. lia.
    - injection H as <- <- <-. destruct (Quiet _ _ eq_refl eq_refl) as (A & B & C). split; [exact A|split; [exact B|split; [exact C|split; [|unfold weights, list_sum; simpl; lia]]]].
      intros e' [= <-]. left. exists (vtx d m), (prp d m). rewrite Ef. auto.
    - injection H as <- <- <-. split; [|split; [simpl; auto|split; [reflexivity|split; [discriminate|]]]].
      + eapply grow_safe with (m := m); eauto; try (simpl; auto; fail).
        * rewrite scatter_keys. simpl. apply FinFun.Injective_map_NoDup; [intros a c E; congruence|auto].
        * intros x i C. rewrite scatter_keys in C. apply in_map_iff in C as (j & [= <- <-] & C). auto.
        * intros x e' C. unfold scatter_out in C. apply in_map_iff in C as (? & ? & _); discriminate.
        * intros n o C. unfold scatter_out in C. apply in_map_iff in C as (y & [= <- _] & C). simpl in C. rewrite Eo in C.
          apply addressed_target in C. destruct y as [? [l k]]. simpl in *. eapply wf_closed; eauto.
      + rewrite scatter_weights. simpl outs. rewrite Eo. unfold sedge in *. rewrite addressed_length. unfold edge. lia.
  Qed.

  Lemma with_edges_safe d b b' x l : safe d b -> placed d x ->
    NoDup (tags l) -> NoDup (keys b') -> (forall y i, In (y, i) (keys b') -> In (y, i) (keys b) /\ (y = x -> In i (tags l))) ->
    (forall y e, In (Connects y e) b' -> y = x \/ In (Connects y e) b) -> (forall n o, In (Visits n o) b' -> In (Visits n o) b) ->
    safe (with_edges d x l) b'.
  Proof.
    intros I Px T N K C V. constructor; cbn [with_edges vtx prp outs sseen dopp counts]; auto.
    - apply I.
    - apply I.
    - intros n Hn Hu. rewrite upd_diff; [now apply I|]. intros ->. exact (proj1 (@placed_old d x x (safe_nil I) Hn Hu Px) eq_refl).
    - intros y. unfold upd. destruct (y =? x); auto. apply I.
    - intros y i B. destruct (K y i B) as [B1 B2]. destruct (a_key I y i B1) as [B3 B4]. split; [|exact B4].
      unfold upd. destruct (Nat.eqb_spec y x) as [->|]; auto.
    - intros y e B. destruct (C y e B) as [->|B']; [exact Px|]. exact (a_conn I y e B').
    - intros n o B. apply V in B. now apply (a_visit I n o).
  Qed.

  Lemma drop_safe d p b : safe d (p :: b) -> safe d b.
  Proof.
    intros I. change (p :: b) with ([p] ++ b) in I. constructor; try apply I.
    - assert (N := a_keys I). rewrite keys_app in N. now apply NoDup_app_r in N.
    - intros x i B. apply (a_key I x i). rewrite keys_app, in_app_iff. auto.
    - intros x e B. apply (a_conn I x e). now right.
    - intros n o B. apply (a_visit I n o). now right.
  Qed.

  Lemma fan_in_safe d b m o d2 o2 e : safe d (Visits m o :: b) -> fan_in s copy d m o = (d2, o2, e) ->
    safe d2 (o2 ++ b) /\ sseen d2 = sseen d /\ (forall e', e = Some e' -> reported s e') /\ weights o2 <= 1.
  Proof.
    intros I H. assert (I0 := drop_safe I). unfold fan_in in H.
    destruct (negb (existsb (Nat.eqb m) (dopp d))).
    { injection H as <- <- <-. split; [exact I0|split; [reflexivity|split; [discriminate|unfold weights, list_sum; simpl; lia]]]. }
    destruct o as [[x i]|].
    2:{ injection H as <- <- <-. split; [exact I0|split; [reflexivity|split; [discriminate|unfold weights, list_sum; simpl; lia]]]. }
    destruct (a_key I x i (or_introl eq_refl)) as [Hi Px].
    destruct (in_tags_find _ _ Hi) as ([l0 m0] & Hx).
    destruct (tag_split _ _ _ (a_tags I x) Hx) as (l1 & l2 & El & Efd & _ & _). rewrite Efd in H.
    assert (N := a_keys I). change (NoDup ((x, i) :: keys b)) in N. inversion N as [|k0 ks N1 N2]; subst.
    assert (S : forall e' b', NoDup (keys b') -> (forall k, In k (keys b') -> In k ((x, i) :: keys b)) ->
      (forall y z, In (Connects y z) b' -> y = x \/ In (Connects y z) b) -> (forall n o, In (Visits n o) b' -> In (Visits n o) b) ->
      safe (with_edges d x (set_edge i e' (outs d x))) b').
    { intros e' b' B1 B2 B3 B4. apply with_edges_safe with (b := Visits m (Some (x, i)) :: b); auto.
      - rewrite set_edge_tags. apply I.
      - intros y j C. rewrite set_edge_tags. split; [exact (B2 _ C)|]. intros ->. apply (a_key I x j). exact (B2 _ C).
      - intros y z C. destruct (B3 y z C); auto. right. now right.
      - intros n o C. right. eauto. }
    assert (Er : forall e', snd (labels (in_ana s) (in_cata s) (prp d x) l0 (prp d m)) = Some e' -> reported s e').
    { intros e' B. apply labels_error in B as [B|B]; unfold reported; auto. }
    destruct (labels (in_ana s) (in_cata s) (prp d x) l0 (prp d m)) as [[[u|] [w|]] [e0|]] eqn:Elb; injection H as <- <- <-;
      (split; [|split; [reflexivity|split; [|unfold weights, list_sum; simpl; lia]]]); try discriminate; try exact I0;
      try (intros e' [= <-]; apply Er; reflexivity);
      apply S; simpl; auto; try (intros; right; auto; fail).
    - intros y z [[= <- _]|B]; auto.
    - intros n o [B|B]; [discriminate|auto].
    - intros y z [B|B]; [discriminate|auto].
    - intros n o [B|B]; [discriminate|auto].
  Qed.

  Lemma step_safe d p b d' out e : safe d (p :: b) -> split_step X s vertex_limit copy d p = (d', out, e) ->
    safe d' (out ++ b) /\ (forall e', e = Some e' -> reported s e' \/ e' = INTOVF /\ 0 < vertex_limit) /\
    weights out + unseen d' < weight p + unseen d.
  Proof.
    intros I H. assert (I0 := drop_safe I). destruct p as [m o|c|x z|x i]; cbn [split_step] in H.
    - assert (Hi := a_visit I m o (or_introl eq_refl)). destruct (existsb (Nat.eqb m) (sseen d)) eqn:Es.
      + destruct (fan_in s copy d m o) as [[d2 o2] e2] eqn:Ef. injection H as <- <- <-. simpl app.
        destruct (fan_in_safe I Ef) as (A & B & C & D). split; auto. split; [left; auto|].
        unfold unseen. rewrite B. simpl weight. lia.
      + fold (marked_seen d m) in H. apply existsb_out in Es.
        destruct (fan_out s copy (marked_seen d m) m) as [[d1 o1] e1] eqn:Ef.
        destruct (fan_out_safe m I Hi Es Ef) as (A1 & A2 & A3 & A4 & A5).
        assert (Un : forall d3, sseen d3 = m :: sseen d -> unseen d3 + 2 + 4 * length (es g m) <= unseen d).
        { intros d3 E3. unfold unseen. rewrite E3. apply in_split in Hi as (n1 & n2 & E). rewrite E, !map_app, !list_sum_app. cbn [map list_sum fold_right].
          rewrite (proj2 (existsb_out m (sseen d)) Es). cbn [existsb]. rewrite Nat.eqb_refl. cbn [orb].
          assert (Le : forall l, list_sum (map (fun n => if existsb (Nat.eqb n) (m :: sseen d) then 0 else 2 + 4 * length (es g n)) l) <=
                                 list_sum (map (fun n => if existsb (Nat.eqb n) (sseen d) then 0 else 2 + 4 * length (es g n)) l)).
          { clear. induction l as [|n l IH]; cbn [map list_sum fold_right]; auto. cbn [existsb].
            unfold list_sum in *. cbn [existsb] in IH. destruct (n =? m); destruct (existsb (Nat.eqb n) (sseen d)); cbn [orb]; lia. }
          assert (L1 := Le n1). assert (L2 := Le n2). unfold list_sum in *. cbn [existsb] in L1, L2. lia. }
        destruct e1 as [e1|].
        * injection H as <- <- <-. split; [|split].
          -- rewrite app_comm_cons in A1 || idtac. apply safe_perm with (b' := Visits m o :: (o1 ++ b)) in A1; [now apply drop_safe in A1|].
             symmetry. apply Permutation_middle.
          -- intros e' E. left. auto.
          -- specialize (Un d1 A3). simpl weight. lia.
        * destruct (fan_in s copy d1 m o) as [[d2 o2] e2] eqn:Eg. injection H as <- <- <-.
          apply safe_perm with (b' := Visits m o :: (o1 ++ b)) in A1; [|symmetry; apply Permutation_middle].
          destruct (fan_in_safe A1 Eg) as (B1 & B2 & B3 & B4). split; [|split].
          -- eapply safe_perm; [|exact B1]. rewrite !app_assoc. apply Permutation_app_tail, Permutation_app_comm.
          -- left. auto.
          -- specialize (Un d2). rewrite B2 in Un. specialize (Un A3). rewrite weights_app. simpl weight. lia.
    - injection H as <- <- <-. split; [|split; [|unfold unseen, weights, list_sum; simpl; lia]].
      + simpl. constructor; simpl; apply I0.
      + intros e'. destruct ((0 <? limit X vertex_limit) && _) eqn:El; [|discriminate]. intros [= <-]. right. split; auto.
        apply andb_true_iff in El as [El _]. apply Nat.ltb_lt in El. unfold limit in El. destruct vertex_limit as [|v]; [|lia].
        destruct (lanes X); simpl in El; lia.
    - injection H as <- <- <-. split; [|split; [discriminate|unfold unseen, weights, list_sum; simpl; lia]]. simpl. eapply with_edges_safe; [exact I0|..]; auto.
      + apply (a_conn I x z). now left.
      + apply I0.
      + apply I0.
      + intros y i B. split; auto. intros ->. now apply (a_key I0 x i).
    - destruct (a_key I x i (or_introl eq_refl)) as [Hi Px]. destruct (in_tags_find _ _ Hi) as (z & Hx).
      destruct (tag_split _ _ _ (a_tags I x) Hx) as (l1 & l2 & El & _ & _ & Ep). rewrite Ep in H. injection H as <- <- <-.
      split; [|split; [discriminate|unfold unseen, weights, list_sum; simpl; lia]]. simpl.
      assert (N := a_keys I). change (NoDup ((x, i) :: keys b)) in N. inversion N as [|k0 ks N1 N2]; subst.
      assert (T := a_tags I x). rewrite El, tags_app in T.
      eapply with_edges_safe; [exact I0|..]; auto.
      + rewrite tags_app. now apply NoDup_remove_1 in T.
      + intros y j B. split; auto. intros ->. destruct (a_key I0 x j B) as [B1 _]. rewrite El, tags_app in B1.
        rewrite tags_app. apply in_app_or in B1 as [B1|B1]; apply in_or_app; auto. right. change (In j (i :: tags l2)) in B1.
        destruct B1 as [<-|]; auto. contradiction.
  Qed.
End Safe.

Section Failure.
  Variable X : env.
  Variable g : graph word word.
  Variable ins : nat -> list edge.
  Variable s : splitter.
  Variable vertex_limit : nat.
  Variable owned : bool.
  Variable copy : nat -> nat.
  Variable kills : nat -> nat -> bool.
  Hypothesis Hl : 0 < lanes X.
  Hypothesis W : wf g.
  Hypothesis Cinj : forall n m, In n (ids g) -> In m (ids g) -> copy n = copy m -> n = m.
  Hypothesis Cnew : forall n, In n (ids g) -> ~ In (copy n) (ids g).

  Notation sure e := (reported s e \/ e = INTOVF /\ 0 < vertex_limit).

  Lemma start_safe P sv : safe g copy (sstart X g P sv) [Visits (root g) None].
  Proof.
    constructor; simpl; try (intros; contradiction); auto.
    - intros x. rewrite addressed_tags. apply seq_NoDup.
    - constructor.
    - intros x e [E|[]]. discriminate.
    - intros n o [[= <- _]|[]]. now apply wf_root.
  Qed.

  Definition sound (v : @vst sdata nat) (b : list spkt) : Prop :=
    safe g copy (data v) b /\ forall l e, lerr v l = Some e -> sure e.

  Lemma splitting_sound Y v p b v' out : sound v (p :: b) -> splitting X s vertex_limit copy Y v p = Some (v', out) ->
    sound v' (out ++ b) /\ weights out + unseen g (data v') < weight p + unseen g (data v).
  Proof.
    intros [I E] H. unfold splitting, vtask in H. destruct (halted _ _ _ v p).
    - injection H as <- <-. simpl. split; [split; [|exact E]|].
      + now apply drop_safe in I.
      + unfold weights, list_sum. simpl. destruct p; simpl; lia.
    - simpl in H.
      assert (Es : (if have_seen Y sreceiver Nat.eqb node_hash v p then split_step X s vertex_limit copy (data v) p
                    else split_step X s vertex_limit copy (data v) p) = split_step X s vertex_limit copy (data v) p)
        by (destruct (have_seen _ _ _ _ _ _); auto).
      rewrite Es in H. clear Es. destruct (split_step X s vertex_limit copy (data v) p) as [[d1 o1] e1] eqn:Ed.
      injection H as <- <-. destruct (@step_safe X g s vertex_limit copy W Cinj Cnew _ _ _ _ _ _ I Ed) as (A & B & C).
      split; [split|exact C]; [exact A|]. simpl. intros l e He. unfold upd in He. destruct (l =? _); eauto.
  Qed.

  Lemma splitting_terminates Y P sv : terminates (splitting X s vertex_limit copy Y) (vstart (sstart X g P sv), [Visits (root g) None]).
  Proof.
    apply measure_inv_terminates with (I := sound) (m := fun v b => weights b + unseen g (data v)).
    - intros v b b' H. f_equal. unfold weights. assert (Q := Permutation_map weight H). revert Q.
      generalize (map weight b), (map weight b'). clear. intros l l' Q. unfold list_sum. induction Q; simpl; lia.
    - intros v b b' H [A B]. split; auto. eapply safe_perm; eauto.
    - intros v p b v' out A B. destruct (splitting_sound Y A B) as [C D]. split; auto. rewrite weights_app.
      change (weights (p :: b)) with (weight p + weights b). lia.
    - split; [apply start_safe|]. intros l e H. discriminate.
  Qed.

  (** The only packets and properties that matter here are of the pass that splits, because the others
      visit the nodes of a graph once (C11). *)
  Theorem C29_splitting_terminates Y P sv y :
    reachable (lanes X) (sdest X) (splitting X s vertex_limit copy Y) (Visits (root g) None) (vstart (sstart X g P sv)) y ->
    Acc (fun y' x => step (lanes X) (sdest X) (splitting X s vertex_limit copy Y) (Visits (root g) None) x y') y.
  Proof.
    intros Hy. eapply C11_every_schedule_terminates; eauto.
    - intros p. now apply vdest_lt.
    - intros v p. unfold splitting, vtask. destruct (halted _ _ _ v p); [discriminate|]. simpl.
      destruct (if have_seen _ _ _ _ v p then _ else _) as [[d o] e]. discriminate.
    - apply splitting_terminates.
  Qed.

  Lemma splitting_errors Y P sv st : completes (splitting X s vertex_limit copy Y) (vstart (sstart X g P sv)) (Visits (root g) None) st ->
    sound st [].
  Proof.
    unfold completes. intros R. refine (mruns_inv sound _ _ _ R); clear R.
    - intros v b b' H [A B]. split; auto. eapply safe_perm; eauto.
    - intros v p b v' out A B. now apply (splitting_sound Y A B).
    - split; [apply start_safe|]. intros l e H. discriminate.
  Qed.

  Lemma set_property_error d n e : snd (set_property g ins (sp_prop s) d n) = Some e -> reported s e.
  Proof.
    unfold set_property, outcome_of. destruct (mapped_node _ _ _ _ _) as [w [[z z1] z2]] eqn:Em.
    destruct (err z) as [e1|] eqn:Ez; [|discriminate]. intros [= ->]. right. left. repeat eexists; eauto.
  Qed.

  (** Any error is reported by a function of the user, or it's because of the limit. *)
  Theorem C29_errors e : never_killed kills ->
    splits X g ins s vertex_limit owned copy kills (None, Some e) -> sure e.
  Proof.
    intros K H. inversion H as [sp order e' R1 O1 S1|sp order sv order' st order'' e' R1 O1 S1 R2 O2 S2 R3 O3 S3|
                                 sp order sv order' st order'' sq order3 R1 O1 S1 R2 O2 S2 R3 O3 S3 R4 O4 E]; clear H; subst.
    - left. apply ran_completes in R1; [|now apply vdest_lt].
      destruct (pass_error _ _ S1) as (l & Hle). destruct (gwalk_any R1) as (nodes & _ & _ & _ & D).
      destruct (D l e Hle) as (n1 & n & n2 & _ & Ha & _). eapply set_property_error; eauto.
    - apply ran_completes in R3; [|now apply vdest_lt]. destruct (pass_error _ _ S3) as (l & Hle).
      destruct (splitting_errors R3) as [_ B]. eauto.
    - exfalso. destruct (pruned g Hl K R4) as (Q1 & Q2 & Q3 & Q4 & Q5).
      assert (Q : split_status X owned copy kills (data sv) (data st) order3 sq = None).
      { unfold split_status. assert (Q := Q5 order3 (survivors copy (data sv) (data st)) O4). unfold end_status in Q.
        assert (V : pass_status order3 sq = None).
        { destruct (leftover _ _ _ && _) in Q; [exact Q|now apply pass_vstatus in Q]. }
        assert (V' : vstatus (in_pass X kills 2) order3 sq = None).
        { apply ran_completes in R4; [|now apply vdest_lt]. eapply pass_unkilled; eauto. intros k. apply K. }
        destruct (residue _ _ _ _ _ _ && _); auto. }
      rewrite Q in E. discriminate.
  Qed.

  (** Without any, there is a result. *)
  Theorem C29_success v : never_killed kills -> vertex_limit = 0 -> (forall e, ~ reported s e) ->
    splits X g ins s vertex_limit owned copy kills v -> exists h, v = (Some h, None).
  Proof.
    intros K L N H. destruct v as [h [e|]].
    - exfalso. assert (h = None) as -> by (inversion H; auto; destruct (split_status _ _ _ _ _ _ _ _); congruence).
      destruct (C29_errors K H) as [B|[_ B]]; [eapply N; eauto|lia].
    - destruct h as [h|]; eauto. inversion H. destruct (split_status _ _ _ _ _ _ _ _); discriminate.
  Qed.
End Failure.

(** ** The limit *)
Definition in_lane (X : env) (l : nat) (x : nat) : bool := lane_of (lanes X) (node_hash x) =? l.
Definition share (X : env) (l : nat) (xs : list nat) : nat := length (filter (in_lane X l) xs).
Definition created (b : list spkt) : list nat := flat_map (fun p => match p with Creates c => [c] | _ => [] end) b.
Lemma created_app b b' : created (b ++ b') = created b ++ created b'.
Proof. apply flat_map_app. Qed.
Lemma share_app X l xs ys : share X l (xs ++ ys) = share X l xs + share X l ys.
Proof. unfold share. now rewrite filter_app, app_length. Qed.
Lemma share_perm X l xs ys : Permutation xs ys -> share X l xs = share X l ys.
Proof. unfold share. intros H. apply Permutation_length. induction H; simpl; auto; repeat (destruct (in_lane X l _)); auto; try constructor; etransitivity; eauto. Qed.
Lemma scatter_created d n : created (scatter_out d n) = [].
Proof. unfold scatter_out. induction (outs d n); simpl; auto. Qed.

Section Limit.
  Variable X : env.
  Variable g : graph word word.
  Variable ins : nat -> list edge.
  Variable s : splitter.
  Variable vertex_limit : nat.
  Variable owned : bool.
  Variable copy : nat -> nat.
  Variable kills : nat -> nat -> bool.
  Variable base : nat -> nat.

  Record counted (d : sdata) (b : list spkt) : Prop := {
    k_dopp : forall n, In n (dopp d) -> In n (sseen d);
    k_count : forall l, counts d l + share X l (created b) = base l + share X l (map copy (dopp d));
    k_limit : forall l, counts d l <= Nat.max (base l) (S (Nat.max 1 (vertex_limit / lanes X)))
  }.

  Lemma fan_out_counted d n d1 o1 : fan_out s copy d n = (d1, o1, None) ->
    sseen d1 = sseen d /\ counts d1 = counts d /\
    (dopp d1 = dopp d /\ created o1 = [] \/ dopp d1 = n :: dopp d /\ created o1 = [copy n]).
  Proof.
    unfold fan_out. destruct (fissile _ _ _) as [[] [e|]]; try discriminate.
    - destruct (cata _ _ _) as [t [e|]]; [discriminate|]. destruct (copy_property _ _ _ _) as [q [e|]]; [discriminate|].
      destruct (ana _ _ _) as [u [e|]]; [discriminate|]. destruct (fan _ _ _ _) as [[la lc] [e|]]; [discriminate|].
      intros H. injection H as <- <-. simpl. split; auto. split; auto. right. split; auto.
      now rewrite created_app, !scatter_created.
    - intros [= <- <-]. rewrite scatter_created. auto.
  Qed.
  Lemma fan_in_counted d n o d1 o1 : fan_in s copy d n o = (d1, o1, None) ->
    sseen d1 = sseen d /\ counts d1 = counts d /\ dopp d1 = dopp d /\ created o1 = [].
  Proof.
    unfold fan_in. destruct (negb _). { intros [= <- <-]. auto. }
    destruct o as [[x i]|]; [|intros [= <- <-]; auto]. destruct (find _ _) as [[? [l ?]]|]; [|discriminate].
    destruct (labels _ _ _ _ _) as [[[u|] [w|]] [e|]]; intros H; try discriminate; injection H as <- <-; auto.
  Qed.

  Lemma counted_step d p b d' out : 0 < vertex_limit -> counted d (p :: b) ->
    split_step X s vertex_limit copy d p = (d', out, None) -> counted d' (out ++ b).
  Proof.
    intros Hv [A B C] H. destruct p as [m o|c|x e|x i]; cbn [split_step] in H.
    - change (created (Visits m o :: b)) with (created b) in B.
      destruct (existsb (Nat.eqb m) (sseen d)) eqn:Es.
      + destruct (fan_in s copy d m o) as [[d2 o2] e2] eqn:Ef. injection H as <- <- ->.
        destruct (fan_in_counted _ _ _ Ef) as (F1 & F2 & F3 & F4).
        constructor; [now rewrite F1, F3|intros l; rewrite F2, F3, created_app, F4; apply B|now rewrite F2].
      + destruct (fan_out _ _ _ _) as [[d1 o1] [e1|]] eqn:Ef; [discriminate|].
        destruct (fan_in s copy d1 m o) as [[d2 o2] e2] eqn:Eg. injection H as <- <- ->.
        destruct (fan_out_counted _ _ Ef) as (F1 & F2 & F3). destruct (fan_in_counted _ _ _ Eg) as (G1 & G2 & G3 & G4).
        simpl in F1, F2, F3. constructor.
        * rewrite G1, G3, F1. intros n Hn. destruct F3 as [[F3 _]|[F3 _]]; rewrite F3 in Hn; simpl; auto.
          destruct Hn as [<-|Hn]; auto.
        * intros l. rewrite G2, G3, F2, !created_app, G4, !share_app. specialize (B l).
          destruct F3 as [[-> ->]|[-> ->]]; unfold share in *; simpl in *; [lia|]. destruct (in_lane X l (copy m)); simpl; lia.
        * now rewrite G2, F2.
    - injection H as <- <- E. assert (B' := B). change (created (Creates c :: b)) with (c :: created b) in B. constructor; cbn [vtx prp outs sseen dopp counts app]; auto.
      + intros l. specialize (B l). unfold share in *. cbn [filter] in B. unfold in_lane at 1 in B. unfold upd.
        rewrite (Nat.eqb_sym l). destruct (lane_of (lanes X) (node_hash c) =? l) eqn:El; cbn [length] in B.
        * apply Nat.eqb_eq in El. subst l. lia.
        * lia.
      + intros l. unfold upd. destruct (Nat.eqb_spec l (lane_of (lanes X) (node_hash c))) as [->|]; auto.
        destruct (0 <? limit X vertex_limit) eqn:E1; cbn [andb] in E.
        * destruct (limit X vertex_limit <? counts d _) eqn:E2; [discriminate|]. apply Nat.ltb_ge in E2.
          assert (limit X vertex_limit <= Nat.max 1 (vertex_limit / lanes X)) as Hq.
          2:{ revert E2 Hq. generalize (limit X vertex_limit) (vertex_limit / lanes X). intros. lia. }
          unfold limit. destruct (vertex_limit / lanes X); [destruct (vertex_limit =? 0)|]; lia.
        * exfalso. apply Nat.ltb_ge in E1. unfold limit in E1. destruct (vertex_limit / lanes X); [|lia].
          destruct (Nat.eqb_spec vertex_limit 0); lia.
    - injection H as <- <-. constructor; auto.
    - destruct (List.partition _ _) as [[|y l] l']; [discriminate|]. injection H as <- <-. constructor; auto.
  Qed.
End Limit.

(** No worker gets more than one vertex above its share of the limit, or above its share of the given
    vertices. *)
Theorem C71_limit X g ins s vertex_limit owned copy kills h : 0 < lanes X -> wf g ->
  (forall n m, In n (ids g) -> In m (ids g) -> copy n = copy m -> n = m) ->
  (forall n, In n (ids g) -> ~ In (copy n) (ids g)) ->
  never_killed kills -> 0 < vertex_limit ->
  splits X g ins s vertex_limit owned copy kills (Some h, None) ->
  forall l, length (filter (fun x => lane_of (lanes X) (node_hash x) =? l) (ids h)) <=
    Nat.max (length (filter (fun x => lane_of (lanes X) (node_hash x) =? l) (ids g))) (S (Nat.max 1 (vertex_limit / lanes X))).
Proof.
  intros Hl W Cinj Cnew K Hv H l.
  inversion H as [|sp order sv order' st order'' e R1 O1 S1 R2 O2 S2 R3 O3 S3 E|
                                 sp order sv order' st order'' sq order3 R1 O1 S1 R2 O2 S2 R3 O3 S3 R4 O4 E].
  clear H. assert (F := split_ok ins Hl W Cinj Cnew K R3 O3 S3).
  destruct (pruned g Hl K R4) as (Q1 & Q2 & Q3 & Q4 & _).
  assert (Eh : ids h = data sq).
  { destruct (split_status _ _ _ _ _ _ _ _); [discriminate|]. injection E as <-. exact Q3. }
  clear E. rewrite Eh. assert (Pv := populated_facts W Hl O2 R2 S2).
  set (base := fun l => share X l (data sv)).
  assert (C : counted X vertex_limit copy base (data st) []).
  { apply ran_completes in R3; [|now apply vdest_lt].
    assert (V : vstatus (in_pass X kills 1) order'' st = None) by (eapply pass_unkilled; eauto; intros k; apply K).
    apply visit_success with (order := order'') in R3 as (vis & R); auto.
    2:{ intros k k' B. apply Nat.eqb_eq in B. now subst. }
    2:{ intros q. now apply lane_of_lt. }
    unfold serial, completes in R.
    refine (mruns_inv (fun (q : sdata * list spkt) b => counted X vertex_limit copy base (fst q) b) _ _ _ R); clear R.
    - intros q b b' B [C1 C2 C3]. constructor; auto. intros k. rewrite <- C2. f_equal. symmetry. apply share_perm.
      apply (Permutation_flat_map _ B).
    - intros [d v] p b [d' v'] out I B. unfold ptask in B. simpl in B.
      assert (Es : (if was_seen sreceiver Nat.eqb v p then split_step X s vertex_limit copy d p else split_step X s vertex_limit copy d p)
                  = split_step X s vertex_limit copy d p) by (destruct (was_seen _ _ _ _); auto).
      rewrite Es in B. destruct (split_step X s vertex_limit copy d p) as [[d1 o1] [e1|]] eqn:Ed; [discriminate|].
      injection B as <- _ <-. simpl in *. eapply counted_step; eauto.
    - constructor; simpl; auto.
      intros k. unfold base, share, in_lane. apply Nat.le_max_l. }
  assert (L : share X l (data sq) <= share X l (data sv ++ map copy (dopp (data st)))).
  { unfold share. apply NoDup_incl_length; [now apply NoDup_filter|]. intros x B. apply filter_In in B as [B1 B2].
    apply filter_In. split; auto. apply Q2 in B1. apply (reached F) in B1 as (t & n & A1 & A2 & ->).
    apply in_or_app. destruct t; simpl.
    - right. apply in_map. exact (f_dopp F n A1 (A2 eq_refl)).
    - left. exact (Permutation_in _ (Permutation_sym Pv) (f_seen F n A1)). }
  rewrite share_app in L. assert (B := k_count C l). assert (B' := k_limit C l). unfold base in B, B'.
  change (share X l (created [])) with 0 in B. rewrite (share_perm X l Pv) in *. unfold share, in_lane in *. lia.
Qed.

(** ** Examples *)

(** Splitting by a schedule in which all threads take turns *)
Definition run_split X g ins s limit owned copy kills k : option (result (option (graph word word))) :=
  let all := seq 0 (lanes X) in
  let yp := sched_run (lanes X) (walk_dest X) (setting g ins (sp_prop s) (in_pass X kills 0)) (vstart (fun _ => null)) (initial (root g)) k in
  match mainpc yp, pass_status all (sh yp) with
  | MDone, Some e => Some (None, Some e)
  | MDone, None =>
      let yv := sched_run (lanes X) (walk_dest X) (populating (unkillable X) g) (vstart []) (initial (root g)) k in
      match mainpc yv, pass_status all (sh yv) with
      | MDone, None =>
          let yt := sched_run (lanes X) (sdest X) (splitting X s limit copy (in_pass X kills 1))
                      (vstart (sstart X g (data (sh yp)) (data (sh yv)))) (Visits (root g) None) k in
          match mainpc yt, pass_status all (sh yt) with
          | MDone, Some e => Some (None, Some e)
          | MDone, None =>
              let yq := sched_run (lanes X) (walk_dest X) (cpruning (in_pass X kills 2) (left_edges (data (sh yt)))) (vstart [])
                          (initial (root g)) k in
              match mainpc yq with
              | MDone =>
                  Some (match split_status X owned copy kills (data (sh yv)) (data (sh yt)) all (sh yq) with
                        | None => (Some (mkGraph (queued X (sh yq)) (vtx (data (sh yt))) (left_edges (data (sh yt))) (root g)), None)
                        | Some e => (None, Some e)
                        end)
              | _ => None
              end
          | _, _ => None
          end
      | _, _ => None
      end
  | _, _ => None
  end.

Lemma run_split_sound X g ins s limit owned copy kills k v :
  run_split X g ins s limit owned copy kills k = Some v -> splits X g ins s limit owned copy kills v.
Proof.
  unfold run_split. set (yp := sched_run (lanes X) (walk_dest X) (setting g ins (sp_prop s) (in_pass X kills 0)) _ _ k).
  destruct (mainpc yp) eqn:E1; try discriminate. apply sched_ran in E1. fold yp in E1.
  destruct (pass_status (seq 0 (lanes X)) (sh yp)) as [e|] eqn:E2.
  { intros [= <-]. eapply sp_unset; eauto. }
  set (yv := sched_run (lanes X) (walk_dest X) (populating (unkillable X) g) _ _ k).
  destruct (mainpc yv) eqn:E3; try discriminate. apply sched_ran in E3. fold yv in E3.
  destruct (pass_status (seq 0 (lanes X)) (sh yv)) as [e|] eqn:E4; [discriminate|].
  set (yt := sched_run (lanes X) (sdest X) (splitting X s limit copy (in_pass X kills 1)) _ _ k).
  destruct (mainpc yt) eqn:E5; try discriminate. apply sched_ran in E5. fold yt in E5.
  destruct (pass_status (seq 0 (lanes X)) (sh yt)) as [e|] eqn:E6.
  { intros [= <-]. eapply sp_unsplit with (sp := sh yp) (sv := sh yv); eauto. }
  set (yq := sched_run (lanes X) (walk_dest X) (cpruning (in_pass X kills 2) _) _ _ k).
  destruct (mainpc yq) eqn:E7; try discriminate. apply sched_ran in E7. fold yq in E7.
  intros H. injection H as <-. eapply sp_pruned with (sp := sh yp); eauto.
Qed.

Definition split_graph (v : option (result (option (graph word word)))) : graph word word :=
  match v with Some (Some h, _) => h | _ => mkGraph [] (fun _ => null) (fun _ => []) 0 end.
Definition split_done (v : option (result (option (graph word word)))) : bool :=
  match v with Some (Some _, None) => true | _ => false end.
Lemma run_split_ran X g ins s limit owned copy kills k :
  split_done (run_split X g ins s limit owned copy kills k) = true ->
  splits X g ins s limit owned copy kills (Some (split_graph (run_split X g ins s limit owned copy kills k)), None).
Proof.
  intros H. apply run_split_sound with (k := k). destruct (run_split X g ins s limit owned copy kills k) as [[[h|] [e|]]|]; try discriminate. reflexivity.
Qed.
Definition split_shown (h : graph word word) : list (nat * (word * list edge)) :=
  map (fun n => (n, (vx h n, es h n))) (ids h).

(** A graph of four vertices, of which those that are even are replaced *)
Definition QG : graph word word :=
  mkGraph [1; 2; 3; 4] (fun n => (10 * N.of_nat n)%N)
    (fun n => match n with 1 => [(5%N, 2); (6%N, 3)] | 2 => [(7%N, 3); (3%N, 4)] | 3 => [(8%N, 1)] | 4 => [(9%N, 2)] | _ => [] end) 1.
Lemma QG_wf : wf QG.
Proof.
  constructor; simpl.
  - repeat constructor; simpl; intuition lia.
  - auto.
  - intros n l m H. destruct n as [|[|[|[|[|n]]]]]; simpl; intuition congruence.
  - assert (P1 : path QG 1 1) by constructor.
    assert (P2 : path QG 1 2) by (apply path_step with (l := 5%N) (b := 1); simpl; auto).
    assert (P3 : path QG 1 3) by (apply path_step with (l := 6%N) (b := 1); simpl; auto).
    assert (P4 : path QG 1 4) by (apply path_step with (l := 3%N) (b := 2); simpl; auto).
    intros n [<-|[<-|[<-|[<-|[]]]]]; auto.
Qed.
Definition keeping (f : word -> word -> word -> word) : labeler := mkLabeler (fun _ _ _ => (true, None)) (fun x l y => (f x l y, None)).
Definition dropping : labeler := mkLabeler (fun _ _ _ => (false, None)) (fun _ _ _ => (null, None)).
Definition only (p : word -> bool) (f : word -> word -> word -> word) : labeler :=
  mkLabeler (fun _ l _ => (p l, None)) (fun x l y => (f x l y, None)).
Definition halves (p : prop) (fis : word -> word -> bool) (ia ic oa oc : labeler) : splitter :=
  mkSplitter (fun v _ => ((v + 1)%N, None)) (fun v _ => ((v + 2)%N, None)) (fun v w => (fis v w, None)) p ia ic oa oc.
Definition even_ten (v w : word) : bool := N.eqb (N.modulo v 20) 0.
Definition twin (n : nat) : nat := 10 + n.
Definition shift (k : N) (_ l _ : word) : word := (l + k)%N.
Definition SP1 : splitter :=
  halves vertex_itself even_ten (keeping (shift 0)) (keeping (shift 50)) (only (fun l => N.ltb 5 l) (shift 0)) (keeping (shift 100)).
Definition qrun1 := run_split X3 QG (fun _ => []) SP1 0 false twin no_kills 300.
Lemma twin_inj : forall n m, In n (ids QG) -> In m (ids QG) -> twin n = twin m -> n = m.
Proof. unfold twin. intros. lia. Qed.
Lemma twin_new : forall n, In n (ids QG) -> ~ In (twin n) (ids QG).
Proof. unfold twin. simpl. intros. lia. Qed.
Lemma no_incident g ins f : back_edges (mkProp f no_fold no_fold) g ins.
Proof. now left. Qed.

Definition shown1 : list (nat * (word * list edge)) :=
  [(1, (10%N, [(55%N, 12); (5%N, 2); (6%N, 3)])); (2, (21%N, [(7%N, 3)])); (3, (30%N, [(8%N, 1)]));
   (12, (22%N, [(153%N, 14); (103%N, 4); (107%N, 3)])); (4, (41%N, [(59%N, 12); (9%N, 2)])); (14, (42%N, [(159%N, 12); (109%N, 2)]))].
Example C29_splitting_ex :
  0 < lanes X3 /\ wf QG /\ never_killed no_kills /\ back_edges (sp_prop SP1) QG (fun _ => []) /\
  (forall n m, In n (ids QG) -> In m (ids QG) -> twin n = twin m -> n = m) /\ (forall n, In n (ids QG) -> ~ In (twin n) (ids QG)) /\
  splits X3 QG (fun _ => []) SP1 0 false twin no_kills (Some (split_graph qrun1), None) /\ split_shown (split_graph qrun1) = shown1.
Proof.
  split; [simpl; lia|]. split; [exact QG_wf|]. split; [exact no_kills_never|]. split; [apply no_incident|].
  split; [exact twin_inj|]. split; [exact twin_new|].
  split; [unfold qrun1; apply run_split_ran; vm_compute; reflexivity|]. vm_compute. reflexivity.
Qed.

Definition qrun2 := run_split X1 QG (fun _ => []) SP1 0 false twin no_kills 300.
Example C29_schedule_is_immaterial_ex :
  0 < lanes X1 /\ empty_fold (incident (sp_prop SP1)) = true /\ empty_fold (outgoing (sp_prop SP1)) = true /\
  splits X1 QG (fun _ => []) SP1 0 false twin no_kills (Some (split_graph qrun2), None) /\ ids (split_graph qrun2) <> ids (split_graph qrun1).
Proof.
  split; [simpl; lia|]. split; [reflexivity|]. split; [reflexivity|].
  split; [unfold qrun2; apply run_split_ran; vm_compute; reflexivity|]. vm_compute. discriminate.
Qed.

(** A vertex that can't be split *)
Definition stubborn : splitter :=
  mkSplitter (fun v _ => (v, if N.eqb v 40 then Some (USERERR 99) else None)) (cata SP1) (fissile SP1) vertex_itself
    (in_ana SP1) (in_cata SP1) (out_ana SP1) (out_cata SP1).
Example C29_errors_ex :
  splits X3 QG (fun _ => []) stubborn 0 false twin no_kills (None, Some (USERERR 99)) /\ reported stubborn (USERERR 99).
Proof.
  split; [apply run_split_sound with (k := 300); vm_compute; reflexivity|].
  left. exists 40%N, null. right. left. reflexivity.
Qed.

Example C29_success_ex : (forall e, ~ reported SP1 e) /\
  splits X3 QG (fun _ => []) SP1 0 false twin no_kills (Some (split_graph qrun1), None).
Proof.
  split; [|unfold qrun1; apply run_split_ran; vm_compute; reflexivity].
  intros e [(v & w & [B|[B|B]])|[(v & i & o & w & t & t1 & t2 & B1 & B2)|[(x & l & y & [B|B])|[(x & l & y & [B|B])|[(x & l & y & [B|B])|(x & l & y & [B|B])]]]]];
    try discriminate.
  cbn in B1. unfold applied, note_made in B1. cbn in B1. destruct (is_null v); cbn in B1; injection B1; intros; subst; discriminate.
Qed.

Definition qsys := sched_run 3 (sdest X3) (splitting X3 SP1 0 twin X3) (vstart (sstart X3 QG (vx QG) (ids QG))) (Visits 1 None) 40.
Example C29_splitting_terminates_ex :
  reachable (lanes X3) (sdest X3) (splitting X3 SP1 0 twin X3) (Visits (root QG) None) (vstart (sstart X3 QG (vx QG) (ids QG))) qsys /\
  dopp (data (sh qsys)) <> [].
Proof. split; [apply exec_sound, turns_ok|]. vm_compute. discriminate. Qed.

Definition qrun3 := run_split X3 QG (fun _ => []) SP1 6 false twin no_kills 300.
Example C71_limit_ex :
  0 < 6 /\ splits X3 QG (fun _ => []) SP1 6 false twin no_kills (Some (split_graph qrun3), None) /\ length (ids (split_graph qrun3)) = 6 /\
  splits X1 QG (fun _ => []) SP1 4 false twin no_kills (None, Some INTOVF).
Proof.
  split; [lia|]. split; [unfold qrun3; apply run_split_ran; vm_compute; reflexivity|]. split; [vm_compute; reflexivity|].
  apply run_split_sound with (k := 300). vm_compute. reflexivity.
Qed.

(** ** What is not as documented *)
Definition left_label : labeler := keeping (fun x _ _ => x).
Definition SP2 (p : prop) : splitter := halves p even_ten left_label left_label (keeping (shift 0)) (keeping (shift 0)).

(** The property of a vertex [v] that has the same edges as [n] *)
Definition property_of_new (p : prop) (g : graph word word) (n : nat) (v w : word) : Prop :=
  exists I, Permutation I (inward g n) /\ has_value p v I (outward (es g) (vx g) n) w.
Definition fresh_copies (g : graph word word) (copy : nat -> nat) : Prop :=
  (forall n m, In n (ids g) -> In m (ids g) -> copy n = copy m -> n = m) /\ (forall n, In n (ids g) -> ~ In (copy n) (ids g)).

(** The labels of an edge between two vertices that are both split are made from the original property
    of the origin if it originates from the vertex made by ana, but from a new property if it originates
    from the other one. *)
Definition qrun4 := run_split X3 QG (fun _ => []) (SP2 vertex_itself) 0 false twin no_kills 300.
Lemma qrun4_ran : splits X3 QG (fun _ => []) (SP2 vertex_itself) 0 false twin no_kills (Some (split_graph qrun4), None).
Proof. unfold qrun4. apply run_split_ran. vm_compute. reflexivity. Qed.
Lemma itself_property v I o w : has_value vertex_itself v I o w -> w = v.
Proof. now rewrite itself_value. Qed.
Theorem C29_original_properties_refuted :
  exists X g s copy h n, wf g /\ 0 < lanes X /\ fresh_copies g copy /\
    splits X g (fun _ => []) s 0 false copy no_kills (Some h, None) /\ In n (ids g) /\ In (copy n) (ids h) /\
    forall P, (forall m, In m (ids g) -> true_property (sp_prop s) g m (P m)) ->
      splitting_at g s P n = true /\ ~ Permutation (es h (copy n)) (edges_from_cata g s copy P P n).
Proof.
  exists X3, QG, (SP2 vertex_itself), twin, (split_graph qrun4), 4.
  split; [exact QG_wf|]. split; [simpl; lia|]. split; [split; [exact twin_inj|exact twin_new]|]. split; [exact qrun4_ran|].
  split; [simpl; auto|]. split; [vm_compute; auto 10|]. intros P HP.
  assert (E : es (split_graph qrun4) (twin 4) = [(42%N, 12); (42%N, 2)]) by (vm_compute; reflexivity). rewrite E.
  destruct (HP 4 ltac:(simpl; auto)) as (I & _ & V). apply itself_property in V. change (vx QG 4) with 40%N in V.
  split; [reflexivity|]. intros B.
  assert (E' : edges_from_cata QG (SP2 vertex_itself) twin P P 4 = [(P 4, 2); (P 4, 12)]) by reflexivity. rewrite E', V in B.
  assert (Q := Permutation_in (42%N, 12) B (or_introl eq_refl)). simpl in Q. intuition congruence.
Qed.

Theorem C70_ana_property_refuted :
  exists X g s copy h n, wf g /\ 0 < lanes X /\ fresh_copies g copy /\
    splits X g (fun _ => []) s 0 false copy no_kills (Some h, None) /\ In n (ids g) /\ In n (ids h) /\
    forall P A, (forall m, In m (ids g) -> true_property (sp_prop s) g m (P m)) ->
      property_of_new (sp_prop s) g n (ana_vertex g s P n) A ->
      splitting_at g s P n = true /\ ~ Permutation (es h n) (flat_map (arriving g s copy P A) (departing g s P (out_ana s) n)).
Proof.
  exists X3, QG, (SP2 vertex_itself), twin, (split_graph qrun4), 4.
  split; [exact QG_wf|]. split; [simpl; lia|]. split; [split; [exact twin_inj|exact twin_new]|]. split; [exact qrun4_ran|].
  split; [simpl; auto|]. split; [vm_compute; auto 10|]. intros P A _ (I & _ & V). apply itself_property in V.
  change (ana_vertex QG (SP2 vertex_itself) P 4) with 41%N in V. subst A.
  assert (E : es (split_graph qrun4) 4 = [(40%N, 12); (40%N, 2)]) by (vm_compute; reflexivity). rewrite E.
  split; [reflexivity|]. intros B. assert (Q := Permutation_in (40%N, 12) B (or_introl eq_refl)).
  simpl in Q. intuition congruence.
Qed.

(** The property of the vertex made by cata is computed without incident edges. *)
Definition qrun5 := run_split X3 QG (edges_to QG) (SP2 in_sum) 0 false twin no_kills 300.
Theorem C70_incident_edges_refuted :
  exists X g s copy h n, wf g /\ 0 < lanes X /\ fresh_copies g copy /\ back_edges (sp_prop s) g (edges_to g) /\
    splits X g (edges_to g) s 0 false copy no_kills (Some h, None) /\ In n (ids g) /\ In (copy n) (ids h) /\
    forall P D, (forall m, In m (ids g) -> true_property (sp_prop s) g m (P m)) ->
      property_of_new (sp_prop s) g n (cata_vertex g s P n) (D n) ->
      splitting_at g s P n = true /\ ~ Permutation (es h (copy n)) (edges_from_cata g s copy P D n).
Proof.
  exists X3, QG, (SP2 in_sum), twin, (split_graph qrun5), 4.
  split; [exact QG_wf|]. split; [simpl; lia|]. split; [split; [exact twin_inj|exact twin_new]|].
  split; [right; intros; apply Permutation_refl|].
  split; [unfold qrun5; apply run_split_ran; vm_compute; reflexivity|].
  split; [simpl; auto|]. split; [vm_compute; auto 10|]. intros P D _ (I & HI & V).
  change (inward QG 4) with [(3%N, 20%N)] in HI. apply Permutation_sym, Permutation_length_1_inv in HI. subst I.
  assert (Ed : D 4 = 3%N).
  { destruct V as (t & t1 & t2 & V & _). vm_compute in V. now injection V. }
  assert (E : es (split_graph qrun5) (twin 4) = [(0%N, 12); (0%N, 2)]) by (vm_compute; reflexivity). rewrite E.
  split; [reflexivity|]. intros B.
  assert (E' : edges_from_cata QG (SP2 in_sum) twin P D 4 = [(D 4, 2); (D 4, 12)]) by reflexivity. rewrite E', Ed in B.
  assert (Q := Permutation_in (0%N, 12) B (or_introl eq_refl)). simpl in Q. intuition congruence.
Qed.

(** It is computed from the vertices that happen to be in the graph at the moment, before or after they
    are replaced. *)
Definition next_sum : prop :=
  mkProp (mkFold (Some (fun _ _ o => (o, None))) None None None None None) no_fold
         (mkFold (Some (fun _ _ y => (y, None))) None (Some (fun x y => ((x + y)%N, None))) (Some (0%N, None)) None None).
Definition RG : graph word word :=
  mkGraph [1; 2; 4] (fun n => (10 * N.of_nat n)%N)
    (fun n => match n with 1 => [(1%N, 2); (2%N, 4)] | 2 => [(7%N, 4)] | 4 => [(8%N, 2)] | _ => [] end) 1.
Lemma RG_wf : wf RG.
Proof.
  constructor; simpl.
  - repeat constructor; simpl; intuition lia.
  - auto.
  - intros n l m H. destruct n as [|[|[|[|[|n]]]]]; simpl; intuition congruence.
  - assert (P1 : path RG 1 1) by constructor.
    assert (P2 : path RG 1 2) by (apply path_step with (l := 1%N) (b := 1); simpl; auto).
    assert (P4 : path RG 1 4) by (apply path_step with (l := 2%N) (b := 1); simpl; auto).
    intros n [<-|[<-|[<-|[]]]]; auto.
Qed.
Lemma RG_copies : fresh_copies RG twin.
Proof. split; unfold twin; simpl; intros; lia. Qed.
Definition rrun1 := run_split X1 RG (fun _ => []) (SP2 next_sum) 0 false twin no_kills 300.
Definition rrun3 := run_split X3 RG (fun _ => []) (SP2 next_sum) 0 false twin no_kills 300.
Theorem C70_schedule_refuted :
  exists X X' g s copy h h', wf g /\ 0 < lanes X /\ 0 < lanes X' /\ fresh_copies g copy /\ back_edges (sp_prop s) g (fun _ => []) /\
    splits X g (fun _ => []) s 0 false copy no_kills (Some h, None) /\
    splits X' g (fun _ => []) s 0 false copy no_kills (Some h', None) /\
    exists n, In n (ids h) /\ In n (ids h') /\ ~ Permutation (es h n) (es h' n).
Proof.
  exists X1, X3, RG, (SP2 next_sum), twin, (split_graph rrun1), (split_graph rrun3).
  split; [exact RG_wf|]. split; [simpl; lia|]. split; [simpl; lia|]. split; [exact RG_copies|]. split; [now left|].
  split; [unfold rrun1; apply run_split_ran; vm_compute; reflexivity|].
  split; [unfold rrun3; apply run_split_ran; vm_compute; reflexivity|].
  exists 14. split; [vm_compute; auto 10|]. split; [vm_compute; auto 10|].
  assert (E1 : es (split_graph rrun1) 14 = [(20%N, 12); (20%N, 2)]) by (vm_compute; reflexivity).
  assert (E3 : es (split_graph rrun3) 14 = [(21%N, 12); (21%N, 2)]) by (vm_compute; reflexivity).
  rewrite E1, E3. intros B. assert (Q := Permutation_in (20%N, 12) B (or_introl eq_refl)). simpl in Q. intuition congruence.
Qed.

(** According to cru_sig(7), "Overflow is detected when any worker thread creates a number of vertices
    attaining the limit value divided by the number of workers.", and if the number of vertices "reaches
    or exceeds the specified" limit, an error is reported. *)
Definition TG : graph word word :=
  mkGraph [2; 4] (fun n => (10 * N.of_nat n)%N) (fun n => match n with 2 => [(7%N, 4)] | 4 => [(8%N, 2)] | _ => [] end) 2.
Lemma TG_wf : wf TG.
Proof.
  constructor; simpl.
  - repeat constructor; simpl; intuition lia.
  - auto.
  - intros n l m H. destruct n as [|[|[|[|[|n]]]]]; simpl; intuition congruence.
  - assert (P2 : path TG 2 2) by constructor.
    assert (P4 : path TG 2 4) by (apply path_step with (l := 7%N) (b := 2); simpl; auto).
    intros n [<-|[<-|[]]]; auto.
Qed.
Lemma TG_copies : fresh_copies TG twin.
Proof. split; unfold twin; simpl; intros; lia. Qed.
Definition trun := run_split X1 TG (fun _ => []) (SP2 vertex_itself) 3 false twin no_kills 300.
Theorem C71_limit_refuted :
  exists X g s limit copy h, wf g /\ lanes X = 1 /\ fresh_copies g copy /\ length (ids g) < limit /\
    splits X g (fun _ => []) s limit false copy no_kills (Some h, None) /\ limit < length (ids h).
Proof.
  exists X1, TG, (SP2 vertex_itself), 3, twin, (split_graph trun).
  split; [exact TG_wf|]. split; [reflexivity|]. split; [exact TG_copies|]. split; [simpl; lia|].
  split; [unfold trun; apply run_split_ran; vm_compute; reflexivity|]. vm_compute. lia.
Qed.

(** ** Kill requests *)
(** A request in the course of the pass that sets the properties, or the pass that splits vertices, is
    forgotten, and the graph is returned although it is only partly processed. *)
Definition last (k : N) : splitter :=
  halves vertex_itself (fun _ w => N.eqb w k) (keeping (shift 0)) (keeping (shift 0)) (keeping (shift 0)) (keeping (shift 0)).
Definition far (n : nat) : nat := 100 + n.
Lemma LG_copies : fresh_copies LG far.
Proof. split; unfold far; cbn [ids LG]; intros; [lia|]. intros B. apply in_seq in B. apply in_seq in H. lia. Qed.
Notation krun i := (run_split Xp LG (fun _ => []) (last 40) 0 false far (kill_at i 3) 400).
Definition unsplit (i : nat) : bool :=
  split_done (krun i) && (existsb (Nat.eqb 40) (ids (split_graph (krun i))) && N.eqb (vx (split_graph (krun i)) 40) 40).
Lemma unsplit_eq : forallb unsplit [0; 1] = true.
Proof. vm_compute. reflexivity. Qed.
Lemma krun_facts i : i < 2 -> split_done (krun i) = true /\ existsb (Nat.eqb 40) (ids (split_graph (krun i))) = true /\ vx (split_graph (krun i)) 40 = 40%N.
Proof.
  intros H. assert (U : unsplit i = true) by (apply (proj1 (forallb_forall _ _) unsplit_eq); simpl; lia).
  revert U. unfold unsplit. generalize (krun i). intros r U. apply andb_prop in U. destruct U as [A U].
  apply andb_prop in U. destruct U as [B C]. apply N.eqb_eq in C. auto.
Qed.
Lemma unsplit_result (h : graph word word) : existsb (Nat.eqb 40) (ids h) = true -> vx h 40 = 40%N ->
  forall P D, (forall n, In n (ids LG) -> true_property (sp_prop (last 40)) LG n (P n)) -> ~ split_result LG (last 40) far P D h.
Proof.
  intros B C P D HP R. apply existsb_in in B. assert (H40 : In 40 (ids LG)) by (cbn [ids LG]; apply in_seq; lia).
  destruct (HP 40 H40) as (I & _ & V). apply itself_property in V. change (vx LG 40) with 40%N in V.
  destruct (sr_node R 40 B) as [(_ & E & _)|(n & Hn & _ & E & _)].
  - assert (E1 := eq_trans (eq_sym C) E). clear E. rename E1 into E. unfold new_vertex, splitting_at in E. cbn [fissile last halves fst] in E. rewrite V in E. discriminate.
  - destruct LG_copies as [_ N]. apply (N n Hn). now rewrite <- E.
Qed.
Theorem C36_killed_splitting_refuted :
  exists X g s copy, wf g /\ 0 < lanes X /\ fresh_copies g copy /\ forall i, i < 2 -> exists kills h, kills i 3 = true /\
    splits X g (fun _ => []) s 0 false copy kills (Some h, None) /\
    forall P D, (forall n, In n (ids g) -> true_property (sp_prop s) g n (P n)) -> ~ split_result g s copy P D h.
Proof.
  exists Xp, LG, (last 40), far. split; [exact LG_wf|]. split; [simpl; lia|]. split; [exact LG_copies|].
  intros i Hi. destruct (krun_facts Hi) as (A & B & C). exists (kill_at i 3), (split_graph (krun i)).
  split; [unfold kill_at; now rewrite !Nat.eqb_refl|]. split; [apply run_split_ran; exact A|].
  exact (unsplit_result B C).
Qed.
