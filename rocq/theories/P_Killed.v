(** Operations that are killed: C36, C54. *)
From Coq Require Import List Arith NArith Lia Bool Permutation.
From Verif Require Import Base Machine Ports Env Hash Graph Visitor Pass VisitorProofs Run Walk Fold
  Brigade BrigadeProofs P_Fabricate Traverse TraverseProofs P_Traverse Partition P_Partition Filter P_Filter.
Import ListNotations.

Set Implicit Arguments.

(** ** Operations with one pass *)

Lemma kill_kept {S P K} X (key : P -> K) keq hash first again ready (d0 : S) p0 s k :
  completes (vtask X key keq hash first again ready) (vstart d0) p0 s ->
  k <= tick s -> killcalls X k = true -> is_killed X s = true.
Proof.
  intros Hc Hk Hc'.
  assert (HI : forall j, j < tick s -> killcalls X j = true -> killed s = true).
  { refine (mruns_inv (fun (s : @vst S K) (_ : list P) => forall j, j < tick s -> killcalls X j = true -> killed s = true)
              _ _ _ Hc).
    - auto.
    - intros s1 p b s2 out A H j Hj Hkc. unfold vtask in H. destruct (halted X key hash s1 p).
      + inversion H; subst; reflexivity.
      + destruct (ready (data s1) p); simpl in H; [|discriminate].
        destruct (if have_seen X key keq hash s1 p then again (data s1) p else first (data s1) p) as [[d o] e].
        inversion H; subst; clear H. simpl in *. unfold is_killed.
        assert (Hj' : j < tick s1 \/ j = tick s1) by lia. destruct Hj' as [Hj'| ->].
        * now rewrite (A j Hj' Hkc).
        * now rewrite Hkc, orb_true_r.
    - simpl. intros; lia. }
  unfold is_killed. assert (H : k < tick s \/ k = tick s) by lia. destruct H as [H| ->].
  - now rewrite (HI k H Hc').
  - now rewrite Hc', orb_true_r.
Qed.

(** Any pass that is not followed by a reset of its router: if the request is made when [k] packets
    were processed, including the moment when all of them are, there is an error in the end. *)
Theorem C36_killed_pass_reports_it :
  forall {S P K} X (key : P -> K) keq hash first again ready (d0 : S) p0 s k order,
    0 < lanes X ->
    ran (lanes X) (vdest X key hash) (vtask X key keq hash first again ready) (vstart d0) p0 s ->
    k <= tick s -> killcalls X k = true ->
    vstatus X order s <> None /\ ((forall l, lerr s l = None) -> vstatus X order s = Some INTKIL).
Proof.
  intros S P K X key keq hash first again ready d0 p0 s k order Hl Hr Hk Hc.
  apply ran_completes in Hr; [|apply vdest_lt; auto]. assert (H := kill_kept Hr Hk Hc).
  unfold vstatus, final_status. rewrite H. split.
  - destruct (first_error (lerr s) order); discriminate.
  - intros He. assert (E : first_error (lerr s) order = None) by (apply first_error_none; auto). now rewrite E.
Qed.

(** A request made after the second packet of a pass. *)
Definition Xk : env := mkEnv 3 true (fun _ => true) (fun k => k =? 2).
Definition killed_walk := sched_run 3 (walk_dest Xk) (populating Xk FG) (vstart []) (initial (root FG)) 150.
Example C36_killed_pass_reports_it_ex :
  ran (lanes Xk) (walk_dest Xk) (populating Xk FG) (vstart []) (initial (root FG)) (sh killed_walk) /\
  2 <= tick (sh killed_walk) /\ killcalls Xk 2 = true /\ vstatus Xk [0; 1; 2] (sh killed_walk) = Some INTKIL /\
  length (data (sh killed_walk)) < length (ids FG).
Proof.
  split; [apply sched_ran; vm_compute; reflexivity|]. split; [apply Nat.leb_le; vm_compute; reflexivity|].
  split; [reflexivity|]. split; [vm_compute; reflexivity|]. apply Nat.ltb_lt. vm_compute. reflexivity.
Qed.

(** ** Operations with several passes and one router *)

Definition kill_at (i k : nat) : nat -> nat -> bool := fun i' k' => (i' =? i) && (k' =? k).

(** A partition that is killed while the vertices are classified is reported as a success, and some
    vertices are in none of its classes. *)
Theorem C36_killed_classification_refuted :
  exists (g : graph word nat) X mapped equal phash kills p n,
    wf g /\ 0 < lanes X /\ equivalence equal /\ (forall x y, equal x y = true -> phash x = phash y) /\
    NoDup (map (vx g) (ids g)) /\ (forall n, snd (mapped n) = None) /\
    (forall i k, kills i k = true -> i = 1 /\ k = 1) /\
    partitions X g mapped equal phash kills (Some p, None) /\
    In n (ids g) /\ class_of p (vx g n) (None, Some PARVNF).
Proof.
  exists G5w, X3, by20, N.eqb, (fun x => x), (kill_at 1 1). eexists. exists 50.
  split; [apply relabelled_wf, G5_wf|]. split; [simpl; lia|]. split; [exact eqb_equivalence|].
  split; [intros x y H; now apply N.eqb_eq in H|]. split; [exact G5w_distinct|]. split; [reflexivity|].
  split; [intros i k H; unfold kill_at in H; apply andb_true_iff in H as [H1 H2]; now apply Nat.eqb_eq in H1, H2|].
  split; [apply partitions_ran with (k := 150) (k' := 150); vm_compute; reflexivity|].
  split; [simpl; tauto|]. constructor. vm_compute. reflexivity.
Qed.

(** A partition that is killed while the properties are computed is reported as a success, and vertices
    with different properties are in the same class. *)
Theorem C36_killed_properties_refuted :
  exists (g : graph word nat) X mapped equal phash kills p n m c,
    wf g /\ 0 < lanes X /\ equivalence equal /\ (forall x y, equal x y = true -> phash x = phash y) /\
    NoDup (map (vx g) (ids g)) /\ (forall n, snd (mapped n) = None) /\
    (forall i k, kills i k = true -> i = 0 /\ k = 1) /\
    partitions X g mapped equal phash kills (Some p, None) /\
    In n (ids g) /\ In m (ids g) /\ equal (fst (mapped n)) (fst (mapped m)) = false /\
    class_of p (vx g n) (Some c, None) /\ class_of p (vx g m) (Some c, None).
Proof.
  exists G5w, X3, by20, N.eqb, (fun x => x), (kill_at 0 1). eexists. exists 20, 50. eexists.
  split; [apply relabelled_wf, G5_wf|]. split; [simpl; lia|]. split; [exact eqb_equivalence|].
  split; [intros x y H; now apply N.eqb_eq in H|]. split; [exact G5w_distinct|]. split; [reflexivity|].
  split; [intros i k H; unfold kill_at in H; apply andb_true_iff in H as [H1 H2]; now apply Nat.eqb_eq in H1, H2|].
  split; [apply partitions_ran with (k := 150) (k' := 150); vm_compute; reflexivity|].
  split; [simpl; tauto|]. split; [simpl; tauto|]. split; [vm_compute; reflexivity|]. split; look.
Qed.

(** Filtering that is killed while the vertices are tested is reported as a success, and a rejected
    vertex is retained. *)
Theorem C36_killed_filter_refuted :
  exists X g f init kills r g' n,
    wf g /\ 0 < lanes X /\ backwards f = false /\ thinner f = None /\ init = root g /\
    (forall i k, kills i k = true -> i = 0 /\ k = 1) /\
    filters X g (edges_to g) f init kills (r, None) /\ left r = Some g' /\
    In n (ids g') /\ kept_vertex f n = false.
Proof.
  exists X3, FG, F21, 1, (kill_at 0 1). eexists. eexists. exists 3.
  split; [exact FG_wf|]. split; [simpl; lia|]. split; [auto|]. split; [auto|]. split; [auto|].
  split; [intros i k H; unfold kill_at in H; apply andb_true_iff in H as [H1 H2]; now apply Nat.eqb_eq in H1, H2|].
  split; [apply run_filter_killed_ran with (k := 150); vm_compute; reflexivity|].
  split; [vm_compute; reflexivity|]. split; [vm_compute; tauto|reflexivity].
Qed.

(** Filtering that is killed while the unreachable nodes are removed is reported as a success, and some
    edges of the graph lead to nodes that are destroyed. *)
Theorem C36_killed_pruning_refuted :
  exists X g f init kills r g' n l m,
    wf g /\ 0 < lanes X /\ backwards f = false /\ thinner f = None /\ init = root g /\
    (forall i k, kills i k = true -> i = 2 /\ k = 2) /\
    filters X g (edges_to g) f init kills (r, None) /\ left r = Some g' /\
    In n (ids g') /\ In (l, m) (es g' n) /\ ~ In m (ids g').
Proof.
  exists X3, FG, F21, 1, (kill_at 2 2). eexists. eexists. exists 1, 7%N, 4.
  split; [exact FG_wf|]. split; [simpl; lia|]. split; [auto|]. split; [auto|]. split; [auto|].
  split; [intros i k H; unfold kill_at in H; apply andb_true_iff in H as [H1 H2]; now apply Nat.eqb_eq in H1, H2|].
  split; [apply run_filter_killed_ran with (k := 150); vm_compute; reflexivity|].
  split; [vm_compute; reflexivity|]. split; [vm_compute; tauto|]. split; [vm_compute; tauto|]. vm_compute. intuition discriminate.
Qed.

(** ** C54 *)

(** A partition is returned though there is an error, which has nothing to do with kill switches. *)
Theorem C54_partition_with_error_refuted :
  exists (g : graph word nat) X mapped equal phash kills p e,
    wf g /\ 0 < lanes X /\ equivalence equal /\ (forall x y, equal x y = true -> phash x = phash y) /\
    (forall n, snd (mapped n) = None) /\ never_killed kills /\
    partitions X g mapped equal phash kills (Some p, Some e).
Proof.
  exists G4w, X3, middle, N.eqb, (fun _ => 0%N), no_kills. eexists. exists PARDPV.
  split; [exact G4w_wf|]. split; [simpl; lia|]. split; [exact eqb_equivalence|]. split; [auto|]. split; [reflexivity|].
  split; [exact no_kills_never|]. apply partitions_ran with (k := 150) (k' := 150); vm_compute; reflexivity.
Qed.
