(** Counting, visiting, back edges, and map-reduction. *)
From Coq Require Import List Arith NArith Lia Bool Permutation.
From Verif Require Import Base Machine Ports PortsProofs PortsTerm P_Ports Env Hash Graph Visitor VisitorProofs Walk Run Fold
  Traverse TraverseProofs ReduceProofs.
Import ListNotations.

Set Implicit Arguments.

Lemma nodup_app {A} (l1 l2 : list A) :
  NoDup l1 -> NoDup l2 -> (forall x, In x l1 -> ~ In x l2) -> NoDup (l1 ++ l2).
Proof.
  intros H1 H2 H. induction H1 as [|x l Hx Hl IH]; simpl; auto. constructor.
  - intros Hi. apply in_app_or in Hi as [Hi|Hi]; [auto|]. apply (H x); simpl; auto.
  - apply IH. intros y Hy. apply H. now right.
Qed.

(** ** C14: counting.  The counts can not be killed (src/count.c:218), hence the condition on
    [killcalls]. *)
Theorem C14_vertex_count (V E : Type) X (g : graph V E) c :
  wf g -> 0 < lanes X -> (forall k, killcalls X k = false) ->
  counts X g one_per_node c -> c = length (ids g).
Proof.
  intros W Hl Hk H. apply counts_total in H; auto. subst. clear.
  induction (ids g); simpl; auto.
Qed.

Theorem C14_terminus_count (V E : Type) X (g : graph V E) c :
  wf g -> 0 < lanes X -> (forall k, killcalls X k = false) ->
  counts X g one_per_terminus c ->
  exists ts, NoDup ts /\ (forall n, In n ts <-> In n (ids g) /\ es g n = []) /\ c = length ts.
Proof.
  intros W Hl Hk H. apply counts_total in H; auto. subst.
  exists (filter (fun n => match es g n with [] => true | _ => false end) (ids g)). repeat split.
  - apply NoDup_filter, (wf_nodup W).
  - now apply filter_In in H.
  - apply filter_In in H as [_ H]. destruct (es g n); [auto|discriminate].
  - intros [H1 H2]. apply filter_In. split; auto. now rewrite H2.
  - clear. induction (ids g) as [|n l IH]; simpl; auto. unfold one_per_terminus at 1. destruct (es g n); simpl; lia.
Qed.

(** An edge is given by its origin and its position in the origin's list. *)
Theorem C14_edge_count (V E : Type) X (g : graph V E) c :
  wf g -> 0 < lanes X -> (forall k, killcalls X k = false) ->
  counts X g one_per_edge c ->
  exists all, NoDup all /\ (forall n k, In (n, k) all <-> In n (ids g) /\ k < length (es g n)) /\ c = length all.
Proof.
  intros W Hl Hk H. apply counts_total in H; auto. subst.
  exists (flat_map (fun n => map (fun k => (n, k)) (seq 0 (length (es g n)))) (ids g)).
  split; [|split].
  - pose proof (wf_nodup W) as N. clear - N. induction (ids g) as [|n l IH]; simpl; [constructor|].
    inversion N as [|? ? N1 N2]; subst. apply nodup_app; auto.
    + apply FinFun.Injective_map_NoDup; [|apply seq_NoDup]. intros a b E1. now inversion E1.
    + intros [a b] H1 H3. apply in_map_iff in H1 as (k & E1 & _). inversion E1; subst.
      apply in_flat_map in H3 as (m & Hm & H3). apply in_map_iff in H3 as (k' & E2 & _). inversion E2; subst. auto.
  - intros n k. rewrite in_flat_map. split.
    + intros (m & Hm & H). apply in_map_iff in H as (k' & E1 & H). inversion E1; subst. apply in_seq in H. split; auto. lia.
    + intros [H1 H2]. exists n. split; auto. apply in_map_iff. exists k. split; auto. apply in_seq. lia.
  - clear. induction (ids g) as [|n l IH]; simpl; auto. rewrite app_length, map_length, seq_length, IH. reflexivity.
Qed.

(** *** Examples: a graph with a cycle, parallel edges and a terminus, three workers. *)
Definition G5 : graph nat nat :=
  mkGraph [10; 20; 30; 40; 50] (fun n => n)
    (fun n => match n with
              | 10 => [(1, 20); (2, 30); (3, 20)]
              | 20 => [(4, 40)]
              | 30 => [(5, 10); (6, 40); (7, 30)]
              | 40 => [(8, 50)]
              | _ => []
              end) 10.
Definition X3 : env := mkEnv 3 true (fun _ => true) (fun _ => false).

Lemma G5_wf : wf G5.
Proof.
  assert (P20 : path G5 10 20) by (eapply path_step; [constructor|simpl; eauto]).
  assert (P30 : path G5 10 30) by (eapply path_step; [constructor|simpl; eauto]).
  assert (P40 : path G5 10 40) by (eapply path_step; [exact P20|simpl; eauto]).
  assert (P50 : path G5 10 50) by (eapply path_step; [exact P40|simpl; eauto]).
  split.
  - repeat constructor; simpl; intuition discriminate.
  - simpl. auto.
  - intros n l m Hn Hm. simpl in Hn.
    repeat (destruct Hn as [<-|Hn];
            [simpl in Hm; repeat (destruct Hm as [Hm|Hm]; [inversion Hm; subst; simpl; auto 8|]); contradiction|]). contradiction.
  - intros n Hn. simpl in Hn. repeat (destruct Hn as [<-|Hn]; [first [assumption|constructor]|]). contradiction.
Qed.

Lemma counts_ran {V E} X (g : graph V E) w c k :
  1 < lanes X ->
  mainpc (sched_run (lanes X) (walk_dest (E := E) X) (walk X (es g) (count_act X g w)) (vstart (fun _ => 0)) (initial (root g)) k) = MDone ->
  c = summation (lanes X) (data (sh (sched_run (lanes X) (walk_dest (E := E) X) (walk X (es g) (count_act X g w)) (vstart (fun _ => 0)) (initial (root g)) k))) ->
  counts X g w c.
Proof.
  intros Hl H Hc. unfold counts. apply Nat.leb_gt in Hl. rewrite Hl. eexists. split; [|exact Hc]. now apply sched_ran.
Qed.

Example C14_vertex_count_ex : wf G5 /\ (forall k, killcalls X3 k = false) /\ counts X3 G5 one_per_node 5.
Proof.
  split; [exact G5_wf|]. split; [auto|]. apply counts_ran with (k := 150); [simpl; lia|vm_compute; reflexivity|vm_compute; reflexivity].
Qed.
Example C14_terminus_count_ex : counts X3 G5 one_per_terminus 1.
Proof. apply counts_ran with (k := 150); [simpl; lia|vm_compute; reflexivity|vm_compute; reflexivity]. Qed.
Example C14_edge_count_ex : counts X3 G5 one_per_edge 8.
Proof. apply counts_ran with (k := 150); [simpl; lia|vm_compute; reflexivity|vm_compute; reflexivity]. Qed.

(** ** C15: visiting.  [succ] are the edges in the chosen direction, [r] is the starting node, and
    [act] is any action, which may fail. *)
Theorem C15_each_vertex_exactly_once (S E : Type) X succ (act : S -> nat -> S * option error) d0 r s order :
  0 < lanes X -> Permutation order (seq 0 (lanes X)) ->
  ran (lanes X) (walk_dest (E := E) X) (walk X succ act) (vstart d0) (initial r) s ->
  vstatus X order s = None ->
  exists nodes, NoDup nodes /\ (forall n, In n nodes <-> along succ r n) /\ acts act d0 nodes = Some (data s).
Proof.
  intros Hl Ho Hr Hs. apply ran_completes in Hr; [|now apply vdest_lt]. eapply walk_success; eauto.
Qed.

(** Even if there are errors or the operation is killed, and at any moment, the action has been
    applied only to distinct vertices of the zone. *)
Definition performed {S} (act : S -> nat -> S * option error) (d : S) (nodes : list nat) : S :=
  fold_left (fun d n => fst (act d n)) nodes d.

(** Also, the error of a worker is that of the last action it has performed. *)
Lemma gwalk_any {S E} X succ (act : S -> nat -> S * option error) hash d0 r s (b : list (npkt E)) :
  mruns (gwalk X succ act hash) (vstart d0, [initial r]) (s, b) ->
  exists nodes, NoDup nodes /\ (forall n, In n nodes -> along succ r n) /\ data s = performed act d0 nodes /\
    forall l e, lerr s l = Some e ->
      exists n1 n n2, nodes = n1 ++ n :: n2 /\ snd (act (performed act d0 n1) n) = Some e /\
        lane_of (lanes X) (hash n) = l /\ forall m, In m n2 -> lane_of (lanes X) (hash m) <> l.
Proof.
  intros H.
  apply (mruns_inv (fun (s : @vst S nat) (b : list (npkt E)) =>
     (forall p, In p b -> along succ r (payload p)) /\
     exists nodes, NoDup nodes /\ (forall n, In n nodes -> along succ r n) /\ data s = performed act d0 nodes /\
     (forall n, In n (seen s (lane_of (lanes X) (hash n))) <-> In n nodes) /\
     forall l e, lerr s l = Some e ->
      exists n1 n n2, nodes = n1 ++ n :: n2 /\ snd (act (performed act d0 n1) n) = Some e /\
        lane_of (lanes X) (hash n) = l /\ forall m, In m n2 -> lane_of (lanes X) (hash m) <> l)) in H.
  - destruct H as (_ & nodes & A & B & C & _ & D). eauto 6.
  - intros s1 b1 b2 P (H1 & H2). split; auto. intros p Hp. apply H1. eapply Permutation_in; [symmetry; exact P|auto].
  - intros s1 p b1 s2 out (H1 & nodes & A & B & C & D & F) Ht. unfold gwalk, vtask in Ht.
    destruct (halted X payload hash s1 p) eqn:Eo.
    { inversion Ht; subst. simpl. split; [intros q Hq; apply H1; now right|]. exists nodes. auto. }
    assert (Enone : lerr s1 (vdest X payload hash p) = None).
    { unfold halted in Eo. destruct (lerr s1 (vdest X payload hash p)); [discriminate|auto]. }
    simpl in Ht. destruct (have_seen X payload Nat.eqb hash s1 p) eqn:Eh.
    { inversion Ht; subst. simpl. split; [intros q Hq; apply H1; now right|]. exists nodes.
      repeat (split; auto). intros l e. unfold upd. destruct (l =? vdest X payload hash p); [discriminate|apply F]. }
    unfold walk_first in Ht. destruct (act (data s1) (payload p)) as [d e] eqn:Ea. inversion Ht; subst; clear Ht. simpl.
    pose proof (H1 p (or_introl eq_refl)) as Hp.
    split.
    { intros q Hq. apply in_app_or in Hq as [Hq|Hq]; [|apply H1; now right].
      apply in_map_iff in Hq as ([l m] & <- & Hm). simpl. econstructor; eauto. }
    assert (Hn : ~ In (payload p) nodes).
    { intros Hn. apply D in Hn. unfold have_seen in Eh.
      assert (existsb (Nat.eqb (payload p)) (seen s1 (vdest X payload hash p)) = true); [|congruence].
      apply existsb_exists. exists (payload p). split; [exact Hn|apply Nat.eqb_refl]. }
    exists (nodes ++ [payload p]). repeat split.
    + apply nodup_app; auto; [repeat constructor; auto|]. intros x Hx [<-|[]]; auto.
    + intros n Hn'. apply in_app_or in Hn' as [Hn'|[<-|[]]]; auto.
    + unfold performed. rewrite fold_left_app. simpl. fold (performed act d0 nodes). now rewrite <- C, Ea.
    + intros Hs. apply in_or_app. unfold upd in Hs.
      destruct (lane_of (lanes X) (hash n) =? vdest X payload hash p) eqn:El.
      * destruct Hs as [<-|Hs]; [right; simpl; auto|]. apply Nat.eqb_eq in El. rewrite <- El in Hs. left. now apply D.
      * left. now apply D.
    + intros Hs. unfold upd. destruct (Nat.eqb_spec (lane_of (lanes X) (hash n)) (vdest X payload hash p)) as [El|El].
      * apply in_app_or in Hs as [Hs|[<-|[]]]; [right; rewrite <- El; now apply D|now left].
      * apply in_app_or in Hs as [Hs|[<-|[]]]; [now apply D|]. exfalso. apply El. reflexivity.
    + intros l x. unfold upd. destruct (Nat.eqb_spec l (vdest X payload hash p)) as [El|El].
      * intros ->. exists nodes, (payload p), []. rewrite <- C, Ea. repeat split; auto.
      * intros Hx. destruct (F l x Hx) as (n1 & n & n2 & -> & F1 & F2 & F3).
        exists n1, n, (n2 ++ [payload p]). rewrite <- app_assoc. repeat split; auto.
        intros m Hm. apply in_app_or in Hm as [Hm|[<-|[]]]; auto.
  - simpl. split; [intros p [<-|[]]; constructor|]. exists []. split; [constructor|]. split; [intros ? []|].
    split; [reflexivity|]. split; [simpl; tauto|]. discriminate.
Qed.

Lemma walk_any {S E} X succ (act : S -> nat -> S * option error) d0 r s (b : list (npkt E)) :
  mruns (walk X succ act) (vstart d0, [initial r]) (s, b) ->
  exists nodes, NoDup nodes /\ (forall n, In n nodes -> along succ r n) /\ data s = performed act d0 nodes.
Proof. intros H. destruct (gwalk_any H) as (nodes & A & B & C & _). eauto. Qed.

Theorem C15_never_twice_and_nothing_else (S E : Type) X succ (act : S -> nat -> S * option error) d0 r y :
  0 < lanes X ->
  reachable (lanes X) (walk_dest (E := E) X) (walk X succ act) (initial r) (vstart d0) y ->
  exists nodes, NoDup nodes /\ (forall n, In n nodes -> along succ r n) /\ data (sh y) = performed act d0 nodes.
Proof.
  intros Hl Hr. assert (Hd : forall p, walk_dest (E := E) X p < lanes X) by now apply vdest_lt.
  assert (Hi : exists b, mruns (walk X succ act) (vstart d0, [initial r]) (sh y, b)).
  { pose proof (refines Hd Hr) as H. destruct (mainpc y).
    1-2: destruct H as (-> & _); exists [initial r]; constructor.
    all: destruct H as (b & H & _); eauto. }
  destruct Hi as (b & Hm). eapply walk_any; eauto.
Qed.

(** Every schedule comes to an end, if the zone is finite. *)
Theorem C15_traversal_terminates (S E : Type) X succ (act : S -> nat -> S * option error) d0 r zone y :
  0 < lanes X -> In r zone -> (forall n l m, In n zone -> In (l, m) (succ n) -> In m zone) ->
  reachable (lanes X) (walk_dest (E := E) X) (walk X succ act) (initial r) (vstart d0) y ->
  Acc (fun y' x => step (lanes X) (walk_dest (E := E) X) (walk X succ act) (initial r) x y') y.
Proof.
  intros Hl Hr Hz Hy. eapply C11_every_schedule_terminates; eauto.
  - now apply vdest_lt.
  - apply walk_total.
  - eapply walk_terminates; eauto.
Qed.

Definition note (d : list nat) (n : nat) : list nat * option error := (n :: d, None).
Local Notation run_note := (sched_run (lanes X3) (walk_dest (E := nat) X3) (walk X3 (es G5) note) (vstart []) (initial 30) 150).
Lemma run_note_done : mainpc run_note = MDone.
Proof. vm_compute. reflexivity. Qed.
Example C15_each_vertex_exactly_once_ex :
  ran (lanes X3) (walk_dest (E := nat) X3) (walk X3 (es G5) note) (vstart []) (initial 30) (sh run_note) /\
  vstatus X3 [2; 0; 1] (sh run_note) = None /\ Permutation [2; 0; 1] (seq 0 3) /\
  length (data (sh run_note)) = 5 /\ Permutation (data (sh run_note)) [10; 20; 30; 40; 50].
Proof.
  split; [apply sched_ran; exact run_note_done|].
  split; [vm_compute; reflexivity|]. split; [simpl; perm_solve|]. split; [vm_compute; reflexivity|].
  apply NoDup_Permutation; [vm_compute; repeat constructor; simpl; intuition discriminate
                           |repeat constructor; simpl; intuition discriminate|].
  vm_compute. intuition.
Qed.
Example C15_traversal_terminates_ex :
  In 30 (ids G5) /\ (forall n l m, In n (ids G5) -> In (l, m) (es G5 n) -> In m (ids G5)).
Proof. split; [simpl; auto|]. apply (wf_closed G5_wf). Qed.

(** ** C45: back edges *)
Theorem C45_incident_edges_are_exactly_the_inverse_edges (V E : Type) X (g : graph V E) d0 s order :
  wf g -> 0 < lanes X -> Permutation order (seq 0 (lanes X)) ->
  ran (lanes X) (walk_dest (E := E) X) (full_duplexing X g) (vstart d0) (initial (root g)) s ->
  vstatus X order s = None ->
  (forall m, In m (ids g) -> Permutation (data s m) (edges_to g m)) /\
  (forall m, ~ In m (ids g) -> data s m = d0 m).
Proof.
  intros W Hl Ho Hr Hs. apply ran_completes in Hr; [|now apply vdest_lt].
  pose proof (full_duplex_facts W Hl Ho Hr Hs) as F.
  split; intros m Hm; specialize (F m).
  - replace (existsb (Nat.eqb m) (ids g)) with true in F; auto. symmetry. apply existsb_exists.
    exists m. split; auto. apply Nat.eqb_refl.
  - replace (existsb (Nat.eqb m) (ids g)) with false in F; auto. symmetry. apply not_true_is_false.
    intros E1. apply existsb_exists in E1 as (n & Hn & E1). apply Nat.eqb_eq in E1. now subst.
Qed.

(** Removing the back edges leaves none, and restores a graph without them. *)
Theorem C45_back_edges_are_removed (V E : Type) X (g : graph V E) d0 s order :
  wf g -> 0 < lanes X -> Permutation order (seq 0 (lanes X)) ->
  ran (lanes X) (walk_dest (E := E) X) (half_duplexing X g) (vstart d0) (initial (root g)) s ->
  vstatus X order s = None ->
  (forall m, In m (ids g) -> data s m = []) /\ (forall m, ~ In m (ids g) -> data s m = d0 m).
Proof.
  intros W Hl Ho Hr Hs. apply ran_completes in Hr; [|now apply vdest_lt].
  apply walk_success with (order := order) in Hr as (nodes & A & B & C); auto.
  assert (G : forall nodes d d', acts (@half_act E) d nodes = Some d' ->
            forall m, (In m nodes -> d' m = []) /\ (~ In m nodes -> d' m = d m)).
  { clear. induction nodes as [|n nodes IH]; simpl; intros d d' H m.
    - inversion H; subst. split; [intros []|auto].
    - destruct (IH _ _ H m) as [I1 I2]. destruct (in_dec Nat.eq_dec m nodes) as [Hi|Hi].
      + split; [auto|intros Hn; exfalso; auto].
      + rewrite (I2 Hi). split; [intros [<-|?]; [apply upd_same|contradiction]|].
        intros Hn. apply upd_diff. intros ->. apply Hn. auto. }
  split; intros m Hm; destruct (G nodes d0 (data s) C m) as [G1 G2]; [apply G1|apply G2].
  - apply B. now apply along_ids.
  - intros Hn. apply Hm. apply B in Hn. now apply along_ids in Hn.
Qed.

Theorem C45_round_trip (V E : Type) X X' (g : graph V E) d0 s s' order order' :
  wf g -> 0 < lanes X -> 0 < lanes X' ->
  Permutation order (seq 0 (lanes X)) -> Permutation order' (seq 0 (lanes X')) ->
  (forall m, In m (ids g) -> d0 m = []) ->
  ran (lanes X) (walk_dest (E := E) X) (full_duplexing X g) (vstart d0) (initial (root g)) s ->
  vstatus X order s = None ->
  ran (lanes X') (walk_dest (E := E) X') (half_duplexing X' g) (vstart (data s)) (initial (root g)) s' ->
  vstatus X' order' s' = None ->
  forall m, data s' m = d0 m.
Proof.
  intros W Hl Hl' Ho Ho' Hd Hr Hs Hr' Hs' m.
  destruct (C45_incident_edges_are_exactly_the_inverse_edges W Hl Ho Hr Hs) as [A B].
  destruct (C45_back_edges_are_removed W Hl' Ho' Hr' Hs') as [A' B'].
  destruct (in_dec Nat.eq_dec m (ids g)) as [Hi|Hi].
  - rewrite A', Hd; auto.
  - rewrite B', B; auto.
Qed.

(** Whether there are back edges can be told by looking at one vertex. *)
Theorem C45_duplex_test_is_right (V E : Type) (g : graph V E) ein :
  wf g ->
  ((forall m, In m (ids g) -> ein m = []) -> is_half_duplex g ein = true) /\
  ((forall m, In m (ids g) -> Permutation (ein m) (edges_to g m)) ->
   (is_half_duplex g ein = true <-> forall m, In m (ids g) -> ein m = [])).
Proof.
  intros W. unfold is_half_duplex. split.
  - intros H. destruct (es g (root g)) as [|[l m] es'] eqn:Er; auto.
    rewrite H; auto. eapply (wf_closed W); [apply (wf_root W)|]. rewrite Er. simpl. eauto.
  - intros H. destruct (es g (root g)) as [|[l m] es'] eqn:Er.
    + split; auto. intros _ m Hm.
      assert (Hone : forall n, In n (ids g) -> n = root g).
      { intros n Hn. apply (wf_reach W) in Hn. induction Hn as [|b l c Hb IH Hc]; auto. subst. rewrite Er in Hc. contradiction. }
      assert (Et : edges_to g m = []).
      { unfold edges_to. pose proof Hone as Ho. clear - Ho Er. induction (ids g) as [|n l IH]; simpl; auto.
        rewrite (Ho n (or_introl eq_refl)), Er. simpl. apply IH. intros; apply Ho; now right. }
      specialize (H m Hm). rewrite Et in H. now apply Permutation_sym, Permutation_nil in H.
    + assert (Hm : In m (ids g)) by (eapply (wf_closed W); [apply (wf_root W)|rewrite Er; simpl; eauto]).
      assert (Hin : In (l, root g) (edges_to g m)).
      { unfold edges_to. apply in_flat_map. exists (root g). split; [apply (wf_root W)|].
        apply in_map_iff. exists (l, m). split; auto. apply filter_In. split; [rewrite Er; simpl; auto|]. apply Nat.eqb_refl. }
      split.
      * intros E1. exfalso. specialize (H m Hm). destruct (ein m); [|discriminate].
        apply Permutation_nil in H. rewrite H in Hin. contradiction.
      * intros H0. now rewrite H0.
Qed.

Local Notation run_full := (sched_run (lanes X3) (walk_dest (E := nat) X3) (full_duplexing X3 G5) (vstart (fun _ => [])) (initial (root G5)) 150).
Local Notation run_half := (sched_run (lanes X3) (walk_dest (E := nat) X3) (half_duplexing X3 G5) (vstart (data (sh run_full))) (initial (root G5)) 150).
Lemma run_full_done : mainpc run_full = MDone.
Proof. vm_compute. reflexivity. Qed.
Lemma run_half_done : mainpc run_half = MDone.
Proof. vm_compute. reflexivity. Qed.

Example C45_incident_edges_ex :
  ran (lanes X3) (walk_dest (E := nat) X3) (full_duplexing X3 G5) (vstart (fun _ => [])) (initial (root G5)) (sh run_full) /\
  vstatus X3 [0; 1; 2] (sh run_full) = None /\ length (data (sh run_full) 20) = 2 /\
  edges_to G5 40 = [(4, 20); (6, 30)] /\ edges_to G5 30 = [(2, 10); (7, 30)] /\ length (data (sh run_full) 30) = 2.
Proof. split; [apply sched_ran; exact run_full_done|]. vm_compute. repeat split. Qed.
Example C45_round_trip_ex :
  ran (lanes X3) (walk_dest (E := nat) X3) (half_duplexing X3 G5) (vstart (data (sh run_full))) (initial (root G5)) (sh run_half) /\
  vstatus X3 [0; 1; 2] (sh run_half) = None /\ map (data (sh run_half)) (ids G5) = [[]; []; []; []; []].
Proof. split; [apply sched_ran; exact run_half_done|]. vm_compute. repeat split. Qed.

(** ** C16: map-reduction *)

(** The concurrent evaluation: every vertex of the zone is mapped exactly once, without error, and
    the result is obtained from the mapped values, each used once, by applications of the
    reduction. *)
Theorem C16_result_of_concurrent_reduction (V E : Type) X (g : graph V E) ein mapped red vac back stored i z :
  0 < lanes X -> lanes X <> 1 \/ stored = true \/ (forall ns, ids g <> i :: ns) ->
  mapreduces X g ein mapped red vac back stored i (z, None) ->
  exists nodes xs,
    NoDup nodes /\ (forall n, In n nodes <-> along (if back then ein else es g) i n) /\
    Forall2 (fun n x => mapped n = (x, None)) nodes xs /\ combined red xs z.
Proof.
  intros Hl Hpar H. unfold mapreduces in H.
  assert (Ec : (lanes X =? 1) && negb stored && (match ids g with n :: _ => n =? i | [] => false end) = false).
  { destruct Hpar as [H1|[->|H1]].
    - apply Nat.eqb_neq in H1. now rewrite H1.
    - now rewrite andb_false_r.
    - destruct (ids g) as [|n ns]; [now rewrite andb_false_r|].
      destruct (Nat.eqb_spec n i); [subst; exfalso; eapply H1; eauto|now rewrite andb_false_r]. }
  rewrite Ec in H. destruct H as (s & v & e & Hr & Hf & Hz).
  destruct (first_of e (if is_killed X s then Some INTKIL else None)) eqn:Ee; [discriminate|].
  apply first_of_none in Ee as [-> Ek]. destruct (is_killed X s) eqn:Ek'; [discriminate|].
  apply ran_completes in Hr; [|now apply vdest_lt].
  destruct (mapreduce_facts Hl Hr Hf Ek') as (nodes & xs & z' & A & B & C & D & ->).
  inversion Hz; subst. eauto 6.
Qed.

(** The sequential evaluation, which takes place with one worker if the initial node heads the list
    of nodes.  Only if the zone is the whole graph, and there is no vacuous case, is the result
    what it should be. *)
Theorem C16_result_of_sequential_reduction (V E : Type) X (g : graph V E) ein mapped red back i ns z :
  lanes X = 1 -> ids g = i :: ns ->
  mapreduces X g ein mapped red None back false i (z, None) ->
  exists xs, Forall2 (fun n x => mapped n = (x, None)) (ids g) xs /\ combined red xs z.
Proof.
  intros El Ei H. unfold mapreduces in H. rewrite El, Ei in H. simpl in H. rewrite Nat.eqb_refl in H.
  destruct (mapped i) as [x [e|]] eqn:Em; [discriminate|]. rewrite Ei. symmetry in H.
  assert (G : forall ns acc ys z, combined red ys acc -> reduce_nodes mapped red ns acc = (z, None) ->
            exists xs, Forall2 (fun n x => mapped n = (x, None)) ns xs /\ combined red (ys ++ xs) z).
  { clear. induction ns as [|n ns IH]; simpl; intros acc ys z C H.
    - inversion H; subst. exists []. rewrite app_nil_r. auto.
    - destruct (mapped n) as [x [e|]] eqn:Em; [discriminate|].
      destruct (red x acc) as [y [e|]] eqn:Er; [discriminate|].
      destruct (IH y (ys ++ [x]) z) as (xs & F & C'); auto.
      { eapply comb_perm; [apply Permutation_app_comm|]. eapply comb_two; [constructor|exact C|exact Er]. }
      exists (x :: xs). split; [constructor; auto|]. now rewrite <- app_assoc in C'. }
  destruct (G ns x [x] z (comb_one _ _) H) as (xs & F & C). exists (x :: xs). split; [constructor; auto|exact C].
Qed.

(** With an associative and commutative reduction the result is determined: the fold over the zone
    in any order. *)
Theorem C16_result_is_the_sequential_fold (V E : Type) X (g : graph V E) ein f r vac back stored i z :
  0 < lanes X -> lanes X <> 1 \/ stored = true \/ (forall ns, ids g <> i :: ns) ->
  (forall x y z, r (r x y) z = r x (r y z)) -> (forall x y, r x y = r y x) ->
  mapreduces X g ein (fun n => (f n, None)) (fun x y => (r x y, None)) vac back stored i (z, None) ->
  forall n ns, NoDup (n :: ns) -> (forall m, In m (n :: ns) <-> along (if back then ein else es g) i m) ->
  z = fold_left r (map f ns) (f n).
Proof.
  intros Hl Hpar Ha Hc H n ns Hnd Hz.
  apply C16_result_of_concurrent_reduction in H; auto. destruct H as (nodes & xs & A & B & C & D).
  assert (Ex : xs = map f nodes).
  { clear - C. induction C as [|n x l l' E1 F IH]; simpl; auto. inversion E1. now rewrite IH. }
  rewrite Ex in D. refine (combined_ac (red := fun x y => (r x y, None)) r (fun x y => eq_refl) Ha Hc D _).
  change (f n :: map f ns) with (map f (n :: ns)). apply Permutation_map.
  apply NoDup_Permutation; auto. intros m. now rewrite B, Hz.
Qed.

(** The vacuous case alone determines the result for the empty graph. *)
Theorem C16_empty_graph vac :
  mapreduces_empty vac = match vac with
                         | None => (null, Some UNDVAC)
                         | Some (x, None) => (x, None)
                         | Some (_, Some e) => (null, Some e)
                         end.
Proof. unfold mapreduces_empty. destruct vac as [[x [e|]]|]; reflexivity. Qed.

(** *** Examples *)
Definition addN (x y : word) : outcome := ((x + y)%N, None).
Definition val (n : nat) : outcome := (N.of_nat n, None).
Lemma mapreduces_ran {V E} X (g : graph V E) ein mapped red vac back stored i k pool v e r :
  let y := sched_run (lanes X) (walk_dest (E := E) X) (mapreducing X g ein mapped red back) (vstart (fun _ => None)) (initial i) k in
  (lanes X =? 1) && negb stored && (match ids g with n :: _ => n =? i | [] => false end) = false ->
  mainpc y = MDone -> map (worker_result (sh y)) (seq 0 (lanes X)) = pool -> fuses red pool None v e ->
  r = match first_of e (if is_killed X (sh y) then Some INTKIL else None) with
      | Some e => (null, Some e)
      | None => (match v with Some x => x | None => null end, None)
      end ->
  mapreduces X g ein mapped red vac back stored i r.
Proof.
  intros y Hc Hd Hp Hf Hr. unfold mapreduces. rewrite Hc. exists (sh y), v, e.
  split; [now apply sched_ran|]. rewrite Hp. auto.
Qed.

Definition results3 : list (option maybe) := Eval vm_compute in
  map (worker_result (sh (sched_run (lanes X3) (walk_dest (E := nat) X3) (mapreducing X3 G5 (fun _ => []) val addN false)
                                (vstart (fun _ => None)) (initial 10) 150))) (seq 0 3).

Lemma results3_fuse : fuses addN results3 None (Some 150%N) None.
Proof.
  unfold results3.
  repeat first
    [ eapply fuse_last
    | eapply fuse_null; [reflexivity|]
    | eapply fuse_null; [apply perm_swap|]
    | eapply fuse_null; [symmetry; apply (Permutation_cons_append [_; _])|]
    | eapply fuse_pair; [reflexivity|discriminate|cbn] ].
Qed.

Example C16_result_of_concurrent_reduction_ex :
  mapreduces X3 G5 (fun _ => []) val addN (Some (7%N, None)) false false 10 (150%N, None).
Proof.
  apply mapreduces_ran with (k := 150) (pool := results3) (v := Some 150%N) (e := None);
    [reflexivity|vm_compute; reflexivity|vm_compute; reflexivity|exact results3_fuse|vm_compute; reflexivity].
Qed.

Definition X1 : env := mkEnv 1 true (fun _ => true) (fun _ => false).
Example C16_result_of_sequential_reduction_ex :
  mapreduces X1 G5 (fun _ => []) val addN None false false 10 (150%N, None).
Proof. vm_compute. reflexivity. Qed.

(** *** Counterexamples *)

(** The result may depend on the number of workers even if the reduction is associative and
    commutative, because the vacuous case is used as an operand in the sequential evaluation only
    (src/nodes.c:478-479), contrary to man/man7/cru_prop.7.in, where it is said only to determine
    the result for empty graphs. *)
Theorem C16_vacuous_case_refuted :
  exists X X' (g : graph nat nat) ein mapped red vac i z z',
    wf g /\ 0 < lanes X /\ 0 < lanes X' /\
    (exists r, forall x y, red x y = (r x y, None) /\ r x y = r y x /\ forall w, r (r x y) w = r x (r y w)) /\
    (forall n, snd (mapped n) = None) /\ i = root g /\
    mapreduces X g ein mapped red vac false false i (z, None) /\
    mapreduces X' g ein mapped red vac false false i (z', None) /\ z <> z'.
Proof.
  exists X1, X3, G5, (fun _ => []), val, addN, (Some (7%N, None)), 10, 157%N, 150%N.
  split; [exact G5_wf|]. split; [simpl; lia|]. split; [simpl; lia|].
  split; [exists N.add; intros x y; repeat split; intros; lia|]. split; [auto|]. split; [auto|].
  split; [vm_compute; reflexivity|]. split; [exact C16_result_of_concurrent_reduction_ex|discriminate].
Qed.

(** With one worker, the whole list of nodes is reduced (src/entry.c:585-588), even if the zone is
    oriented backwards and contains only a part of it. *)
Theorem C16_zone_refuted :
  exists X (g : graph nat nat) ein mapped red i z,
    wf g /\ lanes X = 1 /\ i = root g /\ (forall m, In m (ids g) -> Permutation (ein m) (edges_to g m)) /\
    (forall n, mapped n = (1%N, None)) /\ (forall x y, red x y = ((x + y)%N, None)) /\
    mapreduces X g ein mapped red None true false i (z, None) /\
    (forall n, along ein i n <-> n = 10 \/ n = 30) /\ z <> 2%N.
Proof.
  exists X1, G5, (edges_to G5), (fun _ => (1%N, None)), addN, 10, 5%N.
  split; [exact G5_wf|]. split; [auto|]. split; [auto|]. split; [auto|]. split; [auto|]. split; [auto|].
  split; [vm_compute; reflexivity|]. split; [|discriminate].
  intros n. split.
  - intros H. induction H as [|n l m H IH Hm]; auto.
    destruct IH as [E1|E1]; subst n; vm_compute in Hm; repeat (destruct Hm as [Hm|Hm]; [inversion Hm; auto|]); contradiction.
  - intros [->| ->]; [constructor|]. eapply along_step with (n := 10) (l := 5); [constructor|vm_compute; auto].
Qed.

(** After an error of the map at the first vertex seen by a worker, the worker goes on, and the
    reduction is applied to NULL in place of the missing value (src/mapreduce.c:68 and 73-75), so
    that the error reported in the end may be one caused by that. *)
Theorem C16_reduction_of_missing_value_refuted :
  exists X (g : graph nat nat) ein mapped red i,
    wf g /\ 0 < lanes X /\ i = root g /\
    (forall n x, mapped n = (x, None) -> x <> null) /\
    (forall x y, x <> null -> y <> null -> snd (red x y) = None) /\
    (forall n e, snd (mapped n) = Some e -> e = USERERR 5) /\
    mapreduces X g ein mapped red None false true i (null, Some (USERERR 77)).
Proof.
  set (mp := fun n : nat => if Nat.eqb n 10 then (null, Some (USERERR 5)) else (1%N, None)).
  set (rd := fun x y : word => if is_null x || is_null y then (null, Some (USERERR 77)) else ((x + y)%N, None : option error)).
  exists X1, G5, (fun _ => []), mp, rd, 10.
  split; [exact G5_wf|]. split; [simpl; lia|]. split; [auto|].
  split; [intros n x; unfold mp; destruct (n =? 10); intros H; inversion H; discriminate|].
  split.
  { intros x y Hx Hy. unfold rd, is_null. apply N.eqb_neq in Hx, Hy. unfold null in *. now rewrite Hx, Hy. }
  split; [intros n e; unfold mp; destruct (n =? 10); simpl; intros H; inversion H; auto|].
  apply mapreduces_ran with (k := 150) (pool := [Some (mkMaybe None (Some (USERERR 77)))]) (v := None) (e := Some (USERERR 77));
    [reflexivity|vm_compute; reflexivity|vm_compute; reflexivity| |vm_compute; reflexivity].
  apply (fuse_last rd (mkMaybe None (Some (USERERR 77)))).
Qed.
