(** Theorems about the message passing layer: claims C09, C10, C11, C12, C47, C48. *)
From Coq Require Import List Arith Lia Bool Permutation.
From Verif Require Import Base Machine Ports PortsProofs PortsLive PortsTerm PortsExec.
Import ListNotations.

Set Implicit Arguments.

(** ** Specification vocabulary *)

(** A worker and its port hold no packet at all, and the worker is suspended. *)
Definition idle {S P} (lanes : nat) (s : @sys S P) (i : nat) : Prop :=
  pcs s i = Sleep /\ inc s i = [] /\ (forall j, j < lanes -> pod s i j = []) /\
  ldef s i = [] /\ asg s i = [] /\ dfr s i = [].

(** The launching thread has seen the end of the traversal. *)
Definition traversal_over {S P} (s : @sys S P) : Prop :=
  (exists j, mainpc s = MDismiss j) \/ mainpc s = MJoin \/ mainpc s = MDone.

(** A small instance used in the examples: packets are numbers, a number [p] below 5
    sends [p+1] and [p+3]; packet 4 is deferred until packet 5 has been processed. *)
Definition ex_task (s : list nat) (p : nat) : option (list nat * list nat) :=
  if (p =? 4) && negb (existsb (Nat.eqb 5) s) then None
  else Some (p :: s, if p <? 3 then [p + 1; p + 3] else []).
Definition ex_dest (p : nat) : nat := p mod 2.
Definition round : list who := [W 0; W 1; W 0; W 1; M].
Fixpoint rounds (n : nat) : list who := match n with 0 => [] | S k => round ++ rounds k end.

(** ** C09 *)
Theorem C09_quiescence_sound :
  forall (S P : Type) (lanes : nat) (dest : P -> nat) (task : S -> P -> option (S * list P))
         (p0 : P) (s0 : S) (s : sys),
    (forall p, dest p < lanes) ->
    reachable lanes dest task p0 s0 s -> mainpc s = MWait -> quiescent s = true ->
    forall i, i < lanes -> idle lanes s i.
Proof.
  intros S P lanes dest task p0 s0 s Hd Hr Hm Hq i Hi.
  assert (Hf : in_flight lanes s = []) by (eapply quiescence_sound; eauto; congruence).
  pose proof (proj1 (flight_nil lanes s) Hf i Hi) as (H1 & H2 & H3 & H4 & H5).
  pose proof (inv_reachable Hd Hr) as [Hs He]. rewrite Hm in He.
  repeat split; auto.
  destruct (e_phase He) as [(A & _)|[(A & _)|(_ & B)]]; try congruence.
  apply B in Hq. rewrite (e_running He) in Hq.
  apply (proj1 (cnt_zero lanes (act s))) with (i := i) in Hq; auto.
  unfold act in Hq. apply orb_false_iff in Hq as [Hq _]. apply negb_false_iff in Hq.
  now apply (sh_wait Hs) in Hq.
Qed.


Lemma ex_dest_ok : forall p, ex_dest p < 2.
Proof. intros p. apply Nat.mod_upper_bound. lia. Qed.

Definition sched_quiet : list who := rounds 26 ++ [W 0; W 1; W 0; W 1].

Lemma rounds_ok n : Forall no_spurious (rounds n).
Proof. induction n; simpl; repeat (constructor; simpl; auto). Qed.

Lemma sched_quiet_ok : Forall no_spurious sched_quiet.
Proof. apply Forall_app; split; [apply rounds_ok|]. repeat (constructor; simpl; auto). Qed.

(** Seven packets have been processed (one of them deferred first) when quiescence is declared. *)
Example C09_quiescence_sound_ex :
  let s := exec 2 ex_dest ex_task 0 sched_quiet (init 2 []) in
  (forall p, ex_dest p < 2) /\ reachable 2 ex_dest ex_task 0 [] s /\
  mainpc s = MWait /\ quiescent s = true /\ sh s = [4; 3; 5; 2; 1; 3; 0].
Proof.
  intros s. split; [apply ex_dest_ok|]. split; [apply exec_sound, sched_quiet_ok|].
  repeat split; vm_compute; reflexivity.
Qed.

(** What a finished traversal has computed is what some sequential execution of the
    task over a bag of packets computes. *)
Theorem C09_finished_traversal_is_complete :
  forall (S P : Type) (lanes : nat) (dest : P -> nat) (task : S -> P -> option (S * list P))
         (p0 : P) (s0 : S) (s : sys),
    (forall p, dest p < lanes) ->
    reachable lanes dest task p0 s0 s -> traversal_over s -> completes task s0 p0 (sh s).
Proof.
  intros S P lanes dest task p0 s0 s Hd Hr Hf. eapply refines_finished; eauto.
  destruct Hf as [[j H]|[H|H]]; rewrite H; exact I.
Qed.

Example C09_finished_traversal_is_complete_ex :
  let s := exec 2 ex_dest ex_task 0 (rounds 31) (init 2 []) in
  reachable 2 ex_dest ex_task 0 [] s /\ traversal_over s /\ mainpc s = MDone /\
  sh s = [4; 3; 5; 2; 1; 3; 0].
Proof.
  intros s. split; [apply exec_sound, rounds_ok|].
  assert (E : mainpc s = MDone) by (vm_compute; reflexivity).
  split; [right; right; exact E|]. split; [exact E|]. vm_compute. reflexivity.
Qed.

(** ** C10 *)
Theorem C10_conservation :
  forall (S P : Type) (lanes : nat) (dest : P -> nat) (task : S -> P -> option (S * list P))
         (p0 : P) (s0 : S) (s : sys),
    (forall p, dest p < lanes) ->
    reachable lanes dest task p0 s0 s ->
    Permutation (sent s) (map snd (hist s) ++ in_flight lanes s) /\ lost s = [].
Proof. intros. eapply conservation; eauto. Qed.

Theorem C10_routing :
  forall (S P : Type) (lanes : nat) (dest : P -> nat) (task : S -> P -> option (S * list P))
         (p0 : P) (s0 : S) (s : sys),
    reachable lanes dest task p0 s0 s ->
    (forall i p, In (i, p) (hist s) -> dest p = i) /\
    (forall i p, In p (inc s i) \/ In p (ldef s i) \/ In p (asg s i) \/ In p (dfr s i) -> dest p = i) /\
    (forall i j p, In p (pod s i j) -> dest p = j).
Proof.
  intros S P lanes dest task p0 s0 s Hr. pose proof (routed_reachable Hr) as [R1 R2 R3 R4 R5 R6].
  repeat split; eauto. intros i p [H|[H|[H|H]]]; eauto.
Qed.

(** At the end every packet ever sent has been processed exactly once. *)
Theorem C10_exactly_once :
  forall (S P : Type) (lanes : nat) (dest : P -> nat) (task : S -> P -> option (S * list P))
         (p0 : P) (s0 : S) (s : sys),
    (forall p, dest p < lanes) ->
    reachable lanes dest task p0 s0 s -> traversal_over s ->
    Permutation (sent s) (map snd (hist s)).
Proof.
  intros S P lanes dest task p0 s0 s Hd Hr Hf.
  destruct (conservation Hd Hr) as [H _].
  pose proof (inv_reachable Hd Hr) as [_ Hi].
  assert (E : in_flight lanes s = []).
  { destruct Hf as [[j Hm]|[Hm|Hm]]; rewrite Hm in Hi.
    - apply (l_flight Hi). - apply (l_flight Hi). - apply (l_flight (proj1 Hi)). }
  now rewrite E, app_nil_r in H.
Qed.

Example C10_ex :
  let s := exec 2 ex_dest ex_task 0 (rounds 31) (init 2 []) in
  reachable 2 ex_dest ex_task 0 [] s /\ traversal_over s /\
  hist s = [(0, 4); (1, 3); (1, 5); (0, 2); (1, 1); (1, 3); (0, 0)] /\
  length (sent s) = 7.
Proof.
  intros s. split; [apply exec_sound, rounds_ok|].
  assert (E : mainpc s = MDone) by (vm_compute; reflexivity).
  split; [right; right; exact E|]. split; vm_compute; reflexivity.
Qed.

(** ** C11 *)
Theorem C11_no_deadlock :
  forall (S P : Type) (lanes : nat) (dest : P -> nat) (task : S -> P -> option (S * list P))
         (p0 : P) (s0 : S) (s : sys),
    (forall p, dest p < lanes) ->
    reachable lanes dest task p0 s0 s -> mainpc s <> MDone ->
    exists s', step lanes dest task p0 s s'.
Proof. intros. eapply progress; eauto. Qed.

(** It never happens that all workers sleep unsignalled while packets remain. *)
Theorem C11_somebody_awake :
  forall (S P : Type) (lanes : nat) (dest : P -> nat) (task : S -> P -> option (S * list P))
         (p0 : P) (s0 : S) (s : sys) (p : P),
    (forall p, dest p < lanes) ->
    reachable lanes dest task p0 s0 s -> In p (in_flight lanes s) ->
    exists i, i < lanes /\ (pcs s i <> Sleep \/ woken s i = true).
Proof.
  intros S P lanes dest task p0 s0 s p Hd Hr Hp.
  pose proof (inv_reachable Hd Hr) as [Hs Hi].
  assert (He : early lanes s).
  { destruct (mainpc s); auto; exfalso.
    - rewrite (l_flight Hi) in Hp; contradiction.
    - rewrite (l_flight Hi) in Hp; contradiction.
    - rewrite (l_flight (proj1 Hi)) in Hp; contradiction. }
  assert (Hrun : running s <> 0).
  { intros E. destruct (e_phase He) as [(A & B & C)|[(A & B & _)|(A & B)]].
    - rewrite B in Hp. contradiction.
    - rewrite B in Hp. contradiction.
    - apply B in E. rewrite (@quiescence_sound _ _ lanes dest task p0 Hd s0 s) in Hp; auto; congruence. }
  rewrite (e_running He) in Hrun.
  assert (E : exists i, i < lanes /\ act s i = true).
  { clear -Hrun. induction lanes as [|n IH]; simpl in *; [lia|].
    destruct (act s n) eqn:E; [exists n; auto|].
    destruct IH as (i & ? & ?); [lia|]. exists i; auto. }
  destruct E as (i & Hi1 & Hi2). exists i. split; auto.
  unfold act in Hi2. destruct (waiting s i) eqn:Ew.
  - right. apply (e_woken He); auto. split; auto. simpl in Hi2.
    apply negb_true_iff, isnil_false in Hi2. auto.
  - left. intros E. apply (sh_wait Hs) in E; auto. congruence.
Qed.

(** If the task never defers and its packet processing is finite in every order, then
    every schedule of the threads is finite; by C11_no_deadlock it ends in [MDone]. *)
Theorem C11_every_schedule_terminates :
  forall (S P : Type) (lanes : nat) (dest : P -> nat) (task : S -> P -> option (S * list P))
         (p0 : P) (s0 : S) (s : sys),
    (forall p, dest p < lanes) -> (forall s p, task s p <> None) ->
    terminates task (s0, [p0]) ->
    reachable lanes dest task p0 s0 s ->
    Acc (fun y x => step lanes dest task p0 x y) s.
Proof. intros. eapply acc_reachable; eauto. Qed.

Definition ex_task2 (s : list nat) (p : nat) : option (list nat * list nat) :=
  Some (p :: s, if p <? 3 then [p + 1; p + 3] else []).

Example C11_every_schedule_terminates_ex :
  (forall s p, ex_task2 s p <> None) /\ terminates ex_task2 ([], [0]) /\
  reachable 2 ex_dest ex_task2 0 [] (exec 2 ex_dest ex_task2 0 (rounds 9) (init 2 [])) /\
  mainpc (exec 2 ex_dest ex_task2 0 (rounds 9) (init 2 [])) = MWait.
Proof.
  split; [discriminate|]. split; [|split; [apply exec_sound, rounds_ok|vm_compute; reflexivity]].
  apply terminates_measure with
    (m := fun _ b => list_sum (map (fun p => match p with 0 => 16 | 1 => 8 | 2 => 4 | _ => 1 end) b)).
  - intros s b b' H. induction H; simpl; lia.
  - intros s p R s' out H. inversion H; subst. rewrite map_app, list_sum_app. simpl map.
    destruct p as [|[|[|p]]]; simpl; lia.
Qed.

(** ** C12: spurious wakeups break the protocol *)

(** Full claim: with spurious wakeups quiescence would still imply that no packet is left.
    It is false: *)
Theorem C12_spurious_wakeup_refuted :
  exists (lanes : nat) (dest : nat -> nat) (task : list nat -> nat -> option (list nat * list nat))
         (p0 : nat) (s : @sys (list nat) nat),
    (forall p, dest p < lanes) /\
    star (spurious_step lanes dest task p0) (init lanes []) s /\
    mainpc s = MWait /\ quiescent s = true /\ in_flight lanes s = [3; 1].
Proof.
  exists 2, ex_dest, ex_task2, 0.
  exists (exec 2 ex_dest ex_task2 0
           (rounds 5 ++ [W 0; W 1; W 0; W 1; M; M; M; Spurious 1] ++ repeat (W 0) 40) (init 2 [])).
  split; [apply ex_dest_ok|]. split; [apply exec_spurious|].
  repeat split; vm_compute; reflexivity.
Qed.

(** ... and the supervisor then discards the unprocessed packets. *)
Theorem C12_spurious_wakeup_loses_packets_refuted :
  exists (lanes : nat) (dest : nat -> nat) (task : list nat -> nat -> option (list nat * list nat))
         (p0 : nat) (s : @sys (list nat) nat),
    (forall p, dest p < lanes) /\
    star (spurious_step lanes dest task p0) (init lanes []) s /\
    mainpc s = MDone /\ lost s = [3; 1] /\ sh s = [0].
Proof.
  exists 2, ex_dest, ex_task2, 0.
  exists (exec 2 ex_dest ex_task2 0
           (rounds 5 ++ [W 0; W 1; W 0; W 1; M; M; M; Spurious 1] ++ repeat (W 0) 40 ++
            [M; M; M; M; W 0; W 1; M]) (init 2 [])).
  split; [apply ex_dest_ok|]. split; [apply exec_spurious|].
  repeat split; vm_compute; reflexivity.
Qed.

(** ** C47 *)
Theorem C47_workers_released :
  forall (S P : Type) (lanes : nat) (dest : P -> nat) (task : S -> P -> option (S * list P))
         (p0 : P) (s0 : S) (s : sys),
    (forall p, dest p < lanes) ->
    reachable lanes dest task p0 s0 s ->
    (mainpc s = MJoin ->
       forall i, i < lanes -> pcs s i = Exited \/
         (step lanes dest task p0 s (do_wake s i) /\ pcs (do_wake s i) i = Exited)) /\
    (mainpc s = MDone -> forall i, i < lanes -> pcs s i = Exited).
Proof.
  intros S P lanes dest task p0 s0 s Hd Hr. split; intros Hm.
  - intros i Hi. destruct (dismissed_all Hd Hr (or_introl Hm) Hi) as [H|(H1 & H2 & H3)]; auto.
    right. split; [now apply st_wake|]. simpl. now rewrite upd_same, H3.
  - pose proof (inv_reachable Hd Hr) as [_ Hi]. rewrite Hm in Hi. apply Hi.
Qed.

Example C47_ex :
  let s := exec 2 ex_dest ex_task 0 (rounds 27 ++ [M; M; M]) (init 2 []) in
  reachable 2 ex_dest ex_task 0 [] s /\ mainpc s = MJoin /\ pcs s 0 = Sleep /\ pcs s 1 = Sleep.
Proof.
  intros s. split.
  - apply exec_sound. apply Forall_app; split; [apply rounds_ok|]. repeat (constructor; simpl; auto).
  - repeat split; vm_compute; reflexivity.
Qed.

(** ** C48 *)

(** A worker that is going to look at the deferred packets of port [a] again: it has packets
    to run on, or it has yet to start or continue a circulation which includes port [a]. *)
Definition will_examine {S P} (s : @sys S P) (a w : nat) : Prop :=
  asg s w <> [] \/
  pcs s w = Run \/ pcs s w = Assign \/ pcs s w = Expose \/
  (exists j, pcs s w = Send j false) \/ (exists j, pcs s w = Undefer j /\ j <= a).

Theorem C48_deferred_not_forgotten :
  forall (S P : Type) (lanes : nat) (dest : P -> nat) (task : S -> P -> option (S * list P))
         (p0 : P) (s0 : S) (s : sys) (a : nat),
    (forall p, dest p < lanes) ->
    reachable lanes dest task p0 s0 s -> a < lanes -> dfr s a <> [] \/ ldef s a <> [] ->
    mainpc s = MWait /\ quiescent s = false /\
    exists w, w < lanes /\ will_examine s a w.
Proof.
  intros S P lanes dest task p0 s0 s a Hd Hr Ha Hf.
  pose proof (inv_reachable Hd Hr) as [Hs Hi].
  assert (Hne : in_flight lanes s <> []).
  { intros E. pose proof (proj1 (flight_nil lanes s) E a Ha) as (_ & _ & ? & _ & ?).
    destruct Hf; congruence. }
  assert (He : early lanes s).
  { destruct (mainpc s); auto; exfalso; apply Hne.
    - apply (l_flight Hi). - apply (l_flight Hi). - apply (l_flight (proj1 Hi)). }
  assert (Hm : mainpc s = MWait).
  { destruct (e_phase He) as [(A & B & C)|[(A & B & _)|(A & B)]]; auto; congruence. }
  split; auto. split.
  - destruct (quiescent s) eqn:E; auto. exfalso. apply Hne.
    eapply quiescence_sound; eauto. congruence.
  - assert (G : exists w, w < lanes /\ resp s a w).
    { destruct Hf as [Hf|Hf]; [now apply (e_resp He)|].
      exists a. split; auto. unfold resp. pose proof (sh_ldef Hs Ha) as L. unfold ldefok in L.
      destruct (pcs s a); auto; congruence. }
    destruct G as (w & Hw & G). exists w. split; auto. unfold resp, will_examine in *.
    destruct G as [G|G]; auto. right.
    destruct (pcs s w) as [ | | |j []|j| | | ]; try contradiction; eauto 10.
Qed.

Example C48_ex :
  let s := exec 2 ex_dest ex_task 0 (rounds 18) (init 2 []) in
  reachable 2 ex_dest ex_task 0 [] s /\ dfr s 0 = [4] /\ mainpc s = MWait.
Proof.
  intros s. split; [apply exec_sound, rounds_ok|]. split; vm_compute; reflexivity.
Qed.
