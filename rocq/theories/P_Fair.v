(** Termination of traversals whose tasks may put packets back: claim C84. *)
From Coq Require Import List Arith NArith Lia Bool Permutation.
From Verif Require Import Base Machine Ports PortsProofs PortsLive PortsTerm PortsExec PortsFair P_Ports Env Visitor Run Graph Fold Pass
  Walk Fabricate Traverse TraverseProofs P_Traverse Partition P_Partition Filter P_Filter P_Killed Induce P_Induce Mutate P_Mutate.
Import ListNotations.

Set Implicit Arguments.

(** The state after [n] turns is that reached by running the first [n] threads of the schedule. *)
Lemma turn_of_exec {S P} lanes dest (task : S -> P -> option (S * list P)) p0 s0 f n :
  turn_of lanes dest task p0 s0 f n = exec lanes dest task p0 (map f (seq 0 n)) (Ports.init lanes s0).
Proof.
  induction n as [|n IH]; auto. rewrite seq_S, map_app. unfold exec in *. rewrite fold_left_app. simpl. now rewrite <- IH.
Qed.

(** Nothing happens after the workers have been joined. *)
Lemma done_still {S P} lanes dest (task : S -> P -> option (S * list P)) p0 s0 s w :
  (forall p, dest p < lanes) -> reachable lanes dest task p0 s0 s -> mainpc s = MDone -> no_spurious w ->
  exec1 lanes dest task p0 s w = s.
Proof.
  intros Hd Hr Hm Hw. destruct (inv_reachable Hd Hr) as [_ Hi]. rewrite Hm in Hi. destruct Hi as [_ He].
  destruct w as [i| |]; simpl in *; [|unfold exec_main; now rewrite Hm|easy].
  destruct (Nat.ltb_spec i lanes) as [Hi|]; auto. unfold exec_worker. now rewrite (He i Hi).
Qed.

(** ** C84 *)

(** If no thread is neglected forever, and the packets can be processed in some order in any situation and in finitely many
    steps in every order, then the traversal comes to an end, all packets having been processed, and remains in that state. *)
Theorem C84_fair_schedules_end :
  forall (S P : Type) (lanes : nat) (dest : P -> nat) (task : S -> P -> option (S * list P)) (p0 : P) (s0 : S) (f : nat -> who),
    (forall p, dest p < lanes) ->
    (forall n, no_spurious (f n)) -> (forall n, exists m, n <= m /\ f m = M) -> (forall i n, i < lanes -> exists m, n <= m /\ f m = W i) ->
    terminates task (s0, [p0]) ->
    (forall s b, mruns task (s0, [p0]) (s, b) -> b <> [] -> exists p, In p b /\ task s p <> None) ->
    exists n s, (forall m, n <= m -> exec lanes dest task p0 (map f (seq 0 m)) (Ports.init lanes s0) = s) /\
      mainpc s = MDone /\ in_flight lanes s = [] /\ lost s = [] /\ (forall i, i < lanes -> pcs s i = Exited) /\ completes task s0 p0 (sh s).
Proof.
  intros S P lanes dest task p0 s0 f Hd Hs Hm Hw Ht Hn.
  assert (F : fair lanes f).
  { split; auto. intros [i| |i] n T; simpl in T; auto. easy. }
  destruct (@fair_done S P lanes dest task p0 s0 Hd f F Ht Hn) as [n Dn]. set (s := turn_of lanes dest task p0 s0 f n) in *.
  assert (R : reachable lanes dest task p0 s0 s) by (apply (at_reachable dest task p0 s0 F)).
  exists n, s. split.
  - intros m Lm. rewrite <- turn_of_exec. induction Lm as [|m Lm IH]; auto.
    simpl. rewrite IH. eapply done_still; eauto.
  - split; auto. destruct (inv_reachable Hd R) as [_ Hi]. rewrite Dn in Hi. destruct Hi as [L E].
    split; [apply (l_flight L)|]. split; [apply (l_lost L)|]. split; auto.
    eapply refines_finished; eauto. rewrite Dn. exact I.
Qed.

(** All threads taking turns *)
Definition round_robin (lanes n : nat) : who := nth (n mod (lanes + 1)) (turn lanes) M.
Lemma round_robin_calm lanes n : no_spurious (round_robin lanes n).
Proof.
  unfold round_robin. destruct (nth_in_or_default (n mod (lanes + 1)) (turn lanes) M) as [H| ->]; [|exact I].
  destruct H as [<-|H]; [exact I|]. apply in_map_iff in H as (i & <- & _). exact I.
Qed.
Lemma round_robin_each lanes k n : k <= lanes -> exists m, n <= m /\ round_robin lanes m = nth k (turn lanes) M.
Proof.
  intros Hk. exists (n * (lanes + 1) + k). split; [nia|]. unfold round_robin.
  rewrite Nat.add_comm, Nat.mod_add, Nat.mod_small by lia. reflexivity.
Qed.
Lemma round_robin_main lanes n : exists m, n <= m /\ round_robin lanes m = M.
Proof. apply (@round_robin_each lanes 0). lia. Qed.
Lemma round_robin_worker lanes i n : i < lanes -> exists m, n <= m /\ round_robin lanes m = W i.
Proof.
  intros Hi. destruct (@round_robin_each lanes (i + 1) n) as [m [Lm Em]]; [lia|]. exists m. split; auto. rewrite Em.
  rewrite Nat.add_1_r. simpl. rewrite nth_indep with (d' := W 0) by (rewrite map_length, seq_length; lia).
  now rewrite map_nth, seq_nth.
Qed.

(** The task of P_Ports.v, which puts packet 4 back until packet 5 has been processed *)
Lemma ex_task_terminates : terminates ex_task ([], [0]).
Proof.
  apply terminates_measure with
    (m := fun _ b => list_sum (map (fun p => match p with 0 => 16 | 1 => 8 | 2 => 4 | _ => 1 end) b)).
  - intros s b b' H. induction H; simpl; lia.
  - intros s p R s' out H. unfold ex_task in H. destruct ((p =? 4) && _); [discriminate|]. injection H as <- <-. rewrite map_app, list_sum_app. simpl map.
    destruct p as [|[|[|p]]]; simpl; lia.
Qed.
(** Packet 5 is sent along with packet 3 by packet 2, which is sent by packet 1, which sends packet 4 as well; 0 sends 1. *)
Lemma ex_task_runs s b : mruns ex_task ([], [0]) (s, b) -> b <> [] -> exists p, In p b /\ ex_task s p <> None.
Proof.
  intros H Hb.
  assert (A : forall p, p <> 4 -> ex_task s p <> None).
  { intros p Hp. unfold ex_task. rewrite (proj2 (Nat.eqb_neq p 4) Hp). discriminate. }
  assert (I : In 4 b -> In 5 s \/ In 5 b \/ In 2 b \/ In 0 b \/ In 1 b).
  { revert H. clear. intros H.
    cut ((In 4 b -> In 5 s \/ In 5 b \/ In 2 b \/ In 0 b \/ In 1 b)); [tauto|].
    refine (@mruns_inv _ _ ex_task (fun s b => In 4 b -> In 5 s \/ In 5 b \/ In 2 b \/ In 0 b \/ In 1 b) _ _ _ _ _ _ _ H).
    - intros s1 b1 b2 Pm Q H4. assert (H4' : In 4 b1) by (eapply Permutation_in; [symmetry; exact Pm|auto]).
      destruct (Q H4') as [?|[?|[?|[?|?]]]]; auto; right; [left|right; left|right; right; left|right; right; right]; eapply Permutation_in; eauto.
    - intros s1 p b1 s2 out Q T H4. unfold ex_task in T. destruct ((p =? 4) && _) eqn:E; [discriminate|]. injection T as <- <-.
      destruct p as [|[|[|p]]]; simpl in *; try tauto.
      destruct (Nat.eq_dec p 2) as [->|N2]; [left; auto|].
      destruct (Q (or_intror H4)) as [?|[[?|?]|[[?|?]|[[?|?]|[?|?]]]]]; auto 10; try discriminate; try lia.
    - simpl. intuition discriminate. }
  destruct b as [|p b]; [congruence|]. destruct (Nat.eq_dec p 4) as [->|N]; [|exists p; split; [now left|auto]].
  destruct (I (or_introl eq_refl)) as [H5|[H5|[H5|[H5|H5]]]]; try (eexists; split; [exact H5|apply A; discriminate]).
  exists 4. split; [now left|]. assert (E : existsb (Nat.eqb 5) s = true) by (apply existsb_exists; exists 5; auto).
  unfold ex_task. rewrite E. discriminate.
Qed.
Example C84_fair_schedules_end_ex :
  (forall p, ex_dest p < 2) /\ (forall n, no_spurious (round_robin 2 n)) /\ (forall n, exists m, n <= m /\ round_robin 2 m = M) /\
  (forall i n, i < 2 -> exists m, n <= m /\ round_robin 2 m = W i) /\ terminates ex_task ([], [0]) /\
  (forall s b, mruns ex_task ([], [0]) (s, b) -> b <> [] -> exists p, In p b /\ ex_task s p <> None) /\
  ex_task [] 4 = None.
Proof.
  split; [exact ex_dest_ok|]. split; [apply round_robin_calm|]. split; [apply round_robin_main|]. split; [apply round_robin_worker|].
  split; [exact ex_task_terminates|]. split; [exact ex_task_runs|reflexivity].
Qed.

(** Without the assumption on the schedule this is not so, unlike for tasks that never put packets back
    (C11_every_schedule_terminates): a worker may go on examining a packet for ever. *)
Definition spin_task (s : list nat) (p : nat) : option (list nat * list nat) :=
  if (p =? 2) && negb (existsb (Nat.eqb 1) s) then None else Some (p :: s, if p =? 0 then [1; 2] else []).
Definition spin_dest (p : nat) : nat := p mod 3.
Lemma spin_task_terminates : terminates spin_task ([], [0]).
Proof.
  apply terminates_measure with (m := fun _ b => list_sum (map (fun p => match p with 0 => 3 | _ => 1 end) b)).
  - intros s b b' H. induction H; simpl; lia.
  - intros s p R s' out H. unfold spin_task in H. destruct ((p =? 2) && _); [discriminate|]. injection H as <- <-. rewrite map_app, list_sum_app.
    destruct p; simpl; lia.
Qed.
Lemma spin_task_runs s b : mruns spin_task ([], [0]) (s, b) -> b <> [] -> exists p, In p b /\ spin_task s p <> None.
Proof.
  intros H Hb.
  assert (I : (forall p, In p b -> p = 0 \/ p = 1 \/ p = 2) /\ (In 2 b -> In 1 s \/ In 1 b)).
  { refine (@mruns_inv _ _ spin_task (fun s b => (forall p, In p b -> p = 0 \/ p = 1 \/ p = 2) /\ (In 2 b -> In 1 s \/ In 1 b)) _ _ _ _ _ _ _ H).
    - intros s1 b1 b2 Pm [Q1 Q2]. split.
      + intros p Hp. apply Q1. eapply Permutation_in; [symmetry; exact Pm|auto].
      + intros H2. destruct Q2; [eapply Permutation_in; [symmetry; exact Pm|auto]|auto|]. right. eapply Permutation_in; eauto.
    - intros s1 p b1 s2 out [Q1 Q2] T. unfold spin_task in T. destruct ((p =? 2) && _) eqn:E; [discriminate|]. injection T as <- <-.
      assert (Q3 : forall q, In q b1 -> q = 0 \/ q = 1 \/ q = 2) by (intros q Hq; apply Q1; now right).
      destruct (Q1 p (or_introl eq_refl)) as [->|[->| ->]]; simpl in *.
      + split; [intros q [<-|[<-|Hq]]; auto|auto].
      + split; auto.
      + split; auto. intros H2. destruct (Q2 (or_introl eq_refl)) as [|[|]]; auto.
    - split; [intros p [<-|[]]; auto|]. intros [E|[]]. discriminate. }
  destruct I as [I1 I2]. destruct b as [|p b]; [congruence|].
  destruct (I1 p (or_introl eq_refl)) as [->|[->| ->]].
  - exists 0. split; [now left|]. discriminate.
  - exists 1. split; [now left|]. discriminate.
  - destruct (I2 (or_introl eq_refl)) as [H1|H1]; [|exists 1; split; [exact H1|discriminate]].
    exists 2. split; [now left|]. assert (E : existsb (Nat.eqb 1) s = true) by (apply existsb_exists; exists 1; auto).
    unfold spin_task. rewrite E. discriminate.
Qed.

(** The third worker is left with packet 2 and has nothing to send. *)
Definition spins (c : pc) (i a d l : list nat) (s : @sys (list nat) nat) : Prop :=
  pcs s 2 = c /\ inc s 2 = i /\ asg s 2 = a /\ dfr s 2 = d /\ ldef s 2 = l /\ (forall j, j < 3 -> pod s 2 j = []) /\
  existsb (Nat.eqb 1) (sh s) = false.
Definition next_spin (s : @sys (list nat) nat) : sys := exec1 3 spin_dest spin_task 0 s (W 2).
Lemma next_spin_step s c i a d l : spins c i a d l s -> c <> Exited -> c <> Sleep -> step 3 spin_dest spin_task 0 s (next_spin s).
Proof.
  intros (H & _) N1 N2. unfold next_spin. simpl. 
  destruct (exec_worker 3 spin_dest spin_task 2 s) eqn:E; [eapply exec_worker_sound; [|exact E]; lia|].
  exfalso. unfold exec_worker in E. rewrite H in E. destruct c; try congruence; revert E.
  - destruct (inc s 2); [destruct (isnil _); discriminate|]. destruct (spin_task _ _) as [[]|]; discriminate.
  - destruct (isnil _); discriminate.
  - destruct (j <? 3); [destruct (isnil _)|]; discriminate.
  - destruct (j <? 3); discriminate.
  - destruct (isnil _); [destruct (dismissed _ _); [|destruct (Nat.eqb _ _)]|]; discriminate.
Qed.

Ltac spin_tac := intros s (H1 & H2 & H3 & H4 & H5 & H6 & H7);
  assert (T : spin_task (sh s) 2 = None) by (unfold spin_task; rewrite H7; reflexivity); unfold next_spin; simpl; unfold exec_worker; rewrite H1, ?H2, ?H3;
  try rewrite (H6 0) by lia; try rewrite (H6 1) by lia; try rewrite (H6 2) by lia; rewrite ?T;
  unfold spins; simpl; rewrite ?H2, ?H3, ?H4, ?H5, ?upd_same; simpl; rewrite ?upd_same; repeat split; auto.
Lemma spin1 : forall s, spins Run [2] [] [] [] s -> spins Run [] [] [] [2] (next_spin s). Proof. spin_tac. Qed.
Lemma spin2 : forall s, spins Run [] [] [] [2] s -> spins Assign [] [] [] [2] (next_spin s). Proof. spin_tac. Qed.
Lemma spin3 : forall s, spins Assign [] [] [] [2] s -> spins Expose [] [] [] [2] (next_spin s). Proof. spin_tac. Qed.
Lemma spin4 : forall s, spins Expose [] [] [] [2] s -> spins (Send 0 false) [] [] [2] [] (next_spin s). Proof. spin_tac. Qed.
Lemma spin5 : forall s, spins (Send 0 false) [] [] [2] [] s -> spins (Send 1 false) [] [] [2] [] (next_spin s). Proof. spin_tac. Qed.
Lemma spin6 : forall s, spins (Send 1 false) [] [] [2] [] s -> spins (Send 2 false) [] [] [2] [] (next_spin s). Proof. spin_tac. Qed.
Lemma spin7 : forall s, spins (Send 2 false) [] [] [2] [] s -> spins (Send 3 false) [] [] [2] [] (next_spin s). Proof. spin_tac. Qed.
Lemma spin8 : forall s, spins (Send 3 false) [] [] [2] [] s -> spins (Undefer 0) [] [] [2] [] (next_spin s). Proof. spin_tac. Qed.
Lemma spin9 : forall s, spins (Undefer 0) [] [] [2] [] s -> spins (Undefer 1) [] [] [2] [] (next_spin s).
Proof. spin_tac; destruct (isnil (asg s 0)); simpl; auto; destruct (isnil (dfr s 0)); simpl; auto. Qed.
Lemma spin10 : forall s, spins (Undefer 1) [] [] [2] [] s -> spins (Undefer 2) [] [] [2] [] (next_spin s).
Proof. spin_tac; destruct (isnil (asg s 1)); simpl; auto; destruct (isnil (dfr s 1)); simpl; auto. Qed.
Lemma spin11 : forall s, spins (Undefer 2) [] [] [2] [] s -> spins (Undefer 3) [] [2] [] [] (next_spin s). Proof. spin_tac. Qed.
Lemma spin12 : forall s, spins (Undefer 3) [] [2] [] [] s -> spins Block [] [2] [] [] (next_spin s). Proof. spin_tac. Qed.
Lemma spin13 : forall s, spins Block [] [2] [] [] s -> spins Run [2] [] [] [] (next_spin s). Proof. spin_tac. Qed.

Definition spinning (s : @sys (list nat) nat) : Prop :=
  spins Run [2] [] [] [] s \/ spins Run [] [] [] [2] s \/ spins Assign [] [] [] [2] s \/ spins Expose [] [] [] [2] s \/
  spins (Send 0 false) [] [] [2] [] s \/ spins (Send 1 false) [] [] [2] [] s \/ spins (Send 2 false) [] [] [2] [] s \/
  spins (Send 3 false) [] [] [2] [] s \/ spins (Undefer 0) [] [] [2] [] s \/ spins (Undefer 1) [] [] [2] [] s \/
  spins (Undefer 2) [] [] [2] [] s \/ spins (Undefer 3) [] [2] [] [] s \/ spins Block [] [2] [] [] s.
Lemma spinning_on s : spinning s -> step 3 spin_dest spin_task 0 s (next_spin s) /\ spinning (next_spin s).
Proof.
  unfold spinning.
  intros H; decompose [or] H; (split; [eapply next_spin_step; [eassumption|discriminate|discriminate]|]).
  - right; left; now apply spin1.
  - do 2 right; left; now apply spin2.
  - do 3 right; left; now apply spin3.
  - do 4 right; left; now apply spin4.
  - do 5 right; left; now apply spin5.
  - do 6 right; left; now apply spin6.
  - do 7 right; left; now apply spin7.
  - do 8 right; left; now apply spin8.
  - do 9 right; left; now apply spin9.
  - do 10 right; left; now apply spin10.
  - do 11 right; left; now apply spin11.
  - do 12 right; now apply spin12.
  - left; now apply spin13.
Qed.
Lemma spinning_forever s : Acc (fun y x => step 3 spin_dest spin_task 0 x y) s -> ~ spinning s.
Proof. intros H. induction H as [s _ IH]. intros Hs. destruct (spinning_on Hs) as [St Hs']. exact (IH _ St Hs'). Qed.

Definition spin_start : list who := repeat (W 0) 20 ++ repeat (W 1) 20 ++ repeat (W 2) 20 ++ [M; M; M; M] ++ repeat (W 0) 20 ++ repeat (W 2) 1.

Theorem C84_fairness_needed :
  exists (lanes : nat) (dest : nat -> nat) (task : list nat -> nat -> option (list nat * list nat)) (p0 : nat) (s : @sys (list nat) nat),
    (forall p, dest p < lanes) /\ terminates task ([], [p0]) /\
    (forall s b, mruns task ([], [p0]) (s, b) -> b <> [] -> exists p, In p b /\ task s p <> None) /\
    reachable lanes dest task p0 [] s /\ ~ Acc (fun y x => step lanes dest task p0 x y) s.
Proof.
  exists 3, spin_dest, spin_task, 0, (exec 3 spin_dest spin_task 0 spin_start (Ports.init 3 [])).
  split; [intros p; apply Nat.mod_upper_bound; lia|]. split; [exact spin_task_terminates|]. split; [exact spin_task_runs|].
  split; [apply exec_sound; repeat (constructor; simpl; auto)|].
  intros H. apply (spinning_forever H). left. unfold spins. repeat split; try (vm_compute; reflexivity).
Qed.

(** ** Inductions and mutations *)

(** A schedule in which no thread is neglected forever *)
Definition everyone_runs (lanes : nat) (f : nat -> who) : Prop :=
  (forall n, no_spurious (f n)) /\ (forall n, exists m, n <= m /\ f m = M) /\ (forall i n, i < lanes -> exists m, n <= m /\ f m = W i).

Lemma everyone_ran {S P} lanes dest (task : S -> P -> option (S * list P)) s0 p0 f :
  (forall p, dest p < lanes) -> everyone_runs lanes f -> terminates task (s0, [p0]) ->
  (forall s b, mruns task (s0, [p0]) (s, b) -> b <> [] -> exists p, In p b /\ task s p <> None) ->
  exists n, mainpc (exec lanes dest task p0 (map f (seq 0 n)) (Ports.init lanes s0)) = MDone /\
    ran lanes dest task s0 p0 (sh (exec lanes dest task p0 (map f (seq 0 n)) (Ports.init lanes s0))).
Proof.
  intros Hd (F1 & F2 & F3) Ht Hn. destruct (@C84_fair_schedules_end S P lanes dest task p0 s0 f Hd F1 F2 F3 Ht Hn) as (n & s & A & B & _).
  exists n. rewrite (A n (le_n n)). split; auto. exists s. split; [|split; [right; right; exact B|reflexivity]].
  rewrite <- (A n (le_n n)). apply exec_sound. apply Forall_forall. intros w Hw. apply in_map_iff in Hw as (k & <- & _). auto.
Qed.

(** Inductions over zones without cycles come to an end. *)
Theorem C84_inductions_end X Y g pre boundary m b reached U f :
  0 < lanes X -> (forall n, along pre b n -> In n U) -> acyclic pre b -> (forall n, along pre b n -> skipped X reached n = false) ->
  everyone_runs (lanes X) f ->
  exists k, mainpc (exec (lanes X) (nlane X) (inducing X g pre boundary m b Y reached) b (map f (seq 0 k)) (Ports.init (lanes X) istart)) = MDone.
Proof.
  intros Hl HU Ha Hr F.
  destruct (@everyone_ran _ _ (lanes X) (nlane X) (inducing X g pre boundary m b Y reached) istart b f) as (n & H & _); eauto.
  - intros n. now apply P_Induce.lane_lt.
  - eapply C19_finitely_many_steps; eauto.
  - intros s bag. eapply C19_no_deadlock; eauto.
Qed.

(** Mutations come to an end, whether or not there are cycles. *)
Theorem C84_mutations_end X Y (g : graph word word) ins K w reached nodes f :
  0 < lanes X -> wf g -> full_duplex g ins -> NoDup nodes -> (forall n, In n nodes <-> In n (ids g)) ->
  everyone_runs (lanes X) f ->
  exists k, mainpc (exec (lanes X) (mdest X) (mutating X g ins K w [] reached nodes Y) (Ping 0) (map f (seq 0 k))
                      (Ports.init (lanes X) (mstart X g ins w [] reached))) = MDone.
Proof.
  intros Hl W F N Hn E.
  destruct (@everyone_ran _ _ (lanes X) (mdest X) (mutating X g ins K w [] reached nodes Y) (mstart X g ins w [] reached) (Ping 0) f) as (n & H & _); eauto.
  - intros p. now apply mdest_lt.
  - apply C20_finitely_many_steps; auto.
  - intros s b. apply C20_no_deadlock; auto.
Qed.

Lemma round_robin_everyone lanes : everyone_runs lanes (round_robin lanes).
Proof. split; [apply round_robin_calm|]. split; [apply round_robin_main|apply round_robin_worker]. Qed.
Example C84_inductions_end_ex :
  0 < lanes X3 /\ (forall n, along (es DG) 1 n -> In n (ids DG)) /\ acyclic (es DG) 1 /\
  (forall n, along (es DG) 1 n -> skipped X3 [] n = false) /\ everyone_runs (lanes X3) (round_robin (lanes X3)) /\
  (exists s, inducing X3 DG (es DG) BI MI 1 X3 [] istart 1 = Some s) /\
  exists s, mruns (inducing X3 DG (es DG) BI MI 1 X3 []) (istart, [1]) (s, [2; 3; 1]) /\ inducing X3 DG (es DG) BI MI 1 X3 [] s 1 = None.
Proof.
  split; [simpl; lia|]. split; [intros n; apply DG_zone; now left|]. split; [apply DG_acyclic|].
  split; [reflexivity|]. split; [apply round_robin_everyone|]. split; [eexists; reflexivity|].
  eexists. split; [apply star_one; exact (@mstep_proc _ _ (inducing X3 DG (es DG) BI MI 1 X3 []) istart [] 1 [] _ [2; 3; 1] eq_refl)|].
  vm_compute. reflexivity.
Qed.
Example C84_mutations_end_ex :
  0 < lanes X3 /\ wf DG /\ full_duplex DG (edges_to DG) /\ NoDup (ids DG) /\ everyone_runs (lanes X3) (round_robin (lanes X3)).
Proof.
  split; [simpl; lia|]. split; [exact DG_wf|]. split; [exact DG_full|]. split; [apply (wf_nodup DG_wf)|apply round_robin_everyone].
Qed.
