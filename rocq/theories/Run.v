(** Finished traversals: from the interleaved execution of the threads (Ports.v) to complete
    executions of the packet machine (Machine.v). *)
From Coq Require Import List Arith NArith Lia Bool Permutation.
From Verif Require Import Base Machine Ports PortsProofs PortsTerm PortsExec P_Ports Env Visitor.
Import ListNotations.

Set Implicit Arguments.

(** Under some schedule of the threads, the traversal starting from packet [p0] and state [s0] has
    been seen to be finished by the launching thread, and the state is [s]. *)
Definition ran {S P} (lanes : nat) (dest : P -> nat) (task : S -> P -> option (S * list P))
           (s0 : S) (p0 : P) (s : S) : Prop :=
  exists y, reachable lanes dest task p0 s0 y /\ traversal_over y /\ sh y = s.

Lemma ran_completes {S P} lanes dest (task : S -> P -> option (S * list P)) s0 p0 s :
  (forall p, dest p < lanes) -> ran lanes dest task s0 p0 s -> completes task s0 p0 s.
Proof.
  intros Hd (y & Hr & Ho & <-). apply (C09_finished_traversal_is_complete Hd Hr Ho).
Qed.

(** A schedule for examples: all threads take turns. *)
Definition turn (lanes : nat) : list who := M :: map W (seq 0 lanes).
Fixpoint turns (lanes k : nat) : list who :=
  match k with 0 => [] | Datatypes.S k' => turn lanes ++ turns lanes k' end.
Lemma turns_ok lanes k : Forall no_spurious (turns lanes k).
Proof.
  induction k as [|k IH]; [constructor|]. simpl. constructor; [exact I|]. apply Forall_app. split; auto.
  apply Forall_forall. intros w Hw. apply in_map_iff in Hw as (i & <- & _). exact I.
Qed.

Definition sched_run {S P} (lanes : nat) (dest : P -> nat) (task : S -> P -> option (S * list P))
           (s0 : S) (p0 : P) (k : nat) : sys :=
  exec lanes dest task p0 (turns lanes k) (init lanes s0).

Lemma sched_ran {S P} lanes dest (task : S -> P -> option (S * list P)) s0 p0 k :
  mainpc (sched_run lanes dest task s0 p0 k) = MDone ->
  ran lanes dest task s0 p0 (sh (sched_run lanes dest task s0 p0 k)).
Proof.
  intros H. exists (sched_run lanes dest task s0 p0 k). split; [apply exec_sound, turns_ok|].
  split; [right; right; exact H|reflexivity].
Qed.

Lemma vdest_lt {P K} X (key : P -> K) hash : 0 < lanes X -> forall p, vdest X key hash p < lanes X.
Proof. intros H p. now apply lane_of_lt. Qed.
