(** What becomes of the errors raised by workers: src/runners.c:41-58, 100-148, src/sync.c:40-103, the functions that join with the
    workers, src/crew.c:315-340, 365-435, those that launch them, src/launch.c:38-258 and 314-375, and src/route.c:660-696.  File
    Errs.v is about errors within a worker, and Errlog.v is about the log of errors that aren't reported otherwise. *)
From Coq Require Import List Arith NArith Lia Bool.
From Verif Require Import Base.
Import ListNotations.

Set Implicit Arguments.

(** Error codes are numbers, zero meaning that there is no error.  RAISE(e), src/errs.h:36 *)
Definition raise (err e : N) : N := if N.eqb err 0 then e else err.

(** CRU_INTKIL, -528 as an unsigned number, include/cru/error_codes.h:48 *)
Definition INTKIL : N := 4294966768%N.

(** The kind of values returned by workers: their error codes ([_cru_status_runner], src/runners.c:41-58), counts ([_cru_count_runner],
    131-148), or objects that may have a status, such as queues and maybes ([_cru_queue_runner], 100-119, and [_cru_maybe_runner],
    66-91, in combination with [_cru_maybe_disjunction]). *)
Inductive kind := Codes | Counts | Objects.

(** How a task ends: the contents of *err when there are no more packets, and the status of the object to be returned, if there is
    one.  The latter is meaningful only in the case of objects. *)
Record ending := mkEnding { code : N; object : option N }.

(** How far a worker has come, with the contents of its variable err and the value to be returned, of which only the status is
    represented *)
Inductive stage :=
| Begun
| Done (err : N) (value : option N)     (* the task has returned *)
| Thrown (err : N) (value : option N)   (* so has _cru_throw *)
| Gone (value : option N).              (* pthread_exit has been called *)

Record state := mkState {
  ro_status : N;
  stages : nat -> stage;
  joined : nat;                         (* the number of workers the launching thread has joined with *)
  err : N;                              (* its error code, which is dblx in most cases *)
  log : list N;                         (* arguments of _cru_globally_throw other than zero, latest first *)
  throws : list N                       (* error codes other than zero passed to error_consumed, latest first, not known to the program *)
}.

Section Workers.
  Variable k : kind.
  Variable early : bool.                (* whether the task calls _cru_throw before returning: src/induce.c:163, src/mutate.c:556 *)
  Variable lanes : nat.                 (* the number of workers, all of which could be created *)
  Variable ends : nat -> ending.
  Variable heap : nat -> bool.          (* whether an object can be allocated by the runner of each worker *)

  (** [error_consumed], src/sync.c:40-61, a critical section, and the rest of [_cru_throw], 68-81: ro_status and *err afterwards *)
  Definition throw (ro e : N) : N * N :=
    if N.eqb e 0 then (ro, 0%N)
    else if N.eqb ro e then (ro, 0%N)
    else if N.eqb ro 0 then (e, 0%N)
    else (ro, e).

  Definition note (e : N) (l : list N) : list N := if N.eqb e 0 then l else e :: l.

  (** The value returned by the task if its variable *err is [e] in the end *)
  Definition returned (i : nat) (e : N) : option N :=
    match k with Codes => Some e | Counts => None | Objects => object (ends i) end.

  (** src/runners.c:83-84 and 114-115: the error is consumed by an object made for it, if necessary and possible.  If there
      isn't enough memory, the attempt to raise ENOMEM has no effect because there is an error already. *)
  Definition reported_by_object (i : nat) (e : N) (v : option N) : N * option N :=
    match k, v with
    | Objects, None => if N.eqb e 0 then (e, None) else if heap i then (0%N, Some e) else (e, None)
    | _, _ => (e, v)
    end.

  (** One step by worker [i] *)
  Definition act (i : nat) (s : state) : option state :=
    let put ro c l t := Some (mkState ro (upd (stages s) i c) (joined s) (err s) l t) in
    match stages s i with
    | Begun =>
        let e := code (ends i) in
        if early
        then let (ro, e') := throw (ro_status s) e in put ro (Done e' (returned i e')) (log s) (note e (throws s))
        else put (ro_status s) (Done e (returned i e)) (log s) (throws s)
    | Done e v =>
        let (e, v) := reported_by_object i e v in
        let (ro, e') := throw (ro_status s) e in put ro (Thrown e' v) (log s) (note e (throws s))
    | Thrown e v => put (ro_status s) (Gone v) (note e (log s)) (throws s)
    | Gone _ => None
    end.

  (** pthread_join by the launching thread: src/crew.c:332-337, 357-358, 389-396 with src/queue.c:78 and 168, 423-433 *)
  Definition join (s : state) : option state :=
    if joined s <? lanes then
      match stages s (joined s) with
      | Gone v => Some (mkState (ro_status s) (stages s) (S (joined s)) (match v with Some e => raise (err s) e | None => err s end) (log s) (throws s))
      | _ => None
      end
    else None.

  Definition start : state := mkState 0%N (fun _ => Begun) 0 0%N [] [].

  Inductive step (s s' : state) : Prop :=
  | work i : i < lanes -> act i s = Some s' -> step s s'
  | wait : join s = Some s' -> step s s'.

  (** What is reported to the caller after all workers have been joined with.  The launching functions raise the status of the router
      first, except for [_cru_graph_launched] (src/launch.c:357-358). *)
  Definition reported (direct : bool) (s : state) : N := if direct then raise (err s) (ro_status s) else raise (ro_status s) (err s).

  (** The same after [_cru_free_router], src/route.c:688-690, where [killed] tells if r->killed is non-zero *)
  Definition concluded (direct killed : bool) (s : state) : N :=
    let e := raise (reported direct s) (ro_status s) in if N.eqb e 0 then if killed then INTKIL else 0%N else e.

  (** Threads taking turns as in [w], where numbers not less than that of the workers stand for the launching thread *)
  Fixpoint execute (w : list nat) (s : state) : state :=
    match w with
    | [] => s
    | i :: w' => execute w' (match (if i <? lanes then act i s else join s) with Some s' => s' | None => s end)
    end.
  Lemma execute_sound w s : star step s (execute w s).
  Proof.
    revert s. induction w as [|i w IH]; intros s; simpl; [constructor|].
    assert (G : forall a b c, star step a b -> star step b c -> star step a c).
    { intros a b c H1 H2. induction H2; auto. eapply star_step; eauto. }
    destruct (Nat.ltb_spec i lanes).
    - destruct (act i s) eqn:E; auto. eapply G; [|apply IH]. apply star_one. eapply work; eauto.
    - destruct (join s) eqn:E; auto. eapply G; [|apply IH]. apply star_one. now apply wait.
  Qed.
End Workers.
