(** The circumstances in which an operation is executed, and the error status that results. *)
From Coq Require Import List Arith NArith Lia Bool Permutation.
From Verif Require Import Base.
Import ListNotations.

Set Implicit Arguments.

(** Error codes (include/cru/error_codes.h): overflow, kill, and any raised by
    user code. *)
Inductive error := INTOVF | INTKIL | USERERR (n : nat).

(** The circumstances of an execution: number of workers, whether Judy arrays are
    available, whether the kill flag is noticed when it is sampled by the [k]th packet
    processed (KILLED, src/killers.h:36, samples only once in a while), and whether
    [cru_kill] is called from outside just before the [k]th packet. *)
Record env : Type := mkEnv {
  lanes : nat;
  judy : bool;
  notices : nat -> bool;
  killcalls : nat -> bool
}.

(** The first error in the order in which the workers deliver their results: RAISE
    (src/errs.h:36) keeps the earliest non-zero code; src/crew.c:321-326 and
    src/launch.c:69. *)
Fixpoint first_error (lerr : nat -> option error) (order : list nat) : option error :=
  match order with
  | [] => None
  | l :: order' => match lerr l with Some e => Some e | None => first_error lerr order' end
  end.

(** The error status of a finished traversal: the first error, or CRU_INTKIL if there is none
    but the router was killed (src/route.c:688-690). *)
Definition final_status (lerr : nat -> option error) (killed : bool) (order : list nat) : option error :=
  match first_error lerr order with
  | Some e => Some e
  | None => if killed then Some INTKIL else None
  end.

Lemma first_error_none lerr order :
  first_error lerr order = None <-> forall l, In l order -> lerr l = None.
Proof.
  induction order as [|l order IH]; simpl.
  - split; auto. intros _ l [].
  - destruct (lerr l) eqn:E.
    + split; [discriminate|]. intros H. rewrite <- (H l); auto.
    + rewrite IH. split; intros H; [intros k [<-|Hk]; auto|auto].
Qed.

Lemma final_status_none lerr killed order :
  final_status lerr killed order = None <-> killed = false /\ forall l, In l order -> lerr l = None.
Proof.
  unfold final_status. rewrite <- first_error_none.
  destruct (first_error lerr order); [split; [discriminate|intros [_ H]; discriminate]|].
  destruct killed; split; auto; intros H; try discriminate. destruct H; discriminate.
Qed.
