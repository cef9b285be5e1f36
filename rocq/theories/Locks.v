(** Access to memory shared by workers, through a pool of locks (src/cthread.c:27, 233-313). *)
From Coq Require Import List Arith NArith Lia Bool.
From Verif Require Import Base Hash.
Import ListNotations.

Set Implicit Arguments.

(** Locations are pointers, which are numbered: location [l] has address [8 * l].  The contents are 64 bit words, read and
    written by halves, because assignments need not be atomic (comment in _cru_read). *)
Definition half : N := 2 ^ 32.
Definition cell := (N * N)%type.
Definition split (x : N) : cell := (N.div x half, N.modulo x half).
Definition whole (c : cell) : N := (fst c * half + snd c)%N.

(** The lock of a location: _cru_scalar_hash (v) % LOCK_POOL_SIZE, src/cthread.c:27, 250 *)
Definition pool_size : N := 251.
Definition lock_of (l : nat) : nat := N.to_nat (N.modulo (scalar_hash (8 * N.of_nat l)) pool_size).

(** What a thread does.  The lock is held from [Lk] to [Ul] (src/mutate.c:393-410), and threads may do anything meanwhile, such
    as calling functions that wait for other threads.  The error numbers of the pthread functions are left out: a thread that
    can't be given a lock waits.  (Relocking by the same thread may be reported instead, which is IER(800) here.) *)
Inductive action :=
| Rd (v : nat)              (* _cru_read, src/cthread.c:233-254 *)
| Wr (v : nat) (x : N)      (* _cru_write, src/cthread.c:260-276 *)
| Lk (v : nat)              (* _cru_lock_for_writing, src/cthread.c:282-293 *)
| Ul (v : nat) (x : N)      (* _cru_unlock_for_reading, src/cthread.c:300-313 *)
| Wait (t : nat).           (* pthread_join, or waiting for an operation carried out by other threads *)

(** How far the current access has proceeded *)
Inductive stage := Ready | Rd0 (v : nat) | Rd1 (v : nat) (a : N) | Rd2 (v : nat) (a b : N) | Wr0 (v : nat) (x : N) | Wr1 (v : nat) (x : N) | Wr2 (v : nat) (x : N).

(** What a thread has done: read [x] from [v], written [x] to [v], or locked [v] for writing later on *)
Inductive event := Got (i v : nat) (x : N) | Put (i v : nat) (x : N) | Held (i v : nat).

Record state := mkS {
  mem : nat -> cell;
  writer : nat -> option nat;           (* for each lock, the thread that has locked it for writing *)
  readers : nat -> list nat;            (* ... and those that have locked it for reading *)
  prog : nat -> list action;            (* for each thread, what remains to be done *)
  at_ : nat -> stage;
  hist : list event                     (* what has been done, latest first *)
}.

Section Threads.
  Variable h : nat -> nat.              (* the lock of each location *)

  Definition is_ready (c : stage) : bool := match c with Ready => true | _ => false end.
  Definition finished (s : state) (i : nat) : bool := match prog s i with [] => is_ready (at_ s i) | _ => false end.
  Definition nobody (s : state) (k : nat) : bool := match writer s k, readers s k with None, [] => true | _, _ => false end.

  (** One step of a thread, if it isn't waiting *)
  Definition act (i : nat) (s : state) : option state :=
    let stay w r m c e := Some (mkS m w r (prog s) (upd (at_ s) i c) (e ++ hist s)) in
    let next w r p c e := Some (mkS (mem s) w r (upd (prog s) i p) (upd (at_ s) i c) (e ++ hist s)) in
    match at_ s i with
    | Rd0 v => stay (writer s) (readers s) (mem s) (Rd1 v (fst (mem s v))) []
    | Rd1 v a => stay (writer s) (readers s) (mem s) (Rd2 v a (snd (mem s v))) []
    | Rd2 v a b =>
        stay (writer s) (upd (readers s) (h v) (filter (fun j => negb (j =? i)) (readers s (h v)))) (mem s) Ready [Got i v (whole (a, b))]
    | Wr0 v x => stay (writer s) (readers s) (upd (mem s) v (fst (split x), snd (mem s v))) (Wr1 v x) []
    | Wr1 v x => stay (writer s) (readers s) (upd (mem s) v (fst (mem s v), snd (split x))) (Wr2 v x) []
    | Wr2 v x => stay (upd (writer s) (h v) None) (readers s) (mem s) Ready [Put i v x]
    | Ready =>
        match prog s i with
        | [] => None
        | Rd v :: p =>
            match writer s (h v) with
            | Some _ => None
            | None => next (writer s) (upd (readers s) (h v) (i :: readers s (h v))) p (Rd0 v) []
            end
        | Wr v x :: p => if nobody s (h v) then next (upd (writer s) (h v) (Some i)) (readers s) p (Wr0 v x) [] else None
        | Lk v :: p => if nobody s (h v) then next (upd (writer s) (h v) (Some i)) (readers s) p Ready [Held i v] else None
        | Ul v x :: p =>
            match writer s (h v) with
            | Some j => if j =? i then next (writer s) (readers s) p (Wr0 v x) [] else None
            | None => None
            end
        | Wait t :: p => if finished s t then next (writer s) (readers s) p Ready [] else None
        end
    end.

  Definition step (s s' : state) : Prop := exists i, act i s = Some s'.
  Definition start (m : nat -> N) (p : nat -> list action) : state :=
    mkS (fun v => split (m v)) (fun _ => None) (fun _ => []) p (fun _ => Ready) [].

  (** Threads taking turns as in [w] *)
  Fixpoint execute (w : list nat) (s : state) : state :=
    match w with [] => s | i :: w' => execute w' (match act i s with Some s' => s' | None => s end) end.
  Lemma execute_sound w s : star step s (execute w s).
  Proof.
    revert s. induction w as [|i w IH]; intros s; simpl; [constructor|].
    destruct (act i s) eqn:E; auto.
    assert (G : forall a b c, star step a b -> star step b c -> star step a c).
    { intros a b c H1 H2. induction H2; auto. eapply star_step; eauto. }
    eapply G; [|apply IH]. apply star_one. exists i. exact E.
  Qed.
End Threads.
