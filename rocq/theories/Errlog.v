(** The log of errors that can't be reported otherwise: src/errs.c:28-41, 79-104, 132-153.

    Error codes are numbers other than 0.  The mutex [error_lock] is held by at most one thread at a time and
    locking it doesn't fail, so that the calls of [_cru_globally_throw] happen one after the other; the flag
    [deadlocked] is never set and is left out. *)
From Coq Require Import List Arith NArith Lia Bool.
Import ListNotations.

Set Implicit Arguments.

(** src/errs.c:27-28: ERROR_LIMIT *)
Definition error_limit : nat := 16.

(** The largest unsigned integer *)
Definition umax : N := 4294967295%N.

(** src/errs.c:30-34: the array global_error, the counter error_count, and whether an element beyond the
    array has been read. *)
Record elog := mkLog { slots : nat -> N; error_count : N; out_of_bounds : bool }.

Section Log.
  (** What is found in memory beyond the array, by index and number of errors so far *)
  Variable beyond : N -> N.

  Definition limitN : N := N.of_nat error_limit.

  (** Reading an element of the array *)
  Definition slot (s : elog) (i : N) : N := if N.ltb i limitN then slots s (N.to_nat i) else beyond i.

  (** src/errs.c:132-153: _cru_globally_throw *)
  Definition globally_throw (e : N) (s : elog) : elog :=
    if N.eqb e 0 then s
    else if N.eqb (error_count s) umax then s                                     (* 145 *)
    else
      let c := error_count s in
      let s1 := if N.ltb c limitN                                                 (* 147-148 *)
                then mkLog (fun i => if Nat.eqb i (N.to_nat c) then e else slots s i) c (out_of_bounds s) else s in
      if N.eqb c 0 then mkLog (slots s1) (c + 1) (out_of_bounds s1)               (* 149-150 *)
      else
        let oob := out_of_bounds s1 || negb (N.ltb (c - 1) limitN) in
        if N.eqb (slot s1 (c - 1)) e then mkLog (slots s1) c oob else mkLog (slots s1) (c + 1) oob.

  (** src/errs.c:52-53, 31: the initial state *)
  Definition log0 : elog := mkLog (fun _ => 0%N) 0 false.

  (** A history of calls *)
  Definition thrown (es : list N) : elog := fold_left (fun s e => globally_throw e s) es log0.

  (** src/errs.c:97-103: what is printed by _cru_close_errs, provided that destroying the mutex does not fail:
      messages for individual errors, and the number of further ones. *)
  Definition printed (s : elog) : list N * N :=
    (map (slots s) (seq 0 (N.to_nat (N.min (error_count s) limitN))), (error_count s - limitN)%N).
End Log.
