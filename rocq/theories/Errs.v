(** The macros for raising errors and calling user functions (src/errs.h). *)
From Coq Require Import List Arith NArith Lia Bool.
From Verif Require Import Base Env Fold.
Import ListNotations.

Set Implicit Arguments.

(** Code that uses the macros, and whose course depends on their values.  The variant of RAISE for memory
    testing (WRAP) and the simulation of heap overflow (NOMEM, false otherwise) are left out.  Each call
    of a user function is identified by a number. *)
Inductive guard := Called | Passed | Failed | Applied.
Inductive code :=
| Return
| Raise (e : option error) (k : code)                  (* src/errs.h:36, and IER, line 45 *)
| Guarded (m : guard) (f : nat) (k : word -> code)     (* src/errs.h:54-57 *)
| Apply (f : nat) (k : code).                          (* src/errs.h:58, with a function that is not NULL *)

(** What happens: an error is raised by the code, or a function is called that may raise one. *)
Inductive event :=
| Raised (e : error)
| Call (guarded : bool) (f : nat) (o : outcome).

Definition raising (err e : option error) : option error := match err with Some _ => err | None => e end.
Definition is_err (err : option error) : bool := match err with Some _ => true | None => false end.

(** The value of a macro, given *err afterwards *)
Definition macro_value (m : guard) (err : option error) (w : word) : word :=
  match m with
  | Called | Applied => w
  | Passed => if is_err err then 0%N else w
  | Failed => if is_err err then 0%N else if is_null w then 1%N else 0%N
  end.

(** The user's functions may do different things each time: [user] gives the outcome of a call by the
    events before it. *)
Section Run.
  Variable user : list event -> nat -> outcome.

  Fixpoint run (c : code) (err : option error) (past : list event) : option error * list event :=
    match c with
    | Return => (err, past)
    | Raise e k => run k (raising err e) (match e with Some x => past ++ [Raised x] | None => past end)
    | Guarded m f k =>
        if is_err err then run (k 0%N) err past
        else
          let o := user past f in
          let err' := raising err (snd o) in
          run (k (macro_value m err' (fst o))) err' (past ++ [Call true f o])
    | Apply f k => let o := user past f in run k (raising err (snd o)) (past ++ [Call false f o])
    end.
End Run.
