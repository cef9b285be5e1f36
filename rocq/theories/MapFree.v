(** What becomes of the values obtained from user functions in map reductions by multiple workers, including when functions fail:
    src/mapreduce.c:40-144, src/maybe.c:37-197, src/crew.c:446-498, src/runners.c:68-88, 164-177, src/entry.c:555-591.  File Traverse.v is
    about the results.  Here, values are followed individually until they are destroyed, as in MakeFree.v, and so are the records
    called maybes and pairs of them.

    Simplifications.
    - There are destructors for the values, which are the same for both kinds of them (src/mapreduce.c:62, src/crew.c:468).
    - Which packets are received by a worker is of no importance, nor is what the values are.
    - Internal errors (IER) don't occur.
    - When a thread can't be created or selected by the library nthm, an error is raised. *)
From Coq Require Import List Arith Bool Lia.
From Verif Require Import MakeFree.
Import ListNotations.

Set Implicit Arguments.

(** src/maybe.h: a result, if any, with the status; errors are not distinguished *)
Inductive maybe :=
| Present (v : option nat) (status : bool)
| Absent (status : bool).
Definition status_of (m : maybe) : bool := match m with Present _ e => e | Absent e => e end.
Definition extant (m : maybe) : bool := match m with Present _ _ => true | Absent _ => false end.

(** a worker: its error status, the variable killed, the result so far, and whether a thread was created to join with it *)
Record worker := mkWorker { w_err : bool; w_killed : bool; w_res : option maybe; w_open : bool }.

(** what the launching thread is doing: it selects results in the loop src/crew.c:475-484, possibly with the variable x in hand, or it
    has left the loop with a result *)
Inductive phase := Selecting | Holding (x : maybe) | Draining (result : option nat).

Record world := mkWorld {
  common : st;                                (* its flag is not used; see MakeFree.v.  Products stand for maybes and pairs. *)
  workers : list worker;                      (* those which haven't exited *)
  pool : list (option maybe * bool);          (* results of threads to be read, with their error status *)
  unjoined : list (option maybe);             (* results of workers for which no thread was created *)
  perr : bool;                                (* *err of the launching thread *)
  thrown : bool;                              (* the status of the router *)
  ph : phase;
  concluded : option (option nat);            (* the result in the end, and whether ... *)
  failed : bool                               (* an error is reported *)
}.

Section Reducing.
  (** How the calls turn out, depending on the time; see MakeFree.v *)
  Variable heap : nat -> bool.
  Variable muser ruser : nat -> bool * bool.    (* the map and the reduction *)
  Variable dies : nat -> bool.

  Definition with_err (b : bool) (s : st) : st := mkSt (clock s) b (made s) (dead s) (next s) (pmade s) (pfreed s).
  Definition raise (b : bool) (s : st) : st := if b then fail s else s.

  (** [_cru_new_maybe], src/maybe.c:37-54, which consumes the error *)
  Definition new_maybe (make : bool -> maybe) (s : st) : option maybe * st :=
    match alloc heap s with
    | (true, s) => (Some (make (err s)), with_err false (product s))
    | (false, s) => (None, s)
    end.
  (** [_cru_free_maybe], src/maybe.c:63-81 *)
  Definition free_maybe (m : option maybe) (s : st) : st :=
    match m with
    | None => s
    | Some (Present v e) => free_products 1 (raise e (destroy dies v s))
    | Some (Absent e) => free_products 1 (raise e s)
    end.
  (** [mapped_node], src/nodes.c:380-414, whose intermediate results are the subject of Fold.v.  An
      error in obtaining or reclaiming those counts as one raised by the map, which isn't called in the former case (it's as if NULL
      were returned). *)
  Definition mapped (s : st) : option nat * st :=
    let (v, s) := applied muser s in if err s then (None, destroy dies v s) else (v, s).

  (** [visit], src/mapreduce.c:40-80.  The result is always an extant one. *)
  Definition visit (res : option maybe) (s : st) : option maybe * st :=
    if err s then (res, s) else
    let (a, s) := mapped s in
    match res with
    | None =>
        match new_maybe (Present a) s with
        | (Some m, s) => (Some m, s)
        | (None, s) => (None, destroy dies a s)           (* 72-74 and 78-79 *)
        end
    | Some (Present b e) =>
        let (v, s) := applied ruser s in
        (Some (Present v e), destroy dies b (destroy dies a s))
    | Some (Absent e) => (res, destroy dies a s)          (* impossible *)
    end.

  (** the end of [_cru_mapreducing_task], src/mapreduce.c:133-143, and of [_cru_maybe_runner], src/runners.c:83-86, where it is attempted
      again to report the error: the result and whether there is an error that remains to be thrown *)
  Definition finish (x : worker) (s : st) : option maybe * bool * st :=
    let s := with_err (w_err x) s in
    let (r, s) := if w_err x || w_killed x then (None, free_maybe (w_res x) s) else (w_res x, s) in
    let again (r : option maybe) (s : st) :=
      if err s then match r with None => new_maybe Absent s | Some _ => (r, s) end else (r, s) in
    let (r, s) := again r s in
    let (r, s) := again r s in
    (r, err s, s).

  (** [_cru_maybe_paired], src/maybe.c:117-152, whose first operand isn't NULL: the operands of a pair, if any *)
  Definition part (m : option maybe) (s : st) : option maybe * st :=
    match m with Some (Present _ _) => (m, s) | _ => (None, free_maybe m s) end.
  Definition paired (x : maybe) (y : option maybe) (s : st) : option (option maybe * option maybe) * st :=
    let s := raise (status_of x) s in
    if negb (extant x) && match y with Some y => extant y | None => false end then (None, free_maybe y (free_maybe (Some x) s)) else
    match alloc heap s with
    | (false, s) => (None, free_maybe y (free_maybe (Some x) s))
    | (true, s) =>
        let (px, s) := part (Some x) (product s) in
        let (py, s) := part y s in
        (Some (px, py), s)
    end.
  (** [_cru_free_maybe_pair], src/maybe.c:91-102 *)
  Definition free_pair (p : option maybe * option maybe) (s : st) : st :=
    free_products 1 (free_maybe (snd p) (free_maybe (fst p) s)).
  (** [_cru_maybe_fused], src/maybe.c:163-197, in a thread of its own *)
  Definition fused (p : option maybe * option maybe) (s : st) : option maybe * st :=
    match p with
    | (Some (Present x e), Some (Present y f)) =>
        let (v, s) := applied ruser s in
        let s := destroy dies y (destroy dies x s) in
        (Some (Present v (e || f || err s)), free_pair (None, Some (Present None f)) s)
    | (Some m, _) => (Some m, free_pair (None, snd p) s)
    | (None, m) => (m, free_pair (None, None) s)
    end.

  Definition set_workers (ws : list worker) (w : world) (s : st) : world :=
    mkWorld s ws (pool w) (unjoined w) (perr w) (thrown w) (ph w) (concluded w) (failed w).

  (** the launching thread leaves the loop with some x, src/crew.c:485-490 *)
  Definition ending (x : option maybe) (w : world) : world :=
    let s := with_err (perr w) (common w) in
    match x, perr w with
    | Some (Present v e), false =>
        let s := free_maybe (Some (Present None e)) (with_err e s) in
        mkWorld s (workers w) (pool w) (unjoined w) (err s) (thrown w) (Draining v) (concluded w) (failed w)
    | _, _ =>
        let s := free_maybe x s in
        mkWorld s (workers w) (pool w) (unjoined w) (err s) (thrown w) (Draining None) (concluded w) (failed w)
    end.

  Inductive step : world -> world -> Prop :=
  (* a worker visits a node *)
  | visit_step x l1 l2 w r s : workers w = l1 ++ x :: l2 -> w_err x = false -> w_killed x = false ->
      (r, s) = visit (w_res x) (with_err false (common w)) ->
      step w (set_workers (l1 ++ mkWorker (err s) false r (w_open x) :: l2) w s)
  (* other errors in a worker, and kills *)
  | trouble_step x l1 l2 w e k : workers w = l1 ++ x :: l2 ->
      step w (set_workers (l1 ++ mkWorker (w_err x || e) (w_killed x || k) (w_res x) (w_open x) :: l2) w (common w))
  (* a worker exits.  The thread joining with it takes over the status, src/runners.c:174-175. *)
  | exit_step x l1 l2 w r e s : workers w = l1 ++ x :: l2 -> (r, e, s) = finish x (common w) ->
      step w (mkWorld s (l1 ++ l2)
                      (if w_open x then (r, match r with Some m => status_of m | None => false end) :: pool w else pool w)
                      (if w_open x then unjoined w else r :: unjoined w) (perr w) (thrown w || e) (ph w) (concluded w) (failed w))
  (* the launching thread reads the first operand of a pair, 475-478 *)
  | first_step r e p1 p2 w : ph w = Selecting -> perr w = false -> pool w = p1 ++ (r, e) :: p2 ->
      step w (mkWorld (common w) (workers w) (p1 ++ p2) (unjoined w) e (thrown w)
                      (match r with Some x => Holding x | None => Selecting end) (concluded w) (failed w))
  (* ... and the second one, 479-483, where the thread may or may not be [created] *)
  | second_step x y e p1 p2 w z s created : ph w = Holding x -> pool w = p1 ++ (y, e) :: p2 ->
      (z, s) = paired x y (with_err (perr w || e) (common w)) ->
      step w (match z with
              | None => mkWorld s (workers w) (p1 ++ p2) (unjoined w) (err s) (thrown w) Selecting (concluded w) (failed w)
              | Some p =>
                  if created : bool
                  then let (r, t) := fused p (with_err false s) in
                       mkWorld t (workers w) ((r, err t) :: p1 ++ p2) (unjoined w) (err s) (thrown w) Selecting (concluded w) (failed w)
                  else let t := free_pair p (fail s) in
                       mkWorld t (workers w) (p1 ++ p2) (unjoined w) (err t) (thrown w) Selecting (concluded w) (failed w)
              end)
  (* it can't select anything *)
  | wrong_step w : step w (mkWorld (common w) (workers w) (pool w) (unjoined w) true (thrown w) (ph w) (concluded w) (failed w))
  (* it leaves the loop, either because of an error or because there is nothing else to select *)
  | leave_step w : ph w = Selecting -> perr w = true \/ (workers w = [] /\ pool w = []) -> step w (ending None w)
  | break_step x w : ph w = Holding x -> perr w = true \/ (workers w = [] /\ pool w = []) -> step w (ending (Some x) w)
  (* remaining results are freed, 491-492 *)
  | drain_step v r e p1 p2 w s : ph w = Draining v -> pool w = p1 ++ (r, e) :: p2 ->
      s = free_maybe r (with_err (perr w || e) (common w)) ->
      step w (mkWorld s (workers w) (p1 ++ p2) (unjoined w) (err s) (thrown w) (ph w) (concluded w) (failed w))
  | drain_unjoined_step v r q1 q2 w s : ph w = Draining v -> workers w = [] -> pool w = [] -> unjoined w = q1 ++ r :: q2 ->
      s = free_maybe r (with_err (perr w) (common w)) ->
      step w (mkWorld s (workers w) (pool w) (q1 ++ q2) (err s) (thrown w) (ph w) (concluded w) (failed w))
  (* the end of [cru_mapreduced], src/entry.c:587-590, where there may be [other] errors *)
  | conclude_step v w other : ph w = Draining v -> workers w = [] -> pool w = [] -> unjoined w = [] -> concluded w = None ->
      let bad := perr w || thrown w || other in
      step w (mkWorld (if bad then destroy dies v (common w) else common w) [] [] [] (perr w) (thrown w) (Draining None)
                      (Some (if bad then None else v)) bad).

  (** The beginning: threads have been created to join with the first [opened] of the workers.  There may be an error already. *)
  Definition begin (opened others : nat) (e : bool) : world :=
    mkWorld (mkSt 0 false [] [] 0 0 0) (repeat (mkWorker false false None true) opened ++ repeat (mkWorker false false None false) others)
            [] [] (e || (0 <? others)) false Selecting None false.

  Inductive reaches (opened others : nat) (e : bool) : world -> Prop :=
  | reaches_begin : reaches opened others e (begin opened others e)
  | reaches_step w w' : reaches opened others e w -> concluded w = None -> step w w' -> reaches opened others e w'.
End Reducing.
