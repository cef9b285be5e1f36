(** What becomes of the values obtained from user functions in inductions by multiple workers, including when functions fail:
    src/induce.c:48-260, src/crew.c:408-435, src/entry.c:603-640.  File Induce.v is about the results.  Here, values are followed
    individually until they are destroyed, as in MakeFree.v.

    Simplifications.
    - There is a destructor for the values.
    - The value at a node is obtained from one call, whose intermediate results are the subject of Fold.v.
    - Internal errors (IER) don't occur, except for 1041.
    - Maybes without a value are left out; see MapFree.v.
    - A node can be received at any time during the induction if it was ever sent, and may or may not be visitable then.  (That the
      prerequisites are visited first is shown in P_Induce.v and doesn't matter here.)  During the deduction, packets are received
      exactly once, in any order, and workers exit when there are none left; see Machine.v. *)
From Coq Require Import List Arith Bool Lia.
From Verif Require Import MakeFree MapFree.
Import ListNotations.

Set Implicit Arguments.

Inductive phase := Inducing | Deducing | Concluded (result : option nat) (failed : bool).

Record world := mkWorld {
  common : st;                         (* its flag is not used; see MakeFree.v.  Products stand for maybes. *)
  sent : list nat;                     (* nodes sent to any worker so far *)
  errs : nat -> bool;                  (* *err of each worker *)
  off : nat -> bool;                   (* the field disabled of each port *)
  seen : list nat;                     (* members of the variables seen of all workers *)
  vis : list nat;                      (* members of the fields visited of all ports *)
  acc : list (nat * option nat);       (* nodes with their accumulators; NULL if a node isn't listed *)
  res : option (option nat);           (* the value in the maybe of the worker for the base node, if there is one *)
  ph : phase;
  flight : list nat;                   (* nodes in packets during the deduction *)
  bad : bool                           (* the status of the launching thread *)
}.

Definition upd (f : nat -> bool) (l : nat) (b : bool) : nat -> bool := fun k => if k =? l then b else f k.
Definition accumulator (n : nat) (a : list (nat * option nat)) : option nat :=
  match find (fun p => fst p =? n) a with Some p => snd p | None => None end.
Definition clear (n : nat) (a : list (nat * option nat)) : list (nat * option nat) := filter (fun p => negb (fst p =? n)) a.

Section Inducing.
  (** How the calls turn out, depending on the time; see MakeFree.v *)
  Variable heap : nat -> bool.
  Variable user : nat -> bool * bool.        (* the boundary value or reduction *)
  Variable dies : nat -> bool.
  (** the graph and its distribution among workers *)
  Variable succ : nat -> list nat.
  Variable lane : nat -> nat.
  Variable base : nat.

  (** a worker's port is disabled, with an error or without, src/induce.c:154 *)
  Definition disabled (l : nat) (s : st) (w : world) : world :=
    mkWorld s (sent w) (upd (errs w) l (err s)) (upd (off w) l true) (seen w) (vis w) (acc w) (res w) (ph w) (flight w) (bad w).

  (** [visit], src/induce.c:48-89.  The worker for the base node doesn't visit any others when it has a result. *)
  Definition visit (n : nat) (s : st) (w : world) : world :=
    let l := lane n in
    match (if l =? lane base then res w else None) with
    | Some _ => disabled l (fail s) w                                       (* 67 *)
    | None =>
        let (a, s) := applied user s in
        if err s then disabled l (destroy dies a s) w else                  (* 73-74, 87-88 *)
        if n =? base
        then match new_maybe heap (Present a) s with
             | (Some _, s) =>
                 mkWorld s (sent w) (errs w) (off w) (seen w) (vis w) (acc w) (Some a) (ph w) (flight w) (bad w)
             | (None, s) => disabled l (destroy dies a s) w
             end
        else let w := mkWorld (common w) (sent w) (errs w) (off w) (seen w) (vis w) ((n, a) :: clear n (acc w)) (res w) (ph w)
                              (flight w) (bad w) in                         (* 80 *)
             match alloc heap s with
             | (true, s) =>
                 mkWorld s (sent w) (errs w) (off w) (seen w) (n :: vis w) (acc w) (res w) (ph w) (flight w) (bad w)
             | (false, s) => disabled l s w
             end
    end.

  (** The loop of [_cru_inducing_task], src/induce.c:129-156, for a node [n].  It may be noticed that it's [killed], [m] of the
      packets are sent if they are, and the node can be [visitable], or to be deferred if it isn't [unvisitable]. *)
  Definition receive (n : nat) (killed : bool) (m : nat) (visitable unvisitable : bool) (w : world) : world :=
    let l := lane n in
    let s := with_err (errs w l) (common w) in
    if off w l then w else
    if errs w l || killed then disabled l s w else
    if in_dec Nat.eq_dec n (vis w) then w else
    let (ok, w) :=
      if in_dec Nat.eq_dec n (seen w) then (true, w) else
      match alloc heap s with
      | (false, s) => (false, disabled l s w)
      | (true, s) =>
          let p := firstn m (succ n) in
          let w := mkWorld s (p ++ sent w) (errs w) (off w) (n :: seen w) (vis w) (acc w) (res w) (ph w) (flight w) (bad w) in
          if length (succ n) <=? m then (true, w) else (false, disabled l (fail s) w)
      end in
    if negb ok then w else
    if visitable then visit n (with_err (errs w l) (common w)) w else
    if unvisitable then disabled l (with_err (errs w l) (common w)) w else w.

  (** the loop of [deducing_task], src/induce.c:203-214; the first [m] packets are sent if any *)
  Definition deduce (n : nat) (m : nat) (rest : list nat) (w : world) : world :=
    let l := lane n in
    let s := with_err (errs w l) (common w) in
    let '(d, p, s) :=
      if in_dec Nat.eq_dec n (seen w) then (seen w, [], s) else
      match alloc heap s with
      | (false, s) => (seen w, [], s)
      | (true, s) =>
          if err s then (n :: seen w, [], s) else
          (n :: seen w, firstn m (succ n), if length (succ n) <=? m then s else fail s)
      end in
    let s := destroy dies (accumulator n (acc w)) s in
    mkWorld s (sent w) (upd (errs w) l (err s)) (off w) d (vis w) (clear n (acc w)) (res w) (ph w) (p ++ rest) (bad w || err s).

  Inductive step : world -> world -> Prop :=
  | receive_step n killed m visitable unvisitable w : ph w = Inducing -> In n (sent w) ->
      step w (receive n killed m visitable unvisitable w)
  (* other errors in a worker, also in the [other_step] below *)
  | trouble_step l w : ph w = Inducing -> step w (disabled l (fail (common w)) w)
  (* The workers exit, the results are put together in [_cru_maybe_disjunction], src/crew.c:408-435, and the deduction starts unless
     [failed], src/induce.c:249-251.  There may be errors, [e]. *)
  | deduce_step e failed w : ph w = Inducing ->
      step w (mkWorld (match res w with Some v => free_maybe dies (Some (Present None false)) (common w) | None => common w end)
                      (sent w) (fun _ => false) (off w) [] (vis w) (acc w) (res w) Deducing
                      (if failed : bool then [] else [base]) (e || failed))
  | packet_step n m l1 l2 w : ph w = Deducing -> flight w = l1 ++ n :: l2 -> step w (deduce n m (l1 ++ l2) w)
  | other_step l w : ph w = Deducing ->
      step w (mkWorld (common w) (sent w) (upd (errs w) l true) (off w) (seen w) (vis w) (acc w) (res w) (ph w) (flight w) true)
  (* [_cru_induce], src/induce.c:251-259, when the workers have exited, possibly with [other] errors (or because of a kill), and the
     end of [cru_induced], src/entry.c:633-639, where there may be errors as well ([late]) *)
  | conclude_step other late w : ph w = Deducing -> flight w = [] ->
      let e := bad w || other in
      let s := if e then destroy_all dies (map snd (acc w)) (common w) else common w in
      let v := match res w with Some v => v | None => None end in
      step w (mkWorld (if e || late then destroy dies v s else s) (sent w) (errs w) (off w) (seen w) (vis w) (if e then [] else acc w)
                      None (Concluded (if e || late then None else v) (e || late)) [] (e || late)).

  Definition begin : world :=
    mkWorld (mkSt 0 false [] [] 0 0 0) [base] (fun _ => false) (fun _ => false) [] [] [] None Inducing [] false.

  Inductive reaches : world -> Prop :=
  | reaches_begin : reaches begin
  | reaches_step w w' : reaches w -> step w w' -> reaches w'.
End Inducing.
