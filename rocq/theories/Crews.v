(** Crews, which are needed to create worker threads, and those held in reserve: src/crew.c:30-242.  (About the packets held in
    reserve see Reserve.v.) *)
From Coq Require Import List Arith NArith Lia Bool Permutation.
From Verif Require Import Base.
Import ListNotations.

Set Implicit Arguments.

(** RESERVE_CREW_LIMIT, src/crew.c:36 *)
Definition RESERVE_CREW_LIMIT : nat := 8.

Section Crews.
  Variable limit : nat.

  (** Crews are numbered by their addresses.  The field c_held is NULL in a crew that was made on demand, and something else in one
      that was made for the reserve; the latter may be in use nevertheless. *)
  Record crews := mkCrews {
    ondemand : list nat;                (* in use, c_held being NULL *)
    borrowed : list nat;                (* in use, c_held being NULL_CREW *)
    reserve : list nat;                 (* reserve_crews, linked by c_held *)
    crew_count : nat;
    allocated : list nat;               (* whatever was obtained from the heap and not freed *)
    wrong : bool                        (* whether an internal error was raised *)
  }.
  Definition no_crews : crews := mkCrews [] [] [] 0 [] false.

  (** What threads may do concurrently.  Each of these consists of one critical section under crew_lock at most, apart from calls of
      functions that allocate and free memory, during which the crew in question is not accessible to other threads. *)
  Inductive op :=
  | Make (a : nat)                      (* _cru_crew_of, src/crew.c:140-159, if [a] can be allocated *)
  | Borrow                              (* the same if not *)
  | Release (a : nat)                   (* free_crew, src/crew.c:168-192 *)
  | Replenish (l : list nat).           (* _cru_replenish_crews, src/crew.c:224-242, where [l] are the addresses obtained until allocation fails *)

  Definition has (a : nat) (l : list nat) : bool := existsb (Nat.eqb a) l.
  Fixpoint without (a : nat) (l : list nat) : list nat :=
    match l with [] => [] | b :: l' => if b =? a then l' else b :: without a l' end.

  Fixpoint distinct (l : list nat) : bool := match l with [] => true | a :: l' => negb (has a l') && distinct l' end.

  (** The loop at src/crew.c:234-238 *)
  Fixpoint replenish (l : list nat) (s : crews) : crews :=
    match l with
    | [] => s
    | a :: l' =>
        if crew_count s <? limit
        then replenish l' (mkCrews (ondemand s) (borrowed s) (a :: reserve s) (S (crew_count s)) (a :: allocated s) (wrong s))
        else s
    end.

  (** The outcome of an operation: the crew returned, if any, and the state afterwards; or nothing at all if the operation makes no
      sense, because the addresses given by malloc are always new, and only crews in use are released. *)
  Definition perform (o : op) (s : crews) : option (option nat * crews) :=
    match o with
    | Make a =>
        if has a (allocated s) then None
        else Some (Some a, mkCrews (a :: ondemand s) (borrowed s) (reserve s) (crew_count s) (a :: allocated s) (wrong s))
    | Borrow =>
        match reserve s with
        | [] => Some (None, s)
        | a :: r =>
            if crew_count s =? 0 then Some (None, mkCrews (ondemand s) (borrowed s) (reserve s) (crew_count s) (allocated s) true)
            else Some (Some a, mkCrews (ondemand s) (a :: borrowed s) r (pred (crew_count s)) (allocated s) (wrong s))
        end
    | Release a =>
        if has a (ondemand s) then
          Some (None, mkCrews (without a (ondemand s)) (borrowed s) (reserve s) (crew_count s) (without a (allocated s)) (wrong s))
        else if has a (borrowed s) then
          if crew_count s <? limit then
            if has a (reserve s) then Some (None, mkCrews (ondemand s) (without a (borrowed s)) (reserve s) (crew_count s) (allocated s) true)
            else Some (None, mkCrews (ondemand s) (without a (borrowed s)) (reserve s ++ [a]) (S (crew_count s)) (allocated s) (wrong s))
          else Some (None, mkCrews (ondemand s) (without a (borrowed s)) (reserve s) (crew_count s) (without a (allocated s)) (wrong s))
        else None
    | Replenish l =>
        if existsb (fun a => has a (allocated s)) l || negb (distinct l) then None
        else Some (None, replenish l s)
    end.

  Fixpoint history (l : list op) (s : crews) : option crews :=
    match l with
    | [] => Some s
    | o :: l' => match perform o s with Some (_, s') => history l' s' | None => None end
    end.

  (** [_cru_close_crew], src/crew.c:108-127 *)
  Fixpoint close_loop (l : list nat) (s : crews) : crews :=
    match l with
    | [] => if crew_count s =? 0 then s else mkCrews (ondemand s) (borrowed s) (reserve s) (crew_count s) (allocated s) true
    | a :: l' =>
        if crew_count s =? 0 then mkCrews (ondemand s) (borrowed s) (reserve s) (crew_count s) (allocated s) true
        else close_loop l' (mkCrews (ondemand s) (borrowed s) l' (pred (crew_count s)) (without a (allocated s)) (wrong s))
    end.
  Definition close (s : crews) : crews := close_loop (reserve s) s.
End Crews.
