(** The memory test harness: src/wrap.c.  If the library is built with WRAP defined, every allocation, deallocation and
    simulated allocation passes through the functions in this file, which count them, deny them when a limit is reached,
    and record which sizes of blocks are in use in which source file.

    Simplifications.
    - The functions hold wrap_lock from their beginning to their end, so that the calls of all threads are modelled as one
      sequence of calls.  Locking and unlocking are assumed to succeed (the codes 1734, 1741, 1742, 1745, 1746, 1749, 1751,
      1752, 1754, 1755, 1757 and 1759 do not occur), and the harness is assumed to have been initialised.
    - The counters are natural numbers and do not wrap around.  The initial limit UINTPTR_MAX is a parameter.
    - A file is identified by a number, as the code identifies it by the address of its name.
    - The arrays are lists.  A row of the tracker only lists the slots in use, which are always the first ones. *)
From Coq Require Import List Arith Bool Lia ZArith.
Import ListNotations.
Set Implicit Arguments.

(** src/wrap.c:30, 33, 36 *)
Definition ERR_LIMIT : nat := 64.
Definition TEST_LIMIT : nat := 64.
Definition SIZE_LIMIT : nat := 256.

(** include/cru/error_codes.h:30-32, and the system's code *)
Definition DBF : Z := (-516)%Z.
Definition IAL : Z := (-517)%Z.
Definition MLK : Z := (-518)%Z.
Definition ENOMEM : Z := 12%Z.

(** src/errs.h:38: the macro RAISE when WRAP is defined, giving any other error priority over a memory overflow *)
Definition raise (err e : Z) : Z :=
  if (negb (err =? 0) && negb (err =? ENOMEM))%Z then err else if (e =? 0)%Z then err else e.

(** src/wrap.c:47-80: the static variables, and what the surroundings see: the errors globally thrown, and the addresses
    passed to the function free of the system *)
Record wrap := W {
  allowed : nat;                        (* malloc_calls_allowed *)
  mallocs : nat;                        (* malloc_call_count *)
  frees : nat;                          (* free_call_count *)
  double_free : bool;
  err_count : nat;
  err_at : list (nat * nat);            (* err_file, err_line *)
  test_count : nat;
  test_at : list (nat * nat);           (* test_file, test_line *)
  tracker : nat -> list (nat * nat);    (* caller and count *)
  thrown : list Z;
  freed : list nat
}.

Definition throw (e : Z) (w : wrap) : wrap :=
  W (allowed w) (mallocs w) (frees w) (double_free w) (err_count w) (err_at w) (test_count w) (test_at w) (tracker w)
    (e :: thrown w) (freed w).

Definition set_tracker (t : nat -> list (nat * nat)) (w : wrap) : wrap :=
  W (allowed w) (mallocs w) (frees w) (double_free w) (err_count w) (err_at w) (test_count w) (test_at w) t (thrown w) (freed w).

Definition add_malloc (w : wrap) : wrap :=
  W (allowed w) (S (mallocs w)) (frees w) (double_free w) (err_count w) (err_at w) (test_count w) (test_at w) (tracker w)
    (thrown w) (freed w).

Definition add_free (w : wrap) : wrap :=
  W (allowed w) (mallocs w) (S (frees w)) (double_free w) (err_count w) (err_at w) (test_count w) (test_at w) (tracker w)
    (thrown w) (freed w).

(** src/wrap.c:271-274, 386-389 *)
Definition record_denial (file line : nat) (w : wrap) : wrap :=
  W (allowed w) (mallocs w) (frees w) (double_free w) (err_count w) (err_at w) (S (test_count w))
    (if TEST_LIMIT <=? test_count w then test_at w else test_at w ++ [(file, line)]) (tracker w) (thrown w) (freed w).

(** src/wrap.c:321-326: the flag is set, and the place is recorded if there is room for it.  If there is none, the
    deallocation is counted. *)
Definition record_double_free (file line : nat) (w : wrap) : wrap :=
  let full := ERR_LIMIT <=? err_count w in
  W (allowed w) (mallocs w) (if full then S (frees w) else frees w) true (S (err_count w))
    (if full then err_at w else err_at w ++ [(file, line)]) (test_count w) (test_at w) (tracker w) (thrown w) (freed w).

(** the call to free, src/wrap.c:329 *)
Definition c_free (p : nat) (w : wrap) : wrap :=
  W (allowed w) (mallocs w) (frees w) (double_free w) (err_count w) (err_at w) (test_count w) (test_at w) (tracker w) (thrown w)
    (p :: freed w).

Section Harness.
  Variable soft : bool.          (* whether SOFT_LIMIT is defined, src/config.h.in:43 *)
  Variable mallox : nat.         (* MALLOX, the number of source files that allocate memory, src/ptr.h.in:41 *)
  Variable maxint : nat.         (* UINTPTR_MAX *)

  (** the initial values, src/wrap.c:47-80, 95-118 *)
  Definition init : wrap := W maxint 0 0 false 0 [] 0 [] (fun _ => []) [] [].

  (** src/wrap.c:266-268: the loop of the allocation, returning nothing if all slots belong to other files *)
  Fixpoint enter (room : nat) (file : nat) (t : list (nat * nat)) : option (list (nat * nat)) :=
    match room with
    | 0 => None
    | S room =>
        match t with
        | [] => Some [(file, 1)]
        | (f, n) :: t => if f =? file then Some ((f, S n) :: t) else option_map (cons (f, n)) (enter room file t)
        end
    end.

  (** src/wrap.c:320-321: the loop of the deallocation, returning nothing if the slot of the file is not found or its count
      is zero *)
  Fixpoint leave (room : nat) (file : nat) (t : list (nat * nat)) : option (list (nat * nat)) :=
    match room with
    | 0 => None
    | S room =>
        match t with
        | [] => None
        | (f, n) :: t =>
            if f =? file then match n with 0 => None | S n => Some ((f, n) :: t) end
            else option_map (cons (f, n)) (leave room file t)
        end
    end.

  Definition set_row (s : nat) (r : list (nat * nat)) (w : wrap) : wrap :=
    set_tracker (fun i => if i =? s then r else tracker w i) w.

  (** src/wrap.c:262-270, from label c.  The size is in bytes; QUANTUM is 3 (src/config.h.in:23). *)
  Definition track (file s : nat) (w : wrap) : wrap :=
    let q := s / 8 in
    if q =? 0 then throw (-1737) w
    else if SIZE_LIMIT <=? q - 1 then w
    else match enter mallox file (tracker w (q - 1)) with
         | None => throw (-1739) w
         | Some r => set_row (q - 1) r w
         end.

  Definition count_if (b : bool) (w : wrap) : wrap := if b then add_malloc w else w.

  Definition is_some (o : option nat) : bool := match o with Some _ => true | None => false end.

  (** _cru_malloc_wrapper, src/wrap.c:223-279.  The argument a is what malloc returns if it is called.  Beware that the
      tests in lines 254 and 260 are of the count after the call and not of the result of the call.  (If malloc fails in line
      254 and is called again in line 260, it is assumed to fail again.) *)
  Definition malloc_wrapper (line file s : nat) (a : option nat) (w : wrap) : option nat * wrap :=
    if s =? 0 then (None, throw (-1735) w)
    else
      let attempt (p : option nat) (w : wrap) : option nat * wrap :=
        if (negb soft && (allowed w <? mallocs w))%bool then (p, throw (-1736) w)
        else if mallocs w <? allowed w then
          let w := count_if (is_some a) w in
          if mallocs w =? 0 then (a, record_denial file line w) else (a, track file s w)
        else (p, record_denial file line w)
      in
      if (soft && negb (test_count w =? 0))%bool then
        let w := count_if (is_some a) w in
        if mallocs w =? 0 then attempt a w else (a, track file s w)
      else attempt None w.

  (** _cru_free_wrapper, src/wrap.c:286-334.  The code 516 is not thrown, line 333. *)
  Definition free_wrapper (line file s p : nat) (w : wrap) : wrap :=
    let q := s / 8 in
    c_free p
      (if q =? 0 then throw (-1743) (add_free w)
       else if SIZE_LIMIT <=? q - 1 then add_free w
       else match leave mallox file (tracker w (q - 1)) with
            | Some r => add_free (set_row (q - 1) r w)
            | None => record_double_free file line w
            end).

  (** _cru_allocation_allowed, src/wrap.c:352-394 *)
  Definition allocation_allowed (line file : nat) (err : Z) (w : wrap) : bool * Z * wrap :=
    if double_free w then (false, raise err DBF, w)
    else if mallocs w <? frees w then (false, raise err (-1747), w)
    else if (soft && negb (test_count w =? 0))%bool then (true, err, add_malloc (add_free w))
    else if (negb soft && (allowed w <? mallocs w))%bool then (false, raise err (-1748), w)
    else if mallocs w <? allowed w then (true, err, add_malloc (add_free w))
    else (false, raise err ENOMEM, record_denial file line w).

  (** _crudev_limit_allocations, src/wrap.c:402-423 *)
  Definition limit_allocations (limit : nat) (err : Z) (w : wrap) : Z * wrap :=
    if limit <? mallocs w then (raise err IAL, w)
    else (err, W limit (mallocs w) (frees w) (double_free w) (err_count w) (err_at w) (test_count w) (test_at w) (tracker w)
                 (thrown w) (freed w)).

  (** _crudev_allocations_performed, src/wrap.c:437-457 *)
  Definition allocations_performed (err : Z) (w : wrap) : nat := if (err =? 0)%Z then mallocs w else 0.

  (** _crudev_all_clear, src/wrap.c:468-503, where reserved is the number of packets and crews in reserve, whose retrieval
      is assumed not to fail *)
  Definition all_clear (reserved : nat) (err : Z) (w : wrap) : bool * Z :=
    let err :=
      if negb (err =? 0)%Z then err
      else if double_free w then raise err DBF
      else if mallocs w <? frees w then raise err (-1758)
      else if frees w + reserved <? mallocs w then raise err MLK
      else err in
    ((err =? 0)%Z, err).

  (** _cru_close_wrap, src/wrap.c:196-205: the leaks reported on exit, as pairs of the file and the number of times.  (The
      rest of the report is not modelled.) *)
  Definition leaks_reported (w : wrap) : list (nat * nat) :=
    if double_free w then []
    else flat_map (fun i => filter (fun x => negb (snd x =? 0)) (tracker w i)) (seq 0 SIZE_LIMIT).

  (** the calls and what they return *)
  Inductive call :=
  | Malloc (line file size : nat) (a : option nat)
  | Free (line file size p : nat)
  | Simulate (line file : nat) (err : Z)
  | Limit (limit : nat) (err : Z)
  | Performed (err : Z)
  | Clear (reserved : nat) (err : Z).

  Inductive result :=
  | Pointer (p : option nat)
  | Nothing
  | Verdict (b : bool) (err : Z)
  | Number (n : nat).

  Definition step (c : call) (w : wrap) : result * wrap :=
    match c with
    | Malloc line file s a => let '(p, w) := malloc_wrapper line file s a w in (Pointer p, w)
    | Free line file s p => (Nothing, free_wrapper line file s p w)
    | Simulate line file err => let '(b, err, w) := allocation_allowed line file err w in (Verdict b err, w)
    | Limit n err => let '(err, w) := limit_allocations n err w in (Verdict true err, w)
    | Performed err => (Number (allocations_performed err w), w)
    | Clear r err => let '(b, err) := all_clear r err w in (Verdict b err, w)
    end.

  (** The states that the harness can be in after a history of calls and their results, the most recent first *)
  Inductive after : list (call * result) -> wrap -> Prop :=
  | after_init : after [] init
  | after_step : forall h w c r w', after h w -> step c w = (r, w') -> after ((c, r) :: h) w'.
End Harness.
