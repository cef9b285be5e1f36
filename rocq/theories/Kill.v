(** Kill switches: src/killers.c, with the places where the operations use them. *)
From Coq Require Import List Arith Lia Bool.
From Verif Require Import Base Env.
Import ListNotations.

Set Implicit Arguments.

(** A router is identified by the thread that made it and a number. *)
Definition router := (nat * nat)%type.
Definition req (r r' : router) : bool := (fst r =? fst r') && (snd r =? snd r').

(** What an operation does, as far as kill switches are concerned.  The arguments are the numbers of
    its routers.  A pass that can be killed is [Enable i; Disable] (src/sync.c:222-239); every operation
    has [Disable] at the beginning (e.g. src/build.c:327, src/filters.c:585, src/classes.c:329). *)
Inductive instr :=
| Disable              (* _cru_disable_killing, src/killers.c:139-154 *)
| New (i : nat)        (* _cru_router and the like, src/route.c *)
| Enable (i : nat)     (* _cru_enable_killing, src/killers.c:108-130 *)
| Reset (i : nat)      (* _cru_reset, src/route.c:487-516 *)
| Free (i : nat)       (* _cru_free_router, src/route.c:662-695, of a router that is not shared *)
| Raise (n : nat).     (* an error for another reason *)

(** A call of [cru_kill] (src/killers.c:266-290) that has found k->killed set: before line 286, and after
    k->killed was read in that line.  The former is not protected by the mutex. *)
Inductive kpc := KRead | KWrite (r : router).

Record kst := mkK {
  tgt : option router;            (* k->killed *)
  pend : bool;                    (* k->killable *)
  flagged : list router;          (* routers with a nonzero field killed, set by the user *)
  live : router -> bool;          (* allocated and not yet freed *)
  killers : list kpc;             (* calls of cru_kill in progress *)
  running : nat -> bool;
  serial : nat -> nat;            (* how many operations the thread has finished *)
  code : nat -> list instr;       (* the rest of the operation *)
  kerr : nat -> option error;     (* its *err *)
  calls : nat;                    (* how often cru_kill was called *)
  reports : list (nat * nat * option error);  (* thread, number of the operation, *err at the end *)
  stray : bool                    (* a field of a router was written after the router was freed *)
}.

Definition kinit : kst :=
  mkK None false [] (fun _ => false) [] (fun _ => false) (fun _ => 0) (fun _ => []) (fun _ => None) 0 [] false.

Definition updr {A} (f : router -> A) (r : router) (a : A) : router -> A := fun r' => if req r' r then a else f r'.
Definition is_flagged (s : kst) (r : router) : bool := existsb (req r) (flagged s).

(** RAISE (src/errs.h) *)
Definition raised (e : option error) (n : error) : option error := match e with None => Some n | Some _ => e end.

Definition exec (s : kst) (t : nat) (i : instr) (rest : list instr) : kst :=
  let c := upd (code s) t rest in
  match i with
  | Disable => mkK None (pend s) (flagged s) (live s) (killers s) (running s) (serial s) c (kerr s) (calls s) (reports s) (stray s)
  | New i =>
      mkK (tgt s) (pend s) (filter (fun r => negb (req r (t, i))) (flagged s)) (updr (live s) (t, i) true) (killers s)
          (running s) (serial s) c (kerr s) (calls s) (reports s) (stray s)
  | Enable i =>
      mkK (Some (t, i)) false (if pend s then (t, i) :: flagged s else flagged s) (live s) (killers s)
          (running s) (serial s) c
          (if pend s then upd (kerr s) t (raised (kerr s t) INTKIL) else kerr s) (calls s) (reports s) (stray s)
  | Reset i =>
      mkK (tgt s) (pend s) (filter (fun r => negb (req r (t, i))) (flagged s)) (live s) (killers s)
          (running s) (serial s) c (kerr s) (calls s) (reports s) (stray s)
  | Free i =>
      mkK (tgt s) (pend s) (filter (fun r => negb (req r (t, i))) (flagged s)) (updr (live s) (t, i) false) (killers s)
          (running s) (serial s) c
          (if is_flagged s (t, i) then upd (kerr s) t (raised (kerr s t) INTKIL) else kerr s) (calls s) (reports s) (stray s)
  | Raise n =>
      mkK (tgt s) (pend s) (flagged s) (live s) (killers s) (running s) (serial s) c
          (upd (kerr s) t (raised (kerr s t) (USERERR n))) (calls s) (reports s) (stray s)
  end.

Section Kill.
  (** The operations that may be started with the kill switch, and the number of threads. *)
  Variable ops : list instr -> Prop.
  Variable threads : nat.

  Definition started (s : kst) (t : nat) (p : list instr) : kst :=
    mkK (tgt s) (pend s) (flagged s) (live s) (killers s) (upd (running s) t true) (serial s) (upd (code s) t p)
        (upd (kerr s) t None) (calls s) (reports s) (stray s).

  (** An operation that returns has freed its routers. *)
  Definition returned (s : kst) (t : nat) : kst :=
    mkK (tgt s) (pend s) (filter (fun r => negb (fst r =? t)) (flagged s))
        (fun r => if fst r =? t then false else live s r) (killers s) (upd (running s) t false)
        (upd (serial s) t (S (serial s t))) (code s) (kerr s) (calls s) ((t, serial s t, kerr s t) :: reports s) (stray s).

  (** src/killers.c:281-285 *)
  Definition requested (s : kst) : kst :=
    mkK (tgt s) (match tgt s with None => true | Some _ => false end) (flagged s) (live s)
        (match tgt s with None => killers s | Some _ => KRead :: killers s end) (running s) (serial s) (code s) (kerr s)
        (S (calls s)) (reports s) (stray s).

  Definition with_killers (s : kst) (l : list kpc) : kst :=
    mkK (tgt s) (pend s) (flagged s) (live s) l (running s) (serial s) (code s) (kerr s) (calls s) (reports s) (stray s).

  (** src/killers.c:175-187; a null pointer is ignored *)
  Definition written (s : kst) (r : router) (l : list kpc) : kst :=
    mkK (tgt s) (pend s) (if live s r then r :: flagged s else flagged s) (live s) l (running s) (serial s) (code s)
        (kerr s) (calls s) (reports s) (stray s || negb (live s r)).

  (** Everything but a new call of [cru_kill] *)
  Inductive pstep : kst -> kst -> Prop :=
  | k_start s t p : t < threads -> running s t = false -> ops p -> pstep s (started s t p)
  | k_exec s t i rest : t < threads -> running s t = true -> code s t = i :: rest -> pstep s (exec s t i rest)
  | k_return s t : t < threads -> running s t = true -> code s t = [] -> pstep s (returned s t)
  | k_read s a b :
      killers s = a ++ KRead :: b ->
      pstep s (with_killers s (match tgt s with Some r => a ++ KWrite r :: b | None => a ++ b end))
  | k_write s a b r : killers s = a ++ KWrite r :: b -> pstep s (written s r (a ++ b)).

  Inductive kstep : kst -> kst -> Prop :=
  | k_other s s' : pstep s s' -> kstep s s'
  | k_request s : kstep s (requested s).

  Inductive star (R : kst -> kst -> Prop) : kst -> kst -> Prop :=
  | star_refl s : star R s s
  | star_step s1 s2 s3 : star R s1 s2 -> R s2 s3 -> star R s1 s3.

  (** Any execution, and one without calls of [cru_kill] after the first state. *)
  Definition ksteps := star kstep.
  Definition psteps := star pstep.
End Kill.

(** The operations with one pass whose router is freed: building, fabrication, crossing, mapping and
    reducing (src/build.c:327-345, src/fab.c:196-214, src/cross.c:418-434, src/mapreduce.c:168-185). *)
Definition single_pass : list instr := [Disable; New 0; Enable 0; Disable; Free 0].
(** Two passes with the same router, src/classes.c:329-346. *)
Definition double_pass : list instr := [Disable; New 0; Enable 0; Disable; Reset 0; Enable 0; Disable; Free 0].
