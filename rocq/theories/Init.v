(** Initialisation and teardown of static storage, and construction of kill switches, ports and routers, when any call of a pthread
    or allocation function may fail: src/entry.c:60-155, src/errs.c:54-135, src/getset.c:53-120, src/cthread.c:50-221,
    src/killers.c:47-99, 297-314, src/crew.c:80-127, src/pack.c:58-91, src/copy.c:75-103, src/graph.c:46-65, src/wrap.c:94-208,
    src/pods.c:34-93, src/ports.c:42-110, src/route.c:97-185, 658-695.

    The production version is modelled, in which WRAP is not defined, so that NOMEM is 0, and files copy.c and wrap.c have nothing to
    initialise or close. *)
From Coq Require Import List Arith NArith Bool Lia.
Import ListNotations.

Set Implicit Arguments.

(** Objects that are initialised by calls which may fail.  [Attr] is the local variable a in [_cru_open_errs] and [_cru_open_crew].
    Of those belonging to a router there is only one here; ports are identified by their indices. *)
Inductive obj :=
  | ErrorLock | Attr
  | EdgeKey | KilledKey | GraphKey | DestructorsKey | EdgeMapKey | ContextKey
  | MutexAttr | PoolLock (i : nat) | ThreadAttr
  | KillerLock | CrewLock | PacketLock | GraphLock
  | Switch | Safety
  | Router | RouterLock | Transition | Threads | Ports
  | Port (o : nat) | Suspension (o : nat) | Resumable (o : nat) | PortLock (o : nat) | PodArray (o : nat) | Pod (o : nat).

Definition obj_eqb (x y : obj) : bool :=
  match x, y with
  | ErrorLock, ErrorLock | Attr, Attr | EdgeKey, EdgeKey | KilledKey, KilledKey | GraphKey, GraphKey
  | DestructorsKey, DestructorsKey | EdgeMapKey, EdgeMapKey | ContextKey, ContextKey | MutexAttr, MutexAttr
  | ThreadAttr, ThreadAttr | KillerLock, KillerLock | CrewLock, CrewLock | PacketLock, PacketLock | GraphLock, GraphLock
  | Switch, Switch | Safety, Safety | Router, Router | RouterLock, RouterLock | Transition, Transition
  | Threads, Threads | Ports, Ports => true
  | PoolLock i, PoolLock j | Port i, Port j | Suspension i, Suspension j | Resumable i, Resumable j
  | PortLock i, PortLock j | PodArray i, PodArray j | Pod i, Pod j => i =? j
  | _, _ => false
  end.

Fixpoint has (o : obj) (l : list obj) : bool := match l with [] => false | x :: l' => obj_eqb o x || has o l' end.
Fixpoint without (o : obj) (l : list obj) : list obj :=
  match l with [] => [] | x :: l' => if obj_eqb o x then l' else x :: without o l' end.

(** [wrong] is set if an object is initialised twice, or used, destroyed or freed without being initialised.  [err] is *err. *)
Record st := mkSt { live : list obj; clock : nat; err : N; wrong : bool; thrown : list N }.

(** src/errs.h:36 *)
Definition raise (c : N) (s : st) : st := mkSt (live s) (clock s) (if N.eqb (err s) 0 then c else err s) (wrong s) (thrown s).
Definition tick (s : st) : st := mkSt (live s) (S (clock s)) (err s) (wrong s) (thrown s).
Definition use (o : obj) (s : st) : st := mkSt (live s) (clock s) (err s) (wrong s || negb (has o (live s))) (thrown s).

Section Init.
  (** Whether the call made at a time fails *)
  Variable fails : nat -> bool.
  (** LOCK_POOL_SIZE, src/cthread.c:27 *)
  Variable pool : nat.

  (** A call initialising or allocating an object, in which case the result is true, or raising an error *)
  Definition make (o : obj) (c : N) (s : st) : bool * st :=
    if fails (clock s) then (false, raise c (tick s))
    else (true, mkSt (o :: live s) (S (clock s)) (err s) (wrong s || has o (live s)) (thrown s)).
  (** A call destroying one.  The result is true if it returns a non-zero value.  The object is regarded as destroyed even so. *)
  Definition destroy (o : obj) (s : st) : bool * st :=
    (fails (clock s), mkSt (without o (live s)) (S (clock s)) (err s) (wrong s || negb (has o (live s))) (thrown s)).
  Definition destroyed (o : obj) (s : st) : st := snd (destroy o s).
  (** free *)
  Definition freed (o : obj) (s : st) : st :=
    mkSt (without o (live s)) (clock s) (err s) (wrong s || negb (has o (live s))) (thrown s).
  Definition destroy_or (o : obj) (c : N) (s : st) : st := let (f, s') := destroy o s in if f then raise c s' else s'.

  (** _cru_error_checking_mutex_type, src/errs.c:122-135 *)
  Definition error_checking_mutex_type (a : obj) (s : st) : bool * st :=
    match make a 916 s with
    | (false, s) => (false, s)
    | (true, s) => if fails (clock s) then (false, destroyed a (raise 917 (tick s))) else (true, tick s)
    end.

  (** _cru_open_errs, src/errs.c:53-75 *)
  Definition open_errs (s : st) : bool * st :=
    match error_checking_mutex_type Attr s with
    | (false, s) => (false, s)
    | (true, s) =>
        match make ErrorLock 912 (use Attr s) with
        | (false, s) => (false, destroyed Attr s)
        | (true, s) => let (f, s) := destroy Attr s in
            if f then (false, destroyed ErrorLock (raise 913 s)) else (true, s)
        end
    end.

  (** _cru_globally_throw, src/errs.c:142-163.  The lock is used if there is an error; locking doesn't fail.  File Errlog.v is about
      the limit on the number of errors kept. *)
  Definition globally_throw (e : N) (s : st) : st :=
    if N.eqb e 0 then s else let s := use ErrorLock s in mkSt (live s) (clock s) (err s) (wrong s) (e :: thrown s).

  (** A closing function with a local variable err, whose value is thrown at the end *)
  Definition closing (f : st -> st) (s : st) : st :=
    let s1 := f (mkSt (live s) (clock s) 0 (wrong s) (thrown s)) in
    globally_throw (err s1) (mkSt (live s1) (clock s1) (err s) (wrong s1) (thrown s1)).

  (** The part of _cru_close_errs concerned with the lock, src/errs.c:92-99.  There are no background threads if initialisation
      fails; otherwise see [action] below. *)
  Definition close_errs (s : st) : st :=
    let (f, s) := destroy ErrorLock s in
    if f then mkSt (live s) (clock s) (err s) (wrong s) (914%N :: thrown s) else s.

  (** _cru_open_getset, src/getset.c:52-77 *)
  Definition open_getset (s : st) : bool * st :=
    match make EdgeKey 992 s with (false, s) => (false, s) | (true, s) =>
    match make KilledKey 993 s with (false, s) => (false, destroyed EdgeKey s) | (true, s) =>
    match make GraphKey 994 s with (false, s) => (false, destroyed EdgeKey (destroyed KilledKey s)) | (true, s) =>
    match make DestructorsKey 995 s with
    | (false, s) => (false, destroyed EdgeKey (destroyed KilledKey (destroyed GraphKey s))) | (true, s) =>
    match make EdgeMapKey 996 s with
    | (false, s) => (false, destroyed EdgeKey (destroyed KilledKey (destroyed GraphKey (destroyed DestructorsKey s))))
    | (true, s) =>
    match make ContextKey 997 s with
    | (false, s) =>
        (false, destroyed EdgeKey (destroyed KilledKey (destroyed GraphKey (destroyed DestructorsKey (destroyed EdgeMapKey s)))))
    | (true, s) => (true, s)
    end end end end end end.

  (** _cru_close_getset and release_pthread_resources, src/getset.c:85-120 *)
  Definition close_getset : st -> st := closing (fun s =>
    destroy_or DestructorsKey 1003 (destroy_or KilledKey 1002 (destroy_or GraphKey 1001 (destroy_or EdgeKey 1000
      (destroy_or EdgeMapKey 999 (destroy_or ContextKey 998 s)))))).

  (** The loop in src/cthread.c:77-79, with k locks still to be initialised, the next one being i: the value of i at the end, and
      whether all of them are *)
  Fixpoint make_pool (k i : nat) (s : st) : nat * bool * st :=
    match k with
    | 0 => (i, true, s)
    | S k' => match make (PoolLock i) 790 s with (false, s) => (i, false, s) | (true, s) => make_pool k' (S i) s end
    end.
  (** src/cthread.c:83-84 *)
  Fixpoint unmake_pool (i : nat) (s : st) : st := match i with 0 => s | S i' => unmake_pool i' (destroyed (PoolLock i') s) end.

  (** _cru_open_cthread and thread_type, src/cthread.c:49-86 *)
  Definition open_cthread (s : st) : bool * st :=
    match error_checking_mutex_type MutexAttr s with
    | (false, s) => (false, s)
    | (true, s) =>
        match make_pool pool 0 s with
        | (i, false, s) => (false, unmake_pool i (destroyed MutexAttr s))
        | (i, true, s) =>
            match make ThreadAttr 789 s with
            | (true, s) => (true, s)
            | (false, s) => (false, unmake_pool i (destroyed MutexAttr s))
            end
        end
    end.

  (** src/cthread.c:114-116 *)
  Fixpoint close_pool (k i : nat) (s : st) : st :=
    match k with 0 => s | S k' => close_pool k' (S i) (destroy_or (PoolLock i) 793 s) end.
  (** _cru_close_cthread and release_pthread_resources, src/cthread.c:102-134 *)
  Definition close_cthread : st -> st := closing (fun s => close_pool pool 0 (destroy_or ThreadAttr 792 (destroy_or MutexAttr 791 s))).

  (** _cru_mutex_init, src/cthread.c:176-193, here with the error code ENOMEM = 12 *)
  Definition mutex_init (m : obj) (s : st) : bool * st := make m 12 (use MutexAttr s).
  (** _cru_cond_init, src/cthread.c:205-221 *)
  Definition cond_init (c : obj) (s : st) : bool * st := make c 12 s.

  (** _cru_open_killers and _cru_close_killers, src/killers.c:46-67 *)
  Definition open_killers (s : st) : bool * st := mutex_init KillerLock s.
  Definition close_killers : st -> st := closing (destroy_or KillerLock 1070).

  (** _cru_open_crew, src/crew.c:79-98 *)
  Definition open_crew (s : st) : bool * st :=
    match error_checking_mutex_type Attr s with
    | (false, s) => (false, s)
    | (true, s) =>
        match make CrewLock 712 (use Attr s) with
        | (false, s) => (false, destroyed Attr s)
        | (true, s) => let (f, s) := destroy Attr s in
            if f then (false, destroyed CrewLock (raise 713 s)) else (true, s)
        end
    end.
  (** _cru_close_crew, src/crew.c:107-127.  The crews in reserve are the subject of Crews.v. *)
  Definition close_crew : st -> st := closing (destroy_or CrewLock 716).

  (** _cru_open_packets and _cru_close_packets, src/pack.c:57-91.  The packets in reserve are left out (see Reserve.v). *)
  Definition open_packets (s : st) : bool * st := make PacketLock 1282 s.
  Definition close_packets : st -> st := closing (destroy_or PacketLock 1285).

  (** _cru_open_graph and _cru_close_graph, src/graph.c:45-65 *)
  Definition open_graph (s : st) : bool * st := make GraphLock 1010 s.
  Definition close_graph : st -> st := closing (destroy_or GraphLock 1011).

  (** initialization, src/entry.c:119-155; the result is the variable initialized, and err is initial_error.  Opening copy and wrap
      does nothing and succeeds (src/copy.c:74-103, src/wrap.c:117-119). *)
  Definition initialization (s : st) : bool * st :=
    match open_errs s with (false, s) => (false, s) | (true, s) =>
    match open_getset s with (false, s) => (false, close_errs s) | (true, s) =>
    match open_cthread s with (false, s) => (false, close_errs (close_getset s)) | (true, s) =>
    match open_killers s with (false, s) => (false, close_errs (close_getset (close_cthread s))) | (true, s) =>
    match open_crew s with (false, s) => (false, close_errs (close_getset (close_cthread (close_killers s)))) | (true, s) =>
    match open_packets s with
    | (false, s) => (false, close_errs (close_getset (close_cthread (close_killers (close_crew s))))) | (true, s) =>
    match open_graph s with
    | (false, s) => (false, close_errs (close_getset (close_cthread (close_killers (close_crew (close_packets s))))))
    | (true, s) =>
        (* atexit, 142-143 *)
        if fails (clock s)
        then (false, close_errs (close_getset (close_cthread (close_killers (close_crew (close_packets (close_graph (raise 907 (tick s)))))))))
        else (true, tick s)
    end end end end end end end.

  (** ** Calls of the library *)

  (** A program calls functions of the library, which use any of the static objects provided that initialisation succeeded.
      [Api os] is a function with API_ENTRY or TEST_ENTRY (src/entry.c:79-94), after which it uses os; [Connect os] is cru_connect
      (297-316), and [Stretch os] is cru_stretch (325-361), which reads the key of the destructors first. *)
  Inductive call := Api (os : list obj) | Connect (os : list obj) | Stretch (os : list obj).
  (** Whether pthread_once was called, the variable initialized, and the rest *)
  Definition call_step (x : option bool * st) (c : call) : option bool * st :=
    match c with
    | Api os =>
        let (i, s) := match fst x with Some i => (i, snd x) | None => initialization (snd x) end in
        (Some i, if i then fold_left (fun s o => use o s) os (use PacketLock (use CrewLock s)) else s)
    | Connect os =>
        match fst x with
        | Some true => (fst x, fold_left (fun s o => use o s) os (use ContextKey (snd x)))
        | _ => x
        end
    | Stretch os =>
        let s := use DestructorsKey (snd x) in
        match fst x with
        | Some true => (fst x, fold_left (fun s o => use o s) os (use ContextKey s))
        | _ => (fst x, s)
        end
    end.

  (** ** Kill switches, src/killers.c:81-99, 296-314 *)
  Definition new_kill_switch (s : st) : bool * st :=
    match make Switch 12 s with
    | (false, s) => (false, s)
    | (true, s) => match mutex_init Safety s with
                   | (true, s) => (N.eqb (err s) 0, if N.eqb (err s) 0 then s else freed Switch s)
                   | (false, s) => (false, freed Switch (raise 1071 s)) end
    end.
  Definition free_kill_switch (s : st) : st := freed Switch (destroy_or Safety 1086 s).

  (** ** Ports and routers *)

  (** _cru_pod_of, src/pods.c:33-66.  The arity isn't zero, and sizes don't overflow. *)
  Definition pod_of (o : nat) (s : st) : bool * st :=
    match make (PodArray o) 12 s with
    | (false, s) => (false, s)
    | (true, s) => match make (Pod o) 12 s with (true, s) => (true, s) | (false, s) => (false, freed (PodArray o) s) end
    end.

  (** _cru_new_port, src/ports.c:41-77 *)
  Definition new_port (o : nat) (s : st) : bool * st :=
    match make (Port o) 12 s with (false, s) => (false, s) | (true, s) =>
    match mutex_init (Suspension o) s with (false, s) => (false, freed (Port o) s) | (true, s) =>
    match cond_init (Resumable o) s with (false, s) => (false, freed (Port o) (destroyed (Suspension o) s)) | (true, s) =>
    match make (PortLock o) 1315 s with
    | (false, s) => (false, freed (Port o) (destroyed (Suspension o) (destroyed (Resumable o) s))) | (true, s) =>
    match pod_of o s with
    | (true, s) => (true, s)
    | (false, s) => (false, freed (Port o) (destroyed (Suspension o) (destroyed (Resumable o) (destroyed (PortLock o) s))))
    end end end end end.

  (** _cru_free_pod and _cru_free_port, src/pods.c:73-93, src/ports.c:87-110.  Packets and sets of nodes are left out. *)
  Definition free_port (o : nat) (s : st) : st :=
    freed (Port o) (freed (Pod o) (freed (PodArray o)
      (destroy_or (PortLock o) 1319 (destroy_or (Resumable o) 1318 (destroy_or (Suspension o) 1317 s))))).

  (** The loop in src/route.c:672-673.  r->ports[o] is not NULL just for o < made. *)
  Fixpoint free_ports (k o made : nat) (s : st) : st :=
    match k with 0 => s | S k' => free_ports k' (S o) made (if o <? made then free_port o s else s) end.

  (** _cru_free_router, src/route.c:658-693, of a router that isn't shared; whether the array of threads and that of ports are
      allocated, and the number of ports made *)
  Definition free_router (lanes : nat) (threads ports : bool) (made : nat) (s : st) : st :=
    let s := if threads then freed Threads s else s in
    let s := if ports then freed Ports (free_ports lanes 0 made s) else s in
    freed Router (destroy_or Transition 1473 (destroy_or RouterLock 1472 s)).

  (** The loop in src/route.c:175-177: how many ports are made, and whether all of them are *)
  Fixpoint make_ports (k o : nat) (s : st) : nat * bool * st :=
    match k with
    | 0 => (o, true, s)
    | S k' => match new_port o s with (false, s) => (o, false, s) | (true, s) => make_ports k' (S o) s end
    end.

  (** router_of, src/route.c:97-185, given the number of operators that are not NULL.  The number of lanes is the one after line 130,
      and arrays of so many elements have a size that doesn't overflow. *)
  Definition router_of (operators lanes : nat) (s : st) : bool * st :=
    if negb (N.eqb (err s) 0) then (false, s) else
    if lanes =? 0 then (false, raise 1445 s) else
    match make Router 12 s with (false, s) => (false, s) | (true, s) =>
    match mutex_init RouterLock s with (false, s) => (false, freed Router s) | (true, s) =>
    match cond_init Transition s with (false, s) => (false, freed Router (destroyed RouterLock s)) | (true, s) =>
    match make Threads 12 s with (false, s) => (false, free_router lanes false false 0 s) | (true, s) =>
    match make Ports 12 s with (false, s) => (false, free_router lanes true false 0 s) | (true, s) =>
    if 1 <? operators then (false, free_router lanes true true 0 (raise 1446 s)) else
    match make_ports lanes 0 s with
    | (_, true, s) => (true, s)
    | (made, false, s) => (false, free_router lanes true true made s)
    end end end end end end.

  (** ** Teardown *)

  (** teardown, src/entry.c:99-114, is executed when the process exits, possibly while background threads started by nthm_send are
      still running, namely those of src/graph.c:137-149, src/postpone.c:324-336 and src/classes.c:112-141, which use nothing static
      except for throwing an error at the end.  Function nthm_sync waits for them. *)
  Inductive action :=
    | Close (o : obj) (c : N)   (* destroying an object, with an error code to be raised if that fails *)
    | Throw                     (* throwing the error raised, if any, and then beginning another function without an error *)
    | Sync                      (* src/errs.c:93 *)
    | CloseErrs                 (* 94-99 *)
    | Print.                    (* 100-105 *)

  Definition teardown : list action :=
    [Close KillerLock 1070; Throw;
     Close ContextKey 998; Close EdgeMapKey 999; Close EdgeKey 1000; Close GraphKey 1001; Close KilledKey 1002;
     Close DestructorsKey 1003; Throw;
     Close MutexAttr 791; Close ThreadAttr 792] ++ map (fun i => Close (PoolLock i) 793) (seq 0 pool) ++
    [Throw; Close PacketLock 1285; Throw; Close CrewLock 716; Throw; Close GraphLock 1011; Throw;
     Sync; CloseErrs; Print].

  (** What remains to be done, the background threads with the error codes they are going to throw, and what has been printed *)
  Record td := mkTd { todo : list action; slackers : list N; base : st; printed : option (list N) }.

  Definition perform (a : action) (s : st) : st :=
    match a with
    | Close o c => destroy_or o c s
    | Throw => let e := err s in globally_throw e (mkSt (live s) (clock s) 0 (wrong s) (thrown s))
    | Sync => s
    | CloseErrs => close_errs s
    | Print => s
    end.

  Inductive td_step : td -> td -> Prop :=
    | td_act a rest sl s p : (a = Sync -> sl = []) ->
        td_step (mkTd (a :: rest) sl s p)
                (mkTd rest sl (perform a s) (match a with Print => Some (thrown s) | _ => p end))
    | td_slack rest sl1 e sl2 s p :
        td_step (mkTd rest (sl1 ++ e :: sl2) s p) (mkTd rest (sl1 ++ sl2) (globally_throw e s) p).
End Init.

(** The state of a process before the library is used *)
Definition pristine : st := mkSt [] 0 0 false [].
