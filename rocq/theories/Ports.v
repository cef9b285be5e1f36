(** Layer 1: the message passing protocol between worker threads.

    Models src/ports.c, src/pods.c, src/sync.c, the recruitment part of
    src/crew.c and the launching sequence of src/launch.c as an interleaving
    transition system.  One constructor of [step] is one critical section, or
    one action on private data, of one thread.

    Simplifications, also listed in DESIGN.md:
    - the nested critical section on the router's lock inside a critical section
      on a port's mutex is merged with the latter;
    - the processing of one packet by the task is one step;
    - timing ([backoff], usleep), magic number checks, and failures of pthread
      calls are omitted;
    - the task returns when [_cru_exchanged] returns NULL (state [Exited]). *)
From Coq Require Import List Arith Lia Bool Permutation.
From Verif Require Import Base.
Import ListNotations.

Set Implicit Arguments.

(** Program counter of a worker in the loop around [_cru_exchanged]
    (src/ports.c:536-559) and of the functions it calls. *)
Inductive pc : Type :=
| Run                              (** in the task's loop; private list [inc] not exhausted, or about to call _cru_exchanged *)
| Assign                           (** before [assignment] (ports.c:234-260) *)
| Expose                           (** before [expose] (ports.c:397-425, called at 463) *)
| Send (j : nat) (enabled : bool)  (** in the loop of [circulate] (ports.c:464-467) *)
| Undefer (j : nat)                (** in the loop of [_cru_undefer] (sync.c:193-207) *)
| Block                            (** before [blocking_assignment] (ports.c:492-525) *)
| Sleep                            (** in pthread_cond_wait (ports.c:517) *)
| Exited.                          (** _cru_exchanged returned NULL *)

(** Program counter of the launching thread (launch.c:56-73, crew.c:255-294). *)
Inductive mpc : Type :=
| MStart            (** crew.c:283, waiting for all workers to block *)
| MSend             (** launch.c:61-64, about to send the initial packet *)
| MWait             (** launch.c:66, waiting for quiescence *)
| MDismiss (j : nat)(** sync.c:264-276, loop of [_cru_dismiss] *)
| MJoin             (** launch.c:68, joining with the workers *)
| MDone.

Section Ports.
  Context {S P : Type}.
  (** Number of workers, [r->lanes]. *)
  Variable lanes : nat.
  (** The worker a packet is addressed to: MOD(hash_value, lanes) in scatter.c and launch.c. *)
  Variable dest : P -> nat.
  (** The body of the task's loop; [None] defers the packet (mutate.c, induce.c). *)
  Variable task : S -> P -> option (S * list P).
  (** The initial packet (launch.c:63). *)
  Variable p0 : P.

  (** The state of all threads, ports (ports.h) and the router (route.h).
      Arrays indexed by worker are functions on [nat]. *)
  Record sys : Type := mkSys {
    pcs : nat -> pc;
    inc : nat -> list P;          (** local variable [incoming] of each task *)
    pod : nat -> nat -> list P;   (** peers->pod[j] of each worker, private *)
    ldef : nat -> list P;         (** peers->deferrals of each worker, private *)
    asg : nat -> list P;          (** port field [assigned] *)
    dfr : nat -> list P;          (** port field [deferred] *)
    waiting : nat -> bool;        (** port field [waiting] *)
    woken : nat -> bool;          (** the condition variable [resumable] has been signalled *)
    dismissed : nat -> bool;      (** port field [dismissed] *)
    running : nat;                (** router field [running] *)
    quiescent : bool;             (** router field [quiescent] *)
    mainpc : mpc;
    sh : S;                       (** the data the task works on *)
    lost : list P;                (** packets discarded by _cru_dismiss (sync.c:269-270) *)
    hist : list (nat * P);        (** ghost: (worker, packet) pairs processed so far, latest first *)
    sent : list P                 (** ghost: all packets created so far *)
  }.

  (** crew.c:275-281: all workers created and running, none has a packet. *)
  Definition init (s0 : S) : sys :=
    {| pcs := fun _ => Run; inc := fun _ => []; pod := fun _ _ => []; ldef := fun _ => [];
       asg := fun _ => []; dfr := fun _ => []; waiting := fun _ => false;
       woken := fun _ => false; dismissed := fun _ => false; running := lanes;
       quiescent := false; mainpc := MStart; sh := s0; lost := []; hist := []; sent := [] |}.

  (** scatter.c: push each outgoing packet onto the pod entry of its addressee. *)
  Definition push (pd : nat -> list P) (p : P) : nat -> list P :=
    upd pd (dest p) (p :: pd (dest p)).
  Definition push_all (pd : nat -> list P) (out : list P) : nat -> list P :=
    fold_left push out pd.

  Definition set_pc (s : sys) (i : nat) (c : pc) : sys :=
    mkSys (upd (pcs s) i c) (inc s) (pod s) (ldef s) (asg s) (dfr s) (waiting s) (woken s)
          (dismissed s) (running s) (quiescent s) (mainpc s) (sh s) (lost s) (hist s) (sent s).

  Definition set_main (s : sys) (m : mpc) : sys :=
    mkSys (pcs s) (inc s) (pod s) (ldef s) (asg s) (dfr s) (waiting s) (woken s)
          (dismissed s) (running s) (quiescent s) m (sh s) (lost s) (hist s) (sent s).

  (** The task processes the head of its private list. *)
  Definition do_process (s : sys) (i : nat) (p : P) (rest : list P) (s' : S) (out : list P) : sys :=
    mkSys (pcs s) (upd (inc s) i rest) (upd (pod s) i (push_all (pod s i) out)) (ldef s)
          (asg s) (dfr s) (waiting s) (woken s) (dismissed s) (running s) (quiescent s)
          (mainpc s) s' (lost s) ((i, p) :: hist s) (out ++ sent s).

  (** The task moves the head of its private list to peers->deferrals. *)
  Definition do_defer (s : sys) (i : nat) (p : P) (rest : list P) : sys :=
    mkSys (pcs s) (upd (inc s) i rest) (pod s) (upd (ldef s) i (p :: ldef s i))
          (asg s) (dfr s) (waiting s) (woken s) (dismissed s) (running s) (quiescent s)
          (mainpc s) (sh s) (lost s) (hist s) (sent s).

  (** pods.c:109-124 [_cru_recycled] on the worker's own entry. *)
  Definition do_recycle (s : sys) (i : nat) : sys :=
    mkSys (pcs s) (upd (inc s) i (pod s i i)) (upd (pod s) i (upd (pod s i) i [])) (ldef s)
          (asg s) (dfr s) (waiting s) (woken s) (dismissed s) (running s) (quiescent s)
          (mainpc s) (sh s) (lost s) (hist s) (sent s).

  (** ports.c:253-258 and 508-512: take all assigned packets and go on running. *)
  Definition do_take (s : sys) (i : nat) : sys :=
    mkSys (upd (pcs s) i Run) (upd (inc s) i (asg s i)) (pod s) (ldef s)
          (upd (asg s) i []) (dfr s) (waiting s) (woken s) (dismissed s) (running s) (quiescent s)
          (mainpc s) (sh s) (lost s) (hist s) (sent s).

  (** ports.c:418-424 [expose]. *)
  Definition do_expose (s : sys) (i : nat) : sys :=
    mkSys (upd (pcs s) i (Send 0 false)) (inc s) (pod s) (upd (ldef s) i [])
          (asg s) (upd (dfr s) i (ldef s i ++ dfr s i)) (waiting s) (woken s) (dismissed s)
          (running s) (quiescent s) (mainpc s) (sh s) (lost s) (hist s) (sent s).

  (** ports.c:290-303 [assigned]: prepend packets [ps] to the queue of port [j];
      if its worker waits on an empty queue, count it as running and signal it. *)
  Definition deliver (s : sys) (j : nat) (ps : list P) : sys :=
    let resume := waiting s j && isnil (asg s j) in
    mkSys (pcs s) (inc s) (pod s) (ldef s) (upd (asg s) j (ps ++ asg s j)) (dfr s) (waiting s)
          (if resume then upd (woken s) j true else woken s) (dismissed s)
          (if resume then running s + 1 else running s) (quiescent s)
          (mainpc s) (sh s) (lost s) (hist s) (sent s).

  (** ports.c:464-467: one iteration of [circulate]'s loop with a non-empty entry. *)
  Definition do_send (s : sys) (i j : nat) : sys :=
    let d := deliver s j (pod s i j) in
    mkSys (upd (pcs d) i (Send (j + 1) true)) (inc d) (upd (pod d) i (upd (pod d i) j [])) (ldef d)
          (asg d) (dfr d) (waiting d) (woken d) (dismissed d) (running d) (quiescent d)
          (mainpc d) (sh d) (lost d) (hist d) (sent d).

  (** sync.c:197-206: one iteration of [_cru_undefer]'s loop: if port [j] has no assigned
      but some deferred packets, assign them, and resume its worker if it waits. *)
  Definition do_undefer (s : sys) (i j : nat) : sys :=
    let move := isnil (asg s j) && negb (isnil (dfr s j)) in
    let resume := move && waiting s j in
    mkSys (upd (pcs s) i (Undefer (j + 1))) (inc s) (pod s) (ldef s)
          (if move then upd (asg s) j (dfr s j) else asg s)
          (if move then upd (dfr s) j [] else dfr s) (waiting s)
          (if resume then upd (woken s) j true else woken s) (dismissed s)
          (if resume then running s + 1 else running s) (quiescent s)
          (mainpc s) (sh s) (lost s) (hist s) (sent s).

  (** ports.c:514-517 with sync.c:143-167 [_cru_dwindled]: one worker less is running;
      if none is left, quiescence is declared. *)
  Definition do_sleep (s : sys) (i : nat) : sys :=
    mkSys (upd (pcs s) i Sleep) (inc s) (pod s) (ldef s) (asg s) (dfr s)
          (upd (waiting s) i true) (woken s) (dismissed s) (running s - 1)
          (if Nat.eqb (running s - 1) 0 then true else quiescent s)
          (mainpc s) (sh s) (lost s) (hist s) (sent s).

  (** ports.c:519-524: return from pthread_cond_wait, taking whatever is assigned;
      an empty list is NULL, on which the task's loop ends. *)
  Definition do_wake (s : sys) (i : nat) : sys :=
    mkSys (upd (pcs s) i (if isnil (asg s i) then Exited else Run)) (upd (inc s) i (asg s i))
          (pod s) (ldef s) (upd (asg s) i []) (dfr s) (upd (waiting s) i false)
          (upd (woken s) i false) (dismissed s) (running s) (quiescent s)
          (mainpc s) (sh s) (lost s) (hist s) (sent s).

  (** crew.c:284-288: a full crew is blocked; withdraw the declaration of quiescence. *)
  Definition do_ready (s : sys) : sys :=
    mkSys (pcs s) (inc s) (pod s) (ldef s) (asg s) (dfr s) (waiting s) (woken s)
          (dismissed s) (running s) false MSend (sh s) (lost s) (hist s) (sent s).

  (** launch.c:63-64: send the initial packet. *)
  Definition do_start (s : sys) : sys :=
    let d := deliver s (dest p0) [p0] in
    mkSys (pcs d) (inc d) (pod d) (ldef d) (asg d) (dfr d) (waiting d) (woken d)
          (dismissed d) (running d) (quiescent d) MWait (sh d) (lost d) (hist d) (p0 :: sent d).

  (** sync.c:267-275: dismiss one worker. *)
  Definition do_dismiss (s : sys) (j : nat) : sys :=
    mkSys (pcs s) (inc s) (pod s) (ldef s) (upd (asg s) j []) (dfr s) (waiting s)
          (if waiting s j then upd (woken s) j true else woken s)
          (if waiting s j then dismissed s else upd (dismissed s) j true)
          (running s) (quiescent s) (MDismiss (j + 1)) (sh s) (asg s j ++ lost s) (hist s) (sent s).

  Inductive step (s : sys) : sys -> Prop :=
  | st_process i p rest s' out :
      i < lanes -> pcs s i = Run -> inc s i = p :: rest -> task (sh s) p = Some (s', out) ->
      step s (do_process s i p rest s' out)
  | st_defer i p rest :
      i < lanes -> pcs s i = Run -> inc s i = p :: rest -> task (sh s) p = None ->
      step s (do_defer s i p rest)
  | st_recycle i :
      i < lanes -> pcs s i = Run -> inc s i = [] -> pod s i i <> [] ->
      step s (do_recycle s i)
  | st_norecycle i :
      i < lanes -> pcs s i = Run -> inc s i = [] -> pod s i i = [] ->
      step s (set_pc s i Assign)
  | st_assignment i :
      i < lanes -> pcs s i = Assign -> asg s i <> [] ->
      step s (do_take s i)
  | st_no_assignment i :
      i < lanes -> pcs s i = Assign -> asg s i = [] ->
      step s (set_pc s i Expose)
  | st_expose i :
      i < lanes -> pcs s i = Expose ->
      step s (do_expose s i)
  | st_send i j en :
      i < lanes -> pcs s i = Send j en -> j < lanes -> pod s i j <> [] ->
      step s (do_send s i j)
  | st_skip i j en :
      i < lanes -> pcs s i = Send j en -> j < lanes -> pod s i j = [] ->
      step s (set_pc s i (Send (j + 1) en))
  | st_sent i j (en : bool) :
      i < lanes -> pcs s i = Send j en -> lanes <= j ->
      step s (set_pc s i (if en then Block else Undefer 0))
  | st_undefer i j :
      i < lanes -> pcs s i = Undefer j -> j < lanes ->
      step s (do_undefer s i j)
  | st_undeferred i j :
      i < lanes -> pcs s i = Undefer j -> lanes <= j ->
      step s (set_pc s i Block)
  | st_take i :
      i < lanes -> pcs s i = Block -> asg s i <> [] ->
      step s (do_take s i)
  | st_dismissed i :
      i < lanes -> pcs s i = Block -> asg s i = [] -> dismissed s i = true ->
      step s (set_pc s i Exited)
  | st_not_dwindled i :
      i < lanes -> pcs s i = Block -> asg s i = [] -> dismissed s i = false -> running s = 0 ->
      step s (set_pc s i Exited)
  | st_sleep i :
      i < lanes -> pcs s i = Block -> asg s i = [] -> dismissed s i = false -> 0 < running s ->
      step s (do_sleep s i)
  | st_wake i :
      i < lanes -> pcs s i = Sleep -> woken s i = true ->
      step s (do_wake s i)
  | st_ready :
      mainpc s = MStart -> quiescent s = true ->
      step s (do_ready s)
  | st_start :
      mainpc s = MSend ->
      step s (do_start s)
  | st_finished :
      mainpc s = MWait -> quiescent s = true ->
      step s (set_main s (MDismiss 0))
  | st_dismiss j :
      mainpc s = MDismiss j -> j < lanes ->
      step s (do_dismiss s j)
  | st_all_dismissed j :
      mainpc s = MDismiss j -> lanes <= j ->
      step s (set_main s MJoin)
  | st_join :
      mainpc s = MJoin -> (forall i, i < lanes -> pcs s i = Exited) ->
      step s (set_main s MDone).

  (** POSIX allows pthread_cond_wait to return without a signal. *)
  Inductive spurious_step (s : sys) : sys -> Prop :=
  | sp_step s' : step s s' -> spurious_step s s'
  | sp_wake i : i < lanes -> pcs s i = Sleep -> spurious_step s (do_wake s i).

  Definition reachable (s0 : S) : sys -> Prop := star step (init s0).

  (** All packets held anywhere. *)
  Definition in_flight (s : sys) : list P :=
    flat lanes (inc s) ++ flat lanes (fun i => flat lanes (pod s i)) ++
    flat lanes (ldef s) ++ flat lanes (asg s) ++ flat lanes (dfr s).

End Ports.
