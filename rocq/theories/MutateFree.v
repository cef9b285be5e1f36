(** What becomes of the vertices and edge labels of a graph being mutated, including when user functions fail: src/mutate.c:128-150
    and 245-823, src/nodes.c:76-96, src/edges.c:126-146.  File Mutate.v is about the results of mutations and their order.  Here, values are
    followed individually until they are destroyed, and it is of no importance what they are. *)
From Coq Require Import List Arith Lia Bool Permutation.
From Verif Require Import Base.
Import ListNotations.

Set Implicit Arguments.

(** A vertex or a label is either the one given or the one it is replaced by. *)
Inductive version := Old | New.

(** Destructors are identified by their addresses.  The mutator is one that was inferred (src/infer.c:428-493).  Edges have numbers.
    The graph is in full duplex form (src/zones.c:216-222), so that each edge is in a list edges_out and in a list edges_in. *)
Record mutator := mkMutator {
  src : nat -> nat;                     (* the node an edge is from *)
  dst : nat -> nat;                     (* the node it is to *)
  outs : nat -> list nat;               (* n->edges_out *)
  ins : nat -> list nat;                (* n->edges_in *)
  lane : nat -> nat;                    (* the worker having the node *)
  v_free : option nat;                  (* r->ro_sig.destructors.v_free, that of the graph given *)
  e_free : option nat;
  kv_free : option nat;                 (* r->mutator.mu_kernel.v_op.vertex.m_free *)
  ke_free : option nat;                 (* r->mutator.mu_kernel.e_op.m_free *)
  v_op : bool;                          (* whether the vertex operation is other than an empty prop *)
  e_op : bool;                          (* whether the edge operation is other than an empty fold *)
  has_incident : bool;                  (* whether v_op.incident is other than an empty fold *)
  has_outgoing : bool;                  (* the same of v_op.outgoing *)
  sees_remote : bool;                   (* whether any of these has a map rather than a bmap, i.e., refers to adjacent vertices *)
  local_first : bool;                   (* r->mutator.mu_plan *)
  remote_first : bool;
  backwards : bool;
  outside : nat -> bool;                (* nodes that aren't reachable in the zone *)
  (* how user functions turn out *)
  v_fails : nat -> bool;                (* whether the vertex operation raises an error when applied to a node *)
  e_fails : nat -> bool;                (* the same of the edge operation *)
  v_null : nat -> bool;                 (* whether it returns NULL *)
  e_null : nat -> bool;
  dv_fails : nat -> bool;               (* whether v_free raises an error when applied to the vertex of a node *)
  de_fails : nat -> bool                (* the same of e_free *)
}.

(** ** Memory *)

(** The calls are those of destructors, latest first, and values are made by being there at first or returned by a user function. *)
Record vertex := mkVertex { cur : option version; vcalls : list (nat * version); vmade : list version }.
(** An edge has a label at either end. *)
Record label := mkLabel { out_ : option version; in_ : option version; lcalls : list (nat * version); lmade : list version }.
Record mem := mkMem {
  vs : nat -> vertex;
  ls : nat -> label;
  misused : bool                        (* whether a value was passed to a user function after it had been destroyed *)
}.

Definition opt (x : option version) : list version := match x with Some y => [y] | None => [] end.
Definition on_vertex (n : nat) (f : vertex -> vertex) (m : mem) : mem := mkMem (upd (vs m) n (f (vs m n))) (ls m) (misused m).
Definition on_label (e : nat) (f : label -> label) (m : mem) : mem := mkMem (vs m) (upd (ls m) e (f (ls m e))) (misused m).
(** A call of a destructor, if there is one and the value isn't NULL *)
Definition call (d : option nat) (x : option version) : list (nat * version) :=
  match d, x with Some d, Some x => [(d, x)] | _, _ => [] end.
Definition call_v (d : option nat) (x : option version) (v : vertex) : vertex := mkVertex (cur v) (call d x ++ vcalls v) (vmade v).
Definition call_l (d : option nat) (x : option version) (l : label) : label := mkLabel (out_ l) (in_ l) (call d x ++ lcalls l) (lmade l).
(** Results of user functions *)
Definition make_v (x : option version) (v : vertex) : vertex := mkVertex (cur v) (vcalls v) (opt x ++ vmade v).
Definition make_l (x : option version) (l : label) : label := mkLabel (out_ l) (in_ l) (lcalls l) (opt x ++ lmade l).
(** Assignments *)
Definition set_cur (x : option version) (v : vertex) : vertex := mkVertex x (vcalls v) (vmade v).
Definition set_out (x : option version) (l : label) : label := mkLabel x (in_ l) (lcalls l) (lmade l).
Definition set_in (x : option version) (l : label) : label := mkLabel (out_ l) x (lcalls l) (lmade l).

(** Passing a value to a user function *)
Definition is_version (x y : version) : bool := match x, y with Old, Old => true | New, New => true | _, _ => false end.
Definition dead (calls : list (nat * version)) (x : option version) : bool :=
  match x with Some y => existsb (fun c => is_version y (snd c)) calls | None => false end.
Definition use (b : bool) (m : mem) : mem := mkMem (vs m) (ls m) (misused m || b).
Definition use_vertex (n : nat) (m : mem) : mem := use (dead (vcalls (vs m n)) (cur (vs m n))) m.
Definition use_out (e : nat) (m : mem) : mem := use (dead (lcalls (ls m e)) (out_ (ls m e))) m.
Definition use_in (e : nat) (m : mem) : mem := use (dead (lcalls (ls m e)) (in_ (ls m e))) m.

Definition each (f : nat -> mem -> mem) (l : list nat) (m : mem) : mem := fold_left (fun m k => f k m) l m.

(** The value of an edge's field label in n->edges_out is disposed of. *)
Definition drop (d : option nat) (l : label) : label := set_out None (call_l d (out_ l) l).
(** [_cru_free_labels], src/edges.c:126-146, for labels of outgoing edges *)
Definition free_labels (d : option nat) (es : list nat) (m : mem) : mem := each (fun e => on_label e (drop d)) es m.

Section Mutation.
  Variable c : mutator.

  (** UNORDERED, FORWARD_PROPAGATING and PREREQUISITES, src/mutate.c:44-50.  Of the latter, only the adjacent nodes are given. *)
  Definition unordered : bool := if remote_first c then false else negb (local_first c).
  Definition forward : bool := Bool.eqb (negb (backwards c)) (negb (remote_first c)).
  Definition prerequisites (n : nat) : list nat :=
    if unordered then [] else if forward then map (src c) (ins c n) else map (dst c) (outs c n).

  Definition is_nil {A} (l : list A) : bool := match l with [] => true | _ => false end.
  (** Whether [bound] stores a node that isn't outside among the survivors, src/mutate.c:128-150 with 199-204 *)
  Definition early (n : nat) : bool :=
    let both := e_op c && v_op c in
    let i := negb both && negb (has_incident c) in
    let o := negb both && negb (has_outgoing c) in
    is_nil (prerequisites n) || (i || is_nil (ins c n)) && (o || is_nil (outs c n)).

  (** ** Mutations *)

  (** [_cru_mapped_node], src/nodes.c:379-430: the result, whether there is an error, and the memory.  The results of folds over edges
      are dealt with there. *)
  Definition mapped_node (n : nat) (m : mem) : option version * bool * mem :=
    let m := use_vertex n m in
    let m := if has_incident c
             then each (fun e m => if sees_remote c then use_vertex (src c e) (use_in e m) else use_in e m) (ins c n) m else m in
    let m := if has_outgoing c
             then each (fun e m => if sees_remote c then use_vertex (dst c e) (use_out e m) else use_out e m) (outs c n) m else m in
    let x := if v_null c n then None else Some New in
    let m := on_vertex n (make_v x) m in
    if v_fails c n then (None, true, on_vertex n (call_v (kv_free c) x) m) else (x, false, m).

  (** The loop in [permeate], src/mutate.c:266-280: the remaining edges, whether there is an error, and the memory *)
  Fixpoint permeating (blocked : bool) (n : nat) (es : list nat) (err : bool) (m : mem) : list nat * bool * mem :=
    match es with
    | [] => ([], err, m)
    | e :: es' =>
        if err then (es, true, m) else
        let m := if blocked then m
                 else let m := if v_op c then m else use_vertex n m in
                      if forward then use_vertex (dst c e) (use_out e m) else use_vertex (src c e) (use_in e m) in
        let x := if blocked || e_null c e then None else Some New in
        let m := on_label e (make_l x) m in
        if negb blocked && e_fails c e then (es, true, on_label e (call_l (ke_free c) x) m)
        else if forward
        then permeating blocked n es' (negb (is_nil (call (e_free c) (out_ (ls m e)))) && de_fails c e) (on_label e (fun l => set_out x (drop (e_free c) l)) m)
        else permeating blocked n es' false (on_label e (set_in x) m)
    end.
  (** [permeate], src/mutate.c:245-285 *)
  Definition permeate (blocked : bool) (n : nat) (err : bool) (m : mem) : bool * mem :=
    let es := if forward then outs c n else ins c n in
    match permeating blocked n es err m with
    | (rest, err, m) =>
        if forward
        then let m := free_labels (e_free c) rest m in (err, if err then free_labels (ke_free c) es m else m)
        else (err, m)
    end.

  (** [reflect], src/mutate.c:295-331.  The search for the counterpart of an edge (314-325) isn't represented. *)
  Definition reflect (n : nat) (err : bool) (m : mem) : bool * mem :=
    if forward then (err, each (fun e => on_label e (fun l => set_in (out_ l) l)) (outs c n) m)
    else (err || existsb (fun e => negb (is_nil (call (e_free c) (out_ (ls m e)))) && de_fails c e) (ins c n),
          each (fun e => on_label e (fun l => set_out (in_ l) (drop (e_free c) l))) (ins c n) m).

  (** [undo_reflection], src/mutate.c:342-364, unless the mutation is forward propagating *)
  Definition undo_reflection (n : nat) (d : option nat) (m : mem) : mem := free_labels d (ins c n) m.

  (** [mutate], src/mutate.c:373-415, which is taken for one step, as the nodes it refers to aren't changed by other workers in the
      meantime if the order is constrained, and if not, they aren't referred to. *)
  Definition mutate (blocked : bool) (n : nat) (err : bool) (m : mem) : bool * mem :=
    let '(x, err, m) := if blocked || negb (v_op c) || err then (None, err, m) else mapped_node n m in
    let (err, m) := if e_op c
                    then let (err, m) := permeate blocked n err m in
                         let (err, m) := reflect n err m in
                         (err, if err && negb forward then undo_reflection n None m else m)
                    else (err, m) in
    if err || negb forward && blocked
    then (err, if err then on_vertex n (call_v (kv_free c) x) m else m)
    else if v_op c
    then (negb (is_nil (call (v_free c) (cur (vs m n)))) && dv_fails c n, on_vertex n (fun v => set_cur x (call_v (v_free c) (cur v) v)) m)
    else (false, m).

  (** ** The whole of [propagate], src/mutate.c:767-823, after the bounding phase *)

  (** The field marked of nodes, src/mutate.c:58-64 *)
  Inductive mark := Fresh | Mutated | Unreachable | Blocked.
  Definition is_fresh (x : mark) : bool := match x with Fresh => true | _ => false end.
  Definition is_blocked (x : mark) : bool := match x with Blocked => true | _ => false end.

  Inductive phase := Mutating | Retracting | Unmutating | Finished.
  Record st := mkSt {
    ph : phase;
    marks : nat -> mark;
    pend : nat -> list nat;             (* of s->survivors of each worker s, those that weren't reached by [start] as yet *)
    surv : nat -> list nat;             (* the others *)
    dels : nat -> list nat;             (* s->deletions *)
    werrs : nat -> bool;                (* *err of each worker *)
    failed : bool;                      (* *err of the launching thread *)
    todo : list nat;                    (* workers yet to retract or to unmutate *)
    memory : mem
  }.

  (** [retract], src/mutate.c:656-670, and [unmutate], 704-734 *)
  Definition marked_first (s : st) (l : nat) : bool :=
    match surv s l ++ pend s l with n :: _ => negb (is_fresh (marks s n)) | [] => false end.
  Definition retract (s : st) (l : nat) : mem :=
    if marked_first s l then each (fun n => undo_reflection n (ke_free c)) (surv s l ++ pend s l) (memory s) else memory s.
  (** [_cru_free_nodes], src/nodes.c:76-96 *)
  Definition free_nodes (dv de : option nat) (ns : list nat) (m : mem) : mem :=
    each (fun n m => on_vertex n (fun v => set_cur None (call_v dv (cur v) v)) (free_labels de (outs c n) m)) ns m.
  Definition unmutate (s : st) (l : nat) : mem :=
    let unmarked := negb (is_nil (surv s l ++ pend s l)) && negb (marked_first s l) in
    let zv := if unmarked then v_free c else if v_op c then kv_free c else v_free c in
    let ze := if unmarked then e_free c else if e_op c then ke_free c else e_free c in
    free_nodes zv ze (surv s l ++ pend s l) (free_nodes (v_free c) (e_free c) (dels s l) (memory s)).

  Definition any_error (lanes : nat) (s : st) : bool := existsb (werrs s) (seq 0 lanes).

  Inductive step (lanes : nat) : st -> st -> Prop :=
  (* an iteration of [start], 450-462 *)
  | start_step l n rest s e m : ph s = Mutating -> l < lanes -> pend s l = n :: rest ->
      mutate false n (werrs s l) (memory s) = (e, m) ->
      step lanes s
        (if e
         then mkSt Mutating (upd (marks s) n Blocked) (upd (pend s) l []) (surv s) (upd (dels s) l ((n :: rest) ++ dels s l))
                   (upd (werrs s) l true) (failed s) (todo s) (free_labels (ke_free c) (outs c n) m)
         else mkSt Mutating (upd (marks s) n Mutated) (upd (pend s) l rest) (upd (surv s) l (surv s l ++ [n])) (dels s)
                   (werrs s) (failed s) (todo s) m)
  (* a packet that is received by [mutating_task], 537-550, when the worker is through with [start] *)
  | receive_step l n l1 l2 s blocked e m : ph s = Mutating -> l < lanes -> pend s l = [] -> werrs s l = false ->
      dels s l = l1 ++ n :: l2 -> marks s n = Fresh ->
      forallb (fun k => negb (is_fresh (marks s k))) (prerequisites n) = true ->
      blocked = existsb (fun k => is_blocked (marks s k)) (prerequisites n) ->
      mutate blocked n false (memory s) = (e, m) ->
      step lanes s
        (if e
         then mkSt Mutating (upd (marks s) n Blocked) (pend s) (surv s) (dels s) (upd (werrs s) l true) (failed s) (todo s)
                   (free_labels (ke_free c) (outs c n) m)
         else if blocked
         then mkSt Mutating (upd (marks s) n Blocked) (pend s) (surv s) (dels s) (werrs s) (failed s) (todo s) m
         else mkSt Mutating (upd (marks s) n Mutated) (pend s) (upd (surv s) l (n :: surv s l)) (upd (dels s) l (l1 ++ l2))
                   (werrs s) (failed s) (todo s) m)
  (* an error that isn't raised by a user function, for instance because there is no memory for packets (536, 458, 549) *)
  | trouble_step l s : ph s = Mutating -> l < lanes ->
      step lanes s (mkSt Mutating (marks s) (pend s) (surv s) (dels s) (upd (werrs s) l true) (failed s) (todo s) (memory s))
  (* the end of the pass; errors [other] than those of user functions may have been raised, and if so, some workers may not have
     started *)
  | mutated_step s other : ph s = Mutating ->
      (forall l, l < lanes -> pend s l = [] \/ other = true /\ surv s l = []) ->
      step lanes s
        (if any_error lanes s || other
         then mkSt (if forward then Unmutating else match ke_free c with Some _ => Retracting | None => Unmutating end)
                   (marks s) (pend s) (surv s) (dels s) (werrs s) true (seq 0 lanes) (memory s)
         (* the nodes are put into g->nodes, 802-805, with nothing going wrong *)
         else mkSt Finished (marks s) (pend s) (surv s) (dels s) (werrs s) false [] (memory s))
  (* cleaning up, 815-822 *)
  | retract_step l l1 l2 s : ph s = Retracting -> todo s = l1 ++ l :: l2 ->
      step lanes s (mkSt Retracting (marks s) (pend s) (surv s) (dels s) (werrs s) (failed s) (l1 ++ l2) (retract s l))
  | retracted_step s : ph s = Retracting -> todo s = [] ->
      step lanes s (mkSt Unmutating (marks s) (pend s) (surv s) (dels s) (werrs s) (failed s) (seq 0 lanes) (memory s))
  | unmutate_step l l1 l2 s : ph s = Unmutating -> todo s = l1 ++ l :: l2 ->
      step lanes s (mkSt Unmutating (marks s) (upd (pend s) l []) (upd (surv s) l []) (upd (dels s) l []) (werrs s) (failed s)
                         (l1 ++ l2) (unmutate s l))
  | unmutated_step s : ph s = Unmutating -> todo s = [] ->
      step lanes s (mkSt Finished (marks s) (pend s) (surv s) (dels s) (werrs s) (failed s) [] (memory s)).
End Mutation.

(** The state after the bounding phase, with the nodes [ns], if the given vertices and labels are NULL or not as indicated *)
Definition begin (c : mutator) (vnull lnull : nat -> bool) (ns : list nat) : st :=
  let given (b : bool) := if b then None else Some Old in
  let mine l n := lane c n =? l in
  let start n := negb (outside c n) && early c n in
  mkSt Mutating (fun n => if outside c n then Unreachable else Fresh)
       (fun l => filter (fun n => mine l n && start n) ns) (fun _ => []) (fun l => filter (fun n => mine l n && negb (start n)) ns)
       (fun _ => false) false []
       (mkMem (fun n => mkVertex (given (vnull n)) [] (opt (given (vnull n))))
              (fun e => mkLabel (given (lnull e)) (given (lnull e)) [] (opt (given (lnull e)))) false).
