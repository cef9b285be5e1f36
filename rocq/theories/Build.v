(** Building a graph: src/build.c, [_cru_node_union] (src/crew.c:366-399),
    [_cru_graph_launched] (src/launch.c:314-375), the part of [_cru_free_router]
    concerned with errors (src/route.c:688-690) and the API function [cru_built]
    (src/entry.c:186-218).

    The processing of one packet (one round of the loop at src/build.c:271-293) is
    one step of the packet machine of Machine.v.

    Conventions.  A node is a number, given in order of creation; [verts] lists the
    vertices of the nodes.  An edge object is a number too, because packets refer to
    the edge they were sent along by address ([carrier]).  The field [remote] of an
    edge is a union holding the declared vertex until the node is known; here [edst]
    is the declared vertex and [res] the node assigned later.
    Simplifications: memory allocation does not fail; the table of a worker is a
    function of the lane and the key of the bin (the hash with Judy arrays, constant
    without); pointers to user data are values of arbitrary types, so destroying one
    is recording it in a list. *)
From Coq Require Import List Arith NArith Lia Bool Permutation.
From Verif Require Import Base Machine Brigade Graph.
Import ListNotations.

Set Implicit Arguments.

(** Error codes (include/cru/error_codes.h): overflow, kill, and any raised by
    user code. *)
Inductive error := INTOVF | INTKIL | USERERR (n : nat).

(** A builder (include/cru/data_types.h:161-167).  [b_sub] is true if a
    subconnector is given rather than a connector.  [b_conn o v] is what the connector
    (with [o = None]) or subconnector (with the incident label, or [None] when called as
    INITIAL) declares through [cru_connect] for vertex [v], as the resulting edge list
    ([cru_connect] pushes, src/entry.c:293-330), and the error it raises if any. *)
Record builder (V E : Type) : Type := mkBuilder {
  b_veq : V -> V -> bool;
  b_vhash : V -> N;
  b_eeq : E -> E -> bool;
  b_ehash : E -> N;
  b_sub : bool;
  b_conn : option E -> V -> list (E * V) * option error;
  b_limit : nat
}.

(** The circumstances of an execution: number of workers, whether Judy arrays are
    available, whether the kill flag is noticed when it is sampled by the [k]th packet
    processed (KILLED, src/killers.h:36, samples only once in a while), and whether
    [cru_kill] is called from outside just before the [k]th packet. *)
Record env : Type := mkEnv {
  lanes : nat;
  judy : bool;
  notices : nat -> bool;
  killcalls : nat -> bool
}.

Section Build.
  Context {V E : Type}.
  Variable B : builder V E.
  Variable X : env.

  (** An outgoing edge of a node under construction (src/edges.h). *)
  Record bedge : Type := mkEdge { eid : nat; elab : E; edst : V }.

  (** A packet (src/pack.h): payload, and the address and label of the carrier, null in
      the initial packet. *)
  Record pkt : Type := mkPkt { pay : V; car : option nat; lab : option E }.

  Record bst : Type := mkB {
    verts : list V;                 (* vertices of the nodes in order of creation *)
    outs : nat -> list bedge;       (* edges_out *)
    seen : nat -> list (N * E);     (* seen_carriers of the packet recorded for a node *)
    tab : nat -> N -> list nat;     (* collisions: lane, bin, recorded nodes *)
    queue : nat -> list nat;        (* q: lane, nodes in order of creation *)
    res : nat -> option nat;        (* remote.node of an edge object *)
    ne : nat;                       (* number of edge objects created *)
    count : nat -> nat;             (* per lane *)
    lerr : nat -> option error;     (* *err, per lane *)
    lkil : nat -> bool;             (* killed, per lane *)
    killed : bool;                  (* r->killed *)
    tick : nat;                     (* packets processed so far *)
    calls : list (option E * V);    (* calls of the (sub)connector, latest first *)
    occs : nat -> list (option E);  (* those of them made for a node *)
    vfree : list V;                 (* vertices passed to the destructor *)
    efree : list E;                 (* labels passed to the destructor *)
    hv : list V;                    (* vertices handed over by the user *)
    he : list E                     (* labels handed over by the user *)
  }.

  Definition lane (h : N) : nat := lane_of (lanes X) h.

  (** src/table.c:47-71, [_cru_collision]: without Judy arrays there is one bin. *)
  Definition bin (h : N) : N := if judy X then h else 0%N.

  (** The occasion on which the connector is called for a packet, src/build.c:183-194:
      a connector is told nothing about the incident edge. *)
  Definition occ (p : pkt) : option E := if b_sub B then lab p else None.

  (** src/build.c:49-81 applied to what the connector declared.  If it raised an error
      then all of it is freed (src/build.c:69-70).  Kept, freed, error. *)
  Definition declare (o : option E) (v : V) : list (E * V) * list (E * V) * option error :=
    let (ds, e) := b_conn B o v in
    match e with
    | Some _ => ([], ds, e)
    | None =>
        let (k, f) := unique (judy X) (fun d => b_ehash B (fst d))
                        (fun d d' => b_eeq B (fst d) (fst d')) (fun d d' => b_veq B (snd d) (snd d')) ds
        in (k, f, None)
    end.

  (** Allocation of the edge objects. *)
  Definition number (i : nat) (k : list (E * V)) : list bedge :=
    map (fun x => mkEdge (fst x) (fst (snd x)) (snd (snd x))) (combine (seq i (length k)) k).

  (** src/scatter.c:347-375, [_cru_scatter_out_or_consume]: a packet for each new edge. *)
  Definition scatter (k : list bedge) : list pkt :=
    map (fun e => mkPkt (edst e) (Some (eid e)) (Some (elab e))) k.

  (** Call the connector for node [n] with vertex [v], deduplicate the declared edges, put
      them in front of the node's edges and scatter them: src/build.c:133-138 and
      183-205. *)
  Definition connect (s : bst) (l n : nat) (o : option E) (v : V) : bst * list pkt :=
    let '(k, f, e) := declare o v in
    let es := number (ne s) k in
    (mkB (verts s) (upd (outs s) n (es ++ outs s n)) (seen s) (tab s) (queue s) (res s)
         (ne s + length k) (count s) (upd (lerr s) l e) (lkil s) (killed s) (tick s)
         ((o, v) :: calls s) (upd (occs s) n (o :: occs s n))
         (map snd f ++ vfree s) (map fst f ++ efree s)
         (map snd (fst (b_conn B o v)) ++ hv s) (map fst (fst (b_conn B o v)) ++ he s),
     scatter es).

  (** carrier->remote.node = n, src/build.c:139 and 202-203. *)
  Definition set_remote (s : bst) (p : pkt) (n : nat) : nat -> option nat :=
    match car p with Some i => upd (res s) i (Some n) | None => res s end.

  (** src/build.c:289-292: the packet and its payload are freed, the worker considers
      itself killed and kills the others. *)
  Definition discard (s : bst) (l : nat) (p : pkt) : bst * list pkt :=
    (mkB (verts s) (outs s) (seen s) (tab s) (queue s) (res s) (ne s) (count s) (lerr s)
         (upd (lkil s) l true) true (tick s) (calls s) (occs s)
         (pay p :: vfree s) (efree s) (hv s) (he s), []).

  (** src/build.c:93-141, [_cru_reach_extant_node], where [n] is the receiver of the
      colliding packet. *)
  Definition reach_extant (s : bst) (l n : nat) (v : V) (p : pkt) : bst * list pkt :=
    let s1 := mkB (verts s) (outs s) (seen s) (tab s) (queue s) (set_remote s p n) (ne s)
                  (count s) (lerr s) (lkil s) (killed s) (tick s) (calls s) (occs s)
                  (pay p :: vfree s) (efree s) (hv s) (he s) in
    match (if b_sub B then lab p else None) with
    | None => (s1, [])
    | Some x =>
        if recorded (b_eeq B) (judy X) (b_ehash B x) x (seen s n) then (s1, [])
        else connect (mkB (verts s1) (outs s1)
                          (upd (seen s1) n (record_edge (b_eeq B) (judy X) (b_ehash B x) x (seen s n)))
                          (tab s1) (queue s1) (res s1) (ne s1) (count s1) (lerr s1) (lkil s1)
                          (killed s1) (tick s1) (calls s1) (occs s1) (vfree s1) (efree s1) (hv s1) (he s1))
                     l n (Some x) v
    end.

  (** src/build.c:155-209, [_cru_reached_new_node], and the insertion into the table at
      src/build.c:285. *)
  Definition reached_new (s : bst) (l : nat) (p : pkt) : bst * list pkt :=
    let n := length (verts s) in
    let h := b_vhash B (pay p) in
    connect (mkB (verts s ++ [pay p]) (outs s)
                 (match occ p with
                  | Some x => upd (seen s) n (record_edge (b_eeq B) (judy X) (b_ehash B x) x (seen s n))
                  | None => seen s
                  end)
                 (upd (tab s) l (fun k => if N.eqb k (bin h) then tab s l k ++ [n] else tab s l k))
                 (upd (queue s) l (queue s l ++ [n])) (set_remote s p n) (ne s)
                 (count s) (lerr s) (lkil s) (killed s) (tick s) (calls s)
                 (occs s) (vfree s) (efree s) (hv s) (he s))
            l n (occ p) (pay p).

  (** src/build.c:269-270 *)
  Definition limit : nat :=
    match b_limit B / lanes X with
    | 0 => if Nat.eqb (b_limit B) 0 then 0 else 1
    | q => q
    end.

  Definition vtx (s : bst) (n : nat) (d : V) : V := nth n (verts s) d.

  (** The search of the bin, src/build.c:277-279. *)
  Definition collision (s : bst) (l : nat) (p : pkt) : option nat :=
    find (fun n => b_veq B (pay p) (vtx s n (pay p))) (tab s l (bin (b_vhash B (pay p)))).

  Definition set_count (s : bst) (l : nat) : bst :=
    mkB (verts s) (outs s) (seen s) (tab s) (queue s) (res s) (ne s)
        (upd (count s) l (S (count s l))) (lerr s)
        (lkil s) (killed s) (tick s) (calls s) (occs s) (vfree s) (efree s) (hv s) (he s).

  Definition set_lerr (s : bst) (l : nat) (e : error) : bst :=
    mkB (verts s) (outs s) (seen s) (tab s) (queue s) (res s) (ne s) (count s)
        (upd (lerr s) l (Some e)) (lkil s) (killed s) (tick s) (calls s) (occs s)
        (vfree s) (efree s) (hv s) (he s).

  (** Time passes, and somebody may call [cru_kill]. *)
  Definition begin (s : bst) : bst :=
    mkB (verts s) (outs s) (seen s) (tab s) (queue s) (res s) (ne s) (count s) (lerr s)
        (lkil s) (killed s || killcalls X (tick s)) (S (tick s)) (calls s) (occs s)
        (vfree s) (efree s) (hv s) (he s).

  (** One round of src/build.c:271-293.  An overflow raises the error and leaves the packet
      to be discarded by the next round of the same worker, which is included here. *)
  Definition process (s : bst) (l : nat) (p : pkt) : bst * list pkt :=
    match lerr s l, lkil s l || (killed s && notices X (tick s)) with
    | None, false =>
        match collision s l p with
        | Some n => reach_extant s l n (vtx s n (pay p)) p
        | None =>
            if Nat.eqb limit 0 then reached_new s l p
            else if count s l <? limit then reached_new (set_count s l) l p
            else discard (set_lerr (set_count s l) l INTOVF) l p
        end
    | _, _ => discard s l p
    end.

  Definition dest (p : pkt) : nat := lane (b_vhash B (pay p)).

  Definition task (s : bst) (p : pkt) : option (bst * list pkt) :=
    Some (process (begin s) (dest p) p).

  (** The state when the workers start, with the initial vertex handed over, and the
      initial packet (src/launch.c:344). *)
  Definition start (v0 : V) : bst :=
    mkB [] (fun _ => []) (fun _ => []) (fun _ _ => []) (fun _ => []) (fun _ => None) 0
        (fun _ => 0) (fun _ => None) (fun _ => false) false 0 [] (fun _ => []) [] [] [v0] [].

  Definition first (v0 : V) : pkt := mkPkt v0 None None.

  (** The remote node of a finished edge; [length (verts s)] is no node's number and would
      stand for a pointer that is not to a node. *)
  Definition remote (s : bst) (e : bedge) : nat :=
    match res s (eid e) with Some m => m | None => length (verts s) end.

  (** src/build.c:296-298: with a subconnector, the edges of each node are finally
      deduplicated by label and terminus.  Kept and freed. *)
  Definition finished_edges (s : bst) (n : nat) : list bedge * list bedge :=
    if b_sub B
    then deduplicated_edges (b_eeq B) (judy X) (b_ehash B) elab (fun e => N.of_nat (remote s e)) (outs s n)
    else (outs s n, []).

  (** The first recorded error, given the order in which the workers finish: ro_status by
      src/sync.c (error_consumed) and src/launch.c:358. *)
  Fixpoint first_error (s : bst) (order : list nat) : option error :=
    match order with
    | [] => None
    | l :: order' => match lerr s l with Some e => Some e | None => first_error s order' end
    end.

  (** What [_cru_built] returns (src/build.c:313-338 with src/launch.c:356-375 and
      src/route.c:688-690): a graph or null, the error status, and all that was destroyed. *)
  Record outcome : Type := mkOutcome {
    o_graph : option (graph V E);
    o_err : option error;
    o_vfree : list V;
    o_efree : list E
  }.

  Definition node_edges (s : bst) (n : nat) : list (E * nat) :=
    map (fun e => (elab e, remote s e)) (fst (finished_edges s n)).

  (** A worker that ended without an error returns its queue (src/build.c:299-300) after
      deduplication; one that ended with an error frees it (src/build.c:301). All the nodes
      are put together by [_cru_node_union] in the order of lanes, the base node being the
      front of the queue of the lane of the initial vertex.  If there is an error, all the
      nodes are freed, at src/launch.c:363 or src/build.c:333-334. *)
  Definition finish (v0 : V) (order : list nat) (s : bst) : outcome :=
    let all := flat (lanes X) (queue s) in
    let kept l := flat_map (fun n => map elab (fst (finished_edges s n))) l in
    let dropped l := flat_map (fun n => map elab (snd (finished_edges s n))) l in
    let ok l := match lerr s l with None => true | Some _ => false end in
    let whole l := flat_map (fun n => map elab (outs s n)) l in
    match first_error s order, killed s || killcalls X (tick s) with
    | None, false =>
        mkOutcome
          (match queue s (lane (b_vhash B v0)) with
           | [] => None
           | b :: _ => Some (mkGraph all (fun n => vtx s n v0) (node_edges s) b)
           end) None (vfree s) (dropped all ++ efree s)
    | e, _ =>
        mkOutcome None (match e with None => Some INTKIL | _ => e end)
          (map (fun n => vtx s n v0) all ++ vfree s)
          (flat (lanes X) (fun l => if ok l then kept (queue s l) ++ dropped (queue s l)
                                    else whole (queue s l)) ++ efree s)
    end.

  (** src/entry.c:208-213, the end of [cru_built]: the attribute is stored in the graph
      without testing for null, which is undefined behaviour if the building failed. *)
  Inductive api_result : Type :=
  | Returned (o : outcome)
  | NullDereference (o : outcome).

  Definition cru_built_end (o : outcome) : api_result :=
    match o_graph o with
    | Some _ => Returned o
    | None => NullDereference o
    end.
End Build.
