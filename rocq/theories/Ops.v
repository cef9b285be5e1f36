(** What the functions called by users do with routers, copies of specifications, and graphs, if any allocation or launch may fail,
    and workers may raise errors or be killed: src/entry.c:227-280, 463-1047, src/launch.c:39-375, src/route.c:488-515, 621-780,
    src/props.c:149-167, 277-315, 362-381, src/zones.c:109-132, 196-239, and the functions launching the passes of each operation.

    The passes are represented by their effects on where nodes are, errors raised, and the killed flag in the router.  What workers do
    individually is the subject of other files.  Internal errors that can't occur (null checks of things just made, magic numbers) are
    left out, as are the properties of vertices, and the errors raised by them are among those of passes.

    A pass that starts moves, frees or collects all nodes it is meant to, even if an error is raised in it.  That workers can run out of
    memory before they have seen all nodes is the subject of other files (see FreeOom.v). *)
From Coq Require Import List Arith NArith Bool Lia.
Import ListNotations.

Set Implicit Arguments.

Open Scope N_scope.
(** Error codes, without the sign, include/cru/error_codes.h:24-86; internal errors are numbered as in the code, src/errs.h:42 *)
Definition BADGPH := 513.
Definition BADKIL := 514.
Definition INCINV := 522.
Definition INCSPB := 525.
Definition INTKIL := 528.
Definition UNDVAC := 554.
Definition ENOMEM := 12.
Close Scope N_scope.

(** A graph passed as an argument or returned *)
Inductive graph := Null | Bad | Good.

(** The router of an operation: the fields shared and killed, src/route.h *)
Record rout := mkR { shared : nat; killed : bool }.

(** The state.
    - [wrong] is set if a router or graph that has been freed is used or freed, or one that was never made, or list links that are
      not valid any more are followed by freeing
    - [rt] is the router if it is allocated, [copy] tells whether a copy of the specification is, and [gs] whether the graph is
    - the nodes of the graph: [ing] of them are in g->nodes, [inp] are in lists of the ports of the router, [gone] have been freed, and
      [lost] can't be reached from anything
    - [stale] means that g->nodes points to a node which is in a list of a port
    - [res] is a graph made by the operation, and [prod] the initial product in a crossing
    - [out] is set if a loop is not finished *)
Record st := mkS { err : N; clock : nat; wrong : bool; rt : option rout; copy : bool;
                   gs : bool; ing : nat; inp : nat; gone : nat; lost : nat; stale : bool;
                   res : bool; prod : bool; out : bool }.

Definition set_err e s := mkS e (clock s) (wrong s) (rt s) (copy s) (gs s) (ing s) (inp s) (gone s) (lost s) (stale s) (res s) (prod s) (out s).
Definition tick s := mkS (err s) (S (clock s)) (wrong s) (rt s) (copy s) (gs s) (ing s) (inp s) (gone s) (lost s) (stale s) (res s) (prod s) (out s).
Definition fault s := mkS (err s) (clock s) true (rt s) (copy s) (gs s) (ing s) (inp s) (gone s) (lost s) (stale s) (res s) (prod s) (out s).
Definition set_rt r s := mkS (err s) (clock s) (wrong s) r (copy s) (gs s) (ing s) (inp s) (gone s) (lost s) (stale s) (res s) (prod s) (out s).
Definition set_copy c s := mkS (err s) (clock s) (wrong s) (rt s) c (gs s) (ing s) (inp s) (gone s) (lost s) (stale s) (res s) (prod s) (out s).
Definition set_graph b a p f l t s := mkS (err s) (clock s) (wrong s) (rt s) (copy s) b a p f l t (res s) (prod s) (out s).
Definition set_res b s := mkS (err s) (clock s) (wrong s) (rt s) (copy s) (gs s) (ing s) (inp s) (gone s) (lost s) (stale s) b (prod s) (out s).
Definition set_prod b s := mkS (err s) (clock s) (wrong s) (rt s) (copy s) (gs s) (ing s) (inp s) (gone s) (lost s) (stale s) (res s) b (out s).
Definition set_out s := mkS (err s) (clock s) (wrong s) (rt s) (copy s) (gs s) (ing s) (inp s) (gone s) (lost s) (stale s) (res s) (prod s) true.

(** src/errs.h:36 *)
Definition raise (c : N) s := set_err (if N.eqb (err s) 0 then c else err s) s.
Definition ok s := N.eqb (err s) 0.

Section Ops.
  (** Whether the allocation, launch or check of a kill switch at a time fails *)
  Variable fails : nat -> bool.
  (** The error raised in a pass launched at a time, and whether the router is killed *)
  Variable werr : nat -> N.
  Variable flag : nat -> bool.
  (** Anything else the code depends on: counts, whether a graph is half duplex, whether the base vertex is deleted, etc. *)
  Variable choice : nat -> bool.
  (** How many nodes are put in the list of the graph by a pass, and how many are freed in it *)
  Variable place : nat -> nat * nat.
  (** r->lanes == 1 *)
  Variable single : bool.

  Definition choose s : bool * st := (choice (clock s), tick s).
  (** Something that can't be done for lack of memory, or for another reason *)
  Definition failure s : st := raise (if N.eqb (werr (clock s)) 0 then ENOMEM else werr (clock s)) (tick s).
  (** A call of a function given by the user *)
  Definition call s : st := if N.eqb (werr (clock s)) 0 then tick s else raise (werr (clock s)) (tick s).

  (** ** Routers *)

  (** router_of, src/route.c:96-185; see Init.v *)
  Definition make_router s : bool * st :=
    if negb (ok s) then (false, s) else
    if fails (clock s) then (false, failure s) else
    (true, set_rt (Some (mkR 0 false)) (tick (if rt s then fault s else s))).
  (** _cru_stored, src/route.c:621-632.  The result is whether the router is returned *)
  Definition stored (g : graph) (r : bool) s : bool * st :=
    match g with Null => (false, raise 1469 s) | Bad => (false, raise 1470 s) | Good => (r, s) end.
  (** _cru_shared, src/route.c:641-649 *)
  Definition share s : st := match rt s with Some r => set_rt (Some (mkR (S (shared r)) (killed r))) s | None => fault s end.
  (** _cru_reset, src/route.c:488-515 *)
  Definition reset s : st := match rt s with Some r => set_rt (Some (mkR (shared r) false)) s | None => fault s end.
  (** _cru_free_router, src/route.c:659-694, of a router that isn't NULL.  The field ro_status has been raised in *err before. *)
  Definition free_router s : st :=
    match rt s with
    | None => fault s
    | Some r => match shared r with
                | S n => set_rt (Some (mkR n (killed r))) s
                | 0 => let s := set_rt None s in if killed r then raise INTKIL s else s
                end
    end.

  (** ** Launching, src/launch.c *)

  (** What launching functions have in common.  The effect of the pass takes place if it starts. *)
  Definition start (effect : st -> st) s : bool * st :=
    match rt s with
    | None => (false, fault s)
    | Some r =>
        if fails (clock s) then (false, failure s) else
        let e := werr (clock s) in
        let s := set_rt (Some (mkR (shared r) (killed r || flag (clock s)))) s in
        let s := effect (tick s) in
        (true, if N.eqb e 0 then s else raise e s)
    end.
  (** _cru_launched, 39-73, and _cru_count_launched, 127-166, with the router of the operation, which they consume *)
  Definition launched (effect : st -> st) s : bool * st := let (b, s) := start effect s in (b, free_router s).
  (** _cru_status_launched, 85-115, _cru_queue_launched, 178-214, _cru_maybe_disjunction_launched, 225-258 and
      _cru_maybe_reduction_launched, 269-302, which don't *)
  Definition status_launched := start.
  (** A router made for one pass only, as by _cru_launched (k, b, _cru_router (...), err).  If there is none, nothing is launched. *)
  Definition launched_with_another s : bool * st :=
    if negb (ok s) then (false, s) else
    if fails (clock s) then (false, failure s) else
    let s := tick s in
    if fails (clock s) then (false, failure s) else
    let e := if N.eqb (werr (clock s)) 0 then if flag (clock s) then INTKIL else 0%N else werr (clock s) in
    (true, if N.eqb e 0 then tick s else raise e (tick s)).
  (** A pass without an effect on the location of nodes *)
  Definition no_effect (s : st) : st := s.
  (** A pass putting all nodes in lists of the ports *)
  Definition populate s : st :=
    set_graph (gs s) 0 (inp s + ing s) (gone s) (lost s) (stale s || negb (ing s =? 0)) s.
  (** A pass freeing all nodes *)
  Definition raze s : st := set_graph (gs s) 0 (inp s) (gone s + ing s) (lost s) (stale s || negb (ing s =? 0)) s.
  (** One freeing those in the ports *)
  Definition clear s : st := set_graph (gs s) (ing s) 0 (gone s + inp s) (lost s) (stale s) s.
  (** A pass collecting some of the nodes *)
  Definition collect s : st :=
    let (a, j) := place (clock s) in
    let a := Nat.min a (inp s) in
    let j := Nat.min j (inp s - a) in
    set_graph (gs s) (ing s + a) (inp s - a - j) (gone s + j) (lost s) (stale s) (tick s).
  (** _cru_queue_launched with g->nodes, which has to be NULL, line 199 *)
  Definition queue_launched s : bool * st :=
    if stale s || negb (ing s =? 0) then (false, raise 1103 s) else start collect s.

  (** ** Graphs *)

  (** g->nodes = NULL *)
  Definition no_nodes s : st := set_graph (gs s) 0 (inp s) (gone s) (lost s + ing s) false s.
  (** _cru_free_now, src/graph.c:115-128 *)
  Definition free_now (g : graph) s : st :=
    match g with
    | Null => s
    | Bad => if N.eqb (err s) BADGPH then s else fault s
    | Good => if N.eqb (err s) BADGPH then s else
              if negb (gs s) || stale s then fault s else set_graph false 0 (inp s) (gone s + ing s) (lost s) false s
    end.
  (** _cru_bad, src/graph.c:248-261.  A graph with no base node or no nodes is not [Good]. *)
  Definition bad (g : graph) s : bool * st := match g with Bad => (true, raise BADGPH s) | _ => (false, s) end.
  (** TEST_ENTRY and API_ENTRY, src/entry.c:79-94 *)
  Definition api_entry s : st := if fails (clock s) then failure s else tick s.
  (** _cru_disable_killing, src/killers.c:139-155 *)
  Definition disable_killing s : st := if fails (clock s) then raise BADKIL (tick s) else tick s.
  (** cru_free_now, src/entry.c:1029-1047 *)
  Definition cru_free_now (g : graph) s : st :=
    let s := api_entry s in
    if negb (ok s) then free_now g s else
    let (b, s) := bad g s in
    match g with
    | Good => if b || single then free_now g s else
              let (r, s) := make_router s in
              if negb r then free_now g s else
              let (l, s) := launched raze s in
              free_now g (if l then no_nodes s else s)
    | _ => free_now g s
    end.

  (** _cru_inferred_stretcher etc. and _cru_free_stretcher etc., src/infer.c, src/copy.c *)
  Definition infer s : bool * st :=
    if fails (clock s) then (false, failure s) else (true, set_copy true (tick (if copy s then fault s else s))).
  Definition free_copy s : st := set_copy false (if copy s then s else fault s).

  (** _cru_sweep, src/route.c:752-780; [r] is whether the router is not NULL.  Destructors may raise errors. *)
  Definition sweep (r : bool) s : st :=
    if negb r then s else
    match rt s with
    | None => fault s
    | Some x =>
        if negb (shared x =? 0) then free_router s else
        let (sweepable, s) := choose s in
        if negb (sweepable || negb (inp s =? 0)) then free_router s else
        if single || negb (ok s || N.eqb (err s) INTKIL) then free_router (clear (call s)) else
        let (l, s) := launched clear (share (reset s)) in
        free_router (if l then s else clear (call s))
    end.

  (** ** Parts of operations *)

  (** _cru_unset_properties, src/props.c:149-167 *)
  Definition unset_properties s : st :=
    if ok s || N.eqb (err s) INTKIL then snd (launched no_effect (share (reset s))) else s.
  (** _cru_clear_properties, src/props.c:362-381 *)
  Definition clear_properties s : st := unset_properties s.
  (** _cru_set_properties, src/props.c:277-315 *)
  Definition set_properties s : bool * st :=
    let (h, s) := choose s in
    let (l, s) := if h then launched_with_another s else (true, s) in
    if negb l then (false, s) else
    if negb (ok s) then (false, s) else
    let (l, s) := launched no_effect (share (reset s)) in
    if negb l then (false, s) else
    if negb (ok s) then (false, unset_properties s) else
    let (h, s) := choose s in
    if h then (true, s) else
    let (l, s) := launched_with_another s in
    if negb l then (false, unset_properties s) else
    if ok s then (true, s) else (false, unset_properties s).
  (** _cru_initial_node, src/zones.c:196-239, and located, 109-132; whether the result is not NULL.  The router is not NULL. *)
  Definition initial_node s : bool * st :=
    let (h, s) := choose s in
    let (l, s) := if h then launched_with_another s else (true, s) in
    if negb l then (false, snd (launched_with_another s)) else
    let (base, s) := choose s in
    if base then (ok s, s) else
    let (l, s) := status_launched no_effect (reset s) in
    if negb l then (false, s) else
    let (found, s) := choose s in
    if negb found then (false, if N.eqb (err s) ENOMEM then s else raise INCINV s) else
    let (ordered, s) := choose s in
    if negb ordered then (ok s, s) else
    let (l, s) := launched no_effect (share (reset s)) in
    if negb l then (false, s) else (ok s, s).
  (** The beginning of several operations: whether the graph is half duplex, or has been made so, if possible *)
  Definition half_duplexed s : bool * st := let (h, s) := choose s in if h then (true, s) else launched_with_another s.

  (** _cru_pruned, src/filters.c:698-730; the graph is half duplex, as ensured by all functions calling it *)
  Definition pruned (g : graph) (r : bool) s : bool * st :=
    let s := match g with
             | Good => if negb (ok s) then s else if negb r then raise 987 s else snd (queue_launched (reset s))
             | _ => s
             end in
    let s := sweep r s in (ok s, s).

  (** ** Operations consuming a graph *)

  (** The end of most of them: x: if ( *err) cru_free_now (g, lanes, err); return ( *err ? NULL : g) *)
  Definition finish (g : graph) s : graph * st :=
    if ok s then (g, s) else let s := cru_free_now g s in (if ok s then g else Null, s).

  (** _cru_stretched, src/stretch.c:416-466, with at most n iterations *)
  Fixpoint stretching (n : nat) s : st :=
    match n with
    | 0 => set_out s
    | S n =>
        if negb (ok s) then s else
        let (p, s) := set_properties s in
        if negb (p && ok s) then s else
        let (l, s) := launched populate (share (reset s)) in
        let s := if l then no_nodes s else unset_properties s in
        if negb (ok s) then s else
        let (fix_, s) := choose s in
        let s := snd (queue_launched (reset s)) in
        if fix_ then stretching n s else s
    end.
  Definition _stretched (n : nat) (g : graph) s : graph * st :=
    let s := disable_killing s in
    let s := if negb (ok s) then s else
             let (h, s) := half_duplexed s in if negb h then s else stretching n s in
    let s := if ok s then s else free_now g s in
    let s := sweep true s in
    (if ok s then g else Null, s).
  (** cru_stretched, src/entry.c:687-713; [spec] is whether a stretcher is given *)
  Definition stretched (n : nat) (g : graph) (spec : bool) s : graph * st :=
    let s := api_entry s in
    if negb (ok s) then finish g s else
    let s := disable_killing s in
    let (b, s) := bad g s in
    if b then finish g s else
    if negb (ok s) then finish g s else
    match g with
    | Null => finish g s
    | _ =>
        if negb spec then finish g s else
        let (i, s) := infer s in
        if negb i then finish g s else
        let (r, s) := make_router s in
        let (r, s) := stored g r s in
        let (g, s) := if r && ok s then _stretched n g s else (g, s) in
        finish g (free_copy s)
    end.

  (** _cru_split, src/split.c:291-326 *)
  Definition _split (g : graph) s : graph * st :=
    let s := disable_killing s in
    if negb (ok s) then (g, sweep true s) else
    let (p, s) := set_properties s in
    if negb p then (Null, sweep true (free_now g s)) else
    let (l, s) := launched populate (share (reset s)) in
    if negb (l && ok s) then (Null, sweep true (free_now g (no_nodes (unset_properties s)))) else
    let s := no_nodes s in
    let s := snd (status_launched no_effect (reset s)) in
    let s := clear_properties s in
    if negb (ok s) then (Null, sweep true (free_now g s)) else
    let (p, s) := pruned g true (share s) in
    if p then (g, sweep true s) else (Null, sweep true (free_now g s)).
  (** cru_split, src/entry.c:723-745 *)
  Definition split (g : graph) (spec : bool) s : graph * st :=
    let s := api_entry s in
    if negb (ok s) then finish g s else
    let s := disable_killing s in
    if negb (ok s) then finish g s else
    let (b, s) := bad g s in
    if b then finish g s else
    match g with
    | Null => finish g s
    | _ =>
        if negb spec then finish g s else
        let (i, s) := infer s in
        if negb i then finish g s else
        let (r, s) := make_router s in
        let (r, s) := stored g r s in
        let (g, s) := if r then _split g s else (g, s) in
        finish g (free_copy s)
    end.

  (** _cru_composed, src/compose.c:406-456.  The result is whether the label c is reached. *)
  Fixpoint composing (n : nat) (g : graph) s : bool * st :=
    match n with
    | 0 => (true, set_out s)
    | S n =>
        let (l, s) := launched populate (share (reset s)) in
        if negb l then (false, s) else
        let s := no_nodes s in
        let (l1, s) := launched no_effect (share (reset s)) in
        let (l2, s) := launched no_effect (share (reset s)) in
        let (c, s) := choose s in
        if negb (ok s) then (false, s) else
        let (p, s) := pruned g true (share s) in
        if negb p then (false, s) else
        if l2 && c then composing n g s else (true, s)
    end.
  Definition _composed (n : nat) (g : graph) s : graph * st :=
    let s := disable_killing s in
    if negb (ok s) then (Null, sweep true (free_now g s)) else
    let (h, s) := half_duplexed s in
    if negb h then (Null, sweep true (free_now g s)) else
    let (c, s) := composing n g s in
    if c then (g, sweep true s) else (Null, sweep true (free_now g (clear s))).
  (** cru_composed, src/entry.c:754-780 *)
  Definition composed (n : nat) (g : graph) (spec : bool) s : graph * st :=
    let s := api_entry s in
    if negb (ok s) then finish g s else
    let s := disable_killing s in
    let (b, s) := bad g s in
    if b || negb (ok s) then finish g s else
    match g with
    | Null => finish g s
    | _ =>
        if negb spec then finish g s else
        let (i, s) := infer s in
        if negb i then finish g s else
        let (r, s) := make_router s in
        let (r, s) := stored g r s in
        let (g, s) := if r then _composed n g s else (g, s) in
        finish g (free_copy s)
    end.

  (** _cru_graph_launched, src/launch.c:315-375, with an existing graph; whether it starts, and *g afterwards *)
  Definition graph_launched (g : graph) s : bool * graph * st :=
    if negb (ok s) then (false, g, free_router s) else
    let (l, s) := start (fun s => collect (no_nodes s)) s in
    if ok s then (l, g, free_router s)
    else if l then (l, Null, free_router (free_now g (set_graph (gs s) 0 (inp s) (gone s + ing s) (lost s) (stale s) s)))
    else (l, Null, free_router (free_now g s)).
  (** _cru_spread, src/spread.c:447-476 *)
  Definition _spread (g : graph) s : graph * st :=
    let s := disable_killing s in
    let (l, s) := status_launched populate s in
    let (g, s) :=
      if negb l then (g, s) else
      let '(l, g, s) := graph_launched g (share (reset (no_nodes s))) in
      (g, if l then s else snd (launched no_effect (share (reset s)))) in
    let s := sweep true s in
    let s := if ok s then s else free_now g s in
    (if ok s then g else Null, s).
  (** cru_spread, src/entry.c:791-822; [compatible] is the result of _cru_identical, which raises an error if it is false,
      and a builder that is missing is an internal error of _cru_builder_copy, src/copy.c:121 *)
  Definition spread (g : graph) (spec compatible : bool) s : graph * st :=
    let s := api_entry s in
    if negb (ok s) then finish g s else
    let s := disable_killing s in
    let (b, s) := bad g s in
    if b || negb (ok s) then finish g s else
    match g with
    | Null => finish g s
    | _ =>
        if negb spec then finish g (raise 678 s) else
        let (i, s) := infer s in
        if negb i then finish g s else
        if negb compatible then finish g (free_copy (raise INCSPB s)) else
        let (r, s) := make_router s in
        let (r, s) := stored g r s in
        let (g, s) := if r then _spread g s else (g, s) in
        finish g (free_copy s)
    end.

  (** merge, src/merge.c:456-497 *)
  Definition merge s : st :=
    let (l, s) := status_launched populate (reset s) in
    if negb l then s else
    let s := no_nodes s in
    let s := if negb (ok s) then s else
             let (l, s) := status_launched no_effect (reset s) in
             if negb (l && ok s) then s else snd (queue_launched (reset s)) in
    let (l, s) := launched clear (share (reset s)) in
    if l then s else clear s.
  (** _cru_merged, src/merge.c:506-537 *)
  Definition _merged (g : graph) s : graph * st :=
    let s := disable_killing s in
    let s :=
      if negb (ok s) then s else
      let (h, s) := half_duplexed s in
      if negb h then s else
      if negb (ok s) then s else
      let (p, s) := set_properties s in
      if negb p then s else unset_properties (merge s) in
    let s := free_router s in
    let s := if ok s then s else free_now g s in
    (if ok s then g else Null, s).
  (** cru_merged, src/entry.c:837-869.  If there is no router, line 865 is skipped, where the copy is freed. *)
  Definition merged (g : graph) (spec : bool) s : graph * st :=
    let s := api_entry s in
    if negb (ok s) then finish g s else
    let s := disable_killing s in
    let (b, s) := bad g s in
    if b then finish g s else
    match g with
    | Null => finish g s
    | _ =>
        if negb spec then finish g s else
        let (i, s) := infer s in
        if negb i then finish g s else
        let (r, s) := make_router s in
        let (r, s) := stored g r s in
        if negb r then finish g s else
        let (g, s) := _merged g s in
        finish g (free_copy s)
    end.

  (** _cru_filtered, src/filters.c:561-622; [r] is whether the router is not NULL *)
  Fixpoint filter_passes (n : nat) s : bool * st :=
    match n with
    | 0 => (true, s)
    | S n => let (l, s) := status_launched no_effect (reset s) in if l then filter_passes n s else (false, s)
    end.
  Definition _filtered (g : graph) (r : bool) s : graph * st :=
    let s := disable_killing s in
    if negb (ok s) || negb r then (g, s) else
    let (i, s) := initial_node s in
    if negb i then (g, s) else
    let (deletable, s) := choose (call s) in
    if deletable then
      if single then (Null, free_now g s) else
      let (l, s) := launched raze (share (reset s)) in
      (Null, free_now g (if l then no_nodes s else s))
    else
    let (h, s) := choose s in
    let (l, s) := if h then launched_with_another s else (true, s) in
    if h && l && negb (ok s) then (Null, free_now g s) else
    let (l, s) := launched populate (share (reset s)) in
    let s := if l then no_nodes s else s in
    if negb (ok s) then (Null, free_now g s) else
    let (both, s) := choose s in
    let (l, s) := filter_passes (if both then 2 else 1) s in
    if negb l then (Null, free_now g s) else
    let (l, s) := launched_with_another s in
    if l && ok s then (g, s) else (Null, free_now g s).
  (** cru_filtered, src/entry.c:878-903; [trivial] is whether there is nothing to be tested *)
  Definition filtered (g : graph) (spec trivial : bool) s : graph * st :=
    let s := api_entry s in
    if negb (ok s) then finish g s else
    match g with
    | Null => finish g s
    | _ =>
        let (b, s) := bad g s in
        if b || negb spec then finish g s else
        let (i, s) := infer s in
        if negb i then finish g s else
        let (g, s) :=
          if trivial then (g, s) else
          let (r, s) := make_router s in
          let (r, s) := stored g r s in
          let (g, s) := _filtered g r s in
          (g, snd (pruned g r s)) in
        finish g (free_copy s)
    end.

  (** _cru_deduplicated, src/duplex.c:354-396 *)
  Definition _deduplicated (g : graph) s : graph * st :=
    let s := disable_killing s in
    let s :=
      if negb (ok s) then s else
      let (h, s) := half_duplexed s in
      if negb h then s else
      let (l, s) := status_launched populate (reset s) in
      if negb l then s else
      let (l, s) := status_launched no_effect (reset (no_nodes s)) in
      if negb l then s else
      snd (queue_launched (reset (no_nodes s))) in
    let s := sweep true s in
    let s := if ok s then s else free_now g s in
    (if ok s then g else Null, s).
  (** cru_deduplicated, src/entry.c:913-939; the copy is the deduplicator *)
  Definition deduplicated (g : graph) s : graph * st :=
    let s := api_entry s in
    if negb (ok s) then finish g s else
    let s := disable_killing s in
    let (b, s) := bad g s in
    if b then finish g s else
    match g with
    | Null => finish g s
    | _ =>
        let (i, s) := infer s in
        if negb i then finish g s else
        let (r, s) := make_router s in
        let (r, s) := stored g r s in
        let (g, s) := if r then _deduplicated g s else (g, s) in
        finish g (free_copy s)
    end.

  (** propagate, src/mutate.c:768-823 *)
  Definition propagate s : st :=
    let unbound s := let (l, s) := launched clear (share (reset s)) in if l then s else clear s in
    if negb (ok s) then s else
    let (l, s) := status_launched populate (reset s) in
    if negb l then s else
    let s := no_nodes s in
    if negb (ok s) then unbound s else
    let (l, s) := launched no_effect (share (reset s)) in
    if negb l then unbound s else
    let s := if negb (ok s) then s else snd (queue_launched (reset s)) in
    if ok s then s else
    let (q, s) := choose s in
    let s := if q then snd (launched no_effect (share (reset s))) else s in
    unbound s.
  (** _cru_mutated, src/mutate.c:831-859 *)
  Definition _mutated (g : graph) s : graph * st :=
    let s :=
      if negb (ok s) then s else
      let (n, s) := initial_node s in
      if negb n then s else
      let (cover, s) := choose s in
      let (l, s) := if cover then launched no_effect (share (reset s)) else (true, s) in
      if negb l then s else
      let (h, s) := choose s in
      let (l, s) := if h then launched_with_another s else (false, s) in
      if l && negb (ok s) then s else
      propagate s in
    let s := if ok s then s else free_now g s in
    let s := sweep true s in
    (if ok s then g else Null, s).
  (** cru_mutated, src/entry.c:956-982 *)
  Definition mutated (g : graph) (spec : bool) s : graph * st :=
    let s := api_entry s in
    if negb (ok s) then finish g s else
    let s := disable_killing s in
    match g with
    | Null => finish g s
    | _ =>
        let (b, s) := bad g s in
        if b || negb spec then finish g s else
        let (i, s) := infer s in
        if negb i then finish g s else
        let (r, s) := make_router s in
        let (r, s) := stored g r s in
        let (g, s) := if r then _mutated g s else (g, s) in
        finish g (free_copy s)
    end.

  (** _cru_postpone, src/postpone.c:347-392.  It makes no difference here whether the graph is freed in the background. *)
  Fixpoint postponing (n : nat) s : bool * st :=
    match n with
    | 0 => (true, set_out s)
    | S n =>
        if negb (ok s) then (false, s) else
        let s := snd (launched no_effect (share (reset s))) in
        let s := snd (launched no_effect (share (reset s))) in
        let (more, s) := choose s in
        if ok s && negb more then (true, s) else postponing n s
    end.
  Definition _postpone (n : nat) (g : graph) s : graph * st :=
    let s := disable_killing s in
    if negb (ok s) then (g, sweep true s) else
    let (h, s) := half_duplexed s in
    let (c, s) := if h then postponing n s else (false, s) in
    if c then (g, sweep true s) else (Null, sweep true (free_now g s)).
  (** cru_postponed, src/entry.c:991-1018 *)
  Definition postponed (n : nat) (g : graph) (spec : bool) s : graph * st :=
    let s := api_entry s in
    if negb (ok s) then finish g s else
    let s := disable_killing s in
    let (b, s) := bad g s in
    if b || negb (ok s) then finish g s else
    match g with
    | Null => finish g s
    | _ =>
        if negb spec then finish g s else
        let (i, s) := infer s in
        if negb i then finish g s else
        let (r, s) := make_router s in
        let (r, s) := stored g r s in
        let (g, s) := if r then _postpone n g s else (g, s) in
        finish g (free_copy s)
    end.

  (** ** Operations that don't consume a graph *)

  (** _cru_graph_launched for a new graph, of which [res] tells whether it exists, src/launch.c:315-375.  The product is taken over
      by the workers if it starts. *)
  Definition new_graph_launched s : st :=
    if negb (ok s) then free_router s else
    let (l, s) := start (fun s => set_prod false s) s in
    let s := if negb (ok s) then s else
             if fails (clock s) then failure s else
             let (base, s) := choose s in set_res base s in
    free_router s.
  Definition free_result s : st := set_res false s.
  (** _cru_cross, src/cross.c:404-427, with the product of base nodes from product_of, 72-89.  Nothing is
      known about the second graph if it is corrupted. *)
  Definition _cross (g h : graph) (r : bool) s : st :=
    let s := disable_killing s in
    let s := match g, h, r with
      | Null, _, _ | _, Null, _ => if r then free_router s else s
      | _, _, false => s
      | _, Bad, true => fault s
      | _, _, true =>
          if negb (ok s) then free_router s else
          if fails (clock s) then free_router (failure s) else
          new_graph_launched (set_prod true (tick s))
      end in
    if ok s then s else free_result s.
  (** cru_crossed, src/entry.c:227-248; the result is [res] *)
  Definition crossed (g h : graph) (spec : bool) s : st :=
    let s := api_entry s in
    if negb (ok s) || negb spec then s else
    let (i, s) := infer s in
    if negb i then s else
    let (r, s) := make_router s in
    let (r, s) := stored g r s in
    free_copy (_cross g h r s).

  (** _cru_fabricated, src/fab.c:184-205, and cru_fabricated, src/entry.c:257-280 *)
  Definition fabricated (g : graph) s : st :=
    let s := api_entry s in
    if negb (ok s) then s else
    match g with
    | Null => s
    | _ =>
        let (b, s) := bad g s in
        if b then s else
        let (i, s) := infer s in
        if negb i then s else
        let (r, s) := make_router s in
        let (r, s) := stored g r s in
        let s := disable_killing s in
        let s := if negb r then s else new_graph_launched (reset s) in
        free_copy (if ok s then s else free_result s)
    end.

  (** cru_mapreduced, src/entry.c:556-595 and _cru_mapreduce, src/mapreduce.c:156-172 *)
  Definition mapreduced (g : graph) (spec : bool) s : st :=
    let s := api_entry s in
    if negb (ok s) then s else
    let (b, s) := bad g s in
    if b || negb spec then s else
    let (i, s) := infer s in
    if negb i then s else
    match g with
    | Null => let (v, s) := choose s in free_copy (if v then s else raise UNDVAC s)
    | _ =>
        let (r, s) := make_router s in
        let (r, s) := stored g r s in
        let s :=
          if negb r then s else
          let (n, s) := initial_node s in
          if negb (ok s) then free_router s else
          let (c, s) := choose s in
          let s := if c then
              let s := share (reset s) in
              free_router (snd (start no_effect (disable_killing s)))
            else s in
          free_router s in
        free_copy s
    end.

  (** cru_induced, src/entry.c:603-640, and _cru_induce, src/induce.c:233-260 *)
  Definition induced (g : graph) (spec : bool) s : st :=
    let s := api_entry s in
    if negb (ok s) then s else
    let (b, s) := bad g s in
    if b || negb spec then s else
    let (i, s) := infer s in
    if negb i then s else
    match g with
    | Null => let (v, s) := choose s in free_copy (if v then s else raise UNDVAC s)
    | _ =>
        let (r, s) := make_router s in
        let s :=
          if negb r then s else
          let (n, s) := initial_node s in
          if negb n then free_router s else
          let s := snd (stored g true (reset s)) in
          let s := disable_killing s in
          let (l, s) := start no_effect s in
          let s := if l then snd (launched no_effect (share (reset s))) else s in
          free_router s in
        free_copy s
    end.

  (** cru_partition_of, src/entry.c:653-674, and _cru_partition_of, src/classes.c:315-349, where [res] is the partition made along with
      the router, _cru_classifying_router, src/route.c:408-435.  Workers' errors don't matter for the result, see C54. *)
  Definition partition_of (g : graph) s : st :=
    let s := api_entry s in
    if negb (ok s) then s else
    match g with
    | Null => s
    | _ =>
        let (i, s) := infer s in
        if negb i then s else
        let (r, s) :=
          if fails (clock s) then (false, failure s) else
          let (r, s) := make_router (set_res true (tick s)) in
          (r, if r then s else free_result s) in
        let (r, s) := stored g r s in
        let s := disable_killing s in
        let s :=
          if negb r then s else
          let (p, s) := set_properties s in
          let s :=
            if negb p then free_result s else
            let (l, s) := start no_effect (reset s) in
            unset_properties (if l then s else free_result s) in
          free_router s in
        free_copy s
    end.

  (** cru_vertex_count, cru_terminus_count and cru_edge_count, src/entry.c:463-547, and _cru_counted, src/count.c:207-219 *)
  Definition counted (g : graph) s : st :=
    let s := api_entry s in
    if negb (ok s) then s else
    match g with
    | Null => s
    | _ =>
        let (b, s) := bad g s in
        if b || single then s else
        let (r, s) := make_router s in
        if negb r then s else snd (launched no_effect s)
    end.
End Ops.

(** A state with a graph of n nodes, or none, at the beginning of an operation *)
Definition given (g : graph) (n : nat) (e : N) : st :=
  match g with
  | Good => mkS e 0 false None false true n 0 0 0 false false false false
  | _ => mkS e 0 false None false false 0 0 0 0 false false false false
  end.
