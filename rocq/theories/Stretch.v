(** Stretching of edges (src/stretch.c). *)
From Coq Require Import List Arith NArith Lia Bool Permutation.
From Verif Require Import Base Machine Env Hash Graph Visitor Walk Run Pass Fold Fabricate Containers Brigade Filter Compose Props.
Import ListNotations.

Set Implicit Arguments.

(** What is passed to [cru_stretch] (src/entry.c:324-362): the label of the edge to the new vertex, the
    new vertex, and the label of the edge from it. *)
Definition bridge := (word * word * word)%type.

(** A stretcher (include/cru/data_types.h, [cru_stretcher_s]) after [_cru_inferred_stretcher]: the
    expander is given by the value it returns, its calls to [cru_stretch] in their order, and the error
    it reports if any. *)
Record stretcher := mkStretcher {
  st_fix : bool;
  expander : word -> word -> word -> bool * list bridge * option error;
  st_prop : prop
}.

(** The nodes during a pass: those of the given graph, and those made by the [j]th call of
    [cru_stretch] for the [i]th edge from the node [n]. *)
Inductive snode := Old (n : nat) | New (n i j : nat).
(** The edges: those of the given graph, and those made by the same call to and from the new node. *)
Inductive eid := Given (n i : nat) | Ante (n i j : nat) | Post (n i j : nat).

Definition snode_eqb (x y : snode) : bool :=
  match x, y with
  | Old n, Old m => n =? m
  | New n i j, New m k l => (n =? m) && (i =? k) && (j =? l)
  | _, _ => false
  end.
Definition eid_eqb (x y : eid) : bool :=
  match x, y with
  | Given n i, Given m k => (n =? m) && (i =? k)
  | Ante n i j, Ante m k l => (n =? m) && (i =? k) && (j =? l)
  | Post n i j, Post m k l => (n =? m) && (i =? k) && (j =? l)
  | _, _ => false
  end.
Definition is_new (x : snode) : bool := match x with New _ _ _ => true | Old _ => false end.

(** Packets: the fields receiver and carrier, src/ports.h; the latter is NULL in the first one. *)
Definition xpkt := (snode * option eid)%type.

(** What the workers share are the fields edges_out of all nodes and remote.node of all edges, and
    which of the given nodes are marked.  What they have each is the table of packets, each with its
    receiver and seen_carriers, the number of packets in it, the number of those with new nodes, and
    the error. *)
Record xdata := mkXD {
  outs : snode -> list eid;
  remote : eid -> snode;
  marks : list nat;                             (* SCATTERED or RETIRED *)
  retired : list snode;                         (* RETIRED, apart from the nodes in the table *)
  stored : nat -> jarray (snode * list eid);    (* collisions *)
  counts : nat -> nat;                          (* count *)
  changed : nat -> nat;                         (* changed *)
  faults : nat -> option error;                 (* *err *)
  freed : list eid;                             (* the edges that were freed *)
  dangling : bool                               (* whether a freed edge was assigned to *)
}.

Section Stretch.
  Variable X : env.
  Variable g : graph word word.
  Variable P : nat -> word.                     (* vertex_property *)
  Variable x : stretcher.
  (** r->ro_sig: the orders, in which all members are present, and the vertex limit *)
  Variable veq : word -> word -> bool.
  Variable vhash : word -> N.
  Variable eeq : word -> word -> bool.
  Variable ehash : word -> N.
  Variable vertex_limit : nat.
  (** The addresses of the new nodes *)
  Variable addr : nat -> nat -> nat -> nat.

  Definition code (y : snode) : nat := match y with Old n => n | New n i j => addr n i j end.

  Definition given (n i : nat) : edge := nth i (es g n) (null, 0).
  (** What the expander does about an edge *)
  Definition expansion (n i : nat) : bool * list bridge * option error :=
    expander x (P n) (fst (given n i)) (P (snd (given n i))).
  Definition bridges (n i : nat) : list bridge := snd (fst (expansion n i)).
  Definition bridge_at (n i j : nat) : bridge := nth j (bridges n i) (null, null, null).
  Definition label (e : eid) : word :=
    match e with
    | Given n i => fst (given n i)
    | Ante n i j => fst (fst (bridge_at n i j))
    | Post n i j => snd (bridge_at n i j)
    end.
  Definition vertex (y : snode) : word :=
    match y with Old n => vx g n | New n i j => snd (fst (bridge_at n i j)) end.

  Definition edges_of (n : nat) : list eid := map (Given n) (seq 0 (length (es g n))).
  Definition xstart : xdata :=
    mkXD (fun y => match y with Old n => edges_of n | New n i j => [Post n i j] end)
         (fun e => match e with Ante n i j => New n i j | Given n i | Post n i _ => Old (snd (given n i)) end)
         [] [] (fun _ => []) (fun _ => 0) (fun _ => 0) (fun _ => None) [] false.

  Definition xhash (y : snode) : N := vhash (vertex y).
  Definition xlane (y : snode) : nat := lane_of (lanes X) (xhash y).
  Definition xslot (y : snode) : N := if judy X then xhash y else 0%N.
  Definition xdest (p : xpkt) : nat := xlane (fst p).

  (** UNEQUAL, src/stretch.c:265-266 *)
  Definition same (y r : snode) : bool := N.eqb (vertex y) (vertex r) || veq (vertex y) (vertex r).
  Definition found (s : xdata) (y : snode) : option (snode * list eid) :=
    find (fun c => same y (fst c)) (cell (stored s (xlane y)) (xslot y)).

  (** [_cru_scattered_by_hashes], src/scatter.c:215-245.  New nodes are all marked. *)
  Definition to_successors (s : xdata) (l : list eid) : list xpkt :=
    flat_map (fun e => match remote s e with
                       | Old m => if existsb (Nat.eqb m) (marks s) then [] else [(Old m, Some e)]
                       | New _ _ _ => []
                       end) l.

  (** The loop in [scattered], src/stretch.c:77-91, from the edges with the given positions: the edges
      that remain, those to new nodes, which [_cru_scatter_and_stretch] (src/scatter.c:388-438) makes,
      the packets, the edges deleted and the error if any.  It is a list in reverse that is traversed,
      because it is extended in front by each call of [cru_stretch] (src/entry.c:353). *)
  Fixpoint expand (n : nat) (l : list nat) : list eid * list eid * list xpkt * list eid * option error :=
    match l with
    | [] => ([], [], [], [], None)
    | i :: l' =>
        match expansion n i with
        | (_, _, Some e) => (map (Given n) l, [], [], [], Some e)
        | (deletable, b, None) =>
            let '(k, a, o, d, e) := expand n l' in
            (if deletable then k else Given n i :: k,
             a ++ map (Ante n i) (seq 0 (length b)),
             map (fun j => (New n i j, Some (Ante n i j))) (rev (seq 0 (length b))) ++ o,
             if deletable then Given n i :: d else d, e)
        end
    end.

  Definition redirect (f : eid -> snode) (l : list eid) (r : snode) : eid -> snode :=
    fun e => if existsb (eid_eqb e) l then r else f e.
  Definition updn {A} (f : snode -> A) (y : snode) (a : A) : snode -> A :=
    fun z => if snode_eqb z y then a else f z.
  Definition any_in (d l : list eid) : bool := existsb (fun e => existsb (eid_eqb e) d) l.
  (** [_cru_deduplicated_edges], src/edges.c:430-444, where two edges have the same terminus if their
      fields remote.node are the same *)
  Definition deduplicated (f : eid -> snode) (l : list eid) : list eid * list eid :=
    deduplicated_edges eeq (judy X) ehash label (fun e => N.of_nat (code (f e))) l.

  Definition fault (s : xdata) (l : nat) (e : error) : xdata :=
    mkXD (outs s) (remote s) (marks s) (retired s) (stored s) (counts s) (changed s) (upd (faults s) l (Some e)) (freed s) (dangling s).
  Definition with_cell (s : xdata) (y : snode) (c : list (snode * list eid)) : nat -> jarray (snode * list eid) :=
    upd (stored s) (xlane y) (Containers.put (stored s (xlane y)) (xslot y) c).
  Definition the_cell (s : xdata) (y : snode) := cell (stored s (xlane y)) (xslot y).
  Definition carriers (c : option eid) : list eid := match c with Some e => [e] | None => [] end.
  Definition replaced (r : snode) (v : snode * list eid) (l : list (snode * list eid)) : list (snode * list eid) :=
    map (fun c => if snode_eqb (fst c) r then v else c) l.

  (** src/stretch.c:307-308 *)
  Definition limit : nat :=
    match vertex_limit / lanes X with 0 => if vertex_limit =? 0 then 0 else 1 | k => k end.

  (** [grown], src/stretch.c:107-127, and 330-331 *)
  Definition grown (s : xdata) (y : snode) (c : option eid) : xdata :=
    let l := xlane y in
    mkXD (outs s) (remote s) (marks s) (retired s) (with_cell s y (the_cell s y ++ [(y, carriers c)]))
         (upd (counts s) l (S (counts s l)))
         (if is_new y then upd (changed s) l (S (changed s l)) else changed s)
         (if (0 <? limit) && (limit <=? counts s l) then upd (faults s) l (Some INTOVF) else faults s)
         (freed s) (dangling s).

  (** [graft], src/stretch.c:137-165, of the new node [y] that came with the edge [e] *)
  Definition graft (s : xdata) (y : snode) (e : eid) (r : snode) (cs : list eid) : xdata :=
    let (k, d) := deduplicated (remote s) (outs s y ++ outs s r) in
    mkXD (updn (updn (outs s) y []) r k) (redirect (remote s) [e] r) (marks s) (retired s)
         (with_cell s y (replaced r (r, cs ++ [e]) (the_cell s y)))
         (counts s) (changed s) (faults s) (d ++ freed s) (dangling s || any_in (d ++ freed s) [e]).

  (** [overwrite], src/stretch.c:174-201 *)
  Definition overwrite (s : xdata) (y : snode) (c : option eid) (r : snode) (cs : list eid) : xdata :=
    let l := xlane y in
    let f := redirect (remote s) cs y in
    let (k, d) := deduplicated f (outs s r ++ outs s y) in
    mkXD (updn (updn (outs s) r []) y k) f (marks s) (retired s)
         (with_cell s y (replaced r (y, cs ++ carriers c) (the_cell s y)))
         (counts s) (upd (changed s) l (pred (changed s l))) (faults s) (d ++ freed s) (dangling s || any_in (freed s) cs).

  (** src/stretch.c:328-335, from label e, with the previously stored packet if any *)
  Definition place (s : xdata) (y : snode) (c : option eid) (f : option (snode * list eid)) : xdata :=
    match f with
    | None => grown s y c
    | Some (r, cs) =>
        match y, c with
        | New _ _ _, Some e => graft s y e r cs
        | New _ _ _, None => fault s (xlane y) IER
        | Old _, _ => if changed s (xlane y) =? 0 then fault s (xlane y) IER else overwrite s y c r cs
        end
    end.

  (** [_cru_cull], src/stretch.c:208-248, without the precautions against lack of memory *)
  Definition is_stored (s : xdata) (y : snode) : bool := existsb (fun c => snode_eqb y (fst c)) (the_cell s y).
  Definition retire (s : xdata) (y : snode) : xdata :=
    mkXD (outs s) (remote s) (match y with Old n => n :: marks s | New _ _ _ => marks s end) (y :: retired s)
         (stored s) (counts s) (changed s) (faults s) (freed s) (dangling s).
  Definition cull (s : xdata) (y : snode) : xdata * list xpkt :=
    if is_stored s y || existsb (snode_eqb y) (retired s) then (s, [])
    else match y with
         | New _ _ _ => (retire s y, [])
         | Old n => (retire s y, if existsb (Nat.eqb n) (marks s) then [] else to_successors s (outs s y))
         end.

  (** [stretching_task], src/stretch.c:257-349, for one packet.  The pass is not killable. *)
  Definition stretching (s : xdata) (p : xpkt) : option (xdata * list xpkt) :=
    let (y, c) := p in
    let l := xlane y in
    match faults s l with
    | Some _ => Some (cull s y)
    | None =>
        let f := found s y in
        if match f with Some (r, _) => snode_eqb y r | None => false end then Some (s, [])
        else
          match y with
          | New _ _ _ => Some (place s y c f, [])
          | Old n =>
              let o1 := to_successors s (outs s y) in
              let '(k, a, o2, d, e) := expand n (seq 0 (length (es g n))) in
              let s1 := mkXD (updn (outs s) y (k ++ a)) (remote s) (marks s) (retired s) (stored s) (counts s) (changed s)
                             (faults s) (d ++ freed s) (dangling s) in
              match e with
              | Some e => let (s2, o3) := cull (fault s1 l e) y in Some (s2, o1 ++ o2 ++ o3)
              | None =>
                  let s2 := mkXD (outs s1) (remote s1) (n :: marks s) (retired s) (stored s) (counts s) (changed s)
                                 (faults s) (freed s1) (dangling s) in
                  Some (place s2 y c f, o1 ++ o2)
              end
          end
    end.

  (** The survivors, src/stretch.c:344-345, their edges and vertices *)
  Definition receivers (s : xdata) : list snode :=
    flat_map (fun l => flat_map (fun b => map fst (snd b)) (stored s l)) (seq 0 (lanes X)).
  Definition node_at (s : xdata) (k : nat) : option snode := find (fun y => code y =? k) (receivers s).
  Definition edges_at (s : xdata) (k : nat) : list edge :=
    match node_at s k with
    | Some y => map (fun e => (label e, code (remote s e))) (outs s y)
    | None => []
    end.
  Definition vertex_at (s : xdata) (k : nat) : word := match node_at s k with Some y => vertex y | None => null end.

  (** [_cru_pruning_task], src/stretch.c:360-396, moves the nodes it reaches to the queue. *)
  Definition weeding (Y : env) (s : xdata) : @vst (list nat) nat -> npkt word -> option (_ * list (npkt word)) :=
    gwalk Y (edges_at s) collect (fun k => vhash (vertex_at s k)).
  Definition weeding_dest (s : xdata) : npkt word -> nat := gwalk_dest X (fun k => vhash (vertex_at s k)).
End Stretch.

(** Crashed means that memory is used after being freed.  Otherwise there are a graph unless there is an
    error, and the nodes that are not freed although they are not in it. *)
Inductive xverdict := Crashed | Ended (h : option (graph word word)) (leaked : list nat) (e : option error).

Section Rounds.
  Variable X : env.
  Variable x : stretcher.
  Variable veq : word -> word -> bool.
  Variable vhash : word -> N.
  Variable eeq : word -> word -> bool.
  Variable ehash : word -> N.
  Variable vertex_limit : nat.
  (** Back edges of each graph while the properties are computed (Props.v) *)
  Variable ins : graph word word -> nat -> list edge.
  (** When the user calls [cru_kill] in each of the passes that are modelled (Pass.v). *)
  Variable kills : nat -> nat -> bool.

  (** New nodes have addresses that are not in use. *)
  Definition unused (l : list nat) (addr : nat -> nat -> nat -> nat) : Prop :=
    (forall n i j n' i' j', addr n i j = addr n' i' j' -> (n, i, j) = (n', i', j')) /\
    (forall n i j, ~ In (addr n i j) l).

  Definition absent (l l' : list nat) : list nat := filter (fun n => negb (existsb (Nat.eqb n) l')) l.

  (** [_cru_sweep], src/route.c:702-780, followed by [_cru_free_router]: the pass in which the nodes left
      over are freed resets the router, so that nobody knows whether it was killed. *)
  Definition xstatus (i : nat) (sv : list nat) (order : list nat) (sq : @vst (list nat) nat) : option error :=
    if negb (length (absent sv (data sq)) =? 0) && negb (lanes X =? 1) then pass_status order sq
    else vstatus (in_pass X kills i) order sq.

  Definition growing (s : xdata) : bool := existsb (fun l => negb (changed s l =? 0)) (seq 0 (lanes X)).

  (** The passes of one round *)
  Definition set_pass (i : nat) (g : graph word word) (sp : @vst (nat -> word) nat) : Prop :=
    ran (lanes X) (walk_dest X) (setting g (ins g) (st_prop x) (in_pass X kills (2 * i))) (vstart (fun _ => null)) (initial (root g)) sp.
  Definition stretch_pass (g : graph word word) (P : nat -> word) addr (s : xdata) : Prop :=
    ran (lanes X) (xdest X g P x vhash) (stretching X g P x veq vhash eeq ehash vertex_limit addr) (xstart g) (Old (root g), None) s.
  Definition weed_pass (i : nat) (g : graph word word) (P : nat -> word) addr (s : xdata) (sq : @vst (list nat) nat) : Prop :=
    ran (lanes X) (weeding_dest X g P x vhash addr s) (weeding X g P x vhash addr (in_pass X kills (S (2 * i))) s)
        (vstart []) (initial (root g)) sq.
  Definition survivors (addr : nat -> nat -> nat -> nat) (s : xdata) : list nat := map (code addr) (receivers X s).

  (** ** [_cru_stretched], src/stretch.c:415-468, from label b on a valid graph without back edges.
      [i] is the number of rounds before, [old] are the nodes in the lists of survivors, which are
      assigned to by [stretching_task] without being freed, and [lost] are those that were in the lists
      before and are still not freed.  The properties have a router that is not freed afterwards but
      reset, and so has the pruning unless it is the last.  The passes that make and remove back edges
      are left out. *)
  Inductive rounds : nat -> graph word word -> list nat -> list nat -> xverdict -> Prop :=
  | rd_unset i g old lost sp order e :
      set_pass i g sp -> Permutation order (seq 0 (lanes X)) -> pass_status order sp = Some e ->
      rounds i g old lost (Ended None lost (Some e))
  | rd_crash i g old lost sp order addr s :
      set_pass i g sp -> Permutation order (seq 0 (lanes X)) -> pass_status order sp = None ->
      unused (ids g ++ old ++ lost) addr -> stretch_pass g (data sp) addr s -> dangling s = true ->
      rounds i g old lost Crashed
  | rd_unstretched i g old lost sp order addr s order' e :
      set_pass i g sp -> Permutation order (seq 0 (lanes X)) -> pass_status order sp = None ->
      unused (ids g ++ old ++ lost) addr -> stretch_pass g (data sp) addr s -> dangling s = false ->
      Permutation order' (seq 0 (lanes X)) -> first_error (faults s) order' = Some e ->
      rounds i g old lost (Ended None (lost ++ old) (Some e))
  | rd_last i g old lost sp order addr s order' sq order'' :
      set_pass i g sp -> Permutation order (seq 0 (lanes X)) -> pass_status order sp = None ->
      unused (ids g ++ old ++ lost) addr -> stretch_pass g (data sp) addr s -> dangling s = false ->
      Permutation order' (seq 0 (lanes X)) -> first_error (faults s) order' = None ->
      st_fix x && growing s = false ->
      weed_pass i g (data sp) addr s sq -> Permutation order'' (seq 0 (lanes X)) ->
      rounds i g old lost
        (match xstatus (S (2 * i)) (survivors addr s) order'' sq with
         | None => Ended (Some (mkGraph (data sq) (vertex_at X g (data sp) x addr s) (edges_at X g (data sp) x addr s) (root g)))
                         (lost ++ old) None
         | Some e => Ended None (lost ++ old ++ data sq) (Some e)
         end)
  | rd_next i g old lost sp order addr s order' sq v :
      set_pass i g sp -> Permutation order (seq 0 (lanes X)) -> pass_status order sp = None ->
      unused (ids g ++ old ++ lost) addr -> stretch_pass g (data sp) addr s -> dangling s = false ->
      Permutation order' (seq 0 (lanes X)) -> first_error (faults s) order' = None ->
      st_fix x && growing s = true ->
      weed_pass i g (data sp) addr s sq ->
      rounds (S i) (mkGraph (data sq) (vertex_at X g (data sp) x addr s) (edges_at X g (data sp) x addr s) (root g))
             (absent (survivors addr s) (data sq)) (lost ++ old) v ->
      rounds i g old lost v.
  Definition stretches (g : graph word word) (v : xverdict) : Prop := rounds 0 g [] [] v.
End Rounds.
