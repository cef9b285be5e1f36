(** Deduplication of vertices and edges (src/duplex.c:163-396, src/stretch.c:350-396, src/entry.c:912-938). *)
From Coq Require Import List Arith NArith Lia Bool Permutation.
From Verif Require Import Base Machine Env Hash Graph Visitor Walk Run Pass Fold Fabricate Containers Brigade Partition Filter.
Import ListNotations.

Set Implicit Arguments.

Section Dedup.
  Variable X : env.
  Variable g : graph word word.
  (** g->g_sig.orders, in which all members are present (src/infer.c, [_cru_deduplicator]) *)
  Variable veq : word -> word -> bool.
  Variable vhash : word -> N.
  Variable eeq : word -> word -> bool.
  Variable ehash : word -> N.

  (** An edge (edge_list, src/edges.h) is given by its original node and its position in the list
      edges_out of that, because it can be moved to another list and get another remote node. *)
  Definition eid := (nat * nat)%type.
  Definition eid_eqb (e e' : eid) : bool := (fst e =? fst e') && (snd e =? snd e').
  Definition described (e : eid) : word * nat := nth (snd e) (es g (fst e)) (null, 0).
  Definition label (e : eid) : word := fst (described e).
  Definition target (e : eid) : nat := snd (described e).
  Definition edges_of (n : nat) : list eid := map (pair n) (seq 0 (length (es g n))).

  (** What the workers share: the fields edges_out of all nodes and remote.node of all edges.  The rest
      is what they have each: the table of nodes stored, and the lists deletions and
      disconnections, which are united here; [unlabelled] are the edges freed in
      [_cru_deduplicated_edges], and [broken] is whether there was an internal error. *)
  Record ddata := mkDD {
    outs : nat -> list eid;
    remote : eid -> nat;
    stored : nat -> jarray nat;
    deletions : list nat;
    disconnections : list eid;
    unlabelled : list eid;
    broken : bool
  }.
  Definition dstart : ddata := mkDD edges_of target (fun _ => []) [] [] [] false.

  (** Packets: the fields receiver and carrier, src/ports.h; the latter is NULL in the first one. *)
  Definition dpkt := (nat * option eid)%type.

  Definition vertex_hash : nat -> N := prop_hash vhash (vx g).
  Definition ddest (p : dpkt) : nat := clane X vhash (vx g) (fst p).

  Definition redirect (f : eid -> nat) (e : eid) (r : nat) : eid -> nat :=
    fun e' => if eid_eqb e' e then r else f e'.

  (** src/duplex.c:323: the edges left to [n], and those that are freed.  Two edges have the same
      terminus if their fields remote.node are the same. *)
  Definition own_edges (s : ddata) (n : nat) : list eid * list eid :=
    deduplicated_edges eeq (judy X) ehash label (fun e => N.of_nat (remote s e)) (outs s n).

  (** [_cru_scattered_by_hashes], src/scatter.c:215-245.  No node is marked at this time. *)
  Definition scattered (s : ddata) (l : list eid) : list dpkt := map (fun e => (remote s e, Some e)) l.

  (** [graft], src/duplex.c:230-261, in which a list of carriers is maintained that is not used.  The
      node [n] may be in the list of deletions already, in which case it is severed first. *)
  Definition grafted (s : ddata) (n r : nat) (c : eid) (kept lost : list eid) : ddata :=
    let (k, x) := repeating_labels eeq (judy X) ehash label (kept ++ outs s r) in
    mkDD (upd (upd (outs s) n []) r k) (redirect (remote s) c r) (stored s)
         (if existsb (Nat.eqb n) (deletions s) then deletions s else n :: deletions s)
         (x ++ disconnections s) (lost ++ unlabelled s) (broken s).

  Definition fail (s : ddata) : ddata :=
    mkDD (outs s) (remote s) (stored s) (deletions s) (disconnections s) (unlabelled s) true.

  (** [deduplicating_task], src/duplex.c:270-344, for one packet.  The pass is not killable.  The checks
      of the carrier are in [graft] (847). *)
  Definition deduplicating (s : ddata) (p : dpkt) : option (ddata * list dpkt) :=
    let n := fst p in
    let l := clane X vhash (vx g) n in
    let k := cslot X vhash (vx g) n in
    let c := cell (stored s l) k in
    if broken s then Some (s, [])
    else match find (same veq (vx g) n) c with
    | Some r =>
        match snd p with
        | None => Some (fail s, if n =? r then [] else scattered s (fst (own_edges s n)))
        | Some e =>
            if n =? r then Some (s, [])
            else let (kept, lost) := own_edges s n in
                 Some (grafted s n r e kept lost, scattered s kept)
        end
    | None =>
        let (kept, lost) := own_edges s n in
        Some (mkDD (upd (outs s) n kept) (remote s) (upd (stored s) l (Containers.put (stored s l) k (c ++ [n])))
                   (deletions s) (disconnections s) (lost ++ unlabelled s) false,
              scattered s kept)
    end.

  (** The pass before, [populating_task] (src/duplex.c:163-221), moves the nodes to the lists of
      survivors; the precautions against lack of memory are left out.  It is not killable. *)
  Definition spreading : @vst (list nat) nat -> npkt word -> option (_ * list (npkt word)) :=
    gwalk (unkillable X) (es g) collect vertex_hash.

  (** The edges of a node afterwards *)
  Definition joined (s : ddata) (n : nat) : list (word * nat) := map (fun e => (label e, remote s e)) (outs s n).

  (** The pass after, [_cru_pruning_task] (src/stretch.c:350-396), moves the nodes it reaches to the
      queue. *)
  Definition weeding (Y : env) (s : ddata) : @vst (list nat) nat -> npkt word -> option (_ * list (npkt word)) :=
    gwalk Y (joined s) collect vertex_hash.

  (** What is left, and the vertices and labels that are destroyed. *)
  Record dedup_result := mkDR {
    remains : option (graph word word);
    vertices_freed : list nat;
    labels_freed : list eid
  }.
  Definition nothing : dedup_result := mkDR None [] [].

  Definition unqueued (survivors queue : list nat) : list nat :=
    filter (fun n => negb (existsb (Nat.eqb n) queue)) survivors.

  (** [_cru_sweep], src/route.c:702-780: the nodes left in the lists survivors and deletions of the
      ports, with their edges, and the disconnections. *)
  Definition cleared (survivors queue : list nat) (s : ddata) : dedup_result :=
    mkDR (Some (mkGraph queue (vx g) (joined s) (root g)))
         (unqueued survivors queue)
         (disconnections s ++ unlabelled s ++ flat_map (outs s) (unqueued survivors queue)).

  (** src/route.c:766-773 *)
  Definition cluttered (survivors queue : list nat) (s : ddata) : bool :=
    (0 <? length (unqueued survivors queue)) || (0 <? length (disconnections s)).

  (** When [cru_kill] is called in the last pass. *)
  Variable kills : nat -> nat -> bool.

  (** src/route.c:774-780: the pass in which the nodes are freed resets the router, so that
      [_cru_free_router] doesn't know that it was killed. *)
  Definition cleared_status (survivors : list nat) (s : ddata) (order : list nat) (q : @vst (list nat) nat) :
      option error :=
    if cluttered survivors (data q) s && negb (lanes X =? 1) then pass_status order q
    else vstatus (in_pass X kills 0) order q.

  (** [cru_deduplicated], src/entry.c:912-938, and [_cru_deduplicated], src/duplex.c:353-396, on a valid
      graph that is not empty and has no back edges.  If there is an error, the graph is freed.
      The vertices in the graph's own storage are not modelled. *)
  Inductive deduplicates : result dedup_result -> Prop :=
  | dedup_passes v order s q order' :
      ran (lanes X) (gwalk_dest X vertex_hash) spreading (vstart []) (initial (root g)) v ->
      Permutation order (seq 0 (lanes X)) ->
      pass_status order v = None ->
      ran (lanes X) ddest deduplicating dstart (root g, None) s ->
      ran (lanes X) (gwalk_dest X vertex_hash) (weeding (in_pass X kills 0) s) (vstart []) (initial (root g)) q ->
      Permutation order' (seq 0 (lanes X)) ->
      deduplicates
        (if broken s then (nothing, Some IER)
         else match cleared_status (data v) s order' q with
              | None => (cleared (data v) (data q) s, None)
              | Some e => (nothing, Some e)
              end)
  | dedup_unpopulated v order e :
      ran (lanes X) (gwalk_dest X vertex_hash) spreading (vstart []) (initial (root g)) v ->
      Permutation order (seq 0 (lanes X)) ->
      pass_status order v = Some e ->
      deduplicates (nothing, Some e).
End Dedup.
