(** Splitting of vertices (src/split.c). *)
From Coq Require Import List Arith NArith Lia Bool Permutation.
From Verif Require Import Base Machine Env Hash Graph Visitor Walk Run Pass Fold Fabricate Brigade Filter Compose Props.
Import ListNotations.

Set Implicit Arguments.

(** A conditional ternary operator (include/cru/data_types.h, [cru_ctop_s]). *)
Record labeler := mkLabeler { tpred : word -> word -> word -> bool * option error; top : word -> word -> word -> outcome }.

(** A splitter (include/cru/data_types.h, [cru_splitter_s]) after [_cru_inferred_splitter]
    (src/infer.c:239-272). *)
Record splitter := mkSplitter {
  ana : word -> word -> outcome;
  cata : word -> word -> outcome;
  fissile : word -> word -> bool * option error;
  sp_prop : prop;
  in_ana : labeler; in_cata : labeler;       (* sp_ctops.inward *)
  out_ana : labeler; out_cata : labeler      (* sp_ctops.outward *)
}.

(** An element of a list edges_out.  Its address is the node that it is in the list of when its terminus
    is informed of it, and its position then; those that are added later by the worker at the origin
    (CONNECT) are never referred to by address. *)
Definition sedge := (option nat * edge)%type.
Definition at_tag (i : nat) (y : sedge) : bool := match fst y with Some j => j =? i | None => false end.
Definition addressed (l : list edge) : list sedge := map (fun x => (Some (fst x), snd x)) (tagged l).

(** Packets, src/split.c:42-54: a visit, possibly by an edge given by its address, or a request to
    insert a node, or to attach or detach an edge. *)
Inductive spkt :=
| Visits (n : nat) (by_edge : option (nat * nat))
| Creates (c : nat)
| Connects (x : nat) (e : edge)
| Disconnects (x i : nat).
Definition sreceiver (p : spkt) : nat :=
  match p with Visits n _ => n | Creates c => c | Connects x _ => x | Disconnects x _ => x end.

Record sdata := mkSD {
  vtx : nat -> word;               (* vertex *)
  prp : nat -> word;               (* vertex_property *)
  outs : nat -> list sedge;        (* edges_out *)
  sseen : list nat;                (* seen, of all workers *)
  dopp : list nat;                 (* the nodes that have a doppleganger *)
  counts : nat -> nat              (* count, by worker *)
}.

Section Split.
  Variable X : env.
  Variable g : graph word word.
  (** Back edges while the properties are computed (Props.v) *)
  Variable ins : nat -> list edge.
  Variable s : splitter.
  (** r->ro_sig.vertex_limit, and whether there is a destructor of vertices.  Destructors are assumed
      not to report errors. *)
  Variable vertex_limit : nat.
  Variable owned : bool.
  (** The address of the node allocated as the doppleganger of a given node *)
  Variable copy : nat -> nat.
  (** When the user calls [cru_kill] in each of the passes that are modelled (Pass.v). *)
  Variable kills : nat -> nat -> bool.

  (** ** The labels from a pair of labelers, if any, src/split.c:123-126 and 191-194 *)
  Definition labels (a c : labeler) (x l y : word) : option word * option word * option error :=
    match tpred a x l y with
    | (_, Some e) => (None, None, Some e)
    | (p, None) =>
        match (if p then (let (w, e) := top a x l y in (Some w, e)) else (None, None)) with
        | (_, Some e) => (None, None, Some e)
        | (u, None) =>
            match tpred c x l y with
            | (_, Some e) => (None, None, Some e)
            | (q, None) =>
                match (if q then (let (w, e) := top c x l y in (Some w, e)) else (None, None)) with
                | (_, Some e) => (None, None, Some e)
                | (w, None) => (u, w, None)
                end
            end
        end
    end.

  (** The loop over the outgoing edges, src/split.c:117-138: those that remain and those of the copy,
      which are pushed in front of it. *)
  Fixpoint fan (P : nat -> word) (n : nat) (l : list sedge) : list sedge * list sedge * option error :=
    match l with
    | [] => ([], [], None)
    | (t, (x, m)) :: l' =>
        match labels (out_ana s) (out_cata s) (P n) x (P m) with
        | (_, _, Some e) => (l, [], Some e)
        | (a, c, None) =>
            let '(la, lc, e) := fan P n l' in
            (match a with Some w => (t, (w, m)) :: la | None => la end,
             lc ++ match c with Some w => [(t, (w, m))] | None => [] end, e)
        end
    end.

  (** [_cru_scatter_out], src/scatter.c:99-120 *)
  Definition scatter_out (d : sdata) (n : nat) : list spkt :=
    map (fun y : sedge => Visits (snd (snd y)) (match fst y with Some i => Some (n, i) | None => None end)) (outs d n).

  (** The property of the copy with the vertex [t], src/split.c:105: the graph has no back edges, and
      the edges are those of [n] with the vertices as they are at the moment. *)
  Definition copy_property (d : sdata) (n : nat) (t : word) : outcome :=
    outcome_of (mapped_node (sp_prop s) t [] (map (fun y => (fst (snd y), vtx d (snd (snd y)))) (outs d n)) no_values).

  (** [fan_out], src/split.c:64-148 *)
  Definition fan_out (d : sdata) (n : nat) : sdata * list spkt * option error :=
    match fissile s (vtx d n) (prp d n) with
    | (_, Some e) => (d, [], Some e)
    | (false, None) => (d, scatter_out d n, None)
    | (true, None) =>
        match cata s (vtx d n) (prp d n) with
        | (_, Some e) => (d, [], Some e)
        | (t, None) =>
            match copy_property d n t with
            | (_, Some e) => (d, [], Some e)
            | (q, None) =>
                match ana s (vtx d n) (prp d n) with
                | (_, Some e) => (mkSD (upd (vtx d) (copy n) t) (upd (prp d) (copy n) q) (outs d) (sseen d) (dopp d) (counts d),
                                  [Creates (copy n)], Some e)
                | (u, None) =>
                    let '(la, lc, e) := fan (prp d) n (outs d n) in
                    let d' := mkSD (upd (upd (vtx d) (copy n) t) n u) (upd (prp d) (copy n) q)
                                   (upd (upd (outs d) (copy n) lc) n la) (sseen d) (n :: dopp d) (counts d) in
                    (d', Creates (copy n) :: match e with
                                             | None => scatter_out d' (copy n) ++ scatter_out d' n
                                             | Some _ => []
                                             end, e)
                end
            end
        end
    end.

  (** carrier->label and carrier->remote.node are overwritten *)
  Definition set_edge (i : nat) (e : edge) (l : list sedge) : list sedge :=
    map (fun y => if at_tag i y then (fst y, e) else y) l.
  Definition with_edges (d : sdata) (x : nat) (l : list sedge) : sdata :=
    mkSD (vtx d) (prp d) (upd (outs d) x l) (sseen d) (dopp d) (counts d).

  (** [fan_in], src/split.c:157-206.  An edge that is not there would be a dangling pointer. *)
  Definition fan_in (d : sdata) (n : nat) (by_edge : option (nat * nat)) : sdata * list spkt * option error :=
    if negb (existsb (Nat.eqb n) (dopp d)) then (d, [], None)
    else
      match by_edge with
      | None => (d, [], None)
      | Some (x, i) =>
          match find (at_tag i) (outs d x) with
          | None => (d, [], Some IER)
          | Some (_, (l, _)) =>
              match labels (in_ana s) (in_cata s) (prp d x) l (prp d n) with
              | (_, _, Some e) => (d, [], Some e)
              | (None, None, None) => (with_edges d x (set_edge i (null, n) (outs d x)), [Disconnects x i], None)
              | (None, Some w, None) => (with_edges d x (set_edge i (w, copy n) (outs d x)), [], None)
              | (Some u, None, None) => (with_edges d x (set_edge i (u, n) (outs d x)), [], None)
              | (Some u, Some w, None) =>
                  (with_edges d x (set_edge i (u, n) (outs d x)), [Connects x (w, copy n)], None)
              end
          end
      end.

  (** src/split.c:247-248 *)
  Definition limit : nat :=
    match vertex_limit / lanes X with 0 => if vertex_limit =? 0 then 0 else 1 | k => k end.

  (** [splitting_task], src/split.c:215-281, without an error or kill before.  After one, packets are
      discarded, apart from CREATE whose node is kept (261-262): see [survivors] below. *)
  Definition split_step (d : sdata) (p : spkt) : sdata * list spkt * option error :=
    match p with
    | Connects x e => (with_edges d x ((None, e) :: outs d x), [], None)
    | Disconnects x i => (* src/edges.c:347-364 *)
        match List.partition (at_tag i) (outs d x) with
        | ([], _) => (d, [], Some IER)
        | (_, l) => (with_edges d x l, [], None)
        end
    | Creates c => (* 274-275 *)
        let l := lane_of (lanes X) (node_hash c) in
        (mkSD (vtx d) (prp d) (outs d) (sseen d) (dopp d) (upd (counts d) l (S (counts d l))), [],
         if (0 <? limit) && (limit <? counts d l) then Some INTOVF else None)
    | Visits n by_edge => (* 268-273 *)
        let '(d1, o1, e1) :=
          if existsb (Nat.eqb n) (sseen d) then (d, [], None)
          else fan_out (mkSD (vtx d) (prp d) (outs d) (n :: sseen d) (dopp d) (counts d)) n in
        match e1 with
        | Some _ => (d1, o1, e1)
        | None => let '(d2, o2, e2) := fan_in d1 n by_edge in (d2, o1 ++ o2, e2)
        end
    end.
  (** The memory [seen] is part of the data here, so that the generic visitor's own is not used. *)
  Definition splitting (Y : env) : @vst sdata nat -> spkt -> option (@vst sdata nat * list spkt) :=
    vtask Y sreceiver Nat.eqb node_hash split_step split_step (fun _ _ => true).
  Definition sdest : spkt -> nat := vdest X sreceiver node_hash.

  (** In the beginning, with the nodes in the lists of survivors (src/split.c:249-251) *)
  Definition sstart (P : nat -> word) (sv : list nat) : sdata :=
    mkSD (vx g) P (fun n => addressed (es g n)) [] []
         (fun l => length (filter (fun n => lane_of (lanes X) (node_hash n) =? l) sv)).

  (** ** The end.  The survivors are the given nodes and the copies of those that have one, apart from
      the nodes made for the vertices to be reclaimed (109-111), which are in the lists of the workers
      that own the vertices replaced. *)
  Definition survivors (sv : list nat) (d : sdata) : list nat := sv ++ map copy (dopp d).
  Definition residue (sv : list nat) (d : sdata) (sq : @vst (list nat) nat) : bool :=
    leftover X (survivors sv d) sq ||
    (owned && existsb (fun n => negb (lkil sq (lane_of (lanes X) (node_hash n)))) (dopp d)).
  (** As in Compose.v *)
  Definition split_status (sv : list nat) (d : sdata) (order : list nat) (sq : @vst (list nat) nat) : option error :=
    if residue sv d sq && negb (lanes X =? 1) then pass_status order sq
    else vstatus (in_pass X kills 2) order sq.

  Definition left_edges (d : sdata) : edges := fun n => map snd (outs d n).

  (** ** [_cru_split], src/split.c:290-326, on a valid graph.  The properties and the splitting have a
      router that is not freed afterwards but reset (319-321, src/props.c:288, 344-357), hence nobody knows
      whether it was killed.  The passes that make and remove back edges are left out. *)
  Inductive splits : result (option (graph word word)) -> Prop :=
  | sp_unset sp order e :
      ran (lanes X) (walk_dest X) (setting g ins (sp_prop s) (in_pass X kills 0)) (vstart (fun _ => null)) (initial (root g)) sp ->
      Permutation order (seq 0 (lanes X)) -> pass_status order sp = Some e ->
      splits (None, Some e)
  | sp_unsplit sp order sv order' st order'' e :
      ran (lanes X) (walk_dest X) (setting g ins (sp_prop s) (in_pass X kills 0)) (vstart (fun _ => null)) (initial (root g)) sp ->
      Permutation order (seq 0 (lanes X)) -> pass_status order sp = None ->
      ran (lanes X) (walk_dest X) (populating (unkillable X) g) (vstart []) (initial (root g)) sv ->
      Permutation order' (seq 0 (lanes X)) -> pass_status order' sv = None ->
      ran (lanes X) sdest (splitting (in_pass X kills 1)) (vstart (sstart (data sp) (data sv))) (Visits (root g) None) st ->
      Permutation order'' (seq 0 (lanes X)) -> pass_status order'' st = Some e ->
      splits (None, Some e)
  | sp_pruned sp order sv order' st order'' sq order3 :
      ran (lanes X) (walk_dest X) (setting g ins (sp_prop s) (in_pass X kills 0)) (vstart (fun _ => null)) (initial (root g)) sp ->
      Permutation order (seq 0 (lanes X)) -> pass_status order sp = None ->
      ran (lanes X) (walk_dest X) (populating (unkillable X) g) (vstart []) (initial (root g)) sv ->
      Permutation order' (seq 0 (lanes X)) -> pass_status order' sv = None ->
      ran (lanes X) sdest (splitting (in_pass X kills 1)) (vstart (sstart (data sp) (data sv))) (Visits (root g) None) st ->
      Permutation order'' (seq 0 (lanes X)) -> pass_status order'' st = None ->
      ran (lanes X) (walk_dest X) (cpruning (in_pass X kills 2) (left_edges (data st))) (vstart []) (initial (root g)) sq ->
      Permutation order3 (seq 0 (lanes X)) ->
      splits (match split_status (data sv) (data st) order3 sq with
              | None => (Some (mkGraph (queued X sq) (vtx (data st)) (left_edges (data st)) (root g)), None)
              | Some e => (None, Some e)
              end).
End Split.
