(** What becomes of the edges and vertices declared by [cru_stretch] when memory is exhausted or errors are raised: src/entry.c:324-362,
    src/emap.c, src/scatter.c:388-438, src/edges.c:44-80, 155-197, src/nodes.c:37-63 and [scattered] in src/stretch.c:52-97. *)
From Coq Require Import List Arith NArith Bool.
Import ListNotations.

Set Implicit Arguments.

(** Labels and vertices are words, zero being a null pointer. *)
Inductive value := Label (n : N) | Vertex (n : N).

(** An edge with its terminal vertex or the lack of one embedded, src/edges.h:49-58 *)
Record edge := mkEdge { label : N; remote : N }.
Definition edge_map := list (option edge * option edge).        (* ante and post, src/emap.h *)

Record state := mkState {
  tick : nat;                           (* the number of attempted allocations *)
  err : bool;                           (* whether there is a non-zero error code *)
  freed : list value                    (* whatever destructors have been applied to *)
}.

(** What an expander does (a function supplied by the user): calls of cru_stretch, and assignments to the error code *)
Inductive command := Stretch (label_in new_vertex label_out : N) | Raise.

Section Memory.
  Variable enough : nat -> bool.        (* the outcome of each attempted allocation *)
  Variables efree vfree : bool.         (* whether there are destructors of labels and vertices *)

  Definition raise (s : state) : state := mkState (tick s) true (freed s).
  Definition malloc (s : state) : bool * state := (enough (tick s), mkState (S (tick s)) (err s) (freed s)).
  Definition free_label (l : N) (s : state) : state :=
    if efree && negb (l =? 0)%N then mkState (tick s) (err s) (Label l :: freed s) else s.
  Definition free_vertex (v : N) (s : state) : state :=
    if vfree && negb (v =? 0)%N then mkState (tick s) (err s) (Vertex v :: freed s) else s.

  (** [_cru_free_edges_and_termini] and [_cru_free_edges_and_labels] for a list of at most one edge, src/edges.c:105-117, 155-197 *)
  Definition free_termini (e : option edge) (s : state) : state :=
    match e with Some e => free_vertex (remote e) (free_label (label e) s) | None => s end.
  Definition free_labels (e : option edge) (s : state) : state :=
    match e with Some e => free_label (label e) s | None => s end.

  (** [_cru_edge] with no remote node nor next edge, src/edges.c:44-80 *)
  Definition edge_of (l v : N) (s : state) : option edge * state :=
    let a s := (None, free_label l (free_vertex v s)) in
    if err s then a s
    else let (ok, s) := malloc s in if ok then (Some (mkEdge l v), s) else a (raise s).

  (** [_cru_free_map], src/emap.c:73-91 *)
  Fixpoint free_map (m : edge_map) (s : state) : state :=
    match m with [] => s | (a, p) :: m => free_map m (free_labels p (free_termini a s)) end.

  (** [_cru_edge_map], src/emap.c:39-65: the new map and the contents of [n] afterwards *)
  Definition map_of (a p : edge) (n : edge_map) (s : state) : option edge_map * edge_map * state :=
    let (ok, s) := malloc s in
    if ok then (Some ((Some a, Some p) :: n), [], s)
    else (None, [], free_labels (Some p) (free_termini (Some a) (free_map n (raise s)))).

  (** [cru_stretch] in its context, src/entry.c:324-362, where [e] is *_cru_get_edge_maps () *)
  Definition stretch (label_in new_vertex label_out : N) (e : edge_map) (s : state) : edge_map * state :=
    match edge_of label_in new_vertex s with
    | (None, s) => (e, free_label label_out s)                                  (* goto b *)
    | (Some a, s) =>
        match edge_of label_out 0 s with
        | (None, s) => (e, free_termini (Some a) s)
        | (Some p, s) => match map_of a p e s with (Some t, _, s) => (t, s) | (None, e, s) => (e, s) end
        end
    end.

  Fixpoint expand (c : list command) (e : edge_map) (s : state) : edge_map * state :=
    match c with
    | [] => (e, s)
    | Stretch a v b :: c => let (e, s) := stretch a v b e s in expand c e s
    | Raise :: c => expand c e (raise s)
    end.

  (** The loop in [_cru_scatter_and_stretch], src/scatter.c:405-437, for well formed maps: the edges to new nodes, each with the
      label, the vertex of the node and the label of the edge from it.  The node and the packet are allocated (the other
      operations can't fail).  Packets come from a pool if there are any in it (src/pack.c); then the allocation succeeds. *)
  Fixpoint scatter (e : edge_map) (l : list (N * N * N)) (s : state) : list (N * N * N) * state :=
    match e with
    | [] => (l, s)
    | (a, p) :: e' =>
        if err s then (l, free_map e s)
        else match a, p with
             | Some a', Some p' =>
                 let (ok, s) := malloc s in                                     (* _cru_node_of without destructors *)
                 if negb ok then (l, free_map e (raise s))
                 else let (ok, s) := malloc s in                                (* _cru_packet_of *)
                      if ok then scatter e' ((label a', remote a', label p') :: l) s
                      else                                                      (* the node is freed with the edge from it *)
                        (l, free_map ((a, None) :: e') (free_labels p (raise s)))
             | _, _ => (l, free_map e s)
             end
    end.

  (** [scattered], src/stretch.c:79-96, after the node has been sent to the workers of adjacent nodes: given the labels of the edges,
      what the expander does and whether it passes (and doesn't raise an error), the labels of the edges kept, the edges to new
      nodes, and the contents of *new_edge_map afterwards *)
  Fixpoint scattered (edges : list (N * (list command * bool))) (m : edge_map) (l : list (N * N * N)) (s : state)
    : list N * list (N * N * N) * edge_map * state :=
    match edges with
    | [] => ([], l, m, s)
    | (b, (c, deletable)) :: rest =>
        if err s then (map fst edges, l, m, s)
        else
          let (m, s) := expand c [] s in
          if err s then (map fst edges, l, m, s)
          else
            let (l', s) := scatter m [] s in
            let l := l' ++ l in
            if (if err s then false else deletable) then scattered rest [] l (free_label b s)
            else let '(k, l, m, s) := scattered rest [] l s in (b :: k, l, m, s)
    end.
End Memory.
