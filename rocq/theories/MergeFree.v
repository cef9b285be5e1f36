(** What becomes of the vertices, edge labels and properties of a graph being merged, including when user functions fail:
    src/merge.c:52-497, src/stretch.c:204-245, src/brig.c:310-385, src/nodes.c:76-185, src/props.c:100-170.  File Merge.v is about the
    result of merging.  Here, values are followed individually until they are destroyed, and it is of no importance what they are. *)
From Coq Require Import List Arith NArith Lia Bool Permutation.
From Verif Require Import Base Machine Env Hash Graph Visitor Walk Run Fold Traverse Pass Partition Brigade.
Import ListNotations.

Set Implicit Arguments.

(** Values: the vertex of a node, the label of its i-th edge, and its property, and those made by merging, i.e., the vertex of the
    class with the given first node, and the label of its j-th edge *)
Inductive item := OV (n : nat) | OL (n i : nat) | PR (n : nat) | NV (n : nat) | NL (n j : nat).

(** Destructors are identified by their addresses.  The merger is one that was inferred (src/infer.c:305-364). *)
Record mergement := mkMergement {
  v_free : option nat;                  (* r->ro_sig.destructors.v_free, that of the graph given *)
  e_free : option nat;
  m_free : option nat;                  (* r->merger.me_classifier.cl_prop.vertex.m_free *)
  kv_free : option nat;                 (* r->merger.me_kernel.v_op.vertex.r_free *)
  ke_free : option nat;                 (* r->merger.me_kernel.e_op.r_free *)
  fusing : bool;                        (* whether the vertex operation's map is other than _cru_undefined_top *)
  reducing : bool;                      (* whether the edge operation is other than an empty fold *)
  (* how user functions turn out *)
  v_fails : list nat -> bool;           (* whether the reduction of the vertices of a class raises an error *)
  rejects : item -> bool;               (* whether the pruner rejects an edge label, or an error was raised before *)
  p_fails : list nat -> bool;           (* whether the pruner raises an error *)
  e_fails : list item -> bool;          (* whether the reduction of a bucket of edge labels raises an error *)
  repeats : item -> bool;               (* whether a label is removed as a duplicate *)
  judy : bool;
  terminus : item -> N;                 (* the class of the terminus of the edge having the label *)
  reached : nat -> bool                 (* whether a node is visited by the pruning task *)
}.

(** ** Vertex classifying, src/merge.c:118-205 *)

(** What a worker has: the classes in its table, s->deletions, and whether *err is non-zero.  The order of classes in the table isn't
    represented. *)
Record wdata := mkW { wclasses : list (list nat); wdels : list nat; werr : bool }.

(** A node becomes the second one of an existing class ([assimilated], 48-69) or makes a new one. *)
Fixpoint place (n i : nat) (cs : list (list nat)) : list (list nat) :=
  match cs, i with
  | [], _ => [[n]]
  | [] :: cs', _ => [] :: place n i cs'
  | (h :: t) :: cs', 0 => (h :: n :: t) :: cs'
  | k :: cs', S i' => k :: place n i' cs'
  end.

Section Classify.
  Variable X : env.
  Variable phash : word -> N.
  Variable prop : nat -> word.
  (** The class found for a node by comparisons, and whether one of these raises an error.  After that, UNEQUAL (131-133) is false,
      so that the node is added to the class reached. *)
  Variable found : wdata -> nat -> nat * bool.

  (** 160-192.  After an error, nodes are culled, with their edges being scattered as usual ([_cru_cull], src/stretch.c:204-245).
      Memory is not exhausted, and nobody kills the operation. *)
  Definition classify (d : nat -> wdata) (n : nat) : (nat -> wdata) * option error :=
    let l := clane X phash prop n in
    let w := d l in
    (upd d l (if werr w then mkW (wclasses w) (n :: wdels w) true
              else let (i, e) := found w n in mkW (place n i (wclasses w)) (wdels w) e), None).

  Definition classifying (g : graph word word) : @vst (nat -> wdata) nat -> npkt word -> option (_ * list (npkt word)) :=
    gwalk (unkillable X) (es g) classify (prop_hash phash prop).
  Definition unclassified : nat -> wdata := fun _ => mkW [] [] false.
End Classify.

(** ** Memory *)
Record mem := mkMem {
  vert : nat -> option item;            (* n->vertex *)
  outs : nat -> list item;              (* labels in n->edges_out *)
  prp : nat -> option item;             (* n->vertex_property *)
  ledger : list (option nat * item);    (* calls of destructors, latest first.  None means that there is no destructor, so that the
                                           value is given up without a call.  If a value is NULL then there is no call either. *)
  made : list item                      (* values that have existed *)
}.
Definition opt (x : option item) : list item := match x with Some y => [y] | None => [] end.
Definition destroy (d : option nat) (xs : list item) (m : mem) : mem :=
  mkMem (vert m) (outs m) (prp m) (map (pair d) xs ++ ledger m) (made m).
Definition set_vert (n : nat) (x : option item) (m : mem) : mem := mkMem (upd (vert m) n x) (outs m) (prp m) (ledger m) (made m).
Definition set_outs (n : nat) (x : list item) (m : mem) : mem := mkMem (vert m) (upd (outs m) n x) (prp m) (ledger m) (made m).
Definition set_prp (n : nat) (x : option item) (m : mem) : mem := mkMem (vert m) (outs m) (upd (prp m) n x) (ledger m) (made m).
Definition make (xs : list item) (m : mem) : mem := mkMem (vert m) (outs m) (prp m) (ledger m) (xs ++ made m).

(** [_cru_free_vertices], src/nodes.c:134-155 *)
Fixpoint free_vertices (d : option nat) (ns : list nat) (m : mem) : mem :=
  match ns with [] => m | n :: ns' => free_vertices d ns' (set_vert n None (destroy d (opt (vert m n)) m)) end.
(** [_cru_free_outgoing_edges_and_labels], src/nodes.c:163-185 *)
Fixpoint free_outs (d : option nat) (ns : list nat) (m : mem) : mem :=
  match ns with [] => m | n :: ns' => free_outs d ns' (set_outs n [] (destroy d (outs m n) m)) end.
(** [_cru_unpropped], src/props.c:130-144 *)
Fixpoint unprop (d : option nat) (ns : list nat) (m : mem) : mem :=
  match ns with [] => m | n :: ns' => unprop d ns' (set_prp n None (destroy d (opt (prp m n)) m)) end.
(** [_cru_free_nodes], src/nodes.c:76-99.  Nodes themselves are freed too. *)
Fixpoint free_nodes (dv de : option nat) (ns : list nat) (m : mem) : mem :=
  match ns with
  | [] => m
  | n :: ns' => free_nodes dv de ns' (set_vert n None (destroy dv (opt (vert m n)) (set_outs n [] (destroy de (outs m n) m))))
  end.
(** Edges taken from all members, src/merge.c:317-325; the labels, in the order of the list e *)
Fixpoint take_outs (ns : list nat) (e : list item) (m : mem) : list item * mem :=
  match ns with [] => (e, m) | n :: ns' => take_outs ns' (rev (outs m n) ++ e) (set_outs n [] m) end.

Section Merging.
  Variable c : mergement.

  (** One class in [fuse_vertices], src/merge.c:96-107.  Intermediate results of the reduction are dealt with in [_cru_reduced_nodes]
      (src/nodes.c:457-505), and if it fails, it returns NULL having freed them. *)
  Definition fuse_class (k : list nat) (err : bool) (m : mem) : mem * bool :=
    let err0 := err || negb (fusing c) && (2 <=? length k) in
    if err0 || fusing c then
      match k with
      | [] => (m, true)
      | h :: _ =>
          if err0 || v_fails c k then (free_vertices (v_free c) k m, true)
          else (set_vert h (Some (NV h)) (free_vertices (v_free c) k (make [NV h] m)), false)
      end
    else (m, false).

  (** [_cru_reduced_brigade], src/brig.c:345-385: the new labels, the latest one first, and whether there was an error *)
  Fixpoint reduce_brigade (h j : nat) (b : list (list item)) (err : bool) (result : list item) (m : mem) : list item * bool * mem :=
    match b with
    | [] => (result, err, m)
    | x :: b' =>
        if err || e_fails c x then reduce_brigade h (S j) b' true result (destroy (e_free c) x m)
        else reduce_brigade h (S j) b' false (NL h j :: result) (destroy (e_free c) x (make [NL h j] m))
    end.

  (** [fused_edges], src/merge.c:294-332: the labels of the edges returned, and whether there was an error *)
  Definition fused_edges (k : list nat) (m : mem) : list item * bool * mem :=
    let h := hd 0 k in
    let (e, m1) := take_outs k [] m in
    (* filter_edges, 248-283 *)
    let kept := filter (fun x => negb (rejects c x)) e in
    let m2 := destroy (e_free c) (filter (rejects c) e) m1 in
    if p_fails c k then ([], true, destroy (e_free c) kept m2)
    else
    if reducing c then
      match reduce_brigade h 0 (marshalled (judy c) (terminus c) kept) false [] m2 with
      | (result, true, m3) => ([], true, destroy (ke_free c) result m3)
      | (result, false, m3) => (result, false, m3)
      end
    else (* _cru_deduplicated_brigade, src/brig.c:310-336; orders raise no errors here *)
      (filter (fun x => negb (repeats c x)) kept, false, destroy (e_free c) (filter (repeats c) kept) m2).

  (** One class in [edge_merging_task], src/merge.c:371-383 *)
  Definition merge_class_edges (k : list nat) (err : bool) (m : mem) : mem * bool :=
    if err then (free_outs (e_free c) k m, true)
    else match fused_edges k m with (r, e, m') => (set_outs (hd 0 k) r m', e) end.

  (** ** The whole of [merge], src/merge.c:455-497, after the first pass up to [fuse_vertices] *)
  Inductive phase := Fusing | Edges | Demerging | Finished.

  Record st := mkSt {
    ph : phase;
    todo : list (nat * list nat);       (* s->deferred of all workers s, each class being paired with the number of the worker; in
                                           the phase Fusing, only those that aren't fused yet *)
    fused : list (nat * list nat);      (* those that are *)
    dels : list nat;                    (* s->deletions of all workers *)
    surv : list nat;                    (* s->survivors of all workers *)
    werrs : nat -> bool;                (* *err of each worker *)
    failed : bool;                      (* *err of the launching thread *)
    queue : list nat;                   (* g->nodes *)
    memory : mem
  }.

  Definition any_error (lanes : nat) (s : st) : bool := existsb (werrs s) (seq 0 lanes).

  (** Workers run concurrently.  The order in which any of them gets to its classes is arbitrary here. *)
  Inductive step (lanes : nat) : st -> st -> Prop :=
  | fuse_step i k l1 l2 s m e : ph s = Fusing -> i < lanes -> todo s = l1 ++ (i, k) :: l2 -> fuse_class k (werrs s i) (memory s) = (m, e) ->
      step lanes s (mkSt Fusing (l1 ++ l2) ((i, k) :: fused s) (dels s) (surv s) (upd (werrs s) i e) (failed s) (queue s) m)
  | fused_step s : ph s = Fusing -> todo s = [] ->
      (* 473-480: if there is an error, go on with demerging *)
      step lanes s (mkSt (if any_error lanes s then Demerging else Edges) (fused s) [] (dels s) (surv s) (fun _ => false)
                         (any_error lanes s) (queue s) (memory s))
  | edge_step i k l1 l2 s m e : ph s = Edges -> i < lanes -> todo s = l1 ++ (i, k) :: l2 -> merge_class_edges k (werrs s i) (memory s) = (m, e) ->
      step lanes s (mkSt Edges (l1 ++ l2) (fused s) (dels s) (k ++ surv s) (upd (werrs s) i e) (failed s) (queue s) m)
  | edges_step s : ph s = Edges -> todo s = [] ->
      (* 484-487, [_cru_pruning_task], src/stretch.c:360-404: nodes visited are moved from the survivors to the queue *)
      step lanes s (mkSt Demerging [] (fused s) (dels s)
                         (if any_error lanes s then surv s else filter (fun n => negb (reached c n)) (surv s)) (fun _ => false)
                         (any_error lanes s) (if any_error lanes s then [] else filter (reached c) (surv s)) (memory s))
  (* [demerge_vertices], 207-234 *)
  | undefer_step i k l1 l2 s : ph s = Demerging -> todo s = l1 ++ (i, k) :: l2 ->
      step lanes s (mkSt Demerging (l1 ++ l2) (fused s) (dels s) (surv s) (werrs s) (failed s) (queue s)
                         (free_nodes (kv_free c) (e_free c) k (unprop (m_free c) k (memory s))))
  | undelete_step n l1 l2 s : ph s = Demerging -> dels s = l1 ++ n :: l2 ->
      step lanes s (mkSt Demerging (todo s) (fused s) (l1 ++ l2) (surv s) (werrs s) (failed s) (queue s)
                         (free_nodes (v_free c) (e_free c) [n] (unprop (m_free c) [n] (memory s))))
  (* [demerge_edges], 394-416 *)
  | unsurvive_step n l1 l2 s : ph s = Demerging -> surv s = l1 ++ n :: l2 ->
      step lanes s (mkSt Demerging (todo s) (fused s) (dels s) (l1 ++ l2) (werrs s) (failed s) (queue s)
                         (free_nodes (kv_free c) (match ke_free c with Some d => Some d | None => e_free c end) [n]
                                     (unprop (m_free c) [n] (memory s))))
  | demerged_step s : ph s = Demerging -> todo s = [] -> dels s = [] -> surv s = [] ->
      (* [_cru_unset_properties], src/props.c:148-170, from 532; the nodes are none if there was an error *)
      step lanes s (mkSt Finished [] (fused s) [] [] (werrs s) (failed s) (queue s) (unprop (m_free c) (queue s) (memory s))).
End Merging.

(** At the beginning, all nodes [ns] have a vertex, a property, and as many edges as the function says. *)
Definition labels_of (degree : nat -> nat) (n : nat) : list item := map (OL n) (seq 0 (degree n)).
Definition full (degree : nat -> nat) (ns : list nat) : mem :=
  mkMem (fun n => Some (OV n)) (labels_of degree) (fun n => Some (PR n)) []
        (flat_map (fun n => OV n :: labels_of degree n ++ [PR n]) ns).
(** [ds] is the result of the first pass. *)
Definition deferred (lanes : nat) (ds : nat -> wdata) : list (nat * list nat) :=
  flat_map (fun i => map (pair i) (wclasses (ds i))) (seq 0 lanes).
Definition deleted (lanes : nat) (ds : nat -> wdata) : list nat := flat_map (fun i => wdels (ds i)) (seq 0 lanes).
Definition begin (lanes : nat) (ds : nat -> wdata) (degree : nat -> nat) (ns : list nat) : st :=
  mkSt Fusing (deferred lanes ds) [] (deleted lanes ds) [] (fun i => werr (ds i)) false [] (full degree ns).
