(** Merging of equivalent vertices (src/merge.c, part of src/nodes.c and src/brig.c). *)
From Coq Require Import List Arith NArith Lia Bool Permutation.
From Verif Require Import Base Machine Env Hash Graph Visitor Walk Run Pass Fold Traverse Fabricate Containers Brigade Partition Filter.
Import ListNotations.

Set Implicit Arguments.

(** ** Reducing a list of nodes, src/nodes.c:457-500, [_cru_reduced_nodes].  A node is given by its
    vertex and its outgoing edges; its incoming edges are left out (see [fused_vertices]). *)
Definition node_view := (word * list redge)%type.

Fixpoint nodes_rest (p : prop) (ns : list node_view) (acc : word) (s : fst_) : word * fst_ :=
  match ns with
  | [] => (acc, s)
  | n :: ns' =>
      if has_err s then (acc, s)
      else
        let '(x, (s1, _, _)) := mapped_node p (fst n) [] (snd n) s in
        let (r, s2) := applied OfRed (reduce (vertex p) x acc) s1 in
        let s3 := destroy OfMap (m_free (vertex p)) x s2 in
        let s4 := destroy OfRed (r_free (vertex p)) acc s3 in
        nodes_rest p ns' r s4
  end.

Definition reduced_nodes (p : prop) (ns : list node_view) : outcome :=
  let s := no_values in
  let finish (r : word * fst_) := let (x, s) := finish_fold (r_free (vertex p)) (fst r) (snd r) in (x, err s) in
  match ns with
  | [] => match vacuous_case (vertex p) with None => (null, Some UNDVAC) | Some o => o end
  | n :: ns' =>
      match vacuous_case (vertex p) with
      | Some o =>
          let (x, s1) := applied OfRed o s in
          match reduction (vertex p) with
          | None => finish (x, raise (Some IER) s1)
          | Some _ => finish (nodes_rest p ns x s1)
          end
      | None =>
          if same_dtor (m_free (vertex p)) (r_free (vertex p)) then
            let '(x, (s1, _, _)) := mapped_node p (fst n) [] (snd n) s in
            match ns', reduction (vertex p) with
            | [], _ => finish (x, s1)
            | _, None => finish (x, raise (Some IER) s1)
            | _, Some _ => finish (nodes_rest p ns' x s1)
            end
          else (null, Some IER)
      end
  end.

(** A merger (include/cru/data_types.h, [cru_merger_s]) after [inferred_merger] (src/infer.c:300-364):
    the kernel's operations are None if they are empty, or else completed by [filled_prop] and
    [filled_fold].  The classifier is given separately by the property, the equality and the hash, and
    the order of edges is that of the graph given (src/merge.c:374). *)
Record merger := mkMerger {
  v_op : option prop;
  e_op : option fold;
  pruner : option (bool -> word -> bool * option error)
}.

Section Merge.
  Variable X : env.
  Variable g : graph word word.
  Variable mapped : nat -> outcome.
  Variable equal : word -> word -> bool.
  Variable phash : word -> N.
  Variable c : merger.
  (** g->g_sig.orders.e_order *)
  Variable eeq : word -> word -> bool.
  Variable ehash : word -> N.

  (** ** Classes.  The table of each worker holds lists of classes, and a class is a list of nodes. *)
  Definition mdata := nat -> jarray (list nat).

  Section Classify.
    Variable prop : nat -> word.

    (** src/merge.c:178-186: the first class whose first node [h] is not UNEQUAL (131-133) to [n] gets
        [n] as its second node ([assimilated], 52-69), or else there is a new class at the end. *)
    Fixpoint join (n : nat) (cs : list (list nat)) : list (list nat) :=
      match cs with
      | [] => [[n]]
      | [] :: cs' => [] :: join n cs'
      | (h :: t) :: cs' => if same equal prop n h then (h :: n :: t) :: cs' else (h :: t) :: join n cs'
      end.

    Definition merge_act (d : mdata) (n : nat) : mdata * option error :=
      let l := clane X phash prop n in
      let k := cslot X phash prop n in
      (upd d l (Containers.put (d l) k (join n (cell (d l) k))), None).

    (** [vertex_merging_task], src/merge.c:122-198, without errors and kills. *)
    Definition vertex_merging : @vst mdata nat -> npkt word -> option (_ * list (npkt word)) :=
      gwalk (unkillable X) (es g) merge_act (prop_hash phash prop).
  End Classify.

  (** All classes, in the order of the workers and of their tables. *)
  Definition classes (d : mdata) : list (list nat) :=
    flat_map (fun l => flat_map snd (d l)) (seq 0 (lanes X)).

  (** ** Composite vertices.  [vs] are the fields vertex of all nodes.  src/merge.c:98-104: the members'
      vertices are destroyed and set to NULL ([_cru_free_vertices], src/nodes.c), and the first one
      becomes the composite vertex.  The destructor is assumed not to raise errors.  After an error of
      one class, the model continues with the next ones, whereas the code does not call any more user
      functions; the only difference is in which errors can be reported. *)
  Definition fuse_class (f : (nat -> word) * list error) (k : list nat) : (nat -> word) * list error :=
    let (vs, errs) := f in
    match v_op c with
    | None => (* 99 *)
        match k with _ :: _ :: _ => (vs, IER :: errs) | _ => f end
    | Some p =>
        let (w, e) := reduced_nodes p (map (fun n => (vs n, map (fun x => (fst x, vs (snd x))) (es g n))) k) in
        (fun m => if existsb (Nat.eqb m) k then match k with h :: _ => if m =? h then w else null | [] => null end
                  else vs m,
         match e with Some x => x :: errs | None => errs end)
    end.

  (** [fuse_vertices], src/merge.c:76-108, of all workers.  They run at the same time, but [cs] is any
      sequence of the classes. *)
  Definition fused_vertices (cs : list (list nat)) : (nat -> word) * list error :=
    fold_left fuse_class cs (vx g, []).

  (** n->class after that, src/merge.c:105-106. *)
  Definition head_of (cs : list (list nat)) (n : nat) : nat :=
    match find (existsb (Nat.eqb n)) cs with Some (h :: _) => h | _ => n end.

  (** If the vertex operation has an operation on incoming edges, it is applied to n->edges_in
      (src/nodes.c:403), but at this time that field has the value SCATTERED (src/merge.c:177), i.e.
      (void * ) 2, because it shares its place in memory with class_mark (src/nodes.h:55-62). *)
  Definition reads_mark : bool :=
    match v_op c with Some p => negb (empty_fold (incident p)) | None => false end.

  (** ** Edges *)

  (** src/merge.c:318-323, the labels of a single member: *)
  Definition member_labels (n : nat) : table :=
    fold_left (fun q x => record_label eeq ehash (judy X) (fst x) q) (es g n) [].
  (** 316-325, those of all members, and all edges, each pushed in front of the others: *)
  Definition class_labels (k : list nat) : table :=
    fold_left (fun t n => merge eeq t (member_labels n)) k [].
  Definition gathered (k : list nat) : list (word * nat) :=
    fold_left (fun e n => rev (es g n) ++ e) k [].

  (** [filter_edges], src/merge.c:248-283: the edges that are kept, the calls to the pruner with their
      operands, and the error.  [s] is one less than the number of members. *)
  Definition flag (t : table) (s : nat) (l : word) : bool :=
    if s =? 0 then true else multiplicity eeq ehash (judy X) l t =? s.

  Fixpoint filter_edges (f : bool -> word -> bool * option error) (t : table) (s : nat) (l : list (word * nat))
    : list (word * nat) * list (bool * word) * option error :=
    match l with
    | [] => ([], [], None)
    | x :: l' =>
        let b := flag t s (fst x) in
        match f b (fst x) with
        | (_, Some e) => ([], [(b, fst x)], Some e)
        | (keep, None) =>
            let '(r, a, e) := filter_edges f t s l' in
            (if keep then x :: r else r, (b, fst x) :: a, e)
        end
    end.

  Definition filtered_edges (k : list nat) : list (word * nat) * list (bool * word) * option error :=
    match pruner c with
    | None => (gathered k, [], None)
    | Some f => filter_edges f (class_labels k) (length k - 1) (gathered k)
    end.

  (** [_cru_reduced_brigade], src/brig.c:347-385, by class. *)
  Definition reduced_brigade (m : fold) (vs : nat -> word) (cls : nat -> nat) (v : word)
             (bs : list (list (word * nat))) : list (word * nat) * list error :=
    fold_left (fun r b =>
      match b with
      | [] => (fst r, IER :: snd r)
      | x :: _ =>
          let (w, s) := reduced_edges m v (map (fun y => (fst y, vs (cls (snd y)))) b) no_values in
          ((w, cls (snd x)) :: fst r, match err s with Some e => e :: snd r | None => snd r end)
      end) bs ([], []).

  (** [fused_edges], src/merge.c:294-332: the edges, and the possible errors. *)
  Definition fused_edges (vs : nat -> word) (cls : nat -> nat) (k : list nat) : list (word * nat) * list error :=
    let '(e, _, x) := filtered_edges k in
    match x with
    | Some err => ([], [err])
    | None =>
        let key := fun y : word * nat => N.of_nat (cls (snd y)) in
        match e_op c with
        | None => (* 330, src/brig.c:310-336 by class *)
            (map (fun y => (fst y, cls (snd y))) (fst (deduplicated_edges eeq (judy X) ehash fst key e)), [])
        | Some m => reduced_brigade m vs cls (match k with h :: _ => vs h | [] => null end) (marshalled (judy X) key e)
        end
    end.

  (** edges_out of all nodes after [edge_merging_task], src/merge.c:347-385. *)
  Definition merged_edges (cs : list (list nat)) (vs : nat -> word) (n : nat) : list (word * nat) :=
    match find (fun k => match k with h :: _ => n =? h | [] => false end) cs with
    | Some k => fst (fused_edges vs (head_of cs) k)
    | None => []
    end.
  Definition edge_errors (cs : list (list nat)) (vs : nat -> word) : list error :=
    flat_map (fun k => snd (fused_edges vs (head_of cs) k)) cs.

  (** [_cru_pruning_task], src/stretch.c:360-404, by class: the nodes in the queue. *)
  Definition merge_pruning (X' : env) (prop : nat -> word) (o : nat -> list (word * nat))
    : @vst (list nat) nat -> npkt word -> option (_ * list (npkt word)) :=
    gwalk X' o collect (prop_hash phash prop).

  (** ** The operation: src/entry.c:835-867, [cru_merged], with src/merge.c:505-537 and 455-497, on a
      valid graph.  Back edges are not modelled.  [kills] are the calls of [cru_kill] in the pass 0,
      which sets the properties, and the pass 1, which does the pruning.  If any is called in the pass
      that fuses edges, it has no effect, because [_cru_reset] clears the router's flag
      (src/route.c:512); one in [vertex_merging_task] is not modelled. The result is [Crashed] if
      the program accesses memory that it doesn't own. *)
  Inductive verdict := Crashed | Done (r : result (option (graph word word))).

  Variable kills : nat -> nat -> bool.
  Inductive merged_classes : (nat -> word) -> list (list nat) -> verdict -> Prop :=
  | mc_crash prop cs : reads_mark = true -> merged_classes prop cs Crashed
  | mc_vertex_error prop cs e :
      reads_mark = false -> In e (snd (fused_vertices cs)) -> merged_classes prop cs (Done (None, Some e))
  | mc_edge_error prop cs e :
      reads_mark = false -> snd (fused_vertices cs) = [] ->
      In e (edge_errors cs (fst (fused_vertices cs))) -> merged_classes prop cs (Done (None, Some e))
  | mc_pruned prop cs sq order :
      reads_mark = false -> snd (fused_vertices cs) = [] -> edge_errors cs (fst (fused_vertices cs)) = [] ->
      ran (lanes X) (gwalk_dest X (prop_hash phash prop))
          (merge_pruning (in_pass X kills 1) prop (merged_edges cs (fst (fused_vertices cs)))) (vstart [])
          (initial (root g)) sq ->
      Permutation order (seq 0 (lanes X)) ->
      merged_classes prop cs
        (Done (match pass_status order sq with
               | None => (Some (mkGraph (data sq) (fst (fused_vertices cs)) (merged_edges cs (fst (fused_vertices cs))) (root g)), None)
               | Some e => (None, Some e)
               end)).

  Inductive merges : verdict -> Prop :=
  | mg_unprop s order e :
      ran (lanes X) (walk_dest X) (property_setting g mapped (in_pass X kills 0)) (vstart (fun _ => null)) (initial (root g)) s ->
      Permutation order (seq 0 (lanes X)) -> pass_status order s = Some e ->
      merges (Done (None, Some e))
  | mg_classes s order s' order' cs v :
      ran (lanes X) (walk_dest X) (property_setting g mapped (in_pass X kills 0)) (vstart (fun _ => null)) (initial (root g)) s ->
      Permutation order (seq 0 (lanes X)) -> pass_status order s = None ->
      ran (lanes X) (gwalk_dest X (prop_hash phash (data s))) (vertex_merging (data s)) (vstart (fun _ => [])) (initial (root g)) s' ->
      Permutation order' (seq 0 (lanes X)) -> pass_status order' s' = None ->
      Permutation cs (classes (data s')) ->
      merged_classes (data s) cs v -> merges v.
End Merge.
