(** Filtering of graphs (src/filters.c) and thinning (src/edges.c:372-392, src/brig.c:107-131). *)
From Coq Require Import List Arith NArith Lia Bool Permutation.
From Verif Require Import Base Machine Env Hash Graph Visitor Pass Walk Run Brigade Fold Fabricate.
Import ListNotations.

Set Implicit Arguments.

(** ** Lists of edges at a node *)

Section Edges.
  Context {A : Type}.

  (** The test of a single edge, as in MAP (src/filters.c:275): the result of the map, and the error
      raised by the map or, if there is none, by the destructor of its result. *)
  Variable test : A -> outcome.
  (** The same for a list of edges: [_cru_reduced_edges] and the destructor of its result. *)
  Variable btest : list A -> outcome.
  (** The thinner: whether the first operand precedes the second, and an error. *)
  Variable thin : A -> A -> bool * option error.

  (** src/filters.c:284-288: the passing edges are put in front of [p], the others in front of [c]. *)
  Fixpoint individually_loop (l p c : list A) (e : option error) : list A * list A * option error :=
    match l with
    | [] => (p, c, e)
    | x :: l' =>
        match e with
        | Some _ => individually_loop l' p (x :: c) e
        | None => let (w, e') := test x in
                  if is_null w then individually_loop l' p (x :: c) e'
                  else individually_loop l' (x :: p) c e'
        end
    end.

  (** src/edges.c:387-390: the minimum so far is [m] at position [j]; the next position is [i]. *)
  Fixpoint scan {B} (t : B -> B -> bool * option error) (i : nat) (j : nat) (m : B) (l : list B)
    : nat * B * option error :=
    match l with
    | [] => (j, m, None)
    | x :: l' =>
        match t x m with
        | (_, Some e) => (j, m, Some e)
        | (true, None) => scan t (S i) i x l'
        | (false, None) => scan t (S i) j m l'
        end
    end.

  (** [_cru_minimum_edge], src/edges.c:372-392, and likewise [_cru_minimum_bucket],
      src/brig.c:107-131: the minimum is removed from the list. *)
  Definition pick {B} (t : B -> B -> bool * option error) (l : list B) : option B * list B * option error :=
    match l with
    | [] => (None, [], None)
    | x :: l' =>
        match scan t 1 0 x l' with
        | (_, _, Some e) => (None, l, Some e)
        | (i, m, None) => (Some m, firstn i l ++ skipn (S i) l, None)
        end
    end.

  (** [individually_filtered], src/filters.c:261-297: the edges retained and those added to the
      disconnections. *)
  Definition individually_filtered (thinned : bool) (l : list A) : list A * list A * option error :=
    let '(p, c, e) := individually_loop l [] [] None in
    if negb thinned then (p, c, e)
    else match p with
         | [] => ([], c, e)
         | _ =>
             match e with
             | Some _ => ([], p ++ c, e)
             | None => let '(m, p', e') := pick thin p in
                       (match m with Some x => [x] | None => [] end, p' ++ c, e')
             end
         end.

  (** src/filters.c:326-334 *)
  Fixpoint jointly_loop (bs : list (list A)) (p c : list A) (e : option error) : list A * list A * option error :=
    match bs with
    | [] => (p, c, e)
    | b :: bs' =>
        match e with
        | Some _ => jointly_loop bs' p (b ++ c) e
        | None => let (w, e') := btest b in
                  if is_null w then jointly_loop bs' p (b ++ c) e'
                  else jointly_loop bs' (b ++ p) c e'
        end
    end.

  (** [jointly_filtered], src/filters.c:307-338 *)
  Definition jointly_filtered (bs : list (list A)) : list A * list A * option error :=
    jointly_loop bs [] [] None.

  (** src/filters.c:364-375 *)
  Fixpoint passing_loop (bs p : list (list A)) (c : list A) (e : option error)
    : list (list A) * list A * option error :=
    match bs with
    | [] => (p, c, e)
    | b :: bs' =>
        match e with
        | Some _ => passing_loop bs' p (b ++ c) e
        | None => let (w, e') := btest b in
                  if is_null w then passing_loop bs' p (b ++ c) e'
                  else passing_loop bs' (b :: p) c e'
        end
    end.

  (** src/brig.c:126-128: buckets are compared by their first edges. *)
  Definition thin_bucket (b b' : list A) : bool * option error :=
    match b, b' with
    | x :: _, y :: _ => thin x y
    | _, _ => (false, Some IER)
    end.

  (** [jointly_thinned], src/filters.c:345-383 *)
  Definition jointly_thinned (bs : list (list A)) : list A * list A * option error :=
    let '(p, c, e) := passing_loop bs [] [] None in
    match p with
    | [] => ([], c, e)
    | _ =>
        match e with
        | Some _ => ([], concat p ++ c, e)
        | None => let '(m, p', e') := pick thin_bucket p in
                  (match m with Some b => b | None => [] end, concat p' ++ c, e')
        end
    end.
End Edges.

(** ** Filters (include/cru/data_types.h, [cru_filter_s], after [_cru_inferred_filter],
    src/infer.c:503-565).  Edges are pairs of a label and the node they lead to. *)

Inductive edge_test :=
| Individual (test : nat -> word * nat -> outcome)
| Joint (order : option ((word -> N) * (word -> word -> bool))) (test : nat -> list (word * nat) -> outcome).

Record filt := mkFilt {
  v_test : option (nat -> outcome);     (* fi_kernel.v_op, None if empty *)
  e_test : option edge_test;            (* fi_kernel.e_op and fi_order, None if empty *)
  thinner : option (word * nat -> word * nat -> bool * option error);
  backwards : bool                      (* fi_zone.backwards *)
}.

Definition is_some {A} (o : option A) : bool := match o with Some _ => true | None => false end.

(** src/infer.c:541-542 and 547-548, for a filter with no fi_order or with an e_op: if there is a
    thinner, then it applies at all vertices unless there is a test of vertices, and to all edges
    unless there is a test of edges. *)
Definition inferred (f : filt) : filt :=
  match thinner f with
  | None => f
  | Some _ =>
      mkFilt (match v_test f with None => Some (fun _ => (null, None)) | v => v end)
             (match e_test f with None => Some (Individual (fun _ _ => (1%N, None))) | e => e end)
             (thinner f) (backwards f)
  end.

(** An element of the list n->edges_out.  Its address is [n] and the position it had at first. *)
Definition tedge := (nat * (word * nat))%type.
Definition tag : tedge -> nat := fst.
Definition label (x : tedge) : word := fst (snd x).
Definition remote (x : tedge) : nat := snd (snd x).
Definition tagged (l : list (word * nat)) : list tedge := combine (seq 0 (length l)) l.

Section Filter.
  Variable X : env.
  Variable g : graph word word.
  (** n->edges_in, made by the full duplexing task (see C45). *)
  Variable ins : nat -> list (word * nat).
  Variable f : filt.
  (** The initial node of the zone, src/filters.c:590.  A forward traversal starts from the base
      node (608). *)
  Variable init : nat.

  (** [is_deletable], src/filters.c:137-155; the outcome includes the error raised by the
      destructor, if any. *)
  Definition is_deletable (n : nat) : bool * option error :=
    match v_test f with
    | None => (false, None)
    | Some t => let (w, e) := t n in (is_null w, e)
    end.

  Definition start : nat := if backwards f then init else root g.
  Definition onward (n : nat) : list (word * nat) := if backwards f then ins n else es g n.

  (** [filtered], src/filters.c:396-426, with no error before. *)
  Definition filtered (n : nat) (l : list tedge) : list tedge * list tedge * option error :=
    let t := match thinner f with Some t => fun x y => t (snd x) (snd y) | None => fun _ _ => (false, None) end in
    match e_test f with
    | None => (l, [], None)
    | Some (Individual test) =>
        individually_filtered (fun x => test n (snd x)) t (is_some (thinner f)) l
    | Some (Joint order test) =>
        let b := match order with
                 | None => bundled_null l
                 | Some (h, r) => rallied (judy X) (fun x => h (label x)) (fun y x => r (label y) (label x)) l
                 end in
        let test b := test n (map snd b) in
        if is_some (thinner f) then jointly_thinned test t b else jointly_filtered test b
    end.

  (** src/filters.c:521-524 *)
  Definition filtered_node (n : nat) (l : list tedge) : list tedge * list tedge * option error :=
    if negb (is_some (thinner f)) then filtered n l
    else match is_deletable n with
         | (_, Some e) => (l, [], Some e)
         | (true, None) => filtered n l
         | (false, None) => (l, [], None)
         end.

  (** [node_filtering_task], src/filters.c:164-216.  The set source->reachable is always null,
      because the plan of a filtering router (src/route.c:316-318) asks for neither remote nor local
      nodes first, in which case [_cru_initial_node] does not compute it (src/zones.c:233). *)
  Definition mark_act (d : list nat) (n : nat) : list nat * option error :=
    match is_deletable n with
    | (_, Some e) => (d, Some e)
    | (true, None) => (n :: d, None)
    | (false, None) => (d, None)
    end.
  Definition node_filtering : @vst (list nat) nat -> npkt word -> option (_ * list (npkt word)) :=
    walk X onward mark_act.

  (** *** The pass over the edges.  A packet is either a visit to a node, which came by the edge with
      the given address, or a request to disconnect an edge from a node: by its address
      (CUT_FORWARD), or by its label and terminus (CUT_BACK).  In the latter case the carrier is an
      element of the list terminus->edges_in, and [last] if no other element follows. *)
  Inductive fpkt :=
  | Visit (n : nat) (by_edge : option (nat * nat))
  | Cut (n i : nat)
  | CutBack (n : nat) (l : word) (terminus : nat) (last : bool).

  Definition receiver (p : fpkt) : nat :=
    match p with Visit n _ => n | Cut n _ => n | CutBack n _ _ _ => n end.

  Record fdata := mkFD {
    out : nat -> list tedge;              (* edges_out *)
    disc : list (nat * tedge);            (* disconnections of all ports, with their origins *)
    fseen : list nat                      (* seen, of all workers *)
  }.
  Definition fstart : fdata := mkFD (fun n => tagged (es g n)) [] [].

  Section EdgePass.
    Variable deleted : list nat.
    Definition is_deleted (n : nat) : bool := existsb (Nat.eqb n) deleted.

    (** [request_disconnection], src/filters.c:438-468; without a carrier and sender, the packet that
        is sent has no receiver and is ignored (512). *)
    Definition request_disconnection (n : nat) (by_edge : option (nat * nat)) : list fpkt :=
      if backwards f then
        let l := ins n in
        map (fun ix => CutBack (snd (snd ix)) (fst (snd ix)) n (S (fst ix) =? length l))
            (combine (seq 0 (length l)) l)
      else match by_edge with Some (m, i) => [Cut m i] | None => [] end.

    (** src/filters.c:532-535 *)
    Definition onward_packets (n : nat) (l : list tedge) : list fpkt :=
      if backwards f then map (fun e => Visit (snd e) None) (ins n)
      else map (fun x => Visit (remote x) (Some (n, tag x))) l.

    (** [edge_filtering_task], src/filters.c:514-538 *)
    Definition efilter (d : fdata) (p : fpkt) : fdata * list fpkt * option error :=
      match p with
      | Cut n i => (* 242-243, src/edges.c:347-364 *)
          match List.partition (fun x => tag x =? i) (out d n) with
          | ([], _) => (d, [], Some IER)
          | (c, l) => (mkFD (upd (out d) n l) (map (pair n) c ++ disc d) (fseen d), [], None)
          end
      | CutBack n l t last => (* 244-245, src/edges.c:402-423 *)
          if negb last then (d, [], Some IER)
          else let (c, l) := List.partition (fun x => N.eqb (label x) l && (remote x =? t)) (out d n) in
               (mkFD (upd (out d) n l) (map (pair n) c ++ disc d) (fseen d), [], None)
      | Visit n by_edge =>
          if existsb (Nat.eqb n) (fseen d) then
            (d, if is_some (thinner f) || negb (is_deleted n) then [] else request_disconnection n by_edge, None)
          else if is_deleted n then
            (mkFD (upd (out d) n []) (map (pair n) (out d n) ++ disc d) (n :: fseen d),
             request_disconnection n by_edge, None)
          else
            let '(p, c, e) := filtered_node n (out d n) in
            (mkFD (upd (out d) n p) (map (pair n) c ++ disc d) (n :: fseen d), onward_packets n p, e)
      end.

    (** The memory [seen] is part of the data here, so that the generic visitor's own is not used. *)
    Definition edge_filtering : @vst fdata nat -> fpkt -> option (@vst fdata nat * list fpkt) :=
      vtask X receiver Nat.eqb node_hash efilter efilter (fun _ _ => true).
  End EdgePass.
  Definition fdest : fpkt -> nat := vdest X receiver node_hash.

  (** *** Pruning.  The nodes are first moved to the list survivors (src/route.c, populating task,
      started at src/filters.c:604), then those reached by [pruning_task] (src/filters.c:638-688) are
      moved to the queue that becomes the graph's list of nodes. *)
  Definition collect (d : list nat) (n : nat) : list nat * option error := (d ++ [n], None).
  Definition populating : @vst (list nat) nat -> npkt word -> option (_ * list (npkt word)) :=
    walk X (es g) collect.
  Definition pruning (o : nat -> list tedge) : @vst (list nat) nat -> npkt word -> option (_ * list (npkt word)) :=
    walk X (fun n => map snd (o n)) collect.

  (** What is left, and the vertices and labels that are destroyed, given by nodes and addresses. *)
  Record filter_result := mkFR {
    left : option (graph word word);
    lost_vertices : list nat;
    lost_labels : list (nat * tedge)
  }.

  (** [_cru_sweep], src/route.c:702-780: the disconnections, and the survivors with their edges. *)
  Definition swept (survivors queue : list nat) (d : fdata) : filter_result :=
    let gone := filter (fun n => negb (existsb (Nat.eqb n) queue)) survivors in
    mkFR (Some (mkGraph queue (vx g) (fun n => map snd (out d n)) (root g)))
         gone (disc d ++ flat_map (fun n => map (pair n) (out d n)) gone).

  Definition base_rejected : bool * option error :=
    if is_some (thinner f) then (false, None) else is_deletable (root g).

  Definition freed_entirely : filter_result :=
    mkFR None (ids g) (flat_map (fun n => map (pair n) (tagged (es g n))) (ids g)).
End Filter.

Section Passes.
  Variable X : env.
  Variable g : graph word word.
  Variable ins : nat -> list (word * nat).
  Variable f : filt.
  Variable init : nat.
  (** When the user calls [cru_kill] in each of the passes that are modelled (Pass.v). *)
  Variable kills : nat -> nat -> bool.

  Definition env_ok (order : list nat) : Prop := Permutation order (seq 0 (lanes X)).

  (** The set of deleted nodes, src/filters.c:609-615: there is no pass over the nodes if there is a
      thinner or no test of vertices. *)
  Inductive marked : result (list nat) -> Prop :=
  | marked_none : is_some (thinner f) || negb (is_some (v_test f)) = true -> marked ([], None)
  | marked_run s order :
      is_some (thinner f) || negb (is_some (v_test f)) = false ->
      ran (lanes X) (walk_dest X) (node_filtering (in_pass X kills 0) g ins f) (vstart [])
          (initial (start g f init)) s -> env_ok order ->
      marked (data s, pass_status order s).

  (** src/filters.c:682-684: a worker that is killed destroys its nodes. *)
  Definition queued (s : @vst (list nat) nat) : list nat :=
    filter (fun n => negb (lkil s (lane_of (lanes X) (node_hash n)))) (data s).

  (** src/route.c:766-771, where the survivors of a worker that was killed are gone already *)
  Definition sweepable (survivors : list nat) (d : fdata) (s : @vst (list nat) nat) : bool :=
    existsb (fun n => negb (existsb (Nat.eqb n) (data s)) && negb (lkil s (lane_of (lanes X) (node_hash n)))) survivors
    || (0 <? length (disc d)).

  (** The status after [_cru_sweep], src/route.c:774-780: the pass in which the nodes are freed, if
      any, resets the router, so that [_cru_free_router] doesn't know that it was killed. *)
  Definition pruned_status (survivors : list nat) (d : fdata) (order : list nat) (s : @vst (list nat) nat) :
      option error :=
    if sweepable survivors d s && negb (lanes X =? 1) then pass_status order s
    else vstatus (in_pass X kills 2) order s.

  (** [cru_filtered], src/entry.c:870-896, with [_cru_filtered] (src/filters.c:560-622) and
      [_cru_pruned] (697-730), on a valid graph.  The passes that make and remove back edges are left
      out.  If there is an error, what is destroyed is not modelled. *)
  Inductive filters : result filter_result -> Prop :=
  | flt_empty : (* src/entry.c:890 *)
      v_test f = None -> e_test f = None -> filters (mkFR (Some g) [] [], None)
  | flt_base_error e : (* 593 *)
      is_some (v_test f) || is_some (e_test f) = true ->
      snd (base_rejected g f) = Some e -> filters (mkFR None [] [], Some e)
  | flt_base : (* 595-599: see Free.v *)
      is_some (v_test f) || is_some (e_test f) = true ->
      base_rejected g f = (true, None) -> filters (freed_entirely g, None)
  | flt_marking_error dl e :
      is_some (v_test f) || is_some (e_test f) = true ->
      base_rejected g f = (false, None) -> marked (dl, Some e) -> filters (mkFR None [] [], Some e)
  | flt_edge_error dl s order e :
      is_some (v_test f) || is_some (e_test f) = true ->
      base_rejected g f = (false, None) -> marked (dl, None) ->
      ran (lanes X) (fdest X) (edge_filtering (in_pass X kills 1) ins f dl) (vstart (fstart g))
          (Visit (start g f init) None) s -> env_ok order ->
      pass_status order s = Some e -> filters (mkFR None [] [], Some e)
  | flt_pruned dl s order sv order' sq order'' :
      is_some (v_test f) || is_some (e_test f) = true ->
      base_rejected g f = (false, None) -> marked (dl, None) ->
      ran (lanes X) (walk_dest X) (populating (unkillable X) g) (vstart []) (initial (root g)) sv -> env_ok order ->
      pass_status order sv = None ->
      ran (lanes X) (fdest X) (edge_filtering (in_pass X kills 1) ins f dl) (vstart (fstart g))
          (Visit (start g f init) None) s -> env_ok order' ->
      pass_status order' s = None ->
      ran (lanes X) (walk_dest X) (pruning (in_pass X kills 2) (out (data s))) (vstart []) (initial (root g)) sq ->
      env_ok order'' ->
      filters (match pruned_status (data sv) (data s) order'' sq with
               | None => (swept g (data sv) (queued sq) (data s), None)
               | Some e => (mkFR None [] [], Some e)
               end).
End Passes.

(** ** The tests given by folds and properties of the user (Fold.v) *)
Section Given.
  Variable g : graph word word.
  Variable ins : nat -> list (word * nat).

  Definition seen_edge (e : word * nat) : redge := (fst e, vx g (snd e)).
  Definition no_values : fst_ := mkFS None [] [].

  (** src/filters.c:415-420 and 285-288, for a fold that is not empty; a vacuous case that is
      undefined is None here.  MAP prefers [bmap] like [map_first_edge]. *)
  Definition edge_test_of (m : fold) (order : option ((word -> N) * (word -> word -> bool))) : edge_test :=
    match order, vacuous_case m with
    | None, None =>
        Individual (fun n e =>
          let o := map_first_edge m (vx g n) (seen_edge e) in
          let (w, s) := applied OfMap o no_values in (w, err (destroy OfMap (m_free m) w s)))
    | _, _ =>
        Joint order (fun n l =>
          let (w, s) := reduced_edges m (vx g n) (map seen_edge l) no_values in
          (w, err (destroy OfRed (r_free m) w s)))
    end.

  (** src/filters.c:150-154, for a property that is not empty. *)
  Definition vertex_test_of (p : prop) (n : nat) : outcome :=
    let '(w, (s, _, _)) := mapped_node p (vx g n) (map seen_edge (ins n)) (map seen_edge (es g n)) no_values in
    (w, err (destroy OfMap (m_free (vertex p)) w s)).
End Given.
