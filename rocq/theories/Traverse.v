(** Operations that visit every node of a graph once: counting (src/count.c), full and half
    duplexing (src/duplex.c), and map-reduction (src/mapreduce.c, src/maybe.c, src/crew.c). *)
From Coq Require Import List Arith NArith Lia Bool Permutation.
From Verif Require Import Base Machine Env Hash Graph Visitor Walk Run Fold.
Import ListNotations.

Set Implicit Arguments.

(** The worker that receives packets for node [n]. *)
Definition lane_of_node (X : env) (n : nat) : nat := lane_of (lanes X) (node_hash n).
Global Arguments lane_of_node : simpl never.

(** ** Counting *)
Section Count.
  Context {V E : Type}.
  Variable X : env.
  Variable g : graph V E.
  (** How much a node counts, depending on its outgoing edges: 1 in
      [_cru_node_counting_task] (src/count.c:78); 1 if there are none, else 0, in
      [_cru_terminus_counting_task] (129); their number in [_cru_edge_counting_task] (184-186).
      Counts are unbounded, so the checks for wrapping around are left out. *)
  Variable weight : list (E * nat) -> nat.

  (** src/count.c:73-79: every worker has a count of its own. *)
  Definition count_act (d : nat -> nat) (n : nat) : (nat -> nat) * option error :=
    (upd d (lane_of_node X n) (d (lane_of_node X n) + weight (es g n)), None).

  (** src/crew.c:340-356, [_cru_summation] *)
  Fixpoint summation (k : nat) (d : nat -> nat) : nat :=
    match k with 0 => 0 | Datatypes.S k' => summation k' d + d k' end.

  (** [cru_vertex_count], [cru_terminus_count] and [cru_edge_count] (src/entry.c:463-547): with
      more than one lane, a traversal from the base node and the sum of the workers' counts
      (src/launch.c:126-166), otherwise a loop over the list of nodes.  The loop is also the
      fallback if the workers can not be started. *)
  Definition counts (c : nat) : Prop :=
    if lanes X <=? 1 then c = fold_left (fun a n => a + weight (es g n)) (ids g) 0
    else exists s, ran (lanes X) (walk_dest (E := E) X) (walk X (es g) count_act) (vstart (fun _ => 0))
                       (initial (root g)) s /\
                   c = summation (lanes X) (data s).
End Count.

Definition one_per_node {E} (_ : list (E * nat)) : nat := 1.
Definition one_per_terminus {E} (es : list (E * nat)) : nat := match es with [] => 1 | _ => 0 end.
Definition one_per_edge {E} (es : list (E * nat)) : nat := length es.

(** ** Back edges *)
Section Duplex.
  Context {V E : Type}.
  Variable X : env.
  Variable g : graph V E.

  (** src/duplex.c:77-94.  The state is the list of incoming edges of each node.  On the first
      visit the list is emptied; on every visit, the edge the packet came by is added to it. *)
  Definition add_back (d : nat -> list (E * nat)) (p : npkt E) : nat -> list (E * nat) :=
    match sender p, carrier p with
    | Some n, Some l => upd d (payload p) ((l, n) :: d (payload p))
    | _, _ => d
    end.
  Definition full_first (d : nat -> list (E * nat)) (p : npkt E) :=
    (add_back (upd d (payload p) []) p, scatter (payload p) (es g (payload p)), @None error).
  Definition full_again (d : nat -> list (E * nat)) (p : npkt E) : _ * list (npkt E) * _ :=
    (add_back d p, [], @None error).
  Definition full_duplexing : @vst (nat -> list (E * nat)) nat -> npkt E -> option (_ * list (npkt E)) :=
    vtask X payload Nat.eqb node_hash full_first full_again (fun _ _ => true).

  (** src/duplex.c:133-144, as long as it is not killed *)
  Definition half_act (d : nat -> list (E * nat)) (n : nat) : (nat -> list (E * nat)) * option error :=
    (upd d n [], None).
  Definition half_duplexing : @vst (nat -> list (E * nat)) nat -> npkt E -> option (_ * list (npkt E)) :=
    walk X (es g) half_act.

  (** src/graph.c:268-298, [_cru_half_duplex] *)
  Definition is_half_duplex (ein : nat -> list (E * nat)) : bool :=
    match es g (root g) with
    | [] => true
    | (_, m) :: _ => match ein m with [] => true | _ => false end
    end.
End Duplex.

(** ** Map-reduction *)

(** src/maybe.h: a result in transit, perhaps without a value, and a status. *)
Record maybe := mkMaybe { extant : option word; status : option error }.

Definition first_of (a b : option error) : option error := match a with Some e => Some e | None => b end.

Section MapReduce.
  Context {V E : Type}.
  Variable X : env.
  Variable g : graph V E.
  Variable ein : nat -> list (E * nat).
  (** [_cru_mapped_node] applied to the node (src/nodes.c:380-414; see Fold.v, by which the value is
      null in case of an error), the user's reduction, and the vacuous case. *)
  Variable mapped : nat -> outcome.
  Variable red : word -> word -> outcome.
  Variable vacuous : option outcome.
  (** ma_zone.backwards *)
  Variable backwards : bool.

  (** src/mapreduce.c:43-80, [visit], on the partial result of a worker.  An error in the first
      call goes into the status of the [maybe] (src/maybe.c:49-52), where it does not stop the
      worker. *)
  Definition reduce_act (d : nat -> option maybe) (n : nat) : (nat -> option maybe) * option error :=
    let l := lane_of_node X n in
    let (x, e) := mapped n in
    match d l with
    | None => (upd d l (Some (mkMaybe (Some (match e with Some _ => null | None => x end)) e)), None)
    | Some m =>
        match e with
        | Some _ => (upd d l (Some (mkMaybe (Some null) (status m))), e)
        | None =>
            let (z, e') := red x (match extant m with Some y => y | None => null end) in
            (upd d l (Some (mkMaybe (Some z) (status m))), e')
        end
    end.

  (** src/mapreduce.c:121-132 *)
  Definition mapreducing : @vst (nat -> option maybe) nat -> npkt E -> option (_ * list (npkt E)) :=
    walk X (if backwards then ein else es g) reduce_act.

  (** What a worker returns, src/mapreduce.c:133-143. *)
  Definition worker_result (s : @vst (nat -> option maybe) nat) (l : nat) : option maybe :=
    match lerr s l with
    | Some e => Some (mkMaybe None (Some e))
    | None =>
        if lkil s l then
          match data s l with
          | Some m => match status m with Some e => Some (mkMaybe None (Some e)) | None => None end
          | None => None
          end
        else data s l
    end.

  (** src/maybe.c:162-197, [_cru_maybe_fused], of a pair with at most one operand missing. *)
  Definition fused (x y : option maybe) : option maybe :=
    match x, y with
    | Some a, Some b =>
        match extant a, extant b with
        | Some v, Some w =>
            let (z, e) := red v w in
            Some (mkMaybe (Some z) (first_of (status a) (first_of (status b) e)))
        | _, _ => None
        end
    | Some a, None => Some a
    | None, Some b => Some b
    | None, None => None
    end.

  Definition is_extant (m : maybe) : bool := match extant m with Some _ => true | None => false end.

  (** src/crew.c:472-492, [_cru_maybe_reduction]: workers' results are taken in the order in which
      they become available, and combined in pairs by further threads, whose results become
      available in turn.  The first argument is the multiset of results awaited; the others are the
      error status before and after, and the result. *)
  Inductive fuses : list (option maybe) -> option error -> option word -> option error -> Prop :=
  | fuse_error pool e : fuses pool (Some e) None (Some e)
  | fuse_none : fuses [] None None None
  | fuse_null pool pool' r e : (* 477 *)
      Permutation pool (None :: pool') -> fuses pool' None r e -> fuses pool None r e
  | fuse_last m : (* 479 and 485-490 *)
      fuses [Some m] None (extant m) (status m)
  | fuse_discard pool pool' a y r e : (* src/maybe.c:134 and 148-151 *)
      Permutation pool (Some a :: Some y :: pool') -> is_extant a = false -> is_extant y = true ->
      fuses pool' (first_of (status a) (status y)) r e -> fuses pool None r e
  | fuse_pair pool pool' a y r e : (* 481-483, src/maybe.c:136-147 *)
      Permutation pool (Some a :: y :: pool') ->
      (is_extant a = false -> forall b, y = Some b -> is_extant b = false) ->
      fuses (fused (if is_extant a then Some a else None)
                   (match y with Some b => if is_extant b then Some b else None | None => None end) :: pool')
            (first_of (status a)
                      (match y with Some b => if is_extant b then None else status b | None => None end)) r e ->
      fuses pool None r e.

  (** src/nodes.c:456-501, [_cru_reduced_nodes], apart from destructors *)
  Fixpoint reduce_nodes (ns : list nat) (acc : word) : outcome :=
    match ns with
    | [] => (acc, None)
    | n :: ns' =>
        match mapped n with
        | (_, Some e) => (null, Some e)
        | (x, None) => match red x acc with
                       | (_, Some e) => (null, Some e)
                       | (z, None) => reduce_nodes ns' z
                       end
        end
    end.
  Definition reduced_nodes (ns : list nat) : outcome :=
    match ns with
    | [] => match vacuous with Some o => o | None => (null, Some UNDVAC) end
    | n :: ns' =>
        match vacuous with
        | Some (x, None) => reduce_nodes ns x
        | Some (_, Some e) => (null, Some e)
        | None => match mapped n with
                  | (_, Some e) => (null, Some e)
                  | (x, None) => reduce_nodes ns' x
                  end
        end
    end.

  (** [cru_mapreduced] on a non-empty graph, from the initial node [i] of the zone
      (src/entry.c:580-594, src/mapreduce.c:155-172, src/launch.c:268-302); [stored] is true if the
      graph has a store for thread specific data.  The order is that in which workers finish. *)
  Definition mapreduces (stored : bool) (i : nat) (r : outcome) : Prop :=
    if (lanes X =? 1) && negb stored && (match ids g with n :: _ => n =? i | [] => false end)
    then r = reduced_nodes (ids g)
    else exists s v e,
        ran (lanes X) (walk_dest (E := E) X) mapreducing (vstart (fun _ => None)) (initial i) s /\
        fuses (map (worker_result s) (seq 0 (lanes X))) None v e /\
        r = match first_of e (if is_killed X s then Some INTKIL else None) with
            | Some e => (null, Some e)
            | None => (match v with Some x => x | None => null end, None)
            end.

  (** On an empty graph, src/entry.c:578-579. *)
  Definition mapreduces_empty : outcome :=
    match vacuous with Some o => (match snd o with None => fst o | Some _ => null end, snd o) | None => (null, Some UNDVAC) end.
End MapReduce.
