(** Mutation of graphs in place (src/mutate.c, src/zones.c:135-239, src/entry.c:955-982). *)
From Coq Require Import List Arith NArith Lia Bool Permutation.
From Verif Require Import Base Machine Env Hash Graph Visitor Run Pass Walk Fold Fabricate Induce.
Import ListNotations.

Set Implicit Arguments.

(** CRU_TPCMUT (include/cru/error_codes.h). *)
Definition TPCMUT : error := USERERR 7.

(** ** Specifications *)

(** cru_kernel as far as it is used by mutations.  The vertex operation is [_cru_mapped_node] (see C18)
    with the fields v_op, which takes the vertex, the labels and origins of its incident edges, and
    the labels and termini of its outgoing edges.  It is None if [_cru_empty_prop] says so.  The edge
    operation takes the vertex being visited, a label, and the adjacent vertex. *)
Record kernel := mkKernel {
  v_op : option (word -> list (word * word) -> list (word * word) -> outcome);
  e_op : option (word -> word -> word -> outcome);
  has_incident : bool;             (* the fold v_op.incident is not empty *)
  has_outgoing : bool;             (* the fold v_op.outgoing is not empty *)
  v_dtor : option dtor;            (* v_op.vertex.m_free *)
  e_dtor : option dtor             (* e_op.m_free *)
}.

(** cru_plan, with the node of the initial vertex in place of the vertex; at most one of the priorities
    is non-zero (src/infer.c:460). *)
Record plan := mkPlan { local_first : bool; remote_first : bool; backwards : bool; init : nat }.

(** UNORDERED and FORWARD_PROPAGATING, src/mutate.c:43-47 *)
Definition unordered (w : plan) : bool := negb (remote_first w) && negb (local_first w).
Definition forward (w : plan) : bool := Bool.eqb (negb (backwards w)) (negb (remote_first w)).

Inductive mark := Fresh | Mutated | Unreachable | Blocked.
Definition is_fresh (m : mark) : bool := match m with Fresh => true | _ => false end.
Definition is_blocked (m : mark) : bool := match m with Blocked => true | _ => false end.

(** The labels of the edges in a list that are connected with [n] at the other end. *)
Definition labels (n : nat) (l : list (word * nat)) : list word := map fst (filter (fun e => snd e =? n) l).

(** [reflect], src/mutate.c:290-327, for the edges that are shared with one other node: the [i]th edge
    connected with [n] gets the [i]th label. *)
Fixpoint relabel (n : nat) (ls : list word) (l : list (word * nat)) : list (word * nat) :=
  match l with
  | [] => []
  | (x, k) :: l' =>
      if k =? n
      then match ls with y :: ls' => (y, k) :: relabel n ls' l' | [] => (x, k) :: relabel n [] l' end
      else (x, k) :: relabel n ls l'
  end.

(** [permeate], src/mutate.c:234-277 *)
Fixpoint permeate (f : word -> word -> word -> outcome) (v : word) (at_ : nat -> word) (l : list (word * nat))
  : list (word * nat) * option error :=
  match l with
  | [] => ([], None)
  | (x, k) :: l' =>
      match f v x (at_ k) with
      | (_, Some e) => ([], Some e)
      | (y, None) => match permeate f v at_ l' with (r, e) => ((y, k) :: r, e) end
      end
  end.

Section Mutate.
  Variable X : env.
  Variable g : graph word word.
  (** The lists edges_in when the graph is in full duplex form; see C45. *)
  Variable ins : nat -> list (word * nat).
  Variable K : kernel.
  Variable w : plan.
  Notation nlane := (nlane X).

  (** ** Preparation *)

  (** The edges along which the zone is explored (src/zones.c:176). *)
  Definition ahead (n : nat) : list (word * nat) := if backwards w then ins n else es g n.

  Variable kills : nat -> nat -> bool.

  (** src/zones.c:227-238.  The graph is already in full duplex form. *)
  Inductive surveyed : list nat -> Prop :=
  | not_surveyed : init w = root g \/ unordered w = true -> surveyed []
  | survey s : init w <> root g -> unordered w = false ->
      ran (lanes X) (walk_dest X) (analysing ahead (in_pass X kills 0)) (vstart []) (initial (init w)) s -> surveyed (data s).

  (** [_cru_compatible], src/graph.c:305-323; the destructors of the graph are given. *)
  Definition compatible (v_free e_free : option dtor) : bool := same_dtor v_free (v_dtor K) && same_dtor e_free (e_dtor K).

  (** [coverage_analyzing_task], src/mutate.c:74-121 *)
  Definition covering (reached : list nat) (Y : env) : @vst unit nat -> npkt word -> option (_ * list (npkt word)) :=
    walk Y (es g) (fun d n => (d, if mem n reached then None else Some TPCMUT)).

  (** ** Bounding *)

  (** [bounding_task], src/mutate.c:160-223: the nodes in the order they are visited, and those whose
      outgoing edges are deleted because the worker was killed (199-201).  Errors are not modelled. *)
  Record bst := mkB { bounded : list nat; cut : list nat; bkil : nat -> bool; bkilled : bool; btick : nat }.
  Definition bstart : bst := mkB [] [] (fun _ => false) false 0.
  Definition bounding (Y : env) (s : bst) (n : nat) : option (bst * list nat) :=
    let k := bkilled s || killcalls Y (btick s) in
    let here := bkil s (nlane n) || k && notices Y (btick s) in
    let kil := upd (bkil s) (nlane n) here in
    if mem n (bounded s) then Some (mkB (bounded s) (cut s) kil k (S (btick s)), [])
    else Some (mkB (n :: bounded s) (if here then n :: cut s else cut s) kil k (S (btick s)), map snd (es g n)).

  (** PREREQUISITES and DEPENDANTS, src/mutate.c:50-53, after the deletions. *)
  Definition outs (cut : list nat) (n : nat) : list (word * nat) := if mem n cut then [] else es g n.
  Definition up0 (cut : list nat) (n : nat) : list (word * nat) := if forward w then ins n else outs cut n.
  Definition dn0 (cut : list nat) (n : nat) : list (word * nat) := if forward w then outs cut n else ins n.

  (** src/mutate.c:142: the set of a worker is NULL if it is empty. *)
  Definition outside (reached : list nat) (n : nat) : bool := skipped X reached n.

  (** src/mutate.c:144 with 191-195 and 212 *)
  Definition early (cut : list nat) (n : nat) : bool :=
    let both := negb (is_none (e_op K)) && negb (is_none (v_op K)) in
    let i := negb both && negb (has_incident K) in
    let o := negb both && negb (has_outgoing K) in
    (unordered w || isnil (up0 cut n)) || (i || isnil (ins n)) && (o || isnil (outs cut n)).

  (** ** Mutation *)

  Section Mutating.
    Variable cut : list nat.
    Variable reached : list nat.
    (** The nodes that were visited by the previous pass. *)
    Variable nodes : list nat.

    (** The field survivors of a port. *)
    Definition survivors (l : nat) : list nat :=
      filter (fun n => (nlane n =? l) && early cut n && negb (outside reached n)) nodes.

    (** Vertices and lists of edges; [up] are the edges to prerequisites and [dn] those to dependants. *)
    Record mst := mkM {
      vtx : nat -> word;
      up : nat -> list (word * nat);
      dn : nat -> list (word * nat);
      marked : nat -> mark;
      trace : list nat;                (* the nodes mutated, latest first *)
      started : nat -> bool;           (* per worker *)
      busy : nat -> bool;              (* in [start], per worker *)
      merr : nat -> option error;      (* *err, per worker *)
      mkilled : bool;                  (* r->killed *)
      mtick : nat
    }.
    Definition mstart : mst :=
      mkM (vx g) (up0 cut) (dn0 cut) (fun n => if outside reached n then Unreachable else Fresh) []
          (fun _ => false) (fun _ => false) (fun _ => None) false 0.

    Definition sights (s : mst) (l : list (word * nat)) : list (word * word) := map (fun e => (fst e, vtx s (snd e))) l.

    (** [_cru_mapped_node] in line 378; the vertex itself is used if no vertex mutation is defined (382) *)
    Definition new_vertex (s : mst) (n : nat) : outcome :=
      match v_op K with
      | None => (vtx s n, None)
      | Some f => if forward w then f (vtx s n) (sights s (up s n)) (sights s (dn s n))
                  else f (vtx s n) (sights s (dn s n)) (sights s (up s n))
      end.

    (** [mutate], src/mutate.c:360-402, if not blocked.  It is executed as one step: the vertices it reads
        are not written at the same time by other workers, because their nodes are
        mutated before or after the node being mutated if the order is constrained as intended, and
        otherwise not read.  After an error, everything is going to be destroyed, so that only
        the mark matters.  That each edge has its counterpart (1214) is taken for granted. *)
    Definition mutate (s : mst) (n : nat) : mst * option error :=
      let failed e := (mkM (vtx s) (up s) (dn s) (upd (marked s) n Blocked) (trace s) (started s) (busy s)
                           (upd (merr s) (nlane n) (Some e)) true (mtick s), Some e) in
      match new_vertex s n with
      | (_, Some e) => failed e
      | (v, None) =>
          match match e_op K with None => (dn s n, None) | Some f => permeate f v (vtx s) (dn s n) end with
          | (_, Some e) => failed e
          | (d, None) =>
              (mkM (upd (vtx s) n v)
                   (fun k => match e_op K with None => up s k | Some _ => relabel n (labels k d) (up s k) end)
                   (upd (dn s) n d) (upd (marked s) n Mutated) (n :: trace s) (started s) (busy s) (merr s)
                   (mkilled s) (mtick s), None)
          end
      end.

    (** The same if blocked. *)
    Definition block (s : mst) (n : nat) : mst :=
      mkM (vtx s) (up s) (dn s) (upd (marked s) n Blocked) (trace s) (started s) (busy s) (merr s) (mkilled s) (mtick s).

    (** Packets: a packet without a payload; one with; and the rest of the loop in [start]
        (src/mutate.c:443-452) with the node in the packet that was received first.  The loop
        is executed by a worker without interruption by further packets, which are left to wait. *)
    Inductive mpkt := Ping (l : nat) | Node (n : nat) | Start (l : nat) (todo : list nat) (n : option nat).
    Definition mdest (p : mpkt) : nat :=
      match p with Ping l => l mod lanes X | Node n => nlane n | Start l _ _ => l mod lanes X end.

    (** [all_quiescent], src/mutate.c:471-495 *)
    Definition quiescent (s : mst) (n : nat) : bool :=
      unordered w || forallb (fun e => negb (is_fresh (marked s (snd e)))) (up s n).
    Definition hampered (s : mst) (n : nat) : bool :=
      negb (unordered w) && existsb (fun e => is_blocked (marked s (snd e))) (up s n).

    Definition setup (s : mst) (l : nat) (st bu : bool) : mst :=
      mkM (vtx s) (up s) (dn s) (marked s) (trace s) (upd (started s) l st) (upd (busy s) l bu) (merr s) (mkilled s) (S (mtick s)).
    Definition ticked (s : mst) : mst :=
      mkM (vtx s) (up s) (dn s) (marked s) (trace s) (started s) (busy s) (merr s) (mkilled s) (S (mtick s)).

    (** [mutating_task], src/mutate.c:503-552.  It is launched as not killable, but killed internally
        after an error. *)
    Definition mutating (Y : env) (s : mst) (p : mpkt) : option (mst * list mpkt) :=
      match p with
      | Start l todo n =>
          let resume := match n with Some n => [Node n] | None => [] end in
          match todo, merr s (mdest p) with
          | m :: todo', None =>
              match mutate s m with
              | (s', None) => Some (ticked s', map (fun e => Node (snd e)) (dn s' m) ++ [Start l todo' n])
              | (s', Some _) => Some (setup s' (mdest p) true false, resume)
              end
          | _, _ => Some (setup s (mdest p) true false, resume)
          end
      | _ =>
          let l := mdest p in
          let next := match p with Ping l => if S l <? lanes X then [Ping (S l)] else [] | _ => [] end in
          if busy s l then None
          else if negb (started s l)
          then Some (setup s l true true, next ++ [Start l (survivors l) (match p with Node n => Some n | _ => None end)])
          else match p with
          | Node n =>
              if negb (is_fresh (marked s n)) || negb (is_none (merr s l)) || mkilled s && notices Y (mtick s) then Some (ticked s, [])
              else if quiescent s n
              then if hampered s n then Some (ticked (block s n), map (fun e => Node (snd e)) (dn s n))
                   else match mutate s n with
                   | (s', None) => Some (ticked s', map (fun e => Node (snd e)) (dn s' n))
                   | (s', Some _) => Some (ticked s', [])
                   end
              else Some (ticked s, [])
          | _ => Some (ticked s, next)
          end
      end.
  End Mutating.

  (** ** The whole operation *)

  (** The graph that is left, whether all storage is accounted for, and the nodes in the order
      they were mutated. *)
  Record mutation := mkMut { left : option (graph word word); reclaimed : bool; order_of : list nat }.

  Definition rest (nodes : list nat) (s : mst) : graph word word :=
    mkGraph nodes (vtx s) (if forward w then dn s else up s) (root g).

  (** [_cru_mutated] and [propagate], src/mutate.c:742-859; the destructors of the graph are given.
      [kills 3 0] stands for a request at any time during the last pass.
      The router is freed after the last pass, in which the nodes are collected (777), and only
      then the request to kill it is found (855), when the graph is not freed any more. *)
  Variable v_free e_free : option dtor.
  Inductive covered (reached : list nat) : option error -> Prop :=
  | not_covered : init w = root g \/ compatible v_free e_free = false -> covered reached None
  | coverage s order : init w <> root g -> compatible v_free e_free = true ->
      ran (lanes X) (walk_dest X) (covering reached (in_pass X kills 1)) (vstart tt) (initial (root g)) s ->
      Permutation order (seq 0 (lanes X)) -> covered reached (pass_status order s).

  Inductive mutates : result mutation -> Prop :=
  | uncovered reached e : surveyed reached -> covered reached (Some e) -> mutates (mkMut None true [], Some e)
  | mutated reached b s order :
      surveyed reached -> covered reached None ->
      ran (lanes X) nlane (bounding (in_pass X kills 2)) bstart (root g) b ->
      ran (lanes X) mdest (mutating (cut b) reached (bounded b) (unkillable X)) (mstart (cut b) reached) (Ping 0) s ->
      Permutation order (seq 0 (lanes X)) ->
      mutates
        (match first_error (merr s) order with
         | Some e => (mkMut None true (rev (trace s)), Some e)
         | None => if kills 3 0 then (mkMut None false (rev (trace s)), Some INTKIL)
                   else (mkMut (Some (rest (rev (bounded b)) s)) true (rev (trace s)), None)
         end).
End Mutate.
