(** What becomes of vertices and edge labels when vertices are split, including when functions fail: src/split.c:42-326.
    File Split.v is about the results.  Here, values are followed individually until they are destroyed, as in MakeFree.v, and it
    is of no importance what they are.

    Simplifications.
    - There are destructors for vertices and labels.  (If there are none, there is nothing to be destroyed.)
    - Vertex properties are not followed, and the order of edges in a list is of no importance.
    - Internal errors (IER) don't occur except as indicated by [wild].
    - Packets can be received in any order (see Machine.v).
    - The operation is followed from the time when the nodes are in the ports' lists of survivors, after [_cru_populating_task]. *)
From Coq Require Import List Arith Bool Lia.
From Verif Require Import MakeFree.
Import ListNotations.

Set Implicit Arguments.

(** Packets, src/split.c:42-54: a visit, possibly by a sender and a carrier; a request to insert a node with a given vertex; a request
    to attach an edge; a request to detach the edge with a given number *)
Inductive pkt :=
| Visit (n : nat) (by_edge : option (nat * nat))
| Create (c : nat) (v : option nat)
| Connect (n : nat) (e : edge)
| Disconnect (n : nat) (k : nat).
Definition receiver (p : pkt) : nat :=
  match p with Visit n _ => n | Create c _ => c | Connect n _ => n | Disconnect n _ => n end.

Record world := mkWorld {
  common : st;                                (* its flag is not used; see MakeFree.v *)
  errs : nat -> bool;                         (* *err of each worker *)
  killed : nat -> bool;                       (* the variable killed of each worker *)
  flight : list pkt;                          (* packets sent but not yet received *)
  seen : list nat;                            (* nodes in the sets of all workers *)
  dopple : nat -> option nat;                 (* doppleganger *)
  fresh : nat;                                (* the next node to be allocated *)
  nodes : list (nat * option nat);            (* survivors of all ports, with their vertices *)
  olds : list (option nat);                   (* the vertices of the nodes in them for deferred reclamation *)
  edges : list (nat * edge);                  (* edges, with the nodes whose lists edges_out they are in *)
  wild : bool;                                (* whether an edge or node was accessed that doesn't exist *)
  concluded : bool;
  failed : bool                               (* whether an error is reported in the end *)
}.

(** the first edge having a given number, and the others *)
Fixpoint take (k : nat) (es : list (nat * edge)) : option (nat * edge * list (nat * edge)) :=
  match es with
  | [] => None
  | x :: es => if fst (fst (snd x)) =? k then Some (x, es)
               else match take k es with Some (y, r) => Some (y, x :: r) | None => None end
  end.
(** the vertex of the first node having a given number, and the others *)
Fixpoint find_node (n : nat) (ns : list (nat * option nat)) : option (option nat * list (nat * option nat)) :=
  match ns with
  | [] => None
  | x :: ns => if fst x =? n then Some (snd x, ns)
               else match find_node n ns with Some (v, r) => Some (v, x :: r) | None => None end
  end.

Section Splitting.
  (** How the calls turn out, depending on the time; see MakeFree.v *)
  Variable heap reserve : nat -> bool.
  Variable vuser euser puser : nat -> bool * bool.
  Variable dies : nat -> bool.
  Variable proper : nat -> bool.                (* whether the property of a node can be computed *)
  Variable lane : nat -> nat.                   (* the worker a node belongs to *)

  (** [_cru_propped], src/props.c, whose result is not followed *)
  Definition propped (s : st) : st := if proper (clock s) then tick s else tick (fail s).

  (** the labelers, src/split.c:122-126 and 190-194: whether there are to be labels, and the labels *)
  Definition labelers (s : st) : bool * option nat * bool * option nat * st :=
    let (ac, s) := passed puser s in
    let (al, s) := if ac then applied euser s else (None, s) in
    let (cc, s) := passed puser s in
    let (cl, s) := if cc then applied euser s else (None, s) in
    (ac, al, cc, cl, s).

  (** the loop in [fan_out], src/split.c:117-138: the edges of the node, the edges of the copy *)
  Fixpoint fan_edges (es cs : list edge) (s : st) : list edge * list edge * st :=
    match es with
    | [] => ([], cs, s)
    | (k, y, l) :: es' =>
        if err s then (es, cs, s) else
        let '(ac, al, cc, cl, s) := labelers s in
        let s := destroy dies l s in
        match ac, cc with
        | false, false => fan_edges es' cs s
        | false, true => fan_edges es' ((k, y, cl) :: cs) s
        | true, false => let '(r, cs, s) := fan_edges es' cs s in ((k, y, al) :: r, cs, s)
        | true, true =>
            let (e, s) := new_edge heap dies y cl s in
            let '(r, cs, s) := fan_edges es' (match e with Some e => e :: cs | None => cs end) s in ((k, y, al) :: r, cs, s)
        end
    end.

  (** packets sent by [_cru_scatter_out], src/scatter.c:90-117, for the edges of a node *)
  Definition scatter (n : nat) (es : list edge) (s : st) : list pkt * st :=
    if err s then ([], s) else
    let (m, s) := scatter_out heap reserve es s in
    (map (fun e => Visit (snd (fst e)) (Some (n, fst (fst e)))) (firstn m es), s).

  (** the result of [fan_out]: the new vertex and the copy, if the node was split, its edges, those of the copy, and packets *)
  Record fanned := mkFanned {
    f_vertex : option (option nat);
    f_edges : list edge;
    f_copied : list edge;
    f_sent : list pkt
  }.

  (** [fan_out], src/split.c:64-148, for a node [n] with given edges, and [c] the copy *)
  Definition fan_out (n c : nat) (es : list edge) (s : st) : fanned * st :=
    if err s then (mkFanned None es [] [], s) else
    let (b, s) := passed puser s in
    if negb b then let (p, s) := scatter n es s in (mkFanned None es [] p, s) else
    let (t, s) := applied vuser s in                         (* cata, 102; there is no provision for a vertex returned with an error *)
    if err s then (mkFanned None es [] [], s) else
    match alloc heap s with
    | (false, s) => (mkFanned None es [] [], destroy dies t s)         (* [_cru_node_of] *)
    | (true, s) =>
        let s := propped s in
        if err s then (mkFanned None es [] [], destroy dies t s) else  (* 105 and 146 *)
        match packet heap reserve s with
        | (false, s) => (mkFanned None es [] [], destroy dies t s)     (* 107 and 146 *)
        | (true, s) =>
            let sent := [Create c t] in
            if err s then (mkFanned None es [] sent, s) else           (* [_cru_node_of] in 110 *)
            match alloc heap s with
            | (false, s) => (mkFanned None es [] sent, s)
            | (true, s) =>
                let (t', s) := applied vuser s in                      (* ana, 112; again without any provision *)
                if err s then (mkFanned None es [] sent, s) else
                let '(es', cs, s) := fan_edges es [] s in
                let (p, s) := scatter c cs s in
                let (q, s) := scatter n es' s in
                (mkFanned (Some t') es' cs (q ++ p ++ sent), s)
            end
        end
    end.

  Definition enter (w : world) (l : nat) : st :=
    let s := common w in mkSt (clock s) (errs w l) (made s) (dead s) (next s) (pmade s) (pfreed s).
  Definition set_err (l : nat) (b : bool) (f : nat -> bool) : nat -> bool := fun k => if k =? l then b else f k.
  Definition set_dopple (n : nat) (c : option nat) (f : nat -> option nat) : nat -> option nat := fun k => if k =? n then c else f k.

  (** the worker's state is stored *)
  Definition leave (w : world) (l : nat) (s : st) : world :=
    mkWorld s (set_err l (err s) (errs w)) (killed w) (flight w) (seen w) (dopple w) (fresh w) (nodes w) (olds w) (edges w) (wild w)
            (concluded w) (failed w).
  Definition set_flight (f : list pkt) (w : world) : world :=
    mkWorld (common w) (errs w) (killed w) f (seen w) (dopple w) (fresh w) (nodes w) (olds w) (edges w) (wild w) (concluded w) (failed w).
  Definition set_edges (es : list (nat * edge)) (w : world) : world :=
    mkWorld (common w) (errs w) (killed w) (flight w) (seen w) (dopple w) (fresh w) (nodes w) (olds w) es (wild w) (concluded w) (failed w).
  Definition set_nodes (ns : list (nat * option nat)) (w : world) : world :=
    mkWorld (common w) (errs w) (killed w) (flight w) (seen w) (dopple w) (fresh w) ns (olds w) (edges w) (wild w) (concluded w) (failed w).
  Definition set_wild (w : world) : world :=
    mkWorld (common w) (errs w) (killed w) (flight w) (seen w) (dopple w) (fresh w) (nodes w) (olds w) (edges w) true (concluded w) (failed w).

  Definition of_node (n : nat) (x : nat * edge) : bool := fst x =? n.
  Definition edges_of (n : nat) (es : list (nat * edge)) : list edge := map snd (filter (of_node n) es).
  Definition not_of (n : nat) (es : list (nat * edge)) : list (nat * edge) := filter (fun x => negb (of_node n x)) es.

  (** [_cru_test_and_set_membership] and [fan_out], src/split.c:270-271.  The old vertex is kept in a node for deferred reclamation,
      109-111 and 115-116. *)
  Definition visit_out (n l : nat) (w : world) : world :=
    if in_dec Nat.eq_dec n (seen w) then w else
    match alloc heap (enter w l) with
    | (false, s) => leave w l s
    | (true, s) =>
        let c := fresh w in
        let (f, s) := fan_out n c (edges_of n (edges w)) s in
        match find_node n (nodes w) with
        | None => set_wild w
        | Some (v, ns) =>
            mkWorld s (set_err l (err s) (errs w)) (killed w) (f_sent f ++ flight w) (n :: seen w)
                    (match f_vertex f with Some _ => set_dopple n (Some c) (dopple w) | None => dopple w end) (S c)
                    ((n, match f_vertex f with Some t => t | None => v end) :: ns)
                    (match f_vertex f with Some _ => v :: olds w | None => olds w end)
                    (map (pair n) (f_edges f) ++ map (pair c) (f_copied f) ++ not_of n (edges w)) (wild w) (concluded w) (failed w)
        end
    end.

  (** [fan_in], src/split.c:157-206 *)
  Definition visit_in (n : nat) (by_edge : option (nat * nat)) (l : nat) (w : world) : world :=
    if errs w l then w else
    match dopple w n, by_edge with
    | Some c, Some (sender, k) =>
        match take k (edges w) with
        | None => set_wild w
        | Some ((o, (k, y, v)), rest) =>
            let '(ac, al, cc, cl, s) := labelers (enter w l) in
            let s := destroy dies v s in
            match ac, cc with
            | false, false =>
                let (b, s) := packet heap reserve s in
                set_edges ((o, (k, y, None)) :: rest)
                          (set_flight (if b then Disconnect sender k :: flight w else flight w) (leave w l s))
            | false, true => set_edges ((o, (k, c, cl)) :: rest) (leave w l s)
            | true, false => set_edges ((o, (k, y, al)) :: rest) (leave w l s)
            | true, true =>
                match new_edge heap dies c cl s with
                | (None, s) => set_edges ((o, (k, y, al)) :: rest) (leave w l s)
                | (Some e, s) =>
                    match packet heap reserve s with
                    | (true, s) => set_edges ((o, (k, y, al)) :: rest) (set_flight (Connect sender e :: flight w) (leave w l s))
                    | (false, s) => set_edges ((o, (k, y, al)) :: rest) (leave w l (destroy dies (label_of e) s))
                    end
                end
            end
        end
    | _, _ => w
    end.

  (** a packet received by a worker [l] after an error or a kill, src/split.c:257-263 *)
  Definition dropped (p : pkt) (l : nat) (w : world) : world :=
    match p with
    | Connect _ e => leave w l (destroy dies (label_of e) (enter w l))
    | Create c v => set_nodes ((c, v) :: nodes w) w
    | _ => w
    end.
  (** a packet received otherwise, src/split.c:264-275, where [over] means that the vertex limit is exceeded.  Even then, a new
      node is pushed, because RAISE has a non-zero value. *)
  Definition handled (p : pkt) (over : bool) (l : nat) (w : world) : world :=
    match p with
    | Connect n e => set_edges ((n, e) :: edges w) w
    | Disconnect n k =>
        match take k (edges w) with
        | None => set_wild w
        | Some ((o, e), rest) => if o =? n then set_edges rest (leave w l (destroy dies (label_of e) (enter w l))) else set_wild w
        end
    | Create c v => let w := if over then leave w l (fail (enter w l)) else w in set_nodes ((c, v) :: nodes w) w
    | Visit n b => visit_in n b l (visit_out n l w)
    end.

  Definition node_in (ns : list (nat * option nat)) (x : nat * edge) : bool := existsb (fun y => fst y =? fst x) ns.

  Inductive step (lanes : nat) : world -> world -> Prop :=
  | drop_step p f1 f2 w : flight w = f1 ++ p :: f2 -> concluded w = false ->
      errs w (lane (receiver p)) || killed w (lane (receiver p)) = true ->
      step lanes w (dropped p (lane (receiver p)) (set_flight (f1 ++ f2) w))
  | handle_step p f1 f2 w over : flight w = f1 ++ p :: f2 -> concluded w = false ->
      errs w (lane (receiver p)) || killed w (lane (receiver p)) = false ->
      step lanes w (handled p over (lane (receiver p)) (set_flight (f1 ++ f2) w))
  (* other errors, and kills *)
  | trouble_step l w : concluded w = false -> step lanes w (leave w l (fail (enter w l)))
  | kill_step l w : concluded w = false ->
      step lanes w (mkWorld (common w) (errs w) (set_err l true (killed w)) (flight w) (seen w) (dopple w) (fresh w) (nodes w) (olds w)
                            (edges w) (wild w) (concluded w) (failed w))
  (* the end, src/split.c:320-325: either [_cru_sweep] disposes of all survivors, or [_cru_pruned] keeps some and disposes of the others.
     There may be [other] errors, such as failure to prune. *)
  | conclude_step w other (keep : nat -> bool) : flight w = [] -> concluded w = false ->
      let bad := existsb (fun l => errs w l || killed w l) (seq 0 lanes) || other in
      let kept (x : nat) := negb bad && keep x in
      let gone := filter (fun x => negb (kept (fst x))) (nodes w) in
      step lanes w
        (mkWorld (destroy_all dies (olds w ++ map snd gone)
                   (destroy_all dies (map (fun e => label_of (snd e)) (filter (node_in gone) (edges w))) (common w)))
                 (errs w) (killed w) [] (seen w) (dopple w) (fresh w) (filter (fun x => kept (fst x)) (nodes w)) []
                 (filter (fun x => negb (node_in gone x)) (edges w)) (wild w) true bad).

  (** The beginning: the graph, whose nodes are numbered from zero, and a packet for its base node *)
  Definition begin (values : list nat) (ns : list (option nat)) (es : list (nat * edge)) (links base : nat) : world :=
    mkWorld (mkSt 0 false values [] links 0 0) (fun _ => false) (fun _ => false) [Visit base None] [] (fun _ => None) (length ns)
            (combine (seq 0 (length ns)) ns) [] es false false false.

  Inductive reaches (lanes : nat) (values : list nat) (ns : list (option nat)) (es : list (nat * edge)) (links base : nat) : world -> Prop :=
  | reaches_begin : reaches lanes values ns es links base (begin values ns es links base)
  | reaches_step w w' : reaches lanes values ns es links base w -> step lanes w w' -> reaches lanes values ns es links base w'.
End Splitting.
