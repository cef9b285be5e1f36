(** What becomes of the vertices and edge labels obtained from user functions when a graph is fabricated or a product of graphs is
    made, including when functions fail: src/fab.c:47-177, src/cross.c:72-394, src/scatter.c:44-59, 93-117, src/edges.c:43-80 and
    126-146.  File Construct.v is about the results.  Here, values are followed individually until they are destroyed, and it is
    of no importance what they are.

    Simplifications.
    - The arguments of the operation are given by [succ]: an item is a node of the given graph, or a pair of nodes of the two
      given graphs, and its successors are the termini of the edges, or pairs of them.
    - There are destructors for vertices and labels.  (If there are none, there is nothing to be destroyed.)
    - Internal errors (IER) other than those mentioned do not occur.
    - Packets can be received in any order, and are received before any worker exits (see Machine.v).
    - The node an edge is connected to is left out. *)
From Coq Require Import List Arith Bool Lia.
Import ListNotations.

Set Implicit Arguments.

(** The state of a worker while it is making a node.  Values are numbered in the order in which they are made. *)
Record st := mkSt {
  clock : nat;                          (* the number of calls so far, of all workers *)
  err : bool;                           (* whether *err is non-zero *)
  made : list nat;                      (* values returned by user functions *)
  dead : list nat;                      (* values passed to destructors *)
  next : nat;                           (* the number of edges allocated *)
  pmade : nat;                          (* products allocated, src/cross.c:60-89 *)
  pfreed : nat                          (* ... and freed *)
}.

Definition edge := (nat * nat * option nat)%type.  (* the number of an edge, the item it leads to, and its label unless it is NULL *)
Definition label_of (e : edge) : option nat := snd e.

Section Making.
  (** How the calls turn out, depending on the time *)
  Variable heap : nat -> bool.                  (* whether an allocation succeeds *)
  Variable reserve : nat -> bool.               (* if not, whether there is a packet in reserve *)
  Variable vuser : nat -> bool * bool.          (* whether the function for vertices returns NULL, and whether it raises an error *)
  Variable euser : nat -> bool * bool.          (* the same of the function for labels *)
  Variable puser : nat -> bool * bool.          (* whether the predicate is true, and whether it raises an error *)
  Variable dies : nat -> bool.                  (* whether the destructor raises an error when applied to a value *)

  Definition tick (s : st) : st := mkSt (S (clock s)) (err s) (made s) (dead s) (next s) (pmade s) (pfreed s).
  Definition fail (s : st) : st := mkSt (clock s) true (made s) (dead s) (next s) (pmade s) (pfreed s).

  (** _cru_malloc and RAISE(ENOMEM) *)
  Definition alloc (s : st) : bool * st := if heap (clock s) then (true, tick s) else (false, tick (fail s)).
  (** new_packet, src/pack.c:103-122: if there is no memory, an error is raised even if a packet is taken from the reserve. *)
  Definition packet (s : st) : bool * st := if heap (clock s) then (true, tick s) else (reserve (clock s), tick (fail s)).

  (** APPLIED, src/errs.h:57.  Beware that a result may be returned when an error is raised. *)
  Definition applied (f : nat -> bool * bool) (s : st) : option nat * st :=
    if err s then (None, s) else
    let (null, e) := f (clock s) in
    let s := if e then fail (tick s) else tick s in
    if null then (None, s)
    else (Some (length (made s)), mkSt (clock s) (err s) (length (made s) :: made s) (dead s) (next s) (pmade s) (pfreed s)).
  (** PASSED, src/errs.h:55 *)
  Definition passed (s : st) : bool * st :=
    if err s then (false, s) else
    let (b, e) := puser (clock s) in
    if e then (false, fail (tick s)) else (b, tick s).
  (** APPLY, src/errs.h:58, to a destructor, if the value isn't NULL *)
  Definition destroy (v : option nat) (s : st) : st :=
    match v with
    | None => s
    | Some v => mkSt (clock s) (err s || dies v) (made s) (v :: dead s) (next s) (pmade s) (pfreed s)
    end.
  Definition destroy_all (vs : list (option nat)) (s : st) : st := fold_left (fun s v => destroy v s) vs s.
  Definition number (s : st) : st := mkSt (clock s) (err s) (made s) (dead s) (S (next s)) (pmade s) (pfreed s).
  Definition product (s : st) : st := mkSt (clock s) (err s) (made s) (dead s) (next s) (S (pmade s)) (pfreed s).
  Definition free_products (n : nat) (s : st) : st := mkSt (clock s) (err s) (made s) (dead s) (next s) (pmade s) (n + pfreed s).

  (** [_cru_edge], src/edges.c:43-80, with destructors and without a remote vertex or a next edge *)
  Definition new_edge (y : nat) (l : option nat) (s : st) : option edge * st :=
    if err s then (None, destroy l s) else
    match alloc s with
    | (true, s) => (Some (next s, y, l), number s)
    | (false, s) => (None, destroy l s)
    end.

  (** A node that was made: its vertex, its edges, and those of them along which packets are sent *)
  Definition outcome := option (option nat * list edge * list edge).

  (** ** Fabrication *)

  (** the loop in src/fab.c:79-81 *)
  Fixpoint fab_edges (ys : list nat) (es : list edge) (s : st) : list edge * st :=
    match ys with
    | [] => (es, s)
    | y :: ys =>
        if err s then (es, s) else
        let (l, s) := applied euser s in
        match new_edge y l s with
        | (Some e, s) => fab_edges ys (e :: es) s
        | (None, s) => fab_edges ys es s
        end
    end.
  (** [_cru_scatter_out], src/scatter.c:93-117: the number of edges along which packets could be sent *)
  Fixpoint scatter_out (es : list edge) (s : st) : nat * st :=
    match es with
    | [] => (0, s)
    | _ :: es => match packet s with
                 | (true, s) => let (n, s) := scatter_out es s in (S n, s)
                 | (false, s) => (0, s)
                 end
    end.
  Definition unlabelled (e : edge) : edge := (fst e, None).
  (** [new_node], src/fab.c:47-95, given the successors of the item.  There is no provision for a vertex that is returned when an error
      is raised (line 77). *)
  Definition fab_node (ys : list nat) (s : st) : outcome * st :=
    if err s then (None, s) else
    let (v, s) := applied vuser s in
    if err s then (None, s) else
    match alloc s with
    | (false, s) => (None, destroy v s)                      (* [_cru_node_of], src/nodes.c:37-66 *)
    | (true, s) =>
        let (es, s) := fab_edges ys [] s in
        let undo (s : st) := destroy v (destroy_all (map label_of es) s) in   (* [_cru_free_nodes], line 90 *)
        if err s then (None, undo s) else
        match alloc s with                                   (* [_cru_enqueued_node] *)
        | (false, s) => (None, undo s)
        | (true, s) =>
            let (n, s) := scatter_out es s in
            let s := destroy_all (map label_of (skipn n es)) s in   (* 86-88 *)
            (Some (v, firstn n es ++ map unlabelled (skipn n es), firstn n es), s)
        end
    end.

  (** ** Products *)

  (** the loop in [productive_packets_of], src/cross.c:192-216 *)
  Fixpoint pairs (ys : list nat) (es : list edge) (s : st) : list edge * st :=
    match ys with
    | [] => (es, s)
    | y :: ys =>
        if err s then (es, s) else
        match passed s with
        | (false, s) => pairs ys es s
        | (true, s) =>
            match alloc s with                               (* [product_of], 72-89 *)
            | (false, s) => pairs ys es s
            | (true, s) =>
                let s := product s in
                let (l, s) := applied euser s in
                let undo (s : st) := free_products 1 (destroy l s) in
                if err s then pairs ys es (undo s) else
                match alloc s with                           (* [_cru_edge] without destructors *)
                | (false, s) => pairs ys es (undo s)
                | (true, s) =>
                    let e := (next s, y, l) in
                    let s := number s in
                    let (_, s) := packet s in
                    if err s then pairs ys es (undo s) else pairs ys (e :: es) s
                end
            end
        end
    end.
  (** [free_productive_packets], src/cross.c:139-160 *)
  Definition free_packets (es : list edge) (s : st) : st := free_products (length es) (destroy_all (map label_of es) s).
  (** [reached_new_node], src/cross.c:259-307.  The result of [productive_packets_of] is NULL if there is an error, 217-219. *)
  Definition cross_node (ys : list nat) (s : st) : outcome * st :=
    let (es, s) := pairs ys [] s in
    if err s then (None, free_packets es s) else
    match alloc s with                                       (* [_cru_node_of] *)
    | (false, s) => (None, free_packets es s)
    | (true, s) =>
        let (v, s) := applied vuser s in
        if err s then (None, free_packets es (destroy v s)) else
        match alloc s with                                   (* [_cru_enqueued_node] *)
        | (false, s) => (None, free_packets es (destroy v s))
        | (true, s) => (Some (v, es, es), s)
        end
    end.

  (** ** All workers *)

  Variable crossing : bool.                     (* which operation it is *)
  Variable succ : nat -> list nat.              (* the successors of an item *)
  Variable lane : nat -> nat.                   (* the worker an item is sent to *)

  Record world := mkWorld {
    common : st;                                (* its flag is not used *)
    errs : nat -> bool;                         (* *err of each worker *)
    killed : nat -> bool;                       (* the variable killed of each worker *)
    flight : list (nat * option nat);           (* packets: the item and the number of the carrier, if any *)
    seen : list nat;                            (* items in the collision tables *)
    vertices : list (nat * option nat);         (* vertices of nodes in queues, with the worker *)
    edges : list (nat * edge);                  (* their edges *)
    wild : bool;                                (* whether a carrier was accessed that isn't in any node *)
    exited : list nat;                          (* workers having exited *)
    concluded : bool;
    failed : bool                               (* whether an error is reported in the end *)
  }.

  Definition enter (w : world) (l : nat) : st :=
    let s := common w in mkSt (clock s) (errs w l) (made s) (dead s) (next s) (pmade s) (pfreed s).
  Definition set_err (l : nat) (b : bool) (f : nat -> bool) : nat -> bool := fun k => if k =? l then b else f k.
  Definition leave (w : world) (l : nat) (s : st) (fl : list (nat * option nat)) (sn : list nat)
             (vs : list (nat * option nat)) (es : list (nat * edge)) (wd : bool) : world :=
    mkWorld s (set_err l (err s) (errs w)) (killed w) fl sn vs es (wild w || wd) (exited w) (concluded w) (failed w).

  (** The label of a carrier is taken out, src/fab.c:162-166. *)
  Fixpoint strip (c : nat) (es : list (nat * edge)) : option (option nat * list (nat * edge)) :=
    match es with
    | [] => None
    | (l, (n, y, v)) :: es =>
        if n =? c then Some (v, (l, (n, y, None)) :: es)
        else match strip c es with Some (v', es') => Some (v', (l, (n, y, v)) :: es') | None => None end
    end.
  Definition carried (c : option nat) (es : list (nat * edge)) : bool :=
    match c with None => true | Some c => match strip c es with Some _ => true | None => false end end.
  Definition mine (l : nat) (x : nat) : bool := lane x =? l.
  Definition owned {A} (l : nat) (x : nat * A) : bool := fst x =? l.
  Definition others {A} (p : A -> bool) (l : list A) : list A := filter (fun x => negb (p x)) l.

  (** [_cru_free_node_queue] for the nodes satisfying a condition *)
  Definition free_queue (vs : list (nat * option nat)) (es : list (nat * edge)) (s : st) : st :=
    destroy_all (map snd vs) (destroy_all (map (fun e => label_of (snd e)) es) s).

  Inductive step (lanes : nat) : world -> world -> Prop :=
  (* a packet received after an error or a kill, src/fab.c:147-148 and 161-167, src/cross.c:368-369 and 382-386.  In the latter case all packets
     received before are freed as well. *)
  | drop_step x c f1 f2 w s es wd sn : flight w = f1 ++ (x, c) :: f2 -> concluded w = false ->
      errs w (lane x) || killed w (lane x) = true ->
      (s, es, wd, sn) =
        (if crossing
         then (free_products (S (length (filter (mine (lane x)) (seen w)))) (enter w (lane x)), edges w, false,
               others (mine (lane x)) (seen w))
         else match c with
              | None => (enter w (lane x), edges w, false, seen w)
              | Some c => match strip c (edges w) with
                          | Some (v, es) => (destroy v (enter w (lane x)), es, false, seen w)
                          | None => (enter w (lane x), edges w, true, seen w)
                          end
              end) ->
      step lanes w (leave w (lane x) s (f1 ++ f2) sn (vertices w) es wd)
  (* a packet whose item has been received before, src/fab.c:154-161, src/cross.c:232-250 *)
  | extant_step x c f1 f2 w : flight w = f1 ++ (x, c) :: f2 -> concluded w = false ->
      errs w (lane x) || killed w (lane x) = false -> In x (seen w) ->
      step lanes w (leave w (lane x) (if crossing then free_products 1 (enter w (lane x)) else enter w (lane x)) (f1 ++ f2)
                          (seen w) (vertices w) (edges w) (negb (carried c (edges w))))
  (* a packet whose item hasn't, src/fab.c:156-157, src/cross.c:376-381; the vertex limit in the latter case is [over].  If a node of a
     product can't be made, the packet remains and will be dropped. *)
  | new_step x c f1 f2 w over r s : flight w = f1 ++ (x, c) :: f2 -> concluded w = false ->
      errs w (lane x) || killed w (lane x) = false -> ~ In x (seen w) -> (over = true -> crossing = true) ->
      (r, s) = (if over then (None, fail (enter w (lane x)))
                else if crossing then cross_node (succ x) (enter w (lane x)) else fab_node (succ x) (enter w (lane x))) ->
      step lanes w
        (match r with
         | Some (v, es, sent) =>
             leave w (lane x) s (map (fun e => (snd (fst e), Some (fst (fst e)))) sent ++ f1 ++ f2) (x :: seen w)
                   ((lane x, v) :: vertices w) (map (fun e => (lane x, e)) es ++ edges w) (negb (carried c (edges w)))
         | None => leave w (lane x) s (if crossing then flight w else f1 ++ f2) (seen w) (vertices w) (edges w)
                         (if crossing then false else negb (carried c (edges w)))
         end)
  (* an error other than those above, e.g. if a collision table can't be extended *)
  | trouble_step l w : concluded w = false -> ~ In l (exited w) ->
      step lanes w (leave w l (fail (enter w l)) (flight w) (seen w) (vertices w) (edges w) false)
  (* a worker notices that the operation is killed *)
  | kill_step l w : concluded w = false -> ~ In l (exited w) ->
      step lanes w (mkWorld (common w) (errs w) (set_err l true (killed w)) (flight w) (seen w) (vertices w) (edges w) (wild w)
                            (exited w) (concluded w) (failed w))
  (* a worker exits, src/fab.c:169-172, src/cross.c:388-391 *)
  | exit_step l w : flight w = [] -> concluded w = false -> l < lanes -> ~ In l (exited w) ->
      let sn := filter (mine l) (seen w) in
      let s := if crossing then free_products (length sn) (enter w l) else enter w l in
      let s' := if errs w l then free_queue (filter (owned l) (vertices w)) (filter (owned l) (edges w)) s else s in
      step lanes w
        (mkWorld s' (set_err l (err s') (errs w)) (killed w) [] (others (mine l) (seen w))
                 (if errs w l then others (owned l) (vertices w) else vertices w)
                 (if errs w l then others (owned l) (edges w) else edges w) (wild w) (l :: exited w) (concluded w) (failed w))
  (* the end of [_cru_graph_launched], src/launch.c:355-371, where there may be [other] errors *)
  | conclude_step w other : flight w = [] -> concluded w = false -> (forall l, l < lanes -> In l (exited w)) ->
      let bad := existsb (fun l => errs w l || killed w l) (seq 0 lanes) || other in
      step lanes w
        (mkWorld (if bad then free_queue (vertices w) (edges w) (common w) else common w) (errs w) (killed w) [] (seen w)
                 (if bad then [] else vertices w) (if bad then [] else edges w) (wild w) (exited w) true bad).

  (** The beginning: the packet for the base node, with a product of base nodes in the case of crossing *)
  Definition begin (x : nat) : world :=
    mkWorld (mkSt 0 false [] [] 0 (if crossing then 1 else 0) 0) (fun _ => false) (fun _ => false) [(x, None)] [] [] [] false [] false
            false.

  Inductive reaches (lanes : nat) (x : nat) : world -> Prop :=
  | reaches_begin : reaches lanes x (begin x)
  | reaches_step w w' : reaches lanes x w -> step lanes w w' -> reaches lanes x w'.
End Making.
