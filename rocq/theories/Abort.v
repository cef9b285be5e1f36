(** What happens when an operation fails to start: [_cru_abort_packets] and [_cru_abort_new_packets]
    (src/ports.c:169-218), [_cru_graph_launched] (src/launch.c:314-375) and [_cru_built] (src/build.c:308-338). *)
From Coq Require Import List Arith NArith Lia Bool.
From Verif Require Import Fold Env.
Import ListNotations.

Set Implicit Arguments.

(** ** Discarding packets *)

(** A packet, src/pack.h: the fields that matter here.  A payload of 0 is NULL. *)
Record apacket := mkAP { payload : word; receiver : option nat }.

(** The payloads passed to the destructor, or a null pointer is dereferenced *)
Inductive aborted := Freed (vs : list word) | Null_dereferenced.

Definition and_then (vs : list word) (r : aborted) : aborted :=
  match r with Freed ws => Freed (vs ++ ws) | Null_dereferenced => Null_dereferenced end.

(** src/pack.c:203-239: _cru_free_packets applied to a single packet *)
Definition destroyed (v_free : bool) (p : apacket) : list word :=
  if v_free then if N.eqb (payload p) 0 then [] else [payload p] else [].

Section Abort.
  (** Whether a destructor is given for vertices *)
  Variable v_free : bool.

  (** src/ports.c:183-187: _cru_abort_packets, for the packets received by a worker until it is dismissed *)
  Definition abort_packets (ps : list apacket) : aborted := Freed (flat_map (destroyed v_free) ps).

  (** src/ports.c:211-213: the second argument of _cru_free_packets depends on the packet that [incoming] points to.
      The first argument is the packet popped from that list, which changes [incoming] to the next one of the
      same batch, if any.  The order of evaluation of arguments is unspecified in C. *)
  Definition destructor_for (p : apacket) : bool := match receiver p with Some _ => false | None => v_free end.

  (** Second argument first *)
  Fixpoint abort_right_to_left (ps : list apacket) : aborted :=
    match ps with
    | [] => Freed []
    | p :: ps' => and_then (destroyed (destructor_for p) p) (abort_right_to_left ps')
    end.

  (** First argument first *)
  Fixpoint abort_left_to_right (ps : list apacket) : aborted :=
    match ps with
    | [] => Freed []
    | p :: ps' =>
        match ps' with
        | [] => Null_dereferenced                                            (* incoming->receiver *)
        | q :: _ => and_then (destroyed (destructor_for q) p) (abort_left_to_right ps')
        end
    end.

  (** The batches received one after the other, none of which is empty *)
  Fixpoint in_batches (f : list apacket -> aborted) (bs : list (list apacket)) : aborted :=
    match bs with
    | [] => Freed []
    | b :: bs' => match f b with Freed vs => and_then vs (in_batches f bs') | Null_dereferenced => Null_dereferenced end
    end.
End Abort.

(** ** Launching *)

(** What is done with the router *)
Inductive revent := Use | Free.

(** The outcome of the system calls: whether the workers could be created (src/crew.c: _cru_crewed) and the initial
    packet be allocated and sent (src/pack.c: _cru_initial_packet_of, src/ports.c: _cru_assigned); and then
    the error status of the workers. *)
Record fortune := mkFortune { crewed : option error; packed : option error; worked : option error }.

Record launched := mkLaunched { l_started : bool; l_err : option error; l_graph : bool; l_router : list revent }.

(** src/launch.c:333-375: _cru_graph_launched, as called by _cru_built: [*g] is NULL, the tag is BUI, and the router is
    neither invalid nor shared.  Making the graph out of the nodes does not fail if there has been no error. *)
Definition graph_launched (o : fortune) : launched :=
  match crewed o with
  | Some e => mkLaunched false (Some e) false [Use; Use; Use; Use; Free]        (* 333-338; 354-357, 369-373 *)
  | None =>
      match packed o with
      | Some e => mkLaunched false (Some e) false [Use; Use; Use; Use; Use; Use; Use; Use; Free]
      | None => mkLaunched true (worked o) (match worked o with None => true | Some _ => false end)
                  [Use; Use; Use; Use; Use; Use; Use; Use; Free]
      end
  end.

(** The result of _cru_built: the vertex is freed by it or not, what happened to the router, and the error. *)
Record built := mkBuilt { b_freed : bool; b_router : list revent; b_err : option error; b_graph : bool }.

(** src/build.c:320-336: _cru_built, with an initial vertex other than NULL; [v_free] tells whether the destructor is
    defined in the router. *)
Definition built_from (v_free : bool) (o : fortune) : built :=
  let l := graph_launched o in
  if l_started l then mkBuilt false ([Use; Use; Use] ++ l_router l) (l_err l) (l_graph l)
  else mkBuilt v_free ([Use; Use; Use] ++ l_router l ++ [Use]) (l_err l) false.   (* 331: r->ro_sig *)
