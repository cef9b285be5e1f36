(** Spreading: [cru_spread] (src/entry.c:790-822) and src/spread.c, with [_cru_reach_extant_node],
    [_cru_reached_new_node] and [unique] (src/build.c:49-209), [_cru_status_launched] and
    [_cru_graph_launched] (src/launch.c:84-115, 314-375).

    Vertices, labels and addresses of nodes are numbers.  The [k]th node made by this operation has the
    address [addr k].  Memory allocation does not fail.  The destruction of user data is left out. *)
From Coq Require Import List Arith NArith Lia Bool Permutation.
From Verif Require Import Base Machine Env Graph Run Pass Brigade Fold Fabricate.
Import ListNotations.

Set Implicit Arguments.

(** An edge given with the graph, or one made now, with an address of its own, whose field remote is
    the declared vertex until the node is known. *)
Inductive bond := Given (l : word) (n : nat) | Made (i : nat) (l v : word).

(** Packets of the second pass, src/pack.h: one sent along an edge of the graph as it is given
    (src/spread.c:237, or the initial one, src/launch.c:346-347), which has a receiver and maybe the label
    of its carrier, and one sent along a new edge (src/scatter.c:348-375), which has a payload and
    a carrier. *)
Inductive spkt := Reach (n : nat) (l : option word) | Carry (v : word) (i : nat) (l : word).

(** ** The state of the first pass *)
Record pdata := mkPD {
  p_table : nat -> N -> list nat;       (* collided: lane, bin, receivers *)
  p_list : nat -> list nat;             (* deletions, per lane *)
  p_loop : nat -> bool;                 (* whether that list has become cyclic *)
  p_outs : nat -> list (word * nat);    (* edges_out *)
  p_seen : nat -> list nat;             (* per lane *)
  p_kil : nat -> bool;                  (* killed, per lane *)
  p_killed : bool;                      (* r->killed *)
  p_tick : nat                          (* packets processed so far *)
}.

(** ** The state of the second pass *)
Record sdata := mkSD {
  souts : nat -> list bond;             (* edges_out *)
  vert : nat -> word;
  table : nat -> N -> list nat;         (* collided: lane, bin, receivers *)
  labs : nat -> list (N * word);        (* seen_carriers of the packet with the receiver *)
  queue : nat -> list nat;              (* per lane *)
  started : nat -> bool;                (* per lane *)
  res : nat -> option nat;              (* remote.node of a new edge *)
  ne : nat;                             (* new edges so far *)
  nn : nat;                             (* new nodes so far *)
  count : nat -> nat;                   (* per lane *)
  serr : nat -> option error;           (* *err, per lane *)
  skil : nat -> bool;                   (* killed, per lane *)
  skilled : bool;                       (* r->killed *)
  stick : nat;                          (* packets processed so far *)
  hung : bool;                          (* whether some worker is in an infinite loop *)
  calls : list (option word * word)     (* calls of the connector or subconnector, latest first *)
}.

Section Spread.
  Variable X : env.
  Variable g : graph word word.
  (** The builder: the function is as in Build.v *)
  Variable sub : bool.
  Variable conn : option word -> word -> list (word * word) * option error.
  Variable veq : word -> word -> bool.
  Variable vhash : word -> N.
  Variable eeq : word -> word -> bool.
  Variable ehash : word -> N.
  Variable vertex_limit : nat.
  Variable addr : nat -> nat.

  Definition vlane (v : word) : nat := lane_of (lanes X) (vhash v).
  (** src/table.c:47-71 *)
  Definition vbin (v : word) : N := if judy X then vhash v else 0%N.
  (** The complement of UNEQUAL, src/spread.c:44 *)
  Definition same (v w : word) : bool := N.eqb v w || veq v w.
  Definition mem (n : nat) (l : list nat) : bool := existsb (Nat.eqb n) l.
  Definition put_bin (t : nat -> N -> list nat) (l : nat) (k : N) (n : nat) : nat -> N -> list nat :=
    upd t l (fun j => if N.eqb j k then t l j ++ [n] else t l j).

  (** ** [_cru_prespreading_task], src/spread.c:120-203, with [packed] (70-110) and [push_severed]
      (45-60).  The packet is its receiver; the payload is null (src/launch.c:107, src/scatter.c:237, 285).
      [packed] is tried if the worker hasn't been killed.  If it has been, the outgoing edges are
      destroyed and the node is pushed to the list even if it has been pushed before. *)
  Definition pstart : pdata :=
    mkPD (fun _ _ => []) (fun _ => []) (fun _ => false) (es g) (fun _ => []) (fun _ => false) false 0.

  Definition prespreading (Y : env) (s : pdata) (n : nat) : option (pdata * list nat) :=
    let l := vlane (vx g n) in
    let b := vbin (vx g n) in
    let k := p_killed s || killcalls Y (p_tick s) in
    let kil := p_kil s l || (k && notices Y (p_tick s)) in
    let idle := mkPD (p_table s) (p_list s) (p_loop s) (p_outs s) (p_seen s) (upd (p_kil s) l kil) k (S (p_tick s)) in
    let next := map snd (p_outs s n) in
    Some
      (if mem n (p_seen s l) then (idle, [])
       else if kil then
         (mkPD (p_table s) (upd (p_list s) l (n :: p_list s l)) (upd (p_loop s) l (p_loop s l || mem n (p_list s l)))
               (upd (p_outs s) n []) (upd (p_seen s) l (n :: p_seen s l)) (upd (p_kil s) l kil) k (S (p_tick s)), next)
       else if existsb (fun m => same (vx g n) (vx g m)) (p_table s l b) then (idle, [])
       else
         (mkPD (put_bin (p_table s) l b n) (upd (p_list s) l (n :: p_list s l)) (p_loop s) (p_outs s) (p_seen s)
               (upd (p_kil s) l kil) k (S (p_tick s)), next)).

  Definition pdest (n : nat) : nat := vlane (vx g n).

  (** ** The second pass, after the first one has left the state [s0] *)
  Section Second.
    Variable s0 : pdata.

    Definition sstart : sdata :=
      mkSD (fun n => map (fun e => Given (fst e) (snd e)) (p_outs s0 n)) (vx g) (p_table s0) (fun _ => [])
           (fun _ => []) (fun _ => false) (fun _ => None) 0 0 (fun _ => 0) (fun _ => None) (fun _ => false)
           false 0 false [].

    (** [unique], src/build.c:49-81, applied to what was declared: all is freed if there is an error. *)
    Definition declared (o : option word) (v : word) : list (word * word) * option error :=
      let (ds, e) := conn o v in
      match e with
      | Some _ => ([], e)
      | None =>
          (fst (unique (judy X) (fun d => ehash (fst d)) (fun d d' => eeq (fst d) (fst d'))
                       (fun d d' => same (snd d) (snd d')) ds), None)
      end.

    (** src/spread.c:330-339: with a connector, nothing is done about duplicates.  With a subconnector,
        edges with equal labels to the same vertex, i.e. the same pointer, are deleted.
        If there is an error, all is freed (src/scatter.c:373-374). *)
    Definition broken (o : option word) (v : word) : list (word * word) * option error :=
      let (ds, e) := conn o v in
      match e with
      | Some _ => ([], e)
      | None => (if sub then fst (deduplicated_edges eeq (judy X) ehash fst (fun d : word * word => snd d) ds) else ds, None)
      end.

    (** The edges with their addresses, and the packets, [_cru_scatter_out_or_consume],
        src/scatter.c:347-375 *)
    Definition number (i : nat) (k : list (word * word)) : list bond :=
      map (fun x => Made (fst x) (fst (snd x)) (snd (snd x))) (combine (seq i (length k)) k).
    Definition scatter (k : list bond) : list spkt :=
      flat_map (fun e => match e with Made i l v => [Carry v i l] | Given _ _ => [] end) k.

    (** The function is called for the node [n] with the vertex [v], [f] being what becomes of the
        edges, which are put in front of those that are there already. *)
    Definition connect (f : option word -> word -> list (word * word) * option error)
               (s : sdata) (l n : nat) (o : option word) (v : word) : sdata * list spkt :=
      let (k, e) := f o v in
      let b := number (ne s) k in
      (mkSD (upd (souts s) n (b ++ souts s n)) (vert s) (table s) (labs s) (queue s) (started s) (res s)
            (ne s + length k) (nn s) (count s) (upd (serr s) l e) (skil s) (skilled s) (stick s) (hung s)
            ((o, v) :: calls s),
       scatter b).

    Definition fault (s : sdata) (l : nat) (e : error) : sdata :=
      mkSD (souts s) (vert s) (table s) (labs s) (queue s) (started s) (res s) (ne s) (nn s) (count s)
           (upd (serr s) l (Some e)) (skil s) (skilled s) (stick s) (hung s) (calls s).
    (** src/spread.c:415-418, where the packet is discarded *)
    Definition halt (s : sdata) (l : nat) : sdata :=
      mkSD (souts s) (vert s) (table s) (labs s) (queue s) (started s) (res s) (ne s) (nn s) (count s)
           (serr s) (upd (skil s) l true) true (stick s) (hung s) (calls s).
    Definition halt_if_faulty (s : sdata) (l : nat) : sdata :=
      match serr s l with None => s | Some _ => halt s l end.

    (** [break_out], src/spread.c:294-341, and 397.  The label is recorded in a packet that is thrown
        away. *)
    Definition break_out (s : sdata) (l n : nat) (x : option word) : sdata * list spkt :=
      match serr s l with
      | Some _ => (halt s l, [])
      | None =>
          match souts s n with
          | _ :: _ => (s, [])
          | [] =>
              match sub, x with
              | true, None => (halt (fault s l IER) l, [])     (* 1607 *)
              | _, _ => let (s', out) := connect broken s l n (if sub then x else None) (vert s n) in
                        (halt_if_faulty s' l, out)
              end
          end
      end.

    Definition collision (s : sdata) (l : nat) (v : word) : option nat :=
      find (fun n => same v (vert s n)) (table s l (vbin v)).

    (** [_cru_reach_extant_node], src/build.c:93-141 *)
    Definition reach_extant (s : sdata) (l n i : nat) (x : word) : sdata * list spkt :=
      let s1 := mkSD (souts s) (vert s) (table s) (labs s) (queue s) (started s) (upd (res s) i (Some n)) (ne s)
                     (nn s) (count s) (serr s) (skil s) (skilled s) (stick s) (hung s) (calls s) in
      if negb sub || recorded eeq (judy X) (ehash x) x (labs s n) then (s1, [])
      else
        connect declared
          (mkSD (souts s1) (vert s1) (table s1) (upd (labs s) n (record_edge eeq (judy X) (ehash x) x (labs s n)))
                (queue s1) (started s1) (res s1) (ne s1) (nn s1) (count s1) (serr s1) (skil s1) (skilled s1)
                (stick s1) (hung s1) (calls s1))
          l n (Some x) (vert s n).

    (** [_cru_reached_new_node], src/build.c:155-209, and the insertion into the table,
        src/spread.c:410 *)
    Definition reached_new (s : sdata) (l : nat) (v : word) (i : nat) (x : word) : sdata * list spkt :=
      let n := addr (nn s) in
      connect declared
        (mkSD (upd (souts s) n []) (upd (vert s) n v) (put_bin (table s) l (vbin v) n)
              (upd (labs s) n (if sub then [(ehash x, x)] else [])) (upd (queue s) l (queue s l ++ [n]))
              (started s) (upd (res s) i (Some n)) (ne s) (S (nn s)) (count s) (serr s) (skil s) (skilled s)
              (stick s) (hung s) (calls s))
        l n (if sub then Some x else None) v.

    (** src/spread.c:387-388 *)
    Definition limit : nat :=
      match vertex_limit / lanes X with 0 => if vertex_limit =? 0 then 0 else 1 | k => k end.

    Definition set_count (s : sdata) (l : nat) : sdata :=
      mkSD (souts s) (vert s) (table s) (labs s) (queue s) (started s) (res s) (ne s) (nn s)
           (upd (count s) l (S (count s l))) (serr s) (skil s) (skilled s) (stick s) (hung s) (calls s).

    (** src/spread.c:398-414; in case of an overflow the packet is discarded in the next round, which is
        included here. *)
    Definition carry (s : sdata) (l : nat) (kil : bool) (v : word) (i : nat) (x : word) : sdata * list spkt :=
      match serr s l, kil with
      | None, false =>
          match collision s l v with
          | Some n => reach_extant s l n i x
          | None =>
              if limit =? 0 then reached_new s l v i x
              else if count s l <? limit then reached_new (set_count s l) l v i x
              else (halt (fault (set_count s l) l INTOVF) l, [])
          end
      | _, _ => (halt s l, [])
      end.

    (** [start], src/spread.c:213-238, in the beginning of the first round (392-393).  If the list is
        cyclic, [_cru_queue_of] (src/queue.c:37-54) doesn't return. *)
    Definition begin (s : sdata) (l : nat) : sdata * list spkt :=
      if started s l then (s, [])
      else
        (mkSD (souts s) (vert s) (table s) (labs s) (upd (queue s) l (p_list s0 l)) (upd (started s) l true) (res s)
              (ne s) (nn s) (count s) (serr s) (skil s) (skilled s) (stick s) (hung s || p_loop s0 l) (calls s),
         flat_map (fun n => map (fun e => Reach (snd e) (Some (fst e))) (p_outs s0 n)) (p_list s0 l)).

    Definition sdest (p : spkt) : nat :=
      match p with Reach n _ => vlane (vx g n) | Carry v _ _ => vlane v end.

    (** Whether the [k]th packet comes in the same list as one that is discarded, behind it.  If so, and
        its receiver is not null, it is discarded too (src/spread.c:415). *)
    Variable dropped : nat -> bool.

    (** One round of src/spread.c:389-419.  Once there is an infinite loop, the rest doesn't matter. *)
    Definition spreading (Y : env) (s : sdata) (p : spkt) : option (sdata * list spkt) :=
      let l := sdest p in
      let k := skilled s || killcalls Y (stick s) in
      let kil := skil s l || (k && notices Y (stick s)) in
      let s1 := mkSD (souts s) (vert s) (table s) (labs s) (queue s) (started s) (res s) (ne s) (nn s) (count s)
                     (serr s) (upd (skil s) l kil) k (S (stick s)) (hung s) (calls s) in
      Some
        (if hung s then (s1, [])
         else
           let (s2, o1) := begin s1 l in
           if hung s2 then (s2, [])
           else
             let (s3, o2) :=
               match p with
               | Reach n x => if skil s l && dropped (stick s) then (s2, []) else break_out s2 l n x
               | Carry v i x => carry s2 l kil v i x
               end in
             (s3, o1 ++ o2)).

    (** remote.node in the end, which would be a vertex if no node were assigned *)
    Definition remote (s : sdata) (b : bond) : nat :=
      match b with
      | Given _ n => n
      | Made i _ v => match res s i with Some m => m | None => N.to_nat v end
      end.
    Definition blabel (b : bond) : word := match b with Given l _ => l | Made _ l _ => l end.

    (** src/spread.c:424-426 *)
    Definition finished_edges (s : sdata) (n : nat) : list (word * nat) :=
      map (fun b => (blabel b, remote s b))
        (if sub then fst (deduplicated_edges eeq (judy X) ehash blabel (fun b => N.of_nat (remote s b)) (souts s n))
         else souts s n).

    Definition spread_graph (s : sdata) : graph word word :=
      mkGraph (flat_map (queue s) (seq 0 (lanes X))) (vert s) (finished_edges s) (root g).

    (** Whether [_cru_sweep] (src/route.c:766-780) finds nodes left in a port, in which case it resets
        the router, so that [_cru_free_router] doesn't know that it was killed. *)
    Definition leftover (s : sdata) : bool :=
      existsb (fun l => negb (started s l) && (0 <? length (p_list s0 l))) (seq 0 (lanes X)).
    Definition spread_status (Y : env) (order : list nat) (s : sdata) : option error :=
      if leftover s && negb (lanes X =? 1) then first_error (serr s) order
      else final_status (serr s) (skilled s || killcalls Y (stick s)) order.
  End Second.

  (** ** [_cru_spread], src/spread.c:440-476, on a valid graph.  [kills] are the kill requests in the
      two passes.  The first one raises no errors, and if it is killed, then nobody knows because the
      router is reset (459, src/route.c:512).  *)
  Variable kills : nat -> nat -> bool.
  Variable dropped : nat -> bool.

  Inductive verdict := Hung | Done (r : result (option (graph word word))).

  Definition outcome_after (s0 : pdata) (s : sdata) (order : list nat) : verdict :=
    if hung s then Hung
    else Done (match spread_status s0 (in_pass X kills 1) order s with
               | None => (Some (spread_graph s), None)
               | Some e => (None, Some e)
               end).

  Inductive spreads : verdict -> list (option word * word) -> Prop :=
  | spread_passes s0 s order :
      ran (lanes X) pdest (prespreading (in_pass X kills 0)) pstart (root g) s0 ->
      ran (lanes X) sdest (spreading s0 dropped (in_pass X kills 1)) (sstart s0) (Reach (root g) None) s ->
      Permutation order (seq 0 (lanes X)) ->
      spreads (outcome_after s0 s order) (rev (calls s)).
End Spread.
