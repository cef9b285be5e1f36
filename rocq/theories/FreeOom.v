(** Freeing a graph when memory is exhausted: src/graph.c:180-233, src/scatter.c:300-340, src/pack.c:103-122, 200-242, 393-465,
    src/nodes.c:326-344.  File Free.v is about the case that there is enough memory. *)
From Coq Require Import List Arith NArith Lia Bool Permutation.
From Verif Require Import Base Machine Env Hash Graph Visitor Run Fold Traverse.
Import ListNotations.

Set Implicit Arguments.

(** An edge as it is in memory, with the node and the position it came from, by which it is identified.  It may be moved to the
    list of another node. *)
Record xedge := mkXE { xfrom : nat; xpos : nat; xlab : word; xto : nat }.

(** Packets in flight: an ordinary one, or the buffer of a worker (struct packet_list_s buffer, src/graph.c:188), which isn't
    allocated *)
Inductive opkt := Pkt (n : nat) | Buf (k : nat).

Record ost := mkO {
  oedges : nat -> list xedge;           (* edges_out of each node *)
  oseen : nat -> list nat;              (* for each worker, the set of nodes seen *)
  odel : nat -> list nat;               (* ... s->deletions *)
  obuf : nat -> option nat;             (* ... buffer.payload *)
  oerr : nat -> bool;                   (* ... whether *err is non-zero *)
  olabels : list xedge;                 (* edges freed along with their labels *)
  overtices : list (nat * word);        (* vertices freed *)
  ogone : list nat;                     (* nodes freed *)
  obad : bool;                          (* whether a node was accessed after being freed, or a buffer in flight was empty *)
  ospare : nat;                         (* packet_count *)
  otick : nat                           (* number of allocations attempted *)
}.

Section Oom.
  Variable X : env.
  Variable g : graph word word.
  Variable heap : nat -> bool.          (* whether the n-th allocation succeeds *)
  Variables lraises vraises : word -> bool. (* whether the destructor raises an error *)
  Variable limit : nat.                 (* RESERVE_PACKET_LIMIT, src/pack.c:41 *)

  Local Notation lane := (lane_of_node X).

  Definition set_edges n l s := mkO (upd (oedges s) n l) (oseen s) (odel s) (obuf s) (oerr s) (olabels s) (overtices s) (ogone s) (obad s) (ospare s) (otick s).
  Definition set_buf k b s := mkO (oedges s) (oseen s) (odel s) (upd (obuf s) k b) (oerr s) (olabels s) (overtices s) (ogone s) (obad s) (ospare s) (otick s).
  (** RAISE(ENOMEM), or an error from a destructor, by worker [k] *)
  Definition raise (k : nat) (e : bool) s :=
    mkO (oedges s) (oseen s) (odel s) (obuf s) (upd (oerr s) k (oerr s k || e)) (olabels s) (overtices s) (ogone s) (obad s) (ospare s) (otick s).
  Definition tried s := mkO (oedges s) (oseen s) (odel s) (obuf s) (oerr s) (olabels s) (overtices s) (ogone s) (obad s) (ospare s) (S (otick s)).
  Definition set_spare m s := mkO (oedges s) (oseen s) (odel s) (obuf s) (oerr s) (olabels s) (overtices s) (ogone s) (obad s) m (otick s).
  Definition set_bad b s := mkO (oedges s) (oseen s) (odel s) (obuf s) (oerr s) (olabels s) (overtices s) (ogone s) (obad s || b) (ospare s) (otick s).
  (** n is dereferenced *)
  Definition touch (n : nat) s := set_bad (existsb (Nat.eqb n) (ogone s)) s.

  (** _cru_free_edges_and_labels of one edge, src/edges.c:155-197.  (Destructors are called only if they exist and if the label
      isn't null, about which see Free.v.) *)
  Definition free_edge (k : nat) (e : xedge) s :=
    raise k (lraises (xlab e)) (mkO (oedges s) (oseen s) (odel s) (obuf s) (oerr s) (olabels s ++ [e]) (overtices s) (ogone s) (obad s) (ospare s) (otick s)).

  (** new_packet, src/pack.c:103-122: from the heap, or else from the reserve, raising an error in any case.  (That other
      operations executed at the same time may use the reserve as well is left out.) *)
  Definition new_packet (k : nat) s : ost * bool :=
    if heap (otick s) then (tried s, true)
    else match ospare s with
         | S m => (set_spare m (raise k true (tried s)), true)
         | 0 => (raise k true (tried s), false)
         end.

  (** _cru_free_packets, src/pack.c:200-242 *)
  Definition nack s := if ospare s <? limit then set_spare (S (ospare s)) s else s.

  (** The loop in _cru_unscatterable, src/scatter.c:325-337, where [l] are the edges left in the list of [n]: edges are popped, and
      freed after having a packet sent along them unless they lead back to [n]; the edge is put back if that's impossible. *)
  Fixpoint unscatter (k n : nat) (l : list xedge) (s : ost) : ost * list nat :=
    match l with
    | [] => (s, [])
    | e :: l' =>
        if xto e =? n then unscatter k n l' (free_edge k e (set_edges n l' s))
        else match new_packet k s with
             | (s1, false) => (s1, [])
             | (s1, true) =>
                 let (s2, out) := unscatter k n l' (free_edge k e (set_edges n l' s1)) in (s2, xto e :: out)
             end
    end.

  (** _cru_free_nodes of one node, src/nodes.c:61-95, with the edges left in it *)
  Definition free_node (k n : nat) s :=
    let s1 := set_edges n [] (fold_left (fun s e => free_edge k e s) (oedges s n) (touch n s)) in
    raise k (vraises (vx g n))
      (mkO (oedges s1) (oseen s1) (odel s1) (obuf s1) (oerr s1) (olabels s1) (overtices s1 ++ [(n, vx g n)]) (ogone s1 ++ [n]) (obad s1) (ospare s1) (otick s1)).

  (** RECORDED, src/graph.c:186 *)
  Definition recorded (k n : nat) s : bool :=
    existsb (Nat.eqb n) (oseen s k) || (oerr s k && existsb (Nat.eqb n) (odel s k)).

  (** src/graph.c:219-224: the node is remembered and freed if there's enough memory, or otherwise put aside. *)
  Definition forget (k n : nat) s :=
    let s1 := tried s in
    if heap (otick s)
    then free_node k n (mkO (oedges s1) (upd (oseen s1) k (n :: oseen s1 k)) (odel s1) (obuf s1) (oerr s1) (olabels s1) (overtices s1) (ogone s1) (obad s1) (ospare s1) (otick s1))
    else raise k true (mkO (oedges s1) (oseen s1) (upd (odel s1) k (n :: odel s1 k)) (obuf s1) (oerr s1) (olabels s1) (overtices s1) (ogone s1) (obad s1) (ospare s1) (otick s1)).

  (** _cru_transplanted_out, src/nodes.c:333-344, for distinct nodes *)
  Definition transplant (b n : nat) s := set_edges n [] (set_edges b (oedges s n ++ oedges s b) (touch b s)).

  Definition is_empty {A} (l : list A) : bool := match l with [] => true | _ => false end.

  (** One iteration of the loop, src/graph.c:204-227, for an ordinary packet *)
  Definition receive (n : nat) (s : ost) : ost * list opkt :=
    let k := lane n in
    if recorded k n s then (nack s, [])
    else
      let (s1, out) := unscatter k n (oedges s n) (touch n s) in
      let out := map Pkt out in
      if is_empty (oedges s1 n) then
        match obuf s1 k with
        | Some b => if b =? n then (nack s1, out) else (nack (forget k n s1), out)
        | None => (nack (forget k n s1), out)
        end
      else
        match obuf s1 k with
        | None => (nack (set_buf k (Some n) s1), Buf k :: out)
        | Some b => if b =? n then (nack s1, out) else (nack (forget k n (transplant b n s1)), out)
        end.

  (** The same for the buffer of worker [k].  If no edge can be disposed of then the buffer is deferred again without anything else
      having happened, as the error has been raised before. *)
  Definition retry (k : nat) (s : ost) : option (ost * list opkt) :=
    match obuf s k with
    | None => Some (set_bad true s, [])
    | Some n =>
        if recorded k n s then Some (set_buf k None s, [])
        else
          let (s1, out) := unscatter k n (oedges s n) (touch n s) in
          if is_empty (oedges s1 n) then Some (set_buf k None (forget k n s1), map Pkt out)
          else if length (oedges s1 n) =? length (oedges s n) then None
          else Some (s1, Buf k :: map Pkt out)
    end.

  Definition frugal (s : ost) (p : opkt) : option (ost * list opkt) :=
    match p with Pkt n => Some (receive n s) | Buf k => retry k s end.

  (** The router's hash for ordinary packets; deferred packets stay with the worker. *)
  Definition odest (p : opkt) : nat :=
    match p with Pkt n => lane n | Buf k => if k <? lanes X then k else 0 end.

  Fixpoint tag (n i : nat) (l : list (word * nat)) : list xedge :=
    match l with [] => [] | (x, m) :: l' => mkXE n i x m :: tag n (S i) l' end.
  Definition ostart (spare : nat) : ost :=
    mkO (fun n => tag n 0 (es g n)) (fun _ => []) (fun _ => []) (fun _ => None) (fun _ => false) [] [] [] false spare 0.

  (** src/graph.c:228: each worker frees the nodes it has put aside. *)
  Definition purge (k : nat) (s : ost) : ost := fold_left (fun s n => free_node k n s) (odel s k) s.
  Definition purged (s : ost) : ost := fold_left (fun s k => purge k s) (seq 0 (lanes X)) s.

  (** What remains when all workers are finished *)
  Definition frees_frugally (spare : nat) (s : ost) : Prop :=
    exists t, ran (lanes X) odest frugal (ostart spare) (Pkt (root g)) t /\ s = purged t.
End Oom.
