(** Lists of nodes as they are in memory: src/nodes.c:204-300 and 355-372, src/queue.c:36-185, src/crew.c:365-399.  Every node has a
    pointer to the next one, and another to the pointer by which it is pointed to, be that in the node before it or in a variable.
    Elsewhere in the model, there are just lists. *)
From Coq Require Import List Arith NArith Lia Bool Permutation.
From Verif Require Import Base.
Import ListNotations.

Set Implicit Arguments.

(** Places where a pointer to a node is stored: the field next_node of a node (src/nodes.h), or a variable such as s->survivors or
    the field front of a queue (src/queue.h) *)
Inductive loc := Nx (n : nat) | Hd (h : nat).
Definition loc_eqb (a b : loc) : bool :=
  match a, b with Nx n, Nx m => n =? m | Hd n, Hd m => n =? m | _, _ => false end.

Record heap := mkHeap {
  nxt : nat -> option nat;       (* next_node of each node *)
  prv : nat -> option loc;       (* previous *)
  hdr : nat -> option nat;       (* variables *)
  bck : nat -> option nat        (* the field back of each queue, which is named as the variable in its field front *)
}.

Definition deref (s : heap) (p : loc) : option nat := match p with Nx n => nxt s n | Hd h => hdr s h end.
Definition store (s : heap) (p : loc) (v : option nat) : heap :=
  match p with
  | Nx n => mkHeap (upd (nxt s) n v) (prv s) (hdr s) (bck s)
  | Hd h => mkHeap (nxt s) (prv s) (upd (hdr s) h v) (bck s)
  end.
Definition set_prv (s : heap) (n : nat) (p : option loc) : heap := mkHeap (nxt s) (upd (prv s) n p) (hdr s) (bck s).
Definition set_bck (s : heap) (q : nat) (v : option nat) : heap := mkHeap (nxt s) (prv s) (hdr s) (upd (bck s) q v).

(** A function returns nothing at all if an internal error is detected. *)

(** [_cru_pushed_node], src/nodes.c:211-226 *)
Definition pushed (n : nat) (p : loc) (s : heap) : option heap :=
  match prv s n, nxt s n with
  | None, None =>
      let s1 := set_prv s n (Some p) in
      let s2 := match deref s1 p with Some m => set_prv s1 m (Some (Nx n)) | None => s1 end in
      Some (store (store s2 (Nx n) (deref s2 p)) p (Some n))
  | _, _ => None
  end.

(** [_cru_severed], src/nodes.c:235-252 *)
Definition severed (n : nat) (s : heap) : option heap :=
  match prv s n with
  | None => None
  | Some p =>
      let s1 := match deref s p with Some m => if m =? n then store s p (nxt s n) else s | None => s end in
      let s2 := match nxt s1 n with
                | Some m => match prv s1 m with Some (Nx n') => if n' =? n then set_prv s1 m (prv s1 n) else s1 | _ => s1 end
                | None => s1
                end in
      Some (set_prv (store s2 (Nx n) None) n None)
  end.

(** [_cru_half_severed], src/nodes.c:261-277 *)
Definition half_severed (n : nat) (s : heap) : heap := store (set_prv s n None) (Nx n) None.

(** The last node of the list from [n] on, given more steps than necessary, as in the loops at src/nodes.c:297 and
    src/queue.c:51-52 *)
Fixpoint last_from (fuel : nat) (n : nat) (s : heap) : option nat :=
  match fuel with
  | 0 => None
  | S f => match nxt s n with None => Some n | Some m => last_from f m s end
  end.

(** [_cru_cat_nodes], src/nodes.c:284-300 *)
Definition cat_nodes (fuel : nat) (l r : option nat) (s : heap) : option (heap * option nat) :=
  match l, r with
  | Some a, Some b =>
      match last_from fuel a s with
      | Some z => Some (set_prv (store s (Nx z) (Some b)) b (Some (Nx z)), Some a)
      | None => None
      end
  | Some a, None => Some (s, Some a)
  | None, _ => Some (s, r)
  end.

(** The end of [start], src/mutate.c:460-462, where [m] is the place of the first node not mutated, and [d] that of s->deletions *)
Definition cut (fuel : nat) (m d : loc) (s : heap) : option heap :=
  match cat_nodes fuel (deref s m) (deref s d) s with
  | Some (s1, v) =>
      let s2 := store s1 d v in
      let s3 := match v with Some n => set_prv s2 n (Some d) | None => s2 end in
      Some (store s3 m None)
  | None => None
  end.

(** [_cru_listed], src/nodes.c:362-372 *)
Fixpoint listed (fuel : nat) (n : nat) (l : option nat) (s : heap) : option bool :=
  match fuel, l with
  | _, None => Some false
  | 0, _ => None
  | S f, Some m => if n =? m then Some true else listed f n (nxt s m) s
  end.

(** [_cru_queue_of], src/queue.c:36-54, where [q] is the new queue, in the event that it can be allocated *)
Definition queue_of (fuel : nat) (l : option nat) (q : nat) (s : heap) : option heap :=
  let s1 := set_bck (store s (Hd q) l) q l in
  match l with
  | None => Some s1
  | Some n =>
      let s2 := set_prv s1 n (Some (Hd q)) in
      match last_from fuel n s2 with Some z => Some (set_bck s2 q (Some z)) | None => None end
  end.

(** [_cru_nodes_of], src/queue.c:63-80, for an existing queue *)
Definition nodes_of (q : nat) (s : heap) : heap * option nat :=
  match hdr s q with
  | Some n => (set_prv s n None, Some n)
  | None => (s, None)
  end.

Definition is_none {A} (o : option A) : bool := match o with None => true | Some _ => false end.

(** [_cru_enqueued_node], src/queue.c:115-144, for an existing queue; where there is none, an empty one is allocated first by
    src/queue.c:127-130, for which see [new_queue] *)
Definition new_queue (q : nat) (s : heap) : heap := set_bck (store s (Hd q) None) q None.
Definition enqueued (n q : nat) (s : heap) : option heap :=
  match nxt s n, prv s n with
  | None, None =>
      if negb (Bool.eqb (is_none (hdr s q)) (is_none (bck s q))) then None
      else match bck s q with
           | Some z =>
               if is_none (nxt s z)
               then let s1 := set_prv s n (Some (Nx z)) in Some (set_bck (store s1 (Nx z) (Some n)) q (Some n))
               else None
           | None => Some (set_prv (set_bck (store s (Hd q) (Some n)) q (Some n)) n (Some (Hd q)))
           end
  | _, _ => None
  end.

(** [_cru_append_nodes], src/queue.c:154-185, for existing queues, of which [r] is freed *)
Definition append_nodes (q r : nat) (s : heap) : option heap :=
  if negb (Bool.eqb (is_none (hdr s r)) (is_none (bck s r))) then None
  else if negb (Bool.eqb (is_none (hdr s q)) (is_none (bck s q))) then None
  else match hdr s r, hdr s q with
       | None, None => Some s
       | None, Some f => Some (set_prv s f (Some (Hd q)))
       | Some f, None => Some (set_prv (set_bck (store s (Hd q) (Some f)) q (bck s r)) f (Some (Hd q)))
       | Some f, Some _ =>
           match bck s r, bck s q with
           | Some zr, Some zq =>
               if negb (is_none (nxt s zr)) then None
               else if negb (is_none (nxt s zq)) then None
               else match prv s f with
                    | Some p =>
                        if loc_eqb p (Hd r)
                        then Some (set_bck (set_prv (store s (Nx zq) (Some f)) f (Some (Nx zq))) q (Some zr))
                        else None
                    | None => None
                    end
           | _, _ => None
           end
       end.

(** The loop in [_cru_node_union], src/crew.c:387-396: the workers' queues, some of which may be missing, are appended to the first
    of them; the base is the front of that made by worker [base_bay].  Simplified: the flag r->basic tested at src/crew.c:392 is
    left out because it is zero in every queue, there being no assignment to it in src other than by memset (src/queue.c:47 and
    128); consequently the test of [hit] at src/crew.c:393 never raises the error, because only one index is equal to [base_bay].
    Workers are assumed to be joined without an error, and the statuses of the queues are left out. *)
Fixpoint union_loop (base_bay i : nat) (queues : list (option nat)) (q : option nat) (base : option nat) (s : heap) :
    option (heap * option nat * option nat) :=
  match queues with
  | [] => Some (s, q, base)
  | None :: rest => union_loop base_bay (S i) rest q base s
  | Some r :: rest =>
      let base := if i =? base_bay then hdr s r else base in
      match q with
      | None => union_loop base_bay (S i) rest (Some r) base s
      | Some q0 => match append_nodes q0 r s with Some s1 => union_loop base_bay (S i) rest (Some q0) base s1 | None => None end
      end
  end.
Definition node_union (base_bay : nat) (queues : list (option nat)) (s : heap) : option (heap * option nat * option nat) :=
  match union_loop base_bay 0 queues None None s with
  | Some (s1, Some q, base) => let (s2, l) := nodes_of q s1 in Some (s2, l, base)
  | Some (s1, None, base) => Some (s1, None, base)
  | None => None
  end.

(** ** Operations as they are put together by the callers *)
Inductive op :=
| Push (n h : nat)        (* a severed or newly created node, src/filters.c:678, src/split.c:110 *)
| Sever (n : nat)         (* src/filters.c:675, src/mutate.c:545, src/duplex.c:259 *)
| Create (q : nat)        (* the allocation of a queue, src/queue.c:127-128 *)
| Enqueue (n q : nat)     (* src/filters.c:675, src/stretch.c:394 *)
| Append (q r : nat)      (* src/mutate.c:588 *)
| Convert (h q : nat)     (* a queue is made of the list in a variable, which is cleared, src/mutate.c:582-587 *)
| Revert (q h : nat)      (* the nodes of a queue are stored in a variable, src/filters.c:725-727, src/launch.c:210 *)
| Cut (h k d : nat).      (* all but the first [k] nodes are moved, src/mutate.c:450-462 *)

(** The place that is reached from [p] after [k] nodes, as in the loop at src/mutate.c:450-459 *)
Fixpoint after (k : nat) (p : loc) (s : heap) : loc :=
  match k with
  | 0 => p
  | S k => match deref s p with Some n => after k (Nx n) s | None => p end
  end.

Definition exec (fuel : nat) (o : op) (s : heap) : option heap :=
  match o with
  | Push n h => pushed n (Hd h) s
  | Sever n => severed n s
  | Create q => Some (new_queue q s)
  | Enqueue n q => enqueued n q s
  | Append q r => append_nodes q r s
  | Convert h q => match queue_of fuel (hdr s h) q s with Some s1 => Some (store s1 (Hd h) None) | None => None end
  | Revert q h =>
      let (s1, l) := nodes_of q s in
      let s2 := store s1 (Hd h) l in
      Some (match l with Some n => set_prv s2 n (Some (Hd h)) | None => s2 end)
  | Cut h k d => cut fuel (after k (Hd h) s) (Hd d) s
  end.

Fixpoint execs (fuel : nat) (os : list op) (s : heap) : option heap :=
  match os with
  | [] => Some s
  | o :: os => match exec fuel o s with Some s1 => execs fuel os s1 | None => None end
  end.
