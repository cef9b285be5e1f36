(** Freeing a graph: src/graph.c, src/nodes.c, src/edges.c, src/entry.c:1028-1047. *)
From Coq Require Import List Arith NArith Lia Bool Permutation.
From Verif Require Import Base Machine Env Hash Graph Visitor Pass Walk Run Fold Traverse.
Import ListNotations.

Set Implicit Arguments.

(** Calls of the destructors, identified by the node or by the node and the position of the edge,
    and by what was passed. *)
Inductive free_call := FreeV (n : nat) (v : word) | FreeE (n i : nat) (l : word).

Section Free.
  Variable X : env.
  Variable g : graph word word.
  Variables v_free e_free : option dtor.

  (** Calls made so far, nodes freed so far (_cru_free (t), src/nodes.c:87), error status of every
      worker, and whether a node was accessed after being freed. *)
  Record fstate := mkF { flog : list free_call; fgone : list nat; ferr : nat -> option error; fbad : bool }.
  Definition fstart : fstate := mkF [] [] (fun _ => None) false.

  (** if (x) APPLY(d, x), src/errs.h:58, by worker [l]; destructors are called in spite of earlier
      errors *)
  Definition apply_dtor (l : nat) (d : option dtor) (c : free_call) (x : word) (s : fstate) : fstate :=
    if is_null x then s
    else match d with
         | None => s
         | Some d => mkF (flog s ++ [c]) (fgone s) (upd (ferr s) l (first_of (ferr s l) (fails d x))) (fbad s)
         end.

  (** src/edges.c:155-197 with only a label destructor, from the i-th edge on *)
  Fixpoint free_labels (l n i : nat) (es : list (word * nat)) (s : fstate) : fstate :=
    match es with
    | [] => s
    | (x, _) :: es' => free_labels l n (Datatypes.S i) es' (apply_dtor l e_free (FreeE n i x) x s)
    end.

  (** One iteration of the loop in src/nodes.c:87-95; and what [_cru_freeing_task] does to a node not
      seen before: labels are freed while packets are sent (src/scatter.c:326-336), then the rest of
      the node (src/graph.c:220-221) *)
  Definition free_node (l : nat) (s : fstate) (n : nat) : fstate :=
    let s1 := mkF (flog s) (fgone s) (ferr s) (fbad s || existsb (Nat.eqb n) (fgone s)) in
    let s2 := free_labels l n 0 (es g n) s1 in
    let s3 := apply_dtor l v_free (FreeV n (vx g n)) (vx g n) s2 in
    mkF (flog s3) (fgone s3 ++ [n]) (ferr s3) (fbad s3).

  (** src/graph.c:114-128, [_cru_free_now], by the calling thread, numbered 0 *)
  Definition free_now : fstate := fold_left (free_node 0) (ids g) fstart.

  (** src/scatter.c:327: packets are not sent along edges from a node to itself.  (Packets have no
      carriers here, but receivers do not look at these.) *)
  Definition unscatterable (n : nat) : list (word * nat) := filter (fun e => negb (snd e =? n)) (es g n).

  (** The router is launched with UNKILLABLE, src/entry.c:1044.
      src/graph.c:204-227, supposing there is enough memory for the packets and for the table of
      nodes seen.  There is no test of *err or of the kill flag in the loop. *)
  Definition free_act (s : fstate) (n : nat) : fstate * option error := (free_node (lane_of_node X n) s n, None).
  Definition freeing : @vst fstate nat -> npkt word -> option (_ * list (npkt word)) :=
    walk (unkillable X) unscatterable free_act.

  (** src/entry.c:1041-1046: the calls made and the error reported, where [order] is that in which the
      workers finish *)
  Definition frees (order : list nat) (s : fstate) (e : option error) : Prop :=
    if lanes X <=? 1 then s = free_now /\ e = ferr s 0
    else exists t, ran (lanes X) (walk_dest X) freeing (vstart fstart) (initial (root g)) t /\
                   s = data t /\ e = first_error (ferr s) order.
End Free.
