(** Postponement of edges (src/postpone.c, src/entry.c:990-1018). *)
From Coq Require Import List Arith NArith Lia Bool Permutation.
From Verif Require Import Base Machine Env Hash Graph Visitor Walk Run Pass Fold Fabricate Brigade Compose.
Import ListNotations.

Set Implicit Arguments.

(** A postponer (include/cru/data_types.h, [cru_postponer_s]) after [_cru_inferred_postponer]
    (src/infer.c). *)
Record postponer := mkPostponer {
  postponable : word -> word -> word -> bool * option error;
  bpred : word -> word -> bool * option error;
  bop : word -> word -> outcome;
  po_fix : bool
}.

(** Packets: either a node is visited, or an edge is to be attached to it (the payload is ATTACH). *)
Inductive ppkt := Visit (n : nat) | Attach (n : nat) (e : edge).
Definition node_of (p : ppkt) : nat := match p with Visit n => n | Attach n _ => n end.

Section Postpone.
  Variable X : env.
  (** The nodes and the base node; g->nodes doesn't change. *)
  Variable g : graph word word.
  Variable c : postponer.
  (** g->g_sig.orders.e_order *)
  Variable eeq : word -> word -> bool.
  Variable ehash : word -> N.

  (** ** What is done with the edges of one node.  [v] are the vertices. *)
  Section Node.
    Variable v : nat -> word.

    (** [bipartition], src/postpone.c:50-80: the edges left in n->edges_out, which are those that point
        back to [n], and the lists stationary and movable, where edges are pushed on the front. *)
    Fixpoint bipartition (n : nat) (l self stat mov : list edge) : list edge * list edge * list edge * option error :=
      match l with
      | [] => (self, stat, mov, None)
      | (x, m) :: l' =>
          if m =? n then bipartition n l' (self ++ [(x, m)]) stat mov
          else match postponable c (v n) x (v m) with
               | (_, Some e) => (self, stat, mov, Some e)
               | (true, None) => bipartition n l' self stat ((x, m) :: mov)
               | (false, None) => bipartition n l' self ((x, m) :: stat) mov
               end
      end.

    (** [postponed], src/postpone.c:90-120, for the movable edge with the label [x] and the terminus [m]:
        the edges sent, with their recipients *)
    Fixpoint postponed (x : word) (m : nat) (stat : list edge) : list (nat * edge) * option error :=
      match stat with
      | [] => ([], None)
      | (y, k) :: stat' =>
          match bpred c x y with
          | (_, Some e) => ([], Some e)
          | (false, None) => postponed x m stat'
          | (true, None) =>
              match bop c x y with
              | (_, Some e) => ([], Some e)
              | (t, None) => let (r, e) := postponed x m stat' in ((k, (t, m)) :: r, e)
              end
          end
      end.

    (** The loop in src/postpone.c:154-158 *)
    Fixpoint relocate (stat mov out : list edge) : list edge * list (nat * edge) * option error :=
      match mov with
      | [] => (out, [], None)
      | (x, m) :: mov' =>
          match postponed x m stat with
          | (r, Some e) => (out, r, Some e)
          | ([], None) => relocate stat mov' ((x, m) :: out)
          | (r, None) => let '(o, r', e) := relocate stat mov' out in (o, r ++ r', e)
          end
      end.

    (** [postpone], src/postpone.c:130-162: the edges left in n->edges_out, and those sent.  If there is an
        error, the edges are left as they are here, since the graph will be freed. *)
    Definition postpone (n : nat) (l : list edge) : list edge * list (nat * edge) * option error :=
      if length l <=? 1 then (l, [], None)
      else match bipartition n l [] [] [] with
           | (_, _, _, Some e) => (l, [], Some e)
           | (self, [], mov, None) => (self ++ mov, [], None)
           | (self, stat, mov, None) =>
               match relocate stat mov self with
               | (o, r, None) => (o ++ stat, r, None)
               | (o, r, Some e) => (l, r, Some e)
               end
           end.
  End Node.

  (** ** [postponing_task], src/postpone.c:173-220.  [pout] is edges_out, [ppost] is edges_postponed, which
      is null at first because there are no back edges.  Edges are attached in spite of errors and
      requests to be killed. *)
  Record pst := mkP {
    pout : edges; ppost : edges;
    pseen : nat -> list nat;            (* per lane *)
    perr : nat -> option error;         (* per lane *)
    pkil : nat -> bool;                 (* per lane *)
    pkilled : bool;                     (* r->killed *)
    ptick : nat                         (* packets processed so far *)
  }.
  Definition pstart (o post : edges) : pst := mkP o post (fun _ => []) (fun _ => None) (fun _ => false) false 0.

  Definition pdest (p : ppkt) : nat := lane_of (lanes X) (node_hash (node_of p)).

  Section Passes.
    (** The circumstances of this pass *)
    Variable Y : env.
    Variable v : nat -> word.

    Definition postponing (s : pst) (p : ppkt) : option (pst * list ppkt) :=
      let l := pdest p in
      let k := pkilled s || killcalls Y (ptick s) in
      let kil := pkil s l || (k && notices Y (ptick s)) in
      Some
        (match p with
         | Attach n e =>
             (mkP (pout s) (upd (ppost s) n (e :: ppost s n)) (pseen s) (perr s) (upd (pkil s) l kil) k (S (ptick s)), [])
         | Visit n =>
             match perr s l with
             | Some _ => (mkP (pout s) (ppost s) (pseen s) (perr s) (upd (pkil s) l kil) k (S (ptick s)), [])
             | None =>
                 if kil || existsb (Nat.eqb n) (pseen s l) then
                   (mkP (pout s) (ppost s) (pseen s) (perr s) (upd (pkil s) l kil) k (S (ptick s)), [])
                 else
                   let '(o, r, e) := postpone v n (pout s n) in
                   (mkP (upd (pout s) n o) (ppost s) (upd (pseen s) l (n :: pseen s l)) (upd (perr s) l e)
                        (upd (pkil s) l kil) k (S (ptick s)),
                    map (fun e => Visit (snd e)) (pout s n) ++ map (fun r => Attach (fst r) (snd r)) r)
             end
         end).

    (** ** [absorbing_task], src/postpone.c:231-289.  [agone] are the nodes whose vertices have been
        destroyed, because their worker has been killed.  The comparison of labels is supposed to raise
        no errors. *)
    Record ast := mkA {
      aout : edges; apost : edges;
      agone : list nat;
      achanged : nat -> bool;           (* per lane *)
      aseen : nat -> list nat;          (* per lane *)
      akil : nat -> bool;               (* per lane *)
      akilled : bool;                   (* r->killed *)
      atick : nat
    }.
    Definition astart (o post : edges) (gone : list nat) : ast :=
      mkA o post gone (fun _ => false) (fun _ => []) (fun _ => false) false 0.

    (** src/postpone.c:271-276 *)
    Definition absorbed (s : ast) (n : nat) : list edge :=
      match apost s n with [] => aout s n | post => dedup X eeq ehash (post ++ aout s n) end.
    Definition increased (s : ast) (n : nat) : bool :=
      match apost s n with [] => false | _ => length (aout s n) <? length (absorbed s n) end.

    Definition absorbing (s : ast) (p : ppkt) : option (ast * list ppkt) :=
      let n := node_of p in
      let l := pdest p in
      let k := akilled s || killcalls Y (atick s) in
      let kil := akil s l || (k && notices Y (atick s)) in
      Some
        (if existsb (Nat.eqb n) (aseen s l) then
           (mkA (aout s) (apost s) (agone s) (achanged s) (aseen s) (upd (akil s) l kil) k (S (atick s)), [])
         else if kil then
           (mkA (aout s) (apost s) (n :: agone s) (achanged s) (upd (aseen s) l (n :: aseen s l)) (upd (akil s) l kil) k
                (S (atick s)), [])
         else
           (mkA (upd (aout s) n (absorbed s n)) (upd (apost s) n []) (agone s)
                (upd (achanged s) l (achanged s l || increased s n))
                (upd (aseen s) l (n :: aseen s l)) (upd (akil s) l kil) k (S (atick s)),
            map (fun e => Visit (snd e)) (absorbed s n))).
  End Passes.

  (** ** [_cru_postpone], src/postpone.c:346-392, from label c, and src/entry.c:1013-1017.  [kills] are the
      requests in the passes by the kill switch, where the passes of the [i]th iteration have the numbers
      [2 * i] and [2 * i + 1]. *)
  Variable kills : nat -> nat -> bool.

  (** - [Moved h]: success
      - [Failed e]: the graph has been freed by [free_now], which takes care of postponed edges
        (src/postpone.c:298-315)
      - [Cut o post gone]: the router was killed in the last pass, which is noticed only when it is freed
        (src/postpone.c:391, src/route.c:689), and the graph with the edges [o] was freed by
        [cru_free_now] (src/entry.c:1015-1016); the edges [post] had been postponed and not yet been
        absorbed, and the vertices of [gone] had been destroyed already. *)
  Inductive pverdict := Moved (h : graph word word) | Failed (e : error) | Cut (o post : edges) (gone : list nat).

  Definition vertices (gone : list nat) (n : nat) : word := if existsb (Nat.eqb n) gone then null else vx g n.

  Inductive prounds : nat -> edges -> edges -> list nat -> pverdict -> Prop :=
  | pr_error i o post gone s order e :
      ran (lanes X) pdest (postponing (in_pass X kills (2 * i)) (vertices gone)) (pstart o post) (Visit (root g)) s ->
      Permutation order (seq 0 (lanes X)) -> first_error (perr s) order = Some e ->
      prounds i o post gone (Failed e)
  | pr_last i o post gone s t :
      ran (lanes X) pdest (postponing (in_pass X kills (2 * i)) (vertices gone)) (pstart o post) (Visit (root g)) s ->
      first_error (perr s) (seq 0 (lanes X)) = None ->
      ran (lanes X) pdest (absorbing (in_pass X kills (2 * i + 1))) (astart (pout s) (ppost s) gone) (Visit (root g)) t ->
      po_fix c && existsb (achanged t) (seq 0 (lanes X)) = false ->
      prounds i o post gone
        (if akilled t || kills (2 * i + 1) (atick t) then Cut (aout t) (apost t) (agone t)
         else Moved (mkGraph (ids g) (vertices (agone t)) (aout t) (root g)))
  | pr_next i o post gone s t w :
      ran (lanes X) pdest (postponing (in_pass X kills (2 * i)) (vertices gone)) (pstart o post) (Visit (root g)) s ->
      first_error (perr s) (seq 0 (lanes X)) = None ->
      ran (lanes X) pdest (absorbing (in_pass X kills (2 * i + 1))) (astart (pout s) (ppost s) gone) (Visit (root g)) t ->
      po_fix c && existsb (achanged t) (seq 0 (lanes X)) = true ->
      prounds (S i) (aout t) (apost t) (agone t) w ->
      prounds i o post gone w.

  (** The operation on a valid graph without back edges *)
  Definition postpones (w : pverdict) : Prop := prounds 0 (es g) (fun _ => []) [] w.

  (** ** [cru_free_now], src/entry.c:1028-1047, which is applied to a graph with the edges [o] after a
      verdict [Cut o post gone].  More than one worker find the nodes by following edges from the base
      node (src/graph.c:180-230), and one works through the list of nodes (src/graph.c, [_cru_free_now]).
      Either way, the labels of the edges in [n->edges_out] are destroyed, and those of the edges in
      [n->edges_postponed] are not because it is taken for [n->edges_in] (src/nodes.c:89). *)
  Definition node_reclaimed (o : edges) (n : nat) : Prop := if 1 <? lanes X then along o (root g) n else In n (ids g).
  Definition vertex_reclaimed (o : edges) (gone : list nat) (n : nat) : Prop := In n gone \/ node_reclaimed o n.
  Definition edge_reclaimed (o : edges) (n : nat) (e : edge) : Prop := node_reclaimed o n /\ In e (o n).
End Postpone.
