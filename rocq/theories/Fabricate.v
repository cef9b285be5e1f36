(** Fabricating a graph isomorphic to a given one (src/fab.c) and crossing two graphs
    (src/cross.c). *)
From Coq Require Import List Arith NArith Lia Bool Permutation.
From Verif Require Import Base Machine Env Hash Graph Visitor Walk Construct.
Import ListNotations.

Set Implicit Arguments.

(** User functions return a value and may set the error status. *)
Definition result (A : Type) : Type := A * option error.

(** ** Fabricating *)
Section Fab.
  Context {V E W L : Type}.
  Variable X : env.
  Variable g : graph V E.
  Variable v_fab : V -> result W.
  Variable e_fab : E -> result L.

  (** Calls of the fabricator's functions, identified by the node or by the node and the position
      of the edge. *)
  Inductive fab_call := VFab (n : nat) | EFab (n i : nat).

  (** src/fab.c:79-81, from the i-th edge of node n on; new edges are put in front of [acc] *)
  Fixpoint fab_edges (n i : nat) (es : list (E * nat)) (acc : list (L * nat)) : list fab_call * (list (L * nat) + error) :=
    match es with
    | [] => ([], inl acc)
    | (l, m) :: es' =>
        match e_fab l with
        | (_, Some e) => ([EFab n i], inr e)
        | (l', None) => let (cs, r) := fab_edges n (S i) es' ((l', m) :: acc) in (EFab n i :: cs, r)
        end
    end.

  (** src/fab.c:76-83 *)
  Definition fab_make (n : nat) : list fab_call * (W * list (L * nat) + error) :=
    match v_fab (vx g n) with
    | (_, Some e) => ([VFab n], inr e)
    | (w, None) => let (cs, r) := fab_edges n 0 (es g n) [] in
                   (VFab n :: cs, match r with inl outs => inl (w, outs) | inr e => inr e end)
    end.

  Definition fab_dest : @cpkt nat -> nat := cdest X node_hash.
  (** src/fab.c:145-169; there is no limit *)
  Definition fabricating := making X Nat.eqb node_hash fab_make 0.
End Fab.

(** ** Crossing *)
Section Cross.
  Context {V1 E1 V2 E2 W L : Type}.
  Variable X : env.
  Variable g : graph V1 E1.
  Variable h : graph V2 E2.
  Variable bpred : E1 -> E2 -> result bool.
  Variable bop : E1 -> E2 -> result L.
  Variable v_prod : V1 -> V2 -> result W.
  Variable vertex_limit : nat.

  Inductive cross_call := CPred (a i b j : nat) | COp (a i b j : nat) | CVert (a b : nat).

  (** src/cross.c:193-215, with the i-th edge of node a, from the j-th edge of b on; packets are
      pushed in front *)
  Fixpoint cross_row (a i b j : nat) (l : E1) (m : nat) (rs : list (E2 * nat)) (acc : list (L * (nat * nat))) :
    list cross_call * (list (L * (nat * nat)) + error) :=
    match rs with
    | [] => ([], inl acc)
    | (r, o) :: rs' =>
        match bpred l r with
        | (_, Some e) => ([CPred a i b j], inr e)
        | (false, None) => let (cs, x) := cross_row a i b (S j) l m rs' acc in (CPred a i b j :: cs, x)
        | (true, None) =>
            match bop l r with
            | (_, Some e) => ([CPred a i b j; COp a i b j], inr e)
            | (lb, None) => let (cs, x) := cross_row a i b (S j) l m rs' ((lb, (m, o)) :: acc) in
                            (CPred a i b j :: COp a i b j :: cs, x)
            end
        end
    end.

  (** src/cross.c:192-218, [productive_packets_of] *)
  Fixpoint cross_edges (a i b : nat) (ls : list (E1 * nat)) (acc : list (L * (nat * nat))) :
    list cross_call * (list (L * (nat * nat)) + error) :=
    match ls with
    | [] => ([], inl acc)
    | (l, m) :: ls' =>
        match cross_row a i b 0 l m (es h b) acc with
        | (cs, inr e) => (cs, inr e)
        | (cs, inl acc') => let (cs', x) := cross_edges a (S i) b ls' acc' in (cs ++ cs', x)
        end
    end.

  (** src/cross.c:288-295 *)
  Definition cross_make (k : nat * nat) : list cross_call * (W * list (L * (nat * nat)) + error) :=
    let (a, b) := k in
    match cross_edges a 0 b (es g a) [] with
    | (cs, inr e) => (cs, inr e)
    | (cs, inl outs) =>
        match v_prod (vx g a) (vx h b) with
        | (_, Some e) => (cs ++ [CVert a b], inr e)
        | (w, None) => (cs ++ [CVert a b], inl (w, outs))
        end
    end.

  (** src/cross.c:113-126, [rash] *)
  Definition rash (k : nat * nat) : N :=
    if fst k =? snd k then node_hash (fst k) else N.lxor (node_hash (fst k)) (node_hash (snd k)).
  (** src/cross.c:326-328, UNEQUAL *)
  Definition product_eqb (k k' : nat * nat) : bool := (fst k =? fst k') && (snd k =? snd k').
  (** src/cross.c:361-362 *)
  Definition cross_limit : nat :=
    if vertex_limit / lanes X =? 0 then (if vertex_limit =? 0 then 0 else 1) else vertex_limit / lanes X.

  Definition cross_dest : @cpkt (nat * nat) -> nat := cdest X rash.
  (** src/cross.c:363-387 *)
  Definition crossing := making X product_eqb rash cross_make cross_limit.
End Cross.
