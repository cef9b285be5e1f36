(** Finished graphs, as the API presents them between operations: src/graph.h
    ([cru_graph_s]: a list of nodes and a base node), src/nodes.h ([node_list_s])
    and src/edges.h ([edge_list_s]: a label and a remote node).  Nodes are numbers
    (their addresses), [vx] the vertex stored in a node, [es] its outgoing edges in
    list order as pairs of a label and the remote node. *)
From Coq Require Import List Arith NArith Lia Bool Permutation.
From Verif Require Import Base.
Import ListNotations.

Set Implicit Arguments.

Record graph (V E : Type) : Type := mkGraph {
  ids : list nat;
  vx : nat -> V;
  es : nat -> list (E * nat);
  root : nat
}.
Arguments mkGraph {V E}.
Arguments ids {V E}. Arguments vx {V E}. Arguments es {V E}. Arguments root {V E}.

Section Graph.
  Context {V E : Type}.
  Implicit Type g : graph V E.

  (** [b] is reachable from [a] along outgoing edges. *)
  Inductive path g (a : nat) : nat -> Prop :=
  | path_refl : path g a a
  | path_step b l c : path g a b -> In (l, c) (es g b) -> path g a c.

  (** The graphs that exist in practice: distinct nodes, closed under edges, with every
      node reachable from the base node. *)
  Record wf g : Prop := {
    wf_nodup : NoDup (ids g);
    wf_root : In (root g) (ids g);
    wf_closed : forall n l m, In n (ids g) -> In (l, m) (es g n) -> In m (ids g);
    wf_reach : forall n, In n (ids g) -> path g (root g) n
  }.

  Lemma path_trans g a b c : path g a b -> path g b c -> path g a c.
  Proof. intros H1 H2. induction H2; auto. econstructor; eauto. Qed.

  Lemma path_in g a b :
    (forall n l m, In n (ids g) -> In (l, m) (es g n) -> In m (ids g)) ->
    In a (ids g) -> path g a b -> In b (ids g).
  Proof. intros H Ha Hp. induction Hp; eauto. Qed.
End Graph.
