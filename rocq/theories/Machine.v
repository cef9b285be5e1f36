(** Layer 2: the abstract packet machine.

    A configuration is a shared state and the bag of packets in flight.  One
    step takes an arbitrary packet out of the bag and lets a task process it,
    which yields a new state and further packets.  A task returning [None]
    postpones the packet, which then stays in the bag.

    This abstracts the loop common to all tasks in the C code, e.g.
    src/build.c:271-293, src/count.c, src/props.c:
    [for (incoming = NULL; incoming ? incoming : (incoming = _cru_exchanged (...));)
       { ... process and pop one packet ... }]
    File Ports.v models [_cru_exchanged] itself, and PortsProofs.v proves that
    all its executions are executions of this machine. *)
From Coq Require Import List Arith Lia Permutation.
From Verif Require Import Base.
Import ListNotations.

Set Implicit Arguments.

Section Machine.
  Context {S P : Type}.
  Variable task : S -> P -> option (S * list P).

  Definition config : Type := (S * list P)%type.

  Inductive mstep : config -> config -> Prop :=
  | mstep_proc s b1 p b2 s' out :
      task s p = Some (s', out) ->
      mstep (s, b1 ++ p :: b2) (s', b1 ++ b2 ++ out).

  (** All executions from [c] to [c']. *)
  Definition mruns : config -> config -> Prop := star mstep.

  (** A complete execution from one initial packet. *)
  Definition completes (s0 : S) (p0 : P) (s : S) : Prop := mruns (s0, [p0]) (s, []).

  (** An invariant rule: to prove [I] of every reachable configuration, where
      the bag may be permuted freely. *)
  Lemma mruns_inv (I : S -> list P -> Prop) s0 b0 s b :
    (forall s b b', Permutation b b' -> I s b -> I s b') ->
    (forall s p b s' out, I s (p :: b) -> task s p = Some (s', out) -> I s' (out ++ b)) ->
    I s0 b0 -> mruns (s0, b0) (s, b) -> I s b.
  Proof.
    intros Hperm Hstep H0 Hrun.
    change (I (fst (s, b)) (snd (s, b))).
    apply (@star_inv _ mstep (fun c => I (fst c) (snd c)) (s0, b0)); auto.
    intros x y Hx Hy. destruct Hy as [s1 b1 p b2 s2 out Ht]. simpl in *.
    apply Hperm with (b := out ++ (b1 ++ b2)).
    - perm_solve.
    - eapply Hstep; [|exact Ht]. eapply Hperm; [|exact Hx]. perm_solve.
  Qed.

End Machine.
