(** Traversals of the nodes of a graph by address, starting from a given node.  Packets are
    addressed by the hash of the node's address (src/scatter.c:84-85 and 115-116). *)
From Coq Require Import List Arith NArith Lia Bool Permutation.
From Verif Require Import Base Machine PortsTerm Env Hash Graph Visitor VisitorProofs.
Import ListNotations.

Set Implicit Arguments.

(** A packet (src/pack.h): the payload is a node; sender and carrier are set by
    [_cru_scatter_out] and [_cru_scatter_in], not in initial packets; of the carrier only the label
    is recorded. *)
Record npkt (E : Type) : Type := mkNP { payload : nat; sender : option nat; carrier : option E }.
Arguments mkNP {E}. Arguments payload {E}. Arguments sender {E}. Arguments carrier {E}.

Definition initial {E} (n : nat) : npkt E := mkNP n None None.

(** Nodes are numbered by their addresses. *)
Definition node_hash (n : nat) : N := scalar_hash (N.of_nat n).
Global Arguments node_hash : simpl never.

(** src/scatter.c:98-120 and 128-149, [_cru_scatter_out] and [_cru_scatter_in]: a packet for every
    edge of [n], in either direction. *)
Definition scatter {E} (n : nat) (es : list (E * nat)) : list (npkt E) :=
  map (fun e => mkNP (snd e) (Some n) (Some (fst e))) es.

Section Walk.
  Context {S E : Type}.
  Variable X : env.
  (** The edges along which to proceed, and what to do on the first visit of a node. *)
  Variable succ : nat -> list (E * nat).
  Variable act : S -> nat -> S * option error.
  (** The hash by which packets are addressed, depending on the node. *)
  Variable hash : nat -> N.

  Definition walk_first (d : S) (p : npkt E) : S * list (npkt E) * option error :=
    let (d', e) := act d (payload p) in (d', scatter (payload p) (succ (payload p)), e).
  Definition walk_again (d : S) (p : npkt E) : S * list (npkt E) * option error := (d, [], None).

  Definition gwalk_dest : npkt E -> nat := vdest X payload hash.
  Definition gwalk : @vst S nat -> npkt E -> option (@vst S nat * list (npkt E)) :=
    vtask X payload Nat.eqb hash walk_first walk_again (fun _ _ => true).

  (** Nodes reachable from [r]. *)
  Inductive along (r : nat) : nat -> Prop :=
  | along_refl : along r r
  | along_step n l m : along r n -> In (l, m) (succ n) -> along r m.

  (** The actions in sequence, as long as there is no error. *)
  Fixpoint acts (d : S) (order : list nat) : option S :=
    match order with
    | [] => Some d
    | n :: order' => match act d n with (d', None) => acts d' order' | _ => None end
    end.

  Lemma acts_app d l1 l2 :
    acts d (l1 ++ l2) = match acts d l1 with Some d' => acts d' l2 | None => None end.
  Proof.
    revert d. induction l1 as [|n l1 IH]; simpl; intros d; auto.
    destruct (act d n) as [d' [e|]]; auto.
  Qed.

  Lemma FOP_NoDup {A B} (f : A -> B) (R : A -> A -> Prop) l :
    (forall x y, R x y -> f x <> f y) -> ForallOrdPairs R l -> NoDup (map f l).
  Proof.
    intros H F. induction F as [|x l F1 F2 IH]; simpl; constructor; auto.
    intros Hin. apply in_map_iff in Hin as (y & E1 & Hy). rewrite Forall_forall in F1.
    apply (H x y); auto.
  Qed.

  Theorem gwalk_success d0 r s order :
    0 < lanes X -> Permutation order (seq 0 (lanes X)) ->
    completes gwalk (vstart d0) (initial r) s -> vstatus X order s = None ->
    exists nodes, NoDup nodes /\ (forall n, In n nodes <-> along r n) /\ acts d0 nodes = Some (data s).
  Proof.
    intros Hl Ho Hc Hst.
    apply visit_success with (order := order) in Hc as (vis & Hs); auto.
    2:{ intros k k' H. apply Nat.eqb_eq in H. now subst. }
    2:{ intros. now apply lane_of_lt. }
    set (emit := fun p : npkt E => scatter (payload p) (succ (payload p))).
    destruct (@serial_facts S (npkt E) nat payload Nat.eqb walk_first walk_again (fun _ _ => true)
                emit (initial r) (fun d vis => acts d0 (map payload vis) = Some d)) with (d0 := d0) (d := data s) (vis := vis)
      as (A & _ & B & C & D & F); auto.
    - intros d v p d' out HJ _ _ _ _ Hf. unfold walk_first in Hf.
      destruct (act d (payload p)) as [d1 e] eqn:Ea. inversion Hf; subst. split; auto.
      rewrite map_app. rewrite acts_app, HJ. simpl. now rewrite Ea.
    - intros d v p d' out HJ _ _ _ _ Hf. inversion Hf; subst. auto.
    - apply Nat.eqb_refl.
    - exists (map payload vis). split; [|split]; auto.
      + eapply FOP_NoDup; [|exact B]. intros x y H E1. simpl in H. rewrite E1, Nat.eqb_refl in H. discriminate.
      + intros n. split; intros H.
        * apply in_map_iff in H as (p & <- & Hp). apply C in Hp. clear - Hp.
          induction Hp as [|p q Hp IH Hq]; [constructor|].
          unfold emit in Hq. apply in_map_iff in Hq as ([l m] & <- & Hm). simpl. econstructor; eauto.
        * induction H as [|n l m H IH Hm].
          -- destruct D as (v & Hv & E1). apply Nat.eqb_eq in E1. simpl in E1. subst. now apply in_map.
          -- apply in_map_iff in IH as (p & <- & Hp).
             destruct (F p (mkNP m (Some (payload p)) (Some l)) Hp) as (v & Hv & E1).
             { unfold emit. apply in_map_iff. exists (l, m). auto. }
             apply Nat.eqb_eq in E1. simpl in E1. subst. now apply in_map.
  Qed.

  Theorem gwalk_terminates d0 r U :
    0 < lanes X -> In r U -> (forall n l m, In n U -> In (l, m) (succ n) -> In m U) ->
    terminates gwalk (vstart d0, [initial r]).
  Proof.
    intros Hl Hr HU.
    apply visit_terminates with (U := U) (good := fun p => In (payload p) U); auto.
    - intros d p d' out e H. inversion H. auto.
    - intros d p d' out e Hp H q Hq. unfold walk_first in H.
      destruct (act d (payload p)). inversion H; subst.
      apply in_map_iff in Hq as ([l m] & <- & Hm). simpl. eapply HU; eauto.
    - intros p Hp. exists (payload p). split; auto. apply Nat.eqb_refl.
    - intros k k' u H1 H2. apply Nat.eqb_eq in H1, H2. subst. apply Nat.eqb_refl.
    - intros k k' H. apply Nat.eqb_eq in H. now subst.
    - intros p. now apply lane_of_lt.
  Qed.
End Walk.

(** Usually packets are addressed by the hash of the address of the node. *)
Section ByNode.
  Context {S E : Type}.
  Variable X : env.
  Variable succ : nat -> list (E * nat).
  Variable act : S -> nat -> S * option error.

  Definition walk_dest : npkt E -> nat := gwalk_dest X node_hash.
  Definition walk : @vst S nat -> npkt E -> option (@vst S nat * list (npkt E)) := gwalk X succ act node_hash.

  Theorem walk_success d0 r s order :
    0 < lanes X -> Permutation order (seq 0 (lanes X)) ->
    completes walk (vstart d0) (initial r) s -> vstatus X order s = None ->
    exists nodes, NoDup nodes /\ (forall n, In n nodes <-> along succ r n) /\ acts act d0 nodes = Some (data s).
  Proof. apply gwalk_success. Qed.

  Theorem walk_terminates d0 r U :
    0 < lanes X -> In r U -> (forall n l m, In n U -> In (l, m) (succ n) -> In m U) ->
    terminates walk (vstart d0, [initial r]).
  Proof. apply gwalk_terminates. Qed.
End ByNode.
