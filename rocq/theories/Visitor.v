(** The loop common to the tasks which traverse a graph: src/count.c:69-81,
    src/props.c:249-261, src/mapreduce.c:121-132, src/duplex.c:77-94 and 133-144,
    and others cited where they are modelled as instances of this one.

    A packet has a key, which is a node or a vertex.  A worker remembers the keys it has
    seen.  If a packet is the first with its key, the task takes the action [first], else
    the action [again]; either may send packets and raise an error.  A packet is put off
    while it is not [ready].  After an error of the worker, or when the worker notices that
    the operation is killed, packets are only discarded. *)
From Coq Require Import List Arith NArith Lia Bool Permutation.
From Verif Require Import Base Machine Env.
Import ListNotations.

Set Implicit Arguments.

Section Visitor.
  Context {S P K : Type}.
  Variable X : env.
  Variable key : P -> K.
  Variable keq : K -> K -> bool.
  Variable hash : K -> N.
  Variables first again : S -> P -> S * list P * option error.
  Variable ready : S -> P -> bool.

  (** The worker that gets a packet: pod[MOD(hash_value,arity)], src/scatter.c. *)
  Definition vdest (p : P) : nat := lane_of (lanes X) (hash (key p)).

  Record vst : Type := mkV {
    data : S;                    (* what the actions work on *)
    seen : nat -> list K;        (* per lane *)
    lerr : nat -> option error;  (* *err, per lane *)
    lkil : nat -> bool;          (* killed, per lane *)
    killed : bool;               (* r->killed *)
    tick : nat                   (* packets processed so far *)
  }.

  Definition vstart (d0 : S) : vst :=
    mkV d0 (fun _ => []) (fun _ => None) (fun _ => false) false 0.

  Definition have_seen (s : vst) (p : P) : bool := existsb (keq (key p)) (seen s (vdest p)).

  (** Does the worker receiving [p] just discard it?  KILLED, src/killers.h:36; another
      thread may have called [cru_kill] in the meantime. *)
  Definition is_killed (s : vst) : bool := killed s || killcalls X (tick s).
  Definition halted (s : vst) (p : P) : bool :=
    match lerr s (vdest p) with
    | Some _ => true
    | None => lkil s (vdest p) || (is_killed s && notices X (tick s))
    end.

  Definition vtask (s : vst) (p : P) : option (vst * list P) :=
    let l := vdest p in
    if halted s p then
      Some (mkV (data s) (seen s) (lerr s) (upd (lkil s) l true) true (Datatypes.S (tick s)), [])
    else if negb (ready (data s) p) then None
    else
      let '(d, out, e) := if have_seen s p then again (data s) p else first (data s) p in
      Some (mkV d (if have_seen s p then seen s else upd (seen s) l (key p :: seen s l))
                (upd (lerr s) l e) (lkil s) (is_killed s) (Datatypes.S (tick s)), out).

  (** The status in the end, given the order in which the workers finish. *)
  Definition vstatus (order : list nat) (s : vst) : option error :=
    final_status (lerr s) (is_killed s) order.

  (** ** The pure machine: no errors, no kills, no lanes *)

  Definition was_seen (vis : list P) (p : P) : bool := existsb (fun q => keq (key p) (key q)) vis.

  Definition ptask (s : S * list P) (p : P) : option ((S * list P) * list P) :=
    if negb (ready (fst s) p) then None
    else
      let '(d, out, e) := if was_seen (snd s) p then again (fst s) p else first (fst s) p in
      match e with
      | Some _ => None
      | None => Some ((d, if was_seen (snd s) p then snd s else snd s ++ [p]), out)
      end.

  (** A complete, successful and sequential execution: [d] is the final data and [vis] are
      the packets that were the first with their keys, in order. *)
  Definition serial (d0 : S) (p0 : P) (d : S) (vis : list P) : Prop :=
    completes ptask (d0, []) p0 (d, vis).

  Hypothesis Hcompat : forall k k', keq k k' = true -> hash k = hash k'.

  Definition bad (s : vst) : Prop := killed s = true \/ exists l, l < lanes X /\ lerr s l <> None.

  Record sim (d0 : S) (p0 : P) (s : vst) (b : list P) : Prop := {
    sm_run : exists vis b', mruns ptask ((d0, []), [p0]) ((data s, vis), b') /\ Permutation b' b /\
               forall k l, In k (seen s l) <-> exists q, In q vis /\ key q = k /\ vdest q = l;
    sm_kill : killed s = false;
    sm_lkil : forall l, lkil s l = false;
    sm_err : forall l, lerr s l = None
  }.

  Lemma seen_same (s : vst) (vis : list P) p :
    (forall k l, In k (seen s l) <-> exists q, In q vis /\ key q = k /\ vdest q = l) ->
    have_seen s p = was_seen vis p.
  Proof.
    intros H. unfold have_seen, was_seen.
    destruct (existsb (keq (key p)) (seen s (vdest p))) eqn:E1;
      destruct (existsb (fun q => keq (key p) (key q)) vis) eqn:E2; auto.
    - apply existsb_exists in E1 as (k & Hk & Ek). apply H in Hk as (q & Hq & <- & _).
      assert (existsb (fun q => keq (key p) (key q)) vis = true) by (apply existsb_exists; eauto). congruence.
    - apply existsb_exists in E2 as (q & Hq & Ek).
      assert (existsb (keq (key p)) (seen s (vdest p)) = true); [|congruence].
      apply existsb_exists. exists (key q). split; auto. apply H. exists q. repeat split; auto.
      unfold vdest. now rewrite (Hcompat Ek).
  Qed.

  Lemma bad_step s p s' out : bad s -> vtask s p = Some (s', out) -> bad s'.
  Proof.
    intros Hb H. unfold vtask in H. destruct (halted s p) eqn:Eh.
    - inversion H; subst. left. reflexivity.
    - destruct (ready (data s) p); simpl in H; [|discriminate].
      destruct (if have_seen s p then again (data s) p else first (data s) p) as [[d o] e].
      inversion H; subst. destruct Hb as [Hk|(l & Hl & He)]; unfold bad; simpl.
      + left. unfold is_killed. now rewrite Hk.
      + right. exists l. split; auto. unfold upd. destruct (Nat.eqb_spec l (vdest p)) as [->|]; auto.
        unfold halted in Eh. destruct (lerr s (vdest p)); [discriminate|congruence].
  Qed.

  Lemma sim_step d0 p0 s p b s' out :
    (forall q, vdest q < lanes X) ->
    sim d0 p0 s (p :: b) -> vtask s p = Some (s', out) -> bad s' \/ sim d0 p0 s' (out ++ b).
  Proof.
    intros Hl [(vis & b' & Hrun & Hp & Hs) Hk Hlk He] H. unfold vtask in H.
    destruct (halted s p) eqn:Eh. { inversion H; subst. left. left. reflexivity. }
    destruct (ready (data s) p) eqn:Er; simpl in H; [|discriminate].
    rewrite (seen_same s vis p Hs) in H.
    destruct (if was_seen vis p then again (data s) p else first (data s) p) as [[d o] e] eqn:Ea.
    inversion H; subst; clear H.
    destruct e as [e|].
    { left. right. exists (vdest p). split; auto. simpl. rewrite upd_same. discriminate. }
    destruct (is_killed s) eqn:Ek. { left. left. reflexivity. }
    right.
    assert (Hin : In p b') by (eapply Permutation_in; [symmetry; exact Hp|simpl; auto]).
    apply in_split in Hin as (b1 & b2 & ->).
    split; simpl; auto.
    - exists (if was_seen vis p then vis else vis ++ [p]), (b1 ++ b2 ++ out). split; [|split].
      + eapply star_trans; [exact Hrun|]. eapply star_step; [apply star_refl|].
        constructor. unfold ptask. simpl. rewrite Er. simpl. rewrite Ea. reflexivity.
      + rewrite app_assoc, Permutation_app_comm. apply Permutation_app_head.
        apply Permutation_cons_inv with (a := p). rewrite <- Hp. apply Permutation_middle.
      + intros k l. destruct (was_seen vis p); [apply Hs|]. unfold upd.
        destruct (Nat.eqb_spec l (vdest p)) as [->|Hn]; simpl.
        * rewrite Hs. split.
          -- intros [<-|(q & Hq & A)]; [exists p|exists q]; split; auto; apply in_or_app; simpl; auto.
          -- intros (q & Hq & A & B). apply in_app_or in Hq as [Hq|[<-|[]]]; eauto.
        * rewrite Hs. split.
          -- intros (q & Hq & A). exists q. split; auto. apply in_or_app; auto.
          -- intros (q & Hq & A & B). apply in_app_or in Hq as [Hq|[<-|[]]]; eauto. congruence.
    - intros l. unfold upd. destruct (Nat.eqb_spec l (vdest p)); auto.
  Qed.

  (** Every complete execution without error is, apart from the order of packets, a
      sequential execution. *)
  Theorem visit_success d0 p0 s order :
    (forall q, vdest q < lanes X) -> Permutation order (seq 0 (lanes X)) ->
    completes vtask (vstart d0) p0 s -> vstatus order s = None ->
    exists vis, serial d0 p0 (data s) vis.
  Proof.
    intros Hl Ho Hc Hst.
    assert (I : bad s \/ sim d0 p0 s []).
    { revert Hc. unfold completes. apply mruns_inv with (I := fun s b => bad s \/ sim d0 p0 s b).
      - intros s1 b1 b2 Hp [?|[(vis & b' & A & B & C) D E F]]; [auto|]. right. split; auto.
        exists vis, b'. repeat split; auto; try apply C. now rewrite B.
      - intros s1 p b1 s2 out [Hb|Hs] Ht; [left; eapply bad_step; eauto|eapply sim_step; eauto].
      - right. split; simpl; auto. exists [], [p0]. repeat split; auto.
        + apply star_refl.
        + intros [].
        + intros (q & [] & _). }
    apply final_status_none in Hst as [Hk He].
    destruct I as [[H|(l & H1 & H2)]|[(vis & b' & A & B & C) _ _ _]].
    - unfold is_killed in Hk. rewrite H in Hk. discriminate.
    - exfalso. apply H2, He. eapply Permutation_in; [symmetry; exact Ho|]. apply in_seq. lia.
    - exists vis. unfold serial, completes. apply Permutation_sym, Permutation_nil in B. now subst.
  Qed.
End Visitor.
