(** Claims C97 and C98 about what is left of routers, copies and graphs, and about empty and corrupted graphs. *)
From Coq Require Import List Arith NArith Bool Lia.
Import ListNotations.
From Verif Require Import Ops.

Set Implicit Arguments.

(** ** Specifications *)

(** What should be true after an operation on a graph of n nodes, of which the result is g: nothing has been used or freed wrongly, the
    router and the copy of the specification are freed, every node is either in the graph that is returned or has been freed, and the
    graph itself is returned or freed.  An error excludes a result. *)
Definition settled (n : nat) (r : graph * st) : Prop :=
  let (g, s) := r in
  wrong s = false /\ rt s = None /\ copy s = false /\ inp s = 0 /\ lost s = 0 /\
  match g with
  | Good => err s = 0%N /\ gs s = true /\ ing s + gone s = n
  | Null => gs s = false /\ ing s = 0 /\ gone s = n
  | Bad => False
  end.

(** The same after an operation that does not consume its operand *)
Definition clean (n : nat) (s : st) : Prop :=
  wrong s = false /\ rt s = None /\ copy s = false /\ gs s = true /\ ing s = n /\ inp s = 0 /\ gone s = 0 /\ lost s = 0 /\
  prod s = false.

(** The same if there is no valid graph *)
Definition untouched (s : st) : Prop :=
  wrong s = false /\ rt s = None /\ copy s = false /\ res s = false /\ prod s = false.

(** What is true of those operations that don't always comply: an error is reported, but a copy of the specification remains if [c] is
    true, the graph itself does if [b] is, or k nodes can't be reached from anything. *)
Definition spoiled (c b : bool) (k n : nat) (r : graph * st) : Prop :=
  let (g, s) := r in
  g = Null /\ err s <> 0%N /\ wrong s = false /\ rt s = None /\ inp s = 0 /\ copy s = c /\ gs s = b /\ lost s = k /\
  ing s + gone s + k = n /\ (b = false -> ing s = 0).

(** ** Invariants *)

Definition rtm (o : option nat) (s : st) : Prop :=
  match o with
  | Some k => exists b, rt s = Some (mkR k b)
  | None => rt s = None
  end.

(** The numbers are of the nodes that aren't lost and those that are *)
Record V (o : option nat) (c b : bool) (n : nat * nat) (s : st) : Prop := {
  v_wrong : wrong s = false;
  v_rt : rtm o s;
  v_copy : copy s = c;
  v_gs : gs s = b;
  v_ing : b = false -> ing s = 0;
  v_stale : stale s = false;
  v_lost : lost s = snd n;
  v_sum : ing s + inp s + gone s = fst n;
  v_err : err s <> BADGPH }.

(** After a pass that may have moved all nodes from the graph, before the list is reset *)
Record W (o : option nat) (c b : bool) (n : nat * nat) (s : st) : Prop := {
  w_wrong : wrong s = false;
  w_rt : rtm o s;
  w_copy : copy s = c;
  w_gs : gs s = b;
  w_ing : ing s = 0;
  w_lost : lost s = snd n;
  w_sum : inp s + gone s = fst n;
  w_err : err s <> BADGPH }.

Section Proofs.
  Variable fails : nat -> bool.
  Variable werr : nat -> N.
  Variable flag choice : nat -> bool.
  Variable place : nat -> nat * nat.
  Variable single : bool.
  Hypothesis W1 : forall t, werr t <> BADGPH.

  Ltac vd H := destruct H as [?v1 ?v2 ?v3 ?v4 ?v5 ?v6 ?v7 ?v8 ?v9].

  Lemma V_raise : forall e o c b n s, e <> BADGPH -> V o c b n s -> V o c b n (raise e s).
  Proof.
    intros e o c b n s He H; vd H; constructor; auto. unfold raise; cbn. destruct (N.eqb (err s) 0); auto.
  Qed.
  Lemma V_tick : forall o c b n s, V o c b n s -> V o c b n (tick s).
  Proof. intros o c b n s H; vd H; constructor; auto. Qed.
  Lemma V_out : forall o c b n s, V o c b n s -> V o c b n (set_out s).
  Proof. intros o c b n s H; vd H; constructor; auto. Qed.
  Lemma V_failure : forall o c b n s, V o c b n s -> V o c b n (failure werr s).
  Proof.
    intros; unfold failure. apply V_raise; [|now apply V_tick].
    destruct (N.eqb (werr (clock s)) 0); [discriminate | apply W1].
  Qed.
  Lemma V_call : forall o c b n s, V o c b n s -> V o c b n (call werr s).
  Proof.
    intros; unfold call. destruct (N.eqb (werr (clock s)) 0); [now apply V_tick |].
    apply V_raise; [apply W1 | now apply V_tick].
  Qed.
  Lemma V_choose : forall o c b n s x s', choose choice s = (x, s') -> V o c b n s -> V o c b n s'.
  Proof. intros o c b n s x s' E H; inversion E; subst; now apply V_tick. Qed.
  Lemma V_share : forall k c b n s, V (Some k) c b n s -> V (Some (S k)) c b n (share s).
  Proof.
    intros k c b n s H; vd H; destruct v2 as [f v2]. unfold share; rewrite v2. constructor; auto. cbn; eauto.
  Qed.
  Lemma V_reset : forall k c b n s, V (Some k) c b n s -> V (Some k) c b n (reset s).
  Proof.
    intros k c b n s H; vd H; destruct v2 as [f v2]. unfold reset; rewrite v2. constructor; auto. cbn; eauto.
  Qed.
  Lemma V_unshare : forall k c b n s, V (Some (S k)) c b n s -> V (Some k) c b n (free_router s).
  Proof.
    intros k c b n s H; vd H; destruct v2 as [f v2]. unfold free_router; rewrite v2; cbn. constructor; auto. cbn; eauto.
  Qed.
  Lemma V_free_router : forall c b n s, V (Some 0) c b n s -> V None c b n (free_router s) /\ inp (free_router s) = inp s.
  Proof.
    intros c b n s H; vd H; destruct v2 as [f v2]. unfold free_router; rewrite v2; cbn.
    assert (V None c b n (set_rt None s)) by (constructor; auto; reflexivity).
    destruct f; split; auto. apply V_raise; [discriminate | auto].
  Qed.
  Lemma V_make : forall c b n s r s', make_router fails werr s = (r, s') -> V None c b n s ->
    V (if r then Some 0 else None) c b n s' /\ inp s' = inp s /\ ing s' = ing s.
  Proof.
    intros c b n s r s' E H. unfold make_router in E.
    destruct (ok s); cbn in E; [| now inversion E; subst].
    destruct (fails (clock s)); inversion E; subst.
    - split; [now apply V_failure | split; reflexivity].
    - vd H. cbn in v2. rewrite v2. split; [constructor; cbn; eauto | split; reflexivity].
  Qed.
  Lemma V_stored : forall r s, stored Good r s = (r, s).
  Proof. reflexivity. Qed.

  (** Passes *)
  Lemma start_V : forall effect k c b n s l s',
    (forall s, V (Some k) c b n s -> V (Some k) c b n (effect s)) ->
    start fails werr flag effect s = (l, s') -> V (Some k) c b n s -> V (Some k) c b n s'.
  Proof.
    intros effect k c b n s l s' He E H. unfold start in E.
    destruct (v_rt H) as [f R]; rewrite R in E; cbn in E.
    destruct (fails (clock s)); inversion E; subst; [now apply V_failure |].
    assert (V (Some k) c b n (effect (tick (set_rt (Some (mkR k (f || flag (clock s)))) s)))) as X.
    { apply He. vd H. constructor; auto. cbn; eauto. }
    destruct (N.eqb (werr (clock s)) 0); auto. now apply V_raise.
  Qed.
  Lemma V_start : forall k c b n s l s', start fails werr flag no_effect s = (l, s') -> V (Some k) c b n s -> V (Some k) c b n s'.
  Proof. intros k c b n s l s'. apply start_V. auto. Qed.
  Lemma V_launched : forall k c b n s l s',
    launched fails werr flag no_effect s = (l, s') -> V (Some (S k)) c b n s -> V (Some k) c b n s'.
  Proof.
    intros k c b n s l s' E H. unfold launched in E. destruct (start _ _ _ _ s) eqn:F. inversion E; subst.
    apply V_unshare. eapply V_start; eauto.
  Qed.
  Lemma V_clear : forall o c b n s, V o c b n s -> V o c b n (clear s) /\ inp (clear s) = 0.
  Proof. intros o c b n s H; vd H; split; [constructor; cbn; auto; lia | reflexivity]. Qed.
  Lemma V_start_clear : forall k c b n s l s', start fails werr flag clear s = (l, s') -> V (Some k) c b n s ->
    V (Some k) c b n s' /\ (l = true -> inp s' = 0).
  Proof.
    intros k c b n s l s' E H. split.
    - eapply start_V; eauto. intros; now apply V_clear.
    - unfold start in E. destruct (v_rt H) as [f R]; rewrite R in E.
      destruct (fails (clock s)); inversion E; subst; [discriminate |]. intros _.
      destruct (N.eqb (werr (clock s)) 0); reflexivity.
  Qed.
  Lemma inp_unshare : forall k s, rtm (Some (S k)) s -> inp (free_router s) = inp s.
  Proof. intros k s [f R]. unfold free_router. now rewrite R. Qed.
  Lemma V_launched_clear : forall k c b n s l s',
    launched fails werr flag clear s = (l, s') -> V (Some (S k)) c b n s -> V (Some k) c b n s' /\ (l = true -> inp s' = 0).
  Proof.
    intros k c b n s l s' E H. unfold launched in E. destruct (start _ _ _ _ s) eqn:F. inversion E; subst.
    destruct (V_start_clear F H) as [A B]. split; [now apply V_unshare |].
    intros X; erewrite inp_unshare; [now apply B | apply A].
  Qed.
  Lemma start_W : forall effect k c b n s s',
    (forall s, V (Some k) c b n s -> W (Some k) c b n (effect s)) ->
    start fails werr flag effect s = (true, s') -> V (Some k) c b n s -> W (Some k) c b n s'.
  Proof.
    intros effect k c b n s s' He E H. unfold start in E.
    destruct (v_rt H) as [f R]; rewrite R in E; cbn in E.
    destruct (fails (clock s)); inversion E; subst.
    assert (W (Some k) c b n (effect (tick (set_rt (Some (mkR k (f || flag (clock s)))) s)))) as X.
    { apply He. vd H. constructor; auto. cbn; eauto. }
    destruct (N.eqb (werr (clock s)) 0); auto.
    destruct X; constructor; auto. unfold raise; cbn. destruct (N.eqb _ 0); auto.
  Qed.
  Lemma start_not : forall effect k c b n s s',
    start fails werr flag effect s = (false, s') -> V (Some k) c b n s -> V (Some k) c b n s' /\ err s' <> 0%N.
  Proof.
    intros effect k c b n s s' E H. unfold start in E.
    destruct (v_rt H) as [f R]; rewrite R in E; cbn in E.
    destruct (fails (clock s)); inversion E; subst. split; [now apply V_failure |].
    unfold failure, raise; cbn. destruct (N.eqb (err s) 0) eqn:X; [| now apply N.eqb_neq in X].
    destruct (N.eqb (werr (clock s)) 0) eqn:Y; [discriminate | now apply N.eqb_neq in Y].
  Qed.
  Lemma W_populate : forall o c b n s, V o c b n s -> W o c b n (populate s).
  Proof. intros o c b n s H; vd H; constructor; cbn; auto; lia. Qed.
  Lemma W_raze : forall o c b n s, V o c b n s -> W o c b n (raze s).
  Proof. intros o c b n s H; vd H; constructor; cbn; auto; lia. Qed.
  Lemma W_no_nodes : forall o c b n s, W o c b n s -> V o c b n (no_nodes s).
  Proof. intros o c b n s H; destruct H; constructor; cbn; auto; lia. Qed.
  Lemma W_unshare : forall k c b n s, W (Some (S k)) c b n s -> W (Some k) c b n (free_router s).
  Proof.
    intros k c b n s H. destruct H as [? [f R] ? ? ? ? ? ?]. unfold free_router; rewrite R; cbn. constructor; auto. cbn; eauto.
  Qed.
  Lemma launched_W : forall effect k c b n s l s',
    (forall s, V (Some (S k)) c b n s -> W (Some (S k)) c b n (effect s)) ->
    launched fails werr flag effect s = (l, s') -> V (Some (S k)) c b n s ->
    if l then W (Some k) c b n s' else V (Some k) c b n s' /\ err s' <> 0%N.
  Proof.
    intros effect k c b n s l s' He E H. unfold launched in E. destruct (start _ _ _ _ s) as [x y] eqn:F. inversion E; subst.
    destruct l.
    - apply W_unshare. eapply start_W; eauto.
    - destruct (start_not _ F H) as [A B]. split; [now apply V_unshare |].
      destruct (v_rt A) as [f R]. unfold free_router; rewrite R; cbn. auto.
  Qed.
  Lemma V_populated : forall k c b n s l s', launched fails werr flag populate s = (l, s') -> V (Some (S k)) c b n s ->
    V (Some k) c b n (if l then no_nodes s' else s').
  Proof.
    intros k c b n s l s' E H. eapply launched_W in E; eauto using W_populate. destruct l; [now apply W_no_nodes | tauto].
  Qed.
  Lemma V_status_populated : forall k c b n s l s', start fails werr flag populate s = (l, s') -> V (Some k) c b n s ->
    V (Some k) c b n (if l then no_nodes s' else s').
  Proof.
    intros k c b n s l s' E H. destruct l; [apply W_no_nodes; eapply start_W; eauto using W_populate | eapply start_not in E; eauto; tauto].
  Qed.
  Lemma V_razed : forall k c b n s l s', launched fails werr flag raze s = (l, s') -> V (Some (S k)) c b n s ->
    V (Some k) c b n (if l then no_nodes s' else s').
  Proof.
    intros k c b n s l s' E H. eapply launched_W in E; eauto using W_raze. destruct l; [now apply W_no_nodes | tauto].
  Qed.
  Lemma V_another : forall o c b n s l s', launched_with_another fails werr flag s = (l, s') -> V o c b n s -> V o c b n s'.
  Proof.
    intros o c b n s l s' E H. unfold launched_with_another in E.
    destruct (ok s); cbn -[failure raise] in E; [| now inversion E; subst].
    destruct (fails (clock s)); [inversion E; subst; now apply V_failure |].
    destruct (fails (S (clock s))); [inversion E; subst; apply V_failure; now apply V_tick |].
    inversion E; subst.
    destruct (N.eqb (if N.eqb (werr (S (clock s))) 0 then _ else _) 0); [now do 2 apply V_tick |].
    apply V_raise; [| now do 2 apply V_tick].
    destruct (N.eqb _ 0); [destruct (flag _); discriminate | apply W1].
  Qed.
  Lemma V_collect : forall o c n s, V o c true n s -> V o c true n (collect place s).
  Proof.
    intros o c n s H; vd H. unfold collect. destruct (place (clock s)) as [a j].
    constructor; cbn -[Nat.min Nat.sub]; auto; [discriminate | lia].
  Qed.
  Lemma V_queue : forall k c n s l s', queue_launched fails werr flag place s = (l, s') -> V (Some k) c true n s -> V (Some k) c true n s'.
  Proof.
    intros k c n s l s' E H. unfold queue_launched in E. destruct (stale s || _).
    - inversion E; subst. apply V_raise; [discriminate | auto].
    - eapply start_V; eauto. intros; now apply V_collect.
  Qed.

  (** Graphs *)
  Lemma V_free_now : forall o c b n s, V o c true n s -> b = false -> V o c b n (free_now Good s) /\ inp (free_now Good s) = inp s
    /\ err (free_now Good s) = err s.
  Proof.
    intros o c b n s H ->; vd H. unfold free_now. destruct (N.eqb (err s) BADGPH) eqn:E; [now apply N.eqb_eq in E |].
    rewrite v4, v6; cbn. split; [constructor; cbn; auto; lia | split; reflexivity].
  Qed.
  Lemma V_disable : forall o c b n s, V o c b n s -> V o c b n (disable_killing fails s).
  Proof.
    intros. unfold disable_killing. destruct (fails (clock s)); [apply V_raise; [discriminate |] |]; now apply V_tick.
  Qed.
  Lemma V_entry : forall o c b n s, V o c b n s -> V o c b n (api_entry fails werr s).
  Proof. intros. unfold api_entry. destruct (fails (clock s)); [now apply V_failure | now apply V_tick]. Qed.
  Lemma V_infer : forall o b n s i s', infer fails werr s = (i, s') -> V o false b n s -> V o i b n s'.
  Proof.
    intros o b n s i s' E H. unfold infer in E. destruct (fails (clock s)); inversion E; subst; [now apply V_failure |].
    vd H. rewrite v3. constructor; auto.
  Qed.
  Lemma V_free_copy : forall o b n s, V o true b n s -> V o false b n (free_copy s).
  Proof. intros o b n s H; vd H. unfold free_copy. rewrite v3. constructor; auto. Qed.

  (** Parts of operations *)
  Lemma V_unset : forall c b n s, V (Some 0) c b n s -> V (Some 0) c b n (unset_properties fails werr flag s).
  Proof.
    intros c b n s H. unfold unset_properties. destruct (ok s || _); auto.
    destruct (launched _ _ _ _ _) eqn:E. eapply V_launched; eauto. apply V_share, V_reset, H.
  Qed.
  Lemma V_set : forall c b n s p s', set_properties fails werr flag choice s = (p, s') -> V (Some 0) c b n s -> V (Some 0) c b n s'.
  Proof.
    intros c b n s p s' E H. unfold set_properties in E.
    destruct (choose choice s) as [h s1] eqn:E1. apply (V_choose E1) in H.
    destruct (if h then _ else _) as [l s2] eqn:E2.
    assert (V (Some 0) c b n s2) as H2 by (destruct h; [eapply V_another; eauto | inversion E2; now subst]).
    destruct l; cbn [negb] in E; [| inversion E; now subst].
    destruct (ok s2); cbn [negb] in E; [| inversion E; now subst].
    destruct (launched _ _ _ _ _) as [l s3] eqn:E3.
    assert (V (Some 0) c b n s3) as H3 by (eapply V_launched; eauto; apply V_share, V_reset, H2).
    destruct l; cbn [negb] in E; [| inversion E; now subst].
    destruct (ok s3); cbn [negb] in E; [| inversion E; subst; now apply V_unset].
    destruct (choose choice s3) as [h' s4] eqn:E4. apply (V_choose E4) in H3.
    destruct h'; [inversion E; now subst |].
    destruct (launched_with_another _ _ _ s4) as [l s5] eqn:E5. apply (V_another E5) in H3.
    destruct l; cbn [negb] in E; [| inversion E; subst; now apply V_unset].
    destruct (ok s5); inversion E; subst; [auto | now apply V_unset].
  Qed.
  Lemma V_initial : forall c b n s p s', initial_node fails werr flag choice s = (p, s') -> V (Some 0) c b n s -> V (Some 0) c b n s'.
  Proof.
    intros c b n s p s' E H. unfold initial_node, status_launched in E.
    destruct (choose choice s) as [h s1] eqn:E1. apply (V_choose E1) in H.
    destruct (if h then _ else _) as [l s2] eqn:E2.
    assert (V (Some 0) c b n s2) as H2 by (destruct h; [eapply V_another; eauto | inversion E2; now subst]).
    destruct l; cbn [negb] in E.
    2: { destruct (launched_with_another _ _ _ s2) eqn:E3. inversion E; subst. eapply V_another; eauto. }
    destruct (choose choice s2) as [h' s3] eqn:E3. apply (V_choose E3) in H2.
    destruct h'; [inversion E; now subst |].
    destruct (start _ _ _ _ _) as [l s4] eqn:E4.
    assert (V (Some 0) c b n s4) as H4 by (eapply V_start; eauto; apply V_reset, H2).
    destruct l; cbn [negb] in E; [| inversion E; now subst].
    destruct (choose choice s4) as [f s5] eqn:E5. apply (V_choose E5) in H4.
    destruct f; cbn [negb] in E.
    2: { inversion E; subst. destruct (N.eqb (err s5) ENOMEM); auto. apply V_raise; [discriminate | auto]. }
    destruct (choose choice s5) as [f s6] eqn:E6. apply (V_choose E6) in H4.
    destruct f; cbn [negb] in E; [| inversion E; now subst].
    destruct (launched _ _ _ _ _) as [l s7] eqn:E7.
    assert (V (Some 0) c b n s7) as H7 by (eapply V_launched; eauto; apply V_share, V_reset, H4).
    destruct l; inversion E; now subst.
  Qed.
  Lemma V_half : forall o c b n s l s', half_duplexed fails werr flag choice s = (l, s') -> V o c b n s -> V o c b n s'.
  Proof.
    intros o c b n s l s' E H. unfold half_duplexed in E. destruct (choose choice s) as [h s1] eqn:E1. apply (V_choose E1) in H.
    destruct h; [inversion E; now subst | eapply V_another; eauto].
  Qed.
  Lemma V_sweep : forall c b n s, V (Some 0) c b n s ->
    V None c b n (sweep fails werr flag choice single true s) /\ inp (sweep fails werr flag choice single true s) = 0.
  Proof.
    intros c b n s H. unfold sweep. cbn [negb]. destruct (v_rt H) as [f R]. rewrite R. cbn [shared Nat.eqb negb].
    destruct (choose choice s) as [w s1] eqn:E1. apply (V_choose E1) in H.
    assert (forall s, V (Some 0) c b n s -> inp s = 0 -> V None c b n (free_router s) /\ inp (free_router s) = 0) as D.
    { intros s2 H2 I2. destruct (V_free_router H2) as [A B]. split; auto. congruence. }
    destruct (w || _) eqn:E2; cbn [negb].
    - destruct (single || _).
      + apply D; now apply (V_clear (V_call H)).
      + destruct (launched _ _ _ _ _) as [l s2] eqn:E3.
        apply V_launched_clear with (k := 0) (c := c) (b := b) (n := n) in E3; [| apply V_share, V_reset, H].
        destruct E3 as [A B]. destruct l; [apply D; auto | apply D; now apply (V_clear (V_call A))].
    - apply D; auto. apply orb_false_iff in E2 as [_ E2]. apply negb_false_iff, Nat.eqb_eq in E2. auto.
  Qed.
  Lemma V_sweep_shared : forall k c b n s, V (Some (S k)) c b n s ->
    V (Some k) c b n (sweep fails werr flag choice single true s).
  Proof.
    intros k c b n s H. unfold sweep. cbn [negb]. destruct (v_rt H) as [f R]. rewrite R. cbn [shared Nat.eqb negb].
    now apply V_unshare.
  Qed.
  Lemma V_pruning : forall k c n s, V (Some k) c true n s ->
    V (Some k) c true n (if negb (ok s) then s else if negb true then raise 987 s else snd (queue_launched fails werr flag place (reset s))).
  Proof.
    intros k c n s H. destruct (ok s); cbn [negb]; auto. destruct (queue_launched _ _ _ _ _) eqn:E. eapply V_queue; eauto. now apply V_reset.
  Qed.

  Lemma V_pruned : forall k c n s p s', pruned fails werr flag choice place single Good true s = (p, s') ->
    V (Some (S k)) c true n s -> V (Some k) c true n s'.
  Proof.
    intros k c n s p s' E H. unfold pruned in E. inversion E; subst. apply V_sweep_shared. now apply V_pruning.
  Qed.

  (** The end of operations *)
  Lemma finish_V : forall n g s, V None false (match g with Good => true | _ => false end) (n, 0) s -> inp s = 0 -> g <> Bad ->
    settled n (finish fails werr flag single g s).
  Proof.
    intros n g s H I G. unfold finish. destruct (ok s) eqn:O.
    - vd H. cbn. repeat (split; [assumption |]). destruct g; [| congruence |].
      + cbn [fst] in v8. repeat split; auto. specialize (v5 eq_refl). lia.
      + cbn [fst] in v8. apply N.eqb_eq in O. repeat split; auto. lia.
    - assert (forall s, err s <> 0%N -> err (api_entry fails werr s) <> 0%N) as X.
      { intros s0 Z. unfold api_entry. destruct (fails _); cbn; auto. destruct (N.eqb (err s0) 0) eqn:Y; auto. now apply N.eqb_eq in Y. }
      unfold cru_free_now.
      assert (ok (api_entry fails werr s) = false) as A.
      { apply N.eqb_neq, X. now apply N.eqb_neq. }
      rewrite A. cbn [negb]. apply V_entry in H.
      assert (inp (api_entry fails werr s) = 0) as J by (unfold api_entry; now destruct (fails _)).
      remember (api_entry fails werr s) as s1 eqn:Q; clear Q.
      destruct g; [| congruence |].
      + cbn [free_now]. rewrite A. vd H. cbn. repeat (split; [assumption |]). specialize (v5 eq_refl). cbn [fst] in v8. repeat split; auto. lia.
      + destruct (V_free_now H eq_refl) as (B & C & D).
        assert (ok (free_now Good s1) = false) as E by (unfold ok in *; now rewrite D). rewrite E.
        vd B. unfold settled. repeat (split; [assumption || congruence |]). specialize (v5 eq_refl). cbn [fst] in v8. repeat split; auto. lia.
  Qed.
  Lemma given_V : forall n e, e <> BADGPH -> V None false true (n, 0) (given Good n e).
  Proof. intros; constructor; cbn; auto; try discriminate; lia. Qed.

  (** ** Operations *)

  Definition good (g : graph) : bool := match g with Good => true | _ => false end.
  (** The router consumed, and the graph freed if it is not returned *)
  Definition Post (n : nat) (r : graph * st) : Prop :=
    V None true (good (fst r)) (n, 0) (snd r) /\ inp (snd r) = 0 /\ fst r <> Bad.

  Ltac vv := solve [repeat first [eassumption | apply V_share | apply V_reset | apply V_disable | apply V_entry | apply V_call | apply V_unset
    | apply V_free_copy | apply V_out | (apply V_raise; [discriminate |]) | (apply V_clear) | (eapply V_free_now; [| reflexivity]) ]].
  Ltac taking L E := eapply L in E; [| vv].
  Ltac st1 := let E := fresh "E" in
    match goal with
    | |- context [choose choice ?x] => destruct (choose choice x) as [? ?] eqn:E; taking V_choose E
    | |- context [set_properties fails werr flag choice ?x] => destruct (set_properties fails werr flag choice x) as [? ?] eqn:E; taking V_set E
    | |- context [initial_node fails werr flag choice ?x] => destruct (initial_node fails werr flag choice x) as [? ?] eqn:E; taking V_initial E
    | |- context [half_duplexed fails werr flag choice ?x] => destruct (half_duplexed fails werr flag choice x) as [? ?] eqn:E; taking V_half E
    | |- context [launched_with_another fails werr flag ?x] =>
        destruct (launched_with_another fails werr flag x) as [? ?] eqn:E; taking V_another E
    | |- context [launched fails werr flag no_effect ?x] => destruct (launched fails werr flag no_effect x) as [? ?] eqn:E; taking V_launched E
    | |- context [launched fails werr flag populate ?x] => destruct (launched fails werr flag populate x) as [[|] ?] eqn:E; taking V_populated E
    | |- context [launched fails werr flag raze ?x] => destruct (launched fails werr flag raze x) as [[|] ?] eqn:E; taking V_razed E
    | |- context [launched fails werr flag clear ?x] =>
        destruct (launched fails werr flag clear x) as [? ?] eqn:E; taking V_launched_clear E; destruct E
    | |- context [start fails werr flag no_effect ?x] => destruct (start fails werr flag no_effect x) as [? ?] eqn:E; taking V_start E
    | |- context [start fails werr flag populate ?x] =>
        destruct (start fails werr flag populate x) as [[|] ?] eqn:E; taking V_status_populated E
    | |- context [queue_launched fails werr flag place ?x] => destruct (queue_launched fails werr flag place x) as [? ?] eqn:E; taking V_queue E
    | |- context [pruned fails werr flag choice place single Good true ?x] =>
        destruct (pruned fails werr flag choice place single Good true x) as [? ?] eqn:E; taking V_pruned E
    | |- context [infer fails werr ?x] => destruct (infer fails werr x) as [? ?] eqn:E; taking V_infer E
    end.
  Ltac sw := match goal with
    | |- context [sweep fails werr flag choice single true ?x] =>
        let A := fresh in let B := fresh in
        edestruct (@V_sweep true) with (s := x) as [A B]; [vv |]; revert A B; generalize (sweep fails werr flag choice single true x); intros
    end.
  Ltac cb := cbn [negb andb orb fst snd] in *.

  Lemma composing_V : forall m c n s, V (Some 0) c true n s ->
    V (Some 0) c true n (snd (composing fails werr flag choice place single m Good s)).
  Proof.
    induction m; intros c n s H; cbn [composing]; [cbn [snd]; vv |].
    st1; [| auto]. cb. do 3 st1. destruct (ok _); cb; auto. st1. destruct b; cb; auto.
    all: repeat (match goal with |- context [if ?x then _ else _] => destruct x; cb end; auto).
  Qed.
  Lemma composed_V : forall m n s, V (Some 0) true true (n, 0) s -> Post n (_composed fails werr flag choice place single m Good s).
  Proof.
    intros m n s H. unfold _composed, Post. pose proof (V_disable H) as D. destruct (ok _); cb.
    2: { sw. cbn. split; [auto | split; [auto | discriminate]]. }
    st1. destruct b; cb; [| sw; cbn; split; [auto | split; [auto | discriminate]]].
    pose proof (composing_V m E) as C. destruct (composing _ _ _ _ _ _ _ _ _) as [[|] x]; cb.
    - sw. cbn. split; [auto | split; [auto | discriminate]].
    - sw. cbn. split; [auto | split; [auto | discriminate]].
  Qed.
  Ltac fin := cbn [fst snd good]; split; [auto | split; [auto | discriminate]].
  Ltac br := match goal with |- context [if ?x then _ else _] => destruct x; cb end.

  Lemma postponing_V : forall m c n s, V (Some 0) c true n s ->
    V (Some 0) c true n (snd (postponing fails werr flag choice m s)).
  Proof.
    induction m; intros c n s H; cbn [postponing]; [cbn [snd]; vv |].
    br; auto. do 3 (st1; cb). br; auto.
  Qed.
  Lemma postpone_V : forall m n s, V (Some 0) true true (n, 0) s -> Post n (_postpone fails werr flag choice single m Good s).
  Proof.
    intros m n s H. unfold _postpone, Post. pose proof (V_disable H) as D. destruct (ok _); cb; [| sw; fin].
    st1. destruct b; cb; [| sw; fin].
    pose proof (postponing_V m E) as C. destruct (postponing _ _ _ _ _ _) as [[|] x]; cb; sw; fin.
  Qed.

  Lemma V_no_nodes : forall o c b n s, V o c b n s -> ing s = 0 -> V o c b n (no_nodes s).
  Proof. intros o c b n s H I; vd H; constructor; cbn; auto; lia. Qed.
  Lemma ing_start : forall k c b n s l s', start fails werr flag no_effect s = (l, s') -> V (Some k) c b n s -> ing s' = ing s.
  Proof.
    intros k c b n s l s' E H. unfold start in E. destruct (v_rt H) as [f R]; rewrite R in E.
    destruct (fails (clock s)); inversion E; subst; [reflexivity |]. now destruct (N.eqb _ 0).
  Qed.
  Lemma ing_reset : forall s, ing (reset s) = ing s.
  Proof. intros; unfold reset. now destruct (rt s). Qed.
  Lemma ing_share : forall s, ing (share s) = ing s.
  Proof. intros; unfold share. now destruct (rt s). Qed.

  (** The graph is freed or not, depending on an error *)
  Lemma last_V : forall c n s, V None c true n s -> inp s = 0 ->
    let s' := if ok s then s else free_now Good s in
    V None c (ok s) n s' /\ inp s' = 0 /\ err s' = err s.
  Proof.
    intros c n s H I. cbv zeta. destruct (ok s) eqn:O; auto.
    destruct (V_free_now H eq_refl) as (A & B & C). split; [auto | split; [congruence | auto]].
  Qed.
  Lemma last_Post : forall n s, V None true true (n, 0) s -> inp s = 0 ->
    Post n (let s := if ok s then s else free_now Good s in (if ok s then Good else Null, s)).
  Proof.
    intros n s H I. destruct (last_V H I) as (A & B & C). cbv zeta in *.
    assert (ok (if ok s then s else free_now Good s) = ok s) as X by (unfold ok in *; now rewrite C).
    unfold Post; cbn [fst snd]. rewrite X. destruct (ok s); fin.
  Qed.

  Lemma deduplicated_V : forall n s, V (Some 0) true true (n, 0) s -> Post n (_deduplicated fails werr flag choice place single Good s).
  Proof.
    intros n s H. unfold _deduplicated, status_launched. pose proof (V_disable H) as D.
    match goal with |- context [sweep _ _ _ _ _ true ?x] => assert (V (Some 0) true true (n, 0) x) as P end.
    { br; auto. st1. destruct b; cb; auto. st1; cb; auto.
      match goal with |- context [start _ _ _ no_effect ?x] => destruct (start fails werr flag no_effect x) as [bq sq] eqn:E2 end.
      assert (ing sq = 0) as I. { erewrite ing_start; [| eassumption | vv]. now rewrite ing_reset. }
      taking V_start E2. destruct bq; cb; auto.
      destruct (queue_launched _ _ _ _ _) eqn:E3. eapply V_queue in E3; eauto. apply V_reset. now apply V_no_nodes. }
    destruct (V_sweep P) as [A B]. now apply last_Post.
  Qed.

  Lemma V_graph_launched : forall k c n s l g s', ing s = 0 ->
    graph_launched fails werr flag place Good s = (l, g, s') -> V (Some (S k)) c true n s ->
    V (Some k) c (good g) n s' /\ g <> Bad.
  Proof.
    intros k c n s l g s' I E H. unfold graph_launched in E.
    destruct (ok s) eqn:O; cbn [negb] in E.
    2: { inversion E; subst. split; [| discriminate]. now apply V_unshare. }
    destruct (start _ _ _ _ s) as [l1 s1] eqn:F.
    assert (V (Some (S k)) c true n s1) as H1.
    { unfold start in F. destruct (v_rt H) as [f R]; rewrite R in F. destruct (fails (clock s)); inversion F; subst; [now apply V_failure |].
      match goal with |- V _ _ _ _ (if _ then ?x else _) => assert (V (Some (S k)) c true n x) as X end.
      { apply V_collect, V_no_nodes; auto. vd H. constructor; auto. cbn; eauto. }
      destruct (N.eqb _ 0); auto. now apply V_raise. }
    destruct (ok s1).
    - inversion E; subst. split; [| discriminate]. now apply V_unshare.
    - destruct l1; apply pair_equal_spec in E as [E <-]; apply pair_equal_spec in E as [_ <-]; (split; [| discriminate]); apply V_unshare.
      + eapply V_free_now; [| reflexivity]. vd H1. constructor; cbn; auto. lia.
      + eapply V_free_now; [eassumption | reflexivity].
  Qed.
  Lemma spread_V : forall n s, V (Some 0) true true (n, 0) s -> Post n (_spread fails werr flag choice place single Good s).
  Proof.
    intros n s H. unfold _spread, status_launched. pose proof (V_disable H) as D.
    st1; cb.
    - destruct (graph_launched _ _ _ _ _ _) as [[l g] s1] eqn:G.
      eapply V_graph_launched in G; [| now rewrite ing_share, ing_reset | vv]. destruct G as [G Gb].
      assert (V (Some 0) true (good g) (n, 0) (if l then s1 else snd (launched fails werr flag no_effect (share (reset s1))))) as P.
      { destruct l; auto. st1. cb; auto. }
      destruct (V_sweep P) as [A B]. destruct g; [| congruence |].
      + unfold Post. cbn [good] in *. revert A B. match goal with |- context [sweep ?a ?b ?c ?d ?e ?f ?g] => generalize (sweep a b c d e f g) end.
        intros z A B. cbn [free_now fst snd]. assert ((if ok z then z else z) = z) as -> by (now destruct (ok z)). destruct (ok z); fin.
      + now apply last_Post.
    - destruct (V_sweep E) as [A B]. now apply last_Post.
  Qed.

  Lemma filter_passes_V : forall m c b n s l s', filter_passes fails werr flag m s = (l, s') -> V (Some 0) c b n s -> V (Some 0) c b n s'.
  Proof.
    induction m; cbn; intros c b n s l s' E H; [inversion E; now subst |].
    unfold status_launched in E. destruct (start _ _ _ _ _) as [x y] eqn:F. taking V_start F.
    destruct x; [eauto | inversion E; now subst].
  Qed.
  Lemma filtered_V : forall n s g s', _filtered fails werr flag choice single Good true s = (g, s') -> V (Some 0) true true n s ->
    V (Some 0) true (good g) n s' /\ g <> Bad.
  Proof.
    intros n s g s' E H. revert E. unfold _filtered. pose proof (V_disable H) as D.
    assert (forall x y, (x, y) = (g, s') -> V (Some 0) true (good x) n y -> x <> Bad -> V (Some 0) true (good g) n s' /\ g <> Bad) as F.
    { intros x y E A B. inversion E; subst; auto. }
    br; [intros X; eapply F; [exact X | vv | discriminate] |].
    st1. br; [intros X; eapply F; [exact X | vv | discriminate] |].
    st1. br.
    - br; [intros X; eapply F; [exact X | vv | discriminate] |].
      st1; intros X; (eapply F; [exact X | vv | discriminate]).
    - st1. match goal with |- context [if ?x then launched_with_another _ _ _ _ else _] => destruct x end.
      all: repeat first [ solve [intros X; eapply F; [exact X | vv | discriminate]]
        | match goal with |- context [filter_passes fails werr flag ?m ?x] =>
            let E := fresh in destruct (filter_passes fails werr flag m x) as [? ?] eqn:E; eapply filter_passes_V in E; [| vv] end
        | st1 | br ].
  Qed.

  (** What doesn't touch the nodes in ports *)
  Lemma inp_free_router : forall s, inp (free_router s) = inp s.
  Proof. intros; unfold free_router. destruct (rt s) as [[[|] [|]] |]; reflexivity. Qed.
  Lemma inp_start : forall s, inp (snd (start fails werr flag no_effect s)) = inp s.
  Proof.
    intros; unfold start. destruct (rt s); [| reflexivity]. destruct (fails (clock s)); [reflexivity |]. cbn [snd].
    now destruct (N.eqb _ 0).
  Qed.
  Lemma inp_launched : forall s, inp (snd (launched fails werr flag no_effect s)) = inp s.
  Proof.
    intros; unfold launched. pose proof (inp_start s). destruct (start _ _ _ _ s). cbn [snd] in *. now rewrite inp_free_router.
  Qed.
  Lemma inp_another : forall s, inp (snd (launched_with_another fails werr flag s)) = inp s.
  Proof.
    intros; unfold launched_with_another. destruct (ok s); [| reflexivity]. cbn [negb]. destruct (fails (clock s)); [reflexivity |].
    destruct (fails (clock (tick s))); [reflexivity |]. cbn [snd]. now destruct (N.eqb (if N.eqb _ 0 then _ else _) 0).
  Qed.
  Lemma inp_share : forall s, inp (share s) = inp s.
  Proof. intros; unfold share. now destruct (rt s). Qed.
  Lemma inp_reset : forall s, inp (reset s) = inp s.
  Proof. intros; unfold reset. now destruct (rt s). Qed.
  Lemma inp_disable : forall s, inp (disable_killing fails s) = inp s.
  Proof. intros; unfold disable_killing. now destruct (fails _). Qed.
  Lemma inp_unset : forall s, inp (unset_properties fails werr flag s) = inp s.
  Proof.
    intros; unfold unset_properties. destruct (ok s || _); [| reflexivity]. now rewrite inp_launched, inp_share, inp_reset.
  Qed.
  Ltac inps := repeat (rewrite ?inp_launched, ?inp_another, ?inp_share, ?inp_reset, ?inp_unset, ?inp_disable in *; cbn [choose fst snd inp tick negb] in *).
  Lemma inp_half : forall s, inp (snd (half_duplexed fails werr flag choice s)) = inp s.
  Proof. intros; unfold half_duplexed. cbn [choose]. destruct (choice (clock s)); inps; reflexivity. Qed.
  Lemma inp_set : forall s, inp (snd (set_properties fails werr flag choice s)) = inp s.
  Proof.
    intros; unfold set_properties. cbn [choose].
    assert (inp (snd (if choice (clock s) then launched_with_another fails werr flag (tick s) else (true, tick s))) = inp s) as A
      by (destruct (choice (clock s)); inps; reflexivity).
    destruct (if choice (clock s) then _ else _) as [[|] s1]; cb; auto. destruct (ok s1); cb; auto.
    pose proof (inp_launched (share (reset s1))) as B. destruct (launched _ _ _ _ _) as [[|] s2]; cb; inps; try congruence.
    destruct (ok s2); cb; inps; try congruence. destruct (choice (clock s2)); cb; [inps; congruence |].
    pose proof (inp_another (tick s2)) as C. destruct (launched_with_another _ _ _ _) as [[|] s3]; cb; inps; try congruence.
    destruct (ok s3); cb; inps; congruence.
  Qed.

  Lemma merge_V : forall c n s, V (Some 0) c true n s -> inp s = 0 ->
    V (Some 0) c true n (merge fails werr flag place s) /\ inp (merge fails werr flag place s) = 0.
  Proof.
    intros c n s H I. unfold merge, status_launched.
    destruct (start fails werr flag populate (reset s)) as [l s1] eqn:E.
    destruct l; cb.
    - taking V_status_populated E. cbn [negb].
      match goal with |- context [launched _ _ _ clear (share (reset ?x))] => assert (V (Some 0) c true n x) as P end.
      { br; auto. st1. br; auto. st1. cb; auto. }
      destruct (launched _ _ _ clear _) as [l s2] eqn:F. taking V_launched_clear F. destruct F as [F G].
      destruct l; [auto | now apply V_clear].
    - assert (inp s1 = 0) as J.
      { unfold start in E. rewrite <- I, <- (inp_reset s). destruct (rt (reset s)); [| now inversion E; subst].
        destruct (fails _); inversion E; now subst. }
      taking V_status_populated E. auto.
  Qed.
  Lemma merged_V : forall n s, V (Some 0) true true (n, 0) s -> inp s = 0 -> Post n (_merged fails werr flag choice place Good s).
  Proof.
    intros n s H I. unfold _merged. pose proof (V_disable H) as D. pose proof (inp_disable s) as J.
    match goal with |- context [free_router ?x] => assert (V (Some 0) true true (n, 0) x /\ inp x = 0) as [P Q] end.
    { rewrite <- J in I. br; auto.
      pose proof (inp_half (disable_killing fails s)) as K. st1. br; [split; [auto | cb; congruence] |]. cb.
      destruct (ok s0); cb; [| split; [auto | congruence]].
      pose proof (inp_set s0) as L. st1. cb. br; [split; [auto | congruence] |].
      destruct (merge_V E0) as [X Y]; [congruence |]. split; [vv | now rewrite inp_unset]. }
    destruct (V_free_router P) as [A B]. apply last_Post; auto. congruence.
  Qed.

  (** Errors are not forgotten *)
  Lemma err_raise : forall e s, err s <> 0%N -> err (raise e s) = err s.
  Proof. intros e s H. unfold raise; cbn. now apply N.eqb_neq in H as ->. Qed.
  Lemma err_free_router : forall s, err s <> 0%N -> err (free_router s) = err s.
  Proof. intros s H; unfold free_router. destruct (rt s) as [[[|] [|]] |]; auto. exact (@err_raise INTKIL (set_rt None s) H). Qed.
  Lemma err_share : forall s, err (share s) = err s.
  Proof. intros; unfold share. now destruct (rt s). Qed.
  Lemma err_reset : forall s, err (reset s) = err s.
  Proof. intros; unfold reset. now destruct (rt s). Qed.
  Lemma err_call : forall s, err s <> 0%N -> err (call werr s) = err s.
  Proof. intros s H; unfold call. destruct (N.eqb _ 0); auto. now rewrite err_raise. Qed.
  Lemma err_launched_clear : forall s, err s <> 0%N -> err (snd (launched fails werr flag clear s)) = err s.
  Proof.
    intros s H; unfold launched, start. destruct (rt s); [| cbn [snd]; now rewrite err_free_router].
    destruct (fails (clock s)); cbn [snd].
    - rewrite err_free_router; unfold failure; rewrite err_raise; auto.
    - destruct (N.eqb _ 0); rewrite err_free_router; rewrite ?err_raise; auto.
  Qed.
  Lemma err_sweep : forall s, err s <> 0%N -> err (sweep fails werr flag choice single true s) = err s.
  Proof.
    intros s H; unfold sweep. cbn [negb]. destruct (rt s) as [r |]; auto. destruct (shared r =? 0); cbn [negb]; [| now apply err_free_router].
    cbn [choose]. destruct (choice (clock s) || _); cbn [negb]; [| now rewrite err_free_router].
    assert (err (share (reset (tick s))) = err s) as Z by (now rewrite err_share, err_reset).
    pose proof (err_launched_clear (share (reset (tick s)))) as X. rewrite Z in X. specialize (X H).
    destruct (single || _).
    - rewrite err_free_router; cbn [clear err set_graph]; rewrite err_call; auto.
    - destruct (launched _ _ _ _ _) as [[|] s1]; cbn [snd] in X.
      + rewrite err_free_router; congruence.
      + rewrite err_free_router; cbn [clear err set_graph]; rewrite err_call; congruence.
  Qed.

  (** The graph may be neither freed nor returned if there is an error *)
  Definition Leak (n : nat) (r : graph * st) : Prop :=
    exists b, V None true b (n, 0) (snd r) /\ inp (snd r) = 0 /\
    ((fst r = Good /\ b = true) \/ (fst r = Null /\ err (snd r) <> 0%N)).

  Lemma sweep_Leak : forall n s, V (Some 0) true true (n, 0) s ->
    Leak n (let s := if ok s then s else free_now Good s in
            let s := sweep fails werr flag choice single true s in (if ok s then Good else Null, s)).
  Proof.
    intros n s H. cbv zeta. destruct (ok s) eqn:O.
    - destruct (V_sweep H) as [A B]. exists true. cbn [fst snd]. split; [auto | split; [auto |]].
      destruct (ok (sweep _ _ _ _ _ _ s)) eqn:P; [auto |]. right. split; auto. now apply N.eqb_neq.
    - destruct (V_free_now H eq_refl) as (A & _ & C). destruct (V_sweep A) as [A' B'].
      exists false. cbn [fst snd]. split; [auto | split; [auto |]].
      apply N.eqb_neq in O. rewrite <- C in O. pose proof (err_sweep _ O) as E. rewrite <- E in O.
      unfold ok. right. split; [now apply N.eqb_neq in O as -> | auto].
  Qed.

  Lemma stretching_V : forall m c n s, V (Some 0) c true n s -> V (Some 0) c true n (stretching fails werr flag choice place m s).
  Proof.
    induction m; intros c n s H; cbn [stretching]; [vv |].
    br; auto. st1. br; auto. st1; cb.
    all: br; [vv |]; st1; st1; cb; br; auto.
  Qed.
  Lemma stretched_V : forall m n s, V (Some 0) true true (n, 0) s -> Leak n (_stretched fails werr flag choice place single m Good s).
  Proof.
    intros m n s H. unfold _stretched. pose proof (V_disable H) as D. apply sweep_Leak.
    br; auto. st1. br; auto. now apply stretching_V.
  Qed.
  Lemma propagate_V : forall c n s, V (Some 0) c true n s -> V (Some 0) c true n (propagate fails werr flag choice place s).
  Proof.
    intros c n s H. unfold propagate, status_launched.
    assert (forall s, V (Some 0) c true n s ->
      V (Some 0) c true n (let (l, s) := launched fails werr flag clear (share (reset s)) in if l then s else clear s)) as U.
    { intros s0 H0. st1. br; auto. vv. }
    br; auto. st1; cb; auto. br; auto. st1. br; auto.
    match goal with |- context [queue_launched _ _ _ _ (reset ?x)] =>
      assert (V (Some 0) c true n (if negb (ok x) then x else snd (queue_launched fails werr flag place (reset x)))) as Q end.
    { br; auto. st1; cb; auto. }
    destruct (ok (if negb _ then _ else _)); auto. st1. apply U. br; auto. st1; cb; auto.
  Qed.
  Lemma mutated_V : forall n s, V (Some 0) true true (n, 0) s -> Leak n (_mutated fails werr flag choice place single Good s).
  Proof.
    intros n s H. unfold _mutated. apply sweep_Leak.
    br; auto. st1. br; auto. st1.
    match goal with |- context [if ?x then launched _ _ _ _ _ else _] => destruct x end; [st1 |]; (br; auto); st1.
    all: try match goal with |- context [if ?x then launched_with_another _ _ _ _ else _] => destruct x end; try st1; (br; auto); now apply propagate_V.
  Qed.

  (** Nodes may be lost if there is an error *)
  Definition Lost (n : nat) (r : graph * st) : Prop :=
    exists m k, m + k = n /\ V None true (good (fst r)) (m, k) (snd r) /\ inp (snd r) = 0 /\ fst r <> Bad /\
    (k <> 0 -> err (snd r) <> 0%N /\ fst r = Null).
  Lemma err_unset : forall s, err s <> 0%N -> err (unset_properties fails werr flag s) <> 0%N.
  Proof.
    intros s H. unfold unset_properties. destruct (ok s || _); auto.
    assert (err (share (reset s)) = err s) as Z by (now rewrite err_share, err_reset).
    rewrite <- Z in H. revert H. generalize (share (reset s)). clear. intros s H. unfold launched, start.
    destruct (rt s); [| cbn [snd]; now rewrite err_free_router]. destruct (fails (clock s)); cbn [snd].
    - rewrite err_free_router; unfold failure; rewrite err_raise; auto.
    - destruct (N.eqb _ 0); rewrite err_free_router; rewrite ?err_raise; auto.
  Qed.
  Lemma Post_Lost : forall n r, Post n r -> Lost n r.
  Proof. intros n r (A & B & C). exists n, 0. repeat (split; auto; try lia); apply A. Qed.
  Lemma W_raise : forall e o c b n s, e <> BADGPH -> W o c b n s -> W o c b n (raise e s).
  Proof. intros e o c b n s He []. constructor; auto. unfold raise; cbn. destruct (N.eqb (err s) 0); auto. Qed.
  Lemma W_unset : forall c b n s, W (Some 0) c b n s -> W (Some 0) c b n (unset_properties fails werr flag s).
  Proof.
    intros c b n s H. unfold unset_properties. destruct (ok s || _); auto.
    assert (W (Some 1) c b n (share (reset s))) as X.
    { destruct H as [? [f R] ? ? ? ? ? ?]. unfold reset, share; rewrite R; cbn. constructor; auto. cbn; eauto. }
    revert X. generalize (share (reset s)). clear H s. intros s H. unfold launched, start.
    destruct (w_rt H) as [f R]. rewrite R. cbn [snd].
    assert (W (Some 1) c b n (tick s)) as T by (destruct H; constructor; auto).
    destruct (fails (clock s)); cbn [snd]; apply W_unshare.
    - unfold failure. apply W_raise; auto. destruct (N.eqb _ 0); [discriminate | auto].
    - assert (W (Some 1) c b n (no_effect (tick (set_rt (Some (mkR 1 (f || flag (clock s)))) s)))) as Y.
      { destruct T; constructor; auto. cbn; eauto. }
      cbn [shared killed] in *. destruct (N.eqb _ 0); auto. apply W_raise; auto.
  Qed.
  Lemma split_V : forall n s, V (Some 0) true true (n, 0) s -> Lost n (_split fails werr flag choice place single Good s).
  Proof.
    intros n s H. unfold _split, status_launched. pose proof (V_disable H) as D.
    br; [apply Post_Lost; unfold Post; sw; fin |].
    st1. br; [apply Post_Lost; unfold Post; sw; fin |].
    destruct (launched fails werr flag populate (share (reset s0))) as [[|] s1] eqn:F; cb.
    - pose proof F as F'. eapply launched_W in F'; eauto using W_populate; [| vv].
      taking V_populated F. br.
      + apply Post_Lost; unfold Post. apply W_unset, W_no_nodes in F'. sw; fin.
      + apply Post_Lost; unfold Post. st1; cb.
        match goal with |- context [clear_properties _ _ _ ?x] => assert (V (Some 0) true true (n, 0) (clear_properties fails werr flag x)) as Q
          by (unfold clear_properties; vv) end.
        br; [sw; fin |]. st1. br; sw; fin.
    - eapply launched_W in F; eauto using W_populate; [| vv]. destruct F as [F G].
      apply V_unset in F. apply err_unset in G. revert F G. generalize (unset_properties fails werr flag s1). intros x F G.
      assert (V (Some 0) true true (n - ing x, ing x) (no_nodes x)) as P.
      { vd F. cbn [fst snd] in *. constructor; cbn; auto; lia. }
      destruct (V_free_now P eq_refl) as (A & _ & C). destruct (V_sweep A) as [A' B'].
      exists (n - ing x), (ing x). cbn [fst snd good]. split; [| split; [auto | split; [auto | split; [discriminate |]]]].
      + pose proof (v_sum F) as Z. cbn [fst] in Z. lia.
      + intros _. split; auto. rewrite err_sweep; rewrite C; auto.
  Qed.

  (** ** C98.  Functions consuming a graph *)

  Definition VI (c : bool) (n : nat) (s : st) : Prop := V None c true (n, 0) s /\ inp s = 0.
  Lemma VI_given : forall n e, e <> BADGPH -> VI false n (given Good n e).
  Proof. intros; split; [now apply given_V | reflexivity]. Qed.
  Lemma VI_entry : forall c n s, VI c n s -> VI c n (api_entry fails werr s).
  Proof. intros c n s [A B]; split; [now apply V_entry |]. unfold api_entry. now destruct (fails _). Qed.
  Lemma VI_disable : forall c n s, VI c n s -> VI c n (disable_killing fails s).
  Proof. intros c n s [A B]; split; [now apply V_disable |]. now rewrite inp_disable. Qed.
  Lemma VI_raise : forall e c n s, e <> BADGPH -> VI c n s -> VI c n (raise e s).
  Proof. intros e c n s X [A B]; split; [now apply V_raise | auto]. Qed.
  Lemma VI_infer : forall n s i s', infer fails werr s = (i, s') -> VI false n s -> VI i n s'.
  Proof.
    intros n s i s' E [A B]; split; [eapply V_infer; eauto |]. unfold infer in E. destruct (fails _); inversion E; subst; auto.
    now destruct (copy s).
  Qed.
  Lemma make_ok : forall s r s', make_router fails werr s = (r, s') -> r = ok s'.
  Proof.
    intros s r s' E. unfold make_router in E. destruct (ok s) eqn:O; cbn [negb] in E; [| now inversion E; subst].
    destruct (fails (clock s)); inversion E; subst.
    - unfold ok, failure, raise in *. cbn. rewrite O. destruct (werr (clock s) =? 0)%N eqn:X; auto.
    - unfold ok in *. cbn. now destruct (rt s).
  Qed.
  Lemma VI_make : forall c n s r s', make_router fails werr s = (r, s') -> VI c n s ->
    if r then (V (Some 0) c true (n, 0) s' /\ inp s' = 0) /\ ok s' = true else VI c n s' /\ ok s' = false.
  Proof.
    intros c n s r s' E [A B]. destruct (V_make E A) as (X & Y & _). apply make_ok in E. subst r.
    destruct (ok s'); split; auto; split; auto; congruence.
  Qed.
  Lemma finish_VI : forall n s, VI false n s -> settled n (finish fails werr flag single Good s).
  Proof. intros n s [A B]. apply finish_V; auto. discriminate. Qed.
  Lemma finish_copy_VI : forall n s, VI true n s -> settled n (finish fails werr flag single Good (free_copy s)).
  Proof.
    intros n s [A B]. apply finish_V; [| | discriminate]; [now apply V_free_copy |]. unfold free_copy. now destruct (copy s).
  Qed.
  Lemma finish_Post : forall n g s, Post n (g, s) -> settled n (finish fails werr flag single g (free_copy s)).
  Proof.
    intros n g s (A & B & C). cbn [fst snd] in *. apply finish_V; auto.
    - now apply V_free_copy.
    - unfold free_copy. now destruct (copy s).
  Qed.

  Ltac vi := solve [repeat first [eassumption | apply VI_given | apply VI_entry | apply VI_disable | (apply VI_raise; [discriminate |])]].
  Ltac fi := solve [apply finish_VI; vi].
  Ltac en := br; [first [fi | idtac] | first [fi | idtac]].
  Ltac op := cbv zeta; cbn [bad stored];
    repeat match goal with
    | |- settled _ (finish _ _ _ _ _ _) => fi
    | |- context [infer fails werr ?x] =>
        let E := fresh "E" in destruct (infer fails werr x) as [[|] ?] eqn:E; (eapply VI_infer in E; [| vi]); cb
    | |- context [make_router fails werr ?x] =>
        let E := fresh "E" in destruct (make_router fails werr x) as [[|] ?] eqn:E; (eapply VI_make in E; [| vi]); try (destruct E as [E ?OK]; [idtac]; lazymatch type of E with VI _ _ _ => idtac end); cb
    | |- settled _ (if ?x then _ else _) => destruct x; cb
    end.

  Theorem C98_composed : forall m n e spec, e <> BADGPH ->
    settled n (composed fails werr flag choice place single m Good spec (given Good n e)).
  Proof.
    intros m n e spec He. unfold composed. op.
    - destruct E0 as [[A B] O]. pose proof (composed_V m A) as P. destruct (_composed _ _ _ _ _ _ _ _ _). now apply finish_Post.
    - now apply finish_copy_VI.
  Qed.
  Theorem C98_postponed : forall m n e spec, e <> BADGPH ->
    settled n (postponed fails werr flag choice single m Good spec (given Good n e)).
  Proof.
    intros m n e spec He. unfold postponed. op.
    - destruct E0 as [[A B] O]. pose proof (postpone_V m A) as P. destruct (_postpone _ _ _ _ _ _ _ _). now apply finish_Post.
    - now apply finish_copy_VI.
  Qed.
  Theorem C98_deduplicated : forall n e, e <> BADGPH ->
    settled n (deduplicated fails werr flag choice place single Good (given Good n e)).
  Proof.
    intros n e He. unfold deduplicated. op.
    - destruct E0 as [[A B] O]. pose proof (deduplicated_V A) as P. destruct (_deduplicated _ _ _ _ _ _ _ _). now apply finish_Post.
    - now apply finish_copy_VI.
  Qed.
  Theorem C98_spread : forall n e spec compatible, e <> BADGPH ->
    settled n (spread fails werr flag choice place single Good spec compatible (given Good n e)).
  Proof.
    intros n e spec compatible He. unfold spread. op.
    - apply finish_copy_VI. vi.
    - destruct E0 as [[A B] O]. pose proof (spread_V A) as P. destruct (_spread _ _ _ _ _ _ _ _). now apply finish_Post.
    - apply finish_copy_VI. vi.
    - now apply finish_copy_VI.
  Qed.
  Lemma pruned_Post : forall n g s, V (Some 0) true (good g) (n, 0) s -> g <> Bad ->
    Post n (g, snd (pruned fails werr flag choice place single g true s)).
  Proof.
    intros n g s H X. unfold pruned. cbn [snd]. destruct g; [| congruence |].
    - destruct (V_sweep H). split; [| split]; auto.
    - apply V_pruning in H. destruct (V_sweep H). split; [| split]; auto.
  Qed.
  Theorem C98_filtered : forall n e spec trivial, e <> BADGPH ->
    settled n (filtered fails werr flag choice place single Good spec trivial (given Good n e)).
  Proof.
    intros n e spec trivial He. unfold filtered. destruct trivial; op.
    - now apply finish_copy_VI.
    - destruct E0 as [[A B] O]. destruct (_filtered _ _ _ _ _ _ _ _) as [g s1] eqn:F. cb. apply finish_Post.
      destruct (filtered_V F A). now apply pruned_Post.
    - unfold _filtered. rewrite Bool.orb_true_r. cb. unfold pruned, sweep. cbn [negb snd].
      apply finish_copy_VI. apply VI_disable in E0. destruct (ok (disable_killing fails s0)); cbn [negb]; [apply VI_raise; [discriminate |] |]; auto.
  Qed.

  Lemma finish_spoiled : forall c b n k s, V None c b (n, k) s -> inp s = 0 -> err s <> 0%N ->
    spoiled c b k (n + k) (finish fails werr flag single Null s).
  Proof.
    intros c b n k s H I E. unfold finish. pose proof E as O. apply N.eqb_neq in O. unfold ok. rewrite O.
    assert (cru_free_now fails werr flag single Null s = api_entry fails werr s) as ->.
    { unfold cru_free_now. destruct (ok _); reflexivity. }
    assert (err (api_entry fails werr s) <> 0%N) as F.
    { unfold api_entry, failure, raise. destruct (fails _); cbn; auto. now rewrite O. }
    assert (inp (api_entry fails werr s) = 0) as J by (unfold api_entry; now destruct (fails _)).
    apply V_entry in H. remember (api_entry fails werr s) as s1 eqn:Q; clear Q.
    apply N.eqb_neq in F as G. rewrite G. vd H. unfold spoiled. cbn [fst snd] in *.
    repeat (split; [reflexivity || assumption || congruence || lia |]). auto.
  Qed.

  Ltac op2 S := cbv zeta; cbn [bad stored];
    repeat match goal with
    | |- _ (finish _ _ _ _ _ _) => solve [apply S; apply finish_VI; vi]
    | |- _ (finish _ _ _ _ _ _) => solve [apply S; apply finish_copy_VI; vi]
    | |- context [infer fails werr ?x] =>
        let E := fresh "E" in destruct (infer fails werr x) as [[|] ?] eqn:E; (eapply VI_infer in E; [| vi]); cb
    | |- context [make_router fails werr ?x] =>
        let E := fresh "E" in destruct (make_router fails werr x) as [[|] ?] eqn:E; (eapply VI_make in E; [| vi]); try (destruct E as [E ?OK]; [idtac]; lazymatch type of E with VI _ _ _ => idtac end); cb
    | |- _ (if ?x then _ else _) => destruct x; cb
    end.
  Lemma leak_or : forall n (P : graph * st -> Prop), (forall r, settled n r -> P r) -> (forall r, spoiled false true 0 n r -> P r) ->
    forall g s, Leak n (g, s) -> P (finish fails werr flag single g (free_copy s)).
  Proof.
    intros n P S L g s (b & A & B & C). cbn [fst snd] in *. assert (inp (free_copy s) = 0) as J by (unfold free_copy; now destruct (copy s)).
    destruct C as [[-> ->] | [-> C]].
    - apply S. apply finish_V; [now apply V_free_copy | auto | discriminate].
    - apply V_free_copy in A. assert (err (free_copy s) <> 0%N) as D by (unfold free_copy; now destruct (copy s)).
      pose proof (finish_spoiled A J D) as Z. rewrite Nat.add_0_r in Z. destruct b; [auto |].
      apply S. clear - Z. destruct (finish _ _ _ _ _ _). unfold spoiled in Z. unfold settled.
      destruct Z as (-> & ? & ? & ? & ? & ? & ? & ? & ? & X). specialize (X eq_refl). repeat (split; [assumption |]). lia.
  Qed.
  Theorem C98_stretched_or : forall m n e spec, e <> BADGPH ->
    let r := stretched fails werr flag choice place single m Good spec (given Good n e) in settled n r \/ spoiled false true 0 n r.
  Proof.
    intros m n e spec He. cbv zeta. pose (P := fun r => settled n r \/ spoiled false true 0 n r). change (P (stretched fails werr flag choice place single m Good spec (given Good n e))).
    assert (forall r, settled n r -> P r) as S by (unfold P; auto). assert (forall r, spoiled false true 0 n r -> P r) as L by (unfold P; auto).
    clearbody P. unfold stretched. op2 S.
    destruct E0 as [[A B] O]. rewrite O. cbn [andb]. pose proof (stretched_V m A) as X. destruct (_stretched _ _ _ _ _ _ _ _ _). now apply leak_or with n.
  Qed.
  Theorem C98_mutated_or : forall n e spec, e <> BADGPH ->
    let r := mutated fails werr flag choice place single Good spec (given Good n e) in settled n r \/ spoiled false true 0 n r.
  Proof.
    intros n e spec He. cbv zeta. pose (P := fun r => settled n r \/ spoiled false true 0 n r). change (P (mutated fails werr flag choice place single Good spec (given Good n e))).
    assert (forall r, settled n r -> P r) as S by (unfold P; auto). assert (forall r, spoiled false true 0 n r -> P r) as L by (unfold P; auto).
    clearbody P. unfold mutated. op2 S.
    destruct E0 as [[A B] O]. pose proof (mutated_V A) as X. destruct (_mutated _ _ _ _ _ _ _ _). now apply leak_or with n.
  Qed.
  Theorem C98_split_or : forall n e spec, e <> BADGPH ->
    let r := split fails werr flag choice place single Good spec (given Good n e) in settled n r \/ exists k, spoiled false false k n r.
  Proof.
    intros n e spec He. cbv zeta. pose (P := fun r => settled n r \/ exists k, spoiled false false k n r).
    change (P (split fails werr flag choice place single Good spec (given Good n e))).
    assert (forall r, settled n r -> P r) as S by (unfold P; auto).
    assert (forall k r, spoiled false false k n r -> P r) as L by (unfold P; eauto).
    clearbody P. unfold split. op2 S.
    destruct E0 as [[A B] O]. pose proof (split_V A) as X. destruct (_split _ _ _ _ _ _ _ _) as [g s1].
    destruct X as (m & k & Q & D & I & G & K). cbn [fst snd] in *. apply V_free_copy in D.
    assert (inp (free_copy s1) = 0) as J by (unfold free_copy; now destruct (copy s1)).
    destruct k as [| k].
    - apply S. rewrite <- Q, Nat.add_0_r. now apply finish_V.
    - destruct K as [K ->]; [discriminate |]. apply L with (k := Datatypes.S k). rewrite <- Q. apply finish_spoiled; auto. unfold free_copy; now destruct (copy s1).
  Qed.
  Theorem C98_merged_or : forall n e spec, e <> BADGPH ->
    let r := merged fails werr flag choice place single Good spec (given Good n e) in settled n r \/ spoiled true false 0 n r.
  Proof.
    intros n e spec He. cbv zeta. pose (P := fun r => settled n r \/ spoiled true false 0 n r).
    change (P (merged fails werr flag choice place single Good spec (given Good n e))).
    assert (forall r, settled n r -> P r) as S by (unfold P; auto).
    assert (forall r, spoiled true false 0 n r -> P r) as L by (unfold P; eauto).
    clearbody P. unfold merged. op2 S.
    - destruct E0 as [[A B] O]. pose proof (merged_V A B) as X. destruct (_merged _ _ _ _ _ _ _). apply S. now apply finish_Post.
    - apply L. destruct E0 as [A B]. unfold finish. rewrite OK.
      assert (ok (api_entry fails werr s0) = false) as O.
      { unfold ok, api_entry, failure, raise in *. destruct (fails _); cbn; auto. now rewrite OK. }
      assert (inp (api_entry fails werr s0) = 0) as J by (unfold api_entry; now destruct (fails _)).
      unfold cru_free_now. rewrite O. cbn [negb]. apply V_entry in A. destruct (V_free_now A eq_refl) as (D & F & G).
      assert (ok (free_now Good (api_entry fails werr s0)) = false) as O' by (unfold ok in *; now rewrite G). rewrite O'.
      vd D. unfold spoiled. specialize (v5 eq_refl). cbn [fst snd] in *. apply N.eqb_neq in O'.
      repeat (split; [reflexivity || assumption || congruence || lia |]). auto.
  Qed.
End Proofs.
