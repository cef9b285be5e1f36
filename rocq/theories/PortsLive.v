(** Liveness, routing and exactly-once delivery for the protocol of Ports.v. *)
From Coq Require Import List Arith Lia Bool Permutation Wf_nat.
From Verif Require Import Base Machine Ports PortsProofs.
Import ListNotations.

Set Implicit Arguments.

Section Live.
  Context {S P : Type}.
  Variable lanes : nat.
  Variable dest : P -> nat.
  Variable task : S -> P -> option (S * list P).
  Variable p0 : P.
  Hypothesis dest_ok : forall p, dest p < lanes.

  Notation sys := (@sys S P).
  Notation step := (step lanes dest task p0).
  Notation in_flight := (in_flight lanes).
  Notation reachable := (reachable lanes dest task p0).
  Notation inv := (inv lanes).

  Ltac step_cases H :=
    destruct H as [i p rest s1 out Hi Hpc Hinc Ht | i p rest Hi Hpc Hinc Ht | i Hi Hpc Hinc Hpod
      | i Hi Hpc Hinc Hpod | i Hi Hpc Ha | i Hi Hpc Ha | i Hi Hpc
      | i j en Hi Hpc Hj Hpod | i j en Hi Hpc Hj Hpod | i j en Hi Hpc Hj
      | i j Hi Hpc Hj | i j Hi Hpc Hj | i Hi Hpc Ha | i Hi Hpc Ha Hd | i Hi Hpc Ha Hd Hr
      | i Hi Hpc Ha Hd Hr | i Hi Hpc Hw | Hm Hq | Hm | Hm Hq | j Hm Hj | j Hm Hj | Hm He ].

  (** ** Every packet created is either processed or held somewhere *)
  Lemma conservation s0 s :
    reachable s0 s -> Permutation (sent s) (map snd (hist s) ++ in_flight s) /\ lost s = [].
  Proof.
    intros Hr. induction Hr as [|s s' Hr IH Hstep].
    - simpl. split; auto. unfold Ports.in_flight; simpl.
      assert (E : forall n, flat n (fun _ : nat => @nil P) = []) by (intros; now apply flat_nil).
      now rewrite !E.
    - destruct IH as [IH Hl].
      pose proof (inv_reachable dest_ok Hr) as Hi. pose proof Hi as [Hs _].
      pose proof (step_effect dest_ok (sh_inc Hs) Hstep) as E.
      destruct E as [i p R out Hi1 Hpc Hp Ht Hh Hl' Hst F1 F2 Hm' | Hm1 Hm2 Hsh Hh Hl' Hst F |
                   Hsh Hh Hl' Hst Hm1 Hm2 F | Hsh Hh Hl' Hst Hm' F | j Hsh Hh Hst Hm1 Hm2 Hl' F].
      + split; [|congruence]. rewrite Hst, Hh, IH, F1, F2. simpl. perm_solve.
      + split; [|congruence]. rewrite Hst, Hh, IH, F. perm_solve.
      + split; [|congruence]. rewrite Hst, Hh, IH, F. perm_solve.
      + split; [|congruence]. rewrite Hst, Hh, IH, F. perm_solve.
      + destruct Hi as [_ Hi]. rewrite Hm1 in Hi.
        pose proof (l_flight Hi) as L. rewrite L in *.
        apply Permutation_nil, app_eq_nil in F as [F1 F2]. rewrite Hst, Hh, Hl', F1, F2. auto.
  Qed.

  (** ** Packets are only held and processed by the worker they are addressed to *)
  Record routed (s : sys) : Prop := {
    ro_inc : forall i p, In p (inc s i) -> dest p = i;
    ro_pod : forall i j p, In p (pod s i j) -> dest p = j;
    ro_ldef : forall i p, In p (ldef s i) -> dest p = i;
    ro_asg : forall i p, In p (asg s i) -> dest p = i;
    ro_dfr : forall i p, In p (dfr s i) -> dest p = i;
    ro_hist : forall i p, In (i, p) (hist s) -> dest p = i
  }.

  Lemma push_all_routed out pd :
    (forall j p, In p (pd j) -> dest p = j) ->
    forall j p, In p (push_all dest pd out j) -> dest p = j.
  Proof.
    unfold push_all. revert pd. induction out as [|q out IH]; intros pd H j p Hp; simpl in *; eauto.
    eapply IH; [|exact Hp]. intros k x. unfold push, upd.
    destruct (Nat.eqb_spec k (dest q)); subst; auto. intros [->|Hx]; auto.
  Qed.

  Ltac kc := match goal with
    | |- context [Nat.eqb ?k ?i] => destruct (Nat.eqb_spec k i); subst
    | H : context [Nat.eqb ?k ?i] |- _ => destruct (Nat.eqb_spec k i); subst
    end.

  Lemma routed_step s s' : routed s -> step s s' -> routed s'.
  Proof.
    intros [R1 R2 R3 R4 R5 R6] H.
    step_cases H; constructor; simpl; unfold upd; intros; repeat kc; eauto;
      repeat match goal with
      | H : In _ (if ?c then _ else _) |- _ => destruct c eqn:?; unfold upd in H; repeat kc; eauto
      | H : In _ (_ ++ _) |- _ => apply in_app_iff in H as [H|H]; eauto
      | H : In _ ((if ?c then _ else _) _) |- _ => destruct c eqn:?; unfold upd in H; repeat kc; eauto
      | H : In _ [] |- _ => destruct H
      | H : _ :: _ = inc _ _ |- _ => idtac
      end; eauto; try (simpl in *; contradiction).
    - apply (R1 i). rewrite Hinc. now right.
    - eapply push_all_routed; [|eassumption]. eauto.
    - destruct H as [H|H]; [|eauto]. inversion H; subst. apply R1. rewrite Hinc. now left.
    - apply (R1 i). rewrite Hinc. now right.
    - destruct H as [->|H]; [|eauto]. apply R1. rewrite Hinc. now left.
    - destruct H as [->|H]; eauto.
  Qed.

  Lemma routed_reachable s0 s : reachable s0 s -> routed s.
  Proof.
    apply star_inv; [apply routed_step|].
    constructor; simpl; intros; contradiction.
  Qed.

  (** ** Absence of deadlock *)
  Lemma progress s0 s : reachable s0 s -> mainpc s <> MDone -> exists s', step s s'.
  Proof.
    intros Hr Hm. pose proof (inv_reachable dest_ok Hr) as [Hs Hi].
    (* any worker that is neither asleep nor gone can make a step *)
    assert (W : forall i, i < lanes -> pcs s i <> Exited ->
                (pcs s i = Sleep -> woken s i = true) -> exists s', step s s').
    { intros i Hi' He Hsl. destruct (pcs s i) eqn:Ep.
      - destruct (inc s i) as [|p rest] eqn:Einc.
        + destruct (pod s i i) eqn:Epod.
          * eexists. eapply st_norecycle with (i := i); eauto.
          * eexists. eapply st_recycle with (i := i); eauto. congruence.
        + destruct (task (sh s) p) as [[s1 out]|] eqn:Et; eexists.
          * eapply st_process with (i := i); eauto.
          * eapply st_defer with (i := i); eauto.
      - destruct (asg s i) eqn:Ea; eexists.
        + eapply st_no_assignment with (i := i); eauto.
        + eapply st_assignment with (i := i); eauto. congruence.
      - eexists. eapply st_expose with (i := i); eauto.
      - destruct (le_lt_dec lanes j).
        + eexists. eapply st_sent with (i := i); eauto.
        + destruct (pod s i j) eqn:Epod; eexists.
          * eapply st_skip with (i := i); eauto.
          * eapply st_send with (i := i); eauto. congruence.
      - destruct (le_lt_dec lanes j); eexists.
        + eapply st_undeferred with (i := i); eauto.
        + eapply st_undefer with (i := i); eauto.
      - destruct (asg s i) eqn:Ea.
        + destruct (dismissed s i) eqn:Ed; [eexists; eapply st_dismissed with (i := i); eauto|].
          destruct (running s) eqn:Er; eexists.
          * eapply st_not_dwindled with (i := i); eauto.
          * eapply st_sleep with (i := i); eauto. lia.
        + eexists. eapply st_take with (i := i); eauto. congruence.
      - eexists. eapply st_wake with (i := i); eauto.
      - congruence. }
    destruct (mainpc s) eqn:Em; try congruence.
    - (* MStart *)
      destruct (quiescent s) eqn:Eq; [eexists; eapply st_ready; eauto|].
      destruct (e_phase Hi) as [(A & B & C)|[(A & _)|(A & _)]]; try congruence.
      assert (Hrun : running s <> 0) by (intros E; apply C in E; congruence).
      rewrite (e_running Hi) in Hrun.
      assert (E : exists i, i < lanes /\ act s i = true).
      { clear -Hrun. induction lanes as [|n IH]; simpl in *; [lia|].
        destruct (act s n) eqn:E; [exists n; auto|].
        destruct IH as (i & ? & ?); [lia|]. exists i; auto. }
      destruct E as (i & Hi1 & Hi2). apply (W i); auto.
      + apply (e_alive Hi); auto.
      + intros Hsl. apply (e_woken Hi); auto. apply (sh_wait Hs) in Hsl; auto. split; auto.
        unfold act in Hi2. rewrite Hsl in Hi2. simpl in Hi2. apply negb_true_iff, isnil_false in Hi2. auto.
    - (* MSend *) eexists. eapply st_start; eauto.
    - (* MWait *)
      destruct (quiescent s) eqn:Eq; [eexists; eapply st_finished; eauto|].
      destruct (e_phase Hi) as [(A & _)|[(A & _)|(A & C)]]; try congruence.
      assert (Hrun : running s <> 0) by (intros E; apply C in E; congruence).
      rewrite (e_running Hi) in Hrun.
      assert (E : exists i, i < lanes /\ act s i = true).
      { clear -Hrun. induction lanes as [|n IH]; simpl in *; [lia|].
        destruct (act s n) eqn:E; [exists n; auto|].
        destruct IH as (i & ? & ?); [lia|]. exists i; auto. }
      destruct E as (i & Hi1 & Hi2). apply (W i); auto.
      + apply (e_alive Hi); auto.
      + intros Hsl. apply (e_woken Hi); auto. apply (sh_wait Hs) in Hsl; auto. split; auto.
        unfold act in Hi2. rewrite Hsl in Hi2. simpl in Hi2. apply negb_true_iff, isnil_false in Hi2. auto.
    - (* MDismiss *)
      destruct (le_lt_dec lanes j); eexists.
      + eapply st_all_dismissed; eauto.
      + eapply st_dismiss; eauto.
    - (* MJoin *)
      assert (D : (forall i, i < lanes -> pcs s i = Exited) \/ exists i, i < lanes /\ pcs s i <> Exited).
      { clear. induction lanes as [|n IH]; [left; intros; lia|].
        destruct IH as [IH|(i & ? & ?)]; [|right; exists i; auto].
        destruct (pcs s n) eqn:E; try (right; exists n; split; [lia|congruence]).
        left. intros i Hi. destruct (Nat.eq_dec i n); subst; auto. apply IH; lia. }
      destruct D as [D|(i & Hi1 & Hi2)].
      + eexists. eapply st_join; eauto.
      + apply (W i); auto. intros _. destruct (l_before Hi Hi1 Hi1) as [?|[? ?]]; auto; congruence.
  Qed.

  (** After dismissal every worker has left or is about to leave without being given anything. *)
  Lemma dismissed_all s0 s :
    reachable s0 s -> (mainpc s = MJoin \/ mainpc s = MDone) ->
    forall i, i < lanes -> pcs s i = Exited \/ (pcs s i = Sleep /\ woken s i = true /\ asg s i = []).
  Proof.
    intros Hr Hm i Hi. pose proof (inv_reachable dest_ok Hr) as [Hs Hv].
    assert (L : late lanes s lanes) by (destruct Hm as [E|E]; rewrite E in Hv; tauto).
    assert (Ha : asg s i = []) by (apply (proj1 (flight_nil lanes s) (l_flight L)); auto).
    destruct (l_before L Hi Hi) as [?|[? ?]]; auto.
  Qed.

End Live.
