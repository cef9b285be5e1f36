(** Invariants of the message passing protocol of Ports.v. *)
From Coq Require Import List Arith Lia Bool Permutation.
From Verif Require Import Base Machine Ports.
Import ListNotations.

Set Implicit Arguments.

Section Proofs.
  Context {S P : Type}.
  Variable lanes : nat.
  Variable dest : P -> nat.
  Variable task : S -> P -> option (S * list P).
  Variable p0 : P.
  Hypothesis dest_ok : forall p, dest p < lanes.

  Notation sys := (@sys S P).
  Notation step := (step lanes dest task p0).
  Notation init := (@init S P lanes).
  Notation in_flight := (in_flight lanes).

  (** ** Conservation of packets *)

  Lemma push_all_flat pd out :
    Permutation (flat lanes (push_all dest pd out)) (out ++ flat lanes pd).
  Proof.
    revert pd. unfold push_all. induction out as [|p out IH]; intros pd; simpl; auto.
    rewrite IH. unfold push at 1.
    destruct (flat_split pd (dest_ok p)) as (R & H1 & H2).
    rewrite H1, (H2 (p :: pd (dest p))). perm_solve.
  Qed.

  Lemma flat_pod_upd (pd : nat -> nat -> list P) i :
    i < lanes ->
    exists R, Permutation (flat lanes (fun k => flat lanes (pd k))) (flat lanes (pd i) ++ R) /\
      forall x, Permutation (flat lanes (fun k => flat lanes (upd pd i x k))) (flat lanes x ++ R).
  Proof.
    intros Hi.
    destruct (@flat_split _ lanes (fun k => flat lanes (pd k)) i Hi) as (R & H1 & H2).
    exists R. split; auto. intros x.
    rewrite <- (H2 (flat lanes x)).
    erewrite flat_ext; [reflexivity|]. intros k Hk. unfold upd. destruct (Nat.eqb k i); auto.
  Qed.

  (** What a step can do to the packets. *)
  Inductive effect (s s' : sys) : Prop :=
  | eff_process i p R out :
      i < lanes -> pcs s i = Run -> hd_error (inc s i) = Some p ->
      task (sh s) p = Some (sh s', out) -> hist s' = (i, p) :: hist s -> lost s' = lost s ->
      sent s' = out ++ sent s ->
      Permutation (in_flight s) (p :: R) -> Permutation (in_flight s') (out ++ R) ->
      mainpc s' = mainpc s ->
      effect s s'
  | eff_start :
      mainpc s = MSend -> mainpc s' = MWait -> sh s' = sh s -> hist s' = hist s -> lost s' = lost s ->
      sent s' = p0 :: sent s ->
      Permutation (in_flight s') (p0 :: in_flight s) ->
      effect s s'
  | eff_none :
      sh s' = sh s -> hist s' = hist s -> lost s' = lost s -> sent s' = sent s -> mainpc s <> MSend ->
      (mainpc s' = mainpc s \/ mainpc s = MStart /\ mainpc s' = MSend \/
       mainpc s = MWait /\ mainpc s' = MDismiss 0 \/ mainpc s' = MJoin \/ mainpc s' = MDone) ->
      Permutation (in_flight s') (in_flight s) ->
      effect s s'
  | eff_noneb :
      sh s' = sh s -> hist s' = hist s -> lost s' = lost s -> sent s' = sent s -> mainpc s' = mainpc s ->
      Permutation (in_flight s') (in_flight s) ->
      effect s s'
  | eff_dismiss j :
      sh s' = sh s -> hist s' = hist s -> sent s' = sent s -> mainpc s = MDismiss j -> mainpc s' = MDismiss (j + 1) ->
      lost s' = asg s j ++ lost s ->
      Permutation (in_flight s) (asg s j ++ in_flight s') ->
      effect s s'.

  Ltac split_at f i :=
    let R := fresh "R" in let H1 := fresh "HR" in let H2 := fresh "HR" in
    destruct (@flat_split _ lanes f i ltac:(auto)) as (R & H1 & H2);
    rewrite ?H2, ?H1; clear H1 H2.

  (** Only a worker in its loop holds a private list of packets. *)
  Definition idle_inc (s : sys) : Prop :=
    forall i, i < lanes -> pcs s i <> Run -> inc s i = [].

  Lemma step_effect s s' : idle_inc s -> step s s' -> effect s s'.
  Proof.
    intros Hidle H.
    destruct H as [i p rest s1 out Hi Hpc Hinc Ht | i p rest Hi Hpc Hinc Ht | i Hi Hpc Hinc Hpod
      | i Hi Hpc Hinc Hpod | i Hi Hpc Ha | i Hi Hpc Ha | i Hi Hpc
      | i j en Hi Hpc Hj Hpod | i j en Hi Hpc Hj Hpod | i j en Hi Hpc Hj
      | i j Hi Hpc Hj | i j Hi Hpc Hj | i Hi Hpc Ha | i Hi Hpc Ha Hd | i Hi Hpc Ha Hd Hr
      | i Hi Hpc Ha Hd Hr | i Hi Hpc Hw | Hm Hq | Hm | Hm Hq | j Hm Hj | j Hm Hj | Hm He ];
      try (apply eff_noneb; reflexivity).
    - (* process *)
      destruct (@flat_split _ lanes (inc s) i Hi) as (R1 & A1 & A2).
      destruct (flat_pod_upd (pod s) Hi) as (R2 & B1 & B2).
      eapply eff_process with (i := i) (p := p) (out := out)
        (R := rest ++ R1 ++ (flat lanes (pod s i) ++ R2) ++ flat lanes (ldef s) ++
              flat lanes (asg s) ++ flat lanes (dfr s)); simpl; auto.
      + now rewrite Hinc.
      + unfold Ports.in_flight. rewrite A1, B1, Hinc. perm_solve.
      + unfold Ports.in_flight; simpl. rewrite A2, B2, push_all_flat. perm_solve.
    - (* defer *)
      apply eff_noneb; try reflexivity.
      unfold Ports.in_flight; simpl.
      destruct (@flat_split _ lanes (inc s) i Hi) as (R1 & A1 & A2).
      destruct (@flat_split _ lanes (ldef s) i Hi) as (R2 & B1 & B2).
      rewrite A1, A2, B1, B2, Hinc. perm_solve.
    - (* recycle *)
      apply eff_noneb; try reflexivity.
      unfold Ports.in_flight; simpl.
      destruct (@flat_split _ lanes (inc s) i Hi) as (R1 & A1 & A2).
      destruct (flat_pod_upd (pod s) Hi) as (R2 & B1 & B2).
      destruct (@flat_split _ lanes (pod s i) i Hi) as (R3 & C1 & C2).
      rewrite A1, A2, B1, B2, C1, C2, Hinc. perm_solve.
    - (* assignment *)
      apply eff_noneb; try reflexivity.
      unfold Ports.in_flight; simpl.
      destruct (@flat_split _ lanes (inc s) i Hi) as (R1 & A1 & A2).
      destruct (@flat_split _ lanes (asg s) i Hi) as (R2 & B1 & B2).
      rewrite A1, A2, B1, B2, Hidle by (auto; congruence). perm_solve.
    - (* expose *)
      apply eff_noneb; try reflexivity.
      unfold Ports.in_flight; simpl.
      destruct (@flat_split _ lanes (ldef s) i Hi) as (R1 & A1 & A2).
      destruct (@flat_split _ lanes (dfr s) i Hi) as (R2 & B1 & B2).
      rewrite A1, A2, B1, B2. perm_solve.
    - (* send *)
      apply eff_noneb; try reflexivity.
      unfold Ports.in_flight; simpl.
      destruct (@flat_split _ lanes (asg s) j Hj) as (R1 & A1 & A2).
      destruct (flat_pod_upd (pod s) Hi) as (R2 & B1 & B2).
      destruct (@flat_split _ lanes (pod s i) j Hj) as (R3 & C1 & C2).
      rewrite A1, A2, B1, B2, C1, C2. perm_solve.
    - (* undefer *)
      apply eff_noneb; try reflexivity.
      unfold Ports.in_flight; simpl.
      destruct (isnil (asg s j)) eqn:Ea; simpl; [|reflexivity].
      destruct (isnil (dfr s j)) eqn:Ed; simpl; [reflexivity|].
      apply isnil_true in Ea.
      destruct (@flat_split _ lanes (asg s) j Hj) as (R1 & A1 & A2).
      destruct (@flat_split _ lanes (dfr s) j Hj) as (R2 & B1 & B2).
      rewrite A1, A2, B1, B2, Ea. perm_solve.
    - (* take *)
      apply eff_noneb; try reflexivity.
      unfold Ports.in_flight; simpl.
      destruct (@flat_split _ lanes (inc s) i Hi) as (R1 & A1 & A2).
      destruct (@flat_split _ lanes (asg s) i Hi) as (R2 & B1 & B2).
      rewrite A1, A2, B1, B2, Hidle by (auto; congruence). perm_solve.
    - (* wake *)
      apply eff_noneb; try reflexivity.
      unfold Ports.in_flight; simpl.
      destruct (@flat_split _ lanes (inc s) i Hi) as (R1 & A1 & A2).
      destruct (@flat_split _ lanes (asg s) i Hi) as (R2 & B1 & B2).
      rewrite A1, A2, B1, B2, Hidle by (auto; congruence). perm_solve.
    - (* ready *)
      apply eff_none; simpl; auto; congruence.
    - (* start *)
      apply eff_start; simpl; auto.
      unfold Ports.in_flight; simpl.
      destruct (@flat_split _ lanes (asg s) (dest p0) (dest_ok p0)) as (R1 & A1 & A2).
      rewrite A1, A2. perm_solve.
    - (* finished *)
      apply eff_none; simpl; auto. congruence.
    - (* dismiss *)
      apply eff_dismiss with (j := j); simpl; auto.
      unfold Ports.in_flight; simpl.
      destruct (@flat_split _ lanes (asg s) j Hj) as (R1 & A1 & A2).
      rewrite A1, A2. perm_solve.
    - apply eff_none; simpl; auto. congruence.
    - apply eff_none; simpl; auto. congruence.
  Qed.

  (** ** Local shape of each worker's state *)

  Definition podok (s : sys) (i : nat) : Prop :=
    match pcs s i with
    | Run => True
    | Assign | Expose => pod s i i = []
    | Send j _ => forall k, k < j -> pod s i k = []
    | _ => forall k, k < lanes -> pod s i k = []
    end.

  Definition ldefok (s : sys) (i : nat) : Prop :=
    match pcs s i with
    | Run | Assign | Expose => True
    | _ => ldef s i = []
    end.

  Record shape (s : sys) : Prop := {
    sh_inc : idle_inc s;
    sh_pod : forall i, i < lanes -> podok s i;
    sh_ldef : forall i, i < lanes -> ldefok s i;
    sh_wait : forall i, i < lanes -> waiting s i = true <-> pcs s i = Sleep
  }.

  Ltac step_cases H :=
    destruct H as [i p rest s1 out Hi Hpc Hinc Ht | i p rest Hi Hpc Hinc Ht | i Hi Hpc Hinc Hpod
      | i Hi Hpc Hinc Hpod | i Hi Hpc Ha | i Hi Hpc Ha | i Hi Hpc
      | i j en Hi Hpc Hj Hpod | i j en Hi Hpc Hj Hpod | i j en Hi Hpc Hj
      | i j Hi Hpc Hj | i j Hi Hpc Hj | i Hi Hpc Ha | i Hi Hpc Ha Hd | i Hi Hpc Ha Hd Hr
      | i Hi Hpc Ha Hd Hr | i Hi Hpc Hw | Hm Hq | Hm | Hm Hq | j Hm Hj | j Hm Hj | Hm He ].

  Ltac upds :=
    repeat match goal with
    | |- context [upd _ ?i _ ?k] =>
        unfold upd at 1; destruct (Nat.eqb_spec k i); subst
    end.

  Lemma shape_init s0 : shape (init s0).
  Proof.
    constructor; intros i Hi; simpl; auto.
    - exact I.
    - exact I.
    - split; discriminate.
  Qed.

  Ltac kcase k :=
    match goal with
    | |- context [Nat.eqb k ?i] => destruct (Nat.eqb_spec k i); subst
    end.

  Lemma shape_step s s' : shape s -> step s s' -> shape s'.
  Proof.
    intros [I1 I2 I3 I4] H. unfold idle_inc, podok, ldefok in *.
    constructor; unfold idle_inc, podok, ldefok; intros k Hk;
      specialize (I1 k Hk); specialize (I2 k Hk); specialize (I3 k Hk); specialize (I4 k Hk).
    - step_cases H; simpl in *; unfold upd; try kcase k; auto; try congruence;
        try (intros; apply I1; congruence).
      destruct (isnil (asg s i)) eqn:E; [apply isnil_true in E; auto|congruence].
    - step_cases H; simpl in *; unfold upd in *; try kcase k; auto;
        try rewrite Hpc in *; auto; try lia.
      + intros k Hk'. destruct (Nat.eqb_spec k j); auto.
        apply I2. lia.
      + intros k Hk'. destruct (Nat.eq_dec k j); subst; auto. apply I2; lia.
      + destruct en; intros k Hk'; apply I2; lia.
      + destruct (isnil (asg s i)); auto.
    - step_cases H; simpl in *; unfold upd in *; try kcase k; auto;
        try rewrite Hpc in *; auto; try lia.
      + destruct en; auto.
      + destruct (isnil (asg s i)); auto.
    - step_cases H; simpl in *; unfold upd in *; try kcase k; auto;
        try rewrite Hpc in *; auto; try lia;
        try (rewrite I4; split; congruence).
      + rewrite I4. destruct en; split; congruence.
      + tauto.
      + destruct (isnil (asg s i)); split; congruence.
  Qed.

  (** ** Counting the running workers *)

  (** A worker counts as running if it does not wait or has something to do. *)
  Definition act (s : sys) (i : nat) : bool := negb (waiting s i) || negb (isnil (asg s i)).

  (** Worker [w] is bound to examine the deferred packets of port [a] later. *)
  Definition resp (s : sys) (a w : nat) : Prop :=
    asg s w <> [] \/
    match pcs s w with
    | Run | Assign | Expose | Send _ false => True
    | Undefer j => j <= a
    | _ => False
    end.

  Record early (s : sys) : Prop := {
    e_alive : forall i, i < lanes -> pcs s i <> Exited;
    e_woken : forall i, i < lanes -> woken s i = true <-> (waiting s i = true /\ asg s i <> []);
    e_running : running s = cnt lanes (act s);
    e_dism : forall i, i < lanes -> dismissed s i = false;
    e_resp : forall a, a < lanes -> dfr s a <> [] -> exists w, w < lanes /\ resp s a w;
    e_lost : lost s = [];
    e_phase : (mainpc s = MStart /\ in_flight s = [] /\ (quiescent s = true <-> running s = 0)) \/
              (mainpc s = MSend /\ in_flight s = [] /\ running s = 0 /\ quiescent s = false) \/
              (mainpc s = MWait /\ (quiescent s = true <-> running s = 0))
  }.

  Record late (s : sys) (k : nat) : Prop := {
    l_flight : in_flight s = [];
    l_before : forall i, i < lanes -> i < k -> pcs s i = Exited \/ (pcs s i = Sleep /\ woken s i = true);
    l_after : forall i, i < lanes -> k <= i -> pcs s i = Sleep /\ woken s i = false;
    l_running : running s = 0;
    l_lost : lost s = []
  }.

  Definition inv (s : sys) : Prop :=
    shape s /\
    match mainpc s with
    | MStart | MSend | MWait => early s
    | MDismiss k => late s k
    | MJoin => late s lanes
    | MDone => late s lanes /\ forall i, i < lanes -> pcs s i = Exited
    end.

  Lemma lanes_pos : 0 < lanes.
  Proof. pose proof (dest_ok p0). lia. Qed.

  Lemma inv_init s0 : inv (init s0).
  Proof.
    split; [apply shape_init|]. simpl. constructor; simpl; auto; try discriminate.
    - intuition congruence.
    - rewrite cnt_all; auto.
    - congruence.
    - left. split; [reflexivity|]. split.
      + unfold Ports.in_flight; simpl.
        assert (E : forall n, flat n (fun _ : nat => @nil P) = []) by (intros; now apply flat_nil).
        now rewrite !E.
      + pose proof lanes_pos. split; [discriminate|lia].
  Qed.

  Lemma worker_pos s i :
    shape s -> early s -> i < lanes -> (pcs s i <> Sleep \/ woken s i = true) -> 0 < running s.
  Proof.
    intros Hs He Hi H. rewrite (e_running He). apply cnt_pos with (i := i); auto.
    unfold act. destruct H as [H|H].
    - destruct (waiting s i) eqn:E; auto. apply (sh_wait Hs) in E; auto; congruence.
    - apply (e_woken He) in H as [_ H]; auto. apply isnil_false in H. rewrite H.
      apply orb_true_r.
  Qed.

  Lemma not_waiting s i : shape s -> i < lanes -> pcs s i <> Sleep -> waiting s i = false.
  Proof.
    intros Hs Hi H. destruct (waiting s i) eqn:E; auto. apply (sh_wait Hs) in E; auto; congruence.
  Qed.

  Lemma flight_nil (s : sys) :
    in_flight s = [] <->
    (forall i, i < lanes -> inc s i = [] /\ (forall j, j < lanes -> pod s i j = []) /\
                           ldef s i = [] /\ asg s i = [] /\ dfr s i = []).
  Proof.
    unfold Ports.in_flight. split.
    - intros H i Hi.
      repeat match goal with H : _ ++ _ = [] |- _ => apply app_eq_nil in H as [? H] end.
      rewrite flat_nil in *.
      repeat split; auto.
      intros j Hj. specialize (H1 i Hi). simpl in H1. rewrite flat_nil in H1. auto.
    - intros H. repeat rewrite (proj2 (flat_nil _ _)); auto; intros i Hi;
        destruct (H i Hi) as (? & ? & ? & ? & ?); auto. apply flat_nil; auto.
  Qed.

  (** The phase invariant follows for every worker step which keeps [quiescent] and
      does not make [running] zero. *)
  Lemma phase_keep (s s' : sys) :
    early s -> 0 < running s -> mainpc s' = mainpc s -> in_flight s = [] \/ mainpc s <> MStart ->
    (in_flight s = [] -> in_flight s' = []) ->
    (quiescent s' = true <-> running s' = 0) ->
    (mainpc s' = MStart /\ in_flight s' = [] /\ (quiescent s' = true <-> running s' = 0)) \/
    (mainpc s' = MSend /\ in_flight s' = [] /\ running s' = 0 /\ quiescent s' = false) \/
    (mainpc s' = MWait /\ (quiescent s' = true <-> running s' = 0)).
  Proof.
    intros He Hr Hm Hf1 Hf Hq. rewrite Hm. destruct (e_phase He) as [(A & B & C)|[(A & B & C & D)|(A & B)]].
    - left. auto.
    - lia.
    - right. right. auto.
  Qed.

  Lemma quiescent_false s : early s -> 0 < running s -> quiescent s = false.
  Proof.
    intros He Hr. destruct (quiescent s) eqn:E; auto.
    destruct (e_phase He) as [(A & B & C)|[(A & B & C & D)|(A & B)]]; rewrite E in *.
    - destruct C as [C _]. specialize (C eq_refl). lia.
    - lia.
    - destruct B as [C _]. specialize (C eq_refl). lia.
  Qed.

  Lemma act_deliver (s : sys) j ps i : ps <> [] ->
    act (deliver s j ps) i = (if Nat.eqb i j then true else act s i).
  Proof.
    intros H. unfold act, deliver; simpl. unfold upd. destruct (Nat.eqb_spec i j); subst; auto.
    destruct ps; [congruence|]. simpl. apply orb_true_r.
  Qed.

  (** Delivering packets keeps the counter exact and the signals right. *)
  Lemma deliver_ok (s : sys) j ps :
    ps <> [] -> j < lanes -> running s = cnt lanes (act s) ->
    (forall i, i < lanes -> woken s i = true <-> (waiting s i = true /\ asg s i <> [])) ->
    let s' := deliver s j ps in
    running s' = cnt lanes (act s') /\
    (forall i, i < lanes -> woken s' i = true <-> (waiting s' i = true /\ asg s' i <> [])).
  Proof.
    intros Hps Hj Hr Hw s'. split.
    - unfold s'. rewrite (@cnt_ext lanes (act (deliver s j ps)) (fun i => if Nat.eqb i j then true else act s i))
        by (intros; now apply act_deliver).
      unfold deliver; simpl. destruct (waiting s j && isnil (asg s j)) eqn:E.
      + rewrite Hr. rewrite (@cnt_up lanes (act s) (fun i => if i =? j then true else act s i) j); auto.
        * lia.
        * unfold act. apply andb_true_iff in E as [-> ->]. reflexivity.
        * now rewrite Nat.eqb_refl.
        * intros i Hi Hn. apply Nat.eqb_neq in Hn. now rewrite Hn.
      + rewrite Hr. apply cnt_ext. intros i Hi. destruct (Nat.eqb_spec i j); subst; auto.
        unfold act. destruct (waiting s j), (isnil (asg s j)); simpl in *; congruence.
    - intros i Hi. specialize (Hw i Hi). unfold s', deliver; simpl.
      assert (Hne : forall l, ps ++ l <> []) by (destruct ps; simpl; congruence).
      destruct (waiting s j) eqn:E1; simpl; [destruct (asg s j) eqn:E2; simpl|]; unfold upd;
        destruct (Nat.eqb_spec i j); subst; auto.
      + split; auto.
      + rewrite Hw, E1, E2. split; intros [? ?]; split; auto; congruence.
      + rewrite Hw, E1. split; intros [? ?]; congruence.
  Qed.

  (** Steps of workers (not of the launching thread) keep [mainpc]. *)
  Lemma flight_step s s' : shape s -> step s s' -> mainpc s <> MSend -> lost s = [] -> in_flight s = [] ->
    in_flight s' = [] /\ lost s' = [].
  Proof.
    intros Hs H Hm Hl Hf. pose proof (step_effect (sh_inc Hs) H) as E.
    destruct E as [i p R out Hi Hpc Hp Ht Hh Hl' Hst F1 F2 Hm' | Hm1 Hm2 Hsh Hh Hl' Hst F |
                   Hsh Hh Hl' Hst Hm1 Hm2 F | Hsh Hh Hl' Hst Hm' F | j Hsh Hh Hst Hm1 Hm2 Hl' F].
    - rewrite Hf in F1. apply Permutation_nil in F1. discriminate.
    - congruence.
    - rewrite Hf in F. apply Permutation_sym, Permutation_nil in F. split; auto; congruence.
    - rewrite Hf in F. apply Permutation_sym, Permutation_nil in F. split; auto; congruence.
    - rewrite Hf in F. apply Permutation_nil, app_eq_nil in F as [F1 F2].
      split; auto. rewrite Hl', F1, Hl. reflexivity.
  Qed.

  Lemma early_step s s' :
    shape s -> early s -> step s s' ->
    match mainpc s' with
    | MStart | MSend | MWait => early s'
    | MDismiss k => k = 0 /\ late s' 0
    | _ => False
    end.
  Proof.
    intros Hs He H.
    assert (Hs' : shape s') by (eapply shape_step; eauto).
    pose proof (sh_wait Hs) as Hwt.
    assert (Hflight : forall i, i < lanes -> (pcs s i <> Sleep \/ woken s i = true) ->
              mainpc s' = mainpc s -> (quiescent s' = true <-> running s' = 0) ->
              (mainpc s' = MStart /\ in_flight s' = [] /\ (quiescent s' = true <-> running s' = 0)) \/
              (mainpc s' = MSend /\ in_flight s' = [] /\ running s' = 0 /\ quiescent s' = false) \/
              (mainpc s' = MWait /\ (quiescent s' = true <-> running s' = 0))).
    { intros i Hi Hi' Hm Hq.
      pose proof (worker_pos Hs He Hi Hi') as Hr.
      apply (phase_keep (s := s)); auto.
      - destruct (e_phase He) as [(A & B & C)|[(A & B & C & D)|(A & B)]]; auto; right; congruence.
      - intros Hf. destruct (e_phase He) as [(A & B & C)|[(A & B & C & D)|(A & B)]]; try lia;
          apply (flight_step Hs H); auto; try congruence; apply (e_lost He). }
    assert (Hq0 : forall i, i < lanes -> (pcs s i <> Sleep \/ woken s i = true) ->
              quiescent s' = quiescent s -> running s <= running s' -> (quiescent s' = true <-> running s' = 0)).
    { intros i Hi Hi' Hq Hr'. pose proof (worker_pos Hs He Hi Hi') as Hr.
      rewrite Hq, (quiescent_false He Hr). split; [discriminate|lia]. }
    pose proof He as He'. destruct He as [A1 A2 A3 A4 A5 A6 A7].
    assert (Hmain : mainpc s = MStart \/ mainpc s = MSend \/ mainpc s = MWait).
    { destruct A7 as [(B & _)|[(B & _)|(B & _)]]; auto. }
    assert (K : mainpc s' = mainpc s -> early s' ->
      match mainpc s' with
      | MStart | MSend | MWait => early s'
      | MDismiss k => k = 0 /\ late s' 0
      | _ => False
      end).
    { intros E1 E2. rewrite E1. destruct Hmain as [E|[E|E]]; rewrite E; auto. }
    step_cases H; try (exfalso; destruct Hmain as [?|[?|?]]; congruence).
    - (* process *)
      apply K; [reflexivity|]. constructor; simpl; auto.
      apply (Hflight i); auto; [left; congruence|]. apply (Hq0 i); auto. left; congruence.
    - (* defer *)
      apply K; [reflexivity|]. constructor; simpl; auto.
      apply (Hflight i); auto; [left; congruence|]. apply (Hq0 i); auto. left; congruence.
    - (* recycle *)
      apply K; [reflexivity|]. constructor; simpl; auto.
      apply (Hflight i); auto; [left; congruence|]. apply (Hq0 i); auto. left; congruence.
    - (* norecycle *)
      apply K; [reflexivity|]. constructor; simpl; auto.
      + intros k Hk. unfold upd. kcase k; auto. congruence.
      + intros a Ha Hd. destruct (A5 a Ha Hd) as (w & Hw & Hr). exists w. split; auto.
        unfold resp in *; simpl. unfold upd. kcase w; auto.
    - (* assignment *)
      assert (Hnw : waiting s i = false) by (apply not_waiting; auto; congruence).
      apply K; [reflexivity|]. constructor; simpl; auto.
      + intros k Hk. unfold upd. kcase k; auto. congruence.
      + intros k Hk. unfold upd. kcase k; auto. rewrite A2, Hnw; auto. intuition congruence.
      + rewrite A3. apply cnt_ext. intros k Hk. unfold act; simpl. unfold upd. kcase k; auto.
        now rewrite Hnw.
      + intros a Ha' Hd. destruct (A5 a Ha' Hd) as (w & Hw & Hr). exists w. split; auto.
        unfold resp in *; simpl. unfold upd. kcase w; auto.
      + apply (Hflight i); auto; [left; congruence|]. apply (Hq0 i); auto. left; congruence.
    - (* no assignment *)
      apply K; [reflexivity|]. constructor; simpl; auto.
      + intros k Hk. unfold upd. kcase k; auto. congruence.
      + intros a Ha' Hd. destruct (A5 a Ha' Hd) as (w & Hw & Hr). exists w. split; auto.
        unfold resp in *; simpl. unfold upd. kcase w; auto.
    - (* expose *)
      apply K; [reflexivity|]. constructor; simpl; auto.
      + intros k Hk. unfold upd. kcase k; auto. congruence.
      + intros a Ha' Hd. exists i. split; auto. unfold resp; simpl. right. now rewrite upd_same.
      + apply (Hflight i); auto; [left; congruence|]. apply (Hq0 i); auto. left; congruence.
    - (* send *)
      destruct (deliver_ok s Hpod Hj A3 A2) as [B1 B2].
      apply K; [reflexivity|]. constructor; simpl; auto.
      + intros k Hk. unfold upd. kcase k; auto. congruence.
      + intros a Ha' Hd. exists j. split; auto. unfold resp; simpl. left. rewrite upd_same.
        destruct (pod s i j); simpl; congruence.
      + apply (Hflight i); auto; [left; congruence|]. apply (Hq0 i); auto; [left; congruence|].
        simpl. destruct (waiting s j && isnil (asg s j)); lia.
    - (* skip *)
      apply K; [reflexivity|]. constructor; simpl; auto.
      + intros k Hk. unfold upd. kcase k; auto. congruence.
      + intros a Ha' Hd. destruct (A5 a Ha' Hd) as (w & Hw & Hr). exists w. split; auto.
        unfold resp in *; simpl. unfold upd. kcase w; auto. now rewrite Hpc in Hr.
    - (* sent *)
      apply K; [reflexivity|]. constructor; simpl; auto.
      + intros k Hk. unfold upd. kcase k; auto. destruct en; congruence.
      + intros a Ha' Hd. destruct (A5 a Ha' Hd) as (w & Hw & Hr). exists w. split; auto.
        unfold resp in *; simpl. unfold upd. kcase w; auto. rewrite Hpc in Hr.
        destruct Hr as [Hr|Hr]; auto. destruct en; [tauto|]. right; lia.
    - (* undefer *)
      assert (Hdel : forall s', (if isnil (asg s j) && negb (isnil (dfr s j))
                  then deliver s j (dfr s j) else s) = s' ->
                running (do_undefer s i j) = running s' /\
                (forall k, woken (do_undefer s i j) k = woken s' k) /\
                (forall k, asg (do_undefer s i j) k = asg s' k)).
      { intros s' <-. unfold do_undefer, deliver; simpl.
        destruct (asg s j) eqn:E1; simpl; [|auto].
        destruct (isnil (dfr s j)) eqn:E2; simpl; [auto|].
        rewrite andb_true_r, app_nil_r. auto. }
      specialize (Hdel _ eq_refl). destruct Hdel as (D1 & D2 & D3).
      assert (Hok : running (do_undefer s i j) = cnt lanes (act (do_undefer s i j)) /\
         (forall k, k < lanes -> woken (do_undefer s i j) k = true <->
            (waiting (do_undefer s i j) k = true /\ asg (do_undefer s i j) k <> []))).
      { rewrite D1.
        assert (Hact : forall k, act (do_undefer s i j) k =
           act (if isnil (asg s j) && negb (isnil (dfr s j)) then deliver s j (dfr s j) else s) k).
        { intros k. unfold act. rewrite D3.
          destruct (isnil (asg s j) && negb (isnil (dfr s j))); reflexivity. }
        rewrite (@cnt_ext lanes _ _ (fun k _ => Hact k)).
        destruct (isnil (asg s j) && negb (isnil (dfr s j))) eqn:E.
        - apply andb_true_iff in E as [E1 E2]. apply negb_true_iff, isnil_false in E2.
          destruct (deliver_ok s E2 Hj A3 A2) as [B1 B2]. split; auto.
          intros k Hk. rewrite D2, D3. apply B2; auto.
        - split; auto. intros k Hk. rewrite D2, D3. apply A2; auto. }
      destruct Hok as [B1 B2].
      apply K; [reflexivity|]. constructor; auto.
      + simpl. intros k Hk. unfold upd. kcase k; auto. congruence.
      + intros a Ha' Hd. unfold resp; simpl in *.
        destruct (isnil (asg s j)) eqn:E1; simpl in *.
        * destruct (isnil (dfr s j)) eqn:E2; simpl in *.
          -- apply isnil_true in E2. destruct (A5 a Ha' Hd) as (w & Hw & Hr). exists w.
             split; auto. unfold resp in Hr. unfold upd; kcase w; auto. rewrite Hpc in Hr.
             destruct Hr as [Hr|Hr]; auto. right.
             assert (a <> j) by congruence. lia.
          -- exists j. split; auto. left. rewrite upd_same. now apply isnil_false.
        * exists j. split; auto. left. now apply isnil_false.
      + apply (Hflight i); auto; [left; congruence|]. apply (Hq0 i); auto; [left; congruence|].
        simpl. destruct (isnil (asg s j) && negb (isnil (dfr s j)) && waiting s j); lia.
    - (* undeferred *)
      apply K; [reflexivity|]. constructor; simpl; auto.
      + intros k Hk. unfold upd. kcase k; auto. congruence.
      + intros a Ha' Hd. destruct (A5 a Ha' Hd) as (w & Hw & Hr). exists w. split; auto.
        unfold resp in *; simpl. unfold upd. kcase w; auto. rewrite Hpc in Hr.
        destruct Hr as [Hr|Hr]; auto. lia.
    - (* take *)
      assert (Hnw : waiting s i = false) by (apply not_waiting; auto; congruence).
      apply K; [reflexivity|]. constructor; simpl; auto.
      + intros k Hk. unfold upd. kcase k; auto. congruence.
      + intros k Hk. unfold upd. kcase k; auto. rewrite A2, Hnw; auto. intuition congruence.
      + rewrite A3. apply cnt_ext. intros k Hk. unfold act; simpl. unfold upd. kcase k; auto.
        now rewrite Hnw.
      + intros a Ha' Hd. destruct (A5 a Ha' Hd) as (w & Hw & Hr). exists w. split; auto.
        unfold resp in *; simpl. unfold upd. kcase w; auto.
      + apply (Hflight i); auto; [left; congruence|]. apply (Hq0 i); auto. left; congruence.
    - (* dismissed *)
      rewrite A4 in Hd; auto. discriminate.
    - (* not dwindled *)
      exfalso. assert (0 < running s); [|lia]. apply (@worker_pos s i); auto. left; congruence.
    - (* sleep *)
      assert (Hnw : waiting s i = false) by (apply not_waiting; auto; congruence).
      assert (Hqf : quiescent s = false) by (apply quiescent_false; auto).
      apply K; [reflexivity|]. constructor; simpl; auto.
      + intros k Hk. unfold upd. kcase k; auto. congruence.
      + intros k Hk. rewrite A2 by auto. unfold upd. kcase k; [|tauto].
        rewrite Ha, Hnw. intuition congruence.
      + rewrite A3.
        rewrite (@cnt_up lanes (act (do_sleep s i)) (act s) i); auto; try lia.
        * unfold act; simpl. rewrite upd_same, Ha. reflexivity.
        * unfold act. now rewrite Hnw.
        * intros k Hk Hn. unfold act; simpl. now rewrite upd_diff.
      + intros a Ha' Hdf. destruct (A5 a Ha' Hdf) as (w & Hw & Hr'). exists w. split; auto.
        unfold resp in *; simpl. unfold upd. kcase w; auto. rewrite Hpc in Hr'. auto.
      + apply (Hflight i); auto; [left; congruence|]. simpl.
        destruct (Nat.eqb_spec (running s - 1) 0); [tauto|]. rewrite Hqf. split; [discriminate|lia].
    - (* wake *)
      destruct (proj1 (A2 i Hi) Hw) as [Hwi Hai].
      apply K; [reflexivity|]. constructor; simpl; auto.
      + intros k Hk. unfold upd. kcase k; auto. apply isnil_false in Hai. rewrite Hai. congruence.
      + intros k Hk. unfold upd. kcase k; auto. intuition congruence.
      + rewrite A3. apply cnt_ext. intros k Hk. unfold act; simpl. unfold upd. kcase k; auto.
        rewrite Hwi. apply isnil_false in Hai. now rewrite Hai.
      + intros a Ha' Hdf. exists i. split; auto. unfold resp; simpl. right.
        rewrite upd_same. apply isnil_false in Hai. now rewrite Hai.
      + apply (Hflight i); auto. apply (Hq0 i); auto.
    - (* ready *)
      simpl. destruct A7 as [(B1 & B2 & B3)|[(B1 & _)|(B1 & _)]]; try congruence.
      constructor; simpl; auto. right; left. repeat split; auto. now apply B3.
    - (* start *)
      simpl. destruct A7 as [(B1 & _)|[(B1 & B2 & B3 & B4)|(B1 & _)]]; try congruence.
      assert (Hne : [p0] <> []) by discriminate.
      destruct (deliver_ok s Hne (dest_ok p0) A3 A2) as [C1 C2].
      constructor; auto.
      + intros a Ha' Hd. exfalso. apply Hd. simpl.
        apply (proj1 (flight_nil s) B2); auto.
      + right. right. split; [reflexivity|]. simpl.
        assert (Hz : act s (dest p0) = false).
        { apply (proj1 (cnt_zero lanes (act s))); auto. congruence. }
        unfold act in Hz. apply orb_false_iff in Hz as [Hz1 Hz2].
        apply negb_false_iff in Hz1. apply negb_false_iff in Hz2. rewrite Hz1, Hz2. simpl.
        rewrite B4. split; [discriminate|lia].
    - (* finished *)
      simpl. split; auto.
      destruct A7 as [(B1 & _)|[(B1 & _)|(B1 & B2)]]; try congruence.
      apply B2 in Hq.
      assert (Hz : forall i, i < lanes -> waiting s i = true /\ asg s i = []).
      { intros i Hi. assert (Hz : act s i = false).
        { apply (proj1 (cnt_zero lanes (act s))); auto. congruence. }
        unfold act in Hz. apply orb_false_iff in Hz as [Hz1 Hz2].
        apply negb_false_iff in Hz1. apply negb_false_iff in Hz2. apply isnil_true in Hz2. auto. }
      constructor; simpl; auto.
      + apply flight_nil. intros i Hi. destruct (Hz i Hi) as [Hw Ha]. simpl.
        apply Hwt in Hw; auto.
        pose proof (sh_inc Hs Hi) as G1. pose proof (sh_pod Hs Hi) as G2.
        pose proof (sh_ldef Hs Hi) as G3. unfold podok, ldefok in *. rewrite Hw in *.
        repeat split; auto.
        * apply G1. congruence.
        * destruct (dfr s i) eqn:E; auto. exfalso.
          destruct (A5 i Hi ltac:(congruence)) as (w & Hw' & Hr).
          destruct (Hz w Hw') as [Hww Haw]. apply Hwt in Hww; auto. unfold resp in Hr.
          rewrite Haw, Hww in Hr. tauto.
      + lia.
      + intros i Hi _. destruct (Hz i Hi) as [Hw Ha]. split; [now apply Hwt|].
        destruct (woken s i) eqn:E; auto. apply A2 in E as [_ E]; auto. congruence.
  Qed.

  Lemma late_step s s' k :
    shape s -> late s k ->
    (mainpc s = MDismiss k \/ (mainpc s = MJoin /\ k = lanes) \/
     (mainpc s = MDone /\ k = lanes /\ forall i, i < lanes -> pcs s i = Exited)) ->
    step s s' -> inv s'.
  Proof.
    intros Hs Hl HM H.
    assert (Hs' : shape s') by (eapply shape_step; eauto).
    assert (Hf : in_flight s' = [] /\ lost s' = []).
    { apply (flight_step Hs H); [|apply Hl|apply Hl].
      destruct HM as [->|[[-> _]|[-> _]]]; discriminate. }
    destruct Hf as [Hf1 Hf2].
    split; auto. destruct Hl as [L1 L2 L3 L4 L5].
    assert (Hpcs : forall i, i < lanes -> pcs s i = Exited \/ pcs s i = Sleep).
    { intros i Hi. destruct (le_lt_dec k i) as [Hk|Hk].
      - destruct (L3 i Hi Hk); auto.
      - destruct (L2 i Hi Hk) as [|[? _]]; auto. }
    step_cases H; try (exfalso; destruct (Hpcs i Hi) as [?|?]; congruence);
      try (exfalso; destruct HM as [?|[[? ?]|[? ?]]]; congruence).
    - (* wake *)
      assert (Hk : i < k).
      { destruct (le_lt_dec k i) as [Hk|Hk]; auto. destruct (L3 i Hi Hk). congruence. }
      assert (Hai : asg s i = []) by (apply (proj1 (flight_nil s) L1); auto).
      assert (Hl' : late (do_wake s i) k).
      { constructor; simpl; auto.
        - intros j Hj Hjk. unfold upd. kcase j; auto. rewrite Hai. auto.
        - intros j Hj Hjk. unfold upd. kcase j; [lia|auto]. }
      simpl. destruct HM as [->|[[-> <-]|[_ [_ He]]]]; auto.
      exfalso. rewrite He in Hpc; auto. discriminate.
    - (* dismiss *)
      simpl. assert (j = k) as -> by (destruct HM as [?|[[? ?]|[? ?]]]; congruence).
      destruct (L3 k Hj) as [Hp Hw]; auto.
      assert (Hwt : waiting s k = true) by (apply (sh_wait Hs); auto).
      constructor; auto.
      + intros i Hi Hik. simpl. rewrite Hwt. unfold upd. kcase i; auto.
        apply L2; auto. lia.
      + intros i Hi Hik. simpl. rewrite Hwt. unfold upd. kcase i; [lia|]. apply L3; auto. lia.
    - (* all dismissed *)
      simpl. assert (j = k) as -> by (destruct HM as [?|[[? ?]|[? ?]]]; congruence).
      constructor; auto.
      + intros i Hi _. simpl. apply L2; auto. lia.
      + intros i Hi Hik. lia.
    - (* join *)
      simpl. assert (k = lanes) as -> by (destruct HM as [?|[[? ?]|[? ?]]]; congruence).
      split; auto. constructor; auto.
  Qed.

  Lemma inv_step s s' : inv s -> step s s' -> inv s'.
  Proof.
    intros [Hs Hi] H.
    assert (Hs' : shape s') by (eapply shape_step; eauto).
    destruct (mainpc s) eqn:Em.
    1-3: split; auto; pose proof (early_step Hs Hi H) as E;
         destruct (mainpc s'); auto; try contradiction; destruct E as [-> E]; auto.
    - apply (late_step Hs Hi); auto.
    - apply (late_step Hs Hi); auto.
    - destruct Hi as [Hi He]. apply (late_step Hs Hi); auto.
  Qed.

  Lemma inv_reachable s0 s : reachable lanes dest task p0 s0 s -> inv s.
  Proof.
    intros H. eapply star_inv with (I := inv); eauto using inv_step, inv_init.
  Qed.

  (** ** Consequences *)

  Definition finished (m : mpc) : Prop :=
    match m with MDismiss _ | MJoin | MDone => True | _ => False end.

  (** The declaration of quiescence is sound. *)
  Lemma quiescence_sound s0 s :
    reachable lanes dest task p0 s0 s -> mainpc s <> MStart -> quiescent s = true ->
    in_flight s = [].
  Proof.
    intros Hr Hm Hq. apply inv_reachable in Hr as [Hs Hi].
    destruct (mainpc s) eqn:Em; try congruence.
    - destruct (e_phase Hi) as [(A & _)|[(A & B & C & D)|(A & B)]]; congruence.
    - assert (E : step s (set_main s (MDismiss 0))) by (apply st_finished; auto).
      apply (early_step Hs Hi) in E. simpl in E. destruct E as [_ E]. apply (l_flight E).
    - apply (l_flight Hi).
    - apply (l_flight Hi).
    - destruct Hi as [Hi _]. apply (l_flight Hi).
  Qed.

  (** Refinement to the abstract machine: at every moment the data are those of
      some execution of the abstract machine with the same packets in flight. *)
  Lemma refines s0 s :
    reachable lanes dest task p0 s0 s ->
    match mainpc s with
    | MStart | MSend => sh s = s0 /\ in_flight s = [] /\ hist s = []
    | _ => exists b, mruns task (s0, [p0]) (sh s, b) /\ Permutation b (in_flight s)
    end.
  Proof.
    intros Hr. induction Hr as [|s s' Hr IH Hstep].
    - simpl. repeat split; auto.
      pose proof (inv_init s0) as [_ Hi]. simpl in Hi.
      destruct (e_phase Hi) as [(A & B & C)|[(A & _)|(A & _)]]; simpl in *; congruence.
    - pose proof (inv_reachable Hr) as [Hs Hi].
      pose proof (step_effect (sh_inc Hs) Hstep) as E.
      pose proof (inv_step (conj Hs Hi) Hstep) as [Hs' Hi'].
      destruct E as [i p R out Hi1 Hpc Hp Ht Hh Hl' Hst F1 F2 Hm' | Hm1 Hm2 Hsh Hh Hl' Hst F |
                   Hsh Hh Hl' Hst Hm1 Hm2 F | Hsh Hh Hl' Hst Hm' F | j Hsh Hh Hst Hm1 Hm2 Hl' F].
      + rewrite Hm'. destruct (mainpc s).
        1-2: exfalso; destruct IH as (_ & B & _); rewrite B in F1; apply Permutation_nil in F1; discriminate.
        all: destruct IH as (b & Hb1 & Hb2);
          assert (Hin : In p b) by (eapply Permutation_in; [symmetry; exact Hb2|];
             eapply Permutation_in; [symmetry; exact F1|left; auto]);
          apply in_split in Hin as (b1 & b2 & ->);
          exists (b1 ++ b2 ++ out); split;
          [ eapply star_step; [exact Hb1|]; constructor; auto
          | rewrite F2; rewrite F1 in Hb2;
            rewrite <- Permutation_middle in Hb2; apply Permutation_cons_inv in Hb2;
            rewrite <- Hb2; perm_solve ].
      + rewrite Hm2. rewrite Hm1 in IH. destruct IH as (A & B & C). exists [p0]. split.
        * rewrite Hsh, A. constructor.
        * rewrite F, B. reflexivity.
      + assert (Hmm : mainpc s = MStart /\ (mainpc s' = MStart \/ mainpc s' = MSend) \/
                      (mainpc s' <> MStart /\ mainpc s' <> MSend /\ mainpc s <> MStart /\ mainpc s <> MSend)).
        { destruct Hm2 as [E|[[E1 E2]|[[E1 E2]|[E|E]]]]; auto.
          - rewrite E. destruct (mainpc s); auto; right; repeat split; congruence.
          - right; rewrite E1, E2; repeat split; congruence.
          - right. rewrite E. repeat split; try congruence.
            intros E3. rewrite E3 in Hi. pose proof (early_step Hs Hi Hstep) as G. now rewrite E in G.
          - right. rewrite E. repeat split; try congruence.
            intros E3. rewrite E3 in Hi. pose proof (early_step Hs Hi Hstep) as G. now rewrite E in G. }
        destruct Hmm as [[E1 E2]|(E1 & E2 & E3 & E4)].
        * rewrite E1 in IH. destruct IH as (A & B & C).
          assert (sh s' = s0 /\ in_flight s' = [] /\ hist s' = []).
          { repeat split; try congruence. rewrite B in F. apply Permutation_sym, Permutation_nil in F. auto. }
          destruct E2 as [->| ->]; auto.
        * assert (exists b, mruns task (s0, [p0]) (sh s, b) /\ Permutation b (in_flight s))
            by (destruct (mainpc s); auto; congruence).
          destruct H as (b & Hb1 & Hb2).
          assert (exists b, mruns task (s0, [p0]) (sh s', b) /\ Permutation b (in_flight s')).
          { exists b. rewrite Hsh. split; auto. rewrite F. auto. }
          destruct (mainpc s'); auto; congruence.
      + rewrite Hm'. destruct (mainpc s).
        1-2: destruct IH as (A & B & C); repeat split; try congruence;
             rewrite B in F; apply Permutation_sym, Permutation_nil in F; auto.
        all: destruct IH as (b & Hb1 & Hb2); exists b; rewrite Hsh; split; auto; rewrite F; auto.
      + rewrite Hm2. rewrite Hm1 in *. simpl in Hi. destruct IH as (b & Hb1 & Hb2). exists b. rewrite Hsh. split; auto.
        rewrite Hb2, F. pose proof (l_flight Hi) as L. rewrite L in F. apply Permutation_nil, app_eq_nil in F as [-> ->].
        reflexivity.
  Qed.

  Lemma refines_finished s0 s :
    reachable lanes dest task p0 s0 s -> finished (mainpc s) -> completes task s0 p0 (sh s).
  Proof.
    intros Hr Hf. pose proof (refines Hr) as H. pose proof (inv_reachable Hr) as [_ Hi].
    unfold completes.
    destruct (mainpc s); simpl in Hf; try contradiction; destruct H as (b & H1 & H2).
    - rewrite (l_flight Hi) in H2. apply Permutation_sym, Permutation_nil in H2. now subst.
    - rewrite (l_flight Hi) in H2. apply Permutation_sym, Permutation_nil in H2. now subst.
    - destruct Hi as [Hi _]. rewrite (l_flight Hi) in H2.
      apply Permutation_sym, Permutation_nil in H2. now subst.
  Qed.

End Proofs.
