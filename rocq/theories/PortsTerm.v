(** Termination of the protocol of Ports.v under every schedule, for tasks that
    never defer a packet and whose abstract executions are finite. *)
From Coq Require Import List Arith Lia Bool Permutation Wf_nat.
From Verif Require Import Base Machine Ports PortsProofs.
Import ListNotations.

Set Implicit Arguments.

Fixpoint sum (n : nat) (f : nat -> nat) : nat :=
  match n with 0 => 0 | S k => sum k f + f k end.

Lemma sum_ext n f g : (forall i, i < n -> f i = g i) -> sum n f = sum n g.
Proof.
  induction n; simpl; intros H; auto.
  rewrite IHn by (intros; apply H; lia). now rewrite (H n) by lia.
Qed.

Lemma sum_lt n f g i :
  i < n -> f i < g i -> (forall j, j < n -> j <> i -> f j = g j) -> sum n f < sum n g.
Proof.
  induction n; simpl; intros Hi Hl H; [lia|].
  destruct (Nat.eq_dec i n) as [->|Hn].
  - rewrite (@sum_ext n f g); [lia|]. intros; apply H; lia.
  - rewrite (H n) by lia. assert (sum n f < sum n g); [|lia]. apply IHn; auto; try lia.
Qed.

Section AbstractOrder.
  Context {S P : Type}.
  Variable task : S -> P -> option (S * list P).

  (** Steps of the abstract machine, up to the order of the bag. *)
  Definition astep (c c' : S * list P) : Prop :=
    exists p R out, Permutation (snd c) (p :: R) /\ task (fst c) p = Some (fst c', out) /\
                    Permutation (snd c') (out ++ R).

  (** All abstract executions from [c] are finite. *)
  Definition terminates (c : S * list P) : Prop := Acc (fun y x => astep x y) c.

  Lemma astep_perm s b b' c : Permutation b b' -> astep (s, b) c -> astep (s, b') c.
  Proof.
    intros Hp (p & R & out & H1 & H2 & H3). exists p, R, out. simpl in *.
    repeat split; auto. now rewrite <- Hp.
  Qed.

  Lemma terminates_perm s b b' : Permutation b b' -> terminates (s, b) -> terminates (s, b').
  Proof.
    intros Hp [H]. constructor. intros y Hy. apply H.
    eapply astep_perm; [|exact Hy]. now symmetry.
  Qed.

  Lemma mstep_astep c c' : mstep task c c' -> astep c c'.
  Proof.
    intros []. exists p, (b1 ++ b2), out. simpl. repeat split; auto; perm_solve.
  Qed.

  Lemma terminates_run c c' : terminates c -> mruns task c c' -> terminates c'.
  Proof.
    intros H Hr. induction Hr; auto. destruct IHHr as [IH]. apply IH. now apply mstep_astep.
  Qed.

  Lemma terminates_nil s : terminates (s, []).
  Proof.
    constructor. intros y (p & R & out & H & _). simpl in H. apply Permutation_nil in H. discriminate.
  Qed.

  (** A natural-number measure suffices. *)
  Lemma terminates_measure (m : S -> list P -> nat) :
    (forall s b b', Permutation b b' -> m s b = m s b') ->
    (forall s p R s' out, task s p = Some (s', out) -> m s' (out ++ R) < m s (p :: R)) ->
    forall s b, terminates (s, b).
  Proof.
    intros Hp Hd s b. remember (m s b) as k eqn:Ek. revert s b Ek.
    induction k as [k IH] using lt_wf_ind. intros s b ->. constructor.
    intros [s' b'] (p & R & out & H1 & H2 & H3). simpl in *.
    apply (IH (m s' b')); auto.
    rewrite (Hp _ _ _ H3), (Hp s _ _ H1). auto.
  Qed.

  Lemma measure_inv_terminates (I : S -> list P -> Prop) (m : S -> list P -> nat) :
    (forall s b b', Permutation b b' -> m s b = m s b') ->
    (forall s b b', Permutation b b' -> I s b -> I s b') ->
    (forall s p R s' out, I s (p :: R) -> task s p = Some (s', out) ->
       I s' (out ++ R) /\ m s' (out ++ R) < m s (p :: R)) ->
    forall s b, I s b -> terminates (s, b).
  Proof.
    intros Hp Hip Hd s b. remember (m s b) as k eqn:Ek. revert s b Ek.
    induction k as [k IH] using lt_wf_ind. intros s b -> Hi. constructor.
    intros [s' b'] (p & R & out & H1 & H2 & H3). simpl in *.
    assert (Hi' : I s (p :: R)) by (eapply Hip; eauto).
    destruct (Hd _ _ _ _ _ Hi' H2) as [D1 D2].
    apply (IH (m s' b')); auto.
    - rewrite (Hp _ _ _ H3), (Hp s _ _ H1). auto.
    - eapply Hip; [symmetry; exact H3|auto].
  Qed.

  (** A lexicographic pair of measures, the second one being the number of packets. *)
  Lemma lex_inv_terminates (I : S -> list P -> Prop) (m : S -> nat) :
    (forall s b b', Permutation b b' -> I s b -> I s b') ->
    (forall s p R s' out, I s (p :: R) -> task s p = Some (s', out) ->
       I s' (out ++ R) /\ (m s' < m s \/ m s' = m s /\ out = [])) ->
    forall s b, I s b -> terminates (s, b).
  Proof.
    intros Hip Hd s b. remember (m s) as k eqn:Ek. revert s b Ek.
    induction k as [k IH] using lt_wf_ind. intros s b Ek.
    remember (length b) as j eqn:Ej. revert s b Ek Ej.
    induction j as [j IHj] using lt_wf_ind. intros s b -> -> Hi. constructor.
    intros [s' b'] (p & R & out & H1 & H2 & H3). simpl in *.
    assert (Hi' : I s (p :: R)) by (eapply Hip; eauto).
    destruct (Hd _ _ _ _ _ Hi' H2) as [D1 [D2|[D2 ->]]].
    - apply (IH (m s')); auto. eapply Hip; [symmetry; exact H3|auto].
    - apply (IHj (length b')); auto.
      + apply Permutation_length in H1. apply Permutation_length in H3. simpl in *. lia.
      + eapply Hip; [symmetry; exact H3|auto].
  Qed.
End AbstractOrder.

Section Term.
  Context {S P : Type}.
  Variable lanes : nat.
  Variable dest : P -> nat.
  Variable task : S -> P -> option (S * list P).
  Variable p0 : P.
  Hypothesis dest_ok : forall p, dest p < lanes.
  Hypothesis no_deferral : forall s p, task s p <> None.

  Notation sys := (@sys S P).
  Notation step := (step lanes dest task p0).
  Notation in_flight := (in_flight lanes).

  Definition weight (s : sys) : nat :=
    length (flat lanes (inc s)) + 2 * length (flat lanes (asg s)) +
    3 * length (flat lanes (fun i => flat lanes (pod s i))) +
    4 * length (flat lanes (dfr s)) + 5 * length (flat lanes (ldef s)).

  Definition rank1 (c : pc) : nat :=
    match c with
    | Run => 7 + 2 * lanes
    | Assign => 6 + 2 * lanes
    | Expose => 5 + 2 * lanes
    | Send j _ => 4 + lanes + (lanes - j)
    | Undefer j => 3 + (lanes - j)
    | Block => 2
    | Sleep => 1
    | Exited => 0
    end.

  Definition mrank (m : mpc) : nat :=
    match m with
    | MStart => lanes + 5
    | MSend => lanes + 4
    | MWait => lanes + 3
    | MDismiss j => (lanes - j) + 2
    | MJoin => 1
    | MDone => 0
    end.

  Definition rank (s : sys) : nat := sum lanes (fun i => rank1 (pcs s i)) + mrank (mainpc s).

  Lemma rank_pc s s' i c :
    i < lanes -> mainpc s' = mainpc s -> (forall j, pcs s' j = upd (pcs s) i c j) ->
    rank1 c < rank1 (pcs s i) -> rank s' < rank s.
  Proof.
    intros Hi Hm Hp Hc. unfold rank. rewrite Hm.
    assert (sum lanes (fun i => rank1 (pcs s' i)) < sum lanes (fun i => rank1 (pcs s i))); [|lia].
    apply sum_lt with (i := i); auto.
    - rewrite Hp, upd_same. auto.
    - intros j Hj Hn. now rewrite Hp, upd_diff.
  Qed.

  Lemma rank_main s s' :
    (forall j, pcs s' j = pcs s j) -> mrank (mainpc s') < mrank (mainpc s) -> rank s' < rank s.
  Proof.
    intros Hp Hm. unfold rank. rewrite (@sum_ext lanes _ (fun i => rank1 (pcs s i))); [lia|].
    intros; now rewrite Hp.
  Qed.

  Lemma len_upd {A} (f : nat -> list A) i x :
    i < lanes ->
    length (flat lanes (upd f i x)) + length (f i) = length (flat lanes f) + length x.
  Proof.
    intros Hi. destruct (@flat_split _ lanes f i Hi) as (R & H1 & H2).
    specialize (H2 x). apply Permutation_length in H1. apply Permutation_length in H2.
    rewrite app_length in *. lia.
  Qed.

  Lemma len_pod (pd : nat -> nat -> list P) i j x :
    i < lanes -> j < lanes ->
    length (flat lanes (fun k => flat lanes (upd pd i (upd (pd i) j x) k))) + length (pd i j) =
    length (flat lanes (fun k => flat lanes (pd k))) + length x.
  Proof.
    intros Hi Hj. destruct (flat_pod_upd pd Hi) as (R & H1 & H2).
    specialize (H2 (upd (pd i) j x)). apply Permutation_length in H1. apply Permutation_length in H2.
    rewrite app_length in *. pose proof (len_upd (pd i) x Hj). lia.
  Qed.

  Lemma nonempty_len {A} (l : list A) : l <> [] -> 0 < length l.
  Proof. destruct l; simpl; [congruence|lia]. Qed.

  Lemma step_decreases s s' :
    inv lanes s -> step s s' -> mainpc s <> MSend ->
    (astep task (sh s, in_flight s) (sh s', in_flight s')) \/
    (sh s' = sh s /\ Permutation (in_flight s') (in_flight s) /\
     (weight s' < weight s \/ weight s' <= weight s /\ rank s' < rank s)).
  Proof.
    intros Hinv H Hm. pose proof Hinv as [Hs Hi].
    pose proof (step_effect dest_ok (sh_inc Hs) H) as E.
    assert (F : (astep task (sh s, in_flight s) (sh s', in_flight s')) \/
                (hist s' = hist s /\ sh s' = sh s /\ Permutation (in_flight s') (in_flight s))).
    { destruct E as [i p R out Hi1 Hpc Hp Ht Hh Hl' Hst F1 F2 Hm' | Hm1 Hm2 Hsh Hh Hl' Hst F |
                   Hsh Hh Hl' Hst Hm1 Hm2 F | Hsh Hh Hl' Hst Hm' F | j Hsh Hh Hst Hm1 Hm2 Hl' F];
        auto; try congruence.
      - left. exists p, R, out. simpl. auto.
      - right. repeat split; auto. rewrite Hm1 in Hi. pose proof (l_flight Hi) as L. rewrite L in *.
        apply Permutation_nil, app_eq_nil in F as [F1 F2]. now rewrite F2. }
    assert (Hinc0 : forall i, i < lanes -> pcs s i <> Run -> inc s i = []) by apply (sh_inc Hs).
    destruct H as [i p rest s1 out Hi1 Hpc Hinc Ht | i p rest Hi1 Hpc Hinc Ht | i Hi1 Hpc Hinc Hpod
      | i Hi1 Hpc Hinc Hpod | i Hi1 Hpc Ha | i Hi1 Hpc Ha | i Hi1 Hpc
      | i j en Hi1 Hpc Hj Hpod | i j en Hi1 Hpc Hj Hpod | i j en Hi1 Hpc Hj
      | i j Hi1 Hpc Hj | i j Hi1 Hpc Hj | i Hi1 Hpc Ha | i Hi1 Hpc Ha Hd | i Hi1 Hpc Ha Hd Hr
      | i Hi1 Hpc Ha Hd Hr | i Hi1 Hpc Hw | Hm' Hq | Hm' | Hm' Hq | j Hm' Hj | j Hm' Hj | Hm' He ];
      try (destruct F as [F|[F0 [F1 F2]]]; [left; exact F|right; split; [exact F1|split; [exact F2|]]]);
      try (right; split; [apply le_n|]; apply rank_pc with (i := i) (c := Assign); auto; rewrite Hpc; simpl; lia);
      try (right; split; [apply le_n|]; apply rank_pc with (i := i) (c := Expose); auto; rewrite Hpc; simpl; lia);
      try (right; split; [apply le_n|]; apply rank_pc with (i := i) (c := Block); auto; rewrite Hpc; simpl; lia);
      try (right; split; [apply le_n|]; apply rank_pc with (i := i) (c := Sleep); auto; rewrite Hpc; simpl; lia);
      try (right; split; [apply le_n|]; apply rank_pc with (i := i) (c := Exited); auto; rewrite Hpc; simpl; lia).
    - (* process *)
      exfalso. simpl in F0. apply (f_equal (@length _)) in F0. simpl in F0. lia.
    - exfalso. eapply no_deferral; eauto.
    - (* recycle *)
      left. unfold weight; simpl.
      pose proof (len_upd (inc s) (pod s i i) Hi1) as L1.
      pose proof (len_pod (pod s) [] Hi1 Hi1) as L2.
      apply nonempty_len in Hpod. rewrite Hinc in L1. simpl in *. lia.
    - (* assignment *)
      left. unfold weight; simpl.
      pose proof (len_upd (inc s) (asg s i) Hi1) as L1.
      pose proof (len_upd (asg s) [] Hi1) as L2.
      apply nonempty_len in Ha. rewrite Hinc0 in L1 by (auto; congruence). simpl in *. lia.
    - (* expose *)
      right. split.
      + unfold weight; simpl.
        pose proof (len_upd (ldef s) [] Hi1) as L1.
        pose proof (len_upd (dfr s) (ldef s i ++ dfr s i) Hi1) as L2.
        rewrite app_length in *. simpl in *. lia.
      + apply rank_pc with (i := i) (c := Send 0 false); auto; rewrite Hpc; simpl; lia.
    - (* send *)
      left. unfold weight; simpl.
      pose proof (len_upd (asg s) (pod s i j ++ asg s j) Hj) as L1.
      pose proof (len_pod (pod s) [] Hi1 Hj) as L2.
      apply nonempty_len in Hpod. rewrite app_length in *. simpl in *. lia.
    - (* skip *)
      right; split; [apply le_n|]. apply rank_pc with (i := i) (c := Send (j + 1) en); auto.
      rewrite Hpc; simpl; lia.
    - (* sent *)
      right; split; [apply le_n|]. apply rank_pc with (i := i) (c := if en then Block else Undefer 0); auto.
      rewrite Hpc; destruct en; simpl; lia.
    - (* undefer *)
      right; split.
      + unfold weight; simpl. destruct (isnil (asg s j)) eqn:E1; simpl; [|lia].
        destruct (isnil (dfr s j)) eqn:E2; simpl; [lia|].
        pose proof (len_upd (asg s) (dfr s j) Hj) as L1.
        pose proof (len_upd (dfr s) [] Hj) as L2. simpl in *. lia.
      + apply rank_pc with (i := i) (c := Undefer (j + 1)); auto.
        rewrite Hpc; simpl; lia.
    - (* take *)
      left. unfold weight; simpl.
      pose proof (len_upd (inc s) (asg s i) Hi1) as L1.
      pose proof (len_upd (asg s) [] Hi1) as L2.
      apply nonempty_len in Ha. rewrite Hinc0 in L1 by (auto; congruence). simpl in *. lia.
    - (* wake *)
      pose proof (len_upd (inc s) (asg s i) Hi1) as L1.
      pose proof (len_upd (asg s) [] Hi1) as L2.
      rewrite Hinc0 in L1 by (auto; congruence).
      destruct (asg s i) eqn:Ea.
      + right. split.
        * unfold weight; simpl. rewrite ?Ea in *. simpl in *. lia.
        * apply rank_pc with (i := i) (c := Exited); auto; [|rewrite Hpc; simpl; lia].
          intros j. simpl. now rewrite Ea.
      + left. unfold weight; simpl. rewrite ?Ea in *. simpl in *. lia.
    - right; split; [apply le_n|]. apply rank_main; auto. simpl. rewrite Hm'. simpl. lia.
    - congruence.
    - right; split; [apply le_n|]. apply rank_main; auto. simpl. rewrite Hm'. simpl. lia.
    - (* dismiss *)
      right; split.
      + unfold weight; simpl. pose proof (len_upd (asg s) [] Hj). simpl in *. lia.
      + apply rank_main; auto. simpl. rewrite Hm'. simpl. lia.
    - right; split; [apply le_n|]. apply rank_main; auto. simpl. rewrite Hm'. simpl. lia.
    - right; split; [apply le_n|]. apply rank_main; auto. simpl. rewrite Hm'. simpl. lia.
  Qed.

  Notation acc := (Acc (fun y x => step x y)).

  (** Main part: phases in which no initial packet is to be sent any more, or none can be sent yet. *)
  Lemma acc_from s :
    inv lanes s -> terminates task (sh s, in_flight s) ->
    (forall s', inv lanes s' -> mainpc s' = MSend -> sh s' = sh s -> (mainpc s = MStart -> acc s')) ->
    mainpc s <> MSend -> acc s.
  Proof.
    intros Hinv Hterm. remember (sh s, in_flight s) as c eqn:Ec.
    revert s Hinv Ec. induction Hterm as [c _ IHc].
    assert (G : forall w r s, weight s <= w -> rank s <= r -> inv lanes s ->
       c = (sh s, in_flight s) \/ (sh s = fst c /\ Permutation (in_flight s) (snd c)) ->
       (forall s', inv lanes s' -> mainpc s' = MSend -> sh s' = sh s -> (mainpc s = MStart -> acc s')) ->
       mainpc s <> MSend -> acc s).
    { induction w as [w IHw] using lt_wf_ind. induction r as [r IHr] using lt_wf_ind.
      intros s Hw Hr Hinv Hc Hsend Hm. constructor. intros s' Hstep.
      pose proof (inv_step dest_ok Hinv Hstep) as Hinv'.
      assert (Hc' : sh s = fst c /\ Permutation (in_flight s) (snd c)).
      { destruct Hc as [Hc|Hc]; auto. rewrite Hc. auto. }
      destruct (step_decreases Hinv Hstep Hm) as [D|(D1 & D2 & D3)].
      - assert (Hm'' : mainpc s <> MStart).
        { intros E. destruct Hinv as [_ Hi]. rewrite E in Hi.
          destruct (e_phase Hi) as [(_ & B & _)|[(A & _)|(A & _)]]; try congruence.
          destruct D as (p & R & out & D & _). simpl in D. rewrite B in D.
          apply Permutation_nil in D. discriminate. }
        assert (Hm2 : mainpc s' <> MSend /\ mainpc s' <> MStart).
        { clear -Hstep Hm Hm''. destruct Hstep; simpl; split; congruence. }
        apply (IHc (sh s', in_flight s')); auto.
        + destruct D as (p & R & out & D & D' & D''). exists p, R, out. simpl in *.
          destruct Hc' as [C1 C2]. rewrite <- C1, <- C2. auto.
        + intros; tauto.
        + tauto.
      - destruct (mainpc s') eqn:Em'.
        2: { assert (Es : mainpc s = MStart).
             { clear -Hstep Hm Em'. destruct Hstep; simpl in *; congruence. }
             apply (Hsend s'); auto. }
        all: destruct D3 as [D3|[D3 D4]].
        all: try (apply (IHw (weight s') ltac:(lia) (rank s') s'); auto;
               [ right; split; [destruct Hc'; congruence | rewrite D2; apply Hc'] | | congruence ]).
        all: try (apply (IHr (rank s') ltac:(lia) s'); auto; try lia;
               [ right; split; [destruct Hc'; congruence | rewrite D2; apply Hc'] | | congruence ]).
        all: intros s'' G1 G2 G3 G4; try congruence.
        all: apply Hsend; auto; try congruence.
        all: clear -Hstep Hm Em'; destruct Hstep; simpl in *; congruence. }
    intros s Hinv Ec Hsend Hm. eapply G; eauto.
  Qed.

  Lemma acc_reachable s0 s :
    terminates task (s0, [p0]) ->
    reachable lanes dest task p0 s0 s -> acc s.
  Proof.
    intros Ht1 Hr. pose proof (terminates_nil task s0) as Ht0.
    assert (Hsend : forall s, inv lanes s -> mainpc s = MSend -> sh s = s0 -> acc s).
    { intros s1 Hinv Hm Hsh. constructor. intros s2 Hstep.
      pose proof (inv_step dest_ok Hinv Hstep) as Hinv'.
      assert (Hf : in_flight s1 = []).
      { destruct Hinv as [_ Hi]. rewrite Hm in Hi.
        destruct (e_phase Hi) as [(A & _)|[(_ & B & _)|(A & _)]]; congruence. }
      pose proof Hinv as [Hs _].
      pose proof (step_effect dest_ok (sh_inc Hs) Hstep) as E.
      assert (Hm2 : mainpc s2 = MWait).
      { destruct Hinv as [_ Hi]. rewrite Hm in Hi.
        assert (Hr0 : running s1 = 0).
        { destruct (e_phase Hi) as [(A & _)|[(_ & _ & B & _)|(A & _)]]; congruence. }
        assert (N : forall i, i < lanes -> (pcs s1 i <> Sleep \/ woken s1 i = true) -> False).
        { intros i Hi' Hp. pose proof (worker_pos Hs Hi Hi' Hp). lia. }
        destruct Hstep; try (exfalso; apply (N i); auto; left; congruence); simpl; auto; congruence. }
      apply acc_from; auto; try congruence.
      eapply terminates_perm with (b := [p0]); [|].
      - destruct E as [i p R out Hi1 Hpc Hp Ht Hh Hl' Hst F1 F2 Hm' | Hm1 Hm3 Hsh' Hh Hl' Hst F |
                   Hsh' Hh Hl' Hst Hm1 Hm3 F | Hsh' Hh Hl' Hst Hm' F | j Hsh' Hh Hst Hm1 Hm3 Hl' F];
          try congruence.
        rewrite F, Hf. reflexivity.
      - destruct E as [i p R out Hi1 Hpc Hp Ht Hh Hl' Hst F1 F2 Hm' | Hm1 Hm3 Hsh' Hh Hl' Hst F |
                   Hsh' Hh Hl' Hst Hm1 Hm3 F | Hsh' Hh Hl' Hst Hm' F | j Hsh' Hh Hst Hm1 Hm3 Hl' F];
          try congruence. }
    pose proof (inv_reachable dest_ok Hr) as Hinv.
    pose proof (refines dest_ok Hr) as Href.
    destruct (mainpc s) eqn:Em.
    - destruct Href as (A & B & C). apply acc_from; auto; try congruence.
      intros s' G1 G2 G3 _. apply Hsend; auto; congruence.
    - destruct Href as (A & B & C). apply Hsend; auto.
    - destruct Href as (b & A & B). apply acc_from; auto; try congruence.
      eapply terminates_perm; [exact B|]. eapply terminates_run; [exact Ht1|exact A].
    - destruct Href as (b & A & B). apply acc_from; auto; try congruence.
      eapply terminates_perm; [exact B|]. eapply terminates_run; [exact Ht1|exact A].
    - destruct Href as (b & A & B). apply acc_from; auto; try congruence.
      eapply terminates_perm; [exact B|]. eapply terminates_run; [exact Ht1|exact A].
    - destruct Href as (b & A & B). apply acc_from; auto; try congruence.
      eapply terminates_perm; [exact B|]. eapply terminates_run; [exact Ht1|exact A].
  Qed.

End Term.
