(** Termination of the protocol of Ports.v under every fair schedule, for tasks that may defer packets. *)
From Coq Require Import List Arith Lia Bool Permutation Wf_nat Wellfounded.Transitive_Closure Relation_Operators.
From Verif Require Import Base Machine Ports PortsProofs PortsTerm PortsExec PortsLive.
Import ListNotations.

Set Implicit Arguments.

(** Case analysis on the innermost matches *)
Ltac dm := repeat match goal with
  | |- context [match ?x with _ => _ end] =>
      lazymatch x with context [match _ with _ => _ end] => fail | _ => destruct x eqn:?; simpl; auto end
  end.

Section Fair.
  Context {S P : Type}.
  Variable lanes : nat.
  Variable dest : P -> nat.
  Variable task : S -> P -> option (S * list P).
  Variable p0 : P.
  Variable s0 : S.
  Hypothesis dest_ok : forall p, dest p < lanes.

  Notation sys := (@sys S P).
  Notation step := (step lanes dest task p0).
  Notation in_flight := (in_flight lanes).
  Notation reachable := (reachable lanes dest task p0 s0).
  Notation exec1 := (exec1 lanes dest task p0).
  Notation exec_worker := (exec_worker lanes dest task).

  (** The threads *)
  Definition thread (w : who) : Prop := match w with W i => i < lanes | M => True | Spurious _ => False end.

  Lemma exec1_step s w : no_spurious w -> exec1 s w = s \/ step s (exec1 s w).
  Proof.
    destruct w as [i| |i]; simpl; [| |easy]; intros _.
    - destruct (Nat.ltb_spec i lanes); auto. destruct (PortsExec.exec_worker lanes dest task i s) eqn:E; auto. right. eapply exec_worker_sound; eauto.
    - destruct (PortsExec.exec_main lanes dest p0 s) eqn:E; auto. right. eapply exec_main_sound; eauto.
  Qed.
  Lemma exec1_reachable s w : reachable s -> no_spurious w -> reachable (exec1 s w).
  Proof. intros R N. destruct (exec1_step s w N) as [->|]; auto. eapply star_step; eauto. Qed.

  (** Every step is the step of some thread. *)
  Lemma step_exec1 s s' : step s s' -> exists w, thread w /\ exec1 s w = s'.
  Proof.
    intros H. destruct H as [i p rest s1 out Hi Hpc Hinc Ht | i p rest Hi Hpc Hinc Ht | i Hi Hpc Hinc Hpod
      | i Hi Hpc Hinc Hpod | i Hi Hpc Ha | i Hi Hpc Ha | i Hi Hpc
      | i j en Hi Hpc Hj Hpod | i j en Hi Hpc Hj Hpod | i j en Hi Hpc Hj
      | i j Hi Hpc Hj | i j Hi Hpc Hj | i Hi Hpc Ha | i Hi Hpc Ha Hd | i Hi Hpc Ha Hd Hr
      | i Hi Hpc Ha Hd Hr | i Hi Hpc Hw | Hm Hq | Hm | Hm Hq | j Hm Hj | j Hm Hj | Hm He ];
      try (exists (W i); split; [exact Hi|]; simpl; rewrite (proj2 (Nat.ltb_lt i lanes) Hi); unfold PortsExec.exec_worker; rewrite Hpc);
      try (exists M; split; [exact I|]; simpl; unfold exec_main; rewrite Hm).
    - now rewrite Hinc, Ht.
    - now rewrite Hinc, Ht.
    - rewrite Hinc. apply isnil_false in Hpod. now rewrite Hpod.
    - now rewrite Hinc, Hpod.
    - apply isnil_false in Ha. now rewrite Ha.
    - now rewrite Ha.
    - reflexivity.
    - rewrite (proj2 (Nat.ltb_lt j lanes) Hj). apply isnil_false in Hpod. now rewrite Hpod.
    - rewrite (proj2 (Nat.ltb_lt j lanes) Hj). now rewrite Hpod.
    - now rewrite (proj2 (Nat.ltb_ge j lanes) Hj).
    - now rewrite (proj2 (Nat.ltb_lt j lanes) Hj).
    - now rewrite (proj2 (Nat.ltb_ge j lanes) Hj).
    - apply isnil_false in Ha. now rewrite Ha.
    - now rewrite Ha, Hd.
    - now rewrite Ha, Hd, Hr.
    - rewrite Ha, Hd. simpl. destruct (Nat.eqb_spec (running s) 0); [lia|reflexivity].
    - now rewrite Hw.
    - now rewrite Hq.
    - reflexivity.
    - now rewrite Hq.
    - now rewrite (proj2 (Nat.ltb_lt j lanes) Hj).
    - now rewrite (proj2 (Nat.ltb_ge j lanes) Hj).
    - destruct (forallb _ _) eqn:E; auto. exfalso. apply not_true_iff_false in E. apply E, forallb_forall.
      intros i Hi. apply in_seq in Hi. rewrite He by lia. reflexivity.
  Qed.

  (** ** Schedules *)
  (** No thread is neglected forever. *)
  Definition fair (f : nat -> who) : Prop :=
    (forall n, no_spurious (f n)) /\ forall w n, thread w -> exists m, n <= m /\ f m = w.

  (** The state after [n] turns *)
  Fixpoint turn_of (f : nat -> who) (n : nat) : sys :=
    match n with 0 => init lanes s0 | Datatypes.S k => exec1 (turn_of f k) (f k) end.

  Section Schedule.
    Variable f : nat -> who.
    Hypothesis fair_f : fair f.
    Notation at_ := (turn_of f).

    Lemma at_reachable n : reachable (at_ n).
    Proof. induction n; [constructor|]. simpl. apply exec1_reachable; auto. apply (proj1 fair_f). Qed.

    Definition leads (A B : sys -> Prop) : Prop := forall n, A (at_ n) -> exists m, n <= m /\ B (at_ m).

    Lemma leads_refl (A B : sys -> Prop) : (forall s, A s -> B s) -> leads A B.
    Proof. intros H n An. exists n. split; auto. Qed.
    Lemma leads_trans (A B C : sys -> Prop) : leads A B -> leads B C -> leads A C.
    Proof. intros H1 H2 n An. destruct (H1 _ An) as [m [Lm Bm]]. destruct (H2 _ Bm) as [k [Lk Ck]]. exists k. split; auto. lia. Qed.
    Lemma leads_or (A B C : sys -> Prop) : leads A C -> leads B C -> leads (fun s => A s \/ B s) C.
    Proof. intros H1 H2 n [An|Bn]; auto. Qed.
    Lemma leads_weaken (A B C : sys -> Prop) : (forall s, B s -> C s) -> leads A B -> leads A C.
    Proof. intros H H1 n An. destruct (H1 _ An) as [m [Lm Bm]]. eauto. Qed.
    Lemma leads_reach (A B : sys -> Prop) : leads (fun s => reachable s /\ A s) B -> leads A B.
    Proof. intros H n An. apply H. split; auto. apply at_reachable. Qed.

    (** A thread that makes progress, which isn't undone by the others *)
    Lemma ensures (A B : sys -> Prop) (mu : sys -> nat) (t : who) :
      thread t ->
      (forall s w, reachable s -> A s -> no_spurious w -> B (exec1 s w) \/ (A (exec1 s w) /\ mu (exec1 s w) <= mu s)) ->
      (forall s, reachable s -> A s -> B (exec1 s t) \/ mu (exec1 s t) < mu s) ->
      leads A B.
    Proof.
      intros Ht Hall Hone.
      assert (G : forall k n, mu (at_ n) <= k -> A (at_ n) -> exists m, n <= m /\ B (at_ m)).
      { induction k as [k IH] using lt_wf_ind. intros n Hk An.
        destruct (proj2 fair_f t n Ht) as [m [Lm Em]].
        remember (m - n) as d eqn:Ed. revert n Hk An Lm Ed. induction d as [|d IHd]; intros n Hk An Lm Ed.
        - assert (m = n) by lia. subst m. destruct (Hone _ (at_reachable n) An) as [Bn|Ln].
          + exists (Datatypes.S n). split; [lia|]. simpl. now rewrite Em.
          + destruct (Hall _ (f n) (at_reachable n) An (proj1 fair_f n)) as [Bn|[An' _]].
            * exists (Datatypes.S n). split; [lia|]. exact Bn.
            * destruct (IH (mu (at_ (Datatypes.S n)))) with (n := Datatypes.S n) as [q [Lq Bq]]; auto.
              -- simpl. rewrite Em. lia.
              -- exists q. split; auto. lia.
        - destruct (Hall _ (f n) (at_reachable n) An (proj1 fair_f n)) as [Bn|[An' Ln]].
          + exists (Datatypes.S n). split; [lia|]. exact Bn.
          + destruct (IHd (Datatypes.S n)) as [q [Lq Bq]]; simpl; auto; try lia. exists q. split; auto. lia. }
      intros n. apply (G (mu (at_ n))). lia.
    Qed.

    (** Steps of any thread make progress. *)
    Lemma any_progress (A B : sys -> Prop) (mu : sys -> nat) :
      (forall s s', reachable s -> A s -> step s s' -> B s' \/ (A s' /\ mu s' < mu s)) ->
      (forall s, reachable s -> A s -> B s \/ exists s', step s s') ->
      leads A B.
    Proof.
      intros Hall Hone.
      assert (G : forall k n, mu (at_ n) <= k -> A (at_ n) -> exists m, n <= m /\ B (at_ m)).
      { induction k as [k IH] using lt_wf_ind. intros n Hk An.
        destruct (Hone _ (at_reachable n) An) as [Bn|[s' Hs]]; [exists n; auto|].
        destruct (step_exec1 Hs) as [w [Hw Ew]]. destruct (proj2 fair_f w n Hw) as [m [Lm Em]].
        remember (m - n) as d eqn:Ed. revert n Hk An Hs Ew Lm Ed. induction d as [|d IHd]; intros n Hk An Hs Ew Lm Ed.
        - assert (m = n) by lia. subst m. destruct (Hall _ _ (at_reachable n) An Hs) as [Bn|[An' Ln]].
          + exists (Datatypes.S n). split; [lia|]. simpl. now rewrite Em, Ew.
          + destruct (IH (mu (at_ (Datatypes.S n)))) with (n := Datatypes.S n) as [q [Lq Bq]]; auto;
              try (simpl; rewrite Em, Ew; auto; lia). exists q. split; auto. lia.
        - destruct (exec1_step (at_ n) (f n) (proj1 fair_f n)) as [E|Hst].
          + destruct (IHd (Datatypes.S n)) as [q [Lq Bq]]; simpl; rewrite ?E; auto; try lia. exists q. split; auto. lia.
          + destruct (Hall _ _ (at_reachable n) An Hst) as [Bn|[An' Ln]]; [exists (Datatypes.S n); split; [lia|]; exact Bn|].
            destruct (IH (mu (at_ (Datatypes.S n)))) with (n := Datatypes.S n) as [q [Lq Bq]]; auto; try (simpl; lia).
            exists q. split; auto. lia. }
      intros n. apply (G (mu (at_ n))). lia.
    Qed.

    Lemma leads_measure (A B : sys -> Prop) (mu : sys -> nat) :
      (forall k, leads (fun s => A s /\ mu s <= k) (fun s => B s \/ (A s /\ mu s < k))) -> leads A B.
    Proof.
      intros H. assert (G : forall k, leads (fun s => A s /\ mu s <= k) B).
      { induction k as [k IH] using lt_wf_ind. intros n An. destruct (H k n An) as [m [Lm [Bm|[Am Mm]]]]; [eauto|].
        destruct (IH (mu (at_ m)) Mm m) as [q [Lq Bq]]; [split; auto|]. exists q. split; auto. lia. }
      intros n An. apply (G (mu (at_ n))). split; auto.
    Qed.

    (** ** A packet that can be processed is processed *)
    Section Pending.
      Variable d : S.
      Variable k : nat.
      Variable p : P.
      Hypothesis ready : task d p <> None.

      Definition pending (s : sys) : Prop := mainpc s = MWait /\ sh s = d /\ length (hist s) = k /\ In p (in_flight s).
      Definition over (s : sys) : Prop := k < length (hist s).

      Lemma pending_early s : reachable s -> pending s -> shape lanes s /\ early lanes s.
      Proof.
        intros R [Hm _]. destruct (inv_reachable dest_ok R) as [Sh I]. split; auto. rewrite Hm in I. exact I.
      Qed.
      Lemma pending_main s : reachable s -> pending s -> exec1 s M = s.
      Proof.
        intros R [Hm [_ [_ I]]]. simpl. unfold exec_main. rewrite Hm. destruct (quiescent s) eqn:Q; auto. exfalso.
        rewrite (@quiescence_sound _ _ lanes dest task p0 dest_ok s0 s) in I; auto. congruence.
      Qed.
      Lemma pending_keep s w : reachable s -> pending s -> no_spurious w ->
        over (exec1 s w) \/ (pending (exec1 s w) /\ hist (exec1 s w) = hist s).
      Proof.
        intros R Pn N. pose proof (pending_early R Pn) as [Sh E]. pose proof Pn as [Hm [Hd [Hk I]]].
        destruct (exec1_step s w N) as [Eq|St]; [rewrite Eq; auto|].
        assert (Q : mainpc (exec1 s w) = MWait).
        { destruct w as [i| |]; [|rewrite pending_main; auto|easy]. simpl. destruct (i <? lanes); auto.
          unfold PortsExec.exec_worker. destruct (pcs s i); simpl; auto;
            dm. }
        pose proof (step_effect dest_ok (sh_inc Sh) St) as F.
        destruct F as [i q R' out Hi1 Hpc Hp Ht Hh Hl' Hst F1 F2 Hm' | Hm1 Hm2 Hsh Hh Hl' Hst F |
                   Hsh Hh Hl' Hst Hm1 Hm2 F | Hsh Hh Hl' Hst Hm' F | j Hsh Hh Hst Hm1 Hm2 Hl' F]; try congruence.
        - left. unfold over. rewrite Hh. simpl. lia.
        - right. unfold pending. rewrite Hsh, Hh, Q. repeat split; auto. eapply Permutation_in; [symmetry; exact F|auto].
        - right. unfold pending. rewrite Hsh, Hh, Q. repeat split; auto. eapply Permutation_in; [symmetry; exact F|auto].
      Qed.

      (** The number of packets sent to a worker that are not yet delivered, and of all packets not delivered *)
      Definition col (s : sys) (i : nat) : nat := length (flat lanes (fun l => pod s l i)).
      Definition undelivered (s : sys) : nat := length (flat lanes (fun l => flat lanes (pod s l))).
      Definition supply (s : sys) (i : nat) : nat :=
        length (inc s i) + 2 * length (asg s i) + 3 * length (dfr s i) + 3 * col s i.

      Lemma col_upd (pd : nat -> nat -> list P) l j x i : l < lanes ->
        length (flat lanes (fun m => upd pd l (upd (pd l) j x) m i)) + (if Nat.eqb i j then length (pd l j) else 0) =
        length (flat lanes (fun m => pd m i)) + (if Nat.eqb i j then length x else 0).
      Proof.
        intros Hl. destruct (Nat.eqb_spec i j) as [->|N].
        - pose proof (len_upd (fun m => pd m j) x Hl) as L. rewrite <- L. f_equal. f_equal. apply flat_ext. intros m Hm.
          unfold upd. destruct (Nat.eqb_spec m l) as [->|]; auto. now rewrite Nat.eqb_refl.
        - f_equal. f_equal. apply flat_ext. intros m Hm. unfold upd. destruct (Nat.eqb_spec m l) as [->|]; auto.
          destruct (Nat.eqb_spec i j); [easy|auto].
      Qed.

      (** What other threads do to a worker *)
      Record untouched (s s' : sys) (i : nat) : Prop := {
        un_pc : pcs s' i = pcs s i;
        un_inc : inc s' i = inc s i;
        un_pod : pod s' i = pod s i;
        un_ldef : ldef s' i = ldef s i;
        un_asg : (asg s' i = asg s i /\ dfr s' i = dfr s i) \/
                 (exists l, l < lanes /\ asg s' i = pod s l i ++ asg s i /\ dfr s' i = dfr s i /\ pod s l i <> [] /\
                            undelivered s' + length (pod s l i) = undelivered s) \/
                 (asg s i = [] /\ dfr s i <> [] /\ asg s' i = dfr s i /\ dfr s' i = []);
        un_supply : supply s' i <= supply s i
      }.
      Lemma untouched_refl s i : untouched s s i.
      Proof. constructor; auto. Qed.

      Lemma other_untouched s w i : reachable s -> pending s -> no_spurious w -> w <> W i -> ~ over (exec1 s w) ->
        untouched s (exec1 s w) i.
      Proof.
        intros R Pn N Nw No. destruct w as [l| |]; [|rewrite pending_main; auto; apply untouched_refl|easy].
        assert (Nl : i <> l) by congruence. clear Nw. revert No. unfold over. destruct Pn as [_ [_ [Hk _]]]. simpl.
        destruct (Nat.ltb_spec l lanes) as [Hl|]; [|intros; apply untouched_refl]. unfold PortsExec.exec_worker.
        destruct (pcs s l) eqn:Ep.
        - destruct (inc s l) as [|q rest] eqn:Ei.
          + destruct (isnil (pod s l l)) eqn:Ed; intros _.
            * constructor; simpl; rewrite ?upd_diff; auto.
            * constructor; simpl; rewrite ?upd_diff by auto; auto. unfold supply, col. simpl. rewrite upd_diff by auto.
              pose proof (col_upd (pod s) l [] i Hl) as C. destruct (Nat.eqb_spec i l); [easy|]. lia.
          + destruct (task (sh s) q) as [[s1 out]|]; simpl; intros No; [lia|].
            constructor; simpl; rewrite ?upd_diff by auto; auto. unfold supply, col. simpl. rewrite upd_diff by auto. lia.
        - destruct (isnil (asg s l)); intros _; constructor; simpl; rewrite ?upd_diff by auto; auto.
          unfold supply, col. simpl. rewrite !upd_diff by auto. lia.
        - intros _. constructor; simpl; rewrite ?upd_diff by auto; auto. unfold supply, col. simpl. rewrite !upd_diff by auto. lia.
        - destruct (Nat.ltb_spec j lanes) as [Hj|].
          + destruct (isnil (pod s l j)) eqn:Ed; intros _.
            * constructor; simpl; rewrite ?upd_diff by auto; auto.
            * apply isnil_false in Ed. constructor; simpl; rewrite ?upd_diff by auto; auto.
              -- unfold upd. destruct (Nat.eqb_spec i j) as [->|]; auto. right. left. exists l. repeat split; auto.
                 unfold undelivered. simpl. pose proof (len_pod (pod s) [] Hl Hj). simpl in *. unfold upd in *. lia.
              -- unfold supply, col. simpl. pose proof (col_upd (pod s) j [] i Hl) as C.
                 destruct (Nat.eqb_spec i j) as [->|N2]; [rewrite upd_same, app_length|rewrite (upd_diff _ _ N2)]; simpl in *; lia.
          + intros _. constructor; simpl; rewrite ?upd_diff by auto; auto.
        - destruct (Nat.ltb_spec j lanes) as [Hj|].
          + intros _. constructor; simpl; rewrite ?upd_diff by auto; auto.
            * destruct (isnil (asg s j)) eqn:Ea; simpl; auto. destruct (isnil (dfr s j)) eqn:Ed; simpl; auto.
              unfold upd. destruct (Nat.eqb_spec i j) as [->|]; auto. right. right.
              apply isnil_true in Ea. apply isnil_false in Ed. auto.
            * unfold supply, col. simpl. destruct (isnil (asg s j)) eqn:Ea; simpl; auto. destruct (isnil (dfr s j)) eqn:Ed; simpl; auto.
              unfold upd. destruct (Nat.eqb_spec i j) as [->|]; auto. apply isnil_true in Ea. rewrite Ea. simpl. lia.
          + intros _. constructor; simpl; rewrite ?upd_diff by auto; auto.
        - destruct (isnil (asg s l)); [destruct (dismissed s l); [|destruct (Nat.eqb (running s) 0)]|]; intros _; constructor; simpl;
            rewrite ?upd_diff by auto; auto. unfold supply, col. simpl. rewrite !upd_diff by auto. lia.
        - destruct (woken s l); intros _; [|apply untouched_refl]. constructor; simpl; rewrite ?upd_diff by auto; auto.
          unfold supply, col. simpl. rewrite !upd_diff by auto. lia.
        - intros _. apply untouched_refl.
      Qed.

      (** Packets are delivered and never sent unless one is processed. *)
      Lemma undelivered_le s w : reachable s -> pending s -> no_spurious w -> ~ over (exec1 s w) ->
        undelivered (exec1 s w) <= undelivered s.
      Proof.
        intros R Pn N No. destruct w as [l| |]; [|rewrite pending_main; auto|easy].
        revert No. unfold over. destruct Pn as [_ [_ [Hk _]]]. simpl.
        destruct (Nat.ltb_spec l lanes) as [Hl|]; [|auto]. unfold PortsExec.exec_worker, undelivered.
        destruct (pcs s l).
        - destruct (inc s l) as [|q rest].
          + destruct (isnil (pod s l l)); simpl; intros _; auto. pose proof (len_pod (pod s) [] Hl Hl). simpl in *. lia.
          + destruct (task (sh s) q) as [[s1 out]|]; simpl; intros No; [lia|auto].
        - destruct (isnil (asg s l)); simpl; auto.
        - simpl; auto.
        - destruct (Nat.ltb_spec j lanes) as [Hj|]; [destruct (isnil (pod s l j))|]; simpl; intros _; auto.
          pose proof (len_pod (pod s) [] Hl Hj). simpl in *. lia.
        - destruct (Nat.ltb j lanes); simpl; auto.
        - destruct (isnil (asg s l)); [destruct (dismissed s l); [|destruct (Nat.eqb (running s) 0)]|]; simpl; auto.
        - destruct (woken s l); simpl; auto.
        - simpl; auto.
      Qed.
      (** What a worker does itself *)
      Definition dist (s : sys) (i : nat) : nat :=
        match pcs s i with
        | Run => 1 + length (inc s i) + 2 * length (pod s i i)
        | Expose => 3 + 2 * lanes
        | Send j _ => 2 + lanes + (lanes - j)
        | Undefer j => 1 + (lanes - j)
        | _ => 0
        end.

      Record taking (s s' : sys) (i : nat) : Prop := {
        ta_pc : pcs s' i = Run; ta_inc : inc s' i = asg s i; ta_asg : asg s' i = []; ta_dfr : dfr s' i = dfr s i
      }.
      Record nearer (s s' : sys) (i : nat) : Prop := {
        ne_dist : dist s' i < dist s i; ne_asg : incl (asg s i) (asg s' i); ne_dfr : incl (dfr s i) (dfr s' i);
        ne_g : 2 * undelivered s' + length (asg s' i) <= 2 * undelivered s + length (asg s i)
      }.

      Lemma exec1_worker s i : i < lanes -> exec1 s (W i) = match exec_worker i s with Some s' => s' | None => s end.
      Proof. intros H. simpl. now rewrite (proj2 (Nat.ltb_lt i lanes) H). Qed.

      Lemma own_step s i : reachable s -> pending s -> i < lanes -> asg s i <> [] -> ~ over (exec1 s (W i)) ->
        taking s (exec1 s (W i)) i \/ nearer s (exec1 s (W i)) i.
      Proof.
        intros R Pn Hi Ha. pose proof (pending_early R Pn) as [Sh E]. rewrite exec1_worker by auto. unfold over.
        destruct Pn as [_ [_ [Hk _]]]. unfold PortsExec.exec_worker. pose proof (proj2 (isnil_false _) Ha) as Ha'.
        destruct (pcs s i) eqn:Ep.
        - destruct (inc s i) as [|q rest] eqn:Ei.
          + destruct (isnil (pod s i i)) eqn:Ed; intros _; right.
            * constructor; simpl; auto using incl_refl. unfold dist. simpl. rewrite upd_same, Ep. simpl. lia.
            * apply isnil_false, nonempty_len in Ed. constructor; simpl; auto using incl_refl.
              -- unfold dist. simpl. rewrite Ep, Ei, !upd_same. simpl. lia.
              -- unfold undelivered. simpl. pose proof (len_pod (pod s) [] Hi Hi). simpl in *. lia.
          + destruct (task (sh s) q) as [[s1 out]|]; simpl; intros No; [lia|]. right. constructor; simpl; auto using incl_refl.
            unfold dist. simpl. rewrite Ep, Ei, upd_same. simpl. lia.
        - rewrite Ha'. intros _. left. constructor; simpl; rewrite ?upd_same; auto.
        - intros _. right. constructor; simpl; auto using incl_refl.
          + unfold dist. simpl. rewrite Ep, upd_same. lia.
          + rewrite upd_same. apply incl_appr, incl_refl.
        - destruct (Nat.ltb_spec j lanes) as [Hj|].
          + destruct (isnil (pod s i j)) eqn:Ed; intros _; right; constructor; simpl; auto using incl_refl.
            * unfold dist. simpl. rewrite Ep, upd_same. lia.
            * unfold dist. simpl. rewrite Ep, upd_same. lia.
            * unfold upd. destruct (Nat.eqb_spec i j) as [->|]; auto using incl_refl. apply incl_appr, incl_refl.
            * unfold undelivered. simpl. pose proof (len_pod (pod s) [] Hi Hj) as L. simpl in L.
              destruct (Nat.eq_dec i j) as [->|N2]; [rewrite upd_same, app_length|rewrite (upd_diff _ _ N2)]; lia.
          + intros _. right. constructor; simpl; auto using incl_refl. unfold dist. simpl. rewrite Ep, upd_same. destruct enabled; lia.
        - destruct (Nat.ltb_spec j lanes) as [Hj|].
          + intros _. right. destruct (isnil (asg s j)) eqn:Ea; simpl.
            * destruct (isnil (dfr s j)) eqn:Ed; simpl; constructor; simpl; rewrite ?Ea, ?Ed; simpl; auto using incl_refl;
                try (unfold dist; simpl; rewrite Ep, upd_same; lia);
                (destruct (Nat.eq_dec i j) as [->|N2]; [congruence|rewrite (upd_diff _ _ N2)]); auto using incl_refl.
            * constructor; simpl; rewrite ?Ea; simpl; auto using incl_refl. unfold dist; simpl; rewrite Ep, upd_same; lia.
          + intros _. right. constructor; simpl; auto using incl_refl. unfold dist. simpl. rewrite Ep, upd_same. lia.
        - rewrite Ha'. intros _. left. constructor; simpl; rewrite ?upd_same; auto.
        - rewrite (proj2 (e_woken E Hi)); [|split; auto; apply (sh_wait Sh); auto].
          intros _. left. constructor; simpl; rewrite ?upd_same, ?Ha'; auto.
        - exfalso. now apply (e_alive E Hi).
      Qed.

      (** Running, looking for packets *)
      Definition busy (s : sys) (i : nat) : Prop := pcs s i = Run \/ pcs s i = Assign.
      Definition mu1 (s : sys) (i : nat) : nat := 2 * supply s i + match pcs s i with Run => 1 | _ => 0 end.
      Record busier (s s' : sys) (i : nat) : Prop := {
        bu_pc : busy s' i; bu_mu : mu1 s' i < mu1 s i; bu_pod : forall j, j <> i -> pod s' i j = pod s i j;
        bu_own : pod s' i i = pod s i i \/ inc s' i = pod s i i; bu_ldef : incl (ldef s i) (ldef s' i); bu_dfr : dfr s' i = dfr s i
      }.
      Record exposing (s s' : sys) (i : nat) : Prop := {
        ex_pc : pcs s' i = Expose; ex_pod : pod s' i = pod s i; ex_ldef : ldef s' i = ldef s i; ex_dfr : dfr s' i = dfr s i;
        ex_asg : asg s' i = asg s i
      }.

      Lemma busy_step s i : reachable s -> pending s -> i < lanes -> busy s i -> ~ over (exec1 s (W i)) ->
        busier s (exec1 s (W i)) i \/ exposing s (exec1 s (W i)) i.
      Proof.
        intros R Pn Hi Hb. rewrite exec1_worker by auto. unfold over. destruct Pn as [_ [_ [Hk _]]]. unfold PortsExec.exec_worker.
        destruct Hb as [Ep|Ep]; rewrite Ep.
        - destruct (inc s i) as [|q rest] eqn:Ei.
          + destruct (isnil (pod s i i)) eqn:Ed; intros _; left.
            * constructor; simpl; auto using incl_refl; [right; simpl; apply upd_same|].
              unfold mu1. simpl. rewrite upd_same, Ep. unfold supply, col. simpl. lia.
            * apply isnil_false, nonempty_len in Ed. constructor; simpl; auto using incl_refl.
              -- left. exact Ep.
              -- unfold mu1. simpl. rewrite Ep. unfold supply, col. simpl. rewrite upd_same, Ei.
                 pose proof (col_upd (pod s) i [] i Hi) as C. rewrite Nat.eqb_refl in C. simpl in *. lia.
              -- intros j Nj. rewrite upd_same, upd_diff; auto.
              -- right. apply upd_same.
          + destruct (task (sh s) q) as [[s1 out]|]; simpl; intros No; [lia|]. left. constructor; simpl; auto.
            * left. exact Ep.
            * unfold mu1. simpl. rewrite Ep. unfold supply, col. simpl. rewrite upd_same, Ei. simpl. lia.
            * rewrite upd_same. apply incl_tl, incl_refl.
        - destruct (isnil (asg s i)) eqn:Ea; intros _.
          + right. constructor; simpl; auto. apply upd_same.
          + left. apply isnil_false, nonempty_len in Ea. constructor; simpl; auto using incl_refl.
            * left. simpl. apply upd_same.
            * unfold mu1. simpl. rewrite Ep, upd_same. unfold supply, col. simpl. rewrite !upd_same. simpl.
              assert (length (inc s i) = 0) by
                (destruct (inv_reachable dest_ok R) as [Sh _]; rewrite (sh_inc Sh Hi) by congruence; reflexivity). lia.
      Qed.

      Definition in_inc i s := pending s /\ In p (inc s i).
      Definition in_asg i s := pending s /\ In p (asg s i).
      Definition in_pod l i s := pending s /\ In p (pod s l i).
      Definition in_ldef i s := pending s /\ In p (ldef s i).
      Definition in_dfr i s := pending s /\ In p (dfr s i).

      Lemma over_dec s : {over s} + {~ over s}.
      Proof. apply lt_dec. Qed.
      Lemma keep s w : reachable s -> pending s -> no_spurious w -> ~ over (exec1 s w) -> pending (exec1 s w).
      Proof. intros R Pn N No. destruct (pending_keep w R Pn N); tauto. Qed.
      Lemma who_dec (w : who) i : {w = W i} + {w <> W i}.
      Proof. destruct w as [j| |j]; [destruct (Nat.eq_dec j i); [left|right]|right|right]; congruence. Qed.

      Lemma inc_over i : i < lanes -> leads (in_inc i) over.
      Proof.
        intros Hi.
        assert (Own : forall s, reachable s -> in_inc i s -> over (exec1 s (W i)) \/ (in_inc i (exec1 s (W i)) /\ length (inc (exec1 s (W i)) i) < length (inc s i))).
        { intros s R [Pn I]. destruct (over_dec (exec1 s (W i))) as [|No]; auto. right. pose proof (keep (W i) R Pn Logic.I No) as K. revert No K.
          destruct (inv_reachable dest_ok R) as [Sh _].
          assert (Ep : pcs s i = Run).
          { destruct (pcs s i) eqn:Ep; auto; rewrite (sh_inc Sh Hi) in I by congruence; destruct I. }
          unfold in_inc. rewrite exec1_worker by auto. unfold PortsExec.exec_worker, over. rewrite Ep. destruct (inc s i) as [|q rest] eqn:Ei; [destruct I|].
          destruct Pn as [_ [Hd [Hk _]]].
          destruct (task (sh s) q) as [[s1 out]|] eqn:Et; simpl; intros No K; [lia|]. rewrite upd_same. split; [|simpl; lia].
          split; auto. destruct I as [->|]; auto. congruence. }
        apply ensures with (mu := fun s => length (inc s i)) (t := W i); [exact Hi| |].
        - intros s w R A N. destruct (who_dec w i) as [->|Nw].
          + destruct (Own _ R A) as [|[]]; auto. right. split; auto. lia.
          + destruct (over_dec (exec1 s w)) as [|No]; auto. right. destruct A as [Pn I].
            pose proof (other_untouched R Pn N Nw No) as U. split; [split|]; rewrite ?(un_inc U); auto. now apply keep.
        - intros s R A. destruct (Own _ R A) as [|[]]; auto.
      Qed.

      Lemma asg_over i : i < lanes -> leads (in_asg i) over.
      Proof.
        intros Hi. eapply leads_trans; [|apply (leads_or (@leads_refl over over (fun _ H => H)) (inc_over Hi))].
        assert (Own : forall s, reachable s -> in_asg i s ->
                  (over (exec1 s (W i)) \/ in_inc i (exec1 s (W i))) \/ (in_asg i (exec1 s (W i)) /\ dist (exec1 s (W i)) i < dist s i)).
        { intros s R [Pn I]. destruct (over_dec (exec1 s (W i))) as [|No]; auto. pose proof (keep (W i) R Pn Logic.I No) as K.
          assert (Ha : asg s i <> []) by (intros E; now rewrite E in I).
          destruct (own_step R Pn Hi Ha No) as [T|T].
          - left. right. split; auto. now rewrite (ta_inc T).
          - right. split; [split; auto|]; [now apply (ne_asg T)|apply (ne_dist T)]. }
        apply ensures with (mu := fun s => dist s i) (t := W i); [exact Hi| |].
        - intros s w R A N. destruct (who_dec w i) as [->|Nw].
          + destruct (Own _ R A) as [|[]]; auto. right. split; auto. lia.
          + destruct (over_dec (exec1 s w)) as [|No]; auto. right. destruct A as [Pn I].
            pose proof (other_untouched R Pn N Nw No) as U. split; [split; [now apply keep|]|].
            * destruct (un_asg U) as [[-> _]|[[l [_ [-> _]]]|[E _]]]; auto; [apply in_or_app; auto|]. rewrite E in I. destruct I.
            * unfold dist. now rewrite (un_pc U), (un_inc U), (un_pod U).
        - intros s R A. destruct (Own _ R A) as [|[]]; auto.
      Qed.

      Lemma mu1_untouched s s' i : untouched s s' i -> mu1 s' i <= mu1 s i.
      Proof. intros U. unfold mu1. rewrite (un_pc U). pose proof (un_supply U). lia. Qed.

      (** A worker that is busy exposes its deferred packets and starts sending. *)
      Lemma pod_busy l i : l < lanes -> i < lanes ->
        leads (fun s => in_pod l i s /\ busy s l) (fun s => (over s \/ in_inc i s) \/ (in_pod l i s /\ pcs s l = Expose)).
      Proof.
        intros Hl Hi.
        assert (Own : forall s, reachable s -> in_pod l i s /\ busy s l ->
                  ((over (exec1 s (W l)) \/ in_inc i (exec1 s (W l))) \/ (in_pod l i (exec1 s (W l)) /\ pcs (exec1 s (W l)) l = Expose)) \/
                  ((in_pod l i (exec1 s (W l)) /\ busy (exec1 s (W l)) l) /\ mu1 (exec1 s (W l)) l < mu1 s l)).
        { intros s R [[Pn I] B]. destruct (over_dec (exec1 s (W l))) as [|No]; auto. pose proof (keep (W l) R Pn Logic.I No) as K.
          destruct (busy_step R Pn Hl B No) as [T|T].
          - destruct (Nat.eq_dec i l) as [->|Nl].
            + destruct (bu_own T) as [E|E].
              * right. split; [split; [split; auto; now rewrite E|apply (bu_pc T)]|apply (bu_mu T)].
              * left. left. right. split; auto. now rewrite E.
            + right. split; [split; [split; auto; now rewrite (bu_pod T)|apply (bu_pc T)]|apply (bu_mu T)].
          - left. right. split; [split; auto; now rewrite (ex_pod T)|apply (ex_pc T)]. }
        apply ensures with (mu := fun s => mu1 s l) (t := W l); [exact Hl| |].
        - intros s w R A N. destruct (who_dec w l) as [->|Nw].
          + destruct (Own _ R A) as [|[]]; auto. right. split; auto. lia.
          + destruct (over_dec (exec1 s w)) as [|No]; auto. right. destruct A as [[Pn I] B].
            pose proof (other_untouched R Pn N Nw No) as U. split; [split; [split; [now apply keep|now rewrite (un_pod U)]|]|].
            * unfold busy. now rewrite (un_pc U).
            * now apply mu1_untouched.
        - intros s R A. destruct (Own _ R A) as [|[]]; auto.
      Qed.

      Definition sending i (s : sys) l : Prop := pcs s l = Expose \/ exists j en, pcs s l = Send j en /\ j <= i.
      Definition mu2 (s : sys) l : nat := match pcs s l with Expose => lanes + 2 | Send j _ => lanes + 1 - j | _ => 0 end.
      Lemma pod_sending l i : l < lanes -> i < lanes ->
        leads (fun s => in_pod l i s /\ sending i s l) (fun s => over s \/ in_asg i s).
      Proof.
        intros Hl Hi.
        assert (Own : forall s, reachable s -> in_pod l i s /\ sending i s l ->
                  (over (exec1 s (W l)) \/ in_asg i (exec1 s (W l))) \/
                  ((in_pod l i (exec1 s (W l)) /\ sending i (exec1 s (W l)) l) /\ mu2 (exec1 s (W l)) l < mu2 s l)).
        { intros s R [[Pn I] B]. destruct (over_dec (exec1 s (W l))) as [|No]; auto. pose proof (keep (W l) R Pn Logic.I No) as K.
          revert No K. unfold in_asg, in_pod, sending, mu2. rewrite exec1_worker by auto. unfold PortsExec.exec_worker.
          destruct B as [Ep|[j [en [Ep Lj]]]]; rewrite Ep.
          - simpl. rewrite upd_same. intros _ K. right. split; [|lia]. split; auto. right. exists 0, false. split; auto. lia.
          - rewrite (proj2 (Nat.ltb_lt j lanes)) by lia. destruct (isnil (pod s l j)) eqn:Ed; simpl; rewrite ?upd_same.
            + intros _ K. right. split; [|lia]. split; auto. right. exists (j + 1), en. split; auto.
              apply isnil_true in Ed. destruct (Nat.eq_dec j i) as [->|]; [rewrite Ed in I; destruct I|lia].
            + intros _ K. destruct (Nat.eq_dec i j) as [->|N].
              * left. right. split; auto. rewrite upd_same. apply in_or_app. auto.
              * right. split; [|lia]. split; [split; auto; now rewrite upd_diff|]. right. exists (j + 1), true. split; auto. lia. }
        apply ensures with (mu := fun s => mu2 s l) (t := W l); [exact Hl| |].
        - intros s w R A N. destruct (who_dec w l) as [->|Nw].
          + destruct (Own _ R A) as [|[]]; auto. right. split; auto. lia.
          + destruct (over_dec (exec1 s w)) as [|No]; auto. right. destruct A as [[Pn I] B].
            pose proof (other_untouched R Pn N Nw No) as U. unfold in_pod, sending, mu2. rewrite (un_pc U), (un_pod U).
            split; [split; [split; auto; now apply keep|exact B]|lia].
        - intros s R A. destruct (Own _ R A) as [|[]]; auto.
      Qed.

      Lemma pod_over l i : l < lanes -> i < lanes -> leads (in_pod l i) over.
      Proof.
        intros Hl Hi.
        assert (Sd : leads (fun s => in_pod l i s /\ sending i s l) over).
        { eapply leads_trans; [now apply pod_sending|]. apply leads_or; [now apply leads_refl|now apply asg_over]. }
        assert (Bu : leads (fun s => in_pod l i s /\ busy s l) over).
        { eapply leads_trans; [now apply pod_busy|]. apply leads_or; [apply leads_or; [now apply leads_refl|now apply inc_over]|].
          eapply leads_trans; [|exact Sd]. apply leads_refl. intros s [A B]. split; auto. left. exact B. }
        apply leads_reach. eapply leads_trans; [|exact (leads_or Sd Bu)]. apply leads_refl. intros s [R [Pn I]].
        destruct (inv_reachable dest_ok R) as [Sh _]. pose proof (sh_pod Sh Hl) as Pk. unfold podok in Pk.
        unfold sending, busy. destruct (pcs s l) as [| | |j en|j| | |] eqn:Ep; try (rewrite Pk in I by auto; destruct I).
        - right. split; [split; auto|auto].
        - right. split; [split; auto|auto].
        - left. split; [split; auto|auto].
        - left. split; [split; auto|]. right. exists j, en. split; auto. destruct (le_lt_dec j i); auto. rewrite Pk in I by auto. destruct I.
      Qed.
      (** Deferred packets are exposed. *)
      Lemma ldef_busy i : i < lanes ->
        leads (fun s => in_ldef i s /\ busy s i) (fun s => over s \/ (in_ldef i s /\ pcs s i = Expose)).
      Proof.
        intros Hi.
        assert (Own : forall s, reachable s -> in_ldef i s /\ busy s i ->
                  (over (exec1 s (W i)) \/ (in_ldef i (exec1 s (W i)) /\ pcs (exec1 s (W i)) i = Expose)) \/
                  ((in_ldef i (exec1 s (W i)) /\ busy (exec1 s (W i)) i) /\ mu1 (exec1 s (W i)) i < mu1 s i)).
        { intros s R [[Pn I] B]. destruct (over_dec (exec1 s (W i))) as [|No]; auto. pose proof (keep (W i) R Pn Logic.I No) as K.
          destruct (busy_step R Pn Hi B No) as [T|T].
          - right. split; [split; [split; auto; now apply (bu_ldef T)|apply (bu_pc T)]|apply (bu_mu T)].
          - left. right. split; [split; auto; now rewrite (ex_ldef T)|apply (ex_pc T)]. }
        apply ensures with (mu := fun s => mu1 s i) (t := W i); [exact Hi| |].
        - intros s w R A N. destruct (who_dec w i) as [->|Nw].
          + destruct (Own _ R A) as [|[]]; auto. right. split; auto. lia.
          + destruct (over_dec (exec1 s w)) as [|No]; auto. right. destruct A as [[Pn I] B].
            pose proof (other_untouched R Pn N Nw No) as U. split; [split; [split; [now apply keep|now rewrite (un_ldef U)]|]|].
            * unfold busy. now rewrite (un_pc U).
            * now apply mu1_untouched.
        - intros s R A. destruct (Own _ R A) as [|[]]; auto.
      Qed.
      Lemma ldef_expose i : i < lanes ->
        leads (fun s => in_ldef i s /\ pcs s i = Expose) (fun s => over s \/ in_dfr i s).
      Proof.
        intros Hi. apply ensures with (mu := fun s => 0) (t := W i); [exact Hi| |].
        - intros s w R [[Pn I] B] N. destruct (over_dec (exec1 s w)) as [|No]; auto. destruct (who_dec w i) as [->|Nw].
          + left. right. split; [now apply keep|]. rewrite exec1_worker by auto. unfold PortsExec.exec_worker. rewrite B. simpl.
            rewrite upd_same. apply in_or_app. auto.
          + right. pose proof (other_untouched R Pn N Nw No) as U. unfold in_ldef. rewrite (un_pc U), (un_ldef U).
            split; [split; [split; auto; now apply keep|auto]|auto].
        - intros s R [[Pn I] B]. left. destruct (over_dec (exec1 s (W i))) as [|No]; auto.
          right. split; [now apply keep|]. rewrite exec1_worker by auto. unfold PortsExec.exec_worker. rewrite B. simpl.
          rewrite upd_same. apply in_or_app. auto.
      Qed.
      Lemma ldef_dfr i : i < lanes -> leads (in_ldef i) (fun s => over s \/ in_dfr i s).
      Proof.
        intros Hi. pose proof (ldef_expose Hi) as Ex.
        assert (Bu : leads (fun s => in_ldef i s /\ busy s i) (fun s => over s \/ in_dfr i s)).
        { eapply leads_trans; [now apply ldef_busy|]. apply leads_or; [apply leads_refl; auto|exact Ex]. }
        apply leads_reach. eapply leads_trans; [|exact (leads_or Ex Bu)]. apply leads_refl. intros s [R [Pn I]].
        destruct (inv_reachable dest_ok R) as [Sh _]. pose proof (sh_ldef Sh Hi) as L. unfold ldefok in L.
        unfold busy. destruct (pcs s i) eqn:Ep; try (rewrite L in I; destruct I).
        - right. split; [split; auto|auto].
        - right. split; [split; auto|auto].
        - left. split; [split; auto|auto].
      Qed.

      (** ** Exposed packets are assigned again. *)
      Section Exposed.
        Variable i : nat.
        Hypothesis Hi : i < lanes.
        Definition gap (s : sys) : nat := 2 * undelivered s + length (asg s i).

        Lemma assigned_shrinks g :
          leads (fun s => in_dfr i s /\ asg s i <> [] /\ gap s <= g) (fun s => over s \/ (in_dfr i s /\ gap s < g)).
        Proof.
          assert (Own : forall s, reachable s -> in_dfr i s /\ asg s i <> [] /\ gap s <= g ->
                    (over (exec1 s (W i)) \/ (in_dfr i (exec1 s (W i)) /\ gap (exec1 s (W i)) < g)) \/
                    ((in_dfr i (exec1 s (W i)) /\ asg (exec1 s (W i)) i <> [] /\ gap (exec1 s (W i)) <= g) /\ dist (exec1 s (W i)) i < dist s i)).
          { intros s R [[Pn I] [Ha G]]. destruct (over_dec (exec1 s (W i))) as [|No]; auto. pose proof (keep (W i) R Pn Logic.I No) as K.
            pose proof (@undelivered_le s (W i) R Pn Logic.I No) as U.
            destruct (own_step R Pn Hi Ha No) as [T|T].
            - left. right. split; [split; auto; now rewrite (ta_dfr T)|]. unfold gap in *. rewrite (ta_asg T). simpl length.
              apply nonempty_len in Ha. lia.
            - right. split; [|apply (ne_dist T)]. split; [split; auto; now apply (ne_dfr T)|]. split.
              + intros E. pose proof (ne_asg T) as Q. rewrite E in Q. destruct (asg s i) as [|x]; [easy|]. apply (Q x). simpl. auto.
              + pose proof (ne_g T). unfold gap in *. lia. }
          apply ensures with (mu := fun s => dist s i) (t := W i); [exact Hi| |].
          - intros s w R A N. destruct (who_dec w i) as [->|Nw].
            + destruct (Own _ R A) as [|[]]; auto. right. split; auto. lia.
            + destruct (over_dec (exec1 s w)) as [|No]; auto. right. destruct A as [[Pn I] [Ha G]].
              pose proof (other_untouched R Pn N Nw No) as U. pose proof (@undelivered_le s w R Pn N No) as UL. split.
              * destruct (un_asg U) as [[E1 E2]|[[l [_ [E1 [E2 [E3 E4]]]]]|[E _]]]; [| |easy].
                -- split; [split; [now apply keep|now rewrite E2]|]. unfold gap in *. rewrite E1. split; auto. lia.
                -- split; [split; [now apply keep|now rewrite E2]|]. unfold gap in *. rewrite E1, app_length. split; [|lia].
                   intros E. apply app_eq_nil in E. tauto.
              * unfold dist. now rewrite (un_pc U), (un_inc U), (un_pod U).
          - intros s R A. destruct (Own _ R A) as [|[]]; auto.
        Qed.

        Variable g : nat.
        Definition idle (s : sys) : Prop := in_dfr i s /\ asg s i = [] /\ gap s <= g.
        Definition target (s : sys) : Prop :=
          over s \/ in_asg i s \/ (in_dfr i s /\ asg s i <> [] /\ gap s <= g) \/ (in_dfr i s /\ gap s < g).

        Lemma idle_keep s w : reachable s -> idle s -> no_spurious w -> target (exec1 s w) \/ idle (exec1 s w).
        Proof.
          intros R [[Pn I] [Ha G]] N. destruct (over_dec (exec1 s w)) as [|No]; [left; left; auto|].
          pose proof (keep w R Pn N No) as K. pose proof (@undelivered_le s w R Pn N No) as UL. unfold target, idle.
          destruct (who_dec w i) as [->|Nw].
          - assert (Q : (asg (exec1 s (W i)) i = [] /\ incl (dfr s i) (dfr (exec1 s (W i)) i)) \/
                        (asg (exec1 s (W i)) i = dfr s i) \/
                        (gap (exec1 s (W i)) < gap s /\ dfr (exec1 s (W i)) i = dfr s i)).
            { revert No. rewrite exec1_worker by exact Hi. unfold over. destruct Pn as [_ [_ [Hk _]]]. unfold PortsExec.exec_worker, gap.
              destruct (pcs s i).
              - destruct (inc s i) as [|q rest]; [destruct (isnil (pod s i i)); simpl; auto using incl_refl|].
                destruct (task (sh s) q) as [[s1 out]|]; simpl; intros No; [lia|auto using incl_refl].
              - destruct (isnil (asg s i)); simpl; rewrite ?upd_same; auto using incl_refl.
              - simpl. rewrite upd_same. intros _. left. split; auto. apply incl_appr, incl_refl.
              - destruct (Nat.ltb_spec j lanes) as [Hj|]; [destruct (isnil (pod s i j)) eqn:Ed|]; simpl; auto using incl_refl.
                intros _. right. right. split; auto. apply isnil_false, nonempty_len in Ed. unfold undelivered. simpl.
                pose proof (len_pod (pod s) [] Hi Hj) as L. simpl in L.
                destruct (Nat.eq_dec i j) as [->|N2]; [rewrite upd_same, app_length|rewrite (upd_diff _ _ N2)]; lia.
              - destruct (Nat.ltb_spec j lanes) as [Hj|]; simpl; auto using incl_refl. intros _.
                destruct (isnil (asg s j)) eqn:Ea; simpl; auto using incl_refl. destruct (isnil (dfr s j)) eqn:Ed; simpl; auto using incl_refl.
                unfold upd. destruct (Nat.eqb_spec i j) as [->|]; auto using incl_refl.
              - destruct (isnil (asg s i)); [destruct (dismissed s i); [|destruct (Nat.eqb (running s) 0)]|]; simpl; rewrite ?upd_same; auto using incl_refl.
              - destruct (woken s i); simpl; rewrite ?upd_same; auto using incl_refl.
              - simpl; auto using incl_refl. }
            destruct Q as [[Q1 Q2]|[Q1|[Q1 Q2]]].
            + right. split; [split; auto|]. split; auto. unfold gap in *. rewrite Q1. simpl length. lia.
            + left. right. left. split; auto. now rewrite Q1.
            + left. right. right. right. split; [split; auto; now rewrite Q2|lia].
          - pose proof (other_untouched R Pn N Nw No) as U.
            destruct (un_asg U) as [[E1 E2]|[[l [_ [E1 [E2 [E3 E4]]]]]|[E [_ [E1 _]]]]].
            + right. split; [split; auto; now rewrite E2|]. unfold gap in *. rewrite E1. split; auto. lia.
            + left. right. right. right. split; [split; auto; now rewrite E2|]. unfold gap in *. rewrite E1, app_length.
              apply nonempty_len in E3. lia.
            + left. right. left. split; auto. now rewrite E1.
        Qed.

        Section Worker.
          Variable k' : nat.
          Hypothesis Hk : k' < lanes.

          Lemma idle_woken : leads (fun s => idle s /\ asg s k' <> []) (fun s => target s \/ (idle s /\ busy s k')).
          Proof.
            assert (Own : forall s, reachable s -> idle s /\ asg s k' <> [] ->
                      (target (exec1 s (W k')) \/ (idle (exec1 s (W k')) /\ busy (exec1 s (W k')) k')) \/
                      ((idle (exec1 s (W k')) /\ asg (exec1 s (W k')) k' <> []) /\ dist (exec1 s (W k')) k' < dist s k')).
            { intros s R [Id Ha]. destruct (idle_keep (W k') R Id Logic.I) as [T|Id']; auto.
              destruct (over_dec (exec1 s (W k'))) as [|No]; [left; left; left; auto|]. destruct Id as [[Pn I] _].
              destruct (own_step R Pn Hk Ha No) as [T|T].
              - left. right. split; auto. left. apply (ta_pc T).
              - right. split; [|apply (ne_dist T)]. split; auto. intros E. pose proof (ne_asg T) as Q. rewrite E in Q.
                destruct (asg s k') as [|x]; [easy|]. apply (Q x). simpl. auto. }
            apply ensures with (mu := fun s => dist s k') (t := W k'); [exact Hk| |].
            - intros s w R A N. destruct (who_dec w k') as [->|Nw].
              + destruct (Own _ R A) as [|[]]; auto. right. split; auto. lia.
              + destruct A as [Id Ha]. destruct (idle_keep w R Id N) as [T|Id']; auto.
                destruct (over_dec (exec1 s w)) as [|No]; [left; left; left; auto|]. right. destruct Id as [[Pn I] _].
                pose proof (other_untouched R Pn N Nw No) as U. split; [split; auto|].
                * destruct (un_asg U) as [[-> _]|[[l [_ [-> _]]]|[E _]]]; auto. intros E. apply app_eq_nil in E. tauto.
                * unfold dist. now rewrite (un_pc U), (un_inc U), (un_pod U).
            - intros s R A. destruct (Own _ R A) as [|[]]; auto.
          Qed.

          Lemma idle_busy : leads (fun s => idle s /\ busy s k') (fun s => target s \/ (idle s /\ pcs s k' = Expose)).
          Proof.
            assert (Own : forall s, reachable s -> idle s /\ busy s k' ->
                      (target (exec1 s (W k')) \/ (idle (exec1 s (W k')) /\ pcs (exec1 s (W k')) k' = Expose)) \/
                      ((idle (exec1 s (W k')) /\ busy (exec1 s (W k')) k') /\ mu1 (exec1 s (W k')) k' < mu1 s k')).
            { intros s R [Id B]. destruct (idle_keep (W k') R Id Logic.I) as [T|Id']; auto.
              destruct (over_dec (exec1 s (W k'))) as [|No]; [left; left; left; auto|]. destruct Id as [[Pn I] _].
              destruct (busy_step R Pn Hk B No) as [T|T].
              - right. split; [split; auto; apply (bu_pc T)|apply (bu_mu T)].
              - left. right. split; auto. apply (ex_pc T). }
            apply ensures with (mu := fun s => mu1 s k') (t := W k'); [exact Hk| |].
            - intros s w R A N. destruct (who_dec w k') as [->|Nw].
              + destruct (Own _ R A) as [|[]]; auto. right. split; auto. lia.
              + destruct A as [Id B]. destruct (idle_keep w R Id N) as [T|Id']; auto.
                destruct (over_dec (exec1 s w)) as [|No]; [left; left; left; auto|]. right. destruct Id as [[Pn I] _].
                pose proof (other_untouched R Pn N Nw No) as U. split; [split; auto|].
                * unfold busy. now rewrite (un_pc U).
                * now apply mu1_untouched.
            - intros s R A. destruct (Own _ R A) as [|[]]; auto.
          Qed.

          Definition sweeping (s : sys) : Prop :=
            pcs s k' = Expose \/ (exists j, pcs s k' = Send j false) \/ (exists j, pcs s k' = Undefer j /\ j <= i).
          Definition mu3 (s : sys) : nat :=
            match pcs s k' with Expose => 2 * lanes + 5 | Send j _ => lanes + 3 + (lanes - j) | Undefer j => lanes + 1 - j | _ => 0 end.

          Lemma idle_sweeping : leads (fun s => idle s /\ sweeping s) target.
          Proof.
            assert (Own : forall s, reachable s -> idle s /\ sweeping s ->
                      target (exec1 s (W k')) \/ ((idle (exec1 s (W k')) /\ sweeping (exec1 s (W k'))) /\ mu3 (exec1 s (W k')) < mu3 s)).
            { intros s R [Id B]. destruct (over_dec (exec1 s (W k'))) as [|No]; [left; left; auto|].
              destruct (idle_keep (W k') R Id Logic.I) as [T|Id']; auto.
              assert (Q : (sweeping (exec1 s (W k')) /\ mu3 (exec1 s (W k')) < mu3 s) \/ in_asg i (exec1 s (W k')) \/ gap (exec1 s (W k')) < gap s).
              { destruct Id as [[Pn I] [Ha G]]. pose proof (keep (W k') R Pn Logic.I No) as K. revert K. clear No Id'. unfold sweeping, mu3, in_asg.
                rewrite exec1_worker by exact Hk. unfold PortsExec.exec_worker.
                destruct B as [Ep|[[j Ep]|[j [Ep Lj]]]]; rewrite Ep.
                - simpl. rewrite upd_same. intros _. left. split; eauto. lia.
                - destruct (Nat.ltb_spec j lanes) as [Hj|Hj]; [destruct (isnil (pod s k' j)) eqn:Ed|]; simpl; rewrite ?upd_same; intros _.
                  + left. split; eauto. lia.
                  + right. right. apply isnil_false, nonempty_len in Ed. unfold gap, undelivered. simpl.
                    pose proof (len_pod (pod s) [] Hk Hj) as L. simpl in L.
                    destruct (Nat.eq_dec i j) as [->|N2]; [rewrite upd_same, app_length|rewrite (upd_diff _ _ N2)]; lia.
                  + left. split; [|lia]. right. right. exists 0. split; auto. lia.
                - rewrite (proj2 (Nat.ltb_lt j lanes)) by lia. simpl. rewrite upd_same. intros K.
                  destruct (Nat.eq_dec j i) as [->|N2].
                  + right. left. split; auto. rewrite Ha. simpl. destruct (dfr s i) as [|x r] eqn:Ed; [destruct I|]. simpl. now rewrite upd_same.
                  + left. split; [|lia]. right. right. exists (j + 1). split; auto. lia. }
              destruct Q as [[Q1 Q2]|[Q|Q]].
              - right. auto.
              - left. right. left. exact Q.
              - left. right. right. right. destruct Id as [_ [_ G]]. split; [apply Id'|lia]. }
            apply ensures with (mu := mu3) (t := W k'); [exact Hk| |].
            - intros s w R A N. destruct (who_dec w k') as [->|Nw].
              + destruct (Own _ R A) as [|[]]; auto. right. split; auto. lia.
              + destruct A as [Id B]. destruct (idle_keep w R Id N) as [T|Id']; auto.
                destruct (over_dec (exec1 s w)) as [|No]; [left; left; auto|]. right. destruct Id as [[Pn I] _].
                pose proof (other_untouched R Pn N Nw No) as U. unfold sweeping, mu3 in *. rewrite (un_pc U). auto.
            - intros s R A. destruct (Own _ R A) as [|[]]; auto.
          Qed.

          Lemma idle_resp : leads (fun s => idle s /\ resp s i k') target.
          Proof.
            assert (Sw := idle_sweeping).
            assert (Bu : leads (fun s => idle s /\ busy s k') target).
            { eapply leads_trans; [apply idle_busy|]. apply leads_or; [now apply leads_refl|].
              eapply leads_trans; [|exact Sw]. apply leads_refl. intros s [A B]. split; auto. left. exact B. }
            assert (Wo : leads (fun s => idle s /\ asg s k' <> []) target).
            { eapply leads_trans; [apply idle_woken|]. apply leads_or; [now apply leads_refl|exact Bu]. }
            eapply leads_trans; [|exact (leads_or Wo (leads_or Bu Sw))]. apply leads_refl. intros s [Id [B|B]]; auto.
            right. unfold busy, sweeping. destruct (pcs s k') as [| | |j []|j| | |]; try easy; eauto 10.
          Qed.
        End Worker.

        Lemma idle_target : leads idle target.
        Proof.
          apply leads_reach. intros n [R Id]. destruct Id as [[Pn I] X]. pose proof (pending_early R Pn) as [_ E].
          destruct (e_resp E (a := i)) as [w [Hw Rw]]; [exact Hi|intros Q; now rewrite Q in I|].
          apply (idle_resp Hw). split; auto. split; auto. split; auto.
        Qed.
      End Exposed.

      Lemma dfr_over i : i < lanes -> leads (in_dfr i) over.
      Proof.
        intros Hi. eapply leads_trans; [|exact (leads_or (@leads_refl over over (fun _ H => H)) (asg_over Hi))].
        apply leads_measure with (mu := gap i). intros g.
        assert (Sh : leads (fun s => in_dfr i s /\ asg s i <> [] /\ gap i s <= g)
                       (fun s => (over s \/ in_asg i s) \/ (in_dfr i s /\ gap i s < g))).
        { eapply leads_weaken; [|apply (assigned_shrinks Hi)]. simpl. tauto. }
        assert (Id : leads (idle i g) (fun s => (over s \/ in_asg i s) \/ (in_dfr i s /\ gap i s < g))).
        { eapply leads_trans; [apply (idle_target Hi)|]. unfold target.
          apply leads_or; [apply leads_refl; auto|]. apply leads_or; [apply leads_refl; auto|].
          apply leads_or; [exact Sh|apply leads_refl; auto]. }
        eapply leads_trans; [|exact (leads_or Sh Id)]. apply leads_refl. intros s [A B]. unfold idle.
        destruct (asg s i) eqn:E; [right; auto|left]. split; auto. split; auto. discriminate.
      Qed.

      Lemma pending_over : leads pending over.
      Proof.
        intros n Pn. pose proof Pn as [_ [_ [_ I]]]. unfold Ports.in_flight in I. rewrite !in_app_iff, !flat_in in I.
        destruct I as [[i [Hi I]]|[[l [Hl I]]|[[i [Hi I]]|[[i [Hi I]]|[i [Hi I]]]]]].
        - apply (inc_over Hi). split; auto.
        - apply flat_in in I as [i [Hi I]]. apply (pod_over Hl Hi). split; auto.
        - destruct (ldef_dfr Hi n) as [m [Lm [Om|Dm]]]; [split; auto|eauto|].
          destruct (dfr_over Hi m Dm) as [q [Lq Oq]]. exists q. split; auto. lia.
        - apply (asg_over Hi). split; auto.
        - apply (dfr_over Hi). split; auto.
      Qed.
    End Pending.
    (** ** The start and the end of the protocol *)
    Lemma acc_progress (A B : sys -> Prop) (R : sys -> sys -> Prop) :
      (forall s, reachable s -> A s -> Acc R s) ->
      (forall s s', reachable s -> A s -> step s s' -> B s' \/ (A s' /\ R s' s)) ->
      (forall s, reachable s -> A s -> B s \/ exists s', step s s') ->
      leads A B.
    Proof.
      intros Hacc Hall Hone.
      assert (G : forall x, Acc R x -> forall n, at_ n = x -> A x -> exists m, n <= m /\ B (at_ m)).
      { intros x Hx. induction Hx as [x _ IH]. intros n En An.
        pose proof (at_reachable n) as Rn. rewrite En in Rn.
        destruct (Hone _ Rn An) as [Bn|[s' Hs]]; [exists n; rewrite En; auto|].
        destruct (step_exec1 Hs) as [w [Hw Ew]]. destruct (proj2 fair_f w n Hw) as [m [Lm Em]].
        remember (m - n) as d eqn:Ed. revert n En Rn Lm Ed. induction d as [|d IHd]; intros n En Rn Lm Ed.
        - assert (m = n) by lia. subst m. destruct (Hall _ _ Rn An Hs) as [Bn|[An' Ln]].
          + exists (Datatypes.S n). split; [lia|]. simpl. now rewrite En, Em, Ew.
          + destruct (IH s' Ln (Datatypes.S n)) as [q [Lq Bq]]; auto; [simpl; now rewrite En, Em, Ew|]. exists q. split; auto. lia.
        - destruct (exec1_step (at_ n) (f n) (proj1 fair_f n)) as [E|Hst].
          + destruct (IHd (Datatypes.S n)) as [q [Lq Bq]]; simpl; rewrite ?E; auto; try lia. exists q. split; auto. lia.
          + rewrite En in Hst. destruct (Hall _ _ Rn An Hst) as [Bn|[An' Ln]]; [exists (Datatypes.S n); split; [lia|]; simpl; now rewrite En|].
            destruct (IH _ Ln (Datatypes.S n)) as [q [Lq Bq]]; auto; [simpl; now rewrite En|]. exists q. split; auto. lia. }
      intros n An. eapply G; eauto. apply Hacc; auto. apply at_reachable.
    Qed.

    (** Without packets it makes no difference what the task does. *)
    Definition idle_task (s : S) (p : P) : option (S * list P) := Some (s, []).
    Notation step0 := (Ports.step lanes dest idle_task p0).

    Lemma idle_terminates c : terminates idle_task c.
    Proof.
      destruct c as [s1 b1]. apply terminates_measure with (m := fun _ b => length b).
      - intros s b b' H. now rewrite (Permutation_length H).
      - intros s q R s' out H. injection H as <- <-. simpl. lia.
    Qed.

    Lemma empty_step s s' : in_flight s = [] -> step s s' -> step0 s s'.
    Proof.
      intros E H. pose proof (proj1 (flight_nil lanes s) E) as F.
      destruct H as [i p rest s1 out Hi Hpc Hinc Ht | i p rest Hi Hpc Hinc Ht | | | | | | | | | | | | | | | | | | | | |];
        try (econstructor; eassumption).
      - destruct (F i Hi) as [Q _]. rewrite Hinc in Q. discriminate.
      - destruct (F i Hi) as [Q _]. rewrite Hinc in Q. discriminate.
    Qed.

    Lemma send_step s s' : inv lanes s -> mainpc s = MSend -> (step s s' \/ step0 s s') -> mainpc s' = MWait.
    Proof.
      intros [Hs Hi] Hm H. rewrite Hm in Hi.
      assert (Hr0 : running s = 0).
      { destruct (e_phase Hi) as [(A & _)|[(_ & _ & B & _)|(A & _)]]; congruence. }
      assert (N : forall i, i < lanes -> (pcs s i <> Sleep \/ woken s i = true) -> False).
      { intros i Hi' Hp. pose proof (worker_pos Hs Hi Hi' Hp). lia. }
      destruct H as [H|H]; destruct H; try (exfalso; apply (N i); auto; left; congruence); simpl; auto; congruence.
    Qed.

    Lemma idle_acc s : inv lanes s -> Acc (fun y x => step0 x y) s.
    Proof.
      assert (Nd : forall s p, idle_task s p <> None) by discriminate.
      assert (A1 : forall s, inv lanes s -> mainpc s <> MSend -> mainpc s <> MStart -> Acc (fun y x => step0 x y) s).
      { intros t I N1 N2. refine (@acc_from S P lanes dest idle_task p0 dest_ok Nd t I (idle_terminates _) _ N1).
        intros t' _ _ _ E. congruence. }
      assert (A2 : forall s, inv lanes s -> mainpc s = MSend -> Acc (fun y x => step0 x y) s).
      { intros t I N1. constructor. intros t' H. pose proof (inv_step dest_ok I H) as I'.
        pose proof (send_step I N1 (or_intror H)) as Q. apply A1; auto; congruence. }
      intros I. destruct (mainpc s) eqn:E; auto; try (apply A1; auto; congruence).
      refine (@acc_from S P lanes dest idle_task p0 dest_ok Nd s I (idle_terminates _) _ _); [|congruence].
      intros t' I' E' _ _. now apply A2.
    Qed.

    Definition starting (s : sys) : Prop := mainpc s = MStart \/ mainpc s = MSend.

    Lemma starting_step s s' : reachable s -> starting s -> step s s' -> mainpc s' = MWait \/ (starting s' /\ step0 s s').
    Proof.
      intros R [A|A] H.
      - pose proof (refines dest_ok R) as F. rewrite A in F. destruct F as [_ [F _]].
        right. split; [|now apply empty_step]. unfold starting. destruct H; simpl; auto; congruence.
      - left. eapply send_step; [|exact A|left; exact H]. exact (inv_reachable dest_ok R).
    Qed.
    Lemma starts : leads starting (fun s => mainpc s = MWait).
    Proof.
      apply acc_progress with (R := fun y x => step0 x y).
      - intros s R _. apply idle_acc. exact (inv_reachable dest_ok R).
      - intros s s' R A H. now apply starting_step.
      - intros s R A. right. apply (progress dest_ok R). destruct A; congruence.
    Qed.

    Lemma started_step s s' : reachable s -> ~ starting s -> step s s' ->
      ~ starting s' /\
      ((sh s' = sh s /\ hist s' = hist s /\ Permutation (in_flight s') (in_flight s)) \/
       astep task (sh s, in_flight s) (sh s', in_flight s')).
    Proof.
      intros R A H. pose proof (inv_reachable dest_ok R) as [Hs Hi].
      split; [unfold starting in *; destruct H; simpl; auto; intuition congruence|].
      pose proof (step_effect dest_ok (sh_inc Hs) H) as F.
      destruct F as [i q R' out Hi1 Hpc Hp Ht Hh Hl' Hst F1 F2 Hm' | Hm1 Hm2 Hsh Hh Hl' Hst F |
                   Hsh Hh Hl' Hst Hm1 Hm2 F | Hsh Hh Hl' Hst Hm' F | j Hsh Hh Hst Hm1 Hm2 Hl' F]; auto.
      - right. exists q, R', out. simpl. auto.
      - exfalso. apply A. right. auto.
      - left. repeat split; auto. rewrite Hm1 in Hi. pose proof (l_flight Hi) as L. rewrite L in *.
        apply Permutation_nil, app_eq_nil in F as [F1 F2]. now rewrite F2.
    Qed.

    Lemma finishes : leads (fun s => ~ starting s /\ in_flight s = []) (fun s => mainpc s = MDone).
    Proof.
      apply acc_progress with (R := fun y x => step0 x y).
      - intros s R _. apply idle_acc. exact (inv_reachable dest_ok R).
      - intros s s' R [A E] H. right. split; [|now apply empty_step].
        destruct (started_step R A H) as [A' [[_ [_ F]]|(q & R' & out & F & _)]]; split; auto.
        + rewrite E in F. now apply Permutation_sym, Permutation_nil in F.
        + simpl in F. rewrite E in F. now apply Permutation_nil in F.
      - intros s R [A E]. destruct (mainpc s) eqn:Em; auto; right; apply (progress dest_ok R); congruence.
    Qed.

    (** ** The whole of it *)
    Hypothesis finite : terminates task (s0, [p0]).
    Hypothesis not_stuck : forall s b, mruns task (s0, [p0]) (s, b) -> b <> [] -> exists p, In p b /\ task s p <> None.

    Lemma started_done c : terminates task c -> forall n, ~ starting (at_ n) ->
      sh (at_ n) = fst c -> Permutation (in_flight (at_ n)) (snd c) -> exists m, n <= m /\ mainpc (at_ m) = MDone.
    Proof.
      intros Hc. induction Hc as [c _ IH]. intros n A Es Pf.
      destruct (in_flight (at_ n)) as [|q0 rest] eqn:Ef; [apply finishes; auto|].
      pose proof (at_reachable n) as R. pose proof (inv_reachable dest_ok R) as [Hs Hi].
      assert (Hm : mainpc (at_ n) = MWait).
      { unfold starting in A. destruct (mainpc (at_ n)) eqn:Em; auto; try tauto; exfalso; [pose proof (l_flight Hi)|pose proof (l_flight Hi)|pose proof (l_flight (proj1 Hi))]; congruence. }
      pose proof (refines dest_ok R) as F. rewrite Hm in F. destruct F as [b [F1 F2]].
      destruct (not_stuck F1) as [p [Ip Hp]].
      { intros ->. apply Permutation_nil in F2. congruence. }
      assert (Pn : pending (sh (at_ n)) (length (hist (at_ n))) p (at_ n)).
      { repeat split; auto. eapply Permutation_in; eauto. }
      destruct (pending_over Hp n Pn) as [m [Lm Om]]. unfold over in Om.
      rewrite <- Ef in Pf. clear Ef Hm F1 F2 b Ip Hp Pn Hs Hi.
      remember (m - n) as d eqn:Ed. revert n A Es Pf R Lm Om Ed. induction d as [|d IHd]; intros n A Es Pf R Lm Om Ed.
      - assert (m = n) by lia. subst m. lia.
      - destruct (exec1_step (at_ n) (f n) (proj1 fair_f n)) as [E|Hst].
        + destruct (IHd (Datatypes.S n)) as [k [Lk Hk]]; simpl; rewrite ?E; auto; try lia. exists k. split; auto. lia.
        + change (exec1 (at_ n) (f n)) with (at_ (Datatypes.S n)) in Hst.
          pose proof (at_reachable (Datatypes.S n)) as R'.
          destruct (started_step R A Hst) as [A' [[E1 [E2 E3]]|H]].
          * destruct (IHd (Datatypes.S n)) as [k [Lk Hk]]; auto; try lia; try congruence.
            -- now rewrite E3.
            -- exists k. split; auto. lia.
          * destruct (IH (sh (at_ (Datatypes.S n)), in_flight (at_ (Datatypes.S n)))) with (n := Datatypes.S n) as [k [Lk Hk]]; auto.
            -- destruct c as [cs cb]. simpl in *. subst cs. now apply astep_perm with (b := in_flight (at_ n)).
            -- exists k. split; auto. lia.
    Qed.

    Theorem fair_done : exists n, mainpc (at_ n) = MDone.
    Proof.
      destruct (@starts 0) as [n [_ Hn]]; [left; reflexivity|].
      pose proof (refines dest_ok (at_reachable n)) as F. rewrite Hn in F. destruct F as [b [F1 F2]].
      destruct (@started_done (sh (at_ n), b)) with (n := n) as [m [_ Hm]]; eauto.
      - eapply terminates_run; eauto.
      - unfold starting. intros [Q|Q]; congruence.
      - now apply Permutation_sym.
    Qed.
  End Schedule.
End Fair.
