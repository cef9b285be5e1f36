(** Spreading: claims C31 and C74 to C78, and kill requests. *)
From Coq Require Import List Arith NArith Lia Bool Permutation.
From Verif Require Import Base Machine Ports PortsProofs PortsTerm PortsExec P_Ports BrigadeProofs Env Graph Visitor Run Pass Fold
  P_Traverse Fabricate Brigade Partition P_Partition P_Killed P_Compose Stretch P_Stretch Spread SpreadProofs.
Import ListNotations.

Set Implicit Arguments.

Local Opaque lane_of.

(** ** The specification *)
Section Spec.
  Variable g : graph word word.
  Variable conn : option word -> word -> list (word * word) * option error.
  Variables veq eeq : word -> word -> bool.

  (** The edge [e] of the graph [h] is what is declared by [d]. *)
  Definition realizes (h : graph word word) (d : word * word) (e : word * nat) : Prop :=
    fst e = fst d /\ In (snd e) (ids h) /\ veq (snd d) (vx h (snd e)) = true.

  (** A graph that is made of [g] by spreading it with the connector [conn] *)
  Record spread_from (h : graph word word) : Prop := {
    sf_wf : wf h;
    sf_root : root h = root g;
    sf_keeps : forall n, In n (ids g) -> In n (ids h) /\ vx h n = vx g n;
    sf_distinct : forall n m, In n (ids h) -> In m (ids h) -> veq (vx h n) (vx h m) = true -> n = m;
    sf_nonterminal : forall n, In n (ids g) -> es g n <> [] -> es h n = es g n;
    sf_terminal : forall n, terminal g n -> exists ds, conn None (vx g n) = (ds, None) /\ Forall2 (realizes h) ds (es h n);
    sf_new : forall n, In n (ids h) -> ~ In n (ids g) ->
      grown g conn veq (vx h n) /\ unknown g veq (vx h n) /\
      exists ds, conn None (vx h n) = (ds, None) /\
        (forall e, In e (es h n) -> exists d, In d ds /\ realizes h d e) /\
        (forall d, In d ds -> exists e, In e (es h n) /\ eeq (fst d) (fst e) = true /\ veq (snd d) (vx h (snd e)) = true) /\
        ForallOrdPairs (fun e e' => eeq (fst e) (fst e') = true -> snd e <> snd e') (es h n)
  }.

  (** The connector declares the same for equal vertices, up to equality. *)
  Definition uniform : Prop := forall v w, veq v w = true ->
    (snd (conn None v) = None -> snd (conn None w) = None) /\
    forall l x, In (l, x) (fst (conn None v)) ->
      exists l' x', In (l', x') (fst (conn None w)) /\ eeq l l' = true /\ veq x x' = true.
End Spec.

(** ** The specification determines the graph up to isomorphism *)
Section Unique.
  Variable g : graph word word.
  Variable conn : option word -> word -> list (word * word) * option error.
  Variables veq eeq : word -> word -> bool.
  Hypothesis Hveq : equivalence veq.
  Hypothesis Heeq : equivalence eeq.
  Hypothesis Hwf : wf g.
  Hypothesis Hu : uniform conn veq eeq.
  Notation spread_from := (spread_from g conn veq eeq).

  Lemma f2_right A B (R : A -> B -> Prop) l l' a : Forall2 R l l' -> In a l -> exists b, In b l' /\ R a b.
  Proof.
    induction 1 as [|x y l l' Hxy _ IH]; [intros []|]. intros [->|H]; [exists y; simpl; auto|].
    destruct (IH H) as (b & ? & ?). exists b. simpl. auto.
  Qed.
  Lemma f2_left A B (R : A -> B -> Prop) l l' b : Forall2 R l l' -> In b l' -> exists a, In a l /\ R a b.
  Proof.
    induction 1 as [|x y l l' Hxy _ IH]; [intros []|]. intros [->|H]; [exists x; simpl; auto|].
    destruct (IH H) as (a & ? & ?). exists a. simpl. auto.
  Qed.

  (** Every vertex that is to be there is there, and nothing went wrong about it. *)
  Lemma represented h : spread_from h -> forall v, grown g conn veq v -> exists m, In m (ids h) /\ veq v (vx h m) = true.
  Proof.
    intros S v H. induction H as [n ds l v Ht Hc Hi|u ds l v Hg (m & IH1 & IH2) Hk Hc Hi].
    - destruct (sf_terminal S Ht) as (ds' & A & B). rewrite Hc in A. injection A as <-.
      destruct (f2_right _ B Hi) as (e & _ & _ & C & D). eauto.
    - assert (Hn : ~ In m (ids g)).
      { intros A. destruct (sf_keeps S m A) as [_ B]. rewrite B in IH2. rewrite (Hk m A) in IH2. discriminate. }
      destruct (sf_new S m IH1 Hn) as (_ & _ & ds' & A & B & C & _).
      destruct (Hu IH2) as [_ U]. rewrite Hc, A in U. destruct (U l v Hi) as (l' & x' & U1 & U2 & U3).
      destruct (C _ U1) as (e & D1 & D2 & D3). exists (snd e). split.
      + destruct (B e D1) as (d & _ & _ & E & _). exact E.
      + eapply (eqv_trans Hveq); [exact U3|exact D3].
  Qed.

  Lemma spread_calm h : spread_from h -> forall u, expected g conn veq u -> snd (conn None u) = None.
  Proof.
    intros S u [(n & A & ->)|[A B]].
    - destruct (sf_terminal S A) as (ds & C & _). now rewrite C.
    - destruct (represented S A) as (m & C & D). assert (Hn : ~ In m (ids g)).
      { intros E. destruct (sf_keeps S m E) as [_ F]. rewrite F, (B m E) in D. discriminate. }
      destruct (sf_new S m C Hn) as (_ & _ & ds & E & _). rewrite (eqv_symb Hveq) in D.
      destruct (Hu D) as [U _]. apply U. now rewrite E.
  Qed.

  Lemma same_old h n m : spread_from h -> In n (ids g) -> In m (ids h) -> veq (vx g n) (vx h m) = true -> m = n.
  Proof.
    intros S A B C. destruct (sf_keeps S n A) as [D E]. symmetry. apply (sf_distinct S); auto. now rewrite E.
  Qed.

  Lemma spread_simulation h1 h2 : spread_from h1 -> spread_from h2 ->
    (forall n1, In n1 (ids h1) -> exists n2, In n2 (ids h2) /\ veq (vx h1 n1) (vx h2 n2) = true /\
       forall n, In n (ids h2) -> veq (vx h1 n1) (vx h2 n) = true -> n = n2) /\
    (forall n1 n2, In n1 (ids h1) -> In n2 (ids h2) -> veq (vx h1 n1) (vx h2 n2) = true ->
       forall l m1, In (l, m1) (es h1 n1) ->
       exists l' m2, In (l', m2) (es h2 n2) /\ eeq l l' = true /\ veq (vx h1 m1) (vx h2 m2) = true).
  Proof.
    intros S1 S2. assert (Sy := eqv_symb Hveq). assert (Tr := eqv_trans Hveq). split.
    - intros n1 A. assert (B : exists n2, In n2 (ids h2) /\ veq (vx h1 n1) (vx h2 n2) = true).
      { destruct (in_dec Nat.eq_dec n1 (ids g)) as [B|B].
        - exists n1. destruct (sf_keeps S1 n1 B) as [_ C]. destruct (sf_keeps S2 n1 B) as [D E].
          rewrite C, E. split; auto. apply (eqv_refl Hveq).
        - destruct (sf_new S1 n1 A B) as (C & _). now apply represented. }
      destruct B as (n2 & B1 & B2). exists n2. split; auto. split; auto. intros n C D. apply (sf_distinct S2); auto.
      eapply Tr; [|exact B2]. now rewrite Sy.
    - intros n1 n2 A1 A2 A l m1 He. destruct (in_dec Nat.eq_dec n1 (ids g)) as [B|B].
      + destruct (sf_keeps S1 n1 B) as [_ C]. rewrite C in A. apply same_old in A; auto. subst n2.
        destruct (es g n1) as [|e q] eqn:E.
        * assert (Ht : terminal g n1) by (split; auto). destruct (sf_terminal S1 Ht) as (ds & D1 & D2).
          destruct (sf_terminal S2 Ht) as (ds' & D3 & D4). rewrite D1 in D3. injection D3 as <-.
          destruct (f2_left _ D2 He) as (d & F1 & F2 & _ & F3). destruct (f2_right _ D4 F1) as ([l' m2] & G1 & G2 & _ & G3).
          simpl in *. exists l', m2. split; auto. subst. split; [apply (eqv_refl Heeq)|]. eapply Tr; [|exact G3]. now rewrite Sy.
        * assert (Hne : es g n1 <> []) by congruence. rewrite (sf_nonterminal S1 n1 B Hne) in He. rewrite (sf_nonterminal S2 n1 B Hne).
          exists l, m1. split; auto. split; [apply (eqv_refl Heeq)|].
          assert (Hm : In m1 (ids g)) by (eapply (wf_closed Hwf); eauto).
          destruct (sf_keeps S1 m1 Hm) as [_ F]. destruct (sf_keeps S2 m1 Hm) as [_ F']. rewrite F, F'. apply (eqv_refl Hveq).
      + destruct (sf_new S1 n1 A1 B) as (_ & K & ds & D1 & D2 & _).
        assert (B2 : ~ In n2 (ids g)).
        { intros F. destruct (sf_keeps S2 n2 F) as [_ F']. rewrite F', (K n2 F) in A. discriminate. }
        destruct (sf_new S2 n2 A2 B2) as (_ & _ & ds' & F1 & _ & F2 & _).
        destruct (D2 _ He) as ([l0 x0] & G1 & G2 & _ & G3). simpl in G2, G3. subst l0.
        destruct (Hu A) as [_ U]. rewrite D1, F1 in U. destruct (U _ _ G1) as (l' & x' & U1 & U2 & U3).
        destruct (F2 _ U1) as ([l2 m2] & V1 & V2 & V3). simpl in *. exists l2, m2. split; auto. split; [eapply (eqv_trans Heeq); eauto|].
        eapply Tr; [rewrite Sy; exact G3|]. eapply Tr; eauto.
  Qed.
End Unique.

Section Results.
  Variable X : env.
  Variable g : graph word word.
  Variable conn : option word -> word -> list (word * word) * option error.
  Variable veq : word -> word -> bool.
  Variable vhash : word -> N.
  Variable eeq : word -> word -> bool.
  Variable ehash : word -> N.
  Variable vertex_limit : nat.
  Variable addr : nat -> nat.
  Variable kills : nat -> nat -> bool.
  Variable dropped : nat -> bool.

  Hypothesis Hl : 0 < lanes X.
  Hypothesis Hveq : equivalence veq.
  Hypothesis Hvh : forall v w, veq v w = true -> vhash v = vhash w.
  Hypothesis Heeq : equivalence eeq.
  Hypothesis Heh : forall x y, eeq x y = true -> ehash x = ehash y.
  Hypothesis Hwf : wf g.
  Hypothesis Hdist : distinct veq g.
  Hypothesis addr_inj : forall i j, addr i = addr j -> i = j.
  Hypothesis addr_new : forall k, ~ In (addr k) (ids g).
  Hypothesis Hk : never_killed kills.

  Notation spread := (spreads X g false conn veq vhash eeq ehash vertex_limit addr kills dropped).
  Notation vl v := (vlane X vhash v).
  Notation good := (good X g conn veq vhash eeq ehash addr).
  Notation node := (node g addr).

  Section End.
    Variable s : sdata.
    Hypothesis G : good s [].
    Notation h := (spread_graph X g false eeq ehash s).

    Lemma lane_started n : node s n -> started s (vl (vert s n)) = true.
    Proof.
      intros Hn. destruct (started s _) eqn:E; auto. destruct (g_unstarted G _ E) as [_ A].
      destruct Hn as [Hn|(k & B & ->)]; [|exfalso; eapply A; eauto].
      rewrite (g_vert G) in E by auto. assert (V := visited_all Hwf G n Hn). destruct V. congruence.
    Qed.
    Lemma ids_node n : In n (ids h) <-> node s n.
    Proof.
      simpl. rewrite in_flat_map. split.
      - intros (l & _ & A). destruct (started s l) eqn:E; [apply (g_queue G) in A; tauto|].
        apply (g_unstarted G) in E as [E _]. rewrite E in A. destruct A.
      - intros A. exists (vl (vert s n)). split.
        + apply in_seq. split; [lia|]. now apply lane_of_lt.
        + apply (g_queue G); auto using lane_started.
    Qed.
    Lemma ids_nodup : NoDup (ids h).
    Proof.
      simpl. assert (A : forall ls, NoDup ls -> NoDup (flat_map (queue s) ls)).
      { induction ls as [|l ls IH]; intros D; simpl; [constructor|]. apply NoDup_cons_iff in D as [D1 D2].
        assert (Q : forall n l, In n (queue s l) -> vl (vert s n) = l).
        { intros n k B. destruct (started s k) eqn:E; [apply (g_queue G) in B; tauto|].
          apply (g_unstarted G) in E as [E _]. rewrite E in B. destruct B. }
        assert (P : forall q, NoDup q -> (forall n, In n q -> In n (queue s l)) -> NoDup (q ++ flat_map (queue s) ls)).
        { induction q as [|n q IHq]; intros B C; simpl; auto. apply NoDup_cons_iff in B as [B1 B2]. constructor.
          - intros E. apply in_app_or in E as [E|E]; [tauto|]. apply in_flat_map in E as (k & E1 & E2).
            apply Q in E2. assert (E3 := Q _ _ (C n (or_introl eq_refl))). congruence.
          - apply IHq; auto. intros m Hm. apply C. now right. }
        apply P; auto. apply (g_nodup G). }
      apply A, seq_NoDup.
    Qed.
    Lemma es_nonleaf n : In n (ids g) -> es g n <> [] -> es h n = es g n.
    Proof.
      intros A B. simpl. unfold finished_edges. rewrite (g_nonleaf G) by auto. rewrite map_map.
      rewrite <- (map_id (es g n)) at 2. apply map_ext. intros [l m]. reflexivity.
    Qed.
    Lemma resolved n i l v : owns g addr s n i l v -> exists m, res s i = Some m /\ node s m /\ veq v (vert s m) = true.
    Proof.
      intros A. destruct (g_owns G A) as [_ [[]|B]]. destruct (res s i) as [m|] eqn:E; [|tauto].
      exists m. split; auto. eapply (g_res G); eauto.
    Qed.
    Lemma realized n i l v : owns g addr s n i l v -> realizes veq h (l, v) (l, remote s (Made i l v)).
    Proof.
      intros A. destruct (resolved A) as (m & B & C & D). simpl. rewrite B. split; [reflexivity|]. simpl snd.
      split; [now apply ids_node|exact D].
    Qed.
    Lemma realized_all n k i0 : node s n -> souts s n = number i0 k -> Forall2 (realizes veq h) k (es h n).
    Proof.
      intros A B. simpl. unfold finished_edges. assert (C : forall b, In b (number i0 k) -> In b (souts s n)) by (now rewrite B).
      rewrite B. clear B. revert i0 C. induction k as [|[l v] k IH]; intros i0 C; [constructor|].
      change (number i0 ((l, v) :: k)) with (Made i0 l v :: number (S i0) k) in *.
      cbn [map blabel]. constructor; [|apply IH; intros; apply C; now right].
      eapply realized with (n := n). split; auto. apply C. now left.
    Qed.

    Lemma good_spread : spread_from g conn veq eeq h.
    Proof.
      assert (Hkeep : forall n, In n (ids g) -> In n (ids h) /\ vx h n = vx g n).
      { intros n A. split; [apply ids_node; left; auto|]. apply (g_vert G); auto. }
      assert (Hterm : forall n, terminal g n -> exists ds, conn None (vx g n) = (ds, None) /\ Forall2 (realizes veq h) ds (es h n)).
      { intros n A. destruct (visited_all Hwf G n (proj1 A)) as [_ V]. destruct (V A) as (_ & i0 & ds & B & C & _).
        exists ds. split; auto. eapply realized_all; eauto. left. apply A. }
      assert (Hnew : forall k, k < nn s -> exists ds, conn None (vert s (addr k)) = (ds, None) /\
                 Forall2 (realizes veq h) (fst (declared X conn veq eeq ehash None (vert s (addr k)))) (es h (addr k))).
      { intros k A. destruct (g_new G A) as (i0 & ds & B & C & _). exists ds. split; auto. eapply realized_all; eauto. right; eauto. }
      assert (Hon : forall n, In n (ids h) -> ~ In n (ids g) -> exists k, k < nn s /\ n = addr k).
      { intros n A B. apply ids_node in A as [A|A]; tauto. }
      split; auto.
      - assert (Hclosed : forall n l m, In n (ids h) -> In (l, m) (es h n) -> In m (ids h)).
        { intros n l m A B.
          assert (F : forall ds, Forall2 (realizes veq h) ds (es h n) -> In m (ids h)).
          { intros ds F. induction F as [|d e ds q R _ IH]; [destruct B|]. destruct B as [->|B]; auto. apply R. }
          apply ids_node in A as [A|(k & A & ->)]; [|destruct (Hnew k A) as (ds & _ & R); eauto].
          destruct (es g n) as [|e q] eqn:E; [destruct (Hterm n) as (ds & _ & R); [split|]; eauto|].
          rewrite es_nonleaf in B by (auto; congruence). apply ids_node. left. eapply (wf_closed Hwf); eauto. }
        assert (Hold : forall n, path g (root g) n -> path h (root h) n).
        { intros n P. induction P as [|b l c P IH Hc]; [constructor|]. eapply path_step; [exact IH|].
          assert (In b (ids g)) by (eapply path_ids; eauto). rewrite es_nonleaf; eauto. destruct (es g b); [destruct Hc|discriminate]. }
        split; auto using ids_nodup.
        + apply ids_node. left. apply (wf_root Hwf).
        + intros n A. apply ids_node in A as [A|(k & A & ->)]; [apply Hold, (wf_reach Hwf), A|].
          induction k as [k IH] using lt_wf_ind. destruct (g_parent G A) as (m & i & l & v & B & C & D).
          apply path_step with (l := l) (b := m).
          * destruct D as [D|(j & D & ->)]; [apply Hold, (wf_reach Hwf), D|]. apply IH; auto. lia.
          * destruct B as [_ B]. cbn [es spread_graph]. unfold finished_edges. apply in_map_iff.
            exists (Made i l v). cbn [blabel remote]. rewrite C. auto.
      - intros n m A B. apply ids_node in A, B. apply (g_distinct G); auto.
      - apply es_nonleaf.
      - intros n A B. destruct (Hon n A B) as (k & C & ->). cbn [vx spread_graph]. split; [apply (g_grown G C)|]. split.
        + intros m D. destruct (veq (vert s (addr k)) (vx g m)) eqn:E; auto. rewrite <- (g_vert G) in E by auto.
          apply (g_distinct G) in E; [|right; eauto|left; auto]. subst m. tauto.
        + destruct (Hnew k C) as (ds & D & F). exists ds. split; auto.
          assert (Ed : snd (conn None (vert s (addr k))) = None) by now rewrite D.
          destruct (declared_dedup X conn ehash Hveq Heeq Heh None (vert s (addr k)) Ed) as (D1 & D2 & D3). rewrite D in *. cbn [fst] in *.
          revert D1 D2 D3 F. generalize (fst (declared X conn veq eeq ehash None (vert s (addr k)))). intros ks D1 D2 D3 F.
          split; [|split].
          * intros e E. assert (Q : exists d, In d ks /\ realizes veq h d e).
            { clear - F E. induction F as [|d e' ds q R _ IH]; [destruct E|]. destruct E as [->|E]; [exists d; simpl; auto|].
              destruct (IH E) as (d' & ? & ?). exists d'. simpl. auto. }
            destruct Q as (d & Q1 & Q2). eauto.
          * intros d E. destruct (D2 d E) as (d' & E1 & E2). apply andb_true_iff in E2 as [E2 E3].
            assert (Q : exists e, In e (es h (addr k)) /\ realizes veq h d' e).
            { clear - F E1. induction F as [|d e ds q R _ IH]; [destruct E1|]. destruct E1 as [->|E]; [exists e; simpl; auto|].
              destruct (IH E) as (e' & ? & ?). exists e'. simpl. auto. }
            destruct Q as (e & Q1 & Q2 & _ & Q3). exists e. split; auto. rewrite Q2. split; auto. eapply (eqv_trans Hveq); eauto.
          * clear - F D3 Hveq. induction F as [|d e ds q R F IH]; [constructor|]. inversion D3 as [|? ? D4 D5]; subst. constructor; auto.
            rewrite Forall_forall in *. intros e' E Ee Es.
            assert (Q : exists d, In d ds /\ realizes veq h d e').
            { clear - F E. induction F as [|d e ds q R _ IH]; [destruct E|]. destruct E as [->|E]; [exists d; simpl; auto|].
              destruct (IH E) as (d' & ? & ?). exists d'. simpl. auto. }
            destruct Q as (d' & Q1 & Q2 & _ & Q3). destruct R as (R1 & _ & R3). specialize (D4 d' Q1). unfold alike in D4.
            rewrite <- R1, <- Q2, Ee in D4. rewrite <- Es in Q3. cbn [andb] in D4.
            rewrite (eqv_symb Hveq) in Q3. now rewrite (eqv_trans Hveq _ _ _ R3 Q3) in D4.
    Qed.
  End End.

  (** What the state is like in the end, and what is returned *)
  Lemma spread_cases v cs : spread v cs -> exists s0 s, cs = rev (calls s) /\ prepared X g vhash s0 /\
    weak X g conn veq vhash vertex_limit addr s [] /\
    ((good s [] /\ v = Done (Some (spread_graph X g false eeq ehash s), None)) \/
     (bad X s /\ exists e l, l < lanes X /\ serr s l = Some e /\ v = Done (None, Some e))).
  Proof.
    intros H. destruct H as [s0 s order H0 H1 Ho]. exists s0, s. split; auto.
    assert (P : prepared X g vhash s0) by (apply (first_pass eeq ehash vertex_limit addr Hl Hveq Hwf Hdist (Y := in_pass X kills 0)); auto; intros; apply Hk). split; auto.
    destruct (second_pass (Y := in_pass X kills 1) Hl Hveq Hvh Hwf Hdist addr_inj addr_new P Heeq Heh (fun k => Hk 1 k) H1) as [W D].
    split; auto. unfold outcome_after. rewrite (w_hung W). destruct D as [G|B].
    - left. split; auto. unfold spread_status. assert (A : leftover X s0 s = false).
      { unfold leftover. apply not_true_is_false. intros A. apply existsb_exists in A as (l & _ & A). apply andb_true_iff in A as [A1 A2].
        apply Nat.ltb_lt in A2. destruct (p_list s0 l) as [|n q] eqn:E; [simpl in A2; lia|].
        assert (Q : In n (p_list s0 l)) by (rewrite E; now left). apply (pr_list P) in Q as [Q1 Q2].
        assert (Q3 := lane_started G (or_introl Q1)). rewrite (g_vert G), Q2 in Q3 by auto. rewrite Q3 in A1. discriminate. }
      rewrite A. cbn [andb]. assert (S : final_status (serr s) (skilled s || killcalls (in_pass X kills 1) (stick s)) order = None).
      { apply final_status_none. split; [rewrite (g_skilled G); apply Hk|]. intros l _. apply (g_serr G). }
      now rewrite S.
    - right. split; auto. destruct B as (l & B1 & B2).
      assert (F : exists e k, k < lanes X /\ serr s k = Some e /\ first_error (serr s) order = Some e).
      { assert (Q : In l order) by (eapply Permutation_in; [symmetry; exact Ho|]; apply in_seq; lia).
        assert (R : forall k, In k order -> k < lanes X) by (intros k C; eapply Permutation_in in C; [|exact Ho]; apply in_seq in C; lia).
        clear - Q R B2. induction order as [|k o IH]; [destruct Q|]. simpl. destruct (serr s k) as [e|] eqn:E.
        - exists e, k. split; auto. apply R. now left.
        - destruct Q as [->|Q]; [congruence|]. apply IH; auto. intros j J. apply R. now right. }
      destruct F as (e & k & F1 & F2 & F3). exists e, k. split; auto. split; auto. unfold spread_status, final_status. rewrite F3.
      destruct (_ && _); reflexivity.
  Qed.

  (** *** C31: what is returned *)
  Theorem C31_spreading h e cs : spread (Done (Some h, e)) cs -> e = None /\ spread_from g conn veq eeq h.
  Proof.
    intros H. apply spread_cases in H as (s0 & s & _ & _ & _ & [[G E]|[_ (e' & l & _ & _ & E)]]); [|discriminate].
    injection E as -> ->. split; auto. now apply good_spread.
  Qed.

  (** The vertices the worker [l] would have to create are too many *)
  Definition overflowing (l : nat) : Prop :=
    exists vs, (let q := vertex_limit / lanes X in if q =? 0 then 1 else q) < length vs /\
      (forall v, In v vs -> grown g conn veq v /\ unknown g veq v /\ vl v = l) /\
      ForallOrdPairs (fun v w => veq v w = false) vs.

  Lemma limit_eq : vertex_limit <> 0 -> limit X vertex_limit = let q := vertex_limit / lanes X in if q =? 0 then 1 else q.
  Proof.
    intros H. unfold limit. destruct (vertex_limit / lanes X); simpl; auto. destruct (Nat.eqb_spec vertex_limit 0); tauto.
  Qed.
  Lemma limit_0 : limit X vertex_limit <> 0 -> vertex_limit <> 0.
  Proof. intros H E. apply H. unfold limit. subst. rewrite Nat.div_0_l by lia. reflexivity. Qed.

  (** *** C31: if it doesn't succeed, then because the connector has failed, or there are too many vertices. *)
  Theorem C31_failure v cs : spread v cs ->
    (exists h, v = Done (Some h, None)) \/
    (exists e, v = Done (None, Some e) /\
      ((exists u, expected g conn veq u /\ snd (conn None u) = Some e) \/
       (e = INTOVF /\ vertex_limit <> 0 /\ exists l, overflowing l))).
  Proof.
    intros H. apply spread_cases in H as (s0 & s & _ & _ & W & [[G ->]|[_ (e & l & A & B & ->)]]); [left; eauto|right].
    exists e. split; auto. destruct (w_err W l B) as [_ [C|(-> & C & vs & D)]]; auto. right. split; auto.
    apply limit_0 in C. split; auto. exists l, vs. now rewrite <- limit_eq.
  Qed.

  Corollary C31_success v cs : spread v cs ->
    (forall u, expected g conn veq u -> snd (conn None u) = None) -> (vertex_limit = 0 \/ forall l, ~ overflowing l) ->
    exists h, v = Done (Some h, None).
  Proof.
    intros H A B. apply C31_failure in H as [H|(e & _ & [(u & C & D)|(_ & C & l & D)])]; auto.
    - rewrite (A u C) in D. discriminate.
    - destruct B as [B|B]; [tauto|]. now apply B in D.
  Qed.

  (** *** C31: the limit *)
  Theorem C31_vertex_limit h e cs : spread (Done (Some h, e)) cs -> vertex_limit <> 0 ->
    forall l ns, NoDup ns -> (forall n, In n ns -> In n (ids h) /\ ~ In n (ids g) /\ vl (vx h n) = l) ->
    length ns <= (let q := vertex_limit / lanes X in if q =? 0 then 1 else q).
  Proof.
    intros H H0 l ns N A. apply spread_cases in H as (s0 & s & _ & _ & W & [[G E]|[_ (e' & k & _ & _ & E)]]); [|discriminate].
    injection E as -> ->. rewrite <- limit_eq by auto.
    assert (L0 : limit X vertex_limit <> 0) by (rewrite limit_eq by auto; simpl; destruct (Nat.eqb_spec (vertex_limit / lanes X) 0); lia).
    destruct (w_count W l (g_serr G l) L0) as [C D]. rewrite C in D.
    etransitivity; [|exact D]. rewrite <- (map_length addr (here X vhash addr s l)). apply NoDup_incl_length; auto.
    intros n B. destruct (A n B) as (B1 & B2 & B3). apply (ids_node G) in B1 as [B1|(k & B1 & ->)]; [tauto|].
    apply in_map. apply filter_In. split; [apply in_seq; lia|]. now apply Nat.eqb_eq.
  Qed.

  (** *** C31: what the connector is called for *)
  Definition times (cs : list (option word * word)) (v : word) : nat := length (filter (fun c => veq (snd c) v) cs).
  Theorem C31_calls h e cs : spread (Done (Some h, e)) cs ->
    (forall c, In c cs -> fst c = None /\ exists n, In n (ids h) /\ snd c = vx h n /\ (terminal g n \/ ~ In n (ids g))) /\
    (forall n, In n (ids h) -> ~ In n (ids g) -> times cs (vx h n) = 1) /\
    (forall n, terminal g n -> 1 <= times cs (vx g n)) /\
    (forall n, terminal g n -> es h n <> [] -> times cs (vx g n) = 1).
  Proof.
    intros H. apply spread_cases in H as (s0 & s & -> & _ & W & [[G E]|[_ (e' & k & _ & _ & E)]]); [|discriminate].
    injection E as -> ->.
    assert (T : forall v, times (rev (calls s)) v = ncalls veq s v).
    { intros v. unfold times, ncalls. rewrite <- (rev_length (filter _ (calls s))). f_equal.
      induction (calls s) as [|c q IH]; [reflexivity|]. simpl. rewrite filter_app, IH. simpl. destruct (veq (snd c) v); simpl; auto using app_nil_r. }
    split; [|split; [|split]].
    - intros c A. apply in_rev in A. destruct (g_calls G c A) as [B [(n & C & D)|(k & C & D)]]; split; auto.
      + exists n. split; [apply (ids_node G); left; apply C|]. split; auto. rewrite D. symmetry. apply (g_vert G), C.
      + exists (addr k). split; [apply (ids_node G); right; eauto|]. auto.
    - intros n A B. apply (ids_node G) in A as [A|(k & A & ->)]; [tauto|]. rewrite T. destruct (g_new G A) as (i0 & ds & _ & _ & _ & C). exact C.
    - intros n A. rewrite T. destruct (visited_all Hwf G n (proj1 A)) as [_ V]. apply (V A).
    - intros n A B. rewrite T. destruct (g_leaf G A) as [[C _]|[_ C]].
      + exfalso. apply B. simpl. unfold finished_edges. now rewrite C.
      + apply C. intros D. apply B. simpl. unfold finished_edges. now rewrite D.
  Qed.

  (** *** C31: an error of the connector is never ignored. *)
  Theorem C31_no_error_is_ignored h e cs : uniform conn veq eeq -> spread (Done (Some h, e)) cs ->
    forall u, expected g conn veq u -> snd (conn None u) = None.
  Proof. intros U H. apply C31_spreading in H as [_ H]. eapply spread_calm; eauto. Qed.
End Results.

(** *** C31: the result doesn't depend on the workers or the schedule. *)
Theorem C31_independent_of_schedule g conn veq vhash eeq ehash
    X1 limit1 addr1 kills1 dropped1 h1 e1 cs1 X2 limit2 addr2 kills2 dropped2 h2 e2 cs2 :
  equivalence veq -> (forall v w, veq v w = true -> vhash v = vhash w) ->
  equivalence eeq -> (forall x y, eeq x y = true -> ehash x = ehash y) -> wf g -> distinct veq g -> uniform conn veq eeq ->
  0 < lanes X1 -> (forall i j, addr1 i = addr1 j -> i = j) -> (forall k, ~ In (addr1 k) (ids g)) -> never_killed kills1 ->
  0 < lanes X2 -> (forall i j, addr2 i = addr2 j -> i = j) -> (forall k, ~ In (addr2 k) (ids g)) -> never_killed kills2 ->
  spreads X1 g false conn veq vhash eeq ehash limit1 addr1 kills1 dropped1 (Done (Some h1, e1)) cs1 ->
  spreads X2 g false conn veq vhash eeq ehash limit2 addr2 kills2 dropped2 (Done (Some h2, e2)) cs2 ->
  root h1 = root h2 /\
  (forall n1, In n1 (ids h1) -> exists n2, In n2 (ids h2) /\ veq (vx h1 n1) (vx h2 n2) = true /\
     forall n, In n (ids h2) -> veq (vx h1 n1) (vx h2 n) = true -> n = n2) /\
  (forall n2, In n2 (ids h2) -> exists n1, In n1 (ids h1) /\ veq (vx h1 n1) (vx h2 n2) = true /\
     forall n, In n (ids h1) -> veq (vx h1 n) (vx h2 n2) = true -> n = n1) /\
  (forall n1 n2, In n1 (ids h1) -> In n2 (ids h2) -> veq (vx h1 n1) (vx h2 n2) = true ->
     (forall l m1, In (l, m1) (es h1 n1) ->
        exists l' m2, In (l', m2) (es h2 n2) /\ eeq l l' = true /\ veq (vx h1 m1) (vx h2 m2) = true) /\
     (forall l m2, In (l, m2) (es h2 n2) ->
        exists l' m1, In (l', m1) (es h1 n1) /\ eeq l l' = true /\ veq (vx h1 m1) (vx h2 m2) = true)).
Proof.
  intros Hv Hvh He Heh W D U L1 I1 N1 K1 L2 I2 N2 K2 S1 S2.
  apply C31_spreading in S1 as [_ S1]; auto. apply C31_spreading in S2 as [_ S2]; auto.
  destruct (spread_simulation Hv He W U S1 S2) as [A1 A2]. destruct (spread_simulation Hv He W U S2 S1) as [B1 B2].
  pose proof (eqv_symb Hv) as Sy. split; [rewrite (sf_root S1), (sf_root S2); auto|]. split; [auto|]. split.
  - intros n2 H. destruct (B1 n2 H) as (n1 & C1 & C2 & C3). exists n1. rewrite Sy. repeat split; auto. intros n F G. apply C3; auto. now rewrite Sy.
  - intros n1 n2 C1 C2 C. split; [now apply A2|]. intros l m2 F. rewrite Sy in C. destruct (B2 n2 n1 C2 C1 C l m2 F) as (l' & m1 & G1 & G2 & G3).
    exists l', m1. rewrite Sy. auto.
Qed.

(** *** C31: termination, if only finitely many vertices up to equality are declared *)
Theorem C31_spreading_terminates X g conn veq vhash eeq ehash vertex_limit addr kills dropped N s0 y :
  0 < lanes X -> equivalence veq -> (forall v w, veq v w = true -> vhash v = vhash w) ->
  equivalence eeq -> (forall x y, eeq x y = true -> ehash x = ehash y) -> wf g -> distinct veq g ->
  (forall i j, addr i = addr j -> i = j) -> (forall k, ~ In (addr k) (ids g)) -> (forall k, kills 0 k = false) ->
  (forall vs, (forall v, In v vs -> grown g conn veq v /\ unknown g veq v) -> ForallOrdPairs (fun v w => veq v w = false) vs -> length vs <= N) ->
  ran (lanes X) (pdest X g vhash) (prespreading X g veq vhash (in_pass X kills 0)) (pstart g) (root g) s0 ->
  let task := spreading X g false conn veq vhash eeq ehash vertex_limit addr s0 dropped (in_pass X kills 1) in
  reachable (lanes X) (sdest X g vhash) task (Reach (root g) None) (sstart g s0) y ->
  Acc (fun y' z => step (lanes X) (sdest X g vhash) task (Reach (root g) None) z y') y.
Proof.
  intros Hl Hv Hvh He Heh W D I1 I2 K F R task Hy.
  assert (P : prepared X g vhash s0) by (apply (first_pass eeq ehash vertex_limit addr Hl Hv W D (Y := in_pass X kills 0)); auto).
  eapply C11_every_schedule_terminates; eauto.
  - now apply sdest_lt.
  - discriminate.
  - eapply spreading_terminates; eauto.
Qed.

(** The first pass terminates in any case. *)
Section Preparation.
  Variable X : env.
  Variable g : graph word word.
  Variable veq : word -> word -> bool.
  Variable vhash : word -> N.
  Variable Y : env.
  Hypothesis Hl : 0 < lanes X.
  Hypothesis Hveq : equivalence veq.
  Hypothesis Hvh : forall v w, veq v w = true -> vhash v = vhash w.
  Hypothesis Hwf : wf g.
  Notation ln n := (vlane X vhash (vx g n)).
  Notation bn n := (vbin X vhash (vx g n)).
  Definition unpacked (s : pdata) (n : nat) : bool := negb (existsb (fun m => same veq (vx g n) (vx g m)) (p_table s (ln n) (bn n))).
  Definition unsevered (s : pdata) (n : nat) : bool := negb (mem n (p_seen s (ln n))).
  Definition unprepared (s : pdata) : nat := length (filter (unpacked s) (ids g)) + length (filter (unsevered s) (ids g)).

  Lemma preparation_terminates : terminates (prespreading X g veq vhash Y) (pstart g, [root g]).
  Proof.
    apply lex_inv_terminates with (m := unprepared)
      (I := fun s b => (forall n, In n b -> In n (ids g)) /\ forall n, p_outs s n = [] \/ p_outs s n = es g n).
    - intros s b b' P [A B]. split; auto. intros n H. apply A. eapply Permutation_in; [symmetry|]; eauto.
    - intros s n b s' out [A B] H. assert (Hn : In n (ids g)) by (apply A; now left).
      assert (Hb : forall m, In m b -> In m (ids g)) by (intros; apply A; now right).
      assert (Ho : forall m, In m (map snd (p_outs s n) ++ b) -> In m (ids g)).
      { intros m C. apply in_app_or in C as [C|C]; auto. apply in_map_iff in C as ([l k] & <- & C). destruct (B n) as [E|E]; rewrite E in C; [destruct C|].
        eapply (wf_closed Hwf); eauto. }
      unfold prespreading in H. set (k := p_killed s || killcalls Y (p_tick s)) in H. set (kil := p_kil s _ || _) in H.
      destruct (mem n (p_seen s (ln n))) eqn:E1; [injection H as <- <-; auto|]. destruct kil.
      { injection H as <- <-. split; [split; auto|].
        - simpl. intros m. unfold upd. destruct (m =? n); auto.
        - left. unfold unprepared. match goal with |- ?a + ?c < ?a' + ?c' => assert (a = a' /\ c < c'); [|lia] end. split.
          + reflexivity.
          + apply filter_lt with (a := n); auto.
            * intros m _. unfold unsevered. simpl. unfold upd. destruct (Nat.eqb_spec (ln m) (ln n)) as [E|]; auto.
              rewrite E. simpl. destruct (m =? n); auto. discriminate.
            * unfold unsevered. now rewrite E1.
            * unfold unsevered. simpl. rewrite upd_eq. simpl. now rewrite Nat.eqb_refl. }
      destruct (existsb _ _) eqn:E2; [injection H as <- <-; auto|].
      injection H as <- <-. split; [split; auto|]. left. unfold unprepared.
      match goal with |- ?a + ?c < ?a' + ?c' => assert (c = c' /\ a < a'); [|lia] end. split; [reflexivity|].
      apply filter_lt with (a := n); auto.
      + intros m _. unfold unpacked. simpl. intros C. apply negb_true_iff in C. apply negb_true_iff. apply not_true_is_false. intros D.
        apply existsb_exists in D as (j & D1 & D2). rewrite (proj2 (existsb_exists _ _)) in C; [discriminate|]. exists j. split; auto.
        apply put_bin_in. auto.
      + unfold unpacked. now rewrite E2.
      + unfold unpacked. simpl. apply negb_false_iff. apply existsb_exists. exists n. split; [apply put_bin_in; auto|].
        unfold same. now rewrite N.eqb_refl.
    - split; auto. intros n [<-|[]]. apply (wf_root Hwf).
  Qed.

  Theorem C31_preparation_terminates y :
    reachable (lanes X) (pdest X g vhash) (prespreading X g veq vhash Y) (root g) (pstart g) y ->
    Acc (fun y' z => step (lanes X) (pdest X g vhash) (prespreading X g veq vhash Y) (root g) z y') y.
  Proof.
    intros Hy. eapply C11_every_schedule_terminates; eauto.
    - intros n. now apply lane_of_lt.
    - discriminate.
    - apply preparation_terminates.
  Qed.
End Preparation.

(** ** Examples *)

(** Spreading by a schedule in which all threads take turns *)
Section Runner.
  Variable X : env.
  Variable g : graph word word.
  Variable sub : bool.
  Variable conn : option word -> word -> list (word * word) * option error.
  Variable vertex_limit : nat.
  Variable kills : nat -> nat -> bool.
  Variable dropped : nat -> bool.
  Variable k : nat.
  Definition fresh (i : nat) : nat := S (list_max (ids g)) + i.
  Lemma fresh_inj i j : fresh i = fresh j -> i = j.
  Proof. unfold fresh. lia. Qed.
  Lemma fresh_new i : ~ In (fresh i) (ids g).
  Proof.
    intros B. assert (Q := proj1 (list_max_le (ids g) (list_max (ids g))) (le_n _)). rewrite Forall_forall in Q. apply Q in B. unfold fresh in B. lia.
  Qed.
  Definition run_first : @sys pdata nat :=
    sched_run (lanes X) (pdest X g by_value) (prespreading X g N.eqb by_value (in_pass X kills 0)) (pstart g) (root g) k.
  Definition run_second (s0 : pdata) : @sys sdata spkt :=
    sched_run (lanes X) (sdest X g by_value) (spreading X g sub conn N.eqb by_value N.eqb by_value vertex_limit fresh s0 dropped (in_pass X kills 1))
      (sstart g s0) (Reach (root g) None) k.
  Definition run_spread : option (verdict * list (option word * word)) :=
    match mainpc run_first with
    | MDone =>
        let s0 := sh run_first in
        match mainpc (run_second s0) with
        | MDone => Some (outcome_after X g sub N.eqb by_value kills s0 (sh (run_second s0)) (seq 0 (lanes X)), rev (calls (sh (run_second s0))))
        | _ => None
        end
    | _ => None
    end.
  Lemma run_spread_sound v cs : run_spread = Some (v, cs) ->
    spreads X g sub conn N.eqb by_value N.eqb by_value vertex_limit fresh kills dropped v cs.
  Proof.
    unfold run_spread. destruct (mainpc run_first) eqn:E1; try discriminate. apply sched_ran in E1.
    destruct (mainpc (run_second (sh run_first))) eqn:E2; try discriminate. apply sched_ran in E2.
    intros [= <- <-]. apply spread_passes; auto.
  Qed.
End Runner.
Definition spread_result (r : option (verdict * list (option word * word))) : graph word word :=
  match r with Some (Done (Some h, _), _) => h | _ => mkGraph [] (fun _ => null) (fun _ => []) 0 end.
Definition spread_calls (r : option (verdict * list (option word * word))) : list (option word * word) :=
  match r with Some (_, cs) => cs | None => [] end.
Definition spread_done (r : option (verdict * list (option word * word))) : bool :=
  match r with Some (Done (Some _, None), _) => true | _ => false end.
Lemma spread_ran r : spread_done r = true -> r = Some (Done (Some (spread_result r), None), spread_calls r).
Proof. destruct r as [[[|[[h|] [e|]]] cs]|]; try discriminate. reflexivity. Qed.
Definition none_dropped : nat -> bool := fun _ => false.

(** 1 -5-> 2, 1 -6-> 3, 2 and 3 being terminal *)
Definition VG : graph word word :=
  mkGraph [1; 2; 3] (fun n => (10 * N.of_nat n)%N) (fun n => match n with 1 => [(5%N, 2); (6%N, 3)] | _ => [] end) 1.
Definition by_vertex (f : word -> list (word * word)) : option word -> word -> list (word * word) * option error := fun _ v => (f v, None).
Definition c1 : option word -> word -> list (word * word) * option error :=
  by_vertex (fun v => match v with 20%N => [(7, 30); (8, 50)]%N | 50%N => [(9, 20); (9, 60); (9, 60)]%N | 60%N => [(4, 10)]%N | _ => [] end).
Notation vrun X := (run_spread X VG false c1 0 no_kills none_dropped 400).

Lemma VG_wf : wf VG.
Proof.
  constructor; simpl.
  - repeat constructor; simpl; intuition lia.
  - auto.
  - intros n l m H. destruct n as [|[|n]]; simpl; intuition congruence.
  - assert (P1 : path VG 1 1) by constructor.
    assert (P2 : path VG 1 2) by (apply path_step with (l := 5%N) (b := 1); simpl; auto).
    assert (P3 : path VG 1 3) by (apply path_step with (l := 6%N) (b := 1); simpl; auto).
    intros n [<-|[<-|[<-|[]]]]; assumption.
Qed.
Lemma uniform_eqb conn : uniform conn N.eqb N.eqb.
Proof.
  intros v w H. apply N.eqb_eq in H. subst w. split; auto. intros l x A. exists l, x. rewrite !N.eqb_refl. auto.
Qed.
Notation spreading_of X g sub conn limit kills v cs :=
  (spreads X g sub conn N.eqb by_value N.eqb by_value limit (fresh g) kills none_dropped v cs).

Definition vshown : list (nat * (word * list Compose.edge)) :=
  [(1, (10%N, [(5%N, 2); (6%N, 3)])); (2, (20%N, [(7%N, 3); (8%N, 4)])); (3, (30%N, []));
   (4, (50%N, [(9%N, 5); (9%N, 2)])); (5, (60%N, [(4%N, 1)]))].
Definition vcalls : list (option word * word) := [(None, 30); (None, 20); (None, 50); (None, 60)]%N.
Lemma vrun_ran X : spread_done (vrun X) = true -> spread_calls (vrun X) = vcalls ->
  spreading_of X VG false c1 0 no_kills (Done (Some (spread_result (vrun X)), None)) vcalls.
Proof. intros H <-. apply run_spread_sound with (k := 400). now apply spread_ran. Qed.
Lemma vrun1_ran : spreading_of X1 VG false c1 0 no_kills (Done (Some (spread_result (vrun X1)), None)) vcalls /\
  map (by_id (shown (spread_result (vrun X1)))) [1; 2; 3; 4; 5] = map Some vshown.
Proof. split; [apply vrun_ran|]; vm_compute; reflexivity. Qed.
Lemma vrun3_ran : spreading_of X3 VG false c1 0 no_kills (Done (Some (spread_result (vrun X3)), None)) vcalls /\
  map (by_id (shown (spread_result (vrun X3)))) [1; 2; 3; 4; 5] = map Some vshown.
Proof. split; [apply vrun_ran|]; vm_compute; reflexivity. Qed.

Definition by_value_relations : Prop :=
  equivalence N.eqb /\ (forall a b, N.eqb a b = true -> by_value a = by_value b).
Lemma by_value_relations_ok : by_value_relations.
Proof. split; [exact eqb_equivalence|exact by_value_ok]. Qed.
Lemma VG_distinct : distinct N.eqb VG.
Proof. now apply tens. Qed.

Example C31_spreading_ex :
  exists h, by_value_relations /\ wf VG /\ distinct N.eqb VG /\
    (forall i j, fresh VG i = fresh VG j -> i = j) /\ (forall k, ~ In (fresh VG k) (ids VG)) /\ never_killed no_kills /\
    spreading_of X3 VG false c1 0 no_kills (Done (Some h, None)) vcalls /\ map (by_id (shown h)) [1; 2; 3; 4; 5] = map Some vshown.
Proof.
  exists (spread_result (vrun X3)). split; [exact by_value_relations_ok|]. split; [exact VG_wf|]. split; [exact VG_distinct|].
  split; [apply fresh_inj|]. split; [apply fresh_new|]. split; [exact no_kills_never|]. exact vrun3_ran.
Qed.
Example C31_calls_ex : terminal VG 3 /\ terminal VG 2 /\ ~ terminal VG 1 /\ times N.eqb vcalls 30%N = 1 /\
  exists h, spreading_of X1 VG false c1 0 no_kills (Done (Some h, None)) vcalls /\ es h 3 = [] /\ es h 2 <> [].
Proof.
  split; [split; simpl; auto|]. split; [split; simpl; auto|]. split; [intros [_ A]; discriminate|]. split; [reflexivity|].
  exists (spread_result (vrun X1)). split; [apply vrun1_ran|]. split; vm_compute; [reflexivity|discriminate].
Qed.
(** One worker may create one vertex, but two are needed. *)
Example C31_failure_ex :
  spreading_of X1 VG false c1 1 no_kills (Done (None, Some INTOVF)) [(None, 30); (None, 20); (None, 50)]%N /\
  spreading_of X1 VG false (fun o v => if N.eqb v 60 then ([], Some (USERERR 4)) else c1 o v) 0 no_kills (Done (None, Some (USERERR 4))) vcalls.
Proof. split; apply run_spread_sound with (k := 400); vm_compute; reflexivity. Qed.
Example C31_success_ex :
  (forall u, expected VG c1 N.eqb u -> snd (c1 None u) = None) /\
  exists v, spreading_of X3 VG false c1 0 no_kills v vcalls.
Proof. split; [reflexivity|]. eexists. apply vrun3_ran. Qed.
Example C31_vertex_limit_ex :
  exists h, spreading_of X3 VG false c1 3 no_kills (Done (Some h, None)) vcalls /\ 3 / lanes X3 = 1 /\
    NoDup [4] /\ (forall n, In n [4] -> In n (ids h) /\ ~ In n (ids VG) /\ vlane X3 by_value (vx h n) = 2).
Proof.
  exists (spread_result (run_spread X3 VG false c1 3 no_kills none_dropped 400)).
  split; [apply run_spread_sound with (k := 400), spread_ran; vm_compute; reflexivity|]. split; [reflexivity|].
  split; [repeat constructor; simpl; tauto|]. intros n [<-|[]]. split; [vm_compute; auto 10|]. split; [simpl; lia|vm_compute; reflexivity].
Qed.
Example C31_no_error_is_ignored_ex :
  uniform c1 N.eqb N.eqb /\ expected VG c1 N.eqb 20%N /\
  exists h, spreading_of X3 VG false c1 0 no_kills (Done (Some h, None)) vcalls.
Proof.
  split; [apply uniform_eqb|]. split; [left; exists 2; split; [split; simpl; auto|reflexivity]|]. eexists. apply vrun3_ran.
Qed.
Example C31_independent_of_schedule_ex :
  uniform c1 N.eqb N.eqb /\
  spreading_of X1 VG false c1 0 no_kills (Done (Some (spread_result (vrun X1)), None)) vcalls /\
  spreading_of X3 VG false c1 0 no_kills (Done (Some (spread_result (vrun X3)), None)) vcalls /\
  ids (spread_result (vrun X1)) <> ids (spread_result (vrun X3)).
Proof.
  split; [apply uniform_eqb|]. split; [apply vrun1_ran|]. split; [apply vrun3_ran|]. vm_compute. discriminate.
Qed.
Notation vsys := (sched_run (lanes X3) (sdest X3 VG by_value)
  (spreading X3 VG false c1 N.eqb by_value N.eqb by_value 0 (fresh VG) (sh (run_first X3 VG no_kills 400)) none_dropped (in_pass X3 no_kills 1))
  (sstart VG (sh (run_first X3 VG no_kills 400))) (Reach (root VG) None) 40).
Example C31_spreading_terminates_ex :
  ran (lanes X3) (pdest X3 VG by_value) (prespreading X3 VG N.eqb by_value (in_pass X3 no_kills 0)) (pstart VG) (root VG) (sh (run_first X3 VG no_kills 400)) /\
  (forall vs, (forall v, In v vs -> grown VG c1 N.eqb v /\ unknown VG N.eqb v) -> ForallOrdPairs (fun v w => N.eqb v w = false) vs -> length vs <= 2) /\
  reachable (lanes X3) (sdest X3 VG by_value)
    (spreading X3 VG false c1 N.eqb by_value N.eqb by_value 0 (fresh VG) (sh (run_first X3 VG no_kills 400)) none_dropped (in_pass X3 no_kills 1))
    (Reach (root VG) None) (sstart VG (sh (run_first X3 VG no_kills 400))) vsys /\ calls (sh vsys) <> [].
Proof.
  split; [apply sched_ran; vm_compute; reflexivity|]. split.
  - intros vs A B. assert (G : forall v, grown VG c1 N.eqb v -> In v [10; 20; 30; 50; 60]%N).
    { assert (F : forall u ds l v, c1 None u = (ds, None) -> In (l, v) ds -> In v [10; 20; 30; 50; 60]%N).
      { intros u ds l v E I. unfold c1, by_vertex in E. injection E as <-.
        assert (Q : In u [20; 50; 60]%N).
        { destruct (in_dec N.eq_dec u [20; 50; 60]%N) as [|Q]; auto. exfalso. simpl in Q.
          assert (Z : forall a, match u with 20%N => a 0 | 50%N => a 1 | 60%N => a 2 | _ => [] end = @nil (word * word) \/ In u [20; 50; 60]%N).
          { intros a. destruct (N.eq_dec u 20) as [->|N1]; [simpl; tauto|]. destruct (N.eq_dec u 50) as [->|N2]; [simpl; tauto|].
            destruct (N.eq_dec u 60) as [->|N3]; [simpl; tauto|]. left. destruct u as [|p]; auto.
            repeat (destruct p as [p|p|]; try reflexivity; try congruence). }
          destruct (Z (fun i => match i with 0 => [(7, 30); (8, 50)]%N | 1 => [(9, 20); (9, 60); (9, 60)]%N | _ => [(4, 10)]%N end)) as [E|E]; [|simpl in E; tauto].
          simpl in E. rewrite E in I. destruct I. }
        simpl in Q. destruct Q as [<-|[<-|[<-|[]]]]; simpl in *; intuition congruence. }
      intros v H. destruct H; eauto. }
    assert (U : forall v, In v vs -> v = 50%N \/ v = 60%N).
    { intros v I. destruct (A v I) as [I1 I2]. apply G in I1. assert (J1 := I2 1). assert (J2 := I2 2). assert (J3 := I2 3). simpl in *.
      destruct I1 as [<-|[<-|[<-|[<-|[<-|[]]]]]]; auto; try (exfalso; intuition discriminate). }
    apply (NoDup_incl_length (l' := [50; 60]%N)).
    + clear - B. induction B as [|v vs F _ IH]; constructor; auto. intros I. rewrite Forall_forall in F. apply F in I. now rewrite N.eqb_refl in I.
    + intros v I. apply U in I as [->| ->]; simpl; auto.
  - split; [apply exec_sound, turns_ok|]. vm_compute. discriminate.
Qed.
Notation psys := (sched_run (lanes X3) (pdest X3 VG by_value) (prespreading X3 VG N.eqb by_value (in_pass X3 no_kills 0)) (pstart VG) (root VG) 40).
Example C31_preparation_terminates_ex :
  reachable (lanes X3) (pdest X3 VG by_value) (prespreading X3 VG N.eqb by_value (in_pass X3 no_kills 0)) (root VG) (pstart VG) psys /\
  map (p_list (sh psys)) [0; 1; 2] <> [[]; []; []].
Proof. split; [apply exec_sound, turns_ok|]. vm_compute. discriminate. Qed.

(** ** What is false *)

Definition none : option word -> word -> list (word * word) * option error := fun _ _ => ([], None).

(** *** C74: with a subconnector, a vertex that has outgoing edges may acquire more, if a new edge leads to it. *)
Definition c2 : option word -> word -> list (word * word) * option error := fun o v =>
  (match o, v with Some 5%N, 20%N => [(7, 10)]%N | Some 7%N, 10%N => [(3, 30)]%N | _, _ => [] end, None).
Theorem C74_nonterminal_vertex_refuted :
  exists X g c h cs n, wf g /\ distinct N.eqb g /\ 0 < lanes X /\ never_killed no_kills /\
    spreading_of X g true c 0 no_kills (Done (Some h, None)) cs /\
    In n (ids g) /\ es g n <> [] /\ length (es g n) < length (es h n).
Proof.
  exists X1, VG, c2, (spread_result (run_spread X1 VG true c2 0 no_kills none_dropped 400)),
    (spread_calls (run_spread X1 VG true c2 0 no_kills none_dropped 400)), 1.
  split; [exact VG_wf|]. split; [exact VG_distinct|]. split; [simpl; lia|]. split; [exact no_kills_never|].
  split; [apply run_spread_sound with (k := 400), spread_ran; vm_compute; reflexivity|].
  split; [simpl; auto|]. split; [discriminate|]. vm_compute. lia.
Qed.

(** *** C75: a graph consisting of one vertex can't be spread with a subconnector; it isn't called, and
    an internal error is reported. *)
Definition SI : graph word word := mkGraph [1] (fun _ => 10%N) (fun _ => []) 1.
Lemma SI_wf : wf SI.
Proof.
  constructor; simpl; auto.
  - repeat constructor. simpl. tauto.
  - intros n [<-|[]]. constructor.
Qed.
Theorem C75_singleton_refuted :
  exists X g c n, wf g /\ distinct N.eqb g /\ 0 < lanes X /\ never_killed no_kills /\ terminal g n /\ (forall o v, snd (c o v) = None) /\
    spreading_of X g true c 0 no_kills (Done (None, Some IER)) [].
Proof.
  exists X1, SI, none, 1. split; [exact SI_wf|]. split; [intros n m [<-|[]] [<-|[]]; auto|]. split; [simpl; lia|]. split; [exact no_kills_never|].
  split; [split; simpl; auto|]. split; [reflexivity|]. apply run_spread_sound with (k := 400). vm_compute. reflexivity.
Qed.
(** A vertex for which no edges are declared is passed to the connector whenever it is reached. *)
Definition TG : graph word word :=
  mkGraph [1; 2; 3] (fun n => (10 * N.of_nat n)%N) (fun n => match n with 1 => [(5%N, 2); (7%N, 3)] | 3 => [(6%N, 2)] | _ => [] end) 1.
Lemma TG_wf : wf TG.
Proof.
  constructor; simpl.
  - repeat constructor; simpl; intuition lia.
  - auto.
  - intros n l m H. destruct n as [|[|[|[|n]]]]; simpl; intuition congruence.
  - assert (P1 : path TG 1 1) by constructor.
    assert (P2 : path TG 1 2) by (apply path_step with (l := 5%N) (b := 1); simpl; auto).
    assert (P3 : path TG 1 3) by (apply path_step with (l := 7%N) (b := 1); simpl; auto).
    intros n [<-|[<-|[<-|[]]]]; assumption.
Qed.
Theorem C75_repeated_calls_refuted :
  exists X g c h cs n, wf g /\ distinct N.eqb g /\ 0 < lanes X /\ never_killed no_kills /\
    spreading_of X g false c 0 no_kills (Done (Some h, None)) cs /\ terminal g n /\ times N.eqb cs (vx g n) = 2.
Proof.
  exists X1, TG, none, (spread_result (run_spread X1 TG false none 0 no_kills none_dropped 400)),
    (spread_calls (run_spread X1 TG false none 0 no_kills none_dropped 400)), 2.
  split; [exact TG_wf|]. split; [now apply tens|]. split; [simpl; lia|]. split; [exact no_kills_never|].
  split; [apply run_spread_sound with (k := 400), spread_ran; vm_compute; reflexivity|]. split; [split; simpl; auto|]. vm_compute. reflexivity.
Qed.

(** *** C76: with a subconnector, what is made of a terminal vertex depends on which of the edges to it is
    seen first. *)
Definition DG : graph word word :=
  mkGraph [1; 2; 3; 4] (fun n => (10 * N.of_nat n)%N)
    (fun n => match n with 1 => [(1%N, 3); (1%N, 4)] | 3 => [(5%N, 2)] | 4 => [(6%N, 2)] | _ => [] end) 1.
Lemma DG_wf : wf DG.
Proof.
  constructor; simpl.
  - repeat constructor; simpl; intuition lia.
  - auto.
  - intros n l m H. destruct n as [|[|[|[|[|n]]]]]; simpl; intuition congruence.
  - assert (P1 : path DG 1 1) by constructor.
    assert (P3 : path DG 1 3) by (apply path_step with (l := 1%N) (b := 1); simpl; auto).
    assert (P4 : path DG 1 4) by (apply path_step with (l := 1%N) (b := 1); simpl; auto).
    assert (P2 : path DG 1 2) by (apply path_step with (l := 5%N) (b := 3); simpl; auto).
    intros n [<-|[<-|[<-|[<-|[]]]]]; assumption.
Qed.
Definition c3 : option word -> word -> list (word * word) * option error := fun o v =>
  (match o, v with Some 5%N, 20%N => [(8, 50)]%N | Some 6%N, 20%N => [(8, 60)]%N | _, _ => [] end, None).
Definition X4n : env := mkEnv 4 true (fun _ => true) (fun _ => false).
Notation drun X := (run_spread X DG true c3 0 no_kills none_dropped 400).
Theorem C76_subconnector_schedule_refuted :
  exists X X' g c h h' cs cs' v, wf g /\ distinct N.eqb g /\ 0 < lanes X /\ 0 < lanes X' /\ never_killed no_kills /\
    spreading_of X g true c 0 no_kills (Done (Some h, None)) cs /\ spreading_of X' g true c 0 no_kills (Done (Some h', None)) cs' /\
    (exists n, In n (ids h) /\ vx h n = v) /\ forall n, In n (ids h') -> vx h' n <> v.
Proof.
  exists X1, X4n, DG, c3, (spread_result (drun X1)), (spread_result (drun X4n)), (spread_calls (drun X1)), (spread_calls (drun X4n)), 60%N.
  split; [exact DG_wf|]. split; [now apply tens|]. split; [simpl; lia|]. split; [simpl; lia|]. split; [exact no_kills_never|].
  split; [apply run_spread_sound with (k := 400), spread_ran; vm_compute; reflexivity|].
  split; [apply run_spread_sound with (k := 400), spread_ran; vm_compute; reflexivity|]. split.
  - exists 5. vm_compute. auto 10.
  - assert (E : map (vx (spread_result (drun X4n))) (ids (spread_result (drun X4n))) = [40; 20; 30; 10; 50]%N) by (vm_compute; reflexivity).
    intros n A B. apply (in_map (vx (spread_result (drun X4n)))) in A. rewrite E, B in A. simpl in A. intuition discriminate.
Qed.

(** *** C77: equal edges declared for a terminal vertex by a connector are all kept. *)
Definition c4 : option word -> word -> list (word * word) * option error :=
  by_vertex (fun v => match v with 20%N => [(7, 30); (7, 30)]%N | _ => [] end).
Theorem C77_equal_edges_refuted :
  exists X g c h cs n e, wf g /\ distinct N.eqb g /\ 0 < lanes X /\ never_killed no_kills /\
    spreading_of X g false c 0 no_kills (Done (Some h, None)) cs /\ In n (ids h) /\ es h n = [e; e].
Proof.
  exists X1, VG, c4, (spread_result (run_spread X1 VG false c4 0 no_kills none_dropped 400)),
    (spread_calls (run_spread X1 VG false c4 0 no_kills none_dropped 400)), 2, (7%N, 3).
  split; [exact VG_wf|]. split; [exact VG_distinct|]. split; [simpl; lia|]. split; [exact no_kills_never|].
  split; [apply run_spread_sound with (k := 400), spread_ran; vm_compute; reflexivity|]. split; [vm_compute; auto|]. vm_compute. reflexivity.
Qed.

(** *** C36: if the first pass is killed, a success is reported, and edges and vertices are lost. *)
Notation krun := (run_spread Xp LG false none 0 (kill_at 0 3) none_dropped 400).
Theorem C36_killed_spreading_refuted :
  exists X g c kills h cs, wf g /\ distinct N.eqb g /\ 0 < lanes X /\ (exists k, kills 0 k = true) /\
    spreading_of X g false c 0 kills (Done (Some h, None)) cs /\
    exists n, In n (ids g) /\ es g n <> [] /\ In n (ids h) /\ es h n = [].
Proof.
  exists Xp, LG, none, (kill_at 0 3), (spread_result krun), (spread_calls krun). split; [exact LG_wf|]. split; [exact LG_distinct|].
  split; [simpl; lia|]. split; [exists 3; reflexivity|]. split; [apply run_spread_sound with (k := 400), spread_ran; vm_compute; reflexivity|].
  exists 33. split; [simpl; auto 50|]. split; [discriminate|]. split; vm_compute; auto 50.
Qed.

(** *** C78: if a worker receives a node in the first pass after it was killed that it has packed before, then
    the list of its nodes becomes cyclic, and the second pass doesn't end. *)
Definition LC : graph word word :=
  mkGraph (seq 1 40) N.of_nat (fun n => if (0 <? n) && (n <? 40) then [(1%N, S n)] else [(1%N, 1)]) 1.
Lemma LC_wf : wf LC.
Proof.
  constructor; cbn [ids root es LC].
  - apply seq_NoDup.
  - apply in_seq. simpl. lia.
  - intros n l m H E. apply in_seq. apply in_seq in H.
    destruct ((0 <? n) && (n <? 40)) eqn:B; [|destruct E as [[= <- <-]|[]]; lia]. destruct E as [[= <- <-]|[]].
    apply andb_true_iff in B as [B1 B2]. apply Nat.ltb_lt in B1, B2. lia.
  - assert (H : forall k, k < 40 -> path LC 1 (S k)).
    { induction k as [|k IH]; intros Hk; [constructor|]. eapply path_step; [apply IH; lia|]. cbn [es LC].
      assert (B : (0 <? S k) && (S k <? 40) = true) by (apply andb_true_iff; split; apply Nat.ltb_lt; lia).
      rewrite B. left. reflexivity. }
    intros n Hn. apply in_seq in Hn. destruct n as [|n]; [lia|]. apply H. lia.
Qed.
Theorem C78_killed_spreading_hangs_refuted :
  exists X g c kills cs, wf g /\ distinct N.eqb g /\ 0 < lanes X /\ (exists k, kills 0 k = true) /\
    spreading_of X g false c 0 kills Hung cs.
Proof.
  exists Xp, LC, none, (kill_at 0 3), []. split; [exact LC_wf|].
  split; [intros n m _ _ E; apply N.eqb_eq in E; cbn [vx LC] in E; lia|].
  split; [simpl; lia|]. split; [exists 3; reflexivity|]. apply run_spread_sound with (k := 400). vm_compute. reflexivity.
Qed.

(** *** C78: the workers stop each other.  Once a worker has failed and received another packet, no worker that polls the kill
    switch calls the connector for an edge that has been declared, whatever packets there have been in between.  (It may still
    call the function for a terminal vertex of the given graph, src/spread.c:396-397.) *)
Section Stop.
  Variable X Y : env.
  Variable g : graph word word.
  Variable sub : bool.
  Variable conn : option word -> word -> list (word * word) * option error.
  Variables veq eeq : word -> word -> bool.
  Variables vhash ehash : word -> N.
  Variable vertex_limit : nat.
  Variable addr : nat -> nat.
  Variable s0 : pdata.
  Variable dropped : nat -> bool.
  Local Notation process := (spreading X g sub conn veq vhash eeq ehash vertex_limit addr s0 dropped Y).
  Definition processed (s s' : sdata) : Prop := exists p out, process s p = Some (s', out).

  Lemma connect_told f s l n o v : skilled (fst (connect f s l n o v)) = skilled s /\ skil (fst (connect f s l n o v)) = skil s.
  Proof. unfold connect. destruct (f o v). simpl. auto. Qed.
  Lemma halt_if_faulty_told s l : skilled s = true -> skilled (halt_if_faulty s l) = true.
  Proof. unfold halt_if_faulty. destruct (serr s l); auto. Qed.
  Definition told (s : sdata) : Prop := forall l, skil s l = true -> skilled s = true.
  Lemma told_halt s l : told (halt s l).
  Proof. intros j _. reflexivity. Qed.
  Lemma told_halt_if s l : told s -> told (halt_if_faulty s l).
  Proof. intros H. unfold halt_if_faulty. destruct (serr s l); auto using told_halt. Qed.
  Lemma told_same s s' : skilled s' = skilled s -> skil s' = skil s -> told s -> told s'.
  Proof. unfold told. intros -> ->. auto. Qed.

  Lemma break_out_told s l n x : told s -> told (fst (break_out X sub conn eeq ehash s l n x)).
  Proof.
    intros H. unfold break_out. destruct (serr s l); [apply told_halt|]. destruct (souts s n); [|exact H].
    destruct sub, x; try (apply told_halt).
    all: match goal with |- context [connect ?f ?s ?l ?n ?o ?v] => destruct (connect_told f s l n o v) as [A B]; destruct (connect f s l n o v) as [s' out] end;
      simpl in A, B |- *; apply told_halt_if; now apply told_same with s.
  Qed.
  Lemma carry_told s l k v i x : told s -> told (fst (carry X sub conn veq vhash eeq ehash vertex_limit addr s l k v i x)).
  Proof.
    intros H. unfold carry. destruct (serr s l); [apply told_halt|]. destruct k; [apply told_halt|].
    destruct (collision _ _ _ _ _ _).
    - unfold reach_extant. destruct (_ || _); [exact H|].
      match goal with |- context [connect ?f ?s ?l ?n ?o ?v] => destruct (connect_told f s l n o v) as [A B] end.
      eapply told_same; [exact A|exact B|exact H].
    - unfold reached_new. destruct (_ =? 0); [|destruct (_ <? _)]; [| |apply told_halt].
      all: match goal with |- context [connect ?f ?s ?l ?n ?o ?v] => destruct (connect_told f s l n o v) as [A B] end;
        (eapply told_same; [exact A|exact B|exact H]).
  Qed.
  Lemma step_told s p s' out : told s -> process s p = Some (s', out) -> told s'.
  Proof.
    intros H E. unfold spreading in E.
    set (s1 := mkSD _ _ _ _ _ _ _ _ _ _ _ _ _ _ _ _) in E.
    assert (T1 : told s1).
    { intros l. unfold s1. cbn [skil skilled]. destruct (Nat.eq_dec l (sdest X g vhash p)) as [->|N].
      - rewrite upd_same. intros A. apply orb_true_iff in A as [A|A].
        + rewrite (H _ A). reflexivity.
        + now apply andb_true_iff in A.
      - rewrite upd_diff by auto. intros A. rewrite (H _ A). reflexivity. }
    clearbody s1. destruct (hung s); [injection E as <- <-; exact T1|].
    assert (T2 : told (fst (begin s0 s1 (sdest X g vhash p)))).
    { unfold begin. destruct (started s1 _); [exact T1|]. exact T1. }
    destruct (begin s0 s1 _) as [s2 o1]. cbn [fst] in T2. destruct (hung s2); [injection E as <- <-; exact T2|].
    destruct p as [n x|v i x].
    - destruct (_ && _); [injection E as <- <-; exact T2|].
      pose proof (break_out_told (sdest X g vhash (Reach n x)) n x T2) as T3.
      destruct (break_out _ _ _ _ _ _ _ _ _) as [s3 o2]. injection E as <- <-. exact T3.
    - match type of E with context [carry _ _ _ _ _ _ _ _ _ s2 ?l ?k v i x] => pose proof (carry_told l k v i x T2) as T3 end.
      destruct (carry _ _ _ _ _ _ _ _ _ _ _ _ _ _ _) as [s3 o2]. injection E as <- <-. exact T3.
  Qed.

  (** Once told, never taken back. *)
  Lemma step_skilled s p s' out : skilled s = true -> process s p = Some (s', out) -> skilled s' = true.
  Proof.
    intros H E. unfold spreading in E.
    set (s1 := mkSD _ _ _ _ _ _ _ _ _ _ _ _ _ _ _ _) in E.
    assert (T1 : skilled s1 = true) by (unfold s1; cbn [skilled]; now rewrite H).
    clearbody s1. destruct (hung s); [injection E as <- <-; exact T1|].
    assert (T2 : skilled (fst (begin s0 s1 (sdest X g vhash p))) = true).
    { unfold begin. destruct (started s1 _); exact T1. }
    destruct (begin s0 s1 _) as [s2 o1]. cbn [fst] in T2. destruct (hung s2); [injection E as <- <-; exact T2|].
    destruct p as [n x|v i x].
    - destruct (_ && _); [injection E as <- <-; exact T2|]. unfold break_out in E.
      destruct (serr s2 _); [injection E as <- <-; reflexivity|].
      destruct (souts s2 n); [|injection E as <- <-; exact T2].
      destruct sub, x; try (injection E as <- <-; reflexivity).
      all: match type of E with context [connect ?f ?s ?l ?n ?o ?v] => destruct (connect_told f s l n o v) as [A _]; destruct (connect f s l n o v) as [s3 o2] end;
        injection E as <- <-; simpl in A; apply halt_if_faulty_told; congruence.
    - unfold carry in E. destruct (serr s2 _); [injection E as <- <-; reflexivity|].
      destruct (skil s _ || _); [injection E as <- <-; reflexivity|].
      destruct (collision _ _ _ _ _ _).
      + unfold reach_extant in E. destruct (_ || _); [injection E as <- <-; exact T2|].
        match type of E with context [connect ?f ?s ?l ?n ?o ?v] => destruct (connect_told f s l n o v) as [A _]; destruct (connect f s l n o v) as [s3 o2] end.
        injection E as <- <-. simpl in A. congruence.
      + unfold reached_new in E. destruct (_ =? 0); [|destruct (_ <? _)]; [| |injection E as <- <-; reflexivity].
        all: match type of E with context [connect ?f ?s ?l ?n ?o ?v] => destruct (connect_told f s l n o v) as [A _]; destruct (connect f s l n o v) as [s3 o2] end;
          injection E as <- <-; simpl in A; congruence.
  Qed.

  Theorem C78_failure_stops_others s p s1 out1 t v i x t' out :
    star processed (sstart g s0) s -> serr s (sdest X g vhash p) <> None -> process s p = Some (s1, out1) -> hung s1 = false ->
    star processed s1 t -> notices Y (stick t) = true -> process t (Carry v i x) = Some (t', out) -> calls t' = calls t.
  Proof.
    intros R Er E1 Hh R1 Nt E2.
    assert (T : told s).
    { clear - R. remember (sstart g s0) as z. induction R as [|b c R IH [q [o E]]]; [subst; intros l; discriminate|].
      eapply step_told; [now apply IH|exact E]. }
    assert (K : skilled s1 = true).
    { unfold spreading in E1.
      set (s2 := mkSD _ _ _ _ _ _ _ _ _ _ _ _ _ _ _ _) in E1.
      destruct (hung s) eqn:Eh; [injection E1 as <- <-; unfold s2 in Hh; cbn [hung] in Hh; congruence|].
      assert (F : serr (fst (begin s0 s2 (sdest X g vhash p))) = serr s).
      { unfold begin. destruct (started s2 _); reflexivity. }
      assert (G : skilled (fst (begin s0 s2 (sdest X g vhash p))) = skilled s || killcalls Y (stick s)).
      { unfold begin. destruct (started s2 _); reflexivity. }
      destruct (begin s0 s2 _) as [s3 o1]. cbn [fst] in F, G. destruct (hung s3) eqn:E3; [injection E1 as <- <-; congruence|].
      destruct p as [n y|w j y].
      - destruct (skil s _ && _) eqn:D.
        + injection E1 as <- <-. apply andb_true_iff in D as [D _]. rewrite G, (T _ D). reflexivity.
        + unfold break_out in E1. rewrite F in E1. destruct (serr s _) eqn:Es; [injection E1 as <- <-; reflexivity|congruence].
      - unfold carry in E1. rewrite F in E1. destruct (serr s _) eqn:Es; [injection E1 as <- <-; reflexivity|congruence]. }
    assert (K' : skilled t = true).
    { clear - R1 K. induction R1 as [|b c R IH [q [o E]]]; [exact K|]. eapply step_skilled; [exact IH|exact E]. }
    unfold spreading in E2. rewrite K', Nt in E2. cbn [orb andb] in E2. rewrite orb_true_r in E2.
    destruct (hung t); [injection E2 as <- <-; reflexivity|]. unfold begin in E2. cbn [started] in E2.
    destruct (started t _); cbn [hung orb] in E2; [|destruct (p_loop s0 _); [injection E2 as <- <-; reflexivity|]].
    all: unfold carry in E2; cbn [serr] in E2; match type of E2 with context [serr ?a ?b] => destruct (serr a b) end; injection E2 as <- <-; reflexivity.
  Qed.
End Stop.

(** The function fails for the vertex 30, whose worker then receives it again.  The other one doesn't call the function for the
    vertex 31 any more, as it does if only the first packet was received. *)
Definition XS : env := mkEnv 2 true (fun _ => true) (fun _ => false).
Definition fails30 (o : option word) (v : word) : list (word * word) * option error :=
  if N.eqb v 30 then ([], Some (USERERR 4)) else c1 o v.
Notation carried s v := (spreading XS VG false fails30 N.eqb by_value N.eqb by_value 0 (fresh VG) (pstart VG) none_dropped XS s (Carry v 0 7%N)).
Definition after (r : option (sdata * list spkt)) : sdata := match r with Some (s, _) => s | None => sstart VG (pstart VG) end.
Definition failed1 : sdata := after (carried (sstart VG (pstart VG)) 30%N).
Definition failed2 : sdata := after (carried failed1 30%N).
Example C78_failure_stops_others_ex :
  star (processed XS XS VG false fails30 N.eqb N.eqb by_value by_value 0 (fresh VG) (pstart VG) none_dropped) (sstart VG (pstart VG)) failed1 /\
  serr failed1 (vlane XS by_value 30%N) = Some (USERERR 4) /\ vlane XS by_value 30%N <> vlane XS by_value 31%N /\
  carried failed1 30%N = Some (failed2, []) /\ hung failed2 = false /\
  calls failed2 = [(None, 30%N)] /\ calls (after (carried failed2 31%N)) = [(None, 30%N)] /\
  calls (after (carried failed1 31%N)) = [(None, 31%N); (None, 30%N)].
Proof.
  split.
  { eapply star_step; [apply star_refl|]. exists (Carry 30%N 0 7%N), []. reflexivity. }
  split; [vm_compute; reflexivity|]. split; [vm_compute; discriminate|]. split; [reflexivity|]. repeat (split; [vm_compute; reflexivity|]).
  vm_compute; reflexivity.
Qed.
