(** What a finished build has produced, derived from the invariants. *)
From Coq Require Import List Arith NArith Lia Bool Permutation.
From Verif Require Import Base Machine Brigade BrigadeProofs Graph Build BuildProofs BuildMore PortsTerm.
Import ListNotations.

(** Sorting a list into lanes loses nothing. *)
Lemma flat_filter_perm {A} (f : A -> nat) n (L : list A) :
  (forall x, In x L -> f x < n) ->
  Permutation (flat n (fun l => filter (fun x => Nat.eqb (f x) l) L)) L.
Proof.
  induction L as [|a L IH]; intros H.
  - assert (E : flat n (fun l => filter (fun x : A => Nat.eqb (f x) l) []) = []) by now apply flat_nil.
    now rewrite E.
  - assert (Ha : f a < n) by (apply H; simpl; auto).
    destruct (@flat_split _ n (fun l => filter (fun x => Nat.eqb (f x) l) L) (f a) Ha) as (R & P1 & P2).
    rewrite (@flat_ext _ n _ (upd (fun l => filter (fun x => Nat.eqb (f x) l) L) (f a)
                                (a :: filter (fun x => Nat.eqb (f x) (f a)) L))).
    + rewrite P2. simpl. constructor. rewrite <- P1. apply IH. intros; apply H; simpl; auto.
    + intros i Hi. unfold upd. simpl. destruct (Nat.eqb i (f a)) eqn:Ei.
      * apply Nat.eqb_eq in Ei. subst i. now rewrite Nat.eqb_refl.
      * rewrite Nat.eqb_sym, Ei. reflexivity.
Qed.

Lemma flat_length {A} n (f : nat -> list A) b :
  (forall l, l < n -> length (f l) <= b) -> length (flat n f) <= n * b.
Proof.
  induction n; simpl; intros H; auto. rewrite app_length.
  specialize (IHn (fun l Hl => H l (Nat.lt_lt_succ_r _ _ Hl))). specialize (H n (Nat.lt_succ_diag_r n)). lia.
Qed.

Lemma flat_map_flat {B} (f : nat -> list B) (q : nat -> list nat) n :
  flat_map f (flat n q) = flat n (fun l => flat_map f (q l)).
Proof. induction n; simpl; auto. now rewrite flat_map_app, IHn. Qed.

Lemma flat_seq {A} (f : nat -> list A) n : flat n f = flat_map f (seq 0 n).
Proof. induction n; auto. rewrite seq_S, flat_map_app. simpl. now rewrite IHn, app_nil_r. Qed.

(** Pairwise inequivalent elements, each equivalent to a member of a list, are no more
    numerous than that list. *)
Lemma pigeonhole {A B} (r : A -> B -> Prop) (d : A -> A -> Prop) (L : list A) :
  (forall x y z, r x z -> r y z -> d x y) ->
  forall C : list B, ForallOrdPairs (fun x y => ~ d x y) L -> (forall x, In x L -> exists z, In z C /\ r x z) ->
  length L <= length C.
Proof.
  intros Hr. induction L as [|a L IH]; intros C HF HC; simpl; [lia|].
  inversion HF; subst. destruct (HC a) as (z & Hz & Ra); simpl; auto.
  apply in_split in Hz as (C1 & C2 & ->).
  assert (length L <= length (C1 ++ C2)).
  { apply IH; auto. intros x Hx. destruct (HC x) as (z' & Hz' & Rx); simpl; auto.
    exists z'. split; auto. apply in_app_or in Hz' as [Hz'|[Hz'|Hz']]; apply in_or_app; auto.
    subst z'. exfalso. rewrite Forall_forall in H1. apply (H1 x Hx). eauto. }
  rewrite app_length in *. simpl. lia.
Qed.

Section BuildMain.
  Context {V E : Type}.
  Variable B : builder V E.
  Variable X : env.
  Hypothesis Hveq : equivalence (b_veq B).
  Hypothesis Hvh : forall x y, b_veq B x y = true -> b_vhash B x = b_vhash B y.
  Hypothesis Heeq : equivalence (b_eeq B).
  Hypothesis Heh : forall x y, b_eeq B x y = true -> b_ehash B x = b_ehash B y.
  Hypothesis Hlanes : 0 < lanes X.
  Variable v0 : V.

  Notation bst := (@bst V E).
  Notation pkt := (@pkt V E).
  Notation bedge := (@bedge V E).
  Notation nn s := (length (verts s)).
  Notation vt s n := (vtx s n v0).
  Notation ln v := (lane X (b_vhash B v)).
  Notation alle s := (flat (nn s) (outs s)).
  Notation invs := (invs B X v0).

  Variable s : bst.
  Variable order : list nat.
  Hypothesis Hinv : invs s [].
  Hypothesis Hord : Permutation order (seq 0 (lanes X)).

  Lemma nodes_perm : Permutation (flat (lanes X) (queue s)) (seq 0 (nn s)).
  Proof.
    destruct Hinv as (I1 & _).
    rewrite (@flat_ext _ (lanes X) _ (fun l => filter (fun n => Nat.eqb (ln (vt s n)) l) (seq 0 (nn s)))).
    - apply flat_filter_perm. intros. now apply lane_of_lt.
    - intros. apply (i_queue _ _ _ _ I1).
  Qed.

  Lemma first_error_none : first_error s order = None -> forall l, lerr s l = None.
  Proof.
    intros H l. destruct Hinv as (_ & _ & _ & _ & I6).
    destruct (lerr s l) eqn:El; auto. exfalso.
    assert (Hl : l < lanes X) by (apply (m_lanes _ _ _ I6); congruence).
    assert (Ho : In l order) by (eapply Permutation_in; [symmetry; exact Hord|]; apply in_seq; lia).
    clear Hl Hord. induction order as [|a o IH]; simpl in *; auto.
    destruct (lerr s a) eqn:Ea; [discriminate|]. destruct Ho as [<-|Ho]; [congruence|auto].
  Qed.

  Lemma first_error_some e : first_error s order = Some e -> exists l, lerr s l = Some e.
  Proof.
    clear. induction order as [|a o IH]; simpl; [discriminate|].
    destruct (lerr s a) eqn:Ea; auto. intros H. inversion H; subst. eauto.
  Qed.

  Lemma queue_root : 0 < nn s -> exists q, queue s (ln v0) = 0 :: q.
  Proof.
    intros H. destruct Hinv as (I1 & _ & I4 & _). rewrite (i_queue _ _ _ _ I1).
    destruct (nn s) as [|k] eqn:En; [lia|]. simpl. unfold inlane. rewrite (k_root _ _ I4) by lia.
    rewrite Nat.eqb_refl. eauto.
  Qed.

  Lemma nonempty : (forall l, lerr s l = None) -> killed s = false -> 0 < nn s.
  Proof.
    intros H1 H2. destruct Hinv as (_ & I2 & _). destruct (nn s) eqn:En; [|lia].
    destruct (j_compl _ _ _ _ _ I2) as [_ A]; [split; auto|]. specialize (A En). discriminate.
  Qed.

  (** Success and failure are exclusive and exhaustive. *)
  Lemma finish_cases :
    (exists g, o_graph (finish B X v0 order s) = Some g /\ o_err (finish B X v0 order s) = None /\
       clean s /\ 0 < nn s /\ killcalls X (tick s) = false /\
       ids g = flat (lanes X) (queue s) /\ vx g = (fun n => vt s n) /\ es g = node_edges B X s /\ root g = 0 /\
       o_vfree (finish B X v0 order s) = vfree s /\
       o_efree (finish B X v0 order s) =
         flat_map (fun n => map elab (snd (finished_edges B X s n))) (flat (lanes X) (queue s)) ++ efree s) \/
    (exists e, o_graph (finish B X v0 order s) = None /\ o_err (finish B X v0 order s) = Some e /\
       (first_error s order = Some e \/
        first_error s order = None /\ e = INTKIL /\ (killed s = true \/ killcalls X (tick s) = true)) /\
       o_vfree (finish B X v0 order s) = map (fun n => vt s n) (flat (lanes X) (queue s)) ++ vfree s /\
       Permutation (o_efree (finish B X v0 order s)) (map elab (alle s) ++ efree s)).
  Proof.
    assert (Pe : Permutation (flat (lanes X)
              (fun l => if match lerr s l with None => true | Some _ => false end
                        then flat_map (fun n => map elab (fst (finished_edges B X s n))) (queue s l) ++
                             flat_map (fun n => map elab (snd (finished_edges B X s n))) (queue s l)
                        else flat_map (fun n => map elab (outs s n)) (queue s l)))
              (map elab (alle s))).
    { assert (Pn : forall n, Permutation (map elab (outs s n))
                (map elab (fst (finished_edges B X s n)) ++ map elab (snd (finished_edges B X s n)))).
      { intros n. rewrite <- map_app. apply Permutation_map. unfold finished_edges.
        destruct (b_sub B); [|simpl; now rewrite app_nil_r].
        apply (dd_perm (@deduplicated_edges_dedup bedge E (b_eeq B) (judy X) (b_ehash B) elab
                          (fun e => N.of_nat (remote s e)) (outs s n) Heeq Heh)). }
      assert (Pl : forall q, Permutation (flat_map (fun n => map elab (fst (finished_edges B X s n))) q ++
                             flat_map (fun n => map elab (snd (finished_edges B X s n))) q)
                             (flat_map (fun n => map elab (outs s n)) q)).
      { induction q as [|a q IH]; simpl; auto. rewrite Pn, <- IH. perm_solve. }
      assert (G : forall m, Permutation (flat m
              (fun l => if match lerr s l with None => true | Some _ => false end
                        then flat_map (fun n => map elab (fst (finished_edges B X s n))) (queue s l) ++
                             flat_map (fun n => map elab (snd (finished_edges B X s n))) (queue s l)
                        else flat_map (fun n => map elab (outs s n)) (queue s l)))
              (flat m (fun l => flat_map (fun n => map elab (outs s n)) (queue s l)))).
      { induction m; simpl; auto. rewrite IHm. apply Permutation_app_head.
        destruct (lerr s m); auto. }
      rewrite G, <- flat_map_flat, (Permutation_flat_map _ nodes_perm), flat_seq.
      clear. induction (seq 0 (nn s)); simpl; auto. rewrite map_app. now apply Permutation_app_head. }
    unfold finish. destruct (first_error s order) as [e|] eqn:Ef.
    { right. exists e. simpl. repeat split; auto. now apply Permutation_app_tail. }
    destruct (killed s || killcalls X (tick s)) eqn:Ek.
    { right. exists INTKIL. simpl. split; auto. split; auto. split; [|split]; auto.
      - right. apply orb_true_iff in Ek. auto.
      - now apply Permutation_app_tail. }
    left. apply orb_false_iff in Ek as [Ek Ek'].
    pose proof (first_error_none Ef) as Hl. pose proof (nonempty Hl Ek) as Hn.
    destruct (queue_root Hn) as (q & Eq). simpl. rewrite Eq.
    eexists. repeat split; auto.
  Qed.

  (** ** The graph after a success *)
  Section Success.
    Hypothesis Hclean : clean s.

    Notation occs s n := (occs s n).

    Lemma resolved n e : n < nn s -> In e (outs s n) ->
      exists m, remote s e = m /\ m < nn s /\ b_veq B (edst e) (vt s m) = true /\ hasocc B s m (elab e).
    Proof.
      intros Hn He. destruct Hinv as (_ & I2 & _).
      assert (Ha : In e (alle s)) by (apply flat_in; eauto).
      destruct (j_compl _ _ _ _ _ I2 Hclean) as [A _].
      unfold remote. destruct (res s (eid e)) as [m|] eqn:Er.
      - exists m. split; auto. eapply (j_res _ _ _ _ _ I2); eauto.
      - exfalso. now apply (A e Ha) in Er.
    Qed.

    Lemma vt_inj i j : i < nn s -> j < nn s -> b_veq B (vt s i) (vt s j) = true -> i = j.
    Proof.
      intros Hi Hj He. destruct Hinv as (I1 & _).
      destruct (lt_eq_lt_dec i j) as [[H|H]|H]; auto; exfalso.
      - rewrite (i_distinct _ _ _ _ I1) in He; auto. discriminate.
      - rewrite (eqv_symb Hveq), (i_distinct _ _ _ _ I1) in He; auto. discriminate.
    Qed.

    Lemma call_ok n o : n < nn s -> In o (occs s n) -> snd (b_conn B o (vt s n)) = None.
    Proof.
      intros Hn Ho. destruct Hinv as (_ & _ & _ & I5 & I6).
      destruct (snd (b_conn B o (vt s n))) eqn:Es; auto. exfalso.
      destruct (m_called _ _ _ I6 o (vt s n) e) as (l & Hl); auto.
      - eapply Permutation_in; [symmetry; apply (l_c _ _ _ I5)|]. apply flat_in. exists n. split; auto.
        apply in_map_iff. eauto.
      - now rewrite (proj1 Hclean l) in Hl.
    Qed.

    (** Edges before the final deduplication. *)
    Lemma outs_sound n e : n < nn s -> In e (outs s n) ->
      exists o, In o (occs s n) /\ In (elab e, edst e) (fst (b_conn B o (vt s n))).
    Proof.
      intros Hn He. destruct Hinv as (_ & I2 & _). pose proof (j_cont _ _ _ _ _ I2 n Hn) as Hc.
      assert (H : In (elab e, edst e) (map (fun e => (elab e, edst e)) (outs s n))) by (apply in_map_iff; eauto).
      rewrite Hc in H. apply in_flat_map in H as (o & Ho & H). exists o. split; auto.
      destruct (declare B X o (vt s n)) as [[k f] er] eqn:Ed.
      eapply (declare_incl B X Hveq Heeq Heh); eauto.
    Qed.

    Lemma outs_complete n o l w : n < nn s -> In o (occs s n) -> In (l, w) (fst (b_conn B o (vt s n))) ->
      exists e, In e (outs s n) /\ b_eeq B l (elab e) = true /\ b_veq B w (edst e) = true.
    Proof.
      intros Hn Ho Hl. destruct Hinv as (_ & I2 & _). pose proof (j_cont _ _ _ _ _ I2 n Hn) as Hc.
      destruct (declare B X o (vt s n)) as [[k f] er] eqn:Ed.
      destruct (declare_ok B X Hveq Heeq Heh _ _ _ _ _ Ed) as (De & _ & Dd & _).
      rewrite (call_ok n o Hn Ho) in De. destruct (dd_cover (Dd De) _ Hl) as ([l' w'] & Hk & Hq).
      unfold deq in Hq. simpl in Hq. apply andb_prop in Hq as [Q1 Q2].
      assert (H : In (l', w') (map (fun e => (elab e, edst e)) (outs s n))).
      { rewrite Hc. apply in_flat_map. exists o. split; auto. now rewrite Ed. }
      apply in_map_iff in H as (e & H & He). inversion H; subst. eauto.
    Qed.

    Lemma outs_distinct n : n < nn s -> b_sub B = false ->
      ForallOrdPairs (fun e e' => ~ (b_eeq B (elab e) (elab e') = true /\ remote s e = remote s e')) (outs s n).
    Proof.
      intros Hn Hs. destruct Hinv as (_ & I2 & _). pose proof (j_cont _ _ _ _ _ I2 n Hn) as Hc.
      destruct (oo_conn _ _ _ (j_occs _ _ _ _ _ I2 n Hn) Hs) as [Ho _]. rewrite Ho in Hc. simpl in Hc.
      rewrite app_nil_r in Hc.
      destruct (declare B X None (vt s n)) as [[k f] er] eqn:Ed. simpl in Hc.
      destruct (declare_ok B X Hveq Heeq Heh _ _ _ _ _ Ed) as (De & _ & Dd & _).
      rewrite call_ok in De; auto; [|rewrite Ho; simpl; auto].
      pose proof (dd_distinct (Dd De)) as HF. rewrite <- Hc in HF.
      assert (G : forall l, (forall e, In e l -> In e (outs s n)) ->
          ForallOrdPairs (fun x y => deq B x y = false) (map (fun e : bedge => (elab e, edst e)) l) ->
          ForallOrdPairs (fun e e' => ~ (b_eeq B (elab e) (elab e') = true /\ remote s e = remote s e')) l).
      { induction l as [|e l IH]; intros Hin HFl; [constructor|]. simpl in HFl. inversion HFl; subst.
        constructor; [|apply IH; auto; intros; apply Hin; simpl; auto].
        rewrite Forall_forall in *. intros e' He' [Q1 Q2].
        assert (H : deq B (elab e, edst e) (elab e', edst e') = false).
        { apply H1. apply in_map_iff. exists e'. auto. }
        unfold deq in H. simpl in H. rewrite Q1 in H. simpl in H.
        destruct (resolved n e Hn (Hin e (or_introl eq_refl))) as (m & R1 & R2 & R3 & _).
        destruct (resolved n e' Hn (Hin e' (or_intror He'))) as (m' & R1' & R2' & R3' & _).
        assert (m = m') by congruence. subst m'.
        assert (H' : b_veq B (edst e) (edst e') = true); [|congruence].
        eapply (eqv_trans Hveq); [exact R3|]. rewrite (eqv_symb Hveq). congruence. }
      apply G; auto.
    Qed.

    Lemma finished_sub n e : In e (fst (finished_edges B X s n)) -> In e (outs s n).
    Proof.
      unfold finished_edges. destruct (b_sub B); auto. intros He.
      pose proof (dd_perm (@deduplicated_edges_dedup bedge E (b_eeq B) (judy X) (b_ehash B) elab
                          (fun e => N.of_nat (remote s e)) (outs s n) Heeq Heh)) as P.
      eapply Permutation_in; [symmetry; exact P|]. apply in_or_app; auto.
    Qed.

    Lemma finished_cover n e : In e (outs s n) ->
      exists e', In e' (fst (finished_edges B X s n)) /\ b_eeq B (elab e) (elab e') = true /\ remote s e = remote s e'.
    Proof.
      intros He. unfold finished_edges. destruct (b_sub B).
      - destruct (dd_cover (@deduplicated_edges_dedup bedge E (b_eeq B) (judy X) (b_ehash B) elab
                          (fun e => N.of_nat (remote s e)) (outs s n) Heeq Heh) _ He) as (e' & H1 & H2).
        apply andb_prop in H2 as [H2 H3]. apply N.eqb_eq in H2. exists e'. repeat split; auto. lia.
      - exists e. repeat split; auto. apply (eqv_refl Heeq).
    Qed.

    Lemma finished_distinct n : n < nn s ->
      ForallOrdPairs (fun a b : E * nat => ~ (b_eeq B (fst a) (fst b) = true /\ snd a = snd b)) (node_edges B X s n).
    Proof.
      intros Hn. unfold node_edges.
      assert (G : ForallOrdPairs (fun e e' => ~ (b_eeq B (elab e) (elab e') = true /\ remote s e = remote s e'))
                    (fst (finished_edges B X s n))).
      { unfold finished_edges. destruct (b_sub B) eqn:Es; [|simpl; now apply outs_distinct].
        eapply FOP_imp; [|apply (dd_distinct (@deduplicated_edges_dedup bedge E (b_eeq B) (judy X) (b_ehash B) elab
                          (fun e => N.of_nat (remote s e)) (outs s n) Heeq Heh))].
        simpl. intros x y _ _ H [Q1 Q2]. rewrite Q1, Q2, N.eqb_refl in H. discriminate. }
      induction G; simpl; constructor; auto.
      rewrite Forall_forall in *. intros b Hb. apply in_map_iff in Hb as (e' & <- & He'). simpl. auto.
    Qed.

    Lemma edge_sound n l m : n < nn s -> In (l, m) (node_edges B X s n) ->
      exists e, In e (outs s n) /\ elab e = l /\ remote s e = m /\ m < nn s /\
        b_veq B (edst e) (vt s m) = true /\ hasocc B s m l.
    Proof.
      intros Hn H. unfold node_edges in H. apply in_map_iff in H as (e & H & He). inversion H; subst.
      apply finished_sub in He. destruct (resolved n e Hn He) as (m & R1 & R2 & R3 & R4).
      exists e. rewrite R1. auto 10.
    Qed.

    Lemma edge_of n e : n < nn s -> In e (outs s n) ->
      exists l, In (l, remote s e) (node_edges B X s n) /\ b_eeq B (elab e) l = true.
    Proof.
      intros Hn He. destruct (finished_cover n e He) as (e' & H1 & H2 & H3).
      exists (elab e'). split; auto. unfold node_edges. apply in_map_iff. exists e'. now rewrite H3.
    Qed.

    (** Edges with respect to the occasions on which the connector was called. *)
    Lemma es_sound n l m : n < nn s -> In (l, m) (node_edges B X s n) ->
      m < nn s /\ exists o w, In o (occs s n) /\ In (l, w) (fst (b_conn B o (vt s n))) /\ b_veq B w (vt s m) = true.
    Proof.
      intros Hn H. destruct (edge_sound n l m Hn H) as (e & A1 & A2 & A3 & A4 & A5 & _). split; auto.
      destruct (outs_sound n e Hn A1) as (o & O1 & O2). exists o, (edst e). subst l. auto.
    Qed.

    Lemma es_complete n o l w : n < nn s -> In o (occs s n) -> In (l, w) (fst (b_conn B o (vt s n))) ->
      exists l' m, In (l', m) (node_edges B X s n) /\ m < nn s /\ b_eeq B l l' = true /\ b_veq B w (vt s m) = true.
    Proof.
      intros Hn Ho Hl. destruct (outs_complete n o l w Hn Ho Hl) as (e & He & Q1 & Q2).
      destruct (resolved n e Hn He) as (m & R1 & R2 & R3 & _).
      destruct (edge_of n e Hn He) as (l' & E1 & E2). rewrite R1 in E1. exists l', m. repeat split; auto.
      - eapply (eqv_trans Heeq); eauto.
      - eapply (eqv_trans Hveq); eauto.
    Qed.

    (** Occasions and incoming edges. *)
    Lemma occ_iff n x : b_sub B = true -> n < nn s ->
      ((exists y, In (Some y) (occs s n) /\ b_eeq B x y = true) <->
       (exists m l, m < nn s /\ In (l, n) (node_edges B X s m) /\ b_eeq B x l = true)).
    Proof.
      intros Hs Hn. destruct Hinv as (_ & I2 & I4 & _). split.
      - intros (y & Hy & Ey). destruct (k_occ _ _ I4 n y Hn Hy) as (e & He & Hr & Hl).
        apply flat_in in He as (m & Hm & He). destruct (edge_of m e Hm He) as (l & E1 & E2).
        unfold remote in E1. rewrite Hr in E1. exists m, l. repeat split; auto.
        eapply (eqv_trans Heeq); [exact Ey|]. now rewrite <- Hl.
      - intros (m & l & Hm & Hl & Ex). destruct (edge_sound m l n Hm Hl) as (e & A1 & A2 & A3 & A4 & A5 & A6).
        unfold hasocc in A6. rewrite Hs in A6. destruct A6 as (y & Hy & Ey). exists y. split; auto.
        eapply (eqv_trans Heeq); eauto.
    Qed.

    Lemma path_root n : n < nn s ->
      forall g : graph V E, es g = node_edges B X s -> root g = 0 -> path g 0 n.
    Proof.
      intros Hn g Hg Hr. destruct Hinv as (_ & _ & I4 & _).
      induction n as [n IH] using lt_wf_ind.
      destruct (Nat.eq_dec n 0) as [->|Hz]; [constructor|].
      destruct (k_par _ _ I4 n) as (m & e & Hm & He & Hre & _); try lia.
      destruct (edge_of m e ltac:(lia) He) as (l & E1 & _). unfold remote in E1. rewrite Hre in E1.
      eapply path_step; [apply (IH m); lia|]. rewrite Hg. exact E1.
    Qed.
  End Success.
End BuildMain.
