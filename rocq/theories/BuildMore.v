(** Further invariants of the building task: which calls are made, the ledger of user
    data, the vertex limit, and where errors come from. *)
From Coq Require Import List Arith NArith Lia Bool Permutation.
From Verif Require Import Base Machine Brigade BrigadeProofs Graph Build BuildProofs.
Import ListNotations.

Section BuildMore.
  Context {V E : Type}.
  Variable B : builder V E.
  Variable X : env.
  Hypothesis Hveq : equivalence (b_veq B).
  Hypothesis Hvh : forall x y, b_veq B x y = true -> b_vhash B x = b_vhash B y.
  Hypothesis Heeq : equivalence (b_eeq B).
  Hypothesis Heh : forall x y, b_eeq B x y = true -> b_ehash B x = b_ehash B y.
  Hypothesis Hlanes : 0 < lanes X.
  Variable v0 : V.

  Notation bst := (@bst V E).
  Notation pkt := (@pkt V E).
  Notation bedge := (@bedge V E).
  Notation nn s := (length (verts s)).
  Notation vt s n := (vtx s n v0).
  Notation ln v := (lane X (b_vhash B v)).
  Notation bn v := (bin X (b_vhash B v)).
  Notation b1 s := (begin X s).
  Notation alle s := (flat (nn s) (outs s)).

  (** ** The occasions of the calls *)
  Section Calls.
    Variable R : option E -> V -> Prop.
    Hypothesis HR0 : R None v0.
    Hypothesis HR1 : forall o v l w, R o v -> In (l, w) (fst (b_conn B o v)) ->
                       R (if b_sub B then Some l else None) w.
    Hypothesis HR2 : forall o v w, R o v -> b_veq B v w = true -> R o w.

    Definition inv3 (s : bst) (bag : list pkt) : Prop :=
      (forall n o, n < nn s -> In o (occs s n) -> R o (vt s n)) /\
      (forall p, In p bag -> R (occ B p) (pay p)).

    Lemma scatter_R o v k i p :
      R o v -> (forall d, In d k -> In d (fst (b_conn B o v))) ->
      In p (scatter (number i k)) -> R (occ B p) (pay p).
    Proof.
      intros Ho Hk Hp. apply scatter_in in Hp as (e & He & E1 & E2 & E3).
      apply number_in in He as [_ He]. apply Hk in He. unfold occ. rewrite E1, E3. eapply HR1; eauto.
    Qed.

    Lemma declare_incl o v k f e :
      declare B X o v = (k, f, e) -> forall d, In d k -> In d (fst (b_conn B o v)).
    Proof.
      intros H d Hd. apply (declare_ok B X Hveq Heeq Heh) in H as (_ & P & _).
      eapply Permutation_in; [symmetry; exact P|]. apply in_or_app; auto.
    Qed.

    Lemma inv3_step s p bag s' out :
      inv1 B X v0 s -> inv2 B X v0 s (p :: bag) -> inv3 s (p :: bag) -> effect B X s p s' out -> inv3 s' (out ++ bag).
    Proof.
      intros I J [K1 K2] Ef. destruct Ef.
      - split; simpl; [|intros; apply K2; simpl; auto].
        intros n o. unfold vtx. rewrite H, H7. apply K1.
      - split; simpl; [|intros; apply K2; simpl; auto].
        intros m o. unfold vtx. rewrite H3, H11. apply K1.
      - pose proof (collision_some B X v0 s p n I H1) as [Hn He].
        assert (Vd : vtx s n (pay p) = vt s n) by now apply vtx_default. rewrite Vd in *.
        assert (Rx : R (Some x) (vt s n)).
        { specialize (K2 p (or_introl eq_refl)). unfold occ in K2. rewrite H2, H3 in K2. eauto. }
        split.
        + intros m o. unfold vtx. rewrite H6, H14. fold (vt s m). intros Hm. unfold upd. destruct (Nat.eqb m n) eqn:Em; [|now apply K1].
          apply Nat.eqb_eq in Em. subst m. intros [<-|Ho]; [exact Rx|apply (K1 n o Hn Ho)].
        + intros q Hq. apply in_app_or in Hq as [Hq|Hq]; [|apply K2; simpl; auto].
          eapply scatter_R; [exact Rx|eapply declare_incl; exact H5|exact Hq].
      - assert (L : nn s' = S (nn s)) by (rewrite H4, app_length; simpl; lia).
        assert (Vl : vt s' (nn s) = pay p) by (eapply vt_last; eauto).
        assert (Vo : forall n, n < nn s -> vt s' n = vt s n) by (intros; eapply vt_app; eauto).
        assert (Rp : R (occ B p) (pay p)) by (apply K2; simpl; auto).
        split.
        + intros m o Hm. rewrite L in Hm. rewrite H12. unfold upd. destruct (Nat.eqb m (nn s)) eqn:Em.
          * apply Nat.eqb_eq in Em. subst m. rewrite Vl, (i_occs _ _ _ _ I) by lia. intros [<-|[]]. auto.
          * apply Nat.eqb_neq in Em. rewrite Vo by lia. apply K1. lia.
        + intros q Hq. apply in_app_or in Hq as [Hq|Hq]; [|apply K2; simpl; auto].
          eapply scatter_R; [exact Rp|eapply declare_incl; exact H3|exact Hq].
    Qed.

    Lemma inv3_start : inv3 (start v0) [first v0].
    Proof.
      split; simpl; [lia|]. intros p [<-|[]]. unfold occ. simpl. now destruct (b_sub B).
    Qed.
  End Calls.

  (** ** Where nodes and occasions come from *)
  Record inv4 (s : bst) : Prop := {
    k_root : 0 < nn s -> vt s 0 = v0;
    k_par : forall n, 0 < n -> n < nn s ->
      exists m e, m < n /\ In e (outs s m) /\ res s (eid e) = Some n /\ edst e = vt s n;
    k_occ : forall n x, n < nn s -> In (Some x) (occs s n) ->
      exists e, In e (alle s) /\ res s (eid e) = Some n /\ elab e = x
  }.

  Lemma res_stable s p bag m i n :
    inv2 B X v0 s (p :: bag) -> res s i = Some n -> set_remote s p m i = Some n.
  Proof.
    intros J Hr. unfold set_remote. destruct (car p) as [j|] eqn:Ec; auto.
    destruct (Nat.eq_dec i j) as [->|Hn]; [|now rewrite upd_diff].
    destruct (j_bag _ _ _ _ _ J p j) as [Hx _]; simpl; auto. congruence.
  Qed.

  Lemma inv4_step s p bag s' out :
    inv1 B X v0 s -> inv2 B X v0 s (p :: bag) -> inv4 s -> effect B X s p s' out -> inv4 s'.
  Proof.
    intros I J [K1 K2 K3] Ef. destruct Ef.
    - split; unfold vtx; rewrite ?H, ?H0, ?H4, ?H7; auto.
    - split; unfold vtx; rewrite ?H3, ?H4, ?H8, ?H11; auto.
      + intros m Hm Hm'. destruct (K2 m Hm Hm') as (m' & e & A1 & A2 & A3 & A4).
        exists m', e. repeat split; auto. eapply res_stable; eauto.
      + intros m x Hm Hx. destruct (K3 m x Hm Hx) as (e & A1 & A2 & A3).
        exists e. repeat split; auto. eapply res_stable; eauto.
    - pose proof (collision_some B X v0 s p n I H1) as [Hn He].
      assert (Vs : forall m, vt s' m = vt s m) by (intros; unfold vtx; now rewrite H6).
      assert (Al : forall e, In e (alle s) -> In e (alle s')).
      { intros e0. rewrite H6, H7, !flat_in. intros (i & Hi & Hin). exists i. split; auto.
        unfold upd. destruct (Nat.eqb i n) eqn:Ei; auto. apply Nat.eqb_eq in Ei. subst. apply in_or_app; auto. }
      split.
      + rewrite H6, Vs. auto.
      + intros m Hm Hm'. rewrite H6 in Hm'. destruct (K2 m Hm Hm') as (m' & e0 & A1 & A2 & A3 & A4).
        exists m', e0. rewrite Vs, H11, H7. repeat split; auto; [|eapply res_stable; eauto].
        unfold upd. destruct (Nat.eqb m' n) eqn:Ei; auto. apply Nat.eqb_eq in Ei. subst. apply in_or_app; auto.
      + intros m y Hm. rewrite H6 in Hm. rewrite H14. unfold upd.
        assert (Old : In (Some y) (occs s m) -> exists e, In e (alle s') /\ res s' (eid e) = Some m /\ elab e = y).
        { intros Hy. destruct (K3 m y Hm Hy) as (e0 & A1 & A2 & A3). exists e0. rewrite H11.
          repeat split; auto. eapply res_stable; eauto. }
        destruct (Nat.eqb m n) eqn:Em; auto. apply Nat.eqb_eq in Em. subst m.
        intros [Hy|Hy]; auto. inversion Hy; subst y.
        destruct (car p) as [i|] eqn:Ecar.
        * destruct (j_bag _ _ _ _ _ J p i) as (_ & e0 & A1 & A2 & A3 & A4); simpl; auto.
          exists e0. split; [now apply Al|]. split; [|congruence].
          rewrite H11. unfold set_remote. rewrite Ecar, A2. apply upd_same.
        * destruct (j_none _ _ _ _ _ J p) as (-> & _); simpl; auto. discriminate.
    - assert (L : nn s' = S (nn s)) by (rewrite H4, app_length; simpl; lia).
      assert (Vl : vt s' (nn s) = pay p) by (eapply vt_last; eauto).
      assert (Vo : forall n, n < nn s -> vt s' n = vt s n) by (intros; eapply vt_app; eauto).
      assert (Oo : forall m e, In e (outs s m) -> m < nn s -> In e (outs s' m)).
      { intros m e0 Hin Hm. rewrite H5, upd_diff by lia. auto. }
      assert (Al : forall e, In e (alle s) -> In e (alle s')).
      { intros e0. rewrite L, !flat_in. intros (i & Hi & Hin). exists i. split; auto. }
      assert (Hcar : forall i, car p = Some i -> exists m e, m < nn s /\ In e (outs s m) /\ eid e = i /\ edst e = pay p /\ lab p = Some (elab e)).
      { intros i Hi. destruct (j_bag _ _ _ _ _ J p i) as (_ & e0 & A1 & A2 & A3 & A4); simpl; auto.
        apply flat_in in A1 as (m & Hm & A1). exists m, e0. auto. }
      assert (Hnone : car p = None -> p = first v0 /\ nn s = 0).
      { intros Hc. destruct (j_none _ _ _ _ _ J p) as (? & ? & _); simpl; auto. }
      split.
      + intros _. destruct (Nat.eq_dec (nn s) 0) as [Hz|Hz].
        * rewrite <- Hz at 1. rewrite Vl. destruct (car p) as [i|] eqn:Ecar.
          -- destruct (Hcar i eq_refl) as (m & ? & Hm & _). lia.
          -- destruct (Hnone eq_refl) as [-> _]. reflexivity.
        * rewrite Vo by lia. apply K1. lia.
      + intros n Hn Hn'. rewrite L in Hn'. destruct (Nat.eq_dec n (nn s)) as [->|Hne].
        * destruct (car p) as [i|] eqn:Ecar; [|destruct (Hnone eq_refl); lia].
          destruct (Hcar i eq_refl) as (m & e0 & A1 & A2 & A3 & A4 & A5). exists m, e0.
          rewrite Vl, H9. repeat split; auto. unfold set_remote. rewrite Ecar, A3. apply upd_same.
        * destruct (K2 n) as (m & e0 & A1 & A2 & A3 & A4); try lia. exists m, e0.
          rewrite Vo, H9 by lia. repeat split; auto; [apply Oo; auto; lia|eapply res_stable; eauto].
      + intros n y Hn. rewrite L in Hn. rewrite H12. unfold upd. destruct (Nat.eqb n (nn s)) eqn:En.
        * apply Nat.eqb_eq in En. subst n. rewrite (i_occs _ _ _ _ I) by lia. intros [Hy|[]].
          unfold occ in Hy. destruct (b_sub B); [|discriminate].
          destruct (car p) as [i|] eqn:Ecar.
          -- destruct (Hcar i eq_refl) as (m & e0 & A1 & A2 & A3 & A4 & A5). exists e0.
             split; [|split; [|congruence]].
             ++ apply Al. apply flat_in. eauto.
             ++ rewrite H9. unfold set_remote. rewrite Ecar, A3. apply upd_same.
          -- destruct (Hnone eq_refl) as [-> _]. discriminate.
        * apply Nat.eqb_neq in En. intros Hy. destruct (K3 n y) as (e0 & A1 & A2 & A3); try lia; auto.
          exists e0. rewrite H9. repeat split; auto. eapply res_stable; eauto.
  Qed.

  Lemma inv4_start : inv4 (start v0).
  Proof. split; simpl; intros; lia. Qed.

  (** ** The ledger *)
  Record inv5 (s : bst) (bag : list pkt) : Prop := {
    l_v : Permutation (hv s) (verts s ++ map pay bag ++ vfree s);
    l_e : Permutation (he s) (map elab (alle s) ++ efree s);
    l_c : Permutation (calls s) (flat (nn s) (fun n => map (fun o => (o, vt s n)) (occs s n)))
  }.

  Lemma inv5_step s p bag s' out :
    inv1 B X v0 s -> inv5 s (p :: bag) -> effect B X s p s' out -> inv5 s' (out ++ bag).
  Proof.
    intros I [K1 K2 K3] Ef. destruct Ef.
    - split; unfold vtx in *; rewrite ?H, ?H0, ?H4, ?H6, ?H7, ?H8, ?H9, ?H10, ?H11; auto.
      rewrite K1. simpl. perm_solve.
    - split; unfold vtx in *; rewrite ?H3, ?H4, ?H8, ?H10, ?H11, ?H12, ?H13, ?H14, ?H15; auto.
      rewrite K1. simpl. perm_solve.
    - pose proof (collision_some B X v0 s p n I H1) as [Hn He].
      assert (Vd : vtx s n (pay p) = vt s n) by now apply vtx_default. rewrite Vd in *.
      apply (declare_ok B X Hveq Heeq Heh) in H5 as (_ & P & _).
      split.
      + rewrite H16, H6, H18, map_app, scatter_pay, number_dsts, K1.
        rewrite (Permutation_map snd P), map_app. simpl. perm_solve.
      + rewrite H17, H6, H7, H15, K2. rewrite (Permutation_map fst P), map_app.
        destruct (flat_split (outs s) Hn) as (Rr & P1 & P2).
        rewrite (Permutation_map elab (P2 _)), (Permutation_map elab P1), !map_app, number_labs. perm_solve.
      + rewrite H13, H6, K3, H14.
        destruct (@flat_split _ (nn s) (fun m => map (fun o => (o, vt s m)) (occs s m)) n Hn) as (Rr & P1 & P2).
        rewrite P1. rewrite (@flat_ext _ (nn s) _ (upd (fun m => map (fun o => (o, vt s m)) (occs s m)) n
                               (map (fun o => (o, vt s n)) (Some x :: occs s n)))).
        * rewrite P2. simpl. perm_solve.
        * intros i Hi. unfold vtx. rewrite H6. unfold upd. destruct (Nat.eqb i n) eqn:Ei; auto.
          apply Nat.eqb_eq in Ei. now subst.
    - assert (L : nn s' = S (nn s)) by (rewrite H4, app_length; simpl; lia).
      assert (Vl : vt s' (nn s) = pay p) by (eapply vt_last; eauto).
      assert (Vo : forall n, n < nn s -> vt s' n = vt s n) by (intros; eapply vt_app; eauto).
      apply (declare_ok B X Hveq Heeq Heh) in H3 as (_ & P & _).
      split.
      + rewrite H14, H4, H16, map_app, scatter_pay, number_dsts, K1.
        rewrite (Permutation_map snd P), map_app. simpl. perm_solve.
      + rewrite H15, L, H5, H13, K2. simpl. rewrite upd_same, flat_upd_ge by auto.
        rewrite (i_outs _ _ _ _ I) by auto. rewrite app_nil_r, map_app, number_labs.
        rewrite (Permutation_map fst P), map_app. perm_solve.
      + rewrite H11, L, H12. simpl. rewrite upd_same, (i_occs _ _ _ _ I) by auto. simpl. rewrite Vl, K3.
        rewrite (@flat_ext _ (nn s) (fun n => map (fun o => (o, vt s' n)) (upd (occs s) (nn s) [occ B p] n))
                  (fun n => map (fun o => (o, vt s n)) (occs s n))).
        * perm_solve.
        * intros i Hi. rewrite Vo, upd_diff by lia. auto.
  Qed.

  Lemma inv5_start : inv5 (start v0) [first v0].
  Proof. split; simpl; auto. Qed.

  (** ** Limits, errors and kills *)
  Record inv6 (s : bst) : Prop := {
    m_count : limit B X <> 0 -> forall l, lerr s l <> Some INTOVF -> count s l = length (queue s l);
    m_limit : limit B X <> 0 -> forall l, length (queue s l) <= limit B X;
    m_err : forall l e, lerr s l = Some e ->
      (e = INTOVF /\ limit B X <> 0 /\ limit B X <= length (queue s l)) \/
      (exists o v, In (o, v) (calls s) /\ snd (b_conn B o v) = Some e);
    m_kill : killed s = true -> (exists l e, l < lanes X /\ lerr s l = Some e) \/ exists k, killcalls X k = true;
    m_lanes : forall l, lerr s l <> None -> l < lanes X;
    m_called : forall o v e, In (o, v) (calls s) -> snd (b_conn B o v) = Some e -> exists l, lerr s l <> None
  }.


  Lemma inv6_step s p bag s' out :
    inv1 B X v0 s -> inv2 B X v0 s (p :: bag) -> inv6 s -> effect B X s p s' out -> inv6 s'.
  Proof.
    intros I J [K1 K2 K3 K4 K5 K6] Ef.
    assert (Dl : dest B X p < lanes X) by (now apply lane_of_lt).
    destruct Ef.
    - destruct H14 as [(A0 & A1 & A2)|(A1 & A2 & A0 & _ & A3 & A4)].
      + split; rewrite ?A1, ?A2, ?H3, ?H6; auto. intros _.
        destruct A0 as [H14|[H14|H14]].
        * left. destruct (lerr s (dest B X p)) as [e|] eqn:El; [|congruence]. exists (dest B X p), e. auto.
        * apply K4. eapply (j_lkil _ _ _ _ _ J); eauto.
        * simpl in H14. apply orb_true_iff in H14 as [H14|H14]; eauto.
      + assert (Hc : limit B X <= length (queue s (dest B X p))).
        { rewrite <- (K1 A1); auto. congruence. }
        split; rewrite ?A3, ?A4, ?H3, ?H6; auto.
        * intros _ l. unfold upd. destruct (Nat.eqb l (dest B X p)); [congruence|]. apply K1; auto.
        * intros l e. unfold upd. destruct (Nat.eqb l (dest B X p)) eqn:El; auto.
          apply Nat.eqb_eq in El. subst l. intros He. inversion He; subst. auto.
        * intros _. left. exists (dest B X p), INTOVF. rewrite upd_same. auto.
        * intros l. unfold upd. destruct (Nat.eqb l (dest B X p)) eqn:El; auto.
          apply Nat.eqb_eq in El. now subst l.
        * intros. exists (dest B X p). rewrite upd_same. congruence.
    - split; rewrite ?H7, ?H10, ?H18, ?H19, ?H16; auto.
      simpl. intros Hk. apply orb_true_iff in Hk as [Hk|Hk]; eauto.
    - destruct (declare_ok B X Hveq Heeq Heh _ _ _ _ _ H5) as (De & _).
      split; rewrite ?H10, ?H13, ?H21, ?H22, ?H19; auto.
      + intros Hl l Hl'. apply K1; auto. intros Hc. apply Hl'. unfold upd.
        destruct (Nat.eqb l (dest B X p)) eqn:El; auto. apply Nat.eqb_eq in El. congruence.
      + intros l e1. unfold upd. destruct (Nat.eqb l (dest B X p)) eqn:El.
        * intros ->. right. do 2 eexists. split; [left; reflexivity|]. now symmetry.
        * intros He. destruct (K3 l e1 He) as [?|(o & v & Ho & Hs)]; auto. right. exists o, v. simpl. auto.
      + simpl. intros Hk. apply orb_true_iff in Hk as [Hk|Hk]; eauto.
        destruct (K4 Hk) as [(l & e1 & Hl & He)|?]; auto. left. exists l, e1. split; auto.
        rewrite upd_diff; auto. congruence.
      + intros l. unfold upd. destruct (Nat.eqb l (dest B X p)) eqn:El; auto.
        apply Nat.eqb_eq in El. now subst l.
      + intros o v e1 [Ho|Ho] Hs.
        * inversion Ho; subst. exists (dest B X p). rewrite upd_same. congruence.
        * destruct (K6 o v e1 Ho Hs) as (l & Hl). exists l. rewrite upd_diff; auto. congruence.
    - destruct (declare_ok B X Hveq Heeq Heh _ _ _ _ _ H3) as (De & _).
      assert (Hq : forall l, length (queue s' l) = length (queue s l) + if Nat.eqb l (dest B X p) then 1 else 0).
      { intros l. rewrite H8. unfold upd. destruct (Nat.eqb l (dest B X p)) eqn:El; [|lia].
        apply Nat.eqb_eq in El. subst l. rewrite app_length. simpl. lia. }
      split.
      + intros Hl l Hl'. destruct H2 as [[Hz _]|[Hlt Hc]]; [congruence|].
        rewrite Hc, Hq. rewrite H19 in Hl'. unfold upd in *. destruct (Nat.eqb l (dest B X p)) eqn:El.
        * apply Nat.eqb_eq in El. subst l. rewrite (K1 Hl); [lia|congruence].
        * rewrite (K1 Hl); auto.
      + intros Hl l. destruct H2 as [[Hz _]|[Hlt Hc]]; [congruence|].
        rewrite Hq. destruct (Nat.eqb l (dest B X p)) eqn:El; [|rewrite Nat.add_0_r; auto].
        apply Nat.eqb_eq in El. subst l. rewrite <- (K1 Hl); [lia|congruence].
      + intros l e1. rewrite H19, H11, Hq. unfold upd. destruct (Nat.eqb l (dest B X p)) eqn:El.
        * intros ->. right. do 2 eexists. split; [left; reflexivity|]. now symmetry.
        * intros He. destruct (K3 l e1 He) as [(? & ? & ?)|(o & v & Ho & Hs)]; [left; rewrite Nat.add_0_r; auto|].
          right. exists o, v. simpl. auto.
      + rewrite H17, H19. simpl. intros Hk. apply orb_true_iff in Hk as [Hk|Hk]; eauto.
        destruct (K4 Hk) as [(l & e1 & Hl & He)|?]; auto. left. exists l, e1. split; auto.
        rewrite upd_diff; auto. congruence.
      + intros l. rewrite H19. unfold upd. destruct (Nat.eqb l (dest B X p)) eqn:El; auto.
        apply Nat.eqb_eq in El. now subst l.
      + intros o v e1. rewrite H11, H19. intros [Ho|Ho] Hs.
        * inversion Ho; subst. exists (dest B X p). rewrite upd_same. congruence.
        * destruct (K6 o v e1 Ho Hs) as (l & Hl). exists l. rewrite upd_diff; auto. congruence.
  Qed.

  Lemma inv6_start : inv6 (start v0).
  Proof. split; simpl; try tauto; try discriminate. intros. lia. Qed.

  (** ** Everything together *)
  Definition invs (s : bst) (bag : list pkt) : Prop :=
    inv1 B X v0 s /\ inv2 B X v0 s bag /\ inv4 s /\ inv5 s bag /\ inv6 s.

  Lemma inv2_perm s b b' : Permutation b b' -> inv2 B X v0 s b -> inv2 B X v0 s b'.
  Proof.
    intros P [J1 J2 J3 J4 J5 J6 J7 J8 J9 J10 J11].
    split; auto.
    - intros p i Hp. apply J5. eapply Permutation_in; [symmetry; exact P|auto].
    - eapply Permutation_NoDup; [|exact J6]. now apply Permutation_map.
    - intros p Hp Hc. destruct (J7 p) as (A1 & A2 & A3); auto.
      { eapply Permutation_in; [symmetry; exact P|auto]. }
      repeat split; auto. rewrite A3 in P. now apply Permutation_length_1_inv in P.
    - intros C. destruct (J9 C) as [A1 A2]. split.
      + intros e He Hr. eapply Permutation_in; [apply Permutation_map, P|auto].
      + intros Hz. rewrite (A2 Hz) in P. now apply Permutation_length_1_inv in P.
  Qed.

  Lemma invs_perm s b b' : Permutation b b' -> invs s b -> invs s b'.
  Proof.
    intros P (I1 & I2 & I4 & I5 & I6). split; auto. split; [eapply inv2_perm; eauto|]. split; auto. split; auto.
    destruct I5 as [A1 A2 A3]. split; auto. rewrite A1. apply Permutation_app_head, Permutation_app_tail.
    now apply Permutation_map.
  Qed.

  Lemma invs_step s p b s' out : invs s (p :: b) -> task B X s p = Some (s', out) -> invs s' (out ++ b).
  Proof.
    intros (I1 & I2 & I4 & I5 & I6) Ht. apply task_effect in Ht.
    split; [eapply inv1_step; eauto|]. split; [eapply inv2_step; eauto|].
    split; [eapply inv4_step; eauto|]. split; [eapply inv5_step; eauto|eapply inv6_step; eauto].
  Qed.

  Lemma invs_start : invs (start v0) [first v0].
  Proof.
    split; [now apply inv1_start|]. split; [now apply inv2_start|]. split; [now apply inv4_start|].
    split; [now apply inv5_start|now apply inv6_start].
  Qed.

  Lemma invs_runs s bag : mruns (task B X) (start v0, [first v0]) (s, bag) -> invs s bag.
  Proof.
    apply (mruns_inv invs); [apply invs_perm|apply invs_step|apply invs_start].
  Qed.

  Lemma calls_runs (R : option E -> V -> Prop) s bag :
    R None v0 ->
    (forall o v l w, R o v -> In (l, w) (fst (b_conn B o v)) -> R (if b_sub B then Some l else None) w) ->
    (forall o v w, R o v -> b_veq B v w = true -> R o w) ->
    mruns (task B X) (start v0, [first v0]) (s, bag) ->
    inv3 R s bag.
  Proof.
    intros R0 R1 R2 Hr.
    refine (proj2 (mruns_inv (fun s b => invs s b /\ inv3 R s b) _ _ _ Hr)).
    - intros s1 b b' P [I [K1 K2]]. split; [eapply invs_perm; eauto|]. unfold inv3. split; auto.
      intros p Hp. apply K2. eapply Permutation_in; [symmetry; exact P|auto].
    - intros s1 p b s2 out [I K] Ht. split; [eapply invs_step; eauto|].
      destruct I as (I1 & I2 & _). apply task_effect in Ht. eapply inv3_step; eauto.
    - split; [apply invs_start|now apply inv3_start].
  Qed.
End BuildMore.
