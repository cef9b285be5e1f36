(** Every build terminates if the vertices are finitely many up to equality, or if there is a
    vertex limit. *)
From Coq Require Import List Arith NArith Lia Bool Permutation.
From Verif Require Import Base Machine Brigade BrigadeProofs Graph Build BuildProofs BuildMore BuildMain PortsTerm.
Import ListNotations.

Section BuildTerm.
  Context {V E : Type}.
  Variable B : builder V E.
  Variable X : env.
  Hypothesis Hveq : equivalence (b_veq B).
  Hypothesis Hvh : forall x y, b_veq B x y = true -> b_vhash B x = b_vhash B y.
  Hypothesis Heeq : equivalence (b_eeq B).
  Hypothesis Heh : forall x y, b_eeq B x y = true -> b_ehash B x = b_ehash B y.
  Hypothesis Hlanes : 0 < lanes X.
  Variable v0 : V.

  Variable R : option E -> V -> Prop.
  Hypothesis HR0 : R None v0.
  Hypothesis HR1 : forall o v l w, R o v -> In (l, w) (fst (b_conn B o v)) ->
                     R (if b_sub B then Some l else None) w.
  Hypothesis HR2 : forall o v w, R o v -> b_veq B v w = true -> R o w.
  Variable N : nat.
  Hypothesis HN : limit B X <> 0 /\ lanes X * limit B X <= N \/
                  exists U, length U <= N /\ forall o v, R o v -> exists u, In u U /\ b_veq B v u = true.
  Variable Ls : list E.
  Hypothesis HL : forall x v, R (Some x) v -> exists y, In y Ls /\ b_eeq B x y = true.

  Notation nn s := (length (verts s)).
  Notation vt s n := (vtx s n v0).

  Lemma nodes_bound s b : invs B X v0 s b -> inv3 B v0 R s b -> nn s <= N.
  Proof.
    intros (I1 & I2 & I4 & I5 & I6) [K1 _]. destruct HN as [[Hl Hn]|(U & HU & Hc)].
    - assert (P : Permutation (flat (lanes X) (queue s)) (seq 0 (nn s))).
      { rewrite (@flat_ext _ (lanes X) _ (fun l => filter (fun n => Nat.eqb (lane X (b_vhash B (vt s n))) l) (seq 0 (nn s)))).
        - apply flat_filter_perm. intros. now apply lane_of_lt.
        - intros. apply (i_queue _ _ _ _ I1). }
      apply Permutation_length in P. rewrite seq_length in P. rewrite <- P.
      pose proof (@flat_length _ (lanes X) (queue s) (limit B X) (fun l _ => m_limit _ _ _ I6 Hl l)). lia.
    - assert (length (seq 0 (nn s)) <= length U); [|rewrite seq_length in *; lia].
      apply (@pigeonhole _ _ (fun n u => n < nn s /\ b_veq B (vt s n) u = true) (fun i j => i < nn s /\ j < nn s /\ b_veq B (vt s i) (vt s j) = true)).
      + intros x y z [Hx Ex] [Hy Ey]. repeat split; auto. eapply (eqv_trans Hveq); [exact Ex|].
        now apply (eqv_sym Hveq).
      + assert (G : forall k a, ForallOrdPairs (fun i j => ~ (i < nn s /\ j < nn s /\ b_veq B (vt s i) (vt s j) = true)) (seq a k)).
        { induction k as [|k IH]; intros a; simpl; constructor; auto. apply Forall_forall.
          intros j Hj (H1 & H2 & H3). apply in_seq in Hj. rewrite (i_distinct _ _ _ _ I1) in H3; [discriminate|lia|auto]. }
        apply G.
      + intros n Hn. apply in_seq in Hn.
        assert (Ho : exists o, In o (occs s n)).
        { pose proof (j_occs _ _ _ _ _ I2 n ltac:(lia)) as [O1 O2].
          destruct (b_sub B) eqn:Es.
          - destruct (Nat.eq_dec n 0) as [->|Hz].
            + destruct (O2 eq_refl) as (ls & -> & _). exists None. apply in_or_app. simpl; auto.
            + destruct (k_par _ _ I4 n) as (m & e & Hm & He & Hr & _); try lia.
              assert (Ha : In e (flat (nn s) (outs s))) by (apply flat_in; exists m; split; auto; lia).
              destruct (j_res _ _ _ _ _ I2 e n Ha Hr) as (_ & _ & Hh). unfold hasocc in Hh. rewrite Es in Hh.
              destruct Hh as (y & Hy & _). eauto.
          - destruct (O1 eq_refl) as [-> _]. exists None. simpl; auto. }
        destruct Ho as (o & Ho). destruct (Hc o (vt s n)) as (u & Hu & Eu); [apply K1; auto; lia|].
        exists u. repeat split; auto. lia.
  Qed.

  Lemma calls_bound s b : invs B X v0 s b -> inv3 B v0 R s b -> length (calls s) <= N * S (length Ls).
  Proof.
    intros I K. pose proof (nodes_bound s b I K) as Hn. destruct I as (I1 & I2 & I4 & I5 & I6). destruct K as [K1 _].
    rewrite (Permutation_length (l_c _ _ _ I5)).
    etransitivity; [apply flat_length with (b := S (length Ls))|apply Nat.mul_le_mono_r; auto].
    intros n Hl. rewrite map_length. pose proof (j_occs _ _ _ _ _ I2 n Hl) as [O1 O2].
    destruct (b_sub B) eqn:Es.
    - destruct (O2 eq_refl) as (ls & Eo & _ & _ & HF). rewrite Eo, app_length, map_length.
      assert (length ls <= length Ls).
      { apply (@pigeonhole _ _ (fun x y => b_eeq B x y = true) (fun x y => b_eeq B x y = true)).
        - intros x y z Ex Ey. eapply (eqv_trans Heeq); [exact Ex|]. now apply (eqv_sym Heeq).
        - eapply FOP_imp; [|exact HF]. simpl. intros x y _ _ ->. discriminate.
        - intros x Hx. apply (HL x (vt s n)). apply K1; auto. rewrite Eo. apply in_or_app. left. now apply in_map. }
      destruct (Nat.eqb n 0); simpl; lia.
    - destruct (O1 eq_refl) as [-> _]. simpl. lia.
  Qed.

  Theorem build_terminates : terminates (task B X) (start v0, [first v0]).
  Proof.
    apply lex_inv_terminates with (I := fun s b => invs B X v0 s b /\ inv3 B v0 R s b)
      (m := fun s => N * S (length Ls) - length (calls s)).
    - intros s b b' P [I [K1 K2]]. split; [eapply invs_perm; eauto|]. split; auto.
      intros p Hp. apply K2. eapply Permutation_in; [symmetry; exact P|auto].
    - intros s p b s' out [I K] Ht.
      assert (I' : invs B X v0 s' (out ++ b)) by (eapply invs_step; eauto).
      pose proof I as (I1 & I2 & _). apply task_effect in Ht.
      assert (K' : inv3 B v0 R s' (out ++ b)) by (eapply inv3_step; eauto).
      split; [auto|]. pose proof (calls_bound _ _ I' K') as Hb.
      destruct Ht.
      + right. rewrite H6. auto.
      + right. rewrite H10. auto.
      + left. rewrite H13 in *. simpl in *. lia.
      + left. rewrite H11 in *. simpl in *. lia.
    - split; [now apply invs_start|eapply inv3_start; eauto].
  Qed.
End BuildTerm.
