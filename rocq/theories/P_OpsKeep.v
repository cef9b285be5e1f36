(** Proofs about functions that don't consume their operands, of Ops.v *)
From Coq Require Import List Arith NArith Bool Lia.
Import ListNotations.
From Verif Require Import Ops P_Ops.

Set Implicit Arguments.

(** An error excludes a result *)
Definition no_result (s : st) : Prop := err s <> 0%N -> res s = false.

(** q is whether there may be a result *)
Record K (o : option nat) (c p q : bool) (n : nat) (s : st) : Prop := {
  k_wrong : wrong s = false;
  k_rt : rtm o s;
  k_copy : copy s = c;
  k_gs : gs s = true;
  k_ing : ing s = n;
  k_inp : inp s = 0;
  k_gone : gone s = 0;
  k_lost : lost s = 0;
  k_prod : prod s = p;
  k_res : q = false -> res s = false }.

Section Proofs.
  Variable fails : nat -> bool.
  Variable werr : nat -> N.
  Variable flag choice : nat -> bool.
  Variable single : bool.

  Ltac kd H := destruct H as [?k1 ?k2 ?k3 ?k4 ?k5 ?k6 ?k7 ?k8 ?k9 ?k10].
  Ltac kk := let H := fresh in intros; match goal with X : K _ _ _ _ _ _ |- _ => kd X end; constructor; auto.

  Lemma K_raise : forall e o c p q n s, K o c p q n s -> K o c p q n (raise e s).
  Proof. kk. Qed.
  Lemma K_tick : forall o c p q n s, K o c p q n s -> K o c p q n (tick s).
  Proof. kk. Qed.
  Lemma K_failure : forall o c p q n s, K o c p q n s -> K o c p q n (failure werr s).
  Proof. intros. now apply K_raise, K_tick. Qed.
  Lemma K_entry : forall o c p q n s, K o c p q n s -> K o c p q n (api_entry fails werr s).
  Proof. intros. unfold api_entry. destruct (fails _); [now apply K_failure | now apply K_tick]. Qed.
  Lemma K_disable : forall o c p q n s, K o c p q n s -> K o c p q n (disable_killing fails s).
  Proof. intros. unfold disable_killing. destruct (fails _); [now apply K_raise, K_tick | now apply K_tick]. Qed.
  Lemma K_set_prod : forall b o c p q n s, K o c p q n s -> K o c b q n (set_prod b s).
  Proof. kk. Qed.
  Lemma K_set_res : forall b o c p q n s, K o c p q n s -> K o c p true n (set_res b s).
  Proof. kk. discriminate. Qed.
  Lemma K_free_result : forall o c p q n s, K o c p q n s -> K o c p false n (free_result s).
  Proof. kk. Qed.
  Lemma K_weak : forall o c p q n s, K o c p q n s -> K o c p true n s.
  Proof. kk. discriminate. Qed.
  Lemma K_free_copy : forall o p q n s, K o true p q n s -> K o false p q n (free_copy s).
  Proof. intros o p q n s H; kd H. unfold free_copy. rewrite k3. constructor; auto. Qed.
  Lemma K_choose : forall o c p q n s, K o c p q n s -> K o c p q n (snd (choose choice s)).
  Proof. intros; now apply K_tick. Qed.
  Lemma K_infer : forall o p q n s i s', infer fails werr s = (i, s') -> K o false p q n s -> K o i p q n s'.
  Proof.
    intros o p q n s i s' E H. unfold infer in E. destruct (fails _); apply pair_equal_spec in E as [<- <-]; [now apply K_failure |].
    kd H. rewrite k3. constructor; auto.
  Qed.
  Lemma K_make : forall c p q n s r s', make_router fails werr s = (r, s') -> K None c p q n s -> K (if r then Some 0 else None) c p q n s'.
  Proof.
    intros c p q n s r s' E H. unfold make_router in E. destruct (ok s); cbn [negb] in E; [| now apply pair_equal_spec in E as [<- <-]].
    destruct (fails _); apply pair_equal_spec in E as [<- <-]; [now apply K_failure |].
    kd H. cbn in k2. rewrite k2. constructor; auto. now exists false.
  Qed.
  Lemma K_share : forall k c p q n s, K (Some k) c p q n s -> K (Some (S k)) c p q n (share s).
  Proof. intros k c p q n s H; kd H. destruct k2 as [f R]. unfold share. rewrite R. constructor; auto. now exists f. Qed.
  Lemma K_reset : forall k c p q n s, K (Some k) c p q n s -> K (Some k) c p q n (reset s).
  Proof. intros k c p q n s H; kd H. destruct k2 as [f R]. unfold reset. rewrite R. constructor; auto. now exists false. Qed.
  Lemma K_unshare : forall k c p q n s, K (Some (S k)) c p q n s -> K (Some k) c p q n (free_router s).
  Proof. intros k c p q n s H; kd H. destruct k2 as [f R]. unfold free_router. rewrite R. constructor; auto. now exists f. Qed.
  Lemma K_free : forall c p q n s, K (Some 0) c p q n s -> K None c p q n (free_router s).
  Proof.
    intros c p q n s H; kd H. destruct k2 as [f R]. unfold free_router. rewrite R. cbn [shared killed].
    destruct f; constructor; cbn; auto.
  Qed.
  Lemma K_start : forall k c p p' q n f s l s', (forall s, K (Some k) c p q n s -> K (Some k) c p' q n (f s)) ->
    start fails werr flag f s = (l, s') -> K (Some k) c p q n s -> K (Some k) c (if l then p' else p) q n s'.
  Proof.
    intros k c p p' q n f s l s' F E H. unfold start in E. destruct (k_rt H) as [z R]. rewrite R in E.
    destruct (fails _); apply pair_equal_spec in E as [<- <-]; [now apply K_failure |].
    assert (K (Some k) c p' q n (f (tick (set_rt (Some (mkR (shared (mkR k z)) (killed (mkR k z) || flag (clock s)))) s)))) as X.
    { apply F, K_tick. kd H. constructor; cbn; eauto. }
    destruct (N.eqb _ 0); auto. now apply K_raise.
  Qed.
  Lemma K_start0 : forall k c p q n s l s', start fails werr flag no_effect s = (l, s') -> K (Some k) c p q n s -> K (Some k) c p q n s'.
  Proof. intros k c p q n s l s' E H. eapply K_start in E; eauto. now destruct l. Qed.
  Lemma K_launched : forall k c p q n s l s', launched fails werr flag no_effect s = (l, s') -> K (Some (S k)) c p q n s -> K (Some k) c p q n s'.
  Proof.
    intros k c p q n s l s' E H. unfold launched in E. destruct (start _ _ _ _ _) eqn:X. apply pair_equal_spec in E as [<- <-].
    apply (K_start0 X) in H. now apply K_unshare.
  Qed.
  Lemma K_launched0 : forall c p q n s l s', launched fails werr flag no_effect s = (l, s') -> K (Some 0) c p q n s -> K None c p q n s'.
  Proof.
    intros c p q n s l s' E H. unfold launched in E. destruct (start _ _ _ _ _) eqn:X. apply pair_equal_spec in E as [<- <-].
    apply (K_start0 X) in H. now apply K_free.
  Qed.
  Lemma K_another : forall o c p q n s l s', launched_with_another fails werr flag s = (l, s') -> K o c p q n s -> K o c p q n s'.
  Proof.
    intros o c p q n s l s' E H. unfold launched_with_another in E.
    destruct (ok s); cbn [negb] in E; [| now apply pair_equal_spec in E as [_ <-]].
    destruct (fails _); [apply pair_equal_spec in E as [_ <-]; now apply K_failure |].
    destruct (fails _); [apply pair_equal_spec in E as [_ <-]; now apply K_failure, K_tick |].
    apply pair_equal_spec in E as [_ <-]. destruct (N.eqb _ _); repeat (apply K_tick || apply K_raise); auto.
  Qed.

  Ltac kv := solve [repeat first [eassumption | apply K_share | apply K_reset | apply K_disable | apply K_entry | apply K_failure
    | apply K_free | apply K_raise | apply K_tick | apply K_set_prod ]].
  Ltac ks := cbn [negb andb orb fst snd choose]; try match goal with
    | |- context [choose choice ?x] => change (choose choice x) with (choice (clock x), tick x); cbn [negb andb orb fst snd]; destruct (choice (clock x))
    | |- context [launched_with_another fails werr flag ?x] =>
        let E := fresh "E" in destruct (launched_with_another fails werr flag x) as [? ?] eqn:E; eapply K_another in E; [| kv]
    | |- context [launched fails werr flag no_effect ?x] =>
        let E := fresh "E" in destruct (launched fails werr flag no_effect x) as [? ?] eqn:E; first [eapply K_launched in E; [| kv] | eapply K_launched0 in E; [| kv]]
    | |- context [start fails werr flag no_effect ?x] =>
        let E := fresh "E" in destruct (start fails werr flag no_effect x) as [? ?] eqn:E; eapply K_start0 in E; [| kv]
    | |- context [status_launched fails werr flag no_effect ?x] =>
        let E := fresh "E" in destruct (status_launched fails werr flag no_effect x) as [? ?] eqn:E; eapply K_start0 in E; [| kv]
    end.
  Ltac kb := match goal with |- context [if negb ?x then _ else _] => destruct x | |- context [if ?x then _ else _] => destruct x end;
    cbn [negb andb orb fst snd].

  Lemma K_unset : forall c p q n s, K (Some 0) c p q n s -> K (Some 0) c p q n (unset_properties fails werr flag s).
  Proof. intros c p q n s H. unfold unset_properties. kb; auto. ks. auto. Qed.
  Lemma K_set_properties : forall c p q n s, K (Some 0) c p q n s -> K (Some 0) c p q n (snd (set_properties fails werr flag choice s)).
  Proof.
    intros c p q n s H. unfold set_properties. cbn [choose].
    destruct (choice (clock s)); ks; repeat (kb; try kv; ks); try (apply K_unset; kv).
  Qed.
  Lemma K_initial_node : forall c p q n s, K (Some 0) c p q n s -> K (Some 0) c p q n (snd (initial_node fails werr flag choice s)).
  Proof.
    intros c p q n s H. unfold initial_node. cbn [choose].
    destruct (choice (clock s)); ks; repeat (kb; try kv; ks); auto.
  Qed.

  Lemma K_given : forall n e, K None false false false n (given Good n e).
  Proof. intros; constructor; auto; reflexivity. Qed.
  Lemma K_clean : forall q n s, K None false false q n s -> clean n s.
  Proof. intros q n s H; kd H. cbn in k2. unfold clean. repeat (split; [assumption |]). assumption. Qed.
  Definition Kr (n : nat) (s : st) : Prop := exists q, K None false false q n s /\ (q = false \/ ok s = true).
  Lemma Kr_done : forall n s, Kr n s -> clean n s /\ no_result s.
  Proof.
    intros n s (q & A & B). split; [eapply K_clean; eauto |]. intros E. destruct B as [-> | B]; [now apply (k_res A) |].
    apply N.eqb_eq in B. contradiction.
  Qed.
  Lemma Kr_end : forall q n s, K None true false q n s -> Kr n (free_copy (if ok s then s else free_result s)).
  Proof.
    intros q n s H. assert (copy s = true) as C by apply H. destruct (ok s) eqn:O.
    - exists q. split; [now apply K_free_copy |]. right. unfold free_copy. rewrite C. exact O.
    - exists false. split; auto. apply K_free_copy. now apply K_free_result in H.
  Qed.
  Lemma Kr_none : forall n s, K None false false false n s -> Kr n s.
  Proof. intros; exists false; auto. Qed.

  (** Whether the initial product has been taken over *)
  Lemma K_new : forall c p q n s, K (Some 0) c p q n s -> exists p',
    K None c p' true n (new_graph_launched fails werr flag choice s) /\ (p' = true -> p = true /\ err (new_graph_launched fails werr flag choice s) <> 0%N).
  Proof.
    intros c p q n s H. unfold new_graph_launched. destruct (ok s) eqn:O; cbn [negb].
    - destruct (start _ _ _ _ _) as [l s1] eqn:E.
      assert (l = true \/ err s1 <> 0%N) as X.
      { unfold start in E. destruct (k_rt H) as [z R]. rewrite R in E. destruct (fails _); apply pair_equal_spec in E as [<- <-]; auto.
        right. unfold failure, raise, ok in *. cbn. rewrite O. now destruct (N.eqb (werr (clock s)) 0) eqn:Z; [| apply N.eqb_neq]. }
      eapply (K_start (p' := false)) in E; [| | eassumption]; [| intros; now apply (K_set_prod false) in H0].
      apply K_weak in E. exists (if l then false else p). split.
      + apply K_free. destruct (ok s1); cbn [negb]; auto. destruct (fails _); [now apply K_failure |]. ks; apply K_set_res with true; now apply K_tick.
      + destruct l; [discriminate |]. intros ->. split; auto. destruct X as [X | X]; [discriminate |]. apply N.eqb_neq in X.
        unfold ok. rewrite X. cbn [negb]. unfold free_router. destruct (rt s1) as [[k f] |]; cbn [shared killed]; [| now apply N.eqb_neq].
        destruct k; cbn; [| now apply N.eqb_neq]. destruct f; cbn; [rewrite X |]; now apply N.eqb_neq.
    - exists p. split; [apply K_weak with q; now apply K_free |]. intros ->. split; auto. apply N.eqb_neq in O.
      unfold free_router. destruct (k_rt H) as [f R]. rewrite R. cbn [shared killed]. destruct f; cbn; auto.
      apply N.eqb_neq in O as Z. now rewrite Z.
  Qed.

  Ltac ko := cbv zeta; cbn [bad stored];
    repeat match goal with
    | |- Kr _ (if ?x then _ else _) => destruct x; cbn [negb andb orb fst snd]
    | |- Kr _ _ => solve [apply Kr_none; kv]
    | |- Kr _ (let (_, _) := infer fails werr ?x in _) =>
        let E := fresh "E" in destruct (infer fails werr x) as [[|] ?] eqn:E; (eapply K_infer in E; [| kv]); cbn [negb andb orb fst snd]
    | |- Kr _ (let (_, _) := make_router fails werr ?x in _) =>
        let E := fresh "E" in destruct (make_router fails werr x) as [[|] ?] eqn:E; (eapply K_make in E; [| kv]); cbn [negb andb orb fst snd]
    end.

  Theorem C98_fabricated : forall n e,
    let s := fabricated fails werr flag choice Good (given Good n e) in clean n s /\ no_result s.
  Proof.
    intros n e. cbv zeta. apply Kr_done. pose proof (K_given n e) as G. unfold fabricated. ko.
    - apply K_disable in E0. apply K_reset in E0. destruct (K_new E0) as (p & A & B).
      destruct p; [destruct B; [auto | discriminate] |]. now apply Kr_end with true.
    - apply Kr_end with false. kv.
  Qed.
  Theorem C98_mapreduced : forall n e spec,
    clean n (mapreduced fails werr flag choice Good spec (given Good n e)).
  Proof.
    intros n e spec. pose proof (K_given n e) as G. apply Kr_done. unfold mapreduced. ko.
    - pose proof (K_initial_node E0) as I. destruct (initial_node _ _ _ _ _) as [i s1]. cbn [snd] in I.
      apply Kr_none, K_free_copy. destruct (ok s1); cbn [negb]; [| now apply K_free].
      cbn [choose]. destruct (choice (clock s1)); [| kv].
      apply K_free. destruct (start _ _ _ _ _) as [l s2] eqn:S. eapply K_start0 in S; [| kv]. now apply K_unshare.
    - apply Kr_none. now apply K_free_copy.
  Qed.
  Theorem C98_induced : forall n e spec,
    clean n (induced fails werr flag choice Good spec (given Good n e)).
  Proof.
    intros n e spec. pose proof (K_given n e) as G. apply Kr_done. unfold induced. ko.
    - pose proof (K_initial_node E0) as I. destruct (initial_node _ _ _ _ _) as [i s1]. cbn [snd] in I.
      apply Kr_none, K_free_copy. destruct i; cbn [negb]; [| now apply K_free].
      ks. apply K_free. kb; auto. ks. auto.
    - apply Kr_none. now apply K_free_copy.
  Qed.
  Theorem C98_partition_of : forall n e,
    clean n (partition_of fails werr flag choice Good (given Good n e)).
  Proof.
    intros n e. pose proof (K_given n e) as G. unfold partition_of. cbv zeta.
    destruct (ok _); cbn [negb]; [| eapply K_clean; kv].
    destruct (infer _ _ _) as [[|] s] eqn:E; (eapply K_infer in E; [| kv]); cbn [negb]; [| now apply K_clean in E].
    apply K_weak in E. destruct (fails (clock s)).
    - cbn [stored negb]. apply K_clean with true. apply K_free_copy. kv.
    - destruct (make_router _ _ _) as [[|] s1] eqn:M; (eapply K_make in M; [| apply K_set_res with true; kv]); cbn [stored negb].
      + apply K_disable in M. pose proof (K_set_properties M) as P. destruct (set_properties _ _ _ _ _) as [p s2]. cbn [snd] in P.
        apply K_clean with true. apply K_free_copy, K_free. destruct p; cbn [negb].
        * ks. apply K_unset. kb; auto. apply K_free_result in E0. now apply K_weak in E0.
        * apply K_free_result in P. now apply K_weak in P.
      + apply K_clean with false. apply K_free_copy. apply K_disable. now apply K_free_result in M.
  Qed.
  Theorem C98_counted : forall n e,
    clean n (counted fails werr flag single Good (given Good n e)).
  Proof.
    intros n e. pose proof (K_given n e) as G. apply Kr_done. unfold counted. ko.
    ks. now apply Kr_none.
  Qed.

  (** The initial product may remain, if there is an error *)
  Theorem C98_crossed_or : forall n e spec,
    let s := crossed fails werr flag choice Good Good spec (given Good n e) in
    no_result s /\ (clean n s \/ prod s = true /\ err s <> 0%N /\ clean n (set_prod false s)).
  Proof.
    intros n e spec. cbv zeta. pose proof (K_given n e) as G.
    assert (forall s, Kr n s -> no_result s /\ (clean n s \/ prod s = true /\ err s <> 0%N /\ clean n (set_prod false s))) as F.
    { intros s X. destruct (Kr_done X); auto. }
    unfold crossed. cbv zeta. cbn [stored].
    destruct (_ || _); [apply F, Kr_none; kv |].
    destruct (infer _ _ _) as [[|] s] eqn:E; (eapply K_infer in E; [| kv]); cbn [negb]; [| now apply F, Kr_none].
    destruct (make_router _ _ _) as [[|] s1] eqn:M; (eapply K_make in M; [| kv]).
    - unfold _cross. apply K_disable in M. remember (disable_killing fails s1) as s2 eqn:X; clear X.
      destruct (ok s2) eqn:O; cbn [negb]; [| apply F, Kr_end with false; kv].
      destruct (fails (clock s2)); [apply F, Kr_end with false; kv |].
      assert (K (Some 0) true true false n (set_prod true (tick s2))) as P by (apply K_set_prod with false; kv).
      destruct (K_new P) as (p & A & B). destruct p; [| now apply F, Kr_end with true].
      destruct B as [_ B]; auto. remember (new_graph_launched _ _ _ _ _) as s3 eqn:X; clear X.
      apply N.eqb_neq in B as B'. unfold ok. rewrite B'. apply K_free_result in A. apply K_free_copy in A.
      assert (err (free_copy (free_result s3)) <> 0%N) as Q by (unfold free_copy; now destruct (copy _)).
      remember (free_copy (free_result s3)) as s4 eqn:X; clear X. split; [intros _; now apply (k_res A) |]. right.
      split; [apply A |]. split; [exact Q |]. apply K_clean with false. now apply (K_set_prod false) in A.
    - apply F. unfold _cross. apply Kr_end with false. kv.
  Qed.
End Proofs.
