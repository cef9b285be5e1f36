(** C96: static storage is initialised completely or not at all, and so are kill switches, ports and routers.  See Init.v. *)
From Coq Require Import List Arith NArith Bool Lia Permutation.
From Verif Require Import Base Init.
Import ListNotations.

Set Implicit Arguments.

(** ** What there is after initialisation *)
Definition static (pool : nat) : list obj :=
  [ErrorLock; EdgeKey; KilledKey; GraphKey; DestructorsKey; EdgeMapKey; ContextKey; MutexAttr; ThreadAttr; KillerLock; CrewLock;
   PacketLock; GraphLock] ++ map PoolLock (seq 0 pool).

Lemma eqb_refl o : obj_eqb o o = true.
Proof. destruct o; simpl; auto; apply Nat.eqb_refl. Qed.
Lemma eqb_eq x y : obj_eqb x y = true <-> x = y.
Proof.
  split; [|intros ->; apply eqb_refl].
  destruct x, y; simpl; try discriminate; auto; intros H; apply Nat.eqb_eq in H; now subst.
Qed.
Lemma has_in o l : has o l = true <-> In o l.
Proof.
  induction l as [|x l IH]; simpl; [intuition discriminate|]. rewrite orb_true_iff, eqb_eq, IH. intuition.
Qed.
Lemma has_app o a b : has o (a ++ b) = has o a || has o b.
Proof. induction a as [|x a IH]; simpl; auto. now rewrite IH, orb_assoc. Qed.
Lemma without_app o a b : has o a = false -> without o (a ++ b) = a ++ without o b.
Proof.
  induction a as [|x a IH]; simpl; auto. intros H. apply orb_false_iff in H as [-> H]. now rewrite IH.
Qed.
Lemma without_perm o l : In o l -> Permutation l (o :: without o l).
Proof.
  induction l as [|x l IH]; simpl; [easy|]. intros H. destruct (obj_eqb o x) eqn:E.
  - apply eqb_eq in E as ->. reflexivity.
  - destruct H as [->|H]; [now rewrite eqb_refl in E|]. rewrite perm_swap. now rewrite <- IH.
Qed.

Section Proofs.
  Variable fails : nat -> bool.

  Lemma err_raise c s : c <> 0%N -> err (raise c s) <> 0%N.
  Proof. unfold raise. simpl. destruct (N.eqb_spec (err s) 0); auto. Qed.

  Lemma live_destroy_or o c s : live (destroy_or fails o c s) = without o (live s).
  Proof. unfold destroy_or, destroy. destruct (fails _); reflexivity. Qed.
  Lemma wrong_destroy_or o c s : wrong (destroy_or fails o c s) = wrong s || negb (has o (live s)).
  Proof. unfold destroy_or, destroy. destruct (fails _); reflexivity. Qed.
  Lemma thrown_destroy_or o c s : thrown (destroy_or fails o c s) = thrown s.
  Proof. unfold destroy_or, destroy. destruct (fails _); reflexivity. Qed.
  Lemma err_destroy_or o c s : c <> 0%N -> err s <> 0%N -> err (destroy_or fails o c s) <> 0%N.
  Proof. intros C H. unfold destroy_or, destroy. destruct (fails _); [now apply err_raise|auto]. Qed.

  Lemma live_throw e s : live (globally_throw e s) = live s.
  Proof. unfold globally_throw. destruct (N.eqb e 0); reflexivity. Qed.
  Lemma wrong_throw e s : has ErrorLock (live s) = true -> wrong (globally_throw e s) = wrong s.
  Proof. intros H. unfold globally_throw. destruct (N.eqb e 0); auto. simpl. now rewrite H, orb_false_r. Qed.
  Lemma err_throw e s : err (globally_throw e s) = err s.
  Proof. unfold globally_throw. destruct (N.eqb e 0); reflexivity. Qed.

  (** What closing functions have in common: they destroy [objs], and no error is raised in the calling function *)
  Definition closes (f : st -> st) (objs : list obj) : Prop :=
    forall s a b, live s = a ++ objs ++ b -> (forall o, In o objs -> has o a = false) -> has ErrorLock (a ++ b) = true ->
    live (f s) = a ++ b /\ wrong (f s) = wrong s /\ err (f s) = err s.

  Lemma closes_closing f objs :
    (forall s a b, live s = a ++ objs ++ b -> (forall o, In o objs -> has o a = false) -> live (f s) = a ++ b /\ wrong (f s) = wrong s) ->
    closes (closing f) objs.
  Proof.
    intros H s a b L N E. unfold closing. destruct (H (mkSt (live s) (clock s) 0 (wrong s) (thrown s)) a b L N) as [L' W'].
    rewrite live_throw, wrong_throw, err_throw; simpl; rewrite ?L', ?W'; auto.
  Qed.

  Lemma closes_one o c : closes (closing (destroy_or fails o c)) [o].
  Proof.
    apply closes_closing. intros s a b L N. rewrite live_destroy_or, wrong_destroy_or, L, has_app, without_app by (apply N; simpl; auto).
    simpl. rewrite eqb_refl. simpl. rewrite orb_true_r. simpl. now rewrite orb_false_r.
  Qed.

  Lemma closes_killers : closes (close_killers fails) [KillerLock].
  Proof. exact (@closes_one KillerLock 1070). Qed.
  Lemma closes_crew : closes (close_crew fails) [CrewLock].
  Proof. exact (@closes_one CrewLock 716). Qed.
  Lemma closes_packets : closes (close_packets fails) [PacketLock].
  Proof. exact (@closes_one PacketLock 1285). Qed.
  Lemma closes_graph : closes (close_graph fails) [GraphLock].
  Proof. exact (@closes_one GraphLock 1011). Qed.

  Definition getset_objs := [ContextKey; EdgeMapKey; DestructorsKey; GraphKey; KilledKey; EdgeKey].
  Lemma closes_getset : closes (close_getset fails) getset_objs.
  Proof.
    apply closes_closing. intros s a b L N.
    repeat rewrite ?live_destroy_or, ?wrong_destroy_or. rewrite L. unfold getset_objs in *.
    repeat (first [rewrite without_app by (apply N; simpl; auto 10)|progress cbn [without obj_eqb app has orb]]).
    split; auto. repeat (rewrite has_app; cbn [has obj_eqb orb]). rewrite !orb_true_r. cbn [negb]. now rewrite !orb_false_r.
  Qed.

  (** Locks of the pool are initialised in ascending order *)
  Definition locks (i k : nat) : list obj := rev (map PoolLock (seq i k)).
  Lemma locks_S i k : locks i (S k) = locks (S i) k ++ [PoolLock i].
  Proof. reflexivity. Qed.
  Lemma locks_top k : locks 0 (S k) = PoolLock k :: locks 0 k.
  Proof. unfold locks. rewrite seq_S, map_app, rev_app_distr. reflexivity. Qed.
  Lemma in_locks o i k : In o (locks i k) <-> exists j, o = PoolLock j /\ i <= j < i + k.
  Proof.
    unfold locks. rewrite <- in_rev, in_map_iff. split; intros [j [A B]]; exists j; [apply in_seq in B; split; [now symmetry|lia]|split; [now symmetry|apply in_seq; lia]].
  Qed.
  Lemma not_has o l : ~ In o l -> has o l = false.
  Proof. intros H. destruct (has o l) eqn:E; auto. now apply has_in in E. Qed.
  Lemma has_locks_other o i k : (forall j, o <> PoolLock j) -> has o (locks i k) = false.
  Proof. intros H. apply not_has. intros [j [E _]]%in_locks. now apply (H j). Qed.

  Lemma unmake_pool_spec k : forall s b, live s = locks 0 k ++ b -> 
    live (unmake_pool fails k s) = b /\ wrong (unmake_pool fails k s) = wrong s /\ err (unmake_pool fails k s) = err s.
  Proof.
    induction k as [|k IH]; intros s b L; simpl; [auto|]. rewrite locks_top in L. simpl in L.
    destruct (IH (destroyed fails (PoolLock k) s) b) as [A [B C]].
    - unfold destroyed, destroy. simpl. rewrite L. simpl. now rewrite Nat.eqb_refl.
    - split; auto. split; [|now rewrite C]. rewrite B. unfold destroyed, destroy. simpl. rewrite L. simpl. rewrite Nat.eqb_refl. simpl. apply orb_false_r.
  Qed.

  Variable pool : nat.
  Definition cthread_objs := ThreadAttr :: locks 0 pool ++ [MutexAttr].
  Lemma closes_cthread : closes (close_cthread fails pool) cthread_objs.
  Proof.
    apply closes_closing. intros s a b L N. unfold cthread_objs in *.
    assert (NM : has MutexAttr a = false) by (apply N; right; apply in_or_app; simpl; auto).
    assert (NT : has ThreadAttr a = false) by (apply N; simpl; auto).
    assert (LM : has MutexAttr (locks 0 pool) = false) by (apply has_locks_other; discriminate).
    assert (L1 : live (destroy_or fails ThreadAttr 792 (destroy_or fails MutexAttr 791 s)) = a ++ locks 0 pool ++ b).
    { rewrite !live_destroy_or, L. rewrite without_app by auto. simpl. rewrite <- app_assoc, without_app by auto. simpl.
      rewrite without_app by auto. reflexivity. }
    assert (W1 : wrong (destroy_or fails ThreadAttr 792 (destroy_or fails MutexAttr 791 s)) = wrong s).
    { rewrite !wrong_destroy_or, live_destroy_or, L. rewrite without_app by auto. rewrite !has_app. simpl.
      rewrite !has_app. simpl. rewrite ?orb_true_r. simpl. rewrite ?orb_true_r. simpl. now rewrite ?orb_false_r. }
    (* locks that aren't in a *)
    assert (G : forall k i s' a', live s' = a' ++ locks i k ++ b -> (forall o, In o (locks i k) -> has o a' = false) ->
      live (close_pool fails k i s') = a' ++ b /\ wrong (close_pool fails k i s') = wrong s').
    { clear. induction k as [|k IH]; intros i s a L N; simpl; [auto|].
      destruct (IH (S i) (destroy_or fails (PoolLock i) 793 s) a) as [A B]; auto.
      - rewrite live_destroy_or, L, locks_S, without_app by (apply N; rewrite locks_S; apply in_or_app; simpl; auto).
        rewrite <- app_assoc, without_app.
        + simpl. now rewrite Nat.eqb_refl.
        + apply not_has. intros [j [E H]]%in_locks. injection E as ->. lia.
      - intros o H. apply N. rewrite locks_S. apply in_or_app. auto.
      - split; auto. rewrite B, wrong_destroy_or, L, locks_S, !has_app. simpl. rewrite Nat.eqb_refl.
        rewrite !orb_true_r. simpl. rewrite ?orb_true_r. simpl. apply orb_false_r. }
    destruct (G pool 0 _ a L1) as [A B]; [intros o H; apply N; right; apply in_or_app; auto|]. split; [exact A|now rewrite B].
  Qed.

  (** What opening functions have in common: they make [objs], or nothing and raise an error *)
  Definition opens (f : st -> bool * st) (objs : list obj) : Prop :=
    forall s ok s', f s = (ok, s') -> (forall o, In o (Attr :: objs) -> has o (live s) = false) ->
    wrong s' = wrong s /\ if ok then live s' = objs ++ live s /\ err s' = err s else live s' = live s /\ err s' <> 0%N.

  Lemma opens_make o c : c <> 0%N -> opens (make fails o c) [o].
  Proof.
    intros C s ok s' H N. unfold make in H. destruct (fails _); apply pair_equal_spec in H as [<- <-]; simpl.
    - split; auto. split; auto. exact (@err_raise c (tick s) C).
    - rewrite N by (simpl; auto). now rewrite orb_false_r.
  Qed.

  Lemma opens_errs : opens (open_errs fails) [ErrorLock].
  Proof.
    intros s ok s' H N.
    assert (A : has Attr (live s) = false) by (apply N; simpl; auto).
    assert (E : has ErrorLock (live s) = false) by (apply N; simpl; auto).
    unfold open_errs, error_checking_mutex_type, make, destroy, destroyed in H.
    repeat (match type of H with context [fails ?n] => destruct (fails n); cbn -[N.eqb] in H end);
      apply pair_equal_spec in H as [<- <-]; simpl; rewrite ?A, ?E; simpl; rewrite ?A, ?E, ?orb_false_r; simpl; rewrite ?orb_false_r;
      (split; [reflexivity|]); (split; [reflexivity|]); try reflexivity; destruct (N.eqb_spec (err s) 0); auto; discriminate.
  Qed.
  Lemma opens_crew : opens (open_crew fails) [CrewLock].
  Proof.
    intros s ok s' H N.
    assert (A : has Attr (live s) = false) by (apply N; simpl; auto).
    assert (E : has CrewLock (live s) = false) by (apply N; simpl; auto).
    unfold open_crew, error_checking_mutex_type, make, destroy, destroyed in H.
    repeat (match type of H with context [fails ?n] => destruct (fails n); cbn -[N.eqb] in H end);
      apply pair_equal_spec in H as [<- <-]; simpl; rewrite ?A, ?E; simpl; rewrite ?A, ?E, ?orb_false_r; simpl; rewrite ?orb_false_r;
      (split; [reflexivity|]); (split; [reflexivity|]); try reflexivity; destruct (N.eqb_spec (err s) 0); auto; discriminate.
  Qed.
  Lemma opens_getset : opens (open_getset fails) getset_objs.
  Proof.
    intros s ok s' H N. unfold getset_objs in *.
    assert (N1 : has EdgeKey (live s) = false) by (apply N; simpl; auto 10).
    assert (N2 : has KilledKey (live s) = false) by (apply N; simpl; auto 10).
    assert (N3 : has GraphKey (live s) = false) by (apply N; simpl; auto 10).
    assert (N4 : has DestructorsKey (live s) = false) by (apply N; simpl; auto 10).
    assert (N5 : has EdgeMapKey (live s) = false) by (apply N; simpl; auto 10).
    assert (N6 : has ContextKey (live s) = false) by (apply N; simpl; auto 10).
    unfold open_getset, make, destroy, destroyed in H.
    repeat (match type of H with context [fails ?n] => destruct (fails n); cbn -[N.eqb] in H end);
      apply pair_equal_spec in H as [<- <-]; simpl; rewrite ?N1, ?N2, ?N3, ?N4, ?N5, ?N6; simpl; rewrite ?orb_false_r;
      (split; [reflexivity|]); (split; [reflexivity|]); try reflexivity; destruct (N.eqb_spec (err s) 0); auto; discriminate.
  Qed.

  Lemma opens_attr a : a = Attr \/ a = MutexAttr -> forall s ok s', error_checking_mutex_type fails a s = (ok, s') -> has a (live s) = false ->
    wrong s' = wrong s /\ if ok then live s' = a :: live s /\ err s' = err s else live s' = live s /\ err s' <> 0%N.
  Proof.
    intros D s ok s' H A. unfold error_checking_mutex_type, make, destroy, destroyed in H.
    repeat (match type of H with context [fails ?n] => destruct (fails n); cbn -[N.eqb] in H end);
      apply pair_equal_spec in H as [<- <-]; simpl; rewrite ?A, ?eqb_refl; simpl; rewrite ?orb_false_r; simpl; rewrite ?orb_false_r;
      (split; [reflexivity|]); (split; [reflexivity|]); try reflexivity; destruct (N.eqb_spec (err s) 0); auto; discriminate.
  Qed.

  Lemma opens_cthread : opens (open_cthread fails pool) cthread_objs.
  Proof.
    intros s ok s' H N. unfold cthread_objs in *.
    assert (A : has MutexAttr (live s) = false) by (apply N; right; right; apply in_or_app; simpl; auto).
    assert (T : has ThreadAttr (live s) = false) by (apply N; simpl; auto).
    assert (P : forall j, j < pool -> has (PoolLock j) (live s) = false).
    { intros j Hj. apply N. right. right. apply in_or_app. left. apply in_locks. exists j. split; auto. lia. }
    unfold open_cthread in H. destruct (error_checking_mutex_type fails MutexAttr s) as [[] s1] eqn:E1;
      destruct (opens_attr (or_intror eq_refl) _ E1 A) as [W1 Q1].
    2: { apply pair_equal_spec in H as [<- <-]. auto. }
    destruct Q1 as [L1 Q1]. destruct (make_pool fails pool 0 s1) as [[i b] s2] eqn:E2.
    (* locks of the pool that are in use already are beyond its end *)
    assert (M : forall k i0 s0 j b0 s0', make_pool fails k i0 s0 = (j, b0, s0') ->
      (forall l, i0 <= l < i0 + k -> has (PoolLock l) (live s0) = false) ->
      i0 <= j <= i0 + k /\ live s0' = locks i0 (j - i0) ++ live s0 /\ wrong s0' = wrong s0 /\
      (if b0 then j = i0 + k /\ err s0' = err s0 else err s0' <> 0%N)).
    { clear. induction k as [|k IH]; intros i s j ok s' H N; simpl in H.
      - injection H as <- <- <-. rewrite Nat.sub_diag. simpl. split; [lia|]. intuition.
      - unfold make in H. destruct (fails (clock s)).
        + injection H as <- <- <-. rewrite Nat.sub_diag. simpl. split; [lia|]. split; [auto|]. split; [auto|]. now apply (@err_raise 790 (tick s)).
        + destruct (IH _ _ _ _ _ H) as [A [B [C D]]].
          * simpl. intros l Hl. replace (l =? i) with false by (symmetry; apply Nat.eqb_neq; lia). simpl. apply N. lia.
          * split; [lia|]. simpl in B, C, D. split.
            -- rewrite B. replace (j - i) with (S (j - S i)) by lia. rewrite locks_S, <- app_assoc. reflexivity.
            -- split; [|destruct ok; [|exact D]; destruct D as [D1 D2]; split; [lia|auto]].
               rewrite C, N by lia. apply orb_false_r. }
    destruct (M _ _ _ _ _ _ E2) as [B2 [L2 [W2 Q2]]]; [intros l Hl; rewrite L1; simpl; apply P; lia|].
    rewrite Nat.sub_0_r, L1 in L2.
    assert (U : forall s3, live s3 = locks 0 i ++ MutexAttr :: live s -> wrong s3 = wrong s -> err s3 <> 0%N ->
      wrong (unmake_pool fails i (destroyed fails MutexAttr s3)) = wrong s /\
      live (unmake_pool fails i (destroyed fails MutexAttr s3)) = live s /\ err (unmake_pool fails i (destroyed fails MutexAttr s3)) <> 0%N).
    { intros s3 L3 W3 Q3. destruct (@unmake_pool_spec i (destroyed fails MutexAttr s3) (live s)) as [X [Y Z]].
      - unfold destroyed, destroy. simpl. rewrite L3, without_app by (apply has_locks_other; discriminate). reflexivity.
      - split; [|split; [exact X|]].
        + rewrite Y. unfold destroyed, destroy. simpl. rewrite L3, has_app. simpl. rewrite orb_true_r. simpl. now rewrite orb_false_r.
        + now rewrite Z. }
    destruct b.
    - destruct Q2 as [-> Q2]. unfold make in H. destruct (fails (clock s2)); apply pair_equal_spec in H as [<- <-].
      + apply U; simpl; [auto|congruence|]. now apply (@err_raise 789 (tick s2)).
      + simpl. rewrite L2, has_app, (@has_locks_other ThreadAttr) by discriminate. simpl. rewrite T, orb_false_r. split; [congruence|].
        split; [|congruence]. now rewrite <- app_assoc.
    - apply pair_equal_spec in H as [<- <-]. apply U; auto. congruence.
  Qed.

  Lemma opens_mutex m s ok s' : mutex_init fails m s = (ok, s') -> has m (live s) = false -> has MutexAttr (live s) = true ->
    wrong s' = wrong s /\ if ok then live s' = m :: live s /\ err s' = err s else live s' = live s /\ err s' <> 0%N.
  Proof.
    unfold mutex_init, make. intros H M A.
    destruct (fails _); apply pair_equal_spec in H as [<- <-]; simpl; rewrite ?A, ?M; simpl; rewrite ?orb_false_r; auto.
    split; auto. split; auto. destruct (N.eqb_spec (err s) 0); auto; discriminate.
  Qed.

  Lemma close_errs_spec s b : live s = ErrorLock :: b -> live (close_errs fails s) = b /\ wrong (close_errs fails s) = wrong s /\
    err (close_errs fails s) = err s.
  Proof.
    intros L. unfold close_errs, destroy. rewrite L. simpl. destruct (fails (clock s)); simpl; rewrite orb_false_r; auto.
  Qed.

  (** Initialisation from scratch *)
  Theorem initialization_spec ok s : initialization fails pool pristine = (ok, s) ->
    wrong s = false /\ if ok then live s = [GraphLock; PacketLock; CrewLock; KillerLock] ++ cthread_objs ++ getset_objs ++ [ErrorLock] /\ err s = 0%N
    else live s = [] /\ err s <> 0%N.
  Proof.
    intros H. unfold initialization in H.
    assert (CT : forall o, (forall j, o <> PoolLock j) -> o <> ThreadAttr -> o <> MutexAttr -> has o cthread_objs = false).
    { intros o A B C. apply not_has. unfold cthread_objs. intros [D|D]; [congruence|]. apply in_app_or in D as [D|[D|[]]]; [|congruence].
      apply in_locks in D as [j [D _]]. now apply (A j). }
    assert (MA : has MutexAttr cthread_objs = true) by (apply has_in; right; apply in_or_app; simpl; auto).
    (* closing everything opened so far, given what is opened after getset *)
    destruct (open_errs fails pristine) as [[] s1] eqn:E1; destruct (opens_errs _ E1) as [W1 Q1]; try (intros; reflexivity);
      [|apply pair_equal_spec in H as [<- <-]; auto].
    destruct Q1 as [L1 Q1]. simpl in L1, Q1, W1.
    assert (C0 : forall s', live s' = [ErrorLock] -> wrong s' = false -> err s' <> 0%N ->
      wrong (close_errs fails s') = false /\ live (close_errs fails s') = [] /\ err (close_errs fails s') <> 0%N).
    { intros s' L W Q. destruct (close_errs_spec _ L) as [A [B C]]. rewrite B, C. auto. }
    destruct (open_getset fails s1) as [[] s2] eqn:E2; destruct (opens_getset _ E2) as [W2 Q2];
      try (intros o Ho; rewrite L1; simpl in Ho; repeat destruct Ho as [<-|Ho]; try reflexivity; easy);
      [|apply pair_equal_spec in H as [<- <-]; apply C0; [rewrite (proj1 Q2); auto|congruence|apply Q2]].
    destruct Q2 as [L2 Q2]. rewrite L1 in L2.
    assert (C1 : forall s', live s' = getset_objs ++ [ErrorLock] -> wrong s' = false -> err s' <> 0%N ->
      wrong (close_errs fails (close_getset fails s')) = false /\ live (close_errs fails (close_getset fails s')) = [] /\
      err (close_errs fails (close_getset fails s')) <> 0%N).
    { intros s' L W Q. destruct (closes_getset s' [] [ErrorLock] L) as [A [B C]]; try (intros; reflexivity).
      apply C0; simpl in A; congruence. }
    destruct (open_cthread fails pool s2) as [[] s3] eqn:E3; destruct (opens_cthread _ E3) as [W3 Q3].
    1,3: intros o Ho; rewrite L2; unfold cthread_objs in Ho; simpl in Ho; (destruct Ho as [<-|[<-|Ho]]; [reflexivity|reflexivity|]);
      (apply in_app_or in Ho as [Ho|[<-|[]]]; [apply in_locks in Ho as [j [-> _]]|]; reflexivity).
    2: { apply pair_equal_spec in H as [<- <-]. destruct Q3 as [L3 Q3]. apply C1; congruence. }
    destruct Q3 as [L3 Q3]. rewrite L2 in L3.
    assert (C2 : forall s', live s' = cthread_objs ++ getset_objs ++ [ErrorLock] -> wrong s' = false -> err s' <> 0%N ->
      wrong (close_errs fails (close_getset fails (close_cthread fails pool s'))) = false /\
      live (close_errs fails (close_getset fails (close_cthread fails pool s'))) = [] /\
      err (close_errs fails (close_getset fails (close_cthread fails pool s'))) <> 0%N).
    { intros s' L W Q. destruct (closes_cthread s' [] (getset_objs ++ [ErrorLock]) L) as [A [B C]]; try (intros; reflexivity).
      cbn [app] in A. apply C1; congruence. }
    destruct (open_killers fails s3) as [[] s4] eqn:E4; destruct (@opens_mutex KillerLock _ _ _ E4) as [W4 Q4].
    1,4: rewrite L3, has_app, CT by discriminate; reflexivity.
    1,3: rewrite L3, has_app, MA; reflexivity.
    2: { apply pair_equal_spec in H as [<- <-]. destruct Q4 as [L4 Q4]. apply C2; congruence. }
    destruct Q4 as [L4 Q4]. rewrite L3 in L4.
    assert (HE : has ErrorLock (cthread_objs ++ getset_objs ++ [ErrorLock]) = true) by (rewrite has_app; apply orb_true_r).
    assert (C3 : forall s', live s' = KillerLock :: cthread_objs ++ getset_objs ++ [ErrorLock] -> wrong s' = false -> err s' <> 0%N ->
      let s'' := close_errs fails (close_getset fails (close_cthread fails pool (close_killers fails s'))) in
      wrong s'' = false /\ live s'' = [] /\ err s'' <> 0%N).
    { intros s' L W Q. destruct (closes_killers s' [] (cthread_objs ++ getset_objs ++ [ErrorLock]) L) as [A [B C]];
        try (intros; reflexivity); auto. cbn [app] in A. apply C2; congruence. }
    destruct (open_crew fails s4) as [[] s5] eqn:E5; destruct (opens_crew _ E5) as [W5 Q5].
    1,3: intros o Ho; rewrite L4; simpl in Ho; (destruct Ho as [<-|[<-|[]]]; cbn [has obj_eqb orb app]; rewrite has_app, CT by discriminate; reflexivity).
    2: { apply pair_equal_spec in H as [<- <-]. destruct Q5 as [L5 Q5]. apply C3; congruence. }
    destruct Q5 as [L5 Q5]. rewrite L4 in L5. cbn [app] in L5.
    assert (C4 : forall s', live s' = CrewLock :: KillerLock :: cthread_objs ++ getset_objs ++ [ErrorLock] -> wrong s' = false -> err s' <> 0%N ->
      let s'' := close_errs fails (close_getset fails (close_cthread fails pool (close_killers fails (close_crew fails s')))) in
      wrong s'' = false /\ live s'' = [] /\ err s'' <> 0%N).
    { intros s' L W Q. destruct (closes_crew s' [] (KillerLock :: cthread_objs ++ getset_objs ++ [ErrorLock]) L) as [A [B C]];
        try (intros; reflexivity); auto. cbn [app] in A. apply C3; congruence. }
    destruct (open_packets fails s5) as [[] s6] eqn:E6; destruct (@opens_make PacketLock 1282 ltac:(discriminate) _ _ _ E6) as [W6 Q6].
    1,3: intros o Ho; rewrite L5; simpl in Ho; (destruct Ho as [<-|[<-|[]]]; cbn [has obj_eqb orb app]; rewrite has_app, CT by discriminate; reflexivity).
    2: { apply pair_equal_spec in H as [<- <-]. destruct Q6 as [L6 Q6]. apply C4; congruence. }
    destruct Q6 as [L6 Q6]. rewrite L5 in L6. cbn [app] in L6.
    assert (C5 : forall s', live s' = PacketLock :: CrewLock :: KillerLock :: cthread_objs ++ getset_objs ++ [ErrorLock] -> wrong s' = false ->
      err s' <> 0%N ->
      let s'' := close_errs fails (close_getset fails (close_cthread fails pool (close_killers fails (close_crew fails (close_packets fails s'))))) in
      wrong s'' = false /\ live s'' = [] /\ err s'' <> 0%N).
    { intros s' L W Q. destruct (closes_packets s' [] (CrewLock :: KillerLock :: cthread_objs ++ getset_objs ++ [ErrorLock]) L)
        as [A [B C]]; try (intros; reflexivity); auto. cbn [app] in A. apply C4; congruence. }
    destruct (open_graph fails s6) as [[] s7] eqn:E7; destruct (@opens_make GraphLock 1010 ltac:(discriminate) _ _ _ E7) as [W7 Q7].
    1,3: intros o Ho; rewrite L6; simpl in Ho; (destruct Ho as [<-|[<-|[]]]; cbn [has obj_eqb orb app]; rewrite has_app, CT by discriminate; reflexivity).
    2: { apply pair_equal_spec in H as [<- <-]. destruct Q7 as [L7 Q7]. apply C5; congruence. }
    destruct Q7 as [L7 Q7]. rewrite L6 in L7. cbn [app] in L7.
    destruct (fails (clock s7)); apply pair_equal_spec in H as [<- <-].
    - destruct (closes_graph (raise 907 (tick s7)) [] (PacketLock :: CrewLock :: KillerLock :: cthread_objs ++ getset_objs ++ [ErrorLock]) L7)
        as [A [B C]]; try (intros; reflexivity); auto. cbn [app] in A.
      apply C5; [exact A|simpl in B; congruence|]. rewrite C. now apply (@err_raise 907 (tick s7)).
    - simpl. split; [congruence|]. split; [rewrite L7; reflexivity|congruence].
  Qed.
End Proofs.

(** Initialisation either makes everything there should be or leaves nothing behind and reports an error, no matter which calls
    fail.  Nothing is initialised twice, destroyed without being initialised, or used before or after. *)
Theorem C96_initialization fails pool ok s : initialization fails pool pristine = (ok, s) ->
  wrong s = false /\ (ok = true -> Permutation (live s) (static pool) /\ err s = 0%N) /\ (ok = false -> live s = [] /\ err s <> 0%N).
Proof.
  intros H. destruct (initialization_spec fails pool H) as [W Q]. split; [exact W|].
  destruct ok; (split; [|try discriminate; auto]); [|discriminate]. intros _. destruct Q as [-> Q]. split; auto.
  unfold static, cthread_objs, getset_objs. cbn [app].
  assert (P : Permutation (locks 0 pool) (map PoolLock (seq 0 pool))) by (symmetry; apply Permutation_rev).
  rewrite <- P. clear. generalize (locks 0 pool). intros l.
  transitivity (l ++ [GraphLock; PacketLock; CrewLock; KillerLock; ThreadAttr; MutexAttr; ContextKey; EdgeMapKey; DestructorsKey; GraphKey; KilledKey;
    EdgeKey; ErrorLock]).
  - rewrite <- app_assoc.
    change (GraphLock :: PacketLock :: CrewLock :: KillerLock :: ThreadAttr :: l ++
      ([MutexAttr] ++ [ContextKey; EdgeMapKey; DestructorsKey; GraphKey; KilledKey; EdgeKey; ErrorLock]))
      with ([GraphLock; PacketLock; CrewLock; KillerLock; ThreadAttr] ++
      (l ++ [MutexAttr; ContextKey; EdgeMapKey; DestructorsKey; GraphKey; KilledKey; EdgeKey; ErrorLock])).
    rewrite app_assoc. rewrite (Permutation_app_comm [_; _; _; _; _] l). rewrite <- app_assoc. reflexivity.
  - rewrite Permutation_app_comm. 
    change (ErrorLock :: EdgeKey :: KilledKey :: GraphKey :: DestructorsKey :: EdgeMapKey :: ContextKey :: MutexAttr :: ThreadAttr :: KillerLock ::
      CrewLock :: PacketLock :: GraphLock :: l) with ([ErrorLock; EdgeKey; KilledKey; GraphKey; DestructorsKey; EdgeMapKey; ContextKey; MutexAttr;
      ThreadAttr; KillerLock; CrewLock; PacketLock; GraphLock] ++ l).
    apply Permutation_app_tail.
    apply NoDup_Permutation; [repeat constructor; simpl; intuition discriminate|repeat constructor; simpl; intuition discriminate|].
    intros x. simpl. intuition.
Qed.

(** The fourth lock of the pool can't be initialised, so the first three are destroyed, and the error is the one of that lock.  If
    the last call fails, everything is destroyed. *)
Example C96_initialization_ex :
  let fails n := n =? 15 in
  let r := initialization fails 5 pristine in
  fst r = false /\ err (snd r) = 790%N /\ live (snd r) = [] /\
  let r := initialization (fun n => n =? 30) 5 pristine in
  fst r = true /\ length (live (snd r)) = 18.
Proof. vm_compute. auto. Qed.

(** ** Calls of the library *)
Lemma uses_spec os : forall s, (forall o, In o os -> In o (live s)) ->
  wrong (fold_left (fun s o => use o s) os s) = wrong s /\ live (fold_left (fun s o => use o s) os s) = live s.
Proof.
  induction os as [|o os IH]; intros s H; simpl; auto. destruct (IH (use o s)) as [A B]; [intros; apply H; simpl; auto|].
  rewrite A, B. split; auto. simpl. replace (has o (live s)) with true; [apply orb_false_r|]. symmetry. apply has_in. apply H. simpl. auto.
Qed.

Definition uses_of (c : call) : list obj := match c with Api os | Connect os | Stretch os => os end.
Definition is_stretch (c : call) : Prop := match c with Stretch _ => True | _ => False end.

Record calls_inv (pool : nat) (x : option bool * st) : Prop := {
  ci_wrong : wrong (snd x) = false;
  ci_none : fst x = None -> snd x = pristine;
  ci_some : fst x = Some true -> Permutation (live (snd x)) (static pool) }.

Lemma calls_step_inv fails pool x c : calls_inv pool x -> (forall o, In o (uses_of c) -> In o (static pool)) ->
  (is_stretch c -> fst x = Some true) -> calls_inv pool (call_step fails pool x c).
Proof.
  intros [W N S] U D. destruct x as [i s]. simpl in W, N, S.
  assert (US : forall os s', Permutation (live s') (static pool) -> wrong s' = false -> (forall o, In o os -> In o (static pool)) ->
    calls_inv pool (Some true, fold_left (fun s o => use o s) os s')).
  { intros os s' P W' U'. destruct (uses_spec os s') as [A B]; [intros o Ho; rewrite P; auto|].
    constructor; cbn [fst snd]; try discriminate; [congruence|]. intros _. now rewrite B. }
  destruct c as [os|os|os]; cbn [call_step fst snd uses_of] in *.
  - assert (E : exists j s', match i with Some j => (j, s) | None => initialization fails pool s end = (j, s') /\ wrong s' = false /\
      (j = true -> Permutation (live s') (static pool))).
    { destruct i as [j|]; [exists j, s; split; auto; split; auto; intros ->; apply S; reflexivity|].
      rewrite (N eq_refl). destruct (initialization fails pool pristine) as [j s'] eqn:E. exists j, s'. split; auto.
      destruct (C96_initialization _ _ E) as [A [B _]]. split; auto. intros H. now apply B. }
    destruct E as [j [s' [-> [A B]]]]. destruct j.
    + change (fold_left _ os (use PacketLock (use CrewLock s'))) with (fold_left (fun s o => use o s) ([CrewLock; PacketLock] ++ os) s').
      apply US; auto. intros o [<-|[<-|Ho]]; [simpl; auto 20|simpl; auto 20|auto].
    + constructor; cbn [fst snd]; auto; discriminate.
  - destruct i as [[]|]; [|constructor; cbn [fst snd]; auto; discriminate|constructor; cbn [fst snd]; auto; discriminate].
    change (fold_left _ os (use ContextKey s)) with (fold_left (fun s o => use o s) ([ContextKey] ++ os) s).
    apply US; auto. intros o [<-|Ho]; [simpl; auto 20|auto].
  - assert (i = Some true) as -> by (apply D; exact I).
    change (fold_left _ os (use ContextKey (use DestructorsKey s))) with (fold_left (fun s o => use o s) ([DestructorsKey; ContextKey] ++ os) s).
    apply US; auto. intros o [<-|[<-|Ho]]; [simpl; auto 20|simpl; auto 20|auto].
Qed.

(** No program uses anything that isn't initialised by calling functions of the library in any order, whether initialisation succeeds
    or not, unless it calls cru_stretch. *)
Theorem C96_calls fails pool cs : (forall c, In c cs -> ~ is_stretch c) -> (forall c o, In c cs -> In o (uses_of c) -> In o (static pool)) ->
  wrong (snd (fold_left (call_step fails pool) cs (None, pristine))) = false.
Proof.
  intros NS U. apply (@ci_wrong pool).
  assert (I : calls_inv pool (None, pristine)) by (constructor; simpl; auto; discriminate).
  revert I NS U. generalize (None (A := bool), pristine). induction cs as [|c cs IH]; intros x I NS U; simpl; auto.
  apply IH; [|intros; apply NS; simpl; auto|intros; apply (U c0); simpl; auto].
  apply calls_step_inv; auto; [intros; apply (U c); simpl; auto|]. intros Q. exfalso. apply (NS c); simpl; auto.
Qed.

(** Even that can be called after initialisation has succeeded. *)
Theorem C96_calls_initialized fails pool cs1 cs2 : (forall c, In c cs1 -> ~ is_stretch c) ->
  (forall c o, In c (cs1 ++ cs2) -> In o (uses_of c) -> In o (static pool)) ->
  fst (fold_left (call_step fails pool) cs1 (None, pristine)) = Some true ->
  wrong (snd (fold_left (call_step fails pool) (cs1 ++ cs2) (None, pristine))) = false.
Proof.
  intros NS U. rewrite fold_left_app.
  assert (I : calls_inv pool (None, pristine)) by (constructor; simpl; auto; discriminate).
  revert I NS U. generalize (None (A := bool), pristine).
  assert (G : forall x, calls_inv pool x -> (forall c o, In c cs2 -> In o (uses_of c) -> In o (static pool)) -> fst x = Some true ->
    wrong (snd (fold_left (call_step fails pool) cs2 x)) = false).
  { induction cs2 as [|c cs IH]; intros x I U T; simpl; [apply I|].
    apply IH; [|intros; apply (U c0); simpl; auto|destruct c; simpl; rewrite ?T; auto].
    apply calls_step_inv; auto. intros; apply (U c); simpl; auto. }
  induction cs1 as [|c cs IH]; intros x I NS U; simpl; [intros T; apply G; auto|].
  apply IH; [|intros; apply NS; simpl; auto|intros; apply (U c0); simpl; auto].
  apply calls_step_inv; auto; [intros; apply (U c); simpl; auto|]. intros Q. exfalso. apply (NS c); simpl; auto.
Qed.

Example C96_calls_ex :
  let cs := [Connect [EdgeKey]; Api [PoolLock 2; KillerLock]; Connect [EdgeMapKey; EdgeKey]; Api [GraphLock]] in
  let x := fold_left (call_step (fun _ => false) 5) cs (None, pristine) in
  fst x = Some true /\ wrong (snd x) = false /\
  let x := fold_left (call_step (fun n => n =? 7) 5) cs (None, pristine) in
  fst x = Some false /\ wrong (snd x) = false /\ live (snd x) = [] /\
  let x := fold_left (call_step (fun _ => false) 5) (cs ++ [Stretch [EdgeMapKey; EdgeKey]]) (None, pristine) in
  wrong (snd x) = false.
Proof. vm_compute. auto 10. Qed.

(** Function cru_stretch calls pthread_getspecific with a key that was never created if it is called before any other function,
    and if initialisation failed, with one that was deleted or never created, although it is meant to detect both cases. *)
Theorem C96_stretch_uninitialized_refuted :
  exists fails pool cs, (forall c o, In c cs -> In o (uses_of c) -> In o (static pool)) /\
    wrong (snd (fold_left (call_step fails pool) cs (None, pristine))) = true.
Proof.
  exists (fun n => n =? 7), 5, [Api [GraphLock]; Stretch []]. split; [|vm_compute; reflexivity].
  intros c o [<-|[<-|[]]]; simpl; [|easy]. intros [<-|[]]. auto 20.
Qed.

(** ** Teardown *)
Lemma nodup_static pool : NoDup (static pool).
Proof.
  unfold static. assert (P : NoDup (map PoolLock (seq 0 pool))).
  { apply FinFun.Injective_map_NoDup; [intros a b E; now injection E|apply seq_NoDup]. }
  assert (Q : forall o, (forall j, o <> PoolLock j) -> ~ In o (map PoolLock (seq 0 pool))).
  { intros o H I. apply in_map_iff in I as [j [E _]]. now apply (H j). }
  simpl. repeat (constructor; [simpl; intros H; repeat (destruct H as [H|H]; [discriminate|]); revert H; apply Q; discriminate|]). exact P.
Qed.

Section Teardown.
  Variable fails : nat -> bool.

  Definition closed_by (a : action) : list obj := match a with Close o _ => [o] | CloseErrs => [ErrorLock] | _ => [] end.
  (** What remains to be done destroys what there is.  The lock is the last one, after waiting for background threads. *)
  Record td_inv (e : N) (n : nat) (x : td) : Prop := {
    ti_wrong : wrong (base x) = false;
    ti_live : Permutation (live (base x)) (flat_map closed_by (todo x));
    ti_tail : (exists pre, todo x = pre ++ [Sync; CloseErrs; Print] /\ (forall a, In a pre -> a = Throw \/ exists o c, a = Close o c /\ o <> ErrorLock))
      \/ (slackers x = [] /\ (todo x = [CloseErrs; Print] \/ todo x = [Print] \/ todo x = []));
    ti_count : n <= count_occ N.eq_dec (thrown (base x)) e + count_occ N.eq_dec (slackers x) e;
    ti_print : printed x = if todo x then Some (thrown (base x)) else None }.

  Lemma has_perm o l k : Permutation l k -> In o k -> has o l = true.
  Proof. intros P H. apply has_in. rewrite P. exact H. Qed.
  Lemma perm_without o l k : Permutation l (o :: k) -> Permutation (without o l) k.
  Proof.
    intros P. assert (I : In o l) by (rewrite P; simpl; auto). apply Permutation_cons_inv with o. rewrite <- P. symmetry. now apply without_perm.
  Qed.

  Lemma thrown_count e e' s : e <> 0%N -> count_occ N.eq_dec (thrown (globally_throw e' s)) e =
    (if N.eq_dec e' e then 1 else 0) + count_occ N.eq_dec (thrown s) e.
  Proof.
    intros E. unfold globally_throw. destruct (N.eqb_spec e' 0) as [->|Q]; [destruct (N.eq_dec 0 e); [congruence|reflexivity]|cbn [thrown count_occ]].
    destruct (N.eq_dec e' e); reflexivity.
  Qed.

  Lemma td_step_inv e n x y : e <> 0%N -> td_step fails x y -> td_inv e n x -> td_inv e n y.
  Proof.
    intros E0 H [W L T C P]. destruct H as [a rest sl s p D|rest sl1 e' sl2 s p]; cbn [base todo slackers printed] in *.
    - subst p. cbn [flat_map] in L. destruct a as [o c| | | |]; cbn [closed_by app] in L.
      + assert (R : rest <> []).
        { destruct T as [[pre [T _]]|[_ [T|[T|T]]]]; try discriminate. destruct pre as [|a pre]; [discriminate|]. injection T as _ ->. destruct pre; discriminate. }
        constructor; cbn [base todo slackers printed perform].
        * rewrite wrong_destroy_or, W, (@has_perm o _ _ L) by (simpl; auto). reflexivity.
        * rewrite live_destroy_or. now apply perm_without.
        * left. destruct T as [[pre [T F]]|[_ [T|[T|T]]]]; try discriminate. destruct pre as [|a pre]; [discriminate|]. injection T as _ ->.
          exists pre. split; auto. intros a' Ha. apply F. simpl. auto.
        * now rewrite thrown_destroy_or.
        * destruct rest; [congruence|reflexivity].
      + assert (R : In ErrorLock (flat_map closed_by rest) /\ rest <> [] /\ exists pre, rest = pre ++ [Sync; CloseErrs; Print] /\
          forall a, In a pre -> a = Throw \/ exists o c, a = Close o c /\ o <> ErrorLock).
        { destruct T as [[pre [T F]]|[_ [T|[T|T]]]]; try discriminate. destruct pre as [|a pre]; [discriminate|]. injection T as _ ->.
          split; [rewrite flat_map_app; apply in_or_app; simpl; auto|]. split; [destruct pre; discriminate|]. exists pre. split; auto.
          intros a' Ha. apply F. simpl. auto. }
        destruct R as [R1 [R2 R3]].
        constructor; cbn [base todo slackers printed perform]; auto.
        * rewrite wrong_throw; auto. now apply (@has_perm ErrorLock _ _ L).
        * now rewrite live_throw.
        * rewrite thrown_count by auto. simpl. lia.
        * destruct rest; [congruence|reflexivity].
      + rewrite (D eq_refl) in *. constructor; cbn [base todo slackers printed perform]; auto.
        * right. split; auto. destruct T as [[pre [T F]]|[_ [T|[T|T]]]]; try discriminate. destruct pre as [|a pre]; [injection T as ->; auto|].
          injection T as <- _. destruct (F Sync) as [Q|[o [c [Q _]]]]; simpl; auto; discriminate.
        * destruct T as [[pre [T F]]|[_ [T|[T|T]]]]; try discriminate. destruct pre as [|a pre]; [injection T as ->; auto|].
          injection T as _ ->. destruct pre; reflexivity.
      + destruct T as [[pre [T F]]|[-> [T|[T|T]]]]; try discriminate.
        { destruct pre as [|a pre]; [discriminate|]. injection T as <- _. destruct (F CloseErrs) as [Q|[o [c [Q _]]]]; simpl; auto; discriminate. }
        injection T as ->. cbn [flat_map closed_by app] in L. constructor; cbn [base todo slackers printed perform]; auto.
        * unfold close_errs, destroy. rewrite (@has_perm ErrorLock _ _ L) by (simpl; auto). destruct (fails _); simpl; now rewrite W.
        * unfold close_errs, destroy. destruct (fails _); simpl; now apply perm_without.
        * unfold close_errs, destroy. destruct (fails _); cbn [thrown slackers count_occ] in *; auto. destruct (N.eq_dec 914 e); lia.
      + destruct T as [[pre [T F]]|[-> [T|[T|T]]]]; try discriminate.
        { destruct pre as [|a pre]; [discriminate|]. injection T as <- _. destruct (F Print) as [Q|[o [c [Q _]]]]; simpl; auto; discriminate. }
        injection T as ->. cbn [flat_map closed_by app] in L. constructor; cbn [base todo slackers printed perform]; auto.
    - destruct T as [T|[T _]]; [|destruct sl1; discriminate].
      assert (I : In ErrorLock (flat_map closed_by rest) /\ rest <> []).
      { destruct T as [pre [-> _]]. rewrite flat_map_app. split; [apply in_or_app; simpl; auto|destruct pre; discriminate]. }
      destruct I as [I R]. constructor; cbn [base todo slackers printed]; auto.
      + rewrite wrong_throw; auto. now apply (@has_perm ErrorLock _ _ L).
      + now rewrite live_throw.
      + rewrite thrown_count by auto. rewrite count_occ_app in *. simpl in C. destruct (N.eq_dec e' e); lia.
      + destruct rest; [congruence|auto].
  Qed.

  Lemma td_init_inv e pool sl s : wrong s = false -> Permutation (live s) (static pool) ->
    td_inv e (count_occ N.eq_dec (thrown s) e + count_occ N.eq_dec sl e) (mkTd (teardown pool) sl s None).
  Proof.
    intros W P. constructor; cbn [base todo slackers printed]; auto.
    - rewrite P. unfold teardown, static. rewrite !flat_map_app.
      assert (F : flat_map closed_by (map (fun i => Close (PoolLock i) 793) (seq 0 pool)) = map PoolLock (seq 0 pool)).
      { generalize (seq 0 pool). intros l. induction l as [|i l IH]; simpl; auto. now rewrite IH. }
      rewrite F. clear F. generalize (map PoolLock (seq 0 pool)). intros l. cbn [flat_map closed_by app].
      change (KillerLock :: ContextKey :: EdgeMapKey :: EdgeKey :: GraphKey :: KilledKey :: DestructorsKey :: MutexAttr :: ThreadAttr ::
        l ++ [PacketLock; CrewLock; GraphLock; ErrorLock]) with
        ([KillerLock; ContextKey; EdgeMapKey; EdgeKey; GraphKey; KilledKey; DestructorsKey; MutexAttr; ThreadAttr] ++
        l ++ [PacketLock; CrewLock; GraphLock; ErrorLock]).
      rewrite (Permutation_app_comm l), app_assoc.
      change (ErrorLock :: EdgeKey :: KilledKey :: GraphKey :: DestructorsKey :: EdgeMapKey :: ContextKey :: MutexAttr :: ThreadAttr :: KillerLock ::
        CrewLock :: PacketLock :: GraphLock :: l) with ([ErrorLock; EdgeKey; KilledKey; GraphKey; DestructorsKey; EdgeMapKey; ContextKey; MutexAttr;
        ThreadAttr; KillerLock; CrewLock; PacketLock; GraphLock] ++ l).
      apply Permutation_app_tail.
      apply NoDup_Permutation; [repeat constructor; simpl; intuition discriminate|repeat constructor; simpl; intuition discriminate|].
      intros x. simpl. intuition.
    - left. exists ([Close KillerLock 1070; Throw; Close ContextKey 998; Close EdgeMapKey 999; Close EdgeKey 1000; Close GraphKey 1001;
        Close KilledKey 1002; Close DestructorsKey 1003; Throw; Close MutexAttr 791; Close ThreadAttr 792] ++
        map (fun i => Close (PoolLock i) 793) (seq 0 pool) ++
        [Throw; Close PacketLock 1285; Throw; Close CrewLock 716; Throw; Close GraphLock 1011; Throw]).
      split; [unfold teardown; now rewrite <- !app_assoc|].
      intros a H. repeat (apply in_app_or in H as [H|H]).
      + simpl in H. repeat (destruct H as [<-|H]; [first [left; reflexivity|right; eexists; eexists; split; [reflexivity|discriminate]]|]). easy.
      + apply in_map_iff in H as [i [<- _]]. right. eexists; eexists; split; [reflexivity|discriminate].
      + simpl in H. repeat (destruct H as [<-|H]; [first [left; reflexivity|right; eexists; eexists; split; [reflexivity|discriminate]]|]). easy.
  Qed.
End Teardown.

(** However background threads are interleaved with teardown, everything is destroyed once and not used afterwards, and every error
    thrown before or by one of the threads is printed. *)
Theorem C96_teardown fails pool sl s x : wrong s = false -> Permutation (live s) (static pool) ->
  star (td_step fails) (mkTd (teardown pool) sl s None) x ->
  wrong (base x) = false /\
  (todo x = [] -> live (base x) = [] /\ slackers x = [] /\ exists l, printed x = Some l /\
     forall e, e <> 0%N -> count_occ N.eq_dec (thrown s) e + count_occ N.eq_dec sl e <= count_occ N.eq_dec l e).
Proof.
  intros W P R.
  assert (I : forall e, e <> 0%N -> td_inv e (count_occ N.eq_dec (thrown s) e + count_occ N.eq_dec sl e) x).
  { intros e E. induction R as [|y z R IH H]; [now apply td_init_inv|]. apply (td_step_inv E H). now apply IH. }
  pose proof (I 1%N ltac:(discriminate)) as I1. split; [apply I1|]. intros T.
  assert (S : slackers x = []).
  { destruct (ti_tail I1) as [[pre [Q _]]|[Q _]]; auto. rewrite T in Q. destruct pre; discriminate. }
  split; [|split; [exact S|]].
  - apply Permutation_nil. symmetry. rewrite (ti_live I1), T. reflexivity.
  - exists (thrown (base x)). split; [rewrite (ti_print I1), T; reflexivity|]. intros e E.
    pose proof (ti_count (I e E)) as C. rewrite S in C. simpl in C. lia.
Qed.

(** It can't get stuck, and it takes no more steps than there are things to be done. *)
Theorem C96_teardown_progress fails x : todo x <> [] -> exists y, td_step fails x y.
Proof.
  destruct x as [[|a rest] sl s p]; [easy|]. intros _. destruct sl as [|e sl].
  - eexists. now apply td_act.
  - eexists. apply (@td_slack fails (a :: rest) [] e sl).
Qed.
Theorem C96_teardown_measure fails x y : td_step fails x y -> length (todo y) + length (slackers y) < length (todo x) + length (slackers x).
Proof. intros []; simpl; rewrite ?app_length; simpl; lia. Qed.

(** A way of executing it for the sake of examples: the first of the background threads takes a step if true *)
Definition td_go (fails : nat -> bool) (x : td) (b : bool) : td :=
  match b, todo x, slackers x with
  | true, _, e :: sl => mkTd (todo x) sl (globally_throw e (base x)) (printed x)
  | false, Sync :: _, _ :: _ => x
  | false, a :: rest, sl => mkTd rest sl (perform fails a (base x)) (match a with Print => Some (thrown (base x)) | _ => printed x end)
  | _, _, _ => x
  end.
Lemma td_go_sound fails bs : forall x, star (td_step fails) x (fold_left (td_go fails) bs x).
Proof.
  assert (G : forall x b, td_go fails x b = x \/ td_step fails x (td_go fails x b)).
  { intros [[|a rest] [|e sl] s p] []; simpl; auto; try (right; apply (@td_slack fails _ [] e sl)).
    - right. destruct a; apply td_act; auto.
    - destruct a; auto; right; apply td_act; discriminate. }
  intros x. rewrite <- (rev_involutive bs). induction (rev bs) as [|b l IH]; simpl; [apply star_refl|].
  rewrite fold_left_app. simpl. destruct (G (fold_left (td_go fails) (rev l) x) b) as [->|H]; auto. eapply star_step; eauto.
Qed.

(** Two background threads throw errors, one of them in the middle of it, and the graph lock can't be destroyed. *)
Example C96_teardown_ex :
  let s := mkSt (static 3) 0 0 false [908%N] in
  let fails n := n =? 14 in
  let x := fold_left (td_go fails) (repeat false 8 ++ [true] ++ repeat false 30 ++ [true] ++ repeat false 5) (mkTd (teardown 3) [700%N; 701%N] s None) in
  star (td_step fails) (mkTd (teardown 3) [700%N; 701%N] s None) x /\ todo x = [] /\ live (base x) = [] /\
  printed x = Some [701%N; 1011%N; 700%N; 908%N].
Proof. cbv zeta. split; [apply td_go_sound|]. vm_compute. auto. Qed.

(** ** Kill switches, ports and routers *)

(** What there is in addition *)
Definition port_objs (o : nat) : list obj := [Pod o; PodArray o; PortLock o; Resumable o; Suspension o; Port o].
Definition router_objs (lanes : nat) : list obj := [Router; RouterLock; Transition; Threads; Ports] ++ flat_map port_objs (seq 0 lanes).

(** A kill switch is made with its mutex or not at all. *)
Theorem C96_kill_switch fails s ok s' : new_kill_switch fails s = (ok, s') -> err s = 0%N -> In MutexAttr (live s) ->
  ~ In Switch (live s) -> ~ In Safety (live s) ->
  wrong s' = wrong s /\ (ok = true -> live s' = [Safety; Switch] ++ live s /\ err s' = 0%N) /\ (ok = false -> live s' = live s /\ err s' <> 0%N).
Proof.
  intros H E M N1 N2. apply has_in in M. apply not_has in N1, N2. unfold new_kill_switch, mutex_init, make, use in H.
  destruct (fails (clock s)); cbn -[N.eqb] in H; [|destruct (fails (S (clock s))); cbn -[N.eqb] in H];
    rewrite ?E in H; cbn in H; apply pair_equal_spec in H as [<- <-]; cbn -[N.eqb]; rewrite ?M, ?N1, ?N2, ?E; cbn; rewrite ?orb_false_r;
    repeat split; auto; try discriminate.
Qed.
Theorem C96_free_kill_switch fails s b : live s = [Safety; Switch] ++ b -> live (free_kill_switch fails s) = b /\ wrong (free_kill_switch fails s) = wrong s.
Proof.
  intros H. unfold free_kill_switch, freed. rewrite live_destroy_or, wrong_destroy_or, H. simpl. now rewrite !orb_false_r.
Qed.

Lemma new_port_spec fails o s ok s' : new_port fails o s = (ok, s') -> has MutexAttr (live s) = true ->
  (forall x, In x (port_objs o) -> has x (live s) = false) ->
  wrong s' = wrong s /\ if ok then live s' = port_objs o ++ live s /\ err s' = err s else live s' = live s /\ err s' <> 0%N.
Proof.
  intros H M N.
  assert (N1 : has (Port o) (live s) = false) by (apply N; simpl; auto 10).
  assert (N2 : has (Suspension o) (live s) = false) by (apply N; simpl; auto 10).
  assert (N3 : has (Resumable o) (live s) = false) by (apply N; simpl; auto 10).
  assert (N4 : has (PortLock o) (live s) = false) by (apply N; simpl; auto 10).
  assert (N5 : has (PodArray o) (live s) = false) by (apply N; simpl; auto 10).
  assert (N6 : has (Pod o) (live s) = false) by (apply N; simpl; auto 10).
  unfold new_port, pod_of, mutex_init, cond_init, make, destroyed, destroy, freed, use in H.
  repeat (match type of H with context [fails ?n] => destruct (fails n); cbn -[N.eqb] in H end);
    apply pair_equal_spec in H as [<- <-]; cbn -[N.eqb]; repeat (rewrite ?Nat.eqb_refl, ?M, ?N1, ?N2, ?N3, ?N4, ?N5, ?N6, ?orb_false_r; cbn -[N.eqb]);
    (split; [reflexivity|]); (split; [reflexivity|]); try reflexivity; destruct (N.eqb_spec (err s) 0); auto; discriminate.
Qed.

(** Functions that destroy [objs] *)
Definition frees (f : st -> st) (objs : list obj) : Prop :=
  forall s b, Permutation (live s) (objs ++ b) ->
  Permutation (live (f s)) b /\ wrong (f s) = wrong s /\ (err s <> 0%N -> err (f s) <> 0%N).
Lemma frees_freed o : frees (freed o) [o].
Proof.
  intros s b P. unfold freed. cbn [live wrong err]. rewrite (@has_perm o _ _ P) by (simpl; auto). split; [now apply perm_without|].
  split; auto. apply orb_false_r.
Qed.
Lemma frees_destroy_or fails o c : c <> 0%N -> frees (destroy_or fails o c) [o].
Proof.
  intros C s b P. rewrite live_destroy_or, wrong_destroy_or, (@has_perm o _ _ P) by (simpl; auto). split; [now apply perm_without|].
  split; [apply orb_false_r|]. intros. now apply err_destroy_or.
Qed.
Lemma frees_destroyed fails o : frees (destroyed fails o) [o].
Proof.
  intros s b P. unfold destroyed, destroy. cbn [live wrong err snd]. rewrite (@has_perm o _ _ P) by (simpl; auto). split; [now apply perm_without|].
  split; auto. apply orb_false_r.
Qed.
Lemma frees_comp f g xs ys zs : frees f xs -> frees g ys -> Permutation zs (xs ++ ys) -> frees (fun s => g (f s)) zs.
Proof.
  intros F G Q s b P. rewrite Q, <- app_assoc in P. destruct (F s _ P) as [A [B C]]. destruct (G _ _ A) as [A' [B' C']].
  split; auto. split; [congruence|auto].
Qed.
Lemma frees_perm f xs ys : frees f xs -> Permutation ys xs -> frees f ys.
Proof. intros F Q s b P. rewrite Q in P. auto. Qed.

Lemma frees_port fails o : frees (free_port fails o) (port_objs o).
Proof.
  unfold free_port. 
  eapply (@frees_comp (fun s => freed (Pod o) (freed (PodArray o) (destroy_or fails (PortLock o) 1319 (destroy_or fails (Resumable o) 1318 (destroy_or fails (Suspension o) 1317 s)))))
    (freed (Port o)) [Pod o; PodArray o; PortLock o; Resumable o; Suspension o]); [|apply frees_freed|reflexivity].
  eapply (@frees_comp _ (freed (Pod o)) [PodArray o; PortLock o; Resumable o; Suspension o]); [|apply frees_freed|apply (Permutation_app_comm [Pod o])].
  eapply (@frees_comp _ (freed (PodArray o)) [PortLock o; Resumable o; Suspension o]); [|apply frees_freed|apply (Permutation_app_comm [PodArray o])].
  eapply (@frees_comp _ (destroy_or fails (PortLock o) 1319) [Resumable o; Suspension o]); [|now apply frees_destroy_or|apply (Permutation_app_comm [PortLock o])].
  eapply (@frees_comp _ (destroy_or fails (Resumable o) 1318) [Suspension o]); [|now apply frees_destroy_or|apply (Permutation_app_comm [Resumable o])].
  now apply frees_destroy_or.
Qed.

(** A port is made with everything that it consists of or not at all, and it can be freed. *)
Theorem C96_port fails o s ok s' : new_port fails o s = (ok, s') -> In MutexAttr (live s) ->
  (forall x, In x (port_objs o) -> ~ In x (live s)) ->
  wrong s' = wrong s /\ (ok = false -> live s' = live s /\ err s' <> 0%N) /\
  (ok = true -> live s' = port_objs o ++ live s /\ err s' = err s /\ 
     Permutation (live (free_port fails o s')) (live s) /\ wrong (free_port fails o s') = wrong s).
Proof.
  intros H M N. destruct (@new_port_spec fails o s ok s' H) as [W Q]; [now apply has_in|intros x Hx; apply not_has; auto|].
  split; [exact W|]. destruct ok; (split; [try discriminate; auto|]); [|discriminate]. intros _. destruct Q as [L E].
  split; [exact L|]. split; [exact E|]. destruct (@frees_port fails o s' (live s)) as [A [B _]]; [now rewrite L|]. split; [exact A|congruence].
Qed.

Lemma free_ports_spec fails k : forall o made, o <= made <= o + k -> frees (free_ports fails k o made) (flat_map port_objs (seq o (made - o))).
Proof.
  induction k as [|k IH]; intros o made Hm.
  - replace (made - o) with 0 by lia. intros s b P. simpl. auto.
  - cbn [free_ports]. destruct (o <? made) eqn:E.
    + apply Nat.ltb_lt in E. replace (made - o) with (S (made - S o)) by lia. cbn [seq flat_map].
      eapply (@frees_comp (free_port fails o)); [apply frees_port|apply (IH (S o) made); lia|reflexivity].
    + apply Nat.ltb_ge in E. intros s b P. replace (made - o) with 0 in P by lia.
      assert (Z : forall k o s, made <= o -> free_ports fails k o made s = s).
      { clear. induction k as [|k IH]; intros o s H; simpl; auto. replace (o <? made) with false by (symmetry; apply Nat.ltb_ge; lia). apply IH. lia. }
      rewrite Z by lia. auto.
Qed.

Lemma make_ports_spec fails k : forall o s made ok s', make_ports fails k o s = (made, ok, s') -> has MutexAttr (live s) = true ->
  (forall i x, o <= i -> In x (port_objs i) -> has x (live s) = false) ->
  wrong s' = wrong s /\ o <= made <= o + k /\ Permutation (live s') (flat_map port_objs (seq o (made - o)) ++ live s) /\
  if ok then made = o + k /\ err s' = err s else err s' <> 0%N.
Proof.
  induction k as [|k IH]; intros o s made ok s' H M N; cbn [make_ports] in H.
  - injection H as <- <- <-. rewrite Nat.sub_diag. simpl. split; [auto|]. split; [lia|]. split; [auto|]. split; [lia|auto].
  - destruct (new_port fails o s) as [[] s1] eqn:E; destruct (@new_port_spec _ _ _ _ _ E M) as [W Q]; try (intros x Hx; apply (N o); auto).
    + destruct Q as [L Q]. destruct (IH _ _ _ _ _ H) as [W' [R [P' Q']]].
      * rewrite L, has_app, M. apply orb_true_r.
      * intros i x Hi Hx. rewrite L, has_app, (N i x) by (auto; lia). rewrite orb_false_r. apply not_has.
        intros HI. unfold port_objs in *. simpl in Hx, HI.
        repeat (destruct Hx as [<-|Hx]; [repeat (destruct HI as [HI|HI]; [first [discriminate HI|injection HI as HI; lia]|]); easy|]). easy.
      * split; [congruence|]. split; [lia|]. split.
        -- replace (made - o) with (S (made - S o)) by lia. cbn [seq flat_map]. rewrite P', L. rewrite !app_assoc. apply Permutation_app_tail.
           apply Permutation_app_comm.
        -- destruct ok; [|exact Q']. destruct Q'. split; [lia|congruence].
    + injection H as <- <- <-. rewrite Nat.sub_diag. simpl. destruct Q as [-> Q]. split; [exact W|]. split; [lia|]. auto.
Qed.

Lemma frees_router fails lanes (t p : bool) made : made <= lanes -> (p = false -> made = 0) ->
  frees (free_router fails lanes t p made) ([Router; RouterLock; Transition] ++ (if t then [Threads] else []) ++ (if p then [Ports] else []) ++
    flat_map port_objs (seq 0 made)).
Proof.
  intros Hm Hp. unfold free_router.
  apply (@frees_comp (fun s => destroy_or fails Transition 1473 (destroy_or fails RouterLock 1472 (let s0 := if t then freed Threads s else s in
    if p then freed Ports (free_ports fails lanes 0 made s0) else s0))) (freed Router)
    ([RouterLock; Transition] ++ (if t then [Threads] else []) ++ (if p then [Ports] else []) ++ flat_map port_objs (seq 0 made)) [Router]);
    [|apply frees_freed|apply (Permutation_app_comm [Router])].
  apply (@frees_comp (fun s => destroy_or fails RouterLock 1472 (let s0 := if t then freed Threads s else s in
    if p then freed Ports (free_ports fails lanes 0 made s0) else s0)) (destroy_or fails Transition 1473)
    ([RouterLock] ++ (if t then [Threads] else []) ++ (if p then [Ports] else []) ++ flat_map port_objs (seq 0 made)) [Transition]);
    [|now apply frees_destroy_or|].
  2: { cbn [app]. rewrite perm_swap. apply (Permutation_app_comm [Transition] (RouterLock :: _)). }
  apply (@frees_comp (fun s => let s0 := if t then freed Threads s else s in
    if p then freed Ports (free_ports fails lanes 0 made s0) else s0) (destroy_or fails RouterLock 1472)
    ((if t then [Threads] else []) ++ (if p then [Ports] else []) ++ flat_map port_objs (seq 0 made)) [RouterLock]);
    [|now apply frees_destroy_or|apply (Permutation_app_comm [RouterLock])].
  apply (@frees_comp (fun s => if t then freed Threads s else s) (fun s0 => if p then freed Ports (free_ports fails lanes 0 made s0) else s0)
    (if t then [Threads] else []) ((if p then [Ports] else []) ++ flat_map port_objs (seq 0 made))); [| |reflexivity].
  - destruct t; [apply frees_freed|]. intros s b P. auto.
  - destruct p.
    + apply (@frees_comp (free_ports fails lanes 0 made) (freed Ports) (flat_map port_objs (seq 0 made)) [Ports]);
        [|apply frees_freed|apply (Permutation_app_comm [Ports])].
      pose proof (@free_ports_spec fails lanes 0 made ltac:(lia)) as F. now rewrite Nat.sub_0_r in F.
    + rewrite (Hp eq_refl). intros s b P. auto.
Qed.

(** A router is made with all of its ports and everything else that it consists of, or nothing is left and an error is reported, and
    one that has been made can be freed. *)
Theorem C96_router fails operators lanes s ok s' : router_of fails operators lanes s = (ok, s') -> In MutexAttr (live s) ->
  (forall n x, In x (router_objs n) -> ~ In x (live s)) ->
  wrong s' = wrong s /\ (ok = false -> Permutation (live s') (live s) /\ err s' <> 0%N) /\
  (ok = true -> Permutation (live s') (router_objs lanes ++ live s) /\ err s' = 0%N /\ lanes <> 0 /\
     Permutation (live (free_router fails lanes true true lanes s')) (live s) /\ wrong (free_router fails lanes true true lanes s') = wrong s).
Proof.
  intros H M N.
  assert (N1 : has Router (live s) = false) by (apply not_has, (N 0); simpl; auto 10).
  assert (N2 : has RouterLock (live s) = false) by (apply not_has, (N 0); simpl; auto 10).
  assert (N3 : has Transition (live s) = false) by (apply not_has, (N 0); simpl; auto 10).
  assert (N4 : has Threads (live s) = false) by (apply not_has, (N 0); simpl; auto 10).
  assert (N5 : has Ports (live s) = false) by (apply not_has, (N 0); simpl; auto 10).
  assert (N6 : forall i x, In x (port_objs i) -> has x (live s) = false).
  { intros i x Hx. apply not_has, (N (S i)). unfold router_objs. apply in_or_app. right. apply in_flat_map. exists i. split; [apply in_seq; lia|auto]. }
  apply has_in in M. unfold router_of in H.
  destruct (N.eqb_spec (err s) 0) as [E|E]; cbn [negb] in H; [|injection H as <- <-; split; [auto|]; split; [auto|discriminate]].
  destruct (lanes =? 0) eqn:EL.
  { injection H as <- <-. split; [auto|]. split; [|discriminate]. split; [auto|]. now apply (@err_raise 1445 s). }
  apply Nat.eqb_neq in EL. 
  assert (FAIL : forall (t p : bool) made s2, made <= lanes -> (p = false -> made = 0) -> wrong s2 = wrong s -> err s2 <> 0%N ->
    Permutation (live s2) (([Router; RouterLock; Transition] ++ (if t then [Threads] else []) ++ (if p then [Ports] else []) ++
    flat_map port_objs (seq 0 made)) ++ live s) ->
    wrong (free_router fails lanes t p made s2) = wrong s /\ (false = false -> Permutation (live (free_router fails lanes t p made s2)) (live s) /\
    err (free_router fails lanes t p made s2) <> 0%N)).
  { intros t p made s2 H1 H2 W Q P. destruct (@frees_router fails lanes t p made H1 H2 _ _ P) as [A [B C]]. split; [congruence|]. auto. }
  Opaque free_router make_ports.
  unfold mutex_init, cond_init, use, make in H. destruct (fails (clock s)); cbn -[N.eqb Nat.ltb] in H.
  { injection H as <- <-. split; [auto|]. split; [|discriminate]. split; [auto|]. cbn. rewrite E. discriminate. }
  destruct (fails (S (clock s))); cbn -[N.eqb Nat.ltb] in H.
  { injection H as <- <-. cbn. rewrite M, N1, E. cbn. rewrite ?orb_false_r. split; [auto|]. split; [|discriminate]. split; [auto|discriminate]. }
  destruct (fails (S (S (clock s)))); cbn -[N.eqb Nat.ltb] in H.
  { injection H as <- <-. cbn. rewrite M, N1, N2, E. cbn. rewrite ?orb_false_r. split; [auto|]. split; [|discriminate]. split; [auto|discriminate]. }
  destruct (fails (S (S (S (clock s))))); cbn -[N.eqb Nat.ltb] in H.
  { apply pair_equal_spec in H as [<- <-]. apply and_assoc. split; [|discriminate]. apply (FAIL false false 0); cbn; rewrite ?M, ?N1, ?N2, ?N3, ?E; cbn;
      rewrite ?orb_false_r; auto; try lia; try discriminate.
    apply (Permutation_app_tail (live s) (l := [Transition; RouterLock; Router]) (l' := [Router; RouterLock; Transition])).
    apply NoDup_Permutation; [repeat constructor; simpl; intuition discriminate|repeat constructor; simpl; intuition discriminate|]. intros x; simpl; intuition. }
  destruct (fails (S (S (S (S (clock s)))))); cbn -[N.eqb Nat.ltb] in H.
  { apply pair_equal_spec in H as [<- <-]. apply and_assoc. split; [|discriminate]. apply (FAIL true false 0); cbn; rewrite ?M, ?N1, ?N2, ?N3, ?N4, ?E; cbn;
      rewrite ?orb_false_r; auto; try lia; try discriminate.
    apply (Permutation_app_tail (live s) (l := [Threads; Transition; RouterLock; Router]) (l' := [Router; RouterLock; Transition; Threads])).
    apply NoDup_Permutation; [repeat constructor; simpl; intuition discriminate|repeat constructor; simpl; intuition discriminate|]. intros x; simpl; intuition. }
  set (s2 := mkSt (Ports :: Threads :: Transition :: RouterLock :: Router :: live s) _ _ _ _) in H.
  assert (W2 : wrong s2 = wrong s).
  { unfold s2. cbn. rewrite ?M, ?N1, ?N2, ?N3, ?N4, ?N5. cbn. now rewrite ?orb_false_r. }
  assert (P2 : Permutation (live s2) ([Router; RouterLock; Transition; Threads; Ports] ++ live s)).
  { apply (Permutation_app_tail (live s) (l := [Ports; Threads; Transition; RouterLock; Router]) (l' := [Router; RouterLock; Transition; Threads; Ports])).
    apply NoDup_Permutation; [repeat constructor; simpl; intuition discriminate|repeat constructor; simpl; intuition discriminate|]. intros x; simpl; intuition. }
  assert (M2 : has MutexAttr (live s2) = true) by exact M.
  assert (E2 : err s2 = 0%N) by exact E.
  assert (NP : forall i x, 0 <= i -> In x (port_objs i) -> has x (live s2) = false).
  { intros i x _ Hx. pose proof (N6 i x Hx) as Q. unfold s2. cbn [live has].
    unfold port_objs in Hx. simpl in Hx. repeat (destruct Hx as [<-|Hx]; [exact Q|]). easy. }
  clearbody s2. destruct (1 <? operators).
  { apply pair_equal_spec in H as [<- <-]. apply and_assoc. split; [|discriminate]. apply (FAIL true true 0); auto; try lia.
    now apply (@err_raise 1446 s2). }
  destruct (make_ports fails lanes 0 s2) as [[made b] s3] eqn:EP. destruct (@make_ports_spec _ _ _ _ _ _ _ EP M2 NP) as [W3 [R3 [P3 Q3]]].
  rewrite Nat.sub_0_r in P3.
  assert (PR : Permutation (live s3) (([Router; RouterLock; Transition] ++ [Threads] ++ [Ports] ++ flat_map port_objs (seq 0 made)) ++ live s)).
  { rewrite P3, P2. rewrite app_assoc, (Permutation_app_comm (flat_map _ _)), <- !app_assoc. reflexivity. }
  destruct b; apply pair_equal_spec in H as [<- <-].
  - destruct Q3 as [-> Q3]. split; [congruence|]. split; [discriminate|]. intros _. split; [exact PR|]. split; [congruence|]. split; [exact EL|].
    destruct (@frees_router fails lanes true true lanes ltac:(lia) ltac:(discriminate) s3 (live s) PR) as [A [B _]]. split; [exact A|congruence].
  - apply and_assoc. split; [|discriminate]. apply (FAIL true true made); auto; try lia; try discriminate. congruence.
Qed.

Transparent free_router make_ports.

(** The second of three ports can't be made for want of memory for its pod. *)
Example C96_router_ex :
  let s := mkSt (static 2) 0 0 false [] in
  let r := router_of (fun n => n =? 16) 1 3 s in
  fst r = false /\ err (snd r) = 12%N /\ live (snd r) = static 2 /\ wrong (snd r) = false /\
  let r := router_of (fun _ => false) 1 3 s in
  fst r = true /\ length (live (snd r)) = 15 + 23 /\ live (free_router (fun _ => false) 3 true true 3 (snd r)) = static 2 /\
  let r := new_kill_switch (fun n => n =? 1) s in
  fst r = false /\ err (snd r) = 12%N /\ live (snd r) = static 2 /\
  let r := new_port (fun n => n =? 5) 7 s in fst r = false /\ live (snd r) = static 2.
Proof. vm_compute. auto 20. Qed.
