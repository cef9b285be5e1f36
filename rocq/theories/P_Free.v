(** Freeing: theorems. *)
From Coq Require Import List Arith NArith Lia Bool Permutation.
From Verif Require Import Base Machine Ports PortsProofs PortsTerm P_Ports Env Hash Graph Visitor Pass VisitorProofs Run Walk Fold
  Traverse TraverseProofs P_Traverse Free.
Import ListNotations.

Set Implicit Arguments.

Section Lemmas.
  Variable g : graph word word.
  Variables v_free e_free : option dtor.

  Definition dtor_error (c : free_call) : option error :=
    match c with
    | FreeV _ v => match v_free with Some d => fails d v | None => None end
    | FreeE _ _ l => match e_free with Some d => fails d l | None => None end
    end.

  (** The calls due for a node. *)
  Definition due (n : nat) (c : free_call) : Prop :=
    match c with
    | FreeV m v => m = n /\ v = vx g n /\ v <> null /\ v_free <> None
    | FreeE m i l => m = n /\ e_free <> None /\ l <> null /\ exists t, nth_error (es g n) i = Some (l, t)
    end.

  (** What a sequence of calls by a worker amounts to. *)
  Definition extends (l : nat) (cs : list free_call) (s s' : fstate) : Prop :=
    flog s' = flog s ++ cs /\ fgone s' = fgone s /\ fbad s' = fbad s /\
    (forall k, k <> l -> ferr s' k = ferr s k) /\
    (ferr s' l = None <-> ferr s l = None /\ forall c, In c cs -> dtor_error c = None) /\
    (forall e, ferr s' l = Some e -> ferr s l = Some e \/ exists c, In c cs /\ dtor_error c = Some e).

  Lemma extends_refl l s : extends l [] s s.
  Proof.
    split; [now rewrite app_nil_r|]. repeat split; auto; try tauto; try contradiction.
  Qed.

  Lemma extends_trans l cs cs' s s' s'' : extends l cs s s' -> extends l cs' s' s'' -> extends l (cs ++ cs') s s''.
  Proof.
    intros (A1 & B1 & C1 & D1 & E1 & F1) (A2 & B2 & C2 & D2 & E2 & F2). split; [rewrite A2, A1, app_assoc; auto|].
    split; [congruence|]. split; [congruence|]. split; [intros k Hk; rewrite D2, D1; auto|]. split.
    - rewrite E2, E1. split.
      + intros [[H1 H2] H3]. split; auto. intros c Hc. apply in_app_or in Hc as [Hc|Hc]; auto.
      + intros [H1 H2]. repeat split; auto; intros c Hc; apply H2, in_or_app; auto.
    - intros e He. apply F2 in He as [He|(c & Hc & He)].
      + apply F1 in He as [He|(c & Hc & He)]; auto. right. exists c. split; auto. apply in_or_app. auto.
      + right. exists c. split; auto. apply in_or_app. auto.
  Qed.

  Lemma apply_extends l d c x s :
    match d with Some d => dtor_error c = fails d x | None => True end ->
    extends l (if is_null x then [] else match d with Some _ => [c] | None => [] end) s (apply_dtor l d c x s).
  Proof.
    intros H. unfold apply_dtor. destruct (is_null x); [apply extends_refl|]. destruct d as [d|]; [|apply extends_refl].
    unfold extends; simpl. repeat split; auto.
    - intros k Hk. now rewrite upd_diff.
    - rewrite upd_same in H0. unfold first_of in H0. now destruct (ferr s l).
    - intros c' [<-|[]]. rewrite upd_same in H0. unfold first_of in H0. destruct (ferr s l); [discriminate|congruence].
    - intros [H1 H2]. rewrite upd_same. unfold first_of. rewrite H1. rewrite <- H. apply H2. auto.
    - intros e He. rewrite upd_same in He. unfold first_of in He. destruct (ferr s l); auto.
      right. exists c. split; auto. congruence.
  Qed.

  Lemma null_dec x : is_null x = true <-> x = null.
  Proof. unfold is_null, null. apply N.eqb_eq. Qed.

  Lemma labels_extends l n es0 : forall i s, exists cs,
    extends l cs s (free_labels e_free l n i es0 s) /\ NoDup cs /\
    forall c, In c cs <-> exists k x, c = FreeE n (i + k) x /\ e_free <> None /\ x <> null /\ exists t, nth_error es0 k = Some (x, t).
  Proof.
    induction es0 as [|[x t] es0 IH]; intros i s.
    - exists []. split; [apply extends_refl|]. split; [constructor|]. intros c. split; [intros []|].
      intros (k & y & _ & _ & _ & t & H). destruct k; discriminate.
    - simpl. set (s1 := apply_dtor l e_free (FreeE n i x) x s). destruct (IH (S i) s1) as (cs & A & N & B).
      assert (Hx : extends l (if is_null x then [] else match e_free with Some _ => [FreeE n i x] | None => [] end) s s1).
      { apply apply_extends. simpl. destruct e_free; auto. }
      exists ((if is_null x then [] else match e_free with Some _ => [FreeE n i x] | None => [] end) ++ cs).
      split; [eapply extends_trans; eauto|].
      assert (Hh : forall c, In c (if is_null x then [] else match e_free with Some _ => [FreeE n i x] | None => [] end) <->
                   c = FreeE n i x /\ e_free <> None /\ x <> null).
      { intros c. destruct (is_null x) eqn:Ex.
        - apply null_dec in Ex. split; [intros []|]. intros (_ & _ & H). contradiction.
        - assert (x <> null) by (intros H; apply null_dec in H; congruence).
          destruct e_free; simpl; [|split; [intros []|intros (_ & H0 & _); contradiction]].
          split; [intros [<-|[]]; repeat split; auto; discriminate|]. intros (-> & _); auto. }
      split.
      + apply nodup_app; auto.
        * destruct (is_null x); [constructor|]. destruct e_free; repeat constructor; auto.
        * intros c H1 H2. apply Hh in H1 as (-> & _). apply B in H2 as (k & y & E1 & _). inversion E1. lia.
      + intros c. rewrite in_app_iff, Hh, B. split.
        * intros [(-> & H1 & H2)|(k & y & -> & H1 & H2 & t' & H3)].
          -- exists 0, x. rewrite Nat.add_0_r. repeat split; auto. exists t. reflexivity.
          -- exists (S k), y. split; [f_equal; lia|]. repeat split; auto. exists t'. exact H3.
        * intros ([|k] & y & -> & H1 & H2 & t' & H3).
          -- left. inversion H3; subst. rewrite Nat.add_0_r. auto.
          -- right. exists k, y. split; [f_equal; lia|]. repeat split; auto. exists t'. exact H3.
  Qed.

  Lemma node_extends l s n : ~ In n (fgone s) -> exists cs s1,
    extends l cs s s1 /\ free_node g v_free e_free l s n = mkF (flog s1) (fgone s1 ++ [n]) (ferr s1) (fbad s1) /\
    NoDup cs /\ forall c, In c cs <-> due n c.
  Proof.
    intros Hn. unfold free_node.
    assert (Eb : existsb (Nat.eqb n) (fgone s) = false).
    { destruct (existsb (Nat.eqb n) (fgone s)) eqn:E; auto. apply existsb_exists in E as (m & Hm & E). apply Nat.eqb_eq in E. now subst. }
    rewrite Eb, orb_false_r.
    replace {| flog := flog s; fgone := fgone s; ferr := ferr s; fbad := fbad s |} with s by (destruct s; reflexivity).
    destruct (labels_extends l n (es g n) 0 s) as (cs & A & N & B).
    set (s2 := free_labels e_free l n 0 (es g n) s) in *.
    assert (Hx := apply_extends l v_free (FreeV n (vx g n)) (vx g n) s2).
    specialize (Hx ltac:(simpl; destruct v_free; auto)).
    set (cv := if is_null (vx g n) then [] else match v_free with Some _ => [FreeV n (vx g n)] | None => [] end) in *.
    exists (cs ++ cv), (apply_dtor l v_free (FreeV n (vx g n)) (vx g n) s2).
    split; [eapply extends_trans; eauto|]. split; [reflexivity|].
    assert (Hv : forall c, In c cv <-> c = FreeV n (vx g n) /\ vx g n <> null /\ v_free <> None).
    { intros c. unfold cv. destruct (is_null (vx g n)) eqn:Ex.
      - apply null_dec in Ex. split; [intros []|]. intros (_ & H & _). contradiction.
      - assert (vx g n <> null) by (intros H; apply null_dec in H; congruence).
        destruct v_free; simpl; [|split; [intros []|intros (_ & _ & H0); contradiction]].
        split; [intros [<-|[]]; repeat split; auto; discriminate|]. intros (-> & _); auto. }
    split.
    - apply nodup_app; auto.
      + unfold cv. destruct (is_null (vx g n)); [constructor|]. destruct v_free; repeat constructor; auto.
      + intros c H1 H2. apply Hv in H2 as (-> & _). apply B in H1 as (k & y & E1 & _). discriminate.
    - intros c. rewrite in_app_iff, Hv, B. destruct c as [m v|m i x]; simpl.
      + split.
        * intros [(k & y & E1 & _)|(E1 & H1 & H2)]; [discriminate|]. inversion E1; subst. auto.
        * intros (-> & -> & H1 & H2). auto.
      + split.
        * intros [(k & y & E1 & H1 & H2 & H3)|(E1 & _)]; [|discriminate]. inversion E1; subst. auto.
        * intros (-> & H1 & H2 & H3). left. exists i, x. auto.
  Qed.

  (** Any sequence of nodes freed by whatever workers. *)
  Definition freed_all (lane : nat -> nat) (ns : list nat) : fstate :=
    fold_left (fun s n => free_node g v_free e_free (lane n) s n) ns fstart.

  Lemma freed_all_facts lane ns : NoDup ns ->
    let s := freed_all lane ns in
    fgone s = ns /\ fbad s = false /\ NoDup (flog s) /\
    (forall c, In c (flog s) <-> exists n, In n ns /\ due n c) /\
    (forall l e, ferr s l = Some e -> exists c, In c (flog s) /\ dtor_error c = Some e) /\
    (forall bound, (forall n, lane n < bound) -> (forall l, l < bound -> ferr s l = None) ->
       forall c, In c (flog s) -> dtor_error c = None).
  Proof.
    unfold freed_all. induction ns as [|n ns IH] using rev_ind; intros N.
    - simpl. repeat split; auto; try constructor; try contradiction.
      + intros (n & [] & _).
      + intros l e H. discriminate.
    - cbv zeta in *. rewrite fold_left_app. cbn [fold_left].
      assert (N1 : NoDup ns /\ ~ In n ns).
      { apply NoDup_remove in N. now rewrite app_nil_r in N. }
      destruct N1 as [N1 N2]. destruct (IH N1) as (A & B & C & D & F & G). set (s := fold_left (fun s n => free_node g v_free e_free (lane n) s n) ns fstart) in *.
      destruct (node_extends (lane n) s n) as (cs & s1 & (X1 & X2 & X3 & X4 & X5 & X6) & -> & N3 & Hc); [congruence|].
      simpl. rewrite X1, X2, X3, A, B. split; [reflexivity|]. split; [reflexivity|].
      assert (Dist : forall c m k, due m c -> due k c -> m = k).
      { intros [?|?] m k; simpl; intros (<- & _) (<- & _); reflexivity. }
      split; [|split; [|split]].
      + apply nodup_app; auto. intros c H1 H2. apply D in H1 as (m & Hm & H1). apply Hc in H2.
        rewrite (Dist _ _ _ H1 H2) in Hm. contradiction.
      + intros c. rewrite in_app_iff, D, Hc. split.
        * intros [(m & Hm & H)|H]; [exists m|exists n]; split; auto; apply in_or_app; simpl; auto.
        * intros (m & Hm & H). apply in_app_or in Hm as [Hm|[<-|[]]]; eauto.
      + intros l e He. destruct (Nat.eq_dec l (lane n)) as [->|Hl].
        * apply X6 in He as [He|(c & Hin & He)].
          -- apply F in He as (c & Hin & He). exists c. split; auto. apply in_or_app; auto.
          -- exists c. split; auto. apply in_or_app; auto.
        * rewrite X4 in He by auto. apply F in He as (c & Hin & He). exists c. split; auto. apply in_or_app; auto.
      + intros b Hb Hn c Hin.
        pose proof (Hn _ (Hb n)) as H0. apply X5 in H0 as [H0 H1].
        apply in_app_or in Hin as [Hin|Hin]; [|auto]. apply G with (bound := b); auto.
        intros l Hl. destruct (Nat.eq_dec l (lane n)) as [->|Hne]; auto. rewrite <- X4; auto.
  Qed.
End Lemmas.

Lemma along_filtered {E} (succ : nat -> list (E * nat)) r n :
  along (fun n => filter (fun e => negb (snd e =? n)) (succ n)) r n <-> along succ r n.
Proof.
  split; intros H.
  - induction H as [|n l m H IH Hm]; [constructor|]. apply filter_In in Hm as [Hm _]. econstructor; eauto.
  - induction H as [|n l m H IH Hm]; [constructor|]. destruct (Nat.eq_dec m n) as [->|Hne]; auto.
    econstructor; eauto. apply filter_In. split; eauto. simpl. apply Nat.eqb_neq in Hne. now rewrite Hne.
Qed.

Lemma frees_all X g v_free e_free order s e :
  wf g -> 0 < lanes X -> Permutation order (seq 0 (lanes X)) -> frees X g v_free e_free order s e ->
  exists lane ns bound, Permutation ns (ids g) /\ s = freed_all g v_free e_free lane ns /\ (forall n, lane n < bound) /\
    (e = None <-> forall l, l < bound -> ferr s l = None) /\
    (forall x, e = Some x -> exists l, ferr s l = Some x).
Proof.
  intros W Hl Ho H. unfold frees in H. destruct (lanes X <=? 1) eqn:El.
  - destruct H as [-> ->]. exists (fun _ => 0), (ids g), 1. split; auto. split; [reflexivity|]. split; auto. split.
    + split; intros H; [intros l Hl0; replace l with 0 by lia; auto|apply H; lia].
    + eauto.
  - destruct H as (t & Hr & -> & ->).
    apply ran_completes in Hr; [|now apply vdest_lt].
    pose proof Hr as Hr'. apply walk_success with (order := seq 0 (lanes X)) in Hr; auto.
    2:{ eapply quiet_success in Hr'; eauto. }
    destruct Hr as (nodes & A & B & C). exists (lane_of_node X), nodes, (lanes X).
    split; [|split; [|split; [|split]]].
    + apply NoDup_Permutation; auto; [apply (wf_nodup W)|]. intros n. rewrite B. unfold unscatterable.
      rewrite along_filtered. now apply along_ids.
    + clear - C. unfold freed_all. revert C. generalize fstart. induction nodes as [|n ns IH]; simpl; intros d C; [congruence|]. auto.
    + intros n. now apply lane_of_lt.
    + rewrite first_error_none. split; intros H l Hin; apply H.
      * eapply Permutation_in; [symmetry; exact Ho|]. apply in_seq. lia.
      * eapply Permutation_in in Hin; [|exact Ho]. apply in_seq in Hin. lia.
    + intros x. clear. induction order as [|l o IH]; simpl; [discriminate|].
      destruct (ferr (data t) l) eqn:E; auto. intros H. inversion H; subst. eauto.
Qed.

(** The destructors are called exactly once for every vertex and label that is not null, with
    this as the operand, and not otherwise; and all nodes are freed exactly once. *)
Theorem C42_everything_is_destroyed_once X g v_free e_free order s e :
  wf g -> 0 < lanes X -> Permutation order (seq 0 (lanes X)) -> frees X g v_free e_free order s e ->
  NoDup (flog s) /\ Permutation (fgone s) (ids g) /\
  (forall n v, In (FreeV n v) (flog s) <-> In n (ids g) /\ v = vx g n /\ v <> null /\ v_free <> None) /\
  (forall n i l, In (FreeE n i l) (flog s) <->
     In n (ids g) /\ e_free <> None /\ l <> null /\ exists m, nth_error (es g n) i = Some (l, m)).
Proof.
  intros W Hl Ho H. destruct (@frees_all _ _ _ _ _ _ _ W Hl Ho H) as (lane & ns & b & P & -> & _).
  assert (N : NoDup ns) by (eapply Permutation_NoDup; [symmetry; exact P|apply (wf_nodup W)]).
  destruct (freed_all_facts g v_free e_free lane N) as (A & _ & C & D & _).
  split; auto. split; [now rewrite A|].
  assert (Hin : forall n, In n ns <-> In n (ids g)).
  { intros n. split; intros Hn; [eapply Permutation_in; [exact P|auto]|eapply Permutation_in; [symmetry; exact P|auto]]. }
  split; intros; rewrite D; split.
  - intros (m & Hm & -> & Hd). split; [now apply Hin|auto].
  - intros (Hn & Hd). exists n. split; [now apply Hin|]. simpl. auto.
  - intros (m & Hm & -> & Hd). split; [now apply Hin|auto].
  - intros (Hn & Hd). exists n. split; [now apply Hin|]. simpl. auto.
Qed.

(** The error reported is one of those raised by a destructor, and none is only reported if none was
    raised. *)
Theorem C42_errors_of_destructors X g v_free e_free order s e :
  wf g -> 0 < lanes X -> Permutation order (seq 0 (lanes X)) -> frees X g v_free e_free order s e ->
  (e = None -> forall c, In c (flog s) -> dtor_error v_free e_free c = None) /\
  (forall x, e = Some x -> exists c, In c (flog s) /\ dtor_error v_free e_free c = Some x).
Proof.
  intros W Hl Ho H. destruct (@frees_all _ _ _ _ _ _ _ W Hl Ho H) as (lane & ns & b & P & -> & Hb & He & Hx).
  assert (N : NoDup ns) by (eapply Permutation_NoDup; [symmetry; exact P|apply (wf_nodup W)]).
  destruct (freed_all_facts g v_free e_free lane N) as (_ & _ & _ & _ & F & G).
  split.
  - intros E. apply G with (bound := b); auto. now apply He.
  - intros x E. apply Hx in E as (l & E). eauto.
Qed.

(** At any moment of a concurrent execution, nodes have been freed at most once and none was
    accessed after that. *)
Theorem C42_no_use_after_free X g v_free e_free y :
  0 < lanes X ->
  reachable (lanes X) (walk_dest X) (freeing X g v_free e_free) (initial (root g)) (vstart fstart) y ->
  NoDup (fgone (data (sh y))) /\ NoDup (flog (data (sh y))) /\ fbad (data (sh y)) = false.
Proof.
  intros Hl Hy. apply (@C15_never_twice_and_nothing_else fstate word (unkillable X)) in Hy; auto.
  destruct Hy as (nodes & N & _ & ->).
  destruct (freed_all_facts g v_free e_free (lane_of_node X) N) as (A & B & C & _).
  unfold performed. unfold freed_all in *. rewrite <- A in N. auto.
Qed.

Theorem C42_freeing_terminates X g v_free e_free y :
  wf g -> 0 < lanes X ->
  reachable (lanes X) (walk_dest X) (freeing X g v_free e_free) (initial (root g)) (vstart fstart) y ->
  Acc (fun y' x => step (lanes X) (walk_dest X) (freeing X g v_free e_free) (initial (root g)) x y') y.
Proof.
  intros W Hl Hy.
  apply (@C15_traversal_terminates fstate word (unkillable X) (unscatterable g) (free_act X g v_free e_free) fstart (root g) (ids g)); auto.
  - apply (wf_root W).
  - intros n l m Hn Hm. apply filter_In in Hm as [Hm _]. eapply (wf_closed W); eauto.
Qed.

(** An example with a null vertex, a null label, a loop, and a destructor that fails on one vertex. *)
Definition G5w : graph word word :=
  mkGraph [10; 20; 30; 40; 50] (fun n => if n =? 50 then null else N.of_nat n)
    (fun n => map (fun e => (N.of_nat (fst e), snd e))
       match n with
       | 10 => [(1, 20); (2, 30); (3, 20)]
       | 20 => [(4, 40)]
       | 30 => [(5, 10); (0, 40); (7, 30)]
       | 40 => [(8, 50)]
       | _ => []
       end) 10.
Lemma G5w_wf : wf G5w.
Proof.
  assert (P20 : path G5w 10 20) by (eapply path_step; [constructor|simpl; eauto]).
  assert (P30 : path G5w 10 30) by (eapply path_step; [constructor|simpl; eauto]).
  assert (P40 : path G5w 10 40) by (eapply path_step; [exact P20|simpl; eauto]).
  assert (P50 : path G5w 10 50) by (eapply path_step; [exact P40|simpl; eauto]).
  split.
  - repeat constructor; simpl; intuition discriminate.
  - simpl. auto.
  - intros n l m Hn Hm. simpl in Hn.
    repeat (destruct Hn as [<-|Hn];
            [simpl in Hm; repeat (destruct Hm as [Hm|Hm]; [inversion Hm; subst; simpl; auto 8|]); contradiction|]). contradiction.
  - intros n Hn. simpl in Hn. repeat (destruct Hn as [<-|Hn]; [first [assumption|constructor]|]). contradiction.
Qed.
Definition vd : dtor := mkD 1 (fun v => if N.eqb v 40 then Some (USERERR 77) else None).
Definition ed : dtor := mkD 2 (fun _ => None).

Lemma frees_ran X g v_free e_free order k :
  let r := sched_run (lanes X) (walk_dest X) (freeing X g v_free e_free) (vstart fstart) (initial (root g)) k in
  (lanes X <=? 1) = false -> mainpc r = MDone ->
  frees X g v_free e_free order (data (sh r)) (first_error (ferr (data (sh r))) order).
Proof. intros r H1 H2. unfold frees. rewrite H1. exists (sh r). split; [now apply sched_ran|auto]. Qed.

Local Notation run_free := (sched_run (lanes X3) (walk_dest X3) (freeing X3 G5w (Some vd) (Some ed)) (vstart fstart) (initial (root G5w)) 150).
Example C42_everything_is_destroyed_once_ex :
  wf G5w /\ 0 < lanes X3 /\ Permutation [2; 0; 1] (seq 0 (lanes X3)) /\
  frees X3 G5w (Some vd) (Some ed) [2; 0; 1] (data (sh run_free)) (Some (USERERR 77)) /\
  length (flog (data (sh run_free))) = 11.
Proof.
  split; [exact G5w_wf|]. split; [simpl; lia|]. split; [simpl; perm_solve|]. split; [|vm_compute; reflexivity].
  replace (Some (USERERR 77)) with (first_error (ferr (data (sh run_free))) [2; 0; 1]) by (vm_compute; reflexivity).
  apply frees_ran; vm_compute; reflexivity.
Qed.
