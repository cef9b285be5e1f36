(** Lemmas about the traversals in Traverse.v. *)
From Coq Require Import List Arith NArith Lia Bool Permutation.
From Verif Require Import Base Machine Ports PortsProofs PortsTerm P_Ports Env Hash Graph Visitor VisitorProofs Walk Run Fold Traverse.
Import ListNotations.

Set Implicit Arguments.

(** ** Without errors and kills, the status is zero *)
Lemma quiet_success {S P K} X (key : P -> K) keq hash first again ready (d0 : S) p0 s order :
  (forall d p, snd (first d p) = None) -> (forall d p, snd (again d p) = None) ->
  (forall k, killcalls X k = false) ->
  completes (vtask X key keq hash first again ready) (vstart d0) p0 s -> vstatus X order s = None.
Proof.
  intros Hf Ha Hk Hc.
  assert (I : killed s = false /\ (forall l, lkil s l = false) /\ forall l, lerr s l = None).
  { revert Hc. unfold completes.
    apply mruns_inv with (I := fun (s : @vst S K) (_ : list P) => killed s = false /\ (forall l, lkil s l = false) /\ forall l, lerr s l = None).
    - auto.
    - intros s1 p b s2 out (A & B & C) H. unfold vtask in H.
      assert (Eh : halted X key hash s1 p = false).
      { unfold halted, is_killed. now rewrite C, B, A, Hk. }
      rewrite Eh in H. destruct (ready (data s1) p); simpl in H; [|discriminate].
      destruct (if have_seen X key keq hash s1 p then again (data s1) p else first (data s1) p) as [[d o] e] eqn:Ea.
      assert (e = None).
      { destruct (have_seen X key keq hash s1 p); [pose proof (Ha (data s1) p)|pose proof (Hf (data s1) p)];
          rewrite Ea in H0; exact H0. }
      subst e. inversion H; subst; clear H. simpl. unfold is_killed. rewrite A, Hk. repeat split; auto.
      intros l. unfold upd. destruct (l =? _); auto.
    - simpl. auto. }
  destruct I as (A & B & C). apply final_status_none. split; [unfold is_killed; now rewrite A, Hk|auto].
Qed.

Lemma along_path {V E} (g : graph V E) r n : along (es g) r n <-> path g r n.
Proof. split; induction 1; try constructor; econstructor; eauto. Qed.

Lemma along_ids {V E} (g : graph V E) n : wf g -> (along (es g) (root g) n <-> In n (ids g)).
Proof.
  intros W. rewrite along_path. split; intros H.
  - eapply path_in; eauto; [apply (wf_closed W)|apply (wf_root W)].
  - now apply wf_reach.
Qed.

(** ** Counting *)
Lemma summation_upd k d l x : l < k -> summation k (upd d l (d l + x)) = summation k d + x.
Proof.
  assert (N : forall k l, k <= l -> forall y, summation k (upd d l y) = summation k d).
  { clear. induction k; simpl; intros; auto. rewrite IHk by lia. unfold upd at 1. destruct (Nat.eqb_spec k l); lia. }
  induction k; intros H; [lia|]. simpl. destruct (Nat.eq_dec l k) as [->|Hn].
  - rewrite N by lia. rewrite upd_same. lia.
  - rewrite IHk by lia. rewrite upd_diff by lia. lia.
Qed.

Lemma count_acts {V E} X (g : graph V E) w nodes d d' :
  0 < lanes X -> acts (count_act X g w) d nodes = Some d' ->
  summation (lanes X) d' = fold_left (fun a n => a + w (es g n)) nodes (summation (lanes X) d).
Proof.
  intros Hl. revert d. induction nodes as [|n nodes IH]; simpl; intros d H.
  - now inversion H.
  - apply IH in H. rewrite H. f_equal. apply summation_upd. now apply lane_of_lt.
Qed.

Lemma fold_sum_perm {A} (w : A -> nat) l l' a :
  Permutation l l' -> fold_left (fun a n => a + w n) l a = fold_left (fun a n => a + w n) l' a.
Proof.
  intros P. revert a. induction P; simpl; intros a; auto.
  - f_equal. lia.
  - now rewrite IHP1.
Qed.

Lemma fold_sum {A} (w : A -> nat) l a : fold_left (fun a n => a + w n) l a = a + list_sum (map w l).
Proof. revert a. induction l; simpl; intros; [lia|]. rewrite IHl. lia. Qed.

Lemma summation_zero k : summation k (fun _ => 0) = 0.
Proof. induction k; simpl; lia. Qed.

Lemma counts_total {V E} X (g : graph V E) w c :
  wf g -> 0 < lanes X -> (forall k, killcalls X k = false) -> counts X g w c ->
  c = list_sum (map (fun n => w (es g n)) (ids g)).
Proof.
  intros W Hl Hk Hc. unfold counts in Hc. destruct (lanes X <=? 1).
  - subst. now rewrite fold_sum.
  - destruct Hc as (s & Hr & ->).
    apply ran_completes in Hr; [|now apply vdest_lt].
    pose proof Hr as Hr'. apply walk_success with (order := seq 0 (lanes X)) in Hr; auto.
    2:{ eapply quiet_success in Hr'; eauto. }
    destruct Hr as (nodes & A & B & C). apply count_acts in C; auto.
    rewrite C, summation_zero.
    etransitivity; [|apply (fold_sum (fun n => w (es g n)) (ids g) 0)].
    apply fold_sum_perm with (w := fun n => w (es g n)). apply NoDup_Permutation; auto; [apply (wf_nodup W)|].
    intros n. rewrite B. now apply along_ids.
Qed.

(** ** Termination *)
Lemma walk_total {S E} X succ (act : S -> nat -> S * option error) (s : vst) (p : npkt E) :
  walk X succ act s p <> None.
Proof.
  unfold walk, gwalk, vtask. destruct (halted X payload node_hash s p); [discriminate|]. simpl.
  destruct (if have_seen X payload Nat.eqb node_hash s p then _ else _) as [[d o] e]. discriminate.
Qed.

(** ** Back edges *)
Definition arrivals {E} (m : nat) (tr : list (npkt E)) : list (E * nat) :=
  flat_map (fun p => if payload p =? m then match sender p, carrier p with Some n, Some l => [(l, n)] | _, _ => [] end else []) tr.

Lemma arrivals_app {E} m (a b : list (npkt E)) : arrivals m (a ++ b) = arrivals m a ++ arrivals m b.
Proof. apply flat_map_app. Qed.

Lemma full_pruns {V E} (g : graph V E) d0 tr c :
  pruns payload Nat.eqb (full_first g) (@full_again E) (fun _ _ => true) (d0, []) tr c ->
  forall m, fst c m = if existsb (fun p => payload p =? m) tr then rev (arrivals m tr) else d0 m.
Proof.
  intros H. set (c0 := (d0, @nil (npkt E))) in *.
  assert (G : forall m, (existsb (fun p => payload p =? m) tr = existsb (fun p => payload p =? m) (snd c)) /\
     fst c m = if existsb (fun p => payload p =? m) tr then rev (arrivals m tr) else d0 m).
  { induction H as [|tr c p c' out H IH Ht]; intros m.
    - simpl. auto.
    - destruct (IH m) as [I1 I2]. destruct (IH (payload p)) as [J1 J2].
      unfold Visitor.ptask in Ht. simpl in Ht.
      destruct c as [d vis]. simpl in *.
      assert (Ew : was_seen payload Nat.eqb vis p = existsb (fun q => payload q =? payload p) vis).
      { unfold was_seen. clear. induction vis; simpl; auto. now rewrite IHvis, Nat.eqb_sym. }
      rewrite Ew in Ht. rewrite <- J1 in Ht.
      rewrite existsb_app, arrivals_app, rev_app_distr. cbn [existsb]. rewrite orb_false_r.
      unfold arrivals at 1. cbn [flat_map]. rewrite app_nil_r.
      destruct (existsb (fun q => payload q =? payload p) tr) eqn:Es.
      + cbn in Ht. inversion Ht; subst; clear Ht. cbn [fst snd]. unfold add_back.
        destruct (Nat.eqb_spec (payload p) m) as [E1|E1].
        * subst m. rewrite Es. cbn [orb]. split; [now rewrite <- J1|].
          destruct (sender p), (carrier p); cbn; rewrite ?upd_same, ?J2; auto.
        * rewrite orb_false_r. split; auto.
          destruct (sender p), (carrier p); cbn; rewrite ?upd_diff by auto; auto.
      + cbn in Ht. inversion Ht; subst; clear Ht. cbn [fst snd]. rewrite existsb_app. cbn [existsb].
        rewrite orb_false_r. unfold add_back.
        destruct (Nat.eqb_spec (payload p) m) as [E1|E1].
        * subst m. rewrite !orb_true_r. split; auto.
          assert (Ea : arrivals (payload p) tr = []).
          { clear - Es. induction tr as [|q tr IH]; auto. simpl in *. apply orb_false_iff in Es as [A B].
            rewrite A. simpl. auto. }
          rewrite Ea. destruct (sender p), (carrier p); cbn; rewrite ?upd_same; auto.
        * rewrite !orb_false_r. split; auto.
          destruct (sender p), (carrier p); cbn; rewrite ?upd_diff by auto; auto. }
  intros m. apply G.
Qed.

(** The edges of [g] leading to [m], with label and origin. *)
Definition edges_to {V E} (g : graph V E) (m : nat) : list (E * nat) :=
  flat_map (fun n => map (fun e => (fst e, n)) (filter (fun e => snd e =? m) (es g n))) (ids g).

Lemma arrivals_scatter {E} m n (l : list (E * nat)) :
  arrivals m (scatter n l) = map (fun e => (fst e, n)) (filter (fun e => snd e =? m) l).
Proof. induction l as [|[a b] l IH]; simpl; auto. destruct (b =? m); simpl; now rewrite IH. Qed.

Lemma flat_map_perm {A B} (f : A -> list B) l l' : Permutation l l' -> Permutation (flat_map f l) (flat_map f l').
Proof.
  induction 1; simpl; auto.
  - now apply Permutation_app_head.
  - rewrite !app_assoc. apply Permutation_app_tail, Permutation_app_comm.
  - etransitivity; eauto.
Qed.

Theorem full_duplex_facts {V E} X (g : graph V E) d0 s order :
  wf g -> 0 < lanes X -> Permutation order (seq 0 (lanes X)) ->
  completes (full_duplexing X g) (vstart d0) (initial (root g)) s -> vstatus X order s = None ->
  forall m, if existsb (Nat.eqb m) (ids g) then Permutation (data s m) (edges_to g m) else data s m = d0 m.
Proof.
  intros W Hl Ho Hc Hst.
  apply visit_success with (order := order) in Hc as (vis & Hs); auto.
  2:{ intros k k' H. apply Nat.eqb_eq in H. now subst. }
  2:{ intros. now apply lane_of_lt. }
  set (emit := fun p : npkt E => scatter (payload p) (es g (payload p))).
  destruct (@serial_facts _ (npkt E) nat payload Nat.eqb (full_first g) (@full_again E) (fun _ _ => true)
              emit (initial (root g)) (fun _ _ => True)) with (d0 := d0) (d := data s) (vis := vis)
    as (_ & (tr & T1 & T2) & B & C & D & F); auto.
  { intros d v p d' out _ _ _ _ _ Hf. inversion Hf; subst. auto. }
  { intros d v p d' out _ _ _ _ _ Hf. inversion Hf; subst. auto. }
  { apply Nat.eqb_refl. }
  assert (Hids : forall n, In n (map payload vis) <-> In n (ids g)).
  { intros n. rewrite <- (along_ids n W). split; intros H.
    - apply in_map_iff in H as (p & <- & Hp). apply C in Hp. clear - Hp.
      induction Hp as [|p q Hp IH Hq]; [constructor|].
      unfold emit in Hq. apply in_map_iff in Hq as ([l m] & <- & Hm). simpl. econstructor; eauto.
    - induction H as [|n l m H IH Hm].
      + destruct D as (v & Hv & E1). apply Nat.eqb_eq in E1. simpl in E1. rewrite E1. now apply in_map.
      + apply in_map_iff in IH as (p & <- & Hp).
        destruct (F p (mkNP m (Some (payload p)) (Some l)) Hp) as (v & Hv & E1).
        { unfold emit. apply in_map_iff. exists (l, m). auto. }
        apply Nat.eqb_eq in E1. simpl in E1. subst. now apply in_map. }
  assert (Hnd : NoDup (map payload vis)).
  { eapply FOP_NoDup; [|exact B]. intros x y H E1. simpl in H. rewrite E1, Nat.eqb_refl in H. discriminate. }
  assert (Hp : Permutation (map payload vis) (ids g)) by (apply NoDup_Permutation; auto; apply (wf_nodup W)).
  intros m. pose proof (full_pruns T1 m) as Hm. simpl in Hm.
  assert (Ex : existsb (fun p => payload p =? m) tr = existsb (Nat.eqb m) (ids g)).
  { destruct (existsb (Nat.eqb m) (ids g)) eqn:E1.
    - apply existsb_exists in E1 as (n & Hn & E1). apply Nat.eqb_eq in E1. subst n.
      apply existsb_exists. apply Hids in Hn. apply in_map_iff in Hn as (p & <- & Hp').
      apply C in Hp'. clear - Hp' T2 C F D.
      assert (G : exists q, In q (initial (root g) :: flat_map emit vis) /\ payload q = payload p).
      { destruct Hp' as [|q p Hq Hp].
        - exists (initial (root g)). simpl. auto.
        - assert (Hq2 : exists v, In v vis /\ payload v = payload q).
          { clear Hp p. induction Hq as [|q q' Hq IH Hq'].
            + destruct D as (v & Hv & E1). apply Nat.eqb_eq in E1. eauto.
            + destruct IH as (v & Hv & E1).
              destruct (F v (mkNP (payload q') (sender q') (carrier q')) Hv) as (w & Hw & E2).
              { unfold emit in *. rewrite E1. destruct q'; exact Hq'. }
              apply Nat.eqb_eq in E2. simpl in E2. exists w. auto. }
          destruct Hq2 as (v & Hv & E1). exists p. split; auto. right. apply in_flat_map. exists v. split; auto.
          unfold emit in *. now rewrite E1. }
      destruct G as (q & Hq & E1). exists q. split; [eapply Permutation_in; [symmetry; exact T2|exact Hq]|].
      rewrite E1. apply Nat.eqb_refl.
    - apply not_true_is_false. intros E2. apply existsb_exists in E2 as (p & Hp' & E2). apply Nat.eqb_eq in E2. subst m.
      assert (In (payload p) (ids g)).
      { apply Hids. eapply Permutation_in in Hp'; [|exact T2].
        destruct Hp' as [<-|Hp'].
        - destruct D as (v & Hv & E2). apply Nat.eqb_eq in E2. rewrite E2. now apply in_map.
        - apply in_flat_map in Hp' as (q & Hq & Hp').
          destruct (F q p Hq Hp') as (v & Hv & E2). apply Nat.eqb_eq in E2. rewrite E2. now apply in_map. }
      assert (existsb (Nat.eqb (payload p)) (ids g) = true); [|congruence].
      apply existsb_exists. exists (payload p). split; auto. apply Nat.eqb_refl. }
  rewrite Ex in Hm. destruct (existsb (Nat.eqb m) (ids g)); auto.
  rewrite Hm, <- Permutation_rev. unfold arrivals.
  rewrite (flat_map_perm _ T2). simpl. replace (if root g =? m then @nil (E * nat) else []) with (@nil (E * nat)) by (now destruct (root g =? m)). simpl.
  unfold edges_to. rewrite <- (flat_map_perm _ Hp).
  clear. induction vis as [|p vis IH]; simpl; auto.
  rewrite flat_map_app. apply Permutation_app; auto. fold (arrivals m (emit p)). unfold emit. now rewrite arrivals_scatter.
Qed.
