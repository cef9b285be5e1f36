(** Induction: claim C19. *)
From Coq Require Import List Arith NArith Lia Bool Permutation.
From Verif Require Import Base Machine Ports PortsTerm P_Ports Env Hash Graph Visitor VisitorProofs Run Pass Walk Fold P_Fold Fabricate
  Traverse TraverseProofs P_Traverse Partition P_Partition P_Filter P_Killed Induce.
Import ListNotations.

Set Implicit Arguments.

Lemma mem_in n l : mem n l = true <-> In n l.
Proof.
  unfold mem. rewrite existsb_exists. split.
  - intros (k & H & E). apply Nat.eqb_eq in E. now subst.
  - intros H. exists n. split; auto. apply Nat.eqb_refl.
Qed.
Lemma mem_out n l : mem n l = false <-> ~ In n l.
Proof. rewrite <- mem_in. destruct (mem n l); split; congruence. Qed.

(** ** What induction is meant to compute *)
Section Spec.
  Variable g : graph word word.
  Variable pre : nat -> list (word * nat).
  Variable boundary : option (word -> outcome).
  Variable m : fold.

  (** The value at a node is computed from values at its prerequisites, without error. *)
  Inductive valued : nat -> word -> Prop :=
  | valued_from n a w :
      (forall l k, In (l, k) (pre n) -> valued k (a k)) -> value_at g pre boundary m a n = (w, None) -> valued n w.

  Lemma value_at_ext a a' n :
    (forall l k, In (l, k) (pre n) -> a k = a' k) -> value_at g pre boundary m a n = value_at g pre boundary m a' n.
  Proof.
    intros H. unfold value_at.
    assert (E : map (fun e => (fst e, a (snd e))) (pre n) = map (fun e => (fst e, a' (snd e))) (pre n)).
    { apply map_ext_in. intros [l k] Hk. simpl. now rewrite (H l k Hk). }
    destruct (pre n) as [|e l]; auto. now rewrite E.
  Qed.

  Lemma valued_unique n w : valued n w -> forall w', valued n w' -> w = w'.
  Proof.
    intros H. induction H as [n a w Ha IH Hv]. intros w' H'. inversion H' as [n' a' w'' Ha' Hv']; subst.
    rewrite (@value_at_ext a a' n) in Hv; [congruence|]. intros l k Hk. apply (IH l k Hk). eauto.
  Qed.
End Spec.

(** ** The inducing pass *)
Section Inducing.
  Variable X Y : env.
  Variable g : graph word word.
  Variable pre : nat -> list (word * nat).
  Variable boundary : option (word -> outcome).
  Variable m : fold.
  Variable b : nat.
  Variable reached : list nat.
  Hypothesis lanes_pos : 0 < lanes X.
  Hypothesis all_reached : forall n, along pre b n -> skipped X reached n = false.

  Notation task := (inducing X g pre boundary m b Y reached).
  Notation lane := (nlane X).

  Lemma lane_lt n : lane n < lanes X.
  Proof. unfold nlane. now apply lane_of_lt. Qed.

  Lemma along_pre n l k : along pre b n -> In (l, k) (pre n) -> along pre b k.
  Proof. intros H Hk. econstructor; eauto. Qed.

  Lemma no_obstacle s n :
    along pre b n -> obstacle X pre reached s n = None ->
    forall l k, In (l, k) (pre n) -> In k (vis s) /\ dis s (lane k) = false.
  Proof.
    intros Hn Ho l k Hk. unfold obstacle in Ho.
    assert (A := find_none _ _ Ho k). specialize (A (in_map snd _ _ Hk)). simpl in A.
    rewrite (all_reached (@along_pre n l k Hn Hk)) in A. simpl in A. apply orb_false_iff in A as [A B].
    apply negb_false_iff in B. apply mem_in in B. auto.
  Qed.

  Lemma an_obstacle s n o :
    along pre b n -> obstacle X pre reached s n = Some o ->
    (exists l, In (l, o) (pre n)) /\ (dis s (lane o) = true \/ ~ In o (vis s)).
  Proof.
    intros Hn Ho. unfold obstacle in Ho. apply find_some in Ho as [A B].
    apply in_map_iff in A as ([l k] & E & Hk). simpl in E. subst k. split; [eauto|].
    apply andb_true_iff in B as [_ B]. apply orb_true_iff in B as [B|B]; auto.
    apply negb_true_iff in B. right. now apply mem_out.
  Qed.

  (** Whatever happens *)
  Record any_inv (s : ist) (bag : list nat) : Prop := {
    ai_bag : forall n, In n bag -> along pre b n;
    ai_seen : forall n, In n (iseen s) -> along pre b n;
    ai_vis : forall n, In n (vis s) -> In n (iseen s);
    ai_nodup : NoDup (vis s);
    ai_acc : forall n, acc s n <> null -> In n (vis s);
    ai_pre : forall n l k, In n (iseen s) -> In (l, k) (pre n) -> dis s (lane n) = false -> In k (iseen s) \/ In k bag \/ dis s (lane k) = true;
    ai_todo : forall n, In n (iseen s) -> ~ In n (vis s) -> (n = b -> res s = None) -> dis s (lane n) = false -> In n bag;
    ai_init : In b (iseen s) \/ In b bag \/ dis s (lane b) = true;
    ai_val : forall n, In n (vis s) -> n <> b /\ valued g pre boundary m n (acc s n);
    ai_res : forall w, res s = Some w -> valued g pre boundary m b w
  }.

  Lemma any_perm s bag bag' : Permutation bag bag' -> any_inv s bag -> any_inv s bag'.
  Proof.
    intros P [A B C D E F G H I J].
    assert (Q : forall n, In n bag <-> In n bag') by (intros n; split; apply Permutation_in; [auto|now symmetry]).
    split; auto.
    - intros n Hn. apply A, Q, Hn.
    - intros n l k H1 H2 H3. rewrite <- Q. eauto.
    - intros n H1 H2 H3 H4. apply Q. auto.
    - rewrite <- Q. auto.
  Qed.

  Ltac cases_in H := apply in_app_or in H as [H|H].

  Lemma any_step s n bag s' out : any_inv s (n :: bag) -> task s n = Some (s', out) -> any_inv s' (out ++ bag).
  Proof.
    intros [A B C D E F G H I J] T. unfold inducing in T.
    set (k := ikilled s || killcalls Y (itick s)) in *. clearbody k.
    destruct (dis s (lane n)) eqn:Ed.
    { inversion T; subst; clear T. simpl. split; simpl; auto.
      - intros q Hq. apply A. now right.
      - intros q l p H1 H2 H3. destruct (F q l p H1 H2 H3) as [U|[[<-|U]|U]]; auto.
      - intros q H1 H2 H3 H4. destruct (G q H1 H2 H3 H4) as [<-|U]; auto. congruence.
      - destruct H as [U|[[<-|U]|U]]; auto. }
    destruct (k && notices Y (itick s)).
    { inversion T; subst; clear T. simpl. split; simpl; auto.
      - intros q Hq. apply A. now right.
      - intros q l p H1 H2 H3. unfold upd in *. destruct (Nat.eqb_spec (lane q) (lane n)); [discriminate|].
        destruct (Nat.eqb_spec (lane p) (lane n)) as [Ep|Ep]; auto.
        destruct (F q l p H1 H2 H3) as [U|[[U|U]|U]]; auto. subst. contradiction.
      - intros q H1 H2 H3 H4. unfold upd in *. destruct (Nat.eqb_spec (lane q) (lane n)); [discriminate|].
        destruct (G q H1 H2 H3 H4) as [<-|U]; auto. contradiction.
      - unfold upd. destruct (Nat.eqb_spec (lane b) (lane n)) as [Ep|Ep]; auto.
        destruct H as [U|[[U|U]|U]]; auto. subst; contradiction. }
    destruct (mem n (vis s)) eqn:Ev.
    { apply mem_in in Ev. inversion T; subst; clear T. simpl. split; simpl; auto.
      - intros q Hq. apply A. now right.
      - intros q l p H1 H2 H3. destruct (F q l p H1 H2 H3) as [U|[[<-|U]|U]]; auto.
      - intros q H1 H2 H3 H4. destruct (G q H1 H2 H3 H4) as [<-|U]; auto. contradiction.
      - destruct H as [U|[[<-|U]|U]]; auto. }
    apply mem_out in Ev.
    assert (An : along pre b n) by (apply A; now left).
    (* the state after the node is marked as seen *)
    set (s1 := if negb (mem n (iseen s)) then see s n else s) in *.
    set (o1 := if negb (mem n (iseen s)) then map snd (pre n) else []) in *.
    assert (M : vis s1 = vis s /\ acc s1 = acc s /\ dis s1 = dis s /\ res s1 = res s /\ In n (iseen s1) /\
                (forall q, In q (iseen s1) <-> q = n \/ In q (iseen s)) /\
                (forall q, In q o1 -> along pre b q) /\
                (forall l p, In (l, p) (pre n) -> In p (iseen s) \/ In p o1 \/ In p (n :: bag) \/ dis s (lane p) = true)).
    { unfold s1, o1. destruct (mem n (iseen s)) eqn:Es; simpl.
      - apply mem_in in Es. do 5 (split; [auto|]). split; [|split].
        + intros q. split; [auto|]. intros [->|U]; auto.
        + intros q [].
        + intros l p Hp. destruct (F n l p Es Hp Ed) as [U|[U|U]]; auto.
      - do 4 (split; [auto|]). split; [now left|]. split; [|split].
        + intros q. split; intros [->|U]; auto.
        + intros q Hq. apply in_map_iff in Hq as ([l p] & <- & Hp). eapply along_pre; eauto.
        + intros l p Hp. right. left. apply in_map_iff. exists (l, p). auto. }
    clearbody s1 o1. destruct M as (M1 & M2 & M3 & M4 & M5 & M6 & M7 & M8).
    (* what holds of every state which has the same lists *)
    assert (Q : forall s2 bag2,
              vis s2 = vis s -> acc s2 = acc s -> res s2 = res s -> iseen s2 = iseen s1 ->
              (forall l, dis s l = true -> dis s2 l = true) ->
              (forall q, In q bag2 <-> In q o1 \/ In q bag \/ q = n /\ In n bag2) ->
              (In n bag2 \/ dis s2 (lane n) = true) ->
              any_inv s2 bag2).
    { intros s2 bag2 V1 V2 V3 V4 V5 V6 V7. split; rewrite ?V1, ?V2, ?V3, ?V4; auto.
      - intros q Hq. apply V6 in Hq as [Hq|[Hq|[-> _]]]; auto. apply A. now right.
      - intros q Hq. apply M6 in Hq as [->|Hq]; auto.
      - intros q Hq. apply M6. right. auto.
      - intros q l p Hq Hp Hd. apply M6 in Hq.
        assert (U : In p (iseen s) \/ In p o1 \/ In p (n :: bag) \/ dis s (lane p) = true).
        { destruct Hq as [->|Hq]; [eapply M8; eauto|].
          assert (Hd' : dis s (lane q) = false). { destruct (dis s (lane q)) eqn:U; auto. apply V5 in U. congruence. }
          destruct (F q l p Hq Hp Hd') as [U|[U|U]]; auto. }
        destruct U as [U|[U|[U|U]]].
        + left. apply M6. auto.
        + right. left. apply V6. auto.
        + destruct U as [U|U].
          * subst p. left. auto.
          * right. left. apply V6. auto.
        + right. right. auto.
      - intros q Hq Hv Hb Hd. apply M6 in Hq. destruct Hq as [->|Hq]; [destruct V7; auto; congruence|].
        assert (Hd' : dis s (lane q) = false). { destruct (dis s (lane q)) eqn:U; auto. apply V5 in U. congruence. }
        destruct (G q Hq Hv Hb Hd') as [<-|U]; [destruct V7; auto; congruence|]. apply V6. auto.
      - destruct H as [U|[[<-|U]|U]].
        + left. apply M6. auto.
        + left. auto.
        + right. left. apply V6. auto.
        + right. right. auto. }
    destruct (obstacle X pre reached s n) as [o|] eqn:Eo.
    - destruct (dis s (lane o)) eqn:Edo.
      + inversion T; subst; clear T. apply Q; auto; simpl.
        * intros l Hl. unfold upd. rewrite M3. destruct (l =? lane n); auto.
        * intros q. rewrite in_app_iff. split; [tauto|]. intros [U|[U|[-> U]]]; auto. apply in_app_or in U. tauto.
        * right. apply upd_same.
      + destruct (negb (mem n (iseen s))); [|discriminate]. inversion T; subst; clear T. apply Q; auto; simpl.
        * intros l Hl. congruence.
        * intros q. rewrite !in_app_iff. simpl. split.
          -- intros [[U|[<-|[]]]|U]; auto. right. right. split; [auto|]. left. right. now left.
          -- intros [U|[U|[-> _]]]; auto.
        * left. rewrite !in_app_iff. simpl. auto.
    - injection T as <- <-. assert (NO := @no_obstacle s n An Eo).
      unfold visit. destruct ((nlane X n =? nlane X b) && negb (is_none (res s1))) eqn:Eb.
      { apply Q; auto; simpl.
        * intros l Hl. unfold upd. rewrite M3. destruct (l =? lane n); auto.
        * intros q. rewrite in_app_iff. split; [tauto|]. intros [U|[U|[-> U]]]; auto. apply in_app_or in U. tauto.
        * right. apply upd_same. }
      assert (VA : forall w, value_at g pre boundary m (acc s1) n = (w, None) -> valued g pre boundary m n w).
      { intros w Hw. apply valued_from with (a := acc s); [|now rewrite <- M2]. intros l p Hp. apply I. now apply (NO l p). }
      destruct (value_at g pre boundary m (acc s1) n) as [w [e|]] eqn:Ew.
      { apply Q; auto; simpl.
        * intros l Hl. unfold upd. rewrite M3. destruct (l =? lane n); auto.
        * intros q. rewrite in_app_iff. split; [tauto|]. intros [U|[U|[-> U]]]; auto. apply in_app_or in U. tauto.
        * right. apply upd_same. }
      specialize (VA w eq_refl).
      destruct (Nat.eqb_spec n b) as [->|Hn]; simpl.
      + split; simpl; rewrite ?M1, ?M2, ?M3; auto.
        * intros q Hq. apply in_app_or in Hq as [Hq|Hq]; auto. apply A. now right.
        * intros q Hq. apply M6 in Hq as [->|Hq]; auto.
        * intros q Hq. apply M6. auto.
        * intros q l p Hq Hp Hd. apply M6 in Hq. rewrite in_app_iff.
          assert (U : In p (iseen s) \/ In p o1 \/ In p (b :: bag) \/ dis s (lane p) = true).
          { destruct Hq as [->|Hq]; [eapply M8; eauto|]. destruct (F q l p Hq Hp Hd) as [U|[U|U]]; auto. }
          rewrite M6. simpl in U. intuition.
        * intros q Hq Hv Hb Hd. apply M6 in Hq. rewrite in_app_iff. destruct Hq as [->|Hq].
          -- specialize (Hb eq_refl). discriminate.
          -- destruct (Nat.eq_dec q b) as [->|Nq]; [specialize (Hb eq_refl); discriminate|].
             destruct (G q Hq Hv ltac:(contradiction) Hd) as [<-|U]; auto. contradiction.
        * intros w' Hw'. inversion Hw'; subst. auto.
      + assert (FA : forall q, q <> n -> upd (acc s1) n w q = acc s q) by (intros q Hq; rewrite M2; now apply upd_diff).
        split; simpl; rewrite ?M1, ?M3, ?M4; auto.
        * intros q Hq. apply in_app_or in Hq as [Hq|Hq]; auto. apply A. now right.
        * intros q Hq. apply M6 in Hq as [->|Hq]; auto.
        * intros q [<-|Hq]; auto. apply M6. auto.
        * constructor; auto.
        * intros q Hq. destruct (Nat.eq_dec q n) as [->|Nq]; auto. rewrite FA in Hq; auto.
        * intros q l p Hq Hp Hd. apply M6 in Hq. rewrite in_app_iff.
          assert (U : In p (iseen s) \/ In p o1 \/ In p (n :: bag) \/ dis s (lane p) = true).
          { destruct Hq as [->|Hq]; [eapply M8; eauto|]. destruct (F q l p Hq Hp Hd) as [U|[U|U]]; auto. }
          rewrite M6. simpl in U. intuition.
        * intros q Hq Hv Hb Hd. apply M6 in Hq. rewrite in_app_iff. destruct Hq as [->|Hq].
          -- destruct Hv. now left.
          -- destruct (G q Hq (fun U => Hv (or_intror U)) Hb Hd) as [<-|U]; auto. destruct Hv. now left.
        * rewrite in_app_iff, M6. destruct H as [U|[[U|U]|U]]; auto.
        * intros q Hq. destruct (Nat.eq_dec q n) as [->|Nq].
          -- rewrite upd_same. auto.
          -- rewrite FA; auto. destruct Hq as [->|Hq]; [contradiction|]. auto.
  Qed.

  Lemma any_start : any_inv istart [b].
  Proof.
    split; simpl; try tauto.
    - intros n [<-|[]]. constructor.
    - constructor.
    - discriminate.
  Qed.

  Lemma any_runs s bag : mruns task (istart, [b]) (s, bag) -> any_inv s bag.
  Proof.
    intros H. refine (mruns_inv any_inv _ _ any_start H).
    - exact any_perm.
    - exact any_step.
  Qed.
End Inducing.

Section Healthy.
  Variable X Y : env.
  Variable g : graph word word.
  Variable pre : nat -> list (word * nat).
  Variable boundary : option (word -> outcome).
  Variable m : fold.
  Variable b : nat.
  Variable reached : list nat.
  Hypothesis lanes_pos : 0 < lanes X.
  Hypothesis unkilled : forall k, killcalls Y k = false.

  Notation task := (inducing X g pre boundary m b Y reached).
  Notation lane := (nlane X).

  (** Without kills, a worker is disabled only if there is an error. *)
  Definition healthy (s : ist) (_ : list nat) : Prop :=
    ikilled s = false /\ (forall l, ierr s l <> None -> l < lanes X) /\
    (forall l, dis s l = true -> exists l', l' < lanes X /\ ierr s l' <> None) /\
    (scrapped s <> [] -> exists l', l' < lanes X /\ ierr s l' <> None).

  Lemma healthy_runs s bag : mruns task (istart, [b]) (s, bag) -> healthy s bag.
  Proof.
    intros H. refine (mruns_inv healthy _ _ _ H).
    - auto.
    - clear s bag H. intros s n bag s' out (A & B & C & D) T. unfold inducing in T. rewrite A, unkilled in T. simpl in T.
      destruct (dis s (lane n)) eqn:Ed.
      { inversion T; subst. split; [reflexivity|]. auto. }
      destruct (mem n (vis s)).
      { inversion T; subst. split; [reflexivity|]. auto. }
      assert (Q : forall s1, ikilled s1 = false -> dis s1 = dis s -> ierr s1 = ierr s ->
                (forall e, healthy (disable s1 (lane n) (Some e) false) []) /\
                (scrapped s1 = scrapped s -> dis s (lane n) = true \/ (exists l, l < lanes X /\ ierr s l <> None) ->
                   healthy (disable s1 (lane n) None false) []) /\
                (scrapped s1 = scrapped s -> healthy (drop s1 false) [])).
      { intros s1 K1 K2 K3. split; [|split].
        - intros e. unfold healthy, disable. cbn [ikilled ierr dis scrapped]. rewrite K2, K3.
          assert (Z : exists l', l' < lanes X /\ upd (ierr s) (lane n) (Some e) l' <> None).
          { exists (lane n). split; [now apply lane_lt|]. rewrite upd_same. discriminate. }
          split; [auto|split; [|split; auto]].
          intros l Hl. unfold upd in Hl. destruct (Nat.eqb_spec l (lane n)) as [El|]; [rewrite El; now apply lane_lt|auto].
        - intros K4 Hor. unfold healthy, disable. cbn [ikilled ierr dis scrapped]. rewrite K2, K3, K4. split; [auto|split; [auto|split; auto]].
          intros l Hl. destruct Hor as [Hor|Hor]; [congruence|exact Hor].
        - intros K4. unfold healthy, drop. cbn [ikilled ierr dis scrapped]. rewrite K2, K3, K4. auto. }
      set (s1 := if negb (mem n (iseen s)) then see s n else s) in *.
      assert (K : ikilled s1 = false /\ dis s1 = dis s /\ ierr s1 = ierr s /\ scrapped s1 = scrapped s)
        by (unfold s1; destruct (negb (mem n (iseen s))); auto).
      clearbody s1. destruct K as (K1 & K2 & K3 & K4). destruct (Q s1 K1 K2 K3) as (Q1 & Q2 & Q3).
      destruct (obstacle X pre reached s n) as [o|].
      + destruct (dis s (lane o)) eqn:Eo.
        * inversion T; subst; clear T. apply Q2; auto. right. eauto.
        * destruct (negb (mem n (iseen s))); inversion T; subst. exact (Q3 K4).
      + inversion T; subst; clear T. unfold visit.
        destruct ((nlane X n =? nlane X b) && negb (is_none (res s1))); [apply Q1|].
        destruct (value_at g pre boundary m (acc s1) n) as [w [e|]].
        * apply (proj1 (Q (scrap m w s1) K1 K2 K3)).
        * destruct (n =? b); (split; [reflexivity|]; simpl; rewrite K2, K3, K4; auto).
    - split; [reflexivity|]. split; simpl; [congruence|split; [discriminate|congruence]].
  Qed.
End Healthy.

Section Success.
  Variable X Y : env.
  Variable g : graph word word.
  Variable pre : nat -> list (word * nat).
  Variable boundary : option (word -> outcome).
  Variable m : fold.
  Variable b : nat.
  Variable reached : list nat.
  Hypothesis lanes_pos : 0 < lanes X.
  Hypothesis all_reached : forall n, along pre b n -> skipped X reached n = false.
  Hypothesis unkilled : forall k, killcalls Y k = false.

  Notation task := (inducing X g pre boundary m b Y reached).

  Lemma inducing_success s :
    completes task istart b s -> (forall l, l < lanes X -> ierr s l = None) ->
    (exists w, res s = Some w /\ valued g pre boundary m b w) /\ NoDup (vis s) /\ ~ In b (vis s) /\
    (forall n, In n (vis s) <-> along pre b n /\ n <> b) /\
    (forall n, In n (vis s) -> valued g pre boundary m n (acc s n)) /\
    (forall n, ~ In n (vis s) -> acc s n = null) /\ scrapped s = [].
  Proof.
    intros Hc He. unfold completes in Hc.
    destruct (@healthy_runs X Y g pre boundary m b reached lanes_pos unkilled s [] Hc) as (_ & _ & HD & HS).
    assert (ND : forall l, dis s l = false).
    { intros l. destruct (dis s l) eqn:E; auto. destruct (HD l E) as (l' & A & B). now apply B in He. }
    destruct (any_runs all_reached Hc) as [A B C D E F G H I J].
    assert (Hb : In b (iseen s)) by (destruct H as [U|[[]|U]]; [auto|now rewrite ND in U]).
    assert (NB : ~ In b (vis s)) by (intros U; now apply I in U as [U _]).
    assert (R : exists w, res s = Some w).
    { destruct (res s) as [w|] eqn:Er; eauto. destruct (G b Hb NB (fun _ => eq_refl) (ND _)). }
    destruct R as [w Hw].
    assert (SA : forall n, along pre b n -> In n (iseen s)).
    { intros n Hn. induction Hn as [|n l k _ IH Hk]; auto.
      destruct (F n l k IH Hk (ND _)) as [U|[[]|U]]; auto. now rewrite ND in U. }
    split; [exists w; auto|]. split; [auto|]. split; [auto|]. split; [|split; [|split]].
    - intros n. split.
      + intros Hn. split; [auto|]. intros ->. contradiction.
      + intros [Hn Hnb]. destruct (in_dec Nat.eq_dec n (vis s)) as [U|U]; auto.
        destruct (G n (SA n Hn) U ltac:(congruence) (ND _)).
    - intros n Hn. now apply I.
    - intros n Hn. destruct (N.eq_dec (acc s n) null) as [U|U]; auto. now apply E in U.
    - destruct (scrapped s) as [|x l]; auto. destruct HS as (l' & U & V); [discriminate|]. now apply V in He.
  Qed.
End Success.

(** ** The other passes *)
Section Passes.
  Variable X : env.
  Variable g : graph word word.
  Variable pre : nat -> list (word * nat).
  Variable m : fold.
  Variable b : nat.
  Variable kills : nat -> nat -> bool.
  Hypothesis lanes_pos : 0 < lanes X.
  Hypothesis unkilled : never_killed kills.

  Lemma quiet_walk {S} Z act (d0 : S) r s :
    0 < lanes Z -> (forall k, killcalls Z k = false) -> (forall d n, snd (act d n) = None) ->
    ran (lanes Z) (@walk_dest word Z) (walk Z pre act) (vstart d0) (initial r) s ->
    exists nodes, NoDup nodes /\ (forall n, In n nodes <-> along pre r n) /\ acts act d0 nodes = Some (data s).
  Proof.
    intros Hl Hk Ha Hr. apply ran_completes in Hr; [|now apply vdest_lt].
    apply (@walk_success _ _ Z pre act d0 r s (seq 0 (lanes Z))); auto.
    unfold vstatus. apply final_status_none.
    assert (L : forall l, lerr s l = None).
    { destruct (gwalk_any Hr) as (nodes & _ & _ & _ & D). intros l. destruct (lerr s l) as [e|] eqn:El; auto.
      destruct (D l e El) as (n1 & n & n2 & _ & Hn & _). rewrite Ha in Hn. discriminate. }
    split; [|auto]. unfold is_killed. rewrite Hk, orb_false_r.
    assert (P0 : pass_status (seq 0 (lanes Z)) s = None) by (apply first_error_none; auto).
    exact (proj1 (pass_unflagged Hl (Permutation_refl _) Hk Hr P0)).
  Qed.

  Lemma analysed_all reached n :
    analysed X g pre b kills reached -> along pre b n -> skipped X reached n = false.
  Proof.
    intros Ha Hn. destruct Ha as [|s Hb Hr]; [reflexivity|].
    unfold skipped.
    destruct (@quiet_walk (list nat) (in_pass X kills 0) (fun d n => (d ++ [n], None)) [] b s lanes_pos (unkilled 0) (fun _ _ => eq_refl) Hr)
      as (nodes & A & B & C).
    assert (Q : forall d ns, acts (fun (d : list nat) n => (d ++ [n], None)) d ns = Some (d ++ ns)).
    { intros d ns. revert d. induction ns as [|x ns IH]; intros d; simpl; [now rewrite app_nil_r|].
      rewrite IH, <- app_assoc. reflexivity. }
    rewrite Q in C. injection C as C. apply andb_false_iff. right. apply negb_false_iff, mem_in.
    rewrite <- C. now apply B.
  Qed.
End Passes.

Lemma dispose_acts m acc nodes : forall d d',
  acts (dispose m acc) d nodes = Some d' ->
  d' = d ++ if is_none (r_free m) then [] else filter (fun w => negb (is_null w)) (map acc nodes).
Proof.
  induction nodes as [|n nodes IH]; intros d d' H; simpl in *.
  - inversion H. destruct (is_none (r_free m)); now rewrite app_nil_r.
  - unfold dispose in H at 1. destruct (is_null (acc n)) eqn:En; simpl; [now apply IH|].
    destruct (r_free m) as [c|] eqn:Er; simpl in *.
    + destruct (fails c (acc n)); [discriminate|]. apply IH in H. rewrite H, <- app_assoc. reflexivity.
    + apply IH in H. exact H.
Qed.

(** ** C19 *)

(** If induction succeeds, then the result is the value at the initial node, and the values at the other
    nodes in the zone are destroyed exactly once. *)
Theorem C19_recursive_definition X g pre boundary m b kills i :
  0 < lanes X -> never_killed kills -> induces X g pre boundary m b kills (i, None) ->
  valued g pre boundary m b (value i) /\
  exists zone f, NoDup zone /\ (forall n, In n zone <-> along pre b n /\ n <> b) /\
    (forall n, In n zone -> valued g pre boundary m n (f n)) /\
    Permutation (destroyed i) (if is_none (r_free m) then [] else filter (fun w => negb (is_null w)) (map f zone)).
Proof.
  intros Hl Hk H. remember (i, @None error) as r eqn:Er. destruct H as [reached s order sd order' Ha Hs Ho Hd Ho'].
  destruct (both (first_error (ierr s) order) (pass_status order' sd)) as [e|] eqn:Eb.
  { unfold returned in Er. discriminate. }
  unfold both in Eb. destruct (first_error (ierr s) order) as [e|] eqn:E1; [discriminate|].
  unfold returned in Er. destruct (vstatus (in_pass X kills 2) order' sd) as [e|] eqn:E2; [discriminate|].
  injection Er as <-. cbn [value destroyed].
  apply ran_completes in Hs; [|intros n; now apply lane_lt].
  destruct (@inducing_success X (in_pass X kills 1) g pre boundary m b reached Hl
              (fun n => @analysed_all X g pre b kills Hl Hk reached n Ha) (Hk 1) s Hs) as ((w & Hw & Vw) & N & Nb & Z & V & U & Sc).
  { intros l Hll. apply (proj1 (first_error_none _ _) E1). eapply Permutation_in; [symmetry; exact Ho|]. apply in_seq. lia. }
  split; [unfold outcome_of; now rewrite Hw|]. exists (vis s), (acc s).
  split; [auto|]. split; [exact Z|]. split; [exact V|].
  apply ran_completes in Hd; [|now apply vdest_lt].
  destruct (@walk_success _ _ (heedless (in_pass X kills 2)) pre (dispose m (acc s)) [] b sd order' Hl Ho' Hd E2) as (nodes & A & B & C).
  apply dispose_acts in C. rewrite C, Sc. simpl. destruct (is_none (r_free m)); auto.
  (* the nodes are those in the zone and the initial one *)
  assert (P : Permutation nodes (b :: vis s)).
  { apply NoDup_Permutation; auto; [constructor; auto|]. intros n. rewrite B. simpl. rewrite Z. split.
    - intros Hn. destruct (Nat.eq_dec b n); auto.
    - intros [<-|[Hn _]]; auto. constructor. }
  assert (Q : Permutation (map (acc s) nodes) (null :: map (acc s) (vis s))).
  { rewrite (Permutation_map (acc s) P). simpl. now rewrite (U b Nb). }
  clear - Q. revert Q. generalize (map (acc s) nodes) (map (acc s) (vis s)). intros l1 l2 Q.
  assert (F : forall l1 l2 : list word, Permutation l1 l2 ->
            Permutation (filter (fun w => negb (is_null w)) l1) (filter (fun w => negb (is_null w)) l2)).
  { intros a c HP. induction HP; simpl; auto.
    - destruct (negb (is_null x)); auto.
    - destruct (negb (is_null x)), (negb (is_null y)); auto. apply perm_swap.
    - etransitivity; eauto. }
  rewrite (F _ _ Q). reflexivity.
Qed.

(** With operators that don't fail: the result is determined by a recursive equation. *)
Theorem C19_recursive_equation X g pre boundary m b kills i (bv : option (word -> word)) mp red vac f :
  0 < lanes X -> never_killed kills ->
  boundary = option_map (fun h v => (h v, None)) bv ->
  (forall v, maps_with m v (fun e => mp v (fst e) (snd e))) -> reduces_with m red -> red_dest m ->
  vacuous_case m = Some (vac, None) ->
  (forall n, along pre b n ->
     f n = match pre n, bv with
           | [], Some h => h (vx g n)
           | l, _ => fold_left (fun a e => red (mp (vx g n) (fst e) (f (snd e))) a) l vac
           end) ->
  induces X g pre boundary m b kills (i, None) -> value i = f b.
Proof.
  intros Hl Hk Eb Hm Hr Hd Hv Hf H. destruct (C19_recursive_definition Hl Hk H) as [V _].
  assert (G : forall n w, valued g pre boundary m n w -> along pre b n -> w = f n).
  { intros n w HV. induction HV as [n a w Ha IH Hw]. intros Hn. rewrite (Hf n Hn).
    rewrite (@value_at_ext g pre boundary m a f n) in Hw by (intros l k Hk'; apply (IH l k Hk'); econstructor; eauto).
    unfold value_at in Hw. rewrite Eb in Hw.
    destruct (C17_value_with_vacuous_case (map (fun e => (fst e, f (snd e))) (pre n)) (Hm (vx g n)) Hr Hd Hv) as (s & Es & _).
    assert (M : forall l a, fold_left (fun a e => red (mp (vx g n) (fst e) (snd e)) a) (map (fun e : word * nat => (fst e, f (snd e))) l) a =
                fold_left (fun a e => red (mp (vx g n) (fst e) (f (snd e))) a) l a).
    { intros l. induction l as [|e l IHl]; intros a0; simpl; auto. }
    rewrite M in Es. unfold blank in Hw. unfold fresh in Es.
    destruct (pre n) as [|e l], bv as [h|]; cbn [option_map] in Hw; try (rewrite Es in Hw); congruence. }
  apply G; auto. constructor.
Qed.

(** *** Progress: if the zone is acyclic, there is always a packet that is not deferred, and only finitely
    many are processed. *)
Definition acyclic {E} (pre : nat -> list (E * nat)) (b : nat) : Prop :=
  forall n l k, along pre b n -> In (l, k) (pre n) -> ~ along pre k n.

Lemma along_trans {E} (pre : nat -> list (E * nat)) a c d : along pre a c -> along pre c d -> along pre a d.
Proof. intros H K. induction K as [|n l k _ IH Hk]; auto. econstructor; eauto. Qed.

(** A finite zone without cycles is well founded. *)
Lemma acyclic_acc {E} (pre : nat -> list (E * nat)) b U :
  (forall n, along pre b n -> In n U) -> acyclic pre b ->
  forall n, along pre b n -> Acc (fun k n => exists l, In (l, k) (pre n)) n.
Proof.
  intros HU Ha.
  (* [V] includes all nodes reachable from n *)
  assert (G : forall V n, along pre b n -> (forall k, along pre n k -> In k V) -> Acc (fun k n => exists l, In (l, k) (pre n)) n).
  { intros V. remember (length V) as j eqn:Ej. revert V Ej. induction j as [|j IH]; intros V Ej n Hn HV.
    - destruct V; [|discriminate]. destruct (HV n). constructor.
    - constructor. intros k (l & Hk).
      assert (Hnk : along pre n k) by (econstructor; [constructor|exact Hk]).
      assert (In n V) by (apply HV; constructor).
      apply in_split in H as (V1 & V2 & ->).
      apply (IH (V1 ++ V2)).
      + rewrite app_length in *. simpl in Ej. lia.
      + eapply along_trans; eauto.
      + intros q Hq. assert (Hq' : In q (V1 ++ n :: V2)) by (apply HV; eapply along_trans; eauto).
        apply in_app_or in Hq' as [Hq'|[<-|Hq']]; [apply in_or_app; auto| |apply in_or_app; auto].
        destruct (Ha n l k Hn Hk Hq). }
  intros n Hn. apply (G U n Hn). intros k Hk. apply HU. eapply along_trans; eauto.
Qed.

Theorem C19_no_deadlock X Y g pre boundary m b reached U s bag :
  0 < lanes X -> (forall n, along pre b n -> In n U) -> acyclic pre b ->
  (forall n, along pre b n -> skipped X reached n = false) ->
  mruns (inducing X g pre boundary m b Y reached) (istart, [b]) (s, bag) -> bag <> [] ->
  exists n, In n bag /\ inducing X g pre boundary m b Y reached s n <> None.
Proof.
  intros Hl HU Ha Hreach Hr Hne. destruct (any_runs Hreach Hr) as [A B C D E F G H I J].
  destruct bag as [|n0 bag0] eqn:Eb; [congruence|]. rewrite <- Eb in *. clear Hne.
  assert (Hn0 : In n0 bag) by (rewrite Eb; now left). clear Eb bag0.
  assert (W := @acyclic_acc _ pre b U HU Ha n0 (A n0 Hn0)). induction W as [n _ IH].
  destruct (inducing X g pre boundary m b Y reached s n) eqn:T; [exists n; split; auto; congruence|].
  unfold inducing in T. destruct (dis s (nlane X n)) eqn:Ed; [discriminate|].
  destruct ((ikilled s || killcalls Y (itick s)) && notices Y (itick s)); [discriminate|].
  destruct (mem n (vis s)) eqn:Ev; [discriminate|]. apply mem_out in Ev.
  destruct (obstacle X pre reached s n) as [o|] eqn:Eo; [|discriminate].
  destruct (dis s (nlane X o)) eqn:Edo; [discriminate|].
  destruct (mem n (iseen s)) eqn:Es; [|discriminate]. apply mem_in in Es.
  destruct (@an_obstacle X pre b reached s n o (A n Hn0) Eo) as [(l & Hlo) [U1|U1]]; [congruence|].
  apply (IH o); [eauto|]. destruct (F n l o Es Hlo Ed) as [U2|[U2|U2]]; [|auto|congruence].
  apply G; auto. intros ->. destruct (Ha n l b (A n Hn0) Hlo (A n Hn0)).
Qed.

Theorem C19_finitely_many_steps X Y g pre boundary m b reached U :
  (forall n, along pre b n -> In n U) ->
  terminates (inducing X g pre boundary m b Y reached) (istart, [b]).
Proof.
  intros HU. set (left := fun s => length (filter (fun n => negb (mem n (iseen s))) U)).
  apply lex_inv_terminates with (I := fun _ bag => forall n, In n bag -> along pre b n) (m := left).
  - intros s b1 b2 P H n Hn. apply H. eapply Permutation_in; [symmetry; exact P|auto].
  - intros s n R s' out H T.
    assert (An : along pre b n) by (apply H; now left).
    assert (HR : forall k, In k R -> along pre b k) by (intros k Hk; apply H; now right).
    assert (Done : forall s1, iseen s1 = iseen s -> (forall k, In k ([] ++ R) -> along pre b k) /\ (left s1 < left s \/ left s1 = left s /\ @nil nat = [])).
    { intros s1 E1. split; [exact HR|]. right. unfold left. now rewrite E1. }
    assert (More : forall s1 o, iseen s1 = n :: iseen s -> mem n (iseen s) = false ->
                (forall k, In k o -> In k (map snd (pre n)) \/ k = n) ->
                (forall k, In k (o ++ R) -> along pre b k) /\ (left s1 < left s \/ left s1 = left s /\ o = [])).
    { intros s1 o E1 E2 Ho. split.
      - intros k Hk. apply in_app_or in Hk as [Hk|Hk]; auto. apply Ho in Hk as [Hk| ->]; auto.
        apply in_map_iff in Hk as ([l q] & <- & Hq). econstructor; eauto.
      - left. unfold left. rewrite E1. assert (Hin := HU n An). clear - E2 Hin. revert Hin. induction U as [|u V IH]; [intros []|]. intros Hin.
        assert (LE : forall V, length (filter (fun k => negb (mem k (n :: iseen s))) V) <= length (filter (fun k => negb (mem k (iseen s))) V)).
        { clear. intros V. induction V as [|u V IH]; auto. cbn [filter].
          change (mem u (n :: iseen s)) with ((u =? n) || mem u (iseen s)).
          destruct (u =? n), (mem u (iseen s)); cbn [orb negb length]; lia. }
        cbn [filter]. change (mem u (n :: iseen s)) with ((u =? n) || mem u (iseen s)).
        destruct (Nat.eqb_spec u n) as [->|Hu].
        + rewrite E2. cbn [orb negb length]. apply Nat.lt_succ_r, LE.
        + destruct Hin as [->|Hin]; [congruence|]. specialize (IH Hin).
          destruct (mem u (iseen s)); cbn [orb negb length]; lia. }
    unfold inducing in T. set (k := ikilled s || killcalls Y (itick s)) in *. clearbody k.
    destruct (dis s (nlane X n)); [inversion T; subst; now apply Done|].
    destruct (k && notices Y (itick s)); [inversion T; subst; now apply Done|].
    destruct (mem n (vis s)); [inversion T; subst; now apply Done|].
    assert (V : forall s1, iseen (visit X g pre boundary m b s1 n k) = iseen s1).
    { intros s1. unfold visit. destruct ((nlane X n =? nlane X b) && negb (is_none (res s1))); [reflexivity|].
      destruct (value_at g pre boundary m (acc s1) n) as [w [e|]]; [reflexivity|]. destruct (n =? b); reflexivity. }
    destruct (mem n (iseen s)) eqn:Es; simpl in T.
    + destruct (obstacle X pre reached s n) as [o|]; [destruct (dis s (nlane X o))|]; inversion T; subst; apply Done; auto.
    + destruct (obstacle X pre reached s n) as [o|]; [destruct (dis s (nlane X o))|]; inversion T; subst; apply More; auto.
      * intros q Hq. apply in_app_or in Hq as [Hq|[Hq|[]]]; auto.
      * now rewrite V.
  - intros n [<-|[]]. constructor.
Qed.

(** Errors are those of the user's functions: nothing else goes wrong if there are no cycles. *)
Definition calm X g pre boundary m (b : nat) (s : ist) (bag : list nat) : Prop :=
  (forall n, In n bag -> along pre b n) /\
  ((forall n l k, In n (vis s) -> In (l, k) (pre n) -> In k (vis s)) /\
   (is_none (res s) = false -> forall n, along pre b n -> n = b \/ In n (vis s))) /\
  count_occ Nat.eq_dec bag b + (if is_none (res s) then 0 else 1) <= 1 /\
  (forall l, l < lanes X -> forall e, ierr s l = Some e -> exists n a, along pre b n /\ snd (value_at g pre boundary m a n) = Some e).

Lemma count_perm (l1 l2 : list nat) n : Permutation l1 l2 -> count_occ Nat.eq_dec l1 n = count_occ Nat.eq_dec l2 n.
Proof.
  intros P. induction P as [|x l l' P IH|x y l|l l' l'' P IH P' IH']; simpl; auto.
  - destruct (Nat.eq_dec x n); congruence.
  - destruct (Nat.eq_dec x n), (Nat.eq_dec y n); auto.
  - congruence.
Qed.
Lemma count_app (l1 l2 : list nat) n : count_occ Nat.eq_dec (l1 ++ l2) n = count_occ Nat.eq_dec l1 n + count_occ Nat.eq_dec l2 n.
Proof. induction l1 as [|x l1 IH]; simpl; auto. destruct (Nat.eq_dec x n); lia. Qed.

Lemma calm_runs X Y g pre boundary m b reached s bag :
  acyclic pre b -> (forall n, along pre b n -> skipped X reached n = false) -> mruns (inducing X g pre boundary m b Y reached) (istart, [b]) (s, bag) -> calm X g pre boundary m b s bag.
Proof.
  intros Ha Hr H. refine (mruns_inv (calm X g pre boundary m b) _ _ _ H); clear s bag H.
  - intros s l1 l2 P (A & V & B & C). split; [|split; [exact V|split; [|exact C]]].
    + intros n Hn. apply A. eapply Permutation_in; [symmetry; exact P|auto].
    + rewrite <- (count_perm b P). exact B.
  - intros s n bag s' out (A & V & B & C) T.
    assert (An : along pre b n) by (apply A; now left).
    assert (AR : forall k, In k bag -> along pre b k) by (intros k Hk; apply A; now right).
    simpl in B.
    assert (CB : count_occ Nat.eq_dec bag b <= count_occ Nat.eq_dec (n :: bag) b) by (simpl; destruct (Nat.eq_dec n b); lia). simpl in CB.
    assert (O : forall k, In k (map snd (pre n)) -> along pre b k /\ k <> b).
    { intros k Hk. apply in_map_iff in Hk as ([l q] & <- & Hq). simpl. split; [econstructor; eauto|].
      intros ->. exact (Ha n l b An Hq An). }
    assert (Oc : count_occ Nat.eq_dec (map snd (pre n)) b = 0).
    { apply count_occ_not_In. intros Hb. now apply O in Hb as [_ Hb]. }
    unfold inducing in T. set (k := ikilled s || killcalls Y (itick s)) in *. clearbody k.
    destruct (dis s (nlane X n)) eqn:Ed.
    { inversion T; subst. simpl. split; [exact AR|]. split; [exact V|]. split; [simpl; lia|exact C]. }
    destruct (k && notices Y (itick s)).
    { inversion T; subst. simpl. split; [exact AR|]. split; [exact V|]. split; [simpl; lia|exact C]. }
    destruct (mem n (vis s)) eqn:Ev.
    { inversion T; subst. simpl. split; [exact AR|]. split; [exact V|]. split; [simpl; lia|exact C]. }
    set (s1 := if negb (mem n (iseen s)) then see s n else s) in *.
    set (o1 := if negb (mem n (iseen s)) then map snd (pre n) else []) in *.
    assert (M1 : res s1 = res s /\ ierr s1 = ierr s /\ vis s1 = vis s) by (unfold s1; destruct (negb _); auto).
    assert (M2 : forall q, In q o1 -> along pre b q) by (unfold o1; destruct (negb _); [intros q Hq; now apply O|intros q []]).
    assert (M3 : count_occ Nat.eq_dec o1 b = 0) by (unfold o1; destruct (negb _); auto).
    clearbody s1 o1. destruct M1 as (M1 & M1' & MV).
    assert (Q : forall s2, ((forall n l k, In n (vis s2) -> In (l, k) (pre n) -> In k (vis s2)) /\
                  (is_none (res s2) = false -> forall n, along pre b n -> n = b \/ In n (vis s2))) -> (is_none (res s2) = is_none (res s) \/ n = b /\ res s = None) -> (forall l, l < lanes X -> forall e, ierr s2 l = Some e ->
                  exists n a, along pre b n /\ snd (value_at g pre boundary m a n) = Some e) -> calm X g pre boundary m b s2 (o1 ++ bag)).
    { intros s2 HV Hr2 He. split; [|split; [exact HV|split; [|exact He]]].
      - intros q Hq. apply in_app_or in Hq as [Hq|Hq]; auto.
      - rewrite count_app, M3. destruct Hr2 as [Hr2|[E Hr2]]; [rewrite Hr2; lia|].
        destruct (Nat.eq_dec n b); [|contradiction]. rewrite Hr2 in B. simpl in B. destruct (is_none (res s2)); lia. }
    destruct (obstacle X pre reached s n) as [o|] eqn:Eo.
    + destruct (dis s (nlane X o)).
      * inversion T; subst; clear T. apply Q; simpl; [rewrite MV, M1; exact V|now rewrite M1; left|]. rewrite M1'. exact C.
      * destruct (negb (mem n (iseen s))); [|discriminate]. inversion T; subst; clear T. split; [|split; [simpl; rewrite MV, M1; exact V|split]].
        -- intros q Hq. rewrite <- app_assoc in Hq. apply in_app_or in Hq as [Hq|[<-|Hq]]; auto.
        -- rewrite !count_app, M3. simpl. rewrite M1. destruct (Nat.eq_dec n b); simpl; lia.
        -- simpl. rewrite M1'. exact C.
    + injection T as <- <-. unfold visit. rewrite M1.
      assert (NO : forall l k, In (l, k) (pre n) -> In k (vis s)).
      { intros l q Hq. exact (proj1 (@no_obstacle X pre b reached Hr s n An Eo l q Hq)). }
      apply mem_out in Ev.
      destruct ((nlane X n =? nlane X b) && negb (is_none (res s))) eqn:Eb.
      { exfalso. apply andb_true_iff in Eb as [_ E2]. apply negb_true_iff in E2. destruct (proj2 V E2 n An) as [E1|E1]; [|contradiction].
        rewrite E2 in B. destruct (Nat.eq_dec n b); [lia|contradiction]. }
      destruct (value_at g pre boundary m (acc s1) n) as [w [e|]] eqn:Ew.
      * apply Q; simpl; [rewrite MV, M1; exact V|now rewrite M1; left|]. intros l Hl e' He'. unfold upd in He'. rewrite M1' in He'.
        destruct (l =? nlane X n); [|eauto]. inversion He'; subst. exists n, (acc s1). rewrite Ew. auto.
      * destruct (Nat.eqb_spec n b) as [->|Hn].
        -- apply Q; simpl; rewrite ?MV, ?M1, ?M1'; auto.
           ++ split; [exact (proj1 V)|]. intros _ q Hq. induction Hq as [|q l p Hq IH Hp]; auto. right.
              destruct IH as [->|IH]; [apply (NO l p Hp)|exact (proj1 V q l p IH Hp)].
           ++ right. split; auto. rewrite Nat.eqb_refl in Eb. simpl in Eb. destruct (res s); [discriminate|reflexivity].
        -- apply Q; simpl; rewrite ?MV, ?M1, ?M1'; auto. split.
           ++ intros q l p [<-|Hq] Hp; right; [exact (NO l p Hp)|exact (proj1 V q l p Hq Hp)].
           ++ intros Hs q Hq. destruct (proj2 V Hs q Hq); auto.
  - split; [|split; [split; [intros n l k []|discriminate]|split; simpl]].
    + intros n [<-|[]]. constructor.
    + destruct (Nat.eq_dec b b); [lia|contradiction].
    + intros; discriminate.
Qed.

(** Nothing is returned if there is an error, in any pass. *)
Theorem C19_failure_returns_nothing X g pre boundary m b kills i e :
  induces X g pre boundary m b kills (i, Some e) -> value i = null.
Proof.
  intros H. remember (i, Some e) as r eqn:Er. destruct H as [reached s order sd order' Hre Hs Ho Hd Ho'].
  destruct (both (first_error (ierr s) order) (pass_status order' sd)) as [e1|] eqn:E1.
  - unfold returned in Er. inversion Er; subst. reflexivity.
  - unfold returned in Er. destruct (vstatus (in_pass X kills 2) order' sd); [|discriminate]. inversion Er; subst. reflexivity.
Qed.

Theorem C19_errors_are_the_users X g pre boundary m b kills i e :
  0 < lanes X -> never_killed kills -> acyclic pre b -> induces X g pre boundary m b kills (i, Some e) ->
  (exists n a, along pre b n /\ snd (value_at g pre boundary m a n) = Some e) \/
  (exists c w, r_free m = Some c /\ fails c w = Some e).
Proof.
  intros Hl Hk Ha H. remember (i, Some e) as r eqn:Er. destruct H as [reached s order sd order' Hre Hs Ho Hd Ho'].
  apply ran_completes in Hs; [|intros n; now apply lane_lt]. destruct (calm_runs Ha (fun n => analysed_all Hl Hk Hre) Hs) as (_ & _ & _ & C).
  apply ran_completes in Hd; [|now apply vdest_lt]. destruct (gwalk_any Hd) as (nodes & _ & _ & _ & D).
  assert (D' : forall e, pass_status order' sd = Some e -> exists c w, r_free m = Some c /\ fails c w = Some e).
  { intros e' He. apply pass_error in He as (l & He). destruct (D l e' He) as (n1 & n & n2 & _ & En & _).
    unfold dispose in En. destruct (is_null (acc s n)); [discriminate|]. destruct (r_free m) as [c|]; [|discriminate]. eauto. }
  assert (F : forall e, first_error (ierr s) order = Some e -> exists n a, along pre b n /\ snd (value_at g pre boundary m a n) = Some e).
  { intros e' He. assert (exists l, In l order /\ ierr s l = Some e') as (l & A & B).
    { clear - He. induction order as [|l order IH]; simpl in He; [discriminate|]. destruct (ierr s l) eqn:El.
      - inversion He; subst. exists l. split; auto. now left.
      - destruct (IH He) as (l' & A & B). exists l'. split; auto. now right. }
    apply (C l) with (e := e'); auto. assert (Hin : In l (seq 0 (lanes X))) by (eapply Permutation_in; [exact Ho|auto]).
    apply in_seq in Hin. lia. }
  unfold both in Er. destruct (first_error (ierr s) order) as [e1|] eqn:E1.
  { left. apply F. unfold returned in Er. inversion Er; subst. reflexivity. }
  right. destruct (pass_status order' sd) as [e2|] eqn:E2.
  { apply D'. unfold returned in Er. inversion Er; subst. reflexivity. }
  assert (K : vstatus (in_pass X kills 2) order' sd = None).
  { exact (@pass_unkilled _ _ _ (heedless (in_pass X kills 2)) _ _ _ _ _ _ _ _ sd order' Hl Ho' (Hk 2) Hd E2). }
  rewrite K in Er. discriminate.
Qed.

(** ** Examples *)

(** All passes with the threads taking turns. *)
Definition run_induction X g pre boundary m b kills k : option (result induction) :=
  let all := seq 0 (lanes X) in
  let a := if b =? root g then Some []
           else let y := sched_run (lanes X) (walk_dest X) (analysing pre (in_pass X kills 0)) (vstart []) (initial b) k in
                match mainpc y with MDone => Some (data (sh y)) | _ => None end in
  match a with
  | None => None
  | Some reached =>
      let y := sched_run (lanes X) (nlane X) (inducing X g pre boundary m b (in_pass X kills 1) reached) istart b k in
      let yd := sched_run (lanes X) (walk_dest X) (deducing pre m (acc (sh y)) (in_pass X kills 2)) (vstart []) (initial b) k in
      match mainpc y, mainpc yd with
      | MDone, MDone =>
          Some match both (first_error (ierr (sh y)) all) (pass_status all (sh yd)) with
               | None => returned m (outcome_of (sh y)) (scrapped (sh y) ++ data (sh yd)) (vstatus (in_pass X kills 2) all (sh yd))
               | e => returned m (outcome_of (sh y)) (scrapped (sh y) ++ accumulated g m (acc (sh y))) e
               end
      | _, _ => None
      end
  end.

Lemma run_induction_sound X g pre boundary m b kills k r :
  run_induction X g pre boundary m b kills k = Some r -> induces X g pre boundary m b kills r.
Proof.
  unfold run_induction. set (a := if b =? root g then _ else _).
  assert (Ha : forall reached, a = Some reached -> analysed X g pre b kills reached).
  { intros reached. subst a. destruct (Nat.eqb_spec b (root g)) as [E|E]; intros H.
    - inversion H. now constructor.
    - destruct (mainpc _) eqn:Em; try discriminate. inversion H. apply analysis; auto. now apply sched_ran. }
  clearbody a. destruct a as [reached|]; [|discriminate]. specialize (Ha reached eq_refl).
  set (y := sched_run (lanes X) (nlane X) _ _ _ k).
  destruct (mainpc y) eqn:E1; try discriminate. apply sched_ran in E1. fold y in E1.
  set (yd := sched_run (lanes X) (walk_dest X) (deducing _ _ _ _) _ _ k).
  destruct (mainpc yd) eqn:E2; try discriminate. apply sched_ran in E2. fold yd in E2.
  intros H. inversion H. eapply induced; eauto; apply Permutation_refl.
Qed.

(** A graph without cycles.  The value of a vertex without successors is the vertex, and the others are
    sums of products of labels and values. *)
Definition DG : graph word word :=
  mkGraph [1; 2; 3; 4; 5] (fun n => N.of_nat (10 * n))
    (fun n => match n with 1 => [(2%N, 2); (3%N, 3)] | 2 => [(5%N, 4); (7%N, 3)] | 3 => [(1%N, 4); (4%N, 5)] | _ => [] end) 1.
Lemma DG_wf : wf DG.
Proof.
  assert (P2 : path DG 1 2) by (eapply path_step; [constructor|simpl; eauto]).
  assert (P3 : path DG 1 3) by (eapply path_step; [constructor|simpl; eauto]).
  split.
  - repeat constructor; simpl; intuition discriminate.
  - now left.
  - intros n l m [<-|[<-|[<-|[<-|[<-|[]]]]]]; simpl; intuition; match goal with H : _ = _ |- _ => inversion H; subst; tauto end.
  - intros n [<-|[<-|[<-|[<-|[<-|[]]]]]]; [constructor|exact P2|exact P3| |].
    + eapply path_step; [exact P2|simpl; eauto].
    + eapply path_step; [exact P3|simpl; eauto].
Qed.

(** Edges of this graph lead to nodes with higher numbers. *)
Lemma DG_up n l k : In (l, k) (es DG n) -> n < k.
Proof.
  destruct n as [|[|[|[|n]]]]; simpl; intuition; match goal with H : _ = _ |- _ => inversion H; lia end.
Qed.
Lemma DG_along_up n k : along (es DG) n k -> n <= k.
Proof. intros H. induction H as [|k l q _ IH Hq]; auto. apply DG_up in Hq. lia. Qed.
Lemma DG_acyclic b : acyclic (es DG) b.
Proof. intros n l k _ Hk Hp. apply DG_up in Hk. apply DG_along_up in Hp. lia. Qed.
Lemma DG_zone b n : In b (ids DG) -> along (es DG) b n -> In n (ids DG).
Proof. intros Hb H. induction H as [|n l k _ IH Hk]; auto. exact (wf_closed DG_wf n l k IH Hk). Qed.

Definition cleanup : dtor := mkD 1 (fun _ => None).
Definition MI : fold :=
  mkFold (Some (fun v l w => (l * w, None)%N)) None (Some (fun x y => (x + y, None)%N)) (Some (null, None)) (Some cleanup) (Some cleanup).
Definition BI : option (word -> outcome) := Some (fun v => (v, None)).

Definition value_DG (n : nat) : word :=
  match n with 1 => 4480%N | 2 => 1880%N | 3 => 240%N | 4 => 40%N | 5 => 50%N | _ => 0%N end.

Ltac ran_induction := apply run_induction_sound with (k := 200); vm_compute; reflexivity.

Example C19_recursive_definition_ex :
  0 < lanes X3 /\ never_killed no_kills /\
  exists i, induces X3 DG (es DG) BI MI 1 no_kills (i, None) /\ value i = 4480%N /\ Permutation (destroyed i) [1880; 240; 40; 50]%N.
Proof.
  split; [simpl; lia|]. split; [exact no_kills_never|].
  eexists. split; [ran_induction|]. split; [reflexivity|]. cbn [destroyed]. constructor. apply perm_swap.
Qed.

(** From another vertex than the base vertex, and towards the predecessors. *)
Example C19_recursive_definition_zone_ex :
  2 <> root DG /\ exists i, induces X3 DG (es DG) BI MI 2 no_kills (i, None) /\ value i = 1880%N.
Proof. split; [discriminate|]. eexists. split; [ran_induction|reflexivity]. Qed.
Example C19_recursive_definition_backwards_ex :
  exists i, induces X3 DG (edges_to DG) BI MI 4 no_kills (i, None) /\ value i = 270%N.
Proof. eexists. split; [ran_induction|reflexivity]. Qed.

Example C19_recursive_equation_ex :
  BI = option_map (fun (h : word -> word) v => (h v, None)) (Some (fun v => v)) /\
  (forall v, maps_with MI v (fun e => fst e * snd e)%N) /\ reduces_with MI N.add /\ red_dest MI /\
  vacuous_case MI = Some (null, None) /\
  (forall n, along (es DG) 1 n ->
     value_DG n = match es DG n with
                  | [] => vx DG n
                  | l => fold_left (fun a e => fst e * value_DG (snd e) + a)%N l null
                  end) /\
  exists i, induces X3 DG (es DG) BI MI 1 no_kills (i, None) /\ value i = value_DG 1.
Proof.
  split; [reflexivity|]. split; [left; eexists; repeat split|]. split; [eexists; repeat split|].
  split; [split; intros c x H; inversion H; reflexivity|]. split; [reflexivity|]. split.
  - intros n Hn. apply DG_zone in Hn; [|now left]. destruct Hn as [<-|[<-|[<-|[<-|[<-|[]]]]]]; reflexivity.
  - eexists. split; [ran_induction|reflexivity].
Qed.

(** A vertex without successors, no boundary value, and a vacuous case that fails. *)
Definition MIe : fold :=
  mkFold (Some (fun v l w => (l * w, None)%N)) None (Some (fun x y => (x + y, None)%N)) (Some (null, Some (USERERR 9))) (Some cleanup) (Some cleanup).
Example C19_errors_are_the_users_ex :
  acyclic (es DG) 1 /\ exists i, induces X3 DG (es DG) None MIe 1 no_kills (i, Some (USERERR 9)) /\ value i = null.
Proof. split; [apply DG_acyclic|]. eexists. split; [ran_induction|reflexivity]. Qed.

(** The value is computed, but a destructor fails afterwards. *)
Definition MIf : fold :=
  mkFold (Some (fun v l w => (l * w, None)%N)) None (Some (fun x y => (x + y, None)%N)) (Some (null, None))
    (Some (mkD 2 (fun _ => Some (USERERR 4)))) (Some (mkD 2 (fun _ => Some (USERERR 4)))).
Example C19_failure_returns_nothing_ex :
  exists i, induces X3 DG (es DG) BI MIf 1 no_kills (i, Some (USERERR 4)) /\ value i = null.
Proof. eexists. split; [ran_induction|reflexivity]. Qed.

Example C19_no_deadlock_ex :
  0 < lanes X3 /\ (forall n, along (es DG) 1 n -> In n (ids DG)) /\ acyclic (es DG) 1 /\
  (forall n, along (es DG) 1 n -> skipped X3 [] n = false) /\
  exists s bag, mruns (inducing X3 DG (es DG) BI MI 1 X3 []) (istart, [1]) (s, bag) /\ bag <> [].
Proof.
  split; [simpl; lia|]. split; [intros n; apply DG_zone; now left|]. split; [apply DG_acyclic|].
  split; [reflexivity|].
  eexists. exists [2; 3; 1]. split; [|discriminate]. apply star_one.
  exact (@mstep_proc _ _ (inducing X3 DG (es DG) BI MI 1 X3 []) istart [] 1 [] _ [2; 3; 1] eq_refl).
Qed.
Example C19_finitely_many_steps_ex : forall n, along (es DG) 1 n -> In n (ids DG).
Proof. intros n. apply DG_zone. now left. Qed.

(** ** Killed inductions *)

(** An induction that is killed while the values are computed yields no result and no error. *)
Theorem C36_killed_induction_refuted :
  exists X g boundary m kills i,
    wf g /\ 0 < lanes X /\ acyclic (es g) (root g) /\ (forall i k, kills i k = true -> i = 1 /\ k = 4) /\
    induces X g (es g) boundary m (root g) kills (i, None) /\
    value i = null /\ valued g (es g) boundary m (root g) 4480%N.
Proof.
  exists X3, DG, BI, MI, (kill_at 1 4). eexists. split; [exact DG_wf|]. split; [simpl; lia|]. split; [apply DG_acyclic|].
  split; [intros i k H; unfold kill_at in H; apply andb_true_iff in H as [H1 H2]; now apply Nat.eqb_eq in H1, H2|].
  split; [ran_induction|]. split; [reflexivity|].
  assert (V : exists i, induces X3 DG (es DG) BI MI 1 no_kills (i, None) /\ value i = 4480%N)
    by (eexists; split; [ran_induction|reflexivity]).
  destruct V as (i & H & E). change (root DG) with 1. rewrite <- E.
  refine (proj1 (C19_recursive_definition _ _ H)); [simpl; lia|exact no_kills_never].
Qed.

(** An induction from another vertex than the base vertex that is killed while reachability is analysed
    is reported as a success with a wrong result. *)
Theorem C36_killed_analysis_refuted :
  exists X g boundary m b kills i,
    wf g /\ 0 < lanes X /\ acyclic (es g) b /\ (forall i k, kills i k = true -> i = 0 /\ k = 3) /\
    induces X g (es g) boundary m b kills (i, None) /\
    value i = 480%N /\ valued g (es g) boundary m b 1880%N.
Proof.
  exists X3, DG, BI, MI, 2, (kill_at 0 3). eexists. split; [exact DG_wf|]. split; [simpl; lia|]. split; [apply DG_acyclic|].
  split; [intros i k H; unfold kill_at in H; apply andb_true_iff in H as [H1 H2]; now apply Nat.eqb_eq in H1, H2|].
  split; [ran_induction|]. split; [reflexivity|].
  assert (V : exists i, induces X3 DG (es DG) BI MI 2 no_kills (i, None) /\ value i = 1880%N)
    by (eexists; split; [ran_induction|reflexivity]).
  destruct V as (i & H & E). rewrite <- E.
  refine (proj1 (C19_recursive_definition _ _ H)); [simpl; lia|exact no_kills_never].
Qed.
