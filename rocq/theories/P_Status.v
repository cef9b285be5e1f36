(** Errors raised by workers are reported: Status.v. *)
From Coq Require Import List Arith NArith Lia Bool Permutation.
From Verif Require Import Base Status.
Import ListNotations.

Set Implicit Arguments.

Lemma star_ind_inv {A} (R : A -> A -> Prop) (I : A -> Prop) a b : I a -> (forall x y, I x -> R x y -> I y) -> star R a b -> I b.
Proof. intros H0 HS H. induction H; eauto. Qed.

Lemma raise_0 a : raise a 0 = a.
Proof. unfold raise. destruct (N.eqb_spec a 0); auto. Qed.
Lemma raise_nz a b : raise a b <> 0%N <-> a <> 0%N \/ b <> 0%N.
Proof. unfold raise. destruct (N.eqb_spec a 0); tauto. Qed.
Lemma raise_cases a b : raise a b = a \/ a = 0%N /\ raise a b = b.
Proof. unfold raise. destruct (N.eqb_spec a 0); auto. Qed.

(** Worker [i] has raised the error [e]: either the error code is left when its task ends, or it's in the object returned by it. *)
Definition raised (k : kind) (ends : nat -> ending) (i : nat) (e : N) : Prop :=
  e <> 0%N /\ (code (ends i) = e \/ k = Objects /\ object (ends i) = Some e).

Section Workers.
  Variable k : kind.
  Variable early : bool.
  Variable lanes : nat.
  Variable ends : nat -> ending.
  Variable heap : nat -> bool.

  Local Notation step := (step k early lanes ends heap).
  Local Notation raised := (raised k ends).
  Local Notation code i := (code (ends i)).

  (** Where the error code of worker [i] is, given the contents of its variable and the value it returns *)
  Definition kept (s : state) (i : nat) (e : N) (v : option N) : Prop :=
    code i = 0%N \/ e = code i \/ ro_status s = code i \/ In (code i) (log s) /\ ro_status s <> 0%N \/ k = Objects /\ v = Some (code i).

  Definition sound (s : state) (i : nat) (c : stage) : Prop :=
    match c with
    | Begun => True
    | Done e v =>
        (e = 0%N \/ e = code i) /\ kept s i e v /\
        match k with Codes => v = Some e | Counts => v = None | Objects => v = object (ends i) end
    | Thrown e v =>
        (e <> 0%N -> e = code i /\ ro_status s <> 0%N /\ ro_status s <> e) /\ kept s i e v /\
        (k = Objects -> forall c, object (ends i) = Some c -> v = Some c) /\
        (forall c, v = Some c -> c <> 0%N -> raised i c)
    | Gone v =>
        kept s i 0 v /\
        (k = Objects -> forall c, object (ends i) = Some c -> v = Some c) /\
        (forall c, v = Some c -> c <> 0%N -> raised i c)
    end.

  Record inv (s : state) : Prop := {
    i_stage : forall i, sound s i (stages s i);
    i_ro : ro_status s <> 0%N -> exists i, i < lanes /\ code i = ro_status s;
    i_first : ro_status s = last (throws s) 0%N;
    i_throws : forall e, In e (throws s) -> e <> 0%N;
    i_log : forall e, In e (log s) -> e <> 0%N /\ e <> ro_status s /\ ro_status s <> 0%N /\ exists i, i < lanes /\ code i = e;
    i_joined : joined s <= lanes;
    i_gone : forall i, i < joined s -> exists v, stages s i = Gone v /\ (forall c, v = Some c -> c <> 0%N -> err s <> 0%N);
    i_err : err s <> 0%N -> exists i, i < lanes /\ raised i (err s)
  }.

  (** The status of the router changes at most once, and nothing is removed from the log. *)
  Definition later (s s' : state) : Prop :=
    (ro_status s <> 0%N -> ro_status s' = ro_status s) /\ (forall e, In e (log s) -> In e (log s')).
  Lemma kept_later s s' i e v : later s s' -> kept s i e v -> kept s' i e v.
  Proof.
    intros [A B] K. unfold kept in *. destruct K as [K|[K|[K|[[K1 K2]|K]]]]; auto.
    - destruct (N.eq_dec (ro_status s) 0); [left; congruence|]. right; right; left. rewrite A; auto.
    - right; right; right; left. split; auto. rewrite A; auto.
  Qed.
  Lemma sound_later s s' i c : later s s' -> sound s i c -> sound s' i c.
  Proof.
    intros L H. destruct c; simpl in *; auto.
    - destruct H as [H1 [H2 H3]]. repeat split; auto. eapply kept_later; eauto.
    - destruct H as [H1 [H2 H3]]. split; [|split; [eapply kept_later; eauto|exact H3]].
      intros N. apply H1 in N as [N1 [N2 N3]]. destruct L as [L _]. rewrite L; auto.
    - destruct H as [H2 H3]. split; [eapply kept_later; eauto|exact H3].
  Qed.

  Lemma last_cons (a : N) l d : l <> [] -> last (a :: l) d = last l d.
  Proof. destruct l; simpl; [congruence|auto]. Qed.
  Lemma last_nz (l : list N) : (forall e, In e l -> e <> 0%N) -> last l 0%N = 0%N -> l = [].
  Proof.
    intros H E. destruct l as [|a l]; auto. exfalso.
    assert (In (last (a :: l) 0%N) (a :: l)).
    { clear. revert a. induction l as [|b l IH]; intros a; [simpl; auto|]. right. change (last (a :: b :: l) 0%N) with (last (b :: l) 0%N). apply IH. }
    apply H in H0. congruence.
  Qed.

  (** A call of _cru_throw *)
  Lemma throw_spec ro e ro' e' t : throw ro e = (ro', e') -> ro = last t 0%N -> (forall x, In x t -> x <> 0%N) ->
    (ro <> 0%N -> ro' = ro) /\ (ro' = ro \/ ro' = e) /\ (e = 0%N \/ e' = e \/ ro' = e) /\ (e' <> 0%N -> e' = e /\ ro' <> 0%N /\ ro' <> e') /\
    ro' = last (note e t) 0%N /\ (forall x, In x (note e t) -> x <> 0%N).
  Proof.
    intros E L Z. unfold throw in E. unfold note.
    assert (G : e <> 0%N -> forall x, In x (e :: t) -> x <> 0%N) by (intros N x [<-|H]; auto).
    destruct (N.eqb_spec e 0) as [->|N]; [injection E as <- <-; repeat split; auto; congruence|].
    destruct (N.eqb_spec ro e) as [->|N2].
    { injection E as <- <-. repeat split; auto; try congruence. rewrite last_cons; auto. intros ->. simpl in L. congruence. }
    destruct (N.eqb_spec ro 0) as [R|N3].
    { injection E as <- <-. repeat split; auto; try congruence. rewrite (last_nz t Z) by congruence. reflexivity. }
    injection E as <- <-. repeat split; auto. rewrite last_cons; auto. intros ->. simpl in L. congruence.
  Qed.

  Lemma inv_start : inv start.
  Proof. split; simpl; auto; try congruence; try lia; try tauto. Qed.

  (** An update by one of the workers that doesn't touch the launching thread *)
  Lemma inv_put s i ro c l t : inv s -> i < lanes -> (forall v, stages s i <> Gone v) ->
    (ro_status s <> 0%N -> ro = ro_status s) -> (ro = ro_status s \/ ro = code i) ->
    ro = last t 0%N -> (forall e, In e t -> e <> 0%N) ->
    (forall e, In e (log s) -> In e l) -> (forall e, In e l -> In e (log s) \/ e <> 0%N /\ e <> ro /\ ro <> 0%N /\ code i = e) ->
    sound (mkState ro (upd (stages s) i c) (joined s) (err s) l t) i c ->
    inv (mkState ro (upd (stages s) i c) (joined s) (err s) l t).
  Proof.
    intros I Hi NG R R' F Z L L' S.
    set (s' := mkState ro (upd (stages s) i c) (joined s) (err s) l t) in *.
    assert (Lt : later s s') by (split; simpl; auto).
    split; simpl.
    - intros j. unfold upd. destruct (Nat.eqb_spec j i) as [->|]; auto. apply (@sound_later s s' j (stages s j) Lt). apply (i_stage I).
    - intros N. destruct R' as [->| ->]; [now apply (i_ro I)|]. eauto.
    - exact F.
    - exact Z.
    - intros e H. apply L' in H as [H|[H1 [H2 [H3 H4]]]]; [|repeat split; eauto].
      apply (i_log I) in H as [H1 [H2 [H3 H4]]]. rewrite (R H3). auto.
    - apply (i_joined I).
    - intros j Hj. apply (i_gone I) in Hj as [v [E V]]. exists v. split; auto. unfold upd. destruct (Nat.eqb_spec j i) as [->|]; auto.
      exfalso. eapply NG; eauto.
    - apply (i_err I).
  Qed.

  Lemma inv_act s i s' : inv s -> i < lanes -> act k early ends heap i s = Some s' -> inv s'.
  Proof.
    intros I Hi H. pose proof (i_stage I i) as S. unfold act in H. destruct (stages s i) as [|e v|e v|v] eqn:Ei; [| | |discriminate].
    - destruct early.
      + destruct (throw (ro_status s) (code i)) as [ro e'] eqn:T. injection H as <-.
        destruct (throw_spec _ _ T (i_first I) (i_throws I)) as [T1 [T2 [T3 [T4 [T5 T6]]]]].
        apply inv_put; auto; try congruence. simpl. unfold kept, returned. simpl. split; [|split].
        * destruct (N.eq_dec e' 0); auto. right. now apply T4.
        * destruct T3 as [T3|[T3|T3]]; auto.
        * destruct k; auto.
      + injection H as <-. apply inv_put; auto; try congruence; [apply (i_first I)|apply (i_throws I)|].
        simpl. unfold kept, returned. simpl. split; [|split]; auto. destruct k; auto.
    - destruct S as [S1 [S2 S3]]. destruct (reported_by_object k heap i e v) as [e1 v1] eqn:O.
      destruct (throw (ro_status s) e1) as [ro e'] eqn:T. injection H as <-.
      destruct (throw_spec _ _ T (i_first I) (i_throws I)) as [T1 [T2 [T3 [T4 [T5 T6]]]]].
      assert (O1 : (e1 = 0%N \/ e1 = code i) /\ kept s i e1 v1 /\ (k = Objects -> forall c, object (ends i) = Some c -> v1 = Some c) /\
                   (forall c, v1 = Some c -> c <> 0%N -> raised i c)).
      { assert (D : e1 = e /\ v1 = v \/ k = Objects /\ v = None /\ e <> 0%N /\ e1 = 0%N /\ v1 = Some e).
        { revert O. unfold reported_by_object. destruct k; try (intros O; injection O as <- <-; auto; fail).
          destruct v; try (intros O; injection O as <- <-; auto; fail). destruct (N.eqb_spec e 0); try (intros O; injection O as <- <-; auto; fail).
          destruct (heap i); intros O; injection O as <- <-; auto. right. auto. }
        destruct D as [[-> ->]|[Ko [-> [N [-> ->]]]]].
        - split; [auto|split; [auto|split]].
          + intros Ko c Hc. rewrite Ko in S3. congruence.
          + intros c -> Nc. split; auto. destruct k; [injection S3 as ->; destruct S1; [congruence|auto]|discriminate|auto].
        - destruct S1 as [S1|S1]; [congruence|]. subst e. split; [auto|split; [|split]].
          + right; right; right; right. auto.
          + intros _ c Hc. rewrite Ko in S3. congruence.
          + intros c Hc Nc. split; auto. left. congruence. }
      destruct O1 as [O1 [O2 [O3 O4]]]. apply inv_put; auto; try congruence.
      + destruct T2 as [->| ->]; auto. destruct O1 as [O1|O1]; auto. subst e1. left. unfold throw in T. simpl in T. congruence.
      + simpl. split; [|split; [|split]]; auto.
        * intros N. destruct (T4 N) as [A [B C]]. split; auto. destruct O1; congruence.
        * unfold kept in *. simpl. destruct O2 as [K|[K|[K|[[K1 K2]|K]]]]; auto.
          -- subst e1. destruct T3 as [T3|[T3|T3]]; auto.
          -- destruct (N.eq_dec (ro_status s) 0) as [Z|Z]; [left; congruence|]. right; right; left. rewrite T1; auto.
          -- right; right; right; left. split; auto. rewrite T1; auto.
    - destruct S as [S1 [S2 [S3 S4]]]. injection H as <-. apply inv_put; auto; try congruence.
      + apply (i_first I).
      + apply (i_throws I).
      + intros x Hx. unfold note. destruct (N.eqb e 0); simpl; auto.
      + intros x Hx. unfold note in Hx. destruct (N.eqb_spec e 0) as [Z|Z]; auto. destruct Hx as [<-|Hx]; auto.
        right. destruct (S1 Z) as [A [B C]]. repeat split; auto.
      + simpl. split; [|split]; auto. unfold kept in *. simpl. destruct S2 as [K|[K|[K|[[K1 K2]|K]]]]; auto.
        * destruct (N.eq_dec e 0) as [Z|Z]; [left; congruence|]. right; right; right; left. unfold note.
          destruct (N.eqb_spec e 0); [easy|]. destruct (S1 Z) as [A [B C]]. split; auto. left. auto.
        * right; right; right; left. split; auto. unfold note. destruct (N.eqb e 0); simpl; auto.
  Qed.

  Lemma inv_join s s' : inv s -> join lanes s = Some s' -> inv s'.
  Proof.
    intros I H. unfold join in H. destruct (Nat.ltb_spec (joined s) lanes) as [Hj|]; [|discriminate].
    pose proof (i_stage I (joined s)) as S. destruct (stages s (joined s)) as [|e v|e v|v] eqn:Ej; try discriminate. injection H as <-.
    split; simpl; [| apply (i_ro I) | apply (i_first I) | apply (i_throws I) | apply (i_log I) | | | ].
    - intros i. apply (@sound_later s _ i (stages s i)); [split; simpl; auto|apply (i_stage I)].
    - lia.
    - intros i Hi. destruct (Nat.eq_dec i (joined s)) as [->|].
      + exists v. split; auto. intros c -> Nc. apply raise_nz. auto.
      + destruct (i_gone I (i := i)) as [v' [A B]]; [lia|]. exists v'. split; auto. intros c Hc Nc.
        destruct v as [e|]; [|eauto]. apply raise_nz. left. eauto.
    - destruct v as [e|]; [|apply (i_err I)]. intros N. destruct (raise_cases (err s) e) as [R|[R1 R2]].
      + rewrite R in *. now apply (i_err I).
      + rewrite R2 in *. exists (joined s). split; auto. destruct S as [_ [_ S]]. auto.
  Qed.

  Lemma inv_reached s : star step start s -> inv s.
  Proof.
    intros R. refine (star_ind_inv inv _ _ R); [exact inv_start|].
    intros x y I [i Hi H|H]; [eapply inv_act|eapply inv_join]; eauto.
  Qed.

  (** ** Properties *)

  Definition over (s : state) : Prop := joined s = lanes.

  Lemma over_gone s : inv s -> over s -> forall i, i < lanes -> exists v, stages s i = Gone v /\ (forall c, v = Some c -> c <> 0%N -> err s <> 0%N).
  Proof. intros I O i Hi. apply (i_gone I). rewrite O. exact Hi. Qed.

  (** Whatever is reported was raised by one of the workers; and if any of them has raised an error then one is reported. *)
  Theorem C93_reported_if_raised direct s : star step start s -> over s ->
    (reported direct s <> 0%N -> exists i, i < lanes /\ raised i (reported direct s)) /\
    (forall i e, i < lanes -> raised i e -> reported direct s <> 0%N).
  Proof.
    intros R O. pose proof (inv_reached R) as I.
    assert (Q : ro_status s <> 0%N -> exists i, i < lanes /\ raised i (ro_status s)).
    { intros N. destruct (i_ro I N) as [i [Hi E]]. exists i. split; auto. split; auto. }
    split.
    - intros N. unfold reported in *. destruct direct.
      + destruct (raise_cases (err s) (ro_status s)) as [E|[_ E]]; rewrite E in *; [now apply (i_err I)|auto].
      + destruct (raise_cases (ro_status s) (err s)) as [E|[_ E]]; rewrite E in *; [auto|now apply (i_err I)].
    - intros i e Hi [N H].
      assert (G : err s <> 0%N \/ ro_status s <> 0%N).
      { destruct (over_gone I O Hi) as [v [E V]]. pose proof (i_stage I i) as S. rewrite E in S. destruct S as [S1 [S2 S3]].
        destruct H as [H|[Ko H]].
        - subst e. destruct S1 as [K|[K|[K|[[K1 K2]|[K1 K2]]]]]; try congruence; auto; [right; congruence|left; eauto].
        - left. eapply V; eauto. }
      unfold reported. destruct direct; apply raise_nz; tauto.
  Qed.

  (** The error reported is the first one detected, if workers return codes or counts. *)
  Theorem C93_first_detected s : k <> Objects -> star step start s -> over s -> reported false s = last (throws s) 0%N.
  Proof.
    intros Kn R O. pose proof (inv_reached R) as I. unfold reported, raise. rewrite <- (i_first I).
    destruct (N.eqb_spec (ro_status s) 0) as [Z|]; auto. rewrite Z.
    destruct (N.eq_dec (err s) 0) as [|N]; auto. destruct (i_err I N) as [i [Hi [_ [H|[H _]]]]]; [|congruence].
    destruct (over_gone I O Hi) as [v [E V]]. pose proof (i_stage I i) as S. rewrite E in S. destruct S as [S1 _].
    destruct S1 as [K|[K|[K|[[K1 K2]|[K1 K2]]]]]; congruence.
  Qed.

  (** Other errors are logged, and nothing else is. *)
  Theorem C93_others_are_logged s e : k <> Objects -> star step start s -> over s ->
    (In e (log s) <-> e <> reported false s /\ exists i, i < lanes /\ raised i e).
  Proof.
    intros Kn R O. pose proof (inv_reached R) as I.
    assert (Q : reported false s = ro_status s) by (rewrite C93_first_detected by auto; symmetry; apply (i_first I)).
    rewrite Q. split.
    - intros H. apply (i_log I) in H as [A [B [C [i [Hi D]]]]]. split; auto. exists i. split; auto. split; auto.
    - intros [N [i [Hi [Z [H|[H _]]]]]]; [|congruence]. subst e. destruct (over_gone I O Hi) as [v [E V]].
      pose proof (i_stage I i) as S. rewrite E in S. destruct S as [S1 _].
      destruct S1 as [K|[K|[K|[[K1 K2]|[K1 K2]]]]]; congruence.
  Qed.

  (** When the router is freed, CRU_INTKIL is reported only if it was killed and no worker has raised an error. *)
  Theorem C93_killed direct killed s : star step start s -> over s ->
    ((exists i e, i < lanes /\ raised i e) -> concluded direct killed s = reported direct s) /\
    ((forall i e, i < lanes -> ~ raised i e) -> concluded direct killed s = if killed then INTKIL else 0%N).
  Proof.
    intros R O. destruct (C93_reported_if_raised direct R O) as [A B]. pose proof (inv_reached R) as I. split.
    - intros [i [e [Hi H]]]. specialize (B i e Hi H). unfold concluded, raise.
      destruct (N.eqb_spec (reported direct s) 0) as [|N]; [easy|]. destruct (N.eqb_spec (reported direct s) 0); easy.
    - intros H. assert (Z : reported direct s = 0%N).
      { destruct (N.eq_dec (reported direct s) 0) as [|N]; auto. apply A in N as [i [Hi N]]. exfalso. eapply H; eauto. }
      assert (Z2 : ro_status s = 0%N).
      { destruct (N.eq_dec (ro_status s) 0) as [|N]; auto. destruct (i_ro I N) as [i [Hi E]]. exfalso. eapply H; [exact Hi|]. split; eauto. }
      unfold concluded. rewrite Z, Z2. reflexivity.
  Qed.

  (** The launching thread is never stuck: as long as workers haven't been joined with, someone can proceed; and that can't go on
      forever. *)
  Definition rest (s : state) : nat :=
    list_sum (map (fun i => match stages s i with Begun => 3 | Done _ _ => 2 | Thrown _ _ => 1 | Gone _ => 0 end) (seq 0 lanes)) + (lanes - joined s).
  Lemma sum_upd (f f' : nat -> nat) i n : i < n -> (forall j, j <> i -> f' j = f j) -> f' i < f i ->
    list_sum (map f' (seq 0 n)) < list_sum (map f (seq 0 n)).
  Proof.
    induction n as [|n IH]; intros Hi E L; [lia|]. rewrite seq_S, !map_app, !list_sum_app. simpl.
    destruct (Nat.eq_dec i n) as [->|].
    - assert (Q : map f' (seq 0 n) = map f (seq 0 n)) by (apply map_ext_in; intros j Hj; apply in_seq in Hj; apply E; lia).
      rewrite Q. lia.
    - rewrite (E n) by auto. specialize (IH ltac:(lia) E L). lia.
  Qed.
  Theorem C93_workers_finish s s' : step s s' -> rest s' < rest s.
  Proof.
    intros [i Hi H|H]; unfold rest.
    - assert (Q : exists c, stages s' = upd (stages s) i c /\ joined s' = joined s /\
        match c with Begun => 3 | Done _ _ => 2 | Thrown _ _ => 1 | Gone _ => 0 end <
        match stages s i with Begun => 3 | Done _ _ => 2 | Thrown _ _ => 1 | Gone _ => 0 end).
      { unfold act in H. destruct (stages s i) as [|e v|e v|v]; [| | |discriminate].
        - destruct early; [destruct (throw (ro_status s) (code i)) as [ro e']|]; injection H as <-; eexists; repeat split; simpl; lia.
        - destruct (reported_by_object k heap i e v) as [e1 v1]. destruct (throw (ro_status s) e1) as [ro e'].
          injection H as <-; eexists; repeat split; simpl; lia.
        - injection H as <-; eexists; repeat split; simpl; lia. }
      destruct Q as [c [-> [-> L]]]. apply Nat.add_lt_mono_r. apply sum_upd with (i := i); auto.
      + intros j Hj. unfold upd. destruct (Nat.eqb_spec j i); congruence.
      + unfold upd. rewrite Nat.eqb_refl. exact L.
    - unfold join in H. destruct (Nat.ltb_spec (joined s) lanes) as [Hj|]; [|discriminate].
      destruct (stages s (joined s)); try discriminate. injection H as <-. simpl. lia.
  Qed.
  Theorem C93_everything_is_joined s : star step start s -> over s \/ exists s', step s s'.
  Proof.
    intros R. pose proof (inv_reached R) as I. destruct (Nat.eq_dec (joined s) lanes) as [|N]; auto. right.
    assert (Hj : joined s < lanes) by (pose proof (i_joined I); lia).
    destruct (stages s (joined s)) as [|e v|e v|v] eqn:E.
    - destruct (act k early ends heap (joined s) s) as [s'|] eqn:A; [exists s'; eapply work; eauto|].
      unfold act in A. rewrite E in A. destruct early; [|discriminate]. destruct (throw (ro_status s) (code (joined s))); discriminate.
    - destruct (act k early ends heap (joined s) s) as [s'|] eqn:A; [exists s'; eapply work; eauto|].
      unfold act in A. rewrite E in A. destruct (reported_by_object k heap (joined s) e v) as [e1 v1]. destruct (throw (ro_status s) e1); discriminate.
    - destruct (act k early ends heap (joined s) s) as [s'|] eqn:A; [exists s'; eapply work; eauto|].
      unfold act in A. rewrite E in A. discriminate.
    - destruct (join lanes s) as [s'|] eqn:A; [exists s'; now apply wait|].
      unfold join in A. rewrite E in A. destruct (Nat.ltb_spec (joined s) lanes); [discriminate|lia].
  Qed.
End Workers.

(** Three workers, of which two have raised conflicting errors; that of the last one is thrown first. *)
Definition two_errors (i : nat) : ending :=
  match i with 1 => mkEnding 7 None | 2 => mkEnding 9 None | _ => mkEnding 0 None end.
Definition turns : list nat := [2; 0; 1; 2; 2; 1; 0; 1; 0; 3; 3; 3].
Example C93_ex : let s := execute Codes false 3 two_errors (fun _ => true) turns start in
  over 3 s /\ reported false s = 9%N /\ throws s = [7%N; 9%N] /\ log s = [7%N] /\
  star (step Codes false 3 two_errors (fun _ => true)) start s.
Proof.
  split; [|split; [|split; [|split]]]; try (vm_compute; reflexivity). apply execute_sound.
Qed.
(** The same if the task throws errors by itself *)
Example C93_early_ex : let s := execute Codes true 3 two_errors (fun _ => true) turns start in
  over 3 s /\ reported false s = 9%N /\ log s = [7%N].
Proof. vm_compute. auto. Qed.
(** With objects, errors are reported in the order of workers, and conflicting ones aren't logged. *)
Example C93_objects_ex : let s := execute Objects false 3 two_errors (fun _ => true) turns start in
  over 3 s /\ reported true s = 7%N /\ log s = [] /\ throws s = [].
Proof. vm_compute. auto. Qed.
Example C93_oom_ex : let s := execute Objects false 3 two_errors (fun i => i =? 1) turns start in
  over 3 s /\ reported true s = 7%N /\ reported false s = 9%N /\ log s = [].
Proof. vm_compute. auto. Qed.
Example C93_killed_ex : let s := execute Counts false 3 (fun _ => mkEnding 0 None) (fun _ => true) turns start in
  over 3 s /\ concluded false true s = INTKIL /\ concluded false false s = 0%N.
Proof. vm_compute. auto. Qed.
