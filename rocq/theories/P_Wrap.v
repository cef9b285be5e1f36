(** What the memory test harness of src/wrap.c achieves (C102-C105) *)
From Coq Require Import List Arith Bool Lia ZArith.
From Verif Require Import Wrap.
Import ListNotations.
Set Implicit Arguments.
Local Arguments Nat.div : simpl never.
Local Arguments Nat.ltb : simpl never.
Local Arguments Nat.leb : simpl never.

(** * What is seen from outside: a history of calls and their results, the most recent first *)

Definition history := list (call * result).

(** the number of allocations granted, whether real or simulated *)
Fixpoint granted (h : history) : nat :=
  match h with
  | [] => 0
  | (Malloc _ _ _ _, Pointer (Some _)) :: h => S (granted h)
  | (Simulate _ _ _, Verdict true _) :: h => S (granted h)
  | _ :: h => granted h
  end.

(** the limit in force: the last one requested that wasn't already exceeded when it was requested *)
Fixpoint bound (maxint : nat) (h : history) : nat :=
  match h with
  | [] => maxint
  | (Limit n _, _) :: h => if granted h <=? n then n else bound maxint h
  | _ :: h => bound maxint h
  end.

(** the places where an allocation was refused, the first one first *)
Fixpoint refusals (h : history) : list (nat * nat) :=
  match h with
  | [] => []
  | (Malloc line file _ _, Pointer None) :: h => refusals h ++ [(file, line)]
  | (Simulate line file _, Verdict false _) :: h => refusals h ++ [(file, line)]
  | _ :: h => refusals h
  end.

Definition block := (nat * nat * nat)%type.    (* address, file, size in units of eight bytes *)

Definition block_dec : forall x y : block, {x = y} + {x <> y}.
Proof. repeat decide equality. Defined.

Local Arguments block_dec : simpl never.

Fixpoint without (x : block) (l : list block) : list block :=
  match l with
  | [] => []
  | y :: l => if block_dec x y then l else y :: without x l
  end.

(** the blocks that were allocated and not deallocated *)
Fixpoint live (h : history) : list block :=
  match h with
  | [] => []
  | (Malloc _ file s _, Pointer (Some p)) :: h => (p, file, s / 8) :: live h
  | (Free _ file s p, _) :: h => without (p, file, s / 8) (live h)
  | _ :: h => live h
  end.

(** how many of them have a given file and size *)
Definition of_kind (f q : nat) (x : block) : bool := let '(_, g, r) := x in ((g =? f) && (r =? q))%bool.

Definition population (f q : nat) (h : history) : nat := length (filter (of_kind f q) (live h)).

(** A program that uses the harness properly: blocks are not smaller than a pointer, and only live blocks are deallocated,
    in the source file in which they were allocated *)
Fixpoint orderly (h : history) : Prop :=
  match h with
  | [] => True
  | (Malloc _ _ s _, _) :: h => 8 <= s /\ orderly h
  | (Free _ file s p, _) :: h => In (p, file, s / 8) (live h) /\ orderly h
  | _ :: h => orderly h
  end.

(** the source files that allocate memory *)
Fixpoint within (files : list nat) (h : history) : Prop :=
  match h with
  | [] => True
  | (Malloc _ file _ _, _) :: h => In file files /\ within files h
  | _ :: h => within files h
  end.

(** the system itself never runs out of memory *)
Fixpoint plentiful (h : history) : Prop :=
  match h with
  | [] => True
  | (Malloc _ _ _ a, _) :: h => a <> None /\ plentiful h
  | _ :: h => plentiful h
  end.

(** * Rows of the tracker *)

Fixpoint held (f : nat) (t : list (nat * nat)) : nat :=
  match t with
  | [] => 0
  | (g, n) :: t => (if g =? f then n else 0) + held f t
  end.

Lemma held_none : forall f t, ~ In f (map fst t) -> held f t = 0.
Proof.
  induction t as [|[g n] t IH]; simpl; intros H; auto. destruct (g =? f) eqn:E.
  - apply Nat.eqb_eq in E. subst. exfalso; apply H; left; reflexivity.
  - apply IH. intros K. apply H. right. exact K.
Qed.

Lemma enter_spec : forall room f t, length t <= room -> (length t < room \/ In f (map fst t)) -> NoDup (map fst t) ->
  exists r, enter room f t = Some r /\ (forall g, held g r = held g t + (if f =? g then 1 else 0)) /\
            NoDup (map fst r) /\ (forall g, In g (map fst r) -> g = f \/ In g (map fst t)).
Proof.
  induction room; intros f t L M ND.
  - exfalso. destruct t; [destruct M as [M|M]; [lia|inversion M]|simpl in L; lia].
  - destruct t as [|[g n] t]; simpl.
    + eexists. split; [reflexivity|]. simpl. split; [|split].
      * intros g. destruct (f =? g); lia.
      * constructor; [intros []|constructor].
      * intros g [<-|[]]. left. reflexivity.
    + simpl in ND. inversion ND as [|x y NI ND']; subst. destruct (g =? f) eqn:E.
      * eexists. split; [reflexivity|]. apply Nat.eqb_eq in E. subst. simpl. split; [|split].
        -- intros g. destruct (f =? g); lia.
        -- exact ND.
        -- intros g [<-|K]; auto.
      * apply Nat.eqb_neq in E. simpl in L, M. destruct (IHroom f t) as (r & R & H & N & I); auto; [lia| |].
        { destruct M as [M|[M|M]]; [left; lia|contradiction|right; exact M]. }
        rewrite R. simpl. eexists. split; [reflexivity|]. simpl. split; [|split].
        -- intros k. rewrite H. lia.
        -- constructor; auto. intros K. apply I in K as [K|K]; [apply E; auto|apply NI; auto].
        -- intros k [<-|K]; auto. apply I in K as [K|K]; auto.
Qed.

Lemma leave_spec : forall room f t, length t <= room -> NoDup (map fst t) -> 0 < held f t ->
  exists r, leave room f t = Some r /\ (forall g, held g t = held g r + (if f =? g then 1 else 0)) /\ map fst r = map fst t.
Proof.
  induction room; intros f t L ND P.
  - destruct t; [simpl in P; lia|simpl in L; lia].
  - destruct t as [|[g n] t]; [simpl in P; lia|]. simpl in *. inversion ND as [|x y NI ND']; subst. destruct (g =? f) eqn:E.
    + apply Nat.eqb_eq in E. subst. rewrite (held_none _ _ NI) in P. destruct n; [lia|]. eexists. split; [reflexivity|]. simpl.
      split; auto. intros g. destruct (f =? g); lia.
    + simpl in P. destruct (IHroom f t) as (r & R & H & M); auto; [lia|]. rewrite R. simpl. eexists. split; [reflexivity|]. simpl. split.
      * intros k. rewrite H. lia.
      * rewrite M. reflexivity.
Qed.

Lemma leave_none : forall room f t, held f t = 0 -> leave room f t = None.
Proof.
  induction room; intros f t P; simpl; auto. destruct t as [|[g n] t]; auto. simpl in P. destruct (g =? f) eqn:E.
  - destruct n; auto. lia.
  - rewrite IHroom; auto.
Qed.

Lemma without_count : forall p f q l, In (p, f, q) l -> forall g r,
  length (filter (of_kind g r) l) = length (filter (of_kind g r) (without (p, f, q) l)) + (if (f =? g) && (q =? r) then 1 else 0).
Proof.
  induction l as [|y l IH]; intros I g r; [destruct I|]. simpl without. destruct (block_dec (p, f, q) y) as [<-|N].
  - cbn [filter]. change (of_kind g r (p, f, q)) with ((f =? g) && (q =? r))%bool.
    destruct ((f =? g) && (q =? r))%bool; cbn [length]; lia.
  - destruct I as [I|I]; [exfalso; apply N; auto|]. specialize (IH I g r). cbn [filter].
    destruct (of_kind g r y); simpl; lia.
Qed.

Lemma without_length : forall x l, In x l -> length l = S (length (without x l)).
Proof.
  induction l as [|y l IH]; intros I; [destruct I|]. simpl. destruct (block_dec x y); auto. destruct I as [I|I]; [congruence|].
  simpl. rewrite <- (IH I). reflexivity.
Qed.

Lemma some_count : forall p f q l, In (p, f, q) l -> 0 < length (filter (of_kind f q) l).
Proof.
  induction l as [|y l IH]; intros I; [destruct I|]. simpl. destruct I as [->|I].
  - unfold of_kind at 1. rewrite !Nat.eqb_refl. simpl. lia.
  - destruct (of_kind f q y); simpl; auto; lia.
Qed.

(** * Any use *)

Section Any.
  Variable soft : bool.
  Variables mallox maxint : nat.

  Lemma track_fields : forall f s w, let w' := track mallox f s w in
    mallocs w' = mallocs w /\ frees w' = frees w /\ allowed w' = allowed w /\ double_free w' = double_free w /\
    test_count w' = test_count w /\ test_at w' = test_at w /\ err_count w' = err_count w /\ err_at w' = err_at w /\ freed w' = freed w.
  Proof.
    intros f s w. unfold track. destruct (s / 8 =? 0); [simpl; repeat split|]. destruct (SIZE_LIMIT <=? s / 8 - 1); [simpl; repeat split|].
    destruct (enter mallox f (tracker w (s / 8 - 1))); simpl; repeat split.
  Qed.

  (** the counter and the limit follow the history, whatever the calls may be *)
  Lemma counters : forall h w, after soft mallox maxint h w -> mallocs w = granted h /\ allowed w = bound maxint h.
  Proof.
    induction 1 as [|h w c r w' A [IM IA] S]; [split; reflexivity|].
    destruct c as [l f s a|l f s p|l f e|n e|e|n e]; simpl in S.
    - unfold malloc_wrapper in S. destruct (s =? 0); [injection S as <- <-; simpl; auto|].
      destruct (soft && negb (test_count w =? 0))%bool.
      + destruct a as [a|]; cbn [is_some count_if] in S.
        * replace (mallocs (add_malloc w) =? 0) with false in S by reflexivity. injection S as <- <-.
          pose proof (track_fields f s (add_malloc w)) as (T1 & _ & T2 & _). rewrite T1, T2. simpl. split; auto.
        * destruct (mallocs w =? 0) eqn:Z; [|injection S as <- <-; pose proof (track_fields f s w) as (T1 & _ & T2 & _); rewrite T1, T2; simpl; split; auto].
          destruct (negb soft && (allowed w <? mallocs w))%bool; [injection S as <- <-; simpl; auto|].
          destruct (mallocs w <? allowed w); injection S as <- <-; simpl; auto.
      + destruct (negb soft && (allowed w <? mallocs w))%bool; [injection S as <- <-; simpl; auto|].
        destruct (mallocs w <? allowed w); [|injection S as <- <-; simpl; auto].
        destruct a as [a|]; cbn [is_some count_if] in S.
        * replace (mallocs (add_malloc w) =? 0) with false in S by reflexivity. injection S as <- <-.
          pose proof (track_fields f s (add_malloc w)) as (T1 & _ & T2 & _). rewrite T1, T2. simpl. split; auto.
        * destruct (mallocs w =? 0); injection S as <- <-; [simpl; auto|].
          pose proof (track_fields f s w) as (T1 & _ & T2 & _); rewrite T1, T2; simpl; split; auto.
    - injection S as <- <-. unfold free_wrapper. simpl. destruct (s / 8 =? 0); [simpl; auto|].
      destruct (SIZE_LIMIT <=? s / 8 - 1); [simpl; auto|]. destruct (leave mallox f (tracker w (s / 8 - 1))); simpl; auto.
    - unfold allocation_allowed in S. destruct (double_free w); [injection S as <- <-; simpl; auto|].
      destruct (mallocs w <? frees w); [injection S as <- <-; simpl; auto|].
      destruct (soft && negb (test_count w =? 0))%bool; [injection S as <- <-; simpl; auto|].
      destruct (negb soft && (allowed w <? mallocs w))%bool; [injection S as <- <-; simpl; auto|].
      destruct (mallocs w <? allowed w); injection S as <- <-; simpl; auto.
    - unfold limit_allocations in S. simpl. rewrite <- IM. destruct (n <? mallocs w) eqn:L; injection S as <- <-; simpl.
      + apply Nat.ltb_lt in L. replace (mallocs w <=? n) with false by (symmetry; apply Nat.leb_gt; exact L). auto.
      + apply Nat.ltb_ge in L. replace (mallocs w <=? n) with true by (symmetry; apply Nat.leb_le; exact L). auto.
    - injection S as <- <-. simpl. auto.
    - destruct (all_clear n e w); injection S as <- <-; simpl; auto.
  Qed.

  (** C102: the number of allocations reported is the number of those granted *)
  Theorem C102_performed : forall h w r w', after soft mallox maxint h w ->
    step soft mallox (Performed 0) w = (r, w') -> r = Number (granted h).
  Proof.
    intros h w r w' A S. apply counters in A as [A _]. simpl in S. injection S as <- <-. unfold allocations_performed. simpl.
    rewrite A. reflexivity.
  Qed.

  (** C102: a limit is refused only if it has been exceeded already, with the right error *)
  Theorem C102_limit_accepted : forall h w n r w', after soft mallox maxint h w ->
    step soft mallox (Limit n 0) w = (r, w') ->
    r = Verdict true (if n <? granted h then (-517)%Z else 0%Z).
  Proof.
    intros h w n r w' A S. apply counters in A as [A _]. simpl in S. unfold limit_allocations in S. rewrite A in S.
    destruct (n <? granted h); injection S as <- <-; reflexivity.
  Qed.
End Any.

(** * Persistent failure: SOFT_LIMIT undefined *)

Section Hard.
  Variables mallox maxint : nat.

  (** C102: the number of allocations granted never exceeds the limit *)
  Theorem C102_never_exceeded : forall h w, after false mallox maxint h w -> granted h <= bound maxint h.
  Proof.
    induction 1 as [|h w c r w' A IH S]; [simpl; lia|]. pose proof (counters A) as [IM IA].
    destruct c as [l f s a|l f s p|l f e|n e|e|n e]; simpl in S.
    - simpl. unfold malloc_wrapper in S. destruct (s =? 0); [injection S as <- <-; simpl; auto|]. simpl in S.
      destruct (allowed w <? mallocs w); [injection S as <- <-; auto|].
      destruct (mallocs w <? allowed w) eqn:L; [|injection S as <- <-; auto]. apply Nat.ltb_lt in L.
      destruct (mallocs (count_if (is_some a) w) =? 0); injection S as <- <-; destruct a; auto; lia.
    - injection S as <- <-. simpl. exact IH.
    - unfold allocation_allowed in S. destruct (double_free w); [injection S as <- <-; simpl; auto|].
      destruct (mallocs w <? frees w); [injection S as <- <-; simpl; auto|]. simpl in S.
      destruct (allowed w <? mallocs w); [injection S as <- <-; simpl; auto|].
      destruct (mallocs w <? allowed w) eqn:L; injection S as <- <-; simpl; auto. apply Nat.ltb_lt in L. lia.
    - destruct (limit_allocations n e w); injection S as <- <-. simpl. destruct (granted h <=? n) eqn:L; auto. apply Nat.leb_le in L. exact L.
    - injection S as <- <-. exact IH.
    - destruct (all_clear n e w); injection S as <- <-. exact IH.
  Qed.

  (** C102: an allocation gets what the system gives if and only if the limit isn't reached, and once it is reached it gets
      nothing until the limit is raised *)
  Theorem C102_persistent : forall h w l f s a r w', after false mallox maxint h w -> s <> 0 ->
    step false mallox (Malloc l f s a) w = (r, w') ->
    r = Pointer (if granted h <? bound maxint h then a else None).
  Proof.
    intros h w l f s a r w' A N S. pose proof (C102_never_exceeded A) as LE. pose proof (counters A) as [IM IA].
    simpl in S. unfold malloc_wrapper in S. replace (s =? 0) with false in S by (symmetry; apply Nat.eqb_neq; exact N). simpl in S.
    rewrite IM, IA in S. replace (bound maxint h <? granted h) with false in S by (symmetry; apply Nat.ltb_ge; exact LE).
    destruct (granted h <? bound maxint h); [|injection S as <- <-; reflexivity].
    destruct (mallocs (count_if (is_some a) w) =? 0); injection S as <- <-; reflexivity.
  Qed.
End Hard.

(** * Orderly use *)

Section Orderly.
  Variable soft : bool.
  Variables mallox maxint : nat.
  Variable files : list nat.
  Hypothesis enough : length files <= mallox.

  Lemma malloc_cases : forall l f s a w, 8 <= s -> (soft = false -> mallocs w <= allowed w) ->
    let open := ((soft && negb (test_count w =? 0)) || (mallocs w <? allowed w))%bool in
    malloc_wrapper soft mallox l f s a w =
      match a with
      | Some p => if open then (Some p, track mallox f s (add_malloc w)) else (None, record_denial f l w)
      | None => if (open && negb (mallocs w =? 0))%bool then (None, track mallox f s w) else (None, record_denial f l w)
      end.
  Proof.
    intros l f s a w S8 H. unfold malloc_wrapper. replace (s =? 0) with false by (symmetry; apply Nat.eqb_neq; lia).
    assert (G : (negb soft && (allowed w <? mallocs w))%bool = false).
    { destruct soft; simpl; auto. apply Nat.ltb_ge. auto. }
    destruct (soft && negb (test_count w =? 0))%bool; destruct a as [a|]; simpl.
    - reflexivity.
    - destruct (mallocs w =? 0) eqn:Z; simpl; auto. rewrite G. destruct (mallocs w <? allowed w); simpl; try rewrite Z; auto.
    - rewrite G. destruct (mallocs w <? allowed w); auto.
    - rewrite G. destruct (mallocs w <? allowed w); simpl; auto. destruct (mallocs w =? 0); auto.
  Qed.

  (** a state that agrees with a history *)
  Record agrees (h : history) (w : wrap) : Prop := Agrees {
    ag_balance : frees w + length (live h) = mallocs w;
    ag_single : double_free w = false;
    ag_errors : err_count w = 0;
    ag_places : err_at w = [];
    ag_silent : thrown w = [];
    ag_rows : forall q, NoDup (map fst (tracker w q));
    ag_files : forall q f, In f (map fst (tracker w q)) -> In f files;
    ag_enough : forall q f, q < SIZE_LIMIT -> population f (S q) h <= held f (tracker w q);
    ag_exact : plentiful h -> forall q f, q < SIZE_LIMIT -> population f (S q) h = held f (tracker w q);
    ag_tests : plentiful h -> test_count w = length (refusals h) /\ test_at w = firstn TEST_LIMIT (refusals h)
  }.

  (** the effect of recording an allocation in the tracker *)
  Lemma track_rows : forall f s w, 8 <= s -> In f files -> (forall q, NoDup (map fst (tracker w q))) ->
    (forall q g, In g (map fst (tracker w q)) -> In g files) ->
    let w' := track mallox f s w in
    thrown w' = thrown w /\
    (forall q, NoDup (map fst (tracker w' q))) /\
    (forall q g, In g (map fst (tracker w' q)) -> In g files) /\
    (forall q g, q < SIZE_LIMIT -> held g (tracker w' q) = held g (tracker w q) + (if (f =? g) && (s / 8 =? S q) then 1 else 0)).
  Proof.
    intros f s w S8 IF ND IN. assert (Q : 1 <= s / 8) by (apply (Nat.div_le_mono 8 s 8) in S8; [exact S8|lia]).
    unfold track. replace (s / 8 =? 0) with false by (symmetry; apply Nat.eqb_neq; lia).
    destruct (SIZE_LIMIT <=? s / 8 - 1) eqn:L.
    - apply Nat.leb_le in L. simpl. repeat split; auto. intros q g K. replace (s / 8 =? S q) with false by (symmetry; apply Nat.eqb_neq; lia).
      rewrite andb_false_r. lia.
    - apply Nat.leb_gt in L. set (k := s / 8 - 1) in *. assert (K : s / 8 = S k) by (unfold k; lia).
      destruct (@enter_spec mallox f (tracker w k)) as (r & R & H & N & I).
      + rewrite <- (map_length fst). eapply Nat.le_trans; [apply NoDup_incl_length with (l' := files)|exact enough]; auto.
        intros g G. eapply IN; exact G.
      + destruct (in_dec Nat.eq_dec f (map fst (tracker w k))) as [Y|NY]; [right; exact Y|left].
        assert (M : length (f :: map fst (tracker w k)) <= length files).
        { apply NoDup_incl_length; [constructor; auto|]. intros g [<-|G]; [exact IF|eapply IN; exact G]. }
        simpl in M. rewrite map_length in M. lia.
      + apply ND.
      + rewrite R. cbn [set_row set_tracker thrown tracker]. repeat split.
        * intros q. destruct (q =? k); auto.
        * intros q g G. destruct (q =? k); [|eapply IN; exact G]. apply I in G as [->|G]; [exact IF|eapply IN; exact G].
        * intros q g _. rewrite K. destruct (q =? k) eqn:E.
          -- apply Nat.eqb_eq in E. subst q. rewrite H, Nat.eqb_refl, andb_true_r. reflexivity.
          -- replace (S k =? S q) with false by (symmetry; apply Nat.eqb_neq; apply Nat.eqb_neq in E; lia). rewrite andb_false_r. lia.
  Qed.

  Lemma refusal_recorded : forall (h : history) f l n at_, n = length (refusals h) -> at_ = firstn TEST_LIMIT (refusals h) ->
    S n = length (refusals h ++ [(f, l)]) /\
    (if TEST_LIMIT <=? n then at_ else at_ ++ [(f, l)]) = firstn TEST_LIMIT (refusals h ++ [(f, l)]).
  Proof.
    intros h f l n at_ -> ->. split; [rewrite app_length; simpl; lia|]. rewrite firstn_app. destruct (TEST_LIMIT <=? length (refusals h)) eqn:E.
    - apply Nat.leb_le in E. replace (TEST_LIMIT - length (refusals h)) with 0 by lia. simpl. rewrite app_nil_r. reflexivity.
    - apply Nat.leb_gt in E. destruct (TEST_LIMIT - length (refusals h)) eqn:K; [lia|]. f_equal. simpl. destruct n; reflexivity.
  Qed.

  Lemma limit_kept : forall h w, after soft mallox maxint h w -> soft = false -> mallocs w <= allowed w.
  Proof. intros h w A ->. pose proof (counters A) as [-> ->]. apply C102_never_exceeded in A. exact A. Qed.

  Lemma agreement : forall h w, after soft mallox maxint h w -> orderly h -> within files h -> agrees h w.
  Proof.
    induction 1 as [|h w c r w' A IH S]; intros O Wi.
    { constructor; simpl; auto; try lia; intros; try constructor; auto; contradiction. }
    destruct c as [l f s a|l f s p|l f e|n e|e|n e]; simpl in S.
    - simpl in O, Wi. destruct O as [S8 O]. destruct Wi as [WF Wi]. destruct (IH O Wi) as [B D E P T R F G X V].
      rewrite (malloc_cases l f a w S8 (limit_kept A)) in S.
      set (open := ((soft && negb (test_count w =? 0)) || (mallocs w <? allowed w))%bool) in S.
      assert (DEN : (Pointer None, record_denial f l w) = (r, w') -> agrees ((Malloc l f s a, r) :: h) w').
      { intros Q. apply pair_equal_spec in Q as [<- <-]. constructor; simpl; auto.
        - intros [_ K]. exact (X K).
        - intros [_ K]. destruct (V K) as [V1 V2]. apply refusal_recorded; auto. }
      destruct a as [a|].
      + destruct open; [|apply DEN; exact S]. apply pair_equal_spec in S as [<- <-].
        pose proof (track_fields mallox f s (add_malloc w)) as TF. cbv zeta in TF. destruct TF as (T1 & T2 & _ & T4 & T5 & T6 & T7 & T8 & _).
        destruct (@track_rows f s (add_malloc w) S8 WF R F) as (K1 & K2 & K3 & K4).
        assert (PO : forall g q, population g (Datatypes.S q) ((Malloc l f s (Some a), Pointer (Some a)) :: h) =
                       population g (Datatypes.S q) h + (if (f =? g) && (s / 8 =? Datatypes.S q) then 1 else 0)).
        { intros g q. unfold population. cbn [live filter].
          change (of_kind g (Datatypes.S q) (a, f, s / 8)) with ((f =? g) && (s / 8 =? Datatypes.S q))%bool.
          destruct ((f =? g) && (s / 8 =? Datatypes.S q))%bool; cbn [length]; lia. }
        constructor.
        * rewrite T1, T2. simpl. lia.
        * rewrite T4. exact D.
        * rewrite T7. exact E.
        * rewrite T8. exact P.
        * rewrite K1. exact T.
        * exact K2.
        * exact K3.
        * intros q g L. rewrite PO, (K4 q g L). simpl. specialize (G q g L). lia.
        * intros [_ Pl] q g L. rewrite PO, (K4 q g L). simpl. rewrite (X Pl q g L). reflexivity.
        * intros [_ Pl]. rewrite T5, T6. simpl. apply V. exact Pl.
      + destruct (open && negb (mallocs w =? 0))%bool; [|apply DEN; exact S]. apply pair_equal_spec in S as [<- <-].
        pose proof (track_fields mallox f s w) as TF. cbv zeta in TF. destruct TF as (T1 & T2 & _ & T4 & T5 & T6 & T7 & T8 & _).
        destruct (@track_rows f s w S8 WF R F) as (K1 & K2 & K3 & K4).
        constructor.
        * rewrite T1, T2. simpl. lia.
        * rewrite T4. exact D.
        * rewrite T7. exact E.
        * rewrite T8. exact P.
        * rewrite K1. exact T.
        * exact K2.
        * exact K3.
        * intros q g L. rewrite (K4 q g L). specialize (G q g L). unfold population in *. simpl. lia.
        * intros [N _]. exfalso. apply N. reflexivity.
        * intros [N _]. exfalso. apply N. reflexivity.
    - simpl in O, Wi. destruct O as [LI O]. destruct (IH O Wi) as [B D E P T R F G X V].
      apply pair_equal_spec in S as [<- <-]. pose proof (without_length _ _ LI) as WL.
      assert (PO : forall g q, population g q h = population g q ((Free l f s p, Nothing) :: h) + (if (f =? g) && (s / 8 =? q) then 1 else 0)).
      { intros g q. unfold population. cbn [live]. apply without_count. exact LI. }
      assert (Q : 1 <= s / 8).
      { clear -A LI O. revert LI O. generalize dependent w. induction h as [|[c r] h IH]; intros w A LI O; [destruct LI|].
        inversion A as [|h0 w0 c0 r0 w1 A0 S0 E1 E2]; subst.
        assert (SUB : forall x y l, In x (without y l) -> In x l).
        { intros x y l0. induction l0 as [|z l0 IL]; simpl; auto. destruct (block_dec y z); auto. intros [->|K]; auto. }
        destruct c as [l1 f1 s1 a1|l1 f1 s1 p1|l1 f1 e1|n1 e1|e1|n1 e1]; simpl in O, LI.
        - destruct O as [O1 O]. destruct r as [[pp|]| | |]; try (eapply IH; eassumption).
          destruct LI as [LI|LI]; [|eapply IH; eassumption]. apply pair_equal_spec in LI as [_ <-].
          apply (Nat.div_le_mono 8 s1 8) in O1; [exact O1|lia].
        - destruct O as [O1 O]. apply SUB in LI. eapply IH; eassumption.
        - destruct r; eapply IH; eassumption.
        - eapply IH; eassumption.
        - eapply IH; eassumption.
        - eapply IH; eassumption. }
      unfold free_wrapper. replace (s / 8 =? 0) with false by (symmetry; apply Nat.eqb_neq; lia).
      destruct (SIZE_LIMIT <=? s / 8 - 1) eqn:L.
      + apply Nat.leb_le in L.
        assert (PE : forall g q, q < SIZE_LIMIT -> population g (S q) ((Free l f s p, Nothing) :: h) = population g (S q) h).
        { intros g q Lq. rewrite (PO g (S q)). replace (s / 8 =? S q) with false by (symmetry; apply Nat.eqb_neq; lia). rewrite andb_false_r. lia. }
        constructor; simpl; auto; try lia.
        * intros q g Lq. rewrite (PE g q Lq). auto.
        * intros Pl q g Lq. rewrite (PE g q Lq). auto.
      + apply Nat.leb_gt in L. set (k := s / 8 - 1) in *. assert (K : s / 8 = S k) by (unfold k; lia).
        destruct (@leave_spec mallox f (tracker w k)) as (r & RR & H & M).
        { rewrite <- (map_length fst). eapply Nat.le_trans; [apply NoDup_incl_length with (l' := files)|exact enough]; auto.
          intros g Gg. eapply F; exact Gg. }
        { apply R. }
        { eapply Nat.lt_le_trans; [|apply (G k f L)]. unfold population. rewrite <- K. eapply some_count. exact LI. }
        rewrite RR. constructor; simpl; auto; try lia.
        * intros q. destruct (q =? k); auto. rewrite M. auto.
        * intros q g. destruct (q =? k); auto; [rewrite M|]; intros Gg; eapply F; exact Gg.
        * intros q g Lq. specialize (G q g Lq). rewrite (PO g (S q)) in G. rewrite K in G. destruct (q =? k) eqn:EE.
          -- apply Nat.eqb_eq in EE. subst q. rewrite Nat.eqb_refl, andb_true_r, H in G. lia.
          -- replace (S k =? S q) with false in G by (symmetry; apply Nat.eqb_neq; apply Nat.eqb_neq in EE; lia).
             rewrite andb_false_r in G. lia.
        * intros Pl q g Lq. specialize (X Pl q g Lq). rewrite (PO g (S q)) in X. rewrite K in X. destruct (q =? k) eqn:EE.
          -- apply Nat.eqb_eq in EE. subst q. rewrite Nat.eqb_refl, andb_true_r, H in X. lia.
          -- replace (S k =? S q) with false in X by (symmetry; apply Nat.eqb_neq; apply Nat.eqb_neq in EE; lia).
             rewrite andb_false_r in X. lia.
    - simpl in O, Wi. destruct (IH O Wi) as [B D E P T R F G X V]. unfold allocation_allowed in S.
      rewrite D in S. replace (mallocs w <? frees w) with false in S by (symmetry; apply Nat.ltb_ge; lia).
      assert (GG : (negb soft && (allowed w <? mallocs w))%bool = false).
      { pose proof (limit_kept A) as LK. destruct soft; simpl; auto. apply Nat.ltb_ge. auto. }
      assert (YES : (Verdict true e, add_malloc (add_free w)) = (r, w') -> agrees ((Simulate l f e, r) :: h) w').
      { intros Q. apply pair_equal_spec in Q as [<- <-]. constructor; simpl; auto; try exact G; try exact X; lia. }
      destruct (soft && negb (test_count w =? 0))%bool; [apply YES; exact S|]. rewrite GG in S.
      destruct (mallocs w <? allowed w); [apply YES; exact S|]. apply pair_equal_spec in S as [<- <-].
      constructor; simpl; auto. intros Pl. destruct (V Pl) as [V1 V2]. apply refusal_recorded; auto.
    - simpl in O, Wi. destruct (IH O Wi) as [B D E P T R F G X V]. unfold limit_allocations in S.
      destruct (n <? mallocs w); apply pair_equal_spec in S as [<- <-]; constructor; simpl; auto.
    - simpl in O, Wi. destruct (IH O Wi) as [B D E P T R F G X V]. apply pair_equal_spec in S as [<- <-]; constructor; simpl; auto.
    - simpl in O, Wi. destruct (IH O Wi) as [B D E P T R F G X V]. destruct (all_clear n e w) as [b e'].
      apply pair_equal_spec in S as [<- <-]; constructor; simpl; auto.
  Qed.

  Lemma refused_before : forall h w, agrees h w -> plentiful h ->
    negb (test_count w =? 0) = match refusals h with [] => false | _ => true end.
  Proof. intros h w Ag Pl. destruct (ag_tests Ag Pl) as [-> _]. destruct (refusals h); reflexivity. Qed.

  (** C102: if SOFT_LIMIT is defined, then one allocation is refused when the limit is reached, and all those after it are
      granted; if it isn't, then all those after it are refused as well *)
  Theorem C102_allocation : forall h w l f s p r w', after soft mallox maxint h w -> orderly h -> within files h -> plentiful h ->
    8 <= s -> step soft mallox (Malloc l f s (Some p)) w = (r, w') ->
    r = Pointer (if (granted h <? bound maxint h) || (soft && match refusals h with [] => false | _ => true end)
                 then Some p else None).
  Proof.
    intros h w l f s p r w' A O Wi Pl S8 S. pose proof (agreement A O Wi) as Ag. pose proof (counters A) as [IM IA].
    simpl in S. rewrite (malloc_cases l f (Some p) w S8 (limit_kept A)) in S. rewrite (refused_before Ag Pl), IM, IA in S.
    rewrite orb_comm. destruct (soft && _ || _)%bool; injection S as <- <-; reflexivity.
  Qed.

  (** C102: the same holds of simulated allocations, whose refusal is reported as a lack of memory *)
  Theorem C102_simulation : forall h w l f r w', after soft mallox maxint h w -> orderly h -> within files h -> plentiful h ->
    step soft mallox (Simulate l f 0) w = (r, w') ->
    r = if (granted h <? bound maxint h) || (soft && match refusals h with [] => false | _ => true end)
        then Verdict true 0 else Verdict false 12.
  Proof.
    intros h w l f r w' A O Wi Pl S. pose proof (agreement A O Wi) as Ag. pose proof (counters A) as [IM IA].
    pose proof (ag_balance Ag) as B. simpl in S. unfold allocation_allowed in S. rewrite (ag_single Ag) in S.
    replace (mallocs w <? frees w) with false in S by (symmetry; apply Nat.ltb_ge; lia).
    assert (GG : (negb soft && (allowed w <? mallocs w))%bool = false).
    { pose proof (limit_kept A) as LK. destruct soft; simpl; auto. apply Nat.ltb_ge. auto. }
    rewrite GG, (refused_before Ag Pl), IM, IA in S. rewrite orb_comm.
    destruct (soft && match refusals h with [] => false | _ => true end)%bool; [injection S as <- <-; reflexivity|]. simpl.
    destruct (granted h <? bound maxint h); injection S as <- <-; reflexivity.
  Qed.

  (** C102: the first 64 places where allocations were refused are recorded in the right order, and all are counted *)
  Theorem C102_refusals_recorded : forall h w, after soft mallox maxint h w -> orderly h -> within files h -> plentiful h ->
    test_count w = length (refusals h) /\ test_at w = firstn 64 (refusals h).
  Proof. intros h w A O Wi Pl. exact (ag_tests (agreement A O Wi) Pl). Qed.

  (** C103: the verdict at the end is that all is clear if and only if there are no more live blocks than those in reserve,
      and is otherwise that memory has been leaked *)
  Theorem C103_all_clear : forall h w n r w', after soft mallox maxint h w -> orderly h -> within files h ->
    step soft mallox (Clear n 0) w = (r, w') ->
    r = if length (live h) <=? n then Verdict true 0 else Verdict false (-518).
  Proof.
    intros h w n r w' A O Wi S. pose proof (agreement A O Wi) as Ag. pose proof (ag_balance Ag) as B.
    simpl in S. unfold all_clear in S. rewrite (ag_single Ag) in S. simpl in S.
    replace (mallocs w <? frees w) with false in S by (symmetry; apply Nat.ltb_ge; lia).
    destruct (length (live h) <=? n) eqn:L.
    - apply Nat.leb_le in L. replace (frees w + n <? mallocs w) with false in S by (symmetry; apply Nat.ltb_ge; lia).
      injection S as <- <-. reflexivity.
    - apply Nat.leb_gt in L. replace (frees w + n <? mallocs w) with true in S by (symmetry; apply Nat.ltb_lt; lia).
      injection S as <- <-. reflexivity.
  Qed.

  (** C103: an orderly program is never accused of anything *)
  Theorem C103_no_accusation : forall h w, after soft mallox maxint h w -> orderly h -> within files h ->
    double_free w = false /\ err_at w = [] /\ thrown w = [].
  Proof. intros h w A O Wi. destruct (agreement A O Wi) as [B D E P T R F G X V]. auto. Qed.

  Lemma held_in : forall f n t, NoDup (map fst t) -> n <> 0 -> (In (f, n) t <-> held f t = n).
  Proof.
    intros f n t ND N. induction t as [|[g m] t IH]; simpl.
    - split; [intros []|intros E; exfalso; auto].
    - simpl in ND. inversion ND as [|x y NI ND']; subst. destruct (g =? f) eqn:E.
      + apply Nat.eqb_eq in E. subst g. rewrite (held_none _ _ NI). split.
        * intros [K|K]; [injection K as ->; lia|]. exfalso. apply NI. apply (in_map fst) in K. exact K.
        * intros <-. left. f_equal. lia.
      + apply Nat.eqb_neq in E. simpl. rewrite <- (IH ND'). split; [intros [K|K]; auto; exfalso; injection K as K _; auto|auto].
  Qed.

  (** C103: the report on exit lists precisely the files and numbers of the live blocks of each size, unless they are very
      large *)
  Theorem C103_leaks_reported : forall h w f n, after soft mallox maxint h w -> orderly h -> within files h -> plentiful h ->
    (In (f, n) (leaks_reported w) <->
     n <> 0 /\ exists q, 1 <= q <= 256 /\ length (filter (fun x => let '(_, g, r) := x in ((g =? f) && (r =? q))%bool) (live h)) = n).
  Proof.
    intros h w f n A O Wi Pl. destruct (agreement A O Wi) as [B D E P T R F G X V]. unfold leaks_reported. rewrite D, in_flat_map. split.
    - intros (q & Q & I). apply in_seq in Q as [_ Q]. apply filter_In in I as [I N]. simpl in N, Q.
      destruct (n =? 0) eqn:Z; [discriminate N|]. apply Nat.eqb_neq in Z. split; auto. exists (S q). unfold SIZE_LIMIT in Q.
      split; [lia|]. apply held_in in I; [|apply R|exact Z]. rewrite <- I. apply (X Pl q f). exact Q.
    - intros (N & q & Q & C). exists (q - 1). split; [apply in_seq; unfold SIZE_LIMIT; lia|]. apply filter_In. split.
      + apply held_in; auto. rewrite <- (X Pl (q - 1) f) by (unfold SIZE_LIMIT; lia). replace (S (q - 1)) with q by lia. exact C.
      + simpl. apply Nat.eqb_neq in N. rewrite N. reflexivity.
  Qed.

  (** C104: if a block is deallocated of which none of the same file and size is live, the place is recorded *)
  Theorem C104_detected : forall h w l f s p r w', after soft mallox maxint h w -> orderly h -> within files h -> plentiful h ->
    8 <= s < 2056 -> (forall b, ~ In (b, f, s / 8) (live h)) ->
    step soft mallox (Free l f s p) w = (r, w') ->
    double_free w' = true /\ err_at w' = [(f, l)].
  Proof.
    intros h w l f s p r w' A O Wi Pl S8 N S. destruct (agreement A O Wi) as [B D E P T R F G X V].
    assert (Q : 1 <= s / 8 <= 256).
    { destruct S8 as [S8 S9]. split; [apply (Nat.div_le_mono 8 s 8) in S8; [exact S8|lia]|].
      assert (s / 8 < 257) by (apply Nat.div_lt_upper_bound; lia). lia. }
    simpl in S. injection S as <- <-. unfold free_wrapper.
    replace (s / 8 =? 0) with false by (symmetry; apply Nat.eqb_neq; lia).
    replace (SIZE_LIMIT <=? s / 8 - 1) with false by (symmetry; apply Nat.leb_gt; unfold SIZE_LIMIT; lia).
    rewrite leave_none.
    - simpl. rewrite E, P. split; reflexivity.
    - rewrite <- (X Pl (s / 8 - 1) f) by (unfold SIZE_LIMIT; lia). replace (S (s / 8 - 1)) with (s / 8) by lia.
      unfold population. destruct (filter (of_kind f (s / 8)) (live h)) as [|[[b g] k] t] eqn:K; [reflexivity|]. exfalso.
      assert (I : In (b, g, k) (filter (of_kind f (s / 8)) (live h))) by (rewrite K; left; reflexivity).
      apply filter_In in I as [I M]. simpl in M. apply andb_true_iff in M as [M1 M2]. apply Nat.eqb_eq in M1, M2. subst.
      eapply N. exact I.
  Qed.
End Orderly.

(** C104: once it has been detected, whatever may happen later, no simulated allocation succeeds and all is not clear *)
Theorem C104_lasting : forall soft mallox w c r w', double_free w = true -> step soft mallox c w = (r, w') ->
  double_free w' = true /\
  (forall l f e, c = Simulate l f e -> exists e', r = Verdict false e' /\ e' <> 0%Z) /\
  (forall n e, c = Clear n e -> exists e', r = Verdict false e' /\ e' <> 0%Z).
Proof.
  intros soft mallox w c r w' D S.
  assert (RZ : forall e, raise e DBF <> 0%Z).
  { intros e. unfold raise. destruct (e =? 0)%Z eqn:Z; simpl; [discriminate|].
    destruct (e =? ENOMEM)%Z; simpl; [discriminate|]. apply Z.eqb_neq. exact Z. }
  assert (KEEP : forall f s u, double_free u = true -> double_free (track mallox f s u) = true).
  { intros f s u U. pose proof (track_fields mallox f s u) as TF. cbv zeta in TF. destruct TF as (_ & _ & _ & -> & _). exact U. }
  destruct c as [l f s a|l f s p|l f e|n e|e|n e]; simpl in S.
  - destruct (malloc_wrapper soft mallox l f s a w) as [p u] eqn:M. injection S as <- <-.
    split; [|split; intros; discriminate]. unfold malloc_wrapper in M.
    repeat match type of M with
      | (if ?b then _ else _) = _ => destruct b
      end; injection M as <- <-; try exact D; try (apply KEEP); destruct a; exact D.
  - injection S as <- <-. split; [|split; intros; discriminate]. unfold free_wrapper.
    destruct (s / 8 =? 0); [exact D|]. destruct (SIZE_LIMIT <=? s / 8 - 1); [exact D|].
    destruct (leave mallox f (tracker w (s / 8 - 1))); [exact D|reflexivity].
  - unfold allocation_allowed in S. rewrite D in S. injection S as <- <-. split; [exact D|]. split; [|intros; discriminate].
    intros _ _ _ _. eexists. split; [reflexivity|apply RZ].
  - unfold limit_allocations in S. destruct (n <? mallocs w); injection S as <- <-; split; try exact D; split; intros; discriminate.
  - injection S as <- <-. split; [exact D|]. split; intros; discriminate.
  - split; [unfold all_clear in S; injection S as _ <-; exact D|]. split; [intros; discriminate|]. intros _ _ _.
    unfold all_clear in S. rewrite D in S. injection S as <- _. destruct (e =? 0)%Z eqn:Z; simpl.
    + eexists. split; [|apply (RZ e)]. apply Z.eqb_eq in Z. subst e. reflexivity.
    + rewrite Z. eexists. split; [reflexivity|apply Z.eqb_neq; exact Z].
Qed.

(** * Histories that occur *)

(** the history and the state after some calls *)
Fixpoint play (soft : bool) (mallox : nat) (cs : list call) (h : history) (w : wrap) : history * wrap :=
  match cs with
  | [] => (h, w)
  | c :: cs => let '(r, w') := step soft mallox c w in play soft mallox cs ((c, r) :: h) w'
  end.

Lemma play_after : forall soft mallox maxint cs h w, after soft mallox maxint h w ->
  after soft mallox maxint (fst (play soft mallox cs h w)) (snd (play soft mallox cs h w)).
Proof.
  induction cs as [|c cs IH]; intros h w A; simpl; auto. destruct (step soft mallox c w) as [r w'] eqn:S. apply IH.
  econstructor; eassumption.
Qed.

Definition record (soft : bool) (cs : list call) : history * wrap := play soft 2 cs [] (init 100).

(** two files allocate and free blocks of two sizes with a limit of three *)
Definition session : list call :=
  [Limit 3 0; Malloc 10 1 16 (Some 1000); Simulate 11 1 0; Malloc 20 2 16 (Some 2000); Free 12 1 16 1000;
   Malloc 21 2 40 (Some 3000); Malloc 13 1 16 (Some 4000)].

Lemma session_after : forall soft, after soft 2 100 (fst (record soft session)) (snd (record soft session)).
Proof. intros soft. apply play_after. constructor. Qed.

Lemma session_proper : forall soft, let h := fst (record soft session) in orderly h /\ within [1; 2] h /\ plentiful h.
Proof. intros [|]; vm_compute; repeat split; auto; try lia; discriminate. Qed.

Example C102_ex :
  refusals (fst (record false session)) = [(2, 21); (1, 13)] /\ granted (fst (record false session)) = 3 /\
  refusals (fst (record true session)) = [(2, 21)] /\ granted (fst (record true session)) = 4 /\
  bound 100 (fst (record true session)) = 3 /\
  test_at (snd (record false session)) = [(2, 21); (1, 13)].
Proof. vm_compute. repeat split. Qed.

Example C103_ex :
  live (fst (record false session)) = [(2000, 2, 2)] /\ live (fst (record true session)) = [(4000, 1, 2); (2000, 2, 2)] /\
  fst (step false 2 (Clear 0 0) (snd (record false session))) = Verdict false (-518) /\
  fst (step false 2 (Clear 1 0) (snd (record false session))) = Verdict true 0 /\
  leaks_reported (snd (record true session)) = [(1, 1); (2, 1)].
Proof. vm_compute. repeat split. Qed.

Example C104_ex :
  (forall b, ~ In (b, 1, 16 / 8) (live (fst (record false session)))) /\
  err_at (free_wrapper 2 14 1 16 1000 (snd (record false session))) = [(1, 14)] /\
  fst (step false 2 (Simulate 30 2 0) (free_wrapper 2 14 1 16 1000 (snd (record false session)))) = Verdict false (-516) /\
  fst (step false 2 (Clear 9 0) (free_wrapper 2 14 1 16 1000 (snd (record false session)))) = Verdict false (-516).
Proof. split; [intros b K; vm_compute in K; destruct K as [K|[]]; discriminate K|vm_compute; repeat split]. Qed.

(** C104: the comment at the head of _cru_free_wrapper says that memory is deallocated only if there have been fewer
    deallocations than allocations, and that a double free error is globally thrown otherwise.  In fact a block that is
    detected to have been deallocated before is passed to free again, and nothing is thrown. *)
Theorem C104_double_free_prevented_refuted : exists cs h w p,
  record false cs = (h, w) /\ granted h = 1 /\ double_free w = true /\ count_occ Nat.eq_dec (freed w) p = 2 /\ thrown w = [].
Proof.
  exists [Malloc 10 1 16 (Some 1000); Free 12 1 16 1000; Free 13 1 16 1000]. eexists. eexists. exists 1000.
  split; [vm_compute; reflexivity|]. vm_compute. repeat split.
Qed.

(** C105: the comment at the head of _cru_malloc_wrapper says that a record of memory in use is kept in the heap tracker.  In
    fact if the system itself has no memory for a block, then the block is put on record none the less, so that an orderly
    program that leaks nothing is reported to have leaked it. *)
Theorem C105_record_of_memory_in_use_refuted : exists cs h w,
  record false cs = (h, w) /\ orderly h /\ within [1; 2] h /\ live h = [] /\ leaks_reported w = [(2, 1)].
Proof.
  exists [Malloc 10 1 16 (Some 1000); Malloc 20 2 16 None; Free 12 1 16 1000]. eexists. eexists.
  split; [vm_compute; reflexivity|]. vm_compute. repeat split; auto; lia.
Qed.

(** C105: in the same situation, a block of that file and size that isn't live can be deallocated undetected *)
Theorem C105_double_free_missed_refuted : exists cs h w w',
  record false cs = (h, w) /\ orderly h /\ within [1; 2] h /\ (forall b, ~ In (b, 1, 16 / 8) (live h)) /\
  step false 2 (Free 13 1 16 1000) w = (Nothing, w') /\ double_free w' = false /\ count_occ Nat.eq_dec (freed w') 1000 = 2.
Proof.
  exists [Malloc 10 1 16 (Some 1000); Malloc 20 1 16 None; Free 12 1 16 1000]. eexists. eexists. eexists.
  split; [vm_compute; reflexivity|]. split; [vm_compute; repeat split; auto; lia|]. split; [vm_compute; auto|].
  split; [intros b K; vm_compute in K; exact K|]. split; [vm_compute; reflexivity|]. vm_compute. auto.
Qed.
