(** Containers: claim C40. *)
From Coq Require Import List Arith NArith Lia Bool.
From Verif Require Import Base BrigadeProofs Containers.
Import ListNotations.

Set Implicit Arguments.

Lemma cell_put {A} (t : jarray A) h b h' : cell (put t h b) h' = if N.eqb h' h then b else cell t h'.
Proof.
  induction t as [|[k c] t IH]; simpl.
  - destruct (N.eqb h' h); auto.
  - destruct (N.eqb_spec h k) as [->|Hn]; simpl.
    + destruct (N.eqb h' k); auto.
    + destruct (N.eqb_spec h' k) as [->|]; auto. destruct (N.eqb_spec k h); congruence.
Qed.

Lemma keys_put {A} (t : jarray A) h b x : In x (map fst (put t h b)) <-> In x (map fst t) \/ x = h.
Proof.
  induction t as [|[k c] t IH]; simpl; [intuition|].
  destruct (N.eqb_spec h k) as [->|Hn]; simpl; [|rewrite IH]; intuition.
Qed.

Lemma nodup_put {A} (t : jarray A) h b : NoDup (map fst t) -> NoDup (map fst (put t h b)).
Proof.
  induction t as [|[k c] t IH]; simpl; intros F; [repeat constructor; auto|].
  inversion F; subst. destruct (N.eqb_spec h k) as [->|Hn]; simpl; constructor; auto.
  rewrite keys_put. intros [H|H]; congruence.
Qed.

Lemma cell_out {A} (t : jarray A) h : ~ In h (map fst t) -> cell t h = [].
Proof.
  induction t as [|[k c] t IH]; simpl; auto. intros H. destruct (N.eqb_spec h k); [subst; tauto|]. auto.
Qed.

Section Multisets.
  Context {L : Type}.
  Variable e : L -> L -> bool.
  Variable hash : L -> N.
  Hypothesis e_refl : forall l, e l l = true.
  Hypothesis e_sym : forall l m, e l m = true -> e m l = true.
  Hypothesis e_trans : forall l m n, e l m = true -> e m n = true -> e l n = true.
  Hypothesis e_hash : forall l m, e l m = true -> hash l = hash m.

  (** How many times a label is in the multiset that results from a history in theory.  Recording
      puts a label into it only if there is none yet; merging adds up. *)
  Fixpoint times (x : @history L) (l : L) : nat :=
    match x with
    | Empty => 0
    | Record k t => if e k l then Nat.max 1 (times t l) else times t l
    | Merge t q => times t l + times q l
    end.

  Definition bcount (b : bin) (l : L) : nat := match search e l b with Some m => S m | None => 0 end.

  Lemma e_swap l m : e l m = e m l.
  Proof. destruct (e l m) eqn:E1, (e m l) eqn:E2; auto; apply e_sym in E1 || apply e_sym in E2; congruence. Qed.

  Lemma e_left k l m : e k l = true -> e k m = e l m.
  Proof.
    intros H. destruct (e l m) eqn:E1; [eapply e_trans; eauto|].
    destruct (e k m) eqn:E2; auto. rewrite <- E1. symmetry. eapply e_trans; [apply e_sym; exact H|exact E2].
  Qed.

  Lemma bcount_multirecord k l b :
    bcount (multirecord e k b) l = if e k l then Nat.max 1 (bcount b l) else bcount b l.
  Proof.
    unfold bcount. induction b as [|[l' m] b IH].
    - simpl. rewrite (e_swap l k). destruct (e k l); reflexivity.
    - simpl. destruct (e k l') eqn:E1; simpl.
      + destruct (e k l) eqn:E2; auto.
        replace (e l l') with true; [lia|]. symmetry. apply e_sym in E2. eapply e_trans; eauto.
      + destruct (e l l') eqn:E3; [|exact IH].
        destruct (e k l); reflexivity.
  Qed.

  Lemma bcount_merge_one b x l :
    bcount (merge_one e b x) l = bcount b l + (if e l (fst x) then S (snd x) else 0).
  Proof.
    destruct x as [k j]. unfold bcount. simpl fst. simpl snd. induction b as [|[l' m] b IH]; simpl.
    - destruct (e l k); reflexivity.
    - destruct (e l' k) eqn:E1; simpl.
      + destruct (e l l') eqn:E2.
        * rewrite (e_left _ E2), E1. lia.
        * destruct (e l k) eqn:E3; [|lia].
          rewrite e_swap in E1. rewrite (e_trans E3 E1) in E2. discriminate.
      + destruct (e l l') eqn:E2; auto. rewrite (e_left _ E2), E1. lia.
  Qed.

  (** No two entries of a bin are equal. *)
  Definition distinct (b : @bin L) : Prop := ForallOrdPairs (fun x y => e (fst x) (fst y) = false) b.

  Lemma search_none b l : Forall (fun y => e l (fst y) = false) b -> search e l b = None.
  Proof.
    induction b as [|[l' m] b IH]; intros F; auto. inversion F; subst. simpl in *. rewrite H1. auto.
  Qed.

  Lemma bcount_multimerge q : forall t l, distinct q ->
    bcount (multimerge e t q) l = bcount t l + bcount q l.
  Proof.
    induction q as [|x q IH]; intros t l F; simpl; [unfold multimerge, bcount; simpl; lia|].
    inversion F; subst. unfold multimerge in *. simpl. rewrite IH by auto. rewrite bcount_merge_one.
    destruct x as [k m]. cbn [fst snd] in *.
    replace (bcount ((k, m) :: q) l) with (if e l k then S m else bcount q l) by (unfold bcount; simpl; destruct (e l k); auto).
    destruct (e l k) eqn:E1.
    - enough (bcount q l = 0) by lia. unfold bcount. rewrite search_none; auto.
      rewrite Forall_forall in *. intros y Hy. rewrite (e_left _ E1). auto.
    - lia.
  Qed.

  Lemma labels_multirecord k b x : In x (multirecord e k b) -> In x b \/ x = (k, 0).
  Proof.
    induction b as [|[l' m] b IH]; simpl; [intuition|]. destruct (e k l'); simpl; intuition.
  Qed.

  Lemma distinct_multirecord k b : distinct b -> distinct (multirecord e k b).
  Proof.
    induction b as [|[l' m] b IH]; intros F; simpl; [repeat constructor|].
    destruct (e k l') eqn:E1; auto. inversion F; subst. constructor; [|apply IH; auto].
    rewrite Forall_forall in *. intros y Hy. apply labels_multirecord in Hy as [Hy| ->]; auto.
    simpl. now rewrite e_swap.
  Qed.

  Lemma labels_merge_one b x y : In y (map fst (merge_one e b x)) -> In y (map fst b) \/ y = fst x.
  Proof.
    induction b as [|[l' m] b IH]; simpl; [intuition|]. destruct (e l' (fst x)); simpl; intuition.
  Qed.

  Lemma distinct_merge_one x b : distinct b -> distinct (merge_one e b x).
  Proof.
    induction b as [|[l' m] b IH]; intros F; simpl; [repeat constructor|].
    inversion F; subst. destruct (e l' (fst x)) eqn:E1; constructor; auto; try now apply IH.
    rewrite Forall_forall in *. intros y Hy. apply (in_map fst) in Hy.
    apply labels_merge_one in Hy as [Hy| ->]; auto.
    apply in_map_iff in Hy as (z & <- & Hz). now apply H1 in Hz.
  Qed.

  Lemma distinct_multimerge q : forall t, distinct t -> distinct (multimerge e t q).
  Proof.
    induction q as [|x q IH]; intros t F; auto. unfold multimerge. simpl. apply IH. now apply distinct_merge_one.
  Qed.

  Record good (t : @table L) : Prop := {
    gd_keys : NoDup (map fst t);
    gd_bins : forall h, distinct (cell t h)
  }.

  Lemma merge_facts q : forall t,
    NoDup (map fst q) -> good t -> good (merge e t q) /\ forall h, cell (merge e t q) h = multimerge e (cell t h) (cell q h).
  Proof.
    unfold merge. induction q as [|[k c] q IH]; intros t Nq Ht; simpl; [auto|].
    inversion Nq; subst. destruct (IH (put t k (multimerge e (cell t k) c))) as [G C]; auto.
    - split; [now apply nodup_put, Ht|]. intros h. rewrite cell_put. destruct (N.eqb h k); [|apply Ht].
      apply distinct_multimerge, Ht.
    - split; auto. intros h. rewrite C, cell_put. destruct (N.eqb_spec h k) as [->|]; auto.
      rewrite (cell_out q k); auto.
  Qed.

  Lemma table_good judy x : good (table_of e hash judy x).
  Proof.
    induction x as [|l t [IH1 IH2]|t IHt q IHq]; simpl.
    - split; constructor.
    - split; [now apply nodup_put|]. intros h. unfold record_label. rewrite cell_put.
      destruct (N.eqb h _); auto. now apply distinct_multirecord.
    - apply merge_facts; auto. apply IHq.
  Qed.

  Lemma slot_same judy k l : e k l = true -> slot hash judy k = slot hash judy l.
  Proof. unfold slot. destruct judy; auto. Qed.

  Lemma count_times judy x l : bcount (cell (table_of e hash judy x) (slot hash judy l)) l = times x l.
  Proof.
    induction x as [|k t IH|t IHt q IHq]; simpl; auto.
    - unfold record_label. rewrite cell_put. destruct (N.eqb_spec (slot hash judy l) (slot hash judy k)) as [E1|E1].
      + rewrite bcount_multirecord. rewrite <- E1, IH. reflexivity.
      + rewrite IH. destruct (e k l) eqn:E2; auto. apply (slot_same judy) in E2. congruence.
    - destruct (@merge_facts (table_of e hash judy q) (table_of e hash judy t)) as [_ C];
        [apply table_good|apply table_good|].
      rewrite C, bcount_multimerge by apply table_good. congruence.
  Qed.

  Lemma multisets judy x l :
    already_recorded e hash judy l (table_of e hash judy x) = (0 <? times x l) /\
    multiplicity e hash judy l (table_of e hash judy x) = times x l - 1.
  Proof.
    rewrite <- (count_times judy). unfold already_recorded, multiplicity, bcount.
    destruct (search e l _); simpl; split; auto; lia.
  Qed.

  (** Recording some labels. *)
  Definition set_of (ls : list L) : history := fold_right Record Empty ls.
  Lemma times_set_of ls l : times (set_of ls) l = if existsb (e l) ls then 1 else 0.
  Proof.
    induction ls as [|k ls IH]; simpl; auto. rewrite IH, (e_swap k l). destruct (e l k), (existsb (e l) ls); auto.
  Qed.
  Lemma number_of_sets judy sets l :
    S (multiplicity e hash judy l (table_of e hash judy (fold_left (fun t s => Merge t (set_of s)) sets Empty))) =
    Nat.max 1 (length (filter (existsb (e l)) sets)).
  Proof.
    rewrite (proj2 (multisets judy _ l)).
    enough (H : forall t, times (fold_left (fun t s => Merge t (set_of s)) sets t) l =
                          times t l + length (filter (existsb (e l)) sets)) by (rewrite H; cbn [times]; lia).
    induction sets as [|s sets IH]; intros t; simpl; [lia|]. rewrite IH. simpl. rewrite times_set_of.
    destruct (existsb (e l) s); simpl; lia.
  Qed.
End Multisets.

(** With or without Judy arrays, whatever the hash values of different labels, a multiset table
    answers all questions in accordance with the multiset it stands for.  [_cru_already_recorded]
    tells whether an equal label is in it, and [_cru_multiplicity] the number of times minus one. *)
Theorem C40_multisets (L : Type) (e : L -> L -> bool) (hash : L -> N) judy x l :
  equivalence e -> (forall a b, e a b = true -> hash a = hash b) ->
  already_recorded e hash judy l (table_of e hash judy x) = (0 <? times e x l) /\
  multiplicity e hash judy l (table_of e hash judy x) = times e x l - 1.
Proof. intros [A B C] H. apply multisets; auto. Qed.

(** In particular it makes no difference whether there are Judy arrays. *)
Theorem C40_multisets_agree (L : Type) (e : L -> L -> bool) (hash : L -> N) x l :
  equivalence e -> (forall a b, e a b = true -> hash a = hash b) ->
  already_recorded e hash true l (table_of e hash true x) = already_recorded e hash false l (table_of e hash false x) /\
  multiplicity e hash true l (table_of e hash true x) = multiplicity e hash false l (table_of e hash false x).
Proof.
  intros A H. destruct (C40_multisets hash true x l A H), (C40_multisets hash false x l A H). split; congruence.
Qed.

(** The multiplicity of a label after merging sets of labels is one less than the number of sets
    with an equal label (this is how it is used by src/merge.c). *)
Theorem C40_multiplicity_is_number_of_sets (L : Type) (e : L -> L -> bool) (hash : L -> N) judy sets l :
  equivalence e -> (forall a b, e a b = true -> hash a = hash b) ->
  S (multiplicity e hash judy l (table_of e hash judy (fold_left (fun t s => Merge t (set_of s)) sets Empty))) =
  Nat.max 1 (length (filter (existsb (e l)) sets)).
Proof. intros [A B C] H. apply number_of_sets; auto. Qed.

(** Labels equal modulo 4 with a hash that makes 0 and 2 collide. *)
Example C40_multisets_ex :
  let e := fun a b => N.eqb (a mod 4) (b mod 4) in
  let hash := fun a => N.modulo a 2 in
  equivalence e /\ (forall l m, e l m = true -> hash l = hash m) /\
  let x := (Merge (Record 2 (Record 4 (Record 0 Empty))) (Merge (Record 8 Empty) (Record 1 (Record 12 (Record 0 Empty)))))%N in
  map (fun l => multiplicity e hash true l (table_of e hash true x)) [0; 1; 2; 3]%N = [2; 0; 0; 0] /\
  map (fun l => already_recorded e hash false l (table_of e hash false x)) [0; 1; 2; 3]%N = [true; true; true; false] /\
  times e x 16%N = 3.
Proof.
  split; [|split; [|vm_compute; auto]].
  { split; intros; rewrite ?N.eqb_eq in *; congruence. }
  intros l m H. apply N.eqb_eq in H.
  replace 4%N with (2 * 2)%N in H by reflexivity.
  rewrite !N.mod_mul_r in H by discriminate.
  assert (forall a b : N, ((l mod 2 + 2 * a) = (m mod 2 + 2 * b))%N -> (l mod 2 = m mod 2)%N).
  { intros a b E. assert (2 <> 0)%N by discriminate. pose proof (N.mod_lt l 2 H0). pose proof (N.mod_lt m 2 H0). clear - E H1 H2. revert E H1 H2. generalize (l mod 2)%N (m mod 2)%N. lia. }
  eauto.
Qed.

(** ** Sets *)

(** The mathematical set, as a predicate, and the answers it gives. *)
Definition set_step (s : nat -> bool) (o : set_op) : (nat -> bool) * option bool :=
  match o with
  | Member n => (s, Some (s n))
  | Set_ n => ((fun k => Nat.eqb k n || s k), Some true)
  | Clear n => ((fun k => negb (Nat.eqb k n) && s k), None)
  | TestAndSet n => ((fun k => Nat.eqb k n || s k), Some (s n))
  end.
Fixpoint set_run (s : nat -> bool) (os : list set_op) : list (option bool) :=
  match os with [] => [] | o :: os' => snd (set_step s o) :: set_run (fst (set_step s o)) os' end.

(** [_cru_set_membership] is for nodes known not to be in the set: with Judy arrays, it is an
    internal error otherwise (src/table.c, IER(1724)).  [ok s os] means that a history complies. *)
Fixpoint ok (s : nat -> bool) (os : list set_op) : Prop :=
  match os with
  | [] => True
  | o :: os' => (forall n, o = Set_ n -> s n = false) /\ ok (fst (set_step s o)) os'
  end.

Lemma member_in n s : member_nj n s = true <-> In n s.
Proof.
  induction s as [|m s IH]; simpl; [split; [discriminate|tauto]|].
  destruct (Nat.eqb_spec m n); [intuition|]. rewrite IH. intuition.
Qed.
Lemma member_false n s : member_nj n s = false <-> ~ In n s.
Proof. rewrite <- member_in. destruct (member_nj n s); intuition; discriminate. Qed.
Lemma clear_in n s : NoDup s -> NoDup (clear_nj n s) /\ forall k, In k (clear_nj n s) <-> In k s /\ k <> n.
Proof.
  induction s as [|m s IH]; intros F; simpl; [split; auto; intros k; tauto|].
  inversion F; subst. destruct (Nat.eqb_spec m n) as [->|Hn].
  - split; auto. intros k. split; [intros Hk; split; [auto|intros ->; auto]|intros [[<-|Hk] Hk']; tauto].
  - destruct IH as [A B]; auto. split.
    + constructor; auto. rewrite B. tauto.
    + intros k. simpl. rewrite B. split; [intros [<-|[]]; auto|intros [[<-|]]; auto].
Qed.

Lemma set_sim os : forall l s,
  NoDup l -> (forall n, member_nj n l = s n) -> ok s os -> set_run_nj l os = set_run s os.
Proof.
  induction os as [|o os IH]; intros l s Nd Hs Hok; auto. destruct Hok as [Ho Hok].
  simpl. f_equal.
  - destruct o; simpl; auto; [now rewrite Hs|]. unfold test_and_set_nj. change (test_nj n l) with (member_nj n l). rewrite Hs.
    destruct (s n); reflexivity.
  - apply IH; auto; destruct o as [n|n|n|n]; simpl in *; auto.
    + constructor; auto. rewrite <- member_false, Hs. now apply Ho.
    + now apply clear_in.
    + unfold test_and_set_nj. change (test_nj n l) with (member_nj n l). destruct (member_nj n l) eqn:E; simpl; auto.
      constructor; auto. now apply member_false.
    + intros k. rewrite (Nat.eqb_sym n k), Hs. destruct (Nat.eqb k n); reflexivity.
    + intros k. specialize (proj2 (clear_in n Nd) k). rewrite <- !member_in, Hs.
      destruct (member_nj k (clear_nj n l)), (s k), (Nat.eqb_spec k n); simpl; intuition; discriminate.
    + intros k. unfold test_and_set_nj. change (test_nj n l) with (member_nj n l). destruct (member_nj n l) eqn:E; simpl.
      * rewrite Hs. destruct (Nat.eqb_spec k n) as [->|]; auto. now rewrite <- Hs.
      * rewrite (Nat.eqb_sym n k), Hs. destruct (Nat.eqb k n); reflexivity.
Qed.

Theorem C40_sets os : ok (fun _ => false) os -> set_run_nj [] os = set_run (fun _ => false) os.
Proof. intros H. apply set_sim; auto. constructor. Qed.

Example C40_sets_ex :
  let os := [TestAndSet 3; Set_ 5; TestAndSet 3; Clear 3; Member 3; Member 5; Set_ 3; Member 3] in
  ok (fun _ => false) os /\
  set_run_nj [] os = [Some false; Some true; Some true; None; Some false; Some true; Some true; Some true].
Proof. vm_compute. repeat split; intros n H; inversion H; subst; reflexivity. Qed.

(** The condition is necessary: a node set twice is still there after it has been cleared. *)
Example C40_sets_need_condition :
  exists os, set_run_nj [] os <> set_run (fun _ => false) os.
Proof. exists [Set_ 1; Set_ 1; Clear 1; Member 1]. vm_compute. discriminate. Qed.

(** ** Maps *)

(** A history of associations, in a mathematical map: the first association of a vertex counts. *)
Fixpoint first_class {C} (v : N) (os : list (N * C)) : option C :=
  match os with [] => None | (w, c) :: os' => if N.eqb w v then Some c else first_class v os' end.
Definition map_of {C} (judy : bool) (os : list (N * C)) : vmap :=
  fold_left (fun m o => fst (fst (associate judy m (fst o) (snd o)))) os [].

Lemma image_app {C} (m : @vmap C) m' v :
  image_nj (m ++ m') v = match image_nj m v with Some c => Some c | None => image_nj m' v end.
Proof. induction m as [|[w c] m IH]; simpl; auto. destruct (N.eqb w v); auto. Qed.

Lemma associate_nj_spec {C} (m : @vmap C) v c :
  associate_nj m v c = match image_nj m v with Some _ => (m, Some c) | None => (m ++ [(v, c)], None) end.
Proof.
  induction m as [|[w d] m IH]; simpl; auto. destruct (N.eqb w v); auto. rewrite IH. destruct (image_nj m v); auto.
Qed.

Theorem C40_maps C judy (os : list (N * C)) v : image_nj (map_of judy os) v = first_class v os.
Proof.
  unfold map_of.
  enough (H : forall m, image_nj (fold_left (fun m o => fst (fst (associate judy m (fst o) (snd o)))) os m) v =
                        match image_nj m v with Some c => Some c | None => first_class v os end) by apply H.
  induction os as [|[w c] os IH]; intros m; simpl; [destruct (image_nj m v); auto|].
  rewrite IH. assert (E : fst (fst (associate judy m w c)) = match image_nj m w with Some _ => m | None => m ++ [(w, c)] end).
  { unfold associate. rewrite associate_nj_spec. destruct judy, (image_nj m w); auto. }
  rewrite E. destruct (image_nj m w) eqn:Ew.
  - destruct (image_nj m v) eqn:Ev; auto. destruct (N.eqb_spec w v); auto. congruence.
  - rewrite image_app. destruct (image_nj m v); auto. simpl. destruct (N.eqb w v); auto.
Qed.

(** A class that is not stored is freed. *)
Theorem C40_unused_classes C judy (m : @vmap C) v c :
  snd (fst (associate judy m v c)) = match image_nj m v with Some _ => Some c | None => None end.
Proof. unfold associate. rewrite associate_nj_spec. destruct judy, (image_nj m v); auto. Qed.

Example C40_maps_ex :
  map (image_nj (map_of false [(7, 1); (8, 2); (7, 3)]))%N [7; 8; 9]%N = [Some 1; Some 2; None]%N.
Proof. reflexivity. Qed.
