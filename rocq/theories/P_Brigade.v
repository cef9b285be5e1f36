(** Theorems about edge classes and brigades: claim C46. *)
From Coq Require Import List Arith NArith Lia Bool Permutation.
From Verif Require Import Base Brigade BrigadeProofs.
Import ListNotations.

Set Implicit Arguments.

(** Edges of the examples: a label and a terminus.  Labels are compared modulo 3 and hashed
    modulo 3 modulo 2, so that the classes of 0 and 2 collide. *)
Definition bedges : list (nat * N) :=
  [(0, 5%N); (1, 7%N); (3, 5%N); (2, 5%N); (4, 7%N); (5, 7%N); (6, 7%N)].
Definition leq (x y : nat) : bool := x mod 3 =? y mod 3.
Definition lhash (x : nat) : N := N.of_nat ((x mod 3) mod 2).

Lemma leq_equivalence : equivalence leq.
Proof.
  split; unfold leq; intros *.
  - apply Nat.eqb_refl.
  - intros H. now rewrite Nat.eqb_sym.
  - intros H1 H2. apply Nat.eqb_eq in H1, H2. apply Nat.eqb_eq. congruence.
Qed.

Lemma leq_hash x y : leq x y = true -> lhash x = lhash y.
Proof. unfold leq, lhash. intros H. apply Nat.eqb_eq in H. now rewrite H. Qed.

Lemma on_labels {A E} (f : A -> E) (r : E -> E -> bool) :
  equivalence r -> equivalence (fun x y => r (f x) (f y)).
Proof. intros H. split; intros *; [apply (eqv_refl H)|apply (eqv_sym H)|apply (eqv_trans H)]. Qed.

(** Grouping by a relation, such as equality of labels or of properties: with or without a hash
    table, whatever the collisions, the groups are exactly the classes of the given edges. *)
Theorem C46_grouping_by_label :
  forall (A : Type) (judy : bool) (hash : A -> N) (r : A -> A -> bool) (e : list A),
    equivalence r -> (forall x y, r x y = true -> hash x = hash y) ->
    let bs := rallied judy hash r e in
    Permutation (concat bs) e /\
    (forall b, In b bs -> b <> []) /\
    (forall b x y, In b bs -> In x b -> (In y b <-> In y e /\ r x y = true)).
Proof.
  intros A judy hash r e Hr Hh bs. destruct (rallied_grouping judy hash e Hr Hh) as [P N S D].
  fold bs in P, N, S, D. split; [auto|]. split; [auto|].
  intros b x y Hb Hx. split.
  - intros Hy. split; [|eauto]. eapply Permutation_in; [exact P|]. apply in_concat. eauto.
  - intros [Hy Hxy]. symmetry in P. eapply Permutation_in in Hy; [|exact P].
    apply in_concat in Hy as (b' & Hb' & Hy).
    apply in_split in Hb as (l1 & l2 & El). rewrite El in *.
    apply FOP_app_inv in D as (D1 & D2 & D3). inversion D2 as [|? ? D4 D5]; subst.
    rewrite Forall_forall in D4.
    apply in_app_or in Hb' as [Hb'|[<-|Hb']]; auto; exfalso.
    + specialize (D3 b' b Hb' (or_introl eq_refl) y x Hy Hx).
      apply (eqv_sym Hr) in Hxy. congruence.
    + specialize (D4 b' Hb' x y Hx Hy). congruence.
Qed.

Example C46_grouping_by_label_ex :
  equivalence (fun x y : nat * N => leq (fst x) (fst y)) /\
  (forall x y : nat * N, leq (fst x) (fst y) = true -> lhash (fst x) = lhash (fst y)) /\
  rallied true (fun x => lhash (fst x)) (fun x y => leq (fst x) (fst y)) bedges =
  [[(1, 7%N); (4, 7%N)]; [(0, 5%N); (3, 5%N); (6, 7%N)]; [(2, 5%N); (5, 7%N)]].
Proof.
  split; [apply on_labels, leq_equivalence|]. split; [intros; now apply leq_hash|].
  vm_compute. reflexivity.
Qed.

(** Grouping by terminus, or by the class of the terminus. *)
Theorem C46_grouping_by_terminus :
  forall (A : Type) (judy : bool) (key : A -> N) (e : list A),
    let bs := marshalled judy key e in
    Permutation (concat bs) e /\
    (forall b, In b bs -> b <> []) /\
    (forall b x y, In b bs -> In x b -> (In y b <-> In y e /\ key y = key x)).
Proof.
  intros A judy key e bs. destruct (marshalled_grouping judy key e) as [P N S D].
  fold bs in P, N, S, D. split; [auto|]. split; [auto|].
  intros b x y Hb Hx. split.
  - intros Hy. split.
    + eapply Permutation_in; [exact P|]. apply in_concat. eauto.
    + specialize (S b y x Hb Hy Hx). simpl in S. now apply N.eqb_eq.
  - intros [Hy Hxy]. symmetry in P. eapply Permutation_in in Hy; [|exact P].
    apply in_concat in Hy as (b' & Hb' & Hy).
    apply in_split in Hb as (l1 & l2 & El). rewrite El in *.
    apply FOP_app_inv in D as (D1 & D2 & D3). inversion D2 as [|? ? D4 D5]; subst.
    rewrite Forall_forall in D4.
    apply in_app_or in Hb' as [Hb'|[<-|Hb']]; auto; exfalso.
    + specialize (D3 b' b Hb' (or_introl eq_refl) y x Hy Hx). apply N.eqb_neq in D3. congruence.
    + specialize (D4 b' Hb' x y Hx Hy). apply N.eqb_neq in D4. congruence.
Qed.

Example C46_grouping_by_terminus_ex :
  marshalled true snd bedges =
    [[(6, 7%N); (5, 7%N); (4, 7%N); (1, 7%N)]; [(2, 5%N); (3, 5%N); (0, 5%N)]] /\
  marshalled false snd bedges =
    [[(2, 5%N); (3, 5%N); (0, 5%N)]; [(6, 7%N); (5, 7%N); (4, 7%N); (1, 7%N)]].
Proof. split; vm_compute; reflexivity. Qed.

(** Dissolving the groups, or putting every edge into a group of its own, keeps all edges. *)
Theorem C46_ungrouping :
  forall (A : Type) (e : list A) (bs : list (list A)),
    Permutation (unbundled bs) (concat bs) /\
    (forall b, In b (bundled_null e) -> exists x, b = [x]) /\ concat (bundled_null e) = rev e.
Proof.
  intros A e bs. split; [|split].
  - unfold unbundled.
    assert (G : forall bs acc, Permutation (fold_left (fun result bucket : list A => bucket ++ result) bs acc)
                                 (concat bs ++ acc)).
    { induction bs0 as [|b bs0 IH]; simpl; intros acc; auto. rewrite IH. perm_solve. }
    rewrite G. now rewrite app_nil_r.
  - unfold bundled_null.
    assert (G : forall (e : list A) acc, (forall b, In b acc -> exists x, b = [x]) ->
              forall b, In b (fold_left (fun bs x => [x] :: bs) e acc) -> exists x, b = [x]).
    { induction e0 as [|x e0 IH]; simpl; intros acc H b Hb; auto.
      apply (IH ([x] :: acc)); auto. intros b0 [<-|Hb0]; eauto. }
    apply G. intros b [].
  - unfold bundled_null.
    assert (G : forall (e : list A) acc, concat (fold_left (fun bs x => [x] :: bs) e acc) = rev e ++ concat acc).
    { induction e0 as [|x e0 IH]; simpl; intros acc; auto. rewrite IH. simpl. now rewrite <- app_assoc. }
    rewrite G. simpl. now rewrite app_nil_r.
Qed.

Example C46_ungrouping_ex : unbundled [[1; 2]; []; [3]] = [3; 1; 2] /\ bundled_null [1; 2; 1] = [[1]; [2]; [1]].
Proof. split; reflexivity. Qed.

(** Deduplication leaves exactly one edge for each combination of a label class and a terminus, and
    the edges that it frees are exactly the others. *)
Theorem C46_deduplication :
  forall (A E : Type) (judy : bool) (eeq : E -> E -> bool) (ehash : E -> N) (lab : A -> E)
         (terminus : A -> N) (e : list A),
    equivalence eeq -> (forall x y, eeq x y = true -> ehash x = ehash y) ->
    let kept := fst (deduplicated_edges eeq judy ehash lab terminus e) in
    let freed := snd (deduplicated_edges eeq judy ehash lab terminus e) in
    Permutation e (kept ++ freed) /\
    ForallOrdPairs (fun x y => ~ (terminus x = terminus y /\ eeq (lab x) (lab y) = true)) kept /\
    (forall x, In x e -> exists y, In y kept /\ terminus y = terminus x /\ eeq (lab x) (lab y) = true).
Proof.
  intros A E judy eeq ehash lab terminus e He Hh kept freed.
  destruct (deduplicated_edges_dedup judy ehash lab terminus e He Hh) as [D1 D2 D3].
  fold kept freed in D1, D2, D3. split; [auto|]. split.
  - revert D2. apply FOP_imp. intros x y _ _ H [Ht Hl]. rewrite Ht, N.eqb_refl, Hl in H. discriminate.
  - intros x Hx. destruct (D3 x Hx) as (y & Hy & H). apply andb_true_iff in H as [H1 H2].
    apply N.eqb_eq in H1. eauto.
Qed.

Example C46_deduplication_ex :
  deduplicated_edges leq true lhash fst snd bedges =
  ([(2, 5%N); (3, 5%N); (6, 7%N); (5, 7%N); (4, 7%N)], [(0, 5%N); (1, 7%N)]).
Proof. vm_compute. reflexivity. Qed.
