(** Common vocabulary: function update, finite sums and concatenations over
    lanes, reflexive transitive closure.  Nothing here models C code except
    [lane_of]. *)
From Coq Require Import List Arith NArith Lia Bool Permutation.
Import ListNotations.

Set Implicit Arguments.

(** Function update, used for arrays indexed by worker or by node id. *)
Definition upd {A : Type} (f : nat -> A) (i : nat) (x : A) : nat -> A :=
  fun j => if Nat.eqb j i then x else f j.

Lemma upd_same {A} (f : nat -> A) i x : upd f i x i = x.
Proof. unfold upd. now rewrite Nat.eqb_refl. Qed.

Lemma upd_diff {A} (f : nat -> A) i j x : j <> i -> upd f i x j = f j.
Proof. intros H. unfold upd. apply Nat.eqb_neq in H. now rewrite H. Qed.

(** [MOD(a,b)] of src/ports.h:34, the choice of the worker by a hash:
    [#define MOD(a,b) (((a) % 1031) % (b))]. *)
Definition lane_of (lanes : nat) (hash : N) : nat :=
  N.to_nat ((hash mod 1031) mod N.of_nat lanes)%N.

(** Is a list empty? *)
Definition isnil {A} (l : list A) : bool := match l with [] => true | _ => false end.

Lemma isnil_true {A} (l : list A) : isnil l = true <-> l = [].
Proof. destruct l; simpl; split; congruence. Qed.
Lemma isnil_false {A} (l : list A) : isnil l = false <-> l <> [].
Proof. destruct l; simpl; split; congruence. Qed.

(** Number of indices below [n] satisfying [f]. *)
Fixpoint cnt (n : nat) (f : nat -> bool) : nat :=
  match n with
  | 0 => 0
  | S k => cnt k f + (if f k then 1 else 0)
  end.

Lemma cnt_ext n f g : (forall i, i < n -> f i = g i) -> cnt n f = cnt n g.
Proof.
  induction n; simpl; intros H; auto.
  rewrite IHn by (intros; apply H; lia). now rewrite (H n) by lia.
Qed.

Lemma cnt_up n f g i :
  i < n -> f i = false -> g i = true -> (forall j, j < n -> j <> i -> f j = g j) ->
  cnt n g = S (cnt n f).
Proof.
  induction n; simpl; intros Hi Hf Hg H; [lia|].
  destruct (Nat.eq_dec i n) as [->|Hn].
  - rewrite Hf, Hg. rewrite (@cnt_ext n f g); [lia|]. intros; apply H; lia.
  - rewrite IHn by (auto; try lia; intros; apply H; lia).
    rewrite (H n) by lia. lia.
Qed.

Lemma cnt_zero n f : cnt n f = 0 <-> (forall i, i < n -> f i = false).
Proof.
  induction n; simpl.
  - split; intros; auto; lia.
  - split.
    + intros H i Hi. destruct (f n) eqn:E; [lia|].
      destruct (Nat.eq_dec i n) as [->|]; auto. apply IHn; lia.
    + intros H. rewrite (H n) by lia. rewrite (proj2 IHn); auto.
Qed.

Lemma cnt_le n f : cnt n f <= n.
Proof. induction n; simpl; auto. destruct (f n); lia. Qed.

Lemma cnt_all n f : (forall i, i < n -> f i = true) -> cnt n f = n.
Proof.
  induction n; simpl; intros H; auto. rewrite (H n) by lia.
  rewrite IHn by (intros; apply H; lia). lia.
Qed.

Lemma cnt_pos n f i : i < n -> f i = true -> 0 < cnt n f.
Proof.
  intros Hi Hf. destruct (cnt n f) eqn:E; [|lia].
  apply cnt_zero with (i := i) in E; auto. congruence.
Qed.

(** Concatenation of a family of lists indexed below [n]. *)
Fixpoint flat {A} (n : nat) (f : nat -> list A) : list A :=
  match n with
  | 0 => []
  | S k => flat k f ++ f k
  end.

Lemma flat_ext {A} n (f g : nat -> list A) :
  (forall i, i < n -> f i = g i) -> flat n f = flat n g.
Proof.
  induction n; simpl; intros H; auto.
  rewrite IHn by (intros; apply H; lia). now rewrite (H n) by lia.
Qed.

Lemma flat_upd_ge {A} n (f : nat -> list A) i x : n <= i -> flat n (upd f i x) = flat n f.
Proof. intros H. apply flat_ext. intros. apply upd_diff. lia. Qed.

Lemma flat_nil {A} n (f : nat -> list A) :
  flat n f = [] <-> (forall i, i < n -> f i = []).
Proof.
  induction n; simpl.
  - split; intros; auto; lia.
  - split.
    + intros H i Hi. apply app_eq_nil in H as [H1 H2].
      destruct (Nat.eq_dec i n) as [->|]; auto. apply IHn; auto; lia.
    + intros H. rewrite (proj2 IHn); auto. simpl. apply H; lia.
Qed.

Lemma flat_split {A} n (f : nat -> list A) i :
  i < n -> exists R, Permutation (flat n f) (f i ++ R) /\
                     forall x, Permutation (flat n (upd f i x)) (x ++ R).
Proof.
  induction n; intros Hi; [lia|].
  destruct (Nat.eq_dec i n) as [->|Hn].
  - exists (flat n f). split; simpl.
    + apply Permutation_app_comm.
    + intros x. rewrite flat_upd_ge by lia. rewrite upd_same. apply Permutation_app_comm.
  - destruct IHn as (R & H1 & H2); [lia|].
    exists (R ++ f n). split; simpl.
    + rewrite app_assoc. now apply Permutation_app_tail.
    + intros x. rewrite upd_diff by lia. rewrite app_assoc. now apply Permutation_app_tail.
Qed.

Lemma flat_in {A} n (f : nat -> list A) x :
  In x (flat n f) <-> exists i, i < n /\ In x (f i).
Proof.
  induction n; simpl.
  - split; [tauto|intros (i & H & _); lia].
  - rewrite in_app_iff, IHn. split.
    + intros [(i & Hi & H)|H]; [exists i|exists n]; auto.
    + intros (i & Hi & H). destruct (Nat.eq_dec i n) as [->|]; auto.
      left. exists i. split; auto. lia.
Qed.

(** Reflexive transitive closure, extended on the right. *)
Inductive star {A} (R : A -> A -> Prop) (a : A) : A -> Prop :=
| star_refl : star R a a
| star_step b c : star R a b -> R b c -> star R a c.

Lemma star_one {A} (R : A -> A -> Prop) a b : R a b -> star R a b.
Proof. intros H. eapply star_step; eauto. constructor. Qed.

Lemma star_trans {A} (R : A -> A -> Prop) a b c : star R a b -> star R b c -> star R a c.
Proof. intros H1 H2. induction H2; auto. eapply star_step; eauto. Qed.

Lemma star_cons {A} (R : A -> A -> Prop) a b c : R a b -> star R b c -> star R a c.
Proof. intros H1 H2. eapply star_trans; eauto. now apply star_one. Qed.

(** Invariants are preserved along executions. *)
Lemma star_inv {A} (R : A -> A -> Prop) (I : A -> Prop) a b :
  (forall x y, I x -> R x y -> I y) -> I a -> star R a b -> I b.
Proof. intros H Ha Hs. induction Hs; eauto. Qed.

Lemma lane_of_lt lanes h : 0 < lanes -> lane_of lanes h < lanes.
Proof.
  intros H. unfold lane_of.
  assert ((h mod 1031) mod N.of_nat lanes < N.of_nat lanes)%N by (apply N.mod_lt; lia).
  lia.
Qed.

(** A tactic proving permutations between concatenations of the same pieces. *)
Lemma perm_rot_app {A} (l x r : list A) : Permutation l (r ++ x ++ []) -> Permutation l (x ++ r).
Proof. intros H. rewrite H, app_nil_r. apply Permutation_app_comm. Qed.
Lemma perm_rot_cons {A} (l : list A) a r : Permutation l (r ++ [a]) -> Permutation l (a :: r).
Proof. intros H. rewrite H. symmetry. apply Permutation_cons_append. Qed.
Lemma perm_pad {A} (l r : list A) : Permutation (l ++ []) (r ++ []) -> Permutation l r.
Proof. now rewrite !app_nil_r. Qed.

Ltac perm_norm := repeat rewrite <- app_assoc; cbn [app].
Ltac perm_loop n :=
  lazymatch goal with
  | |- Permutation ?l ?l => reflexivity
  | |- Permutation (?a :: ?l) (?a :: ?r) => apply perm_skip; perm_loop 30
  | |- Permutation (?x ++ ?l) (?x ++ ?r) => apply Permutation_app_head; perm_loop 30
  | |- Permutation ?l (_ :: _) =>
      lazymatch n with 0 => fail | S ?m => apply perm_rot_cons; perm_norm; perm_loop m end
  | |- Permutation ?l (_ ++ _) =>
      lazymatch n with 0 => fail | S ?m => apply perm_rot_app; perm_norm; perm_loop m end
  end.
Ltac perm_solve :=
  repeat rewrite app_nil_r; apply perm_pad; perm_norm; perm_loop 30.

Goal forall A (a b c d : list A) x y,
  Permutation (a ++ (x :: b) ++ c ++ y :: d) (y :: (d ++ [] ++ c) ++ b ++ x :: a).
Proof. intros. perm_solve. Qed.
