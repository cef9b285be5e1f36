(** C91: lists of nodes are kept in good order by the operations on them. *)
From Coq Require Import List Arith NArith Lia Bool Permutation.
From Verif Require Import Base Lists.
Import ListNotations.

Set Implicit Arguments.

(** The pointer at [p] leads to the nodes in [l], each of them pointing back to where it is pointed to from. *)
Fixpoint lists (s : heap) (p : loc) (l : list nat) : Prop :=
  match l with
  | [] => deref s p = None
  | n :: r => deref s p = Some n /\ prv s n = Some p /\ lists s (Nx n) r
  end.

(** The last member of a list *)
Definition final (l : list nat) : option nat := match l with [] => None | n :: r => Some (last r n) end.

(** ** Parts of lists *)

Fixpoint seg (s : heap) (p : loc) (l : list nat) : Prop :=
  match l with
  | [] => True
  | n :: r => deref s p = Some n /\ prv s n = Some p /\ seg s (Nx n) r
  end.
Fixpoint endloc (p : loc) (l : list nat) : loc := match l with [] => p | n :: r => endloc (Nx n) r end.

Lemma lists_seg s l : forall p, lists s p l <-> seg s p l /\ deref s (endloc p l) = None.
Proof. induction l as [|n r IH]; intros p; simpl; [tauto|]. rewrite IH. tauto. Qed.

Lemma seg_app s a : forall p b, seg s p (a ++ b) <-> seg s p a /\ seg s (endloc p a) b.
Proof. induction a as [|n r IH]; intros p b; simpl; [tauto|]. rewrite IH. tauto. Qed.

Lemma endloc_app a : forall p b, endloc p (a ++ b) = endloc (endloc p a) b.
Proof. induction a; intros; simpl; auto. Qed.

Lemma lists_app s p a b : lists s p (a ++ b) <-> seg s p a /\ lists s (endloc p a) b.
Proof. rewrite !lists_seg, seg_app, endloc_app. tauto. Qed.

Lemma endloc_in l : forall p, endloc p l = p /\ l = [] \/ exists z, In z l /\ endloc p l = Nx z.
Proof.
  induction l as [|n r IH]; intros p; simpl; [left; auto|right].
  destruct (IH (Nx n)) as [[E ->]|(z & I & E)]; [exists n; auto|exists z; auto].
Qed.

Lemma last_cons (r : list nat) : forall m n, last (m :: r) n = last r m.
Proof. induction r as [|x r IH]; intros m n; [reflexivity|]. change (last (m :: x :: r) n) with (last (x :: r) n). now rewrite !IH. Qed.

Lemma endloc_last r : forall n, endloc (Nx n) r = Nx (last r n).
Proof. induction r as [|m r IH]; intros n; [reflexivity|]. rewrite last_cons. apply IH. Qed.

Lemma endloc_final l p : match final l with Some z => endloc p l = Nx z | None => endloc p l = p end.
Proof. destruct l as [|n r]; simpl; [reflexivity|]. apply endloc_last. Qed.

Lemma final_in l z : final l = Some z -> In z l.
Proof.
  destruct l as [|n r]; simpl; [discriminate|]. intros [= <-].
  revert n. induction r as [|m r IH]; intros n; [simpl; auto|]. rewrite last_cons. right. apply IH.
Qed.

Lemma final_app a b : final (a ++ b) = match final b with Some z => Some z | None => final a end.
Proof.
  destruct b as [|m b]; [rewrite app_nil_r; reflexivity|]. simpl. destruct a as [|n a]; simpl; [reflexivity|]. f_equal.
  revert n. induction a as [|x a IH]; intros n; simpl app; rewrite last_cons; auto.
Qed.

(** ** Memory *)

Lemma loc_eqb_spec a b : reflect (a = b) (loc_eqb a b).
Proof. destruct a, b; simpl; try (constructor; congruence); destruct (Nat.eqb_spec n n0) || destruct (Nat.eqb_spec h h0); constructor; congruence. Qed.

Lemma deref_store_eq s p v : deref (store s p v) p = v.
Proof. destruct p; simpl; apply upd_same. Qed.
Lemma deref_store_ne s p v y : y <> p -> deref (store s p v) y = deref s y.
Proof. destruct p, y; simpl; intros; auto; apply upd_diff; congruence. Qed.
Lemma prv_store s p v n : prv (store s p v) n = prv s n.
Proof. destruct p; reflexivity. Qed.
Lemma bck_store s p v n : bck (store s p v) n = bck s n.
Proof. destruct p; reflexivity. Qed.
Lemma deref_set_prv s n v p : deref (set_prv s n v) p = deref s p.
Proof. destruct p; reflexivity. Qed.
Lemma deref_set_bck s n v p : deref (set_bck s n v) p = deref s p.
Proof. destruct p; reflexivity. Qed.
Lemma prv_set_eq s n v : prv (set_prv s n v) n = v.
Proof. apply upd_same. Qed.
Lemma prv_set_ne s n v m : m <> n -> prv (set_prv s n v) m = prv s m.
Proof. apply upd_diff. Qed.

Lemma seg_frame s s' l : forall p, NoDup (p :: map Nx l) ->
  (forall y, In y (p :: map Nx l) -> y <> endloc p l -> deref s' y = deref s y) ->
  (forall x, In x l -> prv s' x = prv s x) -> seg s p l -> seg s' p l.
Proof.
  induction l as [|n r IH]; intros p N D P S; simpl in *; auto. destruct S as (S1 & S2 & S3). inversion N as [|? ? N1 N2]; subst.
  split; [|split].
  - rewrite D; auto. destruct (endloc_in r (Nx n)) as [[E _]|(z & I & E)]; rewrite E; intros ->; apply N1; simpl; auto.
    right. now apply in_map.
  - rewrite P; auto.
  - apply IH; auto.
Qed.

Lemma lists_frame s s' l : forall p, deref s' p = deref s p ->
  (forall x, In x l -> nxt s' x = nxt s x /\ prv s' x = prv s x) -> lists s p l -> lists s' p l.
Proof.
  induction l as [|n r IH]; intros p D P S; simpl in *; [congruence|]. destruct S as (S1 & S2 & S3).
  split; [congruence|]. split; [rewrite (proj2 (P n (or_introl eq_refl))); auto|]. apply IH; auto.
  simpl. exact (proj1 (P n (or_introl eq_refl))).
Qed.

Lemma nodup_locs h l : NoDup l -> NoDup (Hd h :: map Nx l).
Proof.
  intros N. constructor.
  - intros I. apply in_map_iff in I. destruct I as (x & E & _). discriminate.
  - apply FinFun.Injective_map_NoDup; auto. intros a b [=]; auto.
Qed.

(** The contents of a list are determined by the pointers. *)
Lemma lists_fun s l : forall p l', lists s p l -> lists s p l' -> l = l'.
Proof.
  induction l as [|n r IH]; intros p [|m l'] A B; simpl in *; auto; try (destruct A; congruence); try (destruct B; congruence).
  destruct A as (A1 & A2 & A3), B as (B1 & B2 & B3). assert (n = m) by congruence. subst m. f_equal. eauto.
Qed.

Lemma last_from_lists s r : forall n fuel, lists s (Nx n) r -> length r < fuel -> last_from fuel n s = Some (last r n).
Proof.
  induction r as [|m r IH]; intros n [|fuel] S L; simpl in *; try lia; [now rewrite S|].
  destruct S as (-> & _ & S). rewrite (IH m fuel S) by lia. now rewrite <- (last_cons r m n).
Qed.

(** ** What the operations are supposed to do *)

(** The contents of each list and queue, those in existence, which of them are queues, and the nodes that are in none of them but
    fit to be put in one *)
Record abs := mkAbs { cont : nat -> list nat; live : nat -> bool; isq : nat -> bool; loose : nat -> bool }.

Record sane (a : abs) : Prop := {
  st_nodup : forall h, live a h = true -> NoDup (cont a h);
  st_disj : forall h k n, live a h = true -> live a k = true -> In n (cont a h) -> In n (cont a k) -> h = k;
  st_apart : forall n h, loose a n = true -> live a h = true -> ~ In n (cont a h)
}.

Record stands (s : heap) (a : abs) : Prop := {
  st_sane : sane a;
  st_lists : forall h, live a h = true -> lists s (Hd h) (cont a h);
  st_loose : forall n, loose a n = true -> prv s n = None /\ nxt s n = None;
  st_queue : forall q, live a q = true -> isq a q = true -> bck s q = final (cont a q)
}.

Definition remove1 (n : nat) (l : list nat) : list nat := filter (fun m => negb (m =? n)) l.

(** When an operation may be used, if lists of up to [fuel] nodes can be searched to the end *)
Definition allowed (fuel : nat) (o : op) (a : abs) : Prop :=
  match o with
  | Push n h => loose a n = true /\ live a h = true /\ isq a h = false
  | Sever n => exists h, live a h = true /\ isq a h = false /\ In n (cont a h)
  | Create q => live a q = false
  | Enqueue n q => loose a n = true /\ live a q = true /\ isq a q = true
  | Append q r => q <> r /\ live a q = true /\ isq a q = true /\ live a r = true /\ isq a r = true
  | Convert h q => live a h = true /\ isq a h = false /\ live a q = false /\ length (cont a h) <= fuel
  | Revert q h => live a q = true /\ isq a q = true /\ live a h = true /\ isq a h = false /\ cont a h = []
  | Cut h k d => h <> d /\ live a h = true /\ isq a h = false /\ live a d = true /\ isq a d = false /\ length (cont a h) <= fuel
  end.

(** What it does to the contents *)
Definition effect (o : op) (a : abs) : abs :=
  match o with
  | Push n h => mkAbs (upd (cont a) h (n :: cont a h)) (live a) (isq a) (upd (loose a) n false)
  | Sever n => mkAbs (fun h => remove1 n (cont a h)) (live a) (isq a) (upd (loose a) n true)
  | Create q => mkAbs (upd (cont a) q []) (upd (live a) q true) (upd (isq a) q true) (loose a)
  | Enqueue n q => mkAbs (upd (cont a) q (cont a q ++ [n])) (live a) (isq a) (upd (loose a) n false)
  | Append q r => mkAbs (upd (cont a) q (cont a q ++ cont a r)) (upd (live a) r false) (isq a) (loose a)
  | Convert h q => mkAbs (upd (upd (cont a) q (cont a h)) h []) (upd (live a) q true) (upd (isq a) q true) (loose a)
  | Revert q h => mkAbs (upd (cont a) h (cont a q)) (upd (live a) q false) (isq a) (loose a)
  | Cut h k d => mkAbs (upd (upd (cont a) d (skipn k (cont a h) ++ cont a d)) h (firstn k (cont a h))) (live a) (isq a) (loose a)
  end.

Lemma updb {A} (f : nat -> A) i x j : (j = i /\ upd f i x j = x) \/ (j <> i /\ upd f i x j = f j).
Proof. destruct (Nat.eq_dec j i); [left|right]; split; auto; [subst; apply upd_same|apply upd_diff; auto]. Qed.
Ltac cu := match goal with
  | |- context [upd ?f ?i ?x ?j] =>
      let E := fresh "E" in let N := fresh "N" in destruct (updb f i x j) as [[N E]|[N E]]; rewrite E in *; clear E; try subst j
  | H : context [upd ?f ?i ?x ?j] |- _ =>
      let E := fresh "E" in let N := fresh "N" in destruct (updb f i x j) as [[N E]|[N E]]; rewrite E in *; clear E; try subst j
  end.
Ltac upds := repeat (rewrite upd_same || rewrite upd_diff by congruence).

Lemma in_remove1 n l x : In x (remove1 n l) <-> In x l /\ x <> n.
Proof.
  unfold remove1. rewrite filter_In. destruct (Nat.eqb_spec x n); simpl; intuition congruence.
Qed.

Lemma nodup_app (a b : list nat) : NoDup a -> NoDup b -> (forall x, In x a -> ~ In x b) -> NoDup (a ++ b).
Proof.
  induction a as [|x a IH]; simpl; intros A B D; auto. inversion A; subst. constructor.
  - rewrite in_app_iff. intros [I|I]; [auto|]. exact (D x (or_introl eq_refl) I).
  - apply IH; auto.
Qed.

Lemma nodup_app_inv (a b : list nat) : NoDup (a ++ b) -> NoDup a /\ NoDup b /\ (forall x, In x a -> ~ In x b).
Proof.
  induction a as [|x a IH]; simpl; intros H.
  - split; [constructor|]. split; [exact H|]. intros x [].
  - inversion H as [|? ? N1 N2]; subst. destruct (IH N2) as (A & B & C). rewrite in_app_iff in N1.
    repeat split; auto; [constructor; auto|]. intros y [->|I]; auto.
Qed.

Ltac dj S := match goal with
  | L1 : live ?a ?h = true, L2 : live ?a ?k = true, I1 : In ?n (cont ?a ?h), I2 : In ?n (cont ?a ?k) |- _ =>
      tryif constr_eq h k then fail else
      match goal with
      | E : h = k |- _ => fail 1
      | _ => let E := fresh "E" in pose proof (st_disj S h k n L1 L2 I1 I2) as E
      end
  | L1 : loose ?a ?n = true, L2 : live ?a ?k = true, I2 : In ?n (cont ?a ?k) |- _ => destruct (st_apart S n k L1 L2 I2)
  end.

(** The contents make sense after every operation. *)
Lemma sane_effect fuel o a : sane a -> allowed fuel o a -> sane (effect o a).
Proof.
  intros S A. pose proof (st_nodup S) as ND. destruct o as [n h|n|q|n q|q r|h q|q h|h k d]; simpl in A.
  - destruct A as (L & H & Q). split; simpl.
    + intros k Lk. cu; auto. constructor; auto. intros I. dj S.
    + intros k1 k2 x L1 L2 I1 I2. repeat cu; simpl in *; auto; repeat match goal with H : _ \/ _ |- _ => destruct H; subst end;
        auto; repeat dj S; auto; congruence.
    + intros x k Lx Lk. repeat cu; simpl; try discriminate; intros I; try destruct I as [I|I]; try congruence; dj S.
  - destruct A as (h & H & Q & I). split; simpl.
    + intros k Lk. apply NoDup_filter. auto.
    + intros k1 k2 x L1 L2. rewrite !in_remove1. intros [I1 _] [I2 _]. repeat dj S; auto.
    + intros x k Lx Lk. rewrite in_remove1. intros [Ix Nx']. cu; [congruence|]. dj S.
  - split; simpl.
    + intros k Lk. repeat cu; auto; constructor.
    + intros k1 k2 x L1 L2 I1 I2. repeat cu; simpl in *; try tauto; repeat dj S; auto; congruence.
    + intros x k Lx Lk I. repeat cu; simpl in *; try tauto; dj S.
  - destruct A as (L & H & Q). split; simpl.
    + intros k Lk. cu; auto. apply nodup_app; auto; [repeat constructor; simpl; tauto|]. intros x I [<-|[]]. dj S.
    + intros k1 k2 x L1 L2 I1 I2. repeat cu; rewrite ?in_app_iff in *; simpl in *;
        repeat match goal with H : _ \/ _ |- _ => destruct H; subst end; try tauto; repeat dj S; auto; congruence.
    + intros x k Lx Lk I. repeat cu; try discriminate; rewrite ?in_app_iff in *; simpl in *;
        repeat match goal with H : _ \/ _ |- _ => destruct H; subst end; try tauto; try congruence; dj S.
  - destruct A as (NE & L1 & Q1 & L2 & Q2). split; simpl.
    + intros k Lk. repeat cu; auto; try discriminate. apply nodup_app; auto. intros x I1 I2. dj S. congruence.
    + intros k1 k2 x K1 K2 I1 I2. repeat cu; try discriminate; rewrite ?in_app_iff in *;
        repeat match goal with H : _ \/ _ |- _ => destruct H end; repeat dj S; congruence.
    + intros x k Lx Lk I. repeat cu; try discriminate; rewrite ?in_app_iff in *;
        repeat match goal with H : _ \/ _ |- _ => destruct H end; dj S.
  - destruct A as (L1 & Q1 & L2 & F). assert (h <> q) by congruence. split; simpl.
    + intros k Lk. repeat cu; auto; try constructor; try congruence.
    + intros k1 k2 x K1 K2 I1 I2. repeat cu; simpl in *; try tauto; repeat dj S; congruence.
    + intros x k Lx Lk I. repeat cu; simpl in *; try tauto; dj S.
  - destruct A as (L1 & Q1 & L2 & Q2 & E). assert (h <> q) by congruence. split; simpl.
    + intros k Lk. repeat cu; auto; discriminate.
    + intros k1 k2 x K1 K2 I1 I2. repeat cu; try discriminate; repeat dj S; congruence.
    + intros x k Lx Lk I. repeat cu; try discriminate; dj S.
  - destruct A as (NE & L1 & Q1 & L2 & Q2 & F).
    pose proof (firstn_skipn k (cont a h)) as FS. pose proof (ND h L1) as NH. rewrite <- FS in NH.
    destruct (nodup_app_inv _ _ NH) as (NF & NS & NFS).
    assert (IF : forall x, In x (firstn k (cont a h)) -> In x (cont a h)) by (intros; rewrite <- FS, in_app_iff; auto).
    assert (IS : forall x, In x (skipn k (cont a h)) -> In x (cont a h)) by (intros; rewrite <- FS, in_app_iff; auto).
    split; simpl.
    + intros j Lj. repeat cu; auto. apply nodup_app; auto. intros x I1 I2. apply IS in I1. dj S. congruence.
    + intros k1 k2 x K1 K2 I1 I2. repeat cu; auto; rewrite ?in_app_iff in *;
        repeat match goal with H : _ \/ _ |- _ => destruct H end;
        try (exfalso; eapply NFS; eassumption);
        repeat match goal with H : In _ (firstn _ _) |- _ => apply IF in H | H : In _ (skipn _ _) |- _ => apply IS in H end;
        repeat dj S; congruence.
    + intros x j Lx Lj I. repeat cu; rewrite ?in_app_iff in *; repeat match goal with H : _ \/ _ |- _ => destruct H end;
        repeat match goal with H : In _ (firstn _ _) |- _ => apply IF in H | H : In _ (skipn _ _) |- _ => apply IS in H end; dj S.
Qed.

(** ** The operations do that *)

Lemma head_lists s p l : lists s p l -> deref s p = match l with [] => None | n :: _ => Some n end.
Proof. destruct l; simpl; tauto. Qed.

Lemma hdr_of s a h : stands s a -> live a h = true -> hdr s h = match cont a h with [] => None | n :: _ => Some n end.
Proof. intros S L. exact (head_lists s (Hd h) _ (st_lists S h L)). Qed.

Lemma kept s s' l h : lists s (Hd h) l -> hdr s' h = hdr s h -> (forall x, In x l -> nxt s' x = nxt s x /\ prv s' x = prv s x) ->
  lists s' (Hd h) l.
Proof. intros S E F. apply lists_frame with (s := s); auto. Qed.

Definition does (fuel : nat) (o : op) : Prop :=
  forall s a, stands s a -> allowed fuel o a -> exists s', exec fuel o s = Some s' /\ stands s' (effect o a).

Ltac ne := repeat match goal with
  | |- context [upd ?f ?i ?x ?i] => rewrite (@upd_same _ f i x)
  | |- context [upd ?f ?i ?x ?j] => rewrite (@upd_diff _ f i j x) by congruence
  end.

Lemma does_push fuel n h : does fuel (Push n h).
Proof.
  intros s a S A. pose proof (sane_effect fuel _ (st_sane S) A) as S'. pose proof (st_sane S) as SS. destruct A as (Ln & Lh & Q).
  destruct (st_loose S n Ln) as [P0 X0].
  pose proof (st_lists S h Lh) as SL. pose proof (hdr_of h S Lh) as HH. pose proof (st_apart SS n h Ln Lh) as NI.
  pose proof (st_nodup SS h Lh) as ND.
  simpl exec. unfold pushed. rewrite P0, X0. simpl deref. rewrite HH.
  destruct (cont a h) as [|m r] eqn:El.
  - eexists. split; [reflexivity|]. split; auto; simpl.
    + intros k Lk. destruct (Nat.eq_dec k h) as [->|Nk].
      * ne. rewrite El. simpl. ne. rewrite HH. auto.
      * ne. apply kept with (s := s); auto; [apply (st_lists S); auto|simpl; now ne|]. intros x I. simpl.
        assert (x <> n) by (intros ->; exact (st_apart SS n k Ln Lk I)). now ne.
    + intros x. cu; [discriminate|]. intros Lx. ne. apply (st_loose S); auto.
    + intros q Lq Iq. assert (q <> h) by congruence. ne. apply (st_queue S); auto.
  - destruct SL as (S1 & S2 & S3). assert (Nmn : m <> n) by (intros ->; apply NI; left; auto).
    inversion ND as [|? ? Nm Nr]; subst.
    assert (Im : In m (cont a h)) by (rewrite El; left; auto).
    eexists. split; [reflexivity|]. split; auto; simpl.
    + intros k Lk. destruct (Nat.eq_dec k h) as [->|Nk].
      * ne. rewrite El. simpl. ne. rewrite HH. repeat split; auto.
        apply lists_frame with (s := s); auto; simpl; [now ne|]. intros x Ix.
        assert (x <> n) by (intros ->; apply NI; right; auto). assert (x <> m) by (intros ->; tauto). now ne.
      * ne. apply kept with (s := s); auto; [apply (st_lists S); auto|simpl; now ne|]. intros x Ix. simpl.
        assert (x <> n) by (intros ->; exact (st_apart SS n k Ln Lk Ix)).
        assert (x <> m) by (intros ->; apply Nk; exact (st_disj SS k h m Lk Lh Ix Im)). now ne.
    + intros x. cu; [discriminate|]. intros Lx.
      assert (x <> m) by (intros ->; exact (st_apart SS m h Lx Lh Im)). ne. apply (st_loose S); auto.
    + intros q Lq Iq. assert (q <> h) by congruence. ne. apply (st_queue S); auto.
Qed.

Lemma remove1_notin n l : ~ In n l -> remove1 n l = l.
Proof.
  induction l as [|x l IH]; simpl; auto. intros N. destruct (Nat.eqb_spec x n); simpl; [tauto|]. f_equal. apply IH. tauto.
Qed.

Lemma remove1_split n u v : NoDup (u ++ n :: v) -> remove1 n (u ++ n :: v) = u ++ v.
Proof.
  intros N. apply NoDup_remove in N. destruct N as [_ N]. unfold remove1. rewrite filter_app. simpl. rewrite Nat.eqb_refl. simpl.
  fold (remove1 n u). fold (remove1 n v). rewrite in_app_iff in N. rewrite !remove1_notin; tauto.
Qed.

Lemma endloc_hd_ne h u n : ~ In n u -> endloc (Hd h) u <> Nx n.
Proof. intros N E. destruct (endloc_in u (Hd h)) as [[E1 _]|(z & I & E1)]; rewrite E1 in E; congruence. Qed.

Lemma does_sever fuel n : does fuel (Sever n).
Proof.
  intros s a S A. pose proof (sane_effect fuel _ (st_sane S) A) as S'. pose proof (st_sane S) as SS. destruct A as (h & Lh & Q & In').
  pose proof (st_lists S h Lh) as SL. pose proof (st_nodup SS h Lh) as ND.
  assert (OT : forall k, live a k = true -> k <> h -> ~ In n (cont a k)) by (intros k Lk Nk I; apply Nk; exact (st_disj SS k h n Lk Lh I In')).
  destruct (in_split _ _ In') as (u & v & El). rewrite El in SL, ND. apply lists_app in SL. destruct SL as (SU & D & P & SV).
  pose proof (remove1_split _ _ _ ND) as R1. pose proof (NoDup_remove _ _ _ ND) as [ND' NI]. rewrite in_app_iff in NI.
  destruct (nodup_app_inv _ _ ND') as (NU & NV & UV).
  assert (NE : endloc (Hd h) u <> Nx n) by (apply endloc_hd_ne; tauto).
  assert (IU : forall x, In x u -> In x (cont a h)) by (intros; rewrite El, in_app_iff; auto).
  assert (IV : forall x, In x v -> In x (cont a h)) by (intros; rewrite El, in_app_iff; simpl; auto).
  simpl exec. unfold severed. rewrite P, D, Nat.eqb_refl.
  set (p := endloc (Hd h) u) in *.
  assert (X1 : nxt (store s p (nxt s n)) n = nxt s n) by exact (deref_store_ne s (nxt s n) (not_eq_sym NE)). rewrite X1.
  pose proof (head_lists s (Nx n) v SV) as HV. simpl in HV. rewrite HV.
  (* where the pointers are afterwards *)
  assert (exists s', match v with
     | [] => Some (set_prv (store (store s p None) (Nx n) None) n None)
     | m :: _ => Some (set_prv (store (set_prv (store s p (Some m)) m (Some p)) (Nx n) None) n None)
     end = Some s' /\
     (forall y, deref s' y = if loc_eqb y (Nx n) then None else if loc_eqb y p then match v with [] => None | m :: _ => Some m end else deref s y) /\
     (forall x, prv s' x = if x =? n then None else match v with m :: _ => if x =? m then Some p else prv s x | [] => prv s x end) /\
     (forall q, bck s' q = bck s q)) as (s' & E' & DD & PP & BB).
  { assert (LE : forall y z, loc_eqb y z = true -> y = z) by (intros y z E; destruct (loc_eqb_spec y z); congruence).
    destruct v as [|m v].
    - eexists. split; [reflexivity|]. repeat split.
      + intros y. rewrite deref_set_prv. destruct (loc_eqb_spec y (Nx n)) as [->|Ny]; [apply deref_store_eq|].
        rewrite deref_store_ne by auto. destruct (loc_eqb_spec y p) as [->|Np]; [apply deref_store_eq|apply deref_store_ne; auto].
      + intros x. simpl. unfold upd. destruct (x =? n); auto. apply prv_store.
      + intros q. simpl. apply bck_store.
    - eexists. split; [reflexivity|]. repeat split.
      + intros y. rewrite deref_set_prv. destruct (loc_eqb_spec y (Nx n)) as [->|Ny]; [apply deref_store_eq|].
        rewrite deref_store_ne, deref_set_prv by auto.
        destruct (loc_eqb_spec y p) as [->|Np]; [apply deref_store_eq|apply deref_store_ne; auto].
      + intros x. simpl. unfold upd. destruct (x =? n); auto. destruct (x =? m); auto. apply prv_store.
      + intros q. simpl. apply bck_store. }
  exists s'. split.
  { destruct v as [|m v]; auto. destruct SV as (_ & PM & _). rewrite prv_store, PM, Nat.eqb_refl. rewrite prv_store, P. exact E'. }
  split; auto; simpl.
  - intros k Lk. destruct (Nat.eq_dec k h) as [->|Nk].
    + rewrite El, R1. apply lists_app. split.
      * apply seg_frame with (s := s); auto; [apply nodup_locs; auto| |].
        -- intros y Iy Ny. rewrite DD. destruct (loc_eqb_spec y (Nx n)) as [->|N1].
           ++ destruct Iy as [Iy|Iy]; [discriminate|]. apply in_map_iff in Iy. destruct Iy as (x & [= ->] & Ix). tauto.
           ++ fold p in Ny. destruct (loc_eqb_spec y p); [congruence|auto].
        -- intros x Ix. rewrite PP. destruct (Nat.eqb_spec x n) as [->|N1]; [tauto|]. destruct v as [|m v]; auto.
           destruct (Nat.eqb_spec x m) as [->|N2]; auto. destruct (UV m Ix). left. auto.
      * fold p. destruct v as [|m v]; simpl.
        -- rewrite DD. destruct (loc_eqb_spec p (Nx n)); auto. destruct (loc_eqb_spec p p); congruence.
        -- destruct SV as (_ & _ & SV). assert (Nmn : m <> n) by (intros ->; apply NI; right; left; auto).
           inversion NV as [|? ? NM NV2]; subst.
           assert (Npm : forall x, In x (m :: v) -> Nx x <> p).
           { intros x Ix Ep. destruct (endloc_in u (Hd h)) as [[E1 _]|(z & Iz & E1)]; fold p in E1; rewrite E1 in Ep; [discriminate|].
             injection Ep as ->. exact (UV z Iz Ix). }
           split; [|split].
           ++ rewrite DD. destruct (loc_eqb_spec p (Nx n)); [congruence|]. destruct (loc_eqb_spec p p); congruence.
           ++ rewrite PP. destruct (Nat.eqb_spec m n); [congruence|]. now rewrite Nat.eqb_refl.
           ++ assert (DX : forall x, In x (m :: v) -> deref s' (Nx x) = deref s (Nx x)).
              { intros x Ix. rewrite DD. destruct (loc_eqb_spec (Nx x) (Nx n)) as [[= ->]|]; [destruct NI; auto|].
                destruct (loc_eqb_spec (Nx x) p) as [E|]; auto. destruct (Npm x Ix E). }
              apply lists_frame with (s := s); auto; [apply DX; left; auto|]. intros x Ix. split.
              ** apply (DX x). right. auto.
              ** rewrite PP. destruct (Nat.eqb_spec x n) as [->|]; [destruct NI; simpl; auto|].
                 destruct (Nat.eqb_spec x m) as [->|]; [tauto|auto].
    + rewrite remove1_notin by auto. apply kept with (s := s); auto; [apply (st_lists S); auto| |].
      * change (deref s' (Hd k) = deref s (Hd k)). rewrite DD. destruct (loc_eqb_spec (Hd k) (Nx n)); [discriminate|].
        destruct (loc_eqb_spec (Hd k) p) as [E|]; auto.
        destruct (endloc_in u (Hd h)) as [[E1 _]|(z & Iz & E1)]; fold p in E1; congruence.
      * intros x Ix. assert (Nxn : x <> n) by (intros ->; exact (OT k Lk Nk Ix)). split.
        -- change (deref s' (Nx x) = deref s (Nx x)). rewrite DD. destruct (loc_eqb_spec (Nx x) (Nx n)); [congruence|].
           destruct (loc_eqb_spec (Nx x) p) as [E|]; auto.
           destruct (endloc_in u (Hd h)) as [[E1 _]|(z & Iz & E1)]; fold p in E1; [congruence|].
           assert (x = z) by congruence. subst z. destruct Nk. exact (st_disj SS k h x Lk Lh Ix (IU x Iz)).
        -- rewrite PP. destruct (Nat.eqb_spec x n); [congruence|]. destruct v as [|m v]; auto.
           destruct (Nat.eqb_spec x m) as [->|]; auto. destruct Nk. exact (st_disj SS k h m Lk Lh Ix (IV m (or_introl eq_refl))).
  - intros x. cu; intros Lx.
    + split; [rewrite PP; now rewrite Nat.eqb_refl|]. change (deref s' (Nx n) = None). rewrite DD.
      destruct (loc_eqb_spec (Nx n) (Nx n)); congruence.
    + destruct (st_loose S x Lx) as [Px Xx]. pose proof (st_apart SS x h Lx Lh) as Ax. split.
      * rewrite PP. destruct (Nat.eqb_spec x n); [congruence|]. destruct v as [|m v]; auto.
        destruct (Nat.eqb_spec x m) as [->|]; auto. destruct Ax. apply IV. left. auto.
      * change (deref s' (Nx x) = None). rewrite DD. destruct (loc_eqb_spec (Nx x) (Nx n)); [congruence|].
        destruct (loc_eqb_spec (Nx x) p) as [E|]; [|exact Xx].
        destruct (endloc_in u (Hd h)) as [[E1 _]|(z & Iz & E1)]; fold p in E1; [congruence|].
        assert (x = z) by congruence. subst z. destruct Ax; auto.
  - intros q Lq Iq. rewrite BB. rewrite remove1_notin; [apply (st_queue S); auto|]. apply OT; auto. congruence.
Qed.

Lemma does_create fuel q : does fuel (Create q).
Proof.
  intros s a S A. pose proof (sane_effect fuel _ (st_sane S) A) as S'. simpl in A. eexists. split; [reflexivity|]. split; auto; simpl.
  - intros k Lk. destruct (Nat.eq_dec k q) as [->|Nk]; [ne; simpl; now ne|]. revert Lk. ne. intros Lk.
    apply kept with (s := s); auto; [apply (st_lists S); auto|simpl; now ne].
  - apply (st_loose S).
  - intros k Lk Ik. destruct (Nat.eq_dec k q) as [->|Nk]; [now ne|]. revert Lk Ik. ne. apply (st_queue S).
Qed.

Lemma does_enqueue fuel n q : does fuel (Enqueue n q).
Proof.
  intros s a S A. pose proof (sane_effect fuel _ (st_sane S) A) as S'. pose proof (st_sane S) as SS. destruct A as (Ln & Lq & Q).
  destruct (st_loose S n Ln) as [P0 X0]. pose proof (st_lists S q Lq) as SL. pose proof (hdr_of q S Lq) as HH.
  pose proof (st_queue S q Lq Q) as BB. pose proof (st_apart SS n q Ln Lq) as NI. pose proof (st_nodup SS q Lq) as ND.
  simpl exec. unfold enqueued. rewrite X0, P0, HH, BB. pose proof (endloc_final (cont a q) (Hd q)) as EF.
  destruct (final (cont a q)) as [z|] eqn:Ez.
  - pose proof (final_in _ Ez) as Iz. assert (Nzn : z <> n) by congruence.
    pose proof SL as SL2. apply lists_seg in SL2. destruct SL2 as [SG SE]. rewrite EF in SE. simpl in SE.
    assert (is_none (match cont a q with [] => None | m :: _ => Some m end) = false) as -> by (destruct (cont a q); [destruct Iz|auto]).
    simpl. rewrite SE. simpl. eexists. split; [reflexivity|]. split; auto; simpl.
    + intros k Lk. destruct (Nat.eq_dec k q) as [->|Nk].
      * ne. apply lists_app. split.
        -- apply seg_frame with (s := s); auto; [apply nodup_locs; auto| |].
           ++ intros y Iy Ny. destruct y as [x|h]; simpl; auto. rewrite upd_diff; auto. congruence.
           ++ intros x Ix. simpl. assert (x <> n) by congruence. now ne.
        -- rewrite EF. simpl. ne. auto.
      * ne. apply kept with (s := s); auto; [apply (st_lists S); auto|]. intros x Ix. simpl.
        assert (x <> n) by (intros ->; exact (st_apart SS n k Ln Lk Ix)).
        assert (x <> z) by (intros ->; apply Nk; exact (st_disj SS k q z Lk Lq Ix Iz)). now ne.
    + intros x. cu; [discriminate|]. intros Lx. assert (x <> z) by (intros ->; exact (st_apart SS z q Lx Lq Iz)). ne.
      apply (st_loose S); auto.
    + intros k Lk Ik. destruct (Nat.eq_dec k q) as [->|Nk]; ne; [now rewrite final_app|]. apply (st_queue S); auto.
  - destruct (cont a q) as [|m r] eqn:El; [|discriminate]. simpl. eexists. split; [reflexivity|]. split; auto; simpl.
    + intros k Lk. destruct (Nat.eq_dec k q) as [->|Nk].
      * ne. rewrite El. simpl. ne. auto.
      * ne. apply kept with (s := s); auto; [apply (st_lists S); auto|simpl; now ne|]. intros x Ix. simpl.
        assert (x <> n) by (intros ->; exact (st_apart SS n k Ln Lk Ix)). now ne.
    + intros x. cu; [discriminate|]. intros Lx. ne. apply (st_loose S); auto.
    + intros k Lk Ik. destruct (Nat.eq_dec k q) as [->|Nk]; ne; [now rewrite El|]. apply (st_queue S); auto.
Qed.

Lemma does_append fuel q r : does fuel (Append q r).
Proof.
  intros s a S A. pose proof (sane_effect fuel _ (st_sane S) A) as S'. pose proof (st_sane S) as SS.
  destruct A as (NE & Lq & Q & Lr & R). pose proof (st_lists S q Lq) as SQ. pose proof (st_lists S r Lr) as SR.
  pose proof (hdr_of q S Lq) as HQ. pose proof (hdr_of r S Lr) as HR. pose proof (st_queue S q Lq Q) as BQ.
  pose proof (st_queue S r Lr R) as BR. pose proof (st_nodup SS q Lq) as NQ. pose proof (st_nodup SS r Lr) as NR.
  assert (DJ : forall x, In x (cont a q) -> ~ In x (cont a r)) by (intros x I1 I2; apply NE; exact (st_disj SS q r x Lq Lr I1 I2)).
  simpl exec. unfold append_nodes. rewrite HQ, HR, BQ, BR.
  destruct (cont a r) as [|f l] eqn:Er.
  - destruct (cont a q) as [|g m] eqn:Eq; simpl.
    + eexists. split; [reflexivity|]. split; auto; simpl.
      * intros k Lk. destruct (Nat.eq_dec k r) as [->|Nk]; revert Lk; ne; [discriminate|]. intros Lk. cu; [now rewrite Eq, Er|].
        apply (st_lists S); auto.
      * apply (st_loose S).
      * intros k Lk Ik. destruct (Nat.eq_dec k r) as [->|Nk]; revert Lk; ne; [discriminate|]. intros Lk. cu; [now rewrite Eq, Er|].
        apply (st_queue S); auto.
    + eexists. split; [reflexivity|]. destruct SQ as (Q1 & Q2 & Q3).
      assert (PS : forall x, prv (set_prv s g (Some (Hd q))) x = prv s x).
      { intros x. destruct (Nat.eq_dec x g) as [->|]; [rewrite prv_set_eq; auto|apply prv_set_ne; auto]. }
      split; auto; simpl.
      * intros k Lk. destruct (Nat.eq_dec k r) as [->|Nk]; revert Lk; ne; [discriminate|]. intros Lk.
        assert (lists (set_prv s g (Some (Hd q))) (Hd k) (cont a k)).
        { apply kept with (s := s); auto. apply (st_lists S); auto. }
        cu; [|auto]. rewrite Er, app_nil_r. auto.
      * intros x Lx. change (upd (prv s) g (Some (Hd q)) x) with (prv (set_prv s g (Some (Hd q))) x). rewrite PS. apply (st_loose S); auto.
      * intros k Lk Ik. destruct (Nat.eq_dec k r) as [->|Nk]; revert Lk; ne; [discriminate|]. intros Lk.
        cu; [rewrite Er, app_nil_r|]; apply (st_queue S); auto.
  - destruct SR as (R1 & R2 & R3). assert (If : In f (cont a r)) by (rewrite Er; left; auto).
    inversion NR as [|? ? NR1 NR2]; subst.
    destruct (cont a q) as [|g m] eqn:Eq; simpl.
    + eexists. split; [reflexivity|]. split; auto; simpl.
      * intros k Lk. destruct (Nat.eq_dec k r) as [->|Nk]; revert Lk; ne; [discriminate|]. intros Lk.
        destruct (Nat.eq_dec k q) as [->|Nq].
        -- ne. rewrite Eq, Er. simpl. ne. repeat split; auto. apply lists_frame with (s := s); auto.
           intros x Ix. simpl. assert (x <> f) by congruence. now ne.
        -- ne. apply kept with (s := s); auto; [apply (st_lists S); auto|simpl; now ne|]. intros x Ix. simpl.
           assert (x <> f) by (intros ->; apply Nk; exact (st_disj SS k r f Lk Lr Ix If)). now ne.
      * intros x Lx. assert (x <> f) by (intros ->; exact (st_apart SS f r Lx Lr If)). ne. apply (st_loose S); auto.
      * intros k Lk Ik. destruct (Nat.eq_dec k r) as [->|Nk]; revert Lk; ne; [discriminate|]. intros Lk.
        destruct (Nat.eq_dec k q) as [->|Nq]; ne; [now rewrite Eq, Er|]. apply (st_queue S); auto.
    + assert (ZR : nxt s (last l f) = None).
      { apply lists_seg in R3. destruct R3 as [_ R3]. rewrite endloc_last in R3. exact R3. }
      pose proof SQ as SQ2. apply lists_seg in SQ2. destruct SQ2 as [SG SE]. simpl in SE. rewrite endloc_last in SE. simpl in SE.
      set (z := last m g) in *. assert (Iz : In z (cont a q)) by (rewrite Eq; exact (@final_in (g :: m) z eq_refl)).
      rewrite ZR, SE, R2. simpl. rewrite Nat.eqb_refl. eexists. split; [reflexivity|].
      assert (Nzf : forall x, In x (f :: l) -> x <> z) by (intros x I ->; apply (DJ z); auto; rewrite Eq in Iz; auto).
      assert (Nqf : forall x, In x (g :: m) -> x <> f) by (intros x I ->; apply (DJ f); simpl; auto).
      split; auto; simpl.
      * intros k Lk. destruct (Nat.eq_dec k r) as [->|Nk]; revert Lk; ne; [discriminate|]. intros Lk.
        destruct (Nat.eq_dec k q) as [->|Nq].
        -- ne. rewrite Eq, Er. apply lists_app. split.
           ++ apply seg_frame with (s := s); auto; [apply nodup_locs; auto| |].
              ** intros y Iy Ny. simpl in Ny. rewrite endloc_last in Ny. destruct y as [x|h]; simpl; auto.
                 rewrite upd_diff; auto.
              ** intros x Ix. simpl. specialize (Nqf x Ix). now ne.
           ++ simpl. rewrite endloc_last. fold z. simpl. ne. repeat split; auto.
              apply lists_frame with (s := s); auto; simpl.
              ** pose proof (Nzf f (or_introl eq_refl)). now ne.
              ** intros x Ix. pose proof (Nzf x (or_intror Ix)). assert (x <> f) by congruence. now ne.
        -- ne. apply kept with (s := s); auto; [apply (st_lists S); auto|]. intros x Ix. simpl.
           assert (x <> f) by (intros ->; apply Nk; exact (st_disj SS k r f Lk Lr Ix If)).
           assert (x <> z) by (intros ->; apply Nq; exact (st_disj SS k q z Lk Lq Ix Iz)). now ne.
      * intros x Lx. assert (x <> f) by (intros ->; exact (st_apart SS f r Lx Lr If)).
        assert (x <> z) by (intros ->; exact (st_apart SS z q Lx Lq Iz)). ne. apply (st_loose S); auto.
      * intros k Lk Ik. destruct (Nat.eq_dec k r) as [->|Nk]; revert Lk; ne; [discriminate|]. intros Lk.
        destruct (Nat.eq_dec k q) as [->|Nq]; ne; [now rewrite final_app, Er|]. apply (st_queue S); auto.
Qed.

Lemma does_convert fuel h q : does fuel (Convert h q).
Proof.
  intros s a S A. pose proof (sane_effect fuel _ (st_sane S) A) as S'. pose proof (st_sane S) as SS. destruct A as (Lh & Ih & Lq & F).
  assert (NE : h <> q) by congruence. pose proof (st_lists S h Lh) as SL. pose proof (hdr_of h S Lh) as HH.
  pose proof (st_nodup SS h Lh) as ND. simpl exec. unfold queue_of. rewrite HH. destruct (cont a h) as [|n r] eqn:El.
  - eexists. split; [reflexivity|]. split; auto; simpl.
    + intros k Lk. destruct (Nat.eq_dec k h) as [->|Nk]; [ne; simpl; now ne|]. destruct (Nat.eq_dec k q) as [->|Nq].
      * ne. rewrite El. simpl. now ne.
      * revert Lk. ne. intros Lk. apply kept with (s := s); auto; [apply (st_lists S); auto|simpl; now ne].
    + apply (st_loose S).
    + intros k Lk Ik. destruct (Nat.eq_dec k q) as [->|Nq]; revert Lk Ik; ne; [now rewrite El|]. intros Lk Ik.
      assert (k <> h) by congruence. ne. apply (st_queue S); auto.
  - destruct SL as (S1 & S2 & S3). inversion ND as [|? ? N1 N2]; subst. assert (In' : In n (cont a h)) by (rewrite El; left; auto).
    rewrite last_from_lists with (r := r).
    2:{ apply lists_frame with (s := s); auto. intros x Ix. simpl. assert (x <> n) by congruence. now ne. }
    2:{ simpl in F. lia. }
    eexists. split; [reflexivity|]. split; auto; simpl.
    + intros k Lk. destruct (Nat.eq_dec k h) as [->|Nk]; [ne; simpl; now ne|]. destruct (Nat.eq_dec k q) as [->|Nq].
      * ne. rewrite El. simpl. ne. repeat split; auto. apply lists_frame with (s := s); auto.
        intros x Ix. simpl. assert (x <> n) by congruence. now ne.
      * revert Lk. ne. intros Lk. apply kept with (s := s); auto; [apply (st_lists S); auto|simpl; now ne|].
        intros x Ix. simpl. assert (x <> n) by (intros ->; apply Nk; exact (st_disj SS k h n Lk Lh Ix In')). now ne.
    + intros x Lx. assert (x <> n) by (intros ->; exact (st_apart SS n h Lx Lh In')). ne. apply (st_loose S); auto.
    + intros k Lk Ik. destruct (Nat.eq_dec k q) as [->|Nq]; revert Lk Ik; ne; [now rewrite El|]. intros Lk Ik.
      assert (k <> h) by congruence. ne. apply (st_queue S); auto.
Qed.

Lemma does_revert fuel q h : does fuel (Revert q h).
Proof.
  intros s a S A. pose proof (sane_effect fuel _ (st_sane S) A) as S'. pose proof (st_sane S) as SS. destruct A as (Lq & Iq & Lh & Ih & E).
  assert (NE : h <> q) by congruence. pose proof (st_lists S q Lq) as SL. pose proof (hdr_of q S Lq) as HQ.
  pose proof (st_nodup SS q Lq) as ND. simpl exec. unfold nodes_of. rewrite HQ. destruct (cont a q) as [|n r] eqn:El.
  - eexists. split; [reflexivity|]. split; auto; simpl.
    + intros k Lk. destruct (Nat.eq_dec k q) as [->|Nq]; revert Lk; ne; [discriminate|]. intros Lk.
      destruct (Nat.eq_dec k h) as [->|Nk]; ne; [rewrite El; simpl; now ne|].
      apply kept with (s := s); auto; [apply (st_lists S); auto|simpl; now ne].
    + apply (st_loose S).
    + intros k Lk Ik. destruct (Nat.eq_dec k q) as [->|Nq]; revert Lk; ne; [discriminate|]. intros Lk.
      assert (k <> h) by congruence. ne. apply (st_queue S); auto.
  - destruct SL as (S1 & S2 & S3). inversion ND as [|? ? N1 N2]; subst. assert (In' : In n (cont a q)) by (rewrite El; left; auto).
    eexists. split; [reflexivity|]. split; auto; simpl.
    + intros k Lk. destruct (Nat.eq_dec k q) as [->|Nq]; revert Lk; ne; [discriminate|]. intros Lk.
      destruct (Nat.eq_dec k h) as [->|Nk]; ne.
      * rewrite El. simpl. ne. repeat split; auto. apply lists_frame with (s := s); auto.
        intros x Ix. simpl. assert (x <> n) by congruence. now ne.
      * apply kept with (s := s); auto; [apply (st_lists S); auto|simpl; now ne|]. intros x Ix. simpl.
        assert (x <> n) by (intros ->; apply Nq; exact (st_disj SS k q n Lk Lq Ix In')). now ne.
    + intros x Lx. assert (x <> n) by (intros ->; exact (st_apart SS n q Lx Lq In')). ne. apply (st_loose S); auto.
    + intros k Lk Ik. destruct (Nat.eq_dec k q) as [->|Nq]; revert Lk; ne; [discriminate|]. intros Lk.
      assert (k <> h) by congruence. ne. apply (st_queue S); auto.
Qed.

Lemma after_spec s l : forall p k, lists s p l -> after k p s = endloc p (firstn k l).
Proof.
  induction l as [|n r IH]; intros p [|k] S; simpl in *; auto; [now rewrite S|]. destruct S as (-> & _ & S). auto.
Qed.

Lemma does_cut fuel h k d : does fuel (Cut h k d).
Proof.
  intros s a S A. pose proof (sane_effect fuel _ (st_sane S) A) as S'. pose proof (st_sane S) as SS.
  destruct A as (NE & Lh & Ih & Ld & Id & F). pose proof (st_lists S h Lh) as SL. pose proof (st_lists S d Ld) as SD.
  pose proof (st_nodup SS h Lh) as ND. pose proof (st_nodup SS d Ld) as NDd.
  assert (DJ : forall x, In x (cont a h) -> ~ In x (cont a d)) by (intros x I1 I2; apply NE; exact (st_disj SS h d x Lh Ld I1 I2)).
  simpl exec. rewrite (@after_spec s (cont a h) (Hd h) k SL). simpl in S'. pose proof (firstn_skipn k (cont a h)) as FS.
  remember (firstn k (cont a h)) as u eqn:Eu. remember (skipn k (cont a h)) as v eqn:Ev. rewrite <- FS in SL, ND, DJ.
  apply lists_app in SL. destruct SL as [SU SV]. destruct (nodup_app_inv _ _ ND) as (NU & NV & UV).
  assert (IU : forall x, In x u -> In x (cont a h)) by (intros; rewrite <- FS, in_app_iff; auto).
  assert (IV : forall x, In x v -> In x (cont a h)) by (intros; rewrite <- FS, in_app_iff; auto).
  set (p := endloc (Hd h) u) in *.
  assert (PE : p = Hd h \/ exists z, In z u /\ p = Nx z).
  { destruct (endloc_in u (Hd h)) as [[E _]|(z & I & E)]; [left|right; exists z]; auto. }
  assert (PX : forall x, ~ In x u -> Nx x <> p) by (intros x N E; destruct PE as [E1|(z & I & E1)]; rewrite E1 in E; [discriminate|]; injection E as ->; auto).
  assert (PH : forall j, j <> h -> Hd j <> p) by (intros j N E; destruct PE as [E1|(z & I & E1)]; rewrite E1 in E; [injection E as ->; auto|discriminate]).
  unfold cut. rewrite (head_lists s p v SV), (head_lists s (Hd d) _ SD).
  (* the pointers afterwards *)
  assert (exists s', match cat_nodes fuel (match v with [] => None | n :: _ => Some n end)
                       (match cont a d with [] => None | n :: _ => Some n end) s with
     | Some (s1, w) => Some (store (match w with Some n => set_prv (store s1 (Hd d) w) n (Some (Hd d)) | None => store s1 (Hd d) w end) p None)
     | None => None end = Some s' /\
     (forall y, deref s' y = if loc_eqb y p then None else
        match v with
        | [] => deref s y
        | n :: r => if loc_eqb y (Hd d) then Some n
                    else match cont a d with
                         | [] => deref s y
                         | b :: _ => if loc_eqb y (Nx (last r n)) then Some b else deref s y
                         end
        end) /\
     (forall x, prv s' x = match v with
        | [] => prv s x
        | n :: r => if x =? n then Some (Hd d)
                    else match cont a d with [] => prv s x | b :: _ => if x =? b then Some (Nx (last r n)) else prv s x end
        end) /\
     (forall q, bck s' q = bck s q)) as (s' & E' & DD & PP & BB).
  { destruct v as [|n r].
    - assert (FIX : forall m, deref s (Hd d) = Some m -> prv s m = Some (Hd d)).
      { intros m E. destruct (cont a d) as [|b t]; simpl in SD, E; [congruence|]. destruct SD as (E1 & E2 & _). congruence. }
      pose proof (head_lists s (Hd d) _ SD) as HD. unfold cat_nodes. eexists. split; [reflexivity|]. split; [|split].
      + intros y. destruct (loc_eqb_spec y p) as [->|Ny]; [apply deref_store_eq|]. rewrite deref_store_ne by auto.
        destruct (cont a d) as [|b t]; [|rewrite deref_set_prv]; (destruct (loc_eqb_spec y (Hd d)) as [->|Nd];
          [rewrite deref_store_eq; auto|apply deref_store_ne; auto]).
      + intros x. rewrite prv_store. destruct (cont a d) as [|b t]; [apply prv_store|].
        destruct (Nat.eq_dec x b) as [->|Nb]; [rewrite prv_set_eq; symmetry; auto|]. rewrite prv_set_ne by auto. apply prv_store.
      + intros q. rewrite bck_store. destruct (cont a d); reflexivity.
    - pose proof SV as SV2. destruct SV2 as (V1 & V2 & V3).
      assert (length r < fuel).
      { rewrite <- FS, app_length in F. simpl in F. lia. }
      destruct (cont a d) as [|b t]; unfold cat_nodes.
      + eexists. split; [reflexivity|]. split; [|split].
        * intros y. destruct (loc_eqb_spec y p) as [->|Ny]; [apply deref_store_eq|]. rewrite deref_store_ne, deref_set_prv by auto.
          destruct (loc_eqb_spec y (Hd d)) as [->|Nd]; [apply deref_store_eq|apply deref_store_ne; auto].
        * intros x. rewrite prv_store. destruct (Nat.eqb_spec x n) as [->|Nx']; [apply prv_set_eq|]. rewrite prv_set_ne by auto. reflexivity.
        * intros q. rewrite bck_store. reflexivity.
      + rewrite (@last_from_lists s r n fuel V3) by auto. eexists. split; [reflexivity|]. split; [|split].
        * intros y. destruct (loc_eqb_spec y p) as [->|Ny]; [apply deref_store_eq|]. rewrite deref_store_ne, deref_set_prv by auto.
          destruct (loc_eqb_spec y (Hd d)) as [->|Nd]; [apply deref_store_eq|]. rewrite deref_store_ne, deref_set_prv by auto.
          destruct (loc_eqb_spec y (Nx (last r n))) as [->|Nz]; [apply deref_store_eq|apply deref_store_ne; auto].
        * intros x. rewrite prv_store. destruct (Nat.eqb_spec x n) as [->|Nx']; [apply prv_set_eq|]. rewrite prv_set_ne, prv_store by auto.
          destruct (Nat.eqb_spec x b) as [->|Nb]; [apply prv_set_eq|]. rewrite prv_set_ne by auto. reflexivity.
        * intros q. rewrite bck_store. reflexivity. }
  exists s'. split; [exact E'|].
  assert (ZV : forall n r, v = n :: r -> In (last r n) v) by (intros n r ->; exact (@final_in (n :: r) (last r n) eq_refl)).
  (* lists other than the two *)
  assert (OX : forall x, ~ In x (cont a h) -> deref s' (Nx x) = deref s (Nx x)).
  { intros x N. rewrite DD. destruct (loc_eqb_spec (Nx x) p) as [E|_]; [destruct (PX x); auto|]. destruct v as [|n r]; auto. simpl.
    destruct (cont a d); auto. destruct (Nat.eqb_spec x (last r n)) as [->|]; auto. destruct N. apply IV. eauto. }
  split; simpl; rewrite <- ?Eu, <- ?Ev; auto.
  - intros j Lj. destruct (Nat.eq_dec j h) as [->|Nj]; [|destruct (Nat.eq_dec j d) as [->|Nd]].
    + ne. apply lists_seg. fold p. split; [|rewrite DD; destruct (loc_eqb_spec p p); congruence].
      apply seg_frame with (s := s); auto; [apply nodup_locs; auto| |].
      * intros y Iy Ny. fold p in Ny. rewrite DD. destruct (loc_eqb_spec y p) as [Ey|Ny2]; [congruence|]. destruct v as [|n r]; auto.
        assert (y <> Hd d). { intros ->. destruct Iy as [[=]|Iy]; [congruence|]. apply in_map_iff in Iy. destruct Iy as (x & [=] & _). }
        destruct (loc_eqb_spec y (Hd d)); [congruence|]. destruct (cont a d); auto.
        destruct (loc_eqb_spec y (Nx (last r n))) as [->|]; auto. destruct Iy as [[=]|Iy]. apply in_map_iff in Iy.
        destruct Iy as (x & [= ->] & Ix). destruct (UV _ Ix). eauto.
      * intros x Ix. rewrite PP. destruct v as [|n r]; auto. destruct (Nat.eqb_spec x n) as [->|]; [destruct (UV n Ix); left; auto|].
        destruct (cont a d) as [|b t] eqn:Ed; auto. destruct (Nat.eqb_spec x b) as [->|]; auto.
        destruct (DJ b); [apply in_app_iff; auto|left; auto].
    + ne. destruct v as [|n r].
      * simpl. apply lists_frame with (s := s); auto.
        -- rewrite DD. destruct (loc_eqb_spec (Hd d) p) as [E|]; auto. destruct (PH d); auto.
        -- intros x Ix. split; [|apply PP]. apply (OX x). intros I. rewrite <- FS in I. exact (DJ x I Ix).
      * pose proof SV as SV2. destruct SV2 as (V1 & V2 & V3). apply NoDup_cons_iff in NV. destruct NV as [NV1 NV2].
        assert (VX : forall x, In x (n :: r) -> x <> last r n -> deref s' (Nx x) = deref s (Nx x)).
        { intros x Ix Nl. rewrite DD. destruct (loc_eqb_spec (Nx x) p) as [E|_]; [destruct (PX x); auto; intros I; exact (UV x I Ix)|]. simpl.
          destruct (cont a d); auto. destruct (Nat.eqb_spec x (last r n)); [congruence|auto]. }
        assert (VP : forall x, In x r -> prv s' x = prv s x).
        { intros x Ix. rewrite PP. destruct (Nat.eqb_spec x n) as [->|]; [tauto|]. destruct (cont a d) as [|b t] eqn:Ed; auto.
          destruct (Nat.eqb_spec x b) as [->|]; auto. destruct (DJ b); [apply in_app_iff; right; right; auto|left; auto]. }
        simpl app. simpl lists. split; [|split].
        -- change (deref s' (Hd d) = Some n). rewrite DD. destruct (loc_eqb_spec (Hd d) p) as [E|_]; [destruct (PH d); auto|].
           destruct (loc_eqb_spec (Hd d) (Hd d)); congruence.
        -- rewrite PP. now rewrite Nat.eqb_refl.
        -- apply lists_app. rewrite endloc_last. split.
           ++ apply lists_seg in V3. destruct V3 as [V3 _]. apply seg_frame with (s := s); auto.
              ** change (NoDup (map Nx (n :: r))). apply FinFun.Injective_map_NoDup; [intros x y [=]; auto|constructor; auto].
              ** intros y Iy Ny. rewrite endloc_last in Ny. change (In y (map Nx (n :: r))) in Iy. apply in_map_iff in Iy.
                 destruct Iy as (x & <- & Ix). apply VX; auto.
           ++ destruct (cont a d) as [|b t] eqn:Ed.
              ** simpl. apply lists_seg in V3. destruct V3 as [_ V3]. rewrite endloc_last in V3.
                 change (deref s' (Nx (last r n)) = None). rewrite DD.
                 destruct (loc_eqb_spec (Nx (last r n)) p); auto.
              ** simpl lists in SD |- *. destruct SD as (D1 & D2 & D3). apply NoDup_cons_iff in NDd. destruct NDd as [ND1 ND2].
                 assert (Nb : ~ In b (cont a h)) by (intros I; rewrite <- FS in I; apply (DJ b I); left; auto).
                 split; [|split].
                 --- change (deref s' (Nx (last r n)) = Some b). rewrite DD.
                     destruct (loc_eqb_spec (Nx (last r n)) p) as [E|_].
                     { destruct (PX (last r n)); auto. intros I. apply (UV _ I). eauto. }
                     simpl. now rewrite Nat.eqb_refl.
                 --- rewrite PP. destruct (Nat.eqb_spec b n) as [->|]; [destruct Nb; apply IV; left; auto|]. now rewrite Nat.eqb_refl.
                 --- apply lists_frame with (s := s); auto. intros x Ix.
                     assert (Nxh : ~ In x (cont a h)) by (intros I; rewrite <- FS in I; apply (DJ x I); right; auto).
                     split; [exact (OX x Nxh)|]. rewrite PP.
                     destruct (Nat.eqb_spec x n) as [->|]; [destruct Nxh; apply IV; left; auto|].
                     destruct (Nat.eqb_spec x b) as [->|]; [tauto|auto].
    + ne. apply kept with (s := s); auto; [apply (st_lists S); auto| |].
      * change (deref s' (Hd j) = deref s (Hd j)). rewrite DD. destruct (loc_eqb_spec (Hd j) p) as [E|_]; [destruct (PH j); auto|].
        destruct v as [|n r]; auto. destruct (loc_eqb_spec (Hd j) (Hd d)); [congruence|]. destruct (cont a d); auto.
      * intros x Ix. assert (Nh : ~ In x (cont a h)) by (intros I; apply Nj; exact (st_disj SS j h x Lj Lh Ix I)).
        split; [exact (OX x Nh)|]. rewrite PP. destruct v as [|n r]; auto.
        destruct (Nat.eqb_spec x n) as [->|]; [destruct Nh; apply IV; left; auto|]. destruct (cont a d) as [|b t] eqn:Ed; auto.
        destruct (Nat.eqb_spec x b) as [->|]; auto. destruct Nd. apply (st_disj SS j d b Lj Ld Ix). rewrite Ed. left. auto.
  - intros x Lx. destruct (st_loose S x Lx) as [Px Xx]. pose proof (st_apart SS x h Lx Lh) as Nh. pose proof (st_apart SS x d Lx Ld) as Nd.
    split; [|change (deref s' (Nx x) = None); rewrite (OX x Nh); exact Xx]. rewrite PP. destruct v as [|n r]; auto.
    destruct (Nat.eqb_spec x n) as [->|]; [destruct Nh; apply IV; left; auto|]. destruct (cont a d) as [|b t]; auto.
    destruct (Nat.eqb_spec x b) as [->|]; auto. destruct Nd. left. auto.
  - intros q Lq Iq. assert (q <> h) by congruence. assert (q <> d) by congruence. rewrite BB. ne. apply (st_queue S); auto.
Qed.

Theorem does_all fuel o : does fuel o.
Proof.
  destruct o.
  - apply does_push.
  - apply does_sever.
  - apply does_create.
  - apply does_enqueue.
  - apply does_append.
  - apply does_convert.
  - apply does_revert.
  - apply does_cut.
Qed.

Fixpoint permitted (fuel : nat) (os : list op) (a : abs) : Prop :=
  match os with [] => True | o :: os => allowed fuel o a /\ permitted fuel os (effect o a) end.
Definition effects (os : list op) (a : abs) : abs := fold_left (fun a o => effect o a) os a.

(** C91: any number of operations on any number of lists and queues *)
Theorem C91_operations fuel os : forall s a, stands s a -> permitted fuel os a ->
  exists s', execs fuel os s = Some s' /\ stands s' (effects os a).
Proof.
  induction os as [|o os IH]; intros s a S P; simpl; [eauto|]. destruct P as [A P].
  destruct (@does_all fuel o s a S A) as (s1 & E & S1). rewrite E. exact (IH s1 (effect o a) S1 P).
Qed.

(** ** Distribution of the nodes of a graph *)

(** Some worker makes a half severed node of one in the graph, or puts it in the list in its port, src/filters.c:109-110,
    src/duplex.c:212-213, src/mutate.c:224-225, src/compose.c:170-171. *)
Inductive ev := Half (n : nat) | Put (n : nat).
Definition happens (lane : nat -> nat) (e : ev) (s : heap) : option heap :=
  match e with Half n => Some (half_severed n s) | Put n => pushed n (Hd (lane n)) s end.
Fixpoint happen (lane : nat -> nat) (es : list ev) (s : heap) : option heap :=
  match es with [] => Some s | e :: es => match happens lane e s with Some s1 => happen lane es s1 | None => None end end.

Definition puts (es : list ev) : list nat := flat_map (fun e => match e with Put n => [n] | Half _ => [] end) es.
Definition halves (es : list ev) : list nat := flat_map (fun e => match e with Half n => [n] | Put _ => [] end) es.
Definition memb (n : nat) (l : list nat) : bool := existsb (Nat.eqb n) l.

Lemma memb_in n l : memb n l = true <-> In n l.
Proof.
  unfold memb. rewrite existsb_exists. split; [intros (x & I & E); apply Nat.eqb_eq in E; now subst|]. intros I. exists n.
  split; auto. apply Nat.eqb_refl.
Qed.

Lemma in_puts n es : In n (puts es) <-> In (Put n) es.
Proof.
  unfold puts. rewrite in_flat_map. split.
  - intros ([m|m] & I & J); simpl in J; [tauto|]. destruct J as [->|[]]. auto.
  - intros I. exists (Put n). simpl. auto.
Qed.
Lemma in_halves n es : In n (halves es) <-> In (Half n) es.
Proof.
  unfold halves. rewrite in_flat_map. split.
  - intros ([m|m] & I & J); simpl in J; [|tauto]. destruct J as [->|[]]. auto.
  - intros I. exists (Half n). simpl. auto.
Qed.

Definition spread_out (lane : nat -> nat) (lanes : nat -> bool) (es : list ev) : abs :=
  mkAbs (fun k => rev (filter (fun n => lane n =? k) (puts es))) lanes (fun _ => false)
    (fun n => memb n (halves es) && negb (memb n (puts es))).

Lemma stands_ext s a a' : stands s a -> (forall h, cont a h = cont a' h) -> (forall h, live a h = live a' h) ->
  (forall h, isq a h = isq a' h) -> (forall n, loose a n = loose a' n) -> stands s a'.
Proof.
  intros S C L Q O. pose proof (st_sane S) as SS. split; [split| | |].
  - intros h. rewrite <- L, <- C. apply (st_nodup SS).
  - intros h k n. rewrite <- !L, <- !C. apply (st_disj SS).
  - intros n h. rewrite <- O, <- L, <- C. apply (st_apart SS).
  - intros h. rewrite <- L, <- C. apply (st_lists S).
  - intros n. rewrite <- O. apply (st_loose S).
  - intros q. rewrite <- L, <- Q, <- C. apply (st_queue S).
Qed.

(** C91: whatever the order in which the nodes are half severed and put in the lists, if each is put in one after it is half severed,
    then the lists are in good order and every node is in the list of its own lane, in spite of the pointers left dangling
    meanwhile. *)
Theorem C91_distribution lane lanes es s :
  NoDup es -> (forall u n v, es = u ++ Put n :: v -> In (Half n) u) ->
  (forall n, In (Put n) es -> lanes (lane n) = true) -> (forall k, lanes k = true -> hdr s k = None) ->
  exists s', happen lane es s = Some s' /\
    forall k, lanes k = true ->
      lists s' (Hd k) (rev (filter (fun n => lane n =? k) (puts es))) /\
      (forall n, In n (rev (filter (fun n => lane n =? k) (puts es))) <-> In (Put n) es /\ lane n = k) /\
      NoDup (rev (filter (fun n => lane n =? k) (puts es))).
Proof.
  intros ND PRE LN H0.
  assert (G : forall v u s, es = u ++ v -> stands s (spread_out lane lanes u) ->
            exists s', happen lane v s = Some s' /\ stands s' (spread_out lane lanes es)).
  { induction v as [|e v IH]; intros u t E S; simpl; [rewrite app_nil_r in E; subst u; eauto|].
    assert (E2 : es = (u ++ [e]) ++ v) by (rewrite <- app_assoc; exact E).
    assert (NI : ~ In e u). { rewrite E in ND. apply NoDup_remove_2 in ND. rewrite in_app_iff in ND. tauto. }
    assert (PU : forall n, In (Put n) u -> In (Half n) u).
    { intros n I. destruct (in_split _ _ I) as (u1 & u2 & ->). apply in_app_iff. left. apply (PRE u1 n (u2 ++ e :: v)).
      rewrite E, <- app_assoc. reflexivity. }
    pose proof (st_sane S) as SS. destruct e as [n|n]; simpl.
    - assert (NP : ~ In n (puts u)) by (rewrite in_puts; intros I; apply NI; auto).
      apply (IH (u ++ [Half n])); auto.
      assert (EP : puts (u ++ [Half n]) = puts u) by (unfold puts; rewrite flat_map_app; simpl; apply app_nil_r).
      assert (EH : halves (u ++ [Half n]) = halves u ++ [n]) by (unfold halves; rewrite flat_map_app; reflexivity).
      assert (NL : forall k, ~ In n (rev (filter (fun m => lane m =? k) (puts u)))).
      { intros k I. apply in_rev, filter_In in I. tauto. }
      split; [split| | |]; simpl; rewrite ?EP.
      + apply (st_nodup SS).
      + apply (st_disj SS).
      + intros m k Lm Lk. rewrite EH in Lm. apply andb_prop in Lm. destruct Lm as [_ Lm]. intros I. apply in_rev, filter_In in I.
        destruct I as [I _]. apply memb_in in I. rewrite I in Lm. discriminate.
      + intros k Lk. apply kept with (s := t); auto; [exact (st_lists S k Lk)|]. intros x Ix. simpl.
        assert (x <> n) by (intros ->; exact (NL k Ix)). now ne.
      + intros m Lm. destruct (Nat.eq_dec m n) as [->|Nm]; simpl; ne; auto. apply (st_loose S m). simpl.
        apply andb_prop in Lm. destruct Lm as [L1 L2]. rewrite L2, andb_true_r. rewrite EH in L1. apply memb_in in L1.
        apply in_app_iff in L1. destruct L1 as [L1|[L1|[]]]; [now apply memb_in|congruence].
      + intros q _ [=].
    - assert (HN : In (Half n) u) by (apply (PRE u n v); exact E).
      assert (NP : ~ In n (puts u)) by now rewrite in_puts.
      assert (LL : loose (spread_out lane lanes u) n = true).
      { simpl. apply andb_true_intro. split; [apply memb_in, in_halves; auto|]. destruct (memb n (puts u)) eqn:M; auto.
        apply memb_in in M. tauto. }
      assert (LV : lanes (lane n) = true) by (apply LN; rewrite E, in_app_iff; simpl; auto).
      destruct (@does_push 0 n (lane n) t _ S) as (t1 & E1 & S1); [simpl; auto|]. simpl in E1. rewrite E1.
      apply (IH (u ++ [Put n])); auto.
      assert (EP : puts (u ++ [Put n]) = puts u ++ [n]) by (unfold puts; rewrite flat_map_app; reflexivity).
      assert (EH : halves (u ++ [Put n]) = halves u) by (unfold halves; rewrite flat_map_app; simpl; apply app_nil_r).
      apply stands_ext with (a := effect (Push n (lane n)) (spread_out lane lanes u)); auto; simpl.
      + intros k. rewrite EP, filter_app, rev_app_distr. simpl. destruct (Nat.eqb_spec (lane n) k) as [<-|Nk].
        * ne. reflexivity.
        * ne. reflexivity.
      + intros m. rewrite EP, EH. destruct (Nat.eq_dec m n) as [->|Nm]; ne.
        * replace (memb n (puts u ++ [n])) with true; [now rewrite andb_false_r|]. symmetry. apply memb_in, in_app_iff. simpl. auto.
        * f_equal. f_equal. destruct (memb m (puts u)) eqn:M1, (memb m (puts u ++ [n])) eqn:M2; auto; exfalso.
          -- apply memb_in in M1. assert (memb m (puts u ++ [n]) = true) by (apply memb_in, in_app_iff; auto). congruence.
          -- apply memb_in, in_app_iff in M2. destruct M2 as [M2|[M2|[]]]; [|congruence]. apply memb_in in M2. congruence. }
  destruct (G es [] s eq_refl) as (s' & E & S).
  - split; [split| | |]; simpl; try discriminate; auto; try (intros; constructor); try tauto.
  - exists s'. split; auto. intros k Lk. split; [exact (st_lists S k Lk)|]. split; [|exact (st_nodup (st_sane S) k Lk)].
    intros n. rewrite <- in_rev, filter_In, in_puts, Nat.eqb_eq. tauto.
Qed.

(** ** Severing next to a node that is half severed *)

(** C91: if neither the node before nor that after is connected to the node any more, neither is changed. *)
Theorem C91_neighbors_left_alone n s s' p :
  prv s n = Some p -> deref s p <> Some n -> (forall m, nxt s n = Some m -> prv s m <> Some (Nx n)) -> severed n s = Some s' ->
  prv s' n = None /\ nxt s' n = None /\
  (forall m, m <> n -> prv s' m = prv s m /\ nxt s' m = nxt s m) /\ (forall h, hdr s' h = hdr s h /\ bck s' h = bck s h).
Proof.
  intros P D X. unfold severed. rewrite P.
  assert (E1 : match deref s p with Some m => if m =? n then store s p (nxt s n) else s | None => s end = s).
  { destruct (deref s p) as [m|]; auto. destruct (Nat.eqb_spec m n); [congruence|auto]. }
  rewrite E1.
  assert (E2 : match nxt s n with Some m => match prv s m with Some (Nx n') => if n' =? n then set_prv s m (prv s n) else s | _ => s end | None => s end = s).
  { destruct (nxt s n) as [m|]; auto. specialize (X m eq_refl). destruct (prv s m) as [[n'|]|]; auto.
    destruct (Nat.eqb_spec n' n); [congruence|auto]. }
  rewrite E2. intros [= <-]. simpl. ne. repeat split; auto; now ne.
Qed.

(** ** Assembly of a graph *)

Definition cat_conts (a : abs) (qs : list (option nat)) : list nat := flat_map (fun o => match o with Some q => cont a q | None => [] end) qs.
Definition present (qs : list (option nat)) : list nat := flat_map (fun o => match o with Some q => [q] | None => [] end) qs.

Definition hd_of (l : list nat) : option nat := match l with [] => None | n :: _ => Some n end.
Fixpoint picked (a : abs) (bay i : nat) (qs : list (option nat)) (base : option nat) : option nat :=
  match qs with
  | [] => base
  | None :: qs => picked a bay (S i) qs base
  | Some r :: qs => picked a bay (S i) qs (if i =? bay then hd_of (cont a r) else base)
  end.

Lemma picked_past a bay qs : forall i base, bay < i -> picked a bay i qs base = base.
Proof.
  induction qs as [|[r|] qs IH]; intros i base L; simpl; auto; rewrite IH by lia; auto. destruct (Nat.eqb_spec i bay); [lia|auto].
Qed.

Lemma picked_nth a bay qs : forall i base, i <= bay ->
  picked a bay i qs base = match nth (bay - i) qs None with Some r => hd_of (cont a r) | None => base end.
Proof.
  induction qs as [|o qs IH]; intros i base L; [now destruct (bay - i)|]. destruct (Nat.eq_dec i bay) as [->|N].
  - rewrite Nat.sub_diag. destruct o as [r|]; simpl; rewrite picked_past by lia; auto. now rewrite Nat.eqb_refl.
  - replace (bay - i) with (S (bay - S i)) by lia. destruct o as [r|]; simpl; rewrite IH by lia; auto.
    destruct (Nat.eqb_spec i bay); [lia|auto].
Qed.

Lemma picked_ext a a' bay qs : (forall r, In r (present qs) -> cont a r = cont a' r) ->
  forall i base, picked a bay i qs base = picked a' bay i qs base.
Proof.
  induction qs as [|[r|] qs IH]; intros E i base; simpl; auto.
  rewrite E by (left; auto). apply IH. intros x I. apply E. right. auto.
Qed.

Lemma union_spec bay qs : forall i s a q base, stands s a -> NoDup (q :: present qs) ->
  (forall r, In r (q :: present qs) -> live a r = true /\ isq a r = true) ->
  exists s' a', union_loop bay i qs (Some q) base s = Some (s', Some q, picked a bay i qs base) /\
    stands s' a' /\ live a' q = true /\ isq a' q = true /\ cont a' q = cont a q ++ cat_conts a qs /\
    (forall h, ~ In h (q :: present qs) -> live a' h = live a h /\ cont a' h = cont a h).
Proof.
  induction qs as [|[r|] qs IH]; intros i s a q base T0 ND LV.
  - exists s, a. destruct (LV q (or_introl eq_refl)). simpl. split; [reflexivity|]. split; [exact T0|]. split; auto. split; auto.
    split; [now rewrite app_nil_r|auto].
  - simpl in ND. simpl present in LV. apply NoDup_cons_iff in ND. destruct ND as [N1 N2]. apply NoDup_cons_iff in N2.
    destruct N2 as [N2 N3]. destruct (LV q (or_introl eq_refl)) as [Lq Iq]. destruct (LV r (or_intror (or_introl eq_refl))) as [Lr Ir].
    assert (NE : q <> r) by (intros ->; apply N1; left; auto).
    assert (Nq : ~ In q (present qs)) by (intros I; apply N1; right; auto).
    assert (AL : allowed 0 (Append q r) a) by (simpl; auto).
    destruct (@does_append 0 q r s a T0 AL) as (s1 & E1 & S1). simpl in E1.
    assert (CA : forall h, h <> q -> cont (effect (Append q r) a) h = cont a h) by (intros; simpl; now ne).
    assert (HR : hdr s r = hd_of (cont a r)) by exact (hdr_of r T0 Lr).
    destruct (IH (S i) s1 _ q (if i =? bay then hdr s r else base) S1) as (s' & a' & E & S' & L' & I' & C' & O').
    + constructor; auto.
    + intros h Ih. simpl. destruct (LV h) as [Lh Ih2]; [destruct Ih as [->|Ih]; [left|right; right]; auto|].
      rewrite upd_diff; auto. intros ->. destruct Ih as [Ih|Ih]; auto.
    + exists s', a'. split; [|split; auto; split; auto; split; auto; split].
      * simpl union_loop. rewrite E1, E. simpl picked. rewrite HR. f_equal. f_equal. apply picked_ext. intros x I. apply CA.
        intros ->. auto.
      * rewrite C'. assert (cat_conts (effect (Append q r) a) qs = cat_conts a qs) as ->.
        { clear -Nq CA. induction qs as [|[x|] qs IHq]; simpl present in *; auto.
          - change (cont (effect (Append q r) a) x ++ cat_conts (effect (Append q r) a) qs = cont a x ++ cat_conts a qs).
            rewrite CA by (intros ->; apply Nq; left; auto). rewrite IHq; auto. intros I. apply Nq. right. auto.
          }
        simpl. ne. now rewrite <- app_assoc.
      * intros h Nh. simpl in Nh. destruct (O' h) as [O1 O2]; [intros [->|I]; apply Nh; auto|].
        rewrite O1, O2. split; [|apply CA; auto]. simpl. rewrite upd_diff; auto.
  - exact (IH (S i) s a q base T0 ND LV).
Qed.

(** C91: the graph assembled from the queues of the workers has all nodes in it, lane by lane, and the base node is the one at the
    front of the queue of the base bay. *)
Theorem C91_union bay qs s a :
  stands s a -> NoDup (present qs) -> (forall r, In r (present qs) -> live a r = true /\ isq a r = true) ->
  exists s' nodes,
    node_union bay qs s = Some (s', nodes, match nth bay qs None with
                                           | Some r => match cont a r with [] => None | n :: _ => Some n end | None => None end) /\
    match cat_conts a qs with
    | [] => nodes = None
    | n :: r => nodes = Some n /\ prv s' n = None /\ lists s' (Nx n) r
    end /\
    (forall h, live a h = true -> ~ In h (present qs) -> lists s' (Hd h) (cont a h)).
Proof.
  intros T0 ND LV. unfold node_union.
  assert (G : forall qs i, NoDup (present qs) -> (forall r, In r (present qs) -> live a r = true /\ isq a r = true) ->
    exists s' a' oq, union_loop bay i qs None None s = Some (s', oq, picked a bay i qs None) /\ stands s' a' /\
      match oq with
      | Some q => In q (present qs) /\ live a' q = true /\ cont a' q = cat_conts a qs /\
                  (forall h, ~ In h (present qs) -> live a' h = live a h /\ cont a' h = cont a h)
      | None => s' = s /\ a' = a /\ cat_conts a qs = []
      end).
  { clear qs ND LV. induction qs as [|[r|] qs IH]; intros i ND LV.
    - exists s, a, None. simpl. auto.
    - assert (HR : hdr s r = hd_of (cont a r)) by (apply hdr_of; auto; apply LV; left; auto).
      simpl union_loop. destruct (@union_spec bay qs (S i) s a r (if i =? bay then hdr s r else None) T0 ND LV)
        as (s' & a' & E & S' & L' & I' & C' & O').
      exists s', a', (Some r). split; [rewrite E; simpl; now rewrite HR|]. split; auto. split; [left; auto|]. auto.
    - exact (IH (S i) ND LV). }
  destruct (G qs 0 ND LV) as (s' & a' & oq & E & S' & R). rewrite picked_nth, Nat.sub_0_r in E by lia. unfold hd_of in E. rewrite E. destruct oq as [q|].
  - destruct R as (Iq & Lq & C & O). unfold nodes_of. pose proof (hdr_of q S' Lq) as HQ. pose proof (st_lists S' q Lq) as SL.
    pose proof (st_nodup (st_sane S') q Lq) as NQ. rewrite HQ. rewrite C in *. destruct (cat_conts a qs) as [|n r] eqn:Ec.
    + eexists _, _. split; [reflexivity|]. split; auto. intros h Lh Nh. destruct (O h Nh) as [O1 O2]. rewrite <- O2.
      apply (st_lists S'). congruence.
    + eexists _, _. split; [reflexivity|]. destruct SL as (_ & _ & SL). apply NoDup_cons_iff in NQ. split.
      * split; auto. split; [apply prv_set_eq|]. apply lists_frame with (s := s'); auto. intros x Ix. simpl.
        assert (x <> n) by (intros ->; tauto). now ne.
      * intros h Lh Nh. destruct (O h Nh) as [O1 O2]. rewrite <- O2. assert (Lh' : live a' h = true) by congruence.
        apply kept with (s := s'); auto; [apply (st_lists S'); auto|]. intros x Ix. simpl.
        assert (x <> n); [|now ne]. intros ->. apply Nh. rewrite (st_disj (st_sane S') h q n Lh' Lq Ix); auto. rewrite C. left. auto.
  - destruct R as (-> & -> & R). rewrite R. eexists _, _. split; [reflexivity|]. split; auto. intros h Lh _. apply (st_lists T0). auto.
Qed.

(** C91: a node is found in a list if it is there, and not otherwise. *)
Theorem C91_listed n s p l fuel : lists s p l -> length l <= fuel ->
  exists b, listed fuel n (deref s p) s = Some b /\ (b = true <-> In n l).
Proof.
  revert p fuel. induction l as [|m r IH]; intros p fuel S L.
  - simpl in S. rewrite S. exists false. split; [destruct fuel; auto|]. simpl. split; [discriminate|tauto].
  - destruct S as (-> & _ & S). destruct fuel as [|f]; simpl in L; [lia|]. simpl. destruct (Nat.eqb_spec n m) as [->|N].
    + exists true. tauto.
    + destruct (IH (Nx m) f S) as (b & E & B); [lia|]. exists b. split; auto. rewrite B. split; auto. intros [->|I]; [congruence|auto].
Qed.
