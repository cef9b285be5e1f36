(** Claim C95: every value consumed or made by merging is destroyed once, by the right destructor, unless it is in the result. *)
From Coq Require Import List Arith NArith Lia Bool Permutation.
From Verif Require Import Base Machine Env Hash Graph Visitor Walk Run Fold Traverse Pass Partition Brigade BrigadeProofs TraverseProofs P_Traverse MergeFree.
Import ListNotations.

Set Implicit Arguments.

Definition item_dec (x y : item) : {x = y} + {x <> y}.
Proof. decide equality; apply Nat.eq_dec. Defined.

Notation cnt l x := (count_occ item_dec l x).

(** The values belonging to nodes *)
Definition held1 (m : mem) (n : nat) : list item := opt (vert m n) ++ outs m n ++ opt (prp m n).
Definition held (m : mem) (ns : list nat) : list item := flat_map (held1 m) ns.

(** All values are accounted for: they belong to nodes, are in the hands of a worker, or have been destroyed. *)
Definition acc (ns : list nat) (hands : list item) (m : mem) : Prop :=
  forall x, cnt (held m ns) x + cnt hands x + cnt (map snd (ledger m)) x = cnt (made m) x.

Lemma cnt_app (l1 l2 : list item) x : cnt (l1 ++ l2) x = cnt l1 x + cnt l2 x.
Proof. apply count_occ_app. Qed.
Lemma cnt_perm (l1 l2 : list item) x : Permutation l1 l2 -> cnt l1 x = cnt l2 x.
Proof. intros H. now apply Permutation_count_occ. Qed.
Lemma cnt_filter (f : item -> bool) l x : cnt (filter f l) x + cnt (filter (fun y => negb (f y)) l) x = cnt l x.
Proof. induction l as [|a l IH]; simpl; auto. destruct (f a); simpl; destruct (item_dec a x); lia. Qed.
Lemma held_app m l1 l2 : held m (l1 ++ l2) = held m l1 ++ held m l2.
Proof. apply flat_map_app. Qed.
Lemma held_cons m n l : held m (n :: l) = held1 m n ++ held m l.
Proof. reflexivity. Qed.
Lemma held_ext m m' l : (forall n, In n l -> held1 m' n = held1 m n) -> held m' l = held m l.
Proof. intros H. unfold held. induction l as [|a l IH]; simpl; auto. rewrite H by (now left). rewrite IH; auto. intros; apply H; now right. Qed.
Lemma acc_perm l l' hands m : Permutation l l' -> acc l hands m -> acc l' hands m.
Proof.
  intros P A x. rewrite <- (A x). rewrite (@cnt_perm (held m l') (held m l)); auto. unfold held. apply Permutation_flat_map. now symmetry.
Qed.

(** Changing what belongs to a single node *)
Lemma held_at ns n m m' : NoDup ns -> In n ns -> (forall k, k <> n -> held1 m' k = held1 m k) ->
  forall x, cnt (held m' ns) x + cnt (held1 m n) x = cnt (held m ns) x + cnt (held1 m' n) x.
Proof.
  intros N I F x. apply in_split in I as [l1 [l2 ->]]. apply NoDup_remove_2 in N.
  rewrite !held_app, !held_cons, !cnt_app.
  rewrite (@held_ext m m' l1), (@held_ext m m' l2); [lia| |].
  - intros k Hk. apply F. intros ->. apply N. apply in_or_app. auto.
  - intros k Hk. apply F. intros ->. apply N. apply in_or_app. auto.
Qed.

Lemma upd_at {A} (f : nat -> A) n v : upd f n v n = v.
Proof. unfold upd. now rewrite Nat.eqb_refl. Qed.
Lemma upd_else {A} (f : nat -> A) n v k : k <> n -> upd f n v k = f k.
Proof. intros H. unfold upd. destruct (Nat.eqb_spec k n); congruence. Qed.

Lemma acc_set_vert ns n v hands m : NoDup ns -> In n ns -> acc ns (opt v ++ hands) m -> acc ns (opt (vert m n) ++ hands) (set_vert n v m).
Proof.
  intros N I A x. specialize (A x). rewrite cnt_app in *. simpl.
  assert (E : forall k, k <> n -> held1 (set_vert n v m) k = held1 m k) by (intros k Hk; unfold held1; simpl; now rewrite upd_else).
  pose proof (@held_at ns n m _ N I E x) as H. unfold held1 in H at 1 2. simpl in H. rewrite upd_at, !cnt_app in H. lia.
Qed.
Lemma acc_set_outs ns n v hands m : NoDup ns -> In n ns -> acc ns (v ++ hands) m -> acc ns (outs m n ++ hands) (set_outs n v m).
Proof.
  intros N I A x. specialize (A x). rewrite cnt_app in *. simpl.
  assert (E : forall k, k <> n -> held1 (set_outs n v m) k = held1 m k) by (intros k Hk; unfold held1; simpl; now rewrite upd_else).
  pose proof (@held_at ns n m _ N I E x) as H. unfold held1 in H at 1 2. simpl in H. rewrite upd_at, !cnt_app in H. lia.
Qed.
Lemma acc_set_prp ns n v hands m : NoDup ns -> In n ns -> acc ns (opt v ++ hands) m -> acc ns (opt (prp m n) ++ hands) (set_prp n v m).
Proof.
  intros N I A x. specialize (A x). rewrite cnt_app in *. simpl.
  assert (E : forall k, k <> n -> held1 (set_prp n v m) k = held1 m k) by (intros k Hk; unfold held1; simpl; now rewrite upd_else).
  pose proof (@held_at ns n m _ N I E x) as H. unfold held1 in H at 1 2. simpl in H. rewrite upd_at, !cnt_app in H. lia.
Qed.
Lemma acc_destroy ns d xs hands m : acc ns (xs ++ hands) m -> acc ns hands (destroy d xs m).
Proof.
  intros A x. specialize (A x). rewrite cnt_app in A. unfold held, held1 in *. simpl. rewrite map_app, map_map, cnt_app. simpl. rewrite map_id. lia.
Qed.
Lemma acc_make ns xs hands m : acc ns hands m -> acc ns (xs ++ hands) (make xs m).
Proof. intros A x. specialize (A x). unfold held, held1 in *. simpl. rewrite !cnt_app. lia. Qed.
Lemma acc_hands ns h h' m : (forall x, cnt h x = cnt h' x) -> acc ns h m -> acc ns h' m.
Proof. intros E A x. rewrite <- E. apply A. Qed.

Section Claim.
  Variable c : mergement.

  (** The destructor by which a value is to be destroyed *)
  Definition proper (x : item) : option nat :=
    match x with
    | OV _ => v_free c
    | OL _ _ => e_free c
    | PR _ => m_free c
    | NV _ => kv_free c
    | NL _ _ => ke_free c
    end.

  (** Consequences of the way mergers are inferred.  If there is no vertex operation then its destructor is that of the graph
      (src/infer.c:321-326), and if the edge operation is an empty fold then it has no destructor ([_cru_empty_fold], src/defo.c:69-86). *)
  Hypothesis Hv : fusing c = false -> kv_free c = v_free c.
  Hypothesis He : reducing c = false -> ke_free c = None.
  (** The new labels need a destructor if the old ones do. *)
  Hypothesis Hd : reducing c = true -> ke_free c = None -> e_free c = None.

  Definition fine (m : mem) : Prop := forall a x, In (a, x) (ledger m) -> a = proper x.
  Definition v_is (m : mem) (d : option nat) (n : nat) : Prop := forall x, vert m n = Some x -> proper x = d.
  Definition o_is (m : mem) (d : option nat) (n : nat) : Prop := forall x, In x (outs m n) -> proper x = d.
  Definition p_is (m : mem) (n : nat) : Prop := forall x, prp m n = Some x -> proper x = m_free c.
  Definition new_e_free : option nat := if reducing c then ke_free c else e_free c.

  Lemma fine_destroy d xs m : fine m -> (forall x, In x xs -> proper x = d) -> fine (destroy d xs m).
  Proof.
    intros F H a x I. simpl in I. apply in_app_or in I as [I|I]; auto. apply in_map_iff in I as [y [E I]]. injection E as <- <-. symmetry. auto.
  Qed.

  (** ** Effects of functions *)

  (** A change that affects only nodes in [k], and leaves properties alone if [p] *)
  Definition only (k : list nat) (m m' : mem) : Prop :=
    forall n, ~ In n k -> vert m' n = vert m n /\ outs m' n = outs m n /\ prp m' n = prp m n.
  Lemma only_refl k m : only k m m.
  Proof. intros n _. auto. Qed.
  Lemma only_trans k m m' m'' : only k m m' -> only k m' m'' -> only k m m''.
  Proof. intros A B n Hn. destruct (A n Hn) as [A1 [A2 A3]], (B n Hn) as [B1 [B2 B3]]. repeat split; congruence. Qed.
  Lemma only_more k k' m m' : incl k k' -> only k m m' -> only k' m m'.
  Proof. intros I A n Hn. apply A. intros H. apply Hn. auto. Qed.

  Lemma free_vertices_spec d k : forall ns hands m, NoDup ns -> incl k ns -> acc ns hands m -> fine m ->
    (forall n, In n k -> v_is m d n) -> let m' := free_vertices d k m in
    acc ns hands m' /\ fine m' /\ only k m m' /\ made m' = made m /\ outs m' = outs m /\ prp m' = prp m /\
    (forall n, vert m' n = None \/ ~ In n k /\ vert m' n = vert m n).
  Proof.
    induction k as [|n k IH]; intros ns hands m N I A F V; simpl.
    - split; [auto|]. split; [auto|]. split; [apply only_refl|]. repeat split; auto.
    - set (m1 := set_vert n None (destroy d (opt (vert m n)) m)).
      assert (A1 : acc ns hands m1).
      { unfold m1. apply acc_hands with (h := [] ++ hands); [auto|]. change ([] ++ hands) with hands.
        assert (Q := @acc_set_vert ns n None hands m N (I n (or_introl eq_refl)) A).
        intros x. specialize (Q x). unfold held, held1 in *. simpl in *. rewrite map_app, map_map, map_id. rewrite !cnt_app in *. lia. }
      assert (F1 : fine m1).
      { unfold m1. intros a x H. simpl in H. apply (@fine_destroy d (opt (vert m n)) m F) in H; auto.
        intros y Hy. destruct (vert m n) as [z|] eqn:E; simpl in Hy; [|tauto]. destruct Hy as [<-|[]]. apply (V n); simpl; auto. }
      destruct (IH ns hands m1 N (fun y Hy => I y (or_intror Hy)) A1 F1) as [Q1 [Q2 [Q3 [Q4 [Q5 [Q6 Q7]]]]]].
      { intros y Hy x Hx. unfold m1 in Hx. simpl in Hx. destruct (Nat.eq_dec y n) as [->|Hn]; [rewrite upd_at in Hx; discriminate|].
        rewrite upd_else in Hx by auto. apply (V y); simpl; auto. }
      split; [exact Q1|]. split; [exact Q2|]. split.
      { eapply only_trans; [|eapply only_more; [|exact Q3]; intros y; simpl; auto]. intros y Hy. unfold m1. simpl.
        rewrite upd_else by (intros ->; apply Hy; now left). auto. }
      split; [exact Q4|]. split; [exact Q5|]. split; [exact Q6|].
      intros y. destruct (Q7 y) as [Q|[Qn Q]]; auto. destruct (Nat.eq_dec y n) as [->|Hn].
      + left. rewrite Q. apply upd_at.
      + right. split; [intros [->|H]; auto|]. rewrite Q. now apply upd_else.
  Qed.

  Lemma free_outs_spec d k : forall ns hands m, NoDup ns -> incl k ns -> acc ns hands m -> fine m ->
    (forall n, In n k -> o_is m d n) -> let m' := free_outs d k m in
    acc ns hands m' /\ fine m' /\ only k m m' /\ made m' = made m /\ vert m' = vert m /\ prp m' = prp m /\
    (forall n, outs m' n = [] \/ ~ In n k /\ outs m' n = outs m n).
  Proof.
    induction k as [|n k IH]; intros ns hands m N I A F V; simpl.
    - split; [auto|]. split; [auto|]. split; [apply only_refl|]. repeat split; auto.
    - set (m1 := set_outs n [] (destroy d (outs m n) m)).
      assert (A1 : acc ns hands m1).
      { unfold m1. assert (Q := @acc_set_outs ns n [] hands m N (I n (or_introl eq_refl)) A).
        intros x. specialize (Q x). unfold held, held1 in *. simpl in *. rewrite map_app, map_map, map_id. rewrite !cnt_app in *. lia. }
      assert (F1 : fine m1).
      { unfold m1. intros a x H. simpl in H. apply (@fine_destroy d (outs m n) m F) in H; auto. apply (V n); simpl; auto. }
      destruct (IH ns hands m1 N (fun y Hy => I y (or_intror Hy)) A1 F1) as [Q1 [Q2 [Q3 [Q4 [Q5 [Q6 Q7]]]]]].
      { intros y Hy x Hx. unfold m1 in Hx. simpl in Hx. destruct (Nat.eq_dec y n) as [->|Hn]; [rewrite upd_at in Hx; destruct Hx|].
        rewrite upd_else in Hx by auto. apply (V y); simpl; auto. }
      split; [exact Q1|]. split; [exact Q2|]. split.
      { eapply only_trans; [|eapply only_more; [|exact Q3]; intros y; simpl; auto]. intros y Hy. unfold m1. simpl.
        rewrite upd_else by (intros ->; apply Hy; now left). auto. }
      split; [exact Q4|]. split; [exact Q5|]. split; [exact Q6|].
      intros y. destruct (Q7 y) as [Q|[Qn Q]]; auto. destruct (Nat.eq_dec y n) as [->|Hn].
      + left. rewrite Q. apply upd_at.
      + right. split; [intros [->|H]; auto|]. rewrite Q. now apply upd_else.
  Qed.

  Lemma unprop_spec d k : forall ns hands m, NoDup ns -> incl k ns -> acc ns hands m -> fine m ->
    (forall n, In n k -> p_is m n) -> d = m_free c -> let m' := unprop d k m in
    acc ns hands m' /\ fine m' /\ only k m m' /\ made m' = made m /\ vert m' = vert m /\ outs m' = outs m /\
    (forall n, prp m' n = None \/ ~ In n k /\ prp m' n = prp m n).
  Proof.
    induction k as [|n k IH]; intros ns hands m N I A F V D; simpl.
    - split; [auto|]. split; [auto|]. split; [apply only_refl|]. repeat split; auto.
    - set (m1 := set_prp n None (destroy d (opt (prp m n)) m)).
      assert (A1 : acc ns hands m1).
      { unfold m1. assert (Q := @acc_set_prp ns n None hands m N (I n (or_introl eq_refl)) A).
        intros x. specialize (Q x). unfold held, held1 in *. simpl in *. rewrite map_app, map_map, map_id. rewrite !cnt_app in *. lia. }
      assert (F1 : fine m1).
      { unfold m1. intros a x H. simpl in H. apply (@fine_destroy d (opt (prp m n)) m F) in H; auto.
        intros y Hy. destruct (prp m n) as [z|] eqn:E; simpl in Hy; [|tauto]. destruct Hy as [<-|[]]. rewrite D. apply (V n); simpl; auto. }
      destruct (IH ns hands m1 N (fun y Hy => I y (or_intror Hy)) A1 F1) as [Q1 [Q2 [Q3 [Q4 [Q5 [Q6 Q7]]]]]]; auto.
      { intros y Hy x Hx. unfold m1 in Hx. simpl in Hx. destruct (Nat.eq_dec y n) as [->|Hn]; [rewrite upd_at in Hx; discriminate|].
        rewrite upd_else in Hx by auto. apply (V y); simpl; auto. }
      split; [exact Q1|]. split; [exact Q2|]. split.
      { eapply only_trans; [|eapply only_more; [|exact Q3]; intros y; simpl; auto]. intros y Hy. unfold m1. simpl.
        rewrite upd_else by (intros ->; apply Hy; now left). auto. }
      split; [exact Q4|]. split; [exact Q5|]. split; [exact Q6|].
      intros y. destruct (Q7 y) as [Q|[Qn Q]]; auto. destruct (Nat.eq_dec y n) as [->|Hn].
      + left. rewrite Q. apply upd_at.
      + right. split; [intros [->|H]; auto|]. rewrite Q. now apply upd_else.
  Qed.

  Lemma free_nodes_spec dv de k : forall ns hands m, NoDup ns -> incl k ns -> acc ns hands m -> fine m ->
    (forall n, In n k -> v_is m dv n /\ o_is m de n) -> let m' := free_nodes dv de k m in
    acc ns hands m' /\ fine m' /\ only k m m' /\ made m' = made m /\ prp m' = prp m /\
    (forall n, In n k -> vert m' n = None /\ outs m' n = []).
  Proof.
    induction k as [|n k IH]; intros ns hands m N I A F V; simpl.
    - split; [auto|]. split; [auto|]. split; [apply only_refl|]. repeat split; auto; easy.
    - set (m0 := free_outs de [n] m). set (m1 := free_vertices dv [n] m0).
      assert (In1 : incl [n] ns) by (intros y [<-|[]]; apply I; now left).
      destruct (@free_outs_spec de [n] ns hands m N In1 A F) as [B1 [B2 [B3 [B4 [B5 [B6 B7]]]]]].
      { intros y [<-|[]]. apply V. now left. }
      fold m0 in B1, B2, B3, B4, B5, B6, B7.
      destruct (@free_vertices_spec dv [n] ns hands m0 N In1 B1 B2) as [C1 [C2 [C3 [C4 [C5 [C6 C7]]]]]].
      { intros y [<-|[]]. unfold v_is. rewrite B5. apply V. now left. }
      fold m1 in C1, C2, C3, C4, C5, C6, C7.
      assert (E : m1 = set_vert n None (destroy dv (opt (vert m n)) (set_outs n [] (destroy de (outs m n) m)))) by reflexivity.
      rewrite <- E.
      assert (O1 : only (n :: k) m m1).
      { eapply only_trans; eapply only_more; try eassumption; intros y [<-|[]]; now left. }
      assert (K1 : vert m1 n = None /\ outs m1 n = []).
      { split.
        - destruct (C7 n) as [|[H _]]; auto. exfalso. apply H. now left.
        - rewrite C5. destruct (B7 n) as [|[H _]]; auto. exfalso. apply H. now left. }
      assert (V1 : forall y, In y k -> v_is m1 dv y /\ o_is m1 de y).
      { intros y Hy. destruct (V y (or_intror Hy)) as [V1 V2]. split.
        - intros x Hx. destruct (C7 y) as [H|[_ H]]; [congruence|]. rewrite H, B5 in Hx. auto.
        - intros x Hx. rewrite C5 in Hx. destruct (B7 y) as [H|[_ H]]; rewrite H in Hx; [destruct Hx|auto]. }
      destruct (IH ns hands m1 N (fun y Hy => I y (or_intror Hy)) C1 C2 V1) as [Q1 [Q2 [Q3 [Q4 [Q5 Q6]]]]].
      split; [exact Q1|]. split; [exact Q2|]. split.
      { eapply only_trans; [exact O1|]. eapply only_more; [|exact Q3]. intros y; simpl; auto. }
      split; [congruence|]. split; [congruence|].
      intros y [<-|Hy]; auto. destruct (in_dec Nat.eq_dec n k) as [Hk|Hk]; auto.
      destruct (Q3 n Hk) as [-> [-> _]]. exact K1.
  Qed.

  Lemma take_outs_spec k : forall e ns hands m, NoDup ns -> incl k ns -> acc ns (e ++ hands) m -> fine m ->
    (forall n x, In n k -> In x (outs m n) -> proper x = e_free c) -> (forall x, In x e -> proper x = e_free c) ->
    exists e' m', take_outs k e m = (e', m') /\
    acc ns (e' ++ hands) m' /\ fine m' /\ only k m m' /\ made m' = made m /\ vert m' = vert m /\ prp m' = prp m /\
    (forall x, In x e' -> proper x = e_free c) /\
    (forall n, outs m' n = [] \/ ~ In n k /\ outs m' n = outs m n).
  Proof.
    induction k as [|n k IH]; intros e ns hands m N I A F V E; simpl.
    - exists e, m. split; [auto|]. split; [auto|]. split; [auto|]. split; [apply only_refl|]. repeat split; auto.
    - set (m1 := set_outs n [] m).
      assert (A1 : acc ns ((rev (outs m n) ++ e) ++ hands) m1).
      { unfold m1. assert (Q := @acc_set_outs ns n [] (e ++ hands) m N (I n (or_introl eq_refl)) A).
        eapply acc_hands; [|exact Q]. intros x. rewrite !cnt_app. rewrite (@cnt_perm (rev (outs m n)) (outs m n)); [lia|].
        symmetry. apply Permutation_rev. }
      destruct (IH (rev (outs m n) ++ e) ns hands m1 N (fun y Hy => I y (or_intror Hy)) A1 F)
        as [e' [m' [Q0 [Q1 [Q2 [Q3 [Q4 [Q5 [Q6 [Q8 Q7]]]]]]]]]].
      { intros y x Hy Hx. unfold m1 in Hx. simpl in Hx. destruct (Nat.eq_dec y n) as [->|Hn]; [rewrite upd_at in Hx; destruct Hx|].
        rewrite upd_else in Hx by auto. apply (V y); simpl; auto. }
      { intros x Hx. apply in_app_or in Hx as [Hx|Hx]; auto. apply in_rev in Hx. apply (V n); simpl; auto. }
      exists e', m'. split; [exact Q0|]. split; [exact Q1|]. split; [exact Q2|]. split.
      { eapply only_trans; [|eapply only_more; [|exact Q3]; intros y; simpl; auto]. intros y Hy. unfold m1. simpl.
        rewrite upd_else by (intros ->; apply Hy; now left). auto. }
      split; [exact Q4|]. split; [exact Q5|]. split; [exact Q6|]. split; [exact Q8|].
      intros y. destruct (Q7 y) as [Q|[Qn Q]]; auto. destruct (Nat.eq_dec y n) as [->|Hn].
      + left. rewrite Q. apply upd_at.
      + right. split; [intros [->|H]; auto|]. rewrite Q. now apply upd_else.
  Qed.

  Lemma fuse_class_spec k err m ns m' e : NoDup ns -> incl k ns -> k <> [] -> acc ns [] m -> fine m ->
    (forall n, In n k -> v_is m (v_free c) n) -> NoDup (made m) -> ~ In (NV (hd 0 k)) (made m) ->
    fuse_class c k err m = (m', e) ->
    acc ns [] m' /\ fine m' /\ only k m m' /\ NoDup (made m') /\ outs m' = outs m /\ prp m' = prp m /\
    (forall n, In n k -> v_is m' (kv_free c) n) /\ (made m' = made m \/ made m' = NV (hd 0 k) :: made m).
  Proof.
    intros N I K A F V Nm Fr H. unfold fuse_class in H.
    destruct (err || negb (fusing c) && (2 <=? length k)) eqn:E0; [|destruct (fusing c) eqn:Ef]; cbn [orb andb negb] in H.
    - destruct k as [|h t]; [easy|]. apply pair_equal_spec in H as [<- <-].
      destruct (@free_vertices_spec (v_free c) (h :: t) ns [] m N I A F V) as [Q1 [Q2 [Q3 [Q4 [Q5 [Q6 Q7]]]]]].
      split; [exact Q1|]. split; [exact Q2|]. split; [exact Q3|]. rewrite Q4. repeat split; auto.
      intros n Hn x Hx. destruct (Q7 n) as [H|[H _]]; [congruence|easy].
    - destruct k as [|h t]; [easy|]. destruct (v_fails c (h :: t)).
      + apply pair_equal_spec in H as [<- <-].
        destruct (@free_vertices_spec (v_free c) (h :: t) ns [] m N I A F V) as [Q1 [Q2 [Q3 [Q4 [Q5 [Q6 Q7]]]]]].
        split; [exact Q1|]. split; [exact Q2|]. split; [exact Q3|]. rewrite Q4. repeat split; auto.
        intros n Hn x Hx. destruct (Q7 n) as [H|[H _]]; [congruence|easy].
      + apply pair_equal_spec in H as [<- <-].
        assert (A' : acc ns [NV h] (make [NV h] m)) by (apply (@acc_make ns [NV h] [] m A)).
        destruct (@free_vertices_spec (v_free c) (h :: t) ns [NV h] (make [NV h] m) N I A' F V) as [Q1 [Q2 [Q3 [Q4 [Q5 [Q6 Q7]]]]]].
        set (m1 := free_vertices (v_free c) (h :: t) (make [NV h] m)) in *.
        assert (Z : vert m1 h = None) by (destruct (Q7 h) as [Z|[Z _]]; auto; exfalso; apply Z; now left).
        split; [|split; [exact Q2|split; [|split; [|split; [|split; [|split]]]]]].
        * assert (Q := @acc_set_vert ns h (Some (NV h)) [] m1 N (I h (or_introl eq_refl)) Q1). rewrite Z in Q. exact Q.
        * intros n Hn. simpl. rewrite upd_else by (intros ->; apply Hn; now left). apply (Q3 n Hn).
        * simpl in *. rewrite Q4. constructor; auto.
        * exact Q5.
        * exact Q6.
        * intros n Hn x Hx. simpl in Hx. destruct (Nat.eq_dec n h) as [->|Hh].
          { rewrite upd_at in Hx. injection Hx as <-. reflexivity. }
          rewrite upd_else in Hx by auto. destruct (Q7 n) as [Y|[Y _]]; [congruence|easy].
        * right. simpl in *. now rewrite Q4.
    - apply pair_equal_spec in H as [<- <-]. split; [auto|]. split; [auto|]. split; [apply only_refl|]. repeat split; auto.
      intros n Hn. rewrite Hv by auto. auto.
  Qed.

  Lemma reduce_brigade_spec h b : forall j err result ns hands m r e m',
    acc ns (concat b ++ result ++ hands) m -> fine m -> (forall x, In x (concat b) -> proper x = e_free c) ->
    (forall x, In x result -> proper x = ke_free c) -> NoDup (made m) -> (forall i, In (NL h i) (made m) -> i < j) ->
    reduce_brigade c h j b err result m = (r, e, m') ->
    acc ns (r ++ hands) m' /\ fine m' /\ vert m' = vert m /\ outs m' = outs m /\ prp m' = prp m /\
    (forall x, In x r -> proper x = ke_free c) /\ NoDup (made m') /\
    exists new, made m' = new ++ made m /\ forall x, In x new -> exists i, x = NL h i.
  Proof.
    induction b as [|y b IH]; intros j err result ns hands m r e m' A F O R Nm Lt H; simpl in H.
    - injection H as <- <- <-. simpl in A. repeat split; auto. exists []. simpl. split; auto. easy.
    - simpl in A, O. destruct (err || e_fails c y).
      + apply IH with (ns := ns) (hands := hands) in H; [exact H| | | | | |]; auto.
        * apply acc_destroy. rewrite <- app_assoc in A. exact A.
        * apply fine_destroy; auto. intros x Hx. apply O. apply in_or_app. auto.
        * intros x Hx. apply O. apply in_or_app. auto.
        * simpl. intros i Hi. apply Lt in Hi. lia.
      + assert (A1 : acc ns (concat b ++ (NL h j :: result) ++ hands) (destroy (e_free c) y (make [NL h j] m))).
        { apply acc_destroy. eapply acc_hands; [|apply (@acc_make ns [NL h j] _ m A)]. 
          intros x. rewrite !cnt_app. change (NL h j :: result) with ([NL h j] ++ result). rewrite cnt_app. lia. }
        apply IH with (ns := ns) (hands := hands) in H; auto.
        * destruct H as [Q1 [Q2 [Q3 [Q4 [Q5 [Q6 [Q7 [new [Q8 Q9]]]]]]]]].
          split; [exact Q1|]. split; [exact Q2|]. repeat split; auto. exists (new ++ [NL h j]). simpl in Q8. rewrite <- app_assoc. split; [exact Q8|].
          intros x Hx. apply in_app_or in Hx as [Hx|[<-|[]]]; eauto.
        * apply fine_destroy; auto. intros x Hx. apply O. apply in_or_app. auto.
        * intros x Hx. apply O. apply in_or_app. auto.
        * intros x [<-|Hx]; auto.
        * simpl. constructor; auto. intros Hx. apply Lt in Hx. lia.
        * simpl. intros i [Hi|Hi]; [injection Hi; lia|apply Lt in Hi; lia].
  Qed.

  Lemma fused_edges_spec k ns m r e m' : NoDup ns -> incl k ns -> acc ns [] m -> fine m ->
    (forall n, In n k -> o_is m (e_free c) n) -> NoDup (made m) -> (forall i, ~ In (NL (hd 0 k) i) (made m)) ->
    fused_edges c k m = (r, e, m') ->
    acc ns r m' /\ fine m' /\ only k m m' /\ vert m' = vert m /\ prp m' = prp m /\
    (forall n, outs m' n = [] \/ ~ In n k /\ outs m' n = outs m n) /\ (forall x, In x r -> proper x = new_e_free) /\ NoDup (made m') /\
    exists new, made m' = new ++ made m /\ forall x, In x new -> exists i, x = NL (hd 0 k) i.
  Proof.
    intros N I A F O Nm Fr H. unfold fused_edges in H.
    destruct (@take_outs_spec k [] ns [] m N I A F) as [l [m1 [E [Q1 [Q2 [Q3 [Q4 [Q5 [Q6 [Q7 Q8]]]]]]]]]].
    { intros n x Hn. apply O. auto. }
    { intros x []. }
    rewrite E in H. rewrite app_nil_r in Q1.
    set (kept := filter (fun x => negb (rejects c x)) l) in *.
    set (m2 := destroy (e_free c) (filter (rejects c) l) m1) in *.
    assert (A2 : acc ns kept m2).
    { unfold m2. apply acc_destroy. eapply acc_hands; [|exact Q1]. intros x. rewrite cnt_app. unfold kept. now rewrite cnt_filter. }
    assert (F2 : fine m2).
    { apply fine_destroy; auto. intros x Hx. apply filter_In in Hx as [Hx _]. auto. }
    assert (P2 : forall x, In x kept -> proper x = e_free c) by (intros x Hx; apply filter_In in Hx as [Hx _]; auto).
    destruct (p_fails c k).
    { injection H as <- <- <-. split; [apply acc_destroy; now rewrite app_nil_r|]. split; [now apply fine_destroy|].
      split; [exact Q3|]. split; [exact Q5|]. split; [exact Q6|]. split; [exact Q8|]. split; [easy|]. simpl. rewrite Q4. split; [auto|].
      exists []. split; auto. easy. }
    destruct (reducing c) eqn:Er.
    - destruct (reduce_brigade c (hd 0 k) 0 (marshalled (judy c) (terminus c) kept) false [] m2) as [[r3 e3] m3] eqn:E3.
      assert (G : Permutation (concat (marshalled (judy c) (terminus c) kept)) kept).
      { pose proof (marshalled_grouping (judy c) (terminus c) kept) as G. apply G. }
      apply reduce_brigade_spec with (ns := ns) (hands := []) in E3; auto.
      + destruct E3 as [R1 [R2 [R3 [R4 [R5 [R6 [R7 R8]]]]]]]. rewrite app_nil_r in R1. simpl in R3, R4, R5.
        assert (Z : exists new, made m3 = new ++ made m /\ forall x, In x new -> exists i, x = NL (hd 0 k) i).
        { destruct R8 as [new [R8 R9]]. exists new. split; auto. rewrite R8. simpl. now rewrite Q4. }
        assert (O3 : only k m m3).
        { intros n Hn. destruct (Q3 n Hn) as [U1 [U2 U3]]. rewrite R3, R4, R5. auto. }
        assert (O4 : forall n, outs m3 n = [] \/ ~ In n k /\ outs m3 n = outs m n) by (intros n; rewrite R4; apply Q8).
        destruct e3; injection H as <- <- <-.
        * split; [apply acc_destroy; now rewrite app_nil_r|]. split; [now apply fine_destroy|]. split; [exact O3|].
          simpl. rewrite R3, R5. split; [auto|]. split; [auto|]. split; [exact O4|]. split; [easy|]. auto.
        * split; [exact R1|]. split; [exact R2|]. split; [exact O3|]. rewrite R3, R5. split; [auto|]. split; [auto|]. split; [exact O4|].
          unfold new_e_free. rewrite Er. auto.
      + rewrite app_nil_r. eapply acc_hands; [|exact A2]. intros x. now rewrite (cnt_perm x G).
      + intros x Hx. apply P2. eapply Permutation_in; eauto.
      + intros x [].
      + simpl. now rewrite Q4.
      + intros i Hi. simpl in Hi. rewrite Q4 in Hi. now apply Fr in Hi.
    - injection H as <- <- <-.
      split. { apply acc_destroy. eapply acc_hands; [|exact A2]. intros x. rewrite cnt_app. now rewrite cnt_filter. }
      split. { apply fine_destroy; auto. intros x Hx. apply filter_In in Hx as [Hx _]. auto. }
      split; [exact Q3|]. split; [exact Q5|]. split; [exact Q6|]. split; [exact Q8|]. split.
      { intros x Hx. unfold new_e_free. rewrite Er. apply filter_In in Hx as [Hx _]. auto. }
      simpl. rewrite Q4. split; auto. exists []. split; auto. easy.
  Qed.

  Lemma merge_class_edges_spec k err ns m m' e : NoDup ns -> incl k ns -> k <> [] -> acc ns [] m -> fine m ->
    (forall n, In n k -> o_is m (e_free c) n) -> NoDup (made m) -> (forall i, ~ In (NL (hd 0 k) i) (made m)) ->
    merge_class_edges c k err m = (m', e) ->
    acc ns [] m' /\ fine m' /\ only k m m' /\ vert m' = vert m /\ prp m' = prp m /\
    (forall n, In n k -> o_is m' new_e_free n) /\ NoDup (made m') /\
    exists new, made m' = new ++ made m /\ forall x, In x new -> exists i, x = NL (hd 0 k) i.
  Proof.
    intros N I K A F O Nm Fr H. unfold merge_class_edges in H. destruct err.
    - injection H as <- <-.
      destruct (@free_outs_spec (e_free c) k ns [] m N I A F O) as [Q1 [Q2 [Q3 [Q4 [Q5 [Q6 Q7]]]]]].
      split; [exact Q1|]. split; [exact Q2|]. split; [exact Q3|]. split; [exact Q5|]. split; [exact Q6|]. split.
      { intros n Hn x Hx. destruct (Q7 n) as [Y|[Y _]]; [rewrite Y in Hx; destruct Hx|easy]. }
      rewrite Q4. split; auto. exists []. split; auto. easy.
    - destruct (fused_edges c k m) as [[r e1] m1] eqn:E. injection H as <- <-.
      destruct (@fused_edges_spec k ns m r e1 m1 N I A F O Nm Fr E) as [Q1 [Q2 [Q3 [Q4 [Q5 [Q6 [Q7 [Q8 Q9]]]]]]]].
      destruct k as [|h t]; [easy|]. simpl hd in *.
      assert (Z : outs m1 h = []) by (destruct (Q6 h) as [Z|[Z _]]; auto; exfalso; apply Z; now left).
      split. { assert (Q := @acc_set_outs ns h r [] m1 N (I h (or_introl eq_refl))). rewrite Z in Q. apply Q. now rewrite app_nil_r. }
      split; [exact Q2|]. split.
      { intros n Hn. simpl. rewrite upd_else by (intros ->; apply Hn; now left). apply (Q3 n Hn). }
      split; [exact Q4|]. split; [exact Q5|]. split; [|split; [exact Q8|exact Q9]].
      intros n Hn x Hx. simpl in Hx. destruct (Nat.eq_dec n h) as [->|Hh]; [rewrite upd_at in Hx; auto|].
      rewrite upd_else in Hx by auto. destruct (Q6 n) as [Y|[Y _]]; [rewrite Y in Hx; destruct Hx|easy].
  Qed.

  (** ** The invariant *)
  Definition nodes (l : list (nat * list nat)) : list nat := flat_map snd l.
  Definition live (s : st) : list nat := nodes (todo s) ++ nodes (fused s) ++ dels s ++ surv s ++ queue s.

  Lemma nodes_mid l1 i k l2 : Permutation (nodes (l1 ++ (i, k) :: l2)) (k ++ nodes (l1 ++ l2)).
  Proof.
    unfold nodes. rewrite !flat_map_app. simpl. rewrite app_assoc, (Permutation_app_comm (flat_map snd l1) k), <- app_assoc. reflexivity.
  Qed.

  Variable lanes : nat.
  Variable degree : nat -> nat.
  Variable ns : list nat.

  Record inv (s : st) : Prop := {
    i_live : NoDup (live s);
    i_acc : acc (live s) [] (memory s);
    i_made : NoDup (made (memory s));
    i_given : exists new, made (memory s) = new ++ made (full degree ns) /\ forall x, In x new -> exists n, x = NV n \/ exists j, x = NL n j;
    i_fine : fine (memory s);
    i_classes : forall i k, In (i, k) (todo s ++ fused s) -> i < lanes /\ k <> [];
    i_todo : forall n, In n (nodes (todo s)) -> v_is (memory s) (match ph s with Fusing => v_free c | _ => kv_free c end) n;
    i_todo_e : forall n, In n (nodes (todo s)) -> o_is (memory s) (e_free c) n;
    i_fused : forall n, In n (nodes (fused s)) -> v_is (memory s) (kv_free c) n /\ o_is (memory s) (e_free c) n;
    i_dels : forall n, In n (dels s) -> v_is (memory s) (v_free c) n /\ o_is (memory s) (e_free c) n;
    i_surv : forall n, In n (surv s ++ queue s) -> v_is (memory s) (kv_free c) n /\ o_is (memory s) new_e_free n;
    i_prp : forall n, In n (live s) -> p_is (memory s) n;
    i_nv : ph s = Fusing -> forall n, In n (nodes (todo s)) -> ~ In (NV n) (made (memory s));
    i_nl : ph s <> Demerging -> forall n j, In n (nodes (todo s) ++ nodes (fused s)) -> ~ In (NL n j) (made (memory s));
    i_ph : match ph s with
           | Fusing => surv s = [] /\ queue s = []
           | Edges => fused s = [] /\ queue s = []
           | Demerging => fused s = [] /\ (failed s = true -> queue s = [])
           | Finished => todo s = [] /\ fused s = [] /\ dels s = [] /\ surv s = [] /\ (failed s = true -> queue s = []) /\
                         forall n, In n (queue s) -> prp (memory s) n = None
           end;
    i_size : length (live s) <= length ns
  }.

  Lemma acc_drop k l m : (forall n, In n k -> held1 m n = []) -> acc (k ++ l) [] m -> acc l [] m.
  Proof.
    intros H A x. assert (E : held m k = []).
    { unfold held. induction k as [|n k IH]; simpl; auto. rewrite H by (now left). simpl. apply IH; [intros; apply H; now right|].
      intros y. rewrite <- (A y). rewrite held_app, held_app. simpl. rewrite H by (now left). reflexivity. }
    rewrite <- (A x), held_app, E. reflexivity.
  Qed.
  Lemma held1_empty m n : vert m n = None -> outs m n = [] -> prp m n = None -> held1 m n = [].
  Proof. intros A B D. unfold held1. now rewrite A, B, D. Qed.

  Lemma v_out k m m' n d : only k m m' -> ~ In n k -> v_is m d n -> v_is m' d n.
  Proof. intros O Hn. destruct (O n Hn) as [A _]. unfold v_is. now rewrite A. Qed.
  Lemma o_out k m m' n d : only k m m' -> ~ In n k -> o_is m d n -> o_is m' d n.
  Proof. intros O Hn. destruct (O n Hn) as [_ [A _]]. unfold o_is. now rewrite A. Qed.
  Lemma p_out k m m' n : only k m m' -> ~ In n k -> p_is m n -> p_is m' n.
  Proof. intros O Hn. destruct (O n Hn) as [_ [_ A]]. unfold p_is. now rewrite A. Qed.

  (** Freeing some of the nodes *)
  Lemma freeing dv de k l m : NoDup (k ++ l) -> acc (k ++ l) [] m -> fine m ->
    (forall n, In n k -> v_is m dv n /\ o_is m de n /\ p_is m n) ->
    let m' := free_nodes dv de k (unprop (m_free c) k m) in
    acc l [] m' /\ fine m' /\ only k m m' /\ made m' = made m.
  Proof.
    intros N A F V. cbv zeta.
    assert (I : incl k (k ++ l)) by (intros x Hx; apply in_or_app; auto).
    destruct (@unprop_spec (m_free c) k (k ++ l) [] m N I A F) as [Q1 [Q2 [Q3 [Q4 [Q5 [Q6 Q7]]]]]]; auto.
    { intros n Hn. apply V. auto. }
    set (m1 := unprop (m_free c) k m) in *.
    destruct (@free_nodes_spec dv de k (k ++ l) [] m1 N I Q1 Q2) as [R1 [R2 [R3 [R4 [R5 R6]]]]].
    { intros n Hn. unfold v_is, o_is. rewrite Q5, Q6. destruct (V n Hn) as [V1 [V2 _]]. auto. }
    split; [|split; [exact R2|split; [eapply only_trans; eauto|congruence]]].
    eapply acc_drop; [|exact R1]. intros n Hn. destruct (R6 n Hn) as [B1 B2]. apply held1_empty; auto.
    rewrite R5. destruct (Q7 n) as [|[Z _]]; easy.
  Qed.

  Lemma NoDup_not_in {A} (k l : list A) : NoDup (k ++ l) -> forall x, In x l -> ~ In x k.
  Proof.
    intros N x Hl Hk. induction k as [|a k IH]; simpl in *; auto. inversion N; subst. destruct Hk as [->|Hk]; auto.
    apply H1. apply in_or_app. auto.
  Qed.
  Lemma NoDup_tail {A} (k l : list A) : NoDup (k ++ l) -> NoDup l.
  Proof. induction k as [|a k IH]; simpl; auto. intros N. inversion N; auto. Qed.

  Ltac stay Q := first [eapply v_out; [exact Q|..]|eapply o_out; [exact Q|..]].

  Lemma inv_step s s' : inv s -> step c lanes s s' -> inv s'.
  Proof.
    intros [I1 I2 I3 I4 I5 I6 I7 I7e I8 I9 I10 I11 I12 I13 I14 I15] St. destruct St as
      [i k l1 l2 s m e P Hi T H|s P T|i k l1 l2 s m e P Hi T H|s P T|i k l1 l2 s P T|n l1 l2 s P T|n l1 l2 s P T|s P T D V].
    - (* fuse_step *)
      rewrite P in *. destruct I14 as [Ps Pq].
      assert (Pl : Permutation (live s) (k ++ nodes (l1 ++ l2) ++ nodes (fused s) ++ dels s ++ surv s ++ queue s)).
      { unfold live. rewrite T, nodes_mid, <- app_assoc. reflexivity. }
      assert (Kn : forall n, In n k -> In n (nodes (todo s))).
      { intros n Hn. rewrite T. eapply Permutation_in; [symmetry; apply nodes_mid|]. apply in_or_app. auto. }
      assert (Kr : forall n, In n (nodes (l1 ++ l2)) -> In n (nodes (todo s))).
      { intros n Hn. rewrite T. eapply Permutation_in; [symmetry; apply nodes_mid|]. apply in_or_app. auto. }
      destruct (I6 i k) as [_ K0]. { rewrite T. apply in_or_app. left. apply in_or_app. right. now left. }
      assert (Kh : In (hd 0 k) k) by (destruct k; [easy|now left]).
      assert (Li : incl k (live s)).
      { intros n Hn. unfold live. apply in_or_app. left. auto. }
      destruct (@fuse_class_spec k (werrs s i) (memory s) (live s) m e I1 Li K0 I2 I5) as [Q1 [Q2 [Q3 [Q4 [Q5 [Q6 [Q7 Q8]]]]]]]; auto.
      assert (Nk : NoDup (k ++ nodes (l1 ++ l2) ++ nodes (fused s) ++ dels s ++ surv s ++ queue s)) by (eapply Permutation_NoDup; eauto).
      pose proof (NoDup_not_in _ _ Nk) as Out.
      assert (Pl' : Permutation (live s) (nodes (l1 ++ l2) ++ nodes ((i, k) :: fused s) ++ dels s ++ surv s ++ queue s)).
      { rewrite Pl. simpl. rewrite <- app_assoc, app_assoc, (Permutation_app_comm k), <- app_assoc. reflexivity. }
      assert (Mi : forall x, In x (made m) -> In x (made (memory s)) \/ x = NV (hd 0 k)).
      { intros x Hx. destruct Q8 as [Q8|Q8]; rewrite Q8 in Hx; auto. destruct Hx as [<-|Hx]; auto. }
      split; simpl.
      + eapply Permutation_NoDup; eauto.
      + eapply acc_perm; eauto.
      + exact Q4.
      + destruct I4 as [new [I4 I4']]. destruct Q8 as [Q8|Q8]; rewrite Q8, I4; [exists new; auto|]. exists (NV (hd 0 k) :: new). split; auto.
        intros x [<-|Hx]; eauto.
      + exact Q2.
      + intros j k' Hj. apply I6. rewrite T. apply in_app_or in Hj as [Hj|[Hj|Hj]].
        * apply in_or_app. left. apply in_app_or in Hj as [Hj|Hj]; apply in_or_app; simpl; auto.
        * injection Hj as <- <-. apply in_or_app. left. apply in_or_app. right. now left.
        * apply in_or_app. auto.
      + intros n Hn. stay Q3; [apply Out; apply in_or_app; auto|auto].
      + intros n Hn. unfold o_is. rewrite Q5. apply I7e. auto.
      + intros n Hn. unfold o_is. rewrite Q5. apply in_app_or in Hn as [Hn|Hn].
        * split; auto. apply I7e. auto.
        * destruct (I8 n Hn) as [A B]. split; auto. stay Q3; auto. apply Out. apply in_or_app. right. apply in_or_app. auto.
      + intros n Hn. unfold o_is. rewrite Q5. destruct (I9 n Hn) as [A B]. split; auto. stay Q3; auto. apply Out.
        apply in_or_app. right. apply in_or_app. right. apply in_or_app. auto.
      + rewrite Ps, Pq. easy.
      + intros n Hn. unfold p_is. rewrite Q6. apply I11. eapply Permutation_in; [symmetry; exact Pl'|exact Hn].
      + intros _ n Hn Hm. apply Mi in Hm as [Hm|Hm]; [exact (I12 eq_refl n (Kr n Hn) Hm)|]. assert (Z : n = hd 0 k) by congruence. subst n. eapply Out; [|exact Kh]. apply in_or_app. auto.
      + intros _ n j Hn Hm. apply Mi in Hm as [Hm|Hm]; [|discriminate]. eapply (I13 ltac:(discriminate)); [|exact Hm].
        apply in_app_or in Hn as [Hn|Hn]; [apply in_or_app; auto|]. apply in_app_or in Hn as [Hn|Hn]; apply in_or_app; auto.
      + auto.
      + rewrite (Permutation_length Pl') in I15. exact I15.
    - (* fused_step *)
      rewrite P in *. destruct I14 as [Ps Pq].
      assert (El : live s = nodes (fused s) ++ nodes [] ++ dels s ++ surv s ++ queue s) by (unfold live; rewrite T; reflexivity).
      set (s' := mkSt _ _ _ _ _ _ _ _ _). assert (El' : live s' = live s) by (rewrite El; reflexivity).
      split; rewrite ?El'; simpl; auto.
      + intros i k H. rewrite app_nil_r in H. apply I6. apply in_or_app. auto.
      + intros n Hn. destruct (any_error lanes s); apply I8; auto.
      + intros n Hn. apply I8. auto.
      + easy.
      + destruct (any_error lanes s); discriminate.
      + intros _ n j Hn. rewrite app_nil_r in Hn. apply I13; [discriminate|]. apply in_or_app. auto.
      + destruct (any_error lanes s); simpl; auto.
    - (* edge_step *)
      rewrite P in *. destruct I14 as [Pf Pq].
      assert (Pl : Permutation (live s) (k ++ nodes (l1 ++ l2) ++ nodes (fused s) ++ dels s ++ surv s ++ queue s)).
      { unfold live. rewrite T, nodes_mid, <- app_assoc. reflexivity. }
      assert (Kn : forall n, In n k -> In n (nodes (todo s))).
      { intros n Hn. rewrite T. eapply Permutation_in; [symmetry; apply nodes_mid|]. apply in_or_app. auto. }
      assert (Kr : forall n, In n (nodes (l1 ++ l2)) -> In n (nodes (todo s))).
      { intros n Hn. rewrite T. eapply Permutation_in; [symmetry; apply nodes_mid|]. apply in_or_app. auto. }
      destruct (I6 i k) as [_ K0]. { rewrite T. apply in_or_app. left. apply in_or_app. right. now left. }
      assert (Kh : In (hd 0 k) k) by (destruct k; [easy|now left]).
      assert (Li : incl k (live s)).
      { intros n Hn. unfold live. apply in_or_app. left. auto. }
      destruct (@merge_class_edges_spec k (werrs s i) (live s) (memory s) m e I1 Li K0 I2 I5) as [Q1 [Q2 [Q3 [Q4 [Q5 [Q6 [Q7 [new [Q8 Q9]]]]]]]]]; auto.
      { intros j. apply I13; [discriminate|]. apply in_or_app. auto. }
      assert (Nk : NoDup (k ++ nodes (l1 ++ l2) ++ nodes (fused s) ++ dels s ++ surv s ++ queue s)) by (eapply Permutation_NoDup; eauto).
      pose proof (NoDup_not_in _ _ Nk) as Out.
      assert (Pl' : Permutation (live s) (nodes (l1 ++ l2) ++ nodes (fused s) ++ dels s ++ (k ++ surv s) ++ queue s)).
      { rewrite Pl. rewrite <- (app_assoc k). rewrite !(app_assoc _ _ (k ++ surv s ++ queue s)), (app_assoc _ k), (Permutation_app_comm _ k).
        rewrite <- !app_assoc. reflexivity. }
      split; simpl.
      + eapply Permutation_NoDup; eauto.
      + eapply acc_perm; eauto.
      + exact Q7.
      + destruct I4 as [old [I4 I4']]. rewrite Q8, I4. exists (new ++ old). rewrite app_assoc. split; auto.
        intros x Hx. apply in_app_or in Hx as [Hx|Hx]; auto. destruct (Q9 x Hx) as [j ->]. eauto.
      + exact Q2.
      + intros j k' Hj. apply I6. rewrite T. apply in_app_or in Hj as [Hj|Hj].
        * apply in_or_app. left. apply in_app_or in Hj as [Hj|Hj]; apply in_or_app; simpl; auto.
        * apply in_or_app. auto.
      + intros n Hn. unfold v_is. rewrite Q4. apply I7. auto.
      + intros n Hn. stay Q3; auto. apply Out. apply in_or_app. auto.
      + rewrite Pf. easy.
      + intros n Hn. unfold v_is. rewrite Q4. destruct (I9 n Hn) as [A B]. split; auto. stay Q3; auto. apply Out.
        apply in_or_app. right. apply in_or_app. right. apply in_or_app. auto.
      + intros n Hn. unfold v_is. rewrite Q4. rewrite <- app_assoc in Hn. apply in_app_or in Hn as [Hn|Hn].
        * split; auto. apply I7. auto.
        * destruct (I10 n Hn) as [A B]. split; auto. stay Q3; auto. apply Out.
          apply in_or_app. right. apply in_or_app. right. apply in_or_app. auto.
      + intros n Hn. unfold p_is. rewrite Q5. apply I11. eapply Permutation_in; [symmetry; exact Pl'|exact Hn].
      + discriminate.
      + intros _ n j Hn. rewrite Pf in Hn. simpl in Hn. rewrite app_nil_r in Hn. rewrite Q8. intros Hm. apply in_app_or in Hm as [Hm|Hm].
        * apply Q9 in Hm as [j' Hm]. assert (Z : n = hd 0 k) by congruence. subst n. eapply Out; [|exact Kh]. apply in_or_app. auto.
        * eapply (I13 ltac:(discriminate)); [|exact Hm]. apply in_or_app. auto.
      + auto.
      + rewrite (Permutation_length Pl') in I15. exact I15.
    - (* edges_step *)
      rewrite P in *. destruct I14 as [Pf Pq].
      assert (Pl' : Permutation (live s) (nodes [] ++ nodes (fused s) ++ dels s ++
                      (if any_error lanes s then surv s else filter (fun n => negb (reached c n)) (surv s)) ++
                      (if any_error lanes s then [] else filter (reached c) (surv s)))).
      { unfold live. rewrite T, Pf, Pq. simpl. apply Permutation_app_head. destruct (any_error lanes s); [reflexivity|].
        rewrite app_nil_r. clear. induction (surv s) as [|n l IH]; simpl; auto. destruct (reached c n); simpl; [|now constructor].
        rewrite <- Permutation_middle. now constructor. }
      assert (Sq : forall n, In n ((if any_error lanes s then surv s else filter (fun n => negb (reached c n)) (surv s)) ++
                      (if any_error lanes s then [] else filter (reached c) (surv s))) -> In n (surv s ++ queue s)).
      { intros n Hn. apply in_or_app. left. destruct (any_error lanes s); [now rewrite app_nil_r in Hn|].
        apply in_app_or in Hn as [Hn|Hn]; apply filter_In in Hn as [Hn _]; auto. }
      split; simpl; auto.
      + eapply Permutation_NoDup; eauto.
      + eapply acc_perm; eauto.
      + rewrite Pf. easy.
      + easy.
      + easy.
      + intros n Hn. apply I11. eapply Permutation_in; [symmetry; exact Pl'|exact Hn].
      + split; auto. destruct (any_error lanes s); easy.
      + rewrite (Permutation_length Pl') in I15. exact I15.
    - (* undefer_step *)
      rewrite P in *. destruct I14 as [Pf Pq].
      assert (Pl : Permutation (live s) (k ++ nodes (l1 ++ l2) ++ nodes (fused s) ++ dels s ++ surv s ++ queue s)).
      { unfold live. rewrite T, nodes_mid, <- app_assoc. reflexivity. }
      assert (Kn : forall n, In n k -> In n (nodes (todo s))).
      { intros n Hn. rewrite T. eapply Permutation_in; [symmetry; apply nodes_mid|]. apply in_or_app. auto. }
      assert (Kr : forall n, In n (nodes (l1 ++ l2)) -> In n (nodes (todo s))).
      { intros n Hn. rewrite T. eapply Permutation_in; [symmetry; apply nodes_mid|]. apply in_or_app. auto. }
      assert (Nk : NoDup (k ++ nodes (l1 ++ l2) ++ nodes (fused s) ++ dels s ++ surv s ++ queue s)) by (eapply Permutation_NoDup; eauto).
      pose proof (NoDup_not_in _ _ Nk) as Out.
      destruct (@freeing (kv_free c) (e_free c) k _ (memory s) Nk) as [Q1 [Q2 [Q3 Q4]]]; auto.
      { eapply acc_perm; eauto. }
      { intros n Hn. split; [apply I7; auto|]. split; [apply I7e; auto|]. apply I11. unfold live. apply in_or_app. auto. }
      set (m := free_nodes (kv_free c) (e_free c) k (unprop (m_free c) k (memory s))) in *.
      split; simpl; rewrite ?Q4; auto.
      + apply NoDup_tail in Nk. exact Nk.
      + intros j k' Hj. apply I6. rewrite T. apply in_app_or in Hj as [Hj|Hj].
        * apply in_or_app. left. apply in_app_or in Hj as [Hj|Hj]; apply in_or_app; simpl; auto.
        * apply in_or_app. auto.
      + intros n Hn. stay Q3; auto. apply Out. apply in_or_app. auto.
      + intros n Hn. stay Q3; auto. apply Out. apply in_or_app. auto.
      + rewrite Pf. easy.
      + intros n Hn. destruct (I9 n Hn) as [A B]. assert (~ In n k) by (apply Out; apply in_or_app; right; apply in_or_app; right; apply in_or_app; auto).
        split; stay Q3; auto.
      + intros n Hn. destruct (I10 n Hn) as [A B]. assert (~ In n k) by (apply Out; apply in_or_app; right; apply in_or_app; right; apply in_or_app; auto).
        split; stay Q3; auto.
      + intros n Hn. apply (@p_out k _ _ _ Q3 (Out n Hn)). apply I11. eapply Permutation_in; [symmetry; exact Pl|]. apply in_or_app. auto.
      + rewrite (Permutation_length Pl), app_length in I15. unfold live. simpl. lia.
    - (* undelete_step *)
      rewrite P in *. destruct I14 as [Pf Pq].
      assert (Pl : Permutation (live s) ([n] ++ nodes (todo s) ++ nodes (fused s) ++ (l1 ++ l2) ++ surv s ++ queue s)).
      { unfold live. rewrite T, <- !app_assoc. simpl. rewrite !(app_assoc _ _ (n :: l2 ++ _)), <- Permutation_middle. rewrite <- !app_assoc. reflexivity. }
      assert (Nk : NoDup ([n] ++ nodes (todo s) ++ nodes (fused s) ++ (l1 ++ l2) ++ surv s ++ queue s)) by (eapply Permutation_NoDup; eauto).
      pose proof (NoDup_not_in _ _ Nk) as Out.
      assert (Kn : In n (dels s)) by (rewrite T; apply in_or_app; right; now left).
      assert (Kr : forall y, In y (l1 ++ l2) -> In y (dels s)).
      { intros y Hy. rewrite T. apply in_app_or in Hy as [Hy|Hy]; apply in_or_app; simpl; auto. }
      destruct (@freeing (v_free c) (e_free c) [n] _ (memory s) Nk) as [Q1 [Q2 [Q3 Q4]]]; auto.
      { eapply acc_perm; eauto. }
      { intros y [<-|[]]. destruct (I9 n Kn). split; [auto|]. split; [auto|]. apply I11. eapply Permutation_in; [symmetry; exact Pl|]. now left. }
      set (m := free_nodes (v_free c) (e_free c) [n] (unprop (m_free c) [n] (memory s))) in *.
      split; simpl ph; simpl todo; simpl fused; simpl dels; simpl surv; simpl queue; simpl memory; simpl failed; rewrite ?Q4; auto.
      + apply NoDup_tail in Nk. exact Nk.
      + intros y Hy. stay Q3; auto. apply Out. apply in_or_app. auto.
      + intros y Hy. stay Q3; auto. apply Out. apply in_or_app. auto.
      + rewrite Pf. easy.
      + intros y Hy. destruct (I9 y (Kr y Hy)) as [A B].
        assert (~ In y [n]) by (apply Out; apply in_or_app; right; apply in_or_app; right; apply in_or_app; auto).
        split; stay Q3; auto.
      + intros y Hy. destruct (I10 y Hy) as [A B].
        assert (~ In y [n]) by (apply Out; apply in_or_app; right; apply in_or_app; right; apply in_or_app; auto).
        split; stay Q3; auto.
      + intros y Hy. apply (@p_out [n] _ _ _ Q3 (Out y Hy)). apply I11. eapply Permutation_in; [symmetry; exact Pl|]. apply in_or_app. auto.
      + split; auto.
      + rewrite (Permutation_length Pl), app_length in I15. eapply Nat.le_trans; [|exact I15]. apply Nat.le_add_l.
    - (* unsurvive_step *)
      rewrite P in *. destruct I14 as [Pf Pq].
      assert (Pl : Permutation (live s) ([n] ++ nodes (todo s) ++ nodes (fused s) ++ dels s ++ (l1 ++ l2) ++ queue s)).
      { unfold live. rewrite T, <- !app_assoc. simpl. rewrite !(app_assoc _ _ (n :: l2 ++ _)), <- Permutation_middle. rewrite <- !app_assoc. reflexivity. }
      assert (Nk : NoDup ([n] ++ nodes (todo s) ++ nodes (fused s) ++ dels s ++ (l1 ++ l2) ++ queue s)) by (eapply Permutation_NoDup; eauto).
      pose proof (NoDup_not_in _ _ Nk) as Out.
      assert (Kr : forall y, In y ((l1 ++ l2) ++ queue s) -> In y (surv s ++ queue s)).
      { intros y Hy. rewrite T. apply in_app_or in Hy as [Hy|Hy]; apply in_or_app; auto. left.
        apply in_app_or in Hy as [Hy|Hy]; apply in_or_app; simpl; auto. }
      assert (De : new_e_free = match ke_free c with Some d => Some d | None => e_free c end).
      { unfold new_e_free. destruct (reducing c) eqn:E; [|now rewrite He]. destruct (ke_free c) eqn:E1; auto. symmetry. auto. }
      rewrite <- De.
      destruct (@freeing (kv_free c) new_e_free [n] _ (memory s) Nk) as [Q1 [Q2 [Q3 Q4]]]; auto.
      { eapply acc_perm; eauto. }
      { intros y [<-|[]]. destruct (I10 n). { rewrite T. apply in_or_app. left. apply in_or_app. right. now left. }
        split; [auto|]. split; [auto|]. apply I11. eapply Permutation_in; [symmetry; exact Pl|]. now left. }
      set (m := free_nodes (kv_free c) new_e_free [n] (unprop (m_free c) [n] (memory s))) in *.
      split; simpl ph; simpl todo; simpl fused; simpl dels; simpl surv; simpl queue; simpl memory; simpl failed; rewrite ?Q4; auto.
      + apply NoDup_tail in Nk. exact Nk.
      + intros y Hy. stay Q3; auto. apply Out. apply in_or_app. auto.
      + intros y Hy. stay Q3; auto. apply Out. apply in_or_app. auto.
      + rewrite Pf. easy.
      + intros y Hy. destruct (I9 y Hy) as [A B].
        assert (~ In y [n]) by (apply Out; apply in_or_app; right; apply in_or_app; right; apply in_or_app; auto).
        split; stay Q3; auto.
      + intros y Hy. destruct (I10 y (Kr y Hy)) as [A B].
        assert (~ In y [n]) by (apply Out; apply in_or_app; right; apply in_or_app; right; apply in_or_app; auto).
        split; stay Q3; auto.
      + intros y Hy. apply (@p_out [n] _ _ _ Q3 (Out y Hy)). apply I11. eapply Permutation_in; [symmetry; exact Pl|]. apply in_or_app. auto.
      + split; auto.
      + rewrite (Permutation_length Pl), app_length in I15. eapply Nat.le_trans; [|exact I15]. apply Nat.le_add_l.
    - (* demerged_step *)
      rewrite P in *. destruct I14 as [Pf Pq].
      assert (El : live s = queue s) by (unfold live; rewrite T, Pf, D, V; reflexivity).
      rewrite El in *.
      destruct (@unprop_spec (m_free c) (queue s) (queue s) [] (memory s) I1 (incl_refl _) I2 I5) as [Q1 [Q2 [Q3 [Q4 [Q5 [Q6 Q7]]]]]]; auto.
      split; simpl; rewrite ?Q4; auto.
      + unfold live. simpl. now rewrite Pf.
      + unfold live. simpl. now rewrite Pf.
      + rewrite Pf. easy.
      + easy.
      + easy.
      + rewrite Pf. easy.
      + easy.
      + intros n Hn. unfold v_is, o_is. rewrite Q5, Q6. apply I10. rewrite V. auto.
      + intros n Hn x Hx. destruct (Q7 n) as [Y|[Y _]]; [congruence|]. exfalso. apply Y. unfold live in Hn. simpl in Hn. now rewrite Pf in Hn.
      + rewrite Pf. easy.
      + split; [auto|]. split; [auto|]. split; [auto|]. split; [auto|]. split; [auto|]. intros n Hn. destruct (Q7 n) as [|[Y _]]; easy.
      + unfold live. simpl. now rewrite Pf.
  Qed.

  (** The classes and deletions left by the first pass contain all the nodes once. *)
  Variable ds : nat -> wdata.
  Hypothesis Hns : NoDup ns.
  Hypothesis Hds : Permutation (nodes (deferred lanes ds) ++ deleted lanes ds) ns.
  Hypothesis Hne : forall i k, In k (wclasses (ds i)) -> k <> [].

  Lemma labels_count m n : cnt (labels_of degree n) m = match m with OL n' i => if (n' =? n) && (i <? degree n) then 1 else 0 | _ => 0 end.
  Proof.
    unfold labels_of. generalize (degree n) as k. induction k as [|k IH].
    - destruct m as [y|y i|y|y|y j]; auto. simpl. now rewrite andb_false_r.
    - rewrite seq_S, map_app, cnt_app, IH. cbn [map count_occ Nat.add]. destruct (item_dec (OL n k) m) as [<-|E].
      + rewrite Nat.eqb_refl. simpl andb. destruct (Nat.ltb_spec k k); [lia|]. destruct (Nat.ltb_spec k (S k)); [reflexivity|lia].
      + destruct m as [y|y i|y|y|y j]; auto.
        destruct (Nat.eqb_spec y n) as [->|]; simpl andb; auto. destruct (Nat.ltb_spec i k), (Nat.ltb_spec i (S k)); try lia.
        exfalso. apply E. f_equal. lia.
  Qed.
  Lemma full_nodup l : NoDup l -> NoDup (flat_map (fun n => OV n :: labels_of degree n ++ [PR n]) l).
  Proof.
    intros N. apply (NoDup_count_occ item_dec). intros x.
    assert (Q : forall n, cnt (OV n :: labels_of degree n ++ [PR n]) x <= 1 /\
                 (cnt (OV n :: labels_of degree n ++ [PR n]) x = 0 \/ match x with OV y => y = n | OL y _ => y = n | PR y => y = n | _ => False end)).
    { intros n. change (OV n :: labels_of degree n ++ [PR n]) with ([OV n] ++ labels_of degree n ++ [PR n]).
      rewrite !cnt_app, labels_count. cbn [count_occ].
      destruct x as [y|y i|y|y|y j].
      - destruct (item_dec (OV n) (OV y)) as [E|E]; [injection E as ->|]; (destruct (item_dec (PR _) _); [discriminate|]); simpl; auto.
      - destruct (item_dec (OV n) _); [discriminate|]. destruct (item_dec (PR n) _); [discriminate|]. simpl.
        destruct (Nat.eqb_spec y n); simpl; auto. destruct (i <? degree n); simpl; auto.
      - destruct (item_dec (OV n) _); [discriminate|]. destruct (item_dec (PR n) (PR y)) as [E|E]; [injection E as ->|]; simpl; auto.
      - destruct (item_dec (OV n) _); [discriminate|]. destruct (item_dec (PR n) _); [discriminate|]. simpl. auto.
      - destruct (item_dec (OV n) _); [discriminate|]. destruct (item_dec (PR n) _); [discriminate|]. simpl. auto. }
    induction N as [|n l Hn N IH]; [simpl; auto|].
    change (flat_map (fun n => OV n :: labels_of degree n ++ [PR n]) (n :: l)) with
      ((OV n :: labels_of degree n ++ [PR n]) ++ flat_map (fun n => OV n :: labels_of degree n ++ [PR n]) l).
    rewrite cnt_app. destruct (Q n) as [Q1 [Q2|Q2]]; [lia|].
    enough (cnt (flat_map (fun n => OV n :: labels_of degree n ++ [PR n]) l) x = 0) by lia.
    apply count_occ_not_In. intros Hx. apply in_flat_map in Hx as [y [Hy Hx]].
    apply (count_occ_In item_dec) in Hx. destruct (Q y) as [_ [Q3|Q3]]; [lia|]. destruct x; subst; auto.
  Qed.

  Lemma inv_start : inv (begin lanes ds degree ns).
  Proof.
    assert (Pl : Permutation (live (begin lanes ds degree ns)) ns).
    { unfold live. simpl. rewrite !app_nil_r. exact Hds. }
    split; simpl; auto.
    - eapply Permutation_NoDup; [symmetry; exact Pl|auto].
    - eapply acc_perm; [symmetry; exact Pl|]. intros x. unfold held, held1. simpl. lia.
    - now apply full_nodup.
    - exists []. split; auto. easy.
    - easy.
    - intros i k H. rewrite app_nil_r in H. apply in_flat_map in H as [j [Hj H]]. apply in_map_iff in H as [k' [E H]].
      injection E as <- <-. apply in_seq in Hj. split; [lia|eauto].
    - intros n _ x H. injection H as <-. reflexivity.
    - intros n _ x H. simpl in H. apply in_map_iff in H as [i [<- _]]. reflexivity.
    - easy.
    - intros n _. split; intros x H; simpl in H; [injection H as <-; reflexivity|]. apply in_map_iff in H as [i [<- _]]. reflexivity.
    - easy.
    - intros n _ x H. injection H as <-. reflexivity.
    - intros _ n _ H. apply in_flat_map in H as [y [_ [H|H]]]; [discriminate|]. apply in_app_or in H as [H|[H|[]]]; [|discriminate].
      apply in_map_iff in H as [i [H _]]. discriminate.
    - intros _ n j _ H. apply in_flat_map in H as [y [_ [H|H]]]; [discriminate|]. apply in_app_or in H as [H|[H|[]]]; [|discriminate].
      apply in_map_iff in H as [i [H _]]. discriminate.
    - rewrite (Permutation_length Pl). auto.
  Qed.

  Lemma inv_reached s : star (step c lanes) (begin lanes ds degree ns) s -> inv s.
  Proof. intros H. remember (begin lanes ds degree ns) as s0. induction H; subst; [apply inv_start|eapply inv_step; eauto]. Qed.

  (** In the end, each value there ever was is in the resulting graph or has been destroyed, not both, and not twice. *)
  Theorem C95_destroyed_once s : star (step c lanes) (begin lanes ds degree ns) s -> ph s = Finished ->
    NoDup (map snd (ledger (memory s)) ++ held (memory s) (queue s)) /\
    (forall n, In n ns -> forall x, x = OV n \/ x = PR n \/ (exists i, i < degree n /\ x = OL n i) ->
       In x (map snd (ledger (memory s)) ++ held (memory s) (queue s))) /\
    Permutation (made (memory s)) (map snd (ledger (memory s)) ++ held (memory s) (queue s)).
  Proof.
    intros R P. pose proof (inv_reached R) as [I1 I2 I3 I4 I5 I6 I7 I7e I8 I9 I10 I11 I12 I13 I14 I15]. rewrite P in I14.
    destruct I14 as [E1 [E2 [E3 [E4 [E5 E6]]]]]. unfold live in I2. rewrite E1, E2, E3, E4 in I2. simpl in I2.
    assert (Q : Permutation (made (memory s)) (map snd (ledger (memory s)) ++ held (memory s) (queue s))).
    { apply (Permutation_count_occ item_dec). intros x. rewrite <- (I2 x), cnt_app. simpl. lia. }
    split; [eapply Permutation_NoDup; eauto|]. split; auto.
    intros n Hn x Hx. eapply Permutation_in; [exact Q|]. destruct I4 as [new [-> _]]. apply in_or_app. right.
    simpl. apply in_flat_map. exists n. split; auto. destruct Hx as [->|[->|[i [Hi ->]]]].
    - now left.
    - right. apply in_or_app. right. now left.
    - right. apply in_or_app. left. apply in_map. apply in_seq. lia.
  Qed.

  (** Each value is destroyed by the right destructor. *)
  Theorem C95_right_destructor s d x : star (step c lanes) (begin lanes ds degree ns) s -> In (d, x) (ledger (memory s)) ->
    d = match x with
        | OV _ => v_free c
        | OL _ _ => e_free c
        | PR _ => m_free c
        | NV _ => kv_free c
        | NL _ _ => ke_free c
        end.
  Proof. intros R H. exact (i_fine (inv_reached R) _ _ H). Qed.

  (** What is in the result can be destroyed by the destructors of the new graph, which are those in the sig made by
      [inferred_merger], src/infer.c:321-346, and there are no properties left. *)
  Theorem C95_result s n : star (step c lanes) (begin lanes ds degree ns) s -> ph s = Finished -> In n (queue s) ->
    failed s = false /\ prp (memory s) n = None /\
    (forall x, vert (memory s) n = Some x -> proper x = if fusing c then kv_free c else v_free c) /\
    (forall x, In x (outs (memory s) n) -> proper x = if reducing c then ke_free c else e_free c).
  Proof.
    intros R P H. pose proof (inv_reached R) as I. pose proof (i_ph I) as F. rewrite P in F. destruct F as [_ [_ [_ [_ [F G]]]]].
    destruct (i_surv I n) as [A B]; [apply in_or_app; auto|].
    split; [destruct (failed s); auto; rewrite F in H; [destruct H|auto]|]. split; [auto|]. split; auto.
    intros x Hx. rewrite (A x Hx). destruct (fusing c) eqn:E; auto.
  Qed.

  (** If it fails, nothing is left. *)
  Theorem C95_failure_leaves_nothing s : star (step c lanes) (begin lanes ds degree ns) s -> ph s = Finished -> failed s = true ->
    queue s = [] /\ Permutation (made (memory s)) (map snd (ledger (memory s))).
  Proof.
    intros R P F. pose proof (i_ph (inv_reached R)) as I. rewrite P in I. destruct I as [_ [_ [_ [_ [E _]]]]]. specialize (E F). split; auto.
    destruct (C95_destroyed_once R P) as [_ [_ Q]]. rewrite E in Q. simpl in Q. now rewrite app_nil_r in Q.
  Qed.

  (** It comes to an end. *)
  Definition left_over (s : st) : nat :=
    let k := S (length ns) in
    match ph s with
    | Fusing => 3 * k + length (todo s)
    | Edges => 2 * k + length (todo s)
    | Demerging => k + length (todo s) + length (dels s) + length (surv s)
    | Finished => 0
    end.
  Lemma classes_nodes l : (forall i k, In (i, k) l -> k <> []) -> length l <= length (nodes l).
  Proof.
    induction l as [|[i k] l IH]; simpl; intros H; auto. rewrite app_length. specialize (IH (fun j x Hx => H j x (or_intror Hx))).
    specialize (H i k (or_introl eq_refl)). destruct k; [easy|]. simpl. lia.
  Qed.
  Theorem C95_terminates s s' : star (step c lanes) (begin lanes ds degree ns) s -> step c lanes s s' -> left_over s' < left_over s.
  Proof.
    intros R St. pose proof (inv_reached R) as I. pose proof (inv_step I St) as I'.
    pose proof (i_size I') as L. unfold live in L. rewrite !app_length in L.
    pose proof (@classes_nodes (todo s')) as C1. specialize (C1 ltac:(intros i k Hk; eapply (i_classes I'); apply in_or_app; eauto)).
    unfold left_over. destruct St as
      [i k l1 l2 s m e P Hi T H|s P T|i k l1 l2 s m e P Hi T H|s P T|i k l1 l2 s P T|n l1 l2 s P T|n l1 l2 s P T|s P T D V];
      rewrite P in *; simpl in L, C1 |- *; try (rewrite T, ?app_length; simpl; rewrite ?app_length; simpl; lia).
    destruct (any_error lanes s); rewrite ?T; simpl; lia.
  Qed.
  Theorem C95_progress s : star (step c lanes) (begin lanes ds degree ns) s -> ph s = Finished \/ exists s', step c lanes s s'.
  Proof.
    intros R. pose proof (inv_reached R) as I. destruct (ph s) eqn:P; auto; right.
    - destruct (todo s) as [|[i k] l] eqn:T; [eexists; apply fused_step; auto|].
      destruct (fuse_class c k (werrs s i) (memory s)) as [m e] eqn:E. eexists. eapply fuse_step with (l1 := []); eauto.
      apply (i_classes I i k). rewrite T. now left.
    - destruct (todo s) as [|[i k] l] eqn:T; [eexists; apply edges_step; auto|].
      destruct (merge_class_edges c k (werrs s i) (memory s)) as [m e] eqn:E. eexists. eapply edge_step with (l1 := []); eauto.
      apply (i_classes I i k). rewrite T. now left.
    - destruct (todo s) as [|[i k] l] eqn:T; [|eexists; eapply undefer_step with (l1 := []); eauto].
      destruct (dels s) as [|n l] eqn:D; [|eexists; eapply undelete_step with (l1 := []); eauto].
      destruct (surv s) as [|n l] eqn:V; [|eexists; eapply unsurvive_step with (l1 := []); eauto].
      eexists. apply demerged_step; auto.
  Qed.
End Claim.

(** ** The first pass *)
Section Classes.
  Variable X : env.
  Variable g : graph word word.
  Variable phash : word -> N.
  Variable prop : nat -> word.
  Variable found : wdata -> nat -> nat * bool.
  Hypothesis Hl : 0 < lanes X.
  Hypothesis W : wf g.

  Lemma place_perm n cs : forall i, Permutation (concat (place n i cs)) (n :: concat cs).
  Proof.
    induction cs as [|[|h t] cs IH]; intros i; simpl; auto. destruct i; simpl; [apply perm_swap|].
    rewrite IH. change (h :: t ++ n :: concat cs) with ((h :: t) ++ n :: concat cs). rewrite <- Permutation_middle. reflexivity.
  Qed.
  Lemma place_nonempty n cs : forall i k, (forall k, In k cs -> k <> []) -> In k (place n i cs) -> k <> [].
  Proof.
    induction cs as [|[|h t] cs IH]; intros i k H Hk; simpl in Hk.
    - destruct Hk as [<-|[]]. discriminate.
    - exfalso. apply (H []); simpl; auto.
    - destruct i; simpl in Hk; destruct Hk as [<-|Hk]; try discriminate; [apply H; now right|].
      eapply IH; [|exact Hk]. intros k' Hk'. apply H. now right.
  Qed.

  Definition placed (d : nat -> wdata) : list nat := flat_map (fun i => concat (wclasses (d i)) ++ wdels (d i)) (seq 0 (lanes X)).
  Lemma placed_perm d : Permutation (nodes (deferred (lanes X) d) ++ deleted (lanes X) d) (placed d).
  Proof.
    unfold placed, deferred, deleted. induction (seq 0 (lanes X)) as [|i l IH]; simpl; auto.
    unfold nodes in *. rewrite flat_map_app. rewrite <- IH.
    assert (E : flat_map snd (map (pair i) (wclasses (d i))) = concat (wclasses (d i))).
    { clear. induction (wclasses (d i)) as [|k cs IH]; simpl; auto. now rewrite IH. }
    rewrite E, <- !app_assoc. apply Permutation_app_head. rewrite !app_assoc. apply Permutation_app_tail. apply Permutation_app_comm.
  Qed.
  Lemma placed_step d n : Permutation (placed (fst (classify X phash prop found d n))) (n :: placed d).
  Proof.
    unfold classify. cbn [fst]. set (l := clane X phash prop n). assert (Hlane : l < lanes X) by now apply lane_of_lt.
    set (w := if werr (d l) then _ else _).
    assert (Pw : Permutation (concat (wclasses w) ++ wdels w) (n :: concat (wclasses (d l)) ++ wdels (d l))).
    { unfold w. destruct (werr (d l)); simpl; [symmetry; apply Permutation_middle|]. destruct (found (d l) n) as [i e]. simpl. now rewrite place_perm. }
    unfold placed. assert (Hin : In l (seq 0 (lanes X))) by (apply in_seq; lia). revert Hin. pose proof (seq_NoDup (lanes X) 0) as N. revert N.
    clearbody w. induction (seq 0 (lanes X)) as [|i ls IH]; intros N Hin; [destruct Hin|]. inversion N; subst. simpl.
    destruct (Nat.eq_dec i l) as [->|Hne].
    - rewrite upd_at, Pw. simpl. constructor. apply Permutation_app_head.
      clear - H1. induction ls as [|j ls IH]; simpl; auto. simpl in H1. rewrite upd_else by tauto. apply Permutation_app_head. apply IH. tauto.
    - rewrite upd_else by auto. destruct Hin as [Hin|Hin]; [congruence|]. rewrite (IH H2 Hin). symmetry. apply Permutation_middle.
  Qed.

  Definition nonempty (d : nat -> wdata) : Prop := forall i k, In k (wclasses (d i)) -> k <> [].
  Lemma nonempty_step d n : nonempty d -> nonempty (fst (classify X phash prop found d n)).
  Proof.
    intros H i k. unfold classify. cbn [fst]. unfold upd. destruct (Nat.eqb_spec i (clane X phash prop n)) as [->|]; [|apply H].
    destruct (werr (d (clane X phash prop n))); simpl; [apply H|]. destruct (found (d (clane X phash prop n)) n) as [j e]. simpl.
    apply place_nonempty. apply H.
  Qed.
  Lemma placed_acts nodes : forall d d', nonempty d -> acts (classify X phash prop found) d nodes = Some d' ->
    Permutation (placed d') (nodes ++ placed d) /\ nonempty d'.
  Proof.
    induction nodes as [|n l IH]; intros d d' H Ha; [injection Ha as <-; auto|]. simpl in Ha.
    destruct (IH _ _ (nonempty_step n H) Ha) as [A B]. split; auto. etransitivity; [exact A|].
    etransitivity; [apply Permutation_app_head; apply (placed_step d n)|]. symmetry. apply Permutation_middle.
  Qed.

  (** In spite of errors, every node ends up once in a class or among the deletions. *)
  Theorem C95_classified s :
    ran (lanes X) (gwalk_dest X (prop_hash phash prop)) (classifying X phash prop found g) (vstart unclassified) (initial (root g)) s ->
    Permutation (nodes (deferred (lanes X) (data s)) ++ deleted (lanes X) (data s)) (ids g) /\
    forall i k, In k (wclasses (data s i)) -> k <> [].
  Proof.
    intros Hr. apply ran_completes in Hr; [|now apply vdest_lt].
    assert (Q : (forall l, lerr s l = None) /\ (forall l, lkil s l = false) /\ killed s = false).
    { revert Hr. unfold completes. apply mruns_inv with (I := fun (s : @vst (nat -> wdata) nat) (_ : list (npkt word)) =>
        (forall l, lerr s l = None) /\ (forall l, lkil s l = false) /\ killed s = false); simpl; auto.
      intros s1 p b s2 out [A [B C]] H. unfold classifying, gwalk, vtask, halted, is_killed in H. rewrite A, B, C in H. simpl in H.
      unfold walk_first, walk_again in H. destruct (have_seen _ _ _ _ _ _); simpl in H; injection H as <- <-; simpl; (split; [|split; auto]);
        intros l; unfold upd; destruct (l =? _); auto. }
    assert (Hv : vstatus (unkillable X) (seq 0 (lanes X)) s = None).
    { unfold vstatus, final_status, is_killed. destruct Q as [A [_ C]]. rewrite C. simpl.
      assert (E : first_error (lerr s) (seq 0 (lanes X)) = None) by (apply first_error_none; auto). now rewrite E. }
    destruct (@gwalk_success _ _ (unkillable X) _ _ _ _ _ _ _ Hl (Permutation_refl _) Hr Hv) as (l & A & B & C).
    assert (Ne : nonempty unclassified) by (intros i k []).
    destruct (placed_acts _ Ne C) as [D E]. split; [|exact E]. rewrite placed_perm, D.
    assert (Z : placed unclassified = []) by (unfold placed; clear; induction (seq 0 (lanes X)); simpl; auto). rewrite Z, app_nil_r.
    apply NoDup_Permutation; auto. { apply (wf_nodup W). } intros n. rewrite B. now apply along_ids.
  Qed.
End Classes.

(** ** Examples *)

(** Runs in which the first thing possible is done *)
Definition next (c : mergement) (lanes : nat) (s : st) : option st :=
  match ph s with
  | Fusing =>
      match todo s with
      | (i, k) :: l =>
          if i <? lanes then
            let (m, e) := fuse_class c k (werrs s i) (memory s) in
            Some (mkSt Fusing l ((i, k) :: fused s) (dels s) (surv s) (upd (werrs s) i e) (failed s) (queue s) m)
          else None
      | [] => Some (mkSt (if any_error lanes s then Demerging else Edges) (fused s) [] (dels s) (surv s) (fun _ => false)
                         (any_error lanes s) (queue s) (memory s))
      end
  | Edges =>
      match todo s with
      | (i, k) :: l =>
          if i <? lanes then
            let (m, e) := merge_class_edges c k (werrs s i) (memory s) in
            Some (mkSt Edges l (fused s) (dels s) (k ++ surv s) (upd (werrs s) i e) (failed s) (queue s) m)
          else None
      | [] => Some (mkSt Demerging [] (fused s) (dels s)
                         (if any_error lanes s then surv s else filter (fun n => negb (reached c n)) (surv s)) (fun _ => false)
                         (any_error lanes s) (if any_error lanes s then [] else filter (reached c) (surv s)) (memory s))
      end
  | Demerging =>
      match todo s, dels s, surv s with
      | (i, k) :: l, _, _ => Some (mkSt Demerging l (fused s) (dels s) (surv s) (werrs s) (failed s) (queue s)
                         (free_nodes (kv_free c) (e_free c) k (unprop (m_free c) k (memory s))))
      | [], n :: l, _ => Some (mkSt Demerging (todo s) (fused s) l (surv s) (werrs s) (failed s) (queue s)
                         (free_nodes (v_free c) (e_free c) [n] (unprop (m_free c) [n] (memory s))))
      | [], [], n :: l => Some (mkSt Demerging (todo s) (fused s) (dels s) l (werrs s) (failed s) (queue s)
                         (free_nodes (kv_free c) (match ke_free c with Some d => Some d | None => e_free c end) [n]
                                     (unprop (m_free c) [n] (memory s))))
      | [], [], [] => Some (mkSt Finished [] (fused s) [] [] (werrs s) (failed s) (queue s) (unprop (m_free c) (queue s) (memory s)))
      end
  | Finished => None
  end.
Lemma next_sound c lanes s s' : next c lanes s = Some s' -> step c lanes s s'.
Proof.
  unfold next. destruct (ph s) eqn:P; [| | |discriminate].
  - destruct (todo s) as [|[i k] l] eqn:T; [intros H; injection H as <-; now apply fused_step|].
    destruct (Nat.ltb_spec i lanes); [|discriminate]. destruct (fuse_class c k (werrs s i) (memory s)) as [m e] eqn:E.
    intros H1; injection H1 as <-. now apply fuse_step with (l1 := []).
  - destruct (todo s) as [|[i k] l] eqn:T; [intros H; injection H as <-; now apply edges_step|].
    destruct (Nat.ltb_spec i lanes); [|discriminate]. destruct (merge_class_edges c k (werrs s i) (memory s)) as [m e] eqn:E.
    intros H1; injection H1 as <-. now apply edge_step with (l1 := []).
  - destruct (todo s) as [|[i k] l] eqn:T.
    + destruct (dels s) as [|n l] eqn:D; [destruct (surv s) as [|n l] eqn:V|]; intros H; injection H as <-.
      * now apply demerged_step.
      * rewrite <- T, <- D. now apply unsurvive_step with (l1 := []).
      * rewrite <- T. now apply undelete_step with (l1 := []).
    + intros H; injection H as <-. eapply undefer_step with (l1 := []); eauto.
Qed.
Fixpoint go (c : mergement) (lanes fuel : nat) (s : st) : st :=
  match fuel with 0 => s | S f => match next c lanes s with Some s' => go c lanes f s' | None => s end end.
Lemma star_before {A} (R : A -> A -> Prop) a b x : R a b -> star R b x -> star R a x.
Proof. intros H S. induction S; [eapply star_step; [apply star_refl|exact H]|]. eapply star_step; eauto. Qed.
Lemma go_sound c lanes fuel : forall s, star (step c lanes) s (go c lanes fuel s).
Proof.
  induction fuel as [|f IH]; intros s; simpl; [apply star_refl|]. destruct (next c lanes s) as [s'|] eqn:E; [|apply star_refl].
  eapply star_before; [apply next_sound; exact E|apply IH].
Qed.

(** Four nodes in three classes, held by two workers, with two edges from each node to others *)
Definition three_classes (i : nat) : wdata := match i with 0 => mkW [[0; 2]; [3]] [] false | _ => mkW [[1]] [] false end.
Definition kernel (ke : option nat) (vf : list nat -> bool) (ef : list item -> bool) : mergement :=
  mkMergement (Some 1) (Some 2) (Some 3) (Some 4) ke true true vf (fun x => match x with OL 3 1 => true | _ => false end) (fun _ => false) ef
    (fun _ => false) true (fun x => match x with OL 2 _ => 0%N | OL _ i => N.of_nat i | _ => 0%N end) (fun n => n <? 2).
Definition nobody {A} (_ : A) : bool := false.
Definition degree2 (_ : nat) : nat := 2.
Definition merged_at_last (c : mergement) (ds : nat -> wdata) : st := go c 2 20 (begin 2 ds degree2 [0; 1; 2; 3]).

Lemma three_classes_ok : Permutation (nodes (deferred 2 three_classes) ++ deleted 2 three_classes) [0; 1; 2; 3].
Proof. apply NoDup_Permutation; [repeat constructor; simpl; intuition discriminate|repeat constructor; simpl; intuition discriminate|simpl; intuition]. Qed.

(** Success: the class of node 3 turns out to be unreachable and is destroyed, and so is one label that is rejected. *)
Example C95_ex : let s := merged_at_last (kernel (Some 5) nobody nobody) three_classes in
  star (step (kernel (Some 5) nobody nobody) 2) (begin 2 three_classes degree2 [0; 1; 2; 3]) s /\
  ph s = Finished /\ failed s = false /\ queue s = [0; 1] /\ held (memory s) (queue s) = [NV 0; NL 0 1; NL 0 0; NV 1; NL 1 1; NL 1 0] /\
  In (Some 5, NL 3 0) (ledger (memory s)) /\ In (Some 4, NV 3) (ledger (memory s)) /\ In (Some 2, OL 3 1) (ledger (memory s)) /\
  length (ledger (memory s)) = 18.
Proof. split; [apply go_sound|]. vm_compute. intuition. Qed.
(** An error while edges are being reduced *)
Example C95_edge_error_ex : let s := merged_at_last (kernel (Some 5) nobody (fun l => existsb (fun x => match x with OL 1 1 => true | _ => false end) l)) three_classes in
  ph s = Finished /\ failed s = true /\ queue s = [] /\ length (ledger (memory s)) = 16 + 3 + 3.
Proof. vm_compute. auto. Qed.
(** Errors in the first pass, so that a node is among the deletions, and while vertices are being fused *)
Definition classes_after_error (i : nat) : wdata := match i with 0 => mkW [[0; 2]] [3] true | _ => mkW [[1]] [] false end.
Example C95_vertex_error_ex : let s := merged_at_last (kernel (Some 5) nobody nobody) classes_after_error in
  ph s = Finished /\ failed s = true /\ queue s = [] /\ length (ledger (memory s)) = 16 + 1 /\ In (Some 1, OV 3) (ledger (memory s)).
Proof. vm_compute. intuition. Qed.

(** The kernel's edge operation has no destructor, its results being numbers, for instance, whereas edge labels of the given graph
    have one.  Yet an edge label made by the operation is passed to the latter by [demerge_edges] (src/merge.c:412), even without any
    error, because the class is unreachable after an edge was rejected. *)
Theorem C95_wrong_destructor_refuted : exists c lanes degree ns ds s n j d,
  (fusing c = false -> kv_free c = v_free c) /\ (reducing c = false -> ke_free c = None) /\ NoDup ns /\
  Permutation (nodes (deferred lanes ds) ++ deleted lanes ds) ns /\ (forall i k, In k (wclasses (ds i)) -> k <> []) /\
  star (step c lanes) (begin lanes ds degree ns) s /\ ph s = Finished /\ failed s = false /\
  ke_free c = None /\ In (Some d, NL n j) (ledger (memory s)).
Proof.
  exists (kernel None nobody nobody), 2, degree2, [0; 1; 2; 3], three_classes, (merged_at_last (kernel None nobody nobody) three_classes), 3, 0, 2.
  split; [discriminate|]. split; [discriminate|]. split; [repeat constructor; simpl; intuition discriminate|]. split; [exact three_classes_ok|].
  split; [|split; [apply go_sound|vm_compute; intuition]].
  intros [|i] k; simpl; [intros [<-|[<-|[]]]|intros [<-|[]]]; discriminate.
Qed.

(** The first pass on a graph of eight nodes by three workers: a comparison fails when node 5 arrives, so that node 7, which
    arrives later at the same worker, is culled. *)
From Verif Require Import Ports Run. From Verif Require P_Merge.
Definition failing (w : wdata) (n : nat) : nat * bool := (n mod 2, n =? 5).
Definition first_pass := sched_run 3 (gwalk_dest X3 (prop_hash (fun x => x) (fun n => N.of_nat (n mod 2)))) (classifying X3 (fun x => x) (fun n => N.of_nat (n mod 2)) failing P_Merge.MG)
  (vstart unclassified) (initial (root P_Merge.MG)) 200.
Example C95_classified_ex : ran 3 (gwalk_dest X3 (prop_hash (fun x => x) (fun n => N.of_nat (n mod 2))))
    (classifying X3 (fun x => x) (fun n => N.of_nat (n mod 2)) failing P_Merge.MG) (vstart unclassified) (initial (root P_Merge.MG)) (sh first_pass) /\
  deferred 3 (data (sh first_pass)) = [(0, [8; 4; 6; 2]); (1, [1]); (1, [3; 5])] /\ deleted 3 (data (sh first_pass)) = [7].
Proof. split; [apply sched_ran; vm_compute; reflexivity|]. vm_compute. auto. Qed.
