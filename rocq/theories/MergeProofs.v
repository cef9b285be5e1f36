(** Proofs about merging: how vertices are classified, and what becomes of them and of their edges. *)
From Coq Require Import List Arith NArith Lia Bool Permutation.
From Verif Require Import Base Machine Ports PortsProofs P_Ports BrigadeProofs Env Hash Graph Visitor VisitorProofs Walk Run Pass Fold P_Fold
  Traverse TraverseProofs P_Traverse Fabricate Containers P_Containers Brigade P_Brigade Partition P_Partition Filter Merge.
Import ListNotations.

Set Implicit Arguments.

Local Opaque lane_of.

(** What holds after the action on the initial node, and is maintained by all others, holds in the
    end, if the pass isn't killed. *)
Lemma gwalk_first {S E} X succ (act : S -> nat -> S * option error) hash d0 r s (Q : S -> Prop) :
  (forall k, killcalls X k = false) ->
  Q (fst (act d0 r)) -> (forall d n, Q d -> Q (fst (act d n))) ->
  completes (gwalk (E := E) X succ act hash) (vstart d0) (initial r) s -> Q (data s).
Proof.
  intros Hk H0 H1 Hr.
  assert (A : (s = vstart d0 /\ @nil (npkt E) = [initial r]) \/ Q (data s)).
  { refine (mruns_inv (fun s b => (s = vstart d0 /\ b = [initial r]) \/ Q (data s)) _ _ _ Hr); clear - H0 H1 Hk.
    - intros s b b' P [[-> ->]|H]; auto. left. split; auto. now apply Permutation_length_1_inv.
    - intros s p b s' out [[-> E1]|HQ] T.
      + injection E1 as -> ->. right. unfold gwalk, vtask in T.
        assert (Eh : halted X payload hash (@vstart S nat d0) (initial r : npkt E) = false).
        { unfold halted, is_killed. simpl. now rewrite Hk. }
        rewrite Eh in T. simpl in T. unfold have_seen in T. simpl in T. unfold walk_first in T. simpl in T.
        destruct (act d0 r) as [d1 e] eqn:Ea. inversion T; subst; simpl. exact H0.
      + right. unfold gwalk, vtask in T. destruct (halted _ _ _ _ _); [inversion T; subst; exact HQ|].
        simpl in T. destruct (have_seen _ _ _ _ _ _).
        * inversion T; subst; exact HQ.
        * unfold walk_first in T. specialize (H1 (data s) (payload p) HQ).
          destruct (act (data s) (payload p)) as [d1 e]. inversion T; subst; exact H1.
    - left. auto. }
  destruct A as [[_ A]|A]; [discriminate|exact A].
Qed.

(** ** Lists of lists *)
Lemma NoDup_app_r {A} (l l' : list A) : NoDup (l ++ l') -> NoDup l'.
Proof. induction l; simpl; auto. intros H. inversion H; auto. Qed.
Lemma NoDup_app_l {A} (l l' : list A) : NoDup (l ++ l') -> NoDup l.
Proof.
  induction l as [|x l IH]; simpl; intros H; [constructor|]. inversion H; subst. constructor; auto.
  intros Hx. apply H2, in_or_app. auto.
Qed.

Lemma flat_map_upd {A B} (F : A -> list B) (d : nat -> A) l v k :
  l < k -> exists pre post,
    flat_map (fun i => F (d i)) (seq 0 k) = pre ++ F (d l) ++ post /\
    flat_map (fun i => F (upd d l v i)) (seq 0 k) = pre ++ F v ++ post.
Proof.
  intros H. assert (E1 : seq 0 k = seq 0 l ++ l :: seq (S l) (k - S l)).
  { replace k with (l + S (k - S l)) at 1 by lia. rewrite seq_app. reflexivity. }
  exists (flat_map (fun i => F (d i)) (seq 0 l)), (flat_map (fun i => F (d i)) (seq (S l) (k - S l))).
  rewrite E1, !flat_map_app. simpl. rewrite upd_same. split; auto. f_equal; [|f_equal].
  - rewrite !flat_map_concat_map. f_equal. apply map_ext_in. intros i Hi. apply in_seq in Hi. rewrite upd_diff; auto. lia.
  - rewrite !flat_map_concat_map. f_equal. apply map_ext_in. intros i Hi. apply in_seq in Hi. rewrite upd_diff; auto. lia.
Qed.

Lemma flat_put {A} (t : jarray A) h b :
  exists pre post, flat_map snd t = pre ++ cell t h ++ post /\ flat_map snd (Containers.put t h b) = pre ++ b ++ post.
Proof.
  induction t as [|[h' b'] t (pre & post & E1 & E2)]; simpl.
  - exists [], []. simpl. rewrite app_nil_r. auto.
  - destruct (N.eqb_spec h h') as [->|]; simpl.
    + exists [], (flat_map snd t). auto.
    + exists (b' ++ pre), post. rewrite E1, E2, <- !app_assoc. auto.
Qed.

Lemma cell_in {A} (t : jarray A) h b : NoDup (map fst t) -> In (h, b) t -> cell t h = b.
Proof.
  induction t as [|[h' b'] t IH]; simpl; intros N H; [destruct H|]. inversion N; subst.
  destruct H as [H|H]; [inversion H; subst; now rewrite N.eqb_refl|].
  destruct (N.eqb_spec h h') as [->|]; auto. exfalso. apply H2. change h' with (fst (h', b)). now apply in_map.
Qed.
Lemma in_cell {A} (t : jarray A) h x : In x (cell t h) -> exists b, In (h, b) t /\ In x b.
Proof.
  induction t as [|[h' b'] t IH]; simpl; [tauto|]. destruct (N.eqb_spec h h') as [->|]; [eauto|].
  intros H. destruct (IH H) as (b & A1 & A2). eauto.
Qed.
Lemma in_put {A} (t : jarray A) h b h' b' : In (h', b') (Containers.put t h b) -> In (h', b') t \/ (h' = h /\ b' = b).
Proof.
  induction t as [|[h0 b0] t IH]; simpl.
  - intros [H|[]]. inversion H. auto.
  - destruct (N.eqb_spec h h0) as [->|].
    + intros [H|H]; [inversion H; auto|auto].
    + intros [H|H]; [auto|]. destruct (IH H); auto.
Qed.

(** ** Classification *)
Section Classes.
  Variable X : env.
  Variable g : graph word word.
  Variable equal : word -> word -> bool.
  Variable phash : word -> N.
  Variable prop : nat -> word.
  Hypothesis Hl : 0 < lanes X.
  (** Equal or identical properties; this is the same as [equal] if that is reflexive. *)
  Definition alike (x y : word) : bool := N.eqb x y || equal x y.
  Hypothesis Heq : equivalence alike.
  Hypothesis Hcompat : forall x y, alike x y = true -> phash x = phash y.
  Notation clane := (clane X phash prop).
  Notation cslot := (cslot X phash prop).
  Notation same := (same equal prop).
  Notation join := (join equal prop).
  Notation merge_act := (merge_act X equal phash prop).
  Notation classes := (classes X).

  Lemma same_alike n m : same n m = alike (prop n) (prop m).
  Proof. reflexivity. Qed.
  Lemma same_refl n : same n n = true.
  Proof. rewrite same_alike. apply (eqv_refl Heq). Qed.
  Lemma same_sym n m : same n m = same m n.
  Proof. rewrite !same_alike. apply (eqv_symb Heq). Qed.
  Lemma same_trans n m k : same n m = true -> same m k = true -> same n k = true.
  Proof. rewrite !same_alike. intros A B. now rewrite (eqv_l Heq _ _ _ A). Qed.
  Lemma same_here n m : same n m = true -> clane n = clane m /\ cslot n = cslot m.
  Proof.
    rewrite same_alike. intros H. apply Hcompat in H. unfold Partition.clane, Partition.cslot, prop_hash. now rewrite H.
  Qed.

  (** The two ways of adding a node to a list of classes. *)
  Lemma join_cases n cs :
    Forall (fun k => k <> []) cs ->
    (exists pre h t post, cs = pre ++ (h :: t) :: post /\ same n h = true /\ join n cs = pre ++ (h :: n :: t) :: post) \/
    ((forall h t, In (h :: t) cs -> same n h = false) /\ join n cs = cs ++ [[n]]).
  Proof.
    intros F. induction F as [|k cs Hk F IH]; simpl; [right; split; [intros h t []|auto]|].
    destruct k as [|h t]; [congruence|]. destruct (same n h) eqn:Es.
    - left. exists [], h, t, cs. auto.
    - destruct IH as [(pre & h' & t' & post & -> & A & B)|[A B]].
      + left. exists ((h :: t) :: pre), h', t', post. split; [reflexivity|]. split; [auto|]. now rewrite B.
      + right. split; [|now rewrite B]. intros h' t' [H|H]; [inversion H; subst; auto|eauto].
  Qed.

  Record sorted (done : list nat) (d : mdata) : Prop := {
    so_keys : forall l, NoDup (map fst (d l));
    so_place : forall l h b k n, In (h, b) (d l) -> In k b -> In n k -> clane n = l /\ cslot n = h;
    so_ne : Forall (fun k => k <> []) (classes d);
    so_same : forall k x y, In k (classes d) -> In x k -> In y k -> same x y = true;
    so_diff : ForallOrdPairs (fun k k' => forall x y, In x k -> In y k' -> same x y = false) (classes d);
    so_perm : Permutation (concat (classes d)) done
  }.

  Lemma sorted_start : sorted [] (fun _ => []).
  Proof.
    assert (E1 : classes (fun _ => []) = []).
    { unfold Merge.classes. induction (seq 0 (lanes X)); simpl; auto. }
    split; rewrite ?E1; simpl; auto; try tauto; intros; try constructor.
  Qed.

  Lemma FOP_mid {A} (R : A -> A -> Prop) pre x post :
    ForallOrdPairs R (pre ++ x :: post) <->
    ForallOrdPairs R (pre ++ post) /\ (forall y, In y pre -> R y x) /\ (forall y, In y post -> R x y).
  Proof.
    induction pre as [|a pre IH]; simpl.
    - split.
      + intros H. inversion H as [|? ? F1 F2]; subst. rewrite Forall_forall in F1. split; [auto|]. split; [intros y []|auto].
      + intros (A1 & _ & A3). constructor; auto. now apply Forall_forall.
    - split.
      + intros H. inversion H as [|? ? F1 F2]; subst. apply IH in F2 as (B1 & B2 & B3). rewrite Forall_forall in F1.
        split; [constructor; [apply Forall_forall; intros y Hy; apply F1; apply in_app_or in Hy as [Hy|Hy]; apply in_or_app; simpl; auto|auto]|].
        split; [|auto]. intros y [<-|Hy]; [|auto]. apply F1. apply in_or_app. simpl. auto.
      + intros (A1 & A2 & A3). inversion A1 as [|? ? F1 F2]; subst. rewrite Forall_forall in F1.
        constructor; [|apply IH; auto]. apply Forall_forall. intros y Hy. apply in_app_or in Hy as [Hy|[<-|Hy]].
        * apply F1, in_or_app. auto.
        * apply A2. auto.
        * apply F1, in_or_app. auto.
  Qed.

  Lemma sorted_step done d n : sorted done d -> sorted (done ++ [n]) (fst (merge_act d n)).
  Proof.
    intros [Hk Hp Hn Hs Hd Hm]. unfold Merge.merge_act. cbn [fst].
    set (l := clane n). set (h := cslot n).
    assert (Hlane : l < lanes X) by now apply lane_of_lt.
    destruct (@flat_map_upd _ _ (flat_map snd) d l (Containers.put (d l) h (join n (cell (d l) h))) _ Hlane) as (pre1 & post1 & E1 & E2).
    destruct (@flat_put _ (d l) h (join n (cell (d l) h))) as (pre2 & post2 & E3 & E4).
    fold (classes d) in E1.
    change (flat_map (fun i => flat_map snd (upd d l (Containers.put (d l) h (join n (cell (d l) h))) i)) (seq 0 (lanes X)))
      with (classes (upd d l (Containers.put (d l) h (join n (cell (d l) h))))) in E2.
    set (d' := upd d l (Containers.put (d l) h (join n (cell (d l) h)))) in *.
    set (pre := pre1 ++ pre2). set (post := post2 ++ post1).
    assert (C1 : classes d = pre ++ cell (d l) h ++ post) by (rewrite E1, E3; unfold pre, post; now rewrite <- !app_assoc).
    assert (C2 : classes d' = pre ++ join n (cell (d l) h) ++ post) by (rewrite E2, E4; unfold pre, post; now rewrite <- !app_assoc).
    clear E1 E2 E3 E4.
    assert (Hcell : Forall (fun k => k <> []) (cell (d l) h)).
    { rewrite C1 in Hn. apply Forall_app in Hn as [_ Hn]. now apply Forall_app in Hn as [Hn _]. }
    assert (Hsplit : In n (concat (join n (cell (d l) h))) /\
              forall k m, In k (join n (cell (d l) h)) -> In m k -> m = n \/ exists k', In k' (cell (d l) h) /\ In m k').
    { destruct (join_cases n Hcell) as [(p & a & t & q & E1 & _ & E2)|[_ E2]]; rewrite E2.
      - split; [rewrite concat_app; simpl; apply in_or_app; simpl; auto|].
        intros k m Hk' Hm'. rewrite E1. apply in_app_or in Hk' as [H|[<-|H]].
        + right. exists k. split; auto. apply in_or_app. auto.
        + destruct Hm' as [<-|[<-|Hm']]; auto; right; exists (a :: t); split; simpl; auto; apply in_or_app; simpl; auto.
        + right. exists k. split; auto. apply in_or_app. simpl. auto.
      - split; [rewrite concat_app; apply in_or_app; simpl; auto|].
        intros k m Hk' Hm'. apply in_app_or in Hk' as [H|[<-|[]]]; [right; eauto|]. destruct Hm' as [<-|[]]. auto. }
    (* nobody else is the same *)
    assert (Hmine : forall k m, In k (classes d) -> In m k -> same n m = true -> In k (cell (d l) h)).
    { intros k m Hin Hmk Hsm. unfold Merge.classes in Hin. apply in_flat_map in Hin as (l' & Hl' & Hin).
      apply in_flat_map in Hin as ((h' & b) & Hb & Hin). simpl in Hin.
      destruct (Hp _ _ _ _ _ Hb Hin Hmk) as [P1 P2].
      assert (Hpl : clane n = clane m /\ cslot n = cslot m) by now apply same_here.
      unfold l, h. destruct Hpl as [-> ->]. rewrite P1, P2. rewrite (@cell_in _ (d l') h' b (Hk l') Hb). exact Hin. }
    split.
    - intros l'. unfold d', upd. destruct (Nat.eqb_spec l' l); auto. apply nodup_put, Hk.
    - intros l' h' b k m Hb Hin Hmk. unfold d', upd in Hb. destruct (Nat.eqb_spec l' l) as [->|]; [|eauto].
      apply in_put in Hb as [Hb|[-> ->]]; [eauto|].
      destruct (proj2 Hsplit _ _ Hin Hmk) as [->|(k' & Hk' & Hm')]; [auto|].
      apply in_cell in Hk' as (b & Hb & Hk'). eapply Hp; eauto.
    - rewrite C2. rewrite C1 in Hn. apply Forall_app in Hn as [F1 Hn]. apply Forall_app in Hn as [F2 F3].
      apply Forall_app. split; auto. apply Forall_app. split; auto.
      destruct (join_cases n Hcell) as [(p & a & t & q & E1 & _ & E2)|[_ E2]]; rewrite E2.
      + rewrite E1 in F2. apply Forall_app in F2 as [G1 G2]. inversion G2; subst. apply Forall_app. split; auto.
        constructor; auto. discriminate.
      + apply Forall_app. split; auto. constructor; auto. discriminate.
    - intros k x y Hin. rewrite C2 in Hin. apply in_app_or in Hin as [Hin|Hin].
      { apply Hs. rewrite C1. apply in_or_app. auto. }
      apply in_app_or in Hin as [Hin|Hin].
      2:{ apply Hs. rewrite C1. apply in_or_app. right. apply in_or_app. auto. }
      assert (Old : forall k, In k (cell (d l) h) -> In k (classes d)).
      { intros k' H. rewrite C1. apply in_or_app. right. apply in_or_app. auto. }
      destruct (join_cases n Hcell) as [(p & a & t & q & E1 & Ea & E2)|[_ E2]]; rewrite E2 in Hin.
      + apply in_app_or in Hin as [Hin|[<-|Hin]].
        * apply Hs, Old. rewrite E1. apply in_or_app. auto.
        * assert (Ha : forall z, In z (a :: t) -> same a z = true).
          { intros z Hz. apply (Hs (a :: t)); simpl; auto. apply Old. rewrite E1. apply in_or_app. simpl. auto. }
          assert (Hall : forall z, In z (a :: n :: t) -> same a z = true).
          { intros z [<-|[<-|Hz]]; [apply Ha; simpl; auto|now rewrite same_sym|apply Ha; simpl; auto]. }
          intros Hx Hy. apply same_trans with (m := a); [rewrite same_sym|]; auto.
        * apply Hs, Old. rewrite E1. apply in_or_app. simpl. auto.
      + apply in_app_or in Hin as [Hin|[<-|[]]]; [now apply Hs, Old|].
        intros [<-|[]] [<-|[]]. apply same_refl.
    - rewrite C2. destruct (join_cases n Hcell) as [(p & a & t & q & E1 & Ea & E2)|[Hno E2]]; rewrite E2.
      + assert (C3 : classes d = (pre ++ p) ++ (a :: t) :: (q ++ post)) by (rewrite C1, E1, <- !app_assoc; reflexivity).
        rewrite C3 in Hd. apply FOP_mid in Hd as (D1 & D2 & D3).
        replace (pre ++ (p ++ (a :: n :: t) :: q) ++ post) with ((pre ++ p) ++ (a :: n :: t) :: (q ++ post)) by (rewrite <- !app_assoc; reflexivity).
        apply FOP_mid. split; [exact D1|]. split.
        * intros k Hk' x y Hx [<-|[<-|Hy]].
          -- apply (D2 k Hk'); simpl; auto.
          -- destruct (same x n) eqn:Ex; auto. pose proof (same_trans _ _ _ Ex Ea) as H.
             rewrite (D2 k Hk' x a Hx) in H; simpl; auto.
          -- apply (D2 k Hk'); simpl; auto.
        * intros k Hk' x y Hx Hy. destruct Hx as [<-|[<-|Hx]].
          -- apply (D3 k Hk'); simpl; auto.
          -- destruct (same n y) eqn:Ex; auto. rewrite same_sym in Ea. pose proof (same_trans _ _ _ Ea Ex) as H.
             rewrite (D3 k Hk' a y) in H; simpl; auto.
          -- apply (D3 k Hk'); simpl; auto.
      + assert (Hnone : forall k m, In k (classes d) -> In m k -> same n m = false).
        { intros k m Hin Hmk. destruct (same n m) eqn:Es; auto. pose proof (Hmine _ _ Hin Hmk Es) as Hc.
          destruct k as [|a t]; [destruct Hmk|]. pose proof (Hno a t Hc) as Hf.
          assert (Hsm : same m a = true) by (apply (Hs (a :: t)); simpl; auto).
          rewrite (same_trans _ _ _ Es Hsm) in Hf. discriminate. }
        replace (pre ++ (cell (d l) h ++ [[n]]) ++ post) with ((pre ++ cell (d l) h) ++ [n] :: post) by (rewrite <- !app_assoc; reflexivity).
        apply FOP_mid. split; [rewrite <- app_assoc, <- C1; exact Hd|]. split.
        * intros k Hk' x y Hx [<-|[]]. rewrite same_sym. eapply Hnone; eauto. rewrite C1.
          apply in_app_or in Hk' as [H|H]; apply in_or_app; auto. right. apply in_or_app. auto.
        * intros k Hk' x y [<-|[]] Hy. eapply Hnone; eauto. rewrite C1. apply in_or_app. right. apply in_or_app. auto.
    - rewrite C2. rewrite C1 in Hm. rewrite <- Hm.
      assert (P : Permutation (concat (join n (cell (d l) h))) (n :: concat (cell (d l) h))).
      { destruct (join_cases n Hcell) as [(p & a & t & q & E1 & _ & E2)|[_ E2]]; rewrite E2.
        - rewrite E1, !concat_app. simpl. rewrite Permutation_app_comm. simpl. rewrite perm_swap. constructor.
          rewrite (Permutation_app_comm (concat p)). reflexivity.
        - rewrite concat_app. simpl. rewrite Permutation_app_comm. reflexivity. }
      rewrite !concat_app, P. rewrite <- Permutation_cons_append. symmetry. simpl. apply Permutation_middle.
  Qed.

  Lemma sorted_acts nodes : forall done d d', sorted done d -> acts merge_act d nodes = Some d' -> sorted (done ++ nodes) d'.
  Proof.
    induction nodes as [|n nodes IH]; intros done d d' H Ha.
    - inversion Ha; subst. now rewrite app_nil_r.
    - simpl in Ha. replace (done ++ n :: nodes) with ((done ++ [n]) ++ nodes) by now rewrite <- app_assoc.
      eapply IH; [|exact Ha]. now apply (sorted_step n).
  Qed.

  (** The base is the first node of its class. *)
  Definition heads (r : nat) (d : mdata) : Prop := exists k, In (r :: k) (classes d).

  Lemma heads_first r : heads r (fst (merge_act (fun _ => []) r)).
  Proof.
    exists []. unfold Merge.merge_act, Merge.classes. cbn [fst]. apply in_flat_map. exists (clane r).
    split; [apply in_seq; split; [lia|now apply lane_of_lt]|]. rewrite upd_same. simpl. auto.
  Qed.

  Lemma heads_step r d n : heads r d -> heads r (fst (merge_act d n)).
  Proof.
    intros (k & H). unfold heads, Merge.merge_act. cbn [fst].
    set (l := clane n). set (h := cslot n).
    assert (Hlane : l < lanes X) by now apply lane_of_lt.
    destruct (@flat_map_upd _ _ (flat_map snd) d l (Containers.put (d l) h (join n (cell (d l) h))) _ Hlane) as (pre1 & post1 & E1 & E2).
    destruct (@flat_put _ (d l) h (join n (cell (d l) h))) as (pre2 & post2 & E3 & E4).
    fold (classes d) in E1.
    change (flat_map (fun i => flat_map snd (upd d l (Containers.put (d l) h (join n (cell (d l) h))) i)) (seq 0 (lanes X)))
      with (classes (upd d l (Containers.put (d l) h (join n (cell (d l) h))))) in E2.
    change (exists k, In (r :: k) (classes (upd d l (Containers.put (d l) h (join n (cell (d l) h)))))).
    rewrite E2, E4. rewrite E1, E3 in H.
    assert (J : forall cs, In (r :: k) cs -> exists k', In (r :: k') (join n cs)).
    { clear. induction cs as [|[|a t] cs IH]; simpl; [tauto|..].
      - intros [H|H]; [discriminate|]. destruct (IH H) as (k' & Hk'). eauto.
      - intros [H|H].
        + inversion H; subst. destruct (same n r); simpl; eauto.
        + destruct (same n a); simpl; [eauto|]. destruct (IH H) as (k' & Hk'). eauto. }
    apply in_app_or in H as [H|H]; [exists k; apply in_or_app; auto|].
    apply in_app_or in H as [H|H].
    2:{ exists k. apply in_or_app. right. apply in_or_app. auto. }
    apply in_app_or in H as [H|H].
    { exists k. apply in_or_app. right. apply in_or_app. left. apply in_or_app. auto. }
    apply in_app_or in H as [H|H].
    - destruct (J _ H) as (k' & Hk'). exists k'. apply in_or_app. right. apply in_or_app. left. apply in_or_app. right. apply in_or_app. auto.
    - exists k. apply in_or_app. right. apply in_or_app. left. apply in_or_app. right. apply in_or_app. auto.
  Qed.

  (** What is known of the classes in the end. *)
  Record partitioned (cs : list (list nat)) : Prop := {
    pt_ne : forall k, In k cs -> k <> [];
    pt_same : forall k x y, In k cs -> In x k -> In y k -> same x y = true;
    pt_diff : forall k k' x y, In k cs -> In k' cs -> In x k -> In y k' -> same x y = true -> k = k';
    pt_perm : Permutation (concat cs) (ids g);
    pt_root : exists k, In (root g :: k) cs
  }.

  Lemma FOP_in {A} (R : A -> A -> Prop) l x y : ForallOrdPairs R l -> In x l -> In y l -> x = y \/ R x y \/ R y x.
  Proof.
    induction 1 as [|z l F F' IH]; simpl; [tauto|]. rewrite Forall_forall in F.
    intros [<-|Hx] [<-|Hy]; auto.
  Qed.

  Theorem vertices_classified s order cs :
    wf g -> ran (lanes X) (gwalk_dest X (prop_hash phash prop)) (vertex_merging X g equal phash prop) (vstart (fun _ => [])) (initial (root g)) s ->
    Permutation order (seq 0 (lanes X)) -> pass_status order s = None ->
    Permutation cs (classes (data s)) -> partitioned cs.
  Proof.
    intros W Hr Ho Hs Hcs. apply ran_completes in Hr; [|now apply vdest_lt].
    assert (Hv : vstatus (unkillable X) order s = None) by (eapply pass_unkilled; [exact Hl|exact Ho|reflexivity|exact Hr|exact Hs]).
    destruct (@gwalk_success _ _ (unkillable X) _ _ _ _ _ _ _ Hl Ho Hr Hv) as (nodes & A & B & C).
    pose proof (@sorted_acts nodes [] _ _ sorted_start C) as [_ _ Hn Hsm Hd Hm]. simpl in Hm.
    assert (Hin : forall k, In k cs <-> In k (classes (data s))).
    { intros k. split; apply Permutation_in; auto. now symmetry. }
    split.
    - intros k Hk. apply Hin in Hk. rewrite Forall_forall in Hn. auto.
    - intros k x y Hk. apply Hin in Hk. eauto.
    - intros k k' x y Hk Hk' Hx Hy Hxy. apply Hin in Hk, Hk'.
      destruct (FOP_in k k' Hd Hk Hk') as [E1|[H|H]]; auto; exfalso.
      + rewrite (H x y Hx Hy) in Hxy. discriminate.
      + rewrite same_sym, (H y x Hy Hx) in Hxy. discriminate.
    - transitivity (concat (classes (data s))).
      { clear - Hcs. induction Hcs; simpl; auto.
        - now apply Permutation_app_head.
        - rewrite !app_assoc. apply Permutation_app_tail, Permutation_app_comm.
        - etransitivity; eauto. }
      rewrite Hm. apply NoDup_Permutation; auto. { apply (wf_nodup W). } intros n. rewrite B. now apply along_ids.
    - assert (Hh : heads (root g) (data s)).
      { eapply (@gwalk_first _ _ (unkillable X)); [reflexivity| | |exact Hr].
        - apply heads_first.
        - intros. now apply heads_step. }
      destruct Hh as (k & Hk). exists k. now apply Hin.
  Qed.
End Classes.

(** ** The first nodes of classes *)
Section Heads.
  Variable g : graph word word.
  Variable equal : word -> word -> bool.
  Variable prop : nat -> word.
  Variable cs : list (list nat).
  Hypothesis Heq : equivalence (alike equal).
  Hypothesis P : partitioned g equal prop cs.

  Lemma head_of_in h t n : In (h :: t) cs -> In n (h :: t) -> head_of cs n = h.
  Proof.
    intros Hk Hn. unfold head_of. destruct (find (existsb (Nat.eqb n)) cs) as [k|] eqn:Ef.
    - apply find_some in Ef as [Hk' E1]. apply existsb_exists in E1 as (m & Hm & E1). apply Nat.eqb_eq in E1. subst m.
      assert (E2 : k = h :: t) by (eapply (pt_diff P); eauto; eapply same_refl; eauto). now rewrite E2.
    - exfalso. pose proof (find_none _ _ Ef _ Hk) as H. apply not_true_iff_false in H. apply H.
      apply existsb_exists. exists n. split; auto. apply Nat.eqb_refl.
  Qed.

  Lemma class_found n : In n (ids g) -> exists h t, In (h :: t) cs /\ In n (h :: t).
  Proof.
    intros Hn. pose proof (Permutation_in n (Permutation_sym (pt_perm P)) Hn) as H.
    apply in_concat in H as (k & Hk & Hn'). destruct k as [|h t]; [destruct Hn'|eauto].
  Qed.
  Lemma class_ids k n : In k cs -> In n k -> In n (ids g).
  Proof. intros Hk Hn. eapply Permutation_in; [exact (pt_perm P)|]. apply in_concat. eauto. Qed.

  Lemma edges_of_head vs X c eeq ehash h t :
    In (h :: t) cs -> merged_edges X g c eeq ehash cs vs h = fst (fused_edges X g c eeq ehash vs (head_of cs) (h :: t)).
  Proof.
    intros Hk. unfold merged_edges.
    destruct (find (fun k => match k with [] => false | h0 :: _ => h =? h0 end) cs) as [k|] eqn:Ef.
    - apply find_some in Ef as [Hk' E1]. destruct k as [|h' t']; [discriminate|]. apply Nat.eqb_eq in E1. subst h'.
      assert (E2 : h :: t' = h :: t) by (eapply (pt_diff P) with (x := h) (y := h); simpl; eauto; eapply same_refl; eauto).
      now rewrite E2.
    - exfalso. pose proof (find_none _ _ Ef _ Hk) as H. simpl in H. now rewrite Nat.eqb_refl in H.
  Qed.

  (** The members of a class are the nodes with an equal property. *)
  Lemma class_members h t n :
    NoDup (ids g) -> In (h :: t) cs -> In n (h :: t) -> Permutation (h :: t) (filter (same equal prop n) (ids g)).
  Proof.
    intros N Hk Hn. apply NoDup_Permutation.
    - apply in_split in Hk as (l1 & l2 & ->). pose proof (Permutation_NoDup (Permutation_sym (pt_perm P)) N) as H.
      rewrite concat_app in H. apply NoDup_app_r in H. cbn [concat] in H. now apply NoDup_app_l in H.
    - now apply NoDup_filter.
    - intros m. rewrite filter_In. split.
      + intros Hm. split; [eapply class_ids; eauto|]. eapply (pt_same P); eauto.
      + intros [Hm Hs]. destruct (class_found m Hm) as (h' & t' & Hk' & Hm').
        assert (E1 : h :: t = h' :: t') by (eapply (pt_diff P); eauto). now rewrite E1.
  Qed.
End Heads.

(** ** Composite vertices *)

(** The values of [_cru_reduced_nodes] and [_cru_reduced_edges] for functions that don't fail. *)
Definition combined (x0 : option word) (f : word -> word) (r : word -> word -> word) (vs : list word) : word :=
  match x0, vs with
  | Some x, _ => fold_left (fun a v => r (f v) a) vs x
  | None, v :: vs' => fold_left (fun a v => r (f v) a) vs' (f v)
  | None, [] => null
  end.

Definition starts_with (m : fold) (x0 : option word) : Prop :=
  match x0 with
  | Some x => vacuous_case m = Some (x, None)
  | None => vacuous_case m = None /\ same_dtor (m_free m) (r_free m) = true
  end.

(** A vertex operation that doesn't depend on edges. *)
Record plain_prop (p : prop) (x0 : option word) (f : word -> word) (r : word -> word -> word) : Prop := {
  pp_in : empty_fold (incident p) = true;
  pp_out : empty_fold (outgoing p) = true;
  pp_map : (exists b, map2 (vertex p) = Some b /\ forall v, b null v = (f v, None)) \/
           (map2 (vertex p) = None /\ exists t, map3 (vertex p) = Some t /\ forall v, t null v null = (f v, None));
  pp_red : reduces_with (vertex p) r;
  pp_dtor : red_dest (vertex p);
  pp_start : starts_with (vertex p) x0
}.

Lemma plain_mapped p x0 f r v vout s :
  plain_prop p x0 f r -> err s = None ->
  exists s', fst (mapped_node p v [] vout s) = f v /\ fst (fst (snd (mapped_node p v [] vout s))) = s' /\ err s' = None.
Proof.
  intros [Hi Ho Hm _ _ _] E. unfold mapped_node, has_err. rewrite E. unfold folded. rewrite Hi, Ho.
  assert (Main : forall o, o = (f v, None) ->
    exists s', fst (let (r0, sv) := applied OfMap o (mkFS (err (mkFS (err s) (made s) (gone s))) (made s) (gone s)) in
        let si' := destroy OfRed (r_free (incident p)) null (mkFS (err sv) (made s) (gone s)) in
        let so' := destroy OfRed (r_free (outgoing p)) null (mkFS (err si') (made (mkFS (err s) (made s) (gone s))) (gone (mkFS (err s) (made s) (gone s)))) in
        let sv' := mkFS (err so') (made sv) (gone sv) in
        if match err sv' with Some _ => true | None => false end
        then (null, (destroy OfMap (m_free (vertex p)) r0 sv', si', so')) else (r0, (sv', si', so'))) = f v /\
      fst (fst (snd (let (r0, sv) := applied OfMap o (mkFS (err (mkFS (err s) (made s) (gone s))) (made s) (gone s)) in
        let si' := destroy OfRed (r_free (incident p)) null (mkFS (err sv) (made s) (gone s)) in
        let so' := destroy OfRed (r_free (outgoing p)) null (mkFS (err si') (made (mkFS (err s) (made s) (gone s))) (gone (mkFS (err s) (made s) (gone s)))) in
        let sv' := mkFS (err so') (made sv) (gone sv) in
        if match err sv' with Some _ => true | None => false end
        then (null, (destroy OfMap (m_free (vertex p)) r0 sv', si', so')) else (r0, (sv', si', so'))))) = s' /\ err s' = None).
  { intros o ->. cbn [err made gone]. rewrite E.
    destruct (applied OfMap (f v, None) (mkFS None (made s) (gone s))) as [x sv] eqn:Ea.
    destruct (applied_ok OfMap (f v) (mkFS None (made s) (gone s)) eq_refl) as [A B]. rewrite Ea in A, B. simpl in A, B. subst x.
    unfold destroy. simpl. rewrite B. simpl. eexists. split; [reflexivity|]. split; [reflexivity|]. simpl. first [exact B|reflexivity]. }
  destruct Hm as [(b & Eb & Hb)|(Eb & t & Et & Ht)]; rewrite Eb.
  - apply Main. apply Hb.
  - rewrite Et. apply Main. apply Ht.
Qed.

Lemma plain_rest p x0 f r ns : plain_prop p x0 f r -> forall acc s, err s = None ->
  fst (nodes_rest p ns acc s) = fold_left (fun a v => r (f v) a) (map fst ns) acc /\ err (snd (nodes_rest p ns acc s)) = None.
Proof.
  intros Hp. induction ns as [|n ns IH]; intros acc s E; simpl; auto. unfold has_err. rewrite E.
  destruct (plain_mapped (fst n) (snd n) s Hp E) as (s1 & A1 & A2 & A3).
  destruct (mapped_node p (fst n) [] (snd n) s) as [x [[s1' si] so]]. simpl in A1, A2. subst x s1'.
  destruct (pp_red Hp) as (b & Eb & Hb). unfold reduce. rewrite Eb, Hb.
  destruct (applied OfRed (r (f (fst n)) acc, None) s1) as [y s2] eqn:E2.
  destruct (applied_ok OfRed (r (f (fst n)) acc) s1 A3) as [B1 B2]. rewrite E2 in B1, B2. simpl in B1, B2. subst y.
  destruct (pp_dtor Hp) as [Qm Qr]. apply IH. apply destroy_ok; auto. now apply destroy_ok.
Qed.

Lemma finish_ok d x s : err s = None -> finish_fold d x s = (x, s).
Proof. intros E. unfold finish_fold, has_err. now rewrite E. Qed.

Lemma plain_reduced p x0 f r ns : plain_prop p x0 f r -> ns <> [] -> reduced_nodes p ns = (combined x0 f r (map fst ns), None).
Proof.
  intros Hp Hn. destruct ns as [|n ns]; [congruence|]. pose proof (pp_start Hp) as Hs. destruct (pp_red Hp) as (b & Eb & Hb).
  unfold reduced_nodes. destruct x0 as [x|]; simpl in Hs.
  - rewrite Hs. destruct (applied OfRed (x, None) no_values) as [y s1] eqn:E1.
    destruct (applied_ok OfRed x no_values eq_refl) as [A B]. rewrite E1 in A, B. simpl in A, B. subst y.
    rewrite Eb. destruct (plain_rest (n :: ns) Hp x s1 B) as [C1 C2].
    rewrite finish_ok by exact C2. now rewrite C1, C2.
  - destruct Hs as [Hv Hd]. rewrite Hv, Hd.
    destruct (plain_mapped (fst n) (snd n) no_values Hp eq_refl) as (s1 & A1 & A2 & A3).
    destruct (mapped_node p (fst n) [] (snd n) no_values) as [x [[s1' si] so]]. simpl in A1, A2. subst x s1'.
    destruct ns as [|m ns].
    + rewrite finish_ok by exact A3. simpl. now rewrite A3.
    + rewrite Eb. destruct (plain_rest (m :: ns) Hp (f (fst n)) s1 A3) as [C1 C2].
      rewrite finish_ok by exact C2. now rewrite C1, C2.
Qed.

(** What the vertex operation of a merger computes from the vertices in a class. *)
Inductive computes : option prop -> (list word -> word) -> Prop :=
| computes_nothing : computes None (hd null)
| computes_plain p x0 f r : plain_prop p x0 f r -> computes (Some p) (combined x0 f r).

Section Fusing.
  Variable X : env.
  Variable g : graph word word.
  Variable c : merger.
  Lemma fuse_one vs errs k : exists vs' e', fuse_class g c (vs, errs) k = (vs', e' ++ errs).
  Proof.
    unfold fuse_class. destruct (v_op c) as [p|].
    - destruct (reduced_nodes p _) as [w [x|]]; eexists; [exists [x]|exists []]; reflexivity.
    - destruct k as [|a [|b k]]; eexists; [exists []|exists []|exists [IER]]; reflexivity.
  Qed.
  Lemma fused_errors cs : forall vs errs, exists e', snd (fold_left (fuse_class g c) cs (vs, errs)) = e' ++ errs.
  Proof.
    induction cs as [|k cs IH]; intros vs errs; cbn [fold_left]; [exists []; auto|].
    destruct (fuse_one vs errs k) as (vs' & e1 & ->). destruct (IH vs' (e1 ++ errs)) as (e2 & ->).
    exists (e2 ++ e1). now rewrite <- app_assoc.
  Qed.

  Variable value : list word -> word.
  Hypothesis Hv : computes (v_op c) value.

  Lemma fused_values cs : forall vs,
    NoDup (concat cs) -> (forall k, In k cs -> k <> []) -> snd (fold_left (fuse_class g c) cs (vs, [])) = [] ->
    (forall n, ~ In n (concat cs) -> fst (fold_left (fuse_class g c) cs (vs, [])) n = vs n) /\
    (forall h t, In (h :: t) cs -> fst (fold_left (fuse_class g c) cs (vs, [])) h = value (map vs (h :: t))) /\
    (v_op c = None -> forall h t, In (h :: t) cs -> t = []).
  Proof.
    induction cs as [|k cs IH]; intros vs N Hn E; [split; [auto|split; [intros h t []|intros _ h t []]]|].
    assert (Hnk : k <> []) by (apply Hn; simpl; auto). cbn [concat] in N.
    assert (Hd : forall n, In n k -> ~ In n (concat cs)).
    { intros n H1 H2. clear - N H1 H2. induction k as [|a k IH]; [destruct H1|]. simpl in N. inversion N; subst.
      destruct H1 as [<-|H1]; auto. apply H3, in_or_app. auto. }
    pose proof (NoDup_app_r _ _ N) as N'. cbn [fold_left] in E |- *. inversion Hv as [E1 E2|p x0 f r Hp E1 E2]; subst.
    - assert (Ef : exists a, k = [a] /\ fuse_class g c (vs, []) k = (vs, [])).
      { unfold fuse_class in *. rewrite <- E1 in *. destruct k as [|a [|b k]]; [congruence|eauto|].
        exfalso. destruct (fused_errors cs vs [IER]) as (e' & E2). unfold fuse_class in E2. rewrite <- E1 in E2.
        rewrite E2 in E. now destruct e'. }
      destruct Ef as (a & -> & Ef). rewrite Ef in E |- *.
      destruct (IH vs N' (fun k H => Hn k (or_intror H)) E) as (A & B & C). split; [|split].
      + intros n Hnn. apply A. intros H. apply Hnn. simpl. auto.
      + intros h t [H|H]; [|auto]. inversion H; subst. simpl. apply A. apply Hd. simpl. auto.
      + intros _ h t [H|H]; [now inversion H|eauto].
    - set (w := combined x0 f r (map vs k)).
      set (vs1 := fun m => if existsb (Nat.eqb m) k then match k with h :: _ => if m =? h then w else null | [] => null end else vs m).
      assert (Ef : fuse_class g c (vs, []) k = (vs1, [])).
      { unfold fuse_class. rewrite <- E1. rewrite (plain_reduced Hp) by (destruct k; [congruence|discriminate]).
        rewrite map_map. reflexivity. }
      rewrite Ef in E |- *.
      destruct (IH vs1 N' (fun k H => Hn k (or_intror H)) E) as (A & B & C).
      assert (V1 : forall n, ~ In n k -> vs1 n = vs n).
      { intros n H. unfold vs1. destruct (existsb (Nat.eqb n) k) eqn:Ex; auto. exfalso. apply existsb_exists in Ex as (m & Hm & E3).
        apply Nat.eqb_eq in E3. subst. auto. }
      split; [|split].
      + intros n Hnn. rewrite A by (intros H; apply Hnn, in_or_app; auto). apply V1. intros H. apply Hnn, in_or_app. auto.
      + intros h t [H|H].
        * subst k. rewrite A by (apply Hd; simpl; auto). unfold vs1. cbn [existsb]. rewrite Nat.eqb_refl. reflexivity.
        * rewrite (B h t H). f_equal. apply map_ext_in. intros m Hm. apply V1. intros Hk. apply (Hd m Hk).
          apply in_concat. eauto.
      + discriminate.
  Qed.
End Fusing.

(** ** Edges *)
Lemma perm_filter {A} (q : A -> bool) l l' : Permutation l l' -> Permutation (filter q l) (filter q l').
Proof.
  intros P. induction P; simpl; auto.
  - destruct (q x); auto.
  - destruct (q x), (q y); auto. apply perm_swap.
  - etransitivity; eauto.
Qed.
Lemma filter_filter_and {A} (q q' : A -> bool) l : filter q (filter q' l) = filter (fun x => q x && q' x) l.
Proof.
  induction l as [|x l IH]; simpl; auto. destruct (q' x); simpl; rewrite ?andb_true_r, ?andb_false_r; auto.
  destruct (q x); [f_equal|]; auto.
Qed.
Section Edges.
  Variable X : env.
  Variable g : graph word word.
  Variable c : merger.
  Variable eeq : word -> word -> bool.
  Variable ehash : word -> N.
  Hypothesis He : equivalence eeq.
  Hypothesis Hh : forall x y, eeq x y = true -> ehash x = ehash y.

  Lemma gathered_perm k : Permutation (gathered g k) (flat_map (es g) k).
  Proof.
    unfold gathered. enough (G : forall acc, Permutation (fold_left (fun e n => rev (es g n) ++ e) k acc) (flat_map (es g) k ++ acc)).
    { rewrite G. now rewrite app_nil_r. }
    induction k as [|n k IH]; intros acc; simpl; auto. rewrite IH, <- app_assoc, <- (Permutation_rev (es g n)).
    rewrite !app_assoc. apply Permutation_app_tail, Permutation_app_comm.
  Qed.

  (** Does every member have an edge with an equal label? *)
  Definition unanimous (k : list nat) (l : word) : bool :=
    forallb (fun n => existsb (fun x => eeq l (fst x)) (es g n)) k.

  Lemma table_of_set ls : table_of eeq ehash (judy X) (set_of ls) = fold_right (record_label eeq ehash (judy X)) [] ls.
  Proof. induction ls as [|l ls IH]; simpl; auto. now rewrite <- IH. Qed.
  Lemma member_table n :
    member_labels X g eeq ehash n = table_of eeq ehash (judy X) (set_of (rev (map fst (es g n)))).
  Proof.
    rewrite table_of_set. unfold member_labels. rewrite fold_left_rev_right.
    enough (G : forall l acc, fold_left (fun q (x : word * nat) => record_label eeq ehash (judy X) (fst x) q) l acc =
                              fold_left (fun q x => record_label eeq ehash (judy X) x q) (map fst l) acc) by apply G.
    induction l as [|x l IH]; intros acc; simpl; auto.
  Qed.

  Lemma class_table k :
    class_labels X g eeq ehash k =
    table_of eeq ehash (judy X) (fold_left (fun t s => Merge t (set_of s)) (map (fun n => rev (map fst (es g n))) k) Empty).
  Proof.
    unfold class_labels.
    enough (G : forall t, fold_left (fun t n => merge eeq t (member_labels X g eeq ehash n)) k (table_of eeq ehash (judy X) t) =
      table_of eeq ehash (judy X) (fold_left (fun t s => Merge t (set_of s)) (map (fun n => rev (map fst (es g n))) k) t)) by apply (G Empty).
    induction k as [|n k IH]; intros t; simpl; auto. rewrite <- IH. simpl. now rewrite member_table.
  Qed.

  Lemma existsb_labels l n : existsb (eeq l) (rev (map fst (es g n))) = existsb (fun x => eeq l (fst x)) (es g n).
  Proof.
    apply eq_true_iff_eq. rewrite !existsb_exists. split.
    - intros (x & Hx & E1). apply in_rev, in_map_iff in Hx as (y & <- & Hy). eauto.
    - intros (y & Hy & E1). exists (fst y). split; auto. apply -> in_rev. now apply in_map.
  Qed.

  Lemma count_all {A} (q : A -> bool) l : (length (filter q l) =? length l) = forallb q l.
  Proof.
    induction l as [|x l IH]; simpl; auto. destruct (q x); simpl; auto.
    apply Nat.eqb_neq. assert (H : length (filter q l) <= length l).
    { clear. induction l as [|y l IH]; simpl; auto. destruct (q y); simpl; lia. } lia.
  Qed.

  Lemma flag_exact k l :
    (exists m, In (l, m) (gathered g k)) ->
    flag X eeq ehash (class_labels X g eeq ehash k) (length k - 1) l = unanimous k l.
  Proof.
    intros (m & Hm). apply (Permutation_in _ (gathered_perm k)) in Hm. apply in_flat_map in Hm as (n & Hn & Hm).
    unfold flag. destruct (Nat.eqb_spec (length k - 1) 0) as [E1|E1].
    - destruct k as [|a [|b k]]; [destruct Hn| |simpl in E1; lia]. destruct Hn as [->|[]].
      unfold unanimous. simpl. rewrite andb_true_r. symmetry. apply existsb_exists. exists (l, m). split; auto. apply (eqv_refl He).
    - rewrite class_table.
      pose proof (C40_multiplicity_is_number_of_sets ehash (judy X) (map (fun n => rev (map fst (es g n))) k) l He Hh) as C.
      assert (E2 : length (filter (existsb (eeq l)) (map (fun n => rev (map fst (es g n))) k)) =
                   length (filter (fun n => existsb (fun x => eeq l (fst x)) (es g n)) k)).
      { clear. induction k as [|n k IH]; simpl; auto. rewrite existsb_labels. destruct (existsb _ (es g n)); simpl; auto. }
      rewrite E2 in C. unfold unanimous. rewrite <- count_all.
      set (a := multiplicity _ _ _ _ _) in *. set (b := length (filter _ k)) in *.
      assert (E3 : Nat.max 1 b = S a) by lia. clear C.
      destruct (Nat.eqb_spec a (length k - 1)), (Nat.eqb_spec b (length k)); auto; lia.
  Qed.

  Lemma filter_spec f t s l e a :
    filter_edges X eeq ehash f t s l = (e, a, None) ->
    e = filter (fun x => fst (f (flag X eeq ehash t s (fst x)) (fst x))) l /\
    a = map (fun x => (flag X eeq ehash t s (fst x), fst x)) l /\
    (forall x, In x l -> snd (f (flag X eeq ehash t s (fst x)) (fst x)) = None).
  Proof.
    revert e a. induction l as [|x l IH]; intros e a H; simpl in H.
    - inversion H. simpl. split; [auto|]. split; [auto|]. tauto.
    - destruct (f (flag X eeq ehash t s (fst x)) (fst x)) as [keep [y|]] eqn:Ef; [discriminate|].
      destruct (filter_edges X eeq ehash f t s l) as [[r a'] e'] eqn:El. inversion H; subst.
      destruct (IH _ _ eq_refl) as (A & B & C). simpl. rewrite Ef. simpl. rewrite <- A, <- B.
      split; [destruct keep; auto|]. split; [auto|]. intros y [<-|Hy]; auto. now rewrite Ef.
  Qed.

  (** Is an edge with this label retained? *)
  Definition keeps (k : list nat) (l : word) : bool :=
    match pruner c with None => true | Some f => fst (f (unanimous k l) l) end.

  Lemma filtered_spec k e a :
    filtered_edges X g c eeq ehash k = (e, a, None) ->
    e = filter (fun x => keeps k (fst x)) (gathered g k) /\
    (pruner c = None -> a = []) /\
    (forall f, pruner c = Some f -> a = map (fun x => (unanimous k (fst x), fst x)) (gathered g k) /\
       forall b l, In (b, l) a -> snd (f b l) = None).
  Proof.
    unfold filtered_edges, keeps. destruct (pruner c) as [f|]; intros H.
    - apply filter_spec in H as (A & B & C).
      assert (Ex : forall x, In x (gathered g k) -> flag X eeq ehash (class_labels X g eeq ehash k) (length k - 1) (fst x) = unanimous k (fst x)).
      { intros [l m] Hx. apply flag_exact. exists m. exact Hx. }
      split; [|split; [discriminate|]].
      + rewrite A. apply filter_ext_in. intros x Hx. now rewrite Ex.
      + intros f' E1. inversion E1; subst f'. split.
        * rewrite B. apply map_ext_in. intros x Hx. now rewrite Ex.
        * rewrite B. intros b l Hbl. apply in_map_iff in Hbl as (x & E2 & Hx). inversion E2; subst. now apply C.
    - inversion H; subst. split; [|split; [auto|discriminate]].
      induction (gathered g k) as [|x l IH]; simpl; auto. now rewrite <- IH.
  Qed.

  (** The edges of a class, without an operation on edges *)
  Variable vs : nat -> word.
  Variable cls : nat -> nat.

  Lemma kept_in k n l m : In n k -> In (l, m) (es g n) -> keeps k l = true ->
    In (l, m) (filter (fun x => keeps k (fst x)) (gathered g k)).
  Proof.
    intros Hn Hm Hk. apply filter_In. split; [|exact Hk]. eapply Permutation_in; [symmetry; apply gathered_perm|].
    apply in_flat_map. eauto.
  Qed.
  Lemma kept_from k l m : In (l, m) (filter (fun x => keeps k (fst x)) (gathered g k)) ->
    exists n, In n k /\ In (l, m) (es g n) /\ keeps k l = true.
  Proof.
    intros H. apply filter_In in H as [H Hk]. apply (Permutation_in _ (gathered_perm k)) in H.
    apply in_flat_map in H as (n & Hn & Hm). eauto.
  Qed.

  Theorem fused_without_op k :
    e_op c = None -> snd (fused_edges X g c eeq ehash vs cls k) = [] ->
    let out := fst (fused_edges X g c eeq ehash vs cls k) in
    (forall l b, In (l, b) out -> exists n m, In n k /\ In (l, m) (es g n) /\ keeps k l = true /\ b = cls m) /\
    (forall n l m, In n k -> In (l, m) (es g n) -> keeps k l = true ->
       exists l', In (l', cls m) out /\ eeq l l' = true) /\
    ForallOrdPairs (fun x y => ~ (snd x = snd y /\ eeq (fst x) (fst y) = true)) out.
  Proof.
    intros Eo Es. unfold fused_edges in *. destruct (filtered_edges X g c eeq ehash k) as [[e a] [x|]] eqn:Ef; [discriminate|].
    rewrite Eo. apply filtered_spec in Ef as (-> & _ & _). cbn [fst].
    set (e := filter _ _). set (key := fun y : word * nat => N.of_nat (cls (snd y))).
    destruct (@C46_deduplication _ _ (judy X) eeq ehash fst key e He Hh) as (P & D & C). fold key.
    set (out := fst (deduplicated_edges eeq (judy X) ehash fst key e)) in *. split; [|split].
    - intros l b H. apply in_map_iff in H as ((l1 & m) & E1 & H). inversion E1; subst; clear E1.
      assert (Hin : In (l, m) e) by (eapply Permutation_in; [symmetry; exact P|]; apply in_or_app; auto).
      apply kept_from in Hin as (n & Hn & Hm & Hk). exists n, m. auto.
    - intros n l m Hn Hm Hk. destruct (C (l, m) (@kept_in k n l m Hn Hm Hk)) as ((l1 & m1) & H1 & H2 & H3).
      exists l1. split; [|exact H3]. apply in_map_iff. exists (l1, m1). split; auto. simpl. f_equal.
      unfold key in H2. simpl in H2. lia.
    - clear - D. induction D as [|x l F D IH]; simpl; constructor; auto.
      apply Forall_forall. intros y Hy. apply in_map_iff in Hy as (z & <- & Hz). rewrite Forall_forall in F.
      intros [A B]. apply (F z Hz). simpl in *. split; auto. unfold key. now rewrite A.
  Qed.

  (** ... and with one *)
  Record plain_fold (m : fold) (x0 : option word) (f : word -> word -> word -> word) (r : word -> word -> word) : Prop := {
    pf_map : forall v, maps_with m v (fun e => f v (fst e) (snd e));
    pf_red : reduces_with m r;
    pf_dtor : red_dest m;
    pf_start : starts_with m x0
  }.

  Lemma plain_fold_value m x0 f r v w (b : list (word * nat)) (at_ : nat -> word) :
    plain_fold m x0 f r -> b <> [] -> (forall y, In y b -> at_ (snd y) = w) ->
    exists s, reduced_edges m v (map (fun y => (fst y, at_ (snd y))) b) no_values =
              (combined x0 (fun l => f v l w) r (map fst b), s) /\ err s = None.
  Proof.
    intros [Hm Hr Hd Hs] Hb Hw. change no_values with fresh. set (l := map (fun y => (fst y, at_ (snd y))) b).
    assert (El : forall acc, fold_left (fun a e => r (f v (fst e) (snd e)) a) l acc = fold_left (fun a x => r (f v x w) a) (map fst b) acc).
    { unfold l. clear - Hw. induction b as [|y b IH]; intros acc; simpl; auto. rewrite (Hw y) by (simpl; auto). apply IH. intros; apply Hw; simpl; auto. }
    destruct x0 as [x|]; simpl in Hs.
    - destruct (C17_value_with_vacuous_case l (Hm v) Hr Hd Hs) as (s & A & B). exists s. split; auto. rewrite A. f_equal. apply El.
    - destruct Hs as [Hs1 Hs2]. destruct b as [|y b]; [congruence|]. unfold l in *. cbn [map] in *.
      destruct (C17_value_without_vacuous_case (fst y, at_ (snd y)) (map (fun y => (fst y, at_ (snd y))) b) (Hm v) Hr Hd Hs2 Hs1) as (s & A & B).
      exists s. split; auto. etransitivity; [exact A|]. f_equal. cbn [fst snd]. rewrite (Hw y) by (simpl; auto). simpl.
      clear - Hw. generalize (f v (fst y) w) as acc. assert (Hw' : forall z, In z b -> at_ (snd z) = w) by (intros; apply Hw; simpl; auto). clear Hw.
      induction b as [|z b IH]; intros acc; simpl; auto. rewrite (Hw' z) by (simpl; auto). apply IH. intros; apply Hw'; simpl; auto.
  Qed.

  Lemma reduced_brigade_spec m x0 f r v bs :
    plain_fold m x0 f r -> (forall b, In b bs -> b <> []) ->
    (forall b x y, In b bs -> In x b -> In y b -> cls (snd x) = cls (snd y)) ->
    snd (reduced_brigade m vs cls v bs) = [] /\
    fst (reduced_brigade m vs cls v bs) =
      rev (map (fun b => (combined x0 (fun l => f v l (vs (cls (snd (hd (null, 0) b))))) r (map fst b), cls (snd (hd (null, 0) b)))) bs).
  Proof.
    intros Hp Hn Hc. unfold reduced_brigade.
    match goal with |- context [fold_left ?F _ _] => set (step := F) end.
    enough (G : forall acc, fold_left step bs acc =
      (rev (map (fun b => (combined x0 (fun l => f v l (vs (cls (snd (hd (null, 0) b))))) r (map fst b), cls (snd (hd (null, 0) b)))) bs) ++ fst acc, snd acc)).
    { rewrite G. simpl. rewrite app_nil_r. auto. }
    induction bs as [|b bs IH]; intros acc; simpl; [now destruct acc|].
    assert (Hb : b <> []) by (apply Hn; simpl; auto). destruct b as [|x b]; [congruence|].
    assert (Hw : forall y, In y (x :: b) -> vs (cls (snd y)) = vs (cls (snd x))).
    { intros y Hy. f_equal. apply (Hc (x :: b)); simpl; auto. }
    destruct (plain_fold_value v (fun k => vs (cls k)) Hp Hb Hw) as (s & Ev & E1).
    replace (step acc (x :: b)) with ((combined x0 (fun l => f v l (vs (cls (snd x)))) r (map fst (x :: b)), cls (snd x)) :: fst acc, snd acc).
    - rewrite IH; [|intros; apply Hn; simpl; auto|intros; eapply Hc; simpl; eauto].
      simpl. rewrite <- app_assoc. reflexivity.
    - unfold step. rewrite Ev. rewrite E1. reflexivity.
  Qed.

  Lemma filter_all A (q : A -> bool) l : (forall y, In y l -> q y = true) -> filter q l = l.
  Proof. induction l as [|y l IH]; simpl; intros H; auto. rewrite H by auto. f_equal. auto. Qed.

  Theorem fused_with_op m x0 f r k h t :
    e_op c = Some m -> plain_fold m x0 f r -> k = h :: t -> snd (fused_edges X g c eeq ehash vs cls k) = [] ->
    let out := fst (fused_edges X g c eeq ehash vs cls k) in
    NoDup (map snd out) /\
    (forall b, In b (map snd out) <-> exists n l m, In n k /\ In (l, m) (es g n) /\ keeps k l = true /\ b = cls m) /\
    (forall w b, In (w, b) out -> exists L,
       Permutation L (flat_map (fun n => map fst (filter (fun x => (cls (snd x) =? b) && keeps k (fst x)) (es g n))) k) /\
       w = combined x0 (fun l => f (vs h) l (vs b)) r L).
  Proof.
    intros Eo Hp Ek Es. unfold fused_edges in *. destruct (filtered_edges X g c eeq ehash k) as [[e a] [x|]] eqn:Ef; [discriminate|].
    rewrite Eo in *. apply filtered_spec in Ef as (-> & _ & _). 
    set (e := filter _ _) in *. set (key := fun y : word * nat => N.of_nat (cls (snd y))) in *.
    destruct (marshalled_grouping (judy X) key e) as [P Nb S D]. set (bs := marshalled (judy X) key e) in *.
    assert (Sc : forall b x y, In b bs -> In x b -> In y b -> cls (snd x) = cls (snd y)).
    { intros b x y Hb Hx Hy. pose proof (S b x y Hb Hx Hy) as H. apply N.eqb_eq in H. unfold key in H. lia. }
    replace (match k with [] => null | h :: _ => vs h end) with (vs h) by now rewrite Ek.
    destruct (reduced_brigade_spec (vs h) bs Hp Nb Sc) as [_ Eb]. rewrite Eb.
    clear Eb Es. set (row := fun b : list (word * nat) => (_, cls (snd (hd (null, 0) b)))).
    assert (Hb0 : forall b, In b bs -> exists l m, In (l, m) b /\ cls m = snd (row b) /\ forall y, In y b -> cls (snd y) = snd (row b)).
    { intros b Hb. pose proof (Nb b Hb) as Hne. destruct b as [|[l m0] b]; [congruence|]. exists l, m0. simpl. split; auto. split; auto.
      intros y Hy. apply (Sc ((l, m0) :: b) y (l, m0)); simpl; auto. }
    assert (Hin : forall b y, In b bs -> In y b -> In y e).
    { intros b y Hb Hy. eapply Permutation_in; [exact P|]. apply in_concat. eauto. }
    assert (Hrow : forall b, In b bs -> forall y, In y e -> (cls (snd y) = snd (row b) <-> In y b)).
    { intros b Hb y Hy. destruct (Hb0 b Hb) as (l & m0 & Hlm & Em & Hall). split; [|auto].
      intros Ec. apply (Permutation_in _ (Permutation_sym P)) in Hy. apply in_concat in Hy as (b' & Hb' & Hy).
      destruct (FOP_in b b' D Hb Hb') as [->|[H|H]]; auto; exfalso.
      - pose proof (H (l, m0) y Hlm Hy) as F. apply N.eqb_neq in F. unfold key in F. simpl in F. rewrite Em, Ec in F. congruence.
      - pose proof (H y (l, m0) Hy Hlm) as F. apply N.eqb_neq in F. unfold key in F. simpl in F. rewrite Em, Ec in F. congruence. }
    split; [|split].
    - rewrite map_rev, map_map. apply NoDup_rev. clear - D Nb Hb0. 
      induction D as [|b bs F D IH]; simpl; constructor.
      + intros H. apply in_map_iff in H as (b' & E1 & Hb'). rewrite Forall_forall in F.
        destruct (Hb0 b (or_introl eq_refl)) as (l & m0 & A1 & A2 & _).
        destruct (Hb0 b' (or_intror Hb')) as (l' & m' & B1 & B2 & _).
        pose proof (F b' Hb' _ _ A1 B1) as H. apply N.eqb_neq in H. apply H. unfold key. cbn [snd]. rewrite A2, B2. f_equal. symmetry. exact E1.
      + apply IH; intros; [apply Nb|apply Hb0]; simpl; auto.
    - intros b. rewrite map_rev, <- in_rev, map_map. split.
      + intros H. apply in_map_iff in H as (bk & <- & Hbk). destruct (Hb0 bk Hbk) as (l & m1 & A1 & A2 & _).
        apply (Hin _ _ Hbk) in A1. apply kept_from in A1 as (n & Hn & Hm & Hk). exists n, l, m1. auto.
      + intros (n & l & m1 & Hn & Hm & Hk & ->). pose proof (@kept_in k n l m1 Hn Hm Hk) as H. fold e in H.
        pose proof (Permutation_in _ (Permutation_sym P) H) as H'. apply in_concat in H' as (bk & Hbk & Hy).
        apply in_map_iff. exists bk. split; auto. symmetry. apply (Hrow bk Hbk (l, m1)); auto.
    - intros w b H. apply in_rev in H. apply in_map_iff in H as (bk & E1 & Hbk). inversion E1 as [[E2 E3]]; clear E1.
      exists (map fst bk). split; [|reflexivity].
      assert (Pb : Permutation bk (filter (fun y => cls (snd y) =? snd (row bk)) e)).
      { apply in_split in Hbk as (l1 & l2 & El).
        assert (F : filter (fun y => cls (snd y) =? snd (row bk)) (concat bs) = bk).
        { rewrite El, concat_app. simpl. rewrite !filter_app.
          rewrite (filter_none _ (concat l1)), (filter_none _ (concat l2)).
          - simpl. rewrite app_nil_r. destruct (Hb0 bk) as (_ & _ & _ & _ & Hall); [rewrite El; apply in_or_app; simpl; auto|].
            clear - Hall. apply filter_all. intros y Hy. apply Nat.eqb_eq. auto.
          - intros y Hy. apply in_concat in Hy as (b' & Hb' & Hy). apply Nat.eqb_neq. intros Ec.
            rewrite El in D. apply FOP_mid in D as (_ & _ & D3).
            destruct (Hb0 bk) as (l & m1 & A1 & A2 & _); [rewrite El; apply in_or_app; simpl; auto|].
            pose proof (D3 b' Hb' _ _ A1 Hy) as F. apply N.eqb_neq in F. apply F. unfold key. cbn [snd]. rewrite A2. f_equal. symmetry. exact Ec.
          - intros y Hy. apply in_concat in Hy as (b' & Hb' & Hy). apply Nat.eqb_neq. intros Ec.
            rewrite El in D. apply FOP_mid in D as (_ & D2 & _).
            destruct (Hb0 bk) as (l & m1 & A1 & A2 & _); [rewrite El; apply in_or_app; simpl; auto|].
            pose proof (D2 b' Hb' _ _ Hy A1) as F. apply N.eqb_neq in F. apply F. unfold key. cbn [snd]. rewrite A2. f_equal. exact Ec. }
        rewrite <- F at 1. now apply perm_filter. }
      rewrite Pb. unfold e. clear - h.
      match goal with |- Permutation (map fst (filter ?q1 (filter ?q2 _))) _ =>
        rewrite (filter_filter_and q1 q2) end.
      rewrite (perm_filter _ (gathered_perm k)).
      generalize (keeps k). intros q. clear - h. induction k as [|n k' IH]; simpl; auto. rewrite filter_app, map_app. apply Permutation_app; auto.
  Qed.
End Edges.
