(** Freeing a graph when memory is exhausted: claim C88. *)
From Coq Require Import List Arith NArith Lia Bool Permutation.
From Verif Require Import Base Machine Ports PortsProofs PortsTerm PortsExec P_Ports Env Hash Graph Visitor Run Fold Pass Walk Traverse TraverseProofs P_Traverse P_Fair Free P_Free FreeOom.
Import ListNotations.

Set Implicit Arguments.

Lemma existsb_in n l : existsb (Nat.eqb n) l = true <-> In n l.
Proof.
  rewrite existsb_exists. split; [intros (x & Hx & E)|intros H; exists n; split; [auto|apply Nat.eqb_refl]].
  apply Nat.eqb_eq in E. now subst.
Qed.
Lemma existsb_out n l : existsb (Nat.eqb n) l = false <-> ~ In n l.
Proof. rewrite <- existsb_in. destruct (existsb _ l); split; congruence. Qed.

(** Updating one of the summands *)
Lemma flat_map_upd {A} (f : nat -> list A) n x l :
  NoDup l -> In n l -> Permutation (f n ++ flat_map (upd f n x) l) (x ++ flat_map f l).
Proof.
  intros N H. apply in_split in H as (a & b & ->). apply NoDup_remove in N as [_ N].
  assert (E : forall c, (forall y, In y c -> y <> n) -> flat_map (upd f n x) c = flat_map f c).
  { induction c as [|y c IH]; intros Hc; [reflexivity|]. change (upd f n x y ++ flat_map (upd f n x) c = f y ++ flat_map f c).
    rewrite upd_diff by (apply Hc; now left). f_equal. apply IH. intros z Hz. apply Hc. now right. }
  rewrite !flat_map_app. cbn [flat_map]. rewrite upd_same.
  rewrite (E a), (E b); [perm_solve| |]; intros y Hy ->; apply N; apply in_or_app; auto.
Qed.

Section Proofs.
  Variable X : env.
  Variable g : graph word word.
  Variable heap : nat -> bool.
  Variables lraises vraises : word -> bool.
  Variable limit : nat.
  Hypothesis W : wf g.

  Local Notation lane := (lane_of_node X).
  Local Notation items n := (tag n 0 (es g n)).

  (** Nodes freed or put aside *)
  Definition over (s : ost) n : Prop := In n (ogone s) \/ In n (odel s (lane n)).
  (** Nodes being dealt with: in a buffer, or the current one *)
  Definition held (s : ost) (w : option nat) n : Prop := obuf s (lane n) = Some n \/ w = Some n.
  (** Nodes found so far *)
  Definition pend (s : ost) w (b : list opkt) m : Prop :=
    over s m \/ In (Pkt m) b \/ held s w m \/ exists n e, held s w n /\ In e (oedges s n) /\ xto e = m.

  Record Inv (w : option nat) (s : ost) (b : list opkt) : Prop := {
    i_gone : NoDup (ogone s);
    i_verts : overtices s = map (fun n => (n, vx g n)) (ogone s);
    i_seen : forall k n, In n (oseen s k) <-> lane n = k /\ In n (ogone s);
    i_del : forall k n, In n (odel s k) -> lane n = k /\ ~ In n (ogone s) /\ oerr s k = true;
    i_delnd : forall k, NoDup (odel s k);
    i_edges : forall n, over s n -> oedges s n = [];
    i_buf : forall k n, obuf s k = Some n -> lane n = k /\ In n (ids g) /\ ~ over s n;
    i_work : forall n, w = Some n -> In n (ids g) /\ ~ over s n;
    i_pkt : forall n, In (Pkt n) b -> In n (ids g);
    i_over : forall n, over s n -> In n (ids g);
    i_to : forall n e, In n (ids g) -> In e (oedges s n) -> In (xto e) (ids g);
    i_fresh : forall n, ~ over s n -> ~ held s w n -> oedges s n = items n;
    i_front : forall n l m, over s n \/ held s w n -> In (l, m) (es g n) -> pend s w b m;
    i_root : pend s w b (root g);
    i_log : Permutation (olabels s ++ flat_map (oedges s) (ids g)) (flat_map (fun n => items n) (ids g));
    i_bad : obad s = false
  }.

  Lemma Inv_perm w s b b' : Permutation b b' -> Inv w s b -> Inv w s b'.
  Proof.
    intros Pm [].
    assert (K : forall m, pend s w b m -> pend s w b' m).
    { intros m [H|[H|H]]; [left|right; left|right; right]; auto. eapply Permutation_in; eauto. }
    constructor; auto.
    - intros n Hn. apply i_pkt0. eapply Permutation_in; [symmetry; exact Pm|auto].
    - intros n l m H1 H2. apply K. eauto.
  Qed.

  (** *** Parts of an iteration *)

  (** Changes that don't matter *)
  Record same (s t : ost) : Prop := {
    q_edges : oedges t = oedges s; q_seen : oseen t = oseen s; q_del : odel t = odel s; q_buf : obuf t = obuf s;
    q_labels : olabels t = olabels s; q_verts : overtices t = overtices s; q_gone : ogone t = ogone s; q_bad : obad t = obad s;
    q_err : forall k, oerr s k = true -> oerr t k = true }.
  Lemma same_refl s : same s s.
  Proof. constructor; auto. Qed.
  Lemma same_trans s t u : same s t -> same t u -> same s u.
  Proof. intros [] []. constructor; try congruence. auto. Qed.
  Lemma same_inv w s t b : same s t -> Inv w s b -> Inv w t b.
  Proof.
    intros [E1 E2 E3 E4 E5 E6 E7 E8 E9] [].
    assert (O : forall n, over t n <-> over s n) by (intros n; unfold over; now rewrite E7, E3).
    assert (H : forall n, held t w n <-> held s w n) by (intros n; unfold held; now rewrite E4).
    assert (K : forall m, pend t w b m <-> pend s w b m).
    { intros m. unfold pend. rewrite O, H, E1. split; intros [A|[A|[A|(n & e & A & B)]]]; auto; right; right; right; exists n, e; split; auto; now apply H. }
    constructor; rewrite ?E1, ?E2, ?E3, ?E4, ?E5, ?E6, ?E7, ?E8; auto.
    - intros k n Hn. rewrite ?E3 in Hn. destruct (i_del0 k n Hn) as (A & B & C). auto.
    - intros n Hn. apply i_edges0. now apply O.
    - intros k n Hn. rewrite ?E4 in Hn. rewrite O. auto.
    - intros n Hn. rewrite O. auto.
    - intros n Hn. apply i_over0. now apply O.
    - intros n Ho Hh. apply i_fresh0; [now rewrite <- O|now rewrite <- H].
    - intros n l m Ho Hm. apply K. apply i_front0 with (l := l) (n := n); auto. now rewrite <- O, <- H.
    - now apply K.
  Qed.

  Lemma same_raise k e s : same s (raise k e s).
  Proof. constructor; simpl; auto. intros j H. unfold upd. destruct (Nat.eqb_spec j k) as [->|]; auto. now rewrite H. Qed.
  Lemma same_tried s : same s (tried s).
  Proof. constructor; auto. Qed.
  Lemma same_spare m s : same s (set_spare m s).
  Proof. constructor; auto. Qed.
  Lemma same_nack s : same s (nack limit s).
  Proof. unfold nack. destruct (_ <? _); auto using same_spare, same_refl. Qed.
  Lemma same_touch n s : ~ In n (ogone s) -> same s (touch n s).
  Proof. intros H. apply existsb_out in H. constructor; auto. simpl. rewrite H. apply orb_false_r. Qed.
  Lemma same_new k s s' o : new_packet heap k s = (s', o) -> same s s'.
  Proof.
    unfold new_packet. destruct (heap _); [injection 1 as <- <-; apply same_tried|]. destruct (ospare s).
    - injection 1 as <- <-. eapply same_trans; [apply same_tried|apply same_raise].
    - injection 1 as <- <-. eapply same_trans; [apply same_tried|]. eapply same_trans; [apply same_raise|apply same_spare].
  Qed.

  Lemma free_edge_fields k e s :
    oedges (free_edge lraises k e s) = oedges s /\ oseen (free_edge lraises k e s) = oseen s /\ odel (free_edge lraises k e s) = odel s /\
    obuf (free_edge lraises k e s) = obuf s /\ olabels (free_edge lraises k e s) = olabels s ++ [e] /\ overtices (free_edge lraises k e s) = overtices s /\
    ogone (free_edge lraises k e s) = ogone s /\ obad (free_edge lraises k e s) = obad s /\
    (forall j, oerr s j = true -> oerr (free_edge lraises k e s) j = true).
  Proof.
    repeat split. intros j H. apply (q_err (same_raise k (lraises (xlab e)) _)). exact H.
  Qed.

  (** An edge disposed of *)
  Lemma Inv_pop k n e l s b b' :
    Inv (Some n) s b -> oedges s n = e :: l -> (b' = b /\ xto e = n) \/ b' = Pkt (xto e) :: b ->
    Inv (Some n) (free_edge lraises k e (set_edges n l s)) b'.
  Proof.
    intros I E C. set (t := free_edge lraises k e (set_edges n l s)).
    destruct (free_edge_fields k e (set_edges n l s)) as (E1 & E2 & E3 & E4 & E5 & E6 & E7 & E8 & E9).
    fold t in E1, E2, E3, E4, E5, E6, E7, E8, E9. clearbody t. simpl in E1, E2, E3, E4, E5, E6, E7, E8, E9. destruct I.
    assert (O : forall x, over t x <-> over s x) by (intros x; unfold over; now rewrite E7, E3).
    assert (H : forall x, held t (Some n) x <-> held s (Some n) x) by (intros x; unfold held; now rewrite E4).
    assert (Hb : forall p, In p b -> In p b') by (intros p Hp; destruct C as [[-> _]| ->]; simpl; auto).
    destruct (i_work0 n eq_refl) as [Wi Wo].
    assert (K : forall m, pend s (Some n) b m -> pend t (Some n) b' m).
    { intros m [A|[A|[A|(x & y & A & B & <-)]]].
      - left. now apply O.
      - right. left. auto.
      - right. right. left. now apply H.
      - destruct (Nat.eq_dec x n) as [->|N].
        + rewrite E in B. destruct B as [<-|B].
          * destruct C as [[_ ->]| ->]; [right; right; left; now right|right; left; now left].
          * right. right. right. exists n, y. rewrite E1, upd_same. split; [now right|auto].
        + right. right. right. exists x, y. rewrite E1, (upd_diff _ _ N). split; [now apply H|auto]. }
    constructor; rewrite ?E2, ?E3, ?E4, ?E6, ?E7, ?E8; auto.
    - intros j x Hx. rewrite ?E3 in Hx. destruct (i_del0 j x Hx) as (A & B & D). auto.
    - intros x Hx. rewrite E1. apply O in Hx. rewrite upd_diff; auto. congruence.
    - intros j x Hx. rewrite ?E4 in Hx. rewrite O. auto.
    - intros x Hx. rewrite O. auto.
    - intros x Hx. destruct C as [[-> _]| ->]; auto. destruct Hx as [Hx|Hx]; auto. injection Hx as <-.
      apply i_to0 with (n := n); auto. rewrite E. now left.
    - intros x Hx. apply i_over0. now apply O.
    - intros x y Hx. rewrite E1. destruct (Nat.eq_dec x n) as [->|N]; [rewrite upd_same|rewrite (upd_diff _ _ N); eauto].
      intros Hy. apply i_to0 with (n := n); auto. rewrite E. now right.
    - intros x Ho Hh. rewrite E1. rewrite upd_diff; [|intros ->; apply Hh; now right]. apply i_fresh0; [now rewrite <- O|now rewrite <- H].
    - intros x y m Hx Hm. apply K. apply i_front0 with (n := x) (l := y); auto. now rewrite <- O, <- H.
    - rewrite <- i_log0, E5, E1.
      assert (P := flat_map_upd (oedges s) n l (wf_nodup W) Wi). rewrite E in P.
      rewrite <- app_assoc. apply Permutation_app_head.
      apply Permutation_app_inv_l with (l := l). rewrite <- P. simpl. perm_solve.
  Qed.

  Lemma unscatter_inv k n l s b s' out :
    Inv (Some n) s b -> oedges s n = l -> unscatter heap lraises k n l s = (s', out) -> Inv (Some n) s' (map Pkt out ++ b).
  Proof.
    revert s b s' out. induction l as [|e l IH]; intros s b s' out I E; simpl.
    - injection 1 as <- <-. exact I.
    - destruct (Nat.eqb_spec (xto e) n) as [Et|Nt].
      + intros H. apply IH with (b := b) in H; auto; [|simpl; now rewrite upd_same].
        eapply Inv_pop; eauto.
      + destruct (new_packet heap k s) as [s1 [|]] eqn:En.
        * assert (Q := same_new _ _ En). destruct (unscatter heap lraises k n l _) as [s2 o2] eqn:E2. injection 1 as <- <-.
          apply IH with (b := Pkt (xto e) :: b) in E2; [|eapply Inv_pop; [eapply same_inv; eauto|rewrite (q_edges Q); exact E|now right]|simpl; now rewrite upd_same].
          eapply Inv_perm; [|exact E2]. simpl. perm_solve.
        * injection 1 as <- <-. eapply same_inv; eauto. eapply same_new; eauto.
  Qed.

  (** Nothing but the list of the node, the log and the errors are changed. *)
  Lemma unscatter_keeps k n l s s' out :
    unscatter heap lraises k n l s = (s', out) ->
    obuf s' = obuf s /\ ogone s' = ogone s /\ odel s' = odel s /\ (forall j, oerr s j = true -> oerr s' j = true) /\ oseen s' = oseen s /\
    (forall m, m <> n -> oedges s' m = oedges s m).
  Proof.
    revert s s' out. induction l as [|e l IH]; intros s s' out; simpl.
    - injection 1 as <- <-. repeat split; auto.
    - assert (A : forall s1 s2 o, same s s1 -> unscatter heap lraises k n l (free_edge lraises k e (set_edges n l s1)) = (s2, o) ->
        obuf s2 = obuf s /\ ogone s2 = ogone s /\ odel s2 = odel s /\ (forall j, oerr s j = true -> oerr s2 j = true) /\ oseen s2 = oseen s /\
        (forall m, m <> n -> oedges s2 m = oedges s m)).
      { intros s1 s2 o Q H. apply IH in H as (B1 & B2 & B3 & B4 & B5 & B6). simpl in *. destruct Q.
        repeat split; try congruence.
        - intros j Hj. apply B4. apply (q_err (same_raise k (lraises (xlab e)) _)). simpl. auto.
        - intros m Hm. rewrite (B6 m Hm), (upd_diff _ _ Hm). congruence. }
      destruct (xto e =? n); [intros H; eapply A; eauto; apply same_refl|].
      destruct (new_packet heap k s) as [s1 [|]] eqn:En.
      + destruct (unscatter heap lraises k n l _) as [s2 o2] eqn:E2. injection 1 as <- <-. eapply A; eauto. eapply same_new; eauto.
      + injection 1 as <- <-. apply same_new in En as []. repeat split; try congruence; auto.
  Qed.

  (** The current packet is taken out. *)
  Lemma Inv_take_pkt n s b : Inv None s (Pkt n :: b) -> ~ over s n -> Inv (Some n) s b.
  Proof.
    intros I No. assert (Hn : In n (ids g)) by (apply (i_pkt I); now left). destruct I.
    assert (HH : forall x, held s None x -> held s (Some n) x) by (intros x [A|A]; [now left|discriminate]).
    assert (K : forall m, pend s None (Pkt n :: b) m -> pend s (Some n) b m).
    { intros m [A|[[A|A]|[A|(x & e & A & B)]]]; [now left| |right; left; auto|right; right; left; auto|].
      - injection A as <-. right. right. left. now right.
      - right. right. right. exists x, e. auto. }
    constructor; auto.
    - intros x Hx. injection Hx as <-. auto.
    - intros x Hx. apply i_pkt0. now right.
    - intros x l m [Hx|Hx] Hm; [apply K; eauto|]. destruct (Nat.eq_dec x n) as [->|N].
      + assert (D : {obuf s (lane n) = Some n} + {obuf s (lane n) <> Some n}) by (repeat decide equality).
        destruct D as [D|D]; [apply K; eapply i_front0; eauto; right; now left|].
        assert (E : oedges s n = items n) by (apply i_fresh0; auto; intros [A|A]; [auto|discriminate]).
        assert (T : forall i es, In (l, m) es -> exists e, In e (tag n i es) /\ xto e = m).
        { clear. intros i es. revert i. induction es as [|[a c] es IH]; intros i []; simpl.
          - injection H as -> ->. eexists. split; [now left|reflexivity].
          - destruct (IH (S i) H) as (e & A & B). eauto. }
        destruct (T 0 _ Hm) as (e & A & B). right. right. right. exists n, e. rewrite E. split; [now right|auto].
      + apply K. apply i_front0 with (n := x) (l := l); auto. right. destruct Hx as [Hx|Hx]; [now left|congruence].
  Qed.
  Lemma Inv_drop_pkt p w s b : (forall n, p = Pkt n -> over s n \/ held s w n) -> Inv w s (p :: b) -> Inv w s b.
  Proof.
    intros C [].
    assert (K : forall m, pend s w (p :: b) m -> pend s w b m).
    { intros m [A|[[A|A]|[A|A]]]; [now left| |right; left; auto|right; right; left; auto|right; right; right; auto].
      destruct (C _ A); [now left|right; right; left; auto]. }
    constructor; auto.
    - intros n Hn. apply i_pkt0. now right.
    - intros n l m H1 H2. apply K. eauto.
  Qed.
  Lemma Inv_buf k w s b : Inv w s b -> Inv w s (Buf k :: b).
  Proof.
    intros [].
    assert (K : forall m, pend s w b m -> pend s w (Buf k :: b) m).
    { intros m [A|[A|A]]; [now left|right; left; now right|right; right; auto]. }
    constructor; auto.
    - intros n [Hn|Hn]; [discriminate|auto].
    - intros n l m H1 H2. apply K. eauto.
  Qed.

  (** The current node is that in the buffer, or becomes so. *)
  Lemma Inv_rebuf w w' s s' b :
    Inv w s b ->
    oedges s' = oedges s -> oseen s' = oseen s -> odel s' = odel s -> (forall k, oerr s k = true -> oerr s' k = true) -> olabels s' = olabels s ->
    overtices s' = overtices s -> ogone s' = ogone s -> obad s' = obad s ->
    (forall x, held s' w' x <-> held s w x) -> (forall k x, obuf s' k = Some x -> lane x = k) ->
    Inv w' s' b.
  Proof.
    intros [] E1 E2 E3 E4 E5 E6 E7 E8 H L.
    assert (O : forall n, over s' n <-> over s n) by (intros n; unfold over; now rewrite E7, E3).
    assert (K : forall m, pend s w b m -> pend s' w' b m).
    { intros m [A|[A|[A|(x & e & A & B)]]]; [left; now apply O|right; now left|right; right; left; now apply H|].
      right. right. right. exists x, e. rewrite E1. split; [now apply H|auto]. }
    assert (Hh : forall x, held s w x -> In x (ids g) /\ ~ over s x).
    { intros x [A|A]; [|auto]. destruct (i_buf0 _ _ A) as (_ & B). exact B. }
    constructor; rewrite ?E1, ?E2, ?E3, ?E5, ?E6, ?E7, ?E8; auto.
    - intros k n Hn. rewrite ?E3 in Hn. destruct (i_del0 k n Hn) as (A & B & C). auto.
    - intros n Hn. apply i_edges0. now apply O.
    - intros k n Hn. assert (Ln := L _ _ Hn). split; auto. rewrite O. apply Hh, H. left. now rewrite Ln.
    - intros n Hn. rewrite O. apply Hh, H. now right.
    - intros n Hn. apply i_over0. now apply O.
    - intros n Ho Hx. apply i_fresh0; [now rewrite <- O|now rewrite <- H].
    - intros n l m Hx Hm. apply K. apply i_front0 with (n := n) (l := l); auto. now rewrite <- O, <- H.
  Qed.

  Lemma Inv_transplant n b s B :
    Inv (Some n) s B -> obuf s (lane b) = Some b -> b <> n -> Inv (Some n) (transplant b n s) B.
  Proof.
    intros I Hb N. destruct (i_buf I _ Hb) as (Lb & Bi & Bo). destruct (i_work I eq_refl) as [Ni No].
    assert (T : same s (touch b s)) by (apply same_touch; intros A; apply Bo; now left).
    unfold transplant. assert (Ed : oedges s n ++ oedges s b = oedges (touch b s) n ++ oedges (touch b s) b) by reflexivity.
    rewrite Ed. clear Ed. apply (same_inv T) in I. assert (Hb' : obuf (touch b s) (lane b) = Some b) by exact Hb.
    assert (Bo' : ~ over (touch b s) b) by exact Bo. assert (No' : ~ over (touch b s) n) by exact No.
    revert I Hb' Bo' No'. generalize (touch b s). clear s T Hb Bo No. intros s I Hb Bo No. destruct I.
    set (t := set_edges n [] (set_edges b (oedges s n ++ oedges s b) s)).
    assert (En : oedges t n = []) by (simpl; apply upd_same).
    assert (Eb : oedges t b = oedges s n ++ oedges s b) by (simpl; rewrite (upd_diff _ _ N); apply upd_same).
    assert (Ex : forall x, x <> n -> x <> b -> oedges t x = oedges s x) by (intros x H1 H2; simpl; rewrite (upd_diff _ _ H1); now apply upd_diff).
    assert (K : forall m, pend s (Some n) B m -> pend t (Some n) B m).
    { intros m [A|[A|[A|(x & e & A & D & E)]]]; [now left|right; now left|right; right; now left|].
      right. right. right. destruct (Nat.eq_dec x n) as [->|N1]; [|destruct (Nat.eq_dec x b) as [->|N2]].
      - exists b, e. split; [now left|]. rewrite Eb. split; auto. apply in_or_app. now left.
      - exists b, e. split; [now left|]. rewrite Eb. split; auto. apply in_or_app. now right.
      - exists x, e. split; auto. rewrite Ex; auto. }
    constructor; auto.
    - intros x Hx. destruct (Nat.eq_dec x n) as [->|N1]; auto. destruct (Nat.eq_dec x b) as [->|N2]; [contradiction|]. rewrite Ex; auto.
    - intros x e Hx. destruct (Nat.eq_dec x n) as [->|N1]; [rewrite En; easy|]. destruct (Nat.eq_dec x b) as [->|N2].
      + rewrite Eb. intros He. apply in_app_or in He as [He|He]; eauto.
      + rewrite Ex; eauto.
    - intros x Ho Hx. rewrite Ex; auto; intros ->; apply Hx; [now right|now left].
    - intros x l m Hx Hm. apply K. eauto.
    - rewrite <- i_log0. change (olabels t) with (olabels s). apply Permutation_app_head.
      assert (P1 := flat_map_upd (oedges s) b (oedges s n ++ oedges s b) (wf_nodup W) Bi).
      assert (P2 := flat_map_upd (upd (oedges s) b (oedges s n ++ oedges s b)) n [] (wf_nodup W) Ni).
      simpl in P2. rewrite upd_diff in P2 by auto.
      change (Permutation (flat_map (upd (upd (oedges s) b (oedges s n ++ oedges s b)) n []) (ids g)) (flat_map (oedges s) (ids g))).
      apply Permutation_app_inv_l with (l := oedges s b ++ oedges s n). rewrite <- app_assoc, P2, P1. perm_solve.
  Qed.

  Lemma Inv_forget n s b :
    Inv (Some n) s b -> oedges s n = [] -> obuf s (lane n) <> Some n -> Inv None (forget g heap lraises vraises (lane n) n s) b.
  Proof.
    intros I En Nb. destruct (i_work I eq_refl) as [Ni No].
    assert (Ng : ~ In n (ogone s)) by (intros A; apply No; now left).
    assert (Nd : ~ In n (odel s (lane n))) by (intros A; apply No; now right).
    set (t := forget g heap lraises vraises (lane n) n s).
    assert (F : oedges t = upd (oedges s) n [] \/ oedges t = oedges s) by
      (unfold t, forget; destruct (heap _); [left; unfold free_node; simpl; now rewrite En|now right]).
    assert (E1 : forall x, oedges t x = oedges s x).
    { intros x. destruct F as [F|F]; rewrite F; auto. unfold upd. destruct (Nat.eqb_spec x n) as [->|]; auto. }
    assert (E4 : obuf t = obuf s) by (unfold t, forget; destruct (heap _); [unfold free_node; simpl; now rewrite En|reflexivity]).
    assert (E5 : olabels t = olabels s) by (unfold t, forget; destruct (heap _); [unfold free_node; simpl; now rewrite En|reflexivity]).
    assert (E8 : obad t = false).
    { unfold t, forget. destruct (heap _); [|apply (i_bad I)]. unfold free_node. simpl. rewrite En. simpl. rewrite (i_bad I). simpl.
      now apply existsb_out. }
    assert (E9 : forall k, oerr s k = true -> oerr t k = true).
    { intros k Hk. unfold t, forget. destruct (heap _).
      - unfold free_node. simpl. rewrite En. simpl. unfold upd. destruct (Nat.eqb_spec k (lane n)) as [->|]; auto. now rewrite Hk.
      - simpl. unfold upd. destruct (Nat.eqb_spec k (lane n)) as [->|]; auto. apply orb_true_r. }
    assert (C : (overtices t = overtices s ++ [(n, vx g n)] /\ ogone t = ogone s ++ [n] /\ odel t = odel s /\ oseen t = upd (oseen s) (lane n) (n :: oseen s (lane n))) \/
                (overtices t = overtices s /\ ogone t = ogone s /\ odel t = upd (odel s) (lane n) (n :: odel s (lane n)) /\ oseen t = oseen s /\ oerr t (lane n) = true)).
    { unfold t, forget. destruct (heap _); [left; unfold free_node; simpl; rewrite En; simpl; auto|right].
      simpl. rewrite upd_same, orb_true_r. auto. }
    clear F. clearbody t. destruct I.
    assert (O : forall x, over t x <-> over s x \/ x = n).
    { intros x. unfold over. destruct C as [(_ & -> & -> & _)|(_ & -> & -> & _)].
      - rewrite in_app_iff. simpl. intuition.
      - unfold upd. destruct (Nat.eqb_spec (lane x) (lane n)) as [E|E]; [rewrite E; simpl; intuition|].
        intuition. subst. congruence. }
    assert (H : forall x, x <> n -> (held t None x <-> held s (Some n) x)).
    { intros x Nx. unfold held. rewrite E4. intuition congruence. }
    assert (K : forall m, pend s (Some n) b m -> pend t None b m).
    { intros m Pm. destruct (Nat.eq_dec m n) as [->|Nm]; [left; apply O; auto|].
      destruct Pm as [A|[A|[A|(x & e & A & D & E)]]]; [left; apply O; auto|right; now left|right; right; left; now apply H|].
      right. right. right. exists x, e. rewrite E1. destruct (Nat.eq_dec x n) as [->|Nx]; [rewrite En in D; easy|]. split; auto. now apply H. }
    constructor; rewrite ?E5; auto.
    - destruct C as [(_ & -> & _)|(_ & -> & _)]; auto. apply (Permutation_NoDup (l := n :: ogone s)); [perm_solve|]. now constructor.
    - destruct C as [(-> & -> & _)|(-> & -> & _)]; auto. now rewrite map_app, i_verts0.
    - intros k x. destruct C as [(_ & -> & _ & ->)|(_ & -> & _ & -> & _)]; auto. rewrite in_app_iff. simpl. unfold upd.
      destruct (Nat.eqb_spec k (lane n)) as [->|Nk]; simpl; rewrite i_seen0; intuition (subst; auto; congruence).
    - intros k x. destruct C as [(_ & -> & -> & _)|(_ & -> & -> & _ & Er)].
      + intros Hx. destruct (i_del0 _ _ Hx) as (A & B & D). repeat split; auto. rewrite in_app_iff. simpl. intros [Y|[<-|[]]]; auto.
        subst k. auto.
      + unfold upd. destruct (Nat.eqb_spec k (lane n)) as [->|Nk]; [|intros Hx; destruct (i_del0 _ _ Hx) as (A & B & D); auto].
        intros [<-|Hx]; [auto|]. destruct (i_del0 _ _ Hx) as (A & B & D). auto.
    - intros k. destruct C as [(_ & _ & -> & _)|(_ & _ & -> & _)]; auto. unfold upd. destruct (Nat.eqb_spec k (lane n)) as [->|]; auto.
      constructor; auto.
    - intros x Hx. rewrite E1. apply O in Hx as [Hx| ->]; auto.
    - intros k x. rewrite E4. intros Hx. destruct (i_buf0 _ _ Hx) as (A & B & D). repeat split; auto. rewrite O. intros [Y| ->]; auto. congruence.
    - intros x Hx. discriminate.
    - intros x Hx. apply O in Hx as [Hx| ->]; auto.
    - intros x e Hx. rewrite E1. eauto.
    - intros x Ho Hh. rewrite E1. assert (Nx : x <> n) by (intros ->; apply Ho, O; auto). apply i_fresh0; [|now rewrite <- H].
      intros A. apply Ho, O. auto.
    - intros x l m Hx Hm. apply K. apply i_front0 with (n := x) (l := l); auto. destruct (Nat.eq_dec x n) as [->|Nx]; [right; now right|].
      destruct Hx as [Hx|Hx]; [left|right; now apply H]. apply O in Hx as [Hx|Hx]; [auto|contradiction].
    - rewrite <- i_log0. apply Permutation_app_head. erewrite flat_map_ext; [reflexivity|]. intros x. apply E1.
  Qed.

  Lemma recorded_over w s b n : Inv w s b -> recorded (lane n) n s = true <-> over s n.
  Proof.
    intros []. unfold recorded, over. rewrite orb_true_iff, andb_true_iff, !existsb_in, i_seen0. split.
    - intros [[_ A]|[_ A]]; auto.
    - intros [A|A]; auto. right. split; auto. apply (i_del0 _ _ A).
  Qed.
  Lemma not_recorded w s b n : Inv w s b -> recorded (lane n) n s = false -> ~ over s n.
  Proof. intros I E A. apply (recorded_over n I) in A. congruence. Qed.

  (** *** Iterations *)

  Lemma receive_inv n s b s' out : Inv None s (Pkt n :: b) -> receive X g heap lraises vraises limit n s = (s', out) -> Inv None s' (out ++ b).
  Proof.
    intros I. unfold receive. destruct (recorded (lane n) n s) eqn:R.
    - injection 1 as <- <-. apply (same_inv (same_nack _)). eapply Inv_drop_pkt; [|exact I].
      intros m E. injection E as <-. left. now apply (recorded_over n I).
    - assert (No := not_recorded I R). assert (I1 := Inv_take_pkt I No).
      apply (same_inv (@same_touch n s ltac:(intros A; apply No; now left))) in I1.
      destruct (unscatter heap lraises (lane n) n (oedges s n) (touch n s)) as [s1 o1] eqn:U.
      assert (I2 := @unscatter_inv (lane n) n (oedges s n) (touch n s) b s1 o1 I1 eq_refl U). destruct (unscatter_keeps _ _ _ _ U) as (Eb & _).
      change (obuf (touch n s)) with (obuf s) in Eb. rewrite Eb.
      assert (D : obuf s1 (lane n) = Some n -> Inv None s1 (map Pkt o1 ++ b)).
      { intros D. eapply Inv_rebuf; [exact I2|..]; auto.
        - intros x. unfold held. intuition congruence.
        - intros k x Hx. apply (i_buf I2 _ Hx). }
      destruct (is_empty (oedges s1 n)) eqn:Em.
      + assert (En : oedges s1 n = []) by (destruct (oedges s1 n); [auto|discriminate]).
        assert (F : obuf s (lane n) <> Some n -> Inv None (nack limit (forget g heap lraises vraises (lane n) n s1)) (map Pkt o1 ++ b)).
        { intros F. apply (same_inv (same_nack _)). apply Inv_forget; auto. now rewrite Eb. }
        destruct (obuf s (lane n)) as [x|] eqn:Ex; [destruct (Nat.eqb_spec x n) as [->|Nx]|].
        * injection 1 as <- <-. apply (same_inv (same_nack _)). apply D. now rewrite Eb.
        * injection 1 as <- <-. apply F. congruence.
        * injection 1 as <- <-. apply F. discriminate.
      + destruct (obuf s (lane n)) as [x|] eqn:Ex; [destruct (Nat.eqb_spec x n) as [->|Nx]|].
        * injection 1 as <- <-. apply (same_inv (same_nack _)). apply D. now rewrite Eb.
        * injection 1 as <- <-. apply (same_inv (same_nack _)).
          assert (Lx : lane x = lane n) by (apply (i_buf I2 (lane n)); now rewrite Eb).
          apply Inv_forget.
          -- apply Inv_transplant; auto. rewrite Lx. now rewrite Eb.
          -- simpl. apply upd_same.
          -- simpl. rewrite Eb, Ex. congruence.
        * injection 1 as <- <-. apply (same_inv (same_nack _)). simpl. apply Inv_buf. eapply Inv_rebuf; [exact I2|..]; auto.
          -- intros y. unfold held. simpl. unfold upd. destruct (Nat.eqb_spec (lane y) (lane n)) as [E|E]; [rewrite E, Eb, Ex|]; intuition congruence.
          -- simpl. intros k y. unfold upd. destruct (Nat.eqb_spec k (lane n)) as [->|]; [congruence|]. intros Hy. apply (i_buf I2 _ Hy).
  Qed.

  (** Buffers in flight are occupied. *)
  Definition bufs (k : nat) (b : list opkt) : nat := length (filter (fun p => match p with Buf j => j =? k | _ => false end) b).
  Definition filled (s : ost) (b : list opkt) : Prop := forall k, bufs k b = match obuf s k with Some _ => 1 | None => 0 end.

  Lemma set_buf_forget k n s : set_buf k None (forget g heap lraises vraises k n s) = forget g heap lraises vraises k n (set_buf k None s).
  Proof.
    unfold forget. simpl. destruct (heap (otick s)); [|reflexivity]. unfold free_node. simpl.
    assert (G : forall l t u, u = set_buf k None t -> fold_left (fun s e => free_edge lraises k e s) l u = set_buf k None (fold_left (fun s e => free_edge lraises k e s) l t)).
    { induction l as [|e l IH]; intros t u ->; auto. simpl. apply IH. reflexivity. }
    match goal with |- context [touch n (mkO ?a ?b ?c (upd (obuf s) k None) ?e ?f ?u ?h ?i ?j ?l)] =>
      rewrite (G (oedges s n) (touch n (mkO a b c (obuf s) e f u h i j l)) (touch n (mkO a b c (upd (obuf s) k None) e f u h i j l)) eq_refl) end.
    reflexivity.
  Qed.

  Lemma retry_inv k s b s' out :
    Inv None s (Buf k :: b) -> filled s (Buf k :: b) -> retry g heap lraises vraises k s = Some (s', out) -> Inv None s' (out ++ b).
  Proof.
    intros I F. unfold retry. destruct (obuf s k) as [n|] eqn:En.
    2: { specialize (F k). rewrite En in F. unfold bufs in F. simpl in F. rewrite Nat.eqb_refl in F. discriminate. }
    destruct (i_buf I _ En) as (<- & Ni & No).
    destruct (recorded (lane n) n s) eqn:R; [apply (recorded_over n I) in R; contradiction|].
    apply Inv_drop_pkt in I; [|discriminate].
    assert (I1 : Inv (Some n) s b).
    { eapply Inv_rebuf; [exact I|..]; auto; [|intros k x Hx; apply (i_buf I _ Hx)]. intros x. unfold held. intuition congruence. }
    apply (same_inv (@same_touch n s ltac:(intros A; apply No; now left))) in I1.
    destruct (unscatter heap lraises (lane n) n (oedges s n) (touch n s)) as [s1 o1] eqn:U.
    assert (I2 := @unscatter_inv (lane n) n (oedges s n) (touch n s) b s1 o1 I1 eq_refl U). destruct (unscatter_keeps _ _ _ _ U) as (Eb & _).
    change (obuf (touch n s)) with (obuf s) in Eb.
    destruct (is_empty (oedges s1 n)) eqn:Em.
    - assert (Ee : oedges s1 n = []) by (destruct (oedges s1 n); [auto|discriminate]). injection 1 as <- <-.
      rewrite set_buf_forget. apply Inv_forget; auto; [|simpl; rewrite upd_same; discriminate].
      eapply Inv_rebuf; [exact I2|..]; auto.
      + intros x. unfold held. simpl. unfold upd. destruct (Nat.eqb_spec (lane x) (lane n)) as [E|E]; [rewrite E, Eb, En|]; intuition congruence.
      + simpl. intros j x. unfold upd. destruct (Nat.eqb_spec j (lane n)) as [->|]; [discriminate|]. intros Hx. apply (i_buf I2 _ Hx).
    - destruct (_ =? _); [discriminate|]. injection 1 as <- <-. simpl. apply Inv_buf.
      eapply Inv_rebuf; [exact I2|..]; auto; [|intros j x Hx; apply (i_buf I2 _ Hx)]. intros x. unfold held. rewrite Eb. intuition congruence.
  Qed.

  Lemma bufs_app k a b : bufs k (a ++ b) = bufs k a + bufs k b.
  Proof. unfold bufs. now rewrite filter_app, app_length. Qed.
  Lemma bufs_pkts k o : bufs k (map Pkt o) = 0.
  Proof. unfold bufs. now induction o. Qed.
  Lemma bufs_buf k j b : bufs k (Buf j :: b) = (if j =? k then 1 else 0) + bufs k b.
  Proof. unfold bufs. simpl. now destruct (j =? k). Qed.

  Lemma forget_buf k n s : obuf (forget g heap lraises vraises k n s) = obuf s.
  Proof.
    unfold forget. destruct (heap _); [|reflexivity]. unfold free_node. simpl.
    assert (G : forall l t, obuf (fold_left (fun s e => free_edge lraises k e s) l t) = obuf t) by (induction l; intros t; simpl; auto; now rewrite IHl).
    rewrite G. reflexivity.
  Qed.
  Lemma nack_buf s : obuf (nack limit s) = obuf s.
  Proof. apply (q_buf (same_nack s)). Qed.

  Lemma filled_step s p b s' out :
    filled s (p :: b) -> frugal X g heap lraises vraises limit s p = Some (s', out) -> filled s' (out ++ b).
  Proof.
    intros F. destruct p as [n|k]; simpl.
    - assert (F1 : filled s b) by exact F. unfold receive. destruct (recorded (lane n) n s); [injection 1 as <- <-; intros k; rewrite nack_buf; apply F1|].
      destruct (unscatter heap lraises (lane n) n (oedges s n) (touch n s)) as [s1 o1] eqn:U.
      destruct (unscatter_keeps _ _ _ _ U) as (Eb & _). change (obuf (touch n s)) with (obuf s) in Eb. rewrite Eb.
      assert (A : forall t, obuf t = obuf s -> filled t (map Pkt o1 ++ b)).
      { intros t E k. rewrite bufs_app, bufs_pkts, E. apply F1. }
      destruct (is_empty (oedges s1 n)); destruct (obuf s (lane n)) as [x|] eqn:Ex; try destruct (x =? n); injection 1 as <- <-;
        try (apply A; rewrite nack_buf, ?forget_buf; assumption).
      intros k. rewrite nack_buf. simpl app. rewrite bufs_buf, bufs_app, bufs_pkts, (F1 k). simpl. unfold upd. rewrite Eb.
      rewrite Nat.eqb_sym. destruct (Nat.eqb_spec k (lane n)) as [->|]; auto. now rewrite Ex.
    - unfold retry. assert (F1 : forall j, bufs j b = match obuf s j with Some _ => 1 | None => 0 end - (if k =? j then 1 else 0)).
      { intros j. specialize (F j). rewrite bufs_buf in F. lia. }
      destruct (obuf s k) as [n|] eqn:Ek.
      2: { specialize (F k). rewrite bufs_buf, Nat.eqb_refl, Ek in F. discriminate. }
      assert (C : forall t, obuf t = upd (obuf s) k None -> filled t b).
      { intros t E j. rewrite (F1 j), E. unfold upd. rewrite (Nat.eqb_sym k j). destruct (Nat.eqb_spec j k) as [->|]; [now rewrite Ek|]. destruct (obuf s j); reflexivity. }
      destruct (recorded k n s); [injection 1 as <- <-; now apply C|].
      destruct (unscatter heap lraises k n (oedges s n) (touch n s)) as [s1 o1] eqn:U.
      destruct (unscatter_keeps _ _ _ _ U) as (Eb & _). change (obuf (touch n s)) with (obuf s) in Eb.
      destruct (is_empty (oedges s1 n)).
      + injection 1 as <- <-. intros j. rewrite bufs_app, bufs_pkts. apply C. simpl. now rewrite forget_buf, Eb.
      + destruct (_ =? _); [discriminate|]. injection 1 as <- <-. intros j. simpl app. rewrite bufs_buf, bufs_app, bufs_pkts, Eb.
        specialize (F j). rewrite bufs_buf in F. exact F.
  Qed.

  Lemma bufs_perm k b b' : Permutation b b' -> bufs k b = bufs k b'.
  Proof. intros H. unfold bufs. induction H; simpl; try (destruct x as [|x]); try (destruct y as [|y]); simpl; repeat destruct (_ =? k); simpl; congruence. Qed.

  Definition Good (s : ost) (b : list opkt) : Prop := Inv None s b /\ filled s b.
  Lemma Good_perm s b b' : Permutation b b' -> Good s b -> Good s b'.
  Proof. intros P [I F]. split; [eapply Inv_perm; eauto|]. intros k. rewrite <- (bufs_perm k P). apply F. Qed.
  Lemma Good_step s p b s' out : Good s (p :: b) -> frugal X g heap lraises vraises limit s p = Some (s', out) -> Good s' (out ++ b).
  Proof.
    intros [I F] H. split; [|eapply filled_step; eauto]. destruct p as [n|k]; simpl in H.
    - injection H as H. eapply receive_inv; eauto.
    - eapply retry_inv; eauto.
  Qed.
  Lemma tag_to n i l e : In e (tag n i l) -> exists x, In (x, xto e) l.
  Proof. revert i. induction l as [|[x m] l IH]; intros i []; simpl; [subst; simpl; eauto|]. apply IH in H as (y & H). eauto. Qed.
  Lemma Good_start spare : Good (ostart g spare) [Pkt (root g)].
  Proof.
    assert (O : forall n, ~ over (ostart g spare) n) by (intros n [A|A]; exact A).
    assert (H : forall n, ~ held (ostart g spare) None n) by (intros n [A|A]; discriminate).
    split; [|intros k; reflexivity]. constructor; try (simpl; easy).
    - constructor.
    - intros k. constructor.
    - intros n A. destruct (O _ A).
    - intros n [E|[]]. injection E as <-. apply (wf_root W).
    - intros n A. destruct (O _ A).
    - intros n e Hn He. apply tag_to in He as (x & He). eapply (wf_closed W); eauto.
    - intros n l m [A|A]; [destruct (O _ A)|destruct (H _ A)].
    - right. left. now left.
  Qed.

  Local Notation task := (frugal X g heap lraises vraises limit).
  Lemma Good_runs spare s b : mruns task (ostart g spare, [Pkt (root g)]) (s, b) -> Good s b.
  Proof. apply (@mruns_inv _ _ task Good); [exact Good_perm|exact Good_step|apply Good_start]. Qed.

  (** *** The end *)

  Lemma Good_over s n : Good s [] -> In n (ids g) -> over s n.
  Proof.
    intros [I F] Hn.
    assert (Nb : forall k, obuf s k = None) by (intros k; specialize (F k); unfold bufs in F; simpl in F; destruct (obuf s k); [discriminate|auto]).
    assert (Nh : forall x, ~ held s None x) by (intros x [A|A]; [rewrite Nb in A|]; discriminate).
    assert (P : forall m, pend s None [] m -> over s m).
    { intros m [A|[[]|[A|(x & e & A & _)]]]; auto; destruct (Nh _ A). }
    assert (R := wf_reach W n Hn). induction R as [|b l c R IH Hc]; [apply P, (i_root I)|].
    apply P. eapply (i_front I); eauto. left. apply IH. eapply path_in; [apply (wf_closed W)|apply (wf_root W)|exact R].
  Qed.

  Lemma free_node_end k n s :
    oedges s n = [] -> ~ In n (ogone s) ->
    let t := free_node g lraises vraises k n s in
    (forall m, oedges t m = oedges s m) /\ ogone t = ogone s ++ [n] /\ overtices t = overtices s ++ [(n, vx g n)] /\ olabels t = olabels s /\
    odel t = odel s /\ obad t = obad s.
  Proof.
    intros E N. unfold free_node. rewrite E. simpl. repeat split.
    - intros m. unfold upd. destruct (Nat.eqb_spec m n) as [->|]; auto.
    - apply existsb_out in N. rewrite N. apply orb_false_r.
  Qed.
  Lemma purge_list k ns s :
    NoDup ns -> (forall n, In n ns -> oedges s n = [] /\ ~ In n (ogone s)) ->
    let t := fold_left (fun s n => free_node g lraises vraises k n s) ns s in
    (forall m, oedges t m = oedges s m) /\ ogone t = ogone s ++ ns /\ overtices t = overtices s ++ map (fun n => (n, vx g n)) ns /\ olabels t = olabels s /\
    odel t = odel s /\ obad t = obad s.
  Proof.
    revert s. induction ns as [|n ns IH]; intros s N H; simpl; [rewrite !app_nil_r; auto 10|].
    inversion N; subst. destruct (H n (or_introl eq_refl)) as [E G].
    destruct (@free_node_end k n s E G) as (A1 & A2 & A3 & A4 & A5 & A6).
    destruct (IH (free_node g lraises vraises k n s)) as (B1 & B2 & B3 & B4 & B5 & B6); auto.
    - intros m Hm. rewrite A1, A2, in_app_iff. destruct (H m (or_intror Hm)). split; auto. simpl. intros [Y|[<-|[]]]; auto.
    - rewrite B2, B3, B4, B5, B6, A2, A3, A4, A5, A6, <- !app_assoc. repeat split; auto. intros m. now rewrite B1, A1.
  Qed.
  Lemma purge_lanes ks s :
    NoDup ks -> (forall k, NoDup (odel s k)) ->
    (forall k n, In n (odel s k) -> lane n = k /\ oedges s n = []) -> (forall k n, In k ks -> In n (odel s k) -> ~ In n (ogone s)) ->
    let t := fold_left (fun s k => purge g lraises vraises k s) ks s in
    ogone t = ogone s ++ flat_map (odel s) ks /\ overtices t = overtices s ++ map (fun n => (n, vx g n)) (flat_map (odel s) ks) /\ olabels t = olabels s /\
    obad t = obad s.
  Proof.
    revert s. induction ks as [|k ks IH]; intros s N Nd H G; simpl; [rewrite !app_nil_r; auto|].
    inversion N; subst.
    destruct (@purge_list k (odel s k) s (Nd k)) as (A1 & A2 & A3 & A4 & A5 & A6).
    { intros n Hn. split; [apply (H k n Hn)|apply (G k n (or_introl eq_refl) Hn)]. }
    fold (purge g lraises vraises k s) in *.
    destruct (IH (purge g lraises vraises k s)) as (B1 & B2 & B3 & B4); auto.
    - intros j. rewrite A5. auto.
    - intros j n. rewrite A5, A1. auto.
    - intros j n Hj. rewrite A5, A2, in_app_iff. intros Hn [Y|Y]; [apply (G j n); simpl; auto|].
      apply H in Hn as [Hn _]. apply H in Y as [Y _]. congruence.
    - rewrite B1, B2, B3, B4, A2, A3, A4, A5, A6, map_app, <- !app_assoc. auto.
  Qed.

  Lemma NoDup_app_disjoint {A} (l l' : list A) : NoDup l -> NoDup l' -> (forall x, In x l -> ~ In x l') -> NoDup (l ++ l').
  Proof.
    intros N N' D. induction l as [|x l IH]; auto. inversion N; subst. simpl. constructor.
    - rewrite in_app_iff. intros [H|H]; auto. apply (D x); simpl; auto.
    - apply IH; auto. intros y Hy. apply D. now right.
  Qed.
  Lemma NoDup_lanes (f : nat -> list nat) ks :
    NoDup ks -> (forall k, NoDup (f k)) -> (forall k n, In n (f k) -> lane n = k) -> NoDup (flat_map f ks).
  Proof.
    intros N H L. induction ks as [|k ks IH]; [constructor|]. inversion N; subst. simpl. apply NoDup_app_disjoint; auto.
    intros n Hn Hm. apply in_flat_map in Hm as (j & Hj & Hm). apply L in Hn. apply L in Hm. congruence.
  Qed.

  Lemma lane_lt n : 0 < lanes X -> lane n < lanes X.
  Proof. intros H. now apply lane_of_lt. Qed.

  Lemma purged_all s :
    0 < lanes X -> Good s [] ->
    let t := purged X g lraises vraises s in
    Permutation (ogone t) (ids g) /\ overtices t = map (fun n => (n, vx g n)) (ogone t) /\
    Permutation (olabels t) (flat_map (fun n => items n) (ids g)) /\ obad t = false.
  Proof.
    intros Hl G. assert (A := fun n => @Good_over s n G). destruct G as [I F].
    destruct (@purge_lanes (seq 0 (lanes X)) s) as (B1 & B2 & B3 & B4).
    - apply seq_NoDup.
    - apply (i_delnd I).
    - intros k n Hn. destruct (i_del I _ _ Hn) as (<- & _). split; auto. apply (i_edges I). now right.
    - intros k n _ Hn. apply (i_del I _ _ Hn).
    - fold (purged X g lraises vraises s) in *. simpl. rewrite B1, B2, B3, B4. split; [|split; [|split]].
      + apply NoDup_Permutation; [|apply (wf_nodup W)|].
        * apply NoDup_app_disjoint; [apply (i_gone I)| |].
          -- apply NoDup_lanes; [apply seq_NoDup|apply (i_delnd I)|]. intros k n Hn. apply (i_del I _ _ Hn).
          -- intros n Hn Hm. apply in_flat_map in Hm as (k & _ & Hm). apply (i_del I _ _ Hm). exact Hn.
        * intros n. rewrite in_app_iff, in_flat_map. split.
          -- intros [H|(k & _ & H)]; apply (i_over I); [now left|]. destruct (i_del I _ _ H) as (<- & _). now right.
          -- intros H. destruct (A n H) as [H1|H1]; auto. right. exists (lane n). split; auto. apply in_seq. split; [lia|]. now apply lane_lt.
      + now rewrite map_app, (i_verts I).
      + assert (Q := i_log I). assert (E : flat_map (oedges s) (ids g) = []).
        { assert (E : forall l, (forall n, In n l -> In n (ids g)) -> flat_map (oedges s) l = []).
          { induction l as [|n l IH]; intros H; auto. simpl. rewrite (i_edges I (A n (H n (or_introl eq_refl)))). apply IH. intros m Hm. apply H. now right. }
          now apply E. }
        rewrite E, app_nil_r in Q. exact Q.
      + apply (i_bad I).
  Qed.

  Lemma tag_in n i l e : In e (tag n i l) <-> xfrom e = n /\ i <= xpos e /\ nth_error l (xpos e - i) = Some (xlab e, xto e).
  Proof.
    revert i. induction l as [|[x m] l IH]; intros i; simpl.
    - split; [easy|]. intros (_ & _ & H). destruct (xpos e - i); discriminate.
    - rewrite IH. split.
      + intros [<-|(A & B & C)]; [simpl; rewrite Nat.sub_diag; auto|].
        repeat split; auto; [lia|]. replace (xpos e - i) with (S (xpos e - S i)) by lia. exact C.
      + intros (A & B & C). destruct (Nat.eq_dec (xpos e) i) as [E|E].
        * left. rewrite E, Nat.sub_diag in C. simpl in C. injection C as -> ->. destruct e. simpl in *. congruence.
        * right. repeat split; auto; [lia|]. replace (xpos e - i) with (S (xpos e - S i)) in C by lia. exact C.
  Qed.
  Lemma tag_nodup n i l : NoDup (tag n i l).
  Proof.
    revert i. induction l as [|[x m] l IH]; intros i; simpl; constructor; auto.
    rewrite tag_in. simpl. lia.
  Qed.
  Lemma items_nodup : NoDup (flat_map (fun n => items n) (ids g)).
  Proof.
    assert (N := wf_nodup W). induction (ids g) as [|n l IH]; [constructor|]. inversion N; subst. simpl. apply NoDup_app_disjoint; auto using tag_nodup.
    intros e He Hm. apply in_flat_map in Hm as (m & Hm & Hm'). apply tag_in in He as (E1 & _). apply tag_in in Hm' as (E2 & _). congruence.
  Qed.

  (** *** Progress *)

  Definition is_pkt (p : opkt) : bool := match p with Pkt _ => true | _ => false end.
  Definition pkts (b : list opkt) : nat := length (filter is_pkt b).

  Lemma nack_spare s : 0 < limit -> 0 < ospare (nack limit s).
  Proof. intros H. unfold nack. destruct (Nat.ltb_spec (ospare s) limit); simpl; lia. Qed.

  Lemma unscatter_counts k n l s s' out :
    unscatter heap lraises k n l s = (s', out) -> oedges s n = l ->
    ospare s <= ospare s' + length out /\
    length (olabels s') + length (oedges s' n) = length (olabels s) + length l /\
    length (olabels s) + length out <= length (olabels s') /\
    (l <> [] -> 0 < ospare s -> length (oedges s' n) < length l).
  Proof.
    revert s s' out. induction l as [|e l IH]; intros s s' out; simpl.
    - injection 1 as <- <-. intros E. rewrite E. simpl. repeat split; auto; try lia. congruence.
    - assert (A : forall s1 s2 o, olabels s1 = olabels s -> unscatter heap lraises k n l (free_edge lraises k e (set_edges n l s1)) = (s2, o) ->
        ospare s1 <= ospare s2 + length o /\ length (olabels s2) + length (oedges s2 n) = length (olabels s) + S (length l) /\
        length (olabels s) + S (length o) <= length (olabels s2) /\ length (oedges s2 n) <= length l).
      { intros s1 s2 o Q H. apply IH in H as (B1 & B2 & B3 & _); [|simpl; apply upd_same]. simpl in *. rewrite app_length in *. simpl in *. rewrite Q in *. lia. }
      destruct (xto e =? n).
      + intros H E. apply A in H as (B1 & B2 & B3 & B4); auto. repeat split; lia.
      + unfold new_packet. destruct (heap (otick s)).
        * destruct (unscatter heap lraises k n l _) as [s2 o2] eqn:E2. injection 1 as <- <-. intros E. apply A in E2 as (B1 & B2 & B3 & B4); auto.
          simpl in *. repeat split; lia.
        * destruct (ospare s) as [|m] eqn:Es.
          -- injection 1 as <- <-. intros E. simpl. rewrite E. simpl. repeat split; lia.
          -- destruct (unscatter heap lraises k n l _) as [s2 o2] eqn:E2. injection 1 as <- <-. intros E. apply A in E2 as (B1 & B2 & B3 & B4); auto.
             simpl in *. repeat split; lia.
  Qed.

  Lemma free_edges_counts k l s :
    let t := fold_left (fun s e => free_edge lraises k e s) l s in ospare t = ospare s /\ length (olabels s) <= length (olabels t).
  Proof.
    revert s. induction l as [|e l IH]; intros s; simpl; auto. destruct (IH (free_edge lraises k e s)) as [A B].
    rewrite A. split; auto. etransitivity; [|exact B]. simpl. rewrite app_length. lia.
  Qed.
  Lemma forget_counts k n s : ospare (forget g heap lraises vraises k n s) = ospare s /\ length (olabels s) <= length (olabels (forget g heap lraises vraises k n s)).
  Proof.
    unfold forget. destruct (heap _); [|simpl; auto]. unfold free_node. simpl.
    match goal with |- context [fold_left _ ?l ?t] => destruct (free_edges_counts k l t) as [A B] end.
    simpl in A, B. rewrite A. auto.
  Qed.
  Lemma nack_labels s : olabels (nack limit s) = olabels s.
  Proof. apply (q_labels (same_nack s)). Qed.

  Lemma pkts_app a b : pkts (a ++ b) = pkts a + pkts b.
  Proof. unfold pkts. now rewrite filter_app, app_length. Qed.
  Lemma pkts_map o : pkts (map Pkt o) = length o.
  Proof. unfold pkts. induction o; simpl; auto. Qed.

  Lemma spare_step s p b s' out :
    0 < limit -> 0 < ospare s + pkts (p :: b) -> task s p = Some (s', out) -> 0 < ospare s' + pkts (out ++ b).
  Proof.
    intros Hl Hs. destruct p as [n|k]; simpl.
    - intros H. enough (0 < ospare s') by lia. injection H as H. revert H. unfold receive.
      destruct (recorded _ _ _); [injection 1 as <- <-; now apply nack_spare|]. destruct (unscatter _ _ _ _ _ _) as [s1 o1].
      destruct (is_empty _); destruct (obuf s1 (lane n)) as [x|]; try destruct (x =? n); injection 1 as <- <-; now apply nack_spare.
    - change (pkts (Buf k :: b)) with (pkts b) in Hs. unfold retry. destruct (obuf s k) as [n|]; [|injection 1 as <- <-; exact Hs].
      destruct (recorded k n s); [injection 1 as <- <-; exact Hs|].
      destruct (unscatter heap lraises k n (oedges s n) (touch n s)) as [s1 o1] eqn:U.
      destruct (unscatter_counts _ _ _ U eq_refl) as (C & _). change (ospare (touch n s)) with (ospare s) in C.
      destruct (is_empty _).
      + injection 1 as <- <-. rewrite pkts_app, pkts_map. change (ospare (set_buf k None (forget g heap lraises vraises k n s1))) with (ospare (forget g heap lraises vraises k n s1)).
        rewrite (proj1 (forget_counts k n s1)). lia.
      + destruct (_ =? _); [discriminate|]. injection 1 as <- <-. simpl app. change (pkts (Buf k :: map Pkt o1 ++ b)) with (pkts (map Pkt o1 ++ b)).
        rewrite pkts_app, pkts_map. lia.
  Qed.

  Lemma pkts_perm b b' : Permutation b b' -> pkts b = pkts b'.
  Proof. intros H. unfold pkts. induction H; simpl; repeat (destruct (is_pkt _); simpl); congruence. Qed.

  Lemma never_stuck spare s b :
    0 < limit -> mruns task (ostart g spare, [Pkt (root g)]) (s, b) -> b <> [] -> exists p, In p b /\ task s p <> None.
  Proof.
    intros Hl Hr Hb. assert (G := Good_runs Hr).
    assert (Sp : 0 < ospare s + pkts b).
    { refine (@mruns_inv _ _ task (fun s b => 0 < ospare s + pkts b) _ _ _ _ _ _ _ Hr).
      - intros s1 b1 b2 P. now rewrite (pkts_perm P).
      - intros s1 p b1 s2 out. now apply spare_step.
      - unfold pkts. simpl. lia. }
    destruct (existsb is_pkt b) eqn:E.
    - apply existsb_exists in E as ([n|] & Hp & E); [|discriminate]. exists (Pkt n). split; auto. discriminate.
    - destruct b as [|p b]; [congruence|]. exists p. split; [now left|].
      assert (P0 : pkts (p :: b) = 0).
      { unfold pkts. clear -E. induction (p :: b) as [|q l IH]; auto. simpl in *. apply orb_false_iff in E as [E1 E2]. rewrite E1. auto. }
      destruct p as [n|k]; [discriminate|]. simpl. unfold retry. destruct (obuf s k) as [n|]; [|discriminate].
      destruct (recorded k n s); [discriminate|].
      destruct (unscatter heap lraises k n (oedges s n) (touch n s)) as [s1 o1] eqn:U.
      destruct (unscatter_counts _ _ _ U eq_refl) as (_ & C2 & _ & C). change (ospare (touch n s)) with (ospare s) in C.
      destruct (is_empty (oedges s1 n)) eqn:Em; [discriminate|].
      destruct (Nat.eqb_spec (length (oedges s1 n)) (length (oedges s n))) as [El|]; [|discriminate].
      exfalso. assert (Ne : oedges s n <> []).
      { intros Ne. rewrite Ne in El. destruct (oedges s1 n); discriminate. }
      specialize (C Ne). lia.
  Qed.

  Definition total : nat := length (flat_map (fun n => items n) (ids g)).
  Definition weight (b : list opkt) : nat := list_sum (map (fun p => match p with Pkt _ => 2 | Buf _ => 1 end) b).
  Lemma weight_app a b : weight (a ++ b) = weight a + weight b.
  Proof. unfold weight. now rewrite map_app, list_sum_app. Qed.
  Lemma weight_map o : weight (map Pkt o) = 2 * length o.
  Proof. unfold weight. induction o; simpl in *; lia. Qed.

  Lemma Good_labels s b : Good s b -> length (olabels s) <= total.
  Proof. intros [I _]. assert (P := Permutation_length (i_log I)). rewrite app_length in P. unfold total. lia. Qed.

  Lemma step_counts s p s' out :
    task s p = Some (s', out) -> (forall k, p = Buf k -> obuf s k <> None) ->
    3 * length (olabels s) + weight out < 3 * length (olabels s') + weight [p].
  Proof.
    destruct p as [n|k]; simpl.
    - intros H _. injection H as H. revert H. unfold receive.
      destruct (recorded _ _ _); [injection 1 as <- <-; rewrite nack_labels; unfold weight; simpl; lia|].
      destruct (unscatter heap lraises (lane n) n (oedges s n) (touch n s)) as [s1 o1] eqn:U.
      destruct (unscatter_counts _ _ _ U eq_refl) as (_ & _ & C & _). change (olabels (touch n s)) with (olabels s) in C.
      destruct (forget_counts (lane n) n s1) as [_ C1].
      destruct (is_empty _); destruct (obuf s1 (lane n)) as [x|]; try destruct (x =? n); injection 1 as <- <-; rewrite nack_labels.
      1-4: rewrite weight_map; unfold weight; simpl; lia.
      + destruct (forget_counts (lane n) n (transplant x n s1)) as [_ C2]. change (olabels (transplant x n s1)) with (olabels s1) in C2.
        rewrite weight_map. unfold weight. simpl. lia.
      + change (weight (Buf (lane n) :: map Pkt o1)) with (1 + weight (map Pkt o1)). rewrite weight_map. unfold weight. simpl. lia.
    - intros H Hb. revert H. unfold retry. specialize (Hb k eq_refl). destruct (obuf s k) as [n|]; [|congruence].
      destruct (recorded k n s); [injection 1 as <- <-; unfold weight; simpl; lia|].
      destruct (unscatter heap lraises k n (oedges s n) (touch n s)) as [s1 o1] eqn:U.
      destruct (unscatter_counts _ _ _ U eq_refl) as (_ & C2 & C & _). change (olabels (touch n s)) with (olabels s) in *.
      destruct (forget_counts k n s1) as [_ C1].
      destruct (is_empty _).
      + injection 1 as <- <-. change (olabels (set_buf k None (forget g heap lraises vraises k n s1))) with (olabels (forget g heap lraises vraises k n s1)).
        rewrite weight_map. unfold weight. simpl. lia.
      + destruct (Nat.eqb_spec (length (oedges s1 n)) (length (oedges s n))) as [|Ne]; [discriminate|]. injection 1 as <- <-.
        change (weight (Buf k :: map Pkt o1)) with (1 + weight (map Pkt o1)). rewrite weight_map. unfold weight. simpl. lia.
  Qed.

  Lemma frugal_terminates spare : terminates task (ostart g spare, [Pkt (root g)]).
  Proof.
    apply measure_inv_terminates with (I := Good) (m := fun s b => 3 * (total - length (olabels s)) + weight b).
    - intros s b b' P. f_equal. unfold weight. induction P; simpl; lia.
    - exact Good_perm.
    - intros s p R s' out G T. assert (G' := Good_step G T). split; auto.
      assert (L := Good_labels G). assert (L' := Good_labels G').
      assert (C : forall k, p = Buf k -> obuf s k <> None).
      { intros k -> E. destruct G as [_ F]. specialize (F k). rewrite bufs_buf, Nat.eqb_refl, E in F. discriminate. }
      assert (Q := @step_counts s p s' out T C). change (p :: R) with ([p] ++ R). rewrite !weight_app. lia.
    - apply Good_start.
  Qed.
End Proofs.

Lemma odest_lt X p : 0 < lanes X -> odest X p < lanes X.
Proof. intros H. destruct p as [n|k]; simpl; [now apply lane_of_lt|]. destruct (Nat.ltb_spec k (lanes X)); auto. Qed.

Lemma frugal_everywhere X g heap lraises vraises limit spare y :
  wf g -> 0 < lanes X ->
  reachable (lanes X) (odest X) (frugal X g heap lraises vraises limit) (Pkt (root g)) (ostart g spare) y -> exists b, Good X g (sh y) b.
Proof.
  intros W Hl Hr. assert (H := @refines _ _ (lanes X) (odest X) (frugal X g heap lraises vraises limit) (Pkt (root g)) (fun p => @odest_lt X p Hl) _ _ Hr).
  assert (C : sh y = ostart g spare \/ exists b, mruns (frugal X g heap lraises vraises limit) (ostart g spare, [Pkt (root g)]) (sh y, b)).
  { destruct (mainpc y); try (left; apply H); right; destruct H as (b & H & _); eauto. }
  destruct C as [->|(b & C)]; [eexists; now apply Good_start|]. exists b. eapply Good_runs; eauto.
Qed.

(** ** C88 *)

(** However often memory is exhausted, everything is destroyed once. *)
Theorem C88_everything_is_destroyed_once X g heap lraises vraises limit spare s :
  wf g -> 0 < lanes X -> frees_frugally X g heap lraises vraises limit spare s ->
  Permutation (ogone s) (ids g) /\
  NoDup (overtices s) /\ (forall n v, In (n, v) (overtices s) <-> In n (ids g) /\ v = vx g n) /\
  NoDup (olabels s) /\ (forall n i l m, In (mkXE n i l m) (olabels s) <-> In n (ids g) /\ nth_error (es g n) i = Some (l, m)) /\
  obad s = false.
Proof.
  intros W Hl (t & R & ->). apply ran_completes in R; [|intros p; now apply odest_lt].
  assert (G := Good_runs W R). destruct (purged_all lraises vraises W Hl G) as (A & B & C & D).
  split; auto. rewrite B.
  assert (Hin : forall n, In n (ogone (purged X g lraises vraises t)) <-> In n (ids g)).
  { intros n. split; intros H; [eapply Permutation_in; [exact A|auto]|eapply Permutation_in; [symmetry; exact A|auto]]. }
  split; [|split; [|split; [|split]]]; auto.
  - assert (N : NoDup (ogone (purged X g lraises vraises t))) by (eapply Permutation_NoDup; [symmetry; exact A|apply (wf_nodup W)]).
    clear -N. induction N as [|n l H N IH]; simpl; constructor; auto. intros Y. apply in_map_iff in Y as (m & E & Hm). congruence.
  - intros n v. rewrite in_map_iff. split.
    + intros (m & E & H). injection E as <- <-. split; auto. now apply Hin.
    + intros [H ->]. exists n. split; auto. now apply Hin.
  - eapply Permutation_NoDup; [symmetry; exact C|apply (items_nodup W)].
  - intros n i l m. split; intros H.
    + apply (Permutation_in _ C) in H. apply in_flat_map in H as (x & Hx & H). apply tag_in in H as (E1 & _ & E2). simpl in *. rewrite Nat.sub_0_r in E2.
      subst. auto.
    + apply (Permutation_in _ (Permutation_sym C)). apply in_flat_map. exists n. split; [apply H|]. apply tag_in. simpl. rewrite Nat.sub_0_r.
      repeat split; [lia|apply H].
Qed.

(** At no time has anything been destroyed twice or been accessed after being destroyed. *)
Theorem C88_no_use_after_free X g heap lraises vraises limit spare y :
  wf g -> 0 < lanes X ->
  reachable (lanes X) (odest X) (frugal X g heap lraises vraises limit) (Pkt (root g)) (ostart g spare) y ->
  NoDup (ogone (sh y)) /\ map fst (overtices (sh y)) = ogone (sh y) /\ NoDup (olabels (sh y)) /\ obad (sh y) = false.
Proof.
  intros W Hl Hr. destruct (frugal_everywhere W Hl Hr) as (b & I & _).
  split; [apply (i_gone I)|]. split; [rewrite (i_verts I), map_map; apply map_id|]. split; [|apply (i_bad I)].
  assert (P := i_log I). assert (N := items_nodup W). apply (Permutation_NoDup (Permutation_sym P)) in N.
  clear -N. induction (olabels (sh y)) as [|e l IH]; [constructor|]. simpl in N. inversion N; subst. constructor; auto.
  intros H. apply H1. apply in_or_app. now left.
Qed.

(** Even if there's no memory at all, the graph is freed eventually. *)
Theorem C88_freeing_ends X g heap lraises vraises limit spare f :
  wf g -> 0 < lanes X -> 0 < limit -> everyone_runs (lanes X) f ->
  exists k, mainpc (exec (lanes X) (odest X) (frugal X g heap lraises vraises limit) (Pkt (root g)) (map f (seq 0 k)) (Ports.init (lanes X) (ostart g spare))) = MDone.
Proof.
  intros W Hl Hm F.
  destruct (@everyone_ran _ _ (lanes X) (odest X) (frugal X g heap lraises vraises limit) (ostart g spare) (Pkt (root g)) f) as (n & H & _); eauto.
  - intros p. now apply odest_lt.
  - now apply frugal_terminates.
  - intros s b. now apply never_stuck.
Qed.

(** Three workers, no memory other than that of the first packet, and a graph with a loop: a node is buffered, edges are
    transplanted, the nodes are put aside *)
Local Notation run_starved k :=
  (sched_run (lanes X3) (odest X3) (frugal X3 G5w (fun _ => false) (fun _ => false) (fun _ => false) 256) (ostart G5w 0) (Pkt (root G5w)) k).
Example C88_everything_is_destroyed_once_ex :
  wf G5w /\ 0 < lanes X3 /\
  frees_frugally X3 G5w (fun _ => false) (fun _ => false) (fun _ => false) 256 0 (purged X3 G5w (fun _ => false) (fun _ => false) (sh (run_starved 200))) /\
  ogone (sh (run_starved 200)) = [] /\
  length (ogone (purged X3 G5w (fun _ => false) (fun _ => false) (sh (run_starved 200)))) = 5.
Proof.
  split; [exact G5w_wf|]. split; [simpl; lia|]. split; [|vm_compute; auto].
  eexists. split; [|reflexivity]. apply sched_ran. vm_compute. reflexivity.
Qed.

(** Every third allocation succeeds, and a destructor fails. *)
Local Notation every_third := (fun t => t mod 3 =? 2).
Local Notation moment k := (sched_run (lanes X3) (odest X3) (frugal X3 G5w every_third (fun x => N.eqb x 4) (fun _ => false) 2) (ostart G5w 0) (Pkt (root G5w)) k).
Example C88_no_use_after_free_ex :
  wf G5w /\ 0 < lanes X3 /\
  (forall k, reachable (lanes X3) (odest X3) (frugal X3 G5w every_third (fun x => N.eqb x 4) (fun _ => false) 2) (Pkt (root G5w)) (ostart G5w 0) (moment k)) /\
  obuf (sh (moment 30)) 0 = Some 10 /\ odel (sh (moment 30)) 1 = [20] /\ ogone (sh (moment 30)) = [40].
Proof.
  split; [exact G5w_wf|]. split; [simpl; lia|]. split; [intros k; apply exec_sound, turns_ok|]. vm_compute. auto.
Qed.
Example C88_freeing_ends_ex :
  wf G5w /\ 0 < lanes X3 /\ 0 < 256 /\ everyone_runs (lanes X3) (round_robin (lanes X3)) /\
  (exists k, obuf (sh (run_starved 30)) 0 = Some k) /\ (exists k, obuf (sh (run_starved 30)) 1 = Some k) /\
  frugal X3 G5w (fun _ => false) (fun _ => false) (fun _ => false) 256 (set_spare 0 (sh (run_starved 30))) (Buf 0) = None.
Proof.
  split; [exact G5w_wf|]. split; [simpl; lia|]. split; [lia|]. split; [apply round_robin_everyone|].
  split; [eexists; vm_compute; reflexivity|]. split; [eexists; vm_compute; reflexivity|vm_compute; reflexivity].
Qed.
