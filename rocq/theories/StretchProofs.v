(** Invariants of stretching. *)
From Coq Require Import List Arith NArith Lia Bool Permutation.
From Verif Require Import Base Machine Env Hash Graph Visitor VisitorProofs Walk Run Pass Fold Fabricate Containers P_Containers Brigade BrigadeProofs P_Brigade Filter P_Filter Ports PortsTerm P_Ports Traverse TraverseProofs Compose Props Stretch.
Import ListNotations.

Set Implicit Arguments.

Lemma snode_eqb_eq y z : snode_eqb y z = true <-> y = z.
Proof.
  destruct y, z; simpl; try (split; intros; discriminate).
  - rewrite Nat.eqb_eq. split; congruence.
  - rewrite !andb_true_iff, !Nat.eqb_eq. split; [intros [[-> ->] ->]; auto|intros [= -> -> ->]; auto].
Qed.
Lemma snode_eqb_refl y : snode_eqb y y = true.
Proof. now apply snode_eqb_eq. Qed.
Lemma snode_dec (y z : snode) : {y = z} + {y <> z}.
Proof. destruct (snode_eqb y z) eqn:E; [left; now apply snode_eqb_eq|right; intros ->; rewrite snode_eqb_refl in E; discriminate]. Qed.
Lemma snode_eqb_neq y z : y <> z -> snode_eqb y z = false.
Proof. intros H. destruct (snode_eqb y z) eqn:E; auto. apply snode_eqb_eq in E. contradiction. Qed.
Lemma eid_eqb_eq x y : eid_eqb x y = true <-> x = y.
Proof.
  destruct x, y; simpl; try (split; intros; discriminate); rewrite !andb_true_iff, !Nat.eqb_eq;
    (split; [intuition congruence|intros H; inversion H; auto]).
Qed.
Lemma eid_dec (x y : eid) : {x = y} + {x <> y}.
Proof.
  destruct (eid_eqb x y) eqn:E; [left; now apply eid_eqb_eq|right; intros ->].
  assert (H := proj2 (eid_eqb_eq y y) eq_refl). congruence.
Qed.
Lemma existsb_eid e l : existsb (eid_eqb e) l = true <-> In e l.
Proof.
  rewrite existsb_exists. split.
  - intros (z & H & E). apply eid_eqb_eq in E. now subst.
  - intros H. exists e. split; auto. now apply eid_eqb_eq.
Qed.
Lemma existsb_nat n l : existsb (Nat.eqb n) l = true <-> In n l.
Proof.
  rewrite existsb_exists. split.
  - intros (z & H & E). apply Nat.eqb_eq in E. now subst.
  - intros H. exists n. split; auto. apply Nat.eqb_refl.
Qed.
Lemma updn_same {A} (f : snode -> A) y a : updn f y a y = a.
Proof. unfold updn. now rewrite snode_eqb_refl. Qed.
Lemma updn_diff {A} (f : snode -> A) y a z : z <> y -> updn f y a z = f z.
Proof. intros H. unfold updn. now rewrite snode_eqb_neq. Qed.
Lemma redirect_in f l r e : In e l -> redirect f l r e = r.
Proof. intros H. unfold redirect. now rewrite (proj2 (existsb_eid e l) H). Qed.
Lemma redirect_out f l r e : ~ In e l -> redirect f l r e = f e.
Proof. intros H. unfold redirect. destruct (existsb (eid_eqb e) l) eqn:E; auto. apply existsb_eid in E. contradiction. Qed.

(** ** The contents of tables *)
Definition contents {A} (t : jarray A) : list A := flat_map snd t.
Lemma contents_put {A} (t : jarray A) h b : Permutation (contents (Containers.put t h b) ++ cell t h) (contents t ++ b).
Proof.
  induction t as [|[h' b'] t IH]; simpl; [now rewrite !app_nil_r|].
  destruct (N.eqb h h'); simpl.
  - rewrite <- (app_assoc b), <- app_assoc. rewrite (Permutation_app_comm b (contents t ++ b')).
    rewrite (Permutation_app_comm (contents t) b'), <- app_assoc. reflexivity.
  - rewrite <- !app_assoc. now apply Permutation_app_head.
Qed.
Lemma contents_in {A} (t : jarray A) : NoDup (map fst t) -> forall a, In a (contents t) <-> exists h, In a (cell t h).
Proof.
  induction t as [|[h b] t IH]; simpl; intros N a.
  - split; [intros []|intros (_ & [])].
  - inversion N as [|? ? N1 N2]; subst. rewrite in_app_iff, IH by auto. split.
    + intros [H|(k & H)]; [exists h; now rewrite N.eqb_refl|]. exists k. destruct (N.eqb_spec k h); auto. subst.
      rewrite cell_out in H by auto. destruct H.
    + intros (k & H). destruct (N.eqb_spec k h); [auto|right; eauto].
Qed.

Section Proofs.
  Variable X : env.
  Variable g : graph word word.
  Variable P : nat -> word.
  Variable x : stretcher.
  Variable veq : word -> word -> bool.
  Variable vhash : word -> N.
  Variable eeq : word -> word -> bool.
  Variable ehash : word -> N.
  Variable vertex_limit : nat.
  Variable addr : nat -> nat -> nat -> nat.
  Hypothesis Hv : equivalence veq.
  Hypothesis Hvh : forall x y, veq x y = true -> vhash x = vhash y.
  Hypothesis He : equivalence eeq.
  Hypothesis Heh : forall x y, eeq x y = true -> ehash x = ehash y.
  Hypothesis W : wf g.
  Hypothesis Hd : forall n m, In n (ids g) -> In m (ids g) -> veq (vx g n) (vx g m) = true -> n = m.
  Hypothesis Ha : forall n i j n' i' j', addr n i j = addr n' i' j' -> (n, i, j) = (n', i', j').
  Hypothesis Hu : forall n i j, ~ In (addr n i j) (ids g).

  Notation stretching := (stretching X g P x veq vhash eeq ehash vertex_limit addr).
  Notation xstart := (xstart g).
  Notation expansion := (expansion g P x).
  Notation bridges := (bridges g P x).
  Notation vertex := (vertex g P x).
  Notation label := (label g P x).
  Notation xlane := (xlane X g P x vhash).
  Notation xslot := (xslot X g P x vhash).
  Notation found := (found X g P x veq vhash).
  Notation the_cell := (the_cell X g P x vhash).
  Notation with_cell := (with_cell X g P x vhash).
  Notation grown := (grown X g P x vhash vertex_limit).
  Notation graft := (graft X g P x vhash eeq ehash addr).
  Notation overwrite := (overwrite X g P x vhash eeq ehash addr).
  Notation place := (place X g P x vhash eeq ehash vertex_limit addr).
  Notation fault := (@fault).
  Notation cull := (cull X g P x vhash).
  Notation expand := (expand g P x).
  Notation deduplicated := (deduplicated X g P x eeq ehash addr).
  Notation edges_of := (edges_of g).
  Notation code := (code addr).
  Notation limit := (limit X vertex_limit).

  Definition alike (y r : snode) : Prop := veq (vertex y) (vertex r) = true.
  Lemma alike_refl y : alike y y. Proof. apply (eqv_refl Hv). Qed.
  Lemma alike_sym y r : alike y r -> alike r y. Proof. apply (eqv_sym Hv). Qed.
  Lemma alike_trans y r z : alike y r -> alike r z -> alike y z. Proof. apply (eqv_trans Hv). Qed.
  Lemma same_alike y r : same g P x veq y r = true <-> alike y r.
  Proof.
    unfold same, alike. destruct (N.eqb_spec (vertex y) (vertex r)) as [E|E]; simpl; [|tauto].
    rewrite E. split; auto. intros _. apply (eqv_refl Hv).
  Qed.
  Lemma alike_place y r : alike y r -> xlane y = xlane r /\ xslot y = xslot r.
  Proof. intros H. apply Hvh in H. unfold Stretch.xlane, Stretch.xslot, xhash. now rewrite H. Qed.
  Lemma alike_cell s y r : alike y r -> the_cell s y = the_cell s r.
  Proof. intros H. apply alike_place in H as [H1 H2]. unfold Stretch.the_cell. now rewrite H1, H2. Qed.

  Definition holds (s : xdata) (r : snode) (cs : list eid) : Prop := In (r, cs) (the_cell s r).
  Definition alive (s : xdata) (r : snode) : Prop := exists cs, holds s r cs.

  (** *** The tables *)
  Record tables (st : nat -> jarray (snode * list eid)) : Prop := {
    t_cells : forall l k c, In c (cell (st l) k) -> xlane (fst c) = l /\ xslot (fst c) = k;
    t_uniq : forall l k, ForallOrdPairs (fun c c' => ~ alike (fst c) (fst c')) (cell (st l) k);
    t_keys : forall l, NoDup (map fst (st l))
  }.

  Lemma FOP_in {A} (R : A -> A -> Prop) l a b : ForallOrdPairs R l -> In a l -> In b l -> a = b \/ R a b \/ R b a.
  Proof.
    intros F. induction F as [|c l Hc F IH]; [intros []|]. rewrite Forall_forall in Hc.
    intros [->|Ha'] [->|Hb]; auto.
  Qed.
  Lemma holds_unique s r cs r' cs' : tables (stored s) -> holds s r cs -> holds s r' cs' -> alike r r' -> r = r' /\ cs = cs'.
  Proof.
    intros T H H' A. unfold holds in H'. rewrite <- (alike_cell s A) in H'.
    destruct (@FOP_in _ _ _ _ _ (@t_uniq _ T (xlane r) (xslot r)) H H') as [E|[E|E]]; [inversion E; auto|destruct E; exact A|destruct E; now apply alike_sym].
  Qed.

  Lemma with_cell_at s y c l k : cell (with_cell s y c l) k = if (l =? xlane y) && N.eqb k (xslot y) then c else cell (stored s l) k.
  Proof.
    unfold Stretch.with_cell. destruct (Nat.eqb_spec l (xlane y)) as [->|E]; simpl.
    - rewrite upd_same, cell_put. reflexivity.
    - now rewrite upd_diff.
  Qed.
  Lemma with_cell_tables s y c : tables (stored s) ->
    (forall e, In e c -> xlane (fst e) = xlane y /\ xslot (fst e) = xslot y) ->
    ForallOrdPairs (fun c c' => ~ alike (fst c) (fst c')) c -> tables (with_cell s y c).
  Proof.
    intros T H F. constructor.
    - intros l k e. rewrite with_cell_at. destruct (Nat.eqb_spec l (xlane y)); simpl; [|apply T].
      destruct (N.eqb_spec k (xslot y)); [|apply T]. intros B. subst. auto.
    - intros l k. rewrite with_cell_at. destruct (_ && _); auto. apply T.
    - intros l. unfold Stretch.with_cell. destruct (Nat.eq_dec l (xlane y)) as [->|E].
      + rewrite upd_same. apply nodup_put, T.
      + rewrite upd_diff by auto. apply T.
  Qed.

  Lemma found_none s y : tables (stored s) -> found s y = None -> forall r cs, holds s r cs -> ~ alike y r.
  Proof.
    intros T H r cs B A. unfold holds in B. rewrite <- (alike_cell s A) in B.
    apply (find_none _ _ H) in B. cbn [fst] in B. apply same_alike in A. congruence.
  Qed.
  Lemma found_some s y r cs : found s y = Some (r, cs) -> holds s r cs /\ alike y r.
  Proof.
    intros H. apply find_some in H as [H1 H2]. cbn [fst] in H2. apply same_alike in H2.
    split; auto. unfold holds. rewrite <- (alike_cell s H2). exact H1.
  Qed.

  Lemma FOP_snoc {A} (R : A -> A -> Prop) l a : ForallOrdPairs R l -> (forall b, In b l -> R b a) -> ForallOrdPairs R (l ++ [a]).
  Proof.
    intros F. induction F as [|c l Hc F IH]; intros H; simpl.
    - constructor; constructor.
    - constructor; [|apply IH; intros; apply H; now right].
      rewrite Forall_forall in *. intros b B. apply in_app_or in B as [B|[<-|[]]]; auto. apply H. now left.
  Qed.

  (** A node is added *)
  Lemma added s y cs : tables (stored s) -> (forall r cs', holds s r cs' -> ~ alike y r) ->
    let st := with_cell s y (the_cell s y ++ [(y, cs)]) in
    tables st /\ forall r qs, In (r, qs) (cell (st (xlane r)) (xslot r)) <-> holds s r qs \/ r = y /\ qs = cs.
  Proof.
    intros T H st. split.
    - apply with_cell_tables; auto.
      + intros e B. apply in_app_or in B as [B|[<-|[]]]; auto. now apply T in B.
      + apply FOP_snoc; [apply T|]. intros [r qs] B A. cbn [fst] in A.
        apply (H r qs); [|now apply alike_sym]. unfold holds. rewrite (alike_cell s A). exact B.
    - intros r qs. unfold st. rewrite with_cell_at.
      destruct ((xlane r =? xlane y) && N.eqb (xslot r) (xslot y)) eqn:E.
      + apply andb_true_iff in E as [E1 E2]. apply Nat.eqb_eq in E1. apply N.eqb_eq in E2.
        unfold holds, Stretch.the_cell. rewrite E1, E2, in_app_iff. simpl. split; intros [B|B]; auto.
        * destruct B as [[= -> ->]|[]]. auto.
        * destruct B as [-> ->]. auto.
      + split; auto. intros [B|[-> ->]]; auto. rewrite Nat.eqb_refl, N.eqb_refl in E. discriminate.
  Qed.

  (** An entry is replaced *)
  Lemma FOP_map {A} (R : A -> A -> Prop) (f : A -> A) l : ForallOrdPairs R l ->
    (forall a b, In a l -> In b l -> R a b -> R (f a) (f b)) -> ForallOrdPairs R (map f l).
  Proof.
    intros F. induction F as [|c l Hc F IH]; intros H; simpl; constructor.
    - rewrite Forall_forall in *. intros b B. apply in_map_iff in B as (a & <- & B). apply H; simpl; auto.
    - apply IH. intros; apply H; simpl; auto.
  Qed.
  Lemma updated s y r cs r' cs' : tables (stored s) -> holds s r cs -> alike y r -> alike r r' ->
    let st := with_cell s y (replaced r (r', cs') (the_cell s y)) in
    tables st /\ forall q qs, In (q, qs) (cell (st (xlane q)) (xslot q)) <-> q <> r /\ holds s q qs \/ q = r' /\ qs = cs'.
  Proof.
    intros T H Ay Ar st.
    assert (Al : forall c, In c (the_cell s y) -> alike (fst (if snode_eqb (fst c) r then (r', cs') else c)) (fst c)).
    { intros [q qs] B. cbn [fst]. destruct (snode_eqb q r) eqn:E; [|apply alike_refl].
      apply snode_eqb_eq in E. subst q. simpl. now apply alike_sym. }
    split.
    - apply with_cell_tables; auto.
      + intros e B. unfold replaced in B. apply in_map_iff in B as (c & <- & B).
        destruct (alike_place (Al c B)) as [-> ->]. now apply T in B.
      + unfold replaced. apply FOP_map; [apply T|]. intros c c' B B' N A. apply N.
        apply alike_trans with (2 := Al c' B'). eapply alike_trans; [|exact A]. apply alike_sym, Al, B.
    - intros q qs. unfold st. rewrite with_cell_at.
      destruct ((xlane q =? xlane y) && N.eqb (xslot q) (xslot y)) eqn:E.
      + apply andb_true_iff in E as [E1 E2]. apply Nat.eqb_eq in E1. apply N.eqb_eq in E2.
        unfold replaced. rewrite in_map_iff. split.
        * intros ([z zs] & F & B). cbn [fst] in F. destruct (snode_eqb z r) eqn:Ez.
          -- inversion F; subst. auto.
          -- inversion F; subst. left. split; [intros ->; rewrite snode_eqb_refl in Ez; discriminate|].
             unfold holds, Stretch.the_cell. rewrite E1, E2. exact B.
        * intros [[N B]|[-> ->]].
          -- exists (q, qs). cbn [fst]. rewrite snode_eqb_neq by auto. split; auto.
             unfold holds, Stretch.the_cell in B. now rewrite E1, E2 in B.
          -- exists (r, cs). cbn [fst]. rewrite snode_eqb_refl. split; auto. rewrite (alike_cell s Ay). exact H.
      + assert (Nq : ~ alike q y).
        { intros A. apply alike_place in A as [A1 A2]. rewrite A1, A2, Nat.eqb_refl, N.eqb_refl in E. discriminate. }
        split.
        * intros B. left. split; auto. intros ->. apply Nq. now apply alike_sym.
        * intros [[_ B]|[-> _]]; [exact B|]. destruct Nq. apply alike_sym. eapply alike_trans; eauto.
  Qed.
  Lemma replaced_length r v l : length (replaced r v l) = length l.
  Proof. apply map_length. Qed.

  (** *** What the expander does *)
  Definition keep (n i : nat) : Prop := fst (fst (expansion n i)) = false.
  Definition news (b : list xpkt) : list snode := flat_map (fun p : xpkt => match fst p with New n i j => [New n i j] | Old _ => [] end) b.
  Lemma news_app b b' : news (b ++ b') = news b ++ news b'.
  Proof. apply flat_map_app. Qed.

  Lemma map_cons_inv {A B} (f : A -> B) l : (forall a a', f a = f a' -> a = a') -> NoDup l -> NoDup (map f l).
  Proof.
    intros H N. induction N as [|a l Bn N IH]; simpl; constructor; auto.
    rewrite in_map_iff. intros (a1 & E & B1). apply H in E. now subst.
  Qed.
  Lemma nodup_app {A} (l l' : list A) : NoDup l -> NoDup l' -> (forall a, In a l -> ~ In a l') -> NoDup (l ++ l').
  Proof.
    intros N N'. induction N as [|a l B N IH]; simpl; intros H; auto. constructor.
    - rewrite in_app_iff. intros [C|C]; auto. now apply (H a (or_introl eq_refl)).
    - apply IH. intros; apply H; auto.
  Qed.

  Lemma nodup_app_r {A} (l l' : list A) : NoDup (l ++ l') -> NoDup l'.
  Proof. induction l; simpl; auto. intros N. inversion N; auto. Qed.
  Lemma nodup_app_l {A} (l l' : list A) : NoDup (l ++ l') -> NoDup l.
  Proof.
    induction l; simpl; intros N; [constructor|]. inversion N as [|? ? N1 N2]; subst. constructor; auto.
    intros C. apply N1, in_or_app. now left.
  Qed.

  Lemma expand_spec n l : NoDup l -> forall k a o d e, expand n l = (k, a, o, d, e) ->
    (forall z, In z k -> exists i, In i l /\ z = Given n i) /\ NoDup k /\
    (forall z, In z a -> exists i j, In i l /\ j < length (bridges n i) /\ z = Ante n i j) /\ NoDup a /\
    (forall y c, In (y, c) o -> exists i j, In i l /\ j < length (bridges n i) /\ y = New n i j /\ c = Some (Ante n i j)) /\
    NoDup (news o) /\ length k <= length l /\ length o <= list_sum (map (fun i => length (bridges n i)) l) /\
    (forall z, In z d -> exists i, In i l /\ z = Given n i) /\
    match e with
    | Some e => exists i, In i l /\ snd (expansion n i) = Some e
    | None => (forall i, In i l -> snd (expansion n i) = None) /\ (forall i, In i l -> (In (Given n i) k <-> keep n i)) /\
              (forall i j, In i l -> j < length (bridges n i) -> In (Ante n i j) a /\ In (New n i j, Some (Ante n i j)) o) /\
              (forall z, In z k -> exists i, z = Given n i /\ keep n i)
    end.
  Proof.
    induction l as [|i l IH]; intros N k a o d e.
    - intros [= <- <- <- <- <-].
      repeat match goal with |- _ /\ _ => split end; try (now constructor); try (intros; contradiction); auto.
    - inversion N as [|? ? N1 N2]; subst. cbn [Stretch.expand].
      destruct (expansion n i) as [[dl b] [er|]] eqn:Ex.
      + intros [= <- <- <- <- <-].
        repeat match goal with |- _ /\ _ => split end; try (now constructor); try (intros; contradiction); auto.
        * intros z B. apply (in_map_iff (Given n) (i :: l)) in B as (z' & <- & B). eauto.
        * apply (@map_cons_inv _ _ (Given n) (i :: l)); auto. congruence.
        * simpl. rewrite map_length. lia.
        * simpl. lia.
        * exists i. split; [now left|]. now rewrite Ex.
      + destruct (expand n l) as [[[[k' a'] o'] d'] e'] eqn:El. intros [= <- <- <- <- <-].
        destruct (IH N2 _ _ _ _ _ eq_refl) as (K & NK & A & NA & O & NO & Lk & Lo & D & E). clear IH.
        assert (Eb : bridges n i = b) by (unfold Stretch.bridges; now rewrite Ex).
        assert (Ek : keep n i <-> dl = false) by (unfold keep; rewrite Ex; reflexivity).
        set (o1 := map (fun j => (New n i j, Some (Ante n i j))) (rev (seq 0 (length b)))).
        assert (O1 : forall y c, In (y, c) o1 -> exists j, j < length b /\ y = New n i j /\ c = Some (Ante n i j)).
        { unfold o1. intros y c B. apply in_map_iff in B as (j & [= <- <-] & B). apply in_rev in B. apply in_seq in B.
          exists j. split; [lia|auto]. }
        repeat match goal with |- _ /\ _ => split end.
        * intros z B. destruct dl; [|destruct B as [<-|B]]; try (apply K in B as (i' & B & ->); exists i'; split; auto; now right).
          exists i. split; auto. now left.
        * destruct dl; auto. constructor; auto. intros B. apply K in B as (i' & B & [= ->]). contradiction.
        * intros z B. apply in_app_or in B as [B|B].
          -- apply A in B as (i' & j & B & B' & ->). exists i', j. split; [now right|auto].
          -- apply in_map_iff in B as (j & <- & B). apply in_seq in B. exists i, j. rewrite Eb. split; [now left|]. split; [lia|auto].
        * apply nodup_app; auto.
          -- apply map_cons_inv; [congruence|apply seq_NoDup].
          -- intros z B B'. apply A in B as (i' & j & B & _ & ->). apply in_map_iff in B' as (j' & [= -> ->] & _). contradiction.
        * intros y c B. apply in_app_or in B as [B|B].
          -- apply O1 in B as (j & B & -> & ->). exists i, j. rewrite Eb. split; [now left|auto].
          -- apply O in B as (i' & j & B & B'). exists i', j. split; [now right|auto].
        * rewrite news_app. apply nodup_app; auto.
          -- assert (E1 : news o1 = map (New n i) (rev (seq 0 (length b)))).
             { unfold o1. generalize (rev (seq 0 (length b))). induction l0; simpl; congruence. }
             rewrite E1. apply map_cons_inv; [congruence|]. apply NoDup_rev, seq_NoDup.
          -- intros y B B'. unfold news in B, B'. apply in_flat_map in B as ([y1 c1] & B & By). apply in_flat_map in B' as ([y2 c2] & B' & By').
             apply O1 in B as (j & _ & -> & _). apply O in B' as (i' & j' & B' & _ & -> & _). simpl in By, By'.
             destruct By as [<-|[]]. destruct By' as [[= -> ->]|[]]. contradiction.
        * destruct dl; simpl; lia.
        * rewrite app_length. unfold o1. unfold list_sum in *. cbn [map fold_right]. rewrite map_length, rev_length, seq_length, Eb. apply Nat.add_le_mono_l. exact Lo.
        * intros z B. destruct dl; [destruct B as [<-|B]|]; try (apply D in B as (i' & B & ->); exists i'; split; auto; now right).
          exists i. split; auto. now left.
        * destruct e' as [e|].
          -- destruct E as (i' & B & E). exists i'. split; auto. now right.
          -- destruct E as (E1 & E2 & E3 & E4). split; [|split; [|split]].
             ++ intros i' [<-|B]; [now rewrite Ex|auto].
             ++ intros i' [<-|B].
                ** rewrite Ek. destruct dl; split; auto; try discriminate.
                   --- intros B. apply K in B as (i' & B & [= ->]). contradiction.
                   --- intros _. now left.
                ** rewrite <- E2 by auto. destruct dl; [tauto|]. split; [|now right]. intros [[= ->]|B']; [contradiction|auto].
             ++ intros i' j [<-|B] Hj.
                ** rewrite Eb in Hj. split; apply in_or_app; [right|left].
                   --- apply in_map, in_seq. lia.
                   --- unfold o1. apply in_map_iff. exists j. split; auto. apply -> in_rev. apply in_seq. lia.
                ** destruct (E3 i' j B Hj) as [F1 F2]. split; apply in_or_app; auto.
             ++ intros z B. destruct dl; auto. destruct B as [<-|B]; auto. exists i. split; auto. now apply Ek.
  Qed.

  (** *** Invariants of all executions, those with errors included *)
  Definition target (n i : nat) : nat := snd (given g n i).
  Definition in_range (n i : nat) : Prop := In n (ids g) /\ i < length (es g n).
  Lemma target_in n i : in_range n i -> In (target n i) (ids g).
  Proof.
    intros [H1 H2]. unfold target, given. assert (B := nth_In (es g n) (null, 0) H2).
    destruct (nth i (es g n) (null, 0)) as [l m]. simpl. eapply wf_closed; eauto.
  Qed.
  Lemma in_edges_of n e : In e (edges_of n) <-> exists i, i < length (es g n) /\ e = Given n i.
  Proof.
    unfold Stretch.edges_of. rewrite in_map_iff. split.
    - intros (i & <- & B). apply in_seq in B. exists i. split; [lia|auto].
    - intros (i & B & ->). exists i. split; auto. apply in_seq. lia.
  Qed.

  (** [h] is a node that is expanded but not stored yet. *)
  Record linv (h : option nat) (s : xdata) (b : list xpkt) : Prop := {
    l_tab : tables (stored s);
    l_entry : forall n cs, holds s (Old n) cs -> In n (ids g) /\ In n (marks s);
    l_cs : forall r cs e, holds s r cs -> is_new r = true -> In e cs -> exists n i j, e = Ante n i j;
    l_pold : forall n c, In (Old n, c) b -> In n (ids g);
    l_pnew : forall n i j c, In (New n i j, c) b -> c = Some (Ante n i j);
    l_unmarked : forall n, ~ In n (marks s) -> h <> Some n -> outs s (Old n) = edges_of n;
    l_marked : forall n, In n (marks s) -> In n (ids g) /\ (alive s (Old n) \/ In (Old n) (retired s) \/ h = Some n);
    l_given : forall n i, remote s (Given n i) = Old (target n i);
    l_post : forall n i j, remote s (Post n i j) = Old (target n i);
    l_ante : forall n i j m, remote s (Ante n i j) = Old m -> In m (ids g);
    l_changed : forall l, changed s l = length (filter (fun c => is_new (fst c)) (contents (stored s l)));
    l_count : forall l, counts s l = length (contents (stored s l));
    l_limit : forall l, faults s l = None -> 0 < limit -> counts s l <= limit;
    l_fault : forall l e, faults s l = Some e -> e = INTOVF /\ 0 < limit \/ exists n i, in_range n i /\ snd (expansion n i) = Some e;
    l_retired : forall y, In y (retired s) -> faults s (xlane y) <> None
  }.

  Lemma linv_incl h s b b' : linv h s b -> incl b' b -> linv h s b'.
  Proof.
    intros [] H. constructor; eauto.
  Qed.

  Lemma linv_start : linv None xstart [(Old (root g), None)].
  Proof.
    constructor; simpl; auto; try (intros; contradiction); try discriminate.
    - constructor; simpl.
      + intros l k c [].
      + intros. constructor.
      + intros. constructor.
    - intros n c [[= <- <-]|[]]. apply W.
    - intros n i j c [H|[]]. discriminate.
    - intros; lia.
  Qed.

  Definition sends_ok (s : xdata) (l : list eid) : Prop := forall e m, In e l -> remote s e = Old m -> In m (ids g).
  Lemma sends s l y c : In (y, c) (to_successors s l) -> exists e m, In e l /\ remote s e = Old m /\ ~ In m (marks s) /\ y = Old m /\ c = Some e.
  Proof.
    unfold to_successors. intros H. apply in_flat_map in H as (e & B & H). exists e.
    destruct (remote s e) as [m|] eqn:E; [|destruct H]. exists m.
    destruct (existsb (Nat.eqb m) (marks s)) eqn:F; [destruct H|]. destruct H as [[= <- <-]|[]].
    split; auto. split; auto. split; auto. intros C. apply existsb_nat in C. congruence.
  Qed.
  Lemma sends_in h s b l y c : linv h s b -> sends_ok s l -> In (y, c) (to_successors s l) -> exists m, y = Old m /\ In m (ids g).
  Proof. intros I H B. apply sends in B as (e & m & B1 & B2 & _ & -> & _). eauto. Qed.
  Lemma edges_ok h s b n : linv h s b -> In n (ids g) -> sends_ok s (edges_of n).
  Proof.
    intros I Hn e m B E. apply in_edges_of in B as (i & Hi & ->). rewrite (l_given I) in E. inversion E; subst.
    apply target_in. now split.
  Qed.

  Lemma linv_cull h s b y : linv h s b -> faults s (xlane y) <> None ->
    match y with
    | Old n => In n (ids g) /\ (h = None \/ h = Some n /\ ~ alive s y /\ ~ In y (retired s)) /\ (~ In n (marks s) -> sends_ok s (outs s y))
    | New _ _ _ => h = None
    end ->
    linv None (fst (cull s y)) (snd (cull s y) ++ b).
  Proof.
    intros I Hf Hy. unfold Stretch.cull.
    assert (Hh : forall h', h = None -> linv h' s b -> linv None s b).
    { intros h' E I'. subst h. exact I. }
    destruct (is_stored X g P x vhash s y || existsb (snode_eqb y) (retired s)) eqn:E.
    - simpl. destruct y as [n|n i j]; [|subst h; exact I]. destruct Hy as (_ & [->|(-> & H1 & H2)] & _); auto. exfalso.
      apply orb_true_iff in E as [E|E]; apply existsb_exists in E as (z & B & E); apply snode_eqb_eq in E.
      + destruct z as [r cs]. simpl in E. subst r. apply H1. exists cs. exact B.
      + subst z. auto.
    - assert (K : linv None (retire s y) b).
      { destruct I. constructor; simpl; auto.
        - intros n cs B. destruct (l_entry0 n cs B). split; auto. destruct y; auto. now right.
        - intros n B C. destruct y as [m|m i j].
          + apply l_unmarked0; [intros D; apply B; now right|]. destruct Hy as (_ & [->|(-> & _)] & _); [discriminate|].
            intros [= ->]. apply B. now left.
          + subst h. now apply l_unmarked0.
        - intros n B. destruct y as [m|m i j].
          + destruct B as [<-|B]; [split; [tauto|right; left; now left]|].
            destruct (l_marked0 n B) as [B1 [B2|[B2|B2]]]; auto.
            destruct Hy as (_ & [->|(-> & _)] & _); [discriminate|]. inversion B2; subst. auto.
          + subst h. destruct (l_marked0 n B) as [B1 [B2|[B2|B2]]]; auto.
        - intros z [<-|B]; auto. }
      destruct y as [n|n i j]; [|exact K]. destruct (existsb (Nat.eqb n) (marks s)) eqn:Em; [exact K|].
      destruct Hy as (Hn & _ & Hs).
      assert (Hs' : sends_ok s (outs s (Old n))).
      { apply Hs. intros B. apply existsb_nat in B. congruence. }
      simpl. destruct K. constructor; auto.
      + intros m c B. apply in_app_or in B as [B|B]; [|eauto]. apply (sends_in _ _ I Hs') in B as (k & [= ->] & B). exact B.
      + intros m i j c B. apply in_app_or in B as [B|B]; [|eauto]. apply (sends_in _ _ I Hs') in B as (k & B & _). discriminate.
  Qed.

  (** A table is changed by [with_cell] *)
  Lemma count_with_cell s y c l (f : snode * list eid -> bool) :
    length (filter f (contents (with_cell s y c l))) + (if l =? xlane y then length (filter f (the_cell s y)) else 0) =
    length (filter f (contents (stored s l))) + (if l =? xlane y then length (filter f c) else 0).
  Proof.
    unfold Stretch.with_cell. destruct (Nat.eqb_spec l (xlane y)) as [El|E]; [subst l|].
    - rewrite upd_same. assert (Q := contents_put (stored s (xlane y)) (xslot y) c).
      assert (Q' : forall l l', Permutation l l' -> length (filter f l) = length (filter f l')).
      { intros l1 l2 Hp. apply Permutation_length. clear -Hp. induction Hp as [|z1 l1 l2 Hp IH|z1 z2 l1|]; simpl; auto.
        - destruct (f z1); auto.
        - destruct (f z1), (f z2); auto. constructor.
        - etransitivity; eauto. }
      apply Q' in Q. rewrite !filter_app, !app_length in Q. exact Q.
    - rewrite upd_diff by auto. lia.
  Qed.
  Lemma size_with_cell s y c l :
    length (contents (with_cell s y c l)) + (if l =? xlane y then length (the_cell s y) else 0) =
    length (contents (stored s l)) + (if l =? xlane y then length c else 0).
  Proof.
    assert (Q := count_with_cell s y c l (fun _ => true)).
    assert (T : forall l : list (snode * list eid), filter (fun _ => true) l = l) by (induction l0; simpl; congruence).
    now rewrite !T in Q.
  Qed.

  Lemma alive_new_changed h s b r cs : linv h s b -> holds s r cs -> is_new r = true -> 0 < changed s (xlane r).
  Proof.
    intros I H N. rewrite (l_changed I).
    assert (B : In (r, cs) (contents (stored s (xlane r)))).
    { apply contents_in; [apply I|]. exists (xslot r). exact H. }
    assert (C : In (r, cs) (filter (fun c => is_new (fst c)) (contents (stored s (xlane r))))) by (apply filter_In; auto).
    destruct (filter _ _); [destruct C|simpl; lia].
  Qed.

  Lemma filter_replaced f r v l : (forall c, In c l -> fst c = r -> f c = f v) ->
    length (filter f (replaced r v l)) = length (filter f l).
  Proof.
    induction l as [|c l IH]; simpl; intros H; auto.
    assert (IH' := IH (fun c B => H c (or_intror B))).
    destruct (snode_eqb (fst c) r) eqn:E.
    - apply snode_eqb_eq in E. rewrite <- (H c) by auto. destruct (f c); simpl; congruence.
    - destruct (f c); simpl; congruence.
  Qed.

  (** The new nodes in a cell when the only one like [r] gives way *)
  Lemma filter_given_way r cs v l : ForallOrdPairs (fun c c' => ~ alike (fst c) (fst c')) l -> In (r, cs) l ->
    is_new r = true -> is_new (fst v) = false ->
    S (length (filter (fun c => is_new (fst c)) (replaced r v l))) = length (filter (fun c => is_new (fst c)) l).
  Proof.
    intros F B Nr Nv. induction F as [|c l Hc F IH]; [destruct B|]. simpl. rewrite Forall_forall in Hc.
    destruct B as [->|B].
    - simpl. rewrite snode_eqb_refl, Nv, Nr. simpl. f_equal. apply filter_replaced.
      intros c B E. exfalso. apply (Hc c B). simpl. rewrite E. apply alike_refl.
    - destruct (snode_eqb (fst c) r) eqn:E.
      + exfalso. apply snode_eqb_eq in E. apply (Hc _ B). simpl. rewrite E. apply alike_refl.
      + destruct (is_new (fst c)); simpl; rewrite <- IH by auto; reflexivity.
  Qed.

  Definition hot_of (y : snode) : option nat := match y with Old n => Some n | New _ _ _ => None end.

  Lemma linv_place s b y c : linv (hot_of y) s ((y, c) :: b) -> faults s (xlane y) = None -> ~ alive s y ->
    match y with Old n => In n (marks s) | New _ _ _ => True end ->
    linv None (place s y c (found s y)) b.
  Proof.
    intros I Hf Hna Hm. unfold Stretch.place. destruct (found s y) as [[r cs]|] eqn:Ff.
    2:{ (* grown *)
      assert (Hn := @found_none s y (l_tab I) Ff). unfold Stretch.grown.
      destruct (@added s y (carriers c) (l_tab I) Hn) as [T Hh].
      set (st := with_cell s y (the_cell s y ++ [(y, carriers c)])) in *.
      set (s' := mkXD _ _ _ _ _ _ _ _ _ _).
      assert (H' : forall q qs, holds s' q qs <-> holds s q qs \/ q = y /\ qs = carriers c) by exact Hh.
      assert (Hz : forall l, length (contents (st l)) = length (contents (stored s l)) + (if l =? xlane y then 1 else 0)).
      { intros l. assert (Q := size_with_cell s y (the_cell s y ++ [(y, carriers c)]) l). fold st in Q.
        rewrite app_length in Q. simpl in Q. destruct (l =? xlane y); lia. }
      constructor; auto.
      - intros n qs B. apply H' in B as [B|[<- ->]]; [now apply (l_entry I) in B|]. split; auto.
        apply (l_pold I n c). now left.
      - intros q qs e B N Be. apply H' in B as [B|[-> ->]]; [eapply (l_cs I); eauto|]. destruct y as [|n i j]; [discriminate|].
        rewrite (l_pnew I n i j c) in Be by now left. destruct Be as [<-|[]]. eauto.
      - intros n c' B. apply (l_pold I n c'). now right.
      - intros n i j c' B. apply (l_pnew I n i j c'). now right.
      - intros n B _. apply (l_unmarked I); auto. intros E. destruct y as [m|]; [|discriminate]. inversion E; subst. contradiction.
      - intros n B. destruct (l_marked I n B) as [B1 [(qs & B2)|[B2|B2]]]; split; auto.
        + left. exists qs. apply H'. auto.
        + left. destruct y as [m|]; [|discriminate]. inversion B2; subst. exists (carriers c). apply H'. auto.
      - apply I.
      - apply I.
      - apply I.
      - intros l. cbn [changed stored s']. assert (Q := count_with_cell s y (the_cell s y ++ [(y, carriers c)]) l (fun c => is_new (fst c))).
        fold st in Q. rewrite filter_app, app_length in Q. cbn [filter fst] in Q.
        destruct (is_new y); simpl in Q.
        + destruct (Nat.eqb_spec l (xlane y)) as [El|E]; [subst l|].
          * rewrite upd_same, (l_changed I). lia.
          * rewrite upd_diff by auto. rewrite (l_changed I). lia.
        + rewrite (l_changed I). destruct (l =? xlane y); lia.
      - intros l. cbn [counts stored s']. rewrite Hz. destruct (Nat.eqb_spec l (xlane y)) as [El|E]; [subst l|].
        + rewrite upd_same, (l_count I). lia.
        + rewrite upd_diff by auto. rewrite (l_count I). lia.
      - intros l. cbn [counts faults s']. intros Hl H0. destruct (Nat.ltb_spec 0 limit) as [_|]; [|lia]. simpl in Hl.
        destruct (Nat.leb_spec limit (counts s (xlane y))) as [L|L].
        + destruct (Nat.eq_dec l (xlane y)) as [->|E]; [rewrite upd_same in Hl; discriminate|]. rewrite upd_diff in Hl by auto. rewrite upd_diff by auto. now apply (l_limit I).
        + destruct (Nat.eq_dec l (xlane y)) as [->|E]; [rewrite upd_same; lia|]. rewrite upd_diff by auto. now apply (l_limit I).
      - intros l e. cbn [faults s']. destruct (Nat.ltb_spec 0 limit) as [L0|L0]; simpl; [|apply (l_fault I)].
        destruct (limit <=? counts s (xlane y)); [|apply (l_fault I)].
        destruct (Nat.eq_dec l (xlane y)) as [->|E]; [rewrite upd_same; intros [= <-]; auto|]. rewrite upd_diff by auto. apply (l_fault I).
      - intros z B. cbn [faults s']. apply (l_retired I) in B. destruct (_ && _); auto.
        destruct (Nat.eq_dec (xlane z) (xlane y)) as [->|E]; [rewrite upd_same; discriminate|]. now rewrite upd_diff. }
    apply found_some in Ff as [Fh Fa].
    destruct y as [n|n i j].
    - (* overwrite *)
      assert (Nr : is_new r = true).
      { destruct r as [m|]; auto. exfalso. assert (Hnm : n = m); [|subst m; apply Hna; exists cs; exact Fh].
        apply Hd; [apply (l_pold I n c); now left|now apply (l_entry I) in Fh|exact Fa]. }
      assert (Hc : 0 < changed s (xlane (Old n))).
      { rewrite (proj1 (alike_place Fa)). eapply alive_new_changed; eauto. }
      destruct (Nat.eqb_spec (changed s (xlane (Old n))) 0) as [E0|E0]; [lia|]. unfold Stretch.overwrite.
      destruct (deduplicated _ _) as [k d].
      destruct (@updated s _ _ _ _ (cs ++ carriers c) (l_tab I) Fh Fa (alike_sym Fa)) as [T Hh].
      set (st := with_cell s (Old n) _) in *. set (s' := mkXD _ _ _ _ _ _ _ _ _ _).
      assert (H' : forall q qs, holds s' q qs <-> q <> r /\ holds s q qs \/ q = Old n /\ qs = cs ++ carriers c) by exact Hh.
      assert (Rd : forall e, (forall n i j, e <> Ante n i j) -> remote s' e = remote s e).
      { intros e N. cbn [remote s']. apply redirect_out. intros B. destruct (l_cs I r cs e Fh Nr B) as (n' & i & j & ->). now apply (N n' i j). }
      assert (Q : forall l, length (filter (fun c => is_new (fst c)) (contents (st l))) =
                            length (filter (fun c => is_new (fst c)) (contents (stored s l))) - (if l =? xlane (Old n) then 1 else 0)).
      { intros l. unfold st. assert (Q := count_with_cell s (Old n) (replaced r (Old n, cs ++ carriers c) (the_cell s (Old n))) l (fun c => is_new (fst c))).
        destruct (l =? xlane (Old n)); [|lia].
        assert (B : In (r, cs) (the_cell s (Old n))) by (rewrite (alike_cell s Fa); exact Fh).
        rewrite <- (@filter_given_way r cs (Old n, cs ++ carriers c) (the_cell s (Old n)) (@t_uniq _ (l_tab I) (xlane (Old n)) (xslot (Old n))) B Nr eq_refl) in Q. lia. }
      constructor; auto.
      + intros m qs B. apply H' in B as [[_ B]|[[= ->] _]]; [now apply (l_entry I) in B|]. split; auto. apply (l_pold I n c). now left.
      + intros q qs e B N Be. apply H' in B as [[_ B]|[-> _]]; [eapply (l_cs I); eauto|discriminate].
      + intros m c' B. apply (l_pold I m c'). now right.
      + intros m i j c' B. apply (l_pnew I m i j c'). now right.
      + intros m B _. cbn [outs s']. rewrite updn_diff by (intros [= ->]; now apply B).
        rewrite updn_diff by (intros <-; discriminate). apply (l_unmarked I); auto. intros [= ->]. now apply B.
      + intros m B. destruct (l_marked I m B) as [B1 [(qs & B2)|[B2|B2]]]; split; auto.
        * left. exists qs. apply H'. left. split; auto. intros <-. discriminate.
        * left. inversion B2; subst. exists (cs ++ carriers c). apply H'. auto.
      + intros m i. rewrite Rd by discriminate. apply I.
      + intros m i j. rewrite Rd by discriminate. apply I.
      + intros m i j k'. cbn [remote s']. destruct (in_dec eid_dec (Ante m i j) cs) as [B|B].
        * rewrite redirect_in by auto. intros [= <-]. apply (l_pold I n c). now left.
        * rewrite redirect_out by auto. apply I.
      + intros l. cbn [changed stored s']. rewrite Q. destruct (Nat.eqb_spec l (xlane (Old n))) as [El|E]; [subst l|].
        * rewrite upd_same, (l_changed I). lia.
        * rewrite upd_diff by auto. rewrite (l_changed I). lia.
      + intros l. cbn [counts stored s'].
        assert (Z := size_with_cell s (Old n) (replaced r (Old n, cs ++ carriers c) (the_cell s (Old n))) l). fold st in Z.
        rewrite replaced_length in Z. rewrite (l_count I). destruct (l =? _); lia.
      + apply I.
      + apply I.
      + apply I.
    - (* graft *)
      assert (Ec := l_pnew I n i j _ (or_introl eq_refl)). subst c. unfold Stretch.graft.
      destruct (deduplicated _ _) as [k d].
      destruct (@updated s _ _ _ _ (cs ++ [Ante n i j]) (l_tab I) Fh Fa (alike_refl r)) as [T Hh].
      set (st := with_cell s (New n i j) _) in *. set (s' := mkXD _ _ _ _ _ _ _ _ _ _).
      assert (H' : forall q qs, holds s' q qs <-> q <> r /\ holds s q qs \/ q = r /\ qs = cs ++ [Ante n i j]) by exact Hh.
      assert (Rd : forall e, (forall n i j, e <> Ante n i j) -> remote s' e = remote s e).
      { intros e N. cbn [remote s']. apply redirect_out. intros [<-|[]]. now apply (N n i j). }
      constructor; auto.
      + intros m qs B. apply H' in B as [[_ B]|[<- _]]; [now apply (l_entry I) in B|now apply (l_entry I) in Fh].
      + intros q qs e B N Be. apply H' in B as [[_ B]|[-> ->]]; [eapply (l_cs I); eauto|].
        apply in_app_or in Be as [Be|[<-|[]]]; [eapply (l_cs I); eauto|eauto].
      + intros m c' B. apply (l_pold I m c'). now right.
      + intros m i' j' c' B. apply (l_pnew I m i' j' c'). now right.
      + intros m B _. cbn [outs s']. rewrite updn_diff.
        * rewrite updn_diff by discriminate. apply (l_unmarked I); auto. discriminate.
        * intros <-. apply B. now apply (l_entry I) in Fh.
      + intros m B. destruct (l_marked I m B) as [B1 [(qs & B2)|[B2|B2]]]; split; auto.
        * left. destruct (snode_dec (Old m) r) as [<-|E].
          -- exists (cs ++ [Ante n i j]). apply H'. auto.
          -- exists qs. apply H'. auto.
      + intros m i'. rewrite Rd by discriminate. apply I.
      + intros m i' j'. rewrite Rd by discriminate. apply I.
      + intros m i' j' k'. cbn [remote s']. destruct (in_dec eid_dec (Ante m i' j') [Ante n i j]) as [B|B].
        * rewrite redirect_in by auto. intros ->. now apply (l_entry I) in Fh.
        * rewrite redirect_out by auto. apply I.
      + intros l. cbn [changed stored s'].
        assert (Q := count_with_cell s (New n i j) (replaced r (r, cs ++ [Ante n i j]) (the_cell s (New n i j))) l (fun c => is_new (fst c))). fold st in Q.
        rewrite filter_replaced in Q by (intros c B E; simpl; now rewrite E). rewrite (l_changed I). destruct (l =? _); lia.
      + intros l. cbn [counts stored s'].
        assert (Z := size_with_cell s (New n i j) (replaced r (r, cs ++ [Ante n i j]) (the_cell s (New n i j))) l). fold st in Z.
        rewrite replaced_length in Z. rewrite (l_count I). destruct (l =? _); lia.
      + apply I.
      + apply I.
      + apply I.
  Qed.

  Lemma not_found_self h s b y : linv h s b -> match found s y with Some (r, _) => snode_eqb y r | None => false end = false -> ~ alive s y.
  Proof.
    intros I H (cs & B). destruct (found s y) as [[r rs]|] eqn:E.
    - apply found_some in E as [E1 E2]. destruct (@holds_unique s y cs r rs (l_tab I) B E1 E2) as [<- _]. rewrite snode_eqb_refl in H. discriminate.
    - apply (@found_none s y (l_tab I) E y cs B), alike_refl.
  Qed.

  Lemma linv_step s p b s' out : linv None s (p :: b) -> stretching s p = Some (s', out) -> linv None s' (out ++ b).
  Proof.
    intros I. destruct p as [y c]. cbn [Stretch.stretching].
    assert (Ib : linv None s b) by (eapply linv_incl; [exact I|now right]).
    destruct (faults s (xlane y)) as [e0|] eqn:Ef.
    - intros [= E]. assert (E1 : s' = fst (cull s y)) by (now rewrite E). assert (E2 : out = snd (cull s y)) by (now rewrite E). subst.
      apply linv_cull with (h := None); auto; [congruence|]. destruct y as [n|]; auto.
      assert (Hn : In n (ids g)) by (apply (l_pold I n c); now left). split; auto. split; auto.
      intros Hm. rewrite (@l_unmarked _ _ _ I n Hm) by discriminate. eapply edges_ok; eauto.
    - destruct (match found s y with Some (r, _) => snode_eqb y r | None => false end) eqn:Es.
      + intros [= <- <-]. exact Ib.
      + assert (Hna := @not_found_self _ _ _ y I Es). destruct y as [n|n i j].
        * assert (Hn : In n (ids g)) by (apply (l_pold I n c); now left).
          assert (Hret : ~ In (Old n) (retired s)) by (intros B; apply (l_retired I) in B; congruence).
          assert (Hm : ~ In n (marks s)).
          { intros B. destruct (l_marked I n B) as [_ [B1|[B1|B1]]]; auto. discriminate. }
          assert (Ho : outs s (Old n) = edges_of n) by (apply (l_unmarked I); auto; discriminate).
          destruct (expand n (seq 0 (length (es g n)))) as [[[[k a] o] d] e] eqn:Ex.
          destruct (@expand_spec n _ (seq_NoDup _ _) _ _ _ _ _ Ex) as (K & _ & A & _ & O & _ & _ & _ & _ & Ee).
          set (o1 := to_successors s (outs s (Old n))).
          assert (O1 : forall y c, In (y, c) o1 -> exists m, y = Old m /\ In m (ids g)).
          { intros y c' B. eapply sends_in; [exact I| |exact B]. rewrite Ho. eapply edges_ok; eauto. }
          set (s1 := mkXD _ _ _ _ _ _ _ _ _ _).
          assert (I1 : linv (Some n) s1 (o1 ++ o ++ (Old n, c) :: b)).
          { destruct I. constructor; simpl; auto.
            - intros m c' B. apply in_app_or in B as [B|B]; [apply O1 in B as (m' & [= ->] & B); auto|].
              apply in_app_or in B as [B|B]; [|exact (l_pold0 m c' B)]. apply O in B as (i & j & _ & _ & B & _). discriminate.
            - intros m i j c' B. apply in_app_or in B as [B|B]; [apply O1 in B as (m' & B & _); discriminate|].
              apply in_app_or in B as [B|B]; [|exact (l_pnew0 m i j c' B)]. apply O in B as (i' & j' & _ & _ & [= -> -> ->] & ->). auto.
            - intros m B C. rewrite updn_diff by congruence. apply l_unmarked0; auto. discriminate.
            - intros m B. destruct (l_marked0 m B) as [B1 [B2|[B2|B2]]]; auto. discriminate. }
          destruct e as [e|].
          -- destruct (cull (fault s1 (xlane (Old n)) e) (Old n)) as [s2 o3] eqn:Ec. intros [= <- <-].
             assert (I2 : linv (Some n) (fault s1 (xlane (Old n)) e) (o1 ++ o ++ b)).
             { apply linv_incl with (b' := o1 ++ o ++ b) in I1.
               2:{ intros z B. rewrite !in_app_iff in *. simpl. tauto. }
               destruct I1. constructor; auto.
               - intros l. cbn [Stretch.fault faults]. destruct (Nat.eq_dec l (xlane (Old n))) as [->|E]; [rewrite upd_same; discriminate|].
                 rewrite upd_diff by auto. apply l_limit0.
               - intros l e'. cbn [Stretch.fault faults]. destruct (Nat.eq_dec l (xlane (Old n))) as [->|E].
                 + rewrite upd_same. intros [= <-]. right. destruct Ee as (i & Bi & Ei). exists n, i. split; auto.
                   apply in_seq in Bi. split; auto. lia.
                 + rewrite upd_diff by auto. apply l_fault0.
               - intros z B. cbn [Stretch.fault faults]. destruct (Nat.eq_dec (xlane z) (xlane (Old n))) as [->|E]; [rewrite upd_same; discriminate|].
                 rewrite upd_diff by auto. now apply l_retired0. }
             assert (I3 := linv_cull (Old n) I2). rewrite Ec in I3. cbn [fst snd] in I3.
             eapply linv_incl; [apply I3|].
             ++ cbn [Stretch.fault faults]. rewrite upd_same. discriminate.
             ++ split; auto. split; [right; split; auto|]. intros _. cbn [Stretch.fault outs s1]. rewrite updn_same.
                intros z m B E. apply in_app_or in B as [B|B].
                ** apply K in B as (i & B & ->). apply in_seq in B. apply (@edges_ok _ _ _ n I Hn (Given n i)); auto.
                   apply in_edges_of. exists i. split; auto. lia.
                ** apply A in B as (i & j & _ & _ & ->). now apply (l_ante I) in E.
             ++ intros z B. rewrite !in_app_iff in *. tauto.
          -- set (s2 := mkXD _ _ _ _ _ _ _ _ _ _). intros [= <- <-]. rewrite <- app_assoc.
             change (found s (Old n)) with (found s2 (Old n)). apply linv_place; auto.
             ++ apply linv_incl with (b := o1 ++ o ++ (Old n, c) :: b).
                2:{ intros z B. rewrite !in_app_iff in *. simpl in *. rewrite !in_app_iff in *. tauto. }
                destruct I1. constructor; simpl; auto.
                ** intros m cs B. destruct (l_entry0 m cs B). auto.
                ** intros m B C. apply l_unmarked0; auto.
                ** intros m [<-|B]; [split; auto|]. destruct (l_marked0 m B) as [B1 [B2|[B2|B2]]]; auto.
             ++ simpl. now left.
        * intros [= <- <-]. apply linv_place; auto.
  Qed.

  Theorem linv_end s : completes stretching xstart (Old (root g), None) s -> linv None s [].
  Proof.
    intros Hc. refine (mruns_inv (fun s b => linv None s b) _ _ _ Hc); clear Hc.
    - intros s0 b b' Hp I. eapply linv_incl; [exact I|]. intros z B. eapply Permutation_in; [symmetry; exact Hp|exact B].
    - intros. eapply linv_step; eauto.
    - apply linv_start.
  Qed.

  (** *** Invariants of executions without errors *)
  Definition created (s : xdata) (n i j : nat) : Prop := In n (marks s) /\ i < length (es g n) /\ j < length (bridges n i).
  Definition represented (s : xdata) (e : eid) (l : list eid) : Prop :=
    exists e', In e' l /\ eeq (label e') (label e) = true /\ remote s e' = remote s e.
  Definition sound (s : xdata) (r : snode) (e : eid) : Prop :=
    match e with
    | Given n i => r = Old n /\ i < length (es g n) /\ keep n i
    | Ante n i j => r = Old n /\ created s n i j
    | Post n i j => created s n i j /\ remote s (Ante n i j) = r
    end.
  Definition kept (s : xdata) (r : snode) : Prop := alive s r \/ exists n, r = Old n /\ In n (marks s).
  (** No two of the edges to new vertices from any vertex are equal. *)
  Definition unrepeated : Prop :=
    forall n i j i' j', In n (ids g) -> i < length (es g n) -> i' < length (es g n) ->
      j < length (bridges n i) -> j' < length (bridges n i') ->
      eeq (label (Ante n i j)) (label (Ante n i' j')) = true -> alike (New n i j) (New n i' j') -> i = i' /\ j = j'.

  Record inv (h : option nat) (s : xdata) (b : list xpkt) : Prop := {
    i_root : In (root g) (marks s) \/ exists c, In (Old (root g), c) b;
    i_alive : forall n, In n (marks s) -> alive s (Old n) \/ h = Some n;
    i_hot : forall n, h = Some n -> In n (marks s) /\ ~ alive s (Old n);
    i_succ : forall n l m, In n (marks s) -> In (l, m) (es g n) -> In m (marks s) \/ exists c, In (Old m, c) b;
    i_pnew : forall n i j c, In (New n i j, c) b -> created s n i j /\ remote s (Ante n i j) = New n i j /\ ~ alive s (New n i j);
    i_once : NoDup (news b);
    i_cs : forall r cs e, holds s r cs -> is_new r = true -> In e cs -> remote s e = r;
    i_ante : forall n i j,
      (remote s (Ante n i j) = New n i j /\ ~ alive s (New n i j) /\ outs s (New n i j) = [Post n i j] /\
       (created s n i j -> In (New n i j, Some (Ante n i j)) b)) \/
      (created s n i j /\ alike (New n i j) (remote s (Ante n i j)) /\
       (exists cs, holds s (remote s (Ante n i j)) cs /\ (is_new (remote s (Ante n i j)) = true -> In (Ante n i j) cs)) /\
       represented s (Post n i j) (outs s (remote s (Ante n i j))));
    i_given : forall n i, In n (marks s) -> i < length (es g n) -> keep n i -> represented s (Given n i) (outs s (Old n));
    i_antes : forall n i j, created s n i j -> represented s (Ante n i j) (outs s (Old n));
    i_outs : forall r e, kept s r -> In e (outs s r) -> sound s r e;
    i_nodup : forall r, kept s r -> NoDup (outs s r);
    i_freed : unrepeated -> (forall e, In e (freed s) -> is_new (remote s e) = false) /\ dangling s = false
  }.

  Lemma news_in b n i j : In (New n i j) (news b) <-> exists c, In (New n i j, c) b.
  Proof.
    unfold news. rewrite in_flat_map. split.
    - intros ([y c] & B & By). destruct y; simpl in By; [destruct By|]. destruct By as [[= -> -> ->]|[]]. eauto.
    - intros (c & B). exists (New n i j, c). simpl. auto.
  Qed.
  Lemma news_perm b b' : Permutation b b' -> Permutation (news b) (news b').
  Proof. apply Permutation_flat_map. Qed.
  Lemma inv_perm h s b b' : Permutation b b' -> inv h s b -> inv h s b'.
  Proof.
    intros Hp I. assert (M : forall z, In z b -> In z b') by (intros z; now apply Permutation_in).
    assert (M' : forall z, In z b' -> In z b) by (intros z; apply Permutation_in; now symmetry).
    destruct I. constructor; auto.
    - destruct i_root0 as [H|(c & H)]; eauto.
    - intros n l m H1 H2. destruct (i_succ0 n l m H1 H2) as [H|(c & H)]; eauto.
    - intros n i j c B. exact (i_pnew0 n i j c (M' _ B)).
    - eapply Permutation_NoDup; [apply news_perm, Hp|auto].
    - intros n i j. destruct (i_ante0 n i j) as [(A & B & C & D)|H]; [left; split; [auto|split; [auto|split; auto]]|right; auto].
  Qed.
  Lemma inv_start : inv None xstart [(Old (root g), None)].
  Proof.
    constructor; simpl; auto; try (intros; contradiction); try discriminate.
    - right. exists None. now left.
    - intros n i j c [H|[]]. discriminate.
    - constructor.
    - intros n i j. left. split; auto. split; [intros (cs & [])|]. split; auto. intros [[] _].
    - intros n i j [[] _].
    - intros r e [(cs & [])|(n & _ & [])].
    - intros r [(cs & [])|(n & _ & [])].
    - intros _. split; auto. intros e [].
  Qed.

  (** The node to which an edge leads if another took its place *)
  Definition subst (a t z : snode) : snode := if snode_eqb z a then t else z.
  Lemma subst_same a t : subst a t a = t.
  Proof. unfold subst. now rewrite snode_eqb_refl. Qed.
  Lemma subst_diff a t z : z <> a -> subst a t z = z.
  Proof. intros H. unfold subst. now rewrite snode_eqb_neq. Qed.

  Lemma fuse h s p b s' a t cs' k d :
    linv h s (p :: b) -> inv h s (p :: b) -> is_new a = true -> t <> a -> alike a t ->
    match a with New n i j => (p = (a, Some (Ante n i j)) /\ h = None /\ alive s t) | Old _ => False end \/
      (exists n c, p = (Old n, c) /\ h = Some n /\ t = Old n /\ alive s a) ->
    (forall e, remote s' e = subst a t (remote s e)) -> marks s' = marks s ->
    (forall q qs, holds s' q qs <-> q <> a /\ q <> t /\ holds s q qs \/ q = t /\ qs = cs') ->
    (is_new t = true -> forall e, In e cs' <-> remote s' e = t) ->
    outs s' t = k -> (forall q, q <> a -> q <> t -> outs s' q = outs s q) ->
    Permutation (outs s a ++ outs s t) (k ++ d) ->
    (forall e, In e (outs s a ++ outs s t) -> exists e', In e' k /\ eeq (label e') (label e) = true /\ remote s' e' = remote s' e) ->
    freed s' = d ++ freed s -> (unrepeated -> dangling s' = false) ->
    inv None s' b.
  Proof.
    intros L I Na Nta Aat Hp Hr Hm Hh Hcs Ho Ho' Pk Cov Hfr Hda.
    assert (Cr : forall n i j, created s' n i j <-> created s n i j) by (intros; unfold created; now rewrite Hm).
    assert (Al : forall q, q <> a -> alive s q -> alive s' q).
    { intros q Nq (qs & H). destruct (snode_dec q t) as [->|Nt]; [exists cs'; apply Hh; auto|]. exists qs. apply Hh. auto. }
    assert (At : alive s' t) by (exists cs'; apply Hh; auto).
    assert (Al' : forall q, alive s' q -> q = t \/ q <> a /\ alive s q).
    { intros q (qs & H). apply Hh in H as [(H1 & H2 & H3)|[-> _]]; auto. right. split; auto. exists qs. auto. }
    assert (Re : forall e e', remote s e = remote s e' -> remote s' e = remote s' e') by (intros e e' E; now rewrite !Hr, E).
    assert (Cov' : forall q e, q = a \/ q = t -> represented s e (outs s q) -> represented s' e k).
    { intros q e Hq (e1 & B1 & B2 & B3). destruct (Cov e1) as (e2 & C1 & C2 & C3).
      - apply in_or_app. destruct Hq as [->| ->]; auto.
      - exists e2. split; auto. split; [eapply (eqv_trans He); eauto|]. rewrite C3. now apply Re. }
    assert (RepO : forall q e, q <> a -> represented s e (outs s q) -> represented s' e (outs s' q)).
    { intros q e Nq H. destruct (snode_dec q t) as [->|Nt]; [rewrite Ho; eauto|]. rewrite Ho' by auto.
      destruct H as (e1 & B1 & B2 & B3). exists e1. auto. }
    assert (Kt : kept s t).
    { destruct Hp as [Hp|(n & c & -> & -> & -> & Ha')].
      - destruct a; [contradiction|]. left. tauto.
      - right. exists n. split; auto. now apply (i_hot I). }
    assert (Oa : forall e, In e (outs s a) -> exists n i j, e = Post n i j /\ created s n i j /\ remote s (Ante n i j) = a).
    { intros e B. destruct Hp as [Hp|(n & c & -> & -> & -> & Ha')].
      - destruct a as [|n i j]; [contradiction|]. destruct Hp as (-> & -> & _).
        destruct (i_pnew I n i j _ (or_introl eq_refl)) as (C1 & C2 & C3).
        destruct (i_ante I n i j) as [(_ & _ & D & _)|(_ & _ & (cs & D & _) & _)].
        + rewrite D in B. destruct B as [<-|[]]. exists n, i, j. auto.
        + exfalso. apply C3. exists cs. now rewrite C2 in D.
      - assert (S := @i_outs _ _ _ I a e (or_introl Ha') B). destruct e as [m i|m i j|m i j]; simpl in S.
        + destruct S as (-> & _). discriminate.
        + destruct S as (-> & _). discriminate.
        + exists m, i, j. tauto. }
    assert (Sd : forall r e, r <> a -> sound s r e -> sound s' r e).
    { intros r e Nr S. destruct e as [m i|m i j|m i j]; simpl in *; auto.
      - now rewrite Cr.
      - rewrite Cr, Hr. destruct S as [S1 S2]. split; auto. rewrite S2. now apply subst_diff. }
    assert (Kk : forall r, kept s' r -> r = t \/ r <> a /\ kept s r).
    { intros r [H|(n & -> & H)].
      - apply Al' in H as [H|[H1 H2]]; auto. right. split; auto. now left.
      - right. split; [intros <-; discriminate|]. right. exists n. split; auto. now rewrite <- Hm. }
    assert (Ik : forall e, In e k -> In e (outs s a) \/ In e (outs s t)).
    { intros e B. apply in_app_or. eapply Permutation_in; [symmetry; exact Pk|]. apply in_or_app. now left. }
    assert (Nd : NoDup (k ++ d)).
    { eapply Permutation_NoDup; [exact Pk|]. apply nodup_app.
      - destruct Hp as [Hp|(n & c & -> & -> & -> & Ha')].
        + destruct a as [|n i j]; [contradiction|]. destruct Hp as (-> & -> & _).
          destruct (i_pnew I n i j _ (or_introl eq_refl)) as (C1 & C2 & C3).
          destruct (i_ante I n i j) as [(_ & _ & D & _)|(_ & _ & (cs & D & _) & _)].
          * rewrite D. constructor; [intros []|constructor].
          * exfalso. apply C3. exists cs. now rewrite C2 in D.
        + apply (i_nodup I). now left.
      - now apply (i_nodup I).
      - intros e B B'. apply Oa in B as (n & i & j & -> & C1 & C2). apply (i_outs I) in B'; auto.
        simpl in B'. destruct B' as [_ B']. congruence. }
    constructor.
    - rewrite Hm. destruct (i_root I) as [H|(c & [H|H])]; eauto. subst p.
      destruct Hp as [Hp|(n & c' & [= -> ->] & -> & _)]; [destruct a as [|? ? ?]; [contradiction|]; destruct Hp as ([= E] & _)|].
      left. now apply (i_hot I).
    - intros n B. rewrite Hm in B. left. destruct (i_alive I n B) as [H|H].
      + apply Al; auto. intros <-. discriminate.
      + destruct Hp as [Hp|(n' & c' & -> & -> & -> & _)]; [destruct a as [|? ? ?]; [contradiction|]; destruct Hp as (_ & -> & _); discriminate|].
        inversion H; subst. exact At.
    - discriminate.
    - intros n l m B Bl. rewrite Hm in *. destruct (i_succ I n l m B Bl) as [H|(c & [H|H])]; eauto. subst p.
      destruct Hp as [Hp|(n' & c' & [= -> ->] & -> & _)]; [destruct a as [|? ? ?]; [contradiction|]; destruct Hp as ([= E] & _)|].
      left. now apply (i_hot I).
    - intros n i j c B. destruct (i_pnew I n i j c (or_intror B)) as (C1 & C2 & C3).
      assert (Na' : New n i j <> a).
      { intros E. destruct Hp as [Hp|(n' & c' & -> & -> & -> & Ha')].
        - subst a. destruct Hp as (-> & _). assert (O := i_once I). change (NoDup (New n i j :: news b)) in O.
          inversion O as [|? ? O1 O2]; subst. apply O1, news_in. eauto.
        - subst a. contradiction. }
      split; [now apply Cr|]. split; [rewrite Hr, C2; now apply subst_diff|].
      intros H. apply Al' in H as [H|[_ H]]; auto. destruct Hp as [Hp|(n' & c' & -> & -> & -> & Ha')]; [|discriminate].
      destruct a; [contradiction|]. destruct Hp as (_ & _ & Hp). rewrite H in C3. contradiction.
    - assert (O := i_once I). change (p :: b) with ([p] ++ b) in O. rewrite news_app in O.
      apply nodup_app_r in O. exact O.
    - intros r cs e H Nr B. apply Hh in H as [(H1 & H2 & H3)|[-> ->]].
      + rewrite Hr, (i_cs I r cs e H3 Nr B). now apply subst_diff.
      + now apply Hcs.
    - intros n i j. destruct (i_ante I n i j) as [(C1 & C2 & C3 & C4)|(C1 & C2 & (cs & C3 & C4) & C5)].
      + destruct (snode_dec (New n i j) a) as [E|E].
        * right. destruct Hp as [Hp|(n' & c' & -> & -> & -> & Ha')]; [|exfalso; apply C2; now rewrite E].
          subst a. destruct Hp as (-> & -> & Ht).
          destruct (i_pnew I n i j _ (or_introl eq_refl)) as (D1 & _).
          assert (Er : remote s' (Ante n i j) = t) by (rewrite Hr, C1; apply subst_same). rewrite Er.
          split; [now apply Cr|]. split; auto. split.
          -- exists cs'. split; [apply Hh; auto|]. intros Nt. now apply Hcs.
          -- rewrite Ho. apply (Cov' (New n i j)); auto. rewrite C3. exists (Post n i j). split; [now left|]. split; auto.
             apply (eqv_refl He).
        * left. split; [rewrite Hr, C1; now apply subst_diff|].
          assert (Nt : New n i j <> t).
          { intros <-. destruct Hp as [Hp|(n' & c' & -> & -> & Hp & Ha')]; [|discriminate]. destruct a; [contradiction|]. tauto. }
          split; [|split].
          -- intros H. apply Al' in H as [H|[_ H]]; auto.
          -- now rewrite Ho'.
          -- intros Hc. apply Cr in Hc. destruct (C4 Hc) as [H|H]; auto. exfalso. subst p.
             destruct Hp as [Hp|(n' & c' & Hp & _)]; [|discriminate]. destruct a as [|a1 a2 a3]; [contradiction|]. destruct Hp as ([= -> -> ->] & _).
             contradiction.
      + right. set (r := remote s (Ante n i j)) in *. destruct (snode_dec r a) as [E|E].
        * assert (Er : remote s' (Ante n i j) = t) by (rewrite Hr; fold r; rewrite E; apply subst_same). rewrite Er.
          split; [now apply Cr|]. split; [rewrite E in C2; eapply alike_trans; eauto|]. split.
          -- exists cs'. split; [apply Hh; auto|]. intros Nt. now apply Hcs.
          -- rewrite Ho. apply (Cov' r); auto.
        * assert (Er : remote s' (Ante n i j) = r) by (rewrite Hr; fold r; now apply subst_diff). rewrite Er.
          split; [now apply Cr|]. split; auto. split.
          -- destruct (snode_dec r t) as [Et|Et].
             ++ exists cs'. split; [apply Hh; auto|]. intros Nt. rewrite Et in Nt. apply Hcs; congruence.
             ++ exists cs. split; auto. apply Hh. auto.
          -- apply RepO; auto.
    - intros n i B Hi Hk. rewrite Hm in B. apply RepO; [intros <-; discriminate|]. now apply (i_given I).
    - intros n i j Hc. apply Cr in Hc. apply RepO; [intros <-; discriminate|]. now apply (i_antes I).
    - intros r e K B. apply Kk in K as [->|[Nr K]].
      + rewrite Ho in B. apply Ik in B as [B|B].
        * apply Oa in B as (n & i & j & -> & C1 & C2). simpl. split; [now apply Cr|]. rewrite Hr, C2. apply subst_same.
        * apply Sd; auto. now apply (i_outs I).
      + destruct (snode_dec r t) as [->|Nt].
        * rewrite Ho in B. apply Ik in B as [B|B].
          -- apply Oa in B as (n & i & j & -> & C1 & C2). simpl. split; [now apply Cr|]. rewrite Hr, C2. apply subst_same.
          -- apply Sd; auto. now apply (i_outs I).
        * rewrite Ho' in B by auto. apply Sd; auto. now apply (i_outs I).
    - assert (Ndk : NoDup k) by (eapply nodup_app_l; eauto).
      intros r K. apply Kk in K as [->|[Nr K]]; [now rewrite Ho|].
      destruct (snode_dec r t) as [->|Nt]; [now rewrite Ho|]. rewrite Ho' by auto. now apply (i_nodup I).
    - intros Hn. destruct (i_freed I Hn) as [F1 F2]. split; auto. intros e B. rewrite Hfr in B. apply in_app_or in B as [B|B].
      + destruct (is_new (remote s' e)) eqn:E; auto. exfalso.
        assert (Be : In e (outs s a ++ outs s t)).
        { eapply Permutation_in; [symmetry; exact Pk|]. apply in_or_app. now right. }
        destruct (Cov e Be) as (e' & B1 & B2 & B3).
        assert (Ne : e <> e').
        { intros <-. apply in_split in B1 as (k1 & k2 & ->). rewrite <- app_assoc in Nd. simpl in Nd. apply NoDup_remove_2 in Nd.
          apply Nd. rewrite !in_app_iff. auto. }
        assert (Fx : forall e, In e (outs s a ++ outs s t) -> is_new (remote s' e) = true -> exists n i j, e = Ante n i j /\ t = Old n /\ created s n i j /\ In n (ids g)).
        { clear -Oa Kt I L Hr Na. intros e B N. apply in_app_or in B as [B|B].
          - apply Oa in B as (n & i & j & -> & _). rewrite Hr, (l_post L) in N. rewrite subst_diff in N by (intros <-; discriminate). discriminate.
          - assert (S := @i_outs _ _ _ I t e Kt B). destruct e as [n i|n i j|n i j]; simpl in S.
            + rewrite Hr, (l_given L) in N. rewrite subst_diff in N by (intros <-; discriminate). discriminate.
            + exists n, i, j. destruct S as [S1 S2]. split; auto. split; auto. split; auto. now apply (l_marked L), S2.
            + rewrite Hr, (l_post L) in N. rewrite subst_diff in N by (intros <-; discriminate). discriminate. }
        destruct (Fx e Be E) as (n & i & j & -> & Et & Ce & Hin).
        assert (Be' : In e' (outs s a ++ outs s t)).
        { eapply Permutation_in; [symmetry; exact Pk|]. apply in_or_app. now left. }
        destruct (Fx e' Be' ltac:(congruence)) as (n' & i' & j' & -> & Et' & Ce' & _).
        assert (n' = n) by congruence. subst n'.
        assert (Av : forall n i j, created s n i j -> alike (New n i j) (remote s' (Ante n i j))).
        { clear -I Hr Aat Hv. intros n i j C. rewrite Hr.
          assert (G : alike (New n i j) (remote s (Ante n i j))).
          { destruct (i_ante I n i j) as [(E & _)|(_ & H & _)]; auto. rewrite E. apply alike_refl. }
          destruct (snode_dec (remote s (Ante n i j)) a) as [E|E].
          - rewrite E, subst_same. rewrite E in G. eapply alike_trans; eauto.
          - now rewrite subst_diff. }
        destruct (Hn n i' j' i j) as [-> ->]; auto; try apply Ce; try apply Ce'.
        eapply alike_trans; [apply Av; auto|]. rewrite B3. apply alike_sym, Av; auto.
      + rewrite Hr. rewrite subst_diff; auto. intros E. apply F1 in B. congruence.
  Qed.

  Lemma grown_step s b y c : linv (hot_of y) s ((y, c) :: b) -> inv (hot_of y) s ((y, c) :: b) ->
    (forall r cs, holds s r cs -> ~ alike y r) -> inv None (grown s y c) b.
  Proof.
    intros L I Hn. unfold Stretch.grown.
    destruct (@added s y (carriers c) (l_tab L) Hn) as [_ Hh].
    set (s' := mkXD _ _ _ _ _ _ _ _ _ _).
    assert (H' : forall q qs, holds s' q qs <-> holds s q qs \/ q = y /\ qs = carriers c) by exact Hh. clear Hh.
    assert (Al : forall q, alive s' q <-> alive s q \/ q = y).
    { intros q. split.
      - intros (qs & H). apply H' in H as [H|[-> _]]; auto. left. exists qs. auto.
      - intros [(qs & H)| ->]; [exists qs|exists (carriers c)]; apply H'; auto. }
    assert (Ny : forall n i j, y = New n i j -> c = Some (Ante n i j) /\ created s n i j /\ remote s (Ante n i j) = New n i j /\ outs s y = [Post n i j]).
    { intros n i j ->. assert (Ec := l_pnew L n i j c (or_introl eq_refl)).
      destruct (i_pnew I n i j c (or_introl eq_refl)) as (C1 & C2 & C3). split; auto. split; auto. split; auto.
      destruct (i_ante I n i j) as [(_ & _ & D & _)|(_ & _ & (cs & D & _) & _)]; auto. exfalso. apply C3. exists cs. now rewrite C2 in D. }
    assert (Kk : forall r, kept s' r -> kept s r \/ exists n i j, r = New n i j /\ y = r).
    { intros r [H|H]; [|left; now right]. apply Al in H as [H| ->]; [left; now left|]. destruct y as [n|n i j]; [|eauto 6].
      left. right. exists n. split; auto. now apply (i_hot I). }
    constructor.
    - destruct (i_root I) as [H|(c' & [[= -> ->]|H])]; eauto. left. now apply (i_hot I).
    - intros n B. left. apply Al. destruct (i_alive I n B) as [H|H]; auto. right. destruct y; [|discriminate]. now inversion H.
    - discriminate.
    - intros n l m B Bl. destruct (i_succ I n l m B Bl) as [H|(c' & [[= -> ->]|H])]; eauto. left. now apply (i_hot I).
    - intros n i j c' B. destruct (i_pnew I n i j c' (or_intror B)) as (C1 & C2 & C3). split; auto. split; auto.
      intros H. apply Al in H as [H|<-]; auto. assert (O := i_once I). change (NoDup (New n i j :: news b)) in O.
      inversion O as [|? ? O1 O2]; subst. apply O1, news_in. eauto.
    - assert (O := i_once I). change ((y, c) :: b) with ([(y, c)] ++ b) in O. rewrite news_app in O. now apply nodup_app_r in O.
    - intros r cs e H Nr B. apply H' in H as [H|[-> ->]]; [exact (i_cs I r cs e H Nr B)|].
      destruct y as [|n i j]; [discriminate|]. destruct (Ny n i j eq_refl) as (-> & _ & E & _). destruct B as [<-|[]]. exact E.
    - intros n i j. destruct (i_ante I n i j) as [(C1 & C2 & C3 & C4)|(C1 & C2 & (cs & C3 & C4) & C5)].
      + destruct (snode_dec y (New n i j)) as [->|E].
        * right. destruct (Ny n i j eq_refl) as (-> & D1 & D2 & D3). cbn [remote s']. rewrite D2. split; auto.
          split; [apply alike_refl|]. split.
          -- exists [Ante n i j]. split; [apply H'; auto|]. intros _. now left.
          -- cbn [outs s']. rewrite D3. exists (Post n i j). split; [now left|]. split; auto. apply (eqv_refl He).
        * left. split; auto. split; [|split; auto].
          -- intros H. apply Al in H as [H|H]; auto.
          -- intros H. destruct (C4 H) as [F|F]; auto. exfalso. inversion F. congruence.
      + right. split; auto. split; auto. split; auto. exists cs. split; auto. apply H'. auto.
    - apply I.
    - apply I.
    - intros r e K B. apply Kk in K as [K|(n & i & j & -> & ->)]; [exact (i_outs I e K B)|].
      destruct (Ny n i j eq_refl) as (_ & D1 & D2 & D3). cbn [outs s'] in B. rewrite D3 in B. destruct B as [<-|[]]. split; auto.
    - intros r K. apply Kk in K as [K|(n & i & j & -> & ->)]; [exact (i_nodup I K)|].
      destruct (Ny n i j eq_refl) as (_ & D1 & D2 & D3). cbn [outs s']. rewrite D3. constructor; [intros []|constructor].
    - apply I.
  Qed.

  Lemma code_inj s e e' : sends_ok s [e; e'] -> code (remote s e) = code (remote s e') -> remote s e = remote s e'.
  Proof.
    intros H E. assert (H1 := H e). assert (H2 := H e'). simpl in H1, H2.
    destruct (remote s e) as [n|n i j], (remote s e') as [n'|n' i' j']; simpl in E.
    - congruence.
    - exfalso. apply (Hu n' i' j'). rewrite <- E. auto.
    - exfalso. apply (Hu n i j). rewrite E. auto.
    - apply Ha in E. congruence.
  Qed.
  Lemma dedup_facts s l : sends_ok s l ->
    Permutation l (fst (deduplicated (remote s) l) ++ snd (deduplicated (remote s) l)) /\
    forall e, In e l -> exists e', In e' (fst (deduplicated (remote s) l)) /\ eeq (label e') (label e) = true /\ remote s e' = remote s e.
  Proof.
    intros H. destruct (@C46_deduplication eid word (judy X) eeq ehash label (fun e => N.of_nat (code (remote s e))) l He Heh) as (Q & _ & C).
    unfold Stretch.deduplicated. split; auto. intros e B. destruct (C e B) as (e' & B1 & B2 & B3). exists e'. split; auto. split; [now apply (eqv_sym He)|].
    apply code_inj; [|now apply Nnat.Nat2N.inj].
    assert (B' : In e' l) by (eapply Permutation_in; [symmetry; exact Q|apply in_or_app; now left]).
    intros z m [Ez|[Ez|[]]] E; subst z; [exact (H e' m B' E)|exact (H e m B E)].
  Qed.

  (** Only nodes of the graph are reached by edges *)
  Lemma created_range h s b n i j : linv h s b -> created s n i j -> in_range n i.
  Proof. intros L (C1 & C2 & _). split; auto. now apply (l_marked L). Qed.
  Lemma sound_sends h s b r l : linv h s b -> (forall e, In e l -> sound s r e) ->
    (match r with Old n => In n (ids g) | New _ _ _ => True end) -> sends_ok s l.
  Proof.
    intros L H Hr e m B E. apply H in B. destruct e as [n i|n i j|n i j]; simpl in B.
    - destruct B as (-> & B & _). rewrite (l_given L) in E. inversion E. apply target_in. now split.
    - now apply (l_ante L) in E.
    - destruct B as (B & _). rewrite (l_post L) in E. inversion E. apply target_in. eapply created_range; eauto.
  Qed.
  Lemma sends_app s l l' : sends_ok s l -> sends_ok s l' -> sends_ok s (l ++ l').
  Proof. intros H H' e m B E. apply in_app_or in B as [B|B]; eauto. Qed.

  Lemma remote_dead h s b n i j e : linv h s b -> inv h s b -> ~ alive s (New n i j) -> remote s e = New n i j -> e = Ante n i j.
  Proof.
    intros L I H E. destruct e as [m k|m k l|m k l].
    - rewrite (l_given L) in E. discriminate.
    - destruct (i_ante I m k l) as [(C & _)|(_ & _ & (cs & C & _) & _)]; [congruence|].
      exfalso. apply H. exists cs. now rewrite E in C.
    - rewrite (l_post L) in E. discriminate.
  Qed.
  Lemma remote_new h s b r cs e : linv h s b -> inv h s b -> holds s r cs -> is_new r = true -> (In e cs <-> remote s e = r).
  Proof.
    intros L I Hh Nr. split; [exact (i_cs I r cs e Hh Nr)|]. intros E. destruct e as [m k|m k l|m k l].
    - rewrite (l_given L) in E. subst r. discriminate.
    - destruct (i_ante I m k l) as [(C & C' & _)|(_ & _ & (cs' & C & C') & _)].
      + exfalso. apply C'. exists cs. now rewrite <- C, E.
      + rewrite E in C, C'. destruct (@holds_unique s r cs r cs' (l_tab L) Hh C (alike_refl r)) as [_ ->]. auto.
    - rewrite (l_post L) in E. subst r. discriminate.
  Qed.

  Lemma graft_step s b n i j r cs : linv None s ((New n i j, Some (Ante n i j)) :: b) -> inv None s ((New n i j, Some (Ante n i j)) :: b) ->
    holds s r cs -> alike (New n i j) r -> inv None (graft s (New n i j) (Ante n i j) r cs) b.
  Proof.
    intros L I Fh Fa.
    destruct (i_pnew I n i j _ (or_introl eq_refl)) as (C1 & C2 & C3).
    assert (Nr : r <> New n i j) by (intros ->; apply C3; exists cs; auto).
    assert (D : outs s (New n i j) = [Post n i j]).
    { destruct (i_ante I n i j) as [(_ & _ & D & _)|(_ & _ & (cs' & D & _) & _)]; auto. exfalso. apply C3. exists cs'. now rewrite C2 in D. }
    assert (Ss : sends_ok s (outs s (New n i j) ++ outs s r)).
    { apply sends_app.
      - rewrite D. intros e m [<-|[]] E. rewrite (l_post L) in E. inversion E. apply target_in. eapply created_range; eauto.
      - apply (@sound_sends _ _ _ r (outs s r) L).
        + intros e. apply (i_outs I). left. exists cs. auto.
        + destruct r; auto. now apply (l_entry L) in Fh. }
    destruct (dedup_facts Ss) as [Pk Cov]. unfold Stretch.graft.
    destruct (deduplicated (remote s) (outs s (New n i j) ++ outs s r)) as [k d]. cbn [fst snd] in Pk, Cov.
    destruct (@updated s (New n i j) r cs r (cs ++ [Ante n i j]) (l_tab L) Fh Fa (alike_refl r)) as [_ Hh].
    set (s' := mkXD _ _ _ _ _ _ _ _ _ _).
    assert (Er : forall e, remote s' e = subst (New n i j) r (remote s e)).
    { intros e. cbn [remote s']. destruct (eid_dec e (Ante n i j)) as [->|E].
      - rewrite redirect_in by now left. now rewrite C2, subst_same.
      - rewrite redirect_out by (intros [F|[]]; congruence). symmetry. apply subst_diff. intros F.
        eapply remote_dead in F; eauto. }
    assert (Ne : forall e e', remote s e' = remote s e -> remote s' e' = remote s' e) by (intros e e' E; now rewrite !Er, E).
    eapply (@fuse None s (New n i j, Some (Ante n i j)) b s' (New n i j) r (cs ++ [Ante n i j]) k d); auto.
    - left. split; auto. split; auto. exists cs. auto.
    - intros q qs. change (holds s' q qs) with (In (q, qs) (cell (stored s' (xlane q)) (xslot q))). cbn [stored s'].
      rewrite Hh. split; intros [H|H]; auto.
      + destruct H as [H1 H2]. left. split; auto. intros ->. apply C3. exists qs. auto.
      + left. tauto.
    - intros N e. rewrite in_app_iff, Er. rewrite (@remote_new _ _ _ r cs e L I Fh N). simpl. split.
      + intros [<-|[<-|[]]]; [|rewrite C2; apply subst_same]. destruct (snode_dec (remote s e) (New n i j)) as [E|E]; [|now apply subst_diff].
        rewrite E. exfalso. apply Nr. rewrite <- E. destruct (i_ante I n i j); auto.
        all: eapply remote_dead in E; eauto; subst e; congruence.
      + destruct (snode_dec (remote s e) (New n i j)) as [E|E].
        * intros _. right. left. symmetry. eapply remote_dead; eauto.
        * rewrite subst_diff by auto. auto.
    - cbn [outs s']. apply updn_same.
    - intros q H1 H2. cbn [outs s']. now rewrite !updn_diff.
    - intros e B. destruct (Cov e B) as (e' & B1 & B2 & B3). exists e'. auto.
    - intros U. cbn [dangling s']. destruct (i_freed I U) as [F1 ->]. simpl. rewrite orb_false_r.
      destruct (existsb (eid_eqb (Ante n i j)) (d ++ freed s)) eqn:E; auto. exfalso. apply existsb_eid, in_app_or in E as [E|E].
      + assert (B : In (Ante n i j) (outs s (New n i j) ++ outs s r)).
        { eapply Permutation_in; [symmetry; exact Pk|]. apply in_or_app. now right. }
        destruct (Cov _ B) as (e' & B1 & _ & B3). rewrite C2 in B3. eapply remote_dead in B3; eauto. subst e'.
        assert (Nd : NoDup (k ++ d)).
        { eapply Permutation_NoDup; [exact Pk|]. rewrite D. simpl. constructor.
          - intros G. apply (i_outs I) in G; [|left; exists cs; auto]. simpl in G. destruct G as [_ G]. congruence.
          - apply (i_nodup I). left. exists cs. auto. }
        apply in_split in B1 as (k1 & k2 & ->). rewrite <- app_assoc in Nd. simpl in Nd. apply NoDup_remove_2 in Nd.
        apply Nd. rewrite !in_app_iff. auto.
      + apply F1 in E. rewrite C2 in E. discriminate.
  Qed.

  Lemma overwrite_step s b n c r cs : linv (Some n) s ((Old n, c) :: b) -> inv (Some n) s ((Old n, c) :: b) ->
    holds s r cs -> alike (Old n) r -> inv None (overwrite s (Old n) c r cs) b.
  Proof.
    intros L I Fh Fa.
    assert (Hn : In n (ids g)) by (apply (l_pold L n c); now left).
    destruct (@i_hot _ _ _ I n eq_refl) as [Hm Hna].
    assert (Nr : is_new r = true).
    { destruct r as [m|]; auto. exfalso. assert (Hnm : n = m); [|subst m; apply Hna; exists cs; exact Fh].
      apply Hd; auto. now apply (l_entry L) in Fh. }
    set (s1 := mkXD (outs s) (redirect (remote s) cs (Old n)) (marks s) (retired s) (stored s) (counts s) (changed s) (faults s) (freed s) (dangling s)).
    assert (Er : forall e, remote s1 e = subst r (Old n) (remote s e)).
    { intros e. cbn [remote s1]. destruct (in_dec eid_dec e cs) as [B|B].
      - rewrite redirect_in by auto. rewrite (i_cs I r cs e Fh Nr B). symmetry. apply subst_same.
      - rewrite redirect_out by auto. symmetry. apply subst_diff. intros E. apply B. eapply remote_new; eauto. }
    assert (Ss : sends_ok s (outs s r ++ outs s (Old n))).
    { apply sends_app.
      - apply (@sound_sends _ _ _ r (outs s r) L).
        + intros e. apply (i_outs I). left. exists cs. auto.
        + destruct r; auto. discriminate.
      - apply (@sound_sends _ _ _ (Old n) (outs s (Old n)) L); auto. intros e. apply (i_outs I). right. eauto. }
    assert (Ss1 : sends_ok s1 (outs s r ++ outs s (Old n))).
    { intros e m B E. rewrite Er in E. unfold subst in E. destruct (snode_eqb (remote s e) r); [inversion E; now subst|]. eapply Ss; eauto. }
    destruct (dedup_facts Ss1) as [Pk Cov]. unfold Stretch.overwrite.
    change (redirect (remote s) cs (Old n)) with (remote s1).
    destruct (deduplicated (remote s1) (outs s r ++ outs s (Old n))) as [k d]. cbn [fst snd] in Pk, Cov.
    destruct (@updated s (Old n) r cs (Old n) (cs ++ carriers c) (l_tab L) Fh Fa (alike_sym Fa)) as [_ Hh].
    set (s' := mkXD _ _ _ _ _ _ _ _ _ _).
    apply (@fuse (Some n) s (Old n, c) b s' r (Old n) (cs ++ carriers c) k d); auto.
    - intros <-. discriminate.
    - now apply alike_sym.
    - right. exists n, c. split; auto. split; auto. split; auto. exists cs. auto.
    - intros q qs. change (holds s' q qs) with (In (q, qs) (cell (stored s' (xlane q)) (xslot q))). cbn [stored s'].
      rewrite Hh. split; intros [H|H]; auto.
      + destruct H as [H1 H2]. left. split; auto. split; auto. intros ->. apply Hna. exists qs. auto.
      + left. tauto.
    - discriminate.
    - cbn [outs s']. apply updn_same.
    - intros q H1 H2. cbn [outs s']. now rewrite !updn_diff.
    - intros U. cbn [dangling s']. destruct (i_freed I U) as [F1 ->]. simpl.
      destruct (any_in (freed s) cs) eqn:E; auto. exfalso. unfold any_in in E. apply existsb_exists in E as (e & B & E).
      apply existsb_eid, F1 in E. rewrite (i_cs I r cs e Fh Nr B) in E. congruence.
  Qed.

  Lemma place_step s b y c : linv (hot_of y) s ((y, c) :: b) -> inv (hot_of y) s ((y, c) :: b) -> ~ alive s y ->
    inv None (place s y c (found s y)) b.
  Proof.
    intros L I Hna. unfold Stretch.place. destruct (found s y) as [[r cs]|] eqn:Ff.
    - apply found_some in Ff as [Fh Fa]. destruct y as [n|n i j].
      + assert (Nr : is_new r = true).
        { destruct r as [m|]; auto. exfalso. assert (Hnm : n = m); [|subst m; apply Hna; exists cs; exact Fh].
          apply Hd; [apply (l_pold L n c); now left|now apply (l_entry L) in Fh|exact Fa]. }
        assert (Hc : 0 < changed s (xlane (Old n))).
        { rewrite (proj1 (alike_place Fa)). eapply alive_new_changed; eauto. }
        destruct (Nat.eqb_spec (changed s (xlane (Old n))) 0) as [E0|E0]; [lia|]. apply overwrite_step; auto.
      + assert (Ec := l_pnew L n i j _ (or_introl eq_refl)). subst c. apply graft_step; auto.
    - apply grown_step; auto. exact (@found_none s y (l_tab L) Ff).
  Qed.

  Lemma linv_expand s b n k a o d :
    linv None s b -> In n (ids g) -> ~ In n (marks s) -> expand n (seq 0 (length (es g n))) = (k, a, o, d, None) ->
    linv (Some n) (mkXD (updn (outs s) (Old n) (k ++ a)) (remote s) (n :: marks s) (retired s) (stored s) (counts s) (changed s)
                        (faults s) (d ++ freed s) (dangling s))
         (to_successors s (outs s (Old n)) ++ o ++ b).
  Proof.
    intros I Hn Hm Ex. destruct (@expand_spec n _ (seq_NoDup _ _) _ _ _ _ _ Ex) as (K & _ & A & _ & O & _ & _ & _ & _ & _).
    assert (O1 : forall y c, In (y, c) (to_successors s (outs s (Old n))) -> exists m, y = Old m /\ In m (ids g)).
    { intros y c B. eapply sends_in; [exact I| |exact B]. rewrite (@l_unmarked _ _ _ I n Hm) by discriminate. eapply edges_ok; eauto. }
    destruct I. constructor; simpl; auto.
    - intros m cs B. destruct (l_entry0 m cs B). auto.
    - intros m c' B. apply in_app_or in B as [B|B]; [apply O1 in B as (m' & [= ->] & B); auto|].
      apply in_app_or in B as [B|B]; [|exact (l_pold0 m c' B)]. apply O in B as (i & j & _ & _ & B & _). discriminate.
    - intros m i j c' B. apply in_app_or in B as [B|B]; [apply O1 in B as (m' & B & _); discriminate|].
      apply in_app_or in B as [B|B]; [|exact (l_pnew0 m i j c' B)]. apply O in B as (i' & j' & _ & _ & [= -> -> ->] & ->). auto.
    - intros m B C. rewrite updn_diff by congruence. apply l_unmarked0; auto. discriminate.
    - intros m [<-|B]; auto. destruct (l_marked0 m B) as [B1 [B2|[B2|B2]]]; auto. discriminate.
  Qed.

  Lemma expand_step s b n k a o d :
    linv None s b -> inv None s b -> In n (ids g) -> ~ In n (marks s) -> ~ alive s (Old n) ->
    expand n (seq 0 (length (es g n))) = (k, a, o, d, None) ->
    inv (Some n) (mkXD (updn (outs s) (Old n) (k ++ a)) (remote s) (n :: marks s) (retired s) (stored s) (counts s) (changed s)
                       (faults s) (d ++ freed s) (dangling s))
        (to_successors s (outs s (Old n)) ++ o ++ b).
  Proof.
    intros L I Hn Hm Hna Ex. set (s' := mkXD _ _ _ _ _ _ _ _ _ _). set (o1 := to_successors s (outs s (Old n))).
    destruct (@expand_spec n _ (seq_NoDup _ _) _ _ _ _ _ Ex) as (K & NK & A & NA & O & NO & _ & _ & D & E1 & E2 & E3 & E4). clear Ex.
    assert (Ho : outs s (Old n) = edges_of n) by (apply (l_unmarked L); auto; discriminate).
    assert (O1 : forall y c, In (y, c) o1 -> exists m, y = Old m).
    { intros y c B. apply sends in B as (e & m & _ & _ & _ & -> & _). eauto. }
    assert (Hs : forall i, In i (seq 0 (length (es g n))) <-> i < length (es g n)) by (intros i; rewrite in_seq; lia).
    assert (Cr : forall m i j, created s m i j -> created s' m i j) by (intros m i j (C1 & C2 & C3); split; [now right|auto]).
    assert (Cr' : forall m i j, created s' m i j -> created s m i j \/ m = n /\ i < length (es g n) /\ j < length (bridges n i)).
    { intros m i j ([<-|C1] & C2 & C3); auto. left. split; auto. }
    assert (Ot : forall q, q <> Old n -> outs s' q = outs s q) by (intros q Hq; cbn [outs s']; now rewrite updn_diff).
    assert (On : outs s' (Old n) = k ++ a) by (cbn [outs s']; apply updn_same).
    assert (N1 : news o1 = []).
    { destruct (news o1) as [|y l] eqn:E; auto. exfalso. assert (B : In y (news o1)) by (rewrite E; now left).
      unfold news in B. apply in_flat_map in B as ([z c] & B & By). apply O1 in B as (m & ->). destruct By. }
    constructor.
    - destruct (i_root I) as [H|(c & H)]; [left; now right|]. right. exists c. rewrite !in_app_iff. auto.
    - intros m [<-|B]; auto. destruct (i_alive I m B) as [H|H]; auto. discriminate.
    - intros m [= <-]. split; [now left|exact Hna].
    - intros m l m' [<-|B] Bl.
      + destruct (in_dec Nat.eq_dec m' (marks s)) as [F|F]; [left; now right|]. right.
        apply In_nth with (d := (null, 0)) in Bl as (i & Hi & Ei). exists (Some (Given n i)).
        rewrite !in_app_iff. left. unfold o1, to_successors. apply in_flat_map. exists (Given n i). split.
        * rewrite Ho. apply in_edges_of. eauto.
        * rewrite (l_given L). unfold target, given. rewrite Ei. simpl.
          destruct (existsb (Nat.eqb m') (marks s)) eqn:G; [apply existsb_nat in G; contradiction|now left].
      + destruct (i_succ I m l m' B Bl) as [H|(c & H)]; [left; now right|]. right. exists c. rewrite !in_app_iff. auto.
    - intros m i j c B. apply in_app_or in B as [B|B]; [apply O1 in B as (m' & B); discriminate|]. apply in_app_or in B as [B|B].
      + apply O in B as (i' & j' & B1 & B2 & [= -> -> ->] & ->). split; [split; [now left|split; auto; now apply Hs]|].
        destruct (i_ante I n i' j') as [(C1 & C2 & _)|((C & _) & _)]; [auto|contradiction].
      + destruct (i_pnew I m i j c B) as (C1 & C2 & C3). auto.
    - rewrite !news_app, N1. simpl. apply nodup_app; auto; [apply I|]. intros y B B'.
      unfold news in B. apply in_flat_map in B as ([z c] & B & By). apply O in B as (i & j & _ & _ & -> & _). simpl in By. destruct By as [<-|[]].
      apply news_in in B' as (c' & B'). apply (i_pnew I) in B' as ((C & _) & _). contradiction.
    - apply I.
    - intros m i j. destruct (i_ante I m i j) as [(C1 & C2 & C3 & C4)|(C1 & C2 & (cs & C3 & C4) & C5)].
      + left. split; auto. split; auto. split; [now rewrite Ot by discriminate|]. intros C. rewrite !in_app_iff.
        apply Cr' in C as [C|(-> & Hi & Hj)]; [auto|]. right. left. apply E3; auto. now apply Hs.
      + right. split; auto. split; auto. split; [exists cs; auto|]. cbn [remote s'].
        rewrite Ot; auto. intros E. apply Hna. exists cs. now rewrite E in C3.
    - intros m i [<-|B] Hi Hk.
      + rewrite On. exists (Given n i). split; [apply in_or_app; left; apply E2; auto; now apply Hs|]. split; auto. apply (eqv_refl He).
      + rewrite Ot by (intros [= ->]; contradiction). now apply (i_given I).
    - intros m i j C. apply Cr' in C as [C|(-> & Hi & Hj)].
      + assert (Hmn : m <> n) by (intros ->; now apply Hm, C). rewrite Ot by congruence. now apply (i_antes I).
      + rewrite On. exists (Ante n i j). split; [apply in_or_app; right; apply E3; auto; now apply Hs|]. split; auto. apply (eqv_refl He).
    - intros r e Kr B. destruct (snode_dec r (Old n)) as [->|Nr].
      + rewrite On in B. apply in_app_or in B as [B|B].
        * destruct (E4 e B) as (i & -> & Hk). destruct (K _ B) as (i' & Hi & [= ->]). simpl. split; auto. split; auto. now apply Hs.
        * apply A in B as (i & j & Hi & Hj & ->). simpl. split; auto. split; [now left|]. split; auto. now apply Hs.
      + rewrite Ot in B by auto. assert (Kr' : kept s r).
        { destruct Kr as [Kr|(m & -> & [<-|Kr])]; [now left|congruence|right; eauto]. }
        assert (S := i_outs I e Kr' B). destruct e as [m i|m i j|m i j]; simpl in *; auto.
        * destruct S; auto.
        * destruct S; auto.
    - intros r Kr. destruct (snode_dec r (Old n)) as [->|Nr].
      + rewrite On. apply nodup_app; auto. intros e B B'. apply K in B as (i & _ & ->). apply A in B' as (i' & j & _ & _ & B'). discriminate.
      + rewrite Ot by auto. apply (i_nodup I). destruct Kr as [Kr|(m & -> & [<-|Kr])]; [now left|congruence|right; eauto].
    - intros U. destruct (i_freed I U) as [F1 F2]. split; auto. intros e B. cbn [freed s'] in B. apply in_app_or in B as [B|B].
      + apply D in B as (i & _ & ->). cbn [remote s']. now rewrite (l_given L).
      + now apply F1.
  Qed.

  Lemma faults_mono s p s' out l : stretching s p = Some (s', out) -> faults s l <> None -> faults s' l <> None.
  Proof.
    assert (U : forall (f : nat -> option error) l' e, f l <> None -> upd f l' (Some e) l <> None).
    { intros f l' e H. destruct (Nat.eq_dec l l') as [->|E]; [rewrite upd_same; discriminate|now rewrite upd_diff]. }
    assert (Pl : forall s y c f, faults s l <> None -> faults (place s y c f) l <> None).
    { clear -U. intros s y c f H. unfold Stretch.place. destruct f as [[r cs]|].
      - destruct y as [n|n i j].
        + destruct (_ =? _); [now apply U|]. unfold Stretch.overwrite. destruct (deduplicated _ _). exact H.
        + destruct c; [|now apply U]. unfold Stretch.graft. destruct (deduplicated _ _). exact H.
      - unfold Stretch.grown. simpl. destruct (_ && _); auto. }
    assert (Cu : forall s y, faults (fst (cull s y)) l = faults s l).
    { clear. intros s y. unfold Stretch.cull. destruct (_ || _); auto. destruct y; auto. }
    destruct p as [y c]. cbn [Stretch.stretching]. intros H Hf. destruct (faults s (xlane y)).
    - inversion H as [H']. replace s' with (fst (cull s y)) by (now rewrite H'). now rewrite Cu.
    - destruct (match found s y with Some (r, _) => snode_eqb y r | None => false end); [inversion H; now subst|].
      destruct y as [n|n i j].
      + destruct (expand n _) as [[[[k a] o] d] [e|]].
        * match goal with H : (let (s2, o3) := cull ?z ?y in _) = _ |- _ => assert (C := Cu z y); destruct (cull z y) as [s2 o3] end.
          inversion H; subst. simpl in C. rewrite C. now apply U.
        * inversion H; subst. now apply Pl.
      + inversion H; subst. now apply Pl.
  Qed.

  Lemma inv_step s p b s' out : linv None s (p :: b) -> inv None s (p :: b) -> stretching s p = Some (s', out) ->
    (forall q, faults s' (xlane q) = None) -> inv None s' (out ++ b).
  Proof.
    intros L I H Hf. assert (Hf0 : forall q, faults s (xlane q) = None).
    { intros q. destruct (faults s (xlane q)) eqn:E; auto. exfalso. apply (@faults_mono _ _ _ _ (xlane q) H); [congruence|apply Hf]. }
    destruct p as [y c]. cbn [Stretch.stretching] in H. rewrite Hf0 in H.
    destruct (match found s y with Some (r, _) => snode_eqb y r | None => false end) eqn:Es.
    - inversion H; subst. clear H. simpl. destruct (found s' y) as [[r cs]|] eqn:Ff; [|discriminate].
      apply snode_eqb_eq in Es. subst r. apply found_some in Ff as [Fh _]. destruct y as [n|n i j].
      + assert (Hm : In n (marks s')) by (now apply (l_entry L) in Fh).
        destruct I. constructor; auto.
        * destruct i_root0 as [H|(c' & [[= <- <-]|H])]; eauto.
        * intros m l m' B Bl. destruct (i_succ0 m l m' B Bl) as [H|(c' & [[= <- <-]|H])]; eauto.
        * intros m i j c' B. apply (i_pnew0 m i j c'). now right.
        * intros m i j. destruct (i_ante0 m i j) as [(C1 & C2 & C3 & C4)|C]; [left|right; auto].
          split; auto. split; auto. split; auto. intros C. destruct (C4 C) as [F|F]; auto. discriminate.
      + exfalso. destruct (i_pnew I n i j c (or_introl eq_refl)) as (_ & _ & C). apply C. exists cs. auto.
    - assert (Hna := @not_found_self _ _ _ y L Es). destruct y as [n|n i j].
      + assert (Hn : In n (ids g)) by (apply (l_pold L n c); now left).
        assert (Hm : ~ In n (marks s)).
        { intros B. destruct (i_alive I n B) as [B1|B1]; auto. discriminate. }
        destruct (expand n (seq 0 (length (es g n)))) as [[[[k a] o] d] [e|]] eqn:Ex.
        * exfalso. match type of H with (let (s2, o3) := cull ?z ?y in _) = _ => assert (Hc : faults (fst (cull z y)) (xlane y) <> None); [|destruct (cull z y) as [s2 o3]] end.
          -- assert (Cu : forall s y, faults (fst (cull s y)) = faults s).
             { clear. intros s y. unfold Stretch.cull. destruct (_ || _); auto. destruct y; auto. }
             rewrite Cu. cbn [Stretch.fault faults]. rewrite upd_same. discriminate.
          -- inversion H; subst. simpl in Hc. now apply Hc.
        * cbn [remote outs retired stored counts changed faults freed dangling] in H.
          assert (I1 := expand_step L I Hn Hm Hna Ex).
          set (s2 := mkXD _ _ _ _ _ _ _ _ _ _) in *. injection H as <- <-. rewrite <- app_assoc.
          change (found s (Old n)) with (found s2 (Old n)). apply place_step; auto.
          -- eapply linv_incl; [exact (@linv_expand _ _ _ _ _ _ _ L Hn Hm Ex)|]. intros z B. rewrite !in_app_iff in *. simpl in *. rewrite !in_app_iff in *. tauto.
          -- eapply inv_perm; [|exact I1]. rewrite !app_assoc. symmetry. apply Permutation_middle.
      + injection H as <- <-. apply place_step; auto.
  Qed.

  Theorem inv_end s : completes stretching xstart (Old (root g), None) s -> (forall q, faults s (xlane q) = None) -> inv None s [].
  Proof.
    intros Hc. refine (proj2 (mruns_inv (fun s b => linv None s b /\ ((forall q, faults s (xlane q) = None) -> inv None s b)) _ _ _ Hc)); clear Hc.
    - intros s0 b b' Hp [L I]. split.
      + eapply linv_incl; [exact L|]. intros z B. eapply Permutation_in; [symmetry; exact Hp|exact B].
      + intros H. eapply inv_perm; eauto.
    - intros s0 p b s1 out [L I] H. split; [eapply linv_step; eauto|]. intros Hf.
      apply inv_step with (s := s0) (p := p); auto. apply I.
      intros q. destruct (faults s0 (xlane q)) eqn:E; auto. exfalso. apply (@faults_mono _ _ _ _ (xlane q) H); [congruence|apply Hf].
    - split; [apply linv_start|]. intros _. apply inv_start.
  Qed.

  (** The expander had no errors *)
  Definition calm (s : xdata) : Prop :=
    forall n, In n (marks s) -> (forall i, i < length (es g n) -> snd (expansion n i) = None) \/ exists q, faults s (xlane q) <> None.
  Lemma place_marks s y c f : marks (place s y c f) = marks s.
  Proof.
    unfold Stretch.place. destruct f as [[r cs]|]; auto. destruct y as [n|n i j].
    - destruct (_ =? _); auto. unfold Stretch.overwrite. destruct (deduplicated _ _). auto.
    - destruct c; auto. unfold Stretch.graft. destruct (deduplicated _ _). auto.
  Qed.
  Lemma cull_marks s y n : In n (marks (fst (cull s y))) -> In n (marks s) \/ y = Old n.
  Proof.
    unfold Stretch.cull. destruct (_ || _); auto. destruct y; simpl; auto. intros [->|H]; auto.
  Qed.
  Lemma cull_faults s y : faults (fst (cull s y)) = faults s.
  Proof. unfold Stretch.cull. destruct (_ || _); auto. destruct y; auto. Qed.
  Lemma calm_step s p s' out : calm s -> stretching s p = Some (s', out) -> calm s'.
  Proof.
    intros C H. assert (Old_ones : forall n, In n (marks s) -> (forall i, i < length (es g n) -> snd (expansion n i) = None) \/ exists q, faults s' (xlane q) <> None).
    { intros n B. destruct (C n B) as [D|(q & D)]; auto. right. exists q. eapply faults_mono; eauto. }
    destruct p as [y c]. cbn [Stretch.stretching] in H. destruct (faults s (xlane y)) eqn:Ef.
    - assert (E : fst (cull s y) = s') by (inversion H as [H']; now rewrite H'). intros n B. rewrite <- E in B. apply cull_marks in B as [B|B]; auto.
      right. exists y. rewrite <- E, cull_faults. congruence.
    - destruct (match found s y with Some (r, _) => snode_eqb y r | None => false end); [inversion H; now subst|].
      destruct y as [n|n i j].
      + destruct (expand n _) as [[[[k a] o] d] [e|]] eqn:Ex.
        * match goal with H : (let (s2, o3) := cull ?z ?y in _) = _ |- _ => assert (M := cull_marks z y); assert (F := cull_faults z y); destruct (cull z y) as [s2 o3] end.
          inversion H; subst. cbn [fst] in *. intros m B. destruct (M m B) as [B'|B']; auto.
          right. exists (Old n). rewrite F. cbn [Stretch.fault faults]. rewrite upd_same. discriminate.
        * inversion H; subst. intros m B. rewrite place_marks in B. cbn [marks] in B. destruct B as [<-|B]; auto.
          left. intros i Hi. destruct (expand_spec n (seq_NoDup _ _) Ex) as (_ & _ & _ & _ & _ & _ & _ & _ & _ & E & _).
          apply E. apply in_seq. lia.
      + inversion H; subst. intros m B. rewrite place_marks in B. auto.
  Qed.
  Theorem calm_end s : completes stretching xstart (Old (root g), None) s -> calm s.
  Proof.
    intros Hc. refine (mruns_inv (fun s b => calm s) _ _ _ Hc); clear Hc.
    - auto.
    - intros. eapply calm_step; eauto.
    - intros n [].
  Qed.

  (** *** Termination *)
  Definition cost (n : nat) : nat := 2 * (length (es g n) + list_sum (map (fun i => length (bridges n i)) (seq 0 (length (es g n))))).
  Definition unvisited (m : list nat) (l : list nat) : nat := list_sum (map (fun n => if existsb (Nat.eqb n) m then 0 else cost n) l).
  Lemma unvisited_mono m n l : unvisited (n :: m) l <= unvisited m l.
  Proof.
    unfold unvisited, list_sum. induction l as [|a l IH]; [auto|]. cbn [map fold_right]. cbn [existsb].
    destruct (a =? n), (existsb (Nat.eqb a) m); cbn [orb existsb] in *; lia.
  Qed.
  Lemma unvisited_mark m n l : In n l -> ~ In n m -> unvisited (n :: m) l + cost n <= unvisited m l.
  Proof.
    intros B Hm. induction l as [|a l IH]; [destruct B|]. unfold unvisited, list_sum in *. cbn [map fold_right]. destruct B as [->|B].
    - assert (Q := unvisited_mono m n l). unfold unvisited, list_sum in Q. cbn [existsb]. rewrite Nat.eqb_refl. cbn [orb existsb] in *.
      destruct (existsb (Nat.eqb n) m) eqn:E; [apply existsb_nat in E; contradiction|]. lia.
    - specialize (IH B). cbn [existsb] in *. destruct (a =? n), (existsb (Nat.eqb a) m); cbn [orb existsb] in *; lia.
  Qed.
  Lemma sends_length s l : length (to_successors s l) <= length l.
  Proof.
    induction l as [|e l IH]; [auto|]. 
    assert (E : to_successors s (e :: l) = to_successors s [e] ++ to_successors s l) by (apply (flat_map_app _ [e] l)).
    rewrite E, app_length. assert (length (to_successors s [e]) <= 1); [|simpl in *; lia].
    unfold to_successors. simpl. destruct (remote s e); simpl; [destruct (existsb _ _); simpl|]; lia.
  Qed.
  Lemma expand_length n l : forall k a o d e, expand n l = (k, a, o, d, e) ->
    length k <= length l /\ length a <= list_sum (map (fun i => length (bridges n i)) l) /\ length o <= list_sum (map (fun i => length (bridges n i)) l).
  Proof.
    unfold list_sum. induction l as [|i l IH]; intros k a o d e; cbn [Stretch.expand map fold_right].
    - intros [= <- <- <- <- <-]. auto.
    - assert (Eb : bridges n i = snd (fst (expansion n i))) by reflexivity.
      destruct (expansion n i) as [[dl b] [er|]] eqn:Ex.
      + intros [= <- <- <- <- <-]. split; [simpl; rewrite map_length; lia|split; apply Nat.le_0_l].
      + destruct (expand n l) as [[[[k' a'] o'] d'] e'] eqn:El. intros [= <- <- <- <- <-].
        destruct (IH _ _ _ _ _ eq_refl) as (A & B & C). rewrite !app_length, !map_length, rev_length, seq_length, Eb. cbn [fst snd length].
        cbn [fst snd] in *. split; [destruct dl; simpl; lia|]. rewrite Nat.add_comm. split; [apply Nat.add_le_mono_l with (p := length b) in B; exact B|].
        apply Nat.add_le_mono_l with (p := length b) in C. exact C.
  Qed.

  Lemma stretching_decreases s p b s' out : linv None s (p :: b) -> stretching s p = Some (s', out) ->
    length out + unvisited (marks s') (ids g) < S (unvisited (marks s) (ids g)).
  Proof.
    intros L H. destruct p as [y c]. cbn [Stretch.stretching] in H.
    destruct (faults s (xlane y)) as [e0|] eqn:Ef.
    - assert (E1 : s' = fst (cull s y)) by (inversion H as [E]; now rewrite E). assert (E2 : out = snd (cull s y)) by (inversion H as [E]; now rewrite E).
      subst s' out. clear H. unfold Stretch.cull. destruct (_ || _); [simpl; lia|]. destruct y as [n|n i j]; [|simpl; lia].
      destruct (existsb (Nat.eqb n) (marks s)) eqn:Em.
      + cbn [fst snd retire marks length]. assert (Q := unvisited_mono (marks s) n (ids g)). lia.
      + assert (Hm : ~ In n (marks s)) by (intros B; apply existsb_nat in B; congruence).
        assert (Hn : In n (ids g)) by (apply (l_pold L n c); now left).
        cbn [fst snd retire marks]. assert (Q := unvisited_mark _ _ _ Hn Hm).
        assert (Q' := sends_length s (outs s (Old n))). rewrite (@l_unmarked _ _ _ L n Hm) in Q' by discriminate. rewrite (@l_unmarked _ _ _ L n Hm) by discriminate.
        unfold Stretch.edges_of in *. rewrite map_length, seq_length in Q'. unfold cost in Q. lia.
    - destruct (match found s y with Some (r, _) => snode_eqb y r | None => false end) eqn:Es; [inversion H; simpl; lia|].
      assert (Hna := @not_found_self _ _ _ y L Es). destruct y as [n|n i j].
      2:{ inversion H. rewrite place_marks. simpl. lia. }
      assert (Hn : In n (ids g)) by (apply (l_pold L n c); now left).
      assert (Hr : ~ In (Old n) (retired s)) by (intros B; apply (l_retired L) in B; congruence).
      assert (Hm : ~ In n (marks s)).
      { intros B. destruct (l_marked L n B) as [_ [B1|[B1|B1]]]; [contradiction|contradiction|discriminate]. }
      assert (Q := unvisited_mark _ _ _ Hn Hm). assert (Q' := sends_length s (outs s (Old n))).
      rewrite (@l_unmarked _ _ _ L n Hm) in * by discriminate. unfold Stretch.edges_of in *. rewrite map_length, seq_length in Q'.
      destruct (expand n _) as [[[[k a0] o] d] e] eqn:Ex. destruct (expand_length _ _ Ex) as (K & A & O). rewrite seq_length in K.
      unfold cost in Q. destruct e as [e|].
      + unfold Stretch.cull in H.
        assert (Ei : Stretch.is_stored X g P x vhash s (Old n) = false).
        { destruct (is_stored X g P x vhash s (Old n)) eqn:E; auto. unfold is_stored in E. apply existsb_exists in E as ((r & cs) & B & E). apply snode_eqb_eq in E. simpl in E. subst r.
          destruct Hna. now exists cs. }
        match type of H with context [is_stored X g P x vhash ?z ?y] => change (is_stored X g P x vhash z y) with (is_stored X g P x vhash s y) in H end.
        rewrite Ei in H. cbn [orb] in H. cbn [Stretch.fault retired marks] in H.
        destruct (existsb (snode_eqb (Old n)) (retired s)) eqn:Er.
        { exfalso. apply existsb_exists in Er as (r & B & E). apply snode_eqb_eq in E. subst r. contradiction. }
        destruct (existsb (Nat.eqb n) (marks s)) eqn:Em; [apply existsb_nat in Em; contradiction|].
        injection H as <- <-. cbn [retire marks]. rewrite !app_length.
        match goal with |- context [unvisited (n :: marks ?z)] => change (marks z) with (marks s); generalize z; intros z1 end.
        rewrite updn_same. assert (Q2 := sends_length z1 (k ++ a0)). rewrite app_length in Q2.
        lia.
      + injection H as <- <-. rewrite place_marks. cbn [marks]. rewrite !app_length. lia.
  Qed.

  Theorem stretching_terminates : terminates stretching (xstart, [(Old (root g), None)]).
  Proof.
    apply measure_inv_terminates with (I := linv None) (m := fun s b => length b + unvisited (marks s) (ids g)).
    - intros s b b' H. now rewrite (Permutation_length H).
    - intros s b b' H I. eapply linv_incl; [exact I|]. intros z B. eapply Permutation_in; [symmetry; exact H|exact B].
    - intros s p b s' out I H. split; [eapply linv_step; eauto|]. assert (Q := stretching_decreases I H). rewrite app_length. simpl. lia.
    - apply linv_start.
  Qed.

  (** *** When it is over *)
  Section End.
    Variable s : xdata.
    Hypothesis Hl : 0 < lanes X.
    Hypothesis L : linv None s [].

    Lemma receivers_alive y : In y (receivers X s) <-> alive s y.
    Proof.
      unfold receivers. rewrite in_flat_map. split.
      - intros (l & _ & H). apply in_flat_map in H as (c & B & H). apply in_map_iff in H as ([y' cs] & E & H). simpl in E. subst y'.
        assert (C : In (y, cs) (contents (stored s l))) by (apply in_flat_map; eauto).
        apply contents_in in C as (k & C); [|apply (t_keys (l_tab L))].
        destruct (t_cells (l_tab L) _ _ _ C) as [E1 E2]. cbn [fst] in E1, E2. subst. exists cs. exact C.
      - intros (cs & H). exists (xlane y). split.
        + apply in_seq. split; [lia|]. simpl. now apply lane_of_lt.
        + assert (C : In (y, cs) (contents (stored s (xlane y)))) by (apply contents_in; [apply (t_keys (l_tab L))|eauto]).
          apply in_flat_map in C as (c & B & C). apply in_flat_map. exists c. split; auto. apply in_map_iff. exists (y, cs). auto.
    Qed.
    Lemma alive_unique y z : alive s y -> alive s z -> alike y z -> y = z.
    Proof. intros (cs & H) (cs' & H') A. now destruct (@holds_unique _ _ _ _ _ (l_tab L) H H' A). Qed.
    Lemma alive_old n : alive s (Old n) -> In n (ids g).
    Proof. intros (cs & H). now apply (l_entry L) in H. Qed.
    Lemma code_unique y z : alive s y -> alive s z -> code y = code z -> y = z.
    Proof.
      intros Hy Hz. destruct y as [n|n i j], z as [m|m i' j']; simpl; intros E.
      - congruence.
      - exfalso. apply (Hu m i' j'). rewrite <- E. now apply alive_old.
      - exfalso. apply (Hu n i j). rewrite E. now apply alive_old.
      - apply Ha in E. congruence.
    Qed.
    Lemma node_at_some k y : node_at X addr s k = Some y <-> alive s y /\ code y = k.
    Proof.
      unfold node_at. split.
      - intros H. apply find_some in H as [H1 H2]. apply receivers_alive in H1. apply Nat.eqb_eq in H2. auto.
      - intros [H <-]. destruct (find (fun z => code z =? code y) (receivers X s)) as [z|] eqn:E.
        + apply find_some in E as [E1 E2]. apply receivers_alive in E1. apply Nat.eqb_eq in E2. f_equal. now apply code_unique.
        + apply receivers_alive in H. apply (find_none _ _ E) in H. rewrite Nat.eqb_refl in H. discriminate.
    Qed.
    Lemma growing_new : growing X s = true <-> exists n i j, alive s (New n i j).
    Proof.
      unfold growing. rewrite existsb_exists. split.
      - intros (l & _ & H). rewrite (l_changed L) in H.
        destruct (filter (fun c => is_new (fst c)) (contents (stored s l))) as [|[y cs] t] eqn:E; [discriminate|].
        assert (B : In (y, cs) (filter (fun c => is_new (fst c)) (contents (stored s l)))) by (rewrite E; now left).
        apply filter_In in B as [B N]. apply contents_in in B as (k & C); [|apply (t_keys (l_tab L))].
        destruct (t_cells (l_tab L) _ _ _ C) as [E1 E2]. cbn [fst] in *. subst l k. destruct y as [n|n i j]; [discriminate|].
        exists n, i, j, cs. exact C.
      - intros (n & i & j & cs & H). exists (xlane (New n i j)). split; [apply in_seq; split; [lia|]; simpl; now apply lane_of_lt|].
        rewrite (l_changed L).
        assert (B : In (New n i j, cs) (filter (fun c => is_new (fst c)) (contents (stored s (xlane (New n i j)))))).
        { apply filter_In. split; auto. apply contents_in; [apply (t_keys (l_tab L))|]. eexists. exact H. }
        destruct (filter _ _); [destruct B|reflexivity].
    Qed.

    Hypothesis I : inv None s [].

    Lemma all_marked n : In n (ids g) -> In n (marks s).
    Proof.
      intros H. apply along_ids in H; auto. induction H as [|n l m A IH B].
      - destruct (i_root I) as [H|(c & [])]. exact H.
      - destruct (i_succ I n l m IH B) as [H|(c & [])]. exact H.
    Qed.
    Lemma old_alive n : In n (ids g) -> alive s (Old n).
    Proof. intros H. destruct (i_alive I n (all_marked _ H)) as [A|A]; auto. discriminate. Qed.
    Lemma created_all n i j : created s n i j <-> in_range n i /\ j < length (bridges n i).
    Proof.
      split.
      - intros C. split; [eapply created_range; eauto|apply C].
      - intros [[H1 H2] H3]. split; auto. now apply all_marked.
    Qed.
    Lemma ante_end n i j : created s n i j ->
      alike (New n i j) (remote s (Ante n i j)) /\ alive s (remote s (Ante n i j)) /\
      represented s (Post n i j) (outs s (remote s (Ante n i j))).
    Proof.
      intros C. destruct (i_ante I n i j) as [(_ & _ & _ & F)|(_ & A & (cs & B & _) & R)]; [destruct (F C)|].
      split; auto. split; auto. now exists cs.
    Qed.
    Lemma new_alive n i j : alive s (New n i j) -> created s n i j /\ remote s (Ante n i j) = New n i j.
    Proof.
      intros H. destruct (i_ante I n i j) as [(_ & F & _)|(C & A & (cs & B & _) & R)]; [contradiction|].
      split; auto. apply alive_unique; auto; [now exists cs|]. now apply alike_sym.
    Qed.
    Lemma remote_alive r e : alive s r -> In e (outs s r) -> alive s (remote s e).
    Proof.
      intros H B. assert (S := @i_outs _ _ _ I r e (or_introl H) B). destruct e as [n i|n i j|n i j]; simpl in S.
      - rewrite (l_given L). apply old_alive, target_in. destruct S as (-> & S & _). split; auto. now apply alive_old.
      - now apply ante_end.
      - rewrite (l_post L). apply old_alive, target_in. destruct S as (S & _). apply created_all in S. apply S.
    Qed.
    (** No new vertex is equal to one of the given *)
    Lemma new_unequal n i j m : alive s (New n i j) -> In m (ids g) -> ~ alike (New n i j) (Old m).
    Proof. intros H Hm A. apply alive_unique in A; auto; [discriminate|]. now apply old_alive. Qed.
  End End.
End Proofs.
