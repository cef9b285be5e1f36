(** Postponement: claims C30, C50 and C69, and kill requests. *)
From Coq Require Import List Arith NArith Lia Bool Permutation.
From Verif Require Import Base Machine Ports PortsProofs PortsTerm PortsExec P_Ports BrigadeProofs Env Hash Graph Visitor VisitorProofs Walk Run Pass Fold P_Fold
  Traverse TraverseProofs P_Traverse Fabricate Containers P_Containers Brigade P_Brigade Partition P_Partition Filter P_Filter P_Killed MergeProofs P_Merge
  Compose P_Compose Postpone.
Import ListNotations.

Set Implicit Arguments.

Local Opaque lane_of node_hash.

(** ** The specification *)
Section Spec.
  Variable c : postponer.
  Variable eeq : word -> word -> bool.

  Section Edges.
    Variable N : list nat.
    Variable v : nat -> word.
    Variable E : nat -> list edge.

    (** Edges that originate and terminate at the same vertex are ignored. *)
    Definition movable (n : nat) (e : edge) : Prop :=
      In e (E n) /\ snd e <> n /\ fst (postponable c (v n) (fst e) (v (snd e))) = true.
    Definition stationary (n : nat) (e : edge) : Prop :=
      In e (E n) /\ snd e <> n /\ fst (postponable c (v n) (fst e) (v (snd e))) = false.

    (** A postponable edge and a sibling to whose terminus it should be moved *)
    Definition paired (n : nat) (e e' : edge) : Prop :=
      movable n e /\ stationary n e' /\ fst (bpred c (fst e) (fst e')) = true.
    Definition moved (n : nat) (e : edge) : Prop := exists e', paired n e e'.

    (** An edge that should originate from [k] on that account *)
    Definition transplanted (k : nat) (e : edge) : Prop :=
      exists n x y, In n N /\ paired n x y /\ snd y = k /\ e = (fst (bop c (fst x) (fst y)), snd x).

    (** The user's functions report the error [e] in connection with the edges of [n], of which there are
        at least two. *)
    Definition reporting (n : nat) (e : error) : Prop :=
      1 < length (E n) /\ exists x, In x (E n) /\ snd x <> n /\
        (snd (postponable c (v n) (fst x) (v (snd x))) = Some e \/
         exists y, movable n x /\ stationary n y /\
           (snd (bpred c (fst x) (fst y)) = Some e \/
            fst (bpred c (fst x) (fst y)) = true /\ snd (bop c (fst x) (fst y)) = Some e)).

    (** The edges [E' k] are those which should originate from [k] *)
    Record relocated (E' : nat -> list edge) (k : nat) : Prop := {
      rl_only : forall e, In e (E' k) -> In e (E k) /\ ~ moved k e \/ transplanted k e;
      rl_kept : forall e, In e (E k) -> ~ moved k e -> exists e', In e' (E' k) /\ similar eeq e e';
      rl_new : forall e, transplanted k e -> exists e', In e' (E' k) /\ similar eeq e e';
      (* nothing but what is moved is removed if there is nothing to be added, *)
      rl_rest : (forall e, ~ transplanted k e) -> exists l, Permutation (E' k ++ l) (E k) /\ forall e, In e l -> moved k e;
      (* and if there is, no edge is repeated *)
      rl_unique : (exists e, transplanted k e) -> unrepeated eeq (E' k)
    }.
  End Edges.

  (** One pass over the graph [g] *)
  Definition relocation (g h : graph word word) : Prop :=
    wf h /\ root h = root g /\ (forall n, vx h n = vx g n) /\ ids h = ids g /\
    (forall n e, In n (ids g) -> ~ reporting (vx g) (es g) n e) /\
    forall n, In n (ids g) -> relocated (ids g) (vx g) (es g) (es h) n.

  Inductive relocations : nat -> graph word word -> graph word word -> Prop :=
  | relocations_one g h : relocation g h -> relocations 1 g h
  | relocations_more k g f h : relocation g f -> relocations k f h -> relocations (S k) g h.
End Spec.

(** ** Lemmas about one node *)
Section Node.
  Variable c : postponer.
  Variable v : nat -> word.
  Variable o : edges.

  Definition self_of (n : nat) (e : edge) : bool := snd e =? n.
  Definition mov_of (n : nat) (e : edge) : bool :=
    negb (snd e =? n) && fst (postponable c (v n) (fst e) (v (snd e))).
  Definition stat_of (n : nat) (e : edge) : bool :=
    negb (snd e =? n) && negb (fst (postponable c (v n) (fst e) (v (snd e)))).

  Lemma bipartition_ok n l : forall self stat mov s t m, bipartition c v n l self stat mov = (s, t, m, None) ->
    s = self ++ filter (self_of n) l /\ t = rev (filter (stat_of n) l) ++ stat /\ m = rev (filter (mov_of n) l) ++ mov /\
    forall e, In e l -> snd e <> n -> snd (postponable c (v n) (fst e) (v (snd e))) = None.
  Proof.
    unfold self_of, stat_of, mov_of.
    induction l as [|[x k] l IH]; simpl; intros self stat mov s t m H.
    - injection H as <- <- <-. rewrite app_nil_r. split; [auto|split; [auto|split; [auto|intros ? []]]].
    - destruct (Nat.eqb_spec k n) as [->|Hk]; simpl.
      + apply IH in H as (-> & -> & -> & H). rewrite <- app_assoc. split; [auto|split; [auto|split; [auto|]]].
        intros e [<-|B]; [simpl; congruence|auto].
      + destruct (postponable c (v n) x (v k)) as [[|] [e|]] eqn:Ep; try discriminate; simpl;
          apply IH in H as (-> & -> & -> & H); rewrite <- ?app_assoc; simpl;
          (split; [auto|split; [auto|split; [auto|]]]; intros e [<-|B]; [simpl; now rewrite Ep|auto]).
  Qed.
  Lemma bipartition_err n l : forall self stat mov s t m e, bipartition c v n l self stat mov = (s, t, m, Some e) ->
    exists x, In x l /\ snd x <> n /\ snd (postponable c (v n) (fst x) (v (snd x))) = Some e.
  Proof.
    induction l as [|[x k] l IH]; simpl; intros self stat mov s t m e H; [discriminate|].
    destruct (Nat.eqb_spec k n) as [->|Hk].
    - apply IH in H as (y & B). exists y. intuition.
    - destruct (postponable c (v n) x (v k)) as [b [e'|]] eqn:Ep.
      + assert (e' = e) by (destruct b; congruence). subst. exists (x, k). simpl. rewrite Ep. auto.
      + destruct b; apply IH in H as (y & B); exists y; intuition.
  Qed.

  Lemma postponed_ok x m stat : forall r, postponed c x m stat = (r, None) ->
    (forall k e, In (k, e) r <-> exists y, In y stat /\ k = snd y /\ fst (bpred c x (fst y)) = true /\ e = (fst (bop c x (fst y)), m)) /\
    (forall y, In y stat -> snd (bpred c x (fst y)) = None /\ (fst (bpred c x (fst y)) = true -> snd (bop c x (fst y)) = None)).
  Proof.
    induction stat as [|[y k0] stat IH]; simpl; intros r H.
    - injection H as <-. split; [|intros ? []]. intros k e. split; [intros []|intros (? & [] & _)].
    - destruct (bpred c x y) as [[|] [e0|]] eqn:Ep; try discriminate.
      + destruct (bop c x y) as [t [e0|]] eqn:Eo; [discriminate|].
        destruct (postponed c x m stat) as [r0 e1] eqn:Er. injection H as <- ->.
        destruct (IH _ eq_refl) as [I1 I2]. split.
        * intros k e. simpl. rewrite I1. split.
          -- intros [[= <- <-]|(z & B1 & B2)]; [exists (y, k0); simpl; rewrite Ep, Eo; auto|exists z; auto].
          -- intros (z & [<-|B1] & -> & B2 & ->); [left; simpl; now rewrite Eo|right; exists z; auto].
        * intros z [<-|B]; [simpl; rewrite Ep, Eo; auto|auto].
      + destruct (IH _ H) as [I1 I2]. split.
        * intros k e. rewrite I1. split; intros (z & B1 & B2).
          -- exists z; auto.
          -- destruct B1 as [<-|B1]; [simpl in B2; rewrite Ep in B2; destruct B2 as (_ & B2 & _); discriminate|exists z; auto].
        * intros z [<-|B]; [simpl; rewrite Ep; split; [auto|discriminate]|auto].
  Qed.
  Lemma postponed_err x m stat : forall r e, postponed c x m stat = (r, Some e) ->
    exists y, In y stat /\ (snd (bpred c x (fst y)) = Some e \/ fst (bpred c x (fst y)) = true /\ snd (bop c x (fst y)) = Some e).
  Proof.
    induction stat as [|[y k0] stat IH]; simpl; intros r e H; [discriminate|].
    destruct (bpred c x y) as [b [e0|]] eqn:Ep.
    - assert (e0 = e) by (destruct b; congruence). subst. exists (y, k0). simpl. rewrite Ep. auto.
    - destruct b.
      + destruct (bop c x y) as [t [e0|]] eqn:Eo.
        * injection H as <- <-. exists (y, k0). simpl. rewrite Ep, Eo. auto.
        * destruct (postponed c x m stat) as [r0 e1] eqn:Er. injection H as <- ->.
          destruct (IH _ _ eq_refl) as (z & B). exists z. intuition.
      + destruct (IH _ _ H) as (z & B). exists z. intuition.
  Qed.

  Definition goes (stat : list edge) (x : edge) : Prop := exists y, In y stat /\ fst (bpred c (fst x) (fst y)) = true.

  Lemma relocate_ok stat mov : forall out l r, relocate c stat mov out = (l, r, None) ->
    (exists kept gone, Permutation l (kept ++ out) /\ Permutation (kept ++ gone) mov /\
       (forall x, In x kept -> ~ goes stat x) /\ (forall x, In x gone -> goes stat x)) /\
    (forall k e, In (k, e) r <-> exists x y, In x mov /\ In y stat /\ k = snd y /\ fst (bpred c (fst x) (fst y)) = true /\
                                 e = (fst (bop c (fst x) (fst y)), snd x)) /\
    (forall x y, In x mov -> In y stat -> snd (bpred c (fst x) (fst y)) = None /\
                 (fst (bpred c (fst x) (fst y)) = true -> snd (bop c (fst x) (fst y)) = None)).
  Proof.
    induction mov as [|[x m] mov IH]; simpl; intros out l r H.
    - injection H as <- <-. split; [|split].
      + exists [], []. simpl. split; [reflexivity|]. split; [constructor|]. split; intros ? [].
      + intros k e. split; [intros []|intros (? & ? & [] & _)].
      + intros ? ? [].
    - destruct (postponed c x m stat) as [r1 [e1|]] eqn:E1; [destruct r1; discriminate|].
      destruct (postponed_ok _ _ _ E1) as [O1 O2]. destruct r1 as [|q r1].
      + destruct (IH _ _ _ H) as ((kept & gone & P1 & P2 & P3 & P4) & I2 & I3).
        assert (NG : ~ goes stat (x, m)).
        { intros (y & B1 & B2). assert (In (snd y, (fst (bop c x (fst y)), m)) []) by (apply O1; exists y; auto). auto. }
        split; [|split].
        * exists ((x, m) :: kept), gone. split; [rewrite P1; simpl; symmetry; apply Permutation_middle|].
          split; [simpl; now constructor|]. split; auto. intros z [<-|B]; auto.
        * intros k e. rewrite I2. split; intros (a & y & B1 & B2).
          -- exists a, y. auto.
          -- destruct B1 as [<-|B1]; [|exists a, y; auto]. exfalso. apply NG. exists y. destruct B2 as (B2 & _ & B3 & _). auto.
        * intros a y [<-|B1] B2; [|auto]. simpl. auto.
      + destruct (relocate c stat mov out) as [[l2 r2] e2] eqn:E2. injection H as <- <- ->.
        destruct (IH _ _ _ E2) as ((kept & gone & P1 & P2 & P3 & P4) & I2 & I3). split; [|split].
        * exists kept, ((x, m) :: gone). split; auto. split; [rewrite <- Permutation_middle; now constructor|].
          split; auto. intros z [<-|B]; [|auto]. destruct q as [k e]. destruct (proj1 (O1 k e)) as (y & B1 & _ & B2 & _); [now left|].
          exists y. auto.
        * intros k e. rewrite (app_comm_cons r1 r2 q), in_app_iff, I2, O1. split.
          -- intros [(y & B1 & B2 & B3 & B4)|(a & y & B1 & B2)]; [exists (x, m), y; auto|exists a, y; auto].
          -- intros (a & y & [<-|B1] & B2 & B3); [left; exists y; auto|right; exists a, y; auto].
        * intros a y [<-|B1] B2; [|auto]. simpl. auto.
  Qed.
  Lemma relocate_err stat mov : forall out l r e, relocate c stat mov out = (l, r, Some e) ->
    exists x y, In x mov /\ In y stat /\
      (snd (bpred c (fst x) (fst y)) = Some e \/ fst (bpred c (fst x) (fst y)) = true /\ snd (bop c (fst x) (fst y)) = Some e).
  Proof.
    induction mov as [|[x m] mov IH]; simpl; intros out l r e H; [discriminate|].
    destruct (postponed c x m stat) as [r1 [e1|]] eqn:E1.
    - assert (e1 = e) by (destruct r1; congruence). subst. destruct (postponed_err _ _ _ E1) as (y & B1 & B2).
      exists (x, m), y. auto.
    - destruct r1 as [|q r1].
      + destruct (IH _ _ _ _ H) as (a & y & B1 & B2). exists a, y. auto.
      + destruct (relocate c stat mov out) as [[l2 r2] e2] eqn:E2. injection H as <- <- ->.
        destruct (IH _ _ _ _ E2) as (a & y & B1 & B2). exists a, y. auto.
  Qed.

  Definition kept_at (n : nat) : list edge := fst (fst (postpone c v n (o n))).
  Definition sent_by (n : nat) : list (nat * edge) := snd (fst (postpone c v n (o n))).

  Lemma split3 n (l : list edge) :
    Permutation (filter (self_of n) l ++ filter (mov_of n) l ++ filter (stat_of n) l) l.
  Proof.
    unfold self_of, mov_of, stat_of. induction l as [|[x m] l IH]; [constructor|].
    cbn [filter fst snd]. destruct (m =? n); cbn [negb andb].
    - simpl. now constructor.
    - destruct (fst (postponable c (v n) x (v m))); cbn [negb andb].
      + etransitivity; [symmetry; apply Permutation_middle|now constructor].
      + rewrite app_assoc. etransitivity; [symmetry; apply Permutation_middle|]. rewrite <- app_assoc. now constructor.
  Qed.
  Lemma mov_spec n e : In e (filter (mov_of n) (o n)) <-> movable c v o n e.
  Proof.
    rewrite filter_In. unfold mov_of, movable. rewrite andb_true_iff, negb_true_iff, Nat.eqb_neq. tauto.
  Qed.
  Lemma stat_spec n e : In e (filter (stat_of n) (o n)) <-> stationary c v o n e.
  Proof.
    rewrite filter_In. unfold stat_of, stationary. rewrite andb_true_iff, !negb_true_iff, Nat.eqb_neq. tauto.
  Qed.

  Lemma goes_moved n e : movable c v o n e -> (goes (rev (filter (stat_of n) (o n))) e <-> moved c v o n e).
  Proof.
    intros Hm. split.
    - intros (y & B1 & B2). apply in_rev in B1. apply stat_spec in B1. exists y. split; auto.
    - intros (y & _ & B1 & B2). exists y. split; auto. apply -> in_rev. now apply stat_spec.
  Qed.

  Lemma unmovable_unmoved n e : ~ movable c v o n e -> ~ moved c v o n e.
  Proof. intros H (y & B & _). auto. Qed.

  (** What happens to the edges of one node *)
  Lemma postpone_ok n : snd (postpone c v n (o n)) = None ->
    (exists gone, Permutation (kept_at n ++ gone) (o n) /\ (forall e, In e (kept_at n) -> ~ moved c v o n e) /\
                  (forall e, In e gone -> moved c v o n e)) /\
    (forall k e, In (k, e) (sent_by n) <->
       exists x y, paired c v o n x y /\ k = snd y /\ e = (fst (bop c (fst x) (fst y)), snd x)).
  Proof.
    unfold kept_at, sent_by, postpone. destruct (Nat.leb_spec (length (o n)) 1) as [Hs|Hs]; simpl.
    - intros _.
      assert (NP : forall x y, ~ paired c v o n x y).
      { intros x y ((B1 & _ & B2) & (B3 & _ & B4) & _). destruct (o n) as [|a [|b l]]; simpl in *; try lia; auto.
        destruct B1 as [<-|[]]. destruct B3 as [<-|[]]. congruence. }
      split.
      + exists []. rewrite app_nil_r. split; [reflexivity|]. split; [|intros ? []].
        intros e _ (y & B). exact (NP _ _ B).
      + intros k e. split; [intros []|intros (x & y & B & _); exact (NP _ _ B)].
    - destruct (bipartition c v n (o n) [] [] []) as [[[s t] m] [e0|]] eqn:Eb; [destruct t; discriminate|].
      apply bipartition_ok in Eb as (-> & -> & -> & Ne). rewrite !app_nil_r, app_nil_l.
      pose proof (split3 n (o n)) as P3.
      destruct (rev (filter (stat_of n) (o n))) as [|z t] eqn:Et.
      + intros _. assert (NP : forall x y, ~ paired c v o n x y).
        { intros x y (_ & B & _). apply stat_spec in B. apply in_rev in B. rewrite Et in B. destruct B. }
        assert (Es : filter (stat_of n) (o n) = []) by (rewrite <- (rev_involutive (filter _ _)), Et; reflexivity).
        rewrite Es, app_nil_r in P3. simpl. split.
        * exists []. rewrite app_nil_r. split; [etransitivity; [|exact P3]; apply Permutation_app_head; symmetry; apply Permutation_rev|].
          split; [|intros ? []]. intros e _ (y & B). exact (NP _ _ B).
        * intros k e. split; [intros []|intros (x & y & B & _); exact (NP _ _ B)].
      + rewrite <- Et. destruct (relocate c (rev (filter (stat_of n) (o n))) (rev (filter (mov_of n) (o n))) (filter (self_of n) (o n)))
          as [[l r] [e0|]] eqn:Er; [discriminate|]. intros _. simpl.
        destruct (relocate_ok _ _ _ Er) as ((kept & gone & P1 & P2 & K1 & K2) & R2 & _). split.
        * exists gone. split; [|split].
          -- etransitivity; [|exact P3]. rewrite (Permutation_rev (filter (mov_of n) (o n))), <- P2, P1.
             rewrite <- (Permutation_rev (filter (stat_of n) (o n))). perm_solve.
          -- assert (Pk : forall e, In e kept -> movable c v o n e).
             { intros e B. apply mov_spec, in_rev. apply (Permutation_in _ P2). apply in_app_iff. auto. }
             intros e B. apply in_app_iff in B as [B|B].
             ++ apply (Permutation_in _ P1) in B. apply in_app_iff in B as [B|B].
                ** rewrite <- goes_moved by auto. auto.
                ** apply unmovable_unmoved. intros (_ & B1 & _). apply filter_In in B as [_ B]. unfold self_of in B.
                   apply Nat.eqb_eq in B. auto.
             ++ apply unmovable_unmoved. intros (_ & _ & B1). apply in_rev in B. apply stat_spec in B as (_ & _ & B). congruence.
          -- intros e B. apply goes_moved; auto. apply mov_spec, in_rev. apply (Permutation_in _ P2). apply in_app_iff. auto.
        * intros k e. rewrite R2. split.
          -- intros (x & y & B1 & B2 & B3 & B4 & B5). exists x, y. split; auto. split; [apply mov_spec; now apply in_rev|].
             split; auto. apply stat_spec. now apply in_rev.
          -- intros (x & y & (B1 & B2 & B3) & B4 & B5). exists x, y.
             split; [apply -> in_rev; now apply mov_spec|]. split; [apply -> in_rev; now apply stat_spec|]. auto.
  Qed.

  Lemma postpone_quiet n e : snd (postpone c v n (o n)) = None -> ~ reporting c v o n e.
  Proof.
    unfold postpone. intros H [Hs Rx]. revert Rx. destruct (Nat.leb_spec (length (o n)) 1) as [Hs'|_]; [lia|].
    destruct (bipartition c v n (o n) [] [] []) as [[[s t] m] [e0|]] eqn:Eb; [destruct t; discriminate|].
    apply bipartition_ok in Eb as (-> & -> & -> & Ne). rewrite !app_nil_r, app_nil_l in H.
    intros (x & B1 & B2 & [B3|(y & B3 & B4 & B5)]).
    - rewrite (Ne x B1 B2) in B3. discriminate.
    - apply mov_spec, in_rev in B3. apply stat_spec, in_rev in B4.
      destruct (rev (filter (stat_of n) (o n))) as [|z t] eqn:Et; [destruct B4|]. rewrite <- Et in *.
      destruct (relocate c (rev (filter (stat_of n) (o n))) (rev (filter (mov_of n) (o n))) (filter (self_of n) (o n)))
          as [[l r] [e0|]] eqn:Er; [discriminate|].
      destruct (relocate_ok _ _ _ Er) as (_ & _ & R3). destruct (R3 x y B3 B4) as [R4 R5].
      destruct B5 as [B5|[B5 B6]]; [congruence|]. rewrite R5 in B6 by auto. discriminate.
  Qed.

  Lemma postpone_err n e : snd (postpone c v n (o n)) = Some e -> reporting c v o n e.
  Proof.
    unfold postpone. destruct (Nat.leb_spec (length (o n)) 1) as [|Hs]; [discriminate|]. intros H. split; [auto|]. revert H.
    destruct (bipartition c v n (o n) [] [] []) as [[[s t] m] [e0|]] eqn:Eb.
    - intros H. assert (e0 = e) by (destruct t; simpl in H; congruence). subst e0. apply bipartition_err in Eb as (x & B1 & B2 & B3). exists x. auto.
    - apply bipartition_ok in Eb as (-> & -> & -> & Ne). rewrite !app_nil_r, app_nil_l.
      destruct (rev (filter (stat_of n) (o n))) as [|z t] eqn:Et; [discriminate|]. rewrite <- Et.
      destruct (relocate c (rev (filter (stat_of n) (o n))) (rev (filter (mov_of n) (o n))) (filter (self_of n) (o n)))
          as [[l r] [e0|]] eqn:Er; [|discriminate]. intros [= ->].
      destruct (relocate_err _ _ _ Er) as (x & y & B1 & B2 & B3). apply in_rev in B1, B2.
      apply mov_spec in B1. apply stat_spec in B2. exists x. pose proof B1 as (C1 & C2 & C3). split; auto. split; auto. right.
      exists y. auto.
  Qed.
End Node.

(** ** The postponing pass *)
Section Postponing.
  Variable X Y : env.
  Variable c : postponer.
  Variable v : nat -> word.
  Variables o post : edges.
  Variable r : nat.
  Hypothesis Hl : 0 < lanes X.
  Hypothesis Hk : forall k, killcalls Y k = false.

  Definition lane (n : nat) : nat := lane_of (lanes X) (node_hash n).
  Lemma lane_lt n : lane n < lanes X.
  Proof. now apply lane_of_lt. Qed.

  Definition pending (b : list ppkt) : list (nat * edge) :=
    flat_map (fun p => match p with Attach n e => [(n, e)] | _ => [] end) b.
  Definition collected (log : list (nat * edge)) (k : nat) : list edge :=
    map snd (filter (fun q => fst q =? k) log).

  Record pinv (s : pst) (b : list ppkt) (vis : list nat) (log : list (nat * edge)) : Prop := {
    pi_nd : NoDup vis;
    pi_seen : forall n, In n vis <-> In n (pseen s (lane n));
    pi_kil : pkilled s = false /\ forall l, pkil s l = false;
    pi_out : forall n, pout s n = if existsb (Nat.eqb n) vis then kept_at c v o n else o n;
    pi_err : forall l e, perr s l = Some e -> exists n, In n vis /\ lane n = l /\ snd (postpone c v n (o n)) = Some e;
    pi_noerr : forall n, In n vis -> perr s (lane n) = None -> snd (postpone c v n (o n)) = None;
    pi_vis : forall n, In n vis -> along o r n;
    pi_bag : forall n, In (Visit n) b -> along o r n;
    pi_root : (forall l, perr s l = None) -> In r vis \/ In (Visit r) b;
    pi_closed : (forall l, perr s l = None) -> forall n l m, In n vis -> In (l, m) (o n) -> In m vis \/ In (Visit m) b;
    pi_sent : Permutation (flat_map (sent_by c v o) vis) (log ++ pending b);
    pi_post : forall k, ppost s k = collected log k ++ post k
  }.

  Lemma pending_app b b' : pending (b ++ b') = pending b ++ pending b'.
  Proof. unfold pending. now rewrite flat_map_app. Qed.
  Lemma pending_perm b b' : Permutation b b' -> Permutation (pending b) (pending b').
  Proof. intros P. unfold pending. now apply Permutation_flat_map. Qed.
  Lemma pending_visits {A} (f : A -> nat) l : pending (map (fun x => Visit (f x)) l) = [].
  Proof. induction l; simpl; auto. Qed.
  Lemma pending_attaches l : pending (map (fun q => Attach (fst q) (snd q)) l) = l.
  Proof. induction l as [|[n e] l IH]; simpl; auto. now rewrite IH. Qed.
  Lemma bag_visits {A} (f : A -> nat) l n : In (Visit n) (map (fun x => Visit (f x)) l) <-> exists x, In x l /\ f x = n.
  Proof.
    rewrite in_map_iff. split; intros (x & B1 & B2); exists x; [now injection B1 as ->|now subst].
  Qed.
  Lemma bag_attaches l n : ~ In (Visit n) (map (fun q : nat * edge => Attach (fst q) (snd q)) l).
  Proof. rewrite in_map_iff. intros (x & B & _). discriminate. Qed.

  Lemma existsb_eqb n l : existsb (Nat.eqb n) l = true <-> In n l.
  Proof.
    rewrite existsb_exists. split.
    - intros (x & B1 & B2). apply Nat.eqb_eq in B2. now subst.
    - intros B. exists n. split; auto. apply Nat.eqb_refl.
  Qed.

  Lemma pinv_perm s b b' vis log : Permutation b b' -> pinv s b vis log -> pinv s b' vis log.
  Proof.
    intros P [I1 I2 I3 I4 I5 I6 I7 I8 I9 I10 I11 I12].
    assert (PI : forall p, In p b <-> In p b').
    { intros p. split; apply Permutation_in; [auto|now symmetry]. }
    constructor; auto.
    - intros n B. apply I8. now apply PI.
    - intros B. rewrite <- PI. auto.
    - intros B n l m C D. rewrite <- PI. eauto.
    - etransitivity; [exact I11|]. apply Permutation_app_head. now apply pending_perm.
  Qed.

  Lemma pinv_step s p b s' out vis log : pinv s (p :: b) vis log -> postponing X c Y v s p = Some (s', out) ->
    exists vis' log', pinv s' (out ++ b) vis' log'.
  Proof.
    intros [I1 I2 [I3 I3'] I4 I5 I6 I7 I8 I9 I10 I11 I12] H. unfold postponing in H.
    rewrite I3, Hk, I3' in H. cbn [orb andb] in H. injection H as H.
    assert (KF : forall l, upd (pkil s) (pdest X p) false l = false).
    { intros l. unfold upd. destruct (l =? pdest X p); auto. }
    destruct p as [n|n e].
    - change (pdest X (Visit n)) with (lane n) in *.
      assert (SR : (exists e, perr s (lane n) = Some e) \/ In n vis ->
                   exists vis' log', pinv (mkP (pout s) (ppost s) (pseen s) (perr s) (upd (pkil s) (lane n) false) false (S (ptick s))) ([] ++ b) vis' log').
      { intros C. exists vis, log. constructor; simpl; auto.
        - intros m B. apply I8. now right.
        - intros B. destruct (I9 B) as [D|[D|D]]; auto. injection D as ->. destruct C as [[e C]|C]; [rewrite B in C; discriminate|auto].
        - intros B n1 l m D F. destruct (I10 B n1 l m D F) as [G|[G|G]]; auto.
          injection G as ->. destruct C as [[e C]|C]; [rewrite B in C; discriminate|auto]. }
      destruct (perr s (lane n)) as [e|] eqn:Ee.
      { injection H as <- <-. apply SR. eauto. }
      destruct (existsb (Nat.eqb n) (pseen s (lane n))) eqn:Es.
      { injection H as <- <-. apply SR. right. apply I2. now apply existsb_eqb. }
      assert (Hn : ~ In n vis).
      { intros B. apply I2, existsb_eqb in B. congruence. }
      assert (Eo : pout s n = o n).
      { rewrite I4. destruct (existsb (Nat.eqb n) vis) eqn:B; auto. apply existsb_eqb in B. tauto. }
      rewrite Eo in H. destruct (postpone c v n (o n)) as [[l1 r1] e1] eqn:Ep. injection H as <- <-.
      assert (Ek : kept_at c v o n = l1) by (unfold kept_at; now rewrite Ep).
      assert (Esn : sent_by c v o n = r1) by (unfold sent_by; now rewrite Ep).
      exists (n :: vis), log. rewrite <- app_assoc. constructor; simpl.
      + constructor; auto.
      + intros m. unfold upd. destruct (Nat.eqb_spec (lane m) (lane n)) as [E|E]; simpl.
        * rewrite <- E. rewrite I2. reflexivity.
        * rewrite I2. split; [intros [->|]; tauto|auto].
      + auto.
      + intros m. unfold upd. rewrite Nat.eqb_sym at 1. destruct (Nat.eqb_spec n m) as [->|D].
        * now rewrite Nat.eqb_refl.
        * rewrite I4. destruct (Nat.eqb_spec m n); [congruence|]. reflexivity.
      + intros l e. unfold upd. destruct (Nat.eqb_spec l (lane n)) as [->|D].
        * intros ->. exists n. rewrite Ep. auto.
        * intros B. destruct (I5 l e B) as (m & C1 & C2 & C3). exists m. auto.
      + intros m B. unfold upd. destruct (Nat.eqb_spec (lane m) (lane n)) as [E|E].
        * intros ->. destruct B as [<-|B]; [now rewrite Ep|]. apply I6; auto. now rewrite E.
        * destruct B as [<-|B]; [tauto|]. auto.
      + intros m [<-|B]; auto. apply I8. now left.
      + intros m B. apply in_app_iff in B as [B|B]; [|apply in_app_iff in B as [B|B]].
        * apply bag_visits in B as ([l k] & B1 & <-). simpl. econstructor; [apply I8; now left|exact B1].
        * now apply bag_attaches in B.
        * apply I8. now right.
      + intros B. assert (B' : forall l, perr s l = None).
        { intros k. specialize (B k). unfold upd in B. destruct (Nat.eqb_spec k (lane n)) as [E|]; [now rewrite E|auto]. }
        destruct (I9 B') as [D|[D|D]]; [auto|injection D as ->; auto|right]. rewrite !in_app_iff. auto.
      + intros B m l k C D. assert (B' : forall l, perr s l = None).
        { intros k'. specialize (B k'). unfold upd in B. destruct (Nat.eqb_spec k' (lane n)) as [E|]; [now rewrite E|auto]. }
        destruct C as [<-|C].
        * right. apply in_app_iff. left. apply bag_visits. exists (l, k). auto.
        * destruct (I10 B' m l k C D) as [F|[F|F]]; [auto|injection F as ->; auto|right]. rewrite !in_app_iff. auto.
      + rewrite !pending_app, pending_visits, pending_attaches, Esn, I11. simpl. perm_solve.
      + auto.
    - injection H as <- <-. exists vis, ((n, e) :: log). constructor; simpl; auto.
      + intros m B. apply I8. now right.
      + intros B. destruct (I9 B) as [D|[D|D]]; [auto|discriminate|auto].
      + intros B m l k C D. destruct (I10 B m l k C D) as [F|[F|F]]; [auto|discriminate|auto].
      + rewrite I11. simpl. symmetry. apply Permutation_middle.
      + intros k. unfold upd, collected. simpl. rewrite (Nat.eqb_sym n k). destruct (Nat.eqb_spec k n) as [->|D].
        * simpl. now rewrite I12.
        * apply I12.
  Qed.

  Lemma postponing_done s : ran (lanes X) (pdest X) (postponing X c Y v) (pstart o post) (Visit r) s ->
    exists vis log, pinv s [] vis log.
  Proof.
    intros R. apply ran_completes in R; [|intros p; apply lane_of_lt; auto].
    revert R. unfold completes. apply mruns_inv with (I := fun s b => exists vis log, pinv s b vis log).
    - intros s1 b b' P (vis & log & I). exists vis, log. eapply pinv_perm; eauto.
    - intros s1 p b s2 out (vis & log & I) H. eapply pinv_step; eauto.
    - exists [], []. constructor; simpl; auto; try tauto.
      + constructor.
      + discriminate.
      + intros n [[= ->]|[]]. constructor.
  Qed.

  Lemma postponing_err s order e : ran (lanes X) (pdest X) (postponing X c Y v) (pstart o post) (Visit r) s ->
    first_error (perr s) order = Some e -> exists n, along o r n /\ reporting c v o n e.
  Proof.
    intros R H. destruct (postponing_done R) as (vis & log & I).
    assert (B : exists l, perr s l = Some e).
    { clear -H. induction order as [|l order IH]; simpl in H; [discriminate|].
      destruct (perr s l) eqn:E; [injection H as ->; eauto|auto]. }
    destruct B as [l B]. destruct (pi_err I _ B) as (n & C1 & _ & C2). exists n. split; [now apply (pi_vis I)|].
    now apply postpone_err.
  Qed.

  (** What there is after the pass *)
  Lemma postponing_ok s : ran (lanes X) (pdest X) (postponing X c Y v) (pstart o post) (Visit r) s ->
    first_error (perr s) (seq 0 (lanes X)) = None ->
    exists vis, NoDup vis /\ (forall n, In n vis <-> along o r n) /\
      (forall n, In n vis -> snd (postpone c v n (o n)) = None /\ pout s n = kept_at c v o n) /\
      (forall k e, In e (ppost s k) <-> In e (post k) \/ exists n, In n vis /\ In (k, e) (sent_by c v o n)).
  Proof.
    intros R H. destruct (postponing_done R) as (vis & log & I). exists vis.
    assert (NE : forall l, perr s l = None).
    { intros l. destruct (perr s l) as [e|] eqn:E; auto. destruct (pi_err I _ E) as (n & _ & <- & _).
      rewrite (proj1 (first_error_none _ _) H) in E; [discriminate|]. apply in_seq. pose proof (lane_lt n). lia. }
    split; [exact (pi_nd I)|]. split; [|split].
    - intros n. split; [apply (pi_vis I)|]. induction 1 as [|n l m B1 B2 B3].
      + destruct (pi_root I NE) as [B|[]]; auto.
      + destruct (pi_closed I NE _ _ _ B2 B3) as [B|[]]; auto.
    - intros n Hn. split; [apply (pi_noerr I); auto|]. rewrite (pi_out I).
      now rewrite (proj2 (existsb_eqb n vis) Hn).
    - intros k e. rewrite (pi_post I), in_app_iff. unfold collected. rewrite in_map_iff.
      pose proof (pi_sent I) as P. rewrite app_nil_r in P. split.
      + intros [([k' e'] & <- & B)|B]; [|auto]. apply filter_In in B as [B1 B2]. simpl in *. apply Nat.eqb_eq in B2. subst k'. right.
        apply (Permutation_in _ (Permutation_sym P)) in B1. apply in_flat_map in B1 as (n & C1 & C2). eauto.
      + intros [B|(n & C1 & C2)]; [auto|left]. exists (k, e). split; auto. apply filter_In. split; [|apply Nat.eqb_refl].
        apply (Permutation_in _ P). apply in_flat_map. eauto.
  Qed.
End Postponing.

(** ** The absorbing pass *)
Section Absorbing.
  Variable X Y : env.
  Variable eeq : word -> word -> bool.
  Variable ehash : word -> N.
  Variables o post : edges.
  Variable gone : list nat.
  Variable r : nat.
  Hypothesis Hl : 0 < lanes X.
  Hypothesis Hk : forall k, killcalls Y k = false.

  Definition uptake (n : nat) : list edge :=
    match post n with [] => o n | l => dedup X eeq ehash (l ++ o n) end.
  Definition more (n : nat) : bool := match post n with [] => false | _ => length (o n) <? length (uptake n) end.

  Record ainv (s : ast) (b : list ppkt) (vis : list nat) : Prop := {
    ai_seen : forall n, In n vis <-> In n (aseen s (lane X n));
    ai_kil : akilled s = false /\ forall l, akil s l = false;
    ai_gone : agone s = gone;
    ai_out : forall n, aout s n = if existsb (Nat.eqb n) vis then uptake n else o n;
    ai_post : forall n, apost s n = if existsb (Nat.eqb n) vis then [] else post n;
    ai_vis : forall n, In n vis -> along uptake r n;
    ai_bag : forall p, In p b -> along uptake r (node_of p);
    ai_root : In r vis \/ exists p, In p b /\ node_of p = r;
    ai_closed : forall n l m, In n vis -> In (l, m) (uptake n) -> In m vis \/ exists p, In p b /\ node_of p = m;
    ai_changed : forall l, achanged s l = true <-> exists n, In n vis /\ lane X n = l /\ more n = true
  }.

  Lemma ainv_step s p b s' out vis : ainv s (p :: b) vis -> absorbing X eeq ehash Y s p = Some (s', out) ->
    exists vis', ainv s' (out ++ b) vis'.
  Proof.
    intros [I1 [I2 I2'] I3 I4 I5 I6 I7 I8 I9 I10] H. unfold absorbing in H.
    rewrite I2, Hk, I2' in H. cbn [orb andb] in H. injection H as H.
    assert (KF : forall l, upd (akil s) (pdest X p) false l = false).
    { intros l. unfold upd. destruct (l =? pdest X p); auto. }
    set (n := node_of p) in *. change (pdest X p) with (lane X n) in *.
    destruct (existsb (Nat.eqb n) (aseen s (lane X n))) eqn:Es.
    - injection H as <- <-. assert (Hn : In n vis) by (apply I1; now apply existsb_eqb).
      exists vis. constructor; simpl; auto.
      + intros q B. apply I7. now right.
      + destruct I8 as [B|(q & [<-|B] & C)]; eauto. left. fold n in C. congruence.
      + intros m l k B C. destruct (I9 m l k B C) as [D|(q & [<-|D] & E)]; eauto. left. fold n in E. congruence.
    - assert (Hn : ~ In n vis).
      { intros B. apply I1, existsb_eqb in B. congruence. }
      assert (Hf : existsb (Nat.eqb n) vis = false).
      { destruct (existsb (Nat.eqb n) vis) eqn:B; auto. apply existsb_eqb in B. tauto. }
      assert (Eo : aout s n = o n) by (rewrite I4, Hf; auto).
      assert (Ep : apost s n = post n) by (rewrite I5, Hf; auto).
      assert (Ea : absorbed X eeq ehash s n = uptake n) by (unfold absorbed, uptake; now rewrite Eo, Ep).
      assert (Ei : increased X eeq ehash s n = more n) by (unfold increased, more; now rewrite Eo, Ep, Ea).
      rewrite Ea, Ei in H. injection H as <- <-. exists (n :: vis). constructor; simpl; auto.
      + intros m. unfold upd. destruct (Nat.eqb_spec (lane X m) (lane X n)) as [E|E]; simpl.
        * rewrite <- E, I1. reflexivity.
        * rewrite I1. split; [intros [->|]; tauto|auto].
      + intros m. unfold upd. rewrite Nat.eqb_sym at 1. destruct (Nat.eqb_spec n m) as [->|D].
        * now rewrite Nat.eqb_refl.
        * rewrite I4. destruct (Nat.eqb_spec m n); [congruence|]. reflexivity.
      + intros m. unfold upd. rewrite Nat.eqb_sym at 1. destruct (Nat.eqb_spec n m) as [->|D].
        * now rewrite Nat.eqb_refl.
        * rewrite I5. destruct (Nat.eqb_spec m n); [congruence|]. reflexivity.
      + intros m [<-|B]; auto. apply I7. now left.
      + intros q B. apply in_app_iff in B as [B|B]; [|apply I7; now right].
        apply in_map_iff in B as ([l m] & <- & B). simpl. econstructor; [|exact B]. apply I7. now left.
      + destruct I8 as [B|(q & [<-|B] & C)]; auto. right. exists q. split; auto. apply in_app_iff. auto.
      + intros m l k [<-|B] C.
        * right. exists (Visit k). split; auto. apply in_app_iff. left. apply in_map_iff. exists (l, k). auto.
        * destruct (I9 m l k B C) as [D|(q & [<-|D] & E)]; auto. right. exists q. split; auto. apply in_app_iff. auto.
      + intros l. unfold upd. destruct (Nat.eqb_spec l (lane X n)) as [->|D].
        * rewrite orb_true_iff, I10. split.
          -- intros [(m & B1 & B2 & B3)|B]; [exists m; auto|exists n; auto].
          -- intros (m & [<-|B1] & B2 & B3); [auto|left; exists m; auto].
        * rewrite I10. split; intros (m & B1 & B2 & B3); exists m; [auto|].
          destruct B1 as [<-|B1]; [congruence|auto].
  Qed.

  Lemma absorbing_ok s : ran (lanes X) (pdest X) (absorbing X eeq ehash Y) (astart o post gone) (Visit r) s ->
    akilled s = false /\ agone s = gone /\
    (forall n, along uptake r n -> aout s n = uptake n /\ apost s n = []) /\
    (existsb (achanged s) (seq 0 (lanes X)) = true <-> exists n, along uptake r n /\ more n = true).
  Proof.
    intros R. apply ran_completes in R; [|intros p; apply lane_of_lt; auto].
    assert (I : exists vis, ainv s [] vis).
    { revert R. unfold completes. apply mruns_inv with (I := fun s b => exists vis, ainv s b vis).
      - intros s1 b b' P (vis & [I1 I2 I3 I4 I5 I6 I7 I8 I9 I10]). exists vis.
        assert (PI : forall p, In p b <-> In p b').
        { intros p. split; apply Permutation_in; [auto|now symmetry]. }
        constructor; auto.
        + intros p B. apply I7. now apply PI.
        + destruct I8 as [B|(q & B & C)]; auto. right. exists q. split; auto. now apply PI.
        + intros n l m B C. destruct (I9 n l m B C) as [D|(q & D & E)]; auto. right. exists q. split; auto. now apply PI.
      - intros s1 p b s2 out (vis & I) H. eapply ainv_step; eauto.
      - exists []. constructor; simpl; auto; try tauto.
        + intros p [<-|[]]. constructor.
        + right. exists (Visit r). auto.
        + intros l. split; [discriminate|]. intros (? & [] & _). }
    destruct I as (vis & [I1 I2 I3 I4 I5 I6 I7 I8 I9 I10]).
    assert (V : forall n, along uptake r n <-> In n vis).
    { intros n. split; [|apply I6]. induction 1 as [|n l m B1 B2 B3].
      - destruct I8 as [B|(q & [] & _)]; auto.
      - destruct (I9 _ _ _ B2 B3) as [B|(q & [] & _)]; auto. }
    split; [apply I2|]. split; [exact I3|]. split.
    - intros n Hn. apply V in Hn. rewrite I4, I5, (proj2 (existsb_eqb n vis) Hn). auto.
    - rewrite existsb_exists. split.
      + intros (l & _ & B). apply I10 in B as (n & B1 & _ & B2). exists n. split; [now apply V|auto].
      + intros (n & B1 & B2). exists (lane X n). split; [apply in_seq; pose proof (lane_lt X Hl n); lia|].
        apply I10. exists n. split; [now apply V|auto].
  Qed.
End Absorbing.

Section Uptake.
  Variable X : env.
  Variable eeq : word -> word -> bool.
  Variable ehash : word -> N.
  Hypothesis He : equivalence eeq.
  Hypothesis Heh : forall x y, eeq x y = true -> ehash x = ehash y.
  Variables o post : edges.

  Lemma uptake_nil n : post n = [] -> uptake X eeq ehash o post n = o n.
  Proof. unfold uptake. now intros ->. Qed.
  Lemma uptake_dedup n : post n <> [] -> uptake X eeq ehash o post n = dedup X eeq ehash (post n ++ o n).
  Proof. unfold uptake. destruct (post n); [congruence|auto]. Qed.
  Lemma uptake_in n e : In e (uptake X eeq ehash o post n) -> In e (post n) \/ In e (o n).
  Proof.
    destruct (post n) as [|p l] eqn:E.
    - rewrite uptake_nil; auto.
    - rewrite uptake_dedup by congruence. intros B. apply dedup_in in B; auto. now rewrite E, in_app_iff in B.
  Qed.
  Lemma uptake_cover n e : In e (post n) \/ In e (o n) -> exists e', In e' (uptake X eeq ehash o post n) /\ similar eeq e e'.
  Proof.
    destruct (post n) as [|p l] eqn:E.
    - rewrite uptake_nil by auto. intros [[]|B]. exists e. split; auto. now apply similar_refl.
    - rewrite uptake_dedup by congruence. intros B. apply dedup_cover; auto. rewrite E. now apply in_app_iff.
  Qed.
  Lemma more_spec n : more X eeq ehash o post n = true <-> post n <> [] /\ length (o n) < length (uptake X eeq ehash o post n).
  Proof.
    unfold more. destruct (post n); [split; [discriminate|tauto]|]. rewrite Nat.ltb_lt. split; [split; [discriminate|auto]|tauto].
  Qed.
End Uptake.

(** ** One iteration *)
Section Round.
  Variable X : env.
  Variable g : graph word word.
  Variable c : postponer.
  Variable eeq : word -> word -> bool.
  Variable ehash : word -> N.
  Hypothesis He : equivalence eeq.
  Hypothesis Heh : forall x y, eeq x y = true -> ehash x = ehash y.
  Hypothesis Hl : 0 < lanes X.
  Variables Y Z : env.
  Hypothesis HkY : forall k, killcalls Y k = false.
  Hypothesis HkZ : forall k, killcalls Z k = false.
  Variable v : nat -> word.
  Hypothesis W : wf g.
  Hypothesis Hv : forall n, v n = vx g n.
  Variable post : edges.
  Hypothesis Hp : forall n, In n (ids g) -> post n = [].

  Lemma paired_vertices E n x y : paired c v E n x y <-> paired c (vx g) E n x y.
  Proof. unfold paired, movable, stationary. now rewrite !Hv. Qed.
  Lemma moved_vertices E n x : moved c v E n x <-> moved c (vx g) E n x.
  Proof. unfold moved. split; intros (y & B); exists y; now apply paired_vertices. Qed.
  Lemma reporting_vertices E n e : reporting c v E n e <-> reporting c (vx g) E n e.
  Proof. unfold reporting, movable, stationary. split; intros (B & x & C1 & C2 & C3); (split; [auto|exists x]); rewrite ?Hv in *; (split; [auto|split; [auto|]]);
    (destruct C3 as [C3|(y & C3)]; [auto|right; exists y]); rewrite ?Hv in *; auto. Qed.

  Variables (s : pst) (t : ast) (gone : list nat).
  Hypothesis R1 : ran (lanes X) (pdest X) (postponing X c Y v) (pstart (es g) post) (Visit (root g)) s.
  Hypothesis N1 : first_error (perr s) (seq 0 (lanes X)) = None.
  Hypothesis R2 : ran (lanes X) (pdest X) (absorbing X eeq ehash Z) (astart (pout s) (ppost s) gone) (Visit (root g)) t.

  Let ab := uptake X eeq ehash (pout s) (ppost s).

  Lemma round_post k e : In k (ids g) -> (In e (ppost s k) <-> transplanted c (ids g) (vx g) (es g) k e).
  Proof.
    intros Hin. destruct (postponing_ok Hl HkY R1 N1) as (vis & _ & V & K & S). rewrite S, Hp by auto. split.
    - intros [[]|(n & B1 & B2)]. destruct (K n B1) as [B3 _]. apply (postpone_ok _ _ _ _ B3) in B2 as (x & y & C1 & -> & ->).
      exists n, x, y. split; [apply (along_ids _ W); now apply V|]. split; [now apply paired_vertices|auto].
    - intros (n & x & y & B1 & B2 & <- & ->). right. exists n. assert (B3 : In n vis) by (apply V; now apply (along_ids _ W)).
      split; auto. destruct (K n B3) as [B4 _]. apply (postpone_ok _ _ _ _ B4). exists x, y. split; [now apply paired_vertices|auto].
  Qed.
  Lemma round_kept n : In n (ids g) -> exists l, Permutation (pout s n ++ l) (es g n) /\
    (forall e, In e (pout s n) -> ~ moved c (vx g) (es g) n e) /\ forall e, In e l -> moved c (vx g) (es g) n e.
  Proof.
    intros Hin. destruct (postponing_ok Hl HkY R1 N1) as (vis & _ & V & K & S).
    destruct (K n) as [B1 B2]; [apply V; now apply (along_ids _ W)|].
    destruct (proj1 (postpone_ok _ _ _ _ B1)) as (l & P & C1 & C2). exists l. rewrite B2. split; auto.
    split; intros e D; rewrite <- moved_vertices; auto.
  Qed.
  Lemma round_quiet n e : In n (ids g) -> ~ reporting c (vx g) (es g) n e.
  Proof.
    intros Hin. destruct (postponing_ok Hl HkY R1 N1) as (vis & _ & V & K & S).
    destruct (K n) as [B1 B2]; [apply V; now apply (along_ids _ W)|]. rewrite <- reporting_vertices. now apply postpone_quiet.
  Qed.

  Lemma kept_in n e : In n (ids g) -> In e (pout s n) <-> In e (es g n) /\ ~ moved c (vx g) (es g) n e.
  Proof.
    intros Hin. destruct (round_kept n Hin) as (l & P & B1 & B2). split.
    - intros B. split; auto. apply (Permutation_in _ P). apply in_app_iff. auto.
    - intros [C1 C2]. apply (Permutation_in _ (Permutation_sym P)) in C1. apply in_app_iff in C1 as [C1|C1]; auto. exfalso. auto.
  Qed.
  Lemma transplanted_in k e : transplanted c (ids g) (vx g) (es g) k e -> In k (ids g) /\ In (snd e) (ids g).
  Proof.
    intros (n & x & y & B1 & ((B2 & _) & (B3 & _) & _) & <- & ->). destruct x as [x m]. destruct y as [y k]. simpl in *.
    split; eapply (wf_closed W); eauto.
  Qed.

  Lemma round_in n l m : In n (ids g) -> In (l, m) (ab n) -> In m (ids g).
  Proof.
    intros Hin B. apply uptake_in in B as [B|B]; auto.
    - apply round_post, transplanted_in in B; auto. apply B.
    - apply kept_in in B as [B _]; auto. eapply (wf_closed W); eauto.
  Qed.

  Lemma round_reach n : along ab (root g) n <-> In n (ids g).
  Proof.
    split.
    - induction 1 as [|n l m B1 B2 B3]; [apply (wf_root W)|]. eapply round_in; eauto.
    - intros B. apply (along_ids _ W) in B. induction B as [|n l m B1 B2 B3]; [constructor|].
      assert (Hn : In n (ids g)) by (now apply (along_ids _ W)).
      assert (D : moved c (vx g) (es g) n (l, m) \/ In (l, m) (pout s n)).
      { destruct (round_kept n Hn) as (r & P & C1 & C2). apply (Permutation_in _ (Permutation_sym P)) in B3.
        apply in_app_iff in B3 as [D|D]; auto. }
      destruct D as [([y k] & D)|D].
      + assert (K : In k (ids g)).
        { destruct D as (_ & (D & _) & _). simpl in D. eapply (wf_closed W); eauto. }
        assert (A1 : along ab (root g) k).
        { destruct (uptake_cover X ehash He Heh (pout s) (ppost s) n (y, k)) as ([y' k'] & F1 & F2 & _).
          - right. apply kept_in; auto. destruct D as (_ & (D1 & D2 & D3) & _). split; auto.
            intros (z & (_ & _ & F) & _). congruence.
          - simpl in F2. subst k'. econstructor; [exact B2|exact F1]. }
        destruct (uptake_cover X ehash He Heh (pout s) (ppost s) k (fst (bop c l y), m)) as ([z m'] & F1 & F2 & _).
        * left. apply round_post; auto. exists n, (l, m), (y, k). auto.
        * simpl in F2. subst m'. econstructor; [exact A1|exact F1].
      + destruct (uptake_cover X ehash He Heh (pout s) (ppost s) n (l, m)) as ([z m'] & F1 & F2 & _); [auto|].
        simpl in F2. subst m'. econstructor; [exact B2|exact F1].
  Qed.

  Lemma round_out n : In n (ids g) -> aout t n = ab n /\ apost t n = [].
  Proof.
    intros Hin. destruct (absorbing_ok Hl HkZ R2) as (_ & _ & B & _). apply B. now apply round_reach.
  Qed.

  Lemma round_relocated n : In n (ids g) -> relocated c eeq (ids g) (vx g) (es g) (aout t) n.
  Proof.
    intros Hin. destruct (round_out n Hin) as [Eo _]. constructor; rewrite Eo.
    - intros e B. apply uptake_in in B as [B|B]; auto.
      + right. now apply round_post.
      + left. now apply kept_in.
    - intros e B C. apply uptake_cover; auto. right. now apply kept_in.
    - intros e B. apply uptake_cover; auto. left. now apply round_post.
    - intros B. assert (E : ppost s n = []).
      { destruct (ppost s n) as [|e l] eqn:E; auto. exfalso. apply (B e). apply round_post; auto. rewrite E. now left. }
      unfold ab. rewrite uptake_nil by auto. destruct (round_kept n Hin) as (l & P & _ & C). eauto.
    - intros [e B]. apply round_post in B; auto. unfold ab. rewrite uptake_dedup; [now apply dedup_unique|].
      intros E. now rewrite E in B.
  Qed.

  Lemma round_relocation : relocation c eeq g (mkGraph (ids g) (vx g) (aout t) (root g)).
  Proof.
    split; [|split; [auto|split; [auto|split; [auto|split; [|exact round_relocated]]]]].
    - constructor; simpl.
      + apply (wf_nodup W).
      + apply (wf_root W).
      + intros n l m B1 B2. destruct (round_out n B1) as [E _]. rewrite E in B2. eapply round_in; eauto.
      + intros n B. apply along_path. apply round_reach in B. simpl. induction B as [|n l m B1 B2 B3]; [constructor|].
        econstructor; [exact B2|]. destruct (round_out n) as [-> _]; [now apply round_reach|exact B3].
    - intros n e B. now apply round_quiet.
  Qed.

  Lemma round_changed : existsb (achanged t) (seq 0 (lanes X)) = true <->
    exists n, In n (ids g) /\ ppost s n <> [] /\ length (pout s n) < length (aout t n).
  Proof.
    destruct (absorbing_ok Hl HkZ R2) as (_ & _ & _ & B). rewrite B. split; intros (n & C1 & C2); exists n.
    - assert (Hn : In n (ids g)) by now apply round_reach. destruct (round_out n Hn) as [-> _]. split; auto. now apply more_spec.
    - split; [now apply round_reach|]. destruct (round_out n C1) as [E _]. rewrite E in C2. now apply more_spec.
  Qed.
  Lemma round_flags : akilled t = false /\ agone t = gone.
  Proof. destruct (absorbing_ok Hl HkZ R2) as (B1 & B2 & _). auto. Qed.
  Lemma round_dec k : In k (ids g) -> (forall e, ~ transplanted c (ids g) (vx g) (es g) k e) \/ exists e, transplanted c (ids g) (vx g) (es g) k e.
  Proof.
    intros Hin. destruct (ppost s k) as [|e l] eqn:E.
    - left. intros e B. apply round_post in B; auto. now rewrite E in B.
    - right. exists e. apply round_post; auto. rewrite E. now left.
  Qed.
End Round.

Section Unrepeated.
  Variable eeq : word -> word -> bool.
  Hypothesis He : equivalence eeq.

  Lemma unrepeated_perm l l' : Permutation l l' -> unrepeated eeq l -> unrepeated eeq l'.
  Proof.
    induction 1 as [|x l l' P IH|x y l|l l' l'' P1 IH1 P2 IH2]; intros U; auto.
    - inversion U as [|a b U1 U2]; subst. constructor; [|now apply IH]. rewrite Forall_forall in *. intros z B.
      apply U1. exact (Permutation_in _ (Permutation_sym P) B).
    - inversion U as [|a b U1 U2]; subst. inversion U2 as [|a b U3 U4]; subst. inversion U1 as [|a b U5 U6]; subst.
      constructor; [constructor; auto|constructor; auto]. intros B. apply U5. now apply similar_sym.
  Qed.
  Lemma unrepeated_app_l l l' : unrepeated eeq (l ++ l') -> unrepeated eeq l.
  Proof.
    induction l as [|x l IH]; simpl; intros U; [constructor|]. inversion U as [|a b U1 U2]; subst. constructor; [|now apply IH].
    rewrite Forall_forall in *. intros y B. apply U1. apply in_app_iff. auto.
  Qed.
End Unrepeated.

Lemma split_unique {A} (Q : A -> Prop) (a l a' l' : list A) : Permutation (a ++ l) (a' ++ l') ->
  (forall x, In x a -> ~ Q x) -> (forall x, In x a' -> ~ Q x) -> (forall x, In x l -> Q x) -> (forall x, In x l' -> Q x) ->
  Permutation a a'.
Proof.
  revert a' l'. induction a as [|x a IH]; simpl; intros a' l' P H1 H2 H3 H4.
  - destruct a' as [|y a']; [constructor|]. exfalso. apply (H2 y); [now left|]. apply H3.
    apply (Permutation_in _ (Permutation_sym P)). now left.
  - assert (B : In x (a' ++ l')) by (apply (Permutation_in _ P); now left).
    apply in_app_iff in B as [B|B]; [|exfalso; apply (H1 x); auto].
    apply in_split in B as (b1 & b2 & ->). transitivity (x :: b1 ++ b2); [constructor|apply Permutation_middle].
    apply IH with (l' := l'); auto.
    + apply (Permutation_cons_inv (a := x)). rewrite P. rewrite <- !app_assoc. simpl. symmetry. apply Permutation_middle.
    + intros y B. apply H2. rewrite in_app_iff in *. simpl. tauto.
Qed.

Section Claims.
  Variable X : env.
  Variable g : graph word word.
  Variable c : postponer.
  Variable eeq : word -> word -> bool.
  Variable ehash : word -> N.
  Variable kills : nat -> nat -> bool.
  Hypothesis Hl : 0 < lanes X.
  Hypothesis He : equivalence eeq.
  Hypothesis Heh : forall x y, eeq x y = true -> ehash x = ehash y.
  Hypothesis Hk : never_killed kills.

  Definition with_edges (o : edges) : graph word word := mkGraph (ids g) (vx g) o (root g).
  Lemma with_edges_eta : with_edges (es g) = g.
  Proof. unfold with_edges. now destruct g. Qed.

  Lemma pass_quiet i k : killcalls (in_pass X kills i) k = false.
  Proof. apply Hk. Qed.

  (** The verdict in terms of passes *)
  Lemma prounds_plain i o post w : wf (with_edges o) -> (forall n, In n (ids g) -> post n = []) ->
    prounds X g c eeq ehash kills i o post [] w ->
    (exists h k, w = Moved h /\ relocations c eeq k (with_edges o) h /\ (po_fix c = false -> k = 1)) \/
    (exists e f, w = Failed e /\ (f = with_edges o \/ po_fix c = true /\ exists k, relocations c eeq k (with_edges o) f) /\
       exists n, In n (ids f) /\ reporting c (vx f) (es f) n e).
  Proof.
    intros W Hp H. remember [] as gone eqn:Eg in H.
    induction H as [i o post gone s order e R O F|i o post gone s t R1 N1 R2 G|i o post gone s t w R1 N1 R2 G R' IH]; subst gone.
    - right. exists e, (with_edges o). split; auto. split; auto.
      destruct (postponing_err Hl (pass_quiet (2 * i)) _ R F) as (n & B1 & B2). exists n.
      split; [now apply (along_ids (g := with_edges o))|exact B2].
    - left. destruct (round_flags g Hl (pass_quiet (2 * i + 1)) s R2) as [F1 F2]. rewrite F1, Hk. simpl.
      exists (with_edges (aout t)), 1. rewrite F2. split; [reflexivity|]. split; [|auto]. constructor.
      exact (round_relocation (g := with_edges o) He Heh Hl (pass_quiet (2 * i)) (pass_quiet (2 * i + 1)) W (fun _ => eq_refl) Hp R1 N1 R2).
    - destruct (round_flags g Hl (pass_quiet (2 * i + 1)) s R2) as [F1 F2].
      pose proof (round_relocation (g := with_edges o) He Heh Hl (pass_quiet (2 * i)) (pass_quiet (2 * i + 1)) W (fun _ => eq_refl) Hp R1 N1 R2) as RL.
      apply andb_true_iff in G as [G _]. destruct IH as [(h & k & B1 & B2 & B3)|(e & f & B1 & B2 & B3)]; auto.
      + apply RL.
      + intros n Hn.
        apply (round_out (g := with_edges o) He Heh Hl (pass_quiet (2 * i)) (pass_quiet (2 * i + 1)) W (fun _ => eq_refl) Hp R1 N1 R2 n Hn).
      + left. exists h, (S k). split; auto. split; [|congruence]. econstructor; [exact RL|exact B2].
      + right. exists e, f. split; auto. split; auto. right. split; auto. destruct B2 as [->|(_ & k & B2)].
        * exists 1. now constructor.
        * exists (S k). econstructor; [exact RL|exact B2].
  Qed.

  Hypothesis W : wf g.

  (** One pass moves the edges that should be moved, or else returns an error. *)
  Theorem C30_one_pass w : po_fix c = false -> postpones X g c eeq ehash kills w ->
    (exists h, w = Moved h /\ relocation c eeq g h) \/ (exists e, w = Failed e).
  Proof.
    intros Hf H. unfold postpones in H. pose proof W as W0. rewrite <- with_edges_eta in W0.
    destruct (prounds_plain W0 (fun _ _ => eq_refl) H) as [(h & k & -> & P & K)|(e & f & -> & _)]; [left|eauto].
    rewrite with_edges_eta in P. rewrite (K Hf) in P. exists h. split; auto. inversion P; subst; auto. inversion H2.
  Qed.

  (** Iteration makes any number of passes. *)
  Theorem C30_iterated w : postpones X g c eeq ehash kills w ->
    (exists h k, w = Moved h /\ relocations c eeq k g h) \/ (exists e, w = Failed e).
  Proof.
    intros H. unfold postpones in H. pose proof W as W0. rewrite <- with_edges_eta in W0.
    destruct (prounds_plain W0 (fun _ _ => eq_refl) H) as [(h & k & -> & P & K)|(e & f & -> & _)]; [left|eauto].
    rewrite with_edges_eta in P. eauto.
  Qed.

  (** An error is one reported by a user function in one of the passes, *)
  Theorem C30_errors e : postpones X g c eeq ehash kills (Failed e) ->
    exists f, (f = g \/ po_fix c = true /\ exists k, relocations c eeq k g f) /\
      exists n, In n (ids f) /\ reporting c (vx f) (es f) n e.
  Proof.
    intros H. unfold postpones in H. pose proof W as W0. rewrite <- with_edges_eta in W0.
    destruct (prounds_plain W0 (fun _ _ => eq_refl) H) as [(h & k & B & _)|(e' & f & B1 & B2 & B3)]; [discriminate|].
    injection B1 as <-. rewrite with_edges_eta in B2. eauto.
  Qed.

  (** and whatever is returned, no vertex is lost: *)
  Theorem C30_no_vertex_is_lost h : postpones X g c eeq ehash kills (Moved h) ->
    root h = root g /\ (forall n, vx h n = vx g n) /\ forall n, path g (root g) n <-> path h (root h) n.
  Proof.
    intros H. destruct (C30_iterated H) as [(h' & k & [= <-] & P)|(e & B)]; [|discriminate].
    assert (Q : forall g h, relocations c eeq k g h -> wf h /\ root h = root g /\ (forall n, vx h n = vx g n) /\ ids h = ids g).
    { clear. intros g h. induction 1 as [g h R|k g f h R1 R2 IH].
      - destruct R as (R1 & R2 & R3 & R4 & _). auto.
      - destruct R1 as (B1 & B2 & B3 & B4 & _), IH as (C1 & C2 & C3 & C4). split; auto. split; [congruence|].
        split; [intros n; now rewrite C3|congruence]. }
    destruct (Q _ _ P) as (Wh & Rh & Vh & Ih). split; auto. split; auto.
    intros n. rewrite <- !along_path, (along_ids n W), (along_ids n Wh), Ih. reflexivity.
  Qed.

  (** Any two passes over the same graph have the same result except for the order of the edges, and for
      which of several similar edges remains. *)
  Theorem C30_schedule_is_immaterial h h' :
    po_fix c = false -> postpones X g c eeq ehash kills (Moved h) -> postpones X g c eeq ehash kills (Moved h') ->
    root h = root h' /\ ids h = ids h' /\ (forall n, vx h n = vx h' n) /\
    forall n, In n (ids h) -> length (es h n) = length (es h' n) /\
      forall e, In e (es h n) -> exists e', In e' (es h' n) /\ similar eeq e e'.
  Proof.
    intros Hf.
    assert (Main : forall f, postpones X g c eeq ehash kills (Moved f) -> relocation c eeq g f /\
      forall k, In k (ids g) -> (forall e, ~ transplanted c (ids g) (vx g) (es g) k e) /\
                                (exists l, Permutation (es f k ++ l) (es g k) /\ (forall e, In e (es f k) -> ~ moved c (vx g) (es g) k e) /\
                                           forall e, In e l -> moved c (vx g) (es g) k e) \/
                                exists e, transplanted c (ids g) (vx g) (es g) k e).
    { intros f H. split.
      - destruct (C30_one_pass Hf H) as [(? & [= <-] & B)|(? & B)]; [auto|discriminate].
      - unfold postpones in H. remember (Moved f) as w eqn:Ew. remember 0 as i eqn:Ei.
        pose proof W as W0. rewrite <- with_edges_eta in W0.
        remember (es g) as o eqn:Eo. remember (fun _ : nat => @nil edge) as post eqn:Ep. remember (@nil nat) as gone eqn:Eg.
        destruct H as [i1 o1 post1 gone1 s order e R O F|i1 o1 post1 gone1 s t R1 N1 R2 G|i1 o1 post1 gone1 s t w R1 N1 R2 G R'].
        + discriminate.
        + subst. destruct (round_flags g Hl (pass_quiet 1) s R2) as [F1 F2].
          simpl in Ew. rewrite F1, Hk in Ew. simpl in Ew. injection Ew as <-. simpl. intros k Hin.
          pose proof (fun n Hn => round_out (g := with_edges (es g)) He Heh Hl (pass_quiet 0) (pass_quiet 1) W0 (fun _ => eq_refl) (fun _ _ => eq_refl) R1 N1 R2 n Hn) as Ro.
          destruct (round_dec (g := with_edges (es g)) Hl (pass_quiet 0) W0 (fun _ => eq_refl) (fun _ _ => eq_refl) R1 N1 k Hin) as [D|D]; [left|now right].
          split; [exact D|]. destruct (Ro k Hin) as [-> _]. rewrite uptake_nil.
          * exact (round_kept (g := with_edges (es g)) Hl (pass_quiet 0) W0 (fun _ => eq_refl) R1 N1 k Hin).
          * destruct (ppost s k) as [|e l] eqn:E; auto. exfalso. apply (D e).
            apply (round_post (g := with_edges (es g)) Hl (pass_quiet 0) W0 (fun _ => eq_refl) (fun _ _ => eq_refl) R1 N1 k e Hin). rewrite E. now left.
        + rewrite Hf in G. discriminate. }
    intros H H'. destruct (Main _ H) as [(_ & R1 & V1 & I1 & _ & C1) D1]. destruct (Main _ H') as [(_ & R2 & V2 & I2 & _ & C2) D2].
    split; [congruence|]. split; [congruence|]. split; [intros n; now rewrite V1, V2|].
    intros n Hn. rewrite I1 in Hn.
    assert (Cov : forall f f' : graph word word, relocated c eeq (ids g) (vx g) (es g) (es f) n -> relocated c eeq (ids g) (vx g) (es g) (es f') n ->
      forall e, In e (es f n) -> exists e', In e' (es f' n) /\ similar eeq e e').
    { intros f f' B1 B2 e B. apply (rl_only B1) in B as [[B3 B4]|B3]; [now apply (rl_kept B2)|now apply (rl_new B2)]. }
    split; [|apply (Cov h h'); auto]. destruct (D1 n Hn) as [[B (l1 & P1 & K1 & G1)]|B].
    - destruct (D2 n Hn) as [[_ (l2 & P2 & K2 & G2)]|[e B']]; [|exfalso; exact (B e B')].
      apply Permutation_length. apply split_unique with (Q := moved c (vx g) (es g) n) (l := l1) (l' := l2); auto.
      etransitivity; [exact P1|now symmetry].
    - pose proof (rl_unique (C1 n Hn) B) as U1. pose proof (rl_unique (C2 n Hn) B) as U2.
      apply Nat.le_antisymm.
      + apply (covered X Hl He U1 U2). apply (Cov h h'); auto.
      + apply (covered X Hl He U2 U1). apply (Cov h' h); auto.
  Qed.

  (** ** Iteration to a fixed point.  The user's functions make no distinction between equal labels. *)
  Definition indifferent : Prop :=
    (forall a x x' b, eeq x x' = true -> fst (postponable c a x b) = fst (postponable c a x' b)) /\
    (forall x x' y y', eeq x x' = true -> eeq y y' = true -> fst (bpred c x y) = fst (bpred c x' y')).

  Lemma prounds_fixed i o post h : po_fix c = true -> indifferent ->
    wf (with_edges o) -> (forall n, In n (ids g) -> post n = []) -> (forall n, In n (ids g) -> unrepeated eeq (o n)) ->
    prounds X g c eeq ehash kills i o post [] (Moved h) ->
    ids h = ids g /\ forall n x y, In n (ids h) -> ~ paired c (vx h) (es h) n x y.
  Proof.
    clear W. intros Hf [Hi1 Hi2] W Hp U H. remember (@nil nat) as gone eqn:Eg in H. remember (Moved h) as w eqn:Ew.
    induction H as [i o post gone s order e R O F|i o post gone s t R1 N1 R2 G|i o post gone s t w R1 N1 R2 G R' IH]; subst gone.
    - discriminate.
    - destruct (round_flags g Hl (pass_quiet (2 * i + 1)) s R2) as [F1 F2]. rewrite F1, Hk in Ew. simpl in Ew. injection Ew as <-.
      split; [reflexivity|]. simpl. rewrite F2. intros n x y Hn.
      pose proof (round_changed (g := with_edges o) He Heh Hl (pass_quiet (2 * i)) (pass_quiet (2 * i + 1)) W (fun _ => eq_refl) Hp R1 N1 R2) as Ch.
      rewrite Hf in G. simpl in G.
      destruct (round_out (g := with_edges o) He Heh Hl (pass_quiet (2 * i)) (pass_quiet (2 * i + 1)) W (fun _ => eq_refl) Hp R1 N1 R2 n Hn) as [Eo _].
      destruct (round_kept (g := with_edges o) Hl (pass_quiet (2 * i)) W (fun _ => eq_refl) R1 N1 n Hn) as (l & P & K1 & K2). simpl in P, K1, K2.
      assert (Sim : forall e, In e (aout t n) -> exists e', In e' (pout s n) /\ similar eeq e e').
      { destruct (ppost s n) as [|p q] eqn:Ep.
        - rewrite Eo, uptake_nil by auto. intros e B. exists e. split; auto. now apply similar_refl.
        - assert (Up : unrepeated eeq (pout s n)).
          { apply (unrepeated_app_l _ l). apply (unrepeated_perm He (Permutation_sym P)). now apply U. }
          assert (Ua : unrepeated eeq (aout t n)).
          { rewrite Eo, uptake_dedup by congruence. now apply dedup_unique. }
          assert (Cov : forall e, In e (pout s n) -> exists e', In e' (aout t n) /\ similar eeq e e').
          { intros e B. rewrite Eo. apply uptake_cover; auto. }
          destruct (covered X Hl He Up Ua Cov) as [C1 C2]. apply C2.
          destruct (Nat.lt_ge_cases (length (pout s n)) (length (aout t n))) as [C|C]; [|now apply Nat.le_antisymm].
          exfalso. rewrite (proj2 Ch) in G; [discriminate|]. exists n. split; auto. split; [congruence|auto]. }
      intros ((B1 & B2 & B3) & (B4 & B5 & B6) & B7). simpl in *.
      destruct (Sim x B1) as (x' & D1 & D2 & D3). destruct (Sim y B4) as (y' & D4 & D5 & D6).
      apply (K1 x' D1). exists y'. simpl. unfold vertices in *. simpl in *. split; [split; [|split]|split; [split; [|split]|]].
      + apply (Permutation_in _ P). apply in_app_iff. auto.
      + congruence.
      + rewrite <- D2, <- (Hi1 _ _ _ _ D3). exact B3.
      + apply (Permutation_in _ P). apply in_app_iff. auto.
      + congruence.
      + rewrite <- D5, <- (Hi1 _ _ _ _ D6). exact B6.
      + rewrite <- (Hi2 _ _ _ _ D3 D6). exact B7.
    - destruct (round_flags g Hl (pass_quiet (2 * i + 1)) s R2) as [F1 F2].
      pose proof (round_relocation (g := with_edges o) He Heh Hl (pass_quiet (2 * i)) (pass_quiet (2 * i + 1)) W (fun _ => eq_refl) Hp R1 N1 R2) as RL.
      apply IH; auto.
      + apply RL.
      + intros n Hn.
        apply (round_out (g := with_edges o) He Heh Hl (pass_quiet (2 * i)) (pass_quiet (2 * i + 1)) W (fun _ => eq_refl) Hp R1 N1 R2 n Hn).
      + intros n Hn. destruct RL as (_ & _ & _ & _ & _ & RL). specialize (RL n Hn).
        destruct (round_dec (g := with_edges o) Hl (pass_quiet (2 * i)) W (fun _ => eq_refl) Hp R1 N1 n Hn) as [D|D].
        * destruct (rl_rest RL D) as (l & P & _). apply (unrepeated_app_l _ l). apply (unrepeated_perm He (Permutation_sym P)). now apply U.
        * exact (rl_unique RL D).
  Qed.

  (** If no edge is repeated to begin with, then nothing more is to be moved in the end, *)
  Theorem C50_postponement_to_a_fixed_point h :
    po_fix c = true -> indifferent -> (forall n, In n (ids g) -> unrepeated eeq (es g n)) ->
    postpones X g c eeq ehash kills (Moved h) -> forall n x y, In n (ids h) -> ~ paired c (vx h) (es h) n x y.
  Proof.
    intros Hf Hi U H. unfold postpones in H. pose proof W as W0. rewrite <- with_edges_eta in W0.
    apply (prounds_fixed Hf Hi W0 (fun _ _ => eq_refl) U H).
  Qed.

  (** so that another pass would change nothing. *)
  Theorem C50_another_postponement_would_change_nothing h f :
    po_fix c = true -> indifferent -> (forall n, In n (ids g) -> unrepeated eeq (es g n)) ->
    postpones X g c eeq ehash kills (Moved h) -> relocation c eeq h f ->
    forall n, In n (ids h) -> Permutation (es f n) (es h n).
  Proof.
    intros Hf Hi U H (_ & _ & _ & _ & _ & R) n Hn.
    pose proof (C50_postponement_to_a_fixed_point Hf Hi U H) as NP. destruct (rl_rest (R n Hn)) as (l & P & B).
    - intros e (m & x & y & B1 & B2 & _). exact (NP m x y B1 B2).
    - destruct l as [|e l]; [now rewrite app_nil_r in P|]. exfalso. destruct (B e) as (y & C); [now left|]. exact (NP n e y Hn C).
  Qed.
End Claims.

(** ** Runs with a schedule in which all threads take turns *)
Fixpoint run_prounds X g c eeq ehash kills (fuel k i : nat) (o post : edges) (gone : list nat) : option pverdict :=
  match fuel with
  | 0 => None
  | S fuel =>
      let all := seq 0 (lanes X) in
      let y := sched_run (lanes X) (pdest X) (postponing X c (in_pass X kills (2 * i)) (vertices g gone)) (pstart o post) (Visit (root g)) k in
      let s := sh y in
      match mainpc y, first_error (perr s) all with
      | MDone, Some e => Some (Failed e)
      | MDone, None =>
          let z := sched_run (lanes X) (pdest X) (absorbing X eeq ehash (in_pass X kills (2 * i + 1))) (astart (pout s) (ppost s) gone) (Visit (root g)) k in
          let t := sh z in
          match mainpc z with
          | MDone =>
              if po_fix c && existsb (achanged t) all then
                run_prounds X g c eeq ehash kills fuel k (S i) (aout t) (apost t) (agone t)
              else Some (if akilled t || kills (2 * i + 1) (atick t) then Cut (aout t) (apost t) (agone t)
                         else Moved (mkGraph (ids g) (vertices g (agone t)) (aout t) (root g)))
          | _ => None
          end
      | _, _ => None
      end
  end.

Lemma run_prounds_sound X g c eeq ehash kills fuel k : forall i o post gone w,
  run_prounds X g c eeq ehash kills fuel k i o post gone = Some w -> prounds X g c eeq ehash kills i o post gone w.
Proof.
  induction fuel as [|fuel IH]; cbn [run_prounds]; intros i o post gone w; [discriminate|].
  set (y := sched_run (lanes X) (pdest X) (postponing X c _ _) _ _ k).
  destruct (mainpc y) eqn:E1; try discriminate. apply sched_ran in E1. fold y in E1.
  destruct (first_error (perr (sh y)) (seq 0 (lanes X))) as [e|] eqn:E2.
  { intros [= <-]. eapply pr_error; eauto. }
  set (z := sched_run (lanes X) (pdest X) (absorbing X eeq ehash _) _ _ k).
  destruct (mainpc z) eqn:E3; try discriminate. apply sched_ran in E3. fold z in E3.
  destruct (po_fix c && existsb (achanged (sh z)) (seq 0 (lanes X))) eqn:E4.
  - intros H. apply IH in H. eapply pr_next; eauto.
  - intros [= <-]. eapply pr_last; eauto.
Qed.

Definition run_postpone X g c eeq ehash kills fuel k := run_prounds X g c eeq ehash kills fuel k 0 (es g) (fun _ => []) [].
Definition pgraph (w : option pverdict) : graph word word :=
  match w with Some (Moved h) => h | _ => mkGraph [] (fun _ => null) (fun _ => []) 0 end.
Definition is_moved (w : option pverdict) : bool := match w with Some (Moved _) => true | _ => false end.
Lemma run_postpone_ran X g c eeq ehash kills fuel k :
  is_moved (run_postpone X g c eeq ehash kills fuel k) = true ->
  postpones X g c eeq ehash kills (Moved (pgraph (run_postpone X g c eeq ehash kills fuel k))).
Proof.
  intros H. apply run_prounds_sound with (fuel := fuel) (k := k). fold (run_postpone X g c eeq ehash kills fuel k).
  destruct (run_postpone X g c eeq ehash kills fuel k) as [[h|e|o post gone]|]; try discriminate. reflexivity.
Qed.

(** ** Examples.  Edges with labels above 9 are postponable, and become the less so each time they are
    postponed; they don't get past edges with odd labels. *)
Definition lazy (f : bool) : postponer :=
  mkPostponer (fun _ x _ => (N.ltb 9 x, None)) (fun x y => (N.even y, None)) (fun x y => ((x - 5)%N, None)) f.
Definition QG : graph word word :=
  mkGraph [1; 2; 3; 4; 5] N.of_nat
    (fun n => match n with
              | 1 => [(2%N, 2); (17%N, 3); (1%N, 4); (19%N, 1)] | 2 => [(4%N, 4); (12%N, 3); (7%N, 5)] | 3 => [(1%N, 5); (10%N, 2)]
              | 4 => [(6%N, 5); (12%N, 4)] | _ => [] end) 1.
Lemma QG_wf : wf QG.
Proof.
  constructor; simpl.
  - repeat constructor; simpl; intuition lia.
  - auto.
  - intros n l m H E. repeat (destruct H as [<-|H]; [simpl in E; repeat (destruct E as [[= <- <-]|E]; [auto 9|]); destruct E|]). destruct H.
  - assert (H1 : path QG 1 1) by constructor.
    assert (H2 : path QG 1 2) by (econstructor; [exact H1|now left]).
    assert (H3 : path QG 1 3) by (econstructor; [exact H1|right; now left]).
    assert (H4 : path QG 1 4) by (econstructor; [exact H2|now left]).
    assert (H5 : path QG 1 5) by (econstructor; [exact H3|now left]).
    intros n H. repeat (destruct H as [<-|H]; [assumption|]). destruct H.
Qed.
Definition prun1 := run_postpone X3 QG (lazy false) N.eqb (fun x => x) no_kills 2 300.
Example C30_one_pass_ex :
  wf QG /\ postpones X3 QG (lazy false) N.eqb (fun x => x) no_kills (Moved (pgraph prun1)) /\
  map (es (pgraph prun1)) [1; 2; 3; 4; 5] =
    [[(19%N, 1); (1%N, 4); (2%N, 2)]; [(12%N, 3); (4%N, 4); (7%N, 5)]; [(10%N, 2); (1%N, 5)];
     [(7%N, 3); (12%N, 4); (6%N, 5)]; []].
Proof. split; [exact QG_wf|]. split; [unfold prun1; apply run_postpone_ran|]; vm_compute; reflexivity. Qed.

(** With one worker, the result is the same. *)
Definition prun1' := run_postpone X1 QG (lazy false) N.eqb (fun x => x) no_kills 2 300.
Example C30_schedule_is_immaterial_ex :
  postpones X1 QG (lazy false) N.eqb (fun x => x) no_kills (Moved (pgraph prun1')) /\
  map (es (pgraph prun1')) [1; 2; 3; 4; 5] = map (es (pgraph prun1)) [1; 2; 3; 4; 5].
Proof. split; [unfold prun1'; apply run_postpone_ran|]; vm_compute; reflexivity. Qed.

Definition prun2 := run_postpone X3 QG (lazy true) N.eqb (fun x => x) no_kills 5 300.
Example C50_postponement_ex :
  postpones X3 QG (lazy true) N.eqb (fun x => x) no_kills (Moved (pgraph prun2)) /\
  indifferent (lazy true) N.eqb /\ (forall n, In n (ids QG) -> unrepeated N.eqb (es QG n)) /\
  map (es (pgraph prun2)) [1; 2; 3; 4; 5] =
    [[(19%N, 1); (2%N, 2); (1%N, 4)]; [(7%N, 5); (4%N, 4)]; [(10%N, 2); (1%N, 5)];
     [(7%N, 3); (12%N, 4); (6%N, 5)]; []].
Proof.
  split; [unfold prun2; apply run_postpone_ran; vm_compute; reflexivity|].
  split; [|split; [|vm_compute; reflexivity]].
  - split.
    + intros a x x' b H. apply N.eqb_eq in H. now subst.
    + intros x x' y y' H H'. apply N.eqb_eq in H, H'. now subst.
  - intros n H. repeat (destruct H as [<-|H];
      [repeat (constructor; [repeat (constructor; [intros [B1 B2]; discriminate|]); constructor|]); constructor|]). destruct H.
Qed.

Definition broken : postponer :=
  mkPostponer (fun _ x _ => (N.ltb 9 x, None)) (fun x y => (N.even y, None)) (fun x y => (x, if N.eqb y 4 then Some (USERERR 50) else None)) false.
Example C30_errors_ex : postpones X3 QG broken N.eqb (fun x => x) no_kills (Failed (USERERR 50)).
Proof. apply run_prounds_sound with (fuel := 2) (k := 300). vm_compute. reflexivity. Qed.

(** ** What falls short *)

(** If edges are repeated to begin with, the number of duplicates removed can make up for the number of
    edges added, in which case the iteration ends. *)
Definition DG : graph word word :=
  mkGraph [1; 2; 3; 4] N.of_nat
    (fun n => match n with 1 => [(2%N, 2); (20%N, 3)] | 2 => [(4%N, 4); (4%N, 4)] | _ => [] end) 1.
Lemma DG_wf : wf DG.
Proof.
  constructor; simpl.
  - repeat constructor; simpl; intuition lia.
  - auto.
  - intros n l m H E. repeat (destruct H as [<-|H]; [simpl in E; repeat (destruct E as [[= <- <-]|E]; [auto 9|]); destruct E|]). destruct H.
  - assert (H1 : path DG 1 1) by constructor.
    assert (H2 : path DG 1 2) by (econstructor; [exact H1|now left]).
    assert (H3 : path DG 1 3) by (econstructor; [exact H1|right; now left]).
    assert (H4 : path DG 1 4) by (econstructor; [exact H2|now left]).
    intros n H. repeat (destruct H as [<-|H]; [assumption|]). destruct H.
Qed.
Definition prun3 := run_postpone X3 DG (lazy true) N.eqb (fun x => x) no_kills 5 300.
Theorem C50_postponement_refuted :
  exists X g c h, wf g /\ 0 < lanes X /\ po_fix c = true /\ indifferent c N.eqb /\
    postpones X g c N.eqb (fun x => x) no_kills (Moved h) /\
    exists n x y, In n (ids h) /\ paired c (vx h) (es h) n x y.
Proof.
  exists X3, DG, (lazy true), (pgraph prun3). split; [exact DG_wf|]. split; [simpl; lia|]. split; [auto|].
  split; [apply C50_postponement_ex|]. split; [unfold prun3; apply run_postpone_ran; vm_compute; reflexivity|].
  assert (E : es (pgraph prun3) 2 = [(15%N, 3); (4%N, 4)]) by (vm_compute; reflexivity).
  exists 2, (15%N, 3), (4%N, 4). split; [vm_compute; auto|]. unfold paired, movable, stationary. rewrite E.
  split; [split; [now left|split; [discriminate|reflexivity]]|].
  split; [split; [right; now left|split; [discriminate|reflexivity]]|reflexivity].
Qed.

(** A chain with some shortcuts, which are postponable. *)
Definition SG (k : nat) (cuts : list nat) : graph word word :=
  mkGraph (seq 1 k) N.of_nat
    (fun n => if (0 <? n) && (n <? k) then
                (2%N, S n) :: (if existsb (Nat.eqb n) cuts && (S n <? k) then [(12%N, S (S n))] else [])
              else []) 1.
Lemma SG_wf k cuts : 0 < k -> wf (SG k cuts).
Proof.
  intros Hk. constructor; cbn [ids root es SG].
  - apply seq_NoDup.
  - apply in_seq. lia.
  - intros n l m H E. apply in_seq. apply in_seq in H.
    destruct ((0 <? n) && (n <? k)) eqn:B; [|destruct E].
    apply andb_true_iff in B as [B1 B2]. apply Nat.ltb_lt in B1, B2. destruct E as [[= <- <-]|E]; [lia|].
    destruct (existsb (Nat.eqb n) cuts && (S n <? k)) eqn:C; [|destruct E].
    apply andb_true_iff in C as [_ C]. apply Nat.ltb_lt in C. destruct E as [[= <- <-]|[]]. lia.
  - assert (H : forall i, i < k -> path (SG k cuts) 1 (S i)).
    { induction i as [|i IH]; intros Hi; [constructor|]. eapply path_step; [apply IH; lia|]. cbn [es SG].
      assert (B : (0 <? S i) && (S i <? k) = true) by (apply andb_true_iff; split; apply Nat.ltb_lt; lia).
      rewrite B. left. reflexivity. }
    intros n Hn. apply in_seq in Hn. destruct n as [|n]; [lia|]. apply H. lia.
Qed.

(** A kill request in the course of a postponing pass is forgotten when the router is reset for the
    absorbing pass, so an incomplete result is returned. *)
Definition prun4 := run_postpone Xp (SG 40 [38]) (lazy false) N.eqb (fun x => x) (kill_at 0 3) 2 400.
Theorem C36_postponement_killed_refuted :
  exists X g c kills h, wf g /\ 0 < lanes X /\ po_fix c = false /\ kills 0 3 = true /\
    postpones X g c N.eqb (fun x => x) kills (Moved h) /\ ~ relocation c N.eqb g h.
Proof.
  exists Xp, (SG 40 [38]), (lazy false), (kill_at 0 3), (pgraph prun4).
  split; [apply SG_wf; lia|]. split; [simpl; lia|]. split; [auto|]. split; [auto|].
  split; [unfold prun4; apply run_postpone_ran; vm_compute; reflexivity|].
  intros (_ & _ & _ & _ & _ & R).
  assert (E : es (pgraph prun4) 39 = [(2%N, 40)]) by (vm_compute; reflexivity).
  assert (T : transplanted (lazy false) (ids (SG 40 [38])) (vx (SG 40 [38])) (es (SG 40 [38])) 39 (7%N, 40)).
  { exists 38, (12%N, 40), (2%N, 39). split; [apply in_seq; lia|]. split; [|auto].
    unfold paired, movable, stationary. repeat split; try (vm_compute; auto; fail); vm_compute; discriminate. }
  destruct (rl_new (R 39 ltac:(apply in_seq; lia)) T) as (e & B1 & B2 & B3). rewrite E in B1.
  destruct B1 as [<-|[]]. discriminate.
Qed.

(** If it is iterated, a request in the course of an absorbing pass other than the last one is also
    forgotten, whereas the vertices of the nodes visited since are destroyed and missing from the
    result. *)
Definition prun5 := run_postpone Xp (SG 40 [2]) (lazy true) N.eqb (fun x => x) (kill_at 1 3) 3 400.
Theorem C36_postponement_missing_vertices_refuted :
  exists X g c kills h, wf g /\ 0 < lanes X /\ po_fix c = true /\ kills 1 3 = true /\
    postpones X g c N.eqb (fun x => x) kills (Moved h) /\
    exists n, path g (root g) n /\ path h (root h) n /\ vx g n <> null /\ vx h n = null.
Proof.
  exists Xp, (SG 40 [2]), (lazy true), (kill_at 1 3), (pgraph prun5).
  split; [apply SG_wf; lia|]. split; [simpl; lia|]. split; [auto|]. split; [auto|].
  split; [unfold prun5; apply run_postpone_ran; vm_compute; reflexivity|].
  exists 31. split; [apply (wf_reach (SG_wf (k := 40) [2] ltac:(lia))); apply in_seq; lia|].
  split; [|split; [vm_compute; discriminate|vm_compute; reflexivity]].
  assert (H : forall i, i < 39 -> path (pgraph prun5) 1 (S i)).
  { assert (C : forallb (fun i => existsb (fun e : edge => snd e =? S (S i)) (es (pgraph prun5) (S i))) (seq 0 39) = true) by (vm_compute; reflexivity).
    rewrite forallb_forall in C.
    induction i as [|i IH]; intros Hi; [constructor|]. specialize (C i ltac:(apply in_seq; lia)). apply existsb_exists in C as ([l m] & C1 & C2).
    simpl in C2. apply Nat.eqb_eq in C2. subst m. eapply path_step; [apply IH; lia|exact C1]. }
  exact (H 30 ltac:(lia)).
Qed.

(** A request in the course of the last pass is reported, but not everything is reclaimed.  A leaf is
    attached to a chain by a postponable edge. *)
Definition BG (k j : nat) : graph word word :=
  mkGraph (seq 1 (S k)) N.of_nat
    (fun n => if (0 <? n) && (n <? k) then (2%N, S n) :: (if n =? j then [(12%N, S k)] else []) else []) 1.
Lemma BG_wf k j : 0 < j < k -> wf (BG k j).
Proof.
  intros Hk. constructor; cbn [ids root es BG].
  - apply seq_NoDup.
  - apply in_seq. lia.
  - intros n l m H E. apply in_seq. apply in_seq in H.
    destruct ((0 <? n) && (n <? k)) eqn:B; [|destruct E].
    apply andb_true_iff in B as [B1 B2]. apply Nat.ltb_lt in B1, B2. destruct E as [[= <- <-]|E]; [lia|].
    destruct (n =? j); [|destruct E]. destruct E as [[= <- <-]|[]]. lia.
  - assert (H : forall i, i < k -> path (BG k j) 1 (S i)).
    { induction i as [|i IH]; intros Hi; [constructor|]. eapply path_step; [apply IH; lia|]. cbn [es BG].
      assert (B : (0 <? S i) && (S i <? k) = true) by (apply andb_true_iff; split; apply Nat.ltb_lt; lia).
      rewrite B. left. reflexivity. }
    intros n Hn. apply in_seq in Hn. destruct n as [|n]; [lia|]. destruct (Nat.eq_dec n k) as [->|D]; [|apply H; lia].
    assert (B : (0 <? j) && (j <? k) = true) by (apply andb_true_iff; split; apply Nat.ltb_lt; lia).
    eapply path_step with (b := j); [destruct j as [|j]; [lia|]; apply H; lia|]. cbn [es BG]. rewrite B, Nat.eqb_refl. right. now left.
Qed.

Definition cut_of (w : option pverdict) : edges * edges * list nat :=
  match w with Some (Cut o post gone) => (o, post, gone) | _ => (fun _ => [], fun _ => [], []) end.
Definition is_cut (w : option pverdict) : bool := match w with Some (Cut _ _ _) => true | _ => false end.
Lemma run_postpone_cut X g c eeq ehash kills fuel k :
  is_cut (run_postpone X g c eeq ehash kills fuel k) = true ->
  postpones X g c eeq ehash kills
    (Cut (fst (fst (cut_of (run_postpone X g c eeq ehash kills fuel k)))) (snd (fst (cut_of (run_postpone X g c eeq ehash kills fuel k))))
         (snd (cut_of (run_postpone X g c eeq ehash kills fuel k)))).
Proof.
  intros H. apply run_prounds_sound with (fuel := fuel) (k := k). fold (run_postpone X g c eeq ehash kills fuel k).
  destruct (run_postpone X g c eeq ehash kills fuel k) as [[h|e|o post gone]|]; try discriminate. reflexivity.
Qed.

Lemma along_bounded (o : edges) r N : In r N -> forallb (fun n => forallb (fun e => existsb (Nat.eqb (snd e)) N) (o n)) N = true ->
  forall m, along o r m -> In m N.
Proof.
  intros Hr C m B. induction B as [|n l m B1 B2 B3]; [auto|].
  rewrite forallb_forall in C. specialize (C n B2). rewrite forallb_forall in C. specialize (C _ B3). now apply existsb_eqb in C.
Qed.
Lemma unreclaimed X g o gone n N :
  (1 <? lanes X) && negb (existsb (Nat.eqb n) gone) && existsb (Nat.eqb (root g)) N && negb (existsb (Nat.eqb n) N) &&
  forallb (fun n => forallb (fun e => existsb (Nat.eqb (snd e)) N) (o n)) N = true -> ~ vertex_reclaimed X g o gone n.
Proof.
  intros H. rewrite !andb_true_iff, !negb_true_iff in H. destruct H as ((((H1 & H2) & H3) & H4) & H5).
  intros [B|B].
  - apply existsb_eqb in B. congruence.
  - unfold node_reclaimed in B. rewrite H1 in B. apply existsb_eqb in H3. pose proof (along_bounded _ H3 H5 B) as C.
    apply existsb_eqb in C. congruence.
Qed.
Lemma unfreed X g o (e : edge) :
  negb (1 <? lanes X) && forallb (fun n => forallb (fun x => negb (snd x =? snd e)) (o n)) (ids g) = true ->
  forall m, ~ edge_reclaimed X g o m e.
Proof.
  intros H m [B1 B2]. rewrite andb_true_iff, negb_true_iff, forallb_forall in H. destruct H as [H1 H2].
  unfold node_reclaimed in B1. rewrite H1 in B1. specialize (H2 m B1). rewrite forallb_forall in H2. specialize (H2 _ B2).
  rewrite Nat.eqb_refl in H2. discriminate.
Qed.

(** Two workers, each of which looks for requests with every 32nd packet, which in the pass in question
    are number 59 and number 68 of all.  The vertex of the leaf is lost. *)
Definition Xq : env := mkEnv 2 true (fun k => (k =? 59) || (k =? 68)) (fun _ => false).
Definition prun6 := run_postpone Xq (BG 80 75) (lazy false) N.eqb (fun x => x) (kill_at 1 3) 2 800.
Theorem C69_vertex_refuted :
  exists X g c kills o post gone, wf g /\ 1 < lanes X /\ po_fix c = false /\ kills 1 3 = true /\
    postpones X g c N.eqb (fun x => x) kills (Cut o post gone) /\
    exists n, In n (ids g) /\ vx g n <> null /\ ~ vertex_reclaimed X g o gone n.
Proof.
  exists Xq, (BG 80 75), (lazy false), (kill_at 1 3), (fst (fst (cut_of prun6))), (snd (fst (cut_of prun6))), (snd (cut_of prun6)).
  split; [apply BG_wf; lia|]. split; [simpl; lia|]. split; [auto|]. split; [auto|].
  split; [unfold prun6; apply run_postpone_cut; vm_compute; reflexivity|].
  exists 81. split; [apply in_seq; lia|]. split; [vm_compute; discriminate|].
  apply unreclaimed with (N := seq 1 80); vm_compute; reflexivity.
Qed.

(** With one worker, it is the label. *)
Definition prun7 := run_postpone Xp (BG 40 35) (lazy false) N.eqb (fun x => x) (kill_at 1 3) 2 800.
Theorem C69_label_refuted :
  exists X g c kills o post gone, wf g /\ lanes X = 1 /\ po_fix c = false /\ kills 1 3 = true /\
    postpones X g c N.eqb (fun x => x) kills (Cut o post gone) /\
    exists n e, In n (ids g) /\ In e (post n) /\ forall m, ~ edge_reclaimed X g o m e.
Proof.
  exists Xp, (BG 40 35), (lazy false), (kill_at 1 3), (fst (fst (cut_of prun7))), (snd (fst (cut_of prun7))), (snd (cut_of prun7)).
  split; [apply BG_wf; lia|]. split; [simpl; lia|]. split; [auto|]. split; [auto|].
  split; [unfold prun7; apply run_postpone_cut; vm_compute; reflexivity|].
  exists 36, (7%N, 41). split; [apply in_seq; lia|].
  split; [replace (snd (fst (cut_of prun7)) 36) with [(7%N, 41)] by (vm_compute; reflexivity); now left|].
  apply unfreed; vm_compute; reflexivity.
Qed.
