(** Stretching: claims C32, C50, C71, C72 and C73, and kill requests. *)
From Coq Require Import List Arith NArith Lia Bool Permutation Cantor.
From Verif Require Import Base Machine Ports PortsProofs PortsTerm PortsExec P_Ports BrigadeProofs Env Hash Graph Visitor VisitorProofs Walk Run Pass Fold P_Fold
  Traverse TraverseProofs P_Traverse Fabricate Containers P_Containers Brigade P_Brigade Partition P_Partition Filter P_Filter P_Killed MergeProofs P_Merge
  Compose P_Compose Props P_Split Stretch StretchProofs.
Import ListNotations.

Set Implicit Arguments.

Local Opaque lane_of node_hash.

(** ** The specification *)
Section Spec.
  Variable x : stretcher.
  Variables veq eeq : word -> word -> bool.

  (** What the expander returns about an edge from [n], if the vertices have the properties [P] *)
  Definition opinion (P : nat -> word) (n : nat) (e : edge) : bool * list bridge * option error :=
    expander x (P n) (fst e) (P (snd e)).
  Definition retains (P : nat -> word) (n : nat) (e : edge) : Prop := fst (fst (opinion P n e)) = false.
  Definition declared (P : nat -> word) (n : nat) (e : edge) : list bridge := snd (fst (opinion P n e)).
  Definition enters (b : bridge) : word := fst (fst b).
  Definition between (b : bridge) : word := snd (fst b).
  Definition leaves (b : bridge) : word := snd b.

  (** Why an edge is in the result: it is the [i]th of the given edges from its origin, or it leads to or
      from the [j]th of the vertices declared for the [i]th edge, that from its origin or from [n]. *)
  Inductive reason := Retained (i : nat) | Entering (i j : nat) | Leaving (n i j : nat).
  Definition because (P : nat -> word) (g h : graph word word) (y : nat) (o : reason) (e' : edge) : Prop :=
    match o with
    | Retained i => In y (ids g) /\ nth_error (es g y) i = Some e' /\ retains P y e'
    | Entering i j =>
        exists e b, In y (ids g) /\ nth_error (es g y) i = Some e /\ nth_error (declared P y e) j = Some b /\
          fst e' = enters b /\ veq (between b) (vx h (snd e')) = true
    | Leaving n i j =>
        exists e b, In n (ids g) /\ nth_error (es g n) i = Some e /\ nth_error (declared P n e) j = Some b /\
          veq (between b) (vx h y) = true /\ e' = (leaves b, snd e)
    end.

  (** A graph that is made of [g] by stretching it once *)
  Record stretched (P : nat -> word) (g h : graph word word) : Prop := {
    x_wf : wf h;
    x_root : root h = root g;
    x_calm : forall n e, In n (ids g) -> In e (es g n) -> snd (opinion P n e) = None;
    x_distinct : forall y z, In y (ids h) -> In z (ids h) -> veq (vx h y) (vx h z) = true -> y = z;
    x_vertices : forall y, In y (ids h) ->
      (In y (ids g) /\ vx h y = vx g y) \/
      (~ In y (ids g) /\ (forall n, In n (ids g) -> veq (vx g n) (vx h y) = false) /\
       exists n e b, In n (ids g) /\ In e (es g n) /\ In b (declared P n e) /\ vx h y = between b);
    x_sound : forall y, In y (ids h) -> exists os, NoDup os /\ Forall2 (because P g h y) os (es h y);
    x_retained : forall n l m, In n (ids h) -> In n (ids g) -> In (l, m) (es g n) -> retains P n (l, m) ->
      exists l', In (l', m) (es h n) /\ eeq l' l = true;
    x_entering : forall n e b, In n (ids h) -> In n (ids g) -> In e (es g n) -> In b (declared P n e) ->
      exists l' z, In (l', z) (es h n) /\ eeq l' (enters b) = true /\ veq (between b) (vx h z) = true;
    x_leaving : forall n e b y, In n (ids g) -> In e (es g n) -> In b (declared P n e) ->
      In y (ids h) -> veq (between b) (vx h y) = true -> exists l', In (l', snd e) (es h y) /\ eeq l' (leaves b) = true
  }.

  (** A vertex is declared that is not in the graph *)
  Definition unseen (P : nat -> word) (g : graph word word) : Prop :=
    exists n e b, In n (ids g) /\ In e (es g n) /\ In b (declared P n e) /\ forall m, In m (ids g) -> veq (vx g m) (between b) = false.
  Definition properties (g : graph word word) (P : nat -> word) : Prop :=
    forall n, In n (ids g) -> true_property (st_prop x) g n (P n).

  (** The graphs that are made by stretching repeatedly *)
  Inductive on_the_way (g : graph word word) : graph word word -> Prop :=
  | way_start : on_the_way g g
  | way_step P h k : on_the_way g h -> properties h P -> stretched P h k -> st_fix x = true -> unseen P h -> on_the_way g k.
  Definition stretched_to (g k : graph word word) : Prop :=
    exists h P, on_the_way g h /\ properties h P /\ stretched P h k /\ (st_fix x = true -> ~ unseen P h).

  (** No two of the edges declared from any vertex lead with equal labels to equal vertices *)
  Definition no_repetition (P : nat -> word) (g : graph word word) : Prop :=
    forall n i j i' j' e e' b b', In n (ids g) -> nth_error (es g n) i = Some e -> nth_error (es g n) i' = Some e' ->
      nth_error (declared P n e) j = Some b -> nth_error (declared P n e') j' = Some b' ->
      eeq (enters b) (enters b') = true -> veq (between b) (between b') = true -> i = i' /\ j = j'.
End Spec.

(** ** One round *)
Section Round.
  Variable X : env.
  Variable g : graph word word.
  Variable P : nat -> word.
  Variable x : stretcher.
  Variable veq : word -> word -> bool.
  Variable vhash : word -> N.
  Variable eeq : word -> word -> bool.
  Variable ehash : word -> N.
  Variable vertex_limit : nat.
  Variable addr : nat -> nat -> nat -> nat.
  Hypothesis Hl : 0 < lanes X.
  Hypothesis Hv : equivalence veq.
  Hypothesis Hvh : forall x y, veq x y = true -> vhash x = vhash y.
  Hypothesis He : equivalence eeq.
  Hypothesis Heh : forall x y, eeq x y = true -> ehash x = ehash y.
  Hypothesis W : wf g.
  Hypothesis Hd : forall n m, In n (ids g) -> In m (ids g) -> veq (vx g n) (vx g m) = true -> n = m.
  Variable l0 : list nat.
  Hypothesis U : unused (ids g ++ l0) addr.
  Lemma Ha : forall n i j n' i' j', addr n i j = addr n' i' j' -> (n, i, j) = (n', i', j').
  Proof. apply U. Qed.
  Lemma Hu : forall n i j, ~ In (addr n i j) (ids g).
  Proof. intros n i j B. apply (proj2 U n i j), in_or_app. now left. Qed.

  Lemma range_nth n i : in_range g n i -> nth_error (es g n) i = Some (given g n i).
  Proof. intros [_ H]. now apply nth_error_nth'. Qed.
  Lemma nth_range n i e : In n (ids g) -> nth_error (es g n) i = Some e -> in_range g n i /\ e = given g n i.
  Proof.
    intros Hn H. assert (R : in_range g n i) by (split; auto; apply nth_error_Some; congruence).
    split; auto. rewrite (range_nth R) in H. congruence.
  Qed.
  Lemma in_range_of n e : In n (ids g) -> In e (es g n) -> exists i, in_range g n i /\ e = given g n i.
  Proof. intros Hn H. apply In_nth_error in H as (i & H). exists i. now apply nth_range. Qed.
  Lemma bridges_declared n i : bridges g P x n i = declared x P n (given g n i).
  Proof. reflexivity. Qed.
  Lemma bridge_nth n i j : j < length (bridges g P x n i) -> nth_error (bridges g P x n i) j = Some (bridge_at g P x n i j).
  Proof. apply nth_error_nth'. Qed.

  Lemma repetition : no_repetition x veq eeq P g -> unrepeated g P x veq eeq.
  Proof.
    intros H n i j i' j' Hn Hi Hi' Hj Hj' E A.
    refine (H n i j i' j' _ _ _ _ Hn (range_nth _) (range_nth _) (bridge_nth _ _ Hj) (bridge_nth _ _ Hj') E A); now split.
  Qed.

  Section Done.
    Variable s : xdata.
    Hypothesis R : stretch_pass X x veq vhash eeq ehash vertex_limit g P addr s.

    Lemma completed : completes (stretching X g P x veq vhash eeq ehash vertex_limit addr) (xstart g) (Old (root g), None) s.
    Proof. apply ran_completes in R; [exact R|]. intros p. now apply lane_of_lt. Qed.
    Lemma L_end : linv X g P x veq vhash vertex_limit None s [].
    Proof. exact (linv_end Hv Hvh W Hd completed). Qed.

    Variable order : list nat.
    Hypothesis Ho : Permutation order (seq 0 (lanes X)).
    Hypothesis Hf : first_error (faults s) order = None.
    Lemma unfaulted q : faults s (xlane X g P x vhash q) = None.
    Proof.
      apply (proj1 (first_error_none _ _) Hf). apply (Permutation_in _ (Permutation_sym Ho)). apply in_seq. split; [lia|].
      simpl. now apply lane_of_lt.
    Qed.
    Lemma I_end : inv X g P x veq vhash eeq None s [].
    Proof. exact (inv_end Hv Hvh He Heh W Hd Ha Hu completed unfaulted). Qed.

    Notation alive := (alive X g P x vhash).
    Notation code := (code addr).
    Notation h nodes := (mkGraph nodes (vertex_at X g P x addr s) (edges_at X g P x addr s) (root g)).

    Lemma vertex_code y : alive s y -> vertex_at X g P x addr s (code y) = vertex g P x y.
    Proof. intros H. unfold vertex_at. now rewrite (proj2 (node_at_some _ Ha Hu Hl L_end _ y) (conj H eq_refl)). Qed.
    Lemma edges_code y : alive s y ->
      edges_at X g P x addr s (code y) = map (fun e => (label g P x e, code (remote s e))) (outs s y).
    Proof. intros H. unfold edges_at. now rewrite (proj2 (node_at_some _ Ha Hu Hl L_end _ y) (conj H eq_refl)). Qed.
    Lemma reached k : along (edges_at X g P x addr s) (root g) k -> exists y, alive s y /\ k = code y.
    Proof.
      intros H. induction H as [|k l m H IH B].
      - exists (Old (root g)). split; auto. apply (old_alive W I_end), W.
      - destruct IH as (y & A & ->). rewrite (edges_code A) in B. apply in_map_iff in B as (e & [= _ <-] & B).
        exists (remote s e). split; auto. eapply (remote_alive W L_end I_end); eauto.
    Qed.

    Definition reason_of (e : eid) : reason :=
      match e with Given n i => Retained i | Ante n i j => Entering i j | Post n i j => Leaving n i j end.

    Lemma origin_because y e : alive s y -> In e (outs s y) ->
      because x veq P g (h []) (code y) (reason_of e) (label g P x e, code (remote s e)).
    Proof.
      intros A B. assert (S := @i_outs _ _ _ _ _ _ _ _ _ _ I_end y e (or_introl A) B).
      destruct e as [n i|n i j|n i j]; simpl in S; cbn [reason_of because].
      - destruct S as (-> & Hi & K). assert (Hn := alive_old L_end A). simpl.
        rewrite (l_given L_end). cbn [Stretch.code]. unfold target. rewrite <- surjective_pairing.
        split; auto. split; [now apply range_nth|exact K].
      - destruct S as (-> & C). assert (C' := proj1 (created_all W L_end I_end n i j) C). destruct C' as [R1 R2].
        exists (given g n i), (bridge_at g P x n i j). split; [apply R1|]. split; [now apply range_nth|]. split; [now apply bridge_nth|].
        split; [reflexivity|]. destruct (ante_end I_end C) as (E1 & E2 & _). cbn [vx snd]. rewrite (vertex_code E2). exact E1.
      - destruct S as (C & E). assert (C' := proj1 (created_all W L_end I_end n i j) C). destruct C' as [R1 R2].
        exists (given g n i), (bridge_at g P x n i j). split; [apply R1|]. split; [now apply range_nth|]. split; [now apply bridge_nth|].
        destruct (ante_end I_end C) as (E1 & E2 & _). rewrite E in E1. cbn [vx]. rewrite (vertex_code A). split; [exact E1|].
        rewrite (l_post L_end). reflexivity.
    Qed.

    Lemma reasons y : alive s y -> NoDup (map reason_of (outs s y)).
    Proof.
      intros A. assert (N := i_nodup I_end (or_introl A)). assert (S := fun e => @i_outs _ _ _ _ _ _ _ _ _ _ I_end y e (or_introl A)).
      revert N S. generalize (outs s y). induction l as [|e l IH]; simpl; intros N S; constructor.
      - inversion N as [|? ? N1 N2]; subst. intros B. apply in_map_iff in B as (e' & E & B). apply N1. replace e with e'; auto.
        assert (S1 := S e (or_introl eq_refl)). assert (S2 := S e' (or_intror B)).
        destruct e, e'; simpl in *; try discriminate; inversion E; subst; f_equal; intuition congruence.
      - inversion N; subst. apply IH; auto.
    Qed.

    Lemma represented_edge y e : alive s y -> represented g P x eeq s e (outs s y) ->
      exists l', In (l', code (remote s e)) (edges_at X g P x addr s (code y)) /\ eeq l' (label g P x e) = true.
    Proof.
      intros A (e' & B & E & Er). exists (label g P x e'). split; auto. rewrite (edges_code A). apply in_map_iff.
      exists e'. now rewrite Er.
    Qed.

    Theorem round_stretched nodes : NoDup nodes -> (forall k, In k nodes <-> along (edges_at X g P x addr s) (root g) k) ->
      stretched x veq eeq P g (h nodes).
    Proof.
      intros N Hn. assert (Al : forall k, In k nodes -> exists y, alive s y /\ k = code y) by (intros k B; apply reached, Hn, B).
      assert (Bh : forall y o e, because x veq P g (h []) y o e -> because x veq P g (h nodes) y o e) by (intros y [] e B; exact B).
      constructor; cbn [ids root].
      - constructor; cbn [ids vx es root]; auto.
        + apply Hn. constructor.
        + intros k l m B B'. apply Hn. apply Hn in B. econstructor; eauto.
        + intros k B. apply along_path. now apply Hn.
      - reflexivity.
      - intros n e B B'. destruct (in_range_of n e B B') as (i & Rg & ->).
        destruct (calm_end completed n (all_marked W I_end _ B)) as [C|(q & C)]; [apply (C i), Rg|]. destruct C. apply unfaulted.
      - intros y z By Bz E. cbn [vx] in E. destruct (Al y By) as (y' & Ay & ->). destruct (Al z Bz) as (z' & Az & ->).
        rewrite (vertex_code Ay), (vertex_code Az) in E. f_equal. now apply (alive_unique Hv Hvh L_end Ay Az).
      - intros y By. cbn [vx]. destruct (Al y By) as (y' & Ay & ->). rewrite (vertex_code Ay). destruct y' as [n|n i j].
        + left. split; [now apply (alive_old L_end)|reflexivity].
        + right. split; [apply Hu|]. destruct (new_alive Hv Hvh L_end I_end Ay) as [C _].
          assert (C' := proj1 (created_all W L_end I_end n i j) C). destruct C' as [R1 R2]. split.
          * intros m Hm. destruct (veq (vx g m) (vertex g P x (New n i j))) eqn:E; auto. exfalso.
            apply (new_unequal Hv Hvh W L_end I_end Ay Hm). now apply (eqv_sym Hv).
          * exists n, (given g n i), (bridge_at g P x n i j). split; [apply R1|]. split; [eapply nth_error_In, range_nth, R1|].
            split; [eapply nth_error_In, bridge_nth, R2|reflexivity].
      - intros y By. destruct (Al y By) as (y' & Ay & ->). exists (map reason_of (outs s y')). split; [now apply reasons|].
        cbn [es]. rewrite (edges_code Ay).
        assert (Q : forall e, In e (outs s y') -> because x veq P g (h nodes) (code y') (reason_of e) (label g P x e, code (remote s e))).
        { intros e B. apply Bh. now apply origin_because. }
        clear -Q. induction (outs s y') as [|e l IH]; simpl; constructor; [apply Q; now left|apply IH; intros; apply Q; now right].
      - intros n l m _ B B' K. destruct (in_range_of n (l, m) B B') as (i & Rg & E). cbn [es].
        assert (A := old_alive W I_end _ B). assert (Q := i_given I_end (all_marked W I_end _ B) (proj2 Rg)).
        assert (K' : keep g P x n i) by (unfold keep, Stretch.expansion; rewrite <- E; exact K).
        destruct (represented_edge A (Q K')) as (l' & F1 & F2). exists l'. rewrite (l_given L_end) in F1. cbn in F1, F2. unfold target in F1.
        rewrite <- E in F1, F2. auto.
      - intros n e b _ B B' Bb. destruct (in_range_of n e B B') as (i & Rg & ->). cbn [es vx]. apply In_nth_error in Bb as (j & Bj).
        assert (C : created g P x s n i j) by (apply (created_all W L_end I_end); split; auto; apply nth_error_Some; rewrite bridges_declared; congruence).
        assert (Eb : bridge_at g P x n i j = b).
        { assert (Q := @bridge_nth n i j (proj2 (proj1 (created_all W L_end I_end n i j) C))). rewrite bridges_declared, Bj in Q. congruence. }
        assert (A := old_alive W I_end _ B).
        destruct (represented_edge A (i_antes I_end C)) as (l' & F1 & F2). exists l', (code (remote s (Ante n i j))). split; auto.
        destruct (ante_end I_end C) as (E1 & E2 & _). rewrite (vertex_code E2). unfold alike in E1. cbn in E1, F2. rewrite Eb in E1, F2. auto.
      - intros n e b y B B' Bb By E. destruct (in_range_of n e B B') as (i & Rg & ->). cbn [es vx] in *. apply In_nth_error in Bb as (j & Bj).
        assert (C : created g P x s n i j) by (apply (created_all W L_end I_end); split; auto; apply nth_error_Some; rewrite bridges_declared; congruence).
        assert (Eb : bridge_at g P x n i j = b).
        { assert (Q := @bridge_nth n i j (proj2 (proj1 (created_all W L_end I_end n i j) C))). rewrite bridges_declared, Bj in Q. congruence. }
        destruct (Al y By) as (y' & Ay & ->). rewrite (vertex_code Ay) in E.
        destruct (ante_end I_end C) as (E1 & E2 & E3).
        assert (Ey : y' = remote s (Ante n i j)).
        { apply (alive_unique Hv Hvh L_end Ay E2). unfold alike in *. cbn in E1. rewrite Eb in E1. apply (eqv_trans Hv) with (2 := E1).
          now apply (eqv_sym Hv). }
        subst y'. destruct (represented_edge Ay E3) as (l' & F1 & F2). exists l'. rewrite (l_post L_end) in F1. cbn in F2. rewrite Eb in F2. auto.
    Qed.

    Theorem round_growing : growing X s = true <-> unseen x veq P g.
    Proof.
      rewrite (growing_new Hl L_end). split.
      - intros (n & i & j & A). destruct (new_alive Hv Hvh L_end I_end A) as [C _].
        assert (C' := proj1 (created_all W L_end I_end n i j) C). destruct C' as [R1 R2].
        exists n, (given g n i), (bridge_at g P x n i j). split; [apply R1|]. split; [eapply nth_error_In, range_nth, R1|].
        split; [eapply nth_error_In, bridge_nth, R2|]. intros m Hm. destruct (veq _ _) eqn:E; auto. exfalso.
        apply (new_unequal Hv Hvh W L_end I_end A Hm). now apply (eqv_sym Hv).
      - intros (n & e & b & B & B' & Bb & F). destruct (in_range_of n e B B') as (i & Rg & ->). apply In_nth_error in Bb as (j & Bj).
        assert (C : created g P x s n i j) by (apply (created_all W L_end I_end); split; auto; apply nth_error_Some; rewrite bridges_declared; congruence).
        assert (Eb : bridge_at g P x n i j = b).
        { assert (Q := @bridge_nth n i j (proj2 (proj1 (created_all W L_end I_end n i j) C))). rewrite bridges_declared, Bj in Q. congruence. }
        destruct (ante_end I_end C) as (E1 & E2 & _). destruct (remote s (Ante n i j)) as [m|m i' j']; [|eauto].
        exfalso. assert (Hm := alive_old L_end E2). unfold alike in E1. cbn in E1. rewrite Eb in E1. apply (eqv_sym Hv) in E1.
        specialize (F m Hm). unfold between in F. congruence.
    Qed.
  End Done.

  (** The removal of the vertices that can't be reached *)
  Lemma weeded kills i s sq : never_killed kills -> weed_pass X x vhash kills i g P addr s sq ->
    NoDup (data sq) /\ (forall k, In k (data sq) <-> along (edges_at X g P x addr s) (root g) k) /\
    (forall sv order, Permutation order (seq 0 (lanes X)) -> xstatus X kills (S (2 * i)) sv order sq = None).
  Proof.
    intros K R. unfold weed_pass in R. apply ran_completes in R; [|intros p; now apply lane_of_lt].
    assert (V : forall order, pass_status order sq = None).
    { intros order. destruct (pass_status order sq) as [z|] eqn:Ez; auto. destruct (pass_error _ _ Ez) as (l & Hle).
      destruct (gwalk_any R) as (nodes & _ & _ & _ & D). destruct (D l z Hle) as (n1 & n & n2 & _ & B & _). discriminate. }
    assert (V' : forall order, Permutation order (seq 0 (lanes X)) -> vstatus (in_pass X kills (S (2 * i))) order sq = None).
    { intros order Ho. eapply pass_unkilled; eauto. intros k. apply K. }
    destruct (gwalk_success (X := in_pass X kills (S (2 * i))) Hl (Permutation_refl _) R (V' _ (Permutation_refl _))) as (nq & A1 & A2 & A3).
    apply collect_acts in A3. simpl in A3. subst nq. split; auto. split; auto.
    intros sv order Ho. unfold xstatus. destruct (_ && _); auto.
  Qed.
End Round.

(** ** C32 *)
Section Stretching.
  Variable X : env.
  Variable x : stretcher.
  Variable veq : word -> word -> bool.
  Variable vhash : word -> N.
  Variable eeq : word -> word -> bool.
  Variable ehash : word -> N.
  Variable vertex_limit : nat.
  Variable ins : graph word word -> nat -> list edge.
  Variable kills : nat -> nat -> bool.
  Hypothesis Hl : 0 < lanes X.
  Hypothesis Hv : equivalence veq.
  Hypothesis Hvh : forall x y, veq x y = true -> vhash x = vhash y.
  Hypothesis He : equivalence eeq.
  Hypothesis Heh : forall x y, eeq x y = true -> ehash x = ehash y.
  Hypothesis Hb : forall g, back_edges (st_prop x) g (ins g).
  Notation stretches := (stretches X x veq vhash eeq ehash vertex_limit ins kills).
  Notation rounds := (rounds X x veq vhash eeq ehash vertex_limit ins kills).

  Definition distinct (g : graph word word) : Prop :=
    forall n m, In n (ids g) -> In m (ids g) -> veq (vx g n) (vx g m) = true -> n = m.

  (** Every round is about a graph on the way. *)
  Lemma along_the_way g0 i g old lost v (Q : xverdict -> Prop) :
    never_killed kills -> rounds i g old lost v -> on_the_way x veq eeq g0 g -> wf g -> distinct g ->
    (forall i g old lost v, on_the_way x veq eeq g0 g -> wf g -> distinct g -> rounds i g old lost v ->
       (exists sp order e, set_pass X x ins kills i g sp /\ Permutation order (seq 0 (lanes X)) /\ pass_status order sp = Some e /\
          v = Ended None lost (Some e)) \/
       (exists P s addr, properties x g P /\ unused (ids g ++ old ++ lost) addr /\ stretch_pass X x veq vhash eeq ehash vertex_limit g P addr s /\
          (dangling s = true /\ v = Crashed \/
           dangling s = false /\ (exists order, Permutation order (seq 0 (lanes X)) /\
             exists e, first_error (faults s) order = Some e /\ v = Ended None (lost ++ old) (Some e)) \/
           dangling s = false /\ exists order sq, Permutation order (seq 0 (lanes X)) /\ first_error (faults s) order = None /\
             (st_fix x = true -> ~ unseen x veq P g) /\ weed_pass X x vhash kills i g P addr s sq /\
             v = Ended (Some (mkGraph (data sq) (vertex_at X g P x addr s) (edges_at X g P x addr s) (root g))) (lost ++ old) None)) ->
       Q v) -> Q v.
  Proof.
    intros K H Wy W D Hq. induction H as
      [i g old lost sp order e R1 O1 S1|i g old lost sp order addr s R1 O1 S1 U R2 Dg|
       i g old lost sp order addr s order' e R1 O1 S1 U R2 Dg O2 S2|
       i g old lost sp order addr s order' sq order'' R1 O1 S1 U R2 Dg O2 S2 Fx R3 O3|
       i g old lost sp order addr s order' sq v R1 O1 S1 U R2 Dg O2 S2 Fx R3 Rn IH].
    - apply (Hq i g old lost _ Wy W D); [econstructor; eauto|]. left. exists sp, order, e. auto.
    - assert (Hp := set_ok Hl W K R1 O1 S1 (Hb g)).
      apply (Hq i g old lost _ Wy W D); [eapply rd_crash; eauto|]. right. exists (data sp), s, addr. auto 10.
    - assert (Hp := set_ok Hl W K R1 O1 S1 (Hb g)).
      apply (Hq i g old lost _ Wy W D); [eapply rd_unstretched with (sp := sp) (order := order); eauto|]. right. exists (data sp), s, addr.
      split; auto. split; auto. split; auto. right. left. split; auto. exists order'. eauto.
    - assert (Hp := set_ok Hl W K R1 O1 S1 (Hb g)).
      assert (E := rd_last _ _ R1 O1 S1 U R2 Dg O2 S2 Fx R3 O3).
      destruct (weeded Hl K R3) as (_ & _ & Q3). rewrite (Q3 _ _ O3) in *.
      apply (Hq i g old lost _ Wy W D E). right. exists (data sp), s, addr.
      split; auto. split; auto. split; auto. right. right. split; auto. exists order', sq. split; auto. split; auto. split; auto.
      intros Ff. rewrite Ff in Fx. simpl in Fx. intros Un.
      apply (round_growing Hl Hv Hvh He Heh W D _ U R2 O2 S2) in Un. congruence.
    - assert (Hp := set_ok Hl W K R1 O1 S1 (Hb g)). apply andb_true_iff in Fx as [Ff Fg].
      destruct (weeded Hl K R3) as (Q1 & Q2 & Q3).
      assert (St := round_stretched Hl Hv Hvh He Heh W D _ U R2 O2 S2 Q1 Q2).
      apply IH; auto.
      + apply way_step with (P := data sp) (h := g); auto. now apply (round_growing Hl Hv Hvh He Heh W D _ U R2 O2 S2).
      + apply St.
      + intros n m. apply (x_distinct St).
  Qed.

  Lemma way_good g h : on_the_way x veq eeq g h -> wf g -> distinct g -> wf h /\ distinct h.
  Proof. intros H W D. destruct H as [|P h k _ _ H _ _]; auto. split; [apply H|]. intros n m. apply (x_distinct H). Qed.

  Theorem C32_stretching g h leaked : wf g -> distinct g -> never_killed kills ->
    stretches g (Ended (Some h) leaked None) -> stretched_to x veq eeq g h.
  Proof.
    intros W D K H.
    apply (@along_the_way g 0 g [] [] (Ended (Some h) leaked None)
             (fun v => match v with Ended (Some h) _ None => stretched_to x veq eeq g h | _ => True end)); auto; [constructor|].
    clear h leaked H. intros i g1 old lost v Wy W1 D1 _ [(sp & order & e & _ & _ & _ & ->)|(P & s & addr & Hp & U & R & [(_ & ->)|[(_ & order & _ & (e & _ & ->))|
      (Dg & order & sq & O & S & Un & R3 & ->)]])]; auto.
    destruct (weeded Hl K R3) as (Q1 & Q2 & _). exists g1, P. split; auto. split; auto. split; auto.
    exact (round_stretched Hl Hv Hvh He Heh W1 D1 _ U R O S Q1 Q2).
  Qed.

  (** *** Errors *)

  (** The property of a vertex can't be computed, or the expander has an error, or there is a limit. *)
  Definition property_error (g : graph word word) (e : error) : Prop :=
    exists n I w t t1 t2, In n (ids g) /\ Permutation I (inward g n) /\
      mapped_node (st_prop x) (vx g n) I (outward (es g) (vx g) n) fresh = (w, (t, t1, t2)) /\ err t = Some e.
  Definition expander_error (g : graph word word) (e : error) : Prop :=
    exists P n d, properties x g P /\ In n (ids g) /\ In d (es g n) /\ snd (opinion x P n d) = Some e.

  Lemma set_error i g sp order e : wf g -> set_pass X x ins kills i g sp -> pass_status order sp = Some e -> property_error g e.
  Proof.
    intros W R S. unfold set_pass in R. apply ran_completes in R; [|now apply vdest_lt].
    destruct (pass_error _ _ S) as (l & Hle). destruct (gwalk_any R) as (nodes & _ & N & _ & D).
    destruct (D l e Hle) as (n1 & n & n2 & En & B & _).
    assert (Hn : In n (ids g)). { apply along_ids; auto. apply N. rewrite En. apply in_elt. }
    unfold set_property, outcome_of in B.
    destruct (mapped_node (st_prop x) (vx g n) (map (seen_edge g) (ins g n)) (map (seen_edge g) (es g n)) no_values) as [w [[z z1] z2]] eqn:Em.
    destruct (err z) as [e1|] eqn:Ez; [|discriminate]. simpl in B. injection B as ->.
    destruct (Hb g) as [Hb'|Hb'].
    - exists n, (inward g n), w, z, z1, z2. split; auto. split; auto. split; auto. rewrite <- Em. now apply empty_incident.
    - exists n, (map (seen_edge g) (ins g n)), w, z, z1, z2. split; auto. split; [|split; auto].
      rewrite <- edges_to_inward. apply Permutation_map. auto.
  Qed.

  Lemma limit_positive : 0 < limit X vertex_limit -> 0 < vertex_limit.
  Proof.
    unfold limit. destruct (vertex_limit / lanes X) eqn:E.
    - destruct (Nat.eqb_spec vertex_limit 0); lia.
    - intros _. destruct vertex_limit; [|lia]. rewrite Nat.div_0_l in E; lia.
  Qed.

  Theorem C32_errors g r leaked e : wf g -> distinct g -> never_killed kills ->
    stretches g (Ended r leaked (Some e)) ->
    r = None /\ exists h, on_the_way x veq eeq g h /\ (e = INTOVF /\ 0 < vertex_limit \/ property_error h e \/ expander_error h e).
  Proof.
    intros W D K H.
    apply (@along_the_way g 0 g [] [] (Ended r leaked (Some e))
             (fun v => match v with Ended r _ (Some e) => r = None /\ exists h, on_the_way x veq eeq g h /\
                                      (e = INTOVF /\ 0 < vertex_limit \/ property_error h e \/ expander_error h e) | _ => True end)); auto; [constructor|].
    clear r leaked e H. intros i g1 old lost v Wy W1 D1 _ [(sp & order & e & R & _ & S & ->)|(P & s & addr & Hp & U & R & [(_ & ->)|[(_ & order & O & (e & S & ->))|
      (Dg & order & sq & O & S & Un & R3 & ->)]])]; auto.
    - split; auto. exists g1. split; auto. right. left. eapply set_error; eauto.
    - split; auto. exists g1. split; auto.
      assert (Q : exists l, faults s l = Some e).
      { clear -S. induction order as [|l order IH]; simpl in S; [discriminate|]. destruct (faults s l) eqn:E; eauto. inversion S; subst. eauto. }
      destruct Q as (l & Q). apply (l_fault (L_end Hl Hv Hvh W1 D1 R)) in Q as [[-> Q]|(n & j & Rg & Q)].
      + left. split; auto. now apply limit_positive.
      + right. right. exists P, n, (given g1 n j). split; auto. split; [apply Rg|]. split; [eapply nth_error_In, range_nth, Rg|exact Q].
  Qed.

  (** *** C72: memory *)
  Theorem C72_no_use_after_free g : wf g -> distinct g -> never_killed kills ->
    (forall h P, on_the_way x veq eeq g h -> properties x h P -> no_repetition x veq eeq P h) ->
    vertex_limit = 0 -> (forall h e, on_the_way x veq eeq g h -> ~ expander_error h e) ->
    ~ stretches g Crashed.
  Proof.
    intros W D K Hr Hv0 Hx H.
    apply (@along_the_way g 0 g [] [] Crashed (fun v => v <> Crashed)); auto; [constructor|].
    intros i g1 old lost v Wy W1 D1 _ [(sp & order & e & R & _ & S & ->)|(P & s & addr & Hp & U & R & [(Dg & ->)|[(_ & order & O & (e & S & ->))|
      (Dg & order & sq & O & S & Un & R3 & ->)]])]; try discriminate.
    exfalso. assert (F : first_error (faults s) (seq 0 (lanes X)) = None).
    { apply first_error_none. intros l _. destruct (faults s l) as [e|] eqn:E; auto. exfalso.
      apply (l_fault (L_end Hl Hv Hvh W1 D1 R)) in E as [[-> Q]|(n & j & Rg & Q)].
      - apply limit_positive in Q. lia.
      - eapply Hx; [exact Wy|]. exists P, n, (given g1 n j). split; auto. split; [apply Rg|]. split; [eapply nth_error_In, range_nth, Rg|exact Q]. }
    assert (I := I_end Hl Hv Hvh He Heh W1 D1 _ U R (Permutation_refl _) F).
    destruct (i_freed I (repetition (Hr _ _ Wy Hp))) as [_ Q]. congruence.
  Qed.

  Theorem C32_success g v : wf g -> distinct g -> never_killed kills -> vertex_limit = 0 ->
    (forall h P, on_the_way x veq eeq g h -> properties x h P -> no_repetition x veq eeq P h) ->
    (forall h e, on_the_way x veq eeq g h -> ~ expander_error h e /\ ~ property_error h e) ->
    stretches g v -> exists h leaked, v = Ended (Some h) leaked None.
  Proof.
    intros W D K L Hr Hx H. destruct v as [|r leaked [e|]].
    - exfalso. eapply C72_no_use_after_free; eauto. intros h e Wy. now apply Hx.
    - exfalso. destruct (C32_errors W D K H) as (_ & h & Wy & [[_ Q]|[Q|Q]]); [lia| |]; destruct (Hx h e Wy); contradiction.
    - destruct r as [h|]; eauto. exfalso.
      apply (@along_the_way g 0 g [] [] (Ended None leaked None) (fun v => match v with Ended None _ None => False | _ => True end)); auto; [constructor|].
      intros i g1 old lost v Wy W1 D1 _ [(sp & order & e & R & _ & S & ->)|(P & s & addr & Hp & U & R & [(Dg & ->)|[(_ & order & O & (e & S & ->))|
        (Dg & order & sq & O & S & Un & R3 & ->)]])]; auto.
  Qed.

  (** *** C73: nothing is left behind unless stretching is iterated. *)
  Theorem C73_no_leaks g r leaked e : never_killed kills -> st_fix x = false -> stretches g (Ended r leaked e) -> leaked = [].
  Proof.
    intros K Fx H. inversion H as
      [i g' old lost sp order e' R1 O1 S1|i g' old lost sp order addr s R1 O1 S1 U R2 Dg|
       i g' old lost sp order addr s order' e' R1 O1 S1 U R2 Dg O2 S2|
       i g' old lost sp order addr s order' sq order'' R1 O1 S1 U R2 Dg O2 S2 Fx' R3 O3 E|
       i g' old lost sp order addr s order' sq v R1 O1 S1 U R2 Dg O2 S2 Fx' R3 Rn]; auto.
    - destruct (weeded Hl K R3) as (_ & _ & Q3). specialize (Q3 (survivors X addr s) order'' O3).
      destruct (xstatus _ _ _ _ _ _); [discriminate|]. congruence.
    - rewrite Fx in Fx'. discriminate.
  Qed.

  (** *** C71: the limit *)
  Theorem C71_stretching_limit g h leaked : wf g -> distinct g -> never_killed kills -> 0 < vertex_limit ->
    stretches g (Ended (Some h) leaked None) ->
    forall l, length (filter (fun y => lane_of (lanes X) (vhash (vx h y)) =? l) (ids h)) <= Nat.max 1 (vertex_limit / lanes X).
  Proof.
    intros W D K Hp0 H.
    apply (@along_the_way g 0 g [] [] (Ended (Some h) leaked None)
             (fun v => match v with Ended (Some h) _ None =>
                forall l, length (filter (fun y => lane_of (lanes X) (vhash (vx h y)) =? l) (ids h)) <= Nat.max 1 (vertex_limit / lanes X)
              | _ => True end)); auto; [constructor|].
    clear h leaked H. intros i g1 old lost v Wy W1 D1 _ [(sp & order & e & R & _ & S & ->)|(P & s & addr & Hp & U & R & [(Dg & ->)|[(_ & order & O & (e & S & ->))|
      (Dg & order & sq & O & S & Un & R3 & ->)]])]; auto.
    destruct (weeded Hl K R3) as (Q1 & Q2 & _). intros l. cbn [ids vx].
    assert (L := L_end Hl Hv Hvh W1 D1 R).
    set (f := fun y => _). set (lst := filter f (data sq)).
    assert (Lim : limit X vertex_limit = Nat.max 1 (vertex_limit / lanes X)).
    { unfold limit. destruct (vertex_limit / lanes X); [destruct (Nat.eqb_spec vertex_limit 0)|]; lia. }
    assert (Q : incl lst (map (fun c => code addr (fst c)) (contents (stored s l)))).
    { intros k B. unfold lst in B. apply filter_In in B as [B1 B2]. apply Q2 in B1.
      apply (reached Hl Hv Hvh He Heh W1 D1 _ U R O S) in B1 as (y & (cs & A) & ->).
      unfold f in B2. rewrite (vertex_code Hl Hv Hvh W1 D1 _ U R) in B2 by (now exists cs). apply Nat.eqb_eq in B2.
      apply in_map_iff. exists (y, cs). split; auto. apply contents_in; [apply (t_keys (l_tab L))|].
      exists (xslot X g1 P x vhash y). unfold holds, the_cell in A. unfold xlane, xhash in A. rewrite B2 in A. exact A. }
    apply NoDup_incl_length in Q; [|now apply NoDup_filter]. rewrite map_length in Q. rewrite <- (l_count L) in Q.
    rewrite <- Lim. etransitivity; [exact Q|]. destruct (lt_dec l (lanes X)) as [Hlt|Hlt].
    - apply (l_limit L); [|lia]. apply (proj1 (first_error_none _ _) S). apply (Permutation_in _ (Permutation_sym O)). apply in_seq. lia.
    - rewrite (l_count L). destruct (contents (stored s l)) as [|[y cs] t] eqn:E; [simpl; lia|]. exfalso.
      assert (B : In (y, cs) (contents (stored s l))) by (rewrite E; now left).
      apply contents_in in B as (k & B); [|apply (t_keys (l_tab L))]. apply (t_cells (l_tab L)) in B as [B _]. cbn [fst] in B.
      apply Hlt. rewrite <- B. now apply lane_of_lt.
  Qed.
End Stretching.

(** *** C32: the result of a pass does not depend on the schedule, except that equal edges may be united. *)
Lemma Forall2_right {A B} (R : A -> B -> Prop) l l' b : Forall2 R l l' -> In b l' -> exists a, R a b.
Proof. intros F. induction F as [|a c l l' Hac F IH]; [intros []|]. intros [<-|B']; eauto. Qed.

Section Unique.
  Variable x : stretcher.
  Variables veq eeq : word -> word -> bool.
  Hypothesis Hv : equivalence veq.
  Hypothesis He : equivalence eeq.
  Variable g : graph word word.
  Hypothesis W : wf g.
  Hypothesis Hd : distinct veq g.
  Variables P P' : nat -> word.
  Hypothesis HP : forall n, In n (ids g) -> P n = P' n.
  Variables h h' : graph word word.
  Hypothesis H : stretched x veq eeq P g h.
  Hypothesis H' : stretched x veq eeq P' g h'.

  Lemma same_opinion n e : In n (ids g) -> In e (es g n) -> opinion x P n e = opinion x P' n e.
  Proof.
    intros A B. unfold opinion. destruct e as [l m]. rewrite (HP _ A). simpl. now rewrite (HP _ (wf_closed W _ _ _ A B)).
  Qed.
  Lemma given_vertex n : In n (ids g) -> In n (ids h) -> vx h n = vx g n.
  Proof. intros A B. destruct (x_vertices H n B) as [[_ Q]|[Q _]]; [auto|contradiction]. Qed.
  Lemma given_counterpart y y' : In y (ids g) -> In y (ids h) -> In y' (ids h') -> veq (vx h y) (vx h' y') = true -> y' = y.
  Proof.
    intros A B B' E. rewrite (given_vertex _ A B) in E. destruct (x_vertices H' y' B') as [[Q1 Q2]|(_ & Q & _)].
    - rewrite Q2 in E. symmetry. now apply Hd.
    - rewrite (Q y A) in E. discriminate.
  Qed.

  Lemma edges_match y y' l z : In y (ids h) -> In y' (ids h') -> veq (vx h y) (vx h' y') = true -> In (l, z) (es h y) ->
    exists l' z', In (l', z') (es h' y') /\ eeq l l' = true /\ In z' (ids h') /\ veq (vx h z) (vx h' z') = true.
  Proof.
    intros A A' E B. assert (Hz := wf_closed (x_wf H) _ _ _ A B).
    assert (Cl : forall l' z', In (l', z') (es h' y') -> In z' (ids h')) by (intros l' z'; apply (wf_closed (x_wf H')); auto).
    assert (Gv : forall m, In m (ids g) -> In m (ids h) -> In m (ids h') -> veq (vx h m) (vx h' m) = true).
    { intros m G1 G2 G3. rewrite (given_vertex _ G1 G2). destruct (x_vertices H' m G3) as [[_ Q]|[Q _]]; [|contradiction].
      rewrite Q. apply (eqv_refl Hv). }
    destruct (x_sound H y A) as (os & _ & F). destruct (Forall2_right _ F B) as (o & Bo). destruct o as [i|i j|n i j]; cbn [because] in Bo.
    - destruct Bo as (G & Bn & Br). assert (Ey := given_counterpart _ _ G A A' E). subst y'. apply nth_error_In in Bn.
      assert (Br' : retains x P' y (l, z)) by (unfold retains in *; now rewrite <- same_opinion).
      destruct (x_retained H' A' G Bn Br') as (l' & C1 & C2). exists l', z. split; auto. split; [now apply (eqv_sym He)|].
      assert (Hz' := Cl _ _ C1). split; auto. apply Gv; auto. eapply wf_closed; eauto.
    - destruct Bo as (e & b & G & Bn & Bb & E1 & E2). cbn [fst snd] in E1, E2. assert (Ey := given_counterpart _ _ G A A' E). subst y'.
      apply nth_error_In in Bn. apply nth_error_In in Bb. unfold declared in Bb. rewrite same_opinion in Bb by auto.
      destruct (x_entering H' _ _ b A' G Bn Bb) as (l' & z' & C1 & C2 & C3). exists l', z'. split; auto. split.
      + rewrite E1. now apply (eqv_sym He).
      + split; [eauto|]. apply (eqv_trans Hv) with (2 := C3). now apply (eqv_sym Hv).
    - destruct Bo as (e & b & G & Bn & Bb & E1 & [= El Ez]). subst l z.
      apply nth_error_In in Bn. apply nth_error_In in Bb. unfold declared in Bb. rewrite same_opinion in Bb by auto.
      destruct (@x_leaving _ _ _ _ _ _ H' n e b y' G Bn Bb A' (eqv_trans Hv _ _ _ E1 E)) as (l' & C1 & C2). exists l', (snd e). split; auto.
      split; [now apply (eqv_sym He)|]. assert (Hz' := Cl _ _ C1). split; auto. apply Gv; auto. destruct e. eapply wf_closed; eauto.
  Qed.

  Lemma vertices_match y : In y (ids h) -> exists y', In y' (ids h') /\ veq (vx h y) (vx h' y') = true.
  Proof.
    intros B. assert (Q := wf_reach (x_wf H) _ B). apply along_path in Q. clear B. induction Q as [|y l z Q IH B].
    - exists (root h'). split; [apply (wf_root (x_wf H'))|]. assert (R1 := wf_root (x_wf H)). assert (R2 := wf_root (x_wf H')).
      rewrite (x_root H), (x_root H') in *. rewrite given_vertex; auto; [|apply W].
      destruct (x_vertices H' _ R2) as [[_ E]|[E _]]; [rewrite E; apply (eqv_refl Hv)|destruct E; apply W].
    - destruct IH as (y' & A' & E). apply along_ids in Q; [|apply (x_wf H)].
      destruct (edges_match _ _ _ _ Q A' E B) as (l' & z' & _ & _ & C1 & C2). eauto.
  Qed.
End Unique.

Theorem C32_schedule_is_immaterial x veq eeq vhash ehash g X X' ins ins' limit limit' kills kills' h h' leaked leaked' :
  0 < lanes X -> 0 < lanes X' -> equivalence veq -> (forall x y, veq x y = true -> vhash x = vhash y) ->
  equivalence eeq -> (forall x y, eeq x y = true -> ehash x = ehash y) -> wf g -> distinct veq g ->
  (forall g, back_edges (st_prop x) g (ins g)) -> (forall g, back_edges (st_prop x) g (ins' g)) ->
  never_killed kills -> never_killed kills' -> st_fix x = false ->
  (forall n w w', In n (ids g) -> true_property (st_prop x) g n w -> true_property (st_prop x) g n w' -> w = w') ->
  stretches X x veq vhash eeq ehash limit ins kills g (Ended (Some h) leaked None) ->
  stretches X' x veq vhash eeq ehash limit' ins' kills' g (Ended (Some h') leaked' None) ->
  veq (vx h (root h)) (vx h' (root h')) = true /\
  (forall y, In y (ids h) -> exists y', In y' (ids h') /\ veq (vx h y) (vx h' y') = true) /\
  (forall y y', In y (ids h) -> In y' (ids h') -> veq (vx h y) (vx h' y') = true ->
     forall l z, In (l, z) (es h y) -> exists l' z', In (l', z') (es h' y') /\ eeq l l' = true /\ veq (vx h z) (vx h' z') = true).
Proof.
  intros Hl Hl' Hv Hvh He Heh W D Hb Hb' K K' Fx Det H H'.
  destruct (C32_stretching Hl Hv Hvh He Heh Hb W D K H) as (g1 & P & Q1 & Q2 & Q3 & _).
  destruct (C32_stretching Hl' Hv Hvh He Heh Hb' W D K' H') as (g2 & P' & Q1' & Q2' & Q3' & _).
  destruct Q1 as [|? ? ? _ _ _ Fx' _]; [|congruence]. destruct Q1' as [|? ? ? _ _ _ Fx' _]; [|congruence].
  assert (HP : forall n, In n (ids g) -> P n = P' n) by (intros n Hn; eapply Det; eauto).
  split; [|split].
  - destruct (vertices_match Hv He W D HP Q3 Q3' _ (wf_root (x_wf Q3))) as (y' & B & E).
    assert (Rg : In (root h) (ids g)) by (rewrite (x_root Q3); apply W).
    assert (Ey := given_counterpart D Q3 Q3' _ _ Rg (wf_root (x_wf Q3)) B E). subst y'. rewrite (x_root Q3'), <- (x_root Q3). exact E.
  - intros y B. exact (vertices_match Hv He W D HP Q3 Q3' _ B).
  - intros y y' B B' E l z Bz. destruct (edges_match Hv He W D HP Q3 Q3' _ _ _ _ B B' E Bz) as (l' & z' & C1 & C2 & _ & C3). eauto.
Qed.

(** *** C32: termination *)
Theorem C32_stretching_terminates X g P x veq vhash eeq ehash vertex_limit addr y :
  0 < lanes X -> equivalence veq -> (forall x y, veq x y = true -> vhash x = vhash y) -> wf g -> distinct veq g ->
  reachable (lanes X) (xdest X g P x vhash) (stretching X g P x veq vhash eeq ehash vertex_limit addr) (Old (root g), None) (xstart g) y ->
  Acc (fun y' z => step (lanes X) (xdest X g P x vhash) (stretching X g P x veq vhash eeq ehash vertex_limit addr) (Old (root g), None) z y') y.
Proof.
  intros Hl Hv Hvh W D Hy. eapply C11_every_schedule_terminates; eauto.
  - intros p. now apply lane_of_lt.
  - intros s [z c]. unfold stretching. destruct (faults s _); [discriminate|]. destruct (match found _ _ _ _ _ _ _ _ with Some (r, _) => _ | None => _ end); [discriminate|].
    destruct z as [n|n i j]; [|discriminate]. destruct (expand _ _ _ _ _) as [[[[k a] o] d] [e|]]; [|discriminate].
    destruct (cull _ _ _ _ _ _ _). discriminate.
  - now apply stretching_terminates.
Qed.

(** ** Examples *)

(** Addresses that are not in use *)
Definition above (l : list nat) (n i j : nat) : nat := S (list_max l) + Cantor.to_nat (n, Cantor.to_nat (i, j)).
Lemma above_unused l : unused l (above l).
Proof.
  unfold above. split.
  - intros n i j n' i' j' E. assert (E' : Cantor.to_nat (n, Cantor.to_nat (i, j)) = Cantor.to_nat (n', Cantor.to_nat (i', j'))) by lia.
    apply Cantor.to_nat_inj in E'. apply pair_equal_spec in E' as [-> E']. apply Cantor.to_nat_inj in E'. now apply pair_equal_spec in E' as [-> ->].
  - intros n i j B. assert (Q := proj1 (list_max_le l (list_max l)) (le_n _)). rewrite Forall_forall in Q. apply Q in B. lia.
Qed.

(** Stretching by a schedule in which all threads take turns *)
Section Runner.
  Variable X : env.
  Variable x : stretcher.
  Variable veq : word -> word -> bool.
  Variable vhash : word -> N.
  Variable eeq : word -> word -> bool.
  Variable ehash : word -> N.
  Variable vertex_limit : nat.
  Variable ins : graph word word -> nat -> list edge.
  Variable kills : nat -> nat -> bool.
  Variable k : nat.
  Notation all := (seq 0 (lanes X)).

  Fixpoint run_rounds (fuel i : nat) (g : graph word word) (old lost : list nat) : option xverdict :=
    match fuel with
    | 0 => None
    | S fuel =>
        let yp := sched_run (lanes X) (walk_dest X) (setting g (ins g) (st_prop x) (in_pass X kills (2 * i))) (vstart (fun _ => null)) (initial (root g)) k in
        let P := data (sh yp) in
        let addr := above (ids g ++ old ++ lost) in
        let ys := sched_run (lanes X) (xdest X g P x vhash) (stretching X g P x veq vhash eeq ehash vertex_limit addr) (xstart g) (Old (root g), None) k in
        let s := sh ys in
        let yq := sched_run (lanes X) (weeding_dest X g P x vhash addr s) (weeding X g P x vhash addr (in_pass X kills (S (2 * i))) s)
                    (vstart []) (initial (root g)) k in
        match mainpc yp with
        | MDone =>
            match pass_status all (sh yp) with
            | Some e => Some (Ended None lost (Some e))
            | None =>
                match mainpc ys with
                | MDone =>
                    if dangling s then Some Crashed
                    else match first_error (faults s) all with
                         | Some e => Some (Ended None (lost ++ old) (Some e))
                         | None =>
                             match mainpc yq with
                             | MDone =>
                                 let h := mkGraph (data (sh yq)) (vertex_at X g P x addr s) (edges_at X g P x addr s) (root g) in
                                 if st_fix x && growing X s then
                                   run_rounds fuel (S i) h (absent (survivors X addr s) (data (sh yq))) (lost ++ old)
                                 else Some (match xstatus X kills (S (2 * i)) (survivors X addr s) all (sh yq) with
                                            | None => Ended (Some h) (lost ++ old) None
                                            | Some e => Ended None (lost ++ old ++ data (sh yq)) (Some e)
                                            end)
                             | _ => None
                             end
                         end
                | _ => None
                end
            end
        | _ => None
        end
    end.

  Lemma run_rounds_sound fuel : forall i g old lost v, run_rounds fuel i g old lost = Some v ->
    rounds X x veq vhash eeq ehash vertex_limit ins kills i g old lost v.
  Proof.
    induction fuel as [|fuel IH]; [discriminate|]. intros i g old lost v. cbn [run_rounds].
    set (yp := sched_run (lanes X) (walk_dest X) _ _ _ k). set (addr := above _).
    set (ys := sched_run (lanes X) (xdest X g (data (sh yp)) x vhash) _ _ _ k).
    set (yq := sched_run (lanes X) (weeding_dest X g (data (sh yp)) x vhash addr (sh ys)) _ _ _ k).
    destruct (mainpc yp) eqn:E1; try discriminate. apply sched_ran in E1. fold yp in E1.
    destruct (pass_status (seq 0 (lanes X)) (sh yp)) as [e|] eqn:E2.
    { intros [= <-]. eapply rd_unset; eauto. }
    destruct (mainpc ys) eqn:E3; try discriminate. apply sched_ran in E3. fold ys in E3.
    assert (U := above_unused (ids g ++ old ++ lost)). fold addr in U.
    destruct (dangling (sh ys)) eqn:E4. { intros [= <-]. eapply rd_crash with (sp := sh yp) (addr := addr); eauto. }
    destruct (first_error (faults (sh ys)) (seq 0 (lanes X))) as [e|] eqn:E5.
    { intros [= <-]. eapply rd_unstretched with (sp := sh yp) (order := seq 0 (lanes X)) (addr := addr); eauto. }
    destruct (mainpc yq) eqn:E6; try discriminate. apply sched_ran in E6. fold yq in E6.
    destruct (st_fix x && growing X (sh ys)) eqn:E7.
    - intros H. apply IH in H. eapply rd_next with (sp := sh yp) (order := seq 0 (lanes X)) (addr := addr) (s := sh ys) (order' := seq 0 (lanes X)); eauto.
    - intros H. injection H as <-. eapply rd_last with (sp := sh yp) (order := seq 0 (lanes X)) (addr := addr) (s := sh ys) (order' := seq 0 (lanes X)); eauto.
  Qed.
  Definition run_stretch (g : graph word word) : option xverdict := run_rounds 10 0 g [] [].
  Lemma run_stretch_sound g v : run_stretch g = Some v -> stretches X x veq vhash eeq ehash vertex_limit ins kills g v.
  Proof. apply run_rounds_sound. Qed.
End Runner.

Definition stretch_graph (v : option xverdict) : graph word word :=
  match v with Some (Ended (Some h) _ _) => h | _ => mkGraph [] (fun _ => null) (fun _ => []) 0 end.
Definition stretch_leak (v : option xverdict) : list nat := match v with Some (Ended _ l _) => l | _ => [] end.
Definition stretch_done (v : option xverdict) : bool := match v with Some (Ended (Some _) _ None) => true | _ => false end.
Lemma stretch_ran v : stretch_done v = true -> v = Some (Ended (Some (stretch_graph v)) (stretch_leak v) None).
Proof. destruct v as [[|[h|] l [e|]]|]; try discriminate. reflexivity. Qed.
Definition shown (h : graph word word) : list (nat * (word * list edge)) := map (fun n => (n, (vx h n, es h n))) (ids h).

(** Vertices and labels are compared as they are. *)
Definition by_value : word -> N := fun v => v.
Lemma eqb_equivalence : equivalence N.eqb.
Proof.
  constructor.
  - apply N.eqb_refl.
  - intros a b H. apply N.eqb_eq in H. subst. apply N.eqb_refl.
  - intros a b c H H'. apply N.eqb_eq in H, H'. subst. apply N.eqb_refl.
Qed.
Lemma by_value_ok : forall a b, N.eqb a b = true -> by_value a = by_value b.
Proof. intros a b H. now apply N.eqb_eq in H. Qed.
Notation run X s limit kills g := (run_stretch X s N.eqb by_value N.eqb by_value limit (fun _ _ => []) kills 400 g).
Notation stretch X s limit kills := (stretches X s N.eqb by_value N.eqb by_value limit (fun _ _ => []) kills).

Definition by_label (fix_ : bool) (f : word -> bool * list bridge * option error) : stretcher :=
  mkStretcher fix_ (fun _ l _ => f l) vertex_itself.
(** 1 -5-> 2 -8-> 3, 1 -6-> 3, 3 -9-> 1: the edge labelled 5 is replaced by a path by way of a new vertex,
    that labelled 6 by one by way of the second, and another is added to that labelled 9 by way of a
    vertex declared for the first. *)
Definition SG : graph word word :=
  mkGraph [1; 2; 3] (fun n => (10 * N.of_nat n)%N)
    (fun n => match n with 1 => [(5%N, 2); (6%N, 3)] | 2 => [(8%N, 3)] | 3 => [(9%N, 1)] | _ => [] end) 1.
Definition T1 : stretcher := by_label false (fun l =>
  if N.eqb l 5 then (true, [(51, 77, 52)%N], None) else if N.eqb l 6 then (true, [(61, 20, 62)%N], None)
  else if N.eqb l 9 then (false, [(91, 77, 92)%N], None) else (false, [], None)).

Lemma SG_wf : wf SG.
Proof.
  constructor; simpl.
  - repeat constructor; simpl; intuition lia.
  - auto.
  - intros n l m H. destruct n as [|[|[|[|n]]]]; simpl; intuition congruence.
  - assert (P1 : path SG 1 1) by constructor.
    assert (P2 : path SG 1 2) by (apply path_step with (l := 5%N) (b := 1); simpl; auto).
    assert (P3 : path SG 1 3) by (apply path_step with (l := 6%N) (b := 1); simpl; auto).
    intros n [<-|[<-|[<-|[]]]]; assumption.
Qed.
Lemma tens g : (forall n, vx g n = (10 * N.of_nat n)%N) -> distinct N.eqb g.
Proof. intros H n m _ _ E. apply N.eqb_eq in E. rewrite !H in E. lia. Qed.
Lemma SG_distinct : distinct N.eqb SG.
Proof. now apply tens. Qed.

Notation srun1 := (run X1 T1 0 no_kills SG).
Notation srun3 := (run X3 T1 0 no_kills SG).
Definition sshown : list (nat * (word * list edge)) :=
  [(1, (10%N, [(61%N, 2); (51%N, 5)])); (5, (77%N, [(92%N, 1); (52%N, 2)])); (2, (20%N, [(8%N, 3); (62%N, 3)]));
   (3, (30%N, [(9%N, 1); (91%N, 5)]))].
Definition by_id (l : list (nat * (word * list edge))) (n : nat) := find (fun a => fst a =? n) l.
Lemma srun1_ran : stretch X1 T1 0 no_kills SG (Ended (Some (stretch_graph srun1)) [] None) /\
  length (ids (stretch_graph srun1)) = 4 /\ map (by_id (shown (stretch_graph srun1))) [1; 5; 2; 3] = map Some sshown.
Proof. split; [apply run_stretch_sound with (k := 400); vm_compute; reflexivity|]. split; vm_compute; reflexivity. Qed.
Lemma srun3_ran : stretch X3 T1 0 no_kills SG (Ended (Some (stretch_graph srun3)) [] None) /\
  length (ids (stretch_graph srun3)) = 4 /\ map (by_id (shown (stretch_graph srun3))) [1; 5; 2; 3] = map Some sshown.
Proof. split; [apply run_stretch_sound with (k := 400); vm_compute; reflexivity|]. split; vm_compute; reflexivity. Qed.

Example C32_stretching_ex :
  exists h, equivalence N.eqb /\ (forall a b, N.eqb a b = true -> by_value a = by_value b) /\
    (forall g, back_edges (st_prop T1) g (fun _ => [])) /\ wf SG /\ distinct N.eqb SG /\ never_killed no_kills /\
    stretch X3 T1 0 no_kills SG (Ended (Some h) [] None) /\ map (by_id (shown h)) [1; 5; 2; 3] = map Some sshown.
Proof.
  exists (stretch_graph srun3). split; [exact eqb_equivalence|]. split; [exact by_value_ok|]. split; [intros g; apply no_incident|].
  split; [exact SG_wf|]. split; [exact SG_distinct|]. split; [exact no_kills_never|]. split; apply srun3_ran.
Qed.

(** The expander fails on the last edge. *)
Definition T2 : stretcher := by_label false (fun l =>
  if N.eqb l 9 then (false, [], Some (USERERR 3)) else if N.eqb l 5 then (true, [(51, 77, 52)%N], None) else (false, [], None)).
Example C32_errors_ex :
  wf SG /\ distinct N.eqb SG /\ never_killed no_kills /\ stretch X3 T2 0 no_kills SG (Ended None [] (Some (USERERR 3))).
Proof.
  split; [exact SG_wf|]. split; [exact SG_distinct|]. split; [exact no_kills_never|].
  apply run_stretch_sound with (k := 400). vm_compute. reflexivity.
Qed.

Lemma nodup_app_disjoint {A} (l l' : list A) a : NoDup (l ++ l') -> In a l -> In a l' -> False.
Proof.
  induction l as [|b l IH]; [intros _ []|]. simpl. intros H [->|B] B'.
  - apply NoDup_cons_iff in H as [H _]. apply H, in_or_app. now right.
  - apply NoDup_cons_iff in H as [_ H]. auto.
Qed.
(** Expanders that look only at labels do not depend on properties. *)
Lemma unrepeated_labels f g P :
  (forall n, In n (ids g) -> NoDup (flat_map (fun e => map (fun b => (enters b, between b)) (snd (fst (f (fst e))))) (es g n))) ->
  no_repetition (by_label false f) N.eqb N.eqb P g.
Proof.
  intros H n i j i' j' e e' b b' Hn E E' B B' Q1 Q2. specialize (H n Hn). apply N.eqb_eq in Q1, Q2.
  change (declared (by_label false f) P n e) with (snd (fst (f (fst e)))) in B. change (declared (by_label false f) P n e') with (snd (fst (f (fst e')))) in B'.
  revert i i' H E E'. induction (es g n) as [|d l IH]; [intros [|i] i' _ [=]|]. intros i i' H E E'. simpl in H.
  assert (Ap : forall (q : edge) k (c : bridge) t, nth_error l k = Some q -> nth_error (snd (fst (f (fst q)))) t = Some c ->
    In (enters c, between c) (flat_map (fun e => map (fun b => (enters b, between b)) (snd (fst (f (fst e))))) l)).
  { intros q k c t A1 A2. apply in_flat_map. exists q. split; [eapply nth_error_In; eauto|].
    apply in_map_iff. exists c. split; auto. eapply nth_error_In; eauto. }
  assert (Hd : forall (c : bridge) t, nth_error (snd (fst (f (fst d)))) t = Some c ->
    In (enters c, between c) (map (fun b => (enters b, between b)) (snd (fst (f (fst d)))))).
  { intros c t A. apply in_map_iff. exists c. split; auto. eapply nth_error_In; eauto. }
  destruct i as [|i], i' as [|i']; simpl in E, E'.
  - injection E as <-. injection E' as <-. split; auto. apply nodup_app_l in H.
    apply (proj1 (NoDup_nth_error _) H).
    + rewrite map_length. apply nth_error_Some. congruence.
    + rewrite (map_nth_error _ _ _ B), (map_nth_error _ _ _ B'). congruence.
  - injection E as <-. exfalso. apply Hd in B. apply (Ap _ _ _ _ E') in B'. rewrite Q1, Q2 in B. eapply nodup_app_disjoint; eauto.
  - injection E' as <-. exfalso. apply Hd in B'. apply (Ap _ _ _ _ E) in B. rewrite Q1, Q2 in B. eapply nodup_app_disjoint; eauto.
  - apply nodup_app_r in H. destruct (IH _ _ H E E') as [-> ->]. auto.
Qed.

Lemma only_start x veq eeq g h : st_fix x = false -> on_the_way x veq eeq g h -> h = g.
Proof. intros H [|? ? ? _ _ _ F _]; [reflexivity|congruence]. Qed.
Lemma T1_unrepeated h P : on_the_way T1 N.eqb N.eqb SG h -> properties T1 h P -> no_repetition T1 N.eqb N.eqb P h.
Proof.
  intros Wy _. apply only_start in Wy; [|reflexivity]. subst. apply unrepeated_labels.
  intros n [<-|[<-|[<-|[]]]]; vm_compute; repeat constructor; simpl; intuition congruence.
Qed.
Lemma T1_no_errors h e : on_the_way T1 N.eqb N.eqb SG h -> ~ expander_error T1 h e /\ ~ property_error T1 h e.
Proof.
  intros _. split.
  - intros (P & n & [l m] & _ & _ & _ & E). unfold opinion, T1, by_label in E. cbn [expander fst snd] in E.
    destruct (N.eqb l 5), (N.eqb l 6), (N.eqb l 9); discriminate.
  - intros (n & I & w & t & t1 & t2 & _ & _ & E & E'). cbn in E. unfold applied, note_made in E. cbn in E.
    destruct (is_null (vx h n)); cbn in E; injection E as _ <- _ _; discriminate.
Qed.
Example C72_no_use_after_free_ex :
  wf SG /\ distinct N.eqb SG /\ never_killed no_kills /\
  (forall h P, on_the_way T1 N.eqb N.eqb SG h -> properties T1 h P -> no_repetition T1 N.eqb N.eqb P h) /\
  (forall h e, on_the_way T1 N.eqb N.eqb SG h -> ~ expander_error T1 h e) /\
  exists v, stretch X3 T1 0 no_kills SG v.
Proof.
  split; [exact SG_wf|]. split; [exact SG_distinct|]. split; [exact no_kills_never|]. split; [exact T1_unrepeated|].
  split; [intros h e H; now apply T1_no_errors|]. eexists. apply srun3_ran.
Qed.
Example C32_success_ex :
  wf SG /\ distinct N.eqb SG /\ never_killed no_kills /\
  (forall h P, on_the_way T1 N.eqb N.eqb SG h -> properties T1 h P -> no_repetition T1 N.eqb N.eqb P h) /\
  (forall h e, on_the_way T1 N.eqb N.eqb SG h -> ~ expander_error T1 h e /\ ~ property_error T1 h e) /\
  exists v, stretch X1 T1 0 no_kills SG v.
Proof.
  split; [exact SG_wf|]. split; [exact SG_distinct|]. split; [exact no_kills_never|]. split; [exact T1_unrepeated|].
  split; [exact T1_no_errors|]. eexists. apply srun1_ran.
Qed.
Example C73_no_leaks_ex :
  never_killed no_kills /\ st_fix T1 = false /\ stretch X3 T1 0 no_kills SG (Ended (Some (stretch_graph srun3)) [] None).
Proof. split; [exact no_kills_never|]. split; [reflexivity|]. apply srun3_ran. Qed.
(** Four vertices are within the limit for one worker, but three are not. *)
Example C71_stretching_limit_ex :
  (exists h, stretch X1 T1 4 no_kills SG (Ended (Some h) [] None) /\ length (ids h) = 4) /\
  stretch X1 T1 3 no_kills SG (Ended None [] (Some INTOVF)).
Proof.
  split; [exists (stretch_graph (run X1 T1 4 no_kills SG)); split; [apply run_stretch_sound with (k := 400)|]|apply run_stretch_sound with (k := 400)];
    vm_compute; reflexivity.
Qed.
Example C32_schedule_is_immaterial_ex :
  st_fix T1 = false /\
  (forall n w w', In n (ids SG) -> true_property (st_prop T1) SG n w -> true_property (st_prop T1) SG n w' -> w = w') /\
  stretch X1 T1 0 no_kills SG (Ended (Some (stretch_graph srun1)) [] None) /\
  stretch X3 T1 0 no_kills SG (Ended (Some (stretch_graph srun3)) [] None).
Proof.
  split; [reflexivity|]. split.
  - intros n w w' _ (I & _ & V) (I' & _ & V'). apply itself_property in V, V'. congruence.
  - split; [apply srun1_ran|apply srun3_ran].
Qed.
Notation ssys := (sched_run (lanes X3) (xdest X3 SG (vx SG) T1 by_value)
  (stretching X3 SG (vx SG) T1 N.eqb by_value N.eqb by_value 0 (above (ids SG))) (xstart SG) (Old (root SG), None) 30).
Example C32_stretching_terminates_ex :
  reachable (lanes X3) (xdest X3 SG (vx SG) T1 by_value) (stretching X3 SG (vx SG) T1 N.eqb by_value N.eqb by_value 0 (above (ids SG)))
    (Old (root SG), None) (xstart SG) ssys /\ marks (sh ssys) <> [].
Proof. split; [apply exec_sound, turns_ok|]. vm_compute. discriminate. Qed.

(** ** What is false *)

(** 1 -5-> 2 -6-> 3 -7-> 4 *)
Definition CG : graph word word :=
  mkGraph [1; 2; 3; 4] (fun n => (10 * N.of_nat n)%N)
    (fun n => match n with 1 => [(5%N, 2)] | 2 => [(6%N, 3)] | 3 => [(7%N, 4)] | _ => [] end) 1.
Lemma CG_wf : wf CG.
Proof.
  constructor; simpl.
  - repeat constructor; simpl; intuition lia.
  - auto.
  - intros n l m H. destruct n as [|[|[|[|[|n]]]]]; simpl; intuition congruence.
  - assert (P1 : path CG 1 1) by constructor.
    assert (P2 : path CG 1 2) by (apply path_step with (l := 5%N) (b := 1); simpl; auto).
    assert (P3 : path CG 1 3) by (apply path_step with (l := 6%N) (b := 2); simpl; auto).
    assert (P4 : path CG 1 4) by (apply path_step with (l := 7%N) (b := 3); simpl; auto).
    intros n [<-|[<-|[<-|[<-|[]]]]]; assumption.
Qed.

(** *** C72: an edge that is declared twice is freed when it is found to be redundant, and then assigned to. *)
Definition T3 : stretcher := by_label false (fun l =>
  if N.eqb l 5 then (true, [(51, 40, 52); (51, 40, 53); (54, 10, 55)]%N, None) else (false, [], None)).
Theorem C72_use_after_free_refuted :
  exists X x g, wf g /\ distinct N.eqb g /\ 0 < lanes X /\ (forall h, back_edges (st_prop x) h (fun _ => [])) /\
    (forall h e, ~ expander_error x h e) /\ stretch X x 0 no_kills g Crashed.
Proof.
  exists X3, T3, CG. split; [exact CG_wf|]. split; [now apply tens|]. split; [simpl; lia|]. split; [intros h; apply no_incident|]. split.
  - intros h e (P & n & [l m] & _ & _ & _ & E). unfold opinion, T3, by_label in E. cbn [expander fst snd] in E. destruct (N.eqb l 5); discriminate.
  - apply run_stretch_sound with (k := 400). vm_compute. reflexivity.
Qed.

(** *** C32: whether equal edges are united depends on the number of workers. *)
Definition T4 : stretcher := by_label false (fun l =>
  if N.eqb l 5 then (true, [(51, 77, 52); (51, 77, 53); (54, 10, 55)]%N, None) else (false, [], None)).
Theorem C32_number_of_edges_refuted :
  exists X X' x g h h', wf g /\ distinct N.eqb g /\ 0 < lanes X /\ 0 < lanes X' /\ st_fix x = false /\
    (forall n w w', In n (ids g) -> true_property (st_prop x) g n w -> true_property (st_prop x) g n w' -> w = w') /\
    stretch X x 0 no_kills g (Ended (Some h) [] None) /\ stretch X' x 0 no_kills g (Ended (Some h') [] None) /\
    root h = root h' /\ length (es h (root h)) <> length (es h' (root h')).
Proof.
  exists X1, X3, T4, CG, (stretch_graph (run X1 T4 0 no_kills CG)), (stretch_graph (run X3 T4 0 no_kills CG)).
  split; [exact CG_wf|]. split; [now apply tens|]. split; [simpl; lia|]. split; [simpl; lia|]. split; [reflexivity|]. split.
  - intros n w w' _ (I & _ & V) (I' & _ & V'). apply itself_property in V, V'. congruence.
  - split; [apply run_stretch_sound with (k := 400); vm_compute; reflexivity|].
    split; [apply run_stretch_sound with (k := 400); vm_compute; reflexivity|]. split; [vm_compute; reflexivity|]. vm_compute. discriminate.
Qed.

(** *** C32: given edges that are equal and retained are united too, though only where an edge is declared
    to a vertex of the graph. *)
Definition EG : graph word word :=
  mkGraph [1; 2] (fun n => (10 * N.of_nat n)%N) (fun n => match n with 1 => [(5%N, 2); (5%N, 2); (6%N, 2)] | _ => [] end) 1.
Lemma EG_wf : wf EG.
Proof.
  constructor; simpl.
  - repeat constructor; simpl; intuition lia.
  - auto.
  - intros n l m H. destruct n as [|[|[|n]]]; simpl; intuition congruence.
  - assert (P1 : path EG 1 1) by constructor.
    assert (P2 : path EG 1 2) by (apply path_step with (l := 5%N) (b := 1); simpl; auto).
    intros n [<-|[<-|[]]]; assumption.
Qed.
Definition T5 : stretcher := by_label false (fun l => if N.eqb l 6 then (false, [(61, 10, 62)%N], None) else (false, [], None)).
Definition edge_dec (e e' : edge) : {e = e'} + {e <> e'}.
Proof. destruct e as [l n], e' as [l' n']. destruct (N.eq_dec l l'), (Nat.eq_dec n n'); subst; [left; reflexivity|right; congruence..]. Defined.
Theorem C32_parallel_edges_refuted :
  exists X x g h n e, wf g /\ distinct N.eqb g /\ 0 < lanes X /\ stretch X x 0 no_kills g (Ended (Some h) [] None) /\ In n (ids g) /\ In n (ids h) /\
    (forall P, retains x P n e) /\ count_occ edge_dec (es h n) e < count_occ edge_dec (es g n) e.
Proof.
  exists X1, T5, EG, (stretch_graph (run X1 T5 0 no_kills EG)), 1, (5%N, 2).
  split; [exact EG_wf|]. split; [now apply tens|]. split; [simpl; lia|]. split; [apply run_stretch_sound with (k := 400); vm_compute; reflexivity|].
  split; [simpl; auto|]. split; [vm_compute; auto|]. split; [reflexivity|]. vm_compute. lia.
Qed.

(** *** C73: a vertex that becomes unreachable before the last round is never freed. *)
(** 1 -5-> 2 -8-> 3 *)
Definition DG : graph word word :=
  mkGraph [1; 2; 3] (fun n => (10 * N.of_nat n)%N) (fun n => match n with 1 => [(5%N, 2)] | 2 => [(8%N, 3)] | _ => [] end) 1.
Lemma DG_wf : wf DG.
Proof.
  constructor; simpl.
  - repeat constructor; simpl; intuition lia.
  - auto.
  - intros n l m H. destruct n as [|[|[|[|n]]]]; simpl; intuition congruence.
  - assert (P1 : path DG 1 1) by constructor.
    assert (P2 : path DG 1 2) by (apply path_step with (l := 5%N) (b := 1); simpl; auto).
    assert (P3 : path DG 1 3) by (apply path_step with (l := 8%N) (b := 2); simpl; auto).
    intros n [<-|[<-|[<-|[]]]]; assumption.
Qed.
Definition T6 : stretcher := by_label true (fun l =>
  if N.eqb l 5 then (true, [(51, 77, 52)%N], None) else if N.eqb l 8 then (true, [], None) else (false, [], None)).
Theorem C73_leaks_refuted :
  exists X x g h n, wf g /\ distinct N.eqb g /\ 0 < lanes X /\ stretch X x 0 no_kills g (Ended (Some h) [n] None) /\ In n (ids g) /\ ~ In n (ids h).
Proof.
  exists X3, T6, DG, (stretch_graph (run X3 T6 0 no_kills DG)), 3.
  split; [exact DG_wf|]. split; [now apply tens|]. split; [simpl; lia|]. split; [apply run_stretch_sound with (k := 400); vm_compute; reflexivity|].
  split; [simpl; auto|]. vm_compute. intuition discriminate.
Qed.

(** *** C50: edges that are declared to vertices of the graph can give cause to declare further vertices,
    but another round takes place only if vertices have been created. *)
Definition T7 : stretcher := by_label true (fun l =>
  if N.eqb l 5 then (true, [(6, 30, 7)%N], None) else if N.eqb l 6 then (false, [(61, 77, 62)%N], None) else (false, [], None)).
Theorem C50_stretching_fixed_point_refuted :
  exists X x g h, wf g /\ distinct N.eqb g /\ 0 < lanes X /\ st_fix x = true /\ (forall k e, ~ expander_error x k e) /\
    stretch X x 0 no_kills g (Ended (Some h) [] None) /\ forall P, unseen x N.eqb P h.
Proof.
  exists X3, T7, DG, (stretch_graph (run X3 T7 0 no_kills DG)).
  split; [exact DG_wf|]. split; [now apply tens|]. split; [simpl; lia|]. split; [reflexivity|]. split.
  { intros h e (P & n & [l m] & _ & _ & _ & E). unfold opinion, T7, by_label in E. cbn [expander fst snd] in E.
    destruct (N.eqb l 5), (N.eqb l 6); discriminate. }
  split; [apply run_stretch_sound with (k := 400); vm_compute; reflexivity|].
  intros P. exists 1, (6%N, 3), (61%N, 77%N, 62%N).
  assert (E : shown (stretch_graph (run X3 T7 0 no_kills DG)) = [(1, (10%N, [(6%N, 3)])); (3, (30%N, [(7%N, 2)])); (2, (20%N, [(8%N, 3)]))]) by (vm_compute; reflexivity).
  assert (E1 : map fst (shown (stretch_graph (run X3 T7 0 no_kills DG))) = ids (stretch_graph (run X3 T7 0 no_kills DG))).
  { unfold shown. rewrite map_map. apply map_id. }
  rewrite E in E1. cbn [map fst] in E1.
  split; [rewrite <- E1; simpl; auto|]. split; [vm_compute; auto|]. split; [simpl; auto|].
  rewrite <- E1. intros m [<-|[<-|[<-|[]]]]; vm_compute; reflexivity.
Qed.

(** *** C71: the limit applies although no vertices are created. *)
Definition T8 : stretcher := by_label false (fun _ => (false, [], None)).
Theorem C71_stretching_overflow_refuted :
  exists X x g limit, wf g /\ distinct N.eqb g /\ 0 < limit /\ (forall P n e, declared x P n e = []) /\
    stretch X x limit no_kills g (Ended None [] (Some INTOVF)).
Proof.
  exists X1, T8, DG, 2. split; [exact DG_wf|]. split; [now apply tens|]. split; [lia|]. split; [reflexivity|].
  apply run_stretch_sound with (k := 400). vm_compute. reflexivity.
Qed.

(** ** Kill requests *)
(** A vertex is inserted before the last one. *)
Definition T9 : stretcher := mkStretcher false (fun _ _ q => if N.eqb q 40 then (true, [(5, 100, 6)%N], None) else (false, [], None)) vertex_itself.
(** Two workers that poll every 32nd packet *)
Definition X2p : env := mkEnv 2 true (fun k => k mod 32 =? 31) (fun _ => false).
Lemma LG_distinct : distinct N.eqb LG.
Proof. intros n m _ _ E. apply N.eqb_eq in E. cbn [vx LG] in E. lia. Qed.

(** *** A request in the course of the first pass is forgotten, and the expander is applied to properties
    that were not computed. *)
Notation krun := (run_stretch Xp T9 N.eqb by_value N.eqb by_value 0 (fun _ _ => []) (kill_at 0 3) 600 LG).
Definition unstretched (v : option xverdict) : bool :=
  stretch_done v && (existsb (Nat.eqb 39) (ids (stretch_graph v)) && forallb (fun e => N.eqb (fst e) 1) (es (stretch_graph v) 39)).
Lemma unstretched_eq : unstretched krun = true.
Proof. vm_compute. reflexivity. Qed.
Lemma unstretched_facts v : unstretched v = true -> v = Some (Ended (Some (stretch_graph v)) (stretch_leak v) None) /\
  ~ stretched_to T9 N.eqb N.eqb LG (stretch_graph v).
Proof.
  unfold unstretched. intros H. apply andb_true_iff in H as [A H]. apply andb_true_iff in H as [B C].
  split; [now apply stretch_ran|]. revert B C. generalize (stretch_graph v). clear v A. intros h B C (g & P & Wy & HP & S & _).
  apply only_start in Wy; [|reflexivity]. subst g. apply existsb_in in B.
  assert (H39 : In 39 (ids LG)) by (cbn [ids LG]; apply in_seq; lia).
  assert (H40 : In 40 (ids LG)) by (cbn [ids LG]; apply in_seq; lia).
  destruct (HP 40 H40) as (I & _ & V). apply itself_property in V. change (vx LG 40) with 40%N in V.
  assert (E : In (1%N, 40) (es LG 39)) by (cbn; auto).
  assert (D : In (5, 100, 6)%N (declared T9 P 39 (1%N, 40))).
  { unfold declared, opinion. cbn [expander T9 fst snd]. rewrite V. now left. }
  destruct (x_entering S _ _ (5, 100, 6)%N B H39 E D) as (l & z & Bz & El & _).
  rewrite forallb_forall in C. apply C in Bz. cbn [fst] in Bz. apply N.eqb_eq in Bz. subst l. discriminate.
Qed.
Theorem C36_killed_stretching_refuted :
  exists X x g kills h leaked, wf g /\ distinct N.eqb g /\ 0 < lanes X /\ kills 0 3 = true /\
    stretch X x 0 kills g (Ended (Some h) leaked None) /\ ~ stretched_to x N.eqb N.eqb g h.
Proof.
  destruct (unstretched_facts _ unstretched_eq) as [A B].
  exists Xp, T9, LG, (kill_at 0 3), (stretch_graph krun), (stretch_leak krun).
  split; [exact LG_wf|]. split; [exact LG_distinct|]. split; [simpl; lia|]. split; [reflexivity|]. split; [|exact B].
  apply run_stretch_sound with (k := 600). exact A.
Qed.

(** *** A request in the course of the last pass is forgotten if there are other workers and the pass does
    not reach every node.  The graph that is returned has an edge to a node that has been freed. *)
Notation krun2 := (run_stretch X2p T9 N.eqb by_value N.eqb by_value 0 (fun _ _ => []) (kill_at 1 3) 600 LG).
Definition open_edge (v : option xverdict) : bool :=
  stretch_done v && existsb (fun n => existsb (fun e => negb (existsb (Nat.eqb (snd e)) (ids (stretch_graph v)))) (es (stretch_graph v) n)) (ids (stretch_graph v)).
Lemma open_edge_eq : open_edge krun2 = true.
Proof. vm_compute. reflexivity. Qed.
Lemma open_edge_facts v : open_edge v = true -> v = Some (Ended (Some (stretch_graph v)) (stretch_leak v) None) /\
  exists n l m, In n (ids (stretch_graph v)) /\ In (l, m) (es (stretch_graph v) n) /\ ~ In m (ids (stretch_graph v)).
Proof.
  unfold open_edge. intros H. apply andb_true_iff in H as [A B].
  split; [now apply stretch_ran|]. revert B. generalize (stretch_graph v). clear v A. intros h B.
  apply existsb_exists in B as (n & Bn & B). apply existsb_exists in B as ([l m] & Be & B). exists n, l, m. split; auto. split; auto.
  intros M. apply negb_true_iff in B. cbn [snd] in B. rewrite <- not_true_iff_false in B. apply B. apply existsb_exists. exists m. split; auto. apply Nat.eqb_refl.
Qed.
Theorem C36_dangling_edge_refuted :
  exists X x g kills h leaked n l m, wf g /\ distinct N.eqb g /\ 0 < lanes X /\ kills 1 3 = true /\
    stretch X x 0 kills g (Ended (Some h) leaked None) /\ In n (ids h) /\ In (l, m) (es h n) /\ ~ In m (ids h).
Proof.
  destruct (open_edge_facts _ open_edge_eq) as (A & n & l & m & B).
  exists X2p, T9, LG, (kill_at 1 3), (stretch_graph krun2), (stretch_leak krun2), n, l, m.
  split; [exact LG_wf|]. split; [exact LG_distinct|]. split; [simpl; lia|]. split; [reflexivity|]. split; [|exact B].
  apply run_stretch_sound with (k := 600). exact A.
Qed.

(** *** C73: if the request is heeded, then the vertices that the last pass has reached are never freed. *)
Theorem C73_killed_leaks_refuted :
  exists X x g kills leaked, wf g /\ distinct N.eqb g /\ 0 < lanes X /\ st_fix x = false /\
    stretch X x 0 kills g (Ended None leaked (Some INTKIL)) /\ leaked <> [].
Proof.
  exists Xp, T9, LG, (kill_at 1 3), (seq 1 31).
  split; [exact LG_wf|]. split; [exact LG_distinct|]. split; [simpl; lia|]. split; [reflexivity|]. split; [|discriminate].
  apply run_stretch_sound with (k := 600). vm_compute. reflexivity.
Qed.
