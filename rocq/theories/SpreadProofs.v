(** Invariants of spreading (Spread.v) with a connector. *)
From Coq Require Import List Arith NArith Lia Bool Permutation.
From Verif Require Import Base Machine PortsTerm Env Graph Run Pass Brigade BrigadeProofs Fold Fabricate Spread.
Import ListNotations.

Set Implicit Arguments.


(** ** Vocabulary *)
Section Vocabulary.
  Variable X : env.
  Variable g : graph word word.
  Variable conn : option word -> word -> list (word * word) * option error.
  Variable veq : word -> word -> bool.
  Variable vhash : word -> N.

  Definition terminal (n : nat) : Prop := In n (ids g) /\ es g n = [].
  (** No vertex of the graph is equal to [v]. *)
  Definition unknown (v : word) : Prop := forall n, In n (ids g) -> veq v (vx g n) = false.
  (** The vertices that are declared for terminal vertices and, transitively, for unknown ones *)
  Inductive grown : word -> Prop :=
  | grown_leaf n ds l v : terminal n -> conn None (vx g n) = (ds, None) -> In (l, v) ds -> grown v
  | grown_next u ds l v : grown u -> unknown u -> conn None u = (ds, None) -> In (l, v) ds -> grown v.
  (** The vertices the connector is called for *)
  Definition expected (v : word) : Prop := (exists n, terminal n /\ v = vx g n) \/ (grown v /\ unknown v).
End Vocabulary.

Lemma fop_impl A (P Q : A -> A -> Prop) l :
  (forall x y, P x y -> Q x y) -> ForallOrdPairs P l -> ForallOrdPairs Q l.
Proof.
  intros H. induction 1; constructor; auto. eapply Forall_impl; [|eassumption]. auto.
Qed.

Lemma fop_filter A (R : A -> A -> Prop) f l : ForallOrdPairs R l -> ForallOrdPairs R (filter f l).
Proof.
  induction 1 as [|a l F _ IH]; simpl; [constructor|]. destruct (f a); auto. constructor; auto.
  rewrite Forall_forall in *. intros x Hx. apply filter_In in Hx. now apply F.
Qed.
Lemma fop_map A B (R : B -> B -> Prop) (f : A -> B) l : ForallOrdPairs (fun x y => R (f x) (f y)) l -> ForallOrdPairs R (map f l).
Proof.
  induction 1 as [|a l F _ IH]; simpl; constructor; auto. rewrite Forall_map. exact F.
Qed.
Lemma fop_seq (R : nat -> nat -> Prop) : forall n a, (forall i j, a <= i -> i < j -> j < a + n -> R i j) -> ForallOrdPairs R (seq a n).
Proof.
  induction n as [|n IH]; intros a H; simpl; constructor.
  - apply Forall_forall. intros x Hx. apply in_seq in Hx. apply H; lia.
  - apply IH. intros. apply H; lia.
Qed.

Lemma nodup_snoc A (l : list A) a : NoDup l -> ~ In a l -> NoDup (l ++ [a]).
Proof. intros H Ha. apply (Permutation_NoDup (Permutation_cons_append l a)). now constructor. Qed.

Lemma filter_le A (f f' : A -> bool) l :
  (forall x, In x l -> f' x = true -> f x = true) -> length (filter f' l) <= length (filter f l).
Proof.
  induction l as [|a l IH]; simpl; auto. intros H. assert (IH' := IH (fun x Hx => H x (or_intror Hx))).
  destruct (f' a) eqn:E; [rewrite (H a) by auto; simpl; lia|]. destruct (f a); simpl; lia.
Qed.
Lemma filter_lt A (f f' : A -> bool) l a :
  (forall x, In x l -> f' x = true -> f x = true) -> In a l -> f a = true -> f' a = false -> length (filter f' l) < length (filter f l).
Proof.
  induction l as [|b l IH]; simpl; [tauto|]. intros H [->|Ha] E E'.
  - rewrite E, E'. simpl. apply le_n_S, filter_le. auto.
  - assert (IH' := IH (fun x Hx => H x (or_intror Hx)) Ha E E'). destruct (f' b) eqn:Eb; [rewrite (H b) by auto; simpl; lia|].
    destruct (f b); simpl; lia.
Qed.

Lemma put_bin_in t l k n l' k' m :
  In m (put_bin t l k n l' k') <-> In m (t l' k') \/ (l' = l /\ k' = k /\ m = n).
Proof.
  unfold put_bin, upd. destruct (Nat.eqb_spec l' l) as [->|].
  - destruct (N.eqb_spec k' k) as [->|].
    + rewrite in_app_iff. simpl. intuition auto.
    + intuition congruence.
  - intuition congruence.
Qed.

Lemma mem_in n l : mem n l = true <-> In n l.
Proof.
  unfold mem. rewrite existsb_exists. split.
  - intros (x & A & B). apply Nat.eqb_eq in B. now subst.
  - intros H. exists n. split; auto. apply Nat.eqb_refl.
Qed.

Section SpreadProofs.
  Variable X : env.
  Variable g : graph word word.
  Variable conn : option word -> word -> list (word * word) * option error.
  Variable veq : word -> word -> bool.
  Variable vhash : word -> N.
  Variable eeq : word -> word -> bool.
  Variable ehash : word -> N.
  Variable vertex_limit : nat.
  Variable addr : nat -> nat.

  Hypothesis Hl : 0 < lanes X.
  Hypothesis Hveq : equivalence veq.
  Hypothesis Hvh : forall v w, veq v w = true -> vhash v = vhash w.
  Hypothesis Hwf : wf g.
  Notation same := (same veq).
  Hypothesis Hdist : forall n m, In n (ids g) -> In m (ids g) -> veq (vx g n) (vx g m) = true -> n = m.
  Notation vl v := (vlane X vhash v).
  Notation vb v := (vbin X vhash v).
  Notation ln n := (vl (vx g n)).

  Lemma same_veq v w : same v w = veq v w.
  Proof.
    unfold Spread.same. destruct (N.eqb_spec v w) as [->|]; [|reflexivity]. now rewrite (eqv_refl Hveq).
  Qed.
  Lemma same_lane v w : veq v w = true -> vl v = vl w.
  Proof. intros H. unfold vlane. now rewrite (Hvh H). Qed.
  Lemma same_bin v w : veq v w = true -> vb v = vb w.
  Proof. intros H. unfold vbin. now rewrite (Hvh H). Qed.

  (** ** The first pass *)
  Definition packed (s : pdata) (n : nat) : Prop := In n (p_list s (ln n)).

  Record inv0 (s : pdata) (ps : list nat) : Prop := {
    i0_killed : p_killed s = false;
    i0_kil : forall l, p_kil s l = false;
    i0_loop : forall l, p_loop s l = false;
    i0_seen : forall l, p_seen s l = [];
    i0_outs : p_outs s = es g;
    i0_pend : forall n, In n ps -> In n (ids g);
    i0_list : forall l n, In n (p_list s l) -> In n (ids g) /\ ln n = l;
    i0_table : forall l k n, In n (p_table s l k) <-> packed s n /\ ln n = l /\ vb (vx g n) = k;
    i0_nodup : forall l, NoDup (p_list s l);
    i0_edges : forall n e, packed s n -> In e (es g n) -> In (snd e) ps \/ packed s (snd e);
    i0_root : In (root g) ps \/ packed s (root g)
  }.

  Lemma inv0_perm s b b' : Permutation b b' -> inv0 s b -> inv0 s b'.
  Proof.
    intros P []. split; auto.
    - intros n H. apply i0_pend0. eapply Permutation_in; [symmetry|]; eauto.
    - intros n e A B. destruct (i0_edges0 n e A B); auto. left. eapply Permutation_in; eauto.
    - destruct i0_root0; auto. left. eapply Permutation_in; eauto.
  Qed.

  Lemma inv0_step Y s n b s' out :
    (forall k, killcalls Y k = false) -> inv0 s (n :: b) -> prespreading X g veq vhash Y s n = Some (s', out) -> inv0 s' (out ++ b).
  Proof.
    intros Hk I H. unfold prespreading in H. rewrite Hk, (i0_killed I), (i0_kil I), (i0_seen I) in H. cbn [orb andb mem existsb] in H.
    set (t := fun m => Spread.same veq (vx g n) (vx g m)) in H.
    assert (Hn : In n (ids g)) by (apply (i0_pend I); simpl; auto).
    destruct (existsb t (p_table s (ln n) (vb (vx g n)))) eqn:Et.
    - injection H as <- <-. apply existsb_exists in Et as (m & A & B). unfold t in B. rewrite same_veq in B.
      apply (i0_table I) in A as (A & _). assert (Hm := i0_list I _ _ A). apply Hdist in B; [|tauto..]. subst m.
      destruct I. split; simpl; auto.
      + intros l. unfold upd. destruct (l =? ln n); auto.
      + intros m H. apply i0_pend0. simpl. auto.
      + intros m e C D. destruct (i0_edges0 m e C D) as [[E|E]|E]; auto. rewrite <- E. auto.
      + destruct i0_root0 as [[E|E]|E]; auto. rewrite <- E. auto.
    - injection H as <- <-.
      assert (Hnp : ~ packed s n).
      { intros C. assert (D : In n (p_table s (ln n) (vb (vx g n)))) by (apply (i0_table I); auto).
        assert (Q : t n = true) by (unfold t; rewrite same_veq; apply (eqv_refl Hveq)).
        rewrite (proj2 (existsb_exists _ _)) in Et; [discriminate|]. eauto. }
      assert (Hp : forall m, packed (mkPD (put_bin (p_table s) (ln n) (vb (vx g n)) n) (upd (p_list s) (ln n) (n :: p_list s (ln n))) (p_loop s)
           (p_outs s) (p_seen s) (upd (p_kil s) (ln n) false) false (S (p_tick s))) m <-> packed s m \/ m = n).
      { intros m. unfold packed. simpl. unfold upd. destruct (Nat.eqb_spec (ln m) (ln n)) as [E|E].
        - rewrite E. simpl. intuition auto.
        - split; auto. intros [?| ->]; auto. congruence. }
      split; simpl.
      + reflexivity.
      + intros l. unfold upd. destruct (l =? ln n); auto. apply (i0_kil I).
      + apply (i0_loop I).
      + apply (i0_seen I).
      + apply (i0_outs I).
      + intros m H. apply in_app_or in H as [H|H]; [|apply (i0_pend I); simpl; auto].
        rewrite (i0_outs I) in H. apply in_map_iff in H as ([x y] & <- & H). simpl. eapply (wf_closed Hwf); eauto.
      + intros l m. unfold upd. destruct (Nat.eqb_spec l (ln n)) as [->|]; [|apply (i0_list I)].
        intros [<-|H]; auto. now apply (i0_list I).
      + intros l k m. rewrite put_bin_in, Hp, (i0_table I). split; [intros [?|(-> & -> & ->)]; tauto|].
        intros [[?|?] ?]; [tauto|]. subst m. right. intuition congruence.
      + intros l. unfold upd. destruct (Nat.eqb_spec l (ln n)) as [->|]; [|apply (i0_nodup I)].
        constructor; [exact Hnp|apply (i0_nodup I)].
      + intros m e H He. rewrite Hp. apply Hp in H as [H| ->].
        * destruct (i0_edges I m e H He) as [[E|E]|E]; auto using in_or_app.
        * left. apply in_or_app. left. rewrite (i0_outs I). now apply in_map.
      + rewrite Hp. destruct (i0_root I) as [[E|E]|E]; auto using in_or_app.
  Qed.

  Record prepared (s0 : pdata) : Prop := {
    pr_loop : forall l, p_loop s0 l = false;
    pr_outs : p_outs s0 = es g;
    pr_list : forall l n, In n (p_list s0 l) <-> In n (ids g) /\ ln n = l;
    pr_table : forall l k n, In n (p_table s0 l k) <-> In n (ids g) /\ ln n = l /\ vb (vx g n) = k;
    pr_nodup : forall l, NoDup (p_list s0 l)
  }.

  Lemma pdest_lt : forall n, pdest X g vhash n < lanes X.
  Proof. intros n. now apply lane_of_lt. Qed.

  Lemma first_pass Y s0 :
    (forall k, killcalls Y k = false) -> ran (lanes X) (pdest X g vhash) (prespreading X g veq vhash Y) (pstart g) (root g) s0 -> prepared s0.
  Proof.
    intros Hk H. apply ran_completes in H; [|apply pdest_lt].
    assert (I : inv0 s0 []).
    { revert H. unfold completes. apply mruns_inv with (I := inv0).
      - intros s b b' P I. eapply inv0_perm; eauto.
      - intros s p b s' out I H. eapply inv0_step; eauto.
      - split; simpl; auto; try discriminate.
        + intros n [<-|[]]. apply (wf_root Hwf).
        + intros l n [].
        + intros l k n. split; [intros []|]. intros [[] _].
        + intros l. constructor. }
    assert (A : forall n, path g (root g) n -> packed s0 n).
    { intros n P. induction P as [|b l c P IH Hc].
      - destruct (i0_root I) as [[]|?]; auto.
      - destruct (i0_edges I b (l, c) IH Hc) as [[]|?]; auto. }
    assert (B : forall n, In n (ids g) -> packed s0 n) by (intros n H'; apply A; now apply (wf_reach Hwf)).
    split; try apply I.
    - intros l n. split; [apply (i0_list I)|]. intros (C & <-). apply B, C.
    - intros l k n. rewrite (i0_table I). split; [intros (C & D & E)|]; [|intuition auto].
      split; auto. apply (i0_list I _ _ C).
  Qed.

  (** ** The second pass *)
  Hypothesis addr_inj : forall i j, addr i = addr j -> i = j.
  Hypothesis addr_new : forall k, ~ In (addr k) (ids g).

  Lemma number_nth k : forall i0 i l v, In (Made i l v) (number i0 k) <-> i0 <= i /\ nth_error k (i - i0) = Some (l, v).
  Proof.
    unfold number. induction k as [|[a b] k IH]; intros i0 i l v; simpl.
    - split; [intros []|]. intros [_ H]. destruct (i - i0); discriminate.
    - rewrite IH. split.
      + intros [H|[A B]].
        * injection H as <- <- <-. rewrite Nat.sub_diag. auto.
        * split; [lia|]. replace (i - i0) with (S (i - S i0)) by lia. exact B.
      + intros [A B]. destruct (i - i0) as [|j] eqn:Ej.
        * left. injection B as -> ->. f_equal. lia.
        * right. split; [lia|]. now replace (i - S i0) with j by lia.
  Qed.
  Lemma number_made k i0 b : In b (number i0 k) -> exists i l v, b = Made i l v.
  Proof. unfold number. intros H. apply in_map_iff in H as (x & <- & _). eauto. Qed.
  Lemma number_in k i0 i l v : In (Made i l v) (number i0 k) -> i0 <= i /\ i < i0 + length k /\ In (l, v) k.
  Proof.
    rewrite number_nth. intros [A B]. split; [auto|]. split; [|eapply nth_error_In; eauto].
    assert (i - i0 < length k) by (apply nth_error_Some; congruence). lia.
  Qed.
  Lemma number_nil k i0 : number i0 k = [] -> k = [].
  Proof. destruct k; [auto|]. discriminate. Qed.
  Lemma scatter_carry b v i l : In (Carry v i l) (scatter b) <-> In (Made i l v) b.
  Proof.
    unfold scatter. rewrite in_flat_map. split.
    - intros ([?|? ? ?] & A & B); simpl in B; [tauto|]. destruct B as [B|[]]. injection B as <- <- <-. auto.
    - intros H. exists (Made i l v). split; simpl; auto.
  Qed.
  Lemma scatter_reach b n x : ~ In (Reach n x) (scatter b).
  Proof.
    unfold scatter. rewrite in_flat_map. intros ([?|? ? ?] & A & B); simpl in B; [tauto|]. destruct B as [B|[]]; discriminate.
  Qed.

  Variable s0 : pdata.
  Hypothesis Hp : prepared s0.
  Variable dropped : nat -> bool.
  Variable Y : env.

  Notation lim := (limit X vertex_limit).
  Notation term n := (terminal g n).
  Notation grown := (grown g conn veq).
  Notation unknown := (unknown g veq).
  Notation expected := (expected g conn veq).
  Notation step := (spreading X g false conn veq vhash eeq ehash vertex_limit addr s0 dropped Y).
  Notation declared := (declared X conn veq eeq ehash).
  Notation broken := (broken X false conn eeq ehash).

  Lemma declared_eq o v : declared o v = (match snd (conn o v) with
      | Some _ => []
      | None => fst (unique (judy X) (fun d => ehash (fst d)) (fun d d' => eeq (fst d) (fst d'))
                       (fun d d' => Spread.same veq (snd d) (snd d')) (fst (conn o v)))
      end, snd (conn o v)).
  Proof. unfold Spread.declared. destruct (conn o v) as [ds [e|]]; reflexivity. Qed.
  Lemma broken_eq o v : broken o v = (match snd (conn o v) with Some _ => [] | None => fst (conn o v) end, snd (conn o v)).
  Proof. unfold Spread.broken. destruct (conn o v) as [ds [e|]]; reflexivity. Qed.

  Hypothesis Heeq : equivalence eeq.
  Hypothesis Heh : forall x y, eeq x y = true -> ehash x = ehash y.

  Definition alike (d d' : word * word) : bool := eeq (fst d) (fst d') && veq (snd d) (snd d').
  Lemma declared_dedup o v : snd (conn o v) = None ->
    (forall d, In d (fst (declared o v)) -> In d (fst (conn o v))) /\
    (forall d, In d (fst (conn o v)) -> exists d', In d' (fst (declared o v)) /\ alike d d' = true) /\
    ForallOrdPairs (fun d d' => alike d d' = false) (fst (declared o v)).
  Proof.
    intros H. rewrite declared_eq, H. simpl.
    pose proof (@unique_dedup _ (judy X) (fun d : word * word => ehash (fst d))
                        (fun d d' : word * word => eeq (fst d) (fst d'))
                        (fun d d' : word * word => Spread.same veq (snd d) (snd d')) (fst (conn o v))) as D.
    assert (E : forall x y : word * word, (eeq (fst x) (fst y) && Spread.same veq (snd x) (snd y)) = alike x y).
    { intros x y. unfold alike. now rewrite same_veq. }
    destruct D as [D1 D2 D3].
    - split; intros *; [apply (eqv_refl Heeq)|apply (eqv_sym Heeq)|apply (eqv_trans Heeq)].
    - split; intros *; rewrite !same_veq; [apply (eqv_refl Hveq)|apply (eqv_sym Hveq)|apply (eqv_trans Hveq)].
    - intros x y. apply Heh.
    - split; [|split].
      + intros d Hd. eapply Permutation_in; [symmetry; exact D1|]. apply in_or_app. auto.
      + intros d Hd. destruct (D3 d Hd) as (d' & A & B). exists d'. split; auto. now rewrite <- E.
      + eapply fop_impl; [|exact D2]. intros x y Q. now rewrite <- E.
  Qed.

  (** ** What holds in any case *)
  Definition excess (l : nat) : Prop :=
    exists vs, lim < length vs /\ (forall v, In v vs -> grown v /\ unknown v /\ vl v = l) /\
      ForallOrdPairs (fun v w => veq v w = false) vs.
  Definition justified (l : nat) (e : error) : Prop :=
    (exists u, expected u /\ snd (conn None u) = Some e) \/ (e = INTOVF /\ lim <> 0 /\ excess l).
  Definition here (s : sdata) (l : nat) : list nat := filter (fun k => vl (vert s (addr k)) =? l) (seq 0 (nn s)).

  Record weak (s : sdata) (ps : list spkt) : Prop := {
    w_vert : forall n, In n (ids g) -> vert s n = vx g n;
    w_nonleaf : forall n, In n (ids g) -> es g n <> [] -> souts s n <> [];
    w_reach : forall n x, In (Reach n x) ps -> In n (ids g);
    w_carry : forall v i l, In (Carry v i l) ps -> grown v;
    w_new : forall k, k < nn s -> grown (vert s (addr k)) /\ unknown (vert s (addr k));
    w_pair : forall j k, j < k -> k < nn s -> veq (vert s (addr j)) (vert s (addr k)) = false;
    w_old_table : forall n, In n (ids g) -> In n (table s (ln n) (vb (vx g n)));
    w_new_table : forall k, k < nn s -> In (addr k) (table s (vl (vert s (addr k))) (vb (vert s (addr k))));
    w_count : forall l, serr s l = None -> lim <> 0 -> count s l = length (here s l) /\ count s l <= lim;
    w_err : forall l e, serr s l = Some e -> l < lanes X /\ justified l e;
    w_calls : forall c, In c (calls s) -> fst c = None /\ expected (snd c);
    w_hung : hung s = false
  }.

  Lemma weak_frame s s' ps :
    souts s' = souts s -> vert s' = vert s -> table s' = table s -> nn s' = nn s -> count s' = count s -> serr s' = serr s ->
    calls s' = calls s -> hung s' = hung s -> weak s ps -> weak s' ps.
  Proof.
    intros E1 E2 E3 E4 E5 E6 E7 E8 []. split; unfold here; try rewrite E1; try rewrite E2; try rewrite E3; try rewrite E4; try rewrite E5;
      try rewrite E6; try rewrite E7; try rewrite E8; auto.
  Qed.
  Lemma weak_sub s ps ps' : (forall p, In p ps' -> In p ps) -> weak s ps -> weak s ps'.
  Proof. intros H []. split; eauto. Qed.

  Lemma in_begin s l s' out : begin s0 s l = (s', out) -> forall p, In p out -> exists n e, In n (p_list s0 l) /\ In e (es g n) /\ p = Reach (snd e) (Some (fst e)).
  Proof.
    unfold begin. destruct (started s l); intros H; injection H as <- <-; intros p Hi; [destruct Hi|].
    apply in_flat_map in Hi as (n & A & B). rewrite (pr_outs Hp) in B. apply in_map_iff in B as (e & <- & B). eauto.
  Qed.

  Lemma weak_begin s ps l s' out : begin s0 s l = (s', out) -> weak s ps -> weak s' (out ++ ps).
  Proof.
    intros H W. assert (Hi := in_begin _ _ H). assert (W' : weak s' ps).
    { revert H. unfold begin. destruct (started s l); intros H; injection H as <- <-; auto.
      eapply weak_frame; [..|exact W]; simpl; auto. rewrite (pr_loop Hp). apply orb_false_r. }
    destruct W'. split; auto.
    - intros n x Hx. apply in_app_or in Hx as [Hx|Hx]; eauto. apply Hi in Hx as (m & [y z] & A & B & C). injection C as -> _.
      simpl. apply (pr_list Hp) in A as [A _]. eapply (wf_closed Hwf); eauto.
    - intros v i x Hx. apply in_app_or in Hx as [Hx|Hx]; eauto. apply Hi in Hx as (m & y & A & B & C). discriminate.
  Qed.

  Lemma weak_halt s ps l : weak s ps -> weak (halt s l) ps.
  Proof. apply weak_frame; reflexivity. Qed.
  Lemma weak_halt_if s ps l : weak s ps -> weak (halt_if_faulty s l) ps.
  Proof. unfold halt_if_faulty. destruct (serr s l); auto using weak_halt. Qed.

  Lemma weak_out s l n x b s' out : l < lanes X ->
    weak s (Reach n x :: b) -> break_out X false conn eeq ehash s l n x = (s', out) -> weak s' (out ++ b).
  Proof.
    intros Hll W H. assert (Wb : weak s b) by (eapply weak_sub; [|exact W]; simpl; auto).
    unfold break_out in H. destruct (serr s l) as [e|] eqn:Es.
    { injection H as <- <-. now apply weak_halt. }
    destruct (souts s n) as [|y ys] eqn:En; [|now injection H as <- <-].
    assert (Hn : In n (ids g)) by (eapply (w_reach W); simpl; eauto).
    assert (Ht : term n).
    { split; auto. destruct (es g n) eqn:Ee; auto. exfalso. apply (w_nonleaf W n Hn); [congruence|auto]. }
    unfold connect in H. rewrite broken_eq, (w_vert W n Hn) in H. injection H as <- <-. apply weak_halt_if.
    set (k := match snd (conn None (vx g n)) with Some _ => [] | None => fst (conn None (vx g n)) end).
    destruct Wb. split; simpl; auto.
    - intros m Hm Hne. unfold upd. destruct (Nat.eqb_spec m n) as [->|]; auto. destruct Ht; congruence.
    - intros m z Hz. apply in_app_or in Hz as [Hz|Hz]; eauto. now apply scatter_reach in Hz.
    - intros v i z Hz. apply in_app_or in Hz as [Hz|Hz]; eauto. apply scatter_carry, number_in in Hz as (_ & _ & Hz).
      subst k. destruct (conn None (vx g n)) as [ds [e|]] eqn:Ec; simpl in Hz; [destruct Hz|]. eapply grown_leaf; eauto.
    - intros m Em. apply w_count0. revert Em. unfold upd. destruct (Nat.eqb_spec m l) as [->|]; auto.
    - intros m e. unfold upd. destruct (Nat.eqb_spec m l) as [->|]; auto. intros He. split; auto. left.
      exists (vx g n). split; [|auto]. left. eauto.
    - intros c [<-|Hc]; auto. simpl. split; auto. left. eauto.
  Qed.

  Lemma no_collision s ps v : weak s ps -> collision X veq vhash s (vl v) v = None ->
    unknown v /\ forall k, k < nn s -> veq v (vert s (addr k)) = false.
  Proof.
    intros W H. unfold collision in H. assert (F := find_none _ _ H). split.
    - intros n Hn. destruct (veq v (vx g n)) eqn:E; auto. rewrite <- E, <- same_veq, <- (w_vert W n Hn).
      apply F. rewrite (same_lane E), (same_bin E). now apply (w_old_table W).
    - intros k Hk. destruct (veq v (vert s (addr k))) eqn:E; auto. rewrite <- E, <- same_veq. apply F.
      rewrite (same_lane E), (same_bin E). now apply (w_new_table W).
  Qed.

  Lemma upd_addr A (f : nat -> A) j k a : j <> k -> upd f (addr k) a (addr j) = f (addr j).
  Proof. intros H. unfold upd. destruct (Nat.eqb_spec (addr j) (addr k)) as [E|]; auto. now apply addr_inj in E. Qed.
  Lemma upd_old A (f : nat -> A) n k a : In n (ids g) -> upd f (addr k) a n = f n.
  Proof. intros H. unfold upd. destruct (Nat.eqb_spec n (addr k)) as [->|]; auto. now apply addr_new in H. Qed.
  Lemma upd_eq A (f : nat -> A) n a : upd f n a n = a.
  Proof. unfold upd. now rewrite Nat.eqb_refl. Qed.

  Lemma weak_new s v i x b c s' out :
    weak s (Carry v i x :: b) -> serr s (vl v) = None -> collision X veq vhash s (vl v) v = None ->
    (lim <> 0 -> c (vl v) = S (count s (vl v)) /\ count s (vl v) < lim) -> (forall l, l <> vl v -> c l = count s l) ->
    reached_new X false conn veq vhash eeq ehash addr
      (mkSD (souts s) (vert s) (table s) (labs s) (queue s) (started s) (res s) (ne s) (nn s) c
           (serr s) (skil s) (skilled s) (stick s) (hung s) (calls s)) (vl v) v i x = (s', out) -> weak s' (out ++ b).
  Proof.
    intros W Es Hc Hlim Hother H. assert (Hg : grown v) by (eapply (w_carry W); simpl; eauto).
    destruct (no_collision _ W Hc) as [Hu Hnew]. unfold reached_new, connect in H. rewrite declared_eq in H. injection H as <- <-.
    destruct W. set (ds := match snd (conn None v) with Some _ => [] | None => _ end).
    assert (Hds : forall d, In d ds -> snd (conn None v) = None /\ In d (fst (conn None v))).
    { subst ds. intros d Hd. destruct (snd (conn None v)) eqn:E; [destruct Hd|]. split; auto.
      destruct (declared_dedup None v E) as (Q & _). apply Q. rewrite declared_eq, E. exact Hd. }
    split; simpl.
    - intros n Hn. rewrite upd_old; auto.
    - intros n Hn He. rewrite !upd_old; auto.
    - intros n y Hy. apply in_app_or in Hy as [Hy|Hy]; [now apply scatter_reach in Hy|]. eapply w_reach0; simpl; eauto.
    - intros w j y Hy. apply in_app_or in Hy as [Hy|Hy]; [|eapply w_carry0; simpl; eauto].
      apply scatter_carry, number_in in Hy as (_ & _ & Hy). apply Hds in Hy as [E Hy].
      eapply grown_next with (u := v); eauto. destruct (conn None v); simpl in *; subst; reflexivity.
    - intros k Hk. destruct (Nat.eq_dec k (nn s)) as [->|]; [rewrite upd_eq; auto|]. rewrite upd_addr; auto. apply w_new0. lia.
    - intros j k Hj Hk. rewrite (upd_addr _ _ (j := j)); [|lia]. destruct (Nat.eq_dec k (nn s)) as [->|].
      + rewrite upd_eq, (eqv_symb Hveq). now apply Hnew.
      + rewrite upd_addr; auto. apply w_pair0; lia.
    - intros n Hn. apply put_bin_in. auto.
    - intros k Hk. apply put_bin_in. destruct (Nat.eq_dec k (nn s)) as [->|]; [rewrite upd_eq; auto|].
      rewrite upd_addr; auto. left. apply w_new_table0. lia.
    - intros l El Hl0. assert (El' : serr s l = None).
      { revert El. unfold upd at 1. destruct (Nat.eqb_spec l (vl v)) as [->|]; auto. }
      assert (Hh : forall s2, nn s2 = S (nn s) -> vert s2 = upd (vert s) (addr (nn s)) v ->
                    length (here s2 l) = length (here s l) + if vl v =? l then 1 else 0).
      { intros s2 E1 E2. unfold here. rewrite E1, E2, seq_S, filter_app, app_length. simpl. rewrite upd_eq. f_equal.
        - f_equal. apply filter_ext_in. intros k Hk. apply in_seq in Hk. rewrite upd_addr; [reflexivity|lia].
        - destruct (vl v =? l); reflexivity. }
      rewrite Hh by reflexivity. destruct (w_count0 l El' Hl0) as [A B]. destruct (Nat.eqb_spec (vl v) l) as [<-|].
      + destruct (Hlim Hl0). lia.
      + rewrite Hother by auto. lia.
    - intros l e. unfold upd at 1. destruct (Nat.eqb_spec l (vl v)) as [->|]; [|apply w_err0].
      intros He. split; [now apply lane_of_lt|]. left. exists v. split; auto. right. auto.
    - intros y [<-|Hy]; auto. simpl. split; auto. right. auto.
    - exact w_hung0.
  Qed.

  Lemma weak_overflow s v i x b : weak s (Carry v i x :: b) -> serr s (vl v) = None -> collision X veq vhash s (vl v) v = None ->
    lim <> 0 -> lim <= count s (vl v) -> justified (vl v) INTOVF.
  Proof.
    intros W Es Hc H0 H. right. split; auto. split; auto. destruct (no_collision _ W Hc) as [Hu Hnew].
    assert (Hg : grown v) by (eapply (w_carry W); simpl; eauto).
    destruct (w_count W _ Es H0) as [A B]. exists (v :: map (fun k => vert s (addr k)) (here s (vl v))).
    split; [simpl; rewrite map_length; lia|]. split.
    - intros w [<-|Hw]; auto. apply in_map_iff in Hw as (k & <- & Hk). apply filter_In in Hk as [Hk Q]. apply in_seq in Hk.
      apply Nat.eqb_eq in Q. split; [|split; auto]; apply (w_new W); lia.
    - constructor.
      + apply Forall_forall. intros w Hw. apply in_map_iff in Hw as (k & <- & Hk). apply filter_In in Hk as [Hk Q]. apply in_seq in Hk.
        apply Hnew. lia.
      + apply fop_map, fop_filter, fop_seq. intros j k _ Hj Hk. apply (w_pair W); lia.
  Qed.

  Lemma weak_fault s b l e : l < lanes X -> justified l e -> weak s b -> weak (fault s l e) b.
  Proof.
    intros Hll J []. split; simpl; auto.
    - intros m. unfold upd. destruct (Nat.eqb_spec m l) as [->|]; [discriminate|]. apply w_count0.
    - intros m e'. unfold upd. destruct (Nat.eqb_spec m l) as [->|]; auto. intros H. injection H as <-. auto.
  Qed.
  Lemma weak_faulty_count s b l : serr s l <> None -> weak s b -> weak (set_count s l) b.
  Proof.
    intros He []. split; simpl; auto. intros m Em H0. unfold upd. destruct (Nat.eqb_spec m l) as [->|]; [tauto|]. now apply w_count0.
  Qed.

  Lemma weak_carry s kil v i x b s' out :
    weak s (Carry v i x :: b) -> carry X false conn veq vhash eeq ehash vertex_limit addr s (vl v) kil v i x = (s', out) -> weak s' (out ++ b).
  Proof.
    intros W H. assert (Wb : weak s b) by (eapply weak_sub; [|exact W]; simpl; auto).
    assert (Hv : vl v < lanes X) by now apply lane_of_lt.
    unfold carry in H. destruct (serr s (vl v)) eqn:Es; [injection H as <- <-; now apply weak_halt|].
    destruct kil; [injection H as <- <-; now apply weak_halt|].
    destruct (collision X veq vhash s (vl v) v) as [n|] eqn:Ec.
    { injection H as <- <-. eapply weak_frame; [..|exact Wb]; reflexivity. }
    destruct (Nat.eqb_spec lim 0) as [E0|E0].
    { apply (@weak_new s v i x b (count s) s' out); auto; intros; tauto. }
    destruct (Nat.ltb_spec (count s (vl v)) lim) as [E1|E1].
    { eapply (@weak_new s v i x b (upd (count s) (vl v) (S (count s (vl v))))); eauto.
      - intros _. rewrite upd_eq. auto.
      - intros l Hne. unfold upd. destruct (Nat.eqb_spec l (vl v)); tauto. }
    injection H as <- <-. simpl. apply weak_halt.
    change (fault (set_count s (vl v)) (vl v) INTOVF) with (set_count (fault s (vl v) INTOVF) (vl v)).
    apply weak_faulty_count; [simpl; now rewrite upd_eq|]. apply weak_fault; auto. eapply weak_overflow; eauto.
  Qed.

  Lemma sdest_lt : forall p, sdest X g vhash p < lanes X.
  Proof. intros [n|v]; now apply lane_of_lt. Qed.

  Lemma weak_perm s b b' : Permutation b b' -> weak s b -> weak s b'.
  Proof. intros P. apply weak_sub. intros p Hi. eapply Permutation_in; [symmetry|]; eauto. Qed.

  Lemma weak_step s p b s' out : weak s (p :: b) -> step s p = Some (s', out) -> weak s' (out ++ b).
  Proof.
    intros W H. assert (Hlt := sdest_lt p). unfold spreading in H. rewrite (w_hung W) in H.
    match type of H with context [begin s0 ?s1 ?l] => set (s1' := s1) in H; destruct (begin s0 s1' l) as [s2 o1] eqn:Eb end.
    assert (W1 : weak s1' (p :: b)) by (eapply weak_frame; [..|exact W]; try reflexivity; symmetry; apply (w_hung W)).
    assert (W2 := weak_begin _ Eb W1). rewrite (w_hung W2) in H.
    assert (W3 : weak s2 (p :: (o1 ++ b))).
    { eapply weak_perm; [|exact W2]. symmetry. apply Permutation_middle. }
    destruct p as [n x|v i x].
    - destruct (skil s _ && dropped (stick s)).
      + injection H as <- <-. rewrite app_nil_r. eapply weak_sub; [|exact W3]. simpl; auto.
      + destruct (break_out _ _ _ _ _ _ _ _ _) as [s3 o2] eqn:E3. injection H as <- <-.
        eapply weak_perm; [|eapply weak_out; [exact Hlt|exact W3|exact E3]].
        rewrite !app_assoc. apply Permutation_app_tail, Permutation_app_comm.
    - destruct (carry _ _ _ _ _ _ _ _ _ _ _ _ _ _ _) as [s3 o2] eqn:E3. injection H as <- <-.
      eapply weak_perm; [|eapply weak_carry; [exact W3|exact E3]].
      rewrite !app_assoc. apply Permutation_app_tail, Permutation_app_comm.
  Qed.

  Lemma weak_start : weak (sstart g s0) [Reach (root g) None].
  Proof.
    split; simpl; auto; try discriminate; try (intros; lia); try (intros; tauto).
    - intros n Hn He. rewrite (pr_outs Hp). destruct (es g n); [tauto|discriminate].
    - intros n x [H|[]]. injection H as <- _. apply (wf_root Hwf).
    - intros v i l [H|[]]. discriminate.
    - intros n Hn. apply (pr_table Hp). auto.
  Qed.

  (** ** What holds unless there is an error *)
  Definition bad (s : sdata) : Prop := exists l, l < lanes X /\ serr s l <> None.
  Definition node (s : sdata) (n : nat) : Prop := In n (ids g) \/ exists k, k < nn s /\ n = addr k.
  Definition owns (s : sdata) (n i : nat) (l v : word) : Prop := node s n /\ In (Made i l v) (souts s n).
  Definition ncalls (s : sdata) (v : word) : nat := length (filter (fun c => veq (snd c) v) (calls s)).
  Definition leaf_done (s : sdata) (n : nat) : Prop :=
    1 <= ncalls s (vx g n) /\
    exists i0 ds, conn None (vx g n) = (ds, None) /\ souts s n = number i0 ds /\ i0 + length ds <= ne s.
  Definition visited (s : sdata) (n : nat) : Prop := started s (ln n) = true /\ (term n -> leaf_done s n).
  Definition reaching (ps : list spkt) (n : nat) : Prop := exists x, In (Reach n x) ps.

  Record good (s : sdata) (ps : list spkt) : Prop := {
    g_serr : forall l, serr s l = None;
    g_skil : forall l, skil s l = false;
    g_skilled : skilled s = false;
    g_hung : hung s = false;
    g_reach : forall n, reaching ps n -> In n (ids g);
    g_vert : forall n, In n (ids g) -> vert s n = vx g n;
    g_table : forall l k n, In n (table s l k) <-> node s n /\ vl (vert s n) = l /\ vb (vert s n) = k;
    g_distinct : forall n m, node s n -> node s m -> veq (vert s n) (vert s m) = true -> n = m;
    g_queue : forall l n, started s l = true -> (In n (queue s l) <-> node s n /\ vl (vert s n) = l);
    g_unstarted : forall l, started s l = false -> queue s l = [] /\ forall k, k < nn s -> vl (vert s (addr k)) <> l;
    g_nodup : forall l, NoDup (queue s l);
    g_nonleaf : forall n, In n (ids g) -> es g n <> [] -> souts s n = map (fun e => Given (fst e) (snd e)) (es g n);
    g_leaf : forall n, term n -> (souts s n = [] /\ ncalls s (vx g n) = 0) \/
       (leaf_done s n /\ (souts s n <> [] -> ncalls s (vx g n) = 1));
    g_new : forall k, k < nn s -> exists i0 ds, conn None (vert s (addr k)) = (ds, None) /\
       souts s (addr k) = number i0 (fst (declared None (vert s (addr k)))) /\
       i0 + length (fst (declared None (vert s (addr k)))) <= ne s /\ ncalls s (vert s (addr k)) = 1;
    g_grown : forall k, k < nn s -> grown (vert s (addr k));
    g_owns : forall n i l v, owns s n i l v -> i < ne s /\ (In (Carry v i l) ps \/ res s i <> None);
    g_owner : forall v i l, In (Carry v i l) ps -> grown v /\ exists n, owns s n i l v;
    g_unique : forall i n l v n' l' v', owns s n i l v -> owns s n' i l' v' -> n = n' /\ l = l' /\ v = v';
    g_res : forall i n l v m, owns s n i l v -> res s i = Some m -> node s m /\ veq v (vert s m) = true;
    g_fresh : forall i, ne s <= i -> res s i = None;
    g_parent : forall k, k < nn s -> exists m i l v, owns s m i l v /\ res s i = Some (addr k) /\
       (In m (ids g) \/ exists j, j < k /\ m = addr j);
    g_root : reaching ps (root g) \/ visited s (root g);
    g_edges : forall m l n, In m (ids g) -> started s (ln m) = true -> In (l, n) (es g m) -> reaching ps n \/ visited s n;
    g_calls : forall c, In c (calls s) -> fst c = None /\
       ((exists n, term n /\ snd c = vx g n) \/ exists k, k < nn s /\ snd c = vert s (addr k))
  }.

  Lemma good_perm s b b' : Permutation b b' -> good s b -> good s b'.
  Proof.
    intros P. assert (Q : forall p, In p b <-> In p b') by (intros; split; apply Permutation_in; [|symmetry]; auto).
    assert (R : forall n, reaching b n <-> reaching b' n) by (unfold reaching; intros; split; intros [x]; exists x; apply Q; auto).
    intros []. split; auto.
    - intros n. rewrite <- R. auto.
    - intros n i l v. rewrite <- Q. apply g_owns0.
    - intros v i l. rewrite <- Q. apply g_owner0.
    - rewrite <- R. auto.
    - intros m l n. rewrite <- R. apply g_edges0.
  Qed.

  Lemma good_frame s s' ps :
    souts s' = souts s -> vert s' = vert s -> table s' = table s -> nn s' = nn s -> serr s' = serr s ->
    (forall l, skil s' l = skil s l) -> skilled s' = skilled s -> ne s' = ne s -> res s' = res s -> queue s' = queue s ->
    started s' = started s -> calls s' = calls s -> hung s' = hung s -> good s ps -> good s' ps.
  Proof.
    intros E1 E2 E3 E4 E5 E6 E7 E8 E9 E10 E11 E12 E13 [].
    split; unfold owns, node, visited, leaf_done, ncalls, terminal in *; try rewrite E1; try rewrite E2; try rewrite E3; try rewrite E4;
      try rewrite E5; try rewrite E7; try rewrite E8; try rewrite E9; try rewrite E10; try rewrite E11; try rewrite E12; try rewrite E13; auto.
    intros l. rewrite E6. auto.
  Qed.

  Lemma path_ids n : path g (root g) n -> In n (ids g).
  Proof. induction 1; [apply (wf_root Hwf)|eapply (wf_closed Hwf); eauto]. Qed.

  Lemma visited_all s : good s [] -> forall n, In n (ids g) -> visited s n.
  Proof.
    intros G n Hn. assert (P := wf_reach Hwf n Hn). clear Hn.
    induction P as [|b l c P IH Hc].
    - destruct (g_root G) as [[x []]|]; auto.
    - destruct IH as [A _]. destruct (g_edges G b l c (path_ids P) A Hc) as [[x []]|]; auto.
  Qed.

  Lemma good_begin s ps l s' out : begin s0 s l = (s', out) -> good s ps -> good s' (out ++ ps) /\ started s' l = true.
  Proof.
    intros H G. assert (Hi := in_begin _ _ H). unfold begin in H. destruct (started s l) eqn:Es.
    { injection H as <- <-. auto. }
    injection H as <- <-. destruct (g_unstarted G l Es) as [Hq Hk].
    assert (Hn : forall m, node s m -> vl (vert s m) = l -> In m (ids g) /\ ln m = l).
    { intros m [A|(k & A & ->)] B; [|exfalso; eapply Hk; eauto]. rewrite (g_vert G) in B; auto. }
    assert (Hc : forall v i x, ~ In (Carry v i x) (flat_map (fun n => map (fun e => Reach (snd e) (Some (fst e))) (p_outs s0 n)) (p_list s0 l))).
    { intros v i x H. apply Hi in H as (n & e & _ & _ & ?). discriminate. }
    assert (Hv : forall n, visited s n -> started s (ln n) = true) by (intros ? []; auto).
    split; [|simpl; apply upd_eq]. destruct G. split; simpl; auto.
    - rewrite g_hung0, (pr_loop Hp). reflexivity.
    - intros n [x Hx]. apply in_app_or in Hx as [Hx|Hx]; [|apply g_reach0; exists x; auto]. apply Hi in Hx as (m & [y z] & A & B & C).
      injection C as -> _. simpl. apply (pr_list Hp) in A as [A _]. eapply (wf_closed Hwf); eauto.
    - intros l' n. unfold upd. destruct (Nat.eqb_spec l' l) as [->|]; [|apply g_queue0]. intros _. rewrite (pr_list Hp). split; [|intros [A B]; exact (Hn _ A B)].
      intros [A B]. split; [left; auto|]. rewrite g_vert0; auto.
    - intros l'. unfold upd. destruct (Nat.eqb_spec l' l) as [->|]; [discriminate|apply g_unstarted0].
    - intros l'. unfold upd. destruct (Nat.eqb_spec l' l) as [->|]; auto. apply (pr_nodup Hp).
    - intros n i x v Ho. destruct (g_owns0 n i x v Ho) as [A [B|B]]; auto using in_or_app.
    - intros v i x Hx. apply in_app_or in Hx as [Hx|Hx]; [now apply Hc in Hx|exact (g_owner0 _ _ _ Hx)].
    - destruct g_root0 as [[x Hx]|[A B]]; [left; exists x; auto using in_or_app|]. right. split; auto. simpl. unfold upd.
      destruct (_ =? l); auto.
    - intros m y n Hm Hst Hy. unfold upd in Hst. destruct (Nat.eqb_spec (ln m) l) as [E|].
      + left. exists (Some y). apply in_or_app. left. apply in_flat_map. exists m. split; [apply (pr_list Hp); auto|].
        rewrite (pr_outs Hp). apply in_map_iff. exists (y, n). auto.
      + destruct (g_edges0 m y n Hm Hst Hy) as [[x Hx]|[A B]]; [left; exists x; auto using in_or_app|]. right. split; auto.
        simpl. unfold upd. destruct (_ =? l); auto.
  Qed.

  Lemma number_unique k i0 i l v l' v' : In (Made i l v) (number i0 k) -> In (Made i l' v') (number i0 k) -> l = l' /\ v = v'.
  Proof. rewrite !number_nth. intros [_ A] [_ B]. rewrite A in B. injection B as -> ->. auto. Qed.

  Lemma owns_connect s s' n k :
    (forall m, souts s' m = upd (souts s) n (number (ne s) k) m) -> (forall m, node s' m <-> node s m \/ m = n) -> (node s n -> souts s n = []) ->
    forall m i l v, owns s' m i l v <-> owns s m i l v \/ (m = n /\ In (Made i l v) (number (ne s) k)).
  Proof.
    intros E1 E2 E3 m i l v. unfold owns. rewrite E1, E2. unfold upd. destruct (Nat.eqb_spec m n) as [->|].
    - split; [intuition auto|]. intros [[A B]|[_ A]]; auto. rewrite (E3 A) in B. destruct B.
    - intuition auto.
  Qed.

  Lemma good_term s ps n : good s ps -> In n (ids g) -> souts s n = [] -> term n.
  Proof.
    intros G A B. split; auto. destruct (es g n) as [|e q] eqn:E; auto. rewrite (g_nonleaf G) in B; auto; rewrite E in *; discriminate.
  Qed.

  Lemma reaching_cons ps n x m : reaching (Reach n x :: ps) m -> m = n \/ reaching ps m.
  Proof. intros [y [H|H]]; [injection H as <- _; auto|right; exists y; auto]. Qed.
  Lemma reaching_carry ps v i x m : reaching (Carry v i x :: ps) m -> reaching ps m.
  Proof. intros [y [H|H]]; [discriminate|exists y; auto]. Qed.
  Lemma reaching_app ps qs m : reaching (ps ++ qs) m <-> reaching ps m \/ reaching qs m.
  Proof.
    unfold reaching. split.
    - intros [x H]. apply in_app_or in H as [H|H]; eauto.
    - intros [[x H]|[x H]]; exists x; auto using in_or_app.
  Qed.
  Lemma reaching_scatter b m : ~ reaching (scatter b) m.
  Proof. intros [x H]. now apply scatter_reach in H. Qed.

  Lemma ncalls_0 s v : (forall c, In c (calls s) -> veq (snd c) v = false) -> ncalls s v = 0.
  Proof.
    unfold ncalls. intros H. induction (calls s) as [|c cs IH]; simpl; auto. rewrite H by (simpl; auto). apply IH. intros; apply H; simpl; auto.
  Qed.

  Lemma good_noop s n x b : good s (Reach n x :: b) -> started s (ln n) = true -> (term n -> leaf_done s n) -> good s b.
  Proof.
    intros G Hst Hd. assert (Hv : visited s n) by (split; auto). destruct G. split; auto.
    - intros m [y Hy]. apply g_reach0. exists y. simpl. auto.
    - intros m i l v Ho. destruct (g_owns0 m i l v Ho) as [A [[B|B]|B]]; auto. discriminate.
    - intros v i l Hi. apply g_owner0. simpl. auto.
    - destruct g_root0 as [H|H]; auto. apply reaching_cons in H as [->|]; auto.
    - intros m l y A B C. destruct (g_edges0 m l y A B C) as [H|H]; auto. apply reaching_cons in H as [->|]; auto.
  Qed.

  Lemma good_out s n x b s' out : good s (Reach n x :: b) -> started s (ln n) = true ->
    break_out X false conn eeq ehash s (ln n) n x = (s', out) -> good s' (out ++ b) \/ bad s'.
  Proof.
    intros G Hst H. unfold break_out in H. rewrite (g_serr G) in H.
    assert (Hn : In n (ids g)) by (apply (g_reach G); exists x; simpl; auto).
    destruct (souts s n) as [|y ys] eqn:En.
    2:{ injection H as <- <-. left. eapply good_noop; eauto. intros Ht. destruct (g_leaf G Ht) as [[A _]|[A _]]; auto. congruence. }
    assert (Ht := good_term _ G Hn En). unfold connect in H. rewrite broken_eq, (g_vert G) in H by auto.
    destruct (conn None (vx g n)) as [ds [e|]] eqn:Ec; cbn [fst snd] in H; injection H as <- <-.
    { right. exists (ln n). split; [now apply lane_of_lt|]. unfold halt_if_faulty. simpl. rewrite upd_eq. simpl. rewrite upd_eq. discriminate. }
    left. unfold halt_if_faulty. cbn [serr]. rewrite upd_eq, En, app_nil_r.
    match goal with |- good ?q _ => set (s' := q) end.
    assert (Hnode : forall m, node s' m <-> node s m \/ m = n).
    { intros m. unfold node. simpl. split; auto. intros [?| ->]; auto. }
    assert (Ho : forall m i l v, owns s' m i l v <-> owns s m i l v \/ (m = n /\ In (Made i l v) (number (ne s) ds))).
    { apply owns_connect; auto. }
    assert (Hnode' : forall m, node s' m <-> node s m) by (intros m; unfold node; simpl; tauto).
    assert (Hnc : forall v, veq (vx g n) v = false -> ncalls s' v = ncalls s v).
    { intros v E. unfold ncalls. simpl. now rewrite E. }
    assert (Hld : forall m, m <> n -> leaf_done s m -> leaf_done s' m).
    { intros m Hm (N & i0 & q & A & B & C). split; [eapply Nat.le_trans; [exact N|]; unfold ncalls; simpl; destruct (veq _ _); simpl; lia|].
      exists i0, q. simpl. unfold upd. destruct (Nat.eqb_spec m n); [tauto|]. repeat split; auto. lia. }
    assert (Hldn : leaf_done s' n).
    { split; [unfold ncalls; simpl; rewrite (eqv_refl Hveq); simpl; lia|]. exists (ne s), ds. simpl. rewrite upd_eq. auto. }
    assert (Hvis : forall m, visited s m -> visited s' m).
    { intros m [A B]. split; auto. intros C. destruct (Nat.eq_dec m n) as [->|]; auto. }
    assert (Hvn : visited s' n) by (split; auto).
    assert (Hkn : forall k, k < nn s -> veq (vx g n) (vert s (addr k)) = false).
    { intros k Hk. destruct (veq _ _) eqn:E; auto. rewrite <- (g_vert G n Hn) in E.
      apply (g_distinct G) in E; [|left; auto|right; eauto]. subst n. now apply addr_new in Hn. }
    assert (Hbr : forall m, reaching (Reach n x :: b) m \/ visited s m -> reaching (scatter (number (ne s) ds) ++ b) m \/ visited s' m).
    { intros m [A|A]; auto. apply reaching_cons in A as [->|A]; auto. left. apply reaching_app. auto. }
    assert (Hgd : forall l v, In (l, v) ds -> grown v) by (intros; eapply grown_leaf; eauto).
    destruct G. split; auto.
    - intros l. simpl. unfold upd. destruct (l =? _); auto.
    - intros m A. apply reaching_app in A as [A|[y A]]; [now apply reaching_scatter in A|]. apply g_reach0. exists y. simpl. auto.
    - intros m A B. simpl. unfold upd. destruct (Nat.eqb_spec m n) as [->|]; auto. destruct Ht. tauto.
    - intros m A. destruct (Nat.eq_dec m n) as [->|Hmn].
      + right. split; auto. assert (E : ncalls s' (vx g n) = S (ncalls s (vx g n))).
        { unfold ncalls. simpl. now rewrite (eqv_refl Hveq). }
        rewrite E. simpl. rewrite upd_eq. intros Hne. destruct (g_leaf0 n A) as [[_ B]|[(_ & i0 & q & B & C & _) _]]; [lia|].
        rewrite Ec in B. injection B as <-. rewrite En in C. symmetry in C. apply number_nil in C. subst ds. now destruct Hne.
      + rewrite Hnc. 2:{ destruct (veq _ _) eqn:E; auto. apply Hdist in E; auto; [congruence|apply A]. }
        simpl. unfold upd. destruct (Nat.eqb_spec m n); [tauto|]. destruct (g_leaf0 m A) as [?|(B & ?)]; auto.
    - intros k Hk. simpl in *. destruct (g_new0 k Hk) as (i0 & q & A & B & C & D). exists i0, q. rewrite Hnc by auto.
      unfold upd. destruct (Nat.eqb_spec (addr k) n) as [E|]; [subst n; now apply addr_new in Hn|]. repeat split; auto. lia.
    - intros m i l v A. apply Ho in A as [A|[-> A]]; simpl.
      + destruct (g_owns0 m i l v A) as [B [[C|C]|C]]; [discriminate| |]; split; auto using in_or_app; lia.
      + split; [apply number_in in A; lia|]. left. apply in_or_app. left. now apply scatter_carry.
    - intros v i l A. apply in_app_or in A as [A|A].
      + apply scatter_carry in A. split; [apply number_in in A as (_ & _ & A); eauto|]. exists n. apply Ho. auto.
      + destruct (g_owner0 v i l) as (B & m & C); simpl; auto. split; auto. exists m. apply Ho. auto.
    - intros i m l v m' l' v' A B. apply Ho in A as [A|[-> A]]; apply Ho in B as [B|[-> B]]; eauto.
      + destruct (g_owns0 m i l v A) as [C _]. apply number_in in B. lia.
      + destruct (g_owns0 m' i l' v' B) as [C _]. apply number_in in A. lia.
      + split; auto. eapply number_unique; eauto.
    - intros i m l v q A B. apply Ho in A as [A|[-> A]]; [rewrite Hnode'; eapply g_res0; eauto|].
      apply number_in in A as (A & _). simpl in B. rewrite g_fresh0 in B; [discriminate|lia].
    - intros i A. simpl in *. apply g_fresh0. lia.
    - intros k Hk. destruct (g_parent0 k Hk) as (m & i & l & v & A & B). exists m, i, l, v. rewrite Ho. auto.
    - intros m l y A B C. apply Hbr. eapply g_edges0; eauto.
    - intros c [<-|A]; auto. simpl. split; auto. left. eauto.
  Qed.

  Lemma collision_some s ps v n : good s ps -> collision X veq vhash s (vl v) v = Some n -> node s n /\ veq v (vert s n) = true.
  Proof.
    intros G H. apply find_some in H as [A B]. rewrite same_veq in B. apply (g_table G) in A. tauto.
  Qed.

  Lemma good_extant s n v i x b s' out : good s (Carry v i x :: b) -> node s n -> veq v (vert s n) = true ->
    reach_extant X false conn veq eeq ehash s (vl v) n i x = (s', out) -> good s' (out ++ b).
  Proof.
    intros G Hn Hv H. unfold reach_extant in H. cbn [negb orb] in H. injection H as <- <-. cbn [app].
    destruct (g_owner G v i x) as (Hg & m0 & Hm0); [simpl; auto|].
    match goal with |- good ?q _ => set (s' := q) end.
    assert (Ho : forall m j l w, owns s' m j l w <-> owns s m j l w) by reflexivity.
    assert (Hr : forall j, res s' j = if j =? i then Some n else res s j) by reflexivity.
    assert (Hsame : forall m, res s i = Some m -> m = n).
    { intros m E. destruct (g_res G Hm0 E) as [A B]. apply (g_distinct G); auto. eapply (eqv_trans Hveq); [|exact Hv].
      now rewrite (eqv_symb Hveq). }
    destruct G. split; auto.
    - intros m [y Hy]. apply g_reach0. exists y. simpl. auto.
    - intros m j l w A. rewrite Hr. destruct (g_owns0 m j l w A) as [B [[C|C]|C]]; split; auto.
      + injection C as <- <- <-. right. rewrite Nat.eqb_refl. discriminate.
      + right. destruct (j =? i); auto. discriminate.
    - intros w j l A. apply g_owner0. simpl. auto.
    - intros j m l w q A B. rewrite Hr in B. destruct (Nat.eqb_spec j i) as [->|]; [|eapply g_res0; eauto].
      injection B as <-. destruct (g_unique0 _ _ _ _ _ _ _ A Hm0) as (_ & _ & ->). auto.
    - intros j A. rewrite Hr. destruct (Nat.eqb_spec j i) as [->|]; auto. exfalso. destruct (g_owns0 _ _ _ _ Hm0). simpl in A. lia.
    - intros k Hk. destruct (g_parent0 k Hk) as (m & j & l & w & A & B & C). exists m, j, l, w. rewrite Hr. split; auto. split; auto.
      destruct (Nat.eqb_spec j i) as [->|]; auto. apply Hsame in B. now subst.
    - destruct g_root0 as [A|A]; auto. left. eapply reaching_carry; eauto.
    - intros m l y A B C. destruct (g_edges0 m l y A B C) as [D|D]; auto. left. eapply reaching_carry; eauto.
  Qed.

  Lemma collision_none s ps v : good s ps -> collision X veq vhash s (vl v) v = None -> forall n, node s n -> veq v (vert s n) = false.
  Proof.
    intros G H n Hn. unfold collision in H. assert (F := find_none _ _ H n). destruct (veq v (vert s n)) eqn:E; auto.
    rewrite <- E, <- same_veq. apply F. apply (g_table G). rewrite (same_lane E), (same_bin E). auto.
  Qed.

  Lemma good_new s v i x b s' out : good s (Carry v i x :: b) -> started s (vl v) = true ->
    collision X veq vhash s (vl v) v = None ->
    reached_new X false conn veq vhash eeq ehash addr s (vl v) v i x = (s', out) -> good s' (out ++ b) \/ bad s'.
  Proof.
    intros G Hst Hc H. assert (Hu := collision_none _ G Hc). clear Hc. destruct (g_owner G v i x) as (Hg & m0 & Hm0); [simpl; auto|].
    unfold reached_new, connect in H. destruct (declared None v) as [k e] eqn:Ed. injection H as <- <-.
    destruct e as [e|].
    { right. exists (vl v). split; [now apply lane_of_lt|]. simpl. rewrite upd_eq. discriminate. }
    left. match goal with |- good ?q _ => set (s' := q) end. set (n := addr (nn s)) in *.
    assert (Hnn : ~ node s n).
    { intros [A|(j & A & B)]; [now apply addr_new in A|]. apply addr_inj in B. lia. }
    assert (Hvt : forall m, vert s' m = if m =? n then v else vert s m) by reflexivity.
    assert (Hnode : forall m, node s' m <-> node s m \/ m = n).
    { intros m. unfold node. simpl. split.
      - intros [?|(j & A & B)]; auto. destruct (Nat.eq_dec j (nn s)) as [->|]; auto. left. right. exists j. split; auto. lia.
      - intros [[?|(j & A & B)]| ->]; auto; right; [exists j|exists (nn s)]; auto. }
    assert (Hvo : forall m, node s m -> vert s' m = vert s m).
    { intros m A. rewrite Hvt. destruct (Nat.eqb_spec m n) as [->|]; tauto. }
    assert (Hvn : vert s' n = v) by (rewrite Hvt, Nat.eqb_refl; reflexivity).
    assert (Hso : forall m, souts s' m = upd (souts s) n (number (ne s) k) m).
    { intros m. simpl. unfold upd. rewrite Nat.eqb_refl, app_nil_r. destruct (m =? n); auto. }
    assert (Hson : forall m, node s m -> souts s' m = souts s m).
    { intros m A. rewrite Hso. unfold upd. destruct (Nat.eqb_spec m n) as [->|]; tauto. }
    assert (Ho : forall m j l w, owns s' m j l w <-> owns s m j l w \/ (m = n /\ In (Made j l w) (number (ne s) k))).
    { apply owns_connect; auto. tauto. }
    assert (Hr : forall j, res s' j = if j =? i then Some n else res s j) by reflexivity.
    assert (Hnc : forall w, veq v w = false -> ncalls s' w = ncalls s w).
    { intros w E. unfold ncalls. simpl. now rewrite E. }
    assert (Hold : forall m, In m (ids g) -> node s m) by (left; auto).
    assert (Hnk : forall j, j < nn s -> node s (addr j)) by (right; eauto).
    assert (Hldm : forall m, node s m -> leaf_done s m -> leaf_done s' m).
    { intros m A (N & i0 & q & B & C & D). split; [eapply Nat.le_trans; [exact N|]; unfold ncalls; simpl; destruct (veq _ _); simpl; lia|].
      exists i0, q. rewrite Hson by auto. simpl. repeat split; auto. lia. }
    assert (Hvis : forall m, visited s m -> visited s' m).
    { intros m [A B]. split; auto. intros C. apply Hldm; auto. apply Hold, C. }
    assert (Huo : forall m, In m (ids g) -> veq v (vx g m) = false).
    { intros m A. rewrite <- (g_vert G) by auto. auto. }
    assert (Hbr : forall m, reaching (Carry v i x :: b) m \/ visited s m -> reaching (scatter (number (ne s) k) ++ b) m \/ visited s' m).
    { intros m [A|A]; auto. apply reaching_carry in A. left. apply reaching_app. auto. }
    assert (Hco : conn None v = (fst (conn None v), None)).
    { rewrite declared_eq in Ed. destruct (conn None v) as [q [e|]]; [discriminate|reflexivity]. }
    assert (Hk : k = fst (declared None v)) by now rewrite Ed.
    assert (Hgd : forall l w, In (l, w) k -> grown w).
    { intros l w A. eapply grown_next with (u := v); [exact Hg| |exact Hco|].
      - exact Huo.
      - rewrite Hk in A. apply declared_dedup in A; eauto. now rewrite Hco. }
    destruct G. split; auto.
    - intros l. simpl. unfold upd. destruct (l =? _); auto.
    - intros m A. apply reaching_app in A as [A|[y A]]; [now apply reaching_scatter in A|]. apply g_reach0. exists y. simpl. auto.
    - intros m A. rewrite Hvo; auto.
    - intros l j m. simpl table. rewrite put_bin_in, Hnode, g_table0. split.
      + intros [(A & B)|(-> & -> & ->)]; [rewrite Hvo; auto|rewrite Hvn; auto].
      + intros ([A| ->] & B & C).
        * left. rewrite Hvo in * by auto. auto.
        * right. rewrite Hvn in *. auto.
    - intros m m' A B. apply Hnode in A as [A| ->]; apply Hnode in B as [B| ->]; rewrite ?Hvn; rewrite ?Hvo by auto; auto.
      + intros C. rewrite (eqv_symb Hveq), Hu in C by auto. discriminate.
      + intros C. rewrite Hu in C by auto. discriminate.
    - intros l m A. simpl queue. rewrite Hnode. simpl in A. unfold upd. destruct (Nat.eqb_spec l (vl v)) as [->|].
      + rewrite in_app_iff, g_queue0 by auto. cbn [In]. split.
        * intros [[B C]|[<-|[]]]; [rewrite Hvo by auto|rewrite Hvn]; auto.
        * intros [[B| ->] C]; [rewrite Hvo in C by auto|]; auto.
      + rewrite g_queue0 by auto. split; [intros [B C]; rewrite Hvo by auto; auto|]. intros [[B| ->] C]; [rewrite Hvo in C by auto; auto|].
        rewrite Hvn in C. congruence.
    - intros l A. simpl in A. destruct (g_unstarted0 l A) as [B C]. simpl queue. unfold upd. destruct (Nat.eqb_spec l (vl v)) as [->|]; [congruence|].
      split; auto. intros j D. simpl in D. destruct (Nat.eq_dec j (nn s)) as [->|]; [fold n; rewrite Hvn; congruence|].
      assert (j < nn s) by lia. rewrite Hvo by auto. auto.
    - intros l. simpl. unfold upd. destruct (Nat.eqb_spec l (vl v)) as [->|]; auto. apply nodup_snoc; auto.
      rewrite g_queue0 by auto. tauto.
    - intros m A B. rewrite Hson; auto.
    - intros m A. assert (node s m) by apply Hold, A. rewrite Hson by auto. rewrite Hnc by (apply Huo, A).
      destruct (g_leaf0 m A) as [?|(B & C)]; auto.
    - intros j A. simpl in A. destruct (Nat.eq_dec j (nn s)) as [->|].
      + fold n. rewrite Hvn, Hso, upd_eq. exists (ne s), (fst (conn None v)). rewrite <- Hk. repeat split; auto.
        unfold ncalls. simpl. rewrite (eqv_refl Hveq). simpl. f_equal. apply ncalls_0. intros c B. rewrite (eqv_symb Hveq).
        destruct (g_calls0 c B) as [_ [(m & C & ->)|(m & C & ->)]]; auto. apply Huo, C.
      + assert (B : j < nn s) by lia. destruct (g_new0 j B) as (i0 & q & C & D & E & F). exists i0, q.
        rewrite Hvo, Hson, Hnc by auto. simpl. repeat split; auto. lia.
    - intros j A. simpl in A. destruct (Nat.eq_dec j (nn s)) as [->|]; [fold n; rewrite Hvn; auto|].
      assert (B : j < nn s) by lia. rewrite Hvo by auto. auto.
    - intros m j l w A. rewrite Hr. apply Ho in A as [A|[-> A]]; simpl ne.
      + destruct (g_owns0 m j l w A) as [B [[C|C]|C]].
        * injection C as <- <- <-. split; [lia|]. right. rewrite Nat.eqb_refl. discriminate.
        * split; [lia|]. auto using in_or_app.
        * split; [lia|]. right. destruct (j =? i); auto. discriminate.
      + split; [apply number_in in A; lia|]. left. apply in_or_app. left. now apply scatter_carry.
    - intros w j l A. apply in_app_or in A as [A|A].
      + apply scatter_carry in A. split; [apply number_in in A as (_ & _ & A); eauto|]. exists n. apply Ho. auto.
      + destruct (g_owner0 w j l) as (B & m & C); simpl; auto. split; auto. exists m. apply Ho. auto.
    - intros j m l w m' l' w' A B. apply Ho in A as [A|[-> A]]; apply Ho in B as [B|[-> B]]; eauto.
      + destruct (g_owns0 m j l w A) as [C _]. apply number_in in B. lia.
      + destruct (g_owns0 m' j l' w' B) as [C _]. apply number_in in A. lia.
      + split; auto. eapply number_unique; eauto.
    - intros j m l w q A B. rewrite Hr in B. rewrite Hnode. assert (Hi : i < ne s) by (destruct (g_owns0 _ _ _ _ Hm0); auto).
      apply Ho in A as [A|[-> A]].
      + destruct (Nat.eqb_spec j i) as [->|].
        * injection B as <-. destruct (g_unique0 _ _ _ _ _ _ _ A Hm0) as (_ & _ & ->). rewrite Hvn. split; auto. apply (eqv_refl Hveq).
        * destruct (g_res0 _ _ _ _ _ A B). rewrite Hvo by auto. auto.
      + apply number_in in A as (A & _). destruct (Nat.eqb_spec j i) as [->|]; [lia|]. rewrite g_fresh0 in B; [discriminate|lia].
    - intros j A. rewrite Hr. simpl in A. assert (Hi : i < ne s) by (destruct (g_owns0 _ _ _ _ Hm0); auto).
      destruct (Nat.eqb_spec j i) as [->|]; [lia|]. apply g_fresh0. lia.
    - intros j A. simpl in A. destruct (Nat.eq_dec j (nn s)) as [->|].
      + exists m0, i, x, v. rewrite Ho, Hr, Nat.eqb_refl. split; auto. split; auto. destruct (proj1 Hm0) as [?|(q & B & C)]; eauto.
      + assert (B : j < nn s) by lia. destruct (g_parent0 j B) as (m & q & l & w & C & D & E). exists m, q, l, w. rewrite Ho, Hr.
        split; auto. split; auto. destruct (Nat.eqb_spec q i) as [->|]; auto. exfalso.
        destruct (g_res0 _ _ _ _ _ Hm0 D) as [F F']. rewrite Hu in F' by auto. discriminate.
    - intros m l y A B C. apply Hbr. eapply g_edges0; eauto.
    - intros c [<-|A].
      + simpl fst. simpl snd. split; auto. right. exists (nn s). fold n. rewrite Hvn. simpl. auto.
      + destruct (g_calls0 c A) as [B [C|(j & C & D)]]; split; auto. right. exists j. rewrite Hvo by auto. simpl. auto.
  Qed.

  (** *** Errors stay *)
  Lemma bad_step s p b s' out : weak s (p :: b) -> bad s -> step s p = Some (s', out) -> bad s'.
  Proof.
    intros W (l & Hll & He) H. exists l. split; auto. unfold spreading in H. rewrite (w_hung W) in H.
    match type of H with context [begin s0 ?s1 ?l] => set (s1' := s1) in H; destruct (begin s0 s1' l) as [s2 o1] eqn:Eb end.
    assert (E2 : serr s2 = serr s).
    { revert Eb. unfold begin. destruct (started _ _); intros E; injection E as <- <-; reflexivity. }
    set (q := sdest X g vhash p) in *.
    assert (Hup : forall e, serr s2 q = None -> upd (serr s2) q e l <> None).
    { intros e A. unfold upd. destruct (Nat.eqb_spec l q) as [->|]; congruence. }
    rewrite <- E2 in He. clearbody s1'. destruct (hung s2); [injection H as <- <-; auto|].
    destruct p as [n x|v i x].
    - destruct (skil s _ && dropped (stick s)); [injection H as <- <-; auto|].
      unfold break_out in H. destruct (serr s2 q) eqn:Eq; [injection H as <- <-; exact He|].
      destruct (souts s2 n); [|injection H as <- <-; exact He].
      unfold connect in H. destruct (broken _ _) as [k e]. injection H as <- <-.
      unfold halt_if_faulty. simpl. destruct (upd (serr s2) q e q); simpl; auto.
    - unfold carry in H. destruct (serr s2 q) eqn:Eq; [injection H as <- <-; exact He|].
      destruct (_ || _); [injection H as <- <-; exact He|].
      destruct (collision _ _ _ _ _ _).
      { unfold reach_extant in H. cbn [negb orb] in H. injection H as <- <-. exact He. }
      destruct (_ =? 0); [|destruct (_ <? _)].
      + unfold reached_new, connect in H. destruct (declared _ _) as [k e]. injection H as <- <-. simpl. auto.
      + unfold reached_new, connect in H. destruct (declared _ _) as [k e]. injection H as <- <-. simpl. auto.
      + injection H as <- <-. simpl. auto.
  Qed.

  (** *** Termination *)
  Section Termination.
    Variable N : nat.
    Hypothesis Hfin : forall vs, (forall v, In v vs -> grown v /\ unknown v) -> ForallOrdPairs (fun v w => veq v w = false) vs -> length vs <= N.

    Definition left (s : sdata) : nat :=
      length (filter (fun l => negb (started s l)) (seq 0 (lanes X))) +
      length (filter (fun n => match souts s n with [] => true | _ => false end) (ids g)) + (N - nn s).

    Lemma nn_bound s ps : weak s ps -> nn s <= N.
    Proof.
      intros W. rewrite <- (seq_length (nn s) 0), <- (map_length (fun k => vert s (addr k))). apply Hfin.
      - intros v Hv. apply in_map_iff in Hv as (k & <- & Hk). apply in_seq in Hk. apply (w_new W). lia.
      - apply fop_map, fop_seq. intros j k _ A B. apply (w_pair W); lia.
    Qed.

    Lemma left_begin s l s' out : l < lanes X -> begin s0 s l = (s', out) -> left s' < left s \/ (s' = s /\ out = []).
    Proof.
      intros Hll. unfold begin. destruct (started s l) eqn:E; intros H; injection H as <- <-; auto. left.
      unfold left. simpl. assert (length (filter (fun k => negb (upd (started s) l true k)) (seq 0 (lanes X))) <
        length (filter (fun k => negb (started s k)) (seq 0 (lanes X)))); [|lia].
      apply filter_lt with (a := l).
      - intros k _. unfold upd. destruct (k =? l); auto. discriminate.
      - apply in_seq. lia.
      - now rewrite E.
      - now rewrite upd_eq.
    Qed.

    Lemma left_out s l n x b s' out : weak s (Reach n x :: b) ->
      break_out X false conn eeq ehash s l n x = (s', out) -> left s' < left s \/ (left s' = left s /\ out = []).
    Proof.
      intros W. assert (Hn : In n (ids g)) by (eapply (w_reach W); simpl; eauto). unfold break_out.
      destruct (serr s l); [intros H; injection H as <- <-; auto|].
      destruct (souts s n) eqn:En; [|intros H; injection H as <- <-; auto].
      unfold connect. destruct (broken _ _) as [k e]. intros H.
      assert (E : s' = halt_if_faulty (mkSD (upd (souts s) n (number (ne s) k ++ souts s n)) (vert s) (table s) (labs s) (queue s) (started s) (res s)
            (ne s + length k) (nn s) (count s) (upd (serr s) l e) (skil s) (skilled s) (stick s) (hung s)
            ((None, vert s n) :: calls s)) l /\ out = scatter (number (ne s) k)) by (now injection H as <- <-).
      destruct E as [-> ->]. clear H.
      match goal with |- left (halt_if_faulty ?q _) < _ \/ _ => assert (E : forall j, left (halt_if_faulty q j) = left q) by
         (intros j; unfold halt_if_faulty; destruct (serr _ _); reflexivity) end.
      rewrite E. unfold left. simpl. destruct k as [|d k].
      - right. split; [|reflexivity]. f_equal. f_equal. f_equal. apply filter_ext. intros m. unfold upd.
        destruct (Nat.eqb_spec m n) as [->|]; auto.
      - left. match goal with |- _ + ?a + _ < _ + ?c + _ => assert (a < c); [|lia] end.
        apply filter_lt with (a := n); auto.
        + intros m _. unfold upd. destruct (m =? n); auto. discriminate.
        + now rewrite En.
        + rewrite upd_eq. simpl. reflexivity.
    Qed.

    Lemma left_carry s kil v i x b s' out : weak s (Carry v i x :: b) -> weak s' (out ++ b) ->
      carry X false conn veq vhash eeq ehash vertex_limit addr s (vl v) kil v i x = (s', out) -> left s' < left s \/ (left s' = left s /\ out = []).
    Proof.
      intros W W' H. assert (Hb := nn_bound W').
      assert (Hnew : forall c, nn c = nn s -> started c = started s -> souts c = souts s ->
        reached_new X false conn veq vhash eeq ehash addr c (vl v) v i x = (s', out) -> left s' < left s).
      { intros c E1 E2 E3 H'. unfold reached_new, connect in H'. destruct (declared None v) as [k e].
        assert (nn s' = S (nn s) /\ started s' = started s /\ forall n, In n (ids g) -> souts s' n = souts s n) as (F1 & F2 & F3).
        { injection H' as <- <-. simpl. rewrite E1, E2. split; auto. split; auto. intros n Hn. rewrite !upd_old by auto. now rewrite E3. }
        unfold left. rewrite F1, F2 in *. rewrite (@filter_ext_in _ (fun n => match souts s' n with [] => true | _ => false end)
           (fun n => match souts s n with [] => true | _ => false end)); [lia|]. intros n Hn. now rewrite F3. }
      unfold carry in H. destruct (serr s (vl v)); [injection H as <- <-; auto|].
      destruct kil; [injection H as <- <-; auto|].
      destruct (collision X veq vhash s (vl v) v) as [n|]; [injection H as <- <-; auto|].
      destruct (lim =? 0); [left; eapply (Hnew s); eauto|].
      destruct (_ <? lim); [left; eapply (Hnew (set_count s (vl v))); eauto|].
      injection H as <- <-. auto.
    Qed.

    Theorem spreading_terminates : terminates step (sstart g s0, [Reach (root g) None]).
    Proof.
      apply lex_inv_terminates with (I := weak) (m := left).
      - intros s b b' P. now apply weak_perm.
      - intros s p b s' out W H. split; [eapply weak_step; eauto|].
        assert (Hlt := sdest_lt p). unfold spreading in H. rewrite (w_hung W) in H.
        match type of H with context [begin s0 ?s1 ?l] => set (s1' := s1) in H; destruct (begin s0 s1' l) as [s2 o1] eqn:Eb end.
        assert (W1 : weak s1' (p :: b)) by (eapply weak_frame; [..|exact W]; try reflexivity; symmetry; apply (w_hung W)).
        assert (W2 := weak_begin _ Eb W1). rewrite (w_hung W2) in H.
        assert (W3 : weak s2 (p :: (o1 ++ b))).
        { eapply weak_perm; [|exact W2]. symmetry. apply Permutation_middle. }
        assert (L1 : left s1' = left s) by reflexivity. apply left_begin in Eb; auto.
        assert (Z : forall s3 o2, left s3 < left s2 \/ (left s3 = left s2 /\ o2 = []) ->
           left s3 < left s \/ (left s3 = left s /\ o1 ++ o2 = [])).
        { intros s3 o2. rewrite <- L1. intros [A|[A ->]].
          - left. destruct Eb as [B|[-> _]]; lia.
          - destruct Eb as [B|[-> ->]]; [left; lia|right; auto]. }
        destruct p as [n x|v i x].
        + destruct (skil s _ && dropped (stick s)).
          * injection H as <- <-. apply Z. auto.
          * destruct (break_out _ _ _ _ _ _ _ _ _) as [s3 o2] eqn:E3. injection H as <- <-. apply Z.
            eapply left_out; eauto.
        + destruct (carry _ _ _ _ _ _ _ _ _ _ _ _ _ _ _) as [s3 o2] eqn:E3. injection H as <- <-. apply Z.
          eapply left_carry; eauto. eapply weak_carry; eauto.
      - apply weak_start.
    Qed.
  End Termination.

  Hypothesis Hnk : forall k, killcalls Y k = false.

  Lemma good_step s p b s' out : good s (p :: b) -> step s p = Some (s', out) -> good s' (out ++ b) \/ bad s'.
  Proof.
    intros G H. unfold spreading in H. rewrite (g_hung G), (g_skil G), (g_skilled G), Hnk in H. cbn [orb andb] in H.
    match type of H with context [begin s0 ?s1 ?l] => set (s1' := s1) in H; destruct (begin s0 s1' l) as [s2 o1] eqn:Eb end.
    assert (G1 : good s1' (p :: b)).
    { eapply good_frame; [..|exact G]; try reflexivity.
      - intros l. simpl. unfold upd. destruct (l =? _); auto. now rewrite (g_skil G).
      - now rewrite (g_skilled G).
      - now rewrite (g_hung G). }
    destruct (good_begin _ Eb G1) as [G2 Hst]. rewrite (g_hung G2) in H.
    assert (G3 : good s2 (p :: (o1 ++ b))) by (eapply good_perm; [|exact G2]; symmetry; apply Permutation_middle).
    assert (P : forall o2 s3, good s3 (o2 ++ o1 ++ b) -> good s3 ((o1 ++ o2) ++ b)).
    { intros o2 s3. apply good_perm. rewrite !app_assoc. apply Permutation_app_tail, Permutation_app_comm. }
    destruct p as [n x|v i x].
    - destruct (break_out _ _ _ _ _ _ _ _ _) as [s3 o2] eqn:E3. injection H as <- <-.
      destruct (good_out G3 Hst E3); auto.
    - destruct (carry _ _ _ _ _ _ _ _ _ _ _ _ _ _ _) as [s3 o2] eqn:E3. injection H as <- <-.
      simpl sdest in *. unfold carry in E3. rewrite (g_serr G2) in E3.
      destruct (collision X veq vhash s2 (vl v) v) as [n|] eqn:Ec.
      { destruct (collision_some _ G2 Ec) as [A B]. left. apply P. eapply good_extant; eauto. }
      destruct (lim =? 0); [destruct (good_new G3 Hst Ec E3); auto|].
      destruct (_ <? _).
      + assert (G4 : good (set_count s2 (vl v)) (Carry v i x :: o1 ++ b)).
        { eapply good_frame; [..|exact G3]; reflexivity. }
        destruct (good_new G4 Hst Ec E3); auto.
      + injection E3 as <- <-. right. exists (vl v). split; [now apply lane_of_lt|]. simpl. rewrite upd_eq. discriminate.
  Qed.

  Lemma good_start : good (sstart g s0) [Reach (root g) None].
  Proof.
    assert (Hs : forall n, souts (sstart g s0) n = map (fun e => Given (fst e) (snd e)) (es g n)).
    { intros n. simpl. now rewrite (pr_outs Hp). }
    assert (Hno : forall n i l v, ~ owns (sstart g s0) n i l v).
    { intros n i l v [_ A]. rewrite Hs in A. apply in_map_iff in A as (? & ? & _). discriminate. }
    assert (Hnode : forall n, node (sstart g s0) n <-> In n (ids g)).
    { intros n. unfold node. simpl. split; auto. intros [?|(k & A & _)]; auto. lia. }
    split; auto; try (intros; exfalso; eapply Hno; eassumption); try (simpl; intros; lia); try discriminate.
    - intros n [x [H|[]]]. injection H as <- _. apply (wf_root Hwf).
    - intros l k n. rewrite Hnode. apply (pr_table Hp).
    - intros n m A B. rewrite Hnode in A, B. apply Hdist; auto.
    - intros l _. simpl. split; auto. intros; lia.
    - intros l. constructor.
    - intros n [A B]. left. rewrite Hs, B. auto.
    - intros v i l [H|[]]. discriminate.
    - left. exists None. simpl. auto.
  Qed.

  Lemma second_pass s :
    ran (lanes X) (sdest X g vhash) step (sstart g s0) (Reach (root g) None) s -> weak s [] /\ (good s [] \/ bad s).
  Proof.
    intros H. apply ran_completes in H; [|apply sdest_lt]. revert H. unfold completes.
    apply mruns_inv with (I := fun s b => weak s b /\ (good s b \/ bad s)).
    - intros q b1 b2 P [A [B|B]]; split; eauto using weak_perm, good_perm.
    - intros q p b1 q' out [A [B|B]] H; (split; [eapply weak_step; eauto|]).
      + eapply good_step; eauto.
      + right. eapply bad_step; eauto.
    - split; auto using weak_start, good_start.
  Qed.
End SpreadProofs.
