(** Atomic access to shared memory: claims C85 and C86. *)
From Coq Require Import List Arith NArith Lia Bool Permutation Wf_nat.
From Verif Require Import Base Hash PortsTerm Locks.
Import ListNotations.

Set Implicit Arguments.

(** ** C85 *)

(** The value of a location according to the completed accesses, latest first *)
Fixpoint latest (m : nat -> N) (v : nat) (l : list event) : N :=
  match l with
  | [] => m v
  | Put _ u x :: l' => if u =? v then x else latest m v l'
  | Got _ _ _ :: l' | Held _ _ :: l' => latest m v l'
  end.

Section Safety.
  Variable h : nat -> nat.
  Variable m0 : nat -> N.

  Lemma whole_split x : whole (split x) = x.
  Proof. unfold whole, split. simpl. rewrite (N.div_mod x half) at 3; [lia|discriminate]. Qed.
  Lemma split_whole x c : c = split x -> whole c = x.
  Proof. intros ->. apply whole_split. Qed.

  Definition reads (c : stage) : option nat := match c with Rd0 v | Rd1 v _ | Rd2 v _ _ => Some v | _ => None end.
  Definition writes (c : stage) : option (nat * N) := match c with Wr0 v x | Wr1 v x | Wr2 v x => Some (v, x) | _ => None end.
  (** The location being written *)
  Definition dirty (s : state) (v : nat) : Prop := exists i x, at_ s i = Wr1 v x \/ at_ s i = Wr2 v x.

  Record ok (s : state) : Prop := {
    k_excl : forall k i, writer s k = Some i -> readers s k = [];
    k_read : forall i v, reads (at_ s i) = Some v -> In i (readers s (h v));
    k_reader : forall k i, In i (readers s k) -> exists v, reads (at_ s i) = Some v /\ h v = k;
    k_write : forall i v x, writes (at_ s i) = Some (v, x) -> writer s (h v) = Some i;
    k_rd1 : forall i v a, at_ s i = Rd1 v a -> a = fst (mem s v);
    k_rd2 : forall i v a b, at_ s i = Rd2 v a b -> (a, b) = mem s v;
    k_wr1 : forall i v x, at_ s i = Wr1 v x -> fst (mem s v) = fst (split x);
    k_wr2 : forall i v x, at_ s i = Wr2 v x -> mem s v = split x;
    k_mem : forall v, dirty s v \/ mem s v = split (latest m0 v (hist s));
    k_hist : forall l1 i v x l2, hist s = l1 ++ Got i v x :: l2 -> x = latest m0 v l2
  }.

  Lemma ok_start p : ok (start m0 p).
  Proof.
    constructor; simpl; try discriminate; auto.
    - intros k i [].
    - intros [|] i v x l2 H; discriminate.
  Qed.

  (** Nobody writes to a location that is being read. *)
  Lemma not_dirty s i v : ok s -> reads (at_ s i) = Some v -> ~ dirty s v.
  Proof.
    intros K R (j & x & D). assert (W : writer s (h v) = Some j).
    { apply (k_write K j (x := x)). destruct D as [-> | ->]; reflexivity. }
    apply (k_excl K) in W. pose proof (k_read K i R) as I. rewrite W in I. destruct I.
  Qed.
  Lemma clean_mem s i v : ok s -> reads (at_ s i) = Some v -> mem s v = split (latest m0 v (hist s)).
  Proof. intros K R. destruct (k_mem K v) as [D|]; auto. destruct (not_dirty i K R D). Qed.
  Lemma one_writer s i j v w x y : ok s -> writes (at_ s i) = Some (v, x) -> writes (at_ s j) = Some (w, y) -> h v = h w -> i = j.
  Proof. intros K A B E. apply (k_write K) in A. apply (k_write K) in B. rewrite E in A. congruence. Qed.
  Lemma read_or_written s i j v w x : ok s -> reads (at_ s i) = Some v -> writes (at_ s j) = Some (w, x) -> h v <> h w.
  Proof.
    intros K A B E. apply (k_write K) in B. apply (k_excl K) in B. pose proof (k_read K i A) as I. rewrite E, B in I. destruct I.
  Qed.

  Ltac who j i := let E := fresh "E" in let N := fresh "N" in destruct (Nat.eq_dec j i) as [E|N]; [try subst j; rewrite ?upd_same in *|rewrite ?(upd_diff _ _ N) in *].

  (** Steps that change only the stage of a thread, from and to a stage of the same kind, and the memory it may write to *)
  Lemma ok_stay s i c mem' v :
    ok s -> reads c = reads (at_ s i) -> writes c = writes (at_ s i) ->
    (forall u, u <> v -> mem' u = mem s u) -> (mem' v = mem s v \/ exists x, writes c = Some (v, x)) ->
    (forall u a, c = Rd1 u a -> a = fst (mem' u)) -> (forall u a b, c = Rd2 u a b -> (a, b) = mem' u) ->
    (forall u x, c = Wr1 u x -> fst (mem' u) = fst (split x)) -> (forall u x, c = Wr2 u x -> mem' u = split x) ->
    ((exists x, c = Wr1 v x \/ c = Wr2 v x) \/ (mem' v = mem s v /\ forall u x, at_ s i <> Wr1 u x /\ at_ s i <> Wr2 u x)) ->
    ok (mkS mem' (writer s) (readers s) (prog s) (upd (at_ s) i c) (hist s)).
  Proof.
    intros K Er Ew Hm Hv H1 H2 H3 H4 Hd.
    assert (Same : forall j u, j <> i -> (reads (at_ s j) = Some u \/ exists x, writes (at_ s j) = Some (u, x)) -> mem' u = mem s u).
    { intros j u N Q. destruct (Nat.eq_dec u v) as [->|Nu]; auto. destruct Hv as [|[x Wx]]; auto. exfalso. rewrite Ew in Wx.
      destruct Q as [Q|[y Q]].
      - exact (read_or_written j i K Q Wx eq_refl).
      - apply N. exact (one_writer j i K Q Wx eq_refl). }
    constructor; simpl.
    - apply (k_excl K).
    - intros j u R. who j i; [rewrite Er in R|]; now apply (k_read K).
    - intros k j I. apply (k_reader K) in I as (u & R & E). exists u. split; auto. who j i; congruence.
    - intros j u x R. who j i; [rewrite Ew in R|]; eapply (k_write K); eauto.
    - intros j u a R. who j i; auto. rewrite (Same j u N); [eapply (k_rd1 K); eauto|left; now rewrite R].
    - intros j u a b R. who j i; auto. rewrite (Same j u N); [eapply (k_rd2 K); eauto|left; now rewrite R].
    - intros j u x R. who j i; [exact (H3 u x R)|]. rewrite (Same j u N); [eapply (k_wr1 K); eauto|right; rewrite R; simpl; eauto].
    - intros j u x R. who j i; auto. rewrite (Same j u N); [eapply (k_wr2 K); eauto|right; rewrite R; simpl; eauto].
    - intros u. destruct (Nat.eq_dec u v) as [->|Nu].
      + destruct Hd as [[x Hx]|[E Nd]].
        * left. exists i, x. simpl. now rewrite upd_same.
        * rewrite E. destruct (k_mem K v) as [(j & x & D)|]; auto. left. exists j, x. simpl.
          destruct (Nat.eq_dec j i) as [->|N]; [exfalso; destruct (Nd v x); tauto|now rewrite (upd_diff _ _ N)].
      + rewrite Hm by auto. destruct (k_mem K u) as [(j & x & D)|]; auto. left. exists j, x. simpl.
        destruct (Nat.eq_dec j i) as [->|N]; [|now rewrite (upd_diff _ _ N)]. rewrite upd_same.
        exfalso. assert (W : writes c = Some (u, x)) by (rewrite Ew; destruct D as [-> | ->]; reflexivity).
        destruct Hd as [[y Hy]|[_ Nd]]; [destruct Hy as [-> | ->]; simpl in W; congruence|]. destruct (Nd u x). tauto.
    - apply (k_hist K).
  Qed.

  Lemma clean_keep s i c u : (forall v x, at_ s i <> Wr1 v x /\ at_ s i <> Wr2 v x) -> dirty s u ->
    forall m w r p l, dirty (mkS m w r p (upd (at_ s) i c) l) u.
  Proof.
    intros Nd (j & x & D) m w r p l. exists j, x. simpl. destruct (Nat.eq_dec j i) as [->|N]; [|now rewrite (upd_diff _ _ N)].
    destruct (Nd u x). tauto.
  Qed.

  Lemma ok_act s i s' : ok s -> act h i s = Some s' -> ok s'.
  Proof.
    intros K H. unfold act in H. destruct (at_ s i) as [|v|v a|v a b|v x|v x|v x] eqn:Ei.
    - assert (Nr : forall k, ~ In i (readers s k)).
      { intros k I. apply (k_reader K) in I as (u & R & _). rewrite Ei in R. discriminate. }
      assert (Nd : forall v x, at_ s i <> Wr1 v x /\ at_ s i <> Wr2 v x) by (rewrite Ei; split; discriminate).
      destruct (prog s i) as [|[v|v x|v|v x|t] p]; [discriminate| | | | |].
      + destruct (writer s (h v)) eqn:Ew; [discriminate|]. injection H as <-. constructor; simpl.
        * intros k j W. who k (h v); [congruence|]. now apply (k_excl K) in W.
        * intros j u R. who j i; [injection R as <-; rewrite upd_same; now left|].
          apply (k_read K) in R. unfold upd. destruct (h u =? h v) eqn:E; auto. apply Nat.eqb_eq in E. rewrite <- E. now right.
        * intros k j I. who k (h v).
          -- destruct I as [<-|I]; [exists v; rewrite upd_same; auto|]. who j i; [destruct (Nr _ I)|now apply (k_reader K)].
          -- who j i; [destruct (Nr _ I)|now apply (k_reader K)].
        * intros j u x R. who j i; [discriminate|now apply (k_write K) in R].
        * intros j u a R. who j i; [discriminate|eapply (k_rd1 K); eauto].
        * intros j u a b R. who j i; [discriminate|eapply (k_rd2 K); eauto].
        * intros j u x R. who j i; [discriminate|eapply (k_wr1 K); eauto].
        * intros j u x R. who j i; [discriminate|eapply (k_wr2 K); eauto].
        * intros u. destruct (k_mem K u) as [D|]; auto. left. now apply clean_keep.
        * apply (k_hist K).
      + destruct (nobody s (h v)) eqn:Ew; [|discriminate]. injection H as <-.
        assert (F : writer s (h v) = None /\ readers s (h v) = []).
        { unfold nobody in Ew. destruct (writer s (h v)); [discriminate|]. destruct (readers s (h v)); [auto|discriminate]. }
        destruct F as [F1 F2]. constructor; simpl.
        * intros k j W. who k (h v); auto. now apply (k_excl K) in W.
        * intros j u R. who j i; [discriminate|now apply (k_read K)].
        * intros k j I. who j i; [destruct (Nr _ I)|now apply (k_reader K)].
        * intros j u y R. who j i; [injection R as <- <-; now rewrite upd_same|].
          apply (k_write K) in R. unfold upd. destruct (h u =? h v) eqn:E; auto. apply Nat.eqb_eq in E. congruence.
        * intros j u a R. who j i; [discriminate|eapply (k_rd1 K); eauto].
        * intros j u a b R. who j i; [discriminate|eapply (k_rd2 K); eauto].
        * intros j u y R. who j i; [discriminate|eapply (k_wr1 K); eauto].
        * intros j u y R. who j i; [discriminate|eapply (k_wr2 K); eauto].
        * intros u. destruct (k_mem K u) as [D|]; auto. left. now apply clean_keep.
        * apply (k_hist K).
      + destruct (nobody s (h v)) eqn:Ew; [|discriminate]. injection H as <-.
        assert (F : writer s (h v) = None /\ readers s (h v) = []).
        { unfold nobody in Ew. destruct (writer s (h v)); [discriminate|]. destruct (readers s (h v)); [auto|discriminate]. }
        destruct F as [F1 F2]. constructor; simpl.
        * intros k j W. who k (h v); auto. now apply (k_excl K) in W.
        * intros j u R. who j i; [discriminate|now apply (k_read K)].
        * intros k j I. who j i; [destruct (Nr _ I)|now apply (k_reader K)].
        * intros j u y R. who j i; [discriminate|].
          apply (k_write K) in R. unfold upd. destruct (h u =? h v) eqn:E; auto. apply Nat.eqb_eq in E. congruence.
        * intros j u a R. who j i; [discriminate|eapply (k_rd1 K); eauto].
        * intros j u a b R. who j i; [discriminate|eapply (k_rd2 K); eauto].
        * intros j u y R. who j i; [discriminate|eapply (k_wr1 K); eauto].
        * intros j u y R. who j i; [discriminate|eapply (k_wr2 K); eauto].
        * intros u. destruct (k_mem K u) as [D|]; auto. left. now apply clean_keep.
        * intros [|e l1] j u y l2 E; simpl in E; [discriminate|]. injection E as _ E. eapply (k_hist K); eauto.
      + destruct (writer s (h v)) as [j0|] eqn:Ew; [|discriminate]. destruct (Nat.eqb_spec j0 i) as [->|]; [|discriminate]. injection H as <-.
        constructor; simpl.
        * apply (k_excl K).
        * intros j u R. who j i; [discriminate|now apply (k_read K)].
        * intros k j I. who j i; [destruct (Nr _ I)|now apply (k_reader K)].
        * intros j u y R. who j i; [injection R as <- <-; auto|now apply (k_write K) in R].
        * intros j u a R. who j i; [discriminate|eapply (k_rd1 K); eauto].
        * intros j u a b R. who j i; [discriminate|eapply (k_rd2 K); eauto].
        * intros j u y R. who j i; [discriminate|eapply (k_wr1 K); eauto].
        * intros j u y R. who j i; [discriminate|eapply (k_wr2 K); eauto].
        * intros u. destruct (k_mem K u) as [D|]; auto. left. now apply clean_keep.
        * apply (k_hist K).
      + destruct (finished s t); [|discriminate]. injection H as <-. constructor; simpl.
        * apply (k_excl K).
        * intros j u R. who j i; [discriminate|now apply (k_read K)].
        * intros k j I. who j i; [destruct (Nr _ I)|now apply (k_reader K)].
        * intros j u y R. who j i; [discriminate|now apply (k_write K) in R].
        * intros j u a R. who j i; [discriminate|eapply (k_rd1 K); eauto].
        * intros j u a b R. who j i; [discriminate|eapply (k_rd2 K); eauto].
        * intros j u y R. who j i; [discriminate|eapply (k_wr1 K); eauto].
        * intros j u y R. who j i; [discriminate|eapply (k_wr2 K); eauto].
        * intros u. destruct (k_mem K u) as [D|]; auto. left. now apply clean_keep.
        * apply (k_hist K).
    - injection H as <-. apply ok_stay with (v := v); rewrite ?Ei; auto; try discriminate.
      + intros u a Q. injection Q as <- <-. reflexivity.
      + right. split; auto. split; discriminate.
    - injection H as <-. apply ok_stay with (v := v); rewrite ?Ei; auto; try discriminate.
      + intros u a' b Q. injection Q as <- <- <-. rewrite (k_rd1 K _ Ei). symmetry. apply surjective_pairing.
      + right. split; auto. split; discriminate.
    - injection H as <-. pose proof (k_rd2 K _ Ei) as Q.
      assert (R0 : reads (at_ s i) = Some v) by now rewrite Ei.
      pose proof (clean_mem i K R0) as C.
      assert (Nd : forall v x, at_ s i <> Wr1 v x /\ at_ s i <> Wr2 v x) by (rewrite Ei; split; discriminate).
      constructor; simpl.
      + intros k j W. who k (h v); [|now apply (k_excl K) in W]. apply (k_excl K) in W. now rewrite W.
      + intros j u R. who j i; [discriminate|]. apply (k_read K) in R. unfold upd.
        destruct (h u =? h v) eqn:E; auto. apply Nat.eqb_eq in E. rewrite <- E. apply filter_In. split; auto.
        apply negb_true_iff, Nat.eqb_neq. auto.
      + intros k j I. assert (In j (readers s k) /\ j <> i) as [I1 I2].
        { who k (h v).
          - apply filter_In in I as [I1 I2]. split; auto. intros ->. rewrite Nat.eqb_refl in I2. discriminate.
          - split; auto. intros ->. apply (k_reader K) in I as (u & R & E). rewrite R0 in R. injection R as <-. congruence. }
        rewrite (upd_diff _ _ I2). now apply (k_reader K).
      + intros j u y R. who j i; [discriminate|now apply (k_write K) in R].
      + intros j u c R. who j i; [discriminate|eapply (k_rd1 K); eauto].
      + intros j u c d R. who j i; [discriminate|eapply (k_rd2 K); eauto].
      + intros j u y R. who j i; [discriminate|eapply (k_wr1 K); eauto].
      + intros j u y R. who j i; [discriminate|eapply (k_wr2 K); eauto].
      + intros u. destruct (k_mem K u) as [D|]; auto. left. now apply clean_keep.
      + intros [|e l1] j u y l2 E; simpl in E.
        * injection E as <- <- <- <-. apply split_whole. congruence.
        * injection E as _ E. eapply (k_hist K); eauto.
    - injection H as <-. apply ok_stay with (v := v); rewrite ?Ei; auto; try discriminate.
      + intros u N. now rewrite (upd_diff _ _ N).
      + right. simpl. eauto.
      + intros u y Q. injection Q as <- <-. now rewrite upd_same.
      + left. eauto.
    - injection H as <-. pose proof (k_wr1 K _ Ei) as Q. apply ok_stay with (v := v); rewrite ?Ei; auto; try discriminate.
      + intros u N. now rewrite (upd_diff _ _ N).
      + right. simpl. eauto.
      + intros u y Q'. injection Q' as <- <-. rewrite upd_same, Q. reflexivity.
      + left. eauto.
    - injection H as <-. pose proof (k_wr2 K _ Ei) as Q.
      assert (W0 : writes (at_ s i) = Some (v, x)) by now rewrite Ei.
      constructor; simpl.
      + intros k j W. who k (h v); [discriminate|]. now apply (k_excl K) in W.
      + intros j u R. who j i; [discriminate|now apply (k_read K)].
      + intros k j I. apply (k_reader K) in I as (u & R & E). exists u. split; auto. who j i; [rewrite Ei in R; discriminate|auto].
      + intros j u y R. who j i; [discriminate|]. pose proof R as R'. apply (k_write K) in R. unfold upd.
        destruct (h u =? h v) eqn:E; auto. apply Nat.eqb_eq in E. destruct N. exact (one_writer j i K R' W0 E).
      + intros j u c R. who j i; [discriminate|eapply (k_rd1 K); eauto].
      + intros j u c d R. who j i; [discriminate|eapply (k_rd2 K); eauto].
      + intros j u y R. who j i; [discriminate|eapply (k_wr1 K); eauto].
      + intros j u y R. who j i; [discriminate|eapply (k_wr2 K); eauto].
      + intros u. destruct (Nat.eqb_spec v u) as [<-|N]; auto.
        destruct (k_mem K u) as [(j & y & D)|]; auto. left. exists j, y. simpl.
        destruct (Nat.eq_dec j i) as [->|Nj]; [|now rewrite (upd_diff _ _ Nj)]. rewrite Ei in D. destruct D; congruence.
      + intros [|e l1] j u y l2 E; simpl in E; [discriminate|]. injection E as _ E. eapply (k_hist K); eauto.
  Qed.

  Lemma ok_run p s : star (step h) (start m0 p) s -> ok s.
  Proof. intros H. induction H as [|s s' _ IH [i St]]; [apply ok_start|eapply ok_act; eauto]. Qed.

  (** The thread that has a lock for writing later on, according to what has been done *)
  Fixpoint holder (k : nat) (l : list event) : option nat :=
    match l with
    | [] => None
    | Held i v :: l' => if h v =? k then Some i else holder k l'
    | Put _ v _ :: l' => if h v =? k then None else holder k l'
    | Got _ _ _ :: l' => holder k l'
    end.
  Record tight (s : state) : Prop := {
    t_hold : forall k i, holder k (hist s) = Some i -> writer s k = Some i;
    t_got : forall l1 i v x l2, hist s = l1 ++ Got i v x :: l2 -> holder (h v) l2 = None;
    t_put : forall l1 i v x l2, hist s = l1 ++ Put i v x :: l2 -> holder (h v) l2 = None \/ holder (h v) l2 = Some i;
    t_held : forall l1 i v l2, hist s = l1 ++ Held i v :: l2 -> holder (h v) l2 = None
  }.
  Lemma tight_start p : tight (start m0 p).
  Proof. constructor; simpl; try discriminate; intros [|]; discriminate. Qed.
  Lemma not_held s k : tight s -> writer s k = None -> holder k (hist s) = None.
  Proof. intros T W. destruct (holder k (hist s)) eqn:E; auto. apply (t_hold T) in E. congruence. Qed.
  Lemma tight_same s s' : tight s -> hist s' = hist s -> (forall k i, writer s k = Some i -> writer s' k = Some i) -> tight s'.
  Proof.
    intros T E W. constructor; rewrite E; [|apply (t_got T)|apply (t_put T)|apply (t_held T)].
    intros k i H. apply W. now apply (t_hold T).
  Qed.
  Lemma tight_act s i s' : ok s -> tight s -> act h i s = Some s' -> tight s'.
  Proof.
    intros K T H. unfold act in H. destruct (at_ s i) as [|v|v a|v a b|v x|v x|v x] eqn:Ei.
    - destruct (prog s i) as [|[v|v x|v|v x|t] p]; [discriminate| | | | |].
      + destruct (writer s (h v)) eqn:Ew; [discriminate|]. injection H as <-. now apply (tight_same _ T).
      + destruct (nobody s (h v)) eqn:Ew; [|discriminate]. injection H as <-. apply (tight_same _ T); auto. simpl.
        intros k j W. unfold upd. destruct (k =? h v) eqn:E; auto. apply Nat.eqb_eq in E. subst k.
        unfold nobody in Ew. rewrite W in Ew. discriminate.
      + destruct (nobody s (h v)) eqn:Ew; [|discriminate]. injection H as <-.
        assert (F : writer s (h v) = None) by (unfold nobody in Ew; destruct (writer s (h v)); [discriminate|auto]).
        constructor; simpl.
        * intros k j. destruct (Nat.eqb_spec (h v) k) as [<-|N].
          -- intros Q. injection Q as <-. apply upd_same.
          -- intros Q. rewrite upd_diff by auto. now apply (t_hold T).
        * intros [|e l1] j u y l2 E; simpl in E; [discriminate|]. injection E as _ E. eapply (t_got T); eauto.
        * intros [|e l1] j u y l2 E; simpl in E; [discriminate|]. injection E as _ E. eapply (t_put T); eauto.
        * intros [|e l1] j u l2 E; simpl in E; injection E as E1 E; [|eapply (t_held T); eauto].
          subst. now apply not_held.
      + destruct (writer s (h v)) as [j0|] eqn:Ew; [|discriminate]. destruct (Nat.eqb_spec j0 i) as [->|]; [|discriminate]. injection H as <-.
        now apply (tight_same _ T).
      + destruct (finished s t); [|discriminate]. injection H as <-. now apply (tight_same _ T).
    - injection H as <-. now apply (tight_same _ T).
    - injection H as <-. now apply (tight_same _ T).
    - injection H as <-.
      assert (F : writer s (h v) = None).
      { destruct (writer s (h v)) eqn:E; auto. apply (k_excl K) in E. assert (I : In i (readers s (h v))) by (apply (k_read K); now rewrite Ei).
        rewrite E in I. destruct I. }
      constructor; simpl.
      + apply (t_hold T).
      + intros [|e l1] j u y l2 E; simpl in E; [|injection E as _ E; eapply (t_got T); eauto].
        injection E as <- <- <- <-. now apply not_held.
      + intros [|e l1] j u y l2 E; simpl in E; [discriminate|]. injection E as _ E. eapply (t_put T); eauto.
      + intros [|e l1] j u l2 E; simpl in E; [discriminate|]. injection E as _ E. eapply (t_held T); eauto.
    - injection H as <-. now apply (tight_same _ T).
    - injection H as <-. now apply (tight_same _ T).
    - injection H as <-.
      assert (F : writer s (h v) = Some i) by (apply (k_write K) with (x := x); now rewrite Ei).
      constructor; simpl.
      + intros k j. destruct (Nat.eqb_spec (h v) k) as [<-|N]; [discriminate|].
        intros Q. rewrite upd_diff by auto. now apply (t_hold T).
      + intros [|e l1] j u y l2 E; simpl in E; [discriminate|]. injection E as _ E. eapply (t_got T); eauto.
      + intros [|e l1] j u y l2 E; simpl in E; [|injection E as _ E; eapply (t_put T); eauto].
        injection E as <- <- <- <-. destruct (holder (h v) (hist s)) eqn:E; auto. right. apply (t_hold T) in E. congruence.
      + intros [|e l1] j u l2 E; simpl in E; [discriminate|]. injection E as _ E. eapply (t_held T); eauto.
  Qed.

  Lemma tight_run p s : star (step h) (start m0 p) s -> tight s.
  Proof.
    intros H. induction H as [|s s' R IH [i St]]; [apply tight_start|]. eapply tight_act; eauto. eapply ok_run; eauto.
  Qed.

  (** *** Accesses are made in the order of the program *)
  (** What each action is meant to do: read from a location, or write a value to it *)
  Definition wanted (a : action) : list (nat * option N) :=
    match a with Rd v => [(v, None)] | Wr v x | Ul v x => [(v, Some x)] | Lk _ | Wait _ => [] end.
  Definition made (i : nat) (e : event) : list (nat * option N) :=
    match e with
    | Got j v _ => if j =? i then [(v, None)] else []
    | Put j v x => if j =? i then [(v, Some x)] else []
    | Held _ _ => []
    end.
  Definition pending (c : stage) : list (nat * option N) :=
    match c with
    | Ready => []
    | Rd0 v | Rd1 v _ | Rd2 v _ _ => [(v, None)]
    | Wr0 v x | Wr1 v x | Wr2 v x => [(v, Some x)]
    end.
  Definition in_order (p : nat -> list action) (s : state) : Prop :=
    forall i, flat_map wanted (p i) = flat_map (made i) (rev (hist s)) ++ pending (at_ s i) ++ flat_map wanted (prog s i).
  Lemma order_act p s i s' : in_order p s -> act h i s = Some s' -> in_order p s'.
  Proof.
    intros I H j. specialize (I j). unfold act in H. destruct (Nat.eq_dec j i) as [->|N].
    - destruct (at_ s i) as [|v|v a|v a b|v x|v x|v x] eqn:Ei.
      + destruct (prog s i) as [|[v|v x|v|v x|t] p']; [discriminate| | | | |].
        * destruct (writer s (h v)); [discriminate|]. injection H as <-. simpl. rewrite !upd_same. exact I.
        * destruct (nobody s (h v)); [|discriminate]. injection H as <-. simpl. rewrite !upd_same. exact I.
        * destruct (nobody s (h v)); [|discriminate]. injection H as <-. simpl. rewrite !upd_same, flat_map_app. simpl. rewrite app_nil_r. exact I.
        * destruct (writer s (h v)) as [j0|]; [|discriminate]. destruct (j0 =? i); [|discriminate]. injection H as <-. simpl. rewrite !upd_same. exact I.
        * destruct (finished s t); [|discriminate]. injection H as <-. simpl. rewrite !upd_same. exact I.
      + injection H as <-. simpl. rewrite !upd_same. exact I.
      + injection H as <-. simpl. rewrite !upd_same. exact I.
      + injection H as <-. simpl. rewrite !upd_same, flat_map_app. simpl. rewrite Nat.eqb_refl. simpl. rewrite <- app_assoc. exact I.
      + injection H as <-. simpl. rewrite !upd_same. exact I.
      + injection H as <-. simpl. rewrite !upd_same. exact I.
      + injection H as <-. simpl. rewrite !upd_same, flat_map_app. simpl. rewrite Nat.eqb_refl. simpl. rewrite <- app_assoc. exact I.
    - assert (Q : i =? j = false) by (apply Nat.eqb_neq; auto).
      assert (R : prog s' j = prog s j /\ at_ s' j = at_ s j /\ flat_map (made j) (rev (hist s')) = flat_map (made j) (rev (hist s))).
      { destruct (at_ s i) as [|v|v a|v a b|v x|v x|v x].
        1: destruct (prog s i) as [|[v|v x|v|v x|t] p']; [discriminate| | | | |].
        1: destruct (writer s (h v)); [discriminate|].
        2, 3: destruct (nobody s (h v)); [|discriminate].
        4: destruct (writer s (h v)) as [j0|]; [|discriminate]; destruct (j0 =? i); [|discriminate].
        5: destruct (finished s t); [|discriminate].
        all: injection H as <-; simpl; rewrite ?flat_map_app; simpl; rewrite ?Q; simpl; rewrite ?app_nil_r, ?(upd_diff _ _ N); auto. }
      destruct R as (-> & -> & ->). exact I.
  Qed.
  Lemma order_run p s : star (step h) (start m0 p) s -> in_order p s.
  Proof.
    intros H. induction H as [|s s' R IH [i St]]; [intros i; reflexivity|]. eapply order_act; eauto.
  Qed.
End Safety.


(** Whatever is read from a location is the value most recently written to it, or its original contents if there isn't any.
    Locations that share a lock don't interfere. *)
Theorem C85_atomic h m p s : star (step h) (start m p) s ->
  forall l1 i v x l2, hist s = l1 ++ Got i v x :: l2 -> x = latest m v l2.
Proof. intros R. apply (k_hist (ok_run R)). Qed.

(** When a location is locked by [_cru_lock_for_writing], nobody reads it and no other thread writes or locks it before the lock
    is released. *)
Theorem C85_exclusive h m p s : star (step h) (start m p) s ->
  (forall l1 i v x l2, hist s = l1 ++ Got i v x :: l2 -> holder h (h v) l2 = None) /\
  (forall l1 i v x l2, hist s = l1 ++ Put i v x :: l2 -> holder h (h v) l2 = None \/ holder h (h v) l2 = Some i) /\
  (forall l1 i v l2, hist s = l1 ++ Held i v :: l2 -> holder h (h v) l2 = None).
Proof. intros R. pose proof (tight_run R) as T. repeat split; [apply (t_got T)|apply (t_put T)|apply (t_held T)]. Qed.

(** A finished thread has made the accesses it was meant to make, in the order of its program. *)
Theorem C85_in_order h m p s i : star (step h) (start m p) s -> finished s i = true ->
  flat_map (made i) (rev (hist s)) = flat_map wanted (p i).
Proof.
  intros R F. rewrite (order_run R i). unfold finished in F. destruct (prog s i); [|discriminate].
  destruct (at_ s i); try discriminate. simpl. now rewrite app_nil_r.
Qed.

(** ** C86 *)

(** Programs that use the locks as most of the code does: a lock isn't held during anything but the assignments it protects, and
    threads wait only for threads started by them. *)
Inductive tidy (i : nat) : list action -> Prop :=
| tidy_nil : tidy i []
| tidy_rd v p : tidy i p -> tidy i (Rd v :: p)
| tidy_wr v x p : tidy i p -> tidy i (Wr v x :: p)
| tidy_lk v x p : tidy i p -> tidy i (Lk v :: Ul v x :: p)
| tidy_wait t p : i < t -> tidy i p -> tidy i (Wait t :: p).

(** The steps taken so far *)
Inductive steps (h : nat -> nat) : nat -> state -> state -> Prop :=
| steps_none s : steps h 0 s s
| steps_more n a b c : steps h n a b -> step h b c -> steps h (S n) a c.

Lemma steps_star h n a b : steps h n a b -> star (step h) a b.
Proof. intros H. induction H; [constructor|]. eapply star_step; eauto. Qed.

Section Ending.
  Variable h : nat -> nat.
  Variable n : nat.                     (* the number of threads *)

  Definition weight (c : stage) : nat := match c with Ready => 0 | Rd0 _ | Wr0 _ _ => 3 | Rd1 _ _ | Wr1 _ _ => 2 | Rd2 _ _ _ | Wr2 _ _ => 1 end.
  Definition left_ (s : state) (i : nat) : nat := 4 * length (prog s i) + weight (at_ s i).
  Fixpoint total (f : nat -> nat) (k : nat) : nat := match k with 0 => 0 | S k' => f k' + total f k' end.
  Lemma total_le f g k : (forall i, f i <= g i) -> total f k <= total g k.
  Proof. intros H. induction k; simpl; auto. specialize (H k). lia. Qed.
  Lemma total_lt f g k i : i < k -> f i < g i -> (forall j, f j <= g j) -> total f k < total g k.
  Proof.
    intros L F H. induction k; simpl; [lia|]. pose proof (H k). pose proof (total_le f g k H).
    destruct (Nat.eq_dec i k) as [->|]; [lia|]. assert (i < k) by lia. specialize (IHk H2). lia.
  Qed.

  Lemma act_left s i s' : act h i s = Some s' -> left_ s' i < left_ s i /\ forall j, j <> i -> left_ s' j = left_ s j /\ prog s' j = prog s j /\ at_ s' j = at_ s j.
  Proof.
    unfold act, left_. intros H. destruct (at_ s i) as [|v|v a|v a b|v x|v x|v x] eqn:Ei.
    1: destruct (prog s i) as [|[v|v x|v|v x|t] p'] eqn:Ep; [discriminate| | | | |].
    1: destruct (writer s (h v)); [discriminate|].
    2, 3: destruct (nobody s (h v)); [|discriminate].
    4: destruct (writer s (h v)) as [j0|]; [|discriminate]; destruct (j0 =? i); [|discriminate].
    5: destruct (finished s t); [|discriminate].
    all: injection H as <-; simpl; split; [rewrite ?upd_same, ?Ep; simpl; lia|intros j N; rewrite ?(upd_diff _ _ N); auto].
  Qed.

  Definition idle_above (s : state) : Prop := forall i, n <= i -> finished s i = true.
  Lemma idle_act s i s' : idle_above s -> act h i s = Some s' -> i < n /\ idle_above s'.
  Proof.
    intros I H. assert (L : i < n).
    { destruct (le_lt_dec n i) as [G|]; auto. exfalso. apply I in G. unfold finished in G. unfold act in H.
      destruct (prog s i); [|discriminate]. destruct (at_ s i); discriminate. }
    split; auto. intros j G. apply act_left in H as [_ H]. destruct (H j) as (_ & E1 & E2); [lia|].
    unfold finished. rewrite E1, E2. now apply I.
  Qed.
  Lemma idle_start m p : (forall i, n <= i -> p i = []) -> idle_above (start m p).
  Proof. intros H i G. unfold finished. simpl. now rewrite (H i G). Qed.

  Lemma steps_total k m p s : (forall i, n <= i -> p i = []) -> steps h k (start m p) s ->
    idle_above s /\ k + total (left_ s) n <= total (fun i => 4 * length (p i)) n.
  Proof.
    intros H R. remember (start m p) as s0. induction R as [|k a b c R IH [i St]].
    - subst. split; [now apply idle_start|]. simpl. apply total_le. intros i. unfold left_. simpl. lia.
    - specialize (IH Heqs0) as [I L]. destruct (idle_act i I St) as [Li I']. split; auto.
      apply act_left in St as [Lt E]. assert (total (left_ c) n < total (left_ b) n); [|lia].
      apply total_lt with (i := i); auto. intros j. destruct (Nat.eq_dec j i) as [->|N]; [lia|]. destruct (E j N). lia.
  Qed.

  (** Locks are held only by threads about to release them. *)
  Record neat (s : state) : Prop := {
    n_tidy : forall i, tidy i (prog s i) \/ exists v x p, prog s i = Ul v x :: p /\ at_ s i = Ready /\ tidy i p /\ writer s (h v) = Some i;
    n_held : forall k i, writer s k = Some i ->
      (exists v x, writes (at_ s i) = Some (v, x) /\ h v = k) \/ (at_ s i = Ready /\ exists v x p, prog s i = Ul v x :: p /\ h v = k)
  }.
  Lemma neat_start m p : (forall i, tidy i (p i)) -> neat (start m p).
  Proof. intros H. constructor; simpl; [auto|discriminate]. Qed.

  Lemma neat_act m s i s' : ok h m s -> neat s -> act h i s = Some s' -> neat s'.
  Proof.
    intros K T H. pose proof (act_left _ _ H) as [_ Oth].
    (* the lock that changes hands *)
    assert (Ch : writer s' = writer s \/
                 (exists k, writer s k = None /\ writer s' = upd (writer s) k (Some i)) \/
                 (exists k, writer s k = Some i /\ writer s' = upd (writer s) k None)).
    { unfold act in H. destruct (at_ s i) as [|v|v a|v a b|v x|v x|v x] eqn:Ei.
      1: destruct (prog s i) as [|[v|v x|v|v x|t] p'] eqn:Ep; [discriminate| | | | |].
      1: destruct (writer s (h v)); [discriminate|].
      2, 3: destruct (nobody s (h v)) eqn:F; [|discriminate].
      4: destruct (writer s (h v)) as [j0|]; [|discriminate]; destruct (j0 =? i); [|discriminate].
      5: destruct (finished s t); [|discriminate].
      all: injection H as <-; simpl; auto.
      1, 2: right; left; exists (h v); split; auto; unfold nobody in F; destruct (writer s (h v)); [discriminate|auto].
      right; right. exists (h v). split; auto. apply (k_write K) with (x := x). now rewrite Ei. }
    assert (Oth2 : forall j k, j <> i -> (writer s' k = Some j <-> writer s k = Some j)).
    { intros j k N. destruct Ch as [->|[(k' & F & ->)|(k' & F & ->)]]; [tauto| |].
      all: destruct (Nat.eq_dec k k') as [->|Nk]; [rewrite upd_same, F; split; congruence|rewrite (upd_diff _ _ Nk); tauto]. }
    assert (A : (tidy i (prog s' i) \/ exists v x p, prog s' i = Ul v x :: p /\ at_ s' i = Ready /\ tidy i p /\ writer s' (h v) = Some i) /\
                (forall k, writer s' k = Some i ->
                   (exists v x, writes (at_ s' i) = Some (v, x) /\ h v = k) \/ (at_ s' i = Ready /\ exists v x p, prog s' i = Ul v x :: p /\ h v = k))).
    { clear Oth Oth2 Ch. unfold act in H. pose proof (n_tidy T i) as Ti. pose proof (fun k => n_held T k (i := i)) as Hi.
      destruct (at_ s i) as [|v|v a|v a b|v x|v x|v x] eqn:Ei.
      2-7: injection H as <-; simpl; rewrite !upd_same; split;
        [destruct Ti as [Ti|(u & y & p & _ & E & _)]; [left; exact Ti|discriminate]|].
      2-6: intros k W; destruct (Hi k W) as [(u & y & E & F)|[E _]]; [left; exists u, y; auto|discriminate].
      2: { intros k W. destruct (Nat.eq_dec k (h v)) as [->|N]; [rewrite upd_same in W; discriminate|]. rewrite (upd_diff _ _ N) in W.
           destruct (Hi k W) as [(u & y & E & F)|[E _]]; [simpl in E; congruence|discriminate]. }
      assert (NoW : forall a p, prog s i = a :: p -> (forall v x, a <> Ul v x) -> forall k, writer s k <> Some i).
      { intros a p E N k W. destruct (Hi k W) as [(v & x & F & _)|(_ & v & x & q & F & _)]; [discriminate|]. rewrite E in F. injection F as F _. now apply N in F. }
      destruct (prog s i) as [|[v|v x|v|v x|t] p'] eqn:Ep; [discriminate| | | | |].
      - destruct (writer s (h v)); [discriminate|]. injection H as <-. simpl. rewrite !upd_same.
        destruct Ti as [Ti|(u & y & p & E & _)]; [|discriminate]. inversion Ti; subst. split; auto.
        intros k W. exfalso. eapply NoW; eauto. discriminate.
      - destruct (nobody s (h v)) eqn:F; [|discriminate]. injection H as <-. simpl. rewrite !upd_same.
        destruct Ti as [Ti|(u & y & p & E & _)]; [|discriminate]. inversion Ti; subst. split; auto.
        intros k W. left. exists v, x. split; auto. destruct (Nat.eq_dec k (h v)) as [->|N]; auto. rewrite (upd_diff _ _ N) in W.
        exfalso. eapply NoW; eauto. discriminate.
      - destruct (nobody s (h v)) eqn:F; [|discriminate]. injection H as <-. simpl. rewrite !upd_same.
        destruct Ti as [Ti|(u & y & p & E & _)]; [|discriminate]. inversion Ti; subst. split.
        + right. exists v, x, p. rewrite upd_same. auto.
        + intros k W. right. split; auto. exists v, x, p. split; auto. destruct (Nat.eq_dec k (h v)) as [->|N]; auto.
          rewrite (upd_diff _ _ N) in W. exfalso. eapply NoW; eauto. discriminate.
      - destruct (writer s (h v)) as [j0|] eqn:W0; [|discriminate]. destruct (j0 =? i); [|discriminate]. injection H as <-. simpl. rewrite !upd_same.
        destruct Ti as [Ti|(u & y & p & E & _ & Ti & _)]; [inversion Ti|]. injection E as <- <- <-. split; auto.
        intros k W. left. exists v, x. split; auto. destruct (Hi k W) as [(u & y & F & _)|(_ & u & y & q & F & G)]; [discriminate|].
        injection F as <- <- <-. exact G.
      - destruct (finished s t); [|discriminate]. injection H as <-. simpl. rewrite !upd_same.
        destruct Ti as [Ti|(u & y & p & E & _)]; [|discriminate]. inversion Ti; subst. split; auto.
        intros k W. exfalso. eapply NoW; eauto. discriminate. }
    destruct A as [A1 A2]. constructor.
    - intros j. destruct (Nat.eq_dec j i) as [->|N]; auto. destruct (Oth j N) as (_ & -> & ->).
      destruct (n_tidy T j) as [|(v & x & p & E1 & E2 & E3 & E4)]; auto. right. exists v, x, p. repeat split; auto. now apply Oth2.
    - intros k j W. destruct (Nat.eq_dec j i) as [->|N]; auto. destruct (Oth j N) as (_ & -> & ->). apply Oth2 in W; auto.
      now apply (n_held T).
  Qed.
  Lemma neat_run m p s : (forall i, tidy i (p i)) -> star (step h) (start m p) s -> neat s.
  Proof.
    intros H R. induction R as [|s s' R IH [i St]]; [now apply neat_start|]. eapply neat_act; eauto. eapply ok_run; eauto.
  Qed.

  Lemma classic_below (f : nat -> bool) k d : (exists j, k < j /\ f j = false) \/ forall j, k < j <= k + d -> f j = true.
  Proof.
    induction d as [|d IH]; [right; intros; lia|]. destruct IH as [|IH]; auto.
    destruct (f (k + S d)) eqn:E; [|left; exists (k + S d); split; [lia|auto]].
    right. intros j L. destruct (Nat.eq_dec j (k + S d)) as [->|]; auto. apply IH. lia.
  Qed.
  Lemma greatest (f : nat -> bool) : (forall i, n <= i -> f i = true) -> (exists i, f i = false) -> exists i, f i = false /\ forall j, i < j -> f j = true.
  Proof.
    intros H [i E]. assert (G : forall d i, n <= i + d -> f i = false -> exists i, f i = false /\ forall j, i < j -> f j = true).
    { induction d as [|d IH]; intros k L F; [rewrite H in F by lia; discriminate|].
      destruct (classic_below f k (n - k)) as [(j & L1 & L2)|N].
      - apply (IH j); auto. lia.
      - exists k. split; auto. intros j Lj. destruct (le_lt_dec n j); [now apply H|]. apply N. lia. }
    apply (G n i); auto. lia.
  Qed.
End Ending.

(** A thread doesn't depend on sharing a lock with other readers. *)
Definition alone (s : state) (h : nat -> nat) (i : nat) : Prop := forall v p, at_ s i = Ready -> prog s i = Rd v :: p -> nobody s (h v) = true.

(** Programs using the locks tidily always come to an end: there is a bound on the number of steps, whatever the schedule, and
    as long as there is a thread that has something to do, there is one that can do it.  It needn't share a lock with others to do
    so, which implementations that favor writers might not allow. *)
Theorem C86_tidy_programs_end h m p n : (forall i, tidy i (p i)) -> (forall i, n <= i -> p i = []) ->
  (exists bound, forall k s, steps h k (start m p) s -> k <= bound) /\
  (forall s, star (step h) (start m p) s -> (forall i, finished s i = true) \/ exists i s', act h i s = Some s' /\ alone s h i).
Proof.
  intros Ht Hn. split.
  - exists (total (fun i => 4 * length (p i)) n). intros k s R. destruct (steps_total Hn R). lia.
  - intros s R. pose proof (ok_run R) as K. pose proof (neat_run Ht R) as T.
    assert (I : idle_above n s).
    { clear K T. induction R as [|s s' R IH [i St]]; [now apply idle_start|]. exact (proj2 (idle_act h i IH St)). }
    (* a thread in the course of an access can proceed *)
    assert (Busy : (exists i, at_ s i <> Ready) -> exists i s', act h i s = Some s' /\ alone s h i).
    { intros [i N]. destruct (at_ s i) eqn:E; [congruence| | | | | |]; exists i; unfold act, alone; rewrite E; eexists; (split; [reflexivity|discriminate]). }
    assert (Hold : forall k j, writer s k = Some j -> exists i s', act h i s = Some s' /\ alone s h i).
    { intros k j W. destruct (n_held T k W) as [(v & x & E & _)|(E & v & x & q & F & G)].
      - apply Busy. exists j. intros Q. rewrite Q in E. discriminate.
      - subst k. exists j. unfold act, alone. rewrite E, F, W, Nat.eqb_refl. eexists. split; [reflexivity|discriminate]. }
    assert (Read : forall k j, In j (readers s k) -> exists i s', act h i s = Some s' /\ alone s h i).
    { intros k j Q. apply (k_reader K) in Q as (v & E & _). apply Busy. exists j. intros Q'. rewrite Q' in E. discriminate. }
    assert (D : (forall i, finished s i = true) \/ exists i, finished s i = false).
    { destruct (finished s 0) eqn:E0; [|eauto]. destruct (classic_below (finished s) 0 n) as [(j & _ & E)|A]; [eauto|].
      left. intros [|i]; auto. destruct (le_lt_dec n (S i)); [now apply I|]. apply A. lia. }
    destruct D as [D|D]; auto. right. destruct (greatest (finished s) I D) as (i & F & L). clear D.
    destruct (at_ s i) eqn:Ei; try (apply Busy; exists i; rewrite Ei; discriminate).
    unfold finished in F. rewrite Ei in F. destruct (prog s i) as [|a q] eqn:Ep; [discriminate|].
    assert (Free : forall k, nobody s k = true \/ exists i s', act h i s = Some s' /\ alone s h i).
    { intros k. unfold nobody. destruct (writer s k) eqn:W; [right; eauto|]. destruct (readers s k) as [|j l] eqn:Q; auto.
      right. apply (Read k j). rewrite Q. now left. }
    assert (W : forall k, nobody s k = true -> writer s k = None) by (intros k; unfold nobody; destruct (writer s k); [discriminate|auto]).
    destruct (n_tidy T i) as [Ti|(v & x & r & E1 & _ & _ & E2)]; [|eauto].
    rewrite Ep in Ti. inversion Ti; subst.
    + destruct (Free (h v)) as [G|]; auto. exists i. unfold act, alone. rewrite Ei, Ep, (W _ G). eexists. split; [reflexivity|]. intros u r _ Q. injection Q as <- _. exact G.
    + destruct (Free (h v)) as [G|]; auto. exists i. unfold act, alone. rewrite Ei, Ep, G. eexists. split; [reflexivity|discriminate].
    + destruct (Free (h v)) as [G|]; auto. exists i. unfold act, alone. rewrite Ei, Ep, G. eexists. split; [reflexivity|discriminate].
    + exists i. unfold act, alone. rewrite Ei, Ep, L by auto. eexists. split; [reflexivity|discriminate].
Qed.

(** Three threads: the first one waits for the others, which contend for locations with the same lock. *)
Definition sample (a b i : nat) : list action :=
  match i with
  | 0 => [Wait 1; Wait 2; Rd a; Rd b]
  | 1 => [Lk a; Ul a 5%N; Rd b]
  | 2 => [Wr b 7%N; Rd a]
  | _ => []
  end.

(** One way in which it may go *)
Definition turns : list nat := [1; 2; 1; 2; 1; 1; 2; 1; 0; 2; 2; 2; 2; 1; 2; 1; 2; 1; 2; 1; 2; 0; 0; 0; 0; 0; 0; 0; 0; 0; 0].
Example C85_ex : lock_of 10 = lock_of 165 /\
  let s := execute lock_of turns (start (fun _ => 1%N) (sample 10 165)) in
  rev (hist s) = [Held 1 10; Put 1 10 5; Put 2 165 7; Got 1 165 7; Got 2 10 5; Got 0 10 5; Got 0 165 7]%N /\
  forallb (finished s) [0; 1; 2] = true.
Proof. split; [vm_compute; reflexivity|]. split; vm_compute; reflexivity. Qed.

Example C86_ex : (forall i, tidy i (sample 10 165 i)) /\ forall i, 3 <= i -> sample 10 165 i = [].
Proof.
  split; intros [|[|[|i]]]; simpl; try lia; auto; repeat (constructor; auto).
Qed.

(** Programs that wait for others while a lock is held, as a function called in the course of a mutation may (src/mutate.c:397) by
    way of another operation of the library *)
Inductive nesting (i : nat) : list action -> Prop :=
| nesting_tidy p : tidy i p -> nesting i p
| nesting_lk v t x p : i < t -> nesting i p -> nesting i (Lk v :: Wait t :: Ul v x :: p).
Definition about (v : nat) (a : action) : bool := match a with Rd u | Wr u _ | Lk u | Ul u _ => u =? v | Wait _ => false end.

Definition nested (a b i : nat) : list action :=
  match i with
  | 0 => [Lk a; Wait 1; Ul a 1%N]
  | 1 => [Rd b]
  | _ => []
  end.

(** They needn't come to an end, even though no location is accessed by more than one thread. *)
Theorem C86_nested_refuted : exists m p s,
  (forall i, nesting i (p i)) /\ (forall i, 2 <= i -> p i = []) /\
  (forall v i j, existsb (about v) (p i) = true -> existsb (about v) (p j) = true -> i = j) /\
  star (step lock_of) (start m p) s /\ finished s 0 = false /\ finished s 1 = false /\ forall s', ~ step lock_of s s'.
Proof.
  exists (fun _ => 0%N), (nested 10 165), (execute lock_of [0] (start (fun _ => 0%N) (nested 10 165))).
  split; [|split; [|split; [|split; [apply execute_sound|split; [vm_compute; auto|split; [vm_compute; auto|]]]]]].
  - intros [|[|i]]; simpl; [apply nesting_lk; auto| |]; apply nesting_tidy; repeat constructor.
  - intros [|[|i]] L; simpl; auto; lia.
  - intros v [|[|i]] [|[|j]] A B; auto; cbn [existsb nested about orb] in A, B; try discriminate;
      repeat match goal with H : (_ || _)%bool = true |- _ => apply orb_true_iff in H as [H|H] end; try discriminate;
      repeat match goal with H : (_ =? _) = true |- _ => apply Nat.eqb_eq in H end; exfalso; lia.
  - intros s' [i H]. assert (C : forall j, i = S (S j) -> False).
    { intros j ->. revert H. clear. unfold act. simpl. unfold upd. simpl. discriminate. }
    destruct i as [|[|i]]; [vm_compute in H; discriminate|vm_compute in H; discriminate|now apply (C i)].
Qed.

(** They do if the locks are different. *)
Example C86_nested_ex : lock_of 10 <> lock_of 11 /\
  let s := execute lock_of [0; 1; 0; 1; 1; 1; 0; 0; 0; 0; 0] (start (fun _ => 0%N) (nested 10 11)) in
  forallb (finished s) [0; 1] = true /\ rev (hist s) = [Held 0 10; Got 1 11 0; Put 0 10 1]%N.
Proof. vm_compute. repeat split; auto. discriminate. Qed.
