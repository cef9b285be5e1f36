(** Finding the initial vertex of a zone: claims C89 and C90. *)
From Coq Require Import List Arith NArith Lia Bool Permutation.
From Verif Require Import Base Machine Ports PortsProofs PortsTerm PortsExec P_Ports Env Hash Graph Visitor Run Fold Pass Walk Traverse TraverseProofs ReduceProofs P_Traverse Free P_Free Search.
Import ListNotations.

Set Implicit Arguments.

(** A node in the graph with a vertex equal to the given one, according to the user's predicate if necessary, and one for which the
    predicate raises an error *)
Definition has_vertex (g : graph word word) (eqv : word -> word -> bool * option error) (iv : word) (n : nat) : Prop :=
  In n (ids g) /\ (vx g n = iv \/ eqv iv (vx g n) = (true, None)).
Definition fails_at (g : graph word word) (eqv : word -> word -> bool * option error) (iv : word) (n : nat) (e : error) : Prop :=
  In n (ids g) /\ vx g n <> iv /\ snd (eqv iv (vx g n)) = Some e.

Section Proofs.
  Variable X : env.
  Variable g : graph word word.
  Variable eqv : word -> word -> bool * option error.
  Variable iv : word.
  Hypothesis W : wf g.

  Local Notation lane := (lane_of_node X).
  Lemma lane_lt n : 0 < lanes X -> lane n < lanes X.
  Proof. intros H. now apply lane_of_lt. Qed.
  Local Opaque lane_of_node.

  Lemma compare_cases n :
    In n (ids g) ->
    (compare g eqv iv n = (true, None) /\ has_vertex g eqv iv n) \/
    (compare g eqv iv n = (false, None) /\ ~ has_vertex g eqv iv n) \/
    (exists e, compare g eqv iv n = (false, Some e) /\ fails_at g eqv iv n e).
  Proof.
    intros Hn. unfold compare, has_vertex, fails_at. destruct (N.eqb_spec iv (vx g n)) as [E|E].
    - left. auto.
    - destruct (eqv iv (vx g n)) as [[|] [e|]] eqn:Ee; simpl.
      + right; right. exists e. repeat split; auto.
      + left. auto.
      + right; right. exists e. repeat split; auto.
      + right; left. split; auto. intros [_ [H|H]]; [congruence|discriminate].
  Qed.

  Definition quiet (s : sst) : Prop := shalt s = false /\ forall k, serr s k = None.

  Record SInv (s : sst) (b : list nat) : Prop := {
    v_seen : forall k n, In n (sseen s k) -> lane n = k /\ In n (ids g);
    v_bag : forall n, In n b -> In n (ids g);
    v_res : forall k n, sres s k = Some n -> lane n = k /\ has_vertex g eqv iv n;
    v_err : forall k e, serr s k = Some e -> exists n, lane n = k /\ fails_at g eqv iv n e;
    v_kil : forall k, skil s k = true -> shalt s = true;
    v_halt : shalt s = true -> exists n, sres s (lane n) = Some n;
    v_nodup : forall k, NoDup (sseen s k);
    v_root : quiet s -> In (root g) (sseen s (lane (root g))) \/ In (root g) b;
    v_front : quiet s -> forall n l m, In n (sseen s (lane n)) -> In (l, m) (es g n) -> In m (sseen s (lane m)) \/ In m b;
    v_none : quiet s -> forall n, In n (sseen s (lane n)) -> ~ has_vertex g eqv iv n /\ forall e, ~ fails_at g eqv iv n e;
    v_found : forall k n, sres s k = Some n -> shalt s = true
  }.

  Lemma SInv_start : SInv sstart [root g].
  Proof.
    constructor; simpl; try discriminate; try contradiction; auto.
    - intros n [<-|[]]. apply (wf_root W).
    - intros k. constructor.
  Qed.

  Lemma SInv_perm s b b' : Permutation b b' -> SInv s b -> SInv s b'.
  Proof.
    intros Pm []. constructor; auto.
    - intros n Hn. apply v_bag0. eapply Permutation_in; [symmetry; exact Pm|auto].
    - intros Q. destruct (v_root0 Q); [left|right]; auto. eapply Permutation_in; eauto.
    - intros Q n l m H1 H2. destruct (v_front0 Q n l m H1 H2); [left|right]; auto. eapply Permutation_in; eauto.
  Qed.

  Lemma neighbour_in n m : In m (neighbours g n) <-> exists l, In (l, m) (es g n).
  Proof.
    unfold neighbours. rewrite in_map_iff. split.
    - intros ([l x] & E & H). simpl in E. subst. eauto.
    - intros (l & H). exists (l, m). auto.
  Qed.

  Lemma SInv_step s n b s' out : SInv s (n :: b) -> search_task X g eqv iv s n = Some (s', out) -> SInv s' (out ++ b).
  Proof.
    intros I H. assert (Hn : In n (ids g)) by (apply (v_bag I); now left).
    unfold search_task in H. remember (lane n) as k eqn:Ek0.
    destruct (skil s k || (shalt s && notices X (stick s))) eqn:Ek; simpl in H.
    - (* it notices that the search is over *)
      injection H as <- <-. simpl.
      assert (Hh : shalt s = true).
      { apply orb_true_iff in Ek as [E|E]; [eapply v_kil; eauto|]. now apply andb_true_iff in E as [E _]. }
      destruct I. constructor; simpl; auto; try match goal with |- quiet _ -> _ => intros [Q1 Q2]; simpl in Q1; congruence end.
      intros m Hm. apply v_bag0. now right.
    - assert (Hs : forall j, upd (skil s) k false j = true -> shalt s = true).
      { intros j. unfold upd. destruct (j =? k); [discriminate|]. apply (v_kil I). }
      destruct (sres s k) as [r|] eqn:Er; simpl in H.
      { injection H as <- <-. simpl. pose proof (v_found I _ Er) as Hh.
        destruct I. constructor; simpl; auto; try match goal with |- quiet _ -> _ => intros [Q1 Q2]; simpl in Q1; congruence end.
        intros m Hm. apply v_bag0. now right. }
      destruct (existsb (Nat.eqb n) (sseen s k)) eqn:Es.
      { injection H as <- <-. simpl. apply existsb_exists in Es as (n' & Hn' & E'). apply Nat.eqb_eq in E'. subst n'.
        destruct I. constructor; simpl; auto.
        - intros m Hm. apply v_bag0. now right.
        - intros Q. destruct (v_root0 Q) as [A|[A|A]]; auto. subst n. left. now rewrite <- Ek0.
        - intros Q m l o H1 H2. destruct (v_front0 Q m l o H1 H2) as [A|[A|A]]; auto. subst o. left. now rewrite <- Ek0. }
      assert (Hnew : ~ In n (sseen s k)).
      { intros A. assert (existsb (Nat.eqb n) (sseen s k) = true); [|congruence]. apply existsb_exists. exists n. split; auto. apply Nat.eqb_refl. }
      assert (Hup : forall j m, In m (upd (sseen s) k (n :: sseen s k) j) -> lane m = j /\ In m (ids g)).
      { intros j m. unfold upd. destruct (Nat.eqb_spec j k) as [->|]; [intros [<-|A]; auto|]; eapply (v_seen I); eauto. }
      assert (Hnd : forall j, NoDup (upd (sseen s) k (n :: sseen s k) j)).
      { intros j. unfold upd. destruct (j =? k); [constructor; auto|]; apply (v_nodup I). }
      assert (Hin : forall m, In m (sseen s (lane m)) -> In m (upd (sseen s) k (n :: sseen s k) (lane m))).
      { intros m A. unfold upd. destruct (Nat.eqb_spec (lane m) k) as [E|]; auto. right. now rewrite <- E. }
      assert (Hup' : forall m, In m (upd (sseen s) k (n :: sseen s k) (lane m)) -> m = n \/ In m (sseen s (lane m))).
      { intros m. unfold upd. destruct (Nat.eqb_spec (lane m) k) as [E|]; auto. intros [A|A]; auto. rewrite E. auto. }
      assert (Hnn : In n (upd (sseen s) k (n :: sseen s k) (lane n))) by (rewrite <- Ek0, upd_same; now left).
      destruct (serr s k) as [e0|] eqn:Ee; simpl in H.
      { injection H as <- <-. simpl.
        assert (Nq : quiet s -> False) by (intros [_ Q]; specialize (Q k); congruence).
        destruct I. constructor; simpl; auto; try match goal with |- quiet _ -> _ => intros [Q1 Q2]; exfalso; apply Nq; split; [exact Q1|exact Q2] end.
        intros m Hm. apply v_bag0. now right. }
      assert (Hout : forall m, In m (neighbours g n ++ b) -> In m (ids g)).
      { intros m Hm. apply in_app_or in Hm as [Hm|Hm].
        - apply neighbour_in in Hm as (l & Hl). eapply (wf_closed W); eauto.
        - apply (v_bag I). now right. }
      destruct (compare_cases n Hn) as [[E V]|[[E V]|(e & E & V)]]; rewrite E in H; injection H as <- <-.
      + destruct I. constructor; simpl; auto; try match goal with |- quiet _ -> _ => intros [Q1 Q2]; simpl in Q1; congruence end.
        * intros j m. unfold upd. destruct (Nat.eqb_spec j k) as [->|]; auto. intros A. inversion A; subst. auto.
        * intros _. exists n. now rewrite <- Ek0, upd_same.
      + assert (F : forall e, ~ fails_at g eqv iv n e).
        { intros e (_ & A & B). unfold compare in E. destruct (N.eqb_spec iv (vx g n)); [congruence|].
          destruct (eqv iv (vx g n)) as [b0 [e0|]]; simpl in *; congruence. }
        destruct I. constructor; simpl; auto.
        * intros Q. destruct (v_root0 Q) as [A|[A|A]]; [left|left|right]; auto. { subst n. auto. } apply in_or_app; auto.
        * intros Q m l o H1 H2. apply Hup' in H1 as [->|H1].
          -- right. apply in_or_app. left. apply neighbour_in. eauto.
          -- destruct (v_front0 Q m l o H1 H2) as [A|[A|A]]; [left|left|right]; auto. { subst o. auto. } apply in_or_app; auto.
        * intros Q m Hm. apply Hup' in Hm as [->|Hm]; auto.
      + destruct I. constructor; simpl; auto; try match goal with |- quiet _ -> _ => intros [Q1 Q2]; simpl in Q2; specialize (Q2 k); rewrite upd_same in Q2; discriminate end.
        intros j e'. unfold upd. destruct (Nat.eqb_spec j k) as [->|]; auto. intros A. inversion A; subst. eauto.
  Qed.

  Lemma SInv_final s : 0 < lanes X -> searches X g eqv iv s -> SInv s [].
  Proof.
    intros Hl H. apply ran_completes in H; [|intros p; now apply lane_lt].
    eapply mruns_inv with (I := SInv); [| |exact SInv_start|exact H].
    - intros; eapply SInv_perm; eauto.
    - intros; eapply SInv_step; eauto.
  Qed.

  (** If nothing has come up then everything has been seen. *)
  Lemma all_seen s : SInv s [] -> quiet s -> forall n, In n (ids g) -> In n (sseen s (lane n)).
  Proof.
    intros I Q n Hn. pose proof (wf_reach W n Hn) as H. induction H as [|a l b H IH Hb].
    - destruct (v_root I Q) as [A|[]]; auto.
    - assert (Ha : In a (ids g)) by (apply (Graph.path_in (wf_closed W) (wf_root W) H)).
      destruct (v_front I Q a l b (IH Ha) Hb) as [A|[]]; auto.
  Qed.

  Lemma disjunction_spec s : forall ks v e v' e',
    NoDup ks -> (forall m, v = Some m -> exists k, ~ In k ks /\ sres s k = Some m) ->
    disjunction s ks v e = (v', e') ->
    (forall n, v' = Some n -> exists k, sres s k = Some n) /\
    (forall x, e' = Some x -> e = Some x \/ (exists k, serr s k = Some x) \/
                              (x = IER /\ exists k k' n n', k <> k' /\ sres s k = Some n /\ sres s k' = Some n')) /\
    (v' = None -> v = None /\ forall k, In k ks -> sres s k = None) /\
    (e' = None -> e = None /\ forall k, In k ks -> serr s k = None).
  Proof.
    induction ks as [|k ks IH]; intros v e v' e' Nd Hv H.
    - injection H as <- <-. repeat split; auto; try contradiction. intros n Hn. destruct (Hv n Hn) as (k & _ & A). eauto.
    - inversion Nd as [|? ? N1 N2]; subst. simpl in H.
      set (ve := match sres s k, v with Some n, None => (Some n, e) | Some _, Some m => (Some m, first_of e (Some IER)) | None, _ => (v, e) end) in *.
      destruct ve as [v1 e1] eqn:Eve. apply IH in H; auto.
      2:{ intros m ->. destruct (sres s k) as [n|] eqn:Er; [destruct v as [o|]|]; unfold ve in Eve; inversion Eve; subst.
          - destruct (Hv m eq_refl) as (j & A & B). exists j. split; auto. intros C. apply A. now right.
          - exists k. auto.
          - destruct (Hv m eq_refl) as (j & A & B). exists j. split; auto. intros C. apply A. now right. }
      destruct H as (A & B & C & D). split; [exact A|]. split; [|split].
      + intros x Hx. destruct (B x Hx) as [B1|[B1|B1]]; auto. unfold first_of in B1.
        destruct e1 as [e1|]; [|eauto]. injection B1 as <-.
        destruct (sres s k) as [n|] eqn:Er; [destruct v as [o|]|]; unfold ve in Eve; inversion Eve; subst; auto.
        destruct e as [e|]; simpl in *; [left; congruence|]. right. right. split; [congruence|].
        destruct (Hv _ eq_refl) as (j & J1 & J2). exists k, j, n, o. repeat split; auto; intros ->; apply J1; now left.
      + intros Hn. destruct (C Hn) as [C1 C2].
        destruct (sres s k) as [n|] eqn:Er; [destruct v as [o|]|]; unfold ve in Eve; inversion Eve; subst; try discriminate.
        split; auto. intros j [<-|J]; auto.
      + intros Hn. destruct (D Hn) as [D1 D2]. unfold first_of in D1. destruct e1; [discriminate|].
        split; [|intros j [<-|J]; auto].
        destruct (sres s k) as [n|] eqn:Er; [destruct v as [o|]|]; unfold ve in Eve; inversion Eve; subst; auto.
        destruct e; simpl in *; auto; discriminate.
  Qed.

  Lemma search_outcome s : 0 < lanes X -> searches X g eqv iv s ->
    match located X s with
    | At n => has_vertex g eqv iv n
    | Nowhere e =>
        (exists n, fails_at g eqv iv n e) \/
        (e = IER /\ exists n m, n <> m /\ has_vertex g eqv iv n /\ has_vertex g eqv iv m /\ lane n <> lane m) \/
        (e = INCINV /\ forall n, ~ has_vertex g eqv iv n)
    end.
  Proof.
    intros Hl H. pose proof (SInv_final Hl H) as I. unfold located.
    destruct (disjunction s (seq 0 (lanes X)) None None) as [v e] eqn:E.
    apply disjunction_spec in E as (A & B & C & D); [|apply seq_NoDup|discriminate].
    destruct e as [x|].
    - assert (G : (exists n, fails_at g eqv iv n x) \/
        (x = IER /\ exists n m, n <> m /\ has_vertex g eqv iv n /\ has_vertex g eqv iv m /\ lane n <> lane m)).
      { destruct (B x eq_refl) as [B1|[(k & B1)|(-> & k & k' & n & n' & Hk & B1 & B2)]]; [discriminate| |].
        - left. destruct (v_err I _ B1) as (n & _ & F). eauto.
        - right. split; auto. destruct (v_res I _ B1) as [L1 H1]. destruct (v_res I _ B2) as [L2 H2].
          exists n, n'. repeat split; try apply H1; try apply H2; [intros ->|]; congruence. }
      destruct v; destruct G as [G|G]; auto.
    - destruct v as [n|].
      + destruct (A n eq_refl) as (k & Hk). eapply (v_res I); eauto.
      + right. right. split; auto. intros n Hn.
        assert (Q : quiet s).
        { split.
          - destruct (shalt s) eqn:Eh; auto. destruct (v_halt I Eh) as (m & Hm).
            destruct (C eq_refl) as [_ C2]. rewrite C2 in Hm; [discriminate|]. apply in_seq. pose proof (lane_lt m Hl). lia.
          - intros k. destruct (serr s k) as [x|] eqn:Ex; auto. destruct (v_err I _ Ex) as (m & <- & _).
            destruct (D eq_refl) as [_ D2]. rewrite D2 in Ex; [discriminate|]. apply in_seq. pose proof (lane_lt m Hl). lia. }
        destruct (v_none I Q n) as [N _]; auto. apply (all_seen I Q), Hn.
  Qed.

  (** Termination: the number of nodes not yet seen *)
  Definition unseen (s : sst) : list nat := filter (fun n => negb (existsb (Nat.eqb n) (sseen s (lane n)))) (ids g).

  Lemma filter_fewer {A} (f f' : A -> bool) n l :
    In n l -> f n = true -> f' n = false -> (forall x, f' x = true -> f x = true) -> length (filter f' l) < length (filter f l).
  Proof.
    intros Hn Hf Hf' Hi.
    assert (G : forall l, length (filter f' l) <= length (filter f l)).
    { induction l0 as [|x l0 IH]; simpl; auto. destruct (f' x) eqn:E; [rewrite (Hi _ E); simpl; lia|]. destruct (f x); simpl; lia. }
    induction l as [|x l IH]; [contradiction|]. simpl. destruct Hn as [->|Hn].
    - rewrite Hf, Hf'. simpl. specialize (G l). lia.
    - specialize (IH Hn). destruct (f' x) eqn:E; [rewrite (Hi _ E); simpl; lia|]. destruct (f x); simpl; lia.
  Qed.

  Lemma search_terminates : terminates (search_task X g eqv iv) (sstart, [root g]).
  Proof.
    apply lex_inv_terminates with (I := SInv) (m := fun s => length (unseen s)).
    - intros; eapply SInv_perm; eauto.
    - intros s n b s' out I H. split; [eapply SInv_step; eauto|].
      assert (Hn : In n (ids g)) by (apply (v_bag I); now left).
      unfold search_task in H. remember (lane n) as k eqn:Ek0.
      destruct (skil s k || (shalt s && notices X (stick s))) eqn:Ek; simpl in H; [injection H as <- <-; right; auto|].
      destruct (sres s k) as [r|] eqn:Er; simpl in H; [injection H as <- <-; right; auto|].
      destruct (existsb (Nat.eqb n) (sseen s k)) eqn:Es; [injection H as <- <-; right; auto|].
      left. assert (E : sseen s' = upd (sseen s) k (n :: sseen s k)).
      { destruct (serr s k); simpl in H; [injection H as <- <-; auto|].
        destruct (compare g eqv iv n) as [[|] [e|]]; injection H as <- <-; auto. }
      unfold unseen. rewrite E. apply filter_fewer with (n := n); auto.
      + now rewrite <- Ek0, Es.
      + rewrite <- Ek0, upd_same. simpl. now rewrite Nat.eqb_refl.
      + intros m. unfold upd. destruct (Nat.eqb_spec (lane m) k) as [Em|]; auto. rewrite Em. simpl.
        destruct (m =? n); simpl; auto; discriminate.
    - exact SInv_start.
  Qed.
End Proofs.

(** ** C89: the initial vertex is found *)

(** Whatever the schedule: the node found has the vertex wanted.  If none is found, then there isn't any, or else the user's
    predicate has failed, or there are several. *)
Theorem C89_outcome_of_search X g eqv iv s :
  wf g -> 0 < lanes X -> searches X g eqv iv s ->
  match located X s with
  | At n => has_vertex g eqv iv n
  | Nowhere e =>
      (exists n, fails_at g eqv iv n e) \/
      (e = IER /\ exists n m, n <> m /\ has_vertex g eqv iv n /\ has_vertex g eqv iv m) \/
      (e = INCINV /\ forall n, ~ has_vertex g eqv iv n)
  end.
Proof.
  intros W Hl H. pose proof (search_outcome W Hl H) as O. destruct (located X s) as [n|e]; auto.
  destruct O as [O|[(A & n & m & B1 & B2 & B3 & _)|O]]; auto. right. left. split; eauto.
Qed.

(** A vertex that's in the graph just once is found, unless the predicate fails. *)
Theorem C89_vertex_found X g eqv iv s n :
  wf g -> 0 < lanes X -> (forall m e, ~ fails_at g eqv iv m e) ->
  has_vertex g eqv iv n -> (forall m, has_vertex g eqv iv m -> m = n) ->
  searches X g eqv iv s -> located X s = At n.
Proof.
  intros W Hl F Hn U H. pose proof (C89_outcome_of_search W Hl H) as O. destruct (located X s) as [m|e].
  - now rewrite (U m O).
  - destruct O as [(m & O)|[(_ & a & b & A & B & C)|(_ & O)]]; exfalso; [eapply F; eauto| |eapply O; eauto].
    apply A. now rewrite (U a B), (U b C).
Qed.

(** The error CRU_INCINV is reported if the vertex is missing. *)
Theorem C89_vertex_missing X g eqv iv s :
  wf g -> 0 < lanes X -> (forall m e, ~ fails_at g eqv iv m e) -> (forall n, ~ has_vertex g eqv iv n) ->
  searches X g eqv iv s -> located X s = Nowhere INCINV.
Proof.
  intros W Hl F N H. pose proof (C89_outcome_of_search W Hl H) as O. destruct (located X s) as [m|e].
  - exfalso. eapply N; eauto.
  - destruct O as [(m & O)|[(_ & a & b & A & B & C)|(-> & O)]]; auto; exfalso; [eapply F|eapply N]; eauto.
Qed.

Theorem C89_search_terminates X g eqv iv y :
  wf g -> 0 < lanes X ->
  reachable (lanes X) (lane_of_node X) (search_task X g eqv iv) (root g) sstart y ->
  Acc (fun y' x => step (lanes X) (lane_of_node X) (search_task X g eqv iv) (root g) x y') y.
Proof.
  intros W Hl Hy. eapply C11_every_schedule_terminates; eauto.
  - intros p. now apply lane_of_lt.
  - intros s n. unfold search_task.
    repeat match goal with
           | |- (if ?b then _ else _) <> None => destruct b; [discriminate|]
           | |- (if ?b then _ else _) <> None => destruct b
           | |- match ?b with _ => _ end <> None => destruct b
           end; discriminate.
  - now apply search_terminates.
Qed.

(** Vertices are equal modulo 1000, for example. *)
Definition eqv_ex (x y : word) : bool * option error := (N.eqb (N.modulo x 1000%N) (N.modulo y 1000%N), None).
Lemma eqv_ex_fine g iv : forall m e, ~ fails_at g eqv_ex iv m e.
Proof. intros m e (_ & _ & H). discriminate. Qed.
Lemma eqv_ex_unique n : In n (ids G5w) -> forall m, has_vertex G5w eqv_ex (1000 + vx G5w n)%N m -> m = n.
Proof.
  intros Hn m [Hm H]. simpl in Hn, Hm.
  repeat (destruct Hn as [<-|Hn];
          [repeat (destruct Hm as [<-|Hm]; [auto; destruct H as [H|H]; vm_compute in H; discriminate|]); contradiction|]).
  contradiction.
Qed.
Local Notation found_run iv k := (sched_run (lanes X3) (lane_of_node X3) (search_task X3 G5w eqv_ex iv) sstart (root G5w) k).
Example C89_vertex_found_ex :
  wf G5w /\ 0 < lanes X3 /\ (forall m e, ~ fails_at G5w eqv_ex 1040%N m e) /\
  has_vertex G5w eqv_ex 1040%N 40 /\ (forall m, has_vertex G5w eqv_ex 1040%N m -> m = 40) /\
  searches X3 G5w eqv_ex 1040%N (sh (found_run 1040%N 60)) /\ located X3 (sh (found_run 1040%N 60)) = At 40.
Proof.
  split; [exact G5w_wf|]. split; [simpl; lia|]. split; [apply eqv_ex_fine|].
  split; [split; [simpl; auto|right; reflexivity]|]. split; [apply (@eqv_ex_unique 40); simpl; auto|].
  split; [apply sched_ran|]; vm_compute; reflexivity.
Qed.
Example C89_vertex_missing_ex :
  (forall n, ~ has_vertex G5w eqv_ex 1060%N n) /\
  searches X3 G5w eqv_ex 1060%N (sh (found_run 1060%N 60)) /\ located X3 (sh (found_run 1060%N 60)) = Nowhere INCINV.
Proof.
  split.
  - intros n [Hn H]. simpl in Hn.
    repeat (destruct Hn as [<-|Hn]; [destruct H as [H|H]; vm_compute in H; discriminate|]). contradiction.
  - split; [apply sched_ran|]; vm_compute; reflexivity.
Qed.
(** With a predicate that fails on one of the vertices *)
Definition eqv_picky (x y : word) : bool * option error := if N.eqb y 20%N then (true, Some (USERERR 77)) else eqv_ex x y.
Local Notation failed_run := (sched_run (lanes X3) (lane_of_node X3) (search_task X3 G5w eqv_picky 1050%N) sstart (root G5w) 60).
Example C89_outcome_of_search_ex :
  searches X3 G5w eqv_picky 1050%N (sh failed_run) /\ located X3 (sh failed_run) = Nowhere (USERERR 77).
Proof. split; [apply sched_ran|]; vm_compute; reflexivity. Qed.
Example C89_search_terminates_ex :
  reachable (lanes X3) (lane_of_node X3) (search_task X3 G5w eqv_ex 1040%N) (root G5w) sstart (found_run 1040%N 20) /\
  mainpc (found_run 1040%N 20) = MWait /\ exists n, In n (sseen (sh (found_run 1040%N 20)) (lane_of_node X3 n)).
Proof. split; [apply exec_sound, turns_ok|]. split; [vm_compute; reflexivity|]. exists 10. vm_compute. auto. Qed.

(** If a vertex is there several times, which is possible in a graph that hasn't been deduplicated
    (man/man3/cru_deduplicated.3.in), then an internal error may be the result, although the vertex is in the graph. *)
Definition G4d : graph word word :=
  mkGraph [10; 20; 30; 40] (fun n => if n =? 10 then 1%N else if n =? 40 then 2%N else 7%N)
    (fun n => match n with 10 => [(1%N, 20); (2%N, 30)] | 20 => [(3%N, 40)] | _ => [] end) 10.
Lemma G4d_wf : wf G4d.
Proof.
  assert (P20 : path G4d 10 20) by (eapply path_step; [constructor|simpl; eauto]).
  assert (P30 : path G4d 10 30) by (eapply path_step; [constructor|simpl; eauto]).
  assert (P40 : path G4d 10 40) by (eapply path_step; [exact P20|simpl; eauto]).
  split.
  - repeat constructor; simpl; intuition discriminate.
  - simpl. auto.
  - intros n l m Hn Hm. simpl in Hn.
    repeat (destruct Hn as [<-|Hn];
            [simpl in Hm; repeat (destruct Hm as [Hm|Hm]; [inversion Hm; subst; simpl; auto 6|]); contradiction|]).
    contradiction.
  - intros n Hn. simpl in Hn. repeat (destruct Hn as [<-|Hn]; [auto; constructor|]). contradiction.
Qed.
(** Nobody looks at the kill flag, which happens only once in 32 packets *)
Definition X3s : env := mkEnv 3 true (fun _ => false) (fun _ => false).
Local Notation both_run := (sched_run (lanes X3s) (lane_of_node X3s) (search_task X3s G4d eqv_ex 1007%N) sstart (root G4d) 60).
Theorem C89_duplicate_vertices_refuted :
  exists X g eqv iv s n,
    wf g /\ 0 < lanes X /\ (forall m e, ~ fails_at g eqv iv m e) /\ has_vertex g eqv iv n /\
    searches X g eqv iv s /\ located X s = Nowhere IER.
Proof.
  exists X3s, G4d, eqv_ex, 1007%N, (sh both_run), 20.
  split; [exact G4d_wf|]. split; [simpl; lia|]. split; [apply eqv_ex_fine|].
  split; [split; [simpl; auto|right; reflexivity]|]. split; [apply sched_ran|]; vm_compute; reflexivity.
Qed.

(** ** C90: map-reductions of zones *)

Lemma located_halted X g eqv iv s n : wf g -> 0 < lanes X -> searches X g eqv iv s -> located X s = At n -> shalt s = true.
Proof.
  intros W Hl H. pose proof (SInv_final W Hl H) as I. unfold located.
  destruct (disjunction s (seq 0 (lanes X)) None None) as [v e] eqn:E.
  apply disjunction_spec in E as (A & _); [|apply seq_NoDup|discriminate].
  destruct v as [m|], e; try discriminate. intros _. destruct (A m eq_refl) as (k & Hk). eapply v_found; eauto.
Qed.

(** The initial vertex: the base of the graph, or the one given *)
Definition designates (g : graph word word) eqv (offset : bool) iv (i : nat) : Prop :=
  if offset then has_vertex g eqv iv i /\ forall m, has_vertex g eqv iv m -> m = i else i = root g.

Lemma initial_found X g eqv iv offset i o k :
  wf g -> 0 < lanes X -> (forall m e, ~ fails_at g eqv iv m e) -> designates g eqv offset iv i ->
  initial_node X g eqv iv offset o k -> o = At i.
Proof.
  intros W Hl F D H. inversion H as [B|s Ho Hv Hs]; subst.
  - destruct offset; simpl in D; [|now subst].
    destruct B as [B|B]; [discriminate|]. f_equal. apply D. split; [apply (wf_root W)|auto].
  - destruct D as [D1 D2]. eapply C89_vertex_found; eauto.
Qed.

Lemma not_sequential X (g : graph word word) stored i :
  lanes X <> 1 \/ stored = true \/ (forall ns, ids g <> i :: ns) ->
  (lanes X =? 1) && negb stored && (match ids g with n :: _ => n =? i | [] => false end) = false.
Proof.
  intros [H1|[->|H1]].
  - apply Nat.eqb_neq in H1. now rewrite H1.
  - now rewrite andb_false_r.
  - destruct (ids g) as [|n ns]; [now rewrite andb_false_r|].
    destruct (Nat.eqb_spec n i); [subst; exfalso; eapply H1; eauto|now rewrite andb_false_r].
Qed.

(** Unless the result is computed sequentially, it's the combination of the values for all vertices in the zone. *)
Theorem C90_zone_is_reduced X g eqv ein mapped red vac offset back iv stored i z :
  wf g -> 0 < lanes X -> lanes X <> 1 \/ stored = true \/ (forall ns, ids g <> i :: ns) ->
  (forall m e, ~ fails_at g eqv iv m e) -> designates g eqv offset iv i ->
  mapreduces_zone X g eqv ein mapped red vac offset back iv stored (z, None) ->
  exists nodes xs,
    NoDup nodes /\ (forall n, In n nodes <-> along (if back then ein else es g) i n) /\
    Forall2 (fun n x => mapped n = (x, None)) nodes xs /\ combined red xs z.
Proof.
  intros W Hl Hpar F D H. inversion H as [|j k r Hi Hm Er]; subst.
  assert (E : At j = At i) by (eapply initial_found; eauto). injection E as ->.
  rewrite (@not_sequential X g stored i Hpar) in Er. subst r. eapply C16_result_of_concurrent_reduction; eauto.
Qed.

(** Reductions don't fail by themselves. *)
Definition fine (m : maybe) : Prop := status m = None /\ exists x, extant m = Some x.
Lemma fused_fine red a b : (forall x y, snd (red x y) = None) -> fine a -> (forall m, b = Some m -> fine m) -> exists m, fused red (Some a) b = Some m /\ fine m.
Proof.
  intros Hr [A1 (x & A2)] Hb. destruct b as [b|]; simpl.
  - destruct (Hb b eq_refl) as [B1 (y & B2)]. rewrite A2, B2, A1, B1. simpl. specialize (Hr x y). destruct (red x y) as [z e]. simpl in Hr. subst e.
    eexists. split; [reflexivity|]. split; simpl; eauto.
  - exists a. split; auto. split; eauto.
Qed.
Lemma fuses_fine red pool e0 v e : (forall x y, snd (red x y) = None) -> fuses red pool e0 v e ->
  e0 = None -> (forall m, In (Some m) pool -> fine m) -> e = None.
Proof.
  intros Hr H. induction H as [pool e|  |pool pool' r e P H IH|m|pool pool' a y r e P A B H IH|pool pool' a y r e P A H IH]; intros E0 F; auto; try discriminate.
  - apply IH; auto. intros m Hm. apply F. eapply Permutation_in; [symmetry; exact P|now right].
  - apply (F m). now left.
  - destruct (F a) as [_ (x & E)]; [eapply Permutation_in; [symmetry; exact P|now left]|]. unfold is_extant in A. rewrite E in A. discriminate.
  - assert (Fa : fine a) by (apply F; eapply Permutation_in; [symmetry; exact P|now left]).
    assert (Fy : forall m, y = Some m -> fine m) by (intros m ->; apply F; eapply Permutation_in; [symmetry; exact P|right; now left]).
    destruct Fa as [A1 (x & A2)]. assert (Ea : is_extant a = true) by (unfold is_extant; now rewrite A2).
    apply IH.
    + rewrite A1. simpl. destruct y as [b|]; auto. destruct (Fy b eq_refl) as [B1 (z & B2)]. unfold is_extant. now rewrite B2.
    + rewrite Ea. intros m [Hm|Hm]; [|apply F; eapply Permutation_in; [symmetry; exact P|right; right; auto]].
      destruct (@fused_fine red a y) as (m' & E & Fm); auto; [split; eauto|].
      assert (Ey : match y with Some b => if is_extant b then Some b else None | None => None end = y).
      { destruct y as [b|]; auto. destruct (Fy b eq_refl) as [B1 (z & B2)]. unfold is_extant. now rewrite B2. }
      rewrite Ey, E in Hm. congruence.
Qed.
Lemma mapreduces_fine X (g : graph word word) ein mapped red vac back stored i r :
  0 < lanes X -> (forall t, killcalls X t = false) -> (forall n, snd (mapped n) = None) -> (forall x y, snd (red x y) = None) ->
  (lanes X =? 1) && negb stored && (match ids g with n :: _ => n =? i | [] => false end) = false ->
  mapreduces X g ein mapped red vac back stored i r -> snd r = None.
Proof.
  intros Hl K Hm Hr Hc H. unfold mapreduces in H. rewrite Hc in H. destruct H as (s & v & e & R & F & ->).
  apply ran_completes in R; [|now apply vdest_lt].
  set (I := fun (s : @vst (nat -> option maybe) nat) (_ : list (npkt word)) =>
              (forall l, lerr s l = None) /\ killed s = false /\ (forall l, lkil s l = false) /\ (forall l m, data s l = Some m -> fine m)).
  assert (G : I s []).
  { refine (mruns_inv I _ _ _ R).
    - auto.
    - intros s0 p b s' out (A & B & C & D) T.
      assert (Eh : halted X payload node_hash s0 p = false) by (unfold halted, is_killed; now rewrite A, B, C, K).
      assert (Ek : is_killed X s0 = false) by (unfold is_killed; now rewrite B, K).
      unfold mapreducing, walk, gwalk, vtask in T. rewrite Eh, Ek in T. simpl in T.
      destruct (have_seen X payload Nat.eqb node_hash s0 p).
      + simpl in T. injection T as <- <-. repeat split; simpl; auto.
        * intros l. unfold upd. destruct (l =? _); auto.
        * destruct (D l m H); auto.
        * destruct (D l m H); auto.
      + unfold walk_first, reduce_act in T. pose proof (Hm (payload p)) as M. destruct (mapped (payload p)) as [x e0]. simpl in M. subst e0.
        destruct (data s0 (lane_of_node X (payload p))) as [m|] eqn:Em.
        * destruct (D _ _ Em) as [D1 (y & D2)]. rewrite D2 in T. pose proof (Hr x y) as M. destruct (red x y) as [z e0]. simpl in M. subst e0.
          injection T as <- <-. split; [|split; [|split]]; simpl; auto.
          -- intros l. unfold upd. destruct (l =? _); auto.
          -- intros l m'. unfold upd. destruct (l =? _); [intros E; injection E as <-; split; simpl; eauto|apply D].
        * injection T as <- <-. split; [|split; [|split]]; simpl; auto.
          -- intros l. unfold upd. destruct (l =? _); auto.
          -- intros l m'. unfold upd. destruct (l =? _); [intros E; injection E as <-; split; simpl; eauto|apply D].
    - repeat split; simpl; auto; discriminate. }
  destruct G as (A & B & C & D). unfold is_killed. rewrite B, K. simpl.
  assert (e = None) as ->; [|destruct v; reflexivity].
  eapply fuses_fine; eauto. intros m Hm'. apply in_map_iff in Hm' as (l & E & _). unfold worker_result in E. rewrite A, C in E. eauto.
Qed.

(** If nobody kills the operation and no user function fails, then it succeeds, unless the result is computed sequentially. *)
Theorem C90_reduction_succeeds X g eqv ein mapped red vac offset back iv stored i r :
  wf g -> 0 < lanes X -> lanes X <> 1 \/ stored = true \/ (forall ns, ids g <> i :: ns) ->
  (forall m e, ~ fails_at g eqv iv m e) -> designates g eqv offset iv i ->
  (forall t, killcalls X t = false) -> (forall n, snd (mapped n) = None) -> (forall x y, snd (red x y) = None) ->
  mapreduces_zone X g eqv ein mapped red vac offset back iv stored r -> snd r = None.
Proof.
  intros W Hl Hpar F D K Hm Hr H. inversion H as [e k Hi|j k r' Hi Hm' Er]; subst.
  - assert (E : Nowhere e = At i) by (eapply initial_found; eauto). discriminate.
  - assert (E : At j = At i) by (eapply initial_found; eauto). injection E as ->.
    pose proof (@not_sequential X g stored i Hpar) as Ec. rewrite Ec. eapply mapreduces_fine; eauto.
Qed.

(** A vertex that's not in the graph is reported, by whatever number of workers. *)
Theorem C90_vertex_missing X g eqv ein mapped red vac back iv stored r :
  wf g -> 0 < lanes X -> (forall m e, ~ fails_at g eqv iv m e) -> (forall n, ~ has_vertex g eqv iv n) ->
  mapreduces_zone X g eqv ein mapped red vac true back iv stored r -> r = (null, Some INCINV).
Proof.
  intros W Hl F N H.
  assert (G : forall o k, initial_node X g eqv iv true o k -> o = Nowhere INCINV).
  { intros o k Ho. inversion Ho as [B|s Hv Hs]; subst.
    - destruct B as [B|B]; [discriminate|]. exfalso. apply (N (root g)). split; [apply (wf_root W)|auto].
    - eapply C89_vertex_missing; eauto. }
  inversion H as [e k Hi|j k r' Hi Hm Er]; subst.
  - apply G in Hi. now inversion Hi.
  - apply G in Hi. discriminate.
Qed.

(** With one worker, if the vertex given is equal to that of the first node but isn't the same pointer, then the operation is always
    said to have been killed.  According to man/man3/cru_mapreduced.3.in, CRU_INTKIL means that it "was stopped by user intervention". *)
Local Notation alone_run k := (sched_run (lanes X1) (lane_of_node X1) (search_task X1 G5w eqv_ex 1010%N) sstart (root G5w) k).
Theorem C90_spurious_kill_refuted :
  exists X g eqv ein mapped red vac iv,
    wf g /\ lanes X = 1 /\ (forall t, killcalls X t = false) /\ (forall m e, ~ fails_at g eqv iv m e) /\
    designates g eqv true iv (root g) /\
    (forall n, snd (mapped n) = None) /\ (forall x y, snd (red x y) = None) /\
    (exists r, mapreduces_zone X g eqv ein mapped red vac true false iv false r) /\
    forall r, mapreduces_zone X g eqv ein mapped red vac true false iv false r -> r = (null, Some INTKIL).
Proof.
  exists X1, G5w, eqv_ex, (fun _ => []), val, addN, None, 1010%N.
  assert (D : designates G5w eqv_ex true 1010%N 10).
  { split; [split; [simpl; auto|right; reflexivity]|apply (@eqv_ex_unique 10); simpl; auto]. }
  assert (Hl : 0 < lanes X1) by (simpl; lia).
  split; [exact G5w_wf|]. split; [auto|]. split; [auto|]. split; [apply eqv_ex_fine|]. split; [exact D|]. split; [auto|]. split; [auto|].
  split.
  - eexists. eapply some_zone with (i := 10) (r := (150%N, None)); [|vm_compute; reflexivity].
    change (At 10) with (located X1 (sh (alone_run 60))). apply by_search; [auto|discriminate|]. apply sched_ran. vm_compute. reflexivity.
  - intros r H. inversion H as [e k Hi|j k r' Hi Hm Er]; subst.
    + assert (E : Nowhere e = At 10) by (eapply initial_found; [exact G5w_wf|exact Hl|apply eqv_ex_fine|exact D|exact Hi]). discriminate.
    + assert (E : At j = At 10) by (eapply initial_found; [exact G5w_wf|exact Hl|apply eqv_ex_fine|exact D|exact Hi]). injection E as ->.
      unfold mapreduces in Hm. simpl in Hm. rewrite Hm. clear H Hm.
      inversion Hi as [B|s Ho Hv Hs E Ek]; subst; [destruct B as [B|B]; discriminate|].
      rewrite (located_halted G5w_wf Hl Hs E). reflexivity.
Qed.

(** With three workers, the same vertex is no problem; and so is any other. *)
Definition results20 : list (option maybe) := Eval vm_compute in
  map (worker_result (sh (sched_run (lanes X3) (walk_dest (E := word) X3) (mapreducing X3 G5w (fun _ => []) val addN false)
                                (vstart (fun _ => None)) (initial 20) 150))) (seq 0 3).
Lemma results20_fuse : fuses addN results20 None (Some 110%N) None.
Proof.
  unfold results20.
  repeat first
    [ eapply fuse_last
    | eapply fuse_null; [reflexivity|]
    | eapply fuse_null; [apply perm_swap|]
    | eapply fuse_null; [symmetry; apply (Permutation_cons_append [_; _])|]
    | eapply fuse_pair; [reflexivity|discriminate|cbn] ].
Qed.
Example C90_zone_is_reduced_ex :
  wf G5w /\ 0 < lanes X3 /\ lanes X3 <> 1 /\ (forall m e, ~ fails_at G5w eqv_ex 1020%N m e) /\
  designates G5w eqv_ex true 1020%N 20 /\
  mapreduces_zone X3 G5w eqv_ex (fun _ => []) val addN None true false 1020%N false (110%N, None).
Proof.
  split; [exact G5w_wf|]. split; [simpl; lia|]. split; [simpl; lia|]. split; [apply eqv_ex_fine|].
  split; [split; [split; [simpl; auto|right; reflexivity]|apply (@eqv_ex_unique 20); simpl; auto]|].
  assert (M : mapreduces X3 G5w (fun _ => []) val addN None false false 20 (110%N, None)).
  { apply mapreduces_ran with (k := 150) (pool := results20) (v := Some 110%N) (e := None);
      [reflexivity|vm_compute; reflexivity|vm_compute; reflexivity|exact results20_fuse|vm_compute; reflexivity]. }
  refine (@some_zone X3 G5w eqv_ex (fun _ => []) val addN None true false 1020%N false 20 true _ _ M).
  assert (R : searches X3 G5w eqv_ex 1020%N (sh (found_run 1020%N 60))) by (apply sched_ran; vm_compute; reflexivity).
  assert (N : vx G5w (root G5w) <> 1020%N) by discriminate.
  exact (by_search eq_refl N R).
Qed.
Example C90_reduction_succeeds_ex :
  (forall t, killcalls X3 t = false) /\ (forall n, snd (val n) = None) /\ (forall x y, snd (addN x y) = None).
Proof. auto. Qed.
Example C90_vertex_missing_ex :
  (forall n, ~ has_vertex G5w eqv_ex 1060%N n) /\
  mapreduces_zone X1 G5w eqv_ex (fun _ => []) val addN None true false 1060%N false (null, Some INCINV).
Proof.
  split; [exact (proj1 C89_vertex_missing_ex)|]. apply no_zone with (k := false).
  assert (R : searches X1 G5w eqv_ex 1060%N (sh (sched_run (lanes X1) (lane_of_node X1) (search_task X1 G5w eqv_ex 1060%N) sstart (root G5w) 60)))
    by (apply sched_ran; vm_compute; reflexivity).
  assert (N : vx G5w (root G5w) <> 1060%N) by discriminate.
  exact (by_search eq_refl N R).
Qed.
