(** Traversals that make a new graph, one node for every key found: the common part of
    src/fab.c and src/cross.c (cf. src/build.c, which is modelled in Build.v). *)
From Coq Require Import List Arith NArith Lia Bool Permutation.
From Verif Require Import Base Machine PortsTerm Env Hash Visitor VisitorProofs Walk.
Import ListNotations.

Set Implicit Arguments.

Section Construct.
  Context {K W L C : Type}.
  Variable X : env.
  Variable keq : K -> K -> bool.
  Variable hash : K -> N.
  (** The calls of user functions for a key, in order, and either the vertex and the outgoing
      edges, given by their labels and the keys of their termini, or an error. *)
  Variable make : K -> list C * (W * list (L * K) + error).
  (** The number of nodes a worker is allowed to make, zero for any number. *)
  Variable limit : nat.

  (** A packet has a key as payload and the edge which is to lead to the node made for the key,
      identified by its origin and its position among the origin's edges.  The node made for a
      key is identified with the key. *)
  Record cpkt : Type := mkCP { ckey : K; ccar : option (K * nat) }.

  Record cst : Type := mkC {
    made : list K;                    (* nodes enqueued so far *)
    vert : K -> option W;             (* n->vertex *)
    labels : K -> list L;             (* labels of n->edges_out *)
    term : K -> nat -> option K;      (* remote.node of the edges, None if not yet known *)
    calls : list C;                   (* user functions called *)
    count : nat -> nat                (* per worker *)
  }.
  Definition cstart : cst := mkC [] (fun _ => None) (fun _ => []) (fun _ _ => None) [] (fun _ => 0).

  Definition updk {A} (f : K -> A) (k : K) (a : A) : K -> A := fun k' => if keq k' k then a else f k'.

  (** carrier->remote.node = n *)
  Definition resolve (t : K -> nat -> option K) (c : option (K * nat)) (n : K) : K -> nat -> option K :=
    match c with
    | Some (o, i) => updk t o (fun j => if j =? i then Some n else t o j)
    | None => t
    end.

  Definition pkts (k : K) (outs : list (L * K)) : list cpkt :=
    map (fun ie => mkCP (snd (snd ie)) (Some (k, fst ie))) (combine (seq 0 (length outs)) outs).

  Definition cdest : cpkt -> nat := vdest X ckey hash.

  (** [new_node] (src/fab.c:47-95), [reached_new_node] (src/cross.c:259-307) with the test of the
      limit (378).  What becomes of the packet's carrier in case of an error is not modelled,
      because then all nodes are freed. *)
  Definition make_first (d : cst) (p : cpkt) : cst * list cpkt * option error :=
    let l := cdest p in
    let ct := upd (count d) l (S (count d l)) in
    if negb (limit =? 0) && (limit <=? count d l) then
      (mkC (made d) (vert d) (labels d) (term d) (calls d) ct, [], Some INTOVF)
    else
      match make (ckey p) with
      | (cs, inr e) => (mkC (made d) (vert d) (labels d) (term d) (calls d ++ cs) ct, [], Some e)
      | (cs, inl (w, outs)) =>
          (mkC (made d ++ [ckey p]) (updk (vert d) (ckey p) (Some w)) (updk (labels d) (ckey p) (map fst outs))
               (resolve (term d) (ccar p) (ckey p)) (calls d ++ cs) ct,
           pkts (ckey p) outs, None)
      end.

  (** src/fab.c:159-161, [reach_extant_node] (src/cross.c:232-250) *)
  Definition make_again (d : cst) (p : cpkt) : cst * list cpkt * option error :=
    (mkC (made d) (vert d) (labels d) (resolve (term d) (ccar p) (ckey p)) (calls d) (count d), [], None).

  Definition making : @vst cst K -> cpkt -> option (@vst cst K * list cpkt) :=
    vtask X ckey keq hash make_first make_again (fun _ _ => true).

  (** The base node is the first one in the queue of the worker to which the initial packet was
      assigned (src/launch.c:357, src/crew.c:365-399). *)
  Definition base (d : cst) (k0 : K) : option K :=
    hd_error (filter (fun k => lane_of (lanes X) (hash k) =? lane_of (lanes X) (hash k0)) (made d)).

  Definition edges_of (d : cst) (k : K) : list (L * option K) :=
    combine (labels d k) (map (term d k) (seq 0 (length (labels d k)))).

  (** ** Specification *)
  Inductive kreach (k0 : K) : K -> Prop :=
  | kr_refl : kreach k0 k0
  | kr_step k cs w outs l k' :
      kreach k0 k -> make k = (cs, inl (w, outs)) -> In (l, k') outs -> kreach k0 k'.

  Hypothesis Hkeq : forall k k', keq k k' = true <-> k = k'.

  Let emit (p : cpkt) : list cpkt :=
    match make (ckey p) with (_, inl (_, outs)) => pkts (ckey p) outs | _ => [] end.

  Lemma updk_same {A} (f : K -> A) k a : updk f k a k = a.
  Proof. unfold updk. now rewrite (proj2 (Hkeq k k) eq_refl). Qed.
  Lemma updk_diff {A} (f : K -> A) k a k' : k' <> k -> updk f k a k' = f k'.
  Proof. intros H. unfold updk. destruct (keq k' k) eqn:E; auto. apply Hkeq in E. contradiction. Qed.

  Lemma pkts_in k outs q :
    In q (pkts k outs) <-> exists i l k', nth_error outs i = Some (l, k') /\ q = mkCP k' (Some (k, i)).
  Proof.
    unfold pkts. rewrite in_map_iff. split.
    - intros ([i [l k']] & <- & H). simpl. exists i, l, k'. split; auto.
      apply In_nth_error in H as (j & H).
      assert (Hj : j < length outs).
      { assert (j < length (combine (seq 0 (length outs)) outs)) by (apply nth_error_Some; congruence).
        rewrite combine_length, seq_length in H0. lia. }
      assert (E1 : nth_error (combine (seq 0 (length outs)) outs) j = Some (j, nth j outs (l, k'))).
      { rewrite nth_error_nth' with (d := (0, (l, k'))) by (rewrite combine_length, seq_length; lia).
        rewrite combine_nth by now rewrite seq_length. now rewrite seq_nth. }
      rewrite E1 in H. inversion H; subst. rewrite H2. apply nth_error_nth' with (d := (l, k')) in Hj. congruence.
    - intros (i & l & k' & H & ->). exists (i, (l, k')). split; auto.
      assert (Hi : i < length outs) by (apply nth_error_Some; congruence).
      apply nth_error_In with (n := i).
      rewrite nth_error_nth' with (d := (0, (l, k'))) by (rewrite combine_length, seq_length; lia).
      rewrite combine_nth by now rewrite seq_length. rewrite seq_nth by auto.
      f_equal. f_equal. now apply nth_error_nth.
  Qed.

  Definition ok_node (d : cst) (k : K) : Prop :=
    exists cs w outs, make k = (cs, inl (w, outs)) /\ vert d k = Some w /\ labels d k = map fst outs.

  Record J (k0 : K) (d : cst) (vis : list cpkt) : Prop := {
    j_made : made d = map ckey vis;
    j_ok : forall k, In k (made d) -> ok_node d k;
    j_calls : calls d = flat_map (fun k => fst (make k)) (made d);
    j_head : match vis with [] => True | v :: _ => ckey v = k0 end;
    j_count : forall l, count d l = length (filter (fun k => lane_of (lanes X) (hash k) =? l) (made d));
    j_limit : limit <> 0 -> forall l, count d l <= limit
  }.

  Lemma J_first k0 d vis p d' out :
    J k0 d vis -> (vis = [] -> ckey p = k0) -> was_seen ckey keq vis p = false ->
    make_first d p = (d', out, None) -> Permutation out (emit p) /\ J k0 d' (vis ++ [p]).
  Proof.
    intros [A B D E F G] Hp Hs Hf. unfold make_first in Hf.
    destruct (negb (limit =? 0) && (limit <=? count d (cdest p))) eqn:El; [discriminate|].
    unfold emit. destruct (make (ckey p)) as [cs [[w outs]|e]] eqn:Em; [|discriminate].
    inversion Hf; subst; clear Hf. split; [reflexivity|].
    assert (Hn : ~ In (ckey p) (made d)).
    { rewrite A. intros Hi. apply in_map_iff in Hi as (q & Eq & Hq).
      assert (was_seen ckey keq vis p = true); [|congruence].
      apply existsb_exists. exists q. split; auto. apply Hkeq. auto. }
    split; simpl.
    - rewrite map_app, A. reflexivity.
    - intros k Hk. unfold ok_node. simpl. apply in_app_or in Hk as [Hk|[<-|[]]].
      + destruct (B k Hk) as (cs' & w' & outs' & H1 & H2 & H3). exists cs', w', outs'.
        rewrite !updk_diff by (intros ->; contradiction). auto.
      + exists cs, w, outs. rewrite !updk_same. auto.
    - rewrite flat_map_app, D. simpl. now rewrite Em, app_nil_r.
    - destruct vis; simpl; auto.
    - intros l. rewrite filter_app, app_length, <- F. simpl. unfold cdest, vdest. unfold upd.
      destruct (Nat.eqb_spec l (lane_of (lanes X) (hash (ckey p)))) as [->|Hl].
      + rewrite Nat.eqb_refl. simpl. lia.
      + destruct (Nat.eqb_spec (lane_of (lanes X) (hash (ckey p))) l); [congruence|simpl; lia].
    - intros Hl l. specialize (G Hl). unfold upd. destruct (Nat.eqb_spec l (cdest p)) as [->|]; auto.
      apply andb_false_iff in El as [El|El].
      + apply negb_false_iff, Nat.eqb_eq in El. contradiction.
      + apply Nat.leb_gt in El. lia.
  Qed.

  Lemma J_again k0 d vis p d' out :
    J k0 d vis -> make_again d p = (d', out, None) -> out = [] /\ J k0 d' vis.
  Proof.
    intros [A B D E F G] H. inversion H; subst. split; auto. split; simpl; auto.
  Qed.

  (** Every packet processed has settled its carrier. *)
  Lemma term_pruns d0 tr c :
    pruns ckey keq make_first make_again (fun _ _ => true) (d0, []) tr c ->
    forall p o i, In p tr -> ccar p = Some (o, i) ->
    exists q, In q tr /\ ccar q = Some (o, i) /\ term (fst c) o i = Some (ckey q).
  Proof.
    intros H. induction H as [|tr [d vis] p [d' vis'] out H IH Ht]; [intros p o i []|].
    assert (Et : term d' = resolve (term d) (ccar p) (ckey p)).
    { unfold ptask in Ht. simpl in Ht. destruct (was_seen ckey keq vis p).
      - inversion Ht; subst. reflexivity.
      - unfold make_first in Ht.
        destruct (negb (limit =? 0) && (limit <=? count d (cdest p))); [discriminate|].
        destruct (make (ckey p)) as [cs [[w outs]|e]]; [|discriminate]. inversion Ht; subst. reflexivity. }
    intros q o i Hq Hc. simpl in *. rewrite Et.
    destruct (ccar p) as [[o' i']|] eqn:Ep.
    - simpl. unfold updk. destruct (keq o o') eqn:Eo.
      + apply Hkeq in Eo. subst o'. destruct (Nat.eqb_spec i i') as [->|Hi].
        * exists p. split; auto. apply in_or_app. simpl. auto.
        * apply in_app_or in Hq as [Hq|[<-|[]]]; [|congruence].
          destruct (IH q o i Hq Hc) as (q' & A & B & D). exists q'. split; auto. apply in_or_app; auto.
      + apply in_app_or in Hq as [Hq|[<-|[]]]; [|rewrite Ep in Hc; inversion Hc; subst;
                                                 rewrite (proj2 (Hkeq o o) eq_refl) in Eo; discriminate].
        destruct (IH q o i Hq Hc) as (q' & A & B & D). exists q'. split; auto. apply in_or_app; auto.
    - simpl. apply in_app_or in Hq as [Hq|[<-|[]]]; [|congruence].
      destruct (IH q o i Hq Hc) as (q' & A & B & D). exists q'. split; auto. apply in_or_app; auto.
  Qed.

  Theorem making_facts k0 s order :
    0 < lanes X -> Permutation order (seq 0 (lanes X)) ->
    completes making (vstart cstart) (mkCP k0 None) s -> vstatus X order s = None ->
    let d := data s in
    NoDup (made d) /\ (forall k, In k (made d) <-> kreach k0 k) /\ base d k0 = Some k0 /\
    calls d = flat_map (fun k => fst (make k)) (made d) /\
    (limit <> 0 -> length (made d) <= lanes X * limit) /\
    forall k, In k (made d) -> exists cs w outs,
      make k = (cs, inl (w, outs)) /\ vert d k = Some w /\
      edges_of d k = map (fun e => (fst e, Some (snd e))) outs.
  Proof.
    intros Hl Ho Hc Hst.
    apply visit_success with (order := order) in Hc as (vis & Hs); auto.
    2:{ intros k k' H. apply Hkeq in H. now subst. }
    2:{ intros. now apply lane_of_lt. }
    pose (J' := fun d (vis : list cpkt) => J k0 d vis /\ (vis = [] -> d = cstart)).
    assert (Hmruns : J k0 (data s) vis).
    { revert Hs. unfold serial, completes. intros Hs.
      assert (G : J k0 (fst (data s, vis)) (snd (data s, vis)) /\
                 (snd (data s, vis) = [] -> forall p, In p [] -> ckey p = k0)).
      { refine (mruns_inv (fun c b => J k0 (fst c) (snd c) /\ (snd c = [] -> forall p, In p b -> ckey p = k0)) _ _ _ Hs).
        - intros c b b' P [H1 H2]. split; auto. intros E1 p Hp. apply H2; auto.
          eapply Permutation_in; [symmetry; exact P|auto].
        - intros [d v] p b [d' v'] out [H1 H2] Ht. simpl in *. unfold ptask in Ht. simpl in Ht.
          destruct (was_seen ckey keq v p) eqn:Es.
          + inversion Ht; subst. simpl. split; [eapply J_again; eauto; reflexivity|].
            intros ->. discriminate.
          + destruct (make_first d p) as [[d1 o] [e|]] eqn:Ef; [discriminate|]. inversion Ht; subst.
            split; [eapply J_first; eauto|]. intros E1. destruct v; discriminate.
        - simpl. split; [|intros _ p [<-|[]]; reflexivity]. split; simpl; auto; try (intros ? []); intros; lia. }
      apply G. }
    destruct (@serial_facts _ cpkt K ckey keq make_first make_again (fun _ _ => true)
                emit (mkCP k0 None) (fun _ _ => True)) with (d0 := cstart) (d := data s) (vis := vis)
      as (_ & (tr & T1 & T2) & B & D & E & F); auto.
    { intros d v p d' out _ _ _ _ _ Hf. split; auto. unfold make_first in Hf.
      destruct (negb (limit =? 0) && (limit <=? count d (cdest p))); [discriminate|].
      unfold emit. destruct (make (ckey p)) as [cs [[w outs]|e]]; [|discriminate]. now inversion Hf. }
    { intros d v p d' out _ _ _ _ _ Hf. inversion Hf; subst. auto. }
    { intros k. now apply Hkeq. }
    destruct Hmruns as [M1 M2 M3 M4 M5 M6].
    assert (Hnd : NoDup (made (data s))).
    { rewrite M1. eapply FOP_NoDup; [|exact B]. intros x y H E1. simpl in H. rewrite E1 in H.
      rewrite (proj2 (Hkeq (ckey y) (ckey y)) eq_refl) in H. discriminate. }
    cbv zeta. split; [auto|]. split; [|split; [|split; [auto|split]]].
    - intros k. split.
      + rewrite M1. intros H. apply in_map_iff in H as (p & <- & Hp). apply D in Hp. clear - Hp Hkeq.
        induction Hp as [|p q Hp IH Hq]; [constructor|].
        unfold emit in Hq. destruct (make (ckey p)) as [cs [[w outs]|e]] eqn:Em; [|contradiction].
        apply pkts_in in Hq as (i & l & k' & Hn & ->). simpl. eapply kr_step; eauto. eapply nth_error_In; eauto.
      + intros H. rewrite M1. induction H as [|k cs w outs l k' H IH Hm Hin].
        * destruct E as (v & Hv & E1). apply Hkeq in E1. simpl in E1. rewrite E1. now apply in_map.
        * apply in_map_iff in IH as (p & <- & Hp). apply In_nth_error in Hin as (i & Hi).
          destruct (F p (mkCP k' (Some (ckey p, i))) Hp) as (v & Hv & E1).
          { unfold emit. rewrite Hm. apply pkts_in. eauto 6. }
          apply Hkeq in E1. simpl in E1. rewrite E1. now apply in_map.
    - unfold base. rewrite M1. destruct vis as [|v vis'].
      + destruct E as (v & [] & _).
      + simpl. rewrite M4, Nat.eqb_refl. reflexivity.
    - intros Hlim. specialize (M6 Hlim).
      assert (G : forall m, length (filter (fun k => lane_of (lanes X) (hash k) <? m) (made (data s))) <= m * limit).
      { induction m as [|m IH].
        - simpl. clear. induction (made (data s)); simpl; auto.
        - assert (length (filter (fun k => lane_of (lanes X) (hash k) <? S m) (made (data s))) =
                  length (filter (fun k => lane_of (lanes X) (hash k) <? m) (made (data s))) +
                  length (filter (fun k => lane_of (lanes X) (hash k) =? m) (made (data s)))).
          { clear. induction (made (data s)) as [|k l IH]; simpl; auto.
            destruct (Nat.ltb_spec (lane_of (lanes X) (hash k)) (S m)),
              (Nat.ltb_spec (lane_of (lanes X) (hash k)) m),
              (Nat.eqb_spec (lane_of (lanes X) (hash k)) m); simpl; lia. }
          rewrite H, <- M5. specialize (M6 m). lia. }
      specialize (G (lanes X)).
      replace (filter (fun k => lane_of (lanes X) (hash k) <? lanes X) (made (data s))) with (made (data s)) in G; auto.
      clear - Hl. induction (made (data s)) as [|k l IH]; simpl; auto.
      destruct (Nat.ltb_spec (lane_of (lanes X) (hash k)) (lanes X)); [now f_equal|].
      pose proof (lane_of_lt (hash k) Hl). lia.
    - intros k Hk. destruct (M2 k Hk) as (cs & w & outs & H1 & H2 & H3). exists cs, w, outs. split; auto. split; auto.
      unfold edges_of. rewrite H3, map_length.
      assert (G : forall i l k', nth_error outs i = Some (l, k') -> term (data s) k i = Some k').
      { intros i l k' Hn. rewrite M1 in Hk. apply in_map_iff in Hk as (v & <- & Hv).
        assert (Ht : In (mkCP k' (Some (ckey v, i))) tr).
        { eapply Permutation_in; [symmetry; exact T2|]. right. apply in_flat_map. exists v. split; auto.
          unfold emit. rewrite H1. apply pkts_in. eauto 6. }
        destruct (term_pruns T1 _ Ht eq_refl) as (q & Q1 & Q2 & Q3). simpl in Q3. rewrite Q3. f_equal.
        eapply Permutation_in in Q1; [|exact T2]. destruct Q1 as [<-|Q1]; [discriminate|].
        apply in_flat_map in Q1 as (v' & Hv' & Q1). unfold emit in Q1.
        destruct (make (ckey v')) as [cs' [[w' outs']|e']] eqn:Em'; [|contradiction].
        apply pkts_in in Q1 as (i' & l' & k'' & Hn' & ->). simpl in Q2. simpl.
        assert (Ek : ckey v' = ckey v /\ i' = i) by (inversion Q2; auto). destruct Ek as [Ek ->].
        rewrite Ek in Em'. rewrite H1 in Em'. inversion Em'; subst. rewrite Hn in Hn'. now inversion Hn'. }
      clear - G. revert G. set (f := term (data s) k). clearbody f. clear.
      assert (A : forall outs j f, (forall i l k', nth_error outs i = Some (l, k') -> f (j + i) = Some k') ->
                combine (map fst outs) (map f (seq j (length outs))) = map (fun e : L * K => (fst e, Some (snd e))) outs).
      { clear. induction outs as [|[l k'] outs IH]; intros j f H; simpl; auto. f_equal.
        - f_equal. specialize (H 0 l k' eq_refl). now rewrite Nat.add_0_r in H.
        - apply IH. intros i l0 k0 Hi. rewrite <- (H (S i) l0 k0 Hi). f_equal. lia. }
      intros G. apply A. intros i l k' H. simpl. eauto.
  Qed.

  Theorem making_terminates k0 U :
    0 < lanes X -> In k0 U ->
    (forall k cs w outs l k', In k U -> make k = (cs, inl (w, outs)) -> In (l, k') outs -> In k' U) ->
    terminates making (vstart cstart, [mkCP k0 None]).
  Proof.
    intros Hl Hr HU.
    apply visit_terminates with (U := U) (good := fun p => In (ckey p) U); auto.
    - intros d p d' out e H. inversion H. auto.
    - intros d p d' out e Hp H q Hq. unfold make_first in H.
      destruct (negb (limit =? 0) && (limit <=? count d (cdest p))); [inversion H; subst; contradiction|].
      destruct (make (ckey p)) as [cs [[w outs]|e']] eqn:Em; inversion H; subst; [|contradiction].
      apply pkts_in in Hq as (i & l & k' & Hn & ->). simpl. eapply HU; eauto. eapply nth_error_In; eauto.
    - intros p Hp. exists (ckey p). split; auto. now apply Hkeq.
    - intros k k' u H1 H2. apply Hkeq in H1, H2. subst. now apply Hkeq.
    - intros k k' H. apply Hkeq in H. now subst.
    - intros p. now apply lane_of_lt.
  Qed.
End Construct.
