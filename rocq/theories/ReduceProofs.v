(** Lemmas about map-reduction (Traverse.v). *)
From Coq Require Import List Arith NArith Lia Bool Permutation.
From Verif Require Import Base Machine Env Hash Graph Visitor VisitorProofs Walk Run Fold Traverse TraverseProofs.
Import ListNotations.

Set Implicit Arguments.

Lemma lane_of_node_lt X n : 0 < lanes X -> lane_of_node X n < lanes X.
Proof. intros. now apply lane_of_lt. Qed.

Local Opaque lane_of_node lane_of.

(** [z] can be computed from the values in [xs], each used exactly once, by applications of the
    reduction. *)
Inductive combined (red : word -> word -> outcome) : list word -> word -> Prop :=
| comb_one x : combined red [x] x
| comb_two a b x y z : combined red a x -> combined red b y -> red x y = (z, None) -> combined red (a ++ b) z
| comb_perm a b x : Permutation a b -> combined red a x -> combined red b x.

Lemma combined_nest red vs r :
  combined red vs r -> forall xss, Forall2 (fun z xs => combined red xs z) vs xss -> combined red (concat xss) r.
Proof.
  induction 1 as [x|a b x y z Ha IHa Hb IHb Hr|a b x P H IH]; intros xss F.
  - inversion F as [|? ? ? ? H1 H2]; subst. inversion H2; subst. simpl. now rewrite app_nil_r.
  - apply Forall2_app_inv_l in F as (l1 & l2 & F1 & F2 & ->). rewrite concat_app. eapply comb_two; eauto.
  - destruct (Permutation_Forall2 (Permutation_sym P) F) as (xss' & P' & F').
    eapply comb_perm; [|apply IH; exact F']. symmetry. clear - P'.
    induction P'; simpl; auto.
    + now apply Permutation_app_head.
    + rewrite !app_assoc. apply Permutation_app_tail, Permutation_app_comm.
    + etransitivity; eauto.
Qed.

Lemma combined_subst red l z vs r :
  combined red l z -> combined red (z :: vs) r -> combined red (l ++ vs) r.
Proof.
  intros H H1. assert (F : Forall2 (fun z xs => combined red xs z) (z :: vs) (l :: map (fun x => [x]) vs)).
  { constructor; auto. clear. induction vs; simpl; constructor; auto. constructor. }
  apply combined_nest with (xss := l :: map (fun x => [x]) vs) in H1; auto. simpl in H1.
  replace (concat (map (fun x => [x]) vs)) with vs in H1; auto. clear. induction vs; simpl; congruence.
Qed.

Lemma combined_nonempty red vs r : combined red vs r -> vs <> [].
Proof.
  induction 1 as [x|a b x y z Ha IHa Hb IHb Hr|a b x P H IH].
  - discriminate.
  - destruct a; [congruence|discriminate].
  - intros ->. apply IH. symmetry in P. now apply Permutation_nil in P.
Qed.

(** The value does not depend on how it is computed if the reduction is associative and
    commutative. *)
Lemma combined_ac red r vs z :
  (forall x y, red x y = (r x y, None)) ->
  (forall x y z, r (r x y) z = r x (r y z)) -> (forall x y, r x y = r y x) ->
  combined red vs z -> forall x xs, Permutation vs (x :: xs) -> z = fold_left r xs x.
Proof.
  intros Hr Ha Hc.
  assert (Fp : forall xs ys, Permutation xs ys -> forall a, fold_left r xs a = fold_left r ys a).
  { intros xs ys P. induction P; intros a; simpl; auto.
    - now rewrite !Ha, (Hc y x).
    - now rewrite IHP1. }
  assert (Fx : forall xs ys, Permutation xs ys -> forall x xs' y ys', xs = x :: xs' -> ys = y :: ys' ->
             fold_left r xs' x = fold_left r ys' y).
  { intros xs ys P. induction P; intros x1 xs1 y1 ys1 E1 E2.
    - discriminate.
    - inversion E1; inversion E2; subst. now apply Fp.
    - inversion E1; inversion E2; subst. simpl. now rewrite Hc.
    - subst. destruct l' as [|c l2]; [symmetry in P1; apply Permutation_nil in P1; discriminate|].
      etransitivity; [eapply IHP1; eauto|eapply IHP2; eauto]. }
  assert (Fa : forall ys x y, fold_left r ys (r x y) = r x (fold_left r ys y)).
  { induction ys as [|c ys IH]; intros x y; simpl; auto. now rewrite Ha, IH. }
  induction 1 as [x|a b x y z Ha' IHa Hb IHb Hz|a b x P H IH]; intros c xs Hp.
  - apply Permutation_length_1_inv in Hp. inversion Hp; subst. reflexivity.
  - destruct a as [|a1 a]; [now apply combined_nonempty in Ha'|].
    destruct b as [|b1 b]; [now apply combined_nonempty in Hb|].
    rewrite (IHa _ _ (Permutation_refl _)) in Hz. rewrite (IHb _ _ (Permutation_refl _)) in Hz.
    rewrite Hr in Hz. inversion Hz; subst; clear Hz.
    rewrite (Fx _ _ (Permutation_sym Hp) c xs a1 (a ++ b1 :: b) eq_refl eq_refl).
    rewrite fold_left_app. simpl. rewrite Fa. reflexivity.
  - apply IH. now rewrite P.
Qed.

(** ** The reduction of the workers' results *)
Definition values (pool : list (option maybe)) : list word :=
  flat_map (fun o => match o with Some m => match extant m with Some x => [x] | None => [] end | None => [] end) pool.

Lemma values_perm pool pool' : Permutation pool pool' -> Permutation (values pool) (values pool').
Proof. apply flat_map_perm. Qed.

(** Values are missing only because of errors. *)
Definition sound (pool : list (option maybe)) : Prop :=
  forall m, In (Some m) pool -> extant m = None -> status m <> None.

Lemma first_of_none a b : first_of a b = None -> a = None /\ b = None.
Proof. destruct a; simpl; [discriminate|auto]. Qed.

Lemma fuses_success_aux red pool e v e' :
  fuses red pool e v e' -> e' = None -> sound pool ->
  e = None /\ (forall m, In (Some m) pool -> status m = None) /\
  ((values pool = [] /\ v = None) \/ exists z, v = Some z /\ combined red (values pool) z).
Proof.
  intros H. induction H as [pool e|
                 |pool pool' r e P H IH
                 |m
                 |pool pool' a y r e P Ha Hy H IH
                 |pool pool' a y r e P Hc H IH]; intros He Hs; try subst e.
  - discriminate.
  - split; auto. split; [intros m []|auto].
  - split; auto.
    assert (Hs' : sound pool').
    { intros m Hm. apply Hs. eapply Permutation_in; [symmetry; exact P|now right]. }
    destruct (IH eq_refl Hs') as (_ & A & B). split.
    + intros m Hm. eapply Permutation_in in Hm; [|exact P]. destruct Hm as [|Hm]; [discriminate|auto].
    + destruct B as [(B1 & B2)|(z & B1 & B2)].
      * left. split; auto. apply values_perm in P. simpl in P. rewrite B1 in P. now apply Permutation_sym, Permutation_nil in P.
      * right. exists z. split; auto. eapply comb_perm; [symmetry; apply values_perm; exact P|]. exact B2.
  - split; auto. split.
    + intros m' [Hm|[]]. inversion Hm; subst. congruence.
    + destruct (extant m) as [x|] eqn:Ex; simpl; rewrite Ex; simpl.
      * right. exists x. split; auto. constructor.
      * auto.
  - exfalso.
    assert (Hs' : sound pool').
    { intros m Hm. apply Hs. eapply Permutation_in; [symmetry; exact P|simpl; auto]. }
    destruct (IH eq_refl Hs') as (A & _). apply first_of_none in A as [A _].
    unfold is_extant in Ha. destruct (extant a) eqn:Ex; [discriminate|].
    apply (Hs a); auto. eapply Permutation_in; [symmetry; exact P|simpl; auto].
  - split; auto.
    assert (Ia : In (Some a) pool) by (eapply Permutation_in; [symmetry; exact P|simpl; auto]).
    assert (Iy : In y pool) by (eapply Permutation_in; [symmetry; exact P|simpl; auto]).
    match type of H with fuses _ (?f :: _) ?e0 _ _ => set (f0 := f) in *; set (e1 := e0) in * end.
    assert (Hf : forall m, f0 = Some m -> extant m <> None).
    { intros m E. unfold f0, fused, is_extant in E.
      destruct (extant a) as [v|] eqn:Exa.
      - destruct y as [b|]; [|inversion E; subst; congruence].
        destruct (extant b) as [w|] eqn:Exb.
        + rewrite Exa, Exb in E. destruct (red v w). inversion E; subst. simpl. discriminate.
        + inversion E; subst; congruence.
      - destruct y as [b|]; [|discriminate]. destruct (extant b) eqn:Exb; [|discriminate]. inversion E; subst; congruence. }
    assert (Hs' : sound (f0 :: pool')).
    { intros m [Hm|Hm]; [intros C; exfalso; eapply Hf; eauto|].
      apply Hs. eapply Permutation_in; [symmetry; exact P|simpl; auto]. }
    destruct (IH eq_refl Hs') as (A & B & C). clear IH.
    unfold e1 in A. apply first_of_none in A as [A1 A2].
    assert (Ea : exists v, extant a = Some v).
    { destruct (extant a) eqn:Ex; eauto. exfalso. apply (Hs a); auto. }
    destruct Ea as (v & Exa).
    assert (Hb : forall b, y = Some b -> status b = None /\ exists w, extant b = Some w).
    { intros b ->. unfold is_extant in A2. destruct (extant b) as [w|] eqn:Exb.
      - split; eauto. unfold f0, fused, is_extant in B. rewrite Exa, Exb in B. rewrite Exa, Exb in B.
        destruct (red v w) as [z e2].
        specialize (B _ (or_introl eq_refl)). simpl in B. apply first_of_none in B as [_ B]. now apply first_of_none in B.
      - exfalso. apply (Hs b); auto. }
    split.
    + intros m Hm. eapply Permutation_in in Hm; [|exact P]. destruct Hm as [Hm|[Hm|Hm]].
      * inversion Hm; subst; auto.
      * subst y. now apply Hb.
      * apply B. now right.
    + assert (V : values pool <> []).
      { intros V0. apply values_perm in P. rewrite V0 in P. apply Permutation_nil in P. simpl in P. rewrite Exa in P. discriminate. }
      right.
      destruct y as [b|].
      * destruct (Hb b eq_refl) as (Sb & w & Exb).
        destruct (red v w) as [z e2] eqn:Er.
        assert (Ef : f0 = Some (mkMaybe (Some z) (first_of (status a) (first_of (status b) e2)))).
        { unfold f0, fused, is_extant. rewrite Exa, Exb. rewrite Exa, Exb. now rewrite Er. }
        rewrite Ef in *. simpl in C.
        destruct C as [[C _]|(r' & -> & C)]; [discriminate|].
        exists r'. split; auto. eapply comb_perm; [symmetry; apply values_perm; exact P|].
        simpl. rewrite Exa, Exb. simpl.
        change (v :: w :: values pool') with ([v; w] ++ values pool').
        eapply combined_subst; [|exact C].
        change [v; w] with ([v] ++ [w]). eapply comb_two; try constructor.
        assert (B' := B _ (or_introl eq_refl)). simpl in B'. rewrite A1, Sb in B'. simpl in B'. congruence.
      * assert (Ef : f0 = Some a) by (unfold f0, fused, is_extant; now rewrite Exa).
        rewrite Ef in *. simpl in C. rewrite Exa in C. simpl in C.
        destruct C as [[C _]|(r' & -> & C)]; [discriminate|].
        exists r'. split; auto. eapply comb_perm; [symmetry; apply values_perm; exact P|].
        simpl. rewrite Exa. exact C.
Qed.

Lemma fuses_success red pool e v :
  fuses red pool e v None -> sound pool ->
  e = None /\ (forall m, In (Some m) pool -> status m = None) /\
  ((values pool = [] /\ v = None) \/ exists z, v = Some z /\ combined red (values pool) z).
Proof. intros H. eapply fuses_success_aux; eauto. Qed.

(** ** The workers' results *)
Section Workers.
  Context {V E : Type}.
  Variable X : env.
  Variable mapped : nat -> outcome.
  Variable red : word -> word -> outcome.

  Let act := reduce_act X mapped red.
  Let on (l : nat) (nodes : list nat) : list nat := filter (fun n => lane_of_node X n =? l) nodes.

  (** A worker's partial result over the nodes [ns]. *)
  Definition partial (ns : list nat) (o : option maybe) : Prop :=
    match o with
    | None => ns = []
    | Some m => exists z, extant m = Some z /\
                (status m = None -> exists xs, Forall2 (fun n x => mapped n = (x, None)) ns xs /\ combined red xs z)
    end.

  Lemma reduce_acts nodes : forall d done,
    (forall l, partial (on l done) (d l)) -> forall d', acts act d nodes = Some d' ->
    forall l, partial (on l (done ++ nodes)) (d' l).
  Proof.
    induction nodes as [|n nodes IH]; intros d done H d' Ha l.
    - inversion Ha; subst. now rewrite app_nil_r.
    - simpl in Ha. destruct (act d n) as [d1 [e|]] eqn:E1; [discriminate|].
      replace (done ++ n :: nodes) with ((done ++ [n]) ++ nodes) by now rewrite <- app_assoc.
      eapply IH; [|exact Ha]. clear IH Ha d' l.
      intros l. unfold on. rewrite filter_app. simpl.
      unfold act, reduce_act in E1. destruct (mapped n) as [x e] eqn:Em.
      destruct (Nat.eqb_spec (lane_of_node X n) l) as [El|El].
      + specialize (H l). subst l. destruct (d (lane_of_node X n)) as [m|] eqn:Ed.
        * destruct e as [e|]; [inversion E1|]. destruct H as (z & Hz & H). rewrite Hz in E1.
          destruct (red x z) as [z' e'] eqn:Er. inversion E1; subst. rewrite upd_same. simpl.
          exists z'. split; auto. intros Hst. destruct (H Hst) as (xs & F & C).
          exists (xs ++ [x]). split.
          -- apply Forall2_app; auto.
          -- eapply comb_perm; [apply Permutation_app_comm|]. eapply comb_two; [constructor|exact C|exact Er].
        * inversion E1; subst. rewrite upd_same. simpl. simpl in H. unfold on in H. rewrite H. simpl.
          eexists. split; eauto. intros ->. exists [x]. split; [constructor; auto|constructor].
      + rewrite app_nil_r. specialize (H l).
        assert (Ed : d1 l = d l).
        { destruct (d (lane_of_node X n)) as [m|]; [destruct e as [e|]; [|destruct (red x _)]|];
            inversion E1; subst; apply upd_diff; auto. }
        rewrite Ed. exact H.
  Qed.

  Lemma filter_partition k nodes :
    (forall n, In n nodes -> lane_of_node X n < k) ->
    Permutation (concat (map (fun l => on l nodes) (seq 0 k))) nodes.
  Proof.
    revert nodes. induction k as [|k IH]; intros nodes H.
    - destruct nodes; auto. exfalso. specialize (H n (or_introl eq_refl)). lia.
    - rewrite seq_S, map_app, concat_app. simpl. rewrite app_nil_r.
      assert (S1 : Permutation (on k nodes ++ filter (fun n => negb (lane_of_node X n =? k)) nodes) nodes).
      { clear. unfold on. induction nodes as [|n nodes IH]; simpl; auto.
        destruct (lane_of_node X n =? k); simpl; [now constructor|].
        rewrite <- Permutation_middle. now constructor. }
      rewrite <- S1 at 2. rewrite Permutation_app_comm. apply Permutation_app_head.
      rewrite <- (IH (filter (fun n => negb (lane_of_node X n =? k)) nodes)).
      + erewrite map_ext_in; [reflexivity|]. intros l Hl. apply in_seq in Hl. unfold on.
        clear - Hl. induction nodes as [|n nodes IH]; simpl; auto.
        destruct (Nat.eqb_spec (lane_of_node X n) l) as [E1|E1].
        * destruct (Nat.eqb_spec (lane_of_node X n) k); [lia|]. simpl. rewrite E1, Nat.eqb_refl. now f_equal.
        * destruct (negb (lane_of_node X n =? k)); simpl; auto. apply Nat.eqb_neq in E1. now rewrite E1.
      + intros n Hn. apply filter_In in Hn as [Hn E1]. apply negb_true_iff, Nat.eqb_neq in E1.
        specialize (H n Hn). lia.
  Qed.
End Workers.

(** Nobody has noticed a kill that did not happen. *)
Lemma lkil_killed {S P K} X (key : P -> K) keq hash first again ready (d0 : S) p0 s :
  completes (vtask X key keq hash first again ready) (vstart d0) p0 s ->
  forall l, lkil s l = true -> killed s = true.
Proof.
  unfold completes. intros Hc.
  refine (mruns_inv (fun (s : @vst S K) (_ : list P) => forall l, lkil s l = true -> killed s = true) _ _ _ Hc).
  - auto.
  - intros s1 p b s2 out I H l. unfold vtask in H.
    destruct (halted X key hash s1 p); [inversion H; subst; simpl; auto|].
    destruct (ready (data s1) p); simpl in H; [|discriminate].
    destruct (if have_seen X key keq hash s1 p then again (data s1) p else first (data s1) p) as [[d o] e].
    inversion H; subst; simpl. intros Hl. unfold is_killed. now rewrite (I l Hl).
  - simpl. discriminate.
Qed.

Lemma in_some_map {A B} (f : A -> option B) l m : In (Some m) (map f l) -> exists a, In a l /\ f a = Some m.
Proof. intros H. apply in_map_iff in H as (a & E & H). eauto. Qed.

Theorem mapreduce_facts {V E} X (g : graph V E) ein mapped red backwards i s v :
  0 < lanes X ->
  completes (mapreducing X g ein mapped red backwards) (vstart (fun _ => None)) (initial i) s ->
  fuses red (map (worker_result s) (seq 0 (lanes X))) None v None -> is_killed X s = false ->
  exists nodes xs z,
    NoDup nodes /\ (forall n, In n nodes <-> along (if backwards then ein else es g) i n) /\
    Forall2 (fun n x => mapped n = (x, None)) nodes xs /\ combined red xs z /\ v = Some z.
Proof.
  intros Hl Hc Hf Hk.
  assert (Hkl : forall l, lkil s l = false).
  { intros l. destruct (lkil s l) eqn:E1; auto. apply (lkil_killed Hc) in E1. unfold is_killed in Hk. now rewrite E1 in Hk. }
  (* with errors, results are missing *)
  assert (Hdata : forall l m, data s l = Some m -> extant m <> None).
  { unfold completes, mapreducing, walk, gwalk in Hc.
    refine (mruns_inv (fun (s : @vst (nat -> option maybe) nat) (_ : list (npkt E)) => forall l m, data s l = Some m -> extant m <> None) _ _ _ Hc).
    - auto.
    - intros s1 p b s2 out I H l m. unfold vtask in H.
      destruct (halted X payload node_hash s1 p); [inversion H; subst; simpl; apply I|]. simpl in H.
      destruct (have_seen X payload Nat.eqb node_hash s1 p).
      + inversion H; subst. simpl. apply I.
      + unfold walk_first in H. destruct (reduce_act X mapped red (data s1) (payload p)) as [d e] eqn:Er.
        inversion H; subst. simpl. unfold reduce_act in Er.
        destruct (mapped (payload p)) as [x ex].
        assert (G : forall y, d = upd (data s1) (lane_of_node X (payload p)) (Some y) -> extant y <> None ->
                  d l = Some m -> extant m <> None).
        { intros y -> Hy. unfold upd. destruct (l =? lane_of_node X (payload p)); [intros E1; inversion E1; subst; auto|apply I]. }
        destruct (data s1 (lane_of_node X (payload p))).
        * destruct ex; [inversion Er; subst; eapply G; [reflexivity|discriminate]|].
          destruct (red x _). inversion Er; subst. eapply G; [reflexivity|discriminate].
        * inversion Er; subst; eapply G; [reflexivity|discriminate].
    - simpl. discriminate. }
  assert (Hsound : sound (map (worker_result s) (seq 0 (lanes X)))).
  { intros m Hm Ex. apply in_some_map in Hm as (l & Hl' & Hm). unfold worker_result in Hm. rewrite Hkl in Hm.
    destruct (lerr s l); [inversion Hm; subst; simpl; discriminate|]. exfalso. eapply Hdata; eauto. }
  destruct (fuses_success Hf Hsound) as (_ & Hst & Hv).
  assert (He : forall l, l < lanes X -> lerr s l = None).
  { intros l Hl'. destruct (lerr s l) eqn:E1; auto.
    assert (F : In (Some (mkMaybe None (Some e))) (map (worker_result s) (seq 0 (lanes X)))).
    { apply in_map_iff. exists l. split; [unfold worker_result; now rewrite E1|apply in_seq; lia]. }
    apply Hst in F. discriminate. }
  assert (Hstat : vstatus X (seq 0 (lanes X)) s = None).
  { apply final_status_none. split; auto. intros l Hl'. apply in_seq in Hl'. apply He. lia. }
  pose proof Hc as Hc'. apply walk_success with (order := seq 0 (lanes X)) in Hc'; auto.
  destruct Hc' as (nodes & A & B & C).
  pose proof (@reduce_acts X mapped red nodes (fun _ => None) []) as P. simpl in P.
  specialize (P (fun _ => eq_refl) (data s) C).
  set (pool := map (worker_result s) (seq 0 (lanes X))) in *.
  assert (Ew : pool = map (data s) (seq 0 (lanes X))).
  { apply map_ext_in. intros l Hl'. apply in_seq in Hl'. unfold worker_result. now rewrite He, Hkl by lia. }
  (* per worker lists *)
  assert (W : exists xss, Forall2 (fun z xs => combined red xs z) (values pool) xss /\
                     exists nss, Permutation (concat nss) nodes /\ Forall2 (fun n x => mapped n = (x, None)) (concat nss) (concat xss)).
  { set (on := fun l => filter (fun n => lane_of_node X n =? l) nodes).
    assert (G : forall ls, (forall l, In l ls -> l < lanes X) ->
      exists xss, Forall2 (fun z xs => combined red xs z) (values (map (data s) ls)) xss /\
        Forall2 (fun n x => mapped n = (x, None)) (concat (map on ls)) (concat xss)).
    { induction ls as [|l ls IH]; intros Hls.
      - exists []. simpl. split; constructor.
      - destruct IH as (xss & F1 & F2); [intros; apply Hls; now right|].
        specialize (P l). simpl. destruct (data s l) as [m|] eqn:Ed.
        + destruct P as (z & Ez & P). rewrite Ez.
          assert (In (Some m) pool).
          { rewrite Ew. apply in_map_iff. exists l. split; auto. apply in_seq. specialize (Hls l (or_introl eq_refl)). lia. }
          destruct (P (Hst m H)) as (xs & Fx & Cx). exists (xs :: xss). split.
          * simpl. constructor; auto.
          * simpl. apply Forall2_app; auto.
        + simpl in P. exists xss. split; auto. fold (on l) in P. rewrite P. exact F2. }
    destruct (G (seq 0 (lanes X))) as (xss & F1 & F2).
    { intros l Hl'. apply in_seq in Hl'. lia. }
    exists xss. rewrite Ew. split; auto. exists (map on (seq 0 (lanes X))). split; auto.
    apply filter_partition. intros n Hn. now apply lane_of_node_lt. }
  destruct W as (xss & W1 & nss & W2 & W3).
  destruct Hv as [[Hv1 Hv2]|(z & -> & Hv)].
  - exfalso. rewrite Hv1 in W1. inversion W1; subst. simpl in W3. inversion W3 as [E1|]; subst.
    rewrite <- E1 in W2. apply Permutation_nil in W2. subst nodes.
    apply (B i). constructor.
  - exists (concat nss), (concat xss), z. repeat split.
    + eapply Permutation_NoDup; [symmetry; exact W2|auto].
    + intros Hn. apply B. eapply Permutation_in; eauto.
    + intros Hn. apply B in Hn. eapply Permutation_in; [symmetry; exact W2|auto].
    + exact W3.
    + eapply combined_nest; eauto.
Qed.
