(** Values declared by way of cru_stretch: claim C87. *)
From Coq Require Import List Arith NArith Bool Lia Permutation.
From Verif Require Import Declare.
Import ListNotations.

Set Implicit Arguments.

(** The values given to the library by a command *)
Definition declared (c : command) : list value :=
  match c with Stretch a v b => [Label a; Vertex v; Label b] | Raise => [] end.
(** Those in an edge to a new node, in the node and in the edge from it *)
Definition installed (t : N * N * N) : list value := let '(a, v, b) := t in [Label a; Vertex v; Label b].
(** Those in a map *)
Definition content (m : option edge * option edge) : list value :=
  match fst m with Some e => [Label (label e); Vertex (remote e)] | None => [] end ++
  match snd m with Some e => [Label (label e)] | None => [] end.

Section Conservation.
  Variable enough : nat -> bool.
  Variables efree vfree : bool.

  (** Values that have to be reclaimed: those that aren't null, and for which there are destructors *)
  Definition owned (x : value) : bool :=
    match x with Label n => efree && negb (n =? 0)%N | Vertex n => vfree && negb (n =? 0)%N end.

  Lemma value_eq (x y : value) : {x = y} + {x <> y}.
  Proof. decide equality; apply N.eq_dec. Qed.
  Definition n (x : value) (l : list value) : nat := count_occ value_eq (filter owned l) x.
  Lemma n_app x a b : n x (a ++ b) = n x a + n x b.
  Proof. unfold n. now rewrite filter_app, count_occ_app. Qed.
  Lemma n_cons x a b : n x (a :: b) = n x [a] + n x b.
  Proof. apply (n_app x [a] b). Qed.

  Ltac nn x := repeat match goal with |- context [n x (?a :: ?b :: ?l)] => rewrite (n_cons x a (b :: l)) end; try change (n x []) with 0.

  Lemma n_content x a p l : n x (flat_map content ((Some a, Some p) :: l)) = n x [Label (label a)] + n x [Vertex (remote a)] + n x [Label (label p)] + n x (flat_map content l).
  Proof. change (flat_map content ((Some a, Some p) :: l)) with ([Label (label a); Vertex (remote a); Label (label p)] ++ flat_map content l). rewrite n_app. nn x. lia. Qed.
  Lemma n_installed x a v b l : n x (flat_map installed ((a, v, b) :: l)) = n x [Label a] + n x [Vertex v] + n x [Label b] + n x (flat_map installed l).
  Proof. change (flat_map installed ((a, v, b) :: l)) with ([Label a; Vertex v; Label b] ++ flat_map installed l). rewrite n_app. nn x. lia. Qed.

  (** Everything that has been freed is owned. *)
  Definition sane (s : state) : Prop := filter owned (freed s) = freed s.
  Lemma free_label_n l s x : n x (freed (free_label efree l s)) = n x [Label l] + n x (freed s).
  Proof.
    unfold free_label. destruct (efree && negb (l =? 0)%N) eqn:E; simpl; [apply n_cons|].
    unfold n at 2. simpl. now rewrite E.
  Qed.
  Lemma free_vertex_n v s x : n x (freed (free_vertex vfree v s)) = n x [Vertex v] + n x (freed s).
  Proof.
    unfold free_vertex. destruct (vfree && negb (v =? 0)%N) eqn:E; simpl; [apply n_cons|].
    unfold n at 2. simpl. now rewrite E.
  Qed.
  Lemma free_label_sane l s : sane s -> sane (free_label efree l s).
  Proof.
    unfold sane, free_label. intros H. destruct (efree && negb (l =? 0)%N) eqn:E; simpl; auto. rewrite E. now f_equal.
  Qed.
  Lemma free_vertex_sane v s : sane s -> sane (free_vertex vfree v s).
  Proof.
    unfold sane, free_vertex. intros H. destruct (vfree && negb (v =? 0)%N) eqn:E; simpl; auto. rewrite E. now f_equal.
  Qed.
  Lemma free_label_err l s : err (free_label efree l s) = err s.
  Proof. unfold free_label. destruct (_ && _); auto. Qed.
  Lemma free_vertex_err v s : err (free_vertex vfree v s) = err s.
  Proof. unfold free_vertex. destruct (_ && _); auto. Qed.

  (** [s'] has freed [l] in addition to what [s] has. *)
  Record frees (l : list value) (s s' : state) : Prop := {
    f_n : forall x, n x (freed s') = n x l + n x (freed s);
    f_sane : sane s -> sane s';
    f_err : err s = true -> err s' = true
  }.
  Lemma frees_refl s : frees [] s s.
  Proof. constructor; auto. Qed.
  Lemma frees_trans a b s1 s2 s3 : frees a s1 s2 -> frees b s2 s3 -> frees (a ++ b) s1 s3.
  Proof. intros [A1 A2 A3] [B1 B2 B3]. constructor; auto. intros x. rewrite B1, A1, n_app. lia. Qed.
  Lemma frees_perm a b s s' : frees a s s' -> (forall x, n x b = n x a) -> frees b s s'.
  Proof. intros [A1 A2 A3] H. constructor; auto. intros x. now rewrite H. Qed.
  Lemma label_frees l s : frees [Label l] s (free_label efree l s).
  Proof. constructor; [apply free_label_n|apply free_label_sane|now rewrite free_label_err]. Qed.
  Lemma vertex_frees v s : frees [Vertex v] s (free_vertex vfree v s).
  Proof. constructor; [apply free_vertex_n|apply free_vertex_sane|now rewrite free_vertex_err]. Qed.
  Lemma raise_frees s : frees [] s (raise s).
  Proof. constructor; auto. Qed.
  Lemma malloc_frees s ok s' : malloc enough s = (ok, s') -> frees [] s s' /\ err s' = err s.
  Proof. intros H. injection H as _ <-. split; [constructor; auto|auto]. Qed.

  Lemma free_map_err m s : err (free_map efree vfree m s) = err s.
  Proof.
    revert s. induction m as [|[[a|] [p|]] m IH]; intros s; simpl; auto; rewrite IH; unfold free_termini, free_labels;
      rewrite ?free_vertex_err, ?free_label_err, ?free_vertex_err, ?free_label_err; auto.
  Qed.
  Lemma map_frees m s : frees (flat_map content m) s (free_map efree vfree m s).
  Proof.
    revert s. induction m as [|[a p] m IH]; intros s; simpl; [apply frees_refl|].
    eapply frees_trans; [|apply IH].
    unfold content. simpl. apply frees_trans with (s2 := free_termini efree vfree a s).
    - destruct a as [a|]; simpl; [|apply frees_refl]. apply (frees_trans (label_frees _ _) (vertex_frees _ _)).
    - destruct p as [p|]; simpl; [apply label_frees|apply frees_refl].
  Qed.

  Lemma edge_frees l v s r s' : edge_of enough efree vfree l v s = (r, s') ->
    match r with
    | Some e => e = mkEdge l v /\ frees [] s s' /\ err s' = false
    | None => frees [Label l; Vertex v] s s' /\ err s' = true
    end.
  Proof.
    assert (F : forall t, frees [Label l; Vertex v] t (free_label efree l (free_vertex vfree v t))).
    { intros t. eapply frees_perm; [apply (frees_trans (vertex_frees v t) (label_frees l _))|].
      intros x. simpl. nn x. lia. }
    unfold edge_of. destruct (err s) eqn:E.
    - intros H. injection H as <- <-. split; auto. now rewrite free_label_err, free_vertex_err.
    - destruct (malloc enough s) as [ok s1] eqn:M. apply malloc_frees in M as [M1 M2]. destruct ok; intros H; injection H as <- <-.
      + repeat split; auto; try apply M1. congruence.
      + split; [|now rewrite free_label_err, free_vertex_err].
        apply (frees_trans M1 (frees_trans (raise_frees _) (F _))).
  Qed.

  (** Declarations are kept or freed, and those made before are freed only all together. *)
  Lemma stretch_frees a v b e s e' s' : stretch enough efree vfree a v b e s = (e', s') ->
    (forall x, n x (freed s') + n x (flat_map content e') = n x [Label a; Vertex v; Label b] + n x (flat_map content e) + n x (freed s)) /\
    (sane s -> sane s') /\ (err s = true -> err s' = true).
  Proof.
    unfold stretch. destruct (edge_of enough efree vfree a v s) as [[ea|] s1] eqn:E1; apply edge_frees in E1.
    - destruct E1 as (-> & F1 & _). destruct (edge_of enough efree vfree b 0 s1) as [[ep|] s2] eqn:E2; apply edge_frees in E2.
      + destruct E2 as (-> & F2 & _). unfold map_of. destruct (malloc enough s2) as [ok s3] eqn:M. apply malloc_frees in M as [M _].
        pose proof (frees_trans F1 (frees_trans F2 M)) as F. destruct ok; intros H; injection H as <- <-.
        * destruct F as [A1 A2 A3]. split; [|auto]. intros x. rewrite A1, n_content. simpl. nn x. lia.
        * pose proof (frees_trans F (frees_trans (raise_frees _) (map_frees e _))) as G.
          pose proof (frees_trans G (frees_trans (frees_trans (label_frees a _) (vertex_frees v _)) (label_frees b _))) as [A1 A2 A3].
          split; [|auto]. intros x. simpl. rewrite A1. simpl. rewrite !n_app. simpl.
          nn x. lia.
      + destruct E2 as (F2 & _). intros H. injection H as <- <-.
        pose proof (frees_trans F1 (frees_trans F2 (frees_trans (label_frees a _) (vertex_frees v _)))) as [A1 A2 A3].
        split; [|auto]. intros x. simpl. rewrite A1. simpl. nn x.
        assert (n x [Vertex 0] = 0) as -> by (unfold n; simpl; rewrite andb_false_r; reflexivity). lia.
    - destruct E1 as (F1 & _). intros H. injection H as <- <-. pose proof (frees_trans F1 (label_frees b _)) as [A1 A2 A3].
      split; [|auto]. intros x. rewrite A1. simpl. lia.
  Qed.

  Lemma expand_frees c : forall e s e' s', expand enough efree vfree c e s = (e', s') ->
    (forall x, n x (freed s') + n x (flat_map content e') = n x (flat_map declared c) + n x (flat_map content e) + n x (freed s)) /\
    (sane s -> sane s') /\ (err s = true -> err s' = true).
  Proof.
    induction c as [|[a v b|] c IH]; intros e s e' s' H; simpl in H.
    - injection H as <- <-. split; auto. intros x. simpl. change (n x []) with 0. lia.
    - destruct (stretch enough efree vfree a v b e s) as [e1 s1] eqn:E. apply stretch_frees in E as (A1 & A2 & A3).
      apply IH in H as (B1 & B2 & B3). repeat split; auto. intros x. change (flat_map declared (Stretch a v b :: c)) with ([Label a; Vertex v; Label b] ++ flat_map declared c). rewrite n_app. specialize (A1 x). specialize (B1 x). lia.
    - apply IH in H as (B1 & B2 & B3). repeat split; auto.
  Qed.

  Definition full (m : option edge * option edge) : Prop := exists a p, m = (Some a, Some p).
  Lemma expand_full c : forall e s e' s', expand enough efree vfree c e s = (e', s') -> Forall full e -> Forall full e'.
  Proof.
    induction c as [|[a v b|] c IH]; intros e s e' s' H F; simpl in H.
    - injection H as <- _. auto.
    - destruct (stretch enough efree vfree a v b e s) as [e1 s1] eqn:E. apply IH in H; auto. clear IH H.
      unfold stretch in E. destruct (edge_of enough efree vfree a v s) as [[ea|] s2]; [|now injection E as <- _].
      destruct (edge_of enough efree vfree b 0 s2) as [[ep|] s3]; [|now injection E as <- _].
      unfold map_of in E. destruct (malloc enough s3) as [[|] s4]; injection E as <- _; auto.
      constructor; auto. exists ea, ep. reflexivity.
    - eapply IH; eauto.
  Qed.

  Lemma scatter_frees m : forall l s l' s', scatter enough efree vfree m l s = (l', s') -> Forall full m ->
    (forall x, n x (freed s') + n x (flat_map installed l') = n x (flat_map content m) + n x (flat_map installed l) + n x (freed s)) /\
    (sane s -> sane s') /\ (err s = true -> err s' = true).
  Proof.
    assert (D : forall m l s1 s, frees [] s s1 ->
      (forall x, n x (freed (free_map efree vfree m s1)) + n x (flat_map installed l) = n x (flat_map content m) + n x (flat_map installed l) + n x (freed s)) /\
      (sane s -> sane (free_map efree vfree m s1)) /\ (err s = true -> err (free_map efree vfree m s1) = true)).
    { intros m0 l s1 s F. pose proof (frees_trans F (map_frees m0 _)) as [A1 A2 A3]. repeat split; auto. intros x. rewrite A1. simpl. lia. }
    induction m as [|[a p] m IH]; intros l s l' s' H F; [injection H as <- <-; split; auto; intros x; simpl; change (n x []) with 0; lia|].
    inversion F as [|y z (a' & p' & E) F']; subst. injection E as -> ->.
    cbn [scatter] in H. destruct (err s) eqn:Es.
    - injection H as <- <-. destruct (D ((Some a', Some p') :: m) l s s (frees_refl s)) as (X & Y & Z). repeat split; auto.
    - destruct (malloc enough s) as [ok s1] eqn:M1. apply malloc_frees in M1 as [M1 _]. destruct ok; simpl negb in H; cbv iota in H.
      + destruct (malloc enough s1) as [ok s2] eqn:M2. apply malloc_frees in M2 as [M2 _]. pose proof (frees_trans M1 M2) as [A1 A2 A3].
        destruct ok.
        * apply IH in H as (B1 & B2 & B3); auto. clear A3. split; [|split; [auto|discriminate]]. intros x. rewrite B1, A1.
          rewrite n_content, n_installed. simpl. nn x. lia.
        * injection H as <- <-. split; [|split; [|discriminate]].
          -- intros x. rewrite n_content, (f_n (map_frees _ _)), free_vertex_n, !free_label_n. simpl freed. rewrite A1. simpl. nn x. lia.
          -- intros S. apply (f_sane (map_frees _ _)). apply free_vertex_sane, free_label_sane, free_label_sane. unfold sane in *. simpl. auto.
      + injection H as <- <-. destruct (D ((Some a', Some p') :: m) l _ s (frees_trans M1 (raise_frees _))) as (X & Y & _). split; [exact X|split; [exact Y|discriminate]].
  Qed.

  Lemma count_perm a b : (forall x, n x a = n x b) -> Permutation (filter owned a) (filter owned b).
  Proof. intros H. apply (proj2 (Permutation_count_occ value_eq _ _)). exact H. Qed.

  Lemma scattered_ok edges : forall l s kept l' m s', scattered enough efree vfree edges [] l s = (kept, l', m, s') ->
    exists called rest, edges = called ++ rest /\ (err s' = false -> rest = []) /\
      (forall x, n x (freed s') + n x (flat_map installed l') + n x (map Label kept) + n x (flat_map content m) =
                 n x (map (fun e => Label (fst e)) edges) + n x (flat_map (fun e => flat_map declared (fst (snd e))) called) +
                 n x (flat_map installed l) + n x (freed s)) /\
      (sane s -> sane s') /\
      (m <> [] -> err s' = true /\ exists c before e s1 s2, called = before ++ [e] /\ fst (snd e) = c /\ err s1 = false /\ expand enough efree vfree c [] s1 = (m, s2) /\ err s2 = true).
  Proof.
    induction edges as [|[b [c d]] edges IH]; intros l s kept l' m s' H.
    - injection H as <- <- <- <-. exists [], []. repeat split; auto; try congruence. intros x. simpl. change (n x []) with 0. lia.
    - cbn [scattered] in H. destruct (err s) eqn:Es.
      { injection H as <- <- <- <-. exists [], ((b, (c, d)) :: edges). repeat split; auto; try congruence.
        intros x. simpl map; rewrite ?map_map; simpl flat_map. change (n x []) with 0. lia. }
      destruct (expand enough efree vfree c [] s) as [m1 s1] eqn:E1. pose proof E1 as E1'. apply expand_frees in E1 as (A1 & A2 & _).
      destruct (err s1) eqn:Es1.
      { injection H as <- <- <- <-. exists [(b, (c, d))], edges. split; [auto|split; [congruence|split; [|split; [auto|]]]].
        - intros x. simpl map; rewrite ?map_map.
          change (flat_map (fun e => flat_map declared (fst (snd e))) [(b, (c, d))]) with (flat_map declared c ++ []). rewrite n_app.
          specialize (A1 x). change (n x (flat_map content [])) with 0 in A1. change (n x []) with 0. lia.
        - intros _. split; auto. exists c, [], (b, (c, d)), s, s1. auto. }
      destruct (scatter enough efree vfree m1 [] s1) as [l1 s2] eqn:E2. apply scatter_frees in E2 as (B1 & B2 & _).
      2: { eapply expand_full; eauto. }
      assert (Lift : forall called, flat_map (fun e => flat_map declared (fst (snd e))) ((b, (c, d)) :: called) = flat_map declared c ++ flat_map (fun e => flat_map declared (fst (snd e))) called) by reflexivity.
      destruct (if err s2 then false else d) eqn:Ed.
      + apply IH in H as (called & rest & -> & R & C1 & C2 & C3). exists ((b, (c, d)) :: called), rest.
        split; [auto|split; [auto|split; [|split]]].
        * intros x. rewrite C1, Lift, free_label_n, flat_map_app, !n_app. simpl map. rewrite (n_cons x (Label b) (map _ _)).
          specialize (A1 x). specialize (B1 x). change (n x (flat_map content [])) with 0 in A1. change (n x (flat_map installed [])) with 0 in B1. lia.
        * intros S. apply C2, free_label_sane. auto.
        * intros M. destruct (C3 M) as (X & c0 & before & e & s3 & s4 & -> & Y). split; auto. exists c0, ((b, (c, d)) :: before), e, s3, s4. tauto.
      + destruct (scattered enough efree vfree edges [] (l1 ++ l) s2) as [[[k l2] m2] s3] eqn:E3. injection H as <- <- <- <-.
        apply IH in E3 as (called & rest & -> & R & C1 & C2 & C3). exists ((b, (c, d)) :: called), rest.
        split; [auto|split; [auto|split; [|split]]].
        * intros x. rewrite Lift, n_app. specialize (C1 x). rewrite flat_map_app, n_app in C1. simpl map.
          rewrite (n_cons x (Label b) (map _ (called ++ rest))), (n_cons x (Label b) (map _ k)).
          specialize (A1 x). specialize (B1 x). change (n x (flat_map content [])) with 0 in A1. change (n x (flat_map installed [])) with 0 in B1. lia.
        * auto.
        * intros M. destruct (C3 M) as (X & c0 & before & e & s4 & s5 & -> & Y). split; auto. exists c0, ((b, (c, d)) :: before), e, s4, s5. tauto.
  Qed.
End Conservation.

(** However memory is exhausted and whatever the expander does, the labels of the edges of a node and the values declared by the
    expander when it is called for them are divided exactly between those in the graph, those that are freed, and those in the map
    left behind by an expander that has failed. *)
Theorem C87_conserved enough efree vfree edges t kept new m s :
  scattered enough efree vfree edges [] [] (mkState t false []) = (kept, new, m, s) ->
  exists called rest, edges = called ++ rest /\ (err s = false -> rest = []) /\
    Permutation
      (filter (owned efree vfree) (map (fun e => Label (fst e)) edges ++ flat_map (fun e => flat_map declared (fst (snd e))) called))
      (filter (owned efree vfree) (map Label kept ++ flat_map installed new) ++ freed s ++ filter (owned efree vfree) (flat_map content m)).
Proof.
  intros H. apply scattered_ok in H as (called & rest & E & R & C & S & _). exists called, rest. split; auto. split; auto.
  assert (S' : sane efree vfree s) by (apply S; reflexivity). rewrite <- S', <- !filter_app. apply count_perm. intros x. specialize (C x).
  rewrite !n_app in *. simpl freed in C. change (n efree vfree x (flat_map installed [])) with 0 in C. change (n efree vfree x []) with 0 in C. lia.
Qed.

(** Nothing is left behind unless there was an error or a failed allocation during the last call of the expander.  Running out of
    memory afterwards does no harm. *)
Theorem C87_left_behind enough efree vfree edges t kept new m s :
  scattered enough efree vfree edges [] [] (mkState t false []) = (kept, new, m, s) -> m <> [] ->
  err s = true /\ exists before e after s1 s2, edges = before ++ e :: after /\
    err s1 = false /\ expand enough efree vfree (fst (snd e)) [] s1 = (m, s2) /\ err s2 = true.
Proof.
  intros H N. apply scattered_ok in H as (called & rest & E & _ & _ & _ & M).
  destruct (M N) as (X & c & before & e & s1 & s2 & E1 & E2 & E3 & E4 & E5). split; auto.
  exists before, e, rest, s1, s2. rewrite E, E1, E2, <- app_assoc. auto.
Qed.

(** Running out of memory while the declarations are consumed *)
Definition two : list (N * (list command * bool)) :=
  [(1, ([Stretch 11 12 13; Stretch 14 15 16], true)); (2, ([Stretch 21 22 23], false)); (3, ([], true))]%N.
Example C87_ex : exists kept new s,
  scattered (fun k => negb (k =? 9)) true true two [] [] (mkState 0 false []) = (kept, new, [], s) /\
  kept = [1; 2; 3]%N /\ new = [(14, 15, 16)]%N /\ err s = true /\ freed s = [Vertex 12; Label 11; Label 13]%N.
Proof. do 3 eexists. vm_compute. repeat split. Qed.
Example C87_ex2 : exists kept new s,
  scattered (fun k => negb (k =? 13)) true true two [] [] (mkState 0 false []) = (kept, new, [], s) /\
  kept = [2; 3]%N /\ new = [(11, 12, 13); (14, 15, 16)]%N /\ err s = true /\ freed s = [Label 23; Vertex 22; Label 21; Label 1]%N.
Proof. do 3 eexists. vm_compute. repeat split. Qed.

(** What is left behind is lost: [new_edge_map] is a variable of the task (src/stretch.c:270, 294) that isn't used again after an
    error.  Here a value is declared that is neither in the graph nor freed, with an unlimited amount of memory and an error raised
    by the expander, or without that but with a failed allocation. *)
Theorem C87_lost_refuted :
  (exists edges kept new m s x, scattered (fun _ => true) true true edges [] [] (mkState 0 false []) = (kept, new, m, s) /\
     In x (flat_map (fun e => flat_map declared (fst (snd e))) edges) /\ owned true true x = true /\
     ~ In x (map Label kept) /\ ~ In x (flat_map installed new) /\ ~ In x (freed s)) /\
  (exists enough edges kept new m s x, scattered enough true true edges [] [] (mkState 0 false []) = (kept, new, m, s) /\
     (forall e, In e edges -> ~ In Raise (fst (snd e))) /\
     In x (flat_map (fun e => flat_map declared (fst (snd e))) edges) /\ owned true true x = true /\
     ~ In x (map Label kept) /\ ~ In x (flat_map installed new) /\ ~ In x (freed s)).
Proof.
  split.
  - exists [(1, ([Stretch 11 12 13; Raise], true))]%N. do 4 eexists. exists (Vertex 12). split; [vm_compute; reflexivity|].
    simpl. repeat split; auto; intuition discriminate.
  - exists (fun k => negb (k =? 3)), [(1, ([Stretch 11 12 13; Stretch 14 15 16], true))]%N. do 4 eexists. exists (Vertex 12).
    split; [vm_compute; reflexivity|]. split; [intros e [<-|[]]; simpl; intuition discriminate|].
    simpl. repeat split; auto; intuition discriminate.
Qed.
