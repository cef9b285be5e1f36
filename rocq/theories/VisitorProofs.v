(** Facts about sequential executions of the visitor (Visitor.v). *)
From Coq Require Import List Arith NArith Lia Bool Permutation.
From Verif Require Import Base Machine PortsTerm Env Visitor.
Import ListNotations.

Set Implicit Arguments.

Section Serial.
  Context {S P K : Type}.
  Variable key : P -> K.
  Variable keq : K -> K -> bool.
  Variables first again : S -> P -> S * list P * option error.
  Variable ready : S -> P -> bool.

  Let ptask := ptask key keq first again ready.
  Let was_seen := was_seen key keq.

  (** The packets [tr] are processed one after the other, regardless of who sent them. *)
  Inductive pruns (c : S * list P) : list P -> S * list P -> Prop :=
  | pr_nil : pruns c [] c
  | pr_snoc tr c' p c'' out : pruns c tr c' -> ptask c' p = Some (c'', out) -> pruns c (tr ++ [p]) c''.

  Variable emit : P -> list P.
  Variable p0 : P.

  (** The packets that can occur at all. *)
  Inductive mail : P -> Prop :=
  | mail_first : mail p0
  | mail_next p q : mail p -> In q (emit p) -> mail q.

  Variable J : S -> list P -> Prop.
  Hypothesis Hfirst : forall d vis p d' out,
    J d vis -> mail p -> (forall q, In q vis -> mail q) -> was_seen vis p = false -> ready d p = true ->
    first d p = (d', out, None) -> Permutation out (emit p) /\ J d' (vis ++ [p]).
  Hypothesis Hagain : forall d vis p d' out,
    J d vis -> mail p -> (forall q, In q vis -> mail q) -> was_seen vis p = true -> ready d p = true ->
    again d p = (d', out, None) -> out = [] /\ J d' vis.

  Record serial_inv (d0 : S) (c : S * list P) (b : list P) : Prop := {
    si_J : J (fst c) (snd c);
    si_run : exists tr, pruns (d0, []) tr c /\ Permutation (tr ++ b) (p0 :: flat_map emit (snd c)) /\
               (forall p, In p tr -> was_seen (snd c) p = true \/ In p (snd c));
    si_distinct : ForallOrdPairs (fun q q' => keq (key q') (key q) = false) (snd c);
    si_mail : forall p, In p (snd c) -> mail p
  }.

  Lemma FOP_snoc {A} (R : A -> A -> Prop) l x :
    ForallOrdPairs R l -> (forall y, In y l -> R y x) -> ForallOrdPairs R (l ++ [x]).
  Proof.
    intros H Hx. induction H; simpl.
    - repeat constructor.
    - constructor; [|apply IHForallOrdPairs; intros; apply Hx; simpl; auto].
      apply Forall_app. split; auto. constructor; auto. apply Hx. simpl. auto.
  Qed.

  Lemma serial_inv_runs d0 c b :
    J d0 [] -> mruns ptask ((d0, []), [p0]) (c, b) -> serial_inv d0 c b.
  Proof.
    intros HJ. apply mruns_inv.
    - intros c1 b1 b2 Hp [A (tr & B1 & B2 & B3) C D]. split; auto. exists tr. repeat split; auto.
      rewrite <- B2. now apply Permutation_app_head.
    - intros [d vis] p b1 [d' vis'] out [A (tr & B1 & B2 & B3) C D] Ht. simpl in *.
      assert (Hm : mail p).
      { assert (Hp : In p (p0 :: flat_map emit vis)).
        { eapply Permutation_in; [exact B2|]. apply in_or_app. right. simpl. auto. }
        destruct Hp as [<-|Hp]; [constructor|]. apply in_flat_map in Hp as (q & Hq & Hp).
        econstructor; [apply (D q Hq)|exact Hp]. }
      assert (Hrun : pruns (d0, []) (tr ++ [p]) (d', vis')) by (econstructor; eauto).
      unfold ptask, Visitor.ptask in Ht. simpl in Ht.
      destruct (ready d p) eqn:Er; simpl in Ht; [|discriminate].
      change (Visitor.was_seen key keq vis p) with (was_seen vis p) in Ht.
      destruct (was_seen vis p) eqn:Es.
      + destruct (again d p) as [[d1 o1] [e|]] eqn:Ea; [discriminate|]. inversion Ht; subst; clear Ht.
        destruct (Hagain A Hm D Es Er Ea) as [-> HJ']. split; simpl; auto.
        exists (tr ++ [p]). split; [auto|]. split.
        * rewrite <- B2, <- app_assoc. reflexivity.
        * intros q Hq. apply in_app_or in Hq as [Hq|[<-|[]]]; auto.
      + destruct (first d p) as [[d1 o1] [e|]] eqn:Ea; [discriminate|]. inversion Ht; subst; clear Ht.
        destruct (Hfirst A Hm D Es Er Ea) as [Ho HJ']. split; simpl; auto.
        * exists (tr ++ [p]). split; [auto|]. split.
          -- rewrite flat_map_app. simpl. rewrite app_nil_r, <- Ho.
             change (p0 :: flat_map emit vis ++ out) with ((p0 :: flat_map emit vis) ++ out).
             rewrite <- B2. perm_solve.
          -- intros q Hq. apply in_app_or in Hq as [Hq|[<-|[]]].
             ++ destruct (B3 q Hq) as [E|E]; [left|right; apply in_or_app; auto].
                unfold was_seen, Visitor.was_seen in *. rewrite existsb_app, E. reflexivity.
             ++ right. apply in_or_app. simpl. auto.
        * apply FOP_snoc; auto. intros q Hq. destruct (keq (key p) (key q)) eqn:E; auto.
          assert (F : was_seen vis p = true); [|congruence].
          apply existsb_exists. eauto.
        * intros q Hq. apply in_app_or in Hq as [Hq|[<-|[]]]; auto.
    - split; simpl.
      + auto.
      + exists []. split; [constructor|]. split; [auto|]. intros p [].
      + constructor.
      + intros p [].
  Qed.

  (** What a complete sequential execution has done. *)
  Theorem serial_facts d0 d vis :
    J d0 [] -> (forall k, keq k k = true) -> serial key keq first again ready d0 p0 d vis ->
    J d vis /\
    (exists tr, pruns (d0, []) tr (d, vis) /\ Permutation tr (p0 :: flat_map emit vis)) /\
    ForallOrdPairs (fun q q' => keq (key q') (key q) = false) vis /\
    (forall p, In p vis -> mail p) /\
    (exists v, In v vis /\ keq (key p0) (key v) = true) /\
    (forall p q, In p vis -> In q (emit p) -> exists v, In v vis /\ keq (key q) (key v) = true).
  Proof.
    intros HJ Hrefl H. destruct (serial_inv_runs HJ H) as [A (tr & B1 & B2 & B3) C D]. simpl in *.
    rewrite app_nil_r in B2.
    assert (G : forall q, In q (p0 :: flat_map emit vis) -> exists v, In v vis /\ keq (key q) (key v) = true).
    { intros q Hq. eapply Permutation_in in Hq; [|symmetry; exact B2].
      destruct (B3 q Hq) as [E|E]; eauto. apply existsb_exists in E as (v & Hv & E). eauto. }
    split; [auto|]. split; [eauto|]. split; [auto|]. split; [auto|]. split.
    - apply G. simpl. auto.
    - intros p q Hp Hq. apply G. right. apply in_flat_map. eauto.
  Qed.
End Serial.

Lemma in_flat {A} n (f : nat -> list A) x : In x (flat n f) <-> exists i, i < n /\ In x (f i).
Proof.
  induction n; simpl.
  - split; [tauto|]. intros (i & H & _). lia.
  - rewrite in_app_iff, IHn. split.
    + intros [(i & Hi & H)|H]; [exists i|exists n]; split; auto; lia.
    + intros (i & Hi & H). destruct (Nat.eq_dec i n) as [->|]; auto. left. exists i. split; auto. lia.
Qed.

Section Terminate.
  Context {S P K : Type}.
  Variable X : env.
  Variable key : P -> K.
  Variable keq : K -> K -> bool.
  Variable hash : K -> N.
  Variables first again : S -> P -> S * list P * option error.
  Variable ready : S -> P -> bool.
  Hypothesis Hagain : forall d p d' out e, again d p = (d', out, e) -> out = [].
  (** All keys that can occur belong to one of finitely many classes. *)
  Variable U : list K.
  Variable good : P -> Prop.
  Hypothesis Hgood : forall d p d' out e, good p -> first d p = (d', out, e) -> forall q, In q out -> good q.
  Hypothesis HU : forall p, good p -> exists k, In k U /\ keq (key p) k = true.
  Hypothesis Heq : forall k k' u, keq k u = true -> keq k' u = true -> keq k k' = true.
  Hypothesis Hcompat : forall k k', keq k k' = true -> hash k = hash k'.

  Let vtask := vtask X key keq hash first again ready.
  Let vdest := vdest X key hash.

  (** The keys of [U] not yet seen by lane [l]. *)
  Definition unseen (s : @vst S K) : nat :=
    length (filter (fun u => negb (existsb (fun k => keq k u) (flat (lanes X) (seen s)))) U).

  Lemma filter_shrinks {A} (f g : A -> bool) l x :
    (forall y, In y l -> g y = true -> f y = true) -> In x l -> f x = true -> g x = false ->
    length (filter g l) < length (filter f l).
  Proof.
    intros H Hx Hf Hg.
    assert (G : forall l, (forall y, In y l -> g y = true -> f y = true) -> length (filter g l) <= length (filter f l)).
    { induction l0 as [|y l0 IH]; simpl; intros H0; auto.
      assert (IH' := IH (fun z Hz => H0 z (or_intror Hz))). specialize (H0 y (or_introl eq_refl)).
      destruct (g y), (f y); simpl; lia. }
    induction l as [|y l IH]; [destruct Hx|]. simpl.
    destruct Hx as [->|Hx].
    - rewrite Hf, Hg. simpl. specialize (G l (fun z Hz => H z (or_intror Hz))). lia.
    - assert (IH' := IH (fun z Hz => H z (or_intror Hz)) Hx).
      specialize (H y (or_introl eq_refl)). destruct (g y), (f y); simpl; lia.
  Qed.

  Theorem visit_terminates d0 p0 :
    (forall p, vdest p < lanes X) -> good p0 -> terminates vtask (vstart d0, [p0]).
  Proof.
    intros Hl Hg. apply lex_inv_terminates with (m := unseen)
      (I := fun s b => (forall p, In p b -> good p) /\ forall l k, In k (seen s l) -> lane_of (lanes X) (hash k) = l).
    - intros s b b' Hp [H H']. split; [|auto]. intros p Hin. apply H. eapply Permutation_in; [symmetry; exact Hp|auto].
    - intros s p R s' out [HI HL] Ht. unfold vtask, Visitor.vtask in Ht.
      assert (HgR : forall q, In q R -> good q) by (intros; apply HI; simpl; auto).
      assert (Hgp : good p) by (apply HI; simpl; auto).
      destruct (halted X key hash s p).
      { inversion Ht; subst. split; [split; auto|]. right. auto. }
      destruct (negb (ready (data s) p)); [discriminate|].
      destruct (have_seen X key keq hash s p) eqn:Es.
      + destruct (again (data s) p) as [[d o] e] eqn:Ea. inversion Ht; subst.
        apply Hagain in Ea. subst. split; [split; auto|]. right. auto.
      + destruct (first (data s) p) as [[d o] e] eqn:Ea. inversion Ht; subst; clear Ht.
        split; [split|].
        * intros q Hq. apply in_app_or in Hq as [Hq|Hq]; auto. apply (Hgood Hgp Ea q Hq).
        * simpl. intros l k. unfold upd. destruct (Nat.eqb_spec l (Visitor.vdest X key hash p)) as [->|]; auto.
          intros [<-|Hk]; auto.
        * left. destruct (HU Hgp) as (u & Hu & Eu). unfold unseen. simpl.
          apply filter_shrinks with (x := u); auto.
          -- intros y Hy H. apply negb_true_iff in H. apply negb_true_iff.
             destruct (existsb (fun k => keq k y) (flat (lanes X) (seen s))) eqn:E; auto.
             apply existsb_exists in E as (k & Hk & Ek).
             assert (Hin : In k (flat (lanes X) (upd (seen s) (vdest p) (key p :: seen s (vdest p))))).
             { apply in_flat in Hk as (i & Hi & Hk). apply in_flat. exists i. split; auto.
               unfold upd. destruct (Nat.eqb_spec i (vdest p)) as [->|]; simpl; auto. }
             rewrite <- H. symmetry. apply existsb_exists. eauto.
          -- apply negb_true_iff.
             destruct (existsb (fun k => keq k u) (flat (lanes X) (seen s))) eqn:E; auto.
             exfalso. apply existsb_exists in E as (k & Hk & Ek).
             apply in_flat in Hk as (i & Hi & Hk). pose proof (HL i k Hk) as Hlane.
             pose proof (Heq Eu Ek) as Epk.
             assert (F : have_seen X key keq hash s p = true); [|congruence].
             apply existsb_exists. exists k. split; auto.
             unfold Visitor.vdest. rewrite (Hcompat Epk), Hlane. auto.
          -- apply negb_false_iff. apply existsb_exists. exists (key p). split; auto.
             apply in_flat. exists (vdest p). split; auto. rewrite upd_same. simpl. auto.
    - split; [intros p [<-|[]]; auto|]. intros l k [].
  Qed.
End Terminate.
