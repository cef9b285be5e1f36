(** * Accepted specifications are complete (C44) and signatures (C64-C66)

    The predicates below describe specification structures as the manual
    does (man/man7/cru_fold.7.in, cru_order.7.in, cru_prop.7.in and the page
    of each top level structure): which operators the application has given,
    which ones a library function may call, and what the documented defaults
    are.  None of them uses the library's own predicates. *)

From Coq Require Import List Arith Bool Lia.
From Verif Require Import Infer.
Import ListNotations.
Set Implicit Arguments.

(** ** What an application can give *)

(** A field holding a function of the user's. *)
Definition given (p : ptr) : Prop := exists n, p = Some (User n).

(** A field as an application can initialize it. *)
Definition plain (p : ptr) : Prop := p = None \/ given p.

Definition plain_order (o : order) := plain (o_hash o) /\ plain (o_equal o).

Definition plain_fold (m : fold) :=
  plain (f_map m) /\ plain (f_bmap m) /\ plain (f_reduction m) /\ plain (f_vacuous m)
  /\ plain (f_rfree m) /\ plain (f_mfree m).

Definition plain_prop (p : prop) :=
  plain_fold (p_vertex p) /\ plain_fold (p_incident p) /\ plain_fold (p_outgoing p).

Definition plain_sig (s : sig) :=
  plain_order (s_vorder s) /\ plain_order (s_eorder s) /\ plain (s_vfree s) /\ plain (s_efree s).

(** ** What the library can call *)

(** The stand-ins whose calling is an internal error (src/repl.c:31-42,
    73-84, 184-191, 227-238, 308-318). *)
Definition stand_in (f : fn) : Prop :=
  f = UndefinedHash \/ f = UndefinedBpred \/ f = UndefinedTop \/ f = UndefinedBop
  \/ f = UndefinedNop.

Definition callable (p : ptr) : Prop := exists f, p = Some f /\ ~ stand_in f.

Definition complete_order (o : order) := callable (o_hash o) /\ callable (o_equal o).

(** Exactly one of the map and the bmap is defined. *)
Definition mapping (m : fold) : Prop :=
  (callable (f_map m) /\ f_bmap m = None) \/ (f_map m = None /\ callable (f_bmap m)).

(** The types agree, as far as the destructors tell: "the simpler way
    requires the results of the map and the reduction to have identical
    types" (cru_fold(7)). *)
Definition agreeing (m : fold) : Prop := f_vacuous m = None -> f_mfree m = f_rfree m.

(** Everything is there to evaluate a fold over any nonempty set. *)
Definition evaluable (m : fold) : Prop :=
  mapping m /\ callable (f_reduction m) /\ agreeing m.

(** An edge fold is either not specified, or evaluable. *)
Definition optional (m m' : fold) : Prop := (m = fold0 /\ m' = fold0) \/ evaluable m'.

(** Everything is there to evaluate the property of a vertex. *)
Definition property (p p' : prop) : Prop :=
  mapping (p_vertex p') /\ optional (p_incident p) (p_incident p')
  /\ optional (p_outgoing p) (p_outgoing p').

(** ** What must not change, and the documented defaults *)

(** What the application gave is kept. *)
Definition kept (x y : ptr) : Prop := forall f, x = Some f -> y = Some f.

Definition kept_order (o o' : order) := kept (o_hash o) (o_hash o') /\ kept (o_equal o) (o_equal o').

Definition kept_fold (m m' : fold) :=
  kept (f_map m) (f_map m') /\ kept (f_bmap m) (f_bmap m')
  /\ kept (f_reduction m) (f_reduction m') /\ f_vacuous m' = f_vacuous m
  /\ f_mfree m' = f_mfree m.

(** "a default map operator that unconditionally returns its middle operand",
    "a default reduction operator that returns the lesser of its two
    operands" (cru_fold(7)). *)
Definition default_map (m m' : fold) :=
  f_map m = None -> f_bmap m = None -> f_map m' = Some IdentityTop /\ f_bmap m' = None.

Definition default_reduction (m m' : fold) :=
  f_reduction m = None -> f_reduction m' = Some MinimizingBop /\ f_rfree m = None.

(** "cru infers a pointer equality relation and a built in hash function"
    (cru_order(7)). *)
Definition scalar_defaults (o o' : order) :=
  (o_hash o = None -> o_hash o' = Some ScalarHash)
  /\ (o_equal o = None -> o_equal o' = Some EqualityBpred).

(** ** Causes of rejection (the ERRORS sections) *)

(** An internal error is reported for a fold having both maps, of which the
    manual only says that "at most one map or bmap function may be
    defined". *)
Definition both_maps (m : fold) := f_map m <> None /\ f_bmap m <> None.

Definition destructible (m : fold) := f_mfree m <> None \/ f_rfree m <> None.

Definition no_map (m : fold) := f_map m = None /\ f_bmap m = None /\ destructible m.

Definition no_reduction (m : fold) := f_reduction m = None /\ destructible m.

Definition disagreeing (m : fold) := f_vacuous m = None /\ f_mfree m <> f_rfree m.

Definition map_fault (m : fold) (c : code) : Prop :=
  (c = IER 820 /\ both_maps m) \/ (c = UNDMAP /\ no_map m)
  \/ (c = TPCMPR /\ disagreeing m /\ f_reduction m <> None).

Definition fold_fault (m : fold) (c : code) : Prop :=
  (c = IER 820 /\ both_maps m) \/ (c = UNDMAP /\ no_map m)
  \/ (c = UNDRED /\ no_reduction m) \/ (c = TPCMPR /\ disagreeing m).

Definition prop_fault (p : prop) (c : code) : Prop :=
  map_fault (p_vertex p) c \/ fold_fault (p_incident p) c \/ fold_fault (p_outgoing p) c.

(** ** Lemmas *)

Lemma peqP a b : reflect (a = b) (peq a b).
Proof. unfold peq. destruct (ptr_eq_dec a b); constructor; auto. Qed.

Lemma peq_lib x d : plain x -> (forall k, d <> User k) -> peq x (Some d) = false.
Proof.
  intros P D. destruct (peqP x (Some d)) as [E|E]; auto. subst.
  destruct P as [P|(n & P)]; [discriminate|]. injection P as P. destruct (D n P).
Qed.

Lemma differs_lib x d : plain x -> (forall k, d <> User k) -> differs x d = nonnull x.
Proof. intros P D. unfold differs. rewrite (peq_lib P D). apply andb_true_r. Qed.

Lemma plain_callable x : plain x -> x <> None -> callable x.
Proof.
  intros [P|(n & P)] Hn; [easy|]. exists (User n). split; auto.
  intros [S|[S|[S|[S|S]]]]; discriminate.
Qed.

Lemma given_callable x : given x -> callable x.
Proof. intros G. apply plain_callable; [right; auto|]. destruct G as (n & ->). discriminate. Qed.

Lemma lib_callable f :
  f <> UndefinedHash -> f <> UndefinedBpred -> f <> UndefinedTop -> f <> UndefinedBop ->
  f <> UndefinedNop -> callable (Some f).
Proof.
  intros A B C D E. exists f. split; auto. intros [S|[S|[S|[S|S]]]]; auto.
Qed.

#[local] Hint Extern 2 (callable (Some _)) => (apply lib_callable; discriminate) : infer.
#[local] Hint Resolve plain_callable given_callable : infer.

Lemma nonnull_not x : nonnull x = true <-> x <> None.
Proof. destruct x; simpl; split; congruence. Qed.

Lemma null_is x : nonnull x = false <-> x = None.
Proof. destruct x; simpl; split; congruence. Qed.

Lemma kept_refl x : kept x x.
Proof. intros f E. exact E. Qed.

Lemma kept_allow x y : kept x (allow x y).
Proof. intros f E. subst. reflexivity. Qed.

#[local] Hint Resolve kept_refl kept_allow : infer.

(** Case analysis of a field. *)
Ltac cases :=
  repeat match goal with
  | H : _ /\ _ |- _ => destruct H
  | H : plain ?x |- _ =>
      let n := fresh "n" in destruct H as [->|(n & ->)]
  end.

(** What remains of inference on a fold as an application can give it. *)
Lemma filled_fold_plain m :
  plain_fold m ->
  filled_fold m =
  if nonnull (f_map m) && nonnull (f_bmap m) then bad (IER 820)
  else if negb (nonnull (f_mfree m)) && negb (nonnull (f_rfree m)) then
    ok (mkFold (if nonnull (f_bmap m) then f_map m else allow (f_map m) (Some IdentityTop))
               (f_bmap m) (allow (f_reduction m) (Some MinimizingBop)) (f_vacuous m)
               (f_rfree m) (f_mfree m))
  else if negb (nonnull (f_map m)) && negb (nonnull (f_bmap m)) then bad UNDMAP
  else if negb (nonnull (f_reduction m)) then bad UNDRED
  else if nonnull (f_vacuous m) then ok m
  else if peq (f_mfree m) (f_rfree m) then ok m else bad TPCMPR.
Proof.
  destruct m as [a b r v rf mf]. unfold plain_fold. simpl. intros P. cases;
  unfold filled_fold, filled_fold_map, filled_fold_reduction, filled_fold_destructors,
         differs, unless, bind, set_map, set_bmap, set_reduction, set_mfree, set_rfree; simpl;
  try reflexivity;
  repeat (match goal with
  | |- context [peq (Some (User ?n)) (Some ?f)] =>
      match f with
      | User _ => fail 1
      | _ => change (peq (Some (User n)) (Some f)) with false
      end
  | |- context [peq (Some IdentityTop) (Some ?f)] =>
      change (peq (Some IdentityTop) (Some f)) with false
  end; simpl); try reflexivity;
  try (destruct (peq _ _); reflexivity).
Qed.

(** ** Folds *)

Theorem C44_fold_accepted m m' :
  plain_fold m -> filled_fold m = ok m' ->
  evaluable m' /\ kept_fold m m' /\ f_rfree m' = f_rfree m
  /\ default_map m m' /\ default_reduction m m'.
Proof.
  intros P E. rewrite (filled_fold_plain P) in E. revert P E.
  destruct m as [a b r v rf mf]. unfold plain_fold. simpl. intros P E.
  unfold evaluable, mapping, agreeing, kept_fold, default_map, default_reduction.
  cases; simpl in *; try discriminate;
  try (match goal with H : context [peq ?x ?y] |- _ => destruct (peqP x y) as [Q|Q]; [|discriminate] end);
  injection E as <-; simpl; repeat split; auto with infer; try discriminate; try congruence;
  try solve [left; split; auto with infer; apply given_callable; eexists; reflexivity];
  try solve [right; split; auto with infer; apply given_callable; eexists; reflexivity];
  try solve [apply given_callable; eexists; reflexivity];
  try solve [intros f Hf; discriminate].
Qed.

Theorem C44_fold_rejected m c :
  plain_fold m -> filled_fold m = bad c -> fold_fault m c.
Proof.
  intros P E. rewrite (filled_fold_plain P) in E. revert P E.
  destruct m as [a b r v rf mf]. unfold plain_fold, fold_fault, both_maps, no_map, no_reduction,
    disagreeing, destructible. simpl. intros P E.
  cases; simpl in *; try discriminate;
  try (match goal with H : context [peq ?x ?y] |- _ => destruct (peqP x y) as [Q|Q]; [discriminate|] end);
  injection E as <-;
  try solve [left; repeat split; auto; discriminate];
  try solve [right; left; repeat split; auto; solve [left; discriminate | right; discriminate]];
  try solve [right; right; left; repeat split; auto; solve [left; discriminate | right; discriminate]];
  try solve [right; right; right; repeat split; auto; discriminate].
Qed.

(** Conversely, nothing is accepted that has a fault. *)
Theorem C44_fold_faults m c :
  plain_fold m -> fold_fault m c -> exists c', filled_fold m = bad c' /\ fold_fault m c'.
Proof.
  intros P F. destruct (filled_fold m) as [m'|c'] eqn:E.
  - exfalso. rewrite (filled_fold_plain P) in E. revert P E F.
    destruct m as [a b r v rf mf]. unfold plain_fold, fold_fault, both_maps, no_map, no_reduction,
      disagreeing, destructible. simpl. intros P E F.
    cases; simpl in *; try discriminate;
    try (match goal with H : context [peq ?x ?y] |- _ => destruct (peqP x y) as [Q|Q]; [|discriminate] end);
    destruct F as [F|[F|[F|F]]]; cases; try congruence;
    repeat match goal with H : _ \/ _ |- _ => destruct H end; congruence.
  - exists c'. split; auto. apply C44_fold_rejected; auto.
Qed.

(** The fold of the example in cru_fold(7), and one that relies on every
    default. *)
Example C44_fold_accepted_ex :
  filled_fold (mkFold (Some (User 1)) None (Some (User 2)) None None None)
  = ok (mkFold (Some (User 1)) None (Some (User 2)) None None None)
  /\ filled_fold (mkFold None None None (Some (User 3)) None None)
     = ok (mkFold (Some IdentityTop) None (Some MinimizingBop) (Some (User 3)) None None).
Proof. split; reflexivity. Qed.

Example C44_fold_rejected_ex :
  filled_fold (mkFold (Some (User 1)) None (Some (User 2)) None (Some (User 3)) (Some (User 4)))
  = bad TPCMPR.
Proof. reflexivity. Qed.

(** "If both the r_free and the reduction fields are NULL, then cru infers a
    default reduction operator" (cru_fold(7)), but not if there is an m_free:
    src/defo.c:245 tests both destructors. *)
Theorem C44_default_reduction_refuted :
  exists m, plain_fold m /\ f_rfree m = None /\ f_reduction m = None
    /\ f_map m <> None /\ f_vacuous m <> None
    /\ filled_fold m = bad UNDRED.
Proof.
  exists (mkFold (Some (User 1)) None None (Some (User 2)) None (Some (User 3))).
  unfold plain_fold, plain, given. simpl.
  repeat split; eauto 7; discriminate.
Qed.

(** It is so in general. *)
Theorem C44_default_reduction_partial m :
  plain_fold m -> f_rfree m = None -> f_reduction m = None -> ~ both_maps m ->
  (f_mfree m = None -> exists m', filled_fold m = ok m' /\ f_reduction m' = Some MinimizingBop)
  /\ (f_mfree m <> None -> exists c, filled_fold m = bad c /\ (c = UNDRED \/ c = UNDMAP)).
Proof.
  intros P. rewrite (filled_fold_plain P). revert P.
  destruct m as [a b r v rf mf]. unfold plain_fold, both_maps. simpl. intros P -> -> B.
  cases; simpl; split; intros H; try congruence; eauto; destruct B; split; discriminate.
Qed.

(** ** Folds of which only the map is used *)

Definition with_undefined (m : fold) : fold :=
  set_reduction m (allow (f_reduction m) (Some UndefinedBop)).

Lemma filled_map_plain m :
  plain_fold m ->
  filled_map m =
  if nonnull (f_map m) && nonnull (f_bmap m) then bad (IER 820)
  else if negb (nonnull (f_mfree m)) && negb (nonnull (f_rfree m)) then
    ok (mkFold (if nonnull (f_bmap m) then f_map m else allow (f_map m) (Some IdentityTop))
               (f_bmap m) (allow (f_reduction m) (Some UndefinedBop)) (f_vacuous m)
               (f_rfree m) (f_mfree m))
  else if negb (nonnull (f_map m)) && negb (nonnull (f_bmap m)) then bad UNDMAP
  else if nonnull (f_reduction m) then
    if nonnull (f_vacuous m) then ok m
    else if peq (f_mfree m) (f_rfree m) then ok m else bad TPCMPR
  else ok (mkFold (f_map m) (f_bmap m) (Some UndefinedBop) (f_vacuous m) (f_mfree m) (f_mfree m)).
Proof.
  destruct m as [a b r v rf mf]. unfold plain_fold. simpl. intros P. cases;
  unfold filled_map, filled_fold, filled_fold_map, filled_fold_reduction, filled_fold_destructors,
         differs, unless, bind, set_map, set_bmap, set_reduction, set_mfree, set_rfree; simpl;
  try reflexivity;
  repeat (match goal with
  | |- context [peq (Some (User ?n)) (Some ?f)] =>
      match f with
      | User _ => fail 1
      | _ => change (peq (Some (User n)) (Some f)) with false
      end
  | |- context [peq (Some UndefinedBop) (Some UndefinedBop)] =>
      change (peq (Some UndefinedBop) (Some UndefinedBop)) with true
  | |- context [peq (Some IdentityTop) (Some ?f)] =>
      change (peq (Some IdentityTop) (Some f)) with false
  end; simpl); try reflexivity;
  try (match goal with |- context [peq ?x ?y] => destruct (peqP x y); simpl; solve [reflexivity | congruence] end).
Qed.

Theorem C44_map_accepted m m' :
  plain_fold m -> filled_map m = ok m' ->
  mapping m' /\ kept_fold m m' /\ default_map m m'
  /\ (f_reduction m <> None -> evaluable m' /\ f_rfree m' = f_rfree m).
Proof.
  intros P E. rewrite (filled_map_plain P) in E. revert P E.
  destruct m as [a b r v rf mf]. unfold plain_fold. simpl. intros P E.
  unfold evaluable, mapping, agreeing, kept_fold, default_map.
  cases; simpl in *; try discriminate;
  try (match goal with H : context [peq ?x ?y] |- _ => destruct (peqP x y) as [Q|Q]; [|discriminate] end);
  injection E as <-; simpl; repeat split; auto with infer; try discriminate; try congruence;
  try solve [left; split; auto with infer; apply given_callable; eexists; reflexivity];
  try solve [right; split; auto with infer; apply given_callable; eexists; reflexivity];
  try solve [apply given_callable; eexists; reflexivity];
  try solve [intros f Hf; discriminate].
Qed.

Theorem C44_map_rejected m c :
  plain_fold m -> filled_map m = bad c -> map_fault m c.
Proof.
  intros P E. rewrite (filled_map_plain P) in E. revert P E.
  destruct m as [a b r v rf mf]. unfold plain_fold, map_fault, both_maps, no_map,
    disagreeing, destructible. simpl. intros P E.
  cases; simpl in *; try discriminate;
  try (match goal with H : context [peq ?x ?y] |- _ => destruct (peqP x y) as [Q|Q]; [discriminate|] end);
  injection E as <-;
  try solve [left; repeat split; auto; discriminate];
  try solve [right; left; repeat split; auto; solve [left; discriminate | right; discriminate]];
  try solve [right; right; repeat split; auto; discriminate].
Qed.

Example C44_map_accepted_ex :
  filled_map (mkFold (Some (User 1)) None None None None (Some (User 3)))
  = ok (mkFold (Some (User 1)) None (Some UndefinedBop) None (Some (User 3)) (Some (User 3))).
Proof. reflexivity. Qed.

(** Filling a fold that has been filled changes nothing. *)
Lemma filled_map_again m m' :
  plain_fold m -> filled_map m = ok m' -> filled_fold m' = ok m'.
Proof.
  intros P E. rewrite (filled_map_plain P) in E. revert P E.
  destruct m as [a b r v rf mf]. unfold plain_fold. simpl. intros P E.
  cases; simpl in *; try discriminate;
  try (match goal with H : context [peq ?x ?y] |- _ => destruct (peqP x y) as [Q|Q]; [|discriminate] end);
  injection E as <-;
  unfold filled_fold, filled_fold_map, filled_fold_reduction, filled_fold_destructors,
         differs, unless, bind, set_map, set_bmap, set_reduction, set_mfree, set_rfree; simpl;
  try reflexivity;
  repeat (match goal with
  | |- context [peq (Some (User ?n)) (Some ?f)] =>
      match f with
      | User _ => fail 1
      | _ => change (peq (Some (User n)) (Some f)) with false
      end
  | |- context [peq (Some UndefinedBop) (Some UndefinedBop)] =>
      change (peq (Some UndefinedBop) (Some UndefinedBop)) with true
  | |- context [peq (Some IdentityTop) (Some ?f)] =>
      change (peq (Some IdentityTop) (Some f)) with false
  end; simpl); try reflexivity;
  try (match goal with |- context [peq ?x ?y] => destruct (peqP x y); simpl; solve [reflexivity | congruence] end).
Qed.

(** ** Empty structures *)

Lemma empty_fold_plain m : plain_fold m -> (empty_fold m = true <-> m = fold0).
Proof.
  destruct m as [a b r v rf mf]. unfold plain_fold, fold0. simpl. intros P.
  cases; unfold empty_fold, differs; simpl; split; intros H; try discriminate; auto.
Qed.

Lemma empty_prop_plain p : plain_prop p -> (empty_prop p = true <-> p = prop0).
Proof.
  intros (A & B & C). unfold empty_prop, prop0. destruct p as [v i o]; simpl in *.
  pose proof (empty_fold_plain A) as EA. pose proof (empty_fold_plain B) as EB.
  pose proof (empty_fold_plain C) as EC.
  rewrite !andb_true_iff, EA, EB, EC. split.
  - intros ((-> & ->) & ->). auto.
  - intros H. injection H as -> -> ->. auto.
Qed.

Lemma empty_order_plain o : plain_order o -> (empty_order o = true <-> o = order0).
Proof.
  destruct o as [h e]. unfold plain_order, order0. simpl. intros P.
  cases; unfold empty_order, differs; simpl; split; intros H; try discriminate; auto.
Qed.

(** ** Optional edge folds and properties *)

Lemma optional_accepted m m' :
  plain_fold m -> filled_unless_empty m = ok m' -> optional m m' /\ kept_fold m m'.
Proof.
  intros P. unfold filled_unless_empty, optional. destruct (empty_fold m) eqn:E.
  - apply (empty_fold_plain P) in E. subst. intros H. injection H as <-.
    split; auto. unfold kept_fold. repeat split; auto with infer.
  - intros H. destruct (C44_fold_accepted P H) as (A & B & _). auto.
Qed.

Lemma optional_rejected m c :
  plain_fold m -> filled_unless_empty m = bad c -> fold_fault m c.
Proof.
  intros P. unfold filled_unless_empty. destruct (empty_fold m); [discriminate|].
  apply C44_fold_rejected; auto.
Qed.

Definition kept_prop (p p' : prop) :=
  kept_fold (p_vertex p) (p_vertex p') /\ kept_fold (p_incident p) (p_incident p')
  /\ kept_fold (p_outgoing p) (p_outgoing p').

(** A property in which the vertex is not to be reduced. *)
Lemma map_prop_accepted p p' :
  plain_prop p -> filled_map_prop p = ok p' ->
  property p p' /\ kept_prop p p' /\ default_map (p_vertex p) (p_vertex p').
Proof.
  intros (A & B & C). unfold filled_map_prop, filled_prop.
  destruct (filled_map (p_vertex p)) as [v|c] eqn:E; [|discriminate]. simpl.
  destruct (filled_unless_empty (p_incident p)) as [i|c] eqn:Ei; [|discriminate]. simpl.
  destruct (filled_unless_empty (p_outgoing p)) as [o|c] eqn:Eo; [|discriminate]. simpl.
  rewrite (filled_map_again A E). simpl. intros H. injection H as <-.
  destruct (C44_map_accepted A E) as (M & K & D & _).
  destruct (optional_accepted B Ei) as (Oi & Ki). destruct (optional_accepted C Eo) as (Oo & Ko).
  unfold property, kept_prop; simpl. auto 10.
Qed.

Lemma map_prop_rejected p c :
  plain_prop p -> filled_map_prop p = bad c -> prop_fault p c.
Proof.
  intros (A & B & C). unfold filled_map_prop, filled_prop, prop_fault.
  destruct (filled_map (p_vertex p)) as [v|c'] eqn:E; simpl.
  2: { intros H. injection H as <-. left. apply C44_map_rejected; auto. }
  destruct (filled_unless_empty (p_incident p)) as [i|c'] eqn:Ei; simpl.
  2: { intros H. injection H as <-. right. left. apply optional_rejected; auto. }
  destruct (filled_unless_empty (p_outgoing p)) as [o|c'] eqn:Eo; simpl.
  2: { intros H. injection H as <-. right. right. apply optional_rejected; auto. }
  rewrite (filled_map_again A E). discriminate.
Qed.

(** A property in which the vertices are to be reduced as well. *)
Lemma prop_accepted p p' :
  plain_prop p -> filled_prop p = ok p' ->
  property p p' /\ evaluable (p_vertex p') /\ kept_prop p p'
  /\ f_rfree (p_vertex p') = f_rfree (p_vertex p)
  /\ default_map (p_vertex p) (p_vertex p') /\ default_reduction (p_vertex p) (p_vertex p').
Proof.
  intros (A & B & C). unfold filled_prop.
  destruct (filled_unless_empty (p_incident p)) as [i|c] eqn:Ei; [|discriminate]. simpl.
  destruct (filled_unless_empty (p_outgoing p)) as [o|c] eqn:Eo; [|discriminate]. simpl.
  destruct (filled_fold (p_vertex p)) as [v|c] eqn:E; [|discriminate]. simpl.
  intros H. injection H as <-.
  destruct (C44_fold_accepted A E) as (M & K & R & D & D').
  destruct (optional_accepted B Ei) as (Oi & Ki). destruct (optional_accepted C Eo) as (Oo & Ko).
  unfold property, kept_prop; simpl. destruct M as (M1 & M2). unfold evaluable. auto 12.
Qed.

Definition reduced_prop_fault (p : prop) (c : code) : Prop :=
  fold_fault (p_vertex p) c \/ fold_fault (p_incident p) c \/ fold_fault (p_outgoing p) c.

Lemma prop_rejected p c :
  plain_prop p -> filled_prop p = bad c -> reduced_prop_fault p c.
Proof.
  intros (A & B & C). unfold filled_prop, reduced_prop_fault.
  destruct (filled_unless_empty (p_incident p)) as [i|c'] eqn:Ei; simpl.
  2: { intros H. injection H as <-. right. left. apply optional_rejected; auto. }
  destruct (filled_unless_empty (p_outgoing p)) as [o|c'] eqn:Eo; simpl.
  2: { intros H. injection H as <-. right. right. apply optional_rejected; auto. }
  destruct (filled_fold (p_vertex p)) as [v|c'] eqn:E; simpl; [discriminate|].
  intros H. injection H as <-. left. apply C44_fold_rejected; auto.
Qed.

(** ** Orders and signatures *)

(** Every field is of its type: no other function is ever stored there. *)
Definition typed_order (o : order) : Prop :=
  (plain (o_hash o) \/ o_hash o = Some UndefinedHash \/ o_hash o = Some ScalarHash)
  /\ (plain (o_equal o) \/ o_equal o = Some UndefinedBpred \/ o_equal o = Some EqualityBpred
      \/ o_equal o = Some FalseBpred).

(** No stand-in is stored. *)
Definition settled (o : order) : Prop :=
  typed_order o /\ o_hash o <> Some UndefinedHash /\ o_equal o <> Some UndefinedBpred.

(** A comparison is required but not available. *)
Definition order_fault (o : order) (c : code) : Prop :=
  (c = UNDHSH /\ ~ callable (o_hash o)) \/ (c = UNDEQU /\ ~ callable (o_equal o)).

(** The same for an order an application gives: the error is reported if
    something is missing for operands that have a destructor. *)
Definition missing_order (o : order) (d : ptr) (c : code) : Prop :=
  d <> None /\ ((c = UNDHSH /\ o_hash o = None) \/ (c = UNDEQU /\ o_equal o = None)).

Lemma plain_settled o : plain_order o -> settled o.
Proof.
  intros (A & B). split; [split; auto|].
  destruct A as [->|(n & ->)], B as [->|(k & ->)]; split; discriminate.
Qed.

Lemma not_callable x : x = None \/ (exists f, x = Some f /\ stand_in f) -> ~ callable x.
Proof.
  intros [->|(f & -> & S)] (g & E & N); [discriminate|]. injection E as <-. auto.
Qed.

Lemma full_order_rejected o c : full_order o = bad c -> order_fault o c.
Proof.
  unfold full_order, differs, unless, order_fault. destruct o as [h e]; simpl.
  destruct h as [h|]; simpl.
  2: { intros E. injection E as <-. left. split; auto. apply not_callable; auto. }
  destruct (peqP (Some h) (Some UndefinedHash)) as [Q|Q]; simpl.
  { intros E. injection E as <-. left. split; auto. apply not_callable. right.
    exists h. injection Q as ->. split; auto. unfold stand_in. auto. }
  destruct e as [e|]; simpl.
  2: { intros E. injection E as <-. right. split; auto. apply not_callable; auto. }
  destruct (peqP (Some e) (Some UndefinedBpred)) as [Q'|Q']; simpl; [|discriminate].
  intros E. injection E as <-. right. split; auto. apply not_callable. right.
  exists e. injection Q' as ->. split; auto. unfold stand_in. auto.
Qed.

Lemma full_order_accepted o u : typed_order o -> full_order o = ok u -> complete_order o.
Proof.
  unfold full_order, differs, unless, complete_order, typed_order. destruct o as [h e]; simpl.
  intros (A & B).
  destruct h as [h|]; simpl; [|discriminate].
  destruct (peqP (Some h) (Some UndefinedHash)) as [Q|Q]; simpl; [discriminate|].
  destruct e as [e|]; simpl; [|discriminate].
  destruct (peqP (Some e) (Some UndefinedBpred)) as [Q'|Q']; simpl; [discriminate|].
  intros _. split.
  - destruct A as [[A|A]|[A|A]]; try congruence; auto with infer. rewrite A. auto with infer.
  - destruct B as [[B|B]|[B|[B|B]]]; try congruence; auto with infer; rewrite B; auto with infer.
Qed.

Lemma complete_full o : complete_order o -> full_order o = ok tt.
Proof.
  intros ((h & H & Nh) & (e & E & Ne)). unfold full_order, differs, unless. rewrite H, E. simpl.
  destruct (peqP (Some h) (Some UndefinedHash)) as [Q|Q]; simpl.
  { destruct Nh. injection Q as ->. unfold stand_in; auto. }
  destruct (peqP (Some e) (Some UndefinedBpred)) as [Q'|Q']; simpl; auto.
  destruct Ne. injection Q' as ->. unfold stand_in; auto.
Qed.

Lemma scalar_complete o :
  settled o -> complete_order (allow_scalar_order o) /\ kept_order o (allow_scalar_order o)
  /\ scalar_defaults o (allow_scalar_order o).
Proof.
  destruct o as [h e]. unfold settled, typed_order, complete_order, kept_order, scalar_defaults,
    allow_scalar_order. simpl. intros ((A & B) & Nh & Ne).
  repeat split; auto with infer; try (intros ->; reflexivity).
  - destruct h as [h|]; simpl; auto with infer.
    destruct A as [[A|A]|[A|A]]; try congruence; auto with infer; rewrite A; auto with infer.
  - destruct e as [e|]; simpl; auto with infer.
    destruct B as [[B|B]|[B|[B|B]]]; try congruence; auto with infer; rewrite B; auto with infer.
Qed.

Lemma complete_scalar o : complete_order o -> allow_scalar_order o = o.
Proof. destruct o as [h e]. intros ((f & H & _) & (g & E & _)). simpl in *. subst. reflexivity. Qed.

Lemma callable_none : ~ callable None.
Proof. intros (f & E & _). discriminate. Qed.

Lemma plain_not_callable x : plain x -> ~ callable x -> x = None.
Proof. intros [P|P] N; auto. destruct N. auto with infer. Qed.

Lemma kept_order_refl o : kept_order o o.
Proof. split; auto with infer. Qed.
#[local] Hint Resolve kept_order_refl plain_settled : infer.

(** ** Building *)

Definition plain_builder (b : builder) :=
  plain (b_connector b) /\ plain (b_subconnector b) /\ plain_sig (b_sig b).

(** Case analysis on every field of structures of orders. *)
Ltac split_orders :=
  unfold plain_sig, plain_order in *; simpl in *; cases.

(** Goals about concrete fields. *)
Ltac fields :=
  simpl; repeat match goal with
  | |- _ /\ _ => split
  | |- callable (Some _) => apply lib_callable; discriminate
  | |- kept _ _ => let f := fresh "f" in intros f; intros; first [discriminate | assumption | congruence]
  | |- complete_order _ => unfold complete_order; simpl
  | |- kept_order _ _ => unfold kept_order; simpl
  | |- scalar_defaults _ _ => unfold scalar_defaults; simpl
  | |- given (Some (User _)) => eexists; reflexivity
  | |- ?x = ?x => reflexivity
  | |- _ -> _ => intros; try discriminate
  end.

Theorem C44_builder_accepted r b b' :
  plain_builder b -> inferred_builder r b = ok b' ->
  ((given (b_connector b') /\ b_subconnector b' = None)
   \/ (b_connector b' = None /\ given (b_subconnector b')))
  /\ b_connector b' = b_connector b /\ b_subconnector b' = b_subconnector b
  /\ complete_order (s_vorder (b_sig b')) /\ complete_order (s_eorder (b_sig b'))
  /\ kept_order (s_vorder (b_sig b)) (s_vorder (b_sig b'))
  /\ kept_order (s_eorder (b_sig b)) (s_eorder (b_sig b'))
  /\ (s_vfree (b_sig b) = None -> scalar_defaults (s_vorder (b_sig b)) (s_vorder (b_sig b')))
  /\ (s_efree (b_sig b) = None -> scalar_defaults (s_eorder (b_sig b)) (s_eorder (b_sig b')))
  /\ s_vfree (b_sig b') = s_vfree (b_sig b) /\ s_efree (b_sig b') = s_efree (b_sig b)
  /\ s_limit (b_sig b') = s_limit (b_sig b) /\ r = ok true.
Proof.
  destruct b as [c sc [lim [vh ve] [eh ee] vf ef]]. intros (Pc & Ps & P) E. split_orders;
  destruct r as [[]|]; cbv in E; try discriminate;
  match goal with E : ok _ = ok _ |- _ => injection E as <- end; fields;
  first [solve [left; fields] | solve [right; fields] | idtac].
Qed.

(** What cru_builder(7) says under ERRORS, more precisely cru_spread(3). *)
Theorem C44_builder_rejected r b c :
  plain_builder b -> inferred_builder r b = bad c ->
  (c = UNDCON /\ b_connector b = None /\ b_subconnector b = None)
  \/ (c = INCCON /\ b_connector b <> None /\ b_subconnector b <> None)
  \/ missing_order (s_vorder (b_sig b)) (s_vfree (b_sig b)) c
  \/ missing_order (s_eorder (b_sig b)) (s_efree (b_sig b)) c
  \/ (c = INCVEL /\ r = ok false) \/ r = bad c.
Proof.
  destruct b as [k sc [lim [vh ve] [eh ee] vf ef]]. intros (Pc & Ps & P) E. unfold missing_order.
  split_orders; destruct r as [[]|]; cbv in E; try discriminate;
  match goal with E : bad _ = bad _ |- _ => injection E as <- end;
  first [ left; repeat split; solve [reflexivity | discriminate]
        | right; left; repeat split; solve [reflexivity | discriminate]
        | right; right; left; split; [discriminate|]; left; split; reflexivity
        | right; right; left; split; [discriminate|]; right; split; reflexivity
        | right; right; right; left; split; [discriminate|]; left; split; reflexivity
        | right; right; right; left; split; [discriminate|]; right; split; reflexivity
        | right; right; right; right; left; split; reflexivity
        | right; right; right; right; right; reflexivity ].
Qed.

Example C44_builder_ex :
  inferred_builder (ok true) (mkBuilder (Some (User 1)) None (mkSig 0 order0 order0 None None))
  = ok (mkBuilder (Some (User 1)) None
          (mkSig 0 (mkOrder (Some ScalarHash) (Some EqualityBpred))
                   (mkOrder (Some ScalarHash) (Some EqualityBpred)) None None))
  /\ inferred_builder (ok true)
       (mkBuilder (Some (User 1)) None (mkSig 0 order0 order0 None (Some (User 2))))
     = bad UNDHSH.
Proof. split; reflexivity. Qed.

(** "An unmodified copy of g is returned if the parameter b is NULL"
    (cru_spread(3)), but a NULL builder is an internal error. *)
Theorem C44_null_spread_refuted :
  exists s, spreading_builder (ok true) None s = bad (IER 678).
Proof. exists (mkSig 0 order0 order0 None None). vm_compute. reflexivity. Qed.

(** A builder is accepted by cru_spread if it would be otherwise and has the same operators as the graph. *)
Theorem C44_spreader_accepted r b s b' :
  spreading_builder r (Some b) s = ok b' <->
  inferred_builder r b = ok b' /\ s_vorder (b_sig b') = s_vorder s /\ s_eorder (b_sig b') = s_eorder s
  /\ s_vfree (b_sig b') = s_vfree s /\ s_efree (b_sig b') = s_efree s.
Proof.
  unfold spreading_builder, bind. destruct (inferred_builder r b) as [b1|c]; [|split; [discriminate|intros []; discriminate]].
  destruct b1 as [k sc [l1 [vh ve] [eh ee] vf ef]], s as [l2 [vh2 ve2] [eh2 ee2] vf2 ef2]. unfold identical, unless, bind, peq. simpl.
  split.
  - repeat match goal with |- context [ptr_eq_dec ?x ?y] => destruct (ptr_eq_dec x y); simpl; try discriminate end.
    intros [= <-]. simpl. repeat split; congruence.
  - intros ([= <-] & E1 & E2 & E3 & E4). simpl in *. injection E1 as <- <-. injection E2 as <- <-. subst.
    repeat match goal with |- context [ptr_eq_dec ?x ?y] => destruct (ptr_eq_dec x y); simpl; try congruence end.
Qed.
Theorem C44_spreader_rejected r b s c :
  spreading_builder r (Some b) s = bad c ->
  inferred_builder r b = bad c
  \/ c = INCSPB /\ exists b', inferred_builder r b = ok b' /\
     ~ (s_vorder (b_sig b') = s_vorder s /\ s_eorder (b_sig b') = s_eorder s
        /\ s_vfree (b_sig b') = s_vfree s /\ s_efree (b_sig b') = s_efree s).
Proof.
  intros E. destruct (inferred_builder r b) as [b1|c1] eqn:B.
  - right. split.
    + revert E. unfold spreading_builder, bind. rewrite B. unfold identical, unless, bind.
      repeat match goal with |- context [if ?x then _ else _] => destruct x; simpl end; congruence.
    + exists b1. split; auto. intros H. assert (spreading_builder r (Some b) s = ok b1) by (apply C44_spreader_accepted; auto). congruence.
  - left. revert E. unfold spreading_builder, bind. rewrite B. congruence.
Qed.
Example C44_spreader_ex :
  let o := mkOrder (Some ScalarHash) (Some EqualityBpred) in
  let b := mkBuilder (Some (User 1)) None (mkSig 0 order0 order0 None None) in
  (exists b', spreading_builder (ok true) (Some b) (mkSig 5 o o None None) = ok b')
  /\ spreading_builder (ok true) (Some b) (mkSig 5 o o (Some (User 2)) None) = bad INCSPB.
Proof. split; [eexists|]; reflexivity. Qed.

(** ** Crossing *)

Definition plain_crosser (c : crosser) :=
  plain (x_vprod c) /\ plain (x_bpred c) /\ plain (x_bop c) /\ plain_sig (x_sig c).

(** The edge order is not needed for crossing (cru_crosser(7)). *)
Theorem C44_crosser_accepted c c' :
  plain_crosser c -> inferred_crosser c = ok c' ->
  given (x_vprod c') /\ given (x_bop c') /\ callable (x_bpred c')
  /\ x_vprod c' = x_vprod c /\ x_bop c' = x_bop c /\ kept (x_bpred c) (x_bpred c')
  /\ (x_bpred c = None -> x_bpred c' = Some TrueBpred)
  /\ complete_order (s_vorder (x_sig c'))
  /\ kept_order (s_vorder (x_sig c)) (s_vorder (x_sig c'))
  /\ kept_order (s_eorder (x_sig c)) (s_eorder (x_sig c'))
  /\ (s_vfree (x_sig c) = None -> scalar_defaults (s_vorder (x_sig c)) (s_vorder (x_sig c')))
  /\ (s_efree (x_sig c) = None -> scalar_defaults (s_eorder (x_sig c)) (s_eorder (x_sig c'))
                                  /\ complete_order (s_eorder (x_sig c')))
  /\ s_vfree (x_sig c') = s_vfree (x_sig c) /\ s_efree (x_sig c') = s_efree (x_sig c)
  /\ s_limit (x_sig c') = s_limit (x_sig c).
Proof.
  destruct c as [vp [lim [vh ve] [eh ee] vf ef] bp bo]. intros (P1 & P2 & P3 & P) E.
  split_orders; cbv in E; try discriminate;
  match goal with E : ok _ = ok _ |- _ => injection E as <- end; fields.
Qed.

Theorem C44_crosser_rejected c e :
  plain_crosser c -> inferred_crosser c = bad e ->
  (e = UNDVPR /\ x_vprod c = None) \/ (e = UNDEPR /\ x_bop c = None)
  \/ missing_order (s_vorder (x_sig c)) (s_vfree (x_sig c)) e.
Proof.
  destruct c as [vp [lim [vh ve] [eh ee] vf ef] bp bo]. intros (P1 & P2 & P3 & P) E.
  unfold missing_order.
  split_orders; cbv in E; try discriminate;
  match goal with E : bad _ = bad _ |- _ => injection E as <- end;
  first [ left; split; reflexivity | right; left; split; reflexivity
        | right; right; split; [discriminate|]; left; split; reflexivity
        | right; right; split; [discriminate|]; right; split; reflexivity ].
Qed.

Example C44_crosser_ex :
  exists c', inferred_crosser (mkCrosser (Some (User 1)) (mkSig 0 order0 order0 None None)
                                 None (Some (User 2))) = ok c'
    /\ x_bpred c' = Some TrueBpred.
Proof. eexists. split; reflexivity. Qed.

(** ** Fabrication *)

Definition plain_fabricator (a : fabricator) :=
  plain (fa_vfab a) /\ plain (fa_efab a) /\ plain_sig (fa_sig a).

Theorem C44_fabricator_accepted a s a' :
  plain_fabricator a -> inferred_fabricator a s = ok a' ->
  callable (fa_vfab a') /\ callable (fa_efab a')
  /\ kept (fa_vfab a) (fa_vfab a') /\ kept (fa_efab a) (fa_efab a')
  /\ (fa_vfab a = None -> fa_vfab a' = Some IdentityUop /\ s_vfree (fa_sig a') = None)
  /\ (fa_efab a = None -> fa_efab a' = Some IdentityUop /\ s_efree (fa_sig a') = None)
  /\ kept (s_vfree (fa_sig a)) (s_vfree (fa_sig a'))
  /\ kept (s_efree (fa_sig a)) (s_efree (fa_sig a'))
  /\ kept_order (s_vorder (fa_sig a)) (s_vorder (fa_sig a'))
  /\ kept_order (s_eorder (fa_sig a)) (s_eorder (fa_sig a'))
  /\ s_limit (fa_sig a') = s_limit (fa_sig a).
Proof.
  destruct a as [vp ep [lim [vh ve] [eh ee] vf ef]]. intros (P1 & P2 & P) E.
  destruct s as [lim' [vh' ve'] [eh' ee'] vf' ef'].
  split_orders; cbv in E; try discriminate;
  match goal with E : ok _ = ok _ |- _ => injection E as <- end; fields.
Qed.

Theorem C44_fabricator_rejected a s c :
  plain_fabricator a -> inferred_fabricator a s = bad c ->
  (c = UNDVFB /\ fa_vfab a = None /\ s_vfree (fa_sig a) <> None)
  \/ (c = UNDEFB /\ fa_efab a = None /\ s_efree (fa_sig a) <> None).
Proof.
  destruct a as [vp ep [lim [vh ve] [eh ee] vf ef]]. intros (P1 & P2 & P) E.
  destruct s as [lim' [vh' ve'] [eh' ee'] vf' ef'].
  split_orders; cbv in E; try discriminate;
  match goal with E : bad _ = bad _ |- _ => injection E as <- end;
  solve [left; repeat split; solve [reflexivity | discriminate]
        | right; repeat split; solve [reflexivity | discriminate]].
Qed.

Example C44_fabricator_ex :
  exists a', inferred_fabricator (mkFabricator None (Some (User 1)) (mkSig 0 order0 order0 None None))
               (mkSig 7 order0 (mkOrder (Some (User 2)) (Some (User 3))) None (Some (User 4))) = ok a'
    /\ fa_vfab a' = Some IdentityUop /\ s_efree (fa_sig a') = Some (User 4).
Proof. eexists. repeat split; reflexivity. Qed.

(** ** Mapreduction *)

Theorem C44_mapreducer_accepted p p' :
  plain_prop p -> inferred_mapreducer p = ok p' ->
  property p p' /\ evaluable (p_vertex p') /\ kept_prop p p'
  /\ default_map (p_vertex p) (p_vertex p') /\ default_reduction (p_vertex p) (p_vertex p')
  /\ f_mfree (p_vertex p') = f_rfree (p_vertex p')
  /\ f_rfree (p_vertex p') = f_rfree (p_vertex p).
Proof.
  intros P. unfold inferred_mapreducer. destruct (filled_prop p) as [q|c] eqn:E; [|discriminate].
  simpl. unfold unless. destruct (peqP (f_mfree (p_vertex q)) (f_rfree (p_vertex q))) as [Q|Q];
    simpl; [|discriminate].
  intros H. injection H as <-. destruct (prop_accepted P E) as (A & B & C & D & F & G). auto 10.
Qed.

Theorem C44_mapreducer_rejected p c :
  plain_prop p -> inferred_mapreducer p = bad c ->
  reduced_prop_fault p c \/ (c = TPCMPR /\ f_mfree (p_vertex p) <> f_rfree (p_vertex p)).
Proof.
  intros P. unfold inferred_mapreducer. destruct (filled_prop p) as [q|c'] eqn:E; simpl.
  - unfold unless. destruct (peqP (f_mfree (p_vertex q)) (f_rfree (p_vertex q))) as [Q|Q];
      simpl; [discriminate|].
    intros H. injection H as <-. right. split; auto.
    destruct (prop_accepted P E) as (_ & _ & K & R & _). destruct K as ((_ & _ & _ & _ & M) & _).
    congruence.
  - intros H. injection H as <-. left. apply prop_rejected; auto.
Qed.

Example C44_mapreducer_ex :
  exists p', inferred_mapreducer (mkProp (mkFold (Some (User 1)) None (Some (User 2)) None None None)
                                   fold0 (mkFold None (Some (User 3)) None None None None)) = ok p'
    /\ f_reduction (p_outgoing p') = Some MinimizingBop.
Proof. eexists. split; reflexivity. Qed.

(** Evaluation of pointer comparisons between concrete pointers. *)
Ltac peqs E :=
  cbv -[peq] in E;
  repeat (match type of E with
    | context [peq ?x ?y] =>
        let b := eval cbv in (peq x y) in
        match b with
        | true => change (peq x y) with true in E
        | false => change (peq x y) with false in E
        end
    end; cbv -[peq] in E);
  try discriminate E;
  repeat (match type of E with
    | context [peq ?x ?y] => destruct (peqP x y)
    end; try congruence; cbv -[peq] in E; try discriminate E).

(** ** Induction *)

Definition plain_inducer (i : inducer) := plain (i_boundary i) /\ plain_fold (i_fold i).

(** If there is a map, the fold is evaluable.  Without one the induction is
    accepted for the sake of boundary values, and calling the map would
    report the documented error (src/repl.c:325-335). *)
Theorem C44_inducer_accepted i i' :
  plain_inducer i -> inferred_inducer i = ok i' ->
  i_boundary i' = i_boundary i
  /\ (given (i_boundary i') \/ given (f_vacuous (i_fold i')))
  /\ kept_fold (i_fold i) (i_fold i') /\ mapping (i_fold i')
  /\ (f_map (i_fold i) <> None ->
      evaluable (i_fold i') /\ default_reduction (i_fold i) (i_fold i')
      /\ f_rfree (i_fold i') = f_rfree (i_fold i))
  /\ (f_map (i_fold i) = None -> f_map (i_fold i') = Some UndefinedMap).
Proof.
  destruct i as [b [a bm r v rf mf]]. unfold plain_inducer, plain_fold. simpl. intros P E.
  unfold inferred_inducer in E. simpl in E.
  destruct a as [a|]; simpl in E.
  - destruct (unless _ _) as [[]|] eqn:U; [|discriminate]. simpl in E.
    change (set_map _ _) with (mkFold (Some a) bm r v rf mf) in E.
    destruct (filled_fold (mkFold (Some a) bm r v rf mf)) as [m'|] eqn:F; [|discriminate].
    simpl in E. injection E as <-. simpl.
    assert (Pf : plain_fold (mkFold (Some a) bm r v rf mf)) by (unfold plain_fold; simpl; tauto).
    destruct (C44_fold_accepted Pf F) as (A & K & R & _ & D).
    split; auto. split.
    { destruct K as (_ & _ & _ & K & _). rewrite K. simpl. destruct P as (Pb & _ & _ & _ & Pv & _).
      destruct Pb as [->|Pb]; auto. destruct Pv as [->|Pv]; auto. discriminate. }
    split; auto. split; [apply A|]. split; [intros _; simpl in *; auto|]. discriminate.
  - cases; peqs E;
    injection E as <-; unfold kept_fold, mapping; simpl;
    repeat split; auto with infer; try congruence;
    try solve [left; eexists; reflexivity | right; eexists; reflexivity
              | intros f Hf; discriminate | left; auto with infer].
Qed.

(** A cause for the rejection of an inducer, among them that a bmap is given
    without a map. *)
Theorem C44_inducer_rejected i c :
  plain_inducer i -> inferred_inducer i = bad c ->
  (c = UNDVAC /\ i_boundary i = None /\ f_vacuous (i_fold i) = None)
  \/ (c = UNDRED /\ no_reduction (i_fold i))
  \/ (c = TPCMPR /\ disagreeing (i_fold i))
  \/ (c = IER 820 /\ f_bmap (i_fold i) <> None).
Proof.
  destruct i as [b [a bm r v rf mf]].
  unfold plain_inducer, plain_fold, no_reduction, disagreeing, destructible. simpl. intros P E.
  cases; peqs E; injection E as <-;
  first [ left; repeat split; solve [reflexivity | discriminate]
        | right; left; repeat split; solve [reflexivity | left; discriminate | right; discriminate]
        | right; right; left; repeat split; solve [reflexivity | discriminate | assumption]
        | right; right; right; repeat split; solve [reflexivity | discriminate] ].
Qed.

Example C44_inducer_ex :
  (exists i', inferred_inducer (mkInducer None (mkFold (Some (User 1)) None None (Some (User 2)) None None))
              = ok i' /\ f_reduction (i_fold i') = Some MinimizingBop)
  /\ (exists i', inferred_inducer (mkInducer (Some (User 1)) fold0) = ok i').
Proof. split; eexists; repeat split; reflexivity. Qed.

(** A bmap may be defined instead of a map in any fold, and cru_fold(7) names
    the inducer and the kernel among the places of a fold.  But no inducer
    with a bmap is accepted: inference stores a map of its own beside it
    (src/infer.c:157), and the presence of both is an internal error. *)
Theorem C44_bmap_in_inducer_refuted :
  exists i, plain_inducer i /\ f_map (i_fold i) = None /\ given (f_bmap (i_fold i))
    /\ given (f_reduction (i_fold i)) /\ given (f_vacuous (i_fold i))
    /\ inferred_inducer i = bad (IER 820).
Proof.
  exists (mkInducer None (mkFold None (Some (User 1)) (Some (User 2)) (Some (User 3)) None None)).
  unfold plain_inducer, plain_fold, plain, given. simpl. repeat split; eauto 8.
Qed.

Theorem C44_bmap_in_inducer i :
  given (f_bmap (i_fold i)) -> (i_boundary i <> None \/ f_vacuous (i_fold i) <> None) ->
  inferred_inducer i = bad (IER 820).
Proof.
  destruct i as [b [a bm r v rf mf]]. simpl. intros (n & ->) H. unfold inferred_inducer. simpl.
  destruct b, a, v; simpl; try reflexivity; destruct H; congruence.
Qed.

(** ** Composition *)

Definition plain_composer (c : composer) :=
  plain (co_qpred c) /\ plain (co_qop c) /\ plain_prop (co_local c) /\ plain_prop (co_adjacent c).

Theorem C44_composer_accepted c s c' :
  plain_composer c -> typed_order (s_eorder s) -> inferred_composer c s = ok c' ->
  complete_order (s_eorder s) /\ callable (co_qpred c') /\ callable (co_qop c')
  /\ kept (co_qpred c) (co_qpred c') /\ kept (co_qop c) (co_qop c')
  /\ (co_qpred c = None -> co_qpred c' = Some TrueQpred)
  /\ (co_qop c = None -> co_qop c' = Some IdentityQop /\ s_efree s = None)
  /\ property (co_local c) (co_local c') /\ kept_prop (co_local c) (co_local c')
  /\ default_map (p_vertex (co_local c)) (p_vertex (co_local c'))
  /\ property (co_adjacent c) (co_adjacent c') /\ kept_prop (co_adjacent c) (co_adjacent c')
  /\ default_map (p_vertex (co_adjacent c)) (p_vertex (co_adjacent c')).
Proof.
  intros (P1 & P2 & P3 & P4) T. unfold inferred_composer.
  destruct (full_order (s_eorder s)) as [u|e] eqn:Eo; [|discriminate]. simpl.
  destruct (unless _ _) as [[]|e] eqn:U; [|discriminate]. simpl.
  destruct (filled_map_prop (co_adjacent c)) as [a|e] eqn:Ea; [|discriminate]. simpl.
  destruct (filled_map_prop (co_local c)) as [l|e] eqn:El; [|discriminate]. simpl.
  intros H. injection H as <-. simpl.
  destruct (map_prop_accepted P4 Ea) as (A1 & A2 & A3).
  destruct (map_prop_accepted P3 El) as (L1 & L2 & L3).
  split; [eapply full_order_accepted; eauto|].
  revert U. destruct (s_efree s), P1 as [->|(n & ->)], P2 as [->|(k & ->)]; simpl; intros U;
    try discriminate;
  repeat (split; [solve [auto with infer | discriminate | intros; auto; discriminate
                        | intros f Hf; discriminate]|]); auto.
Qed.

Theorem C44_composer_rejected c s e :
  plain_composer c -> inferred_composer c s = bad e ->
  order_fault (s_eorder s) e
  \/ (e = UNDCQO /\ co_qop c = None /\ s_efree s <> None)
  \/ prop_fault (co_adjacent c) e \/ prop_fault (co_local c) e.
Proof.
  intros (P1 & P2 & P3 & P4). unfold inferred_composer.
  destruct (full_order (s_eorder s)) as [u|e'] eqn:Eo; simpl.
  2: { intros H. injection H as <-. left. apply full_order_rejected; auto. }
  destruct (unless _ _) as [[]|e'] eqn:U; simpl.
  2: { intros H. injection H as <-. right. left. revert U.
       destruct (s_efree s), (co_qop c); simpl; intros U; try discriminate.
       injection U as <-. repeat split; auto; discriminate. }
  destruct (filled_map_prop (co_adjacent c)) as [a|e'] eqn:Ea; simpl.
  2: { intros H. injection H as <-. right. right. left. apply map_prop_rejected; auto. }
  destruct (filled_map_prop (co_local c)) as [l|e'] eqn:El; simpl; [discriminate|].
  intros H. injection H as <-. right. right. right. apply map_prop_rejected; auto.
Qed.

Definition scalar_sig (n : nat) : sig :=
  mkSig n (mkOrder (Some ScalarHash) (Some EqualityBpred))
          (mkOrder (Some ScalarHash) (Some EqualityBpred)) None None.

Example C44_composer_ex :
  exists c', inferred_composer (mkComposer None None prop0 prop0) (scalar_sig 0) = ok c'
    /\ co_qop c' = Some IdentityQop /\ f_map (p_vertex (co_local c')) = Some IdentityTop.
Proof. eexists. repeat split; reflexivity. Qed.

(** ** Signatures of graphs

    What may be in the signature of a graph: a stand-in only for comparing
    edge labels, and only if the labels have a destructor. *)
Definition sound (s : sig) : Prop :=
  settled (s_vorder s) /\ typed_order (s_eorder s)
  /\ (s_efree s = None -> settled (s_eorder s)).

Lemma complete_settled o : typed_order o -> complete_order o -> settled o.
Proof.
  intros T ((h & H & Nh) & (e & E & Ne)). split; auto. unfold stand_in in *.
  rewrite H, E. split; intros Q; injection Q as ->; tauto.
Qed.

Lemma typed_scalar o : typed_order o -> typed_order (allow_scalar_order o).
Proof.
  destruct o as [h e]. unfold typed_order. simpl. intros (A & B).
  split; [destruct h|destruct e]; simpl; auto.
Qed.

Lemma settled_scalar o : settled o -> settled (allow_scalar_order o).
Proof.
  intros (T & N1 & N2). split; [apply typed_scalar; auto|].
  destruct o as [[h|] [e|]]; simpl in *; split; congruence.
Qed.

Lemma filled_sig_accepted s s' :
  sound s -> filled_sig s = ok s' ->
  complete_order (s_vorder s') /\ complete_order (s_eorder s')
  /\ kept_order (s_vorder s) (s_vorder s') /\ kept_order (s_eorder s) (s_eorder s')
  /\ s_vfree s' = s_vfree s /\ s_efree s' = s_efree s /\ s_limit s' = s_limit s
  /\ sound s'.
Proof.
  intros (Sv & Te & Se). destruct s as [lim vo eo vf ef]. unfold filled_sig. simpl in *.
  intros H.
  assert (X : exists eo', complete_order eo' /\ kept_order eo eo' /\ typed_order eo' /\ settled eo'
      /\ (if nonnull vf then _ <- full_order vo ;; ok (mkSig lim vo eo' vf ef)
          else ok (mkSig lim (allow_scalar_order vo) eo' vf ef)) = ok s').
  { destruct ef as [ef|]; simpl in H.
    - destruct (full_order eo) as [u|c] eqn:F; [|discriminate]. simpl in H.
      pose proof (full_order_accepted Te F) as C. exists eo.
      split; auto. split; [auto with infer|]. split; auto. split; [apply complete_settled; auto|]. exact H.
    - specialize (Se eq_refl). destruct (scalar_complete Se) as (C & K & _).
      exists (allow_scalar_order eo). split; auto. split; auto. split; [apply typed_scalar; auto|].
      split; [apply settled_scalar; auto|]. exact H. }
  clear H. destruct X as (eo' & C & K & T & S & H). destruct vf as [vf|]; simpl in H.
  - destruct (full_order vo) as [u|c] eqn:F; [|discriminate]. simpl in H. injection H as <-. simpl.
    pose proof (full_order_accepted (proj1 Sv) F).
    split; auto. split; auto. split; [auto with infer|]. split; auto.
    split; auto. split; auto. split; auto. unfold sound; simpl; auto.
  - injection H as <-. simpl. destruct (scalar_complete Sv) as (C' & K' & _).
    split; auto. split; auto. split; auto. split; auto.
    split; auto. split; auto. split; auto. unfold sound; simpl; auto using settled_scalar.
Qed.

Lemma filled_sig_rejected s c :
  filled_sig s = bad c ->
  (s_vfree s <> None /\ order_fault (s_vorder s) c)
  \/ (s_efree s <> None /\ order_fault (s_eorder s) c).
Proof.
  destruct s as [lim vo eo vf ef]. unfold filled_sig. simpl.
  destruct ef as [ef|]; simpl.
  - destruct (full_order eo) as [u|c'] eqn:F; simpl.
    + destruct vf as [vf|]; simpl; [|discriminate].
      destruct (full_order vo) as [u'|c'] eqn:F'; simpl; [discriminate|].
      intros H. injection H as <-. left. split; [discriminate|]. apply full_order_rejected; auto.
    + intros H. injection H as <-. right. split; [discriminate|]. apply full_order_rejected; auto.
  - destruct vf as [vf|]; simpl; [|discriminate].
    destruct (full_order vo) as [u'|c'] eqn:F'; simpl; [discriminate|].
    intros H. injection H as <-. left. split; [discriminate|]. apply full_order_rejected; auto.
Qed.

(** ** Stretching *)

Definition plain_stretcher (x : stretcher) := plain (st_expander x) /\ plain_prop (st_prop x).

Theorem C44_stretcher_accepted x s x' s' :
  plain_stretcher x -> sound s -> inferred_stretcher x s = ok (x', s') ->
  given (st_expander x') /\ st_expander x' = st_expander x
  /\ property (st_prop x) (st_prop x') /\ kept_prop (st_prop x) (st_prop x')
  /\ default_map (p_vertex (st_prop x)) (p_vertex (st_prop x'))
  /\ complete_order (s_vorder s') /\ complete_order (s_eorder s').
Proof.
  intros (P1 & P2) S. unfold inferred_stretcher.
  destruct (filled_sig s) as [t|c] eqn:E; [|discriminate]. simpl.
  destruct (filled_map_prop (st_prop x)) as [p|c] eqn:Ep; [|discriminate]. simpl.
  destruct P1 as [->|(n & Hx)]; [discriminate|]. rewrite Hx. simpl.
  intros H. injection H as <- <-. simpl.
  destruct (map_prop_accepted P2 Ep) as (A & B & C).
  destruct (filled_sig_accepted S E) as (V & Eo & _).
  repeat (split; auto). exists n; auto.
Qed.

Theorem C44_stretcher_rejected x s c :
  plain_stretcher x -> inferred_stretcher x s = bad c ->
  (c = UNDEXP /\ st_expander x = None) \/ prop_fault (st_prop x) c
  \/ (s_vfree s <> None /\ order_fault (s_vorder s) c)
  \/ (s_efree s <> None /\ order_fault (s_eorder s) c).
Proof.
  intros (P1 & P2). unfold inferred_stretcher.
  destruct (filled_sig s) as [t|c'] eqn:E; simpl.
  2: { intros H. injection H as <-. right. right. apply filled_sig_rejected; auto. }
  destruct (filled_map_prop (st_prop x)) as [p|c'] eqn:Ep; simpl.
  2: { intros H. injection H as <-. right. left. apply map_prop_rejected; auto. }
  destruct (st_expander x); simpl; [discriminate|].
  intros H. injection H as <-. auto.
Qed.

Example C44_stretcher_ex :
  exists x', inferred_stretcher (mkStretcher (Some (User 1)) prop0) (scalar_sig 0) = ok (x', scalar_sig 0)
    /\ f_map (p_vertex (st_prop x')) = Some IdentityTop.
Proof. eexists. split; reflexivity. Qed.

(** ** Splitting *)

Definition plain_ctop (c : ctop) := plain (c_tpred c) /\ plain (c_top c).

Definition plain_splitter (x : splitter) :=
  plain (sp_ana x) /\ plain (sp_cata x) /\ plain (sp_fissile x) /\ plain_prop (sp_prop x)
  /\ plain_ctop (sp_in_ana x) /\ plain_ctop (sp_in_cata x)
  /\ plain_ctop (sp_out_ana x) /\ plain_ctop (sp_out_cata x).

(** "either or both fields can be omitted or zero-filled.  In that case, a
    copy of the given edge is made unconditionally" (cru_ctop_pair(7)), for
    scalar edge labels [d]. *)
Definition labeling (d : ptr) (c c' : ctop) : Prop :=
  callable (c_tpred c') /\ callable (c_top c') /\ kept (c_tpred c) (c_tpred c')
  /\ kept (c_top c) (c_top c')
  /\ (c_tpred c = None -> c_tpred c' = Some TrueTpred)
  /\ (c_top c = None -> c_top c' = Some IdentityTop /\ d = None).

Lemma filled_ctop_accepted d c c' :
  plain_ctop c ->
  filled_ctop (if negb (nonnull d) then mkCtop (c_tpred c) (allow (c_top c) (Some IdentityTop)) else c)
  = ok c' -> labeling d c c'.
Proof.
  destruct c as [p t]. unfold plain_ctop, labeling. simpl. intros P E.
  destruct d; cases; cbv in E; try discriminate; injection E as <-; fields.
Qed.

Lemma filled_ctop_rejected d c e :
  filled_ctop (if negb (nonnull d) then mkCtop (c_tpred c) (allow (c_top c) (Some IdentityTop)) else c)
  = bad e -> e = UNDCTO /\ c_top c = None /\ d <> None.
Proof.
  destruct c as [p t]. simpl. intros E.
  destruct d, t; cbv in E; try discriminate; injection E as <-. repeat split; auto; discriminate.
Qed.

Theorem C44_splitter_accepted x s x' s' :
  plain_splitter x -> sound s -> inferred_splitter x s = ok (x', s') ->
  callable (sp_ana x') /\ callable (sp_cata x') /\ callable (sp_fissile x')
  /\ kept (sp_ana x) (sp_ana x') /\ kept (sp_cata x) (sp_cata x')
  /\ kept (sp_fissile x) (sp_fissile x')
  /\ (sp_ana x = None -> sp_ana x' = Some IdentityBop /\ s_vfree s = None)
  /\ (sp_cata x = None -> sp_cata x' = Some IdentityBop /\ s_vfree s = None)
  /\ (sp_fissile x = None -> sp_fissile x' = Some TrueBpred)
  /\ property (sp_prop x) (sp_prop x') /\ kept_prop (sp_prop x) (sp_prop x')
  /\ default_map (p_vertex (sp_prop x)) (p_vertex (sp_prop x'))
  /\ labeling (s_efree s) (sp_in_ana x) (sp_in_ana x')
  /\ labeling (s_efree s) (sp_in_cata x) (sp_in_cata x')
  /\ labeling (s_efree s) (sp_out_ana x) (sp_out_ana x')
  /\ labeling (s_efree s) (sp_out_cata x) (sp_out_cata x')
  /\ complete_order (s_vorder s') /\ complete_order (s_eorder s').
Proof.
  intros (P1 & P2 & P3 & P4 & P5 & P6 & P7 & P8) S. unfold inferred_splitter.
  destruct (filled_sig s) as [t|c] eqn:E; [|discriminate]. simpl.
  destruct (filled_sig_accepted S E) as (V & Eo & _ & _ & Fv & Fe & _).
  destruct (filled_map_prop (sp_prop x)) as [p|c] eqn:Ep; [|discriminate]. simpl.
  destruct (map_prop_accepted P4 Ep) as (A & B & C).
  destruct (unless (negb (nonnull (if negb (nonnull (s_vfree t)) then allow (sp_ana x) (Some IdentityBop) else sp_ana x))) UNDANA)
    as [[]|] eqn:U1; [|discriminate]. simpl.
  destruct (unless (negb (nonnull (if negb (nonnull (s_vfree t)) then allow (sp_cata x) (Some IdentityBop) else sp_cata x))) UNDCAT)
    as [[]|] eqn:U2; [|discriminate]. simpl.
  rewrite Fe.
  destruct (filled_ctop (if negb (nonnull (s_efree s)) then mkCtop (c_tpred (sp_in_ana x)) _ else _)) as [c1|] eqn:E1; [|discriminate]. simpl.
  destruct (filled_ctop (if negb (nonnull (s_efree s)) then mkCtop (c_tpred (sp_in_cata x)) _ else _)) as [c2|] eqn:E2; [|discriminate]. simpl.
  destruct (filled_ctop (if negb (nonnull (s_efree s)) then mkCtop (c_tpred (sp_out_ana x)) _ else _)) as [c3|] eqn:E3; [|discriminate]. simpl.
  destruct (filled_ctop (if negb (nonnull (s_efree s)) then mkCtop (c_tpred (sp_out_cata x)) _ else _)) as [c4|] eqn:E4; [|discriminate]. simpl.
  intros H. injection H as <- <-. simpl.
  apply filled_ctop_accepted in E1; auto. apply filled_ctop_accepted in E2; auto.
  apply filled_ctop_accepted in E3; auto. apply filled_ctop_accepted in E4; auto.
  rewrite Fv in *. revert U1 U2.
  destruct (s_vfree s), P1 as [->|(n1 & ->)], P2 as [->|(n2 & ->)], P3 as [->|(n3 & ->)];
    simpl; intros U1 U2; try discriminate;
  repeat (split; [solve [auto with infer | discriminate | intros; auto; discriminate
                        | intros f Hf; discriminate]|]); auto.
Qed.

Theorem C44_splitter_rejected x s c :
  plain_splitter x -> sound s -> inferred_splitter x s = bad c ->
  (c = UNDANA /\ sp_ana x = None /\ s_vfree s <> None)
  \/ (c = UNDCAT /\ sp_cata x = None /\ s_vfree s <> None)
  \/ (c = UNDCTO /\ s_efree s <> None
      /\ (c_top (sp_in_ana x) = None \/ c_top (sp_in_cata x) = None
          \/ c_top (sp_out_ana x) = None \/ c_top (sp_out_cata x) = None))
  \/ prop_fault (sp_prop x) c
  \/ (s_vfree s <> None /\ order_fault (s_vorder s) c)
  \/ (s_efree s <> None /\ order_fault (s_eorder s) c).
Proof.
  intros (P1 & P2 & P3 & P4 & P5 & P6 & P7 & P8) S. unfold inferred_splitter.
  destruct (filled_sig s) as [t|c'] eqn:E; simpl.
  2: { intros H. injection H as <-. right. right. right. right. apply filled_sig_rejected; auto. }
  destruct (filled_sig_accepted S E) as (V & Eo & _ & _ & Fv & Fe & _).
  destruct (filled_map_prop (sp_prop x)) as [p|c'] eqn:Ep; simpl.
  2: { intros H. injection H as <-. right. right. right. left. apply map_prop_rejected; auto. }
  rewrite Fv, Fe.
  destruct (unless (negb (nonnull (if negb (nonnull (s_vfree s)) then allow (sp_ana x) (Some IdentityBop) else sp_ana x))) UNDANA)
    as [[]|c'] eqn:U1; simpl.
  2: { intros H. injection H as <-. left. revert U1. destruct (s_vfree s), (sp_ana x); simpl; intros U1;
       try discriminate. injection U1 as <-. repeat split; auto; discriminate. }
  destruct (unless (negb (nonnull (if negb (nonnull (s_vfree s)) then allow (sp_cata x) (Some IdentityBop) else sp_cata x))) UNDCAT)
    as [[]|c'] eqn:U2; simpl.
  2: { intros H. injection H as <-. right. left. revert U2. destruct (s_vfree s), (sp_cata x); simpl; intros U2;
       try discriminate. injection U2 as <-. repeat split; auto; discriminate. }
  intros H. right. right. left.
  destruct (filled_ctop (if negb (nonnull (s_efree s)) then mkCtop (c_tpred (sp_in_ana x)) _ else _)) as [c1|c'] eqn:E1; simpl in H.
  2: { injection H as <-. apply filled_ctop_rejected in E1. tauto. }
  destruct (filled_ctop (if negb (nonnull (s_efree s)) then mkCtop (c_tpred (sp_in_cata x)) _ else _)) as [c2|c'] eqn:E2; simpl in H.
  2: { injection H as <-. apply filled_ctop_rejected in E2. tauto. }
  destruct (filled_ctop (if negb (nonnull (s_efree s)) then mkCtop (c_tpred (sp_out_ana x)) _ else _)) as [c3|c'] eqn:E3; simpl in H.
  2: { injection H as <-. apply filled_ctop_rejected in E3. tauto. }
  destruct (filled_ctop (if negb (nonnull (s_efree s)) then mkCtop (c_tpred (sp_out_cata x)) _ else _)) as [c4|c'] eqn:E4; simpl in H; [discriminate|].
  injection H as <-. apply filled_ctop_rejected in E4. tauto.
Qed.

Definition ctop0 := mkCtop None None.

Example C44_splitter_ex :
  exists x', inferred_splitter (mkSplitter None (Some (User 1)) None prop0 ctop0 ctop0
                                  (mkCtop (Some (User 2)) None) ctop0) (scalar_sig 0)
             = ok (x', scalar_sig 0)
    /\ sp_ana x' = Some IdentityBop /\ sp_out_ana x' = mkCtop (Some (User 2)) (Some IdentityTop).
Proof. eexists. repeat split; reflexivity. Qed.

(** ** Postponement *)

Definition plain_postponer (p : postponer) :=
  plain (po_postponable p) /\ plain (po_bpred p) /\ plain (po_bop p).

Theorem C44_postponer_accepted p s p' s' :
  plain_postponer p -> sound s -> inferred_postponer p s = ok (p', s') ->
  given (po_postponable p') /\ po_postponable p' = po_postponable p
  /\ callable (po_bpred p') /\ callable (po_bop p')
  /\ kept (po_bpred p) (po_bpred p') /\ kept (po_bop p) (po_bop p')
  /\ (po_bpred p = None -> po_bpred p' = Some TrueBpred)
  /\ (po_bop p = None -> po_bop p' = Some IdentityBop /\ s_efree s = None)
  /\ complete_order (s_eorder s').
Proof.
  intros (P1 & P2 & P3) (Sv & Te & Se). destruct s as [lim vo eo vf ef].
  unfold inferred_postponer. simpl in *.
  set (t := if negb (nonnull ef) then _ else mkSig lim vo eo vf ef).
  assert (T : typed_order (s_eorder t)).
  { unfold t. destruct ef; simpl; auto. apply typed_scalar; auto. }
  destruct (full_order (s_eorder t)) as [u|c] eqn:F; [|discriminate]. simpl.
  pose proof (full_order_accepted T F) as C.
  destruct ef, P1 as [->|(n1 & ->)], P2 as [->|(n2 & ->)], P3 as [->|(n3 & ->)]; simpl;
    intros E; try discriminate; injection E as <- <-; simpl;
  repeat (split; [solve [auto with infer | discriminate | intros; auto; discriminate
                        | intros f Hf; discriminate | eexists; reflexivity]|]); auto.
Qed.

Theorem C44_postponer_rejected p s c :
  plain_postponer p -> sound s -> inferred_postponer p s = bad c ->
  (c = UNDPOP /\ po_postponable p = None)
  \/ (c = UNDCBO /\ po_bop p = None /\ s_efree s <> None)
  \/ (s_efree s <> None /\ order_fault (s_eorder s) c).
Proof.
  intros (P1 & P2 & P3) (Sv & Te & Se). destruct s as [lim vo eo vf ef].
  unfold inferred_postponer. simpl in *. destruct ef as [ef|]; simpl.
  - destruct (full_order eo) as [u|c'] eqn:F; simpl.
    + destruct (po_postponable p); simpl.
      * destruct (po_bop p); simpl; [discriminate|]. intros H. injection H as <-.
        right. left. repeat split; discriminate.
      * intros H. injection H as <-. auto.
    + intros H. injection H as <-. right. right. split; [discriminate|].
      apply full_order_rejected; auto.
  - destruct (scalar_complete (Se eq_refl)) as (C & _). rewrite (complete_full C). simpl.
    destruct (po_postponable p); simpl.
    + destruct (po_bop p); simpl; discriminate.
    + intros H. injection H as <-. auto.
Qed.

Example C44_postponer_ex :
  exists p', inferred_postponer (mkPostponer (Some (User 1)) None None) (scalar_sig 0)
             = ok (p', scalar_sig 0) /\ po_bop p' = Some IdentityBop.
Proof. eexists. split; reflexivity. Qed.

(** ** Classification *)

Definition plain_classifier (c : classifier) := plain_prop (cl_prop c) /\ plain_order (cl_order c).

(** Everything is there to compute and compare the properties of vertices. *)
Definition classifying (c c' : classifier) : Prop :=
  property (cl_prop c) (cl_prop c') /\ kept_prop (cl_prop c) (cl_prop c')
  /\ default_map (p_vertex (cl_prop c)) (p_vertex (cl_prop c'))
  /\ complete_order (cl_order c') /\ kept_order (cl_order c) (cl_order c').

Definition classifier_fault (c : classifier) (e : code) : Prop :=
  prop_fault (cl_prop c) e
  \/ missing_order (cl_order c) (f_mfree (p_vertex (cl_prop c))) e.

Lemma filled_map_prop_alt p :
  filled_prop (set_vertex p (with_undefined (p_vertex p)))
  = (i <- filled_unless_empty (p_incident p) ;;
     o <- filled_unless_empty (p_outgoing p) ;;
     v <- filled_map (p_vertex p) ;; ok (mkProp v i o)).
Proof. destruct p. reflexivity. Qed.

Lemma map_prop_accepted' p p' :
  plain_prop p -> filled_prop (set_vertex p (with_undefined (p_vertex p))) = ok p' ->
  property p p' /\ kept_prop p p' /\ default_map (p_vertex p) (p_vertex p').
Proof.
  intros (A & B & C). rewrite filled_map_prop_alt.
  destruct (filled_unless_empty (p_incident p)) as [i|c] eqn:Ei; [|discriminate]. simpl.
  destruct (filled_unless_empty (p_outgoing p)) as [o|c] eqn:Eo; [|discriminate]. simpl.
  destruct (filled_map (p_vertex p)) as [v|c] eqn:E; [|discriminate]. simpl.
  intros H. injection H as <-.
  destruct (C44_map_accepted A E) as (M & K & D & _).
  destruct (optional_accepted B Ei) as (Oi & Ki). destruct (optional_accepted C Eo) as (Oo & Ko).
  unfold property, kept_prop; simpl. auto 10.
Qed.

Lemma map_prop_rejected' p c :
  plain_prop p -> filled_prop (set_vertex p (with_undefined (p_vertex p))) = bad c ->
  prop_fault p c.
Proof.
  intros (A & B & C). rewrite filled_map_prop_alt. unfold prop_fault.
  destruct (filled_unless_empty (p_incident p)) as [i|c'] eqn:Ei; simpl.
  2: { intros H. injection H as <-. right. left. apply optional_rejected; auto. }
  destruct (filled_unless_empty (p_outgoing p)) as [o|c'] eqn:Eo; simpl.
  2: { intros H. injection H as <-. right. right. apply optional_rejected; auto. }
  destruct (filled_map (p_vertex p)) as [v|c'] eqn:E; simpl; [discriminate|].
  intros H. injection H as <-. left. apply C44_map_rejected; auto.
Qed.

Lemma classifier_order o d o' :
  plain_order o -> o' = (if negb (nonnull d) then allow_scalar_order o else o) ->
  match full_order o' with
  | ok _ => complete_order o' /\ kept_order o o' /\ (d = None -> scalar_defaults o o')
  | bad c => missing_order o d c
  end.
Proof.
  intros P ->. destruct d as [d|]; simpl.
  - destruct (full_order o) eqn:F.
    + split; [eapply full_order_accepted; eauto; apply plain_settled; auto|].
      split; [auto with infer|discriminate].
    + apply full_order_rejected in F. split; [discriminate|].
      destruct P as (P1 & P2). destruct F as [(-> & F)|(-> & F)]; [left|right]; split; auto;
      apply plain_not_callable; auto.
  - destruct (scalar_complete (plain_settled P)) as (A & B & C). rewrite (complete_full A). auto.
Qed.

Theorem C44_classifier_accepted c c' :
  plain_classifier c -> inferred_classifier (Some c) = ok c' ->
  classifying c c'
  /\ (f_mfree (p_vertex (cl_prop c)) = None -> scalar_defaults (cl_order c) (cl_order c')).
Proof.
  intros (P1 & P2). simpl. unfold filled_classifier.
  change (set_reduction _ _) with (with_undefined (p_vertex (cl_prop c))).
  destruct (filled_prop _) as [p|e] eqn:E; [|discriminate]. simpl.
  destruct (map_prop_accepted' P1 E) as (A & B & C).
  pose proof (@classifier_order (cl_order c) (f_mfree (p_vertex p)) _ P2 eq_refl) as O.
  destruct (full_order _) as [u|e] eqn:F; [|discriminate]. simpl.
  intros H. injection H as <-. unfold classifying. simpl.
  destruct O as (O1 & O2 & O3). pose proof B as ((_ & _ & _ & _ & M) & _).
  rewrite M in O1, O2, O3. rewrite M. auto 10.
Qed.

Theorem C44_classifier_rejected c e :
  plain_classifier c -> inferred_classifier (Some c) = bad e -> classifier_fault c e.
Proof.
  intros (P1 & P2). simpl. unfold filled_classifier, classifier_fault.
  change (set_reduction _ _) with (with_undefined (p_vertex (cl_prop c))).
  destruct (filled_prop _) as [p|e'] eqn:E; simpl.
  2: { intros H. injection H as <-. left. apply map_prop_rejected'; auto. }
  destruct (map_prop_accepted' P1 E) as (_ & ((_ & _ & _ & _ & M) & _) & _).
  pose proof (@classifier_order (cl_order c) (f_mfree (p_vertex p)) _ P2 eq_refl) as O.
  destruct (full_order _) as [u|e'] eqn:F; simpl; [discriminate|].
  intros H. injection H as <-. right. rewrite M in O. auto.
Qed.

Theorem C44_null_classifier : inferred_classifier None = bad NULCSF.
Proof. reflexivity. Qed.

(** "a zero-filled classifier describes the partition of every vertex in a
    class by itself" (cru_classifier(7)): vertices are their own properties,
    compared as scalars. *)
Example C44_classifier_ex :
  exists c', inferred_classifier (Some (mkClassifier prop0 order0)) = ok c'
    /\ f_map (p_vertex (cl_prop c')) = Some IdentityTop
    /\ cl_order c' = mkOrder (Some ScalarHash) (Some EqualityBpred).
Proof. eexists. repeat split; reflexivity. Qed.

(** ** Filtering *)

Definition plain_filter (f : filter) :=
  plain (fi_thinner f) /\ plain_prop (fi_vop f) /\ plain_fold (fi_eop f) /\ plain_order (fi_order f).

(** The vertex test: absent, or a property whose map is the user's, the
    disjunction of the edge folds, or the one that never holds, for thinning
    everywhere (cru_filter(7)). *)
Definition vertex_test (thinner : ptr) (p p' : prop) : Prop :=
  (thinner = None /\ p = prop0 /\ f_map (p_vertex p') = Some DisjoiningTop
   /\ p_incident p' = fold0 /\ p_outgoing p' = fold0)
  \/ (property p p' /\ kept_prop p p'
      /\ (f_map (p_vertex p) = None -> p <> prop0 -> f_map (p_vertex p') = Some DisjoiningTop)
      /\ (p = prop0 -> f_map (p_vertex p') = Some FalseTop)).

Lemma fold0_plain : plain_fold fold0.
Proof. unfold plain_fold, plain; simpl; auto 10. Qed.

Lemma prop0_plain : plain_prop prop0.
Proof. unfold plain_prop; simpl; auto using fold0_plain. Qed.

(** The vertex fold of a filter, when a map [d] is stored in it. *)
Lemma disjoining_accepted m d m' :
  plain_fold m -> d = DisjoiningTop \/ d = FalseTop ->
  filled_fold (with_undefined (set_map m (allow (f_map m) (Some d)))) = ok m' ->
  mapping m' /\ kept_fold m m' /\ (f_map m = None -> f_map m' = Some d) /\ f_bmap m = None.
Proof.
  destruct m as [a b r v rf mf]. unfold plain_fold, kept_fold, mapping. simpl. intros P D E.
  destruct D as [-> | ->]; cases; peqs E; injection E as <-; simpl;
  repeat split; auto with infer; try discriminate;
  try solve [intros f Hf; discriminate | left; split; auto with infer; apply given_callable; eexists; reflexivity].
Qed.

Lemma disjoining_rejected m d c :
  plain_fold m -> d = DisjoiningTop \/ d = FalseTop ->
  filled_fold (with_undefined (set_map m (allow (f_map m) (Some d)))) = bad c ->
  (c = IER 820 /\ f_bmap m <> None) \/ (c = TPCMPR /\ disagreeing m /\ f_reduction m <> None).
Proof.
  destruct m as [a b r v rf mf]. unfold plain_fold, disagreeing. simpl. intros P D E.
  destruct D as [-> | ->]; cases; peqs E; injection E as <-;
  first [ left; repeat split; solve [reflexivity | discriminate]
        | right; repeat split; solve [reflexivity | discriminate | assumption] ].
Qed.

Lemma disjoining_empty m :
  plain_fold m -> empty_fold (with_undefined (set_map m (allow (f_map m) (Some DisjoiningTop))))
                  = empty_fold m.
Proof.
  destruct m as [a b r v rf mf]. unfold plain_fold. simpl. intros P. cases; reflexivity.
Qed.

Lemma false_nonempty m :
  plain_fold m -> empty_fold (with_undefined (set_map m (allow (f_map m) (Some FalseTop)))) = false.
Proof.
  destruct m as [a b r v rf mf]. unfold plain_fold. simpl. intros P. cases; reflexivity.
Qed.

Definition filter_vertex_fault (p : prop) (c : code) : Prop :=
  (c = IER 820 /\ f_bmap (p_vertex p) <> None)
  \/ (c = TPCMPR /\ disagreeing (p_vertex p) /\ f_reduction (p_vertex p) <> None)
  \/ fold_fault (p_incident p) c \/ fold_fault (p_outgoing p) c.

Lemma filter_vertices_spec t p :
  plain t -> plain_prop p ->
  match filter_vertices t p with
  | ok p' => vertex_test t p p'
  | bad c => filter_vertex_fault p c
  end.
Proof.
  intros Pt (A & B & C). unfold filter_vertices.
  assert (X : nonnull t && empty_prop p = true /\ t <> None /\ p = prop0
              \/ nonnull t && empty_prop p = false /\ (t = None \/ p <> prop0)).
  { destruct t as [t|]; simpl.
    - destruct (empty_prop p) eqn:E.
      + left. split; auto. split; [discriminate|]. apply empty_prop_plain; auto. split; auto.
      + right. split; auto. right. intros ->. discriminate.
    - right. auto. }
  destruct X as [(-> & Nt & ->)|(-> & N)].
  - cbv. right.
    split; [|split; [|split; [intros _ N; destruct N; reflexivity|reflexivity]]].
    + split; [left; split; auto; exists FalseTop; split; auto; unfold stand_in; intros S;
        repeat destruct S as [S|S]; discriminate|]. split; left; auto.
    + unfold kept_prop, kept_fold; simpl. repeat split; auto with infer; intros f Hf; discriminate.
  - set (v := p_vertex p) in *.
    change (set_reduction _ _) with (with_undefined (set_map v (allow (f_map v) (Some DisjoiningTop)))).
    set (w := with_undefined _).
    assert (Ee : empty_prop (set_vertex p w) = empty_prop p).
    { unfold empty_prop. simpl. f_equal. f_equal. apply disjoining_empty; auto. }
    rewrite Ee. destruct (empty_prop p) eqn:E0.
    + apply empty_prop_plain in E0; [|repeat split; auto; apply A || apply B || apply C].
      subst p. left. destruct N as [->|N]; [|congruence]. repeat split; auto.
    + unfold filled_prop. simpl.
      destruct (filled_unless_empty (p_incident p)) as [i|c] eqn:Ei; simpl.
      2: { right. right. left. apply optional_rejected; auto. }
      destruct (filled_unless_empty (p_outgoing p)) as [o|c] eqn:Eo; simpl.
      2: { right. right. right. apply optional_rejected; auto. }
      destruct (filled_fold w) as [v'|c] eqn:Ev; simpl.
      * right. destruct (disjoining_accepted A (or_introl eq_refl) Ev) as (M & K & D & _).
        destruct (optional_accepted B Ei) as (Oi & Ki). destruct (optional_accepted C Eo) as (Oo & Ko).
        unfold property, kept_prop. simpl.
        split; auto. split; auto. split; auto. intros ->. discriminate.
      * destruct (disjoining_rejected A (or_introl eq_refl) Ev) as [F|F]; [left|right; left]; auto.
Qed.

Lemma filled_fold_again m m' :
  plain_fold m -> filled_fold m = ok m' -> filled_unless_empty m' = ok m'.
Proof.
  intros P E. rewrite (filled_fold_plain P) in E. revert P E.
  destruct m as [a b r v rf mf]. unfold plain_fold. simpl. intros P E.
  cases; simpl in *; try discriminate;
  try (match goal with H : context [peq ?x ?y] |- _ => destruct (peqP x y) as [Q|Q]; [|discriminate] end);
  injection E as <-;
  unfold filled_unless_empty, empty_fold, filled_fold, filled_fold_map, filled_fold_reduction,
         filled_fold_destructors,
         differs, unless, bind, set_map, set_bmap, set_reduction, set_mfree, set_rfree; simpl;
  try reflexivity;
  repeat (match goal with
  | |- context [peq (Some (User ?n)) (Some ?f)] =>
      match f with
      | User _ => fail 1
      | _ => change (peq (Some (User n)) (Some f)) with false
      end
  | |- context [peq (Some IdentityTop) (Some ?f)] =>
      change (peq (Some IdentityTop) (Some f)) with false
  | |- context [peq (Some MinimizingBop) (Some ?f)] =>
      change (peq (Some MinimizingBop) (Some f)) with false
  end; simpl); try reflexivity;
  try (match goal with |- context [peq ?x ?y] => destruct (peqP x y); simpl; solve [reflexivity | congruence] end).
Qed.

(** The edge test: absent, or an evaluable fold; with a thinner and no test
    of the user's, one that always holds. *)
Definition edge_test (thinner : ptr) (m m' : fold) : Prop :=
  (thinner = None /\ m = fold0 /\ m' = fold0)
  \/ (evaluable m' /\ kept_fold m m' /\ (m = fold0 -> f_map m' = Some TrueTop)
      /\ (m <> fold0 -> default_reduction m m')).

Lemma true_test_evaluable :
  evaluable (mkFold (Some TrueTop) None (Some MinimizingBop) None None None).
Proof.
  unfold evaluable, mapping, agreeing. simpl.
  split; [left; split; auto with infer|]. split; [auto with infer|]. reflexivity.
Qed.

Theorem C44_filter_accepted f s f' :
  plain_filter f -> typed_order (s_eorder s) ->
  (s_efree s = None -> settled (s_eorder s)) ->
  inferred_filter f s = ok f' ->
  fi_thinner f' = fi_thinner f
  /\ vertex_test (fi_thinner f) (fi_vop f) (fi_vop f')
  /\ edge_test (fi_thinner f) (fi_eop f) (fi_eop f')
  /\ (fi_order f = order0 -> fi_order f' = order0)
  /\ (fi_order f <> order0 -> complete_order (fi_order f') /\ kept_order (fi_order f) (fi_order f')
                             /\ evaluable (fi_eop f')).
Proof.
  destruct f as [t p e o]. intros (Pt & Pp & Pe & Po) Ts Ss. unfold inferred_filter. simpl in *.
  pose proof (filter_vertices_spec Pt Pp) as V.
  destruct (filter_vertices t p) as [p'|c]; [|discriminate]. simpl.
  set (e1 := if nonnull t && empty_fold e then _ else e).
  assert (X : (t = None /\ e = fold0 /\ e1 = fold0)
              \/ (t <> None /\ e = fold0 /\ e1 = mkFold (Some TrueTop) None None None None None)
              \/ (e <> fold0 /\ e1 = e)).
  { unfold e1. destruct (empty_fold e) eqn:E.
    - apply (empty_fold_plain Pe) in E. subst e. destruct t; simpl; auto.
      right. left. split; [discriminate|]. auto.
    - right. right. rewrite andb_false_r. split; auto. intros ->. discriminate. }
  clearbody e1.
  assert (Y : forall e2, filled_unless_empty e1 = ok e2 ->
                         edge_test t e e2 /\ (e1 <> fold0 -> evaluable e2)).
  { intros e2 E2. destruct X as [(-> & -> & ->)|[(Nt & -> & ->)|(Ne & ->)]].
    - cbv in E2. injection E2 as <-. split; [left; auto|]. congruence.
    - cbv in E2. injection E2 as <-. split; [|intros _; apply true_test_evaluable].
      right. split; [apply true_test_evaluable|].
      split; [|split; [reflexivity|congruence]].
      unfold kept_fold; simpl; repeat split; auto; intros f Hf; discriminate.
    - unfold filled_unless_empty in E2.
      assert (Eb : empty_fold e = false).
      { destruct (empty_fold e) eqn:Eb; auto. apply (empty_fold_plain Pe) in Eb. congruence. }
      rewrite Eb in E2. destruct (C44_fold_accepted Pe E2) as (A & K & _ & _ & D).
      split; [right|]; auto. split; auto. split; auto. split; auto. congruence. }
  assert (Z : e1 <> fold0 -> forall e2, filled_fold e1 = ok e2 -> filled_unless_empty e2 = ok e2
                                        /\ filled_unless_empty e1 = ok e2).
  { intros N e2 E2. destruct X as [(_ & _ & ->)|[(_ & _ & ->)|(Ne & ->)]]; [congruence| |].
    - cbv in E2. injection E2 as <-. split; reflexivity.
    - split; [eapply filled_fold_again; eauto|]. unfold filled_unless_empty.
      destruct (empty_fold e) eqn:Eb; auto. apply (empty_fold_plain Pe) in Eb. congruence. }
  destruct (empty_order o) eqn:Eo; simpl.
  - apply (empty_order_plain Po) in Eo. subst o.
    destruct (filled_unless_empty e1) as [e2|c] eqn:E2; [|discriminate]. simpl.
    intros H. injection H as <-. simpl. destruct (Y _ eq_refl) as (Y1 & _).
    split; [auto|]. split; [auto|]. split; [auto|]. split; [auto|congruence].
  - set (o1 := if negb (nonnull (s_efree s)) then _ else _).
    destruct (full_order o1) as [u|c] eqn:F; [|discriminate]. simpl.
    assert (To : typed_order o1 /\ kept_order o o1).
    { unfold o1, kept_order. destruct Po as (Ph & Pq), Ts as (Th & Tq), o as [h q]; simpl in *.
      assert (Ta : typed_order (allow_order (mkOrder h q) (s_eorder s))).
      { split; simpl; [destruct h|destruct q]; simpl; auto. }
      destruct (s_efree s); simpl; [split; auto; split; auto with infer|].
      split; [apply typed_scalar; auto|]. simpl. destruct h, q; simpl; split; auto with infer;
        intros x Hx; discriminate. }
    destruct To as (To & Ko). pose proof (full_order_accepted To F) as C.
    destruct (empty_fold e1) eqn:Ee; simpl; [discriminate|].
    assert (N : e1 <> fold0) by (intros ->; discriminate).
    destruct (filled_fold e1) as [e2|c] eqn:E2; simpl; [|discriminate].
    destruct (Z N _ eq_refl) as (Z1 & Z2). rewrite Z1. simpl.
    intros H. injection H as <-. simpl. destruct (Y _ Z2) as (Y1 & Y2).
    split; auto. split; auto. split; auto. split; [|auto].
    intros ->. discriminate.
Qed.

Theorem C44_filter_rejected f s c :
  plain_filter f -> typed_order (s_eorder s) ->
  (s_efree s = None -> settled (s_eorder s)) ->
  inferred_filter f s = bad c ->
  filter_vertex_fault (fi_vop f) c
  \/ fold_fault (fi_eop f) c
  \/ (c = INCFIL /\ fi_thinner f = None /\ fi_eop f = fold0 /\ fi_order f <> order0)
  \/ (c = UNDHSH /\ fi_order f <> order0 /\ s_efree s <> None
      /\ o_hash (fi_order f) = None /\ ~ callable (o_hash (s_eorder s)))
  \/ (c = UNDEQU /\ fi_order f <> order0 /\ s_efree s <> None
      /\ o_equal (fi_order f) = None /\ ~ callable (o_equal (s_eorder s))).
Proof.
  destruct f as [t p e o]. intros (Pt & Pp & Pe & Po) Ts Ss. unfold inferred_filter. simpl in *.
  pose proof (filter_vertices_spec Pt Pp) as V.
  destruct (filter_vertices t p) as [p'|c']; simpl.
  2: { intros H. injection H as <-. auto. }
  set (e1 := if nonnull t && empty_fold e then _ else e).
  assert (X : (t = None /\ e = fold0 /\ e1 = fold0)
              \/ (e1 = mkFold (Some TrueTop) None None None None None)
              \/ (e <> fold0 /\ e1 = e)).
  { unfold e1. destruct (empty_fold e) eqn:E.
    - apply (empty_fold_plain Pe) in E. subst e. destruct t; simpl; auto.
    - right. right. rewrite andb_false_r. split; auto. intros ->. discriminate. }
  clearbody e1.
  assert (Y : forall c', filled_fold e1 = bad c' -> fold_fault e c').
  { intros c' E2. destruct X as [(-> & -> & ->)|[->|(Ne & ->)]].
    - discriminate. - discriminate. - apply C44_fold_rejected; auto. }
  assert (Z : e1 <> fold0 -> forall e2, filled_fold e1 = ok e2 -> filled_unless_empty e2 = ok e2).
  { intros N e2 E2. destruct X as [(_ & _ & ->)|[->|(Ne & ->)]]; [congruence| |].
    - cbv in E2. injection E2 as <-. reflexivity.
    - eapply filled_fold_again; eauto. }
  destruct (empty_order o) eqn:Eo; simpl.
  - destruct (filled_unless_empty e1) as [e2|c'] eqn:E2; simpl; [discriminate|].
    intros H. injection H as <-. right. left. apply Y. unfold filled_unless_empty in E2.
    destruct (empty_fold e1); [discriminate|auto].
  - assert (No : o <> order0) by (intros ->; discriminate).
    set (o1 := if negb (nonnull (s_efree s)) then _ else _).
    destruct (full_order o1) as [u|c'] eqn:F; simpl.
    2: { intros H. injection H as <-. apply full_order_rejected in F. right. right. right.
         unfold o1 in F. destruct Po as (Ph & Pq), o as [h q]; simpl in *.
         destruct (s_efree s) as [d|]; simpl in F.
         - destruct F as [(-> & F)|(-> & F)]; simpl in F; [left|right].
           + destruct Ph as [->|(n & ->)]; simpl in F.
             * repeat split; auto; discriminate.
             * destruct F. auto with infer.
           + destruct Pq as [->|(n & ->)]; simpl in F.
             * repeat split; auto; discriminate.
             * destruct F. auto with infer.
         - exfalso. pose proof (Ss eq_refl) as Se.
           assert (S1 : settled (allow_order (mkOrder h q) (s_eorder s))).
           { destruct Se as ((T1 & T2) & N1 & N2). split; [split; simpl; [destruct h|destruct q]; simpl; auto|].
             simpl. destruct Ph as [->|(n & ->)], Pq as [->|(k & ->)]; simpl; split; auto; discriminate. }
           destruct (scalar_complete S1) as ((C1 & C2) & _).
           destruct F as [(_ & F)|(_ & F)]; auto. }
    destruct (empty_fold e1) eqn:Ee; simpl.
    { intros H. injection H as <-. right. right. left.
      destruct X as [(-> & -> & ->)|[->|(Ne & ->)]]; auto.
      - discriminate.
      - apply (empty_fold_plain Pe) in Ee. congruence. }
    assert (N : e1 <> fold0) by (intros ->; discriminate).
    destruct (filled_fold e1) as [e2|c'] eqn:E2; simpl.
    + rewrite (Z N _ eq_refl). discriminate.
    + intros H. injection H as <-. auto.
Qed.

(** The first example of cru_filter(7), and a filter that only thins. *)
Example C44_filter_ex :
  (exists f', inferred_filter (mkFilter None (mkProp (mkFold (Some (User 1)) None None None None None)
                                                fold0 fold0) fold0 order0) (scalar_sig 0) = ok f'
              /\ f_map (p_vertex (fi_vop f')) = Some (User 1))
  /\ (exists f', inferred_filter (mkFilter (Some (User 1)) prop0 fold0 order0) (scalar_sig 0) = ok f'
                 /\ f_map (fi_eop f') = Some TrueTop /\ f_map (p_vertex (fi_vop f')) = Some FalseTop).
Proof. split; eexists; repeat split; reflexivity. Qed.

(** A vertex test given as a bmap is an internal error for the same reason as
    in an inducer (src/infer.c:543). *)
Theorem C44_bmap_in_filter_refuted :
  exists f, plain_filter f /\ f_map (p_vertex (fi_vop f)) = None
    /\ given (f_bmap (p_vertex (fi_vop f)))
    /\ inferred_filter f (scalar_sig 0) = bad (IER 820).
Proof.
  exists (mkFilter None (mkProp (mkFold None (Some (User 1)) None None None None) fold0 fold0) fold0 order0).
  split; [|repeat split; auto; exists 1; auto].
  unfold plain_filter, plain_prop, plain_fold, plain_order, plain, given. simpl. repeat split; eauto.
Qed.

(** "If an ordering is defined by the fi_order field but no edge filter is
    defined by fi_kernel.e_op field, then an error of CRU_INCFIL is reported"
    (cru_filter(7)); not if there is a thinner. *)
Theorem C44_ordered_thinning_refuted :
  exists f, plain_filter f /\ fi_order f <> order0 /\ fi_eop f = fold0
    /\ exists f', inferred_filter f (scalar_sig 0) = ok f'.
Proof.
  exists (mkFilter (Some (User 1)) prop0 fold0 (mkOrder (Some (User 2)) (Some (User 3)))).
  split; [|split; [discriminate|split; [reflexivity|eexists; reflexivity]]].
  unfold plain_filter, plain_prop, plain_fold, plain_order, plain, given. simpl. repeat split; eauto.
Qed.
