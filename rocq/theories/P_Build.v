(** Theorems about building graphs: claims C01 to C08. *)
From Coq Require Import List Arith NArith Lia Bool Permutation.
From Verif Require Import Base Machine Ports PortsProofs PortsTerm PortsExec P_Ports.
From Verif Require Import Brigade BrigadeProofs Graph Build BuildProofs BuildMore BuildMain BuildTerm.
Import ListNotations.

Set Implicit Arguments.

(** ** Specification vocabulary *)

(** What the manual requires of the user's functions. *)
Record sane {V E} (B : builder V E) : Prop := {
  sane_veq : equivalence (b_veq B);
  sane_vhash : forall x y, b_veq B x y = true -> b_vhash B x = b_vhash B y;
  sane_eeq : equivalence (b_eeq B);
  sane_ehash : forall x y, b_eeq B x y = true -> b_ehash B x = b_ehash B y
}.

(** [s] is the state left by a finished traversal of the building task, under any schedule
    of the threads; the workers delivered their results in the given order. *)
Definition built {V E} (B : builder V E) (X : env) (v0 : V) (order : list nat) (s : bst) : Prop :=
  exists y, reachable (lanes X) (dest B X) (task B X) (first v0) (start v0) y /\ traversal_over y /\
            sh y = s /\ Permutation order (seq 0 (lanes X)).

(** What [_cru_built] returns then. *)
Definition result {V E} (B : builder V E) X v0 order s : option (graph V E) := o_graph (finish B X v0 order s).
Definition status {V E} (B : builder V E) X v0 order s : option error := o_err (finish B X v0 order s).

(** The connections declared by the user's function on some occasion. *)
Definition declared {V E} (B : builder V E) (o : option E) (v : V) : list (E * V) := fst (b_conn B o v).

(** The occasion arising from an incident label: a connector is not told about it. *)
Definition occasion {V E} (B : builder V E) (l : E) : option E := if b_sub B then Some l else None.

Definition oeq {V E} (B : builder V E) (o o' : option E) : Prop :=
  match o, o' with
  | None, None => True
  | Some x, Some y => b_eeq B x y = true
  | _, _ => False
  end.

(** The combinations of occasion and vertex that are reachable from the initial vertex. *)
Inductive reached {V E} (B : builder V E) (v0 : V) : option E -> V -> Prop :=
| reached_start : reached B v0 None v0
| reached_next o v l w : reached B v0 o v -> In (l, w) (declared B o v) -> reached B v0 (occasion B l) w.

(** The user's function does not distinguish equal vertices and labels. *)
Definition congruent {V E} (B : builder V E) : Prop :=
  forall o o' v v', oeq B o o' -> b_veq B v v' = true ->
  forall l w, In (l, w) (declared B o v) ->
  exists l' w', In (l', w') (declared B o' v') /\ b_eeq B l l' = true /\ b_veq B w w' = true.

(** ** What holds of the graph returned by any successful build *)
Record facts {V E} (B : builder V E) (v0 : V) (s : bst) (g : graph V E) (ocs : nat -> list (option E)) : Prop := {
  fa_wf : wf g;
  fa_root : vx g (root g) = v0;
  fa_inj : forall n m, In n (ids g) -> In m (ids g) -> b_veq B (vx g n) (vx g m) = true -> n = m;
  fa_sound : forall n l m, In n (ids g) -> In (l, m) (es g n) ->
     exists o w, In o (ocs n) /\ In (l, w) (declared B o (vx g n)) /\ b_veq B w (vx g m) = true;
  fa_complete : forall n o l w, In n (ids g) -> In o (ocs n) -> In (l, w) (declared B o (vx g n)) ->
     exists l' m, In (l', m) (es g n) /\ In m (ids g) /\ b_eeq B l l' = true /\ b_veq B w (vx g m) = true;
  fa_unique : forall n, In n (ids g) ->
     ForallOrdPairs (fun a b : E * nat => ~ (b_eeq B (fst a) (fst b) = true /\ snd a = snd b)) (es g n);
  fa_calls : Permutation (calls s) (flat_map (fun n => map (fun o => (o, vx g n)) (ocs n)) (ids g));
  fa_conn : b_sub B = false -> forall n, In n (ids g) -> ocs n = [None];
  fa_sub : b_sub B = true -> forall n, In n (ids g) ->
     exists ls, ocs n = map Some ls ++ (if Nat.eqb n (root g) then [None] else []) /\
                ForallOrdPairs (fun x y => b_eeq B x y = false) ls;
  fa_in : forall m l n, In m (ids g) -> In (l, n) (es g m) -> exists o, In o (ocs n) /\ oeq B (occasion B l) o;
  fa_occ : forall n x, In n (ids g) -> In (Some x) (ocs n) ->
     exists m l, In m (ids g) /\ In (l, n) (es g m) /\ b_eeq B x l = true;
  fa_R : forall R : option E -> V -> Prop,
     R None v0 ->
     (forall o v l w, R o v -> In (l, w) (declared B o v) -> R (occasion B l) w) ->
     (forall o v w, R o v -> b_veq B v w = true -> R o w) ->
     forall n o, In n (ids g) -> In o (ocs n) -> R o (vx g n);
  fa_parent : forall n, In n (ids g) -> n <> root g ->
     exists m o l, In m (ids g) /\ In o (ocs m) /\ In (l, vx g n) (declared B o (vx g m))
}.

Lemma dest_lt {V E} (B : builder V E) X : 0 < lanes X -> forall p, dest B X p < lanes X.
Proof. intros H p. now apply lane_of_lt. Qed.

Lemma built_runs {V E} (B : builder V E) X v0 order s :
  0 < lanes X -> built B X v0 order s -> mruns (task B X) (start v0, [first v0]) (s, []).
Proof.
  intros Hl (y & Hr & Ho & <- & _).
  apply (C09_finished_traversal_is_complete (dest_lt B X Hl) Hr Ho).
Qed.

Lemma built_facts {V E} (B : builder V E) X v0 order s g :
  sane B -> 0 < lanes X -> built B X v0 order s -> result B X v0 order s = Some g ->
  facts B v0 s g (occs s).
Proof.
  intros [S1 S2 S3 S4] Hl Hb Hg. pose proof (built_runs Hl Hb) as Hrun.
  destruct Hb as (y & _ & _ & _ & Hord).
  pose proof (@invs_runs V E B X S1 S2 S3 S4 Hl v0 _ _ Hrun) as I.
  pose proof I as (I1 & I2 & I4 & I5 & I6).
  destruct (@finish_cases V E B X S3 S4 Hl v0 s order I Hord) as [C|C].
  2:{ destruct C as (e & C & _). unfold result in Hg. congruence. }
  destruct C as (g' & C1 & C2 & C3 & C4 & _ & C5 & C6 & C7 & C8 & _).
  unfold result in Hg. assert (g' = g) by congruence. subst g'.
  pose proof (nodes_perm B X Hl v0 s I) as P. rewrite <- C5 in P.
  assert (Hin : forall n, In n (ids g) <-> n < length (verts s)).
  { intros n. split; intros H.
    - eapply Permutation_in in H; [|exact P]. apply in_seq in H. lia.
    - eapply Permutation_in; [symmetry; exact P|]. apply in_seq. lia. }
  assert (Vx : forall n, vx g n = vtx s n v0) by (intros; now rewrite C6).
  assert (Es : forall n, es g n = node_edges B X s n) by (intros; now rewrite C7).
  split.
  - split.
    + eapply Permutation_NoDup; [symmetry; exact P|apply seq_NoDup].
    + rewrite Hin, C8. auto.
    + intros n l m Hn Hm. apply Hin in Hn. apply Hin. rewrite Es in Hm.
      eapply (es_sound B X S1 S3 S4 v0 s I C3) in Hm; tauto.
    + intros n Hn. rewrite C8. apply Hin in Hn. eapply path_root; eauto.
  - rewrite C8, Vx. now apply (k_root _ _ I4).
  - intros n m Hn Hm. rewrite !Vx. apply Hin in Hn, Hm. eapply vt_inj; eauto.
  - intros n l m Hn Hm. apply Hin in Hn. rewrite Es in Hm.
    destruct (es_sound B X S1 S3 S4 v0 s I C3 n l m Hn Hm) as (_ & o & w & A1 & A2 & A3).
    exists o, w. rewrite !Vx. auto.
  - intros n o l w Hn Ho Hd. apply Hin in Hn. unfold declared in Hd. rewrite Vx in Hd.
    destruct (es_complete B X S1 S3 S4 Hl v0 s I C3 n o l w Hn Ho Hd) as (l' & m & A1 & A2 & A3 & A4).
    exists l', m. rewrite Es, Hin, Vx. auto.
  - intros n Hn. apply Hin in Hn. rewrite Es. eapply finished_distinct; eauto.
  - rewrite (l_c _ _ _ I5), flat_seq, <- P. rewrite C6. reflexivity.
  - intros Hs n Hn. apply Hin in Hn. now apply (oo_conn _ _ _ (j_occs _ _ _ _ _ I2 n Hn)).
  - intros Hs n Hn. apply Hin in Hn. destruct (oo_sub _ _ _ (j_occs _ _ _ _ _ I2 n Hn) Hs) as (ls & A1 & _ & _ & A2).
    rewrite C8. eauto.
  - intros m l n Hm Hn. apply Hin in Hm. rewrite Es in Hn.
    destruct (edge_sound B X S3 S4 v0 s I C3 m l n Hm Hn) as (e & A1 & A2 & A3 & A4 & A5 & A6).
    unfold hasocc in A6. unfold occasion. destruct (b_sub B).
    + destruct A6 as (x & Hx & Ex). exists (Some x). auto.
    + exists None. simpl. auto.
  - intros n x Hn Hx. apply Hin in Hn. destruct (k_occ _ _ I4 n x Hn Hx) as (e & He & Hr & Hl').
    apply flat_in in He as (m & Hm & He). destruct (edge_of B X S3 S4 Hl s m e Hm He) as (l & E1 & E2).
    unfold remote in E1. rewrite Hr in E1. exists m, l. rewrite Hin, Es. repeat split; auto. now rewrite <- Hl'.
  - intros R R0 R1 R2 n o Hn Ho. apply Hin in Hn. rewrite Vx.
    destruct (calls_runs B X S1 S2 S3 S4 Hl v0 R s [] R0 R1 R2 Hrun) as [K _]. auto.
  - intros n Hn Hne. apply Hin in Hn. rewrite C8 in Hne.
    destruct (k_par _ _ I4 n) as (m & e & A1 & A2 & A3 & A4); try lia.
    assert (Hm : m < length (verts s)) by lia.
    destruct (outs_sound B X S1 S3 S4 v0 s I m e Hm A2) as (o & O1 & O2).
    exists m, o, (elab e). rewrite Hin, !Vx. rewrite A4 in O2. auto.
Qed.

Lemma reached_represented {V E} (B : builder V E) v0 s g ocs :
  sane B -> congruent B -> facts B v0 s g ocs ->
  forall o v, reached B v0 o v ->
  exists n o', In n (ids g) /\ b_veq B v (vx g n) = true /\ In o' (ocs n) /\ oeq B o o'.
Proof.
  intros Sa Hc F o v Hr. destruct Sa as [S1 S2 S3 S4]. induction Hr as [|o v l w Hr IH Hl].
  - exists (root g), None. pose proof (wf_root (fa_wf F)) as Hroot. repeat split; auto.
    + rewrite (fa_root F). apply (eqv_refl S1).
    + destruct (b_sub B) eqn:Es.
      * destruct (fa_sub F Es _ Hroot) as (ls & -> & _). rewrite Nat.eqb_refl. apply in_or_app. simpl; auto.
      * rewrite (fa_conn F Es _ Hroot). simpl; auto.
  - destruct IH as (n & o' & Hn & Hv & Ho & Eo).
    destruct (Hc o o' v (vx g n) Eo Hv l w Hl) as (l' & w' & H1 & H2 & H3).
    destruct (fa_complete F n o' l' w' Hn Ho H1) as (l2 & m & H4 & H5 & H6 & H7).
    destruct (fa_in F n l2 m Hn H4) as (o2 & H8 & H9). exists m, o2. repeat split; auto.
    + eapply (eqv_trans S1); eauto.
    + unfold occasion in *. destruct (b_sub B); [|destruct o2; auto].
      destruct o2 as [x|]; simpl in *; auto. eapply (eqv_trans S3); [exact H2|]. eapply (eqv_trans S3); eauto.
Qed.

Lemma called_reached {V E} (B : builder V E) v0 s g ocs :
  sane B -> congruent B -> facts B v0 s g ocs ->
  forall n o, In n (ids g) -> In o (ocs n) ->
  exists o' v, reached B v0 o' v /\ oeq B o o' /\ b_veq B v (vx g n) = true.
Proof.
  intros [S1 S2 S3 S4] Hc F.
  apply (fa_R F (fun o v => exists o' v', reached B v0 o' v' /\ oeq B o o' /\ b_veq B v' v = true)).
  - exists None, v0. repeat split; simpl; auto. constructor. apply (eqv_refl S1).
  - intros o v l w (o' & v' & H1 & H2 & H3) Hl.
    destruct (Hc o o' v v' H2 (eqv_sym S1 _ _ H3) l w Hl) as (l' & w' & H4 & H5 & H6).
    exists (occasion B l'), w'. repeat split.
    + econstructor; eauto.
    + unfold occasion. destruct (b_sub B); simpl; auto.
    + now apply (eqv_sym S1).
  - intros o v w (o' & v' & H1 & H2 & H3) Hw. exists o', v'. repeat split; auto. eapply (eqv_trans S1); eauto.
Qed.

(** ** A concrete builder for the examples: vertices are numbers modulo 5, labels numbers modulo 3;
    some declarations are duplicates. *)
Definition mod_eq (k x y : nat) : bool := x mod k =? y mod k.

Definition bex (sub : bool) (limit : nat) (fails : nat -> bool) : builder nat nat :=
  mkBuilder (mod_eq 5) (fun v => N.of_nat (v mod 5)) (mod_eq 3) (fun l => N.of_nat (l mod 3)) sub
    (fun o v => (match o with
                 | None => [(0, v + 1); (3, v + 6); (1, v + 2)]
                 | Some l => [(l + 1, v + 1); (l + 4, v + 6)]
                 end, if fails (v mod 5) then Some (USERERR 5) else None)) limit.

Definition xex (n : nat) : env := mkEnv n true (fun _ => false) (fun _ => false).
Definition never (_ : nat) : bool := false.

Definition run (B : builder nat nat) (X : env) (k : nat) : sys :=
  exec (lanes X) (dest B X) (task B X) (first 7) (rounds k) (init (lanes X) (start 7)).

Definition show (o : option (graph nat nat)) :=
  match o with None => None | Some g => Some (root g, map (fun n => (n, vx g n, es g n)) (ids g)) end.

Lemma mod_eq_equivalence k : equivalence (mod_eq k).
Proof.
  split; unfold mod_eq; intros.
  - apply Nat.eqb_refl.
  - now rewrite Nat.eqb_sym.
  - apply Nat.eqb_eq in H, H0. apply Nat.eqb_eq. congruence.
Qed.

Lemma bex_sane sub k fails : sane (bex sub k fails).
Proof.
  split; try apply mod_eq_equivalence; intros x y H; cbn [bex b_veq b_vhash b_eeq b_ehash] in *;
    unfold mod_eq in H; apply Nat.eqb_eq in H; now rewrite H.
Qed.

Lemma mod_eq_add k x y d : k <> 0 -> mod_eq k x y = true -> mod_eq k (x + d) (y + d) = true.
Proof.
  unfold mod_eq. intros Hk H. apply Nat.eqb_eq in H. apply Nat.eqb_eq.
  rewrite (Nat.add_mod x d k Hk), (Nat.add_mod y d k Hk), H. reflexivity.
Qed.

Lemma bex_congruent sub k fails : congruent (bex sub k fails).
Proof.
  intros o o' v v' Ho Hv l w Hl. unfold declared in *. simpl in *.
  destruct o as [x|], o' as [z|]; simpl in Ho; try contradiction; simpl in *.
  - destruct Hl as [Hl|[Hl|[]]]; inversion Hl; subst.
    + exists (z + 1), (v' + 1). split; auto. split; apply mod_eq_add; auto.
    + exists (z + 4), (v' + 6). split; auto. split; apply mod_eq_add; auto.
  - destruct Hl as [Hl|[Hl|[Hl|[]]]]; inversion Hl; subst.
    + exists 0, (v' + 1). split; auto. split; [reflexivity|]. apply mod_eq_add; auto.
    + exists 3, (v' + 6). split; auto. split; [reflexivity|]. apply mod_eq_add; auto.
    + exists 1, (v' + 2). split; auto. split; [reflexivity|]. apply mod_eq_add; auto.
Qed.

Lemma run_reachable B X k :
  reachable (lanes X) (dest B X) (task B X) (first 7) (start 7) (run B X k).
Proof. apply exec_sound, rounds_ok. Qed.

Lemma run_built B X k order :
  mainpc (run B X k) = MDone -> Permutation order (seq 0 (lanes X)) -> built B X 7 order (sh (run B X k)).
Proof.
  intros H Hp. exists (run B X k). split; [apply run_reachable|]. split; [right; right; auto|auto].
Qed.

Lemma some_with {A} (r : option A) (P : A -> Prop) :
  match r with Some g => P g | None => False end -> exists g, r = Some g /\ P g.
Proof. destruct r; [eauto|tauto]. Qed.
Lemma some_any {A} (r : option A) : match r with Some g => True | None => False end -> exists g, r = Some g.
Proof. destruct r; [eauto|tauto]. Qed.

(** The connector, two workers which finish in the order 1, 0. *)
Definition B1 := bex false 0 never.
Definition s1 := sh (run B1 (xex 2) 60).
Lemma s1_built : built B1 (xex 2) 7 [1; 0] s1.
Proof. apply run_built; [vm_compute; reflexivity|apply perm_swap]. Qed.

(** The subconnector. *)
Definition B2 := bex true 0 never.
Definition s2 := sh (run B2 (xex 2) 90).
Lemma s2_built : built B2 (xex 2) 7 [1; 0] s2.
Proof. apply run_built; [vm_compute; reflexivity|apply perm_swap]. Qed.

(** A vertex limit of 2. *)
Definition B3 := bex false 2 never.
Definition s3 := sh (run B3 (xex 2) 60).
Lemma s3_built : built B3 (xex 2) 7 [1; 0] s3.
Proof. apply run_built; [vm_compute; reflexivity|apply perm_swap]. Qed.

(** A connector that fails for one vertex. *)
Definition B4 := bex false 0 (Nat.eqb 3).
Definition s4 := sh (run B4 (xex 2) 60).
Lemma s4_built : built B4 (xex 2) 7 [1; 0] s4.
Proof. apply run_built; [vm_compute; reflexivity|apply perm_swap]. Qed.

(** ** C01 *)

(** With a user function that respects equality, the vertices are exactly the reachable ones,
    one per class.  [built] covers every schedule and [lanes X] every number of workers. *)
Theorem C01_exactly_the_reachable_vertices :
  forall (V E : Type) (B : builder V E) (X : env) (v0 : V) (order : list nat) (s : bst) (g : graph V E),
    sane B -> congruent B -> 0 < lanes X ->
    built B X v0 order s -> result B X v0 order s = Some g ->
    (forall n, In n (ids g) -> exists o v, reached B v0 o v /\ b_veq B v (vx g n) = true) /\
    (forall o v, reached B v0 o v ->
       exists n, In n (ids g) /\ b_veq B v (vx g n) = true /\
         forall m, In m (ids g) -> b_veq B v (vx g m) = true -> m = n) /\
    vx g (root g) = v0 /\ NoDup (ids g).
Proof.
  intros V E B X v0 order s g Sa Hc Hl Hb Hg. pose proof (built_facts Sa Hl Hb Hg) as F.
  pose proof Sa as [S1 S2 S3 S4]. split; [|split; [|split]].
  - intros n Hn.
    assert (Ho : exists o, In o (occs s n)).
    { destruct (b_sub B) eqn:Es.
      - destruct (Nat.eq_dec n (root g)) as [->|Hne].
        + destruct (fa_sub F Es _ Hn) as (ls & -> & _). rewrite Nat.eqb_refl. exists None. apply in_or_app; simpl; auto.
        + pose proof (wf_reach (fa_wf F) n Hn) as Hp. inversion Hp; subst; [congruence|].
          destruct (fa_in F b l n) as (o & Ho & _); eauto.
          eapply path_in; [apply (fa_wf F)|apply (fa_wf F)|eauto].
      - rewrite (fa_conn F Es _ Hn). exists None. simpl; auto. }
    destruct Ho as (o & Ho). destruct (called_reached Sa Hc F n o Hn Ho) as (o' & v & H1 & _ & H3). eauto.
  - intros o v Hr. destruct (reached_represented Sa Hc F Hr) as (n & _ & Hn & Hv & _).
    exists n. repeat split; auto. intros m Hm Hm'. apply (fa_inj F); auto.
    eapply (eqv_trans S1); [apply (eqv_sym S1); exact Hm'|auto].
  - apply (fa_root F).
  - apply (wf_nodup (fa_wf F)).
Qed.

Example C01_exactly_the_reachable_vertices_ex :
  sane B1 /\ congruent B1 /\ built B1 (xex 2) 7 [1; 0] s1 /\
  show (result B1 (xex 2) 7 [1; 0] s1) =
    Some (0, [(0, 7, [(3, 4); (1, 1)]); (1, 9, [(3, 2); (1, 3)]); (2, 15, [(3, 3); (1, 0)]);
              (3, 21, [(3, 0); (1, 4)]); (4, 13, [(3, 1); (1, 2)])]) /\
  reached B1 7 None 10.
Proof.
  split; [apply bex_sane|]. split; [apply bex_congruent|]. split; [apply s1_built|]. split; [vm_compute; reflexivity|].
  apply (@reached_next _ _ B1 7 None 9 0); [|simpl; auto]. apply (@reached_next _ _ B1 7 None 7 1); [|simpl; auto].
  constructor.
Qed.

(** Without that condition: the initial vertex is present, every other vertex is one that was
    declared for a vertex of the graph, every connection declared leads to a vertex equal to
    the declared one, no two vertices are equal, and all are connected. *)
Theorem C01_any_connector :
  forall (V E : Type) (B : builder V E) (X : env) (v0 : V) (order : list nat) (s : bst) (g : graph V E),
    sane B -> b_sub B = false -> 0 < lanes X ->
    built B X v0 order s -> result B X v0 order s = Some g ->
    vx g (root g) = v0 /\
    (forall n, In n (ids g) -> n <> root g ->
       exists m l, In m (ids g) /\ In (l, vx g n) (declared B None (vx g m))) /\
    (forall n l w, In n (ids g) -> In (l, w) (declared B None (vx g n)) ->
       exists m, In m (ids g) /\ b_veq B w (vx g m) = true) /\
    (forall n m, In n (ids g) -> In m (ids g) -> b_veq B (vx g n) (vx g m) = true -> n = m) /\ wf g.
Proof.
  intros V E B X v0 order s g Sa Hs Hl Hb Hg. pose proof (built_facts Sa Hl Hb Hg) as F.
  split; [apply (fa_root F)|]. split; [|split; [|split; [apply (fa_inj F)|apply (fa_wf F)]]].
  - intros n Hn Hne. destruct (fa_parent F Hn Hne) as (m & o & l & H1 & H2 & H3).
    rewrite (fa_conn F Hs _ H1) in H2. destruct H2 as [<-|[]]. eauto.
  - intros n l w Hn Hd. destruct (fa_complete F n None l w Hn) as (l' & m & _ & H2 & _ & H4); auto.
    + rewrite (fa_conn F Hs _ Hn). simpl; auto.
    + eauto.
Qed.

Example C01_any_connector_ex :
  sane B1 /\ b_sub B1 = false /\ built B1 (xex 2) 7 [1; 0] s1 /\
  exists g, result B1 (xex 2) 7 [1; 0] s1 = Some g /\ ids g = [0; 1; 2; 3; 4] /\ map (vx g) (ids g) = [7; 9; 15; 21; 13].
Proof.
  split; [apply bex_sane|]. split; [reflexivity|]. split; [apply s1_built|].
  apply some_with. vm_compute. repeat split; try reflexivity.
Qed.

(** ** C02 *)
Theorem C02_exactly_the_declared_edges :
  forall (V E : Type) (B : builder V E) (X : env) (v0 : V) (order : list nat) (s : bst) (g : graph V E),
    sane B -> b_sub B = false -> 0 < lanes X ->
    built B X v0 order s -> result B X v0 order s = Some g ->
    forall n, In n (ids g) ->
      (forall l m, In (l, m) (es g n) ->
         In m (ids g) /\ exists w, In (l, w) (declared B None (vx g n)) /\ b_veq B w (vx g m) = true) /\
      (forall l w, In (l, w) (declared B None (vx g n)) ->
         exists l' m, In (l', m) (es g n) /\ b_eeq B l l' = true /\ b_veq B w (vx g m) = true) /\
      ForallOrdPairs (fun a b : E * nat => ~ (b_eeq B (fst a) (fst b) = true /\ snd a = snd b)) (es g n).
Proof.
  intros V E B X v0 order s g Sa Hs Hl Hb Hg n Hn. pose proof (built_facts Sa Hl Hb Hg) as F.
  pose proof (fa_conn F Hs _ Hn) as Ho. split; [|split].
  - intros l m Hm. split; [eapply (wf_closed (fa_wf F)); eauto|].
    destruct (fa_sound F n l m Hn Hm) as (o & w & H1 & H2 & H3). rewrite Ho in H1. destruct H1 as [<-|[]]. eauto.
  - intros l w Hd. destruct (fa_complete F n None l w Hn) as (l' & m & H1 & _ & H3 & H4); eauto.
    rewrite Ho. simpl; auto.
  - now apply (fa_unique F).
Qed.

(** Three connections are declared for each vertex, two of them equivalent. *)
Example C02_exactly_the_declared_edges_ex :
  sane B1 /\ b_sub B1 = false /\ built B1 (xex 2) 7 [1; 0] s1 /\
  exists g, result B1 (xex 2) 7 [1; 0] s1 = Some g /\ declared B1 None 7 = [(0, 8); (3, 13); (1, 9)] /\
    es g 0 = [(3, 4); (1, 1)] /\ vx g 4 = 13 /\ vx g 1 = 9.
Proof.
  split; [apply bex_sane|]. split; [reflexivity|]. split; [apply s1_built|].
  apply some_with. vm_compute. repeat split; try reflexivity.
Qed.

(** ** C03 *)
Theorem C03_connector_called_once_per_vertex :
  forall (V E : Type) (B : builder V E) (X : env) (v0 : V) (order : list nat) (s : bst) (g : graph V E),
    sane B -> b_sub B = false -> 0 < lanes X ->
    built B X v0 order s -> result B X v0 order s = Some g ->
    Permutation (calls s) (map (fun n => (None, vx g n)) (ids g)).
Proof.
  intros V E B X v0 order s g Sa Hs Hl Hb Hg. pose proof (built_facts Sa Hl Hb Hg) as F.
  rewrite (fa_calls F).
  assert (G : forall l, (forall n, In n l -> In n (ids g)) ->
    flat_map (fun n => map (fun o => (o, vx g n)) (occs s n)) l = map (fun n => (None, vx g n)) l).
  { induction l; simpl; intros H; auto. rewrite (fa_conn F Hs a) by auto. simpl. f_equal. auto. }
  now rewrite G.
Qed.

Example C03_connector_called_once_per_vertex_ex :
  sane B1 /\ b_sub B1 = false /\ built B1 (xex 2) 7 [1; 0] s1 /\
  calls s1 = [(None, 13); (None, 21); (None, 15); (None, 9); (None, 7)] /\
  exists g, result B1 (xex 2) 7 [1; 0] s1 = Some g.
Proof.
  split; [apply bex_sane|]. split; [reflexivity|]. split; [apply s1_built|]. split; [vm_compute; reflexivity|].
  apply some_any. vm_compute. exact I.
Qed.

(** ** C04 *)

(** At every moment of every schedule: what the user handed over is in a node, in a packet in
    flight, or has been destroyed. *)
Theorem C04_every_moment :
  forall (V E : Type) (B : builder V E) (X : env) (v0 : V) (y : sys),
    sane B -> 0 < lanes X ->
    reachable (lanes X) (dest B X) (task B X) (first v0) (start v0) y -> mainpc y <> MStart -> mainpc y <> MSend ->
    Permutation (hv (sh y)) (verts (sh y) ++ map pay (in_flight (lanes X) y) ++ vfree (sh y)) /\
    Permutation (he (sh y)) (map elab (flat (length (verts (sh y))) (outs (sh y))) ++ efree (sh y)).
Proof.
  intros V E B X v0 y [S1 S2 S3 S4] Hl Hr Hm Hm'. pose proof (refines (dest_lt B X Hl) Hr) as H.
  assert (H' : exists b, mruns (task B X) (start v0, [first v0]) (sh y, b) /\ Permutation b (in_flight (lanes X) y)).
  { destruct (mainpc y); try congruence; auto. }
  destruct H' as (b & H1 & H2).
  pose proof (@invs_runs V E B X S1 S2 S3 S4 Hl v0 _ _ H1) as (_ & _ & _ & I5 & _).
  split; [|apply (l_e _ _ _ I5)]. rewrite (l_v _ _ _ I5). apply Permutation_app_head, Permutation_app_tail.
  now apply Permutation_map.
Qed.

Example C04_every_moment_ex :
  let y := run B1 (xex 2) 12 in
  sane B1 /\ reachable (lanes (xex 2)) (dest B1 (xex 2)) (task B1 (xex 2)) (first 7) (start 7) y /\ mainpc y = MWait /\
  verts (sh y) = [7; 9; 15] /\ map pay (in_flight 2 y) = [21; 11; 13] /\ vfree (sh y) = [17; 16; 10; 8] /\
  hv (sh y) = [16; 21; 17; 10; 15; 11; 8; 13; 9; 7].
Proof.
  intros y. split; [apply bex_sane|]. split; [exact (run_reachable B1 (xex 2) 12)|]. vm_compute; repeat split; try reflexivity.
Qed.

(** After a success everything handed over is in the graph or destroyed, and nothing else. *)
Theorem C04_success :
  forall (V E : Type) (B : builder V E) (X : env) (v0 : V) (order : list nat) (s : bst) (g : graph V E),
    sane B -> 0 < lanes X -> built B X v0 order s -> result B X v0 order s = Some g ->
    Permutation (hv s) (map (vx g) (ids g) ++ o_vfree (finish B X v0 order s)) /\
    Permutation (he s) (map fst (flat_map (es g) (ids g)) ++ o_efree (finish B X v0 order s)).
Proof.
  intros V E B X v0 order s g [S1 S2 S3 S4] Hl Hb Hg. pose proof (built_runs Hl Hb) as Hrun.
  destruct Hb as (y & _ & _ & _ & Hord).
  pose proof (@invs_runs V E B X S1 S2 S3 S4 Hl v0 _ _ Hrun) as I.
  pose proof I as (I1 & I2 & I4 & I5 & I6).
  destruct (@finish_cases V E B X S3 S4 Hl v0 s order I Hord) as [C|C].
  2:{ destruct C as (e & C & _). unfold result in Hg. congruence. }
  destruct C as (g' & C1 & C2 & C3 & C4 & _ & C5 & C6 & C7 & C8 & C9 & C10).
  unfold result in Hg. assert (g' = g) by congruence. subst g'. rewrite C9, C10.
  pose proof (nodes_perm B X Hl v0 s I) as P. rewrite <- C5 in P. split.
  - rewrite (l_v _ _ _ I5). simpl. apply Permutation_app_tail. rewrite P, C6. unfold vtx.
    clear. induction (verts s) as [|v l IH]; auto. simpl. constructor. now rewrite <- seq_shift, map_map.
  - rewrite (l_e _ _ _ I5), app_assoc. apply Permutation_app_tail. rewrite <- C5, flat_seq, <- P, C7.
    clear - S3 S4. induction (ids g) as [|n l IH]; simpl; auto. rewrite !map_app, IH.
    unfold node_edges. rewrite map_map. simpl.
    assert (Pn : Permutation (map elab (outs s n))
                (map elab (fst (finished_edges B X s n)) ++ map elab (snd (finished_edges B X s n)))).
    { rewrite <- map_app. apply Permutation_map. unfold finished_edges.
      destruct (b_sub B); [|simpl; now rewrite app_nil_r].
      apply (dd_perm (@deduplicated_edges_dedup _ E (b_eeq B) (judy X) (b_ehash B) elab
                          (fun e => N.of_nat (remote s e)) (outs s n) S3 S4)). }
    rewrite Pn. change (fun x : bedge => elab x) with (@elab V E). perm_solve.
Qed.

Example C04_success_ex :
  sane B1 /\ built B1 (xex 2) 7 [1; 0] s1 /\
  o_vfree (finish B1 (xex 2) 7 [1; 0] s1) = [27; 19; 15; 23; 14; 11; 22; 17; 16; 10; 8] /\
  o_efree (finish B1 (xex 2) 7 [1; 0] s1) = [0; 0; 0; 0; 0] /\
  exists g, result B1 (xex 2) 7 [1; 0] s1 = Some g.
Proof.
  split; [apply bex_sane|]. split; [apply s1_built|]. split; [vm_compute; reflexivity|].
  split; [vm_compute; reflexivity|]. apply some_any. vm_compute. exact I.
Qed.

(** After a failure everything handed over has been destroyed exactly once. *)
Theorem C04_failure :
  forall (V E : Type) (B : builder V E) (X : env) (v0 : V) (order : list nat) (s : bst),
    sane B -> 0 < lanes X -> built B X v0 order s -> result B X v0 order s = None ->
    Permutation (hv s) (o_vfree (finish B X v0 order s)) /\
    Permutation (he s) (o_efree (finish B X v0 order s)).
Proof.
  intros V E B X v0 order s [S1 S2 S3 S4] Hl Hb Hg. pose proof (built_runs Hl Hb) as Hrun.
  destruct Hb as (y & _ & _ & _ & Hord).
  pose proof (@invs_runs V E B X S1 S2 S3 S4 Hl v0 _ _ Hrun) as I.
  pose proof I as (I1 & I2 & I4 & I5 & I6).
  destruct (@finish_cases V E B X S3 S4 Hl v0 s order I Hord) as [C|C].
  1:{ destruct C as (e & C & _). unfold result in Hg. congruence. }
  destruct C as (e & C1 & C2 & C3 & C4 & C5).
  pose proof (nodes_perm B X Hl v0 s I) as P. split.
  - rewrite (l_v _ _ _ I5), C4. simpl. apply Permutation_app_tail. rewrite P. unfold vtx.
    clear. induction (verts s) as [|v l IH]; auto. simpl. constructor. now rewrite <- seq_shift, map_map.
  - now rewrite C5, (l_e _ _ _ I5).
Qed.

Example C04_failure_ex :
  sane B4 /\ built B4 (xex 2) 7 [1; 0] s4 /\ result B4 (xex 2) 7 [1; 0] s4 = None /\
  length (o_vfree (finish B4 (xex 2) 7 [1; 0] s4)) = 16 /\ length (hv s4) = 16.
Proof.
  split; [apply bex_sane|]. split; [apply s4_built|]. vm_compute; repeat split; try reflexivity.
Qed.

(** ** C05 *)

(** The subconnector is called once, without a label, for the initial vertex, and once for each
    vertex and class of labels on edges into it; these are exactly the reachable combinations. *)
Theorem C05_subconnector_calls :
  forall (V E : Type) (B : builder V E) (X : env) (v0 : V) (order : list nat) (s : bst) (g : graph V E),
    sane B -> b_sub B = true -> 0 < lanes X ->
    built B X v0 order s -> result B X v0 order s = Some g ->
    exists ls : nat -> list E,
      Permutation (calls s)
        ((None, v0) :: flat_map (fun n => map (fun x => (Some x, vx g n)) (ls n)) (ids g)) /\
      forall n, In n (ids g) ->
        ForallOrdPairs (fun x y => b_eeq B x y = false) (ls n) /\
        (forall m l, In m (ids g) -> In (l, n) (es g m) -> exists x, In x (ls n) /\ b_eeq B l x = true) /\
        (forall x, In x (ls n) -> exists m l, In m (ids g) /\ In (l, n) (es g m) /\ b_eeq B x l = true).
Proof.
  intros V E B X v0 order s g Sa Hs Hl Hb Hg. pose proof (built_facts Sa Hl Hb Hg) as F.
  set (get := fun o : list (option E) => flat_map (fun x => match x with Some y => [y] | None => [] end) o).
  assert (Hget : forall n, In n (ids g) ->
     occs s n = map Some (get (occs s n)) ++ (if Nat.eqb n (root g) then [None] else []) /\
     ForallOrdPairs (fun x y => b_eeq B x y = false) (get (occs s n))).
  { intros n Hn. destruct (fa_sub F Hs _ Hn) as (ls & E1 & E2).
    assert (G : get (occs s n) = ls).
    { rewrite E1. unfold get. rewrite flat_map_app.
      assert (G1 : forall l : list E, flat_map (fun x : option E => match x with Some y => [y] | None => [] end) (map Some l) = l)
        by (induction l; simpl; congruence).
      rewrite G1. destruct (Nat.eqb n (root g)); simpl; now rewrite app_nil_r. }
    rewrite G. auto. }
  exists (fun n => get (occs s n)). split.
  - rewrite (fa_calls F).
    pose proof (wf_root (fa_wf F)) as Hroot. apply in_split in Hroot as (l1 & l2 & El).
    pose proof (wf_nodup (fa_wf F)) as Hnd. rewrite El in Hnd.
    apply NoDup_remove_2 in Hnd. rewrite El.
    assert (G : forall l, (forall n, In n l -> In n (ids g) /\ n <> root g) ->
      flat_map (fun n => map (fun o => (o, vx g n)) (occs s n)) l =
      flat_map (fun n => map (fun x => (Some x, vx g n)) (get (occs s n))) l).
    { induction l; simpl; intros H; auto. rewrite IHl by auto. f_equal.
      destruct (H a) as [Ha Hne]; auto. destruct (Hget a Ha) as [E1 _]. rewrite E1 at 1.
      apply Nat.eqb_neq in Hne. rewrite Hne, app_nil_r. now rewrite map_map. }
    rewrite !flat_map_app. simpl.
    rewrite (G l1), (G l2).
    + destruct (Hget (root g)) as [E1 _]; [rewrite El; apply in_or_app; simpl; auto|].
      rewrite E1 at 1. rewrite Nat.eqb_refl, map_app, map_map. simpl. rewrite (fa_root F). perm_solve.
    + intros n Hn. split; [rewrite El; apply in_or_app; simpl; auto|]. intros ->. apply Hnd. apply in_or_app; auto.
    + intros n Hn. split; [rewrite El; apply in_or_app; simpl; auto|]. intros ->. apply Hnd. apply in_or_app; auto.
  - intros n Hn. destruct (Hget n Hn) as [E1 E2]. split; [auto|]. split.
    + intros m l Hm Hml. destruct (fa_in F m l n Hm Hml) as (o & Ho & Eo). unfold occasion in Eo. rewrite Hs in Eo.
      destruct o as [x|]; [|contradiction]. exists x. split; auto.
      rewrite E1 in Ho. apply in_app_or in Ho as [Ho|Ho].
      * apply in_map_iff in Ho as (z & Hz & Ho). congruence.
      * destruct (Nat.eqb n (root g)); simpl in Ho; intuition discriminate.
    + intros x Hx. apply (fa_occ F); auto. rewrite E1. apply in_or_app. left. now apply in_map.
Qed.

Example C05_subconnector_calls_ex :
  sane B2 /\ b_sub B2 = true /\ built B2 (xex 2) 7 [1; 0] s2 /\
  calls s2 = [(Some 53, 7); (Some 49, 21); (Some 45, 15); (Some 41, 9); (Some 37, 13); (Some 33, 7); (Some 29, 21);
              (Some 25, 15); (Some 21, 9); (Some 17, 13); (Some 13, 7); (Some 3, 13); (Some 9, 21); (Some 5, 15);
              (Some 1, 9); (None, 7)] /\
  exists g, result B2 (xex 2) 7 [1; 0] s2 = Some g /\ es g 3 = [(13, 0); (33, 0); (53, 0)].
Proof.
  split; [apply bex_sane|]. split; [reflexivity|]. split; [apply s2_built|]. split; [vm_compute; reflexivity|].
  apply some_with. vm_compute. repeat split; try reflexivity.
Qed.

(** They are the combinations reachable from the initial vertex, with a subconnector that does
    not distinguish equal vertices and labels. *)
Theorem C05_reachable_combinations :
  forall (V E : Type) (B : builder V E) (X : env) (v0 : V) (order : list nat) (s : bst) (g : graph V E),
    sane B -> congruent B -> 0 < lanes X ->
    built B X v0 order s -> result B X v0 order s = Some g ->
    (forall o v, In (o, v) (calls s) -> exists o' v', reached B v0 o' v' /\ oeq B o o' /\ b_veq B v' v = true) /\
    (forall o v, reached B v0 o v -> exists o' v', In (o', v') (calls s) /\ oeq B o o' /\ b_veq B v v' = true).
Proof.
  intros V E B X v0 order s g Sa Hc Hl Hb Hg. pose proof (built_facts Sa Hl Hb Hg) as F. split.
  - intros o v H. eapply Permutation_in in H; [|apply (fa_calls F)].
    apply in_flat_map in H as (n & Hn & H). apply in_map_iff in H as (o1 & H & Ho). inversion H; subst.
    apply (called_reached Sa Hc F n o Hn Ho).
  - intros o v H. destruct (reached_represented Sa Hc F H) as (n & o' & H1 & H2 & H3 & H4).
    exists o', (vx g n). repeat split; auto. eapply Permutation_in; [symmetry; apply (fa_calls F)|].
    apply in_flat_map. exists n. split; auto. apply in_map_iff. eauto.
Qed.

Example C05_reachable_combinations_ex :
  sane B2 /\ congruent B2 /\ built B2 (xex 2) 7 [1; 0] s2 /\ length (calls s2) = 16 /\
  (exists g, result B2 (xex 2) 7 [1; 0] s2 = Some g) /\ reached B2 7 (Some 2) 10.
Proof.
  split; [apply bex_sane|]. split; [apply bex_congruent|]. split; [apply s2_built|]. split; [vm_compute; reflexivity|].
  split; [apply some_any; vm_compute; exact I|].
  apply (@reached_next _ _ B2 7 (Some 1) 9 2); [|simpl; auto]. apply (@reached_next _ _ B2 7 None 7 1); [|simpl; auto].
  constructor.
Qed.

(** The edges of a vertex are the union of what the calls for it declared, without duplicates. *)
Theorem C05_edges_are_the_union :
  forall (V E : Type) (B : builder V E) (X : env) (v0 : V) (order : list nat) (s : bst) (g : graph V E),
    sane B -> 0 < lanes X ->
    built B X v0 order s -> result B X v0 order s = Some g ->
    forall n, In n (ids g) ->
      (forall l m, In (l, m) (es g n) ->
         In m (ids g) /\
         exists o w, In (o, vx g n) (calls s) /\ In (l, w) (declared B o (vx g n)) /\ b_veq B w (vx g m) = true) /\
      (forall o l w, In (o, vx g n) (calls s) -> In (l, w) (declared B o (vx g n)) ->
         exists l' m, In (l', m) (es g n) /\ b_eeq B l l' = true /\ b_veq B w (vx g m) = true) /\
      ForallOrdPairs (fun a b : E * nat => ~ (b_eeq B (fst a) (fst b) = true /\ snd a = snd b)) (es g n).
Proof.
  intros V E B X v0 order s g Sa Hl Hb Hg n Hn. pose proof (built_facts Sa Hl Hb Hg) as F.
  pose proof Sa as [S1 S2 S3 S4].
  assert (Hcalls : forall o, In (o, vx g n) (calls s) <-> In o (occs s n)).
  { intros o. split; intros H.
    - eapply Permutation_in in H; [|apply (fa_calls F)].
      apply in_flat_map in H as (m & Hm & H). apply in_map_iff in H as (o1 & H & Ho). inversion H as [[H1 H2]]. subst.
      assert (m = n); [|now subst]. apply (fa_inj F); auto. rewrite H2. apply (eqv_refl S1).
    - eapply Permutation_in; [symmetry; apply (fa_calls F)|].
      apply in_flat_map. exists n. split; auto. apply in_map_iff. eauto. }
  split; [|split].
  - intros l m Hm. split; [eapply (wf_closed (fa_wf F)); eauto|].
    destruct (fa_sound F n l m Hn Hm) as (o & w & H1 & H2 & H3). exists o, w. rewrite Hcalls. auto.
  - intros o l w Ho Hd. apply Hcalls in Ho.
    destruct (fa_complete F n o l w Hn Ho Hd) as (l' & m & H1 & _ & H3 & H4); eauto.
  - now apply (fa_unique F).
Qed.

Example C05_edges_are_the_union_ex :
  sane B2 /\ built B2 (xex 2) 7 [1; 0] s2 /\
  exists g, result B2 (xex 2) 7 [1; 0] s2 = Some g /\ es g 0 = [(1, 1); (3, 4); (17, 4); (37, 4)] /\ vx g 0 = 7 /\
    filter (fun c => snd c =? 7) (calls s2) = [(Some 53, 7); (Some 33, 7); (Some 13, 7); (None, 7)].
Proof.
  split; [apply bex_sane|]. split; [apply s2_built|].
  apply some_with. vm_compute. repeat split; try reflexivity.
Qed.

(** ** C06 *)
Lemma C06_simulation :
  forall (V E : Type) (B : builder V E) (X1 X2 : env) (v0 : V) (o1 o2 : list nat) (s1 s2 : bst) (g1 g2 : graph V E),
    sane B -> congruent B -> 0 < lanes X1 -> 0 < lanes X2 ->
    built B X1 v0 o1 s1 -> result B X1 v0 o1 s1 = Some g1 ->
    built B X2 v0 o2 s2 -> result B X2 v0 o2 s2 = Some g2 ->
    (forall n1, In n1 (ids g1) -> exists n2, In n2 (ids g2) /\ b_veq B (vx g1 n1) (vx g2 n2) = true /\
        (forall n, In n (ids g2) -> b_veq B (vx g1 n1) (vx g2 n) = true -> n = n2)) /\
    (forall n1 n2, In n1 (ids g1) -> In n2 (ids g2) -> b_veq B (vx g1 n1) (vx g2 n2) = true ->
       forall l m1, In (l, m1) (es g1 n1) ->
       exists l' m2, In (l', m2) (es g2 n2) /\ b_eeq B l l' = true /\ b_veq B (vx g1 m1) (vx g2 m2) = true) /\
    b_veq B (vx g1 (root g1)) (vx g2 (root g2)) = true /\
    length (ids g1) <= length (ids g2).
Proof.
  intros V E B X1 X2 v0 o1 o2 s1 s2 g1 g2 Sa Hc Hl1 Hl2 Hb1 Hg1 Hb2 Hg2.
  pose proof (built_facts Sa Hl1 Hb1 Hg1) as F1. pose proof (built_facts Sa Hl2 Hb2 Hg2) as F2.
  pose proof Sa as [S1 S2 S3 S4].
  pose proof (C01_exactly_the_reachable_vertices Sa Hc Hl1 Hb1 Hg1) as (A1 & _ & _).
  assert (Hex : forall n1, In n1 (ids g1) -> exists n2, In n2 (ids g2) /\ b_veq B (vx g1 n1) (vx g2 n2) = true /\
        (forall n, In n (ids g2) -> b_veq B (vx g1 n1) (vx g2 n) = true -> n = n2)).
  { intros n1 H1. destruct (A1 n1 H1) as (o & v & Hr & Hv).
    destruct (reached_represented Sa Hc F2 Hr) as (n2 & _ & H2 & H3 & _).
    assert (Q : b_veq B (vx g1 n1) (vx g2 n2) = true) by (eapply (eqv_trans S1); [apply (eqv_sym S1); exact Hv|auto]).
    exists n2. repeat split; auto.
    intros n Hn Hn'. apply (fa_inj F2); auto. eapply (eqv_trans S1); [apply (eqv_sym S1); exact Hn'|auto]. }
  split; [exact Hex|]. split; [|split].
  - intros n1 n2 H1 H2 Hv l m1 Hm.
    destruct (fa_sound F1 n1 l m1 H1 Hm) as (o & w & Ho & Hd & Hw).
    destruct (called_reached Sa Hc F1 n1 o H1 Ho) as (o' & v & Hr & Eo & Ev).
    destruct (reached_represented Sa Hc F2 Hr) as (n2' & o2' & H3 & H4 & H5 & H6).
    assert (n2' = n2).
    { apply (fa_inj F2); auto. eapply (eqv_trans S1); [apply (eqv_sym S1); exact H4|].
      eapply (eqv_trans S1); [exact Ev|exact Hv]. }
    subst n2'.
    assert (Eo2 : oeq B o o2').
    { destruct o, o', o2'; simpl in *; try tauto. eapply (eqv_trans S3); eauto. }
    destruct (Hc o o2' (vx g1 n1) (vx g2 n2) Eo2 Hv l w Hd) as (l' & w' & D1 & D2 & D3).
    destruct (fa_complete F2 n2 o2' l' w' H2 H5 D1) as (l2 & m2 & E1 & E2 & E3 & E4).
    exists l2, m2. repeat split; auto.
    + eapply (eqv_trans S3); eauto.
    + eapply (eqv_trans S1); [apply (eqv_sym S1); exact Hw|]. eapply (eqv_trans S1); eauto.
  - rewrite (fa_root F1), (fa_root F2). apply (eqv_refl S1).
  - apply (@pigeonhole _ _ (fun n1 n2 => In n1 (ids g1) /\ b_veq B (vx g1 n1) (vx g2 n2) = true) (fun a b => a = b)).
    + intros x y z [Hx Ex] [Hy Ey]. apply (fa_inj F1); auto. eapply (eqv_trans S1); [exact Ex|]. now apply (eqv_sym S1).
    + pose proof (wf_nodup (fa_wf F1)) as Hnd. clear - Hnd. induction Hnd as [|z l Hz Hnd IH]; constructor; auto.
      apply Forall_forall. intros w Hw ->. contradiction.
    + intros x Hx. destruct (Hex x Hx) as (n2 & H2 & H3 & _). eauto.
Qed.

(** Two successful builds give the same graph up to equality of vertices and labels: the relation
    "equal vertices" is a bijection between the nodes under which the edges correspond. *)
Theorem C06_schedule_independence :
  forall (V E : Type) (B : builder V E) (X1 X2 : env) (v0 : V) (o1 o2 : list nat) (s1 s2 : bst) (g1 g2 : graph V E),
    sane B -> congruent B -> 0 < lanes X1 -> 0 < lanes X2 ->
    built B X1 v0 o1 s1 -> result B X1 v0 o1 s1 = Some g1 ->
    built B X2 v0 o2 s2 -> result B X2 v0 o2 s2 = Some g2 ->
    (forall n1, In n1 (ids g1) -> exists n2, In n2 (ids g2) /\ b_veq B (vx g1 n1) (vx g2 n2) = true /\
        (forall n, In n (ids g2) -> b_veq B (vx g1 n1) (vx g2 n) = true -> n = n2)) /\
    (forall n2, In n2 (ids g2) -> exists n1, In n1 (ids g1) /\ b_veq B (vx g1 n1) (vx g2 n2) = true /\
        (forall n, In n (ids g1) -> b_veq B (vx g1 n) (vx g2 n2) = true -> n = n1)) /\
    (forall n1 n2, In n1 (ids g1) -> In n2 (ids g2) -> b_veq B (vx g1 n1) (vx g2 n2) = true ->
       (forall l m1, In (l, m1) (es g1 n1) ->
        exists l' m2, In (l', m2) (es g2 n2) /\ b_eeq B l l' = true /\ b_veq B (vx g1 m1) (vx g2 m2) = true) /\
       (forall l m2, In (l, m2) (es g2 n2) ->
        exists l' m1, In (l', m1) (es g1 n1) /\ b_eeq B l l' = true /\ b_veq B (vx g1 m1) (vx g2 m2) = true)) /\
    b_veq B (vx g1 (root g1)) (vx g2 (root g2)) = true /\
    length (ids g1) = length (ids g2).
Proof.
  intros V E B X1 X2 v0 o1 o2 s1 s2 g1 g2 Sa Hc Hl1 Hl2 Hb1 Hg1 Hb2 Hg2.
  destruct (C06_simulation Sa Hc Hl1 Hl2 Hb1 Hg1 Hb2 Hg2) as (A1 & A2 & A3 & A4).
  destruct (C06_simulation Sa Hc Hl2 Hl1 Hb2 Hg2 Hb1 Hg1) as (B1 & B2 & _ & B4).
  pose proof (eqv_symb (sane_veq Sa)) as Sy.
  split; [auto|]. split; [|split; [|split; [auto|lia]]].
  - intros n2 H2. destruct (B1 n2 H2) as (n1 & H1 & Hv & Hu). exists n1. rewrite Sy.
    repeat split; auto. intros n Hn Hn'. apply Hu; auto. now rewrite Sy.
  - intros n1 n2 H1 H2 Hv. split; [now apply A2|]. intros l m2 Hm. rewrite Sy in Hv.
    destruct (B2 n2 n1 H2 H1 Hv l m2 Hm) as (l' & m1 & E1 & E2 & E3). exists l', m1. rewrite Sy. auto.
Qed.

(** One worker without Judy arrays against two workers with them; the representatives differ. *)
Definition X1 : env := mkEnv 1 false (fun _ => false) (fun _ => false).
Definition s1' := sh (run B1 X1 60).
Lemma s1'_built : built B1 X1 7 [0] s1'.
Proof. apply run_built; [vm_compute; reflexivity|apply Permutation_refl]. Qed.

Example C06_schedule_independence_ex :
  sane B1 /\ congruent B1 /\
  built B1 X1 7 [0] s1' /\ built B1 (xex 2) 7 [1; 0] s1 /\
  (exists g1, result B1 X1 7 [0] s1' = Some g1 /\ map (vx g1) (ids g1) = [7; 8; 9; 10; 11]) /\
  (exists g2, result B1 (xex 2) 7 [1; 0] s1 = Some g2 /\ map (vx g2) (ids g2) = [7; 9; 15; 21; 13]).
Proof.
  split; [apply bex_sane|]. split; [apply bex_congruent|].
  split; [apply s1'_built|]. split; [apply s1_built|].
  split; apply some_with; vm_compute; reflexivity.
Qed.

(** ** C07 *)
Lemma lim_times {V E} (B : builder V E) X : 0 < lanes X -> b_limit B <> 0 -> lanes X * limit B X <= Nat.max (b_limit B) (lanes X).
Proof.
  intros Hl Hb. unfold limit. pose proof (Nat.mul_div_le (b_limit B) (lanes X)).
  destruct (b_limit B / lanes X) as [|q] eqn:Eq; [|lia].
  apply Nat.eqb_neq in Hb. rewrite Hb. lia.
Qed.

Theorem C07_limit_respected :
  forall (V E : Type) (B : builder V E) (X : env) (v0 : V) (order : list nat) (s : bst) (g : graph V E),
    sane B -> 0 < lanes X -> b_limit B <> 0 ->
    built B X v0 order s -> result B X v0 order s = Some g ->
    length (ids g) <= Nat.max (b_limit B) (lanes X).
Proof.
  intros V E B X v0 order s g [S1 S2 S3 S4] Hl Hlim Hb Hg. pose proof (built_runs Hl Hb) as Hrun.
  destruct Hb as (y & _ & _ & _ & Hord).
  pose proof (@invs_runs V E B X S1 S2 S3 S4 Hl v0 _ _ Hrun) as I.
  pose proof I as (I1 & I2 & I4 & I5 & I6).
  destruct (@finish_cases V E B X S3 S4 Hl v0 s order I Hord) as [C|C].
  2:{ destruct C as (e & C & _). unfold result in Hg. congruence. }
  destruct C as (g' & C1 & C2 & C3 & C4 & _ & C5 & _). unfold result in Hg. assert (g' = g) by congruence. subst g'.
  rewrite C5. etransitivity; [|apply lim_times; auto]. apply flat_length. intros l _. apply (m_limit _ _ _ I6).
  unfold limit. apply Nat.eqb_neq in Hlim. rewrite Hlim. destruct (b_limit B / lanes X); lia.
Qed.

Example C07_limit_respected_ex :
  let B := bex false 9 never in
  let s := sh (run B (xex 2) 60) in
  sane B /\ b_limit B = 9 /\ built B (xex 2) 7 [1; 0] s /\
  exists g, result B (xex 2) 7 [1; 0] s = Some g /\ length (ids g) = 5.
Proof.
  intros B s. split; [apply bex_sane|]. split; [reflexivity|].
  split; [apply run_built; [vm_compute; reflexivity|apply perm_swap]|].
  apply some_with. vm_compute. repeat split; try reflexivity.
Qed.

(** An overflow is reported only if a user function reported it or some worker owned a full share
    of distinct vertices; never if there is no limit. *)
Theorem C07_overflow_justified :
  forall (V E : Type) (B : builder V E) (X : env) (v0 : V) (order : list nat) (s : bst),
    sane B -> 0 < lanes X -> (forall o v, snd (b_conn B o v) <> Some INTOVF) ->
    built B X v0 order s -> status B X v0 order s = Some INTOVF ->
    b_limit B <> 0 /\
    exists l vs, l < lanes X /\ Nat.max 1 (b_limit B / lanes X) <= length vs /\
      (forall v, In v vs -> In v (hv s) /\ lane_of (lanes X) (b_vhash B v) = l) /\
      ForallOrdPairs (fun v w => b_veq B v w = false) vs.
Proof.
  intros V E B X v0 order s [S1 S2 S3 S4] Hl Hovf Hb Hg. pose proof (built_runs Hl Hb) as Hrun.
  destruct Hb as (y & _ & _ & _ & Hord).
  pose proof (@invs_runs V E B X S1 S2 S3 S4 Hl v0 _ _ Hrun) as I.
  pose proof I as (I1 & I2 & I4 & I5 & I6).
  destruct (@finish_cases V E B X S3 S4 Hl v0 s order I Hord) as [C|C].
  { destruct C as (g & C1 & C2 & _). unfold status in Hg. congruence. }
  destruct C as (e & C1 & C2 & C3 & _). unfold status in Hg. assert (e = INTOVF) by congruence. subst e.
  destruct C3 as [C3|(_ & C3 & _)]; [|discriminate].
  destruct (first_error_some s order _ C3) as (l & Hle).
  destruct (m_err _ _ _ I6 l _ Hle) as [(_ & M1 & M2)|(o & v & _ & M)]; [|now apply Hovf in M].
  split.
  { intros Hz. apply M1. unfold limit. rewrite Hz. now rewrite Nat.div_0_l by lia. }
  exists l, (map (fun n => vtx s n v0) (queue s l)). split; [|split; [|split]].
  - apply (m_lanes _ _ _ I6). congruence.
  - rewrite map_length. unfold limit in M2. destruct (b_limit B / lanes X) as [|q] eqn:Eq; [|lia].
    destruct (Nat.eqb (b_limit B) 0) eqn:Ez; [|lia].
    exfalso. apply M1. unfold limit. now rewrite Eq, Ez.
  - intros v Hv. apply in_map_iff in Hv as (n & <- & Hn).
    rewrite (i_queue _ _ _ _ I1) in Hn. apply filter_In in Hn as [Hn Hq]. apply in_seq in Hn.
    apply Nat.eqb_eq in Hq. split; [|exact Hq].
    eapply Permutation_in; [symmetry; apply (l_v _ _ _ I5)|]. apply in_or_app. left.
    unfold vtx. apply nth_In. lia.
  - rewrite (i_queue _ _ _ _ I1).
    assert (G : forall k a, a + k <= length (verts s) ->
       ForallOrdPairs (fun v w => b_veq B v w = false)
         (map (fun n => vtx s n v0) (filter (inlane B X v0 s l) (seq a k)))).
    { induction k as [|k IH]; intros a Hk; simpl; [constructor|].
      destruct (inlane B X v0 s l a); [|apply IH; lia]. simpl. constructor; [|apply IH; lia].
      apply Forall_forall. intros w Hw. apply in_map_iff in Hw as (n & <- & Hn).
      apply filter_In in Hn as [Hn _]. apply in_seq in Hn. apply (i_distinct _ _ _ _ I1); lia. }
    apply G. lia.
Qed.

Example C07_overflow_justified_ex :
  sane B3 /\ (forall o v, snd (b_conn B3 o v) <> Some INTOVF) /\ built B3 (xex 2) 7 [1; 0] s3 /\
  status B3 (xex 2) 7 [1; 0] s3 = Some INTOVF /\ queue s3 1 = [1] /\ queue s3 0 = [0].
Proof.
  split; [apply bex_sane|]. split; [discriminate|]. split; [apply s3_built|]. vm_compute; repeat split; try reflexivity.
Qed.

(** ** C08 *)

(** The building function proper returns null exactly if there is an error, and the error is
    one that was raised by a user function, an overflow, or a kill that really was requested. *)
Theorem C08_failure_reported :
  forall (V E : Type) (B : builder V E) (X : env) (v0 : V) (order : list nat) (s : bst),
    sane B -> 0 < lanes X -> built B X v0 order s ->
    (result B X v0 order s = None <-> status B X v0 order s <> None) /\
    forall e, status B X v0 order s = Some e ->
      (exists o v, In (o, v) (calls s) /\ snd (b_conn B o v) = Some e) \/
      (e = INTOVF /\ b_limit B <> 0) \/
      (e = INTKIL /\ exists k, killcalls X k = true).
Proof.
  intros V E B X v0 order s [S1 S2 S3 S4] Hl Hb. pose proof (built_runs Hl Hb) as Hrun.
  destruct Hb as (y & _ & _ & _ & Hord).
  pose proof (@invs_runs V E B X S1 S2 S3 S4 Hl v0 _ _ Hrun) as I.
  pose proof I as (I1 & I2 & I4 & I5 & I6). unfold result, status.
  destruct (@finish_cases V E B X S3 S4 Hl v0 s order I Hord) as [C|C].
  - destruct C as (g & C1 & C2 & _). rewrite C1, C2. split; [split; congruence|discriminate].
  - destruct C as (e & C1 & C2 & C3 & _). rewrite C1, C2. split; [split; congruence|].
    intros e' He. inversion He; subst e'. destruct C3 as [C3|(C3 & -> & C4)].
    + destruct (first_error_some s order _ C3) as (l & Hle).
      destruct (m_err _ _ _ I6 l _ Hle) as [(-> & M1 & M2)|(o & v & M1 & M2)]; eauto.
      right. left. split; auto. intros Hz. apply M1. unfold limit. rewrite Hz. now rewrite Nat.div_0_l by lia.
    + right. right. split; auto. destruct C4 as [C4|C4]; eauto.
      destruct (m_kill _ _ _ I6 C4) as [(l & e & _ & Hle)|?]; auto.
      now rewrite (first_error_none B X Hl v0 s order I Hord C3 l) in Hle.
Qed.

Example C08_failure_reported_ex :
  sane B4 /\ built B4 (xex 2) 7 [1; 0] s4 /\ result B4 (xex 2) 7 [1; 0] s4 = None /\
  status B4 (xex 2) 7 [1; 0] s4 = Some (USERERR 5).
Proof. split; [apply bex_sane|]. split; [apply s4_built|]. split; vm_compute; reflexivity. Qed.

(** A user error is never dropped. *)
Theorem C08_user_error_reported :
  forall (V E : Type) (B : builder V E) (X : env) (v0 : V) (order : list nat) (s : bst) o v e,
    sane B -> 0 < lanes X -> built B X v0 order s ->
    In (o, v) (calls s) -> snd (b_conn B o v) = Some e ->
    result B X v0 order s = None /\ status B X v0 order s <> None.
Proof.
  intros V E B X v0 order s o v e [S1 S2 S3 S4] Hl Hb Hc He. pose proof (built_runs Hl Hb) as Hrun.
  destruct Hb as (y & _ & _ & _ & Hord).
  pose proof (@invs_runs V E B X S1 S2 S3 S4 Hl v0 _ _ Hrun) as I.
  pose proof I as (I1 & I2 & I4 & I5 & I6). unfold result, status.
  destruct (@finish_cases V E B X S3 S4 Hl v0 s order I Hord) as [C|C].
  - destruct C as (g & C1 & C2 & C3 & _). destruct (m_called _ _ _ I6 o v e Hc He) as (l & Hn).
    now rewrite (proj1 C3 l) in Hn.
  - destruct C as (e' & -> & -> & _). split; congruence.
Qed.

Example C08_user_error_reported_ex :
  sane B4 /\ built B4 (xex 2) 7 [1; 0] s4 /\ In (None, 13) (calls s4) /\ snd (b_conn B4 None 13) = Some (USERERR 5).
Proof.
  split; [apply bex_sane|]. split; [apply s4_built|]. split; [vm_compute; auto 10|vm_compute; reflexivity].
Qed.

(** The API function, however, stores into the graph without testing it: whenever building
    fails it dereferences a null pointer. *)
Theorem C08_failed_build_dereferences_null_refuted :
  exists (B : builder nat nat) (X : env) (v0 : nat) (order : list nat) (s : bst),
    sane B /\ 0 < lanes X /\ built B X v0 order s /\
    status B X v0 order s = Some (USERERR 5) /\
    cru_built_end (finish B X v0 order s) = NullDereference (finish B X v0 order s).
Proof.
  exists B4, (xex 2), 7, [1; 0], s4. split; [apply bex_sane|]. split; [simpl; auto|]. split; [apply s4_built|].
  split; vm_compute; reflexivity.
Qed.

(** ** Termination *)
Theorem C01_building_terminates :
  forall (V E : Type) (B : builder V E) (X : env) (v0 : V) (R : option E -> V -> Prop) (N : nat) (Ls : list E) (y : sys),
    sane B -> 0 < lanes X ->
    R None v0 ->
    (forall o v l w, R o v -> In (l, w) (declared B o v) -> R (occasion B l) w) ->
    (forall o v w, R o v -> b_veq B v w = true -> R o w) ->
    (b_limit B <> 0 /\ Nat.max (b_limit B) (lanes X) <= N \/
     exists U, length U <= N /\ forall o v, R o v -> exists u, In u U /\ b_veq B v u = true) ->
    (forall x v, R (Some x) v -> exists z, In z Ls /\ b_eeq B x z = true) ->
    reachable (lanes X) (dest B X) (task B X) (first v0) (start v0) y ->
    Acc (fun b a => step (lanes X) (dest B X) (task B X) (first v0) a b) y.
Proof.
  intros V E B X v0 R N Ls y [S1 S2 S3 S4] Hl R0 R1 R2 HN HL Hr.
  eapply (C11_every_schedule_terminates (dest_lt B X Hl)); eauto; [discriminate|].
  eapply (@build_terminates V E B X S1 S2 S3 S4 Hl v0 R R0 R1 R2 N); eauto.
  destruct HN as [[H1 H2]|?]; auto. left. pose proof (lim_times B X Hl H1) as H3. split; [|lia].
  unfold limit. apply Nat.eqb_neq in H1. rewrite H1. destruct (b_limit B / lanes X); lia.
Qed.

(** ** C36: a build that is killed *)
Lemma task_time {V E} (B : builder V E) X s p s' out :
  task B X s p = Some (s', out) -> tick s' = S (tick s) /\ (killed s || killcalls X (tick s) = true -> killed s' = true).
Proof.
  intros H. unfold task in H. set (b := begin X s) in *.
  assert (T : tick b = S (tick s) /\ killed b = killed s || killcalls X (tick s)) by (split; reflexivity).
  destruct T as [T1 T2]. rewrite <- T1, <- T2. clearbody b. clear T1 T2.
  assert (C : forall s l n o v s' out, connect B X s l n o v = (s', out) -> tick s' = tick s /\ killed s' = killed s).
  { intros s0 l n o v s0' out'. unfold connect. destruct (declare B X o v) as [[k f] e]. intros G. inversion G. auto. }
  unfold process, reached_new, reach_extant, discard in H. inversion H as [H1]. clear H.
  destruct (lerr b (dest B X p)).
  { inversion H1; subst; simpl; auto. }
  destruct (lkil b (dest B X p) || _).
  { inversion H1; subst; simpl; auto. }
  destruct (collision B X b (dest B X p) p).
  - destruct (if b_sub B then lab p else None).
    + destruct (recorded _ _ _ _ _); [inversion H1; subst; auto|]. apply C in H1 as [-> ->]. auto.
    + inversion H1; subst; auto.
  - destruct (limit B X =? 0).
    + apply C in H1 as [-> ->]. auto.
    + destruct (count b (dest B X p) <? limit B X).
      * apply C in H1 as [-> ->]. auto.
      * inversion H1; subst; simpl; auto.
Qed.

(** The request is made when [k] packets were processed. *)
Theorem C36_killed_build_fails :
  forall (V E : Type) (B : builder V E) (X : env) (v0 : V) (order : list nat) (s : bst) k,
    0 < lanes X -> built B X v0 order s -> k <= tick s -> killcalls X k = true ->
    result B X v0 order s = None /\ status B X v0 order s <> None /\
    ((forall l, lerr s l = None) -> status B X v0 order s = Some INTKIL).
Proof.
  intros V E B X v0 order s k Hl Hb Hk Hc. assert (Hr := built_runs Hl Hb).
  assert (HI : forall j, j < tick s -> killcalls X j = true -> killed s = true).
  { refine (mruns_inv (fun (s : bst) (_ : list pkt) => forall j, j < tick s -> killcalls X j = true -> killed s = true) _ _ _ Hr).
    - auto.
    - intros s1 p b s2 out A H j Hj Hkc. apply task_time in H as [H1 H2]. apply H2.
      assert (Hj' : j < tick s1 \/ j = tick s1) by lia. destruct Hj' as [Hj'| ->].
      + now rewrite (A j Hj' Hkc).
      + now rewrite Hkc, orb_true_r.
    - simpl. intros; lia. }
  assert (G : killed s || killcalls X (tick s) = true).
  { assert (H : k < tick s \/ k = tick s) by lia. destruct H as [H| ->].
    - now rewrite (HI k H Hc).
    - now rewrite Hc, orb_true_r. }
  unfold result, status, finish. rewrite G.
  destruct (first_error s order) as [e|] eqn:Ee; simpl; (split; [auto|split; [discriminate|]]); auto.
  intros He. exfalso. clear - Ee He. induction order as [|l order IH]; [discriminate|]. simpl in Ee. rewrite He in Ee. auto.
Qed.

(** The request is made after three packets, and noticed later. *)
Definition xkill : env := mkEnv 2 true (fun k => Nat.even k) (Nat.eqb 3).
Definition sk := sh (run B1 xkill 60).
Example C36_killed_build_fails_ex :
  built B1 xkill 7 [1; 0] sk /\ 3 <= tick sk /\ killcalls xkill 3 = true /\ (forall l, l < 2 -> lerr sk l = None) /\
  status B1 xkill 7 [1; 0] sk = Some INTKIL /\ result B1 xkill 7 [1; 0] sk = None.
Proof.
  split; [apply run_built; [vm_compute; reflexivity|apply perm_swap]|].
  split; [apply Nat.leb_le; vm_compute; reflexivity|]. split; [reflexivity|].
  split; [intros [|[|l]] Hl; [vm_compute; reflexivity..|lia]|]. split; vm_compute; reflexivity.
Qed.
