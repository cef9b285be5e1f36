(** Fabrication and crossing: theorems. *)
From Coq Require Import List Arith NArith Lia Bool Permutation.
From Verif Require Import Base Machine Ports PortsProofs PortsTerm P_Ports Env Hash Graph Visitor VisitorProofs Run Walk
  TraverseProofs P_Traverse Construct Fabricate.
Import ListNotations.

Set Implicit Arguments.

Lemma flat_map_ext_in (A B : Type) (f h : A -> list B) l : (forall a, In a l -> f a = h a) -> flat_map f l = flat_map h l.
Proof. induction l as [|a l IH]; simpl; intros H; auto. rewrite H, IH; auto. Qed.

(** ** C35: fabrication *)
Section Fab.
  Context {V E W L : Type}.
  Variable g : graph V E.
  Variable v_fab : V -> result W.
  Variable e_fab : E -> result L.

  Lemma fab_edges_ok n es : forall i acc cs outs,
    fab_edges e_fab n i es acc = (cs, inl outs) ->
    cs = map (EFab n) (seq i (length es)) /\
    outs = rev (map (fun e => (fst (e_fab (fst e)), snd e)) es) ++ acc /\
    Forall (fun e => snd (e_fab (fst e)) = None) es.
  Proof.
    induction es as [|[l m] es IH]; simpl; intros i acc cs outs H.
    - inversion H; subst. auto.
    - destruct (e_fab l) as [l' [e|]] eqn:El; [discriminate|].
      destruct (fab_edges e_fab n (S i) es ((l', m) :: acc)) as [cs' r] eqn:Er. inversion H; subst.
      destruct (IH _ _ _ _ Er) as (-> & -> & F). split; auto. split.
      + rewrite <- app_assoc. reflexivity.
      + constructor; auto. simpl. now rewrite El.
  Qed.

  Lemma fab_make_ok n cs w outs :
    fab_make g v_fab e_fab n = (cs, inl (w, outs)) ->
    v_fab (vx g n) = (w, None) /\ cs = VFab n :: map (EFab n) (seq 0 (length (es g n))) /\
    outs = rev (map (fun e => (fst (e_fab (fst e)), snd e)) (es g n)).
  Proof.
    unfold fab_make. destruct (v_fab (vx g n)) as [w' [e|]]; [discriminate|].
    destruct (fab_edges e_fab n 0 (es g n) []) as [cs' [outs'|e]] eqn:Er; [|discriminate].
    intros H. inversion H; subst. apply fab_edges_ok in Er as (-> & -> & _). rewrite app_nil_r. auto.
  Qed.
End Fab.

(** The new graph is isomorphic to the given one, each node being identified with the one it was
    made for; labels are mapped by the fabricator. *)
Theorem C35_fabrication_is_an_isomorphism (V E W L : Type) X (g : graph V E) (v_fab : V -> result W) (e_fab : E -> result L) s order :
  wf g -> 0 < lanes X -> Permutation order (seq 0 (lanes X)) ->
  ran (lanes X) (fab_dest X) (fabricating X g v_fab e_fab) (vstart cstart) (mkCP (root g) None) s ->
  vstatus X order s = None ->
  Permutation (made (data s)) (ids g) /\ base X node_hash (data s) (root g) = Some (root g) /\
  forall n, In n (ids g) ->
    v_fab (vx g n) = (match vert (data s) n with Some w => w | None => fst (v_fab (vx g n)) end, None) /\
    vert (data s) n <> None /\
    Permutation (edges_of (data s) n) (map (fun e => (fst (e_fab (fst e)), Some (snd e))) (es g n)).
Proof.
  intros W0 Hl Ho Hr Hs. apply ran_completes in Hr; [|now apply vdest_lt].
  apply making_facts with (order := order) in Hr; auto; [|apply Nat.eqb_eq].
  destruct Hr as (A & B & C & _ & _ & D).
  assert (Hreach : forall n, kreach (fab_make g v_fab e_fab) (root g) n -> In n (ids g)).
  { intros n H. induction H as [|k cs w outs l k' H IH Hm Hin]; [apply (wf_root W0)|].
    apply fab_make_ok in Hm as (_ & _ & ->). rewrite <- in_rev in Hin.
    apply in_map_iff in Hin as ([l0 m] & E1 & Hin). inversion E1; subst. eapply (wf_closed W0); eauto. }
  assert (Hall : forall n, In n (made (data s)) <-> In n (ids g)).
  { intros n. rewrite B. split; auto. intros Hn. apply (wf_reach W0) in Hn.
    induction Hn as [|b l c Hb IH Hc]; [constructor|]. apply B in IH.
    destruct (D b IH) as (cs & w & outs & Hm & _). apply B in IH.
    eapply kr_step; eauto. apply fab_make_ok in Hm as (_ & _ & ->). rewrite <- in_rev.
    apply in_map_iff. exists (l, c). split; [reflexivity|auto]. }
  split; [apply NoDup_Permutation; auto; apply (wf_nodup W0)|]. split; auto.
  intros n Hn. apply Hall in Hn. destruct (D n Hn) as (cs & w & outs & Hm & Hv & He).
  apply fab_make_ok in Hm as (H1 & _ & ->). rewrite Hv, H1. split; auto. split; [discriminate|].
  rewrite He, map_rev, <- Permutation_rev, map_map. reflexivity.
Qed.

(** Each function is called exactly once per vertex or edge. *)
Theorem C35_functions_are_called_once (V E W L : Type) X (g : graph V E) (v_fab : V -> result W) (e_fab : E -> result L) s order :
  wf g -> 0 < lanes X -> Permutation order (seq 0 (lanes X)) ->
  ran (lanes X) (fab_dest X) (fabricating X g v_fab e_fab) (vstart cstart) (mkCP (root g) None) s ->
  vstatus X order s = None ->
  NoDup (calls (data s)) /\
  (forall n, In (VFab n) (calls (data s)) <-> In n (ids g)) /\
  (forall n i, In (EFab n i) (calls (data s)) <-> In n (ids g) /\ i < length (es g n)).
Proof.
  intros W0 Hl Ho Hr Hs.
  destruct (C35_fabrication_is_an_isomorphism W0 Hl Ho Hr Hs) as (P & _ & _).
  apply ran_completes in Hr; [|now apply vdest_lt].
  apply making_facts with (order := order) in Hr; auto; [|apply Nat.eqb_eq].
  destruct Hr as (A & B & _ & C & _ & D).
  assert (Hc : calls (data s) = flat_map (fun n => VFab n :: map (EFab n) (seq 0 (length (es g n)))) (made (data s))).
  { rewrite C. apply flat_map_ext_in. intros n Hn. destruct (D n Hn) as (cs & w & outs & Hm & _).
    rewrite Hm. simpl. now apply fab_make_ok in Hm as (_ & -> & _). }
  assert (Hin : forall n, In n (made (data s)) <-> In n (ids g)).
  { intros n. split; intros H; [eapply Permutation_in; [exact P|auto]|eapply Permutation_in; [symmetry; exact P|auto]]. }
  rewrite Hc. repeat split.
  - clear - A. induction A as [|n l Hn Hl IH]; simpl; [constructor|]. constructor.
    + intros H. apply in_app_or in H as [H|H].
      * apply in_map_iff in H as (i & E1 & _). discriminate.
      * apply in_flat_map in H as (m & Hm & [E1|H]); [inversion E1; subst; contradiction|].
        apply in_map_iff in H as (i & E1 & _). discriminate.
    + apply nodup_app; auto.
      * apply FinFun.Injective_map_NoDup; [|apply seq_NoDup]. intros x y E1. now inversion E1.
      * intros c Hc H. apply in_map_iff in Hc as (i & <- & _).
        apply in_flat_map in H as (m & Hm & [E1|H]); [discriminate|].
        apply in_map_iff in H as (j & E1 & _). inversion E1; subst. contradiction.
  - intros H. apply in_flat_map in H as (m & Hm & [E1|H]); [inversion E1; subst; now apply Hin|].
    apply in_map_iff in H as (j & E1 & _). discriminate.
  - intros H. apply in_flat_map. exists n. split; [now apply Hin|simpl; auto].
  - apply in_flat_map in H as (m & Hm & [E1|H]); [discriminate|].
    apply in_map_iff in H as (j & E1 & _). inversion E1; subst. now apply Hin.
  - apply in_flat_map in H as (m & Hm & [E1|H]); [discriminate|].
    apply in_map_iff in H as (j & E1 & Hj). inversion E1; subst. apply in_seq in Hj. lia.
  - intros [H1 H2]. apply in_flat_map. exists n. split; [now apply Hin|]. right. apply in_map, in_seq. lia.
Qed.

Theorem C35_fabrication_terminates (V E W L : Type) X (g : graph V E) (v_fab : V -> result W) (e_fab : E -> result L) y :
  wf g -> 0 < lanes X ->
  reachable (lanes X) (fab_dest X) (fabricating X g v_fab e_fab) (mkCP (root g) None) (vstart cstart) y ->
  Acc (fun y' x => step (lanes X) (fab_dest X) (fabricating X g v_fab e_fab) (mkCP (root g) None) x y') y.
Proof.
  intros W0 Hl Hy. eapply C11_every_schedule_terminates; eauto.
  - now apply vdest_lt.
  - intros s p. unfold fabricating, making, vtask. simpl. destruct (halted X ckey node_hash s p); [discriminate|].
    destruct (if have_seen X ckey Nat.eqb node_hash s p then _ else _) as [[? ?] ?]. discriminate.
  - apply making_terminates with (U := ids g); auto.
    + apply Nat.eqb_eq.
    + apply (wf_root W0).
    + intros k cs w outs l k' Hk Hm Hin. apply fab_make_ok in Hm as (_ & _ & ->). rewrite <- in_rev in Hin.
      apply in_map_iff in Hin as ([l0 m] & E1 & Hin). inversion E1; subst. eapply (wf_closed W0); eauto.
Qed.

Definition vf (v : nat) : result nat := (v * 100, None).
Definition ef (l : nat) : result nat := (l + 1000, None).
Local Notation run_fab := (sched_run (lanes X3) (fab_dest X3) (fabricating X3 G5 vf ef) (vstart cstart) (mkCP (root G5) None) 200).
Lemma run_fab_done : mainpc run_fab = MDone.
Proof. vm_compute. reflexivity. Qed.
Example C35_fabrication_ex :
  ran (lanes X3) (fab_dest X3) (fabricating X3 G5 vf ef) (vstart cstart) (mkCP (root G5) None) (sh run_fab) /\
  vstatus X3 [0; 1; 2] (sh run_fab) = None /\
  edges_of (data (sh run_fab)) 30 = [(1007, Some 30); (1006, Some 40); (1005, Some 10)] /\
  vert (data (sh run_fab)) 40 = Some 4000 /\ length (calls (data (sh run_fab))) = 13.
Proof. split; [apply sched_ran; exact run_fab_done|]. vm_compute. repeat split. Qed.

(** ** C34: crossing *)
Section Cross.
  Context {V1 E1 V2 E2 W L : Type}.
  Variable g : graph V1 E1.
  Variable h : graph V2 E2.
  Variable bpred : E1 -> E2 -> result bool.
  Variable bop : E1 -> E2 -> result L.
  Variable v_prod : V1 -> V2 -> result W.

  (** Pairs of nodes reachable by pairwise compatible edges. *)
  Inductive jointly : nat -> nat -> Prop :=
  | joint_base : jointly (root g) (root h)
  | joint_step a b l m r o :
      jointly a b -> In (l, m) (es g a) -> In (r, o) (es h b) -> fst (bpred l r) = true -> jointly m o.

  (** All compatible pairs of edges of [a] and [b], with the combined label and the pair of
      termini. *)
  Definition compatible_edges (a b : nat) : list (L * (nat * nat)) :=
    map (fun p => (fst (bop (fst (fst p)) (fst (snd p))), (snd (fst p), snd (snd p))))
        (filter (fun p => fst (bpred (fst (fst p)) (fst (snd p)))) (list_prod (es g a) (es h b))).

  Let combine_row (l : E1) (m : nat) (rs : list (E2 * nat)) : list (L * (nat * nat)) :=
    map (fun r => (fst (bop l (fst r)), (m, snd r))) (filter (fun r => fst (bpred l (fst r))) rs).

  Fixpoint row_calls (a i b j : nat) (l : E1) (rs : list (E2 * nat)) : list cross_call :=
    match rs with
    | [] => []
    | (r, _) :: rs' => CPred a i b j :: (if fst (bpred l r) then [COp a i b j] else []) ++ row_calls a i b (S j) l rs'
    end.
  Fixpoint edge_calls (a i b : nat) (ls : list (E1 * nat)) : list cross_call :=
    match ls with
    | [] => []
    | (l, _) :: ls' => row_calls a i b 0 l (es h b) ++ edge_calls a (S i) b ls'
    end.

  Lemma cross_row_ok a i b l m rs : forall j acc cs outs,
    cross_row bpred bop a i b j l m rs acc = (cs, inl outs) ->
    outs = rev (combine_row l m rs) ++ acc /\ cs = row_calls a i b j l rs.
  Proof.
    induction rs as [|[r o] rs IH]; simpl; intros j acc cs outs H.
    - inversion H; subst. auto.
    - unfold combine_row. simpl. destruct (bpred l r) as [[|] [e|]]; simpl in *; try discriminate.
      + destruct (bop l r) as [lb [e|]]; [discriminate|].
        destruct (cross_row bpred bop a i b (S j) l m rs ((lb, (m, o)) :: acc)) as [cs' x] eqn:Er. inversion H; subst.
        apply IH in Er as [-> ->]. split; auto. simpl. rewrite <- app_assoc. reflexivity.
      + destruct (cross_row bpred bop a i b (S j) l m rs acc) as [cs' x] eqn:Er. inversion H; subst.
        apply IH in Er as [-> ->]. auto.
  Qed.

  Lemma cross_edges_ok a b ls : forall i acc cs outs,
    cross_edges h bpred bop a i b ls acc = (cs, inl outs) ->
    outs = rev (flat_map (fun e => combine_row (fst e) (snd e) (es h b)) ls) ++ acc /\ cs = edge_calls a i b ls.
  Proof.
    induction ls as [|[l m] ls IH]; simpl; intros i acc cs outs H.
    - inversion H; subst. auto.
    - destruct (cross_row bpred bop a i b 0 l m (es h b) acc) as [cs1 [acc'|e]] eqn:Er; [|discriminate].
      apply cross_row_ok in Er as [-> ->].
      destruct (cross_edges h bpred bop a (S i) b ls (rev (combine_row l m (es h b)) ++ acc)) as [cs2 x] eqn:Ee.
      inversion H; subst. apply IH in Ee as [-> ->]. split; auto. rewrite rev_app_distr, <- app_assoc. reflexivity.
  Qed.

  Lemma compatible_edges_rows a b :
    compatible_edges a b = flat_map (fun e => combine_row (fst e) (snd e) (es h b)) (es g a).
  Proof.
    unfold compatible_edges. induction (es g a) as [|[l m] ls IH]; simpl; auto.
    rewrite filter_app, map_app, IH. f_equal. unfold combine_row. clear.
    induction (es h b) as [|[r o] rs IH]; simpl; auto. destruct (fst (bpred l r)); simpl; now rewrite IH.
  Qed.

  Lemma cross_make_ok a b cs w outs :
    cross_make g h bpred bop v_prod (a, b) = (cs, inl (w, outs)) ->
    v_prod (vx g a) (vx h b) = (w, None) /\ outs = rev (compatible_edges a b) /\
    cs = edge_calls a 0 b (es g a) ++ [CVert a b].
  Proof.
    unfold cross_make. destruct (cross_edges h bpred bop a 0 b (es g a) []) as [cs' [o|e]] eqn:Ee; [|discriminate].
    apply cross_edges_ok in Ee as [-> ->]. rewrite app_nil_r. destruct (v_prod (vx g a) (vx h b)) as [w' [e|]]; [discriminate|].
    intros H. inversion H; subst. rewrite compatible_edges_rows. auto.
  Qed.
End Cross.

Lemma product_eqb_eq k k' : product_eqb k k' = true <-> k = k'.
Proof.
  destruct k as [a b], k' as [a' b']. unfold product_eqb. simpl. rewrite andb_true_iff, !Nat.eqb_eq. split.
  - intros [-> ->]. auto.
  - intros H. inversion H. auto.
Qed.

Theorem C34_crossing (V1 E1 V2 E2 W L : Type) X (g : graph V1 E1) (h : graph V2 E2) bpred bop (v_prod : V1 -> V2 -> result W) limit s order :
  0 < lanes X -> Permutation order (seq 0 (lanes X)) ->
  ran (lanes X) (cross_dest X) (crossing X g h bpred (bop : E1 -> E2 -> result L) v_prod limit) (vstart cstart) (mkCP (root g, root h) None) s ->
  vstatus X order s = None ->
  NoDup (made (data s)) /\ base X rash (data s) (root g, root h) = Some (root g, root h) /\
  (forall a b, In (a, b) (made (data s)) <-> jointly g h bpred a b) /\
  (limit <> 0 -> length (made (data s)) <= Nat.max limit (lanes X)) /\
  forall a b, In (a, b) (made (data s)) ->
    vert (data s) (a, b) = Some (fst (v_prod (vx g a) (vx h b))) /\
    Permutation (edges_of (data s) (a, b)) (map (fun e => (fst e, Some (snd e))) (compatible_edges g h bpred bop a b)).
Proof.
  intros Hl Ho Hr Hs. apply ran_completes in Hr; [|now apply vdest_lt].
  apply making_facts with (order := order) in Hr; auto; [|apply product_eqb_eq].
  destruct Hr as (A & B & C & _ & Lm & D).
  split; auto. split; auto. split; [|split].
  - intros a b. rewrite B. split.
    + intros H. change a with (fst (a, b)) at 1. change b with (snd (a, b)) at 2.
      induction H as [|[a' b'] cs w outs l [m o] H IH Hm Hin]; [constructor|]. simpl in *.
      apply cross_make_ok in Hm as (_ & -> & _). rewrite <- in_rev in Hin. unfold compatible_edges in Hin.
      apply in_map_iff in Hin as ([[l1 m1] [r1 o1]] & E & Hin). inversion E; subst.
      apply filter_In in Hin as [Hin Hb]. apply in_prod_iff in Hin as [H1 H2]. simpl in *. econstructor; eauto.
    + intros H. induction H as [|a b l m r o H IH H1 H2 Hb]; [constructor|].
      apply B in IH. destruct (D _ IH) as (cs & w & outs & Hm & _). apply B in IH.
      eapply kr_step with (l := fst (bop l r)); eauto. apply cross_make_ok in Hm as (_ & -> & _). rewrite <- in_rev.
      apply in_map_iff. exists ((l, m), (r, o)). split; auto. apply filter_In. split; auto. now apply in_prod_iff.
  - intros Hlim. unfold cross_limit in Lm.
    destruct (Nat.eqb_spec (limit / lanes X) 0) as [E0|E0].
    + destruct (Nat.eqb_spec limit 0); [contradiction|]. specialize (Lm ltac:(lia)). lia.
    + specialize (Lm E0). pose proof (Nat.mul_div_le limit (lanes X) ltac:(lia)). lia.
  - intros a b Hab. destruct (D _ Hab) as (cs & w & outs & Hm & Hv & He).
    apply cross_make_ok in Hm as (H1 & -> & _). rewrite Hv, H1. split; auto.
    rewrite He, map_rev, <- Permutation_rev. reflexivity.
Qed.

(** The functions are called once for each vertex or pair of edges at a vertex, and [bop] only if
    the edges are compatible. *)
Theorem C34_functions_are_called_once (V1 E1 V2 E2 W L : Type) X (g : graph V1 E1) (h : graph V2 E2) bpred bop (v_prod : V1 -> V2 -> result W) limit s order :
  0 < lanes X -> Permutation order (seq 0 (lanes X)) ->
  ran (lanes X) (cross_dest X) (crossing X g h bpred (bop : E1 -> E2 -> result L) v_prod limit) (vstart cstart) (mkCP (root g, root h) None) s ->
  vstatus X order s = None ->
  NoDup (calls (data s)) /\
  (forall a b, In (CVert a b) (calls (data s)) <-> jointly g h bpred a b) /\
  (forall a i b j, In (CPred a i b j) (calls (data s)) <->
     jointly g h bpred a b /\ i < length (es g a) /\ j < length (es h b)) /\
  (forall a i b j, In (COp a i b j) (calls (data s)) <->
     jointly g h bpred a b /\ exists l m r o, nth_error (es g a) i = Some (l, m) /\ nth_error (es h b) j = Some (r, o) /\
                                      fst (bpred l r) = true).
Proof.
  intros Hl Ho Hr Hs.
  destruct (C34_crossing Hl Ho Hr Hs) as (A & _ & J & _ & _).
  apply ran_completes in Hr; [|now apply vdest_lt].
  apply making_facts with (order := order) in Hr; auto; [|apply product_eqb_eq].
  destruct Hr as (_ & _ & _ & C & _ & D).
  assert (Hc : calls (data s) = flat_map (fun k => edge_calls h bpred (fst k) 0 (snd k) (es g (fst k)) ++ [CVert (fst k) (snd k)]) (made (data s))).
  { rewrite C. apply flat_map_ext_in. intros [a b] Hk. destruct (D _ Hk) as (cs & w & outs & Hm & _).
    rewrite Hm. simpl. now apply cross_make_ok in Hm as (_ & _ & ->). }
  assert (Row : forall a i b l rs j0 c, In c (row_calls bpred a i b j0 l rs) ->
            exists j, j0 <= j < j0 + length rs /\ (c = CPred a i b j \/ c = COp a i b j)).
  { clear. intros a i b l rs. induction rs as [|[r o] rs IH]; simpl; intros j0 c H; [contradiction|].
    destruct H as [<-|H]; [exists j0; split; [lia|auto]|]. apply in_app_or in H as [H|H].
    - destruct (fst (bpred l r)); [|contradiction]. destruct H as [<-|[]]. exists j0. split; [lia|auto].
    - destruct (IH _ _ H) as (j & Hj & E). exists j. split; [lia|auto]. }
  assert (RowP : forall a i b l rs j0 j, In (CPred a i b j) (row_calls bpred a i b j0 l rs) <-> j0 <= j < j0 + length rs).
  { clear - Row. intros a i b l rs j0 j. split.
    - intros H. apply Row in H as (j' & Hj & [E|E]); inversion E; subst; auto.
    - revert j0. induction rs as [|[r o] rs IH]; simpl; intros j0 H; [lia|].
      destruct (Nat.eq_dec j0 j) as [->|]; auto. right. apply in_or_app. right. apply IH. lia. }
  assert (RowO : forall a i b l rs j0 j, In (COp a i b j) (row_calls bpred a i b j0 l rs) <->
            j0 <= j /\ exists r o, nth_error rs (j - j0) = Some (r, o) /\ fst (bpred l r) = true).
  { clear - Row. intros a i b l rs. induction rs as [|[r o] rs IH]; simpl; intros j0 j.
    - split; [intros []|]. intros (_ & r & o & H & _). destruct (j - j0); discriminate.
    - split.
      + intros [H|H]; [discriminate|]. apply in_app_or in H as [H|H].
        * destruct (fst (bpred l r)) eqn:Eb; [|contradiction]. destruct H as [E|[]]. inversion E; subst.
          split; [lia|]. exists r, o. rewrite Nat.sub_diag. auto.
        * apply IH in H as (Hj & r' & o' & Hn & Hb). split; [lia|]. exists r', o'. split; auto.
          replace (j - j0) with (S (j - S j0)) by lia. exact Hn.
      + intros (Hj & r' & o' & Hn & Hb). right. apply in_or_app. destruct (Nat.eq_dec j j0) as [->|Hne].
        * rewrite Nat.sub_diag in Hn. inversion Hn; subst. rewrite Hb. left. simpl. auto.
        * right. apply IH. split; [lia|]. exists r', o'. split; auto.
          replace (j - j0) with (S (j - S j0)) in Hn by lia. exact Hn. }
  assert (RowN : forall a i b l rs j0, NoDup (row_calls bpred a i b j0 l rs)).
  { clear - Row. intros a i b l rs. induction rs as [|[r o] rs IH]; simpl; intros j0; [constructor|].
    constructor.
    - intros H. apply in_app_or in H as [H|H].
      + destruct (fst (bpred l r)); [destruct H as [H|[]]; discriminate|contradiction].
      + apply Row in H as (j & Hj & [E|E]); inversion E; subst; lia.
    - apply nodup_app; auto.
      + destruct (fst (bpred l r)); repeat constructor; auto.
      + intros c H1 H2. destruct (fst (bpred l r)); [|contradiction]. destruct H1 as [<-|[]].
        apply Row in H2 as (j & Hj & [E|E]); inversion E; subst; lia. }
  assert (Edg : forall a b ls i0 c, In c (edge_calls h bpred a i0 b ls) ->
            exists i l m, i0 <= i /\ nth_error ls (i - i0) = Some (l, m) /\ In c (row_calls bpred a i b 0 l (es h b))).
  { clear. intros a b ls. induction ls as [|[l m] ls IH]; simpl; intros i0 c H; [contradiction|].
    apply in_app_or in H as [H|H].
    - exists i0, l, m. rewrite Nat.sub_diag. auto.
    - destruct (IH _ _ H) as (i & l' & m' & Hi & Hn & Hr). exists i, l', m'. split; [lia|]. split; auto.
      replace (i - i0) with (S (i - S i0)) by lia. exact Hn. }
  assert (Edg' : forall a b ls i0 i l m c, i0 <= i -> nth_error ls (i - i0) = Some (l, m) ->
            In c (row_calls bpred a i b 0 l (es h b)) -> In c (edge_calls h bpred a i0 b ls)).
  { clear. intros a b ls. induction ls as [|[l0 m0] ls IH]; simpl; intros i0 i l m c Hi Hn Hc.
    - destruct (i - i0); discriminate.
    - apply in_or_app. destruct (Nat.eq_dec i i0) as [->|Hne].
      + rewrite Nat.sub_diag in Hn. inversion Hn; subst. auto.
      + right. apply IH with (i := i) (l := l) (m := m); auto; [lia|].
        replace (i - i0) with (S (i - S i0)) in Hn by lia. exact Hn. }
  assert (EdgN : forall a b ls i0, NoDup (edge_calls h bpred a i0 b ls)).
  { clear - RowN Row Edg. intros a b ls. induction ls as [|[l m] ls IH]; simpl; intros i0; [constructor|].
    apply nodup_app; auto. intros c H1 H2. apply Row in H1 as (j & _ & H1). apply Edg in H2 as (i & l' & m' & Hi & _ & H2).
    apply Row in H2 as (j' & _ & H2). destruct H1 as [->| ->], H2 as [E|E]; inversion E; subst; lia. }
  assert (Key : forall k c, In c (edge_calls h bpred (fst k) 0 (snd k) (es g (fst k)) ++ [CVert (fst k) (snd k)]) ->
            match c with CPred a _ b _ | COp a _ b _ | CVert a b => (a, b) = k end).
  { intros [a b] c H. apply in_app_or in H as [H|[<-|[]]]; [|reflexivity]. simpl in H.
    apply Edg in H as (i & l & m & _ & _ & H). apply Row in H as (j & _ & [->| ->]); reflexivity. }
  rewrite Hc. split; [|split; [|split]].
  - revert A. clear - EdgN Key Edg Row. induction (made (data s)) as [|[a b] l IH]; simpl; intros A; [constructor|].
    inversion A as [|? ? N1 N2]; subst. apply nodup_app; auto.
    + apply nodup_app; auto; [repeat constructor; auto|]. intros c H [<-|[]].
      apply Edg in H as (i & l' & m' & _ & _ & H). apply Row in H as (j & _ & [E|E]); discriminate.
    + intros c H1 H2. apply in_flat_map in H2 as (k' & Hk' & H2). apply Key in H2.
      apply (Key (a, b)) in H1. destruct c; rewrite H1 in H2; subst; contradiction.
  - intros a b. rewrite <- J. split.
    + intros H. apply in_flat_map in H as (k & Hk & H). apply Key in H. now subst.
    + intros H. apply in_flat_map. exists (a, b). split; auto. apply in_or_app. simpl. auto.
  - intros a i b j. rewrite <- J. split.
    + intros H. apply in_flat_map in H as (k & Hk & H). pose proof (Key _ _ H) as E. simpl in E. subst k. split; auto.
      apply in_app_or in H as [H|[H|[]]]; [|discriminate]. simpl in H.
      apply Edg in H as (i' & l & m & _ & Hn & H). pose proof (Row _ _ _ _ _ _ _ H) as (j' & Hj & [E|E]); inversion E; subst.
      split; [|lia]. apply nth_error_Some. rewrite Nat.sub_0_r in Hn. congruence.
    + intros (H & Hi & Hj). apply in_flat_map. exists (a, b). split; auto. apply in_or_app. left. simpl.
      destruct (nth_error (es g a) i) as [[l m]|] eqn:En; [|apply nth_error_None in En; lia].
      eapply Edg' with (i := i); [lia|rewrite Nat.sub_0_r; exact En|]. apply RowP. lia.
  - intros a i b j. rewrite <- J. split.
    + intros H. apply in_flat_map in H as (k & Hk & H). pose proof (Key _ _ H) as E. simpl in E. subst k. split; auto.
      apply in_app_or in H as [H|[H|[]]]; [|discriminate]. simpl in H.
      apply Edg in H as (i' & l & m & _ & Hn & H). pose proof (Row _ _ _ _ _ _ _ H) as (j' & Hj & [E|E]); inversion E; subst.
      apply RowO in H as (_ & r & o & Hr' & Hb). rewrite Nat.sub_0_r in *. exists l, m, r, o. auto.
    + intros (H & l & m & r & o & Hi & Hj & Hb). apply in_flat_map. exists (a, b). split; auto. apply in_or_app. left. simpl.
      eapply Edg' with (i := i); [lia|rewrite Nat.sub_0_r; exact Hi|]. apply RowO. split; [lia|].
      exists r, o. rewrite Nat.sub_0_r. auto.
Qed.

Theorem C34_crossing_terminates (V1 E1 V2 E2 W L : Type) X (g : graph V1 E1) (h : graph V2 E2) bpred bop (v_prod : V1 -> V2 -> result W) limit y :
  wf g -> wf h -> 0 < lanes X ->
  let task := crossing X g h bpred (bop : E1 -> E2 -> result L) v_prod limit in
  reachable (lanes X) (cross_dest X) task (mkCP (root g, root h) None) (vstart cstart) y ->
  Acc (fun y' x => step (lanes X) (cross_dest X) task (mkCP (root g, root h) None) x y') y.
Proof.
  intros Wg Wh Hl task Hy. eapply C11_every_schedule_terminates; eauto.
  - now apply vdest_lt.
  - intros s p. unfold task, crossing, making, vtask. simpl. destruct (halted X ckey rash s p); [discriminate|].
    destruct (if have_seen X ckey product_eqb rash s p then _ else _) as [[? ?] ?]. discriminate.
  - apply making_terminates with (U := list_prod (ids g) (ids h)); auto.
    + apply product_eqb_eq.
    + apply in_prod_iff. split; [apply (wf_root Wg)|apply (wf_root Wh)].
    + intros [a b] cs w outs l [m o] Hk Hm Hin. apply cross_make_ok in Hm as (_ & -> & _). rewrite <- in_rev in Hin.
      apply in_map_iff in Hin as ([[l1 m1] [r1 o1]] & E & Hin). inversion E; subst.
      apply filter_In in Hin as [Hin Hb]. apply in_prod_iff in Hin as [H1 H2]. apply in_prod_iff in Hk as [K1 K2]. simpl.
      apply in_prod_iff. split; [eapply (wf_closed Wg); eauto|eapply (wf_closed Wh); eauto].
Qed.

(** Edges are compatible if the sum of their labels is even. *)
Definition ex_pred (l r : nat) : result bool := (Nat.even (l + r), None).
Definition ex_op (l r : nat) : result (nat * nat) := ((l, r), None).
Definition ex_vp (v w : nat) : result (nat * nat) := ((v, w), None).
Local Notation run_cross := (sched_run (lanes X3) (cross_dest X3) (crossing X3 G5 G5 ex_pred ex_op ex_vp 100) (vstart cstart)
                                       (mkCP (root G5, root G5) None) 300).
Lemma run_cross_done : mainpc run_cross = MDone.
Proof. vm_compute. reflexivity. Qed.
Example C34_crossing_ex :
  ran (lanes X3) (cross_dest X3) (crossing X3 G5 G5 ex_pred ex_op ex_vp 100) (vstart cstart) (mkCP (root G5, root G5) None) (sh run_cross) /\
  vstatus X3 [0; 1; 2] (sh run_cross) = None /\
  length (made (data (sh run_cross))) = 15 /\
  edges_of (data (sh run_cross)) (30, 20) = [((6, 4), Some (40, 40))] /\
  vert (data (sh run_cross)) (40, 40) = Some (40, 40).
Proof. split; [apply sched_ran; exact run_cross_done|]. vm_compute. repeat split. Qed.
