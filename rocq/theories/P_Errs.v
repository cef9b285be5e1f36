(** Errors: claim C39. *)
From Coq Require Import List Arith NArith Lia Bool Permutation.
From Verif Require Import Base Machine Ports PortsProofs PortsExec P_Ports Env Hash Graph Visitor VisitorProofs Walk Run Pass Fold Traverse P_Traverse P_Partition Errs.
Import ListNotations.

Set Implicit Arguments.

Local Opaque lane_of node_hash.

(** ** Within a function *)
Definition error_in (v : event) : option error := match v with Raised e => Some e | Call _ _ o => snd o end.
(** [e] is the first error in a history. *)
Definition is_first (h : list event) (e : error) : Prop :=
  exists a v b, h = a ++ v :: b /\ error_in v = Some e /\ forall u, In u a -> error_in u = None.
Definition no_error (h : list event) : Prop := forall u, In u h -> error_in u = None.

Definition recorded (err : option error) (h : list event) : Prop :=
  match err with Some e => is_first h e | None => no_error h end.
(** Guarded calls are made only if there is no error before. *)
Definition well_guarded (h : list event) : Prop :=
  forall a f o b, h = a ++ Call true f o :: b -> no_error a.

Lemma recorded_app err h v : recorded err h -> recorded (raising err (error_in v)) (h ++ [v]).
Proof.
  destruct err as [e|]; simpl.
  - intros (a & u & b & -> & H1 & H2). exists a, u, (b ++ [v]). rewrite <- app_assoc. auto.
  - intros H. destruct (error_in v) as [e|] eqn:E; simpl.
    + exists h, v, []. auto.
    + intros u Hu. apply in_app_or in Hu as [Hu|[<-|[]]]; auto.
Qed.

Lemma guarded_app h v : well_guarded h -> (forall f o, v = Call true f o -> no_error h) -> well_guarded (h ++ [v]).
Proof.
  intros G H a f o b E. destruct (exists_last (l := Call true f o :: b)) as (b' & v' & E'); [discriminate|].
  rewrite E' in E. rewrite app_assoc in E. apply app_inj_tail in E as [E1 E2]. subst v'.
  destruct b' as [|c b'].
  - simpl in E'. injection E' as E2 E3. rewrite app_nil_r in E1. subst a. eapply H; eauto.
  - simpl in E'. injection E' as <- E3. eapply G; eauto.
Qed.

Theorem C39_first_error_stops_the_callbacks user c err past :
  recorded err past -> well_guarded past ->
  recorded (fst (run user c err past)) (snd (run user c err past)) /\ well_guarded (snd (run user c err past)).
Proof.
  revert err past. induction c as [|e k IH|m f k IH|f k IH]; intros err past R G; simpl; auto.
  - destruct e as [x|].
    + apply IH; [apply (recorded_app _ _ (Raised x) R)|]. apply guarded_app; auto. discriminate.
    + destruct err; apply IH; auto.
  - destruct err as [e|]; simpl; [apply IH; auto|].
    apply IH; [apply (recorded_app _ _ (Call true f (user past f)) R)|]. apply guarded_app; auto.
  - apply IH; [apply (recorded_app _ _ (Call false f (user past f)) R)|]. apply guarded_app; auto. discriminate.
Qed.

(** The second guarded call fails, so that the third isn't made, but the unguarded ones are. *)
Definition ex_user (h : list event) (f : nat) : outcome :=
  match f with 2 => (0%N, Some (USERERR 20)) | 4 => (0%N, Some (USERERR 40)) | _ => (N.of_nat f, None) end.
Definition ex_code : code :=
  Guarded Called 1 (fun w => Guarded Passed 2 (fun t =>
    if is_null t then Guarded Applied 3 (fun _ => Apply 4 (Raise (Some (USERERR 50)) (Apply 5 Return))) else Return)).
Example C39_first_error_stops_the_callbacks_ex :
  recorded None [] /\ well_guarded [] /\
  run ex_user ex_code None [] =
    (Some (USERERR 20),
     [Call true 1 (1%N, None); Call true 2 (0%N, Some (USERERR 20)); Call false 4 (0%N, Some (USERERR 40));
      Raised (USERERR 50); Call false 5 (5%N, None)]).
Proof.
  split; [intros u []|]. split; [|reflexivity]. intros a f o b H. destruct a; discriminate.
Qed.

(** A test holds only if nothing went wrong before or during the call, and then according to the user's function. *)
Definition test (negated : bool) (f : nat) (no yes : code) : code :=
  Guarded (if negated then Failed else Passed) f (fun w => if is_null w then no else yes).
Theorem C39_tests user negated f no yes past :
  (forall e, run user (test negated f no yes) (Some e) past = run user no (Some e) past) /\
  (forall w e, user past f = (w, Some e) ->
     run user (test negated f no yes) None past = run user no (Some e) (past ++ [Call true f (w, Some e)])) /\
  (forall w, user past f = (w, None) ->
     run user (test negated f no yes) None past =
     run user (if N.eq_dec w 0 then if negated then yes else no else if negated then no else yes) None (past ++ [Call true f (w, None)])).
Proof.
  unfold test. split; [reflexivity|]. split.
  - intros w e H. simpl. rewrite H. now destruct negated.
  - intros w H. simpl. rewrite H. simpl. unfold is_null. destruct (N.eq_dec w 0) as [->|N].
    + now destruct negated.
    + apply N.eqb_neq in N. destruct negated; simpl; [|now rewrite N]. unfold is_null. now rewrite N.
Qed.
Example C39_tests_ex :
  let f e := fun (_ : list event) (_ : nat) => (1%N, e) in
  let c b := test b 0 (Apply 1 Return) (Apply 2 Return) in
  map (fun u => snd (run (fst u) (c (snd u)) None [])) [(f None, false); (f None, true); (f (Some (USERERR 3)), false); (f (Some (USERERR 3)), true)] =
  [[Call true 0 (1%N, None); Call false 2 (1%N, None)];
   [Call true 0 (1%N, None); Call false 1 (1%N, None)];
   [Call true 0 (1%N, Some (USERERR 3)); Call false 1 (1%N, Some (USERERR 3))];
   [Call true 0 (1%N, Some (USERERR 3)); Call false 1 (1%N, Some (USERERR 3))]].
Proof. reflexivity. Qed.

(** ** Among the workers.  Any task that works as in Visitor.v, and which keeps a log of what it has done,
    with the error of each action. *)
Section Workers.
  Context {S P K : Type}.
  Variable X : env.
  Variable key : P -> K.
  Variable keq : K -> K -> bool.
  Variable hash : K -> N.
  Variables first again : S -> P -> S * list P * option error.
  Variable ready : S -> P -> bool.

  Definition entry := (P * option error)%type.
  Definition logged (f : S -> P -> S * list P * option error) (d : S * list entry) (p : P) : (S * list entry) * list P * option error :=
    let '(d', out, e) := f (fst d) p in ((d', snd d ++ [(p, e)]), out, e).
  Definition logging : @vst (S * list entry) K -> P -> option (@vst (S * list entry) K * list P) :=
    vtask X key keq hash (logged first) (logged again) (fun d => ready (fst d)).

  Definition by_worker (l : nat) (log : list entry) : list entry :=
    filter (fun x => vdest X key hash (fst x) =? l) log.
  (** A worker's actions have been successful, except for the last one if the error is not None. *)
  Definition up_to (err : option error) (log : list entry) : Prop :=
    match err with
    | None => forall x, In x log -> snd x = None
    | Some e => exists a p, log = a ++ [(p, Some e)] /\ forall x, In x a -> snd x = None
    end.

  Lemma logging_inv d0 p0 s b : mruns logging (vstart (d0, []), [p0]) (s, b) ->
    forall l, up_to (lerr s l) (by_worker l (snd (data s))).
  Proof.
    intros H. refine (mruns_inv (fun (s : @vst (S * list entry) K) (_ : list P) => forall l, up_to (lerr s l) (by_worker l (snd (data s)))) _ _ _ H); clear; auto.
    2:{ intros l x []. }
    intros s p b s' out I T l. unfold logging, vtask in T. cbv zeta in T.
    destruct (halted X key hash s p) eqn:Eh.
    { injection T as <- <-. simpl. apply I. }
    assert (En : lerr s (vdest X key hash p) = None).
    { unfold halted in Eh. destruct (lerr s (vdest X key hash p)); [discriminate|auto]. }
    destruct (negb (ready (fst (data s)) p)); [discriminate|].
    assert (L : forall f, (let '(d, out0, e) := logged f (data s) p in
       Some (mkV d (if have_seen X key keq hash s p then seen s else upd (seen s) (vdest X key hash p) (key p :: seen s (vdest X key hash p)))
              (upd (lerr s) (vdest X key hash p) e) (lkil s) (is_killed X s) (Datatypes.S (tick s)), out0)) = Some (s', out) ->
       up_to (lerr s' l) (by_worker l (snd (data s')))).
    { intros f T'. unfold logged in T'. destruct (f (fst (data s)) p) as [[d o] e]. injection T' as <- <-. simpl.
      unfold by_worker. rewrite filter_app. simpl. specialize (I l). unfold by_worker in I.
      destruct (Nat.eqb_spec (vdest X key hash p) l) as [<-|Hn].
      - rewrite upd_same. rewrite En in I. simpl in I. destruct e as [e|]; simpl.
        + exists (filter (fun x => vdest X key hash (fst x) =? vdest X key hash p) (snd (data s))), p. auto.
        + intros x Hx. apply in_app_or in Hx as [Hx|[<-|[]]]; auto.
      - rewrite upd_diff; auto. now rewrite app_nil_r. }
    destruct (have_seen X key keq hash s p); eapply L; eauto.
  Qed.

  Hypothesis Hl : 0 < lanes X.

  (** At any time, whatever the threads do, each worker's status is the error of the first of its
      actions to raise one, and it did nothing more. *)
  Theorem C39_workers_stop_at_their_first_error d0 p0 y :
    reachable (lanes X) (vdest X key hash) logging p0 (vstart (d0, [])) y ->
    forall l, up_to (lerr (sh y) l) (by_worker l (snd (data (sh y)))).
  Proof.
    intros Hr.
    assert (Hd : forall p, vdest X key hash p < lanes X) by now apply vdest_lt.
    assert (Hi : exists b, mruns logging (vstart (d0, []), [p0]) (sh y, b)).
    { pose proof (refines Hd Hr) as H. destruct (mainpc y).
      1-2: destruct H as (-> & _); exists [p0]; constructor.
      all: destruct H as (b & H & _); eauto. }
    destruct Hi as (b & Hm). eapply logging_inv; eauto.
  Qed.

  Definition occurred (log : list entry) (e : error) : Prop := exists p, In (p, Some e) log.

  (** The error reported by an operation is one that was raised, and the first by its worker, unless it
      was killed; and if there was an error, one is reported. *)
  Theorem C39_reported_error_really_occurred d0 p0 s order :
    Permutation order (seq 0 (lanes X)) ->
    ran (lanes X) (vdest X key hash) logging (vstart (d0, [])) p0 s ->
    (forall e, vstatus X order s = Some e -> e = INTKIL \/
       exists a p b, snd (data s) = a ++ (p, Some e) :: b /\
         forall q x, In (q, x) a -> vdest X key hash q = vdest X key hash p -> x = None) /\
    (forall e, occurred (snd (data s)) e -> exists e', vstatus X order s = Some e').
  Proof.
    intros Ho R. apply ran_completes in R; [|now apply vdest_lt]. pose proof (logging_inv R) as I. split.
    - intros e H. apply status_error in H as [H|(l & H)]; auto. right. specialize (I l). rewrite H in I.
      destruct I as (a & p & E & N). unfold by_worker in E.
      assert (Hp : In (p, Some e) (filter (fun x => vdest X key hash (fst x) =? l) (snd (data s)))).
      { rewrite E. apply in_or_app. right. now left. }
      apply filter_In in Hp as [Hp Hlp]. cbn [fst] in Hlp. apply Nat.eqb_eq in Hlp. apply in_split in Hp as (u & v & Ev).
      exists u, p, v. split; auto. intros q x Hq Hd.
      rewrite Ev, filter_app in E. simpl in E. rewrite Hlp, Nat.eqb_refl in E.
      assert (Hin : In (q, x) (filter (fun x => vdest X key hash (fst x) =? l) u)).
      { apply filter_In. split; auto. cbn [fst]. rewrite Hd, Hlp. apply Nat.eqb_refl. }
      destruct (exists_last (l := (p, Some e) :: filter (fun x => vdest X key hash (fst x) =? l) v)) as (w & z & Ew); [discriminate|].
      rewrite Ew, app_assoc in E. apply app_inj_tail in E as [E _].
      apply (N (q, x)). rewrite <- E. apply in_or_app. auto.
    - intros e (p & Hp). unfold vstatus, final_status. specialize (I (vdest X key hash p)).
      destruct (first_error (lerr s) order) as [e'|] eqn:F; eauto. exfalso.
      rewrite first_error_none in F.
      assert (N : lerr s (vdest X key hash p) = None).
      { apply F. eapply Permutation_in; [symmetry; exact Ho|]. apply in_seq. split; [lia|]. now apply vdest_lt. }
      rewrite N in I. specialize (I (p, Some e)). discriminate I. apply filter_In. split; auto. apply Nat.eqb_refl.
  Qed.
End Workers.

(** A walk over the graph G5 in which two vertices raise errors *)
Definition failing (d : list nat) (p : npkt nat) : list nat * list (npkt nat) * option error :=
  (payload p :: d, scatter (payload p) (es G5 (payload p)), if (30 <=? payload p) then Some (USERERR (payload p)) else None).
Definition ignoring (d : list nat) (p : npkt nat) : list nat * list (npkt nat) * option error := (d, [], None).
Definition ex_log := sched_run (lanes X3) (vdest X3 payload node_hash) (logging X3 payload Nat.eqb node_hash failing ignoring (fun _ _ => true))
  (vstart ([], [])) (initial (root G5)) 60.
Example C39_reported_error_really_occurred_ex :
  ran (lanes X3) (vdest X3 payload node_hash) (logging X3 payload Nat.eqb node_hash failing ignoring (fun _ _ => true))
      (vstart ([], [])) (initial (root G5)) (sh ex_log) /\
  map (fun x => (payload (fst x), vdest X3 payload node_hash (fst x), snd x)) (snd (data (sh ex_log))) =
    [(10, 0, None); (20, 1, None); (20, 1, None); (30, 2, Some (USERERR 30)); (40, 1, Some (USERERR 40))] /\
  vstatus X3 [0; 1; 2] (sh ex_log) = Some (USERERR 40) /\ vstatus X3 [2; 1; 0] (sh ex_log) = Some (USERERR 30).
Proof. split; [apply sched_ran; vm_compute; reflexivity|vm_compute; auto]. Qed.
