(** Claim C99: the vertices and labels replaced in a mutation are destroyed, and so is everything if it fails. *)
From Coq Require Import List Arith Lia Bool Permutation.
From Verif Require Import Base MutateFree.
Import ListNotations.

Set Implicit Arguments.

(** ** Specification *)

(** The destructor that a value has to be passed to *)
Definition v_right (c : mutator) (x : version) : option nat := match x with Old => v_free c | New => kv_free c end.
Definition e_right (c : mutator) (x : version) : option nat := match x with Old => e_free c | New => ke_free c end.
(** The calls that are due for some values *)
Definition due (right : version -> option nat) (xs : list version) : list (nat * version) :=
  flat_map (fun x => match right x with Some d => [(d, x)] | None => [] end) xs.
(** Each value that was made and that has a destructor is destroyed by it once, or else still there. *)
Definition settled (right : version -> option nat) (made : list version) (calls : list (nat * version)) (there : list version) : Prop :=
  Permutation (due right made) (calls ++ due right there).

Record graph_ok (c : mutator) (ns : list nat) : Prop := {
  ok_ns : NoDup ns;
  ok_outs : forall n, In n ns -> NoDup (outs c n);
  ok_ins : forall n, In n ns -> NoDup (ins c n);
  ok_out : forall n e, In n ns -> (In e (outs c n) <-> src c e = n /\ In (dst c e) ns /\ In e (ins c (dst c e)));
  ok_in : forall n e, In n ns -> (In e (ins c n) <-> dst c e = n /\ In (src c e) ns /\ In e (outs c (src c e)))
}.

(** What is left in memory: all values that are referred to by nodes and edges, unless the nodes are freed *)
Definition vertices_settled (c : mutator) (ns : list nat) (s : st) : Prop :=
  forall n, In n ns -> let v := vs (memory s) n in
    settled (v_right c) (vmade v) (vcalls v) (if failed s then [] else match cur v with Some x => [x] | None => [] end).
Definition labels_settled (c : mutator) (ns : list nat) (s : st) : Prop :=
  forall n e, In n ns -> In e (outs c n) -> let l := ls (memory s) e in
    settled (e_right c) (lmade l) (lcalls l) (if failed s then [] else match out_ l with Some x => [x] | None => [] end).

(** ** Scripts *)
Inductive action := AStart (l : nat) | AReceive (l k : nat) | ATrouble (l : nat) | AEnd (other : bool) | ARetract (k : nat) | ARetracted
                  | AUnmutate (k : nat) | AUnmutated.

Section Scripts.
  Variable c : mutator.
  Variable lanes : nat.
  Definition quiet (s : st) (other : bool) : bool :=
    forallb (fun l => is_nil (pend s l) || other && is_nil (surv s l)) (seq 0 lanes).
  Definition exec (a : action) (s : st) : option st :=
    match a, ph s with
    | AStart l, Mutating =>
        match pend s l with
        | n :: rest =>
            if l <? lanes then
              let (e, m) := mutate c false n (werrs s l) (memory s) in
              Some (if e
                    then mkSt Mutating (upd (marks s) n Blocked) (upd (pend s) l []) (surv s) (upd (dels s) l ((n :: rest) ++ dels s l))
                              (upd (werrs s) l true) (failed s) (todo s) (free_labels (ke_free c) (outs c n) m)
                    else mkSt Mutating (upd (marks s) n Mutated) (upd (pend s) l rest) (upd (surv s) l (surv s l ++ [n])) (dels s)
                              (werrs s) (failed s) (todo s) m)
            else None
        | [] => None
        end
    | AReceive l k, Mutating =>
        match skipn k (dels s l) with
        | n :: l2 =>
            if (l <? lanes) && is_nil (pend s l) && negb (werrs s l) && is_fresh (marks s n)
               && forallb (fun k => negb (is_fresh (marks s k))) (prerequisites c n)
            then
              let blocked := existsb (fun k => is_blocked (marks s k)) (prerequisites c n) in
              let (e, m) := mutate c blocked n false (memory s) in
              Some (if e
                    then mkSt Mutating (upd (marks s) n Blocked) (pend s) (surv s) (dels s) (upd (werrs s) l true) (failed s) (todo s)
                              (free_labels (ke_free c) (outs c n) m)
                    else if blocked
                    then mkSt Mutating (upd (marks s) n Blocked) (pend s) (surv s) (dels s) (werrs s) (failed s) (todo s) m
                    else mkSt Mutating (upd (marks s) n Mutated) (pend s) (upd (surv s) l (n :: surv s l))
                              (upd (dels s) l (firstn k (dels s l) ++ l2)) (werrs s) (failed s) (todo s) m)
            else None
        | [] => None
        end
    | ATrouble l, Mutating =>
        if l <? lanes
        then Some (mkSt Mutating (marks s) (pend s) (surv s) (dels s) (upd (werrs s) l true) (failed s) (todo s) (memory s)) else None
    | AEnd other, Mutating =>
        if quiet s other then
          Some (if any_error lanes s || other
                then mkSt (if forward c then Unmutating else match ke_free c with Some _ => Retracting | None => Unmutating end)
                          (marks s) (pend s) (surv s) (dels s) (werrs s) true (seq 0 lanes) (memory s)
                else mkSt Finished (marks s) (pend s) (surv s) (dels s) (werrs s) false [] (memory s))
        else None
    | ARetract k, Retracting =>
        match skipn k (todo s) with
        | l :: l2 => Some (mkSt Retracting (marks s) (pend s) (surv s) (dels s) (werrs s) (failed s) (firstn k (todo s) ++ l2) (retract c s l))
        | [] => None
        end
    | ARetracted, Retracting =>
        match todo s with
        | [] => Some (mkSt Unmutating (marks s) (pend s) (surv s) (dels s) (werrs s) (failed s) (seq 0 lanes) (memory s))
        | _ => None
        end
    | AUnmutate k, Unmutating =>
        match skipn k (todo s) with
        | l :: l2 => Some (mkSt Unmutating (marks s) (upd (pend s) l []) (upd (surv s) l []) (upd (dels s) l []) (werrs s) (failed s)
                                (firstn k (todo s) ++ l2) (unmutate c s l))
        | [] => None
        end
    | AUnmutated, Unmutating =>
        match todo s with
        | [] => Some (mkSt Finished (marks s) (pend s) (surv s) (dels s) (werrs s) (failed s) [] (memory s))
        | _ => None
        end
    | _, _ => None
    end.
  Fixpoint run (l : list action) (s : st) : option st :=
    match l with [] => Some s | a :: l' => match exec a s with Some s' => run l' s' | None => None end end.

  Lemma skipn_split {A} k (l : list A) x l2 : skipn k l = x :: l2 -> l = firstn k l ++ x :: l2.
  Proof. intros <-. symmetry. apply firstn_skipn. Qed.
  Lemma is_nil_true {A} (l : list A) : is_nil l = true -> l = [].
  Proof. destruct l; [reflexivity|discriminate]. Qed.

  Lemma exec_sound a s s' : exec a s = Some s' -> step c lanes s s'.
  Proof.
    unfold exec. destruct a; destruct (ph s) eqn:Hp; try discriminate.
    - destruct (pend s l) as [|n rest] eqn:Ep; [discriminate|]. destruct (l <? lanes) eqn:El; [|discriminate].
      destruct (mutate c false n (werrs s l) (memory s)) as [e m] eqn:Em. intros E. injection E as <-.
      apply Nat.ltb_lt in El. eapply start_step; eassumption.
    - destruct (skipn k (dels s l)) as [|n l2] eqn:Ek; [discriminate|].
      destruct (_ && _ && _ && _ && _) eqn:Eb; [|discriminate].
      apply andb_true_iff in Eb as [Eb E5]. apply andb_true_iff in Eb as [Eb E4]. apply andb_true_iff in Eb as [Eb E3].
      apply andb_true_iff in Eb as [E1 E2]. cbv zeta.
      destruct (mutate c _ n false (memory s)) as [e m] eqn:Em. intros E. injection E as <-.
      eapply receive_step; [exact Hp|apply Nat.ltb_lt, E1|apply is_nil_true, E2|destruct (werrs s l); [discriminate|reflexivity]
        |apply skipn_split, Ek|destruct (marks s n); try discriminate; reflexivity|exact E5|reflexivity|exact Em].
    - destruct (l <? lanes) eqn:El; [|discriminate]. intros E. injection E as <-. apply trouble_step; [exact Hp|apply Nat.ltb_lt, El].
    - destruct (quiet s other) eqn:Eq; [|discriminate]. intros E. injection E as <-. apply mutated_step; [exact Hp|].
      intros l Hl. unfold quiet in Eq. rewrite forallb_forall in Eq. specialize (Eq l).
      rewrite in_seq in Eq. specialize (Eq ltac:(lia)). apply orb_true_iff in Eq as [Eq|Eq]; [left; apply is_nil_true, Eq|right].
      apply andb_true_iff in Eq as [-> Eq]. split; [reflexivity|apply is_nil_true, Eq].
    - destruct (skipn k (todo s)) as [|l l2] eqn:Ek; [discriminate|]. intros E. injection E as <-. apply retract_step; [exact Hp|apply skipn_split, Ek].
    - destruct (todo s) eqn:Et; [|discriminate]. intros E. injection E as <-. apply retracted_step; assumption.
    - destruct (skipn k (todo s)) as [|l l2] eqn:Ek; [discriminate|]. intros E. injection E as <-. apply unmutate_step; [exact Hp|apply skipn_split, Ek].
    - destruct (todo s) eqn:Et; [|discriminate]. intros E. injection E as <-. apply unmutated_step; assumption.
  Qed.
  Lemma run_sound l : forall s s', run l s = Some s' -> star (step c lanes) s s'.
  Proof.
    induction l as [|a l IH]; simpl; intros s s' E; [injection E as <-; constructor|].
    destruct (exec a s) as [s1|] eqn:Ea; [|discriminate]. exact (star_cons _ (exec_sound _ _ Ea) (IH _ _ E)).
  Qed.
End Scripts.

(** ** Memory *)
Lemma use_false m : use false m = m.
Proof. destruct m as [a b d]. unfold use. cbn [vs ls misused]. rewrite orb_false_r. reflexivity. Qed.

Lemma each_label f es : forall m, NoDup es ->
  vs (each (fun e => on_label e f) es m) = vs m /\ misused (each (fun e => on_label e f) es m) = misused m /\
  (forall e, In e es -> ls (each (fun e => on_label e f) es m) e = f (ls m e)) /\
  (forall e, ~ In e es -> ls (each (fun e => on_label e f) es m) e = ls m e).
Proof.
  unfold each. induction es as [|k es IH]; intros m Hn; cbn [fold_left].
  - split; [reflexivity|split; [reflexivity|split; [intros e []|reflexivity]]].
  - inversion Hn; subst. destruct (IH (on_label k f m) H2) as (A & B & C & D).
    split; [rewrite A; reflexivity|]. split; [rewrite B; reflexivity|]. split.
    + intros e [<-|He].
      * rewrite D by assumption. unfold on_label. cbn [ls]. apply upd_same.
      * rewrite C by assumption. unfold on_label. cbn [ls]. rewrite upd_diff; [reflexivity|]. intros ->. contradiction.
    + intros e He. rewrite D by (intros F; apply He; right; exact F). unfold on_label. cbn [ls]. apply upd_diff. intros ->. apply He. left. reflexivity.
Qed.

Lemma each_label_frame f es : forall m,
  vs (each (fun e => on_label e f) es m) = vs m /\ misused (each (fun e => on_label e f) es m) = misused m /\
  (forall e, ~ In e es -> ls (each (fun e => on_label e f) es m) e = ls m e).
Proof.
  unfold each. induction es as [|k es IH]; intros m; cbn [fold_left].
  - split; [reflexivity|split; reflexivity].
  - destruct (IH (on_label k f m)) as (A & B & D). split; [rewrite A; reflexivity|]. split; [rewrite B; reflexivity|].
    intros e He. rewrite D by (intros F; apply He; right; exact F). unfold on_label. cbn [ls]. apply upd_diff. intros ->. apply He. left. reflexivity.
Qed.
Lemma each_vs f es : (forall e m, vs (f e m) = vs m) -> forall m, vs (each f es m) = vs m.
Proof. intros H. unfold each. induction es as [|k es IH]; intros m; cbn [fold_left]; [reflexivity|]. rewrite IH. apply H. Qed.
Lemma each_ls f es : (forall e m, ls (f e m) = ls m) -> forall m, ls (each f es m) = ls m.
Proof. intros H. unfold each. induction es as [|k es IH]; intros m; cbn [fold_left]; [reflexivity|]. rewrite IH. apply H. Qed.
Lemma each_id (f : nat -> mem -> mem) es m : (forall e, In e es -> f e m = m) -> each f es m = m.
Proof.
  unfold each. induction es as [|k es IH]; intros H; cbn [fold_left]; [reflexivity|].
  rewrite H by (left; reflexivity). apply IH. intros e He. apply H. right. exact He.
Qed.

Section Balance.
  Variable c : mutator.

  Definition bal_v (v : vertex) : Prop := settled (v_right c) (vmade v) (vcalls v) (opt (cur v)).
  Definition bal_l (l : label) : Prop := settled (e_right c) (lmade l) (lcalls l) (opt (out_ l)).
  Definition old_v (v : vertex) : Prop := bal_v v /\ cur v <> Some New /\ dead (vcalls v) (cur v) = false.
  Definition new_v (v : vertex) : Prop := bal_v v /\ cur v <> Some Old /\ dead (vcalls v) (cur v) = false.
  Definition old_l (l : label) : Prop := bal_l l /\ out_ l <> Some New.
  Definition new_l (l : label) : Prop := bal_l l /\ out_ l <> Some Old.

  Definition fresh_v (v : vertex) : Prop := cur v <> Some New /\ vcalls v = [] /\ vmade v = opt (cur v).
  Definition fresh_l (l : label) : Prop := out_ l = in_ l /\ out_ l <> Some New /\ lcalls l = [] /\ lmade l = opt (out_ l).
  Definition done_l (l : label) : Prop := out_ l = in_ l /\ out_ l <> Some Old /\
    exists o, o <> Some New /\ lmade l = opt (out_ l) ++ opt o /\ lcalls l = call (e_free c) o.
  Definition gone_l (l : label) : Prop := bal_l l /\ out_ l = None.

  Lemma due_call right x : due right (opt x) = match x with Some y => call (right y) x | None => [] end.
  Proof. destruct x as [y|]; [|reflexivity]. cbn. rewrite app_nil_r. destruct (right y); reflexivity. Qed.
  Lemma due_app right a b : due right (a ++ b) = due right a ++ due right b.
  Proof. apply flat_map_app. Qed.
  Lemma call_none d : call d None = [].
  Proof. destruct d; reflexivity. Qed.
  Lemma due_old x : x <> Some New -> due (e_right c) (opt x) = call (e_free c) x.
  Proof. rewrite due_call. destruct x as [[]|]; intros H; try reflexivity; [contradiction|symmetry; apply call_none]. Qed.
  Lemma due_new x : x <> Some Old -> due (e_right c) (opt x) = call (ke_free c) x.
  Proof. rewrite due_call. destruct x as [[]|]; intros H; try reflexivity; [contradiction|symmetry; apply call_none]. Qed.
  Lemma due_vold x : x <> Some New -> due (v_right c) (opt x) = call (v_free c) x.
  Proof. rewrite due_call. destruct x as [[]|]; intros H; try reflexivity; [contradiction|symmetry; apply call_none]. Qed.
  Lemma due_vnew x : x <> Some Old -> due (v_right c) (opt x) = call (kv_free c) x.
  Proof. rewrite due_call. destruct x as [[]|]; intros H; try reflexivity; [contradiction|symmetry; apply call_none]. Qed.

  Lemma dead_call d x y : (y <> None -> x <> y) -> dead (call d x) y = false.
  Proof. intros H. destruct d, x as [[]|], y as [[]|]; try reflexivity; exfalso; apply H; try discriminate; reflexivity. Qed.
  Lemma dead_none l : dead l None = false.
  Proof. reflexivity. Qed.

  Lemma fresh_old v : fresh_v v -> old_v v.
  Proof.
    intros (A & B & C). split; [|split; [exact A|rewrite B; destruct (cur v); reflexivity]].
    unfold bal_v, settled. rewrite B, C. apply Permutation_refl.
  Qed.
  Lemma fresh_old_l l : fresh_l l -> old_l l.
  Proof. intros (A & B & C & D). split; [|exact B]. unfold bal_l, settled. rewrite C, D. apply Permutation_refl. Qed.
  Lemma done_new_l l : done_l l -> new_l l.
  Proof.
    intros (A & B & o & Ho & C & D). split; [|exact B]. unfold bal_l, settled. rewrite C, D, due_app, (due_old Ho). apply Permutation_app_comm.
  Qed.
  Lemma done_none l : done_l l -> out_ l = None -> gone_l l.
  Proof. intros H E. split; [apply done_new_l, H|exact E]. Qed.

  Lemma drop_old d l : old_l l -> d = e_free c -> gone_l (drop d l).
  Proof.
    intros [A B] ->. split; [|reflexivity]. unfold bal_l, settled, drop, call_l, set_out in *. cbn [out_ lmade lcalls opt].
    rewrite (due_old B) in A. cbn [due flat_map]. rewrite app_nil_r. eapply Permutation_trans; [exact A|apply Permutation_app_comm].
  Qed.
  Lemma drop_new d l : new_l l -> d = ke_free c -> gone_l (drop d l).
  Proof.
    intros [A B] ->. split; [|reflexivity]. unfold bal_l, settled, drop, call_l, set_out in *. cbn [out_ lmade lcalls opt].
    rewrite (due_new B) in A. cbn [due flat_map]. rewrite app_nil_r. eapply Permutation_trans; [exact A|apply Permutation_app_comm].
  Qed.
  Lemma drop_gone d l : gone_l l -> gone_l (drop d l).
  Proof.
    intros [A B]. split; [|reflexivity]. unfold bal_l, settled, drop, call_l, set_out in *. cbn [out_ lmade lcalls opt].
    rewrite B in *. rewrite call_none. exact A.
  Qed.
  Lemma gone_new l : gone_l l -> new_l l.
  Proof. intros [A B]. split; [exact A|rewrite B; discriminate]. Qed.
  Lemma gone_old l : gone_l l -> old_l l.
  Proof. intros [A B]. split; [exact A|rewrite B; discriminate]. Qed.

  Definition kill_v (d : option nat) (v : vertex) : vertex := set_cur None (call_v d (cur v) v).
  Lemma kill_old v : old_v v -> bal_v (kill_v (v_free c) v).
  Proof.
    intros (A & B & _). unfold bal_v, settled, kill_v, call_v, set_cur in *. cbn [cur vmade vcalls opt].
    rewrite (due_vold B) in A. cbn [due flat_map]. rewrite app_nil_r. eapply Permutation_trans; [exact A|apply Permutation_app_comm].
  Qed.
  Lemma kill_new v : new_v v -> bal_v (kill_v (kv_free c) v).
  Proof.
    intros (A & B & _). unfold bal_v, settled, kill_v, call_v, set_cur in *. cbn [cur vmade vcalls opt].
    rewrite (due_vnew B) in A. cbn [due flat_map]. rewrite app_nil_r. eapply Permutation_trans; [exact A|apply Permutation_app_comm].
  Qed.

  (** ** Individual nodes *)

  Definition node_v (n : nat) : option version := if v_null c n then None else Some New.
  Lemma node_v_new n : node_v n <> Some Old.
  Proof. unfold node_v. destruct (v_null c n); discriminate. Qed.

  Lemma mapped_node_spec n m x err m' : mapped_node c n m = (x, err, m') ->
    ls m' = ls m /\ (forall k, k <> n -> vs m' k = vs m k) /\
    (if err then x = None /\ vs m' n = call_v (kv_free c) (node_v n) (make_v (node_v n) (vs m n))
     else x = node_v n /\ vs m' n = make_v (node_v n) (vs m n)).
  Proof.
    unfold mapped_node. fold (node_v n). cbv zeta.
    set (m1 := if has_outgoing c then _ else _).
    assert (Hv : vs m1 = vs m).
    { unfold m1. destruct (has_outgoing c); [rewrite each_vs|]; destruct (has_incident c); try rewrite each_vs; try reflexivity;
        intros; destruct (sees_remote c); reflexivity. }
    assert (Hl : ls m1 = ls m).
    { unfold m1. destruct (has_outgoing c); [rewrite each_ls|]; destruct (has_incident c); try rewrite each_ls; try reflexivity;
        intros; destruct (sees_remote c); reflexivity. }
    clearbody m1. destruct (v_fails c n); intros E; injection E as <- <- <-.
    - split; [exact Hl|]. split.
      + intros k Hk. unfold on_vertex. cbn [vs]. rewrite !upd_diff by exact Hk. rewrite Hv. reflexivity.
      + split; [reflexivity|]. unfold on_vertex. cbn [vs]. rewrite !upd_same, Hv. reflexivity.
    - split; [exact Hl|]. split.
      + intros k Hk. unfold on_vertex. cbn [vs]. rewrite !upd_diff by exact Hk. rewrite Hv. reflexivity.
      + split; [reflexivity|]. unfold on_vertex. cbn [vs]. rewrite !upd_same, Hv. reflexivity.
  Qed.

  (** Nothing that the operation refers to was destroyed. *)
  Definition alive_v (m : mem) (n : nat) : Prop := dead (vcalls (vs m n)) (cur (vs m n)) = false.
  Definition alive_in (m : mem) (e : nat) : Prop := dead (lcalls (ls m e)) (in_ (ls m e)) = false.
  Definition alive_out (m : mem) (e : nat) : Prop := dead (lcalls (ls m e)) (out_ (ls m e)) = false.
  Lemma use_v_alive n m : alive_v m n -> use_vertex n m = m.
  Proof. intros H. unfold use_vertex. rewrite H. apply use_false. Qed.
  Lemma use_in_alive e m : alive_in m e -> use_in e m = m.
  Proof. intros H. unfold use_in. rewrite H. apply use_false. Qed.
  Lemma use_out_alive e m : alive_out m e -> use_out e m = m.
  Proof. intros H. unfold use_out. rewrite H. apply use_false. Qed.

  Lemma mapped_node_mis n m x err m' : mapped_node c n m = (x, err, m') ->
    alive_v m n -> (forall e, In e (ins c n) -> alive_in m e /\ alive_v m (src c e)) ->
    (forall e, In e (outs c n) -> alive_out m e /\ alive_v m (dst c e)) -> misused m' = misused m.
  Proof.
    intros E H1 H2 H3. unfold mapped_node in E. rewrite (use_v_alive H1) in E. cbv zeta in E.
    assert (E1 : each (fun e m => if sees_remote c then use_vertex (src c e) (use_in e m) else use_in e m) (ins c n) m = m).
    { apply each_id. intros e He. destruct (H2 e He) as [A B]. rewrite (use_in_alive A). destruct (sees_remote c); [apply use_v_alive, B|reflexivity]. }
    assert (E2 : each (fun e m => if sees_remote c then use_vertex (dst c e) (use_out e m) else use_out e m) (outs c n) m = m).
    { apply each_id. intros e He. destruct (H3 e He) as [A B]. rewrite (use_out_alive A). destruct (sees_remote c); [apply use_v_alive, B|reflexivity]. }
    rewrite E1 in E. replace (if has_incident c then m else m) with m in E by (destruct (has_incident c); reflexivity).
    rewrite E2 in E. replace (if has_outgoing c then m else m) with m in E by (destruct (has_outgoing c); reflexivity).
    destruct (v_fails c n); injection E as <- <- <-; reflexivity.
  Qed.

  Definition edge_v (blocked : bool) (e : nat) : option version := if blocked || e_null c e then None else Some New.
  Lemma edge_v_new b e : edge_v b e <> Some Old.
  Proof. unfold edge_v. destruct (b || e_null c e); discriminate. Qed.
  Lemma edge_v_blocked e : edge_v true e = None.
  Proof. reflexivity. Qed.

  (** What the edge operation refers to *)
  Definition edge_uses (blocked : bool) (n e : nat) (m : mem) : mem :=
    if blocked then m
    else let m := if v_op c then m else use_vertex n m in
         if forward c then use_vertex (dst c e) (use_out e m) else use_vertex (src c e) (use_in e m).
  Lemma edge_uses_vs b n e m : vs (edge_uses b n e m) = vs m.
  Proof. unfold edge_uses. destruct b, (v_op c), (forward c); reflexivity. Qed.
  Lemma edge_uses_ls b n e m : ls (edge_uses b n e m) = ls m.
  Proof. unfold edge_uses. destruct b, (v_op c), (forward c); reflexivity. Qed.

  Lemma permeating_cons blocked n e es m : permeating c blocked n (e :: es) false m =
    let m1 := on_label e (make_l (edge_v blocked e)) (edge_uses blocked n e m) in
    if negb blocked && e_fails c e then (e :: es, true, on_label e (call_l (ke_free c) (edge_v blocked e)) m1)
    else if forward c
    then permeating c blocked n es (negb (is_nil (call (e_free c) (out_ (ls m1 e)))) && de_fails c e)
                    (on_label e (fun l => set_out (edge_v blocked e) (drop (e_free c) l)) m1)
    else permeating c blocked n es false (on_label e (set_in (edge_v blocked e)) m1).
  Proof. reflexivity. Qed.
  Lemma permeating_err blocked n es m : permeating c blocked n es true m = (es, true, m).
  Proof. destruct es; reflexivity. Qed.

  Lemma permeating_frame blocked n es : forall err m rest err' m', permeating c blocked n es err m = (rest, err', m') ->
    vs m' = vs m /\ forall e, ~ In e es -> ls m' e = ls m e.
  Proof.
    induction es as [|k es IH]; intros err m rest err' m' E.
    - injection E as <- <- <-. split; reflexivity.
    - destruct err; [rewrite permeating_err in E; injection E as <- <- <-; split; reflexivity|].
      rewrite permeating_cons in E. cbv zeta in E. destruct (negb blocked && e_fails c k).
      + injection E as <- <- <-. split; [apply edge_uses_vs|]. intros e He. unfold on_label. cbn [ls].
        rewrite !upd_diff by (intros ->; apply He; left; reflexivity). rewrite edge_uses_ls. reflexivity.
      + destruct (forward c); apply IH in E as [A B]; (split; [rewrite A; apply edge_uses_vs|]; intros e He;
          rewrite B by (intros F; apply He; right; exact F); unfold on_label; cbn [ls];
          rewrite !upd_diff by (intros ->; apply He; left; reflexivity); rewrite edge_uses_ls; reflexivity).
  Qed.

  (** While edges are being processed in a forward propagating mutation *)
  Definition half_l (blocked : bool) (l : label) : Prop := out_ l <> Some Old /\ in_ l <> Some New /\ (blocked = true -> out_ l = None) /\
    lmade l = opt (out_ l) ++ opt (in_ l) /\ lcalls l = call (e_free c) (in_ l).
  Definition stuck_l (l : label) : Prop := out_ l = in_ l /\ out_ l <> Some New /\
    exists w, w <> Some Old /\ lmade l = opt w ++ opt (out_ l) /\ lcalls l = call (ke_free c) w.

  Lemma fresh_stuck l : fresh_l l -> stuck_l l.
  Proof. intros (A & B & C & D). split; [exact A|split; [exact B|]]. exists None. split; [discriminate|]. rewrite C, D, call_none. split; reflexivity. Qed.

  Lemma permeating_fwd blocked n es : forward c = true -> forall err m rest err' m', NoDup es -> (forall e, In e es -> fresh_l (ls m e)) ->
    permeating c blocked n es err m = (rest, err', m') ->
    (err' = false -> err = false /\ rest = []) /\ NoDup rest /\ incl rest es /\
    (forall e, In e es -> ~ In e rest -> half_l blocked (ls m' e)) /\ (forall e, In e rest -> stuck_l (ls m' e)).
  Proof.
    intros Hf. induction es as [|k es IH]; intros err m rest err' m' Hn Hl E.
    - injection E as <- <- <-. split; [auto|]. split; [constructor|]. split; [intros e []|]. split; [intros e []|intros e []].
    - destruct err.
      + rewrite permeating_err in E; injection E as <- <- <-. split; [discriminate|]. split; [exact Hn|]. split; [apply incl_refl|].
        split; [intros e A B; contradiction|]. intros e He. apply fresh_stuck, Hl, He.
      + rewrite permeating_cons in E. cbv zeta in E. inversion Hn as [|? ? Hk Hn']; subst.
        assert (Fk := Hl k (or_introl eq_refl)). destruct Fk as (A & B & C & D).
        destruct (negb blocked && e_fails c k).
        * injection E as <- <- <-. split; [discriminate|]. split; [exact Hn|]. split; [apply incl_refl|].
          split; [intros e F G; contradiction|]. intros e [<-|He].
          -- unfold on_label. cbn [ls]. rewrite !upd_same, edge_uses_ls. unfold stuck_l, call_l, make_l. cbn [out_ in_ lmade lcalls].
             split; [exact A|split; [exact B|]]. exists (edge_v blocked k). split; [apply edge_v_new|]. rewrite C, D, app_nil_r. split; reflexivity.
          -- unfold on_label. cbn [ls]. rewrite !upd_diff by (intros ->; contradiction). rewrite edge_uses_ls. apply fresh_stuck, Hl. right. exact He.
        * rewrite Hf in E. assert (Fr := permeating_frame _ _ _ _ _ E). apply IH in E as (P & Q & R & S & T); [| exact Hn'|].
          -- split; [intros F; split; [reflexivity|apply P, F]|]. split; [exact Q|]. split; [intros e He; right; apply R, He|]. split; [|exact T].
             intros e [<-|He] Hr; [|apply S; assumption].
             destruct Fr as [_ Fr]. rewrite Fr by exact Hk. unfold on_label. cbn [ls]. rewrite !upd_same, edge_uses_ls.
             unfold half_l, drop, set_out, call_l, make_l. cbn [out_ in_ lmade lcalls]. split; [apply edge_v_new|].
             split; [rewrite <- A; exact B|]. split; [intros ->; reflexivity|]. rewrite C, D, <- A, app_nil_r. split; reflexivity.
          -- intros e He. unfold on_label. cbn [ls]. rewrite !upd_diff by (intros ->; contradiction). rewrite edge_uses_ls. apply Hl. right. exact He.
  Qed.

  Lemma half_new b l : half_l b l -> new_l l.
  Proof.
    intros (A & B & _ & C & D). split; [|exact A]. unfold bal_l, settled. rewrite C, D, due_app, (due_old B). apply Permutation_app_comm.
  Qed.
  Lemma stuck_old l : stuck_l l -> old_l l.
  Proof.
    intros (A & B & w & Hw & C & D). split; [|exact B]. unfold bal_l, settled. rewrite C, D, due_app, (due_new Hw). apply Permutation_refl.
  Qed.
  Lemma half_done b l : half_l b l -> done_l (set_in (out_ l) l).
  Proof. intros (A & B & _ & C & D). unfold done_l, set_in. cbn [out_ in_ lmade lcalls]. split; [reflexivity|split; [exact A|]]. exists (in_ l). auto. Qed.

  (** [permeate] and [reflect], forwards *)
  Lemma edges_fwd blocked n err m err' m' err'' m'' : forward c = true -> NoDup (outs c n) -> (forall e, In e (outs c n) -> fresh_l (ls m e)) ->
    permeate c blocked n err m = (err', m') -> reflect c n err' m' = (err'', m'') ->
    err'' = err' /\ vs m'' = vs m /\ (forall e, ~ In e (outs c n) -> ls m'' e = ls m e) /\ (err'' = false -> err = false) /\
    (forall e, In e (outs c n) -> if err'' then gone_l (ls m'' e) /\ in_ (ls m'' e) = None
                                  else done_l (ls m'' e) /\ (blocked = true -> out_ (ls m'' e) = None)).
  Proof.
    intros Hf Hn Hl Ep Er. unfold permeate in Ep. unfold reflect in Er. rewrite Hf in Ep, Er.
    destruct (permeating c blocked n (outs c n) err m) as [[rest e1] m1] eqn:E1.
    assert (Fr := permeating_frame _ _ _ _ _ E1). destruct Fr as [Fv Fl].
    apply (@permeating_fwd blocked n (outs c n) Hf) in E1 as (P & Q & R & S & T); [|exact Hn|exact Hl]. cbv zeta in Ep. injection Ep as <- <-. injection Er as <- <-.
    destruct (each_label (drop (e_free c)) m1 Q) as (A1 & _ & A2 & A3).
    set (m2 := free_labels (e_free c) rest m1) in *. change (each (fun e => on_label e (drop (e_free c))) rest m1) with m2 in A1, A2, A3.
    destruct (each_label (drop (ke_free c)) m2 Hn) as (B1 & _ & B2 & B3).
    set (m3 := if e1 then free_labels (ke_free c) (outs c n) m2 else m2).
    destruct (each_label (fun l => set_in (out_ l) l) m3 Hn) as (C1 & _ & C2 & C3).
    split; [reflexivity|]. split; [|split; [|split]].
    - rewrite C1. unfold m3. destruct e1; [unfold free_labels; rewrite B1|]; rewrite A1; exact Fv.
    - intros e He. rewrite C3 by exact He. assert (Hm : ls m2 e = ls m e).
      { rewrite A3 by (intros F; apply He, R, F). apply Fl, He. }
      unfold m3. destruct e1; [unfold free_labels; rewrite B3 by exact He|]; exact Hm.
    - intros F. apply P, F.
    - intros e He. rewrite C2 by exact He. unfold m3. destruct e1.
      + unfold free_labels. rewrite B2 by exact He. split; [|reflexivity].
        assert (G : gone_l (drop (ke_free c) (ls m2 e))).
        { destruct (in_dec Nat.eq_dec e rest) as [Hr|Hr].
          - rewrite A2 by exact Hr. apply drop_gone, drop_old; [apply stuck_old, T, Hr|reflexivity].
          - rewrite A3 by exact Hr. apply drop_new; [eapply half_new, S; assumption|reflexivity]. }
        destruct G as [G1 G2]. split; [exact G1|exact G2].
      + assert (Hr : ~ In e rest) by (destruct (P eq_refl) as [_ ->]; intros []). rewrite A3 by exact Hr.
        specialize (S e He Hr). split; [eapply half_done, S|]. intros Hb. apply S, Hb.
  Qed.

  Lemma permeating_bwd blocked n es : forward c = false -> forall err m rest err' m', NoDup es ->
    permeating c blocked n es err m = (rest, err', m') ->
    (err' = false -> err = false /\ forall e, In e es -> ls m' e = set_in (edge_v blocked e) (make_l (edge_v blocked e) (ls m e))) /\
    ((forall e, e_fails c e = false) -> err' = err).
  Proof.
    intros Hf. induction es as [|k es IH]; intros err m rest err' m' Hn E.
    - injection E as <- <- <-. split; [intros ->; split; [reflexivity|intros e []]|reflexivity].
    - destruct err; [rewrite permeating_err in E; injection E as <- <- <-; split; [discriminate|reflexivity]|].
      rewrite permeating_cons in E. cbv zeta in E. inversion Hn as [|? ? Hk Hn']; subst.
      destruct (negb blocked && e_fails c k) eqn:Ef.
      + injection E as <- <- <-. split; [discriminate|]. intros H. rewrite H, andb_false_r in Ef. discriminate.
      + rewrite Hf in E. assert (Fr := permeating_frame _ _ _ _ _ E). destruct Fr as [_ Fr]. apply IH in E as [A B]; [|exact Hn'].
        split; [|exact B]. intros He. split; [reflexivity|]. intros e [<-|Hi].
        * rewrite Fr by exact Hk. unfold on_label. cbn [ls]. rewrite !upd_same, edge_uses_ls. reflexivity.
        * rewrite (proj2 (A He) e Hi). unfold on_label. cbn [ls]. rewrite !upd_diff by (intros ->; contradiction). rewrite edge_uses_ls. reflexivity.
  Qed.

  (** The edges that a node's mutation changes *)
  Definition own (n : nat) : list nat := if forward c then outs c n else ins c n.
  Definition edges (blocked : bool) (n : nat) (err : bool) (m : mem) : bool * mem :=
    let (err, m) := permeate c blocked n err m in
    let (err, m) := reflect c n err m in
    (err, if err && negb (forward c) then undo_reflection c n None m else m).

  (** In all directions, if there is no error *)
  Lemma edges_ok blocked n err m m' : NoDup (own n) -> (forall e, In e (own n) -> fresh_l (ls m e)) ->
    edges blocked n err m = (false, m') ->
    err = false /\ vs m' = vs m /\ (forall e, ~ In e (own n) -> ls m' e = ls m e) /\
    (forall e, In e (own n) -> done_l (ls m' e) /\ (blocked = true -> out_ (ls m' e) = None)).
  Proof.
    intros Hn Hl E. unfold edges in E. destruct (permeate c blocked n err m) as [e1 m1] eqn:E1. destruct (reflect c n e1 m1) as [e2 m2] eqn:E2.
    unfold own in *. destruct (forward c) eqn:Hf.
    - rewrite andb_false_r in E. injection E as -> ->.
      destruct (edges_fwd _ _ _ _ Hf Hn Hl E1 E2) as (A & B & C & D & F). split; [apply D; reflexivity|]. split; [exact B|]. split; [exact C|exact F].
    - unfold permeate in E1. rewrite Hf in E1. destruct (permeating c blocked n (ins c n) err m) as [[rest e3] m3] eqn:E3.
      injection E1 as -> ->. destruct e2; [discriminate E|]. injection E as <-.
      assert (Fr := permeating_frame _ _ _ _ _ E3). destruct Fr as [Fv Fl].
      apply (@permeating_bwd blocked n (ins c n) Hf) in E3 as [P _]; [|exact Hn].
      unfold reflect in E2. rewrite Hf in E2. apply pair_equal_spec in E2 as [E2 E4]. apply orb_false_iff in E2 as [-> _].
      destruct (P eq_refl) as [Pe Pl]. clear P.
      destruct (each_label (fun l => set_out (in_ l) (drop (e_free c) l)) m1 Hn) as (C1 & _ & C2 & C3). rewrite E4 in C1, C2, C3.
      split; [exact Pe|]. split; [rewrite C1; exact Fv|]. split; [intros e He; rewrite C3 by exact He; apply Fl, He|].
      intros e He. rewrite C2, Pl by exact He. destruct (Hl e He) as (A & B & C & D).
      unfold done_l, set_out, drop, call_l, set_in, make_l. cbn [out_ in_ lmade lcalls].
      split; [|intros ->; reflexivity]. split; [reflexivity|]. split; [apply edge_v_new|]. exists (out_ (ls m e)).
      split; [exact B|]. rewrite C, D, app_nil_r. split; reflexivity.
  Qed.

  Lemma permeating_rest blocked n es : forall err m rest err' m', permeating c blocked n es err m = (rest, err', m') -> incl rest es.
  Proof.
    induction es as [|k es IH]; intros err m rest err' m' E; [injection E as <- <- <-; apply incl_refl|].
    destruct err; [rewrite permeating_err in E; injection E as <- <- <-; apply incl_refl|].
    rewrite permeating_cons in E. cbv zeta in E. destruct (negb blocked && e_fails c k); [injection E as <- <- <-; apply incl_refl|].
    destruct (forward c); apply IH in E; intros e He; right; apply E, He.
  Qed.

  Lemma edges_frame blocked n err m err' m' : edges blocked n err m = (err', m') ->
    vs m' = vs m /\ forall e, ~ In e (own n) -> ls m' e = ls m e.
  Proof.
    intros E. unfold edges in E. destruct (permeate c blocked n err m) as [e1 m1] eqn:E1. destruct (reflect c n e1 m1) as [e2 m2] eqn:E2.
    injection E as <- <-. unfold permeate in E1. unfold own in *.
    destruct (permeating c blocked n (if forward c then outs c n else ins c n) err m) as [[rest e3] m3] eqn:E3.
    assert (R := permeating_rest _ _ _ _ _ E3). assert (Fr := permeating_frame _ _ _ _ _ E3). destruct Fr as [Fv Fl].
    unfold reflect in E2. destruct (forward c) eqn:Hf.
    - rewrite andb_false_r. cbv zeta in E1. injection E1 as <- <-. injection E2 as <- <-.
      match goal with |- vs (each _ _ ?x) = _ /\ _ => set (m4 := x) end.
      destruct (each_label_frame (fun l => set_in (out_ l) l) (outs c n) m4) as (A & _ & B).
      assert (G : vs m4 = vs m /\ forall e, ~ In e (outs c n) -> ls m4 e = ls m e).
      { unfold m4. set (m5 := free_labels (e_free c) rest m3). destruct (each_label_frame (drop (e_free c)) rest m3) as (A1 & _ & B1).
        assert (G : vs m5 = vs m /\ forall e, ~ In e (outs c n) -> ls m5 e = ls m e).
        { split; [unfold m5, free_labels; rewrite A1; exact Fv|]. intros e He. unfold m5, free_labels. rewrite B1 by (intros F; apply He, R, F). apply Fl, He. }
        destruct e3; [|exact G]. destruct (each_label_frame (drop (ke_free c)) (outs c n) m5) as (A2 & _ & B2).
        split; [unfold free_labels; rewrite A2; apply G|]. intros e He. unfold free_labels. rewrite B2 by exact He. apply G, He. }
      split; [rewrite A; apply G|]. intros e He. rewrite B by exact He. apply G, He.
    - injection E1 as <- <-. injection E2 as <- <-. set (m4 := each _ _ m3).
      destruct (each_label_frame (fun l => set_out (in_ l) (drop (e_free c) l)) (ins c n) m3) as (A & _ & B).
      change (each (fun e => on_label e (fun l => set_out (in_ l) (drop (e_free c) l))) (ins c n) m3) with m4 in A, B.
      assert (G : vs m4 = vs m /\ forall e, ~ In e (ins c n) -> ls m4 e = ls m e).
      { split; [rewrite A; exact Fv|]. intros e He. rewrite B by exact He. apply Fl, He. }
      match goal with |- context [if ?b then _ else m4] => destruct b end; [|exact G].
      destruct (each_label_frame (drop None) (ins c n) m4) as (A2 & _ & B2). unfold undo_reflection, free_labels.
      split; [rewrite A2; apply G|]. intros e He. rewrite B2 by exact He. apply G, He.
  Qed.

  (** After an error *)
  Lemma edges_bad blocked n err m m' : NoDup (own n) -> (forall e, In e (own n) -> fresh_l (ls m e)) ->
    forward c = true \/ (forall e, e_fails c e = false /\ de_fails c e = false) ->
    edges blocked n err m = (true, m') ->
    forall e, In e (own n) -> gone_l (ls m' e) /\ (forward c = true -> in_ (ls m' e) = None).
  Proof.
    intros Hn Hl Hd E. unfold edges in E. destruct (permeate c blocked n err m) as [e1 m1] eqn:E1. destruct (reflect c n e1 m1) as [e2 m2] eqn:E2.
    unfold own in *. destruct (forward c) eqn:Hf.
    - rewrite andb_false_r in E. injection E as -> ->.
      destruct (edges_fwd _ _ _ _ Hf Hn Hl E1 E2) as (A & B & C & D & F). intros e He. destruct (F e He) as [F1 F2]. split; [exact F1|]. intros _. exact F2.
    - destruct Hd as [Hd|Hd]; [discriminate|].
      unfold permeate in E1. rewrite Hf in E1. destruct (permeating c blocked n (ins c n) err m) as [[rest e3] m3] eqn:E3.
      injection E1 as -> ->. apply pair_equal_spec in E as [-> E]. cbn [andb negb] in E.
      assert (E5 := E3). apply (@permeating_bwd blocked n (ins c n) Hf) in E5 as [_ P]; [|exact Hn].
      specialize (P (fun e => proj1 (Hd e))). subst e1. unfold reflect in E2. rewrite Hf in E2. apply pair_equal_spec in E2 as [E2 E4].
      assert (Ee : err = true).
      { destruct err; [reflexivity|]. cbn [orb] in E2. apply existsb_exists in E2 as (e & _ & E2). rewrite (proj2 (Hd e)), andb_false_r in E2. discriminate. }
      subst err. rewrite permeating_err in E3. injection E3 as _ <-.
      destruct (each_label (fun l => set_out (in_ l) (drop (e_free c) l)) m Hn) as (_ & _ & C2 & C3). rewrite E4 in C2, C3.
      destruct (each_label (drop None) m2 Hn) as (_ & _ & D2 & D3). unfold undo_reflection, free_labels in E. rewrite E in D2, D3.
      intros e He. rewrite D2, C2 by exact He. split; [|discriminate].
      assert (G := drop_old (fresh_old_l (Hl e He)) eq_refl). destruct G as [G1 _]. split; [|reflexivity].
      unfold bal_l, settled, drop, call_l, set_out in *. cbn [out_ in_ lmade lcalls opt call due flat_map] in *. exact G1.
  Qed.

  (** Nothing is used after it was destroyed. *)
  Lemma permeating_mis blocked n es : forall err m rest err' m', NoDup es -> (forall e, In e es -> fresh_l (ls m e)) ->
    (v_op c = false -> alive_v m n) -> (forall e, In e es -> alive_v m (if forward c then dst c e else src c e)) ->
    permeating c blocked n es err m = (rest, err', m') -> misused m' = misused m.
  Proof.
    induction es as [|k es IH]; intros err m rest err' m' Hn Hl Ha Hb E; [injection E as <- <- <-; reflexivity|].
    destruct err; [rewrite permeating_err in E; injection E as <- <- <-; reflexivity|].
    rewrite permeating_cons in E. cbv zeta in E. inversion Hn as [|? ? Hk Hn']; subst.
    assert (Eu : edge_uses blocked n k m = m).
    { unfold edge_uses. destruct blocked; [reflexivity|].
      replace (if v_op c then m else use_vertex n m) with m by (destruct (v_op c); [reflexivity|symmetry; apply use_v_alive, Ha; reflexivity]).
      assert (Fk := Hl k (or_introl eq_refl)). destruct Fk as (A & B & C & D). specialize (Hb k (or_introl eq_refl)).
      destruct (forward c).
      - rewrite use_out_alive; [apply use_v_alive, Hb|]. unfold alive_out. rewrite C. destruct (out_ (ls m k)); reflexivity.
      - rewrite use_in_alive; [apply use_v_alive, Hb|]. unfold alive_in. rewrite C. destruct (in_ (ls m k)); reflexivity. }
    rewrite Eu in E. destruct (negb blocked && e_fails c k); [injection E as <- <- <-; reflexivity|].
    destruct (forward c) eqn:Hf; apply IH in E; try exact E; try assumption; try (intros e He; apply Hb; right; exact He);
      intros e He; unfold on_label; cbn [ls]; rewrite !upd_diff by (intros ->; contradiction); apply Hl; right; exact He.
  Qed.
  Lemma edges_mis blocked n err m err' m' : NoDup (own n) -> (forall e, In e (own n) -> fresh_l (ls m e)) ->
    (err = false -> v_op c = false -> alive_v m n) -> (err = false -> forall e, In e (own n) -> alive_v m (if forward c then dst c e else src c e)) ->
    edges blocked n err m = (err', m') -> misused m' = misused m.
  Proof.
    intros Hn Hl Ha Hb E. unfold edges in E. destruct (permeate c blocked n err m) as [e1 m1] eqn:E1. destruct (reflect c n e1 m1) as [e2 m2] eqn:E2.
    injection E as <- <-. unfold permeate in E1. unfold own in *.
    destruct (permeating c blocked n (if forward c then outs c n else ins c n) err m) as [[rest e3] m3] eqn:E3.
    assert (M3 : misused m3 = misused m).
    { destruct err; [rewrite permeating_err in E3; injection E3 as <- <- <-; reflexivity|].
      eapply permeating_mis; [exact Hn|exact Hl|apply Ha; reflexivity|apply Hb; reflexivity|exact E3]. }
    assert (U : misused m1 = misused m).
    { destruct (forward c); [|injection E1 as <- <-; exact M3]. cbv zeta in E1. injection E1 as <- <-. unfold free_labels.
      destruct e3; [destruct (each_label_frame (drop (ke_free c)) (outs c n) (each (fun e => on_label e (drop (e_free c))) rest m3)) as (_ & -> & _)|];
        destruct (each_label_frame (drop (e_free c)) rest m3) as (_ & -> & _); exact M3. }
    assert (V : misused m2 = misused m1).
    { unfold reflect in E2. destruct (forward c); injection E2 as <- <-; apply each_label_frame. }
    rewrite <- U, <- V. destruct (e2 && negb (forward c)); [apply each_label_frame|reflexivity].
  Qed.

  (** ** The whole of [mutate] *)
  Lemma mutate_eq blocked n err m : mutate c blocked n err m =
    let '(x, err1, m1) := if blocked || negb (v_op c) || err then (None, err, m) else mapped_node c n m in
    let (err2, m2) := if e_op c then edges blocked n err1 m1 else (err1, m1) in
    if err2 || negb (forward c) && blocked then (err2, if err2 then on_vertex n (call_v (kv_free c) x) m2 else m2)
    else if v_op c
    then (negb (is_nil (call (v_free c) (cur (vs m2 n)))) && dv_fails c n, on_vertex n (fun v => set_cur x (call_v (v_free c) (cur v) v)) m2)
    else (false, m2).
  Proof. reflexivity. Qed.

  Lemma no_dv (err' : bool) n b (m m' : mem) : err' = false \/ (forall k, dv_fails c k = false) -> (b && dv_fails c n, m) = (err', m') -> b && dv_fails c n = false.
  Proof. intros [->|H] E; [apply pair_equal_spec in E; apply E|rewrite H; apply andb_false_r]. Qed.

  (** What it does to labels *)
  Lemma mutate_labels blocked n err m err' m' : err' = false \/ (forall k, dv_fails c k = false) -> mutate c blocked n err m = (err', m') ->
    exists err1 m1 m2, ls m1 = ls m /\ (if e_op c then edges blocked n err1 m1 = (err', m2) else m2 = m1 /\ err' = err1) /\ ls m' = ls m2 /\
      misused m' = misused m2 /\ (err1 = false -> err = false) /\ (err = true -> err1 = true) /\
      (blocked || negb (v_op c) || err = true /\ m1 = m /\ err1 = err \/ exists x, mapped_node c n m = (x, err1, m1)).
  Proof.
    intros Hdv E. rewrite mutate_eq in E.
    destruct (if blocked || negb (v_op c) || err then (None, err, m) else mapped_node c n m) as [[x err1] m1] eqn:E1.
    destruct (if e_op c then edges blocked n err1 m1 else (err1, m1)) as [err2 m2] eqn:E2.
    exists err1, m1, m2.
    assert (Er : err' = err2 /\ ls m' = ls m2 /\ misused m' = misused m2).
    { destruct err2; cbn [orb] in E.
      - injection E as <- <-. split; [reflexivity|split; reflexivity].
      - destruct (negb (forward c) && blocked); [injection E as <- <-; split; [reflexivity|split; reflexivity]|].
        destruct (v_op c); [|injection E as <- <-; split; [reflexivity|split; reflexivity]].
        rewrite (@no_dv _ _ _ _ _ Hdv E) in E. injection E as <- <-. split; [reflexivity|split; reflexivity]. }
    destruct Er as (-> & Hl & Hm). split; [|split; [|split; [exact Hl|split; [exact Hm|split; [|split]]]]].
    - destruct (blocked || negb (v_op c) || err); [injection E1 as <- <- <-; reflexivity|]. apply mapped_node_spec in E1. apply E1.
    - destruct (e_op c); [exact E2|injection E2 as <- <-; split; reflexivity].
    - intros ->. destruct err; [|reflexivity]. rewrite orb_true_r in E1. discriminate E1.
    - intros ->. rewrite orb_true_r in E1. injection E1 as <- <- <-. reflexivity.
    - destruct (blocked || negb (v_op c) || err) eqn:Eb; [left; injection E1 as <- <- <-; auto|right; exists x; exact E1].
  Qed.

  (** What it does to vertices *)
  Lemma mutate_vertex blocked n err m err' m' : err' = false \/ (forall k, dv_fails c k = false) -> fresh_v (vs m n) -> mutate c blocked n err m = (err', m') ->
    (forall k, k <> n -> vs m' k = vs m k) /\
    (if err' || blocked then old_v (vs m' n) else if v_op c then new_v (vs m' n) else vs m' n = vs m n).
  Proof.
    intros Hdv Hv E. rewrite mutate_eq in E.
    destruct (if blocked || negb (v_op c) || err then (None, err, m) else mapped_node c n m) as [[x err1] m1] eqn:E1.
    destruct (if e_op c then edges blocked n err1 m1 else (err1, m1)) as [err2 m2] eqn:E2.
    assert (V2 : vs m2 = vs m1) by (destruct (e_op c); [eapply edges_frame, E2|injection E2 as <- <-; reflexivity]).
    assert (M2 : err1 = true -> err2 = true).
    { intros ->. destruct (e_op c); [|injection E2 as <- <-; reflexivity]. destruct err2; [reflexivity|].
      unfold edges in E2. destruct (permeate c blocked n true m1) as [a b] eqn:Ea. unfold permeate in Ea. rewrite permeating_err in Ea.
      assert (a = true) by (destruct (forward c); injection Ea as <- _; reflexivity). subst a.
      unfold reflect in E2. destruct (forward c); apply pair_equal_spec in E2 as [E2 _]; discriminate. }
    assert (V1 : (forall k, k <> n -> vs m1 k = vs m k) /\
                 (if blocked || negb (v_op c) || err then x = None /\ vs m1 n = vs m n
                  else if err1 then x = None /\ vs m1 n = call_v (kv_free c) (node_v n) (make_v (node_v n) (vs m n))
                  else x = node_v n /\ vs m1 n = make_v (node_v n) (vs m n))).
    { destruct (blocked || negb (v_op c) || err); [injection E1 as <- <- <-; split; [reflexivity|split; reflexivity]|].
      apply mapped_node_spec in E1 as (_ & A & B). split; assumption. }
    destruct V1 as [Vk Vn].
    assert (K : forall k, k <> n -> vs m' k = vs m k).
    { intros k Hk. rewrite <- (Vk k Hk), <- V2. destruct (err2 || negb (forward c) && blocked).
      - injection E as <- <-. destruct err2; [|reflexivity]. unfold on_vertex. cbn [vs]. apply upd_diff, Hk.
      - destruct (v_op c); injection E as <- <-; [|reflexivity]. unfold on_vertex. cbn [vs]. apply upd_diff, Hk. }
    split; [exact K|]. clear K Vk. assert (F := Hv). destruct F as (A & B & C).
    destruct err2.
    - cbn [orb] in E. injection E as <- <-. cbn [orb]. unfold on_vertex. cbn [vs]. rewrite upd_same, V2.
      destruct (blocked || negb (v_op c) || err).
      + destruct Vn as [-> ->]. unfold call_v. rewrite call_none. destruct (vs m n) as [p q r]. cbn. apply fresh_old. split; [exact A|split; [exact B|exact C]].
      + assert (G : forall v, v = call_v (kv_free c) (node_v n) (make_v (node_v n) (vs m n)) -> old_v v).
        { intros v ->. unfold old_v, bal_v, settled, call_v, make_v. cbn [cur vcalls vmade]. rewrite B, C, app_nil_r, due_app.
          rewrite (due_vnew (node_v_new n)). split; [apply Permutation_refl|]. split; [exact A|]. apply dead_call. intros Hy F. unfold node_v in F, Hy.
          destruct (v_null c n); destruct (cur (vs m n)) as [[]|]; try discriminate F; solve [now apply A|now apply Hy]. }
        destruct err1; destruct Vn as [-> ->]; [|apply G; reflexivity].
        apply G. unfold call_v. rewrite call_none. reflexivity.
    - assert (err1 = false) by (destruct err1; [symmetry; apply M2; reflexivity|reflexivity]). subst err1. cbn [orb] in E.
      destruct blocked.
      + cbn [orb] in Vn. destruct Vn as [-> Vn]. destruct (forward c); cbn [negb andb] in E.
        * destruct (v_op c).
          -- rewrite (@no_dv _ _ _ _ _ Hdv E) in E. injection E as <- <-. cbn [orb]. unfold on_vertex. cbn [vs]. rewrite upd_same, V2, Vn.
             unfold old_v, bal_v, settled, set_cur, call_v. cbn [cur vcalls vmade]. rewrite B, C, app_nil_r, (due_vold A). cbn [opt due flat_map]. rewrite app_nil_r.
             split; [apply Permutation_refl|]. split; [discriminate|reflexivity].
          -- injection E as <- <-. cbn [orb]. rewrite V2, Vn. apply fresh_old, Hv.
        * injection E as <- <-. cbn [orb]. rewrite V2, Vn. apply fresh_old, Hv.
      + rewrite andb_false_r in E. cbn [orb] in *. destruct (v_op c).
        * rewrite (@no_dv _ _ _ _ _ Hdv E) in E. injection E as <- <-. cbn [orb]. unfold on_vertex. cbn [vs]. rewrite upd_same, V2.
          cbn [negb orb] in Vn. destruct err.
          -- discriminate E1.
          -- destruct Vn as [-> Vn]. rewrite Vn.
             unfold new_v, bal_v, settled, set_cur, call_v, make_v. cbn [cur vcalls vmade]. rewrite B, C, app_nil_r, due_app, (due_vold A).
             split; [apply Permutation_app_comm|]. split; [apply node_v_new|]. apply dead_call. intros Hy F. unfold node_v in F, Hy.
             destruct (v_null c n); destruct (cur (vs m n)) as [[]|]; try discriminate F; solve [now apply A|now apply Hy].
        * injection E as <- <-. cbn [orb]. rewrite V2. destruct Vn as [_ Vn]. exact Vn.
  Qed.
End Balance.

(** ** Lists of nodes *)
Section Lists.
  Variable c : mutator.
  Variable lanes : nat.
  Variable ns : list nat.
  Hypothesis Hok : graph_ok c ns.
  Hypothesis Hlane : forall n, In n ns -> lane c n < lanes.

  Record lists_ok (s : st) (l : nat) : Prop := {
    lo_nodup : NoDup (pend s l ++ surv s l ++ dels s l);
    lo_all : forall n, In n (pend s l ++ surv s l ++ dels s l) <-> In n ns /\ lane c n = l;
    lo_pend : forall n, In n (pend s l) -> marks s n = Fresh /\ early c n = true;
    lo_surv : forall n, In n (surv s l) -> marks s n = Mutated;
    lo_dels : forall n, In n (dels s l) -> marks s n <> Mutated
  }.
  Definition stopped (s : st) : Prop :=
    failed s = true /\ (forall l, In l (todo s) -> pend s l = [] \/ surv s l = []) /\ NoDup (todo s) /\ (forall l, In l (todo s) -> l < lanes).
  Definition LI (s : st) : Prop :=
    match ph s with
    | Mutating => failed s = false /\ forall l, lists_ok s l
    | Retracting => stopped s /\ (forall l, lists_ok s l) /\ (forall l, l < lanes -> pend s l = [] \/ surv s l = [])
    | Unmutating => stopped s /\ forall l, In l (todo s) -> lists_ok s l
    | Finished => True
    end.

  (** The two ways to mutate a node *)
  Record proc (s s' : st) (n l : nat) (blocked err e : bool) (m : mem) : Prop := {
    p_ph : ph s = Mutating;
    p_ph' : ph s' = Mutating;
    p_in : In n ns;
    p_lane : lane c n = l;
    p_l : l < lanes;
    p_fresh : marks s n = Fresh;
    p_mut : mutate c blocked n err (memory s) = (e, m);
    p_marks : marks s' = upd (marks s) n (if e || blocked then Blocked else Mutated);
    p_mem : memory s' = if e then free_labels (ke_free c) (outs c n) m else m;
    p_werrs : werrs s' = if e then upd (werrs s) l true else werrs s;
    p_err : err = true -> werrs s l = true;
    p_failed : failed s' = failed s;
    p_order : blocked = false /\ early c n = true \/
              err = false /\ forallb (fun k => negb (is_fresh (marks s k))) (prerequisites c n) = true /\
              blocked = existsb (fun k => is_blocked (marks s k)) (prerequisites c n)
  }.

  Lemma start_proc l n rest s e m : lists_ok s l -> ph s = Mutating -> l < lanes -> pend s l = n :: rest ->
    mutate c false n (werrs s l) (memory s) = (e, m) ->
    proc s (if e
         then mkSt Mutating (upd (marks s) n Blocked) (upd (pend s) l []) (surv s) (upd (dels s) l ((n :: rest) ++ dels s l))
                   (upd (werrs s) l true) (failed s) (todo s) (free_labels (ke_free c) (outs c n) m)
         else mkSt Mutating (upd (marks s) n Mutated) (upd (pend s) l rest) (upd (surv s) l (surv s l ++ [n])) (dels s)
                   (werrs s) (failed s) (todo s) m) n l false (werrs s l) e m.
  Proof.
    intros [A B C D F] Hp Hl Ep Em. assert (Hn : In n (pend s l)) by (rewrite Ep; left; reflexivity).
    destruct (proj1 (B n)) as [Hi Hla]; [apply in_or_app; left; exact Hn|]. destruct (C n Hn) as [Hf He].
    split; try assumption; try (destruct e; reflexivity); [intros E; exact E|left; split; [reflexivity|exact He]].
  Qed.
  Lemma receive_proc l n l1 l2 s blocked e m : lists_ok s l -> ph s = Mutating -> l < lanes -> pend s l = [] -> werrs s l = false ->
      dels s l = l1 ++ n :: l2 -> marks s n = Fresh ->
      forallb (fun k => negb (is_fresh (marks s k))) (prerequisites c n) = true ->
      blocked = existsb (fun k => is_blocked (marks s k)) (prerequisites c n) ->
      mutate c blocked n false (memory s) = (e, m) ->
    proc s (if e
         then mkSt Mutating (upd (marks s) n Blocked) (pend s) (surv s) (dels s) (upd (werrs s) l true) (failed s) (todo s)
                   (free_labels (ke_free c) (outs c n) m)
         else if blocked
         then mkSt Mutating (upd (marks s) n Blocked) (pend s) (surv s) (dels s) (werrs s) (failed s) (todo s) m
         else mkSt Mutating (upd (marks s) n Mutated) (pend s) (upd (surv s) l (n :: surv s l)) (upd (dels s) l (l1 ++ l2))
                   (werrs s) (failed s) (todo s) m) n l blocked false e m.
  Proof.
    intros [A B C D F] Hp Hl Ep Hw Ed Hf Hq Hb Em.
    destruct (proj1 (B n)) as [Hi Hla]; [rewrite Ed; apply in_or_app; right; apply in_or_app; right; apply in_elt|].
    split; try assumption; try (destruct e, blocked; reflexivity); [discriminate|right; auto].
  Qed.

  Lemma marks_other s s' n l0 : In n ns -> lane c n <> l0 -> (exists x, marks s' = upd (marks s) n x) ->
    pend s' l0 = pend s l0 -> surv s' l0 = surv s l0 -> dels s' l0 = dels s l0 -> lists_ok s l0 -> lists_ok s' l0.
  Proof.
    intros Hn Hl [x Hm] E1 E2 E3 [A B C D F].
    assert (N : forall k, In k (pend s l0 ++ surv s l0 ++ dels s l0) -> k <> n) by (intros k Hk ->; apply B in Hk; apply Hl, Hk).
    split; rewrite ?E1, ?E2, ?E3; try assumption; intros k Hk; rewrite Hm, upd_diff;
      try (apply C; exact Hk); try (apply D; exact Hk); try (apply F; exact Hk); apply N; rewrite !in_app_iff; auto.
  Qed.

  Lemma LI_step s s' : LI s -> step c lanes s s' -> LI s'.
  Proof.
    intros I St. destruct St as [l n rest s e m Hp Hl Ep Em|l n l1 l2 s blocked e m Hp Hl Ep Hw Ed Hf Hq Hb Em|l s Hp Hl|s other Hp Hq|l l1 l2 s Hp Et|s Hp Et|l l1 l2 s Hp Et|s Hp Et];
      unfold LI in I; rewrite Hp in I.
    - destruct I as [If I]. assert (Q := start_proc (I l) Hp Hl Ep Em). unfold LI. rewrite (p_ph' Q), (p_failed Q). split; [exact If|].
      intros l0. destruct (Nat.eq_dec l0 l) as [->|Hd].
      2:{ apply (@marks_other s _ n); try (exact (p_in Q)); try (rewrite (p_lane Q); auto); [eexists; apply (p_marks Q)| | | |apply I];
            destruct e; cbn [pend surv dels]; rewrite ?upd_diff by exact Hd; reflexivity. }
      destruct (I l) as [A B C D F]. rewrite Ep in A, B. destruct e; split; cbn [pend surv dels marks]; rewrite ?upd_same.
      + eapply Permutation_NoDup; [|exact A]. cbn [app]. apply Permutation_cons_app.
        rewrite !app_assoc. apply Permutation_app_tail, Permutation_app_comm.
      + intros k. rewrite <- B. cbn [app]. simpl. rewrite !in_app_iff. simpl. rewrite in_app_iff. tauto.
      + intros k [].
      + intros k Hk. rewrite upd_diff; [apply D, Hk|]. intros ->. inversion A. apply H1. rewrite !in_app_iff. auto.
      + intros k Hk. destruct (Nat.eq_dec k n) as [->|Hkn]; [rewrite upd_same; discriminate|]. rewrite upd_diff by exact Hkn.
        cbn [app] in Hk. destruct Hk as [<-|Hk]; [contradiction|]. apply in_app_iff in Hk as [Hk|Hk]; [|apply F, Hk].
        destruct (C k) as [-> _]; [rewrite Ep; right; exact Hk|discriminate].
      + eapply Permutation_NoDup; [|exact A]. rewrite <- app_assoc. cbn [app]. rewrite !(app_assoc rest). apply Permutation_cons_app. reflexivity.
      + intros k. rewrite <- B. simpl. rewrite !in_app_iff. simpl. tauto.
      + intros k Hk. assert (k <> n) by (intros ->; inversion A; apply H1; rewrite !in_app_iff; auto). rewrite upd_diff by assumption.
        apply C. rewrite Ep. right. exact Hk.
      + intros k Hk. destruct (Nat.eq_dec k n) as [->|Hkn]; [apply upd_same|]. rewrite upd_diff by exact Hkn. apply in_app_iff in Hk as [Hk|[<-|[]]]; [apply D, Hk|contradiction].
      + intros k Hk. rewrite upd_diff; [apply F, Hk|]. intros ->. inversion A. apply H1. rewrite !in_app_iff. auto.
    - destruct I as [If I]. assert (Q := receive_proc _ _ _ (I l) Hp Hl Ep Hw Ed Hf Hq Hb Em). unfold LI. rewrite (p_ph' Q), (p_failed Q). split; [exact If|].
      intros l0. destruct (Nat.eq_dec l0 l) as [->|Hd].
      2:{ apply (@marks_other s _ n); try (exact (p_in Q)); try (rewrite (p_lane Q); auto); [eexists; apply (p_marks Q)| | | |apply I];
            destruct e, blocked; cbn [pend surv dels]; rewrite ?upd_diff by exact Hd; reflexivity. }
      destruct (I l) as [A B C D F].
      assert (Nn : ~ In n (surv s l)).
      { intros G. apply D in G. rewrite Hf in G. discriminate. }
      assert (G : lists_ok (mkSt Mutating (upd (marks s) n Blocked) (pend s) (surv s) (dels s) (werrs s) (failed s) (todo s) (memory s)) l).
      { split; cbn [pend surv dels marks]; try assumption; intros k Hk.
        - rewrite Ep in Hk. destruct Hk.
        - rewrite upd_diff; [apply D, Hk|]. intros ->. contradiction.
        - destruct (Nat.eq_dec k n) as [->|Hkn]; [rewrite upd_same; discriminate|]. rewrite upd_diff by exact Hkn. apply F, Hk. }
      destruct e; [destruct G as [A' B' C' D' F']; split; assumption|]. destruct blocked; [destruct G as [A' B' C' D' F']; split; assumption|].
      rewrite Ep, Ed in A, B. cbn [app] in A, B. split; cbn [pend surv dels marks]; rewrite ?upd_same, ?Ep; cbn [app].
      + eapply Permutation_NoDup; [|exact A]. rewrite app_assoc. symmetry. apply Permutation_cons_app. rewrite app_assoc. reflexivity.
      + intros k. rewrite <- B. simpl. rewrite !in_app_iff. simpl. tauto.
      + intros k [].
      + intros k [<-|Hk]; [apply upd_same|]. rewrite upd_diff; [apply D, Hk|]. intros ->. contradiction.
      + intros k Hk. assert (k <> n).
        { intros ->. rewrite app_assoc in A. apply NoDup_remove_2 in A. apply A. rewrite !in_app_iff in *. tauto. }
        rewrite upd_diff by assumption. apply F. rewrite Ed. rewrite !in_app_iff in *. simpl. tauto.
    - destruct I as [If I]. unfold LI. cbn [ph failed]. split; [exact If|]. intros l0. destruct (I l0) as [A B C D F]. split; assumption.
    - destruct I as [If I]. destruct (any_error lanes s || other) eqn:Ee; [|exact Logic.I].
      assert (G : stopped (mkSt Retracting (marks s) (pend s) (surv s) (dels s) (werrs s) true (seq 0 lanes) (memory s))).
      { split; [reflexivity|]. cbn [todo pend surv]. split; [|split; [apply seq_NoDup|intros l; rewrite in_seq; lia]].
        intros l. rewrite in_seq. intros Hl. destruct (Hq l ltac:(lia)) as [Hx|[_ Hx]]; auto. }
      assert (K : forall p l, lists_ok (mkSt p (marks s) (pend s) (surv s) (dels s) (werrs s) true (seq 0 lanes) (memory s)) l).
      { intros p l. destruct (I l) as [A B C D F]. split; assumption. }
      unfold LI. cbn [ph]. destruct (forward c); [split; [exact G|intros l _; apply K]|]. destruct (ke_free c); [|split; [exact G|intros l _; apply K]].
      split; [exact G|]. split; [apply K|]. intros l Hl. destruct (Hq l Hl) as [Hx|[_ Hx]]; auto.
    - destruct I as ((Hf & Ha & Hn & Hb) & I & Hc). unfold LI. cbn [ph].
      assert (S1 : forall x, In x (l1 ++ l2) -> In x (todo s)) by (intros x; rewrite Et, !in_app_iff; simpl; tauto).
      split; [|split; [intros l0; destruct (I l0) as [A B C D F]; split; assumption|exact Hc]].
      split; [exact Hf|]. cbn [todo pend surv]. rewrite Et in Hn. split; [intros x Hx; apply Ha, S1, Hx|].
      split; [eapply NoDup_remove_1, Hn|intros x Hx; apply Hb, S1, Hx].
    - destruct I as ((Hf & Ha & Hn & Hb) & I & Hc). unfold LI. cbn [ph]. split; [|intros l _; destruct (I l) as [A B C D F]; split; assumption].
      split; [exact Hf|]. cbn [todo pend surv]. split; [intros l; rewrite in_seq; intros Hl; apply Hc; lia|]. split; [apply seq_NoDup|intros l; rewrite in_seq; lia].
    - destruct I as ((Hf & Ha & Hn & Hb) & I). unfold LI. cbn [ph].
      assert (S1 : forall x, In x (l1 ++ l2) -> In x (todo s)) by (intros x; rewrite Et, !in_app_iff; simpl; tauto).
      rewrite Et in Hn. assert (Hnl : ~ In l (l1 ++ l2)) by (apply NoDup_remove_2, Hn).
      assert (Hx : forall x, In x (l1 ++ l2) -> x <> l) by (intros x H ->; contradiction).
      split.
      + split; [exact Hf|]. cbn [todo pend surv]. split; [|split; [eapply NoDup_remove_1, Hn|intros x Hy; apply Hb, S1, Hy]].
        intros x Hy. rewrite !upd_diff by (apply Hx, Hy). apply Ha, S1, Hy.
      + cbn [todo]. intros x Hy. destruct (I x (S1 x Hy)) as [A B C D F].
        split; cbn [pend surv dels marks]; rewrite ?upd_diff by (apply Hx, Hy); assumption.
    - exact Logic.I.
  Qed.

  (** ** Cleaning up *)
  Lemma outs_src n e : In n ns -> In e (outs c n) -> src c e = n.
  Proof. intros Hn He. apply (@ok_out c ns Hok n e Hn) in He. apply He. Qed.
  Lemma ins_dst n e : In n ns -> In e (ins c n) -> dst c e = n.
  Proof. intros Hn He. apply (@ok_in c ns Hok n e Hn) in He. apply He. Qed.

  Lemma free_nodes_spec dv de l : forall m, NoDup l -> incl l ns ->
    misused (free_nodes c dv de l m) = misused m /\
    (forall n, vs (free_nodes c dv de l m) n = if in_dec Nat.eq_dec n l then kill_v dv (vs m n) else vs m n) /\
    (forall n e, In n ns -> In e (outs c n) ->
       ls (free_nodes c dv de l m) e = if in_dec Nat.eq_dec n l then drop de (ls m e) else ls m e).
  Proof.
    unfold free_nodes, each. induction l as [|k l IH]; intros m Hn Hi; cbn [fold_left].
    - split; [reflexivity|]. split; intros n; [|intros e _ _]; destruct (in_dec Nat.eq_dec n []) as [[]|_]; reflexivity.
    - inversion Hn as [|? ? Hk Hn']; subst. assert (Hik : In k ns) by (apply Hi; left; reflexivity).
      match goal with |- context [fold_left _ l ?x] => set (m1 := x) end.
      destruct (IH m1 Hn') as (A & B & C); [intros x Hx; apply Hi; right; exact Hx|].
      destruct (each_label (drop de) m (@ok_outs c ns Hok k Hik)) as (E1 & E2 & E3 & E4).
      split; [rewrite A; exact E2|]. split.
      + intros n. rewrite B. unfold m1, on_vertex. cbn [vs]. destruct (in_dec Nat.eq_dec n (k :: l)) as [Hin|Hin].
        * destruct (in_dec Nat.eq_dec n l) as [Hl|Hl].
          -- rewrite upd_diff by (intros ->; contradiction). unfold free_labels. rewrite E1. reflexivity.
          -- destruct Hin as [<-|Hin]; [|contradiction]. rewrite upd_same. unfold free_labels. rewrite E1. reflexivity.
        * destruct (in_dec Nat.eq_dec n l) as [Hl|Hl]; [exfalso; apply Hin; right; exact Hl|].
          rewrite upd_diff by (intros ->; apply Hin; left; reflexivity). unfold free_labels. rewrite E1. reflexivity.
      + intros n e Hnn He. rewrite (C n e Hnn He). unfold m1, on_vertex. cbn [ls]. unfold free_labels.
        destruct (Nat.eq_dec n k) as [->|Hd].
        * destruct (in_dec Nat.eq_dec k l) as [Hl|_]; [contradiction|]. destruct (in_dec Nat.eq_dec k (k :: l)) as [_|Hx]; [|exfalso; apply Hx; left; reflexivity].
          apply E3, He.
        * assert (Ne : ~ In e (outs c k)).
          { intros F. apply Hd. rewrite <- (outs_src _ _ Hnn He). apply outs_src; assumption. }
          rewrite (E4 e Ne). destruct (in_dec Nat.eq_dec n l) as [Hl|Hl], (in_dec Nat.eq_dec n (k :: l)) as [Hx|Hx]; try reflexivity.
          -- exfalso. apply Hx. right. exact Hl.
          -- destruct Hx as [->|Hx]; contradiction.
  Qed.

  Lemma unmutate_spec s l : lists_ok s l -> pend s l = [] \/ surv s l = [] ->
    misused (unmutate c s l) = misused (memory s) /\
    (forall n, In n ns -> lane c n <> l -> vs (unmutate c s l) n = vs (memory s) n /\
       forall e, In e (outs c n) -> ls (unmutate c s l) e = ls (memory s) e) /\
    (forall n, In n ns -> lane c n = l -> exists dv de,
       vs (unmutate c s l) n = kill_v dv (vs (memory s) n) /\ (forall e, In e (outs c n) -> ls (unmutate c s l) e = drop de (ls (memory s) e)) /\
       (marks s n = Mutated -> dv = (if v_op c then kv_free c else v_free c) /\ de = if e_op c then ke_free c else e_free c) /\
       (marks s n <> Mutated -> dv = v_free c /\ de = e_free c)).
  Proof.
    intros [A B C D F] Hs. unfold unmutate. cbv zeta.
    match goal with |- context [free_nodes c ?x ?y _ _] => set (zv := x); set (ze := y) end.
    assert (A' : NoDup ((surv s l ++ pend s l) ++ dels s l)).
    { eapply Permutation_NoDup; [|exact A]. rewrite app_assoc. apply Permutation_app_tail, Permutation_app_comm. }
    assert (B' : forall n, In n ((surv s l ++ pend s l) ++ dels s l) <-> In n ns /\ lane c n = l).
    { intros n. rewrite <- B. rewrite !in_app_iff. tauto. }
    assert (Nd : NoDup (dels s l) /\ NoDup (surv s l ++ pend s l) /\ forall n, In n (surv s l ++ pend s l) -> ~ In n (dels s l)).
    { clear - A'. induction (surv s l ++ pend s l) as [|k r IH]; [split; [exact A'|split; [constructor|intros n []]]|].
      inversion A' as [|? ? Hx Hy]; subst. destruct (IH Hy) as (P & Q & R). split; [exact P|]. split.
      - constructor; [intros G; apply Hx, in_or_app; left; exact G|exact Q].
      - intros n [<-|Hn]; [intros G; apply Hx, in_or_app; right; exact G|apply R, Hn]. }
    destruct Nd as (N1 & N2 & N3).
    set (m1 := free_nodes c (v_free c) (e_free c) (dels s l) (memory s)).
    destruct (@free_nodes_spec (v_free c) (e_free c) (dels s l) (memory s) N1) as (P1 & P2 & P3); [intros n Hn; apply B', in_or_app; right; exact Hn|].
    destruct (@free_nodes_spec zv ze (surv s l ++ pend s l) m1 N2) as (Q1 & Q2 & Q3); [intros n Hn; apply B', in_or_app; left; exact Hn|].
    split; [rewrite Q1; exact P1|]. split.
    - intros n Hn Hl. assert (K : ~ In n ((surv s l ++ pend s l) ++ dels s l)) by (rewrite B'; intros [_ K]; contradiction).
      rewrite in_app_iff in K. split.
      + rewrite Q2. destruct (in_dec Nat.eq_dec n (surv s l ++ pend s l)); [tauto|]. unfold m1. rewrite P2. destruct (in_dec Nat.eq_dec n (dels s l)); [tauto|reflexivity].
      + intros e He. rewrite (Q3 n e Hn He). destruct (in_dec Nat.eq_dec n (surv s l ++ pend s l)); [tauto|]. unfold m1. rewrite (P3 n e Hn He).
        destruct (in_dec Nat.eq_dec n (dels s l)); [tauto|reflexivity].
    - intros n Hn Hl. assert (K : In n ((surv s l ++ pend s l) ++ dels s l)) by (apply B'; split; assumption).
      apply in_app_iff in K as [K|K].
      + exists zv, ze. assert (K' := N3 n K). split; [|split].
        * rewrite Q2. destruct (in_dec Nat.eq_dec n (surv s l ++ pend s l)); [|contradiction]. unfold m1. rewrite P2. destruct (in_dec Nat.eq_dec n (dels s l)); [contradiction|reflexivity].
        * intros e He. rewrite (Q3 n e Hn He). destruct (in_dec Nat.eq_dec n (surv s l ++ pend s l)); [|contradiction]. unfold m1. rewrite (P3 n e Hn He).
          destruct (in_dec Nat.eq_dec n (dels s l)); [contradiction|reflexivity].
        * assert (Z : (marks s n = Mutated -> marked_first s l = true) /\ (marks s n <> Mutated -> marked_first s l = false)).
          { unfold marked_first. destruct Hs as [Hs|Hs]; rewrite Hs in *.
            - rewrite app_nil_r in *. rewrite (D n K). split; [|intros G; exfalso; apply G; reflexivity]. intros _.
              destruct (surv s l) as [|k r]; [destruct K|]. rewrite (D k) by (left; reflexivity). reflexivity.
            - cbn [app] in *. destruct (C n K) as [Cn _]. rewrite Cn. split; [discriminate|]. intros _.
              destruct (pend s l) as [|k r]; [destruct K|]. destruct (C k) as [-> _]; [left; reflexivity|reflexivity]. }
          assert (Nn : is_nil (surv s l ++ pend s l) = false) by (destruct (surv s l ++ pend s l); [destruct K|reflexivity]).
          unfold zv, ze. rewrite Nn. cbn [negb andb]. destruct Z as [Z1 Z2]. split; intros G; [rewrite (Z1 G)|rewrite (Z2 G)]; split; reflexivity.
      + exists (v_free c), (e_free c). assert (K' : ~ In n (surv s l ++ pend s l)) by (intros G; apply (N3 n G), K). split; [|split; [|split]].
        * rewrite Q2. destruct (in_dec Nat.eq_dec n (surv s l ++ pend s l)); [contradiction|]. unfold m1. rewrite P2. destruct (in_dec Nat.eq_dec n (dels s l)); [reflexivity|contradiction].
        * intros e He. rewrite (Q3 n e Hn He). destruct (in_dec Nat.eq_dec n (surv s l ++ pend s l)); [contradiction|]. unfold m1. rewrite (P3 n e Hn He).
          destruct (in_dec Nat.eq_dec n (dels s l)); [reflexivity|contradiction].
        * intros G. exfalso. apply (F n K G).
        * intros _. split; reflexivity.
  Qed.

  (** ** Vertices *)
  Definition vshape (x : mark) (v : vertex) : Prop :=
    match x with Fresh | Unreachable => fresh_v v | Mutated => if v_op c then new_v c v else fresh_v v | Blocked => old_v c v end.
  Definition VI (s : st) : Prop := forall n, In n ns ->
    let v := vs (memory s) n in
    match ph s with
    | Mutating | Retracting => vshape (marks s n) v
    | Unmutating => (In (lane c n) (todo s) -> vshape (marks s n) v) /\ (~ In (lane c n) (todo s) -> bal_v c v /\ cur v = None)
    | Finished => bal_v c v /\ (failed s = true -> cur v = None)
    end.

  Lemma vshape_bal x v : vshape x v -> bal_v c v.
  Proof. destruct x; simpl; intros H; try (apply fresh_old; exact H); [|apply H]. destruct (v_op c); [apply H|apply fresh_old, H]. Qed.
  Lemma vshape_alive x v : vshape x v -> dead (vcalls v) (cur v) = false.
  Proof.
    assert (G : fresh_v v -> dead (vcalls v) (cur v) = false) by (intros H; apply (@fresh_old c) in H; apply H).
    destruct x; simpl; intros H; try (apply G; exact H); [|apply H]. destruct (v_op c); [apply H|apply G, H].
  Qed.

  Lemma VI_proc s s' n l b err e m : e = false \/ (forall k, dv_fails c k = false) -> proc s s' n l b err e m -> VI s -> VI s'.
  Proof.
    intros Hdv Q V k Hk. cbv zeta. rewrite (p_ph' Q), (p_marks Q).
      assert (Vk := V k Hk). assert (Vn := V n (p_in Q)). cbv zeta in Vk, Vn. rewrite (p_ph Q) in Vk, Vn. rewrite (p_fresh Q) in Vn.
      assert (M := @mutate_vertex c _ _ _ _ _ _ Hdv Vn (p_mut Q)). destruct M as [M1 M2].
      assert (Ev : vs (memory s') = vs m).
      { rewrite (p_mem Q). destruct e; [|reflexivity]. apply each_label_frame. }
      rewrite Ev. destruct (Nat.eq_dec k n) as [->|Hd].
      - rewrite upd_same. destruct e; cbn [orb] in *; [exact M2|]. destruct b; cbn [vshape]; [exact M2|].
        destruct (v_op c); [exact M2|]. rewrite M2. exact Vn.
      - rewrite upd_diff by exact Hd. rewrite (M1 k Hd). exact Vk.
  Qed.

  Lemma VI_step s s' : (forall k, dv_fails c k = false) -> LI s -> VI s -> step c lanes s s' -> VI s'.
  Proof.
    intros Hdv I V St.
    destruct St as [l n rest s e m Hp Hl Ep Em|l n l1 l2 s blocked e m Hp Hl Ep Hw Ed Hf Hq Hb Em|l s Hp Hl|s other Hp Hq|l l1 l2 s Hp Et|s Hp Et|l l1 l2 s Hp Et|s Hp Et];
      unfold LI in I; rewrite Hp in I.
    - eapply VI_proc, V; [right; exact Hdv|]. eapply start_proc; try eassumption. apply I.
    - eapply VI_proc, V; [right; exact Hdv|]. eapply receive_proc; try eassumption. apply I.
    - intros n Hn. specialize (V n Hn). rewrite Hp in V. exact V.
    - intros n Hn. specialize (V n Hn). rewrite Hp in V. cbv zeta in *. destruct (any_error lanes s || other).
      + assert (G : In (lane c n) (seq 0 lanes)) by (apply in_seq; specialize (Hlane n Hn); lia).
        cbn [ph todo marks memory failed]. destruct (forward c); [split; [intros _; exact V|contradiction]|].
        destruct (ke_free c); [exact V|split; [intros _; exact V|contradiction]].
      + cbn [ph memory failed]. split; [eapply vshape_bal, V|discriminate].
    - intros n Hn. specialize (V n Hn). rewrite Hp in V. cbv zeta in *. cbn [ph todo marks memory].
      assert (Ev : vs (retract c s l) = vs (memory s)).
      { unfold retract. destruct (marked_first s l); [|reflexivity]. apply each_vs. intros e m. apply each_label_frame. }
      rewrite Ev. exact V.
    - intros n Hn. specialize (V n Hn). rewrite Hp in V. cbv zeta in *. cbn [ph todo marks memory].
      assert (G : In (lane c n) (seq 0 lanes)) by (apply in_seq; specialize (Hlane n Hn); lia). split; [intros _; exact V|contradiction].
    - destruct I as ((Ia & Ib & Ic & Id) & I). assert (Hin : In l (todo s)) by (rewrite Et; apply in_elt).
      destruct (unmutate_spec (I l Hin) (Ib l Hin)) as (_ & U1 & U2).
      intros n Hn. specialize (V n Hn). rewrite Hp in V. cbv zeta in *. cbn [ph todo marks memory].
      destruct (Nat.eq_dec (lane c n) l) as [Hd|Hd].
      + destruct (U2 n Hn Hd) as (dv & de & Ev & _ & K1 & K2). rewrite Ev.
        assert (Hx : ~ In (lane c n) (l1 ++ l2)) by (rewrite Hd; rewrite Et in Ic; apply NoDup_remove_2, Ic).
        split; [contradiction|]. intros _. split; [|reflexivity]. destruct V as [V _]. rewrite Hd in V. specialize (V Hin).
        assert (O : old_v c (vs (memory s) n) -> dv = v_free c -> bal_v c (kill_v dv (vs (memory s) n))) by (intros O ->; apply kill_old, O).
        destruct (marks s n) eqn:Em; cbn [vshape] in V.
        * apply O; [apply fresh_old, V|apply K2; discriminate].
        * destruct (K1 eq_refl) as [Edv _]. destruct (v_op c); [rewrite Edv; apply kill_new, V|apply O; [apply fresh_old, V|exact Edv]].
        * apply O; [apply fresh_old, V|apply K2; discriminate].
        * apply O; [exact V|apply K2; discriminate].
      + destruct (U1 n Hn Hd) as [Ev _]. rewrite Ev.
        assert (G : In (lane c n) (l1 ++ l2) <-> In (lane c n) (todo s)) by (rewrite Et, !in_app_iff; simpl; split; [tauto|intros [G|[G|G]]; [tauto|subst; contradiction|tauto]]).
        rewrite G. exact V.
    - intros n Hn. specialize (V n Hn). rewrite Hp in V. cbv zeta in *. cbn [ph memory failed]. rewrite Et in V.
      destruct V as [_ V]. destruct (V ltac:(intros [])) as [V1 V2]. split; [exact V1|intros _; exact V2].
  Qed.

  Lemma VI_settled s : VI s -> ph s = Finished -> vertices_settled c ns s.
  Proof.
    intros V Hp n Hn. specialize (V n Hn). rewrite Hp in V. cbv zeta in *. destruct V as [V1 V2]. unfold bal_v in V1.
    destruct (failed s); [|exact V1]. rewrite V2 in V1 by reflexivity. exact V1.
  Qed.

  (** ** Labels while cleaning up *)
  Definition clean_l (s : st) (n : nat) (l : label) : Prop :=
    match marks s n with Mutated => if e_op c then new_l c l else old_l c l | _ => old_l c l end.
  Definition cleaning (s : st) (n e : nat) : Prop :=
    let l := ls (memory s) e in (In (lane c n) (todo s) -> clean_l s n l) /\ (~ In (lane c n) (todo s) -> gone_l c l).

  Lemma cleaning_mis s s' : LI s -> ph s = Unmutating -> step c lanes s s' ->
    misused (memory s') = misused (memory s) /\ marks s' = marks s /\ (ph s' = Unmutating \/ ph s' = Finished /\ failed s' = true).
  Proof.
    intros I Hp' St. destruct St as [l n rest s e m Hp Hl Ep Em|l n l1 l2 s blocked e m Hp Hl Ep Hw Ed Hf Hq Hb Em|l s Hp Hl|s other Hp Hq|l l1 l2 s Hp Et|s Hp Et|l l1 l2 s Hp Et|s Hp Et];
      rewrite Hp in Hp'; try discriminate Hp'; unfold LI in I; rewrite Hp in I.
    - destruct I as ((Ia & Ib & Ic & Id) & I). assert (Hin : In l (todo s)) by (rewrite Et; apply in_elt).
      destruct (unmutate_spec (I l Hin) (Ib l Hin)) as (U0 & _). cbn [ph memory failed]. split; [exact U0|]. split; [reflexivity|]. left. reflexivity.
    - cbn [ph memory failed]. split; [reflexivity|]. split; [reflexivity|]. right. split; [reflexivity|apply I].
  Qed.
  Lemma cleaning_step s s' n e : LI s -> ph s = Unmutating -> In n ns -> In e (outs c n) -> cleaning s n e -> step c lanes s s' ->
    ph s' = Unmutating /\ cleaning s' n e \/ ph s' = Finished /\ gone_l c (ls (memory s') e).
  Proof.
    intros I Hp' Hn He C St. destruct St as [l k rest s x m Hp Hl Ep Em|l k l1 l2 s blocked x m Hp Hl Ep Hw Ed Hf Hq Hb Em|l s Hp Hl|s other Hp Hq|l l1 l2 s Hp Et|s Hp Et|l l1 l2 s Hp Et|s Hp Et];
      rewrite Hp in Hp'; try discriminate Hp'; unfold LI in I; rewrite Hp in I.
    - destruct I as ((Ia & Ib & Ic & Id) & I). assert (Hin : In l (todo s)) by (rewrite Et; apply in_elt).
      destruct (unmutate_spec (I l Hin) (Ib l Hin)) as (U0 & U1 & U2). cbn [ph memory]. left. split; [reflexivity|].
      unfold cleaning, clean_l in *. cbv zeta in *. cbn [todo marks memory].
      destruct (Nat.eq_dec (lane c n) l) as [Hd|Hd].
      + destruct (U2 n Hn Hd) as (dv & de & _ & El & K1 & K2). rewrite (El e He).
        assert (Hx : ~ In (lane c n) (l1 ++ l2)) by (rewrite Hd; rewrite Et in Ic; apply NoDup_remove_2, Ic).
        split; [contradiction|]. intros _. destruct C as [C _]. rewrite Hd in C. specialize (C Hin).
        destruct (marks s n) eqn:Em; try (apply drop_old; [exact C|apply K2; discriminate]).
        destruct (K1 eq_refl) as [_ Ede]. destruct (e_op c); [apply drop_new; assumption|apply drop_old; assumption].
      + destruct (U1 n Hn Hd) as [_ El]. rewrite (El e He).
        assert (G : In (lane c n) (l1 ++ l2) <-> In (lane c n) (todo s)) by (rewrite Et, !in_app_iff; simpl; split; [tauto|intros [G|[G|G]]; [tauto|subst; contradiction|tauto]]).
        rewrite G. exact C.
    - cbn [ph memory]. right. split; [reflexivity|]. unfold cleaning in C. rewrite Et in C. apply C. intros [].
  Qed.
  (** A label that was lost stays so. *)
  Definition lost_l (l : label) : Prop := out_ l = None /\ lcalls l = [].
  Lemma drop_lost d l : lost_l l -> lost_l (drop d l).
  Proof. intros [A B]. split; [reflexivity|]. unfold drop, set_out, call_l. cbn [lcalls]. rewrite A, B, call_none. reflexivity. Qed.
  Lemma lost_step s s' n e : LI s -> ph s = Unmutating -> In n ns -> In e (outs c n) -> lost_l (ls (memory s) e) -> step c lanes s s' ->
    lost_l (ls (memory s') e).
  Proof.
    intros I Hp' Hn He C St. destruct St as [l k rest s x m Hp Hl Ep Em|l k l1 l2 s blocked x m Hp Hl Ep Hw Ed Hf Hq Hb Em|l s Hp Hl|s other Hp Hq|l l1 l2 s Hp Et|s Hp Et|l l1 l2 s Hp Et|s Hp Et];
      rewrite Hp in Hp'; try discriminate Hp'; unfold LI in I; rewrite Hp in I; [|exact C].
    destruct I as ((Ia & Ib & Ic & Id) & I). assert (Hin : In l (todo s)) by (rewrite Et; apply in_elt).
    destruct (unmutate_spec (I l Hin) (Ib l Hin)) as (U0 & U1 & U2). cbn [memory].
    destruct (Nat.eq_dec (lane c n) l) as [Hd|Hd].
    - destruct (U2 n Hn Hd) as (dv & de & _ & El & _). rewrite (El e He). apply drop_lost, C.
    - destruct (U1 n Hn Hd) as [_ El]. rewrite (El e He). exact C.
  Qed.

  (** ** Labels while mutating *)

  (** The node by whose mutation an edge is changed *)
  Definition pn (e : nat) : nat := if forward c then src c e else dst c e.
  Lemma own_nodup n : In n ns -> NoDup (own c n).
  Proof. intros Hn. unfold own. destruct (forward c); [apply (@ok_outs c ns Hok n Hn)|apply (@ok_ins c ns Hok n Hn)]. Qed.
  Lemma own_pn n e : In n ns -> In e (own c n) -> pn e = n.
  Proof. intros Hn He. unfold own, pn in *. destruct (forward c); [apply outs_src|apply ins_dst]; assumption. Qed.
  Lemma outs_ins n e : In n ns -> In e (outs c n) -> In (dst c e) ns /\ In e (ins c (dst c e)).
  Proof. intros Hn He. apply (@ok_out c ns Hok n e Hn) in He. apply He. Qed.
  Lemma ins_outs n e : In n ns -> In e (ins c n) -> In (src c e) ns /\ In e (outs c (src c e)).
  Proof. intros Hn He. apply (@ok_in c ns Hok n e Hn) in He. apply He. Qed.
  Lemma pn_own n e : In n ns -> In e (outs c n) -> In (pn e) ns /\ In e (own c (pn e)).
  Proof.
    intros Hn He. unfold own, pn. destruct (forward c); [|apply (outs_ins _ _ Hn He)]. rewrite (outs_src _ _ Hn He). split; assumption.
  Qed.
  Lemma own_edge n e : In n ns -> In e (own c n) -> exists k, In k ns /\ In e (outs c k).
  Proof. intros Hn He. unfold own in He. destruct (forward c); [exists n; split; assumption|]. exists (src c e). apply ins_outs with n; assumption. Qed.

  Definition alive_l (l : label) : Prop := dead (lcalls l) (out_ l) = false /\ dead (lcalls l) (in_ l) = false.
  Lemma fresh_alive l : fresh_l l -> alive_l l.
  Proof. intros (A & B & C & D). unfold alive_l. rewrite C. split; [destruct (out_ l)|destruct (in_ l)]; reflexivity. Qed.
  Lemma done_alive l : done_l c l -> alive_l l.
  Proof.
    intros (A & B & o & Ho & C & D). assert (G : dead (lcalls l) (out_ l) = false).
    { rewrite D. apply dead_call. intros Hy F. subst o. destruct (out_ l) as [[]|]; contradiction. }
    split; [exact G|]. rewrite <- A. exact G.
  Qed.

  Lemma mutate_mis blocked n err m err' m' : err' = false \/ (forall k, dv_fails c k = false) -> In n ns ->
    (forall k, In k ns -> alive_v m k) -> (e_op c = true -> forall e, In e (own c n) -> fresh_l (ls m e)) ->
    (forall e, In e (ins c n) -> alive_in m e) -> (forall e, In e (outs c n) -> alive_out m e) ->
    mutate c blocked n err m = (err', m') -> misused m' = misused m.
  Proof.
    intros Hdv Hn Hv Hl Hi Ho E. destruct (@mutate_labels c _ _ _ _ _ _ Hdv E) as (err1 & m1 & m2 & A & B & C & D & F & G & H).
    assert (M1 : misused m1 = misused m).
    { destruct H as [(_ & -> & _)|[x H]]; [reflexivity|]. eapply mapped_node_mis; [exact H|apply Hv, Hn|..].
      - intros e He. split; [apply Hi, He|]. apply Hv. apply (ins_outs _ _ Hn He).
      - intros e He. split; [apply Ho, He|]. apply Hv. apply (outs_ins _ _ Hn He). }
    assert (V1 : err1 = false -> forall k, In k ns -> alive_v m1 k).
    { intros -> k Hk. destruct H as [(_ & -> & _)|[x H]]; [apply Hv, Hk|]. apply mapped_node_spec in H as (_ & H1 & _ & H2).
      unfold alive_v. destruct (Nat.eq_dec k n) as [->|Hd]; [rewrite H2; apply Hv, Hn|rewrite (H1 k Hd); apply Hv, Hk]. }
    rewrite D. destruct (e_op c); [|destruct B as [-> _]; exact M1].
    rewrite <- M1. eapply edges_mis; [apply own_nodup, Hn|..|exact B].
    - rewrite A. apply Hl; reflexivity.
    - intros Hx _. apply V1; assumption.
    - intros Hx e He. apply V1; [exact Hx|]. unfold own in He. destruct (forward c); [apply (outs_ins _ _ Hn He)|apply (ins_outs _ _ Hn He)].
  Qed.

  Lemma VI_alive s : VI s -> ph s = Mutating -> forall k, In k ns -> alive_v (memory s) k.
  Proof. intros V Hp k Hk. specialize (V k Hk). rewrite Hp in V. eapply vshape_alive, V. Qed.

  (** *** Without errors *)
  Definition lstate (s : st) (e : nat) : Prop := let l := ls (memory s) e in
    if e_op c then match marks s (pn e) with Fresh | Unreachable => fresh_l l | _ => done_l c l end else fresh_l l.
  Definition GI (s : st) : Prop := VI s /\ misused (memory s) = false /\ forall n e, In n ns -> In e (outs c n) -> lstate s e.

  Lemma lstate_alive s e : lstate s e -> alive_l (ls (memory s) e).
  Proof.
    unfold lstate. cbv zeta. destruct (e_op c); [|apply fresh_alive]. destruct (marks s (pn e)); solve [apply fresh_alive|apply done_alive].
  Qed.
  Lemma lstate_bal s e : lstate s e -> bal_l c (ls (memory s) e).
  Proof.
    unfold lstate. cbv zeta. destruct (e_op c); [|intros H; apply fresh_old_l, H]. destruct (marks s (pn e)); intros H; solve [apply fresh_old_l, H|apply done_new_l, H].
  Qed.

  Lemma GI_proc s s' n l b err m : proc s s' n l b err false m -> GI s -> GI s'.
  Proof.
    intros Q (V & M & L). split; [eapply VI_proc; [left; reflexivity|exact Q|exact V]|].
    assert (Fr : e_op c = true -> forall e, In e (own c n) -> fresh_l (ls (memory s) e)).
    { intros Ho e He. destruct (own_edge _ _ (p_in Q) He) as (k & Hk & Hk'). specialize (L k e Hk Hk'). unfold lstate in L. rewrite Ho in L.
      rewrite (own_pn _ _ (p_in Q) He), (p_fresh Q) in L. exact L. }
    assert (Em := p_mem Q). cbv iota in Em. rewrite Em. split.
    - rewrite <- M. eapply mutate_mis; [left; reflexivity|exact (p_in Q)|apply VI_alive; [exact V|exact (p_ph Q)]|exact Fr|..|exact (p_mut Q)].
      + intros e He. destruct (ins_outs _ _ (p_in Q) He) as [H1 H2]. apply (lstate_alive _ _ (L _ _ H1 H2)).
      + intros e He. apply (lstate_alive _ _ (L _ _ (p_in Q) He)).
    - destruct (@mutate_labels c _ _ _ _ _ _ (or_introl eq_refl) (p_mut Q)) as (err1 & m1 & m2 & A & B & C & _).
      intros k e Hk He. specialize (L k e Hk He). unfold lstate in *. cbv zeta in *. rewrite Em, C, (p_marks Q). destruct (e_op c) eqn:Ho.
      + assert (Fr1 : forall e, In e (own c n) -> fresh_l (ls m1 e)) by (rewrite A; apply Fr; reflexivity).
        destruct (@edges_ok c b n err1 m1 m2 (@own_nodup n (p_in Q)) Fr1 B) as (_ & _ & B1 & B2).
        destruct (in_dec Nat.eq_dec e (own c n)) as [Hi|Hi].
        * rewrite (own_pn _ _ (p_in Q) Hi), upd_same. destruct b; apply B2, Hi.
        * assert (Hd : pn e <> n) by (intros <-; apply Hi, (pn_own _ _ Hk He)). rewrite upd_diff by exact Hd. rewrite (B1 e Hi), A. exact L.
      + destruct B as [-> _]. rewrite A. exact L.
  Qed.

  Definition SI (s : st) : Prop :=
    match ph s with
    | Mutating => (exists l, l < lanes /\ werrs s l = true) \/ GI s
    | Finished => failed s = true \/ GI s
    | _ => True
    end.
  Lemma SI_step s s' : LI s -> SI s -> step c lanes s s' -> SI s'.
  Proof.
    intros I S St.
    assert (P : forall s s' n l b err e m, proc s s' n l b err e m -> SI s -> SI s').
    { clear - Hok. intros s s' n l b err e m Q S. unfold SI in *. rewrite (p_ph Q) in S. rewrite (p_ph' Q), (p_werrs Q). destruct S as [(l0 & H1 & H2)|S].
      - left. exists l0. split; [exact H1|]. destruct e; [|exact H2]. destruct (Nat.eq_dec l0 l) as [->|Hd]; [apply upd_same|rewrite upd_diff by exact Hd; exact H2].
      - destruct e; [left; exists l; split; [exact (p_l Q)|apply upd_same]|right; eapply GI_proc; eassumption]. }
    destruct St as [l n rest s e m Hp Hl Ep Em|l n l1 l2 s blocked e m Hp Hl Ep Hw Ed Hf Hq Hb Em|l s Hp Hl|s other Hp Hq|l l1 l2 s Hp Et|s Hp Et|l l1 l2 s Hp Et|s Hp Et];
      unfold LI in I; rewrite Hp in I.
    - eapply P, S. eapply start_proc; try eassumption. apply I.
    - eapply P, S. eapply receive_proc; try eassumption. apply I.
    - unfold SI. cbn [ph werrs]. left. exists l. split; [exact Hl|apply upd_same].
    - unfold SI in S. rewrite Hp in S. destruct (any_error lanes s) eqn:Ea; cbn [orb]; [unfold SI; cbn [ph]; destruct (forward c), (ke_free c); exact Logic.I|].
      destruct other; [unfold SI; cbn [ph]; destruct (forward c), (ke_free c); exact Logic.I|]. unfold SI. cbn [ph failed]. right.
      destruct S as [(l & H1 & H2)|(V & M & L)].
      + exfalso. assert (Ex : any_error lanes s = true) by (apply existsb_exists; exists l; split; [apply in_seq; lia|exact H2]). rewrite Ex in Ea. discriminate.
      + split; [|split; [exact M|exact L]]. intros n Hn. specialize (V n Hn). rewrite Hp in V. cbv zeta in *. cbn [ph memory failed]. split; [eapply vshape_bal, V|discriminate].
    - exact Logic.I.
    - exact Logic.I.
    - exact Logic.I.
    - unfold SI. cbn [ph failed]. left. apply I.
  Qed.

  (** *** Forwards *)
  Definition lfwd (s : st) (e : nat) : Prop := let l := ls (memory s) e in
    match marks s (src c e) with Fresh | Unreachable => fresh_l l | Mutated => done_l c l | Blocked => gone_l c l /\ in_ l = None end.
  Definition FI (s : st) : Prop := misused (memory s) = false /\ forall n e, In n ns -> In e (outs c n) ->
    match ph s with
    | Mutating => lfwd s e
    | Retracting => False
    | Unmutating => cleaning s n e
    | Finished => bal_l c (ls (memory s) e) /\ (failed s = true -> gone_l c (ls (memory s) e))
    end.

  Lemma gone_alive l : gone_l c l -> in_ l = None -> alive_l l.
  Proof. intros [_ A] B. unfold alive_l. rewrite A, B. split; reflexivity. Qed.
  Lemma lfwd_alive s e : lfwd s e -> alive_l (ls (memory s) e).
  Proof.
    unfold lfwd. cbv zeta. destruct (marks s (src c e)); try solve [apply fresh_alive|apply done_alive]. intros [H1 H2]. apply gone_alive; assumption.
  Qed.

  Lemma FI_proc s s' n l b err e m : forward c = true -> e_op c = true -> (forall k, dv_fails c k = false) -> proc s s' n l b err e m -> VI s -> FI s -> FI s'.
  Proof.
    intros Hf Ho Hdv Q V (M & L). assert (Hdv' : e = false \/ forall k, dv_fails c k = false) by (right; exact Hdv).
    assert (L' : forall n e, In n ns -> In e (outs c n) -> lfwd s e) by (intros k x Hk Hx; specialize (L k x Hk Hx); rewrite (p_ph Q) in L; exact L). clear L.
    assert (Ow : own c n = outs c n) by (unfold own; rewrite Hf; reflexivity).
    assert (Fr : forall x, In x (own c n) -> fresh_l (ls (memory s) x)).
    { intros x Hx. rewrite Ow in Hx. specialize (L' n x (p_in Q) Hx). unfold lfwd in L'. rewrite (outs_src _ _ (p_in Q) Hx), (p_fresh Q) in L'. exact L'. }
    assert (Mm : misused m = false).
    { rewrite <- M. eapply mutate_mis; [exact Hdv'|exact (p_in Q)|apply VI_alive; [exact V|exact (p_ph Q)]|intros _; exact Fr|..|exact (p_mut Q)].
      - intros x Hx. destruct (ins_outs _ _ (p_in Q) Hx) as [H1 H2]. apply (lfwd_alive _ _ (L' _ _ H1 H2)).
      - intros x Hx. apply (lfwd_alive _ _ (L' _ _ (p_in Q) Hx)). }
    split.
    - rewrite (p_mem Q). destruct e; [|exact Mm]. unfold free_labels. destruct (each_label_frame (drop (ke_free c)) (outs c n) m) as (_ & -> & _). exact Mm.
    - destruct (@mutate_labels c _ _ _ _ _ _ Hdv' (p_mut Q)) as (err1 & m1 & m2 & A & B & C & _). rewrite Ho in B.
      assert (Fr1 : forall x, In x (own c n) -> fresh_l (ls m1 x)) by (rewrite A; exact Fr).
      intros k x Hk Hx. rewrite (p_ph' Q). specialize (L' k x Hk Hx). unfold lfwd in *. cbv zeta in *. rewrite (p_marks Q), (p_mem Q).
      assert (Fx : ~ In x (own c n) -> ls m x = ls (memory s) x).
      { intros Hi. rewrite C. destruct (@edges_frame c _ _ _ _ _ _ B) as [_ B1]. rewrite (B1 x Hi), A. reflexivity. }
      destruct (in_dec Nat.eq_dec x (own c n)) as [Hi|Hi].
      + assert (Hi' := Hi). rewrite Ow in Hi'. rewrite (outs_src _ _ (p_in Q) Hi'), upd_same. destruct e; cbn [orb].
        * destruct (each_label (drop (ke_free c)) m (@ok_outs c ns Hok n (p_in Q))) as (_ & _ & D & _). unfold free_labels. rewrite (D x Hi'), C.
          destruct (@edges_bad c b n err1 m1 m2 (@own_nodup n (p_in Q)) Fr1 (or_introl Hf) B x Hi) as [B1 B2].
          split; [apply drop_gone, B1|]. apply B2, Hf.
        * destruct (@edges_ok c b n err1 m1 m2 (@own_nodup n (p_in Q)) Fr1 B) as (_ & _ & _ & B2). destruct (B2 x Hi) as [B3 B4]. rewrite C. destruct b; [|exact B3].
          split; [apply done_none; [exact B3|apply B4; reflexivity]|]. destruct B3 as [B3 _]. rewrite <- B3. apply B4. reflexivity.
      + assert (Hd : src c x <> n). { intros G. apply Hi. rewrite Ow, <- G, (outs_src _ _ Hk Hx). exact Hx. }
        rewrite upd_diff by exact Hd. destruct e; [|rewrite (Fx Hi); exact L'].
        unfold free_labels. destruct (each_label_frame (drop (ke_free c)) (outs c n) m) as (_ & _ & D). rewrite D, (Fx Hi); [exact L'|rewrite <- Ow; exact Hi].
  Qed.

  Lemma FI_step s s' : forward c = true -> e_op c = true -> (forall k, dv_fails c k = false) -> LI s -> VI s -> FI s -> step c lanes s s' -> FI s'.
  Proof.
    intros Hf Ho Hdv I V F St. assert (St' := St). assert (Cl := fun n e => @cleaning_step s s' n e I). assert (Cm := @cleaning_mis s s' I).
    destruct St as [l n rest s e m Hp Hl Ep Em|l n l1 l2 s blocked e m Hp Hl Ep Hw Ed Hf' Hq Hb Em|l s Hp Hl|s other Hp Hq|l l1 l2 s Hp Et|s Hp Et|l l1 l2 s Hp Et|s Hp Et];
      unfold LI in I; rewrite Hp in I.
    - eapply FI_proc; [exact Hf|exact Ho|exact Hdv|eapply start_proc; try eassumption; apply I|exact V|exact F].
    - eapply FI_proc; [exact Hf|exact Ho|exact Hdv|eapply receive_proc; try eassumption; apply I|exact V|exact F].
    - destruct F as [M L]. split; [exact M|]. intros n e Hn He. specialize (L n e Hn He). rewrite Hp in L. exact L.
    - destruct F as [M L]. split; [destruct (any_error lanes s || other); exact M|]. intros n e Hn He. specialize (L n e Hn He). rewrite Hp in L.
      unfold lfwd in L. rewrite (outs_src _ _ Hn He) in L. destruct (any_error lanes s || other); cbn [ph failed memory].
      + rewrite Hf. unfold cleaning, clean_l. cbn [todo marks memory]. rewrite Ho. split.
        * intros _. destruct (marks s n); [apply fresh_old_l, L|apply done_new_l, L|apply fresh_old_l, L|apply gone_old, L].
        * intros G. exfalso. apply G, in_seq. specialize (Hlane n Hn). lia.
      + split; [|discriminate]. destruct (marks s n); [apply fresh_old_l, L|apply done_new_l, L|apply fresh_old_l, L|apply L].
    - destruct F as [M L]. split.
      + cbn [memory]. unfold retract. assert (G : forall l m, misused (each (fun n => undo_reflection c n (ke_free c)) l m) = misused m).
        { unfold each. induction l0 as [|k l0 IH]; intros m; cbn [fold_left]; [reflexivity|]. rewrite IH. apply each_label_frame. }
        destruct (marked_first s l); [rewrite G|]; exact M.
      + intros n e Hn He. specialize (L n e Hn He). rewrite Hp in L. destruct L.
    - destruct F as [M L]. split; [exact M|]. intros n e Hn He. specialize (L n e Hn He). rewrite Hp in L. destruct L.
    - destruct F as [M L]. destruct (Cm Hp St') as (Cm1 & Cm2 & Cm3). split; [rewrite Cm1; exact M|]. intros n e Hn He. specialize (L n e Hn He). rewrite Hp in L.
      destruct (Cl n e Hp Hn He L St') as [[C1 C2]|[C1 C2]]; [exact C2|discriminate C1].
    - destruct F as [M L]. split; [exact M|]. intros n e Hn He. specialize (L n e Hn He). rewrite Hp in L.
      destruct (Cl n e Hp Hn He L St') as [[C1 C2]|[C1 C2]]; [discriminate C1|]. cbn [ph failed]. split; [apply C2|intros _; exact C2].
  Qed.

  (** *** With a vertex operation only *)
  Definition lvop (s : st) (n e : nat) : Prop := fresh_l (ls (memory s) e) \/ marks s n = Blocked /\ lost_l (ls (memory s) e).
  Definition WI (s : st) : Prop := misused (memory s) = false /\ forall n e, In n ns -> In e (outs c n) ->
    match ph s with
    | Mutating => lvop s n e
    | Retracting => False
    | Unmutating => cleaning s n e \/ marks s n = Blocked /\ lost_l (ls (memory s) e)
    | Finished => if failed s then gone_l c (ls (memory s) e) \/ marks s n = Blocked /\ lost_l (ls (memory s) e)
                  else bal_l c (ls (memory s) e) \/ marks s n = Blocked /\ lost_l (ls (memory s) e)
    end.
  Lemma lost_alive l : lost_l l -> alive_l l.
  Proof. intros [A B]. unfold alive_l. rewrite A, B. split; [reflexivity|]. destruct (in_ l); reflexivity. Qed.
  Lemma lvop_alive s n e : lvop s n e -> alive_l (ls (memory s) e).
  Proof. intros [H|[_ H]]; [apply fresh_alive, H|apply lost_alive, H]. Qed.

  Lemma WI_proc s s' n l b err e m : e_op c = false -> ke_free c = None -> (forall k, dv_fails c k = false) -> proc s s' n l b err e m -> VI s -> WI s -> WI s'.
  Proof.
    intros Ho Hk0 Hdv Q V (M & L). assert (Hdv' : e = false \/ forall k, dv_fails c k = false) by (right; exact Hdv).
    assert (L' : forall n e, In n ns -> In e (outs c n) -> lvop s n e) by (intros k x Hk Hx; specialize (L k x Hk Hx); rewrite (p_ph Q) in L; exact L). clear L.
    assert (Mm : misused m = false).
    { rewrite <- M. eapply mutate_mis; [exact Hdv'|exact (p_in Q)|apply VI_alive; [exact V|exact (p_ph Q)]|rewrite Ho; discriminate|..|exact (p_mut Q)].
      - intros x Hx. destruct (ins_outs _ _ (p_in Q) Hx) as [H1 H2]. apply (lvop_alive (L' _ _ H1 H2)).
      - intros x Hx. apply (lvop_alive (L' _ _ (p_in Q) Hx)). }
    split.
    - rewrite (p_mem Q). destruct e; [|exact Mm]. unfold free_labels. destruct (each_label_frame (drop (ke_free c)) (outs c n) m) as (_ & -> & _). exact Mm.
    - destruct (@mutate_labels c _ _ _ _ _ _ Hdv' (p_mut Q)) as (err1 & m1 & m2 & A & B & C & _). rewrite Ho in B. destruct B as [-> _].
      intros k x Hk Hx. rewrite (p_ph' Q). specialize (L' k x Hk Hx). unfold lvop in *. rewrite (p_marks Q), (p_mem Q).
      destruct (each_label (drop (ke_free c)) m (@ok_outs c ns Hok n (p_in Q))) as (_ & _ & D1 & D2).
      destruct (Nat.eq_dec k n) as [->|Hd].
      + destruct L' as [L'|[L' _]]; [|rewrite (p_fresh Q) in L'; discriminate]. destruct e; cbn [orb].
        * right. rewrite upd_same. split; [reflexivity|]. unfold free_labels. rewrite (D1 x Hx), C, A, Hk0. destruct L' as (_ & _ & L' & _).
          split; [reflexivity|]. unfold drop, set_out, call_l. cbn [lcalls call app]. exact L'.
        * left. rewrite C, A. exact L'.
      + rewrite upd_diff by exact Hd. destruct e; [|rewrite C, A; exact L']. unfold free_labels. rewrite D2, C, A; [exact L'|].
        intros G. apply Hd. rewrite <- (outs_src _ _ Hk Hx). apply outs_src; [exact (p_in Q)|exact G].
  Qed.

  Lemma WI_step s s' : e_op c = false -> ke_free c = None -> (forall k, dv_fails c k = false) -> LI s -> VI s -> WI s -> step c lanes s s' -> WI s'.
  Proof.
    intros Ho Hk0 Hdv I V F St. assert (St' := St). assert (Cl := fun n e => @cleaning_step s s' n e I). assert (Cm := @cleaning_mis s s' I).
    assert (Lo := fun n e => @lost_step s s' n e I).
    destruct St as [l n rest s e m Hp Hl Ep Em|l n l1 l2 s blocked e m Hp Hl Ep Hw Ed Hf' Hq Hb Em|l s Hp Hl|s other Hp Hq|l l1 l2 s Hp Et|s Hp Et|l l1 l2 s Hp Et|s Hp Et];
      unfold LI in I; rewrite Hp in I.
    - eapply WI_proc; [exact Ho|exact Hk0|exact Hdv|eapply start_proc; try eassumption; apply I|exact V|exact F].
    - eapply WI_proc; [exact Ho|exact Hk0|exact Hdv|eapply receive_proc; try eassumption; apply I|exact V|exact F].
    - destruct F as [M L]. split; [exact M|]. intros n e Hn He. specialize (L n e Hn He). rewrite Hp in L. exact L.
    - destruct F as [M L]. split; [destruct (any_error lanes s || other); exact M|]. intros n e Hn He. specialize (L n e Hn He). rewrite Hp in L.
      unfold lvop in L. destruct (any_error lanes s || other); cbn [ph failed memory marks].
      + assert (G : forall p, cleaning (mkSt p (marks s) (pend s) (surv s) (dels s) (werrs s) true (seq 0 lanes) (memory s)) n e \/
                              marks s n = Blocked /\ lost_l (ls (memory s) e)).
        { intros p. destruct L as [L|L]; [left|right; exact L]. unfold cleaning, clean_l. cbn [todo marks memory]. rewrite Ho. split.
          - intros _. destruct (marks s n); apply fresh_old_l, L.
          - intros G. exfalso. apply G, in_seq. specialize (Hlane n Hn). lia. }
        rewrite Hk0. destruct (forward c); apply G.
      + destruct L as [L|L]; [left; apply fresh_old_l, L|right; exact L].
    - destruct F as [M L]. split.
      + cbn [memory]. unfold retract. assert (G : forall l m, misused (each (fun n => undo_reflection c n (ke_free c)) l m) = misused m).
        { unfold each. induction l0 as [|k l0 IH]; intros m; cbn [fold_left]; [reflexivity|]. rewrite IH. apply each_label_frame. }
        destruct (marked_first s l); [rewrite G|]; exact M.
      + intros n e Hn He. specialize (L n e Hn He). rewrite Hp in L. destruct L.
    - destruct F as [M L]. split; [exact M|]. intros n e Hn He. specialize (L n e Hn He). rewrite Hp in L. destruct L.
    - destruct F as [M L]. destruct (Cm Hp St') as (Cm1 & Cm2 & Cm3). split; [rewrite Cm1; exact M|]. intros n e Hn He. specialize (L n e Hn He). rewrite Hp in L.
      cbn [ph]. destruct L as [L|[L1 L2]].
      + left. destruct (Cl n e Hp Hn He L St') as [[C1 C2]|[C1 C2]]; [exact C2|discriminate C1].
      + right. split; [exact L1|]. apply (Lo n e Hp Hn He L2 St').
    - destruct F as [M L]. split; [exact M|]. intros n e Hn He. specialize (L n e Hn He). rewrite Hp in L. destruct I as ((Hfl & _) & _).
      cbn [ph failed]. rewrite Hfl. destruct L as [L|[L1 L2]].
      + left. destruct (Cl n e Hp Hn He L St') as [[C1 C2]|[C1 C2]]; [discriminate C1|exact C2].
      + right. split; [exact L1|exact L2].
  Qed.

  (** *** Backwards *)
  Definition lbwd (s : st) (e : nat) : Prop := let l := ls (memory s) e in
    match marks s (dst c e) with Fresh => fresh_l l | Mutated => done_l c l \/ gone_l c l | Blocked => gone_l c l | Unreachable => False end.
  Definition ordered (s : st) (e : nat) : Prop := marks s (src c e) = Mutated -> marks s (dst c e) = Mutated.
  Definition BI (s : st) : Prop := misused (memory s) = false /\ forall n e, In n ns -> In e (outs c n) ->
    match ph s with
    | Mutating => lbwd s e /\ ordered s e
    | Retracting => lbwd s e /\ ordered s e /\ (marks s (dst c e) = Mutated -> In (lane c (dst c e)) (todo s) \/ gone_l c (ls (memory s) e))
    | Unmutating => cleaning s n e
    | Finished => bal_l c (ls (memory s) e) /\ (failed s = true -> gone_l c (ls (memory s) e))
    end.
  Lemma lbwd_alive s e : lbwd s e -> dead (lcalls (ls (memory s) e)) (out_ (ls (memory s) e)) = false.
  Proof.
    unfold lbwd. cbv zeta. destruct (marks s (dst c e)); intros H.
    - apply (fresh_alive H).
    - destruct H as [H|[_ H]]; [apply (done_alive H)|rewrite H; reflexivity].
    - destruct H.
    - destruct H as [_ H]. rewrite H. reflexivity.
  Qed.

  Lemma early_outs n : forward c = false -> unordered c = false -> v_op c = true -> e_op c = true -> early c n = true -> outs c n = [].
  Proof.
    intros Hf Hu Hv He. unfold early, prerequisites. rewrite Hf, Hu, Hv, He. cbv zeta. cbn [negb andb orb].
    intros H. apply orb_true_iff in H as [H|H]; [destruct (outs c n); [reflexivity|discriminate]|].
    apply andb_true_iff in H as [_ H]. destruct (outs c n); [reflexivity|discriminate].
  Qed.

  Lemma BI_proc s s' n l b err e m : forward c = false -> unordered c = false -> v_op c = true -> e_op c = true -> (forall k, dv_fails c k = false) ->
    (forall e, e_fails c e = false /\ de_fails c e = false) -> proc s s' n l b err e m -> VI s -> BI s -> BI s'.
  Proof.
    intros Hf Hu Hvo Ho Hdv Hef Q V (M & L). assert (Hdv' : e = false \/ forall k, dv_fails c k = false) by (right; exact Hdv).
    assert (L' : forall n e, In n ns -> In e (outs c n) -> lbwd s e /\ ordered s e) by (intros k x Hk Hx; specialize (L k x Hk Hx); rewrite (p_ph Q) in L; exact L). clear L.
    assert (Ow : own c n = ins c n) by (unfold own; rewrite Hf; reflexivity).
    assert (Fr : forall x, In x (own c n) -> fresh_l (ls (memory s) x)).
    { intros x Hx. rewrite Ow in Hx. destruct (ins_outs _ _ (p_in Q) Hx) as [H1 H2]. destruct (L' _ x H1 H2) as [L1 _].
      unfold lbwd in L1. rewrite (ins_dst _ _ (p_in Q) Hx), (p_fresh Q) in L1. exact L1. }
    (* the termini were done with *)
    assert (T : forall x, In x (outs c n) -> marks s (dst c x) <> Fresh /\ (b = false -> marks s (dst c x) = Mutated)).
    { intros x Hx. destruct (p_order Q) as [[_ He]|(_ & H1 & H2)].
      - rewrite (early_outs n Hf Hu Hvo Ho He) in Hx. destruct Hx.
      - assert (Hp : In (dst c x) (prerequisites c n)) by (unfold prerequisites; rewrite Hu, Hf; apply in_map, Hx).
        rewrite forallb_forall in H1. specialize (H1 _ Hp).
        assert (G1 : marks s (dst c x) <> Fresh) by (intros G; rewrite G in H1; discriminate). split; [exact G1|].
        intros Hb. rewrite Hb in H2. symmetry in H2. assert (G2 : marks s (dst c x) <> Blocked).
        { intros G. assert (Ex : existsb (fun k => is_blocked (marks s k)) (prerequisites c n) = true) by (apply existsb_exists; exists (dst c x); split; [exact Hp|rewrite G; reflexivity]).
          rewrite Ex in H2. discriminate. }
        destruct (L' _ x (p_in Q) Hx) as [L1 _]. unfold lbwd in L1. destruct (marks s (dst c x)); [contradiction|reflexivity|destruct L1|contradiction]. }
    assert (Mm : misused m = false).
    { rewrite <- M. eapply mutate_mis; [exact Hdv'|exact (p_in Q)|apply VI_alive; [exact V|exact (p_ph Q)]|intros _; exact Fr|..|exact (p_mut Q)].
      - intros x Hx. apply (fresh_alive (l := ls (memory s) x)). apply Fr. rewrite Ow. exact Hx.
      - intros x Hx. apply lbwd_alive. apply (L' _ _ (p_in Q) Hx). }
    split.
    - rewrite (p_mem Q). destruct e; [|exact Mm]. unfold free_labels. destruct (each_label_frame (drop (ke_free c)) (outs c n) m) as (_ & -> & _). exact Mm.
    - destruct (@mutate_labels c _ _ _ _ _ _ Hdv' (p_mut Q)) as (err1 & m1 & m2 & A & B & C & _). rewrite Ho in B.
      assert (Fr1 : forall x, In x (own c n) -> fresh_l (ls m1 x)) by (rewrite A; exact Fr).
      intros k x Hk Hx. rewrite (p_ph' Q). destruct (L' k x Hk Hx) as [L1 L2]. split.
      + unfold lbwd in *. cbv zeta in *. rewrite (p_marks Q), (p_mem Q).
        assert (Fx : ~ In x (own c n) -> ls m x = ls (memory s) x).
        { intros Hi. rewrite C. destruct (@edges_frame c _ _ _ _ _ _ B) as [_ B1]. rewrite (B1 x Hi), A. reflexivity. }
        destruct (each_label (drop (ke_free c)) m (@ok_outs c ns Hok n (p_in Q))) as (_ & _ & D1 & D2).
        destruct (in_dec Nat.eq_dec x (own c n)) as [Hi|Hi].
        * assert (Hi' := Hi). rewrite Ow in Hi'. rewrite (ins_dst _ _ (p_in Q) Hi'), upd_same. destruct e; cbn [orb].
          -- destruct (@edges_bad c b n err1 m1 m2 (@own_nodup n (p_in Q)) Fr1 (or_intror Hef) B x Hi) as [B1 _]. rewrite <- C in B1. unfold free_labels.
             destruct (in_dec Nat.eq_dec x (outs c n)) as [Hj|Hj]; [rewrite (D1 x Hj); apply drop_gone, B1|rewrite (D2 x Hj); exact B1].
          -- destruct (@edges_ok c b n err1 m1 m2 (@own_nodup n (p_in Q)) Fr1 B) as (_ & _ & _ & B2). destruct (B2 x Hi) as [B3 B4]. rewrite C.
             destruct b; [|left; exact B3]. apply done_none; [exact B3|apply B4; reflexivity].
        * assert (Hd : dst c x <> n). { intros G. apply Hi. rewrite Ow, <- G. apply (outs_ins _ _ Hk Hx). }
          rewrite upd_diff by exact Hd. destruct e; [|rewrite (Fx Hi); exact L1]. unfold free_labels.
          destruct (in_dec Nat.eq_dec x (outs c n)) as [Hj|Hj]; [|rewrite (D2 x Hj), (Fx Hi); exact L1].
          rewrite (D1 x Hj), (Fx Hi). destruct (T x Hj) as [T1 _]. destruct (marks s (dst c x)).
          -- contradiction.
          -- right. destruct L1 as [L1|L1]; [apply drop_new; [apply done_new_l, L1|reflexivity]|apply drop_gone, L1].
          -- destruct L1.
          -- apply drop_gone, L1.
      + unfold ordered in *. rewrite (p_marks Q). destruct (Nat.eq_dec (dst c x) n) as [Hd|Hd].
        * destruct (Nat.eq_dec (src c x) n) as [Hs|Hs]; [rewrite Hs, Hd; auto|]. rewrite (upd_diff _ _ Hs). intros G. specialize (L2 G). rewrite Hd, (p_fresh Q) in L2. discriminate.
        * rewrite (upd_diff _ _ Hd). destruct (Nat.eq_dec (src c x) n) as [Hs|Hs]; [|rewrite (upd_diff _ _ Hs); exact L2].
          rewrite Hs, upd_same. intros G. destruct e; [discriminate|]. destruct b; [discriminate|]. apply T; [|reflexivity]. rewrite <- Hs, (outs_src _ _ Hk Hx). exact Hx.
  Qed.

  Lemma undo_spec d l : forall m, NoDup l -> incl l ns ->
    misused (each (fun n => undo_reflection c n d) l m) = misused m /\
    (forall n e, In n ns -> In e (ins c n) ->
       ls (each (fun n => undo_reflection c n d) l m) e = if in_dec Nat.eq_dec n l then drop d (ls m e) else ls m e).
  Proof.
    unfold each. induction l as [|k l IH]; intros m Hn Hi; cbn [fold_left].
    - split; [reflexivity|]. intros n e _ _. destruct (in_dec Nat.eq_dec n []) as [[]|_]; reflexivity.
    - inversion Hn as [|? ? Hk Hn']; subst. assert (Hik : In k ns) by (apply Hi; left; reflexivity).
      destruct (IH (undo_reflection c k d m) Hn') as (A & C); [intros x Hx; apply Hi; right; exact Hx|].
      destruct (each_label (drop d) m (@ok_ins c ns Hok k Hik)) as (E1 & E2 & E3 & E4).
      split; [rewrite A; exact E2|]. intros n e Hnn He. rewrite (C n e Hnn He). unfold undo_reflection, free_labels.
      destruct (Nat.eq_dec n k) as [->|Hd].
      + destruct (in_dec Nat.eq_dec k l) as [Hl|_]; [contradiction|]. destruct (in_dec Nat.eq_dec k (k :: l)) as [_|Hx]; [|exfalso; apply Hx; left; reflexivity].
        apply E3, He.
      + assert (Ne : ~ In e (ins c k)). { intros F. apply Hd. rewrite <- (ins_dst _ _ Hnn He). apply ins_dst; assumption. }
        rewrite (E4 e Ne). destruct (in_dec Nat.eq_dec n l) as [Hl|Hl], (in_dec Nat.eq_dec n (k :: l)) as [Hx|Hx]; try reflexivity.
        * exfalso. apply Hx. right. exact Hl.
        * destruct Hx as [->|Hx]; contradiction.
  Qed.

  Lemma retract_spec s l : lists_ok s l -> pend s l = [] \/ surv s l = [] ->
    misused (retract c s l) = misused (memory s) /\
    (forall n e, In n ns -> In e (ins c n) ->
      (lane c n = l /\ marks s n = Mutated -> ls (retract c s l) e = drop (ke_free c) (ls (memory s) e)) /\
      (lane c n <> l \/ marks s n <> Mutated -> ls (retract c s l) e = ls (memory s) e)).
  Proof.
    intros [A B C D F] Hs. unfold retract. destruct Hs as [Hs|Hs]; unfold marked_first; rewrite Hs in *.
    - rewrite app_nil_r in *. cbn [app] in *. destruct (surv s l) as [|k r] eqn:Es.
      + split; [reflexivity|]. intros n e Hn He. split; [|reflexivity]. intros [H1 H2]. exfalso. assert (G : In n ([] ++ dels s l)) by (apply B; split; assumption). apply (F n G H2).
      + rewrite (D k) by (left; reflexivity). cbn [is_fresh negb]. rewrite <- Es in *.
        destruct (@undo_spec (ke_free c) (surv s l) (memory s)) as [U1 U2].
        { clear - A. induction (surv s l) as [|x r IH]; [constructor|]. inversion A as [|? ? H1 H2]; subst. constructor; [intros G; apply H1, in_or_app; left; exact G|apply IH, H2]. }
        { intros x Hx. apply B, in_or_app. left. exact Hx. }
        split; [exact U1|]. intros n e Hn He. rewrite (U2 n e Hn He). destruct (in_dec Nat.eq_dec n (surv s l)) as [Hi|Hi].
        * split; [reflexivity|]. intros [G|G]; exfalso; apply G; [apply B, in_or_app; left; exact Hi|apply D, Hi].
        * split; [|reflexivity]. intros [H1 H2]. exfalso. assert (G : In n (surv s l ++ dels s l)) by (apply B; split; assumption).
          apply in_app_iff in G as [G|G]; [contradiction|apply (F n G H2)].
    - cbn [app] in *. assert (Mf : match pend s l with n :: _ => negb (is_fresh (marks s n)) | [] => false end = false).
      { destruct (pend s l) as [|k r]; [reflexivity|]. destruct (C k) as [-> _]; [left; reflexivity|reflexivity]. }
      rewrite Mf. split; [reflexivity|]. intros n e Hn He. split; [|reflexivity]. intros [H1 H2]. exfalso.
      assert (G : In n (pend s l ++ dels s l)) by (apply B; split; assumption). apply in_app_iff in G as [G|G]; [|apply (F n G H2)]. destruct (C n G) as [G1 _]. rewrite G1 in H2. discriminate.
  Qed.

  Lemma BI_step s s' : forward c = false -> unordered c = false -> v_op c = true -> e_op c = true -> (forall k, dv_fails c k = false) ->
    (forall e, e_fails c e = false /\ de_fails c e = false) -> ke_free c <> None -> LI s -> VI s -> BI s -> step c lanes s s' -> BI s'.
  Proof.
    intros Hf Hu Hvo Ho Hdv Hef Hke I V F St. assert (St' := St). assert (Cl := fun n e => @cleaning_step s s' n e I). assert (Cm := @cleaning_mis s s' I).
    destruct St as [l n rest s e m Hp Hl Ep Em|l n l1 l2 s blocked e m Hp Hl Ep Hw Ed Hf' Hq Hb Em|l s Hp Hl|s other Hp Hq|l l1 l2 s Hp Et|s Hp Et|l l1 l2 s Hp Et|s Hp Et];
      unfold LI in I; rewrite Hp in I.
    - eapply BI_proc; [exact Hf|exact Hu|exact Hvo|exact Ho|exact Hdv|exact Hef|eapply start_proc; try eassumption; apply I|exact V|exact F].
    - eapply BI_proc; [exact Hf|exact Hu|exact Hvo|exact Ho|exact Hdv|exact Hef|eapply receive_proc; try eassumption; apply I|exact V|exact F].
    - destruct F as [M L]. split; [exact M|]. intros n e Hn He. specialize (L n e Hn He). rewrite Hp in L. exact L.
    - destruct F as [M L]. split; [destruct (any_error lanes s || other); exact M|]. intros n e Hn He. specialize (L n e Hn He). rewrite Hp in L. destruct L as [L1 L2].
      destruct (any_error lanes s || other); cbn [ph failed memory].
      + rewrite Hf. destruct (ke_free c) eqn:Ek; [|contradiction]. split; [exact L1|]. split; [exact L2|]. intros _. left. cbn [todo]. apply in_seq.
        specialize (Hlane _ (proj1 (outs_ins _ _ Hn He))). lia.
      + split; [|discriminate]. unfold lbwd in L1. destruct (marks s (dst c e)); [apply fresh_old_l, L1| |destruct L1|apply L1].
        destruct L1 as [L1|L1]; [apply done_new_l, L1|apply L1].
    - destruct F as [M L]. destruct I as (_ & I & Hc). assert (Hl : l < lanes \/ ~ l < lanes) by lia.
      assert (Ps : pend s l = [] \/ surv s l = []).
      { destruct Hl as [Hl|Hl]; [apply Hc, Hl|]. left. destruct (I l) as [A B _ _ _]. destruct (pend s l) as [|k r]; [reflexivity|].
        destruct (proj1 (B k)) as [G1 G2]; [left; reflexivity|]. specialize (Hlane k G1). lia. }
      destruct (retract_spec (I l) Ps) as [R1 R2]. split; [cbn [memory]; rewrite R1; exact M|].
      intros n e Hn He. specialize (L n e Hn He). rewrite Hp in L. destruct L as (L1 & L2 & L3). destruct (outs_ins _ _ Hn He) as [H1 H2].
      destruct (R2 _ e H1 H2) as [R3 R4]. cbn [ph]. unfold lbwd, ordered in *. cbv zeta in *. cbn [memory marks todo].
      assert (Dec : lane c (dst c e) = l /\ marks s (dst c e) = Mutated \/ (lane c (dst c e) <> l \/ marks s (dst c e) <> Mutated)).
      { destruct (Nat.eq_dec (lane c (dst c e)) l) as [G|G]; [|right; left; exact G]. destruct (marks s (dst c e)); [right; right; discriminate|left; split; [exact G|reflexivity]|right; right; discriminate|right; right; discriminate]. }
      destruct Dec as [Dec|Dec].
      + rewrite (R3 Dec). destruct Dec as [D1 D2]. rewrite D2 in *.
        assert (G : gone_l c (drop (ke_free c) (ls (memory s) e))) by (destruct L1 as [L1|L1]; [apply drop_new; [apply done_new_l, L1|reflexivity]|apply drop_gone, L1]).
        split; [right; exact G|]. split; [exact L2|]. intros _. right. exact G.
      + rewrite (R4 Dec). split; [exact L1|]. split; [exact L2|]. intros G. destruct (L3 G) as [L4|L4]; [|right; exact L4]. left.
        destruct Dec as [Dec|Dec]; [|contradiction]. rewrite Et, in_app_iff in L4. rewrite in_app_iff. destruct L4 as [L4|[L4|L4]]; [tauto|subst; contradiction|tauto].
    - destruct F as [M L]. split; [exact M|]. intros n e Hn He. specialize (L n e Hn He). rewrite Hp in L. destruct L as (L1 & L2 & L3).
      cbn [ph]. unfold cleaning, clean_l. cbn [todo marks memory]. rewrite Ho, Et in *. unfold lbwd, ordered in *. rewrite (outs_src _ _ Hn He) in L2. split.
      + intros _. assert (G : marks s (dst c e) <> Fresh -> gone_l c (ls (memory s) e)).
        { intros G. destruct (marks s (dst c e)); [contradiction| |destruct L1|exact L1]. destruct (L3 eq_refl) as [[]|L4]; exact L4. }
        assert (G2 : marks s n <> Mutated -> old_l c (ls (memory s) e)).
        { intros _. destruct (marks s (dst c e)) eqn:Em; [apply fresh_old_l, L1|apply gone_old, G; discriminate|destruct L1|apply gone_old, G; discriminate]. }
        destruct (marks s n); try (apply G2; discriminate). apply gone_new, G. rewrite L2 by reflexivity. discriminate.
      + intros G. exfalso. apply G, in_seq. specialize (Hlane n Hn). lia.
    - destruct F as [M L]. destruct (Cm Hp St') as (Cm1 & Cm2 & Cm3). split; [rewrite Cm1; exact M|]. intros n e Hn He. specialize (L n e Hn He). rewrite Hp in L.
      destruct (Cl n e Hp Hn He L St') as [[C1 C2]|[C1 C2]]; [exact C2|discriminate C1].
    - destruct F as [M L]. split; [exact M|]. intros n e Hn He. specialize (L n e Hn He). rewrite Hp in L.
      destruct (Cl n e Hp Hn He L St') as [[C1 C2]|[C1 C2]]; [discriminate C1|]. cbn [ph failed]. split; [apply C2|intros _; exact C2].
  Qed.

  (** ** Nothing is destroyed twice, in all cases *)
  Section Once.
    Variables a b : option nat.
    Definition once (calls : list (nat * version)) (made : list version) (x : option version) : Prop :=
      NoDup (map snd calls) /\ incl (map snd calls) made /\ (forall y, x = Some y -> In y made /\ ~ In y (map snd calls)) /\
      forall p, In p calls -> a = Some (fst p) \/ b = Some (fst p).
    Lemma in_call d x y : In y (map snd (call d x)) -> x = Some y.
    Proof. destruct d, x; simpl; intros H; try contradiction. destruct H as [->|[]]. reflexivity. Qed.
    Lemma call_in d x p : d = a \/ d = b \/ d = None -> In p (call d x) -> a = Some (fst p) \/ b = Some (fst p).
    Proof. intros Hd H. destruct d, x; simpl in H; try contradiction. destruct H as [<-|[]]. simpl. destruct Hd as [<-|[<-|Hd]]; auto. discriminate. Qed.
    Lemma nodup_call d x l : NoDup l -> (forall y, x = Some y -> ~ In y l) -> NoDup (map snd (call d x) ++ l).
    Proof. intros H G. destruct d, x; simpl; try exact H. constructor; [apply G; reflexivity|exact H]. Qed.
    Lemma once_none calls made x : once calls made x -> once calls made None.
    Proof. intros (A & B & C & D). split; [exact A|split; [exact B|split; [discriminate|exact D]]]. Qed.
    Lemma once_call d calls made x : d = a \/ d = b \/ d = None -> once calls made x -> once (call d x ++ calls) made None.
    Proof.
      intros Hd (A & B & C & D). split; [rewrite map_app; apply nodup_call; [exact A|intros y Hy; apply C, Hy]|].
      split; [rewrite map_app; intros y Hy; apply in_app_iff in Hy as [Hy|Hy]; [apply C, in_call with d, Hy|apply B, Hy]|]. split; [discriminate|].
      intros p Hp. apply in_app_iff in Hp as [Hp|Hp]; [apply call_in with d x; assumption|apply D, Hp].
    Qed.
    Lemma once_make calls made x y : once calls made x -> once calls (opt y ++ made) x.
    Proof.
      intros (A & B & C & D). split; [exact A|]. split; [intros z Hz; apply in_or_app; right; apply B, Hz|]. split; [|exact D].
      intros z Hz. split; [apply in_or_app; right; apply C, Hz|apply C, Hz].
    Qed.
    Lemma once_fail d calls made x y : d = a \/ d = b \/ d = None -> y <> Some Old -> ~ In New made -> once calls made x ->
      once (call d y ++ calls) (opt y ++ made) x.
    Proof.
      intros Hd Hy Hn (A & B & C & D). assert (N : forall z, y = Some z -> z = New) by (intros [] ->; [contradiction|reflexivity]).
      split; [rewrite map_app; apply nodup_call; [exact A|intros z Hz G; apply Hn; rewrite <- (N z Hz); apply B, G]|].
      split; [rewrite map_app; intros z Hz; apply in_app_iff in Hz as [Hz|Hz]; apply in_or_app; [left; rewrite (in_call _ _ _ Hz); left; reflexivity|right; apply B, Hz]|].
      split.
      - intros z Hz. destruct (C z Hz) as [C1 C2]. split; [apply in_or_app; right; exact C1|]. rewrite map_app, in_app_iff. intros [G|G]; [|contradiction].
        apply in_call, N in G. subst z. contradiction.
      - intros p Hp. apply in_app_iff in Hp as [Hp|Hp]; [apply call_in with d y; assumption|apply D, Hp].
    Qed.
    Lemma once_replace d calls made x y : d = a \/ d = b \/ d = None -> y <> Some Old -> ~ In New made -> once calls made x ->
      once (call d x ++ calls) (opt y ++ made) y.
    Proof.
      intros Hd Hy Hn O. assert (N : forall z, y = Some z -> z = New) by (intros [] ->; [contradiction|reflexivity]).
      assert (O' := once_call Hd O). destruct (once_make y O') as (A & B & _ & D). split; [exact A|]. split; [exact B|]. split; [|exact D].
      intros z Hz. split; [rewrite Hz; left; reflexivity|]. rewrite (N z Hz). intros G. apply Hn. destruct O' as (_ & B' & _). apply B', G.
    Qed.
  End Once.

  Definition once_v (v : vertex) : Prop := once (v_free c) (kv_free c) (vcalls v) (vmade v) (cur v).
  Definition once_l (l : label) : Prop := once (e_free c) (ke_free c) (lcalls l) (lmade l) (out_ l).
  Definition unmade (l : label) : Prop := once_l l /\ ~ In New (lmade l).

  Lemma drop_once d l : d = e_free c \/ d = ke_free c \/ d = None -> once_l l -> once_l (drop d l).
  Proof. intros Hd H. unfold once_l, drop, set_out, call_l. cbn [out_ lcalls lmade]. apply once_call; assumption. Qed.
  Lemma drop_unmade d l : d = e_free c \/ d = ke_free c \/ d = None -> unmade l -> unmade (drop d l).
  Proof. intros Hd [H1 H2]. split; [apply drop_once; assumption|exact H2]. Qed.
  Lemma kill_once d v : d = v_free c \/ d = kv_free c \/ d = None -> once_v v -> once_v (kill_v d v).
  Proof. intros Hd H. unfold once_v, kill_v, set_cur, call_v. cbn [cur vcalls vmade]. apply once_call; assumption. Qed.

  Lemma permeating_once blocked n es : forall err m rest err' m', NoDup es -> (forall e, In e es -> unmade (ls m e)) ->
    permeating c blocked n es err m = (rest, err', m') -> forall e, In e es -> once_l (ls m' e).
  Proof.
    induction es as [|k es IH]; intros err m rest err' m' Hn Hl E e He; [destruct He|].
    destruct err; [rewrite permeating_err in E; injection E as <- <- <-; apply Hl, He|].
    rewrite permeating_cons in E. cbv zeta in E. inversion Hn as [|? ? Hk Hn']; subst. destruct (Hl k (or_introl eq_refl)) as [K1 K2].
    destruct (negb blocked && e_fails c k).
    - injection E as <- <- <-. destruct (Nat.eq_dec e k) as [->|Hd].
      + unfold on_label. cbn [ls]. rewrite !upd_same, edge_uses_ls. unfold once_l, call_l, make_l. cbn [out_ lcalls lmade].
        apply once_fail; [auto|apply edge_v_new|exact K2|exact K1].
      + unfold on_label. cbn [ls]. rewrite !upd_diff by exact Hd. rewrite edge_uses_ls. apply Hl, He.
    - assert (G : forall f err0 m'', permeating c blocked n es err0 (on_label k f (on_label k (make_l (edge_v c blocked k)) (edge_uses c blocked n k m))) = (rest, err', m'') ->
                  once_l (f (make_l (edge_v c blocked k) (ls m k))) -> once_l (ls m'' e)).
      { intros f err0 m'' E' Hf. destruct (Nat.eq_dec e k) as [->|Hd].
        - destruct (@permeating_frame c _ _ _ _ _ _ _ _ E') as [_ F]. rewrite (F k Hk). unfold on_label. cbn [ls]. rewrite !upd_same, edge_uses_ls. exact Hf.
        - destruct He as [<-|He]; [contradiction|]. eapply IH; [exact Hn'| |exact E'|exact He].
          intros x Hx. unfold on_label. cbn [ls]. rewrite !upd_diff by (intros ->; contradiction). rewrite edge_uses_ls. apply Hl. right. exact Hx. }
      destruct (forward c); apply G in E; try exact E.
      + unfold once_l, set_out, drop, call_l, make_l. cbn [out_ lcalls lmade]. apply once_replace; [auto|apply edge_v_new|exact K2|exact K1].
      + unfold once_l, set_in, make_l. cbn [out_ lcalls lmade]. apply once_make, K1.
  Qed.

  Lemma labels_pres (P : label -> Prop) f es : (forall l, P l -> P (f l)) -> forall m, (forall e, P (ls m e)) -> forall e, P (ls (each (fun e => on_label e f) es m) e).
  Proof.
    intros Hf. unfold each. induction es as [|k es IH]; intros m H; cbn [fold_left]; [exact H|]. apply IH. intros e. unfold on_label. cbn [ls].
    destruct (Nat.eq_dec e k) as [->|Hd]; [rewrite upd_same; apply Hf, H|rewrite upd_diff by exact Hd; apply H].
  Qed.
  Lemma labels_pres_at (P : label -> Prop) f es e : (forall l, P l -> P (f l)) -> forall m, P (ls m e) -> P (ls (each (fun e => on_label e f) es m) e).
  Proof.
    intros Hf. unfold each. induction es as [|k es IH]; intros m H; cbn [fold_left]; [exact H|]. apply IH. unfold on_label. cbn [ls].
    destruct (Nat.eq_dec e k) as [->|Hd]; [rewrite upd_same; apply Hf, H|rewrite upd_diff by exact Hd; apply H].
  Qed.

  Lemma edges_once blocked n err m err' m' : NoDup (own c n) -> (forall e, In e (own c n) -> unmade (ls m e)) ->
    edges c blocked n err m = (err', m') -> forall e, In e (own c n) -> once_l (ls m' e).
  Proof.
    intros Hn Hl E e He. unfold edges in E. destruct (permeate c blocked n err m) as [e1 m1] eqn:E1. destruct (reflect c n e1 m1) as [e2 m2] eqn:E2.
    apply pair_equal_spec in E as [<- <-]. unfold permeate in E1. unfold own in *.
    destruct (permeating c blocked n (if forward c then outs c n else ins c n) err m) as [[rest e3] m3] eqn:E3.
    assert (O := @permeating_once _ _ _ _ _ _ _ _ Hn Hl E3 e He). unfold reflect in E2. destruct (forward c) eqn:Hf.
    - rewrite andb_false_r. cbv zeta in E1. injection E1 as <- <-. injection E2 as <- <-.
      apply labels_pres_at; [intros l H; exact H|]. unfold free_labels.
      destruct e3; [apply labels_pres_at; [intros l; apply drop_once; auto|]|]; (apply labels_pres_at; [intros l; apply drop_once; auto|exact O]).
    - injection E1 as <- <-. apply pair_equal_spec in E2 as [E2 E4].
      destruct (each_label (fun l => set_out (in_ l) (drop (e_free c) l)) m3 Hn) as (_ & _ & C2 & _). rewrite E4 in C2.
      destruct e2; cbn [andb negb].
      + destruct (each_label (drop None) m2 Hn) as (_ & _ & D2 & _). unfold undo_reflection, free_labels. rewrite (D2 e He), (C2 e He).
        assert (G := @drop_once (e_free c) _ (or_introl eq_refl) O). unfold once_l, drop, set_out, call_l in *. cbn [out_ lcalls lmade call app] in *. exact G.
      + rewrite (C2 e He). apply orb_false_iff in E2 as [-> _]. destruct (@permeating_bwd c blocked n _ Hf _ _ _ _ _ Hn E3) as [P _].
        destruct (P eq_refl) as [_ P']. rewrite (P' e He). destruct (Hl e He) as [K1 K2].
        unfold once_l, set_out, drop, call_l, set_in, make_l. cbn [out_ in_ lcalls lmade]. apply once_replace; [auto|apply edge_v_new|exact K2|exact K1].
  Qed.

  Lemma fresh_once v : fresh_v v -> once_v v /\ ~ In New (vmade v).
  Proof.
    intros (A & B & C). unfold once_v, once. rewrite B, C. split; [|destruct (cur v) as [[]|]; simpl; [intros [G|[]]; discriminate|contradiction|intros []]].
    split; [constructor|]. split; [intros y []|]. split; [intros y ->; split; [left; reflexivity|intros []]|intros p []].
  Qed.

  Lemma mutate_once blocked n err m err' m' : In n ns -> fresh_v (vs m n) -> (forall e, In e (own c n) -> unmade (ls m e)) -> mutate c blocked n err m = (err', m') ->
    (forall k, k <> n -> vs m' k = vs m k) /\ once_v (vs m' n) /\ (forall e, ~ In e (own c n) -> ls m' e = ls m e) /\ (forall e, In e (own c n) -> once_l (ls m' e)).
  Proof.
    intros Hn Hv Hl E. rewrite mutate_eq in E.
    destruct (if blocked || negb (v_op c) || err then (None, err, m) else mapped_node c n m) as [[x err1] m1] eqn:E1.
    destruct (if e_op c then edges c blocked n err1 m1 else (err1, m1)) as [err2 m2] eqn:E2.
    destruct (fresh_once Hv) as [O1 O2].
    assert (V1 : ls m1 = ls m /\ (forall k, k <> n -> vs m1 k = vs m k) /\ once_v (vs m1 n) /\ (x = None \/ x = node_v c n /\ vs m1 n = make_v (node_v c n) (vs m n))).
    { destruct (blocked || negb (v_op c) || err); [injection E1 as <- <- <-; split; [reflexivity|split; [reflexivity|split; [exact O1|left; reflexivity]]]|].
      apply mapped_node_spec in E1 as (A & B & C). split; [exact A|]. split; [exact B|]. destruct err1; destruct C as [-> C]; rewrite C.
      - split; [|left; reflexivity]. unfold once_v, call_v, make_v. cbn [cur vcalls vmade]. apply once_fail; [auto|apply node_v_new|exact O2|exact O1].
      - split; [unfold once_v, make_v; cbn [cur vcalls vmade]; apply once_make, O1|right; split; reflexivity]. }
    destruct V1 as (A & B & C & D).
    assert (V2 : vs m2 = vs m1 /\ (forall e, ~ In e (own c n) -> ls m2 e = ls m e) /\ forall e, In e (own c n) -> once_l (ls m2 e)).
    { destruct (e_op c).
      - destruct (@edges_frame c _ _ _ _ _ _ E2) as [F1 F2]. split; [exact F1|]. split; [intros e He; rewrite (F2 e He), A; reflexivity|].
        eapply edges_once; [apply own_nodup, Hn|rewrite A; exact Hl|exact E2].
      - injection E2 as <- <-. split; [reflexivity|]. rewrite A. split; [reflexivity|]. intros e He. apply Hl, He. }
    destruct V2 as (F & G & H).
    assert (K : forall f, (forall k, k <> n -> vs (on_vertex n f m2) k = vs m k) /\ vs (on_vertex n f m2) n = f (vs m1 n)).
    { intros f. unfold on_vertex. cbn [vs]. rewrite upd_same, F. split; [|reflexivity]. intros k Hk. rewrite upd_diff by exact Hk. apply B, Hk. }
    assert (K0 : forall k, k <> n -> vs m2 k = vs m k) by (intros k Hk; rewrite F; apply B, Hk).
    assert (K1 : once_v (vs m2 n)) by (rewrite F; exact C).
    assert (Nc : forall d, call_v d None (vs m1 n) = vs m1 n) by (intros d; unfold call_v; rewrite call_none; destruct (vs m1 n); reflexivity).
    destruct (err2 || negb (forward c) && blocked).
    - apply pair_equal_spec in E as [_ <-]. destruct err2; [|split; [exact K0|split; [exact K1|split; [exact G|exact H]]]].
      destruct (K (call_v (kv_free c) x)) as [Ka Kb]. split; [exact Ka|]. split; [|split; [exact G|exact H]]. rewrite Kb.
      destruct D as [->|[-> ->]]; [rewrite Nc; exact C|]. unfold once_v, call_v, make_v. cbn [cur vcalls vmade]. apply once_fail; [auto|apply node_v_new|exact O2|exact O1].
    - destruct (v_op c); apply pair_equal_spec in E as [_ <-]; [|split; [exact K0|split; [exact K1|split; [exact G|exact H]]]].
      destruct (K (fun v => set_cur x (call_v (v_free c) (cur v) v))) as [Ka Kb]. split; [exact Ka|]. split; [|split; [exact G|exact H]]. rewrite Kb.
      destruct D as [->|[-> ->]].
      + unfold once_v, set_cur, call_v. cbn [cur vcalls vmade]. apply once_call; [auto|exact C].
      + unfold once_v, set_cur, call_v, make_v. cbn [cur vcalls vmade]. apply once_replace; [auto|apply node_v_new|exact O2|exact O1].
  Qed.

  Definition OI (s : st) : Prop := (forall n, once_v (vs (memory s) n)) /\ (forall e, once_l (ls (memory s) e)) /\
    (ph s = Mutating -> (forall n, In n ns -> marks s n = Fresh -> fresh_v (vs (memory s) n)) /\
                        (forall e, marks s (pn e) = Fresh -> unmade (ls (memory s) e))).

  Lemma OI_proc s s' n l b err e m : proc s s' n l b err e m -> OI s -> OI s'.
  Proof.
    intros Q (A & B & C). destruct (C (p_ph Q)) as [C1 C2]. clear C.
    assert (Un : forall x, In x (own c n) -> unmade (ls (memory s) x)) by (intros x Hx; apply C2; rewrite (own_pn _ _ (p_in Q) Hx); exact (p_fresh Q)).
    destruct (@mutate_once _ _ _ _ _ _ (p_in Q) (C1 n (p_in Q) (p_fresh Q)) Un (p_mut Q)) as (M1 & M2 & M3 & M4).
    assert (Ev : vs (memory s') = vs m) by (rewrite (p_mem Q); destruct e; [apply each_label_frame|reflexivity]).
    assert (El : forall P : label -> Prop, (forall l, P l -> P (drop (ke_free c) l)) -> forall x, P (ls m x) -> P (ls (memory s') x)).
    { intros P HP x Hx. rewrite (p_mem Q). destruct e; [|exact Hx]. unfold free_labels. apply (labels_pres_at P); [exact HP|exact Hx]. }
    split; [|split].
    - intros k. rewrite Ev. destruct (Nat.eq_dec k n) as [->|Hd]; [exact M2|rewrite (M1 k Hd); apply A].
    - intros x. apply El; [intros l0; apply drop_once; auto|]. destruct (in_dec Nat.eq_dec x (own c n)) as [Hi|Hi]; [apply M4, Hi|rewrite (M3 x Hi); apply B].
    - intros _. rewrite (p_marks Q). split.
      + intros k Hk. destruct (Nat.eq_dec k n) as [->|Hd]; [rewrite upd_same; destruct e, b; discriminate|]. rewrite upd_diff by exact Hd. intros Hm. rewrite Ev, (M1 k Hd). apply C1; assumption.
      + intros x Hx. apply El; [intros l0; apply drop_unmade; auto|]. destruct (Nat.eq_dec (pn x) n) as [Hd|Hd]; [rewrite Hd, upd_same in Hx; destruct e, b; discriminate|].
        rewrite upd_diff in Hx by exact Hd. rewrite M3 by (intros G; apply Hd, own_pn; [exact (p_in Q)|exact G]). apply C2, Hx.
  Qed.

  Lemma free_nodes_once dv de l : dv = v_free c \/ dv = kv_free c -> de = e_free c \/ de = ke_free c ->
    forall m, (forall n, once_v (vs m n)) -> (forall e, once_l (ls m e)) ->
    (forall n, once_v (vs (free_nodes c dv de l m) n)) /\ (forall e, once_l (ls (free_nodes c dv de l m) e)).
  Proof.
    intros Hv He. unfold free_nodes, each. induction l as [|k l IH]; intros m A B; cbn [fold_left]; [split; assumption|]. apply IH.
    - intros n. unfold on_vertex, free_labels. cbn [vs]. destruct (each_label_frame (drop de) (outs c k) m) as (Ev & _ & _). rewrite Ev.
      destruct (Nat.eq_dec n k) as [->|Hd]; [rewrite upd_same; apply (@kill_once dv); [tauto|apply A]|rewrite upd_diff by exact Hd; apply A].
    - unfold on_vertex, free_labels. cbn [ls]. apply labels_pres; [intros x; apply drop_once; tauto|exact B].
  Qed.

  Lemma OI_step s s' : LI s -> OI s -> step c lanes s s' -> OI s'.
  Proof.
    intros I O St.
    destruct St as [l n rest s e m Hp Hl Ep Em|l n l1 l2 s blocked e m Hp Hl Ep Hw Ed Hf Hq Hb Em|l s Hp Hl|s other Hp Hq|l l1 l2 s Hp Et|s Hp Et|l l1 l2 s Hp Et|s Hp Et];
      unfold LI in I; rewrite Hp in I.
    - eapply OI_proc, O. eapply start_proc; try eassumption. apply I.
    - eapply OI_proc, O. eapply receive_proc; try eassumption. apply I.
    - destruct O as (A & B & C). split; [exact A|]. split; [exact B|]. intros _. apply C, Hp.
    - destruct O as (A & B & C). assert (G : forall p f t, p <> Mutating -> OI (mkSt p (marks s) (pend s) (surv s) (dels s) (werrs s) f t (memory s))).
      { intros p f t Hx. split; [exact A|]. split; [exact B|]. intros G. contradiction. }
      destruct (any_error lanes s || other); apply G; [destruct (forward c); [discriminate|destruct (ke_free c); discriminate]|discriminate].
    - destruct O as (A & B & C). split; [|split; [|intros G; discriminate]]; cbn [memory]; unfold retract.
      + destruct (marked_first s l); [|exact A]. rewrite each_vs; [exact A|]. intros e m. apply each_label_frame.
      + destruct (marked_first s l); [|exact B]. unfold each. generalize (memory s) B. induction (surv s l ++ pend s l) as [|k r IH]; intros m Bm; cbn [fold_left]; [exact Bm|].
        apply IH. unfold undo_reflection, free_labels. apply labels_pres; [intros x; apply drop_once; auto|exact Bm].
    - destruct O as (A & B & C). split; [exact A|]. split; [exact B|]. discriminate.
    - destruct O as (A & B & C). cbv zeta. unfold OI. cbn [memory ph].
      assert (G : (forall n, once_v (vs (unmutate c s l) n)) /\ (forall e, once_l (ls (unmutate c s l) e))).
      { unfold unmutate. cbv zeta. destruct (@free_nodes_once (v_free c) (e_free c) (dels s l) (or_introl eq_refl) (or_introl eq_refl) (memory s) A B) as [A1 B1].
        apply free_nodes_once; [| |exact A1|exact B1].
        - destruct (_ && _); [left; reflexivity|]. destruct (v_op c); [right|left]; reflexivity.
        - destruct (_ && _); [left; reflexivity|]. destruct (e_op c); [right|left]; reflexivity. }
      split; [apply G|]. split; [apply G|]. discriminate.
    - destruct O as (A & B & C). split; [exact A|]. split; [exact B|]. discriminate.
  Qed.
End Lists.

(** ** From the beginning *)
Section Runs.
  Variable c : mutator.
  Variable lanes : nat.
  Variable ns : list nat.
  Variables vnull lnull : nat -> bool.
  Hypothesis Hok : graph_ok c ns.
  Hypothesis Hlane : forall n, In n ns -> lane c n < lanes.

  Lemma filter_parts (f g : nat -> bool) l : NoDup l ->
    NoDup (filter (fun n => f n && g n) l ++ filter (fun n => f n && negb (g n)) l).
  Proof.
    intros Hn. induction l as [|k l IH]; [constructor|]. inversion Hn as [|? ? Hk Hn']; subst. specialize (IH Hn').
    assert (Hx : ~ In k (filter (fun n => f n && g n) l ++ filter (fun n => f n && negb (g n)) l)).
    { rewrite in_app_iff, !filter_In. intros [[G _]|[G _]]; contradiction. }
    simpl. destruct (f k); simpl; [|exact IH]. destruct (g k); simpl; [constructor; assumption|].
    apply Permutation_NoDup with (k :: filter (fun n => f n && g n) l ++ filter (fun n => f n && negb (g n)) l); [apply Permutation_middle|constructor; assumption].
  Qed.

  Lemma begin_LI : LI c lanes ns (begin c vnull lnull ns).
  Proof.
    split; [reflexivity|]. intros l. split; unfold begin; cbn [pend surv dels marks app].
    - apply filter_parts, (ok_ns Hok).
    - intros n. rewrite in_app_iff, !filter_In, !andb_true_iff, !Nat.eqb_eq.
      destruct (outside c n), (early c n); simpl; split; try tauto; intros [[G1 [G2 G3]]|[G1 [G2 G3]]]; try tauto; discriminate.
    - intros n. rewrite filter_In, !andb_true_iff. intros (_ & _ & G & H). destruct (outside c n); [discriminate|]. split; [reflexivity|exact H].
    - intros n [].
    - intros n _. destruct (outside c n); discriminate.
  Qed.
  Lemma begin_fresh_v n : fresh_v (vs (memory (begin c vnull lnull ns)) n).
  Proof. unfold begin, fresh_v. cbn. destruct (vnull n); split; try discriminate; split; reflexivity. Qed.
  Lemma begin_fresh_l e : fresh_l (ls (memory (begin c vnull lnull ns)) e).
  Proof. unfold begin, fresh_l. cbn. destruct (lnull e); split; try reflexivity; (split; [discriminate|split; reflexivity]). Qed.
  Lemma begin_VI : VI c ns (begin c vnull lnull ns).
  Proof. intros n Hn. cbv zeta. cbn [begin ph marks]. destruct (outside c n); apply begin_fresh_v. Qed.

  Lemma reach_ind (P : st -> Prop) s : star (step c lanes) (begin c vnull lnull ns) s -> P (begin c vnull lnull ns) ->
    (forall s s', LI c lanes ns s -> P s -> step c lanes s s' -> P s') -> LI c lanes ns s /\ P s.
  Proof.
    intros St P0 Ps. induction St as [|x y St IH Hs]; [split; [apply begin_LI|exact P0]|].
    destruct IH as [I1 I2]. split; [eapply LI_step; eassumption|eapply Ps; eassumption].
  Qed.

  Lemma reach_VI s : (forall k, dv_fails c k = false) -> star (step c lanes) (begin c vnull lnull ns) s -> VI c ns s.
  Proof. intros Hdv St. apply (reach_ind (VI c ns) St begin_VI). intros a b Ha Va Hs. eapply VI_step; eassumption. Qed.
End Runs.

(** ** Theorems *)
Record start_ok (c : mutator) (lanes : nat) (ns : list nat) : Prop := {
  so_graph : graph_ok c ns;
  so_lanes : forall n, In n ns -> lane c n < lanes
}.

(** C99: if nothing goes wrong, then each vertex and each label that was replaced has been destroyed by the destructor of the graph given,
    nothing else has been destroyed, and nothing is referred to after its destruction. *)
Theorem C99_replaced_destroyed c lanes ns vnull lnull s : start_ok c lanes ns -> star (step c lanes) (begin c vnull lnull ns) s ->
  ph s = Finished -> failed s = false -> vertices_settled c ns s /\ labels_settled c ns s /\ misused (memory s) = false.
Proof.
  intros [Hok Hlane] St Hp Hf.
  assert (S0 : SI c lanes ns (begin c vnull lnull ns)).
  { unfold SI. cbn [begin ph]. right. split; [apply begin_VI|]. split; [reflexivity|]. intros n e Hn He. unfold lstate. cbv zeta.
    assert (G := begin_fresh_l c ns vnull lnull e). destruct (e_op c); [|exact G]. cbn [begin marks]. destruct (outside c (pn c e)); exact G. }
  destruct (reach_ind Hok (SI c lanes ns) St S0) as [_ S]; [intros a b Ha Sa Hs; eapply SI_step; eassumption|].
  unfold SI in S. rewrite Hp in S. destruct S as [S|(V & M & L)]; [rewrite Hf in S; discriminate|]. split; [eapply VI_settled; eassumption|]. split; [|exact M].
  intros n e Hn He. specialize (L n e Hn He). cbv zeta. rewrite Hf. apply lstate_bal in L. exact L.
Qed.

(** C99: all vertices are dealt with even if there are errors, provided that the destructor of vertices doesn't raise any. *)
Theorem C99_vertices_destroyed c lanes ns vnull lnull s : start_ok c lanes ns -> (forall n, dv_fails c n = false) ->
  star (step c lanes) (begin c vnull lnull ns) s -> ph s = Finished -> vertices_settled c ns s.
Proof. intros [Hok Hlane] Hdv St Hp. eapply VI_settled; [eapply reach_VI; eassumption|exact Hp]. Qed.

(** C99: so are all labels if origins are mutated before termini and there is an edge operation. *)
Theorem C99_labels_forward c lanes ns vnull lnull s : start_ok c lanes ns -> (forall n, dv_fails c n = false) ->
  forward c = true -> e_op c = true ->
  star (step c lanes) (begin c vnull lnull ns) s -> ph s = Finished -> labels_settled c ns s /\ misused (memory s) = false.
Proof.
  intros [Hok Hlane] Hdv Hf Ho St Hp. set (P := fun s => VI c ns s /\ FI c ns s).
  assert (P0 : P (begin c vnull lnull ns)).
  { split; [apply begin_VI|]. split; [reflexivity|]. intros n e Hn He. cbn [begin ph]. unfold lfwd. cbv zeta. cbn [begin marks].
    destruct (outside c (src c e)); apply begin_fresh_l. }
  destruct (reach_ind Hok P St P0) as [_ [_ [M L]]].
  { intros a b Ha [Va Fa] Hs. split; [eapply VI_step; eassumption|eapply FI_step; eassumption]. }
  split; [|exact M]. intros n e Hn He. specialize (L n e Hn He). rewrite Hp in L. destruct L as [L1 L2]. cbv zeta. unfold bal_l in L1.
  destruct (failed s); [|exact L1]. destruct (L2 eq_refl) as [_ L3]. rewrite L3 in L1. exact L1.
Qed.

(** C99: so are all labels if termini are mutated before origins, if there are both a vertex operation and an edge operation, the latter
    having a destructor and no function for labels raising any error, and the whole graph is in the zone. *)
Theorem C99_labels_backward c lanes ns vnull lnull s : start_ok c lanes ns -> (forall n, dv_fails c n = false) ->
  forward c = false -> unordered c = false -> v_op c = true -> e_op c = true -> ke_free c <> None ->
  (forall e, e_fails c e = false /\ de_fails c e = false) -> (forall n, outside c n = false) ->
  star (step c lanes) (begin c vnull lnull ns) s -> ph s = Finished -> labels_settled c ns s /\ misused (memory s) = false.
Proof.
  intros [Hok Hlane] Hdv Hf Hu Hv Ho Hk He Hout St Hp. set (P := fun s => VI c ns s /\ BI c ns s).
  assert (P0 : P (begin c vnull lnull ns)).
  { split; [apply begin_VI|]. split; [reflexivity|]. intros n e Hn Hi. cbn [begin ph]. unfold lbwd, ordered. cbv zeta. cbn [begin marks]. rewrite !Hout.
    split; [apply begin_fresh_l|discriminate]. }
  destruct (reach_ind Hok P St P0) as [_ [_ [M L]]].
  { intros a b Ha [Va Fa] Hs. split; [eapply VI_step; eassumption|eapply BI_step; eassumption]. }
  split; [|exact M]. intros n e Hn Hi. specialize (L n e Hn Hi). rewrite Hp in L. destruct L as [L1 L2]. cbv zeta. unfold bal_l in L1.
  destruct (failed s); [|exact L1]. destruct (L2 eq_refl) as [_ L3]. rewrite L3 in L1. exact L1.
Qed.

(** C99: without an edge operation, whose destructor is NULL then, the labels are destroyed or left alone except perhaps those of the edges
    from nodes at which the mutation has failed, which aren't passed to any destructor. *)
Theorem C99_labels_unchanged c lanes ns vnull lnull s : start_ok c lanes ns -> (forall n, dv_fails c n = false) ->
  e_op c = false -> ke_free c = None ->
  star (step c lanes) (begin c vnull lnull ns) s -> ph s = Finished ->
  misused (memory s) = false /\
  forall n e, In n ns -> In e (outs c n) -> let l := ls (memory s) e in
    settled (e_right c) (lmade l) (lcalls l) (if failed s then [] else match out_ l with Some x => [x] | None => [] end) \/
    marks s n = Blocked /\ lcalls l = [].
Proof.
  intros [Hok Hlane] Hdv Ho Hk St Hp. set (P := fun s => VI c ns s /\ WI c ns s).
  assert (P0 : P (begin c vnull lnull ns)).
  { split; [apply begin_VI|]. split; [reflexivity|]. intros n e Hn He. cbn [begin ph]. left. apply begin_fresh_l. }
  destruct (reach_ind Hok P St P0) as [_ [_ [M L]]].
  { intros a b Ha [Va Fa] Hs. split; [eapply VI_step; eassumption|eapply WI_step; eassumption]. }
  split; [exact M|]. intros n e Hn He. specialize (L n e Hn He). rewrite Hp in L. cbv zeta. destruct (failed s).
  - destruct L as [[L1 L2]|[L1 [_ L2]]]; [left|right; split; assumption]. unfold bal_l in L1. rewrite L2 in L1. exact L1.
  - destruct L as [L|[L1 [_ L2]]]; [left; exact L|right; split; assumption].
Qed.

(** C99: in all cases, no value is destroyed twice, none is destroyed that wasn't there, and no function is called to destroy vertices or
    labels other than the destructors of vertices or labels. *)
Theorem C99_destroyed_once c lanes ns vnull lnull s : start_ok c lanes ns -> star (step c lanes) (begin c vnull lnull ns) s ->
  (forall n, NoDup (map snd (vcalls (vs (memory s) n))) /\
     forall d x, In (d, x) (vcalls (vs (memory s) n)) -> In x (vmade (vs (memory s) n)) /\ (v_free c = Some d \/ kv_free c = Some d)) /\
  (forall e, NoDup (map snd (lcalls (ls (memory s) e))) /\
     forall d x, In (d, x) (lcalls (ls (memory s) e)) -> In x (lmade (ls (memory s) e)) /\ (e_free c = Some d \/ ke_free c = Some d)).
Proof.
  intros [Hok Hlane] St.
  assert (O0 : OI c ns (begin c vnull lnull ns)).
  { assert (G : forall x, once (e_free c) (ke_free c) [] (opt x) x).
    { intros x. split; [constructor|]. split; [intros y []|]. split; [intros y ->; split; [left; reflexivity|intros []]|intros p []]. }
    assert (L : forall e, once_l c (ls (memory (begin c vnull lnull ns)) e)) by (intros e; unfold once_l; cbn; apply G).
    split; [intros n; apply fresh_once, begin_fresh_v|]. split; [exact L|]. intros _. split; [intros n _ _; apply begin_fresh_v|].
    intros e _. split; [apply L|]. destruct (begin_fresh_l c ns vnull lnull e) as (_ & A & _ & B). rewrite B. destruct (out_ _) as [[]|]; simpl; [intros [F|[]]; discriminate|contradiction|intros []]. }
  destruct (reach_ind Hok (OI c ns) St O0) as [_ (A & B & _)]; [intros a b Ha Oa Hs; eapply OI_step; eassumption|].
  split.
  - intros n. destruct (A n) as (A1 & A2 & _ & A3). split; [exact A1|]. intros d x Hx. split; [apply A2; change x with (snd (d, x)); apply in_map, Hx|apply (A3 _ Hx)].
  - intros e. destruct (B e) as (B1 & B2 & _ & B3). split; [exact B1|]. intros d x Hx. split; [apply B2; change x with (snd (d, x)); apply in_map, Hx|apply (B3 _ Hx)].
Qed.

(** ** Examples *)
Section Graphs.
  Variable es : list (nat * nat).
  Definition g_src (e : nat) : nat := fst (nth e es (0, 0)).
  Definition g_dst (e : nat) : nat := snd (nth e es (0, 0)).
  Definition g_outs (n : nat) : list nat := filter (fun e => g_src e =? n) (seq 0 (length es)).
  Definition g_ins (n : nat) : list nat := filter (fun e => g_dst e =? n) (seq 0 (length es)).
End Graphs.

(** The plan is local first, the destructors are numbered, and nodes have two workers. *)
Definition sample (es : list (nat * nat)) (kef : option nat) (vop eop ordered back : bool) (out vf ef dvf : nat -> bool) : mutator :=
  mkMutator (g_src es) (g_dst es) (g_outs es) (g_ins es) (fun n => n mod 2) (Some 1) (Some 2) (Some 3) kef vop eop
            (vop && ordered) false (vop && ordered) ordered false back out vf ef (fun _ => false) (fun _ => false) dvf (fun _ => false).
Lemma sample_ok es kef vop eop ord back out vf ef dvf ns : NoDup ns -> Forall (fun p => In (fst p) ns /\ In (snd p) ns) es ->
  start_ok (sample es kef vop eop ord back out vf ef dvf) 2 ns.
Proof.
  intros Hn Hes. assert (G : forall e, e < length es -> In (g_src es e) ns /\ In (g_dst es e) ns).
  { intros e He. rewrite Forall_forall in Hes. apply (Hes (nth e es (0, 0))), nth_In, He. }
  split; [|intros n _; exact (Nat.mod_upper_bound n 2 ltac:(discriminate))].
  split; cbn [src dst outs ins sample]; try assumption; try (intros n _; apply NoDup_filter, seq_NoDup).
  - intros n e _. unfold g_outs, g_ins. rewrite !filter_In, !in_seq, !Nat.eqb_eq. split.
    + intros [H1 H2]. split; [exact H2|]. split; [apply G; lia|split; [lia|reflexivity]].
    + intros (H1 & _ & H2 & _). split; [lia|exact H1].
  - intros n e _. unfold g_outs, g_ins. rewrite !filter_In, !in_seq, !Nat.eqb_eq. split.
    + intros [H1 H2]. split; [exact H2|]. split; [apply G; lia|split; [lia|reflexivity]].
    + intros (H1 & _ & H2 & _). split; [lia|exact H1].
Qed.
Definition given (c : mutator) (ns : list nat) : st := begin c (fun _ => false) (fun _ => false) ns.
Definition final (c : mutator) (l : list action) (ns : list nat) : st :=
  match run c 2 l (given c ns) with Some s => s | None => given c ns end.
Lemma final_star c l ns : star (step c 2) (given c ns) (final c l ns).
Proof. unfold final. destruct (run c 2 l (given c ns)) as [s|] eqn:E; [eapply run_sound, E|constructor]. Qed.

Definition no (_ : nat) : bool := false.
Definition only (k n : nat) : bool := n =? k.
Definition triangle : list (nat * nat) := [(0, 1); (0, 2); (1, 2)].
Definition three : list nat := [0; 1; 2].
Ltac solve_sample := apply sample_ok; [repeat constructor; simpl; intuition discriminate|repeat constructor; simpl; tauto].
Definition seen (s : st) (e : nat) := (out_ (ls (memory s) e), rev (lcalls (ls (memory s) e))).
Definition seen_v (s : st) (n : nat) := (cur (vs (memory s) n), rev (vcalls (vs (memory s) n))).

(** Everything is replaced. *)
Definition fine : mutator := sample triangle (Some 4) true true true false no no no no.
Definition fine_end : st := final fine [AStart 0; AReceive 1 0; AReceive 0 0; AEnd false] three.
Example C99_replaced_destroyed_ex : start_ok fine 2 three /\ star (step fine 2) (given fine three) fine_end /\ ph fine_end = Finished /\
  failed fine_end = false /\ map (seen fine_end) three = repeat (Some New, [(2, Old)]) 3 /\ map (seen_v fine_end) three = repeat (Some New, [(1, Old)]) 3.
Proof. split; [solve_sample|]. split; [apply final_star|]. vm_compute. repeat split; reflexivity. Qed.

(** The edge operation fails at the edge from 1. *)
Definition failing : mutator := sample triangle (Some 4) true true true false no no (only 2) no.
Definition failing_end : st := final failing [AStart 0; AReceive 1 0; AReceive 0 0; AEnd false; AUnmutate 0; AUnmutate 0; AUnmutated] three.
Example C99_labels_forward_ex : start_ok failing 2 three /\ star (step failing 2) (given failing three) failing_end /\ ph failing_end = Finished /\
  failed failing_end = true /\ forward failing = true /\
  map (seen failing_end) three = [(None, [(2, Old); (4, New)]); (None, [(2, Old); (4, New)]); (None, [(4, New); (2, Old)])] /\
  map (seen_v failing_end) three = [(None, [(1, Old); (3, New)]); (None, [(3, New); (1, Old)]); (None, [(1, Old)])].
Proof. split; [solve_sample|]. split; [apply final_star|]. vm_compute. repeat split; reflexivity. Qed.

(** The vertex operation fails at 1, after 2. *)
Definition reverse : mutator := sample triangle (Some 4) true true true true no (only 1) no no.
Definition reverse_end : st :=
  final reverse [AStart 0; AReceive 1 0; AEnd false; ARetract 0; ARetract 0; ARetracted; AUnmutate 1; AUnmutate 0; AUnmutated] three.
Example C99_labels_backward_ex : start_ok reverse 2 three /\ star (step reverse 2) (given reverse three) reverse_end /\ ph reverse_end = Finished /\
  failed reverse_end = true /\ forward reverse = false /\ unordered reverse = false /\
  map (seen reverse_end) three = [(None, [(2, Old)]); (None, [(2, Old); (4, New)]); (None, [(2, Old); (4, New)])] /\
  map (seen_v reverse_end) three = [(None, [(1, Old)]); (None, [(3, New); (1, Old)]); (None, [(1, Old); (3, New)])].
Proof. split; [solve_sample|]. split; [apply final_star|]. vm_compute. repeat split; reflexivity. Qed.

(** Both labels and vertices, in the last run *)
Example C99_vertices_destroyed_ex : vertices_settled reverse three reverse_end /\ failed reverse_end = true /\ map (vmade : vertex -> _) (map (vs (memory reverse_end)) three) =
  [[Old]; [New; Old]; [New; Old]].
Proof.
  split; [|split; reflexivity]. eapply C99_vertices_destroyed with (lanes := 2) (vnull := fun _ => false) (lnull := fun _ => false);
    [solve_sample|reflexivity|apply final_star|reflexivity].
Qed.

(** ** Exceptions *)
Ltac unsettled n e H := specialize (H n e ltac:(simpl; tauto) ltac:(vm_compute; tauto)); vm_compute in H.

(** Labels aren't destroyed if a vertex operation fails and there is no edge operation: those of the edges from the node are set to NULL
    by [_cru_free_labels], because the destructor of the edge operation is NULL. *)
Definition vertices_only : mutator := sample triangle None true false true false no (only 0) no no.
Definition vertices_only_end : st := final vertices_only [AStart 0; AEnd false; AUnmutate 0; AUnmutate 0; AUnmutated] three.
Example C99_labels_unchanged_ex : start_ok vertices_only 2 three /\ star (step vertices_only 2) (given vertices_only three) vertices_only_end /\
  ph vertices_only_end = Finished /\ failed vertices_only_end = true /\
  map (seen vertices_only_end) three = [(None, []); (None, []); (None, [(2, Old)])] /\ marks vertices_only_end 0 = Blocked.
Proof. split; [solve_sample|]. split; [apply final_star|]. vm_compute. repeat split; reflexivity. Qed.
Theorem C99_labels_leaked_refuted : exists c lanes ns vnull lnull s, start_ok c lanes ns /\ (forall n, dv_fails c n = false) /\
  e_op c = false /\ star (step c lanes) (begin c vnull lnull ns) s /\ ph s = Finished /\ ~ labels_settled c ns s /\
  exists n e, In e (outs c n) /\ v_fails c n = true /\ out_ (ls (memory s) e) = None /\ lcalls (ls (memory s) e) = [] /\
    lmade (ls (memory s) e) = [Old] /\ e_free c <> None.
Proof.
  exists vertices_only, 2, three, (fun _ => false), (fun _ => false), vertices_only_end. split; [solve_sample|]. split; [reflexivity|]. split; [reflexivity|].
  split; [apply final_star|]. split; [reflexivity|]. split.
  - intros H. unsettled 0 0 H. apply Permutation_length in H. discriminate.
  - exists 0, 0. vm_compute. repeat split; try (left; reflexivity). discriminate.
Qed.

(** Backwards, the new labels of other edges to a node aren't destroyed if the edge operation fails at one of them. *)
Definition backward_edges : mutator := sample triangle (Some 4) true true true true no no (only 2) no.
Definition backward_edges_end : st :=
  final backward_edges [AStart 0; AEnd false; ARetract 0; ARetract 0; ARetracted; AUnmutate 0; AUnmutate 0; AUnmutated] three.
Theorem C99_new_labels_leaked_refuted : exists c lanes ns vnull lnull s, start_ok c lanes ns /\ (forall n, dv_fails c n = false) /\
  forward c = false /\ unordered c = false /\ v_op c = true /\ e_op c = true /\ (forall n, outside c n = false) /\
  star (step c lanes) (begin c vnull lnull ns) s /\ ph s = Finished /\ ~ labels_settled c ns s /\
  exists n e d, In e (outs c n) /\ out_ (ls (memory s) e) = None /\ In New (lmade (ls (memory s) e)) /\ ke_free c = Some d /\
    ~ In New (map snd (lcalls (ls (memory s) e))).
Proof.
  exists backward_edges, 2, three, (fun _ => false), (fun _ => false), backward_edges_end. split; [solve_sample|]. split; [reflexivity|].
  do 5 (split; [reflexivity|]). split; [apply final_star|]. split; [reflexivity|]. split.
  - intros H. unsettled 0 1 H. apply Permutation_length in H. discriminate.
  - exists 0, 1, 4. vm_compute. split; [tauto|]. split; [reflexivity|]. split; [tauto|]. split; [reflexivity|]. intros [G|[]]. discriminate.
Qed.

(** Backwards, new labels that don't need any destructor are passed to the one of the given graph after an error. *)
Definition undestroyed : mutator := sample triangle None true true true true no (only 1) no no.
Definition undestroyed_end : st := final undestroyed [AStart 0; AReceive 1 0; AEnd false; AUnmutate 0; AUnmutate 0; AUnmutated] three.
Theorem C99_wrong_label_destructor_refuted : exists c lanes ns vnull lnull s, start_ok c lanes ns /\ (forall n, dv_fails c n = false) /\
  forward c = false /\ unordered c = false /\ v_op c = true /\ e_op c = true /\ (forall n, outside c n = false) /\
  (forall e, e_fails c e = false /\ de_fails c e = false) /\
  star (step c lanes) (begin c vnull lnull ns) s /\ ph s = Finished /\ ~ labels_settled c ns s /\
  exists n e d, In e (outs c n) /\ e_free c = Some d /\ In (d, New) (lcalls (ls (memory s) e)) /\ ke_free c = None.
Proof.
  exists undestroyed, 2, three, (fun _ => false), (fun _ => false), undestroyed_end. split; [solve_sample|]. split; [reflexivity|].
  do 5 (split; [reflexivity|]). split; [split; reflexivity|]. split; [apply final_star|]. split; [reflexivity|]. split.
  - intros H. unsettled 0 1 H. apply Permutation_length in H. discriminate.
  - exists 0, 1, 2. vm_compute. split; [tauto|]. split; [reflexivity|]. split; [tauto|reflexivity].
Qed.

(** In an unordered mutation in a backwards zone, given labels are passed to the destructor of the edge operation after an error, and then
    to the edge operation. *)
Definition disorder : mutator := sample triangle (Some 4) false true false true no no (only 0) no.
Definition disorder_end : st :=
  final disorder [AStart 1; AStart 0; AStart 0; AEnd false; ARetract 0; ARetract 0; ARetracted; AUnmutate 0; AUnmutate 0; AUnmutated] three.
Theorem C99_unordered_refuted : exists c lanes ns vnull lnull s, start_ok c lanes ns /\ (forall n, dv_fails c n = false) /\
  unordered c = true /\ v_op c = false /\ e_op c = true /\ (forall n, outside c n = false) /\
  star (step c lanes) (begin c vnull lnull ns) s /\ ph s = Finished /\ ~ labels_settled c ns s /\ misused (memory s) = true /\
  exists n e d, In e (outs c n) /\ ke_free c = Some d /\ In (d, Old) (lcalls (ls (memory s) e)) /\ e_free c <> Some d.
Proof.
  exists disorder, 2, three, (fun _ => false), (fun _ => false), disorder_end. split; [solve_sample|]. split; [reflexivity|].
  do 4 (split; [reflexivity|]). split; [apply final_star|]. split; [reflexivity|]. split; [|split; [reflexivity|]].
  - intros H. unsettled 1 2 H. apply Permutation_sym in H. apply (Permutation_in (4, Old)) in H; [|simpl; tauto]. simpl in H. intuition discriminate.
  - exists 1, 2, 4. vm_compute. split; [tauto|]. split; [reflexivity|]. split; [tauto|discriminate].
Qed.

(** Nevertheless, nothing is destroyed twice. *)
Example C99_destroyed_once_ex : start_ok disorder 2 three /\ star (step disorder 2) (given disorder three) disorder_end /\
  map (seen disorder_end) three = [(None, [(4, New); (2, Old)]); (None, [(2, Old); (4, New)]); (None, [(4, Old); (4, New)])].
Proof. split; [solve_sample|]. split; [apply final_star|]. vm_compute. reflexivity. Qed.

(** If the destructor of vertices raises an error, the new vertex is passed to it later. *)
Definition bad_destructor : mutator := sample triangle (Some 4) true true true false no no no (only 0).
Definition bad_destructor_end : st := final bad_destructor [AStart 0; AEnd false; AUnmutate 0; AUnmutate 0; AUnmutated] three.
Theorem C99_wrong_vertex_destructor_refuted : exists c lanes ns vnull lnull s, start_ok c lanes ns /\ forward c = true /\
  star (step c lanes) (begin c vnull lnull ns) s /\ ph s = Finished /\ ~ vertices_settled c ns s /\
  exists n d, In n ns /\ v_free c = Some d /\ In (d, New) (vcalls (vs (memory s) n)) /\ kv_free c <> Some d.
Proof.
  exists bad_destructor, 2, three, (fun _ => false), (fun _ => false), bad_destructor_end. split; [solve_sample|]. split; [reflexivity|].
  split; [apply final_star|]. split; [reflexivity|]. split.
  - intros H. specialize (H 0 ltac:(simpl; tauto)). vm_compute in H. apply Permutation_sym in H. apply (Permutation_in (1, New)) in H; [|simpl; tauto]. simpl in H. intuition discriminate.
  - exists 0, 1. vm_compute. split; [tauto|]. split; [reflexivity|]. split; [tauto|discriminate].
Qed.

(** Backwards, labels of edges to nodes outside of the zone are passed to the destructor of the edge operation after an error. *)
Definition partly : mutator := sample [(0, 1); (0, 2)] (Some 4) true true true true (only 2) no no no.
Definition partly_end : st :=
  final partly [AStart 1; AReceive 0 0; ATrouble 0; AEnd false; ARetract 0; ARetract 0; ARetracted; AUnmutate 0; AUnmutate 0; AUnmutated] three.
Theorem C99_unreachable_refuted : exists c lanes ns vnull lnull s, start_ok c lanes ns /\ (forall n, dv_fails c n = false) /\
  forward c = false /\ unordered c = false /\ v_op c = true /\ e_op c = true /\ ke_free c <> None /\
  (forall e, e_fails c e = false /\ de_fails c e = false) /\
  star (step c lanes) (begin c vnull lnull ns) s /\ ph s = Finished /\ ~ labels_settled c ns s /\
  exists n e d, In e (outs c n) /\ ke_free c = Some d /\ In (d, Old) (lcalls (ls (memory s) e)) /\ e_free c <> Some d.
Proof.
  exists partly, 2, three, (fun _ => false), (fun _ => false), partly_end. split; [solve_sample|]. split; [reflexivity|].
  do 4 (split; [reflexivity|]). split; [discriminate|]. split; [split; reflexivity|]. split; [apply final_star|]. split; [reflexivity|]. split.
  - intros H. unsettled 0 1 H. apply Permutation_sym in H. apply (Permutation_in (4, Old)) in H; [|simpl; tauto]. simpl in H. intuition discriminate.
  - exists 0, 1, 4. vm_compute. split; [tauto|]. split; [reflexivity|]. split; [tauto|discriminate].
Qed.
