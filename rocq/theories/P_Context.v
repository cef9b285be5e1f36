(** Contexts of callback functions: claims C82 and C83. *)
From Coq Require Import List Arith NArith Lia Bool.
From Verif Require Import Fold Context.
Import ListNotations.

Set Implicit Arguments.

(** ** Vocabulary, in terms of histories *)

(** [calls h t js]: the operations whose callbacks are being called by thread [t] after [h], the innermost first *)
Inductive calls : list event -> nat -> list nat -> Prop :=
| calls_none t : calls [] t []
| calls_spawn h t j w js : calls h t js -> calls (h ++ [Spawn t j w]) t [j]
| calls_exit h t js : calls h t js -> calls (h ++ [Exit t]) t []
| calls_enter h t j js : calls h t js -> calls (h ++ [Enter t j]) t (j :: js)
| calls_leave h t j js : calls h t (j :: js) -> calls (h ++ [Leave t]) t js
| calls_other h t js e :
    match e with Spawn u _ _ | Exit u | Enter u _ | Leave u => u <> t | Kill _ | Callback _ | Connect _ _ _ => True end ->
    calls h t js -> calls (h ++ [e]) t js.

(** The thread is a worker made for a task of a job, which hasn't finished. *)
Definition working (h : list event) (t j : nat) (w : job_task) : Prop :=
  exists h1 h2, h = h1 ++ Spawn t j w :: h2 /\ forall e, In e h2 -> match e with Spawn u _ _ | Exit u => u <> t | _ => True end.

(** Edges declared by thread [t] since the callback was called, latest first *)
Inductive declares (t : nat) : list event -> list (word * word) -> Prop :=
| declares_callback h : declares t (h ++ [Callback t]) []
| declares_edge h l v es : declares t h es -> declares t (h ++ [Connect t l v]) ((l, v) :: es)
| declares_other h e es : match e with Callback u | Connect u _ _ | Spawn u _ _ | Exit u => u <> t | _ => True end ->
    declares t h es -> declares t (h ++ [e]) es.

Section Proofs.
  Variable attribute : nat -> word.
  Notation after := (after attribute).

  Lemma after_app h1 h2 : after (h1 ++ h2) = fold_left (fun w e => happen attribute e w) h2 (after h1).
  Proof. unfold Context.after. apply fold_left_app. Qed.
  Lemma after_snoc h e : after (h ++ [e]) = happen attribute e (after h).
  Proof. rewrite after_app. reflexivity. Qed.

  Lemma slots_kept h t j w h2 :
    (forall e, In e h2 -> match e with Spawn u _ _ | Exit u => u <> t | _ => True end) ->
    s_store (at_thread (after (h ++ Spawn t j w :: h2)) t) = (if stores w then attribute j else 0%N) /\
    s_kill (at_thread (after (h ++ Spawn t j w :: h2)) t) = (if switches w then Some j else None) /\
    s_context (at_thread (after (h ++ Spawn t j w :: h2)) t) = sets_context w.
  Proof.
    induction h2 as [|e h2 IH] using rev_ind; intros H.
    - rewrite after_snoc. simpl. rewrite Nat.eqb_refl. auto.
    - assert (He := H e ltac:(apply in_or_app; simpl; auto)).
      specialize (IH (fun x I => H x (in_or_app _ _ _ (or_introl I)))).
      replace (h ++ Spawn t j w :: h2 ++ [e]) with ((h ++ Spawn t j w :: h2) ++ [e]) by (rewrite <- app_assoc; reflexivity).
      rewrite after_snoc. destruct e; simpl; auto; unfold connected;
        match goal with |- context [Nat.eqb t ?u] => destruct (Nat.eqb_spec t u) as [->|] end; simpl; auto; try congruence.
      destruct (s_context (at_thread (after (h ++ Spawn t0 j w :: h2)) t0)) as [[| |]|] eqn:E; simpl; rewrite ?E; auto.
  Qed.

  (** A callback called by a worker of a task that sets its storage gets the attribute of the graph. *)
  Theorem C82_attribute h t j w : working h t j w -> stores w = true -> get attribute t h = attribute j.
  Proof. intros [h1 [h2 [-> H]]] S. unfold get. rewrite (proj1 (slots_kept h1 t j w _ H)), S. reflexivity. Qed.

  (** It is told exactly whether its job has been killed. *)
  Lemma killed_iff h j : job_killed (after h) j = true <-> In (Kill j) h.
  Proof.
    induction h as [|e h IH] using rev_ind; [simpl; split; [discriminate|tauto]|].
    rewrite after_snoc, in_app_iff. destruct e; simpl; rewrite ?IH; try (intuition discriminate).
    rewrite orb_true_iff, Nat.eqb_eq, IH. split.
    - intros [->|I]; auto.
    - intros [I|[E|[]]]; auto. injection E as ->. auto.
  Qed.
  Theorem C82_killed h t j w : working h t j w -> switches w = true -> (killed attribute t h = true <-> In (Kill j) h).
  Proof.
    intros [h1 [h2 [-> H]]] S. unfold killed. destruct (slots_kept h1 t j w _ H) as [_ [K _]]. rewrite K, S. apply killed_iff.
  Qed.

  (** Outside of callbacks nothing is found. *)
  Definition outside (h : list event) (t : nat) : Prop := forall j w, ~ working h t j w.
  Lemma outside_slots h t : outside h t ->
    s_store (at_thread (after h) t) = 0%N /\ s_kill (at_thread (after h) t) = None /\ s_context (at_thread (after h) t) = None.
  Proof.
    induction h as [|e h IH] using rev_ind; intros O; [simpl; auto|]. rewrite after_snoc.
    assert (P : match e with Spawn u _ _ | Exit u => u <> t | _ => True end -> outside h t).
    { intros He i k [g1 [g2 [-> H]]]. apply (O i k). exists g1, (g2 ++ [e]). split; [rewrite <- app_assoc; reflexivity|].
      intros x I. apply in_app_iff in I as [I|[<-|[]]]; [apply H, I|exact He]. }
    assert (Q : (exists u, (e = Exit u \/ exists j w, e = Spawn u j w) /\ u = t) \/ outside h t).
    { destruct e as [u j w|u| | | | |]; try (right; apply P; exact I);
        (destruct (Nat.eq_dec u t) as [->|N]; [left; eauto 10|right; apply P; exact N]). }
    destruct Q as [[u [[->|[j [w ->]]] ->]]|Q].
    - simpl. rewrite Nat.eqb_refl. auto.
    - exfalso. apply (O j w). exists h, []. split; auto. intros x [].
    - destruct (IH Q) as [A [B C]]. destruct e; simpl; auto;
        match goal with |- context [Nat.eqb t ?u] => destruct (Nat.eqb_spec t u) as [->|] end; simpl; auto.
      + exfalso. apply (O j w). exists h, []. split; auto. intros x [].
      + unfold connected. rewrite C. auto.
  Qed.
  Theorem C82_outside h t : outside h t ->
    get attribute t h = 0%N /\ killed attribute t h = false /\ out_of_context attribute t h = true.
  Proof.
    intros O. destruct (outside_slots O) as [A [B C]]. unfold get, killed, out_of_context. rewrite A, B, C. auto.
  Qed.

  (** Edges can be declared just in callbacks of building and spreading, and each is added to what is declared in the same
      callback, whatever else happens in other threads. *)
  Theorem C83_context h t j w : working h t j w -> (out_of_context attribute t h = false <-> w = building \/ w = spreading).
  Proof.
    intros [h1 [h2 [-> H]]]. unfold out_of_context. destruct (slots_kept h1 t j w _ H) as [_ [_ ->]].
    destruct w; simpl; intuition discriminate.
  Qed.
  Theorem C83_declared h t j w es : working h t j w -> w = building \/ w = spreading -> declares t h es ->
    declared attribute t h = es.
  Proof.
    intros W B D. revert W. unfold declared. induction D as [h|h l v es D IH|h e es He D IH]; intros W.
    - rewrite after_snoc. simpl. rewrite Nat.eqb_refl. reflexivity.
    - assert (W' : working h t j w).
      { destruct W as [h1 [h2 [E H]]]. destruct h2 as [|x h2 _] using rev_ind; [apply app_inj_tail in E as [_ E]; discriminate|].
        rewrite app_comm_cons, app_assoc in E. apply app_inj_tail in E as [-> <-]. exists h1, h2. split; auto.
        intros x I. apply H, in_or_app. auto. }
      rewrite after_snoc. simpl. rewrite Nat.eqb_refl. unfold connected.
      assert (C : s_context (at_thread (after h) t) = Some BUILDING).
      { destruct W' as [h1 [h2 [-> H]]]. destruct (slots_kept h1 t j w _ H) as [_ [_ ->]]. destruct B as [->| ->]; reflexivity. }
      rewrite C. simpl. now rewrite (IH W').
    - assert (W' : working h t j w).
      { destruct W as [h1 [h2 [E H]]]. destruct h2 as [|x h2 _] using rev_ind.
        - apply app_inj_tail in E as [_ ->]. simpl in He. congruence.
        - rewrite app_comm_cons, app_assoc in E. apply app_inj_tail in E as [-> <-]. exists h1, h2. split; auto.
          intros x I. apply H, in_or_app. auto. }
      rewrite after_snoc, <- (IH W'). destruct e; simpl; auto; destruct (Nat.eqb_spec t t0) as [->|]; simpl; auto; congruence.
  Qed.
End Proofs.

(** ** Examples *)

(** Two jobs are building graphs at the same time. *)
Definition h1 : list event :=
  [Spawn 1 7 building; Spawn 2 8 spreading; Callback 1; Connect 1 5 50; Callback 2; Connect 2 6 60; Kill 8; Connect 1 4 40; Connect 3 1 1]%N.
Definition at1 : nat -> word := fun j => N.of_nat (100 + j).
Lemma h1_working1 : working h1 1 7 building.
Proof. exists [], (tl h1). split; auto. simpl. intuition (subst; auto; discriminate). Qed.
Lemma h1_working2 : working h1 2 8 spreading.
Proof. exists [Spawn 1 7 building], (tl (tl h1)). split; auto. simpl. intuition (subst; auto; discriminate). Qed.
Example C82_attribute_ex : working h1 1 7 building /\ stores building = true /\ get at1 1 h1 = 107%N /\ get at1 2 h1 = 108%N.
Proof. split; [apply h1_working1|]. repeat split; reflexivity. Qed.
Example C82_killed_ex : working h1 2 8 spreading /\ switches spreading = true /\ killed at1 2 h1 = true /\ killed at1 1 h1 = false.
Proof. split; [apply h1_working2|]. repeat split; reflexivity. Qed.
Example C82_outside_ex : outside h1 3 /\ get at1 3 h1 = 0%N /\ killed at1 3 h1 = false /\ out_of_context at1 3 h1 = true.
Proof.
  split; [|repeat split; reflexivity]. intros j w [a [b [E H]]].
  assert (I : In (Spawn 3 j w) h1) by (rewrite E; apply in_or_app; simpl; auto). simpl in I. intuition discriminate.
Qed.
Example C83_context_ex : working h1 1 7 building /\ out_of_context at1 1 h1 = false.
Proof. split; [apply h1_working1|reflexivity]. Qed.
Example C83_declared_ex : declares 1 h1 [(4, 40); (5, 50)]%N /\ declared at1 1 h1 = [(4, 40); (5, 50)]%N.
Proof.
  split; [|reflexivity].
  apply (@declares_other 1 (removelast h1) (Connect 3 1 1)%N); [simpl; lia|].
  apply (@declares_edge 1 (removelast (removelast h1))).
  apply (@declares_other 1 (removelast (removelast (removelast h1))) (Kill 8)); [exact I|].
  apply (@declares_other 1 (removelast (removelast (removelast (removelast h1)))) (Connect 2 6 60)%N); [simpl; lia|].
  apply (@declares_other 1 (removelast (removelast (removelast (removelast (removelast h1))))) (Callback 2)); [simpl; lia|].
  apply (@declares_edge 1 [Spawn 1 7 building; Spawn 2 8 spreading; Callback 1]).
  apply (@declares_callback 1 [Spawn 1 7 building; Spawn 2 8 spreading]).
Qed.

(** ** What is false *)

(** No attribute is found by the maps of vertices to properties, by the operators of a composer, by those on edges of
    a merger, and when searching for the initial vertex of an induction. *)
Theorem C82_attribute_missing_refuted :
  exists attribute h t j w, working h t j w /\ calls h t [j] /\ attribute j <> 0%N /\ get attribute t h = 0%N.
Proof.
  exists at1, [Spawn 1 7 property_setting], 1, 7, property_setting. split; [exists [], []; split; auto; intros e []|].
  split; [apply (@calls_spawn [] 1 7 property_setting []); constructor|]. split; [discriminate|reflexivity].
Qed.
Theorem C82_attribute_iff attribute h t j w : working h t j w -> attribute j <> 0%N ->
  (get attribute t h = attribute j <-> ~ (w = property_setting \/ w = composing \/ w = edge_merging \/ w = inductive_base_searching)).
Proof.
  intros [a [b [-> H]]] N. unfold get. rewrite (proj1 (slots_kept attribute a t j w _ H)).
  destruct w; simpl; intuition (congruence || discriminate).
Qed.
Example C82_attribute_iff_ex : working h1 1 7 building /\ at1 7 <> 0%N.
Proof. split; [apply h1_working1|discriminate]. Qed.
Theorem C82_killed_iff attribute h t j w : working h t j w -> In (Kill j) h ->
  (killed attribute t h = true <->
   ~ (w = property_setting \/ w = composing \/ w = edge_merging \/ w = fusing \/ w = base_searching \/ w = inductive_base_searching)).
Proof.
  intros W K. destruct (switches w) eqn:S.
  - pose proof (proj2 (C82_killed attribute W S) K). destruct w; try discriminate S; intuition discriminate.
  - destruct W as [a [b [-> H]]]. unfold killed. destruct (slots_kept attribute a t j w _ H) as [_ [-> _]]. rewrite S.
    destruct w; try discriminate S; intuition discriminate.
Qed.
Example C82_killed_iff_ex : working h1 2 8 spreading /\ In (Kill 8) h1.
Proof. split; [apply h1_working2|simpl; auto 10]. Qed.
Theorem C82_killed_missing_refuted :
  exists attribute h t j w, working h t j w /\ calls h t [j] /\ In (Kill j) h /\ killed attribute t h = false.
Proof.
  exists at1, [Spawn 1 7 composing; Kill 7], 1, 7, composing. split.
  - exists [], [Kill 7]. split; auto. intros e [<-|[]]. exact I.
  - split; [|split; [simpl; auto|reflexivity]]. apply (@calls_other [Spawn 1 7 composing] 1 [7] (Kill 7)); [exact I|].
    apply (@calls_spawn [] 1 7 composing []). constructor.
Qed.
(** The attribute of another graph is found by callbacks that are called directly in a thread that works for another job. *)
Theorem C82_wrong_attribute_refuted :
  exists attribute h t i j, calls h t [i; j] /\ attribute i = 0%N /\ get attribute t h = attribute j /\ attribute j <> 0%N.
Proof.
  exists (fun j => if Nat.eqb j 7 then 107%N else 0%N), [Spawn 1 7 mutating; Enter 1 8], 1, 8, 7.
  split; [|split; [|split]; [reflexivity|reflexivity|discriminate]].
  apply (@calls_enter [Spawn 1 7 mutating] 1 8 [7]). apply (@calls_spawn [] 1 7 mutating []). constructor.
Qed.
(** None is found if they are called by a thread that isn't a worker. *)
Theorem C82_caller_attribute_refuted :
  exists attribute h t j, calls h t [j] /\ attribute j <> 0%N /\ get attribute t h = 0%N.
Proof.
  exists at1, [Enter 0 7], 0, 7. split; [apply (@calls_enter [] 0 7 []); constructor|]. split; [discriminate|reflexivity].
Qed.
