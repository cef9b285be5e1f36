(** An executable scheduler for the protocol of Ports.v, used to exhibit concrete
    executions (examples of the hypotheses of theorems, and counterexamples). *)
From Coq Require Import List Arith Lia Bool.
From Verif Require Import Base Ports.
Import ListNotations.

Set Implicit Arguments.

Section Exec.
  Context {S P : Type}.
  Variable lanes : nat.
  Variable dest : P -> nat.
  Variable task : S -> P -> option (S * list P).
  Variable p0 : P.
  Notation sys := (@sys S P).
  Notation step := (step lanes dest task p0).

  (** The next step of worker [i], if it has one. *)
  Definition exec_worker (i : nat) (s : sys) : option sys :=
    match pcs s i with
    | Run =>
        match inc s i with
        | p :: rest =>
            match task (sh s) p with
            | Some (s', out) => Some (do_process dest s i p rest s' out)
            | None => Some (do_defer s i p rest)
            end
        | [] => if isnil (pod s i i) then Some (set_pc s i Assign) else Some (do_recycle s i)
        end
    | Assign => if isnil (asg s i) then Some (set_pc s i Expose) else Some (do_take s i)
    | Expose => Some (do_expose s i)
    | Send j en =>
        if Nat.ltb j lanes
        then if isnil (pod s i j) then Some (set_pc s i (Send (j + 1) en)) else Some (do_send s i j)
        else Some (set_pc s i (if en then Block else Undefer 0))
    | Undefer j =>
        if Nat.ltb j lanes then Some (do_undefer s i j) else Some (set_pc s i Block)
    | Block =>
        if isnil (asg s i)
        then if dismissed s i then Some (set_pc s i Exited)
             else if Nat.eqb (running s) 0 then Some (set_pc s i Exited) else Some (do_sleep s i)
        else Some (do_take s i)
    | Sleep => if woken s i then Some (do_wake s i) else None
    | Exited => None
    end.

  Definition is_exited (c : pc) : bool := match c with Exited => true | _ => false end.

  (** The next step of the launching thread, if it has one. *)
  Definition exec_main (s : sys) : option sys :=
    match mainpc s with
    | MStart => if quiescent s then Some (do_ready s) else None
    | MSend => Some (do_start dest p0 s)
    | MWait => if quiescent s then Some (set_main s (MDismiss 0)) else None
    | MDismiss j => if Nat.ltb j lanes then Some (do_dismiss s j) else Some (set_main s MJoin)
    | MJoin => if forallb (fun i => is_exited (pcs s i)) (seq 0 lanes) then Some (set_main s MDone) else None
    | MDone => None
    end.

  Inductive who := W (i : nat) | M | Spurious (i : nat).

  Definition exec1 (s : sys) (w : who) : sys :=
    match w with
    | W i => if Nat.ltb i lanes then match exec_worker i s with Some s' => s' | None => s end else s
    | M => match exec_main s with Some s' => s' | None => s end
    | Spurious i => if Nat.ltb i lanes then match pcs s i with Sleep => do_wake s i | _ => s end else s
    end.

  Definition exec (sched : list who) (s : sys) : sys := fold_left exec1 sched s.

  Lemma exec_worker_sound i s s' : i < lanes -> exec_worker i s = Some s' -> step s s'.
  Proof.
    unfold exec_worker. intros Hi H. destruct (pcs s i) eqn:Ep.
    - destruct (inc s i) eqn:Einc.
      + destruct (isnil (pod s i i)) eqn:E; inversion H; subst.
        * apply isnil_true in E. now apply st_norecycle.
        * apply isnil_false in E. now apply st_recycle.
      + destruct (task (sh s) p) as [[s1 out]|] eqn:Et; inversion H; subst.
        * eapply st_process; eauto.
        * eapply st_defer; eauto.
    - destruct (isnil (asg s i)) eqn:E; inversion H; subst.
      + apply isnil_true in E. now apply st_no_assignment.
      + apply isnil_false in E. now apply st_assignment.
    - inversion H; subst. now apply st_expose.
    - destruct (Nat.ltb_spec j lanes).
      + destruct (isnil (pod s i j)) eqn:E; inversion H; subst.
        * apply isnil_true in E. now apply st_skip.
        * apply isnil_false in E. eapply st_send; eauto.
      + inversion H; subst. eapply st_sent; eauto.
    - destruct (Nat.ltb_spec j lanes); inversion H; subst.
      + now apply st_undefer.
      + eapply st_undeferred; eauto.
    - destruct (isnil (asg s i)) eqn:E.
      + apply isnil_true in E. destruct (dismissed s i) eqn:Ed; [inversion H; subst; now apply st_dismissed|].
        destruct (Nat.eqb_spec (running s) 0); inversion H; subst.
        * now apply st_not_dwindled.
        * apply st_sleep; auto. lia.
      + apply isnil_false in E. inversion H; subst. now apply st_take.
    - destruct (woken s i) eqn:E; inversion H; subst. now apply st_wake.
    - discriminate.
  Qed.

  Lemma exec_main_sound s s' : exec_main s = Some s' -> step s s'.
  Proof.
    unfold exec_main. intros H. destruct (mainpc s) eqn:Em.
    - destruct (quiescent s) eqn:E; inversion H; subst. now apply st_ready.
    - inversion H; subst. now apply st_start.
    - destruct (quiescent s) eqn:E; inversion H; subst. now apply st_finished.
    - destruct (Nat.ltb_spec j lanes); inversion H; subst.
      + now apply st_dismiss.
      + eapply st_all_dismissed; eauto.
    - destruct (forallb _ _) eqn:E; inversion H; subst. apply st_join; auto.
      intros i Hi. rewrite forallb_forall in E. specialize (E i).
      rewrite in_seq in E. specialize (E ltac:(lia)). destruct (pcs s i); simpl in E; congruence.
    - discriminate.
  Qed.

  Definition no_spurious (w : who) : Prop := match w with Spurious _ => False | _ => True end.

  Lemma exec_sound sched s :
    Forall no_spurious sched -> star step s (exec sched s).
  Proof.
    revert s. unfold exec. induction sched as [|w sched IH]; intros s H; [constructor|].
    inversion H; subst. simpl. eapply star_trans; [|apply IH; auto].
    destruct w as [i| |i]; simpl in *; try contradiction.
    - destruct (Nat.ltb_spec i lanes); [|constructor].
      destruct (exec_worker i s) eqn:E; [|constructor]. apply star_one. eapply exec_worker_sound; eauto.
    - destruct (exec_main s) eqn:E; [|constructor]. apply star_one. now apply exec_main_sound.
  Qed.

  Lemma exec_spurious sched s : star (spurious_step lanes dest task p0) s (exec sched s).
  Proof.
    revert s. unfold exec. induction sched as [|w sched IH]; intros s; [constructor|].
    simpl. eapply star_trans; [|apply IH]. destruct w as [i| |i]; simpl.
    - destruct (Nat.ltb_spec i lanes); [|constructor].
      destruct (exec_worker i s) eqn:E; [|constructor]. apply star_one, sp_step.
      eapply exec_worker_sound; eauto.
    - destruct (exec_main s) eqn:E; [|constructor]. apply star_one, sp_step. now apply exec_main_sound.
    - destruct (Nat.ltb_spec i lanes); [|constructor].
      destruct (pcs s i) eqn:E; try constructor. apply star_one. now apply sp_wake.
  Qed.

End Exec.
