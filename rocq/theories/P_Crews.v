(** The reserve of crews: Crews.v. *)
From Coq Require Import List Arith NArith Lia Bool Permutation.
From Verif Require Import Base Crews.
Import ListNotations.

Set Implicit Arguments.

Lemma has_spec a l : has a l = true <-> In a l.
Proof.
  unfold has. rewrite existsb_exists. split.
  - intros [b [H E]]. apply Nat.eqb_eq in E. now subst.
  - intros H. exists a. split; auto. apply Nat.eqb_refl.
Qed.
Lemma without_perm a l : In a l -> Permutation l (a :: without a l).
Proof.
  induction l as [|b l IH]; simpl; [tauto|]. intros H. destruct (Nat.eqb_spec b a) as [->|N]; auto.
  destruct H as [|H]; [congruence|]. rewrite (IH H) at 1. apply perm_swap.
Qed.
Lemma without_eq a l l' : Permutation l (a :: l') -> Permutation (without a l) l'.
Proof.
  intros P. assert (H : In a l) by (rewrite P; now left).
  apply Permutation_cons_inv with a. rewrite <- (without_perm _ _ H). exact P.
Qed.

Lemma nodup_right (l r : list nat) : NoDup (l ++ r) -> NoDup r.
Proof. induction l; simpl; auto. intros H. inversion H; auto. Qed.

Section Crews.
  Variable limit : nat.

  (** Every crew that exists is in one place, either in use or in the reserve. *)
  Record tidy (s : crews) : Prop := {
    t_where : Permutation (allocated s) (ondemand s ++ borrowed s ++ reserve s);
    t_once : NoDup (allocated s);
    t_count : crew_count s = length (reserve s);
    t_limit : crew_count s <= limit;
    t_right : wrong s = false
  }.

  Lemma tidy_no_crews : tidy no_crews.
  Proof. split; simpl; auto; try lia. constructor. Qed.

  Lemma tidy_replenish l s : tidy s -> NoDup l -> (forall a, In a l -> ~ In a (allocated s)) -> tidy (replenish limit l s) /\
    ondemand (replenish limit l s) = ondemand s /\ borrowed (replenish limit l s) = borrowed s /\
    crew_count s <= crew_count (replenish limit l s) /\ (limit <= crew_count s + length l -> crew_count (replenish limit l s) = limit).
  Proof.
    revert s. induction l as [|a l IH]; intros s T N F; simpl.
    - split; [auto|]. split; [auto|]. split; [auto|]. split; [lia|]. destruct T. simpl. lia.
    - destruct (Nat.ltb_spec (crew_count s) limit) as [L|L].
      + inversion N as [|? ? N1 N2]; subst.
        destruct (IH (mkCrews (ondemand s) (borrowed s) (a :: reserve s) (S (crew_count s)) (a :: allocated s) (wrong s))) as [A [B [C [D E]]]]; auto.
        * destruct T as [T1 T2 T3 T4 T5]. split; simpl; auto; try lia.
          -- rewrite T1, !app_assoc. apply Permutation_middle.
          -- constructor; auto. apply F. now left.
        * simpl. intros b Hb [->|Hb2]; [auto|]. eapply F; [|exact Hb2]. now right.
        * simpl in *. split; [auto|]. split; [auto|]. split; [auto|]. split; [lia|]. intros K. apply E. lia.
      + split; [auto|]. split; [auto|]. split; [auto|]. split; [lia|]. destruct T. lia.
  Qed.

  Lemma distinct_spec l : distinct l = true -> NoDup l.
  Proof.
    induction l as [|a l IH]; simpl; [constructor|]. intros H. apply andb_true_iff in H as [H1 H2]. constructor; auto.
    intros H. apply has_spec in H. rewrite H in H1. discriminate.
  Qed.

  Lemma tidy_perform o s r s' : tidy s -> perform limit o s = Some (r, s') -> tidy s'.
  Proof.
    intros T H. destruct o as [a| |a|l]; simpl in H.
    - destruct (has a (allocated s)) eqn:E; [discriminate|]. injection H as <- <-. destruct T as [T1 T2 T3 T4 T5]. split; simpl; auto.
      constructor; auto. intros K. apply has_spec in K. congruence.
    - destruct (reserve s) as [|a l] eqn:E; [injection H as <- <-; auto|]. destruct T as [T1 T2 T3 T4 T5]. rewrite E in *. simpl in T3.
      rewrite T3 in H. simpl in H. injection H as <- <-. split; simpl; auto; try lia.
      rewrite T1. apply Permutation_app_head. simpl. symmetry. apply Permutation_middle.
    - destruct (has a (ondemand s)) eqn:E1.
      { injection H as <- <-. apply has_spec in E1. destruct T as [T1 T2 T3 T4 T5]. split; simpl; auto.
        - apply without_eq. rewrite T1. rewrite (without_perm _ _ E1) at 1. reflexivity.
        - assert (P : Permutation (allocated s) (a :: without a (allocated s))) by (apply without_perm; rewrite T1; apply in_or_app; auto).
          rewrite P in T2. inversion T2; auto. }
      destruct (has a (borrowed s)) eqn:E2; [|discriminate]. apply has_spec in E2. destruct T as [T1 T2 T3 T4 T5].
      assert (A : In a (allocated s)) by (rewrite T1; apply in_or_app; right; apply in_or_app; auto).
      assert (P : Permutation (allocated s) (a :: without a (allocated s))) by (apply without_perm; auto).
      destruct (Nat.ltb_spec (crew_count s) limit) as [L|L].
      + destruct (has a (reserve s)) eqn:E3.
        { exfalso. apply has_spec in E3. rewrite T1 in T2. apply nodup_right in T2. clear - T2 E2 E3.
          induction (borrowed s) as [|b l IH]; simpl in *; auto. inversion T2; subst. destruct E2 as [->|E2]; auto.
          apply H1. apply in_or_app. auto. }
        injection H as <- <-. split; simpl; auto; try (rewrite app_length; simpl; lia).
        rewrite T1. apply Permutation_app_head. rewrite (without_perm _ _ E2) at 1. simpl. rewrite app_assoc. apply Permutation_cons_append.
      + injection H as <- <-. split; simpl; auto.
        * apply without_eq. rewrite T1. rewrite (without_perm _ _ E2) at 1. simpl. symmetry. apply Permutation_middle.
        * rewrite P in T2. inversion T2; auto.
    - destruct (existsb (fun a => has a (allocated s)) l || negb (distinct l)) eqn:E; [discriminate|]. injection H as <- <-.
      apply orb_false_iff in E as [E1 E2]. apply negb_false_iff in E2. apply tidy_replenish; auto; [now apply distinct_spec|].
      intros a Ha K. apply has_spec in K. enough (existsb (fun a => has a (allocated s)) l = true) by congruence.
      apply existsb_exists. eauto.
  Qed.

  Lemma tidy_history l s s' : tidy s -> history limit l s = Some s' -> tidy s'.
  Proof.
    revert s. induction l as [|o l IH]; intros s T H; simpl in H; [injection H as <-; auto|].
    destruct (perform limit o s) as [[r s1]|] eqn:E; [|discriminate]. eapply IH; [|exact H]. eapply tidy_perform; eauto.
  Qed.

  (** No crew is lost or handed out twice, and no internal error is raised. *)
  Theorem C94_crews_are_conserved l s : history limit l no_crews = Some s ->
    Permutation (allocated s) (ondemand s ++ borrowed s ++ reserve s) /\ NoDup (ondemand s ++ borrowed s ++ reserve s) /\
    length (reserve s) <= limit /\ crew_count s = length (reserve s) /\ wrong s = false.
  Proof.
    intros H. destruct (tidy_history _ tidy_no_crews H) as [T1 T2 T3 T4 T5]. repeat split; auto; try lia. now rewrite <- T1.
  Qed.

  (** A crew that is obtained, whether made on demand or borrowed, is nobody else's. *)
  Theorem C94_nobody_elses l s o r s' : history limit l no_crews = Some s -> perform limit o s = Some (Some r, s') ->
    ~ In r (ondemand s ++ borrowed s) /\ In r (ondemand s' ++ borrowed s').
  Proof.
    intros H P. destruct (tidy_history _ tidy_no_crews H) as [T1 T2 T3 T4 T5]. destruct o as [a| |a|x]; simpl in P.
    - destruct (has a (allocated s)) eqn:E; [discriminate|]. injection P as <- <-. simpl. split; auto.
      intros K. enough (In a (allocated s)) by (apply has_spec in H0; congruence). rewrite T1, app_assoc. apply in_or_app. auto.
    - destruct (reserve s) as [|a x] eqn:E; [discriminate|]. destruct (crew_count s =? 0); [discriminate|]. injection P as <- <-. simpl. split.
      + intros K. rewrite T1, app_assoc in T2. apply NoDup_remove_2 in T2. apply T2. apply in_or_app. auto.
      + apply in_or_app. right. now left.
    - destruct (has a (ondemand s)); [discriminate|]. destruct (has a (borrowed s)); [|discriminate].
      destruct (crew_count s <? limit); [destruct (has a (reserve s))|]; discriminate.
    - destruct (existsb _ _ || _); discriminate.
  Qed.

  (** After the reserve has been replenished, there are enough crews for up to [limit] borrowers at a time. *)
  Theorem C94_enough_crews l s x t y u : history limit l no_crews = Some s -> limit <= crew_count s + length x ->
    perform limit (Replenish x) s = Some (None, t) -> history limit y t = Some u ->
    perform limit Borrow u = Some (None, u) -> limit <= length (borrowed u).
  Proof.
    intros H L P Y B. pose proof (tidy_history _ tidy_no_crews H) as T. pose proof (tidy_perform _ T P) as T'.
    assert (C : limit <= length (borrowed t) + length (reserve t)).
    { simpl in P. destruct (existsb (fun a => has a (allocated s)) x || negb (distinct x)) eqn:E; [discriminate|]. injection P as <-.
      apply orb_false_iff in E as [E1 E2]. apply negb_false_iff in E2.
      destruct (@tidy_replenish x s T) as [_ [_ [_ [_ K]]]]; [now apply distinct_spec| |].
      - intros a Ha K. apply has_spec in K. enough (existsb (fun a => has a (allocated s)) x = true) by congruence. apply existsb_exists. eauto.
      - destruct T' as [_ _ K2 _ _]. rewrite <- K2. rewrite (K L). lia. }
    clear H L P T. revert t T' C Y. induction y as [|o y IH]; intros t T C Y; simpl in Y.
    - injection Y as <-. simpl in B. destruct (reserve t) as [|a r] eqn:E; [simpl in C; lia|].
      destruct T as [_ _ T _ _]. rewrite T in B. rewrite E in B. simpl in B. discriminate.
    - destruct (perform limit o t) as [[r t1]|] eqn:E; [|discriminate]. apply (IH t1); auto; [eapply tidy_perform; eauto|].
      pose proof T as [T1 T2 T3 T4 T5]. destruct o as [a| |a|z]; simpl in E.
      + destruct (has a (allocated t)); [discriminate|]. injection E as <- <-. exact C.
      + destruct (reserve t) as [|a z] eqn:E1; [injection E as <- <-; rewrite E1 in *; exact C|].
        rewrite T3 in E. simpl in E. injection E as <- <-. simpl in *. lia.
      + destruct (has a (ondemand t)); [injection E as <- <-; exact C|]. destruct (has a (borrowed t)) eqn:E2; [|discriminate].
        apply has_spec in E2. pose proof (Permutation_length (without_perm _ _ E2)) as Lb. simpl in Lb.
        destruct (Nat.ltb_spec (crew_count t) limit).
        * destruct (has a (reserve t)) eqn:E3.
          { exfalso. apply has_spec in E3. rewrite T1 in T2. apply nodup_right in T2. clear - T2 E2 E3.
            induction (borrowed t) as [|b l IH]; simpl in *; auto. inversion T2; subst. destruct E2 as [->|E2]; auto.
            apply H1. apply in_or_app. auto. }
          injection E as <- <-. simpl. rewrite app_length. simpl. lia.
        * injection E as <- <-. simpl. lia.
      + destruct (existsb (fun a => has a (allocated t)) z || negb (distinct z)) eqn:E1; [discriminate|]. injection E as <- <-.
        apply orb_false_iff in E1 as [E1 E2]. apply negb_false_iff in E2.
        destruct (@tidy_replenish z t T) as [K0 [_ [K1 [K2 _]]]]; [now apply distinct_spec| |].
        * intros a Ha K. apply has_spec in K. enough (existsb (fun a => has a (allocated t)) z = true) by congruence. apply existsb_exists. eauto.
        * rewrite K1. destruct K0 as [_ _ K3 _ _]. rewrite <- K3. lia.
  Qed.

  (** At the end, when no crew is in use any more, everything is freed, and the counter is right. *)
  Theorem C94_teardown l s : history limit l no_crews = Some s -> ondemand s = [] -> borrowed s = [] ->
    allocated (close s) = [] /\ wrong (close s) = false.
  Proof.
    intros H O B. pose proof (tidy_history _ tidy_no_crews H) as [T1 T2 T3 T4 T5]. rewrite O, B in T1. simpl in T1.
    unfold close. clear H T2 T4 O B. revert T1 T3 T5.
    assert (G : forall r q, Permutation (allocated q) r -> crew_count q = length r -> wrong q = false ->
                allocated (close_loop r q) = [] /\ wrong (close_loop r q) = false).
    { induction r as [|a r IH]; intros q P C W; simpl.
      - rewrite C. simpl. split; auto. symmetry in P. now apply Permutation_nil in P.
      - rewrite C. simpl. apply IH; simpl; auto. apply without_eq. exact P. }
    auto.
  Qed.
End Crews.

(** Memory runs out after the reserve has been replenished to a limit of 3.  Then three crews are borrowed, one is given
    back and borrowed again; crew 9 was made on demand. *)
Definition scarcity : list op := [Make 9; Replenish [1; 2; 3; 4]; Borrow; Borrow; Borrow; Release 2; Borrow; Release 9; Release 3].
Example C94_ex : exists s, history 3 scarcity no_crews = Some s /\ ondemand s = [] /\ borrowed s = [2; 1] /\ reserve s = [3] /\
  allocated s = [3; 2; 1].
Proof. exists (mkCrews [] [2; 1] [3] 1 [3; 2; 1] false). vm_compute. auto. Qed.
Example C94_enough_ex : exists s t u, history 3 [Make 9] no_crews = Some s /\ 3 <= crew_count s + length [1; 2; 3; 4] /\
  perform 3 (Replenish [1; 2; 3; 4]) s = Some (None, t) /\ history 3 [Borrow; Borrow; Borrow] t = Some u /\
  perform 3 Borrow u = Some (None, u) /\ length (borrowed u) = 3.
Proof.
  exists (mkCrews [9] [] [] 0 [9] false), (mkCrews [9] [] [3; 2; 1] 3 [3; 2; 1; 9] false), (mkCrews [9] [1; 2; 3] [] 0 [3; 2; 1; 9] false).
  vm_compute. repeat split; auto.
Qed.
(** Crews borrowed while the reserve was low are freed if it has been replenished since then. *)
Example C94_surplus_ex : exists s, history 2 [Replenish [1; 2]; Borrow; Borrow; Replenish [3; 4]; Release 1; Release 2] no_crews = Some s /\
  borrowed s = [] /\ reserve s = [4; 3] /\ allocated s = [4; 3] /\ allocated (close s) = [].
Proof. exists (mkCrews [] [] [4; 3] 2 [4; 3] false). vm_compute. auto. Qed.
Example C94_nobody_ex : exists s s', history 3 scarcity no_crews = Some s /\ perform 3 Borrow s = Some (Some 3, s') /\ borrowed s' = [3; 2; 1].
Proof. exists (mkCrews [] [2; 1] [3] 1 [3; 2; 1] false), (mkCrews [] [3; 2; 1] [] 0 [3; 2; 1] false). vm_compute. auto. Qed.
