(** Kill switches: C36, C37, C38, C55. *)
From Coq Require Import List Arith NArith Lia Bool Permutation.
From Verif Require Import Base Machine Env Kill.
Import ListNotations.

Set Implicit Arguments.

Lemma star_inv (R : kst -> kst -> Prop) (I : kst -> Prop) s s' :
  (forall a b, I a -> R a b -> I b) -> star R s s' -> I s -> I s'.
Proof. intros H St. induction St; eauto. Qed.

Lemma star_trans (R : kst -> kst -> Prop) s1 s2 s3 : star R s1 s2 -> star R s2 s3 -> star R s1 s3.
Proof. intros A B. induction B as [|a b c B IH H]; [auto|]. eapply star_step; [apply IH; exact A|exact H]. Qed.

Lemma req_spec r r' : req r r' = true <-> r = r'.
Proof.
  destruct r as [a b], r' as [c d]. unfold req. simpl. rewrite andb_true_iff, !Nat.eqb_eq. split.
  - now intros [-> ->].
  - intros H. inversion H. auto.
Qed.

Lemma flagged_spec s r : is_flagged s r = true <-> In r (flagged s).
Proof.
  unfold is_flagged. rewrite existsb_exists. split.
  - intros (r' & A & B). apply req_spec in B. now subst.
  - intros H. exists r. split; auto. now apply req_spec.
Qed.

(** ** C38 *)

Definition by_request (e : option error) : bool := match e with Some INTKIL => true | _ => false end.

Section AtMostOne.
  Variable ops : list instr -> Prop.
  Variable threads : nat.

  Definition mine (t : nat) (r : router) : bool := fst r =? t.

  (** How many more operations may report the error due to the requests made so far *)
  Definition share (s : kst) (t : nat) : nat :=
    if running s t then
      match kerr s t with
      | None => length (filter (mine t) (flagged s))
      | Some INTKIL => 1
      | Some _ => 0
      end
    else 0.

  Definition total (f : nat -> nat) : nat := list_sum (map f (seq 0 threads)).
  Definition intkils (s : kst) : nat := length (filter (fun x => by_request (snd x)) (reports s)).
  Definition potential (s : kst) : nat :=
    intkils s + (if pend s then 1 else 0) + length (killers s) + total (share s).

  Lemma total_le (f g : nat -> nat) : (forall t, t < threads -> f t <= g t) -> total f <= total g.
  Proof.
    intros H. unfold total. assert (G : forall l, (forall t, In t l -> f t <= g t) -> list_sum (map f l) <= list_sum (map g l)).
    { induction l as [|t l IH]; simpl; intros A; auto. specialize (IH (fun t h => A t (or_intror h))).
      specialize (A t (or_introl eq_refl)). lia. }
    apply G. intros t Ht. apply in_seq in Ht. apply H. lia.
  Qed.

  Lemma total_upd (f g : nat -> nat) t a b :
    t < threads -> (forall u, u <> t -> f u <= g u) -> f t + a <= g t + b -> total f + a <= total g + b.
  Proof.
    intros Ht Ho Hd. unfold total.
    assert (G : forall l, NoDup l -> (forall u, In u l -> u <> t) -> list_sum (map f l) <= list_sum (map g l)).
    { induction l as [|u l IH]; simpl; intros A B; auto. inversion A; subst.
      assert (C := Ho u (B u (or_introl eq_refl))). specialize (IH H2 (fun v h => B v (or_intror h))). lia. }
    assert (S0 : seq 0 threads = seq 0 t ++ t :: seq (S t) (threads - S t)).
    { replace threads with (t + S (threads - S t)) at 1 by lia. now rewrite seq_app. }
    rewrite S0, !map_app, !list_sum_app. simpl.
    assert (G1 := G (seq 0 t) (seq_NoDup _ _)). assert (G2 := G (seq (S t) (threads - S t)) (seq_NoDup _ _)).
    assert (A1 : list_sum (map f (seq 0 t)) <= list_sum (map g (seq 0 t))).
    { apply G1. intros u Hu. apply in_seq in Hu. lia. }
    assert (A2 : list_sum (map f (seq (S t) (threads - S t))) <= list_sum (map g (seq (S t) (threads - S t)))).
    { apply G2. intros u Hu. apply in_seq in Hu. lia. }
    lia.
  Qed.

  Lemma filter_filter_le {A} (p q : A -> bool) l : length (filter p (filter q l)) <= length (filter p l).
  Proof. induction l as [|a l IH]; simpl; auto. destruct (q a); simpl; destruct (p a); simpl; lia. Qed.

  Lemma filter_le {A} (p : A -> bool) l : length (filter p l) <= length l.
  Proof. induction l as [|a l IH]; simpl; auto. destruct (p a); simpl; lia. Qed.

  (** Flagged routers, and those that exist, belong to threads that run. *)
  Definition owned (s : kst) : Prop :=
    (forall r, In r (flagged s) -> running s (fst r) = true) /\
    (forall r, live s r = true -> running s (fst r) = true).

  Lemma owned_step s s' : owned s -> kstep ops threads s s' -> owned s'.
  Proof.
    intros [F L] H. destruct H as [s s' H|s]; [|split; auto].
    destruct H as [s t p Ht Hr Hp|s t i rest Ht Hr Hc|s t Ht Hr Hc|s a b Hk|s a b r Hk]; split; intros r'; simpl.
    - intros Hi. unfold upd. destruct (Nat.eqb_spec (fst r') t); auto.
    - intros Hi. unfold upd. destruct (Nat.eqb_spec (fst r') t); auto.
    - destruct i; simpl; auto.
      + intros Hi. apply filter_In in Hi as [Hi _]. auto.
      + destruct (pend s); auto. intros [<-|Hi]; auto.
      + intros Hi. apply filter_In in Hi as [Hi _]. auto.
      + intros Hi. apply filter_In in Hi as [Hi _]. auto.
    - destruct i; simpl; auto; unfold updr; destruct (req r' (t, i)) eqn:E; auto.
      + apply req_spec in E as ->. auto.
      + discriminate.
    - intros Hi. apply filter_In in Hi as [Hi Hn]. unfold upd. destruct (fst r' =? t); [discriminate|auto].
    - unfold upd. destruct (fst r' =? t); [discriminate|auto].
    - auto.
    - auto.
    - destruct (live s r) eqn:El; auto. intros [<-|Hi]; auto.
    - auto.
  Qed.

  Lemma share_le s s' u :
    running s' u = running s u -> kerr s' u = kerr s u ->
    length (filter (mine u) (flagged s')) <= length (filter (mine u) (flagged s)) ->
    share s' u <= share s u.
  Proof.
    intros A B C. unfold share. rewrite A, B. destruct (running s u); auto. destruct (kerr s u) as [[]|]; auto. 
  Qed.

  Lemma potential_step s s' :
    owned s -> kstep ops threads s s' -> potential s <= calls s -> potential s' <= calls s'.
  Proof.
    intros [F L] H. unfold potential. destruct H as [s s' H|s].
    - destruct H as [s t p Ht Hr Hp|s t i rest Ht Hr Hc|s t Ht Hr Hc|s a b Hk|s a b r Hk].
      + (* start *)
        assert (E : total (share (started s t p)) <= total (share s)).
        { apply total_le. intros u Hu. unfold share. simpl. unfold upd. destruct (Nat.eqb_spec u t) as [->|]; auto.
          rewrite Hr. assert (En : filter (mine t) (flagged s) = []); [|now rewrite En].
          destruct (filter (mine t) (flagged s)) as [|r l] eqn:E; auto. exfalso.
          assert (Hi : In r (r :: l)) by now left. rewrite <- E in Hi. apply filter_In in Hi as [Hi Hn].
          apply Nat.eqb_eq in Hn. apply F in Hi. congruence. }
        unfold intkils. simpl. unfold intkils in *. lia.
      + assert (G : total (share (exec s t i rest)) + (if pend (exec s t i rest) then 1 else 0) <=
                    total (share s) + (if pend s then 1 else 0)).
        { apply total_upd with (t := t); auto.
          - intros u Hu. apply share_le.
            + destruct i; reflexivity.
            + destruct i; simpl; auto; try (destruct (pend s); auto; rewrite upd_diff by auto; auto);
                try (destruct (is_flagged s (t, i)); auto; rewrite upd_diff by auto; auto); rewrite upd_diff by auto; auto.
            + destruct i; simpl; auto; try apply filter_filter_le.
              destruct (pend s); auto. simpl. unfold mine at 1. simpl. destruct (Nat.eqb_spec t u); auto. congruence.
          - destruct i as [|i|i|i|i|n].
            + apply Nat.le_refl.
            + assert (share (exec s t (New i) rest) t <= share s t); [|simpl in *; lia].
              apply share_le; auto. apply filter_filter_le.
            + simpl. destruct (pend s) eqn:Ep; [|apply Nat.le_refl].
              unfold share. simpl. rewrite Hr, upd_same. destruct (kerr s t) as [[]|]; simpl; lia.
            + assert (share (exec s t (Reset i) rest) t <= share s t); [|simpl in *; lia].
              apply share_le; auto. apply filter_filter_le.
            + assert (share (exec s t (Free i) rest) t <= share s t); [|simpl in *; lia].
              destruct (is_flagged s (t, i)) eqn:Ef.
              * unfold share. simpl. rewrite Ef, Hr, upd_same. destruct (kerr s t) as [[]|] eqn:Ee; simpl; auto.
                apply flagged_spec in Ef.
                assert (Hi : In (t, i) (filter (mine t) (flagged s))).
                { apply filter_In. split; auto. apply Nat.eqb_refl. }
                destruct (filter (mine t) (flagged s)); [contradiction|simpl; lia].
              * apply share_le; auto; [simpl; now rewrite Ef|]. apply filter_filter_le.
            + unfold share. simpl. rewrite Hr, upd_same. destruct (kerr s t) as [[]|]; simpl; lia. }
        assert (C : calls (exec s t i rest) = calls s /\ reports (exec s t i rest) = reports s /\
                    killers (exec s t i rest) = killers s) by (destruct i; auto).
        destruct C as (C1 & C2 & C3). unfold intkils in *. rewrite C1, C2, C3. lia.
      + (* return *)
        assert (G : total (share (returned s t)) + (if by_request (kerr s t) then 1 else 0) <= total (share s) + 0).
        { apply total_upd with (t := t); auto.
          - intros u Hu. apply share_le; simpl; auto; [now rewrite upd_diff|]. apply filter_filter_le.
          - unfold share. simpl. rewrite upd_same, Hr. destruct (kerr s t) as [[]|]; simpl; lia. }
        unfold intkils in *. simpl. destruct (by_request (kerr s t)); simpl; lia.
      + rewrite Hk, app_length. unfold intkils. cbn [reports pend killers calls with_killers].
        assert (E : total (share (with_killers s (match tgt s with Some r => a ++ KWrite r :: b | None => a ++ b end))) =
                    total (share s)) by reflexivity.
        rewrite E. clear E. destruct (tgt s); rewrite app_length; simpl; lia.
      + intros Hp. unfold intkils in *. cbn [reports pend killers calls written]. rewrite Hk in Hp.
        rewrite app_length in *. cbn [length] in Hp. destruct (live s r) eqn:El.
        * assert (Hrt : fst r < threads \/ ~ fst r < threads) by lia. destruct Hrt as [Hrt|Hrt].
          -- assert (G : total (share (written s r (a ++ b))) + 0 <= total (share s) + 1).
             { apply total_upd with (t := fst r); auto.
               - intros u Hu. apply share_le; simpl; auto. try rewrite El. simpl.
                 assert (Em : mine u r = false) by (apply Nat.eqb_neq; auto). rewrite Em. auto.
               - unfold share. simpl. rewrite El. destruct (running s (fst r)); [|lia].
                 destruct (kerr s (fst r)) as [[]|]; simpl; try lia. unfold mine at 1. rewrite Nat.eqb_refl. simpl. lia. }
             lia.
          -- assert (G : total (share (written s r (a ++ b))) <= total (share s)).
             { apply total_le. intros u Hu. apply share_le; simpl; auto. try rewrite El. simpl.
               assert (Em : mine u r = false) by (apply Nat.eqb_neq; lia). rewrite Em. auto. }
             lia.
        * assert (E : total (share (written s r (a ++ b))) = total (share s)).
          { unfold total. f_equal. apply map_ext. intros u. unfold share, written. simpl. now rewrite El. }
          lia.
    - unfold intkils. cbn [reports pend killers calls requested].
      assert (E : total (share (requested s)) = total (share s)) by reflexivity. rewrite E.
      destruct (tgt s); simpl; destruct (pend s); lia.
  Qed.

  (** At most one operation is killed per request. *)
  Theorem C38_at_most_one_operation_per_request s :
    ksteps ops threads kinit s -> intkils s <= calls s.
  Proof.
    intros H. assert (G : owned s /\ potential s <= calls s).
    { refine (star_inv (fun s => owned s /\ potential s <= calls s) _ H _).
      - intros a b [A B] St. split; [eapply owned_step; eauto|eapply potential_step; eauto].
      - split; [split; simpl; intros; contradiction || discriminate|]. unfold potential, intkils. simpl.
        assert (E : total (share kinit) = 0).
        { unfold total. induction (seq 0 threads); simpl; auto. }
        rewrite E. auto. }
    destruct G as [_ G]. unfold potential in G. lia.
  Qed.
End AtMostOne.

(** An operation that raises no other error, and one that can be killed. *)
Definition clean (p : list instr) : Prop := forall n, ~ In (Raise n) p.
Definition waits (p : list instr) : Prop := exists i, In (Enable i) p.

Section Delivery.
  Variable ops : list instr -> Prop.
  Variable threads : nat.
  Hypothesis Hops : forall p, ops p -> clean p /\ waits p.

  (** A request that was made while nothing was waiting kills the next operation to do so, whether
      it is running already or is started later. *)
  Theorem C38_pending_request_is_delivered s s' :
    pend s = true -> killers s = [] -> flagged s = [] ->
    (forall t, running s t = true -> kerr s t = None /\ clean (code s t) /\ waits (code s t)) ->
    psteps ops threads s s' ->
    exists new, reports s' = new ++ reports s /\
      ((new = [] /\ pend s' = true) \/
       (exists t, running s' t = true /\ kerr s' t = Some INTKIL) \/
       (exists t n, In (t, n, Some INTKIL) new)).
  Proof.
    intros Hp Hk Hf Hr St.
    set (A := fun s' => reports s' = reports s /\ pend s' = true /\ killers s' = [] /\ flagged s' = [] /\
      (forall t, running s' t = true -> kerr s' t = None /\ clean (code s' t) /\ waits (code s' t))).
    set (B := fun s' => exists new, reports s' = new ++ reports s /\
       ((exists t, running s' t = true /\ kerr s' t = Some INTKIL) \/ (exists t n, In (t, n, Some INTKIL) new))).
    assert (G : A s' \/ B s').
    { refine (star_inv (fun s' => A s' \/ B s') _ St _); [|left; repeat split; auto; try apply Hr; auto].
      intros x y [(A1 & A2 & A3 & A4 & A5)|(new & B1 & B2)] H.
      - destruct H as [x t p Ht Hrt Hop|x t i rest Ht Hrt Hc|x t Ht Hrt Hc|x a b Hkk|x a b r Hkk].
        + left. unfold A. simpl. repeat (split; [solve [auto]|]). intros u. unfold upd. destruct (u =? t); auto.
        + destruct (A5 t Hrt) as (C1 & C2 & C3). rewrite Hc in C2, C3.
          assert (Hnext : (forall j, i <> Enable j) -> forall u, running x u = true ->
                    kerr x u = None /\ clean (upd (code x) t rest u) /\ waits (upd (code x) t rest u)).
          { intros Hi u Hu. destruct (A5 u Hu) as (D1 & D2 & D3). split; auto. unfold upd.
            destruct (u =? t); auto. split; [intros n Hn; apply (C2 n); now right|].
            destruct C3 as (j & [Hj|Hj]); [now apply Hi in Hj|exists j; auto]. }
          destruct i as [|i|i|i|i|n].
          * left. unfold A. simpl. repeat (split; [solve [auto]|]). apply Hnext. discriminate.
          * left. unfold A. simpl. rewrite A4. repeat (split; [solve [auto]|]). apply Hnext. discriminate.
          * right. exists []. split; auto. left. exists t. simpl. rewrite A2, upd_same, C1. auto.
          * left. unfold A. simpl. rewrite A4. repeat (split; [solve [auto]|]). apply Hnext. discriminate.
          * left. unfold A, is_flagged. simpl. unfold is_flagged. rewrite A4. simpl.
            repeat (split; [solve [auto]|]). apply Hnext. discriminate.
          * exfalso. apply (C2 n). now left.
        + destruct (A5 t Hrt) as (_ & _ & j & Hj). rewrite Hc in Hj. contradiction.
        + rewrite A3 in Hkk. destruct a; discriminate.
        + rewrite A3 in Hkk. destruct a; discriminate.
      - right. unfold B. destruct H as [x t p Ht Hrt Hop|x t i rest Ht Hrt Hc|x t Ht Hrt Hc|x a b Hkk|x a b r Hkk]; simpl.
        + exists new. split; auto. destruct B2 as [(u & U1 & U2)|B2]; auto. left. exists u.
          rewrite !upd_diff by congruence. auto.
        + exists new. split; [destruct i; auto|]. destruct B2 as [(u & U1 & U2)|B2]; auto. left. exists u.
          assert (Hraise : forall e, upd (kerr x) t (raised (kerr x t) e) u = Some INTKIL).
          { intros e. unfold upd. destruct (Nat.eqb_spec u t) as [->|]; auto. now rewrite U2. }
          destruct i; simpl; auto; [destruct (pend x)|destruct (is_flagged x (t, i))]; auto.
        + exists ((t, serial x t, kerr x t) :: new). rewrite B1. split; auto.
          destruct B2 as [(u & U1 & U2)|(u & n & U)]; [|right; exists u, n; now right].
          destruct (Nat.eq_dec u t) as [->|Hne].
          * right. exists t, (serial x t). rewrite U2. now left.
          * left. exists u. rewrite upd_diff by auto. auto.
        + exists new. auto.
        + exists new. auto. }
    destruct G as [(A1 & A2 & _)|(new & B1 & B2)].
    - exists []. split; auto.
    - exists new. split; auto.
  Qed.
End Delivery.

(** ** C36 *)

(** The routers are new when made, used before being freed, freed in the end and never reset.  [l] are
    the routers made before. *)
Fixpoint sound (l : list nat) (p : list instr) : bool :=
  match p with
  | [] => match l with [] => true | _ => false end
  | New i :: p => negb (existsb (Nat.eqb i) l) && sound (i :: l) p
  | Free i :: p => existsb (Nat.eqb i) l && sound (filter (fun j => negb (j =? i)) l) p
  | Enable i :: p => existsb (Nat.eqb i) l && sound l p
  | Reset _ :: _ => false
  | _ :: p => sound l p
  end.

Lemma mem_spec i l : existsb (Nat.eqb i) l = true <-> In i l.
Proof.
  rewrite existsb_exists. split.
  - intros (j & A & B). apply Nat.eqb_eq in B. now subst.
  - intros H. exists i. split; auto. apply Nat.eqb_refl.
Qed.

Section Reported.
  Variable ops : list instr -> Prop.
  Variable threads : nat.
  Hypothesis Hops : forall p, ops p -> sound [] p = true.

  Record tidy (s : kst) : Prop := mkTidy {
    ti_own : forall t, running s t = false -> forall i, live s (t, i) = false;
    ti_flag : forall r, In r (flagged s) -> live s r = true;
    ti_code : forall t, running s t = true ->
      exists l, (forall i, live s (t, i) = true <-> In i l) /\ sound l (code s t) = true;
    ti_serial : forall t n e, In (t, n, e) (reports s) -> n < serial s t
  }.

  Lemma tidy_step s s' : tidy s -> kstep ops threads s s' -> tidy s'.
  Proof.
    intros [T1 T2 T3 T4] H. destruct H as [s s' H|s]; [|split; auto].
    destruct H as [s t p Ht Hr Hp|s t c rest Ht Hr Hc|s t Ht Hr Hc|s a b Hk|s a b r Hk].
    - split; simpl; auto.
      + intros u. unfold upd. destruct (Nat.eqb_spec u t); auto. discriminate.
      + intros u. unfold upd. destruct (Nat.eqb_spec u t) as [->|]; auto. intros _. exists []. split; auto.
        intros i. rewrite (T1 t Hr). split; [discriminate|contradiction].
    - destruct (T3 t Hr) as (l & L1 & L2). rewrite Hc in L2.
      assert (Oth : forall u, u <> t -> running s u = true -> exists l, (forall i, live s (u, i) = true <-> In i l) /\
                 sound l (upd (code s) t rest u) = true).
      { intros u Hu Hru. rewrite upd_diff by auto. auto. }
      destruct c as [|i|i|i|i|n]; simpl in L2.
      + split; simpl; auto. intros u Hu. destruct (Nat.eq_dec u t) as [->|Hne]; auto. rewrite upd_same. eauto.
      + apply andb_true_iff in L2 as [L2 L3]. split; simpl; auto.
        * intros u Hu j. unfold updr. destruct (req (u, j) (t, i)) eqn:E; auto. apply req_spec in E. congruence.
        * intros r Hi. apply filter_In in Hi as [Hi _]. unfold updr. destruct (req r (t, i)); auto.
        * intros u Hu. destruct (Nat.eq_dec u t) as [->|Hne].
          -- rewrite upd_same. exists (i :: l). split; auto. intros j. unfold updr. simpl.
             destruct (req (t, j) (t, i)) eqn:E.
             ++ apply req_spec in E. inversion E; subst. tauto.
             ++ rewrite L1. split; auto. intros [->|]; auto. assert (req (t, j) (t, j) = true) by now apply req_spec. congruence.
          -- destruct (Oth u Hne Hu) as (l' & A & B). exists l'. split; auto. intros j. unfold updr.
             destruct (req (u, j) (t, i)) eqn:E; [apply req_spec in E; congruence|auto].
      + apply andb_true_iff in L2 as [L2 L3]. split; simpl; auto.
        * destruct (pend s); auto. intros r [<-|Hi]; auto. apply L1. now apply mem_spec.
        * intros u Hu. destruct (Nat.eq_dec u t) as [->|Hne]; auto. rewrite upd_same. eauto.
      + discriminate.
      + apply andb_true_iff in L2 as [L2 L3]. split; simpl; auto.
        * intros u Hu j. unfold updr. destruct (req (u, j) (t, i)); auto.
        * intros r Hi. apply filter_In in Hi as [Hi Hn]. unfold updr. destruct (req r (t, i)); auto.
        * intros u Hu. destruct (Nat.eq_dec u t) as [->|Hne].
          -- rewrite upd_same. eexists. split; [|exact L3]. intros j. unfold updr. rewrite filter_In.
             destruct (Nat.eqb_spec j i) as [->|Hj].
             ++ assert (E : req (t, i) (t, i) = true) by now apply req_spec. rewrite E. simpl. split; [discriminate|intros []; discriminate].
             ++ destruct (req (t, j) (t, i)) eqn:E; [apply req_spec in E; congruence|]. rewrite L1. simpl. tauto.
          -- destruct (Oth u Hne Hu) as (l' & A & B). exists l'. split; auto. intros j. unfold updr.
             destruct (req (u, j) (t, i)) eqn:E; [apply req_spec in E; congruence|auto].
      + split; simpl; auto. intros u Hu. destruct (Nat.eq_dec u t) as [->|Hne]; auto. rewrite upd_same. eauto.
    - split; simpl.
      + intros u. unfold upd. destruct (Nat.eqb_spec u t); auto.
      + intros r Hi. apply filter_In in Hi as [Hi Hn]. destruct (fst r =? t); auto.
      + intros u Hu. unfold upd in Hu. destruct (Nat.eqb_spec u t); [discriminate|auto].
      + intros u n e [Hi|Hi].
        * inversion Hi; subst. rewrite upd_same. lia.
        * apply T4 in Hi. unfold upd. destruct (Nat.eqb_spec u t) as [->|]; lia.
    - split; simpl; auto.
    - split; simpl; auto. destruct (live s r) eqn:El; auto. intros r' [<-|Hi]; auto.
  Qed.

  Lemma tidy_init : tidy kinit.
  Proof. split; simpl; auto; try discriminate; contradiction. Qed.

  Theorem C36_effective_request_is_reported s s' t i e :
    ksteps ops threads kinit s -> ksteps ops threads s s' ->
    In (t, i) (flagged s) -> In (t, serial s t, e) (reports s') ->
    e <> None /\ ((forall p, ops p -> clean p) -> e = Some INTKIL).
  Proof.
    intros H1 H2 Hf He. set (n := serial s t) in *.
    assert (T : tidy s) by (refine (star_inv tidy _ H1 tidy_init); apply tidy_step).
    assert (Hcl : (forall p, ops p -> clean p) -> e = None \/ e = Some INTKIL).
    { intros Hcl.
      set (C := fun x => (forall u, running x u = true -> clean (code x u) /\ (kerr x u = None \/ kerr x u = Some INTKIL)) /\
                 forall u m e, In (u, m, e) (reports x) -> e = None \/ e = Some INTKIL).
      assert (G : C s'); [|destruct G as [_ G]; eapply G; eauto].
      refine (star_inv C _ (star_trans H1 H2) _); [|split; simpl; [discriminate|contradiction]].
      intros x y [C1 C2] H. destruct H as [x y H|x]; [|split; auto].
      destruct H as [x u p Ht Hr Hp|x u c rest Ht Hr Hc|x u Ht Hr Hc|x a b Hk|x a b r Hk]; split; simpl; auto.
      - intros v. unfold upd. destruct (Nat.eqb_spec v u); auto.
      - intros v Hv. destruct (C1 u Hr) as [D1 D2]. rewrite Hc in D1.
        assert (D3 : clean rest) by (intros k Hk; apply (D1 k); now right).
        assert (E1 : running x v = true) by (destruct c; auto). destruct (C1 v E1) as [F1 F2].
        assert (Hra : upd (kerr x) u (raised (kerr x u) INTKIL) v = None \/ upd (kerr x) u (raised (kerr x u) INTKIL) v = Some INTKIL).
        { unfold upd. destruct (v =? u); auto. destruct D2 as [->| ->]; simpl; auto. }
        split.
        + assert (Ec : code (exec x u c rest) v = upd (code x) u rest v) by (destruct c; reflexivity). rewrite Ec.
          unfold upd. destruct (v =? u); auto.
        + destruct c; simpl; auto.
          * destruct (pend x); auto.
          * destruct (is_flagged x (u, i0)); auto.
          * exfalso. apply (D1 n0). now left.
      - intros v m e0. assert (Er : reports (exec x u c rest) = reports x) by (destruct c; reflexivity). rewrite Er. eauto.
      - intros v Hv. unfold upd in Hv. destruct (v =? u); [discriminate|auto].
      - intros v m e0 [Hi|Hi]; eauto. inversion Hi; subst. apply C1. auto. }
    assert (G : e <> None); [|split; auto; intros Hc; destruct (Hcl Hc); congruence].
    set (Q := fun x => tidy x /\
      ((running x t = true /\ serial x t = n /\ (kerr x t <> None \/ exists i, In (t, i) (flagged x))) \/
       (n < serial x t /\ forall e, In (t, n, e) (reports x) -> e <> None))).
    assert (G : Q s').
    { refine (star_inv Q _ H2 _).
      2:{ split; auto. left. split; [|split; [reflexivity|eauto]]. apply (ti_flag T) in Hf.
          destruct (running s t) eqn:E; auto. rewrite (ti_own T t E) in Hf. discriminate. }
      intros x y [Tx Hx] H. split; [eapply tidy_step; eauto|].
      destruct H as [x y H|x]; [|exact Hx].
      destruct H as [x u p Ht Hr Hp|x u c rest Ht Hr Hc|x u Ht Hr Hc|x a b Hk|x a b r Hk]; simpl.
      - destruct Hx as [(A & B & C)|D]; auto. left. rewrite !upd_diff by congruence. auto.
      - destruct Hx as [(A & B & C)|[D1 D2]].
        + left. split; [destruct c; auto|]. split; [destruct c; auto|].
          assert (Hup : forall e, kerr x t <> None -> upd (kerr x) u (raised (kerr x u) e) t <> None).
          { intros e0 Hn. unfold upd. destruct (Nat.eqb_spec t u) as [->|]; auto. destruct (kerr x u); simpl; congruence. }
          destruct C as [C|(j & Hj)].
          * left. destruct c; simpl; auto; [destruct (pend x)|destruct (is_flagged x (u, i0))]; auto.
          * destruct (Nat.eq_dec u t) as [->|Hne].
            -- destruct (ti_code Tx t Hr) as (l & L1 & L2). rewrite Hc in L2.
               assert (Hlj : In j l) by (apply L1, (ti_flag Tx); auto).
               destruct c as [|k|k|k|k|m]; simpl in L2 |- *; eauto.
               ++ right. exists j. apply filter_In. split; auto. apply andb_true_iff in L2 as [L2 _].
                  apply negb_true_iff. destruct (req (t, j) (t, k)) eqn:E; auto. apply req_spec in E. inversion E; subst.
                  apply mem_spec in Hlj. rewrite Hlj in L2. discriminate.
               ++ destruct (pend x); eauto. right. exists j. now right.
               ++ discriminate.
               ++ destruct (req (t, j) (t, k)) eqn:E.
                  ** apply req_spec in E. inversion E; subst. left.
                     assert (Ef : is_flagged x (t, k) = true) by now apply flagged_spec.
                     rewrite Ef, upd_same. destruct (kerr x t); simpl; congruence.
                  ** right. exists j. apply filter_In. split; auto. now rewrite E.
            -- right. exists j. assert (Hjk : forall k, negb (req (t, j) (u, k)) = true).
               { intros k. apply negb_true_iff. destruct (req (t, j) (u, k)) eqn:E; auto. apply req_spec in E. congruence. }
               destruct c; simpl; auto; try (apply filter_In; auto). destruct (pend x); simpl; auto.
        + right. assert (E1 : serial (exec x u c rest) = serial x) by (destruct c; reflexivity).
          assert (E2 : reports (exec x u c rest) = reports x) by (destruct c; reflexivity). rewrite E1, E2. auto.
      - destruct Hx as [(A & B & C)|[D1 D2]].
        + destruct (Nat.eq_dec u t) as [->|Hne].
          * right. rewrite upd_same. split; [lia|]. rewrite B. intros e0 [Hi|Hi].
            -- inversion Hi; subst. destruct C as [C|(j & Hj)]; auto. exfalso.
               destruct (ti_code Tx t Hr) as (l & L1 & L2). rewrite Hc in L2. apply (ti_flag Tx) in Hj. apply L1 in Hj.
               destruct l; [contradiction|discriminate].
            -- apply (ti_serial Tx) in Hi. lia.
          * left. rewrite !upd_diff by auto. split; auto. split; auto. destruct C as [C|(j & Hj)]; auto. right. exists j.
            apply filter_In. split; auto. apply negb_true_iff. apply Nat.eqb_neq; simpl; auto.
        + right. split.
          * unfold upd. destruct (Nat.eqb_spec t u) as [->|]; lia.
          * intros e0 [Hi|Hi]; auto. inversion Hi; subst. lia.
      - exact Hx.
      - destruct Hx as [(A & B & C)|D]; auto. left. split; auto. split; auto. destruct C as [C|(j & Hj)]; auto.
        right. exists j. destruct (live x r); simpl; auto. }
    destruct G as [Ts [(A & B & C)|[D1 D2]]]; auto.
    apply (ti_serial Ts) in He. lia.
  Qed.
End Reported.

(** ** Executions *)
Inductive event := EStart (t : nat) (p : list instr) | EStep (t : nat) | EKill | EKiller.

Section Play.
  Variable threads : nat.
  (** The first of the killers moves, if told so. *)
  Definition play1 (s : kst) (e : event) : option kst :=
    match e with
    | EStart t p => if (t <? threads) && negb (running s t) then Some (started s t p) else None
    | EStep t =>
        if (t <? threads) && running s t then
          Some (match code s t with [] => returned s t | i :: rest => exec s t i rest end)
        else None
    | EKill => Some (requested s)
    | EKiller =>
        match killers s with
        | [] => None
        | KRead :: b => Some (with_killers s (match tgt s with Some r => KWrite r :: b | None => b end))
        | KWrite r :: b => Some (written s r b)
        end
    end.
  Fixpoint play (s : kst) (l : list event) : option kst :=
    match l with [] => Some s | e :: l => match play1 s e with Some s' => play s' l | None => None end end.

  Definition is_kill (e : event) : bool := match e with EKill => true | _ => false end.
  Definition starts (ops : list instr -> Prop) (l : list event) : Prop := forall t p, In (EStart t p) l -> ops p.

  Lemma play1_step (ops : list instr -> Prop) s e s' :
    (forall t p, e = EStart t p -> ops p) -> play1 s e = Some s' ->
    if is_kill e then s' = requested s else pstep ops threads s s'.
  Proof.
    intros Ho H. destruct e as [t p|t| |]; simpl in *.
    - destruct (Nat.ltb_spec t threads); simpl in H; [|discriminate]. destruct (running s t) eqn:E; [discriminate|].
      inversion H. apply k_start; eauto.
    - destruct (Nat.ltb_spec t threads); simpl in H; [|discriminate]. destruct (running s t) eqn:E; [|discriminate].
      inversion H. destruct (code s t) eqn:Ec; [apply k_return|apply k_exec]; auto.
    - now inversion H.
    - destruct (killers s) as [|[|r] b] eqn:E; [discriminate| |]; inversion H.
      + apply (@k_read ops threads s [] b E).
      + apply (@k_write ops threads s [] b r E).
  Qed.

  Lemma play_ksteps (ops : list instr -> Prop) l : forall s s',
    starts ops l -> play s l = Some s' -> ksteps ops threads s s'.
  Proof.
    induction l as [|e l IH]; simpl; intros s s' Ho H; [inversion H; apply star_refl|].
    destruct (play1 s e) as [s1|] eqn:E; [|discriminate].
    apply star_trans with (s2 := s1); [|apply IH; auto; intros t p Hi; apply (Ho t p); now right].
    eapply star_step; [apply star_refl|]. apply play1_step with (ops := ops) in E.
    - destruct (is_kill e); [subst; apply k_request|now apply k_other].
    - intros t p ->. apply (Ho t p). now left.
  Qed.

  Lemma play_psteps (ops : list instr -> Prop) l : forall s s',
    starts ops l -> existsb is_kill l = false -> play s l = Some s' -> psteps ops threads s s'.
  Proof.
    induction l as [|e l IH]; simpl; intros s s' Ho Hk H; [inversion H; apply star_refl|].
    destruct (play1 s e) as [s1|] eqn:E; [|discriminate]. apply orb_false_iff in Hk as [Hk1 Hk2].
    apply star_trans with (s2 := s1); [|apply IH; auto; intros t p Hi; apply (Ho t p); now right].
    eapply star_step; [apply star_refl|]. apply play1_step with (ops := ops) in E.
    - now rewrite Hk1 in E.
    - intros t p ->. apply (Ho t p). now left.
  Qed.

  Definition played (s : kst) (l : list event) : kst := match play s l with Some s' => s' | None => s end.
  Definition plays (s : kst) (l : list event) : bool := match play s l with Some _ => true | None => false end.
  Lemma played_eq s l : plays s l = true -> play s l = Some (played s l).
  Proof. unfold plays, played. destruct (play s l); [auto|discriminate]. Qed.
End Play.

Fixpoint starts_only (p : list instr) (l : list event) : Prop :=
  match l with [] => True | EStart _ q :: l => q = p /\ starts_only p l | _ :: l => starts_only p l end.
Lemma starts_only_spec p l : starts_only p l -> starts (eq p) l.
Proof.
  intros H t q Hi. induction l as [|e l IH]; [contradiction|]. destruct Hi as [->|Hi].
  - destruct H. auto.
  - apply IH; auto. destruct e; simpl in H; tauto.
Qed.

Lemma played_ksteps threads p s l :
  starts_only p l -> plays threads s l = true -> ksteps (eq p) threads s (played threads s l).
Proof. intros A B. eapply play_ksteps; [apply starts_only_spec; exact A|now apply played_eq]. Qed.
Lemma played_psteps threads p s l :
  starts_only p l -> existsb is_kill l = false -> plays threads s l = true -> psteps (eq p) threads s (played threads s l).
Proof. intros A B C. eapply play_psteps; [apply starts_only_spec; exact A|auto|now apply played_eq]. Qed.

Lemma play_app threads a b s : play threads s (a ++ b) = match play threads s a with Some s' => play threads s' b | None => None end.
Proof. revert s. induction a as [|e a IH]; simpl; auto. intros s. destruct (play1 threads s e); auto. Qed.
Lemma played_app threads a b s :
  plays threads s a = true -> played threads (played threads s a) b = played threads s (a ++ b) \/ plays threads s (a ++ b) = false.
Proof.
  intros H. unfold plays, played in *. rewrite play_app. destruct (play threads s a) as [s1|]; [|discriminate].
  destruct (play threads s1 b); auto.
Qed.
Lemma played_more threads p a b s :
  starts_only p b -> existsb is_kill b = false -> plays threads s a = true -> plays threads s (a ++ b) = true ->
  psteps (eq p) threads (played threads s a) (played threads s (a ++ b)).
Proof.
  intros A B C D. destruct (played_app threads a b s C) as [<-|]; [|congruence].
  apply played_psteps; auto. unfold plays, played in *. rewrite play_app in D. destruct (play threads s a); [|discriminate].
  exact D.
Qed.

Definition steps (t n : nat) : list event := repeat (EStep t) n.

(** *** Examples *)

(** The request takes effect in the pass. *)
Definition during : list event := EStart 0 single_pass :: steps 0 3 ++ [EKill; EKiller; EKiller].
Example C36_effective_request_is_reported_ex :
  let s := played 1 kinit during in let s' := played 1 s (steps 0 3) in
  sound [] single_pass = true /\ clean single_pass /\
  ksteps (eq single_pass) 1 kinit s /\ ksteps (eq single_pass) 1 s s' /\
  In (0, 0) (flagged s) /\ reports s' = [(0, 0, Some INTKIL)].
Proof.
  split; [reflexivity|]. split; [intros n H; simpl in H; intuition discriminate|].
  split; [apply played_ksteps; [simpl; auto|reflexivity]|].
  split; [apply played_ksteps; [simpl; auto|reflexivity]|].
  split; [vm_compute; auto|reflexivity].
Qed.

(** The request is made before the pass begins. *)
Example C38_pending_request_is_delivered_ex :
  let s := played 1 kinit (EStart 0 single_pass :: steps 0 2 ++ [EKill]) in let s' := played 1 s (steps 0 4) in
  pend s = true /\ killers s = [] /\ flagged s = [] /\ kerr s 0 = None /\ waits (code s 0) /\
  psteps (eq single_pass) 1 s s' /\ reports s' = [(0, 0, Some INTKIL)] /\ intkils s' = 1 /\ calls s' = 1.
Proof.
  split; [reflexivity|]. split; [reflexivity|]. split; [reflexivity|]. split; [reflexivity|].
  split; [exists 0; vm_compute; auto|].
  split; [apply played_psteps; [simpl; auto|reflexivity|reflexivity]|].
  repeat split; reflexivity.
Qed.

(** *** What fails *)

(** A request that takes effect in a pass other than the last one with the same router, and doesn't
    take effect any more in the end *)
Theorem C36_request_in_earlier_pass_refuted :
  exists s s',
    ksteps (eq double_pass) 1 kinit s /\ ksteps (eq double_pass) 1 s s' /\
    In (0, 0) (flagged s) /\ running s 0 = true /\ serial s 0 = 0 /\ In (0, 0, None) (reports s').
Proof.
  set (s := played 1 kinit (EStart 0 double_pass :: steps 0 3 ++ [EKill; EKiller; EKiller])). exists s, (played 1 s (steps 0 6)).
  split; [apply played_ksteps; [simpl; auto|reflexivity]|].
  split; [apply played_ksteps; [simpl; auto|reflexivity]|].
  repeat split; vm_compute; auto.
Qed.

(** A request made while the operation waits for its only pass to finish, and lost because the
    operation stops waiting before the second access to the switch *)
Theorem C36_request_lost_in_race_refuted :
  exists s s',
    ksteps (eq single_pass) 1 kinit s /\ tgt s = Some (0, 0) /\ running s 0 = true /\
    psteps (eq single_pass) 1 (requested s) s' /\ killers s' = [] /\ pend s' = false /\ reports s' = [(0, 0, None)].
Proof.
  set (s := played 1 kinit (EStart 0 single_pass :: steps 0 3)). exists s, (played 1 (requested s) (EStep 0 :: EKiller :: steps 0 2)).
  split; [apply played_ksteps; [simpl; auto|reflexivity]|].
  split; [reflexivity|]. split; [reflexivity|].
  split; [apply played_psteps; [simpl; auto|reflexivity|reflexivity]|].
  repeat split; reflexivity.
Qed.

(** A request made after the only operation has finished kills the next one. *)
Theorem C37_late_request_kills_the_next_operation_refuted :
  exists s s',
    ksteps (eq single_pass) 1 kinit s /\ calls s = 0 /\ (forall t, running s t = false) /\ reports s = [(0, 0, None)] /\
    psteps (eq single_pass) 1 (requested s) s' /\ reports s' = [(0, 1, Some INTKIL); (0, 0, None)].
Proof.
  set (s := played 1 kinit (EStart 0 single_pass :: steps 0 6)). exists s, (played 1 (requested s) (EStart 0 single_pass :: steps 0 6)).
  split; [apply played_ksteps; [simpl; auto|reflexivity]|].
  split; [reflexivity|]. split; [intros [|t]; reflexivity|]. split; [reflexivity|].
  split; [apply played_psteps; [simpl; auto|reflexivity|reflexivity]|].
  reflexivity.
Qed.

(** A request made in time writes to the router after it was freed. *)
Theorem C37_write_to_freed_router_refuted :
  exists s, ksteps (eq single_pass) 1 kinit s /\ calls s = 1 /\ reports s = [(0, 0, None)] /\ stray s = true.
Proof.
  exists (played 1 kinit (EStart 0 single_pass :: steps 0 3 ++ [EKill; EKiller] ++ steps 0 3 ++ [EKiller])).
  split; [apply played_ksteps; [simpl; auto|reflexivity]|].
  repeat split; reflexivity.
Qed.

(** Two operations use the same kill switch.  The last one to which it was passed is in its only pass
    when the request is made, but is not killed. *)
Theorem C55_last_operation_is_killable_refuted :
  exists s s',
    ksteps (eq single_pass) 2 kinit s /\ running s 0 = true /\ running s 1 = true /\
    (exists s0, ksteps (eq single_pass) 2 kinit s0 /\ running s0 0 = true /\ running s0 1 = false /\
       psteps (eq single_pass) 2 s0 s) /\
    code s 1 = [Disable; Free 0] /\
    psteps (eq single_pass) 2 (requested s) s' /\ In (1, 0, None) (reports s').
Proof.
  set (s := played 2 kinit (EStart 0 single_pass :: steps 0 3 ++ EStart 1 single_pass :: steps 1 3 ++ [EStep 0])). exists s, (played 2 (requested s) (steps 1 3)).
  split; [apply played_ksteps; [simpl; auto|reflexivity]|].
  split; [reflexivity|]. split; [reflexivity|].
  split.
  { exists (played 2 kinit (EStart 0 single_pass :: steps 0 3)).
    split; [apply played_ksteps; [simpl; auto|reflexivity]|].
    split; [reflexivity|]. split; [reflexivity|].
    apply (@played_more 2 single_pass (EStart 0 single_pass :: steps 0 3) (EStart 1 single_pass :: steps 1 3 ++ [EStep 0]) kinit);
      [simpl; auto|reflexivity|reflexivity|reflexivity]. }
  split; [reflexivity|].
  split; [apply played_psteps; [simpl; auto|reflexivity|reflexivity]|].
  vm_compute. auto.
Qed.
