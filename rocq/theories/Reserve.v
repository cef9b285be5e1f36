(** Allocation and retirement of packets: src/pack.c. *)
From Coq Require Import List Arith NArith Lia Bool Permutation.
From Verif Require Import Base.
Import ListNotations.

Set Implicit Arguments.

(** src/pack.c:41 *)
Definition RESERVE_PACKET_LIMIT : nat := 256.

Section Reserve.
(** The limit above. *)
Variable limit : nat.

(** Packets are numbered by their addresses.  Steps are critical sections of threads under
    [packet_lock], or calls of _cru_malloc and _cru_free. *)
Record pool := mkPool {
  inuse : list nat;               (* handed out and not yet retired *)
  reserve : list nat;             (* reserve_packets *)
  count : nat;                    (* packet_count *)
  pend : nat -> option nat;       (* per thread: a packet between lines 229 and 231 *)
  heap : list nat;                (* ghost: packets obtained from malloc and not freed *)
  failed : bool                   (* an internal error was raised *)
}.
Definition empty_pool : pool := mkPool [] [] 0 (fun _ => None) [] false.

Inductive op :=
| Malloc (i a : nat)              (* src/pack.c:118, _cru_malloc succeeds *)
| Dip (i : nat)                   (* 118-122, it does not *)
| Retire (i a : nat)              (* 226-229: the test for an adequate reserve, and 237 *)
| Put (i : nat)                   (* 231-235 *)
| Replenish (i : nat) (l : list nat). (* 268-289, l are the results of _cru_malloc until it failed or enough *)

Definition memb (a : nat) (l : list nat) : bool := existsb (Nat.eqb a) l.
Definition remove1 (a : nat) : list nat -> list nat :=
  fix f l := match l with [] => [] | b :: l' => if b =? a then l' else b :: f l' end.

(** malloc returns distinct addresses that are not allocated *)
Fixpoint fresh (l h : list nat) : bool :=
  match l with [] => true | a :: l' => negb (memb a h) && fresh l' (a :: h) end.

(** The outcome of an operation by one of [threads] threads: the packet handed out, if any, and the
    new state; or None if the operation is not possible.  Only packets in use are retired; users
    of the library's internals do not retire a packet twice. *)
Definition perform (threads : nat) (s : pool) (o : op) : option (option nat * pool) :=
  match o with
  | Malloc i a =>
      match pend s i with
      | None => if (i <? threads) && negb (memb a (heap s))
                then Some (Some a, mkPool (a :: inuse s) (reserve s) (count s) (pend s) (a :: heap s) (failed s)) else None
      | Some _ => None
      end
  | Dip i =>
      match pend s i with
      | None =>
          if i <? threads then
            match reserve s with
            | [] => Some (None, s)
            | a :: r => if count s =? 0 then Some (None, mkPool (inuse s) (reserve s) (count s) (pend s) (heap s) true)
                        else Some (Some a, mkPool (a :: inuse s) r (count s - 1) (pend s) (heap s) (failed s))
            end
          else None
      | Some _ => None
      end
  | Retire i a =>
      match pend s i with
      | None =>
          if (i <? threads) && memb a (inuse s) then
            if limit <=? count s
            then Some (None, mkPool (remove1 a (inuse s)) (reserve s) (count s) (pend s) (remove1 a (heap s)) (failed s))
            else Some (None, mkPool (remove1 a (inuse s)) (reserve s) (count s) (upd (pend s) i (Some a)) (heap s) (failed s))
          else None
      | Some _ => None
      end
  | Put i =>
      match pend s i with
      | Some a => if i <? threads
                  then Some (None, mkPool (inuse s) (a :: reserve s) (count s + 1) (upd (pend s) i None) (heap s) (failed s))
                  else None
      | None => None
      end
  | Replenish i l =>
      match pend s i with
      | None => if (i <? threads) && fresh l (heap s) && (length l <=? limit - count s)
                then Some (None, mkPool (inuse s) (rev l ++ reserve s) (count s + length l) (pend s) (l ++ heap s) (failed s))
                else None
      | Some _ => None
      end
  end.

(** A history from the start of the process, with the packets handed out. *)
Fixpoint history (threads : nat) (s : pool) (h : list op) : option (list nat * pool) :=
  match h with
  | [] => Some ([], s)
  | o :: h' =>
      match perform threads s o with
      | None => None
      | Some (r, s') => match history threads s' h' with
                        | None => None
                        | Some (l, s'') => Some (match r with Some a => a :: l | None => l end, s'')
                        end
      end
  end.

(** ** Proofs *)
Definition pending (threads : nat) (s : pool) : list nat :=
  flat threads (fun i => match pend s i with Some a => [a] | None => [] end).

Definition held (threads : nat) (s : pool) : list nat := inuse s ++ reserve s ++ pending threads s.

Lemma memb_in a l : memb a l = true <-> In a l.
Proof.
  unfold memb. rewrite existsb_exists. split.
  - intros (b & Hb & E). apply Nat.eqb_eq in E. now subst.
  - intros H. exists a. split; auto. apply Nat.eqb_refl.
Qed.
Lemma memb_not_in a l : memb a l = false <-> ~ In a l.
Proof. rewrite <- memb_in. destruct (memb a l); split; congruence. Qed.

Lemma remove1_perm a l : In a l -> Permutation l (a :: remove1 a l).
Proof.
  induction l as [|b l IH]; simpl; intros H; [contradiction|].
  destruct (Nat.eqb_spec b a) as [->|Hn]; auto. destruct H as [H|H]; [congruence|].
  rewrite (IH H) at 1. apply perm_swap.
Qed.

Lemma fresh_nodup l : forall h, NoDup h -> fresh l h = true -> NoDup (l ++ h).
Proof.
  induction l as [|a l IH]; simpl; intros h Hh H; auto.
  apply andb_true_iff in H as [H1 H2]. apply negb_true_iff, memb_not_in in H1.
  assert (N : NoDup (l ++ a :: h)) by (apply IH; auto; now constructor).
  eapply Permutation_NoDup; [|exact N]. symmetry. apply Permutation_middle.
Qed.

Record good (threads : nat) (s : pool) : Prop := {
  g_held : Permutation (heap s) (held threads s);
  g_nodup : NoDup (heap s);
  g_count : count s = length (reserve s);
  g_ok : failed s = false;
  g_pend : forall i, threads <= i -> pend s i = None;
  g_limit : count s + length (pending threads s) < limit + threads
}.

Lemma pending_set threads s i a p r c h f :
  i < threads -> pend s i = None ->
  Permutation (pending threads (mkPool p r c (upd (pend s) i (Some a)) h f)) (a :: pending threads s).
Proof.
  intros Hi Hp. unfold pending. simpl.
  destruct (flat_split (fun j => match pend s j with Some a => [a] | None => [] end) Hi) as (R & H1 & H2).
  rewrite H1. rewrite Hp. simpl.
  erewrite flat_ext; [exact (H2 [a])|]. intros j Hj. unfold upd. destruct (j =? i); auto.
Qed.

Lemma pending_clear threads s i a p r c h f :
  i < threads -> pend s i = Some a ->
  Permutation (pending threads s) (a :: pending threads (mkPool p r c (upd (pend s) i None) h f)).
Proof.
  intros Hi Hp. unfold pending. simpl.
  destruct (flat_split (fun j => match pend s j with Some a => [a] | None => [] end) Hi) as (R & H1 & H2).
  rewrite H1. rewrite Hp. simpl. apply perm_skip. symmetry.
  erewrite flat_ext; [exact (H2 [])|]. intros j Hj. unfold upd. destruct (j =? i); auto.
Qed.

Lemma pending_le threads s i : i < threads -> pend s i = None -> length (pending threads s) < threads.
Proof.
  unfold pending. intros Hi Hp.
  assert (L : forall n, length (flat n (fun i => match pend s i with Some a => [a] | None => [] end)) <= n).
  { induction n; simpl; auto. rewrite app_length. destruct (pend s n); simpl; lia. }
  induction threads as [|n IH]; [lia|]. simpl. rewrite app_length.
  destruct (Nat.eq_dec i n) as [->|].
  - rewrite Hp. simpl. specialize (L n). lia.
  - specialize (IH ltac:(lia)). destruct (pend s n); simpl; lia.
Qed.

Lemma perform_good threads s o r s' :
  good threads s -> perform threads s o = Some (r, s') ->
  good threads s' /\ (forall a, r = Some a -> ~ In a (inuse s) /\ In a (inuse s')).
Proof.
  intros [H1 H2 H3 H4 H5 H6] H.
  destruct o as [i a|i|i a|i|i l]; simpl in H.
  - destruct (pend s i) eqn:Ep; [discriminate|]. destruct ((i <? threads) && negb (memb a (heap s))) eqn:Et; [|discriminate].
    apply andb_true_iff in Et as [Ei Em]. apply negb_true_iff, memb_not_in in Em. inversion H; subst; clear H. split.
    + split; cbn [inuse reserve count pend heap failed]; auto.
      * unfold held in *. simpl. now apply perm_skip.
      * now constructor.
    + intros b E. inversion E; subst. split; [|simpl; auto]. intros Hb. apply Em.
      eapply Permutation_in; [symmetry; exact H1|]. apply in_or_app; auto.
  - destruct (pend s i) eqn:Ep; [discriminate|]. destruct (i <? threads) eqn:Et; [|discriminate].
    destruct (reserve s) as [|a r0] eqn:Er.
    + inversion H; subst. split; [split; auto; rewrite Er; auto|]. intros a E. discriminate.
    + destruct (Nat.eqb_spec (count s) 0) as [E0|E0]; [simpl in H3; lia|].
      inversion H; subst; clear H. split.
      * split; cbn [inuse reserve count pend heap failed]; auto.
        -- etransitivity; [exact H1|]. unfold held. rewrite Er. simpl. symmetry. apply Permutation_middle.
        -- simpl in H3. lia.
        -- change (pending threads _) with (pending threads s). lia.
      * intros b E. inversion E; subst. split; [|simpl; auto]. intros Hb.
        apply (Permutation_NoDup H1) in H2. unfold held in H2. rewrite Er in H2. simpl in H2.
        apply NoDup_remove_2 in H2. apply H2. apply in_or_app; auto.
  - destruct (pend s i) eqn:Ep; [discriminate|]. destruct ((i <? threads) && memb a (inuse s)) eqn:Et; [|discriminate].
    apply andb_true_iff in Et as [Ei Em]. apply Nat.ltb_lt in Ei. apply memb_in in Em. pose proof (remove1_perm _ _ Em) as Pr.
    destruct (Nat.leb_spec limit (count s)) as [El|El]; inversion H; subst; clear H;
      (split; [|intros b E; discriminate]).
    + assert (Hh : In a (heap s)) by (eapply Permutation_in; [symmetry; exact H1|]; apply in_or_app; auto).
      pose proof (remove1_perm _ _ Hh) as Ph.
      split; cbn [inuse reserve count pend heap failed]; auto.
      * apply Permutation_cons_inv with (a := a). etransitivity; [symmetry; exact Ph|]. etransitivity; [exact H1|]. unfold held. simpl.
        apply (Permutation_app_tail (reserve s ++ pending threads s) Pr).
      * eapply Permutation_NoDup in H2; [|exact Ph]. now inversion H2.
    + pose proof (@pending_set threads s i a (remove1 a (inuse s)) (reserve s) (count s) (heap s) (failed s) Ei Ep) as Pp.
      pose proof (@pending_le threads s i Ei Ep) as Lp.
      split; cbn [inuse reserve count pend heap failed]; auto.
      * etransitivity; [exact H1|]. unfold held. simpl. rewrite Pp. rewrite Pr at 1. simpl.
        rewrite (app_assoc (remove1 a (inuse s)) (reserve s) (a :: pending threads s)).
        rewrite <- Permutation_middle. now rewrite <- app_assoc.
      * intros j Hj. rewrite upd_diff by lia. auto.
      * rewrite (Permutation_length Pp). simpl. lia.
  - destruct (pend s i) as [a|] eqn:Ep; [|discriminate]. destruct (Nat.ltb_spec i threads) as [Ei|Ei]; [|discriminate].
    inversion H; subst; clear H. split; [|intros b E; discriminate].
    pose proof (@pending_clear threads s i a (inuse s) (a :: reserve s) (count s + 1) (heap s) (failed s) Ei Ep) as Pp.
    split; cbn [inuse reserve count pend heap failed]; auto; try (simpl; lia).
    + etransitivity; [exact H1|]. unfold held. rewrite Pp at 1. simpl. apply Permutation_app_head. rewrite <- Permutation_middle. reflexivity.
    + intros j Hj. rewrite upd_diff by lia. auto.
    + rewrite (Permutation_length Pp) in H6. simpl in H6. lia.
  - destruct (pend s i) eqn:Ep; [discriminate|].
    destruct ((i <? threads) && fresh l (heap s) && (length l <=? limit - count s)) eqn:Et; [|discriminate].
    apply andb_true_iff in Et as [Et El]. apply andb_true_iff in Et as [Ei Ef]. apply Nat.ltb_lt in Ei. apply Nat.leb_le in El.
    inversion H; subst; clear H. split; [|intros b E; discriminate]. pose proof (@pending_le threads s i Ei Ep) as Lp.
    split; cbn [inuse reserve count pend heap failed]; auto.
    + etransitivity; [apply Permutation_app_head; exact H1|]. unfold held. cbn [inuse reserve].
      change (pending threads (mkPool _ _ _ _ _ _)) with (pending threads s).
      rewrite <- app_assoc. rewrite <- (Permutation_rev l). apply Permutation_app_swap_app.
    + now apply fresh_nodup.
    + rewrite app_length, rev_length. lia.
    + change (pending threads _) with (pending threads s). destruct (length l); lia.
Qed.

Lemma empty_good threads : 0 < threads -> good threads empty_pool.
Proof.
  intros H. assert (E : pending threads empty_pool = []) by (apply flat_nil; auto).
  split; cbn [inuse reserve count pend heap failed]; auto.
  - unfold held. rewrite E. auto.
  - constructor.
  - rewrite E. simpl. lia.
Qed.

Lemma history_good threads h : forall s l s', good threads s -> history threads s h = Some (l, s') -> good threads s'.
Proof.
  induction h as [|o h IH]; simpl; intros s l s' Hg H; [inversion H; subst; auto|].
  destruct (perform threads s o) as [[r s0]|] eqn:Ep; [|discriminate].
  destruct (history threads s0 h) as [[k t]|] eqn:Eh; [|discriminate]. inversion H; subst.
  destruct (perform_good _ Hg Ep) as [Hg' _]. eapply IH; eauto.
Qed.
End Reserve.
