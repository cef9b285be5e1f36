(** C97: what functions do with empty and corrupted graphs, and without a specification; see Ops.v *)
From Coq Require Import List Arith NArith Bool Lia.
Import ListNotations.
From Verif Require Import Ops P_Ops P_OpsKeep.

Set Implicit Arguments.

Section Proofs.
  Variable fails : nat -> bool.
  Variable werr : nat -> N.
  Variable flag choice : nat -> bool.
  Variable place : nat -> nat * nat.
  Variable single : bool.

  (** ** Empty graphs *)

  (** The result is empty again, nothing is left allocated, and there is no error unless something fails or there was one before *)
  Definition vacuous (e : N) (r : graph * st) : Prop :=
    fst r = Null /\ untouched (snd r) /\ ((forall t, fails t = false) -> err (snd r) = e) /\ (e <> 0%N -> err (snd r) = e).

  Lemma entry_E : forall s, untouched s -> untouched (api_entry fails werr s).
  Proof. intros s (A & B & C & D & F). unfold api_entry. destruct (fails _); repeat split; auto. Qed.
  Lemma disable_E : forall s, untouched s -> untouched (disable_killing fails s).
  Proof. intros s (A & B & C & D & F). unfold disable_killing. destruct (fails _); repeat split; auto. Qed.
  Lemma entry_err : forall s, ((forall t, fails t = false) -> err (api_entry fails werr s) = err s) /\ (err s <> 0%N -> err (api_entry fails werr s) = err s).
  Proof.
    intros s. unfold api_entry. destruct (fails (clock s)) eqn:F; cbn; [| auto]. split; intros X.
    - now rewrite X in F.
    - apply N.eqb_neq in X. now rewrite X.
  Qed.
  Lemma disable_err : forall s, ((forall t, fails t = false) -> err (disable_killing fails s) = err s) /\ (err s <> 0%N -> err (disable_killing fails s) = err s).
  Proof.
    intros s. unfold disable_killing. destruct (fails (clock s)) eqn:F; cbn; [| auto]. split; intros X.
    - now rewrite X in F.
    - apply N.eqb_neq in X. now rewrite X.
  Qed.
  Definition Q (e : N) (s : st) : Prop := untouched s /\ ((forall t, fails t = false) -> err s = e) /\ (e <> 0%N -> err s = e).
  Lemma Q_given : forall n e, Q e (given Null n e).
  Proof. intros; repeat split. Qed.
  Lemma Q_entry : forall e s, Q e s -> Q e (api_entry fails werr s).
  Proof.
    intros e s (A & B & C). pose proof (entry_err s) as [X Y]. split; [now apply entry_E |]. split; intros Z.
    - rewrite X; auto.
    - rewrite Y; auto. now rewrite C.
  Qed.
  Lemma Q_disable : forall e s, Q e s -> Q e (disable_killing fails s).
  Proof.
    intros e s (A & B & C). pose proof (disable_err s) as [X Y]. split; [now apply disable_E |]. split; intros Z.
    - rewrite X; auto.
    - rewrite Y; auto. now rewrite C.
  Qed.
  Lemma Q_finish : forall e s, Q e s -> vacuous e (finish fails werr flag single Null s).
  Proof.
    intros e s H. unfold finish. destruct (ok s).
    - split; [reflexivity | exact H].
    - assert (cru_free_now fails werr flag single Null s = api_entry fails werr s) as -> by (unfold cru_free_now; now destruct (ok _)).
      apply Q_entry in H. split; [now destruct (ok _) | exact H].
  Qed.
  Ltac qq := cbv zeta; cbn [bad orb];
    repeat match goal with |- vacuous _ (if ?x then _ else _) => destruct x end;
    apply Q_finish; repeat first [apply Q_given | apply Q_entry | apply Q_disable].

  Theorem C97_empty : forall m n e spec b,
    vacuous e (stretched fails werr flag choice place single m Null spec (given Null n e)) /\
    vacuous e (split fails werr flag choice place single Null spec (given Null n e)) /\
    vacuous e (composed fails werr flag choice place single m Null spec (given Null n e)) /\
    vacuous e (spread fails werr flag choice place single Null spec b (given Null n e)) /\
    vacuous e (merged fails werr flag choice place single Null spec (given Null n e)) /\
    vacuous e (filtered fails werr flag choice place single Null spec b (given Null n e)) /\
    vacuous e (deduplicated fails werr flag choice place single Null (given Null n e)) /\
    vacuous e (mutated fails werr flag choice place single Null spec (given Null n e)) /\
    vacuous e (postponed fails werr flag choice single m Null spec (given Null n e)).
  Proof.
    intros m n e spec b. split; [unfold stretched; qq |]. split; [unfold split; qq |]. split; [unfold composed; qq |].
    split; [unfold spread; qq |]. split; [unfold merged; qq |]. split; [unfold filtered; qq |].
    split; [unfold deduplicated; qq |]. split; [unfold mutated; qq |]. unfold postponed; qq.
  Qed.

  (** Functions not consuming a graph.  The result of a map-reduction or induction is the vacuous case in the specification, and it is
      an error if it is missing. *)
  Theorem C97_empty_kept : forall n e spec,
    Q e (fabricated fails werr flag choice Null (given Null n e)) /\
    Q e (partition_of fails werr flag choice Null (given Null n e)) /\
    Q e (counted fails werr flag single Null (given Null n e)) /\
    (forall s, s = mapreduced fails werr flag choice Null spec (given Null n e) \/
               s = induced fails werr flag choice Null spec (given Null n e) ->
     untouched s /\ ((forall t, fails t = false) -> e = 0%N -> err s = 0%N \/ err s = UNDVAC)).
  Proof.
    intros n e spec. pose proof (Q_given n e) as G. split; [| split; [| split]].
    - unfold fabricated. destruct (negb _); now apply Q_entry.
    - unfold partition_of. destruct (negb _); now apply Q_entry.
    - unfold counted. destruct (negb _); now apply Q_entry.
    - intros s H. assert (s = mapreduced fails werr flag choice Null spec (given Null n e)) as -> by (destruct H; auto). clear H.
      apply Q_entry in G. unfold mapreduced. cbv zeta. cbn [bad orb]. remember (api_entry fails werr _) as s eqn:X; clear X.
      destruct G as (A & B & C). assert ((forall t, fails t = false) -> e = 0%N -> err s = 0%N \/ err s = UNDVAC) as D.
      { intros Y Z. left. rewrite B; auto. }
      destruct (negb _); auto. destruct (negb _); auto. unfold infer. destruct A as (A1 & A2 & A3 & A4 & A5). rewrite A3.
      destruct (fails (clock s)) eqn:F; cbn [negb].
      + split; [repeat split; auto |]. intros Y. now rewrite Y in F.
      + cbn [choose]. unfold free_copy. destruct (choice _); cbn; (split; [repeat split; auto |]); auto.
        intros Y Z. rewrite B, Z by auto. auto.
  Qed.

  (** ** Corrupted graphs *)

  Definition rejected (r : graph * st) : Prop := fst r = Null /\ err (snd r) = BADGPH /\ untouched (snd r).

  Ltac rj F := unfold rejected; cbv zeta; unfold api_entry, disable_killing; cbn [given clock tick]; rewrite ?F; cbn [ok err tick given N.eqb negb bad orb raise set_err];
    unfold finish, cru_free_now, api_entry, free_now; cbn; rewrite ?F; repeat split.

  Theorem C97_corrupted : forall m n spec b, (forall t, fails t = false) ->
    rejected (stretched fails werr flag choice place single m Bad spec (given Bad n 0)) /\
    rejected (split fails werr flag choice place single Bad spec (given Bad n 0)) /\
    rejected (composed fails werr flag choice place single m Bad spec (given Bad n 0)) /\
    rejected (spread fails werr flag choice place single Bad spec b (given Bad n 0)) /\
    rejected (merged fails werr flag choice place single Bad spec (given Bad n 0)) /\
    rejected (filtered fails werr flag choice place single Bad spec b (given Bad n 0)) /\
    rejected (deduplicated fails werr flag choice place single Bad (given Bad n 0)) /\
    rejected (mutated fails werr flag choice place single Bad spec (given Bad n 0)) /\
    rejected (postponed fails werr flag choice single m Bad spec (given Bad n 0)).
  Proof.
    intros m n spec b F. split; [unfold stretched; rj F |]. split; [unfold split; rj F |]. split; [unfold composed; rj F |].
    split; [unfold spread; rj F |]. split; [unfold merged; rj F |]. split; [unfold filtered; rj F |].
    split; [unfold deduplicated; rj F |]. split; [unfold mutated; rj F |]. unfold postponed; rj F.
  Qed.
  Theorem C97_corrupted_kept : forall n spec s, (forall t, fails t = false) ->
    s = fabricated fails werr flag choice Bad (given Bad n 0) \/ s = counted fails werr flag single Bad (given Bad n 0) \/
    s = mapreduced fails werr flag choice Bad spec (given Bad n 0) \/ s = induced fails werr flag choice Bad spec (given Bad n 0) ->
    err s = BADGPH /\ untouched s.
  Proof.
    intros n spec s F H. destruct H as [-> | [-> | [-> | ->]]].
    - unfold fabricated, api_entry; cbn; rewrite F; cbn. repeat split.
    - unfold counted, api_entry; cbn; rewrite F; cbn. repeat split.
    - unfold mapreduced, api_entry; cbn; rewrite F; cbn. repeat split.
    - unfold induced, api_entry; cbn; rewrite F; cbn. repeat split.
  Qed.

  (** ** No specification *)

  Definition same (n : nat) (r : graph * st) : Prop :=
    fst r = Good /\ err (snd r) = 0%N /\ gs (snd r) = true /\ ing (snd r) = n /\ inp (snd r) = 0 /\ gone (snd r) = 0 /\ untouched (snd r).
  Ltac sm F := unfold same; cbv zeta; unfold api_entry, disable_killing; cbn; rewrite ?F; cbn; repeat split.

  Theorem C97_unspecified : forall m n b, (forall t, fails t = false) ->
    same n (stretched fails werr flag choice place single m Good false (given Good n 0)) /\
    same n (split fails werr flag choice place single Good false (given Good n 0)) /\
    same n (composed fails werr flag choice place single m Good false (given Good n 0)) /\
    same n (merged fails werr flag choice place single Good false (given Good n 0)) /\
    same n (filtered fails werr flag choice place single Good false b (given Good n 0)) /\
    same n (mutated fails werr flag choice place single Good false (given Good n 0)) /\
    same n (postponed fails werr flag choice single m Good false (given Good n 0)).
  Proof.
    intros m n b F. split; [unfold stretched; sm F |]. split; [unfold split; sm F |]. split; [unfold composed; sm F |].
    split; [unfold merged; sm F |]. split; [unfold filtered; sm F |].
    split; [unfold mutated; sm F |]. unfold postponed; sm F.
  Qed.

  (** ** Freeing, as requested by a user *)

  Theorem C98_free_now : forall n e, e <> BADGPH -> (forall t, werr t <> BADGPH) ->
    let s := cru_free_now fails werr flag single Good (given Good n e) in
    wrong s = false /\ rt s = None /\ gs s = false /\ ing s = 0 /\ inp s = 0 /\ gone s = n /\ lost s = 0.
  Proof.
    intros n e He W. cbv zeta. unfold cru_free_now. pose proof (given_V n He) as G. apply (@V_entry fails werr W) in G.
    assert (inp (api_entry fails werr (given Good n e)) = 0) as I by (unfold api_entry; now destruct (fails _)).
    remember (api_entry fails werr (given Good n e)) as s eqn:X; clear X.
    assert (forall s, V None false true (n, 0) s -> inp s = 0 ->
      wrong (free_now Good s) = false /\ rt (free_now Good s) = None /\ gs (free_now Good s) = false /\ ing (free_now Good s) = 0 /\
      inp (free_now Good s) = 0 /\ gone (free_now Good s) = n /\ lost (free_now Good s) = 0) as F.
    { intros s0 A B. destruct (V_free_now A eq_refl) as (C & D & _). destruct C. cbn [fst snd] in *. specialize (v_ing eq_refl).
      repeat (split; [assumption || congruence || lia |]). assumption. }
    destruct (ok s); cbn [negb]; [| now apply F]. cbn [bad orb]. destruct single; [now apply F |].
    destruct (make_router _ _ _) as [r s1] eqn:M. destruct (@V_make fails werr W _ _ _ _ _ _ M G) as (A & B & C). rewrite I in B.
    destruct r; cbn [negb]; [| now apply F].
    destruct A. destruct v_rt as [z R]. unfold launched, start. rewrite R. destruct (fails (clock s1)); cbn [snd].
    - apply F.
      + unfold failure, free_router, raise; cbn. rewrite R; cbn. destruct z; constructor; cbn; auto; try (destruct (N.eqb _ _); auto; fail).
        all: repeat match goal with |- context [if ?x then _ else _] => destruct x end; auto; discriminate.
      + unfold failure, free_router, raise; cbn. rewrite R; cbn. now destruct z.
    - apply F.
      + assert (forall e', e' <> BADGPH -> (if N.eqb (err s1) 0 then e' else err s1) <> BADGPH) as E by (intros; now destruct (N.eqb _ _)).
        destruct (N.eqb (werr (clock s1)) 0); unfold raze, free_router; cbn; rewrite ?R; cbn; destruct (z || flag (clock s1)); cbn;
          (constructor; cbn; [auto | auto | auto | auto | auto | auto | auto | cbn [fst]; cbn [fst] in v_sum; lia |]); auto.
        all: repeat match goal with |- context [if ?x then _ else _] => destruct x end; auto; try discriminate; cbn [snd] in v_lost; lia.
      + destruct (N.eqb (werr (clock s1)) 0); unfold raze, free_router; cbn; rewrite ?R; cbn; destruct (z || flag (clock s1)); cbn; auto.
  Qed.
End Proofs.

(** ** Examples *)

Definition never (t : nat) : bool := false.
Definition always (t : nat) : bool := true.
Definition fine (t : nat) : N := 0%N.
Definition at_time (k t : nat) : bool := t =? k.
Definition all_but (k t : nat) : bool := negb (t =? k).
Definition collecting (a j t : nat) : nat * nat := (a, j).
Definition summary (r : graph * st) := let (g, s) := r in (g, err s, (gs s, ing s, gone s, lost s), (rt s, copy s, wrong s, out s)).
Definition summary1 (s : st) := (err s, (gs s, ing s, gone s), (res s, prod s), (rt s, copy s, wrong s)).

Example C98_werr_example : forall t, fine t <> BADGPH.
Proof. discriminate. Qed.
(** Three nodes, of which one is deleted, and what happens if something fails *)
Definition done := (Good, 0%N, (true, 2, 1, 0), (@None rout, false, false, false)).
Definition undone := (Null, ENOMEM, (false, 0, 3, 0), (@None rout, false, false, false)).

Example C98_composed_example :
  let f k := summary (composed k fine never never (collecting 2 0) false 3 Good true (given Good 3 0)) in f never = done /\ f (at_time 9) = undone.
Proof. vm_compute. auto. Qed.
Example C98_postponed_example :
  let f k := summary (postponed k fine never never false 3 Good true (given Good 3 0)) in
  f never = (Good, 0%N, (true, 3, 0, 0), (None, false, false, false)) /\ f (at_time 9) = undone.
Proof. vm_compute. auto. Qed.
Example C98_deduplicated_example :
  let f k := summary (deduplicated k fine never never (collecting 2 0) false Good (given Good 3 0)) in f never = done /\ f (at_time 7) = undone.
Proof. vm_compute. auto. Qed.
Example C98_spread_example :
  let f k := summary (spread k fine never never (collecting 2 0) false Good true true (given Good 3 0)) in f never = done /\ f (at_time 5) = undone.
Proof. vm_compute. auto. Qed.
Example C98_filtered_example :
  let f k := summary (filtered k fine never (at_time 5) (collecting 2 0) false Good true false (given Good 3 0)) in f never = done /\ f (at_time 9) = undone.
Proof. vm_compute. auto. Qed.
Example C98_merged_example :
  let f k := summary (merged k fine never never (collecting 2 0) false Good true (given Good 3 0)) in f never = done /\ f (at_time 9) = undone.
Proof. vm_compute. auto. Qed.
Example C98_stretched_example :
  let f k := summary (stretched k fine never never (collecting 2 0) false 3 Good true (given Good 3 0)) in f never = done /\ f (at_time 9) = undone.
Proof. vm_compute. auto. Qed.
Example C98_mutated_example :
  let f k := summary (mutated k fine never (at_time 5) (collecting 2 0) false Good true (given Good 3 0)) in f never = done /\ f (at_time 9) = undone.
Proof. vm_compute. auto. Qed.
Example C98_split_example :
  let f k := summary (split k fine never always (collecting 2 0) false Good true (given Good 3 0)) in f never = done /\ f (at_time 7) = undone.
Proof. vm_compute. auto. Qed.
Example C98_free_now_example :
  let f k := summary1 (cru_free_now k fine never false Good (given Good 3 0)) in
  f never = (0%N, (false, 0, 3), (false, false), (None, false, false)) /\ f (at_time 2) = (ENOMEM, (false, 0, 3), (false, false), (None, false, false)).
Proof. vm_compute. auto. Qed.
Example C98_kept_example :
  summary1 (fabricated never fine never always Good (given Good 3 0)) = (0%N, (true, 3, 0), (true, false), (None, false, false)) /\
  summary1 (fabricated (at_time 4) fine never always Good (given Good 3 0)) = (ENOMEM, (true, 3, 0), (false, false), (None, false, false)) /\
  summary1 (mapreduced never fine (at_time 9) always Good true (given Good 3 0)) = (INTKIL, (true, 3, 0), (false, false), (None, false, false)) /\
  summary1 (induced (at_time 7) fine never always Good true (given Good 3 0)) = (BADKIL, (true, 3, 0), (false, false), (None, false, false)) /\
  summary1 (partition_of never fine never always Good (given Good 3 0)) = (0%N, (true, 3, 0), (true, false), (None, false, false)) /\
  summary1 (partition_of (at_time 8) fine never always Good (given Good 3 0)) = (ENOMEM, (true, 3, 0), (false, false), (None, false, false)) /\
  summary1 (counted never fine (at_time 2) false Good (given Good 3 0)) = (INTKIL, (true, 3, 0), (false, false), (None, false, false)) /\
  summary1 (crossed never fine never always Good Good true (given Good 3 0)) = (0%N, (true, 3, 0), (true, false), (None, false, false)) /\
  summary1 (crossed (at_time 6) fine never always Good Good true (given Good 3 0)) = (ENOMEM, (true, 3, 0), (false, false), (None, false, false)).
Proof. vm_compute. auto 20. Qed.
Example C97_example :
  (forall t, never t = false) /\
  summary (stretched never fine never always (collecting 2 0) false 3 Null true (given Null 0 0)) = (Null, 0%N, (false, 0, 0, 0), (None, false, false, false)) /\
  summary (stretched never fine never always (collecting 2 0) false 3 Bad true (given Bad 0 0)) = (Null, BADGPH, (false, 0, 0, 0), (None, false, false, false)) /\
  summary (stretched never fine never always (collecting 2 0) false 3 Good false (given Good 3 0)) = (Good, 0%N, (true, 3, 0, 0), (None, false, false, false)) /\
  summary1 (mapreduced never fine never never Null true (given Null 0 0)) = (UNDVAC, (false, 0, 0), (false, false), (None, false, false)).
Proof. vm_compute. auto 20. Qed.

(** ** What is not true *)

(** If the router can't be made, cru_merged doesn't free the copy of the specification, and the same if the kill switch is invalid. *)
Theorem C98_merged_refuted : exists fails n, let r := merged fails fine never never (collecting 2 0) false Good true (given Good n 0) in
  fst r = Null /\ err (snd r) = ENOMEM /\ copy (snd r) = true.
Proof. exists (at_time 3), 3. vm_compute. auto. Qed.
(** If cru_stretched is killed during the last pass and there is one lane, or there are no nodes to be swept, NULL is returned but the graph
    remains.  The same happens in cru_stretched and cru_mutated if the pass freeing deleted nodes can't be started. *)
Theorem C98_stretched_refuted : exists flag n, let r := stretched never fine flag (all_but 12) (collecting 3 0) true 1 Good true (given Good n 0) in
  out (snd r) = false /\ fst r = Null /\ err (snd r) = INTKIL /\ gs (snd r) = true /\ ing (snd r) = n /\ n <> 0.
Proof. exists (at_time 13), 3. vm_compute. repeat (split; auto); discriminate. Qed.
Theorem C98_mutated_refuted : exists fails n, let r := mutated fails fine never always (collecting 3 0) false Good true (given Good n 0) in
  fst r = Null /\ err (snd r) = ENOMEM /\ gs (snd r) = true /\ ing (snd r) = n /\ n <> 0.
Proof. exists (at_time 18), 3. vm_compute. repeat (split; auto); discriminate. Qed.
(** If the pass by which nodes are moved to the ports in cru_split can't be started, they can't be freed any more. *)
Theorem C98_split_refuted : exists fails n, let r := split fails fine never always (collecting 3 0) true Good true (given Good n 0) in
  fst r = Null /\ err (snd r) = ENOMEM /\ gone (snd r) = 0 /\ lost (snd r) = n /\ n <> 0.
Proof. exists (at_time 10), 3. vm_compute. repeat (split; auto); discriminate. Qed.
(** The product of the base vertices is not freed if the workers in cru_crossed can't be started. *)
Theorem C98_crossed_refuted : exists fails n, let s := crossed fails fine never always Good Good true (given Good n 0) in
  err s = ENOMEM /\ prod s = true.
Proof. exists (at_time 5), 3. vm_compute. auto. Qed.
(** The graph is not freed if a function computing a property reports CRU_BADGPH, for example because another operation it invokes did. *)
Theorem C98_badgph_refuted : exists werr n, let r := stretched never werr never always (collecting 2 0) false 3 Good true (given Good n 0) in
  fst r = Null /\ err (snd r) = BADGPH /\ gs (snd r) = true /\ ing (snd r) = n /\ n <> 0.
Proof. exists (fun t => if t =? 9 then BADGPH else 0%N), 3. vm_compute. repeat (split; auto); discriminate. Qed.

(** An empty graph as the first operand of cru_crossed is an internal error, and the router is not freed.  The same happens with a
    corrupted one, for which the error should be CRU_BADGPH.  If the second is corrupted, it is used. *)
Theorem C97_crossed_refuted : exists choice,
  (let s := crossed never fine never choice Null Good true (given Good 3 0) in err s = 1469%N /\ rt s <> None) /\
  (let s := crossed never fine never choice Bad Good true (given Good 3 0) in err s = 1470%N /\ rt s <> None) /\
  (let s := crossed never fine never choice Good Bad true (given Good 3 0) in wrong s = true).
Proof. exists always. vm_compute. repeat (split; auto); discriminate. Qed.
(** A corrupted graph passed to cru_partition_of is reported to be an internal error, and neither the router nor the partition is freed. *)
Theorem C97_partition_refuted : exists choice,
  let s := partition_of never fine never choice Bad (given Bad 0 0) in err s = 1470%N /\ rt s <> None /\ res s = true.
Proof. exists always. vm_compute. repeat (split; auto); discriminate. Qed.
(** A corrupted graph is freed if there is another error, such as an invalid kill switch. *)
Theorem C97_corrupted_refuted : exists fails,
  let r := stretched fails fine never always (collecting 2 0) false 1 Bad true (given Bad 0 0) in err (snd r) = BADKIL /\ wrong (snd r) = true.
Proof. exists (at_time 1). vm_compute. auto. Qed.
(** Without a builder, cru_spread frees the graph and reports an internal error. *)
Theorem C97_spread_refuted : exists n,
  let r := spread never fine never always (collecting 2 0) false Good false true (given Good n 0) in
  fst r = Null /\ err (snd r) = 678%N /\ gone (snd r) = n /\ n <> 0.
Proof. exists 3. vm_compute. repeat (split; auto); discriminate. Qed.
