(** Operations that make several passes over a graph with the same router. *)
From Coq Require Import List Arith NArith Lia Bool Permutation.
From Verif Require Import Base Machine Env Visitor.
Import ListNotations.

Set Implicit Arguments.

(** The status after a pass whose router is not freed (src/launch.c:84-115, 177-214, and 38-73 with a
    router that is shared, src/route.c:667).  It does not depend on whether the router was killed, as
    opposed to the status after freeing the router (src/route.c:688-690). *)
Definition pass_status {S K} (order : list nat) (s : @vst S K) : option error := first_error (lerr s) order.

(** The circumstances of the [i]th pass: [cru_kill] is called just before the [k]th packet if
    [kills i k]. The field killed is cleared before the next pass (src/route.c:512). *)
Definition in_pass (X : env) (kills : nat -> nat -> bool) (i : nat) : env :=
  mkEnv (lanes X) (judy X) (notices X) (kills i).

(** A pass launched with UNKILLABLE (src/killers.c). *)
Definition unkillable (X : env) : env := mkEnv (lanes X) (judy X) (notices X) (fun _ => false).

Definition never_killed (kills : nat -> nat -> bool) : Prop := forall i k, kills i k = false.

Lemma pass_unflagged {S P K} X (key : P -> K) keq hash first again ready (d0 : S) p0 s order :
  0 < lanes X -> Permutation order (seq 0 (lanes X)) -> (forall k, killcalls X k = false) ->
  completes (vtask X key keq hash first again ready) (vstart d0) p0 s ->
  pass_status order s = None -> killed s = false /\ forall l, lkil s l = false.
Proof.
  intros Hl Ho Hk Hc Hs.
  set (I := fun (s : @vst S K) (_ : list P) =>
         killed s = true \/ (exists l, lkil s l = true) -> exists l, l < lanes X /\ lerr s l <> None).
  assert (HI : I s []).
  { revert Hc. unfold completes. apply mruns_inv with (I := I); unfold I.
    - auto.
    - intros s1 p b s2 out A H. unfold vtask in H.
      destruct (halted X key hash s1 p) eqn:Eh.
      + inversion H; subst; clear H. simpl. intros _. unfold halted, is_killed in Eh. rewrite Hk, orb_false_r in Eh.
        destruct (lerr s1 (vdest X key hash p)) eqn:El.
        * exists (vdest X key hash p). split; [now apply lane_of_lt|congruence].
        * apply orb_true_iff in Eh as [Eh|Eh]; [apply A; eauto|]. apply andb_true_iff in Eh as [Eh _]. auto.
      + destruct (ready (data s1) p); simpl in H; [|discriminate].
        destruct (if have_seen X key keq hash s1 p then again (data s1) p else first (data s1) p) as [[d o] e] eqn:Ea.
        inversion H; subst; clear H. simpl. unfold is_killed. rewrite Hk, orb_false_r.
        intros HA. apply A in HA as (l & B & C). exists l. split; [exact B|].
        unfold halted in Eh. unfold upd. destruct (Nat.eqb_spec l (vdest X key hash p)) as [->|]; auto.
        destruct (lerr s1 (vdest X key hash p)); [discriminate|congruence].
    - simpl. intros [H|[l H]]; discriminate. }
  assert (HN : ~ (killed s = true \/ exists l, lkil s l = true)).
  { intros H. apply HI in H as (l & A & B). apply B. apply (proj1 (first_error_none _ _) Hs).
    eapply Permutation_in; [symmetry; exact Ho|]. apply in_seq. lia. }
  split; [|intros l]; apply not_true_is_false; intros H; apply HN; eauto.
Qed.

Lemma pass_unkilled {S P K} X (key : P -> K) keq hash first again ready (d0 : S) p0 s order :
  0 < lanes X -> Permutation order (seq 0 (lanes X)) -> (forall k, killcalls X k = false) ->
  completes (vtask X key keq hash first again ready) (vstart d0) p0 s ->
  pass_status order s = None -> vstatus X order s = None.
Proof.
  intros Hl Ho Hk Hc Hs. destruct (pass_unflagged Hl Ho Hk Hc Hs) as [A _].
  unfold pass_status in Hs. unfold vstatus, final_status. rewrite Hs. unfold is_killed. now rewrite Hk, A.
Qed.

Lemma pass_vstatus {S K} X order (s : @vst S K) : vstatus X order s = None -> pass_status order s = None.
Proof.
  unfold vstatus, final_status, pass_status. destruct (first_error (lerr s) order); auto.
Qed.
