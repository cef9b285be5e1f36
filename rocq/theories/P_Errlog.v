(** The log of errors: claim C79. *)
From Coq Require Import List Arith NArith Lia Bool.
From Verif Require Import Errlog.
Import ListNotations.

Set Implicit Arguments.

(** The errors in the order they were thrown, with repetitions of the same error right after itself left out *)
Inductive distilled : list N -> list N -> Prop :=
| distilled_nil : distilled [] []
| distilled_none es ds : distilled es ds -> distilled (es ++ [0%N]) ds
| distilled_first e : e <> 0%N -> forall es, distilled es [] -> distilled (es ++ [e]) [e]
| distilled_again e es ds : e <> 0%N -> distilled es (ds ++ [e]) -> distilled (es ++ [e]) (ds ++ [e])
| distilled_new e d es ds : e <> 0%N -> e <> d -> distilled es (ds ++ [d]) -> distilled (es ++ [e]) (ds ++ [d] ++ [e]).

Section Proofs.
  Variable beyond : N -> N.
  Notation thrown := (thrown beyond).

  Lemma thrown_snoc es e : thrown (es ++ [e]) = globally_throw beyond e (thrown es).
  Proof. unfold Errlog.thrown. rewrite fold_left_app. reflexivity. Qed.

  (** While at most as many distinct ones as there are places have been thrown *)
  Lemma thrown_inv es ds : distilled es ds -> length ds <= error_limit ->
    error_count (thrown es) = N.of_nat (length ds) /\ out_of_bounds (thrown es) = false /\
    forall i, i < length ds -> slots (thrown es) i = nth i ds 0%N.
  Proof.
    unfold error_limit. induction 1 as [|es ds D IH|e He es D IH|e es ds He D IH|e d es ds He Hd D IH]; intros L.
    - split; [reflexivity|]. split; [reflexivity|]. intros i Hi. simpl in Hi. lia.
    - rewrite thrown_snoc. exact (IH L).
    - destruct IH as [C [O S]]; [simpl; lia|]. rewrite thrown_snoc. unfold globally_throw.
      destruct (N.eqb_spec e 0); [easy|]. rewrite C. cbn [length N.of_nat N.eqb umax limitN error_limit N.ltb]. simpl.
      split; [reflexivity|]. split; [exact O|]. intros i Hi. destruct i; [reflexivity|lia].
    - destruct (IH L) as [C [O S]]. rewrite thrown_snoc. unfold globally_throw. rewrite app_length in *. simpl length in *.
      set (n := length ds) in *. assert (Z : nth n (ds ++ [e]) 0%N = e) by (subst n; rewrite app_nth2, Nat.sub_diag; auto).
      destruct (N.eqb_spec e 0); [easy|]. destruct (N.eqb_spec (error_count (thrown es)) umax) as [M|_]; [unfold umax in M; lia|].
      destruct (N.eqb_spec (error_count (thrown es)) 0) as [M|_]; [lia|].
      assert (B : N.ltb (error_count (thrown es) - 1) limitN = true) by (apply N.ltb_lt; unfold limitN, error_limit; lia).
      assert (I : N.to_nat (error_count (thrown es) - 1) = n) by lia.
      unfold slot. rewrite B, I.
      destruct (N.ltb_spec (error_count (thrown es)) limitN) as [T|T]; cbn [slots out_of_bounds error_count].
      + assert (J : N.to_nat (error_count (thrown es)) = n + 1) by lia. rewrite J.
        destruct (Nat.eqb_spec n (n + 1)); [lia|]. rewrite (S n), Z, N.eqb_refl by (unfold limitN, error_limit in T; lia).
        cbn [slots out_of_bounds error_count]. rewrite O. split; [exact C|]. split; [reflexivity|]. intros i Hi.
        destruct (Nat.eqb_spec i (n + 1)); [lia|]. now apply S.
      + rewrite (S n), Z, N.eqb_refl by (unfold limitN, error_limit in *; lia). cbn [slots out_of_bounds error_count]. rewrite O. auto.
    - rewrite !app_length in *. simpl length in *. destruct IH as [C [O S]]; [lia|].
      rewrite thrown_snoc. unfold globally_throw. 
      set (n := length ds) in *. assert (Z : nth n (ds ++ [d]) 0%N = d) by (subst n; rewrite app_nth2, Nat.sub_diag; auto).
      destruct (N.eqb_spec e 0); [easy|]. destruct (N.eqb_spec (error_count (thrown es)) umax) as [M|_]; [unfold umax in M; lia|].
      destruct (N.eqb_spec (error_count (thrown es)) 0) as [M|_]; [lia|].
      assert (B : N.ltb (error_count (thrown es) - 1) limitN = true) by (apply N.ltb_lt; unfold limitN, error_limit; lia).
      assert (I : N.to_nat (error_count (thrown es) - 1) = n) by lia.
      unfold slot. rewrite B, I.
      assert (Q : forall i, i < n + 1 -> nth i (ds ++ [d] ++ [e]) 0%N = nth i (ds ++ [d]) 0%N)
        by (intros i Hi; rewrite app_assoc; apply app_nth1; rewrite app_length; simpl; subst n; lia).
      assert (Q2 : nth (n + 1) (ds ++ [d] ++ [e]) 0%N = e)
        by (subst n; rewrite app_assoc, app_nth2; rewrite app_length; simpl; [rewrite Nat.sub_diag; reflexivity|lia]).
      destruct (N.ltb_spec (error_count (thrown es)) limitN) as [T|T]; cbn [slots out_of_bounds error_count].
      + assert (J : N.to_nat (error_count (thrown es)) = n + 1) by lia. rewrite J.
        destruct (Nat.eqb_spec n (n + 1)); [lia|]. rewrite (S n), Z by (unfold limitN, error_limit in T; lia).
        destruct (N.eqb_spec d e); [congruence|]. cbn [slots out_of_bounds error_count]. rewrite O.
        split; [lia|]. split; [reflexivity|]. intros i Hi.
        destruct (Nat.eqb_spec i (n + 1)) as [->|]; [now rewrite Q2|]. rewrite S, Q; auto; lia.
      + rewrite (S n), Z by (unfold limitN, error_limit in *; lia). destruct (N.eqb_spec d e); [congruence|].
        cbn [slots out_of_bounds error_count]. rewrite O. split; [lia|]. split; [reflexivity|]. intros i Hi. unfold limitN, error_limit in T. lia.
  Qed.

  Lemma printed_list s (ds : list N) : (forall i, i < length ds -> slots s i = nth i ds 0%N) -> map (slots s) (seq 0 (length ds)) = ds.
  Proof.
    intros H. apply nth_ext with (d := 0%N) (d' := 0%N); [now rewrite map_length, seq_length|].
    intros i Hi. rewrite map_length, seq_length in Hi. rewrite <- (H i Hi).
    rewrite (nth_indep _ 0%N (slots s 0)) by (now rewrite map_length, seq_length). rewrite map_nth, seq_nth; auto.
  Qed.

  (** Each error is printed in order, apart from immediate repetitions, if there are at most 16. *)
  Theorem C79_errors_are_printed es ds : distilled es ds -> length ds <= error_limit ->
    printed (thrown es) = (ds, 0%N) /\ out_of_bounds (thrown es) = false.
  Proof.
    intros D L. destruct (thrown_inv D) as [C [O S]]; [lia|]. split; auto. unfold printed. rewrite C.
    assert (E : N.to_nat (N.min (N.of_nat (length ds)) limitN) = length ds) by (unfold limitN; lia).
    rewrite E, printed_list by (intros i Hi; apply S; lia). f_equal. unfold limitN. lia.
  Qed.

  (** Once there are more, the first 16 remain, and it is reported that there are more. *)
  Lemma thrown_count es : (error_count (thrown es) <= umax)%N.
  Proof.
    induction es as [|e es IH] using rev_ind; [unfold umax; simpl; lia|]. rewrite thrown_snoc. unfold globally_throw.
    destruct (N.eqb e 0); auto. destruct (N.eqb_spec (error_count (thrown es)) umax); auto.
    destruct (N.ltb (error_count (thrown es)) limitN); cbn [error_count slots out_of_bounds];
      destruct (N.eqb (error_count (thrown es)) 0); cbn [error_count]; try lia;
      match goal with |- context [N.eqb ?a ?b] => destruct (N.eqb a b) end; cbn [error_count]; lia.
  Qed.
  Lemma throw_keeps e s i : i < error_limit -> (limitN <= error_count s)%N ->
    (limitN <= error_count (globally_throw beyond e s))%N /\ (error_count s <= error_count (globally_throw beyond e s))%N /\
    slots (globally_throw beyond e s) i = slots s i.
  Proof.
    intros Hi L. unfold globally_throw. destruct (N.eqb e 0); [split; [|split]; auto; lia|].
    destruct (N.eqb (error_count s) umax); [split; [|split]; auto; lia|].
    destruct (N.ltb_spec (error_count s) limitN) as [T|_]; [lia|].
    destruct (N.eqb (error_count s) 0); cbn [error_count slots]; [split; [|split]; auto; lia|].
    match goal with |- context [N.eqb ?a ?b] => destruct (N.eqb a b) end; cbn [error_count slots]; (split; [|split]; auto; lia).
  Qed.
  Lemma thrown_more es ds : distilled es ds -> error_limit < length ds ->
    (limitN < error_count (thrown es))%N /\ forall i, i < error_limit -> slots (thrown es) i = nth i ds 0%N.
  Proof.
    induction 1 as [|es ds D IH|e He es D IH|e es ds He D IH|e d es ds He Hd D IH]; intros L; try (unfold error_limit in L; simpl in L; lia).
    - rewrite thrown_snoc. exact (IH L).
    - destruct (IH L) as [A B]. rewrite thrown_snoc. split; [|intros i Hi; rewrite <- B; auto; apply throw_keeps; auto; lia].
      assert (T := @throw_keeps e (thrown es) 0 ltac:(unfold error_limit; lia) ltac:(lia)). lia.
    - rewrite !app_length in L. simpl in L. rewrite thrown_snoc.
      assert (Q : forall i, i < error_limit -> nth i (ds ++ [d] ++ [e]) 0%N = nth i (ds ++ [d]) 0%N)
        by (intros i Hi; rewrite app_assoc; apply app_nth1; rewrite app_length; simpl; lia).
      destruct (le_lt_dec (length (ds ++ [d])) error_limit) as [M|M].
      + assert (F : length (ds ++ [d]) = error_limit) by (rewrite app_length in *; simpl in *; lia).
        destruct (thrown_inv D M) as [C [_ S]]. rewrite F in C, S.
        assert (Z : slots (thrown es) 15 = d).
        { rewrite S by (unfold error_limit; lia). rewrite app_length in F. simpl in F. unfold error_limit in F.
          rewrite app_nth2 by lia. replace (15 - length ds) with 0 by lia. reflexivity. }
        split.
        * change (N.of_nat error_limit) with 16%N in C. unfold globally_throw. rewrite C. destruct (N.eqb_spec e 0); [easy|].
          change (16 =? umax)%N with false. change (16 <? limitN)%N with false. change (16 =? 0)%N with false. cbn iota zeta.
          unfold slot. change (16 - 1 <? limitN)%N with true. cbn iota. change (N.to_nat (16 - 1)) with 15. rewrite Z.
          destruct (N.eqb_spec d e); [congruence|]. reflexivity.
        * intros i Hi. rewrite Q, <- S by auto. apply throw_keeps; auto. rewrite C. unfold limitN. lia.
      + destruct (IH M) as [A B]. split; [|intros i Hi; rewrite Q, <- B by auto; apply throw_keeps; auto; lia].
        assert (T := @throw_keeps e (thrown es) 0 ltac:(unfold error_limit; lia) ltac:(lia)). lia.
  Qed.
  Theorem C79_first_errors es ds : distilled es ds -> error_limit < length ds ->
    fst (printed (thrown es)) = firstn error_limit ds /\ (0 < snd (printed (thrown es)))%N /\
    (snd (printed (thrown es)) + limitN <= umax)%N.
  Proof.
    intros D L. destruct (thrown_more D L) as [C S]. assert (B := thrown_count es).
    unfold printed. cbn [fst snd]. split; [|split; [lia|unfold limitN in *; lia]].
    assert (E : N.to_nat (N.min (error_count (thrown es)) limitN) = length (firstn error_limit ds))
      by (rewrite firstn_length; unfold limitN in *; lia).
    rewrite E. apply printed_list. intros i Hi. rewrite firstn_length in Hi. rewrite S by lia.
    rewrite <- (firstn_skipn error_limit ds) at 1. apply app_nth1. rewrite firstn_length. lia.
  Qed.
End Proofs.

(** Each history has something distilled from it. *)
Lemma distilled_exists es : exists ds, distilled es ds.
Proof.
  induction es as [|e es [ds D]] using rev_ind; [exists []; constructor|].
  destruct (N.eq_dec e 0) as [->|He]; [exists ds; now constructor|].
  destruct ds as [|d ds _] using rev_ind; [exists [e]; now constructor|].
  destruct (N.eq_dec e d) as [->|Hd]; [exists (ds ++ [d]); now constructor|]. exists (ds ++ [d] ++ [e]). now constructor.
Qed.

Example C79_errors_are_printed_ex : distilled [5; 5; 0; 7; 5]%N [5; 7; 5]%N /\
  printed (thrown (fun _ => 0%N) [5; 5; 0; 7; 5]%N) = ([5; 7; 5]%N, 0%N).
Proof.
  split; [|reflexivity]. apply (@distilled_new 5%N 7%N [5; 5; 0; 7]%N [5%N]); try discriminate.
  apply (@distilled_new 7%N 5%N [5; 5; 0]%N []); try discriminate. apply (@distilled_none [5; 5]%N [5%N]).
  apply (@distilled_again 5%N [5%N] []); [discriminate|]. apply (@distilled_first 5%N ltac:(discriminate) []). constructor.
Qed.

Definition counted (n : nat) : list N := map N.of_nat (seq 1 n).
Lemma counted_snoc n : counted (S n) = counted n ++ [N.of_nat (S n)].
Proof. unfold counted. now rewrite seq_S, map_app. Qed.
Lemma counted_distilled n : distilled (counted n) (counted n).
Proof.
  induction n as [|n IH]; [constructor|]. destruct n as [|n]; [apply (@distilled_first 1%N ltac:(discriminate) []); constructor|].
  rewrite counted_snoc. rewrite (counted_snoc n) at 2. rewrite <- app_assoc. apply distilled_new; [lia|lia|]. rewrite <- counted_snoc. exact IH.
Qed.
Example C79_first_errors_ex : distilled (counted 19) (counted 19) /\ error_limit < length (counted 19) /\
  printed (thrown (fun _ => 0%N) (counted 19)) = (counted 16, 3%N).
Proof. split; [apply counted_distilled|]. split; [vm_compute; lia|vm_compute; reflexivity]. Qed.

(** Memory beyond the array is read when there are further errors, and the number of them is not as it should be. *)
Theorem C79_read_beyond_refuted :
  exists beyond es ds, distilled es ds /\ out_of_bounds (thrown beyond es) = true.
Proof. exists (fun _ => 0%N), (counted 18), (counted 18). split; [apply counted_distilled|]. vm_compute. reflexivity. Qed.
Theorem C79_number_of_errors_refuted :
  exists beyond es ds, distilled es ds /\ length ds = 18 /\ snd (printed (thrown beyond es)) = 1%N.
Proof. exists (fun _ => 18%N), (counted 18), (counted 18). split; [apply counted_distilled|]. split; vm_compute; reflexivity. Qed.
Theorem C79_repeated_errors_refuted :
  exists beyond es ds, distilled es ds /\ length ds = 17 /\ snd (printed (thrown beyond es)) = 5%N.
Proof.
  exists (fun _ => 0%N), (counted 17 ++ [17; 17; 17; 17]%N), (counted 17). split; [|split; vm_compute; reflexivity].
  assert (H : forall es, distilled es (counted 17) -> distilled (es ++ [17%N]) (counted 17)).
  { intros es H. rewrite counted_snoc in *. now apply distilled_again. }
  change (counted 17 ++ [17; 17; 17; 17]%N) with ((((counted 17 ++ [17%N]) ++ [17%N]) ++ [17%N]) ++ [17%N]).
  repeat apply H. apply counted_distilled.
Qed.
