(** Theorems about routing and the default hash: claim C13. *)
From Coq Require Import List Arith NArith Lia Bool.
From Verif Require Import Base Hash.
Import ListNotations.

Set Implicit Arguments.

(** Every hash selects a worker, and exactly one since [lane_of] is a function. *)
Theorem C13_routing_in_range :
  forall (lanes : nat) (h : N), 0 < lanes -> lane_of lanes h < lanes.
Proof. intros. now apply lane_of_lt. Qed.

Example C13_routing_in_range_ex : lane_of 7 18446744073709551615 = 3 /\ lane_of 7 1032 = 1 /\ lane_of 1 12345 = 0.
Proof. vm_compute. auto. Qed.

(** As long as there are not more workers than the prime number (src/route.c:117 allows at most
    1024), each of them is selected by some hash, and by nearly equally many residues: one of the two
    integers next to 1031/lanes. *)
Definition residues (lanes i : nat) : list nat := filter (fun r => lane_of lanes (N.of_nat r) =? i) (seq 0 (10 * 100 + 31)).

Lemma lane_of_mod lanes h : lane_of lanes h = lane_of lanes (h mod 1031)%N.
Proof. unfold lane_of. now rewrite N.mod_mod by discriminate. Qed.

Lemma count_mod n k i : 0 < n -> i < n ->
  length (filter (fun r => r mod n =? i) (seq 0 k)) = (k + n - 1 - i) / n.
Proof.
  intros Hn Hi. induction k as [|k IH].
  - simpl. symmetry. apply Nat.div_small. lia.
  - rewrite seq_S, filter_app, app_length, IH. cbn [filter].
    replace (S k + n - 1 - i) with (k + n - i) by lia. rewrite Nat.add_0_l.
    pose proof (Nat.div_mod_eq k n) as D. pose proof (Nat.mod_upper_bound k n ltac:(lia)) as B.
    set (q := k / n) in *. set (r := k mod n) in *.
    destruct (Nat.eqb_spec r i) as [E|E]; cbn [length].
    + subst i. replace (k + n - 1 - r) with (q * n + (n - 1)) by nia.
      assert (E1 : (q * n + (n - 1)) / n = q) by (rewrite Nat.div_add_l, Nat.div_small; lia).
      rewrite E1. replace (k + n - r) with ((q + 1) * n) by nia. rewrite Nat.div_mul by lia. lia.
    + destruct (Nat.lt_ge_cases r i) as [L|L].
      * replace (k + n - 1 - i) with (q * n + (n - 1 + r - i)) by nia.
        replace (k + n - i) with (q * n + (n + r - i)) by nia.
        rewrite !Nat.div_add_l, !Nat.div_small by lia. lia.
      * replace (k + n - 1 - i) with ((q + 1) * n + (r - i - 1)) by nia.
        replace (k + n - i) with ((q + 1) * n + (r - i)) by nia.
        rewrite !Nat.div_add_l, !Nat.div_small by lia. lia.
Qed.

Lemma residues_mod lanes i : 0 < lanes -> residues lanes i = filter (fun r => r mod lanes =? i) (seq 0 (10 * 100 + 31)).
Proof.
  intros H. unfold residues. apply filter_ext_in. intros r Hr. apply in_seq in Hr.
  unfold lane_of. rewrite (N.mod_small (N.of_nat r) 1031) by lia.
  rewrite <- (Nat2N.id (r mod lanes)). rewrite Nat2N.inj_mod. reflexivity.
Qed.

Theorem C13_routing_is_balanced :
  forall lanes i : nat, i < lanes -> lanes <= 1031 ->
    1 <= length (residues lanes i) /\
    (length (residues lanes i) = 1031 / lanes \/ length (residues lanes i) = 1031 / lanes + 1).
Proof.
  intros lanes i Hi Hl.
  assert (E : length (residues lanes i) = (1031 + lanes - 1 - i) / lanes).
  { rewrite residues_mod by lia. rewrite count_mod by lia. reflexivity. }
  rewrite E. clear E.
  pose proof (Nat.div_mod_eq 1031 lanes) as D. pose proof (Nat.mod_upper_bound 1031 lanes ltac:(lia)) as B.
  assert (Hq : 1 <= 1031 / lanes) by (apply Nat.div_le_lower_bound; lia).
  set (q := 1031 / lanes) in *. set (r := 1031 mod lanes) in *. 
  destruct (Nat.lt_ge_cases i r) as [L|L].
  - replace (1031 + lanes - 1 - i) with ((q + 1) * lanes + (r - 1 - i)) by nia.
    rewrite Nat.div_add_l, Nat.div_small by lia. lia.
  - replace (1031 + lanes - 1 - i) with (q * lanes + (lanes - 1 + r - i)) by nia.
    rewrite Nat.div_add_l, Nat.div_small by lia. lia.
Qed.

Example C13_routing_is_balanced_ex : length (residues 100 30) = 11 /\ length (residues 100 31) = 10.
Proof. vm_compute. auto. Qed.

(** Distinct 64 bit words have distinct hashes, every 64 bit word is the hash of one. *)
Theorem C13_default_hash_is_a_bijection :
  (forall x : N, (scalar_hash x < 2 ^ 64)%N) /\
  (forall x y : N, (x < 2 ^ 64)%N -> (y < 2 ^ 64)%N -> scalar_hash x = scalar_hash y -> x = y) /\
  (forall k : N, (k < 2 ^ 64)%N -> exists x, (x < 2 ^ 64)%N /\ scalar_hash x = k).
Proof.
  split; [apply hash_lt|]. split.
  - intros x y Hx Hy E. rewrite <- (unhash_hash Hx), <- (unhash_hash Hy). now rewrite E.
  - intros k Hk. exists (scalar_unhash k). split; [|now apply hash_unhash].
    unfold scalar_unhash. apply N.mod_lt. discriminate.
Qed.

Example C13_default_hash_is_a_bijection_ex :
  scalar_hash 0 = 12994781566227106604%N /\ scalar_hash 18446744073709551615 = 0%N.
Proof. vm_compute. auto. Qed.
