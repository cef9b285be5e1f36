(** The default hash function, src/repl.c:45-61 ([_cru_scalar_hash]), on 64 bit words. *)
From Coq Require Import List Arith NArith Lia Bool.
From Verif Require Import Base.
Import ListNotations.

Set Implicit Arguments.
Local Open Scope N_scope.

(** [uintptr_t] is a 64 bit word (on a 32 bit platform the shift by 33 positions would be
    undefined); all arithmetic is modulo this number. *)
Definition W : N := 2 ^ 64.

(** [k ^= k >> 33] *)
Definition xorshift (k : N) : N := N.lxor k (N.shiftr k 33).

(** [k *= c] *)
Definition mulw (c k : N) : N := (k * c) mod W.

(** src/repl.c:54-60 *)
Definition scalar_hash (n : N) : N :=
  let k := (n + 1) mod W in
  let k := xorshift k in
  let k := mulw 0xff51afd7ed558ccd k in
  let k := xorshift k in
  let k := mulw 0xc4ceb9fe1a85ec53 k in
  xorshift k.

(** ** Proofs *)

Lemma xorshift_lt k : k < W -> xorshift k < W.
Proof.
  intros H. unfold xorshift, W in *.
  assert (Hs : N.shiftr k 33 < 2 ^ 64).
  { rewrite N.shiftr_div_pow2. apply N.le_lt_trans with k; auto. apply N.div_le_upper_bound; [discriminate|].
    assert (1 <= 2 ^ 33) by (vm_compute; discriminate). nia. }
  destruct (N.eq_dec (N.lxor k (N.shiftr k 33)) 0) as [->|Hz]; [reflexivity|].
  apply N.log2_lt_pow2; [lia|].
  eapply N.le_lt_trans; [apply N.log2_lxor|].
  apply N.max_lub_lt.
  - destruct (N.eq_dec k 0) as [->|]; [reflexivity|]. apply N.log2_lt_pow2; lia.
  - destruct (N.eq_dec (N.shiftr k 33) 0) as [->|]; [reflexivity|]. apply N.log2_lt_pow2; lia.
Qed.

Lemma xorshift_twice k : k < W -> xorshift (xorshift k) = k.
Proof.
  intros H. unfold xorshift.
  rewrite N.shiftr_lxor, N.shiftr_shiftr.
  assert (E : N.shiftr k (33 + 33) = 0).
  { rewrite N.shiftr_div_pow2. apply N.div_small. eapply N.lt_trans; [exact H|]. reflexivity. }
  rewrite E, N.lxor_0_r. rewrite N.lxor_assoc, N.lxor_nilpotent. apply N.lxor_0_r.
Qed.

Lemma mulw_inv c d k : (c * d) mod W = 1 -> k < W -> mulw d (mulw c k) = k.
Proof.
  intros Hc H. unfold mulw.
  rewrite N.mul_mod_idemp_l by discriminate.
  rewrite <- N.mul_assoc, <- N.mul_mod_idemp_r, Hc by discriminate.
  rewrite N.mul_1_r. now apply N.mod_small.
Qed.

Lemma mulw_lt c k : mulw c k < W.
Proof. apply N.mod_lt. discriminate. Qed.

(** The inverse. *)
Definition scalar_unhash (k : N) : N :=
  let k := xorshift k in
  let k := mulw 11291846944257947611 k in
  let k := xorshift k in
  let k := mulw 5725274745694666757 k in
  let k := xorshift k in
  (k + (W - 1)) mod W.

Lemma succ_pred_w n : n < W -> ((n + 1) mod W + (W - 1)) mod W = n.
Proof.
  intros H. rewrite N.add_mod_idemp_l by discriminate.
  replace (n + 1 + (W - 1)) with (n + 1 * W) by (unfold W; lia).
  rewrite N.mod_add by discriminate. now apply N.mod_small.
Qed.

Lemma pred_succ_w n : n < W -> ((n + (W - 1)) mod W + 1) mod W = n.
Proof.
  intros H. rewrite N.add_mod_idemp_l by discriminate.
  replace (n + (W - 1) + 1) with (n + 1 * W) by (unfold W; lia).
  rewrite N.mod_add by discriminate. now apply N.mod_small.
Qed.

Lemma unhash_hash n : n < W -> scalar_unhash (scalar_hash n) = n.
Proof.
  intros H. unfold scalar_unhash, scalar_hash. cbv zeta.
  assert (H1 : (n + 1) mod W < W) by (apply N.mod_lt; discriminate).
  rewrite xorshift_twice by apply mulw_lt.
  rewrite (@mulw_inv 0xc4ceb9fe1a85ec53 11291846944257947611) by (auto using xorshift_lt, mulw_lt; reflexivity).
  rewrite xorshift_twice by apply mulw_lt.
  rewrite (@mulw_inv 0xff51afd7ed558ccd 5725274745694666757) by (auto using xorshift_lt; reflexivity).
  rewrite xorshift_twice by auto. now apply succ_pred_w.
Qed.

Lemma hash_unhash k : k < W -> scalar_hash (scalar_unhash k) = k.
Proof.
  intros H. unfold scalar_unhash, scalar_hash. cbv zeta.
  rewrite pred_succ_w by auto using xorshift_lt, mulw_lt.
  rewrite xorshift_twice by auto using mulw_lt.
  rewrite (@mulw_inv 5725274745694666757 0xff51afd7ed558ccd) by (auto using xorshift_lt, mulw_lt; reflexivity).
  rewrite xorshift_twice by auto using mulw_lt.
  rewrite (@mulw_inv 11291846944257947611 0xc4ceb9fe1a85ec53) by (auto using xorshift_lt; reflexivity).
  now apply xorshift_twice.
Qed.

Lemma hash_lt n : scalar_hash n < W.
Proof. unfold scalar_hash. cbv zeta. apply xorshift_lt, mulw_lt. Qed.
