(** The packet reserve: theorems. *)
From Coq Require Import List Arith NArith Lia Bool Permutation.
From Verif Require Import Base Reserve.
Import ListNotations.

Set Implicit Arguments.

(** After any history of any number of threads, every packet obtained from the heap and not freed is
    exactly one of: in use, in reserve, or held by a thread about to put it in reserve.  The counter is right,
    so there is no internal error. *)
Theorem C43_packets_are_conserved threads h l s :
  0 < threads -> history RESERVE_PACKET_LIMIT threads empty_pool h = Some (l, s) ->
  NoDup (heap s) /\ Permutation (heap s) (inuse s ++ reserve s ++ pending threads s) /\
  count s = length (reserve s) /\ failed s = false.
Proof.
  intros Ht H. apply history_good in H; [|now apply empty_good]. destruct H as [H1 H2 H3 H4 _ _]. auto.
Qed.

(** A packet handed out is not in use by anyone. *)
Theorem C43_packets_handed_out_are_not_in_use threads h l s o a s' :
  0 < threads -> history RESERVE_PACKET_LIMIT threads empty_pool h = Some (l, s) -> perform RESERVE_PACKET_LIMIT threads s o = Some (Some a, s') ->
  ~ In a (inuse s) /\ In a (inuse s').
Proof.
  intros Ht H Hp. apply history_good in H; [|now apply empty_good]. eapply perform_good in Hp as [_ Hp]; eauto.
Qed.

(** As long as there are packets in reserve, an allocation does not fail. *)
Theorem C43_allocation_succeeds_while_there_is_a_reserve threads h l s i r s' :
  0 < threads -> history RESERVE_PACKET_LIMIT threads empty_pool h = Some (l, s) -> reserve s <> [] ->
  perform RESERVE_PACKET_LIMIT threads s (Dip i) = Some (r, s') -> r <> None.
Proof.
  intros Ht H Hr Hp. apply history_good in H; [|now apply empty_good]. destruct H as [_ _ H3 _ _ _].
  simpl in Hp. destruct (pend s i); [discriminate|]. destruct (i <? threads); [|discriminate].
  destruct (reserve s) as [|a r0]; [contradiction|]. destruct (Nat.eqb_spec (count s) 0); [simpl in H3; lia|].
  inversion Hp. discriminate.
Qed.

(** Because the test and the increment are in different critical sections (src/pack.c:226-235), the
    limit is only kept up to the number of threads.  With one thread it is kept. *)
Theorem C43_reserve_is_bounded threads h l s :
  0 < threads -> history RESERVE_PACKET_LIMIT threads empty_pool h = Some (l, s) ->
  length (reserve s) <= RESERVE_PACKET_LIMIT + (threads - 1).
Proof.
  intros Ht H. apply history_good in H; [|now apply empty_good]. destruct H as [_ _ H3 _ _ H6]. lia.
Qed.

(** The reserve is filled, two packets are taken from the heap, one from the reserve; then two threads
    retire packets at the same time. *)
Definition racing : list op :=
  [Replenish 0 (seq 0 RESERVE_PACKET_LIMIT); Malloc 0 1000; Malloc 1 1001; Dip 0; Retire 0 1000; Retire 1 1001; Put 0; Put 1].
Theorem C43_limit_of_reserve_refuted :
  exists threads h l s, 0 < threads /\ history RESERVE_PACKET_LIMIT threads empty_pool h = Some (l, s) /\ RESERVE_PACKET_LIMIT < length (reserve s).
Proof.
  exists 2, racing.
  destruct (history RESERVE_PACKET_LIMIT 2 empty_pool racing) as [[l s]|] eqn:E.
  - exists l, s. split; [lia|]. split; auto.
    assert (H : match history RESERVE_PACKET_LIMIT 2 empty_pool racing with Some (_, s) => RESERVE_PACKET_LIMIT <? length (reserve s) | None => false end = true)
      by (vm_compute; reflexivity).
    rewrite E in H. now apply Nat.ltb_lt.
  - exfalso. assert (H : match history RESERVE_PACKET_LIMIT 2 empty_pool racing with Some _ => true | None => false end = true) by (vm_compute; reflexivity).
    rewrite E in H. discriminate.
Qed.

Example C43_packets_are_conserved_ex :
  match history RESERVE_PACKET_LIMIT 2 empty_pool racing with
  | Some (l, s) => l = [1000; 1001; 255] /\ inuse s = [255] /\ length (heap s) = 258
  | None => False
  end.
Proof. vm_compute. auto. Qed.
Example C43_packets_handed_out_are_not_in_use_ex :
  match history RESERVE_PACKET_LIMIT 2 empty_pool [Replenish 0 [7; 8]; Dip 1; Malloc 0 5] with
  | Some (l, s) => perform RESERVE_PACKET_LIMIT 2 s (Dip 0) = Some (Some 7, mkPool [7; 5; 8] [] 0 (pend s) (heap s) false)
  | None => False
  end.
Proof. vm_compute. auto. Qed.
