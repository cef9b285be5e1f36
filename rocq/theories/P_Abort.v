(** Failure to start: claims C80 and C81. *)
From Coq Require Import List Arith NArith Lia Bool.
From Verif Require Import Fold Env Abort.
Import ListNotations.

Set Implicit Arguments.

(** Payloads of packets with no receiver are newly created vertices. *)
Definition new_payloads (ps : list apacket) : list word :=
  map payload (filter (fun p => match receiver p with None => negb (N.eqb (payload p) 0) | Some _ => false end) ps).

(** If the second argument is evaluated first, exactly the new vertices are freed. *)
Lemma right_to_left_freed ps : abort_right_to_left true ps = Freed (new_payloads ps).
Proof.
  unfold new_payloads. induction ps as [|p ps IH]; [reflexivity|]. simpl. rewrite IH. unfold destroyed, destructor_for.
  destruct (receiver p); simpl; [reflexivity|]. destruct (N.eqb (payload p) 0); reflexivity.
Qed.
Theorem C80_new_vertices_are_freed bs :
  in_batches (abort_right_to_left true) bs = Freed (new_payloads (concat bs)).
Proof.
  induction bs as [|b bs IH]; [reflexivity|]. simpl. rewrite right_to_left_freed, IH. unfold new_payloads.
  now rewrite filter_app, map_app.
Qed.
Example C80_new_vertices_are_freed_ex :
  in_batches (abort_right_to_left true) [[mkAP 5 None; mkAP 6 (Some 1%nat)]; [mkAP 0 None; mkAP 7 None]]%N = Freed [5; 7]%N.
Proof. reflexivity. Qed.

(** Otherwise the program crashes as soon as there is any packet. *)
Lemma left_to_right_crash v_free ps : ps <> [] -> abort_left_to_right v_free ps = Null_dereferenced.
Proof.
  induction ps as [|p ps IH]; [easy|]. intros _. simpl. destruct ps as [|q ps]; [reflexivity|]. rewrite IH by discriminate. reflexivity.
Qed.
Theorem C80_crash v_free bs : (exists b, In b bs /\ b <> []) -> (forall b, In b bs -> b <> []) ->
  in_batches (abort_left_to_right v_free) bs = Null_dereferenced.
Proof.
  intros [b [I _]] H. destruct bs as [|c bs]; [destruct I|]. simpl. rewrite left_to_right_crash; auto. apply H. simpl. auto.
Qed.
Example C80_crash_ex : in_batches (abort_left_to_right false) [[mkAP 5 (Some 1%nat)]]%N = Null_dereferenced.
Proof. reflexivity. Qed.
Theorem C80_order_of_evaluation_refuted :
  exists bs vs, in_batches (abort_right_to_left true) bs = Freed vs /\ in_batches (abort_left_to_right true) bs = Null_dereferenced.
Proof. exists [[mkAP 5 None]]%N, [5%N]. split; reflexivity. Qed.

(** ** C81 *)

(** Nothing is used or freed after it is freed. *)
Definition disciplined (rs : list revent) : Prop :=
  forall before after, rs = before ++ Free :: after -> after = [].

(** The error is reported, there is no graph, and the vertex is freed if it was not sent to a worker. *)
Theorem C81_failure_is_reported v_free o :
  (b_graph (built_from v_free o) = true <-> b_err (built_from v_free o) = None) /\
  (b_err (built_from v_free o) = None <-> crewed o = None /\ packed o = None /\ worked o = None) /\
  (b_freed (built_from v_free o) = true <-> v_free = true /\ (crewed o <> None \/ packed o <> None)).
Proof.
  unfold built_from, graph_launched. destruct o as [[c|] [p|] [w|]]; simpl; destruct v_free; intuition (congruence || discriminate).
Qed.
Example C81_failure_is_reported_ex : b_err (built_from true (mkFortune (Some (USERERR 11)) None None)) = Some (USERERR 11) /\
  b_freed (built_from true (mkFortune (Some (USERERR 11)) None None)) = true.
Proof. split; reflexivity. Qed.

(** The router is freed once and not used afterwards if the workers are started. *)
Lemma disciplined_end us : (forall u, In u us -> u = Use) -> disciplined (us ++ [Free]).
Proof.
  intros H before after E. revert before E. induction us as [|u us IH]; intros before E.
  - destruct before as [|b before]; [now injection E|]. injection E as _ E. now destruct before.
  - rewrite (H u) in E by (simpl; auto). destruct before as [|b before]; [discriminate|]. injection E as _ E.
    apply IH with (before := before); auto. intros w I. apply H. simpl. auto.
Qed.
Theorem C81_started v_free o : crewed o = None -> packed o = None -> disciplined (b_router (built_from v_free o)).
Proof.
  intros C P. unfold built_from, graph_launched. rewrite C, P. cbn [l_started b_router l_router].
  apply (@disciplined_end [Use; Use; Use; Use; Use; Use; Use; Use; Use; Use; Use]). simpl. intuition congruence.
Qed.
Example C81_started_ex : crewed (mkFortune None None (Some INTOVF)) = None /\ packed (mkFortune None None (Some INTOVF)) = None /\
  b_router (built_from true (mkFortune None None (Some INTOVF))) <> [].
Proof. repeat split; discriminate. Qed.

(** It is used after it is freed if they are not. *)
Theorem C81_use_after_free_refuted : exists v_free o, crewed o = Some (USERERR 11) /\ ~ disciplined (b_router (built_from v_free o)).
Proof.
  exists true, (mkFortune (Some (USERERR 11)) None None). split; auto. intros D.
  specialize (D [Use; Use; Use; Use; Use; Use; Use] [Use] eq_refl). discriminate.
Qed.
