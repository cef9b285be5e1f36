(** Mutation: claims C20, C56, C57. *)
From Coq Require Import List Arith NArith Lia Bool Permutation.
From Verif Require Import Base Machine Ports PortsTerm P_Ports Env Hash Graph Visitor VisitorProofs Run Pass Walk Fold P_Fold Fabricate
  Traverse TraverseProofs P_Traverse Partition P_Partition Filter P_Filter P_Killed Induce P_Induce Mutate.
Import ListNotations.

Set Implicit Arguments.

(** ** Lists of edges *)

Lemma relabel_targets n ls l : map snd (relabel n ls l) = map snd l.
Proof.
  revert ls. induction l as [|[x k] l IH]; intros ls; simpl; auto.
  destruct (k =? n); [destruct ls|]; simpl; now rewrite IH.
Qed.

Lemma relabel_others n ls l k : k <> n -> labels k (relabel n ls l) = labels k l.
Proof.
  intros Hk. unfold labels. revert ls. induction l as [|[x j] l IH]; intros ls; simpl; auto.
  destruct (Nat.eqb_spec j n) as [->|Hj].
  - destruct ls; simpl; (destruct (Nat.eqb_spec n k); [congruence|]); apply IH.
  - simpl. destruct (j =? k); simpl; now rewrite IH.
Qed.

Lemma relabel_same n ls l : length ls = length (labels n l) -> labels n (relabel n ls l) = ls.
Proof.
  unfold labels. revert ls. induction l as [|[x j] l IH]; intros ls H; simpl in *.
  - destruct ls; [auto|discriminate].
  - destruct (Nat.eqb_spec j n) as [->|Hj]; simpl in *.
    + destruct ls as [|y ls]; [discriminate|]. simpl. rewrite Nat.eqb_refl. simpl. f_equal. apply IH. simpl in H. lia.
    + destruct (Nat.eqb_spec j n); [contradiction|]. now apply IH.
Qed.

Lemma relabel_absent n ls l : ~ In n (map snd l) -> relabel n ls l = l.
Proof.
  induction l as [|[x j] l IH]; simpl; auto. intros H. destruct (Nat.eqb_spec j n) as [->|Hj]; [tauto|].
  now rewrite IH by tauto.
Qed.

(** A list of edges is determined by where they lead and the labels of those that lead to each node. *)
Lemma labels_ext l l' : map snd l = map snd l' -> (forall k, In k (map snd l) -> labels k l = labels k l') -> l = l'.
Proof.
  revert l'. induction l as [|[x j] l IH]; intros [|[x' j'] l'] E H; simpl in E; try discriminate; auto.
  injection E as <- E. assert (Hj := H j (or_introl eq_refl)). unfold labels in Hj. simpl in Hj. rewrite Nat.eqb_refl in Hj.
  simpl in Hj. injection Hj as <- Hj. f_equal. apply IH; auto.
  intros k Hk. assert (H' := H k (or_intror Hk)). unfold labels in H'. simpl in H'.
  destruct (Nat.eqb_spec j k) as [->|]; auto.
Qed.

Lemma labels_length l l' k : map snd l = map snd l' -> length (labels k l) = length (labels k l').
Proof.
  revert l'. unfold labels. induction l as [|[x j] l IH]; intros [|[x' j'] l'] E; simpl in E; try discriminate; auto.
  injection E as <- E. simpl. destruct (j =? k); simpl; auto.
Qed.

Lemma labels_in k l : labels k l <> [] <-> In k (map snd l).
Proof.
  unfold labels. induction l as [|[x j] l IH]; simpl; [tauto|].
  destruct (Nat.eqb_spec j k) as [->|Hj]; simpl.
  - split; [auto|discriminate].
  - rewrite IH. split; [auto|]. intros [H|H]; [contradiction|auto].
Qed.

Lemma permeate_targets f v a l l' : permeate f v a l = (l', None) -> map snd l' = map snd l.
Proof.
  revert l'. induction l as [|[x k] l IH]; intros l' H; simpl in *; [now injection H as <-|].
  destruct (f v x (a k)) as [y [e|]]; [discriminate|]. destruct (permeate f v a l) as [r e]. injection H as <- E. subst e.
  simpl. f_equal. now apply IH.
Qed.

Lemma permeate_all f v a l : forall l', permeate f v a l = (l', None) ->
  Forall2 (fun d' d => snd d' = snd d /\ f v (fst d) (a (snd d)) = (fst d', None)) l' l.
Proof.
  induction l as [|[x k] l IH]; simpl; intros l' H; [injection H as <-; constructor|].
  destruct (f v x (a k)) as [y [e|]] eqn:Ef; [discriminate|]. destruct (permeate f v a l) as [r e]. injection H as <- E. subst e.
  constructor; auto.
Qed.

Lemma permeate_ext f v a a' l : (forall k, In k (map snd l) -> a k = a' k) -> permeate f v a l = permeate f v a' l.
Proof.
  induction l as [|[x k] l IH]; intros H; simpl; auto. rewrite (H k (or_introl eq_refl)).
  destruct (f v x (a' k)) as [y [e|]]; auto. rewrite IH; auto. intros j Hj. apply H. now right.
Qed.

(** ** Steps *)
Section Steps.
  Variable X Y : env.
  Variable g : graph word word.
  Variable ins : nat -> list (word * nat).
  Variable K : kernel.
  Variable w : plan.
  Variable cut reached nodes : list nat.
  Hypothesis lanes_pos : 0 < lanes X.

  Notation task := (mutating X g ins K w cut reached nodes Y).
  Notation lane := (nlane X).
  Notation U0 := (up0 g ins w cut).
  Notation D0 := (dn0 g ins w cut).
  Notation far := (outside X reached).
  Notation soon := (early g ins K w cut).
  Notation s0 := (mstart X g ins w cut reached).

  (** What happens when a node is mutated successfully, or not. *)
  Definition changed (s : mst) (n : nat) (v : word) (d : list (word * nat)) : mst :=
    mkM (upd (vtx s) n v)
        (fun k => match e_op K with None => up s k | Some _ => relabel n (labels k d) (up s k) end)
        (upd (dn s) n d) (upd (marked s) n Mutated) (n :: trace s) (started s) (busy s) (merr s) (mkilled s) (mtick s).
  Definition failed (s : mst) (n : nat) (e : error) : mst :=
    mkM (vtx s) (up s) (dn s) (upd (marked s) n Blocked) (trace s) (started s) (busy s)
        (upd (merr s) (lane n) (Some e)) true (mtick s).
  Definition can_change (s : mst) (n : nat) (v : word) (d : list (word * nat)) : Prop :=
    new_vertex K w s n = (v, None) /\
    match e_op K with None => d = dn s n | Some f => permeate f v (vtx s) (dn s n) = (d, None) end.

  (** The error comes from one of the user's functions. *)
  Definition fault (e : error) : Prop :=
    (exists f x a b, v_op K = Some f /\ snd (f x a b) = Some e) \/
    (exists f x l y, e_op K = Some f /\ snd (f x l y) = Some e).

  Lemma permeate_fault f v a l e : e_op K = Some f -> snd (permeate f v a l) = Some e -> fault e.
  Proof.
    intros Ef. induction l as [|[x k] l IH]; simpl; [discriminate|].
    destruct (f v x (a k)) as [y [e'|]] eqn:E; simpl.
    - intros H. injection H as <-. right. exists f, v, x, (a k). now rewrite E.
    - destruct (permeate f v a l) as [r e']. exact IH.
  Qed.
  Lemma new_vertex_fault s n e : snd (new_vertex K w s n) = Some e -> fault e.
  Proof.
    unfold new_vertex. destruct (v_op K) as [f|] eqn:Ef; [|discriminate]. intros H. left.
    destruct (forward w); do 4 eexists; eauto.
  Qed.

  Lemma mutate_cases s n s' r :
    mutate X K w s n = (s', r) ->
    (exists e, r = Some e /\ s' = failed s n e /\ fault e) \/
    (exists v d, r = None /\ s' = changed s n v d /\ can_change s n v d).
  Proof.
    unfold mutate, changed, failed, can_change. destruct (new_vertex K w s n) as [v [e|]] eqn:Ev.
    { intros H. injection H as <- <-. left. exists e. split; [auto|]. split; [auto|]. apply new_vertex_fault with s n. now rewrite Ev. }
    destruct (e_op K) as [f|] eqn:Ee.
    - destruct (permeate f v (vtx s) (dn s n)) as [d [e|]] eqn:Ep; intros H; injection H as <- <-.
      + left. exists e. split; [auto|]. split; [auto|]. apply permeate_fault with f v (vtx s) (dn s n); auto. now rewrite Ep.
      + right. exists v, d. auto.
    - intros H. injection H as <- <-. right. exists v, (dn s n). auto.
  Qed.

  Definition resume (n : option nat) : list mpkt := match n with Some n => [Node n] | None => [] end.
  Definition sends (l : list (word * nat)) : list mpkt := map (fun e => Node (snd e)) l.
  Definition next (p : mpkt) : list mpkt :=
    match p with Ping l => if S l <? lanes X then [Ping (S l)] else [] | _ => [] end.
  Definition of_pkt (p : mpkt) : option nat := match p with Node n => Some n | _ => None end.
  Definition not_start (p : mpkt) : Prop := match p with Start _ _ _ => False | _ => True end.

  Inductive move (s : mst) : mpkt -> mst -> list mpkt -> Prop :=
  | mv_done l todo n : todo = [] \/ merr s (l mod lanes X) <> None ->
      move s (Start l todo n) (setup s (l mod lanes X) true false) (resume n)
  | mv_early l m todo n v d : merr s (l mod lanes X) = None -> can_change s m v d ->
      move s (Start l (m :: todo) n) (ticked (changed s m v d)) (sends d ++ [Start l todo n])
  | mv_early_failed l m todo n e : merr s (l mod lanes X) = None -> fault e ->
      move s (Start l (m :: todo) n) (setup (failed s m e) (l mod lanes X) true false) (resume n)
  | mv_first p : not_start p -> busy s (mdest X p) = false -> started s (mdest X p) = false ->
      move s p (setup s (mdest X p) true true)
           (next p ++ [Start (mdest X p) (survivors X g ins K w cut reached nodes (mdest X p)) (of_pkt p)])
  | mv_ping l : busy s (l mod lanes X) = false -> started s (l mod lanes X) = true -> move s (Ping l) (ticked s) (next (Ping l))
  | mv_drop n : busy s (lane n) = false -> started s (lane n) = true ->
      marked s n <> Fresh \/ merr s (lane n) <> None \/ mkilled s = true ->
      move s (Node n) (ticked s) []
  | mv_unready n : busy s (lane n) = false -> started s (lane n) = true -> quiescent w s n = false ->
      move s (Node n) (ticked s) []
  | mv_blocked n : busy s (lane n) = false -> started s (lane n) = true -> marked s n = Fresh -> hampered w s n = true ->
      move s (Node n) (ticked (block s n)) (sends (dn s n))
  | mv_late n v d : busy s (lane n) = false -> started s (lane n) = true -> marked s n = Fresh ->
      quiescent w s n = true -> hampered w s n = false -> can_change s n v d ->
      move s (Node n) (ticked (changed s n v d)) (sends d)
  | mv_late_failed n e : busy s (lane n) = false -> started s (lane n) = true -> marked s n = Fresh -> fault e ->
      move s (Node n) (ticked (failed s n e)) [].

  Lemma mutating_moves s p s' out : task s p = Some (s', out) -> move s p s' out.
  Proof.
    unfold mutating. intros H.
    assert (G : not_start p -> move s p s' out).
    { intros Hp.
      assert (H' : (if busy s (mdest X p) then None
          else if negb (started s (mdest X p))
          then Some (setup s (mdest X p) true true, next p ++ [Start (mdest X p) (survivors X g ins K w cut reached nodes (mdest X p)) (of_pkt p)])
          else match p with
          | Node n =>
              if negb (is_fresh (marked s n)) || negb (is_none (merr s (lane n))) || mkilled s && notices Y (mtick s) then Some (ticked s, [])
              else if quiescent w s n
              then if hampered w s n then Some (ticked (block s n), sends (dn s n))
                   else match mutate X K w s n with
                   | (s', None) => Some (ticked s', sends (dn s' n))
                   | (s', Some _) => Some (ticked s', [])
                   end
              else Some (ticked s, [])
          | _ => Some (ticked s, next p)
          end) = Some (s', out)) by (destruct p; [exact H|exact H|destruct Hp]).
      clear H. destruct (busy s (mdest X p)) eqn:Eb; [discriminate|].
      destruct (started s (mdest X p)) eqn:Es; simpl in H'.
      2:{ injection H' as <- <-. now apply mv_first. }
      destruct p as [l|n|]; [injection H' as <- <-; now apply mv_ping| |destruct Hp].
      destruct (negb (is_fresh (marked s n)) || negb (is_none (merr s (lane n))) || mkilled s && notices Y (mtick s)) eqn:E1.
      { injection H' as <- <-. apply mv_drop; auto. apply orb_true_iff in E1 as [E1|E1]; [apply orb_true_iff in E1 as [E1|E1]|].
        - left. destruct (marked s n); discriminate.
        - right. left. destruct (merr s (lane n)); discriminate.
        - right. right. now apply andb_true_iff in E1. }
      apply orb_false_iff in E1 as [E1 _]. apply orb_false_iff in E1 as [E1 _].
      assert (Ef : marked s n = Fresh) by (destruct (marked s n); [auto|discriminate..]).
      destruct (quiescent w s n) eqn:E2; [|injection H' as <- <-; now apply mv_unready].
      destruct (hampered w s n) eqn:E3; [injection H' as <- <-; now apply mv_blocked|].
      destruct (mutate X K w s n) as [s1 r] eqn:E4.
      apply mutate_cases in E4 as [(e & -> & -> & He)|(v & d & -> & -> & Hc)].
      - injection H' as <- <-. now apply mv_late_failed.
      - injection H' as <- <-. simpl. rewrite upd_same. now apply mv_late. }
    destruct p as [l|n|l todo n]; [apply G; exact I|apply G; exact I|].
    clear G. simpl in H. destruct todo as [|m todo].
    { injection H as <- <-. apply mv_done. auto. }
    destruct (merr s (l mod lanes X)) eqn:Ee.
    { injection H as <- <-. apply mv_done. right. congruence. }
    destruct (mutate X K w s m) as [s1 r] eqn:E4.
    apply mutate_cases in E4 as [(e & -> & -> & He)|(v & d & -> & -> & Hc)].
    - injection H as <- <-. now apply mv_early_failed.
    - injection H as <- <-. simpl. rewrite upd_same. now apply mv_early.
  Qed.

  (** ** Structure *)
  Hypothesis nodes_nodup : NoDup nodes.
  Hypothesis dn_closed : forall n k, In n nodes -> In k (map snd (D0 n)) -> In k nodes.
  Hypothesis dual : forall n k, In n nodes -> In k nodes -> (In k (map snd (D0 n)) <-> In n (map snd (U0 k))).

  Definition bad (s : mst) : Prop := exists l, l < lanes X /\ merr s l <> None.
  Definition is_start (l : nat) (p : mpkt) : bool := match p with Start m _ _ => m =? l | _ => false end.
  Definition starts (l : nat) (b : list mpkt) : nat := length (filter (is_start l) b).

  Record sound (s : mst) (b : list mpkt) : Prop := mkSound {
    s_up : forall n, map snd (up s n) = map snd (U0 n);
    s_dn : forall n, map snd (dn s n) = map snd (D0 n);
    s_trace : forall n, In n (trace s) <-> marked s n = Mutated;
    s_nodup : NoDup (trace s);
    s_nodes : forall n, In n (trace s) -> In n nodes;
    s_far : forall n, marked s n = Unreachable <-> far n = true;
    s_bad : (forall n, marked s n = Blocked -> bad s) /\ (mkilled s = true -> bad s);
    s_node : forall n, In (Node n) b -> In n nodes;
    s_ping : forall l, In (Ping l) b -> l < lanes X;
    s_start : forall l todo n, In (Start l todo n) b ->
      l < lanes X /\ busy s l = true /\ started s l = true /\ NoDup todo /\
      (forall m, In m todo -> In m nodes /\ lane m = l /\ marked s m = Fresh /\ soon m = true) /\
      (forall k, n = Some k -> In k nodes);
    s_one : forall l, starts l b <= 1;
    s_idle : forall n, started s (lane n) = false -> marked s n = Fresh \/ marked s n = Unreachable
  }.

  Lemma starts_app l b b' : starts l (b ++ b') = starts l b + starts l b'.
  Proof. unfold starts. now rewrite filter_app, app_length. Qed.
  Lemma starts_perm l b b' : Permutation b b' -> starts l b = starts l b'.
  Proof.
    unfold starts. induction 1; simpl; auto; try congruence.
    - destruct (is_start l x); simpl; congruence.
    - destruct (is_start l x), (is_start l y); reflexivity.
  Qed.
  Lemma starts_cons l p b : starts l (p :: b) = (if is_start l p then 1 else 0) + starts l b.
  Proof. unfold starts. simpl. destruct (is_start l p); reflexivity. Qed.
  Lemma starts_in l todo n b : In (Start l todo n) b -> 1 <= starts l b.
  Proof.
    intros H. apply in_split in H as (b1 & b2 & ->). rewrite starts_app, starts_cons. simpl. rewrite Nat.eqb_refl. lia.
  Qed.
  Lemma starts_pos l b : starts l b <> 0 -> exists todo n, In (Start l todo n) b.
  Proof.
    intros H. induction b as [|p b IH]; [now destruct H|].
    rewrite starts_cons in H. destruct (is_start l p) eqn:E.
    - destruct p; try discriminate. apply Nat.eqb_eq in E. subst. eauto using in_eq.
    - destruct IH as (t & n & Hi); [exact H|]. exists t, n. now right.
  Qed.
  Lemma starts_sends l d : starts l (sends d) = 0.
  Proof. unfold sends. induction d; auto. Qed.
  Lemma starts_resume l n : starts l (resume n) = 0.
  Proof. destruct n; reflexivity. Qed.
  Lemma starts_next l p : starts l (next p) = 0.
  Proof. destruct p as [m| |]; simpl; auto. destruct (S m <? lanes X); reflexivity. Qed.
  Lemma in_sends p d : In p (sends d) <-> exists k, p = Node k /\ In k (map snd d).
  Proof.
    unfold sends. rewrite in_map_iff. split.
    - intros (e & <- & H). exists (snd e). split; auto. now apply in_map.
    - intros (k & -> & H). apply in_map_iff in H as (e & <- & H). eauto.
  Qed.
  Lemma in_resume p n : In p (resume n) <-> exists k, n = Some k /\ p = Node k.
  Proof.
    destruct n as [k|]; simpl; split; try tauto.
    - intros [<-|[]]; eauto.
    - intros (j & H & ->). injection H as <-. auto.
    - intros (j & H & _). discriminate.
  Qed.
  Lemma in_next p q : In q (next p) <-> exists l, p = Ping l /\ q = Ping (S l) /\ S l < lanes X.
  Proof.
    destruct p as [l| |]; simpl; split; try tauto; try (intros (? & H & _); discriminate).
    - destruct (Nat.ltb_spec (S l) (lanes X)); simpl; [|tauto]. intros [<-|[]]. eauto.
    - intros (m & H & -> & Hm). injection H as <-. apply Nat.ltb_lt in Hm. rewrite Hm. now left.
  Qed.

  Lemma changed_up s n v d k : map snd (up (changed s n v d) k) = map snd (up s k).
  Proof. unfold changed. simpl. destruct (e_op K); auto. apply relabel_targets. Qed.
  Lemma can_change_targets s n v d : can_change s n v d -> map snd d = map snd (dn s n).
  Proof. intros [_ H]. destruct (e_op K); [eapply permeate_targets; eauto|now subst]. Qed.

  Lemma survivors_in l n : In n (survivors X g ins K w cut reached nodes l) <-> In n nodes /\ lane n = l /\ soon n = true /\ far n = false.
  Proof.
    unfold survivors. rewrite filter_In, !andb_true_iff, Nat.eqb_eq, negb_true_iff. tauto.
  Qed.

  Lemma sound_perm s b b' : Permutation b b' -> sound s b -> sound s b'.
  Proof.
    intros Hp H. assert (Hi : forall p, In p b' -> In p b) by (intros p; apply Permutation_in; now apply Permutation_sym).
    destruct H. constructor; auto. intros l. now rewrite <- (starts_perm l Hp).
  Qed.

  (** A node that is mutated or found to be blocked, in the three ways. *)
  Lemma sound_changed s b b' n v d :
    sound s b -> (forall p, In p b' -> In p b) -> (forall l, starts l b' <= starts l b) ->
    In n nodes -> marked s n = Fresh -> started s (lane n) = true ->
    (forall l todo k, In (Start l todo k) b' -> ~ In n todo) ->
    can_change s n v d -> sound (ticked (changed s n v d)) (sends d ++ b').
  Proof.
    intros H Hi Ho Hn Hf Hs Ht Hc. destruct H. constructor; simpl; auto.
    - intros k. rewrite <- s_up0. exact (changed_up s n v d k).
    - intros k. unfold upd. destruct (Nat.eqb_spec k n) as [->|]; auto.
      rewrite (can_change_targets Hc). apply s_dn0.
    - intros k. unfold upd. destruct (Nat.eqb_spec k n) as [->|Hk]; [tauto|].
      rewrite <- s_trace0. split; [intros [E|E]; [congruence|auto]|auto].
    - constructor; auto. rewrite s_trace0. congruence.
    - intros k [<-|Hk]; auto.
    - intros k. unfold upd. destruct (Nat.eqb_spec k n) as [->|]; auto.
      rewrite <- s_far0. rewrite Hf. split; discriminate.
    - destruct s_bad0 as [B1 B2]. split; [|exact B2]. intros k. unfold upd. destruct (Nat.eqb_spec k n); [discriminate|apply B1].
    - intros k Hk. apply in_app_iff in Hk as [Hk|Hk]; [|auto].
      apply in_sends in Hk as (j & E & Hk). injection E as <-. apply dn_closed with n; auto. rewrite <- s_dn0, <- (can_change_targets Hc). auto.
    - intros l Hl. apply in_app_iff in Hl as [Hl|Hl]; [|auto]. apply in_sends in Hl as (j & E & _). discriminate.
    - intros l todo k Hl. apply in_app_iff in Hl as [Hl|Hl]; [apply in_sends in Hl as (j & E & _); discriminate|].
      destruct (s_start0 l todo k (Hi _ Hl)) as (A1 & A2 & A3 & A4 & A5 & A6).
      do 4 (split; [auto|]). split; [|auto]. intros m Hm. unfold upd. destruct (Nat.eqb_spec m n) as [->|]; [|auto].
      now destruct (Ht _ _ _ Hl).
    - intros l. rewrite starts_app, starts_sends. specialize (Ho l). specialize (s_one0 l). lia.
    - intros k Hk. unfold upd. destruct (Nat.eqb_spec k n) as [->|]; auto. congruence.
  Qed.

  Lemma no_starts s b l : sound s b -> busy s l = false -> starts l b = 0.
  Proof.
    intros H Hb. destruct (Nat.eq_dec (starts l b) 0) as [|E]; auto. apply starts_pos in E as (t & n & Hi).
    apply (s_start H) in Hi. destruct Hi as (_ & Hi & _). congruence.
  Qed.

  Lemma mdest_lt p : mdest X p < lanes X.
  Proof. destruct p; simpl; try apply Nat.mod_upper_bound; try lia. now apply lane_lt. Qed.

  Lemma sound_bag s b b' :
    sound s b ->
    (forall p, In p b' -> In p b \/ (exists n, p = Node n /\ In n nodes) \/ (exists l, p = Ping l /\ l < lanes X)) ->
    (forall l, starts l b' <= starts l b) -> sound s b'.
  Proof.
    intros H Hi Ho. destruct H. constructor; auto.
    - intros n Hn. destruct (Hi _ Hn) as [?|[(k & E & ?)|(k & E & ?)]]; auto; congruence.
    - intros l Hl. destruct (Hi _ Hl) as [?|[(k & E & ?)|(k & E & ?)]]; auto; congruence.
    - intros l todo n Hl. destruct (Hi _ Hl) as [?|[(k & E & ?)|(k & E & ?)]]; auto; congruence.
    - intros l. specialize (Ho l). specialize (s_one0 l). lia.
  Qed.
  Lemma sound_tick s b : sound s b -> sound (ticked s) b.
  Proof. intros []. now constructor. Qed.
  Lemma sound_stop s b l : sound s b -> (forall todo n, ~ In (Start l todo n) b) -> sound (setup s l true false) b.
  Proof.
    intros H Hl. destruct H. constructor; auto; simpl.
    - intros m todo n Hm. assert (m <> l) by (intros ->; eapply Hl; eauto). rewrite !upd_diff by auto. auto.
    - intros n. destruct (Nat.eqb_spec (lane n) l) as [E|E].
      + rewrite E, upd_same. discriminate.
      + rewrite upd_diff by auto. auto.
  Qed.
  Lemma sound_begin s b l n :
    sound s b -> l < lanes X -> started s l = false -> busy s l = false -> (forall k, n = Some k -> In k nodes) ->
    sound (setup s l true true) (Start l (survivors X g ins K w cut reached nodes l) n :: b).
  Proof.
    intros H Hl Hs Hb Hn. assert (H0 := no_starts l H Hb). destruct H. constructor; auto; simpl.
    - intros k [E|Hk]; [discriminate|auto].
    - intros k [E|Hk]; [discriminate|auto].
    - intros m todo k [E|Hm].
      + injection E as <- <- <-. rewrite !upd_same. do 3 (split; [auto|]). split.
        { unfold survivors. now apply NoDup_filter. }
        split; auto. intros m Hm. apply survivors_in in Hm as (M1 & M2 & M3 & M4).
        split; [auto|]. split; [auto|]. split; [|auto]. rewrite <- M2 in Hs.
        destruct (s_idle0 m Hs) as [|E]; [auto|]. apply s_far0 in E. congruence.
      + assert (m <> l).
        { intros ->. apply starts_in in Hm. lia. }
        rewrite !upd_diff by auto. auto.
    - intros m. rewrite starts_cons. simpl. destruct (Nat.eqb_spec l m) as [<-|]; [lia|]. apply s_one0.
    - intros k. destruct (Nat.eqb_spec (lane k) l) as [E|E].
      + rewrite E, upd_same. discriminate.
      + rewrite upd_diff by auto. auto.
  Qed.
  Lemma bad_failed s n e : bad (failed s n e).
  Proof. exists (lane n). split; [now apply lane_lt|]. simpl. rewrite upd_same. discriminate. Qed.

  Lemma sound_failed s b n e :
    sound s b -> marked s n = Fresh -> started s (lane n) = true ->
    (forall l todo k, In (Start l todo k) b -> ~ In n todo) -> sound (failed s n e) b.
  Proof.
    intros H Hf Hs Ht. destruct H. constructor; auto.
    - intros k. simpl. rewrite s_trace0. unfold upd. destruct (Nat.eqb_spec k n) as [->|]; [|tauto]. rewrite Hf. split; discriminate.
    - intros k. simpl. rewrite <- s_far0. unfold upd. destruct (Nat.eqb_spec k n) as [->|]; [|tauto]. rewrite Hf. split; discriminate.
    - split; intros; apply bad_failed.
    - simpl. intros l todo k Hl. destruct (s_start0 _ _ _ Hl) as (A1 & A2 & A3 & A4 & A5 & A6).
      do 4 (split; [auto|]). split; [|auto]. intros m Hm. unfold upd. destruct (Nat.eqb_spec m n) as [->|]; [|auto].
      now destruct (Ht _ _ _ Hl).
    - intros k. simpl. intros Hk. unfold upd. destruct (Nat.eqb_spec k n) as [->|]; auto. congruence.
  Qed.
  Lemma sound_block s b n :
    sound s b -> marked s n = Fresh -> started s (lane n) = true -> bad s ->
    (forall l todo k, In (Start l todo k) b -> ~ In n todo) -> sound (block s n) b.
  Proof.
    intros H Hf Hs Hb Ht. destruct H. constructor; auto.
    - intros k. simpl. rewrite s_trace0. unfold upd. destruct (Nat.eqb_spec k n) as [->|]; [|tauto]. rewrite Hf. split; discriminate.
    - intros k. simpl. rewrite <- s_far0. unfold upd. destruct (Nat.eqb_spec k n) as [->|]; [|tauto]. rewrite Hf. split; discriminate.
    - simpl. intros l todo k Hl. destruct (s_start0 _ _ _ Hl) as (A1 & A2 & A3 & A4 & A5 & A6).
      do 4 (split; [auto|]). split; [|auto]. intros m Hm. unfold upd. destruct (Nat.eqb_spec m n) as [->|]; [|auto].
      now destruct (Ht _ _ _ Hl).
    - intros k. simpl. intros Hk. unfold upd. destruct (Nat.eqb_spec k n) as [->|]; auto. congruence.
  Qed.

  Lemma sound_tail s p b : sound s (p :: b) -> sound s b.
  Proof.
    intros H. apply sound_bag with (p :: b); auto.
    - intros q Hq. left. now right.
    - intros l. rewrite starts_cons. lia.
  Qed.

  Lemma free_todo s b n : sound s b -> busy s (lane n) = false -> forall l todo k, In (Start l todo k) b -> ~ In n todo.
  Proof.
    intros H Hb l todo k Hi Hn. destruct (s_start H _ _ _ Hi) as (_ & Hl & _ & _ & Ht & _).
    destruct (Ht n Hn) as (_ & E & _). congruence.
  Qed.

  Lemma start_alone s l todo n b : sound s (Start l todo n :: b) -> forall t m, ~ In (Start l t m) b.
  Proof.
    intros H t m Hi. apply starts_in in Hi. assert (H1 := s_one H l). rewrite starts_cons in H1. simpl in H1.
    rewrite Nat.eqb_refl in H1. lia.
  Qed.

  Lemma hampered_bad s b n : sound s b -> hampered w s n = true -> bad s.
  Proof.
    intros H Hh. unfold hampered in Hh. apply andb_true_iff in Hh as [_ Hh].
    apply existsb_exists in Hh as (e & _ & He). apply (proj1 (s_bad H)) with (snd e).
    destruct (marked s (snd e)); auto; discriminate.
  Qed.

  Lemma sound_early s l m todo n b : sound s (Start l (m :: todo) n :: b) ->
    sound s (Start l todo n :: b) /\ In m nodes /\ marked s m = Fresh /\ started s (lane m) = true /\ lane m = l /\ soon m = true /\
    (forall l' todo' k, In (Start l' todo' k) (Start l todo n :: b) -> ~ In m todo') /\
    l mod lanes X = l.
  Proof.
    intros H. destruct (s_start H l (m :: todo) n (or_introl eq_refl)) as (A1 & A2 & A3 & A4 & A5 & A6).
    destruct (A5 m (or_introl eq_refl)) as (M1 & M2 & M3 & M4). apply NoDup_cons_iff in A4 as [A4 A4'].
    split.
    { destruct H. constructor; auto.
      - intros k [E|Hk]; [discriminate|]. apply s_node0. now right.
      - intros k [E|Hk]; [discriminate|]. apply s_ping0. now right.
      - intros l' t' k [E|Hk]; [|apply s_start0; now right]. injection E as <- <- <-.
        do 4 (split; [auto|]). split; auto. intros j Hj. apply A5. now right.
      - intros l'. specialize (s_one0 l'). rewrite starts_cons in *. exact s_one0. }
    do 2 (split; [auto|]). split; [now rewrite M2|]. do 2 (split; [auto|]).
    split; [|now apply Nat.mod_small].
    intros l' t' k [E|Hk] Hm.
    - injection E as <- <- <-. contradiction.
    - assert (In (Start l' t' k) (Start l (m :: todo) n :: b)) as Hk' by now right.
      destruct (s_start H _ _ _ Hk') as (_ & _ & _ & _ & B & _). destruct (B m Hm) as (_ & E & _).
      apply (start_alone H t' k). rewrite <- M2, E. exact Hk.
  Qed.

  Lemma sound_step s p b s' out : sound s (p :: b) -> move s p s' out -> sound s' (out ++ b).
  Proof.
    intros H M. assert (Ht := sound_tail H). destruct M.
    - destruct (s_start H l todo n (or_introl eq_refl)) as (A1 & A2 & A3 & A4 & A5 & A6).
      rewrite Nat.mod_small by auto. apply sound_bag with b.
      + apply sound_stop; auto. eapply start_alone; eauto.
      + intros q Hq. apply in_app_iff in Hq as [Hq|Hq]; auto. apply in_resume in Hq as (k & -> & ->). right; left; exists k; auto.
      + intros m. rewrite starts_app, starts_resume. lia.
    - apply sound_early in H as (Q1 & M1 & M2 & M3 & M4 & M5 & M6 & M7).
      rewrite <- app_assoc. simpl. apply sound_changed with (Start l todo n :: b); auto.
    - apply sound_early in H as (Q1 & M1 & M2 & M3 & M4 & M5 & M6 & M7). rewrite M7.
      assert (Q2 : sound (failed s m e) (Start l todo n :: b)) by (apply sound_failed; auto).
      apply sound_bag with b.
      + apply sound_stop; [apply (sound_tail Q2)|]. eapply start_alone; eauto.
      + intros q Hq. apply in_app_iff in Hq as [Hq|Hq]; auto. apply in_resume in Hq as (k & -> & ->).
        destruct (s_start Q1 l todo (Some k) (or_introl eq_refl)) as (_ & _ & _ & _ & _ & A6). right; left; exists k; auto.
      + intros j. rewrite starts_app, starts_resume. lia.
    - rewrite <- app_assoc. simpl.
      apply sound_bag with (Start (mdest X p) (survivors X g ins K w cut reached nodes (mdest X p)) (of_pkt p) :: b).
      + apply sound_begin; auto using mdest_lt. intros k E. destruct p; try discriminate. injection E as <-.
        apply (s_node H). now left.
      + intros q Hq. apply in_app_iff in Hq as [Hq|Hq]; auto. apply in_next in Hq as (l & -> & -> & Hl). right; right; exists (S l); auto.
      + intros j. rewrite starts_app, starts_next. lia.
    - apply sound_tick, sound_bag with b; auto.
      + intros q Hq. apply in_app_iff in Hq as [Hq|Hq]; auto. apply in_next in Hq as (l' & E & -> & Hl). right; right; exists (S l'); auto.
      + intros j. rewrite starts_app, starts_next. lia.
    - now apply sound_tick.
    - now apply sound_tick.
    - assert (Hb := hampered_bad n Ht H3). apply sound_bag with b.
      + apply sound_tick, sound_block; auto. now apply free_todo with s.
      + intros q Hq. apply in_app_iff in Hq as [Hq|Hq]; auto. apply in_sends in Hq as (k & -> & Hk).
        right. left. exists k. split; auto. apply dn_closed with n. { apply (s_node H). now left. }
        now rewrite <- (s_dn H).
      + intros j. rewrite starts_app, starts_sends. lia.
    - apply sound_changed with b; auto.
      + apply (s_node H). now left.
      + now apply free_todo with s.
    - apply sound_tick, sound_failed; auto. now apply free_todo with s.
  Qed.

  Lemma sound_start : sound s0 [Ping 0].
  Proof.
    constructor; simpl; auto; try tauto; try discriminate.
    - intros n. split; [tauto|]. destruct (far n); discriminate.
    - constructor.
    - intros n. destruct (far n); split; auto; discriminate.
    - split; [|discriminate]. intros n. destruct (far n); discriminate.
    - intros n [E|[]]. discriminate.
    - intros l [E|[]]. injection E as <-. auto.
    - intros l t n [E|[]]. discriminate.
    - intros n _. destruct (far n); auto.
  Qed.

  (** ** Progress *)
  Definition pending (n : nat) (b : list mpkt) : Prop := In (Node n) b \/ exists l todo, In (Start l todo (Some n)) b.

  Record progress (s : mst) (b : list mpkt) : Prop := mkProgress {
    p_wait : forall l, l < lanes X -> started s l = true \/ exists m, m <= l /\ In (Ping m) b;
    p_soon : forall n, In n nodes -> marked s n = Fresh -> soon n = true ->
      started s (lane n) = false \/ merr s (lane n) <> None \/ exists todo m, In (Start (lane n) todo m) b /\ In n todo;
    p_late : forall n, In n nodes -> marked s n = Fresh -> soon n = false ->
      bad s \/ (exists k, In k (map snd (U0 n)) /\ marked s k = Fresh) \/ pending n b \/
      (forall k, In k (map snd (U0 n)) -> marked s k <> Mutated)
  }.

  Lemma pending_incl n b b' : (forall p, In p b -> In p b') -> pending n b -> pending n b'.
  Proof. intros H [Hn|(l & t & Hn)]; [left; auto|right; exists l, t; auto]. Qed.
  Lemma pending_tail n p b : pending n (p :: b) -> pending n b \/ p = Node n \/ exists l t, p = Start l t (Some n).
  Proof. intros [[E|H]|(l & t & [E|H])]; [auto|left; left; auto|right; right; eauto|left; right; eauto]. Qed.

  Lemma progress_perm s b b' : Permutation b b' -> progress s b -> progress s b'.
  Proof.
    intros Hp H. assert (Hi : forall p, In p b -> In p b') by (intros p; now apply Permutation_in).
    destruct H. constructor.
    - intros l Hl. destruct (p_wait0 l Hl) as [|(m & Hm & Hb)]; eauto.
    - intros n H1 H2 H3. destruct (p_soon0 n H1 H2 H3) as [|[|(t & m & Hb & Ht)]]; auto. right. right. exists t, m. auto.
    - intros n H1 H2 H3. destruct (p_late0 n H1 H2 H3) as [|[|[Hq|]]]; auto. right. right. left. eapply pending_incl; eauto.
  Qed.

  (** Steps that do not mutate anything. *)
  Lemma progress_same s s' b b' :
    marked s' = marked s -> merr s' = merr s ->
    (forall l, l < lanes X -> started s' l = true \/ exists m, m <= l /\ In (Ping m) b') ->
    (forall n, In n nodes -> marked s n = Fresh -> soon n = true ->
       started s' (lane n) = false \/ merr s (lane n) <> None \/ exists todo m, In (Start (lane n) todo m) b' /\ In n todo) ->
    (forall n, pending n b -> pending n b' \/ bad s \/ (exists k, In k (map snd (U0 n)) /\ marked s k = Fresh) \/ marked s n <> Fresh) ->
    progress s b -> progress s' b'.
  Proof.
    intros Em Ee Hw Hs Hp H. destruct H. constructor; auto.
    - intros n. rewrite Em, Ee. auto.
    - intros n H1 H2 H3. unfold bad. rewrite Em in *. rewrite Ee.
      destruct (p_late0 n H1 H2 H3) as [|[|[Hq|]]]; auto.
      apply Hp in Hq as [|[|[|]]]; auto. contradiction.
  Qed.

  Lemma ping_stays s p b b' q :
    move s p q b' -> sound s (p :: b) -> progress s (p :: b) ->
    (forall l, started s l = true -> started q l = true) ->
    (forall l, p = Ping l -> started q l = true /\ (S l < lanes X -> In (Ping (S l)) b')) ->
    forall l, l < lanes X -> started q l = true \/ exists m, m <= l /\ In (Ping m) (b' ++ b).
  Proof.
    intros _ _ H Hs Hn l Hl. destruct (p_wait H Hl) as [|(m & Hm & [E|Hb])]; [left; auto| |].
    - destruct (Hn _ E) as [H1 H2]. destruct (Nat.eq_dec m l) as [->|]; [auto|].
      right. exists (S m). split; [lia|]. apply in_app_iff. left. apply H2. lia.
    - right. exists m. split; auto. apply in_app_iff. auto.
  Qed.

  Lemma progress_changed s n v d p b b' :
    sound s (p :: b) -> progress s (p :: b) -> In n nodes -> marked s n = Fresh -> can_change s n v d ->
    (forall l, p <> Ping l) ->
    (forall q, In q b -> In q b') ->
    (forall l todo m, p = Start l todo m -> exists todo', In (Start l todo' m) b' /\ (forall k, In k todo -> In k todo' \/ k = n)) ->
    (forall m, p = Node m -> m = n) ->
    progress (ticked (changed s n v d)) (sends d ++ b').
  Proof.
    intros H P Hn Hf Hc Hp Hb Hst Hnd. destruct P. constructor; simpl.
    - intros l Hl. destruct (p_wait0 l Hl) as [|(m & Hm & [E|Hi])]; [auto|now destruct (Hp m)|].
      right. exists m. split; auto. apply in_app_iff. auto.
    - intros k Hk Hkf Hks. unfold upd in Hkf. destruct (Nat.eqb_spec k n) as [->|Hkn]; [discriminate|].
      destruct (p_soon0 k Hk Hkf Hks) as [|[|(t & m & [E|Hi] & Ht)]]; auto.
      + destruct (Hst _ _ _ E) as (t' & Hi & Ht'). right. right. exists t', m. split; [apply in_app_iff; auto|].
        destruct (Ht' _ Ht); [auto|contradiction].
      + right. right. exists t, m. split; auto. apply in_app_iff. auto.
    - intros k Hk Hkf Hks. unfold upd in Hkf. destruct (Nat.eqb_spec k n) as [->|Hkn]; [discriminate|].
      destruct (in_dec Nat.eq_dec n (map snd (U0 k))) as [Hi|Hi].
      + right. right. left. left. apply in_app_iff. left. apply in_sends. exists k. split; auto.
        rewrite (can_change_targets Hc), (s_dn H). now apply dual.
      + destruct (p_late0 k Hk Hkf Hks) as [|[(j & Hj & Hjf)|[Hq|Hq]]].
        * auto.
        * right. left. exists j. split; auto. unfold upd. destruct (Nat.eqb_spec j n) as [->|]; [contradiction|auto].
        * right. right. left. apply pending_tail in Hq as [Hq|[E|(l & t & E)]].
          -- eapply pending_incl; [|eauto]. intros q Hq'. apply in_app_iff. auto.
          -- apply Hnd in E. congruence.
          -- destruct (Hst _ _ _ E) as (t' & Hi' & _). right. exists l, t'. apply in_app_iff. auto.
        * right. right. right. intros j Hj. unfold upd. destruct (Nat.eqb_spec j n) as [->|]; [contradiction|auto].
  Qed.

  Lemma unready_fresh s b n : sound s b -> quiescent w s n = false -> exists k, In k (map snd (U0 n)) /\ marked s k = Fresh.
  Proof.
    intros H Hq. unfold quiescent in Hq. apply orb_false_iff in Hq as [_ Hq].
    rewrite <- (s_up H).
    induction (up s n) as [|e l IH]; [discriminate|]. cbn [forallb] in Hq. apply andb_false_iff in Hq as [Hq|Hq].
    - exists (snd e). split; [now left|]. destruct (marked s (snd e)); auto; discriminate.
    - destruct (IH Hq) as (k & Hk & Hf). exists k. split; auto. now right.
  Qed.

  Lemma progress_step s p b s' out : sound s (p :: b) -> move s p s' out -> progress s (p :: b) -> progress s' (out ++ b).
  Proof.
    intros H M P. assert (Hw := ping_stays M H P). assert (Hin : forall q, In q b -> In q (out ++ b)) by (intros; apply in_app_iff; auto).
    destruct M.
    - destruct (s_start H l todo n (or_introl eq_refl)) as (A1 & A2 & A3 & A4 & A5 & A6). rewrite Nat.mod_small in * by auto.
      apply progress_same with (s := s) (b := Start l todo n :: b); auto.
      + apply Hw; simpl; [|intros; discriminate].
        intros m Hm. unfold upd. now destruct (m =? l).
      + intros k Hk Hf Hs. destruct (p_soon P k Hk Hf Hs) as [E|[E|(t & m & [E|Hi] & Ht)]]; auto.
        * simpl. unfold upd. destruct (Nat.eqb_spec (lane k) l) as [E'|]; [|auto]. congruence.
        * injection E as E <- <-. destruct H0 as [->|H0]; [destruct Ht|]. rewrite <- E. auto.
        * right. right. eauto.
      + intros k Hk. left. apply pending_tail in Hk as [Hk|[E|(l' & t & E)]]; [eapply pending_incl; eauto|discriminate|].
        injection E as _ _ ->. left. now left.
    - destruct (sound_early H) as (Q1 & M1 & M2 & M3 & M4 & M5 & M6 & M7).
      rewrite <- app_assoc. simpl. apply progress_changed with (p := Start l (m :: todo) n) (b := b); auto.
      + intros; discriminate.
      + intros; now right.
      + intros l' t' n' E. injection E as <- <- <-. exists todo. split; [now left|]. intros k [E|Hk]; auto.
      + intros; discriminate.
    - destruct (sound_early H) as (Q1 & M1 & M2 & M3 & M4 & M5 & M6 & M7). rewrite M7 in *.
      constructor.
      + apply Hw; simpl; [|intros; discriminate].
        intros k Hk. unfold upd. now destruct (k =? l).
      + simpl. intros k Hk Hf Hs. unfold upd in Hf. destruct (Nat.eqb_spec k m) as [->|Hkm]; [discriminate|].
        unfold upd. destruct (Nat.eqb_spec (lane k) (lane m)) as [E|E]; [right; left; discriminate|].
        destruct (Nat.eqb_spec (lane k) l); [congruence|].
        destruct (p_soon P k Hk Hf Hs) as [E'|[E'|(t & j & [E'|Hi] & Ht)]]; auto.
        * injection E' as E' _ _. congruence.
        * right. right. eauto.
      + intros k _ _ _. left. exact (bad_failed s m e).
    - apply progress_same with (s := s) (b := p :: b); auto.
      + apply Hw; simpl.
        * intros k Hk. unfold upd. now destruct (k =? mdest X p).
        * intros l ->. simpl in *. assert (Hl : l < lanes X) by (apply (s_ping H); now left).
          rewrite Nat.mod_small by auto. rewrite upd_same. split; auto.
          intros Hl'. apply Nat.ltb_lt in Hl'. rewrite Hl'. apply in_app_iff. left. now left.
      + intros k Hk Hf Hs. simpl. unfold upd. destruct (Nat.eqb_spec (lane k) (mdest X p)) as [E|E].
        * right. right. exists (survivors X g ins K w cut reached nodes (mdest X p)), (of_pkt p).
          rewrite E. split; [apply in_app_iff; left; apply in_app_iff; right; now left|].
          apply survivors_in. do 3 (split; [auto|]). destruct (far k) eqn:Ef; auto. apply (s_far H) in Ef. congruence.
        * destruct (p_soon P k Hk Hf Hs) as [E'|[E'|(t & j & [E'|Hi] & Ht)]]; auto.
          -- subst p. destruct H0.
          -- right. right. exists t, j. split; auto.
      + intros k Hk. left. apply pending_tail in Hk as [Hk|[E|(l' & t & E)]]; [eapply pending_incl; eauto| |].
        * subst p. right. exists (mdest X (Node k)), (survivors X g ins K w cut reached nodes (mdest X (Node k))). simpl. now left.
        * subst p. destruct H0.
    - assert (Hl : l < lanes X) by (apply (s_ping H); now left). rewrite Nat.mod_small in * by auto.
      apply progress_same with (s := s) (b := Ping l :: b); auto.
      + apply Hw; auto. intros k E. injection E as <-. split; auto. intros Hl'. apply in_next. eauto.
      + intros k Hk Hf Hs. destruct (p_soon P k Hk Hf Hs) as [E'|[E'|(t & j & [E'|Hi] & Ht)]]; auto.
        * discriminate.
        * right. right. eauto.
      + intros k Hk. left. apply pending_tail in Hk as [Hk|[E|(l' & t & E)]]; [eapply pending_incl; eauto|discriminate|discriminate].
    - apply progress_same with (s := s) (b := Node n :: b); auto.
      + apply Hw; auto. intros; discriminate.
      + intros k Hk Hf Hs. destruct (p_soon P k Hk Hf Hs) as [E'|[E'|(t & j & [E'|Hi] & Ht)]]; auto.
        * discriminate.
        * right. right. eauto.
      + intros k Hk. apply pending_tail in Hk as [Hk|[E|(l' & t & E)]]; [left; eapply pending_incl; eauto| |discriminate].
        injection E as ->. destruct H2 as [|[|]]; auto.
        * right. left. exists (lane k). split; auto. now apply lane_lt.
        * right. left. now apply (s_bad H).
    - apply progress_same with (s := s) (b := Node n :: b); auto.
      + apply Hw; auto. intros; discriminate.
      + intros k Hk Hf Hs. destruct (p_soon P k Hk Hf Hs) as [E'|[E'|(t & j & [E'|Hi] & Ht)]]; auto.
        * discriminate.
        * right. right. eauto.
      + intros k Hk. apply pending_tail in Hk as [Hk|[E|(l' & t & E)]]; [left; eapply pending_incl; eauto| |discriminate].
        injection E as ->. right. right. left. eapply unready_fresh; eauto.
    - assert (Hb := hampered_bad n H H3). constructor.
      + apply Hw; auto. intros; discriminate.
      + simpl. intros k Hk Hf Hs. unfold upd in Hf. destruct (Nat.eqb_spec k n) as [->|Hkm]; [discriminate|].
        destruct (p_soon P k Hk Hf Hs) as [E'|[E'|(t & j & [E'|Hi] & Ht)]]; auto.
        * discriminate.
        * right. right. exists t, j. split; auto.
      + intros k _ _ _. left. exact Hb.
    - apply progress_changed with (p := Node n) (b := b); auto.
      + apply (s_node H). now left.
      + intros; discriminate.
      + intros; discriminate.
      + intros m E. now injection E as ->.
    - constructor.
      + apply Hw; auto. intros; discriminate.
      + simpl. intros k Hk Hf Hs. unfold upd in Hf. destruct (Nat.eqb_spec k n) as [->|Hkm]; [discriminate|].
        unfold upd. destruct (Nat.eqb_spec (lane k) (lane n)) as [E|E]; [right; left; discriminate|].
        destruct (p_soon P k Hk Hf Hs) as [E'|[E'|(t & j & [E'|Hi] & Ht)]]; auto.
        * discriminate.
        * right. right. exists t, j. split; auto.
      + intros k _ _ _. left. exact (bad_failed s n e).
  Qed.

  Lemma progress_start : progress s0 [Ping 0].
  Proof.
    constructor; simpl; auto.
    - intros l _. right. exists 0. split; [lia|auto].
    - intros n _ _ _. right. right. right. intros k _. destruct (far k); discriminate.
  Qed.

  (** When nothing is left to do. *)
  Lemma finished s : sound s [] -> progress s [] -> ~ bad s ->
    forall n, In n nodes -> marked s n = Fresh ->
    soon n = false /\ ((exists k, In k (map snd (U0 n)) /\ marked s k = Fresh) \/ (forall k, In k (map snd (U0 n)) -> marked s k <> Mutated)).
  Proof.
    intros H P Hb n Hn Hf. destruct (soon n) eqn:Hs.
    - exfalso. destruct (p_soon P n Hn Hf Hs) as [E|[E|(t & m & [] & _)]].
      + destruct (p_wait P (lane_lt X lanes_pos n)) as [E'|(m & _ & [])]. congruence.
      + apply Hb. exists (lane n). split; auto. now apply lane_lt.
    - split; auto. destruct (p_late P n Hn Hf Hs) as [|[|[[[]|(l & t & [])]|]]]; auto.
  Qed.

  (** ** Order *)
  Definition in_order (s : mst) : Prop :=
    forall n t1 t2, trace s = t1 ++ n :: t2 -> forall k, In k (map snd (U0 n)) -> In k t2 \/ far k = true.
  Definition rooted : Prop :=
    unordered w = false /\ forall n k, In n nodes -> soon n = true -> far n = false -> In k (map snd (U0 n)) -> far k = true.

  Lemma in_order_settled s b n k :
    sound s b -> in_order s -> marked s n = Mutated -> In k (map snd (U0 n)) -> marked s k = Mutated \/ marked s k = Unreachable.
  Proof.
    intros H Ho Hn Hk. apply (s_trace H) in Hn. apply in_split in Hn as (t1 & t2 & E).
    destruct (Ho _ _ _ E k Hk) as [Hi|Hf].
    - left. apply (s_trace H). rewrite E. apply in_app_iff. right. now right.
    - right. now apply (s_far H).
  Qed.

  Lemma settled s b n : sound s b -> unordered w = false -> quiescent w s n = true -> hampered w s n = false ->
    forall k, In k (map snd (U0 n)) -> marked s k = Mutated \/ marked s k = Unreachable.
  Proof.
    intros H Hu Hq Hh k Hk. unfold quiescent in Hq. unfold hampered in Hh. rewrite Hu in *. simpl in *.
    rewrite <- (s_up H) in Hk. apply in_map_iff in Hk as (e & <- & He).
    rewrite forallb_forall in Hq. specialize (Hq e He).
    assert (Hb : is_blocked (marked s (snd e)) = false).
    { destruct (is_blocked (marked s (snd e))) eqn:E; auto. exfalso. rewrite <- not_true_iff_false in Hh. apply Hh.
      apply existsb_exists. eauto. }
    destruct (marked s (snd e)); auto; discriminate.
  Qed.

  (** The nodes a step mutates. *)
  Inductive mutates_node (s : mst) (b : list mpkt) : mst -> Prop :=
  | mn_none s' : vtx s' = vtx s -> up s' = up s -> dn s' = dn s -> trace s' = trace s ->
      (forall n, marked s' n = Mutated <-> marked s n = Mutated) -> mutates_node s b s'
  | mn_some n v d : In n nodes -> marked s n = Fresh -> can_change s n v d ->
      (rooted -> forall k, In k (map snd (U0 n)) -> marked s k = Mutated \/ marked s k = Unreachable) ->
      mutates_node s b (ticked (changed s n v d)).

  Lemma move_mutates s p b s' out : sound s (p :: b) -> move s p s' out -> mutates_node s b s'.
  Proof.
    intros H M. destruct M; try (apply mn_none; simpl; tauto).
    - destruct (sound_early H) as (Q1 & M1 & M2 & M3 & M4 & M5 & M6 & M7). apply mn_some; auto.
      intros [_ Hr] k Hk. right. apply (s_far H). apply Hr with m; auto.
      destruct (far m) eqn:Ef; auto. apply (s_far H) in Ef. congruence.
    - destruct (sound_early H) as (Q1 & M1 & M2 & M3 & M4 & M5 & M6 & M7). apply mn_none; simpl; auto.
      intros k. unfold upd. destruct (Nat.eqb_spec k m) as [->|]; [|tauto]. rewrite M2. split; discriminate.
    - apply mn_none; simpl; auto.
      intros k. unfold upd. destruct (Nat.eqb_spec k n) as [->|]; [|tauto]. rewrite H2. split; discriminate.
    - apply mn_some; auto.
      + apply (s_node H). now left.
      + intros [Hu _]. eapply settled; eauto.
    - apply mn_none; simpl; auto.
      intros k. unfold upd. destruct (Nat.eqb_spec k n) as [->|]; [|tauto]. rewrite H2. split; discriminate.
  Qed.

  Lemma in_order_step s b s' : rooted -> sound s b -> mutates_node s b s' -> in_order s -> in_order s'.
  Proof.
    intros Hr H M Ho. destruct M as [s' _ _ _ E _|n v d Hn Hf Hc Hk].
    - intros m t1 t2. rewrite E. apply Ho.
    - intros m t1 t2 E k Hi. simpl in E. destruct t1 as [|x t1]; injection E as -> E.
      + subst t2. destruct (Hk Hr k Hi) as [E|E]; [left; now apply (s_trace H)|right; now apply (s_far H)].
      + eapply Ho; eauto.
  Qed.

  (** ** Values *)
  Hypothesis dual_len : forall n k, In n nodes -> In k nodes -> length (labels k (D0 n)) = length (labels n (U0 k)).

  Definition see (V : nat -> word) (l : list (word * nat)) : list (word * word) := map (fun e => (fst e, V (snd e))) l.

  (** The vertex and the edges to dependants that a node should have, given those of the
      prerequisites, and the labels that an edge to a prerequisite should have. *)
  Definition vertex_of (n : nat) (V : nat -> word) (U : nat -> list (word * nat)) : Prop :=
    match v_op K with
    | None => V n = vx g n
    | Some f => (if forward w then f (vx g n) (see V (U n)) (see (vx g) (D0 n))
                 else f (vx g n) (see (vx g) (D0 n)) (see V (U n))) = (V n, None)
    end.
  Definition edges_of (n : nat) (V : nat -> word) (D : nat -> list (word * nat)) : Prop :=
    match e_op K with
    | None => D n = D0 n
    | Some f => permeate f (V n) (vx g) (D0 n) = (D n, None)
    end.

  Record valued (s : mst) : Prop := mkValued {
    v_same : forall n, marked s n <> Mutated -> vtx s n = vx g n /\ dn s n = D0 n;
    v_vertex : forall n, marked s n = Mutated -> vertex_of n (vtx s) (up s);
    v_edges : forall n, marked s n = Mutated -> edges_of n (vtx s) (dn s);
    v_labels : forall n k, In n nodes -> In k nodes ->
      (marked s n = Mutated -> e_op K <> None -> labels n (up s k) = labels k (dn s n)) /\
      (marked s n <> Mutated \/ e_op K = None -> labels n (up s k) = labels n (U0 k))
  }.

  (** Vertices do not depend on other vertices or are not changed. *)
  Definition insensitive : Prop :=
    v_op K = None \/
    (e_op K = None /\ forall f, v_op K = Some f -> forall x a a' b b', map fst a = map fst a' -> map fst b = map fst b' -> f x a b = f x a' b').

  Lemma see_ext V V' l : (forall k, In k (map snd l) -> V k = V' k) -> see V l = see V' l.
  Proof.
    intros H. unfold see. apply map_ext_in. intros e He. f_equal. apply H. now apply in_map.
  Qed.
  Lemma see_fst V V' l : map fst (see V l) = map fst (see V' l).
  Proof. unfold see. now rewrite !map_map. Qed.

  Lemma changed_labels s b n v d m k :
    sound s b -> In n nodes -> In k nodes -> can_change s n v d ->
    labels m (up (changed s n v d) k) = if (m =? n) && negb (is_none (e_op K)) then labels k d else labels m (up s k).
  Proof.
    intros H Hn Hk Hc. unfold changed. simpl. destruct (e_op K) eqn:Ee; simpl; [|now rewrite andb_false_r].
    rewrite andb_true_r. destruct (Nat.eqb_spec m n) as [->|Hm]; [|now apply relabel_others].
    apply relabel_same. rewrite (labels_length d (D0 n)) by (rewrite (can_change_targets Hc); apply (s_dn H)).
    rewrite (labels_length (up s k) (U0 k)) by apply (s_up H). now apply dual_len.
  Qed.

  Lemma valued_step s b s' :
    (rooted /\ in_order s) \/ insensitive -> sound s b -> mutates_node s b s' -> valued s -> valued s'.
  Proof.
    intros Hcalm H M Hv. destruct M as [s' Ev Eu Ed _ Em|n v d Hn Hf Hc Hk].
    { destruct Hv as [A B C D]. constructor.
      - intros n. rewrite Em, Ev, Ed. auto.
      - intros n. unfold vertex_of. rewrite Em, Ev, Eu. apply B.
      - intros n. unfold edges_of. rewrite Em, Ev, Ed. apply C.
      - intros n k. rewrite Em, Eu, Ed. apply D. }
    assert (Hnv : v_op K = None -> forall k, vtx s k = vx g k).
    { intros E k. destruct (marked s k) eqn:Ek; try (apply (v_same Hv); congruence).
      assert (Hx := v_vertex Hv k Ek). unfold vertex_of in Hx. now rewrite E in Hx. }
    assert (Hsame := v_same Hv n). rewrite Hf in Hsame. destruct Hsame as [Hvn Hdn]; [discriminate|].
    assert (Hsettled : rooted /\ in_order s ->
      (~ In n (map snd (U0 n))) /\ (forall m, marked s m = Mutated -> ~ In n (map snd (U0 m))) /\
      (forall k, In k (map snd (D0 n)) -> vtx s k = vx g k)).
    { intros [Hr Ho]. assert (Hm : forall m, marked s m = Mutated -> ~ In n (map snd (U0 m))).
      { intros m Em Hi. destruct (in_order_settled m n H Ho Em Hi); congruence. }
      split; [intros Hi; destruct (Hk Hr n Hi); congruence|]. split; [exact Hm|].
      intros k Hi. apply (v_same Hv). intros Ek. apply (Hm k Ek). apply dual; auto. eapply dn_closed; eauto. }
    assert (Hup : forall m, ~ In n (map snd (U0 m)) -> up (ticked (changed s n v d)) m = up s m).
    { intros m Hm. simpl. destruct (e_op K); auto. apply relabel_absent. now rewrite (s_up H). }
    assert (Hsee : forall m, ~ In n (map snd (U0 m)) -> see (vtx (ticked (changed s n v d))) (up (ticked (changed s n v d)) m) = see (vtx s) (up s m)).
    { intros m Hm. rewrite Hup by auto. apply see_ext. intros k Hi. simpl. unfold upd.
      destruct (Nat.eqb_spec k n) as [->|]; auto. rewrite (s_up H) in Hi. contradiction. }
    assert (Hc1 := proj1 Hc). assert (Hc2 := proj2 Hc).
    constructor.
    - intros k. simpl. unfold upd. destruct (Nat.eqb_spec k n) as [->|]; [intros E; now destruct E|]. apply (v_same Hv).
    - intros m Hm. unfold vertex_of. destruct (Nat.eq_dec m n) as [->|Hmn].
      + unfold new_vertex in Hc1. destruct (v_op K) as [f|] eqn:Ef.
        2:{ simpl. rewrite upd_same. injection Hc1 as <-. auto. }
        replace (vtx (ticked (changed s n v d)) n) with v by (simpl; now rewrite upd_same).
        rewrite Hvn, Hdn in Hc1. destruct Hcalm as [Hcalm|[Hcalm|[He Hcalm]]]; [|congruence|].
        * destruct (Hsettled Hcalm) as (S1 & S2 & S3). rewrite Hsee by auto.
          rewrite (see_ext (vx g) (vtx s)) by (intros; symmetry; auto). exact Hc1.
        * rewrite <- Hc1. assert (Eu : up (ticked (changed s n v d)) = up s) by (simpl; now rewrite He). rewrite Eu.
          destruct (forward w); apply (Hcalm f Ef); unfold sights, see; now rewrite !map_map.
      + simpl in Hm. rewrite upd_diff in Hm by auto. assert (Hx := v_vertex Hv m Hm). unfold vertex_of in Hx.
        assert (Evm : vtx (ticked (changed s n v d)) m = vtx s m) by (simpl; now rewrite upd_diff by auto). rewrite Evm.
        destruct (v_op K) as [f|] eqn:Ef; auto. rewrite <- Hx.
        destruct Hcalm as [Hcalm|[Hcalm|[He Hcalm]]]; [|congruence|].
        * destruct (Hsettled Hcalm) as (S1 & S2 & S3). now rewrite Hsee by auto.
        * assert (Eu : up (ticked (changed s n v d)) = up s) by (simpl; now rewrite He). rewrite Eu.
          destruct (forward w); apply (Hcalm f Ef); unfold see; now rewrite !map_map.
    - intros m Hm. unfold edges_of. destruct (Nat.eq_dec m n) as [->|Hmn].
      + simpl. rewrite !upd_same. destruct (e_op K) as [f|] eqn:Ee; [|congruence].
        rewrite <- Hc2, Hdn. apply permeate_ext. intros k Hi. symmetry.
        destruct Hcalm as [Hcalm|[Hcalm|[He Hcalm]]]; [now apply (Hsettled Hcalm)|now apply Hnv|congruence].
      + simpl in *. rewrite !upd_diff in * by auto. apply (v_edges Hv m Hm).
    - intros m k Hm Hi. change (up (ticked (changed s n v d))) with (up (changed s n v d)).
      rewrite (@changed_labels s b n v d m k H Hn Hi Hc). simpl. destruct (Nat.eqb_spec m n) as [->|Hmn].
      + rewrite !upd_same. simpl. split.
        * intros _ He. destruct (e_op K); [reflexivity|congruence].
        * intros [He|He]; [congruence|]. rewrite He. simpl. apply (v_labels Hv n k Hm Hi). auto.
      + rewrite !upd_diff by auto. simpl. now apply (v_labels Hv).
  Qed.

  Lemma valued_start : valued s0.
  Proof.
    assert (E : forall n, marked s0 n <> Mutated) by (intros n; simpl; destruct (far n); discriminate).
    constructor; auto; try (intros n Hn; now destruct (E n)).
    intros n k _ _. split; auto. intros Hn. now destruct (E n).
  Qed.

  (** ** All of it *)
  Definition full (s : mst) (b : list mpkt) : Prop :=
    sound s b /\ progress s b /\ (rooted -> in_order s) /\ (rooted \/ insensitive -> valued s).

  Lemma full_run s : completes task s0 (Ping 0) s -> full s [].
  Proof.
    intros H. unfold completes in H. revert H. apply mruns_inv.
    - intros s1 b b' Hp (A & B & C). split; [eapply sound_perm; eauto|]. split; [eapply progress_perm; eauto|exact C].
    - intros s1 p b s' out (A & B & C & D) T. apply mutating_moves in T. assert (M := move_mutates A T).
      split; [eapply sound_step; eauto|]. split; [eapply progress_step; eauto|].
      assert (A' := A). apply sound_bag with (b' := b) in A'; [|intros q Hq; left; now right|intros l; rewrite starts_cons; lia].
      split; [intros Hr; eapply in_order_step; eauto|].
      intros Hc. eapply valued_step; eauto. destruct Hc; auto.
    - split; [apply sound_start|]. split; [apply progress_start|]. split; [|intros; apply valued_start].
      intros _ n t1 t2 E. destruct t1; discriminate.
  Qed.

  (** ** Termination *)
  Definition occupied (s : mst) (b : list mpkt) : Prop := forall l, busy s l = true -> exists todo n, In (Start l todo n) b.

  Lemma occupied_step s p b s' out : sound s (p :: b) -> move s p s' out -> occupied s (p :: b) -> occupied s' (out ++ b).
  Proof.
    intros H M O.
    assert (G : forall l, busy s l = true -> (exists todo n, In (Start l todo n) (out ++ b)) \/ exists todo n, p = Start l todo n).
    { intros l Hl. destruct (O l Hl) as (t & n & [E|Hi]); [right; eauto|left; exists t, n; apply in_app_iff; auto]. }
    destruct M; intros j Hj; simpl in Hj.
    - destruct (s_start H l todo n (or_introl eq_refl)) as (A1 & _). rewrite Nat.mod_small in Hj by auto.
      unfold upd in Hj. destruct (Nat.eqb_spec j l) as [Ej|Hjl]; [discriminate|].
      destruct (G j Hj) as [|(t & k & E)]; auto. injection E as E _ _. congruence.
    - destruct (G j Hj) as [|(t & k & E)]; auto. injection E as -> _ _. exists todo, n. apply in_app_iff. left. apply in_app_iff. right. now left.
    - destruct (s_start H l (m :: todo) n (or_introl eq_refl)) as (A1 & _). rewrite Nat.mod_small in Hj by auto.
      unfold upd in Hj. destruct (Nat.eqb_spec j l) as [Ej|Hjl]; [discriminate|].
      destruct (G j Hj) as [|(t & k & E)]; auto. injection E as E _ _. congruence.
    - unfold upd in Hj. destruct (Nat.eqb_spec j (mdest X p)) as [Ej|Hjl]; [rewrite Ej|].
      + eexists _, _. apply in_app_iff. left. apply in_app_iff. right. now left.
      + destruct (G j Hj) as [|(t & k & ->)]; auto. destruct H0.
    - destruct (G j Hj) as [|(t & k & E)]; auto; discriminate.
    - destruct (G j Hj) as [|(t & k & E)]; auto; discriminate.
    - destruct (G j Hj) as [|(t & k & E)]; auto; discriminate.
    - destruct (G j Hj) as [|(t & k & E)]; auto; discriminate.
    - destruct (G j Hj) as [|(t & k & E)]; auto; discriminate.
    - destruct (G j Hj) as [|(t & k & E)]; auto; discriminate.
  Qed.

  Lemma occupied_runs s b : mruns task (s0, [Ping 0]) (s, b) -> sound s b /\ occupied s b.
  Proof.
    apply mruns_inv with (I := fun s b => sound s b /\ occupied s b).
    - intros s1 b1 b2 Hp [A B]. split; [eapply sound_perm; eauto|]. intros l Hl. destruct (B l Hl) as (t & n & Hi).
      exists t, n. eapply Permutation_in; eauto.
    - intros s1 p b1 s' out [A B] T. apply mutating_moves in T. split; [eapply sound_step; eauto|eapply occupied_step; eauto].
    - split; [apply sound_start|]. intros l E. discriminate.
  Qed.

  Lemma start_proceeds s l todo n : task s (Start l todo n) <> None.
  Proof.
    unfold mutating. simpl. destruct todo as [|m todo]; [discriminate|]. destruct (merr s (l mod lanes X)); [discriminate|].
    destruct (mutate X K w s m) as [s' [e|]]; discriminate.
  Qed.

  (** Some packet can always be processed. *)
  Lemma proceeds s b : mruns task (s0, [Ping 0]) (s, b) -> b <> [] -> exists p, In p b /\ task s p <> None.
  Proof.
    intros H Hb. destruct (occupied_runs H) as [_ O]. destruct b as [|p b]; [congruence|].
    destruct (task s p) eqn:T; [exists p; split; [now left|congruence]|].
    destruct p as [l|n|l t n]; [| |exfalso; eapply start_proceeds; eauto].
    - assert (Hl : busy s (mdest X (Ping l)) = true).
      { simpl in *. destruct (busy s (l mod lanes X)); auto. destruct (started s (l mod lanes X)); discriminate. }
      destruct (O _ Hl) as (t & n & Hi). exists (Start (mdest X (Ping l)) t n). split; auto. apply start_proceeds.
    - assert (Hl : busy s (mdest X (Node n)) = true).
      { simpl in *. destruct (busy s (lane n)); auto. destruct (negb (started s (lane n))); [discriminate|].
        destruct (negb (is_fresh (marked s n)) || negb (is_none (merr s (lane n))) || mkilled s && notices Y (mtick s)); [discriminate|].
        destruct (quiescent w s n); [|discriminate]. destruct (hampered w s n); [discriminate|].
        destruct (mutate X K w s n) as [s' [e|]]; discriminate. }
      destruct (O _ Hl) as (t & k & Hi). exists (Start (mdest X (Node n)) t k). split; auto. apply start_proceeds.
  Qed.

  Definition fresh_left (s : mst) : nat :=
    list_sum (map (fun n => if is_fresh (marked s n) then S (length (D0 n)) else 0) nodes).
  Definition lanes_left (s : mst) : nat :=
    list_sum (map (fun l => if started s l then 0 else length nodes + 4) (seq 0 (lanes X))).
  Definition weight (p : mpkt) : nat :=
    match p with Ping l => S (lanes X - l) | Node _ => 1 | Start _ todo _ => length todo + 2 end.
  Definition work (s : mst) (b : list mpkt) : nat := fresh_left s + lanes_left s + list_sum (map weight b).

  Lemma list_sum_le (l : list nat) f f' : (forall x, In x l -> f x <= f' x) -> list_sum (map f l) <= list_sum (map f' l).
  Proof.
    induction l as [|x l IH]; intros H; [simpl; lia|].
    cbn [map list_sum fold_right]. assert (H1 := H x (or_introl eq_refl)). assert (H2 := IH (fun y Hy => H y (or_intror Hy))).
    unfold list_sum in *. simpl. lia.
  Qed.
  Lemma list_sum_less (l : list nat) f f' n d : In n l -> f n + d <= f' n -> (forall x, In x l -> f x <= f' x) -> list_sum (map f l) + d <= list_sum (map f' l).
  Proof.
    induction l as [|x l IH]; intros Hn Hd H; [destruct Hn|]. unfold list_sum in *. simpl.
    assert (H1 := H x (or_introl eq_refl)).
    destruct Hn as [->|Hn].
    - assert (H2 := list_sum_le l f f' (fun y Hy => H y (or_intror Hy))). unfold list_sum in H2. lia.
    - assert (H2 := IH Hn Hd (fun y Hy => H y (or_intror Hy))). lia.
  Qed.
  Lemma list_sum_perm l l' : Permutation l l' -> list_sum l = list_sum l'.
  Proof. unfold list_sum. induction 1; simpl; lia. Qed.

  Lemma fresh_drops s s' n : In n nodes -> marked s n = Fresh ->
    marked s' n <> Fresh -> (forall k, k <> n -> marked s' k = marked s k) -> fresh_left s' + S (length (D0 n)) <= fresh_left s.
  Proof.
    intros Hn Hf Hf' Hk. unfold fresh_left. apply list_sum_less with n; auto.
    - rewrite Hf. destruct (marked s' n); simpl; try lia. congruence.
    - intros k _. destruct (Nat.eq_dec k n) as [->|Hkn]; [|now rewrite Hk].
      rewrite Hf. destruct (marked s' n); simpl; try lia.
  Qed.
  Lemma lanes_drop s s' l : l < lanes X -> started s l = false -> started s' = upd (started s) l true ->
    lanes_left s' + (length nodes + 4) <= lanes_left s.
  Proof.
    intros Hl Hs E. unfold lanes_left. apply list_sum_less with l.
    - apply in_seq. lia.
    - rewrite E, upd_same, Hs. lia.
    - intros k _. rewrite E. unfold upd. destruct (k =? l); [lia|auto].
  Qed.
  Lemma lanes_le s s' : (forall l, started s l = true -> started s' l = true) -> lanes_left s' <= lanes_left s.
  Proof.
    intros H. unfold lanes_left. apply list_sum_le. intros l _. destruct (started s l) eqn:E; [rewrite (H l E); lia|].
    destruct (started s' l); lia.
  Qed.
  Lemma fresh_same s s' : marked s' = marked s -> fresh_left s' = fresh_left s.
  Proof. intros E. unfold fresh_left. now rewrite E. Qed.

  Lemma weight_app b b' : list_sum (map weight (b ++ b')) = list_sum (map weight b) + list_sum (map weight b').
  Proof. now rewrite map_app, list_sum_app. Qed.
  Lemma weight_sends d : list_sum (map weight (sends d)) = length d.
  Proof. unfold sends, list_sum. induction d; simpl; auto. Qed.
  Lemma weight_resume n : list_sum (map weight (resume n)) <= 1.
  Proof. destruct n; simpl; lia. Qed.
  Lemma length_targets (l l' : list (word * nat)) : map snd l = map snd l' -> length l = length l'.
  Proof. intros E. now rewrite <- (map_length snd l), E, map_length. Qed.

  Lemma filter_length (f : nat -> bool) l : length (filter f l) <= length l.
  Proof. induction l as [|x l IH]; simpl; auto. destruct (f x); simpl; lia. Qed.

  Lemma work_step s p b s' out : sound s (p :: b) -> move s p s' out -> work s' (out ++ b) < work s (p :: b).
  Proof.
    intros H M. unfold work. rewrite weight_app. replace (list_sum (map weight (p :: b))) with (weight p + list_sum (map weight b)) by reflexivity.
    assert (Hd : forall (d : list (word * nat)) n, map snd d = map snd (dn s n) -> length d = length (D0 n)).
    { intros d n E. apply length_targets. rewrite E. apply (s_dn H). }
    destruct M.
    - rewrite (fresh_same s (setup s (l mod lanes X) true false)) by reflexivity.
      assert (Q := lanes_le s (setup s (l mod lanes X) true false)). assert (R := weight_resume n). simpl.
      enough (lanes_left (setup s (l mod lanes X) true false) <= lanes_left s) by lia.
      apply Q. intros j Hj. simpl. unfold upd. now destruct (j =? l mod lanes X).
    - destruct (sound_early H) as (Q1 & M1 & M2 & M3 & M4 & M5 & M6 & M7).
      assert (A := fresh_drops s (ticked (changed s m v d)) M1 M2). assert (B := lanes_le s (ticked (changed s m v d)) (fun l E => E)).
      rewrite weight_app, weight_sends, (Hd d m) by now apply can_change_targets with v.
      cbn [map weight list_sum fold_right]. simpl length. cbn [marked ticked changed] in A. rewrite upd_same in A.
      assert (A' : fresh_left (ticked (changed s m v d)) + S (length (D0 m)) <= fresh_left s).
      { apply A; [discriminate|]. intros k Hk. now rewrite upd_diff by auto. }
      unfold list_sum in *. simpl in *. lia.
    - destruct (sound_early H) as (Q1 & M1 & M2 & M3 & M4 & M5 & M6 & M7).
      set (s' := setup (failed s m e) (l mod lanes X) true false).
      assert (A : fresh_left s' + S (length (D0 m)) <= fresh_left s).
      { apply fresh_drops; auto; simpl; [rewrite upd_same; discriminate|]. intros k Hk. now rewrite upd_diff by auto. }
      assert (B : lanes_left s' <= lanes_left s).
      { apply lanes_le. intros j Hj. simpl. unfold upd. now destruct (j =? l mod lanes X). }
      assert (R := weight_resume n). simpl weight. lia.
    - set (s' := setup s (mdest X p) true true).
      assert (A := lanes_drop s s' (mdest_lt p) H2 eq_refl). rewrite (fresh_same s s') by reflexivity.
      rewrite weight_app. cbn [map]. unfold weight at 2.
      assert (F := filter_length (fun n => (lane n =? mdest X p) && soon n && negb (far n)) nodes).
      unfold survivors. unfold list_sum at 2. simpl fold_right.
      assert (N : list_sum (map weight (next p)) <= weight p).
      { destruct p as [l|n|]; simpl; try lia. destruct (S l <? lanes X) eqn:E; simpl; [|lia]. apply Nat.ltb_lt in E. lia. }
      lia.
    - rewrite (fresh_same s (ticked s)) by reflexivity. change (lanes_left (ticked s)) with (lanes_left s).
      assert (N : list_sum (map weight (next (Ping l))) < weight (Ping l)).
      { simpl. destruct (S l <? lanes X) eqn:E; simpl; [|lia]. apply Nat.ltb_lt in E. lia. }
      lia.
    - change (fresh_left (ticked s)) with (fresh_left s). change (lanes_left (ticked s)) with (lanes_left s). simpl. lia.
    - change (fresh_left (ticked s)) with (fresh_left s). change (lanes_left (ticked s)) with (lanes_left s). simpl. lia.
    - assert (Hn : In n nodes) by (apply (s_node H); now left).
      assert (A : fresh_left (ticked (block s n)) + S (length (D0 n)) <= fresh_left s).
      { apply fresh_drops; auto; simpl; [rewrite upd_same; discriminate|]. intros k Hk. now rewrite upd_diff by auto. }
      change (lanes_left (ticked (block s n))) with (lanes_left s). rewrite weight_sends, (Hd (dn s n) n) by auto. simpl weight. lia.
    - assert (Hn : In n nodes) by (apply (s_node H); now left).
      assert (A : fresh_left (ticked (changed s n v d)) + S (length (D0 n)) <= fresh_left s).
      { apply fresh_drops; auto; simpl; [rewrite upd_same; discriminate|]. intros k Hk. now rewrite upd_diff by auto. }
      change (lanes_left (ticked (changed s n v d))) with (lanes_left s).
      rewrite weight_sends, (Hd d n) by now apply can_change_targets with v. simpl weight. lia.
    - assert (Hn : In n nodes) by (apply (s_node H); now left).
      assert (A : fresh_left (ticked (failed s n e)) + S (length (D0 n)) <= fresh_left s).
      { apply fresh_drops; auto; simpl; [rewrite upd_same; discriminate|]. intros k Hk. now rewrite upd_diff by auto. }
      change (lanes_left (ticked (failed s n e))) with (lanes_left s). simpl weight. simpl map. unfold list_sum at 1. simpl. lia.
  Qed.

  Lemma mutating_terminates : terminates task (s0, [Ping 0]).
  Proof.
    apply measure_inv_terminates with (I := sound) (m := work).
    - intros s b b' Hp. unfold work. now rewrite (list_sum_perm (Permutation_map weight Hp)).
    - intros s b b' Hp. now apply sound_perm.
    - intros s p b s' out A T. apply mutating_moves in T. split; [eapply sound_step; eauto|now apply work_step].
    - apply sound_start.
  Qed.

  (** ** Errors *)
  Lemma faults s b : mruns task (s0, [Ping 0]) (s, b) -> forall l e, merr s l = Some e -> fault e.
  Proof.
    intros Hr. refine (mruns_inv (fun s _ => forall l e, merr s l = Some e -> fault e) _ _ _ Hr); clear s b Hr.
    - auto.
    - intros s1 p b1 s' out H T l e. apply mutating_moves in T. destruct T; simpl; try apply H.
      + unfold upd. destruct (l =? lane m); [|apply H]. intros E. now injection E as <-.
      + unfold upd. destruct (l =? lane n); [|apply H]. intros E. now injection E as <-.
    - discriminate.
  Qed.
End Steps.

(** ** Bounding *)

Lemma bounding_done X g Y b :
  0 < lanes X -> wf g -> (forall k, killcalls Y k = false) ->
  completes (bounding X g Y) bstart (root g) b ->
  NoDup (bounded b) /\ (forall n, In n (bounded b) <-> In n (ids g)) /\ cut b = [].
Proof.
  intros Hl W Hk H. unfold completes in H.
  assert (G : NoDup (bounded b) /\ cut b = [] /\ bkilled b = false /\ (forall l, bkil b l = false) /\
              (forall n, In n (bounded b) \/ In n [] -> In n (ids g)) /\
              (In (root g) (bounded b) \/ In (root g) []) /\
              (forall n l k, In n (bounded b) -> In (l, k) (es g n) -> In k (bounded b) \/ In k [])).
  { revert H. apply mruns_inv with (I := fun b bag =>
      NoDup (bounded b) /\ cut b = [] /\ bkilled b = false /\ (forall l, bkil b l = false) /\
      (forall n, In n (bounded b) \/ In n bag -> In n (ids g)) /\
      (In (root g) (bounded b) \/ In (root g) bag) /\
      (forall n l k, In n (bounded b) -> In (l, k) (es g n) -> In k (bounded b) \/ In k bag)).
    - intros s b1 b2 P (A & B & C & D & E & F & G). assert (P' := Permutation_sym P).
      do 4 (split; [auto|]). split; [|split].
      + intros n [Hn|Hn]; apply E; auto. right. eapply Permutation_in; eauto.
      + destruct F; auto. right. eapply Permutation_in; eauto.
      + intros n l k Hn Hk'. destruct (G n l k Hn Hk'); auto. right. eapply Permutation_in; eauto.
    - intros s n R s' out (A & B & C & D & E & F & G) T. unfold bounding in T. rewrite C, D, Hk in T. simpl in T.
      assert (Hn : In n (ids g)) by (apply E; right; now left).
      destruct (mem n (bounded s)) eqn:Em; injection T as <- <-; simpl.
      + apply mem_in in Em. do 3 (split; [auto|]). split; [intros l; unfold upd; now destruct (l =? nlane X n)|].
        split; [intros k [Hk'|Hk']; apply E; auto; right; now right|].
        split; [destruct F as [F|[F|F]]; auto; subst; auto|].
        intros k l q Hk' Hq. destruct (G k l q Hk' Hq) as [?|[<-|?]]; auto.
      + apply mem_out in Em. split; [now constructor|]. do 2 (split; [auto|]).
        split; [intros l; unfold upd; now destruct (l =? nlane X n)|].
        split; [|split].
        * intros k [[<-|Hk']|Hk']; auto. apply in_app_iff in Hk' as [Hk'|Hk']; [|apply E; right; now right].
          apply in_map_iff in Hk' as ([l q] & <- & Hq). simpl. eapply wf_closed; eauto.
        * destruct F as [F|[F|F]]; auto. right. apply in_app_iff. auto.
        * intros k l q [<-|Hk'] Hq.
          -- right. apply in_app_iff. left. now apply (in_map snd) in Hq.
          -- destruct (G k l q Hk' Hq) as [?|[<-|?]]; auto. right. apply in_app_iff. auto.
    - simpl. do 4 (split; [auto; constructor|]). split; [|split].
      + intros n [[]|[<-|[]]]. apply (wf_root W).
      + auto.
      + intros n l k [].  }
  destruct G as (A & B & C & D & E & F & G). split; [auto|]. split; [|auto].
  intros n. split; [intros Hn; apply E; auto|]. intros Hn.
  assert (P := wf_reach W n Hn). induction P as [|m l k P IH Hk'].
  - destruct F as [F|[]]; auto.
  - assert (Hm : In m (ids g)) by (eapply path_in; [apply (wf_closed W)|apply (wf_root W)|exact P]).
    destruct (G m l k (IH Hm) Hk') as [|[]]; auto.
Qed.

(** ** Full duplex form *)

Definition full_duplex (g : graph word word) (ins : nat -> list (word * nat)) : Prop :=
  forall n, In n (ids g) -> Permutation (ins n) (edges_to g n).

Lemma edges_to_in (g : graph word word) l k n : In (l, k) (edges_to g n) <-> In k (ids g) /\ In (l, n) (es g k).
Proof.
  unfold edges_to. rewrite in_flat_map. split.
  - intros (j & Hj & H). apply in_map_iff in H as ([x q] & E & H). injection E as -> ->. apply filter_In in H as [H E].
    apply Nat.eqb_eq in E. simpl in E. subst. auto.
  - intros [Hk H]. exists k. split; auto. apply in_map_iff. exists (l, n). split; auto. apply filter_In. split; auto. apply Nat.eqb_refl.
Qed.

Lemma labels_perm k (l l' : list (word * nat)) : Permutation l l' -> Permutation (labels k l) (labels k l').
Proof.
  unfold labels. induction 1; simpl; auto.
  - destruct (snd x =? k); simpl; auto.
  - destruct (snd x =? k), (snd y =? k); simpl; auto. constructor.
  - etransitivity; eauto.
Qed.

Lemma labels_app k l l' : labels k (l ++ l') = labels k l ++ labels k l'.
Proof. unfold labels. now rewrite filter_app, map_app. Qed.

Lemma labels_edges_to (g : graph word word) n k : wf g -> In n (ids g) -> labels n (edges_to g k) = labels k (es g n).
Proof.
  intros W Hn. unfold edges_to. assert (N := wf_nodup W). revert N Hn. induction (ids g) as [|m l IH]; intros N Hn; [destruct Hn|].
  apply NoDup_cons_iff in N as [Nm N]. simpl. rewrite labels_app.
  assert (Q : labels n (map (fun e => (fst e, m)) (filter (fun e => snd e =? k) (es g m))) = if m =? n then labels k (es g m) else []).
  { unfold labels. induction (es g m) as [|[x q] r IHr]; simpl; [now destruct (m =? n)|].
    destruct (q =? k); simpl; auto. destruct (m =? n); simpl; auto. now rewrite IHr. }
  rewrite Q. destruct (Nat.eqb_spec m n) as [E|E].
  - assert (Hl : ~ In n l) by (rewrite <- E; exact Nm). rewrite E.
    replace (labels n (flat_map (fun q => map (fun e => (fst e, q)) (filter (fun e => snd e =? k) (es g q))) l)) with (@nil word); [now rewrite app_nil_r|].
    clear - Hl. symmetry. destruct (labels n (flat_map (fun q => map (fun e => (fst e, q)) (filter (fun e => snd e =? k) (es g q))) l)) eqn:Ec; auto.
    exfalso. apply Hl. assert (Hi : In n (map snd (flat_map (fun q => map (fun e => (fst e, q)) (filter (fun e => snd e =? k) (es g q))) l))).
    { apply labels_in. congruence. }
    apply in_map_iff in Hi as ([x j] & Ej & Hi). simpl in Ej. subst. apply in_flat_map in Hi as (q & Hq & Hi).
    apply in_map_iff in Hi as (y & Ey & _). injection Ey as _ ->. auto.
  - simpl. apply IH; auto. destruct Hn; [congruence|auto].
Qed.

Lemma full_duplex_labels (g : graph word word) ins n k : wf g -> full_duplex g ins -> In n (ids g) -> In k (ids g) ->
  Permutation (labels k (es g n)) (labels n (ins k)).
Proof.
  intros W F Hn Hk. rewrite <- (@labels_edges_to g n k W Hn). apply labels_perm. symmetry. now apply F.
Qed.

Lemma full_duplex_in (g : graph word word) ins n k l : full_duplex g ins -> In n (ids g) -> In (l, k) (ins n) -> In k (ids g) /\ In (l, n) (es g k).
Proof. intros F Hn H. apply edges_to_in. eapply Permutation_in; [apply F; auto|auto]. Qed.

(** ** What is specified *)

(** A vertex depends on those from which edges lead to it if the priority is given to the vertices near to the
    initial one, unless the zone is explored backwards; otherwise on those to which edges lead from it. *)
Definition downstream (w : plan) : bool :=
  match remote_first w, backwards w with
  | false, false | true, true => true
  | _, _ => false
  end.
Definition prerequisites (g : graph word word) ins (w : plan) (n : nat) : list (word * nat) := if downstream w then ins n else es g n.
Definition dependants (g : graph word word) ins (w : plan) (n : nat) : list (word * nat) := if downstream w then es g n else ins n.
Definition in_zone (g : graph word word) ins (w : plan) (n : nat) : Prop :=
  init w = root g \/ along (if backwards w then ins else es g) (init w) n.

Lemma forward_downstream w : forward w = downstream w.
Proof. unfold downstream, forward. now destruct (remote_first w), (backwards w). Qed.
Lemma zone_ahead g ins w n : in_zone g ins w n <-> init w = root g \/ along (ahead g ins w) (init w) n.
Proof. unfold in_zone, ahead. now destruct (backwards w). Qed.

(** The labels of the edges in a list that are connected with [n] at the other end. *)
Definition labels_with (n : nat) (l : list (word * nat)) : list word := map fst (filter (fun e => snd e =? n) l).

(** The vertices [V], the edges to prerequisites [U] and the edges to dependants [D] after a mutation. *)
Record solves (g : graph word word) ins (K : kernel) (w : plan) (V : nat -> word) (U D : nat -> list (word * nat)) : Prop := {
  sol_vertex : forall n, In n (ids g) -> in_zone g ins w n ->
    match v_op K with
    | None => V n = vx g n
    | Some f => (if downstream w then f (vx g n) (see V (U n)) (see (vx g) (dependants g ins w n))
                 else f (vx g n) (see (vx g) (dependants g ins w n)) (see V (U n))) = (V n, None)
    end;
  sol_edges : forall n, In n (ids g) -> in_zone g ins w n ->
    match e_op K with
    | None => D n = dependants g ins w n
    | Some f => Forall2 (fun d' d => snd d' = snd d /\ f (V n) (fst d) (vx g (snd d)) = (fst d', None)) (D n) (dependants g ins w n)
    end;
  sol_untouched : forall n, In n (ids g) -> ~ in_zone g ins w n -> V n = vx g n /\ D n = dependants g ins w n;
  sol_shape : forall n, In n (ids g) -> map snd (U n) = map snd (prerequisites g ins w n);
  sol_both : forall n k, In n (ids g) -> In k (ids g) -> in_zone g ins w n -> e_op K <> None -> labels_with n (U k) = labels_with k (D n);
  sol_kept : forall n k, In n (ids g) -> In k (ids g) -> ~ in_zone g ins w n \/ e_op K = None -> labels_with n (U k) = labels_with n (prerequisites g ins w k)
}.

(** Every vertex in the zone that depends on any vertex depends on one that is in the zone. *)
Definition anchored (g : graph word word) ins (w : plan) : Prop :=
  forall n, In n (ids g) -> in_zone g ins w n -> prerequisites g ins w n <> [] ->
  exists k, In k (map snd (prerequisites g ins w n)) /\ in_zone g ins w k.

(** Every worker has a node in the zone. *)
Definition populated X (g : graph word word) ins (w : plan) : Prop :=
  init w = root g \/
  (unordered w = false /\ forall n, In n (ids g) -> exists k, along (if backwards w then ins else es g) (init w) k /\ nlane X k = nlane X n).

(** The mutator is able to see what it depends on. *)
Definition observant (K : kernel) (w : plan) : Prop :=
  (v_op K <> None /\ e_op K <> None) \/ (if downstream w then has_incident K else has_outgoing K) = true.

Lemma surveyed_zone X (g : graph word word) ins w kills reached n :
  0 < lanes X -> never_killed kills -> populated X g ins w -> surveyed X g ins w kills reached -> In n (ids g) ->
  (outside X reached n = false <-> in_zone g ins w n).
Proof.
  intros Hl Hk Hp Hs Hn. rewrite zone_ahead. unfold outside. destruct Hs as [Hi|s Hi Ho Hr].
  - destruct Hp as [Hp|[Hp _]]; [simpl; tauto|]. destruct Hi as [Hi|Hi]; [simpl; tauto|congruence].
  - destruct Hp as [Hp|[_ Hp]]; [contradiction|].
    destruct (@quiet_walk (ahead g ins w) (list nat) (in_pass X kills 0) (fun d n => (d ++ [n], None)) [] (init w) s Hl (Hk 0) (fun _ _ => eq_refl) Hr)
      as (nodes & A & B & C).
    assert (Q : forall d ns, acts (fun (d : list nat) n => (d ++ [n], None)) d ns = Some (d ++ ns)).
    { intros d ns. revert d. induction ns as [|x ns IH]; intros d; simpl; [now rewrite app_nil_r|].
      rewrite IH. now rewrite <- app_assoc. }
    rewrite Q in C. injection C as C. simpl in C. rewrite <- C. unfold skipped.
    destruct (Hp n Hn) as (k & Hk1 & Hk2).
    assert (Hk1' : along (ahead g ins w) (init w) k) by (unfold ahead; now destruct (backwards w)). clear Hk1. rename Hk1' into Hk1. apply B in Hk1.
    assert (E : existsb (fun k => nlane X k =? nlane X n) nodes = true) by (apply existsb_exists; exists k; split; auto; now apply Nat.eqb_eq).
    rewrite E. simpl. rewrite negb_false_iff, mem_in, B. tauto.
Qed.

Lemma up0_nil g ins w n : up0 g ins w [] n = prerequisites g ins w n.
Proof. unfold up0, prerequisites. now rewrite forward_downstream. Qed.
Lemma dn0_nil g ins w n : dn0 g ins w [] n = dependants g ins w n.
Proof. unfold dn0, dependants. now rewrite forward_downstream. Qed.

(** The dependants of each node depend on it and vice versa, with the same number of edges. *)
Lemma dependants_closed (g : graph word word) ins w n k : wf g -> full_duplex g ins -> In n (ids g) -> In k (map snd (dependants g ins w n)) -> In k (ids g).
Proof.
  intros W F Hn H. apply in_map_iff in H as ([l j] & <- & H). unfold dependants in H. destruct (downstream w).
  - eapply wf_closed; eauto.
  - eapply full_duplex_in; eauto.
Qed.
Lemma prerequisites_closed (g : graph word word) ins w n k : wf g -> full_duplex g ins -> In n (ids g) -> In k (map snd (prerequisites g ins w n)) -> In k (ids g).
Proof.
  intros W F Hn H. apply in_map_iff in H as ([l j] & <- & H). unfold prerequisites in H. destruct (downstream w).
  - eapply full_duplex_in; eauto.
  - eapply wf_closed; eauto.
Qed.
Lemma dual_length (g : graph word word) ins w n k : wf g -> full_duplex g ins -> In n (ids g) -> In k (ids g) ->
  length (labels k (dependants g ins w n)) = length (labels n (prerequisites g ins w k)).
Proof.
  intros W F Hn Hk. unfold dependants, prerequisites. destruct (downstream w).
  - apply Permutation_length. now apply full_duplex_labels.
  - apply Permutation_length. symmetry. now apply full_duplex_labels.
Qed.
Lemma dual_in (g : graph word word) ins w n k : wf g -> full_duplex g ins -> In n (ids g) -> In k (ids g) ->
  (In k (map snd (dependants g ins w n)) <-> In n (map snd (prerequisites g ins w k))).
Proof.
  intros W F Hn Hk. rewrite <- !labels_in. assert (E := @dual_length g ins w n k W F Hn Hk).
  split; intros H H'; rewrite H' in E; simpl in E; apply H; [now apply length_zero_iff_nil|now apply length_zero_iff_nil].
Qed.

(** A graph without cycles is well founded in both directions. *)
Lemma prerequisites_acc (g : graph word word) ins w : wf g -> full_duplex g ins -> acyclic (es g) (root g) ->
  forall n, In n (ids g) -> Acc (fun k n => In k (map snd (prerequisites g ins w n))) n.
Proof.
  intros W F Ha n Hn.
  assert (Hpath : forall k, In k (ids g) -> along (es g) (root g) k).
  { intros k Hk. assert (P := wf_reach W k Hk). induction P as [|m l q P IH Hq]; [constructor|].
    econstructor; [apply IH|exact Hq]. eapply path_in; [apply (wf_closed W)|apply (wf_root W)|exact P]. }
  assert (G : Acc (fun k n => exists l, In (l, k) (prerequisites g ins w n)) n).
  { unfold prerequisites. destruct (downstream w).
    - assert (Hin : forall k, along ins n k -> In k (ids g)).
      { intros k Hk. induction Hk as [|m l q _ IH Hq]; auto. eapply full_duplex_in; eauto. }
      assert (Hrev : forall a k, In a (ids g) -> along ins a k -> along (es g) k a /\ In k (ids g)).
      { intros a k Hia Hk. induction Hk as [|m l q _ IH Hq]; [split; auto; constructor|]. destruct IH as [I1 I2].
        destruct (@full_duplex_in g ins m q l F I2 Hq) as [Q1 Q2]. split; auto.
        eapply along_trans; [|exact I1]. econstructor; [constructor|exact Q2]. }
      apply (@acyclic_acc _ ins n (ids g)); auto; [|constructor].
      intros m l q Hm Hq Hc. destruct (@full_duplex_in g ins m q l F (Hin m Hm) Hq) as [Q1 Q2].
      destruct (Hrev q m Q1 Hc) as [Q3 _]. exact (Ha q l m (Hpath q Q1) Q2 Q3).
    - apply (@acyclic_acc _ (es g) (root g) (ids g)); auto.
      intros k Hk. induction Hk as [|m l q _ IH Hq]; [apply (wf_root W)|]. eapply wf_closed; eauto. }
  clear - G. induction G as [n _ IH]. constructor. intros k Hk. apply in_map_iff in Hk as ([l j] & <- & H). apply IH. eauto.
Qed.

Lemma observant_rooted X (g : graph word word) ins K w reached nodes : unordered w = false -> observant K w -> rooted X g ins K w [] reached nodes.
Proof.
  intros Hu Ho. split; auto. intros n k _ Hs _ Hk. exfalso. unfold early in Hs. rewrite Hu in Hs. simpl in Hs.
  assert (E : up0 g ins w [] n = []).
  { apply orb_true_iff in Hs as [Hs|Hs]; [destruct (up0 g ins w [] n); [auto|discriminate]|].
    apply andb_true_iff in Hs as [H1 H2]. rewrite up0_nil. unfold prerequisites.
    destruct Ho as [[O1 O2]|O].
    - destruct (v_op K); [|congruence]. destruct (e_op K); [|congruence]. simpl in *. unfold outs in H2. simpl in H2.
      destruct (downstream w); [destruct (ins n)|destruct (es g n)]; auto; discriminate.
    - destruct (downstream w).
      + rewrite O, andb_false_r in H1. simpl in H1. destruct (ins n); auto; discriminate.
      + rewrite O, andb_false_r in H2. simpl in H2. unfold outs in H2. simpl in H2. destruct (es g n); auto; discriminate. }
  rewrite E in Hk. destruct Hk.
Qed.

Lemma late_prerequisites (g : graph word word) ins K w n : early g ins K w [] n = false -> prerequisites g ins w n <> [].
Proof.
  intros H E. unfold early in H. rewrite up0_nil, E in H. simpl in H. rewrite orb_true_r in H. discriminate.
Qed.

(** What is true of a mutation that succeeds. *)
Definition specified (g : graph word word) ins K w (h : graph word word) (order : list nat) : Prop :=
  root h = root g /\ Permutation (ids h) (ids g) /\ NoDup order /\
  (forall n, In n order <-> In n (ids g) /\ in_zone g ins w n) /\
  exists V U D, solves g ins K w V U D /\
    (forall n, vx h n = V n) /\ (forall n, es h n = if downstream w then D n else U n).

Lemma mutation_facts X (g : graph word word) ins K w kills v_free e_free r :
  0 < lanes X -> wf g -> full_duplex g ins -> never_killed kills -> populated X g ins w ->
  unordered w = true \/ (acyclic (es g) (root g) /\ anchored g ins w) ->
  (unordered w = false /\ observant K w) \/ insensitive K ->
  mutates X g ins K w kills v_free e_free (r, None) ->
  reclaimed r = true /\
  (exists h, left r = Some h /\ specified g ins K w h (order_of r)) /\
  (unordered w = false /\ observant K w ->
     forall n t1 t2 k, order_of r = t1 ++ n :: t2 -> In k (map snd (prerequisites g ins w n)) -> in_zone g ins w k -> In k t1).
Proof.
  intros Hl W F Hk Hp Hord Hcalm H. remember (r, None) as res eqn:Er.
  destruct H as [reached e Hs Hc|reached b s order Hs Hc Hb Hm Ho]; [discriminate|].
  apply ran_completes in Hb; [|intros n; now apply lane_lt]. apply ran_completes in Hm; [|now apply mdest_lt].
  destruct (@bounding_done X g (in_pass X kills 2) b Hl W (Hk 2) Hb) as (B1 & B2 & B3). rewrite B3 in *.
  assert (Hz := fun n => @surveyed_zone X g ins w kills reached n Hl Hk Hp Hs).
  assert (Hcl : forall n k, In n (bounded b) -> In k (map snd (dn0 g ins w [] n)) -> In k (bounded b)).
  { intros n k. rewrite ?up0_nil, ?dn0_nil, !B2. apply dependants_closed; auto. }
  assert (Hdl : forall n k, In n (bounded b) -> In k (bounded b) -> length (labels k (dn0 g ins w [] n)) = length (labels n (up0 g ins w [] k))).
  { intros n k. rewrite ?up0_nil, ?dn0_nil, !B2. apply dual_length; auto. }
  assert (Hdu : forall n k, In n (bounded b) -> In k (bounded b) -> (In k (map snd (dn0 g ins w [] n)) <-> In n (map snd (up0 g ins w [] k)))).
  { intros n k. rewrite ?up0_nil, ?dn0_nil, !B2. apply dual_in; auto. }
  destruct (@full_run X (unkillable X) g ins K w [] reached (bounded b) Hl B1 Hcl Hdu Hdl s Hm) as (S & P & O & V).
  destruct (first_error (merr s) order) as [e|] eqn:E1; [discriminate|].
  rewrite (Hk 3 0) in Er. injection Er as <-. simpl.
  assert (Hgood : ~ bad X s).
  { intros (l & Hll & Hb'). apply Hb'. apply (proj1 (first_error_none _ _) E1).
    eapply Permutation_in; [symmetry; exact Ho|]. apply in_seq. lia. }
  assert (Hr : unordered w = false /\ observant K w -> rooted X g ins K w [] reached (bounded b)) by (intros [? ?]; now apply observant_rooted).
  assert (Hv : valued g ins K w [] (bounded b) s) by (apply V; destruct Hcalm; auto).
  assert (Hfar : forall n, In n (ids g) -> (marked s n = Unreachable <-> ~ in_zone g ins w n)).
  { intros n Hn. rewrite (s_far S), <- (Hz n Hn). now rewrite not_false_iff_true. }
  assert (Hall : forall n, In n (ids g) -> in_zone g ins w n -> marked s n = Mutated).
  { assert (G : forall n, In n (ids g) -> in_zone g ins w n -> marked s n = Fresh \/ marked s n = Mutated).
    { intros n Hn Hzn. destruct (marked s n) eqn:Em; auto.
      - apply Hfar in Em; auto. contradiction.
      - exfalso. apply Hgood. now apply (proj1 (s_bad S)) with n. }
    destruct Hord as [Hu|[Ha Hanc]].
    - intros n Hn Hzn. destruct (G n Hn Hzn) as [Hf|]; auto. exfalso.
      destruct (@finished X g ins K w [] reached (bounded b) Hl s S P Hgood n (proj2 (B2 n) Hn) Hf) as [Q _].
      unfold early in Q. rewrite Hu in Q. discriminate.
    - intros n Hn. assert (A := @prerequisites_acc g ins w W F Ha n Hn). induction A as [n _ IH]. intros Hzn.
      destruct (G n Hn Hzn) as [Hf|]; auto. exfalso.
      destruct (@finished X g ins K w [] reached (bounded b) Hl s S P Hgood n (proj2 (B2 n) Hn) Hf) as [Q1 Q2].
      destruct Q2 as [(k & Hk1 & Hk2)|Q2].
      + rewrite up0_nil in Hk1. assert (Hki : In k (ids g)) by (eapply prerequisites_closed; eauto).
        rewrite (IH k Hk1 Hki) in Hk2; [discriminate|]. apply (Hz k Hki).
        destruct (outside X reached k) eqn:Ef; auto. apply (s_far S) in Ef. congruence.
      + destruct (Hanc n Hn Hzn (@late_prerequisites g ins K w n Q1)) as (k & Hk1 & Hk2).
        assert (Hki : In k (ids g)) by (eapply prerequisites_closed; eauto).
        rewrite <- up0_nil in Hk1. apply (Q2 k Hk1). rewrite up0_nil in Hk1. apply IH; auto. }
  assert (Hmut : forall n, In n (ids g) -> (marked s n = Mutated <-> in_zone g ins w n)).
  { intros n Hn. split; [|now apply Hall]. intros Em. apply (Hz n Hn). destruct (outside X reached n) eqn:Ef; auto.
    apply (s_far S) in Ef. congruence. }
  split; [auto|]. split.
  - eexists. split; [reflexivity|]. split; [reflexivity|]. split.
    { simpl. rewrite <- Permutation_rev. apply NoDup_Permutation; auto. apply (wf_nodup W). }
    split; [apply NoDup_rev, (s_nodup S)|]. split.
    { intros n. rewrite <- in_rev. split.
      - intros Hn. assert (Hn' := s_nodes S n Hn). apply B2 in Hn'. split; auto. apply Hmut; auto. now apply (s_trace S).
      - intros [Hn Hzn]. apply (s_trace S). now apply Hall. }
    exists (vtx s), (up s), (dn s). split; [|split; [reflexivity|intros n; simpl; rewrite <- forward_downstream; now destruct (forward w)]].
    constructor.
    + intros n Hn Hzn. rewrite <- dn0_nil, <- forward_downstream. apply (v_vertex Hv). now apply Hall.
    + intros n Hn Hzn. assert (Q := v_edges Hv n (Hall n Hn Hzn)). unfold edges_of in Q. rewrite dn0_nil in Q. destruct (e_op K); auto. now apply permeate_all.
    + intros n Hn Hzn. rewrite <- dn0_nil. apply (v_same Hv). rewrite Hmut; auto.
    + intros n Hn. rewrite <- up0_nil. apply (s_up S).
    + intros n k Hn Hki Hzn He. apply (v_labels Hv); auto; now apply B2.
    + intros n k Hn Hki Hzn. rewrite <- up0_nil. apply (v_labels Hv); try (now apply B2). rewrite Hmut; auto.
  - intros Hob n t1 t2 k E Hk1 Hk2. assert (E' : trace s = rev t2 ++ n :: rev t1).
    { rewrite <- (rev_involutive (trace s)), E, rev_app_distr. simpl. now rewrite <- app_assoc. }
    assert (Hn : In n (ids g)). { apply B2, (s_nodes S). rewrite E'. apply in_app_iff. right. now left. }
    assert (Hki : In k (ids g)) by (eapply prerequisites_closed; eauto).
    assert (Hk1' := Hk1). rewrite <- up0_nil in Hk1'. destruct (O (Hr Hob) n _ _ E' k Hk1') as [Hi|Hf]; [now apply in_rev|]. apply (Hz k Hki) in Hk2. congruence.
Qed.

(** ** Claims *)

(** With an order, each vertex in the zone is mutated exactly once, after those it depends on, and the result solves
    the equations: the new vertex is computed from the new vertices and labels on one side and the
    original ones on the other, and the labels of the edges to the other side from the new
    vertex. *)
Theorem C20_ordered_mutation X (g : graph word word) ins K w kills v_free e_free r :
  0 < lanes X -> wf g -> full_duplex g ins -> never_killed kills ->
  acyclic (es g) (root g) -> unordered w = false -> observant K w -> anchored g ins w -> populated X g ins w ->
  mutates X g ins K w kills v_free e_free (r, None) ->
  exists h, left r = Some h /\ reclaimed r = true /\ specified g ins K w h (order_of r) /\
  (forall n t1 t2 k, order_of r = t1 ++ n :: t2 -> In k (map snd (prerequisites g ins w n)) -> in_zone g ins w k -> In k t1).
Proof.
  intros Hl W F Hk Ha Hu Ho Hanc Hp H.
  destruct (mutation_facts Hl W F Hk Hp (or_intror (conj Ha Hanc)) (or_introl (conj Hu Ho)) H) as (A & (h & B & C) & D).
  exists h. do 3 (split; [auto|]). apply D. auto.
Qed.

(** Without an order, or if a vertex does not depend on others, the same equations hold. *)
Theorem C20_unordered_mutation X (g : graph word word) ins K w kills v_free e_free r :
  0 < lanes X -> wf g -> full_duplex g ins -> never_killed kills ->
  unordered w = true \/ (acyclic (es g) (root g) /\ anchored g ins w) -> insensitive K -> populated X g ins w ->
  mutates X g ins K w kills v_free e_free (r, None) ->
  exists h, left r = Some h /\ reclaimed r = true /\ specified g ins K w h (order_of r).
Proof.
  intros Hl W F Hk Hu Ho Hp H.
  destruct (mutation_facts Hl W F Hk Hp Hu (or_intror Ho) H) as (A & (h & B & C) & D). exists h. auto.
Qed.

(** The equations have at most one solution. *)
Theorem C20_unique_solution (g : graph word word) ins K w V U D V' U' D' :
  wf g -> full_duplex g ins -> acyclic (es g) (root g) -> (forall n, In n (ids g) -> in_zone g ins w n \/ ~ in_zone g ins w n) ->
  solves g ins K w V U D -> solves g ins K w V' U' D' ->
  forall n, In n (ids g) -> V n = V' n /\ U n = U' n /\ D n = D' n.
Proof.
  intros W F Ha Hdec S S' n Hn. assert (A := @prerequisites_acc g ins w W F Ha n Hn). revert Hn.
  induction A as [n _ IH]. intros Hn.
  assert (EU : U n = U' n).
  { apply labels_ext; [now rewrite (sol_shape S), (sol_shape S')|]. intros k Hk. rewrite (sol_shape S n Hn) in Hk.
    assert (Hki : In k (ids g)) by (eapply prerequisites_closed; eauto). destruct (IH k Hk Hki) as (_ & _ & ED).
    destruct (e_op K) eqn:Ee; [destruct (Hdec k Hki)|].
    - rewrite (sol_both S), (sol_both S'); auto; congruence.
    - rewrite (sol_kept S), (sol_kept S'); auto.
    - rewrite (sol_kept S), (sol_kept S'); auto. }
  assert (Esee : see V (U n) = see V' (U' n)).
  { rewrite <- EU. apply see_ext. intros k Hk. rewrite (sol_shape S n Hn) in Hk. apply IH; auto. eapply prerequisites_closed; eauto. }
  assert (EV : V n = V' n).
  { destruct (Hdec n Hn) as [Hz|Hz]; [|now rewrite (proj1 (sol_untouched S Hn Hz)), (proj1 (sol_untouched S' Hn Hz))].
    assert (Q := sol_vertex S Hn Hz). assert (Q' := sol_vertex S' Hn Hz). destruct (v_op K) as [f|]; [|congruence].
    rewrite Esee, Q' in Q. congruence. }
  split; [auto|]. split; [auto|].
  destruct (Hdec n Hn) as [Hz|Hz]; [|now rewrite (proj2 (sol_untouched S Hn Hz)), (proj2 (sol_untouched S' Hn Hz))].
  assert (Q := sol_edges S Hn Hz). assert (Q' := sol_edges S' Hn Hz). destruct (e_op K) as [f|]; [|congruence].
  rewrite EV in Q. clear - Q Q'. revert Q'. generalize (D' n). induction Q as [|[y' k'] [y k] r' r [E1 E2] _ IH]; intros l' Q'; inversion Q' as [|[z' j'] ? l1 ? [E3 E4] Q'' Ez]; subst; auto.
  simpl in *. f_equal; [congruence|auto].
Qed.

(** The result does not depend on the number of workers or the schedule. *)
Theorem C20_independent_of_schedule X X' (g : graph word word) ins K w v_free e_free r r' kills kills' :
  0 < lanes X -> 0 < lanes X' -> wf g -> full_duplex g ins -> never_killed kills -> never_killed kills' ->
  acyclic (es g) (root g) -> (unordered w = false /\ observant K w) \/ insensitive K ->
  anchored g ins w -> populated X g ins w -> populated X' g ins w ->
  mutates X g ins K w kills v_free e_free (r, None) -> mutates X' g ins K w kills' v_free e_free (r', None) ->
  exists h h', left r = Some h /\ left r' = Some h' /\
    forall n, In n (ids g) -> vx h n = vx h' n /\ es h n = es h' n.
Proof.
  intros Hl Hl' W F Hk Hk' Ha Hc Hanc Hp Hp' H H'.
  assert (Ho : unordered w = true \/ (acyclic (es g) (root g) /\ anchored g ins w)) by auto.
  destruct (mutation_facts Hl W F Hk Hp Ho Hc H) as (_ & (h & A & _ & _ & _ & B & V & U & D & S & V1 & E1) & _).
  destruct (mutation_facts Hl' W F Hk' Hp' Ho Hc H') as (_ & (h' & A' & _ & _ & _ & B' & V' & U' & D' & S' & V1' & E1') & _).
  exists h, h'. do 2 (split; [auto|]). intros n Hn.
  assert (Hdec : forall n, In n (ids g) -> in_zone g ins w n \/ ~ in_zone g ins w n).
  { intros k Hki. destruct (in_dec Nat.eq_dec k (order_of r)) as [Hi|Hi].
    - left. now apply B.
    - right. intros Hz. apply Hi. now apply B. }
  destruct (C20_unique_solution W F Ha Hdec S S' n Hn) as (EV & EU & ED).
  rewrite V1, V1', E1, E1'. split; auto. now destruct (downstream w).
Qed.

(** Mutation does not get stuck, and is finished after finitely many steps. *)
Theorem C20_no_deadlock X Y (g : graph word word) ins K w reached nodes s b :
  0 < lanes X -> wf g -> full_duplex g ins -> NoDup nodes -> (forall n, In n nodes <-> In n (ids g)) ->
  mruns (mutating X g ins K w [] reached nodes Y) (mstart X g ins w [] reached, [Ping 0]) (s, b) -> b <> [] ->
  exists p, In p b /\ mutating X g ins K w [] reached nodes Y s p <> None.
Proof.
  intros Hl W F N Hn H Hb. eapply proceeds; eauto.
  intros n k. rewrite ?up0_nil, ?dn0_nil, !Hn. apply dependants_closed; auto.
Qed.

Theorem C20_finitely_many_steps X Y (g : graph word word) ins K w reached nodes :
  0 < lanes X -> wf g -> full_duplex g ins -> NoDup nodes -> (forall n, In n nodes <-> In n (ids g)) ->
  terminates (mutating X g ins K w [] reached nodes Y) (mstart X g ins w [] reached, [Ping 0]).
Proof.
  intros Hl W F N Hn. apply mutating_terminates; auto.
  intros n k. rewrite ?up0_nil, ?dn0_nil, !Hn. apply dependants_closed; auto.
Qed.

(** Errors are the user's, and leave nothing behind. *)
Theorem C20_errors X (g : graph word word) ins K w kills v_free e_free r e :
  0 < lanes X -> never_killed kills -> mutates X g ins K w kills v_free e_free (r, Some e) ->
  left r = None /\ reclaimed r = true /\ (fault K e \/ e = TPCMUT /\ init w <> root g /\ order_of r = []).
Proof.
  intros Hl Hk H. remember (r, Some e) as res eqn:Er.
  destruct H as [reached e' Hs Hc|reached b s order Hs Hc Hb Hm Ho].
  - injection Er as <- ->. simpl. do 2 (split; [auto|]). right. remember (Some e) as oe eqn:Ee. destruct Hc as [Hc|s order Hi Hc Hr Ho]; [discriminate|].
    apply ran_completes in Hr; [|now apply vdest_lt]. destruct (gwalk_any Hr) as (nodes & _ & _ & _ & D).
    apply pass_error in Ee as (l & El). destruct (D l e El) as (n1 & n & n2 & _ & En & _).
    destruct (mem n reached); [discriminate|]. injection En as ->. auto.
  - destruct (first_error (merr s) order) as [e'|] eqn:E1.
    + injection Er as <- ->. simpl. do 2 (split; [auto|]). left.
      apply ran_completes in Hm; [|now apply mdest_lt].
      assert (exists l, merr s l = Some e) as (l & El).
      { clear - E1. induction order as [|l order IH]; simpl in E1; [discriminate|]. destruct (merr s l) eqn:El; [exists l; congruence|auto]. }
      eapply faults; eauto.
    + rewrite (Hk 3 0) in Er. discriminate.
Qed.

(** ** Examples *)

(** Zones that are visited from afar never depend on anything else. *)
Lemma remote_anchored g ins w : remote_first w = true -> anchored g ins w.
Proof.
  intros Hr n Hn Hz Hp. assert (E : prerequisites g ins w n = ahead g ins w n).
  { unfold prerequisites, ahead, downstream. rewrite Hr. now destruct (backwards w). }
  rewrite E in *. destruct (ahead g ins w n) as [|[l k] r] eqn:Ea; [congruence|]. exists k. split; [now left|].
  apply zone_ahead. apply zone_ahead in Hz. destruct Hz as [Hz|Hz]; [now left|]. right. econstructor; [exact Hz|]. rewrite Ea. now left.
Qed.
Lemma whole_anchored g ins w : init w = root g -> anchored g ins w.
Proof.
  intros Hr n Hn Hz Hp. destruct (prerequisites g ins w n) as [|[l k] r] eqn:Ea; [congruence|]. exists k. split; [now left|]. now left.
Qed.

(** All passes with the threads taking turns. *)
Definition run_mutation X g ins K w v_free e_free kills k : option (result mutation) :=
  let all := seq 0 (lanes X) in
  let a := if (init w =? root g) || unordered w then Some []
           else let y := sched_run (lanes X) (walk_dest X) (analysing (ahead g ins w) (in_pass X kills 0)) (vstart []) (initial (init w)) k in
                match mainpc y with MDone => Some (data (sh y)) | _ => None end in
  match a with
  | None => None
  | Some reached =>
      let c := if (init w =? root g) || negb (compatible K v_free e_free) then Some None
               else let y := sched_run (lanes X) (walk_dest X) (covering g reached (in_pass X kills 1)) (vstart tt) (initial (root g)) k in
                    match mainpc y with MDone => Some (pass_status all (sh y)) | _ => None end in
      match c with
      | None => None
      | Some (Some e) => Some (mkMut None true [], Some e)
      | Some None =>
          let y := sched_run (lanes X) (nlane X) (bounding X g (in_pass X kills 2)) bstart (root g) k in
          let z := sched_run (lanes X) (mdest X) (mutating X g ins K w (cut (sh y)) reached (bounded (sh y)) (unkillable X))
                             (mstart X g ins w (cut (sh y)) reached) (Ping 0) k in
          match mainpc y, mainpc z with
          | MDone, MDone =>
              Some match first_error (merr (sh z)) all with
                   | Some e => (mkMut None true (rev (trace (sh z))), Some e)
                   | None => if kills 3 0 then (mkMut None false (rev (trace (sh z))), Some INTKIL)
                             else (mkMut (Some (rest g w (rev (bounded (sh y))) (sh z))) true (rev (trace (sh z))), None)
                   end
          | _, _ => None
          end
      end
  end.

Lemma run_mutation_sound X g ins K w v_free e_free kills k r :
  run_mutation X g ins K w v_free e_free kills k = Some r -> mutates X g ins K w kills v_free e_free r.
Proof.
  unfold run_mutation. set (a := if (init w =? root g) || unordered w then _ else _).
  assert (Ha : forall reached, a = Some reached -> surveyed X g ins w kills reached).
  { intros reached. subst a. destruct ((init w =? root g) || unordered w) eqn:E; intros H.
    - injection H as <-. constructor. apply orb_true_iff in E as [E|E]; [left; now apply Nat.eqb_eq|auto].
    - apply orb_false_iff in E as [E1 E2]. apply Nat.eqb_neq in E1.
      destruct (mainpc _) eqn:Em; try discriminate. injection H as <-. apply survey; auto. now apply sched_ran. }
  clearbody a. destruct a as [reached|]; [|discriminate]. specialize (Ha reached eq_refl).
  set (c := if (init w =? root g) || negb (compatible K v_free e_free) then _ else _).
  assert (Hc : forall e, c = Some e -> covered X g K w kills v_free e_free reached e).
  { intros e. subst c. destruct ((init w =? root g) || negb (compatible K v_free e_free)) eqn:E; intros H.
    - injection H as <-. constructor. apply orb_true_iff in E as [E|E]; [left; now apply Nat.eqb_eq|right; now apply negb_true_iff].
    - apply orb_false_iff in E as [E1 E2]. apply Nat.eqb_neq in E1. apply negb_false_iff in E2.
      destruct (mainpc _) eqn:Em; try discriminate. injection H as <-. apply coverage; auto. now apply sched_ran. }
  clearbody c. destruct c as [[e|]|]; [| |discriminate]; specialize (Hc _ eq_refl).
  { intros H. injection H as <-. eapply uncovered; eauto. }
  set (y := sched_run (lanes X) (nlane X) _ _ _ k).
  destruct (mainpc y) eqn:E1; try discriminate. apply sched_ran in E1. fold y in E1.
  set (z := sched_run (lanes X) (mdest X) (mutating _ _ _ _ _ _ _ _ _) _ _ k).
  destruct (mainpc z) eqn:E2; try discriminate. apply sched_ran in E2. fold z in E2.
  intros H. injection H as <-. eapply mutated; eauto.
Qed.

(** What can be seen of a result. *)
Definition digest (r : result mutation) :=
  (option_map (fun h => map (fun n => (n, vx h n, es h n)) (ids h)) (left (fst r)), reclaimed (fst r), order_of (fst r), snd r).
Lemma run_digest X g ins K w v_free e_free kills k d :
  option_map digest (run_mutation X g ins K w v_free e_free kills k) = Some d ->
  exists r, mutates X g ins K w kills v_free e_free r /\ digest r = d.
Proof.
  destruct (run_mutation X g ins K w v_free e_free kills k) as [r|] eqn:E; [|discriminate]. intros H. injection H as <-.
  exists r. split; auto. now apply run_mutation_sound with k.
Qed.

Definition total (l : list (word * word)) : word := fold_left (fun a e => fst e * snd e + a)%N l 0%N.
(** Sums of the vertex and products of labels and vertices on one side or both, and edge mutations. *)
Definition KV : kernel := mkKernel (Some (fun x a b => ((x + total a)%N, None))) None true false None None.
Definition KW : kernel := mkKernel (Some (fun x a b => ((x + total b)%N, None))) None false true None None.
Definition KB : kernel := mkKernel (Some (fun x a b => ((x + total a + total b)%N, None))) (Some (fun v l y => ((v + l * y)%N, None))) true true None None.
Definition KE : kernel := mkKernel None (Some (fun v l y => ((v * l + y)%N, None))) false false None None.
Definition WL i : plan := mkPlan true false false i.
Definition WR i : plan := mkPlan false true false i.
Definition WU i : plan := mkPlan false false false i.
Definition d1 : dtor := mkD 1 (fun _ => None).
Ltac ran_mutation := apply run_digest with (k := 200); vm_compute; reflexivity.

Lemma DG_full : full_duplex DG (edges_to DG).
Proof. intros n _. apply Permutation_refl. Qed.

(** From origins to termini, with both operations. *)
Example C20_ordered_mutation_ex :
  0 < lanes X3 /\ wf DG /\ full_duplex DG (edges_to DG) /\ never_killed no_kills /\ acyclic (es DG) (root DG) /\
  unordered (WL 1) = false /\ observant KB (WL 1) /\ anchored DG (edges_to DG) (WL 1) /\ populated X3 DG (edges_to DG) (WL 1) /\
  exists r, mutates X3 DG (edges_to DG) KB (WL 1) no_kills None None r /\
    digest r = (Some [(1, 140%N, [(180%N, 2); (230%N, 3)]); (2, 25630%N, [(25830%N, 4); (25840%N, 3)]); (4, 438656775372678640%N, []);
                      (3, 662311670%N, [(662311710%N, 4); (662311870%N, 5)]); (5, 438656880680522950%N, [])],
                true, [1; 2; 3; 5; 4], None).
Proof.
  split; [simpl; lia|]. split; [exact DG_wf|]. split; [exact DG_full|]. split; [exact no_kills_never|]. split; [apply DG_acyclic|].
  split; [reflexivity|]. split; [left; split; discriminate|]. split; [now apply whole_anchored|]. split; [now left|]. ran_mutation.
Qed.

(** From termini to origins, and in a zone that covers only a part of the graph. *)
Example C20_ordered_mutation_remote_ex :
  observant KW (WR 1) /\ exists r, mutates X3 DG (edges_to DG) KW (WR 1) no_kills None None r /\
    digest r = (Some [(1, 5040%N, [(2%N, 2); (3%N, 3)]); (2, 2110%N, [(5%N, 4); (7%N, 3)]); (4, 40%N, []);
                      (3, 270%N, [(1%N, 4); (4%N, 5)]); (5, 50%N, [])], true, [4; 5; 3; 2; 1], None).
Proof. split; [now right|]. ran_mutation. Qed.

Example C20_ordered_mutation_zone_ex :
  observant KW (WR 2) /\ anchored DG (edges_to DG) (WR 2) /\ populated X3 DG (edges_to DG) (WR 2) /\
  exists r, mutates X3 DG (edges_to DG) KW (WR 2) no_kills (Some d1) None r /\
    digest r = (Some [(1, 10%N, [(2%N, 2); (3%N, 3)]); (2, 2110%N, [(5%N, 4); (7%N, 3)]); (4, 40%N, []);
                      (3, 270%N, [(1%N, 4); (4%N, 5)]); (5, 50%N, [])], true, [4; 5; 3; 2], None).
Proof.
  split; [now right|]. split; [now apply remote_anchored|]. split.
  - right. split; [reflexivity|].
    assert (P3 : along (if backwards (WR 2) then edges_to DG else es DG) 2 3) by (eapply along_step with (n := 2) (l := 7%N); [constructor|simpl; auto]).
    assert (P4 : along (if backwards (WR 2) then edges_to DG else es DG) 2 4) by (eapply along_step with (n := 2) (l := 5%N); [constructor|simpl; auto]).
    intros n [<-|[<-|[<-|[<-|[<-|[]]]]]].
    + exists 2. split; [constructor|reflexivity].
    + exists 2. split; [constructor|reflexivity].
    + exists 3. split; [exact P3|reflexivity].
    + exists 4. split; [exact P4|reflexivity].
    + exists 3. split; [exact P3|reflexivity].
  - ran_mutation.
Qed.

(** A zone that is oriented backwards and covers everything. *)
Definition CG : graph word word :=
  mkGraph [1; 2; 3] (fun n => N.of_nat n) (fun n => match n with 1 => [(2%N, 2); (3%N, 3)] | 2 => [(5%N, 3)] | _ => [] end) 1.
Example C20_ordered_mutation_backwards_ex :
  exists r, mutates X1 CG (edges_to CG) KW (mkPlan true false true 3) no_kills None None r /\
    digest r = (Some [(1, 44%N, [(2%N, 2); (3%N, 3)]); (3, 3%N, []); (2, 17%N, [(5%N, 3)])], true, [3; 2; 1], None).
Proof. ran_mutation. Qed.

Example C20_unordered_mutation_ex :
  unordered (WU 1) = true /\ insensitive KE /\
  exists r, mutates X3 DG (edges_to DG) KE (WU 1) no_kills None None r /\
    digest r = (Some [(1, 10%N, [(40%N, 2); (60%N, 3)]); (2, 20%N, [(140%N, 4); (170%N, 3)]); (4, 40%N, []);
                      (3, 30%N, [(70%N, 4); (170%N, 5)]); (5, 50%N, [])], true, [4; 5; 3; 2; 1], None).
Proof. split; [reflexivity|]. split; [now left|]. ran_mutation. Qed.

(** There are vertices and edges that solve the equations. *)
Example C20_unique_solution_ex :
  (forall n, In n (ids DG) -> in_zone DG (edges_to DG) (WL 1) n \/ ~ in_zone DG (edges_to DG) (WL 1) n) /\
  exists V U D, solves DG (edges_to DG) KB (WL 1) V U D.
Proof.
  split; [intros; left; now left|].
  destruct C20_ordered_mutation_ex as (A1 & A2 & A3 & A4 & A5 & A6 & A7 & A8 & A9 & (r, e) & B & C).
  assert (e = None) as -> by (unfold digest in C; simpl in C; congruence).
  destruct (C20_ordered_mutation A1 A2 A3 A4 A5 A6 A7 A8 A9 B) as (h & _ & _ & (_ & _ & _ & _ & V & U & D & S & _) & _). eauto.
Qed.

Example C20_independent_of_schedule_ex :
  populated X1 DG (edges_to DG) (WL 1) /\
  exists r, mutates X1 DG (edges_to DG) KB (WL 1) no_kills None None r /\
    digest r = (Some [(1, 140%N, [(180%N, 2); (230%N, 3)]); (3, 662311670%N, [(662311710%N, 4); (662311870%N, 5)]);
                      (2, 25630%N, [(25830%N, 4); (25840%N, 3)]); (4, 438656775372678640%N, []); (5, 438656880680522950%N, [])],
                true, [1; 2; 3; 4; 5], None).
Proof. split; [now left|]. ran_mutation. Qed.

Example C20_no_deadlock_ex :
  NoDup [1; 2; 3; 4; 5] /\ (forall n, In n [1; 2; 3; 4; 5] <-> In n (ids DG)) /\
  exists s b, mruns (mutating X3 DG (edges_to DG) KB (WL 1) [] [] [1; 2; 3; 4; 5] X3) (mstart X3 DG (edges_to DG) (WL 1) [] [], [Ping 0]) (s, b) /\
    b <> [] /\ b = [Ping 1; Start 0 [] None].
Proof.
  split; [repeat constructor; simpl; lia|]. split; [reflexivity|]. eexists _, _. split.
  - eapply star_step; [apply star_refl|].
    exact (@mstep_proc _ _ (mutating X3 DG (edges_to DG) KB (WL 1) [] [] [1; 2; 3; 4; 5] X3)
             (mstart X3 DG (edges_to DG) (WL 1) [] []) [] (Ping 0) [] _ _ eq_refl).
  - split; [discriminate|reflexivity].
Qed.
Example C20_finitely_many_steps_ex : wf DG /\ full_duplex DG (edges_to DG) /\ NoDup (ids DG).
Proof. split; [exact DG_wf|]. split; [exact DG_full|]. apply (wf_nodup DG_wf). Qed.

(** An error of the user's. *)
Definition KX : kernel :=
  mkKernel (Some (fun x a b => if (x =? 30)%N then (0%N, Some (USERERR 9)) else ((x + total a)%N, None))) None true false None None.
Example C20_errors_ex :
  exists r, mutates X3 DG (edges_to DG) KX (WL 1) no_kills None None r /\ digest r = (None, true, [1; 2], Some (USERERR 9)).
Proof. ran_mutation. Qed.

(** ** Refutations *)

(** The order is not respected if the kernel does not look at the prerequisites: vertices without
    successors are mutated at once, so that others are computed from vertices that have been mutated already. *)
Definition KW1 : kernel := mkKernel (Some (fun x a b => ((x + 1 + total b)%N, None))) None false true None None.
Theorem C20_order_refuted :
  exists X g K w r h n t1 t2 k,
    0 < lanes X /\ wf g /\ acyclic (es g) (root g) /\ local_first w = true /\ init w = root g /\
    mutates X g (edges_to g) K w no_kills None None (r, None) /\ left r = Some h /\
    order_of r = t1 ++ n :: t2 /\ In k (map snd (edges_to g n)) /\ ~ In k t1 /\
    (* the vertex as computed from the original vertices that are to be mutated later *)
    match v_op K with Some f => fst (f (vx g k) (see (vx g) (edges_to g k)) (see (vx g) (es g k))) <> vx h k | None => False end.
Proof.
  assert (Q : exists r, mutates X3 DG (edges_to DG) KW1 (WL 1) no_kills None None r /\
    digest r = (Some [(1, 141%N, [(2%N, 2); (3%N, 3)]); (2, 436%N, [(5%N, 4); (7%N, 3)]); (4, 41%N, []);
                      (3, 276%N, [(1%N, 4); (4%N, 5)]); (5, 51%N, [])], true, [4; 5; 1; 2; 3], None)) by ran_mutation.
  destruct Q as ((r, e) & Q & E). unfold digest in E. simpl in E. destruct (left r) as [h|] eqn:El; [|discriminate].
  simpl in E. injection E as Eh Er Eo ->. destruct h as [hi hv he hr]. simpl in Eh.
  destruct hi as [|h1 [|h2 [|h3 [|h4 [|h5 [|? ?]]]]]]; try discriminate. simpl in Eh. injection Eh as -> _ _ -> _ _ -> _ _ -> E3 _ -> _ _.
  exists X3, DG, KW1, (WL 1), r, (mkGraph [1; 2; 4; 3; 5] hv he hr), 4, [], [5; 1; 2; 3], 3.
  split; [simpl; lia|]. split; [exact DG_wf|]. split; [apply DG_acyclic|]. do 2 (split; [reflexivity|]). split; [exact Q|]. split; [exact El|].
  split; [exact Eo|]. split; [vm_compute; auto|]. split; [intros []|]. simpl vx. rewrite E3. vm_compute. discriminate.
Qed.

(** In a zone whose initial vertex has edges from outside, nothing at all is mutated by an order starting from
    the initial vertex, and that is reported as a success. *)
Theorem C20_zone_refuted :
  exists X g K w r n,
    0 < lanes X /\ wf g /\ acyclic (es g) (root g) /\ local_first w = true /\ observant K w /\ populated X g (edges_to g) w /\
    mutates X g (edges_to g) K w no_kills (Some d1) None (r, None) /\
    In n (ids g) /\ in_zone g (edges_to g) w n /\ order_of r = [].
Proof.
  assert (Q : exists r, mutates X3 DG (edges_to DG) KV (WL 2) no_kills (Some d1) None r /\
    digest r = (Some [(1, 10%N, [(2%N, 2); (3%N, 3)]); (2, 20%N, [(5%N, 4); (7%N, 3)]); (4, 40%N, []);
                      (3, 30%N, [(1%N, 4); (4%N, 5)]); (5, 50%N, [])], true, [], None)) by ran_mutation.
  destruct Q as ((r, e) & Q & E). unfold digest in E. simpl in E. injection E as _ _ Eo ->.
  exists X3, DG, KV, (WL 2), r, 2. split; [simpl; lia|]. split; [exact DG_wf|]. split; [apply DG_acyclic|]. split; [reflexivity|].
  split; [now right|]. split; [exact (proj1 (proj2 (proj2 C20_ordered_mutation_zone_ex)))|].
  split; [exact Q|]. split; [simpl; auto|]. split; [right; constructor|exact Eo].
Qed.

(** Vertices outside the zone are mutated if their worker has none in the zone. *)
Theorem C20_outside_zone_refuted :
  exists X g K w r n,
    0 < lanes X /\ wf g /\ acyclic (es g) (root g) /\ remote_first w = true /\ observant K w /\
    mutates X g (edges_to g) K w no_kills (Some d1) None (r, None) /\
    In n (order_of r) /\ ~ in_zone g (edges_to g) w n.
Proof.
  assert (Q : exists r, mutates X3 DG (edges_to DG) KW (WR 5) no_kills (Some d1) None r /\ 
    digest r = (Some [(1, 960%N, [(2%N, 2); (3%N, 3)]); (2, 430%N, [(5%N, 4); (7%N, 3)]); (4, 40%N, []);
                      (3, 30%N, [(1%N, 4); (4%N, 5)]); (5, 50%N, [])], true, [4; 5; 2; 1], None)) by ran_mutation.
  destruct Q as ((r, e) & Q & E). unfold digest in E. simpl in E. injection E as _ _ Eo ->.
  exists X3, DG, KW, (WR 5), r, 4. split; [simpl; lia|]. split; [exact DG_wf|]. split; [apply DG_acyclic|]. split; [reflexivity|].
  split; [now right|]. split; [exact Q|]. split; [rewrite Eo; simpl; tauto|].
  intros [Hz|Hz]; [discriminate|]. apply DG_along_up in Hz. simpl in Hz. lia.
Qed.

(** A mutation of a part of the graph that keeps the destructors is rejected as one that changes them. *)
Theorem C56_compatible_mutation_rejected_refuted :
  exists X g K w v_free e_free r,
    0 < lanes X /\ wf g /\ acyclic (es g) (root g) /\ v_dtor K = v_free /\ e_dtor K = e_free /\
    mutates X g (edges_to g) K w no_kills v_free e_free (r, Some TPCMUT).
Proof.
  assert (Q : exists r, mutates X3 DG (edges_to DG) KW (WR 2) no_kills None None r /\ digest r = (None, true, [], Some TPCMUT)) by ran_mutation.
  destruct Q as ((r, e) & Q & E). unfold digest in E. simpl in E. injection E as _ _ _ ->.
  exists X3, DG, KW, (WR 2), None, None, r. split; [simpl; lia|]. split; [exact DG_wf|]. split; [apply DG_acyclic|]. auto.
Qed.

(** One that changes them is accepted, although vertices remain that need the former destructor. *)
Theorem C56_incompatible_mutation_accepted_refuted :
  exists X g K w v_free e_free r n,
    0 < lanes X /\ wf g /\ acyclic (es g) (root g) /\ v_free = Some d1 /\ v_dtor K = None /\
    mutates X g (edges_to g) K w no_kills v_free e_free (r, None) /\ In n (ids g) /\ ~ In n (order_of r).
Proof.
  destruct C20_ordered_mutation_zone_ex as (_ & _ & _ & (r, e) & Q & E). unfold digest in E. simpl in E. injection E as _ _ Eo ->.
  exists X3, DG, KW, (WR 2), (Some d1), None, r, 1. split; [simpl; lia|]. split; [exact DG_wf|]. split; [apply DG_acyclic|].
  do 2 (split; [reflexivity|]). split; [exact Q|]. split; [simpl; auto|]. rewrite Eo. simpl. lia.
Qed.

(** Zones are ignored by mutations without an order. *)
Theorem C57_unordered_zone_refuted :
  exists X g K w r n,
    0 < lanes X /\ wf g /\ unordered w = true /\ insensitive K /\
    mutates X g (edges_to g) K w no_kills None (Some d1) (r, None) /\ In n (order_of r) /\ ~ in_zone g (edges_to g) w n.
Proof.
  assert (Q : exists r, mutates X3 DG (edges_to DG) KE (WU 2) no_kills None (Some d1) r /\
    digest r = (Some [(1, 10%N, [(40%N, 2); (60%N, 3)]); (2, 20%N, [(140%N, 4); (170%N, 3)]); (4, 40%N, []);
                      (3, 30%N, [(70%N, 4); (170%N, 5)]); (5, 50%N, [])], true, [4; 5; 3; 2; 1], None)) by ran_mutation.
  destruct Q as ((r, e) & Q & E). unfold digest in E. simpl in E. injection E as _ _ Eo ->.
  exists X3, DG, KE, (WU 2), r, 1. split; [simpl; lia|]. split; [exact DG_wf|]. split; [reflexivity|]. split; [now left|].
  split; [exact Q|]. split; [rewrite Eo; simpl; tauto|].
  intros [Hz|Hz]; [discriminate|]. apply DG_along_up in Hz. simpl in Hz. lia.
Qed.

(** A mutation that is killed in the pass in which the nodes are listed returns nothing without freeing the
    graph. *)
Theorem C58_killed_mutation_leaks_refuted :
  exists X g K w kills r,
    0 < lanes X /\ wf g /\ acyclic (es g) (root g) /\ (forall i k, kills i k = true -> i = 3 /\ k = 0) /\
    mutates X g (edges_to g) K w kills None None (r, Some INTKIL) /\ left r = None /\ reclaimed r = false.
Proof.
  assert (Q : exists r, mutates X3 DG (edges_to DG) KV (WL 1) (kill_at 3 0) None None r /\
    digest r = (None, false, [1; 2; 3; 5; 4], Some INTKIL)) by ran_mutation.
  destruct Q as ((r, e) & Q & E). unfold digest in E. simpl in E. destruct (left r) eqn:El; [discriminate|]. injection E as Er _ ->.
  exists X3, DG, KV, (WL 1), (kill_at 3 0), r. split; [simpl; lia|]. split; [exact DG_wf|]. split; [apply DG_acyclic|].
  split; [intros i k H; unfold kill_at in H; apply andb_true_iff in H as [H1 H2]; now apply Nat.eqb_eq in H1, H2|]. auto.
Qed.

(** A mutation that is killed while it is prepared deletes edges and is reported as a success. *)
Theorem C36_killed_mutation_refuted :
  exists X g K w kills r h n,
    0 < lanes X /\ wf g /\ acyclic (es g) (root g) /\ e_op K = None /\ (forall i k, kills i k = true -> i = 2 /\ k = 2) /\
    mutates X g (edges_to g) K w kills None None (r, None) /\ left r = Some h /\ es g n <> [] /\ es h n = [].
Proof.
  assert (Q : exists r, mutates X3 DG (edges_to DG) KV (WL 1) (kill_at 2 2) None None r /\
    digest r = (Some [(1, 10%N, [(2%N, 2); (3%N, 3)]); (2, 40%N, [(5%N, 4); (7%N, 3)]); (4, 40%N, []);
                      (3, 340%N, []); (5, 50%N, [])], true, [1; 2; 3], None)) by ran_mutation.
  destruct Q as ((r, e) & Q & E). unfold digest in E. simpl in E. destruct (left r) as [h|] eqn:El; [|discriminate].
  simpl in E. injection E as Eh Er Eo ->. destruct h as [hi hv he hr]. simpl in Eh.
  destruct hi as [|h1 [|h2 [|h3 [|h4 [|h5 [|? ?]]]]]]; try discriminate. simpl in Eh. injection Eh as -> _ _ -> _ _ -> _ _ -> _ E3 -> _ _.
  exists X3, DG, KV, (WL 1), (kill_at 2 2), r, (mkGraph [1; 2; 4; 3; 5] hv he hr), 3.
  split; [simpl; lia|]. split; [exact DG_wf|]. split; [apply DG_acyclic|]. split; [reflexivity|].
  split; [intros i k H; unfold kill_at in H; apply andb_true_iff in H as [H1 H2]; now apply Nat.eqb_eq in H1, H2|].
  split; [exact Q|]. split; [exact El|]. split; [discriminate|exact E3].
Qed.
