(** Vertices and labels are neither lost nor destroyed twice when graphs are fabricated or multiplied, except that a vertex is lost
    if a fabricator returns it along with an error (C106, C107) *)
From Coq Require Import List Arith Bool Lia Permutation.
From Verif Require Import MakeFree.
Import ListNotations.

Set Implicit Arguments.

(** * Values *)

Definition opt (v : option nat) : list nat := match v with Some v => [v] | None => [] end.
Definition vals (vs : list (option nat)) : list nat := flat_map opt vs.
Notation occ := (count_occ Nat.eq_dec).

(** what is in the nodes *)
Definition held (w : world) : list nat := vals (map snd (vertices w)) ++ vals (map (fun e => snd (snd e)) (edges w)).

(** every value made is destroyed or among some others, and not both *)
Definition settled (s : st) (f : list nat) : Prop := forall v, occ (made s) v = occ (dead s) v + occ f v.

Definition distinct (s : st) : Prop := NoDup (made s) /\ (forall v, In v (made s) -> v < length (made s)).

(** errors are not forgotten, and nothing is destroyed without an error *)
Definition careful (s s' : st) : Prop := (err s = true -> err s' = true) /\ (err s' = false -> dead s' = dead s).

Lemma careful_refl : forall s, careful s s.
Proof. intros s. split; auto. Qed.

Lemma careful_trans : forall s s' s'', careful s s' -> careful s' s'' -> careful s s''.
Proof.
  intros s s' s'' [A B] [C D]. split; auto. intros E. rewrite (D E). apply B. destruct (err s') eqn:F; auto. rewrite (C eq_refl) in E.
  discriminate E.
Qed.

Lemma careful_err : forall s s', (err s = true -> err s' = true) -> err s' = true -> careful s s'.
Proof. intros s s' A B. split; auto. intros C. congruence. Qed.

Lemma vals_app : forall a b, vals (a ++ b) = vals a ++ vals b.
Proof. intros. unfold vals. apply flat_map_app. Qed.

Lemma settled_perm : forall s f g, settled s f -> (forall v, occ f v = occ g v) -> settled s g.
Proof. intros s f g S P v. rewrite (S v), (P v). reflexivity. Qed.

Section Making.
  Variable heap reserve : nat -> bool.
  Variable vuser euser puser : nat -> bool * bool.
  Variable dies : nat -> bool.

  (** steps that neither make nor destroy anything *)
  Definition idle (s s' : st) : Prop :=
    made s' = made s /\ dead s' = dead s /\ (err s = true -> err s' = true) /\ pmade s' = pmade s /\ pfreed s' = pfreed s.

  Lemma idle_settled : forall s s' f, idle s s' -> settled s f -> settled s' f.
  Proof. intros s s' f (A & B & _) S v. rewrite A, B. apply S. Qed.
  Lemma idle_distinct : forall s s', idle s s' -> distinct s -> distinct s'.
  Proof. intros s s' (A & _) D. unfold distinct. rewrite A. exact D. Qed.
  Lemma idle_careful : forall s s', idle s s' -> careful s s'.
  Proof. intros s s' (_ & B & C & _). split; auto. Qed.

  Lemma alloc_idle : forall s b s', alloc heap s = (b, s') -> idle s s' /\ (b = false -> err s' = true).
  Proof.
    intros s b s' A. unfold alloc in A. destruct (heap (clock s)); injection A as <- <-; unfold idle; simpl; repeat split; auto; discriminate.
  Qed.
  Lemma packet_idle : forall s b s', packet heap reserve s = (b, s') -> idle s s' /\ (b = false -> err s' = true).
  Proof.
    intros s b s' A. unfold packet in A. destruct (heap (clock s)); injection A as <- <-; unfold idle; simpl; repeat split; auto; discriminate.
  Qed.
  Lemma passed_idle : forall s b s', passed puser s = (b, s') -> idle s s'.
  Proof.
    intros s b s' A. unfold passed in A. destruct (err s) eqn:E; [injection A as <- <-; unfold idle; repeat split; auto|].
    destruct (puser (clock s)) as [t e]. destruct e; injection A as <- <-; unfold idle; simpl; repeat split; auto.
  Qed.

  Lemma applied_settled : forall f s v s' F, applied f s = (v, s') -> settled s F -> settled s' (opt v ++ F).
  Proof.
    intros f s v s' F A S. unfold applied in A. destruct (err s); [injection A as <- <-; exact S|]. destruct (f (clock s)) as [null e].
    destruct null; injection A as <- <-.
    - intros k. destruct e; exact (S k).
    - intros k. specialize (S k). destruct e; simpl; destruct (Nat.eq_dec (length (made s)) k); lia.
  Qed.
  Lemma applied_distinct : forall f s v s', applied f s = (v, s') -> distinct s -> distinct s'.
  Proof.
    intros f s v s' A D. unfold applied in A. destruct (err s); [injection A as <- <-; exact D|]. destruct (f (clock s)) as [null e].
    destruct null; injection A as <- <-.
    - destruct e; exact D.
    - assert (M : made (if e then fail (tick s) else tick s) = made s) by (destruct e; reflexivity).
      destruct D as [ND LT]. split; simpl; rewrite M.
      + constructor; auto. intros K. apply LT in K. lia.
      + intros k [<-|K]; [lia|]. apply LT in K. lia.
  Qed.
  Lemma applied_careful : forall f s v s', applied f s = (v, s') -> careful s s' /\ pmade s' = pmade s /\ pfreed s' = pfreed s.
  Proof.
    intros f s v s' A. unfold applied in A. destruct (err s) eqn:E; [injection A as <- <-; repeat split; auto|].
    destruct (f (clock s)) as [null e]. destruct null; injection A as <- <-; destruct e; unfold careful; simpl; rewrite ?E; repeat split; auto; discriminate.
  Qed.

  Lemma destroy_settled : forall v s F, settled s (opt v ++ F) -> settled (destroy dies v s) F.
  Proof.
    intros [v|] s F S; [|exact S]. intros k. specialize (S k). simpl in *. destruct (Nat.eq_dec v k); lia.
  Qed.
  Lemma destroy_all_settled : forall vs s F, settled s (vals vs ++ F) -> settled (destroy_all dies vs s) F.
  Proof.
    induction vs as [|v vs IH]; intros s F S; simpl; auto. apply IH. apply destroy_settled. rewrite app_assoc. exact S.
  Qed.
  Lemma destroy_same : forall v s, made (destroy dies v s) = made s /\ (err s = true -> err (destroy dies v s) = true) /\
    pmade (destroy dies v s) = pmade s /\ pfreed (destroy dies v s) = pfreed s.
  Proof. intros [v|] s; simpl; repeat split; auto. intros ->. reflexivity. Qed.
  Lemma destroy_all_same : forall vs s, made (destroy_all dies vs s) = made s /\ (err s = true -> err (destroy_all dies vs s) = true) /\
    pmade (destroy_all dies vs s) = pmade s /\ pfreed (destroy_all dies vs s) = pfreed s.
  Proof.
    induction vs as [|v vs IH]; intros s; simpl; auto. destruct (IH (destroy dies v s)) as (A & B & C & D).
    destruct (destroy_same v s) as (E & F & G & H). rewrite A, C, D. repeat split; auto.
  Qed.

  (** what is known about making a node: frame F, outcome and state *)
  Record proper (s s' : st) : Prop := Proper {
    pr_distinct : distinct s -> distinct s';
    pr_careful : careful s s'
  }.
  Lemma proper_refl : forall s, proper s s.
  Proof. intros s. constructor; auto using careful_refl. Qed.
  Lemma proper_trans : forall s s' s'', proper s s' -> proper s' s'' -> proper s s''.
  Proof. intros s s' s'' [A B] [C D]. constructor; auto. eapply careful_trans; eassumption. Qed.
  Lemma idle_proper : forall s s', idle s s' -> proper s s'.
  Proof. intros s s' I. constructor; [apply idle_distinct; exact I|apply idle_careful; exact I]. Qed.
  Lemma applied_proper : forall f s v s', applied f s = (v, s') -> proper s s'.
  Proof. intros f s v s' A. constructor; [intros D; eapply applied_distinct; eassumption|]. apply applied_careful in A. apply A. Qed.
  Lemma destroy_all_proper : forall vs s, err s = true -> proper s (destroy_all dies vs s).
  Proof.
    intros vs s E. destruct (destroy_all_same vs s) as (A & B & _). constructor.
    - unfold distinct. rewrite A. auto.
    - apply careful_err; auto.
  Qed.
  Lemma destroy_proper : forall v s, err s = true -> proper s (destroy dies v s).
  Proof. intros v s. exact (destroy_all_proper [v] s). Qed.

  (** ** Fabrication *)

  Definition labels (es : list edge) : list nat := vals (map label_of es).

  Lemma new_edge_spec : forall y l s r s' F, new_edge heap dies y l s = (r, s') -> settled s (opt l ++ F) ->
    settled s' (labels (match r with Some e => [e] | None => [] end) ++ F) /\ proper s s' /\ (r = None -> err s' = true).
  Proof.
    intros y l s r s' F N S. unfold new_edge in N. destruct (err s) eqn:E.
    - injection N as <- <-. split; [apply destroy_settled; exact S|]. split; [apply destroy_proper; exact E|]. intros _. apply destroy_same. exact E.
    - destruct (alloc heap s) as [b s1] eqn:A. apply alloc_idle in A as [A B]. destruct b; injection N as <- <-.
      + split; [|split].
        * pose proof (idle_settled A S) as K. intros k. specialize (K k). unfold labels. simpl. rewrite app_nil_r. exact K.
        * eapply proper_trans; [apply idle_proper; exact A|]. constructor; [intros D; exact D|split; auto].
        * discriminate.
      + split; [apply destroy_settled; eapply idle_settled; eassumption|]. split.
        * eapply proper_trans; [apply idle_proper; exact A|apply destroy_proper; apply B; reflexivity].
        * intros _. apply destroy_same. apply B. reflexivity.
  Qed.

  Lemma fab_edges_spec : forall ys es s es' s' F, fab_edges heap euser dies ys es s = (es', s') -> settled s (labels es ++ F) ->
    settled s' (labels es' ++ F) /\ proper s s'.
  Proof.
    induction ys as [|y ys IH]; intros es s es' s' F E S; simpl in E; [injection E as <- <-; split; auto using proper_refl|].
    destruct (err s); [injection E as <- <-; split; auto using proper_refl|].
    destruct (applied euser s) as [l s1] eqn:A. pose proof (applied_proper _ _ A) as P1. apply applied_settled with (F := labels es ++ F) in A; auto.
    destruct (new_edge heap dies y l s1) as [r s2] eqn:N. pose proof (@new_edge_spec y l s1 r s2 (labels es ++ F) N A) as (S2 & P2 & _).
    destruct r as [e|].
    - destruct (IH (e :: es) s2 es' s' F E) as [S3 P3].
      + eapply settled_perm; [exact S2|]. intros k. unfold labels. simpl. rewrite app_nil_r, <- app_assoc. reflexivity.
      + split; auto. eapply proper_trans; [exact P1|]. eapply proper_trans; eassumption.
    - destruct (IH es s2 es' s' F E S2) as [S3 P3]. split; auto. eapply proper_trans; [exact P1|]. eapply proper_trans; eassumption.
  Qed.

  Lemma scatter_out_spec : forall es s n s', scatter_out heap reserve es s = (n, s') -> idle s s' /\ (n < length es -> err s' = true).
  Proof.
    induction es as [|e es IH]; intros s n s' E; simpl in E.
    - injection E as <- <-. split; [unfold idle; repeat split; auto|simpl; lia].
    - destruct (packet heap reserve s) as [b s1] eqn:P. apply packet_idle in P as [P B]. destruct b.
      + destruct (scatter_out heap reserve es s1) as [m s2] eqn:Q. injection E as <- <-. apply IH in Q as [Q L]. split.
        * destruct P as (P1 & P2 & P3 & P4 & P5), Q as (Q1 & Q2 & Q3 & Q4 & Q5). unfold idle. rewrite Q1, Q2, Q4, Q5. repeat split; auto.
        * simpl. intros K. apply L. lia.
      + injection E as <- <-. split; auto.
  Qed.

  Lemma labels_app : forall a b, labels (a ++ b) = labels a ++ labels b.
  Proof. intros. unfold labels. rewrite map_app. apply vals_app. Qed.
  Lemma labels_unlabelled : forall es, labels (map unlabelled es) = [].
  Proof. induction es; auto. Qed.

  (** the values in a node that was made *)
  Definition content (r : outcome) : list nat := match r with Some (v, es, _) => opt v ++ labels es | None => [] end.

  (** what is lost if the vertex function returns a value along with an error *)
  Lemma fab_node_spec : forall ys s r s' F, fab_node heap reserve vuser euser dies ys s = (r, s') -> settled s F ->
    (exists lk, settled s' (lk ++ content r ++ F) /\
       (lk = [] \/ (length lk = 1 /\ err s = false /\ err s' = true /\ exists n, vuser n = (false, true)))) /\
    proper s s' /\ (r = None -> err s' = true).
  Proof.
    intros ys s r s' F E S. unfold fab_node in E. destruct (err s) eqn:E0.
    { injection E as <- <-. split; [exists []; auto|]. split; auto using proper_refl. }
    destruct (applied vuser s) as [v s1] eqn:A. pose proof (applied_proper _ _ A) as P1. pose proof (applied_settled _ A S) as S1.
    destruct (err s1) eqn:E1.
    { injection E as <- <-. split; [|split; auto]. exists (opt v). split; [exact S1|]. destruct v as [v|]; [|auto]. right.
      unfold applied in A. rewrite E0 in A. destruct (vuser (clock s)) as [null e] eqn:U. destruct null; [discriminate A|].
      destruct e; [|injection A as <- <-; simpl in E1; congruence]. repeat split; auto. exists (clock s). exact U. }
    assert (REST : settled s' (content r ++ F) /\ proper s s' /\ (r = None -> err s' = true));
      [|destruct REST as (R1 & R2 & R3); split; auto; exists []; auto].
    destruct (alloc heap s1) as [b s2] eqn:B. apply alloc_idle in B as [I2 B]. pose proof (idle_settled I2 S1) as S2.
    pose proof (idle_proper I2) as P2. destruct b.
    2:{ injection E as <- <-. split; [apply destroy_settled; exact S2|]. split.
        - eapply proper_trans; [exact P1|]. eapply proper_trans; [exact P2|]. apply destroy_proper. auto.
        - intros _. apply destroy_same. auto. }
    destruct (fab_edges heap euser dies ys [] s2) as [es s3] eqn:G. apply fab_edges_spec with (F := opt v ++ F) in G; [|exact S2].
    destruct G as [S3 P3].
    assert (UNDO : forall t, settled t (labels es ++ opt v ++ F) -> err t = true ->
              settled (destroy dies v (destroy_all dies (map label_of es) t)) F /\
              proper t (destroy dies v (destroy_all dies (map label_of es) t)) /\
              err (destroy dies v (destroy_all dies (map label_of es) t)) = true).
    { intros t St Et. destruct (destroy_all_same (map label_of es) t) as (_ & K & _). split; [|split].
      - apply destroy_settled. apply destroy_all_settled. exact St.
      - eapply proper_trans; [apply destroy_all_proper; exact Et|]. apply destroy_proper. auto.
      - apply destroy_same. auto. }
    assert (P13 : proper s s3) by (eapply proper_trans; [exact P1|]; eapply proper_trans; eassumption).
    destruct (err s3) eqn:E3.
    { injection E as <- <-. destruct (UNDO s3 S3 E3) as (U1 & U2 & U3). split; auto. split; auto. eapply proper_trans; eassumption. }
    destruct (alloc heap s3) as [b4 s4] eqn:B4. apply alloc_idle in B4 as [I4 B4]. pose proof (idle_settled I4 S3) as S4.
    pose proof (idle_proper I4) as P4. destruct b4.
    2:{ injection E as <- <-. destruct (UNDO s4 S4 (B4 eq_refl)) as (U1 & U2 & U3). split; auto. split; auto.
        eapply proper_trans; [exact P13|]. eapply proper_trans; eassumption. }
    destruct (scatter_out heap reserve es s4) as [n s5] eqn:C. apply scatter_out_spec in C as [I5 L5]. pose proof (idle_settled I5 S4) as S5.
    pose proof (idle_proper I5) as P5. injection E as <- <-. split; [|split; [|discriminate]].
    - unfold content. rewrite labels_app, labels_unlabelled, app_nil_r. apply destroy_all_settled.
      eapply settled_perm; [exact S5|]. intros k. rewrite <- (firstn_skipn n es) at 1. rewrite labels_app. fold (labels (skipn n es)).
      rewrite !count_occ_app. lia.
    - eapply proper_trans; [exact P13|]. eapply proper_trans; [exact P4|]. eapply proper_trans; [exact P5|].
      destruct (le_lt_dec (length es) n) as [K|K].
      + rewrite skipn_all2 by exact K. apply proper_refl.
      + apply destroy_all_proper. auto.
  Qed.

  (** products don't occur in fabrication *)
  Definition no_products (s s' : st) : Prop := pmade s' = pmade s /\ pfreed s' = pfreed s.

  Lemma new_edge_products : forall y l s r s', new_edge heap dies y l s = (r, s') -> no_products s s'.
  Proof.
    intros y l s r s' N. unfold new_edge in N. destruct (err s).
    - injection N as <- <-. split; apply destroy_same.
    - destruct (alloc heap s) as [b s1] eqn:A. apply alloc_idle in A as [(_ & _ & _ & A1 & A2) _]. destruct b; injection N as <- <-; split; simpl; auto;
        [rewrite <- A1|rewrite <- A2]; apply destroy_same.
  Qed.

  (** ** Products *)

  Lemma product_settled : forall s F, settled s F -> settled (product s) F.
  Proof. intros s F S. exact S. Qed.

  Definition owing (s : st) (n : nat) : Prop := pmade s = pfreed s + n.

  Lemma pairs_spec : forall ys es s es' s' F n, pairs heap reserve euser puser dies ys es s = (es', s') ->
    settled s (labels es ++ F) -> owing s (length es + n) ->
    settled s' (labels es' ++ F) /\ owing s' (length es' + n) /\ proper s s'.
  Proof.
    induction ys as [|y ys IH]; intros es s es' s' F n E S O; simpl in E; [injection E as <- <-; auto using proper_refl|].
    destruct (err s); [injection E as <- <-; auto using proper_refl|].
    destruct (passed puser s) as [b s1] eqn:A. apply passed_idle in A. pose proof (idle_proper A) as P1. pose proof (idle_settled A S) as S1.
    assert (O1 : owing s1 (length es + n)) by (destruct A as (_ & _ & _ & A1 & A2); unfold owing; rewrite A1, A2; exact O).
    assert (GO : forall t es1, proper s t -> settled t (labels es1 ++ F) -> owing t (length es1 + n) ->
              pairs heap reserve euser puser dies ys es1 t = (es', s') ->
              settled s' (labels es' ++ F) /\ owing s' (length es' + n) /\ proper s s').
    { intros t es1 Pt St Ot Et. destruct (IH es1 t es' s' F n Et St Ot) as (K1 & K2 & K3). split; auto. split; auto.
      eapply proper_trans; eassumption. }
    destruct b; [|eapply GO; eassumption].
    destruct (alloc heap s1) as [b2 s2] eqn:B. apply alloc_idle in B as [I2 B]. pose proof (idle_settled I2 S1) as S2.
    assert (P2 : proper s s2) by (eapply proper_trans; [exact P1|apply idle_proper; exact I2]).
    assert (O2 : owing s2 (length es + n)) by (destruct I2 as (_ & _ & _ & A1 & A2); unfold owing; rewrite A1, A2; exact O1).
    destruct b2; [|eapply GO; eassumption].
    set (s3 := product s2) in *. assert (P3 : proper s s3) by (eapply proper_trans; [exact P2|]; constructor; [intros D; exact D|split; auto]).
    assert (O3 : owing s3 (1 + length es + n)) by (unfold owing in *; simpl; lia).
    destruct (applied euser s3) as [l s4] eqn:C. pose proof (applied_proper _ _ C) as Q4. pose proof (applied_settled _ C S2) as S4.
    assert (P4 : proper s s4) by (eapply proper_trans; eassumption).
    assert (O4 : owing s4 (1 + length es + n)) by (apply applied_careful in C as (_ & C1 & C2); unfold owing; rewrite C1, C2; exact O3).
    assert (UNDO : forall t, err t = true -> proper s t -> settled t (opt l ++ labels es ++ F) -> owing t (1 + length es + n) ->
              pairs heap reserve euser puser dies ys es (free_products 1 (destroy dies l t)) = (es', s') ->
              settled s' (labels es' ++ F) /\ owing s' (length es' + n) /\ proper s s').
    { intros t Et Pt St Ot Eq. eapply GO; [| | |exact Eq].
      - eapply proper_trans; [exact Pt|]. eapply proper_trans; [apply destroy_proper; exact Et|]. constructor; [intros D; exact D|split; auto].
      - apply destroy_settled in St. exact St.
      - destruct (destroy_same l t) as (_ & _ & D1 & D2). unfold owing in *. simpl in *. rewrite D1, D2. lia. }
    destruct (err s4) eqn:E4; [eapply UNDO; eassumption|].
    destruct (alloc heap s4) as [b5 s5] eqn:G. apply alloc_idle in G as [I5 B5]. pose proof (idle_settled I5 S4) as S5.
    assert (P5 : proper s s5) by (eapply proper_trans; [exact P4|apply idle_proper; exact I5]).
    assert (O5 : owing s5 (1 + length es + n)) by (destruct I5 as (_ & _ & _ & A1 & A2); unfold owing; rewrite A1, A2; exact O4).
    destruct b5; [|eapply UNDO; try eassumption; auto].
    destruct (packet heap reserve (number s5)) as [b6 s6] eqn:H. apply packet_idle in H as [I6 _].
    assert (S6 : settled s6 (opt l ++ labels es ++ F)) by (eapply idle_settled; [exact I6|exact S5]).
    assert (P6 : proper s s6).
    { eapply proper_trans; [exact P5|]. eapply proper_trans; [|apply idle_proper; exact I6]. constructor; [intros D; exact D|split; auto]. }
    assert (O6 : owing s6 (1 + length es + n)) by (destruct I6 as (_ & _ & _ & A1 & A2); unfold owing; rewrite A1, A2; exact O5).
    destruct (err s6) eqn:E6; [eapply UNDO; eassumption|].
    eapply (GO s6 ((next s5, y, l) :: es)); [exact P6| |exact O6|exact E]. unfold labels. simpl. rewrite <- app_assoc. exact S6.
  Qed.

  Lemma cross_node_spec : forall ys s r s' F n, cross_node heap reserve vuser euser puser dies ys s = (r, s') -> settled s F -> owing s n ->
    settled s' (content r ++ F) /\ proper s s' /\ (r = None -> err s' = true) /\
    owing s' (match r with Some (_, _, sent) => length sent | None => 0 end + n).
  Proof.
    intros ys s r s' F n E S O. unfold cross_node in E.
    destruct (pairs heap reserve euser puser dies ys [] s) as [es s1] eqn:A.
    destruct (@pairs_spec ys [] s es s1 F n A S O) as (S1 & O1 & P1).
    assert (UNDO : forall t, settled t (labels es ++ F) -> err t = true -> owing t (length es + n) -> proper s t ->
              settled (free_packets dies es t) F /\ proper s (free_packets dies es t) /\ err (free_packets dies es t) = true /\
              owing (free_packets dies es t) n).
    { intros t St Et Ot Pt. destruct (destroy_all_same (map label_of es) t) as (_ & K & D1 & D2). unfold free_packets. split; [|split; [|split]].
      - apply destroy_all_settled in St. exact St.
      - eapply proper_trans; [exact Pt|]. eapply proper_trans; [apply (destroy_all_proper (map label_of es)); exact Et|].
        constructor; [intros D; exact D|split; auto].
      - simpl. auto.
      - unfold owing in *. simpl. rewrite D1, D2. lia. }
    destruct (err s1) eqn:E1.
    { injection E as <- <-. destruct (UNDO s1 S1 E1 O1 P1) as (U1 & U2 & U3 & U4). auto. }
    destruct (alloc heap s1) as [b s2] eqn:B. apply alloc_idle in B as [I2 B]. pose proof (idle_settled I2 S1) as S2.
    assert (P2 : proper s s2) by (eapply proper_trans; [exact P1|apply idle_proper; exact I2]).
    assert (O2 : owing s2 (length es + n)) by (destruct I2 as (_ & _ & _ & A1 & A2); unfold owing; rewrite A1, A2; exact O1).
    destruct b.
    2:{ injection E as <- <-. destruct (UNDO s2 S2 (B eq_refl) O2 P2) as (U1 & U2 & U3 & U4). auto. }
    destruct (applied vuser s2) as [v s3] eqn:C. pose proof (applied_settled _ C S2) as S3.
    assert (P3 : proper s s3) by (eapply proper_trans; [exact P2|apply (applied_proper _ _ C)]).
    assert (O3 : owing s3 (length es + n)) by (apply applied_careful in C as (_ & C1 & C2); unfold owing; rewrite C1, C2; exact O2).
    assert (UNDO2 : forall t, settled t (opt v ++ labels es ++ F) -> err t = true -> owing t (length es + n) -> proper s t ->
              settled (free_packets dies es (destroy dies v t)) F /\ proper s (free_packets dies es (destroy dies v t)) /\
              err (free_packets dies es (destroy dies v t)) = true /\ owing (free_packets dies es (destroy dies v t)) n).
    { intros t St Et Ot Pt. destruct (destroy_same v t) as (_ & K & D1 & D2). apply UNDO.
      - apply destroy_settled. exact St.
      - auto.
      - unfold owing in *. rewrite D1, D2. exact Ot.
      - eapply proper_trans; [exact Pt|]. apply destroy_proper. exact Et. }
    destruct (err s3) eqn:E3.
    { injection E as <- <-. destruct (UNDO2 s3 S3 E3 O3 P3) as (U1 & U2 & U3 & U4). auto. }
    destruct (alloc heap s3) as [b4 s4] eqn:G. apply alloc_idle in G as [I4 B4]. pose proof (idle_settled I4 S3) as S4.
    assert (P4 : proper s s4) by (eapply proper_trans; [exact P3|apply idle_proper; exact I4]).
    assert (O4 : owing s4 (length es + n)) by (destruct I4 as (_ & _ & _ & A1 & A2); unfold owing; rewrite A1, A2; exact O3).
    destruct b4.
    - injection E as <- <-. split; [|split; [auto|split; [discriminate|exact O4]]]. unfold content. rewrite <- app_assoc. exact S4.
    - injection E as <- <-. destruct (UNDO2 s4 S4 (B4 eq_refl) O4 P4) as (U1 & U2 & U3 & U4). auto.
  Qed.
End Making.

(** * All workers *)

Section World.
  Variable heap reserve : nat -> bool.
  Variable vuser euser puser : nat -> bool * bool.
  Variable dies : nat -> bool.
  Variable crossing : bool.
  Variable succ : nat -> list nat.
  Variable lane : nat -> nat.
  Variable lanes : nat.
  Hypothesis bounded : forall x, lane x < lanes.

  Definition numbers (es : list (nat * edge)) : list nat := map (fun e => fst (fst (snd e))) es.
  Definition elabels (es : list (nat * edge)) : list nat := vals (map (fun e => snd (snd e)) es).

  Lemma strip_occ : forall c es v es', strip c es = Some (v, es') ->
    (forall k, occ (elabels es) k = occ (opt v) k + occ (elabels es') k) /\ numbers es' = numbers es.
  Proof.
    induction es as [|[l [[n y] u]] es IH]; intros v es' E; simpl in E; [discriminate|].
    destruct (n =? c).
    - injection E as <- <-. split; auto. intros k. unfold elabels. simpl. rewrite count_occ_app. reflexivity.
    - destruct (strip c es) as [[v' es1]|]; [|discriminate]. injection E as <- <-. destruct (IH v' es1 eq_refl) as [A B]. split.
      + intros k. specialize (A k). unfold elabels in *. simpl. rewrite !count_occ_app. lia.
      + unfold numbers in *. simpl. rewrite B. reflexivity.
  Qed.
  Lemma strip_some : forall c es, In c (numbers es) -> exists r, strip c es = Some r.
  Proof.
    induction es as [|[l [[n y] u]] es IH]; simpl; intros K; [destruct K|]. destruct (n =? c) eqn:E; eauto.
    destruct K as [K|K]; [simpl in K; apply Nat.eqb_neq in E; congruence|]. destruct (IH K) as [[v es'] ->]. eauto.
  Qed.

  Lemma split_occ : forall A (f : A -> option nat) p l k,
    occ (vals (map f l)) k = occ (vals (map f (filter p l))) k + occ (vals (map f (others p l))) k.
  Proof.
    intros A f p l k. induction l as [|a l IH]; auto. unfold others in *. simpl. destruct (p a); simpl; rewrite !count_occ_app; lia.
  Qed.
  Lemma split_length : forall A p (l : list A), length l = length (filter p l) + length (others p l).
  Proof. intros A p l. unfold others. induction l as [|a l IH]; auto. simpl. destruct (p a); simpl; lia. Qed.

  Lemma fab_node_sent : forall ys s v es sent s', fab_node heap reserve vuser euser dies ys s = (Some (v, es, sent), s') ->
    forall e, In e sent -> In (fst (fst e)) (map (fun e : edge => fst (fst e)) es).
  Proof.
    intros ys s v es sent s' E e K. unfold fab_node in E. destruct (err s); [discriminate|]. destruct (applied vuser s) as [u s1].
    destruct (err s1); [discriminate|]. destruct (alloc heap s1) as [[] s2]; [|discriminate].
    destruct (fab_edges heap euser dies ys [] s2) as [es1 s3]. destruct (err s3); [discriminate|].
    destruct (alloc heap s3) as [[] s4]; [|discriminate]. destruct (scatter_out heap reserve es1 s4) as [n s5].
    injection E as _ <- <- _. rewrite map_app. apply in_or_app. left. apply (in_map (fun e : edge => fst (fst e))). exact K.
  Qed.
  Lemma cross_node_sent : forall ys s v es sent s', cross_node heap reserve vuser euser puser dies ys s = (Some (v, es, sent), s') -> sent = es.
  Proof.
    intros ys s v es sent s' E. unfold cross_node in E. destruct (pairs heap reserve euser puser dies ys [] s) as [es1 s1].
    destruct (err s1); [discriminate|]. destruct (alloc heap s1) as [[] s2]; [|discriminate]. destruct (applied vuser s2) as [u s3].
    destruct (err s3); [discriminate|]. destruct (alloc heap s3) as [[] s4]; [|discriminate]. injection E as _ <- <- _. reflexivity.
  Qed.

  (** workers having errors *)
  Definition bad (w : world) (l : nat) : bool := errs w l || killed w l.
  Definition erring (w : world) : nat := length (filter (errs w) (seq 0 lanes)).

  Record sound (w : world) : Prop := Sound {
    so_settled : exists lk, settled (common w) (lk ++ held w) /\ length lk <= erring w /\
                            (lk <> [] -> crossing = false /\ exists n, vuser n = (false, true));
    so_distinct : distinct (common w);
    so_wild : wild w = false;
    so_carriers : forall x c, In (x, Some c) (flight w) -> In c (numbers (edges w));
    so_exited : flight w <> [] -> exited w = [];
    so_seen : crossing = true -> forall x, In x (seen w) -> ~ In (lane x) (exited w);
    so_products : crossing = true -> owing (common w) (length (flight w) + length (seen w));
    so_dead : dead (common w) <> [] -> failed w = true \/ exists l, l < lanes /\ bad w l = true;
    so_failed : failed w = true -> concluded w = true;
    so_end : concluded w = true -> flight w = [] /\ (failed w = true -> vertices w = [] /\ edges w = []) /\
             (failed w = false -> dead (common w) = []) /\ (crossing = true -> seen w = [])
  }.

  Lemma filter_mono : forall (p q : nat -> bool) l, (forall x, p x = true -> q x = true) -> length (filter p l) <= length (filter q l).
  Proof.
    intros p q l H. induction l as [|a l IH]; auto. simpl. destruct (p a) eqn:P.
    - rewrite (H a P). simpl. lia.
    - destruct (q a); simpl; lia.
  Qed.
  Lemma filter_more : forall (p q : nat -> bool) l a, (forall x, p x = true -> q x = true) -> In a l -> p a = false -> q a = true ->
    S (length (filter p l)) <= length (filter q l).
  Proof.
    intros p q l a H K P Q. induction l as [|b l IH]; [destruct K|]. destruct K as [->|K].
    - simpl. rewrite P, Q. simpl. apply le_n_S. apply filter_mono. exact H.
    - simpl. specialize (IH K). destruct (p b) eqn:PB.
      + rewrite (H b PB). simpl. lia.
      + destruct (q b); simpl; lia.
  Qed.

  Lemma set_err_mono : forall l b f, (f l = true -> b = true) -> forall x, f x = true -> set_err l b f x = true.
  Proof. intros l b f H x K. unfold set_err. destruct (x =? l) eqn:E; auto. apply Nat.eqb_eq in E. subst x. auto. Qed.

  Lemma erring_leave : forall w l s fl sn vs es wd, (errs w l = true -> err s = true) -> erring w <= erring (leave w l s fl sn vs es wd).
  Proof. intros. unfold erring. simpl. apply filter_mono. apply set_err_mono. assumption. Qed.

  Lemma bad_leave : forall w l s fl sn vs es wd, (errs w l = true -> err s = true) ->
    (exists k, k < lanes /\ bad w k = true) -> exists k, k < lanes /\ bad (leave w l s fl sn vs es wd) k = true.
  Proof.
    intros w l s fl sn vs es wd H [k [L B]]. exists k. split; auto. unfold bad in *. simpl. apply orb_true_iff in B as [B|B].
    - rewrite set_err_mono; auto.
    - rewrite B. apply orb_true_r.
  Qed.

  Lemma dead_leave : forall w l s fl sn vs es wd, l < lanes -> sound w -> concluded w = false ->
    (errs w l = true -> err s = true) -> (err s = false -> killed w l = false -> dead s = dead (common w)) -> dead s <> [] ->
    failed (leave w l s fl sn vs es wd) = true \/ exists k, k < lanes /\ bad (leave w l s fl sn vs es wd) k = true.
  Proof.
    intros w l s fl sn vs es wd L S C M D K. destruct (err s) eqn:E.
    { right. exists l. split; auto. unfold bad. simpl. unfold set_err. rewrite Nat.eqb_refl, E. reflexivity. }
    destruct (killed w l) eqn:Q.
    { right. exists l. split; auto. unfold bad. simpl. rewrite Q. apply orb_true_r. }
    rewrite D in K by auto. apply (so_dead S) in K as [K|K]; [left; exact K|]. right. apply bad_leave; auto. intros X. rewrite E. auto.
  Qed.

  Lemma distinct_enter : forall w l, distinct (common w) -> distinct (enter w l).
  Proof. intros w l D. exact D. Qed.

  Lemma free_queue_spec : forall vs es s F, settled s (vals (map snd vs) ++ elabels es ++ F) ->
    settled (free_queue dies vs es s) F /\ made (free_queue dies vs es s) = made s /\
    (err s = true -> err (free_queue dies vs es s) = true) /\ pmade (free_queue dies vs es s) = pmade s /\
    pfreed (free_queue dies vs es s) = pfreed s.
  Proof.
    intros vs es s F S. unfold free_queue.
    destruct (destroy_all_same dies (map (fun e => label_of (snd e)) es) s) as (A1 & A2 & A3 & A4).
    destruct (destroy_all_same dies (map snd vs) (destroy_all dies (map (fun e => label_of (snd e)) es) s)) as (B1 & B2 & B3 & B4).
    rewrite B1, A1, B3, A3, B4, A4. repeat split; auto. apply destroy_all_settled. apply destroy_all_settled.
    eapply settled_perm; [exact S|]. intros k. change (vals (map (fun e => label_of (snd e)) es)) with (elabels es).
    rewrite !count_occ_app. lia.
  Qed.

  Lemma occ_held : forall w k, occ (held w) k = occ (vals (map snd (vertices w))) k + occ (elabels (edges w)) k.
  Proof. intros w k. unfold held. rewrite count_occ_app. reflexivity. Qed.

  Lemma elabels_new : forall l (es : list edge) es', elabels (map (fun e => (l, e)) es ++ es') = labels es ++ elabels es'.
  Proof. intros l es es'. unfold elabels. rewrite map_app, vals_app, map_map. reflexivity. Qed.

  Lemma split_elabels : forall p es k, occ (elabels es) k = occ (elabels (filter p es)) k + occ (elabels (others p es)) k.
  Proof. intros p es k. apply split_occ. Qed.

  Lemma step_sound : forall w w', sound w -> step heap reserve vuser euser puser dies crossing succ lane lanes w w' -> sound w'.
  Proof.
    intros w w' S T. pose proof S as S0. destruct S0 as [[lk (SE & LL & LK)] DI WI CA EX SN PR DE FA EN]. destruct T.
    - (* drop *)
      rename H into FL, H0 into CO, H1 into BD, H2 into EQ.
      assert (CASES : made s = made (common w) /\ (errs w (lane x) = true -> err s = true) /\ wd = false /\
                (forall k, occ (dead s) k + occ (elabels es) k = occ (dead (common w)) k + occ (elabels (edges w)) k) /\
                numbers es = numbers (edges w) /\ (forall y, In y sn -> In y (seen w)) /\
                (crossing = true -> owing s (length (f1 ++ f2) + length sn))).
      { destruct crossing.
        - injection EQ as -> -> -> ->. repeat split; auto.
          + intros y K. apply filter_In in K. apply K.
          + intros _. specialize (PR eq_refl). rewrite FL in PR. unfold owing in *. simpl. rewrite app_length in *. simpl in PR.
            pose proof (split_length (mine lane (lane x)) (seen w)). lia.
        - destruct c as [c|].
          + destruct (@strip_some c (edges w)) as [[v es1] ST].
            { apply (CA x c). rewrite FL. apply in_or_app. right. left. reflexivity. }
            rewrite ST in EQ. injection EQ as -> -> -> ->. apply strip_occ in ST as [A B].
            destruct (destroy_same dies v (enter w (lane x))) as (D1 & D2 & _). rewrite D1. repeat split; auto; [|discriminate].
            intros k. specialize (A k). destruct v as [v|]; simpl in *; [destruct (Nat.eq_dec v k)|]; lia.
          + injection EQ as -> -> -> ->. repeat split; auto; discriminate. }
      destruct CASES as (M & ER & -> & OC & NU & SU & PD).
      constructor; simpl.
      + exists lk. split; [|split].
        * intros k. specialize (SE k). specialize (OC k). rewrite M. rewrite count_occ_app in *. rewrite occ_held in *. simpl. lia.
        * etransitivity; [exact LL|]. apply erring_leave. exact ER.
        * exact LK.
      + unfold distinct. rewrite M. exact DI.
      + rewrite WI. reflexivity.
      + intros y d K. rewrite NU. apply (CA y d). rewrite FL. apply in_app_iff in K. apply in_app_iff. simpl. tauto.
      + intros _. apply EX. rewrite FL. destruct f1; discriminate.
      + intros CR y K. apply (SN CR). apply SU. exact K.
      + exact PD.
      + intros K. right. apply orb_true_iff in BD. exists (lane x). split; [apply bounded|]. unfold bad. simpl. unfold set_err.
        rewrite Nat.eqb_refl. destruct BD as [BD|BD]; [rewrite (ER BD); reflexivity|rewrite BD; apply orb_true_r].
      + exact FA.
      + congruence.
    - (* extant *)
      rename H into FL, H0 into CO, H1 into BD, H2 into KN. apply orb_false_iff in BD as [BE BK].
      set (s := if crossing then free_products 1 (enter w (lane x)) else enter w (lane x)).
      assert (M : made s = made (common w) /\ dead s = dead (common w) /\ err s = errs w (lane x)) by (unfold s; destruct crossing; auto).
      destruct M as (M1 & M2 & M3). assert (ER : errs w (lane x) = true -> err s = true) by congruence.
      constructor; simpl.
      + exists lk. split; [|split].
        * intros k. rewrite M1, M2. exact (SE k).
        * etransitivity; [exact LL|]. apply erring_leave. exact ER.
        * exact LK.
      + unfold distinct. rewrite M1. exact DI.
      + rewrite WI. simpl. unfold carried. destruct c as [c|]; auto. destruct (@strip_some c (edges w)) as [r ->]; auto.
        apply (CA x c). rewrite FL. apply in_or_app. right. left. reflexivity.
      + intros y d K. apply (CA y d). rewrite FL. apply in_app_iff in K. apply in_app_iff. simpl. tauto.
      + intros _. apply EX. rewrite FL. destruct f1; discriminate.
      + exact SN.
      + intros CR. specialize (PR CR). unfold s. rewrite CR. rewrite FL in PR. unfold owing in *. simpl. rewrite app_length in *. simpl in PR. lia.
      + intros K. apply dead_leave; auto.
      + exact FA.
      + congruence.
    - (* new *)
      rename H into FL, H0 into CO, H1 into BD, H2 into NK, H3 into OV, H4 into EQ. apply orb_false_iff in BD as [BE BK].
      assert (CR0 : forall y d, In (y, d) (f1 ++ f2) -> In (y, d) (flight w)).
      { intros y d K. rewrite FL. apply in_app_iff in K. apply in_app_iff. simpl. tauto. }
      assert (CX : negb (carried c (edges w)) = false).
      { unfold carried. destruct c as [c|]; auto. destruct (@strip_some c (edges w)) as [q ->]; auto.
        apply (CA x c). rewrite FL. apply in_or_app. right. left. reflexivity. }
      assert (EXW : exited w = []) by (apply EX; rewrite FL; destruct f1; discriminate).
      assert (CASES : (exists lk', settled s (lk' ++ content r ++ lk ++ held w) /\
                         (lk' = [] \/ (length lk' = 1 /\ err s = true /\ crossing = false /\ exists n, vuser n = (false, true)))) /\
                proper (enter w (lane x)) s /\
                (crossing = true -> owing s (match r with Some (_, _, sent) => length sent | None => 0 end + (length (flight w) + length (seen w)))) /\
                (r = None -> err s = true) /\
                (forall v es sent, r = Some (v, es, sent) -> forall e, In e sent -> In (fst (fst e)) (map (fun e : edge => fst (fst e)) es))).
      { destruct over.
        - injection EQ as -> ->. rewrite (OV eq_refl) in *. split; [exists []; split; [exact SE|auto]|]. split; [|split; [|split]]; auto.
          + constructor; [intros D; exact D|]. apply careful_err; auto.
          + intros v es sent K. discriminate.
        - destruct crossing.
          + symmetry in EQ. destruct (@cross_node_spec _ _ _ _ _ _ _ _ _ _ (lk ++ held w) (length (flight w) + length (seen w)) EQ)
              as (A1 & A2 & A3 & A4); [exact SE|exact (PR eq_refl)|].
            split; [exists []; split; auto|]. split; [|split; [|split]]; auto.
            intros v es sent -> e K. apply cross_node_sent in EQ. subst sent. apply (in_map (fun e : edge => fst (fst e))). exact K.
          + symmetry in EQ. destruct (@fab_node_spec _ _ _ _ _ _ _ _ _ (lk ++ held w) EQ) as ([lk' [A1 A2]] & A3 & A4); [exact SE|].
            split; [exists lk'; split; auto; destruct A2 as [A2|(A2 & A5 & A6 & A7)]; auto|]. split; [|split; [|split]]; auto; [discriminate|].
            intros v es sent -> e K. eapply fab_node_sent; eassumption. }
      destruct CASES as ([lk' [SE' LK']] & PP & PO & PE & PS). destruct PP as [PD [PC1 PC2]].
      assert (ER : errs w (lane x) = true -> err s = true) by congruence.
      assert (LN : forall fl sn vs es wd, length (lk' ++ lk) <= erring (leave w (lane x) s fl sn vs es wd)).
      { intros. rewrite app_length. destruct LK' as [->|(L1 & L2 & _)].
        - simpl. etransitivity; [exact LL|]. apply erring_leave. exact ER.
        - rewrite L1. simpl. transitivity (Datatypes.S (erring w)); [lia|]. unfold erring. simpl.
          apply filter_more with (a := lane x).
          + apply set_err_mono. exact ER.
          + apply in_seq. pose proof (bounded x). lia.
          + exact BE.
          + unfold set_err. rewrite Nat.eqb_refl. exact L2. }
      assert (LW : lk' ++ lk <> [] -> crossing = false /\ exists n, vuser n = (false, true)).
      { destruct LK' as [->|(L1 & L2 & L3 & L4)]; auto. }
      destruct r as [[[v es] sent]|].
      + constructor; simpl.
        * exists (lk' ++ lk). split; [|split; [apply LN|exact LW]]. intros k. specialize (SE' k). rewrite SE'. rewrite !count_occ_app.
          rewrite !occ_held. simpl. rewrite elabels_new, !count_occ_app. lia.
        * exact (PD DI).
        * rewrite WI, CX. reflexivity.
        * intros y d K. unfold numbers. rewrite map_app, map_map. simpl. apply in_or_app. apply in_app_iff in K as [K|K].
          -- left. apply in_map_iff in K as [e [K1 K2]]. injection K1 as <- <-. eapply PS; [reflexivity|exact K2].
          -- right. apply (CA y d). apply CR0. exact K.
        * intros _. exact EXW.
        * intros _ y _. rewrite EXW. intros [].
        * intros CR. specialize (PO CR). unfold owing in *. rewrite FL, app_length in PO.
          rewrite !app_length, map_length. simpl in *. unfold edge in *. lia.
        * intros K. apply dead_leave; auto.
        * exact FA.
        * congruence.
      + pose proof (PE eq_refl) as EE. constructor; simpl.
        * exists (lk' ++ lk). split; [|split; [apply LN|exact LW]]. intros k. specialize (SE' k). rewrite SE'. rewrite !count_occ_app.
          rewrite !occ_held. simpl. lia.
        * exact (PD DI).
        * rewrite WI, CX. destruct crossing; reflexivity.
        * intros y d K. apply (CA y d). destruct crossing; auto.
        * intros _. exact EXW.
        * exact SN.
        * intros CR. specialize (PO CR). rewrite CR. exact PO.
        * intros K. apply dead_leave; auto.
        * exact FA.
        * congruence.
    - (* trouble *)
      rename H into CO, H0 into NX. constructor; simpl; auto.
      + exists lk. split; [exact SE|]. split; [|exact LK]. etransitivity; [exact LL|]. apply erring_leave. auto.
      + rewrite WI. reflexivity.
      + intros K. destruct (DE K) as [Q|Q]; auto. right. apply bad_leave; auto.
    - (* kill *)
      rename H into CO, H0 into NX. constructor; simpl; auto.
      + exists lk. split; [exact SE|]. split; [exact LL|exact LK].
      + intros K. destruct (DE K) as [Q|[k [Q1 Q2]]]; auto. right. exists k. split; auto. unfold bad in *. simpl. apply orb_true_iff in Q2 as [Q2|Q2].
        * rewrite Q2. reflexivity.
        * rewrite set_err_mono; auto. apply orb_true_r.
    - (* exit *)
      rename H into FL, H0 into CO, H1 into LT, H2 into NX. subst s'. subst s. subst sn.
      set (s := if crossing then free_products (length (filter (mine lane l) (seen w))) (enter w l) else enter w l).
      assert (M : made s = made (common w) /\ dead s = dead (common w) /\ err s = errs w l) by (unfold s; destruct crossing; auto).
      destruct M as (M1 & M2 & M3).
      assert (PRS : crossing = true -> owing s (length (others (mine lane l) (seen w)))).
      { intros CR. specialize (PR CR). rewrite FL in PR. unfold s. rewrite CR. unfold owing in *. simpl in *.
        pose proof (split_length (mine lane l) (seen w)). lia. }
      assert (SNS : crossing = true -> forall x, In x (others (mine lane l) (seen w)) -> ~ (l = lane x \/ In (lane x) (exited w))).
      { intros CR x K. apply filter_In in K as [K1 K2]. intros [K|K]; [|exact (SN CR x K1 K)]. unfold mine in K2. rewrite <- K, Nat.eqb_refl in K2.
        discriminate K2. }
      destruct (errs w l) eqn:EL.
      + assert (SES : settled s (vals (map snd (filter (owned l) (vertices w))) ++ elabels (filter (owned l) (edges w)) ++
                        lk ++ vals (map snd (others (owned l) (vertices w))) ++ elabels (others (owned l) (edges w)))).
        { intros k. rewrite M1, M2. rewrite (SE k). rewrite !count_occ_app. rewrite occ_held.
          pose proof (split_occ snd (owned l) (vertices w) k) as V. pose proof (split_elabels (owned l) (edges w) k) as W.
          lia. }
        apply free_queue_spec in SES as (Q1 & Q2 & Q3 & Q4 & Q5).
        set (s' := free_queue dies (filter (owned l) (vertices w)) (filter (owned l) (edges w)) s) in *.
        assert (ES : err s' = true) by (apply Q3; exact M3).
        constructor; simpl; auto.
        * exists lk. split; [exact Q1|]. split; [|exact LK]. etransitivity; [exact LL|]. unfold erring. simpl. apply filter_mono.
          apply set_err_mono. auto.
        * unfold distinct. rewrite Q2, M1. exact DI.
        * intros x d [].
        * congruence.
        * intros CR. unfold owing. rewrite Q4, Q5. apply PRS. exact CR.
        * intros _. right. exists l. split; auto. unfold bad. simpl. unfold set_err. rewrite Nat.eqb_refl, ES. reflexivity.
        * congruence.
      + constructor; simpl; auto.
        * exists lk. split; [|split; [|exact LK]].
          -- intros k. rewrite M1, M2. exact (SE k).
          -- etransitivity; [exact LL|]. unfold erring. simpl. apply filter_mono. apply set_err_mono. congruence.
        * unfold distinct. rewrite M1. exact DI.
        * intros x d [].
        * congruence.
        * rewrite M2. intros K. destruct (DE K) as [Q|[k [Q P]]]; auto. right. exists k. split; auto. unfold bad in *. simpl.
          apply orb_true_iff in P as [P|P]; [|rewrite P; apply orb_true_r]. rewrite set_err_mono; auto. congruence.
        * congruence.
    - (* conclude *)
      rename H into FL, H0 into CO, H1 into AL. subst bad0.
      assert (SNE : crossing = true -> seen w = []).
      { intros CR. destruct (seen w) as [|x sn] eqn:SQ; auto. exfalso. apply (SN CR x); [left; reflexivity|]. apply AL. apply bounded. }
      assert (PRE : crossing = true -> owing (common w) 0).
      { intros CR. specialize (PR CR). rewrite FL, (SNE CR) in PR. exact PR. }
      set (b := existsb (fun l => errs w l || killed w l) (seq 0 lanes) || other). destruct b eqn:B.
      + assert (SES : settled (common w) (vals (map snd (vertices w)) ++ elabels (edges w) ++ lk)).
        { intros k. rewrite (SE k). rewrite !count_occ_app, occ_held. lia. }
        apply free_queue_spec in SES as (Q1 & Q2 & Q3 & Q4 & Q5). constructor; simpl.
        * exists lk. split; [|split; [exact LL|exact LK]]. unfold held. simpl. rewrite app_nil_r. exact Q1.
        * unfold distinct. rewrite Q2. exact DI.
        * exact WI.
        * intros x d [].
        * congruence.
        * exact SN.
        * intros CR. unfold owing. rewrite Q4, Q5, (SNE CR). apply PRE. exact CR.
        * auto.
        * auto.
        * intros _. split; auto. split; auto. split; [discriminate|auto].
      + assert (DD : dead (common w) = []).
        { destruct (dead (common w)) as [|k ks] eqn:DQ; auto. exfalso. destruct DE as [Q|[l [Q P]]]; [discriminate| |].
          - specialize (FA Q). congruence.
          - unfold b in B. apply orb_false_iff in B as [B _]. assert (T : existsb (fun l => errs w l || killed w l) (seq 0 lanes) = true).
            { apply existsb_exists. exists l. split; [apply in_seq; lia|exact P]. }
            congruence. }
        constructor; simpl.
        * exists lk. split; [|split; [exact LL|exact LK]]. exact SE.
        * exact DI.
        * exact WI.
        * intros x d [].
        * congruence.
        * exact SN.
        * intros CR. rewrite (SNE CR). apply PRE. exact CR.
        * rewrite DD. congruence.
        * discriminate.
        * intros _. split; auto. split; [discriminate|]. split; auto.
  Qed.

  Theorem sound_always : forall x w, reaches heap reserve vuser euser puser dies crossing succ lane lanes x w -> sound w.
  Proof.
    intros x w R. induction R as [|w w' R IH T]; [|eapply step_sound; eassumption].
    constructor; simpl; auto; try congruence.
    - exists []. split; [intros v; reflexivity|]. split; [simpl; lia|congruence].
    - split; [constructor|intros v []].
    - intros y c [K|[]]. discriminate K.
    - intros CR. rewrite CR. reflexivity.
  Qed.

  (** a value is destroyed at most once, and neither before nor after it is put into a node *)
  Lemma occ_perm : forall a b : list nat, (forall v, occ a v = occ b v) -> Permutation a b.
  Proof. intros a b. apply (Permutation_count_occ Nat.eq_dec). Qed.

End World.

(** * Statements *)

(** Whatever goes wrong in fabrication, whenever: every value made was destroyed, or is in a node, or was lost.  At most one value is lost by
    each worker, and that only if a vertex function returned it along with an error. *)
Theorem C106_accounted : forall heap reserve vuser euser puser dies succ lane lanes x w, (forall y, lane y < lanes) ->
  reaches heap reserve vuser euser puser dies false succ lane lanes x w ->
  NoDup (made (common w)) /\
  exists lost, Permutation (made (common w)) (dead (common w) ++ held w ++ lost) /\
    length lost <= length (filter (errs w) (seq 0 lanes)) /\ (lost <> [] -> exists n, vuser n = (false, true)).
Proof.
  intros heap reserve vuser euser puser dies succ lane lanes x w B R. apply sound_always in R; auto.
  destruct R as [[lk (SE & LL & LK)] [DI _] _ _ _ _ _ _ _ _]. split; auto. exists lk. split; [|split; auto].
  - apply occ_perm. intros v. rewrite (SE v). rewrite !count_occ_app. lia.
  - intros K. apply LK. exact K.
Qed.

(** If none does so, a failing fabrication leaves nothing behind and destroys nothing twice, and a succeeding one destroys nothing. *)
Theorem C106_decent : forall heap reserve vuser euser puser dies succ lane lanes x w, (forall y, lane y < lanes) ->
  (forall n, snd (vuser n) = true -> fst (vuser n) = true) ->
  reaches heap reserve vuser euser puser dies false succ lane lanes x w -> concluded w = true ->
  if failed w then Permutation (dead (common w)) (made (common w)) /\ NoDup (dead (common w)) /\ held w = []
  else dead (common w) = [] /\ Permutation (held w) (made (common w)) /\ NoDup (held w).
Proof.
  intros heap reserve vuser euser puser dies succ lane lanes x w B DC R C. apply sound_always in R; auto.
  destruct R as [[lk (SE & LL & LK)] [DI _] _ _ _ _ _ _ _ EN]. destruct (EN C) as (E1 & E2 & E3 & _).
  assert (lk = []) as ->.
  { destruct lk as [|k lk]; auto. destruct LK as [_ [n N]]; [discriminate|]. specialize (DC n). rewrite N in DC. discriminate (DC eq_refl). }
  destruct (failed w).
  - destruct (E2 eq_refl) as [V D]. assert (H : held w = []) by (unfold held; rewrite V, D; reflexivity).
    assert (P : Permutation (dead (common w)) (made (common w))).
    { apply occ_perm. intros v. rewrite (SE v), H. simpl. lia. }
    split; auto. split; auto. eapply Permutation_NoDup; [apply Permutation_sym; exact P|exact DI].
  - assert (P : Permutation (held w) (made (common w))).
    { apply occ_perm. intros v. rewrite (SE v), (E3 eq_refl). reflexivity. }
    split; auto. split; auto. eapply Permutation_NoDup; [apply Permutation_sym; exact P|exact DI].
Qed.

(** No carrier that has been freed is ever accessed by a packet, in either operation. *)
Theorem C106_carriers : forall heap reserve vuser euser puser dies crossing succ lane lanes x w, (forall y, lane y < lanes) ->
  reaches heap reserve vuser euser puser dies crossing succ lane lanes x w ->
  wild w = false /\ forall y c, In (y, Some c) (flight w) -> exists l z v, In (l, (c, z, v)) (edges w).
Proof.
  intros heap reserve vuser euser puser dies crossing succ lane lanes x w B R. apply sound_always in R; auto. split; [apply (so_wild R)|].
  intros y c K. apply (so_carriers R) in K. apply in_map_iff in K as [[l [[n z] v]] [<- K]]. exists l, z, v. exact K.
Qed.

(** Crossing loses nothing in any case. *)
Theorem C107_values : forall heap reserve vuser euser puser dies succ lane lanes x w, (forall y, lane y < lanes) ->
  reaches heap reserve vuser euser puser dies true succ lane lanes x w ->
  NoDup (made (common w)) /\ Permutation (made (common w)) (dead (common w) ++ held w) /\
  (concluded w = true ->
     if failed w then Permutation (dead (common w)) (made (common w)) /\ held w = []
     else dead (common w) = [] /\ Permutation (held w) (made (common w))).
Proof.
  intros heap reserve vuser euser puser dies succ lane lanes x w B R. apply sound_always in R; auto.
  destruct R as [[lk (SE & LL & LK)] [DI _] _ _ _ _ _ _ _ EN].
  assert (lk = []) as ->.
  { destruct lk as [|k lk]; auto. destruct LK as [K _]; [discriminate|]. discriminate K. }
  split; auto. split; [apply occ_perm; intros v; rewrite (SE v), !count_occ_app; simpl; lia|].
  intros C. destruct (EN C) as (E1 & E2 & E3 & _). destruct (failed w).
  - destruct (E2 eq_refl) as [V D]. assert (H : held w = []) by (unfold held; rewrite V, D; reflexivity).
    split; auto. apply occ_perm. intros v. rewrite (SE v), H. simpl. lia.
  - split; auto. apply occ_perm. intros v. rewrite (SE v), (E3 eq_refl). reflexivity.
Qed.

(** Every product allocated is in a packet or a collision table until it is freed, and all of them are freed in the end. *)
Theorem C107_products : forall heap reserve vuser euser puser dies succ lane lanes x w, (forall y, lane y < lanes) ->
  reaches heap reserve vuser euser puser dies true succ lane lanes x w ->
  pmade (common w) = pfreed (common w) + length (flight w) + length (seen w) /\
  (concluded w = true -> pfreed (common w) = pmade (common w)).
Proof.
  intros heap reserve vuser euser puser dies succ lane lanes x w B R. apply sound_always in R; auto.
  pose proof (so_products R eq_refl) as P. unfold owing in P. split; [lia|]. intros C. destruct (so_end R C) as (E1 & _ & _ & E2).
  rewrite E1, (E2 eq_refl) in P. simpl in P. lia.
Qed.

(** * Examples *)

Section Play.
  Variable heap reserve : nat -> bool.
  Variable vuser euser puser : nat -> bool * bool.
  Variable dies : nat -> bool.
  Variable crossing : bool.
  Variable succ : nat -> list nat.
  Variable lane : nat -> nat.
  Variable lanes : nat.

  Inductive act := Receive (n : nat) | Kill (l : nat) | Exit (l : nat) | End.

  Definition drop (x : nat) (c : option nat) (w : world) : st * list (nat * edge) * bool * list nat :=
    if crossing
    then (free_products (S (length (filter (mine lane (lane x)) (seen w)))) (enter w (lane x)), edges w, false,
          others (mine lane (lane x)) (seen w))
    else match c with
         | None => (enter w (lane x), edges w, false, seen w)
         | Some c => match strip c (edges w) with
                     | Some (v, es) => (destroy dies v (enter w (lane x)), es, false, seen w)
                     | None => (enter w (lane x), edges w, true, seen w)
                     end
         end.

  Definition play (a : act) (w : world) : option world :=
    if concluded w then None else
    match a with
    | Receive n =>
        match skipn n (flight w) with
        | [] => None
        | (x, c) :: f2 =>
            let f := firstn n (flight w) ++ f2 in
            if errs w (lane x) || killed w (lane x)
            then match drop x c w with (s, es, wd, sn) => Some (leave w (lane x) s f sn (vertices w) es wd) end
            else if in_dec Nat.eq_dec x (seen w)
            then Some (leave w (lane x) (if crossing then free_products 1 (enter w (lane x)) else enter w (lane x)) f
                             (seen w) (vertices w) (edges w) (negb (carried c (edges w))))
            else let (r, s) := if crossing then cross_node heap reserve vuser euser puser dies (succ x) (enter w (lane x))
                               else fab_node heap reserve vuser euser dies (succ x) (enter w (lane x)) in
                 Some (match r with
                       | Some (v, es, sent) =>
                           leave w (lane x) s (map (fun e => (snd (fst e), Some (fst (fst e)))) sent ++ f) (x :: seen w)
                                 ((lane x, v) :: vertices w) (map (fun e => (lane x, e)) es ++ edges w) (negb (carried c (edges w)))
                       | None => leave w (lane x) s (if crossing then flight w else f) (seen w) (vertices w) (edges w)
                                       (if crossing then false else negb (carried c (edges w)))
                       end)
        end
    | Kill l => if in_dec Nat.eq_dec l (exited w) then None else
                Some (mkWorld (common w) (errs w) (set_err l true (killed w)) (flight w) (seen w) (vertices w) (edges w) (wild w)
                              (exited w) (concluded w) (failed w))
    | Exit l => match flight w with
                | _ :: _ => None
                | [] =>
                  if in_dec Nat.eq_dec l (exited w) then None else if negb (l <? lanes) then None else
                  let sn := filter (mine lane l) (seen w) in
                  let s := if crossing then free_products (length sn) (enter w l) else enter w l in
                  let s' := if errs w l then free_queue dies (filter (owned l) (vertices w)) (filter (owned l) (edges w)) s else s in
                  Some (mkWorld s' (set_err l (err s') (errs w)) (killed w) [] (others (mine lane l) (seen w))
                                (if errs w l then others (owned l) (vertices w) else vertices w)
                                (if errs w l then others (owned l) (edges w) else edges w) (wild w) (l :: exited w) (concluded w)
                                (failed w))
                end
    | End => match flight w with
             | _ :: _ => None
             | [] =>
               if forallb (fun l => if in_dec Nat.eq_dec l (exited w) then true else false) (seq 0 lanes)
               then let bad := existsb (fun l => errs w l || killed w l) (seq 0 lanes) || false in
                    Some (mkWorld (if bad then free_queue dies (vertices w) (edges w) (common w) else common w) (errs w) (killed w) [] (seen w)
                                  (if bad then [] else vertices w) (if bad then [] else edges w) (wild w) (exited w) true bad)
               else None
             end
    end.

  Lemma play_step : forall a w w', play a w = Some w' -> step heap reserve vuser euser puser dies crossing succ lane lanes w w'.
  Proof.
    intros a w w' P. unfold play in P. destruct (concluded w) eqn:C; [discriminate|]. destruct a as [n|l|l|].
    - destruct (skipn n (flight w)) as [|[x c] f2] eqn:K; [discriminate|].
      assert (FL : flight w = firstn n (flight w) ++ (x, c) :: f2) by (rewrite <- K; symmetry; apply firstn_skipn).
      destruct (errs w (lane x) || killed w (lane x)) eqn:B.
      + destruct (drop x c w) as [[[s es] wd] sn] eqn:D. injection P as <-. eapply drop_step; eauto.
      + destruct (in_dec Nat.eq_dec x (seen w)).
        * injection P as <-. eapply extant_step; eauto.
        * destruct (if crossing then cross_node heap reserve vuser euser puser dies (succ x) (enter w (lane x))
                    else fab_node heap reserve vuser euser dies (succ x) (enter w (lane x))) as [r s] eqn:R.
          injection P as <-. eapply new_step with (over := false); eauto. discriminate.
    - destruct (in_dec Nat.eq_dec l (exited w)); [discriminate|]. injection P as <-. rewrite <- C. apply kill_step; auto.
    - destruct (flight w) eqn:F; [|discriminate]. destruct (in_dec Nat.eq_dec l (exited w)); [discriminate|].
      destruct (l <? lanes) eqn:L; [|discriminate]. apply Nat.ltb_lt in L. injection P as <-. rewrite <- C. apply exit_step; auto.
    - destruct (flight w) eqn:F; [|discriminate].
      destruct (forallb (fun l => if in_dec Nat.eq_dec l (exited w) then true else false) (seq 0 lanes)) eqn:A; [|discriminate].
      injection P as <-. apply conclude_step; auto. intros l K. rewrite forallb_forall in A. specialize (A l).
      destruct (in_dec Nat.eq_dec l (exited w)); auto. discriminate A. apply in_seq. lia.
  Qed.

  Fixpoint plays (l : list act) (w : world) : option world :=
    match l with [] => Some w | a :: l => match play a w with Some w' => plays l w' | None => None end end.

  Lemma plays_reach : forall x l w w', reaches heap reserve vuser euser puser dies crossing succ lane lanes x w -> plays l w = Some w' ->
    reaches heap reserve vuser euser puser dies crossing succ lane lanes x w'.
  Proof.
    induction l as [|a l IH]; intros w w' R P; simpl in P; [injection P as <-; exact R|].
    destruct (play a w) as [w1|] eqn:E; [|discriminate]. eapply IH; [|exact P]. eapply reaches_step; [exact R|]. apply play_step with a. exact E.
  Qed.
End Play.

Definition summary (w : option world) : option (list nat * list nat * list nat * (nat * nat) * (bool * bool)) :=
  match w with
  | Some w => Some (made (common w), dead (common w), held w, (pmade (common w), pfreed (common w)), (concluded w, failed w))
  | None => None
  end.
Definition always (n : nat) := true.
Definition never (n : nat) := false.
Definition value (n : nat) := (false, false).     (* a value and no error *)
Definition yes (n : nat) := (true, false).
Definition triangle (x : nat) : list nat := match x with 0 => [1; 2] | 1 => [2] | _ => [0] end.
Definition even_odd (x : nat) := x mod 2.

Definition upto (t : nat) (n : nat) := n <? t.    (* memory until some time *)
Definition received (n : nat) : list act := repeat (Receive 0) n ++ [Exit 0; Exit 1; End].
Definition fab_run vuser heap l := plays heap never vuser value yes never false triangle even_odd 2 l (begin false 0).
Definition cross_run vuser heap l := plays heap never vuser value yes never true triangle even_odd 2 l (begin true 0).

Lemma fab_run_reaches : forall vuser heap l q, summary (fab_run vuser heap l) = Some q ->
  exists w, reaches heap never vuser value yes never false triangle even_odd 2 0 w /\ summary (Some w) = Some q.
Proof.
  intros vuser heap l q H. destruct (fab_run vuser heap l) as [w|] eqn:E; [|discriminate H]. exists w. split; auto.
  eapply plays_reach; [apply reaches_begin|exact E].
Qed.
Lemma cross_run_reaches : forall vuser heap l q, summary (cross_run vuser heap l) = Some q ->
  exists w, reaches heap never vuser value yes never true triangle even_odd 2 0 w /\ summary (Some w) = Some q.
Proof.
  intros vuser heap l q H. destruct (cross_run vuser heap l) as [w|] eqn:E; [|discriminate H]. exists w. split; auto.
  eapply plays_reach; [apply reaches_begin|exact E].
Qed.

(** three vertices and four labels made by two workers, all kept *)
Example C106_kept_ex : exists w, reaches always never value value yes never false triangle even_odd 2 0 w /\
  summary (Some w) = Some ([6; 5; 4; 3; 2; 1; 0], [], [5; 3; 0; 6; 4; 2; 1], (0, 0), (true, false)).
Proof. apply fab_run_reaches with (received 5). vm_compute. reflexivity. Qed.

(** memory is exhausted while the third vertex is being connected, or the second one after its label was made *)
Example C106_decent_ex : exists w, reaches (upto 17) never value value yes never false triangle even_odd 2 0 w /\
  summary (Some w) = Some ([6; 5; 4; 3; 2; 1; 0], [0; 3; 1; 2; 4; 5; 6], [], (0, 0), (true, true)).
Proof. apply fab_run_reaches with (received 4). vm_compute. reflexivity. Qed.
Example C106_decent_ex2 : exists w, reaches (upto 11) never value value yes never false triangle even_odd 2 0 w /\
  summary (Some w) = Some ([5; 4; 3; 2; 1; 0], [0; 1; 2; 5; 3; 4], [], (0, 0), (true, true)).
Proof. apply fab_run_reaches with (received 3). vm_compute. reflexivity. Qed.

(** the second and third vertices are returned along with an error to either worker, and are both lost: the bound is met *)
Definition careless (n : nat) : bool * bool := (false, 4 <? n).
Example C106_accounted_ex : exists w, reaches always never careless value yes never false triangle even_odd 2 0 w /\
  summary (Some w) = Some ([4; 3; 2; 1; 0], [0; 1; 2], [], (0, 0), (true, true)).
Proof. apply fab_run_reaches with (received 3). vm_compute. reflexivity. Qed.

Theorem C106_no_leak_refuted : exists heap reserve vuser euser puser dies succ lane lanes x w v, (forall y, lane y < lanes) /\
  reaches heap reserve vuser euser puser dies false succ lane lanes x w /\ concluded w = true /\ failed w = true /\
  In v (made (common w)) /\ ~ In v (dead (common w)) /\ ~ In v (held w).
Proof.
  destruct C106_accounted_ex as [w [R S]]. exists always, never, careless, value, yes, never, triangle, even_odd, 2, 0, w, 4.
  split; [intros y; apply Nat.mod_upper_bound; discriminate|]. split; auto. unfold summary in S.
  apply (f_equal (fun q => match q with Some q => q | None => ([], [], [], (0, 0), (false, false)) end)) in S.
  apply pair_equal_spec in S as [S S1]. apply pair_equal_spec in S1 as [S1 S2]. apply pair_equal_spec in S as [S _].
  apply pair_equal_spec in S as [S S3]. apply pair_equal_spec in S as [S4 S5]. split; auto. split; auto.
  rewrite S3, S4, S5. simpl. intuition discriminate.
Qed.

(** a vertex returned along with an error is destroyed in crossing *)
Example C107_values_ex : exists w, reaches always never careless value yes never true triangle even_odd 2 0 w /\
  summary (Some w) = Some ([2; 1; 0], [0; 1; 2], [], (3, 3), (true, true)).
Proof. apply cross_run_reaches with (received 2). vm_compute. reflexivity. Qed.
Example C107_values_ex2 : exists w, reaches (upto 23) never value value yes never true triangle even_odd 2 0 w /\
  summary (Some w) = Some ([5; 4; 3; 2; 1; 0], [2; 4; 0; 1; 3; 5], [], (5, 5), (true, true)).
Proof. apply cross_run_reaches with (received 5). vm_compute. reflexivity. Qed.
Example C107_products_ex : exists w, reaches always never value value yes never true triangle even_odd 2 0 w /\
  summary (Some w) = Some ([6; 5; 4; 3; 2; 1; 0], [], [6; 4; 2; 5; 3; 1; 0], (5, 5), (true, false)).
Proof. apply cross_run_reaches with (received 5). vm_compute. reflexivity. Qed.
