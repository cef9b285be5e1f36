(** Filtering: C21, C49, C52. *)
From Coq Require Import List Arith NArith Lia Bool Permutation.
From Verif Require Import Base Machine Ports Env Hash Graph Visitor Pass VisitorProofs Walk Run Brigade BrigadeProofs Fold
  Fabricate P_Fabricate Traverse TraverseProofs P_Traverse P_Partition Filter.
Import ListNotations.

Set Implicit Arguments.

Local Opaque lane_of node_hash.

(** ** Lists of edges *)

Definition passes {A} (test : A -> outcome) (x : A) : bool := negb (is_null (fst (test x))).

Lemma individually_loop_none {A} (test : A -> outcome) l : forall p c e,
  snd (individually_loop test l p c (Some e)) <> None.
Proof. induction l as [|x l IH]; simpl; intros; [discriminate|apply IH]. Qed.

Lemma individually_loop_facts {A} (test : A -> outcome) l : forall p c k c',
  individually_loop test l p c None = (k, c', None) ->
  k = rev (filter (passes test) l) ++ p /\ c' = rev (filter (fun x => negb (passes test x)) l) ++ c /\
  forall x, In x l -> snd (test x) = None.
Proof.
  induction l as [|x l IH]; simpl; intros p c k c' H.
  - inversion H; subst. split; [auto|split; [auto|intros x []]].
  - destruct (test x) as [w e] eqn:Et.
    assert (He : e = None).
    { destruct e as [e|]; auto. exfalso. destruct (is_null w);
      [apply (individually_loop_none test l p (x :: c) e)|apply (individually_loop_none test l (x :: p) c e)]; now rewrite H. }
    subst e. assert (Hp : passes test x = negb (is_null w)) by (unfold passes; now rewrite Et).
    rewrite Hp. destruct (is_null w); simpl; apply IH in H as (-> & -> & H3); rewrite <- ?app_assoc;
      (split; [reflexivity|split; [reflexivity|intros y [<-|Hy]; [now rewrite Et|auto]]]).
Qed.

Lemma filter_split {A} (q : A -> bool) l : Permutation (filter q l ++ filter (fun x => negb (q x)) l) l.
Proof.
  induction l as [|x l IH]; simpl; auto. destruct (q x); simpl.
  - now constructor.
  - symmetry. apply Permutation_cons_app. now symmetry.
Qed.

Lemma partition_filters {A} (q : A -> bool) l :
  List.partition q l = (filter q l, filter (fun x => negb (q x)) l).
Proof. induction l as [|x l IH]; simpl; auto. rewrite IH. now destruct (q x). Qed.

Lemma scan_facts {B} (t : B -> B -> bool * option error) l : forall i j m i' m' l0,
  scan t i j m l = (i', m', None) -> nth_error (l0 ++ l) j = Some m -> i = length l0 ->
  nth_error (l0 ++ l) i' = Some m' /\
  ((forall x y z, fst (t x y) = true -> fst (t y z) = true -> fst (t x z) = true) ->
   (forall x, fst (t x x) = false) ->
   (forall x, In x l0 -> fst (t x m) = false) -> forall x, In x (l0 ++ l) -> fst (t x m') = false) /\
  ((forall x y z, fst (t x y) = true -> fst (t y z) = true -> fst (t x z) = true) ->
   (forall x y, In x (l0 ++ l) -> In y (l0 ++ l) -> fst (t x y) = true \/ fst (t y x) = true) ->
   (forall x, In x l0 -> fst (t m x) = true) -> forall x, In x (l0 ++ l) -> fst (t m' x) = true).
Proof.
  induction l as [|y l IH]; simpl; intros i j m i' m' l0 H Hj Hi.
  - inversion H; subst. rewrite app_nil_r in *. auto.
  - replace (l0 ++ y :: l) with ((l0 ++ [y]) ++ l) in * by now rewrite <- app_assoc.
    assert (Hi' : S i = length (l0 ++ [y])) by (rewrite app_length; simpl; lia).
    destruct (t y m) as [[|] [e|]] eqn:Et; try discriminate.
    + assert (Hy : nth_error ((l0 ++ [y]) ++ l) i = Some y).
      { rewrite <- app_assoc, nth_error_app2 by lia. subst i. now rewrite Nat.sub_diag. }
      destruct (IH (S i) i y i' m' (l0 ++ [y]) H Hy Hi') as (A1 & A2 & A3). split; [auto|]. split.
      * intros Ht Hr Hl. apply A2; auto. intros x Hx. apply in_app_or in Hx as [Hx|[<-|[]]]; auto.
        destruct (fst (t x y)) eqn:E; auto. rewrite <- (Hl x Hx). symmetry. apply Ht with y; auto. now rewrite Et.
      * intros Ht Hr Hl. apply A3; auto. intros x Hx. apply in_app_or in Hx as [Hx|[<-|[]]].
        -- apply Ht with m; auto. now rewrite Et.
        -- destruct (Hr y y); auto; apply nth_error_In in Hy; auto.
    + destruct (IH (S i) j m i' m' (l0 ++ [y]) H Hj Hi') as (A1 & A2 & A3). split; [auto|]. split.
      * intros Ht Hr Hl. apply A2; auto. intros x Hx. apply in_app_or in Hx as [Hx|[<-|[]]]; auto. now rewrite Et.
      * intros Ht Hr Hl. apply A3; auto. intros x Hx. apply in_app_or in Hx as [Hx|[<-|[]]]; auto.
        destruct (Hr m y) as [E|E]; auto; [eapply nth_error_In; eauto| |rewrite Et in E; discriminate].
        apply in_or_app. left. apply in_or_app. right. simpl. auto.
Qed.

Lemma without_nth {B} (l : list B) : forall i m, nth_error l i = Some m ->
  Permutation (m :: firstn i l ++ skipn (S i) l) l.
Proof.
  induction l as [|x l IH]; intros [|i] m H; simpl in *; try discriminate.
  - inversion H. auto.
  - rewrite perm_swap. constructor. now apply IH.
Qed.

Lemma pick_facts {B} (t : B -> B -> bool * option error) l m l' :
  pick t l = (m, l', None) -> l <> [] ->
  exists x, m = Some x /\ Permutation (x :: l') l /\
  ((forall x y z, fst (t x y) = true -> fst (t y z) = true -> fst (t x z) = true) ->
   (forall x, fst (t x x) = false) -> forall y, In y l -> fst (t y x) = false) /\
  ((forall x y z, fst (t x y) = true -> fst (t y z) = true -> fst (t x z) = true) ->
   (forall x y, In x l -> In y l -> fst (t x y) = true \/ fst (t y x) = true) -> forall y, In y l -> fst (t x y) = true).
Proof.
  destruct l as [|x l]; [contradiction|]. unfold pick. intros H _.
  destruct (scan t 1 0 x l) as [[i m'] [e|]] eqn:Es; [discriminate|]. inversion H; subst; clear H.
  destruct (@scan_facts _ t l 1 0 x i m' [x] Es eq_refl eq_refl) as (A1 & A2 & A3). exists m'.
  split; [auto|]. split; [exact (@without_nth _ (x :: l) i m' A1)|]. split.
  - intros Ht Hr. apply A2; auto. intros y [<-|[]]; auto.
  - intros Ht Hr. apply A3; auto. intros y [<-|[]]. destruct (Hr x x); simpl; auto.
Qed.

Lemma pick_perm {B} (t : B -> B -> bool * option error) l m l' e :
  pick t l = (m, l', e) -> Permutation (match m with Some x => [x] | None => [] end ++ l') l.
Proof.
  intros H. destruct e as [e|].
  - destruct l as [|x l]; unfold pick in H; [inversion H|].
    destruct (scan t 1 0 x l) as [[i m'] [e'|]]; inversion H; subst. auto.
  - destruct l as [|x l]; [inversion H; auto|].
    destruct (@pick_facts _ t (x :: l) m l' H) as (y & -> & P & _); [discriminate|]. auto.
Qed.

Lemma individually_loop_perm {A} (test : A -> outcome) l : forall p c e k c' e',
  individually_loop test l p c e = (k, c', e') -> Permutation (k ++ c') (l ++ p ++ c).
Proof.
  induction l as [|x l IH]; simpl; intros p c e k c' e' H; [inversion H; auto|].
  destruct e as [e|]; [apply IH in H; rewrite H; perm_solve|].
  destruct (test x) as [w e1]. destruct (is_null w); apply IH in H; rewrite H; perm_solve.
Qed.

Lemma individually_filtered_perm {A} (test : A -> outcome) thin b l k c e :
  individually_filtered test thin b l = (k, c, e) -> Permutation (k ++ c) l.
Proof.
  unfold individually_filtered. intros H.
  destruct (individually_loop test l [] [] None) as [[p c1] e1] eqn:El.
  apply individually_loop_perm in El. rewrite app_nil_r in El.
  destruct b; simpl in H; [|inversion H; subst; auto].
  destruct p as [|x p]; [inversion H; subst; auto|]. destruct e1; [inversion H; subst; auto|].
  destruct (pick thin (x :: p)) as [[m p'] e2] eqn:Ep. inversion H; subst. apply pick_perm in Ep.
  rewrite app_assoc, Ep. auto.
Qed.

Lemma jointly_loop_perm {A} (test : list A -> outcome) l : forall p c e k c' e',
  jointly_loop test l p c e = (k, c', e') -> Permutation (k ++ c') (concat l ++ p ++ c).
Proof.
  induction l as [|x l IH]; simpl; intros p c e k c' e' H; [inversion H; auto|].
  destruct e as [e|]; [apply IH in H; rewrite H; perm_solve|].
  destruct (test x) as [w e1]. destruct (is_null w); apply IH in H; rewrite H; perm_solve.
Qed.

Lemma passing_loop_perm {A} (test : list A -> outcome) l : forall p c e k c' e',
  passing_loop test l p c e = (k, c', e') -> Permutation (concat k ++ c') (concat l ++ concat p ++ c).
Proof.
  induction l as [|x l IH]; simpl; intros p c e k c' e' H; [inversion H; auto|].
  destruct e as [e|]; [apply IH in H; rewrite H; perm_solve|].
  destruct (test x) as [w e1]. destruct (is_null w); apply IH in H; rewrite H; simpl; perm_solve.
Qed.

Lemma concat_perm {A} (l l' : list (list A)) : Permutation l l' -> Permutation (concat l) (concat l').
Proof. intros H. induction H; simpl; auto; [now apply Permutation_app_head| |etransitivity; eauto]. perm_solve. Qed.

Lemma jointly_thinned_perm {A} (test : list A -> outcome) thin l k c e :
  jointly_thinned test thin l = (k, c, e) -> Permutation (k ++ c) (concat l).
Proof.
  unfold jointly_thinned. intros H.
  destruct (passing_loop test l [] [] None) as [[p c1] e1] eqn:El.
  apply passing_loop_perm in El. simpl in El. rewrite app_nil_r in El.
  destruct p as [|x p]; [inversion H; subst; auto|]. destruct e1; [inversion H; subst; auto|].
  destruct (pick (thin_bucket thin) (x :: p)) as [[m p'] e2] eqn:Ep. inversion H; subst. apply pick_perm in Ep.
  apply concat_perm in Ep. rewrite concat_app in Ep. rewrite <- El, <- Ep.
  destruct m; simpl; rewrite ?app_nil_r, ?app_assoc; reflexivity.
Qed.

Lemma bundled_null_perm {A} (l : list A) : Permutation (concat (bundled_null l)) l.
Proof.
  unfold bundled_null. assert (G : forall l bs, Permutation (concat (fold_left (fun bs (x : A) => [x] :: bs) l bs)) (l ++ concat bs)).
  { clear. induction l as [|x l IH]; simpl; intros bs; auto. rewrite IH. simpl. perm_solve. }
  rewrite G. simpl. now rewrite app_nil_r.
Qed.

Lemma bundled_null_rev {A} (l : list A) : bundled_null l = rev (map (fun x => [x]) l).
Proof.
  unfold bundled_null.
  assert (G : forall l bs, fold_left (fun bs (x : A) => [x] :: bs) l bs = rev (map (fun x => [x]) l) ++ bs).
  { clear. induction l as [|x l IH]; simpl; intros bs; auto. rewrite IH, <- app_assoc. reflexivity. }
  now rewrite G, app_nil_r.
Qed.

Lemma put_perm {A} (r : A -> A -> bool) x bs : Permutation (concat (Brigade.put r x bs)) (x :: concat bs).
Proof.
  induction bs as [|[|y b] bs IH]; simpl; auto. destruct (r y x); simpl; auto.
  rewrite IH. perm_solve.
Qed.

Lemma bundled_perm {A} (r : A -> A -> bool) l : Permutation (concat (bundled r l)) l.
Proof.
  unfold bundled.
  assert (G : forall l bs, Permutation (concat (fold_left (fun bs x => Brigade.put r x bs) l bs)) (l ++ concat bs)).
  { clear. induction l as [|x l IH]; simpl; intros bs; auto. rewrite IH, put_perm. perm_solve. }
  rewrite G. simpl. now rewrite app_nil_r.
Qed.

Lemma rallied_perm {A} judy (h : A -> N) r l : Permutation (concat (rallied judy h r l)) l.
Proof.
  unfold rallied. destruct judy; [|apply bundled_perm].
  destruct (jtable_ok h l) as [_ P].
  assert (G : forall t bs, Permutation (concat (fold_left (fun b kl => bundled r (snd kl) ++ b) t bs))
                                       (concat (map (@snd N (list A)) t) ++ concat bs)).
  { clear. induction t as [|[k l] t IH]; simpl; intros bs; auto. rewrite IH, concat_app, bundled_perm. perm_solve. }
  rewrite G, P. simpl. now rewrite app_nil_r.
Qed.

Lemma filtered_perm X f n l k c e : filtered X f n l = (k, c, e) -> Permutation (k ++ c) l.
Proof.
  unfold filtered. destruct (e_test f) as [[test|order test]|].
  - apply individually_filtered_perm.
  - set (b := match order with None => bundled_null l | Some (h, r) => _ end).
    assert (Hb : Permutation (concat b) l).
    { unfold b. destruct order as [[h r]|]; [apply rallied_perm|apply bundled_null_perm]. }
    destruct (is_some (thinner f)).
    + intros H. apply jointly_thinned_perm in H. now rewrite H.
    + intros H. unfold jointly_filtered in H. apply jointly_loop_perm in H. rewrite H, app_nil_r. auto.
  - intros H. inversion H; subst. now rewrite app_nil_r.
Qed.

Lemma filtered_node_perm X f n l k c e : filtered_node X f n l = (k, c, e) -> Permutation (k ++ c) l.
Proof.
  unfold filtered_node. destruct (is_some (thinner f)); simpl; [|apply filtered_perm].
  destruct (is_deletable f n) as [[|] [e'|]]; try (intros H; inversion H; subst; now rewrite app_nil_r).
  apply filtered_perm.
Qed.

(** ** The pass over the edges, in forward direction *)

Lemma nodup_iff {A} (l1 l2 : list A) :
  NoDup (l1 ++ l2) <-> NoDup l1 /\ NoDup l2 /\ forall x, In x l1 -> ~ In x l2.
Proof.
  split; [|intros (H1 & H2 & H3); now apply nodup_app].
  induction l1 as [|x l1 IH]; simpl; intros H.
  - split; [constructor|split; [auto|intros x []]].
  - inversion H; subst. destruct (IH H3) as (A1 & A2 & A3). split; [|split; [auto|]].
    + constructor; auto. intros Hx. apply H2, in_or_app; auto.
    + intros y [<-|Hy] Hy'; [apply H2, in_or_app; auto|apply (A3 y); auto].
Qed.

Lemma nodup_flat_map {A B} (h : A -> list B) l :
  NoDup l -> (forall x, In x l -> NoDup (h x)) ->
  (forall x y z, In x l -> In y l -> In z (h x) -> In z (h y) -> x = y) -> NoDup (flat_map h l).
Proof.
  induction l as [|x l IH]; simpl; intros Hl Hh Hd; [constructor|].
  inversion Hl; subst. apply nodup_iff. split; [auto|]. split; [apply IH; auto; intros; eapply Hd; eauto|].
  intros z Hz Hz'. apply in_flat_map in Hz' as (y & Hy & Hz').
  assert (x = y) by (eapply Hd; eauto). subst. contradiction.
Qed.

Lemma tagged_tags l : map tag (tagged l) = seq 0 (length l).
Proof.
  unfold tagged, tag. generalize 0. induction l as [|x l IH]; simpl; intros i; auto. now rewrite IH.
Qed.
Lemma tagged_edges l : map snd (tagged l) = l.
Proof. unfold tagged. generalize 0. induction l as [|x l IH]; simpl; intros i; auto. now rewrite IH. Qed.

Section Forward.
  Variable X : env.
  Variable g : graph word word.
  Variable ins : nat -> list (word * nat).
  Variable f : filt.
  Variable dl : list nat.
  Hypothesis Hfwd : backwards f = false.
  Hypothesis Hthin : is_some (thinner f) = true -> dl = [].

  Let gone := is_deleted dl.
  Let fn n := filtered_node X f n (tagged (es g n)).
  Let K n := fst (fst (fn n)).

  Let emit_v n := if gone n then [] else map (fun x => Visit (remote x) (Some (n, tag x))) (K n).
  Let cutreq p := match p with
                  | Visit n (Some (s, i)) => if gone n then [Cut s i] else []
                  | _ => []
                  end.
  Let is_cut n i p := match p with Cut m j => (m =? n) && (j =? i) | _ => false end.
  Let was_cut tr n i := existsb (is_cut n i) tr.

  Lemma K_perm n : exists F, Permutation (K n ++ F) (tagged (es g n)) /\ fn n = (K n, F, snd (fn n)).
  Proof.
    unfold K. destruct (fn n) as [[k c] e] eqn:E1. exists c. simpl. split; auto.
    unfold fn in E1. now apply filtered_node_perm in E1.
  Qed.

  Lemma K_tags n : NoDup (map tag (K n)).
  Proof.
    destruct (K_perm n) as (F & P & _). apply (Permutation_map tag) in P. rewrite tagged_tags, map_app in P.
    apply (nodup_iff (map tag (K n)) (map tag F)). eapply Permutation_NoDup; [symmetry; exact P|apply seq_NoDup].
  Qed.

  Lemma tag_inj n x y : In x (K n) -> In y (K n) -> tag x = tag y -> x = y.
  Proof.
    pose proof (K_tags n) as H. revert H. generalize (K n). clear.
    induction l as [|z l IH]; simpl; intros H Hx Hy E; [contradiction|]. inversion H; subst.
    destruct Hx as [<-|Hx], Hy as [<-|Hy]; auto.
    - exfalso. apply H2. rewrite E. now apply in_map.
    - exfalso. apply H2. rewrite <- E. now apply in_map.
  Qed.

  Let R seen := Visit (root g) None :: flat_map emit_v seen.

  Lemma R_in seen p : In p (R seen) <->
    p = Visit (root g) None \/
    exists n x, In n seen /\ gone n = false /\ In x (K n) /\ p = Visit (remote x) (Some (n, tag x)).
  Proof.
    unfold R. simpl. split; (intros [H|H]; [left; auto|right]).
    - apply in_flat_map in H as (n & Hn & H). unfold emit_v in H. destruct (gone n) eqn:Eg; [contradiction|].
      apply in_map_iff in H as (x & <- & Hx). eauto 8.
    - destruct H as (n & x & Hn & Eg & Hx & ->). apply in_flat_map. exists n. split; auto.
      unfold emit_v. rewrite Eg. apply in_map_iff. eauto.
  Qed.

  Lemma R_nodup seen : NoDup seen -> NoDup (R seen).
  Proof.
    intros Hs. constructor.
    - intros H. apply in_flat_map in H as (n & Hn & H). unfold emit_v in H. destruct (gone n); [contradiction|].
      apply in_map_iff in H as (x & H & _). discriminate.
    - apply nodup_flat_map; auto.
      + intros n _. unfold emit_v. destruct (gone n); [constructor|].
        pose proof (K_tags n) as Ht. revert Ht. generalize (K n). clear. induction l as [|x l IH]; simpl; intros H; constructor.
        * inversion H; subst. intros Hin. apply H2. apply in_map_iff in Hin as (y & E1 & Hy). 
          assert (E2 : tag y = tag x) by (inversion E1; auto). rewrite <- E2. now apply in_map.
        * apply IH. now inversion H.
      + intros n m z _ _ Hn Hm. unfold emit_v in *. destruct (gone n); [contradiction|]. destruct (gone m); [contradiction|].
        apply in_map_iff in Hn as (x & <- & _). apply in_map_iff in Hm as (y & E1 & _). inversion E1; auto.
  Qed.

  Let is_visit p := match p with Visit _ _ => true | _ => false end.

  Lemma R_visits seen : filter is_visit (R seen) = R seen.
  Proof.
    unfold R. simpl. f_equal. induction seen as [|n seen IH]; simpl; auto. rewrite filter_app, IH. f_equal.
    unfold emit_v. destruct (gone n); auto. induction (K n); simpl; auto. now f_equal.
  Qed.

  Lemma cutreq_cuts tr : filter is_visit (flat_map cutreq tr) = [].
  Proof.
    apply filter_none. intros p Hp. apply in_flat_map in Hp as (q & _ & Hq).
    destruct q as [n [[s i]|]| |]; simpl in Hq; try contradiction. destruct (gone n); [|contradiction].
    destruct Hq as [<-|[]]. reflexivity.
  Qed.

  Lemma cutreq_visits tr : flat_map cutreq (filter is_visit tr) = flat_map cutreq tr.
  Proof. induction tr as [|[n by_edge| |] tr IH]; simpl; rewrite ?IH; auto. Qed.

  Lemma packets_nodup seen tr b :
    NoDup seen -> Permutation (tr ++ b) (R seen ++ flat_map cutreq tr) ->
    NoDup (tr ++ b) /\ incl (filter is_visit tr) (R seen).
  Proof.
    intros Hs P.
    assert (Hv : Permutation (filter is_visit tr ++ filter is_visit b) (R seen)).
    { rewrite <- filter_app. assert (G : Permutation (filter is_visit (tr ++ b)) (filter is_visit (R seen ++ flat_map cutreq tr))).
      { clear - P. induction P; simpl; auto; try destruct (is_visit x); try destruct (is_visit y); auto; [constructor|etransitivity; eauto]. }
      rewrite G, filter_app, R_visits, cutreq_cuts, app_nil_r. auto. }
    assert (Hi : incl (filter is_visit tr) (R seen)).
    { intros p Hp. eapply Permutation_in; [exact Hv|]. apply in_or_app; auto. }
    split; [|exact Hi].
    eapply Permutation_NoDup; [symmetry; exact P|]. apply nodup_iff. split; [now apply R_nodup|]. split.
    - rewrite <- cutreq_visits. apply nodup_flat_map.
      + apply (nodup_iff (filter is_visit tr) (filter is_visit b)). eapply Permutation_NoDup; [symmetry; exact Hv|now apply R_nodup].
      + intros p _. destruct p as [n [[s i]|]| |]; simpl; try constructor. destruct (gone n); repeat constructor. simpl. tauto.
      + intros p q z Hp Hq Zp Zq. apply Hi, R_in in Hp. apply Hi, R_in in Hq.
        destruct Hp as [->|(n & x & _ & _ & Hx & ->)]; [contradiction|].
        destruct Hq as [->|(m & y & _ & _ & Hy & ->)]; [contradiction|].
        simpl in Zp, Zq. destruct (gone (remote x)); [|contradiction]. destruct (gone (remote y)); [|contradiction].
        destruct Zp as [<-|[]]. destruct Zq as [Zq|[]]. inversion Zq; subst.
        assert (x = y) by (eapply tag_inj; eauto). now subst.
    - intros p Hp Hq. apply in_flat_map in Hq as (q & _ & Hq).
      destruct q as [n [[s i]|]| |]; simpl in Hq; try contradiction. destruct (gone n); [|contradiction].
      destruct Hq as [<-|[]]. apply R_in in Hp as [H|(n' & x & _ & _ & _ & H)]; discriminate.
  Qed.

  Let pairs (o : nat -> list tedge) seen := flat_map (fun n => map (pair n) (o n)) seen.

  Lemma pairs_ext (o o' : nat -> list tedge) seen : (forall n, In n seen -> o n = o' n) -> pairs o seen = pairs o' seen.
  Proof. unfold pairs. induction seen as [|n seen IH]; simpl; intros H; auto. rewrite H, IH; auto. Qed.

  (** Nodes visited: those kept, and the deleted ones next to them. *)
  Inductive live : nat -> Prop :=
  | live_root : live (root g)
  | live_step n x : live n -> gone n = false -> In x (K n) -> live (remote x).

  Record fwd_inv (d : fdata) (tr b : list fpkt) : Prop := {
    fi_perm : Permutation (tr ++ b) (R (fseen d) ++ flat_map cutreq tr);
    fi_live : forall n, In n (fseen d) \/ (exists y, In (Visit n y) b) -> live n;
    fi_nodup : NoDup (fseen d);
    fi_seen : forall n, In n (fseen d) <-> exists by_edge, In (Visit n by_edge) tr;
    fi_new : forall n, ~ In n (fseen d) -> out d n = tagged (es g n);
    fi_gone : forall n, In n (fseen d) -> gone n = true -> out d n = [];
    fi_kept : forall n, In n (fseen d) -> gone n = false ->
      snd (fn n) = None /\ out d n = filter (fun x => negb (was_cut tr n (tag x))) (K n);
    fi_disc : Permutation (disc d ++ pairs (out d) (fseen d)) (pairs (fun n => tagged (es g n)) (fseen d))
  }.

  Lemma fwd_start : fwd_inv (fstart g) [] [Visit (root g) None].
  Proof.
    split; simpl; auto.
    - intros n [[]|(y & [H|[]])]. inversion H. constructor.
    - constructor.
    - intros n. split; [intros []|intros (by_edge & [])].
    - intros n [].
    - intros n [].
  Qed.

  Lemma was_cut_snoc tr p n i : was_cut (tr ++ [p]) n i = was_cut tr n i || is_cut n i p.
  Proof. unfold was_cut. rewrite existsb_app. simpl. now rewrite orb_false_r. Qed.

  Lemma cut_known seen tr s i : incl (filter is_visit tr) (R seen) -> In (Cut s i) (flat_map cutreq tr) ->
    exists x, In s seen /\ gone s = false /\ In x (K s) /\ tag x = i /\ gone (remote x) = true /\
              In (Visit (remote x) (Some (s, i))) tr.
  Proof.
    intros Hi H. apply in_flat_map in H as (q & Hq & H).
    destruct q as [n [[s' i']|]| |]; simpl in H; try contradiction. destruct (gone n) eqn:Eg; [|contradiction].
    destruct H as [H|[]]. inversion H; subst; clear H.
    assert (Hq' : In (Visit n (Some (s, i))) (R seen)) by (apply Hi, filter_In; auto).
    apply R_in in Hq' as [Hq'|(m & x & Hm & Em & Hx & Hq')]; [discriminate|]. inversion Hq'; subst. eauto 10.
  Qed.

  Lemma seen_b n l : existsb (Nat.eqb n) l = true <-> In n l.
  Proof.
    rewrite existsb_exists. split; [intros (x & Hx & E1); apply Nat.eqb_eq in E1; now subst|].
    intros H. exists n. split; auto. apply Nat.eqb_refl.
  Qed.
  Lemma seen_b_false n l : existsb (Nat.eqb n) l = false <-> ~ In n l.
  Proof. rewrite <- seen_b. destruct (existsb (Nat.eqb n) l); split; congruence. Qed.

  Lemma fwd_step d tr p b d' o :
    fwd_inv d tr (p :: b) -> efilter X ins f dl d p = (d', o, None) -> fwd_inv d' (tr ++ [p]) (o ++ b).
  Proof.
    intros [P LV ND S1 N1 G1 K1 D1] H.
    destruct (packets_nodup _ _ ND P) as [Hnd Hincl].
    destruct p as [n by_edge|s i|]; cbn [efilter] in H.
    - fold gone in H.
      assert (Hreq : request_disconnection ins f n by_edge =
                     match by_edge with Some (m, i) => [Cut m i] | None => [] end).
      { unfold request_disconnection. now rewrite Hfwd. }
      assert (Hcut : forall m i, was_cut (tr ++ [Visit n by_edge]) m i = was_cut tr m i).
      { intros. rewrite was_cut_snoc. simpl. now rewrite orb_false_r. }
      destruct (existsb (Nat.eqb n) (fseen d)) eqn:Es.
      + apply seen_b in Es. inversion H; subst; clear H.
        assert (Ho : (if is_some (thinner f) || negb (gone n) then [] else request_disconnection ins f n by_edge) =
                     cutreq (Visit n by_edge)).
        { rewrite Hreq. destruct (gone n) eqn:Eg; simpl; [|rewrite orb_true_r; destruct by_edge as [[? ?]|]; simpl; rewrite ?Eg; auto].
          rewrite orb_false_r. destruct (is_some (thinner f)) eqn:Et; [|destruct by_edge as [[? ?]|]; simpl; rewrite ?Eg; auto].
          unfold gone in Eg. rewrite (Hthin eq_refl) in Eg. discriminate. }
        split; auto.
        * rewrite Ho, flat_map_app. cbn [flat_map]. rewrite app_nil_r.
          generalize (cutreq (Visit n by_edge)). intros q.
          transitivity (q ++ (tr ++ Visit n by_edge :: b)); [perm_solve|]. rewrite P. perm_solve.
        * rewrite Ho. intros m [Hm|(y & Hy)]; [auto|]. apply LV. right. exists y. simpl.
          apply in_app_or in Hy as [Hy|Hy]; auto.
          destruct by_edge as [[? ?]|]; simpl in Hy; [|contradiction]. destruct (gone n); [|contradiction].
          destruct Hy as [Hy|[]]. discriminate.
        * intros m. rewrite S1. split; intros (x & Hx).
          -- exists x. apply in_or_app; auto.
          -- apply in_app_or in Hx as [Hx|[Hx|[]]]; eauto. inversion Hx; subst. now apply S1.
        * intros m Hm Em. destruct (K1 m Hm Em) as [A B]. split; auto. rewrite B. apply filter_ext.
          intros x. now rewrite Hcut.
      + apply seen_b_false in Es.
        assert (Hs' : forall m, In m (n :: fseen d) <-> exists y, In (Visit m y) (tr ++ [Visit n by_edge])).
        { intros m. simpl. rewrite S1. split.
          - intros [<-|(y & Hy)]; [exists by_edge|exists y]; apply in_or_app; simpl; auto.
          - intros (y & Hy). apply in_app_or in Hy as [Hy|[Hy|[]]]; [eauto|]. inversion Hy; auto. }
        destruct (gone n) eqn:Eg.
        * inversion H; subst; clear H. split; simpl.
          -- rewrite Hreq, flat_map_app. simpl. rewrite Eg.
             assert (Ee : emit_v n = []) by (unfold emit_v; now rewrite Eg). rewrite Ee. simpl.
             assert (Hc : (match by_edge with Some (s, i) => [Cut s i] | None => [] end) ++ [] =
                          match by_edge with Some (m, i) => [Cut m i] | None => [] end) by now rewrite app_nil_r.
             rewrite Hc. generalize (match by_edge with Some (m, i) => [Cut m i] | None => [] end). intros q.
             transitivity (q ++ (tr ++ Visit n by_edge :: b)); [perm_solve|]. rewrite P. unfold R. simpl. perm_solve.
          -- rewrite Hreq. intros m [[<-|Hm]|(y & Hy)]; [apply LV; simpl; eauto|auto|].
             apply LV. right. exists y. simpl. apply in_app_or in Hy as [Hy|Hy]; auto.
             destruct by_edge as [[? ?]|]; [|contradiction]. destruct Hy as [Hy|[]]. discriminate.
          -- constructor; auto.
          -- exact Hs'.
          -- intros m Hm. rewrite upd_diff by (intros ->; tauto). apply N1. tauto.
          -- intros m [<-|Hm] Em; [now rewrite upd_same|]. rewrite upd_diff by (intros ->; tauto). auto.
          -- intros m [<-|Hm] Em; [congruence|]. rewrite upd_diff by (intros ->; tauto).
             destruct (K1 m Hm Em) as [A B]. split; auto. rewrite B. apply filter_ext. intros x. now rewrite Hcut.
          -- rewrite upd_same. simpl. rewrite (pairs_ext (upd (out d) n []) (out d)) by
               (intros m Hm; apply upd_diff; intros ->; tauto).
             rewrite <- D1, (N1 n Es). perm_solve.
        * rewrite (N1 n Es) in H. destruct (K_perm n) as (F & PF & EF). unfold fn in EF at 1. rewrite EF in H.
          destruct (snd (fn n)) eqn:Ef; [discriminate|]. inversion H; subst; clear H.
          assert (Hon : onward_packets ins f n (K n) = emit_v n).
          { unfold onward_packets, emit_v. now rewrite Hfwd, Eg. }
          assert (Hnc : forall i, was_cut tr n i = false).
          { intros i. destruct (was_cut tr n i) eqn:Ec; auto. exfalso. unfold was_cut in Ec.
            apply existsb_exists in Ec as (q & Hq & Ec). destruct q as [| m j|]; try discriminate. simpl in Ec.
            apply andb_true_iff in Ec as [E1 E2]. apply Nat.eqb_eq in E1, E2. subst.
            assert (Hc : In (Cut n i) (flat_map cutreq tr)).
            { assert (In (Cut n i) (R (fseen d) ++ flat_map cutreq tr)).
              { eapply Permutation_in; [exact P|]. apply in_or_app; auto. }
              apply in_app_or in H as [H|H]; auto. apply R_in in H as [H|(? & ? & _ & _ & _ & H)]; discriminate. }
            destruct (@cut_known (fseen d) tr _ _ Hincl Hc) as (x & Hx & _). contradiction. }
          split; simpl.
          -- rewrite Hon, flat_map_app. simpl. rewrite Eg.
             assert (Hc : (match by_edge with Some (s, i) => @nil fpkt | None => [] end) ++ [] = [])
               by now destruct by_edge as [[? ?]|].
             rewrite Hc, app_nil_r. change (Visit (root g) None :: (emit_v n ++ flat_map emit_v (fseen d)) ++ flat_map cutreq tr)
               with ([Visit (root g) None] ++ ((emit_v n ++ flat_map emit_v (fseen d)) ++ flat_map cutreq tr)).
             unfold R in P. simpl in P.
             transitivity (emit_v n ++ (tr ++ Visit n by_edge :: b)); [perm_solve|]. rewrite P. perm_solve.
          -- assert (Ln : live n) by (apply LV; simpl; eauto).
             rewrite Hon. intros m [[<-|Hm]|(y & Hy)]; [auto|auto|].
             apply in_app_or in Hy as [Hy|Hy]; [|apply LV; right; exists y; simpl; auto].
             unfold emit_v in Hy. rewrite Eg in Hy. apply in_map_iff in Hy as (x & Ex & Hx). inversion Ex; subst.
             now apply live_step with n.
          -- constructor; auto.
          -- exact Hs'.
          -- intros m Hm. rewrite upd_diff by (intros ->; tauto). apply N1. tauto.
          -- intros m [<-|Hm] Em; [congruence|]. rewrite upd_diff by (intros ->; tauto). auto.
          -- intros m [<-|Hm] Em.
             ++ rewrite upd_same. split; auto. symmetry.
                clear - Hnc Hcut. induction (K n) as [|x l IH]; simpl; auto.
                rewrite Hcut, Hnc. simpl. now f_equal.
             ++ rewrite upd_diff by (intros ->; tauto).
                destruct (K1 m Hm Em) as [A B]. split; auto. rewrite B. apply filter_ext. intros x. now rewrite Hcut.
          -- rewrite upd_same. simpl. rewrite (pairs_ext (upd (out d) n (K n)) (out d)) by
               (intros m Hm; apply upd_diff; intros ->; tauto).
             rewrite <- D1. apply (Permutation_map (pair n)) in PF. rewrite map_app in PF. rewrite <- PF. perm_solve.
    - destruct (List.partition (fun x : tedge => tag x =? i) (out d s)) as [c l] eqn:Ep.
      assert (Hd : d' = mkFD (upd (out d) s l) (map (pair s) c ++ disc d) (fseen d) /\ o = [])
        by (destruct c; [discriminate|inversion H; auto]).
      assert (Hc : In (Cut s i) (flat_map cutreq tr)).
      { assert (In (Cut s i) (R (fseen d) ++ flat_map cutreq tr)).
        { eapply Permutation_in; [exact P|]. apply in_or_app; simpl; auto. }
        apply in_app_or in H0 as [H0|H0]; auto. apply R_in in H0 as [H0|(? & ? & _ & _ & _ & H0)]; discriminate. }
      destruct (@cut_known (fseen d) tr _ _ Hincl Hc) as (x & Hs & Egs & Hx & Ht & Egx & _).
      assert (El : c = filter (fun y => tag y =? i) (out d s) /\ l = filter (fun y => negb (tag y =? i)) (out d s)).
      { rewrite partition_filters in Ep. inversion Ep. auto. }
      destruct Hd as [-> ->]. clear H Ep. destruct El as [-> ->]. simpl.
      split; simpl.
      + rewrite flat_map_app. simpl. rewrite app_nil_r. change (Visit (root g) None :: flat_map emit_v (fseen d) ++ flat_map cutreq tr)
          with (R (fseen d) ++ flat_map cutreq tr). rewrite <- P. perm_solve.
      + intros m [Hm|(y & Hy)]; [auto|]. apply LV. right. exists y. simpl. auto.
      + auto.
      + intros m. rewrite S1. split; intros (y & Hy); exists y.
        * apply in_or_app; auto.
        * apply in_app_or in Hy as [Hy|[Hy|[]]]; auto. discriminate.
      + intros m Hm. rewrite upd_diff by (intros ->; tauto). auto.
      + intros m Hm Em. rewrite upd_diff by (intros ->; congruence). auto.
      + intros m Hm Em. destruct (K1 m Hm Em) as [A B]. split; auto. destruct (Nat.eq_dec m s) as [->|Hn].
        * rewrite upd_same, B. clear. induction (K s) as [|y l IH]; simpl; auto.
          rewrite was_cut_snoc. simpl. rewrite Nat.eqb_refl. simpl.
          destruct (was_cut tr s (tag y)) eqn:E1; simpl; auto.
          rewrite (Nat.eqb_sym i). destruct (tag y =? i); simpl; rewrite IH; auto.
        * rewrite upd_diff by auto. rewrite B. apply filter_ext. intros y. rewrite was_cut_snoc. simpl.
          destruct (Nat.eqb_spec s m); [congruence|]. simpl. now rewrite orb_false_r.
      + rewrite <- D1. apply in_split in Hs as (l1 & l2 & El). rewrite El in *. unfold pairs.
        rewrite !flat_map_app. simpl. rewrite upd_same.
        assert (Hn : ~ In s (l1 ++ l2)) by (apply NoDup_remove in ND; tauto).
        fold (pairs (upd (out d) s (filter (fun y => negb (tag y =? i)) (out d s))) l1).
        fold (pairs (upd (out d) s (filter (fun y => negb (tag y =? i)) (out d s))) l2).
        rewrite !(pairs_ext (upd (out d) s _) (out d)) by
          (intros m Hm; apply upd_diff; intros ->; apply Hn, in_or_app; auto).
        unfold pairs.
        assert (G : Permutation (map (pair s) (filter (fun y => tag y =? i) (out d s)) ++
                                 map (pair s) (filter (fun y => negb (tag y =? i)) (out d s))) (map (pair s) (out d s))).
        { rewrite <- map_app. apply Permutation_map, filter_split. }
        rewrite <- G. perm_solve.
    - exfalso. assert (Hi : In (CutBack n l terminus last) (R (fseen d) ++ flat_map cutreq tr)).
      { eapply Permutation_in; [exact P|]. apply in_or_app; simpl; auto. }
      apply in_app_or in Hi as [Hi|Hi]; [apply R_in in Hi as [Hi|(? & ? & _ & _ & _ & Hi)]; discriminate|].
      apply in_flat_map in Hi as (q & _ & Hq).
      destruct q as [m [[s i]|]| |]; simpl in Hq; try contradiction. destruct (gone m); [|contradiction].
      destruct Hq as [Hq|[]]. discriminate.
  Qed.

  Lemma fwd_complete kills s order :
    never_killed kills -> 0 < lanes X -> Permutation order (seq 0 (lanes X)) ->
    completes (edge_filtering (in_pass X kills 1) ins f dl) (vstart (fstart g)) (Visit (root g) None) s ->
    pass_status order s = None -> exists tr, fwd_inv (data s) tr [].
  Proof.
    intros Hu Hl Ho Hc Hst.
    assert (Hv := @pass_unkilled _ _ _ (in_pass X kills 1) _ _ _ _ _ _ _ _ _ order Hl Ho (Hu 1) Hc Hst).
    apply visit_success with (order := order) in Hc as (vis & Hs); auto.
    2:{ intros k k' H. apply Nat.eqb_eq in H. now subst. }
    2:{ intros. now apply lane_of_lt. }
    unfold serial, completes in Hs.
    refine (mruns_inv (fun c b => exists tr, fwd_inv (fst c) tr b) _ _ _ Hs).
    - intros c b b' Hp (tr & [A1 A0 A2 A3 A4 A5 A6 A7]). exists tr. split; auto.
      + rewrite <- A1. now apply Permutation_app_head.
      + intros n [Hn|(y & Hy)]; [auto|]. apply A0. right. exists y. eapply Permutation_in; [symmetry; exact Hp|auto].
    - intros [d v] p b [d' v'] o (tr & Hi) Ht. exists (tr ++ [p]). unfold ptask in Ht. simpl in Ht.
      change (efilter (in_pass X kills 1)) with (efilter X) in Ht.
      destruct (was_seen receiver Nat.eqb v p);
        (destruct (efilter X ins f dl d p) as [[d1 o1] [e|]] eqn:Ee; [discriminate|]; inversion Ht; subst; simpl;
         eapply fwd_step; eauto).
    - exists []. apply fwd_start.
  Qed.

  Lemma fwd_facts d tr :
    fwd_inv d tr [] ->
    (forall n, In n (fseen d) <-> live n) /\
    (forall n, live n -> gone n = false ->
       snd (fn n) = None /\ out d n = filter (fun x => negb (gone (remote x))) (K n)).
  Proof.
    intros [P LV ND S1 N1 G1 K1 D1]. rewrite app_nil_r in P.
    destruct (@packets_nodup (fseen d) tr [] ND) as [Hnd Hincl]; [now rewrite app_nil_r|].
    assert (Hr : forall p, In p (R (fseen d)) -> In p tr).
    { intros p Hp. eapply Permutation_in; [symmetry; exact P|]. apply in_or_app; auto. }
    assert (Hq : forall p, In p (flat_map cutreq tr) -> In p tr).
    { intros p Hp. eapply Permutation_in; [symmetry; exact P|]. apply in_or_app; auto. }
    assert (Hlive : forall n, In n (fseen d) <-> live n).
    { intros n. split.
      - auto.
      - intros H. induction H as [|n x H IH Eg Hx].
        + apply S1. exists None. apply Hr, R_in. auto.
        + apply S1. exists (Some (n, tag x)). apply Hr, R_in. right. eauto 8. }
    split; auto. intros n Hn Eg. apply Hlive in Hn. destruct (K1 n Hn Eg) as [A B]. split; auto. rewrite B.
    apply filter_ext_in. intros x Hx. f_equal.
    assert (Hv : In (Visit (remote x) (Some (n, tag x))) tr) by (apply Hr, R_in; right; eauto 8).
    destruct (gone (remote x)) eqn:Ex.
    - unfold was_cut. apply existsb_exists. exists (Cut n (tag x)). split.
      + apply Hq, in_flat_map. exists (Visit (remote x) (Some (n, tag x))). split; auto. simpl. rewrite Ex. simpl. auto.
      + simpl. now rewrite !Nat.eqb_refl.
    - destruct (was_cut tr n (tag x)) eqn:Ec; auto. exfalso. unfold was_cut in Ec.
      apply existsb_exists in Ec as (q & Hq' & Ec). destruct q as [|m j|]; try discriminate. simpl in Ec.
      apply andb_true_iff in Ec as [E1 E2]. apply Nat.eqb_eq in E1, E2. subst.
      assert (Hc : In (Cut n (tag x)) (flat_map cutreq tr)).
      { assert (Hc : In (Cut n (tag x)) (R (fseen d) ++ flat_map cutreq tr)) by (eapply Permutation_in; eauto).
        apply in_app_or in Hc as [H|H]; auto. apply R_in in H as [H|(? & ? & _ & _ & _ & H)]; discriminate. }
      destruct (@cut_known (fseen d) tr _ _ Hincl Hc) as (y & _ & _ & Hy & Ht & Ey & _).
      assert (x = y) by (eapply tag_inj; eauto). congruence.
  Qed.
End Forward.

(** ** Marking, populating and pruning *)

Lemma mark_acts f nodes : forall d d', acts (mark_act f) d nodes = Some d' ->
  (forall n, In n nodes -> snd (is_deletable f n) = None) /\
  forall n, In n d' <-> In n d \/ (In n nodes /\ fst (is_deletable f n) = true).
Proof.
  induction nodes as [|n nodes IH]; simpl; intros d d' H.
  - inversion H; subst. split; [intros n []|]. intros n. tauto.
  - unfold mark_act in H at 1. destruct (is_deletable f n) as [[|] [e|]] eqn:Ed; try discriminate;
      apply IH in H as [H1 H2]; (split; [intros m [<-|Hm]; [now rewrite Ed|auto]|]); intros m; rewrite H2; simpl.
    + split; [intros [[<-|H]|[H H']]; auto|]; [right; split; auto; now rewrite Ed|].
      intros [H|[[<-|H] H']]; auto.
    + split; [intros [H|[H H']]; auto|]. intros [H|[[<-|H] H']]; auto. rewrite Ed in H'. discriminate.
Qed.

Lemma collect_acts nodes : forall d d', acts collect d nodes = Some d' -> d' = d ++ nodes.
Proof.
  induction nodes as [|n nodes IH]; simpl; intros d d' H; [inversion H; now rewrite app_nil_r|].
  apply IH in H. now rewrite <- app_assoc in H.
Qed.

(** ** C21 *)

(** Vertices reachable by way of kept vertices and selected edges. *)
Inductive retained (g : graph word word) (keep : nat -> bool) (sel : nat -> list (word * nat)) : nat -> Prop :=
| ret_root : retained g keep sel (root g)
| ret_step n l m : retained g keep sel n -> In (l, m) (sel n) -> keep m = true -> retained g keep sel m.

(** The vertices that are not rejected. *)
Definition kept_vertex (f : filt) (n : nat) : bool :=
  match thinner f, v_test f with
  | None, Some t => negb (is_null (fst (t n)))
  | _, _ => true
  end.

(** All edges with their origins. *)
Definition edges_from (g : graph word word) : list (nat * (word * nat)) :=
  flat_map (fun n => map (pair n) (es g n)) (ids g).

Lemma kept_vertex_false f n : is_some (thinner f) = false -> kept_vertex f n = negb (fst (is_deletable f n)).
Proof.
  intros H. unfold kept_vertex, is_deletable. destruct (thinner f); [discriminate|].
  destruct (v_test f) as [t|]; auto. destruct (t n). reflexivity.
Qed.

Lemma filter_true {A} (l : list A) : filter (fun _ => true) l = l.
Proof. induction l; simpl; auto. now f_equal. Qed.

Lemma marked_facts X g ins f init kills dl :
  wf g -> 0 < lanes X -> never_killed kills -> backwards f = false -> marked X g ins f init kills (dl, None) ->
  (is_some (thinner f) = true -> dl = []) /\
  forall n, In n (ids g) -> is_deleted dl n = negb (kept_vertex f n).
Proof.
  intros W Hl Hu Hb H. inversion H as [Hn E0|s order Hn Hr Ho [Es Est]].
  - subst. split; auto. intros n _. unfold kept_vertex. destruct (thinner f); auto. destruct (v_test f); auto. discriminate.
  - apply orb_false_iff in Hn as [Ht Hv]. split; [congruence|]. subst dl.
    apply ran_completes in Hr; [|apply vdest_lt; auto].
    unfold start in Hr. rewrite Hb in Hr.
    assert (Hrw : node_filtering (in_pass X kills 0) g ins f = walk (in_pass X kills 0) (es g) (mark_act f)).
    { unfold node_filtering, onward. now rewrite Hb. }
    rewrite Hrw in Hr. assert (Hv' := @pass_unkilled _ _ _ (in_pass X kills 0) _ _ _ _ _ _ _ _ _ order Hl Ho (Hu 0) Hr Est).
    eapply (@walk_success _ _ (in_pass X kills 0)) in Hr as (nodes & N1 & N2 & N3); eauto.
    apply mark_acts in N3 as [M1 M2]. intros n Hin. rewrite kept_vertex_false, negb_involutive by auto.
    assert (Hn : In n nodes) by (apply N2, along_ids; auto).
    unfold is_deleted. destruct (fst (is_deletable f n)) eqn:Ed.
    + apply seen_b, M2. auto.
    + apply seen_b_false. intros Hd. apply M2 in Hd as [[]|[_ Hd]]. congruence.
Qed.

Lemma populated_facts X g s order :
  wf g -> 0 < lanes X -> Permutation order (seq 0 (lanes X)) ->
  ran (lanes X) (walk_dest X) (populating (unkillable X) g) (vstart []) (initial (root g)) s -> pass_status order s = None ->
  Permutation (data s) (ids g).
Proof.
  intros W Hl Ho Hr Hs. apply ran_completes in Hr; [|apply vdest_lt; auto].
  assert (Hv := @pass_unkilled _ _ _ (unkillable X) _ _ _ _ _ _ _ _ _ order Hl Ho (fun _ => eq_refl) Hr Hs).
  eapply (@walk_success _ _ (unkillable X)) in Hr as (nodes & N1 & N2 & N3); eauto. apply collect_acts in N3. simpl in N3. rewrite N3.
  apply NoDup_Permutation; auto. { apply (wf_nodup W). } intros n. rewrite N2. now apply along_ids.
Qed.

Lemma map_pairs (o : nat -> list tedge) l :
  map (fun nx : nat * tedge => (fst nx, snd (snd nx))) (flat_map (fun n => map (pair n) (o n)) l) =
  flat_map (fun n => map (pair n) (map snd (o n))) l.
Proof.
  induction l as [|n l IH]; simpl; auto. rewrite map_app, IH. f_equal. rewrite !map_map. reflexivity.
Qed.

Lemma perm_flat_map {A B} (h : A -> list B) l l' : Permutation l l' -> Permutation (flat_map h l) (flat_map h l').
Proof.
  intros H. induction H; simpl; auto; [now apply Permutation_app_head|perm_solve|etransitivity; eauto].
Qed.

Lemma filter_map_snd {A B} (q : B -> bool) (l : list (A * B)) :
  map snd (filter (fun x => q (snd x)) l) = filter q (map snd l).
Proof. induction l as [|x l IH]; simpl; auto. destruct (q (snd x)); simpl; now rewrite IH. Qed.

Section Result.
  Variable X : env.
  Variable g : graph word word.
  Variable ins : nat -> list (word * nat).
  Variable f : filt.
  Variable init : nat.
  Variable kills : nat -> nat -> bool.
  Hypothesis Hu : never_killed kills.
  Hypothesis W : wf g.
  Hypothesis Hl : 0 < lanes X.
  Hypothesis Hb : backwards f = false.

  Let fn n := filtered_node X f n (tagged (es g n)).
  Let K n := fst (fst (fn n)).
  Let sel n := map snd (K n).

  Lemma K_sub n x : In x (K n) -> In (snd x) (es g n).
  Proof.
    intros H. destruct (K_perm X g f n) as (F & P & _). rewrite <- (tagged_edges (es g n)). apply in_map.
    eapply Permutation_in; [exact P|]. apply in_or_app. left. exact H.
  Qed.

  Lemma retained_ids n : retained g (kept_vertex f) sel n -> In n (ids g).
  Proof.
    intros H. induction H as [|n l m H IH Hm _]; [apply (wf_root W)|]. apply in_map_iff in Hm as (x & E1 & Hx).
    apply K_sub in Hx. rewrite E1 in Hx. eapply (wf_closed W); eauto.
  Qed.

  Theorem forward_facts r :
    is_some (v_test f) || is_some (e_test f) = true -> filters X g ins f init kills (r, None) ->
    (fst (base_rejected g f) = true /\ r = freed_entirely g) \/
    (fst (base_rejected g f) = false /\
     exists g', left r = Some g' /\ root g' = root g /\ vx g' = vx g /\ wf g' /\
       (forall n, In n (ids g') <-> retained g (kept_vertex f) sel n) /\
       (forall n, In n (ids g') -> snd (fn n) = None /\ es g' n = filter (fun e => kept_vertex f (snd e)) (sel n)) /\
       Permutation (lost_vertices r ++ ids g') (ids g) /\
       NoDup (lost_labels r) /\
       Permutation (map (fun nx => (fst nx, snd (snd nx))) (lost_labels r) ++ edges_from g') (edges_from g)).
  Proof.
    intros Hne H. remember (r, @None error) as rr eqn:Er in H.
    destruct H as [Hv He|e Hne' Hbr|Hne' Hbr|dl e Hne' Hbr Hm|dl s order e Hne' Hbr Hm Hr Ho Hst|
      dl s order sv order' sq order'' Hne' Hbr Hm Hpop Ho Hps Hr Ho' Hst Hpr Ho'']; try discriminate.
    - rewrite Hv, He in Hne. discriminate.
    - left. rewrite Hbr. inversion Er. auto.
    - right. rewrite Hbr. split; [reflexivity|].
      destruct (pruned_status X kills (data sv) (data s) order'' sq) as [e|] eqn:Hqs; [discriminate|].
      inversion Er; subst r; clear Er.
      destruct (marked_facts W Hl Hu Hb Hm) as [Hthin Hdel].
      assert (Hsv := populated_facts W Hl Ho Hpop Hps).
      apply ran_completes in Hr; [|apply vdest_lt; auto]. unfold start in Hr. rewrite Hb in Hr.
      destruct (@fwd_complete X g ins f dl Hb Hthin kills s order' Hu Hl Ho' Hr Hst) as (tr & Hinv).
      destruct (fwd_facts ins Hb Hinv) as [Hseen Hout].
      destruct Hinv as [_ _ Hnd _ Hnew Hgone _ Hdisc].
      set (d := data s) in *.
      assert (Hroot : kept_vertex f (root g) = true).
      { destruct (is_some (thinner f)) eqn:Et.
        - unfold kept_vertex. destruct (thinner f); [reflexivity|discriminate].
        - rewrite kept_vertex_false by auto. unfold base_rejected in Hbr. rewrite Et in Hbr. now rewrite Hbr. }
      assert (Hlive : forall n, live X g f dl n -> In n (ids g)).
      { intros n Hn. induction Hn as [|n x Hn IH _ Hx]; [apply (wf_root W)|].
        apply K_sub in Hx. destruct x as [i [l m]]. eapply (wf_closed W); eauto. }
      assert (Hret : forall n, retained g (kept_vertex f) sel n <-> live X g f dl n /\ is_deleted dl n = false).
      { intros n. split.
        - intros Hn. induction Hn as [|n l m Hn [IH1 IH2] Hm' Hk].
          + split; [constructor|]. rewrite Hdel by apply (wf_root W). now rewrite Hroot.
          + apply in_map_iff in Hm' as (x & E1 & Hx). assert (Er : remote x = m) by (unfold remote; now rewrite E1).
            assert (Lm : live X g f dl m) by (rewrite <- Er; eapply live_step; eauto).
            split; auto. rewrite Hdel by auto. now rewrite Hk.
        - intros [Hn Hd]. revert Hd. induction Hn as [|n x Hn IH Hd Hx]; intros Ex; [constructor|].
          apply ret_step with (n := n) (l := fst (snd x)); auto.
          + apply in_map_iff. exists x. split; auto. now destruct x as [i [l m]].
          + assert (Hi : In (remote x) (ids g)) by (apply Hlive; eapply live_step; eauto).
            rewrite Hdel in Ex by auto. now apply negb_false_iff in Ex. }
      assert (Hes : forall n, retained g (kept_vertex f) sel n ->
                snd (fn n) = None /\ map snd (out d n) = filter (fun e => kept_vertex f (snd e)) (sel n)).
      { intros n Hn. apply Hret in Hn as [Hn Hd]. destruct (Hout n Hn Hd) as [A B]. split; auto. rewrite B.
        unfold sel. rewrite <- filter_map_snd with (q := fun e => kept_vertex f (snd e)). f_equal.
        apply filter_ext_in. intros x Hx. fold (remote x).
        rewrite Hdel, negb_involutive; auto. apply Hlive. eapply live_step; eauto. }
      apply ran_completes in Hpr; [|apply vdest_lt; auto].
      assert (Hqp : pass_status order'' sq = None).
      { unfold pruned_status in Hqs. destruct (_ && _) in Hqs; auto. now apply pass_vstatus in Hqs. }
      assert (Hqv := @pass_unkilled _ _ _ (in_pass X kills 2) _ _ _ _ _ _ _ _ _ order'' Hl Ho'' (Hu 2) Hpr Hqp).
      destruct (@pass_unflagged _ _ _ (in_pass X kills 2) _ _ _ _ _ _ _ _ _ order'' Hl Ho'' (Hu 2) Hpr Hqp) as [_ Hkil].
      assert (Hqd : queued X sq = data sq).
      { unfold queued. rewrite (filter_ext _ (fun _ => true)) by (intros n; now rewrite Hkil). apply filter_true. }
      rewrite Hqd in *. clear Hqd Hqs.
      eapply (@walk_success _ _ (in_pass X kills 2)) in Hpr as (nodes & N1 & N2 & N3); eauto.
      apply collect_acts in N3. simpl in N3.
      rewrite N3 in *. clear N3.
      assert (N4 : forall n, In n nodes <-> retained g (kept_vertex f) sel n).
      { intros n. rewrite N2. split; intros Hn.
        - induction Hn as [|n l m Hn IH Hm']; [constructor|]. destruct (Hes n IH) as [_ E1]. rewrite E1 in Hm'.
          apply filter_In in Hm' as [Hm' Hk]. eapply ret_step; eauto.
        - induction Hn as [|n l m Hn IH Hm' Hk]; [constructor|]. apply along_step with (n := n) (l := l); auto.
          destruct (Hes n Hn) as [_ E1]. rewrite E1. apply filter_In. auto. }
      assert (N5 : forall n, In n nodes -> In n (ids g)) by (intros n Hn; apply retained_ids, N4, Hn).
      set (lost := filter (fun n => negb (existsb (Nat.eqb n) nodes)) (data sv)).
      assert (Hlost : Permutation (lost ++ nodes) (ids g)).
      { assert (Hndv : NoDup (data sv)) by (eapply Permutation_NoDup; [symmetry; exact Hsv|apply (wf_nodup W)]).
        apply NoDup_Permutation.
        - apply nodup_iff. split; [now apply NoDup_filter|]. split; [auto|]. intros n Hn Hn'.
          apply filter_In in Hn as [_ Hn]. apply seen_b in Hn'. rewrite Hn' in Hn. discriminate.
        - apply (wf_nodup W).
        - intros n. rewrite in_app_iff. unfold lost. rewrite filter_In. split.
          + intros [[Hn _]|Hn]; auto. eapply Permutation_in; eauto.
          + intros Hn. destruct (existsb (Nat.eqb n) nodes) eqn:E1; [right; now apply seen_b|left].
            split; auto. eapply Permutation_in; [symmetry; exact Hsv|auto]. }
      (* all edges are accounted for *)
      set (pr := fun (o : nat -> list tedge) => flat_map (fun n => map (pair n) (o n))) in *.
      assert (Hall : Permutation (disc d ++ pr (out d) (lost ++ nodes)) (pr (fun n => tagged (es g n)) (ids g))).
      { set (unseen := filter (fun n => negb (existsb (Nat.eqb n) (fseen d))) (ids g)).
        assert (Hids : Permutation (fseen d ++ unseen) (ids g)).
        { apply NoDup_Permutation.
          - apply nodup_iff. split; [auto|]. split; [apply NoDup_filter, (wf_nodup W)|]. intros n Hn Hn'.
            apply filter_In in Hn' as [_ Hn']. apply seen_b in Hn. rewrite Hn in Hn'. discriminate.
          - apply (wf_nodup W).
          - intros n. rewrite in_app_iff. unfold unseen. rewrite filter_In. split.
            + intros [Hn|[Hn _]]; auto. apply Hlive, Hseen, Hn.
            + intros Hn. destruct (existsb (Nat.eqb n) (fseen d)) eqn:E1; [left; now apply seen_b|right; auto]. }
        rewrite (perm_flat_map _ Hlost : Permutation (pr (out d) (lost ++ nodes)) (pr (out d) (ids g))).
        rewrite <- (perm_flat_map _ Hids : Permutation (pr (out d) (fseen d ++ unseen)) (pr (out d) (ids g))).
        rewrite <- (perm_flat_map _ Hids : Permutation (pr (fun n => tagged (es g n)) (fseen d ++ unseen)) (pr (fun n => tagged (es g n)) (ids g))).
        unfold pr. rewrite !flat_map_app, app_assoc. apply Permutation_app; [exact Hdisc|].
        rewrite (@flat_map_ext_in _ _ (fun n => map (pair n) (out d n)) (fun n => map (pair n) (tagged (es g n)))); auto.
        intros n Hn. apply filter_In in Hn as [_ Hn]. rewrite Hnew; auto.
        apply seen_b_false. now apply negb_true_iff in Hn. }
      unfold swept. simpl. 
      eexists. split; [reflexivity|]. simpl.
      split; [auto|]. split; [auto|]. split; [|split; [|split; [|split; [|split]]]].
      + split; simpl; auto.
        * apply N4. constructor.
        * intros n l m Hn Hm'. apply N4. apply N4 in Hn. destruct (Hes n Hn) as [_ E1]. rewrite E1 in Hm'.
          apply filter_In in Hm' as [Hm' Hk]. eapply ret_step; eauto.
        * intros n Hn. apply N2 in Hn. clear - Hn.
          induction Hn as [|n l m Hn IH Hm']; [constructor|]. eapply path_step; eauto.
      + exact N4.
      + intros n Hn. apply Hes, N4, Hn.
      + exact Hlost.
      + assert (G : NoDup (pr (fun n => tagged (es g n)) (ids g))).
        { apply nodup_flat_map; [apply (wf_nodup W)| |].
          - intros n _. assert (Ht : NoDup (tagged (es g n))).
            { apply NoDup_map_inv with (f := tag). rewrite tagged_tags. apply seq_NoDup. }
            clear - Ht. induction Ht as [|x l Hx Ht IH]; simpl; constructor; auto.
            intros Hi. apply in_map_iff in Hi as (y & E1 & Hy). inversion E1; subst. contradiction.
          - intros n m z _ _ Hn Hm'. apply in_map_iff in Hn as (x & <- & _). apply in_map_iff in Hm' as (y & E1 & _).
            now inversion E1. }
        apply Permutation_NoDup with (1 := Permutation_sym Hall) in G. unfold pr in G.
        rewrite flat_map_app, app_assoc in G. now apply nodup_iff in G.
      + apply (Permutation_map (fun nx : nat * tedge => (fst nx, snd (snd nx)))) in Hall.
        unfold pr in Hall. rewrite flat_map_app, app_assoc, map_app, !map_pairs in Hall.
        unfold edges_from. simpl. etransitivity; [exact Hall|]. rewrite (@flat_map_ext_in _ _ (fun n => map (pair n) (map snd (tagged (es g n)))) (fun n => map (pair n) (es g n))); auto.
        intros n _. now rewrite tagged_edges.
  Qed.
End Result.

(** The same with another description of the edges selected. *)
Lemma retained_same g keep sel sel' :
  (forall n, retained g keep sel n -> forall e, In e (sel n) <-> In e (sel' n)) ->
  forall n, retained g keep sel n <-> retained g keep sel' n.
Proof.
  intros H n. split; intros Hn; (induction Hn as [|n l m Hn IH Hm Hk]; [constructor|]).
  - apply ret_step with (n := n) (l := l); auto. now apply H.
  - apply ret_step with (n := n) (l := l); auto. now apply H.
Qed.

Definition origin_and_edge (nx : nat * tedge) : nat * (word * nat) := (fst nx, snd (snd nx)).

(** What a filter is supposed to leave and destroy. *)
Record properly_filtered (g : graph word word) (keep : nat -> bool) (sel : nat -> list (word * nat))
       (r : filter_result) (g' : graph word word) : Prop := {
  pf_left : left r = Some g';
  pf_root : root g' = root g;
  pf_vx : forall n, vx g' n = vx g n;
  pf_wf : wf g';
  pf_ids : forall n, In n (ids g') <-> retained g keep sel n;
  pf_es : forall n, In n (ids g') -> Permutation (es g' n) (filter (fun e => keep (snd e)) (sel n));
  pf_vertices : Permutation (lost_vertices r ++ ids g') (ids g);
  pf_nodup : NoDup (lost_labels r);
  pf_labels : Permutation (map origin_and_edge (lost_labels r) ++ edges_from g') (edges_from g)
}.

Lemma perm_filter {A} (q : A -> bool) l l' : Permutation l l' -> Permutation (filter q l) (filter q l').
Proof.
  intros H. induction H; simpl; auto; try destruct (q x); try destruct (q y); auto; [constructor|etransitivity; eauto].
Qed.

Lemma forward_result X g ins f init kills r sel' :
  wf g -> 0 < lanes X -> never_killed kills -> backwards f = false -> is_some (v_test f) || is_some (e_test f) = true ->
  (forall n k c, filtered_node X f n (tagged (es g n)) = (k, c, None) -> Permutation (map snd k) (sel' n)) ->
  filters X g ins f init kills (r, None) ->
  if kept_vertex f (root g) then
    exists g', properly_filtered g (kept_vertex f) sel' r g' /\
      forall n, In n (ids g') -> exists k c, filtered_node X f n (tagged (es g n)) = (k, c, None) /\
        es g' n = filter (fun e => kept_vertex f (snd e)) (map snd k)
  else
    left r = None /\ lost_vertices r = ids g /\ NoDup (lost_labels r) /\
    map origin_and_edge (lost_labels r) = edges_from g.
Proof.
  intros W Hl Hu Hb Hne Hsel H.
  assert (Hk : kept_vertex f (root g) = negb (fst (base_rejected g f))).
  { unfold base_rejected. destruct (is_some (thinner f)) eqn:Et; [|now apply kept_vertex_false].
    unfold kept_vertex. destruct (thinner f); [reflexivity|discriminate]. }
  destruct (forward_facts Hu W Hl Hb Hne H) as [[Hr ->]|[Hr (g' & A1 & A2 & A3 & A4 & A5 & A6 & A7 & A8 & A9)]];
    rewrite Hk, Hr; simpl.
  - split; [auto|]. split; [auto|]. split.
    + apply nodup_flat_map; [apply (wf_nodup W)| |].
      * intros n _. assert (Ht : NoDup (tagged (es g n))).
        { apply NoDup_map_inv with (f := tag). rewrite tagged_tags. apply seq_NoDup. }
        clear - Ht. induction Ht as [|x l Hx Ht IH]; simpl; constructor; auto.
        intros Hi. apply in_map_iff in Hi as (y & E1 & Hy). inversion E1; subst. contradiction.
      * intros n m z _ _ Hn Hm. apply in_map_iff in Hn as (x & <- & _). apply in_map_iff in Hm as (y & E1 & _).
        now inversion E1.
    + unfold edges_from, origin_and_edge. rewrite map_pairs. apply flat_map_ext_in. intros n _. now rewrite tagged_edges.
  - exists g'.
    assert (Hp : forall n, In n (ids g') -> Permutation (map snd (fst (fst (filtered_node X f n (tagged (es g n)))))) (sel' n)).
    { intros n Hn. destruct (A6 n Hn) as [B _]. destruct (filtered_node X f n (tagged (es g n))) as [[k c] e] eqn:Ef.
      simpl in *. subst e. eapply Hsel; eauto. }
    split.
    + split; auto.
      * intros n. now rewrite A3.
      * intros n. rewrite A5. apply retained_same. intros m Hm e. apply A5 in Hm.
        split; apply Permutation_in; [|symmetry]; now apply Hp.
      * intros n Hn. destruct (A6 n Hn) as [_ ->]. apply perm_filter, Hp, Hn.
    + intros n Hn. destruct (A6 n Hn) as [B1 B2]. destruct (filtered_node X f n (tagged (es g n))) as [[k c] e].
      simpl in *. subst e. eauto.
Qed.

(** C21, when edges are tested one by one or not at all: the vertices left are those reachable by
    vertices and edges which pass the tests, the edges left are those which pass the test and connect
    them; if the base vertex is rejected, there is no graph left.  Together with what is left, the
    vertices and labels destroyed are exactly those of the original graph. *)
Definition edge_passes (f : filt) (n : nat) (e : word * nat) : bool :=
  match e_test f with Some (Individual t) => negb (is_null (fst (t n e))) | _ => true end.

Lemma wf_retained g : wf g -> forall n, In n (ids g) <-> retained g (fun _ => true) (es g) n.
Proof.
  intros W n. rewrite <- along_ids by auto. split; intros H; (induction H as [|n l m H IH Hm]; [constructor|]).
  - eapply ret_step; eauto.
  - eapply along_step; eauto.
Qed.

Lemma untouched g : wf g -> properly_filtered g (fun _ => true) (es g) (mkFR (Some g) [] []) g.
Proof.
  intros W. split; simpl; auto; [now apply wf_retained| |constructor].
  intros n _. now rewrite filter_true.
Qed.

Lemma retained_ext g keep keep' sel sel' : (forall n, keep n = keep' n) -> (forall n, sel n = sel' n) ->
  forall n, retained g keep sel n -> retained g keep' sel' n.
Proof.
  intros H1 H2 n H. induction H as [|n l m H IH Hm Hk]; [constructor|].
  apply ret_step with (n := n) (l := l); [auto|now rewrite <- H2|now rewrite <- H1].
Qed.

Lemma properly_ext g keep keep' sel sel' r g' : (forall n, keep n = keep' n) -> (forall n, sel n = sel' n) ->
  properly_filtered g keep sel r g' -> properly_filtered g keep' sel' r g'.
Proof.
  intros H1 H2 [A1 A2 A3 A4 A5 A6 A7 A8 A9]. split; auto.
  - intros n. rewrite A5. split; apply retained_ext; auto.
  - intros n Hn. rewrite A6 by auto. rewrite H2.
    rewrite (filter_ext (fun e : word * nat => keep (snd e)) (fun e => keep' (snd e))); auto.
Qed.

Theorem C21_vertices_and_edges_left X g ins f init kills r :
  wf g -> 0 < lanes X -> never_killed kills -> backwards f = false -> thinner f = None -> (forall o t, e_test f <> Some (Joint o t)) ->
  filters X g ins f init kills (r, None) ->
  if kept_vertex f (root g) then
    exists g', properly_filtered g (kept_vertex f) (fun n => filter (edge_passes f n) (es g n)) r g'
  else
    left r = None /\ lost_vertices r = ids g /\ NoDup (lost_labels r) /\
    map origin_and_edge (lost_labels r) = edges_from g.
Proof.
  intros W Hl Hu Hb Ht Hj H.
  destruct (is_some (v_test f) || is_some (e_test f)) eqn:Hne.
  - assert (G := @forward_result X g ins f init kills r (fun n => filter (edge_passes f n) (es g n)) W Hl Hu Hb Hne).
    assert (Hsel : forall n k c, filtered_node X f n (tagged (es g n)) = (k, c, None) ->
              Permutation (map snd k) (filter (edge_passes f n) (es g n))).
    { intros n k c Hf. unfold filtered_node in Hf. rewrite Ht in Hf. simpl in Hf.
      unfold filtered in Hf. rewrite Ht in Hf. unfold edge_passes. destruct (e_test f) as [[test|o t]|].
      - unfold individually_filtered in Hf. simpl in Hf.
        destruct (individually_loop (fun x : nat * (word * nat) => test n (snd x)) (tagged (es g n)) [] [] None) as [[p c1] e1] eqn:El.
        inversion Hf; subst. apply individually_loop_facts in El as (-> & _ & _). rewrite app_nil_r, <- Permutation_rev.
        unfold passes. rewrite (filter_map_snd (fun e => negb (is_null (fst (test n e)))) (tagged (es g n))), tagged_edges. auto.
      - now destruct (Hj o t).
      - inversion Hf; subst. rewrite tagged_edges. now rewrite filter_true. }
    specialize (G Hsel H). destruct (kept_vertex f (root g)); auto. destruct G as (g' & G & _). eauto.
  - apply orb_false_iff in Hne as [E1 E2]. destruct (v_test f) eqn:Ev; [discriminate|]. destruct (e_test f) eqn:Ee; [discriminate|].
    assert (Hk : forall n, kept_vertex f n = true) by (intros n; unfold kept_vertex; now rewrite Ht, Ev).
    rewrite Hk. exists g.
    assert (Hr : r = mkFR (Some g) [] []).
    { inversion H; subst; auto; rewrite Ev, Ee in *; simpl in *; try discriminate. }
    subst r. eapply properly_ext; [| |now apply untouched].
    + intros n. now rewrite Hk.
    + intros n. unfold edge_passes. rewrite Ee. symmetry. apply filter_true.
Qed.

(** *** Edges tested jointly *)

Lemma jointly_loop_none {A} (test : list A -> outcome) l : forall p c e,
  snd (jointly_loop test l p c (Some e)) <> None.
Proof. induction l as [|x l IH]; simpl; intros; [discriminate|apply IH]. Qed.

Lemma jointly_loop_facts {A} (test : list A -> outcome) l : forall p c k c',
  jointly_loop test l p c None = (k, c', None) -> Permutation k (concat (filter (passes test) l) ++ p).
Proof.
  induction l as [|x l IH]; simpl; intros p c k c' H; [inversion H; auto|].
  destruct (test x) as [w e] eqn:Et.
  assert (He : e = None).
  { destruct e as [e|]; auto. exfalso. destruct (is_null w);
    [apply (jointly_loop_none test l p (x ++ c) e)|apply (jointly_loop_none test l (x ++ p) c e)]; now rewrite H. }
  subst e. assert (Hp : passes test x = negb (is_null w)) by (unfold passes; now rewrite Et).
  rewrite Hp. destruct (is_null w); simpl; apply IH in H; rewrite H; simpl; perm_solve.
Qed.

Lemma FOP_map {A B} (h : A -> B) (R : A -> A -> Prop) (R' : B -> B -> Prop) l :
  (forall x y, R x y -> R' (h x) (h y)) -> ForallOrdPairs R l -> ForallOrdPairs R' (map h l).
Proof.
  intros H F. induction F as [|x l F1 F2 IH]; simpl; constructor; auto.
  rewrite Forall_map. eapply Forall_impl; [|exact F1]. intros y Hy. simpl in *. auto.
Qed.

Lemma grouping_map {A B} (h : A -> B) (r : B -> B -> bool) l bs :
  grouping (fun x y => r (h x) (h y)) l bs -> grouping r (map h l) (map (map h) bs).
Proof.
  intros [P N S D]. split.
  - rewrite <- P. now rewrite concat_map.
  - intros b Hb. apply in_map_iff in Hb as (b0 & <- & Hb). apply N in Hb. destruct b0; [contradiction|discriminate].
  - intros b x y Hb Hx Hy. apply in_map_iff in Hb as (b0 & <- & Hb). apply in_map_iff in Hx as (x0 & <- & Hx).
    apply in_map_iff in Hy as (y0 & <- & Hy). eauto.
  - eapply FOP_map; [|exact D]. simpl. intros b b' H x y Hx Hy. apply in_map_iff in Hx as (x0 & <- & Hx).
    apply in_map_iff in Hy as (y0 & <- & Hy). auto.
Qed.

(** The relation between edges given by the order of labels, if any. *)
Definition related (o : option ((word -> N) * (word -> word -> bool))) (x y : word * nat) : bool :=
  match o with Some (_, r) => r (fst x) (fst y) | None => false end.
Definition valid_order (o : option ((word -> N) * (word -> word -> bool))) : Prop :=
  match o with Some (h, r) => equivalence r /\ (forall x y, r x y = true -> h x = h y) | None => True end.

(** [bs] are the classes of edges to be tested: those of the order, or single edges. *)
Definition classes_of (o : option ((word -> N) * (word -> word -> bool))) (l : list (word * nat)) bs : Prop :=
  match o with
  | Some _ => grouping (related o) l bs
  | None => Permutation bs (map (fun e => [e]) l)
  end.

Definition bucketing X (o : option ((word -> N) * (word -> word -> bool))) (l : list tedge) : list (list tedge) :=
  match o with
  | None => bundled_null l
  | Some (h, r) => rallied (judy X) (fun x => h (label x)) (fun y x => r (label y) (label x)) l
  end.

Lemma bucketing_classes X o l : valid_order o -> classes_of o (map snd l) (map (map snd) (bucketing X o l)).
Proof.
  intros H. unfold classes_of, bucketing. destruct o as [[h r]|].
  - destruct H as [Hr Hh]. apply grouping_map. apply rallied_grouping.
    + split; unfold label; [intros; apply (eqv_refl Hr)|intros; now apply (eqv_sym Hr)|intros; eapply (eqv_trans Hr); eauto].
    + intros x y Hxy. now apply Hh.
  - rewrite bundled_null_rev, <- Permutation_rev, !map_map. auto.
Qed.

Lemma passes_map {A B} (h : A -> B) (t : list B -> outcome) bs :
  map (map h) (filter (passes (fun b => t (map h b))) bs) = filter (passes t) (map (map h) bs).
Proof.
  induction bs as [|b bs IH]; simpl; auto.
  change (passes (fun b0 => t (map h b0)) b) with (passes t (map h b)). destruct (passes t (map h b)); simpl; now rewrite IH.
Qed.

(** The edges retained at a vertex are those of the classes that pass the test, provided they lead to
    retained vertices.  Edges to rejected vertices are among those tested (see C53). *)
Theorem C21_edges_tested_jointly X g ins f init kills r o t :
  wf g -> 0 < lanes X -> never_killed kills -> backwards f = false -> thinner f = None -> e_test f = Some (Joint o t) -> valid_order o ->
  filters X g ins f init kills (r, None) ->
  if kept_vertex f (root g) then
    exists g' bs, (forall n, classes_of o (es g n) (bs n)) /\
      properly_filtered g (kept_vertex f) (fun n => concat (filter (passes (t n)) (bs n))) r g'
  else
    left r = None /\ lost_vertices r = ids g /\ NoDup (lost_labels r) /\
    map origin_and_edge (lost_labels r) = edges_from g.
Proof.
  intros W Hl Hu Hb Ht He Ho H.
  assert (Hne : is_some (v_test f) || is_some (e_test f) = true) by (rewrite He; apply orb_true_r).
  set (bs := fun n => map (map snd) (bucketing X o (tagged (es g n)))).
  assert (Hsel : forall n k c, filtered_node X f n (tagged (es g n)) = (k, c, None) ->
            Permutation (map snd k) (concat (filter (passes (t n)) (bs n)))).
  { intros n k c Hf. unfold filtered_node in Hf. rewrite Ht in Hf. simpl in Hf.
    unfold filtered in Hf. rewrite Ht, He in Hf. simpl in Hf. fold (bucketing X o (tagged (es g n))) in Hf.
    apply jointly_loop_facts in Hf. rewrite app_nil_r in Hf. rewrite Hf.
    unfold bs. rewrite <- passes_map, concat_map. auto. }
  pose proof (@forward_result X g ins f init kills r _ W Hl Hu Hb Hne Hsel H) as G.
  destruct (kept_vertex f (root g)); auto. destruct G as (g' & G & _). exists g', bs. split; auto.
  intros n. unfold bs. rewrite <- (tagged_edges (es g n)) at 1. now apply bucketing_classes.
Qed.

(** ** C49: thinning *)

(** The user's thinner: [precedes x y] is a strict order. *)
Definition strict_order {A} (lt : A -> A -> bool) : Prop :=
  (forall x, lt x x = false) /\ (forall x y z, lt x y = true -> lt y z = true -> lt x z = true).
Definition total_preorder {A} (le : A -> A -> bool) : Prop :=
  (forall x y, le x y = true \/ le y x = true) /\ (forall x y z, le x y = true -> le y z = true -> le x z = true).

(** Is thinning called for at the vertex? *)
Definition to_be_thinned (f : filt) (n : nat) : bool :=
  match v_test f with Some t => is_null (fst (t n)) | None => true end.

Lemma inferred_thinner f th : thinner f = Some th -> thinner (inferred f) = Some th /\ backwards (inferred f) = backwards f /\
  is_some (v_test (inferred f)) = true.
Proof. intros H. unfold inferred. rewrite H. simpl. destruct (v_test f); auto. Qed.

Lemma inferred_deletable f th n : thinner f = Some th -> fst (is_deletable (inferred f) n) = to_be_thinned f n.
Proof.
  intros H. unfold inferred, is_deletable, to_be_thinned. rewrite H. simpl. destruct (v_test f) as [t|]; auto.
  destruct (t n). reflexivity.
Qed.

Definition minimal {A} (lt : A -> A -> bool) (l : list A) (m : A) : Prop :=
  (strict_order lt -> forall x, In x l -> lt x m = false) /\
  (total_preorder lt -> forall x, In x l -> lt m x = true).

Lemma thinned_result X g ins f init kills r th sel' :
  wf g -> 0 < lanes X -> never_killed kills -> backwards f = false -> thinner f = Some th ->
  (forall n k c, filtered_node X (inferred f) n (tagged (es g n)) = (k, c, None) -> Permutation (map snd k) (sel' n)) ->
  filters X g ins (inferred f) init kills (r, None) ->
  exists g', properly_filtered g (fun _ => true) sel' r g' /\
      forall n, In n (ids g') -> exists k c, filtered_node X (inferred f) n (tagged (es g n)) = (k, c, None) /\
        es g' n = map snd k.
Proof.
  intros W Hl Hu Hb Ht Hsel H. destruct (@inferred_thinner f th Ht) as (T1 & T2 & T3).
  assert (Hk : forall n, kept_vertex (inferred f) n = true) by (intros n; unfold kept_vertex; now rewrite T1).
  assert (G := @forward_result X g ins (inferred f) init kills r sel' W Hl Hu).
  rewrite T2, T3, Hk in G. destruct (G Hb eq_refl Hsel H) as (g' & G1 & G2). exists g'. split.
  - eapply properly_ext; [| |exact G1]; auto.
  - intros n Hn. destruct (G2 n Hn) as (k & c & A & B). exists k, c. split; auto. rewrite B.
    rewrite (filter_ext _ (fun _ => true)) by (intros; apply Hk). apply filter_true.
Qed.

Theorem C49_thinning_keeps_a_minimal_edge X g ins f init kills r th :
  wf g -> 0 < lanes X -> never_killed kills -> backwards f = false -> thinner f = Some th -> (forall o t, e_test f <> Some (Joint o t)) ->
  filters X g ins (inferred f) init kills (r, None) ->
  exists g', left r = Some g' /\ wf g' /\ root g' = root g /\
    forall n, In n (ids g') ->
      let eligible := filter (edge_passes f n) (es g n) in
      if to_be_thinned f n then
        (eligible = [] /\ es g' n = []) \/
        exists m, es g' n = [m] /\ In m eligible /\ minimal (fun x y => fst (th x y)) eligible m
      else es g' n = es g n.
Proof.
  intros W Hl Hu Hb Ht Hj H. destruct (@inferred_thinner f th Ht) as (T1 & T2 & T3).
  destruct (@thinned_result X g ins f init kills r th
              (fun n => map snd (fst (fst (filtered_node X (inferred f) n (tagged (es g n))))))) as (g' & G1 & G2); auto.
  { intros n k c ->. reflexivity. }
  exists g'. destruct G1 as [L1 L2 L3 L4 L5 L6 L7 L8 L9]. split; [auto|]. split; [auto|]. split; [auto|].
  intros n Hn. cbv zeta. destruct (G2 n Hn) as (k & c & Hf & Hes). rewrite Hes. clear Hes.
  unfold filtered_node in Hf. rewrite T1 in Hf. simpl in Hf.
  rewrite <- (@inferred_deletable f th n Ht). destruct (is_deletable (inferred f) n) as [[|] [e|]] eqn:Ed; try discriminate.
  2:{ inversion Hf; subst. simpl. apply tagged_edges. }
  simpl. unfold filtered in Hf. rewrite T1 in Hf. simpl in Hf.
  assert (Hi : exists test, e_test (inferred f) = Some (Individual test) /\
             forall e, negb (is_null (fst (test n e))) = edge_passes f n e).
  { unfold inferred, edge_passes. rewrite Ht. simpl. destruct (e_test f) as [[test|o t]|].
    - eexists. split; eauto.
    - now destruct (Hj o t).
    - eexists. split; [reflexivity|]. reflexivity. }
  destruct Hi as (test & Hi & Hp). rewrite Hi in Hf. unfold individually_filtered in Hf. simpl in Hf.
  destruct (individually_loop (fun x : nat * (word * nat) => test n (snd x)) (tagged (es g n)) [] [] None) as [[p c1] e1] eqn:El.
  assert (He1 : e1 = None).
  { destruct e1; auto. destruct p; discriminate. }
  subst e1. apply individually_loop_facts in El as (Ep & _ & _). rewrite app_nil_r in Ep.
  assert (Hperm : Permutation (map snd p) (filter (edge_passes f n) (es g n))).
  { rewrite Ep, map_rev, <- Permutation_rev. unfold passes.
    rewrite (filter_map_snd (fun e => negb (is_null (fst (test n e)))) (tagged (es g n))), tagged_edges.
    rewrite (filter_ext _ _ Hp). auto. }
  destruct p as [|x p].
  - left. apply Permutation_nil in Hperm. inversion Hf; subst. auto.
  - right. destruct (pick (fun x y : nat * (word * nat) => th (snd x) (snd y)) (x :: p)) as [[m p'] e2] eqn:Epk.
    assert (He2 : e2 = None) by (destruct m; inversion Hf; auto). subst e2.
    destruct (@pick_facts _ _ _ _ _ Epk) as (y & -> & Py & M1 & M2); [discriminate|].
    inversion Hf; subst k. exists (snd y). split; [reflexivity|]. split.
    + eapply Permutation_in; [exact Hperm|]. apply in_map. eapply Permutation_in; [exact Py|]. simpl. auto.
    + split.
      * intros [O1 O2] z Hz. eapply Permutation_in in Hz; [|symmetry; exact Hperm].
        apply in_map_iff in Hz as (z0 & <- & Hz). apply M1; [intros x1 x2 x3; apply O2|intros; apply O1|auto].
      * intros [O1 O2] z Hz. eapply Permutation_in in Hz; [|symmetry; exact Hperm].
        apply in_map_iff in Hz as (z0 & <- & Hz). apply M2; [intros x1 x2 x3; apply O2|intros; apply O1|auto].
Qed.

Lemma passing_loop_none {A} (test : list A -> outcome) l : forall p c e,
  snd (passing_loop test l p c (Some e)) <> None.
Proof. induction l as [|x l IH]; simpl; intros; [discriminate|apply IH]. Qed.

Lemma passing_loop_facts {A} (test : list A -> outcome) l : forall p c k c',
  passing_loop test l p c None = (k, c', None) -> k = rev (filter (passes test) l) ++ p.
Proof.
  induction l as [|x l IH]; simpl; intros p c k c' H; [inversion H; auto|].
  destruct (test x) as [w e] eqn:Et.
  assert (He : e = None).
  { destruct e as [e|]; auto. exfalso. destruct (is_null w);
    [apply (passing_loop_none test l p (x ++ c) e)|apply (passing_loop_none test l (x :: p) c e)]; now rewrite H. }
  subst e. assert (Hp : passes test x = negb (is_null w)) by (unfold passes; now rewrite Et).
  rewrite Hp. destruct (is_null w); simpl; apply IH in H; rewrite H; simpl; auto. now rewrite <- app_assoc.
Qed.

(** If edges are tested by classes, then the whole of a minimal passing class is retained.  The
    thinner has to give the same result for all members of the same classes, because only one member
    of each class is given to it. *)
Definition even_handed o (lt : word * nat -> word * nat -> bool) : Prop :=
  forall x x' y y', x = x' \/ related o x x' = true -> y = y' \/ related o y y' = true -> lt x y = lt x' y'.

Lemma filtered_joint X f n th o t l : thinner f = Some th -> e_test f = Some (Joint o t) ->
  filtered X f n l =
  @jointly_thinned tedge (fun b : list tedge => t n (map snd b)) (fun x y : tedge => th (snd x) (snd y)) (bucketing X o l).
Proof. intros H1 H2. unfold filtered. rewrite H1, H2. reflexivity. Qed.

Theorem C49_thinning_keeps_a_minimal_class X g ins f init kills r th o t :
  wf g -> 0 < lanes X -> never_killed kills -> backwards f = false -> thinner f = Some th -> e_test f = Some (Joint o t) -> valid_order o ->
  even_handed o (fun x y => fst (th x y)) ->
  filters X g ins (inferred f) init kills (r, None) ->
  exists g', left r = Some g' /\ wf g' /\ root g' = root g /\
    forall n, In n (ids g') ->
      if to_be_thinned f n then
        exists bs, classes_of o (es g n) bs /\
          (let eligible := concat (filter (passes (t n)) bs) in
          (eligible = [] /\ es g' n = []) \/
          (exists b, es g' n = b /\ In b bs /\ passes (t n) b = true /\
            forall m, In m b -> minimal (fun x y => fst (th x y)) eligible m))
      else es g' n = es g n.
Proof.
  intros W Hl Hu Hb Ht Hj Ho Hev H. destruct (@inferred_thinner f th Ht) as (T1 & T2 & T3).
  destruct (@thinned_result X g ins f init kills r th
              (fun n => map snd (fst (fst (filtered_node X (inferred f) n (tagged (es g n))))))) as (g' & G1 & G2); auto.
  { intros n k c ->. reflexivity. }
  exists g'. destruct G1 as [L1 L2 L3 L4 L5 L6 L7 L8 L9]. split; [auto|]. split; [auto|]. split; [auto|].
  intros n Hn. destruct (G2 n Hn) as (k & c & Hf & Hes). rewrite Hes. clear Hes.
  unfold filtered_node in Hf. rewrite T1 in Hf. simpl in Hf.
  rewrite <- (@inferred_deletable f th n Ht). destruct (is_deletable (inferred f) n) as [[|] [e|]] eqn:Ed; try discriminate.
  2:{ inversion Hf; subst. simpl. apply tagged_edges. }
  simpl.
  assert (Hi : e_test (inferred f) = Some (Joint o t)) by (unfold inferred; now rewrite Ht, Hj).
  rewrite (@filtered_joint X (inferred f) n th o t (tagged (es g n)) T1 Hi) in Hf.
  set (bs := bucketing X o (tagged (es g n))) in *.
  assert (Hbs : classes_of o (es g n) (map (map snd) bs)).
  { rewrite <- (tagged_edges (es g n)) at 1. now apply bucketing_classes. }
  exists (map (map snd) bs). split; [exact Hbs|].
  assert (Hclass : forall b x y, In b (map (map snd) bs) -> In x b -> In y b -> x = y \/ related o x y = true).
  { intros b x y Hb0 Hx Hy. unfold classes_of in Hbs. destruct o as [o|].
    - right. eapply (gr_same Hbs); eauto.
    - left. eapply Permutation_in in Hb0; [|exact Hbs]. apply in_map_iff in Hb0 as (z & <- & _).
      destruct Hx as [<-|[]], Hy as [<-|[]]. auto. }
  assert (Hne : forall b, In b (map (map snd) bs) -> b <> []).
  { intros b Hb0. unfold classes_of in Hbs. destruct o as [o|].
    - eapply (gr_nonempty Hbs); eauto.
    - eapply Permutation_in in Hb0; [|exact Hbs]. apply in_map_iff in Hb0 as (z & <- & _). discriminate. }
  unfold jointly_thinned in Hf.
  destruct (@passing_loop tedge (fun b : list tedge => t n (map snd b)) bs [] [] None) as [[p c1] e1] eqn:El.
  assert (He1 : e1 = None).
  { destruct e1; auto. destruct p; discriminate. }
  subst e1. apply passing_loop_facts in El. rewrite app_nil_r in El.
  assert (Hp : map (map snd) p = rev (filter (passes (t n)) (map (map snd) bs))).
  { rewrite El, map_rev. f_equal. apply (passes_map (@snd nat (word*nat)) (t n)). }
  assert (Hin : forall b, In b (map (map snd) p) <-> In b (filter (passes (t n)) (map (map snd) bs))).
  { intros b. rewrite Hp. symmetry. apply in_rev. }
  cbv zeta. destruct p as [|x p].
  - left. inversion Hf; subst k. split; auto.
    assert (Hnil : filter (passes (t n)) (map (map snd) bs) = []).
    { apply (f_equal (@rev _)) in Hp. rewrite rev_involutive in Hp. rewrite <- Hp. reflexivity. }
    now rewrite Hnil.
  - right.
    destruct (pick (thin_bucket (fun x y : tedge => th (snd x) (snd y))) (x :: p)) as [[m p'] e2] eqn:Epk.
    assert (He2 : e2 = None) by (destruct m; inversion Hf; auto). subst e2.
    set (lt := fun x y => fst (th x y)) in *.
    assert (Hhead : forall b b' a a', In b (x :: p) -> In b' (x :: p) -> In a b -> In a' b' ->
              fst (thin_bucket (fun x y : tedge => th (snd x) (snd y)) b b') = lt (snd a) (snd a')).
    { intros b b' a a' B1 B2 A1 A2.
      apply (in_map (map snd)) in B1. apply Hin in B1. apply filter_In in B1 as [B1 _].
      apply (in_map (map snd)) in B2. apply Hin in B2. apply filter_In in B2 as [B2 _].
      destruct b as [|u b]; [now destruct (Hne _ B1)|]. destruct b' as [|u' b']; [now destruct (Hne _ B2)|].
      simpl. change (lt (snd u) (snd u') = lt (snd a) (snd a')). apply Hev.
      - eapply Hclass; [exact B1| |]; [simpl; auto|now apply in_map].
      - eapply Hclass; [exact B2| |]; [simpl; auto|now apply in_map]. }
    assert (Hmem : forall b, In b (x :: p) -> exists a, In a b).
    { intros b B1. apply (in_map (map snd)) in B1. apply Hin in B1. apply filter_In in B1 as [B1 _].
      destruct b as [|u b]; [now destruct (Hne _ B1)|]. exists u. simpl. auto. }
    destruct (@pick_facts _ _ _ _ _ Epk) as (y & -> & Py & M1 & M2); [discriminate|].
    assert (Iy : In y (x :: p)) by (eapply Permutation_in; [exact Py|simpl; auto]).
    inversion Hf; subst k. exists (map snd y). split; [reflexivity|].
    assert (Fy := in_map (map snd) _ _ Iy). apply Hin in Fy. apply filter_In in Fy as [Fy1 Fy2].
    split; [auto|]. split; [auto|].
    intros e He. apply in_map_iff in He as (ey & <- & He). split.
    + intros [O1 O2] z Hz. apply in_concat in Hz as (b & Hb1 & Hz). apply Hin in Hb1.
      apply in_map_iff in Hb1 as (b0 & <- & Hb1). apply in_map_iff in Hz as (z0 & <- & Hz).
      erewrite <- Hhead; [|exact Hb1|exact Iy|exact Hz|exact He]. apply M1; auto.
      * intros [|a1 l1] [|a2 l2] [|a3 l3]; simpl; try discriminate. apply O2.
      * intros [|a1 l1]; simpl; auto. apply O1.
    + intros [O1 O2] z Hz. apply in_concat in Hz as (b & Hb1 & Hz). apply Hin in Hb1.
      apply in_map_iff in Hb1 as (b0 & <- & Hb1). apply in_map_iff in Hz as (z0 & <- & Hz).
      erewrite <- Hhead; [|exact Iy|exact Hb1|exact He|exact Hz]. apply M2; auto.
      * intros [|a1 l1] [|a2 l2] [|a3 l3]; simpl; try discriminate. apply O2.
      * intros b1 b2 B1 B2. destruct (Hmem _ B1) as (a1 & A1). destruct (Hmem _ B2) as (a2 & A2).
        rewrite (Hhead _ _ _ _ B1 B2 A1 A2), (Hhead _ _ _ _ B2 B1 A2 A1). apply O1.
Qed.

(** ** Examples *)

(** Filtering by a schedule in which all threads take turns. *)
Definition run_filter_killed X g ins f init kills k : option (result filter_result) :=
  let all := seq 0 (lanes X) in
  if negb (is_some (v_test f) || is_some (e_test f)) then None
  else match base_rejected g f with
  | (_, Some _) => None
  | (true, None) => Some (freed_entirely g, None)
  | (false, None) =>
    let m :=
      if is_some (thinner f) || negb (is_some (v_test f)) then Some ([], None)
      else let y := sched_run (lanes X) (walk_dest X) (node_filtering (in_pass X kills 0) g ins f) (vstart [])
                      (initial (start g f init)) k in
           match mainpc y with MDone => Some (data (sh y), pass_status all (sh y)) | _ => None end in
    match m with
    | Some (dl, None) =>
      let y := sched_run (lanes X) (fdest X) (edge_filtering (in_pass X kills 1) ins f dl) (vstart (fstart g))
                 (Visit (start g f init) None) k in
      match mainpc y, pass_status all (sh y) with
      | MDone, Some e => Some (mkFR None [] [], Some e)
      | MDone, None =>
        let yv := sched_run (lanes X) (walk_dest X) (populating (unkillable X) g) (vstart []) (initial (root g)) k in
        let yq := sched_run (lanes X) (walk_dest X) (pruning (in_pass X kills 2) (out (data (sh y)))) (vstart [])
                    (initial (root g)) k in
        match mainpc yv, pass_status all (sh yv), mainpc yq with
        | MDone, None, MDone =>
          Some match pruned_status X kills (data (sh yv)) (data (sh y)) all (sh yq) with
               | None => (swept g (data (sh yv)) (queued X (sh yq)) (data (sh y)), None)
               | Some e => (mkFR None [] [], Some e)
               end
        | _, _, _ => None
        end
      | _, _ => None
      end
    | _ => None
    end
  end.
Definition run_filter X g ins f init k := run_filter_killed X g ins f init no_kills k.

Lemma run_filter_sound X g ins f init kills k r :
  run_filter_killed X g ins f init kills k = Some r -> filters X g ins f init kills r.
Proof.
  unfold run_filter_killed.
  destruct (is_some (v_test f) || is_some (e_test f)) eqn:E0; [simpl|discriminate].
  destruct (base_rejected g f) as [[|] [e|]] eqn:E1; try discriminate.
  { intros H. inversion H. now apply flt_base. }
  set (m := if is_some (thinner f) || negb (is_some (v_test f)) then Some ([], None) else _).
  assert (Hm : forall dl, m = Some (dl, None) -> marked X g ins f init kills (dl, None)).
  { subst m. intros dl. destruct (is_some (thinner f) || negb (is_some (v_test f))) eqn:E2.
    - intros H. inversion H. now constructor.
    - destruct (mainpc _) eqn:Em; try discriminate. intros H. inversion H. apply marked_run; auto.
      + now apply sched_ran.
      + apply Permutation_refl. }
  clearbody m. destruct m as [[dl [e|]]|]; try discriminate. specialize (Hm dl eq_refl).
  set (y := sched_run (lanes X) (fdest X) _ _ _ k).
  destruct (mainpc y) eqn:E3; try discriminate. apply sched_ran in E3. fold y in E3.
  destruct (pass_status (seq 0 (lanes X)) (sh y)) as [e|] eqn:E4.
  { intros H. inversion H. eapply flt_edge_error; eauto. apply Permutation_refl. }
  set (yv := sched_run (lanes X) (walk_dest X) (populating (unkillable X) g) _ _ k).
  destruct (mainpc yv) eqn:E5; try discriminate. apply sched_ran in E5. fold yv in E5.
  destruct (pass_status (seq 0 (lanes X)) (sh yv)) as [e|] eqn:E6; try discriminate.
  set (yq := sched_run (lanes X) (walk_dest X) (pruning (in_pass X kills 2) _) _ _ k).
  destruct (mainpc yq) eqn:E7; try discriminate. apply sched_ran in E7. fold yq in E7.
  intros H. inversion H. eapply flt_pruned; eauto; apply Permutation_refl.
Qed.

Definition of_run (o : option (result filter_result)) : filter_result :=
  match o with Some (r, _) => r | None => mkFR None [] [] end.
Definition error_of_run (o : option (result filter_result)) : option (option error) := option_map snd o.

Lemma run_filter_killed_ran X g ins f init kills k e :
  error_of_run (run_filter_killed X g ins f init kills k) = Some e ->
  filters X g ins f init kills (of_run (run_filter_killed X g ins f init kills k), e).
Proof.
  intros H. apply run_filter_sound with (k := k).
  destruct (run_filter_killed X g ins f init kills k) as [[r e']|]; [|discriminate].
  inversion H. reflexivity.
Qed.

Lemma run_filter_ran X g ins f init k e :
  error_of_run (run_filter X g ins f init k) = Some e ->
  filters X g ins f init no_kills (of_run (run_filter X g ins f init k), e).
Proof. apply run_filter_killed_ran. Qed.

Definition left_of_run o : list (nat * list (word * nat)) :=
  match left (of_run o) with Some g => map (fun n => (n, es g n)) (ids g) | None => [] end.

(** Two edges of four with the same label, and a cycle. *)
Definition FG : graph word word :=
  mkGraph [1; 2; 3; 4] N.of_nat
    (fun n => match n with 1 => [(5%N, 2); (5%N, 3); (7%N, 4)] | 2 => [(6%N, 4)] | 3 => [(8%N, 4)] | 4 => [(9%N, 1)] | _ => [] end) 1.
Lemma FG_wf : wf FG.
Proof.
  split.
  - repeat constructor; simpl; intuition discriminate.
  - now left.
  - intros n l m [<-|[<-|[<-|[<-|[]]]]]; simpl; intuition; match goal with H : _ = _ |- _ => inversion H; auto end.
  - intros n [<-|[<-|[<-|[<-|[]]]]]; [constructor|eapply path_step; [constructor|simpl; eauto]..].
Qed.

Definition but3 (n : nat) : outcome := (if n =? 3 then null else 1%N, None).
Definition but6 (n : nat) (e : word * nat) : outcome := (if N.eqb (fst e) 6 then null else 1%N, None).
Definition in_pairs (n : nat) (l : list (word * nat)) : outcome := (if length l <=? 1 then null else 1%N, None).

Definition F21 : filt := mkFilt (Some but3) (Some (Individual but6)) None false.
Example C21_filter_ex :
  wf FG /\ backwards F21 = false /\ thinner F21 = None /\
  exists r, filters X3 FG (edges_to FG) F21 1 no_kills (r, None) /\
    left_of_run (Some (r, @None error)) = ([(1, [(7%N, 4); (5%N, 2)]); (2, []); (4, [(9%N, 1)])]) /\
    lost_vertices r = [3] /\ length (lost_labels r) = 3.
Proof.
  split; [exact FG_wf|]. split; [auto|]. split; [auto|].
  eexists. split; [apply run_filter_ran with (k := 150); vm_compute; reflexivity|].
  vm_compute. auto.
Qed.

Definition F21j : filt := mkFilt None (Some (Joint (Some (fun x => x, N.eqb)) in_pairs)) None false.
Example C21_joint_ex :
  backwards F21j = false /\ thinner F21j = None /\ e_test F21j = Some (Joint (Some (fun x => x, N.eqb)) in_pairs) /\
  valid_order (Some (fun x => x, N.eqb)) /\
  exists r, filters X3 FG (edges_to FG) F21j 1 no_kills (r, None) /\
    left_of_run (Some (r, @None error)) = [(1, [(5%N, 2); (5%N, 3)]); (2, []); (3, [])] /\ lost_vertices r = [4].
Proof.
  split; [auto|]. split; [auto|]. split; [auto|]. split.
  { split; [apply eqb_equivalence|]. intros x y H. now apply N.eqb_eq. }
  eexists. split; [apply run_filter_ran with (k := 150); vm_compute; reflexivity|].
  vm_compute. auto.
Qed.

(** At vertices other than 3, the edge with the least label other than 6 is retained. *)
Definition by_label (x y : word * nat) : bool * option error := (N.ltb (fst x) (fst y), None).
Definition F49 : filt :=
  mkFilt (Some (fun n => (if n =? 3 then 1%N else null, None))) (Some (Individual but6)) (Some by_label) false.
Example C49_thinned_ex :
  strict_order (fun x y => fst (by_label x y)) /\
  exists r, filters X3 FG (edges_to FG) (inferred F49) 1 no_kills (r, None) /\
    left_of_run (Some (r, @None error)) = [(1, [(5%N, 3)]); (3, [(8%N, 4)]); (4, [(9%N, 1)])].
Proof.
  split.
  { split; simpl; [intros x; apply N.ltb_irrefl|]. intros x y z. rewrite !N.ltb_lt. apply N.lt_trans. }
  eexists. split; [apply run_filter_ran with (k := 150); vm_compute; reflexivity|].
  vm_compute. auto.
Qed.

Definition any_class (n : nat) (l : list (word * nat)) : outcome := (1%N, None).
Definition F49j : filt := mkFilt None (Some (Joint (Some (fun x => x, N.eqb)) any_class)) (Some by_label) false.
Example C49_thinned_class_ex :
  even_handed (Some (fun x : word => x, N.eqb)) (fun x y => fst (by_label x y)) /\
  exists r, filters X3 FG (edges_to FG) (inferred F49j) 1 no_kills (r, None) /\
    left_of_run (Some (r, @None error)) = [(1, [(5%N, 2); (5%N, 3)]); (2, [(6%N, 4)]); (4, [(9%N, 1)]); (3, [(8%N, 4)])].
Proof.
  split.
  { intros x x' y y' Hx Hy. simpl in *.
    assert (Ex : fst x = fst x') by (destruct Hx as [->|Hx]; [auto|now apply N.eqb_eq]).
    assert (Ey : fst y = fst y') by (destruct Hy as [->|Hy]; [auto|now apply N.eqb_eq]). now rewrite Ex, Ey. }
  eexists. split; [apply run_filter_ran with (k := 150); vm_compute; reflexivity|].
  vm_compute. auto.
Qed.

(** ** C52: zones *)

(** The zone of a filter, as documented. *)
Definition in_zone (g : graph word word) (f : filt) (init n : nat) : Prop :=
  if backwards f then path g n init else path g init n.

(** With a forward zone, a vertex outside of it is tested and removed. *)
Theorem C52_forward_zone_refuted :
  exists X g f init r g' n,
    wf g /\ 0 < lanes X /\ backwards f = false /\ thinner f = None /\ e_test f = None /\ In init (ids g) /\
    filters X g (edges_to g) f init no_kills (r, None) /\ left r = Some g' /\
    (forall m, in_zone g f init m -> kept_vertex f m = true) /\
    In n (ids g) /\ ~ in_zone g f init n /\ ~ In n (ids g').
Proof.
  set (g := mkGraph [1; 2; 3] (fun n => N.of_nat n) (fun n => match n with 1 => [(5%N, 2); (5%N, 3)] | _ => [] end) 1).
  assert (Hz : forall m, path g 2 m -> m = 2).
  { intros m H. induction H as [|b l c _ IH Hc]; auto. subst. contradiction. }
  exists X3, g, (mkFilt (Some but3) None None false), 2. eexists. eexists. exists 3.
  split; [|split; [simpl; lia|split; [auto|split; [auto|split; [auto|split; [simpl; auto|]]]]]].
  { split.
    - repeat constructor; simpl; intuition discriminate.
    - now left.
    - intros n l m [<-|[<-|[<-|[]]]]; simpl; intuition; match goal with H : _ = _ |- _ => inversion H; auto end.
    - intros n [<-|[<-|[<-|[]]]]; [constructor|eapply path_step; [constructor|simpl; eauto]..]. }
  split; [apply run_filter_ran with (k := 150); vm_compute; reflexivity|].
  split; [vm_compute; reflexivity|].
  split; [intros m Hm; apply Hz in Hm; now subst|]. split; [simpl; auto|].
  split; [intros H; apply Hz in H; discriminate|]. vm_compute. intuition discriminate.
Qed.

(** With a backward zone, filtering fails with an internal error if a rejected vertex has more than one
    incident edge, though nothing is wrong with the graph or the tests. *)
Theorem C52_backward_zone_error_refuted :
  exists X g f init r,
    wf g /\ 0 < lanes X /\ backwards f = true /\ thinner f = None /\ e_test f = None /\ In init (ids g) /\
    (forall t n, v_test f = Some t -> snd (t n) = None) /\ (forall k, notices X k = false) /\
    filters X g (edges_to g) f init no_kills (r, Some IER).
Proof.
  set (g := mkGraph [1; 2; 3] (fun n => N.of_nat n) (fun n => match n with 1 => [(5%N, 2); (6%N, 3)] | 2 => [(7%N, 3)] | _ => [] end) 1).
  exists (mkEnv 3 true (fun _ => false) (fun _ => false)), g, (mkFilt (Some but3) None None true), 3. eexists.
  split; [|split; [simpl; lia|split; [auto|split; [auto|split; [auto|split; [simpl; auto|]]]]]].
  { split.
    - repeat constructor; simpl; intuition discriminate.
    - now left.
    - intros n l m [<-|[<-|[<-|[]]]]; simpl; intuition; match goal with H : _ = _ |- _ => inversion H; auto end.
    - intros n [<-|[<-|[<-|[]]]]; [constructor|eapply path_step; [constructor|simpl; eauto]..]. }
  split; [intros t n H; inversion H; reflexivity|]. split; [auto|].
  apply run_filter_ran with (k := 150). vm_compute. reflexivity.
Qed.

(** With a backward zone, a rejected vertex of the zone may be retained: the only way from it to the
    initial vertex passes through another rejected one. *)
Definition but23 (n : nat) : outcome := (match n with 2 | 3 => null | _ => 1%N end, None).
Theorem C52_backward_zone_refuted :
  exists X g f init r g' n,
    wf g /\ 0 < lanes X /\ backwards f = true /\ thinner f = None /\ e_test f = None /\ In init (ids g) /\
    filters X g (edges_to g) f init no_kills (r, None) /\ left r = Some g' /\
    in_zone g f init n /\ kept_vertex f n = false /\ In n (ids g').
Proof.
  set (g := mkGraph [1; 2; 3; 4] (fun n => N.of_nat n)
              (fun n => match n with 1 => [(5%N, 2)] | 2 => [(6%N, 3)] | 3 => [(7%N, 4)] | _ => [] end) 1).
  assert (P2 : path g 1 2) by (eapply path_step; [constructor|simpl; eauto]).
  assert (P3 : path g 1 3) by (eapply path_step; [exact P2|simpl; eauto]).
  exists X3, g, (mkFilt (Some but23) None None true), 4. eexists. eexists. exists 2.
  split; [|split; [simpl; lia|split; [auto|split; [auto|split; [auto|split; [simpl; auto|]]]]]].
  { split.
    - repeat constructor; simpl; intuition discriminate.
    - now left.
    - intros n l m [<-|[<-|[<-|[<-|[]]]]]; simpl; intuition; match goal with H : _ = _ |- _ => inversion H; auto end.
    - intros n [<-|[<-|[<-|[<-|[]]]]]; [constructor|exact P2|exact P3|eapply path_step; [exact P3|simpl; eauto]]. }
  split; [apply run_filter_ran with (k := 150); vm_compute; reflexivity|].
  split; [vm_compute; reflexivity|]. split; [|split; [reflexivity|vm_compute; auto]].
  unfold in_zone. simpl. apply (@path_step _ _ g 2 3 7%N 4); [|simpl; auto].
  apply (@path_step _ _ g 2 2 6%N 3); [constructor|simpl; auto].
Qed.

(** ** C53: classes of edges to retained vertices *)

(** An edge that is in a class of its own among those to retained vertices is retained, though the
    class does not pass the test. *)
Theorem C53_classes_of_retained_edges_refuted :
  exists X g f init r g' n o t,
    wf g /\ 0 < lanes X /\ backwards f = false /\ thinner f = None /\ e_test f = Some (Joint o t) /\ valid_order o /\
    filters X g (edges_to g) f init no_kills (r, None) /\ left r = Some g' /\ In n (ids g') /\
    forall bs, classes_of o (filter (fun e => kept_vertex f (snd e)) (es g n)) bs ->
      ~ Permutation (es g' n) (concat (filter (passes (t n)) bs)).
Proof.
  set (g := mkGraph [1; 2; 3] (fun n => N.of_nat n) (fun n => match n with 1 => [(5%N, 2); (5%N, 3)] | _ => [] end) 1).
  exists X3, g, (mkFilt (Some but3) (Some (Joint (Some (fun x => x, N.eqb)) in_pairs)) None false), 1.
  eexists. eexists. exists 1. eexists. eexists.
  split; [|split; [simpl; lia|split; [reflexivity|split; [reflexivity|split; [reflexivity|split]]]]].
  { split.
    - repeat constructor; simpl; intuition discriminate.
    - now left.
    - intros n l m [<-|[<-|[<-|[]]]]; simpl; intuition; match goal with H : _ = _ |- _ => inversion H; auto end.
    - intros n [<-|[<-|[<-|[]]]]; [constructor|eapply path_step; [constructor|simpl; eauto]..]. }
  { split; [apply eqb_equivalence|]. intros x y H. now apply N.eqb_eq. }
  split; [apply run_filter_ran with (k := 150); vm_compute; reflexivity|].
  split; [vm_compute; reflexivity|]. split; [vm_compute; auto|].
  intros bs H HP. destruct H as [P N _ _]. change (Permutation (concat bs) [(5%N, 2)]) in P.
  assert (Hf : filter (passes (in_pairs 1)) bs = []).
  { apply Permutation_length in P. assert (Hl : forall b, In b bs -> length b <= 1).
    { intros b Hb. apply in_split in Hb as (l1 & l2 & ->). rewrite concat_app in P. simpl in P.
      rewrite !app_length in P. simpl in P. lia. }
    clear - Hl. induction bs as [|b bs IH]; auto. simpl. rewrite IH by (intros; apply Hl; simpl; auto).
    unfold passes, in_pairs. simpl. destruct (Nat.leb_spec (length b) 1) as [_|H]; [reflexivity|].
    specialize (Hl b (or_introl eq_refl)). lia. }
  rewrite Hf in HP. apply Permutation_length in HP. vm_compute in HP. discriminate.
Qed.
