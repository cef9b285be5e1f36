(** Claim C101: how often a subconnector is called when spreading *)
From Coq Require Import List Arith NArith Lia Bool Permutation.
From Verif Require Import Base Machine Env Graph Run Pass Brigade BrigadeProofs Fold Fabricate P_Traverse Partition P_Partition P_Killed P_Compose Stretch P_Stretch Spread SpreadProofs P_Spread.
Import ListNotations.
Set Implicit Arguments.

(** ** A subconnector isn't called again for a vertex and a label it has been called for because of another declared edge. *)
Section Once.
  Variable X Y : env.
  Variable g : graph word word.
  Variable conn : option word -> word -> list (word * word) * option error.
  Variables veq eeq : word -> word -> bool.
  Variables vhash ehash : word -> N.
  Hypothesis Hv : equivalence veq.
  Hypothesis He : equivalence eeq.
  Hypothesis Hvh : forall v w, veq v w = true -> vhash v = vhash w.
  Hypothesis Heh : forall x y, eeq x y = true -> ehash x = ehash y.
  Variable vertex_limit : nat.
  Variable addr : nat -> nat.
  Variable s0 : pdata.
  Variable dropped : nat -> bool.
  (** new nodes are new *)
  Hypothesis addr_inj : forall i j, addr i = addr j -> i = j.
  Hypothesis addr_new : forall k l b, ~ In (addr k) (p_table s0 l b).
  Local Notation process := (spreading X g true conn veq vhash eeq ehash vertex_limit addr s0 dropped Y).
  Local Notation processed := (processed X Y g true conn veq eeq vhash ehash vertex_limit addr s0 dropped).

  Definition has (s : sdata) (n : nat) (y : word) : Prop :=
    exists h z, In (h, z) (labs s n) /\ eeq y z = true /\ h = ehash z.
  Definition sound (s : sdata) : Prop :=
    forall l b n, In n (table s l b) -> (exists k, k < nn s /\ n = addr k) \/ In n (p_table s0 l b).
  Definition later (s t : sdata) : Prop :=
    nn s <= nn t /\ (forall l b, exists ext, table t l b = table s l b ++ ext) /\
    (forall l b n, In n (table s l b) -> vert t n = vert s n /\ (forall y, has s n y -> has t n y)).

  Lemma later_refl s : later s s.
  Proof. split; [lia|]. split; [intros; exists []; now rewrite app_nil_r|auto]. Qed.
  Lemma later_trans s t u : later s t -> later t u -> later s u.
  Proof.
    intros [A1 [A2 A3]] [B1 [B2 B3]]. split; [lia|]. split.
    - intros l b. destruct (A2 l b) as [x Hx], (B2 l b) as [y Hy]. exists (x ++ y). now rewrite Hy, Hx, app_assoc.
    - intros l b n Hn. destruct (A3 l b n Hn) as [C1 C2]. destruct (A2 l b) as [x Hx].
      destruct (B3 l b n) as [D1 D2]; [rewrite Hx; apply in_or_app; auto|]. split; [congruence|auto].
  Qed.
  (** Only these fields matter. *)
  Lemma later_same s t : nn t = nn s -> table t = table s -> vert t = vert s -> labs t = labs s -> later s t /\ (sound s -> sound t).
  Proof.
    intros A B C D. split.
    - split; [lia|]. split; [intros; exists []; now rewrite app_nil_r, B|]. intros l b n _. unfold has. rewrite C, D. auto.
    - unfold sound. now rewrite A, B.
  Qed.
  Lemma connect_same f s l n o v : let t := fst (connect f s l n o v) in
    nn t = nn s /\ table t = table s /\ vert t = vert s /\ labs t = labs s /\ calls t = (o, v) :: calls s.
  Proof. unfold connect. destruct (f o v). simpl. auto. Qed.
  Lemma halt_if_same s l : let t := halt_if_faulty s l in nn t = nn s /\ table t = table s /\ vert t = vert s /\ labs t = labs s /\ calls t = calls s.
  Proof. unfold halt_if_faulty. destruct (serr s l); simpl; auto. Qed.

  Lemma break_out_later s l n x : let t := fst (break_out X true conn eeq ehash s l n x) in later s t /\ (sound s -> sound t).
  Proof.
    unfold break_out. destruct (serr s l); [apply later_same; reflexivity|]. destruct (souts s n); [|apply later_same; reflexivity].
    destruct x as [x|]; [|apply later_same; reflexivity].
    match goal with |- context [connect ?f ?s ?l ?n ?o ?v] => destruct (connect_same f s l n o v) as [A [B [C [D _]]]]; destruct (connect f s l n o v) as [s' out] end.
    cbn [fst] in *. destruct (halt_if_same s' l) as [A' [B' [C' [D' _]]]]. apply later_same; congruence.
  Qed.
  Lemma has_recorded s n x y : has s n x -> eeq x y = true -> recorded eeq (judy X) (ehash y) y (labs s n) = true.
  Proof.
    intros [h [z [A [B ->]]]] E. unfold recorded. apply existsb_exists. exists (ehash z, z). split; [exact A|]. simpl.
    assert (F : eeq y z = true) by (eapply (eqv_trans He); [apply (eqv_sym He); exact E|exact B]).
    rewrite F. unfold Brigade.same_bin. destruct (judy X); [|reflexivity]. rewrite (Heh F), N.eqb_refl. reflexivity.
  Qed.
  (** A carried packet: what is done if there is a call, and that nothing else is forgotten. *)
  Lemma carry_later s l k v i x : let t := fst (carry X true conn veq vhash eeq ehash vertex_limit addr s l k v i x) in
    sound s -> (later s t /\ sound t) /\
    (calls t <> calls s -> exists n, collision X veq vhash t l v = Some n /\ has t n x).
  Proof.
    intros t0 S. revert t0. unfold carry.
    assert (H0 : forall t, nn t = nn s -> table t = table s -> vert t = vert s -> labs t = labs s -> calls t = calls s ->
      (later s t /\ sound t) /\ (calls t <> calls s -> exists n, collision X veq vhash t l v = Some n /\ has t n x)).
    { intros t A B C D F. destruct (@later_same s t A B C D) as [P Q]. split; [auto|congruence]. }
    destruct (serr s l); [apply H0; reflexivity|]. destruct k; [apply H0; reflexivity|].
    destruct (collision X veq vhash s l v) as [n|] eqn:Ec.
    - unfold reach_extant. cbn [negb orb].
      destruct (recorded eeq (judy X) (ehash x) x (labs s n)) eqn:R; [apply H0; reflexivity|].
      match goal with |- context [connect ?f ?s ?l ?n ?o ?v] => destruct (connect_same f s l n o v) as [A [B [C [D F]]]]; set (t := fst (connect f s l n o v)) in * end.
      cbn [nn table vert labs calls] in *.
      assert (L : labs t n = labs s n ++ [(ehash x, x)]) by (rewrite D, upd_same; unfold record_edge; rewrite R; reflexivity).
      assert (L' : forall m, m <> n -> labs t m = labs s m) by (intros m Hm; rewrite D, upd_diff; auto).
      split; [split|].
      + split; [lia|]. split; [intros; exists []; now rewrite app_nil_r, B|]. intros l' b m _. split; [now rewrite C|].
        intros y [h [z [G1 G2]]]. exists h, z. split; [|exact G2]. destruct (Nat.eq_dec m n) as [->|N]; [rewrite L; apply in_or_app; auto|now rewrite L'].
      + unfold sound. rewrite A, B. exact S.
      + intros _. exists n. split; [unfold collision; rewrite B, C; exact Ec|]. exists (ehash x), x. split; [rewrite L; apply in_or_app; simpl; auto|].
        split; [apply (eqv_refl He)|reflexivity].
    - assert (H1 : forall s1, nn s1 = nn s -> table s1 = table s -> vert s1 = vert s -> labs s1 = labs s ->
        let t := fst (reached_new X true conn veq vhash eeq ehash addr s1 l v i x) in
        (later s t /\ sound t) /\ (calls t <> calls s -> exists n, collision X veq vhash t l v = Some n /\ has t n x)).
      { intros s1 E1 E2 E3 E4. unfold reached_new.
        match goal with |- context [connect ?f ?s ?l ?n ?o ?v] => destruct (connect_same f s l n o v) as [A [B [C [D F]]]]; set (t := fst (connect f s l n o v)) in * end.
        cbn [nn table vert labs calls] in *. rewrite E1 in *. rewrite E2 in B. rewrite E3 in C. rewrite E4 in D.
        assert (Old : forall l' b m, In m (table s l' b) -> m <> addr (nn s)).
        { intros l' b m Hm ->. apply S in Hm as [[k [K1 K2]]|Hm]; [apply addr_inj in K2; lia|eapply addr_new; exact Hm]. }
        assert (T : forall l' b, exists ext, table t l' b = table s l' b ++ ext /\ (forall m, In m ext -> m = addr (nn s))).
        { intros l' b. rewrite B. unfold put_bin. destruct (Nat.eq_dec l' l) as [->|N].
          - rewrite upd_same. destruct (N.eqb b (vbin X vhash v)); [exists [addr (nn s)]; split; [reflexivity|simpl; intuition]|].
            exists []. rewrite app_nil_r. split; [reflexivity|intros m []].
          - rewrite upd_diff by auto. exists []. rewrite app_nil_r. split; [reflexivity|intros m []]. }
        split; [split|].
        - split; [lia|]. split; [intros l' b; destruct (T l' b) as [ext [T1 _]]; eauto|]. intros l' b m Hm. pose proof (Old _ _ _ Hm) as N.
          split; [now rewrite C, upd_diff by auto|]. unfold has. rewrite D, upd_diff by auto. auto.
        - intros l' b m Hm. rewrite A. destruct (T l' b) as [ext [T1 T2]]. rewrite T1 in Hm. apply in_app_or in Hm as [Hm|Hm].
          + apply S in Hm as [[k [K1 K2]]|Hm]; [left; exists k; split; [lia|exact K2]|auto].
          + left. exists (nn s). split; [lia|auto].
        - intros _. exists (addr (nn s)). split.
          + unfold collision. rewrite B, C. unfold put_bin. rewrite upd_same, N.eqb_refl.
            unfold collision in Ec. assert (Q : forall L, (forall m, In m L -> m <> addr (nn s)) -> find (fun n => same veq v (vert s n)) L = None ->
              find (fun n => same veq v (upd (vert s) (addr (nn s)) v n)) (L ++ [addr (nn s)]) = Some (addr (nn s))).
            { induction L as [|m L IH]; intros O Fn; cbn [find app] in *.
              - rewrite upd_same. unfold same. rewrite N.eqb_refl. reflexivity.
              - rewrite upd_diff by (apply O; simpl; auto). destruct (same veq v (vert s m)); [discriminate|]. apply IH; auto. intros m' Hm. apply O. simpl. auto. }
            apply Q; [|exact Ec]. intros m Hm. eapply Old; eauto.
          + exists (ehash x), x. rewrite D, upd_same. split; [simpl; auto|]. split; [apply (eqv_refl He)|reflexivity]. }
      destruct (limit X vertex_limit =? 0); [apply H1; reflexivity|].
      destruct (count s l <? limit X vertex_limit); [apply H1; reflexivity|]. apply H0; reflexivity.
  Qed.

  Lemma step_later s p s' out : process s p = Some (s', out) -> sound s -> later s s' /\ sound s'.
  Proof.
    intros E S. unfold spreading in E.
    set (s1 := mkSD _ _ _ _ _ _ _ _ _ _ _ _ _ _ _ _) in E.
    assert (L1 : later s s1 /\ (sound s -> sound s1)) by (apply later_same; reflexivity). destruct L1 as [L1 S1]. specialize (S1 S). clearbody s1.
    destruct (hung s); [injection E as <- <-; auto|].
    assert (L2 : let t := fst (begin s0 s1 (sdest X g vhash p)) in later s1 t /\ (sound s1 -> sound t)).
    { unfold begin. destruct (started s1 _); apply later_same; reflexivity. }
    destruct (begin s0 s1 _) as [s2 o1]. cbn [fst] in L2. destruct L2 as [L2 S2]. specialize (S2 S1). pose proof (later_trans L1 L2) as L3.
    destruct (hung s2); [injection E as <- <-; auto|].
    destruct p as [n x|v i x].
    - destruct (_ && _); [injection E as <- <-; auto|].
      destruct (break_out_later s2 (sdest X g vhash (Reach n x)) n x) as [L4 S4]. destruct (break_out _ _ _ _ _ _ _ _ _) as [s3 o2].
      injection E as <- <-. cbn [fst] in *. split; [eapply later_trans; eauto|auto].
    - match type of E with context [carry _ _ _ _ _ _ _ _ _ s2 ?l ?k v i x] => destruct (@carry_later s2 l k v i x S2) as [[L4 S4] _] end.
      destruct (carry _ _ _ _ _ _ _ _ _ _ _ _ _ _ _) as [s3 o2]. injection E as <- <-. cbn [fst] in *. split; [eapply later_trans; eauto|auto].
  Qed.
  Lemma run_later s t : star processed s t -> sound s -> later s t /\ sound t.
  Proof.
    intros R S. induction R as [|b c R IH [p [o E]]]; [split; [apply later_refl|exact S]|]. destruct IH as [L S']; auto.
    destruct (step_later E S') as [L' S'']. split; [eapply later_trans; eauto|auto].
  Qed.
  Lemma start_sound : sound (sstart g s0).
  Proof. intros l b n H. right. exact H. Qed.

  Lemma same_eqv v w u : veq v w = true -> same veq v u = same veq w u.
  Proof.
    intros H. assert (R : forall a b, same veq a b = veq a b).
    { intros a b. unfold same. destruct (N.eqb a b) eqn:E; [|reflexivity]. apply N.eqb_eq in E. subst. now rewrite (eqv_refl Hv). }
    rewrite !R. apply eqv_l; auto.
  Qed.
  Lemma find_ext_later (P Q : nat -> bool) L L' n : find P L = Some n -> (forall m, In m L -> Q m = P m) -> find Q (L ++ L') = Some n.
  Proof.
    induction L as [|m L IH]; cbn [find app]; [discriminate|]. intros H E. rewrite (E m) by (simpl; auto). destruct (P m); auto.
    apply IH; auto. intros m' Hm. apply E. simpl. auto.
  Qed.

  Theorem C101_subconnector_not_repeated s v i x s1 out1 t w j y t' out :
    star processed (sstart g s0) s -> process s (Carry v i x) = Some (s1, out1) -> calls s1 <> calls s ->
    star processed s1 t -> process t (Carry w j y) = Some (t', out) -> veq v w = true -> eeq x y = true -> calls t' = calls t.
  Proof.
    intros R E Hc R1 E1 Evw Exy. destruct (run_later R start_sound) as [_ S].
    assert (F : exists n, collision X veq vhash s1 (vlane X vhash v) v = Some n /\ has s1 n x).
    { unfold spreading in E. set (s2 := mkSD _ _ _ _ _ _ _ _ _ _ _ _ _ _ _ _) in E.
      assert (S2 : sound s2) by exact S.
      destruct (hung s); [injection E as <- <-; exfalso; apply Hc; reflexivity|]. cbn [sdest] in E.
      assert (C : calls (fst (begin s0 s2 (vlane X vhash v))) = calls s) by (unfold begin; destruct (started s2 _); reflexivity).
      assert (S3 : sound (fst (begin s0 s2 (vlane X vhash v)))) by (unfold begin; destruct (started s2 _); exact S2).
      destruct (begin s0 s2 _) as [s3 o1]. cbn [fst] in C, S3. destruct (hung s3); [injection E as <- <-; congruence|].
      match type of E with context [carry _ _ _ _ _ _ _ _ _ s3 ?l ?k v i x] => destruct (@carry_later s3 l k v i x S3) as [_ Q] end.
      destruct (carry _ _ _ _ _ _ _ _ _ _ _ _ _ _ _) as [s4 o2]. injection E as <- <-. cbn [fst] in Q. apply Q. congruence. }
    destruct F as [n [F1 F2]]. destruct (step_later E S) as [_ S1]. destruct (run_later R1 S1) as [[_ [L2 L3]] _].
    unfold spreading in E1. set (t1 := mkSD _ _ _ _ _ _ _ _ _ _ _ _ _ _ _ _) in E1.
    destruct (hung t); [injection E1 as <- <-; reflexivity|]. cbn [sdest] in E1.
    assert (C : let b := fst (begin s0 t1 (vlane X vhash w)) in calls b = calls t /\ table b = table t /\ vert b = vert t /\ labs b = labs t)
      by (unfold begin; destruct (started t1 _); auto).
    destruct (begin s0 t1 _) as [t2 o1]. cbn [fst] in C. destruct C as [C1 [C2 [C3 C4]]]. destruct (hung t2); [injection E1 as <- <-; auto|].
    assert (Hw : vhash w = vhash v) by (symmetry; auto).
    assert (K : collision X veq vhash t2 (vlane X vhash w) w = Some n).
    { unfold collision in *. unfold vlane, vbin in *. rewrite C2, C3, Hw. destruct (L2 (lane_of (lanes X) (vhash v)) (if judy X then vhash v else 0%N)) as [ext ->].
      eapply find_ext_later; [exact F1|]. intros m Hm. cbn beta. destruct (L3 _ _ _ Hm) as [-> _]. symmetry. now apply same_eqv. }
    assert (Hn : In n (table s1 (vlane X vhash v) (vbin X vhash v))) by (unfold collision in F1; eapply find_some; exact F1).
    destruct (L3 _ _ _ Hn) as [_ L4].
    assert (G : recorded eeq (judy X) (ehash y) y (labs t2 n) = true) by (rewrite C4; eapply has_recorded; [apply L4; exact F2|exact Exy]).
    unfold carry in E1. destruct (serr t2 _); [injection E1 as <- <-; exact C1|].
    match type of E1 with context [if ?k then _ else _] => destruct k end; [injection E1 as <- <-; exact C1|].
    rewrite K in E1. unfold reach_extant in E1. rewrite G in E1. cbn [negb orb] in E1. injection E1 as <- <-. exact C1.
  Qed.
End Once.

(** The vertex 30 is reached twice by edges with the label 7, and once by an edge with the label 8. *)
Notation subcarried s i x := (spreading XS VG true c1 N.eqb by_value N.eqb by_value 0 (fresh VG) (pstart VG) none_dropped XS s (Carry 30%N i x)).
Definition once : sdata := after (subcarried (sstart VG (pstart VG)) 0 7%N).
Definition twice : sdata := after (subcarried once 1 7%N).
Example C101_subconnector_not_repeated_ex :
  equivalence N.eqb /\ (forall k l b, ~ In (fresh VG k) (p_table (pstart VG) l b)) /\
  calls (sstart VG (pstart VG)) = [] /\ calls once = [(Some 7%N, 30%N)] /\ calls twice = [(Some 7%N, 30%N)] /\
  calls (after (subcarried twice 2 8%N)) = [(Some 8%N, 30%N); (Some 7%N, 30%N)].
Proof.
  split; [split; intros *; rewrite ?N.eqb_eq; congruence|]. split; [intros k l b H; exact H|].
  repeat split; vm_compute; reflexivity.
Qed.
