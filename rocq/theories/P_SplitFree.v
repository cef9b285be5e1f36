(** Vertices and labels are neither lost nor destroyed twice when vertices are split, and no edge is accessed after it is freed, except
    that a vertex is lost if a splitter returns it along with an error (C108) *)
From Coq Require Import List Arith Bool Lia Permutation.
From Verif Require Import MakeFree P_MakeFree SplitFree.
Import ListNotations.

Set Implicit Arguments.

Definition nums (es : list edge) : list nat := map (fun e : edge => fst (fst e)) es.
Definition ends (es : list edge) : list nat := map (fun e : edge => snd (fst e)) es.

(** values in packets, carriers of packets, and edges in packets *)
Definition pval (p : pkt) : list nat := match p with Create _ v => opt v | Connect _ e => opt (snd e) | _ => [] end.
Definition pvals (ps : list pkt) : list nat := flat_map pval ps.
Definition car (p : pkt) : list nat := match p with Visit _ (Some (_, k)) => [k] | Disconnect _ k => [k] | _ => [] end.
Definition cars (ps : list pkt) : list nat := flat_map car ps.
Definition att (p : pkt) : list nat := match p with Connect _ e => [fst (fst e)] | _ => [] end.
Definition atts (ps : list pkt) : list nat := flat_map att ps.

Definition steady (s s' : st) : Prop :=
  (distinct s -> distinct s') /\ (err s = true -> err s' = true) /\ next s <= next s'.

Lemma steady_refl : forall s, steady s s.
Proof. intros s. split; auto. Qed.
Lemma steady_trans : forall s s' s'', steady s s' -> steady s' s'' -> steady s s''.
Proof. intros s s' s'' (A & B & C) (D & E & F). split; [|split]; auto. lia. Qed.

Section Parts.
  Variable heap reserve : nat -> bool.
  Variable vuser euser puser : nat -> bool * bool.
  Variable dies : nat -> bool.
  Variable proper : nat -> bool.

  Lemma alloc_steady : forall s b s', alloc heap s = (b, s') -> steady s s'.
  Proof.
    intros s b s' A. unfold alloc in A. destruct (heap (clock s)); injection A as <- <-; (split; [intros D; exact D|split; simpl; auto]).
  Qed.
  Lemma packet_steady : forall s b s', packet heap reserve s = (b, s') -> steady s s'.
  Proof.
    intros s b s' A. unfold packet in A. destruct (heap (clock s)); injection A as <- <-; (split; [intros D; exact D|split; simpl; auto]).
  Qed.
  Lemma passed_steady : forall s b s', passed puser s = (b, s') -> steady s s'.
  Proof.
    intros s b s' A. unfold passed in A. destruct (err s) eqn:E; [injection A as <- <-; apply steady_refl|].
    destruct (puser (clock s)) as [t e]. destruct e; injection A as <- <-; (split; [intros D; exact D|split; simpl; auto]).
  Qed.
  Lemma applied_steady : forall f s v s', applied f s = (v, s') -> steady s s'.
  Proof.
    intros f s v s' A. split; [|split].
    - intros D. eapply applied_distinct; eassumption.
    - apply applied_careful in A. apply A.
    - unfold applied in A. destruct (err s); [injection A as <- <-; auto|]. destruct (f (clock s)) as [null e].
      destruct null, e; injection A as <- <-; simpl; auto.
  Qed.
  Lemma destroy_steady : forall v s, steady s (destroy dies v s).
  Proof.
    intros v s. destruct (destroy_same dies v s) as (A & B & _). split; [|split]; auto.
    - unfold distinct. rewrite A. auto.
    - destruct v; simpl; auto.
  Qed.
  Lemma propped_steady : forall s, steady s (propped proper s) /\ made (propped proper s) = made s /\ dead (propped proper s) = dead s.
  Proof. intros s. unfold propped, steady. destruct (proper (clock s)); simpl; repeat split; auto; apply H. Qed.

  Lemma labelers_spec : forall s ac al cc cl s' F, labelers euser puser s = (ac, al, cc, cl, s') -> settled s F ->
    settled s' (opt al ++ opt cl ++ F) /\ steady s s' /\ (ac = false -> al = None) /\ (cc = false -> cl = None).
  Proof.
    intros s ac al cc cl s' F E S. unfold labelers in E.
    destruct (passed puser s) as [b1 s1] eqn:A1. pose proof (passed_steady _ A1) as T1. apply passed_idle in A1.
    pose proof (idle_settled A1 S) as S1.
    destruct (if b1 then applied euser s1 else (None, s1)) as [v2 s2] eqn:A2.
    assert (Q2 : settled s2 (opt v2 ++ F) /\ steady s1 s2 /\ (b1 = false -> v2 = None)).
    { destruct b1.
      - split; [eapply applied_settled; eassumption|]. split; [eapply applied_steady; eassumption|discriminate].
      - injection A2 as <- <-. auto using steady_refl. }
    destruct Q2 as (S2 & T2 & N2).
    destruct (passed puser s2) as [b3 s3] eqn:A3. pose proof (passed_steady _ A3) as T3. apply passed_idle in A3.
    pose proof (idle_settled A3 S2) as S3.
    destruct (if b3 then applied euser s3 else (None, s3)) as [v4 s4] eqn:A4.
    assert (Q4 : settled s4 (opt v4 ++ opt v2 ++ F) /\ steady s3 s4 /\ (b3 = false -> v4 = None)).
    { destruct b3.
      - split; [eapply applied_settled; eassumption|]. split; [eapply applied_steady; eassumption|discriminate].
      - injection A4 as <- <-. auto using steady_refl. }
    destruct Q4 as (S4 & T4 & N4). injection E as <- <- <- <- <-. split; [|split; [|auto]].
    - eapply settled_perm; [exact S4|]. intros k. rewrite !count_occ_app. lia.
    - eapply steady_trans; [exact T1|]. eapply steady_trans; [exact T2|]. eapply steady_trans; eassumption.
  Qed.

  Definition numbered (a b : nat) (xs ys : list nat) : Prop := NoDup ys /\ forall k, In k ys -> In k xs \/ a <= k < b.

  Lemma new_edge_next : forall y l s r s', new_edge heap dies y l s = (r, s') ->
    steady s s' /\ match r with Some e => e = (next s, y, l) /\ next s < next s' | None => True end.
  Proof.
    intros y l s r s' N. unfold new_edge in N. destruct (err s).
    - injection N as <- <-. split; auto. apply destroy_steady.
    - destruct (alloc heap s) as [b s1] eqn:A. pose proof (alloc_steady _ A) as T. assert (X : next s1 = next s).
      { unfold alloc in A. destruct (heap (clock s)); injection A as <- <-; reflexivity. }
      destruct b; injection N as <- <-.
      + split; [|rewrite X; split; auto; simpl; lia]. eapply steady_trans; [exact T|]. split; [intros D; exact D|split; simpl; auto].
      + split; auto. eapply steady_trans; [exact T|apply destroy_steady].
  Qed.

  Lemma labels_cons : forall k y v es, labels ((k, y, v) :: es) = opt v ++ labels es.
  Proof. reflexivity. Qed.

  Lemma nodup_mid : forall (a b : list nat) x, NoDup (a ++ x :: b) <-> NoDup (x :: a ++ b).
  Proof.
    intros a b x. split; intros H; eapply Permutation_NoDup; try exact H; [apply Permutation_sym|]; apply Permutation_middle.
  Qed.

  Lemma fan_edges_spec : forall es cs s es' cs' s' F, fan_edges heap euser puser dies es cs s = (es', cs', s') ->
    settled s (labels es ++ labels cs ++ F) -> NoDup (nums es ++ nums cs) -> (forall k, In k (nums es ++ nums cs) -> k < next s) ->
    settled s' (labels es' ++ labels cs' ++ F) /\ steady s s' /\ numbered (next s) (next s') (nums es ++ nums cs) (nums es' ++ nums cs') /\
    (forall y, In y (ends es' ++ ends cs') -> In y (ends es ++ ends cs)).
  Proof.
    induction es as [|[[k y] l] es IH]; intros cs s es' cs' s' F E S ND LT; simpl in E.
    { injection E as <- <- <-. split; auto. split; [apply steady_refl|]. split; auto. split; auto. }
    destruct (err s). { injection E as <- <- <-. split; auto. split; [apply steady_refl|]. split; auto. split; auto. }
    destruct (labelers euser puser s) as [[[[ac al] cc] cl] s1] eqn:A. apply labelers_spec with (F := labels ((k, y, l) :: es) ++ labels cs ++ F) in A; auto.
    destruct A as (S1 & T1 & NA & NC). set (s2 := destroy dies l s1) in *.
    assert (S2 : settled s2 (opt al ++ opt cl ++ labels es ++ labels cs ++ F)).
    { apply destroy_settled. eapply settled_perm; [exact S1|]. intros j. rewrite labels_cons, !count_occ_app. lia. }
    assert (T2 : steady s s2) by (eapply steady_trans; [exact T1|apply destroy_steady]).
    assert (N2 : next s <= next s2) by apply T2.
    simpl in ND, LT. inversion ND as [|? ? NI ND']. subst.
    destruct ac, cc.
    - destruct (new_edge heap dies y cl s2) as [e s3] eqn:B. pose proof (new_edge_next _ _ _ B) as [T3 X3].
      apply new_edge_spec with (F := opt al ++ labels es ++ labels cs ++ F) in B.
      2:{ eapply settled_perm; [exact S2|]. intros j. rewrite !count_occ_app. lia. }
      destruct B as (S3 & _ & _).
      destruct (fan_edges heap euser puser dies es (match e with Some e => e :: cs | None => cs end) s3) as [[r cs1] s4] eqn:G.
      injection E as <- <- <-. assert (N3 : next s2 <= next s3) by apply T3.
      apply IH with (F := opt al ++ F) in G.
      + destruct G as (S4 & T4 & [D4 L4] & E4). split; [|split; [|split]].
        * eapply settled_perm; [exact S4|]. intros j. rewrite labels_cons, !count_occ_app. lia.
        * eapply steady_trans; [exact T2|]. eapply steady_trans; eassumption.
        * assert (N4 : next s3 <= next s4) by apply T4. split.
          -- simpl. constructor; auto. intros K. apply L4 in K as [K|K].
             ++ apply in_app_iff in K as [K|K]; [apply NI; apply in_or_app; auto|]. destruct e as [e|].
                ** destruct X3 as [-> X3]. simpl in K. destruct K as [K|K]; [|apply NI; apply in_or_app; auto].
                   specialize (LT k (or_introl eq_refl)). lia.
                ** apply NI. apply in_or_app. auto.
             ++ specialize (LT k (or_introl eq_refl)). lia.
          -- simpl. intros j [<-|K]; auto. apply L4 in K as [K|K]; [|right; lia]. apply in_app_iff in K as [K|K]; [left; right; apply in_or_app; auto|].
             destruct e as [e|]; [|left; right; apply in_or_app; auto]. destruct X3 as [-> X3]. simpl in K. destruct K as [K|K]; [right; lia|].
             left. right. apply in_or_app. auto.
        * simpl. intros j [<-|K]; auto. apply E4 in K. apply in_app_iff in K as [K|K]; [right; apply in_or_app; auto|].
          destruct e as [e|]; [|right; apply in_or_app; auto]. destruct X3 as [-> X3]. simpl in K. destruct K as [K|K]; auto. right. apply in_or_app. auto.
      + eapply settled_perm; [exact S3|]. intros j. destruct e as [[[q z] u]|]; rewrite ?labels_cons; unfold labels; simpl; rewrite !count_occ_app; simpl; lia.
      + destruct e as [e|]; auto. destruct X3 as [-> X3]. simpl. apply nodup_mid. constructor; auto. intros K.
        specialize (LT (next s2) (or_intror K)). lia.
      + intros j K. destruct e as [e|].
        * destruct X3 as [-> X3]. simpl in K. apply in_app_iff in K. simpl in K. destruct K as [K|[K|K]].
          -- specialize (LT j). rewrite in_app_iff in LT. assert (j < next s) by auto. lia.
          -- lia.
          -- specialize (LT j). rewrite in_app_iff in LT. assert (j < next s) by auto. lia.
        * specialize (LT j (or_intror K)). lia.
    - rewrite (NC eq_refl) in S2. destruct (fan_edges heap euser puser dies es cs s2) as [[r cs1] s4] eqn:G. injection E as <- <- <-.
      apply IH with (F := opt al ++ F) in G; auto.
      + destruct G as (S4 & T4 & [D4 L4] & E4). assert (N4 : next s2 <= next s4) by apply T4. split; [|split; [|split]].
        * eapply settled_perm; [exact S4|]. intros j. rewrite labels_cons, !count_occ_app. lia.
        * eapply steady_trans; eassumption.
        * split.
          -- simpl. constructor; auto. intros K. apply L4 in K as [K|K]; auto. specialize (LT k (or_introl eq_refl)). lia.
          -- simpl. intros j [<-|K]; auto. apply L4 in K as [K|K]; [auto|right; lia].
        * simpl. intros j [<-|K]; auto.
      + eapply settled_perm; [exact S2|]. intros j. rewrite !count_occ_app. simpl. lia.
      + intros j K. specialize (LT j (or_intror K)). lia.
    - rewrite (NA eq_refl) in S2. apply IH with (F := F) in E.
      + destruct E as (S4 & T4 & [D4 L4] & E4). assert (N4 : next s2 <= next s') by apply T4. split; [|split; [|split]]; auto.
        * eapply steady_trans; eassumption.
        * split; auto. intros j K. apply L4 in K as [K|K]; [|right; lia]. left. simpl. apply in_app_iff in K. simpl in K. rewrite in_app_iff. tauto.
        * intros j K. apply E4 in K. simpl. apply in_app_iff in K. simpl in K. rewrite in_app_iff. tauto.
      + eapply settled_perm; [exact S2|]. intros j. rewrite labels_cons, !count_occ_app. simpl. lia.
      + simpl. apply nodup_mid. constructor; auto.
      + intros j K. simpl in K. apply in_app_iff in K. simpl in K. specialize (LT j). rewrite in_app_iff in LT. assert (j < next s) by tauto. lia.
    - rewrite (NA eq_refl), (NC eq_refl) in S2. apply IH with (F := F) in E; auto.
      + destruct E as (S4 & T4 & [D4 L4] & E4). assert (N4 : next s2 <= next s') by apply T4. split; [|split; [|split]]; auto.
        * eapply steady_trans; eassumption.
        * split; auto. intros j K. apply L4 in K as [K|K]; [|right; lia]. left. simpl. auto.
        * intros j K. apply E4 in K. simpl. auto.
      + intros j K. specialize (LT j (or_intror K)). lia.
  Qed.

  Lemma scatter_spec : forall n es s p s', scatter heap reserve n es s = (p, s') ->
    made s' = made s /\ dead s' = dead s /\ steady s s' /\ (exists m, cars p = firstn m (nums es)) /\ pvals p = [] /\ atts p = [] /\
    (forall q, In q p -> exists k y l, q = Visit y (Some (n, k)) /\ In (k, y, l) es).
  Proof.
    intros n es s p s' E. unfold scatter in E. destruct (err s).
    { injection E as <- <-. do 2 (split; [reflexivity|]). split; [apply steady_refl|]. split; [exists 0; reflexivity|]. do 2 (split; [reflexivity|]). intros q []. }
    destruct (scatter_out heap reserve es s) as [m s1] eqn:A. injection E as <- <-.
    assert (T : steady s s1 /\ made s1 = made s /\ dead s1 = dead s).
    { clear -A. revert s m s1 A. induction es as [|e es IH]; intros s m s1 A; simpl in A; [injection A as <- <-; auto using steady_refl|].
      destruct (packet heap reserve s) as [b s2] eqn:P. pose proof (packet_steady _ P) as T. apply packet_idle in P as [(P1 & P2 & _) _]. destruct b.
      - destruct (scatter_out heap reserve es s2) as [m' s3] eqn:Q. injection A as <- <-. destruct (IH s2 m' s3 Q) as (A1 & A2 & A3).
        split; [eapply steady_trans; eassumption|]. split; congruence.
      - injection A as <- <-. auto. }
    destruct T as (T1 & T2 & T3). do 3 (split; auto). split; [|split; [|split]].
    - exists m. unfold nums. rewrite firstn_map. induction (firstn m es) as [|x l IH]; auto. unfold cars in *. simpl. rewrite IH. reflexivity.
    - induction (firstn m es) as [|x l IH]; auto.
    - induction (firstn m es) as [|x l IH]; auto.
    - intros q K. apply in_map_iff in K as [[[k y] l] [<- K]]. exists k, y, l. split; auto. rewrite <- (firstn_skipn m es). apply in_or_app. auto.
  Qed.

  Definition vnew (f : fanned) : list nat := match f_vertex f with Some t => opt t | None => [] end.

  Record fans (n c : nat) (es : list edge) (s : st) (F : list nat) (f : fanned) (s' : st) : Prop := Fans {
    fa_settled : exists lk, settled s' (lk ++ vnew f ++ labels (f_edges f) ++ labels (f_copied f) ++ pvals (f_sent f) ++ F) /\
                   (lk = [] \/ (length lk = 1 /\ err s' = true /\ exists n, vuser n = (false, true)));
    fa_steady : steady s s';
    fa_numbered : numbered (next s) (next s') (nums es) (nums (f_edges f) ++ nums (f_copied f));
    fa_ends : forall y, In y (ends (f_edges f) ++ ends (f_copied f)) -> In y (ends es);
    fa_cars : NoDup (cars (f_sent f));
    fa_atts : atts (f_sent f) = [];
    fa_sent : forall p, In p (f_sent f) -> (exists t, p = Create c t) \/
                (exists o k y l, p = Visit y (Some (o, k)) /\ ((o = n /\ In (k, y, l) (f_edges f)) \/ (o = c /\ In (k, y, l) (f_copied f))));
    fa_create : (f_copied f <> [] \/ f_vertex f <> None) -> exists t, In (Create c t) (f_sent f)
  }.

  Lemma nodup_firstn : forall A m (l : list A), NoDup l -> NoDup (firstn m l).
  Proof.
    intros A m l H. rewrite <- (firstn_skipn m l) in H. induction (firstn m l) as [|a r IH]; [constructor|]. simpl in H. inversion H. subst.
    constructor; auto. intros K. apply H2. apply in_or_app. auto.
  Qed.
  Lemma in_firstn : forall A m (l : list A) x, In x (firstn m l) -> In x l.
  Proof. intros A m l x K. rewrite <- (firstn_skipn m l). apply in_or_app. auto. Qed.

  Lemma nodup_drop : forall A (x y z : list A), NoDup (x ++ y ++ z) -> NoDup (x ++ z).
  Proof. intros A x y z. induction y as [|a y IH]; intros H; auto. apply IH. simpl in H. apply NoDup_remove_1 in H. exact H. Qed.

  Lemma fan_out_spec : forall n c es s f s' F, fan_out heap reserve vuser euser puser dies proper n c es s = (f, s') ->
    settled s (labels es ++ F) -> NoDup (nums es) -> (forall k, In k (nums es) -> k < next s) -> fans n c es s F f s'.
  Proof.
    intros n c es s f s' F E S ND LT. unfold fan_out in E.
    (* nothing is changed but packets may be sent *)
    assert (PLAIN : forall t sent lk, (sent = [] \/ exists u, sent = [Create c u]) ->
              settled t (lk ++ pvals sent ++ labels es ++ F) -> steady s t ->
              (lk = [] \/ (length lk = 1 /\ err t = true /\ exists n, vuser n = (false, true))) ->
              fans n c es s F (mkFanned None es [] sent) t).
    { intros t sent lk SN St T LK. constructor; simpl; auto.
      - exists lk. split; auto. eapply settled_perm; [exact St|]. intros k. unfold vnew. simpl. rewrite !count_occ_app. simpl. lia.
      - unfold numbered. rewrite !app_nil_r. split; auto.
      - rewrite app_nil_r. auto.
      - destruct SN as [->|[u ->]]; constructor.
      - destruct SN as [->|[u ->]]; reflexivity.
      - intros p K. destruct SN as [->|[u ->]]; [destruct K|]. destruct K as [<-|[]]. left. eauto.
      - intros [K|K]; congruence. }
    destruct (err s) eqn:E0.
    { injection E as <- <-. apply PLAIN with []; auto using steady_refl. }
    destruct (passed puser s) as [b s1] eqn:A1. pose proof (passed_steady _ A1) as T1. apply passed_idle in A1.
    pose proof (idle_settled A1 S) as S1. destruct b; simpl negb in E; cbv iota in E.
    2:{ destruct (scatter heap reserve n es s1) as [p s2] eqn:A2. apply scatter_spec in A2 as (M1 & M2 & T2 & [m CM] & PV & PA & PS).
        injection E as <- <-. constructor; simpl.
        - exists []. split; auto. unfold vnew. simpl. rewrite PV. intros k. rewrite M1, M2. exact (S1 k).
        - eapply steady_trans; eassumption.
        - rewrite app_nil_r. split; auto.
        - rewrite app_nil_r. auto.
        - rewrite CM. apply nodup_firstn. exact ND.
        - exact PA.
        - intros q K. apply PS in K as (k & y & l & -> & K). right. exists n, k, y, l. auto.
        - intros [K|K]; congruence. }
    destruct (applied vuser s1) as [t s2] eqn:A2. pose proof (applied_steady _ _ A2) as T2. pose proof (applied_settled _ A2 S1) as S2.
    assert (TT2 : steady s s2) by (eapply steady_trans; eassumption).
    assert (LEAK : forall a u r, applied vuser a = (u, r) -> err r = true ->
              opt u = [] \/ (length (opt u) = 1 /\ err r = true /\ exists n, vuser n = (false, true))).
    { intros a u r A B. unfold applied in A. destruct (err a) eqn:C; [injection A as <- <-; auto|].
      destruct (vuser (clock a)) as [null e] eqn:U. destruct null; [injection A as <- <-; auto|]. destruct e.
      - injection A as <- <-. right. repeat split; auto. eauto.
      - injection A as <- <-. simpl in B. congruence. }
    destruct (err s2) eqn:E2.
    { injection E as <- <-. apply PLAIN with (opt t); auto. eapply LEAK; eassumption. }
    destruct (alloc heap s2) as [b3 s3] eqn:A3. pose proof (alloc_steady _ A3) as T3. apply alloc_idle in A3 as [A3 _].
    pose proof (idle_settled A3 S2) as S3. assert (TT3 : steady s s3) by (eapply steady_trans; eassumption).
    assert (UNDO : forall r, settled r (opt t ++ labels es ++ F) -> steady s r ->
              fans n c es s F (mkFanned None es [] []) (destroy dies t r)).
    { intros r Sr Tr. apply PLAIN with []; auto.
      - apply destroy_settled. exact Sr.
      - eapply steady_trans; [exact Tr|apply destroy_steady]. }
    destruct b3; [|injection E as <- <-; auto].
    destruct (propped_steady s3) as (T4 & M4 & D4). set (s4 := propped proper s3) in *.
    assert (S4 : settled s4 (opt t ++ labels es ++ F)) by (intros k; rewrite M4, D4; exact (S3 k)).
    assert (TT4 : steady s s4) by (eapply steady_trans; eassumption).
    destruct (err s4); [injection E as <- <-; auto|].
    destruct (packet heap reserve s4) as [b5 s5] eqn:A5. pose proof (packet_steady _ A5) as T5. apply packet_idle in A5 as [A5 _].
    pose proof (idle_settled A5 S4) as S5. assert (TT5 : steady s s5) by (eapply steady_trans; eassumption).
    destruct b5; [|injection E as <- <-; auto].
    assert (SENT : forall r, settled r (opt t ++ labels es ++ F) -> steady s r -> fans n c es s F (mkFanned None es [] [Create c t]) r).
    { intros r Sr Tr. apply PLAIN with []; eauto. simpl. unfold pvals. simpl. rewrite app_nil_r. exact Sr. }
    destruct (err s5); [injection E as <- <-; auto|].
    destruct (alloc heap s5) as [b6 s6] eqn:A6. pose proof (alloc_steady _ A6) as T6. apply alloc_idle in A6 as [A6 _].
    pose proof (idle_settled A6 S5) as S6. assert (TT6 : steady s s6) by (eapply steady_trans; eassumption).
    destruct b6; [|injection E as <- <-; auto].
    destruct (applied vuser s6) as [t' s7] eqn:A7. pose proof (applied_steady _ _ A7) as T7. pose proof (applied_settled _ A7 S6) as S7.
    assert (TT7 : steady s s7) by (eapply steady_trans; eassumption).
    destruct (err s7) eqn:E7.
    { injection E as <- <-. apply PLAIN with (opt t'); eauto.
      eapply settled_perm; [exact S7|]. intros k. unfold pvals. simpl. rewrite app_nil_r, !count_occ_app. lia. }
    destruct (fan_edges heap euser puser dies es [] s7) as [[es' cs] s8] eqn:A8.
    apply fan_edges_spec with (F := opt t' ++ opt t ++ F) in A8.
    2:{ eapply settled_perm; [exact S7|]. intros k. change (labels []) with (@nil nat). rewrite !count_occ_app. simpl. lia. }
    2:{ simpl. rewrite app_nil_r. exact ND. }
    2:{ simpl. rewrite app_nil_r. intros k K. specialize (LT k K). assert (next s <= next s7) by apply TT7. lia. }
    destruct A8 as (S8 & T8 & [N8 L8] & E8). simpl in L8, E8. rewrite app_nil_r in L8, E8.
    assert (TT8 : steady s s8) by (eapply steady_trans; eassumption).
    destruct (scatter heap reserve c cs s8) as [p s9] eqn:A9. apply scatter_spec in A9 as (M9 & D9 & T9 & [m9 C9] & PV9 & PA9 & PS9).
    destruct (scatter heap reserve n es' s9) as [q s10] eqn:A10. apply scatter_spec in A10 as (M10 & D10 & T10 & [m10 C10] & PV10 & PA10 & PS10).
    injection E as <- <-. constructor; simpl.
    - exists []. split; auto. intros k. rewrite M10, D10, M9, D9. rewrite (S8 k). unfold vnew. simpl. unfold pvals in *. rewrite !flat_map_app.
      rewrite PV9, PV10. simpl. rewrite app_nil_r, !count_occ_app. lia.
    - eapply steady_trans; [exact TT8|]. eapply steady_trans; eassumption.
    - split; auto. intros k K. apply L8 in K as [K|K]; auto. right. assert (next s <= next s7) by apply TT7.
      assert (next s8 <= next s9) by apply T9. assert (next s9 <= next s10) by apply T10. lia.
    - exact E8.
    - unfold cars in *. rewrite !flat_map_app. rewrite C9, C10. simpl. rewrite app_nil_r.
      rewrite <- (firstn_skipn m10 (nums es')), <- (firstn_skipn m9 (nums cs)) in N8. rewrite <- app_assoc in N8. apply nodup_drop in N8.
      rewrite app_assoc in N8. rewrite <- (app_nil_r (skipn m9 (nums cs))) in N8. apply nodup_drop in N8. rewrite app_nil_r in N8. exact N8.
    - unfold atts in *. rewrite !flat_map_app, PA9, PA10. reflexivity.
    - intros x K. apply in_app_iff in K as [K|K].
      + apply PS10 in K as (k & y & l & -> & K). right. exists n, k, y, l. auto.
      + apply in_app_iff in K as [K|[<-|[]]]; [|left; eauto]. apply PS9 in K as (k & y & l & -> & K). right. exists c, k, y, l. auto.
    - intros _. exists t. apply in_or_app. right. apply in_or_app. right. left. reflexivity.
  Qed.
End Parts.

(** * All workers *)

(** what is in the nodes *)
Definition held (w : world) : list nat :=
  vals (map snd (nodes w)) ++ vals (olds w) ++ vals (map (fun e => snd (snd e)) (edges w)).

Section World.
  Variable heap reserve : nat -> bool.
  Variable vuser euser puser : nat -> bool * bool.
  Variable dies : nat -> bool.
  Variable proper : nat -> bool.
  Variable lane : nat -> nat.
  Variable lanes : nat.
  Hypothesis bounded : forall x, lane x < lanes.
  Variable N : nat.

  Definition old (w : world) (o : nat) : Prop := In o (seen w) \/ N <= o.
  Definition known (P : list pkt) (w : world) (o : nat) : Prop := In o (map fst (nodes w)) \/ exists v, In (Create o v) (P ++ flight w).
  Definition erring (w : world) : nat := length (filter (errs w) (seq 0 lanes)).
  Definition lossy : Prop := exists n, vuser n = (false, true).

  (** the invariant, where some packets are being handled *)
  Record live (P : list pkt) (w : world) : Prop := Live {
    lv_open : concluded w = false;
    lv_failed : failed w = false;
    lv_settled : exists lk, settled (common w) (lk ++ held w ++ pvals (P ++ flight w)) /\ length lk <= erring w /\ (lk <> [] -> lossy);
    lv_distinct : distinct (common w);
    lv_wild : wild w = false;
    lv_nodes : forall n, n < N -> In n (map fst (nodes w));
    lv_fresh : N <= fresh w;
    lv_visits : forall n b, In (Visit n b) (P ++ flight w) -> n < N;
    lv_numbers : NoDup (numbers (edges w) ++ atts (P ++ flight w));
    lv_bound : forall k, In k (numbers (edges w) ++ atts (P ++ flight w)) -> k < next (common w);
    lv_cars : NoDup (cars (P ++ flight w));
    lv_carried : forall n s k, In (Visit n (Some (s, k))) (P ++ flight w) \/ In (Disconnect s k) (P ++ flight w) ->
                   old w s /\ exists y l, In (s, (k, y, l)) (edges w);
    lv_ends : forall o k y l, In (o, (k, y, l)) (edges w) -> old w o \/ y < N;
    lv_owners : forall o e, In (o, e) (edges w) -> known P w o;
    lv_connects : forall o e, In (Connect o e) (P ++ flight w) -> old w o /\ known P w o
  }.

  Definition final (w : world) : Prop :=
    concluded w = true /\ flight w = [] /\ olds w = [] /\ wild w = false /\ distinct (common w) /\ (failed w = true -> nodes w = [] /\ edges w = []) /\
    exists lk, settled (common w) (lk ++ held w) /\ length lk <= erring w /\ (lk <> [] -> lossy).

  Lemma occ_permutation : forall a b : list nat, Permutation a b -> forall v, occ a v = occ b v.
  Proof. intros a b P. apply (Permutation_count_occ Nat.eq_dec). exact P. Qed.

  Lemma live_perm : forall P P' f w, Permutation (P ++ flight w) (P' ++ f) -> live P w -> live P' (set_flight f w).
  Proof.
    intros P P' f w PM L. destruct L as [OP FA (lk & SE & LL & LK) DI WI NO FR VI NU BO CA CD EN OW CO].
    assert (IN : forall p, In p (P' ++ f) -> In p (P ++ flight w)) by (intros p K; eapply Permutation_in; [apply Permutation_sym; exact PM|exact K]).
    assert (IN' : forall p, In p (P ++ flight w) -> In p (P' ++ f)) by (intros p K; eapply Permutation_in; [exact PM|exact K]).
    assert (KN : forall o, known P w o -> known P' (set_flight f w) o) by (intros o [K|[v K]]; [left; exact K|right; exists v; apply IN'; exact K]).
    assert (AT : Permutation (numbers (edges w) ++ atts (P ++ flight w)) (numbers (edges w) ++ atts (P' ++ f))).
    { apply Permutation_app_head. apply Permutation_flat_map. exact PM. }
    constructor; simpl; auto.
    - exists lk. split; [|split; auto]. eapply settled_perm; [exact SE|]. intros k. rewrite !count_occ_app.
      pose proof (occ_permutation (Permutation_flat_map pval PM) k) as Q. unfold pvals, held. simpl. rewrite Q. reflexivity.
    - intros n b K. eauto.
    - eapply Permutation_NoDup; [exact AT|exact NU].
    - intros k K. apply BO. eapply Permutation_in; [apply Permutation_sym; exact AT|exact K].
    - eapply Permutation_NoDup; [apply Permutation_flat_map; exact PM|exact CA].
    - intros n s k [K|K]; apply (CD n); auto.
    - intros o e K. apply KN. exact (OW o e K).
    - intros o e K. apply IN in K. apply CO in K as [K1 K2]. auto.
  Qed.

  (** a packet that contains nothing is dropped *)
  Lemma live_drop : forall p w, (match p with Visit _ _ => True | Disconnect _ _ => True | _ => False end) -> live [p] w -> live [] w.
  Proof.
    intros p w Q L. destruct L as [OP FA (lk & SE & LL & LK) DI WI NO FR VI NU BO CA CD EN OW CO].
    assert (PV : pval p = [] /\ att p = []) by (destruct p; auto; destruct Q). destruct PV as [PV PA].
    assert (KN : forall o, known [p] w o -> known [] w o).
    { intros o [K|[v K]]; [left; exact K|]. simpl in K. destruct K as [K|K]; [subst p; destruct Q|right; exists v; exact K]. }
    simpl in *. unfold pvals, atts, cars in *. simpl in *. rewrite PV in SE. rewrite PA in NU, BO. simpl in *.
    constructor; simpl; auto.
    - exists lk. auto.
    - intros n b K. eauto.
    - clear -CA. induction (car p); auto. inversion CA. auto.
    - intros n s k [K|K]; apply (CD n); auto.
    - intros o e K. apply KN. exact (OW o e K).
    - intros o e K. destruct (CO o e (or_intror K)) as [K1 K2]. auto.
  Qed.

  Lemma filter_le : forall (p q : nat -> bool) l, (forall x, p x = true -> q x = true) -> length (filter p l) <= length (filter q l).
  Proof. exact filter_mono. Qed.

  Lemma erring_leave : forall w l s, (errs w l = true -> err s = true) -> erring w <= erring (leave w l s).
  Proof.
    intros w l s H. unfold erring. simpl. apply filter_mono. intros x K. unfold set_err. destruct (x =? l) eqn:E; auto.
    apply Nat.eqb_eq in E. subst x. auto.
  Qed.
  Lemma erring_more : forall w l s, l < lanes -> errs w l = false -> err s = true -> S (erring w) <= erring (leave w l s).
  Proof.
    intros w l s LT A B. unfold erring. simpl. apply filter_more with (a := l); auto.
    - intros x K. unfold set_err. destruct (x =? l) eqn:E; auto.
    - apply in_seq. lia.
    - unfold set_err. rewrite Nat.eqb_refl. exact B.
  Qed.

  Lemma take_perm : forall k es x r, take k es = Some (x, r) -> Permutation es (x :: r) /\ fst (fst (snd x)) = k.
  Proof.
    induction es as [|y es IH]; intros x r E; simpl in E; [discriminate|]. destruct (fst (fst (snd y)) =? k) eqn:K.
    - injection E as <- <-. apply Nat.eqb_eq in K. auto.
    - destruct (take k es) as [[z r']|]; [|discriminate]. injection E as <- <-. destruct (IH z r' eq_refl) as [A B]. split; auto.
      etransitivity; [apply perm_skip; exact A|apply perm_swap].
  Qed.
  Lemma take_some : forall k (es : list (nat * edge)) o y l, In (o, (k, y, l)) es -> exists x r, take k es = Some (x, r).
  Proof.
    induction es as [|z es IH]; intros o y l K; [destruct K|]. simpl. destruct (fst (fst (snd z)) =? k) eqn:E; [exists z, es; reflexivity|].
    destruct K as [K|K]; [subst z; apply Nat.eqb_neq in E; simpl in E; congruence|]. destruct (IH _ _ _ K) as (x & r & ->). eauto.
  Qed.
  Lemma find_perm : forall n ns v r, find_node n ns = Some (v, r) -> Permutation ns ((n, v) :: r).
  Proof.
    induction ns as [|[m u] ns IH]; intros v r E; simpl in E; [discriminate|]. destruct (m =? n) eqn:K.
    - injection E as <- <-. apply Nat.eqb_eq in K. subst m. auto.
    - destruct (find_node n ns) as [[z r']|]; [|discriminate]. injection E as <- <-.
      etransitivity; [apply perm_skip; exact (IH z r' eq_refl)|apply perm_swap].
  Qed.
  Lemma find_some : forall n ns, In n (map fst ns) -> exists v r, find_node n ns = Some (v, r).
  Proof.
    induction ns as [|[m u] ns IH]; intros K; [destruct K|]. simpl. destruct (m =? n) eqn:E; [exists u, ns; reflexivity|].
    destruct K as [K|K]; [simpl in K; apply Nat.eqb_neq in E; congruence|]. destruct (IH K) as (v & r & ->). eauto.
  Qed.

  Lemma numbers_perm : forall a b, Permutation a b -> Permutation (numbers a) (numbers b).
  Proof. intros a b P. apply Permutation_map. exact P. Qed.
  Lemma elabels_perm : forall a b k, Permutation a b -> occ (elabels a) k = occ (elabels b) k.
  Proof. intros a b k P. apply occ_permutation. unfold elabels, vals. apply Permutation_flat_map. apply Permutation_map. exact P. Qed.
  Lemma vertices_perm : forall (a b : list (nat * option nat)) k, Permutation a b -> occ (vals (map snd a)) k = occ (vals (map snd b)) k.
  Proof. intros a b k P. apply occ_permutation. unfold vals. apply Permutation_flat_map. apply Permutation_map. exact P. Qed.

  (** numbers are unique *)
  Lemma unique_number : forall es k x y, NoDup (numbers es) -> In x es -> In y es -> fst (fst (snd x)) = k -> fst (fst (snd y)) = k -> x = y.
  Proof.
    induction es as [|z es IH]; intros k x y ND A B X Y; [destruct A|]. simpl in ND. inversion ND as [|? ? NI ND']. subst.
    destruct A as [->|A], B as [->|B]; auto.
    - exfalso. apply NI. apply (in_map (fun e : nat * edge => fst (fst (snd e)))) in B. rewrite Y in B. exact B.
    - exfalso. apply NI. apply (in_map (fun e : nat * edge => fst (fst (snd e)))) in A. rewrite <- Y in A. exact A.
    - eapply IH; eauto.
  Qed.

  Lemma edges_split : forall n es, Permutation es (map (pair n) (edges_of n es) ++ not_of n es).
  Proof.
    induction es as [|[o e] es IH]; [constructor|]. unfold edges_of, not_of, of_node in *. simpl. destruct (o =? n) eqn:E; simpl.
    - apply Nat.eqb_eq in E. subst o. apply perm_skip. exact IH.
    - etransitivity; [apply perm_skip; exact IH|]. apply Permutation_middle.
  Qed.
  Lemma in_edges_of : forall n es e, In e (edges_of n es) <-> In (n, e) es.
  Proof.
    intros n es e. unfold edges_of, of_node. rewrite in_map_iff. split.
    - intros [[o e'] [<- K]]. apply filter_In in K as [K E]. simpl in E. apply Nat.eqb_eq in E. subst o. exact K.
    - intros K. exists (n, e). split; auto. apply filter_In. split; auto. simpl. apply Nat.eqb_refl.
  Qed.
  Lemma in_not_of : forall n es x, In x (not_of n es) <-> In x es /\ fst x <> n.
  Proof.
    intros n es x. unfold not_of, of_node. rewrite filter_In. rewrite negb_true_iff, Nat.eqb_neq. reflexivity.
  Qed.
  Lemma numbers_pair : forall n es, numbers (map (pair n) es) = nums es.
  Proof. intros n es. unfold numbers, nums. rewrite map_map. reflexivity. Qed.
  Lemma elabels_pair : forall n es, elabels (map (pair n) es) = labels es.
  Proof. intros n es. unfold elabels, labels. rewrite map_map. reflexivity. Qed.
  Lemma numbers_app : forall a b, numbers (a ++ b) = numbers a ++ numbers b.
  Proof. intros. apply map_app. Qed.
  Lemma elabels_app : forall a b, elabels (a ++ b) = elabels a ++ elabels b.
  Proof. intros. unfold elabels. rewrite map_app. apply vals_app. Qed.
  Lemma occ_held : forall w k, occ (held w) k = occ (vals (map snd (nodes w))) k + occ (vals (olds w)) k + occ (elabels (edges w)) k.
  Proof. intros w k. unfold held. rewrite !count_occ_app. unfold elabels. lia. Qed.

  Lemma nodup_app : forall (a b : list nat), NoDup a -> NoDup b -> (forall k, In k a -> ~ In k b) -> NoDup (a ++ b).
  Proof.
    induction a as [|x a IH]; intros b A B D; auto. inversion A. subst. simpl. constructor.
    - rewrite in_app_iff. intros [K|K]; [auto|]. exact (D x (or_introl eq_refl) K).
    - apply IH; auto. intros k K. apply D. right. exact K.
  Qed.
  Lemma nodup_app_inv : forall (a b : list nat), NoDup (a ++ b) -> NoDup a /\ NoDup b /\ (forall k, In k a -> ~ In k b).
  Proof.
    induction a as [|x a IH]; intros b H; simpl in H; [split; [constructor|split; auto]|]. inversion H as [|? ? NI H']. subst.
    destruct (IH b H') as (A & B & C). split; [|split; auto].
    - constructor; auto. intros K. apply NI. apply in_or_app. auto.
    - intros k [<-|K]; auto. intros K. apply NI. apply in_or_app. auto.
  Qed.

  Lemma visit_out_live : forall P n l w, live P w -> n < N -> l < lanes -> errs w l = false ->
    live P (visit_out heap reserve vuser euser puser dies proper n l w).
  Proof.
    intros P n l w L LN LL EL. unfold visit_out. destruct (in_dec Nat.eq_dec n (seen w)) as [SN|SN]; auto.
    pose proof L as L0. destruct L0 as [OP FA (lk & SE & LE & LK) DI WI NO FR VI NU BO CA CD EN OW CO].
    destruct (alloc heap (enter w l)) as [b s] eqn:A. pose proof (alloc_steady _ _ A) as (T1 & T2 & T3). pose proof (alloc_idle _ _ A) as [(I1 & I2 & _) IB].
    destruct b.
    2:{ constructor; simpl; auto.
        - exists lk. split; [|split; auto].
          + intros k. rewrite I1, I2. exact (SE k).
          + etransitivity; [exact LE|]. apply erring_leave. intros _. apply IB. reflexivity.
        - intros k K. apply BO in K. simpl in T3. lia. }
    clear IB. destruct (fan_out heap reserve vuser euser puser dies proper n (fresh w) (edges_of n (edges w)) s) as [f s'] eqn:B.
    destruct (find_some n (nodes w) (NO n LN)) as (v & ns & FN). destruct (find_node n (nodes w)) as [[v' ns']|] eqn:FN'; [|discriminate FN].
    injection FN as -> ->. rename FN' into FN. apply find_perm in FN.
    pose proof (edges_split n (edges w)) as ES. set (es := edges_of n (edges w)) in *. set (ot := not_of n (edges w)) in *.
    assert (NUM : Permutation (numbers (edges w)) (nums es ++ numbers ot)).
    { etransitivity; [apply numbers_perm; exact ES|]. rewrite numbers_app, numbers_pair. reflexivity. }
    assert (NOLD : ~ old w n) by (intros [K|K]; [auto|lia]).
    assert (NU' : NoDup (nums es ++ numbers ot ++ atts (P ++ flight w))).
    { rewrite app_assoc. eapply Permutation_NoDup; [|exact NU]. apply Permutation_app_tail. exact NUM. }
    destruct (nodup_app_inv _ _ NU') as (NU1 & NU2 & NU3).
    assert (BE : forall k, In k (nums es) -> k < next s).
    { intros k K. assert (k < next (common w)); [|simpl in T3; lia]. apply BO. apply in_or_app. left.
      eapply Permutation_in; [apply Permutation_sym; exact NUM|]. apply in_or_app. auto. }
    assert (BO' : forall k, In k (numbers ot ++ atts (P ++ flight w)) -> k < next s).
    { intros k K. assert (k < next (common w)); [|simpl in T3; lia]. apply BO. apply in_app_iff in K as [K|K]; apply in_or_app; auto. left.
      eapply Permutation_in; [apply Permutation_sym; exact NUM|]. apply in_or_app. auto. }
    destruct (@fan_out_spec heap reserve vuser euser puser dies proper n (fresh w) es s f s'
                (lk ++ vals (map snd (nodes w)) ++ vals (olds w) ++ elabels ot ++ pvals (P ++ flight w)) B) as [FS FT [FN1 FN2] FE FC FAT FP FCR]; auto.
    { intros k. rewrite I1, I2. simpl. rewrite (SE k). rewrite !count_occ_app, occ_held. rewrite (elabels_perm k ES), elabels_app, elabels_pair, count_occ_app. lia. }
    destruct FS as (lk' & FS & FL). destruct FT as (FT1 & FT2 & FT3).
    assert (CARS : forall k, In k (cars (f_sent f)) -> In k (nums (f_edges f) ++ nums (f_copied f))).
    { intros k K. unfold cars in K. apply in_flat_map in K as [p [K1 K2]]. apply FP in K1 as [[t ->]|(o & k' & y & u & -> & K1)]; [destruct K2|].
      destruct K2 as [<-|[]]. apply in_or_app. destruct K1 as [[_ K1]|[_ K1]]; [left|right]; apply (in_map (fun e : edge => fst (fst e))) in K1; exact K1. }
    assert (OLDS : forall o, old w o -> In o (n :: seen w) \/ N <= o) by (intros o [K|K]; [left; right; exact K|right; exact K]).
    assert (FLI : forall p, In p (P ++ flight w) -> In p (P ++ f_sent f ++ flight w)).
    { clear. intros p K. apply in_app_iff in K. rewrite !in_app_iff. tauto. }
    assert (NOS : forall m, In m (map fst (nodes w)) -> m = n \/ In m (map fst ns)).
    { intros m K. apply (Permutation_in m (Permutation_map fst FN)) in K. simpl in K. destruct K as [K|K]; auto. }
    match goal with |- live P ?x => set (w' := x) end.
    assert (KN : forall o, known P w o -> known P w' o).
    { intros o [K|[u K]]; [left; simpl; apply NOS in K as [K|K]; auto|right; exists u; apply FLI; exact K]. }
    assert (MONO : forall k, In k (numbers ot ++ atts (P ++ flight w)) -> ~ In k (nums (f_edges f) ++ nums (f_copied f))).
    { intros k K K'. apply FN2 in K' as [K'|K']; [exact (NU3 k K' K)|]. apply BO' in K. lia. }
    assert (OT : forall o k y u, In (o, (k, y, u)) (edges w) -> old w o -> In (o, (k, y, u)) ot).
    { intros o k y u K1 K2. apply in_not_of. split; auto. simpl. intros ->. auto. }
    assert (ATS : Permutation (atts (P ++ f_sent f ++ flight w)) (atts (P ++ flight w))).
    { unfold atts in *. rewrite !flat_map_app, FAT. simpl. reflexivity. }
    assert (NUMS : numbers (edges w') = (nums (f_edges f) ++ nums (f_copied f)) ++ numbers ot).
    { simpl. rewrite !numbers_app, !numbers_pair, app_assoc. reflexivity. }
    constructor; simpl; auto.
    - exists (lk' ++ lk). split; [|split].
      + intros k. rewrite (FS k). rewrite !count_occ_app, occ_held. subst w'. simpl. rewrite !elabels_app, !elabels_pair, !count_occ_app.
        rewrite (vertices_perm k FN). unfold pvals. rewrite !flat_map_app, !count_occ_app. unfold vnew. simpl. rewrite !count_occ_app.
        destruct (f_vertex f) as [t|]; simpl; rewrite ?count_occ_app; simpl; lia.
      + rewrite app_length. destruct FL as [->|(F1 & F2 & F3)].
        * simpl. etransitivity; [exact LE|]. apply erring_leave. intros K. apply FT2. apply T2. exact K.
        * rewrite F1. simpl. transitivity (Datatypes.S (erring w)); [lia|]. apply erring_more; auto.
      + intros K. destruct FL as [->|(F1 & F2 & F3)]; auto.
    - intros m K. apply NO in K. apply NOS in K as [K|K]; auto.
    - intros m b K. rewrite !in_app_iff in K. destruct K as [K|[K|K]]; [apply (VI m b); apply in_or_app; auto| |apply (VI m b); apply in_or_app; auto].
      apply FP in K as [[t K]|(o & k & y & u & K & K')]; [discriminate|]. injection K as -> _.
      assert (Y : In y (ends es)).
      { apply FE. apply in_or_app. destruct K' as [[_ K']|[_ K']]; [left|right]; apply (in_map (fun e : edge => snd (fst e))) in K'; exact K'. }
      unfold ends in Y. apply in_map_iff in Y as [[[k' y'] u'] [Y1 Y2]]. simpl in Y1. subst y'. apply in_edges_of in Y2.
      apply EN in Y2 as [Y2|Y2]; [contradiction|exact Y2].
    - rewrite !numbers_app, !numbers_pair, app_assoc. rewrite <- app_assoc.
      eapply Permutation_NoDup; [apply Permutation_app_head; apply Permutation_app_head; apply Permutation_sym; exact ATS|].
      apply nodup_app; auto. intros k K K'. exact (MONO k K' K).
    - intros k K. rewrite !numbers_app, !numbers_pair in K. rewrite app_assoc in K. rewrite <- app_assoc in K. apply in_app_iff in K as [K|K].
      + apply FN2 in K as [K|K]; [apply BE in K; lia|lia].
      + assert (K' : In k (numbers ot ++ atts (P ++ flight w))); [|apply BO' in K'; lia].
        apply in_app_iff in K as [K|K]; apply in_or_app; auto. right. eapply Permutation_in; [exact ATS|exact K].
    - assert (CP : Permutation (cars (P ++ f_sent f ++ flight w)) (cars (f_sent f) ++ cars (P ++ flight w))).
      { unfold cars. rewrite <- flat_map_app. apply Permutation_flat_map. rewrite !app_assoc. apply Permutation_app_tail. apply Permutation_app_comm. }
      eapply Permutation_NoDup; [apply Permutation_sym; exact CP|]. apply nodup_app; auto. intros k K K'. apply CARS in K.
      unfold cars in K'. apply in_flat_map in K' as [p [P1 P2]].
      assert (Q : exists o y u, In (o, (k, y, u)) (edges w) /\ old w o).
      { destruct p as [m [[o j]|]|c u|m e|m j]; simpl in P2; try contradiction; destruct P2 as [<-|[]].
        - destruct (CD m o j) as (Q1 & y & u & Q2); auto. exists o, y, u. auto.
        - destruct (CD 0 m j) as (Q1 & y & u & Q2); auto. exists m, y, u. auto. }
      destruct Q as (o & y & u & Q1 & Q2). apply (MONO k); auto. apply in_or_app. left. apply OT in Q1; auto.
      apply (in_map (fun e : nat * edge => fst (fst (snd e)))) in Q1. exact Q1.
    - intros m o k K. assert (K' : (In (Visit m (Some (o, k))) (P ++ flight w) \/ In (Disconnect o k) (P ++ flight w)) \/
                                    In (Visit m (Some (o, k))) (f_sent f)).
      { destruct K as [K|K]; apply in_app_iff in K as [K|K]; [left; left; apply in_or_app; left; exact K| |left; right; apply in_or_app; left; exact K|];
        apply in_app_iff in K as [K|K]; [right; exact K|left; left; apply in_or_app; right; exact K| |left; right; apply in_or_app; right; exact K].
        exfalso.
        apply FP in K as [[t K]|(o' & k' & y & u & K & _)]; discriminate. }
      destruct K' as [K'|K'].
      + destruct (CD m o k K') as (Q1 & y & u & Q2). split; [apply OLDS; exact Q1|]. exists y, u. apply in_or_app. right. apply in_or_app. right. auto.
      + apply FP in K' as [[t K']|(o' & k' & y & u & K' & Q)]; [discriminate|]. injection K' as -> -> ->. destruct Q as [[-> Q]|[-> Q]].
        * split; [left; left; reflexivity|]. exists y, u. apply in_or_app. left. apply in_map. exact Q.
        * split; [right; exact FR|]. exists y, u. apply in_or_app. right. apply in_or_app. left. apply in_map. exact Q.
    - intros o k y u K. apply in_app_iff in K as [K|K].
      + apply in_map_iff in K as [e [K _]]. injection K as <- _. left. left. left. reflexivity.
      + apply in_app_iff in K as [K|K].
        * apply in_map_iff in K as [e [K _]]. injection K as <- _. left. right. exact FR.
        * apply in_not_of in K as [K _]. apply EN in K as [K|K]; auto. left. apply OLDS. exact K.
    - intros o e K. apply in_app_iff in K as [K|K].
      + apply in_map_iff in K as [e' [K _]]. injection K as <- _. left. left. reflexivity.
      + apply in_app_iff in K as [K|K].
        * apply in_map_iff in K as [e' [K K']]. injection K as <- _. destruct FCR as [t FCR].
          -- left. destruct (f_copied f); [destruct K'|discriminate].
          -- right. exists t. simpl. rewrite !in_app_iff. auto.
        * apply in_not_of in K as [K _]. apply OW in K. auto.
    - intros o e K. rewrite !in_app_iff in K. assert (K' : In (Connect o e) (P ++ flight w)).
      { apply in_or_app. destruct K as [K|[K|K]]; auto. exfalso. apply FP in K as [[t K]|(o' & k' & y & u & K & _)]; discriminate. }
      apply CO in K' as [K1 K2]. split; auto. apply OLDS. exact K1.
  Qed.

  (** an edge is given another label and perhaps another terminus, and at most one packet is sent *)
  Lemma relabel_live : forall n o k w l lk s y v y' v' rest new,
    live [Visit n (Some (o, k))] w -> errs w l = false -> Permutation (edges w) ((o, (k, y, v)) :: rest) ->
    settled s (lk ++ vals (map snd (nodes w)) ++ vals (olds w) ++ opt v' ++ elabels rest ++ pvals (new ++ flight w)) ->
    length lk <= erring w -> (lk <> [] -> lossy) -> steady (enter w l) s ->
    (new = [] \/ new = [Disconnect o k] \/ exists e, new = [Connect o e] /\ next (common w) <= fst (fst e) < next s) ->
    live [] (set_edges ((o, (k, y', v')) :: rest) (set_flight (new ++ flight w) (leave w l s))).
  Proof.
    intros n o k w l lk s y v y' v' rest new L EL PE SE LE LK (T1 & T2 & T3) NEW.
    destruct L as [OP FA _ DI WI NO FR VI NU BO CA CD EN OW CO]. simpl in T3.
    assert (OO : old w o) by (destruct (CD n o k) as [K _]; [left; left; reflexivity|exact K]).
    assert (KO : known [] w o).
    { destruct (OW o (k, y, v)) as [K|[u [K|K]]]; [eapply Permutation_in; [apply Permutation_sym; exact PE|left; reflexivity]|left; exact K|discriminate K|].
      right. exists u. exact K. }
    assert (KN : forall x, known [Visit n (Some (o, k))] w x -> known [] (set_edges ((o, (k, y', v')) :: rest) (set_flight (new ++ flight w) (leave w l s))) x).
    { intros x [K|[u [K|K]]]; [left; exact K|discriminate K|]. right. exists u. simpl. apply in_or_app. right. exact K. }
    assert (INR : forall x, In x rest -> In x (edges w)) by (intros x K; eapply Permutation_in; [apply Permutation_sym; exact PE|right; exact K]).
    assert (NUM : Permutation (numbers (edges w)) (k :: numbers rest)) by (exact (numbers_perm PE)).
    simpl in NU, BO, CA. unfold atts, cars in NU, BO, CA. simpl in NU, BO, CA. fold (atts (flight w)) in NU, BO. fold (cars (flight w)) in CA.
    assert (NU' : NoDup (k :: numbers rest ++ atts (flight w))) by (eapply Permutation_NoDup; [|exact NU]; exact (Permutation_app_tail _ NUM)).
    assert (BO' : forall j, In j (k :: numbers rest ++ atts (flight w)) -> j < next (common w)).
    { intros j K. apply BO. eapply Permutation_in; [apply Permutation_sym; exact (Permutation_app_tail (atts (flight w)) NUM)|exact K]. }
    inversion CA as [|? ? CA1 CA2]. subst.
    assert (CD' : forall m a j, In (Visit m (Some (a, j))) (flight w) \/ In (Disconnect a j) (flight w) ->
              old w a /\ exists z u, In (a, (j, z, u)) rest).
    { intros m a j K. destruct (CD m a j) as (Q1 & z & u & Q2).
      - destruct K as [K|K]; [left; right; exact K|right; right; exact K].
      - split; auto. exists z, u. eapply Permutation_in in Q2; [|exact PE]. destruct Q2 as [Q2|Q2]; auto. exfalso. injection Q2 as -> -> _ _.
        apply CA1. unfold cars. apply in_flat_map. destruct K as [K|K]; [exists (Visit m (Some (a, j)))|exists (Disconnect a j)]; split; auto; left; reflexivity. }
    constructor; simpl; auto.
    - exists lk. split; [|split; auto].
      + eapply settled_perm; [exact SE|]. intros j. rewrite !count_occ_app, occ_held. simpl. unfold elabels. simpl. rewrite !count_occ_app. lia.
      + etransitivity; [exact LE|]. apply erring_leave. congruence.
    - intros m b K. apply in_app_iff in K as [K|K]; [|apply (VI m b); right; exact K].
      destruct NEW as [->|[->|(e & -> & _)]]; [destruct K|destruct K as [K|[]]; discriminate|destruct K as [K|[]]; discriminate].
    - unfold atts. rewrite flat_map_app. fold (atts (flight w)). destruct NEW as [->|[->|(e & -> & Q)]]; simpl; auto.
      apply nodup_mid with (a := k :: numbers rest). constructor; auto. intros K. apply BO' in K. lia.
    - intros j K. unfold atts in K. rewrite flat_map_app in K. fold (atts (flight w)) in K.
      assert (Q : In j (k :: numbers rest ++ atts (flight w)) \/ j < next s).
      { destruct NEW as [->|[->|(e & -> & Q)]]; simpl in K; auto. simpl. rewrite !in_app_iff in *. simpl in K. intuition lia. }
      destruct Q as [Q|Q]; auto. apply BO' in Q. lia.
    - unfold cars. rewrite flat_map_app. fold (cars (flight w)). destruct NEW as [->|[->|(e & -> & _)]]; simpl; auto.
    - intros m a j K. assert (K' : (In (Visit m (Some (a, j))) (flight w) \/ In (Disconnect a j) (flight w)) \/ (a = o /\ j = k)).
      { rewrite !in_app_iff in K. destruct NEW as [->|[->|(e & -> & _)]]; simpl in K; intuition (try discriminate).
        right. injection H as -> ->. auto. }
      destruct K' as [K'|[-> ->]].
      + apply CD' in K' as (Q1 & z & u & Q2). split; auto. exists z, u. auto.
      + split; auto. exists y', v'. auto.
    - intros a j z u [K|K]; [injection K as <- _ _ _; left; exact OO|]. apply INR in K. apply EN in K. exact K.
    - intros a e [K|K]; [injection K as <- _; destruct KO as [KO|[u KO]]; [left; exact KO|right; exists u; simpl; apply in_or_app; right; exact KO]|].
      apply INR in K. apply OW in K. auto.
    - intros a e K. apply in_app_iff in K as [K|K].
      + destruct NEW as [->|[->|(e' & -> & _)]]; [destruct K|destruct K as [K|[]]; discriminate|]. destruct K as [K|[]]. injection K as <- _. split; auto.
        destruct KO as [KO|[u KO]]; [left; exact KO|right; exists u; simpl; right; exact KO].
      + destruct (CO a e) as [Q1 Q2]; [right; exact K|]. auto.
  Qed.

  Lemma visit_in_live : forall n b l w, live [Visit n b] w -> live [] (visit_in heap reserve euser puser dies n b l w).
  Proof.
    intros n b l w L. unfold visit_in. destruct (errs w l) eqn:EL; [eapply live_drop; [|exact L]; exact I|].
    destruct (dopple w n) as [c|]; [|eapply live_drop; [|exact L]; exact I]. destruct b as [[o k]|]; [|eapply live_drop; [|exact L]; exact I].
    destruct (lv_carried L n o k) as (OO & y0 & u0 & IE); [left; left; reflexivity|].
    destruct (@take_some k (edges w) o y0 u0 IE) as (x & rest & TK). rewrite TK. apply take_perm in TK as [PE NX].
    assert (XE : x = (o, (k, y0, u0))).
    { apply unique_number with (es := edges w) (k := k); auto.
      - apply (nodup_app_inv _ _ (lv_numbers L)).
      - eapply Permutation_in; [apply Permutation_sym; exact PE|left; reflexivity]. }
    subst x. destruct (lv_settled L) as (lk & SE & LE & LK).
    destruct (labelers euser puser (enter w l)) as [[[[ac al] cc] cl] s1] eqn:A.
    apply labelers_spec with (F := lk ++ held w ++ pvals (flight w)) in A; [|exact SE]. destruct A as (S1 & T1 & NA & NC).
    set (s2 := destroy dies u0 s1) in *.
    assert (S2 : settled s2 (opt al ++ opt cl ++ lk ++ vals (map snd (nodes w)) ++ vals (olds w) ++ elabels rest ++ pvals (flight w))).
    { apply destroy_settled. eapply settled_perm; [exact S1|]. intros j. rewrite !count_occ_app, occ_held, (elabels_perm j PE).
      unfold elabels. simpl. rewrite !count_occ_app. lia. }
    assert (T2 : steady (enter w l) s2) by (eapply steady_trans; [exact T1|apply destroy_steady]).
    assert (GO : forall s y' v' new,
              settled s (lk ++ vals (map snd (nodes w)) ++ vals (olds w) ++ opt v' ++ elabels rest ++ pvals (new ++ flight w)) ->
              steady (enter w l) s ->
              (new = [] \/ new = [Disconnect o k] \/ exists e, new = [Connect o e] /\ next (common w) <= fst (fst e) < next s) ->
              live [] (set_edges ((o, (k, y', v')) :: rest) (set_flight (new ++ flight w) (leave w l s)))).
    { intros s y' v' new Ss Ts NEW. eapply relabel_live; eauto. }
    destruct ac, cc.
    - destruct (new_edge heap dies c cl s2) as [e s3] eqn:B. pose proof (new_edge_next _ _ _ _ _ B) as [T3 X3].
      apply new_edge_spec with (F := opt al ++ lk ++ vals (map snd (nodes w)) ++ vals (olds w) ++ elabels rest ++ pvals (flight w)) in B.
      2:{ eapply settled_perm; [exact S2|]. intros j. rewrite !count_occ_app. lia. }
      destruct B as (S3 & _ & _). assert (TT3 : steady (enter w l) s3) by (eapply steady_trans; eassumption).
      destruct e as [e|].
      + destruct X3 as [-> X3]. destruct (packet heap reserve s3) as [b s4] eqn:D. pose proof (packet_steady _ _ _ D) as T4.
        apply packet_idle in D as [D _]. pose proof (idle_settled D S3) as S4.
        assert (TT4 : steady (enter w l) s4) by (eapply steady_trans; eassumption). destruct b.
        * apply (GO s4 y0 al [Connect o (next s2, c, cl)]); auto.
          -- eapply settled_perm; [exact S4|]. intros j. unfold pvals, labels. simpl. rewrite app_nil_r, !count_occ_app. lia.
          -- right. right. exists (next s2, c, cl). split; auto. simpl. destruct T2 as (_ & _ & T2). simpl in T2. destruct T4 as (_ & _ & T4). lia.
        * apply (GO (destroy dies cl s4) y0 al []); auto.
          -- apply destroy_settled. eapply settled_perm; [exact S4|]. intros j. unfold labels. simpl. rewrite app_nil_r, !count_occ_app. lia.
          -- eapply steady_trans; [exact TT4|apply destroy_steady].
      + apply (GO s3 y0 al []); auto. eapply settled_perm; [exact S3|]. intros j. unfold labels. simpl. rewrite !count_occ_app. lia.
    - rewrite (NC eq_refl) in S2. apply (GO s2 y0 al []); auto. eapply settled_perm; [exact S2|]. intros j. simpl. rewrite !count_occ_app. lia.
    - rewrite (NA eq_refl) in S2. apply (GO s2 c cl []); auto. eapply settled_perm; [exact S2|]. intros j. simpl. rewrite !count_occ_app. lia.
    - rewrite (NA eq_refl), (NC eq_refl) in S2. destruct (packet heap reserve s2) as [b s4] eqn:D. pose proof (packet_steady _ _ _ D) as T4.
      apply packet_idle in D as [D _]. pose proof (idle_settled D S2) as S4.
      assert (TT4 : steady (enter w l) s4) by (eapply steady_trans; eassumption). destruct b.
      + apply (GO s4 y0 None [Disconnect o k]); auto.
      + apply (GO s4 y0 None []); auto.
  Qed.

  (** the state of a worker changes only *)
  Lemma state_live : forall P w l s, live P w -> (errs w l = true -> err s = true) -> made s = made (common w) -> dead s = dead (common w) ->
    next s = next (common w) -> live P (leave w l s).
  Proof.
    intros P w l s L E M D X. destruct L as [OP FA (lk & SE & LE & LK) DI WI NO FR VI NU BO CA CD EN OW CO]. constructor; simpl; auto.
    - exists lk. split; [|split; auto].
      + intros k. rewrite M, D. exact (SE k).
      + etransitivity; [exact LE|]. apply erring_leave. exact E.
    - unfold distinct. rewrite M. exact DI.
    - rewrite X. exact BO.
  Qed.

  Lemma create_live : forall c v w, live [Create c v] w -> live [] (set_nodes ((c, v) :: nodes w) w).
  Proof.
    intros c v w L. destruct L as [OP FA (lk & SE & LE & LK) DI WI NO FR VI NU BO CA CD EN OW CO].
    assert (KN : forall x, known [Create c v] w x -> known [] (set_nodes ((c, v) :: nodes w) w) x).
    { intros x [K|[u [K|K]]]; [left; right; exact K|injection K as <- _; left; left; reflexivity|]. right. exists u. exact K. }
    constructor; simpl; auto.
    - exists lk. split; [|split; auto]. eapply settled_perm; [exact SE|]. intros k. rewrite !count_occ_app, !occ_held. unfold pvals. simpl.
      rewrite !count_occ_app. lia.
    - intros n b K. apply (VI n b). right. exact K.
    - intros n s k [K|K]; apply (CD n); [left|right]; right; exact K.
    - intros o e K. apply KN. exact (OW o e K).
    - intros o e K. destruct (CO o e (or_intror K)) as [K1 K2]. auto.
  Qed.

  Lemma connect_live : forall n e w, live [Connect n e] w -> live [] (set_edges ((n, e) :: edges w) w).
  Proof.
    intros n e w L. destruct L as [OP FA (lk & SE & LE & LK) DI WI NO FR VI NU BO CA CD EN OW CO].
    destruct (CO n e (or_introl eq_refl)) as [ON KNO].
    assert (KN : forall x, known [Connect n e] w x -> known [] (set_edges ((n, e) :: edges w) w) x).
    { intros x [K|[u [K|K]]]; [left; exact K|discriminate K|]. right. exists u. exact K. }
    assert (AP : Permutation (numbers (edges w) ++ atts ([Connect n e] ++ flight w)) (numbers ((n, e) :: edges w) ++ atts (flight w))).
    { unfold atts. simpl. apply Permutation_sym. apply Permutation_middle. }
    constructor; simpl; auto.
    - exists lk. split; [|split; auto]. eapply settled_perm; [exact SE|]. intros k. rewrite !count_occ_app, !occ_held. unfold pvals, elabels. simpl.
      rewrite !count_occ_app. lia.
    - intros m b K. apply (VI m b). right. exact K.
    - eapply Permutation_NoDup; [exact AP|exact NU].
    - intros k K. apply BO. eapply Permutation_in; [apply Permutation_sym; exact AP|exact K].
    - intros m s k K. destruct (CD m s k) as (Q1 & y & l & Q2).
      + destruct K as [K|K]; [left|right]; right; exact K.
      + split; auto. exists y, l. auto.
    - intros o k y l [K|K]; [injection K as <- _; left; exact ON|]. exact (EN o k y l K).
    - intros o e' [K|K]; [injection K as <- _; auto|]. apply KN. exact (OW o e' K).
    - intros o e' K. destruct (CO o e' (or_intror K)) as [K1 K2]. auto.
  Qed.

  Lemma connect_drop_live : forall n e l w, live [Connect n e] w -> live [] (leave w l (destroy dies (label_of e) (enter w l))).
  Proof.
    intros n e l w L. destruct L as [OP FA (lk & SE & LE & LK) DI WI NO FR VI NU BO CA CD EN OW CO].
    destruct (destroy_same dies (label_of e) (enter w l)) as (D1 & D2 & _). destruct (destroy_steady dies (label_of e) (enter w l)) as (_ & _ & D3).
    set (s := destroy dies (label_of e) (enter w l)) in *.
    assert (KN : forall x, known [Connect n e] w x -> known [] (leave w l s) x).
    { intros x [K|[u [K|K]]]; [left; exact K|discriminate K|]. right. exists u. exact K. }
    unfold atts in NU, BO. simpl in NU, BO. fold (atts (flight w)) in NU, BO. simpl in D1.
    constructor; simpl; auto.
    - exists lk. split; [|split; auto].
      + apply destroy_settled. eapply settled_perm; [exact SE|]. intros k. rewrite !count_occ_app. unfold pvals, held, label_of. simpl.
        rewrite !count_occ_app. lia.
      + etransitivity; [exact LE|]. apply erring_leave. exact D2.
    - unfold distinct. rewrite D1. exact DI.
    - intros m b K. apply (VI m b). right. exact K.
    - apply nodup_mid in NU. inversion NU. assumption.
    - intros k K. assert (k < next (common w)); [|simpl in D3; lia]. apply BO. apply in_app_iff in K. apply in_or_app. simpl. tauto.
    - intros m s' k [K|K]; apply (CD m); [left|right]; right; exact K.
    - intros o e' K. apply KN. exact (OW o e' K).
    - intros o e' K. destruct (CO o e' (or_intror K)) as [K1 K2]. auto.
  Qed.

  Lemma disconnect_live : forall n k e rest l w, live [Disconnect n k] w -> Permutation (edges w) ((n, e) :: rest) -> fst (fst e) = k ->
    live [] (set_edges rest (leave w l (destroy dies (label_of e) (enter w l)))).
  Proof.
    intros n k e rest l w L PE EK. destruct L as [OP FA (lk & SE & LE & LK) DI WI NO FR VI NU BO CA CD EN OW CO].
    destruct (destroy_same dies (label_of e) (enter w l)) as (D1 & D2 & _). destruct (destroy_steady dies (label_of e) (enter w l)) as (_ & _ & D3).
    set (s := destroy dies (label_of e) (enter w l)) in *. simpl in D1, D3.
    assert (KN : forall x, known [Disconnect n k] w x -> known [] (set_edges rest (leave w l s)) x).
    { intros x [K|[u [K|K]]]; [left; exact K|discriminate K|]. right. exists u. exact K. }
    assert (INR : forall x, In x rest -> In x (edges w)) by (intros x K; eapply Permutation_in; [apply Permutation_sym; exact PE|right; exact K]).
    assert (NUM : Permutation (numbers (edges w)) (k :: numbers rest)).
    { etransitivity; [exact (numbers_perm PE)|]. simpl. rewrite EK. reflexivity. }
    unfold atts in NU, BO. simpl in NU, BO. fold (atts (flight w)) in NU, BO. unfold cars in CA. simpl in CA. fold (cars (flight w)) in CA.
    inversion CA as [|? ? CA1 CA2]. subst.
    assert (NU' : NoDup (fst (fst e) :: numbers rest ++ atts (flight w))) by (eapply Permutation_NoDup; [|exact NU]; exact (Permutation_app_tail _ NUM)).
    constructor; simpl; auto.
    - exists lk. split; [|split; auto].
      + apply destroy_settled. eapply settled_perm; [exact SE|]. intros j. rewrite !count_occ_app, !occ_held, (elabels_perm j PE).
        unfold pvals, label_of, elabels. simpl. rewrite !count_occ_app. lia.
      + etransitivity; [exact LE|]. apply erring_leave. exact D2.
    - unfold distinct. rewrite D1. exact DI.
    - intros m b K. apply (VI m b). right. exact K.
    - inversion NU'. assumption.
    - intros j K. assert (j < next (common w)); [|lia]. apply BO. apply in_app_iff in K. apply in_or_app. destruct K as [K|K]; auto. left.
      eapply Permutation_in; [apply Permutation_sym; exact NUM|right; exact K].
    - intros m a j K. destruct (CD m a j) as (Q1 & z & u & Q2).
      + destruct K as [K|K]; [left; right; exact K|right; right; exact K].
      + split; auto. exists z, u. eapply Permutation_in in Q2; [|exact PE]. destruct Q2 as [Q2|Q2]; auto. exfalso. injection Q2 as _ ->. simpl in CA1.
        apply CA1. unfold cars. apply in_flat_map. destruct K as [K|K]; [exists (Visit m (Some (a, j)))|exists (Disconnect a j)]; split; auto; left; reflexivity.
    - intros a j z u K. apply INR in K. exact (EN a j z u K).
    - intros a e' K. apply INR in K. apply KN. exact (OW a e' K).
    - intros a e' K. destruct (CO a e' (or_intror K)) as [K1 K2]. auto.
  Qed.

  Lemma visit_in_open : forall P w, live P w -> concluded w = false.
  Proof. intros P w L. apply (lv_open L). Qed.

  Lemma conclude_final : forall w other keep, live [] w -> flight w = [] ->
    let bad := existsb (fun l => errs w l || killed w l) (seq 0 lanes) || other in
    let kept (x : nat) := negb bad && keep x in
    let gone := filter (fun x => negb (kept (fst x))) (nodes w) in
    final (mkWorld (destroy_all dies (olds w ++ map snd gone)
                   (destroy_all dies (map (fun e => label_of (snd e)) (filter (node_in gone) (edges w))) (common w)))
                 (errs w) (killed w) [] (seen w) (dopple w) (fresh w) (filter (fun x => kept (fst x)) (nodes w)) []
                 (filter (fun x => negb (node_in gone x)) (edges w)) (wild w) true bad).
  Proof.
    intros w other keep L FL bad kept gone. destruct L as [OP FA (lk & SE & LE & LK) DI WI NO FR VI NU BO CA CD EN OW CO].
    assert (M : made (destroy_all dies (olds w ++ map snd gone)
                   (destroy_all dies (map (fun e => label_of (snd e)) (filter (node_in gone) (edges w))) (common w))) = made (common w)).
    { destruct (destroy_all_same dies (map (fun e => label_of (snd e)) (filter (node_in gone) (edges w))) (common w)) as (A & _).
      match goal with |- made (destroy_all dies ?vs ?s) = _ => destruct (destroy_all_same dies vs s) as (B & _) end. congruence. }
    split; [reflexivity|]. split; [reflexivity|]. split; [reflexivity|]. split; [exact WI|]. split; [unfold distinct; simpl; rewrite M; exact DI|]. split.
    - simpl. intros B. assert (G : gone = nodes w).
      { unfold gone, kept. rewrite B. simpl. clear. induction (nodes w) as [|a l IH]; auto. simpl. rewrite IH. reflexivity. }
      split.
      + unfold kept. rewrite B. simpl. clear. induction (nodes w); auto.
      + rewrite G. assert (H : forall x, In x (edges w) -> node_in (nodes w) x = true).
        { intros [o e] K. apply OW in K as [K|[v K]]; [|rewrite FL in K; destruct K]. unfold node_in. apply existsb_exists.
          apply in_map_iff in K as [[o' v] [<- K]]. exists (o', v). split; auto. simpl. apply Nat.eqb_refl. }
        clear -H. induction (edges w) as [|x l IH]; auto. simpl. rewrite (H x) by (left; reflexivity). simpl. apply IH. intros y K. apply H. right. exact K.
    - exists lk. split; [|split; auto]. simpl. apply destroy_all_settled. apply destroy_all_settled.
      rewrite FL in SE. unfold pvals in SE. simpl in SE. eapply settled_perm; [exact SE|]. intros k.
      change (vals (map (fun e => label_of (snd e)) (filter (node_in gone) (edges w)))) with (elabels (filter (node_in gone) (edges w))).
      rewrite vals_app, !count_occ_app, !occ_held. simpl.
      pose proof (split_occ snd (fun x => kept (fst x)) (nodes w) k) as V. unfold others in V. fold gone in V.
      pose proof (split_elabels (node_in gone) (edges w) k) as W. unfold others in W. lia.
  Qed.

  Lemma step_live : forall w w', live [] w -> step heap reserve vuser euser puser dies proper lane lanes w w' -> live [] w' \/ final w'.
  Proof.
    intros w w' L T. destruct T.
    - left. assert (L1 : live [p] (set_flight (f1 ++ f2) w)).
      { eapply live_perm; [|exact L]. simpl. rewrite H. apply Permutation_sym. apply Permutation_middle. }
      unfold dropped. destruct p as [n b|c v|n e|n k].
      + eapply live_drop; [|exact L1]. exact I.
      + exact (create_live L1).
      + eapply connect_drop_live. exact L1.
      + eapply live_drop; [|exact L1]. exact I.
    - left. assert (L1 : live [p] (set_flight (f1 ++ f2) w)).
      { eapply live_perm; [|exact L]. simpl. rewrite H. apply Permutation_sym. apply Permutation_middle. }
      apply orb_false_iff in H1 as [H1 _]. unfold handled. destruct p as [n b|c v|n e|n k].
      + apply visit_in_live. apply visit_out_live; auto. apply (lv_visits L1 n b). left. reflexivity.
      + destruct over.
        * apply (@create_live c v (leave (set_flight (f1 ++ f2) w) (lane (receiver (Create c v))) (fail (enter (set_flight (f1 ++ f2) w) (lane (receiver (Create c v))))))).
          apply state_live; auto.
        * exact (create_live L1).
      + exact (connect_live L1).
      + destruct (lv_carried L1 0 n k) as (_ & y & u & IE); [right; left; reflexivity|].
        destruct (@take_some k _ n y u IE) as (x & rest & TK). rewrite TK. apply take_perm in TK as [PE NX].
        assert (XE : x = (n, (k, y, u))).
        { apply unique_number with (es := edges (set_flight (f1 ++ f2) w)) (k := k); auto.
          - apply (nodup_app_inv _ _ (lv_numbers L1)).
          - eapply Permutation_in; [apply Permutation_sym; exact PE|left; reflexivity]. }
        subst x. rewrite Nat.eqb_refl. eapply disconnect_live; eauto.
    - left. apply state_live; auto.
    - left. destruct L as [OP FA SE DI WI NO FR VI NU BO CA CD EN OW CO]. constructor; auto.
    - right. apply conclude_final; auto.
  Qed.

  Lemma seq_fst : forall (ns : list (option nat)) a, map fst (combine (seq a (length ns)) ns) = seq a (length ns).
  Proof. induction ns as [|v ns IH]; intros a; simpl; auto. rewrite IH. reflexivity. Qed.
  Lemma seq_snd : forall (ns : list (option nat)) a, map snd (combine (seq a (length ns)) ns) = ns.
  Proof. induction ns as [|v ns IH]; intros a; simpl; auto. rewrite IH. reflexivity. Qed.
End World.

(** A graph: its vertices and labels are distinct and there are no other values, and edges are numbered and connect its nodes. *)
Record graph (values : list nat) (ns : list (option nat)) (es : list (nat * edge)) (links base : nat) : Prop := Graph {
  gr_values : Permutation values (vals ns ++ vals (map (fun e => snd (snd e)) es));
  gr_distinct : NoDup values;
  gr_known : forall v, In v values -> v < length values;
  gr_base : base < length ns;
  gr_numbers : NoDup (map (fun e => fst (fst (snd e))) es);
  gr_edges : forall o k y l, In (o, (k, y, l)) es -> o < length ns /\ y < length ns /\ k < links
}.

Section Reached.
  Variable heap reserve : nat -> bool.
  Variable vuser euser puser : nat -> bool * bool.
  Variable dies proper : nat -> bool.
  Variable lane : nat -> nat.
  Variable lanes : nat.
  Hypothesis bounded : forall x, lane x < lanes.

  Lemma begin_live : forall values ns es links base, graph values ns es links base ->
    live vuser lanes (length ns) [] (begin values ns es links base).
  Proof.
    intros values ns es links base [GV GD GK GB GN GE]. constructor; simpl.
    - reflexivity.
    - reflexivity.
    - exists []. split; [|split; [simpl; lia|intros K; contradiction]]. intros k. simpl. unfold held. simpl. rewrite seq_snd, app_nil_r.
      rewrite (proj1 (Permutation_count_occ Nat.eq_dec _ _) GV). reflexivity.
    - split; auto.
    - reflexivity.
    - intros n K. rewrite seq_fst. apply in_seq. lia.
    - lia.
    - intros n b [K|[]]. injection K as <- _. exact GB.
    - unfold atts. simpl. rewrite app_nil_r. exact GN.
    - intros k K. unfold atts in K. simpl in K. rewrite app_nil_r in K. apply in_map_iff in K as [[o [[j y] l]] [<- K]]. apply GE in K. apply K.
    - constructor.
    - intros n s k [[K|[]]|[K|[]]]; discriminate.
    - intros o k y l K. right. apply GE in K. apply K.
    - intros o [[k y] l] K. left. simpl. rewrite seq_fst. apply in_seq. apply GE in K. lia.
    - intros o e [K|[]]. discriminate.
  Qed.

  Lemma reached : forall values ns es links base w, graph values ns es links base ->
    reaches heap reserve vuser euser puser dies proper lane lanes values ns es links base w ->
    live vuser lanes (length ns) [] w \/ final vuser lanes w.
  Proof.
    intros values ns es links base w G R. induction R.
    - left. apply begin_live. exact G.
    - destruct IHR as [L|F]; [eapply step_live; eauto|]. destruct F as [F _]. destruct H; congruence.
  Qed.
End Reached.

(** At any time, all vertices and labels in the graph or returned by user defined functions are destroyed exactly once, in the graph
    or in packets, or lost.  Some are lost only if a function returns a vertex along with an error, and no more than one for each worker
    with an error. *)
Theorem C108_accounted : forall heap reserve vuser euser puser dies proper lane lanes values ns es links base w, (forall x, lane x < lanes) ->
  graph values ns es links base ->
  reaches heap reserve vuser euser puser dies proper lane lanes values ns es links base w ->
  NoDup (made (common w)) /\
  exists lost, Permutation (made (common w)) (dead (common w) ++ held w ++ pvals (flight w) ++ lost) /\
    length lost <= length (filter (errs w) (seq 0 lanes)) /\ (lost <> [] -> exists n, vuser n = (false, true)).
Proof.
  intros heap reserve vuser euser puser dies proper lane lanes values ns es links base w B G R. apply reached in R; auto.
  destruct R as [L|(F1 & F0 & F2 & F3 & [F4 _] & F5 & lk & SE & LE & LK)].
  - destruct (lv_settled L) as (lk & SE & LE & LK). split; [apply (lv_distinct L)|]. exists lk. split; [|split; auto].
    apply occ_perm. intros v. rewrite (SE v). rewrite !count_occ_app. simpl. lia.
  - split; auto. exists lk. split; [|split; auto].
    apply occ_perm. intros v. rewrite (SE v), F0. unfold pvals. simpl. rewrite !count_occ_app. lia.
Qed.

(** If none does so, nothing is lost.  After a failure, everything is destroyed exactly once, and otherwise, whatever is not destroyed
    belongs to the nodes retained and their edges. *)
Theorem C108_decent : forall heap reserve vuser euser puser dies proper lane lanes values ns es links base w, (forall x, lane x < lanes) ->
  graph values ns es links base -> (forall n, snd (vuser n) = true -> fst (vuser n) = true) ->
  reaches heap reserve vuser euser puser dies proper lane lanes values ns es links base w -> concluded w = true ->
  NoDup (dead (common w)) /\ olds w = [] /\
  if failed w then Permutation (dead (common w)) (made (common w)) /\ nodes w = [] /\ edges w = []
  else Permutation (made (common w)) (dead (common w) ++ vals (map snd (nodes w)) ++ vals (map (fun e => snd (snd e)) (edges w))).
Proof.
  intros heap reserve vuser euser puser dies proper lane lanes values ns es links base w B G DC R C. apply reached in R; auto.
  destruct R as [L|(F1 & F0 & F2 & F3 & [F4 _] & F5 & lk & SE & LE & LK)]; [rewrite (lv_open L) in C; discriminate|].
  assert (lk = []) as ->.
  { destruct lk as [|k lk]; auto. destruct LK as [n N]; [discriminate|]. specialize (DC n). rewrite N in DC. discriminate (DC eq_refl). }
  assert (P : Permutation (made (common w)) (dead (common w) ++ held w)).
  { apply occ_perm. intros v. rewrite (SE v), !count_occ_app. simpl. lia. }
  assert (ND : NoDup (dead (common w) ++ held w)) by (eapply Permutation_NoDup; eauto).
  split; [apply (nodup_app_inv _ _ ND)|]. split; auto. unfold held in P. rewrite F2 in P. simpl in P. destruct (failed w); auto.
  destruct (F5 eq_refl) as [V D]. split; auto. rewrite V, D in P. simpl in P. rewrite app_nil_r in P. apply Permutation_sym. exact P.
Qed.

(** No worker gets to see a carrier or a receiver that doesn't exist any more, and carriers in packets are edges of their senders.  No
    carrier is in two packets. *)
Theorem C108_carriers : forall heap reserve vuser euser puser dies proper lane lanes values ns es links base w, (forall x, lane x < lanes) ->
  graph values ns es links base ->
  reaches heap reserve vuser euser puser dies proper lane lanes values ns es links base w ->
  wild w = false /\
  (concluded w = false ->
   (forall n s k, In (Visit n (Some (s, k))) (flight w) -> n < length ns /\ exists y l, In (s, (k, y, l)) (edges w)) /\
   (forall s k, In (Disconnect s k) (flight w) -> exists y l, In (s, (k, y, l)) (edges w)) /\
   NoDup (flat_map (fun p => match p with Visit _ (Some (_, k)) => [k] | Disconnect _ k => [k] | _ => [] end) (flight w)) /\
   NoDup (map (fun e => fst (fst (snd e))) (edges w))).
Proof.
  intros heap reserve vuser euser puser dies proper lane lanes values ns es links base w B G R. apply reached in R; auto.
  destruct R as [L|(F1 & F0 & F2 & F3 & _)]; [|split; auto; congruence].
  split; [apply (lv_wild L)|]. intros _. split; [|split; [|split]].
  - intros n s k K. split; [eapply (lv_visits L); exact K|]. destruct (lv_carried L n s k (or_introl K)) as [_ X]. exact X.
  - intros s k K. destruct (lv_carried L 0 s k (or_intror K)) as [_ X]. exact X.
  - exact (lv_cars L).
  - exact (proj1 (nodup_app_inv _ _ (lv_numbers L))).
Qed.

(** * Examples *)

Section Play.
  Variable heap reserve : nat -> bool.
  Variable vuser euser puser : nat -> bool * bool.
  Variable dies proper : nat -> bool.
  Variable lane : nat -> nat.
  Variable lanes : nat.

  Inductive act := Receive (n : nat) | Kill (l : nat) | End (keep : nat -> bool).
  Definition play (a : act) (w : world) : option world :=
    if concluded w then None else
    match a with
    | Receive n =>
        match skipn n (flight w) with
        | [] => None
        | p :: f2 =>
            let f := firstn n (flight w) ++ f2 in
            let l := lane (receiver p) in
            Some (if errs w l || killed w l then dropped dies p l (set_flight f w)
                  else handled heap reserve vuser euser puser dies proper p false l (set_flight f w))
        end
    | Kill l => Some (mkWorld (common w) (errs w) (set_err l true (killed w)) (flight w) (seen w) (dopple w) (fresh w) (nodes w) (olds w)
                              (edges w) (wild w) false (failed w))
    | End keep => match flight w with
             | _ :: _ => None
             | [] =>
               let bad := existsb (fun l => errs w l || killed w l) (seq 0 lanes) || false in
               let kept (x : nat) := negb bad && keep x in
               let gone := filter (fun x => negb (kept (fst x))) (nodes w) in
               Some (mkWorld (destroy_all dies (olds w ++ map snd gone)
                               (destroy_all dies (map (fun e => label_of (snd e)) (filter (node_in gone) (edges w))) (common w)))
                             (errs w) (killed w) [] (seen w) (dopple w) (fresh w) (filter (fun x => kept (fst x)) (nodes w)) []
                             (filter (fun x => negb (node_in gone x)) (edges w)) (wild w) true bad)
             end
    end.

  Lemma play_step : forall a w w', play a w = Some w' -> step heap reserve vuser euser puser dies proper lane lanes w w'.
  Proof.
    intros a w w' P. unfold play in P. destruct (concluded w) eqn:C; [discriminate|]. destruct a as [n|l|keep].
    - destruct (skipn n (flight w)) as [|p f2] eqn:K; [discriminate|].
      assert (FL : flight w = firstn n (flight w) ++ p :: f2) by (rewrite <- K; symmetry; apply firstn_skipn).
      destruct (errs w (lane (receiver p)) || killed w (lane (receiver p))) eqn:B; injection P as <-.
      + apply drop_step; auto.
      + apply handle_step; auto.
    - injection P as <-. rewrite <- C. apply kill_step; auto.
    - destruct (flight w) eqn:F; [|discriminate]. injection P as <-. apply conclude_step; auto.
  Qed.

  Fixpoint plays (l : list act) (w : world) : option world :=
    match l with [] => Some w | a :: l => match play a w with Some w' => plays l w' | None => None end end.

  Lemma plays_reach : forall values ns es links base l w w',
    reaches heap reserve vuser euser puser dies proper lane lanes values ns es links base w -> plays l w = Some w' ->
    reaches heap reserve vuser euser puser dies proper lane lanes values ns es links base w'.
  Proof.
    intros values ns es links base. induction l as [|a l IH]; intros w w' R P; simpl in P; [injection P as <-; exact R|].
    destruct (play a w) as [w1|] eqn:E; [|discriminate]. eapply IH; [|exact P]. eapply reaches_step; [exact R|]. apply play_step with a. exact E.
  Qed.
End Play.

Definition summary (w : option world) : option (list nat * list nat * list nat * list pkt * (bool * bool * bool)) :=
  match w with
  | Some w => Some (made (common w), dead (common w), held w, flight w, (concluded w, failed w, wild w))
  | None => None
  end.
Definition always (n : nat) := true.
Definition never (n : nat) := false.
Definition value (n : nat) := (false, false).     (* a value and no error *)
Definition yes (n : nat) := (true, false).
Definition upto (t : nat) (n : nat) := n <? t.    (* memory until some time *)
Definition even_odd (x : nat) := x mod 2.

(** two nodes with vertices 0 and 1 and an edge either way with labels 2 and 3 *)
Definition two_ns := [Some 0; Some 1].
Definition two_es : list (nat * edge) := [(0, (0, 1, Some 2)); (1, (1, 0, Some 3))].
Lemma two_graph : graph [0; 1; 2; 3] two_ns two_es 2 0.
Proof.
  constructor.
  - simpl. apply Permutation_refl.
  - repeat constructor; simpl; intuition discriminate.
  - simpl. intros v K. intuition lia.
  - simpl. lia.
  - repeat constructor; simpl; intuition discriminate.
  - intros o k y l [K|[K|[]]]; injection K as <- <- <- _; simpl; lia.
Qed.
Definition received n := repeat (Receive 0) n.

Lemma run_reaches : forall vuser heap puser l r,
  summary (plays heap never vuser value puser never always even_odd 2 l (begin [0; 1; 2; 3] two_ns two_es 2 0)) = Some r ->
  exists w, reaches heap never vuser value puser never always even_odd 2 [0; 1; 2; 3] two_ns two_es 2 0 w /\ summary (Some w) = Some r.
Proof.
  intros vuser heap puser l r E.
  destruct (plays heap never vuser value puser never always even_odd 2 l (begin [0; 1; 2; 3] two_ns two_es 2 0)) as [w|] eqn:K; [|discriminate].
  exists w. split; auto. eapply plays_reach; [apply reaches_begin|exact K].
Qed.

(** both nodes are split and all edges are duplicated at either end, so that there are four vertices and eight labels in the end *)
Example C108_decent_ex : exists w, reaches always never value value yes never always even_odd 2 [0; 1; 2; 3] two_ns two_es 2 0 w /\
  summary (Some w) = Some ([19; 18; 17; 16; 15; 14; 13; 12; 11; 10; 9; 8; 7; 6; 5; 4; 0; 1; 2; 3], [0; 1; 7; 11; 10; 6; 3; 2],
                           [4; 8; 9; 5; 19; 18; 17; 16; 15; 14; 13; 12], [], (true, false, false)).
Proof. apply run_reaches with (received 11 ++ [End always]). vm_compute. reflexivity. Qed.

(** memory is exhausted when a further edge is being made *)
Example C108_decent_ex2 : exists w, reaches (upto 37) never value value yes never always even_odd 2 [0; 1; 2; 3] two_ns two_es 2 0 w /\
  summary (Some w) = Some ([17; 16; 15; 14; 13; 12; 11; 10; 9; 8; 7; 6; 5; 4; 0; 1; 2; 3],
                           [5; 9; 8; 4; 0; 1; 11; 12; 13; 14; 16; 17; 7; 15; 10; 6; 3; 2], [], [], (true, true, false)).
Proof. apply run_reaches with (received 8 ++ [End always]). vm_compute. reflexivity. Qed.

(** the job is killed while a label is in a packet *)
Example C108_decent_ex3 : exists w, reaches always never value value yes never always even_odd 2 [0; 1; 2; 3] two_ns two_es 2 0 w /\
  summary (Some w) = Some ([17; 16; 15; 14; 13; 12; 11; 10; 9; 8; 7; 6; 5; 4; 0; 1; 2; 3],
                           [5; 9; 8; 4; 0; 1; 7; 12; 13; 14; 16; 17; 11; 15; 10; 6; 3; 2], [], [], (true, true, false)).
Proof. apply run_reaches with (received 3 ++ [Kill 1] ++ received 7 ++ [End always]). vm_compute. reflexivity. Qed.

(** the packets for a request to connect, three visits, and the creation of two nodes *)
Example C108_carriers_ex : exists w, reaches always never value value yes never always even_odd 2 [0; 1; 2; 3] two_ns two_es 2 0 w /\
  summary (Some w) = Some ([13; 12; 11; 10; 9; 8; 7; 6; 5; 4; 0; 1; 2; 3], [6; 3; 2], [9; 5; 1; 0; 12; 10; 11; 7],
    [Connect 0 (4, 3, Some 13); Visit 0 (Some (1, 1)); Visit 0 (Some (3, 3)); Create 3 (Some 8); Visit 1 (Some (2, 2)); Create 2 (Some 4)],
    (false, false, false)).
Proof. apply run_reaches with (received 2). vm_compute. reflexivity. Qed.

(** a request to disconnect *)
Definition early (n : nat) : bool * bool := (n <? 26, false).
Example C108_carriers_ex2 : exists w, reaches always never value value early never always even_odd 2 [0; 1; 2; 3] two_ns two_es 2 0 w /\
  summary (Some w) = Some ([11; 10; 9; 8; 7; 6; 5; 4; 0; 1; 2; 3], [11; 10; 6; 3; 2], [9; 5; 1; 0; 7],
    [Disconnect 3 3; Create 3 (Some 8); Visit 1 (Some (2, 2)); Create 2 (Some 4)], (false, false, false)).
Proof. apply run_reaches with (received 6). vm_compute. reflexivity. Qed.

(** a vertex is returned to the other worker along with an error, and is lost *)
Definition careless (n : nat) : bool * bool := (false, 20 <? n).
Example C108_accounted_ex : exists w, reaches always never careless value yes never always even_odd 2 [0; 1; 2; 3] two_ns two_es 2 0 w /\
  summary (Some w) = Some ([9; 8; 7; 6; 5; 4; 0; 1; 2; 3], [5; 1; 8; 4; 0; 7; 6; 3; 2], [], [], (true, true, false)).
Proof. apply run_reaches with (received 5 ++ [End always]). vm_compute. reflexivity. Qed.

Theorem C108_no_leak_refuted : exists heap reserve vuser euser puser dies proper lane lanes values ns es links base w v,
  (forall y, lane y < lanes) /\ graph values ns es links base /\
  reaches heap reserve vuser euser puser dies proper lane lanes values ns es links base w /\ concluded w = true /\ failed w = true /\
  In v (made (common w)) /\ ~ In v (dead (common w)) /\ ~ In v (held w) /\ flight w = [].
Proof.
  destruct C108_accounted_ex as [w [R S]]. exists always, never, careless, value, yes, never, always, even_odd, 2, [0; 1; 2; 3], two_ns, two_es, 2, 0, w, 9.
  split; [intros y; apply Nat.mod_upper_bound; discriminate|]. split; [exact two_graph|]. split; auto. unfold summary in S.
  apply (f_equal (fun q => match q with Some q => q | None => ([], [], [], [], (false, false, false)) end)) in S.
  apply pair_equal_spec in S as [S S1]. apply pair_equal_spec in S1 as [S1 S2]. apply pair_equal_spec in S1 as [S1 S6].
  apply pair_equal_spec in S as [S S0]. apply pair_equal_spec in S as [S S3]. apply pair_equal_spec in S as [S4 S5]. split; auto. split; auto.
  rewrite S3, S4, S5. simpl. intuition discriminate.
Qed.
