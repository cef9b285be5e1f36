(** Folds over edges and properties of vertices. *)
From Coq Require Import List Arith NArith Lia Bool Permutation.
From Verif Require Import Base Env Fold.
Import ListNotations.

Set Implicit Arguments.

Definition is_kind (k : kind) (p : kind * word) : bool :=
  match k, fst p with OfMap, OfMap => true | OfRed, OfRed => true | _, _ => false end.

(** The values of a kind that were produced, or destroyed. *)
Definition vals (k : kind) (l : list (kind * word)) : list word := map snd (filter (is_kind k) l).

Definition held (x : word) : list word := if is_null x then [] else [x].

Definition fresh : fst_ := mkFS None [] [].

(** Everything made has been destroyed, except what is still in hand. *)
Definition balanced (s : fst_) (inhand : list word) : Prop :=
  Permutation (vals OfMap (made s)) (vals OfMap (gone s)) /\
  Permutation (vals OfRed (made s)) (inhand ++ vals OfRed (gone s)).

Lemma raise_bal e s h : balanced s h -> balanced (raise e s) h.
Proof. intros H. exact H. Qed.

Lemma destroy_red d x s h :
  balanced s (held x ++ h) -> balanced (destroy OfRed (Some d) x s) h.
Proof.
  unfold balanced, destroy, held. destruct (is_null x); simpl; intros [A B]; split; auto.
  rewrite B. unfold vals. simpl. apply Permutation_middle.
Qed.

Lemma applied_red o s h :
  balanced s h -> balanced (snd (applied OfRed o s)) (held (fst (applied OfRed o s)) ++ h).
Proof.
  unfold balanced, applied, held. destruct (err s); simpl; auto.
  unfold note_made. destruct (is_null (fst o)); simpl; auto.
  intros [A B]. split; auto. unfold vals in *. simpl. now constructor.
Qed.

Lemma step_bal m d d' v e acc s h :
  m_free m = Some d -> r_free m = Some d' -> balanced s (held acc ++ h) ->
  let (x, s1) := applied OfMap (map_edge m v e) s in
  let (r, s2) := applied OfRed (reduce m x acc) s1 in
  balanced (destroy OfRed (r_free m) acc (destroy OfMap (m_free m) x s2)) (held r ++ h).
Proof.
  intros Hm Hr Hb. rewrite Hm, Hr.
  destruct (applied OfMap (map_edge m v e) s) as [x s1] eqn:E1.
  destruct (applied OfRed (reduce m x acc) s1) as [r s2] eqn:E2.
  apply destroy_red.
  assert (H1 : Permutation (vals OfMap (made s1)) (held x ++ vals OfMap (gone s1)) /\
               Permutation (vals OfRed (made s1)) ((held acc ++ h) ++ vals OfRed (gone s1))).
  { destruct Hb as [A B]. unfold applied in E1. destruct (err s); inversion E1; subst; simpl; auto.
    unfold note_made, held at 1. destruct (is_null (fst (map_edge m v e))); simpl; auto.
    split; auto. unfold vals in *. simpl. now constructor. }
  assert (H2 : Permutation (vals OfMap (made s2)) (held x ++ vals OfMap (gone s2)) /\
               Permutation (vals OfRed (made s2)) ((held r ++ held acc ++ h) ++ vals OfRed (gone s2))).
  { destruct H1 as [A B]. unfold applied in E2. destruct (err s1); inversion E2; subst; simpl; auto.
    unfold note_made, held at 2. destruct (is_null (fst (reduce m x acc))); simpl; auto.
    split; auto. unfold vals in *. simpl. now constructor. }
  destruct H2 as [A B]. unfold balanced, destroy. unfold held in A.
  destruct (is_null x); simpl.
  - split; auto. rewrite B. apply Permutation_app_tail. rewrite !app_assoc. apply Permutation_app_tail.
    apply Permutation_app_comm.
  - split; [exact A|]. rewrite B. apply Permutation_app_tail. rewrite !app_assoc. apply Permutation_app_tail.
    apply Permutation_app_comm.
Qed.

Lemma rest_bal m d d' v es acc s h :
  m_free m = Some d -> r_free m = Some d' -> balanced s (held acc ++ h) ->
  balanced (snd (reduce_rest m v es acc s)) (held (fst (reduce_rest m v es acc s)) ++ h).
Proof.
  intros Hm Hr. revert acc s. induction es as [|e es IH]; intros acc s Hb; simpl; auto.
  destruct (has_err s); auto.
  pose proof (@step_bal m d d' v e acc s h Hm Hr Hb) as Hs.
  destruct (applied OfMap (map_edge m v e) s) as [x s1].
  destruct (applied OfRed (reduce m x acc) s1) as [r s2]. apply IH. exact Hs.
Qed.

Lemma finish_bal d x s h :
  balanced s (held x ++ h) ->
  balanced (snd (finish_fold (Some d) x s)) (held (fst (finish_fold (Some d) x s)) ++ h).
Proof.
  intros H. unfold finish_fold. destruct (has_err s); auto.
  pose proof (@destroy_red d x s h H). exact H0.
Qed.

Lemma balanced_fresh e : balanced (mkFS e [] []) [].
Proof. split; constructor. Qed.

Lemma reduced_bal m d d' v es s :
  m_free m = Some d -> r_free m = Some d' -> balanced s [] ->
  balanced (snd (reduced_edges m v es s)) (held (fst (reduced_edges m v es s))).
Proof.
  intros Hm Hr Hb. rewrite <- (app_nil_r (held _)).
  destruct es as [|e es]; simpl.
  - destruct (vacuous_case m); [now apply applied_red|exact Hb].
  - assert (Hc : forall b : bool, b = b) by auto.
    assert (Main : balanced
      (snd (match vacuous_case m with
          | Some o =>
              let (x, s1) := applied OfRed o s in
              match reduction m with
              | None => finish_fold (r_free m) x (raise (Some IER) s1)
              | Some _ => let (r, s2) := reduce_rest m v (e :: es) x s1 in finish_fold (r_free m) r s2
              end
          | None =>
              if same_dtor (m_free m) (r_free m) then
                let (x, s1) := applied OfRed (map_first_edge m v e) s in
                match es, reduction m with
                | [], _ => finish_fold (r_free m) x s1
                | _, None => finish_fold (r_free m) x (raise (Some IER) s1)
                | _, Some _ => let (r, s2) := reduce_rest m v es x s1 in finish_fold (r_free m) r s2
                end
              else (null, raise (Some IER) s)
          end))
      (held (fst (match vacuous_case m with
          | Some o =>
              let (x, s1) := applied OfRed o s in
              match reduction m with
              | None => finish_fold (r_free m) x (raise (Some IER) s1)
              | Some _ => let (r, s2) := reduce_rest m v (e :: es) x s1 in finish_fold (r_free m) r s2
              end
          | None =>
              if same_dtor (m_free m) (r_free m) then
                let (x, s1) := applied OfRed (map_first_edge m v e) s in
                match es, reduction m with
                | [], _ => finish_fold (r_free m) x s1
                | _, None => finish_fold (r_free m) x (raise (Some IER) s1)
                | _, Some _ => let (r, s2) := reduce_rest m v es x s1 in finish_fold (r_free m) r s2
                end
              else (null, raise (Some IER) s)
          end)) ++ [])).
    { destruct (vacuous_case m) as [o|].
      - pose proof (applied_red o Hb) as H1.
        destruct (applied OfRed o s) as [x s1]. cbn [fst snd] in H1.
        rewrite Hr. destruct (reduction m) eqn:Er.
        + pose proof (@rest_bal m d d' v (e :: es) x s1 [] Hm Hr H1) as H2.
          destruct (reduce_rest m v (e :: es) x s1) as [r s2]. now apply finish_bal.
        + now apply finish_bal, raise_bal.
      - destruct (same_dtor (m_free m) (r_free m)); [|exact Hb].
        pose proof (applied_red (map_first_edge m v e) Hb) as H1.
        destruct (applied OfRed (map_first_edge m v e) s) as [x s1]. cbn [fst snd] in H1.
        rewrite Hr. destruct es as [|e2 es].
        + now apply finish_bal.
        + destruct (reduction m) eqn:Er.
          * pose proof (@rest_bal m d d' v (e2 :: es) x s1 [] Hm Hr H1) as H2.
            destruct (reduce_rest m v (e2 :: es) x s1) as [r s2]. now apply finish_bal.
          * now apply finish_bal, raise_bal. }
    destruct (map3 m); [exact Main|]. destruct (map2 m); [exact Main|]. exact Hb.
Qed.

(** *** C17: every intermediate result is destroyed exactly once, with the destructor for its
    type, and the result returned is not, whatever the user functions do and whether or not they
    fail.  All of the results made are accounted for, as multisets, so a value that was made once
    is destroyed once or returned once. *)
Theorem C17_intermediate_results_are_destroyed_once m d d' v es x s :
  m_free m = Some d -> r_free m = Some d' -> reduced_edges m v es fresh = (x, s) ->
  Permutation (vals OfMap (made s)) (vals OfMap (gone s)) /\
  Permutation (vals OfRed (made s)) (held x ++ vals OfRed (gone s)).
Proof.
  intros Hm Hr E. pose proof (@reduced_bal m d d' v es fresh Hm Hr (balanced_fresh None)) as H.
  rewrite E in H. exact H.
Qed.

(** *** C17: nothing is destroyed without a destructor. *)
Definition kept (k : kind) (s s' : fst_) : Prop := vals k (gone s') = vals k (gone s).

Lemma kept_applied k k' o s : kept k s (snd (applied k' o s)).
Proof. unfold applied, note_made, kept. destruct (err s); simpl; auto. destruct (is_null (fst o)); auto. Qed.

Lemma kept_destroy k k' d x s : (k = k' -> d = None) -> kept k s (destroy k' d x s).
Proof.
  intros H. unfold destroy, kept. destruct (is_null x); auto. destruct d; auto.
  destruct k, k'; try discriminate (H eq_refl); reflexivity.
Qed.

Lemma kept_rest k m v es acc s :
  (k = OfMap -> m_free m = None) -> (k = OfRed -> r_free m = None) ->
  kept k s (snd (reduce_rest m v es acc s)).
Proof.
  intros Hm Hr. revert acc s. induction es as [|e es IH]; intros acc s; simpl; [reflexivity|].
  destruct (has_err s); [reflexivity|].
  pose proof (kept_applied k OfMap (map_edge m v e) s) as K1.
  destruct (applied OfMap (map_edge m v e) s) as [x s1].
  pose proof (kept_applied k OfRed (reduce m x acc) s1) as K2.
  destruct (applied OfRed (reduce m x acc) s1) as [r s2]. simpl in *.
  unfold kept in *. rewrite IH.
  rewrite (@kept_destroy k OfRed _ acc _ Hr), (@kept_destroy k OfMap _ x _ Hm). congruence.
Qed.

Lemma kept_finish k d x s : (k = OfRed -> d = None) -> kept k s (snd (finish_fold d x s)).
Proof. intros H. unfold finish_fold. destruct (has_err s); simpl; [now apply kept_destroy|reflexivity]. Qed.

Theorem C17_nothing_destroyed_without_destructor k m v es x s :
  (k = OfMap -> m_free m = None) -> (k = OfRed -> r_free m = None) ->
  reduced_edges m v es fresh = (x, s) -> vals k (gone s) = [].
Proof.
  intros Hm Hr E. assert (K : kept k fresh (snd (reduced_edges m v es fresh))); [|rewrite E in K; exact K].
  clear x s E. destruct es as [|e es]; unfold reduced_edges.
  - destruct (vacuous_case m); [apply kept_applied|reflexivity].
  - assert (Main : forall s0, kept k s0 (snd (match vacuous_case m with
          | Some o =>
              let (x, s1) := applied OfRed o s0 in
              match reduction m with
              | None => finish_fold (r_free m) x (raise (Some IER) s1)
              | Some _ => let (r, s2) := reduce_rest m v (e :: es) x s1 in finish_fold (r_free m) r s2
              end
          | None =>
              if same_dtor (m_free m) (r_free m) then
                let (x, s1) := applied OfRed (map_first_edge m v e) s0 in
                match es, reduction m with
                | [], _ => finish_fold (r_free m) x s1
                | _, None => finish_fold (r_free m) x (raise (Some IER) s1)
                | _, Some _ => let (r, s2) := reduce_rest m v es x s1 in finish_fold (r_free m) r s2
                end
              else (null, raise (Some IER) s0)
          end))).
    { intros s0.
      assert (A : forall o l x0 s1, applied OfRed o s0 = (x0, s1) ->
                kept k s0 (snd (let (r, s2) := reduce_rest m v l x0 s1 in finish_fold (r_free m) r s2))).
      { intros o l x0 s1 E. pose proof (kept_applied k OfRed o s0) as K. rewrite E in K.
        pose proof (@kept_rest k m v l x0 s1 Hm Hr) as K1.
        destruct (reduce_rest m v l x0 s1) as [r s2].
        pose proof (@kept_finish k (r_free m) r s2 Hr) as K2. unfold kept in *. simpl in *. congruence. }
      assert (B : forall o x0 s1 s2, applied OfRed o s0 = (x0, s1) -> gone s2 = gone s1 ->
                kept k s0 (snd (finish_fold (r_free m) x0 s2))).
      { intros o x0 s1 s2 E G. pose proof (kept_applied k OfRed o s0) as K. rewrite E in K.
        pose proof (@kept_finish k (r_free m) x0 s2 Hr) as K2. unfold kept in *. simpl in *.
        rewrite K2, G. exact K. }
      destruct (vacuous_case m) as [o|].
      - destruct (applied OfRed o s0) as [x0 s1] eqn:E.
        destruct (reduction m); [eapply A; eauto|eapply B; eauto].
      - destruct (same_dtor (m_free m) (r_free m)); [|reflexivity].
        destruct (applied OfRed (map_first_edge m v e) s0) as [x0 s1] eqn:E.
        destruct es as [|e2 es]; [eapply B; eauto|].
        destruct (reduction m); [eapply A; eauto|eapply B; eauto]. }
    destruct (map3 m); [apply Main|]. destruct (map2 m); [apply Main|]. reflexivity.
Qed.

(** *** C17: the value.  Here the user's operators are functions [f] and [r] that do not fail, and
    [f] is given as a map of either form. *)
Definition maps_with (m : fold) (v : word) (f : redge -> word) : Prop :=
  (exists t, map3 m = Some t /\ map2 m = None /\ forall e, t v (fst e) (snd e) = (f e, None)) \/
  (exists b, map2 m = Some b /\ map3 m = None /\ forall e, b v (fst e) = (f e, None)).

Definition reduces_with (m : fold) (r : word -> word -> word) : Prop :=
  exists b, reduction m = Some b /\ forall x y, b x y = (r x y, None).

(** Destructors that do not report errors. *)
Definition quiet (d : option dtor) : Prop := forall c x, d = Some c -> fails c x = None.

Lemma maps_edge m v f e : maps_with m v f -> map_edge m v e = (f e, None) /\ map_first_edge m v e = (f e, None).
Proof.
  unfold map_edge, map_first_edge. intros [(t & E1 & E2 & H)|(t & E1 & E2 & H)]; rewrite E1, E2; auto.
Qed.

Lemma applied_ok k x s : err s = None ->
  fst (applied k (x, None) s) = x /\ err (snd (applied k (x, None) s)) = None.
Proof.
  intros E. unfold applied. rewrite E. simpl. split; auto. unfold note_made. destruct (is_null x); simpl; now rewrite E.
Qed.

Lemma destroy_ok k d x s : quiet d -> err s = None -> err (destroy k d x s) = None.
Proof.
  intros Q E. unfold destroy. destruct (is_null x); auto. destruct d as [d|]; auto. simpl. rewrite E. now apply Q.
Qed.

Lemma rest_value m v f r es acc s :
  maps_with m v f -> reduces_with m r -> quiet (m_free m) -> quiet (r_free m) -> err s = None ->
  fst (reduce_rest m v es acc s) = fold_left (fun a e => r (f e) a) es acc /\
  err (snd (reduce_rest m v es acc s)) = None.
Proof.
  intros Hf (b & Eb & Hb) Qm Qr. revert acc s. induction es as [|e es IH]; intros acc s E; simpl; auto.
  unfold has_err. rewrite E. destruct (maps_edge e Hf) as [-> _].
  destruct (applied OfMap (f e, None) s) as [x s1] eqn:E1.
  pose proof (applied_ok OfMap (f e) s E) as [A1 A2]. rewrite E1 in A1, A2. simpl in A1, A2. subst x.
  unfold reduce. rewrite Eb, Hb.
  destruct (applied OfRed (r (f e) acc, None) s1) as [y s2] eqn:E2.
  pose proof (applied_ok OfRed (r (f e) acc) s1 A2) as [B1 B2]. rewrite E2 in B1, B2. simpl in B1, B2. subst y.
  apply IH. apply destroy_ok; auto. now apply destroy_ok.
Qed.

Definition red_dest (m : fold) : Prop := quiet (m_free m) /\ quiet (r_free m).

Theorem C17_value_with_vacuous_case m v f r x0 es :
  maps_with m v f -> reduces_with m r -> red_dest m -> vacuous_case m = Some (x0, None) ->
  exists s, reduced_edges m v es fresh = (fold_left (fun a e => r (f e) a) es x0, s) /\ err s = None.
Proof.
  intros Hf Hr [Qm Qr] Ev. unfold reduced_edges. rewrite Ev.
  pose proof (applied_ok OfRed x0 fresh eq_refl) as [A B].
  destruct es as [|e es].
  - destruct (applied OfRed (x0, None) fresh) as [x s]. simpl in *. subst. eauto.
  - pose proof Hr as (b & Eb & Hb).
    assert (Main : exists s, (let (x, s1) := applied OfRed (x0, None) fresh in
        match reduction m with
        | None => finish_fold (r_free m) x (raise (Some IER) s1)
        | Some _ => let (r, s2) := reduce_rest m v (e :: es) x s1 in finish_fold (r_free m) r s2
        end) = (fold_left (fun a e => r (f e) a) (e :: es) x0, s) /\ err s = None).
    { destruct (applied OfRed (x0, None) fresh) as [x s]. simpl in A, B. subst x. rewrite Eb.
      destruct (rest_value (e :: es) x0 s Hf Hr Qm Qr B) as [C D].
      destruct (reduce_rest m v (e :: es) x0 s) as [y s2]. simpl in C, D. subst y.
      unfold finish_fold, has_err. rewrite D. eauto. }
    destruct Hf as [(t & E1 & E2 & _)|(t & E1 & E2 & _)]; rewrite ?E2, ?E1, ?E2; exact Main.
Qed.

Theorem C17_value_without_vacuous_case m v f r e es :
  maps_with m v f -> reduces_with m r -> red_dest m -> same_dtor (m_free m) (r_free m) = true ->
  vacuous_case m = None ->
  exists s, reduced_edges m v (e :: es) fresh = (fold_left (fun a e => r (f e) a) es (f e), s) /\ err s = None.
Proof.
  intros Hf Hr [Qm Qr] Hd Ev. unfold reduced_edges. rewrite Ev, Hd.
  destruct (maps_edge e Hf) as [_ ->].
  pose proof (applied_ok OfRed (f e) fresh eq_refl) as [A B].
  assert (Main : exists s, (let (x, s1) := applied OfRed (f e, None) fresh in
      match es, reduction m with
      | [], _ => finish_fold (r_free m) x s1
      | _, None => finish_fold (r_free m) x (raise (Some IER) s1)
      | _, Some _ => let (r, s2) := reduce_rest m v es x s1 in finish_fold (r_free m) r s2
      end) = (fold_left (fun a e => r (f e) a) es (f e), s) /\ err s = None).
  { destruct (applied OfRed (f e, None) fresh) as [x s]. simpl in A, B. subst x.
    destruct es as [|e2 es].
    - unfold finish_fold, has_err. rewrite B. simpl. eauto.
    - destruct (rest_value (e2 :: es) (f e) s Hf Hr Qm Qr B) as [C D].
      destruct Hr as (b & Eb & Hb). rewrite Eb.
      destruct (reduce_rest m v (e2 :: es) (f e) s) as [y s2]. simpl in C, D. simpl. subst y.
      unfold finish_fold, has_err. rewrite D. eauto. }
  destruct Hf as [(t & E1 & E2 & _)|(t & E1 & E2 & _)]; rewrite ?E2, ?E1, ?E2; exact Main.
Qed.

(** *** C17: under the condition documented in man/man7/cru_fold.7.in, r (x, r (y, z)) = r (y, r (x,
    z)), the result does not depend on the order in which the edges are listed. *)
Lemma fold_perm (g : redge -> word -> word) :
  (forall a b z, g a (g b z) = g b (g a z)) ->
  forall es es' z, Permutation es es' -> fold_left (fun a e => g e a) es z = fold_left (fun a e => g e a) es' z.
Proof.
  intros H es es' z P. revert z. induction P; intros z; simpl; auto.
  - now rewrite H.
  - now rewrite IHP1.
Qed.

Theorem C17_order_of_edges_is_immaterial m v f r x0 es es' :
  maps_with m v f -> reduces_with m r -> red_dest m -> vacuous_case m = Some (x0, None) ->
  (forall x y z, r x (r y z) = r y (r x z)) -> Permutation es es' ->
  fst (reduced_edges m v es fresh) = fst (reduced_edges m v es' fresh).
Proof.
  intros Hf Hr Hd Ev Hc P.
  destruct (C17_value_with_vacuous_case es Hf Hr Hd Ev) as (s & -> & _).
  destruct (C17_value_with_vacuous_case es' Hf Hr Hd Ev) as (s' & -> & _).
  simpl. apply fold_perm with (g := fun e a => r (f e) a); auto.
Qed.

Theorem C17_order_of_edges_is_immaterial_if_commutative m v f r es es' :
  maps_with m v f -> reduces_with m r -> red_dest m -> same_dtor (m_free m) (r_free m) = true ->
  vacuous_case m = None ->
  (forall x y z, r (r x y) z = r x (r y z)) -> (forall x y, r x y = r y x) -> Permutation es es' ->
  fst (reduced_edges m v es fresh) = fst (reduced_edges m v es' fresh).
Proof.
  intros Hf Hr Hd Hs Ev Ha Hc P.
  assert (Hx : forall x y z, r x (r y z) = r y (r x z)).
  { intros x y z. now rewrite <- Ha, (Hc x y), Ha. }
  destruct es as [|e es], es' as [|e' es'].
  - reflexivity.
  - apply Permutation_nil in P. discriminate.
  - symmetry in P. apply Permutation_nil in P. discriminate.
  - destruct (C17_value_without_vacuous_case e es Hf Hr Hd Hs Ev) as (s & -> & _).
    destruct (C17_value_without_vacuous_case e' es' Hf Hr Hd Hs Ev) as (s' & -> & _). simpl.
    assert (F : forall l l', Permutation l l' -> forall c l1 c' l1', l = c :: l1 -> l' = c' :: l1' ->
              fold_left (fun a e => r (f e) a) l1 (f c) = fold_left (fun a e => r (f e) a) l1' (f c')).
    { intros l l' Hp. induction Hp; intros c l1 c' l1' E1 E2.
      - discriminate.
      - inversion E1; inversion E2; subst. apply fold_perm with (g := fun e a => r (f e) a); auto.
      - inversion E1; inversion E2; subst. simpl. now rewrite Hc.
      - subst. destruct l' as [|c2 l2]; [symmetry in Hp1; apply Permutation_nil in Hp1; discriminate|].
        rewrite (IHHp1 _ _ _ _ eq_refl eq_refl). now apply IHHp2. }
    eapply F; eauto.
Qed.

(** *** C17: an empty list of edges without a vacuous case is an error. *)
Theorem C17_nothing_to_fold m v :
  vacuous_case m = None -> reduced_edges m v [] fresh = (null, mkFS (Some UNDVAC) [] []).
Proof. intros E. unfold reduced_edges. now rewrite E. Qed.

(** *** C17: no result comes with an error, except what the vacuous case itself returned along with
    its error when there are no edges. *)
Theorem C17_no_result_with_error m v e es x s :
  reduced_edges m v (e :: es) fresh = (x, s) -> err s <> None -> x = null.
Proof.
  assert (F : forall d y s0 y' s', finish_fold d y s0 = (y', s') -> err s' <> None -> y' = null).
  { intros d y s0 y' s' H E. unfold finish_fold in H. destruct (has_err s0) eqn:Eh; inversion H; subst; auto.
    unfold has_err in Eh. destruct (err s'); [discriminate|congruence]. }
  intros H Hx. unfold reduced_edges in H.
  assert (Main : match vacuous_case m with
          | Some o =>
              let (x, s1) := applied OfRed o fresh in
              match reduction m with
              | None => finish_fold (r_free m) x (raise (Some IER) s1)
              | Some _ => let (r, s2) := reduce_rest m v (e :: es) x s1 in finish_fold (r_free m) r s2
              end
          | None =>
              if same_dtor (m_free m) (r_free m) then
                let (x, s1) := applied OfRed (map_first_edge m v e) fresh in
                match es, reduction m with
                | [], _ => finish_fold (r_free m) x s1
                | _, None => finish_fold (r_free m) x (raise (Some IER) s1)
                | _, Some _ => let (r, s2) := reduce_rest m v es x s1 in finish_fold (r_free m) r s2
                end
              else (null, raise (Some IER) fresh)
          end = (x, s) -> x = null).
  { clear H. intros H. destruct (vacuous_case m) as [o|].
    - destruct (applied OfRed o fresh) as [x0 s1].
      destruct (reduction m); [|eapply F; eauto].
      destruct (reduce_rest m v (e :: es) x0 s1). eapply F; eauto.
    - destruct (same_dtor (m_free m) (r_free m)); [|inversion H; auto].
      destruct (applied OfRed (map_first_edge m v e) fresh) as [x0 s1].
      destruct es as [|e2 es]; [eapply F; eauto|].
      destruct (reduction m); [|eapply F; eauto].
      destruct (reduce_rest m v (e2 :: es) x0 s1). eapply F; eauto. }
  destruct (map3 m); [auto|]. destruct (map2 m); [auto|]. inversion H; auto.
Qed.

(** ** C18: properties *)

(** What the property of a vertex is to be, man/man7/cru_prop.7.in: [i] and [o] are the results of
    folding the edges in each direction, NULL if that fold is omitted. *)
Definition fold_result (m : fold) (v : word) (es : list redge) (x : word) : Prop :=
  if empty_fold m then x = null
  else exists s, reduced_edges m v es fresh = (x, s) /\ err s = None.

Theorem C18_property_of_a_vertex p t v vin vout i o x :
  map3 (vertex p) = Some t -> map2 (vertex p) = None ->
  quiet (r_free (incident p)) -> quiet (r_free (outgoing p)) ->
  fold_result (incident p) v vin i -> fold_result (outgoing p) v vout o -> t i v o = (x, None) ->
  exists s si so, mapped_node p v vin vout fresh = (x, (s, si, so)) /\ err s = None.
Proof.
  intros Et Eb Qi Qo Hi Ho Hx. unfold mapped_node. simpl has_err. cbv iota. rewrite Et, Eb.
  assert (A : exists si, folded (incident p) v vin fresh = (i, si) /\ err si = None).
  { unfold folded, fold_result in *. destruct (empty_fold (incident p)); subst; eauto. }
  destruct A as (si & -> & Esi). rewrite Esi.
  assert (B : exists so, folded (outgoing p) v vout fresh = (o, so) /\ err so = None).
  { unfold folded, fold_result in *. destruct (empty_fold (outgoing p)); subst; eauto. }
  destruct B as (so & EB & Eso).
  change (mkFS None (made fresh) (gone fresh)) with fresh. rewrite EB, Eso, Hx.
  change (mkFS None (made fresh) (gone fresh)) with fresh.
  destruct (applied OfMap (x, None) fresh) as [y s] eqn:E.
  pose proof (applied_ok OfMap x fresh eq_refl) as [C D]. rewrite E in C, D. simpl in C, D. subst y.
  rewrite D.
  assert (G1 : err (destroy OfRed (r_free (incident p)) i (mkFS None (made si) (gone si))) = None)
    by (apply destroy_ok; auto).
  rewrite G1.
  assert (G2 : err (destroy OfRed (r_free (outgoing p)) o (mkFS None (made so) (gone so))) = None)
    by (apply destroy_ok; auto).
  rewrite G2. unfold has_err at 1. simpl. eauto.
Qed.

(** With a [bmap], the result of the outgoing edges is not passed. *)
Theorem C18_property_of_a_vertex_by_bmap p t v vin vout i o x :
  map2 (vertex p) = Some t ->
  quiet (r_free (incident p)) -> quiet (r_free (outgoing p)) ->
  fold_result (incident p) v vin i -> fold_result (outgoing p) v vout o -> t i v = (x, None) ->
  exists s si so, mapped_node p v vin vout fresh = (x, (s, si, so)) /\ err s = None.
Proof.
  intros Eb Qi Qo Hi Ho Hx. unfold mapped_node. simpl has_err. cbv iota. rewrite Eb.
  assert (A : exists si, folded (incident p) v vin fresh = (i, si) /\ err si = None).
  { unfold folded, fold_result in *. destruct (empty_fold (incident p)); subst; eauto. }
  destruct A as (si & -> & Esi). rewrite Esi.
  assert (B : exists so, folded (outgoing p) v vout fresh = (o, so) /\ err so = None).
  { unfold folded, fold_result in *. destruct (empty_fold (outgoing p)); subst; eauto. }
  destruct B as (so & EB & Eso).
  change (mkFS None (made fresh) (gone fresh)) with fresh. rewrite EB, Eso, Hx.
  change (mkFS None (made fresh) (gone fresh)) with fresh.
  destruct (applied OfMap (x, None) fresh) as [y s] eqn:E.
  pose proof (applied_ok OfMap x fresh eq_refl) as [C D]. rewrite E in C, D. simpl in C, D. subst y.
  rewrite D.
  assert (G1 : err (destroy OfRed (r_free (incident p)) i (mkFS None (made si) (gone si))) = None)
    by (apply destroy_ok; auto).
  rewrite G1.
  assert (G2 : err (destroy OfRed (r_free (outgoing p)) o (mkFS None (made so) (gone so))) = None)
    by (apply destroy_ok; auto).
  rewrite G2. unfold has_err at 1. simpl. eauto.
Qed.

(** *** C18: the results of both folds are destroyed exactly once, whatever happens, and the
    property is destroyed exactly once if it is not returned. *)
Theorem C18_intermediate_results_are_destroyed_once p di di' dq dq' dv v vin vout x s si so :
  m_free (incident p) = Some di -> r_free (incident p) = Some di' ->
  m_free (outgoing p) = Some dq -> r_free (outgoing p) = Some dq' -> m_free (vertex p) = Some dv ->
  mapped_node p v vin vout fresh = (x, (s, si, so)) ->
  Permutation (vals OfMap (made si)) (vals OfMap (gone si)) /\
  Permutation (vals OfRed (made si)) (vals OfRed (gone si)) /\
  Permutation (vals OfMap (made so)) (vals OfMap (gone so)) /\
  Permutation (vals OfRed (made so)) (vals OfRed (gone so)) /\
  Permutation (vals OfMap (made s)) (held x ++ vals OfMap (gone s)).
Proof.
  intros E1 E2 E3 E4 E5 H. unfold mapped_node in H. simpl has_err in H. cbv iota in H.
  assert (Main : forall q : word -> word -> outcome,
    (let (i, si) := folded (incident p) v vin fresh in
      let (o, so) := folded (outgoing p) v vout (mkFS (err si) (made fresh) (gone fresh)) in
      let (r, sv) := applied OfMap (q i o) (mkFS (err so) (made fresh) (gone fresh)) in
      let si' := destroy OfRed (r_free (incident p)) i (mkFS (err sv) (made si) (gone si)) in
      let so' := destroy OfRed (r_free (outgoing p)) o (mkFS (err si') (made so) (gone so)) in
      let sv' := mkFS (err so') (made sv) (gone sv) in
      if has_err sv' then (null, (destroy OfMap (m_free (vertex p)) r sv', si', so'))
      else (r, (sv', si', so'))) = (x, (s, si, so)) ->
    Permutation (vals OfMap (made si)) (vals OfMap (gone si)) /\
    Permutation (vals OfRed (made si)) (vals OfRed (gone si)) /\
    Permutation (vals OfMap (made so)) (vals OfMap (gone so)) /\
    Permutation (vals OfRed (made so)) (vals OfRed (gone so)) /\
    Permutation (vals OfMap (made s)) (held x ++ vals OfMap (gone s))).
  { clear H. intros q H.
    assert (F : forall m d d' l e, m_free m = Some d -> r_free m = Some d' ->
              balanced (snd (folded m v l (mkFS e [] []))) (held (fst (folded m v l (mkFS e [] []))) ++ [])).
    { intros m d d' l e Em Er. rewrite app_nil_r. unfold folded. destruct (empty_fold m); simpl; [apply balanced_fresh|].
      eapply reduced_bal; eauto. apply balanced_fresh. }
    pose proof (F (incident p) di di' vin None E1 E2) as Fi.
    change (mkFS None [] []) with fresh in Fi.
    destruct (folded (incident p) v vin fresh) as [i si0]. simpl in Fi. simpl made in H. simpl gone in H.
    pose proof (F (outgoing p) dq dq' vout (err si0) E3 E4) as Fo.
    destruct (folded (outgoing p) v vout (mkFS (err si0) [] [])) as [o so0]. simpl in Fo.
    assert (G : forall r sv, applied OfMap (q i o) (mkFS (err so0) [] []) = (r, sv) ->
              Permutation (vals OfMap (made sv)) (held r ++ vals OfMap (gone sv))).
    { intros r sv Ea. unfold applied in Ea. simpl in Ea.
      destruct (err so0); inversion Ea; subst; [constructor|].
      unfold note_made, held. destruct (is_null (fst (q i o))); simpl; constructor. constructor. }
    destruct (applied OfMap (q i o) (mkFS (err so0) [] [])) as [r sv].
    specialize (G r sv eq_refl). rewrite E2, E4, E5 in H. cbv zeta in H.
    assert (Bi : forall e, balanced (destroy OfRed (Some di') i (mkFS e (made si0) (gone si0))) []).
    { intros e. apply destroy_red. exact Fi. }
    assert (Bo : forall e, balanced (destroy OfRed (Some dq') o (mkFS e (made so0) (gone so0))) []).
    { intros e. apply destroy_red. exact Fo. }
    match type of H with (if ?c then _ else _) = _ => destruct c end; inversion H; subst; clear H.
    - repeat split; try apply Bi; try apply Bo. unfold destroy. simpl. unfold held in G.
      destruct (is_null r); simpl; auto.
    - repeat split; try apply Bi; try apply Bo. exact G. }
  destruct (map2 (vertex p)) as [f|].
  - apply (Main (fun i _ => f i v)). destruct (map3 (vertex p)); exact H.
  - destruct (map3 (vertex p)) as [f|].
    + apply (Main (fun i o => f i v o)). exact H.
    + inversion H; subst. repeat split; constructor.
Qed.

(** *** C18: what is assumed when operators are omitted, man/man7/cru_fold.7.in: without
    destructors, the default map returns its middle operand and the default reduction the lesser of
    its operands; a fold accepted is complete. *)
Theorem C18_default_map m m' : filled_fold m = inl m' -> map3 m = None -> map2 m = None ->
  exists f, map3 m' = Some f /\ map2 m' = None /\ forall l c r, f l c r = (c, None).
Proof.
  unfold filled_fold. intros H E1 E2. rewrite E1, E2 in H. simpl in H.
  destruct (negb _) eqn:En; [discriminate|]. rewrite andb_false_r in H.
  destruct (is_none (vacuous_case m) && _); inversion H; subst. simpl. exists identity_top. auto.
Qed.

Theorem C18_default_reduction m m' : filled_fold m = inl m' -> reduction m = None ->
  exists f, reduction m' = Some f /\ forall x y, f x y = (N.min x y, None).
Proof.
  unfold filled_fold. intros H E1. rewrite E1 in H.
  assert (G : exists f, (match reduction m with None => Some minimizing_bop | r => r end) = Some f /\
             forall x y, f x y = (N.min x y, None)).
  { rewrite E1. exists minimizing_bop. split; auto. intros x y. unfold minimizing_bop, N.min, N.ltb.
    destruct (N.compare_spec x y); subst; auto. }
  rewrite E1 in G. destruct (map3 m), (map2 m); try discriminate; simpl in H;
  repeat match type of H with (if ?c then _ else _) = _ => destruct c; [discriminate|] end;
  inversion H; subst; exact G.
Qed.

Theorem C18_given_operators_are_kept m m' : filled_fold m = inl m' ->
  (forall f, map3 m = Some f -> map3 m' = Some f) /\ (forall f, map2 m = Some f -> map2 m' = Some f) /\
  (forall f, reduction m = Some f -> reduction m' = Some f) /\ vacuous_case m' = vacuous_case m /\
  r_free m' = r_free m /\ m_free m' = m_free m.
Proof.
  unfold filled_fold. intros H.
  destruct (map3 m), (map2 m); try discriminate; simpl in H;
  repeat match type of H with (if ?c then _ else _) = _ => destruct c; [discriminate|] end;
  inversion H; subst; simpl; repeat split; auto; intros; try discriminate;
  match goal with E : reduction m = Some _ |- _ => now rewrite E end.
Qed.

(** ** Examples *)
Definition dt : dtor := mkD 7 (fun _ => None).
Definition sum_fold : fold :=
  mkFold (Some (fun v l t => ((v + l * t)%N, None))) None (Some (fun x y => ((x + y)%N, None))) (Some (100%N, None))
         (Some dt) (Some dt).
Definition some_edges : list redge := [(2, 3); (4, 5); (1, 1)]%N.

Example C17_intermediate_results_are_destroyed_once_ex :
  m_free sum_fold = Some dt /\ r_free sum_fold = Some dt /\
  reduced_edges sum_fold 10%N some_edges fresh =
  (157%N, mkFS None [(OfRed, 157); (OfMap, 11); (OfRed, 146); (OfMap, 30); (OfRed, 116); (OfMap, 16); (OfRed, 100)]%N
               [(OfRed, 146); (OfMap, 11); (OfRed, 116); (OfMap, 30); (OfRed, 100); (OfMap, 16)]%N).
Proof. vm_compute. auto. Qed.

(** A map that fails on the second edge: everything is destroyed and nothing returned. *)
Definition failing_fold : fold :=
  mkFold (Some (fun v l t => ((v + l * t)%N, if N.eqb l 4 then Some (USERERR 9) else None))) None
         (Some (fun x y => ((x + y)%N, None))) None (Some dt) (Some dt).
Example C17_no_result_with_error_ex :
  reduced_edges failing_fold 10%N some_edges fresh =
  (null, mkFS (Some (USERERR 9)) [(OfMap, 30); (OfRed, 16)]%N [(OfRed, 16); (OfMap, 30)]%N).
Proof. vm_compute. reflexivity. Qed.

Definition plain_fold : fold :=
  mkFold None (Some (fun v l => ((v + l)%N, None))) (Some (fun x y => (N.max x y, None))) None None None.
Example C17_nothing_destroyed_without_destructor_ex :
  m_free plain_fold = None /\ r_free plain_fold = None /\
  reduced_edges plain_fold 10%N some_edges fresh =
  (14%N, mkFS None [(OfRed, 14); (OfMap, 11); (OfRed, 14); (OfMap, 14); (OfRed, 12)]%N []).
Proof. vm_compute. auto. Qed.

Example C17_value_with_vacuous_case_ex :
  maps_with sum_fold 10%N (fun e => 10 + fst e * snd e)%N /\ reduces_with sum_fold N.add /\ red_dest sum_fold /\
  vacuous_case sum_fold = Some (100%N, None) /\ (forall x y z, x + (y + z) = y + (x + z))%N.
Proof.
  split; [left; eexists; repeat split; auto|]. split; [eexists; split; [reflexivity|auto]|].
  split; [split; intros c x H; inversion H; auto|]. split; [auto|]. intros. lia.
Qed.

Example C17_value_without_vacuous_case_ex :
  maps_with plain_fold 10%N (fun e => 10 + fst e)%N /\ reduces_with plain_fold N.max /\ red_dest plain_fold /\
  same_dtor (m_free plain_fold) (r_free plain_fold) = true /\ vacuous_case plain_fold = None /\
  Permutation some_edges (rev some_edges).
Proof.
  split; [right; eexists; repeat split; auto|]. split; [eexists; split; [reflexivity|auto]|].
  split; [split; intros c x H; inversion H|]. split; [auto|]. split; [auto|]. apply Permutation_rev.
Qed.

Definition no_fold : fold := mkFold None None None None None None.
Definition some_prop : prop :=
  mkProp (mkFold (Some (fun i v o => ((i * 1000 + v * 10 + o)%N, None))) None None None None (Some dt))
         sum_fold failing_fold.
Example C18_property_of_a_vertex_ex :
  fold_result sum_fold 10%N some_edges 157%N /\ fold_result failing_fold 10%N [(2, 3)]%N 16%N /\
  fold_result no_fold 10%N some_edges null /\
  fst (mapped_node some_prop 10%N some_edges [(2, 3)]%N fresh) = 157116%N.
Proof. vm_compute. repeat split; eauto. Qed.

Example C18_intermediate_results_are_destroyed_once_ex :
  m_free (incident some_prop) = Some dt /\ r_free (outgoing some_prop) = Some dt /\
  mapped_node some_prop 10%N [(2, 3)]%N some_edges fresh =
  (null, (mkFS (Some (USERERR 9)) [] [],
          mkFS (Some (USERERR 9)) [(OfRed, 116); (OfMap, 16); (OfRed, 100)]%N [(OfRed, 116); (OfRed, 100); (OfMap, 16)]%N,
          mkFS (Some (USERERR 9)) [(OfMap, 30); (OfRed, 16)]%N [(OfRed, 16); (OfMap, 30)]%N)).
Proof. vm_compute. auto. Qed.

Example C18_defaults_ex :
  exists m', filled_fold (mkFold None None None (Some (5%N, None)) None None) = inl m' /\
  fst (reduced_edges m' 9%N [(8, 1); (3, 1); (6, 1)]%N fresh) = 3%N.
Proof. eexists. split; [reflexivity|]. vm_compute. reflexivity. Qed.
