(** C92: workers need no locks to operate on lists of nodes that are their own. *)
From Coq Require Import List Arith NArith Lia Bool Permutation.
From Verif Require Import Base Lists P_Lists.
Import ListNotations.

Set Implicit Arguments.

(** The memory of a worker consists of the variables and queues in [hs], and the pointers in the nodes in [ns]. *)
Definition agree (hs ns : nat -> bool) (s t : heap) : Prop :=
  (forall h, hs h = true -> hdr s h = hdr t h /\ bck s h = bck t h) /\ (forall n, ns n = true -> nxt s n = nxt t n /\ prv s n = prv t n).

(** Everything else is unchanged. *)
Definition untouched (hs ns : nat -> bool) (s t : heap) : Prop :=
  (forall h, hs h = false -> hdr s h = hdr t h /\ bck s h = bck t h) /\ (forall n, ns n = false -> nxt s n = nxt t n /\ prv s n = prv t n).

(** The operation is about the worker's own nodes, variables and queues. *)
Definition own (hs ns : nat -> bool) (o : op) (a : abs) : Prop :=
  match o with
  | Push n h => ns n = true /\ hs h = true
  | Sever n => ns n = true /\ forall h, live a h = true -> In n (cont a h) -> hs h = true
  | Create q => hs q = true
  | Enqueue n q => ns n = true /\ hs q = true
  | Append q r => hs q = true /\ hs r = true
  | Convert h q => hs h = true /\ hs q = true
  | Revert q h => hs q = true /\ hs h = true
  | Cut h k d => hs h = true /\ hs d = true
  end.
(** So are the nodes in its lists. *)
Definition closed (hs ns : nat -> bool) (a : abs) : Prop :=
  forall h n, live a h = true -> hs h = true -> In n (cont a h) -> ns n = true.

Definition mine (hs ns : nat -> bool) (p : loc) : Prop := match p with Nx n => ns n = true | Hd h => hs h = true end.

Lemma upd_cong {A} (f g : nat -> A) i x j : f j = g j -> upd f i x j = upd g i x j.
Proof. unfold upd. now destruct (j =? i). Qed.

Lemma some_inj {A} (x y : A) : Some x = Some y -> x = y.
Proof. congruence. Qed.

Lemma pushed_eq n h s : prv s n = None -> nxt s n = None -> pushed n (Hd h) s =
  Some (store (store (match hdr s h with
                      | Some m => set_prv (set_prv s n (Some (Hd h))) m (Some (Nx n))
                      | None => set_prv s n (Some (Hd h)) end) (Nx n) (hdr s h)) (Hd h) (Some n)).
Proof. intros P X. unfold pushed. rewrite P, X. simpl deref. destruct (hdr s h) as [m|] eqn:H; simpl; rewrite H; reflexivity. Qed.

Section Local.
  Variables hs ns : nat -> bool.

  Lemma agree_store s t p v : agree hs ns s t -> agree hs ns (store s p v) (store t p v).
  Proof. intros [A B]. destruct p; split; simpl; intros x X; (destruct (A x X) || destruct (B x X)); split; auto; now apply upd_cong. Qed.
  Lemma agree_prv s t n v : agree hs ns s t -> agree hs ns (set_prv s n v) (set_prv t n v).
  Proof. intros [A B]. split; simpl; intros x X; (destruct (A x X) || destruct (B x X)); split; auto; now apply upd_cong. Qed.
  Lemma agree_bck s t n v : agree hs ns s t -> agree hs ns (set_bck s n v) (set_bck t n v).
  Proof. intros [A B]. split; simpl; intros x X; (destruct (A x X) || destruct (B x X)); split; auto; now apply upd_cong. Qed.
  Lemma agree_deref s t p : agree hs ns s t -> mine hs ns p -> deref t p = deref s p.
  Proof. intros [A B] M. destruct p; simpl in *; symmetry; [apply (B n M)|apply (A h M)]. Qed.

  Lemma untouched_refl s : untouched hs ns s s.
  Proof. split; auto. Qed.
  Lemma untouched_store s t p v : mine hs ns p -> untouched hs ns s t -> untouched hs ns s (store t p v).
  Proof.
    intros M [A B]. destruct p; split; simpl in *; intros x X; (destruct (A x X) || destruct (B x X)); split; auto; rewrite upd_diff; auto; congruence.
  Qed.
  Lemma untouched_prv s t n v : ns n = true -> untouched hs ns s t -> untouched hs ns s (set_prv t n v).
  Proof. intros M [A B]. split; simpl in *; intros x X; (destruct (A x X) || destruct (B x X)); split; auto; rewrite upd_diff; auto; congruence. Qed.
  Lemma untouched_bck s t n v : hs n = true -> untouched hs ns s t -> untouched hs ns s (set_bck t n v).
  Proof. intros M [A B]. split; simpl in *; intros x X; (destruct (A x X) || destruct (B x X)); split; auto; rewrite upd_diff; auto; congruence. Qed.

  Lemma last_from_agree s t r : agree hs ns s t -> forall n fuel, lists s (Nx n) r -> ns n = true -> (forall x, In x r -> ns x = true) ->
    last_from fuel n t = last_from fuel n s.
  Proof.
    intros A. induction r as [|m r IH]; intros n [|fuel] S N R; simpl; auto.
    - rewrite (agree_deref (Nx n) A N : nxt t n = nxt s n). simpl in S. now rewrite S.
    - rewrite (agree_deref (Nx n) A N : nxt t n = nxt s n). destruct S as (S1 & _ & S). simpl in S1. rewrite S1.
      apply IH; auto; [apply R; left|intros x X; apply R; right]; auto.
  Qed.

  Lemma after_agree s t l : agree hs ns s t -> forall p k, lists s p l -> mine hs ns p -> (forall x, In x l -> ns x = true) ->
    after k p t = after k p s.
  Proof.
    intros A. induction l as [|m r IH]; intros p [|k] S N R; simpl; auto; rewrite (agree_deref p A N).
    - simpl in S. now rewrite S.
    - destruct S as (S1 & _ & S). rewrite S1. apply IH; auto; [apply R; left|intros x X; apply R; right]; auto.
  Qed.

  Lemma mine_end l : forall p, mine hs ns p -> (forall x, In x l -> ns x = true) -> mine hs ns (endloc p l).
  Proof. induction l as [|n r IH]; intros p M R; simpl; auto. apply IH; [apply R; left; auto|intros x X; apply R; right; auto]. Qed.

  Lemma mine_nx n : ns n = true -> mine hs ns (Nx n).
  Proof. auto. Qed.
  Lemma mine_hd h : hs h = true -> mine hs ns (Hd h).
  Proof. auto. Qed.

  Hint Resolve mine_nx mine_hd agree_store agree_prv agree_bck untouched_refl untouched_store untouched_prv untouched_bck : loc.

  (** C92: what an operation does to the memory of a worker depends only on that, and there is no effect on any other. *)
  Theorem C92_local fuel o s t a s' :
    stands s a -> allowed fuel o a -> own hs ns o a -> closed hs ns a -> exec fuel o s = Some s' ->
    untouched hs ns s s' /\ (agree hs ns s t -> exists t', exec fuel o t = Some t' /\ agree hs ns s' t').
  Proof.
    intros S AL OW CL E. pose proof (st_sane S) as SS. destruct o as [n h|n|q|n q|q r|h q|q h|h k d]; simpl in AL, OW.
    - (* push *)
      destruct AL as (Ln & Lh & Q), OW as [On Oh]. cbv beta iota delta [exec] in *.
      pose proof (hdr_of h S Lh) as HH. destruct (st_loose S n Ln) as [P X].
      assert (HM : forall m, hdr s h = Some m -> ns m = true).
      { intros m Em. apply (CL h m Lh Oh). rewrite Em in HH. destruct (cont a h); [discriminate|]. injection HH as ->. left. auto. }
      clear HH. rewrite (@pushed_eq n h s P X) in E. (apply some_inj in E; subst s'). split.
      + destruct (hdr s h) as [m|]; [specialize (HM m eq_refl)|]; auto 10 with loc.
      + intros AG. pose proof AG as [A B]. destruct (A h Oh) as [E1 _]. destruct (B n On) as [E2 E3].
        rewrite (@pushed_eq n h t) by congruence. rewrite <- E1. eexists. split; [reflexivity|].
        destruct (hdr s h) as [m|]; auto 10 with loc.
    - (* sever *)
      destruct AL as (h & Lh & Q & In'), OW as [On Oh]. specialize (Oh h Lh In').
      pose proof (st_lists S h Lh) as SL. pose proof (CL h) as CH. specialize (fun n => CH n Lh Oh).
      destruct (in_split _ _ In') as (u & v & El). rewrite El in SL. apply lists_app in SL. destruct SL as (SU & D & P & SV).
      assert (MP : mine hs ns (endloc (Hd h) u)).
      { apply mine_end; auto. intros x Ix. apply CH. rewrite El, in_app_iff. auto. }
      set (p := endloc (Hd h) u) in *. cbv beta iota delta [exec] in *. unfold severed in *. rewrite P, D, Nat.eqb_refl in E.
      assert (X1 : forall s, nxt (store s p (nxt s n)) n = nxt s n).
      { intros s0. destruct p as [x|x]; simpl; auto. unfold upd. destruct (Nat.eqb_spec n x); subst; auto. }
      rewrite X1, prv_store, P in E. pose proof (head_lists s (Nx n) v SV) as HV. simpl in HV. rewrite HV in E.
      assert (MV : forall m, In m v -> ns m = true) by (intros m Im; apply CH; rewrite El, in_app_iff; simpl; auto).
      split.
      + destruct v as [|m v]; [(apply some_inj in E; subst s'); auto 8 with loc|]. destruct SV as (_ & PM & _).
        rewrite prv_store, PM, Nat.eqb_refl in E. (apply some_inj in E; subst s'). pose proof (MV m (or_introl eq_refl)). auto 10 with loc.
      + intros AG. pose proof AG as [A B]. destruct (B n On) as [E2 E3]. rewrite <- E3, P, (agree_deref p AG MP), D, Nat.eqb_refl.
        rewrite X1, prv_store, <- E3, P, <- E2, HV. destruct v as [|m v].
        * (apply some_inj in E; subst s'). eexists. split; [reflexivity|]. auto 8 with loc.
        * destruct SV as (_ & PM & _). destruct (B m (MV m (or_introl eq_refl))) as [_ E4].
          rewrite prv_store, PM, Nat.eqb_refl in E. rewrite prv_store, <- E4, PM, Nat.eqb_refl. (apply some_inj in E; subst s').
          eexists. split; [reflexivity|]. auto 10 with loc.
    - (* create *)
      (apply some_inj in E; subst s'). unfold new_queue. split; [auto 8 with loc|]. intros AG. eexists. split; [reflexivity|]. unfold new_queue. auto with loc.
    - (* enqueue *)
      destruct AL as (Ln & Lq & Q), OW as [On Oq]. cbv beta iota delta [exec] in *. unfold enqueued in *.
      pose proof (st_queue S q Lq Q) as BQ.
      assert (BM : forall z, bck s q = Some z -> ns z = true) by (intros z Ez; apply (CL q z Lq Oq); apply final_in; congruence).
      assert (G : forall s t, agree hs ns s t -> bck s q = bck t q) by (intros s0 t0 [A _]; apply (A q Oq)).
      destruct (nxt s n) eqn:X; [discriminate|]. destruct (prv s n) eqn:P; [discriminate|].
      destruct (negb _) eqn:NB in E; [discriminate|]. split.
      + destruct (bck s q) as [z|].
        * specialize (BM z eq_refl). destruct (is_none (nxt s z)); [|discriminate]. (apply some_inj in E; subst s'). auto 8 with loc.
        * (apply some_inj in E; subst s'). auto 8 with loc.
      + intros AG. pose proof AG as [A B]. destruct (A q Oq) as [E1 E2]. destruct (B n On) as [E3 E4].
        rewrite <- E3, X, <- E4, P, <- E1, <- E2, NB. destruct (bck s q) as [z|].
        * destruct (B z (BM z eq_refl)) as [E5 _]. rewrite <- E5. destruct (is_none (nxt s z)); [|discriminate]. (apply some_inj in E; subst s').
          eexists. split; [reflexivity|]. auto with loc.
        * (apply some_inj in E; subst s'). eexists. split; [reflexivity|]. auto with loc.
    - (* append *)
      destruct AL as (NE & Lq & Q & Lr & R), OW as [Oq Or]. cbv beta iota delta [exec] in *. unfold append_nodes in *.
      pose proof (st_queue S q Lq Q) as BQ. pose proof (st_queue S r Lr R) as BR.
      pose proof (hdr_of q S Lq) as HQ. pose proof (hdr_of r S Lr) as HR.
      assert (ZQ : forall z, bck s q = Some z -> ns z = true) by (intros z Ez; apply (CL q z Lq Oq); apply final_in; congruence).
      assert (ZR : forall z, bck s r = Some z -> ns z = true) by (intros z Ez; apply (CL r z Lr Or); apply final_in; congruence).
      assert (FQ : forall z, hdr s q = Some z -> ns z = true).
      { intros z Ez. apply (CL q z Lq Oq). rewrite Ez in HQ. destruct (cont a q); [discriminate|]. injection HQ as ->. left. auto. }
      assert (FR : forall z, hdr s r = Some z -> ns z = true).
      { intros z Ez. apply (CL r z Lr Or). rewrite Ez in HR. destruct (cont a r); [discriminate|]. injection HR as ->. left. auto. }
      clear BQ BR HQ HR. destruct (negb (Bool.eqb (is_none (hdr s r)) _)) eqn:N1; [discriminate|].
      destruct (negb (Bool.eqb (is_none (hdr s q)) _)) eqn:N2; [discriminate|]. split.
      + destruct (hdr s r) as [f|], (hdr s q) as [g|].
        * specialize (FR f eq_refl). destruct (bck s r) as [zr|]; [|discriminate]. destruct (bck s q) as [zq|]; [|discriminate].
          specialize (ZQ zq eq_refl). destruct (negb (is_none (nxt s zr))); [discriminate|]. destruct (negb (is_none (nxt s zq))); [discriminate|].
          destruct (prv s f) as [p|]; [|discriminate]. destruct (loc_eqb p (Hd r)); [|discriminate]. (apply some_inj in E; subst s'). auto 8 with loc.
        * specialize (FR f eq_refl). (apply some_inj in E; subst s'). auto 8 with loc.
        * specialize (FQ g eq_refl). (apply some_inj in E; subst s'). auto 8 with loc.
        * (apply some_inj in E; subst s'). auto with loc.
      + intros AG. pose proof AG as [A B]. destruct (A q Oq) as [E1 E2]. destruct (A r Or) as [E3 E4].
        rewrite <- E1, <- E2, <- E3, <- E4, N1, N2. destruct (hdr s r) as [f|], (hdr s q) as [g|].
        * destruct (B f (FR f eq_refl)) as [_ E5]. destruct (bck s r) as [zr|]; [|discriminate]. destruct (bck s q) as [zq|]; [|discriminate].
          destruct (B zr (ZR zr eq_refl)) as [E6 _]. destruct (B zq (ZQ zq eq_refl)) as [E7 _]. rewrite <- E5, <- E6, <- E7.
          destruct (negb (is_none (nxt s zr))); [discriminate|]. destruct (negb (is_none (nxt s zq))); [discriminate|].
          destruct (prv s f) as [p|]; [|discriminate]. destruct (loc_eqb p (Hd r)); [|discriminate]. (apply some_inj in E; subst s').
          eexists. split; [reflexivity|]. auto with loc.
        * (apply some_inj in E; subst s'). eexists. split; [reflexivity|]. auto with loc.
        * (apply some_inj in E; subst s'). eexists. split; [reflexivity|]. auto with loc.
        * (apply some_inj in E; subst s'). eexists. split; [reflexivity|]. auto with loc.
    - (* convert *)
      destruct AL as (Lh & Ih & Lq & F), OW as [Oh Oq]. cbv beta iota delta [exec] in *. unfold queue_of in *.
      pose proof (hdr_of h S Lh) as HH. pose proof (st_lists S h Lh) as SL. pose proof (st_nodup SS h Lh) as ND.
      assert (HM : forall m, In m (cont a h) -> ns m = true) by (intros m; apply (CL h m Lh Oh)).
      rewrite HH in E. destruct (cont a h) as [|m r].
      + (apply some_inj in E; subst s'). split; [auto 8 with loc|]. intros AG. pose proof AG as [A B]. destruct (A h Oh) as [E1 _].
        rewrite <- E1, HH. eexists. split; [reflexivity|]. auto with loc.
      + pose proof (HM m (or_introl eq_refl)) as Om.
        destruct (last_from _ m _) as [z|] eqn:EL in E; [|discriminate]. (apply some_inj in E; subst s'). split; [auto 10 with loc|].
        intros AG. pose proof AG as [A B]. destruct (A h Oh) as [E1 _]. rewrite <- E1, HH.
        rewrite (@last_from_agree (set_prv (set_bck (store s (Hd q) (Some m)) q (Some m)) m (Some (Hd q))) _ r); auto with loc.
        * rewrite EL. eexists. split; [reflexivity|]. auto 8 with loc.
        * destruct SL as (_ & _ & SL). apply NoDup_cons_iff in ND. apply lists_frame with (s := s); auto. intros x Ix. simpl.
          rewrite upd_diff; auto. intros ->. tauto.
        * intros x Ix. apply HM. right. auto.
    - (* revert *)
      destruct AL as (Lq & Iq & Lh & Ih & EC), OW as [Oq Oh]. cbv beta iota delta [exec] in *. unfold nodes_of in *.
      pose proof (hdr_of q S Lq) as HQ.
      assert (HM : forall m, hdr s q = Some m -> ns m = true).
      { intros m Em. apply (CL q m Lq Oq). rewrite Em in HQ. destruct (cont a q); [discriminate|]. injection HQ as ->. left. auto. }
      clear HQ. split.
      + destruct (hdr s q) as [m|]; (apply some_inj in E; subst s'); [specialize (HM m eq_refl)|]; auto 8 with loc.
      + intros AG. pose proof AG as [A B]. destruct (A q Oq) as [E1 _]. rewrite <- E1. destruct (hdr s q) as [m|]; (apply some_inj in E; subst s');
        (eexists; split; [reflexivity|]; auto with loc).
    - (* cut *)
      destruct AL as (NE & Lh & Ih & Ld & Id & F), OW as [Oh Od]. cbv beta iota delta [exec] in *. unfold cut in *.
      pose proof (st_lists S h Lh) as SL. pose proof (st_lists S d Ld) as SD.
      assert (HM : forall m, In m (cont a h) -> ns m = true) by (intros m; apply (CL h m Lh Oh)).
      assert (DM : forall m, In m (cont a d) -> ns m = true) by (intros m; apply (CL d m Ld Od)).
      pose proof (@after_spec s _ (Hd h) k SL) as EA. rewrite EA in E.
      pose proof (firstn_skipn k (cont a h)) as FS.
      assert (MP : mine hs ns (endloc (Hd h) (firstn k (cont a h)))).
      { apply mine_end; auto. intros x Ix. apply HM. rewrite <- FS, in_app_iff. auto. }
      assert (AGA : agree hs ns s t -> after k (Hd h) t = endloc (Hd h) (firstn k (cont a h))).
      { intros AG. rewrite <- EA. apply (@after_agree s t (cont a h)); auto. }
      rewrite <- FS in SL. apply lists_app in SL. destruct SL as [_ SV].
      set (p := endloc (Hd h) (firstn k (cont a h))) in *.
      assert (VM : forall m, In m (skipn k (cont a h)) -> ns m = true) by (intros m Im; apply HM; rewrite <- FS, in_app_iff; auto).
      pose proof (head_lists s p _ SV) as HP. pose proof (head_lists s (Hd d) _ SD) as HD.
      rewrite HP, HD in E.
      assert (ADP : agree hs ns s t -> deref t p = deref s p) by (intros; apply agree_deref; auto).
      assert (ADD : agree hs ns s t -> deref t (Hd d) = deref s (Hd d)) by (intros; apply agree_deref; auto).
      destruct (skipn k (cont a h)) as [|n r].
      + unfold cat_nodes in E. split.
        * destruct (cont a d) as [|b l]; (apply some_inj in E; subst s'); [|pose proof (DM b (or_introl eq_refl))]; auto 8 with loc.
        * intros AG. rewrite (AGA AG), (ADP AG), (ADD AG), HP, HD. unfold cat_nodes.
          destruct (cont a d) as [|b l]; (apply some_inj in E; subst s'); (eexists; split; [reflexivity|]; auto with loc).
      + pose proof (VM n (or_introl eq_refl)) as On. destruct SV as (_ & _ & SV).
        assert (LA : agree hs ns s t -> last_from fuel n t = last_from fuel n s).
        { intros AG. apply (@last_from_agree s t r); auto. intros x Ix. apply VM. right. auto. }
        destruct (cont a d) as [|b l]; unfold cat_nodes in E.
        * (apply some_inj in E; subst s'). split; [auto 8 with loc|]. intros AG. rewrite (AGA AG), (ADP AG), (ADD AG), HP, HD. unfold cat_nodes.
          eexists. split; [reflexivity|]. auto with loc.
        * pose proof (DM b (or_introl eq_refl)) as Ob. destruct (last_from fuel n s) as [z|] eqn:EL; [|discriminate]. (apply some_inj in E; subst s').
          assert (Oz : ns z = true).
          { assert (z = last r n). { destruct (le_lt_dec fuel (length r)) as [G|G].
              - exfalso. rewrite <- FS, app_length in F. simpl in F. lia.
              - pose proof (@last_from_lists s r n fuel SV G). congruence. }
            subst z. apply VM. exact (@final_in (n :: r) (last r n) eq_refl). }
          split; [auto 12 with loc|]. intros AG. rewrite (AGA AG), (ADP AG), (ADD AG), HP, HD. unfold cat_nodes. rewrite (LA AG).
          eexists. split; [reflexivity|]. auto 8 with loc.
  Qed.
End Local.

(** ** Interleaving *)

Definition of (f : nat -> nat) (j : nat) (x : nat) : bool := f x =? j.
Definition ops_of (j : nat) (js : list (nat * op)) : list op := map snd (filter (fun e => fst e =? j) js).

(** Every operation is allowed when it comes and is about the lists of the worker whose operation it is. *)
Fixpoint proper (hown nown : nat -> nat) (fuel : nat) (js : list (nat * op)) (a : abs) : Prop :=
  match js with
  | [] => True
  | (j, o) :: js => allowed fuel o a /\ own (of hown j) (of nown j) o a /\ proper hown nown fuel js (effect o a)
  end.

Definition keeps_own (hown nown : nat -> nat) (a : abs) : Prop :=
  forall h n, live a h = true -> In n (cont a h) -> nown n = hown h.

Lemma keeps_own_effect hown nown fuel o j a : keeps_own hown nown a -> allowed fuel o a -> own (of hown j) (of nown j) o a ->
  keeps_own hown nown (effect o a).
Proof.
  unfold of. intros K A O h' n' L I. destruct o as [n h|n|q|n q|q r|h q|q h|h k d]; simpl in *;
    repeat match goal with
           | H : _ /\ _ |- _ => destruct H
           | H : (_ =? _) = true |- _ => apply Nat.eqb_eq in H
           end.
  - repeat cu; simpl in *; auto. destruct I as [<-|I]; auto. congruence.
  - apply in_remove1 in I. destruct I; auto.
  - repeat cu; simpl in *; try tauto; auto.
  - repeat cu; auto. apply in_app_iff in I. destruct I as [I|[<-|[]]]; auto. congruence.
  - repeat cu; try discriminate; auto. apply in_app_iff in I. destruct I as [I|I]; auto. rewrite (K r n'); auto. congruence.
  - assert (h <> q) by congruence. repeat cu; simpl in *; try tauto; auto; try congruence. rewrite (K h n'); auto. congruence.
  - repeat cu; try discriminate; auto; rewrite (K q n'); auto; congruence.
  - pose proof (firstn_skipn k (cont a h)) as FS. repeat cu; auto.
    + apply K; auto. rewrite <- FS. apply in_app_iff. auto.
    + apply in_app_iff in I. destruct I as [I|I]; auto. rewrite (K h n'); [congruence|auto|]. rewrite <- FS. apply in_app_iff. auto.
Qed.

(** C92: whatever the order in which the operations of different workers are interleaved, what each of them ends up with is what it
    would be left with if it were the only one. *)
Theorem C92_interleaving hown nown fuel js : forall s a,
  stands s a -> keeps_own hown nown a -> proper hown nown fuel js a ->
  exists s', execs fuel (map snd js) s = Some s' /\ stands s' (effects (map snd js) a) /\
    forall j, exists sj, execs fuel (ops_of j js) s = Some sj /\ agree (of hown j) (of nown j) s' sj.
Proof.
  assert (G : forall s a (t : nat -> heap), stands s a -> keeps_own hown nown a -> proper hown nown fuel js a ->
    (forall j, agree (of hown j) (of nown j) s (t j)) ->
    exists s', execs fuel (map snd js) s = Some s' /\ stands s' (effects (map snd js) a) /\
      forall j, exists sj, execs fuel (ops_of j js) (t j) = Some sj /\ agree (of hown j) (of nown j) s' sj).
  { induction js as [|[i o] r IH]; intros s a t S K P AG; simpl.
    - exists s. split; auto. split; auto. intros j. exists (t j). auto.
    - destruct P as (A & O & P). destruct (@does_all fuel o s a S A) as (s1 & E & S1). rewrite E.
      assert (CL : closed (of hown i) (of nown i) a).
      { intros h n L H I. unfold of in *. apply Nat.eqb_eq in H. apply Nat.eqb_eq. rewrite (K h n); auto. }
      destruct (@C92_local (of hown i) (of nown i) fuel o s (t i) a s1 S A O CL E) as [U R].
      destruct (R (AG i)) as (ti & Ei & Ai).
      destruct (IH s1 (effect o a) (upd t i ti) S1) as (s' & E' & S' & J); auto.
      + apply (keeps_own_effect fuel o i K A O).
      + intros j. destruct (Nat.eq_dec j i) as [->|N]; [now rewrite upd_same|]. rewrite upd_diff by auto.
        destruct (AG j) as [A1 A2], U as [U1 U2]. split.
        * intros h H. unfold of in *. apply Nat.eqb_eq in H. destruct (U1 h); [apply Nat.eqb_neq; congruence|].
          destruct (A1 h); [now apply Nat.eqb_eq|]. split; congruence.
        * intros n H. unfold of in *. apply Nat.eqb_eq in H. destruct (U2 n); [apply Nat.eqb_neq; congruence|].
          destruct (A2 n); [now apply Nat.eqb_eq|]. split; congruence.
      + exists s'. split; auto. split; auto. intros j. destruct (J j) as (sj & Ej & Aj). exists sj. split; auto.
        unfold ops_of. simpl. destruct (Nat.eqb_spec i j) as [<-|N]; simpl.
        * rewrite Ei. now rewrite upd_same in Ej.
        * rewrite upd_diff in Ej by auto. auto. }
  intros s a S K P. apply (G s a (fun _ => s)); auto. intros j. split; auto.
Qed.

(** ** Examples *)

Definition blank : heap := mkHeap (fun _ => None) (fun _ => None) (fun _ => None) (fun _ => None).
(** Ten variables, and nodes that are in no list *)
Definition nothing : abs := mkAbs (fun _ => []) (fun h => h <? 10) (fun _ => false) (fun _ => true).

Lemma blank_stands : stands blank nothing.
Proof. split; [split| | |]; simpl; auto; try discriminate; try (intros; constructor); try tauto. Qed.

Fixpoint listing (fuel : nat) (p : loc) (s : heap) : list nat :=
  match fuel with 0 => [] | S f => match deref s p with Some n => n :: listing f (Nx n) s | None => [] end end.

Definition some_ops : list op :=
  [Push 1 0; Push 2 0; Push 3 0; Push 4 0; Sever 3; Create 10; Enqueue 3 10; Push 5 1; Push 6 1; Cut 0 1 1; Convert 1 11; Append 10 11;
   Revert 10 2; Sever 2].

Example C91_operations_ex : exists s',
  execs 10 some_ops blank = Some s' /\ stands s' (effects some_ops nothing) /\
  listing 10 (Hd 2) s' = [3; 1; 6; 5] /\ listing 10 (Hd 0) s' = [4] /\ prv s' 6 = Some (Nx 1) /\ loose (effects some_ops nothing) 2 = true.
Proof.
  destruct (@C91_operations 10 some_ops blank nothing blank_stands) as (s' & E & S).
  - simpl. repeat split; auto; try discriminate; try lia; try (exists 0; simpl; tauto); exists 2; simpl; tauto.
  - exists s'. split; [exact E|]. split; [exact S|]. vm_compute in E. apply some_inj in E. subst s'. vm_compute. auto.
Qed.

Definition scrambled : list ev := [Half 1; Half 4; Put 4; Half 2; Put 1; Half 3; Put 3; Put 2].
(** Before, the nodes are in a list with the variable 9. *)
Definition in_a_row : heap :=
  mkHeap (fun n => if (1 <=? n) && (n <? 4) then Some (S n) else None) (fun n => if n =? 1 then Some (Hd 9) else Some (Nx (n - 1)))
    (fun h => if h =? 9 then Some 1 else None) (fun _ => None).

Example C91_distribution_ex :
  NoDup scrambled /\ (forall u n v, scrambled = u ++ Put n :: v -> In (Half n) u) /\
  lists in_a_row (Hd 9) [1; 2; 3; 4] /\
  exists s', happen (fun n => n mod 2) scrambled in_a_row = Some s' /\ lists s' (Hd 0) [2; 4] /\ lists s' (Hd 1) [3; 1].
Proof.
  split; [repeat constructor; simpl; intuition discriminate|].
  split.
  { intros u n v E. unfold scrambled in E.
    do 8 (destruct u as [|? u]; simpl in E; [discriminate E || (inversion E; subst; simpl; auto 10)|injection E as <- E]).
    destruct u; discriminate. }
  split; [repeat split|]. eexists. split; [reflexivity|]. repeat split.
Qed.

Example C91_neighbors_left_alone_ex : exists s',
  let s := half_severed 3 (half_severed 1 in_a_row) in
  prv s 2 = Some (Nx 1) /\ deref s (Nx 1) <> Some 2 /\ nxt s 2 = Some 3 /\ prv s 3 <> Some (Nx 2) /\
  severed 2 s = Some s' /\ prv s' 3 = None /\ prv s' 2 = None.
Proof. eexists. simpl. repeat split; try discriminate. Qed.

Definition three_queues : list op := [Create 10; Enqueue 1 10; Enqueue 2 10; Create 11; Create 12; Enqueue 3 12; Enqueue 4 12].
Example C91_union_ex : exists s,
  execs 10 three_queues blank = Some s /\ stands s (effects three_queues nothing) /\
  exists s', node_union 3 [Some 10; Some 11; None; Some 12] s = Some (s', Some 1, Some 3) /\ listing 10 (Nx 1) s' = [2; 3; 4] /\
    prv s' 1 = None /\ prv s' 3 = Some (Nx 2).
Proof.
  destruct (@C91_operations 10 three_queues blank nothing blank_stands) as (s & E & S); [simpl; repeat split; auto|].
  exists s. split; auto. split; auto. vm_compute in E. apply some_inj in E. subst s. eexists. split; [reflexivity|]. vm_compute. auto.
Qed.

(** Worker 0 has variables and nodes that are even. *)
Definition even_odd (x : nat) : nat := x mod 2.
Definition two_workers : list (nat * op) :=
  [(0, Push 2 0); (1, Push 1 1); (1, Push 3 1); (0, Push 4 0); (1, Create 11); (0, Push 6 0); (1, Sever 1); (0, Sever 4); (1, Enqueue 1 11);
   (0, Create 10); (1, Sever 3); (0, Enqueue 4 10); (1, Enqueue 3 11)].

Example C92_interleaving_ex :
  keeps_own even_odd even_odd nothing /\ proper even_odd even_odd 10 two_workers nothing /\
  exists s', execs 10 (map snd two_workers) blank = Some s' /\ listing 10 (Hd 0) s' = [6; 2] /\ listing 10 (Hd 10) s' = [4] /\
    listing 10 (Hd 11) s' = [1; 3] /\
    exists s1, execs 10 (ops_of 1 two_workers) blank = Some s1 /\ listing 10 (Hd 11) s1 = [1; 3] /\ listing 10 (Hd 0) s1 = [].
Proof.
  split; [intros h n _ []|]. split.
  - simpl. unfold of, even_odd.
    repeat split; auto; try (exists 0; simpl; tauto); try (exists 1; simpl; tauto).
    all: intros h L I; cbv [upd remove1 filter] in I; simpl in I.
    all: destruct h as [|[|h]]; simpl in I; auto; try tauto.
    all: exfalso; clear L; repeat match type of I with context [if ?b then _ else _] => destruct b; simpl in I end; intuition discriminate.
  - destruct (execs 10 (map snd two_workers) blank) as [s'|] eqn:E; [|vm_compute in E; discriminate].
    destruct (execs 10 (ops_of 1 two_workers) blank) as [s1|] eqn:E1; [|vm_compute in E1; discriminate].
    exists s'. split; auto. vm_compute in E. apply some_inj in E. subst s'. split; [vm_compute; auto|]. split; [vm_compute; auto|].
    split; [vm_compute; auto|]. exists s1. split; auto. vm_compute in E1. apply some_inj in E1. subst s1. split; vm_compute; auto.
Qed.

(** Here, the other worker's list has something else in it. *)
Example C92_local_ex : exists s t,
  execs 10 [Push 2 0; Push 4 0; Push 1 1] blank = Some s /\ execs 10 [Push 2 0; Push 4 0; Push 3 1; Push 5 1] blank = Some t /\
  agree (of even_odd 0) (of even_odd 0) s t /\ ~ agree (of even_odd 1) (of even_odd 1) s t /\
  exists s' t', exec 10 (Sever 2) s = Some s' /\ exec 10 (Sever 2) t = Some t' /\ listing 10 (Hd 0) s' = [4] /\ listing 10 (Hd 0) t' = [4].
Proof.
  destruct (execs 10 [Push 2 0; Push 4 0; Push 1 1] blank) as [s|] eqn:E1; [|vm_compute in E1; discriminate].
  destruct (execs 10 [Push 2 0; Push 4 0; Push 3 1; Push 5 1] blank) as [t|] eqn:E2; [|vm_compute in E2; discriminate].
  exists s, t. split; auto. split; auto. vm_compute in E1, E2. apply some_inj in E1, E2. subst s t. split; [|split].
  - split; intros x X; destruct x as [|[|[|[|[|[|x]]]]]]; try (vm_compute in X; discriminate X); vm_compute; auto.
  - intros [A _]. destruct (A 1 eq_refl) as [B _]. vm_compute in B. discriminate B.
  - match goal with |- exists s' t', ?a = _ /\ ?b = _ /\ _ =>
      destruct a as [s'|] eqn:F1; [|vm_compute in F1; discriminate]; destruct b as [t'|] eqn:F2; [|vm_compute in F2; discriminate] end.
    exists s', t'. split; auto. split; auto. vm_compute in F1, F2. apply some_inj in F1, F2. subst s' t'. vm_compute. auto.
Qed.
