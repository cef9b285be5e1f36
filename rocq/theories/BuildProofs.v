(** Invariants of the building task (Build.v). *)
From Coq Require Import List Arith NArith Lia Bool Permutation.
From Verif Require Import Base Machine Brigade BrigadeProofs Graph Build.
Import ListNotations.

Section BuildProofs.
  Context {V E : Type}.
  Variable B : builder V E.
  Variable X : env.
  Hypothesis Hveq : equivalence (b_veq B).
  Hypothesis Hvh : forall x y, b_veq B x y = true -> b_vhash B x = b_vhash B y.
  Hypothesis Heeq : equivalence (b_eeq B).
  Hypothesis Heh : forall x y, b_eeq B x y = true -> b_ehash B x = b_ehash B y.
  Hypothesis Hlanes : 0 < lanes X.
  Variable v0 : V.

  Notation bst := (@bst V E).
  Notation pkt := (@pkt V E).
  Notation bedge := (@bedge V E).
  Notation nn s := (length (verts s)).
  Notation vt s n := (vtx s n v0).
  Notation ln v := (lane X (b_vhash B v)).
  Notation bn v := (bin X (b_vhash B v)).

  Lemma vtx_nth_error (s : bst) n : n < nn s -> nth_error (verts s) n = Some (vt s n).
  Proof. intros. now apply nth_error_nth'. Qed.

  Lemma vtx_default (s : bst) n d d' : n < nn s -> vtx s n d = vtx s n d'.
  Proof. intros. now apply nth_indep. Qed.

  Lemma seq_snoc n : seq 0 (S n) = seq 0 n ++ [n].
  Proof. now rewrite seq_S. Qed.

  Lemma filter_ext_in' {A} (f g : A -> bool) l :
    (forall x, In x l -> f x = g x) -> filter f l = filter g l.
  Proof. apply filter_ext_in. Qed.

  (** ** What a step does *)

  (** The state on which a round operates. *)
  Notation b1 s := (begin X s).

  Inductive effect (s : bst) (p : pkt) : bst -> list pkt -> Prop :=
  | ef_discard s' :
      verts s' = verts s -> outs s' = outs s -> seen s' = seen s -> tab s' = tab s ->
      queue s' = queue s -> res s' = res s -> ne s' = ne s -> calls s' = calls s ->
      occs s' = occs s -> efree s' = efree s -> hv s' = hv s -> he s' = he s ->
      vfree s' = pay p :: vfree s -> killed s' = true -> lkil s' = upd (lkil s) (dest B X p) true ->
      (((lerr s (dest B X p) <> None \/ lkil s (dest B X p) = true \/ killed (b1 s) = true) /\
        lerr s' = lerr s /\ count s' = count s) \/
       (limit B X <> 0 /\ limit B X <= count s (dest B X p) /\ lerr s (dest B X p) = None /\
        collision B X s (dest B X p) p = None /\
        lerr s' = upd (lerr s) (dest B X p) (Some INTOVF) /\
        count s' = upd (count s) (dest B X p) (S (count s (dest B X p))))) ->
      effect s p s' []
  | ef_extant n s' :
      lerr s (dest B X p) = None -> lkil s (dest B X p) = false ->
      collision B X s (dest B X p) p = Some n ->
      (b_sub B = false \/ lab p = None \/ exists x, lab p = Some x /\
         recorded (b_eeq B) (judy X) (b_ehash B x) x (seen s n) = true) ->
      verts s' = verts s -> outs s' = outs s -> seen s' = seen s -> tab s' = tab s ->
      queue s' = queue s -> res s' = set_remote s p n -> ne s' = ne s -> calls s' = calls s ->
      occs s' = occs s -> efree s' = efree s -> hv s' = hv s -> he s' = he s ->
      vfree s' = pay p :: vfree s -> killed s' = killed (b1 s) -> lkil s' = lkil s ->
      lerr s' = lerr s -> count s' = count s ->
      effect s p s' []
  | ef_call n x k f e s' :
      lerr s (dest B X p) = None -> lkil s (dest B X p) = false ->
      collision B X s (dest B X p) p = Some n ->
      b_sub B = true -> lab p = Some x ->
      recorded (b_eeq B) (judy X) (b_ehash B x) x (seen s n) = false ->
      declare B X (Some x) (vtx s n (pay p)) = (k, f, e) ->
      verts s' = verts s -> outs s' = upd (outs s) n (number (ne s) k ++ outs s n) ->
      seen s' = upd (seen s) n (seen s n ++ [(b_ehash B x, x)]) -> tab s' = tab s ->
      queue s' = queue s -> res s' = set_remote s p n -> ne s' = ne s + length k ->
      calls s' = (Some x, vtx s n (pay p)) :: calls s ->
      occs s' = upd (occs s) n (Some x :: occs s n) ->
      efree s' = map fst f ++ efree s ->
      hv s' = map snd (fst (b_conn B (Some x) (vtx s n (pay p)))) ++ hv s ->
      he s' = map fst (fst (b_conn B (Some x) (vtx s n (pay p)))) ++ he s ->
      vfree s' = map snd f ++ pay p :: vfree s -> killed s' = killed (b1 s) -> lkil s' = lkil s ->
      lerr s' = upd (lerr s) (dest B X p) e -> count s' = count s ->
      effect s p s' (scatter (number (ne s) k))
  | ef_new k f e s' :
      lerr s (dest B X p) = None -> lkil s (dest B X p) = false ->
      collision B X s (dest B X p) p = None ->
      (limit B X = 0 /\ count s' = count s \/
       count s (dest B X p) < limit B X /\ count s' = upd (count s) (dest B X p) (S (count s (dest B X p)))) ->
      declare B X (occ B p) (pay p) = (k, f, e) ->
      verts s' = verts s ++ [pay p] -> outs s' = upd (outs s) (nn s) (number (ne s) k ++ outs s (nn s)) ->
      seen s' = match occ B p with
                | Some x => upd (seen s) (nn s) (record_edge (b_eeq B) (judy X) (b_ehash B x) x (seen s (nn s)))
                | None => seen s end ->
      tab s' = upd (tab s) (dest B X p) (fun k => if N.eqb k (bn (pay p)) then tab s (dest B X p) k ++ [nn s]
                                                   else tab s (dest B X p) k) ->
      queue s' = upd (queue s) (dest B X p) (queue s (dest B X p) ++ [nn s]) ->
      res s' = set_remote s p (nn s) -> ne s' = ne s + length k ->
      calls s' = (occ B p, pay p) :: calls s ->
      occs s' = upd (occs s) (nn s) (occ B p :: occs s (nn s)) ->
      efree s' = map fst f ++ efree s ->
      hv s' = map snd (fst (b_conn B (occ B p) (pay p))) ++ hv s ->
      he s' = map fst (fst (b_conn B (occ B p) (pay p))) ++ he s ->
      vfree s' = map snd f ++ vfree s -> killed s' = killed (b1 s) -> lkil s' = lkil s ->
      lerr s' = upd (lerr s) (dest B X p) e ->
      effect s p s' (scatter (number (ne s) k)).

  Lemma task_effect s p s' out : task B X s p = Some (s', out) -> effect s p s' out.
  Proof.
    unfold task, process. intros H.
    assert (Dis : forall d, d = discard (b1 s) (dest B X p) p -> Some d = Some (s', out) ->
                  lerr s (dest B X p) <> None \/ lkil s (dest B X p) = true \/ killed (b1 s) = true -> effect s p s' out).
    { intros d -> Hd Hc. inversion Hd; subst. apply ef_discard; simpl; auto. }
    simpl (lerr (b1 s) (dest B X p)) in H. simpl (lkil (b1 s) (dest B X p)) in H.
    destruct (lerr s (dest B X p)) as [e0|] eqn:El; [eapply Dis; [reflexivity|exact H|left; congruence]|].
    destruct (lkil s (dest B X p)) eqn:Ek; [simpl in H; eapply Dis; [reflexivity|exact H|auto]|].
    simpl (false || _) in H.
    destruct ((killed s || killcalls X (tick s)) && notices X (S (tick s))) eqn:En.
    { apply andb_prop in En as [En _]. eapply Dis; [reflexivity|exact H|auto]. }
    clear Dis.
    change (collision B X (b1 s) (dest B X p) p) with (collision B X s (dest B X p) p) in H.
    destruct (collision B X s (dest B X p) p) as [n|] eqn:Ec.
    - unfold reach_extant in H. change (vtx (b1 s) n (pay p)) with (vtx s n (pay p)) in H.
      change (seen (b1 s) n) with (seen s n) in H.
      assert (Ext : forall sr, sr = s' ->
          (b_sub B = false \/ lab p = None \/ exists x, lab p = Some x /\
         recorded (b_eeq B) (judy X) (b_ehash B x) x (seen s n) = true) ->
         sr = mkB (verts (b1 s)) (outs (b1 s)) (seen (b1 s)) (tab (b1 s)) (queue (b1 s)) (set_remote (b1 s) p n) (ne (b1 s))
                  (count (b1 s)) (lerr (b1 s)) (lkil (b1 s)) (killed (b1 s)) (tick (b1 s)) (calls (b1 s)) (occs (b1 s))
                  (pay p :: vfree (b1 s)) (efree (b1 s)) (hv (b1 s)) (he (b1 s)) -> effect s p s' []).
      { intros sr <- Hc ->. eapply ef_extant with (n := n); simpl; auto. }
      destruct (b_sub B) eqn:Es; [|inversion H; subst; eapply Ext; eauto].
      destruct (lab p) as [x|] eqn:Elab; [|inversion H; subst; eapply Ext; eauto].
      destruct (recorded (b_eeq B) (judy X) (b_ehash B x) x (seen s n)) eqn:Er.
      { inversion H; subst; eapply Ext; eauto. }
      unfold connect in H. destruct (declare B X (Some x) (vtx s n (pay p))) as [[k f] e] eqn:Ed.
      inversion H; subst; clear H. simpl.
      eapply ef_call with (n := n) (x := x) (f := f) (e := e); simpl; eauto.
      unfold record_edge. now rewrite Er.
    - destruct (Nat.eqb (limit B X) 0) eqn:E0.
      + apply Nat.eqb_eq in E0. unfold reached_new, connect in H.
        destruct (declare B X (occ B p) (pay p)) as [[k f] e] eqn:Ed.
        inversion H; subst; clear H. simpl.
        eapply ef_new with (f := f) (e := e); simpl; eauto.
      + apply Nat.eqb_neq in E0. destruct (count (b1 s) (dest B X p) <? limit B X) eqn:Elt.
        * apply Nat.ltb_lt in Elt. unfold reached_new, connect in H.
          destruct (declare B X (occ B p) (pay p)) as [[k f] e] eqn:Ed.
          inversion H; subst; clear H. simpl in *.
          eapply ef_new with (f := f) (e := e); simpl; eauto.
        * apply Nat.ltb_ge in Elt. inversion H; subst; clear H. simpl in *.
          apply ef_discard; simpl; auto 10.
  Qed.

  (** ** Facts about [declare], [number] and [scatter] *)

  Definition deq (d d' : E * V) : bool := b_eeq B (fst d) (fst d') && b_veq B (snd d) (snd d').

  Lemma declare_ok o v k f e :
    declare B X o v = (k, f, e) ->
    e = snd (b_conn B o v) /\ Permutation (fst (b_conn B o v)) (k ++ f) /\
    (e = None -> dedup deq (fst (b_conn B o v)) k f) /\ (e <> None -> k = []).
  Proof.
    unfold declare. destruct (b_conn B o v) as [ds [e0|]]; simpl.
    - intros H. inversion H; subst. repeat split; auto; congruence.
    - destruct (unique _ _ _ _ ds) as [k0 f0] eqn:Eu. intros H. inversion H; subst.
      pose proof (@unique_dedup _ (judy X) (fun d => b_ehash B (fst d))
                        (fun d d' : E * V => b_eeq B (fst d) (fst d'))
                        (fun d d' : E * V => b_veq B (snd d) (snd d')) ds) as D.
      rewrite Eu in D. simpl in D.
      assert (D' : dedup deq ds k f).
      { apply D.
        - split; intros *; [apply (eqv_refl Heeq)|apply (eqv_sym Heeq)|apply (eqv_trans Heeq)].
        - split; intros *; [apply (eqv_refl Hveq)|apply (eqv_sym Hveq)|apply (eqv_trans Hveq)].
        - intros; now apply Heh. }
      repeat split; auto; try congruence. apply (dd_perm D').
      all: try apply D'; auto.
  Qed.

  Lemma number_eids i (k : list (E * V)) : map eid (number i k) = seq i (length k).
  Proof.
    unfold number. rewrite map_map. simpl.
    revert i. induction k; intros i; simpl; auto. now rewrite IHk.
  Qed.

  Lemma number_contents i (k : list (E * V)) : map (fun e => (elab e, edst e)) (number i k) = k.
  Proof.
    unfold number. rewrite map_map. simpl.
    revert i. induction k as [|[a b] k IH]; intros i; simpl; auto. now rewrite IH.
  Qed.

  Lemma number_labs i (k : list (E * V)) : map elab (number i k) = map fst k.
  Proof. rewrite <- (number_contents i k) at 2. now rewrite map_map. Qed.

  Lemma number_dsts i (k : list (E * V)) : map edst (number i k) = map snd k.
  Proof. rewrite <- (number_contents i k) at 2. now rewrite map_map. Qed.

  Lemma number_in i (k : list (E * V)) e : In e (number i k) -> i <= eid e < i + length k /\ In (elab e, edst e) k.
  Proof.
    clear Hlanes. intros H. split.
    - apply (in_map eid) in H. rewrite number_eids in H. apply in_seq in H. lia.
    - apply (in_map (fun e => (elab e, edst e))) in H. now rewrite number_contents in H.
  Qed.

  Lemma scatter_pay (es : list bedge) : map pay (scatter es) = map edst es.
  Proof. unfold scatter. now rewrite map_map. Qed.
  Lemma scatter_car (es : list bedge) : map car (scatter es) = map (fun e => Some (eid e)) es.
  Proof. unfold scatter. now rewrite map_map. Qed.

  (** ** Structure of tables and queues *)

  Definition inlane (s : bst) (l : nat) (n : nat) : bool := Nat.eqb (ln (vt s n)) l.

  Record inv1 (s : bst) : Prop := {
    i_tab : forall l k, tab s l k = filter (fun n => inlane s l n && N.eqb (bn (vt s n)) k) (seq 0 (nn s));
    i_queue : forall l, queue s l = filter (inlane s l) (seq 0 (nn s));
    i_distinct : forall i j, i < j -> j < nn s -> b_veq B (vt s i) (vt s j) = false;
    i_outs : forall n, nn s <= n -> outs s n = [];
    i_seen : forall n, nn s <= n -> seen s n = [];
    i_occs : forall n, nn s <= n -> occs s n = []
  }.

  Lemma vt_app (s s' : bst) v n : verts s' = verts s ++ [v] -> n < nn s -> vt s' n = vt s n.
  Proof. intros H Hn. unfold vtx. rewrite H. now apply app_nth1. Qed.

  Lemma vt_last (s s' : bst) v : verts s' = verts s ++ [v] -> vt s' (nn s) = v.
  Proof. intros H. unfold vtx. rewrite H. rewrite app_nth2, Nat.sub_diag; auto. Qed.

  Lemma collision_some s p n :
    inv1 s -> collision B X s (dest B X p) p = Some n -> n < nn s /\ b_veq B (pay p) (vt s n) = true.
  Proof.
    clear Hlanes. intros I H. unfold collision in H. apply find_some in H as [H1 H2].
    rewrite (i_tab _ I) in H1. apply filter_In in H1 as [H1 _]. apply in_seq in H1.
    split; [lia|]. rewrite <- H2. f_equal. apply vtx_default. lia.
  Qed.

  Lemma collision_none s p :
    inv1 s -> collision B X s (dest B X p) p = None -> forall n, n < nn s -> b_veq B (pay p) (vt s n) = false.
  Proof.
    intros I H n Hn. destruct (b_veq B (pay p) (vt s n)) eqn:Eq; auto. exfalso.
    unfold collision in H. apply find_none with (x := n) in H.
    - rewrite (vtx_default s n (pay p) v0) in H; auto. congruence.
    - rewrite (i_tab _ I). apply filter_In. split; [apply in_seq; lia|].
      unfold inlane, dest. rewrite (Hvh _ _ Eq). now rewrite Nat.eqb_refl, N.eqb_refl.
  Qed.

  Lemma inv1_step s p s' out : inv1 s -> effect s p s' out -> inv1 s'.
  Proof.
    intros I Ef. destruct Ef.
    - destruct I as [T Q D O Sn C]. split; intros; unfold inlane, vtx in *; rewrite ?H, ?H0, ?H1, ?H2, ?H3, ?H7 in *; auto.
    - destruct I as [T Q D O Sn C]. split; intros; unfold inlane, vtx in *; rewrite ?H3, ?H4, ?H5, ?H6, ?H7, ?H11 in *; auto.
    - pose proof (collision_some s p n I H1) as [Hn _].
      destruct I as [T Q D O Sn C]. split; intros; unfold inlane, vtx in *;
        rewrite ?H6, ?H7, ?H8, ?H9, ?H10, ?H14 in *; auto; rewrite upd_diff by lia; auto.
    - pose proof (collision_none s p I H1) as Hno.
      destruct I as [T Q D O Sn C].
      assert (L : nn s' = S (nn s)) by (rewrite H4, app_length; simpl; lia).
      assert (Vl : vt s' (nn s) = pay p) by (eapply vt_last; eauto).
      assert (Vo : forall n, n < nn s -> vt s' n = vt s n) by (intros; eapply vt_app; eauto).
      split.
      + intros l b. rewrite L, seq_snoc, filter_app. simpl. unfold inlane at 2. rewrite Vl.
        rewrite (filter_ext_in' _ (fun n => inlane s l n && N.eqb (bn (vt s n)) b)).
        2:{ intros x Hx. apply in_seq in Hx. unfold inlane. rewrite Vo by lia. auto. }
        rewrite <- T, H7. unfold upd. rewrite (Nat.eqb_sym _ l). fold (dest B X p).
        destruct (Nat.eqb l (dest B X p)) eqn:El; simpl; [|now rewrite app_nil_r].
        apply Nat.eqb_eq in El. subst l. rewrite (N.eqb_sym b).
        destruct (N.eqb (bn (pay p)) b); auto. now rewrite app_nil_r.
      + intros l. rewrite L, seq_snoc, filter_app. simpl. unfold inlane at 2. rewrite Vl.
        rewrite (filter_ext_in' _ (inlane s l)).
        2:{ intros x Hx. apply in_seq in Hx. unfold inlane. rewrite Vo by lia. auto. }
        rewrite <- Q, H8. unfold upd. rewrite (Nat.eqb_sym _ l). fold (dest B X p).
        destruct (Nat.eqb l (dest B X p)) eqn:El; simpl; [|now rewrite app_nil_r].
        apply Nat.eqb_eq in El. now subst l.
      + intros i j Hij Hj. rewrite L in Hj. destruct (Nat.eq_dec j (nn s)) as [->|Hne].
        * rewrite Vl, Vo by lia. rewrite (eqv_symb Hveq). apply Hno. lia.
        * rewrite !Vo by lia. apply D; lia.
      + intros n Hn. rewrite H5, upd_diff by lia. apply O. lia.
      + intros n Hn. rewrite H6. destruct (occ B p); [rewrite upd_diff by lia|]; apply Sn; lia.
      + intros n Hn. rewrite H12, upd_diff by lia. apply C. lia.
  Qed.

  Lemma inv1_start : inv1 (start v0).
  Proof. split; simpl; auto. intros. lia. Qed.

  (** ** Edges and packets *)

  Notation alle s := (flat (nn s) (outs s)).

  Definition clean (s : bst) : Prop := (forall l, lerr s l = None) /\ killed s = false.

  (** Some (sub)connector call for node [m] was about a label equal to [x]. *)
  Definition hasocc (s : bst) (m : nat) (x : E) : Prop :=
    if b_sub B then exists y, In (Some y) (occs s m) /\ b_eeq B x y = true
    else In None (occs s m).

  Record occs_ok (s : bst) (n : nat) : Prop := {
    oo_conn : b_sub B = false -> occs s n = [None] /\ seen s n = [];
    oo_sub : b_sub B = true ->
      exists ls, occs s n = map Some ls ++ (if Nat.eqb n 0 then [None] else []) /\
        map snd (seen s n) = rev ls /\ tabok (b_ehash B) (seen s n) /\
        ForallOrdPairs (fun x y => b_eeq B x y = false) ls
  }.

  Record inv2 (s : bst) (bag : list pkt) : Prop := {
    j_eids : NoDup (map eid (alle s));
    j_bound : forall e, In e (alle s) -> eid e < ne s;
    j_resb : forall i m, res s i = Some m -> i < ne s;
    j_res : forall e m, In e (alle s) -> res s (eid e) = Some m ->
              m < nn s /\ b_veq B (edst e) (vt s m) = true /\ hasocc s m (elab e);
    j_bag : forall p i, In p bag -> car p = Some i ->
              res s i = None /\ exists e, In e (alle s) /\ eid e = i /\ edst e = pay p /\ lab p = Some (elab e);
    j_nd : NoDup (map car bag);
    j_none : forall p, In p bag -> car p = None -> p = first v0 /\ nn s = 0 /\ bag = [p];
    j_lkil : forall l, lkil s l = true -> killed s = true;
    j_compl : clean s ->
              (forall e, In e (alle s) -> res s (eid e) = None -> In (Some (eid e)) (map car bag)) /\
              (nn s = 0 -> bag = [first v0]);
    j_cont : forall n, n < nn s ->
              map (fun e => (elab e, edst e)) (outs s n) = flat_map (fun o => fst (fst (declare B X o (vt s n)))) (occs s n);
    j_occs : forall n, n < nn s -> occs_ok s n
  }.

  Lemma scatter_in (es : list bedge) p : In p (scatter es) ->
    exists e, In e es /\ pay p = edst e /\ car p = Some (eid e) /\ lab p = Some (elab e).
  Proof. unfold scatter. rewrite in_map_iff. intros (e & <- & H). exists e. auto. Qed.

  Record linked (s : bst) (p : pkt) (s' : bst) (m : nat) (k : list (E * V)) : Prop := {
    lk_nn : nn s <= nn s';
    lk_vt : forall n, n < nn s -> vt s' n = vt s n;
    lk_all : Permutation (alle s') (number (ne s) k ++ alle s);
    lk_ne : ne s' = ne s + length k;
    lk_m : m < nn s';
    lk_res : res s' = set_remote s p m;
    lk_veq : b_veq B (pay p) (vt s' m) = true;
    lk_old : forall n x, n < nn s -> hasocc s n x -> hasocc s' n x;
    lk_occ : forall x, lab p = Some x -> hasocc s' m x;
    lk_clean : clean s' -> clean s;
    lk_lkil : lkil s' = lkil s;
    lk_killed : killed s = true -> killed s' = true
  }.

  Definition inv2a (s : bst) (bag : list pkt) : Prop :=
    NoDup (map eid (alle s)) /\
    (forall e, In e (alle s) -> eid e < ne s) /\
    (forall i m, res s i = Some m -> i < ne s) /\
    (forall e m, In e (alle s) -> res s (eid e) = Some m ->
              m < nn s /\ b_veq B (edst e) (vt s m) = true /\ hasocc s m (elab e)) /\
    (forall p i, In p bag -> car p = Some i ->
              res s i = None /\ exists e, In e (alle s) /\ eid e = i /\ edst e = pay p /\ lab p = Some (elab e)) /\
    NoDup (map car bag) /\
    (forall p, In p bag -> car p = None -> p = first v0 /\ nn s = 0 /\ bag = [p]) /\
    (forall l, lkil s l = true -> killed s = true) /\
    (clean s ->
              (forall e, In e (alle s) -> res s (eid e) = None -> In (Some (eid e)) (map car bag)) /\
              (nn s = 0 -> bag = [first v0])).

  Lemma inv2_split s bag :
    inv2 s bag <-> inv2a s bag /\
      (forall n, n < nn s ->
              map (fun e => (elab e, edst e)) (outs s n) = flat_map (fun o => fst (fst (declare B X o (vt s n)))) (occs s n)) /\
      (forall n, n < nn s -> occs_ok s n).
  Proof.
    unfold inv2a. split.
    - intros []. auto 20.
    - intros ((? & ? & ? & ? & ? & ? & ? & ? & ?) & ? & ?). split; auto.
  Qed.

  Lemma inv2a_link s p bag s' m k :
    inv2a s (p :: bag) -> linked s p s' m k -> inv2a s' (scatter (number (ne s) k) ++ bag).
  Proof.
    intros (J1 & J2 & J3 & J4 & J5 & J6 & J7 & J8 & J9) [L1 L2 L3 L4 L5 L6 L7 L8 L9 L10 L11 L12].
    assert (Nb : forall e, In e (number (ne s) k) -> ne s <= eid e < ne s').
    { intros e He. apply number_in in He. lia. }
    assert (Cb : forall i, car p = Some i -> i < ne s /\ res s i = None).
    { intros i Hi. destruct (J5 p i) as (R & e & He & <- & _); simpl; auto. }
    assert (Hin : forall e, In e (alle s') <-> In e (number (ne s) k) \/ In e (alle s)).
    { intros e. rewrite <- in_app_iff. split; apply Permutation_in; [|symmetry]; auto. }
    assert (Bc : forall q i, In q bag -> car q = Some i -> Some i <> car p).
    { intros q i Hq Hi Hc. simpl in J6. apply NoDup_cons_iff in J6 as [J6 _]. apply J6.
      rewrite <- Hc, <- Hi. now apply in_map. }
    assert (Rs : forall i, Some i <> car p -> res s' i = res s i).
    { intros i Hi. rewrite L6. unfold set_remote. destruct (car p) as [j|]; auto.
      apply upd_diff. congruence. }
    assert (Rp : forall i, car p = Some i -> res s' i = Some m).
    { intros i Hi. rewrite L6. unfold set_remote. rewrite Hi. apply upd_same. }
    assert (Cp : forall i, Some i = car p \/ Some i <> car p).
    { intros i. destruct (car p) as [j|]; [destruct (Nat.eq_dec i j); [left|right]; congruence|right; discriminate]. }
    assert (Bn : forall q, In q bag -> car q <> None).
    { intros q Hq Hc. destruct (J7 q) as (_ & _ & Hb); simpl; auto.
      inversion Hb; subst. contradiction. }
    repeat split.
    - apply (Permutation_map eid) in L3. eapply Permutation_NoDup; [symmetry; exact L3|].
      rewrite map_app, number_eids.
      assert (G : forall l1 l2 : list nat, NoDup l1 -> NoDup l2 -> (forall x, In x l1 -> ~ In x l2) -> NoDup (l1 ++ l2)).
      { induction l1; simpl; intros l2 N1 N2 N3; auto. inversion N1; subst. constructor.
        - rewrite in_app_iff. intros [?|?]; auto. apply (N3 a); auto.
        - apply IHl1; auto. }
      apply G; auto using seq_NoDup. intros x Hx Hy. apply in_seq in Hx. apply in_map_iff in Hy as (e & <- & He).
      apply J2 in He. lia.
    - intros e He. apply Hin in He as [He|He]; [apply Nb in He; lia|]. apply J2 in He. lia.
    - intros i j Hr. destruct (Cp i) as [Hc|Hc].
      + symmetry in Hc. apply Cb in Hc. lia.
      + rewrite Rs in Hr by auto. apply J3 in Hr. lia.
    - destruct (Cp (eid e)) as [Hc|Hc].
      + rewrite Rp in H0 by auto. inversion H0; subst. auto.
      + rewrite Rs in H0 by auto. apply Hin in H as [H|H].
        * apply Nb in H. apply J3 in H0. lia.
        * apply J4 in H0 as (? & _); auto. lia.
    - destruct (Cp (eid e)) as [Hc|Hc].
      + rewrite Rp in H0 by auto. inversion H0; subst.
        apply Hin in H as [H|H]; [apply Nb in H; symmetry in Hc; apply Cb in Hc; lia|].
        destruct (J5 p (eid e)) as (_ & e' & He' & E1 & E2 & E3); simpl; auto.
        assert (e = e').
        { destruct (In_nth_error _ _ H) as (a & Ha). destruct (In_nth_error _ _ He') as (b & Hb).
          assert (a = b).
          { rewrite NoDup_nth_error in J1. apply J1.
            - rewrite map_length. apply nth_error_Some. congruence.
            - rewrite !nth_error_map, Ha, Hb. simpl. congruence. }
          congruence. }
        subst e'. now rewrite E2.
      + rewrite Rs in H0 by auto. apply Hin in H as [H|H].
        * apply Nb in H. apply J3 in H0. lia.
        * apply J4 in H0 as (? & ? & _); auto. now rewrite L2.
    - destruct (Cp (eid e)) as [Hc|Hc].
      + rewrite Rp in H0 by auto. inversion H0; subst.
        apply Hin in H as [H|H]; [apply Nb in H; symmetry in Hc; apply Cb in Hc; lia|].
        destruct (J5 p (eid e)) as (_ & e' & He' & E1 & E2 & E3); simpl; auto.
        assert (e = e').
        { destruct (In_nth_error _ _ H) as (a & Ha). destruct (In_nth_error _ _ He') as (b & Hb).
          assert (a = b).
          { rewrite NoDup_nth_error in J1. apply J1.
            - rewrite map_length. apply nth_error_Some. congruence.
            - rewrite !nth_error_map, Ha, Hb. simpl. congruence. }
          congruence. }
        subst e'. now apply L9.
      + rewrite Rs in H0 by auto. apply Hin in H as [H|H].
        * apply Nb in H. apply J3 in H0. lia.
        * apply J4 in H0 as (? & ? & ?); auto.
    - apply in_app_or in H as [H|H].
      + apply scatter_in in H as (e & He & E1 & E2 & E3). rewrite E2 in H0. inversion H0; subst.
        rewrite Rs; [destruct (res s (eid e)) eqn:Er; auto; apply J3 in Er; apply Nb in He; lia|].
        intros Hc. symmetry in Hc. apply Cb in Hc. apply Nb in He. lia.
      + rewrite Rs by (eapply Bc; eauto). apply (J5 p0); simpl; auto.
    - apply in_app_or in H as [H|H].
      + apply scatter_in in H as (e & He & E1 & E2 & E3). rewrite E2 in H0. inversion H0; subst.
        exists e. repeat split; auto. apply Hin; auto.
      + destruct (J5 p0 i) as (_ & e & He & E1 & E2 & E3); simpl; auto.
        exists e. repeat split; auto. apply Hin; auto.
    - rewrite map_app, scatter_car.
      assert (G : forall l1 l2 : list (option nat), NoDup l1 -> NoDup l2 -> (forall x, In x l1 -> ~ In x l2) -> NoDup (l1 ++ l2)).
      { induction l1; simpl; intros l2 N1 N2 N3; auto. inversion N1; subst. constructor.
        - rewrite in_app_iff. intros [?|?]; auto. apply (N3 a); auto.
        - apply IHl1; auto. }
      apply G.
      + rewrite <- (map_map eid Some), number_eids. apply FinFun.Injective_map_NoDup; [|apply seq_NoDup].
        intros a b Hab. congruence.
      + simpl in J6. now apply NoDup_cons_iff in J6.
      + intros x Hx Hy. apply in_map_iff in Hx as (e & <- & He). apply in_map_iff in Hy as (q & Hq & Hy).
        destruct (J5 q (eid e)) as (_ & e' & He' & E1 & _); simpl; auto.
        apply J2 in He'. apply Nb in He. lia.
    - exfalso. apply in_app_or in H as [H|H].
      + apply scatter_in in H as (e & He & E1 & E2 & E3). congruence.
      + now apply (Bn p0).
    - exfalso. apply in_app_or in H as [H|H].
      + apply scatter_in in H as (e & He & E1 & E2 & E3). congruence.
      + now apply (Bn p0).
    - exfalso. apply in_app_or in H as [H|H].
      + apply scatter_in in H as (e & He & E1 & E2 & E3). congruence.
      + now apply (Bn p0).
    - intros l Hl. rewrite L11 in Hl. apply L12. eauto.
    - intros e He Hr. rewrite map_app, in_app_iff, scatter_car.
      apply Hin in He as [He|He]; [left; now apply (in_map (fun e => Some (eid e)))|right].
      destruct (Cp (eid e)) as [Hc|Hc]; [rewrite Rp in Hr by auto; discriminate|].
      rewrite Rs in Hr by auto. destruct (J9 (L10 H)) as [J9' _]. apply J9' in Hr; auto.
      simpl in Hr. destruct Hr as [Hr|Hr]; congruence.
    - intros Hz. lia.
  Qed.

  Lemma number_nil i : number i (@nil (E * V)) = [].
  Proof. reflexivity. Qed.

  Lemma inv2_start : inv2 (start v0) [first v0].
  Proof.
    split; simpl.
    - constructor.
    - tauto.
    - discriminate.
    - tauto.
    - intros p i [<-|[]]. discriminate.
    - repeat constructor. tauto.
    - intros p [<-|[]]. auto.
    - discriminate.
    - intros _. split; [tauto|auto].
    - lia.
    - lia.
  Qed.

  Lemma occs_upd (s s' : bst) n o x m :
    occs s' = upd (occs s) n (o :: occs s n) -> hasocc s m x -> hasocc s' m x.
  Proof.
    intros H. unfold hasocc. rewrite H. unfold upd. destruct (Nat.eqb m n) eqn:Em; auto.
    apply Nat.eqb_eq in Em. subst. destruct (b_sub B).
    - intros (y & Hy & Ey). exists y. simpl. auto.
    - simpl. auto.
  Qed.

  Lemma clean_upd (s s' : bst) l e :
    lerr s l = None -> lerr s' = upd (lerr s) l e -> killed s' = killed (b1 s) -> clean s' -> clean s.
  Proof.
    intros H H1 H2 [C1 C2]. split.
    - intros l'. destruct (Nat.eq_dec l' l) as [->|Hn]; auto.
      rewrite <- (C1 l'), H1. now rewrite upd_diff.
    - rewrite H2 in C2. simpl in C2. now apply orb_false_iff in C2.
  Qed.

  Lemma recorded_occ (s : bst) n x :
    n < nn s -> occs_ok s n -> b_sub B = true ->
    (recorded (b_eeq B) (judy X) (b_ehash B x) x (seen s n) = true <-> hasocc s n x).
  Proof.
    intros Hn O Hs. destruct (oo_sub _ _ O Hs) as (ls & E1 & E2 & E3 & E4).
    rewrite (@recorded_spec E (b_eeq B) (judy X) (b_ehash B)); auto.
    unfold hasocc. rewrite Hs, E1, E2. split.
    - intros (y & Hy & Ey). exists y. split; auto. apply in_or_app. left. apply in_map.
      now apply in_rev.
    - intros (y & Hy & Ey). exists y. split; auto. apply in_rev. rewrite rev_involutive.
      apply in_app_or in Hy as [Hy|Hy].
      + apply in_map_iff in Hy as (z & Ez & Hz). congruence.
      + destruct (Nat.eqb n 0); simpl in Hy; intuition discriminate.
  Qed.

  Lemma inv2_step s p bag s' out :
    inv1 s -> inv2 s (p :: bag) -> effect s p s' out -> inv2 s' (out ++ bag).
  Proof.
    intros I J Ef.
    pose proof (proj1 (inv2_split _ _) J) as (Ja & Jc & Jo).
    destruct Ef.
    - (* discard *)
      simpl. destruct J as [J1 J2 J3 J4 J5 J6 J7 J8 J9 J10 J11].
      split; unfold hasocc, vtx in *; rewrite ?H, ?H0, ?H1, ?H4, ?H5, ?H7; auto.
      + intros q i Hq. apply J5. simpl; auto.
      + simpl in J6. now apply NoDup_cons_iff in J6.
      + intros q Hq Hc. destruct (J7 q) as (_ & _ & Eb); simpl; auto. inversion Eb; subst. contradiction.
      + intros [_ C]. rewrite H12 in C. discriminate.
      + intros n Hn. destruct (J11 n Hn) as [O1 O2]. split; rewrite ?H1, ?H7; auto.
    - (* extant *)
      pose proof (collision_some s p n I H1) as [Hn He].
      apply inv2_split. split; [|split].
      + change ([] ++ bag) with (scatter (number (ne s) []) ++ bag).
        eapply inv2a_link with (m := n); eauto. split; rewrite ?H3; auto; try lia.
        * intros; unfold vtx; now rewrite H3.
        * now rewrite H4, number_nil.
        * simpl. lia.
        * unfold vtx in *. now rewrite H3.
        * unfold hasocc. now rewrite H11.
        * intros x Hx. unfold hasocc. rewrite H11.
          destruct (b_sub B) eqn:Es.
          -- destruct H2 as [?|[?|(y & Hy & Hr)]]; try congruence.
             assert (y = x) by congruence. subst y.
             pose proof (proj1 (recorded_occ s n x Hn (Jo n Hn) Es) Hr) as G. unfold hasocc in G. now rewrite Es in G.
          -- destruct (oo_conn _ _ (Jo n Hn) Es) as [-> _]. simpl; auto.
        * intros [C1 C2]. rewrite H18 in C1. rewrite H16 in C2. split; auto.
          simpl in C2. now apply orb_false_iff in C2.
        * rewrite H16. simpl. intros ->. auto.
      + intros m Hm. unfold vtx in *. rewrite H3 in *. rewrite H4, H11. auto.
      + intros m Hm. rewrite H3 in Hm. destruct (Jo m Hm) as [O1 O2]. split; rewrite ?H5, ?H11; auto.
    - (* call *)
      pose proof (collision_some s p n I H1) as [Hn He].
      destruct (declare_ok _ _ _ _ _ H5) as (De & Dp & Dd & Dk).
      assert (Vd : vtx s n (pay p) = vt s n) by now apply vtx_default. rewrite Vd in *.
      apply inv2_split. split; [|split].
      + eapply inv2a_link with (m := n); eauto. split; rewrite ?H6; auto; try lia.
        * intros; unfold vtx; now rewrite H6.
        * rewrite H7. destruct (flat_split (outs s) Hn) as (R & P1 & P2). rewrite P2, P1. perm_solve.
        * unfold vtx in *. now rewrite H6.
        * intros m y _. eapply occs_upd; eauto.
        * intros y Hy. assert (y = x) by congruence. subst y.
          unfold hasocc. rewrite H2, H14, upd_same. exists x. split; [simpl; auto|apply (eqv_refl Heeq)].
        * eapply clean_upd; eauto.
        * rewrite H19. simpl. intros ->. auto.
      + intros m Hm. assert (Vm : vt s' m = vt s m) by (unfold vtx; now rewrite H6). rewrite Vm.
        rewrite H6 in Hm. rewrite H7, H14. unfold upd. destruct (Nat.eqb m n) eqn:Em; auto.
        apply Nat.eqb_eq in Em. subst m. simpl. rewrite map_app, number_contents, Jc, H5 by auto. auto.
      + intros m Hm. rewrite H6 in Hm. destruct (Jo m Hm) as [O1 O2].
        split; [congruence|]. intros Hs. destruct (O2 Hs) as (ls & E1 & E2 & E3 & E4).
        rewrite H8, H14. unfold upd. destruct (Nat.eqb m n) eqn:Em; [|eauto 10].
        apply Nat.eqb_eq in Em. subst m. exists (x :: ls). repeat split.
        * now rewrite E1.
        * simpl. now rewrite map_app, E2.
        * intros h y Hy. apply in_app_or in Hy as [Hy|[Hy|[]]]; auto. now inversion Hy.
        * constructor; auto. apply Forall_forall. intros y Hy.
          destruct (b_eeq B x y) eqn:Ey; auto. exfalso.
          assert (recorded (b_eeq B) (judy X) (b_ehash B x) x (seen s n) = true); [|congruence].
          apply (recorded_occ s n x Hn (Jo n Hn) Hs). unfold hasocc. rewrite Hs, E1. exists y. split; auto.
          apply in_or_app. left. now apply in_map.
    - (* new *)
      destruct (declare_ok _ _ _ _ _ H3) as (De & Dp & Dd & Dk).
      assert (L : nn s' = S (nn s)) by (rewrite H4, app_length; simpl; lia).
      assert (Vl : vt s' (nn s) = pay p) by (eapply vt_last; eauto).
      assert (Vo : forall n, n < nn s -> vt s' n = vt s n) by (intros; eapply vt_app; eauto).
      pose proof (i_outs _ I (nn s) (Nat.le_refl _)) as Eo.
      pose proof (i_seen _ I (nn s) (Nat.le_refl _)) as Es.
      pose proof (i_occs _ I (nn s) (Nat.le_refl _)) as Ec.
      rewrite Eo, app_nil_r in H5. rewrite Ec in H12. rewrite Es in H6.
      apply inv2_split. split; [|split].
      + eapply inv2a_link with (m := nn s); eauto. split; auto; try lia.
        * rewrite L. simpl. rewrite H5, upd_same, flat_upd_ge by auto. apply Permutation_app_comm.
        * rewrite Vl. apply (eqv_refl Hveq).
        * intros m y Hm. eapply occs_upd. rewrite H12. now rewrite Ec.
        * intros x Hx. unfold hasocc. rewrite H12, upd_same. unfold occ. destruct (b_sub B); [|simpl; auto].
          exists x. rewrite Hx. split; [simpl; auto|apply (eqv_refl Heeq)].
        * eapply clean_upd; eauto.
        * rewrite H17. simpl. intros ->. auto.
      + intros m Hm. rewrite L in Hm. rewrite H5, H12. unfold upd. destruct (Nat.eqb m (nn s)) eqn:Em.
        * apply Nat.eqb_eq in Em. subst m. simpl. rewrite Vl, number_contents, H3, app_nil_r. auto.
        * apply Nat.eqb_neq in Em. rewrite Vo by lia. apply Jc. lia.
      + intros m Hm. rewrite L in Hm. destruct (Nat.eq_dec m (nn s)) as [->|Hne].
        * split.
          -- intros Hs. rewrite H12, H6, upd_same. unfold occ. now rewrite Hs, Es.
          -- intros Hs. rewrite H12, H6, upd_same. unfold occ. rewrite Hs.
             destruct (lab p) as [x|] eqn:Elab.
             ++ assert (Hz : nn s <> 0).
                { intros Hz. destruct Ja as (_ & _ & _ & _ & A5 & _).
                  destruct (car p) as [i|] eqn:Ecar.
                  - destruct (A5 p i) as (_ & e0 & He0 & _); simpl; auto. rewrite Hz in He0. destruct He0.
                  - destruct (j_none _ _ J p) as (-> & _); simpl; auto. discriminate. }
                apply Nat.eqb_neq in Hz. rewrite Hz. exists [x]. rewrite upd_same. unfold record_edge. simpl.
                repeat split; auto.
                ** intros h y [Hy|[]]. now inversion Hy.
                ** repeat constructor.
             ++ assert (Hz : nn s = 0).
                { destruct (car p) as [i|] eqn:Ecar.
                  - destruct Ja as (_ & _ & _ & _ & A5 & _).
                    destruct (A5 p i) as (_ & e0 & _ & _ & _ & He0); simpl; auto. congruence.
                  - destruct (j_none _ _ J p) as (_ & ? & _); simpl; auto. }
                rewrite Es, Hz. exists []. simpl. repeat split; auto. intros h y []. constructor.
        * destruct (Jo m ltac:(lia)) as [O1 O2].
          assert (Es' : seen s' m = seen s m).
          { rewrite H6. destruct (occ B p); auto. now rewrite upd_diff. }
          split; rewrite H12, upd_diff, Es' by auto; auto.
  Qed.

End BuildProofs.
