(** Properties of MapFree.v: C109 *)
From Coq Require Import List Arith Bool Lia Permutation.
From Verif Require Import MakeFree P_MakeFree MapFree.
Import ListNotations.

Set Implicit Arguments.

(** values in the hands of the workers, the threads and the launching thread *)
Definition mval (m : maybe) : list nat := match m with Present v _ => opt v | Absent _ => [] end.
Definition oval (m : option maybe) : list nat := match m with Some m => mval m | None => [] end.
Definition in_phase (p : phase) : list nat := match p with Selecting => [] | Holding x => mval x | Draining v => opt v end.
Definition in_end (c : option (option nat)) : list nat := match c with Some v => opt v | None => [] end.
Definition held (w : world) : list nat :=
  flat_map (fun x => oval (w_res x)) (workers w) ++ flat_map (fun x => oval (fst x)) (pool w) ++ flat_map oval (unjoined w) ++
  in_phase (ph w) ++ in_end (concluded w).
(** records in their hands *)
Definition ocell (m : option maybe) : list nat := match m with Some _ => [0] | None => [] end.
Definition cells (w : world) : nat :=
  length (flat_map (fun x => ocell (w_res x)) (workers w)) + length (flat_map (fun x => ocell (fst x)) (pool w)) +
  length (flat_map ocell (unjoined w)) + match ph w with Holding _ => 1 | _ => 0 end.

Section Proofs.
  Variable heap : nat -> bool.
  Variable muser ruser : nat -> bool * bool.
  Variable dies : nat -> bool.

  (** values [f] and [n] records are accounted for *)
  Definition good (s : st) (f : list nat) (n : nat) : Prop := settled s f /\ distinct s /\ owing s n.

  Lemma good_perm : forall s f f' n n', good s f n -> (forall v, occ f v = occ f' v) -> n = n' -> good s f' n'.
  Proof. intros s f f' n n' (A & B & C) E <-. split; [|split; auto]. intros v. rewrite (A v), (E v). reflexivity. Qed.
  Lemma good_err : forall b s f n, good s f n -> good (with_err b s) f n.
  Proof. intros b s f n G. exact G. Qed.
  Lemma good_raise : forall b s f n, good s f n -> good (raise b s) f n.
  Proof. intros [|] s f n G; exact G. Qed.
  Lemma good_alloc : forall s b s' f n, alloc heap s = (b, s') -> good s f n -> good s' f n.
  Proof. intros s b s' f n E G. unfold alloc in E. destruct (heap (clock s)); injection E as _ <-; exact G. Qed.
  Lemma good_product : forall s f n, good s f n -> good (product s) f (S n).
  Proof. intros s f n (A & B & C). split; [|split]; auto. unfold owing in *. simpl. lia. Qed.
  Lemma good_free : forall s f n, good s f (S n) -> good (free_products 1 s) f n.
  Proof. intros s f n (A & B & C). split; [|split]; auto. unfold owing in *. simpl. lia. Qed.
  Lemma good_destroy : forall v s f n, good s (opt v ++ f) n -> good (destroy dies v s) f n.
  Proof.
    intros v s f n (A & B & C). split; [apply destroy_settled; exact A|]. destruct v as [v|]; split; auto.
  Qed.
  Lemma good_applied : forall u s v s' f n, applied u s = (v, s') -> good s f n -> good s' (opt v ++ f) n.
  Proof.
    intros u s v s' f n E G. unfold applied in E. destruct (err s); [injection E as <- <-; exact G|]. destruct (u (clock s)) as [nl e].
    assert (G1 : good (if e then fail (tick s) else tick s) f n) by (destruct e; exact G).
    destruct nl; injection E as <- <-; [exact G1|]. set (s1 := if e then fail (tick s) else tick s) in *. destruct G1 as (A & [B1 B2] & C).
    split; [|split].
    - intros k. simpl. specialize (A k). destruct (Nat.eq_dec (length (made s1)) k); lia.
    - split; simpl.
      + constructor; auto. intros K. apply B2 in K. lia.
      + intros k [<-|K]; [lia|]. apply B2 in K. lia.
    - exact C.
  Qed.
  Lemma good_mapped : forall s v s' f n, mapped muser dies s = (v, s') -> good s f n -> good s' (opt v ++ f) n.
  Proof.
    intros s v s' f n E G. unfold mapped in E. destruct (applied muser s) as [a s1] eqn:A. apply good_applied with (f := f) (n := n) in A; auto.
    destruct (err s1); injection E as <- <-; auto. apply good_destroy. exact A.
  Qed.

  Definition ncell (m : option maybe) : nat := match m with Some _ => 1 | None => 0 end.
  Lemma ncell_length : forall m, length (ocell m) = ncell m.
  Proof. intros [m|]; reflexivity. Qed.

  Lemma good_new : forall mk a s m s' f n, (forall b, mval (mk b) = a) -> new_maybe heap mk s = (m, s') -> good s (a ++ f) n ->
    match m with Some m => mval m = a /\ good s' (a ++ f) (S n) | None => good s' (a ++ f) n end.
  Proof.
    intros mk a s m s' f n V E G. unfold new_maybe in E. destruct (alloc heap s) as [b s1] eqn:A. apply good_alloc with (f := a ++ f) (n := n) in A; auto.
    destruct b; injection E as <- <-; auto. split; auto. apply good_err. apply good_product. exact A.
  Qed.
  Lemma good_free_maybe : forall m s f n, good s (oval m ++ f) (ncell m + n) -> good (free_maybe dies m s) f n.
  Proof.
    intros [[v e|e]|] s f n G; simpl; auto.
    - apply good_free. apply good_raise. apply good_destroy. exact G.
    - apply good_free. apply good_raise. exact G.
  Qed.

  Lemma good_visit : forall r s r' s' f n, visit heap muser ruser dies r s = (r', s') -> good s (oval r ++ f) (ncell r + n) ->
    good s' (oval r' ++ f) (ncell r' + n).
  Proof.
    intros r s r' s' f n E G. unfold visit in E. destruct (err s); [injection E as <- <-; exact G|].
    destruct (mapped muser dies s) as [a s1] eqn:M. apply good_mapped with (f := oval r ++ f) (n := ncell r + n) in M; auto.
    destruct r as [[b e|e]|].
    - destruct (applied ruser s1) as [v s2] eqn:A. apply good_applied with (f := opt a ++ opt b ++ f) (n := S n) in A; auto.
      injection E as <- <-. apply good_destroy. apply good_destroy. eapply good_perm; [exact A| |reflexivity]. intros k. simpl. rewrite !count_occ_app. lia.
    - injection E as <- <-. apply good_destroy. exact M.
    - simpl in M. destruct (new_maybe heap (Present a) s1) as [m s2] eqn:A.
      apply good_new with (a := opt a) (f := f) (n := n) in A; auto. destruct m as [m|]; injection E as <- <-.
      + destruct A as [V A]. simpl. rewrite V. exact A.
      + apply good_destroy. exact A.
  Qed.

  Lemma good_finish : forall x s r e s' f n, finish heap dies x s = (r, e, s') -> good s (oval (w_res x) ++ f) (ncell (w_res x) + n) ->
    good s' (oval r ++ f) (ncell r + n).
  Proof.
    intros x s r e s' f n E G. unfold finish in E.
    destruct (if w_err x || w_killed x then (None, free_maybe dies (w_res x) (with_err (w_err x) s)) else (w_res x, with_err (w_err x) s)) as [r1 s1] eqn:A.
    assert (G1 : good s1 (oval r1 ++ f) (ncell r1 + n)).
    { destruct (w_err x || w_killed x); injection A as <- <-; [|exact G]. apply good_free_maybe. exact G. }
    clear A G.
    assert (AG : forall (r : option maybe) s r' s', good s (oval r ++ f) (ncell r + n) ->
               (if err s then match r with None => new_maybe heap Absent s | Some _ => (r, s) end else (r, s)) = (r', s') ->
               good s' (oval r' ++ f) (ncell r' + n)).
    { intros q t q' t' Gt Et. destruct (err t); [|injection Et as <- <-; exact Gt]. destruct q as [q|]; [injection Et as <- <-; exact Gt|].
      apply good_new with (a := []) (f := f) (n := n) in Et; auto. destruct q' as [q'|]; auto. destruct Et as [V Et]. simpl. rewrite V. exact Et. }
    destruct (if err s1 then match r1 with None => new_maybe heap Absent s1 | Some _ => (r1, s1) end else (r1, s1)) as [r2 s2] eqn:A2.
    apply AG in A2; auto.
    destruct (if err s2 then match r2 with None => new_maybe heap Absent s2 | Some _ => (r2, s2) end else (r2, s2)) as [r3 s3] eqn:A3.
    apply AG in A3; auto. injection E as <- _ <-. exact A3.
  Qed.

  Definition pval (p : option maybe * option maybe) : list nat := oval (fst p) ++ oval (snd p).
  Definition pcell (p : option maybe * option maybe) : nat := 1 + ncell (fst p) + ncell (snd p).

  Lemma good_part : forall m s m' s' f n, part dies m s = (m', s') -> good s (oval m ++ f) (ncell m + n) -> good s' (oval m' ++ f) (ncell m' + n).
  Proof.
    intros m s m' s' f n E G. unfold part in E. destruct m as [[v e|e]|]; injection E as <- <-; auto. exact (@good_free_maybe (Some (Absent e)) s f n G).
  Qed.
  Lemma good_paired : forall x y s z s' f n, paired heap dies x y s = (z, s') -> good s (mval x ++ oval y ++ f) (1 + ncell y + n) ->
    match z with Some p => good s' (pval p ++ f) (pcell p + n) | None => good s' f n end.
  Proof.
    intros x y s z s' f n E G. unfold paired in E. apply (good_raise (status_of x)) in G. set (s1 := raise (status_of x) s) in *.
    assert (UN : forall t, good t (mval x ++ oval y ++ f) (1 + ncell y + n) -> good (free_maybe dies y (free_maybe dies (Some x) t)) f n).
    { intros t Gt. apply good_free_maybe. apply good_free_maybe. exact Gt. }
    destruct (negb (extant x) && match y with Some y => extant y | None => false end); [injection E as <- <-; exact (UN _ G)|].
    destruct (alloc heap s1) as [b s2] eqn:A. apply good_alloc with (f := mval x ++ oval y ++ f) (n := 1 + ncell y + n) in A; auto.
    destruct b; [|injection E as <- <-; exact (UN _ A)]. apply good_product in A.
    destruct (part dies (Some x) (product s2)) as [px s3] eqn:P1. apply good_part with (f := oval y ++ f) (n := 1 + ncell y + n) in P1.
    2:{ eapply good_perm; [exact A|reflexivity|simpl; lia]. }
    destruct (part dies y s3) as [py s4] eqn:P2. apply good_part with (f := oval px ++ f) (n := 1 + ncell px + n) in P2.
    2:{ eapply good_perm; [exact P1| |lia]. intros k. rewrite !count_occ_app. lia. }
    injection E as <- <-. eapply good_perm; [exact P2| |unfold pcell; simpl; lia]. intros k. unfold pval. simpl. rewrite !count_occ_app. lia.
  Qed.
  Lemma good_free_pair : forall p s f n, good s (pval p ++ f) (pcell p + n) -> good (free_pair dies p s) f n.
  Proof.
    intros [x y] s f n G. unfold free_pair. apply good_free. apply good_free_maybe. apply good_free_maybe. unfold pval, pcell in G. simpl in *.
    eapply good_perm; [exact G| |lia]. intros k. rewrite !count_occ_app. lia.
  Qed.
  Lemma good_fused : forall p s r s' f n, fused ruser dies p s = (r, s') -> good s (pval p ++ f) (pcell p + n) ->
    good s' (oval r ++ f) (ncell r + n).
  Proof.
    intros [x y] s r s' f n E G. unfold fused in E. unfold pval, pcell in G. simpl in G.
    assert (ONE : forall m u, good s (oval m ++ oval u ++ f) (S (ncell m + ncell u + n)) ->
              good (free_pair dies (None, u) s) (oval m ++ f) (ncell m + n)).
    { intros m u Gm. apply good_free_pair. unfold pval, pcell. simpl. eapply good_perm; [exact Gm| |lia]. intros k. rewrite !count_occ_app. lia. }
    rewrite <- app_assoc in G.
    destruct x as [[x e|e]|].
    - destruct y as [[y g|g]|].
      + destruct (applied ruser s) as [v s1] eqn:A. apply good_applied with (f := opt x ++ opt y ++ f) (n := 3 + n) in A; [|exact G].
        injection E as <- <-. apply good_free_pair. unfold pval, pcell. simpl. apply good_destroy. apply good_destroy.
        eapply good_perm; [exact A| |lia]. intros k. rewrite !count_occ_app. lia.
      + injection E as <- <-. apply ONE. exact G.
      + injection E as <- <-. apply ONE. exact G.
    - injection E as <- <-. apply ONE. exact G.
    - injection E as <- <-. apply (ONE y None). eapply good_perm; [exact G| |simpl; lia]. intros k. simpl. reflexivity.
  Qed.

  Definition sound (w : world) : Prop :=
    good (common w) (held w) (cells w) /\
    (concluded w = None -> failed w = false) /\
    (concluded w <> None -> workers w = [] /\ pool w = [] /\ unjoined w = [] /\ ph w = Draining None) /\
    (failed w = true -> concluded w = Some None).

  Lemma occ_mid : forall A (f : A -> list nat) l1 x l2 k, occ (flat_map f (l1 ++ x :: l2)) k = occ (f x) k + occ (flat_map f (l1 ++ l2)) k.
  Proof. intros A f l1 x l2 k. rewrite !flat_map_app. simpl. rewrite !count_occ_app. lia. Qed.
  Lemma length_mid : forall A (f : A -> list nat) l1 x l2, length (flat_map f (l1 ++ x :: l2)) = length (f x) + length (flat_map f (l1 ++ l2)).
  Proof. intros A f l1 x l2. rewrite !flat_map_app. simpl. rewrite !app_length. lia. Qed.

  Lemma step_sound : forall w w', sound w -> concluded w = None -> step heap muser ruser dies w w' -> sound w'.
  Proof.
    intros w w' (G & F & _ & _) C T. unfold sound.
    assert (OPEN : forall w', concluded w' = None -> failed w' = failed w -> good (common w') (held w') (cells w') ->
              good (common w') (held w') (cells w') /\ (concluded w' = None -> failed w' = false) /\
              (concluded w' <> None -> workers w' = [] /\ pool w' = [] /\ unjoined w' = [] /\ ph w' = Draining None) /\
              (failed w' = true -> concluded w' = Some None)).
    { intros u C1 F1 G1. split; auto. rewrite C1, F1, (F C). repeat split; auto; congruence. }
    destruct T.
    - apply OPEN; auto.
      symmetry in H2. apply good_visit with (f := flat_map (fun x => oval (w_res x)) (l1 ++ l2) ++ flat_map (fun x => oval (fst x)) (pool w) ++
        flat_map oval (unjoined w) ++ in_phase (ph w) ++ in_end (concluded w))
        (n := length (flat_map (fun x => ocell (w_res x)) (l1 ++ l2)) + length (flat_map (fun x => ocell (fst x)) (pool w)) +
              length (flat_map ocell (unjoined w)) + match ph w with Holding _ => 1 | _ => 0 end) in H2.
      + eapply good_perm; [exact H2| |]; unfold held, cells; simpl; [intros k|]; rewrite ?count_occ_app, ?occ_mid, ?length_mid, ?ncell_length; simpl; lia.
      + apply good_err. eapply good_perm; [exact G| |]; unfold held, cells; rewrite H; [intros k|]; rewrite ?count_occ_app, ?occ_mid, ?length_mid, ?ncell_length; simpl; lia.
    - apply OPEN; auto. eapply good_perm; [exact G| |]; unfold held, cells; simpl; rewrite H; [intros j|]; rewrite ?count_occ_app, ?occ_mid, ?length_mid; simpl; lia.
    - apply OPEN; auto.
      symmetry in H0. apply good_finish with (f := flat_map (fun x => oval (w_res x)) (l1 ++ l2) ++ flat_map (fun x => oval (fst x)) (pool w) ++
        flat_map oval (unjoined w) ++ in_phase (ph w) ++ in_end (concluded w))
        (n := length (flat_map (fun x => ocell (w_res x)) (l1 ++ l2)) + length (flat_map (fun x => ocell (fst x)) (pool w)) +
              length (flat_map ocell (unjoined w)) + match ph w with Holding _ => 1 | _ => 0 end) in H0.
      + eapply good_perm; [exact H0| |]; unfold held, cells; simpl; destruct (w_open x); [intros k|intros k| |]; simpl;
          rewrite ?app_length, ?count_occ_app, ?ncell_length; simpl; lia.
      + eapply good_perm; [exact G| |]; unfold held, cells; rewrite H; [intros k|]; rewrite ?count_occ_app, ?occ_mid, ?length_mid, ?ncell_length; simpl; lia.
    - apply OPEN; auto. eapply good_perm; [exact G| |]; unfold held, cells; simpl; rewrite H, H1; destruct r as [x|]; simpl; [intros k|intros k| |];
        rewrite ?count_occ_app, ?occ_mid, ?length_mid; simpl; lia.
    - symmetry in H1. apply good_paired with (f := flat_map (fun x => oval (w_res x)) (workers w) ++ flat_map (fun x => oval (fst x)) (p1 ++ p2) ++
        flat_map oval (unjoined w) ++ in_end (concluded w))
        (n := length (flat_map (fun x => ocell (w_res x)) (workers w)) + length (flat_map (fun x => ocell (fst x)) (p1 ++ p2)) +
              length (flat_map ocell (unjoined w))) in H1.
      2:{ apply good_err. eapply good_perm; [exact G| |]; unfold held, cells; rewrite H, H0; simpl; [intros k|]; rewrite ?count_occ_app, ?occ_mid, ?length_mid, ?ncell_length; simpl; lia. }
      destruct z as [p|].
      + destruct created.
        * destruct (fused ruser dies p (with_err false s)) as [r t] eqn:FU.
          match type of H1 with good _ (_ ++ ?ff) (_ + ?nn) => apply good_fused with (f := ff) (n := nn) in FU; [|apply good_err; exact H1] end.
          apply OPEN; auto. eapply good_perm; [exact FU| |]; unfold held, cells; simpl; [intros k|]; rewrite ?app_length, ?count_occ_app, ?ncell_length; simpl; lia.
        * apply OPEN; auto. simpl. eapply good_perm with (n := length (flat_map (fun x => ocell (w_res x)) (workers w)) + length (flat_map (fun x => ocell (fst x)) (p1 ++ p2)) +
              length (flat_map ocell (unjoined w))); [apply good_free_pair; apply (good_raise true); exact H1| |]; unfold held, cells; simpl; [intros k|]; rewrite ?count_occ_app; simpl; lia.
      + apply OPEN; auto. eapply good_perm; [exact H1| |]; unfold held, cells; simpl; [intros k|]; rewrite ?count_occ_app; simpl; lia.
    - apply OPEN; auto.
    - apply OPEN; [exact C|reflexivity|]. unfold ending. simpl. eapply good_perm; [exact G| |]; unfold held, cells; simpl; rewrite H; [intros k|]; rewrite ?count_occ_app; simpl; lia.
    - assert (GX : good (common w) (mval x ++ flat_map (fun x => oval (w_res x)) (workers w) ++ flat_map (fun x => oval (fst x)) (pool w) ++
        flat_map oval (unjoined w) ++ in_end (concluded w))
        (1 + (length (flat_map (fun x => ocell (w_res x)) (workers w)) + length (flat_map (fun x => ocell (fst x)) (pool w)) +
              length (flat_map ocell (unjoined w))))).
      { eapply good_perm; [exact G| |]; unfold held, cells; rewrite H; simpl; [intros k|]; rewrite ?count_occ_app; simpl; lia. }
      assert (BAD : good (free_maybe dies (Some x) (with_err (perr w) (common w))) (flat_map (fun x => oval (w_res x)) (workers w) ++ flat_map (fun x => oval (fst x)) (pool w) ++
        flat_map oval (unjoined w) ++ in_end (concluded w)) (length (flat_map (fun x => ocell (w_res x)) (workers w)) + length (flat_map (fun x => ocell (fst x)) (pool w)) +
              length (flat_map ocell (unjoined w)))) by (apply good_free_maybe; exact GX).
      unfold ending. destruct x as [v e|e]; [destruct (perr w)|].
      + apply OPEN; auto. eapply good_perm; [exact BAD| |]; unfold held, cells; simpl; [intros k|]; rewrite ?count_occ_app; simpl; lia.
      + apply OPEN; auto. simpl. apply good_free. apply good_raise. eapply good_perm; [exact GX| |]; unfold held, cells; simpl; [intros k|]; rewrite ?count_occ_app; simpl; lia.
      + apply OPEN; auto. eapply good_perm; [exact BAD| |]; unfold held, cells; simpl; [intros k|]; rewrite ?count_occ_app; simpl; lia.
    - apply OPEN; auto. subst s. apply good_free_maybe. apply good_err.
      eapply good_perm; [exact G| |]; unfold held, cells; simpl; rewrite H0; [intros k|]; rewrite ?count_occ_app, ?occ_mid, ?length_mid, ?ncell_length; simpl; lia.
    - apply OPEN; auto. subst s. apply good_free_maybe. apply good_err.
      eapply good_perm; [exact G| |]; unfold held, cells; simpl; rewrite H2; [intros k|]; rewrite ?count_occ_app, ?occ_mid, ?length_mid, ?ncell_length; simpl; lia.
    - simpl. split; [|split; [discriminate|split; [auto|]]].
      + unfold held, cells in *. simpl. rewrite H, H0, H1, H2, C in G. simpl in G. destruct bad.
        * simpl. rewrite app_nil_r in G. apply good_destroy. rewrite app_nil_r. exact G.
        * rewrite app_nil_r in G. exact G.
      + intros ->. reflexivity.
  Qed.

  Lemma reaches_sound : forall opened others e w, reaches heap muser ruser dies opened others e w -> sound w.
  Proof.
    intros opened others e w R. induction R; [|eapply step_sound; eauto].
    assert (Z : forall (g : worker -> list nat) b n, g (mkWorker false false None b) = [] -> flat_map g (repeat (mkWorker false false None b) n) = []).
    { intros g b n E. induction n; simpl; auto. rewrite E. exact IHn. }
    split; [|split; [auto|split; [intros K; contradiction K; reflexivity|discriminate]]]. unfold held, cells. simpl. rewrite !flat_map_app, !Z by reflexivity. simpl.
    split; [|split].
    - intros k. reflexivity.
    - split; [constructor|intros v []].
    - reflexivity.
  Qed.
End Proofs.

(** At any time, every value made by the map or the reduction is either destroyed, exactly once, or in exactly one record or in the hands
    of the launching thread, and there are as many records as have been allocated and not freed. *)
Theorem C109_accounted : forall heap muser ruser dies opened others e w, reaches heap muser ruser dies opened others e w ->
  NoDup (made (common w)) /\ Permutation (made (common w)) (dead (common w) ++ held w) /\ pmade (common w) = pfreed (common w) + cells w.
Proof.
  intros heap muser ruser dies opened others e w R. apply reaches_sound in R as ((A & [B _] & C) & _). split; auto. split; auto.
  apply occ_perm. intros v. rewrite (A v), !count_occ_app. reflexivity.
Qed.

(** In the end, nothing but the result remains, and not even that after an error. *)
Theorem C109_concluded : forall heap muser ruser dies opened others e w r, reaches heap muser ruser dies opened others e w ->
  concluded w = Some r ->
  NoDup (dead (common w)) /\ pmade (common w) = pfreed (common w) /\
  (failed w = true -> r = None) /\
  Permutation (made (common w)) (dead (common w) ++ match r with Some v => [v] | None => [] end).
Proof.
  intros heap muser ruser dies opened others e w r R C. pose proof (C109_accounted R) as (N & P & Q).
  apply reaches_sound in R as (_ & _ & EN & FA). destruct EN as (E1 & E2 & E3 & E4); [congruence|].
  unfold held in P. unfold cells in Q. rewrite E1, E2, E3, E4, C in *. simpl in *. split; [|split; [|split]].
  - eapply Permutation_NoDup in N; [|exact P]. clear -N. induction (dead (common w)) as [|a l IH]; [constructor|]. simpl in N. inversion N. constructor; auto.
    intros K. apply H1. apply in_or_app. left. exact K.
  - lia.
  - intros F. apply FA in F. congruence.
  - exact P.
Qed.

(** An error is pending if it's the status of a worker, of a record, of a thread, of the router or of the launching thread, or is
    reported in the end. *)
Definition ostat (m : option maybe) : bool := match m with Some (Present _ e) => e | Some (Absent e) => e | None => false end.
Definition pending (w : world) : bool :=
  existsb (fun x => w_err x || ostat (w_res x)) (workers w) || existsb (fun x => snd x || ostat (fst x)) (pool w) ||
  existsb ostat (unjoined w) || perr w || thrown w || match ph w with Holding x => ostat (Some x) | _ => false end || failed w.

Section Errors.
  Variable heap : nat -> bool.
  Variable muser ruser : nat -> bool * bool.
  Variable dies : nat -> bool.

  Lemma err_destroy : forall v s, err s = true -> err (destroy dies v s) = true.
  Proof. intros [v|] s E; simpl; auto. rewrite E. reflexivity. Qed.
  Lemma err_free_maybe : forall m s, err s || ostat m = true -> err (free_maybe dies m s) = true.
  Proof.
    intros [[v [|]|[|]]|] s E; simpl in *; rewrite ?orb_false_r in E; auto. apply err_destroy. exact E.
  Qed.
  Lemma err_alloc : forall s b s', alloc heap s = (b, s') -> err s = true -> err s' = true.
  Proof. intros s b s' E K. unfold alloc in E. destruct (heap (clock s)); injection E as _ <-; auto. Qed.
  Lemma err_applied : forall u s v s', applied u s = (v, s') -> err s = true -> err s' = true.
  Proof. intros u s v s' E K. unfold applied in E. rewrite K in E. injection E as _ <-. exact K. Qed.

  Lemma err_new : forall mk s m s', (forall b, ostat (Some (mk b)) = b) -> new_maybe heap mk s = (m, s') -> err s = true -> ostat m || err s' = true.
  Proof.
    intros mk s m s' V E K. unfold new_maybe in E. destruct (alloc heap s) as [b s1] eqn:A. apply err_alloc in A; auto.
    destruct b; injection E as <- <-; [rewrite V, A; reflexivity|]. rewrite A. reflexivity.
  Qed.
  Lemma stat_visit : forall r s r' s', visit heap muser ruser dies r s = (r', s') -> ostat r = true -> ostat r' = true.
  Proof.
    intros r s r' s' E K. unfold visit in E. destruct (err s); [injection E as <- _; exact K|]. destruct (mapped muser dies s) as [a s1].
    destruct r as [[b e|e]|]; [|injection E as <- _; exact K|discriminate K]. destruct (applied ruser s1) as [v s2]. injection E as <- _. exact K.
  Qed.
  Lemma visit_raised : forall r s r' s', visit heap muser ruser dies r s = (r', s') -> err s = false -> snd (muser (clock s)) = true ->
    err s' || ostat r' = true.
  Proof.
    intros r s r' s' E K U. unfold visit in E. rewrite K in E. destruct (mapped muser dies s) as [a s1] eqn:M.
    assert (E1 : err s1 = true).
    { unfold mapped in M. destruct (applied muser s) as [b s2] eqn:A.
      assert (E2 : err s2 = true).
      { unfold applied in A. rewrite K in A. destruct (muser (clock s)) as [nl e]. simpl in U. subst e. destruct nl; injection A as _ <-; reflexivity. }
      rewrite E2 in M. injection M as _ <-. apply err_destroy. exact E2. }
    destruct r as [[b e|e]|].
    - destruct (applied ruser s1) as [v s2] eqn:A. apply err_applied in A; auto. injection E as _ <-. rewrite err_destroy; [reflexivity|apply err_destroy; exact A].
    - injection E as _ <-. rewrite err_destroy; [reflexivity|exact E1].
    - destruct (new_maybe heap (Present a) s1) as [m s2] eqn:A. pose proof (@err_new (Present a) _ _ _ (fun b => eq_refl) A E1) as Q.
      destruct m as [m|]; injection E as <- <-; [rewrite orb_comm; exact Q|]. simpl in Q. rewrite err_destroy; auto.
  Qed.
  Lemma stat_finish : forall x s r e s', finish heap dies x s = (r, e, s') -> w_err x || ostat (w_res x) = true -> ostat r || e = true.
  Proof.
    intros x s r e s' E K. unfold finish in E.
    destruct (if w_err x || w_killed x then (None, free_maybe dies (w_res x) (with_err (w_err x) s)) else (w_res x, with_err (w_err x) s)) as [r1 s1] eqn:A.
    assert (G1 : ostat r1 || err s1 = true).
    { destruct (w_err x || w_killed x) eqn:B; injection A as <- <-; [apply err_free_maybe; exact K|].
      apply orb_false_iff in B as [B _]. rewrite B in K. simpl in K. rewrite K. reflexivity. }
    clear A K.
    assert (AG : forall (r : option maybe) s r' s', ostat r || err s = true ->
               (if err s then match r with None => new_maybe heap Absent s | Some _ => (r, s) end else (r, s)) = (r', s') ->
               ostat r' || err s' = true).
    { intros q t q' t' Gt Et. destruct (err t) eqn:ET; [|injection Et as <- <-; rewrite ET; exact Gt].
      destruct q as [q|]; [injection Et as <- <-; rewrite ET; apply orb_true_r|]. apply err_new in Et; auto. }
    destruct (if err s1 then match r1 with None => new_maybe heap Absent s1 | Some _ => (r1, s1) end else (r1, s1)) as [r2 s2] eqn:A2.
    apply AG in A2; auto.
    destruct (if err s2 then match r2 with None => new_maybe heap Absent s2 | Some _ => (r2, s2) end else (r2, s2)) as [r3 s3] eqn:A3.
    apply AG in A3; auto. injection E as <- <- <-. exact A3.
  Qed.
  Definition pstat (p : option maybe * option maybe) : bool := ostat (fst p) || ostat (snd p).
  Lemma stat_part : forall m s m' s', part dies m s = (m', s') -> err s || ostat m = true -> err s' || ostat m' = true.
  Proof. intros m s m' s' E K. unfold part in E. destruct m as [[v e|e]|]; injection E as <- <-; auto. simpl. rewrite orb_false_r. exact (@err_free_maybe (Some (Absent e)) s K). Qed.
  Lemma part_err : forall m s m' s', part dies m s = (m', s') -> err s = true -> err s' = true.
  Proof. intros m s m' s' E K. unfold part in E. destruct m as [[v e|e]|]; injection E as <- <-; auto. apply (@err_free_maybe (Some (Absent e)) s). rewrite K. reflexivity. Qed.
  Lemma stat_paired : forall x y s z s', paired heap dies x y s = (z, s') -> err s || ostat (Some x) || ostat y = true ->
    match z with Some p => err s' || pstat p = true | None => err s' = true end.
  Proof.
    intros x y s z s' E K. unfold paired in E. set (s1 := raise (status_of x) s) in *.
    assert (K1 : err s1 || ostat y = true).
    { unfold s1. destruct x as [v [|]|[|]]; simpl in *; auto; rewrite ?orb_false_r in K; exact K. }
    assert (UN : forall t, err t || ostat y = true -> err (free_maybe dies y (free_maybe dies (Some x) t)) = true).
    { intros t Kt. apply err_free_maybe. destruct (err t) eqn:Et; simpl in Kt; [rewrite err_free_maybe; auto; rewrite Et; reflexivity|rewrite Kt; apply orb_true_r]. }
    destruct (negb (extant x) && match y with Some y => extant y | None => false end); [injection E as <- <-; exact (UN _ K1)|].
    destruct (alloc heap s1) as [b s2] eqn:A.
    assert (K2 : err s2 || ostat y = true).
    { destruct (err s1) eqn:E1; [apply err_alloc in A; [rewrite A; reflexivity|exact E1]|simpl in K1; rewrite K1; apply orb_true_r]. }
    destruct b; [|injection E as <- <-; exact (UN _ K2)].
    destruct (part dies (Some x) (product s2)) as [px s3] eqn:P1. destruct (part dies y s3) as [py s4] eqn:P2. injection E as <- <-. unfold pstat. simpl.
    destruct (err s2) eqn:E2.
    - apply part_err in P1; auto. apply part_err in P2; auto. rewrite P2. reflexivity.
    - simpl in K2. apply stat_part in P2; [|rewrite K2; apply orb_true_r]. destruct (err s4), (ostat py); simpl in *; auto using orb_true_r. discriminate.
  Qed.
  Lemma stat_fused : forall p s r s', fused ruser dies p s = (r, s') -> pstat p = true -> err s' || ostat r = true.
  Proof.
    intros [x y] s r s' E K. unfold fused in E. unfold pstat in K. simpl in K. destruct x as [[x e|e]|].
    - destruct y as [[y g|g]|].
      + destruct (applied ruser s) as [v s1]. injection E as <- <-. simpl in *. rewrite K. simpl. apply orb_true_r.
      + injection E as <- <-. simpl in *. destruct e; simpl in *; [apply orb_true_r|]. rewrite K. reflexivity.
      + injection E as <- <-. simpl in *. rewrite orb_false_r in K. rewrite K. apply orb_true_r.
    - injection E as <- <-. cbn [ostat] in *. destruct e; simpl in *; [apply orb_true_r|]. rewrite orb_false_r. change (err (free_maybe dies y s) = true). apply err_free_maybe. rewrite K. apply orb_true_r.
    - injection E as <- <-. simpl in *. rewrite K. apply orb_true_r.
  Qed.

  Lemma ex_mid : forall A (f : A -> bool) l1 x l2, existsb f (l1 ++ x :: l2) = f x || existsb f (l1 ++ l2).
  Proof. intros A f l1 x l2. rewrite !existsb_app. simpl. destruct (f x), (existsb f l1); reflexivity. Qed.

  Lemma step_pending : forall w w', failed w = false -> step heap muser ruser dies w w' -> pending w = true -> pending w' = true.
  Proof.
    intros w w' F T P. unfold pending in *. destruct T; simpl.
    - symmetry in H2. rewrite H in P. rewrite ex_mid in *. simpl. rewrite H0 in P. simpl in P.
      destruct (ostat (w_res x)) eqn:K; [rewrite (stat_visit _ _ H2 K), orb_true_r; reflexivity|]. simpl in P.
      destruct (err s || ostat r); auto.
    - rewrite H in P. rewrite ex_mid in *. simpl. destruct (w_err x); simpl in *; auto. destruct (e || ostat (w_res x)) eqn:K; auto.
      apply orb_false_iff in K as [_ K]. rewrite K in P. exact P.
    - symmetry in H0. rewrite H in P. rewrite ex_mid in P. pose proof (stat_finish _ _ H0) as Q.
      assert (SR : match r with Some m => status_of m | None => false end = ostat r) by (destruct r as [[]|]; reflexivity).
      destruct (w_err x || ostat (w_res x)).
      + specialize (Q eq_refl). destruct (w_open x); simpl; rewrite ?SR; destruct (ostat r); simpl in *; rewrite ?Q; rewrite ?orb_true_r; reflexivity.
      + simpl in P. destruct (w_open x); simpl; rewrite ?SR; destruct (ostat r), e; simpl; rewrite ?orb_true_r, ?orb_false_r; auto.
    - rewrite H, H0, H1 in P. rewrite ex_mid in P. simpl in P. destruct e; [rewrite !orb_true_r; reflexivity|]. simpl in P.
      destruct r as [x|]; [|simpl in P; exact P]. simpl. destruct (ostat (Some x)) eqn:K; simpl in K; rewrite K; [rewrite ?orb_true_r; reflexivity|exact P].
    - symmetry in H1. rewrite H, H0 in P. rewrite ex_mid in P. simpl fst in P. simpl snd in P.
      pose proof (stat_paired _ _ _ H1) as Q. simpl err in Q.
      destruct (perr w || e || ostat (Some x) || ostat y) eqn:K.
      + specialize (Q eq_refl). destruct z as [p|].
        * destruct created.
          -- destruct (fused ruser dies p (with_err false s)) as [r t] eqn:FU. simpl. destruct (err s); [rewrite ?orb_true_r; reflexivity|]. simpl in Q.
             apply stat_fused in FU; auto. rewrite FU. simpl. rewrite ?orb_true_r. reflexivity.
          -- simpl. assert (EF : forall q u, err u = true -> err (free_pair dies q u) = true).
             { intros [a b] u Eu. unfold free_pair. simpl. apply err_free_maybe. rewrite err_free_maybe by (rewrite Eu; reflexivity). reflexivity. }
             change (err (free_maybe dies (snd p) (free_maybe dies (fst p) (fail s)))) with (err (free_pair dies p (fail s))).
             rewrite EF by reflexivity. rewrite ?orb_true_r. reflexivity.
        * simpl. rewrite Q. rewrite ?orb_true_r. reflexivity.
      + apply orb_false_iff in K as [K K4]. apply orb_false_iff in K as [K K3]. apply orb_false_iff in K as [K1 K2]. simpl in K3. simpl in P.
        rewrite K1, K2, K3, K4 in P. simpl in P.
        destruct z as [p|]; [destruct created; [destruct (fused ruser dies p (with_err false s)) as [r t]|]|]; simpl;
        destruct (existsb (fun x => w_err x || ostat (w_res x)) (workers w)), (existsb (fun x => snd x || ostat (fst x)) (p1 ++ p2)),
          (existsb ostat (unjoined w)), (thrown w), (failed w); try discriminate P; simpl; rewrite ?orb_true_r; reflexivity.
    - rewrite ?orb_true_r. reflexivity.
    - unfold ending. simpl. rewrite H in P. exact P.
    - assert (EN : perr w || ostat (Some x) = true -> perr (ending dies (Some x) w) = true).
      { intros K. unfold ending. destruct x as [v e|e].
        - destruct (perr w) eqn:E.
          + change (err (free_maybe dies (Some (Present v e)) (with_err true (common w))) = true). apply err_free_maybe. reflexivity.
          + simpl in K. subst e. reflexivity.
        - change (err (free_maybe dies (Some (Absent e)) (with_err (perr w) (common w))) = true). apply err_free_maybe. exact K. }
      destruct (perr w || ostat (Some x)) eqn:K.
      + change (pending (ending dies (Some x) w) = true). unfold pending. rewrite EN by reflexivity. rewrite ?orb_true_r. reflexivity.
      + apply orb_false_iff in K as [K1 K2]. rewrite H, K1 in P. rewrite K2 in P. simpl in P. unfold ending.
        destruct x as [v e|e]; rewrite K1; simpl; rewrite ?orb_false_r in *;
        destruct (existsb (fun x => w_err x || ostat (w_res x)) (workers w)), (existsb (fun x => snd x || ostat (fst x)) (pool w)),
          (existsb ostat (unjoined w)), (thrown w), (failed w); try discriminate P; simpl; rewrite ?orb_true_r; reflexivity.
    - subst s. rewrite H, H0 in P. rewrite ex_mid in P. simpl in P. rewrite H.
      destruct (perr w || e || ostat r) eqn:K.
      + rewrite err_free_maybe by exact K. rewrite ?orb_true_r. reflexivity.
      + apply orb_false_iff in K as [K K3]. apply orb_false_iff in K as [K1 K2]. rewrite K1, K2, K3 in P. simpl in P.
        destruct (existsb (fun x => w_err x || ostat (w_res x)) (workers w)), (existsb (fun x => snd x || ostat (fst x)) (p1 ++ p2)),
          (existsb ostat (unjoined w)), (thrown w), (failed w); try discriminate P; simpl; rewrite ?orb_true_r; reflexivity.
    - subst s. rewrite H, H2 in P. rewrite ex_mid in P. simpl in P. rewrite H.
      destruct (perr w || ostat r) eqn:K.
      + rewrite err_free_maybe by exact K. rewrite ?orb_true_r. reflexivity.
      + apply orb_false_iff in K as [K1 K2]. rewrite K1, K2 in P. simpl in P.
        destruct (existsb (fun x => w_err x || ostat (w_res x)) (workers w)), (existsb (fun x => snd x || ostat (fst x)) (pool w)),
          (existsb ostat (q1 ++ q2)), (thrown w), (failed w); try discriminate P; simpl; rewrite ?orb_true_r; reflexivity.
    - unfold bad. rewrite H, H0, H1, H2 in P. simpl in P.
      rewrite F in P. rewrite ?orb_false_r in P. rewrite P. simpl. rewrite ?orb_true_r. reflexivity.
  Qed.
End Errors.

(** what happens from one time to another *)
Inductive later heap muser ruser dies (w : world) : world -> Prop :=
| later_now : later heap muser ruser dies w w
| later_step w1 w' : later heap muser ruser dies w w1 -> concluded w1 = None -> step heap muser ruser dies w1 w' -> later heap muser ruser dies w w'.

Lemma later_reaches : forall heap muser ruser dies opened others e w w', reaches heap muser ruser dies opened others e w ->
  later heap muser ruser dies w w' -> reaches heap muser ruser dies opened others e w'.
Proof. intros heap muser ruser dies opened others e w w' R L. induction L; auto. eapply reaches_step; eauto. Qed.
Lemma later_pending : forall heap muser ruser dies opened others e w w', reaches heap muser ruser dies opened others e w ->
  later heap muser ruser dies w w' -> pending w = true -> pending w' = true.
Proof.
  intros heap muser ruser dies opened others e w w' R L P. induction L; auto. eapply step_pending; [|exact H0|auto].
  apply (later_reaches R) in L. apply reaches_sound in L as (_ & F & _). auto.
Qed.

(** No error is ever forgotten: if one is pending at any time, then it is reported in the end and there is no result. *)
Theorem C109_reported : forall heap muser ruser dies opened others e w w' r, reaches heap muser ruser dies opened others e w ->
  pending w = true -> later heap muser ruser dies w w' -> concluded w = None -> concluded w' = Some r -> failed w' = true /\ r = None.
Proof.
  intros heap muser ruser dies opened others e w w' r R P L C K. pose proof (later_pending R L P) as Q.
  assert (F : failed w' = true).
  { destruct L as [|w1 w' L N T]; [congruence|]. destruct T; simpl in *; try congruence.
    - destruct z as [p|]; [destruct created; [destruct (fused ruser dies p (with_err false s)) as [r1 t]|]|]; simpl in K; congruence.
    - unfold ending in K. destruct x as [v g|g]; [match type of K with context [perr ?u] => destruct (perr u) end|]; simpl in K; congruence.
    - unfold pending in Q. simpl in Q. unfold bad in *. rewrite ?orb_false_r in Q.
      match goal with |- ?a || ?b || ?c = true => destruct a, b, c; simpl in *; auto end. }
  split; auto. pose proof (later_reaches R L) as R1. destruct (C109_concluded R1 K) as (_ & _ & Z & _). auto.
Qed.

(** Errors of the map are pending as soon as they are raised, as are those of the reduction, be it in a worker or in a thread. *)
Theorem C109_raised : forall heap muser ruser dies w x l1 l2 r s,
  workers w = l1 ++ x :: l2 -> w_err x = false -> snd (muser (clock (common w))) = true ->
  (r, s) = visit heap muser ruser dies (w_res x) (with_err false (common w)) ->
  pending (set_workers (l1 ++ mkWorker (err s) false r (w_open x) :: l2) w s) = true.
Proof.
  intros heap muser ruser dies w x l1 l2 r s E K U V. symmetry in V. apply visit_raised in V; auto. unfold pending. simpl. rewrite ex_mid. simpl. rewrite V. reflexivity.
Qed.
Theorem C109_raised_reducing : forall heap muser ruser dies w x l1 l2 r s b g,
  workers w = l1 ++ x :: l2 -> w_err x = false -> w_res x = Some (Present b g) -> snd (ruser (S (clock (common w)))) = true ->
  (r, s) = visit heap muser ruser dies (w_res x) (with_err false (common w)) ->
  pending (set_workers (l1 ++ mkWorker (err s) false r (w_open x) :: l2) w s) = true.
Proof.
  intros heap muser ruser dies w x l1 l2 r s b g E K B U V. symmetry in V. destruct (snd (muser (clock (common w)))) eqn:M.
  { apply visit_raised in V; auto. unfold pending. simpl. rewrite ex_mid. simpl. rewrite V. reflexivity. }
  assert (Q : err s = true).
  { rewrite B in V. unfold visit in V. simpl in V. unfold mapped in V. destruct (applied muser (with_err false (common w))) as [a s1] eqn:A.
    unfold applied in A. simpl in A. destruct (muser (clock (common w))) as [nl e1]. simpl in M. subst e1.
    assert (A1 : err s1 = false /\ clock s1 = S (clock (common w))) by (destruct nl; injection A as _ <-; auto). destruct A1 as [A1 A2].
    rewrite A1 in V. destruct (applied ruser s1) as [v s2] eqn:A3. unfold applied in A3. rewrite A1, A2 in A3. destruct (ruser (S (clock (common w)))) as [n2 e2].
    simpl in U. subst e2. assert (A4 : err s2 = true) by (destruct n2; injection A3 as _ <-; reflexivity). injection V as _ <-.
    apply err_destroy. apply err_destroy. exact A4. }
  unfold pending. simpl. rewrite ex_mid. simpl. rewrite Q. reflexivity.
Qed.
Theorem C109_raised_fusing : forall ruser dies x y e g s r t,
  fused ruser dies (Some (Present x e), Some (Present y g)) s = (r, t) -> err s = false -> snd (ruser (clock s)) = true -> ostat r = true.
Proof.
  intros ruser dies x y e g s r t E K U. unfold fused in E. destruct (applied ruser s) as [v s1] eqn:A. unfold applied in A. rewrite K in A.
  destruct (ruser (clock s)) as [nl e1]. simpl in U. subst e1. assert (A4 : err s1 = true) by (destruct nl; injection A as _ <-; reflexivity).
  injection E as <- _. cbn [ostat]. rewrite err_destroy; [apply orb_true_r|apply err_destroy; exact A4].
Qed.

(** Examples *)
Inductive act := Visit (i : nat) | Trouble (i : nat) (e k : bool) | Exit (i : nat) | First (i : nat) | Second (i : nat) (created : bool)
               | Wrong | Leave | Drain (i : nat) | Unjoined (i : nat) | Conclude (other : bool).
Definition pick A (i : nat) (l : list A) : option (list A * A * list A) :=
  match skipn i l with x :: l2 => Some (firstn i l, x, l2) | [] => None end.
Lemma pick_eq : forall A i (l : list A) l1 x l2, pick i l = Some (l1, x, l2) -> l = l1 ++ x :: l2.
Proof. intros A i l l1 x l2 E. unfold pick in E. destruct (skipn i l) eqn:K; [discriminate|]. injection E as <- <- <-. rewrite <- K. symmetry. apply firstn_skipn. Qed.
Definition is_nil A (l : list A) : bool := match l with [] => true | _ => false end.
Lemma is_nil_eq : forall A (l : list A), is_nil l = true -> l = [].
Proof. intros A [|] E; [reflexivity|discriminate]. Qed.

Section Playing.
  Variable heap : nat -> bool.
  Variable muser ruser : nat -> bool * bool.
  Variable dies : nat -> bool.

  Definition play (a : act) (w : world) : option world :=
    match concluded w with Some _ => None | None =>
    match a with
    | Visit i =>
        match pick i (workers w) with
        | Some (l1, x, l2) =>
            if w_err x || w_killed x then None else
            let (r, s) := visit heap muser ruser dies (w_res x) (with_err false (common w)) in
            Some (set_workers (l1 ++ mkWorker (err s) false r (w_open x) :: l2) w s)
        | None => None
        end
    | Trouble i e k =>
        match pick i (workers w) with
        | Some (l1, x, l2) => Some (set_workers (l1 ++ mkWorker (w_err x || e) (w_killed x || k) (w_res x) (w_open x) :: l2) w (common w))
        | None => None
        end
    | Exit i =>
        match pick i (workers w) with
        | Some (l1, x, l2) =>
            let '(r, e, s) := finish heap dies x (common w) in
            Some (mkWorld s (l1 ++ l2)
                          (if w_open x then (r, match r with Some m => status_of m | None => false end) :: pool w else pool w)
                          (if w_open x then unjoined w else r :: unjoined w) (perr w) (thrown w || e) (ph w) (concluded w) (failed w))
        | None => None
        end
    | First i =>
        match ph w, perr w, pick i (pool w) with
        | Selecting, false, Some (p1, (r, e), p2) =>
            Some (mkWorld (common w) (workers w) (p1 ++ p2) (unjoined w) e (thrown w)
                          (match r with Some x => Holding x | None => Selecting end) (concluded w) (failed w))
        | _, _, _ => None
        end
    | Second i created =>
        match ph w, pick i (pool w) with
        | Holding x, Some (p1, (y, e), p2) =>
            let (z, s) := paired heap dies x y (with_err (perr w || e) (common w)) in
            Some (match z with
                  | None => mkWorld s (workers w) (p1 ++ p2) (unjoined w) (err s) (thrown w) Selecting (concluded w) (failed w)
                  | Some p =>
                      if created
                      then let (r, t) := fused ruser dies p (with_err false s) in
                           mkWorld t (workers w) ((r, err t) :: p1 ++ p2) (unjoined w) (err s) (thrown w) Selecting (concluded w) (failed w)
                      else let t := free_pair dies p (fail s) in
                           mkWorld t (workers w) (p1 ++ p2) (unjoined w) (err t) (thrown w) Selecting (concluded w) (failed w)
                  end)
        | _, _ => None
        end
    | Wrong => Some (mkWorld (common w) (workers w) (pool w) (unjoined w) true (thrown w) (ph w) (concluded w) (failed w))
    | Leave =>
        if perr w || (is_nil (workers w) && is_nil (pool w))
        then match ph w with
             | Selecting => Some (ending dies None w)
             | Holding x => Some (ending dies (Some x) w)
             | Draining _ => None
             end
        else None
    | Drain i =>
        match ph w, pick i (pool w) with
        | Draining _, Some (p1, (r, e), p2) =>
            let s := free_maybe dies r (with_err (perr w || e) (common w)) in
            Some (mkWorld s (workers w) (p1 ++ p2) (unjoined w) (err s) (thrown w) (ph w) (concluded w) (failed w))
        | _, _ => None
        end
    | Unjoined i =>
        if is_nil (workers w) && is_nil (pool w)
        then match ph w, pick i (unjoined w) with
             | Draining _, Some (q1, r, q2) =>
                 let s := free_maybe dies r (with_err (perr w) (common w)) in
                 Some (mkWorld s (workers w) (pool w) (q1 ++ q2) (err s) (thrown w) (ph w) (concluded w) (failed w))
             | _, _ => None
             end
        else None
    | Conclude other =>
        if is_nil (workers w) && is_nil (pool w) && is_nil (unjoined w)
        then match ph w with
             | Draining v =>
                 let bad := perr w || thrown w || other in
                 Some (mkWorld (if bad then destroy dies v (common w) else common w) [] [] [] (perr w) (thrown w) (Draining None)
                               (Some (if bad then None else v)) bad)
             | _ => None
             end
        else None
    end
    end.
  Lemma play_step : forall a w w', play a w = Some w' -> concluded w = None /\ step heap muser ruser dies w w'.
  Proof.
    intros a w w' E. unfold play in E. destruct (concluded w) eqn:C; [discriminate|]. split; auto. destruct a.
    - destruct (pick i (workers w)) as [[[l1 x] l2]|] eqn:P; [|discriminate]. apply pick_eq in P.
      destruct (w_err x) eqn:K1; [discriminate|]. destruct (w_killed x) eqn:K2; [discriminate|]. simpl in E.
      destruct (visit heap muser ruser dies (w_res x) (with_err false (common w))) as [r s] eqn:V. injection E as <-. eapply visit_step; eauto.
    - destruct (pick i (workers w)) as [[[l1 x] l2]|] eqn:P; [|discriminate]. apply pick_eq in P. injection E as <-. apply trouble_step. exact P.
    - destruct (pick i (workers w)) as [[[l1 x] l2]|] eqn:P; [|discriminate]. apply pick_eq in P.
      destruct (finish heap dies x (common w)) as [[r e] s] eqn:V. injection E as <-. rewrite <- C at 1. eapply exit_step; eauto.
    - destruct (ph w) eqn:H; try discriminate. destruct (perr w) eqn:H0; try discriminate. destruct (pick i (pool w)) as [[[p1 [r e]] p2]|] eqn:P; [|discriminate].
      apply pick_eq in P. injection E as <-. rewrite <- C at 1. eapply first_step; eauto.
    - destruct (ph w) eqn:H; try discriminate. destruct (pick i (pool w)) as [[[p1 [y e]] p2]|] eqn:P; [|discriminate]. apply pick_eq in P.
      destruct (paired heap dies x y (with_err (perr w || e) (common w))) as [z s] eqn:V. injection E as <-. rewrite <- C. eapply second_step; eauto.
    - injection E as <-. rewrite <- C at 1. apply wrong_step.
    - assert (O : perr w = true \/ (workers w = [] /\ pool w = []) \/ perr w || (is_nil (workers w) && is_nil (pool w)) = false).
      { destruct (perr w); auto. destruct (workers w); auto. destruct (pool w); auto. }
      destruct (perr w || (is_nil (workers w) && is_nil (pool w))); [|discriminate].
      assert (O1 : perr w = true \/ (workers w = [] /\ pool w = [])) by (destruct O as [O|[O|O]]; [auto|auto|discriminate]).
      destruct (ph w) eqn:H; try discriminate; injection E as <-; [apply leave_step|apply break_step]; auto.
    - destruct (ph w) eqn:H; try discriminate. destruct (pick i (pool w)) as [[[p1 [r e]] p2]|] eqn:P; [|discriminate].
      apply pick_eq in P. injection E as <-. rewrite <- C at 1. rewrite <- H at 1. eapply drain_step; eauto.
    - destruct (is_nil (workers w)) eqn:N1; [|discriminate]. destruct (is_nil (pool w)) eqn:N2; [|discriminate]. simpl in E.
      destruct (ph w) eqn:H; try discriminate. destruct (pick i (unjoined w)) as [[[q1 r] q2]|] eqn:P; [|discriminate].
      apply pick_eq in P. injection E as <-. rewrite <- C at 1. rewrite <- H at 1. eapply drain_unjoined_step; eauto using is_nil_eq.
    - destruct (is_nil (workers w)) eqn:N1; [|discriminate]. destruct (is_nil (pool w)) eqn:N2; [|discriminate].
      destruct (is_nil (unjoined w)) eqn:N3; [|discriminate]. simpl in E.
      destruct (ph w) eqn:H; try discriminate. injection E as <-. eapply conclude_step; eauto using is_nil_eq.
  Qed.
  Fixpoint plays (l : list act) (w : world) : option world :=
    match l with [] => Some w | a :: l => match play a w with Some w => plays l w | None => None end end.
  Lemma plays_later : forall l w0 w w', later heap muser ruser dies w0 w -> plays l w = Some w' -> later heap muser ruser dies w0 w'.
  Proof.
    induction l as [|a l IH]; intros w0 w w' L E; simpl in E; [injection E as <-; exact L|]. destruct (play a w) as [w1|] eqn:P; [|discriminate].
    apply play_step in P as [C T]. eapply IH; [|exact E]. eapply later_step; eauto.
  Qed.
End Playing.

(** two of three workers get to visit nodes, and the results are paired *)
Definition fine : nat -> bool := fun _ => true.
Definition user (bad : nat) : nat -> bool * bool := fun n => (false, n =? bad).
Definition acts1 : list act := [Visit 0; Visit 1; Visit 0; Visit 1; Exit 0; Exit 0; First 1].
Definition acts2 : list act := [Second 0 true; Exit 0; First 1; Second 0 true; First 0; Leave; Conclude false].
Definition summary (w : world) := (length (made (common w)), dead (common w), held w, (pmade (common w), cells w), pending w, failed w).
Definition run (full bad opened others : nat) (w : world) (l : list act) :=
  plays (fun n => negb (n =? full)) (user 100) (user bad) (fun _ => false) l w.
Definition attained (full bad opened others : nat) (w : world) : Prop :=
  reaches (fun n => negb (n =? full)) (user 100) (user bad) (fun _ => false) opened others false w.
Lemma run_attained : forall full bad opened others l w, run full bad opened others (begin opened others false) l = Some w ->
  attained full bad opened others w.
Proof.
  intros full bad opened others l w E. unfold attained. eapply later_reaches; [apply reaches_begin|]. eapply plays_later; [apply later_now|exact E].
Qed.
Ltac show acts := match goal with |- context [attained ?a ?b ?c ?d] =>
  let x := eval vm_compute in (run a b c d (begin c d false) acts) in
  match x with Some ?w => exists w; split; [apply run_attained with (l := acts); vm_compute; reflexivity|vm_compute; reflexivity] end end.

(** a pair has been reduced, while a worker is still running *)
Example C109_accounted_ex : exists w, attained 100 100 3 0 w /\ summary w = (7, [5; 3; 1; 4; 0; 2], [6], (3, 1), false, false).
Proof. show (acts1 ++ [Second 0 true]). Qed.
(** a pair can't be allocated *)
Example C109_accounted_ex_full : exists w, attained 8 100 3 0 w /\ summary w = (6, [5; 3; 1; 4; 0; 2], [], (2, 0), true, false).
Proof. show (acts1 ++ [Second 0 true]). Qed.
(** all goes well *)
Example C109_concluded_ex : exists w, attained 100 100 3 0 w /\
  (summary w, concluded w) = ((7, [5; 3; 1; 4; 0; 2], [6], (4, 0), false, false), Some (Some 6)).
Proof. show (acts1 ++ acts2). Qed.
(** the reduction raises an error in a worker, another one is killed, and no thread can be created to join with the third *)
Example C109_concluded_ex_killed : exists w, attained 100 5 2 1 w /\
  (summary w, concluded w) = ((6, [3; 5; 1; 4; 0; 2], [], (3, 0), true, true), Some None).
Proof.
  show [Visit 0; Visit 1; Visit 0; Visit 1; Trouble 1 false true; Exit 1; Exit 0; Leave; Drain 0; Drain 0; Exit 0; Unjoined 0; Conclude false].
Qed.
(** the reduction returns a value and raises an error when applied to a pair *)
Example C109_reported_ex : exists w w', attained 100 9 3 0 w /\ pending w = true /\ concluded w = None /\
  later (fun n => negb (n =? 100)) (user 100) (user 9) (fun _ => false) w w' /\
  (summary w', concluded w') = ((7, [6; 5; 3; 1; 4; 0; 2], [], (3, 0), true, true), Some None).
Proof.
  assert (S : exists w, attained 100 9 3 0 w /\ run 100 9 3 0 (begin 3 0 false) (acts1 ++ [Second 0 true]) = Some w).
  { show (acts1 ++ [Second 0 true]). }
  destruct S as (w & A & E). vm_compute in E. injection E as E.
  assert (P : pending w = true /\ concluded w = None) by (subst w; vm_compute; auto). destruct P as [P C].
  destruct (run 100 9 3 0 w [First 0; Leave; Exit 0; Drain 0; Conclude false]) as [w'|] eqn:K; [|subst w; discriminate K].
  exists w, w'. split; auto. split; auto. split; auto. split; [eapply plays_later; [apply later_now|exact K]|].
  subst w. vm_compute in K. injection K as <-. vm_compute. reflexivity.
Qed.
(** the map raises an error when a worker visits its first node *)
Example C109_raised_ex :
  let w := begin 2 0 false in
  snd (user 0 (clock (common w))) = true /\
  visit fine (user 0) (user 100) (fun _ => false) None (with_err false (common w)) =
    (Some (Present None true), mkSt 2 false [0] [0] 0 1 0).
Proof. vm_compute. auto. Qed.
Example C109_raised_reducing_ex :
  snd (user 3 (S 2)) = true /\
  visit fine (user 100) (user 3) (fun _ => false) (Some (Present (Some 0) false)) (mkSt 2 false [0] [] 0 1 0) =
    (Some (Present (Some 2) false), mkSt 4 true [2; 1; 0] [0; 1] 0 1 0).
Proof. vm_compute. auto. Qed.
Example C109_raised_fusing_ex :
  fused (user 7) (fun _ => false) (Some (Present (Some 0) false), Some (Present (Some 1) false)) (mkSt 7 false [1; 0] [] 0 3 0) =
    (Some (Present (Some 2) true), mkSt 8 true [2; 1; 0] [1; 0] 0 3 2).
Proof. vm_compute. reflexivity. Qed.
