(** Composition of consecutive edges (src/compose.c, src/entry.c:754-786). *)
From Coq Require Import List Arith NArith Lia Bool Permutation.
From Verif Require Import Base Machine Env Hash Graph Visitor Walk Run Pass Fold Fabricate Brigade Filter.
Import ListNotations.

Set Implicit Arguments.

(** A composer (include/cru/data_types.h, [cru_composer_s]) after [_cru_inferred_composer]
    (src/infer.c:165-201): the predicate and the operator, which take the local property, the label
    of the first edge, the adjacent property, and the label of the second edge. *)
Record composer := mkComposer {
  qpred : word -> word -> word -> word -> bool * option error;
  qop : word -> word -> word -> word -> outcome;
  local_prop : prop;
  adjacent_prop : prop;
  destructive : bool;
  co_fix : bool
}.

(** [_cru_identity_qop], src/repl.c:395-410 *)
Definition identity_qop (w x y z : word) : outcome := (x, None).

Definition edge := (word * nat)%type.
Definition edges := nat -> list edge.

Section Compose.
  Variable X : env.
  (** The vertices and the base node; they don't change. *)
  Variable g : graph word word.
  Variable c : composer.
  (** g->g_sig.orders.e_order *)
  Variable eeq : word -> word -> bool.
  Variable ehash : word -> N.

  (** ** Properties.  [guard_it], src/compose.c:47-79: the fields local_mapex and adjacent_mapex of
      n->props.  The graph has no back edges at this time (436-441), hence edges_in is null in
      [mapped_node].  The destructors of the properties are assumed not to raise errors if the other
      property could not be computed. *)
  Definition view (o : edges) (n : nat) : list redge := map (fun e => (fst e, vx g (snd e))) (o n).
  Definition property (p : prop) (o : edges) (n : nat) : outcome :=
    let '(w, (s, _, _)) := mapped_node p (vx g n) [] (view o n) no_values in (w, err s).

  (** What the workers have: the lists of survivors, united here, with the last one first, and
      n->props. *)
  Record gdata := mkGD { surv : list nat; loc : nat -> word; adj : nat -> word }.
  Definition gstart : gdata := mkGD [] (fun _ => null) (fun _ => null).

  (** src/compose.c:169-170 *)
  Definition guard (o : edges) (d : gdata) (n : nat) : gdata * option error :=
    match property (local_prop c) o n with
    | (_, Some e) => (mkGD (n :: surv d) (loc d) (adj d), Some e)
    | (x, None) =>
        match property (adjacent_prop c) o n with
        | (_, Some e) => (mkGD (n :: surv d) (loc d) (adj d), Some e)
        | (y, None) => (mkGD (n :: surv d) (upd (loc d) n x) (upd (adj d) n y), None)
        end
    end.
  (** [guarding_task], src/compose.c:119-181, apart from lack of memory; launched as UNKILLABLE. *)
  Definition guarding (o : edges) : @vst gdata nat -> npkt word -> option (_ * list (npkt word)) :=
    walk (unkillable X) o (guard o).

  (** ** Compositions *)
  Section Round.
    Variable o : edges.
    Variable L A : nat -> word.

    (** src/compose.c:216-226: the edges enqueued, whether the label is marked for deletion (or would
        be), and the error.  The third operand is m->props->adjacent_mapex, where m is the terminus of
        the second edge. *)
    Fixpoint compose_with (n : nat) (l : word) (es : list edge) : list edge * bool * option error :=
      match es with
      | [] => ([], false, None)
      | (l', m) :: es' =>
          match qpred c (L n) l (A m) l' with
          | (_, Some e) => ([], false, Some e)
          | (false, None) => compose_with n l es'
          | (true, None) =>
              match qop c (L n) l (A m) l' with
              | (_, Some e) => ([], true, Some e)
              | (t, None) => let '(r, _, e) := compose_with n l es' in ((t, m) :: r, true, e)
              end
          end
      end.

    (** src/compose.c:271-272: for all edges of [n], with the labels in deletable_edges. *)
    Fixpoint compose_all (n : nat) (es : list edge) : list edge * list word * option error :=
      match es with
      | [] => ([], [], None)
      | (l, m) :: es' =>
          match compose_with n l (o m) with
          | (r, b, Some e) => (r, if b then [l] else [], Some e)
          | (r, b, None) =>
              let '(r', ls, e) := compose_all n es' in (r ++ r', if b then l :: ls else ls, e)
          end
      end.
    Definition composed (n : nat) : list edge * list word * option error := compose_all n (o n).

    Definition dedup (l : list edge) : list edge :=
      fst (deduplicated_edges eeq (judy X) ehash fst (fun e : edge => N.of_nat (snd e)) l).

    (** n->edges_by after src/compose.c:273 *)
    Definition by_edges (n : nat) : list edge := dedup (fst (fst (composed n))).
    Definition deletable (n : nat) (l : word) : bool :=
      destructive c && existsb (N.eqb l) (snd (fst (composed n))).

    (** [bypassed], src/compose.c:285-318: the edges left in n->edges_out, and whether the number of
        edges before the deletion is not as it was. [done] is whether edges_by had been computed; if
        not, there are no deletable_edges either. *)
    Definition united (done : nat -> bool) (n : nat) : list edge :=
      dedup (o n ++ (if done n then by_edges n else [])).
    Definition bypass_edges (done : nat -> bool) (n : nat) : list edge :=
      filter (fun e => negb (done n && deletable n (fst e))) (united done n).
    Definition changed (done : nat -> bool) (n : nat) : bool :=
      negb (length (o n) =? length (united done n)).
  End Round.

  (** ** Kill requests.  [cut i l] is whether the worker [l] is killed in [composing_task] in round [i]:
      if so, it notices when it polls the switch for the [k]th time, i.e. at the node with number
      32 * (k + 1) of its survivors (src/compose.c:265-268, src/killers.h:33-36).  Survivors left from
      earlier rounds come last in the list, and have no properties.  [kills i] are the kill requests
      during [pruning_task] in round [i].  A kill request in [bypassing_task] has no effect
      (src/compose.c:378-384). *)
  Variable cut : nat -> nat -> option nat.
  Variable kills : nat -> nat -> bool.

  Definition done (i : nat) (d : gdata) (n : nat) : bool :=
    let l := lane_of (lanes X) (node_hash n) in
    match cut i l with
    | None => true
    | Some k => existsb (Nat.eqb n)
                  (firstn (32 * (k + 1) - 1) (filter (fun m => lane_of (lanes X) (node_hash m) =? l) (surv d)))
    end.

  (** ** Pruning: [pruning_task], src/filters.c:638-688, as in Filter.v *)
  Definition cpruning (Y : env) (o : edges) : @vst (list nat) nat -> npkt word -> option (_ * list (npkt word)) :=
    walk Y o collect.

  (** src/route.c:766-773: whether there are any nodes left over in the ports, where those of a worker
      that was killed while pruning are freed. *)
  Definition leftover (old : list nat) (s : @vst (list nat) nat) : bool :=
    existsb (fun n => negb (existsb (Nat.eqb n) (data s)) && negb (lkil s (lane_of (lanes X) (node_hash n)))) old.

  Definition end_status (i : nat) (old : list nat) (order : list nat) (s : @vst (list nat) nat) : option error :=
    if leftover old s && negb (lanes X =? 1) then pass_status order s
    else vstatus (in_pass X kills i) order s.

  (** Crashed means that memory is used after being freed. *)
  Inductive cverdict := Crashed | Done (r : result (option (graph word word))).

  (** The passes of one round, without errors before the pruning. *)
  Record round (i : nat) (o : edges) (s : @vst gdata nat) (o' : edges) (sq : @vst (list nat) nat) : Prop := {
    r_guarded : ran (lanes X) (walk_dest X) (guarding o) (vstart gstart) (initial (root g)) s;
    r_status : forall order, Permutation order (seq 0 (lanes X)) -> pass_status order s = None;
    r_composed : forall n, In n (surv (data s)) -> done i (data s) n = true ->
                 snd (composed o (loc (data s)) (adj (data s)) n) = None;
    r_bypassed : o' = bypass_edges o (loc (data s)) (adj (data s)) (done i (data s));
    r_pruned : ran (lanes X) (walk_dest X) (cpruning (in_pass X kills i) o') (vstart []) (initial (root g)) sq
  }.
  (** The workers' counts, src/compose.c:447-448 *)
  Definition grown (i : nat) (o : edges) (s : @vst gdata nat) : bool :=
    existsb (changed o (loc (data s)) (adj (data s)) (done i (data s))) (surv (data s)).

  (** ** [_cru_composed], src/compose.c:400-456, from label b, where [i] is the number of rounds before
      this one, [old] are the nodes left over from them and [o] the edges.  After an error in
      [composing_task] the model continues with the next node whereas the worker doesn't call any
      more user functions; the only difference is in which errors can be reported. If a worker was
      killed while pruning, then the nodes it freed are visited in the next round. *)
  Inductive rounds : nat -> list nat -> edges -> cverdict -> Prop :=
  | rd_unguarded i old o s order e :
      ran (lanes X) (walk_dest X) (guarding o) (vstart gstart) (initial (root g)) s ->
      Permutation order (seq 0 (lanes X)) -> pass_status order s = Some e ->
      rounds i old o (Done (None, Some e))
  | rd_uncomposed i old o s n e :
      ran (lanes X) (walk_dest X) (guarding o) (vstart gstart) (initial (root g)) s ->
      (forall order, Permutation order (seq 0 (lanes X)) -> pass_status order s = None) ->
      In n (surv (data s)) -> done i (data s) n = true ->
      snd (composed o (loc (data s)) (adj (data s)) n) = Some e ->
      rounds i old o (Done (None, Some e))
  | rd_last i old o s o' sq order :
      round i o s o' sq -> co_fix c && grown i o s = false -> Permutation order (seq 0 (lanes X)) ->
      rounds i old o
        (Done (match end_status i (surv (data s) ++ old) order sq with
               | None => (Some (mkGraph (queued X sq) (vx g) o' (root g)), None)
               | Some e => (None, Some e)
               end))
  | rd_crash i old o s o' sq :
      round i o s o' sq -> co_fix c && grown i o s = true -> existsb (lkil sq) (seq 0 (lanes X)) = true ->
      rounds i old o Crashed
  | rd_next i old o s o' sq v :
      round i o s o' sq -> co_fix c && grown i o s = true -> existsb (lkil sq) (seq 0 (lanes X)) = false ->
      rounds (S i) (filter (fun n => negb (existsb (Nat.eqb n) (data sq))) (surv (data s) ++ old)) o' v ->
      rounds i old o v.

  (** The operation on a valid graph without back edges *)
  Definition composes (v : cverdict) : Prop := rounds 0 [] (es g) v.
End Compose.
