(** Grouping, deduplicating, reducing and filtering lists of edges when allocations, callback functions and destructors may fail:
    src/brig.c, src/table.c:161-289, src/edges.c:109-197, 288-317, 347-391, 430-444, src/build.c:49-81, src/merge.c:232-333,
    src/filters.c:261-426.  File Brigade.v is about the same functions if nothing fails. *)
From Coq Require Import List Arith NArith Lia Bool.
From Verif Require Import Base Brigade.
Import ListNotations.

Set Implicit Arguments.

(** Words (void pointers and uintptr_t), of which null is 0; error codes other than 0, of which this is one *)
Local Notation word := N.
Local Notation null := 0%N.
Local Notation error := N.
Definition NOMEM : error := 12%N. (* ENOMEM *)

Section Failing.
  (** Edges as they are in memory, of which no two are the same; their labels, termini or classes thereof, and remote vertices *)
  Context {A : Type}.
  Variable lab : A -> word.
  Variable judy : bool.

  (** The [n]th event is an allocation, which may fail, or a call of a function, whose result may depend on the time. *)
  Variable heap : nat -> bool.
  (** What is raised by the destructors for an edge, if there are any, src/edges.c:155-197 *)
  Variable dies : A -> option error.

  Record st := mkSt {
    tick : nat;
    err : option error;                   (* *err *)
    gone : list A;                        (* edges freed along with their labels (or termini), the last one first *)
    made : nat;                           (* number of struct brigade_s allocated *)
    unmade : nat                          (* ... and freed *)
  }.

  (** RAISE, src/errs.h:36 *)
  Definition raise (o : option error) (s : st) : st :=
    mkSt (tick s) (match err s with None => o | e => e end) (gone s) (made s) (unmade s).
  Definition failing (s : st) : bool := match err s with None => false | Some _ => true end.
  Definition ticked (s : st) : st := mkSt (S (tick s)) (err s) (gone s) (made s) (unmade s).
  (** An allocation by _cru_malloc, JLI or J1S, and RAISE(ENOMEM) *)
  Definition alloc (s : st) : bool * st :=
    if heap (tick s) then (true, ticked s) else (false, raise (Some NOMEM) (ticked s)).

  (** PASSED and FAILED, src/errs.h:55-56, where [f] is what the function returns and raises.  They are false if an error is or
      has been raised. *)
  Definition passed (f : nat -> bool * option error) (s : st) : bool * st :=
    if failing s then (false, s)
    else let (b, e) := f (tick s) in (match e with None => b | Some _ => false end, raise e (ticked s)).
  Definition failed (f : nat -> bool * option error) (s : st) : bool * st :=
    passed (fun n => let (b, e) := f n in (negb b, e)) s.

  (** _cru_free_edges_and_labels and _cru_free_edges_and_termini, src/edges.c:108-197 *)
  Definition free_edge (s : st) (x : A) : st :=
    raise (dies x) (mkSt (tick s) (err s) (x :: gone s) (made s) (unmade s)).
  Definition free_edges (l : list A) (s : st) : st := fold_left free_edge l s.
  (** _cru_free_brigade, src/brig.c:142-151, and [_cru_free (o)] *)
  Definition free_cells (n : nat) (s : st) : st := mkSt (tick s) (err s) (gone s) (made s) (n + unmade s).

  (** src/brig.c:31-50, [_cru_push_bucket] *)
  Definition push_bucket (bucket : list A) (b : brigade) (s : st) : brigade * st :=
    match alloc s with
    | (true, s') => (bucket :: b, mkSt (tick s') (err s') (gone s') (S (made s')) (unmade s'))
    | (false, s') => (b, free_edges bucket s')
    end.

  (** ** [_cru_bundled], src/brig.c:208-252.  The relation [r] applies to the first edge of a bucket and the next edge of the list. *)
  (** Lines 238-249 from the bucket [f] points to, for the edge [x]: the buckets, and whether [x] was pushed to one of them *)
  Fixpoint place (r : nat -> A -> A -> bool * option error) (x : A) (bs : brigade) (s : st) : brigade * bool * st :=
    match bs with
    | [] => match push_bucket [] [] s with
            | (_ :: _, s') => if failing s' then ([[]], false, s') else ([[x]], true, s')
            | ([], s') => ([], false, s')
            end
    | [] :: bs' => ([x] :: bs', true, s)
    | (y :: b) :: bs' =>
        match passed (fun n => r n y x) s with
        | (true, s') => ((x :: y :: b) :: bs', true, s')
        | (false, s') =>
            if failing s' then (bs, false, s')
            else let '(bs'', p, s'') := place r x bs' s' in ((y :: b) :: bs'', p, s'')
        end
    end.
  Fixpoint bundling (r : nat -> A -> A -> bool * option error) (e : list A) (t : brigade) (s : st) : list A * brigade * st :=
    match e with
    | [] => ([], t, s)
    | x :: e' =>
        if failing s then (e, t, s)
        else match place r x t s with
             | (t', true, s') => bundling r e' t' s'
             | (t', false, s') => (e, t', s')
             end
    end.
  (** 229-235, without a relation *)
  Fixpoint bundling_null (e : list A) (t : brigade) (s : st) : list A * brigade * st :=
    match e with
    | [] => ([], t, s)
    | x :: e' =>
        if failing s then (e, t, s)
        else match push_bucket [] t s with
             | (b :: t', s') => if failing s' then (e, b :: t', s') else bundling_null e' ([x] :: t') s'
             | ([], s') => (e, [], s')
             end
    end.
  (** 251: if there are any edges in the list, the brigade is NULL. If there were none it would be left dangling. *)
  Definition bundle_end (q : list A * brigade * st) : list A * brigade * st :=
    let '(e, t, s) := q in
    match e, failing s with
    | [], false => ([], t, s)
    | _, _ => match unbundled t ++ e with
              | [] => ([], t, free_cells (length t) s)
              | e' => (e', [], free_cells (length t) s)
              end
    end.
  Definition bundled_f (r : option (nat -> A -> A -> bool * option error)) (e : list A) (s : st) : list A * brigade * st :=
    match e with
    | [] => ([], [], s)
    | _ => bundle_end (match r with Some r => bundling r e [] s | None => bundling_null e [] s end)
    end.

  (** ** [_cru_bucketed], src/brig.c:162-199, without Judy arrays.  The status is not looked at. *)
  Fixpoint place_by (key : A -> N) (x : A) (bs : brigade) (s : st) : brigade * bool * st :=
    match bs with
    | [] => match push_bucket [] [] s with
            | (_ :: _, s') => ([[x]], true, s')
            | ([], s') => ([], false, s')
            end
    | [] :: bs' => ([x] :: bs', true, s)
    | (y :: b) :: bs' =>
        if N.eqb (key y) (key x) then ((x :: y :: b) :: bs', true, s)
        else let '(bs'', p, s'') := place_by key x bs' s in ((y :: b) :: bs'', p, s'')
    end.
  Fixpoint bucketed_f (key : A -> N) (e : list A) (t : brigade) (s : st) : list A * brigade * st :=
    match e with
    | [] => ([], t, s)
    | x :: e' => match place_by key x t s with
                 | (t', true, s') => bucketed_f key e' t' s'
                 | (t', false, s') => (e, t', s')
                 end
    end.

  (** ** Coterminal tables.  212-225 and 264-274 of src/table.c: edges are moved to a Judy array. *)
  Fixpoint tabulated (key : A -> N) (e : list A) (t : list (N * list A)) (s : st) : list A * list (N * list A) * st :=
    match e with
    | [] => ([], t, s)
    | x :: e' =>
        if failing s then (e, t, s)
        else match alloc s with
             | (true, s') => tabulated key e' (jli (key x) x t) s'
             | (false, s') => (e, t, s')
             end
    end.
  (** 161-184, [unwind], where [p] are the entries of the array from p to the end *)
  Definition unwind (e : list A) (b : brigade) (p : list (N * list A)) (s : st) : list A * brigade * st :=
    if failing s then
      (fold_left (fun e kl => snd kl ++ e) p (unbundled b ++ e), [], free_cells (length b) s)
    else (e, b, s).

  (** 194-238, [_cru_marshalled]: the loop of 228-232 *)
  Fixpoint pushing (p : list (N * list A)) (b : brigade) (s : st) : list (N * list A) * brigade * st :=
    match p with
    | [] => ([], b, s)
    | (_, l) :: p' => if failing s then (p, b, s) else let (b', s') := push_bucket l b s in pushing p' b' s'
    end.
  Definition marshalled_f (key : A -> N) (e : list A) (s : st) : list A * brigade * st :=
    if judy then
      let '(e', t, s1) := tabulated key e [] s in
      let '(p, b, s2) := pushing t [] s1 in
      unwind e' b p s2
    else bucketed_f key e [] s.

  (** 245-289, [_cru_rallied]: the loop of 277-283, in which an entry that isn't bundled is left where it was *)
  Fixpoint rallying (r : nat -> A -> A -> bool * option error) (p : list (N * list A)) (b : brigade) (s : st)
    : list (N * list A) * brigade * st :=
    match p with
    | [] => ([], b, s)
    | (k, l) :: p' =>
        if failing s then (p, b, s)
        else let '(l', t, s') := bundled_f (Some r) l s in
             if failing s' then ((k, l') :: p', t ++ b, s') else rallying r p' (t ++ b) s'
    end.
  Definition rallied_f (hash : A -> N) (r : nat -> A -> A -> bool * option error) (e : list A) (s : st) : list A * brigade * st :=
    if judy then
      let '(e', t, s1) := tabulated hash e [] s in
      let '(p, b, s2) := rallying r t [] s1 in
      unwind e' b p s2
    else bundled_f (Some r) e s.

  (** ** Tables of labels, src/table.c:300-376, src/emu.c:34-53.  An entry is a hash and a label. *)
  Section Labels.
    Variable eeq : nat -> word -> word -> bool * option error.
    Variable ehash : word -> N.

    (** src/table.c:374 and src/emu.c:48: whether the search stops before the end of the bin *)
    Fixpoint found (l : word) (t : list (N * word)) (s : st) : bool * st :=
      match t with
      | [] => (false, s)
      | (h, l') :: t' =>
          if same_bin judy (ehash l) h then
            match failed (fun n => eeq n l l') s with
            | (true, s') => found l t' s'
            | (false, s') => (true, s')
            end
          else found l t' s
      end.
    (** [_cru_already_recorded], src/table.c:359-376, with [lookup], 332-352 *)
    Definition recorded_f (l : word) (t : list (N * word)) (s : st) : bool * st :=
      match t with
      | [] => (false, s)
      | _ =>
          let (b, s1) := if judy then alloc s else (true, s) in
          let (p, s2) := if b then found l t s1 else (false, s1) in
          (if failing s2 then false else p, s2)
      end.
    (** [_cru_record_edge], src/table.c:300-324, with [_cru_multirecord], src/emu.c:34-53 *)
    Definition record_f (l : word) (t : list (N * word)) (s : st) : list (N * word) * st :=
      let (b, s1) := if judy then alloc s else (true, s) in
      if b then
        let (p, s2) := found l t s1 in
        if failing s2 || p then (t, s2)
        else match alloc s2 with (true, s3) => (t ++ [(ehash l, l)], s3) | (false, s3) => (t, s3) end
      else (t, s1).

    (** src/edges.c:288-317, [_cru_repeating_labels]: the edges left in the list and those removed *)
    Fixpoint repeating_f (t : list (N * word)) (e r : list A) (s : st) : list A * list A * st :=
      match e with
      | [] => ([], r, s)
      | x :: e' =>
          if failing s then (e, r, s)
          else match recorded_f (lab x) t s with
               | (true, s1) => repeating_f t e' (x :: r) s1
               | (false, s1) => let (t', s2) := record_f (lab x) t s1 in
                                let '(k, r', s3) := repeating_f t' e' r s2 in (x :: k, r', s3)
               end
      end.
    Definition repeating_labels_f (e : list A) (s : st) : list A * list A * st :=
      match e with [] | [_] => (e, [], s) | _ => repeating_f [] e [] s end.

    (** src/brig.c:310-336, [_cru_deduplicated_brigade].  (That the termini are replaced by their classes afterwards if they are
        grouped by class makes no difference.) *)
    Fixpoint deduplicating (t : brigade) (result : list A) (s : st) : list A * st :=
      match t with
      | [] => (result, s)
      | b :: t' => let '(k, r, s1) := repeating_labels_f b s in
                   deduplicating t' (k ++ result) (free_cells 1 (free_edges r s1))
      end.
    Definition deduplicated_brigade_f (t : brigade) (s : st) : list A * st :=
      let (result, s') := deduplicating t [] s in
      if failing s' then ([], free_edges result s') else (result, s').
    (** src/edges.c:430-444, [_cru_deduplicated_edges] *)
    Definition deduplicated_edges_f (key : A -> N) (e : list A) (s : st) : list A * st :=
      let '(e', b, s1) := marshalled_f key e s in
      let (result, s2) := deduplicated_brigade_f b s1 in
      (result, free_edges e' s2).
  End Labels.

  (** ** src/build.c:49-81, [unique], where edges have remote vertices; [veq] applies to those of two edges, and [ident] tells
      whether they are identical (UNEQUAL, line 42). *)
  Section Unique.
    Variable hash : A -> N.
    Variable eeq veq : nat -> A -> A -> bool * option error.
    Variable ident : A -> A -> bool.

    (** 75: whether the loop stops before the end *)
    Fixpoint duplicate (p : A) (l : list A) (s : st) : bool * st :=
      match l with
      | [] => (false, s)
      | x :: l' =>
          if ident p x then (true, s)
          else match failed (fun n => veq n p x) s with
               | (true, s') => duplicate p l' s'
               | (false, s') => (true, s')
               end
      end.
    Fixpoint unique_in (b r : list A) (s : st) : list A * st :=
      match b with
      | [] => (r, s)
      | p :: b' => let (d, s') := duplicate p b' s in
                   if d || failing s' then unique_in b' r (free_edge s' p) else unique_in b' (p :: r) s'
      end.
    Fixpoint uniques (t : brigade) (r : list A) (s : st) : list A * st :=
      match t with
      | [] => (r, s)
      | b :: t' => let (r', s') := unique_in b r s in uniques t' r' (free_cells 1 s')
      end.
    Definition unique_f (e : list A) (s : st) : list A * st :=
      let '(e', t, s1) := rallied_f hash eeq e s in
      uniques t [] (free_edges e' s1).
  End Unique.

  (** ** src/brig.c:346-385, [_cru_reduced_brigade].  [red] is what _cru_configurably_reduced_edges returns and raises (see Fold.v):
      NULL if there is an error (src/edges.c:537).  [kills] is what the destructor r_free raises. *)
  Section Reduce.
    Variable red : nat -> list A -> word * option error.
    Variable kills : word -> option error.

    (** The labels returned by [red], and those passed to r_free, with the rest of the state *)
    Record rst := mkR { below : st; newl : list word; dead : list word }.

    (** [_cru_edge], src/edges.c:44-80, without a remote vertex: [if (label ? r->e_free : NULL) APPLY(r->e_free, label)] *)
    Definition destroy_label (l : word) (s : rst) : rst :=
      if N.eqb l null then s else mkR (raise (kills l) (below s)) (newl s) (l :: dead s).
    Definition new_edge (l : word) (s : rst) : option word * rst :=
      if failing (below s) then (None, destroy_label l s)
      else match alloc (below s) with
           | (true, s') => (Some l, mkR s' (newl s) (dead s))
           | (false, s') => (None, destroy_label l (mkR s' (newl s) (dead s)))
           end.
    Definition reduce_bucket (b : list A) (s : rst) : word * rst :=
      if failing (below s) then (null, s)
      else match red (tick (below s)) b with
           | (l, None) => (l, mkR (ticked (below s)) (if N.eqb l null then newl s else l :: newl s) (dead s))
           | (_, Some e) => (null, mkR (raise (Some e) (ticked (below s))) (newl s) (dead s))
           end.
    (** An edge of the result is its label and the bucket it stands for. *)
    Fixpoint reducing (t : brigade) (result : list (word * list A)) (s : rst) : list (word * list A) * rst :=
      match t with
      | [] => (result, s)
      | b :: t' =>
          let (l, s1) := reduce_bucket b s in
          let (x, s2) := new_edge l s1 in
          reducing t' (match x with Some l => (l, b) :: result | None => result end)
            (mkR (free_cells 1 (free_edges b (below s2))) (newl s2) (dead s2))
      end.
    Definition reduced_brigade_f (t : brigade) (s : rst) : list (word * list A) * rst :=
      let (result, s') := reducing t [] s in
      if failing (below s') then ([], fold_left (fun s x => destroy_label (fst x) s) result s') else (result, s').
  End Reduce.

  (** ** src/merge.c:232-274, [filter_edges]: the edges that satisfy the predicate, and those that are freed.  [keep] is the predicate
      with the multiplicity, which is looked up in a table. *)
  Section Prune.
    Variable keep : nat -> A -> bool * option error.
    Fixpoint keeping (e q : list A) (s : st) : list A * list A * st :=
      match e with
      | [] => ([], q, s)
      | x :: e' => match passed (fun n => keep n x) s with
                   | (true, s') => let '(k, q', s'') := keeping e' q s' in (x :: k, q', s'')
                   | (false, s') => keeping e' (x :: q) s'
                   end
      end.
    Definition filter_edges_f (pruner : bool) (e : list A) (s : st) : list A * st :=
      if pruner then let '(k, q, s') := keeping e [] s in (k, free_edges q s') else (e, s).
  End Prune.

  (** ** src/filters.c.  The edges of a node that pass the test, and [c], the failing ones, which are deleted by the caller *)
  Section Filter.
    (** MAP (275) applied to an edge, or _cru_reduced_edges applied to a bucket: a word other than NULL means that the test is
        passed, even if an error is raised by the former; and what the destructor of the result raises *)
    Variable test : nat -> A -> word * option error.
    Variable reduction : nat -> list A -> word * option error.
    Variable trash : word -> option error.
    (** the thinner *)
    Variable less : nat -> A -> A -> bool * option error.

    (** APPLIED, src/errs.h:57, and the destruction of a non-null result *)
    Definition tested (f : nat -> word * option error) (s : st) : bool * st :=
      if failing s then (false, s)
      else let (w, e) := f (tick s) in
           let s' := raise e (ticked s) in
           if N.eqb w null then (false, s') else (true, raise (trash w) s').

    (** src/filters.c:284-288 *)
    Fixpoint separated (e p c : list A) (s : st) : list A * list A * st :=
      match e with
      | [] => (p, c, s)
      | x :: e' => match tested (fun n => test n x) s with
                   | (true, s') => separated e' (x :: p) c s'
                   | (false, s') => separated e' p (x :: c) s'
                   end
      end.
    (** src/edges.c:372-392, [_cru_minimum_edge], and src/brig.c:107-131, [_cru_minimum_bucket]: the position of the minimum, where
        [m] is the candidate so far, and [j] is the position of the rest.  The minimum is removed from the list, if any (src/edges.c:347-365, src/brig.c:81-98). *)
    Fixpoint minimum {B : Type} (lt : nat -> B -> B -> bool * option error) (m : option (nat * B)) (j : nat) (e : list B) (s : st)
      : option (nat * B) * st :=
      match e with
      | [] => (if failing s then None else m, s)
      | x :: e' =>
          if failing s then (None, s)
          else match m with
               | None => minimum lt (Some (j, x)) (S j) e' s
               | Some (i, y) => match passed (fun n => lt n x y) s with
                                | (true, s') => minimum lt (Some (j, x)) (S j) e' s'
                                | (false, s') => minimum lt (Some (i, y)) (S j) e' s'
                                end
               end
      end.
    Definition minimum_f {B : Type} (lt : nat -> B -> B -> bool * option error) (e : list B) (s : st) : option B * list B * st :=
      match minimum lt None 0 e s with
      | (Some (i, m), s') => (Some m, firstn i e ++ skipn (S i) e, s')
      | (None, s') => (None, e, s')
      end.

    (** 261-298, [individually_filtered]: n->edges_out and [*c] *)
    Definition individually_f (thin : bool) (e c : list A) (s : st) : list A * list A * st :=
      let '(p, c', s') := separated e [] c s in
      if thin then
        match p with
        | [] => ([], c', s')
        | _ => match minimum_f less p s' with
               | (Some m, p', s'') => ([m], p' ++ c', s'')
               | (None, p', s'') => ([], p' ++ c', s'')
               end
        end
      else (p, c', s').

    (** 307-339, [jointly_filtered] *)
    Fixpoint jointly (b : brigade) (e c : list A) (s : st) : list A * list A * st :=
      match b with
      | [] => (e, c, s)
      | l :: b' => match tested (fun n => match reduction n l with (w, None) => (w, None) | (_, o) => (null, o) end) s with
                   | (true, s') => jointly b' (l ++ e) c s'
                   | (false, s') => jointly b' e (l ++ c) s'
                   end
      end.
    Definition jointly_filtered_f (b : brigade) (c : list A) (s : st) : list A * list A * st :=
      let '(e, c', s') := jointly b [] c s in (e, c', free_cells (length b) s').

    (** 345-384, [jointly_thinned]; the first edges of the buckets are compared (src/brig.c:124-129), which are not empty. *)
    Fixpoint passing (b p : brigade) (c : list A) (s : st) : brigade * list A * st :=
      match b with
      | [] => (p, c, s)
      | l :: b' => match tested (fun n => match reduction n l with (w, None) => (w, None) | (_, o) => (null, o) end) s with
                   | (true, s') => passing b' (l :: p) c s'
                   | (false, s') => passing b' p (l ++ c) (free_cells 1 s')
                   end
      end.
    Definition first_less (n : nat) (b b' : list A) : bool * option error :=
      match b, b' with x :: _, y :: _ => less n x y | _, _ => (false, None) end.
    Definition cat_all (p : brigade) (c : list A) : list A := fold_left (fun c l => l ++ c) p c.
    Definition jointly_thinned_f (b : brigade) (c : list A) (s : st) : list A * list A * st :=
      let '(p, c', s') := passing b [] c s in
      match p with
      | [] => ([], c', s')
      | _ => match minimum_f first_less p s' with
             | (Some m, p', s'') => (m, cat_all p' c', free_cells (length p') (free_cells 1 s''))
             | (None, p', s'') => ([], cat_all p' c', free_cells (length p') s'')
             end
      end.

    (** 396-426, [filtered]: [order] is the hash and the relation on edges, if there is one; [individual] is the condition in line
        418.  If there is an empty list of edges, then [b] is NULL. *)
    Definition filtered_f (individual thin : bool) (order : option ((A -> N) * (nat -> A -> A -> bool * option error)))
               (e c : list A) (s : st) : list A * list A * st :=
      if failing s then (e, c, s)
      else if individual then individually_f thin e c s
      else
        let '(e', b, s') := match order with None => bundled_f None e s | Some (h, r) => rallied_f h r e s end in
        match e' with
        | [] => if thin then jointly_thinned_f b c s' else jointly_filtered_f b c s'
        | _ => ([], c ++ e', s')
        end.
  End Filter.
End Failing.
