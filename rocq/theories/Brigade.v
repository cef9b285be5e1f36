(** Grouping and deduplication of edge lists: src/brig.c, parts of src/table.c,
    src/edges.c and the static function [unique] of src/build.c.

    Edge lists are Coq lists whose head is the first edge.  [A] is the type of
    edges; the functions that look at labels or termini take them as relations
    or keys.  Allocation failures and the error status are not modelled here:
    these functions are modelled as executed with [*err == 0]. *)
From Coq Require Import List Arith NArith Lia Bool Permutation.
From Verif Require Import Base.
Import ListNotations.

Set Implicit Arguments.

Section Brigade.
  Context {A : Type}.

  (** A brigade (src/brig.h) is a list of buckets, each of which is an edge list. *)
  Definition brigade := list (list A).

  (** One round of the scan in src/brig.c:237-250 ([_cru_bundled]) and
      src/brig.c:181-197 ([_cru_bucketed]): walk the buckets from the first one,
      push the edge [x] in front of the first bucket whose first edge [y] satisfies
      [r y x], or append a new bucket. *)
  Fixpoint put (r : A -> A -> bool) (x : A) (bs : brigade) : brigade :=
    match bs with
    | [] => [[x]]
    | [] :: bs' => [x] :: bs'
    | (y :: b) :: bs' => if r y x then (x :: y :: b) :: bs' else (y :: b) :: put r x bs'
    end.

  (** src/brig.c:208-252, [_cru_bundled], with a non-null relation. *)
  Definition bundled (r : A -> A -> bool) (e : list A) : brigade :=
    fold_left (fun bs x => put r x bs) e [].

  (** src/brig.c:229-235, [_cru_bundled] with a null relation: one bucket per edge. *)
  Definition bundled_null (e : list A) : brigade :=
    fold_left (fun bs x => [x] :: bs) e [].

  (** src/brig.c:162-199, [_cru_bucketed]; [key] is the terminus or its class. *)
  Definition bucketed (key : A -> N) (e : list A) : brigade :=
    bundled (fun y x => N.eqb (key y) (key x)) e.

  (** A Judy array from words to edge lists, as an association list in ascending
      order of keys.  [jli k x t] is the use made of the macro [JLI] in
      src/table.c:221-224 and 270-273: find or create the entry, push to its front. *)
  Fixpoint jli (k : N) (x : A) (t : list (N * list A)) : list (N * list A) :=
    match t with
    | [] => [(k, [x])]
    | (k', l) :: t' =>
        match N.compare k k' with
        | Lt => (k, [x]) :: t
        | Eq => (k', x :: l) :: t'
        | Gt => (k', l) :: jli k x t'
        end
    end.

  Definition jtable (key : A -> N) (e : list A) : list (N * list A) :=
    fold_left (fun t x => jli (key x) x t) e [].

  (** src/table.c:194-238, [_cru_marshalled]; with Judy arrays, the entries are
      pushed one by one in ascending order of keys. *)
  Definition marshalled (judy : bool) (key : A -> N) (e : list A) : brigade :=
    if judy then fold_left (fun b kl => snd kl :: b) (jtable key e) []
    else bucketed key e.

  (** src/table.c:245-289, [_cru_rallied]. *)
  Definition rallied (judy : bool) (hash : A -> N) (r : A -> A -> bool) (e : list A) : brigade :=
    if judy then fold_left (fun b kl => bundled r (snd kl) ++ b) (jtable hash e) []
    else bundled r e.

  (** src/brig.c:262-277, [_cru_unbundled]. *)
  Definition unbundled (b : brigade) : list A :=
    fold_left (fun result bucket => bucket ++ result) b [].

  (** Multiset tables as used by [_cru_already_recorded] and [_cru_record_edge]
      (src/table.c:300-376, src/emu.c:34-53): with Judy arrays there is one bin per
      hash, without them there is a single bin.  An entry is a hash and a label. *)
  Definition same_bin (judy : bool) (h h' : N) : bool := if judy then N.eqb h h' else true.

  Section Labels.
    Context {E : Type}.
    Variable eeq : E -> E -> bool.

    Definition recorded (judy : bool) (h : N) (l : E) (t : list (N * E)) : bool :=
      existsb (fun hl => same_bin judy h (fst hl) && eeq l (snd hl)) t.

    Definition record_edge (judy : bool) (h : N) (l : E) (t : list (N * E)) : list (N * E) :=
      if recorded judy h l t then t else t ++ [(h, l)].

    (** src/edges.c:288-317, [_cru_repeating_labels]: the edges left in the list and
        the removed ones (pushed to a list, hence reversed).  [lab] is the label. *)
    Fixpoint repeating (judy : bool) (ehash : E -> N) (lab : A -> E) (t : list (N * E))
             (e : list A) (r : list A) : list A * list A :=
      match e with
      | [] => ([], r)
      | x :: e' =>
          if recorded judy (ehash (lab x)) (lab x) t
          then repeating judy ehash lab t e' (x :: r)
          else let (k, r') := repeating judy ehash lab
                                (record_edge judy (ehash (lab x)) (lab x) t) e' r
               in (x :: k, r')
      end.

    Definition repeating_labels (judy : bool) (ehash : E -> N) (lab : A -> E) (e : list A)
      : list A * list A :=
      match e with
      | [] | [_] => (e, [])
      | _ => repeating judy ehash lab [] e []
      end.

    (** src/brig.c:310-336, [_cru_deduplicated_brigade], by terminus: the remaining
        edges and those freed. *)
    Definition deduplicated_brigade (judy : bool) (ehash : E -> N) (lab : A -> E) (t : brigade)
      : list A * list A :=
      fold_left (fun kf bucket =>
                   let (k, r) := repeating_labels judy ehash lab bucket in
                   (k ++ fst kf, r ++ snd kf)) t ([], []).

    (** src/edges.c:430-444, [_cru_deduplicated_edges]. *)
    Definition deduplicated_edges (judy : bool) (ehash : E -> N) (lab : A -> E) (terminus : A -> N)
               (e : list A) : list A * list A :=
      deduplicated_brigade judy ehash lab (marshalled judy terminus e).
  End Labels.

  (** src/build.c:72-79, the treatment of one bucket in [unique]: the first edge is
      freed if its remote vertex equals that of a remaining edge of the bucket, else
      pushed to the result. [veq] compares remote vertices; the shortcut for identical
      pointers in the macro UNEQUAL (src/build.c:42) is subsumed by reflexivity. *)
  Fixpoint unique_bucket (veq : A -> A -> bool) (b : list A) (rf : list A * list A)
    : list A * list A :=
    match b with
    | [] => rf
    | p :: b' => unique_bucket veq b'
                   (if existsb (fun x => veq p x) b' then (fst rf, p :: snd rf) else (p :: fst rf, snd rf))
    end.

  (** src/build.c:49-81, [unique]: the resulting edges and the freed ones. *)
  Definition unique (judy : bool) (ehash : A -> N) (eeq veq : A -> A -> bool) (e : list A)
    : list A * list A :=
    fold_left (fun rf b => unique_bucket veq b rf) (rallied judy ehash eeq e) ([], []).
End Brigade.
