(** The containers used by the tasks: multisets of edge labels, sets of nodes and maps from vertices
    to classes (src/table.c with Judy arrays; src/emu.c without).

    A Judy array is taken to be the finite map (JudyL) or set (Judy1) documented by its library: a
    list of the keys stored with their values, each key once, whose order is left open.
    Memory is assumed to suffice, so the checks for ENOMEM are left out, as are those for null
    pointers, which are internal errors, and for the wrapping around of multiplicities. *)
From Coq Require Import List Arith NArith Lia Bool.
From Verif Require Import Base.
Import ListNotations.

Set Implicit Arguments.

(** ** JudyL arrays of lists *)
Section Judy.
  Context {A : Type}.
  Definition jarray := list (N * list A).
  (** JLG, [lookup] (src/table.c:332-352) *)
  Fixpoint cell (t : jarray) (h : N) : list A :=
    match t with
    | [] => []
    | (h', b) :: t' => if N.eqb h h' then b else cell t' h
    end.
  (** JLI and an assignment, [_cru_collision] (src/table.c) *)
  Fixpoint put (t : jarray) (h : N) (b : list A) : jarray :=
    match t with
    | [] => [(h, b)]
    | (h', b') :: t' => if N.eqb h h' then (h', b) :: t' else (h', b') :: put t' h b
    end.
End Judy.
Arguments jarray : clear implicits.

(** ** Multisets of labels *)
Section Multisets.
  Context {L : Type}.
  (** The user's equality (cru_bpred) and hash of labels.  The equality is assumed not to raise an
      error; after an error the tables are only freed. *)
  Variable e : L -> L -> bool.
  Variable hash : L -> N.
  (** Are Judy arrays available (#ifdef JUDY)? *)
  Variable judy : bool.

  (** src/table.h, src/emu.h: a multiset_table_bin is a list of labels with multiplicities numbered
      from zero. *)
  Definition bin := list (L * nat).

  (** src/emu.c:34-53, [_cru_multirecord] *)
  Fixpoint multirecord (l : L) (t : bin) : bin :=
    match t with
    | [] => [(l, 0)]
    | (l', m) :: t' => if e l l' then t else (l', m) :: multirecord l t'
    end.

  (** src/emu.c:84-99, the body of the loop in [_cru_multimerge] *)
  Fixpoint merge_one (t : bin) (x : L * nat) : bin :=
    match t with
    | [] => [x]
    | (l', m) :: t' => if e l' (fst x) then (l', m + snd x + 1) :: t' else (l', m) :: merge_one t' x
    end.

  (** src/emu.c:60-103, [_cru_multimerge] *)
  Definition multimerge (t q : bin) : bin := fold_left merge_one q t.

  (** src/table.c:374 and 433: search for an entry. *)
  Fixpoint search (l : L) (t : bin) : option nat :=
    match t with
    | [] => None
    | (l', m) :: t' => if e l l' then Some m else search l t'
    end.

  (** A multiset_table is a JudyL array of bins indexed by the hashes, or else a single bin, which is
      represented as the one at index 0. *)
  Definition table := jarray (L * nat).
  Definition slot (l : L) : N := if judy then hash l else 0%N.

  (** src/table.c:300-324, [_cru_record_edge]; the hash passed is always that of the label
      (src/merge.c, src/build.c). *)
  Definition record_label (l : L) (t : table) : table := put t (slot l) (multirecord l (cell t (slot l))).

  (** src/table.c:383-411, [_cru_merge]: for each index in [q] *)
  Definition merge (t q : table) : table :=
    fold_left (fun t hb => put t (fst hb) (multimerge (cell t (fst hb)) (snd hb))) q t.

  (** src/table.c:359-376, [_cru_already_recorded] *)
  Definition already_recorded (l : L) (t : table) : bool :=
    match search l (cell t (slot l)) with Some _ => true | None => false end.

  (** src/table.c:418-435, [_cru_multiplicity] *)
  Definition multiplicity (l : L) (t : table) : nat :=
    match search l (cell t (slot l)) with Some m => m | None => 0 end.

  (** The history of a table: it starts out empty, labels are recorded in it, and other tables are
      merged into it, which consumes them. *)
  Inductive history := Empty | Record (l : L) (t : history) | Merge (t q : history).
  Fixpoint table_of (x : history) : table :=
    match x with
    | Empty => []
    | Record l t => record_label l (table_of t)
    | Merge t q => merge (table_of t) (table_of q)
    end.
End Multisets.

(** ** Sets of nodes *)
Section Sets.
  (** Without Judy arrays, a node_set is a list of nodes (node_set_nj, src/emu.h). *)
  Fixpoint member_nj (n : nat) (s : list nat) : bool := (* src/emu.c:153-164 *)
    match s with [] => false | m :: s' => if Nat.eqb m n then true else member_nj n s' end.
  Definition set_nj (n : nat) (s : list nat) : list nat := n :: s. (* 172-190 *)
  Fixpoint clear_nj (n : nat) (s : list nat) : list nat := (* 198-217 *)
    match s with [] => [] | m :: s' => if Nat.eqb m n then s' else m :: clear_nj n s' end.
  Fixpoint test_nj (n : nat) (s : list nat) : bool := (* 239-241 *)
    match s with [] => false | m :: s' => if Nat.eqb m n then true else test_nj n s' end.
  Definition test_and_set_nj (n : nat) (s : list nat) : bool * list nat := (* 226-249 *)
    if test_nj n s then (true, s) else (false, n :: s).

  (** The operations on node sets and what they return. *)
  Inductive set_op := Member (n : nat) | Set_ (n : nat) | Clear (n : nat) | TestAndSet (n : nat).
  Definition set_step_nj (s : list nat) (o : set_op) : list nat * option bool :=
    match o with
    | Member n => (s, Some (member_nj n s))
    | Set_ n => (set_nj n s, Some true)
    | Clear n => (clear_nj n s, None)
    | TestAndSet n => (snd (test_and_set_nj n s), Some (fst (test_and_set_nj n s)))
    end.
  (** All results of a history of operations. *)
  Fixpoint set_run_nj (s : list nat) (os : list set_op) : list (option bool) :=
    match os with [] => [] | o :: os' => snd (set_step_nj s o) :: set_run_nj (fst (set_step_nj s o)) os' end.
End Sets.

(** ** Maps from vertices to classes *)
Section Maps.
  Context {C : Type}.
  (** A vertex_map is a JudyL array or a list of pairs (src/emu.h), in either case represented by a
      list of pairs.  Vertices are words, compared as such. *)
  Definition vmap := list (N * C).

  (** src/emu.c:282-294, [_cru_image_nj] *)
  Fixpoint image_nj (m : vmap) (v : N) : option C :=
    match m with [] => None | (w, c) :: m' => if N.eqb w v then Some c else image_nj m' v end.
  (** src/emu.c:327-351, [_cru_associate_nj]: the result is the map and the class to be freed, if any *)
  Fixpoint associate_nj (m : vmap) (v : N) (c : C) : vmap * option C :=
    match m with
    | [] => ([(v, c)], None)
    | (w, d) :: m' => if N.eqb w v then (m, Some c)
                      else let (m'', f) := associate_nj m' v c in ((w, d) :: m'', f)
    end.

  (** src/table.c:702-728, [_cru_associate]; the last component of the result tells whether
      CRU_PARDPV is raised.  The entry is tested for being null by line 720; no class is null. *)
  Definition associate (judy : bool) (m : vmap) (v : N) (c : C) : vmap * option C * bool :=
    if judy then
      match image_nj m v with
      | Some _ => (m, Some c, true)
      | None => (m ++ [(v, c)], None, false)
      end
    else (associate_nj m v c, false).
End Maps.
