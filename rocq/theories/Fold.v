(** Folds over edges (src/edges.c), properties of vertices (src/nodes.c) and the defaults filled
    in for operators left out by the user (src/defo.c, src/repl.c).

    All values here are of the type void *, modelled as numbers, where 0 is NULL.  User functions
    are arbitrary functions of their operands that return a value together with an optional error
    code: the macros CALLED, APPLIED and APPLY (src/errs.h:54-58) do not let them see the error
    flag. *)
From Coq Require Import List Arith NArith Lia Bool Permutation.
From Verif Require Import Base Env.
Import ListNotations.

Set Implicit Arguments.

Definition word := N.
Definition null : word := 0%N.
Definition is_null (x : word) : bool := N.eqb x 0.

(** What a user function returns. *)
Definition outcome := (word * option error)%type.

(** A destructor: a function identified by its address, which may report an error. *)
Record dtor := mkD { addr : nat; fails : word -> option error }.

Definition same_dtor (a b : option dtor) : bool :=
  match a, b with
  | None, None => true
  | Some x, Some y => Nat.eqb (addr x) (addr y)
  | _, _ => false
  end.

(** include/cru/data_types.h, [cru_fold_s]. *)
Record fold := mkFold {
  map3 : option (word -> word -> word -> outcome);   (* map *)
  map2 : option (word -> word -> outcome);           (* bmap *)
  reduction : option (word -> word -> outcome);
  vacuous_case : option outcome;
  r_free : option dtor;
  m_free : option dtor
}.

(** The error flag, and a record of the non-null values produced and destroyed; a value belongs
    with either the map or the reduction and is destroyed by the destructor for that kind. *)
Inductive kind := OfMap | OfRed.
Record fst_ := mkFS { err : option error; made : list (kind * word); gone : list (kind * word) }.

(** RAISE, src/errs.h:36. *)
Definition raise (e : option error) (s : fst_) : fst_ :=
  mkFS (match err s with Some x => Some x | None => e end) (made s) (gone s).

Definition note_made (k : kind) (x : word) (s : fst_) : fst_ :=
  if is_null x then s else mkFS (err s) ((k, x) :: made s) (gone s).

(** CALLED and APPLIED, src/errs.h:54 and 57. *)
Definition applied (k : kind) (o : outcome) (s : fst_) : word * fst_ :=
  match err s with
  | Some _ => (null, s)
  | None => (fst o, raise (snd o) (note_made k (fst o) s))
  end.

(** if (x ? d : NULL) APPLY(d, x), src/errs.h:58. *)
Definition destroy (k : kind) (d : option dtor) (x : word) (s : fst_) : fst_ :=
  if is_null x then s
  else match d with
       | None => s
       | Some d => raise (fails d x) (mkFS (err s) (made s) ((k, x) :: gone s))
       end.

Definition has_err (s : fst_) : bool := match err s with Some _ => true | None => false end.

(** An edge as it is seen by a fold: the label and the vertex of the remote node (or its
    accumulator, or the composite vertex of its class, which makes no difference here). *)
Definition redge := (word * word)%type.

(** The map for edges after the first, src/edges.c:528, prefers [map]. *)
Definition map_edge (m : fold) (v : word) (e : redge) : outcome :=
  match map3 m, map2 m with
  | Some f, _ => f v (fst e) (snd e)
  | None, Some f => f v (fst e)
  | None, None => (null, None)
  end.

(** The map for the first edge when there is no vacuous case, src/edges.c:521, prefers [bmap]. *)
Definition map_first_edge (m : fold) (v : word) (e : redge) : outcome :=
  match map2 m, map3 m with
  | Some f, _ => f v (fst e)
  | None, Some f => f v (fst e) (snd e)
  | None, None => (null, None)
  end.

Definition reduce (m : fold) (x y : word) : outcome :=
  match reduction m with Some f => f x y | None => (null, None) end.

(** src/edges.c:525-534 *)
Fixpoint reduce_rest (m : fold) (v : word) (es : list redge) (acc : word) (s : fst_) : word * fst_ :=
  match es with
  | [] => (acc, s)
  | e :: es' =>
      if has_err s then (acc, s)
      else
        let (x, s1) := applied OfMap (map_edge m v e) s in
        let (r, s2) := applied OfRed (reduce m x acc) s1 in
        let s3 := destroy OfMap (m_free m) x s2 in
        let s4 := destroy OfRed (r_free m) acc s3 in
        reduce_rest m v es' r s4
  end.

(** src/edges.c:484-538, [reduced_edges].  Checks for internal errors other than a missing map or
    reduction or differing destructors are left out.  The first value, if there is no vacuous
    case, comes from the map but belongs with the reduction: it is freed by [r_free]. *)
Definition IER := USERERR 0.
Definition UNDVAC := USERERR 1.

Definition finish_fold (d : option dtor) (x : word) (s : fst_) : word * fst_ :=
  if has_err s then (null, destroy OfRed d x s) else (x, s).

Definition reduced_edges (m : fold) (v : word) (es : list redge) (s : fst_) : word * fst_ :=
  match es with
  | [] =>
      match vacuous_case m with
      | None => (null, raise (Some UNDVAC) s)
      | Some o => applied OfRed o s
      end
  | e :: es' =>
      match map3 m, map2 m with
      | None, None => (null, raise (Some IER) s)
      | _, _ =>
          match vacuous_case m with
          | Some o =>
              let (x, s1) := applied OfRed o s in
              match reduction m with
              | None => finish_fold (r_free m) x (raise (Some IER) s1)
              | Some _ => let (r, s2) := reduce_rest m v es x s1 in finish_fold (r_free m) r s2
              end
          | None =>
              if same_dtor (m_free m) (r_free m) then
                let (x, s1) := applied OfRed (map_first_edge m v e) s in
                match es', reduction m with
                | [], _ => finish_fold (r_free m) x s1
                | _, None => finish_fold (r_free m) x (raise (Some IER) s1)
                | _, Some _ => let (r, s2) := reduce_rest m v es' x s1 in finish_fold (r_free m) r s2
                end
              else (null, raise (Some IER) s)
          end
      end
  end.

(** include/cru/data_types.h, [cru_prop_s]. *)
Record prop := mkProp { vertex : fold; incident : fold; outgoing : fold }.

Definition is_none {A} (x : option A) : bool := match x with None => true | Some _ => false end.

(** src/defo.c:70-86, [_cru_empty_fold].  Functions are not compared with the placeholders that
    the library itself may have assigned; [fill_fold] below is only applied to folds that are not
    empty. *)
Definition empty_fold (m : fold) : bool :=
  is_none (map3 m) && is_none (map2 m) && is_none (reduction m) && is_none (vacuous_case m) &&
  is_none (r_free m) && is_none (m_free m).

(** src/nodes.c:380-414, [mapped_node]: [vin] and [vout] are the edges in each direction. *)
Definition folded (m : fold) (v : word) (es : list redge) (s : fst_) : word * fst_ :=
  if empty_fold m then (null, s) else reduced_edges m v es s.

Definition mapped_node (p : prop) (v : word) (vin vout : list redge) (s : fst_)
  : word * (fst_ * fst_ * fst_) :=
  if has_err s then (null, (s, s, s)) else
  match map2 (vertex p), map3 (vertex p) with
  | None, None => (null, (raise (Some IER) s, s, s))
  | b, t =>
      (* the records of values are kept apart for the three folds; the error flag is shared *)
      let (i, si) := folded (incident p) v vin s in
      let (o, so) := folded (outgoing p) v vout (mkFS (err si) (made s) (gone s)) in
      let (r, sv) := applied OfMap (match b, t with
                                    | Some f, _ => f i v
                                    | None, Some f => f i v o
                                    | None, None => (null, None)
                                    end) (mkFS (err so) (made s) (gone s)) in
      let si' := destroy OfRed (r_free (incident p)) i (mkFS (err sv) (made si) (gone si)) in
      let so' := destroy OfRed (r_free (outgoing p)) o (mkFS (err si') (made so) (gone so)) in
      let sv' := mkFS (err so') (made sv) (gone sv) in
      if has_err sv' then (null, (destroy OfMap (m_free (vertex p)) r sv', si', so'))
      else (r, (sv', si', so'))
  end.

(** ** Defaults *)

(** src/repl.c:244-301 *)
Definition identity_top (_ m _ : word) : outcome := (m, None).
Definition minimizing_bop (x y : word) : outcome := ((if N.ltb x y then x else y), None).

(** src/defo.c:217-258, [_cru_filled_fold]: either a completed fold or an error.  The placeholder
    operators are left out. *)
Definition UNDMAP := USERERR 2.
Definition UNDRED := USERERR 3.
Definition TPCMPR := USERERR 4.

Definition filled_fold (m : fold) : fold + error :=
  match map3 m, map2 m with
  | Some _, Some _ => inr IER
  | t, b =>
      let no_free := is_none (m_free m) && is_none (r_free m) in
      if is_none t && is_none b && negb no_free then inr UNDMAP
      else if is_none (reduction m) && negb no_free then inr UNDRED
      else if is_none (vacuous_case m) && negb (same_dtor (m_free m) (r_free m)) then inr TPCMPR
      else inl (mkFold (if is_none t && is_none b then Some identity_top else t) b
                       (match reduction m with None => Some minimizing_bop | r => r end)
                       (vacuous_case m) (r_free m) (m_free m))
  end.

(** src/defo.c:323-340, [_cru_filled_prop] *)
Definition filled_prop (p : prop) : prop + error :=
  match (if empty_fold (incident p) then inl (incident p) else filled_fold (incident p)) with
  | inr e => inr e
  | inl i =>
      match (if empty_fold (outgoing p) then inl (outgoing p) else filled_fold (outgoing p)) with
      | inr e => inr e
      | inl o => match filled_fold (vertex p) with
                 | inr e => inr e
                 | inl v => inl (mkProp v i o)
                 end
      end
  end.
