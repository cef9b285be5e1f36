(** Partitions of the vertices of a graph by their properties, and classes (src/classes.c,
    src/props.c). *)
From Coq Require Import List Arith NArith Lia Bool Permutation.
From Verif Require Import Base Machine Env Hash Graph Visitor Walk Run Pass Fold Traverse Fabricate Containers.
Import ListNotations.

Set Implicit Arguments.

Definition PARDPV := USERERR 5.
Definition PARVNF := USERERR 6.

(** A partition, src/classes.h.  Classes are numbered by their addresses.  The maps are indexed by
    workers; [refs] is the field references of each class that is allocated, [super] the field
    superclass. *)
Record partition := mkPart {
  width : nat;                    (* plurality *)
  pmaps : nat -> @vmap nat;       (* maps *)
  refs : nat -> option nat;
  super : nat -> option nat
}.

Section Partition.
  Context {E : Type}.
  Variable X : env.
  Variable g : graph word E.

  (** ** Properties.  [mapped] is the property of each vertex or an error, as computed by
      [_cru_mapped_node] (see Fold.v). *)
  Variable mapped : nat -> outcome.

  (** src/props.c:181-211 and 257-259: [property_setting_task] sets the field vertex_property of each
      node. *)
  Definition prop_act (d : nat -> word) (n : nat) : (nat -> word) * option error :=
    match mapped n with
    | (x, None) => (upd d n x, None)
    | (_, Some e) => (upd d n null, Some e)
    end.
  Definition property_setting (X' : env) : @vst (nat -> word) nat -> npkt E -> option (_ * list (npkt E)) :=
    walk X' (es g) prop_act.

  (** ** Classes.  [prop] is the field vertex_property; the classifier's equality of properties is
      assumed not to raise errors. *)
  Variable equal : word -> word -> bool.
  Variable phash : word -> N.

  Section Classify.
    Variable prop : nat -> word.

    (** UNEQUAL, src/classes.c:240-242 *)
    Definition same (n m : nat) : bool := N.eqb (prop n) (prop m) || equal (prop n) (prop m).

    (** What the workers have: a vertex map each, and a table of packets for nodes that were the
        first in their class.  Classes belong to the worker that allocated them; here they are
        numbered in the order of allocation. *)
    Record cdata := mkCD {
      cmaps : nat -> @vmap nat;
      colls : nat -> jarray nat;
      crefs : nat -> option nat;
      next : nat
    }.
    Definition cstart : cdata := mkCD (fun _ => []) (fun _ => []) (fun _ => None) 0.

    Definition prop_hash (n : nat) : N := phash (prop n).
    Definition clane (n : nat) : nat := lane_of (lanes X) (prop_hash n).
    Definition cslot (n : nat) : N := if judy X then prop_hash n else 0%N.

    (** src/classes.c:282-298, apart from scattering.  The result of [associate] includes the class
        that is not used and freed (src/classes.c:178-191), which is the new one or a copy. *)
    Definition classify (d : cdata) (n : nat) : cdata * option error :=
      let l := clane n in
      let c := cell (colls d l) (cslot n) in
      match find (same n) c with
      | None => (* 292-294 *)
          let k := next d in
          let '(m, f, dup) := associate (judy X) (cmaps d l) (vx g n) k in
          (mkCD (upd (cmaps d) l m) (upd (colls d) l (put (colls d l) (cslot n) (c ++ [n])))
                (upd (crefs d) k (match f with Some _ => None | None => Some 0 end)) (S k),
           if dup then Some PARDPV else None)
      | Some r => (* 296-297 *)
          match image_nj (cmaps d l) (vx g r) with
          | None => (d, None)
          | Some k =>
              let '(m, f, dup) := associate (judy X) (cmaps d l) (vx g n) k in
              (mkCD (upd (cmaps d) l m) (colls d)
                    (match f with
                     | Some _ => crefs d
                     | None => upd (crefs d) k (match crefs d k with Some i => Some (S i) | None => None end)
                     end) (next d),
               if dup then Some PARDPV else None)
          end
      end.

    (** Packets are addressed by the hash of the property, src/scatter.c:240. *)
    Definition classifying (X' : env) : @vst cdata nat -> npkt E -> option (_ * list (npkt E)) :=
      gwalk X' (es g) classify prop_hash.
    Definition classifying_dest : npkt E -> nat := gwalk_dest X prop_hash.
  End Classify.

  (** src/classes.c:314-349, [_cru_partition_of].  The properties depend on incoming edges only
      through [mapped], hence the stages that make and remove back edges are left out (see C45).
      [order] and [order'] are the orders in which the workers finish.  [kills] are the calls of
      [cru_kill] during the passes 0 and 1.  Both use the same router, which is shared in the first
      (src/props.c:296) and reset after the second (src/props.c:163). *)
  Variable kills : nat -> nat -> bool.
  Inductive partitions : result (option partition) -> Prop :=
  | part_unprop s order e :
      ran (lanes X) (walk_dest X) (property_setting (in_pass X kills 0)) (vstart (fun _ => null)) (initial (root g)) s ->
      Permutation order (seq 0 (lanes X)) -> pass_status order s = Some e ->
      partitions (None, Some e)
  | part_made s order s' order' : (* 342-344: in spite of any error in the second pass *)
      ran (lanes X) (walk_dest X) (property_setting (in_pass X kills 0)) (vstart (fun _ => null)) (initial (root g)) s ->
      Permutation order (seq 0 (lanes X)) -> pass_status order s = None ->
      ran (lanes X) (classifying_dest (data s)) (classifying (data s) (in_pass X kills 1)) (vstart cstart) (initial (root g)) s' ->
      Permutation order' (seq 0 (lanes X)) ->
      partitions (Some (mkPart (lanes X) (cmaps (data s')) (crefs (data s')) (fun _ => None)), pass_status order' s').
End Partition.

(** ** Looking up and uniting classes *)

Fixpoint firsts {A} (l : list (option A)) : option A :=
  match l with [] => None | Some x :: _ => Some x | None :: l' => firsts l' end.

(** src/classes.c:451-453: the vertex maps are searched in turn. *)
Definition initial_class (p : partition) (v : word) : option nat :=
  firsts (map (fun l => image_nj (pmaps p l) v) (seq 0 (width p))).

(** Following superclasses from [i] to the top [r], by way of the classes [path]; it does not
    end if there is a cycle. *)
Inductive climbs (sup : nat -> option nat) : nat -> list nat -> nat -> Prop :=
| climbs_top i : sup i = None -> climbs sup i [] i
| climbs_up i j path r : sup i = Some j -> climbs sup j path r -> climbs sup i (i :: path) r.

(** src/classes.c:436-463, [cru_class_of]; the relation is empty if the loop in lines 458-459 does not
    end. *)
Inductive class_of (p : partition) (v : word) : result (option nat) -> Prop :=
| class_of_none : initial_class p v = None -> class_of p v (None, Some PARVNF)
| class_of_some i path r :
    initial_class p v = Some i -> climbs (super p) i path r -> class_of p v (Some r, None).

(** src/classes.c:367-381, [cru_class_size] of a class that is allocated. *)
Definition class_size (p : partition) (c : nat) : option nat := option_map S (refs p c).

(** xs and ys, src/classes.c:496-499 *)
Definition weight (p : partition) (path : list nat) : nat :=
  list_sum (map (fun k => match refs p k with Some r => r | None => 0 end) path).

(** src/classes.c:504-506 and 510-512 *)
Definition redirect (sup : nat -> option nat) (path : list nat) (top to : nat) : nat -> option nat :=
  upd (fold_left (fun f k => upd f k (Some to)) path sup) top (Some to).

(** src/classes.c:471-518, [cru_united] of valid classes; the result is whether it returns a non-zero
    value.  Locks are used for writing here and for reading by [cru_class_of], so operations of
    different threads on a partition take place one after the other. *)
Inductive united (p : partition) (x y : nat) : partition -> bool -> Prop :=
| united_by px rx py ry :
    climbs (super p) x px rx -> climbs (super p) y py ry ->
    united p x y
      (mkPart (width p) (pmaps p) (refs p)
         (if rx =? ry then super p
          else if weight p px <? weight p py then redirect (super p) px rx ry
          else redirect (super p) py ry rx))
      true.

(** Any number of unions. *)
Inductive unions (p : partition) : list (nat * nat) -> partition -> Prop :=
| unions_none : unions p [] p
| unions_more l p1 x y p2 : unions p l p1 -> united p1 x y p2 true -> unions p (l ++ [(x, y)]) p2.

(** ** Freeing a partition, src/classes.c:416-417 with src/emu.c:303-317 or src/table.c:669-694: the
    class of every entry of every map is passed to [_cru_free_class] (178-191).  The result is [None]
    if a class is used after it is freed. *)
Definition free_class (r : option (nat -> option nat)) (c : nat) : option (nat -> option nat) :=
  match r with
  | None => None
  | Some f => match f c with
              | None => None
              | Some 0 => Some (upd f c None)
              | Some (S i) => Some (upd f c (Some i))
              end
  end.
Definition free_partition (p : partition) : option (nat -> option nat) :=
  fold_left free_class (flat_map (fun l => map snd (pmaps p l)) (rev (seq 0 (width p)))) (Some (refs p)).
