(** Properties of vertices stored in the graph for splitting and stretching (src/props.c:168-305). *)
From Coq Require Import List Arith NArith Lia Bool Permutation.
From Verif Require Import Base Machine Env Hash Graph Visitor Walk Run Pass Fold Fabricate Filter Compose.
Import ListNotations.

Set Implicit Arguments.

Definition outcome_of (r : word * (fst_ * fst_ * fst_)) : outcome := let '(w, (t, _, _)) := r in (w, err t).

Section Props.
  Variable g : graph word word.
  (** n->edges_in while the properties are computed, made by the full duplexing task if the fold of the
      incident edges isn't empty (src/props.c:284-286, C45), removed later (290-297). *)
  Variable ins : nat -> list edge.
  Variable p : prop.

  (** ** [property_setting_task], src/props.c:211-265, with [_cru_propped] (168-200) *)
  Definition set_property (d : nat -> word) (n : nat) : (nat -> word) * option error :=
    match outcome_of (mapped_node p (vx g n) (map (seen_edge g) (ins n)) (map (seen_edge g) (es g n)) no_values) with
    | (_, Some e) => (d, Some e)
    | (w, None) => (upd d n w, None)
    end.
  Definition setting (Y : env) : @vst (nat -> word) nat -> npkt word -> option (_ * list (npkt word)) :=
    walk Y (es g) set_property.
End Props.
