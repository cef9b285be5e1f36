(** Induction over a graph (src/induce.c, src/entry.c:602-640, src/zones.c:135-349). *)
From Coq Require Import List Arith NArith Lia Bool Permutation.
From Verif Require Import Base Machine Env Hash Graph Visitor Run Pass Walk Fold Fabricate.
Import ListNotations.

Set Implicit Arguments.

Section Induce.
  Variable X : env.
  Variable g : graph word word.
  (** The edges to the prerequisites of a node: edges_in if the zone is oriented backwards and
      edges_out otherwise (src/induce.c:69 and 143; src/zones.c:348 with remote_first, which the router
      sets at src/route.c:264-267), in the order of the list.  See C45 for edges_in. *)
  Variable pre : nat -> list (word * nat).
  (** boundary_value and in_fold of the inducer, as filled in by [_cru_inferred_inducer]
      (src/infer.c). *)
  Variable boundary : option (word -> outcome).
  Variable m : fold.
  (** The initial node of the zone. *)
  Variable b : nat.

  Definition nlane (n : nat) : nat := lane_of (lanes X) (node_hash n).
  Definition mem (n : nat) (l : list nat) : bool := existsb (Nat.eqb n) l.
  Definition blank : fst_ := mkFS None [] [].

  (** src/induce.c:69-72: the value at a node [n], given the accumulators. *)
  Definition value_at (acc : nat -> word) (n : nat) : outcome :=
    match pre n, boundary with
    | [], Some f => f (vx g n)
    | l, _ => let (w, s) := reduced_edges m (vx g n) (map (fun e => (fst e, acc (snd e))) l) blank in (w, err s)
    end.

  (** The state: the ports' sets visited and the tasks' sets seen, which are subsets of the nodes
      assigned to each worker, are united; [res] is the local variable result of whichever worker
      has it. *)
  Record ist := mkI {
    acc : nat -> word;               (* accumulators *)
    vis : list nat;                  (* visited *)
    iseen : list nat;                (* seen *)
    res : option word;               (* result *)
    dis : nat -> bool;               (* port->disabled, per worker *)
    ierr : nat -> option error;      (* *err, per worker *)
    scrapped : list word;            (* values destroyed by [visit] *)
    ikilled : bool;                  (* r->killed *)
    itick : nat                      (* packets processed so far *)
  }.
  Definition istart : ist := mkI (fun _ => null) [] [] None (fun _ => false) (fun _ => None) [] false 0.

  Section Task.
    (** The calls of [cru_kill], and the ports' sets reachable, united; the set of a worker is NULL if
        it is empty. *)
    Variable Y : env.
    Variable reached : list nat.

    (** src/zones.c:280 *)
    Definition skipped (n : nat) : bool :=
      existsb (fun k => nlane k =? nlane n) reached && negb (mem n reached).

    (** [all_visited], src/zones.c:274-289: the first prerequisite in the list that is found disabled or
        not visited. *)
    Definition obstacle (s : ist) (n : nat) : option nat :=
      find (fun k => negb (skipped k) && (dis s (nlane k) || negb (mem k (vis s)))) (map snd (pre n)).

    Definition disable (s : ist) (l : nat) (e : option error) (k : bool) : ist :=
      mkI (acc s) (vis s) (iseen s) (res s) (upd (dis s) l true)
          (match e with Some _ => upd (ierr s) l e | None => ierr s end) (scrapped s) k (S (itick s)).
    Definition drop (s : ist) (k : bool) : ist :=
      mkI (acc s) (vis s) (iseen s) (res s) (dis s) (ierr s) (scrapped s) k (S (itick s)).
    Definition see (s : ist) (n : nat) : ist :=
      mkI (acc s) (vis s) (n :: iseen s) (res s) (dis s) (ierr s) (scrapped s) (ikilled s) (itick s).
    Definition scrap (w : word) (s : ist) : ist :=
      mkI (acc s) (vis s) (iseen s) (res s) (dis s) (ierr s)
          (if is_null w || is_none (r_free m) then scrapped s else w :: scrapped s) (ikilled s) (itick s).

    (** [visit], src/induce.c:48-89.  Only the worker for [b] ever has a result. *)
    Definition visit (s : ist) (n : nat) (k : bool) : ist :=
      if (nlane n =? nlane b) && negb (is_none (res s)) then disable s (nlane n) (Some IER) k (* 67, 1041 *)
      else match value_at (acc s) n with
      | (w, Some e) => disable (scrap w s) (nlane n) (Some e) k
      | (w, None) =>
          if n =? b then mkI (acc s) (vis s) (iseen s) (Some w) (dis s) (ierr s) (scrapped s) k (S (itick s))
          else mkI (upd (acc s) n w) (n :: vis s) (iseen s) (res s) (dis s) (ierr s) (scrapped s) k (S (itick s))
      end.

    (** [_cru_inducing_task], src/induce.c:129-156.  A packet that is deferred when its node is seen for
        the first time is sent to the worker itself here, which defers it then.  That other workers
        may visit nodes while [all_visited] is executed makes no difference, because nodes
        visited stay so. *)
    Definition inducing (s : ist) (n : nat) : option (ist * list nat) :=
      let k := ikilled s || killcalls Y (itick s) in
      if dis s (nlane n) then Some (drop s k, []) (* 133 *)
      else if k && notices Y (itick s) then Some (disable s (nlane n) None k, []) (* 135 *)
      else if mem n (vis s) then Some (drop s k, []) (* 137 *)
      else
        let first := negb (mem n (iseen s)) in
        let s1 := if first then see s n else s in
        let out := if first then map snd (pre n) else [] in
        match obstacle s n with
        | None => Some (visit s1 n k, out) (* 151 *)
        | Some o =>
            if dis s (nlane o) then Some (disable s1 (nlane n) None k, out) (* 147 *)
            else if first then Some (drop s1 k, out ++ [n]) else None (* 149 *)
        end.
  End Task.

  (** The analysis of reachability, src/zones.c:140-184: nothing is done if the initial node is the
      base node (228-234). *)
  Definition analysing (Y : env) : @vst (list nat) nat -> npkt word -> option (_ * list (npkt word)) :=
    walk Y pre (fun d n => (d ++ [n], None)).

  (** The deletion of accumulators, src/induce.c:176-220; it goes on when the router is killed. *)
  Definition heedless (Y : env) : env := mkEnv (lanes Y) (judy Y) (fun _ => false) (killcalls Y).
  Definition dispose (acc : nat -> word) (d : list word) (n : nat) : list word * option error :=
    if is_null (acc n) then (d, None)
    else match r_free m with Some c => (d ++ [acc n], fails c (acc n)) | None => (d, None) end.
  Definition deducing (acc : nat -> word) (Y : env) : @vst (list word) nat -> npkt word -> option (_ * list (npkt word)) :=
    walk (heedless Y) pre (dispose acc).

  (** All accumulators in the graph, which are destroyed by the loop in lines 251-257 as far as they
      are left over after an error. *)
  Definition accumulated (acc : nat -> word) : list word :=
    if is_none (r_free m) then [] else filter (fun w => negb (is_null w)) (map acc (ids g)).

  (** When [cru_kill] is called in each of the passes. *)
  Variable kills : nat -> nat -> bool.

  Inductive analysed : list nat -> Prop :=
  | no_analysis : b = root g -> analysed []
  | analysis s : b <> root g ->
      ran (lanes X) (walk_dest X) (analysing (in_pass X kills 0)) (vstart []) (initial b) s -> analysed (data s).

  (** What [cru_induced] returns, together with the intermediate results that are destroyed. *)
  Record induction := mkInd { value : word; destroyed : list word }.

  (** src/entry.c:628-637 and src/induce.c:247-259, on a valid graph that is not empty.  The result is
      destroyed in case of an error (635), and the status is that of the passes unless the router
      was killed during the last (257). *)
  Definition returned (w : word) (d : list word) (e : option error) : result induction :=
    match e with
    | None => (mkInd w d, None)
    | Some _ => (mkInd null (if is_null w || is_none (r_free m) then d else w :: d), e)
    end.
  Definition outcome_of (s : ist) : word := match res s with Some w => w | None => null end.
  Definition both (e e' : option error) : option error := match e with Some _ => e | None => e' end.

  Inductive induces : result induction -> Prop :=
  | induced reached s order sd order' :
      analysed reached ->
      ran (lanes X) nlane (inducing (in_pass X kills 1) reached) istart b s -> Permutation order (seq 0 (lanes X)) ->
      ran (lanes X) (walk_dest X) (deducing (acc s) (in_pass X kills 2)) (vstart []) (initial b) sd ->
      Permutation order' (seq 0 (lanes X)) ->
      induces
        (match both (first_error (ierr s) order) (pass_status order' sd) with
         | None => returned (outcome_of s) (scrapped s ++ data sd) (vstatus (in_pass X kills 2) order' sd)
         | e => returned (outcome_of s) (scrapped s ++ accumulated (acc s)) e
         end).
End Induce.
