(** Finding the initial vertex of a zone: src/zones.c:49-132 and 196-239, src/launch.c:225-258, src/crew.c:409-435, and the use
    made of it by [cru_mapreduced], src/entry.c:555-600. *)
From Coq Require Import List Arith NArith Lia Bool Permutation.
From Verif Require Import Base Machine Env Hash Graph Visitor Run Fold Walk Traverse.
Import ListNotations.

Set Implicit Arguments.

(** CRU_INCINV, include/cru/error_codes.h *)
Definition INCINV : error := USERERR 8.

Record sst := mkS {
  sseen : nat -> list nat;              (* for each worker, the nodes seen *)
  sres : nat -> option nat;             (* ... result, which is set if and only if found is *)
  serr : nat -> option error;           (* ... *err *)
  skil : nat -> bool;                   (* ... killed *)
  shalt : bool;                         (* r->killed *)
  stick : nat                           (* packets processed so far *)
}.
Definition sstart : sst := mkS (fun _ => []) (fun _ => None) (fun _ => None) (fun _ => false) false 0.

(** What a search returns: a node or an error *)
Inductive whereabouts := At (n : nat) | Nowhere (e : error).

Section Search.
  Variable X : env.
  Variable g : graph word word.
  (** The equality predicate given by the user, which may raise an error, and the initial vertex of the zone *)
  Variable eqv : word -> word -> bool * option error.
  Variable iv : word.

  Local Notation lane := (lane_of_node X).

  (** initial_vertex == n->vertex ? 1 : PASSED(...), src/zones.c:85, src/errs.h:55.  (Errors can be left out of account otherwise
      because there is none when this point is reached, assuming enough memory.) *)
  Definition compare (n : nat) : bool * option error :=
    if N.eqb iv (vx g n) then (true, None)
    else match eqv iv (vx g n) with
         | (b, None) => (b, None)
         | (_, Some e) => (false, Some e)
         end.

  (** _cru_scattered (n->edges_out, d, err), src/zones.c:84; only the receivers of packets matter here. *)
  Definition neighbours (n : nat) : list nat := map snd (es g n).

  (** An iteration of the loop in [base_searching_task], src/zones.c:76-89 *)
  Definition search_task (s : sst) (n : nat) : option (sst * list nat) :=
    let k := lane n in
    let kil := skil s k || (shalt s && notices X (stick s)) in
    let s1 := mkS (sseen s) (sres s) (serr s) (upd (skil s) k kil) (shalt s) (S (stick s)) in
    if kil || match sres s k with Some _ => true | None => false end then Some (s1, [])
    else if existsb (Nat.eqb n) (sseen s k) then Some (s1, [])
    else
      let seen := upd (sseen s) k (n :: sseen s k) in
      if match serr s k with Some _ => true | None => false end
      then Some (mkS seen (sres s1) (serr s1) (skil s1) (shalt s1) (stick s1), [])
      else match compare n with
           | (_, Some e) => Some (mkS seen (sres s1) (upd (serr s1) k (Some e)) (skil s1) (shalt s1) (stick s1), neighbours n)
           | (true, None) => Some (mkS seen (upd (sres s1) k (Some n)) (serr s1) (skil s1) true (stick s1), neighbours n)
           | (false, None) => Some (mkS seen (sres s1) (serr s1) (skil s1) (shalt s1) (stick s1), neighbours n)
           end.

  (** [_cru_maybe_disjunction], src/crew.c:409-435: the workers are joined in the order they were created.  A second result is an
      internal error, IER(750), and then the first one is retained. *)
  Fixpoint disjunction (s : sst) (ks : list nat) (v : option nat) (e : option error) : option nat * option error :=
    match ks with
    | [] => (v, e)
    | k :: ks' =>
        let '(v', e') :=
          match sres s k, v with
          | Some n, None => (Some n, e)
          | Some _, Some m => (Some m, first_of e (Some IER))
          | None, _ => (v, e)
          end in
        disjunction s ks' v' (first_of e' (serr s k))
    end.

  (** [located], src/zones.c:109-132, and the end of [_cru_initial_node], src/zones.c:229-238 *)
  Definition located (s : sst) : whereabouts :=
    match disjunction s (seq 0 (lanes X)) None None with
    | (Some n, None) => At n
    | (_, Some e) => Nowhere e
    | (None, None) => Nowhere INCINV
    end.

  (** The search is started at the base node. *)
  Definition searches (s : sst) : Prop := ran (lanes X) lane search_task sstart (root g) s.

  (** [_cru_initial_node] if the plan demands no reachability analysis, assuming success of the change to full duplex
      (src/zones.c:219-238): what it returns, and whether r->killed is non-zero thereafter.  Initially it's zero. *)
  Inductive initial_node (offset : bool) : whereabouts -> bool -> Prop :=
  | at_base : offset = false \/ vx g (root g) = iv -> initial_node offset (At (root g)) false
  | by_search s : offset = true -> vx g (root g) <> iv -> searches s -> initial_node offset (located s) (shalt s).
End Search.

(** [cru_mapreduced] on a non-empty graph with any zone, src/entry.c:580-594.  Whether r->killed is non-zero before the mapreduction
    makes no difference if the router is reset, but if there is just one worker, no thread specific storage, and if the node is the
    first in the list, then it isn't reset; and the error CRU_INTKIL is raised by [_cru_free_router], src/route.c:688-690. *)
Inductive mapreduces_zone X (g : graph word word) (eqv : word -> word -> bool * option error) (ein : nat -> list (word * nat))
    (mapped : nat -> outcome) (red : word -> word -> outcome) (vacuous : option outcome)
    (offset backwards : bool) (iv : word) (stored : bool) : outcome -> Prop :=
| no_zone e k : initial_node X g eqv iv offset (Nowhere e) k -> mapreduces_zone X g eqv ein mapped red vacuous offset backwards iv stored (null, Some e)
| some_zone i k r : initial_node X g eqv iv offset (At i) k -> mapreduces X g ein mapped red vacuous backwards stored i r ->
    mapreduces_zone X g eqv ein mapped red vacuous offset backwards iv stored
      (if (lanes X =? 1) && negb stored && (match ids g with n :: _ => n =? i | [] => false end)
       then match first_of (snd r) (if k then Some INTKIL else None) with
            | None => r
            | Some e => (null, Some e)
            end
       else r).
