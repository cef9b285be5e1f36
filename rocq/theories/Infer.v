(** * Inference of omitted operators (src/defo.c, src/infer.c)

    Every API function that takes a specification structure first copies it
    and completes the copy with library functions where the user gave none
    (src/infer.c:33-693, with the help of src/defo.c:28-397).  The completion
    looks only at which fields are NULL and at which library functions have
    been stored in them, so a field is modelled as a pointer: NULL, a
    function of the user's identified by a number, or one of the named
    library functions of src/repl.c.

    Simplifications.
    - Allocation of the copy succeeds (src/copy.c), and the structure passed
      in is not NULL unless said otherwise; the copy is freed on failure,
      which is not represented.
    - Fields that inference neither reads nor writes are left out: zones,
      attributes, and the flags requesting iteration.
    - The caller's error code is zero on entry, so that the first error
      raised is the one reported (src/errs.h:36). *)

From Coq Require Import List Arith Bool.
Import ListNotations.
Set Implicit Arguments.

(** ** Pointers to functions *)

(** A user function, or one of the library functions that inference stores
    (src/repl.c:31-410). *)
Inductive fn :=
| User (n : nat)
| UndefinedHash | UndefinedBpred | UndefinedTop | UndefinedBop | UndefinedNop
| UndefinedMap
| IdentityTop | IdentityBop | IdentityQop | IdentityUop
| MinimizingBop | DisjoiningTop
| ScalarHash | EqualityBpred | FalseBpred
| FalseTop | TrueTop | TrueBpred | TrueTpred | TrueQpred.

(** NULL or a function. *)
Definition ptr := option fn.

Definition fn_eq_dec (a b : fn) : {a = b} + {a <> b}.
Proof. decide equality; apply Nat.eq_dec. Defined.

Definition ptr_eq_dec (a b : ptr) : {a = b} + {a <> b}.
Proof. decide equality; apply fn_eq_dec. Defined.

(** Comparison of pointers with [==]. *)
Definition peq (a b : ptr) : bool := if ptr_eq_dec a b then true else false.

(** A pointer used as a condition. *)
Definition nonnull (a : ptr) : bool := match a with None => false | Some _ => true end.

(** [ALLOW(x,y)], src/defo.h:29. *)
Definition allow (x y : ptr) : ptr := match x with None => y | Some _ => x end.

(** The idiom [x ? (x != d) : 0] of src/defo.c:36-38 and 77-83. *)
Definition differs (x : ptr) (d : fn) : bool := nonnull x && negb (peq x (Some d)).

(** ** Error codes (include/cru/error_codes.h); [IER n] is the internal error
    of that number (src/errs.h:42-45). *)

Inductive code :=
| UNDHSH | UNDEQU | UNDMAP | UNDRED | TPCMPR | UNDCTO | UNDCON | INCCON
| INCVEL | UNDVPR | UNDEPR | UNDVAC | UNDCQO | UNDEXP | UNDANA | UNDCAT
| NULCSF | INCMRG | INCMUT | INCTRP | INCFIL | UNDPOP | UNDCBO | UNDEFB
| UNDVFB | INCSPB | USERCODE (n : nat) | IER (n : nat).

(** A completed structure or an error. *)
Inductive res (A : Type) := ok (a : A) | bad (c : code).
Arguments bad {A} c.

Definition bind A B (r : res A) (f : A -> res B) : res B :=
  match r with ok a => f a | bad c => bad c end.

Notation "x <- r ;; k" := (bind r (fun x => k))
  (at level 60, r at next level, right associativity).

(** [cond ? RAISE(c) : 0] guarding the rest. *)
Definition unless (b : bool) (c : code) : res unit := if b then bad c else ok tt.

(** ** Structures (include/cru/data_types.h:27-300) *)

Record order := mkOrder { o_hash : ptr; o_equal : ptr }.

Record fold := mkFold
  { f_map : ptr; f_bmap : ptr; f_reduction : ptr; f_vacuous : ptr;
    f_rfree : ptr; f_mfree : ptr }.

Record prop := mkProp { p_vertex : fold; p_incident : fold; p_outgoing : fold }.

Record sig := mkSig
  { s_limit : nat; s_vorder : order; s_eorder : order; s_vfree : ptr; s_efree : ptr }.

Record ctop := mkCtop { c_tpred : ptr; c_top : ptr }.

Record builder := mkBuilder { b_connector : ptr; b_subconnector : ptr; b_sig : sig }.

Record crosser := mkCrosser { x_vprod : ptr; x_sig : sig; x_bpred : ptr; x_bop : ptr }.

Record inducer := mkInducer { i_boundary : ptr; i_fold : fold }.

Record composer := mkComposer
  { co_qpred : ptr; co_qop : ptr; co_local : prop; co_adjacent : prop }.

Record stretcher := mkStretcher { st_expander : ptr; st_prop : prop }.

Record splitter := mkSplitter
  { sp_ana : ptr; sp_cata : ptr; sp_fissile : ptr; sp_prop : prop;
    sp_in_ana : ctop; sp_in_cata : ctop; sp_out_ana : ctop; sp_out_cata : ctop }.

Record classifier := mkClassifier { cl_prop : prop; cl_order : order }.

Record merger := mkMerger
  { me_classifier : classifier; me_vorder : order; me_eorder : order;
    me_vop : prop; me_eop : fold; me_pruner : ptr }.

Record mutator := mkMutator
  { mu_local : bool; mu_remote : bool; mu_vop : prop; mu_eop : fold;
    mu_vorder : order; mu_eorder : order }.

Record filter := mkFilter
  { fi_thinner : ptr; fi_vop : prop; fi_eop : fold; fi_order : order }.

Record postponer := mkPostponer { po_postponable : ptr; po_bpred : ptr; po_bop : ptr }.

Record fabricator := mkFabricator { fa_vfab : ptr; fa_efab : ptr; fa_sig : sig }.

(** A structure zero-filled, as [memset (&c, 0, sizeof (c))] leaves it. *)
Definition order0 := mkOrder None None.
Definition fold0 := mkFold None None None None None None.
Definition prop0 := mkProp fold0 fold0 fold0.

(** Assignments to one field. *)
Definition set_map (m : fold) x :=
  mkFold x (f_bmap m) (f_reduction m) (f_vacuous m) (f_rfree m) (f_mfree m).
Definition set_bmap (m : fold) x :=
  mkFold (f_map m) x (f_reduction m) (f_vacuous m) (f_rfree m) (f_mfree m).
Definition set_reduction (m : fold) x :=
  mkFold (f_map m) (f_bmap m) x (f_vacuous m) (f_rfree m) (f_mfree m).
Definition set_rfree (m : fold) x :=
  mkFold (f_map m) (f_bmap m) (f_reduction m) (f_vacuous m) x (f_mfree m).
Definition set_mfree (m : fold) x :=
  mkFold (f_map m) (f_bmap m) (f_reduction m) (f_vacuous m) (f_rfree m) x.
Definition set_vertex (p : prop) m := mkProp m (p_incident p) (p_outgoing p).
Definition set_vorder (s : sig) o := mkSig (s_limit s) o (s_eorder s) (s_vfree s) (s_efree s).
Definition set_eorder (s : sig) o := mkSig (s_limit s) (s_vorder s) o (s_vfree s) (s_efree s).
Definition set_vfree (s : sig) d := mkSig (s_limit s) (s_vorder s) (s_eorder s) d (s_efree s).
Definition set_efree (s : sig) d := mkSig (s_limit s) (s_vorder s) (s_eorder s) (s_vfree s) d.

(** ** Predicates of src/defo.c *)

(** src/defo.c:28-41. *)
Definition empty_order (o : order) : bool :=
  negb (differs (o_hash o) UndefinedHash) && negb (differs (o_equal o) UndefinedBpred).

(** src/defo.c:47-62. *)
Definition full_order (o : order) : res unit :=
  _ <- unless (negb (differs (o_hash o) UndefinedHash)) UNDHSH ;;
  unless (negb (differs (o_equal o) UndefinedBpred)) UNDEQU.

(** src/defo.c:69-86. *)
Definition empty_fold (m : fold) : bool :=
  if differs (f_map m) UndefinedTop && negb (peq (f_map m) (Some DisjoiningTop)) then false
  else if differs (f_bmap m) UndefinedBop then false
  else if differs (f_reduction m) UndefinedBop then false
  else if differs (f_vacuous m) UndefinedNop then false
  else negb (nonnull (f_rfree m)) && negb (nonnull (f_mfree m)).

(** src/defo.c:95-110. *)
Definition empty_prop (p : prop) : bool :=
  empty_fold (p_vertex p) && empty_fold (p_incident p) && empty_fold (p_outgoing p).

(** src/defo.c:115-122. *)
Definition empty_classifier (c : classifier) : bool :=
  empty_prop (cl_prop c) && empty_order (cl_order c).

(** ** Allowances of src/defo.c *)

(** src/defo.c:155-166. *)
Definition allow_undefined_order (o : order) : order :=
  mkOrder (allow (o_hash o) (Some UndefinedHash)) (allow (o_equal o) (Some UndefinedBpred)).

(** src/defo.c:174-185. *)
Definition allow_scalar_order (o : order) : order :=
  mkOrder (allow (o_hash o) (Some ScalarHash)) (allow (o_equal o) (Some EqualityBpred)).

(** src/defo.c:192-204. *)
Definition allow_order (o n : order) : order :=
  mkOrder (allow (o_hash o) (o_hash n)) (allow (o_equal o) (o_equal n)).

(** ** Initializers of src/defo.c *)

(** src/defo.c:236-244: the map. *)
Definition filled_fold_map (m : fold) : res fold :=
  if negb (nonnull (f_mfree m)) && negb (nonnull (f_rfree m)) then
    ok (if negb (nonnull (f_bmap m)) then set_map m (allow (f_map m) (Some IdentityTop))
        else if negb (nonnull (f_map m)) then set_bmap m (allow (f_bmap m) (Some IdentityBop))
        else m)
  else _ <- unless (negb (nonnull (f_map m) || nonnull (f_bmap m))) UNDMAP ;; ok m.

(** src/defo.c:245-248: the reduction. *)
Definition filled_fold_reduction (m : fold) : res fold :=
  if negb (nonnull (f_rfree m)) && negb (nonnull (f_mfree m)) then
    ok (set_reduction m (allow (f_reduction m) (Some MinimizingBop)))
  else _ <- unless (negb (nonnull (f_reduction m))) UNDRED ;; ok m.

(** src/defo.c:249-252: the destructors of functions that are never called. *)
Definition filled_fold_destructors (m : fold) : fold :=
  let m := if peq (f_map m) (Some UndefinedTop) then set_mfree m (f_rfree m) else m in
  if peq (f_reduction m) (Some UndefinedBop) then set_rfree m (f_mfree m) else m.

(** src/defo.c:217-258. *)
Definition filled_fold (m : fold) : res fold :=
  _ <- unless (nonnull (f_map m) && nonnull (f_bmap m)) (IER 820) ;;
  m <- filled_fold_map m ;;
  m <- filled_fold_reduction m ;;
  let m := filled_fold_destructors m in
  if differs (f_vacuous m) UndefinedNop then ok m
  else _ <- unless (negb (peq (f_mfree m) (f_rfree m))) TPCMPR ;; ok m.

(** src/defo.c:266-280. *)
Definition filled_ctop (p : ctop) : res ctop :=
  _ <- unless (negb (nonnull (c_top p))) UNDCTO ;;
  ok (mkCtop (allow (c_tpred p) (Some TrueTpred)) (c_top p)).

(** src/defo.c:304-315. *)
Definition filled_map (f : fold) : res fold :=
  filled_fold (set_reduction f (allow (f_reduction f) (Some UndefinedBop))).

(** The idiom [_cru_empty_fold (f) ? 0 : ! _cru_filled_fold (f)] of
    src/defo.c:335-338. *)
Definition filled_unless_empty (f : fold) : res fold :=
  if empty_fold f then ok f else filled_fold f.

(** src/defo.c:323-340. *)
Definition filled_prop (p : prop) : res prop :=
  i <- filled_unless_empty (p_incident p) ;;
  o <- filled_unless_empty (p_outgoing p) ;;
  v <- filled_fold (p_vertex p) ;;
  ok (mkProp v i o).

(** The idiom [_cru_filled_map (&p.vertex) ? _cru_filled_prop (&p) : 0] of
    src/infer.c:193-197, 223, 252, 351-354, 476. *)
Definition filled_map_prop (p : prop) : res prop :=
  v <- filled_map (p_vertex p) ;; filled_prop (set_vertex p v).

(** src/defo.c:349-372. *)
Definition filled_sig (s : sig) : res sig :=
  s <- (if negb (nonnull (s_efree s)) then ok (set_eorder s (allow_scalar_order (s_eorder s)))
        else _ <- full_order (s_eorder s) ;; ok s) ;;
  if nonnull (s_vfree s) then _ <- full_order (s_vorder s) ;; ok s
  else ok (set_vorder s (allow_scalar_order (s_vorder s))).

(** src/defo.c:379-397. *)
Definition filled_classifier (c : classifier) : res classifier :=
  let v := p_vertex (cl_prop c) in
  p <- filled_prop (set_vertex (cl_prop c)
                      (set_reduction v (allow (f_reduction v) (Some UndefinedBop)))) ;;
  let o := if negb (nonnull (f_mfree (p_vertex p))) then allow_scalar_order (cl_order c)
           else cl_order c in
  _ <- full_order o ;; ok (mkClassifier p o).

(** ** src/infer.c *)

(** src/infer.c:33-70.  The outcome of the user's equality on the initial
    vertex and itself is a parameter: it may report an error of its own, in
    which case [FAILED] is false (src/errs.h:56) and the copy is returned
    with that error code set, so that nothing more is called; the model
    counts it as a rejection with the user's code. *)
Definition inferred_builder (reflexive : res bool) (b : builder) : res builder :=
  _ <- unless (negb (nonnull (b_subconnector b) || nonnull (b_connector b))) UNDCON ;;
  _ <- unless (nonnull (b_connector b) && nonnull (b_subconnector b)) INCCON ;;
  let s := b_sig b in
  let s := if negb (nonnull (s_vfree s)) then set_vorder s (allow_scalar_order (s_vorder s)) else s in
  let s := if negb (nonnull (s_efree s)) then set_eorder s (allow_scalar_order (s_eorder s)) else s in
  let s := if nonnull (b_connector b)
           then set_eorder s (mkOrder (allow (o_hash (s_eorder s)) (Some UndefinedHash))
                                      (o_equal (s_eorder s)))
           else s in
  _ <- full_order (s_vorder s) ;;
  _ <- full_order (s_eorder s) ;;
  let s := set_eorder s (allow_undefined_order (s_eorder s)) in
  _ <- unless (negb (nonnull (o_equal (s_vorder s)))) (IER 1058) ;;
  r <- reflexive ;;
  _ <- unless (negb r) INCVEL ;;
  ok (mkBuilder (b_connector b) (b_subconnector b) s).

(** [cru_spread]'s use of it, src/entry.c:808-811 with src/copy.c:115-126 (a
    NULL builder can not be copied) and src/graph.c:331-361. *)
Definition identical (l r : sig) : res unit :=
  _ <- unless (negb (peq (o_hash (s_vorder l)) (o_hash (s_vorder r)))) INCSPB ;;
  _ <- unless (negb (peq (o_equal (s_vorder l)) (o_equal (s_vorder r)))) INCSPB ;;
  _ <- unless (negb (peq (o_hash (s_eorder l)) (o_hash (s_eorder r)))) INCSPB ;;
  _ <- unless (negb (peq (o_equal (s_eorder l)) (o_equal (s_eorder r)))) INCSPB ;;
  _ <- unless (negb (peq (s_vfree l) (s_vfree r))) INCSPB ;;
  unless (negb (peq (s_efree l) (s_efree r))) INCSPB.

Definition spreading_builder (reflexive : res bool) (b : option builder) (s : sig) : res builder :=
  match b with
  | None => bad (IER 678)
  | Some b => b <- inferred_builder reflexive b ;; _ <- identical (b_sig b) s ;; ok b
  end.

(** src/infer.c:77-103. *)
Definition inferred_crosser (c : crosser) : res crosser :=
  let bpred := allow (x_bpred c) (Some TrueBpred) in
  _ <- unless (negb (nonnull (x_vprod c))) UNDVPR ;;
  _ <- unless (negb (nonnull (x_bop c))) UNDEPR ;;
  let s := x_sig c in
  let s := if negb (nonnull (s_efree s)) then set_eorder s (allow_scalar_order (s_eorder s)) else s in
  let s := set_eorder s (allow_undefined_order (s_eorder s)) in
  let s := if negb (nonnull (s_vfree s)) then set_vorder s (allow_scalar_order (s_vorder s)) else s in
  _ <- full_order (s_vorder s) ;;
  ok (mkCrosser (x_vprod c) s bpred (x_bop c)).

(** src/infer.c:114-130. *)
Definition inferred_mapreducer (p : prop) : res prop :=
  p <- filled_prop p ;;
  _ <- unless (negb (peq (f_mfree (p_vertex p)) (f_rfree (p_vertex p)))) TPCMPR ;; ok p.

(** src/infer.c:140-163. *)
Definition inferred_inducer (i : inducer) : res inducer :=
  _ <- unless (negb (nonnull (i_boundary i)) && negb (nonnull (f_vacuous (i_fold i)))) UNDVAC ;;
  let m := i_fold i in
  let m := if negb (nonnull (f_map m))
           then set_reduction m (allow (f_reduction m) (Some UndefinedBop)) else m in
  let m := set_map m (allow (f_map m) (Some UndefinedMap)) in
  m <- filled_fold m ;; ok (mkInducer (i_boundary i) m).

(** src/infer.c:173-201. *)
Definition inferred_composer (c : composer) (s : sig) : res composer :=
  _ <- full_order (s_eorder s) ;;
  let qpred := allow (co_qpred c) (Some TrueQpred) in
  let qop := if negb (nonnull (s_efree s)) then allow (co_qop c) (Some IdentityQop) else co_qop c in
  _ <- unless (negb (nonnull qop)) UNDCQO ;;
  a <- filled_map_prop (co_adjacent c) ;;
  l <- filled_map_prop (co_local c) ;;
  ok (mkComposer qpred qop l a).

(** src/infer.c:210-229; the signature of the graph is completed in place
    (src/entry.c:704). *)
Definition inferred_stretcher (x : stretcher) (s : sig) : res (stretcher * sig) :=
  s <- filled_sig s ;;
  p <- filled_map_prop (st_prop x) ;;
  _ <- unless (negb (nonnull (st_expander x))) UNDEXP ;;
  ok (mkStretcher (st_expander x) p, s).

(** src/infer.c:238-272; likewise (src/entry.c:737). *)
Definition inferred_splitter (x : splitter) (s : sig) : res (splitter * sig) :=
  s <- filled_sig s ;;
  let fissile := allow (sp_fissile x) (Some TrueBpred) in
  p <- filled_map_prop (sp_prop x) ;;
  let new y := if negb (nonnull (s_vfree s)) then allow y (Some IdentityBop) else y in
  let ana := new (sp_ana x) in
  let cata := new (sp_cata x) in
  _ <- unless (negb (nonnull ana)) UNDANA ;;
  _ <- unless (negb (nonnull cata)) UNDCAT ;;
  let lab c := if negb (nonnull (s_efree s))
               then mkCtop (c_tpred c) (allow (c_top c) (Some IdentityTop)) else c in
  ia <- filled_ctop (lab (sp_in_ana x)) ;;
  ic <- filled_ctop (lab (sp_in_cata x)) ;;
  oa <- filled_ctop (lab (sp_out_ana x)) ;;
  oc <- filled_ctop (lab (sp_out_cata x)) ;;
  ok (mkSplitter ana cata fissile p ia ic oa oc, s).

(** src/infer.c:279-295. *)
Definition inferred_classifier (c : option classifier) : res classifier :=
  match c with None => bad NULCSF | Some c => filled_classifier c end.

(** src/infer.c:304-360, in stages.  Lines 321-333: the vertex operation. *)
Definition merger_vertices (c : merger) (s : sig) : res (merger * sig) :=
  if empty_prop (me_vop c) then
    let v := p_vertex (me_vop c) in
    let v := set_map v (allow (f_map v) (Some UndefinedTop)) in
    let v := set_rfree v (allow (f_rfree v) (s_vfree s)) in
    ok (mkMerger (me_classifier c) (allow_order (me_vorder c) (s_vorder s)) (me_eorder c)
          (set_vertex (me_vop c) v) (me_eop c) (me_pruner c), s)
  else
    p <- filled_prop (me_vop c) ;;
    ok (mkMerger (me_classifier c) (me_vorder c) (me_eorder c) p (me_eop c) (me_pruner c),
        set_vorder (set_vfree s (f_rfree (p_vertex p))) (me_vorder c)).

(** Lines 334-342: the edge operation.  Line 341 copies the order given by
    the user rather than that of the copy; they are the same at this
    point. *)
Definition merger_edges (c : merger) (s : sig) : res (merger * sig) :=
  if empty_fold (me_eop c) then
    ok (mkMerger (me_classifier c) (me_vorder c) (allow_order (me_eorder c) (s_eorder s))
          (me_vop c) (me_eop c) (me_pruner c), s)
  else
    f <- filled_fold (me_eop c) ;;
    ok (mkMerger (me_classifier c) (me_vorder c) (me_eorder c) (me_vop c) f (me_pruner c),
        set_eorder (set_efree s (f_rfree f)) (me_eorder c)).

(** Lines 343-346: the order needed for pruning. *)
Definition merger_pruning (c : merger) : res merger :=
  if negb (nonnull (me_pruner c)) then
    ok (mkMerger (me_classifier c) (me_vorder c) (allow_undefined_order (me_eorder c))
          (me_vop c) (me_eop c) (me_pruner c))
  else _ <- full_order (me_eorder c) ;; ok c.

(** Lines 347-357: the classifier. *)
Definition merger_classifier (k : classifier) : res classifier :=
  k <- (if empty_classifier k then
          p <- filled_map_prop (cl_prop k) ;;
          ok (mkClassifier p (mkOrder (allow (o_hash (cl_order k)) (Some ScalarHash))
                                      (allow (o_equal (cl_order k)) (Some FalseBpred))))
        else ok k) ;;
  filled_classifier k.

Definition complete_merger (c : merger) (s : sig) : res (merger * sig) :=
  cs <- merger_vertices c s ;;
  cs <- merger_edges (fst cs) (snd cs) ;;
  c <- merger_pruning (fst cs) ;;
  k <- merger_classifier (me_classifier c) ;;
  ok (mkMerger k (me_vorder c) (me_eorder c) (me_vop c) (me_eop c) (me_pruner c), snd cs).

(** src/infer.c:370-384; the signature is installed in the graph by
    src/merge.c:481. *)
Definition inferred_merger (c : merger) (s : sig) : res (merger * sig) :=
  _ <- unless (negb (Bool.eqb (empty_prop (me_vop c)) (empty_classifier (me_classifier c)))) INCMRG ;;
  complete_merger c s.

(** src/infer.c:394-426.  The new signature is cleared first (line 408), and
    only the destructors and orders are filled in. *)
Definition inferred_sig (s : sig) (vorder eorder : order) (vop : prop) (eop : fold) : sig :=
  let n := mkSig 0 order0 order0 (s_vfree s) (s_efree s) in
  let n := set_eorder n (allow_order (s_eorder n) eorder) in
  let n := set_vorder n (allow_order (s_vorder n) vorder) in
  let n := if empty_fold eop || peq (f_mfree eop) (s_efree s)
           then set_eorder n (allow_order (s_eorder n) (s_eorder s))
           else set_efree n (f_mfree eop) in
  let n := if empty_prop vop || peq (f_mfree (p_vertex vop)) (s_vfree s)
           then set_vorder n (allow_order (s_vorder n) (s_vorder s))
           else set_vfree n (f_mfree (p_vertex vop)) in
  if negb (nonnull (s_efree n)) then set_eorder n (allow_scalar_order (s_eorder n)) else n.

(** src/infer.c:470-475: an edge fold whose map sees the adjacent vertex. *)
Definition dependent_fold (f : fold) : bool :=
  negb (empty_fold f) && (nonnull (f_map f) || negb (nonnull (f_bmap f))).

(** src/infer.c:434-491; the signature is installed in the graph by
    src/mutate.c:797 and its likes. *)
Definition inferred_mutator (m : mutator) (s : sig) : res (mutator * sig) :=
  let s := inferred_sig s (mu_vorder m) (mu_eorder m) (mu_vop m) (mu_eop m) in
  _ <- unless (mu_local m && mu_remote m) INCMUT ;;
  v <- (if empty_prop (mu_vop m) then ok (mu_vop m)
        else
          _ <- unless (negb (mu_remote m) && negb (mu_local m)
                       && (negb (empty_fold (mu_eop m))
                           || dependent_fold (p_incident (mu_vop m))
                           || dependent_fold (p_outgoing (mu_vop m)))) INCMUT ;;
          filled_map_prop (mu_vop m)) ;;
  let e := set_reduction (mu_eop m) (allow (f_reduction (mu_eop m)) (Some UndefinedBop)) in
  e <- (if empty_fold e then ok e else filled_map e) ;;
  _ <- unless (negb (empty_fold (p_incident v)) && negb (nonnull (f_vacuous (p_incident v)))) UNDVAC ;;
  _ <- unless (negb (empty_fold (p_outgoing v)) && negb (nonnull (f_vacuous (p_outgoing v)))) UNDVAC ;;
  ok (mkMutator (mu_local m) (mu_remote m) v e (mu_vorder m) (mu_eorder m), s).

(** src/infer.c:503-565.  Lines 541-546: the vertex test. *)
Definition filter_vertices (thinner : ptr) (p : prop) : res prop :=
  let v := p_vertex p in
  let v := if nonnull thinner && empty_prop p then set_map v (allow (f_map v) (Some FalseTop)) else v in
  let v := set_map v (allow (f_map v) (Some DisjoiningTop)) in
  let v := set_reduction v (allow (f_reduction v) (Some UndefinedBop)) in
  let p := set_vertex p v in
  if empty_prop p then ok p else filled_prop p.

(** Lines 547-562: the edge test and the order. *)
Definition inferred_filter (f : filter) (s : sig) : res filter :=
  p <- filter_vertices (fi_thinner f) (fi_vop f) ;;
  let e := if nonnull (fi_thinner f) && empty_fold (fi_eop f)
           then set_map (fi_eop f) (allow (f_map (fi_eop f)) (Some TrueTop)) else fi_eop f in
  eo <- (if empty_order (fi_order f) then ok (e, fi_order f)
         else
           let o := allow_order (fi_order f) (s_eorder s) in
           let o := if negb (nonnull (s_efree s)) then allow_scalar_order o else o in
           _ <- full_order o ;;
           _ <- unless (empty_fold e) INCFIL ;;
           e <- filled_fold e ;; ok (e, o)) ;;
  e <- filled_unless_empty (fst eo) ;;
  ok (mkFilter (fi_thinner f) p e (snd eo)).

(** src/infer.c:579-599. *)
Definition deduplicator (s : sig) : res (merger * sig) :=
  let c := mkMerger
    (mkClassifier (set_vertex prop0 (set_map fold0 (Some IdentityTop))) (s_vorder s))
    (s_vorder s) (s_eorder s)
    (set_vertex prop0 (set_map fold0 (Some UndefinedTop))) fold0 None in
  _ <- full_order (s_eorder s) ;;
  _ <- full_order (s_vorder s) ;;
  complete_merger c s.

(** src/infer.c:612-642; the order is completed in a copy of the signature
    (src/entry.c:1009), which only the router sees. *)
Definition inferred_postponer (p : postponer) (s : sig) : res (postponer * sig) :=
  let bop := if negb (nonnull (s_efree s)) then allow (po_bop p) (Some IdentityBop) else po_bop p in
  let bpred := allow (po_bpred p) (Some TrueBpred) in
  let s := if negb (nonnull (s_efree s)) then set_eorder s (allow_scalar_order (s_eorder s)) else s in
  _ <- full_order (s_eorder s) ;;
  _ <- unless (negb (nonnull (po_postponable p))) UNDPOP ;;
  _ <- unless (negb (nonnull bop)) UNDCBO ;;
  ok (mkPostponer (po_postponable p) bpred bop, s).

(** src/infer.c:652-693.  Line 686 consults the structure given by the user
    instead of the copy. *)
Definition inferred_fabricator (a : fabricator) (s : sig) : res fabricator :=
  let n := fa_sig a in
  let n := if nonnull (fa_efab a) && negb (nonnull (s_efree n))
           then set_eorder (set_efree n (allow (s_efree n) (s_efree s)))
                           (allow_order (s_eorder n) (s_eorder s))
           else n in
  let efab := if negb (nonnull (fa_efab a)) && negb (nonnull (s_efree n))
              then allow (fa_efab a) (Some IdentityUop) else fa_efab a in
  _ <- unless (negb (nonnull efab)) UNDEFB ;;
  let n := if nonnull (fa_vfab a) && negb (nonnull (s_vfree n))
           then set_vorder (set_vfree n (allow (s_vfree n) (s_vfree s)))
                           (allow_order (s_vorder n) (s_vorder s))
           else n in
  let vfab := if negb (nonnull (fa_vfab a)) && negb (nonnull (s_vfree (fa_sig a)))
              then allow (fa_vfab a) (Some IdentityUop) else fa_vfab a in
  _ <- unless (negb (nonnull vfab)) UNDVFB ;;
  ok (mkFabricator vfab efab n).
