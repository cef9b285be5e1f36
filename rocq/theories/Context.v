(** What callback functions find out about the operation that calls them: thread specific storage (src/getset.c), [cru_get]
    and [cru_killed] (src/entry.c:393-426), and the context of [cru_connect] and [cru_stretch] (src/entry.c:293-316, 324-363).

    Each worker runs in a thread of its own, made for one pass (src/crew.c: _cru_crewed).  Operations on graphs are performed
    by passes, one after the other, and some of their callbacks are called by the thread that calls the library, which may
    be a worker of another operation. *)
From Coq Require Import List Arith NArith Lia Bool.
From Verif Require Import Fold.
Import ListNotations.

Set Implicit Arguments.

(** src/getset.h: the type context *)
Inductive context := IDLE | BUILDING | STRETCHING.

(** The tasks by which callback functions are called *)
Inductive job_task :=
| building | spreading | crossing | fabricating | property_setting | classifying | guarding | composing
| node_filtering | edge_filtering | inducing | mapreducing | vertex_merging | edge_merging | coverage_analyzing | bounding
| mutating | postponing | absorbing | splitting | stretching
| fusing                            (* src/maybe.c:162-197, a thread that combines two results of mapreducing *)
| base_searching                    (* src/zones.c:49-93, for an initial vertex *)
| inductive_base_searching.         (* the same task launched for an induction, src/entry.c:629 *)

(** Whether _cru_set_storage is called by the task or its runner with the attribute of the graph.  It is called in src/build.c:265,
    src/spread.c:391, src/cross.c:359, src/fab.c:143, src/classes.c:276, src/compose.c:149 (guarding_task), src/filters.c:191 and 506,
    src/induce.c:127, src/mapreduce.c:119, src/merge.c:165 (vertex_merging_task), src/mutate.c:102, 197 and 529, src/postpone.c:200 and 261,
    src/split.c:245, src/stretch.c:303, src/maybe.c:182, and src/runners.c:82 (used for mapreducing and base searching); not in
    src/props.c:222-265 (property_setting_task), src/compose.c:239-274 (composing_task) nor src/merge.c:347-386 (edge_merging_task).
    When a base is searched for an induction the field [ro_store] of the router isn't assigned yet (src/entry.c:629-630). *)
Definition stores (w : job_task) : bool :=
  match w with property_setting | composing | edge_merging | inductive_base_searching => false | _ => true end.

(** Whether _cru_set_kill_switch is called: on the lines following those cited for the tasks, but not by runners nor
    by _cru_maybe_fused (src/maybe.c). *)
Definition switches (w : job_task) : bool :=
  match w with
  | property_setting | composing | edge_merging | fusing | base_searching | inductive_base_searching => false
  | _ => true
  end.

(** src/build.c:265, src/spread.c:391, src/stretch.c:303: the context set by the task *)
Definition sets_context (w : job_task) : option context :=
  match w with building | spreading => Some BUILDING | stretching => Some STRETCHING | _ => None end.

(** src/getset.c:26-42: the storage of a thread; [None] and 0 are NULL.  The context is stored by reference to a variable of
    the task, which is represented by its value as long as the task is executed. *)
Record slots := mkSlots { s_store : word; s_kill : option nat; s_context : option context; s_edges : list (word * word) }.
Definition no_slots : slots := mkSlots 0%N None None [].

Record world := mkWorld { at_thread : nat -> slots; job_killed : nat -> bool }.

(** What may happen.  Threads and operations (jobs) are numbered.
    - [Spawn t j w]: thread [t] is made to perform task [w] of job [j].
    - [Exit t]: the task has finished (src/build.c:294 etc.) and the thread exits (src/runners.c).
    - [Enter t j], [Leave t]: callbacks of job [j] are called by thread [t] itself while it executes a library function,
      as in src/entry.c:588 (cru_mapreduced by a single worker), src/filters.c:593 (the predicate applied to the base vertex)
      and src/build.c:330 (hashing the initial vertex).
    - [Kill j]: the flag [killed] of the router of [j] is set (src/killers.c: _cru_kill_internally, cru_kill).
    - [Callback t]: a connector is about to be called by the thread (src/build.c:118, src/spread.c:320).
    - [Connect t l v]: cru_connect is called by the thread. *)
Inductive event :=
| Spawn (t j : nat) (w : job_task) | Exit (t : nat) | Enter (t j : nat) | Leave (t : nat) | Kill (j : nat)
| Callback (t : nat) | Connect (t : nat) (l v : word).

Section Context.
  (** The attribute of the graph each job operates on (src/route.c:583, 630) *)
  Variable attribute : nat -> word.

  Definition set_at (w : world) (t : nat) (s : slots) : world :=
    mkWorld (fun u => if Nat.eqb u t then s else at_thread w u) (job_killed w).

  (** src/entry.c:311-315: cru_connect has an effect only if the context is BUILDING. *)
  Definition connected (s : slots) (l v : word) : slots :=
    match s_context s with
    | Some BUILDING => mkSlots (s_store s) (s_kill s) (s_context s) ((l, v) :: s_edges s)
    | _ => s
    end.

  Definition happen (e : event) (w : world) : world :=
    match e with
    | Spawn t j k =>
        set_at w t (mkSlots (if stores k then attribute j else 0%N) (if switches k then Some j else None) (sets_context k) [])
    | Exit t => set_at w t no_slots
    | Enter _ _ | Leave _ => w                                       (* no slot is changed *)
    | Kill j => mkWorld (at_thread w) (fun i => Nat.eqb i j || job_killed w i)
    | Callback t => let s := at_thread w t in set_at w t (mkSlots (s_store s) (s_kill s) (s_context s) [])
    | Connect t l v => set_at w t (connected (at_thread w t) l v)
    end.

  Definition world0 : world := mkWorld (fun _ => no_slots) (fun _ => false).

  Definition after (h : list event) : world := fold_left (fun w e => happen e w) h world0.

  (** src/entry.c:392-405: cru_get called by a thread *)
  Definition get (t : nat) (h : list event) : word := s_store (at_thread (after h) t).

  (** src/entry.c:412-426: cru_killed called by a thread *)
  Definition killed (t : nat) (h : list event) : bool :=
    match s_kill (at_thread (after h) t) with Some j => job_killed (after h) j | None => false end.

  (** src/entry.c:311: whether cru_connect called by a thread raises CRU_INTOOC *)
  Definition out_of_context (t : nat) (h : list event) : bool :=
    match s_context (at_thread (after h) t) with Some BUILDING => false | _ => true end.

  (** The edges declared so far by the callback, latest first *)
  Definition declared (t : nat) (h : list event) : list (word * word) := s_edges (at_thread (after h) t).
End Context.
