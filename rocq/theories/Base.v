(** Panics, indexing, loops and parallel collection: the parts of Rust's
    runtime that the modelled code of /repo/src relies on. *)
From mathcomp Require Import all_ssreflect.
Set Implicit Arguments.
Unset Strict Implicit.
Unset Printing Implicit Defensive.

(** The two ways in which the modelled code panics: a failed [assert_eq!] and an out-of-bounds index [v[i]],
    for instance data_structures.rs:591-592. *)
Inductive panic := AssertFailed | IndexOutOfBounds.

(** Outcome of a Rust call: a value or a panic, as of [add], data_structures.rs:590-603. *)
Inductive res (A : Type) := Ok of A | Panic of panic.
Arguments Ok {A}.
Arguments Panic {A}.

(** Sequencing: a panic unwinds to the caller; data_structures.rs:591 and the lines after it. *)
Definition bind {A B} (m : res A) (k : A -> res B) : res B :=
  match m with Ok a => k a | Panic p => Panic p end.

Notation "'let!' x ':=' m 'in' k" := (bind m (fun x => k))
  (at level 200, x pattern, m at level 100, k at level 200,
   format "'[v' 'let!'  x  ':='  m  'in' '/' k ']'").

(** [assert_eq!(a, b)] on lengths, data_structures.rs:285-287, 469-471, 495, 591-592, 654, 705. *)
Definition assert_eq (a b : nat) : res unit :=
  if a == b then Ok tt else Panic AssertFailed.

(** [v[i]] on a [Vec] or slice, for instance data_structures.rs:599, verifier.rs:46. *)
Fixpoint idx {A} (s : seq A) (i : nat) : res A :=
  match s, i with
  | [::], _ => Panic IndexOutOfBounds
  | x :: _, 0 => Ok x
  | _ :: s', i'.+1 => idx s' i'
  end.

(** [for x in s { out.push(f(x)) }] and [s.map(f).collect()], left to right,
    for instance data_structures.rs:596-601 and 680-693. *)
Fixpoint mapM {A B} (f : A -> res B) (s : seq A) : res (seq B) :=
  match s with
  | [::] => Ok [::]
  | x :: s' => let! y := f x in let! ys := mapM f s' in Ok (y :: ys)
  end.

(** A loop carrying mutable state [acc], for instance data_structures.rs:636-641. *)
Fixpoint foldM {A S} (f : S -> A -> res S) (acc : S) (s : seq A) : res S :=
  match s with
  | [::] => Ok acc
  | x :: s' => let! acc' := f acc x in foldM f acc' s'
  end.

(** [(0..dim).map(f).sum()]: the [Sum] impls fold from zero with [a + b]
    (data_structures.rs:244-251 for Com1/Com2). *)
Definition sumM {T A} (zero : T) (add : T -> T -> T) (f : A -> res T)
  (s : seq A) : res T :=
  foldM (fun acc x => let! v := f x in Ok (add acc v)) zero s.

(** Matrices are [Vec<Vec<_>>] (data_structures.rs:48), possibly ragged. *)
Definition matrix (T : Type) := seq (seq T).

(** ** rayon: [(0..r).into_par_iter().map(|i| (0..c).into_par_iter().map(|j| cell).collect()).collect()]

    The [r * c] entry computations are independent tasks, which the thread pool
    may finish in any order, interleaving the rows. The order is a
    parameter [ord]; each task writes its result to its own slot of the output
    buffer, [collect] waits for all of them. A panic in a task is
    propagated to the caller. Simplification: tasks are taken to run one after
    the other, which is no restriction since they share no mutable state. *)
(** See above: data_structures.rs:657-677, 708-728, 836-854, 883-900. *)
Definition order := seq (nat * nat).

(** One task writes its slot of the output: [collect], data_structures.rs:671, 675. *)
Definition write_cell {T} (buf : matrix (option T)) (ij : nat * nat) (v : T) :=
  set_nth [::] buf ij.1 (set_nth None (nth [::] buf ij.1) ij.2 (Some v)).

(** After the join every slot has been written; rayon panics otherwise
    ("expected {} total writes"); [collect], data_structures.rs:671, 675. *)
Definition unwrap_slot {T} (o : option T) : res T :=
  match o with Some v => Ok v | None => Panic AssertFailed end.

(** The parallel branches, data_structures.rs:658-677, 709-727, 837-854, 884-900. *)
Definition par_collect {T} (ord : order) (r c : nat)
  (cell : nat -> nat -> res T) : res (matrix T) :=
  let! buf := foldM (fun buf ij =>
                let! v := cell ij.1 ij.2 in Ok (write_cell buf ij v))
                (nseq r (nseq c None)) ord in
  mapM (mapM unwrap_slot) buf.

(** The tasks of an [r] by [c] product: the ranges of data_structures.rs:658, 666. *)
Definition tasks (r c : nat) : order :=
  [seq (i, j) | i <- iota 0 r, j <- iota 0 c].

(** A schedule fixes, for each parallel call site and each size, the order in
    which the tasks run; it is valid if it runs each task exactly once. The call
    sites are the products with [is_parallel], e.g. prove.rs:126-164. *)
Definition sched := nat -> nat -> nat -> order.

(** Each task exactly once, as the ranges of data_structures.rs:658, 666 say. *)
Definition valid_sched (sch : sched) : Prop :=
  forall call r c, perm_eq (sch call r c) (tasks r c).
