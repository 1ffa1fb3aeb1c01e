(** Histories of calls of the commitment API, and what the holder of a
    [Commit] value can compute. Specifications: nothing here is part of /repo. *)
From mathcomp Require Import all_ssreflect all_algebra.
From Verif Require Import Base Group DataStructures Commit Spec.
Set Implicit Arguments.
Unset Strict Implicit.
Unset Printing Implicit Defensive.
Import GRing.Theory.
Local Open Scope ring_scope.

Section Api.
Context {E : pairing}.

(** The values [Commit1] which a program can build under the key [crs] by any
    sequence of calls of the library, with the values committed to. The calls may
    use any RNG in any state. *)
Inductive built1 (crs : CRS E) : seq (@val1 E) -> Commit1 E -> Prop :=
  | Built1_G (R : rng E) (s s' : rst R) x c :
      commit_G1 x crs s = Ok (c, s') -> built1 crs [:: inl x] c
  | Built1_batch_G (R : rng E) (s s' : rst R) X c :
      batch_commit_G1 X crs s = Ok (c, s') -> built1 crs [seq inl x | x <- X] c
  | Built1_B (R : rng E) (s s' : rst R) x c :
      commit_scalar_to_B1 x crs s = Ok (c, s') -> built1 crs [:: inr x] c
  | Built1_batch_B (R : rng E) (s s' : rst R) X c :
      batch_commit_scalar_to_B1 X crs s = Ok (c, s') -> built1 crs [seq inr x | x <- X] c
  | Built1_append X a a' Y b b' : built1 crs X a -> built1 crs Y b ->
      commit_append a b = Ok (a', b') -> built1 crs (X ++ Y) a'
  | Built1_drained X a a' Y b b' : built1 crs X a -> built1 crs Y b ->
      commit_append a b = Ok (a', b') -> built1 crs [::] b'.

(** The values [Commit2] which a program can build under the key [crs] by any
    sequence of calls of the library, with the values committed to. The calls may
    use any RNG in any state. *)
Inductive built2 (crs : CRS E) : seq (@val2 E) -> Commit2 E -> Prop :=
  | Built2_G (R : rng E) (s s' : rst R) x c :
      commit_G2 x crs s = Ok (c, s') -> built2 crs [:: inl x] c
  | Built2_batch_G (R : rng E) (s s' : rst R) X c :
      batch_commit_G2 X crs s = Ok (c, s') -> built2 crs [seq inl x | x <- X] c
  | Built2_B (R : rng E) (s s' : rst R) x c :
      commit_scalar_to_B2 x crs s = Ok (c, s') -> built2 crs [:: inr x] c
  | Built2_batch_B (R : rng E) (s s' : rst R) X c :
      batch_commit_scalar_to_B2 X crs s = Ok (c, s') -> built2 crs [seq inr x | x <- X] c
  | Built2_append X a a' Y b b' : built2 crs X a -> built2 crs Y b ->
      commit_append a b = Ok (a', b') -> built2 crs (X ++ Y) a'
  | Built2_drained X a a' Y b b' : built2 crs X a -> built2 crs Y b ->
      commit_append a b = Ok (a', b') -> built2 crs [::] b'.

(** What the holder of a [Commit1] computes: each commitment minus its randomness
    times the key, second component. *)
Definition recover1 (crs : CRS E) (c : Commit1 E) : seq (G1 E) :=
  [seq (p.1 - nth 0 p.2 0 *: u1 crs - nth 0 p.2 1 *: u2 crs).2 | p <- zip (coms c) (crand c)].

(** What the holder of a [Commit2] computes: each commitment minus its randomness
    times the key, second component. *)
Definition recover2 (crs : CRS E) (c : Commit2 E) : seq (G2 E) :=
  [seq (p.1 - nth 0 p.2 0 *: v1 crs - nth 0 p.2 1 *: v2 crs).2 | p <- zip (coms c) (crand c)].

(** Committing to the elements of [X] one by one, appending each to [acc]. *)
Definition one_by_one (St V : Type) (F : fieldType) (G : lmodType F)
  (one : V -> St -> res (commit G * St)) (acc : commit G * St) (X : seq V) : res (commit G * St) :=
  foldM (fun acc x =>
    let! (c, s) := one x acc.2 in
    let! (a, _) := commit_append acc.1 c in
    Ok (a, s)) acc X.

(** The draws from [t] are the sums of the draws from [s] and [s']. *)
Definition sum_draws (n : nat) {R R' R'' : rng E} (s : rst R) (s' : rst R') (t : rst R'') : Prop :=
  forall k, (k < n)%N -> drawn t k = drawn s k + drawn s' k.

(** Element-wise sums. *)
Definition addz {V : zmodType} (X Y : seq V) : seq V := [seq p.1 + p.2 | p <- zip X Y].
Definition addzz {V : zmodType} (X Y : matrix V) : matrix V := [seq addz p.1 p.2 | p <- zip X Y].
End Api.
