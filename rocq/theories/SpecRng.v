(** Specification of the state in which a call leaves the generator, whether it returns
    or panics. *)
From mathcomp Require Import all_ssreflect all_algebra.
From Verif Require Import Base Group DataStructures Commit Statement Spec SpecPanic.
Set Implicit Arguments.
Unset Strict Implicit.
Unset Printing Implicit Defensive.
Import GRing.Theory.

(** What the caller sees of an outcome and a final state, if a panic discards the state. *)
Definition on_return {A S : Type} (x : res A * S) : res (A * S) :=
  match x with (Ok a, s) => Ok (a, s) | (Panic p, _) => Panic p end.

(** All checks of a list pass. *)
Definition passes (cs : seq check) : bool := if first_failed cs is None then true else false.

Section Draws.
Context {E : pairing}.
(** The checks of [prove] that precede its draws (e.g. prove.rs:106-121): [m] and [n]
    values, [kx] and [ky] scalars per commitment. *)
Definition opening_checks (gamma : matrix (Fr E)) (m n kx ky : nat) (rx ry : matrix (Fr E)) : seq check :=
  [:: asserts (m == size rx);
      asserts (size gamma == size rx);
      reads (0 < size rx);
      asserts (width rx == kx);
      asserts (n == size ry);
      asserts (width gamma == size ry);
      reads (0 < size ry);
      asserts (width ry == ky);
      reads (narrow kx rx);
      reads (narrow ky ry)].
(** Number of draws of [prove]. *)
Definition prove_draws (N : nat) (opening : seq check) : nat := if passes opening then N else 0.
(** Number of draws of [commit_and_prove]: those of the first commitments, then of the second
    ones if the first call returns, then of the proof if the second call returns and the matrix
    of the equation has the dimensions of the variables. *)
Definition cap_draws (kx ky N m n : nat) (gamma : matrix (Fr E)) (xchecks ychecks : seq check) : nat :=
  kx * m + (if passes xchecks then
              ky * n + (if passes ychecks && (size gamma == m) && (width gamma == n) then N else 0)
            else 0).
End Draws.
