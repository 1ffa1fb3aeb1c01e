(** Commitments on the toy pairing made from given tapes, for C98. *)
From mathcomp Require Import all_ssreflect all_algebra.
From Verif Require Import Base Group DataStructures Generator Commit Statement Prove Spec SpecHide Concrete.
Set Implicit Arguments.
Unset Strict Implicit.
Unset Printing Implicit Defensive.
Import GRing.Theory.
Local Open Scope ring_scope.

(** Both tapes give commitments, and they are the same. *)
Definition fibc_G1 (crs : CRS toy) (a b : seq F7) : bool :=
  match batch_commit_G1 (E := toy) (R := @tape_rng toy) xs0 crs a, batch_commit_G1 (E := toy) (R := @tape_rng toy) xs0 crs b with
  | Ok (c, _), Ok (d, _) => (coms d : seq (F7 * F7)) == coms c
  | _, _ => false
  end.
Definition fibc_G2 (crs : CRS toy) (a b : seq F7) : bool :=
  match batch_commit_G2 (E := toy) (R := @tape_rng toy) ys0 crs a, batch_commit_G2 (E := toy) (R := @tape_rng toy) ys0 crs b with
  | Ok (c, _), Ok (d, _) => (coms d : seq (F7 * F7)) == coms c
  | _, _ => false
  end.
Definition fibc_B1 (crs : CRS toy) (a b : seq F7) : bool :=
  match batch_commit_scalar_to_B1 (E := toy) (R := @tape_rng toy) xs0 crs a, batch_commit_scalar_to_B1 (E := toy) (R := @tape_rng toy) xs0 crs b with
  | Ok (c, _), Ok (d, _) => (coms d : seq (F7 * F7)) == coms c
  | _, _ => false
  end.
Definition fibc_B2 (crs : CRS toy) (a b : seq F7) : bool :=
  match batch_commit_scalar_to_B2 (E := toy) (R := @tape_rng toy) ys0 crs a, batch_commit_scalar_to_B2 (E := toy) (R := @tape_rng toy) ys0 crs b with
  | Ok (c, _), Ok (d, _) => (coms d : seq (F7 * F7)) == coms c
  | _, _ => false
  end.
