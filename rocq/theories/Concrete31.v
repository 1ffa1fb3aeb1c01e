(** Runs of [commit_and_prove] on the toy pairing with given tapes, for C98. *)
From mathcomp Require Import all_ssreflect all_algebra.
From Verif Require Import Base Group DataStructures Generator Commit Statement Prove Spec SpecHide Concrete.
Set Implicit Arguments.
Unset Strict Implicit.
Unset Printing Implicit Defensive.
Import GRing.Theory.
Local Open Scope ring_scope.

(** Both runs return, and publish the same proof. *)
Definition same_run (a b : res (CProof toy * seq F7)) : bool :=
  match a, b with
  | Ok (p, _), Ok (p', _) =>
      [&& (coms (xcoms p') : seq (F7 * F7)) == coms (xcoms p), (coms (ycoms p') : seq (F7 * F7)) == coms (ycoms p),
          ([seq pi f | f <- equ_proofs p'] : seq (seq (F7 * F7))) == [seq pi f | f <- equ_proofs p]
        & ([seq theta f | f <- equ_proofs p'] : seq (seq (F7 * F7))) == [seq theta f | f <- equ_proofs p]]
  | _, _ => false
  end.
Definition tp (s : seq nat) : rst (@tape_rng toy) := [seq (k%:R : F7) | k <- s].
Definition run_ppe (a : seq nat) := ppe_commit_and_prove (E := toy) (R := @tape_rng toy) fwd ppe0 xs0 ys0 crs0 (tp a).
Definition run_ms1 (a : seq nat) := ms1_commit_and_prove (E := toy) (R := @tape_rng toy) fwd ms10 xs0 ys0 crs0 (tp a).
Definition ms2r : MSMEG2 toy := mkMSMEG2 (E := toy) [:: n7 1; n7 2] [:: n7 2] [:: [:: n7 2; n7 6]] (n7 1).
Definition run_ms2 (a : seq nat) := ms2_commit_and_prove (E := toy) (R := @tape_rng toy) fwd ms2r [:: n7 3] [:: n7 4; n7 5] crs0 (tp a).
Definition run_quad (a : seq nat) := quad_commit_and_prove (E := toy) (R := @tape_rng toy) fwd quad0 xs0 ys0 crs0 (tp a).
Definition is_ok {T} (r : res T) : bool := if r is Ok _ then true else false.
