(** Proofs on the toy pairing made from given tapes, for C98. *)
From mathcomp Require Import all_ssreflect all_algebra.
From Verif Require Import Base Group DataStructures Generator Commit Statement Prove Spec SpecHide Concrete.
Set Implicit Arguments.
Unset Strict Implicit.
Unset Printing Implicit Defensive.
Import GRing.Theory.
Local Open Scope ring_scope.

Definition com_of {G : lmodType F7} (r : res (commit G * nat)) : commit G := if r is Ok (c, _) then c else mkCommit [::] [::].

Definition fib_cx_ppe : Commit1 toy := com_of (batch_commit_G1 (E := toy) (R := ctr) xs0 crs0 6%N).
Definition fib_cy_ppe : Commit2 toy := com_of (batch_commit_G2 (E := toy) (R := ctr) ys0 crs0 10%N).
(** Both tapes give a proof, and it is the same. *)
Definition fib_ppe (a b : seq F7) : bool :=
  match ppe_prove (E := toy) (R := @tape_rng toy) fwd ppe0 xs0 ys0 fib_cx_ppe fib_cy_ppe crs0 a, ppe_prove (E := toy) (R := @tape_rng toy) fwd ppe0 xs0 ys0 fib_cx_ppe fib_cy_ppe crs0 b with
  | Ok (f, _), Ok (g, _) => ((pi g : seq (F7 * F7)) == pi f) && ((theta g : seq (F7 * F7)) == theta f)
  | _, _ => false
  end.
Definition fib_ok_ppe : bool := if ppe_prove (E := toy) (R := ctr) fwd ppe0 xs0 ys0 fib_cx_ppe fib_cy_ppe crs0 12%N is Ok _ then true else false.

Definition fib_cx_ms1 : Commit1 toy := com_of (batch_commit_G1 (E := toy) (R := ctr) xs0 crs0 6%N).
Definition fib_cy_ms1 : Commit2 toy := com_of (batch_commit_scalar_to_B2 (E := toy) (R := ctr) ys0 crs0 10%N).
(** Both tapes give a proof, and it is the same. *)
Definition fib_ms1 (a b : seq F7) : bool :=
  match ms1_prove (E := toy) (R := @tape_rng toy) fwd ms10 xs0 ys0 fib_cx_ms1 fib_cy_ms1 crs0 a, ms1_prove (E := toy) (R := @tape_rng toy) fwd ms10 xs0 ys0 fib_cx_ms1 fib_cy_ms1 crs0 b with
  | Ok (f, _), Ok (g, _) => ((pi g : seq (F7 * F7)) == pi f) && ((theta g : seq (F7 * F7)) == theta f)
  | _, _ => false
  end.
Definition fib_ok_ms1 : bool := if ms1_prove (E := toy) (R := ctr) fwd ms10 xs0 ys0 fib_cx_ms1 fib_cy_ms1 crs0 12%N is Ok _ then true else false.

Definition fib_cx_ms2 : Commit1 toy := com_of (batch_commit_scalar_to_B1 (E := toy) (R := ctr) xs0 crs0 6%N).
Definition fib_cy_ms2 : Commit2 toy := com_of (batch_commit_G2 (E := toy) (R := ctr) ys0 crs0 10%N).
(** Both tapes give a proof, and it is the same. *)
Definition fib_ms2 (a b : seq F7) : bool :=
  match ms2_prove (E := toy) (R := @tape_rng toy) fwd ms20 xs0 ys0 fib_cx_ms2 fib_cy_ms2 crs0 a, ms2_prove (E := toy) (R := @tape_rng toy) fwd ms20 xs0 ys0 fib_cx_ms2 fib_cy_ms2 crs0 b with
  | Ok (f, _), Ok (g, _) => ((pi g : seq (F7 * F7)) == pi f) && ((theta g : seq (F7 * F7)) == theta f)
  | _, _ => false
  end.
Definition fib_ok_ms2 : bool := if ms2_prove (E := toy) (R := ctr) fwd ms20 xs0 ys0 fib_cx_ms2 fib_cy_ms2 crs0 12%N is Ok _ then true else false.

Definition fib_cx_quad : Commit1 toy := com_of (batch_commit_scalar_to_B1 (E := toy) (R := ctr) xs0 crs0 6%N).
Definition fib_cy_quad : Commit2 toy := com_of (batch_commit_scalar_to_B2 (E := toy) (R := ctr) ys0 crs0 10%N).
(** Both tapes give a proof, and it is the same. *)
Definition fib_quad (a b : seq F7) : bool :=
  match quad_prove (E := toy) (R := @tape_rng toy) fwd quad0 xs0 ys0 fib_cx_quad fib_cy_quad crs0 a, quad_prove (E := toy) (R := @tape_rng toy) fwd quad0 xs0 ys0 fib_cx_quad fib_cy_quad crs0 b with
  | Ok (f, _), Ok (g, _) => ((pi g : seq (F7 * F7)) == pi f) && ((theta g : seq (F7 * F7)) == theta f)
  | _, _ => false
  end.
Definition fib_ok_quad : bool := if quad_prove (E := toy) (R := ctr) fwd quad0 xs0 ys0 fib_cx_quad fib_cy_quad crs0 12%N is Ok _ then true else false.
