(** Runs over the toy curves with given tapes, for C98. *)
From mathcomp Require Import all_ssreflect all_algebra.
From Verif Require Import Base Group DataStructures Generator Commit Statement Prove Spec SpecHide Concrete Ark SpecArk ArkBij Concrete13.
Set Implicit Arguments.
Unset Strict Implicit.
Unset Printing Implicit Defensive.
Import GRing.Theory.
Local Open Scope ring_scope.

Local Notation R := (@ark_tape toy tark).
Local Notation P := (F7 * bool)%type.
Definition ark_com_of {C : curve F7} (r : res (ark_commit C * nat)) : ark_commit C := if r is Ok (c, _) then c else ark_mkCommit [::] [::].
Definition afibc_G1 (crs : ark_CRS tark) (a b : seq F7) : bool :=
  match ark_batch_commit_G1 (A := tark) (R := R) (lift xs0) crs a, ark_batch_commit_G1 (A := tark) (R := R) (lift xs0) crs b with
  | Ok (c, _), Ok (d, _) => (ark_coms d : seq (P * P)) == ark_coms c
  | _, _ => false
  end.
Definition afibc_G2 (crs : ark_CRS tark) (a b : seq F7) : bool :=
  match ark_batch_commit_G2 (A := tark) (R := R) (lift ys0) crs a, ark_batch_commit_G2 (A := tark) (R := R) (lift ys0) crs b with
  | Ok (c, _), Ok (d, _) => (ark_coms d : seq (P * P)) == ark_coms c
  | _, _ => false
  end.
Definition afibc_B1 (crs : ark_CRS tark) (a b : seq F7) : bool :=
  match ark_batch_commit_scalar_to_B1 (A := tark) (R := R) xs0 crs a, ark_batch_commit_scalar_to_B1 (A := tark) (R := R) xs0 crs b with
  | Ok (c, _), Ok (d, _) => (ark_coms d : seq (P * P)) == ark_coms c
  | _, _ => false
  end.
Definition afibc_B2 (crs : ark_CRS tark) (a b : seq F7) : bool :=
  match ark_batch_commit_scalar_to_B2 (A := tark) (R := R) ys0 crs a, ark_batch_commit_scalar_to_B2 (A := tark) (R := R) ys0 crs b with
  | Ok (c, _), Ok (d, _) => (ark_coms d : seq (P * P)) == ark_coms c
  | _, _ => false
  end.
Definition afib_cx_ppe := ark_com_of (ark_batch_commit_G1 (A := tark) (R := tctr) (lift xs0) tcrs 6%N).
Definition afib_cy_ppe := ark_com_of (ark_batch_commit_G2 (A := tark) (R := tctr) (lift ys0) tcrs 10%N).
Definition afib_ppe (a b : seq F7) : bool :=
  match ark_ppe_prove (A := tark) (R := R) fwd tppe (lift xs0) (lift ys0) afib_cx_ppe afib_cy_ppe tcrs a, ark_ppe_prove (A := tark) (R := R) fwd tppe (lift xs0) (lift ys0) afib_cx_ppe afib_cy_ppe tcrs b with
  | Ok (f, _), Ok (g, _) => ((ark_pi g : seq (P * P)) == ark_pi f) && ((ark_theta g : seq (P * P)) == ark_theta f)
  | _, _ => false
  end.
Definition afib_cx_ms1 := ark_com_of (ark_batch_commit_G1 (A := tark) (R := tctr) (lift xs0) tcrs 6%N).
Definition afib_cy_ms1 := ark_com_of (ark_batch_commit_scalar_to_B2 (A := tark) (R := tctr) ys0 tcrs 10%N).
Definition afib_ms1 (a b : seq F7) : bool :=
  match ark_ms1_prove (A := tark) (R := R) fwd tms1 (lift xs0) ys0 afib_cx_ms1 afib_cy_ms1 tcrs a, ark_ms1_prove (A := tark) (R := R) fwd tms1 (lift xs0) ys0 afib_cx_ms1 afib_cy_ms1 tcrs b with
  | Ok (f, _), Ok (g, _) => ((ark_pi g : seq (P * P)) == ark_pi f) && ((ark_theta g : seq (P * P)) == ark_theta f)
  | _, _ => false
  end.
Definition afib_cx_ms2 := ark_com_of (ark_batch_commit_scalar_to_B1 (A := tark) (R := tctr) xs0 tcrs 6%N).
Definition afib_cy_ms2 := ark_com_of (ark_batch_commit_G2 (A := tark) (R := tctr) (lift ys0) tcrs 10%N).
Definition afib_ms2 (a b : seq F7) : bool :=
  match ark_ms2_prove (A := tark) (R := R) fwd tms2 xs0 (lift ys0) afib_cx_ms2 afib_cy_ms2 tcrs a, ark_ms2_prove (A := tark) (R := R) fwd tms2 xs0 (lift ys0) afib_cx_ms2 afib_cy_ms2 tcrs b with
  | Ok (f, _), Ok (g, _) => ((ark_pi g : seq (P * P)) == ark_pi f) && ((ark_theta g : seq (P * P)) == ark_theta f)
  | _, _ => false
  end.
Definition afib_cx_quad := ark_com_of (ark_batch_commit_scalar_to_B1 (A := tark) (R := tctr) xs0 tcrs 6%N).
Definition afib_cy_quad := ark_com_of (ark_batch_commit_scalar_to_B2 (A := tark) (R := tctr) ys0 tcrs 10%N).
Definition afib_quad (a b : seq F7) : bool :=
  match ark_quad_prove (A := tark) (R := R) fwd tquad xs0 ys0 afib_cx_quad afib_cy_quad tcrs a, ark_quad_prove (A := tark) (R := R) fwd tquad xs0 ys0 afib_cx_quad afib_cy_quad tcrs b with
  | Ok (f, _), Ok (g, _) => ((ark_pi g : seq (P * P)) == ark_pi f) && ((ark_theta g : seq (P * P)) == ark_theta f)
  | _, _ => false
  end.
