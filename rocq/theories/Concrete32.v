(** Runs of [commit_and_prove] over the toy curves with given tapes, for C98. *)
From mathcomp Require Import all_ssreflect all_algebra.
From Verif Require Import Base Group DataStructures Generator Commit Statement Prove Spec SpecHide Concrete Concrete31 Ark SpecArk ArkBij Concrete13.
Set Implicit Arguments.
Unset Strict Implicit.
Unset Printing Implicit Defensive.
Import GRing.Theory.
Local Open Scope ring_scope.

Definition ark_same_run (a b : res (ark_CProof tark * seq F7)) : bool :=
  match a, b with
  | Ok (p, _), Ok (p', _) =>
      let P := (F7 * bool)%type in
      [&& (ark_coms (ark_xcoms p') : seq (P * P)) == ark_coms (ark_xcoms p), (ark_coms (ark_ycoms p') : seq (P * P)) == ark_coms (ark_ycoms p),
          ([seq ark_pi f | f <- ark_equ_proofs p'] : seq (seq (P * P))) == [seq ark_pi f | f <- ark_equ_proofs p]
        & ([seq ark_theta f | f <- ark_equ_proofs p'] : seq (seq (P * P))) == [seq ark_theta f | f <- ark_equ_proofs p]]
  | _, _ => false
  end.
Definition tpa (s : seq nat) : ark_rst (@ark_tape toy tark) := [seq (k%:R : F7) | k <- s].
Definition arun_ppe (a : seq nat) := ark_ppe_commit_and_prove (A := tark) fwd tppe (lift xs0) (lift ys0) tcrs (tpa a).
Definition arun_ms1 (a : seq nat) := ark_ms1_commit_and_prove (A := tark) fwd tms1 (lift xs0) ys0 tcrs (tpa a).
Definition tms2r : ark_MSMEG2 tark := @ark_mkMSMEG2 F7 tark [:: n7 1; n7 2] (lift [:: n7 2]) [:: [:: n7 2; n7 6]] (n7 1, false).
Definition arun_ms2 (a : seq nat) := ark_ms2_commit_and_prove (A := tark) fwd tms2r [:: n7 3] (lift [:: n7 4; n7 5]) tcrs (tpa a).
Definition arun_quad (a : seq nat) := ark_quad_commit_and_prove (A := tark) fwd tquad xs0 ys0 tcrs (tpa a).
