(** Model of /repo/src/verifier.rs. *)
From mathcomp Require Import all_ssreflect all_algebra.
From Verif Require Import Base Group DataStructures Commit Statement.
Set Implicit Arguments.
Unset Strict Implicit.
Unset Printing Implicit Defensive.

Section Verify.
Context {E : pairing}.

(** [assert_eq!(self.get_type(), ...)] on equation types, e.g. verifier.rs:26. *)
Definition assert_type (a b : EquType) : res unit :=
  if equtype_eq a b then Ok tt else Panic AssertFailed.

(** [PPE::verify], verifier.rs:24-54. *)
Definition ppe_verify (sch : sched) (self : PPE E) (com_proof : CProof E)
  (crs : CRS E) : res bool :=
  let! _ := assert_eq (size (equ_proofs com_proof)) 1 in
  let! pf := idx (equ_proofs com_proof) 0 in
  let! _ := assert_type (ppe_get_type self) (equ_type pf) in
  let is_parallel := true in
  let! lin_a_com_y :=
    comT_pairing_sum (com1_batch_linear_map (ppe_a self)) (coms (ycoms com_proof)) in
  let! com_x_lin_b :=
    comT_pairing_sum (coms (xcoms com_proof)) (com2_batch_linear_map (ppe_b self)) in
  let! stmt_com_y :=
    cmat_left_mul (sch 0) (vec_to_col_vec (coms (ycoms com_proof)))
      (ppe_gamma self) is_parallel in
  let! stmt_com_y_v := col_vec_to_vec stmt_com_y in
  let! com_x_stmt_com_y :=
    comT_pairing_sum (coms (xcoms com_proof)) stmt_com_y_v in
  let lin_t := linear_map_PPE (ppe_target self) in
  let! com1_pf2 := comT_pairing_sum (crs_u crs) (pi pf) in
  let! pf1_com2 := comT_pairing_sum (theta pf) (crs_v crs) in
  let lhs := comT_add (comT_add lin_a_com_y com_x_lin_b) com_x_stmt_com_y in
  let rhs := comT_add (comT_add lin_t com1_pf2) pf1_com2 in
  Ok (comT_eq lhs rhs).

(** [MSMEG1::verify], verifier.rs:58-88. *)
Definition ms1_verify (sch : sched) (self : MSMEG1 E) (com_proof : CProof E)
  (crs : CRS E) : res bool :=
  let! _ := assert_eq (size (equ_proofs com_proof)) 1 in
  let! pf := idx (equ_proofs com_proof) 0 in
  let! _ := assert_type (ms1_get_type self) (equ_type pf) in
  let is_parallel := true in
  let! lin_a_com_y :=
    comT_pairing_sum (com1_batch_linear_map (ms1_a self)) (coms (ycoms com_proof)) in
  let! lin_b := com2_batch_scalar_linear_map (ms1_b self) crs in
  let! com_x_lin_b := comT_pairing_sum (coms (xcoms com_proof)) lin_b in
  let! stmt_com_y :=
    cmat_left_mul (sch 0) (vec_to_col_vec (coms (ycoms com_proof)))
      (ms1_gamma self) is_parallel in
  let! stmt_com_y_v := col_vec_to_vec stmt_com_y in
  let! com_x_stmt_com_y :=
    comT_pairing_sum (coms (xcoms com_proof)) stmt_com_y_v in
  let! lin_t := linear_map_MSMEG1 (ms1_target self) crs in
  let! com1_pf2 := comT_pairing_sum (crs_u crs) (pi pf) in
  let! theta0 := idx (theta pf) 0 in
  let! v0 := idx (crs_v crs) 0 in
  let pf1_com2 := comT_pairing theta0 v0 in
  let lhs := comT_add (comT_add lin_a_com_y com_x_lin_b) com_x_stmt_com_y in
  let rhs := comT_add (comT_add lin_t com1_pf2) pf1_com2 in
  Ok (comT_eq lhs rhs).

(** [MSMEG2::verify], verifier.rs:92-122. *)
Definition ms2_verify (sch : sched) (self : MSMEG2 E) (com_proof : CProof E)
  (crs : CRS E) : res bool :=
  let! _ := assert_eq (size (equ_proofs com_proof)) 1 in
  let! pf := idx (equ_proofs com_proof) 0 in
  let! _ := assert_type (ms2_get_type self) (equ_type pf) in
  let is_parallel := true in
  let! lin_a := com1_batch_scalar_linear_map (ms2_a self) crs in
  let! lin_a_com_y := comT_pairing_sum lin_a (coms (ycoms com_proof)) in
  let! com_x_lin_b :=
    comT_pairing_sum (coms (xcoms com_proof)) (com2_batch_linear_map (ms2_b self)) in
  let! stmt_com_y :=
    cmat_left_mul (sch 0) (vec_to_col_vec (coms (ycoms com_proof)))
      (ms2_gamma self) is_parallel in
  let! stmt_com_y_v := col_vec_to_vec stmt_com_y in
  let! com_x_stmt_com_y :=
    comT_pairing_sum (coms (xcoms com_proof)) stmt_com_y_v in
  let! lin_t := linear_map_MSMEG2 (ms2_target self) crs in
  let! u0 := idx (crs_u crs) 0 in
  let! pi0 := idx (pi pf) 0 in
  let com1_pf2 := comT_pairing u0 pi0 in
  let! pf1_com2 := comT_pairing_sum (theta pf) (crs_v crs) in
  let lhs := comT_add (comT_add lin_a_com_y com_x_lin_b) com_x_stmt_com_y in
  let rhs := comT_add (comT_add lin_t com1_pf2) pf1_com2 in
  Ok (comT_eq lhs rhs).

(** [QuadEqu::verify], verifier.rs:126-156. *)
Definition quad_verify (sch : sched) (self : QuadEqu E) (com_proof : CProof E)
  (crs : CRS E) : res bool :=
  let! _ := assert_eq (size (equ_proofs com_proof)) 1 in
  let! pf := idx (equ_proofs com_proof) 0 in
  let! _ := assert_type (quad_get_type self) (equ_type pf) in
  let is_parallel := true in
  let! lin_a := com1_batch_scalar_linear_map (quad_a self) crs in
  let! lin_a_com_y := comT_pairing_sum lin_a (coms (ycoms com_proof)) in
  let! lin_b := com2_batch_scalar_linear_map (quad_b self) crs in
  let! com_x_lin_b := comT_pairing_sum (coms (xcoms com_proof)) lin_b in
  let! stmt_com_y :=
    cmat_left_mul (sch 0) (vec_to_col_vec (coms (ycoms com_proof)))
      (quad_gamma self) is_parallel in
  let! stmt_com_y_v := col_vec_to_vec stmt_com_y in
  let! com_x_stmt_com_y :=
    comT_pairing_sum (coms (xcoms com_proof)) stmt_com_y_v in
  let! lin_t := linear_map_quad (quad_target self) crs in
  let! u0 := idx (crs_u crs) 0 in
  let! pi0 := idx (pi pf) 0 in
  let com1_pf2 := comT_pairing u0 pi0 in
  let! theta0 := idx (theta pf) 0 in
  let! v0 := idx (crs_v crs) 0 in
  let pf1_com2 := comT_pairing theta0 v0 in
  let lhs := comT_add (comT_add lin_a_com_y com_x_lin_b) com_x_stmt_com_y in
  let rhs := comT_add (comT_add lin_t com1_pf2) pf1_com2 in
  Ok (comT_eq lhs rhs).
End Verify.
