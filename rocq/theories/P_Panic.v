(** Property C67: for every input, which panic a call ends with, if any. Each function is
    described by the list of its checks in program order (SpecPanic.v). *)
From mathcomp Require Import all_ssreflect all_algebra.
From Verif Require Import Base BaseLemmas Group DataStructures Generator Commit Statement Prove Verify Spec SpecMat SpecPanic PanicLemmas PanicSteps PanicProps PanicProve0 PanicProve Concrete Concrete2.
Set Implicit Arguments.
Unset Strict Implicit.
Unset Printing Implicit Defensive.
Import GRing.Theory.

(** Scalar matrices. *)
Theorem C67_field_add : forall (F : fieldType) (A B : matrix F), outcome (fmat_add A B) = first_failed (add_checks A B).
Proof. move=> F A B; exact: (proj1 (step_fadd A B)). Qed.
Print Assumptions C67_field_add.

Example C67_field_add_case :
  outcome (fmat_add ([:: [:: n7 1; n7 2]; [:: n7 3; n7 4]] : matrix F7) (([::] : matrix F7) : matrix F7)) = Some AssertFailed /\
  outcome (fmat_add (([::] : matrix F7) : matrix F7) (([::] : matrix F7) : matrix F7)) = Some IndexOutOfBounds /\
  outcome (fmat_add ([:: [:: n7 1; n7 2]; [:: n7 3; n7 4]] : matrix F7) ([:: [:: n7 1]; [:: n7 2]] : matrix F7)) = Some AssertFailed /\
  outcome (fmat_add ([:: [:: n7 1; n7 2]; [:: n7 3]] : matrix F7) ([:: [:: n7 1; n7 2]; [:: n7 3; n7 4]] : matrix F7)) = Some IndexOutOfBounds /\
  outcome (fmat_add ([:: [:: n7 1; n7 2]; [:: n7 3; n7 4]] : matrix F7) ([:: [:: n7 1; n7 2]; [:: n7 3]] : matrix F7)) = Some IndexOutOfBounds /\
  outcome (fmat_add ([:: [:: n7 1]; [:: n7 2]] : matrix F7) ([:: [:: n7 1]; [:: n7 3; n7 5]] : matrix F7)) = None.
Proof. by vm_compute. Qed.

Theorem C67_field_neg : forall (F : fieldType) (A : matrix F), outcome (fmat_neg A) = None.
Proof. move=> F A; exact: (proj1 (step_fneg A)). Qed.
Print Assumptions C67_field_neg.

Example C67_field_neg_case :
  outcome (fmat_neg ([:: [:: n7 1; n7 2]; [:: n7 3]] : matrix F7)) = None.
Proof. by vm_compute. Qed.

Theorem C67_field_scalar_mul : forall (F : fieldType) (A : matrix F) (k : F), outcome (fmat_scalar_mul A k) = first_failed (scalar_mul_checks A).
Proof. move=> F A k; exact: (proj1 (@step_mat_scalar_mul _ _ (0%R : F) *%R A k)). Qed.
Print Assumptions C67_field_scalar_mul.

Example C67_field_scalar_mul_case :
  outcome (fmat_scalar_mul (([::] : matrix F7) : matrix F7) (n7 3)) = Some IndexOutOfBounds /\
  outcome (fmat_scalar_mul ([:: [:: n7 1; n7 2]; [:: n7 3]] : matrix F7) (n7 3)) = Some IndexOutOfBounds /\
  outcome (fmat_scalar_mul ([:: [:: n7 1]; [:: n7 3; n7 5]] : matrix F7) (n7 3)) = None.
Proof. by vm_compute. Qed.

Theorem C67_field_transpose : forall (F : fieldType) (A : matrix F), outcome (fmat_transpose A) = first_failed (transpose_checks A).
Proof. move=> F A; exact: (proj1 (step_ftrans A)). Qed.
Print Assumptions C67_field_transpose.

Example C67_field_transpose_case :
  outcome (fmat_transpose (([::] : matrix F7) : matrix F7)) = Some IndexOutOfBounds /\
  outcome (fmat_transpose ([:: [:: n7 1; n7 2]; [:: n7 3]] : matrix F7)) = None /\
  outcome (fmat_transpose ([:: [:: n7 1]; [:: n7 3; n7 5]] : matrix F7)) = Some IndexOutOfBounds.
Proof. by vm_compute. Qed.

Theorem C67_field_right_mul : forall (F : fieldType) ord (A : matrix F) (L : matrix F) par, valid_ord ord ->
  outcome (fmat_right_mul ord A L par) = first_failed (right_mul_checks A L).
Proof. move=> F ord A L par vo; exact: (proj1 (step_fright A L par vo)). Qed.
Print Assumptions C67_field_right_mul.

Example C67_field_right_mul_case :
  outcome (fmat_right_mul tasks (([::] : matrix F7) : matrix F7) ([:: [:: n7 1; n7 2]; [:: n7 3; n7 4]] : matrix F7) true) = None /\
  outcome (fmat_right_mul tasks ([:: [:: n7 1]; [:: n7 2]] : matrix F7) ([:: [:: n7 1; n7 2]; [:: n7 3; n7 4]] : matrix F7) true) = Some AssertFailed /\
  outcome (fmat_right_mul tasks ([:: [:: n7 1; n7 2]; [:: n7 3]] : matrix F7) ([:: [:: n7 1; n7 2]; [:: n7 3; n7 4]] : matrix F7) true) = Some IndexOutOfBounds /\
  outcome (fmat_right_mul tasks ([:: [:: n7 1; n7 2]; [:: n7 3; n7 4]] : matrix F7) ([:: [:: n7 1; n7 2]; [:: n7 3]] : matrix F7) false) = Some IndexOutOfBounds /\
  outcome (fmat_right_mul tasks ([:: [:: n7 1; n7 2]; [:: n7 3; n7 4]] : matrix F7) ([:: [:: n7 1]; [:: n7 3; n7 5]] : matrix F7) false) = None.
Proof. by vm_compute. Qed.

Theorem C67_field_left_mul : forall (F : fieldType) ord (A : matrix F) (L : matrix F) par, valid_ord ord ->
  outcome (fmat_left_mul ord A L par) = first_failed (left_mul_checks A L).
Proof. move=> F ord A L par vo; exact: (proj1 (step_fleft A L par vo)). Qed.
Print Assumptions C67_field_left_mul.

Example C67_field_left_mul_case :
  outcome (fmat_left_mul tasks ([:: [:: n7 1; n7 2]; [:: n7 3; n7 4]] : matrix F7) ([::] : matrix F7) true) = None /\
  outcome (fmat_left_mul tasks ([:: [:: n7 1; n7 2]; [:: n7 3; n7 4]] : matrix F7) ([:: [:: n7 1]; [:: n7 2]] : matrix F7) true) = Some AssertFailed /\
  outcome (fmat_left_mul tasks ([:: [:: n7 1; n7 2]; [:: n7 3; n7 4]] : matrix F7) ([:: [:: n7 1; n7 2]; [:: n7 3]] : matrix F7) true) = Some IndexOutOfBounds /\
  outcome (fmat_left_mul tasks ([:: [:: n7 1; n7 2]; [:: n7 3]] : matrix F7) ([:: [:: n7 1; n7 2]; [:: n7 3; n7 4]] : matrix F7) false) = Some IndexOutOfBounds /\
  outcome (fmat_left_mul tasks ([:: [:: n7 1]; [:: n7 3; n7 5]] : matrix F7) ([:: [:: n7 1; n7 2]; [:: n7 3; n7 4]] : matrix F7) false) = None.
Proof. by vm_compute. Qed.

(** Matrices of commitments. *)
Theorem C67_com_add : forall (F : fieldType) (G : lmodType F) (A B : matrix (com G)), outcome (cmat_add A B) = first_failed (add_checks A B).
Proof. move=> F G A B; exact: (proj1 (step_cadd A B)). Qed.
Print Assumptions C67_com_add.

Example C67_com_add_case :
  outcome (cmat_add ([:: [:: (n7 1, n7 2); (n7 2, n7 2)]; [:: (n7 3, n7 2); (n7 4, n7 2)]] : matrix (com F7o)) (([::] : matrix (com F7o)) : matrix (com F7o))) = Some AssertFailed /\
  outcome (cmat_add (([::] : matrix (com F7o)) : matrix (com F7o)) (([::] : matrix (com F7o)) : matrix (com F7o))) = Some IndexOutOfBounds /\
  outcome (cmat_add ([:: [:: (n7 1, n7 2); (n7 2, n7 2)]; [:: (n7 3, n7 2); (n7 4, n7 2)]] : matrix (com F7o)) ([:: [:: (n7 1, n7 2)]; [:: (n7 2, n7 2)]] : matrix (com F7o))) = Some AssertFailed /\
  outcome (cmat_add ([:: [:: (n7 1, n7 2); (n7 2, n7 2)]; [:: (n7 3, n7 2)]] : matrix (com F7o)) ([:: [:: (n7 1, n7 2); (n7 2, n7 2)]; [:: (n7 3, n7 2); (n7 4, n7 2)]] : matrix (com F7o))) = Some IndexOutOfBounds /\
  outcome (cmat_add ([:: [:: (n7 1, n7 2); (n7 2, n7 2)]; [:: (n7 3, n7 2); (n7 4, n7 2)]] : matrix (com F7o)) ([:: [:: (n7 1, n7 2); (n7 2, n7 2)]; [:: (n7 3, n7 2)]] : matrix (com F7o))) = Some IndexOutOfBounds /\
  outcome (cmat_add ([:: [:: (n7 1, n7 2)]; [:: (n7 2, n7 2)]] : matrix (com F7o)) ([:: [:: (n7 1, n7 2)]; [:: (n7 3, n7 2); (n7 5, n7 2)]] : matrix (com F7o))) = None.
Proof. by vm_compute. Qed.

Theorem C67_com_neg : forall (F : fieldType) (G : lmodType F) (A : matrix (com G)), outcome (cmat_neg A) = None.
Proof. move=> F G A; exact: (proj1 (@step_mat_neg _ (0%R : com G) com_neg A)). Qed.
Print Assumptions C67_com_neg.

Example C67_com_neg_case :
  outcome (cmat_neg ([:: [:: (n7 1, n7 2); (n7 2, n7 2)]; [:: (n7 3, n7 2)]] : matrix (com F7o))) = None.
Proof. by vm_compute. Qed.

Theorem C67_com_scalar_mul : forall (F : fieldType) (G : lmodType F) (A : matrix (com G)) (k : F), outcome (cmat_scalar_mul A k) = first_failed (scalar_mul_checks A).
Proof. move=> F G A k; exact: (proj1 (@step_mat_scalar_mul _ _ (0%R : com G) com_scalar_mul A k)). Qed.
Print Assumptions C67_com_scalar_mul.

Example C67_com_scalar_mul_case :
  outcome (cmat_scalar_mul (([::] : matrix (com F7o)) : matrix (com F7o)) (n7 3)) = Some IndexOutOfBounds /\
  outcome (cmat_scalar_mul ([:: [:: (n7 1, n7 2); (n7 2, n7 2)]; [:: (n7 3, n7 2)]] : matrix (com F7o)) (n7 3)) = Some IndexOutOfBounds /\
  outcome (cmat_scalar_mul ([:: [:: (n7 1, n7 2)]; [:: (n7 3, n7 2); (n7 5, n7 2)]] : matrix (com F7o)) (n7 3)) = None.
Proof. by vm_compute. Qed.

Theorem C67_com_transpose : forall (F : fieldType) (G : lmodType F) (A : matrix (com G)), outcome (cmat_transpose A) = first_failed (transpose_checks A).
Proof. move=> F G A; exact: (proj1 (@step_transpose _ (0%R : com G) A)). Qed.
Print Assumptions C67_com_transpose.

Example C67_com_transpose_case :
  outcome (cmat_transpose (([::] : matrix (com F7o)) : matrix (com F7o))) = Some IndexOutOfBounds /\
  outcome (cmat_transpose ([:: [:: (n7 1, n7 2); (n7 2, n7 2)]; [:: (n7 3, n7 2)]] : matrix (com F7o))) = None /\
  outcome (cmat_transpose ([:: [:: (n7 1, n7 2)]; [:: (n7 3, n7 2); (n7 5, n7 2)]] : matrix (com F7o))) = Some IndexOutOfBounds.
Proof. by vm_compute. Qed.

Theorem C67_com_right_mul : forall (F : fieldType) (G : lmodType F) ord (A : matrix (com G)) (L : matrix F) par, valid_ord ord ->
  outcome (cmat_right_mul ord A L par) = first_failed (right_mul_checks A L).
Proof. move=> F G ord A L par vo; exact: (proj1 (@step_right_mul _ _ (0%R : com G) (0%R : F) com_zero com_add com_scalar_mul ord A L par vo)). Qed.
Print Assumptions C67_com_right_mul.

Example C67_com_right_mul_case :
  outcome (cmat_right_mul tasks (([::] : matrix (com F7o)) : matrix (com F7o)) ([:: [:: n7 1; n7 2]; [:: n7 3; n7 4]] : matrix F7) true) = None /\
  outcome (cmat_right_mul tasks ([:: [:: (n7 1, n7 2)]; [:: (n7 2, n7 2)]] : matrix (com F7o)) ([:: [:: n7 1; n7 2]; [:: n7 3; n7 4]] : matrix F7) true) = Some AssertFailed /\
  outcome (cmat_right_mul tasks ([:: [:: (n7 1, n7 2); (n7 2, n7 2)]; [:: (n7 3, n7 2)]] : matrix (com F7o)) ([:: [:: n7 1; n7 2]; [:: n7 3; n7 4]] : matrix F7) true) = Some IndexOutOfBounds /\
  outcome (cmat_right_mul tasks ([:: [:: (n7 1, n7 2); (n7 2, n7 2)]; [:: (n7 3, n7 2); (n7 4, n7 2)]] : matrix (com F7o)) ([:: [:: n7 1; n7 2]; [:: n7 3]] : matrix F7) false) = Some IndexOutOfBounds /\
  outcome (cmat_right_mul tasks ([:: [:: (n7 1, n7 2); (n7 2, n7 2)]; [:: (n7 3, n7 2); (n7 4, n7 2)]] : matrix (com F7o)) ([:: [:: n7 1]; [:: n7 3; n7 5]] : matrix F7) false) = None.
Proof. by vm_compute. Qed.

Theorem C67_com_left_mul : forall (F : fieldType) (G : lmodType F) ord (A : matrix (com G)) (L : matrix F) par, valid_ord ord ->
  outcome (cmat_left_mul ord A L par) = first_failed (left_mul_checks A L).
Proof. move=> F G ord A L par vo; exact: (proj1 (@step_left_mul _ _ (0%R : com G) (0%R : F) com_zero com_add com_scalar_mul ord A L par vo)). Qed.
Print Assumptions C67_com_left_mul.

Example C67_com_left_mul_case :
  outcome (cmat_left_mul tasks ([:: [:: (n7 1, n7 2); (n7 2, n7 2)]; [:: (n7 3, n7 2); (n7 4, n7 2)]] : matrix (com F7o)) ([::] : matrix F7) true) = None /\
  outcome (cmat_left_mul tasks ([:: [:: (n7 1, n7 2); (n7 2, n7 2)]; [:: (n7 3, n7 2); (n7 4, n7 2)]] : matrix (com F7o)) ([:: [:: n7 1]; [:: n7 2]] : matrix F7) true) = Some AssertFailed /\
  outcome (cmat_left_mul tasks ([:: [:: (n7 1, n7 2); (n7 2, n7 2)]; [:: (n7 3, n7 2); (n7 4, n7 2)]] : matrix (com F7o)) ([:: [:: n7 1; n7 2]; [:: n7 3]] : matrix F7) true) = Some IndexOutOfBounds /\
  outcome (cmat_left_mul tasks ([:: [:: (n7 1, n7 2); (n7 2, n7 2)]; [:: (n7 3, n7 2)]] : matrix (com F7o)) ([:: [:: n7 1; n7 2]; [:: n7 3; n7 4]] : matrix F7) false) = Some IndexOutOfBounds /\
  outcome (cmat_left_mul tasks ([:: [:: (n7 1, n7 2)]; [:: (n7 3, n7 2); (n7 5, n7 2)]] : matrix (com F7o)) ([:: [:: n7 1; n7 2]; [:: n7 3; n7 4]] : matrix F7) false) = None.
Proof. by vm_compute. Qed.

(** Flattening a column, and building commitments from matrices. *)
Theorem C67_flatten : forall (T : Type) (A : matrix T), outcome (col_vec_to_vec A) = first_failed (flatten_checks A).
Proof. move=> T A; exact: (proj1 (step_flatten A)). Qed.
Print Assumptions C67_flatten.

Example C67_flatten_case :
  outcome (col_vec_to_vec [:: [:: 1; 2]; [::]]) = Some IndexOutOfBounds /\
  outcome (col_vec_to_vec [:: ([::] : seq nat)]) = None /\
  outcome (col_vec_to_vec ([::] : matrix nat)) = None /\
  outcome (col_vec_to_vec [:: [:: 1]; [:: 2; 3]]) = None.
Proof. by vm_compute. Qed.

Theorem C67_com_from : forall (F : fieldType) (G : lmodType F) (A : matrix G), outcome (com_from A) = first_failed (from_checks 1 A).
Proof. move=> F G A; exact: (proj1 (step_com_from A)). Qed.
Print Assumptions C67_com_from.

Example C67_com_from_case :
  outcome (com_from (G := F7o) [:: [:: n7 1]]) = Some AssertFailed /\
  outcome (com_from (G := F7o) [:: [::]; [:: n7 1]]) = Some AssertFailed /\
  outcome (com_from (G := F7o) [:: [:: n7 1]; [:: n7 2]]) = None.
Proof. by vm_compute. Qed.

Theorem C67_comT_from : forall (E : pairing) (A : matrix (GT E)), outcome (comT_from A) = first_failed (from_checks 2 A).
Proof. move=> E A; exact: (proj1 (step_comT_from A)). Qed.
Print Assumptions C67_comT_from.

Example C67_comT_from_case :
  outcome (comT_from (E := toy) [:: [:: n7 1; n7 2]]) = Some AssertFailed /\
  outcome (comT_from (E := toy) [:: [:: n7 1; n7 2]; [:: n7 1]]) = Some AssertFailed /\
  outcome (comT_from (E := toy) [:: [:: n7 1; n7 2]; [:: n7 3; n7 4]]) = None.
Proof. by vm_compute. Qed.

Theorem C67_pairing_sum : forall (E : pairing) (x : seq (Com1 E)) (y : seq (Com2 E)),
  outcome (comT_pairing_sum x y) = first_failed [:: asserts (size x == size y)].
Proof. move=> E x y; exact: (proj1 (step_pairing_sum x y)). Qed.
Print Assumptions C67_pairing_sum.

Example C67_pairing_sum_case :
  outcome (comT_pairing_sum (crs_u crs0) [::]) = Some AssertFailed /\
  outcome (comT_pairing_sum (crs_u crs0) (crs_v crs0)) = None.
Proof. by vm_compute. Qed.

(** The maps of scalars and targets. *)
Theorem C67_scalar_map1 : forall (E : pairing) (x : Fr E) (crs : CRS E),
  outcome (com1_scalar_linear_map x crs) = first_failed [:: reads (1 < size (crs_u crs))].
Proof. move=> E x crs; exact: (proj1 (step_slm1 x crs)). Qed.
Print Assumptions C67_scalar_map1.

Example C67_scalar_map1_case :
  outcome (com1_scalar_linear_map (n7 3 : Fr toy) (mkCRS (E := toy) (take 1 (crs_u crs0)) (take 1 (crs_v crs0)) (n7 1) (n7 2) (n7 2))) = Some IndexOutOfBounds /\
  outcome (com1_scalar_linear_map (n7 3 : Fr toy) crs0) = None.
Proof. by vm_compute. Qed.

Theorem C67_batch_scalar_map1 : forall (E : pairing) (x : seq (Fr E)) (crs : CRS E),
  outcome (com1_batch_scalar_linear_map x crs) = first_failed [:: reads (nilp x || (1 < size (crs_u crs)))].
Proof. move=> E x crs; exact: (proj1 (step_bslm1 x crs)). Qed.
Print Assumptions C67_batch_scalar_map1.

Example C67_batch_scalar_map1_case :
  outcome (com1_batch_scalar_linear_map (xs0 : seq (Fr toy)) (mkCRS (E := toy) (take 1 (crs_u crs0)) (take 1 (crs_v crs0)) (n7 1) (n7 2) (n7 2))) = Some IndexOutOfBounds /\
  outcome (com1_batch_scalar_linear_map ([::] : seq (Fr toy)) (mkCRS (E := toy) (take 1 (crs_u crs0)) (take 1 (crs_v crs0)) (n7 1) (n7 2) (n7 2))) = None /\
  outcome (com1_batch_scalar_linear_map (xs0 : seq (Fr toy)) crs0) = None.
Proof. by vm_compute. Qed.

Theorem C67_scalar_map2 : forall (E : pairing) (x : Fr E) (crs : CRS E),
  outcome (com2_scalar_linear_map x crs) = first_failed [:: reads (1 < size (crs_v crs))].
Proof. move=> E x crs; exact: (proj1 (step_slm2 x crs)). Qed.
Print Assumptions C67_scalar_map2.

Example C67_scalar_map2_case :
  outcome (com2_scalar_linear_map (n7 3 : Fr toy) (mkCRS (E := toy) (take 1 (crs_u crs0)) (take 1 (crs_v crs0)) (n7 1) (n7 2) (n7 2))) = Some IndexOutOfBounds /\
  outcome (com2_scalar_linear_map (n7 3 : Fr toy) crs0) = None.
Proof. by vm_compute. Qed.

Theorem C67_batch_scalar_map2 : forall (E : pairing) (x : seq (Fr E)) (crs : CRS E),
  outcome (com2_batch_scalar_linear_map x crs) = first_failed [:: reads (nilp x || (1 < size (crs_v crs)))].
Proof. move=> E x crs; exact: (proj1 (step_bslm2 x crs)). Qed.
Print Assumptions C67_batch_scalar_map2.

Example C67_batch_scalar_map2_case :
  outcome (com2_batch_scalar_linear_map (xs0 : seq (Fr toy)) (mkCRS (E := toy) (take 1 (crs_u crs0)) (take 1 (crs_v crs0)) (n7 1) (n7 2) (n7 2))) = Some IndexOutOfBounds /\
  outcome (com2_batch_scalar_linear_map ([::] : seq (Fr toy)) (mkCRS (E := toy) (take 1 (crs_u crs0)) (take 1 (crs_v crs0)) (n7 1) (n7 2) (n7 2))) = None /\
  outcome (com2_batch_scalar_linear_map (xs0 : seq (Fr toy)) crs0) = None.
Proof. by vm_compute. Qed.

Theorem C67_linear_map_MSMEG1 : forall (E : pairing) (z : G1 E) (crs : CRS E),
  outcome (linear_map_MSMEG1 z crs) = first_failed [:: reads (1 < size (crs_v crs))].
Proof. move=> E z crs; exact: (proj1 (step_lmms1 z crs)). Qed.
Print Assumptions C67_linear_map_MSMEG1.

Example C67_linear_map_MSMEG1_case :
  outcome (linear_map_MSMEG1 (E := toy) (n7 3) (mkCRS (E := toy) (take 1 (crs_u crs0)) (take 1 (crs_v crs0)) (n7 1) (n7 2) (n7 2))) = Some IndexOutOfBounds /\
  outcome (linear_map_MSMEG1 (E := toy) (n7 3) crs0) = None.
Proof. by vm_compute. Qed.

Theorem C67_linear_map_MSMEG2 : forall (E : pairing) (z : G2 E) (crs : CRS E),
  outcome (linear_map_MSMEG2 z crs) = first_failed [:: reads (1 < size (crs_u crs))].
Proof. move=> E z crs; exact: (proj1 (step_lmms2 z crs)). Qed.
Print Assumptions C67_linear_map_MSMEG2.

Example C67_linear_map_MSMEG2_case :
  outcome (linear_map_MSMEG2 (E := toy) (n7 3) (mkCRS (E := toy) (take 1 (crs_u crs0)) (take 1 (crs_v crs0)) (n7 1) (n7 2) (n7 2))) = Some IndexOutOfBounds /\
  outcome (linear_map_MSMEG2 (E := toy) (n7 3) crs0) = None.
Proof. by vm_compute. Qed.

Theorem C67_linear_map_quad : forall (E : pairing) (z : Fr E) (crs : CRS E),
  outcome (linear_map_quad z crs) = first_failed [:: reads (1 < size (crs_u crs)); reads (1 < size (crs_v crs))].
Proof. move=> E z crs; exact: (proj1 (step_lmquad z crs)). Qed.
Print Assumptions C67_linear_map_quad.

Example C67_linear_map_quad_case :
  outcome (linear_map_quad (E := toy) (n7 3) (mkCRS (E := toy) (take 1 (crs_u crs0)) (take 1 (crs_v crs0)) (n7 1) (n7 2) (n7 2))) = Some IndexOutOfBounds /\
  outcome (linear_map_quad (E := toy) (n7 3) crs0) = None.
Proof. by vm_compute. Qed.

(** The commitment functions. *)
Theorem C67_append : forall (F : fieldType) (G : lmodType F) (c c' : commit G), outcome (commit_append c c') = first_failed (append_checks c c').
Proof. move=> F G c c'; exact: (proj1 (step_append c c')). Qed.
Print Assumptions C67_append.

Example C67_append_case :
  outcome (commit_append (mkCommit (crs_u crs0) [::]) (mkCommit (crs_u crs0) [:: [::]; [::]])) = Some AssertFailed /\
  outcome (commit_append (mkCommit (crs_u crs0) [:: [::]; [::]]) (mkCommit (crs_u crs0) [::])) = Some AssertFailed /\
  outcome (commit_append (mkCommit (crs_u crs0) [:: [::]; [::]]) (mkCommit (crs_u crs0) [:: [::]; [::]])) = None.
Proof. by vm_compute. Qed.

Theorem C67_commit_G1 : forall (E : pairing) (R : rng E) (x : G1 E) (crs : CRS E) (s : rst R),
  outcome (commit_G1 x crs s) = first_failed (commit_checks (size (crs_u crs))).
Proof. move=> E R x crs s; exact: (proj1 (step_commit_G1 x crs s)). Qed.
Print Assumptions C67_commit_G1.

Example C67_commit_G1_case :
  outcome (commit_G1 (E := toy) (n7 3) (mkCRS (E := toy) (take 1 (crs_u crs0)) (take 1 (crs_v crs0)) (n7 1) (n7 2) (n7 2)) (6 : rst ctr)) = Some IndexOutOfBounds /\
  outcome (commit_G1 (E := toy) (n7 3) crs0 (6 : rst ctr)) = None.
Proof. by vm_compute. Qed.

Theorem C67_batch_commit_G1 : forall (E : pairing) (R : rng E) (X : seq (G1 E)) (crs : CRS E) (s : rst R),
  outcome (batch_commit_G1 X crs s) = first_failed (batch_checks (size (crs_u crs)) (size X)).
Proof. move=> E R X crs s; exact: (proj1 (step_batch_G1 X crs s)). Qed.
Print Assumptions C67_batch_commit_G1.

Example C67_batch_commit_G1_case :
  outcome (batch_commit_G1 (E := toy) xs0 (mkCRS (E := toy) (take 1 (crs_u crs0)) (take 1 (crs_v crs0)) (n7 1) (n7 2) (n7 2)) (6 : rst ctr)) = Some AssertFailed /\
  outcome (batch_commit_G1 (E := toy) [::] (mkCRS (E := toy) (take 1 (crs_u crs0)) (take 1 (crs_v crs0)) (n7 1) (n7 2) (n7 2)) (6 : rst ctr)) = Some IndexOutOfBounds /\
  outcome (batch_commit_G1 (E := toy) xs0 crs0 (6 : rst ctr)) = None.
Proof. by vm_compute. Qed.

Theorem C67_commit_G2 : forall (E : pairing) (R : rng E) (x : G2 E) (crs : CRS E) (s : rst R),
  outcome (commit_G2 x crs s) = first_failed (commit_checks (size (crs_v crs))).
Proof. move=> E R x crs s; exact: (proj1 (step_commit_G2 x crs s)). Qed.
Print Assumptions C67_commit_G2.

Example C67_commit_G2_case :
  outcome (commit_G2 (E := toy) (n7 3) (mkCRS (E := toy) (take 1 (crs_u crs0)) (take 1 (crs_v crs0)) (n7 1) (n7 2) (n7 2)) (6 : rst ctr)) = Some IndexOutOfBounds /\
  outcome (commit_G2 (E := toy) (n7 3) crs0 (6 : rst ctr)) = None.
Proof. by vm_compute. Qed.

Theorem C67_batch_commit_G2 : forall (E : pairing) (R : rng E) (X : seq (G2 E)) (crs : CRS E) (s : rst R),
  outcome (batch_commit_G2 X crs s) = first_failed (batch_checks (size (crs_v crs)) (size X)).
Proof. move=> E R X crs s; exact: (proj1 (step_batch_G2 X crs s)). Qed.
Print Assumptions C67_batch_commit_G2.

Example C67_batch_commit_G2_case :
  outcome (batch_commit_G2 (E := toy) xs0 (mkCRS (E := toy) (take 1 (crs_u crs0)) (take 1 (crs_v crs0)) (n7 1) (n7 2) (n7 2)) (6 : rst ctr)) = Some AssertFailed /\
  outcome (batch_commit_G2 (E := toy) [::] (mkCRS (E := toy) (take 1 (crs_u crs0)) (take 1 (crs_v crs0)) (n7 1) (n7 2) (n7 2)) (6 : rst ctr)) = Some IndexOutOfBounds /\
  outcome (batch_commit_G2 (E := toy) xs0 crs0 (6 : rst ctr)) = None.
Proof. by vm_compute. Qed.

Theorem C67_commit_B1 : forall (E : pairing) (R : rng E) (x : Fr E) (crs : CRS E) (s : rst R),
  outcome (commit_scalar_to_B1 x crs s) = first_failed (commit_checks (size (crs_u crs))).
Proof. move=> E R x crs s; exact: (proj1 (step_commit_B1 x crs s)). Qed.
Print Assumptions C67_commit_B1.

Example C67_commit_B1_case :
  outcome (commit_scalar_to_B1 (E := toy) (n7 3) (mkCRS (E := toy) (take 1 (crs_u crs0)) (take 1 (crs_v crs0)) (n7 1) (n7 2) (n7 2)) (6 : rst ctr)) = Some IndexOutOfBounds /\
  outcome (commit_scalar_to_B1 (E := toy) (n7 3) crs0 (6 : rst ctr)) = None.
Proof. by vm_compute. Qed.

Theorem C67_batch_commit_B1 : forall (E : pairing) (R : rng E) (X : seq (Fr E)) (crs : CRS E) (s : rst R),
  outcome (batch_commit_scalar_to_B1 X crs s) = first_failed (batch_scalar_checks (size (crs_u crs)) (size X)).
Proof. move=> E R X crs s; exact: (proj1 (step_batch_B1 X crs s)). Qed.
Print Assumptions C67_batch_commit_B1.

Example C67_batch_commit_B1_case :
  outcome (batch_commit_scalar_to_B1 (E := toy) xs0 (mkCRS (E := toy) (take 1 (crs_u crs0)) (take 1 (crs_v crs0)) (n7 1) (n7 2) (n7 2)) (6 : rst ctr)) = Some IndexOutOfBounds /\
  outcome (batch_commit_scalar_to_B1 (E := toy) [::] (mkCRS (E := toy) (take 1 (crs_u crs0)) (take 1 (crs_v crs0)) (n7 1) (n7 2) (n7 2)) (6 : rst ctr)) = Some IndexOutOfBounds /\
  outcome (batch_commit_scalar_to_B1 (E := toy) xs0 crs0 (6 : rst ctr)) = None.
Proof. by vm_compute. Qed.

Theorem C67_commit_B2 : forall (E : pairing) (R : rng E) (x : Fr E) (crs : CRS E) (s : rst R),
  outcome (commit_scalar_to_B2 x crs s) = first_failed (commit_checks (size (crs_v crs))).
Proof. move=> E R x crs s; exact: (proj1 (step_commit_B2 x crs s)). Qed.
Print Assumptions C67_commit_B2.

Example C67_commit_B2_case :
  outcome (commit_scalar_to_B2 (E := toy) (n7 3) (mkCRS (E := toy) (take 1 (crs_u crs0)) (take 1 (crs_v crs0)) (n7 1) (n7 2) (n7 2)) (6 : rst ctr)) = Some IndexOutOfBounds /\
  outcome (commit_scalar_to_B2 (E := toy) (n7 3) crs0 (6 : rst ctr)) = None.
Proof. by vm_compute. Qed.

Theorem C67_batch_commit_B2 : forall (E : pairing) (R : rng E) (X : seq (Fr E)) (crs : CRS E) (s : rst R),
  outcome (batch_commit_scalar_to_B2 X crs s) = first_failed (batch_scalar_checks (size (crs_v crs)) (size X)).
Proof. move=> E R X crs s; exact: (proj1 (step_batch_B2 X crs s)). Qed.
Print Assumptions C67_batch_commit_B2.

Example C67_batch_commit_B2_case :
  outcome (batch_commit_scalar_to_B2 (E := toy) xs0 (mkCRS (E := toy) (take 1 (crs_u crs0)) (take 1 (crs_v crs0)) (n7 1) (n7 2) (n7 2)) (6 : rst ctr)) = Some IndexOutOfBounds /\
  outcome (batch_commit_scalar_to_B2 (E := toy) [::] (mkCRS (E := toy) (take 1 (crs_u crs0)) (take 1 (crs_v crs0)) (n7 1) (n7 2) (n7 2)) (6 : rst ctr)) = Some IndexOutOfBounds /\
  outcome (batch_commit_scalar_to_B2 (E := toy) xs0 crs0 (6 : rst ctr)) = None.
Proof. by vm_compute. Qed.

(** The verifier. *)
Theorem C67_ppe_verify : forall (E : pairing) sch (q : PPE E) (p : CProof E) (crs : CRS E), valid_sched sch ->
  outcome (ppe_verify sch q p crs)
  = if equ_proofs p is [:: pf]
    then first_failed (ppe_verify_checks q (size (coms (xcoms p))) (size (coms (ycoms p))) pf crs)
    else Some AssertFailed.
Proof. exact: @ppe_verify_outcome. Qed.
Print Assumptions C67_ppe_verify.

Example C67_ppe_verify_case :
  outcome (ppe_verify bwd ppe0 (mkCProof (xcoms ppe_p0) (ycoms ppe_p0) [::]) crs0) = Some AssertFailed /\
  outcome (ppe_verify bwd ppe0 (mkCProof (xcoms ppe_p0) (ycoms ppe_p0) [:: mkEquProof (pi (pf_of ppe_p0)) (theta (pf_of ppe_p0)) Quadratic [::]]) crs0) = Some AssertFailed /\
  outcome (ppe_verify bwd (mkPPE (E := toy) [::] [:: n7 2; n7 3] gamma0 (n7 1)) ppe_p0 crs0) = Some AssertFailed /\
  outcome (ppe_verify bwd (mkPPE (E := toy) [:: n7 1] [::] gamma0 (n7 1)) ppe_p0 crs0) = Some AssertFailed /\
  outcome (ppe_verify bwd ppe0 ppe_p0 (mkCRS (E := toy) (take 1 (crs_u crs0)) (take 1 (crs_v crs0)) (n7 1) (n7 2) (n7 2))) = Some AssertFailed /\
  outcome (ppe_verify bwd (mkPPE (E := toy) [:: n7 1] [:: n7 2; n7 3] [:: [:: n7 1; n7 2]; [:: n7 1]] (n7 1)) ppe_p0 crs0) = Some AssertFailed /\
  outcome (ppe_verify bwd (mkPPE (E := toy) [:: n7 1] [:: n7 2; n7 3] [:: [:: n7 1]; [::]] (n7 1)) ppe_p0 crs0) = Some IndexOutOfBounds /\
  outcome (ppe_verify bwd (mkPPE (E := toy) [:: n7 1] [:: n7 2; n7 3] [:: [:: n7 1]] (n7 1)) ppe_p0 crs0) = Some AssertFailed /\
  outcome (ppe_verify bwd (mkPPE (E := toy) [:: n7 1] [:: n7 2; n7 3] [::] (n7 1)) ppe_p0 crs0) = Some AssertFailed /\
  outcome (ppe_verify bwd ppe0 (mkCProof (xcoms ppe_p0) (ycoms ppe_p0) [:: mkEquProof [::] (theta (pf_of ppe_p0)) (equ_type (pf_of ppe_p0)) [::]]) crs0) = Some AssertFailed /\
  outcome (ppe_verify bwd ppe0 (mkCProof (xcoms ppe_p0) (ycoms ppe_p0) [:: mkEquProof (pi (pf_of ppe_p0)) [::] (equ_type (pf_of ppe_p0)) [::]]) crs0) = Some AssertFailed /\
  outcome (ppe_verify bwd ppe0 ppe_p0 crs0) = None.
Proof. by vm_compute. Qed.

Theorem C67_ms1_verify : forall (E : pairing) sch (q : MSMEG1 E) (p : CProof E) (crs : CRS E), valid_sched sch ->
  outcome (ms1_verify sch q p crs)
  = if equ_proofs p is [:: pf]
    then first_failed (ms1_verify_checks q (size (coms (xcoms p))) (size (coms (ycoms p))) pf crs)
    else Some AssertFailed.
Proof. exact: @ms1_verify_outcome. Qed.
Print Assumptions C67_ms1_verify.

Example C67_ms1_verify_case :
  outcome (ms1_verify bwd ms10 (mkCProof (xcoms ms1_p0) (ycoms ms1_p0) [::]) crs0) = Some AssertFailed /\
  outcome (ms1_verify bwd ms10 (mkCProof (xcoms ms1_p0) (ycoms ms1_p0) [:: mkEquProof (pi (pf_of ms1_p0)) (theta (pf_of ms1_p0)) PairingProduct [::]]) crs0) = Some AssertFailed /\
  outcome (ms1_verify bwd (mkMSMEG1 (E := toy) [::] [:: n7 2; n7 3] gamma0 (n7 1)) ms1_p0 crs0) = Some AssertFailed /\
  outcome (ms1_verify bwd (mkMSMEG1 (E := toy) [:: n7 1] [::] gamma0 (n7 1)) ms1_p0 crs0) = Some AssertFailed /\
  outcome (ms1_verify bwd ms10 ms1_p0 (mkCRS (E := toy) (take 1 (crs_u crs0)) (take 1 (crs_v crs0)) (n7 1) (n7 2) (n7 2))) = Some IndexOutOfBounds /\
  outcome (ms1_verify bwd (mkMSMEG1 (E := toy) [:: n7 1] [:: n7 2; n7 3] [:: [:: n7 1; n7 2]; [:: n7 1]] (n7 1)) ms1_p0 crs0) = Some AssertFailed /\
  outcome (ms1_verify bwd (mkMSMEG1 (E := toy) [:: n7 1] [:: n7 2; n7 3] [:: [:: n7 1]; [::]] (n7 1)) ms1_p0 crs0) = Some IndexOutOfBounds /\
  outcome (ms1_verify bwd (mkMSMEG1 (E := toy) [:: n7 1] [:: n7 2; n7 3] [:: [:: n7 1]] (n7 1)) ms1_p0 crs0) = Some AssertFailed /\
  outcome (ms1_verify bwd (mkMSMEG1 (E := toy) [:: n7 1] [:: n7 2; n7 3] [::] (n7 1)) ms1_p0 crs0) = Some AssertFailed /\
  outcome (ms1_verify bwd ms10 (mkCProof (xcoms ms1_p0) (ycoms ms1_p0) [:: mkEquProof [::] (theta (pf_of ms1_p0)) (equ_type (pf_of ms1_p0)) [::]]) crs0) = Some AssertFailed /\
  outcome (ms1_verify bwd ms10 (mkCProof (xcoms ms1_p0) (ycoms ms1_p0) [:: mkEquProof (pi (pf_of ms1_p0)) [::] (equ_type (pf_of ms1_p0)) [::]]) crs0) = Some IndexOutOfBounds /\
  outcome (ms1_verify bwd ms10 ms1_p0 crs0) = None.
Proof. by vm_compute. Qed.

Theorem C67_ms2_verify : forall (E : pairing) sch (q : MSMEG2 E) (p : CProof E) (crs : CRS E), valid_sched sch ->
  outcome (ms2_verify sch q p crs)
  = if equ_proofs p is [:: pf]
    then first_failed (ms2_verify_checks q (size (coms (xcoms p))) (size (coms (ycoms p))) pf crs)
    else Some AssertFailed.
Proof. exact: @ms2_verify_outcome. Qed.
Print Assumptions C67_ms2_verify.

Example C67_ms2_verify_case :
  outcome (ms2_verify bwd ms20 (mkCProof (xcoms ms2_p0) (ycoms ms2_p0) [::]) crs0) = Some AssertFailed /\
  outcome (ms2_verify bwd ms20 (mkCProof (xcoms ms2_p0) (ycoms ms2_p0) [:: mkEquProof (pi (pf_of ms2_p0)) (theta (pf_of ms2_p0)) PairingProduct [::]]) crs0) = Some AssertFailed /\
  outcome (ms2_verify bwd (mkMSMEG2 (E := toy) [::] [:: n7 2; n7 3] gamma0 (n7 1)) ms2_p0 crs0) = Some AssertFailed /\
  outcome (ms2_verify bwd (mkMSMEG2 (E := toy) [:: n7 1] [::] gamma0 (n7 1)) ms2_p0 crs0) = Some AssertFailed /\
  outcome (ms2_verify bwd ms20 ms2_p0 (mkCRS (E := toy) (take 1 (crs_u crs0)) (take 1 (crs_v crs0)) (n7 1) (n7 2) (n7 2))) = Some IndexOutOfBounds /\
  outcome (ms2_verify bwd (mkMSMEG2 (E := toy) [:: n7 1] [:: n7 2; n7 3] [:: [:: n7 1; n7 2]; [:: n7 1]] (n7 1)) ms2_p0 crs0) = Some AssertFailed /\
  outcome (ms2_verify bwd (mkMSMEG2 (E := toy) [:: n7 1] [:: n7 2; n7 3] [:: [:: n7 1]; [::]] (n7 1)) ms2_p0 crs0) = Some IndexOutOfBounds /\
  outcome (ms2_verify bwd (mkMSMEG2 (E := toy) [:: n7 1] [:: n7 2; n7 3] [:: [:: n7 1]] (n7 1)) ms2_p0 crs0) = Some AssertFailed /\
  outcome (ms2_verify bwd (mkMSMEG2 (E := toy) [:: n7 1] [:: n7 2; n7 3] [::] (n7 1)) ms2_p0 crs0) = Some AssertFailed /\
  outcome (ms2_verify bwd ms20 (mkCProof (xcoms ms2_p0) (ycoms ms2_p0) [:: mkEquProof [::] (theta (pf_of ms2_p0)) (equ_type (pf_of ms2_p0)) [::]]) crs0) = Some IndexOutOfBounds /\
  outcome (ms2_verify bwd ms20 (mkCProof (xcoms ms2_p0) (ycoms ms2_p0) [:: mkEquProof (pi (pf_of ms2_p0)) [::] (equ_type (pf_of ms2_p0)) [::]]) crs0) = Some AssertFailed /\
  outcome (ms2_verify bwd ms20 ms2_p0 crs0) = None.
Proof. by vm_compute. Qed.

Theorem C67_quad_verify : forall (E : pairing) sch (q : QuadEqu E) (p : CProof E) (crs : CRS E), valid_sched sch ->
  outcome (quad_verify sch q p crs)
  = if equ_proofs p is [:: pf]
    then first_failed (quad_verify_checks q (size (coms (xcoms p))) (size (coms (ycoms p))) pf crs)
    else Some AssertFailed.
Proof. exact: @quad_verify_outcome. Qed.
Print Assumptions C67_quad_verify.

Example C67_quad_verify_case :
  outcome (quad_verify bwd quad0 (mkCProof (xcoms quad_p0) (ycoms quad_p0) [::]) crs0) = Some AssertFailed /\
  outcome (quad_verify bwd quad0 (mkCProof (xcoms quad_p0) (ycoms quad_p0) [:: mkEquProof (pi (pf_of quad_p0)) (theta (pf_of quad_p0)) PairingProduct [::]]) crs0) = Some AssertFailed /\
  outcome (quad_verify bwd (mkQuadEqu (E := toy) [::] [:: n7 2; n7 3] gamma0 (n7 1)) quad_p0 crs0) = Some AssertFailed /\
  outcome (quad_verify bwd (mkQuadEqu (E := toy) [:: n7 1] [::] gamma0 (n7 1)) quad_p0 crs0) = Some AssertFailed /\
  outcome (quad_verify bwd quad0 quad_p0 (mkCRS (E := toy) (take 1 (crs_u crs0)) (take 1 (crs_v crs0)) (n7 1) (n7 2) (n7 2))) = Some IndexOutOfBounds /\
  outcome (quad_verify bwd (mkQuadEqu (E := toy) [:: n7 1] [:: n7 2; n7 3] [:: [:: n7 1; n7 2]; [:: n7 1]] (n7 1)) quad_p0 crs0) = Some AssertFailed /\
  outcome (quad_verify bwd (mkQuadEqu (E := toy) [:: n7 1] [:: n7 2; n7 3] [:: [:: n7 1]; [::]] (n7 1)) quad_p0 crs0) = Some IndexOutOfBounds /\
  outcome (quad_verify bwd (mkQuadEqu (E := toy) [:: n7 1] [:: n7 2; n7 3] [:: [:: n7 1]] (n7 1)) quad_p0 crs0) = Some AssertFailed /\
  outcome (quad_verify bwd (mkQuadEqu (E := toy) [:: n7 1] [:: n7 2; n7 3] [::] (n7 1)) quad_p0 crs0) = Some AssertFailed /\
  outcome (quad_verify bwd quad0 (mkCProof (xcoms quad_p0) (ycoms quad_p0) [:: mkEquProof [::] (theta (pf_of quad_p0)) (equ_type (pf_of quad_p0)) [::]]) crs0) = Some IndexOutOfBounds /\
  outcome (quad_verify bwd quad0 (mkCProof (xcoms quad_p0) (ycoms quad_p0) [:: mkEquProof (pi (pf_of quad_p0)) [::] (equ_type (pf_of quad_p0)) [::]]) crs0) = Some IndexOutOfBounds /\
  outcome (quad_verify bwd quad0 quad_p0 crs0) = None.
Proof. by vm_compute. Qed.

(** The prover. *)
Theorem C67_ppe_prove : forall (E : pairing) (R : rng E) sch (q : PPE E) (X : seq (G1 E)) (Y : seq (G2 E))
    (cx : Commit1 E) (cy : Commit2 E) (crs : CRS E) (s : rst R), valid_sched sch ->
  outcome (ppe_prove sch q X Y cx cy crs s)
  = first_failed (ppe_prove_checks q (size X) (size Y) (crand cx) (crand cy) crs).
Proof. exact: @ppe_prove_outcome. Qed.
Print Assumptions C67_ppe_prove.

Example C67_ppe_prove_case :
  outcome (ppe_prove (E := toy) bwd ppe0 [::] ys0 (xcoms ppe_p0) (ycoms ppe_p0) crs0 (6 : rst ctr)) = Some AssertFailed /\
  outcome (ppe_prove (E := toy) bwd (mkPPE (E := toy) [:: n7 1] [:: n7 2; n7 3] [::] (n7 1)) xs0 ys0 (xcoms ppe_p0) (ycoms ppe_p0) crs0 (6 : rst ctr)) = Some AssertFailed /\
  outcome (ppe_prove (E := toy) bwd (mkPPE (E := toy) [:: n7 1] [:: n7 2; n7 3] [::] (n7 1)) [::] ys0 (mkCommit [::] [::] : Commit1 toy) (ycoms ppe_p0) crs0 (6 : rst ctr)) = Some IndexOutOfBounds /\
  outcome (ppe_prove (E := toy) bwd ppe0 xs0 ys0 (mkCommit [::] [:: [:: n7 1; n7 1; n7 1]; [:: n7 1; n7 1]] : Commit1 toy) (ycoms ppe_p0) crs0 (6 : rst ctr)) = Some AssertFailed /\
  outcome (ppe_prove (E := toy) bwd ppe0 xs0 xs0 (xcoms ppe_p0) (ycoms ppe_p0) crs0 (6 : rst ctr)) = Some AssertFailed /\
  outcome (ppe_prove (E := toy) bwd (mkPPE (E := toy) [:: n7 1] [:: n7 2; n7 3] [:: [::]; [::]] (n7 1)) xs0 ys0 (xcoms ppe_p0) (ycoms ppe_p0) crs0 (6 : rst ctr)) = Some AssertFailed /\
  outcome (ppe_prove (E := toy) bwd (mkPPE (E := toy) [:: n7 1] [:: n7 2; n7 3] [:: [::]; [::]] (n7 1)) xs0 [::] (xcoms ppe_p0) (mkCommit [::] [::] : Commit2 toy) crs0 (6 : rst ctr)) = Some IndexOutOfBounds /\
  outcome (ppe_prove (E := toy) bwd ppe0 xs0 ys0 (xcoms ppe_p0) (mkCommit [::] [:: [:: n7 1; n7 1; n7 1]] : Commit2 toy) crs0 (6 : rst ctr)) = Some AssertFailed /\
  outcome (ppe_prove (E := toy) bwd ppe0 xs0 ys0 (mkCommit [::] [:: [:: n7 1; n7 1]; [:: n7 1; n7 1; n7 1]] : Commit1 toy) (ycoms ppe_p0) crs0 (6 : rst ctr)) = Some IndexOutOfBounds /\
  outcome (ppe_prove (E := toy) bwd ppe0 xs0 ys0 (mkCommit [::] [:: [:: n7 1; n7 1]; [::]] : Commit1 toy) (ycoms ppe_p0) crs0 (6 : rst ctr)) = Some AssertFailed /\
  outcome (ppe_prove (E := toy) bwd ppe0 xs0 ys0 (mkCommit [::] [:: [:: n7 1; n7 1]; [:: n7 1]] : Commit1 toy) (ycoms ppe_p0) crs0 (6 : rst ctr)) = Some IndexOutOfBounds /\
  outcome (ppe_prove (E := toy) bwd (mkPPE (E := toy) [:: n7 1] [::] gamma0 (n7 1)) xs0 ys0 (xcoms ppe_p0) (ycoms ppe_p0) crs0 (6 : rst ctr)) = Some AssertFailed /\
  outcome (ppe_prove (E := toy) bwd (mkPPE (E := toy) [::] [:: n7 2; n7 3] gamma0 (n7 1)) xs0 ys0 (xcoms ppe_p0) (ycoms ppe_p0) crs0 (6 : rst ctr)) = Some AssertFailed /\
  outcome (ppe_prove (E := toy) bwd (mkPPE (E := toy) [:: n7 1] [:: n7 2; n7 3] [:: [:: n7 1]; [::]] (n7 1)) xs0 ys0 (xcoms ppe_p0) (ycoms ppe_p0) crs0 (6 : rst ctr)) = Some IndexOutOfBounds /\
  outcome (ppe_prove (E := toy) bwd (mkPPE (E := toy) [:: n7 1] [:: n7 2; n7 3] [:: [:: n7 1]; [:: n7 1; n7 2]] (n7 1)) xs0 ys0 (xcoms ppe_p0) (ycoms ppe_p0) crs0 (6 : rst ctr)) = Some IndexOutOfBounds /\
  outcome (ppe_prove (E := toy) bwd ppe0 xs0 ys0 (xcoms ppe_p0) (ycoms ppe_p0) (mkCRS (E := toy) (take 1 (crs_u crs0)) (take 1 (crs_v crs0)) (n7 1) (n7 2) (n7 2)) (6 : rst ctr)) = Some AssertFailed /\
  outcome (ppe_prove (E := toy) bwd ppe0 xs0 ys0 (xcoms ppe_p0) (ycoms ppe_p0) crs0 (6 : rst ctr)) = None.
Proof. by vm_compute. Qed.

Theorem C67_ms1_prove : forall (E : pairing) (R : rng E) sch (q : MSMEG1 E) (X : seq (G1 E)) (Y : seq (Fr E))
    (cx : Commit1 E) (cy : Commit2 E) (crs : CRS E) (s : rst R), valid_sched sch ->
  outcome (ms1_prove sch q X Y cx cy crs s)
  = first_failed (ms1_prove_checks q (size X) (size Y) (crand cx) (crand cy) crs).
Proof. exact: @ms1_prove_outcome. Qed.
Print Assumptions C67_ms1_prove.

Example C67_ms1_prove_case :
  outcome (ms1_prove (E := toy) bwd ms10 [::] ys0 (xcoms ms1_p0) (ycoms ms1_p0) crs0 (6 : rst ctr)) = Some AssertFailed /\
  outcome (ms1_prove (E := toy) bwd (mkMSMEG1 (E := toy) [:: n7 1] [:: n7 2; n7 3] [::] (n7 1)) xs0 ys0 (xcoms ms1_p0) (ycoms ms1_p0) crs0 (6 : rst ctr)) = Some AssertFailed /\
  outcome (ms1_prove (E := toy) bwd (mkMSMEG1 (E := toy) [:: n7 1] [:: n7 2; n7 3] [::] (n7 1)) [::] ys0 (mkCommit [::] [::] : Commit1 toy) (ycoms ms1_p0) crs0 (6 : rst ctr)) = Some IndexOutOfBounds /\
  outcome (ms1_prove (E := toy) bwd ms10 xs0 ys0 (mkCommit [::] [:: [:: n7 1; n7 1; n7 1]; [:: n7 1; n7 1]] : Commit1 toy) (ycoms ms1_p0) crs0 (6 : rst ctr)) = Some AssertFailed /\
  outcome (ms1_prove (E := toy) bwd ms10 xs0 xs0 (xcoms ms1_p0) (ycoms ms1_p0) crs0 (6 : rst ctr)) = Some AssertFailed /\
  outcome (ms1_prove (E := toy) bwd (mkMSMEG1 (E := toy) [:: n7 1] [:: n7 2; n7 3] [:: [::]; [::]] (n7 1)) xs0 ys0 (xcoms ms1_p0) (ycoms ms1_p0) crs0 (6 : rst ctr)) = Some AssertFailed /\
  outcome (ms1_prove (E := toy) bwd (mkMSMEG1 (E := toy) [:: n7 1] [:: n7 2; n7 3] [:: [::]; [::]] (n7 1)) xs0 [::] (xcoms ms1_p0) (mkCommit [::] [::] : Commit2 toy) crs0 (6 : rst ctr)) = Some IndexOutOfBounds /\
  outcome (ms1_prove (E := toy) bwd ms10 xs0 ys0 (xcoms ms1_p0) (mkCommit [::] [:: [:: n7 1; n7 1; n7 1]] : Commit2 toy) crs0 (6 : rst ctr)) = Some AssertFailed /\
  outcome (ms1_prove (E := toy) bwd ms10 xs0 ys0 (mkCommit [::] [:: [:: n7 1; n7 1]; [:: n7 1; n7 1; n7 1]] : Commit1 toy) (ycoms ms1_p0) crs0 (6 : rst ctr)) = Some IndexOutOfBounds /\
  outcome (ms1_prove (E := toy) bwd ms10 xs0 ys0 (mkCommit [::] [:: [:: n7 1; n7 1]; [::]] : Commit1 toy) (ycoms ms1_p0) crs0 (6 : rst ctr)) = Some AssertFailed /\
  outcome (ms1_prove (E := toy) bwd ms10 xs0 ys0 (mkCommit [::] [:: [:: n7 1; n7 1]; [:: n7 1]] : Commit1 toy) (ycoms ms1_p0) crs0 (6 : rst ctr)) = Some IndexOutOfBounds /\
  outcome (ms1_prove (E := toy) bwd (mkMSMEG1 (E := toy) [:: n7 1] [::] gamma0 (n7 1)) xs0 ys0 (xcoms ms1_p0) (ycoms ms1_p0) crs0 (6 : rst ctr)) = Some AssertFailed /\
  outcome (ms1_prove (E := toy) bwd (mkMSMEG1 (E := toy) [::] [:: n7 2; n7 3] gamma0 (n7 1)) xs0 ys0 (xcoms ms1_p0) (ycoms ms1_p0) crs0 (6 : rst ctr)) = Some AssertFailed /\
  outcome (ms1_prove (E := toy) bwd (mkMSMEG1 (E := toy) [:: n7 1] [:: n7 2; n7 3] [:: [:: n7 1]; [::]] (n7 1)) xs0 ys0 (xcoms ms1_p0) (ycoms ms1_p0) crs0 (6 : rst ctr)) = Some IndexOutOfBounds /\
  outcome (ms1_prove (E := toy) bwd (mkMSMEG1 (E := toy) [:: n7 1] [:: n7 2; n7 3] [:: [:: n7 1]; [:: n7 1; n7 2]] (n7 1)) xs0 ys0 (xcoms ms1_p0) (ycoms ms1_p0) crs0 (6 : rst ctr)) = Some IndexOutOfBounds /\
  outcome (ms1_prove (E := toy) bwd ms10 xs0 ys0 (xcoms ms1_p0) (ycoms ms1_p0) (mkCRS (E := toy) (take 1 (crs_u crs0)) (take 1 (crs_v crs0)) (n7 1) (n7 2) (n7 2)) (6 : rst ctr)) = Some IndexOutOfBounds /\
  outcome (ms1_prove (E := toy) bwd ms10 xs0 ys0 (xcoms ms1_p0) (ycoms ms1_p0) crs0 (6 : rst ctr)) = None.
Proof. by vm_compute. Qed.

Theorem C67_ms2_prove : forall (E : pairing) (R : rng E) sch (q : MSMEG2 E) (X : seq (Fr E)) (Y : seq (G2 E))
    (cx : Commit1 E) (cy : Commit2 E) (crs : CRS E) (s : rst R), valid_sched sch ->
  outcome (ms2_prove sch q X Y cx cy crs s)
  = first_failed (ms2_prove_checks q (size X) (size Y) (crand cx) (crand cy) crs).
Proof. exact: @ms2_prove_outcome. Qed.
Print Assumptions C67_ms2_prove.

Example C67_ms2_prove_case :
  outcome (ms2_prove (E := toy) bwd ms20 [::] ys0 (xcoms ms2_p0) (ycoms ms2_p0) crs0 (6 : rst ctr)) = Some AssertFailed /\
  outcome (ms2_prove (E := toy) bwd (mkMSMEG2 (E := toy) [:: n7 1] [:: n7 2; n7 3] [::] (n7 1)) xs0 ys0 (xcoms ms2_p0) (ycoms ms2_p0) crs0 (6 : rst ctr)) = Some AssertFailed /\
  outcome (ms2_prove (E := toy) bwd (mkMSMEG2 (E := toy) [:: n7 1] [:: n7 2; n7 3] [::] (n7 1)) [::] ys0 (mkCommit [::] [::] : Commit1 toy) (ycoms ms2_p0) crs0 (6 : rst ctr)) = Some IndexOutOfBounds /\
  outcome (ms2_prove (E := toy) bwd ms20 xs0 ys0 (mkCommit [::] [:: [:: n7 1; n7 1; n7 1]; [:: n7 1]] : Commit1 toy) (ycoms ms2_p0) crs0 (6 : rst ctr)) = Some AssertFailed /\
  outcome (ms2_prove (E := toy) bwd ms20 xs0 xs0 (xcoms ms2_p0) (ycoms ms2_p0) crs0 (6 : rst ctr)) = Some AssertFailed /\
  outcome (ms2_prove (E := toy) bwd (mkMSMEG2 (E := toy) [:: n7 1] [:: n7 2; n7 3] [:: [::]; [::]] (n7 1)) xs0 ys0 (xcoms ms2_p0) (ycoms ms2_p0) crs0 (6 : rst ctr)) = Some AssertFailed /\
  outcome (ms2_prove (E := toy) bwd (mkMSMEG2 (E := toy) [:: n7 1] [:: n7 2; n7 3] [:: [::]; [::]] (n7 1)) xs0 [::] (xcoms ms2_p0) (mkCommit [::] [::] : Commit2 toy) crs0 (6 : rst ctr)) = Some IndexOutOfBounds /\
  outcome (ms2_prove (E := toy) bwd ms20 xs0 ys0 (xcoms ms2_p0) (mkCommit [::] [:: [:: n7 1; n7 1; n7 1]] : Commit2 toy) crs0 (6 : rst ctr)) = Some AssertFailed /\
  outcome (ms2_prove (E := toy) bwd ms20 xs0 ys0 (mkCommit [::] [:: [:: n7 1]; [:: n7 1; n7 1; n7 1]] : Commit1 toy) (ycoms ms2_p0) crs0 (6 : rst ctr)) = Some IndexOutOfBounds /\
  outcome (ms2_prove (E := toy) bwd ms20 xs0 ys0 (mkCommit [::] [:: [:: n7 1]; [::]] : Commit1 toy) (ycoms ms2_p0) crs0 (6 : rst ctr)) = Some AssertFailed /\
  outcome (ms2_prove (E := toy) bwd (mkMSMEG2 (E := toy) [:: n7 1] [::] gamma0 (n7 1)) xs0 ys0 (xcoms ms2_p0) (ycoms ms2_p0) crs0 (6 : rst ctr)) = Some AssertFailed /\
  outcome (ms2_prove (E := toy) bwd (mkMSMEG2 (E := toy) [::] [:: n7 2; n7 3] gamma0 (n7 1)) xs0 ys0 (xcoms ms2_p0) (ycoms ms2_p0) crs0 (6 : rst ctr)) = Some AssertFailed /\
  outcome (ms2_prove (E := toy) bwd (mkMSMEG2 (E := toy) [:: n7 1] [:: n7 2; n7 3] [:: [:: n7 1]; [::]] (n7 1)) xs0 ys0 (xcoms ms2_p0) (ycoms ms2_p0) crs0 (6 : rst ctr)) = Some IndexOutOfBounds /\
  outcome (ms2_prove (E := toy) bwd (mkMSMEG2 (E := toy) [:: n7 1] [:: n7 2; n7 3] [:: [:: n7 1]; [:: n7 1; n7 2]] (n7 1)) xs0 ys0 (xcoms ms2_p0) (ycoms ms2_p0) crs0 (6 : rst ctr)) = Some IndexOutOfBounds /\
  outcome (ms2_prove (E := toy) bwd ms20 xs0 ys0 (xcoms ms2_p0) (ycoms ms2_p0) (mkCRS (E := toy) (take 1 (crs_u crs0)) (take 1 (crs_v crs0)) (n7 1) (n7 2) (n7 2)) (6 : rst ctr)) = Some AssertFailed /\
  outcome (ms2_prove (E := toy) bwd ms20 xs0 ys0 (xcoms ms2_p0) (ycoms ms2_p0) crs0 (6 : rst ctr)) = None.
Proof. by vm_compute. Qed.

Theorem C67_quad_prove : forall (E : pairing) (R : rng E) sch (q : QuadEqu E) (X : seq (Fr E)) (Y : seq (Fr E))
    (cx : Commit1 E) (cy : Commit2 E) (crs : CRS E) (s : rst R), valid_sched sch ->
  outcome (quad_prove sch q X Y cx cy crs s)
  = first_failed (quad_prove_checks q (size X) (size Y) (crand cx) (crand cy) crs).
Proof. exact: @quad_prove_outcome. Qed.
Print Assumptions C67_quad_prove.

Example C67_quad_prove_case :
  outcome (quad_prove (E := toy) bwd quad0 [::] ys0 (xcoms quad_p0) (ycoms quad_p0) crs0 (6 : rst ctr)) = Some AssertFailed /\
  outcome (quad_prove (E := toy) bwd (mkQuadEqu (E := toy) [:: n7 1] [:: n7 2; n7 3] [::] (n7 1)) xs0 ys0 (xcoms quad_p0) (ycoms quad_p0) crs0 (6 : rst ctr)) = Some AssertFailed /\
  outcome (quad_prove (E := toy) bwd (mkQuadEqu (E := toy) [:: n7 1] [:: n7 2; n7 3] [::] (n7 1)) [::] ys0 (mkCommit [::] [::] : Commit1 toy) (ycoms quad_p0) crs0 (6 : rst ctr)) = Some IndexOutOfBounds /\
  outcome (quad_prove (E := toy) bwd quad0 xs0 ys0 (mkCommit [::] [:: [:: n7 1; n7 1; n7 1]; [:: n7 1]] : Commit1 toy) (ycoms quad_p0) crs0 (6 : rst ctr)) = Some AssertFailed /\
  outcome (quad_prove (E := toy) bwd quad0 xs0 xs0 (xcoms quad_p0) (ycoms quad_p0) crs0 (6 : rst ctr)) = Some AssertFailed /\
  outcome (quad_prove (E := toy) bwd (mkQuadEqu (E := toy) [:: n7 1] [:: n7 2; n7 3] [:: [::]; [::]] (n7 1)) xs0 ys0 (xcoms quad_p0) (ycoms quad_p0) crs0 (6 : rst ctr)) = Some AssertFailed /\
  outcome (quad_prove (E := toy) bwd (mkQuadEqu (E := toy) [:: n7 1] [:: n7 2; n7 3] [:: [::]; [::]] (n7 1)) xs0 [::] (xcoms quad_p0) (mkCommit [::] [::] : Commit2 toy) crs0 (6 : rst ctr)) = Some IndexOutOfBounds /\
  outcome (quad_prove (E := toy) bwd quad0 xs0 ys0 (xcoms quad_p0) (mkCommit [::] [:: [:: n7 1; n7 1; n7 1]] : Commit2 toy) crs0 (6 : rst ctr)) = Some AssertFailed /\
  outcome (quad_prove (E := toy) bwd quad0 xs0 ys0 (mkCommit [::] [:: [:: n7 1]; [:: n7 1; n7 1; n7 1]] : Commit1 toy) (ycoms quad_p0) crs0 (6 : rst ctr)) = Some IndexOutOfBounds /\
  outcome (quad_prove (E := toy) bwd quad0 xs0 ys0 (mkCommit [::] [:: [:: n7 1]; [::]] : Commit1 toy) (ycoms quad_p0) crs0 (6 : rst ctr)) = Some AssertFailed /\
  outcome (quad_prove (E := toy) bwd (mkQuadEqu (E := toy) [:: n7 1] [::] gamma0 (n7 1)) xs0 ys0 (xcoms quad_p0) (ycoms quad_p0) crs0 (6 : rst ctr)) = Some AssertFailed /\
  outcome (quad_prove (E := toy) bwd (mkQuadEqu (E := toy) [::] [:: n7 2; n7 3] gamma0 (n7 1)) xs0 ys0 (xcoms quad_p0) (ycoms quad_p0) crs0 (6 : rst ctr)) = Some AssertFailed /\
  outcome (quad_prove (E := toy) bwd (mkQuadEqu (E := toy) [:: n7 1] [:: n7 2; n7 3] [:: [:: n7 1]; [::]] (n7 1)) xs0 ys0 (xcoms quad_p0) (ycoms quad_p0) crs0 (6 : rst ctr)) = Some IndexOutOfBounds /\
  outcome (quad_prove (E := toy) bwd (mkQuadEqu (E := toy) [:: n7 1] [:: n7 2; n7 3] [:: [:: n7 1]; [:: n7 1; n7 2]] (n7 1)) xs0 ys0 (xcoms quad_p0) (ycoms quad_p0) crs0 (6 : rst ctr)) = Some IndexOutOfBounds /\
  outcome (quad_prove (E := toy) bwd quad0 xs0 ys0 (xcoms quad_p0) (ycoms quad_p0) (mkCRS (E := toy) (take 1 (crs_u crs0)) (take 1 (crs_v crs0)) (n7 1) (n7 2) (n7 2)) (6 : rst ctr)) = Some IndexOutOfBounds /\
  outcome (quad_prove (E := toy) bwd quad0 xs0 ys0 (xcoms quad_p0) (ycoms quad_p0) crs0 (6 : rst ctr)) = None.
Proof. by vm_compute. Qed.

Theorem C67_ppe_commit_and_prove : forall (E : pairing) (R : rng E) sch (q : PPE E) (X : seq (G1 E)) (Y : seq (G2 E))
    (crs : CRS E) (s : rst R), valid_sched sch ->
  outcome (ppe_commit_and_prove sch q X Y crs s) = first_failed (ppe_cap_checks q (size X) (size Y) crs).
Proof. exact: @ppe_cap_outcome. Qed.
Print Assumptions C67_ppe_commit_and_prove.

Example C67_ppe_commit_and_prove_case :
  outcome (ppe_commit_and_prove (E := toy) bwd ppe0 xs0 ys0 (mkCRS (E := toy) (take 1 (crs_u crs0)) (take 1 (crs_v crs0)) (n7 1) (n7 2) (n7 2)) (6 : rst ctr)) = Some AssertFailed /\
  outcome (ppe_commit_and_prove (E := toy) bwd ppe0 [::] ys0 crs0 (6 : rst ctr)) = Some IndexOutOfBounds /\
  outcome (ppe_commit_and_prove (E := toy) bwd ppe0 xs0 [::] crs0 (6 : rst ctr)) = Some IndexOutOfBounds /\
  outcome (ppe_commit_and_prove (E := toy) bwd ppe0 ys0 ys0 crs0 (6 : rst ctr)) = Some AssertFailed /\
  outcome (ppe_commit_and_prove (E := toy) bwd ppe0 xs0 xs0 crs0 (6 : rst ctr)) = Some AssertFailed /\
  outcome (ppe_commit_and_prove (E := toy) bwd (mkPPE (E := toy) [:: n7 1] [::] gamma0 (n7 1)) xs0 ys0 crs0 (6 : rst ctr)) = Some AssertFailed /\
  outcome (ppe_commit_and_prove (E := toy) bwd (mkPPE (E := toy) [::] [:: n7 2; n7 3] gamma0 (n7 1)) xs0 ys0 crs0 (6 : rst ctr)) = Some AssertFailed /\
  outcome (ppe_commit_and_prove (E := toy) bwd (mkPPE (E := toy) xs0 [:: n7 2; n7 3] gamma0 (n7 1)) xs0 ys0 crs0 (6 : rst ctr)) = Some AssertFailed /\
  outcome (ppe_commit_and_prove (E := toy) bwd (mkPPE (E := toy) [:: n7 1] [:: n7 2; n7 3] [:: [:: n7 1]; [::]] (n7 1)) xs0 ys0 crs0 (6 : rst ctr)) = Some IndexOutOfBounds /\
  outcome (ppe_commit_and_prove (E := toy) bwd (mkPPE (E := toy) [:: n7 1] [:: n7 2; n7 3] [:: [:: n7 1]; [:: n7 1; n7 2]] (n7 1)) xs0 ys0 crs0 (6 : rst ctr)) = Some IndexOutOfBounds /\
  outcome (ppe_commit_and_prove (E := toy) bwd ppe0 xs0 ys0 crs0 (6 : rst ctr)) = None.
Proof. by vm_compute. Qed.

Theorem C67_ms1_commit_and_prove : forall (E : pairing) (R : rng E) sch (q : MSMEG1 E) (X : seq (G1 E)) (Y : seq (Fr E))
    (crs : CRS E) (s : rst R), valid_sched sch ->
  outcome (ms1_commit_and_prove sch q X Y crs s) = first_failed (ms1_cap_checks q (size X) (size Y) crs).
Proof. exact: @ms1_cap_outcome. Qed.
Print Assumptions C67_ms1_commit_and_prove.

Example C67_ms1_commit_and_prove_case :
  outcome (ms1_commit_and_prove (E := toy) bwd ms10 xs0 ys0 (mkCRS (E := toy) (take 1 (crs_u crs0)) (take 1 (crs_v crs0)) (n7 1) (n7 2) (n7 2)) (6 : rst ctr)) = Some AssertFailed /\
  outcome (ms1_commit_and_prove (E := toy) bwd ms10 [::] ys0 crs0 (6 : rst ctr)) = Some IndexOutOfBounds /\
  outcome (ms1_commit_and_prove (E := toy) bwd ms10 xs0 [::] crs0 (6 : rst ctr)) = Some IndexOutOfBounds /\
  outcome (ms1_commit_and_prove (E := toy) bwd ms10 ys0 ys0 crs0 (6 : rst ctr)) = Some AssertFailed /\
  outcome (ms1_commit_and_prove (E := toy) bwd ms10 xs0 xs0 crs0 (6 : rst ctr)) = Some AssertFailed /\
  outcome (ms1_commit_and_prove (E := toy) bwd (mkMSMEG1 (E := toy) [:: n7 1] [::] gamma0 (n7 1)) xs0 ys0 crs0 (6 : rst ctr)) = Some AssertFailed /\
  outcome (ms1_commit_and_prove (E := toy) bwd (mkMSMEG1 (E := toy) [::] [:: n7 2; n7 3] gamma0 (n7 1)) xs0 ys0 crs0 (6 : rst ctr)) = Some AssertFailed /\
  outcome (ms1_commit_and_prove (E := toy) bwd (mkMSMEG1 (E := toy) xs0 [:: n7 2; n7 3] gamma0 (n7 1)) xs0 ys0 crs0 (6 : rst ctr)) = Some AssertFailed /\
  outcome (ms1_commit_and_prove (E := toy) bwd (mkMSMEG1 (E := toy) [:: n7 1] [:: n7 2; n7 3] [:: [:: n7 1]; [::]] (n7 1)) xs0 ys0 crs0 (6 : rst ctr)) = Some IndexOutOfBounds /\
  outcome (ms1_commit_and_prove (E := toy) bwd (mkMSMEG1 (E := toy) [:: n7 1] [:: n7 2; n7 3] [:: [:: n7 1]; [:: n7 1; n7 2]] (n7 1)) xs0 ys0 crs0 (6 : rst ctr)) = Some IndexOutOfBounds /\
  outcome (ms1_commit_and_prove (E := toy) bwd ms10 xs0 ys0 crs0 (6 : rst ctr)) = None.
Proof. by vm_compute. Qed.

Theorem C67_ms2_commit_and_prove : forall (E : pairing) (R : rng E) sch (q : MSMEG2 E) (X : seq (Fr E)) (Y : seq (G2 E))
    (crs : CRS E) (s : rst R), valid_sched sch ->
  outcome (ms2_commit_and_prove sch q X Y crs s) = first_failed (ms2_cap_checks q (size X) (size Y) crs).
Proof. exact: @ms2_cap_outcome. Qed.
Print Assumptions C67_ms2_commit_and_prove.

Example C67_ms2_commit_and_prove_case :
  outcome (ms2_commit_and_prove (E := toy) bwd ms20 xs0 ys0 (mkCRS (E := toy) (take 1 (crs_u crs0)) (take 1 (crs_v crs0)) (n7 1) (n7 2) (n7 2)) (6 : rst ctr)) = Some IndexOutOfBounds /\
  outcome (ms2_commit_and_prove (E := toy) bwd ms20 [::] ys0 crs0 (6 : rst ctr)) = Some IndexOutOfBounds /\
  outcome (ms2_commit_and_prove (E := toy) bwd ms20 xs0 [::] crs0 (6 : rst ctr)) = Some IndexOutOfBounds /\
  outcome (ms2_commit_and_prove (E := toy) bwd ms20 ys0 ys0 crs0 (6 : rst ctr)) = Some AssertFailed /\
  outcome (ms2_commit_and_prove (E := toy) bwd ms20 xs0 xs0 crs0 (6 : rst ctr)) = Some AssertFailed /\
  outcome (ms2_commit_and_prove (E := toy) bwd (mkMSMEG2 (E := toy) [:: n7 1] [::] gamma0 (n7 1)) xs0 ys0 crs0 (6 : rst ctr)) = Some AssertFailed /\
  outcome (ms2_commit_and_prove (E := toy) bwd (mkMSMEG2 (E := toy) [::] [:: n7 2; n7 3] gamma0 (n7 1)) xs0 ys0 crs0 (6 : rst ctr)) = Some AssertFailed /\
  outcome (ms2_commit_and_prove (E := toy) bwd (mkMSMEG2 (E := toy) xs0 [:: n7 2; n7 3] gamma0 (n7 1)) xs0 ys0 crs0 (6 : rst ctr)) = Some AssertFailed /\
  outcome (ms2_commit_and_prove (E := toy) bwd (mkMSMEG2 (E := toy) [:: n7 1] [:: n7 2; n7 3] [:: [:: n7 1]; [::]] (n7 1)) xs0 ys0 crs0 (6 : rst ctr)) = Some IndexOutOfBounds /\
  outcome (ms2_commit_and_prove (E := toy) bwd (mkMSMEG2 (E := toy) [:: n7 1] [:: n7 2; n7 3] [:: [:: n7 1]; [:: n7 1; n7 2]] (n7 1)) xs0 ys0 crs0 (6 : rst ctr)) = Some IndexOutOfBounds /\
  outcome (ms2_commit_and_prove (E := toy) bwd ms20 xs0 ys0 crs0 (6 : rst ctr)) = None.
Proof. by vm_compute. Qed.

Theorem C67_quad_commit_and_prove : forall (E : pairing) (R : rng E) sch (q : QuadEqu E) (X : seq (Fr E)) (Y : seq (Fr E))
    (crs : CRS E) (s : rst R), valid_sched sch ->
  outcome (quad_commit_and_prove sch q X Y crs s) = first_failed (quad_cap_checks q (size X) (size Y) crs).
Proof. exact: @quad_cap_outcome. Qed.
Print Assumptions C67_quad_commit_and_prove.

Example C67_quad_commit_and_prove_case :
  outcome (quad_commit_and_prove (E := toy) bwd quad0 xs0 ys0 (mkCRS (E := toy) (take 1 (crs_u crs0)) (take 1 (crs_v crs0)) (n7 1) (n7 2) (n7 2)) (6 : rst ctr)) = Some IndexOutOfBounds /\
  outcome (quad_commit_and_prove (E := toy) bwd quad0 [::] ys0 crs0 (6 : rst ctr)) = Some IndexOutOfBounds /\
  outcome (quad_commit_and_prove (E := toy) bwd quad0 xs0 [::] crs0 (6 : rst ctr)) = Some IndexOutOfBounds /\
  outcome (quad_commit_and_prove (E := toy) bwd quad0 ys0 ys0 crs0 (6 : rst ctr)) = Some AssertFailed /\
  outcome (quad_commit_and_prove (E := toy) bwd quad0 xs0 xs0 crs0 (6 : rst ctr)) = Some AssertFailed /\
  outcome (quad_commit_and_prove (E := toy) bwd (mkQuadEqu (E := toy) [:: n7 1] [::] gamma0 (n7 1)) xs0 ys0 crs0 (6 : rst ctr)) = Some AssertFailed /\
  outcome (quad_commit_and_prove (E := toy) bwd (mkQuadEqu (E := toy) [::] [:: n7 2; n7 3] gamma0 (n7 1)) xs0 ys0 crs0 (6 : rst ctr)) = Some AssertFailed /\
  outcome (quad_commit_and_prove (E := toy) bwd (mkQuadEqu (E := toy) xs0 [:: n7 2; n7 3] gamma0 (n7 1)) xs0 ys0 crs0 (6 : rst ctr)) = Some AssertFailed /\
  outcome (quad_commit_and_prove (E := toy) bwd (mkQuadEqu (E := toy) [:: n7 1] [:: n7 2; n7 3] [:: [:: n7 1]; [::]] (n7 1)) xs0 ys0 crs0 (6 : rst ctr)) = Some IndexOutOfBounds /\
  outcome (quad_commit_and_prove (E := toy) bwd (mkQuadEqu (E := toy) [:: n7 1] [:: n7 2; n7 3] [:: [:: n7 1]; [:: n7 1; n7 2]] (n7 1)) xs0 ys0 crs0 (6 : rst ctr)) = Some IndexOutOfBounds /\
  outcome (quad_commit_and_prove (E := toy) bwd quad0 xs0 ys0 crs0 (6 : rst ctr)) = None.
Proof. by vm_compute. Qed.

