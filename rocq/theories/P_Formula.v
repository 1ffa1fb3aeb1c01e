(** Property C69: every function in closed form: for every input, the checks it runs in
    program order and the value it returns if they pass (SpecFormula.v). *)
From mathcomp Require Import all_ssreflect all_algebra.
From Verif Require Import Base BaseLemmas Group DataStructures Generator Commit Statement Prove Verify Spec SpecMat SpecVerify SpecPanic SpecFormula FormulaLemmas FormulaProps Concrete Concrete2.
Set Implicit Arguments.
Unset Strict Implicit.
Unset Printing Implicit Defensive.
Import GRing.Theory.
Local Open Scope ring_scope.

(** ** Scalar matrices *)
Theorem C69_field_add : forall (F : fieldType) (A B : matrix F), fmat_add A B = checked (add_checks A B) (sum_value A B).
Proof. exact: @fadd_total. Qed.
Print Assumptions C69_field_add.

Example C69_field_add_case :
  (if fmat_add ([:: [:: n7 1]; [:: n7 2]] : matrix F7) ([:: [:: n7 1]; [:: n7 3; n7 5]] : matrix F7) is Ok r
   then (r : matrix F7) == [:: [:: n7 2]; [:: n7 5]]
   else false) = true /\
  (if fmat_add ([:: [:: n7 1; n7 2]; [:: n7 3; n7 4]] : matrix F7) ([:: [:: n7 1; n7 2]; [:: n7 3; n7 4]] : matrix F7) is Ok r
   then (r : matrix F7) == [:: [:: n7 2; n7 4]; [:: n7 6; n7 1]]
   else false) = true /\
  (if fmat_add ([::] : matrix F7) ([::] : matrix F7) is Panic p then Some p else None) = Some IndexOutOfBounds /\
  (if fmat_add ([:: [:: n7 1; n7 2]; [:: n7 3; n7 4]] : matrix F7) ([:: [:: n7 1]; [:: n7 2]] : matrix F7) is Panic p then Some p else None) = Some AssertFailed.
Proof. by vm_compute. Qed.

Theorem C69_field_neg : forall (F : fieldType) (A : matrix F), fmat_neg A = Ok (neg_value A).
Proof. exact: @fneg_total. Qed.
Print Assumptions C69_field_neg.

Example C69_field_neg_case :
  (if fmat_neg ([:: [:: n7 1; n7 2]; [:: n7 3]] : matrix F7) is Ok r
   then (r : matrix F7) == [:: [:: n7 6; n7 5]; [:: n7 4]]
   else false) = true.
Proof. by vm_compute. Qed.

Theorem C69_field_scalar_mul : forall (F : fieldType) (A : matrix F) (k : F), fmat_scalar_mul A k = checked (scalar_mul_checks A) (fscaled_value A k).
Proof. exact: @fscalar_total. Qed.
Print Assumptions C69_field_scalar_mul.

Example C69_field_scalar_mul_case :
  (if fmat_scalar_mul ([:: [:: n7 1]; [:: n7 3; n7 5]] : matrix F7) (n7 3) is Ok r
   then (r : matrix F7) == [:: [:: n7 3]; [:: n7 2]]
   else false) = true /\
  (if fmat_scalar_mul ([:: [:: n7 1; n7 2]; [:: n7 3]] : matrix F7) (n7 3) is Panic p then Some p else None) = Some IndexOutOfBounds.
Proof. by vm_compute. Qed.

Theorem C69_field_transpose : forall (F : fieldType) (A : matrix F), fmat_transpose A = checked (transpose_checks A) (transposed_value A).
Proof. move=> *; exact: @transpose_total. Qed.
Print Assumptions C69_field_transpose.

Example C69_field_transpose_case :
  (if fmat_transpose ([:: [:: n7 1; n7 2]; [:: n7 3]] : matrix F7) is Ok r
   then (r : matrix F7) == [:: [:: n7 1; n7 3]; [:: n7 2]]
   else false) = true /\
  (if fmat_transpose ([:: [:: n7 1]; [:: n7 3; n7 5]] : matrix F7) is Panic p then Some p else None) = Some IndexOutOfBounds /\
  (if fmat_transpose ([:: [:: n7 1]; [:: n7 2]] : matrix F7) is Ok r
   then (r : matrix F7) == [:: [:: n7 1; n7 2]]
   else false) = true.
Proof. by vm_compute. Qed.

Theorem C69_field_right_mul : forall (F : fieldType) ord (A : matrix F) (L : matrix F) par, valid_ord ord ->
  fmat_right_mul ord A L par = checked (right_mul_checks A L) (fright_value A L).
Proof. exact: @fright_total. Qed.
Print Assumptions C69_field_right_mul.

Example C69_field_right_mul_case :
  (if fmat_right_mul tasks ([:: [:: n7 1; n7 2]; [:: n7 3; n7 4]] : matrix F7) ([:: [:: n7 1]; [:: n7 3; n7 5]] : matrix F7) true is Ok r
   then (r : matrix F7) == [:: [:: n7 0]; [:: n7 1]]
   else false) = true /\
  (if fmat_right_mul tasks ([:: [:: n7 1; n7 2]; [:: n7 3; n7 4]] : matrix F7) ([:: [:: n7 1; n7 2]; [:: n7 3]] : matrix F7) false is Panic p then Some p else None) = Some IndexOutOfBounds /\
  (if fmat_right_mul tasks ([::] : matrix F7) ([:: [:: n7 1; n7 2]; [:: n7 3; n7 4]] : matrix F7) true is Ok r
   then (r : matrix F7) == [::]
   else false) = true.
Proof. by vm_compute. Qed.

Theorem C69_field_left_mul : forall (F : fieldType) ord (A : matrix F) (L : matrix F) par, valid_ord ord ->
  fmat_left_mul ord A L par = checked (left_mul_checks A L) (fleft_value A L).
Proof. exact: @fleft_total. Qed.
Print Assumptions C69_field_left_mul.

Example C69_field_left_mul_case :
  (if fmat_left_mul tasks ([:: [:: n7 1]; [:: n7 3; n7 5]] : matrix F7) ([:: [:: n7 1; n7 2]; [:: n7 3; n7 4]] : matrix F7) true is Ok r
   then (r : matrix F7) == [:: [:: n7 0]; [:: n7 1]]
   else false) = true /\
  (if fmat_left_mul tasks ([:: [:: n7 1; n7 2]; [:: n7 3]] : matrix F7) ([:: [:: n7 1; n7 2]; [:: n7 3; n7 4]] : matrix F7) false is Panic p then Some p else None) = Some IndexOutOfBounds /\
  (if fmat_left_mul tasks ([:: [:: n7 1; n7 2]; [:: n7 3; n7 4]] : matrix F7) ([::] : matrix F7) true is Ok r
   then (r : matrix F7) == [::]
   else false) = true.
Proof. by vm_compute. Qed.

(** ** Matrices of commitments *)
Theorem C69_com_add : forall (F : fieldType) (G : lmodType F) (A B : matrix (com G)), cmat_add A B = checked (add_checks A B) (sum_value A B).
Proof. exact: @cadd_total. Qed.
Print Assumptions C69_com_add.

Example C69_com_add_case :
  (if cmat_add ([:: [:: (n7 1, n7 2)]; [:: (n7 2, n7 2)]] : matrix (com F7o)) ([:: [:: (n7 1, n7 2)]; [:: (n7 3, n7 2); (n7 5, n7 2)]] : matrix (com F7o)) is Ok r
   then (r : matrix (F7 * F7)) == [:: [:: (n7 2, n7 4)]; [:: (n7 5, n7 4)]]
   else false) = true /\
  (if cmat_add ([:: [:: (n7 1, n7 2); (n7 2, n7 2)]; [:: (n7 3, n7 2); (n7 4, n7 2)]] : matrix (com F7o)) ([:: [:: (n7 1, n7 2); (n7 2, n7 2)]; [:: (n7 3, n7 2); (n7 4, n7 2)]] : matrix (com F7o)) is Ok r
   then (r : matrix (F7 * F7)) == [:: [:: (n7 2, n7 4); (n7 4, n7 4)]; [:: (n7 6, n7 4); (n7 1, n7 4)]]
   else false) = true /\
  (if cmat_add ([::] : matrix (com F7o)) ([::] : matrix (com F7o)) is Panic p then Some p else None) = Some IndexOutOfBounds /\
  (if cmat_add ([:: [:: (n7 1, n7 2); (n7 2, n7 2)]; [:: (n7 3, n7 2); (n7 4, n7 2)]] : matrix (com F7o)) ([:: [:: (n7 1, n7 2)]; [:: (n7 2, n7 2)]] : matrix (com F7o)) is Panic p then Some p else None) = Some AssertFailed.
Proof. by vm_compute. Qed.

Theorem C69_com_neg : forall (F : fieldType) (G : lmodType F) (A : matrix (com G)), cmat_neg A = Ok (neg_value A).
Proof. exact: @cneg_total. Qed.
Print Assumptions C69_com_neg.

Example C69_com_neg_case :
  (if cmat_neg ([:: [:: (n7 1, n7 2); (n7 2, n7 2)]; [:: (n7 3, n7 2)]] : matrix (com F7o)) is Ok r
   then (r : matrix (F7 * F7)) == [:: [:: (n7 6, n7 5); (n7 5, n7 5)]; [:: (n7 4, n7 5)]]
   else false) = true.
Proof. by vm_compute. Qed.

Theorem C69_com_scalar_mul : forall (F : fieldType) (G : lmodType F) (A : matrix (com G)) (k : F), cmat_scalar_mul A k = checked (scalar_mul_checks A) (scaled_value A k).
Proof. exact: @cscalar_total. Qed.
Print Assumptions C69_com_scalar_mul.

Example C69_com_scalar_mul_case :
  (if cmat_scalar_mul ([:: [:: (n7 1, n7 2)]; [:: (n7 3, n7 2); (n7 5, n7 2)]] : matrix (com F7o)) (n7 3) is Ok r
   then (r : matrix (F7 * F7)) == [:: [:: (n7 3, n7 6)]; [:: (n7 2, n7 6)]]
   else false) = true /\
  (if cmat_scalar_mul ([:: [:: (n7 1, n7 2); (n7 2, n7 2)]; [:: (n7 3, n7 2)]] : matrix (com F7o)) (n7 3) is Panic p then Some p else None) = Some IndexOutOfBounds.
Proof. by vm_compute. Qed.

Theorem C69_com_transpose : forall (F : fieldType) (G : lmodType F) (A : matrix (com G)), cmat_transpose A = checked (transpose_checks A) (transposed_value A).
Proof. move=> *; exact: @transpose_total. Qed.
Print Assumptions C69_com_transpose.

Example C69_com_transpose_case :
  (if cmat_transpose ([:: [:: (n7 1, n7 2); (n7 2, n7 2)]; [:: (n7 3, n7 2)]] : matrix (com F7o)) is Ok r
   then (r : matrix (F7 * F7)) == [:: [:: (n7 1, n7 2); (n7 3, n7 2)]; [:: (n7 2, n7 2)]]
   else false) = true /\
  (if cmat_transpose ([:: [:: (n7 1, n7 2)]; [:: (n7 3, n7 2); (n7 5, n7 2)]] : matrix (com F7o)) is Panic p then Some p else None) = Some IndexOutOfBounds /\
  (if cmat_transpose ([:: [:: (n7 1, n7 2)]; [:: (n7 2, n7 2)]] : matrix (com F7o)) is Ok r
   then (r : matrix (F7 * F7)) == [:: [:: (n7 1, n7 2); (n7 2, n7 2)]]
   else false) = true.
Proof. by vm_compute. Qed.

Theorem C69_com_right_mul : forall (F : fieldType) (G : lmodType F) ord (A : matrix (com G)) (L : matrix F) par, valid_ord ord ->
  cmat_right_mul ord A L par = checked (right_mul_checks A L) (right_value A L).
Proof. exact: @cright_total. Qed.
Print Assumptions C69_com_right_mul.

Example C69_com_right_mul_case :
  (if cmat_right_mul tasks ([:: [:: (n7 1, n7 2); (n7 2, n7 2)]; [:: (n7 3, n7 2); (n7 4, n7 2)]] : matrix (com F7o)) ([:: [:: n7 1]; [:: n7 3; n7 5]] : matrix F7) true is Ok r
   then (r : matrix (F7 * F7)) == [:: [:: (n7 0, n7 1)]; [:: (n7 1, n7 1)]]
   else false) = true /\
  (if cmat_right_mul tasks ([:: [:: (n7 1, n7 2); (n7 2, n7 2)]; [:: (n7 3, n7 2); (n7 4, n7 2)]] : matrix (com F7o)) ([:: [:: n7 1; n7 2]; [:: n7 3]] : matrix F7) false is Panic p then Some p else None) = Some IndexOutOfBounds /\
  (if cmat_right_mul tasks ([::] : matrix (com F7o)) ([:: [:: n7 1; n7 2]; [:: n7 3; n7 4]] : matrix F7) true is Ok r
   then (r : matrix (F7 * F7)) == [::]
   else false) = true.
Proof. by vm_compute. Qed.

Theorem C69_com_left_mul : forall (F : fieldType) (G : lmodType F) ord (A : matrix (com G)) (L : matrix F) par, valid_ord ord ->
  cmat_left_mul ord A L par = checked (left_mul_checks A L) (left_value A L).
Proof. exact: @cleft_total. Qed.
Print Assumptions C69_com_left_mul.

Example C69_com_left_mul_case :
  (if cmat_left_mul tasks ([:: [:: (n7 1, n7 2)]; [:: (n7 3, n7 2); (n7 5, n7 2)]] : matrix (com F7o)) ([:: [:: n7 1; n7 2]; [:: n7 3; n7 4]] : matrix F7) true is Ok r
   then (r : matrix (F7 * F7)) == [:: [:: (n7 0, n7 6)]; [:: (n7 1, n7 0)]]
   else false) = true /\
  (if cmat_left_mul tasks ([:: [:: (n7 1, n7 2); (n7 2, n7 2)]; [:: (n7 3, n7 2)]] : matrix (com F7o)) ([:: [:: n7 1; n7 2]; [:: n7 3; n7 4]] : matrix F7) false is Panic p then Some p else None) = Some IndexOutOfBounds /\
  (if cmat_left_mul tasks ([:: [:: (n7 1, n7 2); (n7 2, n7 2)]; [:: (n7 3, n7 2); (n7 4, n7 2)]] : matrix (com F7o)) ([::] : matrix F7) true is Ok r
   then (r : matrix (F7 * F7)) == [::]
   else false) = true.
Proof. by vm_compute. Qed.

(** ** Conversions *)
Theorem C69_flatten : forall (T : Type) (A : matrix T), col_vec_to_vec A = checked (flatten_checks A) (flat_value A).
Proof. exact: @flat_total. Qed.
Print Assumptions C69_flatten.

Example C69_flatten_case :
  (if col_vec_to_vec [:: [:: 1%N]; [:: 2%N; 3%N]] is Ok r
   then r == [:: 1; 2]%N
   else false) = true /\
  (if col_vec_to_vec [:: [:: 1%N; 2%N]] is Ok r
   then r == [:: 1; 2]%N
   else false) = true /\
  (if col_vec_to_vec [:: [:: 1%N; 2%N]; [::]] is Panic p then Some p else None) = Some IndexOutOfBounds.
Proof. by vm_compute. Qed.

Theorem C69_com_from : forall (F : fieldType) (G : lmodType F) (A : matrix G), com_from A = checked (from_checks 1 A) (at_ A 0 0, at_ A 1 0).
Proof. exact: @com_from_total. Qed.
Print Assumptions C69_com_from.

Example C69_com_from_case :
  (if com_from (G := F7o) [:: [:: n7 1]; [:: n7 2]] is Ok r
   then (r : F7 * F7) == (n7 1, n7 2)
   else false) = true /\
  (if com_from (G := F7o) [:: [:: n7 1]] is Panic p then Some p else None) = Some AssertFailed.
Proof. by vm_compute. Qed.

Theorem C69_comT_from : forall (E : pairing) (A : matrix (GT E)),
  comT_from A = checked (from_checks 2 A) ((at_ A 0 0, at_ A 0 1), (at_ A 1 0, at_ A 1 1)).
Proof. exact: @comT_from_total. Qed.
Print Assumptions C69_comT_from.

Example C69_comT_from_case :
  (if comT_from (E := toy) [:: [:: n7 1; n7 2]; [:: n7 3; n7 4]] is Ok r
   then (r : (F7 * F7) * (F7 * F7)) == (n7 1, n7 2, (n7 3, n7 4))
   else false) = true /\
  (if comT_from (E := toy) [:: [:: n7 1; n7 2]; [:: n7 1]] is Panic p then Some p else None) = Some AssertFailed.
Proof. by vm_compute. Qed.

(** ** The maps into the commitment spaces *)
Theorem C69_pairing_sum : forall (E : pairing) (x : seq (Com1 E)) (y : seq (Com2 E)),
  comT_pairing_sum x y = checked [:: asserts (size x == size y)] (\sum_(i < size x) pairT (nth 0 x i) (nth 0 y i)).
Proof. exact: @pairing_sum_total. Qed.
Print Assumptions C69_pairing_sum.

Example C69_pairing_sum_case :
  (if comT_pairing_sum (crs_u crs0) (crs_v crs0) is Ok r
   then (r : (F7 * F7) * (F7 * F7)) == (n7 0, n7 0, (n7 0, n7 0))
   else false) = true /\
  (if comT_pairing_sum (crs_u crs0) [::] is Panic p then Some p else None) = Some AssertFailed.
Proof. by vm_compute. Qed.

Theorem C69_scalar_map1 : forall (E : pairing) (x : Fr E) (crs : CRS E),
  com1_scalar_linear_map x crs = checked [:: reads (1 < size (crs_u crs))%N] (k1 crs x).
Proof. exact: @slm1_total. Qed.
Print Assumptions C69_scalar_map1.

Example C69_scalar_map1_case :
  (if com1_scalar_linear_map (n7 3 : Fr toy) crs0 is Ok r
   then (r : F7 * F7) == (n7 5, n7 6)
   else false) = true /\
  (if com1_scalar_linear_map (n7 3 : Fr toy) (mkCRS (E := toy) (take 1 (crs_u crs0)) (take 1 (crs_v crs0)) (n7 1) (n7 2) (n7 2)) is Panic p then Some p else None) = Some IndexOutOfBounds.
Proof. by vm_compute. Qed.

Theorem C69_batch_scalar_map1 : forall (E : pairing) (x : seq (Fr E)) (crs : CRS E),
  com1_batch_scalar_linear_map x crs
  = checked [:: reads (nilp x || (1 < size (crs_u crs))%N)] [seq k1 crs z | z <- x].
Proof. exact: @bslm1_total. Qed.
Print Assumptions C69_batch_scalar_map1.

Example C69_batch_scalar_map1_case :
  (if com1_batch_scalar_linear_map (xs0 : seq (Fr toy)) crs0 is Ok r
   then (r : seq (F7 * F7)) == [:: (n7 5, n7 6); (n7 6, n7 3)]
   else false) = true /\
  (if com1_batch_scalar_linear_map ([::] : seq (Fr toy)) (mkCRS (E := toy) (take 1 (crs_u crs0)) (take 1 (crs_v crs0)) (n7 1) (n7 2) (n7 2)) is Ok r
   then (r : seq (F7 * F7)) == [::]
   else false) = true /\
  (if com1_batch_scalar_linear_map (xs0 : seq (Fr toy)) (mkCRS (E := toy) (take 1 (crs_u crs0)) (take 1 (crs_v crs0)) (n7 1) (n7 2) (n7 2)) is Panic p then Some p else None) = Some IndexOutOfBounds.
Proof. by vm_compute. Qed.

Theorem C69_scalar_map2 : forall (E : pairing) (x : Fr E) (crs : CRS E),
  com2_scalar_linear_map x crs = checked [:: reads (1 < size (crs_v crs))%N] (k2 crs x).
Proof. exact: @slm2_total. Qed.
Print Assumptions C69_scalar_map2.

Example C69_scalar_map2_case :
  (if com2_scalar_linear_map (n7 3 : Fr toy) crs0 is Ok r
   then (r : F7 * F7) == (n7 2, n7 5)
   else false) = true /\
  (if com2_scalar_linear_map (n7 3 : Fr toy) (mkCRS (E := toy) (take 1 (crs_u crs0)) (take 1 (crs_v crs0)) (n7 1) (n7 2) (n7 2)) is Panic p then Some p else None) = Some IndexOutOfBounds.
Proof. by vm_compute. Qed.

Theorem C69_batch_scalar_map2 : forall (E : pairing) (x : seq (Fr E)) (crs : CRS E),
  com2_batch_scalar_linear_map x crs
  = checked [:: reads (nilp x || (1 < size (crs_v crs))%N)] [seq k2 crs z | z <- x].
Proof. exact: @bslm2_total. Qed.
Print Assumptions C69_batch_scalar_map2.

Example C69_batch_scalar_map2_case :
  (if com2_batch_scalar_linear_map (xs0 : seq (Fr toy)) crs0 is Ok r
   then (r : seq (F7 * F7)) == [:: (n7 2, n7 5); (n7 1, n7 6)]
   else false) = true /\
  (if com2_batch_scalar_linear_map ([::] : seq (Fr toy)) (mkCRS (E := toy) (take 1 (crs_u crs0)) (take 1 (crs_v crs0)) (n7 1) (n7 2) (n7 2)) is Ok r
   then (r : seq (F7 * F7)) == [::]
   else false) = true /\
  (if com2_batch_scalar_linear_map (xs0 : seq (Fr toy)) (mkCRS (E := toy) (take 1 (crs_u crs0)) (take 1 (crs_v crs0)) (n7 1) (n7 2) (n7 2)) is Panic p then Some p else None) = Some IndexOutOfBounds.
Proof. by vm_compute. Qed.

Theorem C69_linear_map_MSMEG1 : forall (E : pairing) (z : G1 E) (crs : CRS E),
  linear_map_MSMEG1 z crs = checked [:: reads (1 < size (crs_v crs))%N] (pairT (i1 z) (one2 crs)).
Proof. exact: @lmms1_total. Qed.
Print Assumptions C69_linear_map_MSMEG1.

Example C69_linear_map_MSMEG1_case :
  (if linear_map_MSMEG1 (E := toy) (n7 3) crs0 is Ok r
   then (r : (F7 * F7) * (F7 * F7)) == (n7 0, n7 0, (n7 2, n7 5))
   else false) = true /\
  (if linear_map_MSMEG1 (E := toy) (n7 3) (mkCRS (E := toy) (take 1 (crs_u crs0)) (take 1 (crs_v crs0)) (n7 1) (n7 2) (n7 2)) is Panic p then Some p else None) = Some IndexOutOfBounds.
Proof. by vm_compute. Qed.

Theorem C69_linear_map_MSMEG2 : forall (E : pairing) (z : G2 E) (crs : CRS E),
  linear_map_MSMEG2 z crs = checked [:: reads (1 < size (crs_u crs))%N] (pairT (one1 crs) (i2 z)).
Proof. exact: @lmms2_total. Qed.
Print Assumptions C69_linear_map_MSMEG2.

Example C69_linear_map_MSMEG2_case :
  (if linear_map_MSMEG2 (E := toy) (n7 3) crs0 is Ok r
   then (r : (F7 * F7) * (F7 * F7)) == (n7 0, n7 5, (n7 0, n7 6))
   else false) = true /\
  (if linear_map_MSMEG2 (E := toy) (n7 3) (mkCRS (E := toy) (take 1 (crs_u crs0)) (take 1 (crs_v crs0)) (n7 1) (n7 2) (n7 2)) is Panic p then Some p else None) = Some IndexOutOfBounds.
Proof. by vm_compute. Qed.

Theorem C69_linear_map_quad : forall (E : pairing) (z : Fr E) (crs : CRS E),
  linear_map_quad z crs = checked [:: reads (1 < size (crs_u crs))%N; reads (1 < size (crs_v crs))%N] (pairT (one1 crs) (k2 crs z)).
Proof. exact: @lmquad_total. Qed.
Print Assumptions C69_linear_map_quad.

Example C69_linear_map_quad_case :
  (if linear_map_quad (E := toy) (n7 3) crs0 is Ok r
   then (r : (F7 * F7) * (F7 * F7)) == (n7 1, n7 6, (n7 4, n7 3))
   else false) = true /\
  (if linear_map_quad (E := toy) (n7 3) (mkCRS (E := toy) (take 1 (crs_u crs0)) (take 1 (crs_v crs0)) (n7 1) (n7 2) (n7 2)) is Panic p then Some p else None) = Some IndexOutOfBounds.
Proof. by vm_compute. Qed.

(** ** Commitments *)
Theorem C69_append : forall (F : fieldType) (G : lmodType F) (c c' : commit G),
  commit_append c c'
  = checked (append_checks c c') (mkCommit (coms c ++ coms c') (crand c ++ crand c'), mkCommit [::] [::]).
Proof. exact: @append_total. Qed.
Print Assumptions C69_append.

Example C69_append_case :
  (if commit_append (mkCommit (crs_u crs0) [:: [:: n7 1]; [::]]) (mkCommit (crs_v crs0) [:: [:: n7 2]; [:: n7 3]]) is Ok r
   then [&& (coms r.1 : seq (F7 * F7)) == [:: (n7 1, n7 2); (n7 4, n7 1); (n7 2, n7 6); (n7 3, n7 2)],
        (crand r.1 : matrix F7) == [:: [:: n7 1]; [::]; [:: n7 2]; [:: n7 3]],
        (coms r.2 : seq (F7 * F7)) == [::] &
        (crand r.2 : matrix F7) == [::]]
   else false) = true /\
  (if commit_append (mkCommit (crs_u crs0) [::]) (mkCommit (crs_u crs0) [:: [::]; [::]]) is Panic p then Some p else None) = Some AssertFailed.
Proof. by vm_compute. Qed.

Theorem C69_commit_G1 : forall (E : pairing) (R : rng E) (x : G1 E) (crs : CRS E) (s : rst R),
  commit_G1 x crs s
  = checked (commit_checks (size (crs_u crs))) (commit_value 2 (crs_u crs) [:: i1 x] (fun i l => drawn s (2 * i + l)%N), after 2 s).
Proof. exact: @commit_G1_total. Qed.
Print Assumptions C69_commit_G1.

Example C69_commit_G1_case :
  (if commit_G1 (E := toy) (n7 3) crs0 (6%N : rst ctr) is Ok r
   then [&& (coms r.1 : seq (F7 * F7)) == [:: (n7 6, n7 1)],
        (crand r.1 : matrix F7) == [:: [:: n7 6; n7 0]] &
        r.2 == 8%N]
   else false) = true /\
  (if commit_G1 (E := toy) (n7 3) (mkCRS (E := toy) (take 1 (crs_u crs0)) (take 1 (crs_v crs0)) (n7 1) (n7 2) (n7 2)) (6%N : rst ctr) is Panic p then Some p else None) = Some IndexOutOfBounds.
Proof. by vm_compute. Qed.

Theorem C69_batch_commit_G1 : forall (E : pairing) (R : rng E) (X : seq (G1 E)) (crs : CRS E) (s : rst R),
  batch_commit_G1 X crs s
  = checked (batch_checks (size (crs_u crs)) (size X))
      (commit_value 2 (crs_u crs) [seq i1 x | x <- X] (fun i l => drawn s (2 * i + l)%N), after (2 * size X)%N s).
Proof. exact: @batch_commit_G1_total. Qed.
Print Assumptions C69_batch_commit_G1.

Example C69_batch_commit_G1_case :
  (if batch_commit_G1 (E := toy) xs0 crs0 (6%N : rst ctr) is Ok r
   then [&& (coms r.1 : seq (F7 * F7)) == [:: (n7 6, n7 1); (n7 2, n7 2)],
        (crand r.1 : matrix F7) == [:: [:: n7 6; n7 0]; [:: n7 1; n7 2]] &
        r.2 == 10%N]
   else false) = true /\
  (if batch_commit_G1 (E := toy) [::] crs0 (6%N : rst ctr) is Panic p then Some p else None) = Some IndexOutOfBounds /\
  (if batch_commit_G1 (E := toy) xs0 (mkCRS (E := toy) (take 1 (crs_u crs0)) (take 1 (crs_v crs0)) (n7 1) (n7 2) (n7 2)) (6%N : rst ctr) is Panic p then Some p else None) = Some AssertFailed.
Proof. by vm_compute. Qed.

Theorem C69_commit_B1 : forall (E : pairing) (R : rng E) (x : Fr E) (crs : CRS E) (s : rst R),
  commit_scalar_to_B1 x crs s
  = checked (commit_checks (size (crs_u crs))) (commit_value 1 (crs_u crs) [:: k1 crs x] (fun i l => drawn s i), after 1 s).
Proof. exact: @commit_scalar_to_B1_total. Qed.
Print Assumptions C69_commit_B1.

Example C69_commit_B1_case :
  (if commit_scalar_to_B1 (E := toy) (n7 3) crs0 (6%N : rst ctr) is Ok r
   then [&& (coms r.1 : seq (F7 * F7)) == [:: (n7 4, n7 4)],
        (crand r.1 : matrix F7) == [:: [:: n7 6]] &
        r.2 == 7%N]
   else false) = true /\
  (if commit_scalar_to_B1 (E := toy) (n7 3) (mkCRS (E := toy) (take 1 (crs_u crs0)) (take 1 (crs_v crs0)) (n7 1) (n7 2) (n7 2)) (6%N : rst ctr) is Panic p then Some p else None) = Some IndexOutOfBounds.
Proof. by vm_compute. Qed.

Theorem C69_batch_commit_B1 : forall (E : pairing) (R : rng E) (X : seq (Fr E)) (crs : CRS E) (s : rst R),
  batch_commit_scalar_to_B1 X crs s
  = checked (batch_scalar_checks (size (crs_u crs)) (size X))
      (commit_value 1 (crs_u crs) [seq k1 crs x | x <- X] (fun i l => drawn s i), after (size X) s).
Proof. exact: @batch_commit_scalar_to_B1_total. Qed.
Print Assumptions C69_batch_commit_B1.

Example C69_batch_commit_B1_case :
  (if batch_commit_scalar_to_B1 (E := toy) xs0 crs0 (6%N : rst ctr) is Ok r
   then [&& (coms r.1 : seq (F7 * F7)) == [:: (n7 4, n7 4); (n7 6, n7 3)],
        (crand r.1 : matrix F7) == [:: [:: n7 6]; [:: n7 0]] &
        r.2 == 8%N]
   else false) = true /\
  (if batch_commit_scalar_to_B1 (E := toy) [::] crs0 (6%N : rst ctr) is Panic p then Some p else None) = Some IndexOutOfBounds /\
  (if batch_commit_scalar_to_B1 (E := toy) xs0 (mkCRS (E := toy) (take 1 (crs_u crs0)) (take 1 (crs_v crs0)) (n7 1) (n7 2) (n7 2)) (6%N : rst ctr) is Panic p then Some p else None) = Some IndexOutOfBounds.
Proof. by vm_compute. Qed.

Theorem C69_commit_G2 : forall (E : pairing) (R : rng E) (x : G2 E) (crs : CRS E) (s : rst R),
  commit_G2 x crs s
  = checked (commit_checks (size (crs_v crs))) (commit_value 2 (crs_v crs) [:: i2 x] (fun i l => drawn s (2 * i + l)%N), after 2 s).
Proof. exact: @commit_G2_total. Qed.
Print Assumptions C69_commit_G2.

Example C69_commit_G2_case :
  (if commit_G2 (E := toy) (n7 3) crs0 (6%N : rst ctr) is Ok r
   then [&& (coms r.1 : seq (F7 * F7)) == [:: (n7 5, n7 4)],
        (crand r.1 : matrix F7) == [:: [:: n7 6; n7 0]] &
        r.2 == 8%N]
   else false) = true /\
  (if commit_G2 (E := toy) (n7 3) (mkCRS (E := toy) (take 1 (crs_u crs0)) (take 1 (crs_v crs0)) (n7 1) (n7 2) (n7 2)) (6%N : rst ctr) is Panic p then Some p else None) = Some IndexOutOfBounds.
Proof. by vm_compute. Qed.

Theorem C69_batch_commit_G2 : forall (E : pairing) (R : rng E) (X : seq (G2 E)) (crs : CRS E) (s : rst R),
  batch_commit_G2 X crs s
  = checked (batch_checks (size (crs_v crs)) (size X))
      (commit_value 2 (crs_v crs) [seq i2 x | x <- X] (fun i l => drawn s (2 * i + l)%N), after (2 * size X)%N s).
Proof. exact: @batch_commit_G2_total. Qed.
Print Assumptions C69_batch_commit_G2.

Example C69_batch_commit_G2_case :
  (if batch_commit_G2 (E := toy) xs0 crs0 (6%N : rst ctr) is Ok r
   then [&& (coms r.1 : seq (F7 * F7)) == [:: (n7 5, n7 4); (n7 1, n7 1)],
        (crand r.1 : matrix F7) == [:: [:: n7 6; n7 0]; [:: n7 1; n7 2]] &
        r.2 == 10%N]
   else false) = true /\
  (if batch_commit_G2 (E := toy) [::] crs0 (6%N : rst ctr) is Panic p then Some p else None) = Some IndexOutOfBounds /\
  (if batch_commit_G2 (E := toy) xs0 (mkCRS (E := toy) (take 1 (crs_u crs0)) (take 1 (crs_v crs0)) (n7 1) (n7 2) (n7 2)) (6%N : rst ctr) is Panic p then Some p else None) = Some AssertFailed.
Proof. by vm_compute. Qed.

Theorem C69_commit_B2 : forall (E : pairing) (R : rng E) (x : Fr E) (crs : CRS E) (s : rst R),
  commit_scalar_to_B2 x crs s
  = checked (commit_checks (size (crs_v crs))) (commit_value 1 (crs_v crs) [:: k2 crs x] (fun i l => drawn s i), after 1 s).
Proof. exact: @commit_scalar_to_B2_total. Qed.
Print Assumptions C69_commit_B2.

Example C69_commit_B2_case :
  (if commit_scalar_to_B2 (E := toy) (n7 3) crs0 (6%N : rst ctr) is Ok r
   then [&& (coms r.1 : seq (F7 * F7)) == [:: (n7 0, n7 6)],
        (crand r.1 : matrix F7) == [:: [:: n7 6]] &
        r.2 == 7%N]
   else false) = true /\
  (if commit_scalar_to_B2 (E := toy) (n7 3) (mkCRS (E := toy) (take 1 (crs_u crs0)) (take 1 (crs_v crs0)) (n7 1) (n7 2) (n7 2)) (6%N : rst ctr) is Panic p then Some p else None) = Some IndexOutOfBounds.
Proof. by vm_compute. Qed.

Theorem C69_batch_commit_B2 : forall (E : pairing) (R : rng E) (X : seq (Fr E)) (crs : CRS E) (s : rst R),
  batch_commit_scalar_to_B2 X crs s
  = checked (batch_scalar_checks (size (crs_v crs)) (size X))
      (commit_value 1 (crs_v crs) [seq k2 crs x | x <- X] (fun i l => drawn s i), after (size X) s).
Proof. exact: @batch_commit_scalar_to_B2_total. Qed.
Print Assumptions C69_batch_commit_B2.

Example C69_batch_commit_B2_case :
  (if batch_commit_scalar_to_B2 (E := toy) xs0 crs0 (6%N : rst ctr) is Ok r
   then [&& (coms r.1 : seq (F7 * F7)) == [:: (n7 0, n7 6); (n7 1, n7 6)],
        (crand r.1 : matrix F7) == [:: [:: n7 6]; [:: n7 0]] &
        r.2 == 8%N]
   else false) = true /\
  (if batch_commit_scalar_to_B2 (E := toy) [::] crs0 (6%N : rst ctr) is Panic p then Some p else None) = Some IndexOutOfBounds /\
  (if batch_commit_scalar_to_B2 (E := toy) xs0 (mkCRS (E := toy) (take 1 (crs_u crs0)) (take 1 (crs_v crs0)) (n7 1) (n7 2) (n7 2)) (6%N : rst ctr) is Panic p then Some p else None) = Some IndexOutOfBounds.
Proof. by vm_compute. Qed.

(** ** Verification *)
Theorem C69_ppe_verify : forall (E : pairing) sch (q : PPE E) (p : CProof E) (crs : CRS E), valid_sched sch ->
  ppe_verify sch q p crs
  = if equ_proofs p is [:: pf]
    then checked (ppe_verify_checks q (size (coms (xcoms p))) (size (coms (ycoms p))) pf crs)
           (verify_value [seq i1 x | x <- ppe_a q] [seq i2 y | y <- ppe_b q] (ppe_gamma q) p (((0, 0), (0, ppe_target q)) : ComT E) crs pf (size (crs_u crs)) (size (crs_v crs)))
    else Panic AssertFailed.
Proof. exact: @ppe_verify_total. Qed.
Print Assumptions C69_ppe_verify.

Example C69_ppe_verify_case :
  (if ppe_verify (E := toy) bwd ppe0 ppe_p0 crs0 is Ok r
   then r == true
   else false) = true /\
  (if ppe_verify (E := toy) bwd ppe0 ppe_p2 crs0 is Ok r
   then r == false
   else false) = true /\
  (if ppe_verify (E := toy) bwd ppe0 ppe_p0 (mkCRS (E := toy) (take 1 (crs_u crs0)) (take 1 (crs_v crs0)) (n7 1) (n7 2) (n7 2)) is Panic p then Some p else None) = Some AssertFailed.
Proof. by vm_compute. Qed.

Theorem C69_ms1_verify : forall (E : pairing) sch (q : MSMEG1 E) (p : CProof E) (crs : CRS E), valid_sched sch ->
  ms1_verify sch q p crs
  = if equ_proofs p is [:: pf]
    then checked (ms1_verify_checks q (size (coms (xcoms p))) (size (coms (ycoms p))) pf crs)
           (verify_value [seq i1 x | x <- ms1_a q] [seq k2 crs y | y <- ms1_b q] (ms1_gamma q) p (pairT (i1 (ms1_target q)) (one2 crs)) crs pf (size (crs_u crs)) 1)
    else Panic AssertFailed.
Proof. exact: @ms1_verify_total. Qed.
Print Assumptions C69_ms1_verify.

Example C69_ms1_verify_case :
  (if ms1_verify (E := toy) bwd ms10 ms1_p0 crs0 is Ok r
   then r == true
   else false) = true /\
  (if ms1_verify (E := toy) bwd ms10 ms1_p2 crs0 is Ok r
   then r == false
   else false) = true /\
  (if ms1_verify (E := toy) bwd ms10 ms1_p0 (mkCRS (E := toy) (take 1 (crs_u crs0)) (take 1 (crs_v crs0)) (n7 1) (n7 2) (n7 2)) is Panic p then Some p else None) = Some IndexOutOfBounds.
Proof. by vm_compute. Qed.

Theorem C69_ms2_verify : forall (E : pairing) sch (q : MSMEG2 E) (p : CProof E) (crs : CRS E), valid_sched sch ->
  ms2_verify sch q p crs
  = if equ_proofs p is [:: pf]
    then checked (ms2_verify_checks q (size (coms (xcoms p))) (size (coms (ycoms p))) pf crs)
           (verify_value [seq k1 crs x | x <- ms2_a q] [seq i2 y | y <- ms2_b q] (ms2_gamma q) p (pairT (one1 crs) (i2 (ms2_target q))) crs pf 1 (size (crs_v crs)))
    else Panic AssertFailed.
Proof. exact: @ms2_verify_total. Qed.
Print Assumptions C69_ms2_verify.

Example C69_ms2_verify_case :
  (if ms2_verify (E := toy) bwd ms20 ms2_p0 crs0 is Ok r
   then r == true
   else false) = true /\
  (if ms2_verify (E := toy) bwd ms20 ms2_p2 crs0 is Ok r
   then r == false
   else false) = true /\
  (if ms2_verify (E := toy) bwd ms20 ms2_p0 (mkCRS (E := toy) (take 1 (crs_u crs0)) (take 1 (crs_v crs0)) (n7 1) (n7 2) (n7 2)) is Panic p then Some p else None) = Some IndexOutOfBounds.
Proof. by vm_compute. Qed.

Theorem C69_quad_verify : forall (E : pairing) sch (q : QuadEqu E) (p : CProof E) (crs : CRS E), valid_sched sch ->
  quad_verify sch q p crs
  = if equ_proofs p is [:: pf]
    then checked (quad_verify_checks q (size (coms (xcoms p))) (size (coms (ycoms p))) pf crs)
           (verify_value [seq k1 crs x | x <- quad_a q] [seq k2 crs y | y <- quad_b q] (quad_gamma q) p (pairT (one1 crs) (k2 crs (quad_target q))) crs pf 1 1)
    else Panic AssertFailed.
Proof. exact: @quad_verify_total. Qed.
Print Assumptions C69_quad_verify.

Example C69_quad_verify_case :
  (if quad_verify (E := toy) bwd quad0 quad_p0 crs0 is Ok r
   then r == true
   else false) = true /\
  (if quad_verify (E := toy) bwd quad0 quad_p2 crs0 is Ok r
   then r == false
   else false) = true /\
  (if quad_verify (E := toy) bwd quad0 quad_p0 (mkCRS (E := toy) (take 1 (crs_u crs0)) (take 1 (crs_v crs0)) (n7 1) (n7 2) (n7 2)) is Panic p then Some p else None) = Some IndexOutOfBounds.
Proof. by vm_compute. Qed.

(** ** Proofs *)
Theorem C69_ppe_prove : forall (E : pairing) (R : rng E) sch (q : PPE E) (X : seq (G1 E)) (Y : seq (G2 E)) (cx : Commit1 E) (cy : Commit2 E) (crs : CRS E) (s : rst R), valid_sched sch ->
  ppe_prove sch q X Y cx cy crs s
  = checked (ppe_prove_checks q (size X) (size Y) (crand cx) (crand cy) crs)
      (prove_value (size X) (size Y) 2 2 [seq i1 x | x <- ppe_a q] [seq i1 x | x <- X]
         [seq i2 y | y <- ppe_b q] [seq i2 y | y <- Y] (ppe_gamma q) (crand cx) (crand cy)
         (table 2 2 (fun i j => drawn s (2 * i + j)%N)) crs PairingProduct, after 4 s).
Proof. exact: @ppe_prove_total. Qed.
Print Assumptions C69_ppe_prove.

Example C69_ppe_prove_case :
  (if ppe_prove (E := toy) bwd ppe0 xs0 ys0 (xcoms ppe_p0) (ycoms ppe_p0) crs0 (6%N : rst ctr) is Ok r
   then [&& (pi r.1 : seq (F7 * F7)) == [:: (n7 1, n7 6); (n7 0, n7 5)],
        (theta r.1 : seq (F7 * F7)) == [:: (n7 6, n7 4); (n7 2, n7 5)],
        (pf_rand r.1 : matrix F7) == [:: [:: n7 6; n7 0]; [:: n7 1; n7 2]] &
        r.2 == 10%N]
   else false) = true /\
  (if ppe_prove (E := toy) bwd ppe0 ys0 ys0 (xcoms ppe_p0) (ycoms ppe_p0) crs0 (6%N : rst ctr) is Panic p then Some p else None) = Some AssertFailed.
Proof. by vm_compute. Qed.

Theorem C69_ms1_prove : forall (E : pairing) (R : rng E) sch (q : MSMEG1 E) (X : seq (G1 E)) (Y : seq (Fr E)) (cx : Commit1 E) (cy : Commit2 E) (crs : CRS E) (s : rst R), valid_sched sch ->
  ms1_prove sch q X Y cx cy crs s
  = checked (ms1_prove_checks q (size X) (size Y) (crand cx) (crand cy) crs)
      (prove_value (size X) (size Y) 2 1 [seq i1 x | x <- ms1_a q] [seq i1 x | x <- X]
         [seq k2 crs y | y <- ms1_b q] [seq k2 crs y | y <- Y] (ms1_gamma q) (crand cx) (crand cy)
         (table 1 2 (fun i j => drawn s j)) crs MultiScalarG1, after 2 s).
Proof. exact: @ms1_prove_total. Qed.
Print Assumptions C69_ms1_prove.

Example C69_ms1_prove_case :
  (if ms1_prove (E := toy) bwd ms10 xs0 ys0 (xcoms ms1_p0) (ycoms ms1_p0) crs0 (6%N : rst ctr) is Ok r
   then [&& (pi r.1 : seq (F7 * F7)) == [:: (n7 0, n7 6); (n7 3, n7 5)],
        (theta r.1 : seq (F7 * F7)) == [:: (n7 6, n7 4)],
        (pf_rand r.1 : matrix F7) == [:: [:: n7 6; n7 0]] &
        r.2 == 8%N]
   else false) = true /\
  (if ms1_prove (E := toy) bwd ms10 ys0 ys0 (xcoms ms1_p0) (ycoms ms1_p0) crs0 (6%N : rst ctr) is Panic p then Some p else None) = Some AssertFailed.
Proof. by vm_compute. Qed.

Theorem C69_ms2_prove : forall (E : pairing) (R : rng E) sch (q : MSMEG2 E) (X : seq (Fr E)) (Y : seq (G2 E)) (cx : Commit1 E) (cy : Commit2 E) (crs : CRS E) (s : rst R), valid_sched sch ->
  ms2_prove sch q X Y cx cy crs s
  = checked (ms2_prove_checks q (size X) (size Y) (crand cx) (crand cy) crs)
      (prove_value (size X) (size Y) 1 2 [seq k1 crs x | x <- ms2_a q] [seq k1 crs x | x <- X]
         [seq i2 y | y <- ms2_b q] [seq i2 y | y <- Y] (ms2_gamma q) (crand cx) (crand cy)
         (table 2 1 (fun i j => drawn s i)) crs MultiScalarG2, after 2 s).
Proof. exact: @ms2_prove_total. Qed.
Print Assumptions C69_ms2_prove.

Example C69_ms2_prove_case :
  (if ms2_prove (E := toy) bwd ms20 xs0 ys0 (xcoms ms2_p0) (ycoms ms2_p0) crs0 (6%N : rst ctr) is Ok r
   then [&& (pi r.1 : seq (F7 * F7)) == [:: (n7 0, n7 4)],
        (theta r.1 : seq (F7 * F7)) == [:: (n7 0, n7 2); (n7 2, n7 1)],
        (pf_rand r.1 : matrix F7) == [:: [:: n7 6]; [:: n7 0]] &
        r.2 == 8%N]
   else false) = true /\
  (if ms2_prove (E := toy) bwd ms20 ys0 ys0 (xcoms ms2_p0) (ycoms ms2_p0) crs0 (6%N : rst ctr) is Panic p then Some p else None) = Some AssertFailed.
Proof. by vm_compute. Qed.

Theorem C69_quad_prove : forall (E : pairing) (R : rng E) sch (q : QuadEqu E) (X : seq (Fr E)) (Y : seq (Fr E)) (cx : Commit1 E) (cy : Commit2 E) (crs : CRS E) (s : rst R), valid_sched sch ->
  quad_prove sch q X Y cx cy crs s
  = checked (quad_prove_checks q (size X) (size Y) (crand cx) (crand cy) crs)
      (prove_value (size X) (size Y) 1 1 [seq k1 crs x | x <- quad_a q] [seq k1 crs x | x <- X]
         [seq k2 crs y | y <- quad_b q] [seq k2 crs y | y <- Y] (quad_gamma q) (crand cx) (crand cy)
         (table 1 1 (fun i j => drawn s 0)) crs Quadratic, after 1 s).
Proof. exact: @quad_prove_total. Qed.
Print Assumptions C69_quad_prove.

Example C69_quad_prove_case :
  (if quad_prove (E := toy) bwd quad0 xs0 ys0 (xcoms quad_p0) (ycoms quad_p0) crs0 (6%N : rst ctr) is Ok r
   then [&& (pi r.1 : seq (F7 * F7)) == [:: (n7 3, n7 3)],
        (theta r.1 : seq (F7 * F7)) == [:: (n7 0, n7 2)],
        (pf_rand r.1 : matrix F7) == [:: [:: n7 6]] &
        r.2 == 7%N]
   else false) = true /\
  (if quad_prove (E := toy) bwd quad0 ys0 ys0 (xcoms quad_p0) (ycoms quad_p0) crs0 (6%N : rst ctr) is Panic p then Some p else None) = Some AssertFailed.
Proof. by vm_compute. Qed.

Theorem C69_ppe_commit_and_prove : forall (E : pairing) (R : rng E) sch (q : PPE E) (X : seq (G1 E)) (Y : seq (G2 E)) (crs : CRS E) (s : rst R), valid_sched sch ->
  ppe_commit_and_prove sch q X Y crs s
  = let X' := [seq i1 x | x <- X] in let Y' := [seq i2 y | y <- Y] in
    let sy := after (2 * size X)%N s in let sp := after (2 * size Y)%N sy in
    let cx := commit_value 2 (crs_u crs) X' (fun i l => drawn s (2 * i + l)%N) in
    let cy := commit_value 2 (crs_v crs) Y' (fun i l => drawn sy (2 * i + l)%N) in
    let pf := prove_value (size X) (size Y) 2 2 [seq i1 x | x <- ppe_a q] X' [seq i2 y | y <- ppe_b q] Y'
                (ppe_gamma q) (crand cx) (crand cy) (table 2 2 (fun i j => drawn sp (2 * i + j)%N)) crs PairingProduct in
    checked (ppe_cap_checks q (size X) (size Y) crs) (mkCProof cx cy [:: pf], after 4 sp).
Proof. exact: @ppe_cap_total. Qed.
Print Assumptions C69_ppe_commit_and_prove.

Example C69_ppe_commit_and_prove_case :
  (if ppe_commit_and_prove (E := toy) bwd ppe0 xs0 ys0 crs0 (6%N : rst ctr) is Ok r
   then [&& (coms (xcoms r.1) : seq (F7 * F7)) == [:: (n7 6, n7 1); (n7 2, n7 2)],
        (crand (xcoms r.1) : matrix F7) == [:: [:: n7 6; n7 0]; [:: n7 1; n7 2]],
        (coms (ycoms r.1) : seq (F7 * F7)) == [:: (n7 4, n7 2)],
        (crand (ycoms r.1) : matrix F7) == [:: [:: n7 3; n7 4]],
        ([seq pi p | p <- equ_proofs r.1] : seq (seq (F7 * F7))) == [:: [:: (n7 6, n7 0); (n7 5, n7 6)]],
        ([seq theta p | p <- equ_proofs r.1] : seq (seq (F7 * F7))) == [:: [:: (n7 1, n7 1); (n7 4, n7 2)]],
        ([seq pf_rand p | p <- equ_proofs r.1] : seq (matrix F7)) == [:: [:: [:: n7 5; n7 6]; [:: n7 0; n7 1]]] &
        r.2 == 16%N]
   else false) = true /\
  (if ppe_commit_and_prove (E := toy) bwd ppe0 [::] ys0 crs0 (6%N : rst ctr) is Panic p then Some p else None) = Some IndexOutOfBounds.
Proof. by vm_compute. Qed.

Theorem C69_ms1_commit_and_prove : forall (E : pairing) (R : rng E) sch (q : MSMEG1 E) (X : seq (G1 E)) (Y : seq (Fr E)) (crs : CRS E) (s : rst R), valid_sched sch ->
  ms1_commit_and_prove sch q X Y crs s
  = let X' := [seq i1 x | x <- X] in let Y' := [seq k2 crs y | y <- Y] in
    let sy := after (2 * size X)%N s in let sp := after (size Y) sy in
    let cx := commit_value 2 (crs_u crs) X' (fun i l => drawn s (2 * i + l)%N) in
    let cy := commit_value 1 (crs_v crs) Y' (fun i l => drawn sy i) in
    let pf := prove_value (size X) (size Y) 2 1 [seq i1 x | x <- ms1_a q] X' [seq k2 crs y | y <- ms1_b q] Y'
                (ms1_gamma q) (crand cx) (crand cy) (table 1 2 (fun i j => drawn sp j)) crs MultiScalarG1 in
    checked (ms1_cap_checks q (size X) (size Y) crs) (mkCProof cx cy [:: pf], after 2 sp).
Proof. exact: @ms1_cap_total. Qed.
Print Assumptions C69_ms1_commit_and_prove.

Example C69_ms1_commit_and_prove_case :
  (if ms1_commit_and_prove (E := toy) bwd ms10 xs0 ys0 crs0 (6%N : rst ctr) is Ok r
   then [&& (coms (xcoms r.1) : seq (F7 * F7)) == [:: (n7 6, n7 1); (n7 2, n7 2)],
        (crand (xcoms r.1) : matrix F7) == [:: [:: n7 6; n7 0]; [:: n7 1; n7 2]],
        (coms (ycoms r.1) : seq (F7 * F7)) == [:: (n7 4, n7 6)],
        (crand (ycoms r.1) : matrix F7) == [:: [:: n7 3]],
        ([seq pi p | p <- equ_proofs r.1] : seq (seq (F7 * F7))) == [:: [:: (n7 4, n7 4); (n7 0, n7 3)]],
        ([seq theta p | p <- equ_proofs r.1] : seq (seq (F7 * F7))) == [:: [:: (n7 3, n7 5)]],
        ([seq pf_rand p | p <- equ_proofs r.1] : seq (matrix F7)) == [:: [:: [:: n7 4; n7 5]]] &
        r.2 == 13%N]
   else false) = true /\
  (if ms1_commit_and_prove (E := toy) bwd ms10 [::] ys0 crs0 (6%N : rst ctr) is Panic p then Some p else None) = Some IndexOutOfBounds.
Proof. by vm_compute. Qed.

Theorem C69_ms2_commit_and_prove : forall (E : pairing) (R : rng E) sch (q : MSMEG2 E) (X : seq (Fr E)) (Y : seq (G2 E)) (crs : CRS E) (s : rst R), valid_sched sch ->
  ms2_commit_and_prove sch q X Y crs s
  = let X' := [seq k1 crs x | x <- X] in let Y' := [seq i2 y | y <- Y] in
    let sy := after (size X) s in let sp := after (2 * size Y)%N sy in
    let cx := commit_value 1 (crs_u crs) X' (fun i l => drawn s i) in
    let cy := commit_value 2 (crs_v crs) Y' (fun i l => drawn sy (2 * i + l)%N) in
    let pf := prove_value (size X) (size Y) 1 2 [seq k1 crs x | x <- ms2_a q] X' [seq i2 y | y <- ms2_b q] Y'
                (ms2_gamma q) (crand cx) (crand cy) (table 2 1 (fun i j => drawn sp i)) crs MultiScalarG2 in
    checked (ms2_cap_checks q (size X) (size Y) crs) (mkCProof cx cy [:: pf], after 2 sp).
Proof. exact: @ms2_cap_total. Qed.
Print Assumptions C69_ms2_commit_and_prove.

Example C69_ms2_commit_and_prove_case :
  (if ms2_commit_and_prove (E := toy) bwd ms20 xs0 ys0 crs0 (6%N : rst ctr) is Ok r
   then [&& (coms (xcoms r.1) : seq (F7 * F7)) == [:: (n7 4, n7 4); (n7 6, n7 3)],
        (crand (xcoms r.1) : matrix F7) == [:: [:: n7 6]; [:: n7 0]],
        (coms (ycoms r.1) : seq (F7 * F7)) == [:: (n7 1, n7 0)],
        (crand (ycoms r.1) : matrix F7) == [:: [:: n7 1; n7 2]],
        ([seq pi p | p <- equ_proofs r.1] : seq (seq (F7 * F7))) == [:: [:: (n7 1, n7 0)]],
        ([seq theta p | p <- equ_proofs r.1] : seq (seq (F7 * F7))) == [:: [:: (n7 4, n7 3); (n7 6, n7 2)]],
        ([seq pf_rand p | p <- equ_proofs r.1] : seq (matrix F7)) == [:: [:: [:: n7 3]; [:: n7 4]]] &
        r.2 == 12%N]
   else false) = true /\
  (if ms2_commit_and_prove (E := toy) bwd ms20 [::] ys0 crs0 (6%N : rst ctr) is Panic p then Some p else None) = Some IndexOutOfBounds.
Proof. by vm_compute. Qed.

Theorem C69_quad_commit_and_prove : forall (E : pairing) (R : rng E) sch (q : QuadEqu E) (X : seq (Fr E)) (Y : seq (Fr E)) (crs : CRS E) (s : rst R), valid_sched sch ->
  quad_commit_and_prove sch q X Y crs s
  = let X' := [seq k1 crs x | x <- X] in let Y' := [seq k2 crs y | y <- Y] in
    let sy := after (size X) s in let sp := after (size Y) sy in
    let cx := commit_value 1 (crs_u crs) X' (fun i l => drawn s i) in
    let cy := commit_value 1 (crs_v crs) Y' (fun i l => drawn sy i) in
    let pf := prove_value (size X) (size Y) 1 1 [seq k1 crs x | x <- quad_a q] X' [seq k2 crs y | y <- quad_b q] Y'
                (quad_gamma q) (crand cx) (crand cy) (table 1 1 (fun i j => drawn sp 0)) crs Quadratic in
    checked (quad_cap_checks q (size X) (size Y) crs) (mkCProof cx cy [:: pf], after 1 sp).
Proof. exact: @quad_cap_total. Qed.
Print Assumptions C69_quad_commit_and_prove.

Example C69_quad_commit_and_prove_case :
  (if quad_commit_and_prove (E := toy) bwd quad0 xs0 ys0 crs0 (6%N : rst ctr) is Ok r
   then [&& (coms (xcoms r.1) : seq (F7 * F7)) == [:: (n7 4, n7 4); (n7 6, n7 3)],
        (crand (xcoms r.1) : matrix F7) == [:: [:: n7 6]; [:: n7 0]],
        (coms (ycoms r.1) : seq (F7 * F7)) == [:: (n7 0, n7 1)],
        (crand (ycoms r.1) : matrix F7) == [:: [:: n7 1]],
        ([seq pi p | p <- equ_proofs r.1] : seq (seq (F7 * F7))) == [:: [:: (n7 4, n7 6)]],
        ([seq theta p | p <- equ_proofs r.1] : seq (seq (F7 * F7))) == [:: [:: (n7 3, n7 1)]],
        ([seq pf_rand p | p <- equ_proofs r.1] : seq (matrix F7)) == [:: [:: [:: n7 2]]] &
        r.2 == 10%N]
   else false) = true /\
  (if quad_commit_and_prove (E := toy) bwd quad0 [::] ys0 crs0 (6%N : rst ctr) is Panic p then Some p else None) = Some IndexOutOfBounds.
Proof. by vm_compute. Qed.

