(** Properties C21-C25, C30: matrices and conversions. *)
From mathcomp Require Import all_ssreflect all_algebra.
From Verif Require Import Base BaseLemmas Group DataStructures Spec SpecMat Concrete MatLemmas MatInst Concrete24.
Set Implicit Arguments.
Unset Strict Implicit.
Unset Printing Implicit Defensive.
Import GRing.Theory.
Local Open Scope ring_scope.

Definition mA : matrix F7 := [:: [:: n7 1; n7 2; n7 3]; [:: n7 4; n7 5; n7 6]].
Definition mB : matrix F7 := [:: [:: n7 1; n7 0]; [:: n7 0; n7 2]; [:: n7 0; n7 1]].
Definition mC : matrix (com F7o) := [:: [:: (n7 0, n7 0); (n7 2, n7 0)]; [:: (n7 6, n7 3); (n7 3, n7 4)]].

(** C21: parallel under any order of the entries, and sequential: the same outcome. *)
Theorem C21_field_right : forall (F : fieldType) (ord ord' : nat -> nat -> order), valid_ord ord ->
  forall (A : matrix F) (B : matrix F), fmat_right_mul ord A B true = fmat_right_mul ord' A B false.
Proof. exact: @m_C21_field_right. Qed.
Print Assumptions C21_field_right.

Example C21_field_right_case := @C21_field_right F7 (bwd 0%N) (bwd 0%N) vb fr2 fr2.

Theorem C21_field_left : forall (F : fieldType) (ord ord' : nat -> nat -> order), valid_ord ord ->
  forall (A : matrix F) (B : matrix F), fmat_left_mul ord A B true = fmat_left_mul ord' A B false.
Proof. exact: @m_C21_field_left. Qed.
Print Assumptions C21_field_left.

Example C21_field_left_case := @C21_field_left F7 (bwd 0%N) (bwd 0%N) vb fr2 fr2.

Theorem C21_com_right : forall (F : fieldType) (G : lmodType F) (ord ord' : nat -> nat -> order), valid_ord ord ->
  forall (A : matrix (com G)) (B : matrix F), cmat_right_mul ord A B true = cmat_right_mul ord' A B false.
Proof. exact: @m_C21_com_right. Qed.
Print Assumptions C21_com_right.

Example C21_com_right_case := @C21_com_right F7 F7o (bwd 0%N) (bwd 0%N) vb cr2 fr2.

Theorem C21_com_left : forall (F : fieldType) (G : lmodType F) (ord ord' : nat -> nat -> order), valid_ord ord ->
  forall (A : matrix (com G)) (B : matrix F), cmat_left_mul ord A B true = cmat_left_mul ord' A B false.
Proof. exact: @m_C21_com_left. Qed.
Print Assumptions C21_com_left.

Example C21_com_left_case := @C21_com_left F7 F7o (bwd 0%N) (bwd 0%N) vb cr2 fr2.

(** The order of the entries run backwards meets the hypothesis. *)
Example C21_case : valid_ord (bwd 0%N) /\ bwd 0%N 2%N 2%N <> tasks 2 2 /\
  fmat_right_mul (bwd 0%N) mA mB true = Ok [:: [:: n7 1; n7 0]; [:: n7 4; n7 2]] /\
  fmat_right_mul (bwd 0%N) mA mB false = Ok [:: [:: n7 1; n7 0]; [:: n7 4; n7 2]] /\
  fmat_right_mul (bwd 0%N) mA mA true = Panic AssertFailed.
Proof. by split; [move=> r c; rewrite perm_rev | split; [|split; [|split]]]; ok_eq. Qed.

(** C22. *)
Theorem C22_field_right_value : forall (F : fieldType) (ord : nat -> nat -> order) (par : bool), valid_ord ord ->
  forall m n p (M : matrix F) (A : matrix F), (0 < m)%N -> (0 < n)%N -> (0 < p)%N -> dims m n M -> dims n p A ->
  exists2 P, fmat_right_mul ord M A par = Ok P
    & is_mat m p P (fun i j => \sum_(k < n) at_ M i k * at_ A k j).
Proof. exact: @m_C22_field_right_value. Qed.
Print Assumptions C22_field_right_value.

Example C22_field_right_value_case := @C22_field_right_value F7 (bwd 0%N) true vb 2 3 2 f23 f32 isT isT isT dim_f23 dim_f32.

Theorem C22_field_left_value : forall (F : fieldType) (ord : nat -> nat -> order) (par : bool), valid_ord ord ->
  forall m n p (M : matrix F) (A : matrix F), (0 < m)%N -> (0 < n)%N -> (0 < p)%N -> dims m n A -> dims n p M ->
  exists2 P, fmat_left_mul ord M A par = Ok P
    & is_mat m p P (fun i j => \sum_(k < n) at_ A i k * at_ M k j).
Proof. exact: @m_C22_field_left_value. Qed.
Print Assumptions C22_field_left_value.

Example C22_field_left_value_case := @C22_field_left_value F7 (bwd 0%N) true vb 2 3 2 f32 f23 isT isT isT dim_f23 dim_f32.

Theorem C22_field_right_assoc : forall (F : fieldType) (ord ord' ord2 ord3 : nat -> nat -> order) (par par' par2 par3 : bool), valid_ord ord -> valid_ord ord' -> valid_ord ord2 -> valid_ord ord3 ->
  forall m n p q (M : matrix F) (A B : matrix F), (0 < m)%N -> (0 < n)%N -> (0 < p)%N -> (0 < q)%N ->
  dims m n M -> dims n p A -> dims p q B ->
  agree (let! MA := fmat_right_mul ord M A par in fmat_right_mul ord' MA B par')
        (let! AB := fmat_right_mul ord2 A B par2 in fmat_right_mul ord3 M AB par3).
Proof. exact: @m_C22_field_right_assoc. Qed.
Print Assumptions C22_field_right_assoc.

Example C22_field_right_assoc_case := @C22_field_right_assoc F7 (bwd 0%N) (bwd 0%N) (bwd 0%N) (bwd 0%N) true false true false vb vb vb vb 2 3 2 3 f23 f32 f23' isT isT isT isT dim_f23 dim_f32 dim_f23'.

Theorem C22_field_left_assoc : forall (F : fieldType) (ord ord' ord2 ord3 : nat -> nat -> order) (par par' par2 par3 : bool), valid_ord ord -> valid_ord ord' -> valid_ord ord2 -> valid_ord ord3 ->
  forall m n p q (M : matrix F) (A B : matrix F), (0 < m)%N -> (0 < n)%N -> (0 < p)%N -> (0 < q)%N ->
  dims m n A -> dims n p B -> dims p q M ->
  agree (let! BM := fmat_left_mul ord M B par in fmat_left_mul ord' BM A par')
        (let! AB := fmat_right_mul ord2 A B par2 in fmat_left_mul ord3 M AB par3).
Proof. exact: @m_C22_field_left_assoc. Qed.
Print Assumptions C22_field_left_assoc.

Example C22_field_left_assoc_case := @C22_field_left_assoc F7 (bwd 0%N) (bwd 0%N) (bwd 0%N) (bwd 0%N) true false true false vb vb vb vb 2 3 2 3 f23 f23' f32 isT isT isT isT dim_f23' dim_f32 dim_f23.

Theorem C22_field_left_right : forall (F : fieldType) (ord ord' ord2 ord3 : nat -> nat -> order) (par par' par2 par3 : bool), valid_ord ord -> valid_ord ord' -> valid_ord ord2 -> valid_ord ord3 ->
  forall m n p q (M : matrix F) (A B : matrix F), (0 < m)%N -> (0 < n)%N -> (0 < p)%N -> (0 < q)%N ->
  dims m n A -> dims n p M -> dims p q B ->
  agree (let! AM := fmat_left_mul ord M A par in fmat_right_mul ord' AM B par')
        (let! MB := fmat_right_mul ord2 M B par2 in fmat_left_mul ord3 MB A par3).
Proof. exact: @m_C22_field_left_right. Qed.
Print Assumptions C22_field_left_right.

Example C22_field_left_right_case := @C22_field_left_right F7 (bwd 0%N) (bwd 0%N) (bwd 0%N) (bwd 0%N) true false true false vb vb vb vb 2 3 2 3 f32 f23 f23' isT isT isT isT dim_f23 dim_f32 dim_f23'.

Theorem C22_field_right_addl : forall (F : fieldType) (ord ord' ord2 : nat -> nat -> order) (par par' par2 : bool), valid_ord ord -> valid_ord ord' -> valid_ord ord2 ->
  forall m n p (M N : matrix F) (A : matrix F), (0 < m)%N -> (0 < n)%N -> (0 < p)%N ->
  dims m n M -> dims m n N -> dims n p A ->
  agree (let! Z := fmat_add M N in fmat_right_mul ord Z A par)
        (let! MA := fmat_right_mul ord' M A par' in let! NA := fmat_right_mul ord2 N A par2 in fmat_add MA NA).
Proof. exact: @m_C22_field_right_addl. Qed.
Print Assumptions C22_field_right_addl.

Example C22_field_right_addl_case := @C22_field_right_addl F7 (bwd 0%N) (bwd 0%N) (bwd 0%N) true false true vb vb vb 2 3 2 f23 f23' f32 isT isT isT dim_f23 dim_f23' dim_f32.

Theorem C22_field_right_addr : forall (F : fieldType) (ord ord' ord2 : nat -> nat -> order) (par par' par2 : bool), valid_ord ord -> valid_ord ord' -> valid_ord ord2 ->
  forall m n p (M : matrix F) (A B : matrix F), (0 < m)%N -> (0 < n)%N -> (0 < p)%N ->
  dims m n M -> dims n p A -> dims n p B ->
  agree (let! Z := fmat_add A B in fmat_right_mul ord M Z par)
        (let! MA := fmat_right_mul ord' M A par' in let! MB := fmat_right_mul ord2 M B par2 in fmat_add MA MB).
Proof. exact: @m_C22_field_right_addr. Qed.
Print Assumptions C22_field_right_addr.

Example C22_field_right_addr_case := @C22_field_right_addr F7 (bwd 0%N) (bwd 0%N) (bwd 0%N) true false true vb vb vb 2 3 2 f23 f32 f32' isT isT isT dim_f23 dim_f32 dim_f32'.

Theorem C22_field_left_addl : forall (F : fieldType) (ord ord' ord2 : nat -> nat -> order) (par par' par2 : bool), valid_ord ord -> valid_ord ord' -> valid_ord ord2 ->
  forall m n p (M N : matrix F) (A : matrix F), (0 < m)%N -> (0 < n)%N -> (0 < p)%N ->
  dims m n A -> dims n p M -> dims n p N ->
  agree (let! Z := fmat_add M N in fmat_left_mul ord Z A par)
        (let! AM := fmat_left_mul ord' M A par' in let! AN := fmat_left_mul ord2 N A par2 in fmat_add AM AN).
Proof. exact: @m_C22_field_left_addl. Qed.
Print Assumptions C22_field_left_addl.

Example C22_field_left_addl_case := @C22_field_left_addl F7 (bwd 0%N) (bwd 0%N) (bwd 0%N) true false true vb vb vb 2 3 2 f32 f32' f23 isT isT isT dim_f23 dim_f32 dim_f32'.

Theorem C22_field_left_addr : forall (F : fieldType) (ord ord' ord2 : nat -> nat -> order) (par par' par2 : bool), valid_ord ord -> valid_ord ord' -> valid_ord ord2 ->
  forall m n p (M : matrix F) (A B : matrix F), (0 < m)%N -> (0 < n)%N -> (0 < p)%N ->
  dims m n A -> dims m n B -> dims n p M ->
  agree (let! Z := fmat_add A B in fmat_left_mul ord M Z par)
        (let! AM := fmat_left_mul ord' M A par' in let! BM := fmat_left_mul ord2 M B par2 in fmat_add AM BM).
Proof. exact: @m_C22_field_left_addr. Qed.
Print Assumptions C22_field_left_addr.

Example C22_field_left_addr_case := @C22_field_left_addr F7 (bwd 0%N) (bwd 0%N) (bwd 0%N) true false true vb vb vb 2 3 2 f32 f23 f23' isT isT isT dim_f23 dim_f23' dim_f32.

Theorem C22_com_right_value : forall (F : fieldType) (G : lmodType F) (ord : nat -> nat -> order) (par : bool), valid_ord ord ->
  forall m n p (M : matrix (com G)) (A : matrix F), (0 < m)%N -> (0 < n)%N -> (0 < p)%N -> dims m n M -> dims n p A ->
  exists2 P, cmat_right_mul ord M A par = Ok P
    & is_mat m p P (fun i j => \sum_(k < n) at_ A k j *: at_ M i k).
Proof. exact: @m_C22_com_right_value. Qed.
Print Assumptions C22_com_right_value.

Example C22_com_right_value_case := @C22_com_right_value F7 F7o (bwd 0%N) true vb 2 3 2 c23 f32 isT isT isT dim_c23 dim_f32.

Theorem C22_com_left_value : forall (F : fieldType) (G : lmodType F) (ord : nat -> nat -> order) (par : bool), valid_ord ord ->
  forall m n p (M : matrix (com G)) (A : matrix F), (0 < m)%N -> (0 < n)%N -> (0 < p)%N -> dims m n A -> dims n p M ->
  exists2 P, cmat_left_mul ord M A par = Ok P
    & is_mat m p P (fun i j => \sum_(k < n) at_ A i k *: at_ M k j).
Proof. exact: @m_C22_com_left_value. Qed.
Print Assumptions C22_com_left_value.

Example C22_com_left_value_case := @C22_com_left_value F7 F7o (bwd 0%N) true vb 2 3 2 c32 f23 isT isT isT dim_f23 dim_c32.

Theorem C22_com_right_assoc : forall (F : fieldType) (G : lmodType F) (ord ord' ord2 ord3 : nat -> nat -> order) (par par' par2 par3 : bool), valid_ord ord -> valid_ord ord' -> valid_ord ord2 -> valid_ord ord3 ->
  forall m n p q (M : matrix (com G)) (A B : matrix F), (0 < m)%N -> (0 < n)%N -> (0 < p)%N -> (0 < q)%N ->
  dims m n M -> dims n p A -> dims p q B ->
  agree (let! MA := cmat_right_mul ord M A par in cmat_right_mul ord' MA B par')
        (let! AB := fmat_right_mul ord2 A B par2 in cmat_right_mul ord3 M AB par3).
Proof. exact: @m_C22_com_right_assoc. Qed.
Print Assumptions C22_com_right_assoc.

Example C22_com_right_assoc_case := @C22_com_right_assoc F7 F7o (bwd 0%N) (bwd 0%N) (bwd 0%N) (bwd 0%N) true false true false vb vb vb vb 2 3 2 3 c23 f32 f23 isT isT isT isT dim_c23 dim_f32 dim_f23.

Theorem C22_com_left_assoc : forall (F : fieldType) (G : lmodType F) (ord ord' ord2 ord3 : nat -> nat -> order) (par par' par2 par3 : bool), valid_ord ord -> valid_ord ord' -> valid_ord ord2 -> valid_ord ord3 ->
  forall m n p q (M : matrix (com G)) (A B : matrix F), (0 < m)%N -> (0 < n)%N -> (0 < p)%N -> (0 < q)%N ->
  dims m n A -> dims n p B -> dims p q M ->
  agree (let! BM := cmat_left_mul ord M B par in cmat_left_mul ord' BM A par')
        (let! AB := fmat_right_mul ord2 A B par2 in cmat_left_mul ord3 M AB par3).
Proof. exact: @m_C22_com_left_assoc. Qed.
Print Assumptions C22_com_left_assoc.

Example C22_com_left_assoc_case := @C22_com_left_assoc F7 F7o (bwd 0%N) (bwd 0%N) (bwd 0%N) (bwd 0%N) true false true false vb vb vb vb 2 3 2 3 c23 f23 f32 isT isT isT isT dim_f23 dim_f32 dim_c23.

Theorem C22_com_left_right : forall (F : fieldType) (G : lmodType F) (ord ord' ord2 ord3 : nat -> nat -> order) (par par' par2 par3 : bool), valid_ord ord -> valid_ord ord' -> valid_ord ord2 -> valid_ord ord3 ->
  forall m n p q (M : matrix (com G)) (A B : matrix F), (0 < m)%N -> (0 < n)%N -> (0 < p)%N -> (0 < q)%N ->
  dims m n A -> dims n p M -> dims p q B ->
  agree (let! AM := cmat_left_mul ord M A par in cmat_right_mul ord' AM B par')
        (let! MB := cmat_right_mul ord2 M B par2 in cmat_left_mul ord3 MB A par3).
Proof. exact: @m_C22_com_left_right. Qed.
Print Assumptions C22_com_left_right.

Example C22_com_left_right_case := @C22_com_left_right F7 F7o (bwd 0%N) (bwd 0%N) (bwd 0%N) (bwd 0%N) true false true false vb vb vb vb 2 3 2 3 c32 f23 f23' isT isT isT isT dim_f23 dim_c32 dim_f23'.

Theorem C22_com_right_addl : forall (F : fieldType) (G : lmodType F) (ord ord' ord2 : nat -> nat -> order) (par par' par2 : bool), valid_ord ord -> valid_ord ord' -> valid_ord ord2 ->
  forall m n p (M N : matrix (com G)) (A : matrix F), (0 < m)%N -> (0 < n)%N -> (0 < p)%N ->
  dims m n M -> dims m n N -> dims n p A ->
  agree (let! Z := cmat_add M N in cmat_right_mul ord Z A par)
        (let! MA := cmat_right_mul ord' M A par' in let! NA := cmat_right_mul ord2 N A par2 in cmat_add MA NA).
Proof. exact: @m_C22_com_right_addl. Qed.
Print Assumptions C22_com_right_addl.

Example C22_com_right_addl_case := @C22_com_right_addl F7 F7o (bwd 0%N) (bwd 0%N) (bwd 0%N) true false true vb vb vb 2 3 2 c23 c23' f32 isT isT isT dim_c23 dim_c23' dim_f32.

Theorem C22_com_right_addr : forall (F : fieldType) (G : lmodType F) (ord ord' ord2 : nat -> nat -> order) (par par' par2 : bool), valid_ord ord -> valid_ord ord' -> valid_ord ord2 ->
  forall m n p (M : matrix (com G)) (A B : matrix F), (0 < m)%N -> (0 < n)%N -> (0 < p)%N ->
  dims m n M -> dims n p A -> dims n p B ->
  agree (let! Z := fmat_add A B in cmat_right_mul ord M Z par)
        (let! MA := cmat_right_mul ord' M A par' in let! MB := cmat_right_mul ord2 M B par2 in cmat_add MA MB).
Proof. exact: @m_C22_com_right_addr. Qed.
Print Assumptions C22_com_right_addr.

Example C22_com_right_addr_case := @C22_com_right_addr F7 F7o (bwd 0%N) (bwd 0%N) (bwd 0%N) true false true vb vb vb 2 3 2 c23 f32 f32' isT isT isT dim_c23 dim_f32 dim_f32'.

Theorem C22_com_left_addl : forall (F : fieldType) (G : lmodType F) (ord ord' ord2 : nat -> nat -> order) (par par' par2 : bool), valid_ord ord -> valid_ord ord' -> valid_ord ord2 ->
  forall m n p (M N : matrix (com G)) (A : matrix F), (0 < m)%N -> (0 < n)%N -> (0 < p)%N ->
  dims m n A -> dims n p M -> dims n p N ->
  agree (let! Z := cmat_add M N in cmat_left_mul ord Z A par)
        (let! AM := cmat_left_mul ord' M A par' in let! AN := cmat_left_mul ord2 N A par2 in cmat_add AM AN).
Proof. exact: @m_C22_com_left_addl. Qed.
Print Assumptions C22_com_left_addl.

Example C22_com_left_addl_case := @C22_com_left_addl F7 F7o (bwd 0%N) (bwd 0%N) (bwd 0%N) true false true vb vb vb 2 3 2 c32 c32' f23 isT isT isT dim_f23 dim_c32 dim_c32'.

Theorem C22_com_left_addr : forall (F : fieldType) (G : lmodType F) (ord ord' ord2 : nat -> nat -> order) (par par' par2 : bool), valid_ord ord -> valid_ord ord' -> valid_ord ord2 ->
  forall m n p (M : matrix (com G)) (A B : matrix F), (0 < m)%N -> (0 < n)%N -> (0 < p)%N ->
  dims m n A -> dims m n B -> dims n p M ->
  agree (let! Z := fmat_add A B in cmat_left_mul ord M Z par)
        (let! AM := cmat_left_mul ord' M A par' in let! BM := cmat_left_mul ord2 M B par2 in cmat_add AM BM).
Proof. exact: @m_C22_com_left_addr. Qed.
Print Assumptions C22_com_left_addr.

Example C22_com_left_addr_case := @C22_com_left_addr F7 F7o (bwd 0%N) (bwd 0%N) (bwd 0%N) true false true vb vb vb 2 3 2 c32 f23 f23' isT isT isT dim_f23 dim_f23' dim_c32.

(** The hypotheses are met by [mA], [mB]; the product is computed, with a com matrix too. *)
Example C22_case : valid_ord (bwd 0%N) /\ dims 2 3 mA /\ dims 3 2 mB /\ dims 2 2 mC /\
  fmat_left_mul (bwd 0%N) mB mA true = Ok [:: [:: n7 1; n7 0]; [:: n7 4; n7 2]] /\
  cmat_left_mul (bwd 0%N) mC mB false = Ok [:: [:: (n7 0, n7 0) ; (n7 2, n7 0)]; [:: (n7 5, n7 6); (n7 6, n7 1)]; [:: (n7 6, n7 3); (n7 3, n7 4)]].
Proof.
split; first by move=> r c; rewrite perm_rev.
split; first by split=> // -[|[|]].
split; first by split=> // -[|[|[|]]].
by split; [split=> // -[|[|]] | split; ok_eq].
Qed.

(** C23. *)
Theorem C23_field_add_value : forall (F : fieldType) m n (M N : matrix F), (0 < m)%N -> dims m n M -> dims m n N ->
  exists2 P, fmat_add M N = Ok P & is_mat m n P (fun i j => at_ M i j + at_ N i j).
Proof. exact: @m_C23_field_add_value. Qed.
Print Assumptions C23_field_add_value.

Example C23_field_add_value_case := @C23_field_add_value F7 2 3 f23 f23' isT dim_f23 dim_f23'.

Theorem C23_field_add_comm : forall (F : fieldType) m n (M N : matrix F), (0 < m)%N -> dims m n M -> dims m n N ->
  agree (fmat_add M N) (fmat_add N M).
Proof. exact: @m_C23_field_add_comm. Qed.
Print Assumptions C23_field_add_comm.

Example C23_field_add_comm_case := @C23_field_add_comm F7 2 3 f23 f23' isT dim_f23 dim_f23'.

Theorem C23_field_add_assoc : forall (F : fieldType) m n (M N P : matrix F), (0 < m)%N -> dims m n M -> dims m n N -> dims m n P ->
  agree (let! MN := fmat_add M N in fmat_add MN P) (let! NP := fmat_add N P in fmat_add M NP).
Proof. exact: @m_C23_field_add_assoc. Qed.
Print Assumptions C23_field_add_assoc.

Example C23_field_add_assoc_case := @C23_field_add_assoc F7 2 3 f23 f23' f23 isT dim_f23 dim_f23' dim_f23.

Theorem C23_field_neg_value : forall (F : fieldType) m n (M : matrix F), dims m n M ->
  exists2 P, fmat_neg M = Ok P & is_mat m n P (fun i j => - at_ M i j).
Proof. exact: @m_C23_field_neg_value. Qed.
Print Assumptions C23_field_neg_value.

Example C23_field_neg_value_case := @C23_field_neg_value F7 2 3 f23 dim_f23.

Theorem C23_field_add_neg : forall (F : fieldType) m n (M : matrix F), (0 < m)%N -> dims m n M ->
  (let! N := fmat_neg M in fmat_add M N) = Ok (zero_mat m n).
Proof. exact: @m_C23_field_add_neg. Qed.
Print Assumptions C23_field_add_neg.

Example C23_field_add_neg_case := @C23_field_add_neg F7 2 3 f23 isT dim_f23.

Theorem C23_field_add_zero : forall (F : fieldType) m n (M : matrix F), (0 < m)%N -> dims m n M -> fmat_add M (zero_mat m n) = Ok M.
Proof. exact: @m_C23_field_add_zero. Qed.
Print Assumptions C23_field_add_zero.

Example C23_field_add_zero_case := @C23_field_add_zero F7 2 3 f23 isT dim_f23.

Theorem C23_field_scalar_value : forall (F : fieldType) m n (M : matrix F) k, (0 < m)%N -> dims m n M ->
  exists2 P, fmat_scalar_mul M k = Ok P & is_mat m n P (fun i j => at_ M i j * k).
Proof. exact: @m_C23_field_scalar_value. Qed.
Print Assumptions C23_field_scalar_value.

Example C23_field_scalar_value_case := @C23_field_scalar_value F7 2 3 f23 (n7 5) isT dim_f23.

Theorem C23_field_scalar_addl : forall (F : fieldType) m n (M N : matrix F) k, (0 < m)%N -> dims m n M -> dims m n N ->
  agree (let! Z := fmat_add M N in fmat_scalar_mul Z k)
        (let! Mk := fmat_scalar_mul M k in let! Nk := fmat_scalar_mul N k in fmat_add Mk Nk).
Proof. exact: @m_C23_field_scalar_addl. Qed.
Print Assumptions C23_field_scalar_addl.

Example C23_field_scalar_addl_case := @C23_field_scalar_addl F7 2 3 f23 f23' (n7 5) isT dim_f23 dim_f23'.

Theorem C23_field_scalar_addr : forall (F : fieldType) m n (M : matrix F) k l, (0 < m)%N -> dims m n M ->
  agree (fmat_scalar_mul M (k + l)) (let! Mk := fmat_scalar_mul M k in let! Ml := fmat_scalar_mul M l in fmat_add Mk Ml).
Proof. exact: @m_C23_field_scalar_addr. Qed.
Print Assumptions C23_field_scalar_addr.

Example C23_field_scalar_addr_case := @C23_field_scalar_addr F7 2 3 f23 (n7 5) (n7 3) isT dim_f23.

Theorem C23_field_scalar_mul : forall (F : fieldType) m n (M : matrix F) k l, (0 < m)%N -> dims m n M ->
  agree (fmat_scalar_mul M (k * l)) (let! Mk := fmat_scalar_mul M k in fmat_scalar_mul Mk l).
Proof. exact: @m_C23_field_scalar_mul. Qed.
Print Assumptions C23_field_scalar_mul.

Example C23_field_scalar_mul_case := @C23_field_scalar_mul F7 2 3 f23 (n7 5) (n7 3) isT dim_f23.

Theorem C23_field_scalar_one : forall (F : fieldType) m n (M : matrix F), (0 < m)%N -> dims m n M -> fmat_scalar_mul M 1 = Ok M.
Proof. exact: @m_C23_field_scalar_one. Qed.
Print Assumptions C23_field_scalar_one.

Example C23_field_scalar_one_case := @C23_field_scalar_one F7 2 3 f23 isT dim_f23.

Theorem C23_com_add_value : forall (F : fieldType) (G : lmodType F) m n (M N : matrix (com G)), (0 < m)%N -> dims m n M -> dims m n N ->
  exists2 P, cmat_add M N = Ok P & is_mat m n P (fun i j => at_ M i j + at_ N i j).
Proof. exact: @m_C23_com_add_value. Qed.
Print Assumptions C23_com_add_value.

Example C23_com_add_value_case := @C23_com_add_value F7 F7o 2 3 c23 c23' isT dim_c23 dim_c23'.

Theorem C23_com_add_comm : forall (F : fieldType) (G : lmodType F) m n (M N : matrix (com G)), (0 < m)%N -> dims m n M -> dims m n N ->
  agree (cmat_add M N) (cmat_add N M).
Proof. exact: @m_C23_com_add_comm. Qed.
Print Assumptions C23_com_add_comm.

Example C23_com_add_comm_case := @C23_com_add_comm F7 F7o 2 3 c23 c23' isT dim_c23 dim_c23'.

Theorem C23_com_add_assoc : forall (F : fieldType) (G : lmodType F) m n (M N P : matrix (com G)), (0 < m)%N -> dims m n M -> dims m n N -> dims m n P ->
  agree (let! MN := cmat_add M N in cmat_add MN P) (let! NP := cmat_add N P in cmat_add M NP).
Proof. exact: @m_C23_com_add_assoc. Qed.
Print Assumptions C23_com_add_assoc.

Example C23_com_add_assoc_case := @C23_com_add_assoc F7 F7o 2 3 c23 c23' c23 isT dim_c23 dim_c23' dim_c23.

Theorem C23_com_neg_value : forall (F : fieldType) (G : lmodType F) m n (M : matrix (com G)), dims m n M ->
  exists2 P, cmat_neg M = Ok P & is_mat m n P (fun i j => - at_ M i j).
Proof. exact: @m_C23_com_neg_value. Qed.
Print Assumptions C23_com_neg_value.

Example C23_com_neg_value_case := @C23_com_neg_value F7 F7o 2 3 c23 dim_c23.

Theorem C23_com_add_neg : forall (F : fieldType) (G : lmodType F) m n (M : matrix (com G)), (0 < m)%N -> dims m n M ->
  (let! N := cmat_neg M in cmat_add M N) = Ok (zero_mat m n).
Proof. exact: @m_C23_com_add_neg. Qed.
Print Assumptions C23_com_add_neg.

Example C23_com_add_neg_case := @C23_com_add_neg F7 F7o 2 3 c23 isT dim_c23.

Theorem C23_com_add_zero : forall (F : fieldType) (G : lmodType F) m n (M : matrix (com G)), (0 < m)%N -> dims m n M -> cmat_add M (zero_mat m n) = Ok M.
Proof. exact: @m_C23_com_add_zero. Qed.
Print Assumptions C23_com_add_zero.

Example C23_com_add_zero_case := @C23_com_add_zero F7 F7o 2 3 c23 isT dim_c23.

Theorem C23_com_scalar_value : forall (F : fieldType) (G : lmodType F) m n (M : matrix (com G)) k, (0 < m)%N -> dims m n M ->
  exists2 P, cmat_scalar_mul M k = Ok P & is_mat m n P (fun i j => k *: at_ M i j).
Proof. exact: @m_C23_com_scalar_value. Qed.
Print Assumptions C23_com_scalar_value.

Example C23_com_scalar_value_case := @C23_com_scalar_value F7 F7o 2 3 c23 (n7 5) isT dim_c23.

Theorem C23_com_scalar_addl : forall (F : fieldType) (G : lmodType F) m n (M N : matrix (com G)) k, (0 < m)%N -> dims m n M -> dims m n N ->
  agree (let! Z := cmat_add M N in cmat_scalar_mul Z k)
        (let! Mk := cmat_scalar_mul M k in let! Nk := cmat_scalar_mul N k in cmat_add Mk Nk).
Proof. exact: @m_C23_com_scalar_addl. Qed.
Print Assumptions C23_com_scalar_addl.

Example C23_com_scalar_addl_case := @C23_com_scalar_addl F7 F7o 2 3 c23 c23' (n7 5) isT dim_c23 dim_c23'.

Theorem C23_com_scalar_addr : forall (F : fieldType) (G : lmodType F) m n (M : matrix (com G)) k l, (0 < m)%N -> dims m n M ->
  agree (cmat_scalar_mul M (k + l)) (let! Mk := cmat_scalar_mul M k in let! Ml := cmat_scalar_mul M l in cmat_add Mk Ml).
Proof. exact: @m_C23_com_scalar_addr. Qed.
Print Assumptions C23_com_scalar_addr.

Example C23_com_scalar_addr_case := @C23_com_scalar_addr F7 F7o 2 3 c23 (n7 5) (n7 3) isT dim_c23.

Theorem C23_com_scalar_mul : forall (F : fieldType) (G : lmodType F) m n (M : matrix (com G)) k l, (0 < m)%N -> dims m n M ->
  agree (cmat_scalar_mul M (k * l)) (let! Mk := cmat_scalar_mul M k in cmat_scalar_mul Mk l).
Proof. exact: @m_C23_com_scalar_mul. Qed.
Print Assumptions C23_com_scalar_mul.

Example C23_com_scalar_mul_case := @C23_com_scalar_mul F7 F7o 2 3 c23 (n7 5) (n7 3) isT dim_c23.

Theorem C23_com_scalar_one : forall (F : fieldType) (G : lmodType F) m n (M : matrix (com G)), (0 < m)%N -> dims m n M -> cmat_scalar_mul M 1 = Ok M.
Proof. exact: @m_C23_com_scalar_one. Qed.
Print Assumptions C23_com_scalar_one.

Example C23_com_scalar_one_case := @C23_com_scalar_one F7 F7o 2 3 c23 isT dim_c23.

Example C23_case : dims 2 3 mA /\ (let! N := fmat_neg mA in fmat_add mA N) = Ok [:: [:: 0; 0; 0]; [:: 0; 0; 0]] /\
  fmat_scalar_mul mA (n7 2) = Ok [:: [:: n7 2; n7 4; n7 6]; [:: n7 8; n7 10; n7 12]] /\
  dims 2 2 mC /\ cmat_add mC mC = cmat_scalar_mul mC (n7 2).
Proof.
by split; [split=> // -[|[|]] | split; [ok_eq|split; [ok_eq|split; [split=> // -[|[|]]|]]]].
Qed.

(** C24. *)
Theorem C24_field_transpose_value : forall (F : fieldType) m n (M : matrix F), (0 < m)%N -> dims m n M ->
  exists2 P, fmat_transpose M = Ok P & is_mat n m P (fun i j => at_ M j i).
Proof. exact: @m_C24_field_transpose_value. Qed.
Print Assumptions C24_field_transpose_value.

Example C24_field_transpose_value_case := @C24_field_transpose_value F7 2 3 f23 isT dim_f23.

Theorem C24_field_transpose_involutive : forall (F : fieldType) m n (M : matrix F), (0 < m)%N -> (0 < n)%N -> dims m n M ->
  (let! Mt := fmat_transpose M in fmat_transpose Mt) = Ok M.
Proof. exact: @m_C24_field_transpose_involutive. Qed.
Print Assumptions C24_field_transpose_involutive.

Example C24_field_transpose_involutive_case := @C24_field_transpose_involutive F7 2 3 f23 isT isT dim_f23.

Theorem C24_field_transpose_right : forall (F : fieldType) (ord ord' : nat -> nat -> order) (par par' : bool), valid_ord ord -> valid_ord ord' ->
  forall m n p (M : matrix F) (A : matrix F), (0 < m)%N -> (0 < n)%N -> (0 < p)%N -> dims m n M -> dims n p A ->
  agree (let! MA := fmat_right_mul ord M A par in fmat_transpose MA)
        (let! Mt := fmat_transpose M in let! At := fmat_transpose A in fmat_left_mul ord' Mt At par').
Proof. exact: @m_C24_field_transpose_right. Qed.
Print Assumptions C24_field_transpose_right.

Example C24_field_transpose_right_case := @C24_field_transpose_right F7 (bwd 0%N) (bwd 0%N) true false vb vb 2 3 2 f23 f32 isT isT isT dim_f23 dim_f32.

Theorem C24_field_transpose_left : forall (F : fieldType) (ord ord' : nat -> nat -> order) (par par' : bool), valid_ord ord -> valid_ord ord' ->
  forall m n p (M : matrix F) (A : matrix F), (0 < m)%N -> (0 < n)%N -> (0 < p)%N -> dims m n A -> dims n p M ->
  agree (let! AM := fmat_left_mul ord M A par in fmat_transpose AM)
        (let! Mt := fmat_transpose M in let! At := fmat_transpose A in fmat_right_mul ord' Mt At par').
Proof. exact: @m_C24_field_transpose_left. Qed.
Print Assumptions C24_field_transpose_left.

Example C24_field_transpose_left_case := @C24_field_transpose_left F7 (bwd 0%N) (bwd 0%N) true false vb vb 2 3 2 f32 f23 isT isT isT dim_f23 dim_f32.

Theorem C24_com_transpose_value : forall (F : fieldType) (G : lmodType F) m n (M : matrix (com G)), (0 < m)%N -> dims m n M ->
  exists2 P, cmat_transpose M = Ok P & is_mat n m P (fun i j => at_ M j i).
Proof. exact: @m_C24_com_transpose_value. Qed.
Print Assumptions C24_com_transpose_value.

Example C24_com_transpose_value_case := @C24_com_transpose_value F7 F7o 2 3 c23 isT dim_c23.

Theorem C24_com_transpose_involutive : forall (F : fieldType) (G : lmodType F) m n (M : matrix (com G)), (0 < m)%N -> (0 < n)%N -> dims m n M ->
  (let! Mt := cmat_transpose M in cmat_transpose Mt) = Ok M.
Proof. exact: @m_C24_com_transpose_involutive. Qed.
Print Assumptions C24_com_transpose_involutive.

Example C24_com_transpose_involutive_case := @C24_com_transpose_involutive F7 F7o 2 3 c23 isT isT dim_c23.

Theorem C24_com_transpose_right : forall (F : fieldType) (G : lmodType F) (ord ord' : nat -> nat -> order) (par par' : bool), valid_ord ord -> valid_ord ord' ->
  forall m n p (M : matrix (com G)) (A : matrix F), (0 < m)%N -> (0 < n)%N -> (0 < p)%N -> dims m n M -> dims n p A ->
  agree (let! MA := cmat_right_mul ord M A par in cmat_transpose MA)
        (let! Mt := cmat_transpose M in let! At := fmat_transpose A in cmat_left_mul ord' Mt At par').
Proof. exact: @m_C24_com_transpose_right. Qed.
Print Assumptions C24_com_transpose_right.

Example C24_com_transpose_right_case := @C24_com_transpose_right F7 F7o (bwd 0%N) (bwd 0%N) true false vb vb 2 3 2 c23 f32 isT isT isT dim_c23 dim_f32.

Theorem C24_com_transpose_left : forall (F : fieldType) (G : lmodType F) (ord ord' : nat -> nat -> order) (par par' : bool), valid_ord ord -> valid_ord ord' ->
  forall m n p (M : matrix (com G)) (A : matrix F), (0 < m)%N -> (0 < n)%N -> (0 < p)%N -> dims m n A -> dims n p M ->
  agree (let! AM := cmat_left_mul ord M A par in cmat_transpose AM)
        (let! Mt := cmat_transpose M in let! At := fmat_transpose A in cmat_right_mul ord' Mt At par').
Proof. exact: @m_C24_com_transpose_left. Qed.
Print Assumptions C24_com_transpose_left.

Example C24_com_transpose_left_case := @C24_com_transpose_left F7 F7o (bwd 0%N) (bwd 0%N) true false vb vb 2 3 2 c32 f23 isT isT isT dim_f23 dim_c32.

Example C24_case : dims 2 3 mA /\
  fmat_transpose mA = Ok [:: [:: n7 1; n7 4]; [:: n7 2; n7 5]; [:: n7 3; n7 6]].
Proof. by split; [split=> // -[|[|]] | ok_eq]. Qed.

(** C25: the shapes on which the operation returns, and what it returns. *)
Theorem C25_field_add : forall (F : fieldType) (A B : matrix F),
  (returns (fmat_add A B) <->
   [/\ size A = size B, (0 < size A)%N, size (mrow A 0) = size (mrow B 0)
     & forall i, (i < size A)%N -> (size (mrow A 0) <= size (mrow A i))%N /\ (size (mrow A 0) <= size (mrow B i))%N]) /\
  (forall C, fmat_add A B = Ok C -> is_mat (size A) (size (mrow A 0)) C (fun i j => at_ A i j + at_ B i j)).
Proof. exact: @m_C25_field_add. Qed.
Print Assumptions C25_field_add.

Example C25_field_add_case := @C25_field_add F7 fr2 fr2.

Theorem C25_field_neg : forall (F : fieldType) (A : matrix F), fmat_neg A = Ok [seq [seq - x | x <- r] | r <- A].
Proof. exact: @m_C25_field_neg. Qed.
Print Assumptions C25_field_neg.

Example C25_field_neg_case := @C25_field_neg F7 fr2.

Theorem C25_field_scalar_mul : forall (F : fieldType) (A : matrix F) k,
  (returns (fmat_scalar_mul A k) <->
   (0 < size A)%N /\ forall i, (i < size A)%N -> (size (mrow A 0) <= size (mrow A i))%N) /\
  (forall C, fmat_scalar_mul A k = Ok C -> is_mat (size A) (size (mrow A 0)) C (fun i j => at_ A i j * k)).
Proof. exact: @m_C25_field_scalar_mul. Qed.
Print Assumptions C25_field_scalar_mul.

Example C25_field_scalar_mul_case := @C25_field_scalar_mul F7 fr2 (n7 5).

Theorem C25_field_transpose : forall (F : fieldType) (A : matrix F),
  (returns (fmat_transpose A) <->
   (0 < size A)%N /\ forall i, (i < size A)%N -> (size (mrow A i) <= size (mrow A 0))%N) /\
  (forall C, fmat_transpose A = Ok C -> size C = size (mrow A 0) /\
     forall i, (i < size C)%N -> mrow C i = [seq nth 0 r i | r <- A & (i < size r)%N]).
Proof. exact: @m_C25_field_transpose. Qed.
Print Assumptions C25_field_transpose.

Example C25_field_transpose_case := @C25_field_transpose F7 fr2.

Theorem C25_field_right_mul : forall (F : fieldType) (ord : nat -> nat -> order) (par : bool), valid_ord ord -> forall (A : matrix F) (B : matrix F),
  (A = [::] \/ mrow A 0 = [::] \/ B = [::] \/ mrow B 0 = [::] -> fmat_right_mul ord A B par = Ok [::]) /\
  (A <> [::] -> mrow A 0 <> [::] -> B <> [::] -> mrow B 0 <> [::] ->
   (returns (fmat_right_mul ord A B par) <->
    [/\ size (mrow A 0) = size B, (forall i, (i < size A)%N -> (size B <= size (mrow A i))%N) & (forall i, (i < size B)%N -> (size (mrow B 0) <= size (mrow B i))%N)]) /\
   (forall C, fmat_right_mul ord A B par = Ok C ->
      is_mat (size A) (size (mrow B 0)) C (fun i j => \sum_(k < size B) at_ A i k * at_ B k j))).
Proof. exact: @m_C25_field_right_mul. Qed.
Print Assumptions C25_field_right_mul.

Example C25_field_right_mul_case := @C25_field_right_mul F7 (bwd 0%N) true vb fr2 fr2.

Theorem C25_field_left_mul : forall (F : fieldType) (ord : nat -> nat -> order) (par : bool), valid_ord ord -> forall (A : matrix F) (L : matrix F),
  (L = [::] \/ mrow L 0 = [::] \/ A = [::] \/ mrow A 0 = [::] -> fmat_left_mul ord A L par = Ok [::]) /\
  (L <> [::] -> mrow L 0 <> [::] -> A <> [::] -> mrow A 0 <> [::] ->
   (returns (fmat_left_mul ord A L par) <->
    [/\ size (mrow L 0) = size A, (forall i, (i < size L)%N -> (size A <= size (mrow L i))%N) & (forall i, (i < size A)%N -> (size (mrow A 0) <= size (mrow A i))%N)]) /\
   (forall C, fmat_left_mul ord A L par = Ok C ->
      is_mat (size L) (size (mrow A 0)) C (fun i j => \sum_(k < size A) at_ L i k * at_ A k j))).
Proof. exact: @m_C25_field_left_mul. Qed.
Print Assumptions C25_field_left_mul.

Example C25_field_left_mul_case := @C25_field_left_mul F7 (bwd 0%N) true vb fr2 fr2.

Theorem C25_com_add : forall (F : fieldType) (G : lmodType F) (A B : matrix (com G)),
  (returns (cmat_add A B) <->
   [/\ size A = size B, (0 < size A)%N, size (mrow A 0) = size (mrow B 0)
     & forall i, (i < size A)%N -> (size (mrow A 0) <= size (mrow A i))%N /\ (size (mrow A 0) <= size (mrow B i))%N]) /\
  (forall C, cmat_add A B = Ok C -> is_mat (size A) (size (mrow A 0)) C (fun i j => at_ A i j + at_ B i j)).
Proof. exact: @m_C25_com_add. Qed.
Print Assumptions C25_com_add.

Example C25_com_add_case := @C25_com_add F7 F7o cr2 cr2.

Theorem C25_com_neg : forall (F : fieldType) (G : lmodType F) (A : matrix (com G)), cmat_neg A = Ok [seq [seq - x | x <- r] | r <- A].
Proof. exact: @m_C25_com_neg. Qed.
Print Assumptions C25_com_neg.

Example C25_com_neg_case := @C25_com_neg F7 F7o cr2.

Theorem C25_com_scalar_mul : forall (F : fieldType) (G : lmodType F) (A : matrix (com G)) k,
  (returns (cmat_scalar_mul A k) <->
   (0 < size A)%N /\ forall i, (i < size A)%N -> (size (mrow A 0) <= size (mrow A i))%N) /\
  (forall C, cmat_scalar_mul A k = Ok C -> is_mat (size A) (size (mrow A 0)) C (fun i j => k *: at_ A i j)).
Proof. exact: @m_C25_com_scalar_mul. Qed.
Print Assumptions C25_com_scalar_mul.

Example C25_com_scalar_mul_case := @C25_com_scalar_mul F7 F7o cr2 (n7 5).

Theorem C25_com_transpose : forall (F : fieldType) (G : lmodType F) (A : matrix (com G)),
  (returns (cmat_transpose A) <->
   (0 < size A)%N /\ forall i, (i < size A)%N -> (size (mrow A i) <= size (mrow A 0))%N) /\
  (forall C, cmat_transpose A = Ok C -> size C = size (mrow A 0) /\
     forall i, (i < size C)%N -> mrow C i = [seq nth 0 r i | r <- A & (i < size r)%N]).
Proof. exact: @m_C25_com_transpose. Qed.
Print Assumptions C25_com_transpose.

Example C25_com_transpose_case := @C25_com_transpose F7 F7o cr2.

Theorem C25_com_right_mul : forall (F : fieldType) (G : lmodType F) (ord : nat -> nat -> order) (par : bool), valid_ord ord -> forall (A : matrix (com G)) (B : matrix F),
  (A = [::] \/ mrow A 0 = [::] \/ B = [::] \/ mrow B 0 = [::] -> cmat_right_mul ord A B par = Ok [::]) /\
  (A <> [::] -> mrow A 0 <> [::] -> B <> [::] -> mrow B 0 <> [::] ->
   (returns (cmat_right_mul ord A B par) <->
    [/\ size (mrow A 0) = size B, (forall i, (i < size A)%N -> (size B <= size (mrow A i))%N) & (forall i, (i < size B)%N -> (size (mrow B 0) <= size (mrow B i))%N)]) /\
   (forall C, cmat_right_mul ord A B par = Ok C ->
      is_mat (size A) (size (mrow B 0)) C (fun i j => \sum_(k < size B) at_ B k j *: at_ A i k))).
Proof. exact: @m_C25_com_right_mul. Qed.
Print Assumptions C25_com_right_mul.

Example C25_com_right_mul_case := @C25_com_right_mul F7 F7o (bwd 0%N) true vb cr2 fr2.

Theorem C25_com_left_mul : forall (F : fieldType) (G : lmodType F) (ord : nat -> nat -> order) (par : bool), valid_ord ord -> forall (A : matrix (com G)) (L : matrix F),
  (L = [::] \/ mrow L 0 = [::] \/ A = [::] \/ mrow A 0 = [::] -> cmat_left_mul ord A L par = Ok [::]) /\
  (L <> [::] -> mrow L 0 <> [::] -> A <> [::] -> mrow A 0 <> [::] ->
   (returns (cmat_left_mul ord A L par) <->
    [/\ size (mrow L 0) = size A, (forall i, (i < size L)%N -> (size A <= size (mrow L i))%N) & (forall i, (i < size A)%N -> (size (mrow A 0) <= size (mrow A i))%N)]) /\
   (forall C, cmat_left_mul ord A L par = Ok C ->
      is_mat (size L) (size (mrow A 0)) C (fun i j => \sum_(k < size A) at_ L i k *: at_ A k j))).
Proof. exact: @m_C25_com_left_mul. Qed.
Print Assumptions C25_com_left_mul.

Example C25_com_left_mul_case := @C25_com_left_mul F7 F7o (bwd 0%N) true vb cr2 fr2.

Theorem C25_col_vec_to_vec : forall (T : Type) (M : matrix T),
  (returns (col_vec_to_vec M) <-> size M = 1%N \/ forall i, (i < size M)%N -> mrow M i <> [::]) /\
  (size M = 1%N -> col_vec_to_vec M = Ok (mrow M 0)) /\
  (size M <> 1%N -> forall v, col_vec_to_vec M = Ok v ->
     size v = size M /\ forall d i, (i < size M)%N -> nth d v i = head d (mrow M i)).
Proof. exact: @m_C25_col_vec_to_vec. Qed.
Print Assumptions C25_col_vec_to_vec.

Example C25_col_vec_to_vec_case := @C25_col_vec_to_vec F7 fr2.

(** Ragged matrices: accepted and truncated, or rejected. *)
Example C25_case :
  fmat_add [:: [:: n7 1]; [:: n7 2; n7 3]] [:: [:: n7 4]; [:: n7 5]] = Ok [:: [:: n7 5]; [:: n7 7]] /\
  fmat_add [:: [:: n7 1; n7 6]; [:: n7 2]] [:: [:: n7 4; n7 1]; [:: n7 5; n7 1]] = Panic IndexOutOfBounds /\
  fmat_transpose [:: [:: n7 1; n7 2]; [:: n7 3]] = Ok [:: [:: n7 1; n7 3]; [:: n7 2]] /\
  fmat_transpose [:: [:: n7 1]; [:: n7 2; n7 3]] = Panic IndexOutOfBounds /\
  fmat_right_mul (bwd 0%N) [:: [:: n7 1]; [:: n7 2; n7 3]] [:: [:: n7 4]] true = Ok [:: [:: n7 4]; [:: n7 8]] /\
  col_vec_to_vec [:: [:: n7 1; n7 2; n7 3]] = Ok [:: n7 1; n7 2; n7 3] /\
  col_vec_to_vec [:: [:: n7 1; n7 2]; [:: n7 3]] = Ok [:: n7 1; n7 3].
Proof. by do !split; ok_eq. Qed.

(** C30. *)
Theorem C30_com_from_as_col_vec : forall (F : fieldType) (G : lmodType F) (c : com G),
  com_from (com_as_col_vec c) = Ok c.
Proof. exact: @com_fromK. Qed.
Print Assumptions C30_com_from_as_col_vec.

Example C30_com_from_as_col_vec_case := @C30_com_from_as_col_vec F7 F7o (n7 3, n7 4).

Theorem C30_as_vec : forall (F : fieldType) (G : lmodType F) (c : com G),
  col_vec_to_vec (com_as_col_vec c) = Ok (com_as_vec c) /\ com_from (vec_to_col_vec (com_as_vec c)) = Ok c.
Proof. exact: @as_vecE. Qed.
Print Assumptions C30_as_vec.

Example C30_as_vec_case := @C30_as_vec F7 F7o (n7 3, n7 4).

Theorem C30_com_from_exact : forall (F : fieldType) (G : lmodType F) (M : matrix G),
  (returns (com_from M) <-> [/\ size M = 2%N, size (mrow M 0) = 1%N & size (mrow M 1) = 1%N]) /\
  (forall c, com_from M = Ok c -> M = [:: [:: c.1]; [:: c.2]]).
Proof. exact: @com_from_exact. Qed.
Print Assumptions C30_com_from_exact.

Example C30_com_from_exact_case := @C30_com_from_exact F7 F7o [:: [:: n7 3]; [:: n7 4]].

Theorem C30_comT_from_as_matrix : forall (E : pairing) (t : ComT E),
  comT_from (comT_as_matrix t) = Ok t.
Proof. exact: @comT_fromK. Qed.
Print Assumptions C30_comT_from_as_matrix.

Example C30_comT_from_as_matrix_case := @C30_comT_from_as_matrix toy (mkComT (E := toy) (n7 3) (n7 1) (n7 4) (n7 5)).

Theorem C30_comT_from_exact : forall (E : pairing) (M : matrix (GT E)),
  (returns (comT_from M) <-> [/\ size M = 2%N, size (mrow M 0) = 2%N & size (mrow M 1) = 2%N]) /\
  (forall t, comT_from M = Ok t -> M = [:: [:: t0 t; t1 t]; [:: t2 t; t3 t]]).
Proof. exact: @comT_from_exact. Qed.
Print Assumptions C30_comT_from_exact.

Example C30_comT_from_exact_case := @C30_comT_from_exact toy [:: [:: n7 3]; [:: n7 4]].

Theorem C30_col_vec_round_trip : forall (T : Type) (v : seq T), col_vec_to_vec (vec_to_col_vec v) = Ok v.
Proof. exact: @col_vec_to_vecK. Qed.
Print Assumptions C30_col_vec_round_trip.

Example C30_col_vec_round_trip_case := @C30_col_vec_round_trip F7 [:: n7 3; n7 5; n7 6].

Example C30_case :
  com_from (G := F7o) [:: [:: n7 3]; [:: n7 4]] = Ok (n7 3, n7 4) /\
  com_from (G := F7o) [:: [:: n7 3]; [:: n7 4; n7 5]] = Panic AssertFailed /\
  comT_from (E := toy) [:: [:: n7 3; n7 1]; [:: n7 4; n7 5]] = Ok (mkComT (E := toy) (n7 3) (n7 1) (n7 4) (n7 5)) /\
  comT_from (E := toy) [:: [:: n7 3; n7 1]] = Panic AssertFailed.
Proof. by do !split; ok_eq. Qed.
