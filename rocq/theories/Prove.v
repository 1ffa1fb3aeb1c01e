(** Model of /repo/src/prover/prove.rs. *)
From mathcomp Require Import all_ssreflect all_algebra.
From Verif Require Import Base Group DataStructures Commit Statement.
Set Implicit Arguments.
Unset Strict Implicit.
Unset Printing Implicit Defensive.
Import GRing.Theory.
Local Open Scope ring_scope.

Section Prove.
Context {E : pairing}.

(** In all functions [sch k] is the schedule of the k-th parallel product in
    program order. [rand_fr s] is [E::ScalarField::rand(rng)]. *)

(** [PPE::prove], prove.rs:92-171. *)
Definition ppe_prove (sch : sched) (R : rng E) (self : PPE E)
  (xvars : seq (G1 E)) (yvars : seq (G2 E)) (xcoms : Commit1 E) (ycoms : Commit2 E)
  (crs : CRS E) (s : rst R) : res (EquProof E * rst R) :=
  let! _ := assert_eq (size xvars) (size (crand xcoms)) in
  let! _ := assert_eq (size (ppe_gamma self)) (size (crand xcoms)) in
  let! xr0 := idx (crand xcoms) 0 in
  let! _ := assert_eq (size xr0) 2 in
  let! _ := assert_eq (size yvars) (size (crand ycoms)) in
  let! g0 := idx (ppe_gamma self) 0 in
  let! _ := assert_eq (size g0) (size (crand ycoms)) in
  let! yr0 := idx (crand ycoms) 0 in
  let! _ := assert_eq (size yr0) 2 in
  let is_parallel := true in
  let! x_rand_trans := fmat_transpose (crand xcoms) in
  let! y_rand_trans := fmat_transpose (crand ycoms) in
  let (r00, s) := rand_fr s in
  let (r01, s) := rand_fr s in
  let (r10, s) := rand_fr s in
  let (r11, s) := rand_fr s in
  let pf_rand := [:: [:: r00; r01]; [:: r10; r11]] in
  let! x_rand_lin_b :=
    cmat_left_mul (sch 0%N) (vec_to_col_vec (com2_batch_linear_map (ppe_b self)))
      x_rand_trans is_parallel in
  let! x_rand_stmt :=
    fmat_right_mul (sch 1%N) x_rand_trans (ppe_gamma self) is_parallel in
  let! x_rand_stmt_lin_y :=
    cmat_left_mul (sch 2%N) (vec_to_col_vec (com2_batch_linear_map yvars))
      x_rand_stmt is_parallel in
  let! xg := fmat_right_mul (sch 3%N) x_rand_trans (ppe_gamma self) is_parallel in
  let! xgy := fmat_right_mul (sch 4%N) xg (crand ycoms) is_parallel in
  let! pt := fmat_transpose pf_rand in
  let! npt := fmat_neg pt in
  let! pf_rand_stmt := fmat_add xgy npt in
  let! pf_rand_stmt_com2 :=
    cmat_left_mul (sch 5%N) (vec_to_col_vec (crs_v crs)) pf_rand_stmt is_parallel in
  let! pi1 := cmat_add x_rand_lin_b x_rand_stmt_lin_y in
  let! pi2 := cmat_add pi1 pf_rand_stmt_com2 in
  let! pi := col_vec_to_vec pi2 in
  let! _ := assert_eq (size pi) 2 in
  let! y_rand_lin_a :=
    cmat_left_mul (sch 6%N) (vec_to_col_vec (com1_batch_linear_map (ppe_a self)))
      y_rand_trans is_parallel in
  let! gt := fmat_transpose (ppe_gamma self) in
  let! y_rand_stmt := fmat_right_mul (sch 7%N) y_rand_trans gt is_parallel in
  let! y_rand_stmt_lin_x :=
    cmat_left_mul (sch 8%N) (vec_to_col_vec (com1_batch_linear_map xvars))
      y_rand_stmt is_parallel in
  let! pf_rand_com1 :=
    cmat_left_mul (sch 9%N) (vec_to_col_vec (crs_u crs)) pf_rand is_parallel in
  let! theta1 := cmat_add y_rand_lin_a y_rand_stmt_lin_x in
  let! theta2 := cmat_add theta1 pf_rand_com1 in
  let! theta := col_vec_to_vec theta2 in
  let! _ := assert_eq (size theta) 2 in
  Ok (mkEquProof pi theta PairingProduct pf_rand, s).

(** [PPE::commit_and_prove], prove.rs:72-90. *)
Definition ppe_commit_and_prove (sch : sched) (R : rng E) (self : PPE E)
  (xvars : seq (G1 E)) (yvars : seq (G2 E)) (crs : CRS E) (s : rst R)
  : res (CProof E * rst R) :=
  let! (xcoms, s) := batch_commit_G1 xvars crs s in
  let! (ycoms, s) := batch_commit_G2 yvars crs s in
  let! (pf, s) := ppe_prove sch self xvars yvars xcoms ycoms crs s in
  Ok (mkCProof xcoms ycoms [:: pf], s).

(** [MSMEG1::prove], prove.rs:195-274. *)
Definition ms1_prove (sch : sched) (R : rng E) (self : MSMEG1 E)
  (xvars : seq (G1 E)) (scalar_yvars : seq (Fr E)) (xcoms : Commit1 E)
  (scalar_ycoms : Commit2 E) (crs : CRS E) (s : rst R) : res (EquProof E * rst R) :=
  let! _ := assert_eq (size xvars) (size (crand xcoms)) in
  let! _ := assert_eq (size (ms1_gamma self)) (size (crand xcoms)) in
  let! xr0 := idx (crand xcoms) 0 in
  let! _ := assert_eq (size xr0) 2 in
  let! _ := assert_eq (size scalar_yvars) (size (crand scalar_ycoms)) in
  let! g0 := idx (ms1_gamma self) 0 in
  let! _ := assert_eq (size g0) (size (crand scalar_ycoms)) in
  let! yr0 := idx (crand scalar_ycoms) 0 in
  let! _ := assert_eq (size yr0) 1 in
  let is_parallel := true in
  let! x_rand_trans := fmat_transpose (crand xcoms) in
  let! y_rand_trans := fmat_transpose (crand scalar_ycoms) in
  let (r0, s) := rand_fr s in
  let (r1, s) := rand_fr s in
  let pf_rand := [:: [:: r0; r1]] in
  let! lin_b := com2_batch_scalar_linear_map (ms1_b self) crs in
  let! x_rand_lin_b :=
    cmat_left_mul (sch 0%N) (vec_to_col_vec lin_b) x_rand_trans is_parallel in
  let! x_rand_stmt :=
    fmat_right_mul (sch 1%N) x_rand_trans (ms1_gamma self) is_parallel in
  let! lin_y := com2_batch_scalar_linear_map scalar_yvars crs in
  let! x_rand_stmt_lin_y :=
    cmat_left_mul (sch 2%N) (vec_to_col_vec lin_y) x_rand_stmt is_parallel in
  let! xg := fmat_right_mul (sch 3%N) x_rand_trans (ms1_gamma self) is_parallel in
  let! xgy := fmat_right_mul (sch 4%N) xg (crand scalar_ycoms) is_parallel in
  let! pt := fmat_transpose pf_rand in
  let! npt := fmat_neg pt in
  let! pf_rand_stmt := fmat_add xgy npt in
  let! v0 := idx (crs_v crs) 0 in
  let v1 := [:: [:: v0]] in
  let! pf_rand_stmt_com2 := cmat_left_mul (sch 5%N) v1 pf_rand_stmt is_parallel in
  let! pi1 := cmat_add x_rand_lin_b x_rand_stmt_lin_y in
  let! pi2 := cmat_add pi1 pf_rand_stmt_com2 in
  let! pi := col_vec_to_vec pi2 in
  let! _ := assert_eq (size pi) 2 in
  let! y_rand_lin_a :=
    cmat_left_mul (sch 6%N) (vec_to_col_vec (com1_batch_linear_map (ms1_a self)))
      y_rand_trans is_parallel in
  let! gt := fmat_transpose (ms1_gamma self) in
  let! y_rand_stmt := fmat_right_mul (sch 7%N) y_rand_trans gt is_parallel in
  let! y_rand_stmt_lin_x :=
    cmat_left_mul (sch 8%N) (vec_to_col_vec (com1_batch_linear_map xvars))
      y_rand_stmt is_parallel in
  let! pf_rand_com1 :=
    cmat_left_mul (sch 9%N) (vec_to_col_vec (crs_u crs)) pf_rand is_parallel in
  let! theta1 := cmat_add y_rand_lin_a y_rand_stmt_lin_x in
  let! theta2 := cmat_add theta1 pf_rand_com1 in
  let! theta := col_vec_to_vec theta2 in
  let! _ := assert_eq (size theta) 1 in
  Ok (mkEquProof pi theta MultiScalarG1 pf_rand, s).

(** [MSMEG1::commit_and_prove], prove.rs:175-193. *)
Definition ms1_commit_and_prove (sch : sched) (R : rng E) (self : MSMEG1 E)
  (xvars : seq (G1 E)) (scalar_yvars : seq (Fr E)) (crs : CRS E) (s : rst R)
  : res (CProof E * rst R) :=
  let! (xcoms, s) := batch_commit_G1 xvars crs s in
  let! (scalar_ycoms, s) := batch_commit_scalar_to_B2 scalar_yvars crs s in
  let! (pf, s) := ms1_prove sch self xvars scalar_yvars xcoms scalar_ycoms crs s in
  Ok (mkCProof xcoms scalar_ycoms [:: pf], s).

(** [MSMEG2::prove], prove.rs:298-379. *)
Definition ms2_prove (sch : sched) (R : rng E) (self : MSMEG2 E)
  (scalar_xvars : seq (Fr E)) (yvars : seq (G2 E)) (scalar_xcoms : Commit1 E)
  (ycoms : Commit2 E) (crs : CRS E) (s : rst R) : res (EquProof E * rst R) :=
  let! _ := assert_eq (size scalar_xvars) (size (crand scalar_xcoms)) in
  let! _ := assert_eq (size (ms2_gamma self)) (size (crand scalar_xcoms)) in
  let! xr0 := idx (crand scalar_xcoms) 0 in
  let! _ := assert_eq (size xr0) 1 in
  let! _ := assert_eq (size yvars) (size (crand ycoms)) in
  let! g0 := idx (ms2_gamma self) 0 in
  let! _ := assert_eq (size g0) (size (crand ycoms)) in
  let! yr0 := idx (crand ycoms) 0 in
  let! _ := assert_eq (size yr0) 2 in
  let is_parallel := true in
  let! x_rand_trans := fmat_transpose (crand scalar_xcoms) in
  let! y_rand_trans := fmat_transpose (crand ycoms) in
  let (r0, s) := rand_fr s in
  let (r1, s) := rand_fr s in
  let pf_rand := [:: [:: r0]; [:: r1]] in
  let! x_rand_lin_b :=
    cmat_left_mul (sch 0%N) (vec_to_col_vec (com2_batch_linear_map (ms2_b self)))
      x_rand_trans is_parallel in
  let! x_rand_stmt :=
    fmat_right_mul (sch 1%N) x_rand_trans (ms2_gamma self) is_parallel in
  let! x_rand_stmt_lin_y :=
    cmat_left_mul (sch 2%N) (vec_to_col_vec (com2_batch_linear_map yvars))
      x_rand_stmt is_parallel in
  let! xg := fmat_right_mul (sch 3%N) x_rand_trans (ms2_gamma self) is_parallel in
  let! xgy := fmat_right_mul (sch 4%N) xg (crand ycoms) is_parallel in
  let! pt := fmat_transpose pf_rand in
  let! npt := fmat_neg pt in
  let! pf_rand_stmt := fmat_add xgy npt in
  let! pf_rand_stmt_com2 :=
    cmat_left_mul (sch 5%N) (vec_to_col_vec (crs_v crs)) pf_rand_stmt is_parallel in
  let! pi1 := cmat_add x_rand_lin_b x_rand_stmt_lin_y in
  let! pi2 := cmat_add pi1 pf_rand_stmt_com2 in
  let! pi := col_vec_to_vec pi2 in
  let! _ := assert_eq (size pi) 1 in
  let! lin_a := com1_batch_scalar_linear_map (ms2_a self) crs in
  let! y_rand_lin_a :=
    cmat_left_mul (sch 6%N) (vec_to_col_vec lin_a) y_rand_trans is_parallel in
  let! gt := fmat_transpose (ms2_gamma self) in
  let! y_rand_stmt := fmat_right_mul (sch 7%N) y_rand_trans gt is_parallel in
  let! lin_x := com1_batch_scalar_linear_map scalar_xvars crs in
  let! y_rand_stmt_lin_x :=
    cmat_left_mul (sch 8%N) (vec_to_col_vec lin_x) y_rand_stmt is_parallel in
  let! u0 := idx (crs_u crs) 0 in
  let u1 := [:: [:: u0]] in
  let! pf_rand_com1 := cmat_left_mul (sch 9%N) u1 pf_rand is_parallel in
  let! theta1 := cmat_add y_rand_lin_a y_rand_stmt_lin_x in
  let! theta2 := cmat_add theta1 pf_rand_com1 in
  let! theta := col_vec_to_vec theta2 in
  let! _ := assert_eq (size theta) 2 in
  Ok (mkEquProof pi theta MultiScalarG2 pf_rand, s).

(** [MSMEG2::commit_and_prove], prove.rs:278-296. *)
Definition ms2_commit_and_prove (sch : sched) (R : rng E) (self : MSMEG2 E)
  (scalar_xvars : seq (Fr E)) (yvars : seq (G2 E)) (crs : CRS E) (s : rst R)
  : res (CProof E * rst R) :=
  let! (scalar_xcoms, s) := batch_commit_scalar_to_B1 scalar_xvars crs s in
  let! (ycoms, s) := batch_commit_G2 yvars crs s in
  let! (pf, s) := ms2_prove sch self scalar_xvars yvars scalar_xcoms ycoms crs s in
  Ok (mkCProof scalar_xcoms ycoms [:: pf], s).

(** [QuadEqu::prove], prove.rs:409-488. *)
Definition quad_prove (sch : sched) (R : rng E) (self : QuadEqu E)
  (scalar_xvars scalar_yvars : seq (Fr E)) (scalar_xcoms : Commit1 E)
  (scalar_ycoms : Commit2 E) (crs : CRS E) (s : rst R) : res (EquProof E * rst R) :=
  let! _ := assert_eq (size scalar_xvars) (size (crand scalar_xcoms)) in
  let! _ := assert_eq (size (quad_gamma self)) (size (crand scalar_xcoms)) in
  let! xr0 := idx (crand scalar_xcoms) 0 in
  let! _ := assert_eq (size xr0) 1 in
  let! _ := assert_eq (size scalar_yvars) (size (crand scalar_ycoms)) in
  let! g0 := idx (quad_gamma self) 0 in
  let! _ := assert_eq (size g0) (size (crand scalar_ycoms)) in
  let! yr0 := idx (crand scalar_ycoms) 0 in
  let! _ := assert_eq (size yr0) 1 in
  let is_parallel := true in
  let! x_rand_trans := fmat_transpose (crand scalar_xcoms) in
  let! y_rand_trans := fmat_transpose (crand scalar_ycoms) in
  let (r, s) := rand_fr s in
  let pf_rand := [:: [:: r]] in
  let! lin_b := com2_batch_scalar_linear_map (quad_b self) crs in
  let! x_rand_lin_b :=
    cmat_left_mul (sch 0%N) (vec_to_col_vec lin_b) x_rand_trans is_parallel in
  let! x_rand_stmt :=
    fmat_right_mul (sch 1%N) x_rand_trans (quad_gamma self) is_parallel in
  let! lin_y := com2_batch_scalar_linear_map scalar_yvars crs in
  let! x_rand_stmt_lin_y :=
    cmat_left_mul (sch 2%N) (vec_to_col_vec lin_y) x_rand_stmt is_parallel in
  let! xg := fmat_right_mul (sch 3%N) x_rand_trans (quad_gamma self) is_parallel in
  let! xgy := fmat_right_mul (sch 4%N) xg (crand scalar_ycoms) is_parallel in
  let! pt := fmat_transpose pf_rand in
  let! npt := fmat_neg pt in
  let! pf_rand_stmt := fmat_add xgy npt in
  let! v0 := idx (crs_v crs) 0 in
  let v1 := [:: [:: v0]] in
  let! pf_rand_stmt_com2 := cmat_left_mul (sch 5%N) v1 pf_rand_stmt is_parallel in
  let! pi1 := cmat_add x_rand_lin_b x_rand_stmt_lin_y in
  let! pi2 := cmat_add pi1 pf_rand_stmt_com2 in
  let! pi := col_vec_to_vec pi2 in
  let! _ := assert_eq (size pi) 1 in
  let! lin_a := com1_batch_scalar_linear_map (quad_a self) crs in
  let! y_rand_lin_a :=
    cmat_left_mul (sch 6%N) (vec_to_col_vec lin_a) y_rand_trans is_parallel in
  let! gt := fmat_transpose (quad_gamma self) in
  let! y_rand_stmt := fmat_right_mul (sch 7%N) y_rand_trans gt is_parallel in
  let! lin_x := com1_batch_scalar_linear_map scalar_xvars crs in
  let! y_rand_stmt_lin_x :=
    cmat_left_mul (sch 8%N) (vec_to_col_vec lin_x) y_rand_stmt is_parallel in
  let! u0 := idx (crs_u crs) 0 in
  let u1 := [:: [:: u0]] in
  let! pf_rand_com1 := cmat_left_mul (sch 9%N) u1 pf_rand is_parallel in
  let! theta1 := cmat_add y_rand_lin_a y_rand_stmt_lin_x in
  let! theta2 := cmat_add theta1 pf_rand_com1 in
  let! theta := col_vec_to_vec theta2 in
  let! _ := assert_eq (size theta) 1 in
  Ok (mkEquProof pi theta Quadratic pf_rand, s).

(** [QuadEqu::commit_and_prove], prove.rs:383-408. *)
Definition quad_commit_and_prove (sch : sched) (R : rng E) (self : QuadEqu E)
  (scalar_xvars scalar_yvars : seq (Fr E)) (crs : CRS E) (s : rst R)
  : res (CProof E * rst R) :=
  let! (scalar_xcoms, s) := batch_commit_scalar_to_B1 scalar_xvars crs s in
  let! (scalar_ycoms, s) := batch_commit_scalar_to_B2 scalar_yvars crs s in
  let! (pf, s) :=
    quad_prove sch self scalar_xvars scalar_yvars scalar_xcoms scalar_ycoms crs s in
  Ok (mkCProof scalar_xcoms scalar_ycoms [:: pf], s).
End Prove.
