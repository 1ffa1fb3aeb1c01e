(** The functions that draw randomness, with the state of the generator when the call
    ends, by return or by panic ([rng : &mut R] keeps the draws made before a panic).
    The text is that of Commit.v and Prove.v with the state threaded by [sbind]. *)
From mathcomp Require Import all_ssreflect all_algebra.
From Verif Require Import Base Group DataStructures Commit Statement Prove.
Set Implicit Arguments.
Unset Strict Implicit.
Unset Printing Implicit Defensive.
Import GRing.Theory.
Local Open Scope ring_scope.

Section State.
Context {E : pairing} {R : rng E}.

(** A call that may draw: its outcome and the state of the generator at its end;
    [rng: &mut CR] of e.g. commit.rs:60. *)
Definition st (A : Type) := rst R -> res A * rst R.
(** Sequencing: a panic unwinds and leaves the state as it is; e.g. commit.rs:66-70. *)
Definition sbind {A B} (m : st A) (k : A -> st B) : st B := fun s =>
  match m s with (Ok a, s) => k a s | (Panic p, s) => (Panic p, s) end.
(** A part that does not draw, e.g. commit.rs:68-70. *)
Definition pure {A} (r : res A) : st A := fun s => (r, s).
(** [E::ScalarField::rand(rng)], e.g. commit.rs:66. *)
Definition draw : st (Fr E) := fun s => let (x, s) := rand_fr s in (Ok x, s).
End State.
Arguments st {E} R A.
Notation "'let^' x ':=' m 'in' k" := (sbind m (fun x => k))
  (at level 200, x pattern, m at level 100, k at level 200).

Section Functions.
Context {E : pairing} {R : rng E}.

(** The loops drawing randomness matrices of two columns, commit.rs:85-88
    and 185-188. *)
Fixpoint st_draw_rows2 (m : nat) : st R (matrix (Fr E)) :=
  match m with
  | 0 => pure (Ok [::])
  | m'.+1 =>
      let^ r1 := draw in
      let^ r2 := draw in
      let^ rows := st_draw_rows2 m' in
      pure (Ok ([:: r1; r2] :: rows))
  end.

(** The same with one column, commit.rs:135-138 and 235-238. *)
Fixpoint st_draw_rows1 (m : nat) : st R (matrix (Fr E)) :=
  match m with
  | 0 => pure (Ok [::])
  | m'.+1 =>
      let^ r := draw in
      let^ rows := st_draw_rows1 m' in
      pure (Ok ([:: r] :: rows))
  end.

(** [commit_G1], commit.rs:59-75. *)
Definition st_commit_G1 (xvar : G1 E) (key : CRS E)
  : st R (Commit1 E) :=
  let^ r1 := draw in
  let^ r2 := draw in
  let^ u0 := pure (key_at (crs_u key) 0) in
  let^ u1 := pure (key_at (crs_u key) 1) in
  pure (Ok (mkCommit [:: com_add (com_add (com1_linear_map xvar) (com_scalar_mul u0 r1))
                           (com_scalar_mul u1 r2)]
               [:: [:: r1; r2]])).

(** [batch_commit_G1], commit.rs:78-100. *)
Definition st_batch_commit_G1 (xvars : seq (G1 E)) (key : CRS E)
  : st R (Commit1 E) :=
  let m := size xvars in
  let^ rr := st_draw_rows2 m in
  let lin_x := vec_to_col_vec (com1_batch_linear_map xvars) in
  let^ ru := pure (cmat_left_mul no_ord (vec_to_col_vec (crs_u key)) rr false) in
  let^ cs := pure (cmat_add lin_x ru) in
  let^ cv := pure (col_vec_to_vec cs) in
  pure (Ok (mkCommit cv rr)).

(** [commit_scalar_to_B1], commit.rs:103-122. *)
Definition st_commit_scalar_to_B1 (scalar_xvar : Fr E) (key : CRS E)
  : st R (Commit1 E) :=
  let^ r := draw in
  let^ x := pure (com1_scalar_linear_map scalar_xvar key) in
  let^ u0 := pure (key_at (crs_u key) 0) in
  pure (Ok (mkCommit [:: com_add x (com_scalar_mul u0 r)] [:: [:: r]])).

(** [batch_commit_scalar_to_B1], commit.rs:125-156. *)
Definition st_batch_commit_scalar_to_B1 (scalar_xvars : seq (Fr E))
  (key : CRS E) : st R (Commit1 E) :=
  let mprime := size scalar_xvars in
  let^ r := st_draw_rows1 mprime in
  let^ slx := pure (com1_batch_scalar_linear_map scalar_xvars key) in
  let slin_x := vec_to_col_vec slx in
  let^ rv := pure (col_vec_to_vec r) in
  let^ ruv := pure (mapM (fun sca =>
    let! u0 := key_at (crs_u key) 0 in Ok (com_scalar_mul u0 sca)) rv) in
  let ru := vec_to_col_vec ruv in
  let^ cs := pure (cmat_add slin_x ru) in
  let^ cv := pure (col_vec_to_vec cs) in
  pure (Ok (mkCommit cv r)).

(** [commit_G2], commit.rs:159-175. *)
Definition st_commit_G2 (yvar : G2 E) (key : CRS E)
  : st R (Commit2 E) :=
  let^ s1 := draw in
  let^ s2 := draw in
  let^ v0 := pure (key_at (crs_v key) 0) in
  let^ v1 := pure (key_at (crs_v key) 1) in
  pure (Ok (mkCommit [:: com_add (com_add (com2_linear_map yvar) (com_scalar_mul v0 s1))
                           (com_scalar_mul v1 s2)]
               [:: [:: s1; s2]])).

(** [batch_commit_G2], commit.rs:178-200. *)
Definition st_batch_commit_G2 (yvars : seq (G2 E)) (key : CRS E)
  : st R (Commit2 E) :=
  let n := size yvars in
  let^ ss := st_draw_rows2 n in
  let lin_y := vec_to_col_vec (com2_batch_linear_map yvars) in
  let^ sv := pure (cmat_left_mul no_ord (vec_to_col_vec (crs_v key)) ss false) in
  let^ cs := pure (cmat_add lin_y sv) in
  let^ cv := pure (col_vec_to_vec cs) in
  pure (Ok (mkCommit cv ss)).

(** [commit_scalar_to_B2], commit.rs:203-222. *)
Definition st_commit_scalar_to_B2 (scalar_yvar : Fr E) (key : CRS E)
  : st R (Commit2 E) :=
  let^ s1 := draw in
  let^ y := pure (com2_scalar_linear_map scalar_yvar key) in
  let^ v0 := pure (key_at (crs_v key) 0) in
  pure (Ok (mkCommit [:: com_add y (com_scalar_mul v0 s1)] [:: [:: s1]])).

(** [batch_commit_scalar_to_B2], commit.rs:225-256. *)
Definition st_batch_commit_scalar_to_B2 (scalar_yvars : seq (Fr E))
  (key : CRS E) : st R (Commit2 E) :=
  let nprime := size scalar_yvars in
  let^ ss := st_draw_rows1 nprime in
  let^ sly := pure (com2_batch_scalar_linear_map scalar_yvars key) in
  let slin_y := vec_to_col_vec sly in
  let^ sv := pure (col_vec_to_vec ss) in
  let^ svv := pure (mapM (fun sca =>
    let! v0 := key_at (crs_v key) 0 in Ok (com_scalar_mul v0 sca)) sv) in
  let sv := vec_to_col_vec svv in
  let^ cs := pure (cmat_add slin_y sv) in
  let^ cv := pure (col_vec_to_vec cs) in
  pure (Ok (mkCommit cv ss)).

(** [PPE::prove], prove.rs:92-171. *)
Definition st_ppe_prove (sch : sched) (self : PPE E)
  (xvars : seq (G1 E)) (yvars : seq (G2 E)) (xcoms : Commit1 E) (ycoms : Commit2 E)
  (crs : CRS E) : st R (EquProof E) :=
  let^ _ := pure (assert_eq (size xvars) (size (crand xcoms))) in
  let^ _ := pure (assert_eq (size (ppe_gamma self)) (size (crand xcoms))) in
  let^ xr0 := pure (idx (crand xcoms) 0) in
  let^ _ := pure (assert_eq (size xr0) 2) in
  let^ _ := pure (assert_eq (size yvars) (size (crand ycoms))) in
  let^ g0 := pure (idx (ppe_gamma self) 0) in
  let^ _ := pure (assert_eq (size g0) (size (crand ycoms))) in
  let^ yr0 := pure (idx (crand ycoms) 0) in
  let^ _ := pure (assert_eq (size yr0) 2) in
  let is_parallel := true in
  let^ x_rand_trans := pure (fmat_transpose (crand xcoms)) in
  let^ y_rand_trans := pure (fmat_transpose (crand ycoms)) in
  let^ r00 := draw in
  let^ r01 := draw in
  let^ r10 := draw in
  let^ r11 := draw in
  let pf_rand := [:: [:: r00; r01]; [:: r10; r11]] in
  let^ x_rand_lin_b :=
    pure (cmat_left_mul (sch 0%N) (vec_to_col_vec (com2_batch_linear_map (ppe_b self)))
      x_rand_trans is_parallel) in
  let^ x_rand_stmt :=
    pure (fmat_right_mul (sch 1%N) x_rand_trans (ppe_gamma self) is_parallel) in
  let^ x_rand_stmt_lin_y :=
    pure (cmat_left_mul (sch 2%N) (vec_to_col_vec (com2_batch_linear_map yvars))
      x_rand_stmt is_parallel) in
  let^ xg := pure (fmat_right_mul (sch 3%N) x_rand_trans (ppe_gamma self) is_parallel) in
  let^ xgy := pure (fmat_right_mul (sch 4%N) xg (crand ycoms) is_parallel) in
  let^ pt := pure (fmat_transpose pf_rand) in
  let^ npt := pure (fmat_neg pt) in
  let^ pf_rand_stmt := pure (fmat_add xgy npt) in
  let^ pf_rand_stmt_com2 :=
    pure (cmat_left_mul (sch 5%N) (vec_to_col_vec (crs_v crs)) pf_rand_stmt is_parallel) in
  let^ pi1 := pure (cmat_add x_rand_lin_b x_rand_stmt_lin_y) in
  let^ pi2 := pure (cmat_add pi1 pf_rand_stmt_com2) in
  let^ pi := pure (col_vec_to_vec pi2) in
  let^ _ := pure (assert_eq (size pi) 2) in
  let^ y_rand_lin_a :=
    pure (cmat_left_mul (sch 6%N) (vec_to_col_vec (com1_batch_linear_map (ppe_a self)))
      y_rand_trans is_parallel) in
  let^ gt := pure (fmat_transpose (ppe_gamma self)) in
  let^ y_rand_stmt := pure (fmat_right_mul (sch 7%N) y_rand_trans gt is_parallel) in
  let^ y_rand_stmt_lin_x :=
    pure (cmat_left_mul (sch 8%N) (vec_to_col_vec (com1_batch_linear_map xvars))
      y_rand_stmt is_parallel) in
  let^ pf_rand_com1 :=
    pure (cmat_left_mul (sch 9%N) (vec_to_col_vec (crs_u crs)) pf_rand is_parallel) in
  let^ theta1 := pure (cmat_add y_rand_lin_a y_rand_stmt_lin_x) in
  let^ theta2 := pure (cmat_add theta1 pf_rand_com1) in
  let^ theta := pure (col_vec_to_vec theta2) in
  let^ _ := pure (assert_eq (size theta) 2) in
  pure (Ok (mkEquProof pi theta PairingProduct pf_rand)).

(** [PPE::commit_and_prove], prove.rs:72-90. *)
Definition st_ppe_commit_and_prove (sch : sched) (self : PPE E)
  (xvars : seq (G1 E)) (yvars : seq (G2 E)) (crs : CRS E)
  : st R (CProof E) :=
  let^ xcoms := st_batch_commit_G1 xvars crs in
  let^ ycoms := st_batch_commit_G2 yvars crs in
  let^ pf := st_ppe_prove sch self xvars yvars xcoms ycoms crs in
  pure (Ok (mkCProof xcoms ycoms [:: pf])).

(** [MSMEG1::prove], prove.rs:195-274. *)
Definition st_ms1_prove (sch : sched) (self : MSMEG1 E)
  (xvars : seq (G1 E)) (scalar_yvars : seq (Fr E)) (xcoms : Commit1 E)
  (scalar_ycoms : Commit2 E) (crs : CRS E) : st R (EquProof E) :=
  let^ _ := pure (assert_eq (size xvars) (size (crand xcoms))) in
  let^ _ := pure (assert_eq (size (ms1_gamma self)) (size (crand xcoms))) in
  let^ xr0 := pure (idx (crand xcoms) 0) in
  let^ _ := pure (assert_eq (size xr0) 2) in
  let^ _ := pure (assert_eq (size scalar_yvars) (size (crand scalar_ycoms))) in
  let^ g0 := pure (idx (ms1_gamma self) 0) in
  let^ _ := pure (assert_eq (size g0) (size (crand scalar_ycoms))) in
  let^ yr0 := pure (idx (crand scalar_ycoms) 0) in
  let^ _ := pure (assert_eq (size yr0) 1) in
  let is_parallel := true in
  let^ x_rand_trans := pure (fmat_transpose (crand xcoms)) in
  let^ y_rand_trans := pure (fmat_transpose (crand scalar_ycoms)) in
  let^ r0 := draw in
  let^ r1 := draw in
  let pf_rand := [:: [:: r0; r1]] in
  let^ lin_b := pure (com2_batch_scalar_linear_map (ms1_b self) crs) in
  let^ x_rand_lin_b :=
    pure (cmat_left_mul (sch 0%N) (vec_to_col_vec lin_b) x_rand_trans is_parallel) in
  let^ x_rand_stmt :=
    pure (fmat_right_mul (sch 1%N) x_rand_trans (ms1_gamma self) is_parallel) in
  let^ lin_y := pure (com2_batch_scalar_linear_map scalar_yvars crs) in
  let^ x_rand_stmt_lin_y :=
    pure (cmat_left_mul (sch 2%N) (vec_to_col_vec lin_y) x_rand_stmt is_parallel) in
  let^ xg := pure (fmat_right_mul (sch 3%N) x_rand_trans (ms1_gamma self) is_parallel) in
  let^ xgy := pure (fmat_right_mul (sch 4%N) xg (crand scalar_ycoms) is_parallel) in
  let^ pt := pure (fmat_transpose pf_rand) in
  let^ npt := pure (fmat_neg pt) in
  let^ pf_rand_stmt := pure (fmat_add xgy npt) in
  let^ v0 := pure (idx (crs_v crs) 0) in
  let v1 := [:: [:: v0]] in
  let^ pf_rand_stmt_com2 := pure (cmat_left_mul (sch 5%N) v1 pf_rand_stmt is_parallel) in
  let^ pi1 := pure (cmat_add x_rand_lin_b x_rand_stmt_lin_y) in
  let^ pi2 := pure (cmat_add pi1 pf_rand_stmt_com2) in
  let^ pi := pure (col_vec_to_vec pi2) in
  let^ _ := pure (assert_eq (size pi) 2) in
  let^ y_rand_lin_a :=
    pure (cmat_left_mul (sch 6%N) (vec_to_col_vec (com1_batch_linear_map (ms1_a self)))
      y_rand_trans is_parallel) in
  let^ gt := pure (fmat_transpose (ms1_gamma self)) in
  let^ y_rand_stmt := pure (fmat_right_mul (sch 7%N) y_rand_trans gt is_parallel) in
  let^ y_rand_stmt_lin_x :=
    pure (cmat_left_mul (sch 8%N) (vec_to_col_vec (com1_batch_linear_map xvars))
      y_rand_stmt is_parallel) in
  let^ pf_rand_com1 :=
    pure (cmat_left_mul (sch 9%N) (vec_to_col_vec (crs_u crs)) pf_rand is_parallel) in
  let^ theta1 := pure (cmat_add y_rand_lin_a y_rand_stmt_lin_x) in
  let^ theta2 := pure (cmat_add theta1 pf_rand_com1) in
  let^ theta := pure (col_vec_to_vec theta2) in
  let^ _ := pure (assert_eq (size theta) 1) in
  pure (Ok (mkEquProof pi theta MultiScalarG1 pf_rand)).

(** [MSMEG1::commit_and_prove], prove.rs:175-193. *)
Definition st_ms1_commit_and_prove (sch : sched) (self : MSMEG1 E)
  (xvars : seq (G1 E)) (scalar_yvars : seq (Fr E)) (crs : CRS E)
  : st R (CProof E) :=
  let^ xcoms := st_batch_commit_G1 xvars crs in
  let^ scalar_ycoms := st_batch_commit_scalar_to_B2 scalar_yvars crs in
  let^ pf := st_ms1_prove sch self xvars scalar_yvars xcoms scalar_ycoms crs in
  pure (Ok (mkCProof xcoms scalar_ycoms [:: pf])).

(** [MSMEG2::prove], prove.rs:298-379. *)
Definition st_ms2_prove (sch : sched) (self : MSMEG2 E)
  (scalar_xvars : seq (Fr E)) (yvars : seq (G2 E)) (scalar_xcoms : Commit1 E)
  (ycoms : Commit2 E) (crs : CRS E) : st R (EquProof E) :=
  let^ _ := pure (assert_eq (size scalar_xvars) (size (crand scalar_xcoms))) in
  let^ _ := pure (assert_eq (size (ms2_gamma self)) (size (crand scalar_xcoms))) in
  let^ xr0 := pure (idx (crand scalar_xcoms) 0) in
  let^ _ := pure (assert_eq (size xr0) 1) in
  let^ _ := pure (assert_eq (size yvars) (size (crand ycoms))) in
  let^ g0 := pure (idx (ms2_gamma self) 0) in
  let^ _ := pure (assert_eq (size g0) (size (crand ycoms))) in
  let^ yr0 := pure (idx (crand ycoms) 0) in
  let^ _ := pure (assert_eq (size yr0) 2) in
  let is_parallel := true in
  let^ x_rand_trans := pure (fmat_transpose (crand scalar_xcoms)) in
  let^ y_rand_trans := pure (fmat_transpose (crand ycoms)) in
  let^ r0 := draw in
  let^ r1 := draw in
  let pf_rand := [:: [:: r0]; [:: r1]] in
  let^ x_rand_lin_b :=
    pure (cmat_left_mul (sch 0%N) (vec_to_col_vec (com2_batch_linear_map (ms2_b self)))
      x_rand_trans is_parallel) in
  let^ x_rand_stmt :=
    pure (fmat_right_mul (sch 1%N) x_rand_trans (ms2_gamma self) is_parallel) in
  let^ x_rand_stmt_lin_y :=
    pure (cmat_left_mul (sch 2%N) (vec_to_col_vec (com2_batch_linear_map yvars))
      x_rand_stmt is_parallel) in
  let^ xg := pure (fmat_right_mul (sch 3%N) x_rand_trans (ms2_gamma self) is_parallel) in
  let^ xgy := pure (fmat_right_mul (sch 4%N) xg (crand ycoms) is_parallel) in
  let^ pt := pure (fmat_transpose pf_rand) in
  let^ npt := pure (fmat_neg pt) in
  let^ pf_rand_stmt := pure (fmat_add xgy npt) in
  let^ pf_rand_stmt_com2 :=
    pure (cmat_left_mul (sch 5%N) (vec_to_col_vec (crs_v crs)) pf_rand_stmt is_parallel) in
  let^ pi1 := pure (cmat_add x_rand_lin_b x_rand_stmt_lin_y) in
  let^ pi2 := pure (cmat_add pi1 pf_rand_stmt_com2) in
  let^ pi := pure (col_vec_to_vec pi2) in
  let^ _ := pure (assert_eq (size pi) 1) in
  let^ lin_a := pure (com1_batch_scalar_linear_map (ms2_a self) crs) in
  let^ y_rand_lin_a :=
    pure (cmat_left_mul (sch 6%N) (vec_to_col_vec lin_a) y_rand_trans is_parallel) in
  let^ gt := pure (fmat_transpose (ms2_gamma self)) in
  let^ y_rand_stmt := pure (fmat_right_mul (sch 7%N) y_rand_trans gt is_parallel) in
  let^ lin_x := pure (com1_batch_scalar_linear_map scalar_xvars crs) in
  let^ y_rand_stmt_lin_x :=
    pure (cmat_left_mul (sch 8%N) (vec_to_col_vec lin_x) y_rand_stmt is_parallel) in
  let^ u0 := pure (idx (crs_u crs) 0) in
  let u1 := [:: [:: u0]] in
  let^ pf_rand_com1 := pure (cmat_left_mul (sch 9%N) u1 pf_rand is_parallel) in
  let^ theta1 := pure (cmat_add y_rand_lin_a y_rand_stmt_lin_x) in
  let^ theta2 := pure (cmat_add theta1 pf_rand_com1) in
  let^ theta := pure (col_vec_to_vec theta2) in
  let^ _ := pure (assert_eq (size theta) 2) in
  pure (Ok (mkEquProof pi theta MultiScalarG2 pf_rand)).

(** [MSMEG2::commit_and_prove], prove.rs:278-296. *)
Definition st_ms2_commit_and_prove (sch : sched) (self : MSMEG2 E)
  (scalar_xvars : seq (Fr E)) (yvars : seq (G2 E)) (crs : CRS E)
  : st R (CProof E) :=
  let^ scalar_xcoms := st_batch_commit_scalar_to_B1 scalar_xvars crs in
  let^ ycoms := st_batch_commit_G2 yvars crs in
  let^ pf := st_ms2_prove sch self scalar_xvars yvars scalar_xcoms ycoms crs in
  pure (Ok (mkCProof scalar_xcoms ycoms [:: pf])).

(** [QuadEqu::prove], prove.rs:409-488. *)
Definition st_quad_prove (sch : sched) (self : QuadEqu E)
  (scalar_xvars scalar_yvars : seq (Fr E)) (scalar_xcoms : Commit1 E)
  (scalar_ycoms : Commit2 E) (crs : CRS E) : st R (EquProof E) :=
  let^ _ := pure (assert_eq (size scalar_xvars) (size (crand scalar_xcoms))) in
  let^ _ := pure (assert_eq (size (quad_gamma self)) (size (crand scalar_xcoms))) in
  let^ xr0 := pure (idx (crand scalar_xcoms) 0) in
  let^ _ := pure (assert_eq (size xr0) 1) in
  let^ _ := pure (assert_eq (size scalar_yvars) (size (crand scalar_ycoms))) in
  let^ g0 := pure (idx (quad_gamma self) 0) in
  let^ _ := pure (assert_eq (size g0) (size (crand scalar_ycoms))) in
  let^ yr0 := pure (idx (crand scalar_ycoms) 0) in
  let^ _ := pure (assert_eq (size yr0) 1) in
  let is_parallel := true in
  let^ x_rand_trans := pure (fmat_transpose (crand scalar_xcoms)) in
  let^ y_rand_trans := pure (fmat_transpose (crand scalar_ycoms)) in
  let^ r := draw in
  let pf_rand := [:: [:: r]] in
  let^ lin_b := pure (com2_batch_scalar_linear_map (quad_b self) crs) in
  let^ x_rand_lin_b :=
    pure (cmat_left_mul (sch 0%N) (vec_to_col_vec lin_b) x_rand_trans is_parallel) in
  let^ x_rand_stmt :=
    pure (fmat_right_mul (sch 1%N) x_rand_trans (quad_gamma self) is_parallel) in
  let^ lin_y := pure (com2_batch_scalar_linear_map scalar_yvars crs) in
  let^ x_rand_stmt_lin_y :=
    pure (cmat_left_mul (sch 2%N) (vec_to_col_vec lin_y) x_rand_stmt is_parallel) in
  let^ xg := pure (fmat_right_mul (sch 3%N) x_rand_trans (quad_gamma self) is_parallel) in
  let^ xgy := pure (fmat_right_mul (sch 4%N) xg (crand scalar_ycoms) is_parallel) in
  let^ pt := pure (fmat_transpose pf_rand) in
  let^ npt := pure (fmat_neg pt) in
  let^ pf_rand_stmt := pure (fmat_add xgy npt) in
  let^ v0 := pure (idx (crs_v crs) 0) in
  let v1 := [:: [:: v0]] in
  let^ pf_rand_stmt_com2 := pure (cmat_left_mul (sch 5%N) v1 pf_rand_stmt is_parallel) in
  let^ pi1 := pure (cmat_add x_rand_lin_b x_rand_stmt_lin_y) in
  let^ pi2 := pure (cmat_add pi1 pf_rand_stmt_com2) in
  let^ pi := pure (col_vec_to_vec pi2) in
  let^ _ := pure (assert_eq (size pi) 1) in
  let^ lin_a := pure (com1_batch_scalar_linear_map (quad_a self) crs) in
  let^ y_rand_lin_a :=
    pure (cmat_left_mul (sch 6%N) (vec_to_col_vec lin_a) y_rand_trans is_parallel) in
  let^ gt := pure (fmat_transpose (quad_gamma self)) in
  let^ y_rand_stmt := pure (fmat_right_mul (sch 7%N) y_rand_trans gt is_parallel) in
  let^ lin_x := pure (com1_batch_scalar_linear_map scalar_xvars crs) in
  let^ y_rand_stmt_lin_x :=
    pure (cmat_left_mul (sch 8%N) (vec_to_col_vec lin_x) y_rand_stmt is_parallel) in
  let^ u0 := pure (idx (crs_u crs) 0) in
  let u1 := [:: [:: u0]] in
  let^ pf_rand_com1 := pure (cmat_left_mul (sch 9%N) u1 pf_rand is_parallel) in
  let^ theta1 := pure (cmat_add y_rand_lin_a y_rand_stmt_lin_x) in
  let^ theta2 := pure (cmat_add theta1 pf_rand_com1) in
  let^ theta := pure (col_vec_to_vec theta2) in
  let^ _ := pure (assert_eq (size theta) 1) in
  pure (Ok (mkEquProof pi theta Quadratic pf_rand)).

(** [QuadEqu::commit_and_prove], prove.rs:383-408. *)
Definition st_quad_commit_and_prove (sch : sched) (self : QuadEqu E)
  (scalar_xvars scalar_yvars : seq (Fr E)) (crs : CRS E)
  : st R (CProof E) :=
  let^ scalar_xcoms := st_batch_commit_scalar_to_B1 scalar_xvars crs in
  let^ scalar_ycoms := st_batch_commit_scalar_to_B2 scalar_yvars crs in
  let^ pf :=
    st_quad_prove sch self scalar_xvars scalar_yvars scalar_xcoms scalar_ycoms crs in
  pure (Ok (mkCProof scalar_xcoms scalar_ycoms [:: pf])).

End Functions.
