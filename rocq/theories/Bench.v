(** The benchmarks: /repo/benches/bench.rs. [bench.iter] runs its closure an arbitrary number
    [k] of times; each benchmark returns the [k] values, which the source drops, and the
    benchmarks whose closure draws also return the final state of the generator.
    Simplifications: BLS12-381 is an arbitrary pairing, and the work of criterion (timing,
    reports, the choice of [k]) and its configuration (bench.rs:577-673) are left out. *)
From mathcomp Require Import all_ssreflect all_algebra.
From Verif Require Import Base Group DataStructures Generator Commit Statement Prove Verify.
Set Implicit Arguments.
Unset Strict Implicit.
Unset Printing Implicit Defensive.
Import GRing.Theory.
Local Open Scope ring_scope.

(** [bench.iter(|| { let _ = f(..); })] from iteration [i] on, e.g. bench.rs:60-62. *)
Fixpoint iterate {T S} (f : nat -> S -> res (T * S)) (i k : nat) (s : S) : res (seq T * S) :=
  if k is k'.+1 then
    let! (x, s) := f i s in
    let! (xs, s) := iterate f i.+1 k' s in
    Ok (x :: xs, s)
  else Ok ([::], s).
(** The same for a closure which does not draw, e.g. bench.rs:60-62. *)
Definition repeat {T} (f : nat -> res T) (k : nat) : res (seq T) :=
  let! (xs, _) := iterate (fun i _ => let! x := f i in Ok (x, tt)) 0 k tt in Ok xs.
(** [for _ in 0..n { v.push(f(rng)); }], e.g. bench.rs:99-101. *)
Fixpoint pushes {T S} (f : S -> T * S) (n : nat) (s : S) : seq T * S :=
  if n is n'.+1 then let (x, s) := f s in let (xs, s) := pushes f n' s in (x :: xs, s) else ([::], s).

Section Bench.
Context {E : pairing} {R : rng E}.
(** [GT::rand(rng)], e.g. bench.rs:441. *)
Variable rand_gt : rst R -> GT E * rst R.
(** The schedule of the parallel products in each iteration, and in [commit_and_prove]. *)
Variable schs : nat -> sched.
Variable sch : sched.
(** The number of iterations. *)
Variable k : nat.

(** [vec![Fr::rand(&mut rng), Fr::rand(&mut rng)]], e.g. bench.rs:55. *)
Definition rand_two (s : rst R) : seq (Fr E) * rst R :=
  let (x, s) := rand_fr s in let (y, s) := rand_fr s in ([:: x; y], s).
(** [vec![Fr::rand(&mut rng)]], e.g. bench.rs:59. *)
Definition rand_one (s : rst R) : seq (Fr E) * rst R := let (x, s) := rand_fr s in ([:: x], s).
(** [affine_group_rand!], bench.rs:43-47. *)
Definition rand_mult {G : lmodType (Fr E)} (g : G) (s : rst R) : G * rst R :=
  let (x, s) := rand_fr s in (x *: g, s).
(** [vec![Com1::<F>(affine_group_rand!(..), affine_group_rand!(..))]], e.g. bench.rs:151-154. *)
Definition rand_mults (g : G1 E) (s : rst R) : seq (Com1 E) * rst R :=
  let (x, s) := rand_mult g s in let (y, s) := rand_mult g s in ([:: (x, y)], s).

(** bench.rs:49-83: the first is [is_parallel = false], the second [true]. *)
Definition small_field_matrix_mul (par : bool) (s : rst R) : res (seq (matrix (Fr E))) :=
  let (r0, s) := rand_two s in
  let (r1, s) := rand_two s in
  let lhs := [:: r0; r1] in
  let (c0, s) := rand_one s in
  let (c1, s) := rand_one s in
  let rhs := [:: c0; c1] in
  repeat (fun i => fmat_right_mul (schs i 0%N) lhs rhs par) k.
Definition bench_small_field_matrix_mul := small_field_matrix_mul false.
Definition bench_small_field_matrix_mul_par := small_field_matrix_mul true.

(** bench.rs:85-143, for all dimensions; the source has 334 and 334. *)
Definition field_matrix_mul (par : bool) (m n : nat) (s : rst R) : res (seq (matrix (Fr E))) :=
  let (lhs, s) := pushes rand_two m s in
  let (rhs, s) := pushes (pushes (@rand_fr _ R) n) 2 s in
  repeat (fun i => fmat_right_mul (schs i 0%N) lhs rhs par) k.
Definition bench_large_field_matrix_mul := field_matrix_mul false 334 334.
Definition bench_large_field_matrix_mul_par := field_matrix_mul true 334 334.

(** bench.rs:145-195: the first is [is_parallel = false], the second [true]. *)
Definition small_B1_matrix_mul (par : bool) (s : rst R) : res (seq (matrix (Com1 E))) :=
  let (g1gen, s) := rand_g1 s in
  let (c0, s) := rand_mults g1gen s in
  let (c1, s) := rand_mults g1gen s in
  let rhs := [:: c0; c1] in
  let (r0, s) := rand_two s in
  let (r1, s) := rand_two s in
  let lhs := [:: r0; r1] in
  repeat (fun i => cmat_left_mul (schs i 0%N) rhs lhs par) k.
Definition bench_small_B1_matrix_mul := small_B1_matrix_mul false.
Definition bench_small_B1_matrix_mul_par := small_B1_matrix_mul true.

(** bench.rs:197-210. *)
Definition bench_B1_scalar_mul (s : rst R) : res (seq (Com1 E)) :=
  let (g11, s) := rand_g1 s in
  let (g12, s) := rand_g1 s in
  let b1 : Com1 E := (g11, g12) in
  let (fr, s) := rand_fr s in
  repeat (fun _ => Ok (com_scalar_mul b1 fr)) k.
(** bench.rs:212-227. *)
Definition bench_B1_add (s : rst R) : res (seq (Com1 E)) :=
  let (g11, s) := rand_g1 s in
  let (g12, s) := rand_g1 s in
  let b11 : Com1 E := (g11, g12) in
  let (g21, s) := rand_g1 s in
  let (g22, s) := rand_g1 s in
  let b12 : Com1 E := (g21, g22) in
  repeat (fun _ => Ok (com_add b11 b12)) k.
(** bench.rs:229-240. *)
Definition bench_G1_scalar_mul (s : rst R) : res (seq (G1 E)) :=
  let (g1gen, s) := rand_g1 s in
  let (fr, s) := rand_fr s in
  repeat (fun _ => Ok (fr *: g1gen)) k.
(** bench.rs:242-253; also bench.rs:255-266, as a projective point is the same element. *)
Definition bench_G1_affine_add (s : rst R) : res (seq (G1 E)) :=
  let (g11, s) := rand_g1 s in
  let (g12, s) := rand_g1 s in
  repeat (fun _ => Ok (g11 + g12)) k.
(** bench.rs:268-278; also bench.rs:280-290. *)
Definition bench_G1_into_affine (s : rst R) : res (seq (G1 E)) :=
  let (g1gen, s) := rand_g1 s in
  repeat (fun _ => Ok g1gen) k.

(** bench.rs:292-304. *)
Definition bench_small_batch_commit_G1 (s : rst R) : res (seq (Commit1 E) * rst R) :=
  let (crs, s) := generate_crs s in
  let xvars := [:: g1_gen crs; 2%:R *: g1_gen crs] in
  iterate (fun _ s => batch_commit_G1 xvars crs s) 0 k s.
(** bench.rs:306-322, for all sizes; the source has 334. *)
Definition commits_G1 (m : nat) (s : rst R) : res (seq (Commit1 E) * rst R) :=
  let (crs, s) := generate_crs s in
  let (xvars, s) := pushes (rand_mult (g1_gen crs)) m s in
  iterate (fun _ s => batch_commit_G1 xvars crs s) 0 k s.
Definition bench_large_batch_commit_G1 := commits_G1 334.
(** bench.rs:324-336. *)
Definition bench_small_batch_commit_G2 (s : rst R) : res (seq (Commit2 E) * rst R) :=
  let (crs, s) := generate_crs s in
  let yvars := [:: g2_gen crs; 2%:R *: g2_gen crs] in
  iterate (fun _ s => batch_commit_G2 yvars crs s) 0 k s.
(** bench.rs:338-354, for all sizes; the source has 334. *)
Definition commits_G2 (n : nat) (s : rst R) : res (seq (Commit2 E) * rst R) :=
  let (crs, s) := generate_crs s in
  let (yvars, s) := pushes (rand_mult (g2_gen crs)) n s in
  iterate (fun _ s => batch_commit_G2 yvars crs s) 0 k s.
Definition bench_large_batch_commit_G2 := commits_G2 334.
(** bench.rs:356-368. *)
Definition bench_small_batch_commit_scalar_to_B1 (s : rst R) : res (seq (Commit1 E) * rst R) :=
  let (crs, s) := generate_crs s in
  let (scalar_xvars, s) := rand_two s in
  iterate (fun _ s => batch_commit_scalar_to_B1 scalar_xvars crs s) 0 k s.
(** bench.rs:370-386, for all sizes; the source has 334. *)
Definition commits_B1 (m : nat) (s : rst R) : res (seq (Commit1 E) * rst R) :=
  let (crs, s) := generate_crs s in
  let (scalar_xvars, s) := pushes (@rand_fr _ R) m s in
  iterate (fun _ s => batch_commit_scalar_to_B1 scalar_xvars crs s) 0 k s.
Definition bench_large_batch_commit_scalar_to_B1 := commits_B1 334.
(** bench.rs:388-400. *)
Definition bench_small_batch_commit_scalar_to_B2 (s : rst R) : res (seq (Commit2 E) * rst R) :=
  let (crs, s) := generate_crs s in
  let (scalar_yvars, s) := rand_two s in
  iterate (fun _ s => batch_commit_scalar_to_B2 scalar_yvars crs s) 0 k s.
(** bench.rs:402-418, for all sizes; the source has 334. *)
Definition commits_B2 (n : nat) (s : rst R) : res (seq (Commit2 E) * rst R) :=
  let (crs, s) := generate_crs s in
  let (scalar_yvars, s) := pushes (@rand_fr _ R) n s in
  iterate (fun _ s => batch_commit_scalar_to_B2 scalar_yvars crs s) 0 k s.
Definition bench_large_batch_commit_scalar_to_B2 := commits_B2 334.

(** [xvars.push(..); a_consts.push(..);], e.g. bench.rs:459-460. *)
Definition rand_mult2 {G : lmodType (Fr E)} (g : G) (s : rst R) : (G * G) * rst R :=
  let (x, s) := rand_mult g s in let (a, s) := rand_mult g s in ((x, a), s).

(** bench.rs:420-449. *)
Definition bench_small_PPE_proof (s : rst R) : res (seq (EquProof E) * rst R) :=
  let (crs, s) := generate_crs s in
  let (x0, s) := rand_mult (g1_gen crs) s in
  let (x1, s) := rand_mult (g1_gen crs) s in
  let xvars := [:: x0; x1] in
  let (y0, s) := rand_mult (g2_gen crs) s in
  let yvars := [:: y0] in
  let! (xcoms, s) := batch_commit_G1 xvars crs s in
  let! (ycoms, s) := batch_commit_G2 yvars crs s in
  let (a0, s) := rand_mult (g1_gen crs) s in
  let (b0, s) := rand_mult (g2_gen crs) s in
  let (b1, s) := rand_mult (g2_gen crs) s in
  let (target, s) := rand_gt s in
  let equ := mkPPE [:: a0] [:: b0; b1] [:: [:: 1]; [:: 0]] target in
  iterate (fun i s => ppe_prove (schs i) equ xvars yvars xcoms ycoms crs s) 0 k s.
(** bench.rs:451-498, for all sizes; the source has 334 and 334. *)
Definition ppe_proofs (m n : nat) (s : rst R) : res (seq (EquProof E) * rst R) :=
  let (crs, s) := generate_crs s in
  let (xa, s) := pushes (rand_mult2 (g1_gen crs)) m s in
  let xvars := unzip1 xa in let a_consts := unzip2 xa in
  let (yb, s) := pushes (rand_mult2 (g2_gen crs)) n s in
  let yvars := unzip1 yb in let b_consts := unzip2 yb in
  let! (xcoms, s) := batch_commit_G1 xvars crs s in
  let! (ycoms, s) := batch_commit_G2 yvars crs s in
  let (gamma, s) := pushes (pushes (@rand_fr _ R) n) m s in
  let (target, s) := rand_gt s in
  let equ := mkPPE a_consts b_consts gamma target in
  iterate (fun i s => ppe_prove (schs i) equ xvars yvars xcoms ycoms crs s) 0 k s.
Definition bench_large_PPE_proof := ppe_proofs 334 334.

(** bench.rs:500-529. *)
Definition bench_small_PPE_verify (s : rst R) : res (seq bool) :=
  let (crs, s) := generate_crs s in
  let (x0, s) := rand_mult (g1_gen crs) s in
  let (x1, s) := rand_mult (g1_gen crs) s in
  let xvars := [:: x0; x1] in
  let (y0, s) := rand_mult (g2_gen crs) s in
  let yvars := [:: y0] in
  let (a0, s) := rand_mult (g1_gen crs) s in
  let (b0, s) := rand_mult (g2_gen crs) s in
  let (b1, s) := rand_mult (g2_gen crs) s in
  let (target, s) := rand_gt s in
  let equ := mkPPE [:: a0] [:: b0; b1] [:: [:: 1]; [:: 0]] target in
  let! (proof, s) := ppe_commit_and_prove sch equ xvars yvars crs s in
  repeat (fun i => ppe_verify (schs i) equ proof crs) k.
(** bench.rs:531-575, for all sizes; the source has 334 and 334. *)
Definition ppe_verifies (m n : nat) (s : rst R) : res (seq bool) :=
  let (crs, s) := generate_crs s in
  let (xa, s) := pushes (rand_mult2 (g1_gen crs)) m s in
  let xvars := unzip1 xa in let a_consts := unzip2 xa in
  let (yb, s) := pushes (rand_mult2 (g2_gen crs)) n s in
  let yvars := unzip1 yb in let b_consts := unzip2 yb in
  let (gamma, s) := pushes (pushes (@rand_fr _ R) n) m s in
  let (target, s) := rand_gt s in
  let equ := mkPPE a_consts b_consts gamma target in
  let! (proof, s) := ppe_commit_and_prove sch equ xvars yvars crs s in
  repeat (fun i => ppe_verify (schs i) equ proof crs) k.
Definition bench_large_PPE_verify := ppe_verifies 334 334.
End Bench.
