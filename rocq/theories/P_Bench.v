(** Property C73: the benchmarks. *)
From mathcomp Require Import all_ssreflect all_algebra.
From Verif Require Import Base Group DataStructures Generator Commit Statement Prove Verify Spec SpecMat SpecFormula Bench BenchLemmas Concrete Concrete2 Concrete10.
Set Implicit Arguments.
Unset Strict Implicit.
Unset Printing Implicit Defensive.
Import GRing.Theory.
Local Open Scope ring_scope.

(** bench.rs:49-83: all iterations of both benchmarks give the product. *)
Theorem C73_small_field_matrix_mul : forall (E : pairing) (R : rng E) (schs : nat -> sched) (k : nat) (s : rst R), (forall i, valid_sched (schs i)) ->
  let M := table 2 1 (fun i j => \sum_(l < 2) drawn s (2 * i + l) * drawn s (4 + l)) in
  bench_small_field_matrix_mul schs k s = Ok (nseq k M) /\ bench_small_field_matrix_mul_par schs k s = Ok (nseq k M).
Proof. move=> *; split; exact: small_field. Qed.
Print Assumptions C73_small_field_matrix_mul.

Example C73_small_field_matrix_mul_case : valid_sched bwd /\
  (if bench_small_field_matrix_mul_par (E := toy) (fun=> bwd) 2 (1%N : rst ctr) is Ok r
   then (r : seq (matrix F7)) == nseq 2 [:: [:: n7 3]; [:: n7 4]] else false) = true.
Proof. split; [exact: bwd_valid | by vm_compute]. Qed.

(** bench.rs:85-143, for all dimensions. *)
Theorem C73_field_matrix_mul : forall (E : pairing) (R : rng E) (schs : nat -> sched) (k : nat) par m n (s : rst R), (forall i, valid_sched (schs i)) -> (0 < m)%N -> (0 < n)%N ->
  field_matrix_mul schs k par m n s
  = Ok (nseq k (table m n (fun i j => \sum_(l < 2) drawn s (2 * i + l) * drawn s (2 * m + n * l + j)))).
Proof. move=> E R schs k par m n s h; exact: field_mul. Qed.
Print Assumptions C73_field_matrix_mul.

Example C73_field_matrix_mul_case : valid_sched bwd /\
  (if field_matrix_mul (E := toy) (fun=> bwd) 1 true 1 2 (1%N : rst ctr) is Ok r
   then (r : seq (matrix F7)) == [:: [:: [:: n7 6; n7 2]]] else false) = true.
Proof. split; [exact: bwd_valid | by vm_compute]. Qed.

(** bench.rs:85-143. *)
Theorem C73_large_field_matrix_mul : forall (E : pairing) (R : rng E) (schs : nat -> sched) (k : nat) (s : rst R), (forall i, valid_sched (schs i)) ->
  let M := table 334 334 (fun i j => \sum_(l < 2) drawn s (2 * i + l) * drawn s (2 * 334 + 334 * l + j)) in
  bench_large_field_matrix_mul schs k s = Ok (nseq k M) /\ bench_large_field_matrix_mul_par schs k s = Ok (nseq k M).
Proof. move=> *; split; exact: field_mul. Qed.
Print Assumptions C73_large_field_matrix_mul.

Example C73_large_field_matrix_mul_case := @C73_large_field_matrix_mul toy ctr (fun=> bwd) 3 1%N (fun=> bwd_valid).

(** bench.rs:145-195. *)
Theorem C73_small_B1_matrix_mul : forall (E : pairing) (R : rng E) (schs : nat -> sched) (k : nat) (s : rst R), (forall i, valid_sched (schs i)) ->
  let P := (rand_g1 s).1 in let d := drawn (rand_g1 s).2 in
  let M := table 2 1 (fun i j => \sum_(l < 2) d (4 + (2 * i + l))%N *: ((d (2 * l)%N *: P, d (2 * l + 1)%N *: P) : Com1 E)) in
  bench_small_B1_matrix_mul schs k s = Ok (nseq k M) /\ bench_small_B1_matrix_mul_par schs k s = Ok (nseq k M).
Proof. move=> *; split; exact: small_B1. Qed.
Print Assumptions C73_small_B1_matrix_mul.

Example C73_small_B1_matrix_mul_case : valid_sched bwd /\
  (if bench_small_B1_matrix_mul_par (E := toy) (fun=> bwd) 2 (1%N : rst ctr) is Ok r
   then (r : seq (matrix (F7 * F7))) == nseq 2 [:: [:: (n7 3, n7 1)]; [:: (n7 6, n7 5)]] else false) = true.
Proof. split; [exact: bwd_valid | by vm_compute]. Qed.

(** bench.rs:197-290. *)
Theorem C73_group_arith : forall (E : pairing) (R : rng E) (k : nat) (s : rst R),
  let P := (rand_g1 s).1 in let s1 := (rand_g1 s).2 in let Q := (rand_g1 s1).1 in let s2 := (rand_g1 s1).2 in
  let P' := (rand_g1 s2).1 in let Q' := (rand_g1 (rand_g1 s2).2).1 in
  [/\ bench_B1_scalar_mul k s = Ok (nseq k (drawn s2 0 *: P, drawn s2 0 *: Q)),
      bench_B1_add k s = Ok (nseq k (P + P', Q + Q')),
      bench_G1_scalar_mul k s = Ok (nseq k (drawn s1 0 *: P)),
      bench_G1_affine_add k s = Ok (nseq k (P + Q))
    & bench_G1_into_affine k s = Ok (nseq k P)].
Proof. exact: @group_arith. Qed.
Print Assumptions C73_group_arith.

(** bench.rs:292-304. *)
Theorem C73_small_batch_commit_G1 : forall (E : pairing) (R : rng E) (k : nat) (s : rst R),
  let crs := (generate_crs s).1 in let s0 := (generate_crs s).2 in let s1 := s0 in
  bench_small_batch_commit_G1 k s = Ok (mkseq (fun i => commit_value 2 (crs_u crs) [seq i1 x | x <- [:: g1_gen crs; 2%:R *: g1_gen crs]] (fun a l => drawn s1 (2 * 2 * i + (2 * a + l)))) k,
     after (2 * 2 * k) s1).
Proof. exact: @small_batch_commit_G1. Qed.
Print Assumptions C73_small_batch_commit_G1.

(** bench.rs:306-322, for all sizes. *)
Theorem C73_batch_commit_G1 : forall (E : pairing) (R : rng E) (k m : nat) (s : rst R), (0 < m)%N ->
  let crs := (generate_crs s).1 in let s0 := (generate_crs s).2 in let s1 := after m s0 in
  commits_G1 k m s = Ok (mkseq (fun i => commit_value 2 (crs_u crs) [seq i1 x | x <- mkseq (fun i => drawn s0 i *: g1_gen crs) m] (fun a l => drawn s1 (2 * m * i + (2 * a + l)))) k,
     after (2 * m * k) s1).
Proof. exact: @large_batch_commit_G1. Qed.
Print Assumptions C73_batch_commit_G1.

Example C73_batch_commit_G1_case : (if commits_G1 (E := toy) 2 1 (1%N : rst ctr) is Ok r then (([seq coms c | c <- r.1] : seq (seq (F7 * F7))), r.2) == ([:: [:: (n7 1, n7 3)]; [:: (n7 4, n7 5)]], 12%N) else false) = true.
Proof. by vm_compute. Qed.

(** bench.rs:306-322. *)
Theorem C73_large_batch_commit_G1 : forall (E : pairing) (R : rng E) (k : nat) (s : rst R),
  let crs := (generate_crs s).1 in let s0 := (generate_crs s).2 in let s1 := after 334 s0 in
  bench_large_batch_commit_G1 k s = Ok (mkseq (fun i => commit_value 2 (crs_u crs) [seq i1 x | x <- mkseq (fun i => drawn s0 i *: g1_gen crs) 334] (fun a l => drawn s1 (2 * 334 * i + (2 * a + l)))) k,
     after (2 * 334 * k) s1).
Proof. move=> E R k s; exact: large_batch_commit_G1. Qed.
Print Assumptions C73_large_batch_commit_G1.

(** bench.rs:324-336. *)
Theorem C73_small_batch_commit_G2 : forall (E : pairing) (R : rng E) (k : nat) (s : rst R),
  let crs := (generate_crs s).1 in let s0 := (generate_crs s).2 in let s1 := s0 in
  bench_small_batch_commit_G2 k s = Ok (mkseq (fun i => commit_value 2 (crs_v crs) [seq i2 y | y <- [:: g2_gen crs; 2%:R *: g2_gen crs]] (fun a l => drawn s1 (2 * 2 * i + (2 * a + l)))) k,
     after (2 * 2 * k) s1).
Proof. exact: @small_batch_commit_G2. Qed.
Print Assumptions C73_small_batch_commit_G2.

(** bench.rs:338-354, for all sizes. *)
Theorem C73_batch_commit_G2 : forall (E : pairing) (R : rng E) (k m : nat) (s : rst R), (0 < m)%N ->
  let crs := (generate_crs s).1 in let s0 := (generate_crs s).2 in let s1 := after m s0 in
  commits_G2 k m s = Ok (mkseq (fun i => commit_value 2 (crs_v crs) [seq i2 y | y <- mkseq (fun i => drawn s0 i *: g2_gen crs) m] (fun a l => drawn s1 (2 * m * i + (2 * a + l)))) k,
     after (2 * m * k) s1).
Proof. exact: @large_batch_commit_G2. Qed.
Print Assumptions C73_batch_commit_G2.

Example C73_batch_commit_G2_case : (if commits_G2 (E := toy) 2 1 (1%N : rst ctr) is Ok r then (([seq coms c | c <- r.1] : seq (seq (F7 * F7))), r.2) == ([:: [:: (n7 4, n7 2)]; [:: (n7 4, n7 2)]], 12%N) else false) = true.
Proof. by vm_compute. Qed.

(** bench.rs:338-354. *)
Theorem C73_large_batch_commit_G2 : forall (E : pairing) (R : rng E) (k : nat) (s : rst R),
  let crs := (generate_crs s).1 in let s0 := (generate_crs s).2 in let s1 := after 334 s0 in
  bench_large_batch_commit_G2 k s = Ok (mkseq (fun i => commit_value 2 (crs_v crs) [seq i2 y | y <- mkseq (fun i => drawn s0 i *: g2_gen crs) 334] (fun a l => drawn s1 (2 * 334 * i + (2 * a + l)))) k,
     after (2 * 334 * k) s1).
Proof. move=> E R k s; exact: large_batch_commit_G2. Qed.
Print Assumptions C73_large_batch_commit_G2.

(** bench.rs:356-368. *)
Theorem C73_small_batch_commit_scalar_to_B1 : forall (E : pairing) (R : rng E) (k : nat) (s : rst R),
  let crs := (generate_crs s).1 in let s0 := (generate_crs s).2 in let s1 := (after 2 s0) in
  bench_small_batch_commit_scalar_to_B1 k s = Ok (mkseq (fun i => commit_value 1 (crs_u crs) [seq k1 crs x | x <- [:: drawn s0 0; drawn s0 1]] (fun a l => drawn s1 (2 * i + a))) k,
     after (2 * k) s1).
Proof. exact: @small_batch_commit_scalar_to_B1. Qed.
Print Assumptions C73_small_batch_commit_scalar_to_B1.

(** bench.rs:370-386, for all sizes. *)
Theorem C73_batch_commit_scalar_to_B1 : forall (E : pairing) (R : rng E) (k m : nat) (s : rst R), (0 < m)%N ->
  let crs := (generate_crs s).1 in let s0 := (generate_crs s).2 in let s1 := after m s0 in
  commits_B1 k m s = Ok (mkseq (fun i => commit_value 1 (crs_u crs) [seq k1 crs x | x <- mkseq (drawn s0) m] (fun a l => drawn s1 (m * i + a))) k,
     after (m * k) s1).
Proof. exact: @large_batch_commit_scalar_to_B1. Qed.
Print Assumptions C73_batch_commit_scalar_to_B1.

Example C73_batch_commit_scalar_to_B1_case : (if commits_B1 (E := toy) 2 1 (1%N : rst ctr) is Ok r then (([seq coms c | c <- r.1] : seq (seq (F7 * F7))), r.2) == ([:: [:: (n7 2, n7 6)]; [:: (n7 4, n7 5)]], 10%N) else false) = true.
Proof. by vm_compute. Qed.

(** bench.rs:370-386. *)
Theorem C73_large_batch_commit_scalar_to_B1 : forall (E : pairing) (R : rng E) (k : nat) (s : rst R),
  let crs := (generate_crs s).1 in let s0 := (generate_crs s).2 in let s1 := after 334 s0 in
  bench_large_batch_commit_scalar_to_B1 k s = Ok (mkseq (fun i => commit_value 1 (crs_u crs) [seq k1 crs x | x <- mkseq (drawn s0) 334] (fun a l => drawn s1 (334 * i + a))) k,
     after (334 * k) s1).
Proof. move=> E R k s; exact: large_batch_commit_scalar_to_B1. Qed.
Print Assumptions C73_large_batch_commit_scalar_to_B1.

(** bench.rs:388-400. *)
Theorem C73_small_batch_commit_scalar_to_B2 : forall (E : pairing) (R : rng E) (k : nat) (s : rst R),
  let crs := (generate_crs s).1 in let s0 := (generate_crs s).2 in let s1 := (after 2 s0) in
  bench_small_batch_commit_scalar_to_B2 k s = Ok (mkseq (fun i => commit_value 1 (crs_v crs) [seq k2 crs y | y <- [:: drawn s0 0; drawn s0 1]] (fun a l => drawn s1 (2 * i + a))) k,
     after (2 * k) s1).
Proof. exact: @small_batch_commit_scalar_to_B2. Qed.
Print Assumptions C73_small_batch_commit_scalar_to_B2.

(** bench.rs:402-418, for all sizes. *)
Theorem C73_batch_commit_scalar_to_B2 : forall (E : pairing) (R : rng E) (k m : nat) (s : rst R), (0 < m)%N ->
  let crs := (generate_crs s).1 in let s0 := (generate_crs s).2 in let s1 := after m s0 in
  commits_B2 k m s = Ok (mkseq (fun i => commit_value 1 (crs_v crs) [seq k2 crs y | y <- mkseq (drawn s0) m] (fun a l => drawn s1 (m * i + a))) k,
     after (m * k) s1).
Proof. exact: @large_batch_commit_scalar_to_B2. Qed.
Print Assumptions C73_batch_commit_scalar_to_B2.

Example C73_batch_commit_scalar_to_B2_case : (if commits_B2 (E := toy) 2 1 (1%N : rst ctr) is Ok r then (([seq coms c | c <- r.1] : seq (seq (F7 * F7))), r.2) == ([:: [:: (n7 3, n7 5)]; [:: (n7 6, n7 3)]], 10%N) else false) = true.
Proof. by vm_compute. Qed.

(** bench.rs:402-418. *)
Theorem C73_large_batch_commit_scalar_to_B2 : forall (E : pairing) (R : rng E) (k : nat) (s : rst R),
  let crs := (generate_crs s).1 in let s0 := (generate_crs s).2 in let s1 := after 334 s0 in
  bench_large_batch_commit_scalar_to_B2 k s = Ok (mkseq (fun i => commit_value 1 (crs_v crs) [seq k2 crs y | y <- mkseq (drawn s0) 334] (fun a l => drawn s1 (334 * i + a))) k,
     after (334 * k) s1).
Proof. move=> E R k s; exact: large_batch_commit_scalar_to_B2. Qed.
Print Assumptions C73_large_batch_commit_scalar_to_B2.

(** bench.rs:420-449. *)
Theorem C73_small_PPE_proof : forall (E : pairing) (R : rng E) (rand_gt : rst R -> GT E * rst R) (schs : nat -> sched) (k : nat) (s : rst R), (forall i, valid_sched (schs i)) ->
  let crs := (generate_crs s).1 in let s0 := (generate_crs s).2 in let d := drawn s0 in
  let s2 := (rand_gt (after 12 s0)).2 in
  bench_small_PPE_proof rand_gt schs k s
  = Ok (mkseq (fun i => prove_value 2 1 2 2 [:: i1 (d 9%N *: g1_gen crs)] [:: i1 (d 0%N *: g1_gen crs); i1 (d 1%N *: g1_gen crs)]
                [:: i2 (d 10%N *: g2_gen crs); i2 (d 11%N *: g2_gen crs)] [:: i2 (d 2%N *: g2_gen crs)] [:: [:: 1]; [:: 0]]
                (table 2 2 (fun i l => d (3 + (2 * i + l))%N)) (table 1 2 (fun i l => d (7 + l)%N))
                (table 2 2 (fun a b => drawn s2 (4 * i + (2 * a + b)))) crs PairingProduct) k, after (4 * k) s2).
Proof. move=> E R rand_gt schs k s h; exact: (small_proof rand_gt h). Qed.
Print Assumptions C73_small_PPE_proof.

Example C73_small_PPE_proof_case : valid_sched bwd /\
  (if bench_small_PPE_proof (E := toy) ctr_gt (fun=> bwd) 2 (1%N : rst ctr) is Ok r
   then (([seq pi p | p <- r.1] : seq (seq (F7 * F7))), r.2) == ([:: [:: (n7 4, n7 2); (n7 1, n7 3)]; [:: (n7 4, n7 2); (n7 1, n7 3)]], 28%N) else false) = true.
Proof. split; [exact: bwd_valid | by vm_compute]. Qed.

(** bench.rs:451-498, for all sizes. The source gives [a_consts] the number of x-variables and
    [b_consts] the number of y-variables, so that the benchmark panics unless they are equal. *)
Theorem C73_PPE_proof : forall (E : pairing) (R : rng E) (rand_gt : rst R -> GT E * rst R) (schs : nat -> sched) (k : nat) (m n : nat) (s : rst R), (forall i, valid_sched (schs i)) ->
  let crs := (generate_crs s).1 in let s0 := (generate_crs s).2 in let d := drawn s0 in
  let X := mkseq (fun i => d (2 * i)%N *: g1_gen crs) m in
  let A := mkseq (fun i => d (2 * i + 1)%N *: g1_gen crs) m in
  let Y := mkseq (fun j => d (2 * m + 2 * j)%N *: g2_gen crs) n in
  let B := mkseq (fun j => d (2 * m + (2 * j + 1))%N *: g2_gen crs) n in
  let rx := table m 2 (fun i l => d (2 * m + 2 * n + (2 * i + l))%N) in
  let ry := table n 2 (fun i l => d (2 * m + 2 * n + 2 * m + (2 * i + l))%N) in
  let G := table m n (fun i j => d (2 * m + 2 * n + 2 * m + 2 * n + (n * i + j))%N) in
  let s1 := after (2 * m + 2 * n + 2 * m + 2 * n + n * m) s0 in
  let t := (rand_gt s1).1 in let s2 := (rand_gt s1).2 in
  ppe_proofs rand_gt schs k m n s
  = if (m == 0%N) || (n == 0%N) then Panic IndexOutOfBounds
    else if k == 0%N then Ok ([::], s2)
    else if m != n then Panic AssertFailed
    else Ok (mkseq (fun i => prove_value m n 2 2 [seq i1 x | x <- A] [seq i1 x | x <- X] [seq i2 y | y <- B] [seq i2 y | y <- Y]
                     G rx ry (table 2 2 (fun a b => drawn s2 (4 * i + (2 * a + b)))) crs PairingProduct) k, after (4 * k) s2).
Proof. move=> E R rand_gt schs k m n s h; exact: (bench_large_proof rand_gt h). Qed.
Print Assumptions C73_PPE_proof.

Example C73_PPE_proof_case : valid_sched bwd /\
  (if ppe_proofs (E := toy) ctr_gt (fun=> bwd) 2 2 2 (1%N : rst ctr) is Ok r then size r.1 else 0%N) = 2%N /\
  (if ppe_proofs (E := toy) ctr_gt (fun=> bwd) 2 2 1 (1%N : rst ctr) is Panic p then Some p else None) = Some AssertFailed /\
  (if ppe_proofs (E := toy) ctr_gt (fun=> bwd) 2 2 0 (1%N : rst ctr) is Panic p then Some p else None) = Some IndexOutOfBounds.
Proof. split; [exact: bwd_valid | by vm_compute]. Qed.

(** bench.rs:451-498. *)
Theorem C73_large_PPE_proof : forall (E : pairing) (R : rng E) (rand_gt : rst R -> GT E * rst R) (schs : nat -> sched) (k : nat) (s : rst R), (forall i, valid_sched (schs i)) ->
  exists ps s', bench_large_PPE_proof rand_gt schs k s = Ok (ps, s') /\ size ps = k.
Proof. exact: @large_proof_ok. Qed.
Print Assumptions C73_large_PPE_proof.

Example C73_large_PPE_proof_case := @C73_large_PPE_proof toy ctr ctr_gt (fun=> bwd) 3 1%N (fun=> bwd_valid).

(** bench.rs:500-529: the proof is accepted if the dummy target happens to be right. *)
Theorem C73_small_PPE_verify : forall (E : pairing) (R : rng E) (rand_gt : rst R -> GT E * rst R) (schs : nat -> sched) (sch : sched) (k : nat) (s : rst R), (forall i, valid_sched (schs i)) -> valid_sched sch -> bilinear E ->
  let crs := (generate_crs s).1 in let s0 := (generate_crs s).2 in let d := drawn s0 in
  bench_small_PPE_verify rand_gt schs sch k s
  = Ok (nseq k ((d 3%N * d 2%N + d 0%N * d 4%N + d 1%N * d 5%N + d 0%N * d 2%N) *: pair_e (g1_gen crs) (g2_gen crs) == (rand_gt (after 6 s0)).1)).
Proof. move=> E R rand_gt schs sch k s hs h hb; exact: (small_verify rand_gt hs h k hb). Qed.
Print Assumptions C73_small_PPE_verify.

Example C73_small_PPE_verify_case : valid_sched bwd /\ valid_sched fwd /\ bilinear toy /\
  bench_small_PPE_verify (E := toy) ctr_gt (fun=> bwd) fwd 2 (1%N : rst ctr) = Ok [:: false; false] /\
  bench_small_PPE_verify (E := toy) (fun z : rst ctr => (n7 3 : GT toy, z)) (fun=> bwd) fwd 2 (1%N : rst ctr) = Ok [:: true; true].
Proof. split; first exact: bwd_valid; split; first exact: fwd_valid; split; first exact: toy_bilinear. by repeat split; vm_compute. Qed.

(** bench.rs:531-575, for all sizes. It panics unless they are equal, as above. *)
Theorem C73_PPE_verify : forall (E : pairing) (R : rng E) (rand_gt : rst R -> GT E * rst R) (schs : nat -> sched) (sch : sched) (k : nat) (m n : nat) (s : rst R), (forall i, valid_sched (schs i)) -> valid_sched sch -> bilinear E ->
  let crs := (generate_crs s).1 in let s0 := (generate_crs s).2 in let d := drawn s0 in
  let x i := d (2 * i)%N in let a j := d (2 * j + 1)%N in
  let y j := d (2 * m + 2 * j)%N in let b i := d (2 * m + (2 * i + 1))%N in
  let g i j := d (2 * m + 2 * n + (n * i + j))%N in
  ppe_verifies rand_gt schs sch k m n s
  = if (m == 0%N) || (n == 0%N) then Panic IndexOutOfBounds
    else if m != n then Panic AssertFailed
    else Ok (nseq k ((\sum_(j < n) a j * y j + \sum_(i < m) x i * b i + \sum_(i < m) \sum_(j < n) g i j * (x i * y j))
                       *: pair_e (g1_gen crs) (g2_gen crs) == (rand_gt (after (2 * m + 2 * n + n * m) s0)).1)).
Proof. move=> E R rand_gt schs sch k m n s hs h hb; exact: (large_verify rand_gt hs h k hb). Qed.
Print Assumptions C73_PPE_verify.

Example C73_PPE_verify_case : valid_sched bwd /\ valid_sched fwd /\ bilinear toy /\
  ppe_verifies (E := toy) ctr_gt (fun=> bwd) fwd 2 2 2 (1%N : rst ctr) = Ok [:: false; false] /\ ppe_verifies (E := toy) ctr_gt (fun=> bwd) fwd 2 2 2 (4%N : rst ctr) = Ok [:: true; true] /\
  ppe_verifies (E := toy) ctr_gt (fun=> bwd) fwd 2 1 2 (1%N : rst ctr) = Panic AssertFailed.
Proof. split; first exact: bwd_valid; split; first exact: fwd_valid; split; first exact: toy_bilinear. by repeat split; vm_compute. Qed.

(** bench.rs:531-575. *)
Theorem C73_large_PPE_verify : forall (E : pairing) (R : rng E) (rand_gt : rst R -> GT E * rst R) (schs : nat -> sched) (sch : sched) (k : nat) (s : rst R), (forall i, valid_sched (schs i)) -> valid_sched sch -> bilinear E ->
  exists b, bench_large_PPE_verify rand_gt schs sch k s = Ok (nseq k b).
Proof. exact: @large_verify_ok. Qed.
Print Assumptions C73_large_PPE_verify.

Example C73_large_PPE_verify_case := @C73_large_PPE_verify toy ctr ctr_gt (fun=> bwd) fwd 3 1%N (fun=> bwd_valid) fwd_valid toy_bilinear.

