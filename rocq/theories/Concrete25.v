(** Runs used in examples. Not a model of any code in /repo. *)
From mathcomp Require Import all_ssreflect all_algebra.
From Verif Require Import Base BaseLemmas Group DataStructures Generator Commit Statement Prove Verify Spec SpecApi Concrete Concrete2.
Set Implicit Arguments.
Unset Strict Implicit.
Unset Printing Implicit Defensive.
Import GRing.Theory.
Local Open Scope ring_scope.

Lemma got A B (d : A * B) (r : res (A * B)) : isok r -> r = Ok ((value d r).1, (value d r).2).
Proof. by case: r => [[a b]|]. Qed.

Definition com0 : commit F7o := mkCommit [::] [::].
Definition pf0 : EquProof toy := mkEquProof [::] [::] Quadratic [::].

(** Draws the sums of the draws of the counter at [n] and at [n + 3]. *)
Definition dbl : rng toy :=
  @Rng toy nat (fun n => ((n%:R + (n + 3)%:R) : F7, n.+1)) (fun n => (n.+1%:R : F7, n.+1)) (fun n => (n.+1%:R : F7, n.+1)).
Lemma dbl_sum n m : @sum_draws toy n ctr ctr dbl m (m + 3)%N m.
Proof.
have hc j k : after (R := ctr) k j = (j + k)%N by rewrite /after; elim: k => [|k /= ->]; rewrite ?addn0 ?addnS.
have hd j k : after (R := dbl) k j = (j + k)%N by rewrite /after; elim: k => [|k /= ->]; rewrite ?addn0 ?addnS.
by move=> k _; rewrite /drawn !hc hd /= addnAC.
Qed.

Lemma crsh_hides : hiding_crs crsh.
Proof. by exists (n7 2), (n7 3), (n7 4), (n7 5); exact: crsh_hiding. Qed.
Lemma crsh_proper : proper_crs crsh. Proof. exact: (conj crsh_g1 crsh_g2). Qed.

Definition one_G10 := value (com0, 0%N) (commit_G1 (E := toy) (R := ctr) (n7 3 : F7o) crs0 3%N).
Lemma one_G10E : commit_G1 (E := toy) (R := ctr) (n7 3 : F7o) crs0 3%N = Ok (one_G10.1, one_G10.2). Proof. exact: got. Qed.
Definition many_G10 := value (com0, 0%N) (batch_commit_G1 (E := toy) (R := ctr) xs0 crs0 3%N).
Lemma many_G10E : batch_commit_G1 (E := toy) (R := ctr) xs0 crs0 3%N = Ok (many_G10.1, many_G10.2). Proof. exact: got. Qed.
Definition one_G11 := value (com0, 0%N) (commit_G1 (E := toy) (R := ctr) (n7 6 : F7o) crs0 6%N).
Lemma one_G11E : commit_G1 (E := toy) (R := ctr) (n7 6 : F7o) crs0 6%N = Ok (one_G11.1, one_G11.2). Proof. exact: got. Qed.
Definition many_G11 := value (com0, 0%N) (batch_commit_G1 (E := toy) (R := ctr) xs1 crs0 6%N).
Lemma many_G11E : batch_commit_G1 (E := toy) (R := ctr) xs1 crs0 6%N = Ok (many_G11.1, many_G11.2). Proof. exact: got. Qed.
Definition one_G20 := value (com0, 0%N) (commit_G2 (E := toy) (R := ctr) (n7 3 : F7o) crs0 3%N).
Lemma one_G20E : commit_G2 (E := toy) (R := ctr) (n7 3 : F7o) crs0 3%N = Ok (one_G20.1, one_G20.2). Proof. exact: got. Qed.
Definition many_G20 := value (com0, 0%N) (batch_commit_G2 (E := toy) (R := ctr) xs0 crs0 3%N).
Lemma many_G20E : batch_commit_G2 (E := toy) (R := ctr) xs0 crs0 3%N = Ok (many_G20.1, many_G20.2). Proof. exact: got. Qed.
Definition one_G21 := value (com0, 0%N) (commit_G2 (E := toy) (R := ctr) (n7 6 : F7o) crs0 6%N).
Lemma one_G21E : commit_G2 (E := toy) (R := ctr) (n7 6 : F7o) crs0 6%N = Ok (one_G21.1, one_G21.2). Proof. exact: got. Qed.
Definition many_G21 := value (com0, 0%N) (batch_commit_G2 (E := toy) (R := ctr) xs1 crs0 6%N).
Lemma many_G21E : batch_commit_G2 (E := toy) (R := ctr) xs1 crs0 6%N = Ok (many_G21.1, many_G21.2). Proof. exact: got. Qed.
Definition one_B10 := value (com0, 0%N) (commit_scalar_to_B1 (E := toy) (R := ctr) (n7 3) crs0 3%N).
Lemma one_B10E : commit_scalar_to_B1 (E := toy) (R := ctr) (n7 3) crs0 3%N = Ok (one_B10.1, one_B10.2). Proof. exact: got. Qed.
Definition many_B10 := value (com0, 0%N) (batch_commit_scalar_to_B1 (E := toy) (R := ctr) xs0 crs0 3%N).
Lemma many_B10E : batch_commit_scalar_to_B1 (E := toy) (R := ctr) xs0 crs0 3%N = Ok (many_B10.1, many_B10.2). Proof. exact: got. Qed.
Definition one_B11 := value (com0, 0%N) (commit_scalar_to_B1 (E := toy) (R := ctr) (n7 6) crs0 6%N).
Lemma one_B11E : commit_scalar_to_B1 (E := toy) (R := ctr) (n7 6) crs0 6%N = Ok (one_B11.1, one_B11.2). Proof. exact: got. Qed.
Definition many_B11 := value (com0, 0%N) (batch_commit_scalar_to_B1 (E := toy) (R := ctr) xs1 crs0 6%N).
Lemma many_B11E : batch_commit_scalar_to_B1 (E := toy) (R := ctr) xs1 crs0 6%N = Ok (many_B11.1, many_B11.2). Proof. exact: got. Qed.
Definition one_B20 := value (com0, 0%N) (commit_scalar_to_B2 (E := toy) (R := ctr) (n7 3) crs0 3%N).
Lemma one_B20E : commit_scalar_to_B2 (E := toy) (R := ctr) (n7 3) crs0 3%N = Ok (one_B20.1, one_B20.2). Proof. exact: got. Qed.
Definition many_B20 := value (com0, 0%N) (batch_commit_scalar_to_B2 (E := toy) (R := ctr) xs0 crs0 3%N).
Lemma many_B20E : batch_commit_scalar_to_B2 (E := toy) (R := ctr) xs0 crs0 3%N = Ok (many_B20.1, many_B20.2). Proof. exact: got. Qed.
Definition one_B21 := value (com0, 0%N) (commit_scalar_to_B2 (E := toy) (R := ctr) (n7 6) crs0 6%N).
Lemma one_B21E : commit_scalar_to_B2 (E := toy) (R := ctr) (n7 6) crs0 6%N = Ok (one_B21.1, one_B21.2). Proof. exact: got. Qed.
Definition many_B21 := value (com0, 0%N) (batch_commit_scalar_to_B2 (E := toy) (R := ctr) xs1 crs0 6%N).
Lemma many_B21E : batch_commit_scalar_to_B2 (E := toy) (R := ctr) xs1 crs0 6%N = Ok (many_B21.1, many_B21.2). Proof. exact: got. Qed.
Definition ppe_run0 := value (cproof0, 0%N) (ppe_commit_and_prove fwd ppe0 xs0 ys0 crs0 (6%N : rst ctr)).
Lemma ppe_run0E : ppe_commit_and_prove fwd ppe0 xs0 ys0 crs0 (6%N : rst ctr) = Ok (ppe_run0.1, ppe_run0.2). Proof. exact: got. Qed.
Definition ppe_runh := value (cproof0, 0%N) (ppe_commit_and_prove fwd ppe0 xs0 ys0 crsh (6%N : rst ctr)).
Lemma ppe_runhE : ppe_commit_and_prove fwd ppe0 xs0 ys0 crsh (6%N : rst ctr) = Ok (ppe_runh.1, ppe_runh.2). Proof. exact: got. Qed.
Definition ppe_again := value (pf0, 0%N) (ppe_prove fwd ppe0 xs0 ys0 (xcoms ppe_p0) (ycoms ppe_p0) crs0 (29%N : rst ctr)).
Lemma ppe_againE : ppe_prove fwd ppe0 xs0 ys0 (xcoms ppe_p0) (ycoms ppe_p0) crs0 (29%N : rst ctr) = Ok (ppe_again.1, ppe_again.2). Proof. exact: got. Qed.
Definition ms1_run0 := value (cproof0, 0%N) (ms1_commit_and_prove fwd ms10 xs0 ys0 crs0 (6%N : rst ctr)).
Lemma ms1_run0E : ms1_commit_and_prove fwd ms10 xs0 ys0 crs0 (6%N : rst ctr) = Ok (ms1_run0.1, ms1_run0.2). Proof. exact: got. Qed.
Definition ms1_runh := value (cproof0, 0%N) (ms1_commit_and_prove fwd ms10 xs0 ys0 crsh (6%N : rst ctr)).
Lemma ms1_runhE : ms1_commit_and_prove fwd ms10 xs0 ys0 crsh (6%N : rst ctr) = Ok (ms1_runh.1, ms1_runh.2). Proof. exact: got. Qed.
Definition ms1_again := value (pf0, 0%N) (ms1_prove fwd ms10 xs0 ys0 (xcoms ms1_p0) (ycoms ms1_p0) crs0 (29%N : rst ctr)).
Lemma ms1_againE : ms1_prove fwd ms10 xs0 ys0 (xcoms ms1_p0) (ycoms ms1_p0) crs0 (29%N : rst ctr) = Ok (ms1_again.1, ms1_again.2). Proof. exact: got. Qed.
Definition ms2_run0 := value (cproof0, 0%N) (ms2_commit_and_prove fwd ms20 xs0 ys0 crs0 (6%N : rst ctr)).
Lemma ms2_run0E : ms2_commit_and_prove fwd ms20 xs0 ys0 crs0 (6%N : rst ctr) = Ok (ms2_run0.1, ms2_run0.2). Proof. exact: got. Qed.
Definition ms2_runh := value (cproof0, 0%N) (ms2_commit_and_prove fwd ms20 xs0 ys0 crsh (6%N : rst ctr)).
Lemma ms2_runhE : ms2_commit_and_prove fwd ms20 xs0 ys0 crsh (6%N : rst ctr) = Ok (ms2_runh.1, ms2_runh.2). Proof. exact: got. Qed.
Definition ms2_again := value (pf0, 0%N) (ms2_prove fwd ms20 xs0 ys0 (xcoms ms2_p0) (ycoms ms2_p0) crs0 (29%N : rst ctr)).
Lemma ms2_againE : ms2_prove fwd ms20 xs0 ys0 (xcoms ms2_p0) (ycoms ms2_p0) crs0 (29%N : rst ctr) = Ok (ms2_again.1, ms2_again.2). Proof. exact: got. Qed.
Definition quad_run0 := value (cproof0, 0%N) (quad_commit_and_prove fwd quad0 xs0 ys0 crs0 (6%N : rst ctr)).
Lemma quad_run0E : quad_commit_and_prove fwd quad0 xs0 ys0 crs0 (6%N : rst ctr) = Ok (quad_run0.1, quad_run0.2). Proof. exact: got. Qed.
Definition quad_runh := value (cproof0, 0%N) (quad_commit_and_prove fwd quad0 xs0 ys0 crsh (6%N : rst ctr)).
Lemma quad_runhE : quad_commit_and_prove fwd quad0 xs0 ys0 crsh (6%N : rst ctr) = Ok (quad_runh.1, quad_runh.2). Proof. exact: got. Qed.
Definition quad_again := value (pf0, 0%N) (quad_prove fwd quad0 xs0 ys0 (xcoms quad_p0) (ycoms quad_p0) crs0 (29%N : rst ctr)).
Lemma quad_againE : quad_prove fwd quad0 xs0 ys0 (xcoms quad_p0) (ycoms quad_p0) crs0 (29%N : rst ctr) = Ok (quad_again.1, quad_again.2). Proof. exact: got. Qed.
Lemma ppe0_split : ppe_target ppe0 = pair_e (p := toy) (n7 3 *: g1_gen crsh) (n7 1 : F7o) + pair_e (p := toy) (n7 2 : F7o) (n7 3 *: g2_gen crsh).
Proof. by apply/eqP; vm_compute. Qed.
