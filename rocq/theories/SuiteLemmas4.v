(** Proofs that the integration tests of tests/prover.rs pass. *)
From mathcomp Require Import all_ssreflect all_algebra.
From Verif Require Import Base Group DataStructures Generator Commit Statement Prove Verify.
From Verif Require Import Spec MatLemmas CapLemmas ComLemmas CommitLemmas Suite SuiteLemmas SuiteLemmas2.
Set Implicit Arguments.
Unset Strict Implicit.
Unset Printing Implicit Defensive.
Import GRing.Theory.
Local Open Scope ring_scope.

Section Suite4.
Context {E : pairing} {R : rng E}.
Variables sch sch' : sched.
Hypotheses (hs : valid_sched sch) (hs' : valid_sched sch') (hb : bilinear E).
Implicit Type s : rst R.

Lemma gamma5_dims : dims 2 1 [:: [:: 5%:R]; [:: 0 : Fr E]].
Proof. by split=> // -[|[|i]]. Qed.

Lemma pairS k (x : G1 E) (y : G2 E) : pair_e x (k *: y) = k *: pair_e x y.
Proof. by case: hb. Qed.

Lemma s_ppe_verifies s : pairing_product_equation_verifies sch sch' s = Ok tt.
Proof.
rewrite /pairing_product_equation_verifies; case hc: (generate_crs s) => [crs s0]; have hk := gen_sizes hc; draw.
rewrite /cell_at /idx !bind_Ok; cbv zeta.
match goal with |- context [ppe_commit_and_prove sch ?q ?X ?Y crs ?s] =>
  have hh : ppe_holds q X Y end.
  rewrite /ppe_holds !big_ord_recl !big_ord0 /entry /=.
  by rewrite (pair0r _ hb) scale0r !addr0 add0r (addrC (pair_e (x *: _) _)) (pairS 5%:R).
have [|||p [s' [-> e]]] := ppe_cap_complete hs hs' hb s2 _ _ _ hk hh.
- by [].
- by [].
- exact: (And3 erefl erefl gamma5_dims).
by rewrite bind_Ok e bind_Ok.
Qed.

Lemma s_ms1_verifies s : multi_scalar_mult_equation_G1_verifies sch sch' s = Ok tt.
Proof.
rewrite /multi_scalar_mult_equation_G1_verifies; case hc: (generate_crs s) => [crs s0]; have hk := gen_sizes hc; draw.
rewrite /cell_at /idx !bind_Ok; cbv zeta.
match goal with |- context [ms1_commit_and_prove sch ?q ?X ?Y crs ?s] =>
  have hh : ms1_holds q X Y end.
  rewrite /ms1_holds !big_ord_recl !big_ord0 /entry /=.
  by rewrite mul0r !scale0r !addr0 add0r (addrC (4%:R *: _)) (mulrC 5%:R).
have [|||p [s' [-> e]]] := ms1_cap_complete hs hs' hb s2 _ _ _ hk hh.
- by [].
- by [].
- exact: (And3 erefl erefl gamma5_dims).
by rewrite bind_Ok e bind_Ok.
Qed.

Lemma s_ms2_verifies s : multi_scalar_mult_equation_G2_verifies sch sch' s = Ok tt.
Proof.
rewrite /multi_scalar_mult_equation_G2_verifies; case hc: (generate_crs s) => [crs s0]; have hk := gen_sizes hc; draw.
rewrite /cell_at /idx !bind_Ok; cbv zeta.
match goal with |- context [ms2_commit_and_prove sch ?q ?X ?Y crs ?s] =>
  have hh : ms2_holds q X Y end.
  rewrite /ms2_holds !big_ord_recl !big_ord0 /entry /=.
  by rewrite mul0r scale0r scaler0 !addr0 add0r (addrC (x *: _)) (mulrC 5%:R).
have [|||p [s' [-> e]]] := ms2_cap_complete hs hs' hb s2 _ _ _ hk hh.
- by [].
- by [].
- exact: (And3 erefl erefl gamma5_dims).
by rewrite bind_Ok e bind_Ok.
Qed.

Lemma s_quad_verifies s : quadratic_equation_verifies sch sch' s = Ok tt.
Proof.
rewrite /quadratic_equation_verifies; case hc: (generate_crs s) => [crs s0]; have hk := gen_sizes hc; draw.
rewrite /cell_at /idx !bind_Ok; cbv zeta.
match goal with |- context [quad_commit_and_prove sch ?q ?X ?Y crs ?s] =>
  have hh : quad_holds q X Y end.
  rewrite /quad_holds !big_ord_recl !big_ord0 /entry /=.
  by rewrite mulr0 !mul0r !addr0 add0r (addrC (x * _)) (mulrC x) (mulrC x0) (mulrC 5%:R) (mulrC 4%:R 2%:R) mulrAC.
have [|||p [s' [-> e]]] := quad_cap_complete hs hs' hb s2 _ _ _ hk hh.
- by [].
- by [].
- exact: (And3 erefl erefl gamma5_dims).
by rewrite bind_Ok e bind_Ok.
Qed.

End Suite4.
