(** Values for the examples of property C72. *)
From mathcomp Require Import all_ssreflect all_algebra.
From Verif Require Import Base Group Generator Commit Statement Prove Verify Spec Suite Concrete.
Set Implicit Arguments.
Unset Strict Implicit.
Unset Printing Implicit Defensive.

Definition ctr_gt (s : rst ctr) : GT toy * rst ctr := (n7 s, s.+1).

Lemma MSMEG2_two_states :
  ~ (forall (E : pairing) (R : rng E) (sch sch' : sched) (s s' : rst R), bilinear E -> valid_sched sch -> valid_sched sch' ->
     test_MSMEG2_cproof_is_commit_and_prove sch sch' s s' = Ok tt).
Proof.
move=> h; have := h toy ctr fwd bwd 0 1 toy_bilinear fwd_valid bwd_valid.
by have -> : test_MSMEG2_cproof_is_commit_and_prove (E := toy) (R := ctr) fwd bwd (0 : rst ctr) 1 = Panic AssertFailed by vm_compute.
Qed.

Lemma quadratic_two_states :
  ~ (forall (E : pairing) (R : rng E) (sch sch' : sched) (s s' : rst R), bilinear E -> valid_sched sch -> valid_sched sch' ->
     test_quadratic_cproof_is_commit_and_prove sch sch' s s' = Ok tt).
Proof.
move=> h; have := h toy ctr fwd bwd 0 1 toy_bilinear fwd_valid bwd_valid.
by have -> : test_quadratic_cproof_is_commit_and_prove (E := toy) (R := ctr) fwd bwd (0 : rst ctr) 1 = Panic AssertFailed by vm_compute.
Qed.
