(** Concrete cases: keys that are neither binding nor hiding keys. *)
From mathcomp Require Import all_ssreflect all_algebra.
From Verif Require Import Base Group DataStructures Generator Commit Statement Spec SpecKeys Keys Concrete.
Set Implicit Arguments.
Unset Strict Implicit.
Unset Printing Implicit Defensive.
Import GRing.Theory.
Local Open Scope ring_scope.

(** The first key is binding, the second hiding. *)
Definition crsm : CRS toy :=
  mkCRS (E := toy) [:: (n7 1, n7 2); (n7 4, n7 8)] [:: (n7 2, n7 6); (n7 10, n7 30 - n7 2)] (n7 1) (n7 2) (n7 2).
(** Commitments to points hide, commitments to scalars bind. *)
Definition crsw : CRS toy :=
  mkCRS (E := toy) [:: (n7 1, n7 0); (n7 0, n7 1)] [:: (n7 2, n7 0); (n7 0, n7 2)] (n7 1) (n7 2) (n7 2).
Lemma crsm_two : two_keys crsm. Proof. by []. Qed.
Lemma crsm_prop : proper_crs crsm. Proof. by []. Qed.
Lemma crsw_two : two_keys crsw. Proof. by []. Qed.
Lemma crsw_prop : proper_crs crsw. Proof. by []. Qed.
Lemma crsm_G1 : binding_for com_G1 crsm.
Proof. by apply: (@binds_G1 _ crsm (- n7 2)); apply/eqP; vm_compute. Qed.
Lemma crsm_B1 : binding_for com_B1 crsm.
Proof. by apply: (@binds_B1 _ crsm (- n7 2) 1); [apply/eqP|]; vm_compute. Qed.
Lemma crsm_G2 : ~ binding_for com_G2 crsm.
Proof.
apply: spans_G2 => // x; exists (x * n7 5 / n7 2), (- (x / n7 2)).
by case: x => [[|[|[|[|[|[|[|//]]]]]]] hx]; apply/eqP; vm_compute.
Qed.
Lemma crsm_B2 : ~ binding_for com_B2 crsm.
Proof. by apply: (@spans_B2 _ crsm (n7 5)); apply/eqP; vm_compute. Qed.
Lemma crsw_G1 : ~ binding_for com_G1 crsw.
Proof.
apply: spans_G1 => // x; exists 0, x.
by case: x => [[|[|[|[|[|[|[|//]]]]]]] hx]; apply/eqP; vm_compute.
Qed.
Lemma crsw_G2 : ~ binding_for com_G2 crsw.
Proof.
apply: spans_G2 => // x; exists 0, (x / n7 2).
by case: x => [[|[|[|[|[|[|[|//]]]]]]] hx]; apply/eqP; vm_compute.
Qed.
Lemma crsw_B1 : binding_for com_B1 crsw.
Proof. by apply: (@binds_B1 _ crsw 0 1); [apply/eqP|]; vm_compute. Qed.
Lemma crsw_B2 : binding_for com_B2 crsw.
Proof. by apply: (@binds_B2 _ crsw 0 1); [apply/eqP|]; vm_compute. Qed.
Lemma crs0_G2 : binding_for com_G2 crs0.
Proof. by apply: (@binds_G2 _ crs0 (- n7 3)); apply/eqP; vm_compute. Qed.
Lemma crsh_B1 : ~ binding_for com_B1 crsh.
Proof. by apply: (@spans_B1 _ crsh (n7 4)); apply/eqP; vm_compute. Qed.
