(** Model of the types of /repo/src/statement.rs and of the proof types of
    /repo/src/prover/prove.rs. *)
From mathcomp Require Import all_ssreflect all_algebra.
From Verif Require Import Base Group DataStructures Commit.
Set Implicit Arguments.
Unset Strict Implicit.
Unset Printing Implicit Defensive.

(** [EquType], statement.rs:42-49. *)
Inductive EquType := PairingProduct | MultiScalarG1 | MultiScalarG2 | Quadratic.

(** Derived [PartialEq], statement.rs:42. *)
Definition equtype_eq (a b : EquType) : bool :=
  match a, b with
  | PairingProduct, PairingProduct | MultiScalarG1, MultiScalarG1
  | MultiScalarG2, MultiScalarG2 | Quadratic, Quadratic => true
  | _, _ => false
  end.

Section Statement.
Context {E : pairing}.

(** [PPE], statement.rs:118-123. *)
Record PPE := mkPPE {
  ppe_a : seq (G1 E); ppe_b : seq (G2 E);
  ppe_gamma : matrix (Fr E); ppe_target : GT E }.
(** [MSMEG1], statement.rs:139-144. *)
Record MSMEG1 := mkMSMEG1 {
  ms1_a : seq (G1 E); ms1_b : seq (Fr E);
  ms1_gamma : matrix (Fr E); ms1_target : G1 E }.
(** [MSMEG2], statement.rs:160-165. *)
Record MSMEG2 := mkMSMEG2 {
  ms2_a : seq (Fr E); ms2_b : seq (G2 E);
  ms2_gamma : matrix (Fr E); ms2_target : G2 E }.
(** [QuadEqu], statement.rs:180-185. *)
Record QuadEqu := mkQuadEqu {
  quad_a : seq (Fr E); quad_b : seq (Fr E);
  quad_gamma : matrix (Fr E); quad_target : Fr E }.

(** [Equation::get_type], statement.rs:128-130. *)
Definition ppe_get_type (_ : PPE) : EquType := PairingProduct.
(** [Equation::get_type], statement.rs:149-151. *)
Definition ms1_get_type (_ : MSMEG1) : EquType := MultiScalarG1.
(** [Equation::get_type], statement.rs:169-171. *)
Definition ms2_get_type (_ : MSMEG2) : EquType := MultiScalarG2.
(** [Equation::get_type], statement.rs:189-191. *)
Definition quad_get_type (_ : QuadEqu) : EquType := Quadratic.

(** [EquProof], prove.rs:56-61. *)
Record EquProof := mkEquProof {
  pi : seq (Com2 E); theta : seq (Com1 E);
  equ_type : EquType; pf_rand : matrix (Fr E) }.

(** [CProof], prove.rs:65-69. *)
Record CProof := mkCProof {
  xcoms : Commit1 E; ycoms : Commit2 E; equ_proofs : seq EquProof }.
End Statement.
Arguments PPE : clear implicits.
Arguments MSMEG1 : clear implicits.
Arguments MSMEG2 : clear implicits.
Arguments QuadEqu : clear implicits.
Arguments EquProof : clear implicits.
Arguments CProof : clear implicits.
