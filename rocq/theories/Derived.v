(** Model of the derived [PartialEq] implementations of /repo/src/statement.rs and /repo/src/prover/prove.rs. *)
From mathcomp Require Import all_ssreflect all_algebra.
From Verif Require Import Base Group DataStructures Commit Statement.
Set Implicit Arguments.
Unset Strict Implicit.
Unset Printing Implicit Defensive.
Import GRing.Theory.
Local Open Scope ring_scope.

(** Equality of [Vec<T>] with the items compared by [eqb]: the items in order
    and the lengths. Used by the comparisons derived at statement.rs:117 and below. *)
Fixpoint vec_eq {T : Type} (eqb : T -> T -> bool) (a b : seq T) : bool :=
  match a, b with
  | [::], [::] => true
  | x :: a', y :: b' => eqb x y && vec_eq eqb a' b'
  | _, _ => false
  end.

(** Equality of [Matrix<F>], a [Vec<Vec<F>>] (data_structures.rs:48). *)
Definition mat_eq {T : eqType} : matrix T -> matrix T -> bool := vec_eq (vec_eq (fun x y : T => x == y)).

Section Derived.
Context {E : pairing}.

(** Derived [PartialEq] of [PPE], statement.rs:117: the fields in order of declaration. Points and
    scalars are compared by arkworks, here by the equality of the group or field. *)
Definition ppe_eq (x y : PPE E) : bool :=
  [&& vec_eq (fun p r : G1 E => p == r) (ppe_a x) (ppe_a y), vec_eq (fun p r : G2 E => p == r) (ppe_b x) (ppe_b y),
      mat_eq (ppe_gamma x) (ppe_gamma y) & (ppe_target x : GT E) == ppe_target y].

(** Derived [PartialEq] of [MSMEG1], statement.rs:138: the fields in order of declaration. Points and
    scalars are compared by arkworks, here by the equality of the group or field. *)
Definition ms1_eq (x y : MSMEG1 E) : bool :=
  [&& vec_eq (fun p r : G1 E => p == r) (ms1_a x) (ms1_a y), vec_eq (fun p r : Fr E => p == r) (ms1_b x) (ms1_b y),
      mat_eq (ms1_gamma x) (ms1_gamma y) & (ms1_target x : G1 E) == ms1_target y].

(** Derived [PartialEq] of [MSMEG2], statement.rs:159: the fields in order of declaration. Points and
    scalars are compared by arkworks, here by the equality of the group or field. *)
Definition ms2_eq (x y : MSMEG2 E) : bool :=
  [&& vec_eq (fun p r : Fr E => p == r) (ms2_a x) (ms2_a y), vec_eq (fun p r : G2 E => p == r) (ms2_b x) (ms2_b y),
      mat_eq (ms2_gamma x) (ms2_gamma y) & (ms2_target x : G2 E) == ms2_target y].

(** Derived [PartialEq] of [QuadEqu], statement.rs:179: the fields in order of declaration. Points and
    scalars are compared by arkworks, here by the equality of the group or field. *)
Definition quad_eq (x y : QuadEqu E) : bool :=
  [&& vec_eq (fun p r : Fr E => p == r) (quad_a x) (quad_a y), vec_eq (fun p r : Fr E => p == r) (quad_b x) (quad_b y),
      mat_eq (quad_gamma x) (quad_gamma y) & (quad_target x : Fr E) == quad_target y].

(** Derived [PartialEq] of [EquProof], prove.rs:55; [pi] and [theta] are compared with [Com2 ==] and [Com1 ==]. *)
Definition equproof_eq (x y : EquProof E) : bool :=
  [&& vec_eq com_eq (pi x) (pi y), vec_eq com_eq (theta x) (theta y),
      equtype_eq (equ_type x) (equ_type y) & mat_eq (pf_rand x) (pf_rand y)].

(** Derived [PartialEq] of [CProof], prove.rs:64; the commitments are compared with [Commit1 ==] and
    [Commit2 ==] of commit.rs:33-39. *)
Definition cproof_eq (x y : CProof E) : bool :=
  [&& commit_eq (xcoms x) (xcoms y), commit_eq (ycoms x) (ycoms y) & vec_eq equproof_eq (equ_proofs x) (equ_proofs y)].
End Derived.
