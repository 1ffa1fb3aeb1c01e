(** Specifications for the converse reductions: from a distinguisher for DDH to tests of keys and of proofs. *)
From mathcomp Require Import all_ssreflect all_algebra.
From Verif Require Import Base Group DataStructures Generator Commit Statement Prove Spec SpecVerify SpecFormula SpecHide SpecSxdh.
Set Implicit Arguments.
Unset Strict Implicit.
Unset Printing Implicit Defensive.
Import Order.Theory GRing.Theory Num.Theory.
Local Open Scope ring_scope.

(** A scalar other than zero, for random self-reduction. *)
Notation nz F := [finType of {k : F | k != 0}].

Section Nec.
Context {F : finFieldType} {A B C : lmodType F} {e : A -> B -> C} {W : finType}.
Local Notation E := (Pairing e).

(** Ask [D] about the keys of one group, the second scaled. *)
Definition ask_key1 (D : W -> A -> A -> A -> A -> bool) (x : W * nz F) (crs : CRS E) : bool :=
  D x.1 (u1 crs).1 (u1 crs).2 (val x.2 *: (u2 crs).1) (val x.2 *: (u2 crs).2).
Definition ask_key2 (D : W -> B -> B -> B -> B -> bool) (x : W * nz F) (crs : CRS E) : bool :=
  D x.1 (v1 crs).1 (v1 crs).2 (val x.2 *: (v2 crs).1) (val x.2 *: (v2 crs).2).

(** Ask [D] about the first key and [c], scaled; the identity as base point is
    treated apart. *)
Definition ask_com1 (D : W -> A -> A -> A -> A -> bool) (x : W * nz F) (crs : CRS E) (c : Com1 E) : bool :=
  if g1_gen crs == 0 then D x.1 0 0 0 0 else D x.1 (u1 crs).1 (u1 crs).2 (val x.2 *: c.1) (val x.2 *: c.2).
Definition ask_com2 (D : W -> B -> B -> B -> B -> bool) (x : W * nz F) (crs : CRS E) (c : Com2 E) : bool :=
  if g2_gen crs == 0 then D x.1 0 0 0 0 else D x.1 (v1 crs).1 (v1 crs).2 (val x.2 *: c.1) (val x.2 *: c.2).
End Nec.
