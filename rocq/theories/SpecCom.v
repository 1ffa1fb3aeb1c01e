(** Specifications for the commitment groups: the laws of groups, modules and bilinear maps. *)
From mathcomp Require Import all_ssreflect all_algebra.
From Verif Require Import Base Group DataStructures Spec SpecMat.
Set Implicit Arguments.
Unset Strict Implicit.
Unset Printing Implicit Defensive.
Import GRing.Theory.
Local Open Scope ring_scope.

(** [add], [zero], [neg] form an abelian group. *)
Definition abelian_group {T : Type} (add : T -> T -> T) (zero : T) (neg : T -> T) : Prop :=
  [/\ forall x y z, add x (add y z) = add (add x y) z,
      forall x y, add x y = add y x,
      forall x, add zero x = x
    & forall x, add (neg x) x = zero].

(** [smul] is an action of the field on the group. *)
Definition module_action {F : fieldType} {T : Type} (add : T -> T -> T) (smul : T -> F -> T) : Prop :=
  [/\ forall x y k, smul (add x y) k = add (smul x k) (smul y k),
      forall x k l, smul x (k + l) = add (smul x k) (smul x l),
      forall x k l, smul (smul x k) l = smul x (k * l)
    & forall x, smul x 1 = x].

(** Multiples in the group of matrices of target elements, component by component. *)
Definition scaleT {E : pairing} (k : Fr E) (t : ComT E) : ComT E :=
  mkComT (k *: t0 t) (k *: t1 t) (k *: t2 t) (k *: t3 t).
