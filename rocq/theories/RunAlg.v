(** Identities in a field, for C98. *)
From Coq Require Import Ring_theory Ring.
From mathcomp Require Import all_ssreflect all_algebra.
Set Implicit Arguments.
Unset Strict Implicit.
Unset Printing Implicit Defensive.
Import GRing.Theory.

Section Abs.
Variables (R : Type) (r0 r1 : R) (radd rmul rsub : R -> R -> R) (ropp : R -> R).
Hypothesis H : ring_theory r0 r1 radd rmul rsub ropp eq.
Add Ring absring : H.
Local Infix "+" := radd.
Local Infix "*" := rmul.
Local Notation "- x" := (ropp x).
Local Notation "x - y" := (radd x (ropp y)).
Lemma abs_e01 e a a' b b' t : e = a' + b' * t - (a + b * t) -> a' = a + e - t * (b' - b).
Proof. by move=> ->; ring. Qed.
Lemma abs_00 a t1 t2 b c e : a - t1 * (b + e - t2 * c - b) = a + t1 * (t2 * c - e).
Proof. by ring. Qed.
Lemma abs_p0 f a b t1 t2 c e : f - t1 * e - (a + t1 * (t2 * c - e) + (b - t1 * c) * t2) = f - (a + b * t2).
Proof. by ring. Qed.
Lemma abs_p1 f a b t2 c e : f + e - (a + e - t2 * c + (b + c) * t2) = f - (a + b * t2).
Proof. by ring. Qed.
Lemma abs_t0 a b t1 t2 c e : a + t1 * (t2 * c - e) + (b + e - t2 * c) * t1 = a + b * t1.
Proof. by ring. Qed.
Lemma abs_t1 a b t1 c : a - t1 * c + (b + c) * t1 = a + b * t1.
Proof. by ring. Qed.
Lemma abs_ee f f' x x' : f' - x' = f - x -> f' - f = x' - x.
Proof.
move=> h; have -> : f' - f = (f' - x') + x' - f by ring.
by rewrite h; ring.
Qed.
Lemma abs_m0 f t1 e a : f - t1 * e - (a - t1 * e) = f - a.
Proof. by ring. Qed.
Lemma abs_m1 f e a : f + e - (a + e) = f - a.
Proof. by ring. Qed.
Lemma abs_m2 a b t1 e : a - t1 * e + (b + e) * t1 = a + b * t1.
Proof. by ring. Qed.
Lemma abs_m3 e a b : e = b - a -> b = a + e.
Proof. by move=> ->; ring. Qed.
End Abs.

Local Open Scope ring_scope.
Section Alg.
Variable F : fieldType.
Lemma field_ring : @ring_theory F 0 1 (@GRing.add F) (@GRing.mul F) (fun a b => a - b) (@GRing.opp F) eq.
Proof.
split=> //.
- exact: add0r.
- exact: addrC.
- exact: addrA.
- exact: mul1r.
- exact: mulrC.
- exact: mulrA.
- exact: mulrDl.
- exact: subrr.
Qed.
Implicit Types (a b c d e f t x : F).
Lemma alg_e01 e a a' b b' t : e = a' + b' * t - (a + b * t) -> a' = a + e - t * (b' - b).
Proof. exact: (abs_e01 field_ring). Qed.
Lemma alg_00 a t1 t2 b c e : a - t1 * (b + e - t2 * c - b) = a + t1 * (t2 * c - e).
Proof. exact: (abs_00 field_ring). Qed.
Lemma alg_p0 f a b t1 t2 c e : f - t1 * e - (a + t1 * (t2 * c - e) + (b - t1 * c) * t2) = f - (a + b * t2).
Proof. exact: (abs_p0 field_ring). Qed.
Lemma alg_p1 f a b t2 c e : f + e - (a + e - t2 * c + (b + c) * t2) = f - (a + b * t2).
Proof. exact: (abs_p1 field_ring). Qed.
Lemma alg_t0 a b t1 t2 c e : a + t1 * (t2 * c - e) + (b + e - t2 * c) * t1 = a + b * t1.
Proof. exact: (abs_t0 field_ring). Qed.
Lemma alg_t1 a b t1 c : a - t1 * c + (b + c) * t1 = a + b * t1.
Proof. exact: (abs_t1 field_ring). Qed.
Lemma alg_ee f f' x x' : f' - x' = f - x -> f' - f = x' - x.
Proof. exact: (abs_ee field_ring). Qed.
Lemma alg_m0 f t1 e a : f - t1 * e - (a - t1 * e) = f - a.
Proof. exact: (abs_m0 field_ring). Qed.
Lemma alg_m1 f e a : f + e - (a + e) = f - a.
Proof. exact: (abs_m1 field_ring). Qed.
Lemma alg_m2 a b t1 e : a - t1 * e + (b + e) * t1 = a + b * t1.
Proof. exact: (abs_m2 field_ring). Qed.
Lemma alg_m3 e a b : e = b - a -> b = a + e.
Proof. exact: (abs_m3 field_ring). Qed.
End Alg.
