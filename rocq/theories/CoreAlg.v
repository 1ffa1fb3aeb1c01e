(** The algebra behind Groth-Sahai proofs, over arbitrary modules. *)
From mathcomp Require Import all_ssreflect all_algebra.
Set Implicit Arguments.
Unset Strict Implicit.
Unset Printing Implicit Defensive.
Import GRing.Theory.
Local Open Scope ring_scope.

Section Bilin.
Context {F : fieldType} {U V W : lmodType F}.
Variable f : U -> V -> W.

Definition bilin : Prop :=
  [/\ forall x x' y, f (x + x') y = f x y + f x' y,
      forall x y y', f x (y + y') = f x y + f x y',
      forall k x y, f (k *: x) y = k *: f x y
    & forall k x y, f x (k *: y) = k *: f x y].

Hypothesis fb : bilin.

Lemma bilDl x x' y : f (x + x') y = f x y + f x' y.
Proof. by case: fb. Qed.
Lemma bilDr x y y' : f x (y + y') = f x y + f x y'.
Proof. by case: fb. Qed.
Lemma bilZl k x y : f (k *: x) y = k *: f x y.
Proof. by case: fb. Qed.
Lemma bilZr k x y : f x (k *: y) = k *: f x y.
Proof. by case: fb. Qed.
Lemma bil0l y : f 0 y = 0.
Proof. by rewrite -(scale0r (0 : U)) bilZl scale0r. Qed.
Lemma bil0r x : f x 0 = 0.
Proof. by rewrite -(scale0r (0 : V)) bilZr scale0r. Qed.
Lemma bilNl x y : f (- x) y = - f x y.
Proof. by rewrite -scaleN1r bilZl scaleN1r. Qed.
Lemma bilNr x y : f x (- y) = - f x y.
Proof. by rewrite -scaleN1r bilZr scaleN1r. Qed.
Lemma bilBl x x' y : f (x - x') y = f x y - f x' y.
Proof. by rewrite bilDl bilNl. Qed.
Lemma bilBr x y y' : f x (y - y') = f x y - f x y'.
Proof. by rewrite bilDr bilNr. Qed.
Lemma bil_suml I (r : seq I) (g : I -> U) y : f (\sum_(i <- r) g i) y = \sum_(i <- r) f (g i) y.
Proof. by apply: (big_morph (f^~ y)) => [x x'|]; rewrite ?bilDl ?bil0l. Qed.
Lemma bil_sumr I (r : seq I) (g : I -> V) x : f x (\sum_(i <- r) g i) = \sum_(i <- r) f x (g i).
Proof. by apply: (big_morph (f x)) => [y y'|]; rewrite ?bilDr ?bil0r. Qed.

(** Moving a linear combination across the pairing. *)
Lemma split_r I J (rj : seq J) (rl : seq I) (A : J -> U) (Y : J -> V) (S : J -> I -> F) (v : I -> V) :
  \sum_(j <- rj) f (A j) (Y j + \sum_(l <- rl) S j l *: v l)
  = \sum_(j <- rj) f (A j) (Y j) + \sum_(l <- rl) f (\sum_(j <- rj) S j l *: A j) (v l).
Proof.
under eq_bigr do rewrite bilDr bil_sumr; rewrite big_split /=; congr (_ + _).
rewrite exchange_big /=; apply: eq_bigr => l _; rewrite bil_suml.
by apply: eq_bigr => j _; rewrite bilZl bilZr.
Qed.

Lemma split_l I J (rk : seq J) (ri : seq I) (X : J -> U) (B : J -> V) (R : J -> I -> F) (u : I -> U) :
  \sum_(k <- rk) f (X k + \sum_(i <- ri) R k i *: u i) (B k)
  = \sum_(k <- rk) f (X k) (B k) + \sum_(i <- ri) f (u i) (\sum_(k <- rk) R k i *: B k).
Proof.
under eq_bigr do rewrite bilDl bil_suml; rewrite big_split /=; congr (_ + _).
rewrite exchange_big /=; apply: eq_bigr => i _; rewrite bil_sumr.
by apply: eq_bigr => j _; rewrite bilZl bilZr.
Qed.
End Bilin.

Section Core.
Context {F : fieldType} {U V W : lmodType F}.
Variable f : U -> V -> W.
Hypothesis fb : bilin f.
Variables (m n kx ky : nat).
Variables (A X u : nat -> U) (B Y v : nat -> V) (G R S T : nat -> nat -> F).

(** Commitments. *)
Definition gs_c k : U := X k + \sum_(0 <= i < kx) R k i *: u i.
Definition gs_d j : V := Y j + \sum_(0 <= l < ky) S j l *: v l.

(** Proof elements. *)
Definition gs_pi i : V :=
  \sum_(0 <= k < m) R k i *: B k
  + \sum_(0 <= j < n) (\sum_(0 <= k < m) R k i * G k j) *: Y j
  + \sum_(0 <= l < ky)
      (\sum_(0 <= j < n) (\sum_(0 <= k < m) R k i * G k j) * S j l - T l i) *: v l.
Definition gs_th l : U :=
  \sum_(0 <= j < n) S j l *: A j
  + \sum_(0 <= k < m) (\sum_(0 <= j < n) S j l * G k j) *: X k
  + \sum_(0 <= i < kx) T l i *: u i.

(** The value of the equation at [x], [y]. *)
Definition gs_eq (a x : nat -> U) (b y : nat -> V) : W :=
  \sum_(0 <= j < n) f (a j) (y j) + \sum_(0 <= k < m) f (x k) (b k)
  + \sum_(0 <= k < m) f (x k) (\sum_(0 <= j < n) G k j *: y j).

Lemma gs_identity :
  gs_eq A gs_c B gs_d
  = gs_eq A X B Y + \sum_(0 <= i < kx) f (u i) (gs_pi i)
                  + \sum_(0 <= l < ky) f (gs_th l) (v l).
Proof.
rewrite /gs_eq (split_r fb) (split_l fb) /gs_c (split_l fb) /gs_d.
have D k : \sum_(0 <= j < n) G k j *: (Y j + \sum_(0 <= l < ky) S j l *: v l)
  = \sum_(0 <= j < n) G k j *: Y j
    + \sum_(0 <= l < ky) (\sum_(0 <= j < n) S j l * G k j) *: v l.
  under eq_bigr do rewrite scalerDr scaler_sumr; rewrite big_split /=; congr (_ + _).
  rewrite exchange_big /=; apply: eq_bigr => l _; rewrite scaler_suml.
  by apply: eq_bigr => j _; rewrite scalerA mulrC.
under [X in _ + _ + (X + _) = _]eq_bigr do rewrite D.
rewrite (split_r fb).
have P i : \sum_(0 <= k < m) R k i *:
     (\sum_(0 <= j < n) G k j *: (Y j + \sum_(0 <= l < ky) S j l *: v l))
  = \sum_(0 <= j < n) (\sum_(0 <= k < m) R k i * G k j) *: Y j
    + \sum_(0 <= l < ky)
        (\sum_(0 <= j < n) (\sum_(0 <= k < m) R k i * G k j) * S j l) *: v l.
  have -> : \sum_(0 <= k < m) R k i *:
     (\sum_(0 <= j < n) G k j *: (Y j + \sum_(0 <= l < ky) S j l *: v l))
     = \sum_(0 <= j < n) (\sum_(0 <= k < m) R k i * G k j) *: (Y j + \sum_(0 <= l < ky) S j l *: v l).
    under eq_bigr do rewrite scaler_sumr; rewrite exchange_big /=; apply: eq_bigr => j _.
    by rewrite scaler_suml; apply: eq_bigr => k _; rewrite scalerA.
  under eq_bigr do rewrite scalerDr scaler_sumr; rewrite big_split /=; congr (_ + _).
  rewrite exchange_big /=; apply: eq_bigr => l _; rewrite scaler_suml.
  by apply: eq_bigr => j _; rewrite scalerA.
under [X in _ + _ + (_ + X) = _]eq_bigr do rewrite P.
rewrite /gs_pi /gs_th.
have T0 : \sum_(0 <= l < ky) f (\sum_(0 <= i < kx) T l i *: u i) (v l)
  = \sum_(0 <= i < kx) f (u i) (\sum_(0 <= l < ky) T l i *: v l).
  under eq_bigr do rewrite (bil_suml fb); rewrite exchange_big /=; apply: eq_bigr => i _.
  by rewrite (bil_sumr fb); apply: eq_bigr => l _; rewrite (bilZl fb) (bilZr fb).
under [X in _ = _ + X + _]eq_bigr => i _.
  under [X in f _ (_ + X)]eq_bigr do rewrite scalerBl.
  rewrite sumrB !(bilDr fb) (bilNr fb).
  over.
under [X in _ = _ + X]eq_bigr => l _ do rewrite !(bilDl fb).
rewrite !big_split /= sumrN T0.
under [\sum_(0 <= i < kx) f _ (_ + _)]eq_bigr do rewrite (bilDr fb).
rewrite big_split /=.
set a1 := \sum_(0 <= j < n) f (A j) (Y j).
set a2 := \sum_(0 <= l < ky) f (\sum_(0 <= j < n) _) _.
set a3 := \sum_(0 <= k < m) f _ _.
set a4 := \sum_(0 <= i < kx) f _ _.
set a5 := \sum_(0 <= k < m) f _ _.
set a6 := \sum_(0 <= l < ky) f _ _.
set a7 := \sum_(0 <= i < kx) f _ _.
set a8 := \sum_(0 <= i < kx) f _ _.
set a9 := \sum_(0 <= i < kx) f _ _.
rewrite -!addrA; congr (_ + _); rewrite addrC -!addrA; congr (_ + _).
rewrite addrCA; do 2!congr (_ + _).
rewrite addrCA; congr (_ + _); rewrite addrCA; congr (_ + _).
by rewrite [RHS]addrC -!addrA addrN addr0 addrC.
Qed.
End Core.
