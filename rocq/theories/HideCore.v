(** Changing the committed values under keys that span: the randomness that
    gives the same commitments and the same proof. *)
From mathcomp Require Import all_ssreflect all_algebra.
From Verif Require Import CoreAlg.
Set Implicit Arguments.
Unset Strict Implicit.
Unset Printing Implicit Defensive.
Import GRing.Theory.
Local Open Scope ring_scope.

Section Lin.
Context {F : fieldType} {U : lmodType F}.
Variables (kx : nat) (u : nat -> U).
Definition lin (a : nat -> F) : U := \sum_(0 <= i < kx) a i *: u i.

Lemma linD a b : lin a + lin b = lin (fun i => a i + b i).
Proof. by rewrite /lin -big_split; apply: eq_bigr => i _; rewrite scalerDl. Qed.
Lemma linZ k a : k *: lin a = lin (fun i => k * a i).
Proof. by rewrite /lin scaler_sumr; apply: eq_bigr => i _; rewrite scalerA. Qed.
Lemma linB a b : lin a - lin b = lin (fun i => a i - b i).
Proof. by rewrite /lin -sumrB; apply: eq_bigr => i _; rewrite scalerBl. Qed.
Lemma lin_sum n (a : nat -> nat -> F) :
  \sum_(0 <= j < n) lin (a j) = lin (fun i => \sum_(0 <= j < n) a j i).
Proof. by rewrite /lin exchange_big; apply: eq_bigr => i _; rewrite scaler_suml. Qed.
Lemma eq_lin a b : (forall i, (i < kx)%N -> a i = b i) -> lin a = lin b.
Proof. by move=> h; apply: eq_big_nat => i /andP[_ hi]; rewrite h. Qed.
End Lin.

Section Hide.
Context {F : fieldType} {U V W : lmodType F}.
Variable f : U -> V -> W.
Hypothesis fb : bilin f.
Variables (m n kx ky : nat).
Variables (A u : nat -> U) (B v : nat -> V) (G : nat -> nat -> F).
Variables (ac bc : nat -> nat -> F).
Hypothesis hA : forall j, (j < n)%N -> A j = lin kx u (ac j).
Hypothesis hB : forall k, (k < m)%N -> B k = lin ky v (bc k).
(** The pairings of the key elements are independent. *)
Hypothesis indep : forall p : nat -> nat -> F,
  \sum_(0 <= i < kx) f (u i) (lin ky v (p i)) = 0 ->
  forall i l, (i < kx)%N -> (l < ky)%N -> p i l = 0.

(** Coordinates of theta, without the last term. *)
Definition thc (xc S : nat -> nat -> F) l i : F :=
  \sum_(0 <= j < n) S j l * ac j i + \sum_(0 <= k < m) (\sum_(0 <= j < n) S j l * G k j) * xc k i.
Lemma th_lin X xc S T l : (forall k, (k < m)%N -> X k = lin kx u (xc k)) ->
  gs_th m n kx A X u G S T l = lin kx u (fun i => thc xc S l i + T l i).
Proof.
move=> hX; rewrite /gs_th.
have -> : \sum_(0 <= j < n) S j l *: A j = \sum_(0 <= j < n) lin kx u (fun i => S j l * ac j i).
  by apply: eq_big_nat => j /andP[_ hj]; rewrite hA // linZ.
have -> : \sum_(0 <= k < m) (\sum_(0 <= j < n) S j l * G k j) *: X k
  = \sum_(0 <= k < m) lin kx u (fun i => (\sum_(0 <= j < n) S j l * G k j) * xc k i).
  by apply: eq_big_nat => k /andP[_ hk]; rewrite hX // linZ.
by rewrite !lin_sum -[X in _ + X]/(lin kx u (T l)) !linD.
Qed.

Definition pic (yc R S T : nat -> nat -> F) i l : F :=
  \sum_(0 <= k < m) R k i * bc k l
  + \sum_(0 <= j < n) (\sum_(0 <= k < m) R k i * G k j) * yc j l
  + (\sum_(0 <= j < n) (\sum_(0 <= k < m) R k i * G k j) * S j l - T l i).
Lemma pi_lin Y yc R S T i : (forall j, (j < n)%N -> Y j = lin ky v (yc j)) ->
  gs_pi m n ky B Y v G R S T i = lin ky v (pic yc R S T i).
Proof.
move=> hY; rewrite /gs_pi.
have -> : \sum_(0 <= k < m) R k i *: B k = \sum_(0 <= k < m) lin ky v (fun l => R k i * bc k l).
  by apply: eq_big_nat => k /andP[_ hk]; rewrite hB // linZ.
have -> : \sum_(0 <= j < n) (\sum_(0 <= k < m) R k i * G k j) *: Y j
  = \sum_(0 <= j < n) lin ky v (fun l => (\sum_(0 <= k < m) R k i * G k j) * yc j l).
  by apply: eq_big_nat => j /andP[_ hj]; rewrite hY // linZ.
by rewrite !lin_sum -[X in _ + X]/(lin ky v _) !linD.
Qed.

(** Two assignments. *)
Variables (X X' : nat -> U) (Y Y' : nat -> V) (xc xc' yc yc' : nat -> nat -> F).
Hypothesis hX : forall k, (k < m)%N -> X k = lin kx u (xc k).
Hypothesis hX' : forall k, (k < m)%N -> X' k = lin kx u (xc' k).
Hypothesis hY : forall j, (j < n)%N -> Y j = lin ky v (yc j).
Hypothesis hY' : forall j, (j < n)%N -> Y' j = lin ky v (yc' j).
(** Corrections of the second proof. *)
Variables (pe : nat -> V) (te : nat -> U) (pec tec : nat -> nat -> F).
Hypothesis hpe : forall i, (i < kx)%N -> pe i = lin ky v (pec i).
Hypothesis hte : forall l, (l < ky)%N -> te l = lin kx u (tec l).
Hypothesis heq : gs_eq f m n G A X' B Y'
  = gs_eq f m n G A X B Y + \sum_(0 <= i < kx) f (u i) (pe i) + \sum_(0 <= l < ky) f (te l) (v l).

Variables (R S T : nat -> nat -> F).
Definition R_to k i : F := R k i + (xc k i - xc' k i).
Definition S_to j l : F := S j l + (yc j l - yc' j l).
Definition T_to l i : F := T l i + (thc xc S l i - (thc xc' S_to l i + tec l i)).
Variables (R' S' T' : nat -> nat -> F).
Hypothesis hR : forall k i, (k < m)%N -> (i < kx)%N -> R' k i = R_to k i.
Hypothesis hS : forall j l, (j < n)%N -> (l < ky)%N -> S' j l = S_to j l.
Hypothesis hT : forall l i, (l < ky)%N -> (i < kx)%N -> T' l i = T_to l i.

Lemma hide_c k : (k < m)%N -> gs_c kx X' u R' k = gs_c kx X u R k.
Proof.
move=> hk; rewrite /gs_c hX // hX' // -!/(lin _ _ _) !linD; apply: eq_lin => i hi.
by rewrite hR // /R_to addrC addrA subrK addrC.
Qed.
Lemma hide_d j : (j < n)%N -> gs_d ky Y' v S' j = gs_d ky Y v S j.
Proof.
move=> hj; rewrite /gs_d hY // hY' // -!/(lin _ _ _) !linD; apply: eq_lin => i hi.
by rewrite hS // /S_to addrC addrA subrK addrC.
Qed.
Lemma eq_thc x l i : (l < ky)%N -> thc x S' l i = thc x S_to l i.
Proof.
move=> hl; rewrite /thc; congr (_ + _); first by apply: eq_big_nat => j /andP[_ hj]; rewrite hS.
apply: eq_big_nat => k _; congr (_ * _).
by apply: eq_big_nat => j /andP[_ hj]; rewrite hS.
Qed.
Lemma hide_th l : (l < ky)%N -> gs_th m n kx A X' u G S' T' l + te l = gs_th m n kx A X u G S T l.
Proof.
move=> hl; rewrite (th_lin _ _ _ hX) (th_lin _ _ _ hX') hte // linD; apply: eq_lin => i hi.
rewrite hT // /T_to eq_thc //; set a := thc xc' _ _ _; set b := thc xc _ _ _.
by rewrite addrAC addrCA [X in _ + X]addrCA subrr addr0 addrC.
Qed.
Lemma hide_pi i : (i < kx)%N -> gs_pi m n ky B Y' v G R' S' T' i + pe i = gs_pi m n ky B Y v G R S T i.
Proof.
have h1 := gs_identity fb m n kx ky A X u B Y v G R S T.
have h2 := gs_identity fb m n kx ky A X' u B Y' v G R' S' T'.
have e : gs_eq f m n G A (gs_c kx X u R) B (gs_d ky Y v S) = gs_eq f m n G A (gs_c kx X' u R') B (gs_d ky Y' v S').
  rewrite /gs_eq; congr (_ + _ + _); apply: eq_big_nat => k /andP[_ hk]; rewrite ?hide_c ?hide_d //.
  by congr (f _ _); apply: eq_big_nat => j /andP[_ hj]; rewrite hide_d.
have h3 : \sum_(0 <= i < kx) f (u i) (gs_pi m n ky B Y v G R S T i)
  = \sum_(0 <= i < kx) f (u i) (gs_pi m n ky B Y' v G R' S' T' i + pe i).
  move: h2; rewrite -e h1 heq => h2.
  apply: (addrI (gs_eq f m n G A X B Y)).
  apply: (addIr (\sum_(0 <= l < ky) f (gs_th m n kx A X u G S T l) (v l))); rewrite h2.
  have -> : \sum_(0 <= l < ky) f (gs_th m n kx A X u G S T l) (v l)
    = \sum_(0 <= l < ky) f (gs_th m n kx A X' u G S' T' l) (v l) + \sum_(0 <= l < ky) f (te l) (v l).
    by rewrite -big_split; apply: eq_big_nat => l /andP[_ hl]; rewrite -hide_th // (bilDl fb).
  under [in RHS]eq_bigr do rewrite (bilDr fb).
  rewrite big_split /= -!addrA; congr (_ + _).
  set p0 := \sum_(0 <= i < kx) f (u i) (gs_pi _ _ _ _ _ _ _ _ _ _ _).
  set a := \sum_(0 <= i < kx) _; set t := \sum_(0 <= l < ky) f (gs_th _ _ _ _ _ _ _ _ _ _) _.
  set b := \sum_(0 <= l < ky) _.
  by do 2!congr (_ + _); rewrite [RHS]addrCA; congr (_ + _); rewrite addrCA (addrC b).
pose p i l := pic yc' R' S' T' i l + pec i l - pic yc R S T i l.
have h4 : \sum_(0 <= i < kx) f (u i) (lin ky v (p i)) = 0.
  rewrite (eq_big_nat _ _ (F2 := fun i => f (u i) (gs_pi m n ky B Y' v G R' S' T' i + pe i) - f (u i) (gs_pi m n ky B Y v G R S T i))).
    by rewrite sumrB h3 subrr.
  move=> k /andP[_ hk]; rewrite -(bilBr fb) (pi_lin _ _ _ _ hY) (pi_lin _ _ _ _ hY') hpe //.
  by rewrite linD linB.
move=> hi; rewrite (pi_lin _ _ _ _ hY) (pi_lin _ _ _ _ hY') hpe // linD; apply: eq_lin => l hl.
by apply/eqP; rewrite -subr_eq0; apply/eqP; exact: (indep h4).
Qed.
End Hide.
