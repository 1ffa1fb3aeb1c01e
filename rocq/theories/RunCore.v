(** C98: two runs of [commit_and_prove] that publish the same proof. *)
From mathcomp Require Import all_ssreflect all_algebra.
From Verif Require Import Base BaseLemmas Group DataStructures Generator Commit Statement Prove Verify Spec SpecMat SpecVerify SpecHide SpecPanic SpecFormula BenchLemmas FibreProps FibreCom.
Set Implicit Arguments.
Unset Strict Implicit.
Unset Printing Implicit Defensive.
Import GRing.Theory.
Local Open Scope ring_scope.

Section RunCore.
Context {E : pairing}.
Notation F := (Fr E).
Variable crs : CRS E.
Variables (W1 W2 : lmodType F) (L1 : {linear W1 -> Com1 E}) (L2 : {linear W2 -> Com2 E}).
Variables (m n kx ky : nat) (tu tv : nat -> F).
Notation U := (nth 0 (crs_u crs) 0).
Notation V := (nth 0 (crs_v crs) 0).
Hypothesis hu : forall k, (k < kx)%N -> nth 0 (crs_u crs) k = tu k *: U.
Hypothesis hv : forall l, (l < ky)%N -> nth 0 (crs_v crs) l = tv l *: V.
Hypothesis freeU : forall x y a b, L1 x + a *: U = L1 y + b *: U <-> x = y /\ a = b.
Hypothesis freeV : forall x y a b, L2 x + a *: V = L2 y + b *: V <-> x = y /\ a = b.

Lemma nth_lin (W : lmodType F) (G : lmodType F) (L : {linear W -> com G}) (A : seq W) i : nth 0 [seq L x | x <- A] i = L (nth 0 A i).
Proof.
case: (ltnP i (size A)) => hi; first by rewrite (nth_map 0).
by rewrite !nth_default ?size_map // linear0.
Qed.

Lemma key_sum k (G : lmodType F) (key : seq (com G)) (t : nat -> F) (x : nat -> F) :
  (forall l, (l < k)%N -> nth 0 key l = t l *: nth 0 key 0) ->
  \sum_(l < k) x l *: nth 0 key l = (\sum_(l < k) x l * t l) *: nth 0 key 0.
Proof. by move=> h; rewrite scaler_suml; apply: eq_bigr => l _; rewrite h // scalerA. Qed.

Variables (A X : seq W1) (B Y : seq W2) (G : matrix F).
Let A' := [seq L1 x | x <- A].
Let X' := [seq L1 x | x <- X].
Let B' := [seq L2 x | x <- B].
Let Y' := [seq L2 x | x <- Y].
Definition wx (i : nat) : W2 := nth 0 B i + \sum_(j < n) at_ G i j *: nth 0 Y j.
Definition wy (j : nat) : W1 := nth 0 A j + \sum_(i < m) at_ G i j *: nth 0 X i.

Lemma theta_form (s T : nat -> nat -> F) l :
  \sum_(j < n) s j l *: nth 0 A' j + \sum_(i < m) (\sum_(j < n) s j l * at_ G i j) *: nth 0 X' i
    + \sum_(k < kx) T l k *: nth 0 (crs_u crs) k
  = L1 (\sum_(j < n) s j l *: wy j) + (\sum_(k < kx) T l k * tu k) *: U.
Proof.
rewrite (key_sum _ hu); congr (_ + _); rewrite linear_sum.
have -> : \sum_(i < m) (\sum_(j < n) s j l * at_ G i j) *: nth 0 X' i = \sum_(j < n) s j l *: \sum_(i < m) at_ G i j *: nth 0 X' i.
  rewrite (eq_bigr (fun i : 'I_m => \sum_(j < n) s j l *: (at_ G i j *: nth 0 X' i))).
    by rewrite exchange_big; apply: eq_bigr => j _; rewrite scaler_sumr.
  by move=> i _; rewrite scaler_suml; apply: eq_bigr => j _; rewrite scalerA.
rewrite -big_split; apply: eq_bigr => j _ /=; rewrite -scalerDr linearZZ /wy; congr (_ *: _); rewrite [L1 (_ + _)]linearD [L1 (\sum_(_ < _) _)]linear_sum nth_lin.
by congr (_ + _); apply: eq_bigr => i _; rewrite linearZZ nth_lin.
Qed.

Lemma pi_form (r s T : nat -> nat -> F) k :
  \sum_(i < m) r i k *: nth 0 B' i + \sum_(j < n) (\sum_(i < m) r i k * at_ G i j) *: nth 0 Y' j
    + \sum_(l < ky) (\sum_(j < n) (\sum_(i < m) r i k * at_ G i j) * s j l - T l k) *: nth 0 (crs_v crs) l
  = L2 (\sum_(i < m) r i k *: wx i)
    + (\sum_(i < m) \sum_(j < n) r i k * at_ G i j * (\sum_(l < ky) s j l * tv l) - \sum_(l < ky) T l k * tv l) *: V.
Proof.
rewrite (key_sum (fun l => \sum_(j < n) (\sum_(i < m) r i k * at_ G i j) * s j l - T l k) hv); congr (_ + _ *: _).
  rewrite linear_sum.
  have -> : \sum_(j < n) (\sum_(i < m) r i k * at_ G i j) *: nth 0 Y' j = \sum_(i < m) r i k *: \sum_(j < n) at_ G i j *: nth 0 Y' j.
    rewrite (eq_bigr (fun j : 'I_n => \sum_(i < m) r i k *: (at_ G i j *: nth 0 Y' j))).
      by rewrite exchange_big; apply: eq_bigr => i _; rewrite scaler_sumr.
    by move=> j _; rewrite scaler_suml; apply: eq_bigr => i _; rewrite scalerA.
  rewrite -big_split; apply: eq_bigr => i _ /=; rewrite -scalerDr linearZZ /wx; congr (_ *: _); rewrite [L2 (_ + _)]linearD [L2 (\sum_(_ < _) _)]linear_sum nth_lin.
  by congr (_ + _); apply: eq_bigr => j _; rewrite linearZZ nth_lin.
rewrite (eq_bigr (fun l : 'I_ky => \sum_(j < n) (\sum_(i < m) r i k * at_ G i j) * (s j l * tv l) - T l k * tv l)); last first.
  by move=> l _; rewrite mulrBl mulr_suml; congr (_ - _); apply: eq_bigr => j _; rewrite mulrA.
rewrite sumrB; congr (_ - _); rewrite exchange_big [RHS]exchange_big /=; apply: eq_bigr => j _.
by rewrite -mulr_sumr mulr_suml.
Qed.

(** What is published, for two choices of the random scalars. *)
Definition run_value (r s T : nat -> nat -> F) (ty : EquType) : CProof E :=
  let cx := commit_value kx (crs_u crs) X' r in
  let cy := commit_value ky (crs_v crs) Y' s in
  mkCProof cx cy [:: prove_value m n kx ky A' X' B' Y' G (crand cx) (crand cy) (table ky kx T) crs ty].

Lemma run_same (r s T r' s' T' : nat -> nat -> F) ty : size X = m -> size Y = n ->
  public (run_value r' s' T' ty) = public (run_value r s T ty) <->
  [/\ forall i, (i < m)%N -> \sum_(k < kx) r' i k * tu k = \sum_(k < kx) r i k * tu k,
      forall j, (j < n)%N -> \sum_(l < ky) s' j l * tv l = \sum_(l < ky) s j l * tv l,
      forall k, (k < kx)%N -> \sum_(i < m) r' i k *: wx i = \sum_(i < m) r i k *: wx i /\
        \sum_(i < m) \sum_(j < n) r' i k * at_ G i j * (\sum_(l < ky) s' j l * tv l) - \sum_(l < ky) T' l k * tv l
        = \sum_(i < m) \sum_(j < n) r i k * at_ G i j * (\sum_(l < ky) s j l * tv l) - \sum_(l < ky) T l k * tv l &
      forall l, (l < ky)%N -> \sum_(j < n) s' j l *: wy j = \sum_(j < n) s j l *: wy j /\
        \sum_(k < kx) T' l k * tu k = \sum_(k < kx) T l k * tu k].
Proof.
move=> sX sY; pose PI (r s T : nat -> nat -> F) k := L2 (\sum_(i < m) r i k *: wx i)
    + (\sum_(i < m) \sum_(j < n) r i k * at_ G i j * (\sum_(l < ky) s j l * tv l) - \sum_(l < ky) T l k * tv l) *: V.
pose TH (s T : nat -> nat -> F) l := L1 (\sum_(j < n) s j l *: wy j) + (\sum_(k < kx) T l k * tu k) *: U.
pose CX (r : nat -> nat -> F) i := nth 0 X' i + \sum_(k < kx) r i k *: nth 0 (crs_u crs) k.
pose CY (s : nat -> nat -> F) j := nth 0 Y' j + \sum_(l < ky) s j l *: nth 0 (crs_v crs) l.
have pub (r0 s0 T0 : nat -> nat -> F) : public (run_value r0 s0 T0 ty) =
  (mkseq (CX r0) m, mkseq (CY s0) n, [:: (mkseq (PI r0 s0 T0) kx, mkseq (TH s0 T0) ky, ty)]).
  rewrite /public /run_value /= !size_map sX sY.
  have -> : mkseq (PI r0 s0 T0) kx = mkseq (fun k => \sum_(i < m) at_ (table m kx r0) i k *: nth 0 B' i
      + \sum_(j < n) (\sum_(i < m) at_ (table m kx r0) i k * at_ G i j) *: nth 0 Y' j
      + \sum_(l < ky) (\sum_(j < n) (\sum_(i < m) at_ (table m kx r0) i k * at_ G i j) * at_ (table n ky s0) j l - at_ (table ky kx T0) l k) *: nth 0 (crs_v crs) l) kx.
    apply/mkseq_same => k hk; rewrite /PI -pi_form; congr (_ + _ + _); apply: eq_bigr => i _.
    - by rewrite at_table ?hk ?ltn_ord.
    - by congr (_ *: _); apply: eq_bigr => i' _; rewrite at_table ?hk ?ltn_ord.
    rewrite (at_table T0) ?hk ?ltn_ord //; congr ((_ - _) *: _); apply: eq_bigr => j _.
    by rewrite (at_table s0) ?ltn_ord //; congr (_ * _); apply: eq_bigr => i' _; rewrite at_table ?hk ?ltn_ord.
  suff -> : mkseq (TH s0 T0) ky = mkseq (fun l => \sum_(j < n) at_ (table n ky s0) j l *: nth 0 A' j
      + \sum_(i < m) (\sum_(j < n) at_ (table n ky s0) j l * at_ G i j) *: nth 0 X' i
      + \sum_(k < kx) at_ (table ky kx T0) l k *: nth 0 (crs_u crs) k) ky by [].
  apply/mkseq_same => l hl; rewrite /TH -theta_form; congr (_ + _ + _); apply: eq_bigr => i _.
  - by rewrite at_table ?hl ?ltn_ord.
  - by congr (_ *: _); apply: eq_bigr => j _; rewrite at_table ?hl ?ltn_ord.
  by rewrite at_table ?hl ?ltn_ord.
have cxE (r0 : nat -> nat -> F) i : CX r0 i = L1 (nth 0 X i) + (\sum_(k < kx) r0 i k * tu k) *: U.
  by rewrite /CX nth_lin (key_sum _ hu).
have cyE (s0 : nat -> nat -> F) j : CY s0 j = L2 (nth 0 Y j) + (\sum_(l < ky) s0 j l * tv l) *: V.
  by rewrite /CY nth_lin (key_sum _ hv).
rewrite !pub; split=> [[/mkseq_same h1 /mkseq_same h2 /mkseq_same h3 /mkseq_same h4]|[h1 h2 h3 h4]].
  split=> [i hi|j hj|k hk|l hl].
  - by have := h1 i hi; rewrite !cxE => /freeU [].
  - by have := h2 j hj; rewrite !cyE => /freeV [].
  - by have /freeV [] := h3 k hk.
  by have /freeU [] := h4 l hl.
congr (_, _, [:: (_, _, _)]); apply/mkseq_same => i hi.
- by rewrite !cxE h1.
- by rewrite !cyE h2.
- by rewrite /PI (h3 i hi).1 (h3 i hi).2.
by rewrite /TH (h4 i hi).1 (h4 i hi).2.
Qed.
End RunCore.
