(** C98: two runs of [commit_and_prove] that publish the same proof. *)
From mathcomp Require Import all_ssreflect all_algebra.
From Verif Require Import Base BaseLemmas Group DataStructures Generator Commit Statement Prove Verify Spec SpecMat SpecVerify SpecHide SpecPanic SpecFormula ProveLemmas FormulaProps BenchLemmas FibreProps FibreCom SpecRun RunCore RunAlg.
Set Implicit Arguments.
Unset Strict Implicit.
Unset Printing Implicit Defensive.
Import GRing.Theory.
Local Open Scope ring_scope.

Section RunProps.
Context {E : pairing}.
Notation F := (Fr E).
Implicit Types crs : CRS E.

Lemma i1_linear : linear (@i1 E). Proof. by move=> a x y; rewrite /i1; have -> : a *: (0, x) + (0, y) = (a *: 0 + 0, a *: x + y) :> com (G1 E) by []; rewrite scaler0 addr0. Qed.
Lemma i2_linear : linear (@i2 E). Proof. by move=> a x y; rewrite /i2; have -> : a *: (0, x) + (0, y) = (a *: 0 + 0, a *: x + y) :> com (G2 E) by []; rewrite scaler0 addr0. Qed.
Definition i1l := Linear i1_linear.
Definition i2l := Linear i2_linear.
Lemma k1_linear crs : linear (k1 crs : F^o -> Com1 E). Proof. by move=> a x y; rewrite /k1 scalerDl scalerA. Qed.
Lemma k2_linear crs : linear (k2 crs : F^o -> Com2 E). Proof. by move=> a x y; rewrite /k2 scalerDl scalerA. Qed.
Definition k1l crs := Linear (k1_linear crs).
Definition k2l crs := Linear (k2_linear crs).

Section Key.
Variables (crs : CRS E) (a1 a2 t1 t2 : F).
Hypothesis hk : binding_crs_with crs a1 a2 t1 t2.
Hypothesis hp : proper_crs crs.
Definition tt_ (t : F) (k : nat) : F := if k is 0%N then 1 else t.

Lemma hu2 k : (k < 2)%N -> nth 0 (crs_u crs) k = tt_ t1 k *: u1 crs.
Proof. by case: k => [|[|//]] _ /=; rewrite ?scale1r //; case: hk => -> _ _. Qed.
Lemma hv2 k : (k < 2)%N -> nth 0 (crs_v crs) k = tt_ t2 k *: v1 crs.
Proof. by case: k => [|[|//]] _ /=; rewrite ?scale1r //; case: hk => _ -> _. Qed.
Lemma hu1 k : (k < 1)%N -> nth 0 (crs_u crs) k = tt_ t1 k *: u1 crs.
Proof. by case: k => // _; rewrite scale1r. Qed.
Lemma hv1 k : (k < 1)%N -> nth 0 (crs_v crs) k = tt_ t2 k *: v1 crs.
Proof. by case: k => // _; rewrite scale1r. Qed.

Lemma free_i (G : lmodType F) (g : G) (c : F) (x y : G) (a b : F) : g != 0 ->
  ((0, x) + a *: (g, c *: g) = (0, y) + b *: (g, c *: g) :> com G <-> x = y /\ a = b).
Proof.
move=> h; split=> [[]|[-> ->] //]; rewrite !add0r => /(scal_inj _ _ h) -> /addIr ->.
by [].
Qed.
Lemma free_k (G : lmodType F) (g : G) (c t : F) (x y a b : F) : g != 0 ->
  (x *: ((t *: g, t *: (c *: g)) + (0, g)) + a *: (g, c *: g) = y *: ((t *: g, t *: (c *: g)) + (0, g)) + b *: (g, c *: g) :> com G <-> x = y /\ a = b).
Proof.
move=> h; split=> [|[-> ->] //].
have e z d : z *: ((t *: g, t *: (c *: g)) + (0, g)) + d *: (g, c *: g) = (0, z *: g) + (z * t + d) *: (g, c *: g) :> com G.
  rewrite scalerDr addrAC [_ + z *: _]addrC; congr (_ + _); first by have -> : z *: (0, g) = (z *: 0, z *: g) :> com G by []; rewrite scaler0.
  by rewrite scalerDl -scalerA.
by rewrite !e => /(free_i _ _ _ _ _ h) [/(scal_inj _ _ h) -> /addrI].
Qed.
Lemma free_i1 x y a b : i1l x + a *: u1 crs = i1l y + b *: u1 crs <-> x = y /\ a = b.
Proof. by case: hk => -> _ _; exact: (free_i _ _ _ _ _ hp.1). Qed.
Lemma free_i2 x y a b : i2l x + a *: v1 crs = i2l y + b *: v1 crs <-> x = y /\ a = b.
Proof. by case: hk => _ -> _; exact: (free_i _ _ _ _ _ hp.2). Qed.
Lemma free_k1 (x y : F^o) a b : k1l crs x + a *: u1 crs = k1l crs y + b *: u1 crs <-> x = y /\ a = b.
Proof. by rewrite /= /k1 /one1; case: hk => -> _ _; exact: (free_k _ _ _ _ _ _ hp.1). Qed.
Lemma free_k2 (x y : F^o) a b : k2l crs x + a *: v1 crs = k2l crs y + b *: v1 crs <-> x = y /\ a = b.
Proof. by rewrite /= /k2 /one2; case: hk => _ -> _; exact: (free_k _ _ _ _ _ _ hp.2). Qed.
End Key.

Lemma move_pair (a b a' b' t : F) : a' + b' * t = a + b * t -> a' = a - t * (b' - b).
Proof. by move/(canRL (addrK _)) ->; rewrite mulrBr opprB addrA ![t * _]mulrC. Qed.
Lemma moved_pair (a b k t : F) : a - t * k + (b + k) * t = a + b * t.
Proof. by rewrite mulrDl addrACA [k * t]mulrC addNr addr0. Qed.

Lemma sum2 (f : nat -> F) : \sum_(k < 2) f k = f 0%N + f 1%N.
Proof. by rewrite !big_ord_recl big_ord0 addr0. Qed.
Lemma sum1 (f : nat -> F) : \sum_(k < 1) f k = f 0%N.
Proof. by rewrite big_ord_recl big_ord0 addr0. Qed.

(** The conditions of [run_same], solved for the second tape. *)
Section Solve.
Variables (m n : nat) (g : nat -> nat -> F) (W1 W2 : lmodType F) (wx : nat -> W2) (wy : nat -> W1) (t1 t2 : F).
Implicit Types r s T : nat -> nat -> F.
Definition form (k : nat -> F) (v : nat -> F) : F := \sum_(i < m) \sum_(j < n) k i * g i j * v j.
Definition sameness (kx ky : nat) r s T r' s' T' : Prop :=
  [/\ forall i, (i < m)%N -> \sum_(k < kx) r' i k * tt_ t1 k = \sum_(k < kx) r i k * tt_ t1 k,
      forall j, (j < n)%N -> \sum_(l < ky) s' j l * tt_ t2 l = \sum_(l < ky) s j l * tt_ t2 l,
      forall k, (k < kx)%N -> \sum_(i < m) r' i k *: wx i = \sum_(i < m) r i k *: wx i /\
        form (r'^~ k) (fun j => \sum_(l < ky) s' j l * tt_ t2 l) - \sum_(l < ky) T' l k * tt_ t2 l
        = form (r^~ k) (fun j => \sum_(l < ky) s j l * tt_ t2 l) - \sum_(l < ky) T l k * tt_ t2 l &
      forall l, (l < ky)%N -> \sum_(j < n) s' j l *: wy j = \sum_(j < n) s j l *: wy j /\
        \sum_(k < kx) T' l k * tt_ t1 k = \sum_(k < kx) T l k * tt_ t1 k].

Definition pairs_moved (N : nat) r r' (t : F) (k : nat -> F) : Prop :=
  forall i, (i < N)%N -> r' i 0%N = r i 0%N - t * k i /\ r' i 1%N = r i 1%N + k i.

Lemma pairs_sum N r r' t : (forall i, (i < N)%N -> \sum_(k < 2) r' i k * tt_ t k = \sum_(k < 2) r i k * tt_ t k) ->
  pairs_moved N r r' t (fun i => r' i 1%N - r i 1%N).
Proof.
move=> h i hi; have := h i hi; rewrite (sum2 (fun k => r' i k * tt_ t k)) (sum2 (fun k => r i k * tt_ t k)) /= !mulr1 => /move_pair ->.
by split=> //; rewrite addrC subrK.
Qed.
Lemma moved_sum N r r' t k : pairs_moved N r r' t k ->
  forall i, (i < N)%N -> \sum_(k < 2) r' i k * tt_ t k = \sum_(k < 2) r i k * tt_ t k.
Proof. by move=> h i hi; rewrite (sum2 (fun k => r' i k * tt_ t k)) (sum2 (fun k => r i k * tt_ t k)) /= !mulr1 (h i hi).1 (h i hi).2 moved_pair. Qed.

Lemma moved_lin N (W : lmodType F) (w : nat -> W) r r' t k : pairs_moved N r r' t k -> \sum_(i < N) k i *: w i = 0 ->
  forall l, (l < 2)%N -> \sum_(i < N) r' i l *: w i = \sum_(i < N) r i l *: w i.
Proof.
move=> h h0 [|[|//]] _.
  rewrite (eq_bigr (fun i : 'I_N => r i 0%N *: w i - t *: (k i *: w i))); last first.
    by move=> i _; rewrite (h i _).1 // scalerBl scalerA.
  by rewrite sumrB -scaler_sumr h0 scaler0 subr0.
rewrite (eq_bigr (fun i : 'I_N => r i 1%N *: w i + k i *: w i)); last by move=> i _; rewrite (h i _).2 // scalerDl.
by rewrite big_split /= h0 addr0.
Qed.
Lemma lin_moved N (W : lmodType F) (w : nat -> W) r r' :
  \sum_(i < N) r' i 1%N *: w i = \sum_(i < N) r i 1%N *: w i -> \sum_(i < N) (r' i 1%N - r i 1%N) *: w i = 0.
Proof. by move=> h; rewrite (eq_bigr (fun i : 'I_N => r' i 1%N *: w i - r i 1%N *: w i)) => [|i _]; rewrite ?scalerBl // sumrB h subrr. Qed.

Lemma formD k k' v : form (fun i => k i + k' i) v = form k v + form k' v.
Proof.
rewrite /form -big_split; apply: eq_bigr => i _; rewrite -big_split; apply: eq_bigr => j _ /=.
by rewrite !mulrDl.
Qed.
Lemma formZ a k v : form (fun i => a * k i) v = a * form k v.
Proof.
rewrite /form mulr_sumr; apply: eq_bigr => i _; rewrite mulr_sumr; apply: eq_bigr => j _.
by rewrite !mulrA.
Qed.
Lemma eq_form k k' v v' : (forall i, (i < m)%N -> k i = k' i) -> (forall j, (j < n)%N -> v j = v' j) -> form k v = form k' v'.
Proof. by move=> h h'; apply: eq_bigr => i _; apply: eq_bigr => j _; rewrite h // h'. Qed.

Lemma solve_ppe r s T r' s' T' : sameness 2 2 r s T r' s' T' <->
  exists (k l : nat -> F) (c : F),
  let e := form k (fun j => s j 0%N + t2 * s j 1%N) in
  [/\ \sum_(i < m) k i *: wx i = 0, \sum_(j < n) l j *: wy j = 0, pairs_moved m r r' t1 k, pairs_moved n s s' t2 l &
      [/\ T' 0%N 0%N = T 0%N 0%N + t1 * (t2 * c - e), T' 0%N 1%N = T 0%N 1%N + e - t2 * c,
          T' 1%N 0%N = T 1%N 0%N - t1 * c & T' 1%N 1%N = T 1%N 1%N + c]].
Proof.
have fs (v : nat -> nat -> F) k : form k (fun j => \sum_(l < 2) v j l * tt_ t2 l) = form k (fun j => v j 0%N + t2 * v j 1%N).
  by apply: eq_form => // j _; rewrite (sum2 (fun l => v j l * tt_ t2 l)) /= mulr1 [t2 * _]mulrC.
have fs' k : (forall j, (j < n)%N -> \sum_(l < 2) s' j l * tt_ t2 l = \sum_(l < 2) s j l * tt_ t2 l) ->
  form k (fun j => \sum_(l < 2) s' j l * tt_ t2 l) = form k (fun j => s j 0%N + t2 * s j 1%N).
  by move=> h; rewrite -fs; apply: eq_form.
split=> [[h1 h2 h3 h4]|[k [l [c [hx hy hr hs [e00 e01 e10 e11]]]]]].
  exists (fun i => r' i 1%N - r i 1%N), (fun j => s' j 1%N - s j 1%N), (T' 1%N 1%N - T 1%N 1%N) => e.
  have [w1 q1] := h3 1%N isT; have [v1 p1] := h4 1%N isT; have [_ p0] := h4 0%N isT.
  split; [exact: lin_moved w1 | exact: lin_moved v1 | exact: pairs_sum h1 | exact: pairs_sum h2 |].
  move: q1 p1 p0; rewrite (fs' _ h2) fs (sum2 (fun l => T' l 1%N * tt_ t2 l)) (sum2 (fun l => T l 1%N * tt_ t2 l)) (sum2 (fun k => T' 1%N k * tt_ t1 k)) (sum2 (fun k => T 1%N k * tt_ t1 k)) (sum2 (fun k => T' 0%N k * tt_ t1 k)) (sum2 (fun k => T 0%N k * tt_ t1 k)) /= !mulr1.
  move=> /alg_ee q1 /move_pair p1 /move_pair p0.
  have ee : e = T' 0%N 1%N + T' 1%N 1%N * t2 - (T 0%N 1%N + T 1%N 1%N * t2).
    rewrite -q1; apply/(canRL (addrK _)); rewrite -formD; apply: eq_form => // i _; exact: subrK.
  have e01 := alg_e01 ee.
  split=> //; last by rewrite addrC subrK.
  by rewrite p0 e01 alg_00.
have h1 := moved_sum hr; have h2 := moved_sum hs.
set e := form k _ in e00 e01.
have f0 : form (r'^~ 0%N) (fun j => s j 0%N + t2 * s j 1%N) = form (r^~ 0%N) (fun j => s j 0%N + t2 * s j 1%N) - t1 * e.
  by rewrite -mulNr -formZ -formD; apply: eq_form => // i hi; rewrite (hr i hi).1 mulNr.
have f1 : form (r'^~ 1%N) (fun j => s j 0%N + t2 * s j 1%N) = form (r^~ 1%N) (fun j => s j 0%N + t2 * s j 1%N) + e.
  by rewrite -formD; apply: eq_form => // i hi; rewrite (hr i hi).2.
split=> // [i hi|l' hl'].
  split; first exact: (moved_lin hr hx).
  rewrite (fs' _ h2) fs (sum2 (fun l => T' l i * tt_ t2 l)) (sum2 (fun l => T l i * tt_ t2 l)) /= !mulr1.
  by case: i hi => [|[|//]] _; rewrite ?f0 ?f1 ?e00 ?e01 ?e10 ?e11 ?alg_p0 ?alg_p1.
split; first exact: (moved_lin hs hy).
rewrite (sum2 (fun k => T' l' k * tt_ t1 k)) (sum2 (fun k => T l' k * tt_ t1 k)) /= !mulr1.
by case: l' hl' => [|[|//]] _; rewrite ?e00 ?e01 ?e10 ?e11 ?alg_t0 ?alg_t1.
Qed.

Lemma solve_ms1 r s T r' s' T' : sameness 2 1 r s T r' s' T' <->
  exists k : nat -> F,
  let e := form k (fun j => s j 0%N) in
  [/\ \sum_(i < m) k i *: wx i = 0, pairs_moved m r r' t1 k, forall j, (j < n)%N -> s' j 0%N = s j 0%N,
      T' 0%N 0%N = T 0%N 0%N - t1 * e & T' 0%N 1%N = T 0%N 1%N + e].
Proof.
have fs (v : nat -> nat -> F) k : form k (fun j => \sum_(l < 1) v j l * tt_ t2 l) = form k (fun j => v j 0%N).
  by apply: eq_form => // j _; rewrite (sum1 (fun l => v j l * tt_ t2 l)) /= mulr1.
split=> [[h1 h2 h3 h4]|[k [hx hr hs e00 e01]]].
  have hs j : (j < n)%N -> s' j 0%N = s j 0%N by move=> hj; have := h2 j hj; rewrite (sum1 (fun l => s' j l * tt_ t2 l)) (sum1 (fun l => s j l * tt_ t2 l)) /= !mulr1.
  exists (fun i => r' i 1%N - r i 1%N) => e.
  have [w1 q1] := h3 1%N isT; have [_ p0] := h4 0%N isT.
  move: q1 p0; rewrite !fs (sum1 (fun l => T' l 1%N * tt_ t2 l)) (sum1 (fun l => T l 1%N * tt_ t2 l)) (sum2 (fun k => T' 0%N k * tt_ t1 k)) (sum2 (fun k => T 0%N k * tt_ t1 k)) /= !mulr1.
  move=> /alg_ee q1 /move_pair p0.
  have ee : e = T' 0%N 1%N - T 0%N 1%N.
    rewrite -q1; apply/(canRL (addrK _)); rewrite -formD; apply: eq_form => // [i _|j hj]; [exact: subrK | by rewrite hs].
  split=> //; [exact: lin_moved w1 | exact: pairs_sum h1 | by rewrite p0 ee | exact: alg_m3].
have h1 := moved_sum hr.
set e := form k _ in e00 e01.
have f0 : form (r'^~ 0%N) (fun j => s' j 0%N) = form (r^~ 0%N) (fun j => s j 0%N) - t1 * e.
  by rewrite -mulNr -formZ -formD; apply: eq_form => // i hi; rewrite (hr i hi).1 mulNr.
have f1 : form (r'^~ 1%N) (fun j => s' j 0%N) = form (r^~ 1%N) (fun j => s j 0%N) + e.
  by rewrite -formD; apply: eq_form => // i hi; rewrite (hr i hi).2.
split=> // [j hj|i hi|[|//] _].
- by rewrite (sum1 (fun l => s' j l * tt_ t2 l)) (sum1 (fun l => s j l * tt_ t2 l)) hs.
- split; first exact: (moved_lin hr hx).
  rewrite !fs (sum1 (fun l => T' l i * tt_ t2 l)) (sum1 (fun l => T l i * tt_ t2 l)) /= !mulr1.
  by case: i hi => [|[|//]] _; rewrite ?f0 ?f1 ?e00 ?e01 ?alg_m0 ?alg_m1.
split; first by apply: eq_bigr => j _; rewrite hs.
by rewrite (sum2 (fun k => T' 0%N k * tt_ t1 k)) (sum2 (fun k => T 0%N k * tt_ t1 k)) /= !mulr1 e00 e01 alg_m2.
Qed.

Lemma solve_ms2 r s T r' s' T' : sameness 1 2 r s T r' s' T' <->
  exists l : nat -> F,
  [/\ \sum_(j < n) l j *: wy j = 0, forall i, (i < m)%N -> r' i 0%N = r i 0%N, pairs_moved n s s' t2 l,
      T' 0%N 0%N = T 0%N 0%N & T' 1%N 0%N = T 1%N 0%N].
Proof.
split=> [[h1 h2 h3 h4]|[l [hy hr hs e0 e1]]].
  exists (fun j => s' j 1%N - s j 1%N).
  have [v1 p1] := h4 1%N isT; have [_ p0] := h4 0%N isT.
  move: p1 p0; rewrite (sum1 (fun k => T' 1%N k * tt_ t1 k)) (sum1 (fun k => T 1%N k * tt_ t1 k)) (sum1 (fun k => T' 0%N k * tt_ t1 k)) (sum1 (fun k => T 0%N k * tt_ t1 k)) /= !mulr1 => p1 p0.
  split=> //; [exact: lin_moved v1 | | exact: pairs_sum h2].
  by move=> i hi; have := h1 i hi; rewrite (sum1 (fun k => r' i k * tt_ t1 k)) (sum1 (fun k => r i k * tt_ t1 k)) /= !mulr1.
have h2 := moved_sum hs.
split=> // [i hi|[|//] _|l' hl'].
- by rewrite (sum1 (fun k => r' i k * tt_ t1 k)) (sum1 (fun k => r i k * tt_ t1 k)) hr.
- split; first by apply: eq_bigr => i _; rewrite hr.
  congr (_ - _); first exact: eq_form.
  by rewrite (sum2 (fun l => T' l 0%N * tt_ t2 l)) (sum2 (fun l => T l 0%N * tt_ t2 l)) e0 e1.
split; first exact: (moved_lin hs hy).
rewrite (sum1 (fun k => T' l' k * tt_ t1 k)) (sum1 (fun k => T l' k * tt_ t1 k)).
by case: l' hl' => [|[|//]] _; rewrite ?e0 ?e1.
Qed.
End Solve.
End RunProps.
