(** Converse reductions: proofs. *)
From mathcomp Require Import all_ssreflect all_algebra.
From Verif Require Import Base BaseLemmas Group DataStructures MatLemmas CoreAlg ComLemmas.
From Verif Require Import Generator Commit Statement Prove Verify Spec SpecMat SpecVerify SpecPanic SpecFormula SpecApi SpecHide SpecSxdh SpecNec ProveLemmas CommitLemmas.
From Verif Require Import VerifyLemmas Holds Complete Sound Main FormulaProps HideProps Sxdh ErrorLemmas Type3Lemmas.
Set Implicit Arguments.
Unset Strict Implicit.
Unset Printing Implicit Defensive.
Import Order.Theory GRing.Theory Num.Theory.
Local Open Scope ring_scope.

Section Nz.
Context {F : finFieldType}.
Implicit Types k l : nz F.
Lemma nz_mul k l : val k * val l != 0. Proof. by rewrite mulf_neq0 ?(valP k) ?(valP l). Qed.
Definition nzmul k l : nz F := exist _ (val k * val l) (nz_mul k l).
Lemma nz_inv k : (val k)^-1 != 0. Proof. by rewrite invr_eq0 (valP k). Qed.
Definition nzinv k : nz F := exist _ ((val k)^-1) (nz_inv k).
Lemma nz_opp k : - val k != 0. Proof. by rewrite oppr_eq0 (valP k). Qed.
Definition nzopp k : nz F := exist _ (- val k) (nz_opp k).
Definition nz1 : nz F := exist _ 1 (oner_neq0 F).
Lemma nzmulK k l : nzmul (nzmul k l) (nzinv l) = k.
Proof. by apply: val_inj; rewrite /= mulfK ?(valP l). Qed.
Lemma nzmulVK k l : nzmul (nzmul k (nzinv l)) l = k.
Proof. by apply: val_inj; rewrite /= mulfVK ?(valP l). Qed.
Lemma nzoppK : involutive nzopp.
Proof. by move=> k; apply: val_inj; rewrite /= opprK. Qed.
Lemma card_nz : #|nz F| = #|F|.-1.
Proof. by rewrite card_sig (cardC1 (0 : F)). Qed.
Lemma nzF_gt1 : (1 < #|F|)%N.
Proof. by apply/card_gt1P; exists 0, 1; rewrite !inE eq_sym oner_neq0. Qed.

(** All scalars: zero, or not zero. *)
Lemma Pr_zero_nz (X : finType) (H : X -> F -> bool) :
  Pr (fun x : X * F => H x.1 x.2) = (Pr (fun x => H x 0) + (#|F|.-1)%:R * Pr (fun x : X * nz F => H x.1 (val x.2))) / (#|F|)%:R.
Proof.
have nF := nzF_gt1; have [f1 f2] : (#|F|%:R : rat) != 0 /\ ((#|F|.-1)%:R : rat) != 0.
  by rewrite !pnatr_eq0 -!lt0n; case: #|F| nF => [|[|]].
have [z|nX] := eqVneq #|X| 0%N.
  by rewrite /Pr !card_prod z !mul0n !mulr0n invr0 !mulr0 addr0 mul0r.
have nX' : (#|X|%:R : rat) != 0 by rewrite pnatr_eq0.
have e : #|[set x : X * F | H x.1 x.2]| = (#|[set x | H x 0%R]| + #|[set x : X * nz F | H x.1 (val x.2)]|)%N.
  rewrite !card_pred -(pair_bigA _ (fun x z => H x z : nat)) -(pair_bigA _ (fun x (z : nz F) => H x (val z) : nat)) -big_split /=.
  apply: eq_bigr => x _; rewrite (bigD1 (0 : F)) //=; congr (_ + _)%N.
  rewrite (reindex_omap (val : nz F -> F) insub) /= => [|i hi]; last by rewrite insubT.
  by apply: eq_bigl => k; rewrite (valP k) valK eqxx.
rewrite /Pr e !card_prod card_nz natrD !natrM.
by rewrite [(#|F|.-1)%:R * _]mulrA [(#|F|.-1)%:R * _]mulrC -[_ * _ / (_ * (#|F|.-1)%:R)]mulf_div divff // mulr1 -mulrDl -mulrA -invfM.
Qed.
End Nz.

Definition upd {F : finFieldType} {N} (j : 'I_N) (t : N.-tuple F) (d : F) : N.-tuple F := [tuple if i == j then d else tnth t i | i < N].
Lemma upd_at {F : finFieldType} {N} (j : 'I_N) (t : N.-tuple F) d : tnth (upd j t d) j = d.
Proof. by rewrite tnth_mktuple eqxx. Qed.
Lemma upd_ne {F : finFieldType} {N} (j i : 'I_N) (t : N.-tuple F) d : i != j -> tnth (upd j t d) i = tnth t i.
Proof. by rewrite tnth_mktuple => /negbTE ->. Qed.
Lemma upd_upd {F : finFieldType} {N} (j : 'I_N) (t : N.-tuple F) d d' : upd j (upd j t d) d' = upd j t d'.
Proof. by apply: eq_from_tnth => i; rewrite !tnth_mktuple; case: eqP. Qed.
Lemma upd_id {F : finFieldType} {N} (j : 'I_N) (t : N.-tuple F) : upd j t (tnth t j) = t.
Proof. by apply: eq_from_tnth => i; rewrite !tnth_mktuple; case: eqP => [->|]. Qed.
Lemma nth_upd {F : finFieldType} {N} (j : 'I_N) (t : N.-tuple F) d k : k != j :> nat -> nth 0 (upd j t d) k = nth 0 t k.
Proof.
move=> h; have [hk|hk] := ltnP k N; last by rewrite !nth_default ?size_tuple.
by rewrite -[k]/(nat_of_ord (Ordinal hk)) -!tnth_nth upd_ne.
Qed.

(** The view of a distinguisher for DDH, with the exponent of its last argument shifted. *)
Definition shifted {F : finFieldType} {G : lmodType F} {O W : finType} (s : O -> G) (D : W -> G -> G -> G -> G -> bool) (x : W * (O * F)) (z k : F) : bool :=
  D x.1 (s x.2.1) (x.2.2 *: s x.2.1) (z *: s x.2.1) ((x.2.2 * z + k) *: s x.2.1).

Section DdhShift.
Context {F : finFieldType} {G : lmodType F} {O W : finType} (s : O -> G) (D : W -> G -> G -> G -> G -> bool).
Lemma ddh_real_shifted : ddh_real s D = Pr (fun x : (W * (O * F)) * F => shifted s D x.1 x.2 0).
Proof.
apply: (@Pr_bij _ _ (fun x : W * (O * F * F) => ((x.1, (x.2.1.1, x.2.1.2)), x.2.2))).
  by exists (fun y : (W * (O * F)) * F => (y.1.1, (y.1.2.1, y.1.2.2, y.2))) => [[w [[o a] t]]|[[w [o a]] t]].
by move=> [w [[o a] t]]; rewrite /shifted /= addr0.
Qed.
Lemma ddh_random_shifted : ddh_random s D = Pr (fun x : (W * (O * F)) * F * F => shifted s D x.1.1 x.1.2 x.2).
Proof.
apply: (@Pr_bij _ _ (fun x : W * (O * F * F * F) => (((x.1, (x.2.1.1.1, x.2.1.1.2)), x.2.1.2), x.2.2 - x.2.1.1.2 * x.2.1.2))).
  exists (fun y : (W * (O * F)) * F * F => (y.1.1.1, (y.1.1.2.1, y.1.1.2.2, y.1.2, y.2 + y.1.1.2.2 * y.1.2))) => [[w [[[o a] t] r]]|[[[w [o a]] t] r]] /=.
    by rewrite subrK.
  by rewrite addrK.
by move=> [w [[[o a] t] r]]; rewrite /shifted /= addrC subrK.
Qed.
Lemma adv_shifted :
  `|Pr (fun x : (W * (O * F)) * F => shifted s D x.1 x.2 0) - Pr (fun x : (W * (O * F)) * F * nz F => shifted s D x.1.1 x.1.2 (val x.2))|
  = ddh_adv s D * ((#|F|)%:R / (#|F|.-1)%:R).
Proof.
have nF := @nzF_gt1 F; have [f1 f2] : (#|F|%:R : rat) != 0 /\ ((#|F|.-1)%:R : rat) != 0.
  by rewrite !pnatr_eq0 -!lt0n; case: #|F| nF => [|[|]].
rewrite /ddh_adv ddh_real_shifted ddh_random_shifted (Pr_zero_nz (fun x : (W * (O * F)) * F => shifted s D x.1 x.2)).
set p := Pr (fun x => _); set q := Pr (fun x => _).
have -> : p - (p + (#|F|.-1)%:R * q) / #|F|%:R = (p - q) * ((#|F|.-1)%:R / #|F|%:R).
  apply: (mulIf f1); rewrite mulrBl divfK // -[(p - q) * _ * _]mulrA divfK // mulrBl [q * _]mulrC opprD addrA; congr (_ - _).
  by rewrite -{2}[p]mulr1 -mulrBr; congr (_ * _); rewrite -subn1 natrB // ltnW.
have pos : 0 <= ((#|F|.-1)%:R / (#|F|)%:R : rat) by rewrite divr_ge0 ?ler0n.
by rewrite normrM (ger0_norm pos) -mulrA mulf_div [X in _ / X]mulrC divff ?mulf_neq0 // mulr1.
Qed.
End DdhShift.

Section Marginal.
Context {F : finFieldType} {W O Om Om' : finType} (c : Om -> (O * F) * Om') (c' : (O * F) * Om' -> Om).
Hypotheses (cK : cancel c c') (c'K : cancel c' c) (n' : (0 < #|Om'|)%N).
Context {N : nat} (j : 'I_N) (rho : W -> Om -> N.-tuple F -> F) (delta : W -> Om -> nz F).
Hypothesis hrho : forall w om t d, rho w om (upd j t d) = rho w om t.
Variable H : W * (O * F) -> F -> nz F -> bool.

Lemma Pr_shift :
  Pr (fun x : ((W * nz F) * N.-tuple F) * Om => H (x.1.1.1, (c x.2).1) (val x.1.1.2 * (tnth x.1.2 j + rho x.1.1.1 x.2 x.1.2)) (nzmul x.1.1.2 (delta x.1.1.1 x.2)))
  = Pr (fun x : (W * (O * F)) * F * nz F => H x.1.1 x.1.2 x.2).
Proof.
pose b (x : ((W * nz F) * N.-tuple F) * Om) := let: (((w, k), t), om) := x in
  (((w, nzmul k (delta w om)), upd j t (val k * (tnth t j + rho w om t))), om).
pose b' (x : ((W * nz F) * N.-tuple F) * Om) := let: (((w, k), t), om) := x in let k' := nzmul k (nzinv (delta w om)) in
  (((w, k'), upd j t ((val k')^-1 * tnth t j - rho w om t)), om).
have bij : bijective b.
  exists b' => [[[[w k] t] om]|[[[w k] t] om]]; rewrite /b /b'.
    rewrite nzmulK upd_at upd_upd hrho mulKf ?(valP k) // addrK; congr (((_, _), _), _); exact: upd_id.
  rewrite nzmulVK upd_at upd_upd hrho subrK mulVKf ?(valP (nzmul _ _)) //; congr (((_, _), _), _); exact: upd_id.
rewrite (@Pr_bij _ _ b _ (fun x => H (x.1.1.1, (c x.2).1) (tnth x.1.2 j) x.1.1.2)) //; last first.
  by move=> [[[w k] t] om]; rewrite /b /= upd_at.
rewrite -(@Pr_fst_eq _ F (fun x : ((W * nz F) * N.-tuple F) * Om => H (x.1.1.1, (c x.2).1) (tnth x.1.2 j) x.1.1.2)); last by apply/card_gt0P; exists 0.
pose Z := [finType of N.-tuple F * Om'].
have nZ : (0 < #|Z|)%N by rewrite card_prod muln_gt0 n' andbT; apply/card_gt0P; exists [tuple of nseq N 0].
rewrite -(@Pr_snd_eq Z _ (fun x : (W * (O * F)) * F * nz F => H x.1.1 x.1.2 x.2)) //.
pose g (x : ((W * nz F) * N.-tuple F) * Om * F) : Z * ((W * (O * F)) * F * nz F) := let: ((((w, k), t), om), d) := x in
  ((upd j t d, (c om).2), (((w, (c om).1), tnth t j), k)).
apply: (@Pr_bij _ _ g).
  exists (fun y : Z * ((W * (O * F)) * F * nz F) => ((((y.2.1.1.1, y.2.2), upd j y.1.1 y.2.1.2), c' (y.2.1.1.2, y.1.2)), tnth y.1.1 j)).
    by move=> [[[[w k] t] om] d] /=; rewrite upd_upd upd_id upd_at -surjective_pairing cK.
  by move=> [[t om] [[[w p] z] k]] /=; rewrite upd_upd upd_id upd_at c'K.
by move=> [[[[w k] t] om] d].
Qed.
End Marginal.

Definition dl {F : finFieldType} {G : lmodType F} (P Q : G) : nz F := if [pick k : nz F | Q == val k *: P] is Some k then k else nz1.
Lemma dlE (F : finFieldType) (G : lmodType F) (P Q : G) : cyclic G -> P != 0 -> Q != 0 -> val (dl P Q) *: P = Q.
Proof.
move=> hc hp hq; rewrite /dl; case: pickP => [k /eqP-> //|h]; have [k ek] := hc P Q hp.
have nk : k != 0 by apply: contraNneq hq => k0; rewrite ek k0 scale0r.
by have := h (exist _ k nk); rewrite /= ek eqxx.
Qed.
Definition nzof {F : finFieldType} (x : F) : nz F := insubd nz1 x.
Lemma nzofE (F : finFieldType) (x : F) : x != 0 -> val (nzof x) = x.
Proof. by move=> h; rewrite /nzof insubdK. Qed.

Section Coms.
Context {E : pairing} {R : rng E}.
Lemma com_G1 (X : seq (G1 E)) crs (s s' : rst R) c : batch_commit_G1 X crs s = Ok (c, s') -> s' = after (2 * size X) s /\
  forall i, (i < size X)%N -> nth 0 (coms c) i - i1 (nth 0 X i) = drawn s (2 * i) *: u1 crs + drawn s (2 * i).+1 *: u2 crs.
Proof.
rewrite batch_commit_G1_total /checked; case: first_failed => // -[<- <-]; split=> // i hi.
rewrite /= nth_mkseq ?size_map // (nth_map 0) // !big_ord_recl big_ord0 addr0 addrC addKr /= addn0 addn1 //.
Qed.
Lemma com_G2 (X : seq (G2 E)) crs (s s' : rst R) c : batch_commit_G2 X crs s = Ok (c, s') -> s' = after (2 * size X) s /\
  forall i, (i < size X)%N -> nth 0 (coms c) i - i2 (nth 0 X i) = drawn s (2 * i) *: v1 crs + drawn s (2 * i).+1 *: v2 crs.
Proof.
rewrite batch_commit_G2_total /checked; case: first_failed => // -[<- <-]; split=> // i hi.
rewrite /= nth_mkseq ?size_map // (nth_map 0) // !big_ord_recl big_ord0 addr0 addrC addKr /= addn0 addn1 //.
Qed.
Lemma com_B1 (X : seq (Fr E)) crs (s s' : rst R) c : batch_commit_scalar_to_B1 X crs s = Ok (c, s') -> s' = after (size X) s /\
  forall i, (i < size X)%N -> nth 0 (coms c) i - k1 crs (nth 0 X i) = drawn s i *: u1 crs.
Proof.
rewrite batch_commit_scalar_to_B1_total /checked; case: first_failed => // -[<- <-]; split=> // i hi.
by rewrite /= nth_mkseq ?size_map // (nth_map 0) // !big_ord_recl big_ord0 addr0 addrC addKr.
Qed.
Lemma com_B2 (X : seq (Fr E)) crs (s s' : rst R) c : batch_commit_scalar_to_B2 X crs s = Ok (c, s') -> s' = after (size X) s /\
  forall i, (i < size X)%N -> nth 0 (coms c) i - k2 crs (nth 0 X i) = drawn s i *: v1 crs.
Proof.
rewrite batch_commit_scalar_to_B2_total /checked; case: first_failed => // -[<- <-]; split=> // i hi.
by rewrite /= nth_mkseq ?size_map // (nth_map 0) // !big_ord_recl big_ord0 addr0 addrC addKr.
Qed.
End Coms.

Section Fin.
Context {F : finFieldType} {G : lmodType F} {W : Type} (D : W -> G -> G -> G -> G -> bool).
Lemma fin_pts w (P Q : G) a t k r1 r2 d : (P != 0 -> Q = d *: P) ->
  (if P == 0 then D w 0 0 0 0 else D w P (a *: P) (k *: (0 + (r1 *: P + r2 *: (t *: P)))) (k *: (Q + (r1 *: (a *: P) + r2 *: (t *: (a *: P))))))
  = D w P (a *: P) ((k * (r1 + r2 * t)) *: P) ((a * (k * (r1 + r2 * t)) + k * d) *: P).
Proof.
move=> hQ; case: eqP => [->|/eqP nP]; first by rewrite !scaler0.
rewrite (hQ nP) add0r !scalerA -!scalerDl !scalerA; congr (D w _ _ _ (_ *: _)).
by rewrite mulrDr addrC; congr (_ + _); rewrite -mulrDl mulrA mulrC.
Qed.
Lemma fin_pts0 w (P : G) a t k r1 r2 :
  (if P == 0 then D w 0 0 0 0 else D w P (a *: P) (k *: (0 + (r1 *: P + r2 *: (t *: P)))) (k *: (0 + (r1 *: (a *: P) + r2 *: (t *: (a *: P))))))
  = D w P (a *: P) ((k * (r1 + r2 * t)) *: P) ((a * (k * (r1 + r2 * t)) + 0) *: P).
Proof. by rewrite (@fin_pts w P 0 a t k r1 r2 0) ?mulr0 // scale0r. Qed.
Lemma fin_sc w (P : G) a t k r d d' : d = d' ->
  (if P == 0 then D w 0 0 0 0 else D w P (a *: P) (k *: (d *: (t *: P + 0) + r *: P)) (k *: (d *: (t *: (a *: P) + P) + r *: (a *: P))))
  = D w P (a *: P) ((k * (r + d * t)) *: P) ((a * (k * (r + d * t)) + k * d') *: P).
Proof.
move=> <-; case: eqP => [->|_]; first by rewrite !scaler0.
rewrite addr0 [d *: (_ + P)]scalerDr !scalerA -!scalerDl !scalerA; congr (D w _ _ (_ *: _) (_ *: _)); first by rewrite addrC.
by rewrite addrAC mulrDr; congr (_ + _); rewrite -mulrDl mulrA mulrC [d * t + r]addrC.
Qed.
Lemma fin_sc0 w (P : G) a t k r :
  (if P == 0 then D w 0 0 0 0 else D w P (a *: P) (k *: (0 *: (t *: P + 0) + r *: P)) (k *: (0 *: (t *: (a *: P) + P) + r *: (a *: P))))
  = D w P (a *: P) ((k * (r + 0)) *: P) ((a * (k * (r + 0)) + 0) *: P).
Proof. by rewrite (@fin_sc w P a t k r 0 0) // mul0r mulr0. Qed.
End Fin.

Lemma iB1 (E : pairing) (a b : G1 E) : i1 (a - b) = i1 a - i1 b.
Proof. by congr (_, _); rewrite /= ?subr0. Qed.
Lemma iB2 (E : pairing) (a b : G2 E) : i2 (a - b) = i2 a - i2 b.
Proof. by congr (_, _); rewrite /= ?subr0. Qed.
Lemma kB1 (E : pairing) crs (a b : Fr E) : k1 crs (a - b) = k1 crs a - k1 crs b.
Proof. exact: scalerBl. Qed.
Lemma kB2 (E : pairing) crs (a b : Fr E) : k2 crs (a - b) = k2 crs a - k2 crs b.
Proof. exact: scalerBl. Qed.

Lemma nz_gt0 (F : finFieldType) : (0 < #|nz F|)%N.
Proof. by apply/card_gt0P; exists (@nz1 F). Qed.

Lemma nec_C78_keys_1 : forall (F : finFieldType) (A B C : lmodType F) (e : A -> B -> C), let E := Pairing e in
  forall (O1 O2 W : finType) (s1 : O1 -> A) (s2 : O2 -> B) (D : W -> A -> A -> A -> A -> bool), (0 < #|O2|)%N ->
  key_adv s1 s2 (ask_key1 (e := e) D) = ddh_adv s1 D * ((#|F|)%:R / (#|F|.-1)%:R).
Proof.
move=> F A B C e E O1 O2 W s1 s2 D no; rewrite -adv_shifted /key_adv; congr `|_ - _|.
  pose Z := [finType of nz F * (O2 * F * F)].
  have nZ : (0 < #|Z|)%N by rewrite !card_prod !muln_gt0 nz_gt0 no !(ltnW (@nzF_gt1 F)).
  rewrite -(@Pr_snd_eq Z _ (fun x : (W * (O1 * F)) * F => shifted s1 D x.1 x.2 0)) //.
  pose b (x : (W * nz F) * (O1 * O2 * (F * F * F * F))) : Z * ((W * (O1 * F)) * F) := let: ((w, k), ((o1, o2), (((a1, a2), t1), t2))) := x in
    ((k, (o2, a2, t2)), ((w, (o1, a1)), val k * t1)).
  apply: (@Pr_bij _ _ b).
    exists (fun y : Z * ((W * (O1 * F)) * F) => let: ((k, (o2, a2, t2)), ((w, (o1, a1)), z)) := y in let t1 := (val k)^-1 * z in
      ((w, k), ((o1, o2), (((a1, a2), t1), t2)))) => [[[w k] [[o1 o2] [[[a1 a2] t1] t2]]]|[[k [[o2 a2] t2]] [[w [o1 a1]] z]]] /=.
      by rewrite mulKf ?(valP k).
    by rewrite mulVKf ?(valP k).
  by move=> [[w k] [[o1 o2] [[[a1 a2] t1] t2]]]; rewrite real_crsE /ask_key1 /shifted /= addr0 !scalerA [a1 * _]mulrC -!mulrA.
pose Z := [finType of O2 * F * F].
have nZ : (0 < #|Z|)%N by rewrite !card_prod !muln_gt0 no !(ltnW (@nzF_gt1 F)).
rewrite -(@Pr_snd_eq Z _ (fun x : (W * (O1 * F)) * F * nz F => shifted s1 D x.1.1 x.1.2 (val x.2))) //.
pose b (x : (W * nz F) * (O1 * O2 * (F * F * F * F))) : Z * ((W * (O1 * F)) * F * nz F) := let: ((w, k), ((o1, o2), (((a1, a2), t1), t2))) := x in
  ((o2, a2, t2), (((w, (o1, a1)), val k * t1), nzopp k)).
apply: (@Pr_bij _ _ b).
  exists (fun y : Z * ((W * (O1 * F)) * F * nz F) => let: ((o2, a2, t2), (((w, (o1, a1)), z), k')) := y in let k := nzopp k' in let t1 := (val k)^-1 * z in
    ((w, k), ((o1, o2), (((a1, a2), t1), t2)))) => [[[w k] [[o1 o2] [[[a1 a2] t1] t2]]]|[[[o2 a2] t2] [[[w [o1 a1]] z] k]]].
    by rewrite /b nzoppK mulKf ?(valP k).
  by rewrite /b nzoppK mulVKf ?(valP (nzopp k)).
by move=> [[w k] [[o1 o2] [[[a1 a2] t1] t2]]]; rewrite sim_crsE /ask_key1 /shifted /= scalerBr scalerDl scaleNr !scalerA [a1 * _]mulrC -!mulrA.
Qed.

Lemma nec_C78_keys_2 : forall (F : finFieldType) (A B C : lmodType F) (e : A -> B -> C), let E := Pairing e in
  forall (O1 O2 W : finType) (s1 : O1 -> A) (s2 : O2 -> B) (D : W -> B -> B -> B -> B -> bool), (0 < #|O1|)%N ->
  key_adv s1 s2 (ask_key2 (e := e) D) = ddh_adv s2 D * ((#|F|)%:R / (#|F|.-1)%:R).
Proof.
move=> F A B C e E O1 O2 W s1 s2 D no; rewrite -adv_shifted /key_adv; congr `|_ - _|.
  pose Z := [finType of nz F * (O1 * F * F)].
  have nZ : (0 < #|Z|)%N by rewrite !card_prod !muln_gt0 nz_gt0 no !(ltnW (@nzF_gt1 F)).
  rewrite -(@Pr_snd_eq Z _ (fun x : (W * (O2 * F)) * F => shifted s2 D x.1 x.2 0)) //.
  pose b (x : (W * nz F) * (O1 * O2 * (F * F * F * F))) : Z * ((W * (O2 * F)) * F) := let: ((w, k), ((o1, o2), (((a1, a2), t1), t2))) := x in
    ((k, (o1, a1, t1)), ((w, (o2, a2)), val k * t2)).
  apply: (@Pr_bij _ _ b).
    exists (fun y : Z * ((W * (O2 * F)) * F) => let: ((k, (o1, a1, t1)), ((w, (o2, a2)), z)) := y in let t2 := (val k)^-1 * z in
      ((w, k), ((o1, o2), (((a1, a2), t1), t2)))) => [[[w k] [[o1 o2] [[[a1 a2] t1] t2]]]|[[k [[o1 a1] t1]] [[w [o2 a2]] z]]] /=.
      by rewrite mulKf ?(valP k).
    by rewrite mulVKf ?(valP k).
  by move=> [[w k] [[o1 o2] [[[a1 a2] t1] t2]]]; rewrite real_crsE /ask_key2 /shifted /= addr0 !scalerA [a2 * _]mulrC -!mulrA.
pose Z := [finType of O1 * F * F].
have nZ : (0 < #|Z|)%N by rewrite !card_prod !muln_gt0 no !(ltnW (@nzF_gt1 F)).
rewrite -(@Pr_snd_eq Z _ (fun x : (W * (O2 * F)) * F * nz F => shifted s2 D x.1.1 x.1.2 (val x.2))) //.
pose b (x : (W * nz F) * (O1 * O2 * (F * F * F * F))) : Z * ((W * (O2 * F)) * F * nz F) := let: ((w, k), ((o1, o2), (((a1, a2), t1), t2))) := x in
  ((o1, a1, t1), (((w, (o2, a2)), val k * t2), nzopp k)).
apply: (@Pr_bij _ _ b).
  exists (fun y : Z * ((W * (O2 * F)) * F * nz F) => let: ((o1, a1, t1), (((w, (o2, a2)), z), k')) := y in let k := nzopp k' in let t2 := (val k)^-1 * z in
    ((w, k), ((o1, o2), (((a1, a2), t1), t2)))) => [[[w k] [[o1 o2] [[[a1 a2] t1] t2]]]|[[[o1 a1] t1] [[[w [o2 a2]] z] k]]].
    by rewrite /b nzoppK mulKf ?(valP k).
  by rewrite /b nzoppK mulVKf ?(valP (nzopp k)).
by move=> [[w k] [[o1 o2] [[[a1 a2] t1] t2]]]; rewrite sim_crsE /ask_key2 /shifted /= scalerBr scalerDl scaleNr !scalerA [a2 * _]mulrC -!mulrA.
Qed.

Lemma nec_C78_ppe_X : forall (F : finFieldType) (A B C : lmodType F) (e : A -> B -> C), let E := Pairing e in
  forall (O1 O2 W : finType) (s1 : O1 -> A) (s2 : O2 -> B) (D : W -> A -> A -> A -> A -> bool) (sch sch' : sched) (m n i : nat)
  (q : W -> CRS E -> PPE E) (X X' : W -> CRS E -> seq A) (Y Y' : W -> CRS E -> seq B),
  cyclic (G1 E) -> valid_sched sch -> valid_sched sch' -> (0 < #|O2|)%N -> (0 < n)%N ->
  (forall w crs, [/\ size (X w crs) = m, size (Y w crs) = n, size (X' w crs) = m & size (Y' w crs) = n]) ->
  (forall w crs, ppe_wf (q w crs) m n) -> (i < m)%N -> (forall w crs, nth 0 (X w crs) i <> nth 0 (X' w crs) i) ->
  let T (x : W * nz F) crs r := if r is Ok v then ask_com1 (e := e) D x crs (nth 0 v.1.1 i - i1 (E := E) (nth 0 (X x.1 crs) i)) else false in
  let B1 := proof_test (N := (2 * m + (2 * n + 4))%N) T public (fun x crs R s => ppe_commit_and_prove (R := R) sch (q x.1 crs) (X x.1 crs) (Y x.1 crs) crs s) in
  let B2 := proof_test (N := (2 * m + (2 * n + 4))%N) T public (fun x crs R s => ppe_commit_and_prove (R := R) sch' (q x.1 crs) (X' x.1 crs) (Y' x.1 crs) crs s) in
  `|game s1 s2 real_crs B1 - game s1 s2 real_crs B2| = ddh_adv s1 D * ((#|F|)%:R / (#|F|.-1)%:R).
Proof.
move=> F A B C e E O1 O2 W s1 s2 D sch sch' m n i q X X' Y Y' hc vs vs' no hn hs wf hi ne T B1 B2.
have hm : (0 < m)%N by apply: leq_trans hi.
pose Om := [finType of O1 * O2 * (F * F * F * F)]; pose N := (2 * m + (2 * n + 4))%N.
pose R (om : Om) : CRS E := @real_crs F A B C e (s1 om.1.1) (s2 om.1.2) om.2.1.1.1 om.2.1.1.2 om.2.1.2 om.2.2.
(* the tested difference *)
have key sch0 (om : Om) (x : W * nz F) (t : N.-tuple F) X0 Y0 : valid_sched sch0 -> size X0 = m -> size Y0 = n ->
  T x (R om) (seen public (ppe_commit_and_prove (R := tape_rng) sch0 (q x.1 (R om)) X0 Y0 (R om) (tval t : seq F)))
  = ask_com1 (e := e) D x (R om) (i1 (E := E) (nth 0 X0 i - nth 0 (X x.1 (R om)) i) + (nth 0 t (2 * i)%N *: u1 (R om) + nth 0 t ((2 * i)%N).+1 *: u2 (R om))).
  move=> vs0 ex ey; have [p [z hp]] : exists p z, ppe_commit_and_prove (R := tape_rng) sch0 (q x.1 (R om)) X0 Y0 (R om) (tval t : seq F) = Ok (p, z).
    by apply: (proj2 (CapLemmas.ppe_cap_total vs0 _ _ _ _ _)); rewrite ex ey /R real_crsE; split.
  rewrite hp; have [z1 [z2 [pf [hx hy _ _]]]] := (proj1 (CapLemmas.ppe_cap_steps _ _ _ _ _ _ _ _)) hp; rewrite /T /seen /public /=; congr ask_com1.
  have [e1 hcx] := com_G1 hx; have [e2 hcy] := com_G2 hy.
  have := hcx i; rewrite ex !tape_drawn => /(_ hi) <-.
  by rewrite iB1 [RHS]addrC addrA subrK.
have nz0 w om : nth 0 (X' w (R om)) i - nth 0 (X w (R om)) i != 0 by rewrite subr_eq0 eq_sym; apply/eqP; apply: ne.
pose c (om : Om) : (O1 * F) * (O2 * F * F * F) := ((om.1.1, om.2.1.1.1), (om.1.2, om.2.1.1.2, om.2.1.2, om.2.2)).
pose c' (y : (O1 * F) * (O2 * F * F * F)) : Om := let: ((o1, a1), (o2, a2, t1, t2)) := y in ((o1, o2), (a1, a2, t1, t2)).
have cK : cancel c c' by move=> [[o1 o2] [[[a1 a2] t1] t2]].
have c'K : cancel c' c by move=> [[o1 a1] [[[o2 a2] t1] t2]].
have nO : (0 < #|[finType of O2 * F * F * F]|)%N by rewrite !card_prod !muln_gt0 no !(ltnW (@nzF_gt1 F)).
have hj : ((2 * i)%N < N)%N by rewrite /N ltn_addr ?ltn_pmul2l.
pose j := Ordinal hj; pose rho := fun (w : W) (om : Om) (t : N.-tuple F) => nth 0 t ((2 * i)%N).+1 * om.2.1.2; pose rho' := fun (w : W) (om : Om) (t : N.-tuple F) => nth 0 t ((2 * i)%N).+1 * om.2.1.2.
have hr w om t d : rho w om (upd j t d) = rho w om t by rewrite /rho nth_upd //= neq_ltn ltnSn orbT.
have hr' w om t d : rho' w om (upd j t d) = rho' w om t by rewrite /rho' nth_upd //= neq_ltn ltnSn orbT.
pose delta := fun (w : W) (om : Om) => dl (s1 om.1.1) (nth 0 (X' w (@real_crs F A B C e (s1 om.1.1) (s2 om.1.2) om.2.1.1.1 om.2.1.1.2 om.2.1.2 om.2.2)) i - nth 0 (X w (@real_crs F A B C e (s1 om.1.1) (s2 om.1.2) om.2.1.1.1 om.2.1.1.2 om.2.1.2 om.2.2)) i).
rewrite -adv_shifted; congr `|_ - _|.
  rewrite -(@Pr_fst_eq _ (nz F) (fun x : (W * (O1 * F)) * F => shifted s1 D x.1 x.2 0)) ?nz_gt0 //.
  rewrite -(Pr_shift cK c'K nO delta hr (fun x z (_ : nz F) => shifted s1 D x z 0)).
  apply: eq_Pr => -[[[w k] t] om]; rewrite (_ : (let: (_, _) := _ in _) = B1 ((w, k), t) (R om)); last by move: om => [[o1 o2] [[[a1 a2] t1] t2]].
  have [hX hY _ _] := hs w (R om).
  rewrite /B1 /proof_test [_.1]/= [_.2]/= (key _ _ _ _ _ _ vs hX hY) subrr /ask_com1 /shifted /rho (tnth_nth 0).
  by rewrite /R real_crsE; apply: fin_pts0.
rewrite -(Pr_shift cK c'K nO delta hr' (fun x z (k : nz F) => shifted s1 D x z (val k))).
apply: eq_Pr => -[[[w k] t] om]; rewrite (_ : (let: (_, _) := _ in _) = B2 ((w, k), t) (R om)); last by move: om => [[o1 o2] [[[a1 a2] t1] t2]].
have [_ _ hX hY] := hs w (R om).
rewrite /B2 /proof_test [_.1]/= [_.2]/= (key _ _ _ _ _ _ vs' hX hY) /ask_com1 /shifted /rho' (tnth_nth 0).
rewrite /delta [val (nzmul _ _)]/=; have nd := nz0 w om; rewrite /R real_crsE in nd *; apply: fin_pts => hP; exact/esym/dlE.
Qed.

Lemma nec_C78_ppe_Y : forall (F : finFieldType) (A B C : lmodType F) (e : A -> B -> C), let E := Pairing e in
  forall (O1 O2 W : finType) (s1 : O1 -> A) (s2 : O2 -> B) (D : W -> B -> B -> B -> B -> bool) (sch sch' : sched) (m n i : nat)
  (q : W -> CRS E -> PPE E) (X X' : W -> CRS E -> seq A) (Y Y' : W -> CRS E -> seq B),
  cyclic (G2 E) -> valid_sched sch -> valid_sched sch' -> (0 < #|O1|)%N -> (0 < m)%N ->
  (forall w crs, [/\ size (X w crs) = m, size (Y w crs) = n, size (X' w crs) = m & size (Y' w crs) = n]) ->
  (forall w crs, ppe_wf (q w crs) m n) -> (i < n)%N -> (forall w crs, nth 0 (Y w crs) i <> nth 0 (Y' w crs) i) ->
  let T (x : W * nz F) crs r := if r is Ok v then ask_com2 (e := e) D x crs (nth 0 v.1.2 i - i2 (E := E) (nth 0 (Y x.1 crs) i)) else false in
  let B1 := proof_test (N := (2 * m + (2 * n + 4))%N) T public (fun x crs R s => ppe_commit_and_prove (R := R) sch (q x.1 crs) (X x.1 crs) (Y x.1 crs) crs s) in
  let B2 := proof_test (N := (2 * m + (2 * n + 4))%N) T public (fun x crs R s => ppe_commit_and_prove (R := R) sch' (q x.1 crs) (X' x.1 crs) (Y' x.1 crs) crs s) in
  `|game s1 s2 real_crs B1 - game s1 s2 real_crs B2| = ddh_adv s2 D * ((#|F|)%:R / (#|F|.-1)%:R).
Proof.
move=> F A B C e E O1 O2 W s1 s2 D sch sch' m n i q X X' Y Y' hc vs vs' no hm hs wf hi ne T B1 B2.
have hn : (0 < n)%N by apply: leq_trans hi.
pose Om := [finType of O1 * O2 * (F * F * F * F)]; pose N := (2 * m + (2 * n + 4))%N.
pose R (om : Om) : CRS E := @real_crs F A B C e (s1 om.1.1) (s2 om.1.2) om.2.1.1.1 om.2.1.1.2 om.2.1.2 om.2.2.
(* the tested difference *)
have key sch0 (om : Om) (x : W * nz F) (t : N.-tuple F) X0 Y0 : valid_sched sch0 -> size X0 = m -> size Y0 = n ->
  T x (R om) (seen public (ppe_commit_and_prove (R := tape_rng) sch0 (q x.1 (R om)) X0 Y0 (R om) (tval t : seq F)))
  = ask_com2 (e := e) D x (R om) (i2 (E := E) (nth 0 Y0 i - nth 0 (Y x.1 (R om)) i) + (nth 0 t (2 * m + 2 * i)%N *: v1 (R om) + nth 0 t ((2 * m + 2 * i)%N).+1 *: v2 (R om))).
  move=> vs0 ex ey; have [p [z hp]] : exists p z, ppe_commit_and_prove (R := tape_rng) sch0 (q x.1 (R om)) X0 Y0 (R om) (tval t : seq F) = Ok (p, z).
    by apply: (proj2 (CapLemmas.ppe_cap_total vs0 _ _ _ _ _)); rewrite ex ey /R real_crsE; split.
  rewrite hp; have [z1 [z2 [pf [hx hy _ _]]]] := (proj1 (CapLemmas.ppe_cap_steps _ _ _ _ _ _ _ _)) hp; rewrite /T /seen /public /=; congr ask_com2.
  have [e1 hcx] := com_G1 hx; have [e2 hcy] := com_G2 hy.
  have := hcy i; rewrite ey e1 ex !tape_after !tape_drawn !nth_drop => /(_ hi) ; rewrite ?addnS => <-.
  by rewrite iB2 [RHS]addrC addrA subrK.
have nz0 w om : nth 0 (Y' w (R om)) i - nth 0 (Y w (R om)) i != 0 by rewrite subr_eq0 eq_sym; apply/eqP; apply: ne.
pose c (om : Om) : (O2 * F) * (O1 * F * F * F) := ((om.1.2, om.2.1.1.2), (om.1.1, om.2.1.1.1, om.2.1.2, om.2.2)).
pose c' (y : (O2 * F) * (O1 * F * F * F)) : Om := let: ((o2, a2), (o1, a1, t1, t2)) := y in ((o1, o2), (a1, a2, t1, t2)).
have cK : cancel c c' by move=> [[o1 o2] [[[a1 a2] t1] t2]].
have c'K : cancel c' c by move=> [[o2 a2] [[[o1 a1] t1] t2]].
have nO : (0 < #|[finType of O1 * F * F * F]|)%N by rewrite !card_prod !muln_gt0 no !(ltnW (@nzF_gt1 F)).
have hj : ((2 * m + 2 * i)%N < N)%N by rewrite /N ltn_add2l ltn_addr ?ltn_pmul2l.
pose j := Ordinal hj; pose rho := fun (w : W) (om : Om) (t : N.-tuple F) => nth 0 t ((2 * m + 2 * i)%N).+1 * om.2.2; pose rho' := fun (w : W) (om : Om) (t : N.-tuple F) => nth 0 t ((2 * m + 2 * i)%N).+1 * om.2.2.
have hr w om t d : rho w om (upd j t d) = rho w om t by rewrite /rho nth_upd //= neq_ltn ltnSn orbT.
have hr' w om t d : rho' w om (upd j t d) = rho' w om t by rewrite /rho' nth_upd //= neq_ltn ltnSn orbT.
pose delta := fun (w : W) (om : Om) => dl (s2 om.1.2) (nth 0 (Y' w (@real_crs F A B C e (s1 om.1.1) (s2 om.1.2) om.2.1.1.1 om.2.1.1.2 om.2.1.2 om.2.2)) i - nth 0 (Y w (@real_crs F A B C e (s1 om.1.1) (s2 om.1.2) om.2.1.1.1 om.2.1.1.2 om.2.1.2 om.2.2)) i).
rewrite -adv_shifted; congr `|_ - _|.
  rewrite -(@Pr_fst_eq _ (nz F) (fun x : (W * (O2 * F)) * F => shifted s2 D x.1 x.2 0)) ?nz_gt0 //.
  rewrite -(Pr_shift cK c'K nO delta hr (fun x z (_ : nz F) => shifted s2 D x z 0)).
  apply: eq_Pr => -[[[w k] t] om]; rewrite (_ : (let: (_, _) := _ in _) = B1 ((w, k), t) (R om)); last by move: om => [[o1 o2] [[[a1 a2] t1] t2]].
  have [hX hY _ _] := hs w (R om).
  rewrite /B1 /proof_test [_.1]/= [_.2]/= (key _ _ _ _ _ _ vs hX hY) subrr /ask_com2 /shifted /rho (tnth_nth 0).
  by rewrite /R real_crsE; apply: fin_pts0.
rewrite -(Pr_shift cK c'K nO delta hr' (fun x z (k : nz F) => shifted s2 D x z (val k))).
apply: eq_Pr => -[[[w k] t] om]; rewrite (_ : (let: (_, _) := _ in _) = B2 ((w, k), t) (R om)); last by move: om => [[o1 o2] [[[a1 a2] t1] t2]].
have [_ _ hX hY] := hs w (R om).
rewrite /B2 /proof_test [_.1]/= [_.2]/= (key _ _ _ _ _ _ vs' hX hY) /ask_com2 /shifted /rho' (tnth_nth 0).
rewrite /delta [val (nzmul _ _)]/=; have nd := nz0 w om; rewrite /R real_crsE in nd *; apply: fin_pts => hP; exact/esym/dlE.
Qed.

Lemma nec_C78_ms1_X : forall (F : finFieldType) (A B C : lmodType F) (e : A -> B -> C), let E := Pairing e in
  forall (O1 O2 W : finType) (s1 : O1 -> A) (s2 : O2 -> B) (D : W -> A -> A -> A -> A -> bool) (sch sch' : sched) (m n i : nat)
  (q : W -> CRS E -> MSMEG1 E) (X X' : W -> CRS E -> seq A) (Y Y' : W -> CRS E -> seq F),
  cyclic (G1 E) -> valid_sched sch -> valid_sched sch' -> (0 < #|O2|)%N -> (0 < n)%N ->
  (forall w crs, [/\ size (X w crs) = m, size (Y w crs) = n, size (X' w crs) = m & size (Y' w crs) = n]) ->
  (forall w crs, ms1_wf (q w crs) m n) -> (i < m)%N -> (forall w crs, nth 0 (X w crs) i <> nth 0 (X' w crs) i) ->
  let T (x : W * nz F) crs r := if r is Ok v then ask_com1 (e := e) D x crs (nth 0 v.1.1 i - i1 (E := E) (nth 0 (X x.1 crs) i)) else false in
  let B1 := proof_test (N := (2 * m + (n + 2))%N) T public (fun x crs R s => ms1_commit_and_prove (R := R) sch (q x.1 crs) (X x.1 crs) (Y x.1 crs) crs s) in
  let B2 := proof_test (N := (2 * m + (n + 2))%N) T public (fun x crs R s => ms1_commit_and_prove (R := R) sch' (q x.1 crs) (X' x.1 crs) (Y' x.1 crs) crs s) in
  `|game s1 s2 real_crs B1 - game s1 s2 real_crs B2| = ddh_adv s1 D * ((#|F|)%:R / (#|F|.-1)%:R).
Proof.
move=> F A B C e E O1 O2 W s1 s2 D sch sch' m n i q X X' Y Y' hc vs vs' no hn hs wf hi ne T B1 B2.
have hm : (0 < m)%N by apply: leq_trans hi.
pose Om := [finType of O1 * O2 * (F * F * F * F)]; pose N := (2 * m + (n + 2))%N.
pose R (om : Om) : CRS E := @real_crs F A B C e (s1 om.1.1) (s2 om.1.2) om.2.1.1.1 om.2.1.1.2 om.2.1.2 om.2.2.
(* the tested difference *)
have key sch0 (om : Om) (x : W * nz F) (t : N.-tuple F) X0 Y0 : valid_sched sch0 -> size X0 = m -> size Y0 = n ->
  T x (R om) (seen public (ms1_commit_and_prove (R := tape_rng) sch0 (q x.1 (R om)) X0 Y0 (R om) (tval t : seq F)))
  = ask_com1 (e := e) D x (R om) (i1 (E := E) (nth 0 X0 i - nth 0 (X x.1 (R om)) i) + (nth 0 t (2 * i)%N *: u1 (R om) + nth 0 t ((2 * i)%N).+1 *: u2 (R om))).
  move=> vs0 ex ey; have [p [z hp]] : exists p z, ms1_commit_and_prove (R := tape_rng) sch0 (q x.1 (R om)) X0 Y0 (R om) (tval t : seq F) = Ok (p, z).
    by apply: (proj2 (CapLemmas.ms1_cap_total vs0 _ _ _ _ _)); rewrite ex ey /R real_crsE; split.
  rewrite hp; have [z1 [z2 [pf [hx hy _ _]]]] := (proj1 (CapLemmas.ms1_cap_steps _ _ _ _ _ _ _ _)) hp; rewrite /T /seen /public /=; congr ask_com1.
  have [e1 hcx] := com_G1 hx; have [e2 hcy] := com_B2 hy.
  have := hcx i; rewrite ex !tape_drawn => /(_ hi) <-.
  by rewrite iB1 [RHS]addrC addrA subrK.
have nz0 w om : nth 0 (X' w (R om)) i - nth 0 (X w (R om)) i != 0 by rewrite subr_eq0 eq_sym; apply/eqP; apply: ne.
pose c (om : Om) : (O1 * F) * (O2 * F * F * F) := ((om.1.1, om.2.1.1.1), (om.1.2, om.2.1.1.2, om.2.1.2, om.2.2)).
pose c' (y : (O1 * F) * (O2 * F * F * F)) : Om := let: ((o1, a1), (o2, a2, t1, t2)) := y in ((o1, o2), (a1, a2, t1, t2)).
have cK : cancel c c' by move=> [[o1 o2] [[[a1 a2] t1] t2]].
have c'K : cancel c' c by move=> [[o1 a1] [[[o2 a2] t1] t2]].
have nO : (0 < #|[finType of O2 * F * F * F]|)%N by rewrite !card_prod !muln_gt0 no !(ltnW (@nzF_gt1 F)).
have hj : ((2 * i)%N < N)%N by rewrite /N ltn_addr ?ltn_pmul2l.
pose j := Ordinal hj; pose rho := fun (w : W) (om : Om) (t : N.-tuple F) => nth 0 t ((2 * i)%N).+1 * om.2.1.2; pose rho' := fun (w : W) (om : Om) (t : N.-tuple F) => nth 0 t ((2 * i)%N).+1 * om.2.1.2.
have hr w om t d : rho w om (upd j t d) = rho w om t by rewrite /rho nth_upd //= neq_ltn ltnSn orbT.
have hr' w om t d : rho' w om (upd j t d) = rho' w om t by rewrite /rho' nth_upd //= neq_ltn ltnSn orbT.
pose delta := fun (w : W) (om : Om) => dl (s1 om.1.1) (nth 0 (X' w (@real_crs F A B C e (s1 om.1.1) (s2 om.1.2) om.2.1.1.1 om.2.1.1.2 om.2.1.2 om.2.2)) i - nth 0 (X w (@real_crs F A B C e (s1 om.1.1) (s2 om.1.2) om.2.1.1.1 om.2.1.1.2 om.2.1.2 om.2.2)) i).
rewrite -adv_shifted; congr `|_ - _|.
  rewrite -(@Pr_fst_eq _ (nz F) (fun x : (W * (O1 * F)) * F => shifted s1 D x.1 x.2 0)) ?nz_gt0 //.
  rewrite -(Pr_shift cK c'K nO delta hr (fun x z (_ : nz F) => shifted s1 D x z 0)).
  apply: eq_Pr => -[[[w k] t] om]; rewrite (_ : (let: (_, _) := _ in _) = B1 ((w, k), t) (R om)); last by move: om => [[o1 o2] [[[a1 a2] t1] t2]].
  have [hX hY _ _] := hs w (R om).
  rewrite /B1 /proof_test [_.1]/= [_.2]/= (key _ _ _ _ _ _ vs hX hY) subrr /ask_com1 /shifted /rho (tnth_nth 0).
  by rewrite /R real_crsE; apply: fin_pts0.
rewrite -(Pr_shift cK c'K nO delta hr' (fun x z (k : nz F) => shifted s1 D x z (val k))).
apply: eq_Pr => -[[[w k] t] om]; rewrite (_ : (let: (_, _) := _ in _) = B2 ((w, k), t) (R om)); last by move: om => [[o1 o2] [[[a1 a2] t1] t2]].
have [_ _ hX hY] := hs w (R om).
rewrite /B2 /proof_test [_.1]/= [_.2]/= (key _ _ _ _ _ _ vs' hX hY) /ask_com1 /shifted /rho' (tnth_nth 0).
rewrite /delta [val (nzmul _ _)]/=; have nd := nz0 w om; rewrite /R real_crsE in nd *; apply: fin_pts => hP; exact/esym/dlE.
Qed.

Lemma nec_C78_ms1_Y : forall (F : finFieldType) (A B C : lmodType F) (e : A -> B -> C), let E := Pairing e in
  forall (O1 O2 W : finType) (s1 : O1 -> A) (s2 : O2 -> B) (D : W -> B -> B -> B -> B -> bool) (sch sch' : sched) (m n i : nat)
  (q : W -> CRS E -> MSMEG1 E) (X X' : W -> CRS E -> seq A) (Y Y' : W -> CRS E -> seq F),
  valid_sched sch -> valid_sched sch' -> (0 < #|O1|)%N -> (0 < m)%N ->
  (forall w crs, [/\ size (X w crs) = m, size (Y w crs) = n, size (X' w crs) = m & size (Y' w crs) = n]) ->
  (forall w crs, ms1_wf (q w crs) m n) -> (i < n)%N -> (forall w crs, nth 0 (Y w crs) i <> nth 0 (Y' w crs) i) ->
  let T (x : W * nz F) crs r := if r is Ok v then ask_com2 (e := e) D x crs (nth 0 v.1.2 i - k2 (E := E) crs (nth 0 (Y x.1 crs) i)) else false in
  let B1 := proof_test (N := (2 * m + (n + 2))%N) T public (fun x crs R s => ms1_commit_and_prove (R := R) sch (q x.1 crs) (X x.1 crs) (Y x.1 crs) crs s) in
  let B2 := proof_test (N := (2 * m + (n + 2))%N) T public (fun x crs R s => ms1_commit_and_prove (R := R) sch' (q x.1 crs) (X' x.1 crs) (Y' x.1 crs) crs s) in
  `|game s1 s2 real_crs B1 - game s1 s2 real_crs B2| = ddh_adv s2 D * ((#|F|)%:R / (#|F|.-1)%:R).
Proof.
move=> F A B C e E O1 O2 W s1 s2 D sch sch' m n i q X X' Y Y' vs vs' no hm hs wf hi ne T B1 B2.
have hn : (0 < n)%N by apply: leq_trans hi.
pose Om := [finType of O1 * O2 * (F * F * F * F)]; pose N := (2 * m + (n + 2))%N.
pose R (om : Om) : CRS E := @real_crs F A B C e (s1 om.1.1) (s2 om.1.2) om.2.1.1.1 om.2.1.1.2 om.2.1.2 om.2.2.
(* the tested difference *)
have key sch0 (om : Om) (x : W * nz F) (t : N.-tuple F) X0 Y0 : valid_sched sch0 -> size X0 = m -> size Y0 = n ->
  T x (R om) (seen public (ms1_commit_and_prove (R := tape_rng) sch0 (q x.1 (R om)) X0 Y0 (R om) (tval t : seq F)))
  = ask_com2 (e := e) D x (R om) (k2 (E := E) (R om) (nth 0 Y0 i - nth 0 (Y x.1 (R om)) i) + nth 0 t (2 * m + i)%N *: v1 (R om)).
  move=> vs0 ex ey; have [p [z hp]] : exists p z, ms1_commit_and_prove (R := tape_rng) sch0 (q x.1 (R om)) X0 Y0 (R om) (tval t : seq F) = Ok (p, z).
    by apply: (proj2 (CapLemmas.ms1_cap_total vs0 _ _ _ _ _)); rewrite ex ey /R real_crsE; split.
  rewrite hp; have [z1 [z2 [pf [hx hy _ _]]]] := (proj1 (CapLemmas.ms1_cap_steps _ _ _ _ _ _ _ _)) hp; rewrite /T /seen /public /=; congr ask_com2.
  have [e1 hcx] := com_G1 hx; have [e2 hcy] := com_B2 hy.
  have := hcy i; rewrite ey e1 ex !tape_after !tape_drawn !nth_drop => /(_ hi) ; rewrite ?addnS => <-.
  by rewrite kB2 [RHS]addrC addrA subrK.
have nz0 w om : nth 0 (Y' w (R om)) i - nth 0 (Y w (R om)) i != 0 by rewrite subr_eq0 eq_sym; apply/eqP; apply: ne.
pose c (om : Om) : (O2 * F) * (O1 * F * F * F) := ((om.1.2, om.2.1.1.2), (om.1.1, om.2.1.1.1, om.2.1.2, om.2.2)).
pose c' (y : (O2 * F) * (O1 * F * F * F)) : Om := let: ((o2, a2), (o1, a1, t1, t2)) := y in ((o1, o2), (a1, a2, t1, t2)).
have cK : cancel c c' by move=> [[o1 o2] [[[a1 a2] t1] t2]].
have c'K : cancel c' c by move=> [[o2 a2] [[[o1 a1] t1] t2]].
have nO : (0 < #|[finType of O1 * F * F * F]|)%N by rewrite !card_prod !muln_gt0 no !(ltnW (@nzF_gt1 F)).
have hj : ((2 * m + i)%N < N)%N by rewrite /N ltn_add2l ltn_addr ?ltn_pmul2l.
pose j := Ordinal hj; pose rho := fun (w : W) (om : Om) (t : N.-tuple F) => 0 : F; pose rho' := fun (w : W) (om : Om) (t : N.-tuple F) => (nth 0 (Y' w (@real_crs F A B C e (s1 om.1.1) (s2 om.1.2) om.2.1.1.1 om.2.1.1.2 om.2.1.2 om.2.2)) i - nth 0 (Y w (@real_crs F A B C e (s1 om.1.1) (s2 om.1.2) om.2.1.1.1 om.2.1.1.2 om.2.1.2 om.2.2)) i) * om.2.2.
have hr w om t d : rho w om (upd j t d) = rho w om t by [].
have hr' w om t d : rho' w om (upd j t d) = rho' w om t by [].
pose delta := fun (w : W) (om : Om) => nzof (nth 0 (Y' w (@real_crs F A B C e (s1 om.1.1) (s2 om.1.2) om.2.1.1.1 om.2.1.1.2 om.2.1.2 om.2.2)) i - nth 0 (Y w (@real_crs F A B C e (s1 om.1.1) (s2 om.1.2) om.2.1.1.1 om.2.1.1.2 om.2.1.2 om.2.2)) i).
rewrite -adv_shifted; congr `|_ - _|.
  rewrite -(@Pr_fst_eq _ (nz F) (fun x : (W * (O2 * F)) * F => shifted s2 D x.1 x.2 0)) ?nz_gt0 //.
  rewrite -(Pr_shift cK c'K nO delta hr (fun x z (_ : nz F) => shifted s2 D x z 0)).
  apply: eq_Pr => -[[[w k] t] om]; rewrite (_ : (let: (_, _) := _ in _) = B1 ((w, k), t) (R om)); last by move: om => [[o1 o2] [[[a1 a2] t1] t2]].
  have [hX hY _ _] := hs w (R om).
  rewrite /B1 /proof_test [_.1]/= [_.2]/= (key _ _ _ _ _ _ vs hX hY) subrr /ask_com2 /shifted /rho (tnth_nth 0).
  by rewrite /R real_crsE; apply: fin_sc0.
rewrite -(Pr_shift cK c'K nO delta hr' (fun x z (k : nz F) => shifted s2 D x z (val k))).
apply: eq_Pr => -[[[w k] t] om]; rewrite (_ : (let: (_, _) := _ in _) = B2 ((w, k), t) (R om)); last by move: om => [[o1 o2] [[[a1 a2] t1] t2]].
have [_ _ hX hY] := hs w (R om).
rewrite /B2 /proof_test [_.1]/= [_.2]/= (key _ _ _ _ _ _ vs' hX hY) /ask_com2 /shifted /rho' (tnth_nth 0).
rewrite /delta [val (nzmul _ _)]/=; have nd := nz0 w om; rewrite /R real_crsE in nd *; apply: fin_sc; exact/esym/nzofE.
Qed.

Lemma nec_C78_ms2_X : forall (F : finFieldType) (A B C : lmodType F) (e : A -> B -> C), let E := Pairing e in
  forall (O1 O2 W : finType) (s1 : O1 -> A) (s2 : O2 -> B) (D : W -> A -> A -> A -> A -> bool) (sch sch' : sched) (m n i : nat)
  (q : W -> CRS E -> MSMEG2 E) (X X' : W -> CRS E -> seq F) (Y Y' : W -> CRS E -> seq B),
  valid_sched sch -> valid_sched sch' -> (0 < #|O2|)%N -> (0 < n)%N ->
  (forall w crs, [/\ size (X w crs) = m, size (Y w crs) = n, size (X' w crs) = m & size (Y' w crs) = n]) ->
  (forall w crs, ms2_wf (q w crs) m n) -> (i < m)%N -> (forall w crs, nth 0 (X w crs) i <> nth 0 (X' w crs) i) ->
  let T (x : W * nz F) crs r := if r is Ok v then ask_com1 (e := e) D x crs (nth 0 v.1.1 i - k1 (E := E) crs (nth 0 (X x.1 crs) i)) else false in
  let B1 := proof_test (N := (m + (2 * n + 2))%N) T public (fun x crs R s => ms2_commit_and_prove (R := R) sch (q x.1 crs) (X x.1 crs) (Y x.1 crs) crs s) in
  let B2 := proof_test (N := (m + (2 * n + 2))%N) T public (fun x crs R s => ms2_commit_and_prove (R := R) sch' (q x.1 crs) (X' x.1 crs) (Y' x.1 crs) crs s) in
  `|game s1 s2 real_crs B1 - game s1 s2 real_crs B2| = ddh_adv s1 D * ((#|F|)%:R / (#|F|.-1)%:R).
Proof.
move=> F A B C e E O1 O2 W s1 s2 D sch sch' m n i q X X' Y Y' vs vs' no hn hs wf hi ne T B1 B2.
have hm : (0 < m)%N by apply: leq_trans hi.
pose Om := [finType of O1 * O2 * (F * F * F * F)]; pose N := (m + (2 * n + 2))%N.
pose R (om : Om) : CRS E := @real_crs F A B C e (s1 om.1.1) (s2 om.1.2) om.2.1.1.1 om.2.1.1.2 om.2.1.2 om.2.2.
(* the tested difference *)
have key sch0 (om : Om) (x : W * nz F) (t : N.-tuple F) X0 Y0 : valid_sched sch0 -> size X0 = m -> size Y0 = n ->
  T x (R om) (seen public (ms2_commit_and_prove (R := tape_rng) sch0 (q x.1 (R om)) X0 Y0 (R om) (tval t : seq F)))
  = ask_com1 (e := e) D x (R om) (k1 (E := E) (R om) (nth 0 X0 i - nth 0 (X x.1 (R om)) i) + nth 0 t (i)%N *: u1 (R om)).
  move=> vs0 ex ey; have [p [z hp]] : exists p z, ms2_commit_and_prove (R := tape_rng) sch0 (q x.1 (R om)) X0 Y0 (R om) (tval t : seq F) = Ok (p, z).
    by apply: (proj2 (CapLemmas.ms2_cap_total vs0 _ _ _ _ _)); rewrite ex ey /R real_crsE; split.
  rewrite hp; have [z1 [z2 [pf [hx hy _ _]]]] := (proj1 (CapLemmas.ms2_cap_steps _ _ _ _ _ _ _ _)) hp; rewrite /T /seen /public /=; congr ask_com1.
  have [e1 hcx] := com_B1 hx; have [e2 hcy] := com_G2 hy.
  have := hcx i; rewrite ex !tape_drawn => /(_ hi) <-.
  by rewrite kB1 [RHS]addrC addrA subrK.
have nz0 w om : nth 0 (X' w (R om)) i - nth 0 (X w (R om)) i != 0 by rewrite subr_eq0 eq_sym; apply/eqP; apply: ne.
pose c (om : Om) : (O1 * F) * (O2 * F * F * F) := ((om.1.1, om.2.1.1.1), (om.1.2, om.2.1.1.2, om.2.1.2, om.2.2)).
pose c' (y : (O1 * F) * (O2 * F * F * F)) : Om := let: ((o1, a1), (o2, a2, t1, t2)) := y in ((o1, o2), (a1, a2, t1, t2)).
have cK : cancel c c' by move=> [[o1 o2] [[[a1 a2] t1] t2]].
have c'K : cancel c' c by move=> [[o1 a1] [[[o2 a2] t1] t2]].
have nO : (0 < #|[finType of O2 * F * F * F]|)%N by rewrite !card_prod !muln_gt0 no !(ltnW (@nzF_gt1 F)).
have hj : ((i)%N < N)%N by rewrite /N ltn_addr ?ltn_pmul2l.
pose j := Ordinal hj; pose rho := fun (w : W) (om : Om) (t : N.-tuple F) => 0 : F; pose rho' := fun (w : W) (om : Om) (t : N.-tuple F) => (nth 0 (X' w (@real_crs F A B C e (s1 om.1.1) (s2 om.1.2) om.2.1.1.1 om.2.1.1.2 om.2.1.2 om.2.2)) i - nth 0 (X w (@real_crs F A B C e (s1 om.1.1) (s2 om.1.2) om.2.1.1.1 om.2.1.1.2 om.2.1.2 om.2.2)) i) * om.2.1.2.
have hr w om t d : rho w om (upd j t d) = rho w om t by [].
have hr' w om t d : rho' w om (upd j t d) = rho' w om t by [].
pose delta := fun (w : W) (om : Om) => nzof (nth 0 (X' w (@real_crs F A B C e (s1 om.1.1) (s2 om.1.2) om.2.1.1.1 om.2.1.1.2 om.2.1.2 om.2.2)) i - nth 0 (X w (@real_crs F A B C e (s1 om.1.1) (s2 om.1.2) om.2.1.1.1 om.2.1.1.2 om.2.1.2 om.2.2)) i).
rewrite -adv_shifted; congr `|_ - _|.
  rewrite -(@Pr_fst_eq _ (nz F) (fun x : (W * (O1 * F)) * F => shifted s1 D x.1 x.2 0)) ?nz_gt0 //.
  rewrite -(Pr_shift cK c'K nO delta hr (fun x z (_ : nz F) => shifted s1 D x z 0)).
  apply: eq_Pr => -[[[w k] t] om]; rewrite (_ : (let: (_, _) := _ in _) = B1 ((w, k), t) (R om)); last by move: om => [[o1 o2] [[[a1 a2] t1] t2]].
  have [hX hY _ _] := hs w (R om).
  rewrite /B1 /proof_test [_.1]/= [_.2]/= (key _ _ _ _ _ _ vs hX hY) subrr /ask_com1 /shifted /rho (tnth_nth 0).
  by rewrite /R real_crsE; apply: fin_sc0.
rewrite -(Pr_shift cK c'K nO delta hr' (fun x z (k : nz F) => shifted s1 D x z (val k))).
apply: eq_Pr => -[[[w k] t] om]; rewrite (_ : (let: (_, _) := _ in _) = B2 ((w, k), t) (R om)); last by move: om => [[o1 o2] [[[a1 a2] t1] t2]].
have [_ _ hX hY] := hs w (R om).
rewrite /B2 /proof_test [_.1]/= [_.2]/= (key _ _ _ _ _ _ vs' hX hY) /ask_com1 /shifted /rho' (tnth_nth 0).
rewrite /delta [val (nzmul _ _)]/=; have nd := nz0 w om; rewrite /R real_crsE in nd *; apply: fin_sc; exact/esym/nzofE.
Qed.

Lemma nec_C78_ms2_Y : forall (F : finFieldType) (A B C : lmodType F) (e : A -> B -> C), let E := Pairing e in
  forall (O1 O2 W : finType) (s1 : O1 -> A) (s2 : O2 -> B) (D : W -> B -> B -> B -> B -> bool) (sch sch' : sched) (m n i : nat)
  (q : W -> CRS E -> MSMEG2 E) (X X' : W -> CRS E -> seq F) (Y Y' : W -> CRS E -> seq B),
  cyclic (G2 E) -> valid_sched sch -> valid_sched sch' -> (0 < #|O1|)%N -> (0 < m)%N ->
  (forall w crs, [/\ size (X w crs) = m, size (Y w crs) = n, size (X' w crs) = m & size (Y' w crs) = n]) ->
  (forall w crs, ms2_wf (q w crs) m n) -> (i < n)%N -> (forall w crs, nth 0 (Y w crs) i <> nth 0 (Y' w crs) i) ->
  let T (x : W * nz F) crs r := if r is Ok v then ask_com2 (e := e) D x crs (nth 0 v.1.2 i - i2 (E := E) (nth 0 (Y x.1 crs) i)) else false in
  let B1 := proof_test (N := (m + (2 * n + 2))%N) T public (fun x crs R s => ms2_commit_and_prove (R := R) sch (q x.1 crs) (X x.1 crs) (Y x.1 crs) crs s) in
  let B2 := proof_test (N := (m + (2 * n + 2))%N) T public (fun x crs R s => ms2_commit_and_prove (R := R) sch' (q x.1 crs) (X' x.1 crs) (Y' x.1 crs) crs s) in
  `|game s1 s2 real_crs B1 - game s1 s2 real_crs B2| = ddh_adv s2 D * ((#|F|)%:R / (#|F|.-1)%:R).
Proof.
move=> F A B C e E O1 O2 W s1 s2 D sch sch' m n i q X X' Y Y' hc vs vs' no hm hs wf hi ne T B1 B2.
have hn : (0 < n)%N by apply: leq_trans hi.
pose Om := [finType of O1 * O2 * (F * F * F * F)]; pose N := (m + (2 * n + 2))%N.
pose R (om : Om) : CRS E := @real_crs F A B C e (s1 om.1.1) (s2 om.1.2) om.2.1.1.1 om.2.1.1.2 om.2.1.2 om.2.2.
(* the tested difference *)
have key sch0 (om : Om) (x : W * nz F) (t : N.-tuple F) X0 Y0 : valid_sched sch0 -> size X0 = m -> size Y0 = n ->
  T x (R om) (seen public (ms2_commit_and_prove (R := tape_rng) sch0 (q x.1 (R om)) X0 Y0 (R om) (tval t : seq F)))
  = ask_com2 (e := e) D x (R om) (i2 (E := E) (nth 0 Y0 i - nth 0 (Y x.1 (R om)) i) + (nth 0 t (m + 2 * i)%N *: v1 (R om) + nth 0 t ((m + 2 * i)%N).+1 *: v2 (R om))).
  move=> vs0 ex ey; have [p [z hp]] : exists p z, ms2_commit_and_prove (R := tape_rng) sch0 (q x.1 (R om)) X0 Y0 (R om) (tval t : seq F) = Ok (p, z).
    by apply: (proj2 (CapLemmas.ms2_cap_total vs0 _ _ _ _ _)); rewrite ex ey /R real_crsE; split.
  rewrite hp; have [z1 [z2 [pf [hx hy _ _]]]] := (proj1 (CapLemmas.ms2_cap_steps _ _ _ _ _ _ _ _)) hp; rewrite /T /seen /public /=; congr ask_com2.
  have [e1 hcx] := com_B1 hx; have [e2 hcy] := com_G2 hy.
  have := hcy i; rewrite ey e1 ex !tape_after !tape_drawn !nth_drop => /(_ hi) ; rewrite ?addnS => <-.
  by rewrite iB2 [RHS]addrC addrA subrK.
have nz0 w om : nth 0 (Y' w (R om)) i - nth 0 (Y w (R om)) i != 0 by rewrite subr_eq0 eq_sym; apply/eqP; apply: ne.
pose c (om : Om) : (O2 * F) * (O1 * F * F * F) := ((om.1.2, om.2.1.1.2), (om.1.1, om.2.1.1.1, om.2.1.2, om.2.2)).
pose c' (y : (O2 * F) * (O1 * F * F * F)) : Om := let: ((o2, a2), (o1, a1, t1, t2)) := y in ((o1, o2), (a1, a2, t1, t2)).
have cK : cancel c c' by move=> [[o1 o2] [[[a1 a2] t1] t2]].
have c'K : cancel c' c by move=> [[o2 a2] [[[o1 a1] t1] t2]].
have nO : (0 < #|[finType of O1 * F * F * F]|)%N by rewrite !card_prod !muln_gt0 no !(ltnW (@nzF_gt1 F)).
have hj : ((m + 2 * i)%N < N)%N by rewrite /N ltn_add2l ltn_addr ?ltn_pmul2l.
pose j := Ordinal hj; pose rho := fun (w : W) (om : Om) (t : N.-tuple F) => nth 0 t ((m + 2 * i)%N).+1 * om.2.2; pose rho' := fun (w : W) (om : Om) (t : N.-tuple F) => nth 0 t ((m + 2 * i)%N).+1 * om.2.2.
have hr w om t d : rho w om (upd j t d) = rho w om t by rewrite /rho nth_upd //= neq_ltn ltnSn orbT.
have hr' w om t d : rho' w om (upd j t d) = rho' w om t by rewrite /rho' nth_upd //= neq_ltn ltnSn orbT.
pose delta := fun (w : W) (om : Om) => dl (s2 om.1.2) (nth 0 (Y' w (@real_crs F A B C e (s1 om.1.1) (s2 om.1.2) om.2.1.1.1 om.2.1.1.2 om.2.1.2 om.2.2)) i - nth 0 (Y w (@real_crs F A B C e (s1 om.1.1) (s2 om.1.2) om.2.1.1.1 om.2.1.1.2 om.2.1.2 om.2.2)) i).
rewrite -adv_shifted; congr `|_ - _|.
  rewrite -(@Pr_fst_eq _ (nz F) (fun x : (W * (O2 * F)) * F => shifted s2 D x.1 x.2 0)) ?nz_gt0 //.
  rewrite -(Pr_shift cK c'K nO delta hr (fun x z (_ : nz F) => shifted s2 D x z 0)).
  apply: eq_Pr => -[[[w k] t] om]; rewrite (_ : (let: (_, _) := _ in _) = B1 ((w, k), t) (R om)); last by move: om => [[o1 o2] [[[a1 a2] t1] t2]].
  have [hX hY _ _] := hs w (R om).
  rewrite /B1 /proof_test [_.1]/= [_.2]/= (key _ _ _ _ _ _ vs hX hY) subrr /ask_com2 /shifted /rho (tnth_nth 0).
  by rewrite /R real_crsE; apply: fin_pts0.
rewrite -(Pr_shift cK c'K nO delta hr' (fun x z (k : nz F) => shifted s2 D x z (val k))).
apply: eq_Pr => -[[[w k] t] om]; rewrite (_ : (let: (_, _) := _ in _) = B2 ((w, k), t) (R om)); last by move: om => [[o1 o2] [[[a1 a2] t1] t2]].
have [_ _ hX hY] := hs w (R om).
rewrite /B2 /proof_test [_.1]/= [_.2]/= (key _ _ _ _ _ _ vs' hX hY) /ask_com2 /shifted /rho' (tnth_nth 0).
rewrite /delta [val (nzmul _ _)]/=; have nd := nz0 w om; rewrite /R real_crsE in nd *; apply: fin_pts => hP; exact/esym/dlE.
Qed.

Lemma nec_C78_quad_X : forall (F : finFieldType) (A B C : lmodType F) (e : A -> B -> C), let E := Pairing e in
  forall (O1 O2 W : finType) (s1 : O1 -> A) (s2 : O2 -> B) (D : W -> A -> A -> A -> A -> bool) (sch sch' : sched) (m n i : nat)
  (q : W -> CRS E -> QuadEqu E) (X X' : W -> CRS E -> seq F) (Y Y' : W -> CRS E -> seq F),
  valid_sched sch -> valid_sched sch' -> (0 < #|O2|)%N -> (0 < n)%N ->
  (forall w crs, [/\ size (X w crs) = m, size (Y w crs) = n, size (X' w crs) = m & size (Y' w crs) = n]) ->
  (forall w crs, quad_wf (q w crs) m n) -> (i < m)%N -> (forall w crs, nth 0 (X w crs) i <> nth 0 (X' w crs) i) ->
  let T (x : W * nz F) crs r := if r is Ok v then ask_com1 (e := e) D x crs (nth 0 v.1.1 i - k1 (E := E) crs (nth 0 (X x.1 crs) i)) else false in
  let B1 := proof_test (N := (m + (n + 1))%N) T public (fun x crs R s => quad_commit_and_prove (R := R) sch (q x.1 crs) (X x.1 crs) (Y x.1 crs) crs s) in
  let B2 := proof_test (N := (m + (n + 1))%N) T public (fun x crs R s => quad_commit_and_prove (R := R) sch' (q x.1 crs) (X' x.1 crs) (Y' x.1 crs) crs s) in
  `|game s1 s2 real_crs B1 - game s1 s2 real_crs B2| = ddh_adv s1 D * ((#|F|)%:R / (#|F|.-1)%:R).
Proof.
move=> F A B C e E O1 O2 W s1 s2 D sch sch' m n i q X X' Y Y' vs vs' no hn hs wf hi ne T B1 B2.
have hm : (0 < m)%N by apply: leq_trans hi.
pose Om := [finType of O1 * O2 * (F * F * F * F)]; pose N := (m + (n + 1))%N.
pose R (om : Om) : CRS E := @real_crs F A B C e (s1 om.1.1) (s2 om.1.2) om.2.1.1.1 om.2.1.1.2 om.2.1.2 om.2.2.
(* the tested difference *)
have key sch0 (om : Om) (x : W * nz F) (t : N.-tuple F) X0 Y0 : valid_sched sch0 -> size X0 = m -> size Y0 = n ->
  T x (R om) (seen public (quad_commit_and_prove (R := tape_rng) sch0 (q x.1 (R om)) X0 Y0 (R om) (tval t : seq F)))
  = ask_com1 (e := e) D x (R om) (k1 (E := E) (R om) (nth 0 X0 i - nth 0 (X x.1 (R om)) i) + nth 0 t (i)%N *: u1 (R om)).
  move=> vs0 ex ey; have [p [z hp]] : exists p z, quad_commit_and_prove (R := tape_rng) sch0 (q x.1 (R om)) X0 Y0 (R om) (tval t : seq F) = Ok (p, z).
    by apply: (proj2 (CapLemmas.quad_cap_total vs0 _ _ _ _ _)); rewrite ex ey /R real_crsE; split.
  rewrite hp; have [z1 [z2 [pf [hx hy _ _]]]] := (proj1 (CapLemmas.quad_cap_steps _ _ _ _ _ _ _ _)) hp; rewrite /T /seen /public /=; congr ask_com1.
  have [e1 hcx] := com_B1 hx; have [e2 hcy] := com_B2 hy.
  have := hcx i; rewrite ex !tape_drawn => /(_ hi) <-.
  by rewrite kB1 [RHS]addrC addrA subrK.
have nz0 w om : nth 0 (X' w (R om)) i - nth 0 (X w (R om)) i != 0 by rewrite subr_eq0 eq_sym; apply/eqP; apply: ne.
pose c (om : Om) : (O1 * F) * (O2 * F * F * F) := ((om.1.1, om.2.1.1.1), (om.1.2, om.2.1.1.2, om.2.1.2, om.2.2)).
pose c' (y : (O1 * F) * (O2 * F * F * F)) : Om := let: ((o1, a1), (o2, a2, t1, t2)) := y in ((o1, o2), (a1, a2, t1, t2)).
have cK : cancel c c' by move=> [[o1 o2] [[[a1 a2] t1] t2]].
have c'K : cancel c' c by move=> [[o1 a1] [[[o2 a2] t1] t2]].
have nO : (0 < #|[finType of O2 * F * F * F]|)%N by rewrite !card_prod !muln_gt0 no !(ltnW (@nzF_gt1 F)).
have hj : ((i)%N < N)%N by rewrite /N ltn_addr ?ltn_pmul2l.
pose j := Ordinal hj; pose rho := fun (w : W) (om : Om) (t : N.-tuple F) => 0 : F; pose rho' := fun (w : W) (om : Om) (t : N.-tuple F) => (nth 0 (X' w (@real_crs F A B C e (s1 om.1.1) (s2 om.1.2) om.2.1.1.1 om.2.1.1.2 om.2.1.2 om.2.2)) i - nth 0 (X w (@real_crs F A B C e (s1 om.1.1) (s2 om.1.2) om.2.1.1.1 om.2.1.1.2 om.2.1.2 om.2.2)) i) * om.2.1.2.
have hr w om t d : rho w om (upd j t d) = rho w om t by [].
have hr' w om t d : rho' w om (upd j t d) = rho' w om t by [].
pose delta := fun (w : W) (om : Om) => nzof (nth 0 (X' w (@real_crs F A B C e (s1 om.1.1) (s2 om.1.2) om.2.1.1.1 om.2.1.1.2 om.2.1.2 om.2.2)) i - nth 0 (X w (@real_crs F A B C e (s1 om.1.1) (s2 om.1.2) om.2.1.1.1 om.2.1.1.2 om.2.1.2 om.2.2)) i).
rewrite -adv_shifted; congr `|_ - _|.
  rewrite -(@Pr_fst_eq _ (nz F) (fun x : (W * (O1 * F)) * F => shifted s1 D x.1 x.2 0)) ?nz_gt0 //.
  rewrite -(Pr_shift cK c'K nO delta hr (fun x z (_ : nz F) => shifted s1 D x z 0)).
  apply: eq_Pr => -[[[w k] t] om]; rewrite (_ : (let: (_, _) := _ in _) = B1 ((w, k), t) (R om)); last by move: om => [[o1 o2] [[[a1 a2] t1] t2]].
  have [hX hY _ _] := hs w (R om).
  rewrite /B1 /proof_test [_.1]/= [_.2]/= (key _ _ _ _ _ _ vs hX hY) subrr /ask_com1 /shifted /rho (tnth_nth 0).
  by rewrite /R real_crsE; apply: fin_sc0.
rewrite -(Pr_shift cK c'K nO delta hr' (fun x z (k : nz F) => shifted s1 D x z (val k))).
apply: eq_Pr => -[[[w k] t] om]; rewrite (_ : (let: (_, _) := _ in _) = B2 ((w, k), t) (R om)); last by move: om => [[o1 o2] [[[a1 a2] t1] t2]].
have [_ _ hX hY] := hs w (R om).
rewrite /B2 /proof_test [_.1]/= [_.2]/= (key _ _ _ _ _ _ vs' hX hY) /ask_com1 /shifted /rho' (tnth_nth 0).
rewrite /delta [val (nzmul _ _)]/=; have nd := nz0 w om; rewrite /R real_crsE in nd *; apply: fin_sc; exact/esym/nzofE.
Qed.

Lemma nec_C78_quad_Y : forall (F : finFieldType) (A B C : lmodType F) (e : A -> B -> C), let E := Pairing e in
  forall (O1 O2 W : finType) (s1 : O1 -> A) (s2 : O2 -> B) (D : W -> B -> B -> B -> B -> bool) (sch sch' : sched) (m n i : nat)
  (q : W -> CRS E -> QuadEqu E) (X X' : W -> CRS E -> seq F) (Y Y' : W -> CRS E -> seq F),
  valid_sched sch -> valid_sched sch' -> (0 < #|O1|)%N -> (0 < m)%N ->
  (forall w crs, [/\ size (X w crs) = m, size (Y w crs) = n, size (X' w crs) = m & size (Y' w crs) = n]) ->
  (forall w crs, quad_wf (q w crs) m n) -> (i < n)%N -> (forall w crs, nth 0 (Y w crs) i <> nth 0 (Y' w crs) i) ->
  let T (x : W * nz F) crs r := if r is Ok v then ask_com2 (e := e) D x crs (nth 0 v.1.2 i - k2 (E := E) crs (nth 0 (Y x.1 crs) i)) else false in
  let B1 := proof_test (N := (m + (n + 1))%N) T public (fun x crs R s => quad_commit_and_prove (R := R) sch (q x.1 crs) (X x.1 crs) (Y x.1 crs) crs s) in
  let B2 := proof_test (N := (m + (n + 1))%N) T public (fun x crs R s => quad_commit_and_prove (R := R) sch' (q x.1 crs) (X' x.1 crs) (Y' x.1 crs) crs s) in
  `|game s1 s2 real_crs B1 - game s1 s2 real_crs B2| = ddh_adv s2 D * ((#|F|)%:R / (#|F|.-1)%:R).
Proof.
move=> F A B C e E O1 O2 W s1 s2 D sch sch' m n i q X X' Y Y' vs vs' no hm hs wf hi ne T B1 B2.
have hn : (0 < n)%N by apply: leq_trans hi.
pose Om := [finType of O1 * O2 * (F * F * F * F)]; pose N := (m + (n + 1))%N.
pose R (om : Om) : CRS E := @real_crs F A B C e (s1 om.1.1) (s2 om.1.2) om.2.1.1.1 om.2.1.1.2 om.2.1.2 om.2.2.
(* the tested difference *)
have key sch0 (om : Om) (x : W * nz F) (t : N.-tuple F) X0 Y0 : valid_sched sch0 -> size X0 = m -> size Y0 = n ->
  T x (R om) (seen public (quad_commit_and_prove (R := tape_rng) sch0 (q x.1 (R om)) X0 Y0 (R om) (tval t : seq F)))
  = ask_com2 (e := e) D x (R om) (k2 (E := E) (R om) (nth 0 Y0 i - nth 0 (Y x.1 (R om)) i) + nth 0 t (m + i)%N *: v1 (R om)).
  move=> vs0 ex ey; have [p [z hp]] : exists p z, quad_commit_and_prove (R := tape_rng) sch0 (q x.1 (R om)) X0 Y0 (R om) (tval t : seq F) = Ok (p, z).
    by apply: (proj2 (CapLemmas.quad_cap_total vs0 _ _ _ _ _)); rewrite ex ey /R real_crsE; split.
  rewrite hp; have [z1 [z2 [pf [hx hy _ _]]]] := (proj1 (CapLemmas.quad_cap_steps _ _ _ _ _ _ _ _)) hp; rewrite /T /seen /public /=; congr ask_com2.
  have [e1 hcx] := com_B1 hx; have [e2 hcy] := com_B2 hy.
  have := hcy i; rewrite ey e1 ex !tape_after !tape_drawn !nth_drop => /(_ hi) ; rewrite ?addnS => <-.
  by rewrite kB2 [RHS]addrC addrA subrK.
have nz0 w om : nth 0 (Y' w (R om)) i - nth 0 (Y w (R om)) i != 0 by rewrite subr_eq0 eq_sym; apply/eqP; apply: ne.
pose c (om : Om) : (O2 * F) * (O1 * F * F * F) := ((om.1.2, om.2.1.1.2), (om.1.1, om.2.1.1.1, om.2.1.2, om.2.2)).
pose c' (y : (O2 * F) * (O1 * F * F * F)) : Om := let: ((o2, a2), (o1, a1, t1, t2)) := y in ((o1, o2), (a1, a2, t1, t2)).
have cK : cancel c c' by move=> [[o1 o2] [[[a1 a2] t1] t2]].
have c'K : cancel c' c by move=> [[o2 a2] [[[o1 a1] t1] t2]].
have nO : (0 < #|[finType of O1 * F * F * F]|)%N by rewrite !card_prod !muln_gt0 no !(ltnW (@nzF_gt1 F)).
have hj : ((m + i)%N < N)%N by rewrite /N ltn_add2l ltn_addr ?ltn_pmul2l.
pose j := Ordinal hj; pose rho := fun (w : W) (om : Om) (t : N.-tuple F) => 0 : F; pose rho' := fun (w : W) (om : Om) (t : N.-tuple F) => (nth 0 (Y' w (@real_crs F A B C e (s1 om.1.1) (s2 om.1.2) om.2.1.1.1 om.2.1.1.2 om.2.1.2 om.2.2)) i - nth 0 (Y w (@real_crs F A B C e (s1 om.1.1) (s2 om.1.2) om.2.1.1.1 om.2.1.1.2 om.2.1.2 om.2.2)) i) * om.2.2.
have hr w om t d : rho w om (upd j t d) = rho w om t by [].
have hr' w om t d : rho' w om (upd j t d) = rho' w om t by [].
pose delta := fun (w : W) (om : Om) => nzof (nth 0 (Y' w (@real_crs F A B C e (s1 om.1.1) (s2 om.1.2) om.2.1.1.1 om.2.1.1.2 om.2.1.2 om.2.2)) i - nth 0 (Y w (@real_crs F A B C e (s1 om.1.1) (s2 om.1.2) om.2.1.1.1 om.2.1.1.2 om.2.1.2 om.2.2)) i).
rewrite -adv_shifted; congr `|_ - _|.
  rewrite -(@Pr_fst_eq _ (nz F) (fun x : (W * (O2 * F)) * F => shifted s2 D x.1 x.2 0)) ?nz_gt0 //.
  rewrite -(Pr_shift cK c'K nO delta hr (fun x z (_ : nz F) => shifted s2 D x z 0)).
  apply: eq_Pr => -[[[w k] t] om]; rewrite (_ : (let: (_, _) := _ in _) = B1 ((w, k), t) (R om)); last by move: om => [[o1 o2] [[[a1 a2] t1] t2]].
  have [hX hY _ _] := hs w (R om).
  rewrite /B1 /proof_test [_.1]/= [_.2]/= (key _ _ _ _ _ _ vs hX hY) subrr /ask_com2 /shifted /rho (tnth_nth 0).
  by rewrite /R real_crsE; apply: fin_sc0.
rewrite -(Pr_shift cK c'K nO delta hr' (fun x z (k : nz F) => shifted s2 D x z (val k))).
apply: eq_Pr => -[[[w k] t] om]; rewrite (_ : (let: (_, _) := _ in _) = B2 ((w, k), t) (R om)); last by move: om => [[o1 o2] [[[a1 a2] t1] t2]].
have [_ _ hX hY] := hs w (R om).
rewrite /B2 /proof_test [_.1]/= [_.2]/= (key _ _ _ _ _ _ vs' hX hY) /ask_com2 /shifted /rho' (tnth_nth 0).
rewrite /delta [val (nzmul _ _)]/=; have nd := nz0 w om; rewrite /R real_crsE in nd *; apply: fin_sc; exact/esym/nzofE.
Qed.
