(** The equations of Spec.v as instances of [gs_eq], and the maps between them. *)
From mathcomp Require Import all_ssreflect all_algebra.
From Verif Require Import Base BaseLemmas Group DataStructures MatLemmas CoreAlg ComLemmas.
From Verif Require Import Commit Statement Spec.
Set Implicit Arguments.
Unset Strict Implicit.
Unset Printing Implicit Defensive.
Import GRing.Theory.
Local Open Scope ring_scope.

Section GsMap.
Context {F : fieldType} {U V W U' V' W' : lmodType F}.
Variables (f : U -> V -> W) (f' : U' -> V' -> W').
Variables (i1 : U' -> U) (i2 : V' -> V) (iT : W' -> W).
Hypothesis hf : forall x y, f (i1 x) (i2 y) = iT (f' x y).
Hypothesis h2D : forall y y', i2 (y + y') = i2 y + i2 y'.
Hypothesis h2Z : forall k y, i2 (k *: y) = k *: i2 y.
Hypothesis hTD : forall z z', iT (z + z') = iT z + iT z'.

Lemma gs_map m n (G G' : nat -> nat -> F) A X B Y A' X' B' Y' :
  (forall k j, (k < m)%N -> (j < n)%N -> G k j = G' k j) ->
  (forall j, (j < n)%N -> A j = i1 (A' j)) -> (forall k, (k < m)%N -> X k = i1 (X' k)) ->
  (forall k, (k < m)%N -> B k = i2 (B' k)) -> (forall j, (j < n)%N -> Y j = i2 (Y' j)) ->
  gs_eq f m n G A X B Y = iT (gs_eq f' m n G' A' X' B' Y').
Proof.
have i20 : i2 0 = 0 by rewrite -(scale0r (0 : V')) h2Z scale0r.
have iT0 : iT 0 = 0 by apply: (addIr (iT 0)); rewrite -hTD !add0r.
have iTs I (r : seq I) g : iT (\sum_(i <- r) g i) = \sum_(i <- r) iT (g i).
  by apply: (big_morph iT).
have i2s I (r : seq I) g : i2 (\sum_(i <- r) g i) = \sum_(i <- r) i2 (g i).
  by apply: (big_morph i2).
move=> hG hA hX hB hY; rewrite /gs_eq !hTD !iTs; congr (_ + _ + _);
  apply: eq_big_nat => k /andP[_ hk].
- by rewrite hA // hY // hf.
- by rewrite hX // hB // hf.
rewrite hX // -hf i2s; congr (f _ _); apply: eq_big_nat => j /andP[_ hj].
by rewrite h2Z hG // hY.
Qed.
End GsMap.

Section Vals.
Context {E : pairing}.

Definition f1 (x : G1 E) (y : (Fr E)^o) : G1 E := y *: x.
Definition f2 (x : (Fr E)^o) (y : G2 E) : G2 E := x *: y.
Definition fq (x y : (Fr E)^o) : (Fr E)^o := x * y.

Lemma f1_bilin : bilin f1.
Proof.
split=> *; rewrite /f1 ?scalerDr ?scalerDl //; first by rewrite !scalerA mulrC.
by rewrite -scalerA.
Qed.
Lemma f2_bilin : bilin f2.
Proof.
split=> *; rewrite /f2 ?scalerDr ?scalerDl //; first by rewrite -scalerA.
by rewrite !scalerA mulrC.
Qed.
Lemma fq_bilin : bilin fq.
Proof.
split=> *; rewrite /fq ?mulrDr ?mulrDl //; first by rewrite -scalerAl.
by rewrite -scalerAr.
Qed.

Lemma entryE (G : matrix (Fr E)) i j : entry G i j = ent 0 G i j.
Proof. by []. Qed.

Definition ppe_val (q : PPE E) X Y : GT E :=
  gs_eq (@pair_e E) (size X) (size Y) (ent 0 (ppe_gamma q)) (nth 0 (ppe_a q)) (nth 0 X)
    (nth 0 (ppe_b q)) (nth 0 Y).
Definition ms1_val (q : MSMEG1 E) (X : seq (G1 E)) (Y : seq (Fr E)) : G1 E :=
  gs_eq f1 (size X) (size Y) (ent 0 (ms1_gamma q)) (nth 0 (ms1_a q)) (nth 0 X)
    (nth 0 (ms1_b q)) (nth 0 Y).
Definition ms2_val (q : MSMEG2 E) (X : seq (Fr E)) (Y : seq (G2 E)) : G2 E :=
  gs_eq f2 (size X) (size Y) (ent 0 (ms2_gamma q)) (nth 0 (ms2_a q)) (nth 0 X)
    (nth 0 (ms2_b q)) (nth 0 Y).
Definition quad_val (q : QuadEqu E) (X Y : seq (Fr E)) : Fr E :=
  gs_eq fq (size X) (size Y) (ent 0 (quad_gamma q)) (nth 0 (quad_a q)) (nth 0 X)
    (nth 0 (quad_b q)) (nth 0 Y).

Lemma ppe_holdsE q X Y : bilinear E -> ppe_holds q X Y <-> ppe_val q X Y = ppe_target q.
Proof.
move=> /pair_bilin hb; rewrite /ppe_holds /ppe_val /gs_eq !big_mkord.
suff -> : \sum_(i < size X) \sum_(j < size Y) entry (ppe_gamma q) i j *: pair_e (nth 0 X i) (nth 0 Y j)
 = \sum_(i < size X) pair_e (nth 0 X i) (\sum_(0 <= j < size Y) ent 0 (ppe_gamma q) i j *: nth 0 Y j) by [].
apply: eq_bigr => i _; rewrite (bil_sumr hb) big_mkord; apply: eq_bigr => j _.
by rewrite (bilZr hb).
Qed.

Lemma ms1_holdsE q X Y : ms1_holds q X Y <-> ms1_val q X Y = ms1_target q.
Proof.
rewrite /ms1_holds /ms1_val /gs_eq !big_mkord.
suff -> : \sum_(i < size X) \sum_(j < size Y) (entry (ms1_gamma q) i j * nth 0 Y j) *: nth 0 X i
 = \sum_(i < size X) f1 (nth 0 X i) (\sum_(0 <= j < size Y) ent 0 (ms1_gamma q) i j *: (nth 0 Y j : (Fr E)^o)) by [].
apply: eq_bigr => i _; rewrite (bil_sumr f1_bilin) big_mkord; apply: eq_bigr => j _.
by rewrite /f1.
Qed.

Lemma ms2_holdsE q X Y : ms2_holds q X Y <-> ms2_val q X Y = ms2_target q.
Proof.
rewrite /ms2_holds /ms2_val /gs_eq !big_mkord.
suff -> : \sum_(i < size X) \sum_(j < size Y) (entry (ms2_gamma q) i j * nth 0 X i) *: nth 0 Y j
 = \sum_(i < size X) f2 (nth 0 X i) (\sum_(0 <= j < size Y) ent 0 (ms2_gamma q) i j *: nth 0 Y j) by [].
apply: eq_bigr => i _; rewrite (bil_sumr f2_bilin) big_mkord; apply: eq_bigr => j _.
by rewrite /f2 scalerA mulrC.
Qed.

Lemma quad_holdsE q X Y : quad_holds q X Y <-> quad_val q X Y = quad_target q.
Proof.
rewrite /quad_holds /quad_val /gs_eq !big_mkord.
suff -> : \sum_(i < size X) \sum_(j < size Y) entry (quad_gamma q) i j * nth 0 X i * nth 0 Y j
 = \sum_(i < size X) fq (nth 0 X i) (\sum_(0 <= j < size Y) ent 0 (quad_gamma q) i j *: (nth 0 Y j : (Fr E)^o)) by [].
apply: eq_bigr => i _; rewrite (bil_sumr fq_bilin) big_mkord; apply: eq_bigr => j _.
by rewrite /fq -[_ *: _]/(_ * _) mulrCA mulrA.
Qed.

(** The maps into the commitment groups. *)
Implicit Types crs : CRS E.
Notation f := (comT_pairing : Com1 E -> Com2 E -> ComT E).
Hypothesis hb : bilinear E.
Let fb := comT_pairing_bilin hb.
Let eb := pair_bilin hb.

Lemma nth_lin1 (X : seq (G1 E)) i : nth 0 (com1_batch_linear_map X) i = com1_linear_map (nth 0 X i).
Proof.
case: (ltnP i (size X)) => h; first by rewrite (nth_map 0).
by rewrite !nth_default // size_map.
Qed.
Lemma nth_lin2 (X : seq (G2 E)) i : nth 0 (com2_batch_linear_map X) i = com2_linear_map (nth 0 X i).
Proof.
case: (ltnP i (size X)) => h; first by rewrite (nth_map 0).
by rewrite !nth_default // size_map.
Qed.
Lemma nth_s1 crs X i : nth 0 [seq s1map crs x | x <- X] i = s1map crs (nth 0 X i).
Proof.
case: (ltnP i (size X)) => h; first by rewrite (nth_map 0).
by rewrite [LHS]nth_default ?size_map // [nth 0 X i]nth_default // /s1map scale0r.
Qed.
Lemma nth_s2 crs X i : nth 0 [seq s2map crs x | x <- X] i = s2map crs (nth 0 X i).
Proof.
case: (ltnP i (size X)) => h; first by rewrite (nth_map 0).
by rewrite [LHS]nth_default ?size_map // [nth 0 X i]nth_default // /s2map scale0r.
Qed.

Lemma lin1D x y : com1_linear_map (x + y) = com1_linear_map x + com1_linear_map y :> Com1 E.
Proof. by rewrite /com1_linear_map -[RHS]/(_, _) /= addr0. Qed.
Lemma lin2D x y : com2_linear_map (x + y) = com2_linear_map x + com2_linear_map y :> Com2 E.
Proof. by rewrite /com2_linear_map -[RHS]/(_, _) /= addr0. Qed.
Lemma lin1Z k x : com1_linear_map (k *: x) = k *: com1_linear_map x :> Com1 E.
Proof. by rewrite /com1_linear_map -[RHS]/(_, _) /= scaler0. Qed.
Lemma lin2Z k x : com2_linear_map (k *: x) = k *: com2_linear_map x :> Com2 E.
Proof. by rewrite /com2_linear_map -[RHS]/(_, _) /= scaler0. Qed.
Lemma s1D crs x y : s1map crs (x + y) = s1map crs x + s1map crs y.
Proof. exact: scalerDl. Qed.
Lemma s2D crs x y : s2map crs (x + y) = s2map crs x + s2map crs y.
Proof. exact: scalerDl. Qed.
Lemma s1Z crs k x : s1map crs (k * x) = k *: s1map crs x.
Proof. by rewrite /s1map -scalerA. Qed.
Lemma s2Z crs k x : s2map crs (k * x) = k *: s2map crs x.
Proof. by rewrite /s2map -scalerA. Qed.

Lemma lin_lin x y : f (com1_linear_map x) (com2_linear_map y) = linear_map_PPE (pair_e x y).
Proof. by rewrite /comT_pairing /= (bil0l eb) (bil0l eb) (bil0r eb). Qed.
Lemma lin_s2 crs x y : f (com1_linear_map x) (s2map crs y) = f (com1_linear_map (y *: x)) (s2map crs 1).
Proof. by rewrite /s2map (bilZr fb) scale1r lin1Z (bilZl fb). Qed.
Lemma s1_lin crs x y : f (s1map crs x) (com2_linear_map y) = f (s1map crs 1) (com2_linear_map (x *: y)).
Proof. by rewrite /s1map (bilZl fb) scale1r lin2Z (bilZr fb). Qed.
Lemma s1_s2 crs x y : f (s1map crs x) (s2map crs y) = f (s1map crs 1) ((x * y) *: s2map crs 1).
Proof. by rewrite /s1map /s2map !(bilZl fb) !(bilZr fb) !scale1r scalerA. Qed.

Lemma lmPPE_D (z z' : GT E) : linear_map_PPE (z + z') = linear_map_PPE z + linear_map_PPE z' :> ComT E.
Proof. by apply: comT_ext; rewrite //= addr0. Qed.

Lemma ppe_lin q X Y :
  gs_eq f (size X) (size Y) (ent 0 (ppe_gamma q))
    (nth 0 (com1_batch_linear_map (ppe_a q))) (nth 0 (com1_batch_linear_map X))
    (nth 0 (com2_batch_linear_map (ppe_b q))) (nth 0 (com2_batch_linear_map Y))
  = linear_map_PPE (ppe_val q X Y).
Proof.
apply: (gs_map lin_lin lin2D lin2Z lmPPE_D) => // *; by rewrite ?nth_lin1 ?nth_lin2.
Qed.

Lemma ms1_lin crs q X Y :
  gs_eq f (size X) (size Y) (ent 0 (ms1_gamma q))
    (nth 0 (com1_batch_linear_map (ms1_a q))) (nth 0 (com1_batch_linear_map X))
    (nth 0 [seq s2map crs y | y <- ms1_b q]) (nth 0 [seq s2map crs y | y <- Y])
  = f (com1_linear_map (ms1_val q X Y)) (s2map crs 1).
Proof.
apply: (gs_map (f' := f1) (i2 := s2map crs) (iT := fun z => f (com1_linear_map z) (s2map crs 1))) => //.
- exact: lin_s2.
- exact: s2D.
- exact: s2Z.
- by move=> z z'; rewrite lin1D (bilDl fb).
- by move=> *; rewrite nth_lin1.
- by move=> *; rewrite nth_lin1.
- by move=> *; rewrite nth_s2.
- by move=> *; rewrite nth_s2.
Qed.

Lemma ms2_lin crs q X Y :
  gs_eq f (size X) (size Y) (ent 0 (ms2_gamma q))
    (nth 0 [seq s1map crs y | y <- ms2_a q]) (nth 0 [seq s1map crs y | y <- X])
    (nth 0 (com2_batch_linear_map (ms2_b q))) (nth 0 (com2_batch_linear_map Y))
  = f (s1map crs 1) (com2_linear_map (ms2_val q X Y)).
Proof.
apply: (gs_map (f' := f2) (i1 := s1map crs) (iT := fun z => f (s1map crs 1) (com2_linear_map z))) => //.
- exact: s1_lin.
- exact: lin2D.
- exact: lin2Z.
- by move=> z z'; rewrite lin2D (bilDr fb).
- by move=> *; rewrite nth_s1.
- by move=> *; rewrite nth_s1.
- by move=> *; rewrite nth_lin2.
- by move=> *; rewrite nth_lin2.
Qed.

Lemma quad_lin crs q X Y :
  gs_eq f (size X) (size Y) (ent 0 (quad_gamma q))
    (nth 0 [seq s1map crs y | y <- quad_a q]) (nth 0 [seq s1map crs y | y <- X])
    (nth 0 [seq s2map crs y | y <- quad_b q]) (nth 0 [seq s2map crs y | y <- Y])
  = f (s1map crs 1) (quad_val q X Y *: s2map crs 1).
Proof.
apply: (gs_map (f' := fq) (i1 := s1map crs) (i2 := s2map crs)
          (iT := fun z => f (s1map crs 1) (z *: s2map crs 1))) => //.
- exact: s1_s2.
- exact: s2D.
- exact: s2Z.
- by move=> z z'; rewrite scalerDl (bilDr fb).
- by move=> *; rewrite nth_s1.
- by move=> *; rewrite nth_s1.
- by move=> *; rewrite nth_s2.
- by move=> *; rewrite nth_s2.
Qed.
End Vals.
