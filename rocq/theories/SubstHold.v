(** An equation about combinations holds exactly if the substituted equation does. *)
From mathcomp Require Import all_ssreflect all_algebra.
From Verif Require Import Base Group DataStructures CoreAlg Commit Statement Spec SpecSubst SubstProps.
Set Implicit Arguments.
Unset Strict Implicit.
Unset Printing Implicit Defensive.
Import GRing.Theory.
Local Open Scope ring_scope.

Section Gen.
Variables (F : fieldType) (U V W : lmodType F) (f : U -> V -> W).
Hypothesis fb : bilin f.

Lemma moveG m m' (la : nat -> nat -> F) (c : nat -> U) (d : nat -> V) :
  \sum_(i < m) f (\sum_(h < m') la i h *: c h) (d i) = \sum_(h < m') f (c h) (\sum_(i < m) la i h *: d i).
Proof.
under eq_bigr => i _ do rewrite (bil_suml fb).
under [RHS]eq_bigr => h _ do rewrite (bil_sumr fb).
by rewrite exchange_big; apply: eq_bigr => h _; apply: eq_bigr => i _; rewrite (bilZl fb) (bilZr fb).
Qed.

Definition side m n (a : nat -> U) (b : nat -> V) (g : nat -> nat -> F) (x : nat -> U) (y : nat -> V) : W :=
  \sum_(j < n) f (a j) (y j) + \sum_(i < m) f (x i) (b i) + \sum_(i < m) \sum_(j < n) g i j *: f (x i) (y j).

Lemma side_ext m n a a2 b b2 g g2 x x2 y y2 :
  (forall j, (j < n)%N -> a j = a2 j) -> (forall i, (i < m)%N -> b i = b2 i) -> (forall i j, (i < m)%N -> (j < n)%N -> g i j = g2 i j) ->
  (forall i, (i < m)%N -> x i = x2 i) -> (forall j, (j < n)%N -> y j = y2 j) -> side m n a b g x y = side m n a2 b2 g2 x2 y2.
Proof.
move=> ha hb hg hx hy; congr (_ + _ + _).
- by apply: eq_bigr => j _; rewrite ha // hy.
- by apply: eq_bigr => i _; rewrite hb // hx.
- by apply: eq_bigr => i _; apply: eq_bigr => j _; rewrite hg // hx // hy.
Qed.

Lemma side_subst m n m' n' a b g (x : nat -> U) (y : nat -> V) (la ka : nat -> nat -> F) :
  side m n a b g (fun i => \sum_(h < m') la i h *: x h) (fun j => \sum_(k < n') ka j k *: y k)
  = side m' n' (fun k => \sum_(j < n) ka j k *: a j) (fun h => \sum_(i < m) la i h *: b i)
      (fun h k => \sum_(i < m) \sum_(j < n) la i h * g i j * ka j k) x y.
Proof.
congr (_ + _ + _).
- by rewrite (moveG n' n (fun k j => ka j k)).
- exact: moveG.
under eq_bigr => i _.
  under eq_bigr => j _ do rewrite -(bilZr fb).
  rewrite -(bil_sumr fb) (mv n n' (g i) ka y); over.
rewrite (moveG m m' la x (fun i => \sum_(k < n') (\sum_(j < n) g i j * ka j k) *: y k)); apply: eq_bigr => h _.
rewrite (mv m n' (fun i => la i h) (fun i k => \sum_(j < n) g i j * ka j k) y) (bil_sumr fb); apply: eq_bigr => k _.
rewrite (bilZr fb); congr (_ *: _); apply: eq_bigr => i _; rewrite mulr_sumr; apply: eq_bigr => j _; exact: mulrA.
Qed.
End Gen.

Section Holds.
Variable E : pairing.
Implicit Types (L K : matrix (Fr E)).
Notation Fo := [lmodType Fr E of (Fr E)^o].

Lemma entry_subst m n m' n' L K (G : matrix (Fr E)) h k : (h < m')%N -> (k < n')%N ->
  entry (subst_gamma m n m' n' L K G) h k = \sum_(i < m) \sum_(j < n) entry L i h * entry G i j * entry K j k.
Proof. exact: at_subst. Qed.

(* the four types *)
Lemma ms1_bil : bilin (U := G1 E) (V := Fo) (W := G1 E) (fun (x : G1 E) (y : Fr E) => y *: x).
Proof. by split=> *; rewrite ?scalerDr ?scalerDl ?scalerA //= mulrC. Qed.
Lemma ms2_bil : bilin (U := Fo) (V := G2 E) (W := G2 E) (fun (x : Fr E) (y : G2 E) => x *: y).
Proof. by split=> *; rewrite ?scalerDr ?scalerDl ?scalerA //= mulrC. Qed.
Lemma quad_bil : bilin (U := Fo) (V := Fo) (W := Fo) (fun x y : Fr E => x * y).
Proof. by split=> [x x' y|x y y'|k x y|k x y]; [exact: mulrDl | exact: mulrDr | exact/esym/mulrA | exact: mulrCA]. Qed.

Lemma ppe_side (q : PPE E) (X : seq (G1 E)) (Y : seq (G2 E)) :
  ppe_holds q X Y <-> side (U := G1 E) (V := G2 E) (W := GT E) (@pair_e E) (size X) (size Y) (nth 0 (ppe_a q)) (nth 0 (ppe_b q)) (entry (ppe_gamma q)) (nth 0 X) (nth 0 Y) = ppe_target q.
Proof.
rewrite /ppe_holds /side; set s3 := (X in _ + X = _ <-> _); set t3 := (X in _ <-> _ + X = _).
suff -> : s3 = t3 by [].
by apply: eq_bigr => i _; apply: eq_bigr => j _; by [].
Qed.

Lemma k_C62_ppe_subst (q : PPE E) m n L K (X : seq (G1 E)) (Y : seq (G2 E)) : bilinear E -> ppe_wf q m n ->
  ppe_wf (subst_ppe (size X) (size Y) L K q) (size X) (size Y) /\
  (ppe_holds q (comb m L X) (comb n K Y) <-> ppe_holds (subst_ppe (size X) (size Y) L K q) X Y).
Proof.
move=> hb [ea eb eg]; split; first by split; rewrite ?size_mkseq //; exact: dims_subst.
rewrite !ppe_side !size_mkseq; set l := side _ _ _ _ _ _ _ _; set r := side _ _ _ _ _ _ _ _.
suff -> : l = r by [].
transitivity (side (U := G1 E) (V := G2 E) (W := GT E) (@pair_e E) m n (nth 0 (ppe_a q)) (nth 0 (ppe_b q)) (entry (ppe_gamma q))
  (fun i => \sum_(h < size X) entry L i h *: (nth 0 X h : G1 E)) (fun j => \sum_(k < size Y) entry K j k *: (nth 0 Y k : G2 E))).
  by apply: side_ext => // i hi; rewrite nth_mkseq.
rewrite (side_subst hb); apply: side_ext => //.
- by move=> k hk; rewrite /subst_ppe /= nth_mkseq // ea.
- by move=> h hh; rewrite /subst_ppe /= nth_mkseq // eb.
- by move=> h k hh hk; rewrite entry_subst // ea eb.
Qed.

Lemma ms1_side (q : MSMEG1 E) (X : seq (G1 E)) (Y : seq (Fr E)) :
  ms1_holds q X Y <-> side (U := G1 E) (V := Fo) (W := G1 E) (fun (x : G1 E) (y : Fr E) => y *: x) (size X) (size Y) (nth 0 (ms1_a q)) (nth 0 (ms1_b q)) (entry (ms1_gamma q)) (nth 0 X) (nth 0 Y) = ms1_target q.
Proof.
rewrite /ms1_holds /side; set s3 := (X in _ + X = _ <-> _); set t3 := (X in _ <-> _ + X = _).
suff -> : s3 = t3 by [].
by apply: eq_bigr => i _; apply: eq_bigr => j _; by rewrite scalerA.
Qed.

Lemma k_C62_ms1_subst (q : MSMEG1 E) m n L K (X : seq (G1 E)) (Y : seq (Fr E)) : ms1_wf q m n ->
  ms1_wf (subst_ms1 (size X) (size Y) L K q) (size X) (size Y) /\
  (ms1_holds q (comb m L X) (combs n K Y) <-> ms1_holds (subst_ms1 (size X) (size Y) L K q) X Y).
Proof.
move=> [ea eb eg]; split; first by split; rewrite ?size_mkseq //; exact: dims_subst.
rewrite !ms1_side !size_mkseq; set l := side _ _ _ _ _ _ _ _; set r := side _ _ _ _ _ _ _ _.
suff -> : l = r by [].
transitivity (side (U := G1 E) (V := Fo) (W := G1 E) (fun (x : G1 E) (y : Fr E) => y *: x) m n (nth 0 (ms1_a q)) (nth 0 (ms1_b q)) (entry (ms1_gamma q))
  (fun i => \sum_(h < size X) entry L i h *: (nth 0 X h : G1 E)) (fun j => \sum_(k < size Y) entry K j k *: (nth 0 Y k : Fo))).
  by apply: side_ext => // i hi; rewrite nth_mkseq.
rewrite (side_subst ms1_bil); apply: side_ext => //.
- by move=> k hk; rewrite /subst_ms1 /= nth_mkseq // ea.
- by move=> h hh; rewrite /subst_ms1 /= nth_mkseq // eb.
- by move=> h k hh hk; rewrite entry_subst // ea eb.
Qed.

Lemma ms2_side (q : MSMEG2 E) (X : seq (Fr E)) (Y : seq (G2 E)) :
  ms2_holds q X Y <-> side (U := Fo) (V := G2 E) (W := G2 E) (fun (x : Fr E) (y : G2 E) => x *: y) (size X) (size Y) (nth 0 (ms2_a q)) (nth 0 (ms2_b q)) (entry (ms2_gamma q)) (nth 0 X) (nth 0 Y) = ms2_target q.
Proof.
rewrite /ms2_holds /side; set s3 := (X in _ + X = _ <-> _); set t3 := (X in _ <-> _ + X = _).
suff -> : s3 = t3 by [].
by apply: eq_bigr => i _; apply: eq_bigr => j _; by rewrite scalerA.
Qed.

Lemma k_C62_ms2_subst (q : MSMEG2 E) m n L K (X : seq (Fr E)) (Y : seq (G2 E)) : ms2_wf q m n ->
  ms2_wf (subst_ms2 (size X) (size Y) L K q) (size X) (size Y) /\
  (ms2_holds q (combs m L X) (comb n K Y) <-> ms2_holds (subst_ms2 (size X) (size Y) L K q) X Y).
Proof.
move=> [ea eb eg]; split; first by split; rewrite ?size_mkseq //; exact: dims_subst.
rewrite !ms2_side !size_mkseq; set l := side _ _ _ _ _ _ _ _; set r := side _ _ _ _ _ _ _ _.
suff -> : l = r by [].
transitivity (side (U := Fo) (V := G2 E) (W := G2 E) (fun (x : Fr E) (y : G2 E) => x *: y) m n (nth 0 (ms2_a q)) (nth 0 (ms2_b q)) (entry (ms2_gamma q))
  (fun i => \sum_(h < size X) entry L i h *: (nth 0 X h : Fo)) (fun j => \sum_(k < size Y) entry K j k *: (nth 0 Y k : G2 E))).
  by apply: side_ext => // i hi; rewrite nth_mkseq.
rewrite (side_subst ms2_bil); apply: side_ext => //.
- by move=> k hk; rewrite /subst_ms2 /= nth_mkseq // ea.
- by move=> h hh; rewrite /subst_ms2 /= nth_mkseq // eb.
- by move=> h k hh hk; rewrite entry_subst // ea eb.
Qed.

Lemma quad_side (q : QuadEqu E) (X : seq (Fr E)) (Y : seq (Fr E)) :
  quad_holds q X Y <-> side (U := Fo) (V := Fo) (W := Fo) (fun x y : Fr E => x * y) (size X) (size Y) (nth 0 (quad_a q)) (nth 0 (quad_b q)) (entry (quad_gamma q)) (nth 0 X) (nth 0 Y) = quad_target q.
Proof.
rewrite /quad_holds /side; set s3 := (X in _ + X = _ <-> _); set t3 := (X in _ <-> _ + X = _).
suff -> : s3 = t3 by [].
by apply: eq_bigr => i _; apply: eq_bigr => j _; by rewrite /GRing.scale /= mulrA.
Qed.

Lemma k_C62_quad_subst (q : QuadEqu E) m n L K (X : seq (Fr E)) (Y : seq (Fr E)) : quad_wf q m n ->
  quad_wf (subst_quad (size X) (size Y) L K q) (size X) (size Y) /\
  (quad_holds q (combs m L X) (combs n K Y) <-> quad_holds (subst_quad (size X) (size Y) L K q) X Y).
Proof.
move=> [ea eb eg]; split; first by split; rewrite ?size_mkseq //; exact: dims_subst.
rewrite !quad_side !size_mkseq; set l := side _ _ _ _ _ _ _ _; set r := side _ _ _ _ _ _ _ _.
suff -> : l = r by [].
transitivity (side (U := Fo) (V := Fo) (W := Fo) (fun x y : Fr E => x * y) m n (nth 0 (quad_a q)) (nth 0 (quad_b q)) (entry (quad_gamma q))
  (fun i => \sum_(h < size X) entry L i h *: (nth 0 X h : Fo)) (fun j => \sum_(k < size Y) entry K j k *: (nth 0 Y k : Fo))).
  by apply: side_ext => // i hi; rewrite nth_mkseq.
rewrite (side_subst quad_bil); apply: side_ext => //.
- by move=> k hk; rewrite /subst_quad /= nth_mkseq // ea.
- by move=> h hh; rewrite /subst_quad /= nth_mkseq // eb.
- by move=> h k hh hk; rewrite entry_subst // ea eb.
Qed.

End Holds.
