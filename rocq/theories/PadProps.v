(** Equations of each type about a longer list of variables. *)
From mathcomp Require Import all_ssreflect all_algebra.
From Verif Require Import Base BaseLemmas Group DataStructures MatLemmas CoreAlg ComLemmas.
From Verif Require Import Commit Statement Prove Verify Spec SpecMat SpecVerify SpecPanic SpecFormula SpecPad.
From Verif Require Import ProveLemmas CommitLemmas Complete Draws Main FormulaProps PadLemmas.
Set Implicit Arguments.
Unset Strict Implicit.
Unset Printing Implicit Defensive.
Import GRing.Theory.
Local Open Scope ring_scope.

Lemma renames_pos m m' f : renames m m' f -> (0 < m)%N -> (0 < m')%N.
Proof. by move=> [h _] /h /(leq_ltn_trans (leq0n _)). Qed.

Section Aux.
Context {E : pairing}.
Lemma gamma_ok (G : matrix (Fr E)) m n : (0 < m)%N -> (0 < n)%N -> dims m n G ->
  gamma_checks G m n = [:: asserts true; reads true; asserts true].
Proof.
move=> hm hn [hs hr]; rewrite /gamma_checks.
have hw : width G = n by case: G hs hr => [|r G] /= hs hr; [rewrite -hs in hm | exact: (hr 0%N hm)].
have hv : wide n G by apply/(all_nthP [::]) => i hi; rewrite -/(mrow G i) hr -?hs.
by rewrite /void hs hw hv (gtn_eqF hm) (gtn_eqF hn) /= !eqxx.
Qed.
Lemma i10 : i1 0 = 0 :> Com1 E. Proof. by []. Qed.
Lemma i20 : i2 0 = 0 :> Com2 E. Proof. by []. Qed.
Lemma k10 (crs : CRS E) : k1 crs 0 = 0. Proof. exact: scale0r. Qed.
Lemma k20 (crs : CRS E) : k2 crs 0 = 0. Proof. exact: scale0r. Qed.
Lemma rows_placed m f (R R' : matrix (Fr E)) : placed [::] m f R R' -> placed_rows m f R R'.
Proof. by move=> h i k hi; rewrite /at_ /mrow h. Qed.
Lemma checked_val A (cs : seq check) (a : A) : isok (checked cs a) -> checked cs a = Ok a.
Proof. by rewrite /checked; case: first_failed. Qed.
End Aux.

Lemma ppe_holds_pad : forall (E : pairing) (m n m' n' : nat) (f g : nat -> nat) (q q' : PPE E) (X X' : seq (G1 E)) (Y Y' : seq (G2 E)),
  bilinear E -> renames m m' f -> renames n n' g -> ppe_padded m n f g q q' ->
  size X = m -> size Y = n -> size X' = m' -> size Y' = n' -> placed 0 m f X X' -> placed 0 n g Y Y' ->
  (ppe_holds q' X' Y' <-> ppe_holds q X Y).
Proof.
move=> E m n m' n' f g q q' X X' Y Y' hb hf hg [[hA zA] [hB zB] [hG zG] ht] s1 s2 s3 s4 hX hY.
have pe0l y : pair_e (0 : G1 E) y = 0 by exact: (bil0l hb).
have pe0r x : pair_e x (0 : G2 E) = 0 by exact: (bil0r hb).
rewrite /ppe_holds s1 s2 s3 s4 ht.
rewrite (sum_pad hg (h := fun j => pair_e (nth 0 (ppe_a q') j) (nth 0 Y' j))) => [|k /zA ->]; last by rewrite pe0l.
rewrite (sum_pad hf (h := fun i => pair_e (nth 0 X' i) (nth 0 (ppe_b q') i))) => [|k /zB ->]; last by rewrite pe0r.
rewrite (sum_pad hf (h := fun i => \sum_(j < n') entry (ppe_gamma q') i j *: pair_e (nth 0 X' i) (nth 0 Y' j))) => [|k hk]; last first.
  rewrite big1 // => j _; rewrite zG ?scale0r //; by left.
under eq_bigr do rewrite hA // hY //.
under [X in _ + X + _]eq_bigr do rewrite hB // hX //.
rewrite [X in _ + X](_ : _ = \sum_(i < m) \sum_(j < n) entry (ppe_gamma q) i j *: pair_e (nth 0 X i) (nth 0 Y j)) //.
apply: eq_bigr => i _; rewrite (sum_pad hg (h := fun j => entry (ppe_gamma q') (f i) j *: pair_e (nth 0 X' (f i)) (nth 0 Y' j))) => [|k hk]; last first.
  by rewrite zG ?scale0r //; right.
by apply: eq_bigr => j _; rewrite hG // hX // hY.
Qed.
Lemma ppe_verify_pad : forall (E : pairing) (sch : sched) (m n m' n' : nat) (f g : nat -> nat) (q q' : PPE E) (p p' : CProof E) (crs : CRS E),
  bilinear E -> valid_sched sch -> (0 < m)%N -> (0 < n)%N -> renames m m' f -> renames n n' g ->
  ppe_wf q m n -> ppe_wf q' m' n' -> ppe_padded m n f g q q' ->
  size (coms (xcoms p)) = m -> size (coms (ycoms p)) = n -> size (coms (xcoms p')) = m' -> size (coms (ycoms p')) = n' ->
  placed_proof m n f g p p' ->
  ppe_verify sch q' p' crs = ppe_verify sch q p crs.
Proof.
move=> E sch m n m' n' f g q q' p p' crs hb vs hm hn hf hg [h1 h2 h3] [h1' h2' h3'] [hA hB hG ht] s1 s2 s3 s4 hp.
have hm' := renames_pos hf hm; have hn' := renames_pos hg hn.
rewrite !ppe_verify_total //; have [_ _ ->] := hp; case: (equ_proofs p) => [|pf [|//]] //.
have -> : ppe_verify_checks q' (size (coms (xcoms p'))) (size (coms (ycoms p'))) pf crs
  = ppe_verify_checks q (size (coms (xcoms p))) (size (coms (ycoms p))) pf crs.
  by rewrite /ppe_verify_checks !gamma_ok ?s1 ?s2 ?s3 ?s4 // h1 h2 h1' h2' !eqxx  //.
congr checked; rewrite ht.
apply: (verify_pad _ _ _ _ _ hb hf hg s1 s2 s3 s4 hp _ _ hG).
- by apply: pad_map => //; exact: i10.
by apply: pad_map => //; exact: i20.
Qed.
Lemma ppe_prove_pad : forall (E : pairing) (R : rng E) (sch sch' : sched) (m n m' n' : nat) (f g : nat -> nat) (q q' : PPE E)
  (X X' : seq (G1 E)) (Y Y' : seq (G2 E)) (cx cx' : Commit1 E) (cy cy' : Commit2 E) (crs : CRS E) (s : rst R),
  valid_sched sch -> valid_sched sch' -> two_keys crs -> (0 < m)%N -> (0 < n)%N -> renames m m' f -> renames n n' g ->
  ppe_wf q m n -> ppe_wf q' m' n' -> ppe_padded m n f g q q' ->
  size X = m -> size Y = n -> size X' = m' -> size Y' = n' -> placed 0 m f X X' -> placed 0 n g Y Y' ->
  dims m 2 (crand cx) -> dims n 2 (crand cy) -> dims m' 2 (crand cx') -> dims n' 2 (crand cy') ->
  placed [::] m f (crand cx) (crand cx') -> placed [::] n g (crand cy) (crand cy') ->
  ppe_prove sch' q' X' Y' cx' cy' crs s = ppe_prove sch q X Y cx cy crs s.
Proof.
move=> E R sch sch' m n m' n' f g q q' X X' Y Y' cx cx' cy cy' crs s vs vs' hk hm hn hf hg wq wq' [hA hB hG ht] s1 s2 s3 s4 hX hY d1 d2 d3 d4 hR hS.
have hm' := renames_pos hf hm; have hn' := renames_pos hg hn.
have ok (sch0 : sched) (q0 : PPE E) (X0 : seq (G1 E)) (Y0 : seq (G2 E)) (c0 : Commit1 E) (c1 : Commit2 E) : valid_sched sch0 ->
  (0 < size X0)%N -> (0 < size Y0)%N -> ppe_wf q0 (size X0) (size Y0) -> dims (size X0) 2 (crand c0) -> dims (size Y0) 2 (crand c1) ->
  isok (ppe_prove sch0 q0 X0 Y0 c0 c1 crs s).
  move=> v0 p1 p2 [e1 e2 e3] /dims_rect e4 /dims_rect e5; rewrite (isok_ppe_prove v0); case: hk => -> ->; rewrite ?eqxx ?andbT; exact: prove_shapeI.
have := ok sch' q' X' Y' cx' cy' vs'; rewrite s3 s4 => /(_ hm' hn' wq' d3 d4).
have := ok sch q X Y cx cy vs; rewrite s1 s2 => /(_ hm hn wq d1 d2).
rewrite (FormulaProps.ppe_prove_total _ _ _ _ _ _ _ vs) (FormulaProps.ppe_prove_total _ _ _ _ _ _ _ vs').
move=> h1 h2; rewrite (checked_val h1) (checked_val h2); congr (Ok (_, _)); rewrite s1 s2 s3 s4.
case: wq => w1 w2 w3; apply: (prove_pad _ _ _ _ _ hf hg) => //.
- by apply: place_map => //; exact: i10.
- by apply: place_map => //; exact: i20.
- exact: rows_placed.
- exact: rows_placed.
- by apply: pad_map => //; exact: i10.
by apply: pad_map => //; exact: i20.
Qed.

Lemma ms1_holds_pad : forall (E : pairing) (m n m' n' : nat) (f g : nat -> nat) (q q' : MSMEG1 E) (X X' : seq (G1 E)) (Y Y' : seq (Fr E)),
  renames m m' f -> renames n n' g -> ms1_padded m n f g q q' ->
  size X = m -> size Y = n -> size X' = m' -> size Y' = n' -> placed 0 m f X X' -> placed 0 n g Y Y' ->
  (ms1_holds q' X' Y' <-> ms1_holds q X Y).
Proof.
move=> E m n m' n' f g q q' X X' Y Y' hf hg [[hA zA] [hB zB] [hG zG] ht] s1 s2 s3 s4 hX hY.

rewrite /ms1_holds s1 s2 s3 s4 ht.
rewrite (sum_pad hg (h := fun j => nth 0 Y' j *: nth 0 (ms1_a q') j)) => [|k /zA ->]; last by rewrite scaler0.
rewrite (sum_pad hf (h := fun i => nth 0 (ms1_b q') i *: nth 0 X' i)) => [|k /zB ->]; last by rewrite scale0r.
rewrite (sum_pad hf (h := fun i => \sum_(j < n') (entry (ms1_gamma q') i j * nth 0 Y' j) *: nth 0 X' i)) => [|k hk]; last first.
  rewrite big1 // => j _; rewrite zG ?mul0r ?scale0r //; by left.
under eq_bigr do rewrite hA // hY //.
under [X in _ + X + _]eq_bigr do rewrite hB // hX //.
rewrite [X in _ + X](_ : _ = \sum_(i < m) \sum_(j < n) (entry (ms1_gamma q) i j * nth 0 Y j) *: nth 0 X i) //.
apply: eq_bigr => i _; rewrite (sum_pad hg (h := fun j => (entry (ms1_gamma q') (f i) j * nth 0 Y' j) *: nth 0 X' (f i))) => [|k hk]; last first.
  by rewrite zG ?mul0r ?scale0r //; right.
by apply: eq_bigr => j _; rewrite hG // hX // hY.
Qed.
Lemma ms1_verify_pad : forall (E : pairing) (sch : sched) (m n m' n' : nat) (f g : nat -> nat) (q q' : MSMEG1 E) (p p' : CProof E) (crs : CRS E),
  bilinear E -> valid_sched sch -> (0 < m)%N -> (0 < n)%N -> renames m m' f -> renames n n' g ->
  ms1_wf q m n -> ms1_wf q' m' n' -> ms1_padded m n f g q q' ->
  size (coms (xcoms p)) = m -> size (coms (ycoms p)) = n -> size (coms (xcoms p')) = m' -> size (coms (ycoms p')) = n' ->
  placed_proof m n f g p p' ->
  ms1_verify sch q' p' crs = ms1_verify sch q p crs.
Proof.
move=> E sch m n m' n' f g q q' p p' crs hb vs hm hn hf hg [h1 h2 h3] [h1' h2' h3'] [hA hB hG ht] s1 s2 s3 s4 hp.
have hm' := renames_pos hf hm; have hn' := renames_pos hg hn.
rewrite !ms1_verify_total //; have [_ _ ->] := hp; case: (equ_proofs p) => [|pf [|//]] //.
have -> : ms1_verify_checks q' (size (coms (xcoms p'))) (size (coms (ycoms p'))) pf crs
  = ms1_verify_checks q (size (coms (xcoms p))) (size (coms (ycoms p))) pf crs.
  by rewrite /ms1_verify_checks !gamma_ok ?s1 ?s2 ?s3 ?s4 // h1 h2 h1' h2' !eqxx  /nilp ?h1 ?h2 ?h1' ?h2' ?(gtn_eqF hm) ?(gtn_eqF hn) ?(gtn_eqF hm') ?(gtn_eqF hn') //.
congr checked; rewrite ht.
apply: (verify_pad _ _ _ _ _ hb hf hg s1 s2 s3 s4 hp _ _ hG).
- by apply: pad_map => //; exact: i10.
by apply: pad_map => //; exact: k20.
Qed.
Lemma ms1_prove_pad : forall (E : pairing) (R : rng E) (sch sch' : sched) (m n m' n' : nat) (f g : nat -> nat) (q q' : MSMEG1 E)
  (X X' : seq (G1 E)) (Y Y' : seq (Fr E)) (cx cx' : Commit1 E) (cy cy' : Commit2 E) (crs : CRS E) (s : rst R),
  valid_sched sch -> valid_sched sch' -> two_keys crs -> (0 < m)%N -> (0 < n)%N -> renames m m' f -> renames n n' g ->
  ms1_wf q m n -> ms1_wf q' m' n' -> ms1_padded m n f g q q' ->
  size X = m -> size Y = n -> size X' = m' -> size Y' = n' -> placed 0 m f X X' -> placed 0 n g Y Y' ->
  dims m 2 (crand cx) -> dims n 1 (crand cy) -> dims m' 2 (crand cx') -> dims n' 1 (crand cy') ->
  placed [::] m f (crand cx) (crand cx') -> placed [::] n g (crand cy) (crand cy') ->
  ms1_prove sch' q' X' Y' cx' cy' crs s = ms1_prove sch q X Y cx cy crs s.
Proof.
move=> E R sch sch' m n m' n' f g q q' X X' Y Y' cx cx' cy cy' crs s vs vs' hk hm hn hf hg wq wq' [hA hB hG ht] s1 s2 s3 s4 hX hY d1 d2 d3 d4 hR hS.
have hm' := renames_pos hf hm; have hn' := renames_pos hg hn.
have ok (sch0 : sched) (q0 : MSMEG1 E) (X0 : seq (G1 E)) (Y0 : seq (Fr E)) (c0 : Commit1 E) (c1 : Commit2 E) : valid_sched sch0 ->
  (0 < size X0)%N -> (0 < size Y0)%N -> ms1_wf q0 (size X0) (size Y0) -> dims (size X0) 2 (crand c0) -> dims (size Y0) 1 (crand c1) ->
  isok (ms1_prove sch0 q0 X0 Y0 c0 c1 crs s).
  move=> v0 p1 p2 [e1 e2 e3] /dims_rect e4 /dims_rect e5; rewrite (isok_ms1_prove v0); case: hk => -> ->; rewrite ?eqxx ?andbT; exact: prove_shapeI.
have := ok sch' q' X' Y' cx' cy' vs'; rewrite s3 s4 => /(_ hm' hn' wq' d3 d4).
have := ok sch q X Y cx cy vs; rewrite s1 s2 => /(_ hm hn wq d1 d2).
rewrite (FormulaProps.ms1_prove_total _ _ _ _ _ _ _ vs) (FormulaProps.ms1_prove_total _ _ _ _ _ _ _ vs').
move=> h1 h2; rewrite (checked_val h1) (checked_val h2); congr (Ok (_, _)); rewrite s1 s2 s3 s4.
case: wq => w1 w2 w3; apply: (prove_pad _ _ _ _ _ hf hg) => //.
- by apply: place_map => //; exact: i10.
- by apply: place_map => //; exact: k20.
- exact: rows_placed.
- exact: rows_placed.
- by apply: pad_map => //; exact: i10.
by apply: pad_map => //; exact: k20.
Qed.

Lemma ms2_holds_pad : forall (E : pairing) (m n m' n' : nat) (f g : nat -> nat) (q q' : MSMEG2 E) (X X' : seq (Fr E)) (Y Y' : seq (G2 E)),
  renames m m' f -> renames n n' g -> ms2_padded m n f g q q' ->
  size X = m -> size Y = n -> size X' = m' -> size Y' = n' -> placed 0 m f X X' -> placed 0 n g Y Y' ->
  (ms2_holds q' X' Y' <-> ms2_holds q X Y).
Proof.
move=> E m n m' n' f g q q' X X' Y Y' hf hg [[hA zA] [hB zB] [hG zG] ht] s1 s2 s3 s4 hX hY.

rewrite /ms2_holds s1 s2 s3 s4 ht.
rewrite (sum_pad hg (h := fun j => nth 0 (ms2_a q') j *: nth 0 Y' j)) => [|k /zA ->]; last by rewrite scale0r.
rewrite (sum_pad hf (h := fun i => nth 0 X' i *: nth 0 (ms2_b q') i)) => [|k /zB ->]; last by rewrite scaler0.
rewrite (sum_pad hf (h := fun i => \sum_(j < n') (entry (ms2_gamma q') i j * nth 0 X' i) *: nth 0 Y' j)) => [|k hk]; last first.
  rewrite big1 // => j _; rewrite zG ?mul0r ?scale0r //; by left.
under eq_bigr do rewrite hA // hY //.
under [X in _ + X + _]eq_bigr do rewrite hB // hX //.
rewrite [X in _ + X](_ : _ = \sum_(i < m) \sum_(j < n) (entry (ms2_gamma q) i j * nth 0 X i) *: nth 0 Y j) //.
apply: eq_bigr => i _; rewrite (sum_pad hg (h := fun j => (entry (ms2_gamma q') (f i) j * nth 0 X' (f i)) *: nth 0 Y' j)) => [|k hk]; last first.
  by rewrite zG ?mul0r ?scale0r //; right.
by apply: eq_bigr => j _; rewrite hG // hX // hY.
Qed.
Lemma ms2_verify_pad : forall (E : pairing) (sch : sched) (m n m' n' : nat) (f g : nat -> nat) (q q' : MSMEG2 E) (p p' : CProof E) (crs : CRS E),
  bilinear E -> valid_sched sch -> (0 < m)%N -> (0 < n)%N -> renames m m' f -> renames n n' g ->
  ms2_wf q m n -> ms2_wf q' m' n' -> ms2_padded m n f g q q' ->
  size (coms (xcoms p)) = m -> size (coms (ycoms p)) = n -> size (coms (xcoms p')) = m' -> size (coms (ycoms p')) = n' ->
  placed_proof m n f g p p' ->
  ms2_verify sch q' p' crs = ms2_verify sch q p crs.
Proof.
move=> E sch m n m' n' f g q q' p p' crs hb vs hm hn hf hg [h1 h2 h3] [h1' h2' h3'] [hA hB hG ht] s1 s2 s3 s4 hp.
have hm' := renames_pos hf hm; have hn' := renames_pos hg hn.
rewrite !ms2_verify_total //; have [_ _ ->] := hp; case: (equ_proofs p) => [|pf [|//]] //.
have -> : ms2_verify_checks q' (size (coms (xcoms p'))) (size (coms (ycoms p'))) pf crs
  = ms2_verify_checks q (size (coms (xcoms p))) (size (coms (ycoms p))) pf crs.
  by rewrite /ms2_verify_checks !gamma_ok ?s1 ?s2 ?s3 ?s4 // h1 h2 h1' h2' !eqxx  /nilp ?h1 ?h2 ?h1' ?h2' ?(gtn_eqF hm) ?(gtn_eqF hn) ?(gtn_eqF hm') ?(gtn_eqF hn') //.
congr checked; rewrite ht.
apply: (verify_pad _ _ _ _ _ hb hf hg s1 s2 s3 s4 hp _ _ hG).
- by apply: pad_map => //; exact: k10.
by apply: pad_map => //; exact: i20.
Qed.
Lemma ms2_prove_pad : forall (E : pairing) (R : rng E) (sch sch' : sched) (m n m' n' : nat) (f g : nat -> nat) (q q' : MSMEG2 E)
  (X X' : seq (Fr E)) (Y Y' : seq (G2 E)) (cx cx' : Commit1 E) (cy cy' : Commit2 E) (crs : CRS E) (s : rst R),
  valid_sched sch -> valid_sched sch' -> two_keys crs -> (0 < m)%N -> (0 < n)%N -> renames m m' f -> renames n n' g ->
  ms2_wf q m n -> ms2_wf q' m' n' -> ms2_padded m n f g q q' ->
  size X = m -> size Y = n -> size X' = m' -> size Y' = n' -> placed 0 m f X X' -> placed 0 n g Y Y' ->
  dims m 1 (crand cx) -> dims n 2 (crand cy) -> dims m' 1 (crand cx') -> dims n' 2 (crand cy') ->
  placed [::] m f (crand cx) (crand cx') -> placed [::] n g (crand cy) (crand cy') ->
  ms2_prove sch' q' X' Y' cx' cy' crs s = ms2_prove sch q X Y cx cy crs s.
Proof.
move=> E R sch sch' m n m' n' f g q q' X X' Y Y' cx cx' cy cy' crs s vs vs' hk hm hn hf hg wq wq' [hA hB hG ht] s1 s2 s3 s4 hX hY d1 d2 d3 d4 hR hS.
have hm' := renames_pos hf hm; have hn' := renames_pos hg hn.
have ok (sch0 : sched) (q0 : MSMEG2 E) (X0 : seq (Fr E)) (Y0 : seq (G2 E)) (c0 : Commit1 E) (c1 : Commit2 E) : valid_sched sch0 ->
  (0 < size X0)%N -> (0 < size Y0)%N -> ms2_wf q0 (size X0) (size Y0) -> dims (size X0) 1 (crand c0) -> dims (size Y0) 2 (crand c1) ->
  isok (ms2_prove sch0 q0 X0 Y0 c0 c1 crs s).
  move=> v0 p1 p2 [e1 e2 e3] /dims_rect e4 /dims_rect e5; rewrite (isok_ms2_prove v0); case: hk => -> ->; rewrite ?eqxx ?andbT; exact: prove_shapeI.
have := ok sch' q' X' Y' cx' cy' vs'; rewrite s3 s4 => /(_ hm' hn' wq' d3 d4).
have := ok sch q X Y cx cy vs; rewrite s1 s2 => /(_ hm hn wq d1 d2).
rewrite (FormulaProps.ms2_prove_total _ _ _ _ _ _ _ vs) (FormulaProps.ms2_prove_total _ _ _ _ _ _ _ vs').
move=> h1 h2; rewrite (checked_val h1) (checked_val h2); congr (Ok (_, _)); rewrite s1 s2 s3 s4.
case: wq => w1 w2 w3; apply: (prove_pad _ _ _ _ _ hf hg) => //.
- by apply: place_map => //; exact: k10.
- by apply: place_map => //; exact: i20.
- exact: rows_placed.
- exact: rows_placed.
- by apply: pad_map => //; exact: k10.
by apply: pad_map => //; exact: i20.
Qed.

Lemma quad_holds_pad : forall (E : pairing) (m n m' n' : nat) (f g : nat -> nat) (q q' : QuadEqu E) (X X' : seq (Fr E)) (Y Y' : seq (Fr E)),
  renames m m' f -> renames n n' g -> quad_padded m n f g q q' ->
  size X = m -> size Y = n -> size X' = m' -> size Y' = n' -> placed 0 m f X X' -> placed 0 n g Y Y' ->
  (quad_holds q' X' Y' <-> quad_holds q X Y).
Proof.
move=> E m n m' n' f g q q' X X' Y Y' hf hg [[hA zA] [hB zB] [hG zG] ht] s1 s2 s3 s4 hX hY.

rewrite /quad_holds s1 s2 s3 s4 ht.
rewrite (sum_pad hg (h := fun j => nth 0 (quad_a q') j * nth 0 Y' j)) => [|k /zA ->]; last by rewrite mul0r.
rewrite (sum_pad hf (h := fun i => nth 0 X' i * nth 0 (quad_b q') i)) => [|k /zB ->]; last by rewrite mulr0.
rewrite (sum_pad hf (h := fun i => \sum_(j < n') entry (quad_gamma q') i j * nth 0 X' i * nth 0 Y' j)) => [|k hk]; last first.
  rewrite big1 // => j _; rewrite zG ?mul0r ?mul0r //; by left.
under eq_bigr do rewrite hA // hY //.
under [X in _ + X + _]eq_bigr do rewrite hB // hX //.
rewrite [X in _ + X](_ : _ = \sum_(i < m) \sum_(j < n) entry (quad_gamma q) i j * nth 0 X i * nth 0 Y j) //.
apply: eq_bigr => i _; rewrite (sum_pad hg (h := fun j => entry (quad_gamma q') (f i) j * nth 0 X' (f i) * nth 0 Y' j)) => [|k hk]; last first.
  by rewrite zG ?mul0r ?mul0r //; right.
by apply: eq_bigr => j _; rewrite hG // hX // hY.
Qed.
Lemma quad_verify_pad : forall (E : pairing) (sch : sched) (m n m' n' : nat) (f g : nat -> nat) (q q' : QuadEqu E) (p p' : CProof E) (crs : CRS E),
  bilinear E -> valid_sched sch -> (0 < m)%N -> (0 < n)%N -> renames m m' f -> renames n n' g ->
  quad_wf q m n -> quad_wf q' m' n' -> quad_padded m n f g q q' ->
  size (coms (xcoms p)) = m -> size (coms (ycoms p)) = n -> size (coms (xcoms p')) = m' -> size (coms (ycoms p')) = n' ->
  placed_proof m n f g p p' ->
  quad_verify sch q' p' crs = quad_verify sch q p crs.
Proof.
move=> E sch m n m' n' f g q q' p p' crs hb vs hm hn hf hg [h1 h2 h3] [h1' h2' h3'] [hA hB hG ht] s1 s2 s3 s4 hp.
have hm' := renames_pos hf hm; have hn' := renames_pos hg hn.
rewrite !quad_verify_total //; have [_ _ ->] := hp; case: (equ_proofs p) => [|pf [|//]] //.
have -> : quad_verify_checks q' (size (coms (xcoms p'))) (size (coms (ycoms p'))) pf crs
  = quad_verify_checks q (size (coms (xcoms p))) (size (coms (ycoms p))) pf crs.
  by rewrite /quad_verify_checks !gamma_ok ?s1 ?s2 ?s3 ?s4 // h1 h2 h1' h2' !eqxx  /nilp ?h1 ?h2 ?h1' ?h2' ?(gtn_eqF hm) ?(gtn_eqF hn) ?(gtn_eqF hm') ?(gtn_eqF hn') //.
congr checked; rewrite ht.
apply: (verify_pad _ _ _ _ _ hb hf hg s1 s2 s3 s4 hp _ _ hG).
- by apply: pad_map => //; exact: k10.
by apply: pad_map => //; exact: k20.
Qed.
Lemma quad_prove_pad : forall (E : pairing) (R : rng E) (sch sch' : sched) (m n m' n' : nat) (f g : nat -> nat) (q q' : QuadEqu E)
  (X X' : seq (Fr E)) (Y Y' : seq (Fr E)) (cx cx' : Commit1 E) (cy cy' : Commit2 E) (crs : CRS E) (s : rst R),
  valid_sched sch -> valid_sched sch' -> two_keys crs -> (0 < m)%N -> (0 < n)%N -> renames m m' f -> renames n n' g ->
  quad_wf q m n -> quad_wf q' m' n' -> quad_padded m n f g q q' ->
  size X = m -> size Y = n -> size X' = m' -> size Y' = n' -> placed 0 m f X X' -> placed 0 n g Y Y' ->
  dims m 1 (crand cx) -> dims n 1 (crand cy) -> dims m' 1 (crand cx') -> dims n' 1 (crand cy') ->
  placed [::] m f (crand cx) (crand cx') -> placed [::] n g (crand cy) (crand cy') ->
  quad_prove sch' q' X' Y' cx' cy' crs s = quad_prove sch q X Y cx cy crs s.
Proof.
move=> E R sch sch' m n m' n' f g q q' X X' Y Y' cx cx' cy cy' crs s vs vs' hk hm hn hf hg wq wq' [hA hB hG ht] s1 s2 s3 s4 hX hY d1 d2 d3 d4 hR hS.
have hm' := renames_pos hf hm; have hn' := renames_pos hg hn.
have ok (sch0 : sched) (q0 : QuadEqu E) (X0 : seq (Fr E)) (Y0 : seq (Fr E)) (c0 : Commit1 E) (c1 : Commit2 E) : valid_sched sch0 ->
  (0 < size X0)%N -> (0 < size Y0)%N -> quad_wf q0 (size X0) (size Y0) -> dims (size X0) 1 (crand c0) -> dims (size Y0) 1 (crand c1) ->
  isok (quad_prove sch0 q0 X0 Y0 c0 c1 crs s).
  move=> v0 p1 p2 [e1 e2 e3] /dims_rect e4 /dims_rect e5; rewrite (isok_quad_prove v0); case: hk => -> ->; rewrite ?eqxx ?andbT; exact: prove_shapeI.
have := ok sch' q' X' Y' cx' cy' vs'; rewrite s3 s4 => /(_ hm' hn' wq' d3 d4).
have := ok sch q X Y cx cy vs; rewrite s1 s2 => /(_ hm hn wq d1 d2).
rewrite (FormulaProps.quad_prove_total _ _ _ _ _ _ _ vs) (FormulaProps.quad_prove_total _ _ _ _ _ _ _ vs').
move=> h1 h2; rewrite (checked_val h1) (checked_val h2); congr (Ok (_, _)); rewrite s1 s2 s3 s4.
case: wq => w1 w2 w3; apply: (prove_pad _ _ _ _ _ hf hg) => //.
- by apply: place_map => //; exact: k10.
- by apply: place_map => //; exact: k20.
- exact: rows_placed.
- exact: rows_placed.
- by apply: pad_map => //; exact: k10.
by apply: pad_map => //; exact: k20.
Qed.

