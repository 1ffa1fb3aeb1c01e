(** Sums over renamed variables with zero coefficients for the others. *)
From mathcomp Require Import all_ssreflect all_algebra.
From Verif Require Import Base BaseLemmas Group DataStructures MatLemmas CoreAlg ComLemmas.
From Verif Require Import Commit Statement Prove Verify Spec SpecMat SpecVerify SpecPanic SpecFormula SpecPad.
From Verif Require Import ProveLemmas CommitLemmas Draws Main FormulaProps.
Set Implicit Arguments.
Unset Strict Implicit.
Unset Printing Implicit Defensive.
Import GRing.Theory.
Local Open Scope ring_scope.

Lemma used_or m f k : (exists2 i, (i < m)%N & f i = k) \/ unused m f k.
Proof.
elim: m => [|m [[i hi <-]|IH]]; first by right.
  by left; exists i => //; rewrite ltnS ltnW.
have [e|ne] := eqVneq (f m) k; first by left; exists m.
right=> i; rewrite ltnS leq_eqVlt => /orP[/eqP->|/IH//]; exact/eqP.
Qed.

Lemma sum_pad (V : zmodType) m m' f (h : nat -> V) : renames m m' f ->
  (forall k, unused m f k -> h k = 0) -> \sum_(k < m') h k = \sum_(i < m) h (f i).
Proof.
move=> [hf hi] h0; pose F (i : 'I_m) : 'I_m' := Ordinal (hf i (ltn_ord i)).
have iF : injective F by move=> i j /(congr1 val) /= /(hi _ _ (ltn_ord i) (ltn_ord j)) /val_inj.
rewrite (bigID (mem [set F i | i : 'I_m])) /= [X in _ + X]big1 ?addr0.
  by rewrite big_imset //= => i j _ _; exact: iF.
move=> k nk; apply: h0 => i hi' e; move/negP: nk; apply; apply/imsetP; exists (Ordinal hi') => //; exact/val_inj/esym.
Qed.

Section Values.
Context {E : pairing}.
Implicit Types (crs : CRS E).
Local Notation F := (Fr E).

Lemma pad_map (V V' : zmodType) (h : V -> V') m f l l' : h 0 = 0 -> padded m f l l' -> size l = m ->
  padded m f [seq h x | x <- l] [seq h x | x <- l'].
Proof.
move=> h0 [hp hz] hs; have nm k (s : seq V) : nth 0 [seq h x | x <- s] k = h (nth 0 s k).
  by case: (ltnP k (size s)) => hk; [rewrite (nth_map 0) | rewrite !nth_default ?size_map].
by split=> [i hi|k hk]; rewrite !nm; [rewrite hp | rewrite hz].
Qed.
Lemma place_map (V V' : zmodType) (h : V -> V') m f l l' : h 0 = 0 -> placed 0 m f l l' ->
  placed 0 m f [seq h x | x <- l] [seq h x | x <- l'].
Proof.
move=> h0 hp; have nm k (s : seq V) : nth 0 [seq h x | x <- s] k = h (nth 0 s k).
  by case: (ltnP k (size s)) => hk; [rewrite (nth_map 0) | rewrite !nth_default ?size_map].
by move=> i hi; rewrite !nm hp.
Qed.

Lemma pairT0l (y : Com2 E) : bilinear E -> pairT 0 y = 0.
Proof. by move=> hb; exact: (bil0l (comT_pairing_bilin hb)). Qed.
Lemma pairT0r (x : Com1 E) : bilinear E -> pairT x 0 = 0.
Proof. by move=> hb; exact: (bil0r (comT_pairing_bilin hb)). Qed.

Lemma verify_pad m n m' n' f g (A A' : seq (Com1 E)) (B B' : seq (Com2 E)) (G G' : matrix F) (p p' : CProof E) t crs pf kx ky :
  bilinear E -> renames m m' f -> renames n n' g ->
  size (coms (xcoms p)) = m -> size (coms (ycoms p)) = n -> size (coms (xcoms p')) = m' -> size (coms (ycoms p')) = n' ->
  placed_proof m n f g p p' -> padded n g A A' -> padded m f B B' -> padded_gamma m n f g G G' ->
  verify_value A' B' G' p' t crs pf kx ky = verify_value A B G p t crs pf kx ky.
Proof.
move=> hb hf hg s1 s2 s3 s4 [hx hy _] [hA zA] [hB zB] [hG zG]; rewrite /verify_value s1 s2 s3 s4; congr (_ + _ + _ == _).
- rewrite (sum_pad hg (h := fun j => pairT (nth 0 A' j) (nth 0 (coms (ycoms p')) j))) => [|k /zA ->]; last exact: pairT0l.
  by apply: eq_bigr => j _; rewrite hA // hy.
- rewrite (sum_pad hf (h := fun i => pairT (nth 0 (coms (xcoms p')) i) (nth 0 B' i))) => [|k /zB ->]; last exact: pairT0r.
  by apply: eq_bigr => i _; rewrite hB // hx.
rewrite (sum_pad hf (h := fun i => pairT (nth 0 (coms (xcoms p')) i) (\sum_(j < n') at_ G' i j *: nth 0 (coms (ycoms p')) j))) => [|k hk]; last first.
  rewrite big1 ?pairT0r // => j _; rewrite -[at_ _ _ _]/(entry G' k j) zG ?scale0r //; by left.
apply: eq_bigr => i _; rewrite hx //; congr pairT.
rewrite (sum_pad hg (h := fun j => at_ G' (f i) j *: nth 0 (coms (ycoms p')) j)) => [|k hk]; last by rewrite -[at_ _ _ _]/(entry G' (f i) k) zG ?scale0r //; right.
by apply: eq_bigr => j _; rewrite -[at_ G' _ _]/(entry G' (f i) (g j)) hG // hy.
Qed.

Definition placed_rows m f (R R' : matrix F) := forall i k, (i < m)%N -> at_ R' (f i) k = at_ R i k.

Lemma prove_pad m n m' n' f g kx ky (A A' X X' : seq (Com1 E)) (B B' Y Y' : seq (Com2 E)) (G G' R R' S S' T : matrix F) crs t :
  renames m m' f -> renames n n' g ->
  placed 0 m f X X' -> placed 0 n g Y Y' -> placed_rows m f R R' -> placed_rows n g S S' ->
  padded n g A A' -> padded m f B B' -> padded_gamma m n f g G G' ->
  prove_value m' n' kx ky A' X' B' Y' G' R' S' T crs t = prove_value m n kx ky A X B Y G R S T crs t.
Proof.
move=> hf hg hX hY hR hS [hA zA] [hB zB] [hG zG]; rewrite /prove_value.
have eRG k j : (j < n)%N -> \sum_(i < m') at_ R' i k * at_ G' i (g j) = \sum_(i < m) at_ R i k * at_ G i j.
  move=> hj; rewrite (sum_pad hf (h := fun i => at_ R' i k * at_ G' i (g j))) => [|i hi].
    by apply: eq_bigr => i _; rewrite hR // -[at_ G' _ _]/(entry G' (f i) (g j)) hG.
  by rewrite -[at_ G' _ _]/(entry G' i (g j)) zG ?mulr0 //; left.
have zRG k j : unused n g j -> \sum_(i < m') at_ R' i k * at_ G' i j = 0.
  by move=> hj; rewrite big1 // => i _; rewrite -[at_ G' _ _]/(entry G' i j) zG ?mulr0 //; right.
congr mkEquProof.
- apply: eq_mkseq => k; congr (_ + _ + _).
  + rewrite (sum_pad hf (h := fun i => at_ R' i k *: nth 0 B' i)) => [|i /zB ->]; last by rewrite scaler0.
    by apply: eq_bigr => i _; rewrite hR // hB.
  + rewrite (sum_pad hg (h := fun j => (\sum_(i < m') at_ R' i k * at_ G' i j) *: nth 0 Y' j)) => [|j hj]; last by rewrite zRG ?scale0r.
    by apply: eq_bigr => j _; rewrite eRG // hY.
  + apply: eq_bigr => l _; congr ((_ - _) *: _).
    rewrite (sum_pad hg (h := fun j => (\sum_(i < m') at_ R' i k * at_ G' i j) * at_ S' j l)) => [|j hj]; last by rewrite zRG ?mul0r.
    by apply: eq_bigr => j _; rewrite eRG // hS.
apply: eq_mkseq => l; congr (_ + _ + _).
- rewrite (sum_pad hg (h := fun j => at_ S' j l *: nth 0 A' j)) => [|j /zA ->]; last by rewrite scaler0.
  by apply: eq_bigr => j _; rewrite hS // hA.
rewrite (sum_pad hf (h := fun i => (\sum_(j < n') at_ S' j l * at_ G' i j) *: nth 0 X' i)) => [|i hi]; last first.
  rewrite big1 ?scale0r // => j _; rewrite -[at_ G' _ _]/(entry G' i j) zG ?mulr0 //; by left.
apply: eq_bigr => i _; rewrite hX //; congr (_ *: _).
rewrite (sum_pad hg (h := fun j => at_ S' j l * at_ G' (f i) j)) => [|j hj]; last by rewrite -[at_ G' _ _]/(entry G' (f i) j) zG ?mulr0 //; right.
by apply: eq_bigr => j _; rewrite hS // -[at_ G' _ _]/(entry G' (f i) (g j)) hG.
Qed.
End Values.
