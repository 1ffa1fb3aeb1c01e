(** Proofs of the closed forms of SpecFormula.v: matrices, maps and commitments. *)
From mathcomp Require Import all_ssreflect all_algebra.
From Verif Require Import Base BaseLemmas Group DataStructures MatLemmas ComLemmas Commit CommitLemmas Statement Spec SpecMat SpecVerify SpecPanic SpecFormula PanicLemmas PanicSteps PanicProps.
Set Implicit Arguments.
Unset Strict Implicit.
Unset Printing Implicit Defensive.
Import GRing.Theory.
Local Open Scope ring_scope.

Lemma checked_all A (m : res A) cs v :
  outcome m = first_failed cs -> (all fst cs -> m = Ok v) -> m = checked cs v.
Proof.
rewrite /checked; case e : (first_failed cs) => [p|]; first by case: m => //= p' [->].
by move=> _; apply; apply: first_failed_None.
Qed.

Lemma checked_isok A (m : res A) cs v :
  outcome m = first_failed cs -> (isok m -> m = Ok v) -> m = checked cs v.
Proof. by rewrite /checked; case: m => [a|p] <- //= ->. Qed.

Lemma void_noc T (M : matrix T) : void M = no_cells M.
Proof. exact: voidE. Qed.

Section Field.
Context {F : fieldType}.
Implicit Types (A B L : matrix F).

Lemma fadd_total A B : fmat_add A B = checked (add_checks A B) (sum_value A B).
Proof.
apply: checked_isok; first exact: (proj1 (step_fadd A B)).
rewrite fmat_addE (isok_mat_add 0) => h; rewrite (mat_add_Ok 0 _ h) /sum_value widthE.
by [].
Qed.

Lemma fneg_total A : fmat_neg A = Ok (neg_value A).
Proof. by rewrite fmat_negE (mat_negE 0). Qed.

Lemma fscalar_total A k : fmat_scalar_mul A k = checked (scalar_mul_checks A) (fscaled_value A k).
Proof.
apply: checked_isok; first exact: (proj1 (step_mat_scalar_mul 0 *%R A k)).
by rewrite fmat_scalar_mulE (isok_mat_scalar_mul 0) => /andP[h0 h]; rewrite (mat_scalar_mul_Ok 0 _ _ h0 h) /fscaled_value widthE.
Qed.

Lemma transpose_total (V : zmodType) (A : matrix V) :
  mat_transpose A = checked (transpose_checks A) (transposed_value A).
Proof.
apply: checked_isok; first exact: (proj1 (step_transpose 0 A)).
by rewrite (isok_transpose 0) => /andP[h0 h]; rewrite (transpose_Ok 0 h0 h) /transposed_value widthE.
Qed.

Lemma tsumE (V : zmodType) (f : nat -> V) n : tsum 0 +%R f n = \sum_(k < n) f k.
Proof.
rewrite -(big_mkord xpredT f) /tsum /index_iota subn0 /mkseq.
have e (l : seq nat) z : foldl +%R z [seq f i | i <- l] = z + \sum_(i <- l) f i.
  by elim: l z => [|i l IH] z /=; rewrite ?big_nil ?addr0 // IH big_cons addrA.
by rewrite e add0r.
Qed.

Section Products.
Context {V : zmodType}.
Variable (sm : V -> F -> V).
Variables (ord : nat -> nat -> order) (par : bool).
Hypothesis vo : valid_ord ord.

Lemma right_total (A : matrix V) L :
  mat_right_mul 0 +%R sm ord A L par
  = checked (right_mul_checks A L)
      (if void A || void L then [::]
       else table (size A) (width L) (fun i j => \sum_(k < size L) sm (at_ A i k) (at_ L k j))).
Proof.
apply: checked_isok; first exact: (proj1 (step_right_mul 0 0 0 +%R sm A L par vo)).
rewrite (isok_right_mul 0 +%R sm) // /right_mul_shape !void_noc.
case hA : (no_cells A); first by rewrite right_mul_empty ?hA.
case hL : (no_cells L); first by rewrite right_mul_empty ?hL ?orbT.
case/and3P=> /eqP h1 h2 h3; rewrite (right_mul_Ok 0 0) // widthE; congr Ok.
by apply: eq_mkmat => i j hi hj; rewrite tsumE.
Qed.

Lemma left_total (A : matrix V) L :
  mat_left_mul 0 +%R sm ord A L par
  = checked (left_mul_checks A L)
      (if void A || void L then [::]
       else table (size L) (width A) (fun i j => \sum_(k < size A) sm (at_ A k j) (at_ L i k))).
Proof.
apply: checked_isok; first exact: (proj1 (step_left_mul 0 0 0 +%R sm A L par vo)).
rewrite (isok_left_mul 0 +%R sm) // /left_mul_shape !void_noc.
case hL : (no_cells L); first by rewrite left_mul_empty ?hL ?orbT.
case hA : (no_cells A); first by rewrite left_mul_empty ?hA ?orbT.
case/and3P=> /eqP h1 h2 h3; rewrite (left_mul_Ok 0 0) // widthE; congr Ok.
by apply: eq_mkmat => i j hi hj; rewrite tsumE.
Qed.
End Products.

Lemma fright_total ord A L par : valid_ord ord ->
  fmat_right_mul ord A L par = checked (right_mul_checks A L) (fright_value A L).
Proof. by move=> vo; rewrite fmat_right_mulE right_total. Qed.

Lemma fleft_total ord A L par : valid_ord ord ->
  fmat_left_mul ord A L par = checked (left_mul_checks A L) (fleft_value A L).
Proof.
move=> vo; rewrite fmat_left_mulE left_total // /fleft_value; case: ifP => // _; congr checked.
by apply: eq_mkmat => i j _ _; apply: eq_bigr => k _; rewrite mulrC.
Qed.
End Field.

Section Com.
Context {F : fieldType} {G : lmodType F}.
Implicit Types (A B : matrix (com G)) (L : matrix F).

Lemma cadd_total A B : cmat_add A B = checked (add_checks A B) (sum_value A B).
Proof.
apply: checked_isok; first exact: (proj1 (step_cadd A B)).
by rewrite /cmat_add (isok_mat_add 0) => h; rewrite (mat_add_Ok 0 _ h) /sum_value widthE.
Qed.

Lemma cneg_total A : cmat_neg A = Ok (neg_value A).
Proof. by rewrite /cmat_neg (mat_negE 0). Qed.

Lemma cscalar_total A (k : F) : cmat_scalar_mul A k = checked (scalar_mul_checks A) (scaled_value A k).
Proof.
apply: checked_isok; first exact: (proj1 (step_mat_scalar_mul 0 com_scalar_mul A k)).
by rewrite /cmat_scalar_mul (isok_mat_scalar_mul 0) => /andP[h0 h]; rewrite (mat_scalar_mul_Ok 0 _ _ h0 h) /scaled_value widthE.
Qed.

Lemma cright_total ord A L par : valid_ord ord ->
  cmat_right_mul ord A L par = checked (right_mul_checks A L) (right_value A L).
Proof. move=> vo; exact: (right_total (fun (x : com G) k => k *: x) par vo A L). Qed.

Lemma cleft_total ord A L par : valid_ord ord ->
  cmat_left_mul ord A L par = checked (left_mul_checks A L) (left_value A L).
Proof. move=> vo; exact: (left_total (fun (x : com G) k => k *: x) par vo A L). Qed.

Lemma com_from_total (A : matrix G) :
  com_from A = checked (from_checks 1 A) (at_ A 0 0, at_ A 1 0).
Proof.
apply: checked_all; first exact: (proj1 (step_com_from A)).
by case: A => [|[|x [|x' r]] [|[|y [|y' r']] [|r2 A]]].
Qed.

Lemma append_total (c c' : commit G) :
  commit_append c c'
  = checked (append_checks c c') (mkCommit (coms c ++ coms c') (crand c ++ crand c'), mkCommit [::] [::]).
Proof.
apply: checked_all; first exact: (proj1 (step_append c c')).
by case/and3P=> /= h1 h2 _; rewrite commit_appendE /assert_eq h1 h2.
Qed.
End Com.

Lemma flat_total T (A : matrix T) : col_vec_to_vec A = checked (flatten_checks A) (flat_value A).
Proof.
apply: checked_all; first exact: (proj1 (step_flatten A)).
rewrite /flatten_checks /col_vec_to_vec /flat_value.
have e B : wide 1 B -> mapM (fun v : seq T => idx v 0) B = Ok (flatten [seq take 1 r | r <- B]).
  by elim: B => //= -[|x r] B IH //= /IH ->; rewrite take0.
by case: A => [|r [|r' A]] // /andP[/e h _]; rewrite [size _ == _]/= h.
Qed.

Section Curve.
Context {E : pairing}.
Implicit Types (crs : CRS E).

Lemma comT_from_total (A : matrix (GT E)) :
  comT_from A = checked (from_checks 2 A) ((at_ A 0 0, at_ A 0 1), (at_ A 1 0, at_ A 1 1)).
Proof.
apply: checked_all; first exact: (proj1 (step_comT_from A)).
by case: A => [|[|x [|x' [|x2 r]]] [|[|y [|y' [|y2 r']]] [|r2 A]]].
Qed.

Lemma pairing_sum_total (x : seq (Com1 E)) (y : seq (Com2 E)) :
  comT_pairing_sum x y
  = checked [:: asserts (size x == size y)] (\sum_(i < size x) pairT (nth 0 x i) (nth 0 y i)).
Proof.
apply: checked_all; first exact: (proj1 (step_pairing_sum x y)).
by case/andP=> /= /eqP h _; rewrite pairing_sum_Ok // big_mkord.
Qed.

Lemma slm1_total (x : Fr E) crs :
  com1_scalar_linear_map x crs = checked [:: reads (1 < size (crs_u crs))%N] (k1 crs x).
Proof.
apply: checked_all; first exact: (proj1 (step_slm1 x crs)).
by case/andP=> /= h _; rewrite s1map_Ok.
Qed.
Lemma slm2_total (x : Fr E) crs :
  com2_scalar_linear_map x crs = checked [:: reads (1 < size (crs_v crs))%N] (k2 crs x).
Proof.
apply: checked_all; first exact: (proj1 (step_slm2 x crs)).
by case/andP=> /= h _; rewrite s2map_Ok.
Qed.
Lemma bslm1_total (x : seq (Fr E)) crs :
  com1_batch_scalar_linear_map x crs
  = checked [:: reads (nilp x || (1 < size (crs_u crs))%N)] [seq k1 crs z | z <- x].
Proof.
apply: checked_all; first exact: (proj1 (step_bslm1 x crs)).
by case/andP=> /= /orP[/nilP ->|h] _ //; rewrite bs1map_Ok.
Qed.
Lemma bslm2_total (x : seq (Fr E)) crs :
  com2_batch_scalar_linear_map x crs
  = checked [:: reads (nilp x || (1 < size (crs_v crs))%N)] [seq k2 crs z | z <- x].
Proof.
apply: checked_all; first exact: (proj1 (step_bslm2 x crs)).
by case/andP=> /= /orP[/nilP ->|h] _ //; rewrite bs2map_Ok.
Qed.

Lemma lmms1_total (z : G1 E) crs :
  linear_map_MSMEG1 z crs = checked [:: reads (1 < size (crs_v crs))%N] (pairT (i1 z) (one2 crs)).
Proof.
apply: checked_all; first exact: (proj1 (step_lmms1 z crs)).
by case/andP=> /= h _; rewrite /linear_map_MSMEG1 s2map_Ok // /s2map scale1r.
Qed.
Lemma lmms2_total (z : G2 E) crs :
  linear_map_MSMEG2 z crs = checked [:: reads (1 < size (crs_u crs))%N] (pairT (one1 crs) (i2 z)).
Proof.
apply: checked_all; first exact: (proj1 (step_lmms2 z crs)).
by case/andP=> /= h _; rewrite /linear_map_MSMEG2 s1map_Ok // /s1map scale1r.
Qed.
Lemma lmquad_total (z : Fr E) crs :
  linear_map_quad z crs
  = checked [:: reads (1 < size (crs_u crs))%N; reads (1 < size (crs_v crs))%N] (pairT (one1 crs) (k2 crs z)).
Proof.
apply: checked_all; first exact: (proj1 (step_lmquad z crs)).
case/and3P=> /= hu hv _; rewrite /linear_map_quad s1map_Ok // s2map_Ok //= /s1map /s2map !scale1r.
by [].
Qed.

Section Commits.
Context {R : rng E}.
Implicit Types (s : rst R).

Lemma lin1E (X : seq (G1 E)) : com1_batch_linear_map X = [seq i1 x | x <- X].
Proof. by []. Qed.
Lemma lin2E (X : seq (G2 E)) : com2_batch_linear_map X = [seq i2 x | x <- X].
Proof. by []. Qed.
Lemma s1mapE crs x : s1map crs x = k1 crs x.
Proof. by []. Qed.
Lemma s2mapE crs x : s2map crs x = k2 crs x.
Proof. by []. Qed.
End Commits.
End Curve.
