(** Steps of the prover on matrices of known dimensions. *)
From mathcomp Require Import all_ssreflect all_algebra.
From Verif Require Import Base BaseLemmas Group DataStructures MatLemmas ProveLemmas Commit CommitLemmas Statement Prove Verify Spec SpecPanic PanicLemmas PanicSteps.
Set Implicit Arguments.
Unset Strict Implicit.
Unset Printing Implicit Defensive.
Import GRing.Theory.

Section Shapes.
Context {F : fieldType} {G : lmodType F}.
Implicit Types (A B L : matrix F) (M N : matrix (com G)) (w : seq (com G)) (a b c k : nat).

Lemma fright_ok ord A B a b c par : (forall r c, perm_eq (ord r c) (tasks r c)) ->
  rect a b A -> rect b c B -> 0 < a -> 0 < b -> 0 < c ->
  step (fmat_right_mul ord A B par) [::] (rect a c).
Proof.
move=> vo hA hB a0 b0 c0; have := step_fright A B par vo.
rewrite /right_mul_checks (void_rect hA) // (void_rect hB) // (width_rect hA) // (width_rect hB) //.
rewrite (rect_size hA) (rect_size hB) => h; apply: step_as h _.
by rewrite /= eqxx (wide_rect hA) // (wide_rect hB).
Qed.

Lemma col_chk ord w L a b par : (forall r c, perm_eq (ord r c) (tasks r c)) ->
  rect a b L -> 0 < a -> 0 < b ->
  step (cmat_left_mul ord (vec_to_col_vec w) L par) [:: asserts (nilp w || (b == size w))]
    (fun M => if nilp w then M = [::] else rect a 1 M).
Proof.
move=> vo hL a0 b0; have := step_col w L par vo.
rewrite (void_rect hL) // orbF (width_rect hL) // (rect_size hL) => h; apply: step_as h _ => /=.
by case: (nilp w) => //=; case: eqP => // <-; rewrite (wide_rect hL).
Qed.

Lemma col_ok ord w L a b par : (forall r c, perm_eq (ord r c) (tasks r c)) ->
  rect a b L -> size w = b -> 0 < a -> 0 < b ->
  step (cmat_left_mul ord (vec_to_col_vec w) L par) [::] (rect a 1).
Proof.
move=> vo hL hw a0 b0; have := col_chk w par vo hL a0 b0.
by rewrite /nilp hw eqn0Ngt b0 /= eqxx => h; apply: step_as h _.
Qed.

Lemma one_ok ord (x : com G) L a par : (forall r c, perm_eq (ord r c) (tasks r c)) ->
  rect a 1 L -> 0 < a -> step (cmat_left_mul ord [:: [:: x]] L par) [::] (rect a 1).
Proof. by move=> vo hL a0; exact: (@col_ok ord [:: x] L a 1 par vo hL). Qed.

Lemma cadd_ok M N a : rect a 1 M -> rect a 1 N -> 0 < a -> step (cmat_add M N) [::] (rect a 1).
Proof.
move=> hM hN a0; have := step_cadd M N; rewrite /add_checks (rect_size hM) (rect_size hN).
rewrite (width_rect hM) // (width_rect hN) // => h; apply: step_as h _.
by rewrite /= eqxx a0 (wide_rect hM) // (wide_rect hN).
Qed.

Lemma cadd_chkl (z : bool) M N a : (if z then M = [::] else rect a 1 M) -> rect a 1 N -> 0 < a ->
  step (cmat_add M N) [:: asserts (~~ z)] (rect a 1).
Proof.
case: z => [->|hM] hN a0; last by apply: step_as; [exact: cadd_ok hM hN a0|].
have h := step_cadd [::] N; case: h => h1 h2; split; last first.
  move=> x hx; move: h1; rewrite hx /add_checks /= (rect_size hN); by case: eqP => // <-.
by rewrite h1 /add_checks /= (rect_size hN); case: eqP a0 => // <-.
Qed.

Lemma cadd_chkr (z : bool) M N a : rect a 1 M -> (if z then N = [::] else rect a 1 N) -> 0 < a ->
  step (cmat_add M N) [:: asserts (~~ z)] (rect a 1).
Proof.
move=> hM; case: z => [->|hN] a0; last by apply: step_as; [exact: cadd_ok hM hN a0|].
have h := step_cadd M [::]; case: h => h1 h2; split; last first.
  move=> x hx; move: h1; rewrite hx /add_checks /= (rect_size hM); by case: eqP => // -> //; case: eqP a0.
by rewrite h1 /add_checks /= (rect_size hM); case: eqP a0 => // ->.
Qed.

Lemma flat_ok M a : rect a 1 M -> 0 < a -> step (col_vec_to_vec M) [::] (fun v => size v = a).
Proof.
move=> hM a0; have h := step_flatten M; apply: step_as.
  apply: step_weak h _ => v ->; rewrite (rect_size hM) (width_rect hM) //; by case: eqP.
by rewrite /flatten_checks; case: ifP => //= _; rewrite (wide_rect hM).
Qed.

Lemma rect_map T T' (f : T -> T') (A : matrix T) a b : rect a b A -> rect a b [seq [seq f x | x <- r] | r <- A].
Proof.
case/rectP=> h1 h2; apply/rectP; rewrite size_map; split=> // i hi.
by rewrite (nth_map [::]) ?h1 // size_map h2.
Qed.

Lemma fneg_ok A a b : rect a b A -> step (fmat_neg A) [::] (rect a b).
Proof. by move=> hA; apply: step_weak (step_fneg A) _ => M ->; exact: rect_map. Qed.

Lemma fadd_ok A B a b : rect a b A -> rect a b B -> 0 < a -> step (fmat_add A B) [::] (rect a b).
Proof.
move=> hA hB a0; have := step_fadd A B; rewrite /add_checks (rect_size hA) (rect_size hB).
rewrite (width_rect hA) // (width_rect hB) // => h; apply: step_as h _.
by rewrite /= eqxx a0 eqxx (wide_rect hA) // (wide_rect hB).
Qed.

(** Transposition of a matrix whose rows may be shorter than its first row. *)
Definition tr k A : matrix F := mkseq (fun i => [seq nth 0%R r i | r <- A & i < size r]) k.

Lemma size_tr k A : size (tr k A) = k.
Proof. exact: size_mkseq. Qed.

Lemma size_tr_row k A i : i < k -> size (nth [::] (tr k A) i) = reach i.+1 A.
Proof. by move=> hi; rewrite nth_mkseq // size_map size_filter. Qed.

Lemma width_tr k A : 0 < k -> width (tr k A) = reach 1 A.
Proof. by case: k => // k _; rewrite -(@size_tr_row k.+1 A 0). Qed.

Lemma wide_tr1 p A : wide p (tr 1 A) = (p <= reach 1 A).
Proof. by rewrite /wide /tr /= size_map size_filter andbT. Qed.

Lemma wide_tr2 p A : wide p (tr 2 A) = (p <= reach 1 A) && (p <= reach 2 A).
Proof. by rewrite /wide /tr /= !size_map !size_filter andbT. Qed.

Lemma reach_wide k A : (size A <= reach k A) = wide k A.
Proof. by rewrite /wide /reach all_count eqn_leq count_size. Qed.

Lemma reach_le k A : reach k A <= size A.
Proof. exact: count_size. Qed.

Lemma rect_tr k A : rect (size A) k A -> rect k (size A) (tr k A).
Proof.
move=> h; apply/rectP; rewrite size_tr; split=> // i hi; rewrite size_tr_row //.
by apply/eqP; rewrite eqn_leq reach_le reach_wide (wide_rect h).
Qed.

Lemma ftrans_chk A k : 0 < size A -> width A = k ->
  step (fmat_transpose A) [:: reads (narrow k A)] (fun M : matrix F => M = tr k A).
Proof.
move=> h0 hw; have := step_ftrans A; rewrite hw /transpose_checks hw => h; apply: step_as h _.
by rewrite /= h0.
Qed.

Lemma ftrans_ok A a b : rect a b A -> 0 < a -> step (fmat_transpose A) [::] (rect b a).
Proof.
move=> hA a0; have hs := rect_size hA; apply: step_as.
  apply: step_weak (ftrans_chk _ (width_rect hA a0)) _; first by rewrite hs.
  by move=> M ->; have := @rect_tr b A; rewrite hs; apply.
by rewrite /= (narrow_rect hA).
Qed.

(** The products of a transposed randomness matrix: with a column and with the
    matrix of the equation. *)
Lemma void_tr k A : 0 < k -> 0 < size A -> width A = k -> void (tr k A) = false.
Proof.
move=> k0 h0 hw; rewrite /void size_tr eqn0Ngt k0 width_tr // eqn0Ngt.
by case: A h0 hw => //= r A _ ->; rewrite k0.
Qed.

Lemma col_tr1 ord w A par : (forall r c, perm_eq (ord r c) (tasks r c)) ->
  0 < size A -> width A = 1 ->
  step (cmat_left_mul ord (vec_to_col_vec w) (tr 1 A) par) [:: asserts (nilp w || (reach 1 A == size w))]
    (fun M => if nilp w then M = [::] else rect 1 1 M).
Proof.
move=> vo h0 hw; have := step_col w (tr 1 A) par vo.
rewrite void_tr // orbF width_tr // size_tr wide_tr1 => h; apply: step_as h _ => /=.
by case: (nilp w) => //=; case: eqP => // ->; rewrite leqnn.
Qed.

Lemma col_tr2 ord w A par : (forall r c, perm_eq (ord r c) (tasks r c)) ->
  0 < size A -> width A = 2 ->
  step (cmat_left_mul ord (vec_to_col_vec w) (tr 2 A) par)
    [:: asserts (nilp w || (reach 1 A == size w)); reads (nilp w || (size w <= reach 2 A))]
    (fun M => if nilp w then M = [::] else rect 2 1 M).
Proof.
move=> vo h0 hw; have := step_col w (tr 2 A) par vo.
rewrite void_tr // orbF width_tr // size_tr wide_tr2 => h; apply: step_as h _ => /=.
by case: (nilp w) => //=; case: eqP => // ->; rewrite leqnn.
Qed.

Lemma fright_tr1 ord A B n par : (forall r c, perm_eq (ord r c) (tasks r c)) ->
  0 < size A -> width A = 1 -> size B = size A -> width B = n -> 0 < n ->
  step (fmat_right_mul ord (tr 1 A) B par) [:: asserts (reach 1 A == size A); reads (wide n B)] (rect 1 n).
Proof.
move=> vo h0 hw hB hn n0; have := step_fright (tr 1 A) B par vo.
have vB : void B = false by rewrite /void hB hn !eqn0Ngt h0 n0.
rewrite /right_mul_checks void_tr // vB width_tr // hB hn wide_tr1 size_tr => h; apply: step_as h _ => /=.
by case: eqP => // ->; rewrite leqnn.
Qed.

Lemma fright_tr2 ord A B n par : (forall r c, perm_eq (ord r c) (tasks r c)) ->
  0 < size A -> width A = 2 -> size B = size A -> width B = n -> 0 < n ->
  step (fmat_right_mul ord (tr 2 A) B par)
    [:: asserts (reach 1 A == size A); reads (wide 2 A); reads (wide n B)] (rect 2 n).
Proof.
move=> vo h0 hw hB hn n0; have := step_fright (tr 2 A) B par vo.
have vB : void B = false by rewrite /void hB hn !eqn0Ngt h0 n0.
rewrite /right_mul_checks void_tr // vB width_tr // hB hn wide_tr2 size_tr !reach_wide => h; apply: step_as h _ => /=.
case: eqP => // e; have -> : wide 1 A by rewrite -reach_wide e.
by case: (wide 2 A).
Qed.

Lemma fright_chk ord A B a b c par : (forall r c, perm_eq (ord r c) (tasks r c)) ->
  rect a b A -> size B = b -> width B = c -> 0 < a -> 0 < b -> 0 < c ->
  step (fmat_right_mul ord A B par) [:: reads (wide c B)] (rect a c).
Proof.
move=> vo hA hB hc a0 b0 c0; have := step_fright A B par vo.
have vB : void B = false by rewrite /void hB hc !eqn0Ngt b0 c0.
rewrite /right_mul_checks (void_rect hA) // vB (width_rect hA) // (rect_size hA) hB hc => h; apply: step_as h _.
by rewrite /= eqxx (wide_rect hA).
Qed.
End Shapes.
