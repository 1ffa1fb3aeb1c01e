(** Laws of the matrix operations, over any scalar action. *)
From mathcomp Require Import all_ssreflect all_algebra.
From Verif Require Import Base BaseLemmas Group DataStructures MatLemmas Spec SpecMat.
Set Implicit Arguments.
Unset Strict Implicit.
Unset Printing Implicit Defensive.
Import GRing.Theory.
Local Open Scope ring_scope.

Lemma dims_rect T m n (M : matrix T) : dims m n M -> rect m n M.
Proof. by move=> [h1 h2]; apply/rectP. Qed.
Lemma rect_dims T m n (M : matrix T) : rect m n M -> dims m n M.
Proof. by move/rectP. Qed.
Lemma is_mat_mkmat (V : zmodType) m n (f g : nat -> nat -> V) :
  (forall i j, (i < m)%N -> (j < n)%N -> f i j = g i j) -> is_mat m n (mkmat m n f) g.
Proof.
move=> h; split; first exact: rect_dims (rect_mkmat _ _ _).
by move=> i j hi hj; rewrite -h // -(ent_mkmat 0 f hi hj).
Qed.
Lemma zero_matE (V : zmodType) m n : zero_mat m n = mkmat m n (fun _ _ => 0) :> matrix V.
Proof.
have e A (x : A) k : nseq k x = mkseq (fun _ => x) k.
  apply: (@eq_from_nth _ x); rewrite size_nseq ?size_mkseq // => i hi.
  by rewrite nth_nseq nth_mkseq // hi.
by rewrite /zero_mat /mkmat -e; congr nseq; rewrite -e.
Qed.

Section Laws.
Context {F : fieldType} {V : zmodType}.
Variable sm : V -> F -> V.
Hypotheses (smDl : forall x y c, sm (x + y) c = sm x c + sm y c)
           (smDr : forall x c d, sm x (c + d) = sm x c + sm x d)
           (smA : forall x c d, sm (sm x c) d = sm x (c * d))
           (sm1 : forall x, sm x 1 = x).
Variables (ord ord' ord2 ord3 : nat -> nat -> order) (par par' par2 par3 : bool).
Hypotheses (vo : valid_ord ord) (vo' : valid_ord ord') (vo2 : valid_ord ord2) (vo3 : valid_ord ord3).
Implicit Types (M N : matrix V) (A B : matrix F).

Notation rm o := (mat_right_mul 0 +%R sm o).
Notation lm o := (mat_left_mul 0 +%R sm o).
Notation frm o := (mat_right_mul 0 +%R *%R o).

Lemma sm0l c : sm 0 c = 0.
Proof. by apply: (addrI (sm 0 c)); rewrite -smDl !addr0. Qed.
Lemma sm_sum I r (P : pred I) f c : sm (\sum_(i <- r | P i) f i) c = \sum_(i <- r | P i) sm (f i) c.
Proof. by apply: (big_morph (fun x => sm x c)) => [x y|]; [exact: smDl | exact: sm0l]. Qed.
Lemma sm0r x : sm x 0 = 0.
Proof. by apply: (addrI (sm x 0)); rewrite -smDr !addr0. Qed.
Lemma sm_sumr I r (P : pred I) f x : sm x (\sum_(i <- r | P i) f i) = \sum_(i <- r | P i) sm x (f i).
Proof. by apply: (big_morph (sm x)) => [y z|]; [exact: smDr | exact: sm0r]. Qed.

(** ** Products *)
Lemma rm_value m n p M A : (0 < m)%N -> (0 < n)%N -> (0 < p)%N -> dims m n M -> dims n p A ->
  exists2 P, rm ord M A par = Ok P & is_mat m p P (fun i j => \sum_(k < n) sm (at_ M i k) (at_ A k j)).
Proof.
move=> hm hn hp /dims_rect hM /dims_rect hA; eexists.
  by rewrite [in LHS](rectE 0 hM) [in LHS](rectE 0 hA) (right_mul_mkmat 0 0) //.
by apply: is_mat_mkmat => i j hi hj; rewrite tsum_big big_mkord.
Qed.
Lemma lm_value m n p M A : (0 < m)%N -> (0 < n)%N -> (0 < p)%N -> dims m n A -> dims n p M ->
  exists2 P, lm ord M A par = Ok P & is_mat m p P (fun i j => \sum_(k < n) sm (at_ M k j) (at_ A i k)).
Proof.
move=> hm hn hp /dims_rect hA /dims_rect hM; eexists.
  by rewrite [in LHS](rectE 0 hM) [in LHS](rectE 0 hA) (left_mul_mkmat 0 0) //.
by apply: is_mat_mkmat => i j hi hj; rewrite tsum_big big_mkord.
Qed.

Lemma rmE m n p f g : (0 < m)%N -> (0 < n)%N -> (0 < p)%N ->
  forall o b, valid_ord o -> rm o (mkmat m n f) (mkmat n p g) b
  = Ok (mkmat m p (fun i j => \sum_(0 <= k < n) sm (f i k) (g k j))).
Proof.
move=> hm hn hp o b ho; rewrite (right_mul_mkmat 0 0) //; congr Ok; apply: eq_mkmat => i j _ _.
exact: tsum_big.
Qed.
Lemma lmE m n p f g : (0 < m)%N -> (0 < n)%N -> (0 < p)%N ->
  forall o b, valid_ord o -> lm o (mkmat n p g) (mkmat m n f) b
  = Ok (mkmat m p (fun i j => \sum_(0 <= k < n) sm (g k j) (f i k))).
Proof.
move=> hm hn hp o b ho; rewrite (left_mul_mkmat 0 0) //; congr Ok; apply: eq_mkmat => i j _ _.
exact: tsum_big.
Qed.
Lemma frmE m n p (f g : nat -> nat -> F) : (0 < m)%N -> (0 < n)%N -> (0 < p)%N ->
  forall o b, valid_ord o -> frm o (mkmat m n f) (mkmat n p g) b
  = Ok (mkmat m p (fun i j => \sum_(0 <= k < n) f i k * g k j)).
Proof.
move=> hm hn hp o b ho; rewrite (right_mul_mkmat 0 0) //; congr Ok; apply: eq_mkmat => i j _ _.
exact: tsum_big.
Qed.

Lemma rm_assoc m n p q M A B : (0 < m)%N -> (0 < n)%N -> (0 < p)%N -> (0 < q)%N ->
  dims m n M -> dims n p A -> dims p q B ->
  agree (let! MA := rm ord M A par in rm ord' MA B par')
        (let! AB := frm ord2 A B par2 in rm ord3 M AB par3).
Proof.
move=> hm hn hp hq /dims_rect/(rectE 0)-> /dims_rect/(rectE 0)-> /dims_rect/(rectE 0)->.
rewrite rmE // frmE //= !rmE //; eexists; split; first by [].
congr Ok; apply: eq_mkmat => i j _ _; under eq_bigr do rewrite sm_sumr.
rewrite exchange_big /=; apply: eq_bigr => k _; rewrite sm_sum; apply: eq_bigr => l _.
by rewrite smA.
Qed.

Lemma lm_assoc m n p q A B M : (0 < m)%N -> (0 < n)%N -> (0 < p)%N -> (0 < q)%N ->
  dims m n A -> dims n p B -> dims p q M ->
  agree (let! BM := lm ord M B par in lm ord' BM A par')
        (let! AB := frm ord2 A B par2 in lm ord3 M AB par3).
Proof.
move=> hm hn hp hq /dims_rect/(rectE 0)-> /dims_rect/(rectE 0)-> /dims_rect/(rectE 0)->.
rewrite lmE // frmE //= !lmE //; eexists; split; first by [].
congr Ok; apply: eq_mkmat => i j _ _; under eq_bigr do rewrite sm_sumr.
rewrite exchange_big /=; apply: eq_bigr => k _; rewrite sm_sum; apply: eq_bigr => l _.
by rewrite smA mulrC.
Qed.

Lemma lm_rm m n p q A M B : (0 < m)%N -> (0 < n)%N -> (0 < p)%N -> (0 < q)%N ->
  dims m n A -> dims n p M -> dims p q B ->
  agree (let! AM := lm ord M A par in rm ord' AM B par')
        (let! MB := rm ord2 M B par2 in lm ord3 MB A par3).
Proof.
move=> hm hn hp hq /dims_rect/(rectE 0)-> /dims_rect/(rectE 0)-> /dims_rect/(rectE 0)->.
rewrite lmE // rmE //= rmE // lmE //; eexists; split; first by [].
congr Ok; apply: eq_mkmat => i j _ _; under eq_bigr do rewrite sm_sum.
rewrite exchange_big /=; apply: eq_bigr => k _; rewrite sm_sum; apply: eq_bigr => l _.
by rewrite !smA mulrC.
Qed.

Lemma addE m n (f g : nat -> nat -> V) : (0 < m)%N ->
  mat_add +%R (mkmat m n f) (mkmat m n g) = Ok (mkmat m n (fun i j => f i j + g i j)).
Proof. exact: (mat_add_mkmat 0). Qed.
Lemma faddE m n (f g : nat -> nat -> F) : (0 < m)%N ->
  mat_add +%R (mkmat m n f) (mkmat m n g) = Ok (mkmat m n (fun i j => f i j + g i j)).
Proof. exact: (mat_add_mkmat 0). Qed.

Lemma rm_addl m n p M N A : (0 < m)%N -> (0 < n)%N -> (0 < p)%N ->
  dims m n M -> dims m n N -> dims n p A ->
  agree (let! Z := mat_add +%R M N in rm ord Z A par)
        (let! MA := rm ord' M A par' in let! NA := rm ord2 N A par2 in mat_add +%R MA NA).
Proof.
move=> hm hn hp /dims_rect/(rectE 0)-> /dims_rect/(rectE 0)-> /dims_rect/(rectE 0)->.
rewrite addE // !rmE //= rmE // addE //; eexists; split; first by [].
congr Ok; apply: eq_mkmat => i j _ _; rewrite -big_split; apply: eq_bigr => k _.
by rewrite smDl.
Qed.
Lemma rm_addr m n p M A B : (0 < m)%N -> (0 < n)%N -> (0 < p)%N ->
  dims m n M -> dims n p A -> dims n p B ->
  agree (let! Z := mat_add +%R A B in rm ord M Z par)
        (let! MA := rm ord' M A par' in let! MB := rm ord2 M B par2 in mat_add +%R MA MB).
Proof.
move=> hm hn hp /dims_rect/(rectE 0)-> /dims_rect/(rectE 0)-> /dims_rect/(rectE 0)->.
rewrite faddE // !rmE //= rmE // addE //; eexists; split; first by [].
congr Ok; apply: eq_mkmat => i j _ _; rewrite -big_split; apply: eq_bigr => k _.
by rewrite smDr.
Qed.
Lemma lm_addl m n p M N A : (0 < m)%N -> (0 < n)%N -> (0 < p)%N ->
  dims m n A -> dims n p M -> dims n p N ->
  agree (let! Z := mat_add +%R M N in lm ord Z A par)
        (let! AM := lm ord' M A par' in let! AN := lm ord2 N A par2 in mat_add +%R AM AN).
Proof.
move=> hm hn hp /dims_rect/(rectE 0)-> /dims_rect/(rectE 0)-> /dims_rect/(rectE 0)->.
rewrite addE // !lmE //= lmE // addE //; eexists; split; first by [].
congr Ok; apply: eq_mkmat => i j _ _; rewrite -big_split; apply: eq_bigr => k _.
by rewrite smDl.
Qed.
Lemma lm_addr m n p M A B : (0 < m)%N -> (0 < n)%N -> (0 < p)%N ->
  dims m n A -> dims m n B -> dims n p M ->
  agree (let! Z := mat_add +%R A B in lm ord M Z par)
        (let! AM := lm ord' M A par' in let! BM := lm ord2 M B par2 in mat_add +%R AM BM).
Proof.
move=> hm hn hp /dims_rect/(rectE 0)-> /dims_rect/(rectE 0)-> /dims_rect/(rectE 0)->.
rewrite faddE // !lmE //= lmE // addE //; eexists; split; first by [].
congr Ok; apply: eq_mkmat => i j _ _; rewrite -big_split; apply: eq_bigr => k _.
by rewrite smDr.
Qed.

(** Transposing reverses products. *)
Lemma trE T (z : T) m n (f : nat -> nat -> T) : (0 < m)%N ->
  mat_transpose (mkmat m n f) = Ok (mkmat n m (fun i j => f j i)).
Proof. exact: (transpose_mkmat z). Qed.

Lemma tr_rm m n p M A : (0 < m)%N -> (0 < n)%N -> (0 < p)%N -> dims m n M -> dims n p A ->
  agree (let! MA := rm ord M A par in mat_transpose MA)
        (let! Mt := mat_transpose M in let! At := mat_transpose A in lm ord' Mt At par').
Proof.
move=> hm hn hp /dims_rect/(rectE 0)-> /dims_rect/(rectE 0)->.
by rewrite rmE // !(trE 0) //= !(trE 0) //= lmE //; eexists.
Qed.
Lemma tr_lm m n p M A : (0 < m)%N -> (0 < n)%N -> (0 < p)%N -> dims m n A -> dims n p M ->
  agree (let! AM := lm ord M A par in mat_transpose AM)
        (let! Mt := mat_transpose M in let! At := mat_transpose A in rm ord' Mt At par').
Proof.
move=> hm hn hp /dims_rect/(rectE 0)-> /dims_rect/(rectE 0)->.
by rewrite lmE // !(trE 0) //= !(trE 0) //= rmE //; eexists.
Qed.

(** ** Sums, opposites, multiples *)
Lemma add_value m n M N : (0 < m)%N -> dims m n M -> dims m n N ->
  exists2 P, mat_add +%R M N = Ok P & is_mat m n P (fun i j => at_ M i j + at_ N i j).
Proof.
move=> hm /dims_rect hM /dims_rect hN; eexists.
  by rewrite [in LHS](rectE 0 hM) [in LHS](rectE 0 hN) addE.
exact: is_mat_mkmat.
Qed.
Lemma add_comm m n M N : (0 < m)%N -> dims m n M -> dims m n N ->
  agree (mat_add +%R M N) (mat_add +%R N M).
Proof.
move=> hm /dims_rect/(rectE 0)-> /dims_rect/(rectE 0)->; rewrite !addE //.
by eexists; split; first by []; congr Ok; apply: eq_mkmat => i j _ _; rewrite addrC.
Qed.
Lemma add_assoc m n M N P : (0 < m)%N -> dims m n M -> dims m n N -> dims m n P ->
  agree (let! MN := mat_add +%R M N in mat_add +%R MN P)
        (let! NP := mat_add +%R N P in mat_add +%R M NP).
Proof.
move=> hm /dims_rect/(rectE 0)-> /dims_rect/(rectE 0)-> /dims_rect/(rectE 0)->; rewrite !addE //= !addE //.
by eexists; split; first by []; congr Ok; apply: eq_mkmat => i j _ _; rewrite addrA.
Qed.
Lemma neg_value m n M : dims m n M ->
  exists2 P, mat_neg -%R M = Ok P & is_mat m n P (fun i j => - at_ M i j).
Proof.
move=> /dims_rect hM; eexists; first by rewrite [in LHS](rectE 0 hM) (mat_neg_mkmat 0).
exact: is_mat_mkmat.
Qed.
Lemma add_neg m n M : (0 < m)%N -> dims m n M ->
  (let! N := mat_neg -%R M in mat_add +%R M N) = Ok (zero_mat m n).
Proof.
move=> hm /dims_rect/(rectE 0)->; rewrite (mat_neg_mkmat 0) /= addE // zero_matE.
by congr Ok; apply: eq_mkmat => i j _ _; rewrite subrr.
Qed.
Lemma add_zero m n M : (0 < m)%N -> dims m n M -> mat_add +%R M (zero_mat m n) = Ok M.
Proof.
move=> hm /dims_rect hM; rewrite {2}(rectE 0 hM) {1}(rectE 0 hM) zero_matE addE //.
by congr Ok; apply: eq_mkmat => i j _ _; rewrite addr0.
Qed.
Lemma smulE m n (f : nat -> nat -> V) k : (0 < m)%N ->
  mat_scalar_mul sm (mkmat m n f) k = Ok (mkmat m n (fun i j => sm (f i j) k)).
Proof.
move=> hm; rewrite (mat_scalar_mul_Ok 0) ?size_mkmat ?ncols_mkmat ?rows_ge_mkmat //.
by congr Ok; apply: eq_mkmat => i j hi hj; rewrite ent_mkmat.
Qed.
Lemma smul_value m n M k : (0 < m)%N -> dims m n M ->
  exists2 P, mat_scalar_mul sm M k = Ok P & is_mat m n P (fun i j => sm (at_ M i j) k).
Proof.
move=> hm /dims_rect hM; eexists; first by rewrite [in LHS](rectE 0 hM) smulE.
exact: is_mat_mkmat.
Qed.
Lemma smul_addl m n M N k : (0 < m)%N -> dims m n M -> dims m n N ->
  agree (let! Z := mat_add +%R M N in mat_scalar_mul sm Z k)
        (let! Mk := mat_scalar_mul sm M k in let! Nk := mat_scalar_mul sm N k in mat_add +%R Mk Nk).
Proof.
move=> hm /dims_rect/(rectE 0)-> /dims_rect/(rectE 0)->; rewrite addE // !smulE //= smulE // addE //.
by eexists; split; first by []; congr Ok; apply: eq_mkmat => i j _ _; rewrite smDl.
Qed.
Lemma smul_addr m n M k l : (0 < m)%N -> dims m n M ->
  agree (mat_scalar_mul sm M (k + l))
        (let! Mk := mat_scalar_mul sm M k in let! Ml := mat_scalar_mul sm M l in mat_add +%R Mk Ml).
Proof.
move=> hm /dims_rect/(rectE 0)->; rewrite !smulE //= addE //.
by eexists; split; first by []; congr Ok; apply: eq_mkmat => i j _ _; rewrite smDr.
Qed.
Lemma smul_mul m n M k l : (0 < m)%N -> dims m n M ->
  agree (mat_scalar_mul sm M (k * l)) (let! Mk := mat_scalar_mul sm M k in mat_scalar_mul sm Mk l).
Proof.
move=> hm /dims_rect/(rectE 0)->; rewrite !smulE //= smulE //.
by eexists; split; first by []; congr Ok; apply: eq_mkmat => i j _ _; rewrite smA.
Qed.
Lemma smul_one m n M : (0 < m)%N -> dims m n M -> mat_scalar_mul sm M 1 = Ok M.
Proof.
move=> hm /dims_rect hM; rewrite {2}(rectE 0 hM) {1}(rectE 0 hM) smulE //.
by congr Ok; apply: eq_mkmat => i j _ _; rewrite sm1.
Qed.

(** ** Transpose *)
Lemma tr_value m n M : (0 < m)%N -> dims m n M ->
  exists2 P, mat_transpose M = Ok P & is_mat n m P (fun i j => at_ M j i).
Proof.
move=> hm /dims_rect hM; eexists; first by rewrite [in LHS](rectE 0 hM) (trE 0).
exact: is_mat_mkmat.
Qed.
Lemma tr_tr m n M : (0 < m)%N -> (0 < n)%N -> dims m n M ->
  (let! Mt := mat_transpose M in mat_transpose Mt) = Ok M.
Proof. by move=> hm hn /dims_rect hM; rewrite (rectE 0 hM) (trE 0) //= (trE 0). Qed.
End Laws.

(** ** Exact outcomes on all shapes *)
Lemma returnsP A (r : res A) : returns r <-> isok r.
Proof. by split=> [|/isokP] // [a ->]. Qed.
Lemma ncols_row T (M : matrix T) : ncols M = size (mrow M 0).
Proof. by rewrite /ncols /mrow nth0. Qed.
Lemma rows_geP T n (M : matrix T) :
  reflect (forall i, (i < size M)%N -> (n <= size (mrow M i))%N) (rows_ge n M).
Proof. by apply: (iffP (all_nthP [::])). Qed.
Lemma rows_leP T n (M : matrix T) :
  reflect (forall i, (i < size M)%N -> (size (mrow M i) <= n)%N) (rows_le n M).
Proof. by apply: (iffP (all_nthP [::])). Qed.
Lemma no_cellsP T (M : matrix T) : reflect (M = [::] \/ mrow M 0 = [::]) (no_cells M).
Proof.
rewrite /no_cells; apply: (iffP orP) => -[].
- by move=> /nilP; left.
- by rewrite -nth0 => /nilP; right.
- by move=> ->; left.
by rewrite /mrow nth0 => ->; right.
Qed.
Lemma eq_is_mat (V : zmodType) m n (M : matrix V) f g :
  (forall i j, (i < m)%N -> (j < n)%N -> f i j = g i j) -> is_mat m n M f -> is_mat m n M g.
Proof. by move=> h [hd hf]; split=> // i j hi hj; rewrite hf // h. Qed.

Section Exact.
Context {F : fieldType} {V : zmodType}.
Variable sm : V -> F -> V.
Implicit Types (A B : matrix V) (L : matrix F).

Lemma add_exact A B :
  (returns (mat_add +%R A B) <->
   [/\ size A = size B, (0 < size A)%N, size (mrow A 0) = size (mrow B 0)
     & forall i, (i < size A)%N -> (size (mrow A 0) <= size (mrow A i))%N /\ (size (mrow A 0) <= size (mrow B i))%N]) /\
  (forall C, mat_add +%R A B = Ok C -> is_mat (size A) (size (mrow A 0)) C (fun i j => at_ A i j + at_ B i j)).
Proof.
have hs : returns (mat_add +%R A B) <-> add_shape A B by apply: (iff_trans (returnsP _)); rewrite (isok_mat_add 0).
split; last first.
  move=> C hC; have h : add_shape A B by apply/hs; exists C.
  move: hC; rewrite (mat_add_Ok 0 +%R h) ncols_row => -[<-].
  exact: is_mat_mkmat.
apply: (iff_trans hs); rewrite /add_shape !ncols_row; split.
  case/and5P=> /eqP h1 h2 /eqP h3 /rows_geP h4 /rows_geP h5; split=> // i hi.
  by split; [exact: h4 | apply: h5; rewrite -h1].
case=> h1 h2 h3 h4; apply/and5P; split; rewrite ?h1 ?h3 //.
- by rewrite -h1.
- by apply/rows_geP => i hi; rewrite -h3; case: (h4 i hi).
by apply/rows_geP => i hi; rewrite -h3; apply: (proj2 (h4 i _)); rewrite h1.
Qed.

Lemma smul_exact A k :
  (returns (mat_scalar_mul sm A k) <->
   (0 < size A)%N /\ forall i, (i < size A)%N -> (size (mrow A 0) <= size (mrow A i))%N) /\
  (forall C, mat_scalar_mul sm A k = Ok C ->
     is_mat (size A) (size (mrow A 0)) C (fun i j => sm (at_ A i j) k)).
Proof.
have hs : returns (mat_scalar_mul sm A k) <-> (0 < size A)%N && rows_ge (ncols A) A.
  by apply: (iff_trans (returnsP _)); rewrite (isok_mat_scalar_mul 0).
split; last first.
  move=> C hC; have /andP[h1 h2] : (0 < size A)%N && rows_ge (ncols A) A by apply/hs; exists C.
  move: hC; rewrite (mat_scalar_mul_Ok 0) // ncols_row => -[<-].
  exact: is_mat_mkmat.
by apply: (iff_trans hs); rewrite ncols_row; split=> [/andP[h1 /rows_geP h2]|[h1 h2]] //; apply/andP; split=> //; apply/rows_geP.
Qed.

Lemma tr_exact A :
  (returns (mat_transpose A) <->
   (0 < size A)%N /\ forall i, (i < size A)%N -> (size (mrow A i) <= size (mrow A 0))%N) /\
  (forall C, mat_transpose A = Ok C -> size C = size (mrow A 0) /\
     forall i, (i < size C)%N -> mrow C i = [seq nth 0 r i | r <- A & (i < size r)%N]).
Proof.
have hs : returns (mat_transpose A) <-> (0 < size A)%N && rows_le (ncols A) A.
  by apply: (iff_trans (returnsP _)); rewrite (isok_transpose 0).
split; last first.
  move=> C hC; have /andP[h1 h2] : (0 < size A)%N && rows_le (ncols A) A by apply/hs; exists C.
  move: hC; rewrite (transpose_Ok 0) // ncols_row => -[<-]; rewrite size_mkseq; split=> // i hi.
  by rewrite /mrow nth_mkseq.
by apply: (iff_trans hs); rewrite ncols_row; split=> [/andP[h1 /rows_leP h2]|[h1 h2]] //; apply/andP; split=> //; apply/rows_leP.
Qed.

Variables (ord : nat -> nat -> order) (par : bool).
Hypothesis vo : valid_ord ord.
Notation rm := (mat_right_mul 0 +%R sm ord).
Notation lm := (mat_left_mul 0 +%R sm ord).

Lemma rm_exact A L :
  (A = [::] \/ mrow A 0 = [::] \/ L = [::] \/ mrow L 0 = [::] -> rm A L par = Ok [::]) /\
  (A <> [::] -> mrow A 0 <> [::] -> L <> [::] -> mrow L 0 <> [::] ->
   (returns (rm A L par) <->
    [/\ size (mrow A 0) = size L, (forall i, (i < size A)%N -> (size L <= size (mrow A i))%N)
      & (forall i, (i < size L)%N -> (size (mrow L 0) <= size (mrow L i))%N)]) /\
   (forall C, rm A L par = Ok C ->
      is_mat (size A) (size (mrow L 0)) C (fun i j => \sum_(k < size L) sm (at_ A i k) (at_ L k j)))).
Proof.
split=> [h|h1 h2 h3 h4].
  apply: (right_mul_empty 0); apply/orP; case: h => [|[|h]]; [left|left|right]; apply/no_cellsP; tauto.
have nA : no_cells A = false by apply/negbTE/negP => /no_cellsP; tauto.
have nL : no_cells L = false by apply/negbTE/negP => /no_cellsP; tauto.
have hs : returns (rm A L par) <-> right_mul_shape A L by apply: (iff_trans (returnsP _)); rewrite isok_right_mul.
move: hs; rewrite /right_mul_shape nA nL /= !ncols_row => hs; split.
  apply: (iff_trans hs); split=> [/and3P[/eqP e /rows_geP ha /rows_geP hl]|[e ha hl]] //.
  by apply/and3P; split; [exact/eqP | exact/rows_geP | exact/rows_geP].
move=> C hC; have /and3P[/eqP e ha hl] := proj1 hs (ex_intro _ C hC).
move: hC; rewrite (right_mul_Ok 0 0) ?ncols_row // => -[<-].
by apply: is_mat_mkmat => i j hi hj; rewrite tsum_big big_mkord.
Qed.

Lemma lm_exact A L :
  (L = [::] \/ mrow L 0 = [::] \/ A = [::] \/ mrow A 0 = [::] -> lm A L par = Ok [::]) /\
  (L <> [::] -> mrow L 0 <> [::] -> A <> [::] -> mrow A 0 <> [::] ->
   (returns (lm A L par) <->
    [/\ size (mrow L 0) = size A, (forall i, (i < size L)%N -> (size A <= size (mrow L i))%N)
      & (forall i, (i < size A)%N -> (size (mrow A 0) <= size (mrow A i))%N)]) /\
   (forall C, lm A L par = Ok C ->
      is_mat (size L) (size (mrow A 0)) C (fun i j => \sum_(k < size A) sm (at_ A k j) (at_ L i k)))).
Proof.
split=> [h|h1 h2 h3 h4].
  apply: (left_mul_empty 0); apply/orP; case: h => [|[|h]]; [left|left|right]; apply/no_cellsP; tauto.
have nA : no_cells A = false by apply/negbTE/negP => /no_cellsP; tauto.
have nL : no_cells L = false by apply/negbTE/negP => /no_cellsP; tauto.
have hs : returns (lm A L par) <-> left_mul_shape A L by apply: (iff_trans (returnsP _)); rewrite isok_left_mul.
move: hs; rewrite /left_mul_shape nA nL /= !ncols_row => hs; split.
  apply: (iff_trans hs); split=> [/and3P[/eqP e /rows_geP ha /rows_geP hl]|[e ha hl]] //.
  by apply/and3P; split; [exact/eqP | exact/rows_geP | exact/rows_geP].
move=> C hC; have /and3P[/eqP e ha hl] := proj1 hs (ex_intro _ C hC).
move: hC; rewrite (left_mul_Ok 0 0) ?ncols_row // => -[<-].
by apply: is_mat_mkmat => i j hi hj; rewrite tsum_big big_mkord.
Qed.
End Exact.

Lemma cvv_exact (T : Type) (M : matrix T) :
  (returns (col_vec_to_vec M) <-> size M = 1%N \/ forall i, (i < size M)%N -> mrow M i <> [::]) /\
  (size M = 1%N -> col_vec_to_vec M = Ok (mrow M 0)) /\
  (size M <> 1%N -> forall v, col_vec_to_vec M = Ok v ->
     size v = size M /\ forall d i, (i < size M)%N -> nth d v i = head d (mrow M i)).
Proof.
split; [|split].
- apply: (iff_trans (returnsP _)); rewrite isok_col_vec_to_vec; split.
    case/orP=> [/eqP|/rows_geP h]; [by left|right=> i hi e].
    by have := h i hi; rewrite e.
  case=> [->//|h]; apply/orP; right; apply/rows_geP => i hi.
  by have := h i hi; rewrite /mrow; case: (nth _ _ _).
- by case: M => [|r [|]].
move=> h v; rewrite /col_vec_to_vec; case: eqP => // _ hv; split; first exact: mapM_size hv.
move=> d i hi; have := mapM_inv [::] d hv hi.
by rewrite /mrow -nth0; case/(idx_ok d).
Qed.
