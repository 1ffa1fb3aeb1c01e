(** What the prover of Prove.v computes, and when it panics. *)
From mathcomp Require Import all_ssreflect all_algebra.
From Verif Require Import Base BaseLemmas Group DataStructures MatLemmas CoreAlg ComLemmas.
From Verif Require Import Commit Statement Prove Spec.
Set Implicit Arguments.
Unset Strict Implicit.
Unset Printing Implicit Defensive.
Import GRing.Theory.
Local Open Scope ring_scope.

Section Draws.
Context {E : pairing} {R : rng E}.
Implicit Types s : rst R.

Lemma afterS k s : after k.+1 s = (rand_fr (after k s)).2.
Proof. by []. Qed.

Lemma afterD j k s : after (j + k) s = after j (after k s).
Proof. by rewrite /after iterD. Qed.

Lemma drawn_after k s j : drawn (after k s) j = drawn s (j + k).
Proof. by rewrite /drawn -afterD. Qed.

Lemma rand_frE s : rand_fr s = (drawn s 0, after 1 s).
Proof. exact: surjective_pairing. Qed.

Lemma rand_fr_after k s : rand_fr (after k s) = (drawn s k, after k.+1 s).
Proof. exact: surjective_pairing. Qed.

Lemma draw_rows2E m (s : rst R) :
  draw_rows2 m s = (mkmat m 2 (fun i j => drawn s (2 * i + j)), after (2 * m) s).
Proof.
elim: m s => [//|m IH] s; rewrite mulnS /= rand_frE rand_fr_after IH; congr (_, _); last first.
  by rewrite -afterD addnC.
rewrite mkmatS; congr cons; apply: eq_mkmat => i j _ _.
by rewrite drawn_after mulnS addnC addnA.
Qed.

Lemma draw_rows1E m (s : rst R) :
  draw_rows1 m s = (mkmat m 1 (fun i j => drawn s (i + j)), after m s).
Proof.
elim: m s => //= m IH s; rewrite rand_frE IH; congr (_, _); last first.
  by rewrite -afterD addn1.
rewrite mkmatS; congr cons; apply: eq_mkmat => i j _ _.
by rewrite drawn_after addn1.
Qed.
End Draws.

Section GProve.
Context {E : pairing}.
Implicit Types (R S G T : matrix (Fr E)).

Notation clm := (mat_left_mul 0 +%R (fun x k => k *: x)).
Notation frm := (mat_right_mul 0 +%R *%R).

(** The common body of the four [prove] functions. *)
Definition gprove {St : Type} (sch : sched) (nx ny : nat) R S G
  (linA linX : seq (Com1 E)) (linB linY : seq (Com2 E))
  (uk : seq (Com1 E)) (vk : seq (Com2 E)) T (kx ky : nat) ty (s : St)
  : res (EquProof E * St) :=
  let! _ := assert_eq nx (size R) in
  let! _ := assert_eq (size G) (size R) in
  let! xr0 := idx R 0 in
  let! _ := assert_eq (size xr0) kx in
  let! _ := assert_eq ny (size S) in
  let! g0 := idx G 0 in
  let! _ := assert_eq (size g0) (size S) in
  let! yr0 := idx S 0 in
  let! _ := assert_eq (size yr0) ky in
  let! xt := mat_transpose R in
  let! yt := mat_transpose S in
  let! xb := clm (sch 0%N) (vec_to_col_vec linB) xt true in
  let! xs := frm (sch 1%N) xt G true in
  let! xsy := clm (sch 2%N) (vec_to_col_vec linY) xs true in
  let! xg := frm (sch 3%N) xt G true in
  let! xgy := frm (sch 4%N) xg S true in
  let! pt := mat_transpose T in
  let! npt := mat_neg -%R pt in
  let! ps := mat_add +%R xgy npt in
  let! ps2 := clm (sch 5%N) (vec_to_col_vec vk) ps true in
  let! pi1 := mat_add +%R xb xsy in
  let! pi2 := mat_add +%R pi1 ps2 in
  let! pi := col_vec_to_vec pi2 in
  let! _ := assert_eq (size pi) kx in
  let! ya := clm (sch 6%N) (vec_to_col_vec linA) yt true in
  let! gt := mat_transpose G in
  let! ys := frm (sch 7%N) yt gt true in
  let! ysx := clm (sch 8%N) (vec_to_col_vec linX) ys true in
  let! pc := clm (sch 9%N) (vec_to_col_vec uk) T true in
  let! th1 := mat_add +%R ya ysx in
  let! th2 := mat_add +%R th1 pc in
  let! theta := col_vec_to_vec th2 in
  let! _ := assert_eq (size theta) ky in
  Ok (mkEquProof pi theta ty T, s).

(** The shapes for which it does not panic. *)
Definition gshape (nx ny : nat) R S G
  (linA : seq (Com1 E)) (linB : seq (Com2 E))
  (uk : seq (Com1 E)) (vk : seq (Com2 E)) (kx ky : nat) : bool :=
  [&& 0 < nx, 0 < ny, rect nx kx R, rect ny ky S & rect nx ny G]%N
  && [&& size linA == ny, size linB == nx, size uk == kx & size vk == ky].

Lemma ge0_neq k : (0 < k)%N -> k = 0%N -> False.
Proof. by case: k. Qed.

Variable sch : sched.
Hypothesis vs : valid_sched sch.

Let vsk k : forall r c, perm_eq (sch k r c) (tasks r c).
Proof. by move=> r c; apply: vs. Qed.

Lemma gprove_mkmat (St : Type) nx ny (R S G T : nat -> nat -> Fr E)
  linA linX linB linY uk vk kx ky ty (s : St) :
  (0 < nx)%N -> (0 < ny)%N -> (0 < kx)%N -> (0 < ky)%N ->
  size linA = ny -> size linB = nx -> size linX = nx -> size linY = ny ->
  size uk = kx -> size vk = ky ->
  gprove sch nx ny (mkmat nx kx R) (mkmat ny ky S) (mkmat nx ny G)
    linA linX linB linY uk vk (mkmat ky kx T) kx ky ty s
  = Ok (mkEquProof
      (mkseq (gs_pi nx ny ky (nth 0 linB) (nth 0 linY) (nth 0 vk) G R S T) kx)
      (mkseq (gs_th nx ny kx (nth 0 linA) (nth 0 linX) (nth 0 uk) G S T) ky)
      ty (mkmat ky kx T), s).
Proof.
move=> hx hy hkx hky hA hB hX hY hu hv.
rewrite /gprove !size_mkmat !assert_eqT //= !idx0 ?size_mkmat //=.
rewrite -!/(ncols _) !ncols_mkmat // !assert_eqT //=.
rewrite !(transpose_mkmat 0) //= !(vec_to_col_vecE 0) hB hY hv hA hX hu.
do 12!rewrite ?(left_mul_mkmat 0 0, right_mul_mkmat 0 0, mat_neg_mkmat 0, mat_add_mkmat 0,
  col_vec_to_vec_mkmat, assert_eqT) ?size_mkseq //=.
congr (Ok (mkEquProof _ _ _ _, _)).
- apply: eq_mkseq => i; rewrite /gs_pi !tsum_big; congr (_ + _ + _).
    by apply: eq_bigr => k _; rewrite tsum_big.
  by apply: eq_bigr => k _; rewrite tsum_big; under [in LHS]eq_bigr do rewrite tsum_big.
- apply: eq_mkseq => i; rewrite /gs_th !tsum_big; congr (_ + _ + _).
  by apply: eq_bigr => k _; rewrite tsum_big.
Qed.

Lemma eq_gs_pi nx ny ky B Y (v : nat -> Com2 E)
  (G R S T G' R' S' T' : nat -> nat -> Fr E) i kx :
  (i < kx)%N ->
  (forall i j, (i < nx)%N -> (j < kx)%N -> R i j = R' i j) ->
  (forall i j, (i < ny)%N -> (j < ky)%N -> S i j = S' i j) ->
  (forall i j, (i < nx)%N -> (j < ny)%N -> G i j = G' i j) ->
  (forall i j, (i < ky)%N -> (j < kx)%N -> T i j = T' i j) ->
  gs_pi nx ny ky B Y v G R S T i = gs_pi nx ny ky B Y v G' R' S' T' i.
Proof.
move=> hi hR hS hG hT; rewrite /gs_pi.
have e j : (j < ny)%N ->
  \sum_(0 <= k < nx) R k i * G k j = \sum_(0 <= k < nx) R' k i * G' k j.
  by move=> hj; apply: eq_big_nat => k /andP[_ hk]; rewrite hR // hG.
congr (_ + _ + _).
- by apply: eq_big_nat => k /andP[_ hk]; rewrite hR.
- by apply: eq_big_nat => j /andP[_ hj]; rewrite e.
apply: eq_big_nat => l /andP[_ hl]; rewrite hT //; congr ((_ - _) *: _).
by apply: eq_big_nat => j /andP[_ hj]; rewrite e // hS.
Qed.

Lemma eq_gs_th nx ny kx A X (u : nat -> Com1 E)
  (G S T G' S' T' : nat -> nat -> Fr E) i ky :
  (i < ky)%N ->
  (forall i j, (i < ny)%N -> (j < ky)%N -> S i j = S' i j) ->
  (forall i j, (i < nx)%N -> (j < ny)%N -> G i j = G' i j) ->
  (forall i j, (i < ky)%N -> (j < kx)%N -> T i j = T' i j) ->
  gs_th nx ny kx A X u G S T i = gs_th nx ny kx A X u G' S' T' i.
Proof.
move=> hi hS hG hT; rewrite /gs_th; congr (_ + _ + _).
- by apply: eq_big_nat => k /andP[_ hk]; rewrite hS.
- apply: eq_big_nat => k /andP[_ hk]; congr (_ *: _).
  by apply: eq_big_nat => j /andP[_ hj]; rewrite hS // hG.
by apply: eq_big_nat => l /andP[_ hl]; rewrite hT.
Qed.

Lemma gprove_Ok (St : Type) nx ny R S G linA linX linB linY uk vk T kx ky ty (s : St) :
  gshape nx ny R S G linA linB uk vk kx ky ->
  size linX = nx -> size linY = ny -> (0 < kx)%N -> (0 < ky)%N -> rect ky kx T ->
  gprove sch nx ny R S G linA linX linB linY uk vk T kx ky ty s
  = Ok (mkEquProof
      (mkseq (gs_pi nx ny ky (nth 0 linB) (nth 0 linY) (nth 0 vk)
                (ent 0 G) (ent 0 R) (ent 0 S) (ent 0 T)) kx)
      (mkseq (gs_th nx ny kx (nth 0 linA) (nth 0 linX) (nth 0 uk)
                (ent 0 G) (ent 0 S) (ent 0 T)) ky) ty T, s).
Proof.
case/andP=> /and5P[hx hy hR hS hG] /and4P[/eqP hA /eqP hB /eqP hu /eqP hv] hX hY hkx hky hT.
rewrite [in LHS](rectE 0 hR) [in LHS](rectE 0 hS) [in LHS](rectE 0 hG) [in LHS](rectE 0 hT).
by rewrite gprove_mkmat // -(rectE 0 hT).
Qed.

(** A matrix whose transpose exists and has full rows is rectangular. *)
Lemma transpose_full (R : matrix (Fr E)) xt :
  mat_transpose R = Ok xt -> (0 < ncols R)%N -> rows_ge (size R) xt ->
  rect (size R) (ncols R) R.
Proof.
move=> h hk hge; have := isok_transpose 0 R; rewrite h => /esym /andP[h0 hle].
apply: rows_eq => //; move: h; rewrite (transpose_Ok 0) // => -[hxt].
have sx : size xt = ncols R by rewrite -hxt size_mkseq.
have hl : ((ncols R).-1 < size xt)%N by rewrite sx prednK.
have := rows_ge_nth hge hl; rewrite -hxt nth_mkseq ?prednK // size_map size_filter => hc.
have : count (fun r => ncols R <= size r)%N R == size R by rewrite eqn_leq count_size.
by rewrite -all_count.
Qed.

Lemma transpose_no_cells (R : matrix (Fr E)) xt :
  mat_transpose R = Ok xt -> (0 < ncols R)%N -> no_cells xt = false.
Proof.
move=> h hk; have := isok_transpose 0 R; rewrite h => /esym /andP[h0 hle].
move: h; rewrite (transpose_Ok 0) // => -[<-]; rewrite no_cellsE size_mkseq.
rewrite eqn0Ngt hk /=; set f := fun i => _.
have -> : ncols (mkseq f (ncols R)) = size (f 0%N) by case: (ncols R) hk.
rewrite /f size_map size_filter; case: R h0 hk {hle f} => // r R _.
by rewrite /ncols /= => ->.
Qed.

(** A product with a vector is empty, or has one row per row of the matrix. *)
Lemma clm_inv (F : fieldType) (V : lmodType F) ord (l : seq V) (L : matrix F) X m k :
  (forall r c, perm_eq (ord r c) (tasks r c)) ->
  (0 < k)%N -> (0 < m)%N -> rect k m L ->
  mat_left_mul 0 +%R (fun x k => k *: x) ord (vec_to_col_vec l) L true = Ok X ->
  X = [::] \/ (size l = m).
Proof.
move=> hp hk hm hL.
have nL : no_cells L = false.
  by rewrite no_cellsE (rect_size hL) (rect_ncols hL) // !eqn0Ngt hk hm.
case nl : (no_cells (vec_to_col_vec l)); first by rewrite left_mul_empty ?nl ?orbT // => -[<-]; left.
move=> h; right.
have := isok_left_mul 0 +%R (fun (x : V) (k : F) => k *: x) (vec_to_col_vec l) L true hp.
by rewrite h /left_mul_shape nL nl (rect_ncols hL) //= size_map => /esym /and3P[/eqP -> _ _].
Qed.

Lemma add_nil_l U (add : U -> U -> U) B X : mat_add add [::] B = Ok X -> False.
Proof. by rewrite /mat_add /=; case: (assert_eq _ _). Qed.

Lemma add_nil_r U (add : U -> U -> U) A X : mat_add add A [::] = Ok X -> False.
Proof.
rewrite /mat_add; case h : (assert_eq _ _) => [u|] //=.
by have /size0nil -> := assert_eq_ok h.
Qed.

Lemma gprove_shape (St : Type) nx ny R S G linA linX linB linY uk vk T kx ky ty (s : St) :
  size linX = nx -> size linY = ny -> (0 < kx)%N -> (0 < ky)%N -> rect ky kx T ->
  isok (gprove sch nx ny R S G linA linX linB linY uk vk T kx ky ty s) ->
  gshape nx ny R S G linA linB uk vk kx ky.
Proof.
move=> hX hY hkx hky hT /isokP[pf]; rewrite /gprove.
move=> /bind_ok[_ /assert_eq_ok hx] /bind_ok[_ /assert_eq_ok hg].
move=> /bind_ok[xr0 /(idx_ok [::])[hR0 ->]] /bind_ok[_ /assert_eq_ok]; rewrite nth0 => hkR.
move=> /bind_ok[_ /assert_eq_ok hy].
move=> /bind_ok[g0 /(idx_ok [::])[hG0 ->]] /bind_ok[_ /assert_eq_ok]; rewrite nth0 => hgc.
move=> /bind_ok[yr0 /(idx_ok [::])[hS0 ->]] /bind_ok[_ /assert_eq_ok]; rewrite nth0 => hkS.
move=> /bind_ok[xt hxt] /bind_ok[yt hyt] /bind_ok[xb hxb] /bind_ok[xs hxs].
have nG : no_cells G = false by rewrite no_cellsE /ncols hgc !eqn0Ngt hG0 hS0.
have nxt : no_cells xt = false by apply: transpose_no_cells hxt _; rewrite /ncols hkR.
have nyt : no_cells yt = false by apply: transpose_no_cells hyt _; rewrite /ncols hkS.
have := isok_right_mul 0 +%R *%R xt G true (vsk 1).
rewrite hxs /right_mul_shape nxt nG /= => /esym/and3P[_ hge hGge].
have hR : rect nx kx R.
  rewrite hx -hkR; apply: transpose_full hxt _ _; first by rewrite /ncols hkR.
  by rewrite -hg.
have hxt' : rect kx nx xt.
  by move: hxt; rewrite (rectE 0 hR) (transpose_mkmat 0) ?hx // => -[<-]; exact: rect_mkmat.
move=> /bind_ok[xsy hxsy] /bind_ok[xg hxg] /bind_ok[xgy hxgy].
have hGc : ncols G = ny by rewrite /ncols hgc.
have hxg' : rect kx ny xg.
  move: hxg; rewrite (right_mul_Ok 0 0) //; last first.
    by rewrite (rect_ncols hxt') ?hx ?hg.
  by rewrite (rect_size hxt') hGc => -[<-]; exact: rect_mkmat.
have := isok_right_mul 0 +%R *%R xg S true (vsk 4).
rewrite hxgy /right_mul_shape !no_cellsE (rect_size hxg') (rect_ncols hxg') //.
rewrite hy !eqn0Ngt hkx hS0 /ncols hkS hky /= => /esym/and3P[_ _ hSge].
have hS : rect ny ky S.
  rewrite hy; apply: rows_eq => //.
  by have := isok_transpose 0 S; rewrite hyt /ncols hkS => /esym/andP[].
have hyt' : rect ky ny yt.
  by move: hyt; rewrite (rectE 0 hS) (transpose_mkmat 0) ?hy // => -[<-]; exact: rect_mkmat.
move=> /bind_ok[pt hpt] /bind_ok[npt hnpt] /bind_ok[ps hps] /bind_ok[ps2 hps2].
have hps' : rect kx ky ps.
  move: hps hnpt hpt hxgy; rewrite (rectE 0 hxg') (rectE 0 hS) (right_mul_mkmat 0 0) ?hy //.
  rewrite (rectE 0 hT) (transpose_mkmat 0) // => h1 h2 h3 [h4].
  move: h2; rewrite -[pt]/(pt) ; case: h3 => <-; rewrite (mat_neg_mkmat 0) => -[h5].
  by move: h1; rewrite -h4 -h5 (mat_add_mkmat 0) // => -[<-]; exact: rect_mkmat.
move=> /bind_ok[pi1 hpi1] /bind_ok[pi2 hpi2] /bind_ok[pi hpi] /bind_ok[_ _].
move=> /bind_ok[ya hya] /bind_ok[gt hgt] /bind_ok[ys hys] /bind_ok[ysx hysx] /bind_ok[pc hpc].
move=> /bind_ok[th1 hth1] /bind_ok[th2 hth2] _.
have hG : rect nx ny G.
  rewrite hx -hg hy -hgc; apply: rows_eq => //.
  by have := isok_transpose 0 G; rewrite hgt => /esym/andP[].
have px : (0 < nx)%N by rewrite hx; exact: hR0.
have py : (0 < ny)%N by rewrite hy; exact: hS0.
rewrite -?hy /gshape px py hR hS hG /=.
apply/and4P; split; apply/eqP.
- case: (clm_inv (vsk 6) hky py hyt' hya) => // e.
  by move: hth1; rewrite e => /add_nil_l.
- case: (clm_inv (vsk 0) hkx px hxt' hxb) => // e.
  by move: hpi1; rewrite e => /add_nil_l.
- case: (clm_inv (vsk 9) hky hkx hT hpc) => // e.
  by move: hth2; rewrite e => /add_nil_r.
- case: (clm_inv (vsk 5) hkx hky hps' hps2) => // e.
  by move: hpi2; rewrite e => /add_nil_r.
Qed.
End GProve.

(** ** The four provers *)
Section Four.
Context {E : pairing} {R : rng E}.
Variable sch : sched.
Hypothesis vs : valid_sched sch.
Implicit Types (s : rst R) (crs : CRS E) (cx : Commit1 E) (cy : Commit2 E).

Notation T22 s := (mkmat 2 2 (fun i j => drawn s (2 * i + j))).
Notation T12 s := (mkmat 1 2 (fun i j => drawn s j)).
Notation T21 s := (mkmat 2 1 (fun i j => drawn s i)).
Notation T11 s := (mkmat 1 1 (fun i j => drawn s 0)).

Lemma ppe_proveE self X Y cx cy crs s :
  ppe_prove sch self X Y cx cy crs s
  = gprove sch (size X) (size Y) (crand cx) (crand cy) (ppe_gamma self)
      (com1_batch_linear_map (ppe_a self)) (com1_batch_linear_map X)
      (com2_batch_linear_map (ppe_b self)) (com2_batch_linear_map Y)
      (crs_u crs) (crs_v crs) (T22 s) 2 2 PairingProduct (after 4 s).
Proof.
rewrite /ppe_prove rand_frE; cbv beta iota; do 3!(rewrite rand_fr_after; cbv beta iota).
by [].
Qed.

Lemma ms1_proveE self X Y cx cy crs s : (1 < size (crs_v crs))%N ->
  ms1_prove sch self X Y cx cy crs s
  = gprove sch (size X) (size Y) (crand cx) (crand cy) (ms1_gamma self)
      (com1_batch_linear_map (ms1_a self)) (com1_batch_linear_map X)
      [seq s2map crs y | y <- ms1_b self] [seq s2map crs y | y <- Y]
      (crs_u crs) [:: nth 0 (crs_v crs) 0] (T12 s) 2 1 MultiScalarG1 (after 2 s).
Proof.
move=> hv; rewrite /ms1_prove rand_frE; cbv beta iota; do 1!(rewrite rand_fr_after; cbv beta iota).
by rewrite !(bs2map_Ok _ hv) (idx_nth 0 (ltnW hv)).
Qed.

Lemma ms2_proveE self X Y cx cy crs s : (1 < size (crs_u crs))%N ->
  ms2_prove sch self X Y cx cy crs s
  = gprove sch (size X) (size Y) (crand cx) (crand cy) (ms2_gamma self)
      [seq s1map crs y | y <- ms2_a self] [seq s1map crs y | y <- X]
      (com2_batch_linear_map (ms2_b self)) (com2_batch_linear_map Y)
      [:: nth 0 (crs_u crs) 0] (crs_v crs) (T21 s) 1 2 MultiScalarG2 (after 2 s).
Proof.
move=> hv; rewrite /ms2_prove rand_frE; cbv beta iota; do 1!(rewrite rand_fr_after; cbv beta iota).
by rewrite !(bs1map_Ok _ hv) (idx_nth 0 (ltnW hv)).
Qed.

Lemma quad_proveE self X Y cx cy crs s : (1 < size (crs_u crs))%N -> (1 < size (crs_v crs))%N ->
  quad_prove sch self X Y cx cy crs s
  = gprove sch (size X) (size Y) (crand cx) (crand cy) (quad_gamma self)
      [seq s1map crs y | y <- quad_a self] [seq s1map crs y | y <- X]
      [seq s2map crs y | y <- quad_b self] [seq s2map crs y | y <- Y]
      [:: nth 0 (crs_u crs) 0] [:: nth 0 (crs_v crs) 0] (T11 s) 1 1 Quadratic (after 1 s).
Proof.
move=> hu hv; rewrite /quad_prove rand_frE; cbv beta iota.
by rewrite !(bs1map_Ok _ hu) !(bs2map_Ok _ hv) (idx_nth 0 (ltnW hu)) (idx_nth 0 (ltnW hv)).
Qed.

Lemma isok_gprove (St : Type) nx ny (RR S G : matrix (Fr E)) linA linX linB linY uk vk T kx ky ty (s : St) :
  size linX = nx -> size linY = ny -> (0 < kx)%N -> (0 < ky)%N -> rect ky kx T ->
  isok (gprove sch nx ny RR S G linA linX linB linY uk vk T kx ky ty s)
  = gshape nx ny RR S G linA linB uk vk kx ky.
Proof.
move=> hX hY hkx hky hT; apply/idP/idP; first exact: gprove_shape.
by move=> h; rewrite (gprove_Ok vs).
Qed.

(** The shapes for which the provers do not panic. *)
Definition prove_shape (m n kx ky : nat) (RR S G : matrix (Fr E)) (na nb : nat) : bool :=
  [&& 0 < m, 0 < n, rect m kx RR, rect n ky S, rect m n G, na == n & nb == m]%N.

Lemma gshapeE m n (RR S G : matrix (Fr E)) linA linB uk vk kx ky :
  gshape m n RR S G linA linB uk vk kx ky
  = prove_shape m n kx ky RR S G (size linA) (size linB) && (size uk == kx) && (size vk == ky).
Proof. by rewrite /gshape /prove_shape -!andbA. Qed.

Lemma isok_ppe_prove self X Y cx cy crs s :
  isok (ppe_prove sch self X Y cx cy crs s)
  = prove_shape (size X) (size Y) 2 2 (crand cx) (crand cy) (ppe_gamma self)
      (size (ppe_a self)) (size (ppe_b self))
    && (size (crs_u crs) == 2%N) && (size (crs_v crs) == 2%N).
Proof.
rewrite ppe_proveE isok_gprove ?size_com1_lin ?size_com2_lin ?rect_mkmat //.
by rewrite gshapeE size_com1_lin size_com2_lin.
Qed.

Lemma isok_ms1_prove self X Y cx cy crs s :
  isok (ms1_prove sch self X Y cx cy crs s)
  = prove_shape (size X) (size Y) 2 1 (crand cx) (crand cy) (ms1_gamma self)
      (size (ms1_a self)) (size (ms1_b self))
    && (size (crs_u crs) == 2%N) && (1 < size (crs_v crs))%N.
Proof.
case: (ltnP 1 (size (crs_v crs))) => hv.
  rewrite ms1_proveE // isok_gprove ?size_com1_lin ?size_map ?rect_mkmat //.
  by rewrite gshapeE size_com1_lin size_map andbT.
rewrite andbF; apply/negbTE/negP => /isokP[pf]; rewrite /ms1_prove.
move=> /bind_ok[? _] /bind_ok[? _] /bind_ok[? _] /bind_ok[? _] /bind_ok[? /assert_eq_ok hy].
move=> /bind_ok[? _] /bind_ok[? _] /bind_ok[? /(idx_ok [::])[hS _]] /bind_ok[? _].
move=> /bind_ok[? _] /bind_ok[? _]; rewrite rand_frE rand_fr_after.
move=> /bind_ok[? _] /bind_ok[? _] /bind_ok[? _] /bind_ok[ly h].
have := isok_bs2map crs Y; rewrite h ltnNge hv orbF => /esym /eqP e0.
by rewrite -hy e0 in hS.
Qed.

Lemma isok_ms2_prove self X Y cx cy crs s :
  isok (ms2_prove sch self X Y cx cy crs s)
  = prove_shape (size X) (size Y) 1 2 (crand cx) (crand cy) (ms2_gamma self)
      (size (ms2_a self)) (size (ms2_b self))
    && (1 < size (crs_u crs))%N && (size (crs_v crs) == 2%N).
Proof.
case: (ltnP 1 (size (crs_u crs))) => hv.
  rewrite ms2_proveE // isok_gprove ?size_com2_lin ?size_map ?rect_mkmat //.
  by rewrite gshapeE size_com2_lin size_map !andbT.
rewrite andbF; apply/negbTE/negP => /isokP[pf]; rewrite /ms2_prove.
move=> /bind_ok[? /assert_eq_ok hx] /bind_ok[? _] /bind_ok[? /(idx_ok [::])[hS _]] /bind_ok[? _] /bind_ok[? _].
move=> /bind_ok[? _] /bind_ok[? _] /bind_ok[? _] /bind_ok[? _].
move=> /bind_ok[? _] /bind_ok[? _]; rewrite rand_frE rand_fr_after.
do 17!move=> /bind_ok[? _].
move=> /bind_ok[ly h].
have := isok_bs1map crs X; rewrite h ltnNge hv orbF => /esym /eqP e0.
by rewrite -hx e0 in hS.
Qed.

Lemma isok_quad_prove self X Y cx cy crs s :
  isok (quad_prove sch self X Y cx cy crs s)
  = prove_shape (size X) (size Y) 1 1 (crand cx) (crand cy) (quad_gamma self)
      (size (quad_a self)) (size (quad_b self))
    && (1 < size (crs_u crs))%N && (1 < size (crs_v crs))%N.
Proof.
case: (ltnP 1 (size (crs_v crs))) => hv; last first.
  rewrite andbF; apply/negbTE/negP => /isokP[pf]; rewrite /quad_prove.
  move=> /bind_ok[? _] /bind_ok[? _] /bind_ok[? _] /bind_ok[? _] /bind_ok[? /assert_eq_ok hy].
  move=> /bind_ok[? _] /bind_ok[? _] /bind_ok[? /(idx_ok [::])[hS _]] /bind_ok[? _].
  move=> /bind_ok[? _] /bind_ok[? _]; rewrite rand_frE.
  move=> /bind_ok[? _] /bind_ok[? _] /bind_ok[? _] /bind_ok[ly h].
  have := isok_bs2map crs Y; rewrite h ltnNge hv orbF => /esym /eqP e0.
  by rewrite -hy e0 in hS.
case: (ltnP 1 (size (crs_u crs))) => hu.
  rewrite quad_proveE // isok_gprove ?size_map ?rect_mkmat //.
  by rewrite gshapeE !size_map !andbT.
rewrite andbF; apply/negbTE/negP => /isokP[pf]; rewrite /quad_prove.
move=> /bind_ok[? /assert_eq_ok hx] /bind_ok[? _] /bind_ok[? /(idx_ok [::])[hS _]] /bind_ok[? _] /bind_ok[? _].
move=> /bind_ok[? _] /bind_ok[? _] /bind_ok[? _] /bind_ok[? _].
move=> /bind_ok[? _] /bind_ok[? _]; rewrite rand_frE.
do 20!move=> /bind_ok[? _].
move=> /bind_ok[ly h].
have := isok_bs1map crs X; rewrite h ltnNge hu orbF => /esym /eqP e0.
by rewrite -hx e0 in hS.
Qed.
End Four.
