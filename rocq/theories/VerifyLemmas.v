(** What the verifier of Verify.v computes, and when it panics. *)
From mathcomp Require Import all_ssreflect all_algebra.
From Verif Require Import Base BaseLemmas Group DataStructures MatLemmas CoreAlg ComLemmas.
From Verif Require Import Commit Statement Verify.
Set Implicit Arguments.
Unset Strict Implicit.
Unset Printing Implicit Defensive.
Import GRing.Theory.
Local Open Scope ring_scope.

Section Verify.
Context {E : pairing}.
Variable sch : sched.
Hypothesis vs : valid_sched sch.
Implicit Types (c : seq (Com1 E)) (d : seq (Com2 E)) (G : matrix (Fr E)) (crs : CRS E).

Notation f := (comT_pairing : Com1 E -> Com2 E -> ComT E).

(** The shapes of [gamma] the verifier accepts for [m] and [n] variables. *)
Definition gamma_ok (m n : nat) G : bool :=
  if no_cells G || (n == 0%N) then m == 0%N
  else [&& size G == m, ncols G == n & rows_ge n G].

Let vs0 : forall r k, perm_eq (sch 0%N r k) (tasks r k).
Proof. by move=> r k; apply: vs. Qed.

Lemma no_cells_col T (v : seq T) : no_cells (vec_to_col_vec v) = (size v == 0%N).
Proof. by case: v. Qed.

Lemma ncols_col T (v : seq T) : (0 < size v)%N -> ncols (vec_to_col_vec v) = 1%N.
Proof. by case: v. Qed.

Lemma stmt_Ok c d G : gamma_ok (size c) (size d) G ->
  exists M, exists2 w,
    cmat_left_mul (sch 0%N) (vec_to_col_vec d) G true = Ok M /\ col_vec_to_vec M = Ok w
    & comT_pairing_sum c w
      = Ok (\sum_(0 <= k < size c)
              f (nth 0 c k) (\sum_(0 <= j < size d) ent 0 G k j *: nth 0 d j)).
Proof.
rewrite /gamma_ok; case: ifP => h.
  move=> /eqP hc; exists [::], [::]; first by split=> //; apply: left_mul_empty; rewrite no_cells_col.
  by rewrite pairing_sum_Ok // hc !big_geq.
case/and3P => /eqP hs /eqP hn hr.
have hd : (0 < size d)%N by move: h; rewrite lt0n; case: (size d == _); rewrite ?orbT.
have nG : no_cells G = false by move: h; case: (no_cells G).
have := left_mul_Ok 0 0 com_zero com_add com_scalar_mul (A := vec_to_col_vec d) (L := G) true vs0.
rewrite no_cells_col eqn0Ngt hd nG size_vec_to_col_vec hn ncols_col // => /(_ erefl erefl erefl hr).
have -> : rows_ge 1 (vec_to_col_vec d) by exact: rect_rows_ge (rect_vec_to_col_vec d).
move=> /(_ isT) hM.
eexists; eexists; first by split; [exact: hM | exact: col_vec_to_vec_mkmat].
rewrite pairing_sum_Ok ?size_mkseq ?hs //; congr Ok; apply: eq_big_nat => k /andP[_ hk].
congr (f _ _); rewrite nth_mkseq ?hs //= com_tsum; apply: eq_big_nat => j /andP[_ hj].
rewrite com_scalar_mulE; congr (_ *: _).
by rewrite (vec_to_col_vecE 0) ent_mkmat.
Qed.

Lemma stmt_inv c d G M w r :
  cmat_left_mul (sch 0%N) (vec_to_col_vec d) G true = Ok M -> col_vec_to_vec M = Ok w ->
  comT_pairing_sum c w = Ok r -> gamma_ok (size c) (size d) G.
Proof.
move=> hM hw hr.
have hs : size c = size w by apply/eqP; rewrite -isok_pairing_sum hr.
rewrite /gamma_ok; case: ifP => h.
  move: hM; rewrite /cmat_left_mul left_mul_empty ?no_cells_col // => -[e].
  by move: hw hs; rewrite -e => -[<-] ->.
have hd : (0 < size d)%N by move: h; rewrite lt0n; case: (size d == _); rewrite ?orbT.
have nG : no_cells G = false by move: h; case: (no_cells G).
have := isok_left_mul com_zero com_add com_scalar_mul (vec_to_col_vec d) G true vs0.
rewrite -/(cmat_left_mul _ _ _ _) hM /left_mul_shape nG no_cells_col eqn0Ngt hd /=.
rewrite size_vec_to_col_vec => /esym/and3P[hn hr1 hr2]; rewrite hn hr1 !andbT.
move: hM; rewrite /cmat_left_mul (left_mul_Ok 0 0 _ _ _ _ vs0) //; last first.
- by rewrite size_vec_to_col_vec.
- by rewrite size_vec_to_col_vec (eqP hn).
- by rewrite no_cells_col eqn0Ngt hd.
move=> [e]; move: hw; rewrite -e ncols_col // col_vec_to_vec_mkmat => -[ew].
by rewrite hs -ew size_mkseq.
Qed.

(** The equation checked by the verifiers. *)
Definition veq (A : seq (Com1 E)) (B : seq (Com2 E)) G c d (t : ComT E)
  (u : seq (Com1 E)) (p : seq (Com2 E)) (th : seq (Com1 E)) (v : seq (Com2 E)) (kx ky : nat) : bool :=
  gs_eq f (size c) (size d) (ent 0 G) (nth 0 A) (nth 0 c) (nth 0 B) (nth 0 d)
  == t + \sum_(0 <= i < kx) f (nth 0 u i) (nth 0 p i)
       + \sum_(0 <= l < ky) f (nth 0 th l) (nth 0 v l).

Definition stmt_shape c d (na nb : nat) G : bool :=
  [&& na == size d, nb == size c & gamma_ok (size c) (size d) G].

Implicit Types (pf : EquProof E) (cx : Commit1 E) (cy : Commit2 E).

Lemma one_proof cx cy (pfs : seq (EquProof E)) T (k : EquProof E -> res T) :
  (let! _ := assert_eq (size pfs) 1 in let! pf := idx pfs 0 in k pf)
  = if pfs is [:: pf] then k pf else Panic AssertFailed.
Proof. by case: pfs => [|pf [|pf' pfs]]. Qed.

Lemma ppe_verify_one sch' self cx cy pfs crs : isok (ppe_verify sch' self (mkCProof cx cy pfs) crs) ->
  exists pf, pfs = [:: pf].
Proof. by rewrite /ppe_verify /= one_proof //; case: pfs => [|pf [|pf' pfs]] // _; exists pf. Qed.
Lemma ms1_verify_one sch' self cx cy pfs crs : isok (ms1_verify sch' self (mkCProof cx cy pfs) crs) ->
  exists pf, pfs = [:: pf].
Proof. by rewrite /ms1_verify /= one_proof //; case: pfs => [|pf [|pf' pfs]] // _; exists pf. Qed.
Lemma ms2_verify_one sch' self cx cy pfs crs : isok (ms2_verify sch' self (mkCProof cx cy pfs) crs) ->
  exists pf, pfs = [:: pf].
Proof. by rewrite /ms2_verify /= one_proof //; case: pfs => [|pf [|pf' pfs]] // _; exists pf. Qed.
Lemma quad_verify_one sch' self cx cy pfs crs : isok (quad_verify sch' self (mkCProof cx cy pfs) crs) ->
  exists pf, pfs = [:: pf].
Proof. by rewrite /quad_verify /= one_proof //; case: pfs => [|pf [|pf' pfs]] // _; exists pf. Qed.

Lemma assert_type_ok a b u : assert_type a b = Ok u -> a = b.
Proof. by case: a b => [] []. Qed.
Lemma assert_typeT a : assert_type a a = Ok tt.
Proof. by case: a. Qed.

Lemma psize (xs : seq (Com1 E)) (ys : seq (Com2 E)) r :
  comT_pairing_sum xs ys = Ok r -> size xs = size ys.
Proof. by move=> h; apply/eqP; rewrite -isok_pairing_sum h. Qed.
Arguments psize {xs ys r} _.

(** PPE. *)
Definition ppe_vshape (self : PPE E) cx cy pf crs : bool :=
  [&& equtype_eq (equ_type pf) PairingProduct,
      stmt_shape (coms cx) (coms cy) (size (ppe_a self)) (size (ppe_b self)) (ppe_gamma self),
      size (pi pf) == size (crs_u crs) & size (theta pf) == size (crs_v crs)].

Definition ppe_veq (self : PPE E) cx cy pf crs : bool :=
  veq (com1_batch_linear_map (ppe_a self)) (com2_batch_linear_map (ppe_b self)) (ppe_gamma self)
    (coms cx) (coms cy) (linear_map_PPE (ppe_target self))
    (crs_u crs) (pi pf) (theta pf) (crs_v crs) (size (crs_u crs)) (size (crs_v crs)).

Lemma eqtypeP a b : reflect (a = b) (equtype_eq a b).
Proof. by case: a b => [] []; constructor. Qed.

Lemma ppe_verify_Ok self cx cy pf crs : ppe_vshape self cx cy pf crs ->
  ppe_verify sch self (mkCProof cx cy [:: pf]) crs = Ok (ppe_veq self cx cy pf crs).
Proof.
case/and4P => /eqtypeP ht /and3P[/eqP ha /eqP hb hg] /eqP hp /eqP hth.
rewrite /ppe_verify /= ht /= pairing_sum_Ok ?size_com1_lin //=.
rewrite pairing_sum_Ok ?size_com2_lin //=.
case: (stmt_Ok hg) => M [w [-> hw] hr] /=; rewrite hw /= hr /=.
rewrite pairing_sum_Ok //= pairing_sum_Ok //=; congr Ok.
by rewrite comT_eqE /ppe_veq /veq /gs_eq ha hth.
Qed.

Lemma ppe_verify_shape self cx cy pf crs : isok (ppe_verify sch self (mkCProof cx cy [:: pf]) crs) ->
  ppe_vshape self cx cy pf crs.
Proof.
case/isokP=> b; rewrite /ppe_verify /=.
move=> /bind_ok[? /assert_type_ok ht] /bind_ok[? /psize ha] /bind_ok[? /psize hb].
move=> /bind_ok[M hM] /bind_ok[w hw] /bind_ok[r hr] /bind_ok[? /psize hu] /bind_ok[? /psize hv] _.
rewrite /ppe_vshape -ht hu hv !eqxx /stmt_shape (stmt_inv hM hw hr) -(size_com1_lin (ppe_a _)) ha.
by rewrite hb size_com2_lin !eqxx.
Qed.

(** MSMEG1. *)
Definition ms1_vshape (self : MSMEG1 E) cx cy pf crs : bool :=
  [&& equtype_eq (equ_type pf) MultiScalarG1,
      stmt_shape (coms cx) (coms cy) (size (ms1_a self)) (size (ms1_b self)) (ms1_gamma self),
      size (pi pf) == size (crs_u crs), (0 < size (theta pf))%N & (1 < size (crs_v crs))%N].

Definition ms1_veq (self : MSMEG1 E) cx cy pf crs : bool :=
  veq (com1_batch_linear_map (ms1_a self)) [seq s2map crs y | y <- ms1_b self] (ms1_gamma self)
    (coms cx) (coms cy) (f (com1_linear_map (ms1_target self)) (s2map crs 1))
    (crs_u crs) (pi pf) (theta pf) (crs_v crs) (size (crs_u crs)) 1.

Lemma ms1_verify_Ok self cx cy pf crs : ms1_vshape self cx cy pf crs ->
  ms1_verify sch self (mkCProof cx cy [:: pf]) crs = Ok (ms1_veq self cx cy pf crs).
Proof.
case/and5P => /eqtypeP ht /and3P[/eqP ha /eqP hb hg] /eqP hp hth hv.
rewrite /ms1_verify /= ht /= pairing_sum_Ok ?size_com1_lin //= bs2map_Ok //=.
rewrite pairing_sum_Ok ?size_map //=.
case: (stmt_Ok hg) => M [w [-> hw] hr] /=; rewrite hw /= hr /= /linear_map_MSMEG1 s2map_Ok //=.
rewrite pairing_sum_Ok //= (idx_nth 0 hth) (idx_nth 0 (ltnW hv)) /=; congr Ok.
by rewrite comT_eqE /ms1_veq /veq /gs_eq ha big_nat1.
Qed.

Lemma ms1_verify_shape self cx cy pf crs : isok (ms1_verify sch self (mkCProof cx cy [:: pf]) crs) ->
  ms1_vshape self cx cy pf crs.
Proof.
case/isokP=> b; rewrite /ms1_verify /=.
move=> /bind_ok[? /assert_type_ok ht] /bind_ok[? /psize ha] /bind_ok[lb hlb] /bind_ok[? /psize hb].
move=> /bind_ok[M hM] /bind_ok[w hw] /bind_ok[r hr] /bind_ok[? hlt] /bind_ok[? /psize hu].
move=> /bind_ok[? /(idx_ok 0)[hth _]] _.
have hv : (1 < size (crs_v crs))%N.
  by move: hlt; rewrite -(isok_s2map crs 1) /linear_map_MSMEG1; case: (com2_scalar_linear_map _ _).
rewrite /ms1_vshape -ht hu hv hth !eqxx /stmt_shape (stmt_inv hM hw hr) -(size_com1_lin (ms1_a _)) ha.
by rewrite hb (mapM_size hlb) !eqxx.
Qed.

(** MSMEG2. *)
Definition ms2_vshape (self : MSMEG2 E) cx cy pf crs : bool :=
  [&& equtype_eq (equ_type pf) MultiScalarG2,
      stmt_shape (coms cx) (coms cy) (size (ms2_a self)) (size (ms2_b self)) (ms2_gamma self),
      size (theta pf) == size (crs_v crs), (0 < size (pi pf))%N & (1 < size (crs_u crs))%N].

Definition ms2_veq (self : MSMEG2 E) cx cy pf crs : bool :=
  veq [seq s1map crs x | x <- ms2_a self] (com2_batch_linear_map (ms2_b self)) (ms2_gamma self)
    (coms cx) (coms cy) (f (s1map crs 1) (com2_linear_map (ms2_target self)))
    (crs_u crs) (pi pf) (theta pf) (crs_v crs) 1 (size (crs_v crs)).

Lemma ms2_verify_Ok self cx cy pf crs : ms2_vshape self cx cy pf crs ->
  ms2_verify sch self (mkCProof cx cy [:: pf]) crs = Ok (ms2_veq self cx cy pf crs).
Proof.
case/and5P => /eqtypeP ht /and3P[/eqP ha /eqP hb hg] /eqP hth hp hu.
rewrite /ms2_verify /= ht /= bs1map_Ok //= pairing_sum_Ok ?size_map //=.
rewrite pairing_sum_Ok ?size_com2_lin //=.
case: (stmt_Ok hg) => M [w [-> hw] hr] /=; rewrite hw /= hr /= /linear_map_MSMEG2 s1map_Ok //=.
rewrite (idx_nth 0 hp) (idx_nth 0 (ltnW hu)) /= pairing_sum_Ok //=; congr Ok.
by rewrite comT_eqE /ms2_veq /veq /gs_eq ha hth big_nat1.
Qed.

Lemma ms2_verify_shape self cx cy pf crs : isok (ms2_verify sch self (mkCProof cx cy [:: pf]) crs) ->
  ms2_vshape self cx cy pf crs.
Proof.
case/isokP=> b; rewrite /ms2_verify /=.
move=> /bind_ok[? /assert_type_ok ht] /bind_ok[la hla] /bind_ok[? /psize ha] /bind_ok[? /psize hb].
move=> /bind_ok[M hM] /bind_ok[w hw] /bind_ok[r hr] /bind_ok[? hlt].
move=> /bind_ok[? _] /bind_ok[? /(idx_ok 0)[hp _]] /bind_ok[? /psize hv] _.
have hu : (1 < size (crs_u crs))%N.
  by move: hlt; rewrite -(isok_s1map crs 1) /linear_map_MSMEG2; case: (com1_scalar_linear_map _ _).
rewrite /ms2_vshape -ht hu hv hp !eqxx /stmt_shape (stmt_inv hM hw hr) -ha (mapM_size hla).
by rewrite hb size_com2_lin !eqxx.
Qed.

(** QuadEqu. *)
Definition quad_vshape (self : QuadEqu E) cx cy pf crs : bool :=
  [&& equtype_eq (equ_type pf) Quadratic,
      stmt_shape (coms cx) (coms cy) (size (quad_a self)) (size (quad_b self)) (quad_gamma self),
      (0 < size (theta pf))%N && (0 < size (pi pf))%N,
      (1 < size (crs_u crs))%N & (1 < size (crs_v crs))%N].

Definition quad_veq (self : QuadEqu E) cx cy pf crs : bool :=
  veq [seq s1map crs x | x <- quad_a self] [seq s2map crs y | y <- quad_b self] (quad_gamma self)
    (coms cx) (coms cy) (f (s1map crs 1) (quad_target self *: s2map crs 1))
    (crs_u crs) (pi pf) (theta pf) (crs_v crs) 1 1.

Lemma quad_verify_Ok self cx cy pf crs : quad_vshape self cx cy pf crs ->
  quad_verify sch self (mkCProof cx cy [:: pf]) crs = Ok (quad_veq self cx cy pf crs).
Proof.
case/and5P => /eqtypeP ht /and3P[/eqP ha /eqP hb hg] /andP[hth hp] hu hv.
rewrite /quad_verify /= ht /= bs1map_Ok //= pairing_sum_Ok ?size_map //=.
rewrite bs2map_Ok //= pairing_sum_Ok ?size_map //=.
case: (stmt_Ok hg) => M [w [-> hw] hr] /=; rewrite hw /= hr /= /linear_map_quad s1map_Ok //= s2map_Ok //=.
rewrite (idx_nth 0 hp) (idx_nth 0 (ltnW hu)) /= (idx_nth 0 hth) (idx_nth 0 (ltnW hv)) /=; congr Ok.
by rewrite comT_eqE /quad_veq /veq /gs_eq ha !big_nat1.
Qed.

Lemma quad_verify_shape self cx cy pf crs : isok (quad_verify sch self (mkCProof cx cy [:: pf]) crs) ->
  quad_vshape self cx cy pf crs.
Proof.
case/isokP=> b; rewrite /quad_verify /=.
move=> /bind_ok[? /assert_type_ok ht] /bind_ok[la hla] /bind_ok[? /psize ha].
move=> /bind_ok[lb hlb] /bind_ok[? /psize hb].
move=> /bind_ok[M hM] /bind_ok[w hw] /bind_ok[r hr] /bind_ok[? hlt].
move=> /bind_ok[? _] /bind_ok[? /(idx_ok 0)[hp _]] /bind_ok[? /(idx_ok 0)[hth _]] _.
move: hlt; rewrite /linear_map_quad => /bind_ok[? h1] /bind_ok[? h2] _.
have hu : (1 < size (crs_u crs))%N by rewrite -(isok_s1map crs 1) h1.
have hv : (1 < size (crs_v crs))%N by rewrite -(isok_s2map crs 1) h2.
rewrite /quad_vshape -ht hu hv hp hth ?eqxx /stmt_shape (stmt_inv hM hw hr) -ha (mapM_size hla).
by rewrite hb (mapM_size hlb) !eqxx.
Qed.

Lemma isok_ppe_verify self cx cy pf crs :
  isok (ppe_verify sch self (mkCProof cx cy [:: pf]) crs) = ppe_vshape self cx cy pf crs.
Proof. by apply/idP/idP => [/ppe_verify_shape|/ppe_verify_Ok ->]. Qed.
Lemma isok_ms1_verify self cx cy pf crs :
  isok (ms1_verify sch self (mkCProof cx cy [:: pf]) crs) = ms1_vshape self cx cy pf crs.
Proof. by apply/idP/idP => [/ms1_verify_shape|/ms1_verify_Ok ->]. Qed.
Lemma isok_ms2_verify self cx cy pf crs :
  isok (ms2_verify sch self (mkCProof cx cy [:: pf]) crs) = ms2_vshape self cx cy pf crs.
Proof. by apply/idP/idP => [/ms2_verify_shape|/ms2_verify_Ok ->]. Qed.
Lemma isok_quad_verify self cx cy pf crs :
  isok (quad_verify sch self (mkCProof cx cy [:: pf]) crs) = quad_vshape self cx cy pf crs.
Proof. by apply/idP/idP => [/quad_verify_shape|/quad_verify_Ok ->]. Qed.
End Verify.
