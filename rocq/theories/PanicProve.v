(** Exact outcomes of the prover. *)
From mathcomp Require Import all_ssreflect all_algebra.
From Verif Require Import Base BaseLemmas Group DataStructures MatLemmas ProveLemmas Commit CommitLemmas Statement Prove Verify Spec SpecPanic PanicLemmas PanicSteps PanicProps PanicProve0.
Set Implicit Arguments.
Unset Strict Implicit.
Unset Printing Implicit Defensive.
Import GRing.Theory.

Section Prover.
Context {E : pairing} {R : rng E}.
Implicit Types (s : rst R) (crs : CRS E).

Lemma ppe_prove_outcome sch (q : PPE E) (X : seq (G1 E)) (Y : seq (G2 E)) (cx : Commit1 E) (cy : Commit2 E) crs s :
  valid_sched sch ->
  outcome (ppe_prove sch q X Y cx cy crs s)
  = first_failed (ppe_prove_checks q (size X) (size Y) (crand cx) (crand cy) crs).
Proof.
move=> vs.
rewrite /ppe_prove /ppe_prove_checks; cbv zeta.
apply: step_bind (step_assert _ _) _ => /andP[/eqP hm _] _ _.
apply: step_bind (step_assert _ _) _ => /andP[/eqP hg _] _ _.
apply: step_bind (step_row0 _) _ => /andP[hm0 _] xr0 [_ hx0]; rewrite /= in hm0.
rewrite -[width (crand cx)]hx0; apply: step_bind (step_assert _ _) _ => /andP[/eqP hxk _] _ _.
apply: step_bind (step_assert _ _) _ => /andP[/eqP hn _] _ _.
apply: step_ok (step_row0 _) _ _; [by rewrite /= hg hm0 | move=> g0 [_ hg0]].
rewrite -[width (ppe_gamma q)]hg0; apply: step_bind (step_assert _ _) _ => /andP[/eqP hgn _] _ _.
apply: step_bind (step_row0 _) _ => /andP[hn0 _] yr0 [_ hy0]; rewrite /= in hn0.
rewrite -[width (crand cy)]hy0; apply: step_bind (step_assert _ _) _ => /andP[/eqP hyk _] _ _.
rewrite hxk in hx0; rewrite hyk in hy0; rewrite hgn in hg0.
apply: step_bind (ftrans_chk hm0 (esym hx0)) _ => /andP[hnx _] xt ext.
apply: step_bind (ftrans_chk hn0 (esym hy0)) _ => /andP[hny _] yt eyt.
rewrite /= in hnx hny; rewrite {}ext {}eyt.
case: (rand_fr s) => r0 s1.
case: (rand_fr s1) => r1 s2.
case: (rand_fr s2) => r2 s3.
case: (rand_fr s3) => r3 s4.
set pfr : matrix (Fr E) := [:: [:: r0;r1];[:: r2;r3]]; have hpf : rect 2 2 pfr by [].
set lb := com2_batch_linear_map (ppe_b q); have hlb : size lb = size (ppe_b q) by exact: size_map.
have eb : nilp lb = nilp (ppe_b q) by rewrite /nilp hlb.
rewrite -[size (ppe_b q)]hlb -eb.
apply: step_bind (col_tr2 lb true (vs 0) hm0 (esym hx0)) _ => _ M1 hM1.
rewrite -hn in hn0 hg0.
apply: step_bind (fright_tr2 true (vs 1) hm0 (esym hx0) hg (esym hg0) hn0) _ => /and4P[_ hwx hwg _] S hS.
rewrite /= in hwx hwg; have hrx := rect_of hwx hnx; have hxt := rect_tr hrx.
set ly := com2_batch_linear_map Y; have hly : size ly = size Y by exact: size_map.
apply: step_ok (col_ok true (vs 2) hS hly isT hn0) isT _ => M2 hM2.
apply: step_ok (fright_chk true (vs 3) hxt hg (esym hg0) isT hm0 hn0) _ _; [by rewrite /= hwg | move=> xg hxg].
apply: step_bind (fright_chk true (vs 4) hxg (esym hn) (esym hy0) isT hn0 isT) _ => /andP[hwy _] xgy hxgy.
rewrite /= in hwy; have hry := rect_of hwy hny; have hyt := rect_tr hry; rewrite -hn in hyt.
apply: step_ok (ftrans_ok hpf isT) isT _ => pt hpt.
apply: step_ok (fneg_ok hpt) isT _ => npt hnpt.
apply: step_ok (fadd_ok hxgy hnpt isT) isT _ => pfs hpfs.
rewrite [size (crs_v crs) == 2]eq_sym; apply: step_bind (col_chk (crs_v crs) true (vs 5) hpfs isT isT) _ => _ M3 hM3.
apply: step_bind (cadd_chkl hM1 hM2 isT) _ => _ P1 hP1.
apply: step_bind (cadd_chkr hP1 hM3 isT) _ => _ P2 hP2.
apply: step_ok (flat_ok hP2 isT) isT _ => pi hpi.
apply: step_ok (step_assert _ _) _ _; [by rewrite /= hpi | move=> _ _].
set la := com1_batch_linear_map (ppe_a q); have hla : size la = size (ppe_a q) by exact: size_map.
have ea : nilp la = nilp (ppe_a q) by rewrite /nilp hla.
rewrite -[size (ppe_a q)]hla -ea.
apply: step_bind (col_chk la true (vs 6) hyt isT hn0) _ => _ M4 hM4.
have hgp : 0 < size (ppe_gamma q) by rewrite hg.
apply: step_bind (ftrans_chk hgp (esym hg0)) _ => /andP[hng _] gt egt.
have hgt := rect_tr (rect_of hwg hng); rewrite hg in hgt; rewrite {}egt.
apply: step_ok (fright_ok true (vs 7) hyt hgt isT hn0 hm0) isT _ => S' hS'.
rewrite -hm in hm0 hS'.
set lx := com1_batch_linear_map X; have hlx : size lx = size X by exact: size_map.
apply: step_ok (col_ok true (vs 8) hS' hlx isT hm0) isT _ => M5 hM5.
rewrite [size (crs_u crs) == 2]eq_sym; apply: step_bind (col_chk (crs_u crs) true (vs 9) hpf isT isT) _ => _ M6 hM6.
apply: step_bind (cadd_chkl hM4 hM5 isT) _ => _ T1 hT1.
rewrite -[[:: asserts _]]cats0; apply: step_bind (cadd_chkr hT1 hM6 isT) _ => _ T2 hT2.
apply: step_ok (flat_ok hT2 isT) isT _ => th hth.
by apply: step_ok (step_assert _ _) _ _; [rewrite /= hth |].
Qed.

Lemma ms1_prove_outcome sch (q : MSMEG1 E) (X : seq (G1 E)) (Y : seq (Fr E)) (cx : Commit1 E) (cy : Commit2 E) crs s :
  valid_sched sch ->
  outcome (ms1_prove sch q X Y cx cy crs s)
  = first_failed (ms1_prove_checks q (size X) (size Y) (crand cx) (crand cy) crs).
Proof.
move=> vs.
rewrite /ms1_prove /ms1_prove_checks; cbv zeta.
apply: step_bind (step_assert _ _) _ => /andP[/eqP hm _] _ _.
apply: step_bind (step_assert _ _) _ => /andP[/eqP hg _] _ _.
apply: step_bind (step_row0 _) _ => /andP[hm0 _] xr0 [_ hx0]; rewrite /= in hm0.
rewrite -[width (crand cx)]hx0; apply: step_bind (step_assert _ _) _ => /andP[/eqP hxk _] _ _.
apply: step_bind (step_assert _ _) _ => /andP[/eqP hn _] _ _.
apply: step_ok (step_row0 _) _ _; [by rewrite /= hg hm0 | move=> g0 [_ hg0]].
rewrite -[width (ms1_gamma q)]hg0; apply: step_bind (step_assert _ _) _ => /andP[/eqP hgn _] _ _.
apply: step_bind (step_row0 _) _ => /andP[hn0 _] yr0 [_ hy0]; rewrite /= in hn0.
rewrite -[width (crand cy)]hy0; apply: step_bind (step_assert _ _) _ => /andP[/eqP hyk _] _ _.
rewrite hxk in hx0; rewrite hyk in hy0; rewrite hgn in hg0.
apply: step_bind (ftrans_chk hm0 (esym hx0)) _ => /andP[hnx _] xt ext.
apply: step_bind (ftrans_chk hn0 (esym hy0)) _ => /andP[hny _] yt eyt.
rewrite /= in hnx hny; rewrite {}ext {}eyt.
case: (rand_fr s) => r0 s1.
case: (rand_fr s1) => r1 s2.
set pfr : matrix (Fr E) := [:: [:: r0;r1]]; have hpf : rect 1 2 pfr by [].
apply: step_bind (step_bslm2 _ _) _ => _ lb hlb.
have eb : nilp lb = nilp (ms1_b q) by rewrite /nilp hlb.
rewrite -[size (ms1_b q)]hlb -eb.
apply: step_bind (col_tr2 lb true (vs 0) hm0 (esym hx0)) _ => _ M1 hM1.
rewrite -hn in hn0 hg0.
apply: step_bind (fright_tr2 true (vs 1) hm0 (esym hx0) hg (esym hg0) hn0) _ => /and4P[_ hwx hwg _] S hS.
rewrite /= in hwx hwg; have hrx := rect_of hwx hnx; have hxt := rect_tr hrx.
have stY : step (com2_batch_scalar_linear_map Y crs) [:: reads (1 < size (crs_v crs))] (fun l => size l = size Y).
  by apply: step_as (step_bslm2 Y crs) _; rewrite /nilp eqn0Ngt hn0.
apply: step_bind stY _ => /andP[hv _] ly hly; rewrite /= in hv.
apply: step_ok (col_ok true (vs 2) hS hly isT hn0) isT _ => M2 hM2.
apply: step_ok (fright_chk true (vs 3) hxt hg (esym hg0) isT hm0 hn0) _ _; [by rewrite /= hwg | move=> xg hxg].
apply: step_bind (fright_chk true (vs 4) hxg (esym hn) (esym hy0) isT hn0 isT) _ => /andP[hwy _] xgy hxgy.
rewrite /= in hwy; have hry := rect_of hwy hny; have hyt := rect_tr hry; rewrite -hn in hyt.
apply: step_ok (ftrans_ok hpf isT) isT _ => pt hpt.
apply: step_ok (fneg_ok hpt) isT _ => npt hnpt.
apply: step_ok (fadd_ok hxgy hnpt isT) isT _ => pfs hpfs.
apply: step_ok (step_idx (crs_v crs) 0 0%R) _ _; [by rewrite /= (ltnW hv) | move=> v0 _].
apply: step_ok (one_ok v0 true (vs 5) hpfs isT) isT _ => M3 hM3.
apply: step_bind (cadd_chkl hM1 hM2 isT) _ => _ P1 hP1.
apply: step_ok (cadd_ok hP1 hM3 isT) isT _ => P2 hP2.
apply: step_ok (flat_ok hP2 isT) isT _ => pi hpi.
apply: step_ok (step_assert _ _) _ _; [by rewrite /= hpi | move=> _ _].
set la := com1_batch_linear_map (ms1_a q); have hla : size la = size (ms1_a q) by exact: size_map.
have ea : nilp la = nilp (ms1_a q) by rewrite /nilp hla.
rewrite -[size (ms1_a q)]hla -ea.
apply: step_bind (col_chk la true (vs 6) hyt isT hn0) _ => _ M4 hM4.
have hgp : 0 < size (ms1_gamma q) by rewrite hg.
apply: step_bind (ftrans_chk hgp (esym hg0)) _ => /andP[hng _] gt egt.
have hgt := rect_tr (rect_of hwg hng); rewrite hg in hgt; rewrite {}egt.
apply: step_ok (fright_ok true (vs 7) hyt hgt isT hn0 hm0) isT _ => S' hS'.
rewrite -hm in hm0 hS'.
set lx := com1_batch_linear_map X; have hlx : size lx = size X by exact: size_map.
apply: step_ok (col_ok true (vs 8) hS' hlx isT hm0) isT _ => M5 hM5.
rewrite [size (crs_u crs) == 2]eq_sym; apply: step_bind (col_chk (crs_u crs) true (vs 9) hpf isT isT) _ => _ M6 hM6.
apply: step_bind (cadd_chkl hM4 hM5 isT) _ => _ T1 hT1.
rewrite -[[:: asserts _]]cats0; apply: step_bind (cadd_chkr hT1 hM6 isT) _ => _ T2 hT2.
apply: step_ok (flat_ok hT2 isT) isT _ => th hth.
by apply: step_ok (step_assert _ _) _ _; [rewrite /= hth |].
Qed.

Lemma ms2_prove_outcome sch (q : MSMEG2 E) (X : seq (Fr E)) (Y : seq (G2 E)) (cx : Commit1 E) (cy : Commit2 E) crs s :
  valid_sched sch ->
  outcome (ms2_prove sch q X Y cx cy crs s)
  = first_failed (ms2_prove_checks q (size X) (size Y) (crand cx) (crand cy) crs).
Proof.
move=> vs.
rewrite /ms2_prove /ms2_prove_checks; cbv zeta.
apply: step_bind (step_assert _ _) _ => /andP[/eqP hm _] _ _.
apply: step_bind (step_assert _ _) _ => /andP[/eqP hg _] _ _.
apply: step_bind (step_row0 _) _ => /andP[hm0 _] xr0 [_ hx0]; rewrite /= in hm0.
rewrite -[width (crand cx)]hx0; apply: step_bind (step_assert _ _) _ => /andP[/eqP hxk _] _ _.
apply: step_bind (step_assert _ _) _ => /andP[/eqP hn _] _ _.
apply: step_ok (step_row0 _) _ _; [by rewrite /= hg hm0 | move=> g0 [_ hg0]].
rewrite -[width (ms2_gamma q)]hg0; apply: step_bind (step_assert _ _) _ => /andP[/eqP hgn _] _ _.
apply: step_bind (step_row0 _) _ => /andP[hn0 _] yr0 [_ hy0]; rewrite /= in hn0.
rewrite -[width (crand cy)]hy0; apply: step_bind (step_assert _ _) _ => /andP[/eqP hyk _] _ _.
rewrite hxk in hx0; rewrite hyk in hy0; rewrite hgn in hg0.
apply: step_bind (ftrans_chk hm0 (esym hx0)) _ => /andP[hnx _] xt ext.
apply: step_bind (ftrans_chk hn0 (esym hy0)) _ => /andP[hny _] yt eyt.
rewrite /= in hnx hny; rewrite {}ext {}eyt.
case: (rand_fr s) => r0 s1.
case: (rand_fr s1) => r1 s2.
set pfr : matrix (Fr E) := [:: [:: r0];[:: r1]]; have hpf : rect 2 1 pfr by [].
set lb := com2_batch_linear_map (ms2_b q); have hlb : size lb = size (ms2_b q) by exact: size_map.
have eb : nilp lb = nilp (ms2_b q) by rewrite /nilp hlb.
rewrite -[size (ms2_b q)]hlb -eb.
apply: step_bind (col_tr1 lb true (vs 0) hm0 (esym hx0)) _ => _ M1 hM1.
rewrite -hn in hn0 hg0.
apply: step_bind (fright_tr1 true (vs 1) hm0 (esym hx0) hg (esym hg0) hn0) _ => /and3P[/eqP hr1 hwg _] S hS.
have hwx : wide 1 (crand cx) by rewrite -reach_wide hr1.
rewrite /= in hwx hwg; have hrx := rect_of hwx hnx; have hxt := rect_tr hrx.
set ly := com2_batch_linear_map Y; have hly : size ly = size Y by exact: size_map.
apply: step_ok (col_ok true (vs 2) hS hly isT hn0) isT _ => M2 hM2.
apply: step_ok (fright_chk true (vs 3) hxt hg (esym hg0) isT hm0 hn0) _ _; [by rewrite /= hwg | move=> xg hxg].
apply: step_bind (fright_chk true (vs 4) hxg (esym hn) (esym hy0) isT hn0 isT) _ => /andP[hwy _] xgy hxgy.
rewrite /= in hwy; have hry := rect_of hwy hny; have hyt := rect_tr hry; rewrite -hn in hyt.
apply: step_ok (ftrans_ok hpf isT) isT _ => pt hpt.
apply: step_ok (fneg_ok hpt) isT _ => npt hnpt.
apply: step_ok (fadd_ok hxgy hnpt isT) isT _ => pfs hpfs.
rewrite [size (crs_v crs) == 2]eq_sym; apply: step_bind (col_chk (crs_v crs) true (vs 5) hpfs isT isT) _ => _ M3 hM3.
apply: step_bind (cadd_chkl hM1 hM2 isT) _ => _ P1 hP1.
apply: step_bind (cadd_chkr hP1 hM3 isT) _ => _ P2 hP2.
apply: step_ok (flat_ok hP2 isT) isT _ => pi hpi.
apply: step_ok (step_assert _ _) _ _; [by rewrite /= hpi | move=> _ _].
apply: step_bind (step_bslm1 _ _) _ => _ la hla.
have ea : nilp la = nilp (ms2_a q) by rewrite /nilp hla.
rewrite -[size (ms2_a q)]hla -ea.
apply: step_bind (col_chk la true (vs 6) hyt isT hn0) _ => _ M4 hM4.
have hgp : 0 < size (ms2_gamma q) by rewrite hg.
apply: step_bind (ftrans_chk hgp (esym hg0)) _ => /andP[hng _] gt egt.
have hgt := rect_tr (rect_of hwg hng); rewrite hg in hgt; rewrite {}egt.
apply: step_ok (fright_ok true (vs 7) hyt hgt isT hn0 hm0) isT _ => S' hS'.
rewrite -hm in hm0 hS'.
have stX : step (com1_batch_scalar_linear_map X crs) [:: reads (1 < size (crs_u crs))] (fun l => size l = size X).
  by apply: step_as (step_bslm1 X crs) _; rewrite /nilp eqn0Ngt hm0.
apply: step_bind stX _ => /andP[hu _] lx hlx; rewrite /= in hu.
apply: step_ok (col_ok true (vs 8) hS' hlx isT hm0) isT _ => M5 hM5.
apply: step_ok (step_idx (crs_u crs) 0 0%R) _ _; [by rewrite /= (ltnW hu) | move=> u0 _].
apply: step_ok (one_ok u0 true (vs 9) hpf isT) isT _ => M6 hM6.
rewrite -[[:: asserts _]]cats0; apply: step_bind (cadd_chkl hM4 hM5 isT) _ => _ T1 hT1.
apply: step_ok (cadd_ok hT1 hM6 isT) isT _ => T2 hT2.
apply: step_ok (flat_ok hT2 isT) isT _ => th hth.
by apply: step_ok (step_assert _ _) _ _; [rewrite /= hth |].
Qed.

Lemma quad_prove_outcome sch (q : QuadEqu E) (X : seq (Fr E)) (Y : seq (Fr E)) (cx : Commit1 E) (cy : Commit2 E) crs s :
  valid_sched sch ->
  outcome (quad_prove sch q X Y cx cy crs s)
  = first_failed (quad_prove_checks q (size X) (size Y) (crand cx) (crand cy) crs).
Proof.
move=> vs.
rewrite /quad_prove /quad_prove_checks; cbv zeta.
apply: step_bind (step_assert _ _) _ => /andP[/eqP hm _] _ _.
apply: step_bind (step_assert _ _) _ => /andP[/eqP hg _] _ _.
apply: step_bind (step_row0 _) _ => /andP[hm0 _] xr0 [_ hx0]; rewrite /= in hm0.
rewrite -[width (crand cx)]hx0; apply: step_bind (step_assert _ _) _ => /andP[/eqP hxk _] _ _.
apply: step_bind (step_assert _ _) _ => /andP[/eqP hn _] _ _.
apply: step_ok (step_row0 _) _ _; [by rewrite /= hg hm0 | move=> g0 [_ hg0]].
rewrite -[width (quad_gamma q)]hg0; apply: step_bind (step_assert _ _) _ => /andP[/eqP hgn _] _ _.
apply: step_bind (step_row0 _) _ => /andP[hn0 _] yr0 [_ hy0]; rewrite /= in hn0.
rewrite -[width (crand cy)]hy0; apply: step_bind (step_assert _ _) _ => /andP[/eqP hyk _] _ _.
rewrite hxk in hx0; rewrite hyk in hy0; rewrite hgn in hg0.
apply: step_bind (ftrans_chk hm0 (esym hx0)) _ => /andP[hnx _] xt ext.
apply: step_bind (ftrans_chk hn0 (esym hy0)) _ => /andP[hny _] yt eyt.
rewrite /= in hnx hny; rewrite {}ext {}eyt.
case: (rand_fr s) => r0 s1.
set pfr : matrix (Fr E) := [:: [:: r0]]; have hpf : rect 1 1 pfr by [].
apply: step_bind (step_bslm2 _ _) _ => _ lb hlb.
have eb : nilp lb = nilp (quad_b q) by rewrite /nilp hlb.
rewrite -[size (quad_b q)]hlb -eb.
apply: step_bind (col_tr1 lb true (vs 0) hm0 (esym hx0)) _ => _ M1 hM1.
rewrite -hn in hn0 hg0.
apply: step_bind (fright_tr1 true (vs 1) hm0 (esym hx0) hg (esym hg0) hn0) _ => /and3P[/eqP hr1 hwg _] S hS.
have hwx : wide 1 (crand cx) by rewrite -reach_wide hr1.
rewrite /= in hwx hwg; have hrx := rect_of hwx hnx; have hxt := rect_tr hrx.
have stY : step (com2_batch_scalar_linear_map Y crs) [:: reads (1 < size (crs_v crs))] (fun l => size l = size Y).
  by apply: step_as (step_bslm2 Y crs) _; rewrite /nilp eqn0Ngt hn0.
apply: step_bind stY _ => /andP[hv _] ly hly; rewrite /= in hv.
apply: step_ok (col_ok true (vs 2) hS hly isT hn0) isT _ => M2 hM2.
apply: step_ok (fright_chk true (vs 3) hxt hg (esym hg0) isT hm0 hn0) _ _; [by rewrite /= hwg | move=> xg hxg].
apply: step_bind (fright_chk true (vs 4) hxg (esym hn) (esym hy0) isT hn0 isT) _ => /andP[hwy _] xgy hxgy.
rewrite /= in hwy; have hry := rect_of hwy hny; have hyt := rect_tr hry; rewrite -hn in hyt.
apply: step_ok (ftrans_ok hpf isT) isT _ => pt hpt.
apply: step_ok (fneg_ok hpt) isT _ => npt hnpt.
apply: step_ok (fadd_ok hxgy hnpt isT) isT _ => pfs hpfs.
apply: step_ok (step_idx (crs_v crs) 0 0%R) _ _; [by rewrite /= (ltnW hv) | move=> v0 _].
apply: step_ok (one_ok v0 true (vs 5) hpfs isT) isT _ => M3 hM3.
apply: step_bind (cadd_chkl hM1 hM2 isT) _ => _ P1 hP1.
apply: step_ok (cadd_ok hP1 hM3 isT) isT _ => P2 hP2.
apply: step_ok (flat_ok hP2 isT) isT _ => pi hpi.
apply: step_ok (step_assert _ _) _ _; [by rewrite /= hpi | move=> _ _].
apply: step_bind (step_bslm1 _ _) _ => _ la hla.
have ea : nilp la = nilp (quad_a q) by rewrite /nilp hla.
rewrite -[size (quad_a q)]hla -ea.
apply: step_bind (col_chk la true (vs 6) hyt isT hn0) _ => _ M4 hM4.
have hgp : 0 < size (quad_gamma q) by rewrite hg.
apply: step_bind (ftrans_chk hgp (esym hg0)) _ => /andP[hng _] gt egt.
have hgt := rect_tr (rect_of hwg hng); rewrite hg in hgt; rewrite {}egt.
apply: step_ok (fright_ok true (vs 7) hyt hgt isT hn0 hm0) isT _ => S' hS'.
rewrite -hm in hm0 hS'.
have stX : step (com1_batch_scalar_linear_map X crs) [:: reads (1 < size (crs_u crs))] (fun l => size l = size X).
  by apply: step_as (step_bslm1 X crs) _; rewrite /nilp eqn0Ngt hm0.
apply: step_bind stX _ => /andP[hu _] lx hlx; rewrite /= in hu.
apply: step_ok (col_ok true (vs 8) hS' hlx isT hm0) isT _ => M5 hM5.
apply: step_ok (step_idx (crs_u crs) 0 0%R) _ _; [by rewrite /= (ltnW hu) | move=> u0 _].
apply: step_ok (one_ok u0 true (vs 9) hpf isT) isT _ => M6 hM6.
rewrite -[[:: asserts _]]cats0; apply: step_bind (cadd_chkl hM4 hM5 isT) _ => _ T1 hT1.
apply: step_ok (cadd_ok hT1 hM6 isT) isT _ => T2 hT2.
apply: step_ok (flat_ok hT2 isT) isT _ => th hth.
by apply: step_ok (step_assert _ _) _ _; [rewrite /= hth |].
Qed.

Lemma ppe_cap_outcome sch (q : PPE E) (X : seq (G1 E)) (Y : seq (G2 E)) crs s :
  valid_sched sch ->
  outcome (ppe_commit_and_prove sch q X Y crs s) = first_failed (ppe_cap_checks q (size X) (size Y) crs).
Proof.
move=> vs; rewrite /ppe_commit_and_prove /ppe_cap_checks.
apply: step_bind (step_batch_G1 X crs s) _ => /and3P[h1 m0 _] [cx s1] [_ hx]; rewrite /= in h1 m0 hx.
apply: step_bind (step_batch_G2 Y crs s1) _ => /and3P[h2 n0 _] [cy s2] [_ hy]; rewrite /= in h2 n0 hy.

rewrite -[RHS](_ : outcome (ppe_prove sch q X Y cx cy crs s2) = _); first by case: (ppe_prove _ _ _ _ _ _ _ _) => [[pf s3]|p].
rewrite (ppe_prove_outcome q X Y cx cy crs s2 vs).
rewrite /ppe_prove_checks (rect_size hx) (rect_size hy) (width_rect hx) // (width_rect hy) //.
rewrite (narrow_rect hx) // (narrow_rect hy) // (wide_rect hy) // ?(wide_rect hx) //.
have r1 k : k <= 2 -> reach k (crand cx) = size X.
  by move=> hk; apply/eqP; rewrite eqn_leq -{1 2}(rect_size hx) reach_le reach_wide (wide_rect hx).
rewrite !r1 //; move: h1 h2; rewrite !eqn0Ngt m0 n0 /= => hu hv.
rewrite /nilp ?(eqP hu) ?(eqP hv) ?hu ?hv ?eqxx ?orbT ?m0 ?n0 /=.
do 2 (case: ifP => // _); case: (boolP (_ || (size X == size _))) => // /orP[->|/eqP <-]; by rewrite ?leqnn ?orbT.
Qed.

Lemma ms1_cap_outcome sch (q : MSMEG1 E) (X : seq (G1 E)) (Y : seq (Fr E)) crs s :
  valid_sched sch ->
  outcome (ms1_commit_and_prove sch q X Y crs s) = first_failed (ms1_cap_checks q (size X) (size Y) crs).
Proof.
move=> vs; rewrite /ms1_commit_and_prove /ms1_cap_checks.
apply: step_bind (step_batch_G1 X crs s) _ => /and3P[h1 m0 _] [cx s1] [_ hx]; rewrite /= in h1 m0 hx.
apply: step_bind (step_batch_B2 Y crs s1) _ => /and3P[h2 n0 _] [cy s2] [_ hy]; rewrite /= in h2 n0 hy.

rewrite -[RHS](_ : outcome (ms1_prove sch q X Y cx cy crs s2) = _); first by case: (ms1_prove _ _ _ _ _ _ _ _) => [[pf s3]|p].
rewrite (ms1_prove_outcome q X Y cx cy crs s2 vs).
rewrite /ms1_prove_checks (rect_size hx) (rect_size hy) (width_rect hx) // (width_rect hy) //.
rewrite (narrow_rect hx) // (narrow_rect hy) // (wide_rect hy) // ?(wide_rect hx) //.
have r1 k : k <= 2 -> reach k (crand cx) = size X.
  by move=> hk; apply/eqP; rewrite eqn_leq -{1 2}(rect_size hx) reach_le reach_wide (wide_rect hx).
rewrite !r1 //; move: h1 h2; rewrite !eqn0Ngt m0 n0 /= => hu hv.
rewrite /nilp ?(eqP hu) ?(eqP hv) ?hu ?hv ?eqxx ?orbT ?m0 ?n0 /=.
do 2 (case: ifP => // _); case: (boolP (_ || (size X == size _))) => // /orP[->|/eqP <-]; by rewrite ?leqnn ?orbT.
Qed.

Lemma ms2_cap_outcome sch (q : MSMEG2 E) (X : seq (Fr E)) (Y : seq (G2 E)) crs s :
  valid_sched sch ->
  outcome (ms2_commit_and_prove sch q X Y crs s) = first_failed (ms2_cap_checks q (size X) (size Y) crs).
Proof.
move=> vs; rewrite /ms2_commit_and_prove /ms2_cap_checks.
apply: step_bind (step_batch_B1 X crs s) _ => /and3P[h1 m0 _] [cx s1] [_ hx]; rewrite /= in h1 m0 hx.
apply: step_bind (step_batch_G2 Y crs s1) _ => /and3P[h2 n0 _] [cy s2] [_ hy]; rewrite /= in h2 n0 hy.

rewrite -[RHS](_ : outcome (ms2_prove sch q X Y cx cy crs s2) = _); first by case: (ms2_prove _ _ _ _ _ _ _ _) => [[pf s3]|p].
rewrite (ms2_prove_outcome q X Y cx cy crs s2 vs).
rewrite /ms2_prove_checks (rect_size hx) (rect_size hy) (width_rect hx) // (width_rect hy) //.
rewrite (narrow_rect hx) // (narrow_rect hy) // (wide_rect hy) // ?(wide_rect hx) //.
have r1 k : k <= 1 -> reach k (crand cx) = size X.
  by move=> hk; apply/eqP; rewrite eqn_leq -{1 2}(rect_size hx) reach_le reach_wide (wide_rect hx).
rewrite !r1 //; move: h1 h2; rewrite !eqn0Ngt m0 n0 /= => hu hv.
rewrite /nilp ?(eqP hu) ?(eqP hv) ?hu ?hv ?eqxx ?orbT ?m0 ?n0 /=.
do 2 (case: ifP => // _); case: (boolP (_ || (size X == size _))) => // /orP[->|/eqP <-]; by rewrite ?leqnn ?orbT.
Qed.

Lemma quad_cap_outcome sch (q : QuadEqu E) (X : seq (Fr E)) (Y : seq (Fr E)) crs s :
  valid_sched sch ->
  outcome (quad_commit_and_prove sch q X Y crs s) = first_failed (quad_cap_checks q (size X) (size Y) crs).
Proof.
move=> vs; rewrite /quad_commit_and_prove /quad_cap_checks.
apply: step_bind (step_batch_B1 X crs s) _ => /and3P[h1 m0 _] [cx s1] [_ hx]; rewrite /= in h1 m0 hx.
apply: step_bind (step_batch_B2 Y crs s1) _ => /and3P[h2 n0 _] [cy s2] [_ hy]; rewrite /= in h2 n0 hy.

rewrite -[RHS](_ : outcome (quad_prove sch q X Y cx cy crs s2) = _); first by case: (quad_prove _ _ _ _ _ _ _ _) => [[pf s3]|p].
rewrite (quad_prove_outcome q X Y cx cy crs s2 vs).
rewrite /quad_prove_checks (rect_size hx) (rect_size hy) (width_rect hx) // (width_rect hy) //.
rewrite (narrow_rect hx) // (narrow_rect hy) // (wide_rect hy) // ?(wide_rect hx) //.
have r1 k : k <= 1 -> reach k (crand cx) = size X.
  by move=> hk; apply/eqP; rewrite eqn_leq -{1 2}(rect_size hx) reach_le reach_wide (wide_rect hx).
rewrite !r1 //; move: h1 h2; rewrite !eqn0Ngt m0 n0 /= => hu hv.
rewrite /nilp ?(eqP hu) ?(eqP hv) ?hu ?hv ?eqxx ?orbT ?m0 ?n0 /=.
do 2 (case: ifP => // _); case: (boolP (_ || (size X == size _))) => // /orP[->|/eqP <-]; by rewrite ?leqnn ?orbT.
Qed.

End Prover.
