(** Totality, completeness and exact outcomes of [commit_and_prove]. *)
From mathcomp Require Import all_ssreflect all_algebra.
From Verif Require Import Base BaseLemmas Group DataStructures MatLemmas CoreAlg ComLemmas.
From Verif Require Import Generator Commit Statement Prove Verify Spec ProveLemmas CommitLemmas.
From Verif Require Import VerifyLemmas Holds Complete Sound Main.
Set Implicit Arguments.
Unset Strict Implicit.
Unset Printing Implicit Defensive.
Import GRing.Theory.
Local Open Scope ring_scope.

Section CapLemmas.
Context {E : pairing} {R : rng E}.
Variables (sch sch' : sched).
Hypotheses (vs : valid_sched sch) (vs' : valid_sched sch').
Implicit Types (s : rst R) (crs : CRS E).

Lemma s1map1 crs : s1map crs 1 = u2 crs + (0, g1_gen crs).
Proof. by rewrite /s1map scale1r. Qed.
Lemma s2map1 crs : s2map crs 1 = v2 crs + (0, g2_gen crs).
Proof. by rewrite /s2map scale1r. Qed.

Lemma ppe_cap_dec (hb : bilinear E) q X Y crs s :
  (0 < size X)%N -> (0 < size Y)%N -> ppe_wf q (size X) (size Y) -> two_keys crs ->
  exists p s' b, [/\ ppe_commit_and_prove sch q X Y crs s = Ok (p, s'),
    ppe_verify sch' q p crs = Ok b & b <-> ppe_holds q X Y].
Proof.
move=> hm hn wf hk.
have [cx [cy [pf [s1 [s2 [mx my hp e]]]]]] := ppe_run vs s hm hn wf hk.
have [b hv hh] := ppe_dec vs hb vs' mx my hp.
by exists (mkCProof cx cy [:: pf]), s2, b.
Qed.

Lemma ppe_cap_complete (hb : bilinear E) q X Y crs s :
  (0 < size X)%N -> (0 < size Y)%N -> ppe_wf q (size X) (size Y) -> two_keys crs ->
  ppe_holds q X Y ->
  exists p s', ppe_commit_and_prove sch q X Y crs s = Ok (p, s') /\ ppe_verify sch' q p crs = Ok true.
Proof.
move=> hm hn wf hk hh.
have [cx [cy [pf [s1 [s2 [mx my hp e]]]]]] := ppe_run vs s hm hn wf hk.
have [b hv hbb] := ppe_dec vs hb vs' mx my hp.
by exists (mkCProof cx cy [:: pf]), s2; split=> //; rewrite hv; congr Ok; apply/hbb.
Qed.

Lemma ppe_cap_steps q X Y crs s p s' :
  ppe_commit_and_prove sch q X Y crs s = Ok (p, s') <->
  exists s1 s2 pf, [/\ batch_commit_G1 X crs s = Ok (xcoms p, s1),
    batch_commit_G2 Y crs s1 = Ok (ycoms p, s2),
    ppe_prove sch q X Y (xcoms p) (ycoms p) crs s2 = Ok (pf, s')
    & equ_proofs p = [:: pf]].
Proof.
rewrite /ppe_commit_and_prove; split.
  move=> /bind_ok[[cx s1] hx] /bind_ok[[cy s2] hy] /bind_ok[[pf s3] hp] [<- <-].
  by exists s1, s2, pf.
case: p => cx cy pfs /= [s1 [s2 [pf [hx hy hp ->]]]].
by rewrite hx /= hy /= hp.
Qed.

Lemma ppe_cap_total q X Y crs s :
  (exists p s', ppe_commit_and_prove sch q X Y crs s = Ok (p, s')) <->
  [/\ (0 < size X)%N /\ (0 < size Y)%N, ppe_wf q (size X) (size Y), size (crs_u crs) = 2%N & size (crs_v crs) = 2%N].
Proof.
split=> [[p [s' h]]|[[hm hn] wf hu hv]].
  have [s1 [s2 [pf [hx hy hp _]]]] := (proj1 (ppe_cap_steps q X Y crs s p s')) h.
  have := isok_ppe_prove vs q X Y (xcoms p) (ycoms p) crs s2; rewrite hp => /esym/andP[/andP[sh hu] hv].
  case/and5P: sh => hm hn _ _ /and3P[/dims_rect hg /eqP ha /eqP hb].
  by split=> //; try exact/eqP; split.
have /isokP[[cx s1] hx] : isok (batch_commit_G1 X crs s) by rewrite isok_batch_commit_G1 hm ?hu.
have /isokP[[cy s2] hy] : isok (batch_commit_G2 Y crs s1) by rewrite isok_batch_commit_G2 hn ?hv.
have mx := batch_made_G1 hx; have my := batch_made_G2 hy.
have /isokP[[pf s3] hp] : isok (ppe_prove sch q X Y cx cy crs s2).
  rewrite (isok_ppe_prove vs) ?hu ?hv ?eqxx !andbT; case: wf => ha hb hg.
  have [hR _ _] := made_G1_gs mx; have [hS _ _] := made_G2_gs my.
  exact: prove_shapeI.
by exists (mkCProof cx cy [:: pf]), s3; apply/ppe_cap_steps; exists s1, s2, pf.
Qed.

Lemma ms1_cap_dec (hb : bilinear E) (hnd : nondegenerate E) q X Y crs s :
  (0 < size X)%N -> (0 < size Y)%N -> ms1_wf q (size X) (size Y) -> two_keys crs ->
  v2 crs + (0, g2_gen crs) != 0 -> exists p s' b, [/\ ms1_commit_and_prove sch q X Y crs s = Ok (p, s'),
    ms1_verify sch' q p crs = Ok b & b <-> ms1_holds q X Y].
Proof.
move=> hm hn wf hk ; rewrite -s2map1 => hy.
have [cx [cy [pf [s1 [s2 [mx my hp e]]]]]] := ms1_run vs s hm hn wf hk.
have [b hv hh] := ms1_dec vs hb vs' hnd hy mx my hp.
by exists (mkCProof cx cy [:: pf]), s2, b.
Qed.

Lemma ms1_cap_complete (hb : bilinear E) q X Y crs s :
  (0 < size X)%N -> (0 < size Y)%N -> ms1_wf q (size X) (size Y) -> two_keys crs ->
  ms1_holds q X Y ->
  exists p s', ms1_commit_and_prove sch q X Y crs s = Ok (p, s') /\ ms1_verify sch' q p crs = Ok true.
Proof.
move=> hm hn wf hk hh.
have [cx [cy [pf [s1 [s2 [mx my hp e]]]]]] := ms1_run vs s hm hn wf hk.
by exists (mkCProof cx cy [:: pf]), s2; split=> //; apply: (ms1_ok vs hb vs' mx my hp).
Qed.

Lemma ms1_cap_steps q X Y crs s p s' :
  ms1_commit_and_prove sch q X Y crs s = Ok (p, s') <->
  exists s1 s2 pf, [/\ batch_commit_G1 X crs s = Ok (xcoms p, s1),
    batch_commit_scalar_to_B2 Y crs s1 = Ok (ycoms p, s2),
    ms1_prove sch q X Y (xcoms p) (ycoms p) crs s2 = Ok (pf, s')
    & equ_proofs p = [:: pf]].
Proof.
rewrite /ms1_commit_and_prove; split.
  move=> /bind_ok[[cx s1] hx] /bind_ok[[cy s2] hy] /bind_ok[[pf s3] hp] [<- <-].
  by exists s1, s2, pf.
case: p => cx cy pfs /= [s1 [s2 [pf [hx hy hp ->]]]].
by rewrite hx /= hy /= hp.
Qed.

Lemma ms1_cap_total q X Y crs s :
  (exists p s', ms1_commit_and_prove sch q X Y crs s = Ok (p, s')) <->
  [/\ (0 < size X)%N /\ (0 < size Y)%N, ms1_wf q (size X) (size Y), size (crs_u crs) = 2%N & (1 < size (crs_v crs))%N].
Proof.
split=> [[p [s' h]]|[[hm hn] wf hu hv]].
  have [s1 [s2 [pf [hx hy hp _]]]] := (proj1 (ms1_cap_steps q X Y crs s p s')) h.
  have := isok_ms1_prove vs q X Y (xcoms p) (ycoms p) crs s2; rewrite hp => /esym/andP[/andP[sh hu] hv].
  case/and5P: sh => hm hn _ _ /and3P[/dims_rect hg /eqP ha /eqP hb].
  by split=> //; try exact/eqP; split.
have /isokP[[cx s1] hx] : isok (batch_commit_G1 X crs s) by rewrite isok_batch_commit_G1 hm ?hu.
have /isokP[[cy s2] hy] : isok (batch_commit_scalar_to_B2 Y crs s1) by rewrite isok_batch_commit_B2 hn ?hv.
have mx := batch_made_G1 hx; have my := batch_made_B2 hy.
have /isokP[[pf s3] hp] : isok (ms1_prove sch q X Y cx cy crs s2).
  rewrite (isok_ms1_prove vs) ?hu ?hv ?eqxx !andbT; case: wf => ha hb hg.
  have [hR _ _] := made_G1_gs mx; have [hS _ _] := made_B2_gs my.
  exact: prove_shapeI.
by exists (mkCProof cx cy [:: pf]), s3; apply/ms1_cap_steps; exists s1, s2, pf.
Qed.

Lemma ms2_cap_dec (hb : bilinear E) (hnd : nondegenerate E) q X Y crs s :
  (0 < size X)%N -> (0 < size Y)%N -> ms2_wf q (size X) (size Y) -> two_keys crs ->
  u2 crs + (0, g1_gen crs) != 0 -> exists p s' b, [/\ ms2_commit_and_prove sch q X Y crs s = Ok (p, s'),
    ms2_verify sch' q p crs = Ok b & b <-> ms2_holds q X Y].
Proof.
move=> hm hn wf hk ; rewrite -s1map1 => hx.
have [cx [cy [pf [s1 [s2 [mx my hp e]]]]]] := ms2_run vs s hm hn wf hk.
have [b hv hh] := ms2_dec vs hb vs' hnd hx mx my hp.
by exists (mkCProof cx cy [:: pf]), s2, b.
Qed.

Lemma ms2_cap_complete (hb : bilinear E) q X Y crs s :
  (0 < size X)%N -> (0 < size Y)%N -> ms2_wf q (size X) (size Y) -> two_keys crs ->
  ms2_holds q X Y ->
  exists p s', ms2_commit_and_prove sch q X Y crs s = Ok (p, s') /\ ms2_verify sch' q p crs = Ok true.
Proof.
move=> hm hn wf hk hh.
have [cx [cy [pf [s1 [s2 [mx my hp e]]]]]] := ms2_run vs s hm hn wf hk.
by exists (mkCProof cx cy [:: pf]), s2; split=> //; apply: (ms2_ok vs hb vs' mx my hp).
Qed.

Lemma ms2_cap_steps q X Y crs s p s' :
  ms2_commit_and_prove sch q X Y crs s = Ok (p, s') <->
  exists s1 s2 pf, [/\ batch_commit_scalar_to_B1 X crs s = Ok (xcoms p, s1),
    batch_commit_G2 Y crs s1 = Ok (ycoms p, s2),
    ms2_prove sch q X Y (xcoms p) (ycoms p) crs s2 = Ok (pf, s')
    & equ_proofs p = [:: pf]].
Proof.
rewrite /ms2_commit_and_prove; split.
  move=> /bind_ok[[cx s1] hx] /bind_ok[[cy s2] hy] /bind_ok[[pf s3] hp] [<- <-].
  by exists s1, s2, pf.
case: p => cx cy pfs /= [s1 [s2 [pf [hx hy hp ->]]]].
by rewrite hx /= hy /= hp.
Qed.

Lemma ms2_cap_total q X Y crs s :
  (exists p s', ms2_commit_and_prove sch q X Y crs s = Ok (p, s')) <->
  [/\ (0 < size X)%N /\ (0 < size Y)%N, ms2_wf q (size X) (size Y), (1 < size (crs_u crs))%N & size (crs_v crs) = 2%N].
Proof.
split=> [[p [s' h]]|[[hm hn] wf hu hv]].
  have [s1 [s2 [pf [hx hy hp _]]]] := (proj1 (ms2_cap_steps q X Y crs s p s')) h.
  have := isok_ms2_prove vs q X Y (xcoms p) (ycoms p) crs s2; rewrite hp => /esym/andP[/andP[sh hu] hv].
  case/and5P: sh => hm hn _ _ /and3P[/dims_rect hg /eqP ha /eqP hb].
  by split=> //; try exact/eqP; split.
have /isokP[[cx s1] hx] : isok (batch_commit_scalar_to_B1 X crs s) by rewrite isok_batch_commit_B1 hm ?hu.
have /isokP[[cy s2] hy] : isok (batch_commit_G2 Y crs s1) by rewrite isok_batch_commit_G2 hn ?hv.
have mx := batch_made_B1 hx; have my := batch_made_G2 hy.
have /isokP[[pf s3] hp] : isok (ms2_prove sch q X Y cx cy crs s2).
  rewrite (isok_ms2_prove vs) ?hu ?hv ?eqxx !andbT; case: wf => ha hb hg.
  have [hR _ _] := made_B1_gs mx; have [hS _ _] := made_G2_gs my.
  exact: prove_shapeI.
by exists (mkCProof cx cy [:: pf]), s3; apply/ms2_cap_steps; exists s1, s2, pf.
Qed.

Lemma quad_cap_dec (hb : bilinear E) (hnd : nondegenerate E) q X Y crs s :
  (0 < size X)%N -> (0 < size Y)%N -> quad_wf q (size X) (size Y) -> two_keys crs ->
  u2 crs + (0, g1_gen crs) != 0 -> v2 crs + (0, g2_gen crs) != 0 -> exists p s' b, [/\ quad_commit_and_prove sch q X Y crs s = Ok (p, s'),
    quad_verify sch' q p crs = Ok b & b <-> quad_holds q X Y].
Proof.
move=> hm hn wf hk; rewrite -s1map1 -s2map1 => hx hy.
have [cx [cy [pf [s1 [s2 [mx my hp e]]]]]] := quad_run vs s hm hn wf hk.
have [b hv hh] := quad_dec vs hb vs' hnd hx hy mx my hp.
by exists (mkCProof cx cy [:: pf]), s2, b.
Qed.

Lemma quad_cap_complete (hb : bilinear E) q X Y crs s :
  (0 < size X)%N -> (0 < size Y)%N -> quad_wf q (size X) (size Y) -> two_keys crs ->
  quad_holds q X Y ->
  exists p s', quad_commit_and_prove sch q X Y crs s = Ok (p, s') /\ quad_verify sch' q p crs = Ok true.
Proof.
move=> hm hn wf hk hh.
have [cx [cy [pf [s1 [s2 [mx my hp e]]]]]] := quad_run vs s hm hn wf hk.
by exists (mkCProof cx cy [:: pf]), s2; split=> //; apply: (quad_ok vs hb vs' mx my hp).
Qed.

Lemma quad_cap_steps q X Y crs s p s' :
  quad_commit_and_prove sch q X Y crs s = Ok (p, s') <->
  exists s1 s2 pf, [/\ batch_commit_scalar_to_B1 X crs s = Ok (xcoms p, s1),
    batch_commit_scalar_to_B2 Y crs s1 = Ok (ycoms p, s2),
    quad_prove sch q X Y (xcoms p) (ycoms p) crs s2 = Ok (pf, s')
    & equ_proofs p = [:: pf]].
Proof.
rewrite /quad_commit_and_prove; split.
  move=> /bind_ok[[cx s1] hx] /bind_ok[[cy s2] hy] /bind_ok[[pf s3] hp] [<- <-].
  by exists s1, s2, pf.
case: p => cx cy pfs /= [s1 [s2 [pf [hx hy hp ->]]]].
by rewrite hx /= hy /= hp.
Qed.

Lemma quad_cap_total q X Y crs s :
  (exists p s', quad_commit_and_prove sch q X Y crs s = Ok (p, s')) <->
  [/\ (0 < size X)%N /\ (0 < size Y)%N, quad_wf q (size X) (size Y), (1 < size (crs_u crs))%N & (1 < size (crs_v crs))%N].
Proof.
split=> [[p [s' h]]|[[hm hn] wf hu hv]].
  have [s1 [s2 [pf [hx hy hp _]]]] := (proj1 (quad_cap_steps q X Y crs s p s')) h.
  have := isok_quad_prove vs q X Y (xcoms p) (ycoms p) crs s2; rewrite hp => /esym/andP[/andP[sh hu] hv].
  case/and5P: sh => hm hn _ _ /and3P[/dims_rect hg /eqP ha /eqP hb].
  by split=> //; try exact/eqP; split.
have /isokP[[cx s1] hx] : isok (batch_commit_scalar_to_B1 X crs s) by rewrite isok_batch_commit_B1 hm ?hu.
have /isokP[[cy s2] hy] : isok (batch_commit_scalar_to_B2 Y crs s1) by rewrite isok_batch_commit_B2 hn ?hv.
have mx := batch_made_B1 hx; have my := batch_made_B2 hy.
have /isokP[[pf s3] hp] : isok (quad_prove sch q X Y cx cy crs s2).
  rewrite (isok_quad_prove vs) ?hu ?hv ?eqxx !andbT; case: wf => ha hb hg.
  have [hR _ _] := made_B1_gs mx; have [hS _ _] := made_B2_gs my.
  exact: prove_shapeI.
by exists (mkCProof cx cy [:: pf]), s3; apply/quad_cap_steps; exists s1, s2, pf.
Qed.

End CapLemmas.
