(** Arbitrary keys: which proofs verify, and the dichotomy between binding and hiding. *)
From mathcomp Require Import all_ssreflect all_algebra.
From Verif Require Import Base BaseLemmas Group DataStructures MatLemmas CoreAlg ComLemmas Generator Commit Statement Prove Verify Spec SpecMat SpecVerify SpecHide SpecKeys ProveLemmas CommitLemmas VerifyLemmas Holds Sound Complete Main Draws CapLemmas HideCore HideTape Hiding MatProps VProps HideProps RerandProps Exist Keys.
Set Implicit Arguments.
Unset Strict Implicit.
Unset Printing Implicit Defensive.
Import GRing.Theory.
Local Open Scope ring_scope.

Section Inj.
Context {E : pairing}.
Hypotheses (hb : bilinear E) (hnd : nondegenerate E).
Let eb := pair_bilin hb.
Lemma e_injl (Q : G2 E) x x' : Q != 0 -> pair_e x Q = pair_e x' Q -> x = x'.
Proof.
move=> hQ /eqP; rewrite -subr_eq0 -(bilBl eb) => /eqP /hnd[/eqP|h]; first by rewrite subr_eq0 => /eqP.
by case/eqP: hQ.
Qed.
Lemma e_injr (P : G1 E) y y' : P != 0 -> pair_e P y = pair_e P y' -> y = y'.
Proof.
move=> hP /eqP; rewrite -subr_eq0 -(bilBr eb) => /eqP /hnd[h|/eqP]; last by rewrite subr_eq0 => /eqP.
by case/eqP: hP.
Qed.
Lemma lf_s1 (crs : CRS E) a b x : lf a b (s1map crs x) = x *: lf a b (u2 crs + (0, g1_gen crs)).
Proof. by rewrite /s1map lfZ. Qed.
Lemma lf_s2 (crs : CRS E) a b x : lf a b (s2map crs x) = x *: lf a b (v2 crs + (0, g2_gen crs)).
Proof. by rewrite /s2map lfZ. Qed.
Lemma dims_fits m n (G : matrix (Fr E)) : (0 < m)%N -> (0 < n)%N -> dims m n G -> gamma_fits m n G.
Proof.
move=> h1 h2 [hs hr]; right; split=> //; first by apply: hr.
by move=> i hi; rewrite hr.
Qed.

Section Span.
Variable crs : CRS E.
Notation U := (crs_u crs). Notation V := (crs_v crs).

Lemma lin_inU x : (forall x, exists r1 r2, (0, x) = r1 *: u1 crs + r2 *: u2 crs) -> inU 2 U (0, x).
Proof. by move=> /(_ x)[r1 [r2 ->]]; exists (fun i => if i is 0%N then r1 else r2); rewrite big2. Qed.
Lemma G1_inU X cs k : (forall x, exists r1 r2, (0, x) = r1 *: u1 crs + r2 *: u2 crs) -> commits_G1 crs cs X -> (k < size cs)%N ->
  inU 2 U (nth 0 cs k).
Proof.
move=> h [_ hX] hk; have [r [r1 [r2 [_ ->]]]] := hX k hk; rewrite -addrA.
apply: inUD; first exact: lin_inU.
by exists (fun i => if i is 0%N then r1 else r2); rewrite big2.
Qed.
Lemma s1_inU t x : u2 crs + (0, g1_gen crs) = t *: u1 crs -> inU 1 U (s1map crs x).
Proof. by move=> e; exists (fun=> x * t); rewrite big_nat1 /s1map e scalerA. Qed.
Lemma B1_inU t X cs k : u2 crs + (0, g1_gen crs) = t *: u1 crs -> commits_B1 crs cs X -> (k < size cs)%N ->
  inU 1 U (nth 0 cs k).
Proof.
move=> e [_ hX] hk; have [r [r1 [_ ->]]] := hX k hk.
by exists (fun=> nth 0 X k * t + r1); rewrite big_nat1 e scalerA scalerDl.
Qed.

Lemma lin_inV x : (forall x, exists r1 r2, (0, x) = r1 *: v1 crs + r2 *: v2 crs) -> inV 2 V (0, x).
Proof. by move=> /(_ x)[r1 [r2 ->]]; exists (fun i => if i is 0%N then r1 else r2); rewrite big2. Qed.
Lemma G2_inV X cs k : (forall x, exists r1 r2, (0, x) = r1 *: v1 crs + r2 *: v2 crs) -> commits_G2 crs cs X -> (k < size cs)%N ->
  inV 2 V (nth 0 cs k).
Proof.
move=> h [_ hX] hk; have [r [r1 [r2 [_ ->]]]] := hX k hk; rewrite -addrA.
apply: inVD; first exact: lin_inV.
by exists (fun i => if i is 0%N then r1 else r2); rewrite big2.
Qed.
Lemma s2_inV t x : v2 crs + (0, g2_gen crs) = t *: v1 crs -> inV 1 V (s2map crs x).
Proof. by move=> e; exists (fun=> x * t); rewrite big_nat1 /s2map e scalerA. Qed.
Lemma B2_inV t X cs k : v2 crs + (0, g2_gen crs) = t *: v1 crs -> commits_B2 crs cs X -> (k < size cs)%N ->
  inV 1 V (nth 0 cs k).
Proof.
move=> e [_ hX] hk; have [r [r1 [_ ->]]] := hX k hk.
by exists (fun=> nth 0 X k * t + r1); rewrite big_nat1 e scalerA scalerDl.
Qed.

Lemma target_f (z : GT E) : cyclic (GT E) -> proper_crs crs ->
  exists k, linear_map_PPE z = comT_pairing (0, g1_gen crs) (0, k *: g2_gen crs) /\ linear_map_PPE z = comT_pairing (0, k *: g1_gen crs) (0, g2_gen crs).
Proof.
move=> hc [h1 h2]; have [|k ->] := hc (pair_e (g1_gen crs) (g2_gen crs)) z.
  apply/eqP => /hnd[] e; [move: h1|move: h2]; by rewrite e eqxx.
exists k; rewrite /linear_map_PPE /comT_pairing /mkComT /=.
by rewrite !(bil0l eb) !(bil0r eb) (bilZl eb) (bilZr eb).
Qed.
End Span.
End Inj.

Lemma ppe_sound_lf (E : pairing) (sch : sched) (q : PPE E) cx cy pf crs X Y a a' : bilinear E -> nondegenerate E -> valid_sched sch -> two_keys crs ->
  lf a 1 (u1 crs) = 0 -> lf a 1 (u2 crs) = 0 -> lf a' 1 (v1 crs) = 0 -> lf a' 1 (v2 crs) = 0 ->
  ppe_verify sch q (mkCProof cx cy [:: pf]) crs = Ok true -> commits_G1 crs (coms cx) X -> commits_G2 crs (coms cy) Y -> ppe_holds q X Y.
Proof.
move=> hb hnd vs [hu hv] h1 h2 g1 g2 h [sX hX] [sY hY]; have eb := pair_bilin hb.
have ok : isok (ppe_verify sch q (mkCProof cx cy [:: pf]) crs) by rewrite h.
have sh := ppe_verify_shape vs ok; have hq := Ok_inj (etrans (esym (ppe_verify_Ok vs sh)) h).
move: hq; rewrite /ppe_veq ?hu ?hv => /(@veq_lf _ hb a 1 a' 1) hq.
apply/(ppe_holdsE _ _ _ hb).
have -> : ppe_target q = lfT a 1 a' 1 (linear_map_PPE (ppe_target q)).
  by rewrite /lfT /= !scaler0 !add0r !scale1r scaler0 add0r.
rewrite -hq; last 2 first.
- by move=> [|[|i]].
- by move=> [|[|i]].
rewrite /ppe_val sX sY; symmetry.
apply: (gs_map (i1 := id) (i2 := id) (iT := id)) => //.
- move=> j hj; by rewrite nth_lin1 lf_lin.
- by move=> k hk; have [r /(lf_G1 h1 h2)] := hX k hk.
- move=> j hj; by rewrite nth_lin2 lf_lin.
- by move=> k hk; have [r /(lf_G2 g1 g2)] := hY k hk.
Qed.

Lemma k_C65_ppe : forall (E : pairing) (sch : sched) (q : PPE E) (cx : Commit1 E) (cy : Commit2 E) (crs : CRS E) (X : seq (G1 E)) (Y : seq (G2 E)),
  bilinear E -> nondegenerate E -> cyclic (G1 E) -> cyclic (G2 E) -> cyclic (GT E) -> valid_sched sch -> two_keys crs -> proper_crs crs ->
  commits_G1 crs (coms cx) X -> commits_G2 crs (coms cy) Y -> (0 < size X)%N -> (0 < size Y)%N -> ppe_wf q (size X) (size Y) ->
  (exists pf, ppe_verify sch q (mkCProof cx cy [:: pf]) crs = Ok true) <->
  (binding_for com_G1 crs -> binding_for com_G2 crs -> ppe_holds q X Y).
Proof.
move=> E sch q cx cy crs X Y hb hn hc1 hc2 hcT vs tk hp cX cY hX hY wf; case: (hp) => hp1 hp2.
split=> [[pf h] bx by_|hold].
  case: (G1_kind crs hc1) => [[a [h1 h2]]|hx0]; last by case: (spans_G1 hp1 hx0).
  case: (G2_kind crs hc2) => [[a' [g1 g2]]|hy0]; last by case: (spans_G2 hp2 hy0).
  exact: (ppe_sound_lf hb hn vs tk h1 h2 g1 g2 h cX cY).
have [hu hv] := tk; have [sX _] := cX; have [sY _] := cY.
have [wa wb wg] := wf; have wG := dims_fits hX hY wg; rewrite sX sY in wG wa wb.
case: (G1_kind crs hc1) => [[a [h1 h2]]|hx0]; last first.
  have [|j hj|j hj|p [th [p1 p2 p3]]] := @veq_absU _ hb 2 (crs_u crs) 2 (crs_v crs) (com1_batch_linear_map (ppe_a q)) (com2_batch_linear_map (ppe_b q)) (ppe_gamma q) (coms cx) (coms cy) (linear_map_PPE (ppe_target q)).
  - have [k [-> _]] := target_f hb hn (ppe_target q) hcT hp; apply: (absU_f hb); exact: lin_inU.
  - rewrite nth_lin1; exact: lin_inU.
  - exact: G1_inU hx0 cX hj.
  exists (mkEquProof p th PairingProduct [::]).
  rewrite (ppe_verify_Ok vs); last by apply/ppe_vshapeP; split; rewrite /= ?p1 ?p2 ?hu ?hv.
  by rewrite /ppe_veq ?hu ?hv p3.
case: (G2_kind crs hc2) => [[a' [g1 g2]]|hy0]; last first.
  have [|j hj|j hj|p [th [p1 p2 p3]]] := @veq_absV _ hb 2 (crs_v crs) 2 (crs_u crs) (com1_batch_linear_map (ppe_a q)) (com2_batch_linear_map (ppe_b q)) (ppe_gamma q) (coms cx) (coms cy) (linear_map_PPE (ppe_target q)).
  - have [k [_ ->]] := target_f hb hn (ppe_target q) hcT hp; apply: (absV_f hb); exact: lin_inV.
  - rewrite nth_lin2; exact: lin_inV.
  - exact: G2_inV hy0 cY hj.
  exists (mkEquProof p th PairingProduct [::]).
  rewrite (ppe_verify_Ok vs); last by apply/ppe_vshapeP; split; rewrite /= ?p1 ?p2 ?hu ?hv.
  by rewrite /ppe_veq ?hu ?hv p3.
have {}hold := hold (binds_G1 h1 h2) (binds_G2 g1 g2).
have [rx mx] := commits_made sX (proj2 cX); have [ry my] := commits_made sY (proj2 cY).
have /isokP[[pf s'] e0] := ppe_prove_total vs ([::] : rst (@tape_rng E)) hX hY wf tk mx my.
exists pf; rewrite (@k_C33_ppe_randomness E sch q (mkCProof cx cy [:: pf]) (mkCProof (mkCommit (coms cx) rx) (mkCommit (coms cy) ry) [:: pf])) //.
have [b0 hv' hb'] := ppe_dec vs hb vs mx my e0; rewrite hv'; congr Ok; exact/hb'.
Qed.

Lemma ms1_sound_lf (E : pairing) (sch : sched) (q : MSMEG1 E) cx cy pf crs X Y a a' b' : bilinear E -> nondegenerate E -> valid_sched sch -> two_keys crs ->
  lf a 1 (u1 crs) = 0 -> lf a 1 (u2 crs) = 0 -> lf a' b' (v1 crs) = 0 -> lf a' b' (v2 crs + (0, g2_gen crs)) != 0 ->
  ms1_verify sch q (mkCProof cx cy [:: pf]) crs = Ok true -> commits_G1 crs (coms cx) X -> commits_B2 crs (coms cy) Y -> ms1_holds q X Y.
Proof.
move=> hb hnd vs [hu hv] h1 h2 g1 g2 h [sX hX] [sY hY]; have eb := pair_bilin hb.
have ok : isok (ms1_verify sch q (mkCProof cx cy [:: pf]) crs) by rewrite h.
have sh := ms1_verify_shape vs ok; have hq := Ok_inj (etrans (esym (ms1_verify_Ok vs sh)) h).
move: hq; rewrite /ms1_veq ?hu ?hv => /(@veq_lf _ hb a 1 a' b') hq.
apply/ms1_holdsE; apply: (e_injl hb hnd g2); have -> : pair_e (ms1_target q) (lf a' b' (v2 crs + (0, g2_gen crs))) = lfT a 1 a' b' (comT_pairing (com1_linear_map (ms1_target q)) (s2map crs 1)).
  by rewrite (lfT_f hb) lf_lin lf_s2 scale1r.
rewrite -hq; last 2 first.
- by move=> [|[|i]].
- by move=> [|[|i]].
rewrite /ms1_val sX sY; symmetry.
apply: (gs_map (f' := f1) (i1 := id) (i2 := (fun y => y *: lf a' b' (v2 crs + (0, g2_gen crs)))) (iT := (fun z => pair_e z (lf a' b' (v2 crs + (0, g2_gen crs)))))) => //.
- by move=> x y; rewrite /f1 (bilZl eb) (bilZr eb).
- by move=> y y'; rewrite scalerDl.
- by move=> k y; rewrite -scalerA.
- by move=> z z'; rewrite (bilDl eb).
- move=> j hj; by rewrite nth_lin1 lf_lin.
- by move=> k hk; have [r /(lf_G1 h1 h2)] := hX k hk.
- move=> j hj; by rewrite nth_s2 lf_s2.
- by move=> k hk; have [r /(lf_B2 g1)] := hY k hk.
Qed.

Lemma k_C65_ms1 : forall (E : pairing) (sch : sched) (q : MSMEG1 E) (cx : Commit1 E) (cy : Commit2 E) (crs : CRS E) (X : seq (G1 E)) (Y : seq (Fr E)),
  bilinear E -> nondegenerate E -> cyclic (G1 E) -> cyclic (G2 E) -> valid_sched sch -> two_keys crs -> proper_crs crs ->
  commits_G1 crs (coms cx) X -> commits_B2 crs (coms cy) Y -> (0 < size X)%N -> (0 < size Y)%N -> ms1_wf q (size X) (size Y) ->
  (exists pf, ms1_verify sch q (mkCProof cx cy [:: pf]) crs = Ok true) <->
  (binding_for com_G1 crs -> binding_for com_B2 crs -> ms1_holds q X Y).
Proof.
move=> E sch q cx cy crs X Y hb hn hc1 hc2 vs tk hp cX cY hX hY wf; case: (hp) => hp1 hp2.
split=> [[pf h] bx by_|hold].
  case: (G1_kind crs hc1) => [[a [h1 h2]]|hx0]; last by case: (spans_G1 hp1 hx0).
  case: (B2_kind crs hc2) => [[a' [b' [g1 g2]]]|[ty hy0]]; last by case: (spans_B2 hy0).
  exact: (ms1_sound_lf hb hn vs tk h1 h2 g1 g2 h cX cY).
have [hu hv] := tk; have [sX _] := cX; have [sY _] := cY.
have [wa wb wg] := wf; have wG := dims_fits hX hY wg; rewrite sX sY in wG wa wb.
case: (G1_kind crs hc1) => [[a [h1 h2]]|hx0]; last first.
  have [|j hj|j hj|p [th [p1 p2 p3]]] := @veq_absU _ hb 2 (crs_u crs) 1 (crs_v crs) (com1_batch_linear_map (ms1_a q)) ([seq s2map crs y | y <- ms1_b q]) (ms1_gamma q) (coms cx) (coms cy) (comT_pairing (com1_linear_map (ms1_target q)) (s2map crs 1)).
  - apply: (absU_f hb); exact: lin_inU.
  - rewrite nth_lin1; exact: lin_inU.
  - exact: G1_inU hx0 cX hj.
  exists (mkEquProof p th MultiScalarG1 [::]).
  rewrite (ms1_verify_Ok vs); last by apply/ms1_vshapeP; split; rewrite /= ?p1 ?p2 ?hu ?hv.
  by rewrite /ms1_veq ?hu ?hv p3.
case: (B2_kind crs hc2) => [[a' [b' [g1 g2]]]|[ty hy0]]; last first.
  have [|j hj|j hj|p [th [p1 p2 p3]]] := @veq_absV _ hb 1 (crs_v crs) 2 (crs_u crs) (com1_batch_linear_map (ms1_a q)) ([seq s2map crs y | y <- ms1_b q]) (ms1_gamma q) (coms cx) (coms cy) (comT_pairing (com1_linear_map (ms1_target q)) (s2map crs 1)).
  - apply: (absV_f hb); exact: s2_inV hy0.
  - rewrite nth_s2; exact: s2_inV hy0.
  - exact: B2_inV hy0 cY hj.
  exists (mkEquProof p th MultiScalarG1 [::]).
  rewrite (ms1_verify_Ok vs); last by apply/ms1_vshapeP; split; rewrite /= ?p1 ?p2 ?hu ?hv.
  by rewrite /ms1_veq ?hu ?hv p3.
have {}hold := hold (binds_G1 h1 h2) (binds_B2 g1 g2).
have [rx mx] := commits_made sX (proj2 cX); have [ry my] := commits_made sY (proj2 cY).
have /isokP[[pf s'] e0] := ms1_prove_total vs ([::] : rst (@tape_rng E)) hX hY wf tk mx my.
exists pf; rewrite (@k_C33_ms1_randomness E sch q (mkCProof cx cy [:: pf]) (mkCProof (mkCommit (coms cx) rx) (mkCommit (coms cy) ry) [:: pf])) //.
exact: (ms1_ok vs hb vs mx my e0 hold).
Qed.

Lemma ms2_sound_lf (E : pairing) (sch : sched) (q : MSMEG2 E) cx cy pf crs X Y a b a' : bilinear E -> nondegenerate E -> valid_sched sch -> two_keys crs ->
  lf a b (u1 crs) = 0 -> lf a b (u2 crs + (0, g1_gen crs)) != 0 -> lf a' 1 (v1 crs) = 0 -> lf a' 1 (v2 crs) = 0 ->
  ms2_verify sch q (mkCProof cx cy [:: pf]) crs = Ok true -> commits_B1 crs (coms cx) X -> commits_G2 crs (coms cy) Y -> ms2_holds q X Y.
Proof.
move=> hb hnd vs [hu hv] h1 h2 g1 g2 h [sX hX] [sY hY]; have eb := pair_bilin hb.
have ok : isok (ms2_verify sch q (mkCProof cx cy [:: pf]) crs) by rewrite h.
have sh := ms2_verify_shape vs ok; have hq := Ok_inj (etrans (esym (ms2_verify_Ok vs sh)) h).
move: hq; rewrite /ms2_veq ?hu ?hv => /(@veq_lf _ hb a b a' 1) hq.
apply/ms2_holdsE; apply: (e_injr hb hnd h2); have -> : pair_e (lf a b (u2 crs + (0, g1_gen crs))) (ms2_target q) = lfT a b a' 1 (comT_pairing (s1map crs 1) (com2_linear_map (ms2_target q))).
  by rewrite (lfT_f hb) lf_lin lf_s1 scale1r.
rewrite -hq; last 2 first.
- by move=> [|[|i]].
- by move=> [|[|i]].
rewrite /ms2_val sX sY; symmetry.
apply: (gs_map (f' := f2) (i1 := (fun x => x *: lf a b (u2 crs + (0, g1_gen crs)))) (i2 := id) (iT := (fun z => pair_e (lf a b (u2 crs + (0, g1_gen crs))) z))) => //.
- by move=> x y; rewrite /f2 (bilZl eb) (bilZr eb).
- by move=> z z'; rewrite (bilDr eb).
- move=> j hj; by rewrite nth_s1 lf_s1.
- by move=> k hk; have [r /(lf_B1 h1)] := hX k hk.
- move=> j hj; by rewrite nth_lin2 lf_lin.
- by move=> k hk; have [r /(lf_G2 g1 g2)] := hY k hk.
Qed.

Lemma k_C65_ms2 : forall (E : pairing) (sch : sched) (q : MSMEG2 E) (cx : Commit1 E) (cy : Commit2 E) (crs : CRS E) (X : seq (Fr E)) (Y : seq (G2 E)),
  bilinear E -> nondegenerate E -> cyclic (G1 E) -> cyclic (G2 E) -> valid_sched sch -> two_keys crs -> proper_crs crs ->
  commits_B1 crs (coms cx) X -> commits_G2 crs (coms cy) Y -> (0 < size X)%N -> (0 < size Y)%N -> ms2_wf q (size X) (size Y) ->
  (exists pf, ms2_verify sch q (mkCProof cx cy [:: pf]) crs = Ok true) <->
  (binding_for com_B1 crs -> binding_for com_G2 crs -> ms2_holds q X Y).
Proof.
move=> E sch q cx cy crs X Y hb hn hc1 hc2 vs tk hp cX cY hX hY wf; case: (hp) => hp1 hp2.
split=> [[pf h] bx by_|hold].
  case: (B1_kind crs hc1) => [[a [b [h1 h2]]]|[tx hx0]]; last by case: (spans_B1 hx0).
  case: (G2_kind crs hc2) => [[a' [g1 g2]]|hy0]; last by case: (spans_G2 hp2 hy0).
  exact: (ms2_sound_lf hb hn vs tk h1 h2 g1 g2 h cX cY).
have [hu hv] := tk; have [sX _] := cX; have [sY _] := cY.
have [wa wb wg] := wf; have wG := dims_fits hX hY wg; rewrite sX sY in wG wa wb.
case: (B1_kind crs hc1) => [[a [b [h1 h2]]]|[tx hx0]]; last first.
  have [|j hj|j hj|p [th [p1 p2 p3]]] := @veq_absU _ hb 1 (crs_u crs) 2 (crs_v crs) ([seq s1map crs x | x <- ms2_a q]) (com2_batch_linear_map (ms2_b q)) (ms2_gamma q) (coms cx) (coms cy) (comT_pairing (s1map crs 1) (com2_linear_map (ms2_target q))).
  - apply: (absU_f hb); exact: s1_inU hx0.
  - rewrite nth_s1; exact: s1_inU hx0.
  - exact: B1_inU hx0 cX hj.
  exists (mkEquProof p th MultiScalarG2 [::]).
  rewrite (ms2_verify_Ok vs); last by apply/ms2_vshapeP; split; rewrite /= ?p1 ?p2 ?hu ?hv.
  by rewrite /ms2_veq ?hu ?hv p3.
case: (G2_kind crs hc2) => [[a' [g1 g2]]|hy0]; last first.
  have [|j hj|j hj|p [th [p1 p2 p3]]] := @veq_absV _ hb 2 (crs_v crs) 1 (crs_u crs) ([seq s1map crs x | x <- ms2_a q]) (com2_batch_linear_map (ms2_b q)) (ms2_gamma q) (coms cx) (coms cy) (comT_pairing (s1map crs 1) (com2_linear_map (ms2_target q))).
  - apply: (absV_f hb); exact: lin_inV.
  - rewrite nth_lin2; exact: lin_inV.
  - exact: G2_inV hy0 cY hj.
  exists (mkEquProof p th MultiScalarG2 [::]).
  rewrite (ms2_verify_Ok vs); last by apply/ms2_vshapeP; split; rewrite /= ?p1 ?p2 ?hu ?hv.
  by rewrite /ms2_veq ?hu ?hv p3.
have {}hold := hold (binds_B1 h1 h2) (binds_G2 g1 g2).
have [rx mx] := commits_made sX (proj2 cX); have [ry my] := commits_made sY (proj2 cY).
have /isokP[[pf s'] e0] := ms2_prove_total vs ([::] : rst (@tape_rng E)) hX hY wf tk mx my.
exists pf; rewrite (@k_C33_ms2_randomness E sch q (mkCProof cx cy [:: pf]) (mkCProof (mkCommit (coms cx) rx) (mkCommit (coms cy) ry) [:: pf])) //.
exact: (ms2_ok vs hb vs mx my e0 hold).
Qed.

Lemma quad_sound_lf (E : pairing) (sch : sched) (q : QuadEqu E) cx cy pf crs X Y a b a' b' : bilinear E -> nondegenerate E -> valid_sched sch -> two_keys crs ->
  lf a b (u1 crs) = 0 -> lf a b (u2 crs + (0, g1_gen crs)) != 0 -> lf a' b' (v1 crs) = 0 -> lf a' b' (v2 crs + (0, g2_gen crs)) != 0 ->
  quad_verify sch q (mkCProof cx cy [:: pf]) crs = Ok true -> commits_B1 crs (coms cx) X -> commits_B2 crs (coms cy) Y -> quad_holds q X Y.
Proof.
move=> hb hnd vs [hu hv] h1 h2 g1 g2 h [sX hX] [sY hY]; have eb := pair_bilin hb.
have ok : isok (quad_verify sch q (mkCProof cx cy [:: pf]) crs) by rewrite h.
have sh := quad_verify_shape vs ok; have hq := Ok_inj (etrans (esym (quad_verify_Ok vs sh)) h).
move: hq; rewrite /quad_veq ?hu ?hv => /(@veq_lf _ hb a b a' b') hq.
apply/quad_holdsE; apply: (scaleI g2); apply: (e_injr hb hnd h2).
have -> : pair_e (lf a b (u2 crs + (0, g1_gen crs))) (quad_target q *: lf a' b' (v2 crs + (0, g2_gen crs))) = lfT a b a' b' (comT_pairing (s1map crs 1) (quad_target q *: s2map crs 1)).
  by rewrite (lfT_f hb) lfZ lf_s1 lf_s2 !scale1r.
rewrite -hq; last 2 first.
- by move=> [|[|i]].
- by move=> [|[|i]].
rewrite /quad_val sX sY; symmetry.
apply: (gs_map (f' := fq) (i1 := (fun x => x *: lf a b (u2 crs + (0, g1_gen crs)))) (i2 := (fun y => y *: lf a' b' (v2 crs + (0, g2_gen crs)))) (iT := (fun z => pair_e (lf a b (u2 crs + (0, g1_gen crs))) (z *: lf a' b' (v2 crs + (0, g2_gen crs)))))) => //.
- by move=> x y; rewrite /fq (bilZl eb) !(bilZr eb) scalerA.
- by move=> y y'; rewrite scalerDl.
- by move=> k y; rewrite -scalerA.
- by move=> z z'; rewrite scalerDl (bilDr eb).
- move=> j hj; by rewrite nth_s1 lf_s1.
- by move=> k hk; have [r /(lf_B1 h1)] := hX k hk.
- move=> j hj; by rewrite nth_s2 lf_s2.
- by move=> k hk; have [r /(lf_B2 g1)] := hY k hk.
Qed.

Lemma k_C65_quad : forall (E : pairing) (sch : sched) (q : QuadEqu E) (cx : Commit1 E) (cy : Commit2 E) (crs : CRS E) (X : seq (Fr E)) (Y : seq (Fr E)),
  bilinear E -> nondegenerate E -> cyclic (G1 E) -> cyclic (G2 E) -> valid_sched sch -> two_keys crs -> proper_crs crs ->
  commits_B1 crs (coms cx) X -> commits_B2 crs (coms cy) Y -> (0 < size X)%N -> (0 < size Y)%N -> quad_wf q (size X) (size Y) ->
  (exists pf, quad_verify sch q (mkCProof cx cy [:: pf]) crs = Ok true) <->
  (binding_for com_B1 crs -> binding_for com_B2 crs -> quad_holds q X Y).
Proof.
move=> E sch q cx cy crs X Y hb hn hc1 hc2 vs tk hp cX cY hX hY wf; case: (hp) => hp1 hp2.
split=> [[pf h] bx by_|hold].
  case: (B1_kind crs hc1) => [[a [b [h1 h2]]]|[tx hx0]]; last by case: (spans_B1 hx0).
  case: (B2_kind crs hc2) => [[a' [b' [g1 g2]]]|[ty hy0]]; last by case: (spans_B2 hy0).
  exact: (quad_sound_lf hb hn vs tk h1 h2 g1 g2 h cX cY).
have [hu hv] := tk; have [sX _] := cX; have [sY _] := cY.
have [wa wb wg] := wf; have wG := dims_fits hX hY wg; rewrite sX sY in wG wa wb.
case: (B1_kind crs hc1) => [[a [b [h1 h2]]]|[tx hx0]]; last first.
  have [|j hj|j hj|p [th [p1 p2 p3]]] := @veq_absU _ hb 1 (crs_u crs) 1 (crs_v crs) ([seq s1map crs x | x <- quad_a q]) ([seq s2map crs y | y <- quad_b q]) (quad_gamma q) (coms cx) (coms cy) (comT_pairing (s1map crs 1) (quad_target q *: s2map crs 1)).
  - apply: (absU_f hb); exact: s1_inU hx0.
  - rewrite nth_s1; exact: s1_inU hx0.
  - exact: B1_inU hx0 cX hj.
  exists (mkEquProof p th Quadratic [::]).
  rewrite (quad_verify_Ok vs); last by apply/quad_vshapeP; split; rewrite /= ?p1 ?p2 ?hu ?hv.
  by rewrite /quad_veq ?hu ?hv p3.
case: (B2_kind crs hc2) => [[a' [b' [g1 g2]]]|[ty hy0]]; last first.
  have [|j hj|j hj|p [th [p1 p2 p3]]] := @veq_absV _ hb 1 (crs_v crs) 1 (crs_u crs) ([seq s1map crs x | x <- quad_a q]) ([seq s2map crs y | y <- quad_b q]) (quad_gamma q) (coms cx) (coms cy) (comT_pairing (s1map crs 1) (quad_target q *: s2map crs 1)).
  - apply: (absV_f hb); apply: inVZ; exact: s2_inV hy0.
  - rewrite nth_s2; exact: s2_inV hy0.
  - exact: B2_inV hy0 cY hj.
  exists (mkEquProof p th Quadratic [::]).
  rewrite (quad_verify_Ok vs); last by apply/quad_vshapeP; split; rewrite /= ?p1 ?p2 ?hu ?hv.
  by rewrite /quad_veq ?hu ?hv p3.
have {}hold := hold (binds_B1 h1 h2) (binds_B2 g1 g2).
have [rx mx] := commits_made sX (proj2 cX); have [ry my] := commits_made sY (proj2 cY).
have /isokP[[pf s'] e0] := quad_prove_total vs ([::] : rst (@tape_rng E)) hX hY wf tk mx my.
exists pf; rewrite (@k_C33_quad_randomness E sch q (mkCProof cx cy [:: pf]) (mkCProof (mkCommit (coms cx) rx) (mkCommit (coms cy) ry) [:: pf])) //.
exact: (quad_ok vs hb vs mx my e0 hold).
Qed.

Section Hide.
Context {E : pairing}.
Variable crs : CRS E.
Hypothesis tk : two_keys crs.
Let hu : size (crs_u crs) = 2%N. Proof. by case: tk. Qed.
Let hv : size (crs_v crs) = 2%N. Proof. by case: tk. Qed.

Lemma sp_G1 (h0 : forall x, exists r1 r2, (0, x) = r1 *: u1 crs + r2 *: u2 crs) m (X : seq (G1 E)) : spanned 2 (nth 0 (crs_u crs)) m (nth 0 (com1_batch_linear_map X)).
Proof.
elim: m => [|m [w hw]]; first by exists (fun _ _ => 0).
have [r1 [r2 e]] := h0 (nth 0 X m); exists (fun k => if k == m then (fun i => if i is 0%N then r1 else r2) else w k) => k.
rewrite ltnS leq_eqVlt; case: eqP => [->|_] /= hk; last exact: hw.
by rewrite nth_lin1 /com1_linear_map e /lin big2.
Qed.
Lemma sp_B1 t (h0 : u2 crs + (0, g1_gen crs) = t *: u1 crs) m X : spanned 1 (nth 0 (crs_u crs)) m (nth 0 [seq s1map crs x | x <- X]).
Proof. by exists (fun k _ => nth 0 X k * t) => k _; rewrite nth_s1 /s1map h0 scalerA /lin big_nat1. Qed.

Lemma hides_G1 : (forall x, exists r1 r2, (0, x) = r1 *: u1 crs + r2 *: u2 crs) -> hiding_for 2 (@commit_G1 E) (@batch_commit_G1 E) crs.
Proof.
move=> h0; split=> [x x'|X X' hs].
  have [phi [hphi h]] := hide_commit (sp_G1 h0 1 [:: x]) (sp_G1 h0 1 [:: x']).
  exists phi; split=> // R R' s z /h e.
  rewrite !commit_G1_Ok ?hu //; cbv beta iota delta [seen coms]; congr Ok; move: e.
  cbv beta iota delta [mkseq map iota]; rewrite /gs_c !big2 !addrA => e; exact: esym e.
case: (posnP (size X)) => hX0.
  exists id; split=> [|R R' s z _]; first by exists id.
  move: hs; rewrite hX0; move: hX0 => /size0nil -> /esym/size0nil ->.
  by rewrite !batch_commit_G1E; case: gcommit.
have [phi [hphi h]] := hide_commit (sp_G1 h0 (size X) X) (sp_G1 h0 (size X) X').
exists phi; split=> // R R' s z /h e.
rewrite !batch_commit_G1_Ok ?hu -?hs //; cbv beta iota delta [seen coms]; congr Ok; exact: esym e.
Qed.
Lemma hides_B1 t : u2 crs + (0, g1_gen crs) = t *: u1 crs -> hiding_for 1 (@commit_scalar_to_B1 E) (@batch_commit_scalar_to_B1 E) crs.
Proof.
move=> h0; split=> [x x'|X X' hs].
  have [phi [hphi h]] := hide_commit (sp_B1 h0 1 [:: x]) (sp_B1 h0 1 [:: x']).
  exists phi; split=> // R R' s z /h e.
  rewrite !commit_B1_Ok ?hu //; cbv beta iota delta [seen coms]; congr Ok; move: e.
  cbv beta iota delta [mkseq map iota]; rewrite /gs_c !big_nat1 => e; exact: esym e.
case: (posnP (size X)) => hX0.
  exists id; split=> [|R R' s z _]; first by exists id.
  move: hs; rewrite hX0; move: hX0 => /size0nil -> /esym/size0nil ->.
  by rewrite !batch_commit_B1E; case: (com1_batch_scalar_linear_map _ _) => // a; cbn; case: (bind (cmat_add _ _) _).
have [phi [hphi h]] := hide_commit (sp_B1 h0 (size X) X) (sp_B1 h0 (size X) X').
exists phi; split=> // R R' s z /h e.
have sE (Q : rng E) (t0 : rst Q) (Z : seq (Fr E)) : size Z = size X ->
  seen (@coms _ _) (batch_commit_scalar_to_B1 Z crs t0) = Ok (mkseq (gs_c 1 (nth 0 [seq s1map crs x | x <- Z]) (nth 0 (crs_u crs)) (Rd 1 (drawn t0))) (size X)).
  move=> hZ; rewrite batch_commit_B1_Ok ?hu ?hZ //; cbv beta iota delta [seen coms]; congr Ok.
  by apply: eq_in_mkseq => k hk; apply: eq_c_fun => -[|//] _; rewrite /Rd mul1n addn0.
by rewrite !sE // e.
Qed.

(** A commitment that hides is not binding. *)
Lemma not_both_G1 (x x' : G1 E) : x <> x' -> hiding_for 2 (@commit_G1 E) (@batch_commit_G1 E) crs -> ~ binding_for com_G1 crs.
Proof.
move=> hx [/(_ x x')[phi [_ h]] _] hb; apply: hx.
have t0 : 2.-tuple (Fr E) := [tuple 0; 0].
have := h (@tape_rng E) (@tape_rng E) (t0 : seq _) (phi t0 : seq _); rewrite !draws_tape => /(_ erefl).
rewrite !commit_G1_Ok ?hu //; cbv beta iota delta [seen coms] => ee; have e0 := congr1 (head 0) (Ok_inj ee); clear ee.
exact (hb x x' _ _ _ (ex_intro _ _ (ex_intro _ _ (conj erefl erefl))) (ex_intro _ _ (ex_intro _ _ (conj erefl e0)))).
Qed.
Lemma not_both_B1 : hiding_for 1 (@commit_scalar_to_B1 E) (@batch_commit_scalar_to_B1 E) crs -> ~ binding_for com_B1 crs.
Proof.
move=> [/(_ 1 0)[phi [_ h]] _] hb; have /eqP : 1 = 0 :> Fr E; last by rewrite oner_eq0.
have t0 : 1.-tuple (Fr E) := [tuple 0].
have := h (@tape_rng E) (@tape_rng E) (t0 : seq _) (phi t0 : seq _); rewrite !draws_tape => /(_ erefl).
rewrite !commit_B1_Ok ?hu //; cbv beta iota delta [seen coms] => ee; have e0 := congr1 (head 0) (Ok_inj ee); clear ee.
exact (hb 1 0 _ _ _ (ex_intro _ _ (conj erefl erefl)) (ex_intro _ _ (conj erefl e0))).
Qed.

Lemma sp_G2 (h0 : forall x, exists r1 r2, (0, x) = r1 *: v1 crs + r2 *: v2 crs) m (X : seq (G2 E)) : spanned 2 (nth 0 (crs_v crs)) m (nth 0 (com2_batch_linear_map X)).
Proof.
elim: m => [|m [w hw]]; first by exists (fun _ _ => 0).
have [r1 [r2 e]] := h0 (nth 0 X m); exists (fun k => if k == m then (fun i => if i is 0%N then r1 else r2) else w k) => k.
rewrite ltnS leq_eqVlt; case: eqP => [->|_] /= hk; last exact: hw.
by rewrite nth_lin2 /com2_linear_map e /lin big2.
Qed.
Lemma sp_B2 t (h0 : v2 crs + (0, g2_gen crs) = t *: v1 crs) m X : spanned 1 (nth 0 (crs_v crs)) m (nth 0 [seq s2map crs x | x <- X]).
Proof. by exists (fun k _ => nth 0 X k * t) => k _; rewrite nth_s2 /s2map h0 scalerA /lin big_nat1. Qed.

Lemma hides_G2 : (forall x, exists r1 r2, (0, x) = r1 *: v1 crs + r2 *: v2 crs) -> hiding_for 2 (@commit_G2 E) (@batch_commit_G2 E) crs.
Proof.
move=> h0; split=> [x x'|X X' hs].
  have [phi [hphi h]] := hide_commit (sp_G2 h0 1 [:: x]) (sp_G2 h0 1 [:: x']).
  exists phi; split=> // R R' s z /h e.
  rewrite !commit_G2_Ok ?hv //; cbv beta iota delta [seen coms]; congr Ok; move: e.
  cbv beta iota delta [mkseq map iota]; rewrite /gs_c !big2 !addrA => e; exact: esym e.
case: (posnP (size X)) => hX0.
  exists id; split=> [|R R' s z _]; first by exists id.
  move: hs; rewrite hX0; move: hX0 => /size0nil -> /esym/size0nil ->.
  by rewrite !batch_commit_G2E; case: gcommit.
have [phi [hphi h]] := hide_commit (sp_G2 h0 (size X) X) (sp_G2 h0 (size X) X').
exists phi; split=> // R R' s z /h e.
rewrite !batch_commit_G2_Ok ?hv -?hs //; cbv beta iota delta [seen coms]; congr Ok; exact: esym e.
Qed.
Lemma hides_B2 t : v2 crs + (0, g2_gen crs) = t *: v1 crs -> hiding_for 1 (@commit_scalar_to_B2 E) (@batch_commit_scalar_to_B2 E) crs.
Proof.
move=> h0; split=> [x x'|X X' hs].
  have [phi [hphi h]] := hide_commit (sp_B2 h0 1 [:: x]) (sp_B2 h0 1 [:: x']).
  exists phi; split=> // R R' s z /h e.
  rewrite !commit_B2_Ok ?hv //; cbv beta iota delta [seen coms]; congr Ok; move: e.
  cbv beta iota delta [mkseq map iota]; rewrite /gs_c !big_nat1 => e; exact: esym e.
case: (posnP (size X)) => hX0.
  exists id; split=> [|R R' s z _]; first by exists id.
  move: hs; rewrite hX0; move: hX0 => /size0nil -> /esym/size0nil ->.
  by rewrite !batch_commit_B2E; case: (com2_batch_scalar_linear_map _ _) => // a; cbn; case: (bind (cmat_add _ _) _).
have [phi [hphi h]] := hide_commit (sp_B2 h0 (size X) X) (sp_B2 h0 (size X) X').
exists phi; split=> // R R' s z /h e.
have sE (Q : rng E) (t0 : rst Q) (Z : seq (Fr E)) : size Z = size X ->
  seen (@coms _ _) (batch_commit_scalar_to_B2 Z crs t0) = Ok (mkseq (gs_c 1 (nth 0 [seq s2map crs x | x <- Z]) (nth 0 (crs_v crs)) (Rd 1 (drawn t0))) (size X)).
  move=> hZ; rewrite batch_commit_B2_Ok ?hv ?hZ //; cbv beta iota delta [seen coms]; congr Ok.
  by apply: eq_in_mkseq => k hk; apply: eq_c_fun => -[|//] _; rewrite /Rd mul1n addn0.
by rewrite !sE // e.
Qed.

(** A commitment that hides is not binding. *)
Lemma not_both_G2 (x x' : G2 E) : x <> x' -> hiding_for 2 (@commit_G2 E) (@batch_commit_G2 E) crs -> ~ binding_for com_G2 crs.
Proof.
move=> hx [/(_ x x')[phi [_ h]] _] hb; apply: hx.
have t0 : 2.-tuple (Fr E) := [tuple 0; 0].
have := h (@tape_rng E) (@tape_rng E) (t0 : seq _) (phi t0 : seq _); rewrite !draws_tape => /(_ erefl).
rewrite !commit_G2_Ok ?hv //; cbv beta iota delta [seen coms] => ee; have e0 := congr1 (head 0) (Ok_inj ee); clear ee.
exact (hb x x' _ _ _ (ex_intro _ _ (ex_intro _ _ (conj erefl erefl))) (ex_intro _ _ (ex_intro _ _ (conj erefl e0)))).
Qed.
Lemma not_both_B2 : hiding_for 1 (@commit_scalar_to_B2 E) (@batch_commit_scalar_to_B2 E) crs -> ~ binding_for com_B2 crs.
Proof.
move=> [/(_ 1 0)[phi [_ h]] _] hb; have /eqP : 1 = 0 :> Fr E; last by rewrite oner_eq0.
have t0 : 1.-tuple (Fr E) := [tuple 0].
have := h (@tape_rng E) (@tape_rng E) (t0 : seq _) (phi t0 : seq _); rewrite !draws_tape => /(_ erefl).
rewrite !commit_B2_Ok ?hv //; cbv beta iota delta [seen coms] => ee; have e0 := congr1 (head 0) (Ok_inj ee); clear ee.
exact (hb 1 0 _ _ _ (ex_intro _ _ (conj erefl erefl)) (ex_intro _ _ (conj erefl e0))).
Qed.
End Hide.

Lemma k_C66_G1 : forall (E : pairing) (crs : CRS E), cyclic (G1 E) -> two_keys crs ->
  (binding_for com_G1 crs \/ hiding_for 2 (@commit_G1 E) (@batch_commit_G1 E) crs) /\
  ((exists x : G1 E, x != 0) -> ~ (binding_for com_G1 crs /\ hiding_for 2 (@commit_G1 E) (@batch_commit_G1 E) crs)).
Proof.
move=> E crs hc tk; split; last by move=> [x /eqP hx] [h1 h2]; exact (not_both_G1 tk hx h2 h1).
case: (G1_kind crs hc) => [[a [h1 h2]]|h]; [left; exact: binds_G1 h1 h2 | right; exact: hides_G1].
Qed.
Lemma k_C66_B1 : forall (E : pairing) (crs : CRS E), cyclic (G1 E) -> two_keys crs ->
  (binding_for com_B1 crs \/ hiding_for 1 (@commit_scalar_to_B1 E) (@batch_commit_scalar_to_B1 E) crs) /\
  ~ (binding_for com_B1 crs /\ hiding_for 1 (@commit_scalar_to_B1 E) (@batch_commit_scalar_to_B1 E) crs).
Proof.
move=> E crs hc tk; split; last by move=> [h1 h2]; exact (not_both_B1 tk h2 h1).
case: (B1_kind crs hc) => [[a [b [h1 h2]]]|[t h]]; [left; exact: binds_B1 h1 h2 | right; exact: hides_B1 h].
Qed.

Lemma k_C66_G2 : forall (E : pairing) (crs : CRS E), cyclic (G2 E) -> two_keys crs ->
  (binding_for com_G2 crs \/ hiding_for 2 (@commit_G2 E) (@batch_commit_G2 E) crs) /\
  ((exists x : G2 E, x != 0) -> ~ (binding_for com_G2 crs /\ hiding_for 2 (@commit_G2 E) (@batch_commit_G2 E) crs)).
Proof.
move=> E crs hc tk; split; last by move=> [x /eqP hx] [h1 h2]; exact (not_both_G2 tk hx h2 h1).
case: (G2_kind crs hc) => [[a [h1 h2]]|h]; [left; exact: binds_G2 h1 h2 | right; exact: hides_G2].
Qed.
Lemma k_C66_B2 : forall (E : pairing) (crs : CRS E), cyclic (G2 E) -> two_keys crs ->
  (binding_for com_B2 crs \/ hiding_for 1 (@commit_scalar_to_B2 E) (@batch_commit_scalar_to_B2 E) crs) /\
  ~ (binding_for com_B2 crs /\ hiding_for 1 (@commit_scalar_to_B2 E) (@batch_commit_scalar_to_B2 E) crs).
Proof.
move=> E crs hc tk; split; last by move=> [h1 h2]; exact (not_both_B2 tk h2 h1).
case: (B2_kind crs hc) => [[a [b [h1 h2]]]|[t h]]; [left; exact: binds_B2 h1 h2 | right; exact: hides_B2 h].
Qed.
