(** Hiding of commitments, witness indistinguishability, simulation. *)
From mathcomp Require Import all_ssreflect all_algebra all_fingroup.
From Verif Require Import Base BaseLemmas Group DataStructures MatLemmas CoreAlg ComLemmas.
From Verif Require Import Generator Commit Statement Prove Verify Spec SpecMat SpecVerify SpecHide ProveLemmas CommitLemmas Holds Complete Main Draws GenProps CapLemmas SoundGen HideCore HideTape Hiding MatProps VProps.
Set Implicit Arguments.
Unset Strict Implicit.
Unset Printing Implicit Defensive.
Import GRing.Theory.
Local Open Scope ring_scope.


Section Commit.
Context {F : fieldType} {U : lmodType F}.
Lemma hide_commit m kx (u X X' : nat -> U) : spanned kx u m X -> spanned kx u m X' ->
  exists phi : (kx * m)%N.-tuple F -> (kx * m)%N.-tuple F, bijective phi /\
  forall d d', cut (kx * m) d' = phi (cut (kx * m) d) ->
    mkseq (gs_c kx X' u (Rd kx d')) m = mkseq (gs_c kx X u (Rd kx d)) m.
Proof.
case=> xc hX [xc' hX'].
pose dx k i := xc k i - xc' k i; pose z (_ _ : nat) : F := 0; pose tau (_ : nat -> F) := z.
rewrite (_ : (kx * m)%N = tlen m 0 kx 0); last by rewrite /tlen muln0 mul0n !addn0.
exists (@mvt F m 0 kx 0 dx z tau); split.
  by apply: (@mvt_bij F m 0 kx 0 dx z tau tau) => // *; rewrite oppr0.
move=> d d' /(mvt_cut (tau := tau)) hd; apply: eq_in_mkseq => k hk.
apply: (hide_c hX hX') => [i j hi hj|//]; rewrite {1}/Rd hd // ?tlen_R //.
by rewrite -/(Rd kx (mv _ _ _ _ _ _ _ _) i j) mv_R.
Qed.
End Commit.

Section Commits.
Context {E : pairing}.
Variable crs : CRS E.
Hypotheses (hc1 : cyclic (G1 E)) (hc2 : cyclic (G2 E)) (hh : hiding_crs crs) (hp : proper_crs crs).
Lemma hiding_two : two_keys crs.
Proof. by case: hh => a1 [a2 [t1 [t2 [eu ev _]]]]; split; rewrite ?eu ?ev. Qed.
Let hu : size (crs_u crs) = 2%N. Proof. by case: hiding_two. Qed.
Let hv : size (crs_v crs) = 2%N. Proof. by case: hiding_two. Qed.

Lemma G1_one_hides (x x' : G1 E) :
  same_output 2 (@coms _ _) (@coms _ _) (fun R s => commit_G1 (R := R) x crs s) (fun R s => commit_G1 (R := R) x' crs s).
Proof.
have [phi [hphi h]] := hide_commit (span_u hc1 hc2 hh hp 1 (fun=> com1_linear_map x)) (span_u hc1 hc2 hh hp 1 (fun=> com1_linear_map x')).
exists phi; split=> // R R' s z /h e.
rewrite !commit_G1_Ok ?hu //; cbv beta iota delta [seen coms]; congr Ok; move: e.
cbv beta iota delta [mkseq map iota]; rewrite /gs_c !big2 !addrA => e; exact: esym e.
Qed.
Lemma G1_batch_hides (X X' : seq (G1 E)) : size X = size X' ->
  same_output (2 * size X) (@coms _ _) (@coms _ _) (fun R s => batch_commit_G1 (R := R) X crs s) (fun R s => batch_commit_G1 (R := R) X' crs s).
Proof.
move=> hs; case: (posnP (size X)) => h0.
  exists id; split=> [|R R' s z _]; first by exists id.
  move: hs; rewrite h0; move: h0 => /size0nil -> /esym/size0nil ->.
  by rewrite !batch_commit_G1E; case: gcommit.
have [phi [hphi h]] := hide_commit (span_u hc1 hc2 hh hp (size X) (nth 0 (com1_batch_linear_map X))) (span_u hc1 hc2 hh hp (size X) (nth 0 (com1_batch_linear_map X'))).
exists phi; split=> // R R' s z /h e.
rewrite !batch_commit_G1_Ok ?hu -?hs //; cbv beta iota delta [seen coms]; congr Ok; exact: esym e.
Qed.

Lemma G2_one_hides (x x' : G2 E) :
  same_output 2 (@coms _ _) (@coms _ _) (fun R s => commit_G2 (R := R) x crs s) (fun R s => commit_G2 (R := R) x' crs s).
Proof.
have [phi [hphi h]] := hide_commit (span_v hc1 hc2 hh hp 1 (fun=> com2_linear_map x)) (span_v hc1 hc2 hh hp 1 (fun=> com2_linear_map x')).
exists phi; split=> // R R' s z /h e.
rewrite !commit_G2_Ok ?hv //; cbv beta iota delta [seen coms]; congr Ok; move: e.
cbv beta iota delta [mkseq map iota]; rewrite /gs_c !big2 !addrA => e; exact: esym e.
Qed.
Lemma G2_batch_hides (X X' : seq (G2 E)) : size X = size X' ->
  same_output (2 * size X) (@coms _ _) (@coms _ _) (fun R s => batch_commit_G2 (R := R) X crs s) (fun R s => batch_commit_G2 (R := R) X' crs s).
Proof.
move=> hs; case: (posnP (size X)) => h0.
  exists id; split=> [|R R' s z _]; first by exists id.
  move: hs; rewrite h0; move: h0 => /size0nil -> /esym/size0nil ->.
  by rewrite !batch_commit_G2E; case: gcommit.
have [phi [hphi h]] := hide_commit (span_v hc1 hc2 hh hp (size X) (nth 0 (com2_batch_linear_map X))) (span_v hc1 hc2 hh hp (size X) (nth 0 (com2_batch_linear_map X'))).
exists phi; split=> // R R' s z /h e.
rewrite !batch_commit_G2_Ok ?hv -?hs //; cbv beta iota delta [seen coms]; congr Ok; exact: esym e.
Qed.

Lemma B1_one_hides (x x' : Fr E) :
  same_output 1 (@coms _ _) (@coms _ _) (fun R s => commit_scalar_to_B1 (R := R) x crs s) (fun R s => commit_scalar_to_B1 (R := R) x' crs s).
Proof.
have [phi [hphi h]] := hide_commit (span_s1 hh 1 [:: x]) (span_s1 hh 1 [:: x']).
exists phi; split=> // R R' s z /h e.
rewrite !commit_B1_Ok ?hu //; cbv beta iota delta [seen coms]; congr Ok; move: e.
cbv beta iota delta [mkseq map iota]; rewrite /gs_c !big_nat1 => e; exact: esym e.
Qed.
Lemma B1_batch_hides (X X' : seq (Fr E)) : size X = size X' ->
  same_output (size X) (@coms _ _) (@coms _ _) (fun R s => batch_commit_scalar_to_B1 (R := R) X crs s) (fun R s => batch_commit_scalar_to_B1 (R := R) X' crs s).
Proof.
move=> hs; case: (posnP (size X)) => h0.
  exists id; split=> [|R R' s z _]; first by exists id.
  move: hs; rewrite h0; move: h0 => /size0nil -> /esym/size0nil ->.
  by rewrite !batch_commit_B1E; case: (com1_batch_scalar_linear_map _ _) => // a; cbn; case: (bind (cmat_add _ _) _).
have [phi [hphi h]] := hide_commit (span_s1 hh (size X) X) (span_s1 hh (size X) X').
rewrite -{1}(mul1n (size X)); exists phi; split=> // R R' s z /h e.
have sE (Q : rng E) (t : rst Q) (Z : seq (Fr E)) : size Z = size X ->
  seen (@coms _ _) (batch_commit_scalar_to_B1 Z crs t) = Ok (mkseq (gs_c 1 (nth 0 [seq s1map crs x | x <- Z]) (nth 0 (crs_u crs)) (Rd 1 (drawn t))) (size X)).
  move=> hZ; rewrite batch_commit_B1_Ok ?hu ?hZ //; cbv beta iota delta [seen coms]; congr Ok.
  by apply: eq_in_mkseq => k hk; apply: eq_c_fun => -[|//] _; rewrite /Rd mul1n addn0.
by rewrite !sE // e.
Qed.

Lemma B2_one_hides (x x' : Fr E) :
  same_output 1 (@coms _ _) (@coms _ _) (fun R s => commit_scalar_to_B2 (R := R) x crs s) (fun R s => commit_scalar_to_B2 (R := R) x' crs s).
Proof.
have [phi [hphi h]] := hide_commit (span_s2 hh 1 [:: x]) (span_s2 hh 1 [:: x']).
exists phi; split=> // R R' s z /h e.
rewrite !commit_B2_Ok ?hv //; cbv beta iota delta [seen coms]; congr Ok; move: e.
cbv beta iota delta [mkseq map iota]; rewrite /gs_c !big_nat1 => e; exact: esym e.
Qed.
Lemma B2_batch_hides (X X' : seq (Fr E)) : size X = size X' ->
  same_output (size X) (@coms _ _) (@coms _ _) (fun R s => batch_commit_scalar_to_B2 (R := R) X crs s) (fun R s => batch_commit_scalar_to_B2 (R := R) X' crs s).
Proof.
move=> hs; case: (posnP (size X)) => h0.
  exists id; split=> [|R R' s z _]; first by exists id.
  move: hs; rewrite h0; move: h0 => /size0nil -> /esym/size0nil ->.
  by rewrite !batch_commit_B2E; case: (com2_batch_scalar_linear_map _ _) => // a; cbn; case: (bind (cmat_add _ _) _).
have [phi [hphi h]] := hide_commit (span_s2 hh (size X) X) (span_s2 hh (size X) X').
rewrite -{1}(mul1n (size X)); exists phi; split=> // R R' s z /h e.
have sE (Q : rng E) (t : rst Q) (Z : seq (Fr E)) : size Z = size X ->
  seen (@coms _ _) (batch_commit_scalar_to_B2 Z crs t) = Ok (mkseq (gs_c 1 (nth 0 [seq s2map crs x | x <- Z]) (nth 0 (crs_v crs)) (Rd 1 (drawn t))) (size X)).
  move=> hZ; rewrite batch_commit_B2_Ok ?hv ?hZ //; cbv beta iota delta [seen coms]; congr Ok.
  by apply: eq_in_mkseq => k hk; apply: eq_c_fun => -[|//] _; rewrite /Rd mul1n addn0.
by rewrite !sE // e.
Qed.
End Commits.

Section Zeros.
Context {F : fieldType} {U V W : lmodType F}.
Lemma cancel4 (a b c d : W) : (a - b) + (c - d) + (- a + b) + (- c + d) = 0.
Proof.
have h (x y : W) : - x + y = - (x - y) by rewrite opprB addrC.
by rewrite !h -addrA -opprD subrr.
Qed.
Lemma gs_eq0 (f : U -> V -> W) m n G A X B Y : bilin f -> (forall k, (k < m)%N -> X k = 0) -> (forall j, (j < n)%N -> Y j = 0) ->
  gs_eq f m n G A X B Y = 0.
Proof.
move=> fb hX hY; have z k (h : nat -> W) : (forall i, (i < k)%N -> h i = 0) -> \sum_(0 <= i < k) h i = 0.
  by move=> h0; rewrite big_nat big1 // => i /andP[_]; exact: h0.
rewrite /gs_eq !z ?addr0 // => i hi; by rewrite ?hX ?hY // ?(bil0l fb) ?(bil0r fb).
Qed.
End Zeros.

Section Proofs.
Context {E : pairing}.
Variables (sch sch' : sched) (crs : CRS E).
Hypotheses (vs : valid_sched sch) (vs' : valid_sched sch').
Hypotheses (hb : bilinear E) (hn : nondegenerate E) (hc1 : cyclic (G1 E)) (hc2 : cyclic (G2 E)).
Hypotheses (hp : proper_crs crs).
Notation f := (comT_pairing : Com1 E -> Com2 E -> ComT E).
Let fb := comT_pairing_bilin hb.
Let eb := pair_bilin hb.

Lemma public_correct (p : CProof E) : public (correct [::] [::] p) = public p.
Proof.
rewrite /public /correct; cbn [xcoms ycoms equ_proofs]; congr (_, _, _).
rewrite -map_comp; apply: eq_map => g; rewrite /correct_pf /=; congr (_, _, _).
  by apply: (@eq_from_nth _ 0); rewrite size_mkseq // => i hi; rewrite nth_mkseq // nth_nil addr0.
by apply: (@eq_from_nth _ 0); rewrite size_mkseq // => i hi; rewrite nth_mkseq // nth_nil addr0.
Qed.
Lemma seen_public (S : Type) (r : res (CProof E * S)) : seen public r = seen (fun p => public (correct [::] [::] p)) r.
Proof. by case: r => // -[p s] /=; rewrite public_correct. Qed.

Let zP : linear_map_PPE 0 = 0 :> ComT E. Proof. by []. Qed.
Let z1 : com1_linear_map 0 = 0 :> Com1 E. Proof. by []. Qed.
Let z2 : com2_linear_map 0 = 0 :> Com2 E. Proof. by []. Qed.

(** The corrections cancel the target. *)
Lemma key_u a1 a2 t1 t2 k : hiding_crs_with crs a1 a2 t1 t2 ->
  (com1_linear_map (k *: g1_gen crs) : Com1 E) = (k * t1) *: u1 crs - k *: u2 crs.
Proof.
case=> -> _ _; congr pair; rewrite /= ?scalerBr ?scalerA ?subrr //.
by rewrite opprB addrCA subrr addr0.
Qed.
Lemma key_v a1 a2 t1 t2 k : hiding_crs_with crs a1 a2 t1 t2 ->
  (com2_linear_map (k *: g2_gen crs) : Com2 E) = (k * t2) *: v1 crs - k *: v2 crs.
Proof.
case=> _ -> _; congr pair; rewrite /= ?scalerBr ?scalerA ?subrr //.
by rewrite opprB addrCA subrr addr0.
Qed.

Lemma ppe_cancel (q : PPE E) a1 a2 t1 t2 k l (Z : G1 E) (Q : G2 E) : hiding_crs_with crs a1 a2 t1 t2 -> ppe_target q = pair_e (k *: g1_gen crs) Q + pair_e Z (l *: g2_gen crs) -> 
  linear_map_PPE (ppe_target q) + \sum_(0 <= i < 2) f (nth 0 (crs_u crs) i) (nth 0 [:: (0, - ((k * t1) *: Q)); (0, k *: Q)] i)
    + \sum_(0 <= j < 2) f (nth 0 [:: (0, - ((l * t2) *: Z)); (0, l *: Z)] j) (nth 0 (crs_v crs) j) = 0.
Proof.
move=> h -> ; rewrite lmPPE_D -!(lin_lin hb) (key_u _ h) (key_v _ h) !big2 /=.
rewrite (_ : (0, - ((k * t1) *: Q)) = - ((k * t1) *: com2_linear_map Q) :> Com2 E); last by congr pair; rewrite /= ?scaler0 ?oppr0.
rewrite (_ : (0, k *: Q) = k *: com2_linear_map Q :> Com2 E); last by congr pair; rewrite /= ?scaler0.
rewrite (_ : (0, - ((l * t2) *: Z)) = - ((l * t2) *: com1_linear_map Z) :> Com1 E); last by congr pair; rewrite /= ?scaler0 ?oppr0.
rewrite (_ : (0, l *: Z) = l *: com1_linear_map Z :> Com1 E); last by congr pair; rewrite /= ?scaler0.
rewrite (bilBl fb) (bilBr fb) (bilNr fb) (bilNl fb) !(bilZl fb) !(bilZr fb).
exact: cancel4.
Qed.

Lemma ppe_tlen (m n : nat) : (2 * m + (2 * n + 4))%N = tlen m n 2 2.
Proof. by rewrite /tlen ?mul1n ?muln1. Qed.

Lemma ppe_hide (q : PPE E) X Y X' Y' dp dt : hiding_crs crs ->
  (0 < size X)%N -> (0 < size Y)%N -> ppe_wf q (size X) (size Y) -> size X' = size X -> size Y' = size Y ->
  spanned 2 (nth 0 (crs_v crs)) 2 (nth 0 dp) -> spanned 2 (nth 0 (crs_u crs)) 2 (nth 0 dt) ->
  linear_map_PPE (ppe_val q X' Y') = linear_map_PPE (ppe_val q X Y) + \sum_(0 <= i < 2) f (nth 0 (crs_u crs) i) (nth 0 dp i)
    + \sum_(0 <= j < 2) f (nth 0 dt j) (nth 0 (crs_v crs) j) ->
  same_output (2 * size X + (2 * size Y + 4))%N public (fun p => public (correct dp dt p))
    (fun R s => ppe_commit_and_prove (R := R) sch q X Y crs s) (fun R s => ppe_commit_and_prove (R := R) sch' q X' Y' crs s).
Proof.
move=> hh hX hY wf eX eY sp st; rewrite ppe_tlen -(ppe_lin hb q X Y) -(ppe_lin hb q X' Y') eX eY => heq.
have tk := hiding_two hh.
have [phi [hphi hE]] := hide_exists fb (fun p => indep_le (p := p) hb hn hh hp (isT : (2 <= 2)%N) (isT : (2 <= 2)%N))
  (span_u hc1 hc2 hh hp _ _) (span_v hc1 hc2 hh hp _ _) (span_u hc1 hc2 hh hp _ _) (span_u hc1 hc2 hh hp _ _) (span_v hc1 hc2 hh hp _ _) (span_v hc1 hc2 hh hp _ _) sp st heq.
exists phi; split=> // R R' s z /hE e.
rewrite seen_public (ppe_cap_gpub vs) // (ppe_cap_gpub vs') ?eX ?eY //; congr (Ok (pubof _ _)).
apply: etrans (esym e); rewrite /gpub; congr (_, _, (_, _)); apply: eq_mkseq => i; by rewrite nth_nil.
Qed.

Lemma ppe_wi (q : PPE E) X Y X' Y' : hiding_crs crs ->
  (0 < size X)%N -> (0 < size Y)%N -> ppe_wf q (size X) (size Y) -> size X' = size X -> size Y' = size Y ->
  ppe_holds q X Y -> ppe_holds q X' Y' ->
  same_output (2 * size X + (2 * size Y + 4))%N public public
    (fun R s => ppe_commit_and_prove (R := R) sch q X Y crs s) (fun R s => ppe_commit_and_prove (R := R) sch' q X' Y' crs s).
Proof.
move=> hh hX hY wf eX eY h h'; have v1 := proj1 (ppe_holdsE _ _ _ hb) h; have v2 := proj1 (ppe_holdsE _ _ _ hb) h'.
have [|||phi [hphi hE]] := ppe_hide (dp := [::]) (dt := [::]) hh hX hY wf eX eY.
- by apply: eq_spanned (@spanned0 _ _ _ _ _) => i _; rewrite nth_nil.
- by apply: eq_spanned (@spanned0 _ _ _ _ _) => i _; rewrite nth_nil.
- rewrite v1 v2 [X in _ + X]big1 ?addr0 => [|i _]; last by rewrite nth_nil (bil0l fb).
  by rewrite [X in _ + X]big1 ?addr0 // => i _; rewrite nth_nil (bil0r fb).
by exists phi; split=> // R R' s z /hE ->; rewrite -seen_public.
Qed.

Lemma ppe_val0 (q : PPE E) m n : ppe_val q (nseq m 0) (nseq n 0) = 0.
Proof.
apply: gs_eq0; first exact: eb.
  by move=> k _; rewrite nth_nseq if_same.
by move=> k _; rewrite nth_nseq if_same.
Qed.

Lemma ppe_zk (q : PPE E) X Y a1 a2 t1 t2 k l (Z : G1 E) (Q : G2 E) : hiding_crs_with crs a1 a2 t1 t2 -> ppe_target q = pair_e (k *: g1_gen crs) Q + pair_e Z (l *: g2_gen crs) -> 
  (0 < size X)%N -> (0 < size Y)%N -> ppe_wf q (size X) (size Y) -> ppe_holds q X Y ->
  same_output (2 * size X + (2 * size Y + 4))%N public (fun p => public (ppe_fix t1 t2 k l Z Q p))
    (fun R s => ppe_commit_and_prove (R := R) sch q X Y crs s)
    (fun R s => ppe_commit_and_prove (R := R) sch' q (nseq (size X) 0) (nseq (size Y) 0) crs s).
Proof.
move=> hw ht hX hY wf h; have hh : hiding_crs crs by exists a1, a2, t1, t2.
have v1 := proj1 (ppe_holdsE _ _ _ hb) h.
apply: ppe_hide => //; rewrite ?size_nseq //.
- exact: span_v.
- exact: span_u.
by rewrite ppe_val0 v1 (ppe_cancel hw ht) zP.
Qed.

Lemma ms1_cancel (q : MSMEG1 E) a1 a2 t1 t2 : hiding_crs_with crs a1 a2 t1 t2 -> 
  f (com1_linear_map (ms1_target q)) (s2map crs 1) + \sum_(0 <= i < 2) f (nth 0 (crs_u crs) i) (nth 0 [::] i)
    + \sum_(0 <= j < 1) f (nth 0 [:: (0, - (t2 *: ms1_target q))] j) (nth 0 (crs_v crs) j) = 0.
Proof.
move=> h; rewrite (s2E _ h) !big_nat1 big2 /= mul1r.
rewrite (_ : (0, - (t2 *: ms1_target q)) = - (t2 *: com1_linear_map (ms1_target q)) :> Com1 E); last by congr pair; rewrite /= ?scaler0 ?oppr0.
by rewrite !(bil0r fb) !addr0 (bilNl fb) (bilZl fb) (bilZr fb) subrr.
Qed.

Lemma ms1_tlen (m n : nat) : (2 * m + (n + 2))%N = tlen m n 2 1.
Proof. by rewrite /tlen ?mul1n ?muln1. Qed.

Lemma ms1_hide (q : MSMEG1 E) X Y X' Y' dp dt : hiding_crs crs ->
  (0 < size X)%N -> (0 < size Y)%N -> ms1_wf q (size X) (size Y) -> size X' = size X -> size Y' = size Y ->
  spanned 1 (nth 0 (crs_v crs)) 2 (nth 0 dp) -> spanned 2 (nth 0 (crs_u crs)) 1 (nth 0 dt) ->
  f (com1_linear_map (ms1_val q X' Y')) (s2map crs 1) = f (com1_linear_map (ms1_val q X Y)) (s2map crs 1) + \sum_(0 <= i < 2) f (nth 0 (crs_u crs) i) (nth 0 dp i)
    + \sum_(0 <= j < 1) f (nth 0 dt j) (nth 0 (crs_v crs) j) ->
  same_output (2 * size X + (size Y + 2))%N public (fun p => public (correct dp dt p))
    (fun R s => ms1_commit_and_prove (R := R) sch q X Y crs s) (fun R s => ms1_commit_and_prove (R := R) sch' q X' Y' crs s).
Proof.
move=> hh hX hY wf eX eY sp st; rewrite ms1_tlen -(ms1_lin hb crs q X Y) -(ms1_lin hb crs q X' Y') eX eY => heq.
have tk := hiding_two hh.
have [phi [hphi hE]] := hide_exists fb (fun p => indep_le (p := p) hb hn hh hp (isT : (2 <= 2)%N) (isT : (1 <= 2)%N))
  (span_u hc1 hc2 hh hp _ _) (span_s2 hh _ _) (span_u hc1 hc2 hh hp _ _) (span_u hc1 hc2 hh hp _ _) (span_s2 hh _ _) (span_s2 hh _ _) sp st heq.
exists phi; split=> // R R' s z /hE e.
rewrite seen_public (ms1_cap_gpub vs) // (ms1_cap_gpub vs') ?eX ?eY //; congr (Ok (pubof _ _)).
apply: etrans (esym e); rewrite /gpub; congr (_, _, (_, _)); apply: eq_mkseq => i; by rewrite nth_nil.
Qed.

Lemma ms1_wi (q : MSMEG1 E) X Y X' Y' : hiding_crs crs ->
  (0 < size X)%N -> (0 < size Y)%N -> ms1_wf q (size X) (size Y) -> size X' = size X -> size Y' = size Y ->
  ms1_holds q X Y -> ms1_holds q X' Y' ->
  same_output (2 * size X + (size Y + 2))%N public public
    (fun R s => ms1_commit_and_prove (R := R) sch q X Y crs s) (fun R s => ms1_commit_and_prove (R := R) sch' q X' Y' crs s).
Proof.
move=> hh hX hY wf eX eY h h'; have v1 := proj1 (ms1_holdsE _ _ _) h; have v2 := proj1 (ms1_holdsE _ _ _) h'.
have [|||phi [hphi hE]] := ms1_hide (dp := [::]) (dt := [::]) hh hX hY wf eX eY.
- by apply: eq_spanned (@spanned0 _ _ _ _ _) => i _; rewrite nth_nil.
- by apply: eq_spanned (@spanned0 _ _ _ _ _) => i _; rewrite nth_nil.
- rewrite v1 v2 [X in _ + X]big1 ?addr0 => [|i _]; last by rewrite nth_nil (bil0l fb).
  by rewrite [X in _ + X]big1 ?addr0 // => i _; rewrite nth_nil (bil0r fb).
by exists phi; split=> // R R' s z /hE ->; rewrite -seen_public.
Qed.

Lemma ms1_val0 (q : MSMEG1 E) m n : ms1_val q (nseq m 0) (nseq n 0) = 0.
Proof.
apply: gs_eq0; first exact: f1_bilin.
  by move=> k _; rewrite nth_nseq if_same.
by move=> k _; rewrite nth_nseq if_same.
Qed.

Lemma ms1_zk (q : MSMEG1 E) X Y a1 a2 t1 t2 : hiding_crs_with crs a1 a2 t1 t2 -> 
  (0 < size X)%N -> (0 < size Y)%N -> ms1_wf q (size X) (size Y) -> ms1_holds q X Y ->
  same_output (2 * size X + (size Y + 2))%N public (fun p => public (ms1_fix t1 t2 q p))
    (fun R s => ms1_commit_and_prove (R := R) sch q X Y crs s)
    (fun R s => ms1_commit_and_prove (R := R) sch' q (nseq (size X) 0) (nseq (size Y) 0) crs s).
Proof.
move=> hw hX hY wf h; have hh : hiding_crs crs by exists a1, a2, t1, t2.
have v1 := proj1 (ms1_holdsE _ _ _) h.
apply: ms1_hide => //; rewrite ?size_nseq //.
- by apply: eq_spanned (@spanned0 _ _ _ _ _) => i _; rewrite nth_nil.
- exact: span_u.
by rewrite ms1_val0 v1 (ms1_cancel _ hw) z1 (bil0l fb).
Qed.

Lemma ms2_cancel (q : MSMEG2 E) a1 a2 t1 t2 : hiding_crs_with crs a1 a2 t1 t2 -> 
  f (s1map crs 1) (com2_linear_map (ms2_target q)) + \sum_(0 <= i < 1) f (nth 0 (crs_u crs) i) (nth 0 [:: (0, - (t1 *: ms2_target q))] i)
    + \sum_(0 <= j < 2) f (nth 0 [::] j) (nth 0 (crs_v crs) j) = 0.
Proof.
move=> h; rewrite (s1E _ h) !big_nat1 big2 /= mul1r.
rewrite (_ : (0, - (t1 *: ms2_target q)) = - (t1 *: com2_linear_map (ms2_target q)) :> Com2 E); last by congr pair; rewrite /= ?scaler0 ?oppr0.
by rewrite !(bil0l fb) !addr0 (bilNr fb) (bilZr fb) (bilZl fb) subrr.
Qed.

Lemma ms2_tlen (m n : nat) : (m + (2 * n + 2))%N = tlen m n 1 2.
Proof. by rewrite /tlen ?mul1n ?muln1. Qed.

Lemma ms2_hide (q : MSMEG2 E) X Y X' Y' dp dt : hiding_crs crs ->
  (0 < size X)%N -> (0 < size Y)%N -> ms2_wf q (size X) (size Y) -> size X' = size X -> size Y' = size Y ->
  spanned 2 (nth 0 (crs_v crs)) 1 (nth 0 dp) -> spanned 1 (nth 0 (crs_u crs)) 2 (nth 0 dt) ->
  f (s1map crs 1) (com2_linear_map (ms2_val q X' Y')) = f (s1map crs 1) (com2_linear_map (ms2_val q X Y)) + \sum_(0 <= i < 1) f (nth 0 (crs_u crs) i) (nth 0 dp i)
    + \sum_(0 <= j < 2) f (nth 0 dt j) (nth 0 (crs_v crs) j) ->
  same_output (size X + (2 * size Y + 2))%N public (fun p => public (correct dp dt p))
    (fun R s => ms2_commit_and_prove (R := R) sch q X Y crs s) (fun R s => ms2_commit_and_prove (R := R) sch' q X' Y' crs s).
Proof.
move=> hh hX hY wf eX eY sp st; rewrite ms2_tlen -(ms2_lin hb crs q X Y) -(ms2_lin hb crs q X' Y') eX eY => heq.
have tk := hiding_two hh.
have [phi [hphi hE]] := hide_exists fb (fun p => indep_le (p := p) hb hn hh hp (isT : (1 <= 2)%N) (isT : (2 <= 2)%N))
  (span_s1 hh _ _) (span_v hc1 hc2 hh hp _ _) (span_s1 hh _ _) (span_s1 hh _ _) (span_v hc1 hc2 hh hp _ _) (span_v hc1 hc2 hh hp _ _) sp st heq.
exists phi; split=> // R R' s z /hE e.
rewrite seen_public (ms2_cap_gpub vs) // (ms2_cap_gpub vs') ?eX ?eY //; congr (Ok (pubof _ _)).
apply: etrans (esym e); rewrite /gpub; congr (_, _, (_, _)); apply: eq_mkseq => i; by rewrite nth_nil.
Qed.

Lemma ms2_wi (q : MSMEG2 E) X Y X' Y' : hiding_crs crs ->
  (0 < size X)%N -> (0 < size Y)%N -> ms2_wf q (size X) (size Y) -> size X' = size X -> size Y' = size Y ->
  ms2_holds q X Y -> ms2_holds q X' Y' ->
  same_output (size X + (2 * size Y + 2))%N public public
    (fun R s => ms2_commit_and_prove (R := R) sch q X Y crs s) (fun R s => ms2_commit_and_prove (R := R) sch' q X' Y' crs s).
Proof.
move=> hh hX hY wf eX eY h h'; have v1 := proj1 (ms2_holdsE _ _ _) h; have v2 := proj1 (ms2_holdsE _ _ _) h'.
have [|||phi [hphi hE]] := ms2_hide (dp := [::]) (dt := [::]) hh hX hY wf eX eY.
- by apply: eq_spanned (@spanned0 _ _ _ _ _) => i _; rewrite nth_nil.
- by apply: eq_spanned (@spanned0 _ _ _ _ _) => i _; rewrite nth_nil.
- rewrite v1 v2 [X in _ + X]big1 ?addr0 => [|i _]; last by rewrite nth_nil (bil0l fb).
  by rewrite [X in _ + X]big1 ?addr0 // => i _; rewrite nth_nil (bil0r fb).
by exists phi; split=> // R R' s z /hE ->; rewrite -seen_public.
Qed.

Lemma ms2_val0 (q : MSMEG2 E) m n : ms2_val q (nseq m 0) (nseq n 0) = 0.
Proof.
apply: gs_eq0; first exact: f2_bilin.
  by move=> k _; rewrite nth_nseq if_same.
by move=> k _; rewrite nth_nseq if_same.
Qed.

Lemma ms2_zk (q : MSMEG2 E) X Y a1 a2 t1 t2 : hiding_crs_with crs a1 a2 t1 t2 -> 
  (0 < size X)%N -> (0 < size Y)%N -> ms2_wf q (size X) (size Y) -> ms2_holds q X Y ->
  same_output (size X + (2 * size Y + 2))%N public (fun p => public (ms2_fix t1 t2 q p))
    (fun R s => ms2_commit_and_prove (R := R) sch q X Y crs s)
    (fun R s => ms2_commit_and_prove (R := R) sch' q (nseq (size X) 0) (nseq (size Y) 0) crs s).
Proof.
move=> hw hX hY wf h; have hh : hiding_crs crs by exists a1, a2, t1, t2.
have v1 := proj1 (ms2_holdsE _ _ _) h.
apply: ms2_hide => //; rewrite ?size_nseq //.
- exact: span_v.
- by apply: eq_spanned (@spanned0 _ _ _ _ _) => i _; rewrite nth_nil.
by rewrite ms2_val0 v1 (ms2_cancel _ hw) z2 (bil0r fb).
Qed.

Lemma quad_cancel (q : QuadEqu E) a1 a2 t1 t2 : hiding_crs_with crs a1 a2 t1 t2 -> 
  f (s1map crs 1) (quad_target q *: s2map crs 1) + \sum_(0 <= i < 1) f (nth 0 (crs_u crs) i) (nth 0 [:: - ((t1 * t2 * quad_target q) *: v1 crs)] i)
    + \sum_(0 <= j < 1) f (nth 0 [::] j) (nth 0 (crs_v crs) j) = 0.
Proof.
move=> h; rewrite (s1E _ h) (s2E _ h) !big_nat1 /= !mul1r (bil0l fb) addr0 (bilNr fb) (bilZl fb) !(bilZr fb) !scalerA.
by rewrite mulrAC subrr.
Qed.

Lemma quad_tlen (m n : nat) : (m + (n + 1))%N = tlen m n 1 1.
Proof. by rewrite /tlen ?mul1n ?muln1. Qed.

Lemma quad_hide (q : QuadEqu E) X Y X' Y' dp dt : hiding_crs crs ->
  (0 < size X)%N -> (0 < size Y)%N -> quad_wf q (size X) (size Y) -> size X' = size X -> size Y' = size Y ->
  spanned 1 (nth 0 (crs_v crs)) 1 (nth 0 dp) -> spanned 1 (nth 0 (crs_u crs)) 1 (nth 0 dt) ->
  f (s1map crs 1) (quad_val q X' Y' *: s2map crs 1) = f (s1map crs 1) (quad_val q X Y *: s2map crs 1) + \sum_(0 <= i < 1) f (nth 0 (crs_u crs) i) (nth 0 dp i)
    + \sum_(0 <= j < 1) f (nth 0 dt j) (nth 0 (crs_v crs) j) ->
  same_output (size X + (size Y + 1))%N public (fun p => public (correct dp dt p))
    (fun R s => quad_commit_and_prove (R := R) sch q X Y crs s) (fun R s => quad_commit_and_prove (R := R) sch' q X' Y' crs s).
Proof.
move=> hh hX hY wf eX eY sp st; rewrite quad_tlen -(quad_lin hb crs q X Y) -(quad_lin hb crs q X' Y') eX eY => heq.
have tk := hiding_two hh.
have [phi [hphi hE]] := hide_exists fb (fun p => indep_le (p := p) hb hn hh hp (isT : (1 <= 2)%N) (isT : (1 <= 2)%N))
  (span_s1 hh _ _) (span_s2 hh _ _) (span_s1 hh _ _) (span_s1 hh _ _) (span_s2 hh _ _) (span_s2 hh _ _) sp st heq.
exists phi; split=> // R R' s z /hE e.
rewrite seen_public (quad_cap_gpub vs) // (quad_cap_gpub vs') ?eX ?eY //; congr (Ok (pubof _ _)).
apply: etrans (esym e); rewrite /gpub; congr (_, _, (_, _)); apply: eq_mkseq => i; by rewrite nth_nil.
Qed.

Lemma quad_wi (q : QuadEqu E) X Y X' Y' : hiding_crs crs ->
  (0 < size X)%N -> (0 < size Y)%N -> quad_wf q (size X) (size Y) -> size X' = size X -> size Y' = size Y ->
  quad_holds q X Y -> quad_holds q X' Y' ->
  same_output (size X + (size Y + 1))%N public public
    (fun R s => quad_commit_and_prove (R := R) sch q X Y crs s) (fun R s => quad_commit_and_prove (R := R) sch' q X' Y' crs s).
Proof.
move=> hh hX hY wf eX eY h h'; have v1 := proj1 (quad_holdsE _ _ _) h; have v2 := proj1 (quad_holdsE _ _ _) h'.
have [|||phi [hphi hE]] := quad_hide (dp := [::]) (dt := [::]) hh hX hY wf eX eY.
- by apply: eq_spanned (@spanned0 _ _ _ _ _) => i _; rewrite nth_nil.
- by apply: eq_spanned (@spanned0 _ _ _ _ _) => i _; rewrite nth_nil.
- rewrite v1 v2 [X in _ + X]big1 ?addr0 => [|i _]; last by rewrite nth_nil (bil0l fb).
  by rewrite [X in _ + X]big1 ?addr0 // => i _; rewrite nth_nil (bil0r fb).
by exists phi; split=> // R R' s z /hE ->; rewrite -seen_public.
Qed.

Lemma quad_val0 (q : QuadEqu E) m n : quad_val q (nseq m 0) (nseq n 0) = 0.
Proof.
apply: (@gs_eq0 (Fr E) [lmodType (Fr E) of (Fr E)^o] [lmodType (Fr E) of (Fr E)^o] [lmodType (Fr E) of (Fr E)^o]); first exact: fq_bilin.
  by move=> k _; rewrite nth_nseq if_same.
by move=> k _; rewrite nth_nseq if_same.
Qed.

Lemma quad_zk (q : QuadEqu E) X Y a1 a2 t1 t2 : hiding_crs_with crs a1 a2 t1 t2 -> 
  (0 < size X)%N -> (0 < size Y)%N -> quad_wf q (size X) (size Y) -> quad_holds q X Y ->
  same_output (size X + (size Y + 1))%N public (fun p => public (quad_fix t1 t2 q crs p))
    (fun R s => quad_commit_and_prove (R := R) sch q X Y crs s)
    (fun R s => quad_commit_and_prove (R := R) sch' q (nseq (size X) 0) (nseq (size Y) 0) crs s).
Proof.
move=> hw hX hY wf h; have hh : hiding_crs crs by exists a1, a2, t1, t2.
have v1 := proj1 (quad_holdsE _ _ _) h.
apply: quad_hide => //; rewrite ?size_nseq //.
- by exists (fun _ _ => - (t1 * t2 * quad_target q)) => -[|//] _; rewrite /lin big_nat1 scaleNr.
- by apply: eq_spanned (@spanned0 _ _ _ _ _) => i _; rewrite nth_nil.
by rewrite quad_val0 v1 (quad_cancel _ hw) scale0r (bil0r fb).
Qed.

(** The corrections turn a proof for the target [0] into one for [t]. *)
Lemma gs_check_fix A B G c d (t : ComT E) (pf : EquProof E) kx ky dp dt :
  gs_check A B G c d 0 crs pf kx ky -> (kx <= size (pi pf))%N -> (ky <= size (theta pf))%N ->
  t + \sum_(0 <= i < kx) f (nth 0 (crs_u crs) i) (nth 0 dp i) + \sum_(0 <= j < ky) f (nth 0 dt j) (nth 0 (crs_v crs) j) = 0 ->
  gs_check A B G c d t crs (correct_pf dp dt pf) kx ky.
Proof.
rewrite /gs_check => -> hp' ht; rewrite add0r !big_mkord => h0.
have e1 : \sum_(i < kx) pairT (nth 0 (crs_u crs) i) (nth 0 (pi (correct_pf dp dt pf)) i)
    = \sum_(i < kx) pairT (nth 0 (crs_u crs) i) (nth 0 (pi pf) i) + \sum_(i < kx) f (nth 0 (crs_u crs) i) (nth 0 dp i).
  rewrite -big_split; apply: eq_bigr => i _.
  by rewrite nth_mkseq ?(leq_trans (ltn_ord i)) //; exact: (bilDr fb).
have e2 : \sum_(l < ky) pairT (nth 0 (theta (correct_pf dp dt pf)) l) (nth 0 (crs_v crs) l)
    = \sum_(l < ky) pairT (nth 0 (theta pf) l) (nth 0 (crs_v crs) l) + \sum_(l < ky) f (nth 0 dt l) (nth 0 (crs_v crs) l).
  rewrite -big_split; apply: eq_bigr => i _.
  by rewrite nth_mkseq ?(leq_trans (ltn_ord i)) //; exact: (bilDl fb).
rewrite e1 e2; move: h0; set a := \sum_(i < kx) f _ _; set b := \sum_(i < ky) f _ _ => h0.
set x := \sum_(i < kx) _; set y := \sum_(i < ky) _.
by rewrite [x + a]addrC [y + b]addrC [t + (a + x)]addrA addrACA h0 add0r.
Qed.

Lemma ppe_sim (R : rng E) (q : PPE E) (m n : nat) a1 a2 t1 t2 k l (Z : G1 E) (Q : G2 E) (s : rst R) : hiding_crs_with crs a1 a2 t1 t2 -> ppe_target q = pair_e (k *: g1_gen crs) Q + pair_e Z (l *: g2_gen crs) -> 
  (0 < m)%N -> (0 < n)%N -> ppe_wf q m n ->
  exists p s', ppe_commit_and_prove sch q (nseq m 0) (nseq n 0) crs s = Ok (p, s') /\
    ppe_verify sch' q (ppe_fix t1 t2 k l Z Q p) crs = Ok true.
Proof.
move=> hw ht hm hn' wf; have hh : hiding_crs crs by exists a1, a2, t1, t2.
have [ku kv] := hiding_two hh.
pose q0 : PPE E := mkPPE (E := E) (ppe_a q) (ppe_b q) (ppe_gamma q) 0.
have h0 : ppe_holds q0 (nseq m 0) (nseq n 0).
  by apply/(ppe_holdsE _ _ _ hb); rewrite ppe_val0.
have [p [s' [hc hv]]] : exists p s', ppe_commit_and_prove sch q0 (nseq m 0) (nseq n 0) crs s = Ok (p, s') /\ ppe_verify sch' q0 p crs = Ok true.
  by apply: ppe_cap_complete => //; rewrite ?size_nseq.
exists p, s'; split; first exact: hc.
have [pf [he hty hs hg hl]] := proj1 (k_C34_ppe_panics q0 p crs vs') (ex_intro _ true hv).
have hck := proj1 (k_C34_ppe_value hb vs' he hv) isT.
have hr : returns (ppe_verify sch' q (ppe_fix t1 t2 k l Z Q p) crs).
  apply/(k_C34_ppe_panics _ _ _ vs'); exists (correct_pf [:: (0, - ((k * t1) *: Q)); (0, k *: Q)] [:: (0, - ((l * t2) *: Z)); (0, l *: Z)] pf).
  by split=> //=; rewrite ?he //= ?size_mkseq.
case: hr => b hb'; rewrite hb'; congr Ok.
have he' : equ_proofs (ppe_fix t1 t2 k l Z Q p) = [:: correct_pf [:: (0, - ((k * t1) *: Q)); (0, k *: Q)] [:: (0, - ((l * t2) *: Z)); (0, l *: Z)] pf] by rewrite /= he.
apply/(k_C34_ppe_value hb vs' he' hb'); rewrite ?ku ?kv in hck hl *.
have hcan := ppe_cancel hw ht.

apply: gs_check_fix; [exact: hck|by case: hl => ->|by case: hl => _ ->|].
exact: hcan.
Qed.

Lemma ms1_sim (R : rng E) (q : MSMEG1 E) (m n : nat) a1 a2 t1 t2 (s : rst R) : hiding_crs_with crs a1 a2 t1 t2 -> 
  (0 < m)%N -> (0 < n)%N -> ms1_wf q m n ->
  exists p s', ms1_commit_and_prove sch q (nseq m 0) (nseq n 0) crs s = Ok (p, s') /\
    ms1_verify sch' q (ms1_fix t1 t2 q p) crs = Ok true.
Proof.
move=> hw hm hn' wf; have hh : hiding_crs crs by exists a1, a2, t1, t2.
have [ku kv] := hiding_two hh.
pose q0 : MSMEG1 E := mkMSMEG1 (E := E) (ms1_a q) (ms1_b q) (ms1_gamma q) 0.
have h0 : ms1_holds q0 (nseq m 0) (nseq n 0).
  by apply/ms1_holdsE; rewrite ms1_val0.
have [p [s' [hc hv]]] : exists p s', ms1_commit_and_prove sch q0 (nseq m 0) (nseq n 0) crs s = Ok (p, s') /\ ms1_verify sch' q0 p crs = Ok true.
  by apply: ms1_cap_complete => //; rewrite ?size_nseq.
exists p, s'; split; first exact: hc.
have [pf [he hty hs hg hl]] := proj1 (k_C34_ms1_panics q0 p crs vs') (ex_intro _ true hv).
have hck := proj1 (k_C34_ms1_value hb vs' he hv) isT.
have hr : returns (ms1_verify sch' q (ms1_fix t1 t2 q p) crs).
  apply/(k_C34_ms1_panics _ _ _ vs'); exists (correct_pf [::] [:: (0, - (t2 *: ms1_target q))] pf).
  by split=> //=; rewrite ?he //= ?size_mkseq.
case: hr => b hb'; rewrite hb'; congr Ok.
have he' : equ_proofs (ms1_fix t1 t2 q p) = [:: correct_pf [::] [:: (0, - (t2 *: ms1_target q))] pf] by rewrite /= he.
apply/(k_C34_ms1_value hb vs' he' hb'); rewrite ?ku ?kv in hck hl *.
have hcan := ms1_cancel _ hw.
have e0 : pairT (0, ms1_target q0) (one2 crs) = 0 := bil0l fb (one2 crs); rewrite e0 in hck; rewrite /s2map scale1r in hcan.
apply: gs_check_fix; [exact: hck|by case: hl => ->|by case: hl => _ []|].
exact: hcan.
Qed.

Lemma ms2_sim (R : rng E) (q : MSMEG2 E) (m n : nat) a1 a2 t1 t2 (s : rst R) : hiding_crs_with crs a1 a2 t1 t2 -> 
  (0 < m)%N -> (0 < n)%N -> ms2_wf q m n ->
  exists p s', ms2_commit_and_prove sch q (nseq m 0) (nseq n 0) crs s = Ok (p, s') /\
    ms2_verify sch' q (ms2_fix t1 t2 q p) crs = Ok true.
Proof.
move=> hw hm hn' wf; have hh : hiding_crs crs by exists a1, a2, t1, t2.
have [ku kv] := hiding_two hh.
pose q0 : MSMEG2 E := mkMSMEG2 (E := E) (ms2_a q) (ms2_b q) (ms2_gamma q) 0.
have h0 : ms2_holds q0 (nseq m 0) (nseq n 0).
  by apply/ms2_holdsE; rewrite ms2_val0.
have [p [s' [hc hv]]] : exists p s', ms2_commit_and_prove sch q0 (nseq m 0) (nseq n 0) crs s = Ok (p, s') /\ ms2_verify sch' q0 p crs = Ok true.
  by apply: ms2_cap_complete => //; rewrite ?size_nseq.
exists p, s'; split; first exact: hc.
have [pf [he hty hs hg hl]] := proj1 (k_C34_ms2_panics q0 p crs vs') (ex_intro _ true hv).
have hck := proj1 (k_C34_ms2_value hb vs' he hv) isT.
have hr : returns (ms2_verify sch' q (ms2_fix t1 t2 q p) crs).
  apply/(k_C34_ms2_panics _ _ _ vs'); exists (correct_pf [:: (0, - (t1 *: ms2_target q))] [::] pf).
  by split=> //=; rewrite ?he //= ?size_mkseq.
case: hr => b hb'; rewrite hb'; congr Ok.
have he' : equ_proofs (ms2_fix t1 t2 q p) = [:: correct_pf [:: (0, - (t1 *: ms2_target q))] [::] pf] by rewrite /= he.
apply/(k_C34_ms2_value hb vs' he' hb'); rewrite ?ku ?kv in hck hl *.
have hcan := ms2_cancel _ hw.
have e0 : pairT (one1 crs) (0, ms2_target q0) = 0 := bil0r fb (one1 crs); rewrite e0 in hck; rewrite /s1map scale1r in hcan.
apply: gs_check_fix; [exact: hck|by case: hl => _ []|by case: hl => ->|].
exact: hcan.
Qed.

Lemma quad_sim (R : rng E) (q : QuadEqu E) (m n : nat) a1 a2 t1 t2 (s : rst R) : hiding_crs_with crs a1 a2 t1 t2 -> 
  (0 < m)%N -> (0 < n)%N -> quad_wf q m n ->
  exists p s', quad_commit_and_prove sch q (nseq m 0) (nseq n 0) crs s = Ok (p, s') /\
    quad_verify sch' q (quad_fix t1 t2 q crs p) crs = Ok true.
Proof.
move=> hw hm hn' wf; have hh : hiding_crs crs by exists a1, a2, t1, t2.
have [ku kv] := hiding_two hh.
pose q0 : QuadEqu E := mkQuadEqu (E := E) (quad_a q) (quad_b q) (quad_gamma q) 0.
have h0 : quad_holds q0 (nseq m 0) (nseq n 0).
  by apply/quad_holdsE; rewrite quad_val0.
have [p [s' [hc hv]]] : exists p s', quad_commit_and_prove sch q0 (nseq m 0) (nseq n 0) crs s = Ok (p, s') /\ quad_verify sch' q0 p crs = Ok true.
  by apply: quad_cap_complete => //; rewrite ?size_nseq.
exists p, s'; split; first exact: hc.
have [pf [he hty hs hg hl]] := proj1 (k_C34_quad_panics q0 p crs vs') (ex_intro _ true hv).
have hck := proj1 (k_C34_quad_value hb vs' he hv) isT.
have hr : returns (quad_verify sch' q (quad_fix t1 t2 q crs p) crs).
  apply/(k_C34_quad_panics _ _ _ vs'); exists (correct_pf [:: - ((t1 * t2 * quad_target q) *: v1 crs)] [::] pf).
  by split=> //=; rewrite ?he //= ?size_mkseq.
case: hr => b hb'; rewrite hb'; congr Ok.
have he' : equ_proofs (quad_fix t1 t2 q crs p) = [:: correct_pf [:: - ((t1 * t2 * quad_target q) *: v1 crs)] [::] pf] by rewrite /= he.
apply/(k_C34_quad_value hb vs' he' hb'); rewrite ?ku ?kv in hck hl *.
have hcan := quad_cancel _ hw.
have e0 : quad_target q0 *: pairT (one1 crs) (one2 crs) = 0 := scale0r _; rewrite e0 in hck; rewrite /s1map /s2map !scale1r in hcan.
have e1 : f (one1 crs) (quad_target q *: one2 crs) = quad_target q *: pairT (one1 crs) (one2 crs) := bilZr fb _ _ _; rewrite -e1.
apply: gs_check_fix; [exact: hck|by case: hl => ?|by case: hl => _ []|].
exact: hcan.
Qed.
End Proofs.

Section Count.
Lemma tape_after {E : pairing} k (t : seq (Fr E)) : after (R := tape_rng) k t = drop k t.
Proof. by elim: k t => [|k ih] t; rewrite ?drop0 // afterS ih -addn1 addnC -drop_drop drop1. Qed.
Lemma tape_drawn {E : pairing} (t : seq (Fr E)) k : drawn (R := tape_rng) t k = nth 0 t k.
Proof. by rewrite /drawn tape_after /= -nth0 nth_drop addn0. Qed.
Lemma draws_tape {E : pairing} N (t : N.-tuple (Fr E)) : draws N (tval t : rst (@tape_rng E)) = t.
Proof. by apply: eq_from_tnth => i; rewrite tnth_mktuple tape_drawn (tnth_nth 0). Qed.

Lemma same_tapes (F : finFieldType) (A B C : lmodType F) (e : A -> B -> C) N T T' O (view : T -> O) (view' : T' -> O)
  (f : forall R : rng (Pairing e), rst R -> res (T * rst R)) (g : forall R : rng (Pairing e), rst R -> res (T' * rst R)) :
  same_output N view view' f g -> forall D, tapes N view f D = tapes N view' g D.
Proof.
case=> phi [hphi h] D; rewrite /tapes -[RHS](@on_card_preimset _ _ phi); last exact: onW_bij.
apply: eq_card => t; rewrite !inE; congr D; apply: h.
have e1 := @draws_tape (Pairing e) N t; have e2 := @draws_tape (Pairing e) N (phi t); exact: etrans e2 (congr1 phi (esym e1)).
Qed.
End Count.

(** A binding key does not hide. *)
Section NotHiding.
Context {E : pairing}.
Lemma one_run N T T' O (view : T -> O) (view' : T' -> O)
  (f : forall R : rng E, rst R -> res (T * rst R)) (g : forall R : rng E, rst R -> res (T' * rst R)) :
  same_output N view view' f g -> exists s z, seen view (f tape_rng s) = seen view' (g tape_rng z).
Proof.
case=> phi [_ h]; exists [::], (tval (phi (draws N ([::] : rst (@tape_rng E))))); apply: h; exact: draws_tape.
Qed.

Lemma G1_not_hiding (R : rng E) (s0 s0' : rst R) (crs : CRS E) (x x' : G1 E) :
  generate_crs s0 = (crs, s0') -> g1_gen crs != 0 -> g2_gen crs != 0 -> x <> x' ->
  ~ same_output 2 (@coms _ _) (@coms _ _) (fun R s => commit_G1 (R := R) x crs s) (fun R s => commit_G1 (R := R) x' crs s).
Proof.
move=> hg h1 h2 hx /one_run[s [z]]; have [h _ _ _] := unique_assignment hg h1 h2.
have [a1 [a2 [t1 [t2 [eu ev _]]]]] := generate_binding hg.
have hs : (1 < size (crs_u crs))%N by rewrite eu.
rewrite !commit_G1_Ok //; cbv beta iota delta [seen coms] => /(congr1 (fun r => if r is Ok l then l else [::])); cbv beta iota => e; apply: hx.
have hc (t : rst (@tape_rng E)) (y : G1 E) (cs : seq (Com1 E)) : [:: com1_linear_map y + drawn t 0 *: nth 0 (crs_u crs) 0 + drawn t 1 *: nth 0 (crs_u crs) 1] = cs -> commits_G1 crs cs [:: y].
  by move=> <-; split=> // -[|//] _; exists [:: drawn t 0%N; drawn t 1%N]; exists (drawn t 0%N), (drawn t 1%N); split.
by have [->] := h _ _ _ (hc s x _ e) (hc z x' _ erefl).
Qed.

Lemma G2_not_hiding (R : rng E) (s0 s0' : rst R) (crs : CRS E) (x x' : G2 E) :
  generate_crs s0 = (crs, s0') -> g1_gen crs != 0 -> g2_gen crs != 0 -> x <> x' ->
  ~ same_output 2 (@coms _ _) (@coms _ _) (fun R s => commit_G2 (R := R) x crs s) (fun R s => commit_G2 (R := R) x' crs s).
Proof.
move=> hg h1 h2 hx /one_run[s [z]]; have [_ _ h _] := unique_assignment hg h1 h2.
have [a1 [a2 [t1 [t2 [eu ev _]]]]] := generate_binding hg.
have hs : (1 < size (crs_v crs))%N by rewrite ev.
rewrite !commit_G2_Ok //; cbv beta iota delta [seen coms] => /(congr1 (fun r => if r is Ok l then l else [::])); cbv beta iota => e; apply: hx.
have hc (t : rst (@tape_rng E)) (y : G2 E) (cs : seq (Com2 E)) : [:: com2_linear_map y + drawn t 0 *: nth 0 (crs_v crs) 0 + drawn t 1 *: nth 0 (crs_v crs) 1] = cs -> commits_G2 crs cs [:: y].
  by move=> <-; split=> // -[|//] _; exists [:: drawn t 0%N; drawn t 1%N]; exists (drawn t 0%N), (drawn t 1%N); split.
by have [->] := h _ _ _ (hc s x _ e) (hc z x' _ erefl).
Qed.

Lemma B1_not_hiding (R : rng E) (s0 s0' : rst R) (crs : CRS E) (x x' : Fr E) :
  generate_crs s0 = (crs, s0') -> g1_gen crs != 0 -> g2_gen crs != 0 -> x <> x' ->
  ~ same_output 1 (@coms _ _) (@coms _ _) (fun R s => commit_scalar_to_B1 (R := R) x crs s) (fun R s => commit_scalar_to_B1 (R := R) x' crs s).
Proof.
move=> hg h1 h2 hx /one_run[s [z]]; have [_ h _ _] := unique_assignment hg h1 h2.
have [a1 [a2 [t1 [t2 [eu ev _]]]]] := generate_binding hg.
have hs : (1 < size (crs_u crs))%N by rewrite eu.
rewrite !commit_B1_Ok //; cbv beta iota delta [seen coms] => /(congr1 (fun r => if r is Ok l then l else [::])); cbv beta iota => e; apply: hx.
have hc (t : rst (@tape_rng E)) (y : Fr E) (cs : seq (Com1 E)) : [:: s1map crs y + drawn t 0 *: nth 0 (crs_u crs) 0] = cs -> commits_B1 crs cs [:: y].
  by move=> <-; split=> // -[|//] _; exists [:: drawn t 0%N]; exists (drawn t 0%N); split.
by have [->] := h _ _ _ (hc s x _ e) (hc z x' _ erefl).
Qed.

Lemma B2_not_hiding (R : rng E) (s0 s0' : rst R) (crs : CRS E) (x x' : Fr E) :
  generate_crs s0 = (crs, s0') -> g1_gen crs != 0 -> g2_gen crs != 0 -> x <> x' ->
  ~ same_output 1 (@coms _ _) (@coms _ _) (fun R s => commit_scalar_to_B2 (R := R) x crs s) (fun R s => commit_scalar_to_B2 (R := R) x' crs s).
Proof.
move=> hg h1 h2 hx /one_run[s [z]]; have [_ _ _ h] := unique_assignment hg h1 h2.
have [a1 [a2 [t1 [t2 [eu ev _]]]]] := generate_binding hg.
have hs : (1 < size (crs_v crs))%N by rewrite ev.
rewrite !commit_B2_Ok //; cbv beta iota delta [seen coms] => /(congr1 (fun r => if r is Ok l then l else [::])); cbv beta iota => e; apply: hx.
have hc (t : rst (@tape_rng E)) (y : Fr E) (cs : seq (Com2 E)) : [:: s2map crs y + drawn t 0 *: nth 0 (crs_v crs) 0] = cs -> commits_B2 crs cs [:: y].
  by move=> <-; split=> // -[|//] _; exists [:: drawn t 0%N]; exists (drawn t 0%N); split.
by have [->] := h _ _ _ (hc s x _ e) (hc z x' _ erefl).
Qed.
End NotHiding.
