(** Re-randomization, equation type by equation type. *)
From mathcomp Require Import all_ssreflect all_algebra.
From Verif Require Import Base BaseLemmas Group DataStructures MatLemmas CoreAlg ComLemmas Generator Commit Statement Prove Verify Spec SpecMat SpecVerify SpecHide ProveLemmas CommitLemmas VerifyLemmas Holds Complete Main Draws GenProps CapLemmas HideCore HideTape Hiding MatProps VProps HideProps RerandCore SpecRerand Rerand.
Set Implicit Arguments.
Unset Strict Implicit.
Unset Printing Implicit Defensive.
Import GRing.Theory.
Local Open Scope ring_scope.

Section Lin.
Context {E : pairing}.
Variable k : Fr E.
Lemma nth_lin (V : lmodType (Fr E)) (a b : seq V) j : size b = size a -> (j < size a)%N ->
  nth 0 [seq ((0, x) : com V) | x <- comb k a b] j = nth 0 [seq ((0, x) : com V) | x <- a] j + k *: nth 0 [seq ((0, x) : com V) | x <- b] j.
Proof. by move=> hs hj; rewrite !(nth_map 0) ?size_comb ?hs // nth_comb // lin_pair. Qed.
Lemma nth_slin (V : lmodType (Fr E)) (w : V) (a b : seq (Fr E)) j : size b = size a -> (j < size a)%N ->
  nth 0 [seq x *: w | x <- combf k a b] j = nth 0 [seq x *: w | x <- a] j + k *: nth 0 [seq x *: w | x <- b] j.
Proof. by move=> hs hj; rewrite !(nth_map 0) ?size_combf ?hs // nth_combf // scalerDl scalerA. Qed.
Lemma lin_tPPE (t t' : GT E) : linear_map_PPE (E := E) (t + k *: t') = linear_map_PPE t + k *: linear_map_PPE t'.
Proof. by apply: injective_projections; apply: injective_projections; rewrite /= ?scaler0 ?addr0. Qed.
Hypothesis hb : bilinear E.
Lemma lin_t1 (x y : G1 E) (w : Com2 E) : comT_pairing (com1_linear_map (x + k *: y)) w
  = comT_pairing (com1_linear_map x) w + k *: comT_pairing (com1_linear_map y) w.
Proof. by rewrite /com1_linear_map lin_pair (bilDl (comT_pairing_bilin hb)) (bilZl (comT_pairing_bilin hb)). Qed.
Lemma lin_t2 (x y : G2 E) (w : Com1 E) : comT_pairing w (com2_linear_map (x + k *: y))
  = comT_pairing w (com2_linear_map x) + k *: comT_pairing w (com2_linear_map y).
Proof. by rewrite /com2_linear_map lin_pair (bilDr (comT_pairing_bilin hb)) (bilZr (comT_pairing_bilin hb)). Qed.
Lemma lin_tq (x y : Fr E) (w : Com1 E) (w' : Com2 E) : comT_pairing w ((x + k * y) *: w')
  = comT_pairing w (x *: w') + k *: comT_pairing w (y *: w').
Proof. rewrite scalerDl -scalerA (bilDr (comT_pairing_bilin hb)); congr (_ + _); exact: (bilZr (comT_pairing_bilin hb)). Qed.
End Lin.
Lemma Ok_inj T (a b : T) : Ok a = Ok b -> a = b. Proof. by case. Qed.
Lemma k_C60_ppe_verifies : forall (E : pairing) (sch : sched) (q : PPE E) (p : CProof E) (crs : CRS E) b (R S T : nat -> nat -> Fr E), bilinear E -> valid_sched sch ->
  ppe_verify sch q p crs = Ok b -> ppe_verify sch q (ppe_rerand q crs R S T p) crs = Ok b.
Proof.
move=> E sch q [cx cy fs] crs b R S T hb vs h.
have [g e] : exists g, fs = [:: g] by apply: (ppe_verify_one (sch' := sch) (self := q) (cx := cx) (cy := cy) (crs := crs)); rewrite h.
subst fs; have hs : ppe_vshape q cx cy g crs by rewrite -(isok_ppe_verify vs) h.
have [h1 h2 h3 h4] := ppe_vshapeP _ _ _ _ _ hs.
set cx' := mkCommit (fresh_c (size (crs_u crs)) crs R (coms cx)) [::]; set cy' := mkCommit (fresh_d (size (crs_v crs)) crs S (coms cy)) [::].
set g' := re_pf [seq (0, x) | x <- ppe_a q] [seq (0, y) | y <- ppe_b q] (ppe_gamma q) (size (crs_u crs)) (size (crs_v crs)) crs R S T (coms cx) (coms cy) g.
have hs' : ppe_vshape q cx' cy' g' crs.
  by apply/ppe_vshapeP; split; rewrite /= ?size_fresh_c ?size_fresh_d ?size_mkseq.
rewrite -[LHS]/(ppe_verify sch q (mkCProof cx' cy' [:: g']) crs).
move: h; rewrite (ppe_verify_Ok vs hs) (ppe_verify_Ok vs hs') /ppe_veq => -[<-]; congr Ok.
by case: h4 => h5 h6; rewrite rerand_veq //; first [by rewrite h5 | by rewrite h6 | exact: h5 | exact: (proj1 h6) | tauto].
Qed.
Lemma k_C60_ppe_fresh : forall (E : pairing) (sch sch' : sched) (q : PPE E) (X : seq (G1 E)) (Y : seq (G2 E)) (crs : CRS E) (R : rng E) (s s' : rst R) (p : CProof E),
  valid_sched sch -> valid_sched sch' -> two_keys crs -> (0 < size X)%N -> (0 < size Y)%N -> ppe_wf q (size X) (size Y) ->
  ppe_commit_and_prove sch q X Y crs s = Ok (p, s') ->
  same_output (2 * size X + (2 * size Y + 4))%N public public (@with_draws E _ (2 * size X + (2 * size Y + 4))%N (ppe_refresh q crs p))
    (fun R s => ppe_commit_and_prove (R := R) sch' q X Y crs s).
Proof.
move=> E sch sch' q X Y crs R s s' p vs vs' tk hX hY wf h.
have hp : public p = pubof PairingProduct (gpub (size X) (size Y) 2 2 (nth 0 [seq (0, x) | x <- ppe_a q]) (nth 0 (crs_u crs)) (nth 0 [seq (0, y) | y <- ppe_b q]) (nth 0 (crs_v crs)) (ent 0 (ppe_gamma q)) (nth 0 (com1_batch_linear_map X)) (nth 0 (com2_batch_linear_map Y)) (fun=> 0) (fun=> 0) (drawn s)).
  have e0 := ppe_cap_gpub vs s [::] [::] hX hY wf tk.
  rewrite h -[LHS]/(Ok (public (correct [::] [::] p))) public_correct in e0; rewrite (Ok_inj e0).
  by rewrite /gpub; congr (pubof _ (_, _, (_, _))); apply: eq_mkseq => i; rewrite nth_nil.
rewrite ppe_tlen.
have [phi [hphi hE]] := rerand_exists (size X) (size Y) 2 2 (nth 0 [seq (0, x) | x <- ppe_a q]) (nth 0 (crs_u crs)) (nth 0 [seq (0, y) | y <- ppe_b q]) (nth 0 (crs_v crs)) (ent 0 (ppe_gamma q)) (nth 0 (com1_batch_linear_map X)) (nth 0 (com2_batch_linear_map Y)) (drawn s).
exists phi; split=> // R1 R2 s1 z hz.
have := ppe_cap_gpub vs' z [::] [::] hX hY wf tk; rewrite -seen_public => ->.
rewrite /with_draws /seen; congr Ok.
have e : gpub (size X) (size Y) 2 2 (nth 0 [seq (0, x) | x <- ppe_a q]) (nth 0 (crs_u crs)) (nth 0 [seq (0, y) | y <- ppe_b q]) (nth 0 (crs_v crs)) (ent 0 (ppe_gamma q)) (nth 0 (com1_batch_linear_map X)) (nth 0 (com2_batch_linear_map Y)) (nth 0 [::]) (nth 0 [::]) (drawn z)
  = gpub (size X) (size Y) 2 2 (nth 0 [seq (0, x) | x <- ppe_a q]) (nth 0 (crs_u crs)) (nth 0 [seq (0, y) | y <- ppe_b q]) (nth 0 (crs_v crs)) (ent 0 (ppe_gamma q)) (nth 0 (com1_batch_linear_map X)) (nth 0 (com2_batch_linear_map Y)) (fun=> 0) (fun=> 0) (drawn z).
  by rewrite /gpub; congr (_, _, (_, _)); apply: eq_mkseq => i; rewrite nth_nil.
refine (etrans _ (congr1 (pubof _) (esym e))).
set N := tlen _ _ _ _.
have hz' : cut N (drawn z) = phi (cut N (nth 0 (draws N s1))).
  by rewrite cut_nth -/N; exact: hz.
rewrite (hE _ _ hz').
have hc : size (coms (xcoms p)) = size X by move/(congr1 (fun x => size x.1.1)): hp; rewrite /= size_mkseq.
have hd : size (coms (ycoms p)) = size Y by move/(congr1 (fun x => size x.1.2)): hp; rewrite /= size_mkseq.
rewrite /ppe_refresh /refresh hc hd /ppe_rerand; case: tk => hu hv; rewrite ?hu ?hv.
refine (public_rerand _ _ _ _ _ hp _ _ _ _); exact: size_mkseq.
Qed.
Lemma k_C60_ms1_verifies : forall (E : pairing) (sch : sched) (q : MSMEG1 E) (p : CProof E) (crs : CRS E) b (R S T : nat -> nat -> Fr E), bilinear E -> valid_sched sch ->
  ms1_verify sch q p crs = Ok b -> ms1_verify sch q (ms1_rerand q crs R S T p) crs = Ok b.
Proof.
move=> E sch q [cx cy fs] crs b R S T hb vs h.
have [g e] : exists g, fs = [:: g] by apply: (ms1_verify_one (sch' := sch) (self := q) (cx := cx) (cy := cy) (crs := crs)); rewrite h.
subst fs; have hs : ms1_vshape q cx cy g crs by rewrite -(isok_ms1_verify vs) h.
have [h1 h2 h3 h4] := ms1_vshapeP _ _ _ _ _ hs.
set cx' := mkCommit (fresh_c (size (crs_u crs)) crs R (coms cx)) [::]; set cy' := mkCommit (fresh_d 1 crs S (coms cy)) [::].
set g' := re_pf [seq (0, x) | x <- ms1_a q] [seq y *: one2 crs | y <- ms1_b q] (ms1_gamma q) (size (crs_u crs)) 1 crs R S T (coms cx) (coms cy) g.
have hs' : ms1_vshape q cx' cy' g' crs.
  by apply/ms1_vshapeP; split; rewrite /= ?size_fresh_c ?size_fresh_d ?size_mkseq.
rewrite -[LHS]/(ms1_verify sch q (mkCProof cx' cy' [:: g']) crs).
move: h; rewrite (ms1_verify_Ok vs hs) (ms1_verify_Ok vs hs') /ms1_veq => -[<-]; congr Ok.
by case: h4 => h5 h6; rewrite rerand_veq //; first [by rewrite h5 | by rewrite h6 | exact: h5 | exact: (proj1 h6) | tauto].
Qed.
Lemma k_C60_ms1_fresh : forall (E : pairing) (sch sch' : sched) (q : MSMEG1 E) (X : seq (G1 E)) (Y : seq (Fr E)) (crs : CRS E) (R : rng E) (s s' : rst R) (p : CProof E),
  valid_sched sch -> valid_sched sch' -> two_keys crs -> (0 < size X)%N -> (0 < size Y)%N -> ms1_wf q (size X) (size Y) ->
  ms1_commit_and_prove sch q X Y crs s = Ok (p, s') ->
  same_output (2 * size X + (size Y + 2))%N public public (@with_draws E _ (2 * size X + (size Y + 2))%N (ms1_refresh q crs p))
    (fun R s => ms1_commit_and_prove (R := R) sch' q X Y crs s).
Proof.
move=> E sch sch' q X Y crs R s s' p vs vs' tk hX hY wf h.
have hp : public p = pubof MultiScalarG1 (gpub (size X) (size Y) 2 1 (nth 0 [seq (0, x) | x <- ms1_a q]) (nth 0 (crs_u crs)) (nth 0 [seq y *: one2 crs | y <- ms1_b q]) (nth 0 (crs_v crs)) (ent 0 (ms1_gamma q)) (nth 0 (com1_batch_linear_map X)) (nth 0 [seq s2map crs y | y <- Y]) (fun=> 0) (fun=> 0) (drawn s)).
  have e0 := ms1_cap_gpub vs s [::] [::] hX hY wf tk.
  rewrite h -[LHS]/(Ok (public (correct [::] [::] p))) public_correct in e0; rewrite (Ok_inj e0).
  by rewrite /gpub; congr (pubof _ (_, _, (_, _))); apply: eq_mkseq => i; rewrite nth_nil.
rewrite ms1_tlen.
have [phi [hphi hE]] := rerand_exists (size X) (size Y) 2 1 (nth 0 [seq (0, x) | x <- ms1_a q]) (nth 0 (crs_u crs)) (nth 0 [seq y *: one2 crs | y <- ms1_b q]) (nth 0 (crs_v crs)) (ent 0 (ms1_gamma q)) (nth 0 (com1_batch_linear_map X)) (nth 0 [seq s2map crs y | y <- Y]) (drawn s).
exists phi; split=> // R1 R2 s1 z hz.
have := ms1_cap_gpub vs' z [::] [::] hX hY wf tk; rewrite -seen_public => ->.
rewrite /with_draws /seen; congr Ok.
have e : gpub (size X) (size Y) 2 1 (nth 0 [seq (0, x) | x <- ms1_a q]) (nth 0 (crs_u crs)) (nth 0 [seq y *: one2 crs | y <- ms1_b q]) (nth 0 (crs_v crs)) (ent 0 (ms1_gamma q)) (nth 0 (com1_batch_linear_map X)) (nth 0 [seq s2map crs y | y <- Y]) (nth 0 [::]) (nth 0 [::]) (drawn z)
  = gpub (size X) (size Y) 2 1 (nth 0 [seq (0, x) | x <- ms1_a q]) (nth 0 (crs_u crs)) (nth 0 [seq y *: one2 crs | y <- ms1_b q]) (nth 0 (crs_v crs)) (ent 0 (ms1_gamma q)) (nth 0 (com1_batch_linear_map X)) (nth 0 [seq s2map crs y | y <- Y]) (fun=> 0) (fun=> 0) (drawn z).
  by rewrite /gpub; congr (_, _, (_, _)); apply: eq_mkseq => i; rewrite nth_nil.
refine (etrans _ (congr1 (pubof _) (esym e))).
set N := tlen _ _ _ _.
have hz' : cut N (drawn z) = phi (cut N (nth 0 (draws N s1))).
  by rewrite cut_nth -/N; exact: hz.
rewrite (hE _ _ hz').
have hc : size (coms (xcoms p)) = size X by move/(congr1 (fun x => size x.1.1)): hp; rewrite /= size_mkseq.
have hd : size (coms (ycoms p)) = size Y by move/(congr1 (fun x => size x.1.2)): hp; rewrite /= size_mkseq.
rewrite /ms1_refresh /refresh hc hd /ms1_rerand; case: tk => hu hv; rewrite ?hu ?hv.
refine (public_rerand _ _ _ _ _ hp _ _ _ _); exact: size_mkseq.
Qed.
Lemma k_C60_ms2_verifies : forall (E : pairing) (sch : sched) (q : MSMEG2 E) (p : CProof E) (crs : CRS E) b (R S T : nat -> nat -> Fr E), bilinear E -> valid_sched sch ->
  ms2_verify sch q p crs = Ok b -> ms2_verify sch q (ms2_rerand q crs R S T p) crs = Ok b.
Proof.
move=> E sch q [cx cy fs] crs b R S T hb vs h.
have [g e] : exists g, fs = [:: g] by apply: (ms2_verify_one (sch' := sch) (self := q) (cx := cx) (cy := cy) (crs := crs)); rewrite h.
subst fs; have hs : ms2_vshape q cx cy g crs by rewrite -(isok_ms2_verify vs) h.
have [h1 h2 h3 h4] := ms2_vshapeP _ _ _ _ _ hs.
set cx' := mkCommit (fresh_c 1 crs R (coms cx)) [::]; set cy' := mkCommit (fresh_d (size (crs_v crs)) crs S (coms cy)) [::].
set g' := re_pf [seq x *: one1 crs | x <- ms2_a q] [seq (0, y) | y <- ms2_b q] (ms2_gamma q) 1 (size (crs_v crs)) crs R S T (coms cx) (coms cy) g.
have hs' : ms2_vshape q cx' cy' g' crs.
  by apply/ms2_vshapeP; split; rewrite /= ?size_fresh_c ?size_fresh_d ?size_mkseq.
rewrite -[LHS]/(ms2_verify sch q (mkCProof cx' cy' [:: g']) crs).
move: h; rewrite (ms2_verify_Ok vs hs) (ms2_verify_Ok vs hs') /ms2_veq => -[<-]; congr Ok.
by case: h4 => h5 h6; rewrite rerand_veq //; first [by rewrite h5 | by rewrite h6 | exact: h5 | exact: (proj1 h6) | tauto].
Qed.
Lemma k_C60_ms2_fresh : forall (E : pairing) (sch sch' : sched) (q : MSMEG2 E) (X : seq (Fr E)) (Y : seq (G2 E)) (crs : CRS E) (R : rng E) (s s' : rst R) (p : CProof E),
  valid_sched sch -> valid_sched sch' -> two_keys crs -> (0 < size X)%N -> (0 < size Y)%N -> ms2_wf q (size X) (size Y) ->
  ms2_commit_and_prove sch q X Y crs s = Ok (p, s') ->
  same_output (size X + (2 * size Y + 2))%N public public (@with_draws E _ (size X + (2 * size Y + 2))%N (ms2_refresh q crs p))
    (fun R s => ms2_commit_and_prove (R := R) sch' q X Y crs s).
Proof.
move=> E sch sch' q X Y crs R s s' p vs vs' tk hX hY wf h.
have hp : public p = pubof MultiScalarG2 (gpub (size X) (size Y) 1 2 (nth 0 [seq x *: one1 crs | x <- ms2_a q]) (nth 0 (crs_u crs)) (nth 0 [seq (0, y) | y <- ms2_b q]) (nth 0 (crs_v crs)) (ent 0 (ms2_gamma q)) (nth 0 [seq s1map crs x | x <- X]) (nth 0 (com2_batch_linear_map Y)) (fun=> 0) (fun=> 0) (drawn s)).
  have e0 := ms2_cap_gpub vs s [::] [::] hX hY wf tk.
  rewrite h -[LHS]/(Ok (public (correct [::] [::] p))) public_correct in e0; rewrite (Ok_inj e0).
  by rewrite /gpub; congr (pubof _ (_, _, (_, _))); apply: eq_mkseq => i; rewrite nth_nil.
rewrite ms2_tlen.
have [phi [hphi hE]] := rerand_exists (size X) (size Y) 1 2 (nth 0 [seq x *: one1 crs | x <- ms2_a q]) (nth 0 (crs_u crs)) (nth 0 [seq (0, y) | y <- ms2_b q]) (nth 0 (crs_v crs)) (ent 0 (ms2_gamma q)) (nth 0 [seq s1map crs x | x <- X]) (nth 0 (com2_batch_linear_map Y)) (drawn s).
exists phi; split=> // R1 R2 s1 z hz.
have := ms2_cap_gpub vs' z [::] [::] hX hY wf tk; rewrite -seen_public => ->.
rewrite /with_draws /seen; congr Ok.
have e : gpub (size X) (size Y) 1 2 (nth 0 [seq x *: one1 crs | x <- ms2_a q]) (nth 0 (crs_u crs)) (nth 0 [seq (0, y) | y <- ms2_b q]) (nth 0 (crs_v crs)) (ent 0 (ms2_gamma q)) (nth 0 [seq s1map crs x | x <- X]) (nth 0 (com2_batch_linear_map Y)) (nth 0 [::]) (nth 0 [::]) (drawn z)
  = gpub (size X) (size Y) 1 2 (nth 0 [seq x *: one1 crs | x <- ms2_a q]) (nth 0 (crs_u crs)) (nth 0 [seq (0, y) | y <- ms2_b q]) (nth 0 (crs_v crs)) (ent 0 (ms2_gamma q)) (nth 0 [seq s1map crs x | x <- X]) (nth 0 (com2_batch_linear_map Y)) (fun=> 0) (fun=> 0) (drawn z).
  by rewrite /gpub; congr (_, _, (_, _)); apply: eq_mkseq => i; rewrite nth_nil.
refine (etrans _ (congr1 (pubof _) (esym e))).
set N := tlen _ _ _ _.
have hz' : cut N (drawn z) = phi (cut N (nth 0 (draws N s1))).
  by rewrite cut_nth -/N; exact: hz.
rewrite (hE _ _ hz').
have hc : size (coms (xcoms p)) = size X by move/(congr1 (fun x => size x.1.1)): hp; rewrite /= size_mkseq.
have hd : size (coms (ycoms p)) = size Y by move/(congr1 (fun x => size x.1.2)): hp; rewrite /= size_mkseq.
rewrite /ms2_refresh /refresh hc hd /ms2_rerand; case: tk => hu hv; rewrite ?hu ?hv.
refine (public_rerand _ _ _ _ _ hp _ _ _ _); exact: size_mkseq.
Qed.
Lemma k_C60_quad_verifies : forall (E : pairing) (sch : sched) (q : QuadEqu E) (p : CProof E) (crs : CRS E) b (R S T : nat -> nat -> Fr E), bilinear E -> valid_sched sch ->
  quad_verify sch q p crs = Ok b -> quad_verify sch q (quad_rerand q crs R S T p) crs = Ok b.
Proof.
move=> E sch q [cx cy fs] crs b R S T hb vs h.
have [g e] : exists g, fs = [:: g] by apply: (quad_verify_one (sch' := sch) (self := q) (cx := cx) (cy := cy) (crs := crs)); rewrite h.
subst fs; have hs : quad_vshape q cx cy g crs by rewrite -(isok_quad_verify vs) h.
have [h1 h2 h3 h4] := quad_vshapeP _ _ _ _ _ hs.
set cx' := mkCommit (fresh_c 1 crs R (coms cx)) [::]; set cy' := mkCommit (fresh_d 1 crs S (coms cy)) [::].
set g' := re_pf [seq x *: one1 crs | x <- quad_a q] [seq y *: one2 crs | y <- quad_b q] (quad_gamma q) 1 1 crs R S T (coms cx) (coms cy) g.
have hs' : quad_vshape q cx' cy' g' crs.
  by apply/quad_vshapeP; split; rewrite /= ?size_fresh_c ?size_fresh_d ?size_mkseq.
rewrite -[LHS]/(quad_verify sch q (mkCProof cx' cy' [:: g']) crs).
move: h; rewrite (quad_verify_Ok vs hs) (quad_verify_Ok vs hs') /quad_veq => -[<-]; congr Ok.
by case: h4 => h5 h6; rewrite rerand_veq //; first [by rewrite h5 | by rewrite h6 | exact: h5 | exact: (proj1 h6) | tauto].
Qed.
Lemma k_C60_quad_fresh : forall (E : pairing) (sch sch' : sched) (q : QuadEqu E) (X : seq (Fr E)) (Y : seq (Fr E)) (crs : CRS E) (R : rng E) (s s' : rst R) (p : CProof E),
  valid_sched sch -> valid_sched sch' -> two_keys crs -> (0 < size X)%N -> (0 < size Y)%N -> quad_wf q (size X) (size Y) ->
  quad_commit_and_prove sch q X Y crs s = Ok (p, s') ->
  same_output (size X + (size Y + 1))%N public public (@with_draws E _ (size X + (size Y + 1))%N (quad_refresh q crs p))
    (fun R s => quad_commit_and_prove (R := R) sch' q X Y crs s).
Proof.
move=> E sch sch' q X Y crs R s s' p vs vs' tk hX hY wf h.
have hp : public p = pubof Quadratic (gpub (size X) (size Y) 1 1 (nth 0 [seq x *: one1 crs | x <- quad_a q]) (nth 0 (crs_u crs)) (nth 0 [seq y *: one2 crs | y <- quad_b q]) (nth 0 (crs_v crs)) (ent 0 (quad_gamma q)) (nth 0 [seq s1map crs x | x <- X]) (nth 0 [seq s2map crs y | y <- Y]) (fun=> 0) (fun=> 0) (drawn s)).
  have e0 := quad_cap_gpub vs s [::] [::] hX hY wf tk.
  rewrite h -[LHS]/(Ok (public (correct [::] [::] p))) public_correct in e0; rewrite (Ok_inj e0).
  by rewrite /gpub; congr (pubof _ (_, _, (_, _))); apply: eq_mkseq => i; rewrite nth_nil.
rewrite quad_tlen.
have [phi [hphi hE]] := rerand_exists (size X) (size Y) 1 1 (nth 0 [seq x *: one1 crs | x <- quad_a q]) (nth 0 (crs_u crs)) (nth 0 [seq y *: one2 crs | y <- quad_b q]) (nth 0 (crs_v crs)) (ent 0 (quad_gamma q)) (nth 0 [seq s1map crs x | x <- X]) (nth 0 [seq s2map crs y | y <- Y]) (drawn s).
exists phi; split=> // R1 R2 s1 z hz.
have := quad_cap_gpub vs' z [::] [::] hX hY wf tk; rewrite -seen_public => ->.
rewrite /with_draws /seen; congr Ok.
have e : gpub (size X) (size Y) 1 1 (nth 0 [seq x *: one1 crs | x <- quad_a q]) (nth 0 (crs_u crs)) (nth 0 [seq y *: one2 crs | y <- quad_b q]) (nth 0 (crs_v crs)) (ent 0 (quad_gamma q)) (nth 0 [seq s1map crs x | x <- X]) (nth 0 [seq s2map crs y | y <- Y]) (nth 0 [::]) (nth 0 [::]) (drawn z)
  = gpub (size X) (size Y) 1 1 (nth 0 [seq x *: one1 crs | x <- quad_a q]) (nth 0 (crs_u crs)) (nth 0 [seq y *: one2 crs | y <- quad_b q]) (nth 0 (crs_v crs)) (ent 0 (quad_gamma q)) (nth 0 [seq s1map crs x | x <- X]) (nth 0 [seq s2map crs y | y <- Y]) (fun=> 0) (fun=> 0) (drawn z).
  by rewrite /gpub; congr (_, _, (_, _)); apply: eq_mkseq => i; rewrite nth_nil.
refine (etrans _ (congr1 (pubof _) (esym e))).
set N := tlen _ _ _ _.
have hz' : cut N (drawn z) = phi (cut N (nth 0 (draws N s1))).
  by rewrite cut_nth -/N; exact: hz.
rewrite (hE _ _ hz').
have hc : size (coms (xcoms p)) = size X by move/(congr1 (fun x => size x.1.1)): hp; rewrite /= size_mkseq.
have hd : size (coms (ycoms p)) = size Y by move/(congr1 (fun x => size x.1.2)): hp; rewrite /= size_mkseq.
rewrite /quad_refresh /refresh hc hd /quad_rerand; case: tk => hu hv; rewrite ?hu ?hv.
refine (public_rerand _ _ _ _ _ hp _ _ _ _); exact: size_mkseq.
Qed.
Lemma k_C62_ppe_equations : forall (E : pairing) (sch : sched) (q q' : PPE E) cx cy (g g' : EquProof E) (crs : CRS E) (k : Fr E), bilinear E -> valid_sched sch ->
  ppe_verify sch q (mkCProof cx cy [:: g]) crs = Ok true -> ppe_verify sch q' (mkCProof cx cy [:: g']) crs = Ok true ->
  ppe_verify sch (ppe_comb k q q') (mkCProof cx cy [:: pf_comb k g g']) crs = Ok true.
Proof.
move=> E sch q q' cx cy g g' crs k hb vs h h'.
have hs : ppe_vshape q cx cy g crs by rewrite -(isok_ppe_verify vs) h.
have hs' : ppe_vshape q' cx cy g' crs by rewrite -(isok_ppe_verify vs) h'.
have [h1 [h2a h2b] h3 h4] := ppe_vshapeP _ _ _ _ _ hs; have [h1' [h2a' h2b'] h3' h4'] := ppe_vshapeP _ _ _ _ _ hs'.
have hs2 : ppe_vshape (ppe_comb k q q') cx cy (pf_comb k g g') crs.
  by apply/ppe_vshapeP; split; rewrite /= ?size_comb ?size_combf //; apply: combm_fits.
have e := Ok_inj (etrans (esym (ppe_verify_Ok vs hs)) h); have e' := Ok_inj (etrans (esym (ppe_verify_Ok vs hs')) h').
rewrite (ppe_verify_Ok vs hs2); congr Ok.
refine (veq_comb (k := k) hb _ _ _ _ _ _ e e').
- by move=> j hj; rewrite nth_lin // h2a.
- by move=> j hj; rewrite nth_lin // h2b.
- by move=> i j hi hj; apply: ent_combm hi hj.
- exact: lin_tPPE.
- move=> i hi; apply: nth_comb; move: h4 hi; clear; rewrite /pi /theta; intuition; first [by rewrite H | by apply: leq_trans hi _; tauto].
move=> i hi; apply: nth_comb; move: h4 hi; clear; intuition; first [by rewrite H0 | by rewrite H | by apply: leq_trans hi _; tauto].
Qed.
Lemma k_C62_ppe_runs : forall (E : pairing) (sch : sched) (q q' : PPE E) cx cy cx' cy' (g g' : EquProof E) (crs : CRS E) (k : Fr E), bilinear E -> valid_sched sch -> ppe_linear q q' ->
  ppe_verify sch q (mkCProof cx cy [:: g]) crs = Ok true -> ppe_verify sch q' (mkCProof cx' cy' [:: g']) crs = Ok true ->
  ppe_verify sch (ppe_sum k q q') (mkCProof (mkCommit (comb k (coms cx) (coms cx')) [::]) (mkCommit (comb k (coms cy) (coms cy')) [::]) [:: pf_comb k g g']) crs = Ok true.
Proof.
move=> E sch q q' cx cy cx' cy' g g' crs k hb vs [ea eb eg e0] h h'.
have hs : ppe_vshape q cx cy g crs by rewrite -(isok_ppe_verify vs) h.
have hs' : ppe_vshape q' cx' cy' g' crs by rewrite -(isok_ppe_verify vs) h'.
have [h1 [h2a h2b] h3 h4] := ppe_vshapeP _ _ _ _ _ hs; have [h1' [h2a' h2b'] h3' h4'] := ppe_vshapeP _ _ _ _ _ hs'.
set cx2 := mkCommit _ _; set cy2 := mkCommit (comb k (coms cy) _) _.
have hs2 : ppe_vshape (ppe_sum k q q') cx2 cy2 (pf_comb k g g') crs.
  by apply/ppe_vshapeP; split; rewrite /= ?size_comb ?size_combf.
have e := Ok_inj (etrans (esym (ppe_verify_Ok vs hs)) h); have e' := Ok_inj (etrans (esym (ppe_verify_Ok vs hs')) h').
rewrite (ppe_verify_Ok vs hs2); congr Ok.
rewrite /ppe_veq -ea -eb -eg in e'.
refine (veq_sum (k := k) hb _ _ _ _ _ _ e e').
- by rewrite -h2b' -h2b eb.
- by rewrite -h2a' -h2a ea.
- exact: e0.
- exact: lin_tPPE.
- move=> i hi; apply: nth_comb; move: h4 hi; clear; rewrite /pi /theta; intuition; first [by rewrite H | by apply: leq_trans hi _; tauto].
move=> i hi; apply: nth_comb; move: h4 hi; clear; intuition; first [by rewrite H0 | by rewrite H | by apply: leq_trans hi _; tauto].
Qed.
Lemma k_C62_ms1_equations : forall (E : pairing) (sch : sched) (q q' : MSMEG1 E) cx cy (g g' : EquProof E) (crs : CRS E) (k : Fr E), bilinear E -> valid_sched sch ->
  ms1_verify sch q (mkCProof cx cy [:: g]) crs = Ok true -> ms1_verify sch q' (mkCProof cx cy [:: g']) crs = Ok true ->
  ms1_verify sch (ms1_comb k q q') (mkCProof cx cy [:: pf_comb k g g']) crs = Ok true.
Proof.
move=> E sch q q' cx cy g g' crs k hb vs h h'.
have hs : ms1_vshape q cx cy g crs by rewrite -(isok_ms1_verify vs) h.
have hs' : ms1_vshape q' cx cy g' crs by rewrite -(isok_ms1_verify vs) h'.
have [h1 [h2a h2b] h3 h4] := ms1_vshapeP _ _ _ _ _ hs; have [h1' [h2a' h2b'] h3' h4'] := ms1_vshapeP _ _ _ _ _ hs'.
have hs2 : ms1_vshape (ms1_comb k q q') cx cy (pf_comb k g g') crs.
  by apply/ms1_vshapeP; split; rewrite /= ?size_comb ?size_combf //; apply: combm_fits.
have e := Ok_inj (etrans (esym (ms1_verify_Ok vs hs)) h); have e' := Ok_inj (etrans (esym (ms1_verify_Ok vs hs')) h').
rewrite (ms1_verify_Ok vs hs2); congr Ok.
refine (veq_comb (k := k) hb _ _ _ _ _ _ e e').
- by move=> j hj; rewrite nth_lin // h2a.
- by move=> j hj; rewrite nth_slin // h2b.
- by move=> i j hi hj; apply: ent_combm hi hj.
- exact: lin_t1.
- move=> i hi; apply: nth_comb; move: h4 hi; clear; rewrite /pi /theta; intuition; first [by rewrite H | by apply: leq_trans hi _; tauto].
move=> i hi; apply: nth_comb; move: h4 hi; clear; intuition; first [by rewrite H0 | by rewrite H | by apply: leq_trans hi _; tauto].
Qed.
Lemma k_C62_ms1_runs : forall (E : pairing) (sch : sched) (q q' : MSMEG1 E) cx cy cx' cy' (g g' : EquProof E) (crs : CRS E) (k : Fr E), bilinear E -> valid_sched sch -> ms1_linear q q' ->
  ms1_verify sch q (mkCProof cx cy [:: g]) crs = Ok true -> ms1_verify sch q' (mkCProof cx' cy' [:: g']) crs = Ok true ->
  ms1_verify sch (ms1_sum k q q') (mkCProof (mkCommit (comb k (coms cx) (coms cx')) [::]) (mkCommit (comb k (coms cy) (coms cy')) [::]) [:: pf_comb k g g']) crs = Ok true.
Proof.
move=> E sch q q' cx cy cx' cy' g g' crs k hb vs [ea eb eg e0] h h'.
have hs : ms1_vshape q cx cy g crs by rewrite -(isok_ms1_verify vs) h.
have hs' : ms1_vshape q' cx' cy' g' crs by rewrite -(isok_ms1_verify vs) h'.
have [h1 [h2a h2b] h3 h4] := ms1_vshapeP _ _ _ _ _ hs; have [h1' [h2a' h2b'] h3' h4'] := ms1_vshapeP _ _ _ _ _ hs'.
set cx2 := mkCommit _ _; set cy2 := mkCommit (comb k (coms cy) _) _.
have hs2 : ms1_vshape (ms1_sum k q q') cx2 cy2 (pf_comb k g g') crs.
  by apply/ms1_vshapeP; split; rewrite /= ?size_comb ?size_combf.
have e := Ok_inj (etrans (esym (ms1_verify_Ok vs hs)) h); have e' := Ok_inj (etrans (esym (ms1_verify_Ok vs hs')) h').
rewrite (ms1_verify_Ok vs hs2); congr Ok.
rewrite /ms1_veq -ea -eb -eg in e'.
refine (veq_sum (k := k) hb _ _ _ _ _ _ e e').
- by rewrite -h2b' -h2b eb.
- by rewrite -h2a' -h2a ea.
- exact: e0.
- exact: lin_t1.
- move=> i hi; apply: nth_comb; move: h4 hi; clear; rewrite /pi /theta; intuition; first [by rewrite H | by apply: leq_trans hi _; tauto].
move=> i hi; apply: nth_comb; move: h4 hi; clear; intuition; first [by rewrite H0 | by rewrite H | by apply: leq_trans hi _; tauto].
Qed.
Lemma k_C62_ms2_equations : forall (E : pairing) (sch : sched) (q q' : MSMEG2 E) cx cy (g g' : EquProof E) (crs : CRS E) (k : Fr E), bilinear E -> valid_sched sch ->
  ms2_verify sch q (mkCProof cx cy [:: g]) crs = Ok true -> ms2_verify sch q' (mkCProof cx cy [:: g']) crs = Ok true ->
  ms2_verify sch (ms2_comb k q q') (mkCProof cx cy [:: pf_comb k g g']) crs = Ok true.
Proof.
move=> E sch q q' cx cy g g' crs k hb vs h h'.
have hs : ms2_vshape q cx cy g crs by rewrite -(isok_ms2_verify vs) h.
have hs' : ms2_vshape q' cx cy g' crs by rewrite -(isok_ms2_verify vs) h'.
have [h1 [h2a h2b] h3 h4] := ms2_vshapeP _ _ _ _ _ hs; have [h1' [h2a' h2b'] h3' h4'] := ms2_vshapeP _ _ _ _ _ hs'.
have hs2 : ms2_vshape (ms2_comb k q q') cx cy (pf_comb k g g') crs.
  by apply/ms2_vshapeP; split; rewrite /= ?size_comb ?size_combf //; apply: combm_fits.
have e := Ok_inj (etrans (esym (ms2_verify_Ok vs hs)) h); have e' := Ok_inj (etrans (esym (ms2_verify_Ok vs hs')) h').
rewrite (ms2_verify_Ok vs hs2); congr Ok.
refine (veq_comb (k := k) hb _ _ _ _ _ _ e e').
- by move=> j hj; rewrite nth_slin // h2a.
- by move=> j hj; rewrite nth_lin // h2b.
- by move=> i j hi hj; apply: ent_combm hi hj.
- exact: lin_t2.
- move=> i hi; apply: nth_comb; move: h4 hi; clear; rewrite /pi /theta; intuition; first [by rewrite H | by apply: leq_trans hi _; tauto].
move=> i hi; apply: nth_comb; move: h4 hi; clear; intuition; first [by rewrite H0 | by rewrite H | by apply: leq_trans hi _; tauto].
Qed.
Lemma k_C62_ms2_runs : forall (E : pairing) (sch : sched) (q q' : MSMEG2 E) cx cy cx' cy' (g g' : EquProof E) (crs : CRS E) (k : Fr E), bilinear E -> valid_sched sch -> ms2_linear q q' ->
  ms2_verify sch q (mkCProof cx cy [:: g]) crs = Ok true -> ms2_verify sch q' (mkCProof cx' cy' [:: g']) crs = Ok true ->
  ms2_verify sch (ms2_sum k q q') (mkCProof (mkCommit (comb k (coms cx) (coms cx')) [::]) (mkCommit (comb k (coms cy) (coms cy')) [::]) [:: pf_comb k g g']) crs = Ok true.
Proof.
move=> E sch q q' cx cy cx' cy' g g' crs k hb vs [ea eb eg e0] h h'.
have hs : ms2_vshape q cx cy g crs by rewrite -(isok_ms2_verify vs) h.
have hs' : ms2_vshape q' cx' cy' g' crs by rewrite -(isok_ms2_verify vs) h'.
have [h1 [h2a h2b] h3 h4] := ms2_vshapeP _ _ _ _ _ hs; have [h1' [h2a' h2b'] h3' h4'] := ms2_vshapeP _ _ _ _ _ hs'.
set cx2 := mkCommit _ _; set cy2 := mkCommit (comb k (coms cy) _) _.
have hs2 : ms2_vshape (ms2_sum k q q') cx2 cy2 (pf_comb k g g') crs.
  by apply/ms2_vshapeP; split; rewrite /= ?size_comb ?size_combf.
have e := Ok_inj (etrans (esym (ms2_verify_Ok vs hs)) h); have e' := Ok_inj (etrans (esym (ms2_verify_Ok vs hs')) h').
rewrite (ms2_verify_Ok vs hs2); congr Ok.
rewrite /ms2_veq -ea -eb -eg in e'.
refine (veq_sum (k := k) hb _ _ _ _ _ _ e e').
- by rewrite -h2b' -h2b eb.
- by rewrite -h2a' -h2a ea.
- exact: e0.
- exact: lin_t2.
- move=> i hi; apply: nth_comb; move: h4 hi; clear; rewrite /pi /theta; intuition; first [by rewrite H | by apply: leq_trans hi _; tauto].
move=> i hi; apply: nth_comb; move: h4 hi; clear; intuition; first [by rewrite H0 | by rewrite H | by apply: leq_trans hi _; tauto].
Qed.
Lemma k_C62_quad_equations : forall (E : pairing) (sch : sched) (q q' : QuadEqu E) cx cy (g g' : EquProof E) (crs : CRS E) (k : Fr E), bilinear E -> valid_sched sch ->
  quad_verify sch q (mkCProof cx cy [:: g]) crs = Ok true -> quad_verify sch q' (mkCProof cx cy [:: g']) crs = Ok true ->
  quad_verify sch (quad_comb k q q') (mkCProof cx cy [:: pf_comb k g g']) crs = Ok true.
Proof.
move=> E sch q q' cx cy g g' crs k hb vs h h'.
have hs : quad_vshape q cx cy g crs by rewrite -(isok_quad_verify vs) h.
have hs' : quad_vshape q' cx cy g' crs by rewrite -(isok_quad_verify vs) h'.
have [h1 [h2a h2b] h3 h4] := quad_vshapeP _ _ _ _ _ hs; have [h1' [h2a' h2b'] h3' h4'] := quad_vshapeP _ _ _ _ _ hs'.
have hs2 : quad_vshape (quad_comb k q q') cx cy (pf_comb k g g') crs.
  by apply/quad_vshapeP; split; rewrite /= ?size_comb ?size_combf //; apply: combm_fits.
have e := Ok_inj (etrans (esym (quad_verify_Ok vs hs)) h); have e' := Ok_inj (etrans (esym (quad_verify_Ok vs hs')) h').
rewrite (quad_verify_Ok vs hs2); congr Ok.
refine (veq_comb (k := k) hb _ _ _ _ _ _ e e').
- by move=> j hj; rewrite nth_slin // h2a.
- by move=> j hj; rewrite nth_slin // h2b.
- by move=> i j hi hj; apply: ent_combm hi hj.
- exact: lin_tq.
- move=> i hi; apply: nth_comb; move: h4 hi; clear; rewrite /pi /theta; intuition; first [by rewrite H | by apply: leq_trans hi _; tauto].
move=> i hi; apply: nth_comb; move: h4 hi; clear; intuition; first [by rewrite H0 | by rewrite H | by apply: leq_trans hi _; tauto].
Qed.
Lemma k_C62_quad_runs : forall (E : pairing) (sch : sched) (q q' : QuadEqu E) cx cy cx' cy' (g g' : EquProof E) (crs : CRS E) (k : Fr E), bilinear E -> valid_sched sch -> quad_linear q q' ->
  quad_verify sch q (mkCProof cx cy [:: g]) crs = Ok true -> quad_verify sch q' (mkCProof cx' cy' [:: g']) crs = Ok true ->
  quad_verify sch (quad_sum k q q') (mkCProof (mkCommit (comb k (coms cx) (coms cx')) [::]) (mkCommit (comb k (coms cy) (coms cy')) [::]) [:: pf_comb k g g']) crs = Ok true.
Proof.
move=> E sch q q' cx cy cx' cy' g g' crs k hb vs [ea eb eg e0] h h'.
have hs : quad_vshape q cx cy g crs by rewrite -(isok_quad_verify vs) h.
have hs' : quad_vshape q' cx' cy' g' crs by rewrite -(isok_quad_verify vs) h'.
have [h1 [h2a h2b] h3 h4] := quad_vshapeP _ _ _ _ _ hs; have [h1' [h2a' h2b'] h3' h4'] := quad_vshapeP _ _ _ _ _ hs'.
set cx2 := mkCommit _ _; set cy2 := mkCommit (comb k (coms cy) _) _.
have hs2 : quad_vshape (quad_sum k q q') cx2 cy2 (pf_comb k g g') crs.
  by apply/quad_vshapeP; split; rewrite /= ?size_comb ?size_combf.
have e := Ok_inj (etrans (esym (quad_verify_Ok vs hs)) h); have e' := Ok_inj (etrans (esym (quad_verify_Ok vs hs')) h').
rewrite (quad_verify_Ok vs hs2); congr Ok.
rewrite /quad_veq -ea -eb -eg in e'.
refine (veq_sum (k := k) hb _ _ _ _ _ _ e e').
- by rewrite -h2b' -h2b eb.
- by rewrite -h2a' -h2a ea.
- exact: e0.
- exact: lin_tq.
- move=> i hi; apply: nth_comb; move: h4 hi; clear; rewrite /pi /theta; intuition; first [by rewrite H | by apply: leq_trans hi _; tauto].
move=> i hi; apply: nth_comb; move: h4 hi; clear; intuition; first [by rewrite H0 | by rewrite H | by apply: leq_trans hi _; tauto].
Qed.
