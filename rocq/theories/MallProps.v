(** Proofs of the statements in P_Mall.v. *)
From mathcomp Require Import all_ssreflect all_algebra.
From Verif Require Import Base BaseLemmas Group DataStructures MatLemmas CoreAlg ComLemmas Generator Commit Statement Prove Verify Spec SpecMat SpecVerify SpecHide SpecTamper ProveLemmas CommitLemmas VerifyLemmas Holds Complete Main SoundGen Extract Draws GenProps CapLemmas HideCore HideTape Hiding MatProps ComProps VProps HideProps RerandCore SpecRerand Rerand RerandProps Exist ExistProps SpecFormula SpecPanic FormulaProps TamperLemmas TamperProps.
Set Implicit Arguments.
Unset Strict Implicit.
Unset Printing Implicit Defensive.
Import GRing.Theory.
Local Open Scope ring_scope.

Section Mall.
Context {E : pairing}.
Hypothesis hb : bilinear E.
Hypothesis hn : nondegenerate E.
Let fb : bilin (@pairT E : Com1 E -> Com2 E -> ComT E) := comT_pairing_bilin hb.

Lemma gap_proof A B G c d t u v p th kx ky p' th' :
  gap (E := E) A B G c d t u v p' th' kx ky - gap A B G c d t u v p th kx ky
  = - (\sum_(i < kx) pairT (nth 0 u i) (nth 0 p' i - nth 0 p i) + \sum_(l < ky) pairT (nth 0 th' l - nth 0 th l) (nth 0 v l)).
Proof.
rewrite gap_diff !subrr !add0r -!sumrB; congr (- (_ + _)); apply: eq_bigr => i _; [by rewrite (bilBr fb) | by rewrite (bilBl fb)].
Qed.

Variables (crs : CRS E) (a1 a2 t1 t2 : Fr E).
Hypothesis bk : binding_crs_with crs a1 a2 t1 t2.
Hypothesis hp : proper_crs crs.
Hypothesis hc2 : cyclic (G2 E).
Let eu1 : u1 crs = (g1_gen crs, a1 *: g1_gen crs). Proof. by case: bk => ->. Qed.
Let ev1 : v1 crs = (g2_gen crs, a2 *: g2_gen crs). Proof. by case: bk => _ ->. Qed.
Let eu2 : u2 crs = t1 *: u1 crs. Proof. by case: bk => ->. Qed.
Let ev2 : v2 crs = t2 *: v1 crs. Proof. by case: bk => _ ->. Qed.

Lemma tensor0 (a : Com2 E) (b : Com1 E) : pairT (u1 crs) a + pairT b (v1 crs) = 0 <-> exists k, a = k *: v1 crs /\ b = - (k *: u1 crs).
Proof.
case: (hp) => h1 h2; split=> [h|[k [-> ->]]]; last first.
  by rewrite (bilZr fb) (bilNl fb) (bilZl fb) subrr.
have nz (x : G1 E) (y : G2 E) : pair_e x y = 0 -> x = 0 \/ y = 0 by exact: hn.
have [k e1] := hc2 a.1 h2; exists k.
have := h; rewrite eu1 ev1 /pairT; move=> h'.
have c11 : pair_e (g1_gen crs) a.1 + pair_e b.1 (g2_gen crs) = 0 := congr1 (fun z : ComT E => z.1.1) h'.
have c12 : pair_e (g1_gen crs) a.2 + pair_e b.1 (a2 *: g2_gen crs) = 0 := congr1 (fun z : ComT E => z.1.2) h'.
have c21 : pair_e (a1 *: g1_gen crs) a.1 + pair_e b.2 (g2_gen crs) = 0 := congr1 (fun z : ComT E => z.2.1) h'.
case: (hb) => bD bD' bZ bZ'.
have b1 : b.1 = - (k *: g1_gen crs).
  move: c11; rewrite e1 bZ' -bZ -bD => /nz[/eqP|/eqP]; last by rewrite (negbTE h2).
  by rewrite addrC addr_eq0 => /eqP.
have b2 : b.2 = - (k *: (a1 *: g1_gen crs)).
  move: c21; rewrite e1 bZ' -bZ -bD => /nz[/eqP|/eqP]; last by rewrite (negbTE h2).
  by rewrite addrC addr_eq0 => /eqP.
have e2 : a.2 = k *: (a2 *: g2_gen crs).
  move: c12; rewrite b1 -scaleNr bZ -bZ' -bD' => /nz[/eqP|/eqP]; first by rewrite (negbTE h1).
  by rewrite scaleNr subr_eq0 => /eqP.
by split; apply: injective_projections.
Qed.
Lemma move_k (V : zmodType) (x y z : V) : x - y = z <-> x = y + z.
Proof. by split=> [<-|->]; rewrite addrC ?subrK ?addKr. Qed.
Lemma fold2 (F : fieldType) (V : lmodType F) (t : F) (x0 x1 y0 y1 : V) : (x0 - y0) + t *: (x1 - y1) = (x0 + t *: x1) - (y0 + t *: y1).
Proof. by rewrite scalerBr opprD addrACA. Qed.
Lemma still22 A B G c d t p th p' th' :
  gap (E := E) A B G c d t (crs_u crs) (crs_v crs) p' th' 2 2 - gap A B G c d t (crs_u crs) (crs_v crs) p th 2 2 = 0 <->
  exists k, nth 0 p' 0 + t1 *: nth 0 p' 1 = nth 0 p 0 + t1 *: nth 0 p 1 + k *: v1 crs /\ nth 0 th' 0 + t2 *: nth 0 th' 1 = nth 0 th 0 + t2 *: nth 0 th 1 - k *: u1 crs.
Proof.
rewrite gap_proof; apply: (iff_trans (opp0P _)).
have -> : \sum_(i < 2) pairT (nth 0 (crs_u crs) i) (nth 0 p' i - nth 0 p i) = pairT (u1 crs) (nth 0 p' 0 - nth 0 p 0 + t1 *: (nth 0 p' 1 - nth 0 p 1)).
  by rewrite !big_ord_recl big_ord0 addr0 /= eu2 [RHS](bilDr fb) [in LHS](bilZl fb) [in RHS](bilZr fb).
have -> : \sum_(l < 2) pairT (nth 0 th' l - nth 0 th l) (nth 0 (crs_v crs) l) = pairT (nth 0 th' 0 - nth 0 th 0 + t2 *: (nth 0 th' 1 - nth 0 th 1)) (v1 crs).
  by rewrite !big_ord_recl big_ord0 addr0 /= ev2 [RHS](bilDl fb) [in LHS](bilZr fb) [in RHS](bilZl fb).
apply: (iff_trans (tensor0 _ _)); rewrite !fold2; split=> -[k [h1 h2]]; exists k; split; exact/move_k.
Qed.

Lemma still21 A B G c d t p th p' th' :
  gap (E := E) A B G c d t (crs_u crs) (crs_v crs) p' th' 2 1 - gap A B G c d t (crs_u crs) (crs_v crs) p th 2 1 = 0 <->
  exists k, nth 0 p' 0 + t1 *: nth 0 p' 1 = nth 0 p 0 + t1 *: nth 0 p 1 + k *: v1 crs /\ nth 0 th' 0 = nth 0 th 0 - k *: u1 crs.
Proof.
rewrite gap_proof; apply: (iff_trans (opp0P _)).
have -> : \sum_(i < 2) pairT (nth 0 (crs_u crs) i) (nth 0 p' i - nth 0 p i) = pairT (u1 crs) (nth 0 p' 0 - nth 0 p 0 + t1 *: (nth 0 p' 1 - nth 0 p 1)).
  by rewrite !big_ord_recl big_ord0 addr0 /= eu2 [RHS](bilDr fb) [in LHS](bilZl fb) [in RHS](bilZr fb).
have -> : \sum_(l < 1) pairT (nth 0 th' l - nth 0 th l) (nth 0 (crs_v crs) l) = pairT (nth 0 th' 0 - nth 0 th 0) (v1 crs).
  by rewrite big_ord1.
apply: (iff_trans (tensor0 _ _)); rewrite fold2; split=> -[k [h1 h2]]; exists k; split; exact/move_k.
Qed.

Lemma still12 A B G c d t p th p' th' :
  gap (E := E) A B G c d t (crs_u crs) (crs_v crs) p' th' 1 2 - gap A B G c d t (crs_u crs) (crs_v crs) p th 1 2 = 0 <->
  exists k, nth 0 p' 0 = nth 0 p 0 + k *: v1 crs /\ nth 0 th' 0 + t2 *: nth 0 th' 1 = nth 0 th 0 + t2 *: nth 0 th 1 - k *: u1 crs.
Proof.
rewrite gap_proof; apply: (iff_trans (opp0P _)).
have -> : \sum_(i < 1) pairT (nth 0 (crs_u crs) i) (nth 0 p' i - nth 0 p i) = pairT (u1 crs) (nth 0 p' 0 - nth 0 p 0).
  by rewrite big_ord1.
have -> : \sum_(l < 2) pairT (nth 0 th' l - nth 0 th l) (nth 0 (crs_v crs) l) = pairT (nth 0 th' 0 - nth 0 th 0 + t2 *: (nth 0 th' 1 - nth 0 th 1)) (v1 crs).
  by rewrite !big_ord_recl big_ord0 addr0 /= ev2 [RHS](bilDl fb) [in LHS](bilZr fb) [in RHS](bilZl fb).
apply: (iff_trans (tensor0 _ _)); rewrite fold2; split=> -[k [h1 h2]]; exists k; split; exact/move_k.
Qed.

Lemma still11 A B G c d t p th p' th' :
  gap (E := E) A B G c d t (crs_u crs) (crs_v crs) p' th' 1 1 - gap A B G c d t (crs_u crs) (crs_v crs) p th 1 1 = 0 <->
  exists k, nth 0 p' 0 = nth 0 p 0 + k *: v1 crs /\ nth 0 th' 0 = nth 0 th 0 - k *: u1 crs.
Proof.
rewrite gap_proof; apply: (iff_trans (opp0P _)).
have -> : \sum_(i < 1) pairT (nth 0 (crs_u crs) i) (nth 0 p' i - nth 0 p i) = pairT (u1 crs) (nth 0 p' 0 - nth 0 p 0).
  by rewrite big_ord1.
have -> : \sum_(l < 1) pairT (nth 0 th' l - nth 0 th l) (nth 0 (crs_v crs) l) = pairT (nth 0 th' 0 - nth 0 th 0) (v1 crs).
  by rewrite big_ord1.
apply: (iff_trans (tensor0 _ _)); split=> -[k [h1 h2]]; exists k; split; exact/move_k.
Qed.

End Mall.

Lemma k_C96_ppe : forall (E : pairing) (sch sch' : sched) (q : PPE E) (p : CProof E) (crs : CRS E) pf pf' a1 a2 t1 t2, bilinear E -> nondegenerate E -> cyclic (G2 E) -> valid_sched sch -> valid_sched sch' ->
  binding_crs_with crs a1 a2 t1 t2 -> proper_crs crs -> equ_proofs p = [:: pf] -> ppe_verify sch q p crs = Ok true ->
  equ_type pf' = PairingProduct -> size (pi pf') = 2%N -> size (theta pf') = 2%N ->
  answers (ppe_verify sch' q (mkCProof (xcoms p) (ycoms p) [:: pf']) crs)
    (exists k, nth 0 (pi pf') 0 + t1 *: nth 0 (pi pf') 1 = nth 0 (pi pf) 0 + t1 *: nth 0 (pi pf) 1 + k *: v1 crs /\ nth 0 (theta pf') 0 + t2 *: nth 0 (theta pf') 1 = nth 0 (theta pf) 0 + t2 *: nth 0 (theta pf) 1 - k *: u1 crs).
Proof.
move=> E sch sch' q p crs pf pf' a1 a2 t1 t2 hb hn hc2 vs vs' bk hp ep hv ety s1 s2.
have [eu ev] : size (crs_u crs) = 2%N /\ size (crs_v crs) = 2%N by case: bk => -> ->.
apply: (@ppe_step _ _ sch' _ _ _ _ q (mkCProof (xcoms p) (ycoms p) [:: pf']) crs pf' _ hb vs vs' ep hv) => //.
  by case=> hty hs hg hl; split=> //=; rewrite ?s1 ?s2 ?eu ?ev.
by move=> _; rewrite /ppe_gap /= ?eu ?ev; exact: (still22 hb hn bk hp hc2).
Qed.

Lemma ppe_second (E : pairing) (sch : sched) (q : PPE E) (X : seq (G1 E)) (Y : seq (G2 E)) (cx : Commit1 E) (cy : Commit2 E) (crs : CRS E) :
  valid_sched sch -> binding_crs crs -> exists c, forall (R : rng E) (s : rst R) pf s', ppe_prove sch q X Y cx cy crs s = Ok (pf, s') ->
  exists w, nth 0 (pi pf) 1 = c + w *: v1 crs.
Proof.
move=> vs [a1 [a2 [t1 [t2 [eu ev _]]]]]; eexists => R s pf s'; rewrite FormulaProps.ppe_prove_total //.
have v2E : v2 crs = t2 *: v1 crs by rewrite ev.
rewrite /checked; case: first_failed => // -[<- _]; rewrite /prove_value /= ?big_ord_recl ?big_ord0 /= ?addr0 ?v2E ?scalerA -?scalerDl.
by eexists; congr (_ + _).
Qed.

Lemma k_C96_ppe_outputs_refuted : forall (E : pairing) (sch sch' : sched) (q : PPE E) (X : seq (G1 E)) (Y : seq (G2 E)) (cx : Commit1 E) (cy : Commit2 E) (crs : CRS E),
  bilinear E -> nondegenerate E -> cyclic (G2 E) -> valid_sched sch -> valid_sched sch' -> binding_crs crs -> proper_crs crs ->
  made_G1 crs X cx -> made_G2 crs Y cy -> (0 < size X)%N -> (0 < size Y)%N -> ppe_wf q (size X) (size Y) -> ppe_holds q X Y ->
  exists pf, [/\ equ_type pf = PairingProduct, size (pi pf) = 2%N, size (theta pf) = 2%N, ppe_verify sch' q (mkCProof cx cy [:: pf]) crs = Ok true &
    forall t : 4.-tuple (Fr E), ~ yields (fun R s => ppe_prove (R := R) sch q X Y cx cy crs s) pf t].
Proof.
move=> E sch sch' q X Y cx cy crs hb hn hc2 vs vs' hk hp mx my hX hY wf hold.
have tk := binding_two_keys hk.
have /isokP[[pf0 s'] e0] := Main.ppe_prove_total vs ([::] : rst (@tape_rng E)) hX hY wf tk mx my.
have h0 : ppe_verify sch' q (mkCProof cx cy [:: pf0]) crs = Ok true.
  have [b eb hb2] := ppe_dec vs hb vs' mx my e0; rewrite eb; congr Ok; exact/hb2.
have [e1 [e2 e3]] := ppe_prove_sizes vs e0.
have [c hc] := ppe_second q X Y cx cy vs hk; have [w hw] := hc _ _ _ _ e0.
have p2 : (0 < size (pi pf0))%N by rewrite e2.
have p3 : (0 < size (theta pf0))%N by rewrite e3.
case: (hk) => a1 [a2 [t1 [t2 bk]]].
pose pf := (mkEquProof [:: nth 0 (pi pf0) 0 - t1 *: (0, g2_gen crs); nth 0 (pi pf0) 1 + (0, g2_gen crs)] (theta pf0) PairingProduct [::]).
exists pf; split=> //.
  have [b -> [_ h]] := @k_C96_ppe E sch' sch' q (mkCProof cx cy [:: pf0]) crs pf0 pf a1 a2 t1 t2 hb hn hc2 vs' vs' bk hp erefl h0 erefl erefl e3.
  congr Ok; apply: h; exists 0; rewrite /pf /= !scale0r !addr0 ?subr0; split=> //.
  by rewrite scalerDr addrACA addNr addr0.
move=> t /(_ _ _ (draws_tape t)).
have /isokP[[pf1 s1] e4] := Main.ppe_prove_total vs (tval t : rst (@tape_rng E)) hX hY wf tk mx my.
have [w' hw'] := hc _ _ _ _ e4.
rewrite e4 => e7; have ep := congr1 fst (Ok_inj e7); rewrite [LHS]/= [RHS]/= in ep; move: hw'; rewrite ep /= hw -addrA => /addrI /esym h.
have {}h : (0, g2_gen crs) = (w' - w) *: v1 crs by rewrite scalerBl h addrC addKr.
case: bk h => eu ev _; rewrite ?eu ?ev /= => h; have /esym/eqP := congr1 fst h; have /eqP := congr1 snd h.
case: hp => g1 g2; rewrite /= scaler_eq0 ?(negbTE g1) ?(negbTE g2) orbF => e5 /eqP e6.
by move: e5; rewrite e6 scale0r ?(negbTE g1) ?(negbTE g2).
Qed.

Lemma k_C96_ms1 : forall (E : pairing) (sch sch' : sched) (q : MSMEG1 E) (p : CProof E) (crs : CRS E) pf pf' a1 a2 t1 t2, bilinear E -> nondegenerate E -> cyclic (G2 E) -> valid_sched sch -> valid_sched sch' ->
  binding_crs_with crs a1 a2 t1 t2 -> proper_crs crs -> equ_proofs p = [:: pf] -> ms1_verify sch q p crs = Ok true ->
  equ_type pf' = MultiScalarG1 -> size (pi pf') = 2%N -> (0 < size (theta pf'))%N ->
  answers (ms1_verify sch' q (mkCProof (xcoms p) (ycoms p) [:: pf']) crs)
    (exists k, nth 0 (pi pf') 0 + t1 *: nth 0 (pi pf') 1 = nth 0 (pi pf) 0 + t1 *: nth 0 (pi pf) 1 + k *: v1 crs /\ nth 0 (theta pf') 0 = nth 0 (theta pf) 0 - k *: u1 crs).
Proof.
move=> E sch sch' q p crs pf pf' a1 a2 t1 t2 hb hn hc2 vs vs' bk hp ep hv ety s1 s2.
have [eu ev] : size (crs_u crs) = 2%N /\ size (crs_v crs) = 2%N by case: bk => -> ->.
apply: (@ms1_step _ _ sch' _ _ _ _ q (mkCProof (xcoms p) (ycoms p) [:: pf']) crs pf' _ hb vs vs' ep hv) => //.
  by case=> hty hs hg hl; split=> //=; rewrite ?s1 ?s2 ?eu ?ev.
by move=> _; rewrite /ms1_gap /= ?eu ?ev; exact: (still21 hb hn bk hp hc2).
Qed.

Lemma ms1_second (E : pairing) (sch : sched) (q : MSMEG1 E) (X : seq (G1 E)) (Y : seq (Fr E)) (cx : Commit1 E) (cy : Commit2 E) (crs : CRS E) :
  valid_sched sch -> binding_crs crs -> exists c, forall (R : rng E) (s : rst R) pf s', ms1_prove sch q X Y cx cy crs s = Ok (pf, s') ->
  exists w, nth 0 (pi pf) 1 = c + w *: v1 crs.
Proof.
move=> vs [a1 [a2 [t1 [t2 [eu ev _]]]]]; eexists => R s pf s'; rewrite FormulaProps.ms1_prove_total //.
have v2E : v2 crs = t2 *: v1 crs by rewrite ev.
rewrite /checked; case: first_failed => // -[<- _]; rewrite /prove_value /= ?big_ord_recl ?big_ord0 /= ?addr0 ?v2E ?scalerA -?scalerDl.
by eexists; congr (_ + _).
Qed.

Lemma k_C96_ms1_outputs_refuted : forall (E : pairing) (sch sch' : sched) (q : MSMEG1 E) (X : seq (G1 E)) (Y : seq (Fr E)) (cx : Commit1 E) (cy : Commit2 E) (crs : CRS E),
  bilinear E -> nondegenerate E -> cyclic (G2 E) -> valid_sched sch -> valid_sched sch' -> binding_crs crs -> proper_crs crs ->
  made_G1 crs X cx -> made_B2 crs Y cy -> (0 < size X)%N -> (0 < size Y)%N -> ms1_wf q (size X) (size Y) -> ms1_holds q X Y ->
  exists pf, [/\ equ_type pf = MultiScalarG1, size (pi pf) = 2%N, size (theta pf) = 1%N, ms1_verify sch' q (mkCProof cx cy [:: pf]) crs = Ok true &
    forall t : 2.-tuple (Fr E), ~ yields (fun R s => ms1_prove (R := R) sch q X Y cx cy crs s) pf t].
Proof.
move=> E sch sch' q X Y cx cy crs hb hn hc2 vs vs' hk hp mx my hX hY wf hold.
have tk := binding_two_keys hk.
have /isokP[[pf0 s'] e0] := Main.ms1_prove_total vs ([::] : rst (@tape_rng E)) hX hY wf tk mx my.
have h0 : ms1_verify sch' q (mkCProof cx cy [:: pf0]) crs = Ok true.
  exact: (ms1_ok vs hb vs' mx my e0 hold).
have [e1 [e2 e3]] := ms1_prove_sizes vs e0.
have [c hc] := ms1_second q X Y cx cy vs hk; have [w hw] := hc _ _ _ _ e0.
have p2 : (0 < size (pi pf0))%N by rewrite e2.
have p3 : (0 < size (theta pf0))%N by rewrite e3.
case: (hk) => a1 [a2 [t1 [t2 bk]]].
pose pf := (mkEquProof [:: nth 0 (pi pf0) 0 - t1 *: (0, g2_gen crs); nth 0 (pi pf0) 1 + (0, g2_gen crs)] (theta pf0) MultiScalarG1 [::]).
exists pf; split=> //.
  have [b -> [_ h]] := @k_C96_ms1 E sch' sch' q (mkCProof cx cy [:: pf0]) crs pf0 pf a1 a2 t1 t2 hb hn hc2 vs' vs' bk hp erefl h0 erefl erefl p3.
  congr Ok; apply: h; exists 0; rewrite /pf /= !scale0r !addr0 ?subr0; split=> //.
  by rewrite scalerDr addrACA addNr addr0.
move=> t /(_ _ _ (draws_tape t)).
have /isokP[[pf1 s1] e4] := Main.ms1_prove_total vs (tval t : rst (@tape_rng E)) hX hY wf tk mx my.
have [w' hw'] := hc _ _ _ _ e4.
rewrite e4 => e7; have ep := congr1 fst (Ok_inj e7); rewrite [LHS]/= [RHS]/= in ep; move: hw'; rewrite ep /= hw -addrA => /addrI /esym h.
have {}h : (0, g2_gen crs) = (w' - w) *: v1 crs by rewrite scalerBl h addrC addKr.
case: bk h => eu ev _; rewrite ?eu ?ev /= => h; have /esym/eqP := congr1 fst h; have /eqP := congr1 snd h.
case: hp => g1 g2; rewrite /= scaler_eq0 ?(negbTE g1) ?(negbTE g2) orbF => e5 /eqP e6.
by move: e5; rewrite e6 scale0r ?(negbTE g1) ?(negbTE g2).
Qed.

Lemma k_C96_ms2 : forall (E : pairing) (sch sch' : sched) (q : MSMEG2 E) (p : CProof E) (crs : CRS E) pf pf' a1 a2 t1 t2, bilinear E -> nondegenerate E -> cyclic (G2 E) -> valid_sched sch -> valid_sched sch' ->
  binding_crs_with crs a1 a2 t1 t2 -> proper_crs crs -> equ_proofs p = [:: pf] -> ms2_verify sch q p crs = Ok true ->
  equ_type pf' = MultiScalarG2 -> (0 < size (pi pf'))%N -> size (theta pf') = 2%N ->
  answers (ms2_verify sch' q (mkCProof (xcoms p) (ycoms p) [:: pf']) crs)
    (exists k, nth 0 (pi pf') 0 = nth 0 (pi pf) 0 + k *: v1 crs /\ nth 0 (theta pf') 0 + t2 *: nth 0 (theta pf') 1 = nth 0 (theta pf) 0 + t2 *: nth 0 (theta pf) 1 - k *: u1 crs).
Proof.
move=> E sch sch' q p crs pf pf' a1 a2 t1 t2 hb hn hc2 vs vs' bk hp ep hv ety s1 s2.
have [eu ev] : size (crs_u crs) = 2%N /\ size (crs_v crs) = 2%N by case: bk => -> ->.
apply: (@ms2_step _ _ sch' _ _ _ _ q (mkCProof (xcoms p) (ycoms p) [:: pf']) crs pf' _ hb vs vs' ep hv) => //.
  by case=> hty hs hg hl; split=> //=; rewrite ?s1 ?s2 ?eu ?ev.
by move=> _; rewrite /ms2_gap /= ?eu ?ev; exact: (still12 hb hn bk hp hc2).
Qed.

Lemma ms2_second (E : pairing) (sch : sched) (q : MSMEG2 E) (X : seq (Fr E)) (Y : seq (G2 E)) (cx : Commit1 E) (cy : Commit2 E) (crs : CRS E) :
  valid_sched sch -> binding_crs crs -> exists c, forall (R : rng E) (s : rst R) pf s', ms2_prove sch q X Y cx cy crs s = Ok (pf, s') ->
  exists w, nth 0 (theta pf) 1 = c + w *: u1 crs.
Proof.
move=> vs [a1 [a2 [t1 [t2 [eu ev _]]]]]; eexists => R s pf s'; rewrite FormulaProps.ms2_prove_total //.
have u2E : u2 crs = t1 *: u1 crs by rewrite eu.
rewrite /checked; case: first_failed => // -[<- _]; rewrite /prove_value /= ?big_ord_recl ?big_ord0 /= ?addr0 ?u2E ?scalerA -?scalerDl.
by eexists; congr (_ + _).
Qed.

Lemma k_C96_ms2_outputs_refuted : forall (E : pairing) (sch sch' : sched) (q : MSMEG2 E) (X : seq (Fr E)) (Y : seq (G2 E)) (cx : Commit1 E) (cy : Commit2 E) (crs : CRS E),
  bilinear E -> nondegenerate E -> cyclic (G2 E) -> valid_sched sch -> valid_sched sch' -> binding_crs crs -> proper_crs crs ->
  made_B1 crs X cx -> made_G2 crs Y cy -> (0 < size X)%N -> (0 < size Y)%N -> ms2_wf q (size X) (size Y) -> ms2_holds q X Y ->
  exists pf, [/\ equ_type pf = MultiScalarG2, size (pi pf) = 1%N, size (theta pf) = 2%N, ms2_verify sch' q (mkCProof cx cy [:: pf]) crs = Ok true &
    forall t : 2.-tuple (Fr E), ~ yields (fun R s => ms2_prove (R := R) sch q X Y cx cy crs s) pf t].
Proof.
move=> E sch sch' q X Y cx cy crs hb hn hc2 vs vs' hk hp mx my hX hY wf hold.
have tk := binding_two_keys hk.
have /isokP[[pf0 s'] e0] := Main.ms2_prove_total vs ([::] : rst (@tape_rng E)) hX hY wf tk mx my.
have h0 : ms2_verify sch' q (mkCProof cx cy [:: pf0]) crs = Ok true.
  exact: (ms2_ok vs hb vs' mx my e0 hold).
have [e1 [e2 e3]] := ms2_prove_sizes vs e0.
have [c hc] := ms2_second q X Y cx cy vs hk; have [w hw] := hc _ _ _ _ e0.
have p2 : (0 < size (pi pf0))%N by rewrite e2.
have p3 : (0 < size (theta pf0))%N by rewrite e3.
case: (hk) => a1 [a2 [t1 [t2 bk]]].
pose pf := (mkEquProof (pi pf0) [:: nth 0 (theta pf0) 0 - t2 *: (0, g1_gen crs); nth 0 (theta pf0) 1 + (0, g1_gen crs)] MultiScalarG2 [::]).
exists pf; split=> //.
  have [b -> [_ h]] := @k_C96_ms2 E sch' sch' q (mkCProof cx cy [:: pf0]) crs pf0 pf a1 a2 t1 t2 hb hn hc2 vs' vs' bk hp erefl h0 erefl p2 erefl.
  congr Ok; apply: h; exists 0; rewrite /pf /= !scale0r !addr0 ?subr0; split=> //.
  by rewrite scalerDr addrACA addNr addr0.
move=> t /(_ _ _ (draws_tape t)).
have /isokP[[pf1 s1] e4] := Main.ms2_prove_total vs (tval t : rst (@tape_rng E)) hX hY wf tk mx my.
have [w' hw'] := hc _ _ _ _ e4.
rewrite e4 => e7; have ep := congr1 snd (Ok_inj e7); rewrite [LHS]/= [RHS]/= in ep; move: hw'; rewrite ep /= hw -addrA => /addrI /esym h.
have {}h : (0, g1_gen crs) = (w' - w) *: u1 crs by rewrite scalerBl h addrC addKr.
case: bk h => eu ev _; rewrite ?eu ?ev /= => h; have /esym/eqP := congr1 fst h; have /eqP := congr1 snd h.
case: hp => g1 g2; rewrite /= scaler_eq0 ?(negbTE g1) ?(negbTE g2) orbF => e5 /eqP e6.
by move: e5; rewrite e6 scale0r ?(negbTE g1) ?(negbTE g2).
Qed.

Lemma k_C96_quad : forall (E : pairing) (sch sch' : sched) (q : QuadEqu E) (p : CProof E) (crs : CRS E) pf pf' a1 a2 t1 t2, bilinear E -> nondegenerate E -> cyclic (G2 E) -> valid_sched sch -> valid_sched sch' ->
  binding_crs_with crs a1 a2 t1 t2 -> proper_crs crs -> equ_proofs p = [:: pf] -> quad_verify sch q p crs = Ok true ->
  equ_type pf' = Quadratic -> (0 < size (pi pf'))%N -> (0 < size (theta pf'))%N ->
  answers (quad_verify sch' q (mkCProof (xcoms p) (ycoms p) [:: pf']) crs)
    (exists k, nth 0 (pi pf') 0 = nth 0 (pi pf) 0 + k *: v1 crs /\ nth 0 (theta pf') 0 = nth 0 (theta pf) 0 - k *: u1 crs).
Proof.
move=> E sch sch' q p crs pf pf' a1 a2 t1 t2 hb hn hc2 vs vs' bk hp ep hv ety s1 s2.
have [eu ev] : size (crs_u crs) = 2%N /\ size (crs_v crs) = 2%N by case: bk => -> ->.
apply: (@quad_step _ _ sch' _ _ _ _ q (mkCProof (xcoms p) (ycoms p) [:: pf']) crs pf' _ hb vs vs' ep hv) => //.
  by case=> hty hs hg hl; split=> //=; rewrite ?s1 ?s2 ?eu ?ev.
by move=> _; rewrite /quad_gap /= ?eu ?ev; exact: (still11 hb hn bk hp hc2).
Qed.
