(** Tests from a map between the groups: proofs. *)
From mathcomp Require Import all_ssreflect all_algebra.
From Verif Require Import Base BaseLemmas Group DataStructures MatLemmas CoreAlg ComLemmas.
From Verif Require Import Generator Commit Statement Prove Verify Spec SpecMat SpecVerify SpecPanic SpecFormula SpecApi SpecTrap SpecHide SpecSxdh SpecType3 ProveLemmas CommitLemmas.
From Verif Require Import VerifyLemmas Holds Complete Sound Main CapLemmas Extract SoundGen FormulaProps MultiProps VProps TrapLemmas Sxdh ErrorLemmas.
Set Implicit Arguments.
Unset Strict Implicit.
Unset Printing Implicit Defensive.
Import Order.Theory GRing.Theory Num.Theory.
Local Open Scope ring_scope.

Lemma embedding0 (F : fieldType) (A B : lmodType F) (phi : A -> B) : embedding phi -> forall x, (phi x == 0) = (x == 0).
Proof.
case=> _ hs hi x; have h0 : phi 0 = 0 by rewrite -(scale0r (0 : A)) hs scale0r.
by apply/eqP/eqP => [|->//]; rewrite -{1}h0 => /hi.
Qed.

Section Opens.
Context {E : pairing}.
Hypothesis hb : bilinear E.
Hypothesis hn : nondegenerate E.
Variables (crs : CRS E) (a1 a2 : Fr E).
Hypothesis sk : secret_keys crs a1 a2.

Lemma nd0 (x : G1 E) (y : G2 E) : (pair_e x y == 0) = (x == 0) || (y == 0).
Proof.
have [_ _ h1 h2] := hb; apply/eqP/orP => [/hn[->|->]|[/eqP->|/eqP->]]; rewrite ?eqxx; [by left|by right| |].
  by rewrite -(scale0r (0 : G1 E)) h1 scale0r.
by rewrite -(scale0r (0 : G2 E)) h2 scale0r.
Qed.
Lemma pairBl (x x' : G1 E) (y : G2 E) : pair_e (x - x') y = pair_e x y - pair_e x' y.
Proof. by have [h _ k _] := hb; rewrite h -scaleN1r k scaleN1r. Qed.
Lemma pairBr (x : G1 E) (y y' : G2 E) : pair_e x (y - y') = pair_e x y - pair_e x y'.
Proof. by have [_ h _ k] := hb; rewrite h -scaleN1r k scaleN1r. Qed.

Lemma open1E phi (c : Com1 E) x : embedding phi -> (u1 crs).1 = g1_gen crs ->
  (pair_e c.1 (phi (u1 crs).2) == pair_e (c.2 - x) (phi (u1 crs).1)) = (decrypt a1 c == x) || (g1_gen crs == 0).
Proof.
move=> em eu; have [hs _] := sk; have [_ hz _] := em; have [_ _ k1 k2] := hb; rewrite hs eu hz k2 -k1 -subr_eq0 -pairBl nd0 (embedding0 em); congr (_ || _).
by rewrite subr_eq0 /decrypt [LHS]eq_sym !subr_eq [x + _]addrC.
Qed.
Lemma open2E psi (c : Com2 E) y : embedding psi -> (v1 crs).1 = g2_gen crs ->
  (pair_e (psi (v1 crs).2) c.1 == pair_e (psi (v1 crs).1) (c.2 - y)) = (decrypt a2 c == y) || (g2_gen crs == 0).
Proof.
move=> em eu; have [_ hs] := sk; have [_ hz _] := em; have [_ _ k1 k2] := hb; rewrite hs eu hz k1 -k2 -subr_eq0 -pairBr nd0 (embedding0 em) orbC; congr (_ || _).
by rewrite subr_eq0 /decrypt [LHS]eq_sym !subr_eq [y + _]addrC.
Qed.

Lemma opens1E phi cs X : embedding phi -> (u1 crs).1 = g1_gen crs -> size cs = size X ->
  opens1 phi crs cs X = (map (decrypt a1) cs == X) || (g1_gen crs == 0).
Proof.
move=> em eu es; rewrite /opens1 es eqxx /=; have [z|z] := boolP (g1_gen crs == 0).
  by rewrite orbT; apply/allP => i _; rewrite open1E // z orbT.
rewrite orbF; apply/allP/eqP => [h|<- i].
  apply: (@eq_from_nth _ 0); rewrite size_map // => i hi; have := h i; rewrite mem_iota add0n -es hi => /(_ isT).
  by rewrite open1E // (negbTE z) orbF (nth_map 0) // => /eqP.
by rewrite mem_iota add0n size_map => /= hi; rewrite open1E // (nth_map 0) // ?eqxx // -es.
Qed.
Lemma opens2E psi cs Y : embedding psi -> (v1 crs).1 = g2_gen crs -> size cs = size Y ->
  opens2 psi crs cs Y = (map (decrypt a2) cs == Y) || (g2_gen crs == 0).
Proof.
move=> em eu es; rewrite /opens2 es eqxx /=; have [z|z] := boolP (g2_gen crs == 0).
  by rewrite orbT; apply/allP => i _; rewrite open2E // z orbT.
rewrite orbF; apply/allP/eqP => [h|<- i].
  apply: (@eq_from_nth _ 0); rewrite size_map // => i hi; have := h i; rewrite mem_iota add0n -es hi => /(_ isT).
  by rewrite open2E // (negbTE z) orbF (nth_map 0) // => /eqP.
by rewrite mem_iota add0n size_map => /= hi; rewrite open2E // (nth_map 0) // ?eqxx // -es.
Qed.
End Opens.

Lemma gen_first (E : pairing) (R : rng E) (s s' : rst R) (crs : CRS E) : generate_crs s = (crs, s') -> (u1 crs).1 = g1_gen crs /\ (v1 crs).1 = g2_gen crs.
Proof.
rewrite /generate_crs; case: (rand_g1 s) => p1 s1; case: (rand_g2 s1) => p2 s2; case: (rand_fr s2) => a1 s3.
by case: (rand_fr s3) => a2 s4; case: (rand_fr s4) => t1 s5; case: (rand_fr s5) => t2 s6 [<- _].
Qed.

Lemma Pr_and (X Y : finType) (f : pred X) (g : pred Y) : Pr (fun x : X * Y => f x.1 && g x.2) = Pr f * Pr g.
Proof.
rewrite /Pr card_prod natrM mulf_div; congr (_ / _); rewrite -natrM -cardsX; congr (_%:R).
by apply: eq_card => -[x y]; rewrite !inE.
Qed.
Lemma Pr_not (X : finType) (f : pred X) : (0 < #|X|)%N -> Pr (fun x => ~~ f x) = 1 - Pr f.
Proof.
move=> h; have n : (#|X|%:R : rat) != 0 by rewrite pnatr_eq0 -lt0n.
apply/eqP; rewrite eq_sym subr_eq; apply/eqP; rewrite /Pr -mulrDl -natrD !card_pred -big_split /=.
rewrite (eq_bigr (fun => 1%N)) => [|x _]; last by case: (f x).
by rewrite sum1_card divff.
Qed.
Lemma Pr_or (X Y : finType) (f : pred X) (g : pred Y) : (0 < #|X|)%N -> (0 < #|Y|)%N ->
  Pr (fun x : X * Y => f x.1 || g x.2) = 1 - (1 - Pr f) * (1 - Pr g).
Proof.
move=> hx hy; have hp : (0 < #|[finType of X * Y]|)%N by rewrite card_prod muln_gt0 hx.
have -> : Pr (fun x : X * Y => f x.1 || g x.2) = Pr (fun x : X * Y => ~~ (~~ f x.1 && ~~ g x.2)) by apply: eq_Pr => x; rewrite negb_and !negbK.
by rewrite Pr_not // (Pr_and (fun x => ~~ f x) (fun y => ~~ g y)) !Pr_not.
Qed.
Lemma Pr_le1 (X : finType) (f : pred X) : Pr f <= 1.
Proof.
rewrite /Pr; have [->|n] := eqVneq #|X| 0%N; first by rewrite invr0 mulr0.
by rewrite ler_pdivr_mulr ?ltr0n ?lt0n // mul1r ler_nat max_card.
Qed.

Section Ddh.
Context {F : finFieldType} {G : lmodType F} {O : finType} (s : O -> G) (D : unit -> G -> G -> G -> G -> bool).
Hypothesis no : (0 < #|O|)%N.
Hypothesis hD : forall P a t z, D tt P (a *: P) (t *: P) (z *: P) = (P == 0) || (z == a * t).
Lemma ddh_adv_test : ddh_adv s D = (1 - Pr (fun o => s o == 0)) * (1 - (#|F|)%:R^-1).
Proof.
have nF : (0 < #|F|)%N by apply/card_gt0P; exists 0.
rewrite /ddh_adv (_ : ddh_real s D = 1); last first.
  apply: Pr_all; first by move=> [[] [[o a] t]]; rewrite hD eqxx orbT.
  by rewrite !card_prod card_unit mul1n -lt0n !muln_gt0 no nF.
have b : bijective (fun x : unit * (O * F * F * F) => ((tt, x.2.1.1.2, x.2.1.2), (x.2.1.1.1, x.2.2 - x.2.1.1.2 * x.2.1.2))).
  exists (fun y : (unit * F * F) * (O * F) => (tt, (y.2.1, y.1.1.2, y.1.2, y.2.2 + y.1.1.2 * y.1.2))).
    by move=> [[] [[[o a] t] r]] /=; rewrite subrK.
  by move=> [[[[] a] t] [o r]] /=; rewrite addrK.
rewrite (_ : ddh_random s D = 1 - (1 - Pr (fun o => s o == 0)) * (1 - (#|F|)%:R^-1)).
  rewrite opprB addrC subrK ger0_norm // mulr_ge0 // subr_ge0 ?Pr_le1 //.
  by rewrite invf_le1 ?ltr0n // ler1n.
rewrite -[(#|F|)%:R^-1](Pr_bij_zero (s := fun x : F => x) (z := 0)) //; last by exists 0.
rewrite -(Pr_or (fun o => s o == 0) (fun x : F => x == 0)) //.
rewrite -(@Pr_snd_eq [finType of unit * F * F] _ (fun x : O * F => (s x.1 == 0) || (x.2 == 0))) ?card_prod ?card_unit ?mul1n ?muln_gt0 ?nF //.
by apply: (Pr_bij b) => -[[] [[[o a] t] r]] /=; rewrite hD subr_eq0.
Qed.
End Ddh.

Section Adv.
Context {F : finFieldType} {A B C : lmodType F} {e : A -> B -> C}.
Local Notation E := (Pairing e).
Context {O1 O2 W : finType} (s1 : O1 -> A) (s2 : O2 -> B).
Hypotheses (n1 : (0 < #|O1|)%N) (n2 : (0 < #|O2|)%N) (nW : (0 < #|W|)%N).
Lemma game_1 (D : W -> pred (CRS E)) mk : (forall w p1 p2 a1 a2 t1 t2, D w (mk p1 p2 a1 a2 t1 t2)) -> game s1 s2 mk D = 1.
Proof.
move=> h; apply: Pr_all; first by move=> [w [[o1 o2] [[[a1 a2] t1] t2]]]; apply: h.
by rewrite -lt0n card_prod card_prod card_prod !muln_gt0 nW n1 n2 F4_gt0.
Qed.
Lemma game_pt (D : W -> pred (CRS E)) mk (bad : pred (O1 * O2)) :
  (forall w o a1 a2 t1 t2, D w (mk (s1 o.1) (s2 o.2) a1 a2 t1 t2) = bad o) -> game s1 s2 mk D = Pr bad.
Proof.
move=> h; rewrite -(@Pr_fst_eq _ [finType of F * F * F * F] bad) ?F4_gt0 //.
rewrite -(@Pr_snd_eq W _ (fun x : (O1 * O2) * (F * F * F * F) => bad x.1)) //.
by apply: eq_Pr => -[w [[o1 o2] [[[a1 a2] t1] t2]]] /=; rewrite (h w (o1, o2)).
Qed.
Lemma adv_1 (D D' : W -> pred (CRS E)) mk mk' : (forall w p1 p2 a1 a2 t1 t2, D w (mk p1 p2 a1 a2 t1 t2)) ->
  (forall w p1 p2 a1 a2 t1 t2, D' w (mk' p1 p2 a1 a2 t1 t2) = (p1 == 0)) ->
  `|game s1 s2 mk D - game s1 s2 mk' D'| = 1 - Pr (fun o => s1 o == 0).
Proof.
move=> h h'; rewrite game_1 // (@game_pt D' mk' (fun o => s1 o.1 == 0)) => [|w o a1 a2 t1 t2]; last exact: h'.
by rewrite (@Pr_fst_eq _ _ (fun o => s1 o == 0)) // ger0_norm // subr_ge0 Pr_le1.
Qed.
Lemma adv_2 (D D' : W -> pred (CRS E)) mk mk' : (forall w p1 p2 a1 a2 t1 t2, D w (mk p1 p2 a1 a2 t1 t2)) ->
  (forall w p1 p2 a1 a2 t1 t2, D' w (mk' p1 p2 a1 a2 t1 t2) = (p2 == 0)) ->
  `|game s1 s2 mk D - game s1 s2 mk' D'| = 1 - Pr (fun o => s2 o == 0).
Proof.
move=> h h'; rewrite game_1 // (@game_pt D' mk' (fun o => s2 o.2 == 0)) => [|w o a1 a2 t1 t2]; last exact: h'.
by rewrite (@Pr_snd_eq _ _ (fun o => s2 o == 0)) // ger0_norm // subr_ge0 Pr_le1.
Qed.
End Adv.

Lemma scaled_inj (F : fieldType) (A : lmodType F) (g : A) (X X' : seq F) : g != 0 -> ([seq x *: g | x <- X] == [seq x *: g | x <- X']) = (X == X').
Proof.
move=> h; apply/eqP/eqP => [|->//]; apply: inj_map => x y /eqP; rewrite -subr_eq0 -scalerBl scaler_eq0 (negbTE h) orbF subr_eq0.
by move/eqP.
Qed.

Lemma t3_C77_opens_G1 : forall (E : pairing) (R R' : rng E) (s s' : rst R) (z z' : rst R') (crs : CRS E) (phi : G1 E -> G2 E) (X X' : seq (G1 E)) c,
  bilinear E -> nondegenerate E -> embedding phi -> generate_crs s = (crs, s') -> g1_gen crs != 0 ->
  batch_commit_G1 X crs z = Ok (c, z') -> opens1 phi crs (coms c) X' = (X == X').
Proof.
move=> E R R' s s' z z' crs phi X X' c hb hn em hg h0 hc.
have hk := trap_C75_keys hg; have [e1 e2] := gen_first hg.
have [_ hd] := trap_C75_decrypt_G1 z z' hg hk; have d := hd _ _ hc.
have [es|es] := eqVneq (size (coms c)) (size X'); first by rewrite (opens1E hb hn hk) // d (negbTE h0) orbF.
rewrite /opens1 (negbTE es) /=; apply/esym/negbTE; apply: contra es => /eqP <-; by rewrite -d size_map.
Qed.

Lemma t3_C77_opens_G2 : forall (E : pairing) (R R' : rng E) (s s' : rst R) (z z' : rst R') (crs : CRS E) (psi : G2 E -> G1 E) (X X' : seq (G2 E)) c,
  bilinear E -> nondegenerate E -> embedding psi -> generate_crs s = (crs, s') -> g2_gen crs != 0 ->
  batch_commit_G2 X crs z = Ok (c, z') -> opens2 psi crs (coms c) X' = (X == X').
Proof.
move=> E R R' s s' z z' crs psi X X' c hb hn em hg h0 hc.
have hk := trap_C75_keys hg; have [e1 e2] := gen_first hg.
have [_ hd] := trap_C75_decrypt_G2 z z' hg hk; have d := hd _ _ hc.
have [es|es] := eqVneq (size (coms c)) (size X'); first by rewrite (opens2E hb hn hk) // d (negbTE h0) orbF.
rewrite /opens2 (negbTE es) /=; apply/esym/negbTE; apply: contra es => /eqP <-; by rewrite -d size_map.
Qed.

Lemma t3_C77_opens_B1 : forall (E : pairing) (R R' : rng E) (s s' : rst R) (z z' : rst R') (crs : CRS E) (phi : G1 E -> G2 E) (X X' : seq (Fr E)) c,
  bilinear E -> nondegenerate E -> embedding phi -> generate_crs s = (crs, s') -> g1_gen crs != 0 ->
  batch_commit_scalar_to_B1 X crs z = Ok (c, z') -> opens1 phi crs (coms c) [seq x *: g1_gen crs | x <- X'] = (X == X').
Proof.
move=> E R R' s s' z z' crs phi X X' c hb hn em hg h0 hc.
have hk := trap_C75_keys hg; have [e1 e2] := gen_first hg.
have [_ hd] := trap_C75_decrypt_B1 z z' hg hk; have d := hd _ _ hc; rewrite -(scaled_inj X X' h0).
have [es|es] := eqVneq (size (coms c)) (size [seq x *: g1_gen crs | x <- X']); first by rewrite (opens1E hb hn hk) // d (negbTE h0) orbF.
rewrite /opens1 (negbTE es) /=; apply/esym/negbTE; apply: contra es => /eqP <-; by rewrite -d size_map.
Qed.

Lemma t3_C77_opens_B2 : forall (E : pairing) (R R' : rng E) (s s' : rst R) (z z' : rst R') (crs : CRS E) (psi : G2 E -> G1 E) (X X' : seq (Fr E)) c,
  bilinear E -> nondegenerate E -> embedding psi -> generate_crs s = (crs, s') -> g2_gen crs != 0 ->
  batch_commit_scalar_to_B2 X crs z = Ok (c, z') -> opens2 psi crs (coms c) [seq x *: g2_gen crs | x <- X'] = (X == X').
Proof.
move=> E R R' s s' z z' crs psi X X' c hb hn em hg h0 hc.
have hk := trap_C75_keys hg; have [e1 e2] := gen_first hg.
have [_ hd] := trap_C75_decrypt_B2 z z' hg hk; have d := hd _ _ hc; rewrite -(scaled_inj X X' h0).
have [es|es] := eqVneq (size (coms c)) (size [seq x *: g2_gen crs | x <- X']); first by rewrite (opens2E hb hn hk) // d (negbTE h0) orbF.
rewrite /opens2 (negbTE es) /=; apply/esym/negbTE; apply: contra es => /eqP <-; by rewrite -d size_map.
Qed.

Lemma t3_C77_keys_1 : forall (F : finFieldType) (A B C : lmodType F) (e : A -> B -> C), let E := Pairing e in
  forall (O1 O2 : finType) (s1 : O1 -> A) (s2 : O2 -> B) (phi : A -> B),
  bilinear E -> nondegenerate E -> embedding phi -> (0 < #|O1|)%N -> (0 < #|O2|)%N ->
  key_adv s1 s2 (fun (_ : unit) crs => key_test1 (E := E) phi crs) = 1 - Pr (fun o => s1 o == 0).
Proof.
move=> F A B C e E O1 O2 s1 s2 phi hb hn em n1 n2.
have one a p : size [:: a] = size [:: p] by [].
apply: adv_1 => // [|w p1 p2 a1 a2 t1 t2|w p1 p2 a1 a2 t1 t2]; first by rewrite card_unit.
  rewrite real_crsE /key_test1 (@opens1E E hb hn _ a1 a2) //; apply/orP; left; apply/eqP; congr [:: _].
  by rewrite /decrypt /= !scalerA [a1 * _]mulrC subrr.
rewrite sim_crsE /key_test1 (@opens1E E hb hn _ a1 a2) //= eqseq_cons eqxx andbT /decrypt /= !scalerA [a1 * _]mulrC addrAC subrr add0r.
by rewrite oppr_eq0 orbb.
Qed.

Lemma t3_C77_keys_2 : forall (F : finFieldType) (A B C : lmodType F) (e : A -> B -> C), let E := Pairing e in
  forall (O1 O2 : finType) (s1 : O1 -> A) (s2 : O2 -> B) (psi : B -> A),
  bilinear E -> nondegenerate E -> embedding psi -> (0 < #|O1|)%N -> (0 < #|O2|)%N ->
  key_adv s1 s2 (fun (_ : unit) crs => key_test2 (E := E) psi crs) = 1 - Pr (fun o => s2 o == 0).
Proof.
move=> F A B C e E O1 O2 s1 s2 psi hb hn em n1 n2.
have one a p : size [:: a] = size [:: p] by [].
apply: adv_2 => // [|w p1 p2 a1 a2 t1 t2|w p1 p2 a1 a2 t1 t2]; first by rewrite card_unit.
  rewrite real_crsE /key_test2 (@opens2E E hb hn _ a1 a2) //; apply/orP; left; apply/eqP; congr [:: _].
  by rewrite /decrypt /= !scalerA [a2 * _]mulrC subrr.
rewrite sim_crsE /key_test2 (@opens2E E hb hn _ a1 a2) //= eqseq_cons eqxx andbT /decrypt /= !scalerA [a2 * _]mulrC addrAC subrr add0r.
by rewrite oppr_eq0 orbb.
Qed.

Lemma t3_C77_ddh_1 : forall (F : finFieldType) (A B C : lmodType F) (e : A -> B -> C) (O : finType) (s : O -> A) (phi : A -> B),
  bilinear (Pairing e) -> nondegenerate (Pairing e) -> embedding phi -> (0 < #|O|)%N ->
  ddh_adv s (fun (_ : unit) P Q T Z => e T (phi Q) == e Z (phi P)) = (1 - Pr (fun o => s o == 0)) * (1 - (#|F|)%:R^-1).
Proof.
move=> F A B C e O s phi hb hn em no; apply: ddh_adv_test => // P a t z.
have [_ hz _] := em; have [_ _ k1 k2] := hb.
have l k x y : e (k *: x) y = k *: e x y := k1 k x y; have r k x y : e x (k *: y) = k *: e x y := k2 k x y.
rewrite hz !l !r scalerA -subr_eq0 -scalerBl scaler_eq0 subr_eq0.
have -> : (e P (phi P) == 0) = (P == 0) by rewrite (@nd0 (Pairing e) hb hn) (embedding0 em) orbb.
rewrite orbC [t * a]mulrC; congr (_ || _); exact: eq_sym.
Qed.

Lemma t3_C77_ddh_2 : forall (F : finFieldType) (A B C : lmodType F) (e : A -> B -> C) (O : finType) (s : O -> B) (psi : B -> A),
  bilinear (Pairing e) -> nondegenerate (Pairing e) -> embedding psi -> (0 < #|O|)%N ->
  ddh_adv s (fun (_ : unit) P Q T Z => e (psi Q) T == e (psi P) Z) = (1 - Pr (fun o => s o == 0)) * (1 - (#|F|)%:R^-1).
Proof.
move=> F A B C e O s psi hb hn em no; apply: ddh_adv_test => // P a t z.
have [_ hz _] := em; have [_ _ k1 k2] := hb.
have l k x y : e (k *: x) y = k *: e x y := k1 k x y; have r k x y : e x (k *: y) = k *: e x y := k2 k x y.
rewrite hz !l !r scalerA -subr_eq0 -scalerBl scaler_eq0 subr_eq0.
have -> : (e (psi P) P == 0) = (P == 0) by rewrite (@nd0 (Pairing e) hb hn) (embedding0 em) orbb.
rewrite orbC; congr (_ || _); exact: eq_sym.
Qed.

Lemma t3_C77_ppe_X : forall (F : finFieldType) (A B C : lmodType F) (e : A -> B -> C), let E := Pairing e in
  forall (O1 O2 W : finType) (s1 : O1 -> A) (s2 : O2 -> B) (phi : A -> B) (sch sch' : sched) (m n : nat)
  (q : W -> CRS E -> PPE E) (X X' : W -> CRS E -> seq A) (Y Y' : W -> CRS E -> seq B),
  bilinear E -> nondegenerate E -> embedding phi -> valid_sched sch -> valid_sched sch' -> (0 < #|O1|)%N -> (0 < #|O2|)%N -> (0 < #|W|)%N ->
  (0 < m)%N -> (0 < n)%N ->
  (forall w crs, [/\ size (X w crs) = m, size (Y w crs) = n, size (X' w crs) = m & size (Y' w crs) = n]) ->
  (forall w crs, ppe_wf (q w crs) m n) -> (forall w crs, X w crs <> X' w crs) ->
  let D w crs r := if r is Ok v then opens1 (E := E) phi crs v.1.1 (X w crs) else false in
  let B1 := proof_test (N := (2 * m + (2 * n + 4))%N) D public (fun w crs R s => ppe_commit_and_prove (R := R) sch (q w crs) (X w crs) (Y w crs) crs s) in
  let B2 := proof_test (N := (2 * m + (2 * n + 4))%N) D public (fun w crs R s => ppe_commit_and_prove (R := R) sch' (q w crs) (X' w crs) (Y' w crs) crs s) in
  `|game s1 s2 real_crs B1 - game s1 s2 real_crs B2| = 1 - Pr (fun o => s1 o == 0).
Proof.
move=> F A B C e E O1 O2 W s1 s2 phi sch sch' m n q X X' Y Y' hb hn em vs vs' n1 n2 nW hm hn' hs wf ne D B1 B2.
have key sch0 w crs (R : rng E) (s : rst R) X0 Y0 (r : rng E) (z z' : rst r) : valid_sched sch0 -> size X0 = m -> size Y0 = n -> generate_crs z = (crs, z') ->
  D w crs (seen public (ppe_commit_and_prove sch0 (q w crs) X0 Y0 crs s)) = (X0 == X w crs) || (g1_gen crs == 0).
  move=> vs0 ex ey hg; have [a1 [a2 [t1 [t2 bw]]]] : exists a1 a2 t1 t2, binding_crs_with crs a1 a2 t1 t2.
    by have [t1 [t2 bw]] := gen_keys hg (trap_C75_keys hg); eauto.
  have [p [s' hp]] : exists p s', ppe_commit_and_prove sch0 (q w crs) X0 Y0 crs s = Ok (p, s').
    by apply: (proj2 (CapLemmas.ppe_cap_total vs0 _ _ _ _ _)); rewrite ex ey; have [hu hv _] := bw; rewrite hu hv; split.
  rewrite hp; have [i1 [i2 [pf [hx hy _ _]]]] := (proj1 (CapLemmas.ppe_cap_steps _ _ _ _ _ _ _ _)) hp; rewrite /D /seen /public /=.
  have hk := trap_C75_keys hg; have [e1 e2] := gen_first hg.
  have [hX hY hX' hY'] := hs w crs.
  have [_ hd] := trap_C75_decrypt_G1 s i1 hg hk; have d := hd _ _ hx.
  have sz : size (coms (xcoms p)) = size (X w crs).
    by have := congr1 size d; rewrite !size_map hX ex.
  rewrite (opens1E hb hn hk em) // d.
  by [].
apply: adv_1 => //.
- by rewrite card_prod muln_gt0 nW; apply/card_gt0P; exists [tuple of nseq _ 0].
- move=> [w t] p1 p2 a1 a2 t1 t2; rewrite /B1 /proof_test /=; have [z' hz] := real_gen e p1 p2 a1 a2 t1 t2.
  by have [hX hY _ _] := hs w (real_crs p1 p2 a1 a2 t1 t2); rewrite (key _ _ _ _ _ _ _ _ _ _ vs hX hY hz) eqxx.
- move=> [w t] p1 p2 a1 a2 t1 t2; rewrite /B2 /proof_test /=; have [z' hz] := real_gen e p1 p2 a1 a2 t1 t2.
  have [_ _ hX hY] := hs w (real_crs p1 p2 a1 a2 t1 t2); rewrite (key _ _ _ _ _ _ _ _ _ _ vs' hX hY hz) real_g1.
  by have := ne w (real_crs p1 p2 a1 a2 t1 t2); case: eqP => [->|].
Qed.

Lemma t3_C77_ppe_Y : forall (F : finFieldType) (A B C : lmodType F) (e : A -> B -> C), let E := Pairing e in
  forall (O1 O2 W : finType) (s1 : O1 -> A) (s2 : O2 -> B) (psi : B -> A) (sch sch' : sched) (m n : nat)
  (q : W -> CRS E -> PPE E) (X X' : W -> CRS E -> seq A) (Y Y' : W -> CRS E -> seq B),
  bilinear E -> nondegenerate E -> embedding psi -> valid_sched sch -> valid_sched sch' -> (0 < #|O1|)%N -> (0 < #|O2|)%N -> (0 < #|W|)%N ->
  (0 < m)%N -> (0 < n)%N ->
  (forall w crs, [/\ size (X w crs) = m, size (Y w crs) = n, size (X' w crs) = m & size (Y' w crs) = n]) ->
  (forall w crs, ppe_wf (q w crs) m n) -> (forall w crs, Y w crs <> Y' w crs) ->
  let D w crs r := if r is Ok v then opens2 (E := E) psi crs v.1.2 (Y w crs) else false in
  let B1 := proof_test (N := (2 * m + (2 * n + 4))%N) D public (fun w crs R s => ppe_commit_and_prove (R := R) sch (q w crs) (X w crs) (Y w crs) crs s) in
  let B2 := proof_test (N := (2 * m + (2 * n + 4))%N) D public (fun w crs R s => ppe_commit_and_prove (R := R) sch' (q w crs) (X' w crs) (Y' w crs) crs s) in
  `|game s1 s2 real_crs B1 - game s1 s2 real_crs B2| = 1 - Pr (fun o => s2 o == 0).
Proof.
move=> F A B C e E O1 O2 W s1 s2 psi sch sch' m n q X X' Y Y' hb hn em vs vs' n1 n2 nW hm hn' hs wf ne D B1 B2.
have key sch0 w crs (R : rng E) (s : rst R) X0 Y0 (r : rng E) (z z' : rst r) : valid_sched sch0 -> size X0 = m -> size Y0 = n -> generate_crs z = (crs, z') ->
  D w crs (seen public (ppe_commit_and_prove sch0 (q w crs) X0 Y0 crs s)) = (Y0 == Y w crs) || (g2_gen crs == 0).
  move=> vs0 ex ey hg; have [a1 [a2 [t1 [t2 bw]]]] : exists a1 a2 t1 t2, binding_crs_with crs a1 a2 t1 t2.
    by have [t1 [t2 bw]] := gen_keys hg (trap_C75_keys hg); eauto.
  have [p [s' hp]] : exists p s', ppe_commit_and_prove sch0 (q w crs) X0 Y0 crs s = Ok (p, s').
    by apply: (proj2 (CapLemmas.ppe_cap_total vs0 _ _ _ _ _)); rewrite ex ey; have [hu hv _] := bw; rewrite hu hv; split.
  rewrite hp; have [i1 [i2 [pf [hx hy _ _]]]] := (proj1 (CapLemmas.ppe_cap_steps _ _ _ _ _ _ _ _)) hp; rewrite /D /seen /public /=.
  have hk := trap_C75_keys hg; have [e1 e2] := gen_first hg.
  have [hX hY hX' hY'] := hs w crs.
  have [_ hd] := trap_C75_decrypt_G2 i1 i2 hg hk; have d := hd _ _ hy.
  have sz : size (coms (ycoms p)) = size (Y w crs).
    by have := congr1 size d; rewrite !size_map hY ey.
  rewrite (opens2E hb hn hk em) // d.
  by [].
apply: adv_2 => //.
- by rewrite card_prod muln_gt0 nW; apply/card_gt0P; exists [tuple of nseq _ 0].
- move=> [w t] p1 p2 a1 a2 t1 t2; rewrite /B1 /proof_test /=; have [z' hz] := real_gen e p1 p2 a1 a2 t1 t2.
  by have [hX hY _ _] := hs w (real_crs p1 p2 a1 a2 t1 t2); rewrite (key _ _ _ _ _ _ _ _ _ _ vs hX hY hz) eqxx.
- move=> [w t] p1 p2 a1 a2 t1 t2; rewrite /B2 /proof_test /=; have [z' hz] := real_gen e p1 p2 a1 a2 t1 t2.
  have [_ _ hX hY] := hs w (real_crs p1 p2 a1 a2 t1 t2); rewrite (key _ _ _ _ _ _ _ _ _ _ vs' hX hY hz) real_g2.
  by have := ne w (real_crs p1 p2 a1 a2 t1 t2); case: eqP => [->|].
Qed.

Lemma t3_C77_ms1_X : forall (F : finFieldType) (A B C : lmodType F) (e : A -> B -> C), let E := Pairing e in
  forall (O1 O2 W : finType) (s1 : O1 -> A) (s2 : O2 -> B) (phi : A -> B) (sch sch' : sched) (m n : nat)
  (q : W -> CRS E -> MSMEG1 E) (X X' : W -> CRS E -> seq A) (Y Y' : W -> CRS E -> seq F),
  bilinear E -> nondegenerate E -> embedding phi -> valid_sched sch -> valid_sched sch' -> (0 < #|O1|)%N -> (0 < #|O2|)%N -> (0 < #|W|)%N ->
  (0 < m)%N -> (0 < n)%N ->
  (forall w crs, [/\ size (X w crs) = m, size (Y w crs) = n, size (X' w crs) = m & size (Y' w crs) = n]) ->
  (forall w crs, ms1_wf (q w crs) m n) -> (forall w crs, X w crs <> X' w crs) ->
  let D w crs r := if r is Ok v then opens1 (E := E) phi crs v.1.1 (X w crs) else false in
  let B1 := proof_test (N := (2 * m + (n + 2))%N) D public (fun w crs R s => ms1_commit_and_prove (R := R) sch (q w crs) (X w crs) (Y w crs) crs s) in
  let B2 := proof_test (N := (2 * m + (n + 2))%N) D public (fun w crs R s => ms1_commit_and_prove (R := R) sch' (q w crs) (X' w crs) (Y' w crs) crs s) in
  `|game s1 s2 real_crs B1 - game s1 s2 real_crs B2| = 1 - Pr (fun o => s1 o == 0).
Proof.
move=> F A B C e E O1 O2 W s1 s2 phi sch sch' m n q X X' Y Y' hb hn em vs vs' n1 n2 nW hm hn' hs wf ne D B1 B2.
have key sch0 w crs (R : rng E) (s : rst R) X0 Y0 (r : rng E) (z z' : rst r) : valid_sched sch0 -> size X0 = m -> size Y0 = n -> generate_crs z = (crs, z') ->
  D w crs (seen public (ms1_commit_and_prove sch0 (q w crs) X0 Y0 crs s)) = (X0 == X w crs) || (g1_gen crs == 0).
  move=> vs0 ex ey hg; have [a1 [a2 [t1 [t2 bw]]]] : exists a1 a2 t1 t2, binding_crs_with crs a1 a2 t1 t2.
    by have [t1 [t2 bw]] := gen_keys hg (trap_C75_keys hg); eauto.
  have [p [s' hp]] : exists p s', ms1_commit_and_prove sch0 (q w crs) X0 Y0 crs s = Ok (p, s').
    by apply: (proj2 (CapLemmas.ms1_cap_total vs0 _ _ _ _ _)); rewrite ex ey; have [hu hv _] := bw; rewrite hu hv; split.
  rewrite hp; have [i1 [i2 [pf [hx hy _ _]]]] := (proj1 (CapLemmas.ms1_cap_steps _ _ _ _ _ _ _ _)) hp; rewrite /D /seen /public /=.
  have hk := trap_C75_keys hg; have [e1 e2] := gen_first hg.
  have [hX hY hX' hY'] := hs w crs.
  have [_ hd] := trap_C75_decrypt_G1 s i1 hg hk; have d := hd _ _ hx.
  have sz : size (coms (xcoms p)) = size (X w crs).
    by have := congr1 size d; rewrite !size_map hX ex.
  rewrite (opens1E hb hn hk em) // d.
  by [].
apply: adv_1 => //.
- by rewrite card_prod muln_gt0 nW; apply/card_gt0P; exists [tuple of nseq _ 0].
- move=> [w t] p1 p2 a1 a2 t1 t2; rewrite /B1 /proof_test /=; have [z' hz] := real_gen e p1 p2 a1 a2 t1 t2.
  by have [hX hY _ _] := hs w (real_crs p1 p2 a1 a2 t1 t2); rewrite (key _ _ _ _ _ _ _ _ _ _ vs hX hY hz) eqxx.
- move=> [w t] p1 p2 a1 a2 t1 t2; rewrite /B2 /proof_test /=; have [z' hz] := real_gen e p1 p2 a1 a2 t1 t2.
  have [_ _ hX hY] := hs w (real_crs p1 p2 a1 a2 t1 t2); rewrite (key _ _ _ _ _ _ _ _ _ _ vs' hX hY hz) real_g1.
  by have := ne w (real_crs p1 p2 a1 a2 t1 t2); case: eqP => [->|].
Qed.

Lemma t3_C77_ms1_Y : forall (F : finFieldType) (A B C : lmodType F) (e : A -> B -> C), let E := Pairing e in
  forall (O1 O2 W : finType) (s1 : O1 -> A) (s2 : O2 -> B) (psi : B -> A) (sch sch' : sched) (m n : nat)
  (q : W -> CRS E -> MSMEG1 E) (X X' : W -> CRS E -> seq A) (Y Y' : W -> CRS E -> seq F),
  bilinear E -> nondegenerate E -> embedding psi -> valid_sched sch -> valid_sched sch' -> (0 < #|O1|)%N -> (0 < #|O2|)%N -> (0 < #|W|)%N ->
  (0 < m)%N -> (0 < n)%N ->
  (forall w crs, [/\ size (X w crs) = m, size (Y w crs) = n, size (X' w crs) = m & size (Y' w crs) = n]) ->
  (forall w crs, ms1_wf (q w crs) m n) -> (forall w crs, Y w crs <> Y' w crs) ->
  let D w crs r := if r is Ok v then opens2 (E := E) psi crs v.1.2 [seq x *: g2_gen crs | x <- Y w crs] else false in
  let B1 := proof_test (N := (2 * m + (n + 2))%N) D public (fun w crs R s => ms1_commit_and_prove (R := R) sch (q w crs) (X w crs) (Y w crs) crs s) in
  let B2 := proof_test (N := (2 * m + (n + 2))%N) D public (fun w crs R s => ms1_commit_and_prove (R := R) sch' (q w crs) (X' w crs) (Y' w crs) crs s) in
  `|game s1 s2 real_crs B1 - game s1 s2 real_crs B2| = 1 - Pr (fun o => s2 o == 0).
Proof.
move=> F A B C e E O1 O2 W s1 s2 psi sch sch' m n q X X' Y Y' hb hn em vs vs' n1 n2 nW hm hn' hs wf ne D B1 B2.
have key sch0 w crs (R : rng E) (s : rst R) X0 Y0 (r : rng E) (z z' : rst r) : valid_sched sch0 -> size X0 = m -> size Y0 = n -> generate_crs z = (crs, z') ->
  D w crs (seen public (ms1_commit_and_prove sch0 (q w crs) X0 Y0 crs s)) = (Y0 == Y w crs) || (g2_gen crs == 0).
  move=> vs0 ex ey hg; have [a1 [a2 [t1 [t2 bw]]]] : exists a1 a2 t1 t2, binding_crs_with crs a1 a2 t1 t2.
    by have [t1 [t2 bw]] := gen_keys hg (trap_C75_keys hg); eauto.
  have [p [s' hp]] : exists p s', ms1_commit_and_prove sch0 (q w crs) X0 Y0 crs s = Ok (p, s').
    by apply: (proj2 (CapLemmas.ms1_cap_total vs0 _ _ _ _ _)); rewrite ex ey; have [hu hv _] := bw; rewrite hu hv; split.
  rewrite hp; have [i1 [i2 [pf [hx hy _ _]]]] := (proj1 (CapLemmas.ms1_cap_steps _ _ _ _ _ _ _ _)) hp; rewrite /D /seen /public /=.
  have hk := trap_C75_keys hg; have [e1 e2] := gen_first hg.
  have [hX hY hX' hY'] := hs w crs.
  have [_ hd] := trap_C75_decrypt_B2 i1 i2 hg hk; have d := hd _ _ hy.
  have sz : size (coms (ycoms p)) = size [seq x *: g2_gen crs | x <- Y w crs].
    by have := congr1 size d; rewrite !size_map hY ey.
  rewrite (opens2E hb hn hk em) // d.
  by have [z0|z0] := eqVneq (g2_gen crs) 0; rewrite ?orbT // !orbF scaled_inj.
apply: adv_2 => //.
- by rewrite card_prod muln_gt0 nW; apply/card_gt0P; exists [tuple of nseq _ 0].
- move=> [w t] p1 p2 a1 a2 t1 t2; rewrite /B1 /proof_test /=; have [z' hz] := real_gen e p1 p2 a1 a2 t1 t2.
  by have [hX hY _ _] := hs w (real_crs p1 p2 a1 a2 t1 t2); rewrite (key _ _ _ _ _ _ _ _ _ _ vs hX hY hz) eqxx.
- move=> [w t] p1 p2 a1 a2 t1 t2; rewrite /B2 /proof_test /=; have [z' hz] := real_gen e p1 p2 a1 a2 t1 t2.
  have [_ _ hX hY] := hs w (real_crs p1 p2 a1 a2 t1 t2); rewrite (key _ _ _ _ _ _ _ _ _ _ vs' hX hY hz) real_g2.
  by have := ne w (real_crs p1 p2 a1 a2 t1 t2); case: eqP => [->|].
Qed.

Lemma t3_C77_ms2_X : forall (F : finFieldType) (A B C : lmodType F) (e : A -> B -> C), let E := Pairing e in
  forall (O1 O2 W : finType) (s1 : O1 -> A) (s2 : O2 -> B) (phi : A -> B) (sch sch' : sched) (m n : nat)
  (q : W -> CRS E -> MSMEG2 E) (X X' : W -> CRS E -> seq F) (Y Y' : W -> CRS E -> seq B),
  bilinear E -> nondegenerate E -> embedding phi -> valid_sched sch -> valid_sched sch' -> (0 < #|O1|)%N -> (0 < #|O2|)%N -> (0 < #|W|)%N ->
  (0 < m)%N -> (0 < n)%N ->
  (forall w crs, [/\ size (X w crs) = m, size (Y w crs) = n, size (X' w crs) = m & size (Y' w crs) = n]) ->
  (forall w crs, ms2_wf (q w crs) m n) -> (forall w crs, X w crs <> X' w crs) ->
  let D w crs r := if r is Ok v then opens1 (E := E) phi crs v.1.1 [seq x *: g1_gen crs | x <- X w crs] else false in
  let B1 := proof_test (N := (m + (2 * n + 2))%N) D public (fun w crs R s => ms2_commit_and_prove (R := R) sch (q w crs) (X w crs) (Y w crs) crs s) in
  let B2 := proof_test (N := (m + (2 * n + 2))%N) D public (fun w crs R s => ms2_commit_and_prove (R := R) sch' (q w crs) (X' w crs) (Y' w crs) crs s) in
  `|game s1 s2 real_crs B1 - game s1 s2 real_crs B2| = 1 - Pr (fun o => s1 o == 0).
Proof.
move=> F A B C e E O1 O2 W s1 s2 phi sch sch' m n q X X' Y Y' hb hn em vs vs' n1 n2 nW hm hn' hs wf ne D B1 B2.
have key sch0 w crs (R : rng E) (s : rst R) X0 Y0 (r : rng E) (z z' : rst r) : valid_sched sch0 -> size X0 = m -> size Y0 = n -> generate_crs z = (crs, z') ->
  D w crs (seen public (ms2_commit_and_prove sch0 (q w crs) X0 Y0 crs s)) = (X0 == X w crs) || (g1_gen crs == 0).
  move=> vs0 ex ey hg; have [a1 [a2 [t1 [t2 bw]]]] : exists a1 a2 t1 t2, binding_crs_with crs a1 a2 t1 t2.
    by have [t1 [t2 bw]] := gen_keys hg (trap_C75_keys hg); eauto.
  have [p [s' hp]] : exists p s', ms2_commit_and_prove sch0 (q w crs) X0 Y0 crs s = Ok (p, s').
    by apply: (proj2 (CapLemmas.ms2_cap_total vs0 _ _ _ _ _)); rewrite ex ey; have [hu hv _] := bw; rewrite hu hv; split.
  rewrite hp; have [i1 [i2 [pf [hx hy _ _]]]] := (proj1 (CapLemmas.ms2_cap_steps _ _ _ _ _ _ _ _)) hp; rewrite /D /seen /public /=.
  have hk := trap_C75_keys hg; have [e1 e2] := gen_first hg.
  have [hX hY hX' hY'] := hs w crs.
  have [_ hd] := trap_C75_decrypt_B1 s i1 hg hk; have d := hd _ _ hx.
  have sz : size (coms (xcoms p)) = size [seq x *: g1_gen crs | x <- X w crs].
    by have := congr1 size d; rewrite !size_map hX ex.
  rewrite (opens1E hb hn hk em) // d.
  by have [z0|z0] := eqVneq (g1_gen crs) 0; rewrite ?orbT // !orbF scaled_inj.
apply: adv_1 => //.
- by rewrite card_prod muln_gt0 nW; apply/card_gt0P; exists [tuple of nseq _ 0].
- move=> [w t] p1 p2 a1 a2 t1 t2; rewrite /B1 /proof_test /=; have [z' hz] := real_gen e p1 p2 a1 a2 t1 t2.
  by have [hX hY _ _] := hs w (real_crs p1 p2 a1 a2 t1 t2); rewrite (key _ _ _ _ _ _ _ _ _ _ vs hX hY hz) eqxx.
- move=> [w t] p1 p2 a1 a2 t1 t2; rewrite /B2 /proof_test /=; have [z' hz] := real_gen e p1 p2 a1 a2 t1 t2.
  have [_ _ hX hY] := hs w (real_crs p1 p2 a1 a2 t1 t2); rewrite (key _ _ _ _ _ _ _ _ _ _ vs' hX hY hz) real_g1.
  by have := ne w (real_crs p1 p2 a1 a2 t1 t2); case: eqP => [->|].
Qed.

Lemma t3_C77_ms2_Y : forall (F : finFieldType) (A B C : lmodType F) (e : A -> B -> C), let E := Pairing e in
  forall (O1 O2 W : finType) (s1 : O1 -> A) (s2 : O2 -> B) (psi : B -> A) (sch sch' : sched) (m n : nat)
  (q : W -> CRS E -> MSMEG2 E) (X X' : W -> CRS E -> seq F) (Y Y' : W -> CRS E -> seq B),
  bilinear E -> nondegenerate E -> embedding psi -> valid_sched sch -> valid_sched sch' -> (0 < #|O1|)%N -> (0 < #|O2|)%N -> (0 < #|W|)%N ->
  (0 < m)%N -> (0 < n)%N ->
  (forall w crs, [/\ size (X w crs) = m, size (Y w crs) = n, size (X' w crs) = m & size (Y' w crs) = n]) ->
  (forall w crs, ms2_wf (q w crs) m n) -> (forall w crs, Y w crs <> Y' w crs) ->
  let D w crs r := if r is Ok v then opens2 (E := E) psi crs v.1.2 (Y w crs) else false in
  let B1 := proof_test (N := (m + (2 * n + 2))%N) D public (fun w crs R s => ms2_commit_and_prove (R := R) sch (q w crs) (X w crs) (Y w crs) crs s) in
  let B2 := proof_test (N := (m + (2 * n + 2))%N) D public (fun w crs R s => ms2_commit_and_prove (R := R) sch' (q w crs) (X' w crs) (Y' w crs) crs s) in
  `|game s1 s2 real_crs B1 - game s1 s2 real_crs B2| = 1 - Pr (fun o => s2 o == 0).
Proof.
move=> F A B C e E O1 O2 W s1 s2 psi sch sch' m n q X X' Y Y' hb hn em vs vs' n1 n2 nW hm hn' hs wf ne D B1 B2.
have key sch0 w crs (R : rng E) (s : rst R) X0 Y0 (r : rng E) (z z' : rst r) : valid_sched sch0 -> size X0 = m -> size Y0 = n -> generate_crs z = (crs, z') ->
  D w crs (seen public (ms2_commit_and_prove sch0 (q w crs) X0 Y0 crs s)) = (Y0 == Y w crs) || (g2_gen crs == 0).
  move=> vs0 ex ey hg; have [a1 [a2 [t1 [t2 bw]]]] : exists a1 a2 t1 t2, binding_crs_with crs a1 a2 t1 t2.
    by have [t1 [t2 bw]] := gen_keys hg (trap_C75_keys hg); eauto.
  have [p [s' hp]] : exists p s', ms2_commit_and_prove sch0 (q w crs) X0 Y0 crs s = Ok (p, s').
    by apply: (proj2 (CapLemmas.ms2_cap_total vs0 _ _ _ _ _)); rewrite ex ey; have [hu hv _] := bw; rewrite hu hv; split.
  rewrite hp; have [i1 [i2 [pf [hx hy _ _]]]] := (proj1 (CapLemmas.ms2_cap_steps _ _ _ _ _ _ _ _)) hp; rewrite /D /seen /public /=.
  have hk := trap_C75_keys hg; have [e1 e2] := gen_first hg.
  have [hX hY hX' hY'] := hs w crs.
  have [_ hd] := trap_C75_decrypt_G2 i1 i2 hg hk; have d := hd _ _ hy.
  have sz : size (coms (ycoms p)) = size (Y w crs).
    by have := congr1 size d; rewrite !size_map hY ey.
  rewrite (opens2E hb hn hk em) // d.
  by [].
apply: adv_2 => //.
- by rewrite card_prod muln_gt0 nW; apply/card_gt0P; exists [tuple of nseq _ 0].
- move=> [w t] p1 p2 a1 a2 t1 t2; rewrite /B1 /proof_test /=; have [z' hz] := real_gen e p1 p2 a1 a2 t1 t2.
  by have [hX hY _ _] := hs w (real_crs p1 p2 a1 a2 t1 t2); rewrite (key _ _ _ _ _ _ _ _ _ _ vs hX hY hz) eqxx.
- move=> [w t] p1 p2 a1 a2 t1 t2; rewrite /B2 /proof_test /=; have [z' hz] := real_gen e p1 p2 a1 a2 t1 t2.
  have [_ _ hX hY] := hs w (real_crs p1 p2 a1 a2 t1 t2); rewrite (key _ _ _ _ _ _ _ _ _ _ vs' hX hY hz) real_g2.
  by have := ne w (real_crs p1 p2 a1 a2 t1 t2); case: eqP => [->|].
Qed.

Lemma t3_C77_quad_X : forall (F : finFieldType) (A B C : lmodType F) (e : A -> B -> C), let E := Pairing e in
  forall (O1 O2 W : finType) (s1 : O1 -> A) (s2 : O2 -> B) (phi : A -> B) (sch sch' : sched) (m n : nat)
  (q : W -> CRS E -> QuadEqu E) (X X' : W -> CRS E -> seq F) (Y Y' : W -> CRS E -> seq F),
  bilinear E -> nondegenerate E -> embedding phi -> valid_sched sch -> valid_sched sch' -> (0 < #|O1|)%N -> (0 < #|O2|)%N -> (0 < #|W|)%N ->
  (0 < m)%N -> (0 < n)%N ->
  (forall w crs, [/\ size (X w crs) = m, size (Y w crs) = n, size (X' w crs) = m & size (Y' w crs) = n]) ->
  (forall w crs, quad_wf (q w crs) m n) -> (forall w crs, X w crs <> X' w crs) ->
  let D w crs r := if r is Ok v then opens1 (E := E) phi crs v.1.1 [seq x *: g1_gen crs | x <- X w crs] else false in
  let B1 := proof_test (N := (m + (n + 1))%N) D public (fun w crs R s => quad_commit_and_prove (R := R) sch (q w crs) (X w crs) (Y w crs) crs s) in
  let B2 := proof_test (N := (m + (n + 1))%N) D public (fun w crs R s => quad_commit_and_prove (R := R) sch' (q w crs) (X' w crs) (Y' w crs) crs s) in
  `|game s1 s2 real_crs B1 - game s1 s2 real_crs B2| = 1 - Pr (fun o => s1 o == 0).
Proof.
move=> F A B C e E O1 O2 W s1 s2 phi sch sch' m n q X X' Y Y' hb hn em vs vs' n1 n2 nW hm hn' hs wf ne D B1 B2.
have key sch0 w crs (R : rng E) (s : rst R) X0 Y0 (r : rng E) (z z' : rst r) : valid_sched sch0 -> size X0 = m -> size Y0 = n -> generate_crs z = (crs, z') ->
  D w crs (seen public (quad_commit_and_prove sch0 (q w crs) X0 Y0 crs s)) = (X0 == X w crs) || (g1_gen crs == 0).
  move=> vs0 ex ey hg; have [a1 [a2 [t1 [t2 bw]]]] : exists a1 a2 t1 t2, binding_crs_with crs a1 a2 t1 t2.
    by have [t1 [t2 bw]] := gen_keys hg (trap_C75_keys hg); eauto.
  have [p [s' hp]] : exists p s', quad_commit_and_prove sch0 (q w crs) X0 Y0 crs s = Ok (p, s').
    by apply: (proj2 (CapLemmas.quad_cap_total vs0 _ _ _ _ _)); rewrite ex ey; have [hu hv _] := bw; rewrite hu hv; split.
  rewrite hp; have [i1 [i2 [pf [hx hy _ _]]]] := (proj1 (CapLemmas.quad_cap_steps _ _ _ _ _ _ _ _)) hp; rewrite /D /seen /public /=.
  have hk := trap_C75_keys hg; have [e1 e2] := gen_first hg.
  have [hX hY hX' hY'] := hs w crs.
  have [_ hd] := trap_C75_decrypt_B1 s i1 hg hk; have d := hd _ _ hx.
  have sz : size (coms (xcoms p)) = size [seq x *: g1_gen crs | x <- X w crs].
    by have := congr1 size d; rewrite !size_map hX ex.
  rewrite (opens1E hb hn hk em) // d.
  by have [z0|z0] := eqVneq (g1_gen crs) 0; rewrite ?orbT // !orbF scaled_inj.
apply: adv_1 => //.
- by rewrite card_prod muln_gt0 nW; apply/card_gt0P; exists [tuple of nseq _ 0].
- move=> [w t] p1 p2 a1 a2 t1 t2; rewrite /B1 /proof_test /=; have [z' hz] := real_gen e p1 p2 a1 a2 t1 t2.
  by have [hX hY _ _] := hs w (real_crs p1 p2 a1 a2 t1 t2); rewrite (key _ _ _ _ _ _ _ _ _ _ vs hX hY hz) eqxx.
- move=> [w t] p1 p2 a1 a2 t1 t2; rewrite /B2 /proof_test /=; have [z' hz] := real_gen e p1 p2 a1 a2 t1 t2.
  have [_ _ hX hY] := hs w (real_crs p1 p2 a1 a2 t1 t2); rewrite (key _ _ _ _ _ _ _ _ _ _ vs' hX hY hz) real_g1.
  by have := ne w (real_crs p1 p2 a1 a2 t1 t2); case: eqP => [->|].
Qed.

Lemma t3_C77_quad_Y : forall (F : finFieldType) (A B C : lmodType F) (e : A -> B -> C), let E := Pairing e in
  forall (O1 O2 W : finType) (s1 : O1 -> A) (s2 : O2 -> B) (psi : B -> A) (sch sch' : sched) (m n : nat)
  (q : W -> CRS E -> QuadEqu E) (X X' : W -> CRS E -> seq F) (Y Y' : W -> CRS E -> seq F),
  bilinear E -> nondegenerate E -> embedding psi -> valid_sched sch -> valid_sched sch' -> (0 < #|O1|)%N -> (0 < #|O2|)%N -> (0 < #|W|)%N ->
  (0 < m)%N -> (0 < n)%N ->
  (forall w crs, [/\ size (X w crs) = m, size (Y w crs) = n, size (X' w crs) = m & size (Y' w crs) = n]) ->
  (forall w crs, quad_wf (q w crs) m n) -> (forall w crs, Y w crs <> Y' w crs) ->
  let D w crs r := if r is Ok v then opens2 (E := E) psi crs v.1.2 [seq x *: g2_gen crs | x <- Y w crs] else false in
  let B1 := proof_test (N := (m + (n + 1))%N) D public (fun w crs R s => quad_commit_and_prove (R := R) sch (q w crs) (X w crs) (Y w crs) crs s) in
  let B2 := proof_test (N := (m + (n + 1))%N) D public (fun w crs R s => quad_commit_and_prove (R := R) sch' (q w crs) (X' w crs) (Y' w crs) crs s) in
  `|game s1 s2 real_crs B1 - game s1 s2 real_crs B2| = 1 - Pr (fun o => s2 o == 0).
Proof.
move=> F A B C e E O1 O2 W s1 s2 psi sch sch' m n q X X' Y Y' hb hn em vs vs' n1 n2 nW hm hn' hs wf ne D B1 B2.
have key sch0 w crs (R : rng E) (s : rst R) X0 Y0 (r : rng E) (z z' : rst r) : valid_sched sch0 -> size X0 = m -> size Y0 = n -> generate_crs z = (crs, z') ->
  D w crs (seen public (quad_commit_and_prove sch0 (q w crs) X0 Y0 crs s)) = (Y0 == Y w crs) || (g2_gen crs == 0).
  move=> vs0 ex ey hg; have [a1 [a2 [t1 [t2 bw]]]] : exists a1 a2 t1 t2, binding_crs_with crs a1 a2 t1 t2.
    by have [t1 [t2 bw]] := gen_keys hg (trap_C75_keys hg); eauto.
  have [p [s' hp]] : exists p s', quad_commit_and_prove sch0 (q w crs) X0 Y0 crs s = Ok (p, s').
    by apply: (proj2 (CapLemmas.quad_cap_total vs0 _ _ _ _ _)); rewrite ex ey; have [hu hv _] := bw; rewrite hu hv; split.
  rewrite hp; have [i1 [i2 [pf [hx hy _ _]]]] := (proj1 (CapLemmas.quad_cap_steps _ _ _ _ _ _ _ _)) hp; rewrite /D /seen /public /=.
  have hk := trap_C75_keys hg; have [e1 e2] := gen_first hg.
  have [hX hY hX' hY'] := hs w crs.
  have [_ hd] := trap_C75_decrypt_B2 i1 i2 hg hk; have d := hd _ _ hy.
  have sz : size (coms (ycoms p)) = size [seq x *: g2_gen crs | x <- Y w crs].
    by have := congr1 size d; rewrite !size_map hY ey.
  rewrite (opens2E hb hn hk em) // d.
  by have [z0|z0] := eqVneq (g2_gen crs) 0; rewrite ?orbT // !orbF scaled_inj.
apply: adv_2 => //.
- by rewrite card_prod muln_gt0 nW; apply/card_gt0P; exists [tuple of nseq _ 0].
- move=> [w t] p1 p2 a1 a2 t1 t2; rewrite /B1 /proof_test /=; have [z' hz] := real_gen e p1 p2 a1 a2 t1 t2.
  by have [hX hY _ _] := hs w (real_crs p1 p2 a1 a2 t1 t2); rewrite (key _ _ _ _ _ _ _ _ _ _ vs hX hY hz) eqxx.
- move=> [w t] p1 p2 a1 a2 t1 t2; rewrite /B2 /proof_test /=; have [z' hz] := real_gen e p1 p2 a1 a2 t1 t2.
  have [_ _ hX hY] := hs w (real_crs p1 p2 a1 a2 t1 t2); rewrite (key _ _ _ _ _ _ _ _ _ _ vs' hX hY hz) real_g2.
  by have := ne w (real_crs p1 p2 a1 a2 t1 t2); case: eqP => [->|].
Qed.
