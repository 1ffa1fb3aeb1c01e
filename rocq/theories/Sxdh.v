(** Key indistinguishability from DDH; witness indistinguishability from key indistinguishability. *)
From mathcomp Require Import all_ssreflect all_algebra.
From Verif Require Import Base Group DataStructures Generator Commit Statement Prove Spec SpecVerify SpecHide SpecSxdh Main GenProps HideProps.
Set Implicit Arguments.
Unset Strict Implicit.
Unset Printing Implicit Defensive.
Import Order.Theory GRing.Theory Num.Theory.
Local Open Scope ring_scope.


Section Prob.
Lemma Pr_bij (T T' : finType) (h : T -> T') (f : pred T) (g : pred T') : bijective h -> (forall x, f x = g (h x)) -> Pr f = Pr g.
Proof.
move=> hh hf; rewrite /Pr (bij_eq_card hh); congr (_%:R / _).
rewrite -[RHS](@on_card_preimset _ _ h); last exact: onW_bij.
by apply: eq_card => x; rewrite !inE.
Qed.
Lemma eq_Pr (T : finType) (f g : pred T) : f =1 g -> Pr f = Pr g.
Proof. by move=> h; apply: (Pr_bij (h := id)) => //; exists id. Qed.
End Prob.

Section Keys.
Context {F : finFieldType} {A B C : lmodType F} {e : A -> B -> C}.
Local Notation E := (Pairing e).
Context {O1 O2 : finType} (s1 : O1 -> A) (s2 : O2 -> B) {W : finType} (D : W -> pred (CRS E)).

Lemma real_crsE p1 p2 a1 a2 t1 t2 : @real_crs F A B C e p1 p2 a1 a2 t1 t2 =
  @mkCRS E [:: (p1, a1 *: p1); (t1 *: p1, t1 *: (a1 *: p1))] [:: (p2, a2 *: p2); (t2 *: p2, t2 *: (a2 *: p2))] p1 p2 (e p1 p2).
Proof. by rewrite /real_crs /generate_crs /= !subr0. Qed.
Lemma sim_crsE p1 p2 a1 a2 t1 t2 : @sim_crs F A B C e p1 p2 a1 a2 t1 t2 =
  @mkCRS E [:: (p1, a1 *: p1); (t1 *: p1, t1 *: (a1 *: p1) - p1)] [:: (p2, a2 *: p2); (t2 *: p2, t2 *: (a2 *: p2) - p2)] p1 p2 (e p1 p2).
Proof. by []. Qed.

(** Hiding in the first group, binding in the second. *)
Let half p1 p2 (a1 a2 t1 t2 : F) : CRS E :=
  @mkCRS E [:: (p1, a1 *: p1); (t1 *: p1, t1 *: (a1 *: p1) - p1)] [:: (p2, a2 *: p2); (t2 *: p2, t2 *: (a2 *: p2))] p1 p2 (e p1 p2).

Let h1 (x : W * (O1 * O2 * (F * F * F * F))) : (W * (O2 * F * F)) * (O1 * F * F) :=
  let: (w, (o1, o2, (a1, a2, t1, t2))) := x in ((w, (o2, a2, t2)), (o1, a1, t1)).
Let h1_bij : bijective h1.
Proof.
exists (fun y => let: ((w, (o2, a2, t2)), (o1, a1, t1)) := y in (w, (o1, o2, (a1, a2, t1, t2)))).
  by move=> [w [[o1 o2] [[[a1 a2] t1] t2]]].
by move=> [[w [[o2 a2] t2]] [[o1 a1] t1]].
Qed.
Let h2 (x : W * (O1 * O2 * (F * F * F * F))) : (W * (O1 * F * F)) * (O2 * F * F) :=
  let: (w, (o1, o2, (a1, a2, t1, t2))) := x in ((w, (o1, a1, t1)), (o2, a2, t2)).
Let h2_bij : bijective h2.
Proof.
exists (fun y => let: ((w, (o1, a1, t1)), (o2, a2, t2)) := y in (w, (o1, o2, (a1, a2, t1, t2)))).
  by move=> [w [[o1 o2] [[[a1 a2] t1] t2]]].
by move=> [[w [[o2 a2] t2]] [[o1 a1] t1]].
Qed.

Lemma game_real : game s1 s2 real_crs D = ddh_real s1 (ddh1 s2 D).
Proof.
apply: (Pr_bij h1_bij) => -[w [[o1 o2] [[[a1 a2] t1] t2]]] /=.
by rewrite real_crsE !scalerA [t1 * a1]mulrC.
Qed.
Lemma game_half1 : game s1 s2 half D = ddh_real s1 (ddh2 s2 D).
Proof.
apply: (Pr_bij h1_bij) => -[w [[o1 o2] [[[a1 a2] t1] t2]]] /=.
by rewrite /ddh2 /ddh1 /half !scalerA [t1 * a1]mulrC.
Qed.
Lemma game_half2 : game s1 s2 half D = ddh_real s2 (ddh3 s1 D).
Proof.
apply: (Pr_bij h2_bij) => -[w [[o1 o2] [[[a1 a2] t1] t2]]] /=.
by rewrite /half !scalerA [t2 * a2]mulrC.
Qed.
Lemma game_sim : game s1 s2 sim_crs D = ddh_real s2 (ddh4 s1 D).
Proof.
apply: (Pr_bij h2_bij) => -[w [[o1 o2] [[[a1 a2] t1] t2]]] /=.
by rewrite sim_crsE /ddh4 /ddh3 !scalerA [t2 * a2]mulrC.
Qed.

Lemma shift_random (G : lmodType F) (O V : finType) (s : O -> G) (D' D'' : V -> G -> G -> G -> G -> bool) :
  (forall w P Q T Z, D'' w P Q T Z = D' w P Q T (Z - P)) -> ddh_random s D' = ddh_random s D''.
Proof.
move=> hD; pose h (x : V * (O * F * F * F)) := let: (w, (o, a, t, r)) := x in (w, (o, a, t, r + 1)).
apply: (@Pr_bij _ _ h).
  exists (fun x => let: (w, (o, a, t, r)) := x in (w, (o, a, t, r - 1))).
    by move=> [w [[[o a] t] r]]; rewrite /h addrK.
  by move=> [w [[[o a] t] r]]; rewrite /h subrK.
by move=> [w [[[o a] t] r]] /=; rewrite hD scalerDl scale1r addrK.
Qed.

Lemma key_adv_ddh : key_adv s1 s2 D <=
  ddh_adv s1 (ddh1 s2 D) + ddh_adv s1 (ddh2 s2 D) + ddh_adv s2 (ddh3 s1 D) + ddh_adv s2 (ddh4 s1 D).
Proof.
rewrite /key_adv /ddh_adv; have r1 : ddh_random s1 (ddh1 s2 D) = ddh_random s1 (ddh2 s2 D) by apply: shift_random.
have r2 : ddh_random s2 (ddh3 s1 D) = ddh_random s2 (ddh4 s1 D) by apply: shift_random.
rewrite game_real game_sim -r1 -game_half1 -game_half2 -r2.
apply: le_trans (ler_dist_add (game s1 s2 half D) _ _) _; rewrite -addrA; apply: ler_add.
  by rewrite [X in _ <= _ + X]distrC; apply: ler_dist_add.
by rewrite [X in _ <= _ + X]distrC; apply: ler_dist_add.
Qed.

Lemma key_adv_eps (eps : rat) : eps <= key_adv s1 s2 D ->
  [\/ eps / 4%:R <= ddh_adv s1 (ddh1 s2 D), eps / 4%:R <= ddh_adv s1 (ddh2 s2 D),
      eps / 4%:R <= ddh_adv s2 (ddh3 s1 D) | eps / 4%:R <= ddh_adv s2 (ddh4 s1 D)].
Proof.
move=> he; have := le_trans he key_adv_ddh.
case: (lerP (eps / 4%:R) (ddh_adv s1 (ddh1 s2 D))) => [|l1]; first by constructor 1.
case: (lerP (eps / 4%:R) (ddh_adv s1 (ddh2 s2 D))) => [|l2]; first by constructor 2.
case: (lerP (eps / 4%:R) (ddh_adv s2 (ddh3 s1 D))) => [|l3]; first by constructor 3.
case: (lerP (eps / 4%:R) (ddh_adv s2 (ddh4 s1 D))) => [|l4]; first by constructor 4.
have := ltr_add (ltr_add (ltr_add l1 l2) l3) l4.
have -> : eps / 4%:R + eps / 4%:R + eps / 4%:R + eps / 4%:R = eps.
  by rewrite -!mulrDr -[RHS]mulr1; congr (_ * _); apply/eqP; vm_compute.
by move=> g1 g2; have := lt_le_trans g1 g2; rewrite ltxx.
Qed.
End Keys.

Section Step.
Lemma Pr_ge0 (T : finType) (f : pred T) : 0 <= Pr f.
Proof. by rewrite /Pr divr_ge0 ?ler0n. Qed.
Lemma Pr_le (T : finType) (f g : pred T) : (forall x, f x -> g x) -> Pr f <= Pr g.
Proof.
move=> h; rewrite /Pr ler_wpmul2r ?invr_ge0 ?ler0n // ler_nat; apply: subset_leq_card.
by apply/subsetP => x; rewrite !inE; apply: h.
Qed.
Lemma card_pred (T : finType) (f : pred T) : #|[set x | f x]| = (\sum_x f x)%N.
Proof. by rewrite -sum1_card big_mkcond /=; apply: eq_bigr => x _; rewrite inE; case: (f x). Qed.

Lemma Pr_snd (X Y : finType) (g : pred Y) : Pr (fun x : X * Y => g x.2) <= Pr g.
Proof.
rewrite /Pr !card_pred -(pair_bigA _ (fun (x : X) y => g y : nat)) /= sum_nat_const card_prod !natrM.
have [z|nz] := eqVneq #|X| 0%N; first by rewrite !z !mul0r divr_ge0 ?ler0n.
by rewrite -mulf_div divff ?mul1r // pnatr_eq0.
Qed.
Lemma Pr_fst (X Y : finType) (g : pred X) : Pr (fun x : X * Y => g x.1) <= Pr g.
Proof.
rewrite (@Pr_bij _ _ (fun x : X * Y => (x.2, x.1)) _ (fun x => g x.2)) ?Pr_snd //.
by exists (fun x => (x.2, x.1)) => -[].
Qed.

Lemma Pr_split (T : finType) (f b : pred T) : Pr f = Pr (fun x => f x && b x) + Pr (fun x => f x && ~~ b x).
Proof.
rewrite /Pr -mulrDl -natrD; congr (_%:R / _); rewrite !card_pred -big_split /=.
by apply: eq_bigr => x _; case: (f x); case: (b x).
Qed.

(** Two tests whose counts over [T] agree outside [bad]. *)
Lemma fibre_step (W T C : finType) (f g : W -> C -> pred T) (bad : pred C) :
  (forall w c, ~~ bad c -> #|[set t | f w c t]| = #|[set t | g w c t]|) ->
  `|Pr (fun x : (W * T) * C => f x.1.1 x.2 x.1.2) - Pr (fun x : (W * T) * C => g x.1.1 x.2 x.1.2)| <= Pr bad.
Proof.
move=> h; pose b (x : (W * T) * C) := bad x.2.
rewrite (Pr_split _ b) (Pr_split (fun x : (W * T) * C => g x.1.1 x.2 x.1.2) b).
have e1 : Pr (fun x : (W * T) * C => f x.1.1 x.2 x.1.2 && ~~ b x) = Pr (fun x => g x.1.1 x.2 x.1.2 && ~~ b x).
  rewrite /Pr; congr (_%:R / _); rewrite !card_pred.
  rewrite -!(pair_bigA _ (fun (x : W * T) c => (_ x.1 c x.2 && ~~ bad c) : nat)) /=.
  rewrite -!(pair_bigA _ (fun (w : W) t => (\sum_c (_ w c t && ~~ bad c))%N)) /=.
  apply: eq_bigr => w _; rewrite exchange_big [RHS]exchange_big /=; apply: eq_bigr => c _.
  case hc : (bad c); first by apply: eq_bigr => t _; rewrite !andbF.
  transitivity (\sum_t f w c t)%N; first by apply: eq_bigr => t _; rewrite andbT.
  by rewrite -card_pred h ?hc // card_pred; apply: eq_bigr => t _; rewrite andbT.
rewrite e1 [X in _ - X]addrC addrKA; apply: le_trans (@Pr_snd [finType of W * T] C bad).
have l1 : Pr (fun x : (W * T) * C => f x.1.1 x.2 x.1.2 && b x) <= Pr b by apply: Pr_le => x /andP [].
have l2 : Pr (fun x : (W * T) * C => g x.1.1 x.2 x.1.2 && b x) <= Pr b by apply: Pr_le => x /andP [].
rewrite ler_norml; apply/andP; split.
  by rewrite ler_oppl opprB ler_subl_addr (le_trans l2) // ler_addl Pr_ge0.
by rewrite ler_subl_addr (le_trans l1) // ler_addl Pr_ge0.
Qed.
End Step.

Section Proofs.
Context {F : finFieldType} {A B C : lmodType F} {e : A -> B -> C}.
Local Notation E := (Pairing e).
Context {O1 O2 W : finType} (s1 : O1 -> A) (s2 : O2 -> B) {T V : Type} (N : nat) (D : W -> CRS E -> pred (res V)).
Context (view : T -> V) (f g : W -> CRS E -> forall R : rng E, rst R -> res (T * rst R)).
Context (gview : F -> F -> W -> CRS E -> T -> V).

Lemma sim_crs_hiding p1 p2 a1 a2 t1 t2 : hiding_crs_with (@sim_crs F A B C e p1 p2 a1 a2 t1 t2) a1 a2 t1 t2.
Proof. by []. Qed.

Lemma zk_step :
  (forall w crs a1 a2 t1 t2, hiding_crs_with crs a1 a2 t1 t2 -> proper_crs crs -> forall D',
     tapes N view (f w crs) D' = tapes N (gview t1 t2 w crs) (g w crs) D') ->
  `|game s1 s2 real_crs (proof_test (N := N) D view f) - sim_game N D s1 s2 gview g|
  <= key_adv s1 s2 (proof_test (N := N) D view f) + bad_point s1 s2.
Proof.
move=> h; apply: le_trans (ler_dist_add (game s1 s2 sim_crs (proof_test (N := N) D view f)) _ _) _.
apply: ler_add => //.
pose ff w (c : O1 * O2 * (F * F * F * F)) (t : N.-tuple F) :=
  let: (o1, o2, (a1, a2, t1, t2)) := c in let crs := sim_crs (e := e) (s1 o1) (s2 o2) a1 a2 t1 t2 in
  D w crs (seen view (@f w crs tape_rng (tval t : seq F))).
pose gg w (c : O1 * O2 * (F * F * F * F)) (t : N.-tuple F) :=
  let: (o1, o2, (a1, a2, t1, t2)) := c in let crs := sim_crs (e := e) (s1 o1) (s2 o2) a1 a2 t1 t2 in
  D w crs (seen (gview t1 t2 w crs) (@g w crs tape_rng (tval t : seq F))).
pose bad (c : O1 * O2 * (F * F * F * F)) := (s1 c.1.1 == 0) || (s2 c.1.2 == 0).
have := @fibre_step W [finType of N.-tuple F] _ ff gg bad _.
have -> : Pr (fun x : (W * N.-tuple F) * _ => ff x.1.1 x.2 x.1.2) = game s1 s2 sim_crs (proof_test (N := N) D view f).
  by apply: eq_Pr => -[[w t] [[o1 o2] [[[a1 a2] t1] t2]]].
have -> : Pr (fun x : (W * N.-tuple F) * _ => gg x.1.1 x.2 x.1.2) = sim_game N D s1 s2 gview g.
  by apply: eq_Pr => -[[w t] [[o1 o2] [[[a1 a2] t1] t2]]].
move=> hs; apply: le_trans (hs _) (@Pr_fst _ [finType of F * F * F * F] (fun o : O1 * O2 => (s1 o.1 == 0) || (s2 o.2 == 0))).
move=> w [[o1 o2] [[[a1 a2] t1] t2]]; rewrite /bad negb_or /= => /andP [n1 n2].
by apply: (h w _ a1 a2 t1 t2 (sim_crs_hiding _ _ _ _ _ _)).
Qed.
End Proofs.

Section WI.
Context {F : finFieldType} {A B C : lmodType F} {e : A -> B -> C}.
Local Notation E := (Pairing e).
Context {O1 O2 W : finType} (s1 : O1 -> A) (s2 : O2 -> B) {T V : Type} (N : nat) (D : W -> CRS E -> pred (res V)).
Context (view : T -> V) (f g : W -> CRS E -> forall R : rng E, rst R -> res (T * rst R)).
Lemma wi_step :
  (forall w crs, hiding_crs crs -> proper_crs crs -> forall D', tapes N view (f w crs) D' = tapes N view (g w crs) D') ->
  `|game s1 s2 real_crs (proof_test (N := N) D view f) - game s1 s2 real_crs (proof_test (N := N) D view g)|
  <= key_adv s1 s2 (proof_test (N := N) D view f) + key_adv s1 s2 (proof_test (N := N) D view g) + bad_point s1 s2.
Proof.
move=> h; apply: le_trans (ler_dist_add (sim_game N D s1 s2 (fun _ _ _ _ => view) g) _ _) _.
rewrite addrAC; apply: ler_add.
  by apply: zk_step => w crs a1 a2 t1 t2 hh; apply: h; exists a1, a2, t1, t2.
have -> : sim_game N D s1 s2 (fun _ _ _ _ => view) g = game s1 s2 sim_crs (proof_test (N := N) D view g).
  by apply: eq_Pr => -[[w t] [[o1 o2] [[[a1 a2] t1] t2]]].
by rewrite distrC.
Qed.
End WI.

Lemma games_keys (F : finFieldType) (A B C : lmodType F) (e : A -> B -> C) (p1 : A) (p2 : B) (a1 a2 t1 t2 : F) :
  [/\ binding_crs_with (E := Pairing e) (real_crs p1 p2 a1 a2 t1 t2) a1 a2 t1 t2,
      hiding_crs_with (E := Pairing e) (sim_crs p1 p2 a1 a2 t1 t2) a1 a2 t1 t2 &
      g1_gen (@real_crs F A B C e p1 p2 a1 a2 t1 t2) = p1 /\ g2_gen (@real_crs F A B C e p1 p2 a1 a2 t1 t2) = p2].
Proof. by rewrite !real_crsE; split. Qed.
Lemma real_any (F : finFieldType) (A B C : lmodType F) (e : A -> B -> C) (R : rng (Pairing e)) (s : rst R) :
  exists p1 p2 a1 a2 t1 t2, (generate_crs s).1 = real_crs p1 p2 a1 a2 t1 t2.
Proof.
rewrite /generate_crs; case: (rand_g1 s) => p1 s1; case: (rand_g2 s1) => p2 s2; case: (rand_fr s2) => a1 s3.
case: (rand_fr s3) => a2 s4; case: (rand_fr s4) => t1 s5; case: (rand_fr s5) => t2 s6.
by exists p1, p2, a1, a2, t1, t2; rewrite real_crsE /= !subr0.
Qed.
Lemma Pr_all (T : finType) (f : pred T) : (forall x, f x) -> #|T| != 0%N -> Pr f = 1.
Proof. by move=> h n; rewrite /Pr (_ : [set x | f x] = setT) ?cardsT ?divff ?pnatr_eq0 //; apply/setP => x; rewrite !inE h. Qed.
Lemma Pr_none (T : finType) (f : pred T) : (forall x, ~~ f x) -> Pr f = 0.
Proof. by move=> h; rewrite /Pr (_ : [set x | f x] = set0) ?cards0 ?mul0r //; apply/setP => x; rewrite !inE; apply/negbTE. Qed.

Lemma ppe_comp_wi : forall (F : finFieldType) (A B C : lmodType F) (e : A -> B -> C), let E := Pairing e in
  forall (O1 O2 W : finType) (s1 : O1 -> A) (s2 : O2 -> B) (D : W -> CRS E -> pred _) (sch sch' : sched) (m n : nat)
  (q : W -> CRS E -> PPE E) (X X' : W -> CRS E -> seq A) (Y Y' : W -> CRS E -> seq B),
  bilinear E -> nondegenerate E -> cyclic (G1 E) -> cyclic (G2 E) -> valid_sched sch -> valid_sched sch' -> (0 < m)%N -> (0 < n)%N ->
  (forall w crs, [/\ size (X w crs) = m, size (Y w crs) = n, size (X' w crs) = m & size (Y' w crs) = n]) ->
  (forall w crs, proper_crs crs -> [/\ ppe_wf (q w crs) m n, ppe_holds (q w crs) (X w crs) (Y w crs) & ppe_holds (q w crs) (X' w crs) (Y' w crs)]) ->
  let B1 := proof_test (N := (2 * m + (2 * n + 4))%N) D public (fun w crs R s => ppe_commit_and_prove (R := R) sch (q w crs) (X w crs) (Y w crs) crs s) in
  let B2 := proof_test (N := (2 * m + (2 * n + 4))%N) D public (fun w crs R s => ppe_commit_and_prove (R := R) sch' (q w crs) (X' w crs) (Y' w crs) crs s) in
  is_true (`|game s1 s2 real_crs B1 - game s1 s2 real_crs B2| <= key_adv s1 s2 B1 + key_adv s1 s2 B2 + bad_point s1 s2).
Proof.
move=> F A B C e E O1 O2 W s1 s2 D sch sch' m n q X X' Y Y' hb hn hc1 hc2 vs vs' hm hn' hs hq B1 B2.
apply: (@wi_step F A B C e O1 O2 W s1 s2 _ _ (2 * m + (2 * n + 4))%N D public) => w crs hh hp D'.
have [x1 y1 x2 y2] := hs w crs; have [wf h1 h2] := hq w crs hp.
have e1 := etrans x2 (esym x1); have e2 := etrans y2 (esym y1).
apply: same_tapes; rewrite -x1 -y1 in wf hm hn' *; exact: ppe_wi.
Qed.
Lemma ppe_comp_wi_ddh : forall (F : finFieldType) (A B C : lmodType F) (e : A -> B -> C), let E := Pairing e in
  forall (O1 O2 W : finType) (s1 : O1 -> A) (s2 : O2 -> B) (D : W -> CRS E -> pred _) (sch sch' : sched) (m n : nat)
  (q : W -> CRS E -> PPE E) (X X' : W -> CRS E -> seq A) (Y Y' : W -> CRS E -> seq B),
  bilinear E -> nondegenerate E -> cyclic (G1 E) -> cyclic (G2 E) -> valid_sched sch -> valid_sched sch' -> (0 < m)%N -> (0 < n)%N ->
  (forall w crs, [/\ size (X w crs) = m, size (Y w crs) = n, size (X' w crs) = m & size (Y' w crs) = n]) ->
  (forall w crs, proper_crs crs -> [/\ ppe_wf (q w crs) m n, ppe_holds (q w crs) (X w crs) (Y w crs) & ppe_holds (q w crs) (X' w crs) (Y' w crs)]) ->
  let B1 := proof_test (N := (2 * m + (2 * n + 4))%N) D public (fun w crs R s => ppe_commit_and_prove (R := R) sch (q w crs) (X w crs) (Y w crs) crs s) in
  let B2 := proof_test (N := (2 * m + (2 * n + 4))%N) D public (fun w crs R s => ppe_commit_and_prove (R := R) sch' (q w crs) (X' w crs) (Y' w crs) crs s) in
  is_true (`|game s1 s2 real_crs B1 - game s1 s2 real_crs B2| <= 
  (ddh_adv s1 (ddh1 s2 B1) + ddh_adv s1 (ddh2 s2 B1) + ddh_adv s2 (ddh3 s1 B1) + ddh_adv s2 (ddh4 s1 B1))
  + (ddh_adv s1 (ddh1 s2 B2) + ddh_adv s1 (ddh2 s2 B2) + ddh_adv s2 (ddh3 s1 B2) + ddh_adv s2 (ddh4 s1 B2))
  + bad_point s1 s2).
Proof.
move=> F A B C e E O1 O2 W s1 s2 D sch sch' m n q X X' Y Y' hb hn hc1 hc2 vs vs' hm hn' hs hq B1 B2.
have := @ppe_comp_wi F A B C e O1 O2 W s1 s2 D sch sch' m n q X X' Y Y' hb hn hc1 hc2 vs vs' hm hn' hs hq.
rewrite -/B1 -/B2; cbv zeta => h; apply: le_trans h _.
apply: ler_add => //; apply: ler_add; exact: key_adv_ddh.
Qed.
Lemma ppe_comp_zk : forall (F : finFieldType) (A B C : lmodType F) (e : A -> B -> C), let E := Pairing e in
  forall (O1 O2 W : finType) (s1 : O1 -> A) (s2 : O2 -> B) (D : W -> CRS E -> pred _) (sch sch' : sched) (m n : nat)
  (q : W -> CRS E -> PPE E) (X : W -> CRS E -> seq A) (Y : W -> CRS E -> seq B) (k l : W -> CRS E -> F) (P : W -> CRS E -> A) (Q : W -> CRS E -> B),
  bilinear E -> nondegenerate E -> cyclic (G1 E) -> cyclic (G2 E) -> valid_sched sch -> valid_sched sch' -> (0 < m)%N -> (0 < n)%N ->
  (forall w crs, size (X w crs) = m /\ size (Y w crs) = n) ->
  (forall w crs, proper_crs crs -> ppe_wf (q w crs) m n /\ ppe_holds (q w crs) (X w crs) (Y w crs)) ->
  (forall w crs, proper_crs crs -> ppe_target (q w crs) = e (k w crs *: g1_gen crs) (Q w crs) + e (P w crs) (l w crs *: g2_gen crs)) ->
  let B1 := proof_test (N := (2 * m + (2 * n + 4))%N) D public (fun w crs R s => ppe_commit_and_prove (R := R) sch (q w crs) (X w crs) (Y w crs) crs s) in
  is_true (`|game s1 s2 real_crs B1 -
    sim_game (2 * m + (2 * n + 4))%N D s1 s2 (fun t1 t2 w crs p => public (ppe_fix (E := E) t1 t2 (k w crs) (l w crs) (P w crs) (Q w crs) p))
      (fun w crs R s => ppe_commit_and_prove (R := R) sch' (q w crs) (nseq m 0) (nseq n 0) crs s)| <= key_adv s1 s2 B1 + bad_point s1 s2).
Proof.
move=> F A B C e E O1 O2 W s1 s2 D sch sch' m n q X Y k l P Q hb hn hc1 hc2 vs vs' hm hn' hs hq ht B1.
apply: (@zk_step F A B C e O1 O2 W s1 s2 _ _ (2 * m + (2 * n + 4))%N D public) => w crs a1 a2 t1 t2 hh hp D'.
have [x1 y1] := hs w crs; have [wf h1] := hq w crs hp.
apply: same_tapes; rewrite -x1 -y1 in wf hm hn' *; exact: (ppe_zk vs vs' hb hn hc1 hc2 hp hh (ht w crs hp)).
Qed.
Lemma ppe_comp_zk_ddh : forall (F : finFieldType) (A B C : lmodType F) (e : A -> B -> C), let E := Pairing e in
  forall (O1 O2 W : finType) (s1 : O1 -> A) (s2 : O2 -> B) (D : W -> CRS E -> pred _) (sch sch' : sched) (m n : nat)
  (q : W -> CRS E -> PPE E) (X : W -> CRS E -> seq A) (Y : W -> CRS E -> seq B) (k l : W -> CRS E -> F) (P : W -> CRS E -> A) (Q : W -> CRS E -> B),
  bilinear E -> nondegenerate E -> cyclic (G1 E) -> cyclic (G2 E) -> valid_sched sch -> valid_sched sch' -> (0 < m)%N -> (0 < n)%N ->
  (forall w crs, size (X w crs) = m /\ size (Y w crs) = n) ->
  (forall w crs, proper_crs crs -> ppe_wf (q w crs) m n /\ ppe_holds (q w crs) (X w crs) (Y w crs)) ->
  (forall w crs, proper_crs crs -> ppe_target (q w crs) = e (k w crs *: g1_gen crs) (Q w crs) + e (P w crs) (l w crs *: g2_gen crs)) ->
  let B1 := proof_test (N := (2 * m + (2 * n + 4))%N) D public (fun w crs R s => ppe_commit_and_prove (R := R) sch (q w crs) (X w crs) (Y w crs) crs s) in
  is_true (`|game s1 s2 real_crs B1 -
    sim_game (2 * m + (2 * n + 4))%N D s1 s2 (fun t1 t2 w crs p => public (ppe_fix (E := E) t1 t2 (k w crs) (l w crs) (P w crs) (Q w crs) p))
      (fun w crs R s => ppe_commit_and_prove (R := R) sch' (q w crs) (nseq m 0) (nseq n 0) crs s)| <= 
  (ddh_adv s1 (ddh1 s2 B1) + ddh_adv s1 (ddh2 s2 B1) + ddh_adv s2 (ddh3 s1 B1) + ddh_adv s2 (ddh4 s1 B1)) + bad_point s1 s2).
Proof.
move=> F A B C e E O1 O2 W s1 s2 D sch sch' m n q X Y k l P Q hb hn hc1 hc2 vs vs' hm hn' hs hq ht B1.
have := @ppe_comp_zk F A B C e O1 O2 W s1 s2 D sch sch' m n q X Y k l P Q hb hn hc1 hc2 vs vs' hm hn' hs hq ht.
rewrite -/B1; cbv zeta => h; apply: le_trans h _.
apply: ler_add => //; exact: key_adv_ddh.
Qed.

Lemma ms1_comp_wi : forall (F : finFieldType) (A B C : lmodType F) (e : A -> B -> C), let E := Pairing e in
  forall (O1 O2 W : finType) (s1 : O1 -> A) (s2 : O2 -> B) (D : W -> CRS E -> pred _) (sch sch' : sched) (m n : nat)
  (q : W -> CRS E -> MSMEG1 E) (X X' : W -> CRS E -> seq A) (Y Y' : W -> CRS E -> seq F),
  bilinear E -> nondegenerate E -> cyclic (G1 E) -> cyclic (G2 E) -> valid_sched sch -> valid_sched sch' -> (0 < m)%N -> (0 < n)%N ->
  (forall w crs, [/\ size (X w crs) = m, size (Y w crs) = n, size (X' w crs) = m & size (Y' w crs) = n]) ->
  (forall w crs, proper_crs crs -> [/\ ms1_wf (q w crs) m n, ms1_holds (q w crs) (X w crs) (Y w crs) & ms1_holds (q w crs) (X' w crs) (Y' w crs)]) ->
  let B1 := proof_test (N := (2 * m + (n + 2))%N) D public (fun w crs R s => ms1_commit_and_prove (R := R) sch (q w crs) (X w crs) (Y w crs) crs s) in
  let B2 := proof_test (N := (2 * m + (n + 2))%N) D public (fun w crs R s => ms1_commit_and_prove (R := R) sch' (q w crs) (X' w crs) (Y' w crs) crs s) in
  is_true (`|game s1 s2 real_crs B1 - game s1 s2 real_crs B2| <= key_adv s1 s2 B1 + key_adv s1 s2 B2 + bad_point s1 s2).
Proof.
move=> F A B C e E O1 O2 W s1 s2 D sch sch' m n q X X' Y Y' hb hn hc1 hc2 vs vs' hm hn' hs hq B1 B2.
apply: (@wi_step F A B C e O1 O2 W s1 s2 _ _ (2 * m + (n + 2))%N D public) => w crs hh hp D'.
have [x1 y1 x2 y2] := hs w crs; have [wf h1 h2] := hq w crs hp.
have e1 := etrans x2 (esym x1); have e2 := etrans y2 (esym y1).
apply: same_tapes; rewrite -x1 -y1 in wf hm hn' *; exact: ms1_wi.
Qed.
Lemma ms1_comp_wi_ddh : forall (F : finFieldType) (A B C : lmodType F) (e : A -> B -> C), let E := Pairing e in
  forall (O1 O2 W : finType) (s1 : O1 -> A) (s2 : O2 -> B) (D : W -> CRS E -> pred _) (sch sch' : sched) (m n : nat)
  (q : W -> CRS E -> MSMEG1 E) (X X' : W -> CRS E -> seq A) (Y Y' : W -> CRS E -> seq F),
  bilinear E -> nondegenerate E -> cyclic (G1 E) -> cyclic (G2 E) -> valid_sched sch -> valid_sched sch' -> (0 < m)%N -> (0 < n)%N ->
  (forall w crs, [/\ size (X w crs) = m, size (Y w crs) = n, size (X' w crs) = m & size (Y' w crs) = n]) ->
  (forall w crs, proper_crs crs -> [/\ ms1_wf (q w crs) m n, ms1_holds (q w crs) (X w crs) (Y w crs) & ms1_holds (q w crs) (X' w crs) (Y' w crs)]) ->
  let B1 := proof_test (N := (2 * m + (n + 2))%N) D public (fun w crs R s => ms1_commit_and_prove (R := R) sch (q w crs) (X w crs) (Y w crs) crs s) in
  let B2 := proof_test (N := (2 * m + (n + 2))%N) D public (fun w crs R s => ms1_commit_and_prove (R := R) sch' (q w crs) (X' w crs) (Y' w crs) crs s) in
  is_true (`|game s1 s2 real_crs B1 - game s1 s2 real_crs B2| <= 
  (ddh_adv s1 (ddh1 s2 B1) + ddh_adv s1 (ddh2 s2 B1) + ddh_adv s2 (ddh3 s1 B1) + ddh_adv s2 (ddh4 s1 B1))
  + (ddh_adv s1 (ddh1 s2 B2) + ddh_adv s1 (ddh2 s2 B2) + ddh_adv s2 (ddh3 s1 B2) + ddh_adv s2 (ddh4 s1 B2))
  + bad_point s1 s2).
Proof.
move=> F A B C e E O1 O2 W s1 s2 D sch sch' m n q X X' Y Y' hb hn hc1 hc2 vs vs' hm hn' hs hq B1 B2.
have := @ms1_comp_wi F A B C e O1 O2 W s1 s2 D sch sch' m n q X X' Y Y' hb hn hc1 hc2 vs vs' hm hn' hs hq.
rewrite -/B1 -/B2; cbv zeta => h; apply: le_trans h _.
apply: ler_add => //; apply: ler_add; exact: key_adv_ddh.
Qed.
Lemma ms1_comp_zk : forall (F : finFieldType) (A B C : lmodType F) (e : A -> B -> C), let E := Pairing e in
  forall (O1 O2 W : finType) (s1 : O1 -> A) (s2 : O2 -> B) (D : W -> CRS E -> pred _) (sch sch' : sched) (m n : nat)
  (q : W -> CRS E -> MSMEG1 E) (X : W -> CRS E -> seq A) (Y : W -> CRS E -> seq F),
  bilinear E -> nondegenerate E -> cyclic (G1 E) -> cyclic (G2 E) -> valid_sched sch -> valid_sched sch' -> (0 < m)%N -> (0 < n)%N ->
  (forall w crs, size (X w crs) = m /\ size (Y w crs) = n) ->
  (forall w crs, proper_crs crs -> ms1_wf (q w crs) m n /\ ms1_holds (q w crs) (X w crs) (Y w crs)) ->
  let B1 := proof_test (N := (2 * m + (n + 2))%N) D public (fun w crs R s => ms1_commit_and_prove (R := R) sch (q w crs) (X w crs) (Y w crs) crs s) in
  is_true (`|game s1 s2 real_crs B1 -
    sim_game (2 * m + (n + 2))%N D s1 s2 (fun t1 t2 w crs p => public (ms1_fix (E := E) t1 t2 (q w crs) p))
      (fun w crs R s => ms1_commit_and_prove (R := R) sch' (q w crs) (nseq m 0) (nseq n 0) crs s)| <= key_adv s1 s2 B1 + bad_point s1 s2).
Proof.
move=> F A B C e E O1 O2 W s1 s2 D sch sch' m n q X Y hb hn hc1 hc2 vs vs' hm hn' hs hq B1.
apply: (@zk_step F A B C e O1 O2 W s1 s2 _ _ (2 * m + (n + 2))%N D public) => w crs a1 a2 t1 t2 hh hp D'.
have [x1 y1] := hs w crs; have [wf h1] := hq w crs hp.
apply: same_tapes; rewrite -x1 -y1 in wf hm hn' *; exact: (ms1_zk vs vs' hb hn hc1 hc2 hp hh).
Qed.
Lemma ms1_comp_zk_ddh : forall (F : finFieldType) (A B C : lmodType F) (e : A -> B -> C), let E := Pairing e in
  forall (O1 O2 W : finType) (s1 : O1 -> A) (s2 : O2 -> B) (D : W -> CRS E -> pred _) (sch sch' : sched) (m n : nat)
  (q : W -> CRS E -> MSMEG1 E) (X : W -> CRS E -> seq A) (Y : W -> CRS E -> seq F),
  bilinear E -> nondegenerate E -> cyclic (G1 E) -> cyclic (G2 E) -> valid_sched sch -> valid_sched sch' -> (0 < m)%N -> (0 < n)%N ->
  (forall w crs, size (X w crs) = m /\ size (Y w crs) = n) ->
  (forall w crs, proper_crs crs -> ms1_wf (q w crs) m n /\ ms1_holds (q w crs) (X w crs) (Y w crs)) ->
  let B1 := proof_test (N := (2 * m + (n + 2))%N) D public (fun w crs R s => ms1_commit_and_prove (R := R) sch (q w crs) (X w crs) (Y w crs) crs s) in
  is_true (`|game s1 s2 real_crs B1 -
    sim_game (2 * m + (n + 2))%N D s1 s2 (fun t1 t2 w crs p => public (ms1_fix (E := E) t1 t2 (q w crs) p))
      (fun w crs R s => ms1_commit_and_prove (R := R) sch' (q w crs) (nseq m 0) (nseq n 0) crs s)| <= 
  (ddh_adv s1 (ddh1 s2 B1) + ddh_adv s1 (ddh2 s2 B1) + ddh_adv s2 (ddh3 s1 B1) + ddh_adv s2 (ddh4 s1 B1)) + bad_point s1 s2).
Proof.
move=> F A B C e E O1 O2 W s1 s2 D sch sch' m n q X Y hb hn hc1 hc2 vs vs' hm hn' hs hq B1.
have := @ms1_comp_zk F A B C e O1 O2 W s1 s2 D sch sch' m n q X Y hb hn hc1 hc2 vs vs' hm hn' hs hq.
rewrite -/B1; cbv zeta => h; apply: le_trans h _.
apply: ler_add => //; exact: key_adv_ddh.
Qed.

Lemma ms2_comp_wi : forall (F : finFieldType) (A B C : lmodType F) (e : A -> B -> C), let E := Pairing e in
  forall (O1 O2 W : finType) (s1 : O1 -> A) (s2 : O2 -> B) (D : W -> CRS E -> pred _) (sch sch' : sched) (m n : nat)
  (q : W -> CRS E -> MSMEG2 E) (X X' : W -> CRS E -> seq F) (Y Y' : W -> CRS E -> seq B),
  bilinear E -> nondegenerate E -> cyclic (G1 E) -> cyclic (G2 E) -> valid_sched sch -> valid_sched sch' -> (0 < m)%N -> (0 < n)%N ->
  (forall w crs, [/\ size (X w crs) = m, size (Y w crs) = n, size (X' w crs) = m & size (Y' w crs) = n]) ->
  (forall w crs, proper_crs crs -> [/\ ms2_wf (q w crs) m n, ms2_holds (q w crs) (X w crs) (Y w crs) & ms2_holds (q w crs) (X' w crs) (Y' w crs)]) ->
  let B1 := proof_test (N := (m + (2 * n + 2))%N) D public (fun w crs R s => ms2_commit_and_prove (R := R) sch (q w crs) (X w crs) (Y w crs) crs s) in
  let B2 := proof_test (N := (m + (2 * n + 2))%N) D public (fun w crs R s => ms2_commit_and_prove (R := R) sch' (q w crs) (X' w crs) (Y' w crs) crs s) in
  is_true (`|game s1 s2 real_crs B1 - game s1 s2 real_crs B2| <= key_adv s1 s2 B1 + key_adv s1 s2 B2 + bad_point s1 s2).
Proof.
move=> F A B C e E O1 O2 W s1 s2 D sch sch' m n q X X' Y Y' hb hn hc1 hc2 vs vs' hm hn' hs hq B1 B2.
apply: (@wi_step F A B C e O1 O2 W s1 s2 _ _ (m + (2 * n + 2))%N D public) => w crs hh hp D'.
have [x1 y1 x2 y2] := hs w crs; have [wf h1 h2] := hq w crs hp.
have e1 := etrans x2 (esym x1); have e2 := etrans y2 (esym y1).
apply: same_tapes; rewrite -x1 -y1 in wf hm hn' *; exact: ms2_wi.
Qed.
Lemma ms2_comp_wi_ddh : forall (F : finFieldType) (A B C : lmodType F) (e : A -> B -> C), let E := Pairing e in
  forall (O1 O2 W : finType) (s1 : O1 -> A) (s2 : O2 -> B) (D : W -> CRS E -> pred _) (sch sch' : sched) (m n : nat)
  (q : W -> CRS E -> MSMEG2 E) (X X' : W -> CRS E -> seq F) (Y Y' : W -> CRS E -> seq B),
  bilinear E -> nondegenerate E -> cyclic (G1 E) -> cyclic (G2 E) -> valid_sched sch -> valid_sched sch' -> (0 < m)%N -> (0 < n)%N ->
  (forall w crs, [/\ size (X w crs) = m, size (Y w crs) = n, size (X' w crs) = m & size (Y' w crs) = n]) ->
  (forall w crs, proper_crs crs -> [/\ ms2_wf (q w crs) m n, ms2_holds (q w crs) (X w crs) (Y w crs) & ms2_holds (q w crs) (X' w crs) (Y' w crs)]) ->
  let B1 := proof_test (N := (m + (2 * n + 2))%N) D public (fun w crs R s => ms2_commit_and_prove (R := R) sch (q w crs) (X w crs) (Y w crs) crs s) in
  let B2 := proof_test (N := (m + (2 * n + 2))%N) D public (fun w crs R s => ms2_commit_and_prove (R := R) sch' (q w crs) (X' w crs) (Y' w crs) crs s) in
  is_true (`|game s1 s2 real_crs B1 - game s1 s2 real_crs B2| <= 
  (ddh_adv s1 (ddh1 s2 B1) + ddh_adv s1 (ddh2 s2 B1) + ddh_adv s2 (ddh3 s1 B1) + ddh_adv s2 (ddh4 s1 B1))
  + (ddh_adv s1 (ddh1 s2 B2) + ddh_adv s1 (ddh2 s2 B2) + ddh_adv s2 (ddh3 s1 B2) + ddh_adv s2 (ddh4 s1 B2))
  + bad_point s1 s2).
Proof.
move=> F A B C e E O1 O2 W s1 s2 D sch sch' m n q X X' Y Y' hb hn hc1 hc2 vs vs' hm hn' hs hq B1 B2.
have := @ms2_comp_wi F A B C e O1 O2 W s1 s2 D sch sch' m n q X X' Y Y' hb hn hc1 hc2 vs vs' hm hn' hs hq.
rewrite -/B1 -/B2; cbv zeta => h; apply: le_trans h _.
apply: ler_add => //; apply: ler_add; exact: key_adv_ddh.
Qed.
Lemma ms2_comp_zk : forall (F : finFieldType) (A B C : lmodType F) (e : A -> B -> C), let E := Pairing e in
  forall (O1 O2 W : finType) (s1 : O1 -> A) (s2 : O2 -> B) (D : W -> CRS E -> pred _) (sch sch' : sched) (m n : nat)
  (q : W -> CRS E -> MSMEG2 E) (X : W -> CRS E -> seq F) (Y : W -> CRS E -> seq B),
  bilinear E -> nondegenerate E -> cyclic (G1 E) -> cyclic (G2 E) -> valid_sched sch -> valid_sched sch' -> (0 < m)%N -> (0 < n)%N ->
  (forall w crs, size (X w crs) = m /\ size (Y w crs) = n) ->
  (forall w crs, proper_crs crs -> ms2_wf (q w crs) m n /\ ms2_holds (q w crs) (X w crs) (Y w crs)) ->
  let B1 := proof_test (N := (m + (2 * n + 2))%N) D public (fun w crs R s => ms2_commit_and_prove (R := R) sch (q w crs) (X w crs) (Y w crs) crs s) in
  is_true (`|game s1 s2 real_crs B1 -
    sim_game (m + (2 * n + 2))%N D s1 s2 (fun t1 t2 w crs p => public (ms2_fix (E := E) t1 t2 (q w crs) p))
      (fun w crs R s => ms2_commit_and_prove (R := R) sch' (q w crs) (nseq m 0) (nseq n 0) crs s)| <= key_adv s1 s2 B1 + bad_point s1 s2).
Proof.
move=> F A B C e E O1 O2 W s1 s2 D sch sch' m n q X Y hb hn hc1 hc2 vs vs' hm hn' hs hq B1.
apply: (@zk_step F A B C e O1 O2 W s1 s2 _ _ (m + (2 * n + 2))%N D public) => w crs a1 a2 t1 t2 hh hp D'.
have [x1 y1] := hs w crs; have [wf h1] := hq w crs hp.
apply: same_tapes; rewrite -x1 -y1 in wf hm hn' *; exact: (ms2_zk vs vs' hb hn hc1 hc2 hp hh).
Qed.
Lemma ms2_comp_zk_ddh : forall (F : finFieldType) (A B C : lmodType F) (e : A -> B -> C), let E := Pairing e in
  forall (O1 O2 W : finType) (s1 : O1 -> A) (s2 : O2 -> B) (D : W -> CRS E -> pred _) (sch sch' : sched) (m n : nat)
  (q : W -> CRS E -> MSMEG2 E) (X : W -> CRS E -> seq F) (Y : W -> CRS E -> seq B),
  bilinear E -> nondegenerate E -> cyclic (G1 E) -> cyclic (G2 E) -> valid_sched sch -> valid_sched sch' -> (0 < m)%N -> (0 < n)%N ->
  (forall w crs, size (X w crs) = m /\ size (Y w crs) = n) ->
  (forall w crs, proper_crs crs -> ms2_wf (q w crs) m n /\ ms2_holds (q w crs) (X w crs) (Y w crs)) ->
  let B1 := proof_test (N := (m + (2 * n + 2))%N) D public (fun w crs R s => ms2_commit_and_prove (R := R) sch (q w crs) (X w crs) (Y w crs) crs s) in
  is_true (`|game s1 s2 real_crs B1 -
    sim_game (m + (2 * n + 2))%N D s1 s2 (fun t1 t2 w crs p => public (ms2_fix (E := E) t1 t2 (q w crs) p))
      (fun w crs R s => ms2_commit_and_prove (R := R) sch' (q w crs) (nseq m 0) (nseq n 0) crs s)| <= 
  (ddh_adv s1 (ddh1 s2 B1) + ddh_adv s1 (ddh2 s2 B1) + ddh_adv s2 (ddh3 s1 B1) + ddh_adv s2 (ddh4 s1 B1)) + bad_point s1 s2).
Proof.
move=> F A B C e E O1 O2 W s1 s2 D sch sch' m n q X Y hb hn hc1 hc2 vs vs' hm hn' hs hq B1.
have := @ms2_comp_zk F A B C e O1 O2 W s1 s2 D sch sch' m n q X Y hb hn hc1 hc2 vs vs' hm hn' hs hq.
rewrite -/B1; cbv zeta => h; apply: le_trans h _.
apply: ler_add => //; exact: key_adv_ddh.
Qed.

Lemma quad_comp_wi : forall (F : finFieldType) (A B C : lmodType F) (e : A -> B -> C), let E := Pairing e in
  forall (O1 O2 W : finType) (s1 : O1 -> A) (s2 : O2 -> B) (D : W -> CRS E -> pred _) (sch sch' : sched) (m n : nat)
  (q : W -> CRS E -> QuadEqu E) (X X' : W -> CRS E -> seq F) (Y Y' : W -> CRS E -> seq F),
  bilinear E -> nondegenerate E -> cyclic (G1 E) -> cyclic (G2 E) -> valid_sched sch -> valid_sched sch' -> (0 < m)%N -> (0 < n)%N ->
  (forall w crs, [/\ size (X w crs) = m, size (Y w crs) = n, size (X' w crs) = m & size (Y' w crs) = n]) ->
  (forall w crs, proper_crs crs -> [/\ quad_wf (q w crs) m n, quad_holds (q w crs) (X w crs) (Y w crs) & quad_holds (q w crs) (X' w crs) (Y' w crs)]) ->
  let B1 := proof_test (N := (m + (n + 1))%N) D public (fun w crs R s => quad_commit_and_prove (R := R) sch (q w crs) (X w crs) (Y w crs) crs s) in
  let B2 := proof_test (N := (m + (n + 1))%N) D public (fun w crs R s => quad_commit_and_prove (R := R) sch' (q w crs) (X' w crs) (Y' w crs) crs s) in
  is_true (`|game s1 s2 real_crs B1 - game s1 s2 real_crs B2| <= key_adv s1 s2 B1 + key_adv s1 s2 B2 + bad_point s1 s2).
Proof.
move=> F A B C e E O1 O2 W s1 s2 D sch sch' m n q X X' Y Y' hb hn hc1 hc2 vs vs' hm hn' hs hq B1 B2.
apply: (@wi_step F A B C e O1 O2 W s1 s2 _ _ (m + (n + 1))%N D public) => w crs hh hp D'.
have [x1 y1 x2 y2] := hs w crs; have [wf h1 h2] := hq w crs hp.
have e1 := etrans x2 (esym x1); have e2 := etrans y2 (esym y1).
apply: same_tapes; rewrite -x1 -y1 in wf hm hn' *; exact: quad_wi.
Qed.
Lemma quad_comp_wi_ddh : forall (F : finFieldType) (A B C : lmodType F) (e : A -> B -> C), let E := Pairing e in
  forall (O1 O2 W : finType) (s1 : O1 -> A) (s2 : O2 -> B) (D : W -> CRS E -> pred _) (sch sch' : sched) (m n : nat)
  (q : W -> CRS E -> QuadEqu E) (X X' : W -> CRS E -> seq F) (Y Y' : W -> CRS E -> seq F),
  bilinear E -> nondegenerate E -> cyclic (G1 E) -> cyclic (G2 E) -> valid_sched sch -> valid_sched sch' -> (0 < m)%N -> (0 < n)%N ->
  (forall w crs, [/\ size (X w crs) = m, size (Y w crs) = n, size (X' w crs) = m & size (Y' w crs) = n]) ->
  (forall w crs, proper_crs crs -> [/\ quad_wf (q w crs) m n, quad_holds (q w crs) (X w crs) (Y w crs) & quad_holds (q w crs) (X' w crs) (Y' w crs)]) ->
  let B1 := proof_test (N := (m + (n + 1))%N) D public (fun w crs R s => quad_commit_and_prove (R := R) sch (q w crs) (X w crs) (Y w crs) crs s) in
  let B2 := proof_test (N := (m + (n + 1))%N) D public (fun w crs R s => quad_commit_and_prove (R := R) sch' (q w crs) (X' w crs) (Y' w crs) crs s) in
  is_true (`|game s1 s2 real_crs B1 - game s1 s2 real_crs B2| <= 
  (ddh_adv s1 (ddh1 s2 B1) + ddh_adv s1 (ddh2 s2 B1) + ddh_adv s2 (ddh3 s1 B1) + ddh_adv s2 (ddh4 s1 B1))
  + (ddh_adv s1 (ddh1 s2 B2) + ddh_adv s1 (ddh2 s2 B2) + ddh_adv s2 (ddh3 s1 B2) + ddh_adv s2 (ddh4 s1 B2))
  + bad_point s1 s2).
Proof.
move=> F A B C e E O1 O2 W s1 s2 D sch sch' m n q X X' Y Y' hb hn hc1 hc2 vs vs' hm hn' hs hq B1 B2.
have := @quad_comp_wi F A B C e O1 O2 W s1 s2 D sch sch' m n q X X' Y Y' hb hn hc1 hc2 vs vs' hm hn' hs hq.
rewrite -/B1 -/B2; cbv zeta => h; apply: le_trans h _.
apply: ler_add => //; apply: ler_add; exact: key_adv_ddh.
Qed.
Lemma quad_comp_zk : forall (F : finFieldType) (A B C : lmodType F) (e : A -> B -> C), let E := Pairing e in
  forall (O1 O2 W : finType) (s1 : O1 -> A) (s2 : O2 -> B) (D : W -> CRS E -> pred _) (sch sch' : sched) (m n : nat)
  (q : W -> CRS E -> QuadEqu E) (X : W -> CRS E -> seq F) (Y : W -> CRS E -> seq F),
  bilinear E -> nondegenerate E -> cyclic (G1 E) -> cyclic (G2 E) -> valid_sched sch -> valid_sched sch' -> (0 < m)%N -> (0 < n)%N ->
  (forall w crs, size (X w crs) = m /\ size (Y w crs) = n) ->
  (forall w crs, proper_crs crs -> quad_wf (q w crs) m n /\ quad_holds (q w crs) (X w crs) (Y w crs)) ->
  let B1 := proof_test (N := (m + (n + 1))%N) D public (fun w crs R s => quad_commit_and_prove (R := R) sch (q w crs) (X w crs) (Y w crs) crs s) in
  is_true (`|game s1 s2 real_crs B1 -
    sim_game (m + (n + 1))%N D s1 s2 (fun t1 t2 w crs p => public (quad_fix (E := E) t1 t2 (q w crs) crs p))
      (fun w crs R s => quad_commit_and_prove (R := R) sch' (q w crs) (nseq m 0) (nseq n 0) crs s)| <= key_adv s1 s2 B1 + bad_point s1 s2).
Proof.
move=> F A B C e E O1 O2 W s1 s2 D sch sch' m n q X Y hb hn hc1 hc2 vs vs' hm hn' hs hq B1.
apply: (@zk_step F A B C e O1 O2 W s1 s2 _ _ (m + (n + 1))%N D public) => w crs a1 a2 t1 t2 hh hp D'.
have [x1 y1] := hs w crs; have [wf h1] := hq w crs hp.
apply: same_tapes; rewrite -x1 -y1 in wf hm hn' *; exact: (quad_zk vs vs' hb hn hp hh).
Qed.
Lemma quad_comp_zk_ddh : forall (F : finFieldType) (A B C : lmodType F) (e : A -> B -> C), let E := Pairing e in
  forall (O1 O2 W : finType) (s1 : O1 -> A) (s2 : O2 -> B) (D : W -> CRS E -> pred _) (sch sch' : sched) (m n : nat)
  (q : W -> CRS E -> QuadEqu E) (X : W -> CRS E -> seq F) (Y : W -> CRS E -> seq F),
  bilinear E -> nondegenerate E -> cyclic (G1 E) -> cyclic (G2 E) -> valid_sched sch -> valid_sched sch' -> (0 < m)%N -> (0 < n)%N ->
  (forall w crs, size (X w crs) = m /\ size (Y w crs) = n) ->
  (forall w crs, proper_crs crs -> quad_wf (q w crs) m n /\ quad_holds (q w crs) (X w crs) (Y w crs)) ->
  let B1 := proof_test (N := (m + (n + 1))%N) D public (fun w crs R s => quad_commit_and_prove (R := R) sch (q w crs) (X w crs) (Y w crs) crs s) in
  is_true (`|game s1 s2 real_crs B1 -
    sim_game (m + (n + 1))%N D s1 s2 (fun t1 t2 w crs p => public (quad_fix (E := E) t1 t2 (q w crs) crs p))
      (fun w crs R s => quad_commit_and_prove (R := R) sch' (q w crs) (nseq m 0) (nseq n 0) crs s)| <= 
  (ddh_adv s1 (ddh1 s2 B1) + ddh_adv s1 (ddh2 s2 B1) + ddh_adv s2 (ddh3 s1 B1) + ddh_adv s2 (ddh4 s1 B1)) + bad_point s1 s2).
Proof.
move=> F A B C e E O1 O2 W s1 s2 D sch sch' m n q X Y hb hn hc1 hc2 vs vs' hm hn' hs hq B1.
have := @quad_comp_zk F A B C e O1 O2 W s1 s2 D sch sch' m n q X Y hb hn hc1 hc2 vs vs' hm hn' hs hq.
rewrite -/B1; cbv zeta => h; apply: le_trans h _.
apply: ler_add => //; exact: key_adv_ddh.
Qed.
