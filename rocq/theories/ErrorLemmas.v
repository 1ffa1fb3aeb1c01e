(** The error of a generated reference string: proofs. *)
From mathcomp Require Import all_ssreflect all_algebra.
From Verif Require Import Base BaseLemmas Group DataStructures Generator Commit Statement Prove Verify Spec SpecMat SpecVerify SpecHide SpecSxdh SpecError.
From Verif Require Import Main CapLemmas SoundGen Sxdh.
Set Implicit Arguments.
Unset Strict Implicit.
Unset Printing Implicit Defensive.
Import Order.Theory GRing.Theory Num.Theory.
Local Open Scope ring_scope.

Lemma Pr_snd_eq (X Y : finType) (g : pred Y) : (0 < #|X|)%N -> Pr (fun x : X * Y => g x.2) = Pr g.
Proof.
rewrite lt0n => nz.
rewrite /Pr !card_pred -(pair_bigA _ (fun (x : X) y => g y : nat)) /= sum_nat_const card_prod !natrM.
by rewrite -mulf_div divff ?mul1r // pnatr_eq0.
Qed.
Lemma Pr_fst_eq (X Y : finType) (g : pred X) : (0 < #|Y|)%N -> Pr (fun x : X * Y => g x.1) = Pr g.
Proof.
move=> n; rewrite (@Pr_bij _ _ (fun x : X * Y => (x.2, x.1)) _ (fun x => g x.2)) ?Pr_snd_eq //.
by exists (fun x => (x.2, x.1)) => -[].
Qed.
Lemma Pr_bij_zero (O : finType) (V : eqType) (z : V) (s : O -> V) : injective s -> (exists o, s o = z) -> Pr (fun o => s o == z) = (#|O|)%:R^-1.
Proof.
move=> h [o ho]; rewrite /Pr -[RHS]mul1r; congr (_ * _); rewrite (_ : [set x | s x == z] = [set o]) ?cards1 //.
by apply/setP => x; rewrite !inE -ho; apply/eqP/eqP => [/h|->].
Qed.
Section Game.
Context {F : finFieldType} {A B C : lmodType F} {e : A -> B -> C}.
Local Notation E := (Pairing e).
Context {O1 O2 W : finType} (s1 : O1 -> A) (s2 : O2 -> B) (D : W -> pred (CRS E)).
Lemma F4_gt0 : (0 < #|[finType of F * F * F * F]|)%N.
Proof. by apply/card_gt0P; exists (0, 0, 0, 0). Qed.

Lemma game_le (bad : pred (O1 * O2)) :
  (forall w o a1 a2 t1 t2, D w (real_crs (s1 o.1) (s2 o.2) a1 a2 t1 t2) -> bad o) -> game s1 s2 real_crs D <= Pr bad.
Proof.
move=> h; apply: le_trans (@Pr_fst _ [finType of F * F * F * F] bad).
apply: le_trans (@Pr_snd W _ (fun x : (O1 * O2) * (F * F * F * F) => bad x.1)).
by apply: Pr_le => -[w [[o1 o2] [[[a1 a2] t1] t2]]] hd; apply: (h w (o1, o2) a1 a2 t1 t2 hd).
Qed.
Lemma game_eq (bad : pred (O1 * O2)) : (0 < #|W|)%N ->
  (forall w o a1 a2 t1 t2, D w (real_crs (s1 o.1) (s2 o.2) a1 a2 t1 t2) = bad o) -> game s1 s2 real_crs D = Pr bad.
Proof.
move=> nw h; rewrite -(@Pr_fst_eq _ [finType of F * F * F * F] bad) ?F4_gt0 //.
rewrite -(@Pr_snd_eq W _ (fun x : (O1 * O2) * (F * F * F * F) => bad x.1)) //.
by apply: eq_Pr => -[w [[o1 o2] [[[a1 a2] t1] t2]]] /=; rewrite (h w (o1, o2)).
Qed.
Lemma game_zero : (forall w p1 p2 a1 a2 t1 t2, ~~ D w (real_crs p1 p2 a1 a2 t1 t2)) -> game s1 s2 real_crs D = 0.
Proof. by move=> h; apply: Pr_none => -[w [[o1 o2] [[[a1 a2] t1] t2]]]; apply: h. Qed.
End Game.

Lemma real_gen (F : finFieldType) (A B C : lmodType F) (e : A -> B -> C) p1 p2 a1 a2 t1 t2 :
  exists s', generate_crs (R := @queue F A B C e) ([:: p1], [:: p2], [:: a1; a2; t1; t2]) = (@real_crs F A B C e p1 p2 a1 a2 t1 t2, s').
Proof. by rewrite /real_crs; case: (generate_crs _) => c s'; exists s'. Qed.
Lemma real_g1 (F : finFieldType) (A B C : lmodType F) (e : A -> B -> C) p1 p2 a1 a2 t1 t2 : g1_gen (@real_crs F A B C e p1 p2 a1 a2 t1 t2) = p1.
Proof. by rewrite real_crsE. Qed.
Lemma real_g2 (F : finFieldType) (A B C : lmodType F) (e : A -> B -> C) p1 p2 a1 a2 t1 t2 : g2_gen (@real_crs F A B C e p1 p2 a1 a2 t1 t2) = p2.
Proof. by rewrite real_crsE. Qed.

Lemma err_ppe_never : forall (F : finFieldType) (A B C : lmodType F) (e : A -> B -> C), let E := Pairing e in
  forall (O1 O2 W : finType) (s1 : O1 -> A) (s2 : O2 -> B) (sch : sched) (lie : pred (PPE E)) (adv : W -> CRS E -> PPE E * CProof E),
  bilinear E -> valid_sched sch -> (forall q X Y, lie q -> ~ ppe_holds (E := E) q X Y) -> forgery s1 s2 (ppe_verify sch) lie adv = 0.
Proof.
move=> F A B C e E O1 O2 W s1 s2 sch lie adv hb vs hl; apply: game_zero => w p1 p2 a1 a2 t1 t2.
have [s' hg] := @real_gen F A B C e p1 p2 a1 a2 t1 t2.
have [ex1 [ex2 [_ _ _ _ hs]]] := ppe_sound_gen hb vs hg.
apply/negP => /andP [hq]; case hv : (ppe_verify _ _ _ _) => [[]|] // _.
exact: hl hq (hs _ _ hv).
Qed.

Lemma err_ms1_bound : forall (F : finFieldType) (A B C : lmodType F) (e : A -> B -> C), let E := Pairing e in
  forall (O1 O2 W : finType) (s1 : O1 -> A) (s2 : O2 -> B) (sch : sched) (lie : pred (MSMEG1 E)) (adv : W -> CRS E -> MSMEG1 E * CProof E),
  bilinear E -> nondegenerate E -> cyclic B -> valid_sched sch -> (forall q X Y, lie q -> ~ ms1_holds (E := E) q X Y) ->
  forgery s1 s2 (ms1_verify sch) lie adv <= Pr (fun o => s2 o == 0).
Proof.
move=> F A B C e E O1 O2 W s1 s2 sch lie adv hb hnd cb vs hl; apply: le_trans _ (@Pr_snd O1 O2 (fun o => s2 o == 0)); apply: (game_le (bad := fun o : O1 * O2 => s2 o.2 == 0)) => w o a1 a2 t1 t2.
have [s' hg] := @real_gen F A B C e (s1 o.1) (s2 o.2) a1 a2 t1 t2.
move=> /andP [hq]; case hv : (ms1_verify _ _ _ _) => [[]|] // _; apply/negPn/negP => n2.
have [ex1 [ex2 [_ _ _ _ hs]]] := ms1_sound_gen hb vs hg hnd cb (etrans (congr1 (fun x => x != 0) (real_g2 _ _ _ _ _ _ _)) n2).
exact: hl hq (hs _ _ hv).
Qed.

Lemma err_ms1_tight : forall (F : finFieldType) (A B C : lmodType F) (e : A -> B -> C), let E := Pairing e in
  forall (O1 O2 W : finType) (s1 : O1 -> A) (s2 : O2 -> B) (sch : sched),
  bilinear E -> nondegenerate E -> cyclic B -> valid_sched sch -> (0 < #|O1|)%N -> (0 < #|W|)%N -> (exists P : A, P != 0) ->
  exists (q : MSMEG1 E) (adv : W -> CRS E -> CProof E), (forall X Y, ~ ms1_holds q X Y) /\
  forgery s1 s2 (ms1_verify sch) predT (fun w crs => (q, adv w crs)) = Pr (fun o => s2 o == 0).
Proof.
move=> F A B C e E O1 O2 W s1 s2 sch hb hnd cb vs no nw [P nP] .
pose q : MSMEG1 E := mkMSMEG1 (E := E) [:: 0] [:: 0] [:: [:: 0]] P.
have hq X Y : ~ ms1_holds q X Y.
  rewrite /ms1_holds /= => h; case/negP: nP; apply/eqP; rewrite -h.
  rewrite [X in X + _ + _]big1 ?[X in _ + X + _]big1 ?[X in _ + X]big1 ?addr0 //.
  + by move=> i _; rewrite big1 // => j _; rewrite /entry /mrow; case: (nat_of_ord i) => [|i'] /=; case: (nat_of_ord j) => [|j'] /=; rewrite ?nth_nil ?scale0r ?mul0r ?scale0r ?mulr0 //.
  + by move=> i _; case: (nat_of_ord i) => [|i'] /=; rewrite ?nth_nil ?scale0r ?scaler0 ?mul0r ?mulr0.
  + by move=> i _; case: (nat_of_ord i) => [|i'] /=; rewrite ?nth_nil ?scale0r ?scaler0 ?mul0r ?mulr0.
have wf : ms1_wf q 1 1 by split=> //; split=> // -[|].
pose dflt : CProof E := mkCProof (mkCommit [::] [::] : Commit1 E) (mkCommit [::] [::] : Commit2 E) [::].
exists q, (fun w crs => if ms1_commit_and_prove (E := E) (R := tape_rng) sch q [:: 0] [:: 0] crs [::] is Ok (p, _) then p else dflt).
split=> //; rewrite -(@Pr_snd_eq O1 O2 (fun o => s2 o == 0)) //; apply: (game_eq (bad := fun o : O1 * O2 => s2 o.2 == 0)) => // w o a1 a2 t1 t2.
set crs := real_crs _ _ _ _ _ _; have [s' hg] := @real_gen F A B C e (s1 o.1) (s2 o.2) a1 a2 t1 t2.
have hu : size (crs_u crs) = 2%N by rewrite /crs real_crsE.
have hv : (1 < size (crs_v crs))%N by rewrite /crs real_crsE.
have [p [z ep]] := proj2 (@ms1_cap_total E tape_rng sch vs q [:: 0] [:: 0] crs [::]) (And4 (conj isT isT) wf hu hv).
cbv beta; rewrite ep [fst (q, p)]/= [snd (q, p)]/= [predT q]/= andTb.
case h0 : (s2 o.2 == 0).
  by rewrite (ms1_zero_gen hb vs vs hg (etrans (real_g2 _ _ _ _ _ _ _) (eqP h0)) ep).
have n2 : s2 o.2 != 0 by rewrite h0.
have [ex1 [ex2 [_ _ _ _ hs]]] := ms1_sound_gen hb vs hg hnd cb (etrans (congr1 (fun x => x != 0) (real_g2 _ _ _ _ _ _ _)) n2).
by case hw : (ms1_verify _ _ _ _) => [[]|] //; case: (hq _ _ (hs _ _ hw)).
Qed.

Lemma err_ms2_bound : forall (F : finFieldType) (A B C : lmodType F) (e : A -> B -> C), let E := Pairing e in
  forall (O1 O2 W : finType) (s1 : O1 -> A) (s2 : O2 -> B) (sch : sched) (lie : pred (MSMEG2 E)) (adv : W -> CRS E -> MSMEG2 E * CProof E),
  bilinear E -> nondegenerate E -> cyclic A -> valid_sched sch -> (forall q X Y, lie q -> ~ ms2_holds (E := E) q X Y) ->
  forgery s1 s2 (ms2_verify sch) lie adv <= Pr (fun o => s1 o == 0).
Proof.
move=> F A B C e E O1 O2 W s1 s2 sch lie adv hb hnd ca vs hl; apply: le_trans _ (@Pr_fst O1 O2 (fun o => s1 o == 0)); apply: (game_le (bad := fun o : O1 * O2 => s1 o.1 == 0)) => w o a1 a2 t1 t2.
have [s' hg] := @real_gen F A B C e (s1 o.1) (s2 o.2) a1 a2 t1 t2.
move=> /andP [hq]; case hv : (ms2_verify _ _ _ _) => [[]|] // _; apply/negPn/negP => n1.
have [ex1 [ex2 [_ _ _ _ hs]]] := ms2_sound_gen hb vs hg hnd ca (etrans (congr1 (fun x => x != 0) (real_g1 _ _ _ _ _ _ _)) n1).
exact: hl hq (hs _ _ hv).
Qed.

Lemma err_ms2_tight : forall (F : finFieldType) (A B C : lmodType F) (e : A -> B -> C), let E := Pairing e in
  forall (O1 O2 W : finType) (s1 : O1 -> A) (s2 : O2 -> B) (sch : sched),
  bilinear E -> nondegenerate E -> cyclic A -> valid_sched sch -> (0 < #|O2|)%N -> (0 < #|W|)%N -> (exists P : B, P != 0) ->
  exists (q : MSMEG2 E) (adv : W -> CRS E -> CProof E), (forall X Y, ~ ms2_holds q X Y) /\
  forgery s1 s2 (ms2_verify sch) predT (fun w crs => (q, adv w crs)) = Pr (fun o => s1 o == 0).
Proof.
move=> F A B C e E O1 O2 W s1 s2 sch hb hnd ca vs no nw [P nP] .
pose q : MSMEG2 E := mkMSMEG2 (E := E) [:: 0] [:: 0] [:: [:: 0]] P.
have hq X Y : ~ ms2_holds q X Y.
  rewrite /ms2_holds /= => h; case/negP: nP; apply/eqP; rewrite -h.
  rewrite [X in X + _ + _]big1 ?[X in _ + X + _]big1 ?[X in _ + X]big1 ?addr0 //.
  + by move=> i _; rewrite big1 // => j _; rewrite /entry /mrow; case: (nat_of_ord i) => [|i'] /=; case: (nat_of_ord j) => [|j'] /=; rewrite ?nth_nil ?scale0r ?mul0r ?scale0r ?mulr0 //.
  + by move=> i _; case: (nat_of_ord i) => [|i'] /=; rewrite ?nth_nil ?scale0r ?scaler0 ?mul0r ?mulr0.
  + by move=> i _; case: (nat_of_ord i) => [|i'] /=; rewrite ?nth_nil ?scale0r ?scaler0 ?mul0r ?mulr0.
have wf : ms2_wf q 1 1 by split=> //; split=> // -[|].
pose dflt : CProof E := mkCProof (mkCommit [::] [::] : Commit1 E) (mkCommit [::] [::] : Commit2 E) [::].
exists q, (fun w crs => if ms2_commit_and_prove (E := E) (R := tape_rng) sch q [:: 0] [:: 0] crs [::] is Ok (p, _) then p else dflt).
split=> //; rewrite -(@Pr_fst_eq O1 O2 (fun o => s1 o == 0)) //; apply: (game_eq (bad := fun o : O1 * O2 => s1 o.1 == 0)) => // w o a1 a2 t1 t2.
set crs := real_crs _ _ _ _ _ _; have [s' hg] := @real_gen F A B C e (s1 o.1) (s2 o.2) a1 a2 t1 t2.
have hu : (1 < size (crs_u crs))%N by rewrite /crs real_crsE.
have hv : size (crs_v crs) = 2%N by rewrite /crs real_crsE.
have [p [z ep]] := proj2 (@ms2_cap_total E tape_rng sch vs q [:: 0] [:: 0] crs [::]) (And4 (conj isT isT) wf hu hv).
cbv beta; rewrite ep [fst (q, p)]/= [snd (q, p)]/= [predT q]/= andTb.
case h0 : (s1 o.1 == 0).
  by rewrite (ms2_zero_gen hb vs vs hg (etrans (real_g1 _ _ _ _ _ _ _) (eqP h0)) ep).
have n1 : s1 o.1 != 0 by rewrite h0.
have [ex1 [ex2 [_ _ _ _ hs]]] := ms2_sound_gen hb vs hg hnd ca (etrans (congr1 (fun x => x != 0) (real_g1 _ _ _ _ _ _ _)) n1).
by case hw : (ms2_verify _ _ _ _) => [[]|] //; case: (hq _ _ (hs _ _ hw)).
Qed.

Lemma err_quad_bound : forall (F : finFieldType) (A B C : lmodType F) (e : A -> B -> C), let E := Pairing e in
  forall (O1 O2 W : finType) (s1 : O1 -> A) (s2 : O2 -> B) (sch : sched) (lie : pred (QuadEqu E)) (adv : W -> CRS E -> QuadEqu E * CProof E),
  bilinear E -> nondegenerate E -> cyclic A -> cyclic B -> valid_sched sch -> (forall q X Y, lie q -> ~ quad_holds (E := E) q X Y) ->
  forgery s1 s2 (quad_verify sch) lie adv <= Pr (fun o => (s1 o.1 == 0) || (s2 o.2 == 0)).
Proof.
move=> F A B C e E O1 O2 W s1 s2 sch lie adv hb hnd ca cb vs hl; apply: (game_le (bad := fun o : O1 * O2 => (s1 o.1 == 0) || (s2 o.2 == 0))) => w o a1 a2 t1 t2.
have [s' hg] := @real_gen F A B C e (s1 o.1) (s2 o.2) a1 a2 t1 t2.
move=> /andP [hq]; case hv : (quad_verify _ _ _ _) => [[]|] // _; apply/negPn/negP; rewrite negb_or => /andP [n1 n2].
have [ex1 [ex2 [_ _ _ _ hs]]] := quad_sound_gen hb vs hg hnd ca cb (etrans (congr1 (fun x => x != 0) (real_g1 _ _ _ _ _ _ _)) n1) (etrans (congr1 (fun x => x != 0) (real_g2 _ _ _ _ _ _ _)) n2).
exact: hl hq (hs _ _ hv).
Qed.

Lemma err_quad_tight : forall (F : finFieldType) (A B C : lmodType F) (e : A -> B -> C), let E := Pairing e in
  forall (O1 O2 W : finType) (s1 : O1 -> A) (s2 : O2 -> B) (sch : sched),
  bilinear E -> nondegenerate E -> cyclic A -> cyclic B -> valid_sched sch -> (0 < #|W|)%N ->
  exists (q : QuadEqu E) (adv : W -> CRS E -> CProof E), (forall X Y, ~ quad_holds q X Y) /\
  forgery s1 s2 (quad_verify sch) predT (fun w crs => (q, adv w crs)) = Pr (fun o => (s1 o.1 == 0) || (s2 o.2 == 0)).
Proof.
move=> F A B C e E O1 O2 W s1 s2 sch hb hnd ca cb vs nw.
pose q : QuadEqu E := mkQuadEqu (E := E) [:: 0] [:: 0] [:: [:: 0]] 1.
have hq X Y : ~ quad_holds q X Y.
  rewrite /quad_holds /= => h; case/negP: (oner_neq0 F); apply/eqP; rewrite -h.
  rewrite [X in X + _ + _]big1 ?[X in _ + X + _]big1 ?[X in _ + X]big1 ?addr0 //.
  + by move=> i _; rewrite big1 // => j _; rewrite /entry /mrow; case: (nat_of_ord i) => [|i'] /=; case: (nat_of_ord j) => [|j'] /=; rewrite ?nth_nil ?scale0r ?mul0r ?scale0r ?mulr0 //.
  + by move=> i _; case: (nat_of_ord i) => [|i'] /=; rewrite ?nth_nil ?scale0r ?scaler0 ?mul0r ?mulr0.
  + by move=> i _; case: (nat_of_ord i) => [|i'] /=; rewrite ?nth_nil ?scale0r ?scaler0 ?mul0r ?mulr0.
have wf : quad_wf q 1 1 by split=> //; split=> // -[|].
pose dflt : CProof E := mkCProof (mkCommit [::] [::] : Commit1 E) (mkCommit [::] [::] : Commit2 E) [::].
exists q, (fun w crs => if quad_commit_and_prove (E := E) (R := tape_rng) sch q [:: 0] [:: 0] crs [::] is Ok (p, _) then p else dflt).
split=> //; apply: (game_eq (bad := fun o : O1 * O2 => (s1 o.1 == 0) || (s2 o.2 == 0))) => // w o a1 a2 t1 t2.
set crs := real_crs _ _ _ _ _ _; have [s' hg] := @real_gen F A B C e (s1 o.1) (s2 o.2) a1 a2 t1 t2.
have hu : (1 < size (crs_u crs))%N by rewrite /crs real_crsE.
have hv : (1 < size (crs_v crs))%N by rewrite /crs real_crsE.
have [p [z ep]] := proj2 (@quad_cap_total E tape_rng sch vs q [:: 0] [:: 0] crs [::]) (And4 (conj isT isT) wf hu hv).
cbv beta; rewrite ep [fst (q, p)]/= [snd (q, p)]/= [predT q]/= andTb.
case h0 : ((s1 o.1 == 0) || (s2 o.2 == 0)).
  have hz : g1_gen crs = 0 \/ g2_gen crs = 0 by rewrite /crs real_g1 real_g2; case/orP: h0 => /eqP ->; [left | right].
  by rewrite (quad_zero_gen hb vs vs hg hz ep).
move/negbT: h0; rewrite negb_or => /andP [n1 n2].
have [ex1 [ex2 [_ _ _ _ hs]]] := quad_sound_gen hb vs hg hnd ca cb (etrans (congr1 (fun x => x != 0) (real_g1 _ _ _ _ _ _ _)) n1) (etrans (congr1 (fun x => x != 0) (real_g2 _ _ _ _ _ _ _)) n2).
by case hw : (quad_verify _ _ _ _) => [[]|] //; case: (hq _ _ (hs _ _ hw)).
Qed.

Lemma err_uniform : forall (F : finFieldType) (A B : lmodType F) (O1 O2 : finType) (s1 : O1 -> A) (s2 : O2 -> B),
  injective s1 -> injective s2 -> (exists o, s1 o = 0) -> (exists o, s2 o = 0) ->
  [/\ Pr (fun o => s1 o == 0) = (#|O1|)%:R^-1, Pr (fun o => s2 o == 0) = (#|O2|)%:R^-1 &
      Pr (fun o => (s1 o.1 == 0) || (s2 o.2 == 0)) = (#|O1|)%:R^-1 + (#|O2|)%:R^-1 - (#|O1| * #|O2|)%:R^-1].
Proof.
move=> F A B O1 O2 s1 s2 h1 h2 e1 e2; split; [exact: Pr_bij_zero | exact: Pr_bij_zero |].
have [o1 _] := e1; have [o2 _] := e2.
have p1 : (0 < #|O1|)%N by apply/card_gt0P; exists o1.
have p2 : (0 < #|O2|)%N by apply/card_gt0P; exists o2.
apply/eqP; rewrite eq_sym subr_eq eq_sym; apply/eqP.
have -> : (#|O1| * #|O2|)%:R^-1 = Pr (fun o : O1 * O2 => (s1 o.1 == 0) && (s2 o.2 == 0)) :> rat.
  have -> : Pr (fun o : O1 * O2 => (s1 o.1 == 0) && (s2 o.2 == 0)) = Pr (fun o : O1 * O2 => (s1 o.1, s2 o.2) == (0, 0)) by apply: eq_Pr.
  rewrite (Pr_bij_zero (s := fun o : O1 * O2 => (s1 o.1, s2 o.2))) ?card_prod //.
    by move=> [a b] [c d] /= [/h1 -> /h2 ->].
  by have [a ha] := e1; have [b hb] := e2; exists (a, b); rewrite /= ha hb.
rewrite -(Pr_bij_zero h1 e1) -(Pr_bij_zero h2 e2) -(@Pr_fst_eq O1 O2 (fun o => s1 o == 0)) // -(@Pr_snd_eq O1 O2 (fun o => s2 o == 0)) //.
rewrite /Pr -!mulrDl -!natrD; congr (_%:R / _); rewrite !card_pred -!big_split /=; apply: eq_bigr => o _.
by case: (s1 _ == 0); case: (s2 _ == 0).
Qed.

Lemma dbl_G1 (E : pairing) (R : rng E) (s s' : rst R) (crs : CRS E) x r x' r' : generate_crs s = (crs, s') ->
  ~~ ((x != x') && (if (@commit_G1 E tape_rng x crs r, @commit_G1 E tape_rng x' crs r') is (Ok (c, _), Ok (c', _)) then coms c == coms c' else false)).
Proof.
move=> hg; apply/negP => /andP [hn].
case h1 : (commit_G1 x crs r) => [[c z]|//]; case h2 : (commit_G1 x' crs r') => [[c' z']|//] /eqP hc.
by have hx := G1_binding1_gen hg h1 h2 hc; rewrite hx eqxx in hn.
Qed.

Lemma err_G1_binding : forall (F : finFieldType) (A B C : lmodType F) (e : A -> B -> C), let E := Pairing e in
  forall (O1 O2 W : finType) (s1 : O1 -> A) (s2 : O2 -> B) (adv : W -> CRS E -> (A * seq F) * (A * seq F)),
  double_opening s1 s2 (fun x crs R s => @commit_G1 E R x crs s) adv = 0.
Proof.
move=> F A B C e E O1 O2 W s1 s2 adv; apply: game_zero => w p1 p2 a1 a2 t1 t2.
have [s' hg] := @real_gen F A B C e p1 p2 a1 a2 t1 t2.
by case: (adv _ _) => [[x r] [x' r']]; apply: (dbl_G1 (E := E) x r x' r' hg).
Qed.

Lemma dbl_G2 (E : pairing) (R : rng E) (s s' : rst R) (crs : CRS E) x r x' r' : generate_crs s = (crs, s') ->
  ~~ ((x != x') && (if (@commit_G2 E tape_rng x crs r, @commit_G2 E tape_rng x' crs r') is (Ok (c, _), Ok (c', _)) then coms c == coms c' else false)).
Proof.
move=> hg; apply/negP => /andP [hn].
case h1 : (commit_G2 x crs r) => [[c z]|//]; case h2 : (commit_G2 x' crs r') => [[c' z']|//] /eqP hc.
by have hx := G2_binding1_gen hg h1 h2 hc; rewrite hx eqxx in hn.
Qed.

Lemma err_G2_binding : forall (F : finFieldType) (A B C : lmodType F) (e : A -> B -> C), let E := Pairing e in
  forall (O1 O2 W : finType) (s1 : O1 -> A) (s2 : O2 -> B) (adv : W -> CRS E -> (B * seq F) * (B * seq F)),
  double_opening s1 s2 (fun x crs R s => @commit_G2 E R x crs s) adv = 0.
Proof.
move=> F A B C e E O1 O2 W s1 s2 adv; apply: game_zero => w p1 p2 a1 a2 t1 t2.
have [s' hg] := @real_gen F A B C e p1 p2 a1 a2 t1 t2.
by case: (adv _ _) => [[x r] [x' r']]; apply: (dbl_G2 (E := E) x r x' r' hg).
Qed.

Lemma dbl_B1 (E : pairing) (R : rng E) (s s' : rst R) (crs : CRS E) x r x' r' : generate_crs s = (crs, s') ->
  (x != x') && (if (@commit_scalar_to_B1 E tape_rng x crs r, @commit_scalar_to_B1 E tape_rng x' crs r') is (Ok (c, _), Ok (c', _)) then coms c == coms c' else false) -> g1_gen crs == 0.
Proof.
move=> hg /andP [hn].
case h1 : (commit_scalar_to_B1 x crs r) => [[c z]|//]; case h2 : (commit_scalar_to_B1 x' crs r') => [[c' z']|//] /eqP hc.
apply/negPn/negP => n; have hx := B1_binding1_gen hg n h1 h2 hc.
by rewrite hx eqxx in hn.
Qed.

Lemma err_B1_binding : forall (F : finFieldType) (A B C : lmodType F) (e : A -> B -> C), let E := Pairing e in
  forall (O1 O2 W : finType) (s1 : O1 -> A) (s2 : O2 -> B) (adv : W -> CRS E -> (F * seq F) * (F * seq F)),
  double_opening s1 s2 (fun x crs R s => @commit_scalar_to_B1 E R x crs s) adv <= Pr (fun o => s1 o == 0).
Proof.
move=> F A B C e E O1 O2 W s1 s2 adv; apply: le_trans _ (@Pr_fst O1 O2 (fun o => s1 o == 0)).
apply: (game_le (bad := fun o : O1 * O2 => s1 o.1 == 0)) => w o a1 a2 t1 t2.
have [s' hg] := @real_gen F A B C e (s1 o.1) (s2 o.2) a1 a2 t1 t2.
case: (adv _ _) => [[x r] [x' r']] h; rewrite -(real_g1 e (s1 o.1) (s2 o.2) a1 a2 t1 t2); exact: (dbl_B1 (E := E) hg h).
Qed.

Lemma err_B1_tight : forall (F : finFieldType) (A B C : lmodType F) (e : A -> B -> C), let E := Pairing e in
  forall (O1 O2 W : finType) (s1 : O1 -> A) (s2 : O2 -> B),
  (0 < #|W|)%N -> (0 < #|O2|)%N ->
  exists adv : W -> CRS E -> (F * seq F) * (F * seq F),
  double_opening s1 s2 (fun x crs R s => @commit_scalar_to_B1 E R x crs s) adv = Pr (fun o => s1 o == 0).
Proof.
move=> F A B C e E O1 O2 W s1 s2 nw no; exists (fun _ _ => ((0, [::]), (1, [::]))).
rewrite -(@Pr_fst_eq O1 O2 (fun o => s1 o == 0)) //.
apply: (game_eq (bad := fun o : O1 * O2 => s1 o.1 == 0)) => // w o a1 a2 t1 t2.
rewrite real_crsE eq_sym oner_neq0 andTb /=.
rewrite /com_add /com_scalar_mul /= !scale0r !scale1r !addr0.
case: eqP => [[h1 h2]|h]; case: eqP => // h'; last by case: h; rewrite h' !scaler0 addr0.
by case: h'; rewrite [RHS]h2 scalerA mulrC -scalerA -h1 scaler0 add0r.
Qed.

Lemma dbl_B2 (E : pairing) (R : rng E) (s s' : rst R) (crs : CRS E) x r x' r' : generate_crs s = (crs, s') ->
  (x != x') && (if (@commit_scalar_to_B2 E tape_rng x crs r, @commit_scalar_to_B2 E tape_rng x' crs r') is (Ok (c, _), Ok (c', _)) then coms c == coms c' else false) -> g2_gen crs == 0.
Proof.
move=> hg /andP [hn].
case h1 : (commit_scalar_to_B2 x crs r) => [[c z]|//]; case h2 : (commit_scalar_to_B2 x' crs r') => [[c' z']|//] /eqP hc.
apply/negPn/negP => n; have hx := B2_binding1_gen hg n h1 h2 hc.
by rewrite hx eqxx in hn.
Qed.

Lemma err_B2_binding : forall (F : finFieldType) (A B C : lmodType F) (e : A -> B -> C), let E := Pairing e in
  forall (O1 O2 W : finType) (s1 : O1 -> A) (s2 : O2 -> B) (adv : W -> CRS E -> (F * seq F) * (F * seq F)),
  double_opening s1 s2 (fun x crs R s => @commit_scalar_to_B2 E R x crs s) adv <= Pr (fun o => s2 o == 0).
Proof.
move=> F A B C e E O1 O2 W s1 s2 adv; apply: le_trans _ (@Pr_snd O1 O2 (fun o => s2 o == 0)).
apply: (game_le (bad := fun o : O1 * O2 => s2 o.2 == 0)) => w o a1 a2 t1 t2.
have [s' hg] := @real_gen F A B C e (s1 o.1) (s2 o.2) a1 a2 t1 t2.
case: (adv _ _) => [[x r] [x' r']] h; rewrite -(real_g2 e (s1 o.1) (s2 o.2) a1 a2 t1 t2); exact: (dbl_B2 (E := E) hg h).
Qed.

Lemma err_B2_tight : forall (F : finFieldType) (A B C : lmodType F) (e : A -> B -> C), let E := Pairing e in
  forall (O1 O2 W : finType) (s1 : O1 -> A) (s2 : O2 -> B),
  (0 < #|W|)%N -> (0 < #|O1|)%N ->
  exists adv : W -> CRS E -> (F * seq F) * (F * seq F),
  double_opening s1 s2 (fun x crs R s => @commit_scalar_to_B2 E R x crs s) adv = Pr (fun o => s2 o == 0).
Proof.
move=> F A B C e E O1 O2 W s1 s2 nw no; exists (fun _ _ => ((0, [::]), (1, [::]))).
rewrite -(@Pr_snd_eq O1 O2 (fun o => s2 o == 0)) //.
apply: (game_eq (bad := fun o : O1 * O2 => s2 o.2 == 0)) => // w o a1 a2 t1 t2.
rewrite real_crsE eq_sym oner_neq0 andTb /=.
rewrite /com_add /com_scalar_mul /= !scale0r !scale1r !addr0.
case: eqP => [[h1 h2]|h]; case: eqP => // h'; last by case: h; rewrite h' !scaler0 addr0.
by case: h'; rewrite [RHS]h2 scalerA mulrC -scalerA -h1 scaler0 add0r.
Qed.

