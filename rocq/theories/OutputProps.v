(** Proofs of the statements in P_Output.v. *)
From mathcomp Require Import all_ssreflect all_algebra.
From Verif Require Import Base BaseLemmas Group DataStructures Generator Commit Statement Prove Verify Spec SpecMat SpecVerify SpecHide SpecPanic SpecTamper SpecFormula FormulaProps SpecRerand HideCore HideTape Hiding HideProps Main Exist ExistProps MallProps FibreProps.
Set Implicit Arguments.
Unset Strict Implicit.
Unset Printing Implicit Defensive.
Import GRing.Theory.
Local Open Scope ring_scope.

Lemma seq1P (V : zmodType) (s : seq V) : size s = 1%N -> s = [:: nth 0 s 0].
Proof. by case: s => [|a []]. Qed.
Lemma seq2P (V : zmodType) (s : seq V) : size s = 2%N -> s = [:: nth 0 s 0; nth 0 s 1].
Proof. by case: s => [|a [|b []]]. Qed.

Lemma swap4 (F : fieldType) (a b c d t1 t2 : F) : a + t2 * b + t1 * (c + t2 * d) = a + t1 * c + t2 * (b + t1 * d).
Proof. by rewrite !mulrDr addrACA [t1 * (t2 * _)]mulrCA. Qed.

Lemma fold_to (F : fieldType) (V : lmodType F) (t c d : F) (x y v w : V) : x + c *: v + t *: (y + d *: v) = x + t *: y + w -> (c + t * d) *: v = w.
Proof. by rewrite scalerDr scalerA addrACA -scalerDl => /addrI. Qed.

Section Outputs.
Context {E : pairing}.
Local Notation F := (Fr E).
Implicit Types crs : CRS E.

Lemma pv_shift m n kx ky A X B Y G R S (T T' : matrix F) crs t :
  let f := prove_value m n kx ky A X B Y G R S T crs t in
  let g := prove_value m n kx ky A X B Y G R S T' crs t in
  pi g = mkseq (fun k => nth 0 (pi f) k - \sum_(l < ky) (at_ T' l k - at_ T l k) *: nth 0 (crs_v crs) l) kx /\
  theta g = mkseq (fun l => nth 0 (theta f) l + \sum_(k < kx) (at_ T' l k - at_ T l k) *: nth 0 (crs_u crs) k) ky.
Proof.
move=> f g; rewrite /f /g /=; split; apply/mkseq_same => k hk; rewrite nth_mkseq //.
  rewrite -[RHS]addrA; congr (_ + _); rewrite -sumrB; apply: eq_bigr => l _.
  by rewrite -scalerBl; congr (_ *: _); rewrite opprB -addrA; congr (_ + _); rewrite addrA addNr add0r.
rewrite -[RHS]addrA; congr (_ + _); rewrite -big_split; apply: eq_bigr => l _.
by rewrite /= -scalerDl; congr (_ *: _); rewrite addrCA subrr addr0.
Qed.

Section Key.
Variables (crs : CRS E) (a1 a2 t1 t2 : F).
Hypothesis bk : binding_crs_with crs a1 a2 t1 t2.
Let eu2 : u2 crs = t1 *: u1 crs. Proof. by case: bk => ->. Qed.
Let ev2 : v2 crs = t2 *: v1 crs. Proof. by case: bk => _ ->. Qed.

Lemma ppe_shift (R R' : rng E) sch (q : PPE E) X Y (cx : Commit1 E) (cy : Commit2 E) (s s' : rst R) (z : rst R') f :
  valid_sched sch -> ppe_prove sch q X Y cx cy crs s = Ok (f, s') ->
  let d i := drawn z i - drawn s i in
  seen (fun g => (pi g, theta g)) (ppe_prove sch q X Y cx cy crs z) =
  Ok ([:: nth 0 (pi f) 0 - (d 0%N + t2 * d 2%N) *: v1 crs; nth 0 (pi f) 1 - (d 1%N + t2 * d 3%N) *: v1 crs],
      [:: nth 0 (theta f) 0 + (d 0%N + t1 * d 1%N) *: u1 crs; nth 0 (theta f) 1 + (d 2%N + t1 * d 3%N) *: u1 crs]).
Proof.
move=> vs; rewrite !(FormulaProps.ppe_prove_total _ _ _ _ _ _ _ vs) /checked; case: first_failed => // -[ef _].
have := pv_shift (size X) (size Y) 2 2 [seq i1 x | x <- ppe_a q] [seq i1 x | x <- X]
         [seq i2 y | y <- ppe_b q] [seq i2 y | y <- Y] (ppe_gamma q) (crand cx) (crand cy)
         (table 2 2 (fun i j => drawn s (2 * i + j)%N)) (table 2 2 (fun i j => drawn z (2 * i + j)%N)) crs PairingProduct.
cbv zeta; rewrite ef /seen => -[-> ->]; rewrite /mkseq /= !big_ord_recl !big_ord0 /= !addr0 eu2 ev2 !scalerA -!scalerDl.
by rewrite !(mulrC t1) !(mulrC t2).
Qed.

Lemma ms1_shift (R R' : rng E) sch (q : MSMEG1 E) X Y (cx : Commit1 E) (cy : Commit2 E) (s s' : rst R) (z : rst R') f :
  valid_sched sch -> ms1_prove sch q X Y cx cy crs s = Ok (f, s') ->
  let d i := drawn z i - drawn s i in
  seen (fun g => (pi g, theta g)) (ms1_prove sch q X Y cx cy crs z) =
  Ok ([:: nth 0 (pi f) 0 - d 0%N *: v1 crs; nth 0 (pi f) 1 - d 1%N *: v1 crs],
      [:: nth 0 (theta f) 0 + (d 0%N + t1 * d 1%N) *: u1 crs]).
Proof.
move=> vs; rewrite !(FormulaProps.ms1_prove_total _ _ _ _ _ _ _ vs) /checked; case: first_failed => // -[ef _].
have := pv_shift (size X) (size Y) 2 1 [seq i1 x | x <- ms1_a q] [seq i1 x | x <- X]
         [seq k2 crs y | y <- ms1_b q] [seq k2 crs y | y <- Y] (ms1_gamma q) (crand cx) (crand cy)
         (table 1 2 (fun i j => drawn s j)) (table 1 2 (fun i j => drawn z j)) crs MultiScalarG1.
cbv zeta; rewrite ef /seen => -[-> ->]; rewrite /mkseq /= !big_ord_recl !big_ord0 /= !addr0 eu2 !scalerA -!scalerDl.
by rewrite !(mulrC t1).
Qed.

Lemma ms2_shift (R R' : rng E) sch (q : MSMEG2 E) X Y (cx : Commit1 E) (cy : Commit2 E) (s s' : rst R) (z : rst R') f :
  valid_sched sch -> ms2_prove sch q X Y cx cy crs s = Ok (f, s') ->
  let d i := drawn z i - drawn s i in
  seen (fun g => (pi g, theta g)) (ms2_prove sch q X Y cx cy crs z) =
  Ok ([:: nth 0 (pi f) 0 - (d 0%N + t2 * d 1%N) *: v1 crs],
      [:: nth 0 (theta f) 0 + d 0%N *: u1 crs; nth 0 (theta f) 1 + d 1%N *: u1 crs]).
Proof.
move=> vs; rewrite !(FormulaProps.ms2_prove_total _ _ _ _ _ _ _ vs) /checked; case: first_failed => // -[ef _].
have := pv_shift (size X) (size Y) 1 2 [seq k1 crs x | x <- ms2_a q] [seq k1 crs x | x <- X]
         [seq i2 y | y <- ms2_b q] [seq i2 y | y <- Y] (ms2_gamma q) (crand cx) (crand cy)
         (table 2 1 (fun i j => drawn s i)) (table 2 1 (fun i j => drawn z i)) crs MultiScalarG2.
cbv zeta; rewrite ef /seen => -[-> ->]; rewrite /mkseq /= !big_ord_recl !big_ord0 /= !addr0 ev2 !scalerA -!scalerDl.
by rewrite !(mulrC t2).
Qed.
End Key.

Lemma quad_shift (R R' : rng E) sch (q : QuadEqu E) X Y (cx : Commit1 E) (cy : Commit2 E) crs (s s' : rst R) (z : rst R') f :
  valid_sched sch -> quad_prove sch q X Y cx cy crs s = Ok (f, s') ->
  let d := drawn z 0 - drawn s 0 in
  seen (fun g => (pi g, theta g)) (quad_prove sch q X Y cx cy crs z) =
  Ok ([:: nth 0 (pi f) 0 - d *: v1 crs], [:: nth 0 (theta f) 0 + d *: u1 crs]).
Proof.
move=> vs; rewrite !(FormulaProps.quad_prove_total _ _ _ _ _ _ _ vs) /checked; case: first_failed => // -[ef _].
have := pv_shift (size X) (size Y) 1 1 [seq k1 crs x | x <- quad_a q] [seq k1 crs x | x <- X]
         [seq k2 crs y | y <- quad_b q] [seq k2 crs y | y <- Y] (quad_gamma q) (crand cx) (crand cy)
         (table 1 1 (fun i j => drawn s 0)) (table 1 1 (fun i j => drawn z 0)) crs Quadratic.
by cbv zeta; rewrite ef /seen => -[-> ->]; rewrite /mkseq /= !big_ord_recl !big_ord0 /= !addr0.
Qed.

Lemma drawnE N (R : rng E) (z : rst R) (t : N.-tuple F) i : draws N z = t -> (i < N)%N -> drawn z i = nth 0 t i.
Proof. by move=> <- hi; rewrite -(tnth_nth 0 _ (Ordinal hi)) tnth_mktuple. Qed.

Lemma k_C96_ppe_outputs (R : rng E) sch (q : PPE E) X Y (cx : Commit1 E) (cy : Commit2 E) crs (s s' : rst R) f g a1 a2 t1 t2 :
  valid_sched sch -> binding_crs_with crs a1 a2 t1 t2 -> ppe_prove sch q X Y cx cy crs s = Ok (f, s') ->
  size (pi g) = 2%N -> size (theta g) = 2%N ->
  ((exists t : 4.-tuple F, yields (fun R s => ppe_prove (R := R) sch q X Y cx cy crs s) g t) <->
   exists al0 al1 be0 be1, [/\ nth 0 (pi g) 0 = nth 0 (pi f) 0 - al0 *: v1 crs, nth 0 (pi g) 1 = nth 0 (pi f) 1 - al1 *: v1 crs,
     nth 0 (theta g) 0 = nth 0 (theta f) 0 + be0 *: u1 crs, nth 0 (theta g) 1 = nth 0 (theta f) 1 + be1 *: u1 crs
     & al0 + t1 * al1 = be0 + t2 * be1]).
Proof.
move=> vs bk hf sp st; split=> [[t ht]|[al0 [al1 [be0 [be1 [h0 h1 h2 h3 hk]]]]]].
  have := ht _ (tval t : rst (@tape_rng E)) (draws_tape t); rewrite (ppe_shift bk _ vs hf) => -[<- <-].
  do 4 eexists; split; try reflexivity.
  exact: swap4.
pose t : 4.-tuple F := [tuple drawn s 0 + (al0 - t2 * be1); drawn s 1 + al1; drawn s 2 + be1; drawn s 3].
exists t => R' z hz; rewrite (ppe_shift bk _ vs hf) !(drawnE hz) //= (seq2P sp) (seq2P st) h0 h1 h2 h3.
have k x y : x + y - x = y :> F by rewrite addrC addKr.
rewrite !k !subrr !mulr0 !addr0 subrK; congr (Ok (_, [:: _ + _ *: _; _])).
by apply/eqP; rewrite addrAC hk addrK.
Qed.

Lemma k_C96_ms1_outputs (R : rng E) sch (q : MSMEG1 E) X Y (cx : Commit1 E) (cy : Commit2 E) crs (s s' : rst R) f g a1 a2 t1 t2 :
  valid_sched sch -> binding_crs_with crs a1 a2 t1 t2 -> ms1_prove sch q X Y cx cy crs s = Ok (f, s') ->
  size (pi g) = 2%N -> size (theta g) = 1%N ->
  ((exists t : 2.-tuple F, yields (fun R s => ms1_prove (R := R) sch q X Y cx cy crs s) g t) <->
   exists al0 al1, [/\ nth 0 (pi g) 0 = nth 0 (pi f) 0 - al0 *: v1 crs, nth 0 (pi g) 1 = nth 0 (pi f) 1 - al1 *: v1 crs
     & nth 0 (theta g) 0 = nth 0 (theta f) 0 + (al0 + t1 * al1) *: u1 crs]).
Proof.
move=> vs bk hf sp st; split=> [[t ht]|[al0 [al1 [h0 h1 h2]]]].
  have := ht _ (tval t : rst (@tape_rng E)) (draws_tape t); rewrite (ms1_shift bk _ vs hf) => -[<- <-].
  by do 2 eexists; split; try reflexivity.
pose t : 2.-tuple F := [tuple drawn s 0 + al0; drawn s 1 + al1].
exists t => R' z hz; rewrite (ms1_shift bk _ vs hf) !(drawnE hz) //= (seq2P sp) (seq1P st) h0 h1 h2.
have k x y : x + y - x = y :> F by rewrite addrC addKr.
by rewrite !k.
Qed.

Lemma k_C96_ms2_outputs (R : rng E) sch (q : MSMEG2 E) X Y (cx : Commit1 E) (cy : Commit2 E) crs (s s' : rst R) f g a1 a2 t1 t2 :
  valid_sched sch -> binding_crs_with crs a1 a2 t1 t2 -> ms2_prove sch q X Y cx cy crs s = Ok (f, s') ->
  size (pi g) = 1%N -> size (theta g) = 2%N ->
  ((exists t : 2.-tuple F, yields (fun R s => ms2_prove (R := R) sch q X Y cx cy crs s) g t) <->
   exists be0 be1, [/\ nth 0 (pi g) 0 = nth 0 (pi f) 0 - (be0 + t2 * be1) *: v1 crs,
     nth 0 (theta g) 0 = nth 0 (theta f) 0 + be0 *: u1 crs & nth 0 (theta g) 1 = nth 0 (theta f) 1 + be1 *: u1 crs]).
Proof.
move=> vs bk hf sp st; split=> [[t ht]|[be0 [be1 [h0 h1 h2]]]].
  have := ht _ (tval t : rst (@tape_rng E)) (draws_tape t); rewrite (ms2_shift bk _ vs hf) => -[<- <-].
  by do 2 eexists; split; try reflexivity.
pose t : 2.-tuple F := [tuple drawn s 0 + be0; drawn s 1 + be1].
exists t => R' z hz; rewrite (ms2_shift bk _ vs hf) !(drawnE hz) //= (seq1P sp) (seq2P st) h0 h1 h2.
have k x y : x + y - x = y :> F by rewrite addrC addKr.
by rewrite !k.
Qed.

Lemma k_C96_quad_outputs (R : rng E) sch (q : QuadEqu E) X Y (cx : Commit1 E) (cy : Commit2 E) crs (s s' : rst R) f g :
  valid_sched sch -> quad_prove sch q X Y cx cy crs s = Ok (f, s') ->
  size (pi g) = 1%N -> size (theta g) = 1%N ->
  ((exists t : 1.-tuple F, yields (fun R s => quad_prove (R := R) sch q X Y cx cy crs s) g t) <->
   exists al, nth 0 (pi g) 0 = nth 0 (pi f) 0 - al *: v1 crs /\ nth 0 (theta g) 0 = nth 0 (theta f) 0 + al *: u1 crs).
Proof.
move=> vs hf sp st; split=> [[t ht]|[al [h0 h1]]].
  have := ht _ (tval t : rst (@tape_rng E)) (draws_tape t); rewrite (quad_shift _ vs hf) => -[<- <-].
  by eexists; split; try reflexivity.
pose t : 1.-tuple F := [tuple drawn s 0 + al].
exists t => R' z hz; rewrite (quad_shift _ vs hf) !(drawnE hz) //= (seq1P sp) (seq1P st) h0 h1.
have k x y : x + y - x = y :> F by rewrite addrC addKr.
by rewrite !k.
Qed.

(** Among accepted proofs. *)
Lemma k_C96_ppe_accepted (R : rng E) sch sch' (q : PPE E) X Y (cx : Commit1 E) (cy : Commit2 E) crs (s s' : rst R) f g :
  bilinear E -> nondegenerate E -> cyclic (G2 E) -> valid_sched sch -> valid_sched sch' -> binding_crs crs -> proper_crs crs ->
  made_G1 crs X cx -> made_G2 crs Y cy -> ppe_holds q X Y -> ppe_prove sch q X Y cx cy crs s = Ok (f, s') ->
  equ_type g = PairingProduct -> size (pi g) = 2%N -> size (theta g) = 2%N ->
  ((exists t : 4.-tuple F, yields (fun R s => ppe_prove (R := R) sch q X Y cx cy crs s) g t) <->
   ppe_verify sch' q (mkCProof cx cy [:: g]) crs = Ok true /\
   (forall i, exists al, nth 0 (pi g) i = nth 0 (pi f) i + al *: v1 crs) /\
   (forall j, exists be, nth 0 (theta g) j = nth 0 (theta f) j + be *: u1 crs)).
Proof.
move=> hb hn hc2 vs vs' [a1 [a2 [t1 [t2 bk]]]] hp mx my hold hf ty sp st.
have [e1 [e2 e3]] := ppe_prove_sizes vs hf.
have h0 : ppe_verify sch' q (mkCProof cx cy [:: f]) crs = Ok true.
  have [b eb hb2] := ppe_dec vs hb vs' mx my hf; rewrite eb; congr Ok; exact/hb2.
have [b eb hb2] := @k_C96_ppe E sch' sch' q (mkCProof cx cy [:: f]) crs f g a1 a2 t1 t2 hb hn hc2 vs' vs' bk hp erefl h0 ty sp st.
have [nu nv] := heads_not0 bk hp.
apply: (iff_trans (k_C96_ppe_outputs vs bk hf sp st)); split=> [[al0 [al1 [be0 [be1 [h1 h2 h3 h4 hk]]]]]|[hv [ha hbe]]].
  split; last first.
    split=> -[|[|i]]; [exists (- al0)|exists (- al1)|exists 0|exists be0|exists be1|exists 0]; rewrite ?scaleNr //.
      by rewrite scale0r addr0 !nth_default ?e2 ?sp.
    by rewrite scale0r addr0 !nth_default ?e3 ?st.
  rewrite eb; congr Ok; apply/hb2; exists (- (al0 + t1 * al1)); split.
    by rewrite h1 h2 scalerBr scalerA addrACA -opprD -scalerDl scaleNr.
  by rewrite h3 h4 scalerDr scalerA addrACA -scalerDl scaleNr opprK hk.
have [k [k1 k2]] : exists k, nth 0 (pi g) 0 + t1 *: nth 0 (pi g) 1 = nth 0 (pi f) 0 + t1 *: nth 0 (pi f) 1 + k *: v1 crs /\ nth 0 (theta g) 0 + t2 *: nth 0 (theta g) 1 = nth 0 (theta f) 0 + t2 *: nth 0 (theta f) 1 - k *: u1 crs.
  by apply/hb2; move: eb; rewrite /= hv => -[<-].
have [c0 h0'] := ha 0%N; have [c1 h1] := ha 1%N; have [b0 h2] := hbe 0%N; have [b1 h3] := hbe 1%N.
exists (- c0), (- c1), b0, b1; rewrite !scaleNr !opprK; split=> //.
move: k1 k2; rewrite h0' h1 h2 h3 -scaleNr => /fold_to k1 /fold_to k2.
by rewrite ((scal_inj _ _ nu).1 k2) -((scal_inj _ _ nv).1 k1) mulrN -opprD.
Qed.

Lemma k_C96_ms1_accepted (R : rng E) sch sch' (q : MSMEG1 E) X Y (cx : Commit1 E) (cy : Commit2 E) crs (s s' : rst R) f g :
  bilinear E -> nondegenerate E -> cyclic (G2 E) -> valid_sched sch -> valid_sched sch' -> binding_crs crs -> proper_crs crs ->
  made_G1 crs X cx -> made_B2 crs Y cy -> ms1_holds q X Y -> ms1_prove sch q X Y cx cy crs s = Ok (f, s') ->
  equ_type g = MultiScalarG1 -> size (pi g) = 2%N -> size (theta g) = 1%N ->
  ((exists t : 2.-tuple F, yields (fun R s => ms1_prove (R := R) sch q X Y cx cy crs s) g t) <->
   ms1_verify sch' q (mkCProof cx cy [:: g]) crs = Ok true /\
   (forall i, exists al, nth 0 (pi g) i = nth 0 (pi f) i + al *: v1 crs)).
Proof.
move=> hb hn hc2 vs vs' [a1 [a2 [t1 [t2 bk]]]] hp mx my hold hf ty sp st.
have [e1 [e2 e3]] := ms1_prove_sizes vs hf.
have h0 := ms1_ok vs hb vs' mx my hf hold.
have st0 : (0 < size (theta g))%N by rewrite st.
have [b eb hb2] := @k_C96_ms1 E sch' sch' q (mkCProof cx cy [:: f]) crs f g a1 a2 t1 t2 hb hn hc2 vs' vs' bk hp erefl h0 ty sp st0.
have [nu nv] := heads_not0 bk hp.
apply: (iff_trans (k_C96_ms1_outputs vs bk hf sp st)); split=> [[al0 [al1 [h1 h2 h3]]]|[hv ha]].
  split; last first.
    case=> [|[|i]]; [exists (- al0)|exists (- al1)|exists 0]; rewrite ?scaleNr //.
    by rewrite scale0r addr0 !nth_default ?e2 ?sp.
  rewrite eb; congr Ok; apply/hb2; exists (- (al0 + t1 * al1)); split.
    by rewrite h1 h2 scalerBr scalerA addrACA -opprD -scalerDl scaleNr.
  by rewrite h3 scaleNr opprK.
have [k [k1 k2]] : exists k, nth 0 (pi g) 0 + t1 *: nth 0 (pi g) 1 = nth 0 (pi f) 0 + t1 *: nth 0 (pi f) 1 + k *: v1 crs /\ nth 0 (theta g) 0 = nth 0 (theta f) 0 - k *: u1 crs.
  by apply/hb2; move: eb; rewrite /= hv => -[<-].
have [c0 h0'] := ha 0%N; have [c1 h1] := ha 1%N.
exists (- c0), (- c1); rewrite !scaleNr !opprK; split=> //.
move: k1; rewrite h0' h1 => /fold_to k1.
by rewrite mulrN -opprD ((scal_inj _ _ nv).1 k1) scaleNr k2.
Qed.

Lemma k_C96_ms2_accepted (R : rng E) sch sch' (q : MSMEG2 E) X Y (cx : Commit1 E) (cy : Commit2 E) crs (s s' : rst R) f g :
  bilinear E -> nondegenerate E -> cyclic (G2 E) -> valid_sched sch -> valid_sched sch' -> binding_crs crs -> proper_crs crs ->
  made_B1 crs X cx -> made_G2 crs Y cy -> ms2_holds q X Y -> ms2_prove sch q X Y cx cy crs s = Ok (f, s') ->
  equ_type g = MultiScalarG2 -> size (pi g) = 1%N -> size (theta g) = 2%N ->
  ((exists t : 2.-tuple F, yields (fun R s => ms2_prove (R := R) sch q X Y cx cy crs s) g t) <->
   ms2_verify sch' q (mkCProof cx cy [:: g]) crs = Ok true /\
   (forall j, exists be, nth 0 (theta g) j = nth 0 (theta f) j + be *: u1 crs)).
Proof.
move=> hb hn hc2 vs vs' [a1 [a2 [t1 [t2 bk]]]] hp mx my hold hf ty sp st.
have [e1 [e2 e3]] := ms2_prove_sizes vs hf.
have h0 := ms2_ok vs hb vs' mx my hf hold.
have sp0 : (0 < size (pi g))%N by rewrite sp.
have [b eb hb2] := @k_C96_ms2 E sch' sch' q (mkCProof cx cy [:: f]) crs f g a1 a2 t1 t2 hb hn hc2 vs' vs' bk hp erefl h0 ty sp0 st.
have [nu nv] := heads_not0 bk hp.
apply: (iff_trans (k_C96_ms2_outputs vs bk hf sp st)); split=> [[be0 [be1 [h1 h2 h3]]]|[hv ha]].
  split; last first.
    case=> [|[|i]]; [exists be0|exists be1|exists 0]; rewrite //.
    by rewrite scale0r addr0 !nth_default ?e3 ?st.
  rewrite eb; congr Ok; apply/hb2; exists (- (be0 + t2 * be1)); split.
    by rewrite h1 scaleNr.
  by rewrite h2 h3 scalerDr scalerA addrACA -scalerDl scaleNr opprK.
have [k [k1 k2]] : exists k, nth 0 (pi g) 0 = nth 0 (pi f) 0 + k *: v1 crs /\ nth 0 (theta g) 0 + t2 *: nth 0 (theta g) 1 = nth 0 (theta f) 0 + t2 *: nth 0 (theta f) 1 - k *: u1 crs.
  by apply/hb2; move: eb; rewrite /= hv => -[<-].
have [c0 h0'] := ha 0%N; have [c1 h1] := ha 1%N.
exists c0, c1; split=> //.
move: k2; rewrite h0' h1 -scaleNr => /fold_to k2.
by rewrite ((scal_inj _ _ nu).1 k2) scaleNr opprK k1.
Qed.
End Outputs.
