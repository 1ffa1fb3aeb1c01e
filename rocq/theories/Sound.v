(** The binding key: extraction, binding and soundness. *)
From mathcomp Require Import all_ssreflect all_algebra.
From Verif Require Import Base BaseLemmas Group DataStructures MatLemmas CoreAlg ComLemmas.
From Verif Require Import Commit Statement Verify Spec CommitLemmas VerifyLemmas Holds.
Set Implicit Arguments.
Unset Strict Implicit.
Unset Printing Implicit Defensive.
Import GRing.Theory.
Local Open Scope ring_scope.

Section Proj.
Context {F : fieldType} {G : lmodType F}.
Implicit Types c : com G.
(** The extraction map of the trapdoor [a]. *)
Definition ext (a : F) c : G := c.2 - a *: c.1.

Lemma extD a c c' : ext a (c + c') = ext a c + ext a c'.
Proof. by rewrite /ext /= scalerDr opprD addrACA. Qed.
Lemma extZ a k c : ext a (k *: c) = k *: ext a c.
Proof. by rewrite /ext /= scalerBr !scalerA mulrC. Qed.
Lemma ext_lin a x : ext a (0, x) = x.
Proof. by rewrite /ext /= scaler0 subr0. Qed.
Lemma ext_key a t (P : G) : ext a (t *: P, t *: (a *: P)) = 0.
Proof. by rewrite /ext /= !scalerA mulrC subrr. Qed.
Lemma ext_key1 a (P : G) : ext a (P, a *: P) = 0.
Proof. by rewrite /ext /= subrr. Qed.
Lemma ext0E a c : ext a c = 0 -> c = (c.1, a *: c.1).
Proof. by case: c => x y; rewrite /ext /= => /eqP; rewrite subr_eq0 => /eqP ->. Qed.
End Proj.

Section Sound.
Context {E : pairing}.
Hypothesis hb : bilinear E.
Let eb := pair_bilin hb.
Notation f := (comT_pairing : Com1 E -> Com2 E -> ComT E).
Implicit Types (crs : CRS E).

Definition extT (a b : Fr E) (z : ComT E) : GT E :=
  z.2.2 - b *: z.2.1 - a *: (z.1.2 - b *: z.1.1).

Lemma extTD a b z z' : extT a b (z + z') = extT a b z + extT a b z'.
Proof.
have D k (p p' q q' : GT E) : p + p' - k *: (q + q') = (p - k *: q) + (p' - k *: q').
  by rewrite scalerDr opprD addrACA.
by rewrite /extT /= (D b) (D b z.1.2) D.
Qed.

Lemma extT_f a b x y : extT a b (f x y) = pair_e (ext a x) (ext b y).
Proof.
rewrite /extT /ext /= !(bilBl eb) !(bilBr eb) !(bilZl eb) !(bilZr eb).
by rewrite !scalerBr.
Qed.

Lemma extT_sum a b I (r : seq I) g : extT a b (\sum_(i <- r) g i) = \sum_(i <- r) extT a b (g i).
Proof.
apply: (big_morph (extT a b)); first exact: extTD.
by rewrite /extT /= !scaler0 !subr0 scaler0 subr0.
Qed.

(** The whole key is killed by the extraction maps. *)
Definition killed crs a b : Prop :=
  (forall i, (i < size (crs_u crs))%N -> ext a (nth 0 (crs_u crs) i) = 0) /\
  (forall i, (i < size (crs_v crs))%N -> ext b (nth 0 (crs_v crs) i) = 0).

Lemma binding_killed crs a1 a2 t1 t2 : binding_crs_with crs a1 a2 t1 t2 -> killed crs a1 a2.
Proof.
case=> hu hv _; rewrite /killed hu hv; split=> -[|[|i]] //= _; rewrite ?ext_key1 ?ext_key //.
Qed.

Lemma veq_ext crs a b A B (G : matrix (Fr E)) c d t p th kx ky :
  killed crs a b -> (kx <= size (crs_u crs))%N -> (ky <= size (crs_v crs))%N ->
  veq A B G c d t (crs_u crs) p th (crs_v crs) kx ky ->
  gs_eq (@pair_e E) (size c) (size d) (ent 0 G)
    (fun j => ext a (nth 0 A j)) (fun k => ext a (nth 0 c k))
    (fun k => ext b (nth 0 B k)) (fun j => ext b (nth 0 d j)) = extT a b t.
Proof.
case=> ku kv hx hy /eqP /(congr1 (extT a b)); rewrite !extTD !extT_sum.
have z n g : (forall i, (i < n)%N -> g i = 0) -> \sum_(0 <= i < n) g i = 0 :> GT E.
  by move=> h; rewrite big_mkord big1 // => i _; apply: h.
rewrite (z kx) => [|i hi]; last by rewrite extT_f ku ?(bil0l eb) // (leq_trans hi hx).
rewrite (z ky) => [|i hi]; last by rewrite extT_f kv ?(bil0r eb) // (leq_trans hi hy).
rewrite !addr0 => <-; rewrite /gs_eq; congr (_ + _ + _); apply: eq_bigr => k _.
- by rewrite extT_f.
- by rewrite extT_f.
rewrite extT_f; congr (pair_e _ _).
rewrite (big_morph (ext b) (extD b) (id1 := 0)); last by rewrite /ext /= scaler0 subr0.
by apply: eq_bigr => j _; rewrite extZ.
Qed.

(** ** Openings *)
Lemma size_u crs a1 a2 t1 t2 : binding_crs_with crs a1 a2 t1 t2 -> size (crs_u crs) = 2%N.
Proof. by case=> ->. Qed.
Lemma size_v crs a1 a2 t1 t2 : binding_crs_with crs a1 a2 t1 t2 -> size (crs_v crs) = 2%N.
Proof. by case=> _ ->. Qed.

Section Key.
Variables (crs : CRS E) (a1 a2 t1 t2 : Fr E).
Hypothesis bk : binding_crs_with crs a1 a2 t1 t2.
Let hk := binding_killed bk.

Let ku i : (i < 2)%N -> ext a1 (nth 0 (crs_u crs) i) = 0.
Proof. by move=> h; apply: (proj1 hk); rewrite (size_u bk). Qed.
Let kv i : (i < 2)%N -> ext a2 (nth 0 (crs_v crs) i) = 0.
Proof. by move=> h; apply: (proj2 hk); rewrite (size_v bk). Qed.

Lemma ext_s1 x : ext a1 (s1map crs x) = x *: g1_gen crs.
Proof. by rewrite /s1map extZ extD ku // add0r ext_lin. Qed.
Lemma ext_s2 x : ext a2 (s2map crs x) = x *: g2_gen crs.
Proof. by rewrite /s2map extZ extD kv // add0r ext_lin. Qed.

Lemma open_G1 x r c : com_G1 crs x r c -> ext a1 c = x.
Proof. by case=> r1 [r2 [_ ->]]; rewrite !extD !extZ !ku // !scaler0 !addr0 ext_lin. Qed.
Lemma open_G2 x r c : com_G2 crs x r c -> ext a2 c = x.
Proof. by case=> r1 [r2 [_ ->]]; rewrite !extD !extZ !kv // !scaler0 !addr0 ext_lin. Qed.
Lemma open_B1 x r c : com_B1 crs x r c -> ext a1 c = x *: g1_gen crs.
Proof. by case=> r1 [_ ->]; rewrite extD !extZ !extD !ku // !scaler0 !addr0 add0r ext_lin. Qed.
Lemma open_B2 x r c : com_B2 crs x r c -> ext a2 c = x *: g2_gen crs.
Proof. by case=> r1 [_ ->]; rewrite extD !extZ !extD !kv // !scaler0 !addr0 add0r ext_lin. Qed.

Lemma scaleI (G : lmodType (Fr E)) (P : G) (x y : Fr E) : P != 0 -> x *: P = y *: P -> x = y.
Proof.
move=> hP /eqP; rewrite -subr_eq0 -scalerBl scaler_eq0 (negbTE hP) orbF subr_eq0.
by move/eqP.
Qed.

(** Every group element pair is a commitment. *)
Hypotheses (cy1 : cyclic (G1 E)) (cy2 : cyclic (G2 E)).
Hypotheses (hp1 : g1_gen crs != 0) (hp2 : g2_gen crs != 0).

Let comE (G : lmodType (Fr E)) (c c' : com G) : c.1 = c'.1 -> c.2 = c'.2 -> c = c'.
Proof. by case: c c' => [? ?] [? ?] /= -> ->. Qed.

Lemma exists_G1 c : exists r, com_G1 crs (ext a1 c) r c.
Proof.
case: (cy1 c.1 hp1) => k hk1; exists [:: k; 0]; exists k, 0; split=> //.
case: bk => -> _ _ /=; rewrite scale0r addr0; apply: comE; rewrite /= ?add0r //.
by rewrite /ext hk1 !scalerA mulrC subrK.
Qed.
Lemma exists_G2 c : exists r, com_G2 crs (ext a2 c) r c.
Proof.
case: (cy2 c.1 hp2) => k hk1; exists [:: k; 0]; exists k, 0; split=> //.
case: bk => _ -> _ /=; rewrite scale0r addr0; apply: comE; rewrite /= ?add0r //.
by rewrite /ext hk1 !scalerA mulrC subrK.
Qed.
Lemma exists_B1 c : exists x r, com_B1 crs x r c.
Proof.
case: (cy1 (ext a1 c) hp1) => x hx.
have h0 : ext a1 (c - s1map crs x) = 0 by rewrite extD -scaleN1r extZ ext_s1 hx scaleN1r subrr.
case: (cy1 (c - s1map crs x).1 hp1) => k hk1; exists x, [:: k]; exists k; split=> //.
apply/eqP; rewrite addrC -subr_eq; apply/eqP.
rewrite -[_ *: (_ + _)]/(s1map crs x) (ext0E h0) hk1; case: bk => -> _ _ /=.
by rewrite scalerA mulrC -scalerA.
Qed.
Lemma exists_B2 c : exists x r, com_B2 crs x r c.
Proof.
case: (cy2 (ext a2 c) hp2) => x hx.
have h0 : ext a2 (c - s2map crs x) = 0 by rewrite extD -scaleN1r extZ ext_s2 hx scaleN1r subrr.
case: (cy2 (c - s2map crs x).1 hp2) => k hk1; exists x, [:: k]; exists k; split=> //.
apply/eqP; rewrite addrC -subr_eq; apply/eqP.
rewrite -[_ *: (_ + _)]/(s2map crs x) (ext0E h0) hk1; case: bk => _ -> _ /=.
by rewrite scalerA mulrC -scalerA.
Qed.
End Key.

(** ** Soundness for given openings *)
Definition ext_list {G : lmodType (Fr E)} {V : zmodType} (a : Fr E) (g : V -> G)
  (cs : seq (com G)) (X : seq V) : Prop :=
  size X = size cs /\ forall k, (k < size cs)%N -> ext a (nth 0 cs k) = g (nth 0 X k).

Section Open.
Variables (sch : sched) (crs : CRS E) (a1 a2 t1 t2 : Fr E).
Hypothesis vs : valid_sched sch.
Hypothesis bw : binding_crs_with crs a1 a2 t1 t2.
Let hk := binding_killed bw.
Notation sc1 := (fun x : Fr E => x *: g1_gen crs).
Notation sc2 := (fun x : Fr E => x *: g2_gen crs).

Lemma ppe_sound_ext q p X Y :
  ppe_verify sch q p crs = Ok true ->
  ext_list a1 id (coms (xcoms p)) X -> ext_list a2 id (coms (ycoms p)) Y -> ppe_holds q X Y.
Proof.
case: p => cx cy pfs h; have ok : isok (ppe_verify sch q (mkCProof cx cy pfs) crs) by rewrite h.
have [pf epf] := ppe_verify_one ok; rewrite {}epf in h ok.
have sh := ppe_verify_shape vs ok; move: h; rewrite (ppe_verify_Ok vs sh) => -[/(veq_ext hk)].
move=> /(_ (leqnn _) (leqnn _)) h [/= sX hX] [/= sY hY]; apply/(ppe_holdsE _ _ _ hb).
have -> : ppe_target q = extT a1 a2 (linear_map_PPE (ppe_target q)).
  by rewrite /extT /= !scaler0 !subr0 scaler0 subr0.
rewrite -h /ppe_val sX sY; symmetry; apply: (gs_map (i1 := id) (i2 := id) (iT := id)) => //.
- by move=> j hj; rewrite nth_lin1 ext_lin.
- by move=> j hj; rewrite nth_lin2 ext_lin.
Qed.

Hypothesis hnd : nondegenerate E.

Let e_injl (hp2 : g2_gen crs != 0) x x' : pair_e x (g2_gen crs) = pair_e x' (g2_gen crs) -> x = x'.
Proof.
move=> /eqP; rewrite -subr_eq0 -(bilBl eb) => /eqP /hnd[/eqP|h].
  by rewrite subr_eq0 => /eqP.
by case/eqP: hp2.
Qed.
Let e_injr (hp1 : g1_gen crs != 0) y y' : pair_e (g1_gen crs) y = pair_e (g1_gen crs) y' -> y = y'.
Proof.
move=> /eqP; rewrite -subr_eq0 -(bilBr eb) => /eqP /hnd[h|/eqP].
  by case/eqP: hp1.
by rewrite subr_eq0 => /eqP.
Qed.
Let e_injq (hp1 : g1_gen crs != 0) (hp2 : g2_gen crs != 0) x x' : pair_e (g1_gen crs) (x *: g2_gen crs) = pair_e (g1_gen crs) (x' *: g2_gen crs) -> x = x'.
Proof. by move/(e_injr hp1); apply: scaleI. Qed.

Lemma ms1_sound_ext q p X Y (hp2 : g2_gen crs != 0) :
  ms1_verify sch q p crs = Ok true ->
  ext_list a1 id (coms (xcoms p)) X -> ext_list a2 sc2 (coms (ycoms p)) Y -> ms1_holds q X Y.
Proof.
case: p => cx cy pfs h; have ok : isok (ms1_verify sch q (mkCProof cx cy pfs) crs) by rewrite h.
have [pf epf] := ms1_verify_one ok; rewrite {}epf in h ok.
have sh := ms1_verify_shape vs ok; move: h; rewrite (ms1_verify_Ok vs sh) => -[/(veq_ext hk)].
rewrite (size_v bw) => /(_ (leqnn _) isT) h [/= sX hX] [/= sY hY]; apply/ms1_holdsE.
apply: (e_injl hp2); move: h; rewrite extT_f ext_lin (ext_s2 bw) scale1r => <-.
rewrite /ms1_val sX sY; symmetry.
apply: (gs_map (f' := f1) (i1 := id) (i2 := fun y => y *: g2_gen crs) (iT := fun z => pair_e z (g2_gen crs))) => //.
- by move=> x y; rewrite /f1 (bilZl eb) (bilZr eb).
- by move=> y y'; rewrite scalerDl.
- by move=> k y; rewrite -scalerA.
- by move=> z z'; rewrite (bilDl eb).
- by move=> j hj; rewrite nth_lin1 ext_lin.
- by move=> j hj; rewrite nth_s2 (ext_s2 bw).
Qed.

Lemma ms2_sound_ext q p X Y (hp1 : g1_gen crs != 0) :
  ms2_verify sch q p crs = Ok true ->
  ext_list a1 sc1 (coms (xcoms p)) X -> ext_list a2 id (coms (ycoms p)) Y -> ms2_holds q X Y.
Proof.
case: p => cx cy pfs h; have ok : isok (ms2_verify sch q (mkCProof cx cy pfs) crs) by rewrite h.
have [pf epf] := ms2_verify_one ok; rewrite {}epf in h ok.
have sh := ms2_verify_shape vs ok; move: h; rewrite (ms2_verify_Ok vs sh) => -[/(veq_ext hk)].
rewrite (size_u bw) => /(_ isT (leqnn _)) h [/= sX hX] [/= sY hY]; apply/ms2_holdsE.
apply: (e_injr hp1); move: h; rewrite extT_f ext_lin (ext_s1 bw) scale1r => <-.
rewrite /ms2_val sX sY; symmetry.
apply: (gs_map (f' := f2) (i1 := fun y => y *: g1_gen crs) (i2 := id) (iT := fun z => pair_e (g1_gen crs) z)) => //.
- by move=> x y; rewrite /f2 (bilZl eb) (bilZr eb).
- by move=> z z'; rewrite (bilDr eb).
- by move=> j hj; rewrite nth_s1 (ext_s1 bw).
- by move=> j hj; rewrite nth_lin2 ext_lin.
Qed.

Lemma quad_sound_ext q p X Y (hp1 : g1_gen crs != 0) (hp2 : g2_gen crs != 0) :
  quad_verify sch q p crs = Ok true ->
  ext_list a1 sc1 (coms (xcoms p)) X -> ext_list a2 sc2 (coms (ycoms p)) Y -> quad_holds q X Y.
Proof.
case: p => cx cy pfs h; have ok : isok (quad_verify sch q (mkCProof cx cy pfs) crs) by rewrite h.
have [pf epf] := quad_verify_one ok; rewrite {}epf in h ok.
have sh := quad_verify_shape vs ok; move: h; rewrite (quad_verify_Ok vs sh) => -[/(veq_ext hk)].
rewrite (size_u bw) (size_v bw) => /(_ isT isT) h [/= sX hX] [/= sY hY]; apply/quad_holdsE.
apply: (e_injq hp1 hp2); move: h; rewrite extT_f extZ (ext_s1 bw) (ext_s2 bw) !scale1r => <-.
rewrite /quad_val sX sY; symmetry.
apply: (gs_map (f' := fq) (i1 := fun y => y *: g1_gen crs) (i2 := fun y => y *: g2_gen crs)
  (iT := fun z => pair_e (g1_gen crs) (z *: g2_gen crs))) => //.
- by move=> x y; rewrite /fq (bilZl eb) !(bilZr eb) scalerA.
- by move=> y y'; rewrite scalerDl.
- by move=> k y; rewrite -scalerA.
- by move=> z z'; rewrite scalerDl (bilDr eb).
- by move=> j hj; rewrite nth_s1 (ext_s1 bw).
- by move=> j hj; rewrite nth_s2 (ext_s2 bw).
Qed.
End Open.

(** ** Existence and uniqueness of openings *)
Section Unique.
Variables (crs : CRS E).
Hypothesis bk : binding_crs crs.

Lemma commits_ext_G1 a1 a2 t1 t2 cs X : binding_crs_with crs a1 a2 t1 t2 ->
  commits_G1 crs cs X -> ext_list a1 id cs X.
Proof. by move=> bw [hs h]; split=> // k hk'; have [r /(open_G1 bw)] := h k hk'. Qed.
Lemma commits_ext_G2 a1 a2 t1 t2 cs X : binding_crs_with crs a1 a2 t1 t2 ->
  commits_G2 crs cs X -> ext_list a2 id cs X.
Proof. by move=> bw [hs h]; split=> // k hk'; have [r /(open_G2 bw)] := h k hk'. Qed.
Lemma commits_ext_B1 a1 a2 t1 t2 cs X : binding_crs_with crs a1 a2 t1 t2 ->
  commits_B1 crs cs X -> ext_list a1 (fun x => x *: g1_gen crs) cs X.
Proof. by move=> bw [hs h]; split=> // k hk'; have [r /(open_B1 bw)] := h k hk'. Qed.
Lemma commits_ext_B2 a1 a2 t1 t2 cs X : binding_crs_with crs a1 a2 t1 t2 ->
  commits_B2 crs cs X -> ext_list a2 (fun x => x *: g2_gen crs) cs X.
Proof. by move=> bw [hs h]; split=> // k hk'; have [r /(open_B2 bw)] := h k hk'. Qed.


Lemma binding_G1 x x' r r' c : com_G1 crs x r c -> com_G1 crs x' r' c -> x = x'.
Proof. by case: bk => a1 [a2 [t1 [t2 bw]]] /(open_G1 bw) <- /(open_G1 bw) <-. Qed.
Lemma binding_G2 x x' r r' c : com_G2 crs x r c -> com_G2 crs x' r' c -> x = x'.
Proof. by case: bk => a1 [a2 [t1 [t2 bw]]] /(open_G2 bw) <- /(open_G2 bw) <-. Qed.

Lemma eq_nth_map T (d : T) (s s' : seq T) : size s = size s' ->
  (forall i, (i < size s')%N -> nth d s i = nth d s' i) -> s = s'.
Proof. by move=> hs h; apply: (@eq_from_nth _ d) => // i; rewrite hs; apply: h. Qed.

Lemma binding_list C V (cm : CRS E -> V -> seq (Fr E) -> C -> Prop) dc dv :
  (forall x x' r r' c, cm crs x r c -> cm crs x' r' c -> x = x') ->
  forall cs X X', commits cm dc dv crs cs X -> commits cm dc dv crs cs X' -> X = X'.
Proof.
move=> h cs X X' [sX hX] [sX' hX']; apply: (@eq_from_nth _ dv); first by rewrite sX sX'.
move=> i; rewrite sX => hi; have [r h1] := hX i hi; have [r' h2] := hX' i hi.
exact: h h1 h2.
Qed.

Lemma exists_list C V (cm : CRS E -> V -> seq (Fr E) -> C -> Prop) dc dv :
  (forall c, exists x r, cm crs x r c) ->
  forall cs, exists X, commits cm dc dv crs cs X.
Proof.
move=> h; elim=> [|c cs [X [sX hX]]]; first by exists [::].
have [x [r hx]] := h c; exists (x :: X); split; first by rewrite /= sX.
by case=> [|i] /= hi; [exists r | apply: hX].
Qed.

Lemma ppe_sound sch q p X Y : valid_sched sch ->
  ppe_verify sch q p crs = Ok true ->
  commits_G1 crs (coms (xcoms p)) X -> commits_G2 crs (coms (ycoms p)) Y -> ppe_holds q X Y.
Proof.
case: bk => a1 [a2 [t1 [t2 bw]]] vs h /(commits_ext_G1 bw) h1 /(commits_ext_G2 bw) h2.
exact: (ppe_sound_ext vs bw h).
Qed.

Lemma binding_B1 (hp1 : g1_gen crs != 0) x x' r r' c : com_B1 crs x r c -> com_B1 crs x' r' c -> x = x'.
Proof.
by case: bk => a1 [a2 [t1 [t2 bw]]] /(open_B1 bw) h1 /(open_B1 bw); rewrite h1; apply: scaleI.
Qed.
Lemma binding_B2 (hp2 : g2_gen crs != 0) x x' r r' c : com_B2 crs x r c -> com_B2 crs x' r' c -> x = x'.
Proof.
by case: bk => a1 [a2 [t1 [t2 bw]]] /(open_B2 bw) h1 /(open_B2 bw); rewrite h1; apply: scaleI.
Qed.

(** ** Soundness for given openings *)
Section SoundOpen.
Variable sch : sched.
Hypothesis vs : valid_sched sch.
Hypothesis hnd : nondegenerate E.

Lemma ms1_sound q p X Y (hp2 : g2_gen crs != 0) :
  ms1_verify sch q p crs = Ok true ->
  commits_G1 crs (coms (xcoms p)) X -> commits_B2 crs (coms (ycoms p)) Y -> ms1_holds q X Y.
Proof.
case: bk => a1 [a2 [t1 [t2 bw]]] h /(commits_ext_G1 bw) h1 /(commits_ext_B2 bw) h2.
exact: (ms1_sound_ext vs bw hnd hp2 h).
Qed.
Lemma ms2_sound q p X Y (hp1 : g1_gen crs != 0) :
  ms2_verify sch q p crs = Ok true ->
  commits_B1 crs (coms (xcoms p)) X -> commits_G2 crs (coms (ycoms p)) Y -> ms2_holds q X Y.
Proof.
case: bk => a1 [a2 [t1 [t2 bw]]] h /(commits_ext_B1 bw) h1 /(commits_ext_G2 bw) h2.
exact: (ms2_sound_ext vs bw hnd hp1 h).
Qed.
Lemma quad_sound q p X Y (hp1 : g1_gen crs != 0) (hp2 : g2_gen crs != 0) :
  quad_verify sch q p crs = Ok true ->
  commits_B1 crs (coms (xcoms p)) X -> commits_B2 crs (coms (ycoms p)) Y -> quad_holds q X Y.
Proof.
case: bk => a1 [a2 [t1 [t2 bw]]] h /(commits_ext_B1 bw) h1 /(commits_ext_B2 bw) h2.
exact: (quad_sound_ext vs bw hnd hp1 hp2 h).
Qed.
End SoundOpen.
End Unique.
End Sound.
