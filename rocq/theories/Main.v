(** The provers followed by the verifiers. *)
From mathcomp Require Import all_ssreflect all_algebra.
From Verif Require Import Base BaseLemmas Group DataStructures MatLemmas CoreAlg ComLemmas.
From Verif Require Import Generator Commit Statement Prove Verify Spec ProveLemmas CommitLemmas.
From Verif Require Import VerifyLemmas Holds Complete Sound.
Set Implicit Arguments.
Unset Strict Implicit.
Unset Printing Implicit Defensive.
Import GRing.Theory.
Local Open Scope ring_scope.

Section Total.
Context {E : pairing} {R : rng E}.
Variable sch : sched.
Hypothesis vs : valid_sched sch.
Implicit Types (s : rst R) (crs : CRS E) (cx : Commit1 E) (cy : Commit2 E).

Lemma prove_shapeI m n kx ky (RR S G : matrix (Fr E)) na nb :
  (0 < m)%N -> (0 < n)%N -> rect m kx RR -> rect n ky S -> dims m n G -> na = n -> nb = m ->
  prove_shape m n kx ky RR S G na nb.
Proof. by move=> h1 h2 h3 h4 /dims_rect h5 -> ->; apply/and5P; split=> //; rewrite h5 !eqxx. Qed.

Lemma ppe_prove_total q X Y cx cy crs s :
  (0 < size X)%N -> (0 < size Y)%N -> ppe_wf q (size X) (size Y) -> two_keys crs ->
  made_G1 crs X cx -> made_G2 crs Y cy -> isok (ppe_prove sch q X Y cx cy crs s).
Proof.
move=> hm hn [ha hb hg] [hu hv] /made_G1_gs[hR _ _] /made_G2_gs[hS _ _].
by rewrite (isok_ppe_prove vs) hu hv !eqxx !andbT; apply: prove_shapeI.
Qed.
Lemma ms1_prove_total q X Y cx cy crs s :
  (0 < size X)%N -> (0 < size Y)%N -> ms1_wf q (size X) (size Y) -> two_keys crs ->
  made_G1 crs X cx -> made_B2 crs Y cy -> isok (ms1_prove sch q X Y cx cy crs s).
Proof.
move=> hm hn [ha hb hg] [hu hv] /made_G1_gs[hR _ _] /made_B2_gs[hS _ _].
by rewrite (isok_ms1_prove vs) hu hv !eqxx !andbT; apply: prove_shapeI.
Qed.
Lemma ms2_prove_total q X Y cx cy crs s :
  (0 < size X)%N -> (0 < size Y)%N -> ms2_wf q (size X) (size Y) -> two_keys crs ->
  made_B1 crs X cx -> made_G2 crs Y cy -> isok (ms2_prove sch q X Y cx cy crs s).
Proof.
move=> hm hn [ha hb hg] [hu hv] /made_B1_gs[hR _ _] /made_G2_gs[hS _ _].
by rewrite (isok_ms2_prove vs) hu hv !eqxx !andbT; apply: prove_shapeI.
Qed.
Lemma quad_prove_total q X Y cx cy crs s :
  (0 < size X)%N -> (0 < size Y)%N -> quad_wf q (size X) (size Y) -> two_keys crs ->
  made_B1 crs X cx -> made_B2 crs Y cy -> isok (quad_prove sch q X Y cx cy crs s).
Proof.
move=> hm hn [ha hb hg] [hu hv] /made_B1_gs[hR _ _] /made_B2_gs[hS _ _].
by rewrite (isok_quad_prove vs) hu hv !andbT; apply: prove_shapeI.
Qed.

Lemma batch_G1_total X crs s : (0 < size X)%N -> two_keys crs ->
  exists c s', batch_commit_G1 X crs s = Ok (c, s').
Proof.
move=> h [hu _]; have /isokP[[c s'] e] : isok (batch_commit_G1 X crs s).
  by rewrite isok_batch_commit_G1 h hu.
by exists c, s'.
Qed.
Lemma batch_G2_total X crs s : (0 < size X)%N -> two_keys crs ->
  exists c s', batch_commit_G2 X crs s = Ok (c, s').
Proof.
move=> h [_ hu]; have /isokP[[c s'] e] : isok (batch_commit_G2 X crs s).
  by rewrite isok_batch_commit_G2 h hu.
by exists c, s'.
Qed.
Lemma batch_B1_total X crs s : (0 < size X)%N -> two_keys crs ->
  exists c s', batch_commit_scalar_to_B1 X crs s = Ok (c, s').
Proof.
move=> h [hu _]; have /isokP[[c s'] e] : isok (batch_commit_scalar_to_B1 X crs s).
  by rewrite isok_batch_commit_B1 h hu.
by exists c, s'.
Qed.
Lemma batch_B2_total X crs s : (0 < size X)%N -> two_keys crs ->
  exists c s', batch_commit_scalar_to_B2 X crs s = Ok (c, s').
Proof.
move=> h [_ hu]; have /isokP[[c s'] e] : isok (batch_commit_scalar_to_B2 X crs s).
  by rewrite isok_batch_commit_B2 h hu.
by exists c, s'.
Qed.

Lemma ppe_run q X Y crs s :
  (0 < size X)%N -> (0 < size Y)%N -> ppe_wf q (size X) (size Y) -> two_keys crs ->
  exists cx cy pf s1 s2, [/\ made_G1 crs X cx, made_G2 crs Y cy,
    ppe_prove sch q X Y cx cy crs s1 = Ok (pf, s2)
    & ppe_commit_and_prove sch q X Y crs s = Ok (mkCProof cx cy [:: pf], s2)].
Proof.
move=> hm hn wf hk; have [cx [s0 ex]] := batch_G1_total s hm hk.
have [cy [s1 ey]] := batch_G2_total s0 hn hk.
have mx := batch_made_G1 ex; have my := batch_made_G2 ey.
have /isokP[[pf s2] e] := ppe_prove_total s1 hm hn wf hk mx my.
by exists cx, cy, pf, s1, s2; split; rewrite // /ppe_commit_and_prove ex /= ey /= e.
Qed.
Lemma ms1_run q X Y crs s :
  (0 < size X)%N -> (0 < size Y)%N -> ms1_wf q (size X) (size Y) -> two_keys crs ->
  exists cx cy pf s1 s2, [/\ made_G1 crs X cx, made_B2 crs Y cy,
    ms1_prove sch q X Y cx cy crs s1 = Ok (pf, s2)
    & ms1_commit_and_prove sch q X Y crs s = Ok (mkCProof cx cy [:: pf], s2)].
Proof.
move=> hm hn wf hk; have [cx [s0 ex]] := batch_G1_total s hm hk.
have [cy [s1 ey]] := batch_B2_total s0 hn hk.
have mx := batch_made_G1 ex; have my := batch_made_B2 ey.
have /isokP[[pf s2] e] := ms1_prove_total s1 hm hn wf hk mx my.
by exists cx, cy, pf, s1, s2; split; rewrite // /ms1_commit_and_prove ex /= ey /= e.
Qed.
Lemma ms2_run q X Y crs s :
  (0 < size X)%N -> (0 < size Y)%N -> ms2_wf q (size X) (size Y) -> two_keys crs ->
  exists cx cy pf s1 s2, [/\ made_B1 crs X cx, made_G2 crs Y cy,
    ms2_prove sch q X Y cx cy crs s1 = Ok (pf, s2)
    & ms2_commit_and_prove sch q X Y crs s = Ok (mkCProof cx cy [:: pf], s2)].
Proof.
move=> hm hn wf hk; have [cx [s0 ex]] := batch_B1_total s hm hk.
have [cy [s1 ey]] := batch_G2_total s0 hn hk.
have mx := batch_made_B1 ex; have my := batch_made_G2 ey.
have /isokP[[pf s2] e] := ms2_prove_total s1 hm hn wf hk mx my.
by exists cx, cy, pf, s1, s2; split; rewrite // /ms2_commit_and_prove ex /= ey /= e.
Qed.
Lemma quad_run q X Y crs s :
  (0 < size X)%N -> (0 < size Y)%N -> quad_wf q (size X) (size Y) -> two_keys crs ->
  exists cx cy pf s1 s2, [/\ made_B1 crs X cx, made_B2 crs Y cy,
    quad_prove sch q X Y cx cy crs s1 = Ok (pf, s2)
    & quad_commit_and_prove sch q X Y crs s = Ok (mkCProof cx cy [:: pf], s2)].
Proof.
move=> hm hn wf hk; have [cx [s0 ex]] := batch_B1_total s hm hk.
have [cy [s1 ey]] := batch_B2_total s0 hn hk.
have mx := batch_made_B1 ex; have my := batch_made_B2 ey.
have /isokP[[pf s2] e] := quad_prove_total s1 hm hn wf hk mx my.
by exists cx, cy, pf, s1, s2; split; rewrite // /quad_commit_and_prove ex /= ey /= e.
Qed.

(** What an honest proof verifies to. *)
Hypothesis hb : bilinear E.
Variable sch' : sched.
Hypothesis vs' : valid_sched sch'.
Notation f := (comT_pairing : Com1 E -> Com2 E -> ComT E).

Lemma ppe_dec q X Y cx cy crs s pf s' :
  made_G1 crs X cx -> made_G2 crs Y cy -> ppe_prove sch q X Y cx cy crs s = Ok (pf, s') ->
  exists2 b, ppe_verify sch' q (mkCProof cx cy [:: pf]) crs = Ok b & b <-> ppe_holds q X Y.
Proof.
move=> mx my h; rewrite (ppe_honest hb vs vs' mx my h).
exists (ppe_val q X Y == ppe_target q) => //.
by split=> [/eqP|] h1; [apply/ppe_holdsE | apply/eqP/ppe_holdsE].
Qed.

Lemma ms1_ok q X Y cx cy crs s pf s' :
  made_G1 crs X cx -> made_B2 crs Y cy -> ms1_prove sch q X Y cx cy crs s = Ok (pf, s') ->
  ms1_holds q X Y -> ms1_verify sch' q (mkCProof cx cy [:: pf]) crs = Ok true.
Proof. by move=> mx my h /ms1_holdsE e; rewrite (ms1_honest hb vs vs' mx my h) e eqxx. Qed.
Lemma ms2_ok q X Y cx cy crs s pf s' :
  made_B1 crs X cx -> made_G2 crs Y cy -> ms2_prove sch q X Y cx cy crs s = Ok (pf, s') ->
  ms2_holds q X Y -> ms2_verify sch' q (mkCProof cx cy [:: pf]) crs = Ok true.
Proof. by move=> mx my h /ms2_holdsE e; rewrite (ms2_honest hb vs vs' mx my h) e eqxx. Qed.
Lemma quad_ok q X Y cx cy crs s pf s' :
  made_B1 crs X cx -> made_B2 crs Y cy -> quad_prove sch q X Y cx cy crs s = Ok (pf, s') ->
  quad_holds q X Y -> quad_verify sch' q (mkCProof cx cy [:: pf]) crs = Ok true.
Proof. by move=> mx my h /quad_holdsE e; rewrite (quad_honest hb vs vs' mx my h) e eqxx. Qed.

Hypothesis hnd : nondegenerate E.

(** [z |-> f (0, z) y] is injective for [y != 0]. *)
Lemma f_lin1_inj (y : Com2 E) z z' : y != 0 ->
  f (com1_linear_map z) y = f (com1_linear_map z') y -> z = z'.
Proof.
move=> hy; rewrite /comT_pairing /mkComT /= => -[e1 e2].
have eb := pair_bilin hb.
apply/eqP; rewrite -subr_eq0; apply/eqP.
have d1 : pair_e (z - z') y.1 = 0 by rewrite (bilBl eb) e1 subrr.
have d2 : pair_e (z - z') y.2 = 0 by rewrite (bilBl eb) e2 subrr.
case: (hnd d1) => // h1; case: (hnd d2) => // h2.
by case/eqP: hy; case: y h1 h2 {e1 e2 d1 d2} => ? ? /= -> ->.
Qed.
Lemma f_lin2_inj (x : Com1 E) z z' : x != 0 ->
  f x (com2_linear_map z) = f x (com2_linear_map z') -> z = z'.
Proof.
move=> hx; rewrite /comT_pairing /mkComT /= => -[e1 e2].
have eb := pair_bilin hb.
apply/eqP; rewrite -subr_eq0; apply/eqP.
have d1 : pair_e x.1 (z - z') = 0 by rewrite (bilBr eb) e1 subrr.
have d2 : pair_e x.2 (z - z') = 0 by rewrite (bilBr eb) e2 subrr.
case: (hnd d1) => // h1; case: (hnd d2) => // h2.
by case/eqP: hx; case: x h1 h2 {e1 e2 d1 d2} => ? ? /= -> ->.
Qed.

(** The pairing of commitments is non-degenerate in the same strong sense. *)
Lemma f_nondeg (x : Com1 E) (y : Com2 E) : f x y = 0 -> x = 0 \/ y = 0.
Proof.
case: x y => [x1 x2] [y1 y2]; rewrite /comT_pairing /mkComT /= => -[h1 h2 h3 h4].
case: (hnd h1) => [->|->]; last first.
  case: (hnd h2) => [->|->]; last by right.
  by case: (hnd h4) => ->; [left | right].
case: (hnd h3) => [->|->]; first by left.
by case: (hnd h4) => ->; [left | right].
Qed.

Lemma f_quad_inj (x : Com1 E) (y : Com2 E) z z' : x != 0 -> y != 0 ->
  f x (z *: y) = f x (z' *: y) -> z = z'.
Proof.
move=> hx hy /eqP; have fb := comT_pairing_bilin hb.
rewrite -subr_eq0 -(bilBr fb) => /eqP /f_nondeg[/eqP|/eqP].
  by rewrite (negbTE hx).
by rewrite -scalerBl scaler_eq0 (negbTE hy) orbF subr_eq0 => /eqP.
Qed.

Lemma ms1_dec q X Y cx cy crs s pf s' : s2map crs 1 != 0 ->
  made_G1 crs X cx -> made_B2 crs Y cy -> ms1_prove sch q X Y cx cy crs s = Ok (pf, s') ->
  exists2 b, ms1_verify sch' q (mkCProof cx cy [:: pf]) crs = Ok b & b <-> ms1_holds q X Y.
Proof.
move=> hy mx my h; rewrite (ms1_honest hb vs vs' mx my h); eexists; first by [].
split=> [/eqP /(f_lin1_inj hy) h1|/ms1_holdsE ->]; last by rewrite eqxx.
exact/ms1_holdsE.
Qed.
Lemma ms2_dec q X Y cx cy crs s pf s' : s1map crs 1 != 0 ->
  made_B1 crs X cx -> made_G2 crs Y cy -> ms2_prove sch q X Y cx cy crs s = Ok (pf, s') ->
  exists2 b, ms2_verify sch' q (mkCProof cx cy [:: pf]) crs = Ok b & b <-> ms2_holds q X Y.
Proof.
move=> hy mx my h; rewrite (ms2_honest hb vs vs' mx my h); eexists; first by [].
split=> [/eqP /(f_lin2_inj hy) h1|/ms2_holdsE ->]; last by rewrite eqxx.
exact/ms2_holdsE.
Qed.
Lemma quad_dec q X Y cx cy crs s pf s' : s1map crs 1 != 0 -> s2map crs 1 != 0 ->
  made_B1 crs X cx -> made_B2 crs Y cy -> quad_prove sch q X Y cx cy crs s = Ok (pf, s') ->
  exists2 b, quad_verify sch' q (mkCProof cx cy [:: pf]) crs = Ok b & b <-> quad_holds q X Y.
Proof.
move=> hx hy mx my h; rewrite (quad_honest hb vs vs' mx my h); eexists; first by [].
split=> [/eqP /(f_quad_inj hx hy) h1|/quad_holdsE ->]; last by rewrite eqxx.
exact/quad_holdsE.
Qed.
End Total.

(** ** Generated reference strings *)
Section Gen.
Context {E : pairing} {R : rng E}.
Implicit Types (s : rst R) (crs : CRS E).

Lemma generate_binding s crs s' : generate_crs s = (crs, s') -> binding_crs crs.
Proof.
rewrite /generate_crs; case: (rand_g1 s) => p1 s1; case: (rand_g2 s1) => p2 s2.
case: (rand_fr s2) => a1 s3; case: (rand_fr s3) => a2 s4; case: (rand_fr s4) => t1 s5.
case: (rand_fr s5) => t2 s6 [<- _]; exists a1, a2, t1, t2.
by split; rewrite //= subr0.
Qed.

Lemma binding_two crs : binding_crs crs -> two_keys crs.
Proof. by case=> a1 [a2 [t1 [t2 [hu hv _]]]]; rewrite /two_keys hu hv. Qed.
Lemma hiding_two crs : hiding_crs crs -> two_keys crs.
Proof. by case=> a1 [a2 [t1 [t2 [hu hv _]]]]; rewrite /two_keys hu hv. Qed.

Lemma binding_s1 crs : binding_crs crs -> g1_gen crs != 0 -> s1map crs 1 != 0.
Proof.
case=> a1 [a2 [t1 [t2 [hu hv _]]]] hp; rewrite /s1map hu /= scale1r; apply/eqP.
move=> -[/eqP]; rewrite addr0 scaler_eq0 (negbTE hp) orbF => /eqP ->.
by rewrite scale0r add0r => h; rewrite h eqxx in hp.
Qed.
Lemma binding_s2 crs : binding_crs crs -> g2_gen crs != 0 -> s2map crs 1 != 0.
Proof.
case=> a1 [a2 [t1 [t2 [hu hv _]]]] hp; rewrite /s2map hv /= scale1r; apply/eqP.
move=> -[/eqP]; rewrite addr0 scaler_eq0 (negbTE hp) orbF => /eqP ->.
by rewrite scale0r add0r => h; rewrite h eqxx in hp.
Qed.
End Gen.
