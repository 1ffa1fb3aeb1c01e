(** Extraction of the committed values from commitments made under a binding key. *)
From mathcomp Require Import all_ssreflect all_algebra.
From Verif Require Import Base BaseLemmas Group DataStructures MatLemmas CoreAlg ComLemmas.
From Verif Require Import Generator Commit Statement Prove Verify Spec ProveLemmas CommitLemmas.
From Verif Require Import VerifyLemmas Holds Complete Sound Main.
Set Implicit Arguments.
Unset Strict Implicit.
Unset Printing Implicit Defensive.
Import GRing.Theory.
Local Open Scope ring_scope.

Section Extract.
Context {E : pairing}.
Implicit Types (crs : CRS E).

(** The discrete logarithm to a non-zero base exists as a function. *)
Lemma dlog_fun (G : lmodType (Fr E)) (P : G) : cyclic G -> P != 0 ->
  exists l : G -> Fr E, forall Q, Q = l Q *: P.
Proof.
move=> hc hP; have h Q : exists k : Fr E, Q == k *: P by case: (hc P Q hP) => k ->; exists k.
by exists (fun Q => xchoose (h Q)) => Q; apply/eqP/(xchooseP (h Q)).
Qed.

(** The extractor from a discrete logarithm function. *)
Lemma dlog_scale (G : lmodType (Fr E)) (P : G) (l : G -> Fr E) x :
  P != 0 -> (forall Q, Q = l Q *: P) -> l (x *: P) = x.
Proof. by move=> hP h; apply: (@scaleI E G P) => //; rewrite -h. Qed.

Lemma ext_map_id (G : lmodType (Fr E)) a (cs : seq (com G)) : ext_list a id cs (map (ext a) cs).
Proof. by split=> [|k hk]; rewrite ?size_map ?(nth_map 0). Qed.

Lemma ext_map_l (G : lmodType (Fr E)) a (P : G) l (cs : seq (com G)) : (forall Q, Q = l Q *: P) ->
  ext_list a (fun x => x *: P) cs (map (l \o ext a) cs).
Proof. by move=> h; split=> [|k hk]; rewrite ?size_map ?(nth_map 0) //= -h. Qed.

Variable hb : bilinear E.

Section Key.
Variables (crs : CRS E) (a1 a2 t1 t2 : Fr E).
Hypothesis bw : binding_crs_with crs a1 a2 t1 t2.

Lemma made_ext_G1 X c : made_G1 crs X c -> map (ext a1) (coms c) = X.
Proof.
case=> hs hr h; apply: (@eq_from_nth _ 0); rewrite size_map ?hs // => i hi.
by rewrite (nth_map 0) ?hs //; apply: (open_G1 bw (h i hi)).
Qed.
Lemma made_ext_G2 X c : made_G2 crs X c -> map (ext a2) (coms c) = X.
Proof.
case=> hs hr h; apply: (@eq_from_nth _ 0); rewrite size_map ?hs // => i hi.
by rewrite (nth_map 0) ?hs //; apply: (open_G2 bw (h i hi)).
Qed.
Lemma made_ext_B1 l X c : g1_gen crs != 0 -> (forall Q, Q = l Q *: g1_gen crs) ->
  made_B1 crs X c -> map (l \o ext a1) (coms c) = X.
Proof.
move=> hp hl [hs hr h]; apply: (@eq_from_nth _ 0); rewrite size_map ?hs // => i hi.
by rewrite (nth_map 0) ?hs //= (open_B1 bw (h i hi)) (dlog_scale _ hp hl).
Qed.
Lemma made_ext_B2 l X c : g2_gen crs != 0 -> (forall Q, Q = l Q *: g2_gen crs) ->
  made_B2 crs X c -> map (l \o ext a2) (coms c) = X.
Proof.
move=> hp hl [hs hr h]; apply: (@eq_from_nth _ 0); rewrite size_map ?hs // => i hi.
by rewrite (nth_map 0) ?hs //= (open_B2 bw (h i hi)) (dlog_scale _ hp hl).
Qed.
End Key.

Variable sch : sched.
Hypothesis vs : valid_sched sch.

(** Extraction maps as in the soundness statements: inverse to every way of
    making commitments, and sound for verification. *)
Lemma ppe_extract crs : binding_crs crs ->
  exists (ex1 : Com1 E -> G1 E) (ex2 : Com2 E -> G2 E),
  [/\ forall X c, made_G1 crs X c -> map ex1 (coms c) = X,
      forall Y c, made_G2 crs Y c -> map ex2 (coms c) = Y
    & forall q p, ppe_verify sch q p crs = Ok true ->
        ppe_holds q (map ex1 (coms (xcoms p))) (map ex2 (coms (ycoms p)))].
Proof.
case=> a1 [a2 [t1 [t2 bw]]]; exists (ext a1), (ext a2); split.
- exact: made_ext_G1 bw.
- exact: made_ext_G2 bw.
- by move=> q p h; apply: (ppe_sound_ext hb vs bw h); apply: ext_map_id.
Qed.

Hypothesis hnd : nondegenerate E.

Lemma ms1_extract crs : binding_crs crs -> cyclic (G2 E) -> g2_gen crs != 0 ->
  exists (ex1 : Com1 E -> G1 E) (ex2 : Com2 E -> Fr E),
  [/\ forall X c, made_G1 crs X c -> map ex1 (coms c) = X,
      forall Y c, made_B2 crs Y c -> map ex2 (coms c) = Y
    & forall q p, ms1_verify sch q p crs = Ok true ->
        ms1_holds q (map ex1 (coms (xcoms p))) (map ex2 (coms (ycoms p)))].
Proof.
case=> a1 [a2 [t1 [t2 bw]]] hc hp; have [l hl] := dlog_fun hc hp.
exists (ext a1), (l \o ext a2); split.
- exact: made_ext_G1 bw.
- by move=> Y c; apply: (made_ext_B2 bw).
- move=> q p h; apply: (ms1_sound_ext hb vs bw hnd hp h); first exact: ext_map_id.
  exact: ext_map_l.
Qed.

Lemma ms2_extract crs : binding_crs crs -> cyclic (G1 E) -> g1_gen crs != 0 ->
  exists (ex1 : Com1 E -> Fr E) (ex2 : Com2 E -> G2 E),
  [/\ forall X c, made_B1 crs X c -> map ex1 (coms c) = X,
      forall Y c, made_G2 crs Y c -> map ex2 (coms c) = Y
    & forall q p, ms2_verify sch q p crs = Ok true ->
        ms2_holds q (map ex1 (coms (xcoms p))) (map ex2 (coms (ycoms p)))].
Proof.
case=> a1 [a2 [t1 [t2 bw]]] hc hp; have [l hl] := dlog_fun hc hp.
exists (l \o ext a1), (ext a2); split.
- by move=> Y c; apply: (made_ext_B1 bw).
- exact: made_ext_G2 bw.
- move=> q p h; apply: (ms2_sound_ext hb vs bw hnd hp h); last exact: ext_map_id.
  exact: ext_map_l.
Qed.

Lemma quad_extract crs : binding_crs crs -> cyclic (G1 E) -> cyclic (G2 E) ->
  g1_gen crs != 0 -> g2_gen crs != 0 ->
  exists (ex1 : Com1 E -> Fr E) (ex2 : Com2 E -> Fr E),
  [/\ forall X c, made_B1 crs X c -> map ex1 (coms c) = X,
      forall Y c, made_B2 crs Y c -> map ex2 (coms c) = Y
    & forall q p, quad_verify sch q p crs = Ok true ->
        quad_holds q (map ex1 (coms (xcoms p))) (map ex2 (coms (ycoms p)))].
Proof.
case=> a1 [a2 [t1 [t2 bw]]] hc1 hc2 hp1 hp2.
have [l hl] := dlog_fun hc1 hp1; have [m hm] := dlog_fun hc2 hp2.
exists (l \o ext a1), (m \o ext a2); split.
- by move=> Y c; apply: (made_ext_B1 bw).
- by move=> Y c; apply: (made_ext_B2 bw).
- by move=> q p h; apply: (quad_sound_ext hb vs bw hnd hp1 hp2 h); apply: ext_map_l.
Qed.

(** A scalar commitment is a commitment to the scalar times the generator. *)
Lemma com_B1_G1 crs x r c : com_B1 crs x r c -> com_G1 crs (x *: g1_gen crs) (rcons r x) c.
Proof.
case=> r1 [-> ->]; exists r1, x; split=> //.
rewrite scalerDr -[in RHS]addrA [r1 *: _ + _]addrC addrA; congr (_ + _); rewrite addrC; congr (_ + _).
by rewrite /GRing.scale /= /scale_pair /= scaler0.
Qed.
Lemma com_B2_G2 crs x r c : com_B2 crs x r c -> com_G2 crs (x *: g2_gen crs) (rcons r x) c.
Proof.
case=> r1 [-> ->]; exists r1, x; split=> //.
rewrite scalerDr -[in RHS]addrA [r1 *: _ + _]addrC addrA; congr (_ + _); rewrite addrC; congr (_ + _).
by rewrite /GRing.scale /= /scale_pair /= scaler0.
Qed.

(** Equations sharing commitments hold jointly. *)
Lemma joint crs : binding_crs crs -> cyclic (G1 E) -> cyclic (G2 E) ->
  g1_gen crs != 0 -> g2_gen crs != 0 ->
  forall (c c' : seq (Com1 E)) (d d' : seq (Com2 E)),
  exists X x Y y,
  [/\ commits_G1 crs c X, commits_B1 crs c' x, commits_G2 crs d Y & commits_B2 crs d' y] /\
  [/\ forall q p, coms (xcoms p) = c -> coms (ycoms p) = d ->
        ppe_verify sch q p crs = Ok true -> ppe_holds q X Y,
      forall q p, coms (xcoms p) = c -> coms (ycoms p) = d' ->
        ms1_verify sch q p crs = Ok true -> ms1_holds q X y,
      forall q p, coms (xcoms p) = c' -> coms (ycoms p) = d ->
        ms2_verify sch q p crs = Ok true -> ms2_holds q x Y
    & forall q p, coms (xcoms p) = c' -> coms (ycoms p) = d' ->
        quad_verify sch q p crs = Ok true -> quad_holds q x y].
Proof.
move=> bk hc1 hc2 hp1 hp2 c c' d d'; case: (bk) => a1 [a2 [t1 [t2 bw]]].
have [X hX] : exists X, commits_G1 crs c X.
  by apply: exists_list => e; have [r h] := exists_G1 bw hc1 hp1 e; exists (ext a1 e), r.
have [x hx] : exists x, commits_B1 crs c' x.
  by apply: exists_list => e; apply: (exists_B1 bw hc1 hp1).
have [Y hY] : exists Y, commits_G2 crs d Y.
  by apply: exists_list => e; have [r h] := exists_G2 bw hc2 hp2 e; exists (ext a2 e), r.
have [y hy] : exists y, commits_B2 crs d' y.
  by apply: exists_list => e; apply: (exists_B2 bw hc2 hp2).
exists X, x, Y, y; split=> //; split=> q p e1 e2 h.
- by apply: (ppe_sound hb bk vs h); rewrite ?e1 ?e2.
- by apply: (ms1_sound hb bk vs hnd hp2 h); rewrite ?e1 ?e2.
- by apply: (ms2_sound hb bk vs hnd hp1 h); rewrite ?e1 ?e2.
- by apply: (quad_sound hb bk vs hnd hp1 hp2 h); rewrite ?e1 ?e2.
Qed.
End Extract.
