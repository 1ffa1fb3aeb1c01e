(** Honestly generated commitments and proofs, and what the verifier says. *)
From mathcomp Require Import all_ssreflect all_algebra.
From Verif Require Import Base BaseLemmas Group DataStructures MatLemmas CoreAlg ComLemmas.
From Verif Require Import Commit Statement Prove Verify Spec ProveLemmas CommitLemmas VerifyLemmas Holds.
Set Implicit Arguments.
Unset Strict Implicit.
Unset Printing Implicit Defensive.
Import GRing.Theory.
Local Open Scope ring_scope.

Lemma dims_rect T m n (M : matrix T) : dims m n M <-> rect m n M.
Proof. by split=> [h|/rectP]; first by apply/rectP. Qed.

Section Made.
Context {E : pairing}.
Implicit Types (crs : CRS E).

Lemma made_G1_gs crs X c : made_G1 crs X c ->
  [/\ rect (size X) 2 (crand c), size (coms c) = size X
    & forall k, (k < size X)%N -> nth 0 (coms c) k =
        gs_c 2 (nth 0 (com1_batch_linear_map X)) (nth 0 (crs_u crs)) (ent 0 (crand c)) k].
Proof.
case=> hs hr h; split=> //.
  by apply/rectP; split=> // i hi; have [r1 [r2 [-> _]]] := h i hi.
move=> k hk; have [r1 [r2 [e ->]]] := h k hk.
by rewrite /gs_c big2 /ent e nth_lin1 /= addrA.
Qed.

Lemma made_G2_gs crs X c : made_G2 crs X c ->
  [/\ rect (size X) 2 (crand c), size (coms c) = size X
    & forall k, (k < size X)%N -> nth 0 (coms c) k =
        gs_c 2 (nth 0 (com2_batch_linear_map X)) (nth 0 (crs_v crs)) (ent 0 (crand c)) k].
Proof.
case=> hs hr h; split=> //.
  by apply/rectP; split=> // i hi; have [r1 [r2 [-> _]]] := h i hi.
move=> k hk; have [r1 [r2 [e ->]]] := h k hk.
by rewrite /gs_c big2 /ent e nth_lin2 /= addrA.
Qed.

Lemma made_B1_gs crs X c : made_B1 crs X c ->
  [/\ rect (size X) 1 (crand c), size (coms c) = size X
    & forall k, (k < size X)%N -> nth 0 (coms c) k =
        gs_c 1 (nth 0 [seq s1map crs x | x <- X]) (nth 0 [:: nth 0 (crs_u crs) 0]) (ent 0 (crand c)) k].
Proof.
case=> hs hr h; split=> //.
  by apply/rectP; split=> // i hi; have [r1 [-> _]] := h i hi.
move=> k hk; have [r1 [e ->]] := h k hk.
by rewrite /gs_c big_nat1 /ent e nth_s1.
Qed.

Lemma made_B2_gs crs X c : made_B2 crs X c ->
  [/\ rect (size X) 1 (crand c), size (coms c) = size X
    & forall k, (k < size X)%N -> nth 0 (coms c) k =
        gs_c 1 (nth 0 [seq s2map crs x | x <- X]) (nth 0 [:: nth 0 (crs_v crs) 0]) (ent 0 (crand c)) k].
Proof.
case=> hs hr h; split=> //.
  by apply/rectP; split=> // i hi; have [r1 [-> _]] := h i hi.
move=> k hk; have [r1 [e ->]] := h k hk.
by rewrite /gs_c big_nat1 /ent e nth_s2.
Qed.

Context {R : rng E}.
Implicit Types (s : rst R).

Lemma batch_made_G1 X crs s c s' : batch_commit_G1 X crs s = Ok (c, s') -> made_G1 crs X c.
Proof.
move=> h; have := isok_batch_commit_G1 X crs s; rewrite h => /esym/andP[h0 /eqP hu].
move: h; rewrite batch_commit_G1_Ok // => -[<- _]; split; rewrite ?size_mkseq //= => i hi.
rewrite nth_mkmat // nth_mkseq //; eexists; eexists; split; first by rewrite /mkseq.
by rewrite /gs_c big2 nth_lin1 /= addrA.
Qed.
Lemma batch_made_G2 X crs s c s' : batch_commit_G2 X crs s = Ok (c, s') -> made_G2 crs X c.
Proof.
move=> h; have := isok_batch_commit_G2 X crs s; rewrite h => /esym/andP[h0 /eqP hu].
move: h; rewrite batch_commit_G2_Ok // => -[<- _]; split; rewrite ?size_mkseq //= => i hi.
rewrite nth_mkmat // nth_mkseq //; eexists; eexists; split; first by rewrite /mkseq.
by rewrite /gs_c big2 nth_lin2 /= addrA.
Qed.
Lemma batch_made_B1 X crs s c s' : batch_commit_scalar_to_B1 X crs s = Ok (c, s') -> made_B1 crs X c.
Proof.
move=> h; have := isok_batch_commit_B1 X crs s; rewrite h => /esym/andP[h0 hu].
move: h; rewrite batch_commit_B1_Ok // => -[<- _]; split; rewrite ?size_mkseq //= => i hi.
rewrite nth_mkmat // nth_mkseq //; eexists; split; first by rewrite /mkseq.
by rewrite /gs_c big_nat1 nth_s1.
Qed.
Lemma batch_made_B2 X crs s c s' : batch_commit_scalar_to_B2 X crs s = Ok (c, s') -> made_B2 crs X c.
Proof.
move=> h; have := isok_batch_commit_B2 X crs s; rewrite h => /esym/andP[h0 hu].
move: h; rewrite batch_commit_B2_Ok // => -[<- _]; split; rewrite ?size_mkseq //= => i hi.
rewrite nth_mkmat // nth_mkseq //; eexists; split; first by rewrite /mkseq.
by rewrite /gs_c big_nat1 nth_s2.
Qed.

Lemma commit_made_G1 x crs s c s' : commit_G1 x crs s = Ok (c, s') -> made_G1 crs [:: x] c.
Proof.
move=> h; have := isok_commit_G1 x crs s; rewrite h => /esym hu.
move: h; rewrite commit_G1_Ok // => -[<- _]; split=> // -[|i] //= _.
by eexists; eexists.
Qed.
Lemma commit_made_G2 x crs s c s' : commit_G2 x crs s = Ok (c, s') -> made_G2 crs [:: x] c.
Proof.
move=> h; have := isok_commit_G2 x crs s; rewrite h => /esym hu.
move: h; rewrite commit_G2_Ok // => -[<- _]; split=> // -[|i] //= _.
by eexists; eexists.
Qed.
Lemma commit_made_B1 x crs s c s' : commit_scalar_to_B1 x crs s = Ok (c, s') -> made_B1 crs [:: x] c.
Proof.
move=> h; have := isok_commit_B1 x crs s; rewrite h => /esym hu.
move: h; rewrite commit_B1_Ok // => -[<- _]; split=> // -[|i] //= _.
by eexists.
Qed.
Lemma commit_made_B2 x crs s c s' : commit_scalar_to_B2 x crs s = Ok (c, s') -> made_B2 crs [:: x] c.
Proof.
move=> h; have := isok_commit_B2 x crs s; rewrite h => /esym hu.
move: h; rewrite commit_B2_Ok // => -[<- _]; split=> // -[|i] //= _.
by eexists.
Qed.
End Made.

Section Append.
Context {F : fieldType} {G : lmodType F} {K V : Type}.
Variables (cm : K -> V -> seq F -> com G -> Prop) (dv : V).

Lemma append_made crs X1 X2 (c1 c2 c c' : commit G) :
  made_of cm dv crs X1 c1 -> made_of cm dv crs X2 c2 -> commit_append c1 c2 = Ok (c, c') ->
  made_of cm dv crs (X1 ++ X2) c.
Proof.
case=> a1 b1 h1 [a2 b2 h2]; rewrite commit_appendE => /bind_ok[_ _] /bind_ok[_ _] [<- _].
split; rewrite /= ?size_cat ?a1 ?a2 ?b1 ?b2 // => i hi.
rewrite !nth_cat a1 b1; case: ifP => h; first exact: h1.
by apply: h2; rewrite ltn_subLR // leqNgt h.
Qed.

Lemma append_Ok crs X1 X2 (c1 c2 : commit G) :
  made_of cm dv crs X1 c1 -> made_of cm dv crs X2 c2 ->
  commit_append c1 c2
  = Ok (mkCommit (coms c1 ++ coms c2) (crand c1 ++ crand c2), mkCommit [::] [::]).
Proof.
by case=> a1 b1 _ [a2 b2 _]; rewrite commit_appendE !assert_eqT // ?a1 ?b1 ?a2 ?b2.
Qed.
End Append.

Section Honest.
Context {E : pairing}.
Hypothesis hb : bilinear E.
Notation f := (comT_pairing : Com1 E -> Com2 E -> ComT E).
Let fb := comT_pairing_bilin hb.

Lemma honest_eq m n kx ky (linA linX : seq (Com1 E)) (linB linY : seq (Com2 E)) uk vk u v
  (RR S G T : matrix (Fr E)) c d t :
  size c = m -> size d = n ->
  (forall k, (k < m)%N -> nth 0 c k = gs_c kx (nth 0 linX) (nth 0 uk) (ent 0 RR) k) ->
  (forall k, (k < n)%N -> nth 0 d k = gs_c ky (nth 0 linY) (nth 0 vk) (ent 0 S) k) ->
  (forall i, (i < kx)%N -> nth 0 u i = nth 0 uk i) ->
  (forall i, (i < ky)%N -> nth 0 v i = nth 0 vk i) ->
  veq linA linB G c d t u
    (mkseq (gs_pi m n ky (nth 0 linB) (nth 0 linY) (nth 0 vk) (ent 0 G) (ent 0 RR) (ent 0 S) (ent 0 T)) kx)
    (mkseq (gs_th m n kx (nth 0 linA) (nth 0 linX) (nth 0 uk) (ent 0 G) (ent 0 S) (ent 0 T)) ky)
    v kx ky
  = (gs_eq f m n (ent 0 G) (nth 0 linA) (nth 0 linX) (nth 0 linB) (nth 0 linY) == t).
Proof.
move=> hc hd ec ed eu ev; rewrite /veq hc hd.
have -> : gs_eq f m n (ent 0 G) (nth 0 linA) (nth 0 c) (nth 0 linB) (nth 0 d)
  = gs_eq f m n (ent 0 G) (nth 0 linA) (gs_c kx (nth 0 linX) (nth 0 uk) (ent 0 RR))
      (nth 0 linB) (gs_d ky (nth 0 linY) (nth 0 vk) (ent 0 S)).
  rewrite /gs_eq; congr (_ + _ + _); apply: eq_big_nat => k /andP[_ hk]; rewrite ?ec ?ed //.
  by congr (f _ _); apply: eq_big_nat => j /andP[_ hj]; rewrite ed.
rewrite (gs_identity fb _ _ _ _ _ _ _ _ _ _ _ _ _ (ent 0 T)).
set a := gs_eq _ _ _ _ _ _ _ _.
have -> : \sum_(0 <= i < kx) f (nth 0 u i) (nth 0 (mkseq (gs_pi m n ky (nth 0 linB) (nth 0 linY) (nth 0 vk) (ent 0 G) (ent 0 RR) (ent 0 S) (ent 0 T)) kx) i)
  = \sum_(0 <= i < kx) f (nth 0 uk i) (gs_pi m n ky (nth 0 linB) (nth 0 linY) (nth 0 vk) (ent 0 G) (ent 0 RR) (ent 0 S) (ent 0 T) i).
  by apply: eq_big_nat => i /andP[_ hi]; rewrite nth_mkseq // eu.
have -> : \sum_(0 <= i < ky) f (nth 0 (mkseq (gs_th m n kx (nth 0 linA) (nth 0 linX) (nth 0 uk) (ent 0 G) (ent 0 S) (ent 0 T)) ky) i) (nth 0 v i)
  = \sum_(0 <= i < ky) f (gs_th m n kx (nth 0 linA) (nth 0 linX) (nth 0 uk) (ent 0 G) (ent 0 S) (ent 0 T) i) (nth 0 vk i).
  by apply: eq_big_nat => i /andP[_ hi]; rewrite nth_mkseq // ev.
by rewrite !(inj_eq (addIr _)).
Qed.

Context {R : rng E}.
Variables (sch sch' : sched).
Hypotheses (vs : valid_sched sch) (vs' : valid_sched sch').
Implicit Types (s : rst R) (crs : CRS E) (cx : Commit1 E) (cy : Commit2 E).

Lemma stmt_shapeI m n kx ky (RR S G : matrix (Fr E)) na nb (c : seq (Com1 E)) (d : seq (Com2 E)) :
  prove_shape m n kx ky RR S G na nb -> size c = m -> size d = n -> stmt_shape c d na nb G.
Proof.
case/and5P => hm hn hR hS /and3P[hG /eqP -> /eqP ->] hc hd; rewrite /stmt_shape hc hd !eqxx /=.
rewrite /gamma_ok no_cellsE (rect_size hG) (rect_ncols hG) // !eqn0Ngt hm hn /= !eqxx.
exact: rect_rows_ge hG.
Qed.

Lemma ppe_honest q X Y cx cy crs s pf s' :
  made_G1 crs X cx -> made_G2 crs Y cy ->
  ppe_prove sch q X Y cx cy crs s = Ok (pf, s') ->
  ppe_verify sch' q (mkCProof cx cy [:: pf]) crs = Ok (ppe_val q X Y == ppe_target q).
Proof.
move=> /made_G1_gs[hR hc ec] /made_G2_gs[hS hd ed] h.
have := isok_ppe_prove vs q X Y cx cy crs s; rewrite h => /esym/andP[/andP[sh /eqP hu] /eqP hv].
have gsh := sh; case/and5P: gsh => hm hn _ _ /and3P[_ /eqP ha /eqP hb'].
move: h; rewrite ppe_proveE (gprove_Ok vs) ?size_com1_lin ?size_com2_lin ?rect_mkmat //; last first.
  by rewrite gshapeE size_com1_lin size_com2_lin sh hu hv !eqxx.
case=> <- _; rewrite (ppe_verify_Ok vs'); last first.
  by rewrite /ppe_vshape /= (stmt_shapeI sh hc hd) ?size_mkseq hu hv.
rewrite /ppe_veq hu hv /= honest_eq // (ppe_lin hb).
congr Ok; apply/eqP/eqP => [|->] //.
by rewrite /linear_map_PPE /mkComT => -[].
Qed.

Lemma ms1_honest q X Y cx cy crs s pf s' :
  made_G1 crs X cx -> made_B2 crs Y cy ->
  ms1_prove sch q X Y cx cy crs s = Ok (pf, s') ->
  ms1_verify sch' q (mkCProof cx cy [:: pf]) crs
  = Ok (f (com1_linear_map (ms1_val q X Y)) (s2map crs 1)
        == f (com1_linear_map (ms1_target q)) (s2map crs 1)).
Proof.
move=> /made_G1_gs[hR hc ec] /made_B2_gs[hS hd ed] h.
have := isok_ms1_prove vs q X Y cx cy crs s; rewrite h => /esym/andP[/andP[sh /eqP hu] hv].
have gsh := sh; case/and5P: gsh => hm hn _ _ /and3P[_ /eqP ha /eqP hb'].
move: h; rewrite ms1_proveE // (gprove_Ok vs) ?size_com1_lin ?size_map ?rect_mkmat //; last first.
  by rewrite gshapeE size_com1_lin size_map sh hu.
case=> <- _; rewrite (ms1_verify_Ok vs'); last first.
  by rewrite /ms1_vshape /= (stmt_shapeI sh hc hd) ?size_mkseq hu hv.
rewrite /ms1_veq hu /= honest_eq //; first by rewrite (ms1_lin hb).
by case.
Qed.

Lemma ms2_honest q X Y cx cy crs s pf s' :
  made_B1 crs X cx -> made_G2 crs Y cy ->
  ms2_prove sch q X Y cx cy crs s = Ok (pf, s') ->
  ms2_verify sch' q (mkCProof cx cy [:: pf]) crs
  = Ok (f (s1map crs 1) (com2_linear_map (ms2_val q X Y))
        == f (s1map crs 1) (com2_linear_map (ms2_target q))).
Proof.
move=> /made_B1_gs[hR hc ec] /made_G2_gs[hS hd ed] h.
have := isok_ms2_prove vs q X Y cx cy crs s; rewrite h => /esym/andP[/andP[sh hu] /eqP hv].
have gsh := sh; case/and5P: gsh => hm hn _ _ /and3P[_ /eqP ha /eqP hb'].
move: h; rewrite ms2_proveE // (gprove_Ok vs) ?size_com2_lin ?size_map ?rect_mkmat //; last first.
  by rewrite gshapeE size_com2_lin size_map sh hv.
case=> <- _; rewrite (ms2_verify_Ok vs'); last first.
  by rewrite /ms2_vshape /= (stmt_shapeI sh hc hd) ?size_mkseq hu hv.
rewrite /ms2_veq hv /= honest_eq //; first by rewrite (ms2_lin hb).
by case.
Qed.

Lemma quad_honest q X Y cx cy crs s pf s' :
  made_B1 crs X cx -> made_B2 crs Y cy ->
  quad_prove sch q X Y cx cy crs s = Ok (pf, s') ->
  quad_verify sch' q (mkCProof cx cy [:: pf]) crs
  = Ok (f (s1map crs 1) (quad_val q X Y *: s2map crs 1)
        == f (s1map crs 1) (quad_target q *: s2map crs 1)).
Proof.
move=> /made_B1_gs[hR hc ec] /made_B2_gs[hS hd ed] h.
have := isok_quad_prove vs q X Y cx cy crs s; rewrite h => /esym/andP[/andP[sh hu] hv].
have gsh := sh; case/and5P: gsh => hm hn _ _ /and3P[_ /eqP ha /eqP hb'].
move: h; rewrite quad_proveE // (gprove_Ok vs) ?size_map ?rect_mkmat //; last first.
  by rewrite gshapeE !size_map sh.
case=> <- _; rewrite (quad_verify_Ok vs'); last first.
  by rewrite /quad_vshape /= (stmt_shapeI sh hc hd) ?size_mkseq hu hv.
rewrite /quad_veq /= honest_eq //; [by rewrite (quad_lin hb) | by case | by case].
Qed.
End Honest.
