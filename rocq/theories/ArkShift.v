(** Points that the pairing does not see. *)
From mathcomp Require Import all_ssreflect all_algebra.
From Verif Require Import Base Group DataStructures Generator Commit Statement Prove Verify Derived Spec SpecVerify SpecHide.
From Verif Require Import Ark SpecArk ArkRel ArkLemmas ArkTransfer.
Set Implicit Arguments.
Unset Strict Implicit.
Unset Printing Implicit Defensive.
Import GRing.Theory.
Local Open Scope ring_scope.

Section Shift.
Context {F : fieldType} {A : ark F} {S : aff (C1 A) -> aff (C1 A) -> Prop}.
Hypothesis H : invisible S.

Lemma shift_pairing x x' y : pair_rel S x x' -> ark_comT_pairing x y = ark_comT_pairing x' y.
Proof.
case: H => H1 _ [h1 h2]; rewrite /ark_comT_pairing.
by rewrite (H1 _ _ y.1 h1) (H1 _ _ y.2 h1) (H1 _ _ y.1 h2) (H1 _ _ y.2 h2).
Qed.

Lemma shift_pairing_sum xs xs' ys : rseq (pair_rel S) xs xs' -> ark_comT_pairing_sum xs ys = ark_comT_pairing_sum xs' ys.
Proof.
case: H => _ H2 h; rewrite /ark_comT_pairing_sum (rsize h).
have f1 : rseq S [seq x.1 | x <- xs] [seq x.1 | x <- xs'] by apply: rmap h => x y [].
have f2 : rseq S [seq x.2 | x <- xs] [seq x.2 | x <- xs'] by apply: rmap h => x y [].
by rewrite !(H2 _ _ _ f1, H2 _ _ _ f2).
Qed.

Ltac same := refine (rbind (rres_eq _) _); intros ? ? <-.

Lemma ppe_shift sch (f : ark_PPE A) p p' d : shifted S p p' -> ark_ppe_verify sch f p d = ark_ppe_verify sch f p' d.
Proof.
case: p p' => [[xc xr] [yc yr] ps] [[xc' xr'] [yc' yr'] ps'] [/= hx <- hp]; apply/rres_eqE.
have Ex ys : ark_comT_pairing_sum xc ys = ark_comT_pairing_sum xc' ys := shift_pairing_sum ys hx.
rewrite /ark_ppe_verify /= (rsize hp); same; apply: rbind (ridx 0 hp) _ => -[pp pt pty pr] [qp qt qty qr] [/= <- ht <-].
have Et ys : ark_comT_pairing_sum pt ys = ark_comT_pairing_sum qt ys := shift_pairing_sum ys ht.
repeat first [rewrite Ex | rewrite Et | same | (apply: rbind (ridx 0 ht) _ => t0 t0' ht0)].
by [].
Qed.

Lemma ms1_shift sch (f : ark_MSMEG1 A) p p' d : shifted S p p' -> ark_ms1_verify sch f p d = ark_ms1_verify sch f p' d.
Proof.
case: p p' => [[xc xr] [yc yr] ps] [[xc' xr'] [yc' yr'] ps'] [/= hx <- hp]; apply/rres_eqE.
have Ex ys : ark_comT_pairing_sum xc ys = ark_comT_pairing_sum xc' ys := shift_pairing_sum ys hx.
rewrite /ark_ms1_verify /= (rsize hp); same; apply: rbind (ridx 0 hp) _ => -[pp pt pty pr] [qp qt qty qr] [/= <- ht <-].
have Et ys : ark_comT_pairing_sum pt ys = ark_comT_pairing_sum qt ys := shift_pairing_sum ys ht.
repeat first [rewrite Ex | rewrite Et | same | (apply: rbind (ridx 0 ht) _ => t0 t0' ht0)].
by rewrite (shift_pairing _ ht0).
Qed.

Lemma ms2_shift sch (f : ark_MSMEG2 A) p p' d : shifted S p p' -> ark_ms2_verify sch f p d = ark_ms2_verify sch f p' d.
Proof.
case: p p' => [[xc xr] [yc yr] ps] [[xc' xr'] [yc' yr'] ps'] [/= hx <- hp]; apply/rres_eqE.
have Ex ys : ark_comT_pairing_sum xc ys = ark_comT_pairing_sum xc' ys := shift_pairing_sum ys hx.
rewrite /ark_ms2_verify /= (rsize hp); same; apply: rbind (ridx 0 hp) _ => -[pp pt pty pr] [qp qt qty qr] [/= <- ht <-].
have Et ys : ark_comT_pairing_sum pt ys = ark_comT_pairing_sum qt ys := shift_pairing_sum ys ht.
repeat first [rewrite Ex | rewrite Et | same | (apply: rbind (ridx 0 ht) _ => t0 t0' ht0)].
by [].
Qed.

Lemma quad_shift sch (f : ark_QuadEqu F) p p' d : shifted S p p' -> ark_quad_verify sch f p d = ark_quad_verify sch f p' d.
Proof.
case: p p' => [[xc xr] [yc yr] ps] [[xc' xr'] [yc' yr'] ps'] [/= hx <- hp]; apply/rres_eqE.
have Ex ys : ark_comT_pairing_sum xc ys = ark_comT_pairing_sum xc' ys := shift_pairing_sum ys hx.
rewrite /ark_quad_verify /= (rsize hp); same; apply: rbind (ridx 0 hp) _ => -[pp pt pty pr] [qp qt qty qr] [/= <- ht <-].
have Et ys : ark_comT_pairing_sum pt ys = ark_comT_pairing_sum qt ys := shift_pairing_sum ys ht.
repeat first [rewrite Ex | rewrite Et | same | (apply: rbind (ridx 0 ht) _ => t0 t0' ht0)].
by rewrite (shift_pairing _ ht0).
Qed.
End Shift.

Section ShiftSound.
Context {E : pairing} {A : ark (Fr E)} {r1 : repr (G1 E) (C1 A)} {r2 : repr (G2 E) (C2 A)} {rt : GT E -> out A -> Prop}.
Hypothesis I : implements r1 r2 rt.

Lemma ppe_shift_sound S (R' : ark_rng A) sch (t t' : ark_rst R') d P1 P2 :
  bilinear E -> valid_sched sch -> ark_generate_crs t = (d, t') ->
  rp r1 P1 (ark_rand_g1 t).1 -> rp r2 P2 (ark_rand_g2 (ark_rand_g1 t).2).1 -> 
  invisible S ->
  exists (ex1 : Com1 E -> G1 E) (ex2 : Com2 E -> G2 E),
  [/\ forall (R2 : ark_rng A) X a (z z' : ark_rst R2) c c', rseq (ra r1) X a -> ark_batch_commit_G1 a d z = Ok (c', z') ->
        rseq (rcom r1) c (ark_coms c') -> map ex1 c = X,
      forall (R2 : ark_rng A) Y b (z z' : ark_rst R2) c c', rseq (ra r2) Y b -> ark_batch_commit_G2 b d z = Ok (c', z') ->
        rseq (rcom r2) c (ark_coms c') -> map ex2 c = Y
    & forall q f p p' p'', rppe r1 r2 rt q f -> rcproof r1 r2 p p' -> shifted S p' p'' -> ark_ppe_verify sch f p'' d = Ok true ->
        ppe_holds q (map ex1 (coms (xcoms p))) (map ex2 (coms (ycoms p)))].
Proof.
move=> hb vs hd h1 h2  hS; have [ex1 [ex2 [k1 k2 k3]]] := ppe_ark_sound I hb vs hd h1 h2 .
exists ex1, ex2; split=> // q f p p' p'' hq hp hs; rewrite -(ppe_shift hS sch f d hs); exact: k3 hq hp.
Qed.

Lemma ms1_shift_sound S (R' : ark_rng A) sch (t t' : ark_rst R') d P1 P2 :
  bilinear E -> valid_sched sch -> ark_generate_crs t = (d, t') ->
  rp r1 P1 (ark_rand_g1 t).1 -> rp r2 P2 (ark_rand_g2 (ark_rand_g1 t).2).1 -> nondegenerate E -> cyclic (G2 E) -> P2 != 0 -> 
  invisible S ->
  exists (ex1 : Com1 E -> G1 E) (ex2 : Com2 E -> Fr E),
  [/\ forall (R2 : ark_rng A) X a (z z' : ark_rst R2) c c', rseq (ra r1) X a -> ark_batch_commit_G1 a d z = Ok (c', z') ->
        rseq (rcom r1) c (ark_coms c') -> map ex1 c = X,
      forall (R2 : ark_rng A) Y (z z' : ark_rst R2) c c', ark_batch_commit_scalar_to_B2 Y d z = Ok (c', z') ->
        rseq (rcom r2) c (ark_coms c') -> map ex2 c = Y
    & forall q f p p' p'', rms1 r1 q f -> rcproof r1 r2 p p' -> shifted S p' p'' -> ark_ms1_verify sch f p'' d = Ok true ->
        ms1_holds q (map ex1 (coms (xcoms p))) (map ex2 (coms (ycoms p)))].
Proof.
move=> hb vs hd h1 h2 hn hc2 hP2 hS; have [ex1 [ex2 [k1 k2 k3]]] := ms1_ark_sound I hb vs hd h1 h2 hn hc2 hP2.
exists ex1, ex2; split=> // q f p p' p'' hq hp hs; rewrite -(ms1_shift hS sch f d hs); exact: k3 hq hp.
Qed.

Lemma ms2_shift_sound S (R' : ark_rng A) sch (t t' : ark_rst R') d P1 P2 :
  bilinear E -> valid_sched sch -> ark_generate_crs t = (d, t') ->
  rp r1 P1 (ark_rand_g1 t).1 -> rp r2 P2 (ark_rand_g2 (ark_rand_g1 t).2).1 -> nondegenerate E -> cyclic (G1 E) -> P1 != 0 -> 
  invisible S ->
  exists (ex1 : Com1 E -> Fr E) (ex2 : Com2 E -> G2 E),
  [/\ forall (R2 : ark_rng A) X (z z' : ark_rst R2) c c', ark_batch_commit_scalar_to_B1 X d z = Ok (c', z') ->
        rseq (rcom r1) c (ark_coms c') -> map ex1 c = X,
      forall (R2 : ark_rng A) Y b (z z' : ark_rst R2) c c', rseq (ra r2) Y b -> ark_batch_commit_G2 b d z = Ok (c', z') ->
        rseq (rcom r2) c (ark_coms c') -> map ex2 c = Y
    & forall q f p p' p'', rms2 r2 q f -> rcproof r1 r2 p p' -> shifted S p' p'' -> ark_ms2_verify sch f p'' d = Ok true ->
        ms2_holds q (map ex1 (coms (xcoms p))) (map ex2 (coms (ycoms p)))].
Proof.
move=> hb vs hd h1 h2 hn hc1 hP1 hS; have [ex1 [ex2 [k1 k2 k3]]] := ms2_ark_sound I hb vs hd h1 h2 hn hc1 hP1.
exists ex1, ex2; split=> // q f p p' p'' hq hp hs; rewrite -(ms2_shift hS sch f d hs); exact: k3 hq hp.
Qed.

Lemma quad_shift_sound S (R' : ark_rng A) sch (t t' : ark_rst R') d P1 P2 :
  bilinear E -> valid_sched sch -> ark_generate_crs t = (d, t') ->
  rp r1 P1 (ark_rand_g1 t).1 -> rp r2 P2 (ark_rand_g2 (ark_rand_g1 t).2).1 -> nondegenerate E -> cyclic (G1 E) -> cyclic (G2 E) -> P1 != 0 -> P2 != 0 -> 
  invisible S ->
  exists (ex1 : Com1 E -> Fr E) (ex2 : Com2 E -> Fr E),
  [/\ forall (R2 : ark_rng A) X (z z' : ark_rst R2) c c', ark_batch_commit_scalar_to_B1 X d z = Ok (c', z') ->
        rseq (rcom r1) c (ark_coms c') -> map ex1 c = X,
      forall (R2 : ark_rng A) Y (z z' : ark_rst R2) c c', ark_batch_commit_scalar_to_B2 Y d z = Ok (c', z') ->
        rseq (rcom r2) c (ark_coms c') -> map ex2 c = Y
    & forall q f p p' p'', rquad q f -> rcproof r1 r2 p p' -> shifted S p' p'' -> ark_quad_verify sch f p'' d = Ok true ->
        quad_holds q (map ex1 (coms (xcoms p))) (map ex2 (coms (ycoms p)))].
Proof.
move=> hb vs hd h1 h2 hn hc1 hc2 hP1 hP2 hS; have [ex1 [ex2 [k1 k2 k3]]] := quad_ark_sound I hb vs hd h1 h2 hn hc1 hc2 hP1 hP2.
exists ex1, ex2; split=> // q f p p' p'' hq hp hs; rewrite -(quad_shift hS sch f d hs); exact: k3 hq hp.
Qed.
End ShiftSound.
