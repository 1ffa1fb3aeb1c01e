(** Proofs of the statements in P_Tamper.v. *)
From mathcomp Require Import all_ssreflect all_algebra.
From Verif Require Import Base BaseLemmas Group DataStructures Generator Commit Statement Prove Verify Spec SpecMat SpecVerify SpecTamper CoreAlg ComLemmas ComProps Main VProps TamperLemmas.
Set Implicit Arguments.
Unset Strict Implicit.
Unset Printing Implicit Defensive.
Import GRing.Theory.
Local Open Scope ring_scope.

Lemma answersI (r : res bool) (P C : Prop) : returns r -> (forall b, r = Ok b -> (b <-> C)) -> (C <-> P) -> answers r P.
Proof. by case=> b h h1 h2; exists b => //; exact: (iff_trans (h1 _ h) h2). Qed.
Lemma opp0P (V : zmodType) (x : V) : - x = 0 <-> x = 0.
Proof. by split=> [/eqP|->]; rewrite ?oppr0 // oppr_eq0 => /eqP. Qed.
Lemma sub0P (V : zmodType) (x y : V) : x - y = 0 <-> x = y.
Proof. by split=> [/eqP|->]; rewrite ?subrr // subr_eq0 => /eqP. Qed.
Lemma scale0P (F : fieldType) (V : lmodType F) (a : F) (x : V) : a *: x = 0 <-> a = 0 \/ x = 0.
Proof.
split=> [/eqP|[->|->]]; rewrite ?scale0r ?scaler0 //.
by rewrite scaler_eq0 => /orP[] /eqP; [left|right].
Qed.
Lemma or_iff (A B C D : Prop) : (A <-> C) -> (B <-> D) -> (A \/ B <-> C \/ D). Proof. by tauto. Qed.
Lemma or_iffC (A B C D : Prop) : (A <-> C) -> (B <-> D) -> (A \/ B <-> D \/ C). Proof. by tauto. Qed.
Lemma sub_i1 (E : pairing) (x y : G1 E) : ((0, x) : Com1 E) - (0, y) = 0 <-> x = y.
Proof. by split=> [/(congr1 snd)/sub0P //|->]; exact: subrr. Qed.
Lemma sub_i2 (E : pairing) (x y : G2 E) : ((0, x) : Com2 E) - (0, y) = 0 <-> x = y.
Proof. by split=> [/(congr1 snd)/sub0P //|->]; exact: subrr. Qed.
Lemma sub_iT (E : pairing) (x y : GT E) : (((0, 0), (0, x)) : ComT E) - ((0, 0), (0, y)) = 0 <-> x = y.
Proof. by split=> [/(congr1 (fun z => z.2.2))/sub0P //|->]; exact: subrr. Qed.
Lemma fits_at (E : pairing) m n (G : matrix (Fr E)) i j : gamma_fits m n G -> (i < m)%N -> (j < n)%N ->
  (i < size G)%N /\ (j < size (nth [::] G i))%N.
Proof.
case=> [[_ ->] //|[_ _ -> _ h] hi hj]; split=> //; exact: (leq_trans hj (h _ hi)).
Qed.
Lemma fits_put (E : pairing) m n (G : matrix (Fr E)) i j g : gamma_fits m n G -> (i < m)%N -> (j < n)%N ->
  gamma_fits m n (put_entry i j g G).
Proof.
move=> hg hi hj; have [hi' hj'] := fits_at hg hi hj.
case: hg => [[_ e]|[h1 h2 h3 h4 h5]]; first by rewrite e in hi.
have sr k : size (mrow (put_entry i j g G) k) = size (mrow G k).
  by rewrite /mrow nth_put_entry //; case: (k =P i) => [->|] //; rewrite size_put.
by right; split=> //; rewrite ?size_put_entry ?sr // => k hk; rewrite sr; exact: h5.
Qed.

Definition ppe_gap (E : pairing) (q : PPE E) (p : CProof E) (crs : CRS E) (pf : EquProof E) : ComT E :=
  gap [seq (0, x) | x <- ppe_a q] [seq (0, y) | y <- ppe_b q] (ppe_gamma q) (coms (xcoms p)) (coms (ycoms p)) ((0, 0), (0, ppe_target q)) (crs_u crs) (crs_v crs) (pi pf) (theta pf) (size (crs_u crs))%N (size (crs_v crs))%N.
Definition ppe_form (E : pairing) (q : PPE E) (p : CProof E) (crs : CRS E) (pf : EquProof E) : Prop :=
  [/\ equ_type pf = PairingProduct, size (ppe_a q) = size (coms (ycoms p)) /\ size (ppe_b q) = size (coms (xcoms p)),
    gamma_fits (size (coms (xcoms p))) (size (coms (ycoms p))) (ppe_gamma q) & size (pi pf) = size (crs_u crs) /\ size (theta pf) = size (crs_v crs)].
Lemma ppe_step (E : pairing) (sch sch' : sched) (q : PPE E) (p : CProof E) (crs : CRS E) pf q' p' crs' pf' (P : Prop) :
  bilinear E -> valid_sched sch -> valid_sched sch' -> equ_proofs p = [:: pf] -> ppe_verify sch q p crs = Ok true ->
  equ_proofs p' = [:: pf'] -> (ppe_form q p crs pf -> ppe_form q' p' crs' pf') ->
  (ppe_form q p crs pf -> (ppe_gap q' p' crs' pf' - ppe_gap q p crs pf = 0 <-> P)) -> answers (ppe_verify sch' q' p' crs') P.
Proof.
move=> hb vs vs' ep hv ep' hs hd.
have [pf0 []] := (k_C34_ppe_panics q p crs vs).1 (ex_intro _ _ hv); rewrite ep => -[<-] h1 h2 h3 h4.
have hf : ppe_form q p crs pf by split.
have h0 := (gapP _ _ _ _ _ _ _ _ _ _).1 ((k_C34_ppe_value hb vs ep hv).1 isT).
apply: (@answersI _ _ (ppe_gap q' p' crs' pf' = 0)); last exact: (gap_still h0 (hd hf)).
  by apply/(k_C34_ppe_panics _ _ _ vs'); exists pf'; case: (hs hf).
by move=> b h; apply: (iff_trans (k_C34_ppe_value hb vs' ep' h)); exact: gapP.
Qed.

Lemma k_C95_ppe_pi : forall (E : pairing) (sch sch' : sched) (q : PPE E) (p : CProof E) (crs : CRS E) pf (i : nat) (x : Com2 E), bilinear E -> nondegenerate E -> valid_sched sch -> valid_sched sch' ->
  equ_proofs p = [:: pf] -> ppe_verify sch q p crs = Ok true -> (i < size (crs_u crs))%N ->
  answers (ppe_verify sch' q (alter_pi i x p) crs) (nth 0 (crs_u crs) i = 0 \/ x = nth 0 (pi pf) i).
Proof.
move=> E sch sch' q p crs pf i x hb hn vs vs' ep hv hi.
apply: (@ppe_step _ _ sch' _ _ _ _ q (alter_pi i x p) crs (mkEquProof (put i x (pi pf)) (theta pf) (equ_type pf) (pf_rand pf)) _ hb vs vs' ep hv); rewrite /= ?ep //.
  case=> hty [hsa hsb] hg hl; split=> //=; by rewrite ?size_put.
case=> hty [hsa hsb] hg hl; rewrite /ppe_gap /=; rewrite gap_pi //; last by rewrite hl.1.
apply: (iff_trans (opp0P _)); apply: (iff_trans (pairT_eq0 hb hn _ _)); apply: or_iff => //; exact: sub0P.
Qed.

Lemma k_C95_ppe_theta : forall (E : pairing) (sch sch' : sched) (q : PPE E) (p : CProof E) (crs : CRS E) pf (l : nat) (x : Com1 E), bilinear E -> nondegenerate E -> valid_sched sch -> valid_sched sch' ->
  equ_proofs p = [:: pf] -> ppe_verify sch q p crs = Ok true -> (l < size (crs_v crs))%N ->
  answers (ppe_verify sch' q (alter_theta l x p) crs) (nth 0 (crs_v crs) l = 0 \/ x = nth 0 (theta pf) l).
Proof.
move=> E sch sch' q p crs pf l x hb hn vs vs' ep hv hi.
apply: (@ppe_step _ _ sch' _ _ _ _ q (alter_theta l x p) crs (mkEquProof (pi pf) (put l x (theta pf)) (equ_type pf) (pf_rand pf)) _ hb vs vs' ep hv); rewrite /= ?ep //.
  case=> hty [hsa hsb] hg hl; split=> //=; by rewrite ?size_put.
case=> hty [hsa hsb] hg hl; rewrite /ppe_gap /=; rewrite gap_theta //; last by rewrite hl.2.
apply: (iff_trans (opp0P _)); apply: (iff_trans (pairT_eq0 hb hn _ _)); apply: or_iffC => //; exact: sub0P.
Qed.

Lemma k_C95_ppe_x : forall (E : pairing) (sch sch' : sched) (q : PPE E) (p : CProof E) (crs : CRS E) pf (i : nat) (c : Com1 E), bilinear E -> nondegenerate E -> valid_sched sch -> valid_sched sch' ->
  equ_proofs p = [:: pf] -> ppe_verify sch q p crs = Ok true -> (i < size (coms (xcoms p)))%N ->
  answers (ppe_verify sch' q (alter_x i c p) crs) (c = nth 0 (coms (xcoms p)) i \/ factor_x [seq (0, y) | y <- ppe_b q] (ppe_gamma q) (coms (ycoms p)) i = 0).
Proof.
move=> E sch sch' q p crs pf i c hb hn vs vs' ep hv hi.
apply: (@ppe_step _ _ sch' _ _ _ _ q (alter_x i c p) crs pf _ hb vs vs' ep hv); rewrite /= ?ep //.
  case=> hty [hsa hsb] hg hl; split=> //=; by rewrite ?size_put.
case=> hty [hsa hsb] hg hl; rewrite /ppe_gap /=; rewrite gap_c //.
apply: (iff_trans (pairT_eq0 hb hn _ _)); apply: or_iff => //; exact: sub0P.
Qed.

Lemma k_C95_ppe_y : forall (E : pairing) (sch sch' : sched) (q : PPE E) (p : CProof E) (crs : CRS E) pf (j : nat) (e : Com2 E), bilinear E -> nondegenerate E -> valid_sched sch -> valid_sched sch' ->
  equ_proofs p = [:: pf] -> ppe_verify sch q p crs = Ok true -> (j < size (coms (ycoms p)))%N ->
  answers (ppe_verify sch' q (alter_y j e p) crs) (factor_y [seq (0, x) | x <- ppe_a q] (ppe_gamma q) (coms (xcoms p)) j = 0 \/ e = nth 0 (coms (ycoms p)) j).
Proof.
move=> E sch sch' q p crs pf j e hb hn vs vs' ep hv hi.
apply: (@ppe_step _ _ sch' _ _ _ _ q (alter_y j e p) crs pf _ hb vs vs' ep hv); rewrite /= ?ep //.
  case=> hty [hsa hsb] hg hl; split=> //=; by rewrite ?size_put.
case=> hty [hsa hsb] hg hl; rewrite /ppe_gap /=; rewrite gap_d //.
apply: (iff_trans (pairT_eq0 hb hn _ _)); apply: or_iff => //; exact: sub0P.
Qed.

Lemma k_C95_ppe_a : forall (E : pairing) (sch sch' : sched) (q : PPE E) (p : CProof E) (crs : CRS E) pf (j : nat) (a : G1 E), bilinear E -> nondegenerate E -> valid_sched sch -> valid_sched sch' ->
  equ_proofs p = [:: pf] -> ppe_verify sch q p crs = Ok true -> (j < size (coms (ycoms p)))%N ->
  answers (ppe_verify sch' (mkPPE (put j a (ppe_a q)) (ppe_b q) (ppe_gamma q) (ppe_target q)) p crs) (a = nth 0 (ppe_a q) j \/ nth 0 (coms (ycoms p)) j = 0).
Proof.
move=> E sch sch' q p crs pf j a hb hn vs vs' ep hv hi.
apply: (@ppe_step _ _ sch' _ _ _ _ (mkPPE (put j a (ppe_a q)) (ppe_b q) (ppe_gamma q) (ppe_target q)) p crs pf _ hb vs vs' ep hv); rewrite /= ?ep //.
  case=> hty [hsa hsb] hg hl; split=> //=; by rewrite ?size_put.
case=> hty [hsa hsb] hg hl; rewrite /ppe_gap /=; rewrite (map_put (fun x : G1 E => (0, x) : Com1 E)) ?hsa // gap_A ?size_map //.
  rewrite (nth_map 0) ?hsa //; apply: (iff_trans (pairT_eq0 hb hn _ _)); apply: or_iff => //; exact: sub_i1.
Qed.

Lemma k_C95_ppe_b : forall (E : pairing) (sch sch' : sched) (q : PPE E) (p : CProof E) (crs : CRS E) pf (i : nat) (b : G2 E), bilinear E -> nondegenerate E -> valid_sched sch -> valid_sched sch' ->
  equ_proofs p = [:: pf] -> ppe_verify sch q p crs = Ok true -> (i < size (coms (xcoms p)))%N ->
  answers (ppe_verify sch' (mkPPE (ppe_a q) (put i b (ppe_b q)) (ppe_gamma q) (ppe_target q)) p crs) (nth 0 (coms (xcoms p)) i = 0 \/ b = nth 0 (ppe_b q) i).
Proof.
move=> E sch sch' q p crs pf i b hb hn vs vs' ep hv hi.
apply: (@ppe_step _ _ sch' _ _ _ _ (mkPPE (ppe_a q) (put i b (ppe_b q)) (ppe_gamma q) (ppe_target q)) p crs pf _ hb vs vs' ep hv); rewrite /= ?ep //.
  case=> hty [hsa hsb] hg hl; split=> //=; by rewrite ?size_put.
case=> hty [hsa hsb] hg hl; rewrite /ppe_gap /=; rewrite (map_put (fun x : G2 E => (0, x) : Com2 E)) ?hsb // gap_B ?size_map //.
  rewrite (nth_map 0) ?hsb //; apply: (iff_trans (pairT_eq0 hb hn _ _)); apply: or_iff => //; exact: sub_i2.
Qed.

Lemma k_C95_ppe_gamma : forall (E : pairing) (sch sch' : sched) (q : PPE E) (p : CProof E) (crs : CRS E) pf (i j : nat) (g : Fr E), bilinear E -> nondegenerate E -> valid_sched sch -> valid_sched sch' ->
  equ_proofs p = [:: pf] -> ppe_verify sch q p crs = Ok true -> (i < size (coms (xcoms p)))%N -> (j < size (coms (ycoms p)))%N ->
  answers (ppe_verify sch' (mkPPE (ppe_a q) (ppe_b q) (put_entry i j g (ppe_gamma q)) (ppe_target q)) p crs) (g = entry (ppe_gamma q) i j \/ nth 0 (coms (xcoms p)) i = 0 \/ nth 0 (coms (ycoms p)) j = 0).
Proof.
move=> E sch sch' q p crs pf i j g hb hn vs vs' ep hv hi hj.
apply: (@ppe_step _ _ sch' _ _ _ _ (mkPPE (ppe_a q) (ppe_b q) (put_entry i j g (ppe_gamma q)) (ppe_target q)) p crs pf _ hb vs vs' ep hv); rewrite /= ?ep //.
  case=> hty [hsa hsb] hg hl; split=> //=; exact: fits_put.
case=> hty [hsa hsb] hg hl; rewrite /ppe_gap /=; case: (fits_at hg hi hj) => g1 g2; rewrite gap_G //.
apply: (iff_trans (scale0P _ _)); apply: or_iff; [exact: sub0P | exact: (pairT_eq0 hb hn)].
Qed.

Lemma k_C95_ppe_target : forall (E : pairing) (sch sch' : sched) (q : PPE E) (p : CProof E) (crs : CRS E) pf (t : GT E), bilinear E -> nondegenerate E -> valid_sched sch -> valid_sched sch' ->
  equ_proofs p = [:: pf] -> ppe_verify sch q p crs = Ok true -> 
  answers (ppe_verify sch' (mkPPE (ppe_a q) (ppe_b q) (ppe_gamma q) t) p crs) (t = ppe_target q).
Proof.
move=> E sch sch' q p crs pf t hb hn vs vs' ep hv.
apply: (@ppe_step _ _ sch' _ _ _ _ (mkPPE (ppe_a q) (ppe_b q) (ppe_gamma q) t) p crs pf _ hb vs vs' ep hv); rewrite /= ?ep //.
case=> hty [hsa hsb] hg hl; rewrite /ppe_gap /=; rewrite gap_t; apply: (iff_trans (opp0P _)); exact: sub_iT.
Qed.

Lemma k_C95_ppe_u : forall (E : pairing) (sch sch' : sched) (q : PPE E) (p : CProof E) (crs : CRS E) pf (i : nat) (u : Com1 E), bilinear E -> nondegenerate E -> valid_sched sch -> valid_sched sch' ->
  equ_proofs p = [:: pf] -> ppe_verify sch q p crs = Ok true -> (i < size (crs_u crs))%N ->
  answers (ppe_verify sch' q p (mkCRS (put i u (crs_u crs)) (crs_v crs) (g1_gen crs) (g2_gen crs) (gt_gen crs))) (u = nth 0 (crs_u crs) i \/ nth 0 (pi pf) i = 0).
Proof.
move=> E sch sch' q p crs pf i u hb hn vs vs' ep hv hi.
apply: (@ppe_step _ _ sch' _ _ _ _ q p (mkCRS (put i u (crs_u crs)) (crs_v crs) (g1_gen crs) (g2_gen crs) (gt_gen crs)) pf _ hb vs vs' ep hv); rewrite /= ?ep //.
  case=> hty [hsa hsb] hg hl; split=> //=; by rewrite ?size_put.
case=> hty [hsa hsb] hg hl; rewrite /ppe_gap /=; rewrite size_put gap_u //.
apply: (iff_trans (opp0P _)); apply: (iff_trans (pairT_eq0 hb hn _ _)); apply: or_iff => //; exact: sub0P.
Qed.

Lemma k_C95_ppe_v : forall (E : pairing) (sch sch' : sched) (q : PPE E) (p : CProof E) (crs : CRS E) pf (l : nat) (v : Com2 E), bilinear E -> nondegenerate E -> valid_sched sch -> valid_sched sch' ->
  equ_proofs p = [:: pf] -> ppe_verify sch q p crs = Ok true -> (l < size (crs_v crs))%N ->
  answers (ppe_verify sch' q p (mkCRS (crs_u crs) (put l v (crs_v crs)) (g1_gen crs) (g2_gen crs) (gt_gen crs))) (nth 0 (theta pf) l = 0 \/ v = nth 0 (crs_v crs) l).
Proof.
move=> E sch sch' q p crs pf l v hb hn vs vs' ep hv hi.
apply: (@ppe_step _ _ sch' _ _ _ _ q p (mkCRS (crs_u crs) (put l v (crs_v crs)) (g1_gen crs) (g2_gen crs) (gt_gen crs)) pf _ hb vs vs' ep hv); rewrite /= ?ep //.
  case=> hty [hsa hsb] hg hl; split=> //=; by rewrite ?size_put.
case=> hty [hsa hsb] hg hl; rewrite /ppe_gap /=; rewrite size_put gap_v //.
apply: (iff_trans (opp0P _)); apply: (iff_trans (pairT_eq0 hb hn _ _)); apply: or_iff => //; exact: sub0P.
Qed.

Definition ms1_gap (E : pairing) (q : MSMEG1 E) (p : CProof E) (crs : CRS E) (pf : EquProof E) : ComT E :=
  gap [seq (0, x) | x <- ms1_a q] [seq y *: one2 crs | y <- ms1_b q] (ms1_gamma q) (coms (xcoms p)) (coms (ycoms p)) (pairT (0, ms1_target q) (one2 crs)) (crs_u crs) (crs_v crs) (pi pf) (theta pf) (size (crs_u crs))%N (1)%N.
Definition ms1_form (E : pairing) (q : MSMEG1 E) (p : CProof E) (crs : CRS E) (pf : EquProof E) : Prop :=
  [/\ equ_type pf = MultiScalarG1, size (ms1_a q) = size (coms (ycoms p)) /\ size (ms1_b q) = size (coms (xcoms p)),
    gamma_fits (size (coms (xcoms p))) (size (coms (ycoms p))) (ms1_gamma q) & size (pi pf) = size (crs_u crs) /\ (0 < size (theta pf))%N /\ (1 < size (crs_v crs))%N].
Lemma ms1_step (E : pairing) (sch sch' : sched) (q : MSMEG1 E) (p : CProof E) (crs : CRS E) pf q' p' crs' pf' (P : Prop) :
  bilinear E -> valid_sched sch -> valid_sched sch' -> equ_proofs p = [:: pf] -> ms1_verify sch q p crs = Ok true ->
  equ_proofs p' = [:: pf'] -> (ms1_form q p crs pf -> ms1_form q' p' crs' pf') ->
  (ms1_form q p crs pf -> (ms1_gap q' p' crs' pf' - ms1_gap q p crs pf = 0 <-> P)) -> answers (ms1_verify sch' q' p' crs') P.
Proof.
move=> hb vs vs' ep hv ep' hs hd.
have [pf0 []] := (k_C34_ms1_panics q p crs vs).1 (ex_intro _ _ hv); rewrite ep => -[<-] h1 h2 h3 h4.
have hf : ms1_form q p crs pf by split.
have h0 := (gapP _ _ _ _ _ _ _ _ _ _).1 ((k_C34_ms1_value hb vs ep hv).1 isT).
apply: (@answersI _ _ (ms1_gap q' p' crs' pf' = 0)); last exact: (gap_still h0 (hd hf)).
  by apply/(k_C34_ms1_panics _ _ _ vs'); exists pf'; case: (hs hf).
by move=> b h; apply: (iff_trans (k_C34_ms1_value hb vs' ep' h)); exact: gapP.
Qed.

Lemma k_C95_ms1_pi : forall (E : pairing) (sch sch' : sched) (q : MSMEG1 E) (p : CProof E) (crs : CRS E) pf (i : nat) (x : Com2 E), bilinear E -> nondegenerate E -> valid_sched sch -> valid_sched sch' ->
  equ_proofs p = [:: pf] -> ms1_verify sch q p crs = Ok true -> (i < size (crs_u crs))%N ->
  answers (ms1_verify sch' q (alter_pi i x p) crs) (nth 0 (crs_u crs) i = 0 \/ x = nth 0 (pi pf) i).
Proof.
move=> E sch sch' q p crs pf i x hb hn vs vs' ep hv hi.
apply: (@ms1_step _ _ sch' _ _ _ _ q (alter_pi i x p) crs (mkEquProof (put i x (pi pf)) (theta pf) (equ_type pf) (pf_rand pf)) _ hb vs vs' ep hv); rewrite /= ?ep //.
  case=> hty [hsa hsb] hg hl; split=> //=; by rewrite ?size_put.
case=> hty [hsa hsb] hg hl; rewrite /ms1_gap /=; rewrite gap_pi //; last by rewrite hl.1.
apply: (iff_trans (opp0P _)); apply: (iff_trans (pairT_eq0 hb hn _ _)); apply: or_iff => //; exact: sub0P.
Qed.

Lemma k_C95_ms1_theta : forall (E : pairing) (sch sch' : sched) (q : MSMEG1 E) (p : CProof E) (crs : CRS E) pf (x : Com1 E), bilinear E -> nondegenerate E -> valid_sched sch -> valid_sched sch' ->
  equ_proofs p = [:: pf] -> ms1_verify sch q p crs = Ok true -> 
  answers (ms1_verify sch' q (alter_theta 0%N x p) crs) (nth 0 (crs_v crs) 0%N = 0 \/ x = nth 0 (theta pf) 0%N).
Proof.
move=> E sch sch' q p crs pf x hb hn vs vs' ep hv.
apply: (@ms1_step _ _ sch' _ _ _ _ q (alter_theta 0%N x p) crs (mkEquProof (pi pf) (put 0%N x (theta pf)) (equ_type pf) (pf_rand pf)) _ hb vs vs' ep hv); rewrite /= ?ep //.
  case=> hty [hsa hsb] hg hl; split=> //=; by rewrite ?size_put.
case=> hty [hsa hsb] hg hl; rewrite /ms1_gap /=; rewrite gap_theta //; last by case: hl => _ [].
apply: (iff_trans (opp0P _)); apply: (iff_trans (pairT_eq0 hb hn _ _)); apply: or_iffC => //; exact: sub0P.
Qed.

Lemma k_C95_ms1_x : forall (E : pairing) (sch sch' : sched) (q : MSMEG1 E) (p : CProof E) (crs : CRS E) pf (i : nat) (c : Com1 E), bilinear E -> nondegenerate E -> valid_sched sch -> valid_sched sch' ->
  equ_proofs p = [:: pf] -> ms1_verify sch q p crs = Ok true -> (i < size (coms (xcoms p)))%N ->
  answers (ms1_verify sch' q (alter_x i c p) crs) (c = nth 0 (coms (xcoms p)) i \/ factor_x [seq y *: one2 crs | y <- ms1_b q] (ms1_gamma q) (coms (ycoms p)) i = 0).
Proof.
move=> E sch sch' q p crs pf i c hb hn vs vs' ep hv hi.
apply: (@ms1_step _ _ sch' _ _ _ _ q (alter_x i c p) crs pf _ hb vs vs' ep hv); rewrite /= ?ep //.
  case=> hty [hsa hsb] hg hl; split=> //=; by rewrite ?size_put.
case=> hty [hsa hsb] hg hl; rewrite /ms1_gap /=; rewrite gap_c //.
apply: (iff_trans (pairT_eq0 hb hn _ _)); apply: or_iff => //; exact: sub0P.
Qed.

Lemma k_C95_ms1_y : forall (E : pairing) (sch sch' : sched) (q : MSMEG1 E) (p : CProof E) (crs : CRS E) pf (j : nat) (e : Com2 E), bilinear E -> nondegenerate E -> valid_sched sch -> valid_sched sch' ->
  equ_proofs p = [:: pf] -> ms1_verify sch q p crs = Ok true -> (j < size (coms (ycoms p)))%N ->
  answers (ms1_verify sch' q (alter_y j e p) crs) (factor_y [seq (0, x) | x <- ms1_a q] (ms1_gamma q) (coms (xcoms p)) j = 0 \/ e = nth 0 (coms (ycoms p)) j).
Proof.
move=> E sch sch' q p crs pf j e hb hn vs vs' ep hv hi.
apply: (@ms1_step _ _ sch' _ _ _ _ q (alter_y j e p) crs pf _ hb vs vs' ep hv); rewrite /= ?ep //.
  case=> hty [hsa hsb] hg hl; split=> //=; by rewrite ?size_put.
case=> hty [hsa hsb] hg hl; rewrite /ms1_gap /=; rewrite gap_d //.
apply: (iff_trans (pairT_eq0 hb hn _ _)); apply: or_iff => //; exact: sub0P.
Qed.

Lemma k_C95_ms1_a : forall (E : pairing) (sch sch' : sched) (q : MSMEG1 E) (p : CProof E) (crs : CRS E) pf (j : nat) (a : G1 E), bilinear E -> nondegenerate E -> valid_sched sch -> valid_sched sch' ->
  equ_proofs p = [:: pf] -> ms1_verify sch q p crs = Ok true -> (j < size (coms (ycoms p)))%N ->
  answers (ms1_verify sch' (mkMSMEG1 (put j a (ms1_a q)) (ms1_b q) (ms1_gamma q) (ms1_target q)) p crs) (a = nth 0 (ms1_a q) j \/ nth 0 (coms (ycoms p)) j = 0).
Proof.
move=> E sch sch' q p crs pf j a hb hn vs vs' ep hv hi.
apply: (@ms1_step _ _ sch' _ _ _ _ (mkMSMEG1 (put j a (ms1_a q)) (ms1_b q) (ms1_gamma q) (ms1_target q)) p crs pf _ hb vs vs' ep hv); rewrite /= ?ep //.
  case=> hty [hsa hsb] hg hl; split=> //=; by rewrite ?size_put.
case=> hty [hsa hsb] hg hl; rewrite /ms1_gap /=; rewrite (map_put (fun x : G1 E => (0, x) : Com1 E)) ?hsa // gap_A ?size_map //.
  rewrite (nth_map 0) ?hsa //; apply: (iff_trans (pairT_eq0 hb hn _ _)); apply: or_iff => //; exact: sub_i1.
Qed.

Lemma k_C95_ms1_b : forall (E : pairing) (sch sch' : sched) (q : MSMEG1 E) (p : CProof E) (crs : CRS E) pf (i : nat) (b : Fr E), bilinear E -> nondegenerate E -> valid_sched sch -> valid_sched sch' ->
  equ_proofs p = [:: pf] -> ms1_verify sch q p crs = Ok true -> (i < size (coms (xcoms p)))%N ->
  answers (ms1_verify sch' (mkMSMEG1 (ms1_a q) (put i b (ms1_b q)) (ms1_gamma q) (ms1_target q)) p crs) (nth 0 (coms (xcoms p)) i = 0 \/ b = nth 0 (ms1_b q) i \/ one2 crs = 0).
Proof.
move=> E sch sch' q p crs pf i b hb hn vs vs' ep hv hi.
apply: (@ms1_step _ _ sch' _ _ _ _ (mkMSMEG1 (ms1_a q) (put i b (ms1_b q)) (ms1_gamma q) (ms1_target q)) p crs pf _ hb vs vs' ep hv); rewrite /= ?ep //.
  case=> hty [hsa hsb] hg hl; split=> //=; by rewrite ?size_put.
case=> hty [hsa hsb] hg hl; rewrite /ms1_gap /=; rewrite (map_put (fun x : Fr E => x *: one2 crs : Com2 E)) ?hsb // gap_B ?size_map //.
  rewrite (nth_map 0) ?hsb // -scalerBl; apply: (iff_trans (pairT_eq0 hb hn _ _)); have h1 := scale0P (b - nth 0 (ms1_b q) i) (one2 crs); have h2 := sub0P b (nth 0 (ms1_b q) i); tauto.
Qed.

Lemma k_C95_ms1_gamma : forall (E : pairing) (sch sch' : sched) (q : MSMEG1 E) (p : CProof E) (crs : CRS E) pf (i j : nat) (g : Fr E), bilinear E -> nondegenerate E -> valid_sched sch -> valid_sched sch' ->
  equ_proofs p = [:: pf] -> ms1_verify sch q p crs = Ok true -> (i < size (coms (xcoms p)))%N -> (j < size (coms (ycoms p)))%N ->
  answers (ms1_verify sch' (mkMSMEG1 (ms1_a q) (ms1_b q) (put_entry i j g (ms1_gamma q)) (ms1_target q)) p crs) (g = entry (ms1_gamma q) i j \/ nth 0 (coms (xcoms p)) i = 0 \/ nth 0 (coms (ycoms p)) j = 0).
Proof.
move=> E sch sch' q p crs pf i j g hb hn vs vs' ep hv hi hj.
apply: (@ms1_step _ _ sch' _ _ _ _ (mkMSMEG1 (ms1_a q) (ms1_b q) (put_entry i j g (ms1_gamma q)) (ms1_target q)) p crs pf _ hb vs vs' ep hv); rewrite /= ?ep //.
  case=> hty [hsa hsb] hg hl; split=> //=; exact: fits_put.
case=> hty [hsa hsb] hg hl; rewrite /ms1_gap /=; case: (fits_at hg hi hj) => g1 g2; rewrite gap_G //.
apply: (iff_trans (scale0P _ _)); apply: or_iff; [exact: sub0P | exact: (pairT_eq0 hb hn)].
Qed.

Lemma k_C95_ms1_target : forall (E : pairing) (sch sch' : sched) (q : MSMEG1 E) (p : CProof E) (crs : CRS E) pf (t : G1 E), bilinear E -> nondegenerate E -> valid_sched sch -> valid_sched sch' ->
  equ_proofs p = [:: pf] -> ms1_verify sch q p crs = Ok true -> 
  answers (ms1_verify sch' (mkMSMEG1 (ms1_a q) (ms1_b q) (ms1_gamma q) t) p crs) (t = ms1_target q \/ one2 crs = 0).
Proof.
move=> E sch sch' q p crs pf t hb hn vs vs' ep hv.
apply: (@ms1_step _ _ sch' _ _ _ _ (mkMSMEG1 (ms1_a q) (ms1_b q) (ms1_gamma q) t) p crs pf _ hb vs vs' ep hv); rewrite /= ?ep //.
case=> hty [hsa hsb] hg hl; rewrite /ms1_gap /=; rewrite gap_t; apply: (iff_trans (opp0P _)); rewrite -(bilBl (comT_pairing_bilin hb)); apply: (iff_trans (pairT_eq0 hb hn _ _)); apply: or_iff => //; exact: sub_i1.
Qed.

Lemma k_C95_ms1_u : forall (E : pairing) (sch sch' : sched) (q : MSMEG1 E) (p : CProof E) (crs : CRS E) pf (i : nat) (u : Com1 E), bilinear E -> nondegenerate E -> valid_sched sch -> valid_sched sch' ->
  equ_proofs p = [:: pf] -> ms1_verify sch q p crs = Ok true -> (i < size (crs_u crs))%N ->
  answers (ms1_verify sch' q p (mkCRS (put i u (crs_u crs)) (crs_v crs) (g1_gen crs) (g2_gen crs) (gt_gen crs))) (u = nth 0 (crs_u crs) i \/ nth 0 (pi pf) i = 0).
Proof.
move=> E sch sch' q p crs pf i u hb hn vs vs' ep hv hi.
apply: (@ms1_step _ _ sch' _ _ _ _ q p (mkCRS (put i u (crs_u crs)) (crs_v crs) (g1_gen crs) (g2_gen crs) (gt_gen crs)) pf _ hb vs vs' ep hv); rewrite /= ?ep //.
  case=> hty [hsa hsb] hg hl; split=> //=; by rewrite ?size_put.
case=> hty [hsa hsb] hg hl; rewrite /ms1_gap /=; rewrite size_put gap_u //.
apply: (iff_trans (opp0P _)); apply: (iff_trans (pairT_eq0 hb hn _ _)); apply: or_iff => //; exact: sub0P.
Qed.

Definition ms2_gap (E : pairing) (q : MSMEG2 E) (p : CProof E) (crs : CRS E) (pf : EquProof E) : ComT E :=
  gap [seq x *: one1 crs | x <- ms2_a q] [seq (0, y) | y <- ms2_b q] (ms2_gamma q) (coms (xcoms p)) (coms (ycoms p)) (pairT (one1 crs) (0, ms2_target q)) (crs_u crs) (crs_v crs) (pi pf) (theta pf) (1)%N (size (crs_v crs))%N.
Definition ms2_form (E : pairing) (q : MSMEG2 E) (p : CProof E) (crs : CRS E) (pf : EquProof E) : Prop :=
  [/\ equ_type pf = MultiScalarG2, size (ms2_a q) = size (coms (ycoms p)) /\ size (ms2_b q) = size (coms (xcoms p)),
    gamma_fits (size (coms (xcoms p))) (size (coms (ycoms p))) (ms2_gamma q) & size (theta pf) = size (crs_v crs) /\ (0 < size (pi pf))%N /\ (1 < size (crs_u crs))%N].
Lemma ms2_step (E : pairing) (sch sch' : sched) (q : MSMEG2 E) (p : CProof E) (crs : CRS E) pf q' p' crs' pf' (P : Prop) :
  bilinear E -> valid_sched sch -> valid_sched sch' -> equ_proofs p = [:: pf] -> ms2_verify sch q p crs = Ok true ->
  equ_proofs p' = [:: pf'] -> (ms2_form q p crs pf -> ms2_form q' p' crs' pf') ->
  (ms2_form q p crs pf -> (ms2_gap q' p' crs' pf' - ms2_gap q p crs pf = 0 <-> P)) -> answers (ms2_verify sch' q' p' crs') P.
Proof.
move=> hb vs vs' ep hv ep' hs hd.
have [pf0 []] := (k_C34_ms2_panics q p crs vs).1 (ex_intro _ _ hv); rewrite ep => -[<-] h1 h2 h3 h4.
have hf : ms2_form q p crs pf by split.
have h0 := (gapP _ _ _ _ _ _ _ _ _ _).1 ((k_C34_ms2_value hb vs ep hv).1 isT).
apply: (@answersI _ _ (ms2_gap q' p' crs' pf' = 0)); last exact: (gap_still h0 (hd hf)).
  by apply/(k_C34_ms2_panics _ _ _ vs'); exists pf'; case: (hs hf).
by move=> b h; apply: (iff_trans (k_C34_ms2_value hb vs' ep' h)); exact: gapP.
Qed.

Lemma k_C95_ms2_pi : forall (E : pairing) (sch sch' : sched) (q : MSMEG2 E) (p : CProof E) (crs : CRS E) pf (x : Com2 E), bilinear E -> nondegenerate E -> valid_sched sch -> valid_sched sch' ->
  equ_proofs p = [:: pf] -> ms2_verify sch q p crs = Ok true -> 
  answers (ms2_verify sch' q (alter_pi 0%N x p) crs) (nth 0 (crs_u crs) 0%N = 0 \/ x = nth 0 (pi pf) 0%N).
Proof.
move=> E sch sch' q p crs pf x hb hn vs vs' ep hv.
apply: (@ms2_step _ _ sch' _ _ _ _ q (alter_pi 0%N x p) crs (mkEquProof (put 0%N x (pi pf)) (theta pf) (equ_type pf) (pf_rand pf)) _ hb vs vs' ep hv); rewrite /= ?ep //.
  case=> hty [hsa hsb] hg hl; split=> //=; by rewrite ?size_put.
case=> hty [hsa hsb] hg hl; rewrite /ms2_gap /=; rewrite gap_pi //; last by case: hl => _ [].
apply: (iff_trans (opp0P _)); apply: (iff_trans (pairT_eq0 hb hn _ _)); apply: or_iff => //; exact: sub0P.
Qed.

Lemma k_C95_ms2_theta : forall (E : pairing) (sch sch' : sched) (q : MSMEG2 E) (p : CProof E) (crs : CRS E) pf (l : nat) (x : Com1 E), bilinear E -> nondegenerate E -> valid_sched sch -> valid_sched sch' ->
  equ_proofs p = [:: pf] -> ms2_verify sch q p crs = Ok true -> (l < size (crs_v crs))%N ->
  answers (ms2_verify sch' q (alter_theta l x p) crs) (nth 0 (crs_v crs) l = 0 \/ x = nth 0 (theta pf) l).
Proof.
move=> E sch sch' q p crs pf l x hb hn vs vs' ep hv hi.
apply: (@ms2_step _ _ sch' _ _ _ _ q (alter_theta l x p) crs (mkEquProof (pi pf) (put l x (theta pf)) (equ_type pf) (pf_rand pf)) _ hb vs vs' ep hv); rewrite /= ?ep //.
  case=> hty [hsa hsb] hg hl; split=> //=; by rewrite ?size_put.
case=> hty [hsa hsb] hg hl; rewrite /ms2_gap /=; rewrite gap_theta //; last by rewrite hl.1.
apply: (iff_trans (opp0P _)); apply: (iff_trans (pairT_eq0 hb hn _ _)); apply: or_iffC => //; exact: sub0P.
Qed.

Lemma k_C95_ms2_x : forall (E : pairing) (sch sch' : sched) (q : MSMEG2 E) (p : CProof E) (crs : CRS E) pf (i : nat) (c : Com1 E), bilinear E -> nondegenerate E -> valid_sched sch -> valid_sched sch' ->
  equ_proofs p = [:: pf] -> ms2_verify sch q p crs = Ok true -> (i < size (coms (xcoms p)))%N ->
  answers (ms2_verify sch' q (alter_x i c p) crs) (c = nth 0 (coms (xcoms p)) i \/ factor_x [seq (0, y) | y <- ms2_b q] (ms2_gamma q) (coms (ycoms p)) i = 0).
Proof.
move=> E sch sch' q p crs pf i c hb hn vs vs' ep hv hi.
apply: (@ms2_step _ _ sch' _ _ _ _ q (alter_x i c p) crs pf _ hb vs vs' ep hv); rewrite /= ?ep //.
  case=> hty [hsa hsb] hg hl; split=> //=; by rewrite ?size_put.
case=> hty [hsa hsb] hg hl; rewrite /ms2_gap /=; rewrite gap_c //.
apply: (iff_trans (pairT_eq0 hb hn _ _)); apply: or_iff => //; exact: sub0P.
Qed.

Lemma k_C95_ms2_y : forall (E : pairing) (sch sch' : sched) (q : MSMEG2 E) (p : CProof E) (crs : CRS E) pf (j : nat) (e : Com2 E), bilinear E -> nondegenerate E -> valid_sched sch -> valid_sched sch' ->
  equ_proofs p = [:: pf] -> ms2_verify sch q p crs = Ok true -> (j < size (coms (ycoms p)))%N ->
  answers (ms2_verify sch' q (alter_y j e p) crs) (factor_y [seq x *: one1 crs | x <- ms2_a q] (ms2_gamma q) (coms (xcoms p)) j = 0 \/ e = nth 0 (coms (ycoms p)) j).
Proof.
move=> E sch sch' q p crs pf j e hb hn vs vs' ep hv hi.
apply: (@ms2_step _ _ sch' _ _ _ _ q (alter_y j e p) crs pf _ hb vs vs' ep hv); rewrite /= ?ep //.
  case=> hty [hsa hsb] hg hl; split=> //=; by rewrite ?size_put.
case=> hty [hsa hsb] hg hl; rewrite /ms2_gap /=; rewrite gap_d //.
apply: (iff_trans (pairT_eq0 hb hn _ _)); apply: or_iff => //; exact: sub0P.
Qed.

Lemma k_C95_ms2_a : forall (E : pairing) (sch sch' : sched) (q : MSMEG2 E) (p : CProof E) (crs : CRS E) pf (j : nat) (a : Fr E), bilinear E -> nondegenerate E -> valid_sched sch -> valid_sched sch' ->
  equ_proofs p = [:: pf] -> ms2_verify sch q p crs = Ok true -> (j < size (coms (ycoms p)))%N ->
  answers (ms2_verify sch' (mkMSMEG2 (put j a (ms2_a q)) (ms2_b q) (ms2_gamma q) (ms2_target q)) p crs) (a = nth 0 (ms2_a q) j \/ one1 crs = 0 \/ nth 0 (coms (ycoms p)) j = 0).
Proof.
move=> E sch sch' q p crs pf j a hb hn vs vs' ep hv hi.
apply: (@ms2_step _ _ sch' _ _ _ _ (mkMSMEG2 (put j a (ms2_a q)) (ms2_b q) (ms2_gamma q) (ms2_target q)) p crs pf _ hb vs vs' ep hv); rewrite /= ?ep //.
  case=> hty [hsa hsb] hg hl; split=> //=; by rewrite ?size_put.
case=> hty [hsa hsb] hg hl; rewrite /ms2_gap /=; rewrite (map_put (fun x : Fr E => x *: one1 crs : Com1 E)) ?hsa // gap_A ?size_map //.
  rewrite (nth_map 0) ?hsa // -scalerBl; apply: (iff_trans (pairT_eq0 hb hn _ _)); have h1 := scale0P (a - nth 0 (ms2_a q) j) (one1 crs); have h2 := sub0P a (nth 0 (ms2_a q) j); tauto.
Qed.

Lemma k_C95_ms2_b : forall (E : pairing) (sch sch' : sched) (q : MSMEG2 E) (p : CProof E) (crs : CRS E) pf (i : nat) (b : G2 E), bilinear E -> nondegenerate E -> valid_sched sch -> valid_sched sch' ->
  equ_proofs p = [:: pf] -> ms2_verify sch q p crs = Ok true -> (i < size (coms (xcoms p)))%N ->
  answers (ms2_verify sch' (mkMSMEG2 (ms2_a q) (put i b (ms2_b q)) (ms2_gamma q) (ms2_target q)) p crs) (nth 0 (coms (xcoms p)) i = 0 \/ b = nth 0 (ms2_b q) i).
Proof.
move=> E sch sch' q p crs pf i b hb hn vs vs' ep hv hi.
apply: (@ms2_step _ _ sch' _ _ _ _ (mkMSMEG2 (ms2_a q) (put i b (ms2_b q)) (ms2_gamma q) (ms2_target q)) p crs pf _ hb vs vs' ep hv); rewrite /= ?ep //.
  case=> hty [hsa hsb] hg hl; split=> //=; by rewrite ?size_put.
case=> hty [hsa hsb] hg hl; rewrite /ms2_gap /=; rewrite (map_put (fun x : G2 E => (0, x) : Com2 E)) ?hsb // gap_B ?size_map //.
  rewrite (nth_map 0) ?hsb //; apply: (iff_trans (pairT_eq0 hb hn _ _)); apply: or_iff => //; exact: sub_i2.
Qed.

Lemma k_C95_ms2_gamma : forall (E : pairing) (sch sch' : sched) (q : MSMEG2 E) (p : CProof E) (crs : CRS E) pf (i j : nat) (g : Fr E), bilinear E -> nondegenerate E -> valid_sched sch -> valid_sched sch' ->
  equ_proofs p = [:: pf] -> ms2_verify sch q p crs = Ok true -> (i < size (coms (xcoms p)))%N -> (j < size (coms (ycoms p)))%N ->
  answers (ms2_verify sch' (mkMSMEG2 (ms2_a q) (ms2_b q) (put_entry i j g (ms2_gamma q)) (ms2_target q)) p crs) (g = entry (ms2_gamma q) i j \/ nth 0 (coms (xcoms p)) i = 0 \/ nth 0 (coms (ycoms p)) j = 0).
Proof.
move=> E sch sch' q p crs pf i j g hb hn vs vs' ep hv hi hj.
apply: (@ms2_step _ _ sch' _ _ _ _ (mkMSMEG2 (ms2_a q) (ms2_b q) (put_entry i j g (ms2_gamma q)) (ms2_target q)) p crs pf _ hb vs vs' ep hv); rewrite /= ?ep //.
  case=> hty [hsa hsb] hg hl; split=> //=; exact: fits_put.
case=> hty [hsa hsb] hg hl; rewrite /ms2_gap /=; case: (fits_at hg hi hj) => g1 g2; rewrite gap_G //.
apply: (iff_trans (scale0P _ _)); apply: or_iff; [exact: sub0P | exact: (pairT_eq0 hb hn)].
Qed.

Lemma k_C95_ms2_target : forall (E : pairing) (sch sch' : sched) (q : MSMEG2 E) (p : CProof E) (crs : CRS E) pf (t : G2 E), bilinear E -> nondegenerate E -> valid_sched sch -> valid_sched sch' ->
  equ_proofs p = [:: pf] -> ms2_verify sch q p crs = Ok true -> 
  answers (ms2_verify sch' (mkMSMEG2 (ms2_a q) (ms2_b q) (ms2_gamma q) t) p crs) (one1 crs = 0 \/ t = ms2_target q).
Proof.
move=> E sch sch' q p crs pf t hb hn vs vs' ep hv.
apply: (@ms2_step _ _ sch' _ _ _ _ (mkMSMEG2 (ms2_a q) (ms2_b q) (ms2_gamma q) t) p crs pf _ hb vs vs' ep hv); rewrite /= ?ep //.
case=> hty [hsa hsb] hg hl; rewrite /ms2_gap /=; rewrite gap_t; apply: (iff_trans (opp0P _)); rewrite -(bilBr (comT_pairing_bilin hb)); apply: (iff_trans (pairT_eq0 hb hn _ _)); apply: or_iff => //; exact: sub_i2.
Qed.

Lemma k_C95_ms2_v : forall (E : pairing) (sch sch' : sched) (q : MSMEG2 E) (p : CProof E) (crs : CRS E) pf (l : nat) (v : Com2 E), bilinear E -> nondegenerate E -> valid_sched sch -> valid_sched sch' ->
  equ_proofs p = [:: pf] -> ms2_verify sch q p crs = Ok true -> (l < size (crs_v crs))%N ->
  answers (ms2_verify sch' q p (mkCRS (crs_u crs) (put l v (crs_v crs)) (g1_gen crs) (g2_gen crs) (gt_gen crs))) (nth 0 (theta pf) l = 0 \/ v = nth 0 (crs_v crs) l).
Proof.
move=> E sch sch' q p crs pf l v hb hn vs vs' ep hv hi.
apply: (@ms2_step _ _ sch' _ _ _ _ q p (mkCRS (crs_u crs) (put l v (crs_v crs)) (g1_gen crs) (g2_gen crs) (gt_gen crs)) pf _ hb vs vs' ep hv); rewrite /= ?ep //.
  case=> hty [hsa hsb] hg hl; split=> //=; by rewrite ?size_put.
case=> hty [hsa hsb] hg hl; rewrite /ms2_gap /=; rewrite size_put gap_v //.
apply: (iff_trans (opp0P _)); apply: (iff_trans (pairT_eq0 hb hn _ _)); apply: or_iff => //; exact: sub0P.
Qed.

Definition quad_gap (E : pairing) (q : QuadEqu E) (p : CProof E) (crs : CRS E) (pf : EquProof E) : ComT E :=
  gap [seq x *: one1 crs | x <- quad_a q] [seq y *: one2 crs | y <- quad_b q] (quad_gamma q) (coms (xcoms p)) (coms (ycoms p)) (quad_target q *: pairT (one1 crs) (one2 crs)) (crs_u crs) (crs_v crs) (pi pf) (theta pf) (1)%N (1)%N.
Definition quad_form (E : pairing) (q : QuadEqu E) (p : CProof E) (crs : CRS E) (pf : EquProof E) : Prop :=
  [/\ equ_type pf = Quadratic, size (quad_a q) = size (coms (ycoms p)) /\ size (quad_b q) = size (coms (xcoms p)),
    gamma_fits (size (coms (xcoms p))) (size (coms (ycoms p))) (quad_gamma q) & (0 < size (pi pf))%N /\ (0 < size (theta pf))%N /\ (1 < size (crs_u crs))%N /\ (1 < size (crs_v crs))%N].
Lemma quad_step (E : pairing) (sch sch' : sched) (q : QuadEqu E) (p : CProof E) (crs : CRS E) pf q' p' crs' pf' (P : Prop) :
  bilinear E -> valid_sched sch -> valid_sched sch' -> equ_proofs p = [:: pf] -> quad_verify sch q p crs = Ok true ->
  equ_proofs p' = [:: pf'] -> (quad_form q p crs pf -> quad_form q' p' crs' pf') ->
  (quad_form q p crs pf -> (quad_gap q' p' crs' pf' - quad_gap q p crs pf = 0 <-> P)) -> answers (quad_verify sch' q' p' crs') P.
Proof.
move=> hb vs vs' ep hv ep' hs hd.
have [pf0 []] := (k_C34_quad_panics q p crs vs).1 (ex_intro _ _ hv); rewrite ep => -[<-] h1 h2 h3 h4.
have hf : quad_form q p crs pf by split.
have h0 := (gapP _ _ _ _ _ _ _ _ _ _).1 ((k_C34_quad_value hb vs ep hv).1 isT).
apply: (@answersI _ _ (quad_gap q' p' crs' pf' = 0)); last exact: (gap_still h0 (hd hf)).
  by apply/(k_C34_quad_panics _ _ _ vs'); exists pf'; case: (hs hf).
by move=> b h; apply: (iff_trans (k_C34_quad_value hb vs' ep' h)); exact: gapP.
Qed.

Lemma k_C95_quad_pi : forall (E : pairing) (sch sch' : sched) (q : QuadEqu E) (p : CProof E) (crs : CRS E) pf (x : Com2 E), bilinear E -> nondegenerate E -> valid_sched sch -> valid_sched sch' ->
  equ_proofs p = [:: pf] -> quad_verify sch q p crs = Ok true -> 
  answers (quad_verify sch' q (alter_pi 0%N x p) crs) (nth 0 (crs_u crs) 0%N = 0 \/ x = nth 0 (pi pf) 0%N).
Proof.
move=> E sch sch' q p crs pf x hb hn vs vs' ep hv.
apply: (@quad_step _ _ sch' _ _ _ _ q (alter_pi 0%N x p) crs (mkEquProof (put 0%N x (pi pf)) (theta pf) (equ_type pf) (pf_rand pf)) _ hb vs vs' ep hv); rewrite /= ?ep //.
  case=> hty [hsa hsb] hg hl; split=> //=; by rewrite ?size_put.
case=> hty [hsa hsb] hg hl; rewrite /quad_gap /=; rewrite gap_pi //; last by case: hl.
apply: (iff_trans (opp0P _)); apply: (iff_trans (pairT_eq0 hb hn _ _)); apply: or_iff => //; exact: sub0P.
Qed.

Lemma k_C95_quad_theta : forall (E : pairing) (sch sch' : sched) (q : QuadEqu E) (p : CProof E) (crs : CRS E) pf (x : Com1 E), bilinear E -> nondegenerate E -> valid_sched sch -> valid_sched sch' ->
  equ_proofs p = [:: pf] -> quad_verify sch q p crs = Ok true -> 
  answers (quad_verify sch' q (alter_theta 0%N x p) crs) (nth 0 (crs_v crs) 0%N = 0 \/ x = nth 0 (theta pf) 0%N).
Proof.
move=> E sch sch' q p crs pf x hb hn vs vs' ep hv.
apply: (@quad_step _ _ sch' _ _ _ _ q (alter_theta 0%N x p) crs (mkEquProof (pi pf) (put 0%N x (theta pf)) (equ_type pf) (pf_rand pf)) _ hb vs vs' ep hv); rewrite /= ?ep //.
  case=> hty [hsa hsb] hg hl; split=> //=; by rewrite ?size_put.
case=> hty [hsa hsb] hg hl; rewrite /quad_gap /=; rewrite gap_theta //; last by case: hl => _ [].
apply: (iff_trans (opp0P _)); apply: (iff_trans (pairT_eq0 hb hn _ _)); apply: or_iffC => //; exact: sub0P.
Qed.

Lemma k_C95_quad_x : forall (E : pairing) (sch sch' : sched) (q : QuadEqu E) (p : CProof E) (crs : CRS E) pf (i : nat) (c : Com1 E), bilinear E -> nondegenerate E -> valid_sched sch -> valid_sched sch' ->
  equ_proofs p = [:: pf] -> quad_verify sch q p crs = Ok true -> (i < size (coms (xcoms p)))%N ->
  answers (quad_verify sch' q (alter_x i c p) crs) (c = nth 0 (coms (xcoms p)) i \/ factor_x [seq y *: one2 crs | y <- quad_b q] (quad_gamma q) (coms (ycoms p)) i = 0).
Proof.
move=> E sch sch' q p crs pf i c hb hn vs vs' ep hv hi.
apply: (@quad_step _ _ sch' _ _ _ _ q (alter_x i c p) crs pf _ hb vs vs' ep hv); rewrite /= ?ep //.
  case=> hty [hsa hsb] hg hl; split=> //=; by rewrite ?size_put.
case=> hty [hsa hsb] hg hl; rewrite /quad_gap /=; rewrite gap_c //.
apply: (iff_trans (pairT_eq0 hb hn _ _)); apply: or_iff => //; exact: sub0P.
Qed.

Lemma k_C95_quad_y : forall (E : pairing) (sch sch' : sched) (q : QuadEqu E) (p : CProof E) (crs : CRS E) pf (j : nat) (e : Com2 E), bilinear E -> nondegenerate E -> valid_sched sch -> valid_sched sch' ->
  equ_proofs p = [:: pf] -> quad_verify sch q p crs = Ok true -> (j < size (coms (ycoms p)))%N ->
  answers (quad_verify sch' q (alter_y j e p) crs) (factor_y [seq x *: one1 crs | x <- quad_a q] (quad_gamma q) (coms (xcoms p)) j = 0 \/ e = nth 0 (coms (ycoms p)) j).
Proof.
move=> E sch sch' q p crs pf j e hb hn vs vs' ep hv hi.
apply: (@quad_step _ _ sch' _ _ _ _ q (alter_y j e p) crs pf _ hb vs vs' ep hv); rewrite /= ?ep //.
  case=> hty [hsa hsb] hg hl; split=> //=; by rewrite ?size_put.
case=> hty [hsa hsb] hg hl; rewrite /quad_gap /=; rewrite gap_d //.
apply: (iff_trans (pairT_eq0 hb hn _ _)); apply: or_iff => //; exact: sub0P.
Qed.

Lemma k_C95_quad_a : forall (E : pairing) (sch sch' : sched) (q : QuadEqu E) (p : CProof E) (crs : CRS E) pf (j : nat) (a : Fr E), bilinear E -> nondegenerate E -> valid_sched sch -> valid_sched sch' ->
  equ_proofs p = [:: pf] -> quad_verify sch q p crs = Ok true -> (j < size (coms (ycoms p)))%N ->
  answers (quad_verify sch' (mkQuadEqu (put j a (quad_a q)) (quad_b q) (quad_gamma q) (quad_target q)) p crs) (a = nth 0 (quad_a q) j \/ one1 crs = 0 \/ nth 0 (coms (ycoms p)) j = 0).
Proof.
move=> E sch sch' q p crs pf j a hb hn vs vs' ep hv hi.
apply: (@quad_step _ _ sch' _ _ _ _ (mkQuadEqu (put j a (quad_a q)) (quad_b q) (quad_gamma q) (quad_target q)) p crs pf _ hb vs vs' ep hv); rewrite /= ?ep //.
  case=> hty [hsa hsb] hg hl; split=> //=; by rewrite ?size_put.
case=> hty [hsa hsb] hg hl; rewrite /quad_gap /=; rewrite (map_put (fun x : Fr E => x *: one1 crs : Com1 E)) ?hsa // gap_A ?size_map //.
  rewrite (nth_map 0) ?hsa // -scalerBl; apply: (iff_trans (pairT_eq0 hb hn _ _)); have h1 := scale0P (a - nth 0 (quad_a q) j) (one1 crs); have h2 := sub0P a (nth 0 (quad_a q) j); tauto.
Qed.

Lemma k_C95_quad_b : forall (E : pairing) (sch sch' : sched) (q : QuadEqu E) (p : CProof E) (crs : CRS E) pf (i : nat) (b : Fr E), bilinear E -> nondegenerate E -> valid_sched sch -> valid_sched sch' ->
  equ_proofs p = [:: pf] -> quad_verify sch q p crs = Ok true -> (i < size (coms (xcoms p)))%N ->
  answers (quad_verify sch' (mkQuadEqu (quad_a q) (put i b (quad_b q)) (quad_gamma q) (quad_target q)) p crs) (nth 0 (coms (xcoms p)) i = 0 \/ b = nth 0 (quad_b q) i \/ one2 crs = 0).
Proof.
move=> E sch sch' q p crs pf i b hb hn vs vs' ep hv hi.
apply: (@quad_step _ _ sch' _ _ _ _ (mkQuadEqu (quad_a q) (put i b (quad_b q)) (quad_gamma q) (quad_target q)) p crs pf _ hb vs vs' ep hv); rewrite /= ?ep //.
  case=> hty [hsa hsb] hg hl; split=> //=; by rewrite ?size_put.
case=> hty [hsa hsb] hg hl; rewrite /quad_gap /=; rewrite (map_put (fun x : Fr E => x *: one2 crs : Com2 E)) ?hsb // gap_B ?size_map //.
  rewrite (nth_map 0) ?hsb // -scalerBl; apply: (iff_trans (pairT_eq0 hb hn _ _)); have h1 := scale0P (b - nth 0 (quad_b q) i) (one2 crs); have h2 := sub0P b (nth 0 (quad_b q) i); tauto.
Qed.

Lemma k_C95_quad_gamma : forall (E : pairing) (sch sch' : sched) (q : QuadEqu E) (p : CProof E) (crs : CRS E) pf (i j : nat) (g : Fr E), bilinear E -> nondegenerate E -> valid_sched sch -> valid_sched sch' ->
  equ_proofs p = [:: pf] -> quad_verify sch q p crs = Ok true -> (i < size (coms (xcoms p)))%N -> (j < size (coms (ycoms p)))%N ->
  answers (quad_verify sch' (mkQuadEqu (quad_a q) (quad_b q) (put_entry i j g (quad_gamma q)) (quad_target q)) p crs) (g = entry (quad_gamma q) i j \/ nth 0 (coms (xcoms p)) i = 0 \/ nth 0 (coms (ycoms p)) j = 0).
Proof.
move=> E sch sch' q p crs pf i j g hb hn vs vs' ep hv hi hj.
apply: (@quad_step _ _ sch' _ _ _ _ (mkQuadEqu (quad_a q) (quad_b q) (put_entry i j g (quad_gamma q)) (quad_target q)) p crs pf _ hb vs vs' ep hv); rewrite /= ?ep //.
  case=> hty [hsa hsb] hg hl; split=> //=; exact: fits_put.
case=> hty [hsa hsb] hg hl; rewrite /quad_gap /=; case: (fits_at hg hi hj) => g1 g2; rewrite gap_G //.
apply: (iff_trans (scale0P _ _)); apply: or_iff; [exact: sub0P | exact: (pairT_eq0 hb hn)].
Qed.

Lemma k_C95_quad_target : forall (E : pairing) (sch sch' : sched) (q : QuadEqu E) (p : CProof E) (crs : CRS E) pf (t : Fr E), bilinear E -> nondegenerate E -> valid_sched sch -> valid_sched sch' ->
  equ_proofs p = [:: pf] -> quad_verify sch q p crs = Ok true -> 
  answers (quad_verify sch' (mkQuadEqu (quad_a q) (quad_b q) (quad_gamma q) t) p crs) (t = quad_target q \/ one1 crs = 0 \/ one2 crs = 0).
Proof.
move=> E sch sch' q p crs pf t hb hn vs vs' ep hv.
apply: (@quad_step _ _ sch' _ _ _ _ (mkQuadEqu (quad_a q) (quad_b q) (quad_gamma q) t) p crs pf _ hb vs vs' ep hv); rewrite /= ?ep //.
case=> hty [hsa hsb] hg hl; rewrite /quad_gap /=; rewrite gap_t; apply: (iff_trans (opp0P _)); rewrite -scalerBl; apply: (iff_trans (scale0P _ _)); apply: or_iff; [exact: sub0P | exact: (pairT_eq0 hb hn)].
Qed.

Lemma nth_put_ne (T : zmodType) i (x : T) s k : k != i -> nth 0 (put i x s) k = nth 0 s k.
Proof.
move=> hk; have [h|h] := ltnP k (size s); last by rewrite !nth_default ?size_put.
by rewrite (nth_map 0%N) ?size_iota // nth_iota // add0n (negbTE hk).
Qed.
Lemma answersT r : answers r True -> r = Ok true.
Proof. by case=> -[] -> // [_ /(_ Logic.I)]. Qed.
Lemma k_C95_ms1_theta_rest : forall (E : pairing) (sch sch' : sched) (q : MSMEG1 E) (p : CProof E) (crs : CRS E) pf l x, bilinear E -> valid_sched sch -> valid_sched sch' ->
  equ_proofs p = [:: pf] -> ms1_verify sch q p crs = Ok true -> (0 < l)%N -> ms1_verify sch' q (alter_theta l x p) crs = Ok true.
Proof.
move=> E sch sch' q p crs pf l x hb vs vs' ep hv hl; apply: answersT.
apply: (@ms1_step _ _ sch' _ _ _ _ q (alter_theta l x p) crs (mkEquProof (pi pf) (put l x (theta pf)) (equ_type pf) (pf_rand pf)) _ hb vs vs' ep hv); rewrite /= ?ep //.
  by case=> hty hs hg h; split=> //=; rewrite ?size_put.
by move=> _; rewrite /ms1_gap /gap /= !big_ord1 nth_put_ne ?subrr // neq_ltn hl.
Qed.
Lemma k_C95_ms2_pi_rest : forall (E : pairing) (sch sch' : sched) (q : MSMEG2 E) (p : CProof E) (crs : CRS E) pf i x, bilinear E -> valid_sched sch -> valid_sched sch' ->
  equ_proofs p = [:: pf] -> ms2_verify sch q p crs = Ok true -> (0 < i)%N -> ms2_verify sch' q (alter_pi i x p) crs = Ok true.
Proof.
move=> E sch sch' q p crs pf l x hb vs vs' ep hv hl; apply: answersT.
apply: (@ms2_step _ _ sch' _ _ _ _ q (alter_pi l x p) crs (mkEquProof (put l x (pi pf)) (theta pf) (equ_type pf) (pf_rand pf)) _ hb vs vs' ep hv); rewrite /= ?ep //.
  by case=> hty hs hg h; split=> //=; rewrite ?size_put.
by move=> _; rewrite /ms2_gap /gap /= !big_ord1 nth_put_ne ?subrr // neq_ltn hl.
Qed.
Lemma k_C95_quad_pi_rest : forall (E : pairing) (sch sch' : sched) (q : QuadEqu E) (p : CProof E) (crs : CRS E) pf i x, bilinear E -> valid_sched sch -> valid_sched sch' ->
  equ_proofs p = [:: pf] -> quad_verify sch q p crs = Ok true -> (0 < i)%N -> quad_verify sch' q (alter_pi i x p) crs = Ok true.
Proof.
move=> E sch sch' q p crs pf l x hb vs vs' ep hv hl; apply: answersT.
apply: (@quad_step _ _ sch' _ _ _ _ q (alter_pi l x p) crs (mkEquProof (put l x (pi pf)) (theta pf) (equ_type pf) (pf_rand pf)) _ hb vs vs' ep hv); rewrite /= ?ep //.
  by case=> hty hs hg h; split=> //=; rewrite ?size_put.
by move=> _; rewrite /quad_gap /gap /= !big_ord1 nth_put_ne ?subrr // neq_ltn hl.
Qed.
Lemma k_C95_quad_theta_rest : forall (E : pairing) (sch sch' : sched) (q : QuadEqu E) (p : CProof E) (crs : CRS E) pf l x, bilinear E -> valid_sched sch -> valid_sched sch' ->
  equ_proofs p = [:: pf] -> quad_verify sch q p crs = Ok true -> (0 < l)%N -> quad_verify sch' q (alter_theta l x p) crs = Ok true.
Proof.
move=> E sch sch' q p crs pf l x hb vs vs' ep hv hl; apply: answersT.
apply: (@quad_step _ _ sch' _ _ _ _ q (alter_theta l x p) crs (mkEquProof (pi pf) (put l x (theta pf)) (equ_type pf) (pf_rand pf)) _ hb vs vs' ep hv); rewrite /= ?ep //.
  by case=> hty hs hg h; split=> //=; rewrite ?size_put.
by move=> _; rewrite /quad_gap /gap /= !big_ord1 nth_put_ne ?subrr // neq_ltn hl.
Qed.
(** Which of the elements of a generated reference string are zero. *)
Lemma k_C95_binding_keys : forall (E : pairing) (crs : CRS E) a1 a2 t1 t2, binding_crs_with crs a1 a2 t1 t2 -> proper_crs crs ->
  [/\ u1 crs <> 0 /\ v1 crs <> 0, (u2 crs = 0 <-> t1 = 0) /\ (v2 crs = 0 <-> t2 = 0) & one1 crs <> 0 /\ one2 crs <> 0].
Proof.
move=> E crs a1 a2 t1 t2 [eu ev _] [h1 h2]; rewrite /one1 /one2 eu ev /=; split.
- by split=> /(congr1 fst) /= /eqP; [rewrite (negbTE h1) | rewrite (negbTE h2)].
- split; split=> [/(congr1 fst) /= /scale0P[//|/eqP]|->]; rewrite ?(negbTE h1) ?(negbTE h2) // !scale0r //.
split=> h; have /eqP := congr1 fst h; have /eqP := congr1 snd h; rewrite /= addr0 scaler_eq0 => e2 /orP[/eqP t0|].
- by move: e2; rewrite t0 scale0r add0r (negbTE h1).
- by rewrite (negbTE h1).
- by move: e2; rewrite t0 scale0r add0r (negbTE h2).
- by rewrite (negbTE h2).
Qed.
Lemma k_C95_hiding_keys : forall (E : pairing) (crs : CRS E) a1 a2 t1 t2, hiding_crs_with crs a1 a2 t1 t2 -> proper_crs crs ->
  [/\ u1 crs <> 0 /\ v1 crs <> 0, u2 crs <> 0 /\ v2 crs <> 0 & (one1 crs = 0 <-> t1 = 0) /\ (one2 crs = 0 <-> t2 = 0)].
Proof.
move=> E crs a1 a2 t1 t2 [eu ev _] [h1 h2]; rewrite /one1 /one2 eu ev /=; split.
- by split=> /(congr1 fst) /= /eqP; [rewrite (negbTE h1) | rewrite (negbTE h2)].
- split=> h; have /eqP := congr1 fst h; have /eqP := congr1 snd h; rewrite /= scaler_eq0 => e2 /orP[/eqP t0|].
  + by move: e2; rewrite t0 scale0r sub0r oppr_eq0 (negbTE h1).
  + by rewrite (negbTE h1).
  + by move: e2; rewrite t0 scale0r sub0r oppr_eq0 (negbTE h2).
  + by rewrite (negbTE h2).
split; split=> [/(congr1 fst) /=|->]; rewrite ?addr0 ?scale0r.
- by case/scale0P=> // /eqP; rewrite (negbTE h1).
- by apply: injective_projections; rewrite /= ?addr0 ?sub0r ?addNr.
- by case/scale0P=> // /eqP; rewrite (negbTE h2).
- by apply: injective_projections; rewrite /= ?addr0 ?sub0r ?addNr.
Qed.
