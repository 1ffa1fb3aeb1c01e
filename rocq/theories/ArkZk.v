(** Computational zero-knowledge over affine and projective points. *)
From mathcomp Require Import all_ssreflect all_algebra.
From Verif Require Import Base Group DataStructures Generator Commit Statement Prove Verify Spec SpecVerify SpecHide SpecSxdh.
From Verif Require Import Sxdh Ark SpecArk ArkRel ArkLemmas ArkTransfer SpecArkGame ArkGame SpecArkZk.
Set Implicit Arguments.
Unset Strict Implicit.
Unset Printing Implicit Defensive.
Import Order.Theory GRing.Theory Num.Theory.
Local Open Scope ring_scope.

Lemma le_sum2 (a s t b : rat) : s = t -> a <= t + b -> a <= s + b.
Proof. by move=> ->. Qed.

Section Image.
Context {F : finFieldType} {G H T : lmodType F} {e : G -> H -> T} {A : ark F}.
Local Notation E := (Pairing e).
Context {r1 : repr (G1 E) (C1 A)} {r2 : repr (G2 E) (C2 A)} {rt : GT E -> out A -> Prop}.
Context {f1 : G -> aff (C1 A)} {f2 : H -> aff (C2 A)} {ft : T -> out A}.
Hypothesis I : faithful e r1 r2 rt f1 f2 ft.
Let J : implements (E := E) r1 r2 rt := ff_impl I.
Local Notation img_crs := (@img_crs F G H T e A f1 f2 ft).

Lemma rmkseq S S' (R : S -> S' -> Prop) (f : nat -> S) (g : nat -> S') n :
  (forall i, R (f i) (g i)) -> rseq R (mkseq f n) (mkseq g n).
Proof. by move=> h; rewrite /mkseq; elim: n 0%N => //= n IH m; split. Qed.
Lemma rtimes (K : lmodType F) (C : curve F) (r : repr K C) x a k : repr_ok r -> ra r x a -> rcom r (0, k *: x) (times k a).
Proof.
move=> hr h; have -> : (0, k *: x) = com_scalar_mul (0, x) k by rewrite /com_scalar_mul /= scaler0.
apply: (rcom_scalar_mul hr); split=> //=; exact: (ok_aff_zero hr).
Qed.
Lemma rminus_times (K : lmodType F) (C : curve F) (r : repr K C) x a k : repr_ok r -> ra r x a -> rcom r (0, - (k *: x)) (minus_times k a).
Proof.
move=> hr h; have -> : (0, - (k *: x)) = com_neg (0, k *: x) by rewrite /com_neg /= oppr0.
apply: (rcom_neg hr); exact: rtimes.
Qed.
Lemma radds (K : lmodType F) (C : curve F) (r : repr K C) s t s' t' : repr_ok r -> rseq (rcom r) s t -> rseq (rcom r) s' t' ->
  rseq (rcom r) (mkseq (fun i => nth 0 s i + nth 0 s' i) (size s)) (mkseq (fun i => ark_com_add (nth ark_com_zero t i) (nth ark_com_zero t' i)) (size t)).
Proof.
move=> hr h h'; rewrite -(rsize h); apply: rmkseq => i.
by apply: (rcom_add hr); apply: rnth => //; exact: (rcom_zero hr).
Qed.
Lemma rcorrect dp dt dp' dt' p q : rseq (rcom r2) dp dp' -> rseq (rcom r1) dt dt' -> rcproof r1 r2 p q ->
  rcproof r1 r2 (correct dp dt p) (ark_correct dp' dt' q).
Proof.
move=> h1 h2 [k1 k2 k3]; split=> //; rewrite /correct /ark_correct /=.
apply: rmap k3 => f g [g1 g2 g3 g4]; split=> //=; first exact: (radds (ok_C2 J)).
exact: (radds (ok_C1 J)).
Qed.
Lemma rppe_fix t1 t2 k l P Q P' Q' p q : ra r1 P P' -> ra r2 Q Q' -> rcproof r1 r2 p q ->
  rcproof r1 r2 (ppe_fix (E := E) t1 t2 k l P Q p) (ark_ppe_fix t1 t2 k l P' Q' q).
Proof.
move=> h1 h2; apply: rcorrect; split; [exact: (rminus_times _ (ok_C2 J)) | | exact: (rminus_times _ (ok_C1 J)) |]; split=> //.
  exact: (rtimes _ (ok_C2 J)).
exact: (rtimes _ (ok_C1 J)).
Qed.
Lemma rms1_fix t1 t2 e1 e2 p q : rms1 r1 e1 e2 -> rcproof r1 r2 p q ->
  rcproof r1 r2 (ms1_fix (E := E) t1 t2 e1 p) (ark_ms1_fix t1 t2 e2 q).
Proof. case=> _ _ _ h; apply: rcorrect => //; split=> //; exact: (rminus_times _ (ok_C1 J)). Qed.
Lemma rms2_fix t1 t2 e1 e2 p q : rms2 r2 e1 e2 -> rcproof r1 r2 p q ->
  rcproof r1 r2 (ms2_fix (E := E) t1 t2 e1 p) (ark_ms2_fix t1 t2 e2 q).
Proof. case=> _ _ _ h; apply: rcorrect => //; split=> //; exact: (rminus_times _ (ok_C2 J)). Qed.
Lemma rquad_fix t1 t2 e1 e2 c d p q : rquad e1 e2 -> rcrs r1 r2 rt c d -> rcproof r1 r2 p q ->
  rcproof r1 r2 (quad_fix (E := E) t1 t2 e1 c p) (ark_quad_fix t1 t2 e2 d q).
Proof.
case=> _ _ _ h [_ hv _ _ _]; apply: rcorrect => //; split=> //; rewrite -h.
apply: (rcom_neg (ok_C2 J)); apply: (rcom_scalar_mul (ok_C2 J)); apply: rnth hv; exact: (rcom_zero (ok_C2 J)).
Qed.

Lemma img_sim_crs P1 P2 p1 p2 a1 a2 t1 t2 : rp r1 P1 p1 -> rp r2 P2 p2 ->
  ark_sim_crs (A := A) p1 p2 a1 a2 t1 t2 = img_crs (sim_crs (e := e) P1 P2 a1 a2 t1 t2).
Proof.
move=> h1 h2; apply/(rcrs_img I).
have q1 := ok_prj_mul (ok_C1 J) a1 h1; have q2 := ok_prj_mul (ok_C2 J) a2 h2.
have [k1 k2] := rprepare_simulated_hinding_key J t1 t2 h1 h2 q1 q2.
have i1 := ok_into_affine (ok_C1 J); have i2 := ok_into_affine (ok_C2 J).
split=> /=.
- by split; [split; [exact: i1 h1 | exact: i1 q1] | split=> //; split; [exact: i1 (ok_prj_mul (ok_C1 J) t1 h1) | exact: i1 k1]].
- by split; [split; [exact: i2 h2 | exact: i2 q2] | split=> //; split; [exact: i2 (ok_prj_mul (ok_C2 J) t2 h2) | exact: i2 k2]].
- exact: i1 h1.
- exact: i2 h2.
- exact: (ok_pairing J (i1 _ _ h1) (i2 _ _ h2)).
Qed.

Lemma img_sim_game (O1 O2 W : finType) (z1 : O1 -> G) (z2 : O2 -> H) (s1 : O1 -> prj (C1 A)) (s2 : O2 -> prj (C2 A)) N (D : W -> ark_CRS A -> pred _)
  (fx : F -> F -> W -> CRS E -> CProof E -> CProof E) (fx' : F -> F -> W -> ark_CRS A -> ark_CProof A -> ark_CProof A)
  (f : W -> CRS E -> forall R : rng E, rst R -> res (CProof E * rst R))
  (g : W -> ark_CRS A -> forall R : ark_rng A, ark_rst R -> res (ark_CProof A * ark_rst R)) :
  (forall o, rp r1 (z1 o) (s1 o)) -> (forall o, rp r2 (z2 o) (s2 o)) ->
  (forall w c (t : seq F), rres (rpair (rcproof r1 r2) eq) (f w c tape_rng t) (g w (img_crs c) ark_tape t)) ->
  (forall t1 t2 w c p q, rcproof r1 r2 p q -> rcproof r1 r2 (fx t1 t2 w c p) (fx' t1 t2 w (img_crs c) q)) ->
  ark_sim_game N D s1 s2 fx' g = sim_game N (img_test (f1 := f1) (f2 := f2) (ft := ft) D) z1 z2 (fun t1 t2 w c p => public (fx t1 t2 w c p)) f.
Proof.
move=> h1 h2 hf hx; apply: eq_Pr => -[[w t] [[o1 o2] [[[a1 a2] t1] t2]]].
rewrite (img_sim_crs a1 a2 t1 t2 (h1 o1) (h2 o2)) /img_test; congr (D w _ _).
move: (hf w (sim_crs (e := e) (z1 o1) (z2 o2) a1 a2 t1 t2) (tval t)).
case: (f _ _ _ _) (g _ _ _ _) => [[p s]|x] [[p' s']|x'] //= => [[hp _]|<-] //.
by rewrite (rproof_img I (hx t1 t2 w _ _ _ hp)).
Qed.

Lemma ppe_ark_comp_zk (O1 O2 W : finType) (z1 : O1 -> G) (z2 : O2 -> H) (s1 : O1 -> prj (C1 A)) (s2 : O2 -> prj (C2 A))
  (D : W -> ark_CRS A -> pred _) (sch sch' : sched) (m n : nat)
  (q : W -> ark_CRS A -> PPE E) (f : W -> ark_CRS A -> ark_PPE A) (X : W -> ark_CRS A -> seq G) (Y : W -> ark_CRS A -> seq H) (a : W -> ark_CRS A -> seq (aff (C1 A))) (b : W -> ark_CRS A -> seq (aff (C2 A)))
  (k l : W -> ark_CRS A -> F) (P : W -> ark_CRS A -> G) (Q : W -> ark_CRS A -> H) (x : W -> ark_CRS A -> aff (C1 A)) (y : W -> ark_CRS A -> aff (C2 A)) :
  bilinear E -> nondegenerate E -> cyclic (G1 E) -> cyclic (G2 E) -> valid_sched sch -> valid_sched sch' -> (0 < m)%N -> (0 < n)%N ->
  (forall o, rp r1 (z1 o) (s1 o)) -> (forall o, rp r2 (z2 o) (s2 o)) ->
  (forall w d, rppe r1 r2 rt (q w d) (f w d) /\ rseq (ra r1) (X w d) (a w d) /\ rseq (ra r2) (Y w d) (b w d)) ->
  (forall w d, size (X w d) = m /\ size (Y w d) = n) ->
  (forall w crs d, rcrs r1 r2 rt crs d -> proper_crs crs -> ppe_wf (q w d) m n /\ ppe_holds (q w d) (X w d) (Y w d)) ->
  (forall w d, ra r1 (P w d) (x w d) /\ ra r2 (Q w d) (y w d)) ->
  (forall w crs d, rcrs r1 r2 rt crs d -> proper_crs crs ->
    ppe_target (q w d) = e (k w d *: g1_gen crs) (Q w d) + e (P w d) (l w d *: g2_gen crs)) ->
  let B1 := ark_proof_test (N := (2 * m + (2 * n + 4))%N) D (fun w d R s => ark_ppe_commit_and_prove (R := R) sch (f w d) (a w d) (b w d) d s) in
  is_true (`|ark_game s1 s2 B1 - ark_sim_game (2 * m + (2 * n + 4))%N D s1 s2 (fun t1 t2 w d => ark_ppe_fix t1 t2 (k w d) (l w d) (x w d) (y w d))
      (fun w d R s => ark_ppe_commit_and_prove (R := R) sch' (f w d) (nseq m (aff_zero (C1 A))) (nseq n (aff_zero (C2 A))) d s)| <=
    (ark_ddh_adv s1 (ark_ddh1 s2 B1) + ark_ddh_adv s1 (ark_ddh2 s2 B1) + ark_ddh_adv s2 (ark_ddh3 s1 B1) + ark_ddh_adv s2 (ark_ddh4 s1 B1))
  + ark_bad_point s1 s2).
Proof.
move=> hbl hnd hc1 hc2 vs vs' hm hn hz1 hz2 hrel hsz hst hpq htg B1.
pose q0 w c := q w (img_crs c).
pose T1 := proof_test (N := (2 * m + (2 * n + 4))%N) (img_test (f1 := f1) (f2 := f2) (ft := ft) D) public (fun w crs R s => ppe_commit_and_prove (R := R) sch (q0 w crs) (X w (img_crs crs)) (Y w (img_crs crs)) crs s).
have e1 x0 c : T1 x0 c = B1 x0 (img_crs c).
  apply: (img_proof_test I) => w c' t; have [hq [ha hb]] := hrel w (img_crs c').
  exact: (rppe_commit_and_prove J (tapes_alike (e := e)) sch hq ha hb (proj2 (rcrs_img I c' _) erefl) (erefl t)).
rewrite (img_game I hz1 hz2 e1) (img_bad I hz1 hz2).
rewrite (@img_sim_game _ _ _ z1 z2 s1 s2 _ D (fun t1 t2 w c => ppe_fix (E := E) t1 t2 (k w (img_crs c)) (l w (img_crs c)) (P w (img_crs c)) (Q w (img_crs c))) _
  (fun w c R s => ppe_commit_and_prove (R := R) sch' (q0 w c) (nseq m 0) (nseq n 0) c s) _ hz1 hz2); first last.
- move=> t1 t2 w c p p' hp; move: hp; by have [hx hy] := hpq w (img_crs c); apply: (rppe_fix _ _ _ _ hx hy).
- move=> w c' t; have [hq [ha hb]] := hrel w (img_crs c').
  exact: (rppe_commit_and_prove J (tapes_alike (e := e)) sch' hq (rnseq m (ok_aff_zero (ok_C1 J))) (rnseq n (ok_aff_zero (ok_C2 J))) (proj2 (rcrs_img I c' _) erefl) (erefl t)).
apply: (le_sum2 (img_advs I hz1 hz2 e1)).
apply: (ppe_comp_zk_ddh (q := q0) (X := fun w c => X w (img_crs c)) (Y := fun w c => Y w (img_crs c)) (k := fun w c => k w (img_crs c)) (l := fun w c => l w (img_crs c)) (P := fun w c => P w (img_crs c)) (Q := fun w c => Q w (img_crs c)) z1 z2 (img_test D) hbl hnd hc1 hc2 vs vs' hm hn) => [w c|w c hp|w c hp].
- exact: hsz.
- exact: hst (proj2 (rcrs_img I c _) erefl) hp.
- exact: htg (proj2 (rcrs_img I c _) erefl) hp.
Qed.

Lemma ms1_ark_comp_zk (O1 O2 W : finType) (z1 : O1 -> G) (z2 : O2 -> H) (s1 : O1 -> prj (C1 A)) (s2 : O2 -> prj (C2 A))
  (D : W -> ark_CRS A -> pred _) (sch sch' : sched) (m n : nat)
  (q : W -> ark_CRS A -> MSMEG1 E) (f : W -> ark_CRS A -> ark_MSMEG1 A) (X : W -> ark_CRS A -> seq G) (Y : W -> ark_CRS A -> seq F) (a : W -> ark_CRS A -> seq (aff (C1 A))) :
  bilinear E -> nondegenerate E -> cyclic (G1 E) -> cyclic (G2 E) -> valid_sched sch -> valid_sched sch' -> (0 < m)%N -> (0 < n)%N ->
  (forall o, rp r1 (z1 o) (s1 o)) -> (forall o, rp r2 (z2 o) (s2 o)) ->
  (forall w d, rms1 r1 (q w d) (f w d) /\ rseq (ra r1) (X w d) (a w d)) ->
  (forall w d, size (X w d) = m /\ size (Y w d) = n) ->
  (forall w crs d, rcrs r1 r2 rt crs d -> proper_crs crs -> ms1_wf (q w d) m n /\ ms1_holds (q w d) (X w d) (Y w d)) ->
  let B1 := ark_proof_test (N := (2 * m + (n + 2))%N) D (fun w d R s => ark_ms1_commit_and_prove (R := R) sch (f w d) (a w d) (Y w d) d s) in
  is_true (`|ark_game s1 s2 B1 - ark_sim_game (2 * m + (n + 2))%N D s1 s2 (fun t1 t2 w d => ark_ms1_fix t1 t2 (f w d))
      (fun w d R s => ark_ms1_commit_and_prove (R := R) sch' (f w d) (nseq m (aff_zero (C1 A))) (nseq n 0) d s)| <=
    (ark_ddh_adv s1 (ark_ddh1 s2 B1) + ark_ddh_adv s1 (ark_ddh2 s2 B1) + ark_ddh_adv s2 (ark_ddh3 s1 B1) + ark_ddh_adv s2 (ark_ddh4 s1 B1))
  + ark_bad_point s1 s2).
Proof.
move=> hbl hnd hc1 hc2 vs vs' hm hn hz1 hz2 hrel hsz hst B1.
pose q0 w c := q w (img_crs c).
pose T1 := proof_test (N := (2 * m + (n + 2))%N) (img_test (f1 := f1) (f2 := f2) (ft := ft) D) public (fun w crs R s => ms1_commit_and_prove (R := R) sch (q0 w crs) (X w (img_crs crs)) (Y w (img_crs crs)) crs s).
have e1 x0 c : T1 x0 c = B1 x0 (img_crs c).
  apply: (img_proof_test I) => w c' t; have [hq ha] := hrel w (img_crs c').
  exact: (rms1_commit_and_prove J (tapes_alike (e := e)) sch (Y w (img_crs c')) hq ha (proj2 (rcrs_img I c' _) erefl) (erefl t)).
rewrite (img_game I hz1 hz2 e1) (img_bad I hz1 hz2).
rewrite (@img_sim_game _ _ _ z1 z2 s1 s2 _ D (fun t1 t2 w c => ms1_fix (E := E) t1 t2 (q0 w c)) _
  (fun w c R s => ms1_commit_and_prove (R := R) sch' (q0 w c) (nseq m 0) (nseq n 0) c s) _ hz1 hz2); first last.
- move=> t1 t2 w c p p' hp; move: hp; have [hq ha] := hrel w (img_crs c); exact: (rms1_fix _ _ hq).
- move=> w c' t; have [hq ha] := hrel w (img_crs c').
  exact: (rms1_commit_and_prove J (tapes_alike (e := e)) sch' (nseq n 0) hq (rnseq m (ok_aff_zero (ok_C1 J))) (proj2 (rcrs_img I c' _) erefl) (erefl t)).
apply: (le_sum2 (img_advs I hz1 hz2 e1)).
apply: (ms1_comp_zk_ddh (q := q0) (X := fun w c => X w (img_crs c)) (Y := fun w c => Y w (img_crs c)) z1 z2 (img_test D) hbl hnd hc1 hc2 vs vs' hm hn) => [w c|w c hp].
- exact: hsz.
- exact: hst (proj2 (rcrs_img I c _) erefl) hp.

Qed.

Lemma ms2_ark_comp_zk (O1 O2 W : finType) (z1 : O1 -> G) (z2 : O2 -> H) (s1 : O1 -> prj (C1 A)) (s2 : O2 -> prj (C2 A))
  (D : W -> ark_CRS A -> pred _) (sch sch' : sched) (m n : nat)
  (q : W -> ark_CRS A -> MSMEG2 E) (f : W -> ark_CRS A -> ark_MSMEG2 A) (X : W -> ark_CRS A -> seq F) (Y : W -> ark_CRS A -> seq H) (b : W -> ark_CRS A -> seq (aff (C2 A))) :
  bilinear E -> nondegenerate E -> cyclic (G1 E) -> cyclic (G2 E) -> valid_sched sch -> valid_sched sch' -> (0 < m)%N -> (0 < n)%N ->
  (forall o, rp r1 (z1 o) (s1 o)) -> (forall o, rp r2 (z2 o) (s2 o)) ->
  (forall w d, rms2 r2 (q w d) (f w d) /\ rseq (ra r2) (Y w d) (b w d)) ->
  (forall w d, size (X w d) = m /\ size (Y w d) = n) ->
  (forall w crs d, rcrs r1 r2 rt crs d -> proper_crs crs -> ms2_wf (q w d) m n /\ ms2_holds (q w d) (X w d) (Y w d)) ->
  let B1 := ark_proof_test (N := (m + (2 * n + 2))%N) D (fun w d R s => ark_ms2_commit_and_prove (R := R) sch (f w d) (X w d) (b w d) d s) in
  is_true (`|ark_game s1 s2 B1 - ark_sim_game (m + (2 * n + 2))%N D s1 s2 (fun t1 t2 w d => ark_ms2_fix t1 t2 (f w d))
      (fun w d R s => ark_ms2_commit_and_prove (R := R) sch' (f w d) (nseq m 0) (nseq n (aff_zero (C2 A))) d s)| <=
    (ark_ddh_adv s1 (ark_ddh1 s2 B1) + ark_ddh_adv s1 (ark_ddh2 s2 B1) + ark_ddh_adv s2 (ark_ddh3 s1 B1) + ark_ddh_adv s2 (ark_ddh4 s1 B1))
  + ark_bad_point s1 s2).
Proof.
move=> hbl hnd hc1 hc2 vs vs' hm hn hz1 hz2 hrel hsz hst B1.
pose q0 w c := q w (img_crs c).
pose T1 := proof_test (N := (m + (2 * n + 2))%N) (img_test (f1 := f1) (f2 := f2) (ft := ft) D) public (fun w crs R s => ms2_commit_and_prove (R := R) sch (q0 w crs) (X w (img_crs crs)) (Y w (img_crs crs)) crs s).
have e1 x0 c : T1 x0 c = B1 x0 (img_crs c).
  apply: (img_proof_test I) => w c' t; have [hq hb] := hrel w (img_crs c').
  exact: (rms2_commit_and_prove J (tapes_alike (e := e)) sch (X w (img_crs c')) hq hb (proj2 (rcrs_img I c' _) erefl) (erefl t)).
rewrite (img_game I hz1 hz2 e1) (img_bad I hz1 hz2).
rewrite (@img_sim_game _ _ _ z1 z2 s1 s2 _ D (fun t1 t2 w c => ms2_fix (E := E) t1 t2 (q0 w c)) _
  (fun w c R s => ms2_commit_and_prove (R := R) sch' (q0 w c) (nseq m 0) (nseq n 0) c s) _ hz1 hz2); first last.
- move=> t1 t2 w c p p' hp; move: hp; have [hq hb] := hrel w (img_crs c); exact: (rms2_fix _ _ hq).
- move=> w c' t; have [hq hb] := hrel w (img_crs c').
  exact: (rms2_commit_and_prove J (tapes_alike (e := e)) sch' (nseq m 0) hq (rnseq n (ok_aff_zero (ok_C2 J))) (proj2 (rcrs_img I c' _) erefl) (erefl t)).
apply: (le_sum2 (img_advs I hz1 hz2 e1)).
apply: (ms2_comp_zk_ddh (q := q0) (X := fun w c => X w (img_crs c)) (Y := fun w c => Y w (img_crs c)) z1 z2 (img_test D) hbl hnd hc1 hc2 vs vs' hm hn) => [w c|w c hp].
- exact: hsz.
- exact: hst (proj2 (rcrs_img I c _) erefl) hp.

Qed.

Lemma quad_ark_comp_zk (O1 O2 W : finType) (z1 : O1 -> G) (z2 : O2 -> H) (s1 : O1 -> prj (C1 A)) (s2 : O2 -> prj (C2 A))
  (D : W -> ark_CRS A -> pred _) (sch sch' : sched) (m n : nat)
  (q : W -> ark_CRS A -> QuadEqu E) (f : W -> ark_CRS A -> ark_QuadEqu F) (X : W -> ark_CRS A -> seq F) (Y : W -> ark_CRS A -> seq F) :
  bilinear E -> nondegenerate E -> cyclic (G1 E) -> cyclic (G2 E) -> valid_sched sch -> valid_sched sch' -> (0 < m)%N -> (0 < n)%N ->
  (forall o, rp r1 (z1 o) (s1 o)) -> (forall o, rp r2 (z2 o) (s2 o)) ->
  (forall w d, rquad (q w d) (f w d)) ->
  (forall w d, size (X w d) = m /\ size (Y w d) = n) ->
  (forall w crs d, rcrs r1 r2 rt crs d -> proper_crs crs -> quad_wf (q w d) m n /\ quad_holds (q w d) (X w d) (Y w d)) ->
  let B1 := ark_proof_test (N := (m + (n + 1))%N) D (fun w d R s => ark_quad_commit_and_prove (R := R) sch (f w d) (X w d) (Y w d) d s) in
  is_true (`|ark_game s1 s2 B1 - ark_sim_game (m + (n + 1))%N D s1 s2 (fun t1 t2 w d => ark_quad_fix t1 t2 (f w d) d)
      (fun w d R s => ark_quad_commit_and_prove (R := R) sch' (f w d) (nseq m 0) (nseq n 0) d s)| <=
    (ark_ddh_adv s1 (ark_ddh1 s2 B1) + ark_ddh_adv s1 (ark_ddh2 s2 B1) + ark_ddh_adv s2 (ark_ddh3 s1 B1) + ark_ddh_adv s2 (ark_ddh4 s1 B1))
  + ark_bad_point s1 s2).
Proof.
move=> hbl hnd hc1 hc2 vs vs' hm hn hz1 hz2 hrel hsz hst B1.
pose q0 w c := q w (img_crs c).
pose T1 := proof_test (N := (m + (n + 1))%N) (img_test (f1 := f1) (f2 := f2) (ft := ft) D) public (fun w crs R s => quad_commit_and_prove (R := R) sch (q0 w crs) (X w (img_crs crs)) (Y w (img_crs crs)) crs s).
have e1 x0 c : T1 x0 c = B1 x0 (img_crs c).
  apply: (img_proof_test I) => w c' t; have hq := hrel w (img_crs c').
  exact: (rquad_commit_and_prove J (tapes_alike (e := e)) sch (X w (img_crs c')) (Y w (img_crs c')) hq (proj2 (rcrs_img I c' _) erefl) (erefl t)).
rewrite (img_game I hz1 hz2 e1) (img_bad I hz1 hz2).
rewrite (@img_sim_game _ _ _ z1 z2 s1 s2 _ D (fun t1 t2 w c => quad_fix (E := E) t1 t2 (q0 w c) c) _
  (fun w c R s => quad_commit_and_prove (R := R) sch' (q0 w c) (nseq m 0) (nseq n 0) c s) _ hz1 hz2); first last.
- move=> t1 t2 w c p p' hp; move: hp; by apply: (rquad_fix _ _ (hrel w (img_crs c))); apply/(rcrs_img I).
- move=> w c' t; have hq := hrel w (img_crs c').
  exact: (rquad_commit_and_prove J (tapes_alike (e := e)) sch' (nseq m 0) (nseq n 0) hq (proj2 (rcrs_img I c' _) erefl) (erefl t)).
apply: (le_sum2 (img_advs I hz1 hz2 e1)).
apply: (quad_comp_zk_ddh (q := q0) (X := fun w c => X w (img_crs c)) (Y := fun w c => Y w (img_crs c)) z1 z2 (img_test D) hbl hnd hc1 hc2 vs vs' hm hn) => [w c|w c hp].
- exact: hsz.
- exact: hst (proj2 (rcrs_img I c _) erefl) hp.

Qed.
End Image.
