(** Computational witness indistinguishability over affine and projective points. *)
From mathcomp Require Import all_ssreflect all_algebra.
From Verif Require Import Base Group DataStructures Generator Commit Statement Prove Verify Spec SpecVerify SpecHide SpecSxdh.
From Verif Require Import Sxdh Ark SpecArk ArkRel ArkLemmas ArkTransfer SpecArkGame.
Set Implicit Arguments.
Unset Strict Implicit.
Unset Printing Implicit Defensive.
Import Order.Theory GRing.Theory Num.Theory.
Local Open Scope ring_scope.

Lemma eq_Pr (T : finType) (f g : pred T) : f =1 g -> Pr f = Pr g.
Proof. by move=> h; rewrite /Pr; congr (_%:R / _); apply: eq_card => x; rewrite !inE h. Qed.

Lemma le_sum3 (a s s' t t' b : rat) : s = t -> s' = t' -> a <= t + t' + b -> a <= s + s' + b.
Proof. by move=> -> ->. Qed.

Section Image.
Context {F : finFieldType} {G H T : lmodType F} {e : G -> H -> T} {A : ark F}.
Local Notation E := (Pairing e).
Context {r1 : repr (G1 E) (C1 A)} {r2 : repr (G2 E) (C2 A)} {rt : GT E -> out A -> Prop}.
Context {f1 : G -> aff (C1 A)} {f2 : H -> aff (C2 A)} {ft : T -> out A}.
Hypothesis I : faithful e r1 r2 rt f1 f2 ft.
Let J : implements (E := E) r1 r2 rt := ff_impl I.

Definition img1 (c : Com1 E) : ark_Com1 A := (f1 c.1, f1 c.2).
Definition img2 (c : Com2 E) : ark_Com2 A := (f2 c.1, f2 c.2).
Definition img_crs (c : CRS E) : ark_CRS A :=
  ark_mkCRS (map img1 (crs_u c)) (map img2 (crs_v c)) (f1 (g1_gen c)) (f2 (g2_gen c)) (ft (gt_gen c)).
Definition img_pub (v : seq (Com1 E) * seq (Com2 E) * seq (seq (Com2 E) * seq (Com1 E) * EquType)) :=
  (map img1 v.1.1, map img2 v.1.2, [seq (map img2 f.1.1, map img1 f.1.2, f.2) | f <- v.2]).
Definition img_res {X Y} (f : X -> Y) (r : res X) : res Y := match r with Ok x => Ok (f x) | Panic p => Panic p end.

Lemma rseq_map X Y (r : X -> Y -> Prop) (f : X -> Y) s t : (forall x y, r x y <-> y = f x) -> rseq r s t <-> t = map f s.
Proof.
move=> h; elim: s t => [|x s IH] [|y t] //=; split=> // [[h1 h2]|[h1 h2]].
- by rewrite (proj1 (h _ _) h1) (proj1 (IH _) h2).
- by split; [apply/h | apply/IH].
Qed.
Lemma rcom1_img c d : rcom r1 c d <-> d = img1 c.
Proof.
case: c d => [x y] [a b]; rewrite /rcom /img1 /=; split=> [[h1 h2]|[-> ->]]; last by split; apply/(ff_1 I).
by rewrite (proj1 (ff_1 I _ _) h1) (proj1 (ff_1 I _ _) h2).
Qed.
Lemma rcom2_img c d : rcom r2 c d <-> d = img2 c.
Proof.
case: c d => [x y] [a b]; rewrite /rcom /img2 /=; split=> [[h1 h2]|[-> ->]]; last by split; apply/(ff_2 I).
by rewrite (proj1 (ff_2 I _ _) h1) (proj1 (ff_2 I _ _) h2).
Qed.
Lemma rcrs_img c d : rcrs r1 r2 rt c d <-> d = img_crs c.
Proof.
case: c d => [u v g1 g2 gt] [u' v' g1' g2' gt']; rewrite /rcrs /img_crs /=; split.
  case=> /(rseq_map _ _ rcom1_img) -> /(rseq_map _ _ rcom2_img) -> /(ff_1 I) -> /(ff_2 I) -> /(ff_t I) -> //.
case=> -> -> -> -> ->; split; [exact/(rseq_map _ _ rcom1_img) | exact/(rseq_map _ _ rcom2_img) | exact/(ff_1 I) | exact/(ff_2 I) | exact/(ff_t I)].
Qed.
Lemma rproof_img p q : rcproof r1 r2 p q -> ark_public q = img_pub (public p).
Proof.
case/rpublic=> /(rseq_map _ _ rcom1_img) h1 /(rseq_map _ _ rcom2_img) h2 h3.
rewrite /ark_public /public /img_pub /= h1 h2; congr (_, _, _).
move: h3; rewrite /ark_public /=; elim: [seq _ | f <- equ_proofs p] [seq _ | f <- ark_equ_proofs q] => [|x s IH] [|y t] //= [[k1 k2 k3] /IH ->].
move: k1 k2 => /(rseq_map _ _ rcom2_img) k1 /(rseq_map _ _ rcom1_img) k2.
by case: y k1 k2 k3 => [[y1 y2] y3] /= -> -> <-.
Qed.
Lemma rseen_img (S S' : Type) (rs : S -> S' -> Prop) (r : res (CProof E * S)) (q : res (ark_CProof A * S')) :
  rres (rpair (rcproof r1 r2) rs) r q -> ark_seen q = img_res img_pub (seen public r).
Proof. by case: r q => [[p s]|x] [[q s']|y] //= => [[/rproof_img -> _]|<-]. Qed.

Lemma img_real_crs P1 P2 p1 p2 a1 a2 t1 t2 : rp r1 P1 p1 -> rp r2 P2 p2 ->
  ark_real_crs (A := A) p1 p2 a1 a2 t1 t2 = img_crs (real_crs (e := e) P1 P2 a1 a2 t1 t2).
Proof.
move=> h1 h2; apply/rcrs_img.
pose rs (s : rst (queue (e := e))) (t : ark_rst (ark_queue (A := A))) := [/\ rseq (rp r1) s.1.1 t.1.1, rseq (rp r2) s.1.2 t.1.2 & s.2 = t.2].
have hd : draws_alike (E := E) r1 r2 rs.
  split.
  - by move=> [[x y] z] [[x' y'] z'] [/= k1 k2 ->]; split.
  - move=> [[[|x0 x] y] z] [[[|x0' x'] y'] z'] [//= k1 k2 ->]; split=> //=; first exact: (ok_prj_zero (ok_C1 J)).
      by case: k1.
    by split=> //; case: k1.
  - move=> [[x [|y0 y]] z] [[x' [|y0' y']] z'] [//= k1 k2 ->]; split=> //=; first exact: (ok_prj_zero (ok_C2 J)).
      by case: k2.
    by split=> //; case: k2.
have : rs ([:: P1], [:: P2], [:: a1; a2; t1; t2]) ([:: p1], [:: p2], [:: a1; a2; t1; t2]) by split.
by move/(rgenerate_crs J (ok_rand_fr hd) hd) => -[].
Qed.

Section Games.
Context {O1 O2 W : finType} {z1 : O1 -> G} {z2 : O2 -> H} {s1 : O1 -> prj (C1 A)} {s2 : O2 -> prj (C2 A)}.
Hypothesis h1 : forall o, rp r1 (z1 o) (s1 o).
Hypothesis h2 : forall o, rp r2 (z2 o) (s2 o).
Variables (D : W -> pred (ark_CRS A)) (B : W -> pred (CRS E)).
Hypothesis hB : forall w c, B w c = D w (img_crs c).

Lemma img_game : ark_game s1 s2 D = game z1 z2 real_crs B.
Proof.
apply: eq_Pr => -[w [[o1 o2] [[[a1 a2] t1] t2]]].
by rewrite hB (img_real_crs a1 a2 t1 t2 (h1 o1) (h2 o2)).
Qed.
Lemma img_bad : ark_bad_point s1 s2 = bad_point z1 z2.
Proof.
apply: eq_Pr => -[o1 o2] /=; congr (_ || _).
- exact: (ok_aff_eq (ok_C1 J) (ok_into_affine (ok_C1 J) (h1 o1)) (ok_aff_zero (ok_C1 J))).
- exact: (ok_aff_eq (ok_C2 J) (ok_into_affine (ok_C2 J) (h2 o2)) (ok_aff_zero (ok_C2 J))).
Qed.

Lemma aff1 P p : rp r1 P p -> into_affine p = f1 P.
Proof. by move=> h; apply/(ff_1 I); exact: (ok_into_affine (ok_C1 J)). Qed.
Lemma aff2 P p : rp r2 P p -> into_affine p = f2 P.
Proof. by move=> h; apply/(ff_2 I); exact: (ok_into_affine (ok_C2 J)). Qed.
Lemma mul1 P p k : rp r1 P p -> rp r1 (k *: P) (prj_mul p k).
Proof. exact: (ok_prj_mul (ok_C1 J)). Qed.
Lemma mul2 P p k : rp r2 P p -> rp r2 (k *: P) (prj_mul p k).
Proof. exact: (ok_prj_mul (ok_C2 J)). Qed.
Lemma grp1 P : rp r1 P (into_group (f1 P)).
Proof. by apply: (ok_into_group (ok_C1 J)); apply/(ff_1 I). Qed.
Lemma grp2 P : rp r2 P (into_group (f2 P)).
Proof. by apply: (ok_into_group (ok_C2 J)); apply/(ff_2 I). Qed.
Lemma pair_img P Q : a_pairing (f1 P) (f2 Q) = ft (e P Q).
Proof. by apply/(ff_t I); apply: (ok_pairing J); [apply/(ff_1 I) | apply/(ff_2 I)]. Qed.

Lemma img_ddh1 x P Q U Z : ark_ddh1 s2 D x (f1 P) (f1 Q) (f1 U) (f1 Z) = ddh1 z2 B x P Q U Z.
Proof.
case: x => w [[o a] t]; rewrite /ark_ddh1 /ddh1 hB; congr (D w _); rewrite /img_crs /=.
rewrite (aff2 (h2 o)) (aff2 (mul2 a (h2 o))) (aff2 (mul2 t (h2 o))) (aff2 (mul2 t (mul2 a (h2 o)))).
by rewrite pair_img.
Qed.
Lemma img_ddh2 x P Q U Z : ark_ddh2 s2 D x (f1 P) (f1 Q) (f1 U) (f1 Z) = ddh2 z2 B x P Q U Z.
Proof. by rewrite /ark_ddh2 /ddh2 -img_ddh1 /minus (aff1 (ok_prj_sub (ok_C1 J) (grp1 Z) (grp1 P))). Qed.
Lemma img_ddh3 x P Q U Z : ark_ddh3 s1 D x (f2 P) (f2 Q) (f2 U) (f2 Z) = ddh3 z1 B x P Q U Z.
Proof.
case: x => w [[o a] t]; rewrite /ark_ddh3 /ddh3 hB; congr (D w _); rewrite /img_crs /=.
rewrite (aff1 (h1 o)) (aff1 (mul1 a (h1 o))) (aff1 (mul1 t (h1 o))) (aff1 (ok_prj_sub (ok_C1 J) (mul1 t (mul1 a (h1 o))) (h1 o))).
by rewrite pair_img.
Qed.
Lemma img_ddh4 x P Q U Z : ark_ddh4 s1 D x (f2 P) (f2 Q) (f2 U) (f2 Z) = ddh4 z1 B x P Q U Z.
Proof. by rewrite /ark_ddh4 /ddh4 -img_ddh3 /minus (aff2 (ok_prj_sub (ok_C2 J) (grp2 Z) (grp2 P))). Qed.

Lemma img_adv1 (V : finType) (D' : V -> aff (C1 A) -> aff (C1 A) -> aff (C1 A) -> aff (C1 A) -> bool) (B' : V -> G -> G -> G -> G -> bool) :
  (forall x P Q U Z, D' x (f1 P) (f1 Q) (f1 U) (f1 Z) = B' x P Q U Z) -> ark_ddh_adv (W := V) s1 D' = ddh_adv z1 B'.
Proof.
move=> hD; congr (`|_ - _|); apply: eq_Pr => -[w].
  by case=> [[o a] t]; rewrite (aff1 (h1 o)) !(aff1 (mul1 _ (h1 o))) hD.
by case=> [[[o a] t] r]; rewrite (aff1 (h1 o)) !(aff1 (mul1 _ (h1 o))) hD.
Qed.
Lemma img_adv2 (V : finType) (D' : V -> aff (C2 A) -> aff (C2 A) -> aff (C2 A) -> aff (C2 A) -> bool) (B' : V -> H -> H -> H -> H -> bool) :
  (forall x P Q U Z, D' x (f2 P) (f2 Q) (f2 U) (f2 Z) = B' x P Q U Z) -> ark_ddh_adv (W := V) s2 D' = ddh_adv z2 B'.
Proof.
move=> hD; congr (`|_ - _|); apply: eq_Pr => -[w].
  by case=> [[o a] t]; rewrite (aff2 (h2 o)) !(aff2 (mul2 _ (h2 o))) hD.
by case=> [[[o a] t] r]; rewrite (aff2 (h2 o)) !(aff2 (mul2 _ (h2 o))) hD.
Qed.
Lemma img_advs :
  ark_ddh_adv s1 (ark_ddh1 s2 D) + ark_ddh_adv s1 (ark_ddh2 s2 D) + ark_ddh_adv s2 (ark_ddh3 s1 D) + ark_ddh_adv s2 (ark_ddh4 s1 D)
  = ddh_adv z1 (ddh1 z2 B) + ddh_adv z1 (ddh2 z2 B) + ddh_adv z2 (ddh3 z1 B) + ddh_adv z2 (ddh4 z1 B).
Proof.
rewrite (@img_adv1 _ (ark_ddh1 s2 D) (ddh1 z2 B) img_ddh1) (@img_adv1 _ (ark_ddh2 s2 D) (ddh2 z2 B) img_ddh2).
by rewrite (@img_adv2 _ (ark_ddh3 s1 D) (ddh3 z1 B) img_ddh3) (@img_adv2 _ (ark_ddh4 s1 D) (ddh4 z1 B) img_ddh4).
Qed.
End Games.

Definition img_test {W : Type} (D : W -> ark_CRS A -> pred (res _)) (w : W) (c : CRS E) : pred (res _) :=
  fun v => D w (img_crs c) (img_res img_pub v).
Lemma tapes_alike : scalars_alike (E := E) (R := tape_rng) (R' := ark_tape (A := A)) eq.
Proof. by move=> s t ->; split. Qed.
Lemma img_proof_test (W : finType) N D (f : W -> CRS E -> forall R : rng E, rst R -> res (CProof E * rst R))
  (g : W -> ark_CRS A -> forall R : ark_rng A, ark_rst R -> res (ark_CProof A * ark_rst R)) :
  (forall w c (t : seq F), rres (rpair (rcproof r1 r2) eq) (f w c tape_rng t) (g w (img_crs c) ark_tape t)) ->
  forall x c, proof_test (W := W) (N := N) (img_test D) public f x c = ark_proof_test D g x (img_crs c).
Proof. by move=> h x c; rewrite /proof_test /ark_proof_test /img_test (rseen_img (h _ _ _)). Qed.

Lemma ppe_ark_comp_wi (O1 O2 W : finType) (z1 : O1 -> G) (z2 : O2 -> H) (s1 : O1 -> prj (C1 A)) (s2 : O2 -> prj (C2 A))
  (D : W -> ark_CRS A -> pred _) (sch sch' : sched) (m n : nat)
  (q : W -> ark_CRS A -> PPE E) (f : W -> ark_CRS A -> ark_PPE A) (X X' : W -> ark_CRS A -> seq G) (Y Y' : W -> ark_CRS A -> seq H) (a a' : W -> ark_CRS A -> seq (aff (C1 A))) (b b' : W -> ark_CRS A -> seq (aff (C2 A))) :
  bilinear E -> nondegenerate E -> cyclic (G1 E) -> cyclic (G2 E) -> valid_sched sch -> valid_sched sch' -> (0 < m)%N -> (0 < n)%N ->
  (forall o, rp r1 (z1 o) (s1 o)) -> (forall o, rp r2 (z2 o) (s2 o)) ->
  (forall w d, rppe r1 r2 rt (q w d) (f w d) /\ rseq (ra r1) (X w d) (a w d) /\ rseq (ra r1) (X' w d) (a' w d) /\ rseq (ra r2) (Y w d) (b w d) /\ rseq (ra r2) (Y' w d) (b' w d)) ->
  (forall w d, [/\ size (X w d) = m, size (Y w d) = n, size (X' w d) = m & size (Y' w d) = n]) ->
  (forall w crs d, rcrs r1 r2 rt crs d -> proper_crs crs ->
    [/\ ppe_wf (q w d) m n, ppe_holds (q w d) (X w d) (Y w d) & ppe_holds (q w d) (X' w d) (Y' w d)]) ->
  let B1 := ark_proof_test (N := (2 * m + (2 * n + 4))%N) D (fun w d R s => ark_ppe_commit_and_prove (R := R) sch (f w d) (a w d) (b w d) d s) in
  let B2 := ark_proof_test (N := (2 * m + (2 * n + 4))%N) D (fun w d R s => ark_ppe_commit_and_prove (R := R) sch' (f w d) (a' w d) (b' w d) d s) in
  is_true (`|ark_game s1 s2 B1 - ark_game s1 s2 B2| <=
    (ark_ddh_adv s1 (ark_ddh1 s2 B1) + ark_ddh_adv s1 (ark_ddh2 s2 B1) + ark_ddh_adv s2 (ark_ddh3 s1 B1) + ark_ddh_adv s2 (ark_ddh4 s1 B1))
  + (ark_ddh_adv s1 (ark_ddh1 s2 B2) + ark_ddh_adv s1 (ark_ddh2 s2 B2) + ark_ddh_adv s2 (ark_ddh3 s1 B2) + ark_ddh_adv s2 (ark_ddh4 s1 B2))
  + ark_bad_point s1 s2).
Proof.
move=> hbl hnd hc1 hc2 vs vs' hm hn hz1 hz2 hrel hsz hst B1 B2.
pose q0 w c := q w (img_crs c).
pose T1 := proof_test (N := (2 * m + (2 * n + 4))%N) (img_test D) public (fun w crs R s => ppe_commit_and_prove (R := R) sch (q0 w crs) (X w (img_crs crs)) (Y w (img_crs crs)) crs s).
pose T2 := proof_test (N := (2 * m + (2 * n + 4))%N) (img_test D) public (fun w crs R s => ppe_commit_and_prove (R := R) sch' (q0 w crs) (X' w (img_crs crs)) (Y' w (img_crs crs)) crs s).
have e1 x c : T1 x c = B1 x (img_crs c).
  apply: img_proof_test => w c' t; have [hq [ha [ha' [hb hb']]]] := hrel w (img_crs c').
  exact: (rppe_commit_and_prove J tapes_alike sch hq ha hb (proj2 (rcrs_img c' _) erefl) (erefl t)).
have e2 x c : T2 x c = B2 x (img_crs c).
  apply: img_proof_test => w c' t; have [hq [ha [ha' [hb hb']]]] := hrel w (img_crs c').
  exact: (rppe_commit_and_prove J tapes_alike sch' hq ha' hb' (proj2 (rcrs_img c' _) erefl) (erefl t)).
rewrite (img_game hz1 hz2 e1) (img_game hz1 hz2 e2) (img_bad hz1 hz2).
apply: (le_sum3 (img_advs hz1 hz2 e1) (img_advs hz1 hz2 e2)).
apply: (ppe_comp_wi_ddh (q := q0) (X := fun w c => X w (img_crs c)) (X' := fun w c => X' w (img_crs c)) (Y := fun w c => Y w (img_crs c)) (Y' := fun w c => Y' w (img_crs c)) z1 z2 (img_test D) hbl hnd hc1 hc2 vs vs' hm hn) => [w c|w c hp].
- exact: hsz.
- exact: hst (proj2 (rcrs_img c _) erefl) hp.
Qed.

Lemma ms1_ark_comp_wi (O1 O2 W : finType) (z1 : O1 -> G) (z2 : O2 -> H) (s1 : O1 -> prj (C1 A)) (s2 : O2 -> prj (C2 A))
  (D : W -> ark_CRS A -> pred _) (sch sch' : sched) (m n : nat)
  (q : W -> ark_CRS A -> MSMEG1 E) (f : W -> ark_CRS A -> ark_MSMEG1 A) (X X' : W -> ark_CRS A -> seq G) (Y Y' : W -> ark_CRS A -> seq F) (a a' : W -> ark_CRS A -> seq (aff (C1 A))) :
  bilinear E -> nondegenerate E -> cyclic (G1 E) -> cyclic (G2 E) -> valid_sched sch -> valid_sched sch' -> (0 < m)%N -> (0 < n)%N ->
  (forall o, rp r1 (z1 o) (s1 o)) -> (forall o, rp r2 (z2 o) (s2 o)) ->
  (forall w d, rms1 r1 (q w d) (f w d) /\ rseq (ra r1) (X w d) (a w d) /\ rseq (ra r1) (X' w d) (a' w d)) ->
  (forall w d, [/\ size (X w d) = m, size (Y w d) = n, size (X' w d) = m & size (Y' w d) = n]) ->
  (forall w crs d, rcrs r1 r2 rt crs d -> proper_crs crs ->
    [/\ ms1_wf (q w d) m n, ms1_holds (q w d) (X w d) (Y w d) & ms1_holds (q w d) (X' w d) (Y' w d)]) ->
  let B1 := ark_proof_test (N := (2 * m + (n + 2))%N) D (fun w d R s => ark_ms1_commit_and_prove (R := R) sch (f w d) (a w d) (Y w d) d s) in
  let B2 := ark_proof_test (N := (2 * m + (n + 2))%N) D (fun w d R s => ark_ms1_commit_and_prove (R := R) sch' (f w d) (a' w d) (Y' w d) d s) in
  is_true (`|ark_game s1 s2 B1 - ark_game s1 s2 B2| <=
    (ark_ddh_adv s1 (ark_ddh1 s2 B1) + ark_ddh_adv s1 (ark_ddh2 s2 B1) + ark_ddh_adv s2 (ark_ddh3 s1 B1) + ark_ddh_adv s2 (ark_ddh4 s1 B1))
  + (ark_ddh_adv s1 (ark_ddh1 s2 B2) + ark_ddh_adv s1 (ark_ddh2 s2 B2) + ark_ddh_adv s2 (ark_ddh3 s1 B2) + ark_ddh_adv s2 (ark_ddh4 s1 B2))
  + ark_bad_point s1 s2).
Proof.
move=> hbl hnd hc1 hc2 vs vs' hm hn hz1 hz2 hrel hsz hst B1 B2.
pose q0 w c := q w (img_crs c).
pose T1 := proof_test (N := (2 * m + (n + 2))%N) (img_test D) public (fun w crs R s => ms1_commit_and_prove (R := R) sch (q0 w crs) (X w (img_crs crs)) (Y w (img_crs crs)) crs s).
pose T2 := proof_test (N := (2 * m + (n + 2))%N) (img_test D) public (fun w crs R s => ms1_commit_and_prove (R := R) sch' (q0 w crs) (X' w (img_crs crs)) (Y' w (img_crs crs)) crs s).
have e1 x c : T1 x c = B1 x (img_crs c).
  apply: img_proof_test => w c' t; have [hq [ha ha']] := hrel w (img_crs c').
  exact: (rms1_commit_and_prove J tapes_alike sch (Y w (img_crs c')) hq ha (proj2 (rcrs_img c' _) erefl) (erefl t)).
have e2 x c : T2 x c = B2 x (img_crs c).
  apply: img_proof_test => w c' t; have [hq [ha ha']] := hrel w (img_crs c').
  exact: (rms1_commit_and_prove J tapes_alike sch' (Y' w (img_crs c')) hq ha' (proj2 (rcrs_img c' _) erefl) (erefl t)).
rewrite (img_game hz1 hz2 e1) (img_game hz1 hz2 e2) (img_bad hz1 hz2).
apply: (le_sum3 (img_advs hz1 hz2 e1) (img_advs hz1 hz2 e2)).
apply: (ms1_comp_wi_ddh (q := q0) (X := fun w c => X w (img_crs c)) (X' := fun w c => X' w (img_crs c)) (Y := fun w c => Y w (img_crs c)) (Y' := fun w c => Y' w (img_crs c)) z1 z2 (img_test D) hbl hnd hc1 hc2 vs vs' hm hn) => [w c|w c hp].
- exact: hsz.
- exact: hst (proj2 (rcrs_img c _) erefl) hp.
Qed.

Lemma ms2_ark_comp_wi (O1 O2 W : finType) (z1 : O1 -> G) (z2 : O2 -> H) (s1 : O1 -> prj (C1 A)) (s2 : O2 -> prj (C2 A))
  (D : W -> ark_CRS A -> pred _) (sch sch' : sched) (m n : nat)
  (q : W -> ark_CRS A -> MSMEG2 E) (f : W -> ark_CRS A -> ark_MSMEG2 A) (X X' : W -> ark_CRS A -> seq F) (Y Y' : W -> ark_CRS A -> seq H) (b b' : W -> ark_CRS A -> seq (aff (C2 A))) :
  bilinear E -> nondegenerate E -> cyclic (G1 E) -> cyclic (G2 E) -> valid_sched sch -> valid_sched sch' -> (0 < m)%N -> (0 < n)%N ->
  (forall o, rp r1 (z1 o) (s1 o)) -> (forall o, rp r2 (z2 o) (s2 o)) ->
  (forall w d, rms2 r2 (q w d) (f w d) /\ rseq (ra r2) (Y w d) (b w d) /\ rseq (ra r2) (Y' w d) (b' w d)) ->
  (forall w d, [/\ size (X w d) = m, size (Y w d) = n, size (X' w d) = m & size (Y' w d) = n]) ->
  (forall w crs d, rcrs r1 r2 rt crs d -> proper_crs crs ->
    [/\ ms2_wf (q w d) m n, ms2_holds (q w d) (X w d) (Y w d) & ms2_holds (q w d) (X' w d) (Y' w d)]) ->
  let B1 := ark_proof_test (N := (m + (2 * n + 2))%N) D (fun w d R s => ark_ms2_commit_and_prove (R := R) sch (f w d) (X w d) (b w d) d s) in
  let B2 := ark_proof_test (N := (m + (2 * n + 2))%N) D (fun w d R s => ark_ms2_commit_and_prove (R := R) sch' (f w d) (X' w d) (b' w d) d s) in
  is_true (`|ark_game s1 s2 B1 - ark_game s1 s2 B2| <=
    (ark_ddh_adv s1 (ark_ddh1 s2 B1) + ark_ddh_adv s1 (ark_ddh2 s2 B1) + ark_ddh_adv s2 (ark_ddh3 s1 B1) + ark_ddh_adv s2 (ark_ddh4 s1 B1))
  + (ark_ddh_adv s1 (ark_ddh1 s2 B2) + ark_ddh_adv s1 (ark_ddh2 s2 B2) + ark_ddh_adv s2 (ark_ddh3 s1 B2) + ark_ddh_adv s2 (ark_ddh4 s1 B2))
  + ark_bad_point s1 s2).
Proof.
move=> hbl hnd hc1 hc2 vs vs' hm hn hz1 hz2 hrel hsz hst B1 B2.
pose q0 w c := q w (img_crs c).
pose T1 := proof_test (N := (m + (2 * n + 2))%N) (img_test D) public (fun w crs R s => ms2_commit_and_prove (R := R) sch (q0 w crs) (X w (img_crs crs)) (Y w (img_crs crs)) crs s).
pose T2 := proof_test (N := (m + (2 * n + 2))%N) (img_test D) public (fun w crs R s => ms2_commit_and_prove (R := R) sch' (q0 w crs) (X' w (img_crs crs)) (Y' w (img_crs crs)) crs s).
have e1 x c : T1 x c = B1 x (img_crs c).
  apply: img_proof_test => w c' t; have [hq [hb hb']] := hrel w (img_crs c').
  exact: (rms2_commit_and_prove J tapes_alike sch (X w (img_crs c')) hq hb (proj2 (rcrs_img c' _) erefl) (erefl t)).
have e2 x c : T2 x c = B2 x (img_crs c).
  apply: img_proof_test => w c' t; have [hq [hb hb']] := hrel w (img_crs c').
  exact: (rms2_commit_and_prove J tapes_alike sch' (X' w (img_crs c')) hq hb' (proj2 (rcrs_img c' _) erefl) (erefl t)).
rewrite (img_game hz1 hz2 e1) (img_game hz1 hz2 e2) (img_bad hz1 hz2).
apply: (le_sum3 (img_advs hz1 hz2 e1) (img_advs hz1 hz2 e2)).
apply: (ms2_comp_wi_ddh (q := q0) (X := fun w c => X w (img_crs c)) (X' := fun w c => X' w (img_crs c)) (Y := fun w c => Y w (img_crs c)) (Y' := fun w c => Y' w (img_crs c)) z1 z2 (img_test D) hbl hnd hc1 hc2 vs vs' hm hn) => [w c|w c hp].
- exact: hsz.
- exact: hst (proj2 (rcrs_img c _) erefl) hp.
Qed.

Lemma quad_ark_comp_wi (O1 O2 W : finType) (z1 : O1 -> G) (z2 : O2 -> H) (s1 : O1 -> prj (C1 A)) (s2 : O2 -> prj (C2 A))
  (D : W -> ark_CRS A -> pred _) (sch sch' : sched) (m n : nat)
  (q : W -> ark_CRS A -> QuadEqu E) (f : W -> ark_CRS A -> ark_QuadEqu F) (X X' : W -> ark_CRS A -> seq F) (Y Y' : W -> ark_CRS A -> seq F) :
  bilinear E -> nondegenerate E -> cyclic (G1 E) -> cyclic (G2 E) -> valid_sched sch -> valid_sched sch' -> (0 < m)%N -> (0 < n)%N ->
  (forall o, rp r1 (z1 o) (s1 o)) -> (forall o, rp r2 (z2 o) (s2 o)) ->
  (forall w d, rquad (q w d) (f w d)) ->
  (forall w d, [/\ size (X w d) = m, size (Y w d) = n, size (X' w d) = m & size (Y' w d) = n]) ->
  (forall w crs d, rcrs r1 r2 rt crs d -> proper_crs crs ->
    [/\ quad_wf (q w d) m n, quad_holds (q w d) (X w d) (Y w d) & quad_holds (q w d) (X' w d) (Y' w d)]) ->
  let B1 := ark_proof_test (N := (m + (n + 1))%N) D (fun w d R s => ark_quad_commit_and_prove (R := R) sch (f w d) (X w d) (Y w d) d s) in
  let B2 := ark_proof_test (N := (m + (n + 1))%N) D (fun w d R s => ark_quad_commit_and_prove (R := R) sch' (f w d) (X' w d) (Y' w d) d s) in
  is_true (`|ark_game s1 s2 B1 - ark_game s1 s2 B2| <=
    (ark_ddh_adv s1 (ark_ddh1 s2 B1) + ark_ddh_adv s1 (ark_ddh2 s2 B1) + ark_ddh_adv s2 (ark_ddh3 s1 B1) + ark_ddh_adv s2 (ark_ddh4 s1 B1))
  + (ark_ddh_adv s1 (ark_ddh1 s2 B2) + ark_ddh_adv s1 (ark_ddh2 s2 B2) + ark_ddh_adv s2 (ark_ddh3 s1 B2) + ark_ddh_adv s2 (ark_ddh4 s1 B2))
  + ark_bad_point s1 s2).
Proof.
move=> hbl hnd hc1 hc2 vs vs' hm hn hz1 hz2 hrel hsz hst B1 B2.
pose q0 w c := q w (img_crs c).
pose T1 := proof_test (N := (m + (n + 1))%N) (img_test D) public (fun w crs R s => quad_commit_and_prove (R := R) sch (q0 w crs) (X w (img_crs crs)) (Y w (img_crs crs)) crs s).
pose T2 := proof_test (N := (m + (n + 1))%N) (img_test D) public (fun w crs R s => quad_commit_and_prove (R := R) sch' (q0 w crs) (X' w (img_crs crs)) (Y' w (img_crs crs)) crs s).
have e1 x c : T1 x c = B1 x (img_crs c).
  apply: img_proof_test => w c' t; have hq := hrel w (img_crs c').
  exact: (rquad_commit_and_prove J tapes_alike sch (X w (img_crs c')) (Y w (img_crs c')) hq (proj2 (rcrs_img c' _) erefl) (erefl t)).
have e2 x c : T2 x c = B2 x (img_crs c).
  apply: img_proof_test => w c' t; have hq := hrel w (img_crs c').
  exact: (rquad_commit_and_prove J tapes_alike sch' (X' w (img_crs c')) (Y' w (img_crs c')) hq (proj2 (rcrs_img c' _) erefl) (erefl t)).
rewrite (img_game hz1 hz2 e1) (img_game hz1 hz2 e2) (img_bad hz1 hz2).
apply: (le_sum3 (img_advs hz1 hz2 e1) (img_advs hz1 hz2 e2)).
apply: (quad_comp_wi_ddh (q := q0) (X := fun w c => X w (img_crs c)) (X' := fun w c => X' w (img_crs c)) (Y := fun w c => Y w (img_crs c)) (Y' := fun w c => Y' w (img_crs c)) z1 z2 (img_test D) hbl hnd hc1 hc2 vs vs' hm hn) => [w c|w c hp].
- exact: hsz.
- exact: hst (proj2 (rcrs_img c _) erefl) hp.
Qed.
End Image.
