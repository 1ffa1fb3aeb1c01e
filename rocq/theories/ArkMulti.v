(** Systems and sessions over affine and projective points. *)
From mathcomp Require Import all_ssreflect all_algebra.
From Verif Require Import Base Group DataStructures Generator Commit Statement Prove Verify Spec SpecVerify SpecHide SpecSxdh SpecMulti SpecAdaptive.
From Verif Require Import Sxdh MultiProps Adaptive Ark SpecArk ArkRel ArkLemmas ArkTransfer SpecArkGame ArkGame SpecArkZk ArkZk SpecArkMulti.
Set Implicit Arguments.
Unset Strict Implicit.
Unset Printing Implicit Defensive.
Import Order.Theory GRing.Theory Num.Theory.
Local Open Scope ring_scope.

Section Systems.
Context {E : pairing} {A : ark (Fr E)} {r1 : repr (G1 E) (C1 A)} {r2 : repr (G2 E) (C2 A)} {rt : GT E -> out A -> Prop}.
Hypothesis I : implements r1 r2 rt.
Local Notation rK := (rcrs r1 r2 rt).
Local Notation rP := (requproof r1 r2).
Local Notation rQ := (reqn r1 r2 rt).
Local Notation rV := (rassign r1 r2).
Local Notation rC := (rcoms4 r1 r2).

Section Rng.
Context {R : rng E} {R' : ark_rng A} {rs : rst R -> ark_rst R' -> Prop}.
Hypothesis D : scalars_alike rs.

Lemma reqn_prove sch q f v w x y c d s t : rQ q f -> rV v w -> rC x y -> rK c d -> rs s t ->
  rres (rpair rP rs) (eqn_prove sch q v x c s) (ark_eqn_prove sch f w y d t).
Proof.
case: v w x y => X x Y y [X' x' Y' y'] [a1 a2 a3 a4] [b1 b2 b3 b4] hq [/= h1 h2 h3 h4] [/= k1 k2 k3 k4] hK hs; subst x' y'.
case: q f hq => q [] f //= hq.
- exact: (rppe_prove I D).
- exact: (rms1_prove I D).
- exact: (rms2_prove I D).
- exact: (rquad_prove I D).
Qed.

Lemma rprove_all sch qs fs v w x y c d s t : rseq rQ qs fs -> rV v w -> rC x y -> rK c d -> rs s t ->
  rres (rpair (rseq rP) rs) (prove_all sch qs v x c s) (ark_prove_all sch fs w y d t).
Proof.
move=> hq hv hx hK; elim: qs fs hq s t => [|q qs IH] [|f fs] //= [hq hqs] s t hs.
apply: rbind (reqn_prove sch hq hv hx hK hs) _ => -[p s1] [p' t1] [/= hp h1].
by apply: rbind (IH _ hqs _ _ h1) _ => -[ps s2] [ps' t2] [/= hps h2].
Qed.

Lemma rcommit_if (V V' : Type) (rv : V -> V' -> Prop) (K : fieldType) (G : lmodType K) (C : curve (Fr E)) (RC : commit G -> ark_commit C -> Prop)
  (f : seq V -> CRS E -> rst R -> res (commit G * rst R)) (g : seq V' -> ark_CRS A -> ark_rst R' -> res (ark_commit C * ark_rst R')) X X' c d s t :
  RC (mkCommit [::] [::]) (ark_mkCommit [::] [::]) ->
  (rseq rv X X' -> rs s t -> rres (rpair RC rs) (f X c s) (g X' d t)) ->
  rseq rv X X' -> rs s t -> rres (rpair RC rs) (commit_if f X c s) (ark_commit_if g X' d t).
Proof. by case: X X' => [|x X] [|x' X'] // h0 H h1 h2; apply: H. Qed.

Lemma rcommit_all v w c d s t : rV v w -> rK c d -> rs s t ->
  rres (rpair rC rs) (commit_all v c s) (ark_commit_all w d t).
Proof.
case: v w => X x Y y [X' x' Y' y'] [/= h1 h2 h3 h4] hK hs; subst x' y'; rewrite /commit_all /ark_commit_all /=.
apply: (rbind (R := rpair (rcommit r1) rs)).
  by apply: (rcommit_if (rv := ra r1)) h1 hs => // h hs; apply: (rbatch_commit_G1 I D).
move=> [a s1] [a' t1] [/= ha h5].
apply: (rbind (R := rpair (rcommit r1) rs)).
  by apply: (rcommit_if (rv := eq)) (rseq_eq x) h5 => // _ h5; apply: (rbatch_commit_scalar_to_B1 I D).
move=> [b s2] [b' t2] [/= hb h6].
apply: (rbind (R := rpair (rcommit r2) rs)).
  by apply: (rcommit_if (rv := ra r2)) h3 h6 => // h h6; apply: (rbatch_commit_G2 I D).
move=> [e s3] [e' t3] [/= he h7].
apply: (rbind (R := rpair (rcommit r2) rs)).
  by apply: (rcommit_if (rv := eq)) (rseq_eq y) h7 => // _ h7; apply: (rbatch_commit_scalar_to_B2 I D).
by move=> [g s4] [g' t4] [/= hg h8].
Qed.

Lemma rprove_system sch qs fs v w c d s t : rseq rQ qs fs -> rV v w -> rK c d -> rs s t ->
  rres (rpair (rpair rC (rseq rP)) rs) (prove_system sch qs v c s) (ark_prove_system sch fs w d t).
Proof.
move=> hq hv hK hs; apply: rbind (rcommit_all hv hK hs) _ => -[x s1] [y t1] [/= hx h1].
by apply: rbind (rprove_all sch hq hv hx hK h1) _ => -[ps s2] [ps' t2] [/= hps h2].
Qed.
End Rng.

Lemma reqn_verify sch q f x y p p' c d : rQ q f -> rC x y -> rP p p' -> rK c d ->
  ark_eqn_verify sch f y p' d = eqn_verify sch q x p c.
Proof.
move=> hq [k1 k2 k3 k4] hp hK; case: q f hq => q [] f //= hq.
- exact: (rppe_verify I).
- exact: (rms1_verify I).
- exact: (rms2_verify I).
- exact: (rquad_verify I).
Qed.

Lemma rverify_system sch qs fs x y ps ps' c d : rseq rQ qs fs -> rC x y -> rseq rP ps ps' -> rK c d ->
  ark_verify_system sch fs y ps' d = verify_system sch qs x ps c.
Proof.
move=> hq hx hp hK; elim: qs fs hq ps ps' hp => [|q qs IH] [|f fs] //= => [_ [|p ps] [|p' ps']|[hq hqs] [|p ps] [|p' ps']] //= [hp hps].
rewrite (reqn_verify sch hq hx hp hK); case: (eqn_verify _ _ _ _ _) => // -[] //=; exact: IH.
Qed.

Lemma system_ark_complete (R' : ark_rng A) sch sch' qs fs v w crs d (t : ark_rst R') :
  bilinear E -> valid_sched sch -> valid_sched sch' -> two_keys crs -> rseq rQ qs fs -> rV v w -> rK crs d ->
  every (fun q => eqn_wf q v) qs -> every (fun q => eqn_holds q v) qs ->
  exists c pfs t', ark_prove_system sch fs w d t = Ok ((c, pfs), t') /\ ark_verify_system sch' fs c pfs d = Ok true.
Proof.
move=> hb vs vs' h2 hq hv hK hwf hh.
have [c [pfs [s' [k1 k2]]]] := @k_C57_complete E (scalars_of 0 0 R') sch sch' qs v crs t hb vs vs' h2 hwf hh.
move: (rprove_system (@scalars_of_alike E A 0 0 R') sch hq hv hK (erefl t)).
rewrite k1; case h : (ark_prove_system _ _ _ _ _) => [[[c' pfs'] t']|x] //= -[[/= hc hp] _].
by exists c', pfs', t'; split=> //; rewrite (rverify_system sch' hq hc hp hK).
Qed.

Lemma system_ark_decides (R' : ark_rng A) sch sch' qs fs v w crs d (t : ark_rst R') :
  bilinear E -> nondegenerate E -> valid_sched sch -> valid_sched sch' -> two_keys crs ->
  u2 crs + (0, g1_gen crs) != 0 -> v2 crs + (0, g2_gen crs) != 0 -> rseq rQ qs fs -> rV v w -> rK crs d ->
  every (fun q => eqn_wf q v) qs ->
  exists c pfs t' b, [/\ ark_prove_system sch fs w d t = Ok ((c, pfs), t'), ark_verify_system sch' fs c pfs d = Ok b
    & b <-> every (fun q => eqn_holds q v) qs].
Proof.
move=> hb hn vs vs' h2 n1 n2 hq hv hK hwf.
have [c [pfs [s' [b [k1 k2 k3]]]]] := @k_C57_decides E (scalars_of 0 0 R') sch sch' qs v crs t hb hn vs vs' h2 n1 n2 hwf.
move: (rprove_system (@scalars_of_alike E A 0 0 R') sch hq hv hK (erefl t)).
rewrite k1; case h : (ark_prove_system _ _ _ _ _) => [[[c' pfs'] t']|x] //= -[[/= hc hp] _].
by exists c', pfs', t', b; split=> //; rewrite (rverify_system sch' hq hc hp hK).
Qed.

Lemma system_ark_sound (R' : ark_rng A) sch (t t' : ark_rst R') d P1 P2 :
  bilinear E -> nondegenerate E -> cyclic (G1 E) -> cyclic (G2 E) -> valid_sched sch -> ark_generate_crs t = (d, t') ->
  rp r1 P1 (ark_rand_g1 t).1 -> rp r2 P2 (ark_rand_g2 (ark_rand_g1 t).2).1 -> P1 != 0 -> P2 != 0 ->
  exists crs : CRS E, rK crs d /\
  forall (c : coms4 E) (c' : ark_coms4 A), rC c c' -> exists v : assign E,
  [/\ commits_G1 crs (coms (cX c)) (aX v), commits_B1 crs (coms (cx c)) (ax v),
      commits_G2 crs (coms (cY c)) (aY v) & commits_B2 crs (coms (cy c)) (ay v)] /\
  forall qs fs ps ps', rseq rQ qs fs -> rseq rP ps ps' -> ark_verify_system sch fs c' ps' d = Ok true ->
    size ps' = size fs /\ every (fun q => eqn_holds q v) qs.
Proof.
move=> hb hn hc1 hc2 vs hd h1 h2 n1 n2; move: (scripted_crs I h1 h2); rewrite hd.
case hg : (generate_crs _) => [crs t''] [/= hK _]; exists crs; split=> // c c' hc.
have [v [hv H]] := @k_C57_sound E (scalars_of P1 P2 R') sch t t'' crs hb hn hc1 hc2 vs hg (gen1 hg n1) (gen2 hg n2) c.
exists v; split=> // qs fs ps ps' hq hp; rewrite (rverify_system sch hq hc hp hK) => /H [e1 e2].
by rewrite -(rsize hp) -(rsize hq).
Qed.

Lemma rpfs_canon ps ps' ws ws' : canonical r1 -> canonical r2 -> rseq rP ps ws -> rseq rP ps' ws' ->
  [seq (pi f, theta f, equ_type f) | f <- ps] = [seq (pi f, theta f, equ_type f) | f <- ps'] ->
  [seq (ark_pi f, ark_theta f, ark_equ_type f) | f <- ws] = [seq (ark_pi f, ark_theta f, ark_equ_type f) | f <- ws'].
Proof.
move=> c1 c2; elim: ps ps' ws ws' => [|p ps IH] [|p' ps'] [|w ws] [|w' ws'] //= [[g1 g2 g3 _] h] [[j1 j2 j3 _] h'] [e1 e2 e3 e4].
rewrite (IH _ _ _ h h' e4) -g3 -j3 e3; rewrite e1 in g1; rewrite e2 in g2.
by rewrite (rcoms_canon c2 g1 j1) (rcoms_canon c1 g2 j2).
Qed.

Lemma rsystem_canon p p' w w' : canonical r1 -> canonical r2 -> rpair rC (rseq rP) p w -> rpair rC (rseq rP) p' w' ->
  public_system p = public_system p' -> ark_public_system w = ark_public_system w'.
Proof.
move=> c1 c2 [[[h1 _] [h2 _] [h3 _] [h4 _]] h5] [[[j1 _] [j2 _] [j3 _] [j4 _]] j5] [e1 e2 e3 e4 e5].
rewrite e1 in h1; rewrite e2 in h2; rewrite e3 in h3; rewrite e4 in h4.
rewrite /ark_public_system (rcoms_canon c1 h1 j1) (rcoms_canon c1 h2 j2) (rcoms_canon c2 h3 j3) (rcoms_canon c2 h4 j4).
by rewrite (rpfs_canon c1 c2 h5 j5 e5).
Qed.

Lemma system_ark_wi sch sch' qs fs v v' w w' crs d :
  bilinear E -> nondegenerate E -> cyclic (G1 E) -> cyclic (G2 E) -> valid_sched sch -> valid_sched sch' ->
  canonical r1 -> canonical r2 -> rseq rQ qs fs -> rV v w -> rV v' w' -> rK crs d ->
  hiding_crs crs -> proper_crs crs -> same_sizes v v' -> every (fun q => eqn_wf q v) qs ->
  every (fun q => eqn_holds q v) qs -> every (fun q => eqn_holds q v') qs ->
  let N := system_draws qs v in
  exists phi : N.-tuple (Fr E) -> N.-tuple (Fr E), bijective phi /\
  forall (R R' : ark_rng A) (s : ark_rst R) (z : ark_rst R') (u : N.-tuple (Fr E)),
    ark_draws N s = u -> ark_draws N z = phi u ->
    seen (@ark_public_system _ A) (ark_prove_system sch fs w d s) = seen (@ark_public_system _ A) (ark_prove_system sch' fs w' d z).
Proof.
move=> hb hn hc1 hc2 vs vs' k1 k2 hq hv hv' hK hh hp hz hwf H H' N.
have [phi [bphi W]] := system_wi vs vs' hb hn hc1 hc2 hp hh hz hwf H H'.
exists phi; split=> // R R' s z u es ez.
have e : draws N (z : rst (scalars_of 0 0 R')) = phi (draws N (s : rst (scalars_of 0 0 R))).
  by apply/val_inj; rewrite /= -ark_drawsE ez; congr (tval (phi _)); apply/val_inj; rewrite /= -es (ark_drawsE 0 0).
have := W _ _ _ _ e.
move: (rprove_system (@scalars_of_alike E A 0 0 R) sch hq hv hK (erefl s)).
move: (rprove_system (@scalars_of_alike E A 0 0 R') sch' hq hv' hK (erefl z)).
case: (prove_system sch qs v crs _) => [[p s1]|e1]; case: (prove_system sch' qs v' crs _) => [[p' s1']|e1'] //=;
case: (ark_prove_system sch fs w d _) => [[a t1]|e2] //=; case: (ark_prove_system sch' fs w' d _) => [[a' t1']|e2'] //=.
- by move=> [ha' _] [ha _] ee; rewrite (rsystem_canon k1 k2 ha ha' (Ok_inj ee)).
- by move=> <- <- [->].
Qed.
End Systems.

(** Sessions, for any relation of the answers. *)
Lemma rsession (E : pairing) (A : ark (Fr E)) (T T' V V' : Type) (RT : T -> T' -> Prop) (RV : V -> V' -> Prop)
  (pr : seq V -> forall R : rng E, rst R -> res (T * rst R)) (pr' : seq V' -> forall R : ark_rng A, ark_rst R -> res (T' * ark_rst R))
  (vw : seq V -> T -> V) (vw' : seq V' -> T' -> V') (R : rng E) (R' : ark_rng A) (rs : rst R -> ark_rst R' -> Prop) :
  (forall h g s t, rseq RV h g -> rs s t -> rres (rpair RT rs) (pr h R s) (pr' g R' t)) ->
  (forall h g p q, rseq RV h g -> RT p q -> RV (vw h p) (vw' g q)) ->
  forall k h g s t, rseq RV h g -> rs s t -> rres (rpair (rseq RV) rs) (session pr vw k h s) (ark_session pr' vw' k g t).
Proof.
move=> hp hv; elim=> [|k IH] h g s t hh hs //=.
apply: rbind (hp _ _ _ _ hh hs) _ => -[p s1] [q t1] [/= h1 h2].
by apply: IH => //; apply: rrcons => //; apply: hv.
Qed.

Section Image.
Context {F : finFieldType} {G H T : lmodType F} {e : G -> H -> T} {A : ark F}.
Local Notation E := (Pairing e).
Context {r1 : repr (G1 E) (C1 A)} {r2 : repr (G2 E) (C2 A)} {rt : GT E -> out A -> Prop}.
Context {f1 : G -> aff (C1 A)} {f2 : H -> aff (C2 A)} {ft : T -> out A}.
Hypothesis I : faithful e r1 r2 rt f1 f2 ft.
Let J : implements (E := E) r1 r2 rt := ff_impl I.
Local Notation img_crs := (@img_crs F G H T e A f1 f2 ft).
Local Notation img1 := (@img1 F G H T e A f1).
Local Notation img2 := (@img2 F G H T e A f2).
Local Notation rQ := (reqn (E := E) r1 r2 rt).
Local Notation rV := (rassign (E := E) r1 r2).
Local Notation rC := (rcoms4 (E := E) r1 r2).
Local Notation rP := (requproof (E := E) r1 r2).
Local Notation rG := (rform (E := E) r1 r2).

Definition img_ans (a : answer (E := E)) : ark_answer A :=
  let: (x1, x2, y1, y2, ps) := a in
  (map img1 x1, map img1 x2, map img2 y1, map img2 y2, [seq (map img2 f.1.1, map img1 f.1.2, f.2) | f <- ps]).
Definition is_ans (a : answer (E := E)) (b : ark_answer A) : Prop := b = img_ans a.

Lemma rsystem_img p q : rpair rC (rseq rP) p q -> is_ans (public_system p) (ark_public_system q).
Proof.
case=> -[[h1 _] [h2 _] [h3 _] [h4 _]] h5; rewrite /is_ans /ark_public_system /public_system /=.
move: h1 h2 h3 h4 => /(rseq_map _ _ (rcom1_img I)) -> /(rseq_map _ _ (rcom1_img I)) -> /(rseq_map _ _ (rcom2_img I)) -> /(rseq_map _ _ (rcom2_img I)) ->.
congr (_, _); elim: p.2 q.2 h5 => [|x s IH] [|y t] //= [[k1 k2 k3 _] /IH ->].
move: k1 k2 => /(rseq_map _ _ (rcom2_img I)) -> /(rseq_map _ _ (rcom1_img I)) ->.
by rewrite k3.
Qed.
Lemma rans_img h g : rseq is_ans h g <-> g = map img_ans h.
Proof. by apply: rseq_map. Qed.

Definition img_session_test {W : Type} (D : W -> ark_CRS A -> pred (res _)) (w : W) (c : CRS E) : pred (res _) :=
  fun v => D w (img_crs c) (img_res (map img_ans) v).
Lemma seen_img (S S' : Type) (rs : S -> S' -> Prop) r q :
  rres (rpair (rseq is_ans) rs) r q -> seen id q = img_res (map img_ans) (seen id r).
Proof. by case: r q => [[p s]|x] [[q s']|y] //= => [[/= /rans_img -> _]|<-]. Qed.

Lemma rprover sch k (qs : seq (ark_answer A) -> seq (eqn E)) fs (v : seq (ark_answer A) -> assign E) w c (t : seq F) :
  (forall h, rseq rQ (qs h) (fs h) /\ rV (v h) (w h)) ->
  rres (rpair (rseq is_ans) eq) (prover sch k (fun h => qs (map img_ans h)) (fun h => v (map img_ans h)) c (R := tape_rng) t)
    (ark_prover sch k fs w (img_crs c) (R := ark_tape) t).
Proof.
move=> hrel; rewrite /prover /ark_prover.
apply: (@rsession E A _ _ _ _ (rpair rC (rseq rP)) is_ans _ _ _ _ tape_rng ark_tape eq) => //.
- move=> h g s z /rans_img -> hs; have [hq hv] := hrel (map img_ans h).
  exact: (rprove_system J (tapes_alike (e := e)) sch hq hv (proj2 (rcrs_img I c _) erefl) hs).
- by move=> h g p q _; apply: rsystem_img.
Qed.

Lemma rcorrect_pf dp dt dp' dt' f g : rseq (rcom r2) dp dp' -> rseq (rcom r1) dt dt' -> rP f g ->
  rP (correct_pf dp dt f) (ark_correct_pf dp' dt' g).
Proof.
move=> h1 h2 [g1 g2 g3 g4]; split=> //=; first exact: (radds (ok_C2 J)).
exact: (radds (ok_C1 J)).
Qed.
Lemma rfix_dp t1 t2 c d q f g g' : rcrs r1 r2 rt c d -> rQ q f -> rG g g' -> rseq (rcom r2) (fix_dp t1 t2 c q g) (ark_fix_dp t1 t2 d f g').
Proof.
case: g g' => [k l P Q] [k' l' P' Q'] [_ hv _ _ _] hq [/= <- <- hP hQ]; case: q f hq => q [] f //= hq.
- split; first exact: (rminus_times _ (ok_C2 J)).
  by split=> //; exact: (rtimes _ (ok_C2 J)).
- by case: hq => _ _ _ h; split=> //; exact: (rminus_times _ (ok_C2 J)).
- case: hq => _ _ _ h; split=> //; rewrite -h.
  apply: (rcom_neg (ok_C2 J)); apply: (rcom_scalar_mul (ok_C2 J)); apply: rnth hv; exact: (rcom_zero (ok_C2 J)).
Qed.
Lemma rfix_dt t1 t2 q f g g' : rQ q f -> rG g g' -> rseq (rcom r1) (fix_dt t1 t2 q g) (ark_fix_dt t1 t2 f g').
Proof.
case: g g' => [k l P Q] [k' l' P' Q'] hq [/= <- <- hP hQ]; case: q f hq => q [] f //= hq.
- split; first exact: (rminus_times _ (ok_C1 J)).
  by split=> //; exact: (rtimes _ (ok_C1 J)).
- by case: hq => _ _ _ h; split=> //; exact: (rminus_times _ (ok_C1 J)).
Qed.
Lemma rfix_system t1 t2 c d qs fs p q : rcrs r1 r2 rt c d -> rseq (rpair rQ rG) qs fs -> rpair rC (rseq rP) p q ->
  rpair rC (rseq rP) (fix_system t1 t2 c qs p) (ark_fix_system t1 t2 d fs q).
Proof.
move=> hK hq [h1 h2]; split=> //=; elim: qs fs hq p.2 q.2 h2 => [|[x g] qs IH] [|[y g'] fs] //= [[hx hg] hq] [|p1 ps] [|q1 qs'] //= [k1 k2].
split; last exact: IH.
apply: rcorrect_pf k1; [exact: rfix_dp | exact: rfix_dt].
Qed.
Lemma rzero_assign v w : rV v w -> rV (zero_assign v) (ark_zero_assign w).
Proof.
case=> h1 h2 h3 h4; rewrite /zero_assign /ark_zero_assign h2 h4 (rsize h1) (rsize h3); split=> //=; apply: rnseq.
  exact: (ok_aff_zero (ok_C1 J)).
exact: (ok_aff_zero (ok_C2 J)).
Qed.

Lemma rsimulator t1 t2 sch k (qs : seq (ark_answer A) -> seq (eqn E * gt_form E)) fs (v : seq (ark_answer A) -> assign E) w c (t : seq F) :
  (forall h, rseq (rpair rQ rG) (qs h) (fs h) /\ rV (v h) (w h)) ->
  rres (rpair (rseq is_ans) eq) (simulator (E := E) t1 t2 sch k (fun h => qs (map img_ans h)) (fun h => v (map img_ans h)) c (R := tape_rng) t)
    (ark_simulator t1 t2 sch k fs w (img_crs c) (R := ark_tape) t).
Proof.
move=> hrel; rewrite /simulator /ark_simulator; have hK := proj2 (rcrs_img I c _) erefl.
apply: (@rsession E A _ _ _ _ (rpair rC (rseq rP)) is_ans _ _ _ _ tape_rng ark_tape eq) => //.
- move=> h g s z /rans_img -> hs; have [hq hv] := hrel (map img_ans h).
  have hq' : rseq rQ [seq q.1 | q <- qs (map img_ans h)] [seq q.1 | q <- fs (map img_ans h)] by apply: rmap hq => x y [].
  exact: (rprove_system J (tapes_alike (e := e)) sch hq' (rzero_assign hv) hK hs).
- move=> h g p q /rans_img -> hp; have [hq hv] := hrel (map img_ans h).
  by apply: rsystem_img; apply: rfix_system.
Qed.

Section Comp.
Context {O1 O2 W : finType} {z1 : O1 -> G} {z2 : O2 -> H} {s1 : O1 -> prj (C1 A)} {s2 : O2 -> prj (C2 A)}.
Variables (D : W -> ark_CRS A -> pred (res (seq (ark_answer A)))) (sch sch' : sched) (k M N : nat).
Hypothesis hz1 : forall o, rp r1 (z1 o) (s1 o).
Hypothesis hz2 : forall o, rp r2 (z2 o) (s2 o).
Hypothesis hbl : bilinear E.
Hypothesis hnd : nondegenerate E.
Hypothesis hc1 : cyclic (G1 E).
Hypothesis hc2 : cyclic (G2 E).
Hypothesis vs : valid_sched sch.
Hypothesis vs' : valid_sched sch'.
Hypothesis hN : (k * M <= N)%N.

Lemma session_ark_comp_wi (qs : W -> ark_CRS A -> seq (ark_answer A) -> seq (eqn E)) fs (v v' : W -> ark_CRS A -> seq (ark_answer A) -> assign E) a a' :
  (forall w d h, [/\ rseq rQ (qs w d h) (fs w d h), rV (v w d h) (a w d h) & rV (v' w d h) (a' w d h)]) ->
  (forall w crs d h, rcrs r1 r2 rt crs d -> proper_crs crs -> (system_draws (qs w d h) (v w d h) <= M)%N) ->
  (forall w crs d h, rcrs r1 r2 rt crs d -> proper_crs crs -> [/\ same_sizes (v w d h) (v' w d h), every (fun q => eqn_wf q (v w d h)) (qs w d h),
     every (fun q => eqn_holds q (v w d h)) (qs w d h) & every (fun q => eqn_holds q (v' w d h)) (qs w d h)]) ->
  let B1 := ark_session_test (N := N) D (fun w d => ark_prover sch k (fs w d) (a w d) d) in
  let B2 := ark_session_test (N := N) D (fun w d => ark_prover sch' k (fs w d) (a' w d) d) in
  is_true (`|ark_game s1 s2 B1 - ark_game s1 s2 B2| <=
    (ark_ddh_adv s1 (ark_ddh1 s2 B1) + ark_ddh_adv s1 (ark_ddh2 s2 B1) + ark_ddh_adv s2 (ark_ddh3 s1 B1) + ark_ddh_adv s2 (ark_ddh4 s1 B1))
  + (ark_ddh_adv s1 (ark_ddh1 s2 B2) + ark_ddh_adv s1 (ark_ddh2 s2 B2) + ark_ddh_adv s2 (ark_ddh3 s1 B2) + ark_ddh_adv s2 (ark_ddh4 s1 B2))
  + ark_bad_point s1 s2).
Proof.
move=> hrel hM hst B1 B2.
pose q0 w c h := qs w (img_crs c) (map img_ans h).
pose v0 w c h := v w (img_crs c) (map img_ans h).
pose v0' w c h := v' w (img_crs c) (map img_ans h).
pose T1 := proof_test (N := N) (img_session_test D) id (fun w crs => prover sch k (q0 w crs) (v0 w crs) crs).
pose T2 := proof_test (N := N) (img_session_test D) id (fun w crs => prover sch' k (q0 w crs) (v0' w crs) crs).
have e1 x c : T1 x c = B1 x (img_crs c).
  rewrite /T1 /B1 /proof_test /ark_session_test /img_session_test; congr (D _ _ _); apply: esym.
  apply: (@seen_img _ _ eq); apply: rprover => h; by have [? ? _] := hrel x.1 (img_crs c) h.
have e2 x c : T2 x c = B2 x (img_crs c).
  rewrite /T2 /B2 /proof_test /ark_session_test /img_session_test; congr (D _ _ _); apply: esym.
  apply: (@seen_img _ _ eq); apply: rprover => h; by have [? _ ?] := hrel x.1 (img_crs c) h.
rewrite (img_game I hz1 hz2 e1) (img_game I hz1 hz2 e2) (img_bad I hz1 hz2).
apply: (le_sum3 (img_advs I hz1 hz2 e1) (img_advs I hz1 hz2 e2)).
apply: (adaptive_comp_wi_ddh (qs := q0) (v := v0) (v' := v0') z1 z2 (img_session_test D) hbl hnd hc1 hc2 vs vs' hN) => w c h hp.
- exact: hM (proj2 (rcrs_img I c _) erefl) hp.
- exact: hst (proj2 (rcrs_img I c _) erefl) hp.
Qed.

Lemma session_ark_comp_zk (qs : W -> ark_CRS A -> seq (ark_answer A) -> seq (eqn E * gt_form E)) fs (v : W -> ark_CRS A -> seq (ark_answer A) -> assign E) a :
  (forall w d h, rseq (rpair rQ rG) (qs w d h) (fs w d h) /\ rV (v w d h) (a w d h)) ->
  (forall w crs d h, rcrs r1 r2 rt crs d -> proper_crs crs -> (system_draws [seq q.1 | q <- qs w d h] (v w d h) <= M)%N) ->
  (forall w crs d h, rcrs r1 r2 rt crs d -> proper_crs crs -> [/\ every (fun q => eqn_wf q.1 (v w d h)) (qs w d h),
     every (fun q => eqn_holds q.1 (v w d h)) (qs w d h) & every (fun q => eqn_form crs q.1 q.2) (qs w d h)]) ->
  let B1 := ark_session_test (N := N) D (fun w d => ark_prover sch k (fun h => [seq q.1 | q <- fs w d h]) (a w d) d) in
  is_true (`|ark_game s1 s2 B1 - ark_sim_session N D s1 s2 (fun t1 t2 w d => ark_simulator t1 t2 sch' k (fs w d) (a w d) d)| <=
    (ark_ddh_adv s1 (ark_ddh1 s2 B1) + ark_ddh_adv s1 (ark_ddh2 s2 B1) + ark_ddh_adv s2 (ark_ddh3 s1 B1) + ark_ddh_adv s2 (ark_ddh4 s1 B1))
  + ark_bad_point s1 s2).
Proof.
move=> hrel hM hst B1.
pose q0 w c h := qs w (img_crs c) (map img_ans h).
pose v0 w c h := v w (img_crs c) (map img_ans h).
pose T1 := proof_test (N := N) (img_session_test D) id (fun w crs => prover sch k (fun h => [seq q.1 | q <- q0 w crs h]) (v0 w crs) crs).
have e1 x c : T1 x c = B1 x (img_crs c).
  rewrite /T1 /B1 /proof_test /ark_session_test /img_session_test; congr (D _ _ _); apply: esym.
  apply: (@seen_img _ _ eq); apply: (@rprover _ _ (fun h => [seq q.1 | q <- qs x.1 (img_crs c) h])) => h.
  have [hq hv] := hrel x.1 (img_crs c) h; split=> //; by apply: rmap hq => y y' [].
have e2 : ark_sim_session N D s1 s2 (fun t1 t2 w d => ark_simulator t1 t2 sch' k (fs w d) (a w d) d)
   = sim_session N (img_session_test D) z1 z2 (fun t1 t2 w crs => simulator (E := E) t1 t2 sch' k (q0 w crs) (v0 w crs) crs).
  apply: eq_Pr => -[[w t] [[o1 o2] [[[a1 a2] t1] t2]]].
  rewrite (img_sim_crs I a1 a2 t1 t2 (hz1 o1) (hz2 o2)) /img_session_test; congr (D w _ _).
  apply: (@seen_img _ _ eq); apply: rsimulator => h; exact: hrel.
rewrite (img_game I hz1 hz2 e1) e2 (img_bad I hz1 hz2).
apply: (le_sum2 (img_advs I hz1 hz2 e1)).
apply: (adaptive_comp_zk_ddh (qs := q0) (v := v0) z1 z2 (img_session_test D) hbl hnd hc1 hc2 vs vs' hN) => w c h hp.
- exact: hM (proj2 (rcrs_img I c _) erefl) hp.
- exact: hst (proj2 (rcrs_img I c _) erefl) hp.
Qed.
End Comp.
End Image.
