(** Consequences of [ArkLemmas.v] for any implementation of the groups. *)
From mathcomp Require Import all_ssreflect all_algebra.
From Verif Require Import Base Group DataStructures Generator Commit Statement Prove Verify Derived Spec SpecVerify SpecHide.
From Verif Require Import P_Complete P_Sound P_Hide Ark SpecArk ArkRel ArkLemmas.
Set Implicit Arguments.
Unset Strict Implicit.
Unset Printing Implicit Defensive.
Import GRing.Theory.
Local Open Scope ring_scope.

Section Transfer.
Context {E : pairing} {A : ark (Fr E)} {r1 : repr (G1 E) (C1 A)} {r2 : repr (G2 E) (C2 A)} {rt : GT E -> out A -> Prop}.
Hypothesis I : implements r1 r2 rt.
Local Notation rK := (rcrs r1 r2 rt).

(** The scalars of [R'], with any points. *)
Definition scalars_of (P1 : G1 E) (P2 : G2 E) (R' : ark_rng A) : rng E :=
  @Rng E (ark_rst R') (@ark_rand_fr _ _ R') (fun t => (P1, (ark_rand_g1 t).2)) (fun t => (P2, (ark_rand_g2 t).2)).

Lemma scalars_of_alike P1 P2 R' : scalars_alike (R := scalars_of P1 P2 R') (R' := R') eq.
Proof. by move=> s t ->; rewrite /scalars_of /=; case: (ark_rand_fr t). Qed.

Lemma repr_fun (F : fieldType) (G : lmodType F) (C : curve F) (r : repr G C) x y a : repr_ok r -> ra r x a -> ra r y a -> x = y.
Proof. by move=> K hx hy; apply/eqP; rewrite -(ok_aff_eq K hx hy) (ok_aff_eq K hx hx). Qed.

Lemma rcom_fun (F : fieldType) (G : lmodType F) (C : curve F) (r : repr G C) x y a : repr_ok r -> rcom r x a -> rcom r y a -> x = y.
Proof. by move=> K; case: x y => [x1 x2] [y1 y2] [/= h1 h2] [/= k1 k2]; rewrite (repr_fun K h1 k1) (repr_fun K h2 k2). Qed.

Lemma rcoms_fun (F : fieldType) (G : lmodType F) (C : curve F) (r : repr G C) s t u : repr_ok r ->
  rseq (rcom r) s u -> rseq (rcom r) t u -> s = t.
Proof.
move=> K; elim: s t u => [|x s IH] [|y t] [|z u] //= [h1 h2] [k1 k2].
by rewrite (rcom_fun K h1 k1) (IH _ _ h2 k2).
Qed.

Lemma rcoms_canon (F : fieldType) (G : lmodType F) (C : curve F) (r : repr G C) s t u : canonical r ->
  rseq (rcom r) s t -> rseq (rcom r) s u -> t = u.
Proof.
move=> K; elim: s t u => [|x s IH] [|y t] [|z u] //= [[h1 h2] h3] [[k1 k2] k3].
rewrite (IH _ _ h3 k3); congr (_ :: _); case: y z h1 h2 k1 k2 => [y1 y2] [z1 z2] /= h1 h2 k1 k2.
by rewrite (K _ _ _ h1 k1) (K _ _ _ h2 k2).
Qed.

Lemma scripted_crs P1 P2 R' (t : ark_rst R') :
  rp r1 P1 (ark_rand_g1 t).1 -> rp r2 P2 (ark_rand_g2 (ark_rand_g1 t).2).1 ->
  rpair rK eq (generate_crs (R := scalars_of P1 P2 R') t) (ark_generate_crs t).
Proof.
move=> h1 h2; have K1 := ok_C1 I; have K2 := ok_C2 I; rewrite /generate_crs /ark_generate_crs /=.
move: h1 h2; case: (ark_rand_g1 t) => p1 {}t /= h1; case: (ark_rand_g2 t) => p2 {}t /= h2.
case: (ark_rand_fr t) => a1 {}t; case: (ark_rand_fr t) => a2 {}t.
case: (ark_rand_fr t) => b1 {}t; case: (ark_rand_fr t) => b2 {}t.
have hq1 := ok_prj_mul K1 a1 h1; have hq2 := ok_prj_mul K2 a2 h2.
have hu1 := ok_prj_mul K1 b1 h1; have hu2 := ok_prj_mul K2 b2 h2.
have [/= hw1 hw2] := rprepare_real_binding_key I b1 b2 h1 h2 hq1 hq2.
have i1 := ok_into_affine K1; have i2 := ok_into_affine K2.
split=> //; split=> /=.
- by split; [split | split=> //; split]; apply: i1.
- by split; [split | split=> //; split]; apply: i2.
- exact: i1.
- exact: i2.
- by apply: (ok_pairing I); [apply: i1 | apply: i2].
Qed.

Lemma gen1 P1 P2 R' (t t' : rst (scalars_of P1 P2 R')) crs : generate_crs t = (crs, t') -> P1 != 0 -> g1_gen crs != 0.
Proof.
rewrite /generate_crs /=; case: (ark_rand_g1 _) => ? ? /=; case: (ark_rand_g2 _) => ? ? /=.
by do 4 (case: (ark_rand_fr _) => ? ? /=); case=> <- _.
Qed.
Lemma gen2 P1 P2 R' (t t' : rst (scalars_of P1 P2 R')) crs : generate_crs t = (crs, t') -> P2 != 0 -> g2_gen crs != 0.
Proof.
rewrite /generate_crs /=; case: (ark_rand_g1 _) => ? ? /=; case: (ark_rand_g2 _) => ? ? /=.
by do 4 (case: (ark_rand_fr _) => ? ? /=); case=> <- _.
Qed.

Lemma ark_drawsE P1 P2 R' n (t : ark_rst R') : ark_draws n t = draws (E := E) n (t : rst (scalars_of P1 P2 R')).
Proof.
rewrite /draws /=; transitivity (mkseq (drawn (t : rst (scalars_of P1 P2 R'))) n); last first.
  by rewrite /mkseq -val_enum_ord -map_comp.
elim: n t => [|n IH] t //; rewrite [LHS]/= IH; apply: (@eq_from_nth _ 0); rewrite /= ?size_map ?size_iota //.
case=> [|i] hi /=; rewrite ?nth_mkseq //.
by rewrite (nth_map 0%N) ?size_iota // nth_iota // /drawn /after add1n iterSr.
Qed.

Lemma Ok_inj T (x y : T) : Ok x = Ok y -> x = y.
Proof. by case. Qed.

Lemma rpublic p q : rcproof r1 r2 p q ->
  [/\ rseq (rcom r1) (coms (xcoms p)) (ark_coms (ark_xcoms q)), rseq (rcom r2) (coms (ycoms p)) (ark_coms (ark_ycoms q))
    & rseq (fun f g => [/\ rseq (rcom r2) f.1.1 g.1.1, rseq (rcom r1) f.1.2 g.1.2 & f.2 = g.2])
        [seq (pi f, theta f, equ_type f) | f <- equ_proofs p] (ark_public q).2].
Proof. by case=> -[hx _] [hy _] hp; split=> //; apply: rmap hp => f g [h1 h2 h3 _]. Qed.

Lemma rpublic_eq p p' q q' : canonical r1 -> canonical r2 -> rcproof r1 r2 p q -> rcproof r1 r2 p' q' ->
  public p = public p' -> ark_public q = ark_public q'.
Proof.
move=> k1 k2 /rpublic [h1 h2 h3] /rpublic [h1' h2' h3'] [e1 e2 e3].
rewrite /ark_public; congr (_, _, _).
- by apply: (rcoms_canon k1 h1); rewrite e1.
- by apply: (rcoms_canon k2 h2); rewrite e2.
- move: h3 h3'; rewrite e3 /ark_public /=.
  elim: [seq _ | f <- equ_proofs p'] [seq _ | f <- ark_equ_proofs q] [seq _ | f <- ark_equ_proofs q'] => [|x s IH] [|y t] [|z u] //=.
  case=> -[g1 g2 g3] g4 [[j1 j2 j3] j4]; rewrite (IH _ _ g4 j4); congr (_ :: _).
  case: y z g1 g2 g3 j1 j2 j3 {g4 j4 IH} => [[y1 y2] y3] [[z1 z2] z3] /= g1 g2 g3 j1 j2 j3.
  by rewrite (rcoms_canon k2 g1 j1) (rcoms_canon k1 g2 j2) -g3 -j3.
Qed.

Lemma ppe_ark_decides (R' : ark_rng A) sch sch' (q : PPE E) f (X : seq (G1 E)) (Y : seq (G2 E)) a b crs d (t : ark_rst R') :
  bilinear E -> valid_sched sch -> valid_sched sch' -> rppe r1 r2 rt q f -> rseq (ra r1) X a -> rseq (ra r2) Y b -> rK crs d ->
  (0 < size X)%N -> (0 < size Y)%N -> ppe_wf q (size X) (size Y) -> two_keys crs -> 
  exists p t' o, [/\ ark_ppe_commit_and_prove sch f a b d t = Ok (p, t'),
    ark_ppe_verify sch' f p d = Ok o & o <-> ppe_holds q X Y].
Proof.
move=> hb vs vs' hq hx hy hK sx sy hwf htk .
pose R := scalars_of 0 0 R'.
have [p [s' [o [h1 h2 h3]]]] := @C09_ppe_decides E R sch sch' q X Y crs t hb vs vs' sx sy hwf htk .
move: (rppe_commit_and_prove I (@scalars_of_alike 0 0 R') sch hq hx hy hK (erefl t)).
rewrite h1; case h : (ark_ppe_commit_and_prove _ _ _ _ _ _) => [[p' t']|e] //= -[hp _].
by exists p', t', o; split=> //; rewrite (rppe_verify I sch' hq hp hK).
Qed.

Lemma ppe_ark_wi sch sch' (q : PPE E) f (X : seq (G1 E)) (Y : seq (G2 E)) a b (X' : seq (G1 E)) (Y' : seq (G2 E)) a' b' crs d :
  bilinear E -> nondegenerate E -> cyclic (G1 E) -> cyclic (G2 E) -> valid_sched sch -> valid_sched sch' ->
  canonical r1 -> canonical r2 -> rppe r1 r2 rt q f -> rseq (ra r1) X a -> rseq (ra r2) Y b -> rseq (ra r1) X' a' -> rseq (ra r2) Y' b' -> rK crs d ->
  hiding_crs crs -> proper_crs crs ->
  (0 < size X)%N -> (0 < size Y)%N -> ppe_wf q (size X) (size Y) -> size X' = size X -> size Y' = size Y ->
  ppe_holds q X Y -> ppe_holds q X' Y' ->
  let N := (2 * size X + (2 * size Y + 4))%N in
  exists phi : N.-tuple (Fr E) -> N.-tuple (Fr E), bijective phi /\
  forall (R R' : ark_rng A) (s : ark_rst R) (z : ark_rst R') (u : N.-tuple (Fr E)),
    ark_draws N s = u -> ark_draws N z = phi u ->
    ark_seen (ark_ppe_commit_and_prove sch f a b d s) = ark_seen (ark_ppe_commit_and_prove sch' f a' b' d z).
Proof.
move=> hb hn hc1 hc2 vs vs' k1 k2 hq hx hy hx' hy' hK hh hp sx sy hwf sx' sy' H H' N.
have [phi [bphi W]] := @C13_ppe E sch sch' q X X' Y Y' crs hb hn hc1 hc2 vs vs' hh hp sx sy hwf sx' sy' H H'.
exists phi; split=> // R R' s z u es ez.
have e : draws N (z : rst (scalars_of 0 0 R')) = phi (draws N (s : rst (scalars_of 0 0 R))).
  by apply/val_inj; rewrite /= -ark_drawsE ez; congr (tval (phi _)); apply/val_inj; rewrite /= -es (ark_drawsE 0 0).
have := W _ _ _ _ e.
move: (rppe_commit_and_prove I (@scalars_of_alike 0 0 R) sch hq hx hy hK (erefl s)).
move: (rppe_commit_and_prove I (@scalars_of_alike 0 0 R') sch' hq hx' hy' hK (erefl z)).
case: (ppe_commit_and_prove sch q X Y crs _) => [[p s1]|e1]; case: (ppe_commit_and_prove sch' q X' Y' crs _) => [[p' s1']|e1'] //=;
case: (ark_ppe_commit_and_prove sch f a b d _) => [[w t1]|e2] //=; case: (ark_ppe_commit_and_prove sch' f a' b' d _) => [[w' t1']|e2'] //=.
- by move=> [hw' _] [hw _] ee; rewrite (rpublic_eq k1 k2 hw hw' (Ok_inj ee)).
- by move=> <- <- [->].
Qed.

Lemma ppe_ark_sound (R' : ark_rng A) sch (t t' : ark_rst R') d P1 P2 :
  bilinear E -> valid_sched sch -> ark_generate_crs t = (d, t') ->
  rp r1 P1 (ark_rand_g1 t).1 -> rp r2 P2 (ark_rand_g2 (ark_rand_g1 t).2).1 -> 
  exists (ex1 : Com1 E -> G1 E) (ex2 : Com2 E -> G2 E),
  [/\ forall (R2 : ark_rng A) X a (z z' : ark_rst R2) c c', rseq (ra r1) X a -> ark_batch_commit_G1 a d z = Ok (c', z') ->
        rseq (rcom r1) c (ark_coms c') -> map ex1 c = X,
      forall (R2 : ark_rng A) Y b (z z' : ark_rst R2) c c', rseq (ra r2) Y b -> ark_batch_commit_G2 b d z = Ok (c', z') ->
        rseq (rcom r2) c (ark_coms c') -> map ex2 c = Y
    & forall q f p p', rppe r1 r2 rt q f -> rcproof r1 r2 p p' -> ark_ppe_verify sch f p' d = Ok true ->
        ppe_holds q (map ex1 (coms (xcoms p))) (map ex2 (coms (ycoms p)))].
Proof.
move=> hb vs hd h1 h2 ; move: (scripted_crs h1 h2); rewrite hd.
case hg : (generate_crs _) => [crs t''] [/= hK _].
have [ex1 [ex2 [_ hX _ hY hv]]] := @C05_ppe_soundness E (scalars_of P1 P2 R') sch t t'' crs hb vs hg .
exists ex1, ex2; split.
- move=> R2 X a z z' c c' hr hc hcc.
  move: (rbatch_commit_G1 I (@scalars_of_alike 0 0 R2) hr hK (erefl z)).
  rewrite hc; case hm : (batch_commit_G1 _ _ _) => [[m z1]|e] //= -[[hm1 _] _].
  by rewrite (rcoms_fun (ok_C1 I) hcc hm1) (hX _ _ _ _ _ hm).
- move=> R2 Y b z z' c c' hr hc hcc.
  move: (rbatch_commit_G2 I (@scalars_of_alike 0 0 R2) hr hK (erefl z)).
  rewrite hc; case hm : (batch_commit_G2 _ _ _) => [[m z1]|e] //= -[[hm1 _] _].
  by rewrite (rcoms_fun (ok_C2 I) hcc hm1) (hY _ _ _ _ _ hm).
- by move=> q f p p' hq hp; rewrite (rppe_verify I sch hq hp hK) => /hv.
Qed.

Lemma ms1_ark_decides (R' : ark_rng A) sch sch' (q : MSMEG1 E) f (X : seq (G1 E)) (Y : seq (Fr E)) a crs d (t : ark_rst R') :
  bilinear E -> nondegenerate E -> valid_sched sch -> valid_sched sch' -> rms1 r1 q f -> rseq (ra r1) X a -> rK crs d ->
  (0 < size X)%N -> (0 < size Y)%N -> ms1_wf q (size X) (size Y) -> two_keys crs -> v2 crs + (0, g2_gen crs) != 0 ->
  exists p t' o, [/\ ark_ms1_commit_and_prove sch f a Y d t = Ok (p, t'),
    ark_ms1_verify sch' f p d = Ok o & o <-> ms1_holds q X Y].
Proof.
move=> hb hn vs vs' hq hx hK sx sy hwf htk k1.
pose R := scalars_of 0 0 R'.
have [p [s' [o [h1 h2 h3]]]] := @C09_ms1_decides E R sch sch' q X Y crs t hb hn vs vs' sx sy hwf htk k1.
move: (rms1_commit_and_prove I (@scalars_of_alike 0 0 R') sch Y hq hx hK (erefl t)).
rewrite h1; case h : (ark_ms1_commit_and_prove _ _ _ _ _ _) => [[p' t']|e] //= -[hp _].
by exists p', t', o; split=> //; rewrite (rms1_verify I sch' hq hp hK).
Qed.

Lemma ms1_ark_wi sch sch' (q : MSMEG1 E) f (X : seq (G1 E)) (Y : seq (Fr E)) a (X' : seq (G1 E)) (Y' : seq (Fr E)) a' crs d :
  bilinear E -> nondegenerate E -> cyclic (G1 E) -> cyclic (G2 E) -> valid_sched sch -> valid_sched sch' ->
  canonical r1 -> canonical r2 -> rms1 r1 q f -> rseq (ra r1) X a -> rseq (ra r1) X' a' -> rK crs d ->
  hiding_crs crs -> proper_crs crs ->
  (0 < size X)%N -> (0 < size Y)%N -> ms1_wf q (size X) (size Y) -> size X' = size X -> size Y' = size Y ->
  ms1_holds q X Y -> ms1_holds q X' Y' ->
  let N := (2 * size X + (size Y + 2))%N in
  exists phi : N.-tuple (Fr E) -> N.-tuple (Fr E), bijective phi /\
  forall (R R' : ark_rng A) (s : ark_rst R) (z : ark_rst R') (u : N.-tuple (Fr E)),
    ark_draws N s = u -> ark_draws N z = phi u ->
    ark_seen (ark_ms1_commit_and_prove sch f a Y d s) = ark_seen (ark_ms1_commit_and_prove sch' f a' Y' d z).
Proof.
move=> hb hn hc1 hc2 vs vs' k1 k2 hq hx hx' hK hh hp sx sy hwf sx' sy' H H' N.
have [phi [bphi W]] := @C13_ms1 E sch sch' q X X' Y Y' crs hb hn hc1 hc2 vs vs' hh hp sx sy hwf sx' sy' H H'.
exists phi; split=> // R R' s z u es ez.
have e : draws N (z : rst (scalars_of 0 0 R')) = phi (draws N (s : rst (scalars_of 0 0 R))).
  by apply/val_inj; rewrite /= -ark_drawsE ez; congr (tval (phi _)); apply/val_inj; rewrite /= -es (ark_drawsE 0 0).
have := W _ _ _ _ e.
move: (rms1_commit_and_prove I (@scalars_of_alike 0 0 R) sch Y hq hx hK (erefl s)).
move: (rms1_commit_and_prove I (@scalars_of_alike 0 0 R') sch' Y' hq hx' hK (erefl z)).
case: (ms1_commit_and_prove sch q X Y crs _) => [[p s1]|e1]; case: (ms1_commit_and_prove sch' q X' Y' crs _) => [[p' s1']|e1'] //=;
case: (ark_ms1_commit_and_prove sch f a Y d _) => [[w t1]|e2] //=; case: (ark_ms1_commit_and_prove sch' f a' Y' d _) => [[w' t1']|e2'] //=.
- by move=> [hw' _] [hw _] ee; rewrite (rpublic_eq k1 k2 hw hw' (Ok_inj ee)).
- by move=> <- <- [->].
Qed.

Lemma ms1_ark_sound (R' : ark_rng A) sch (t t' : ark_rst R') d P1 P2 :
  bilinear E -> valid_sched sch -> ark_generate_crs t = (d, t') ->
  rp r1 P1 (ark_rand_g1 t).1 -> rp r2 P2 (ark_rand_g2 (ark_rand_g1 t).2).1 -> nondegenerate E -> cyclic (G2 E) -> P2 != 0 -> 
  exists (ex1 : Com1 E -> G1 E) (ex2 : Com2 E -> Fr E),
  [/\ forall (R2 : ark_rng A) X a (z z' : ark_rst R2) c c', rseq (ra r1) X a -> ark_batch_commit_G1 a d z = Ok (c', z') ->
        rseq (rcom r1) c (ark_coms c') -> map ex1 c = X,
      forall (R2 : ark_rng A) Y (z z' : ark_rst R2) c c', ark_batch_commit_scalar_to_B2 Y d z = Ok (c', z') ->
        rseq (rcom r2) c (ark_coms c') -> map ex2 c = Y
    & forall q f p p', rms1 r1 q f -> rcproof r1 r2 p p' -> ark_ms1_verify sch f p' d = Ok true ->
        ms1_holds q (map ex1 (coms (xcoms p))) (map ex2 (coms (ycoms p)))].
Proof.
move=> hb vs hd h1 h2 hn hc2 hP2; move: (scripted_crs h1 h2); rewrite hd.
case hg : (generate_crs _) => [crs t''] [/= hK _].
have [ex1 [ex2 [_ hX _ hY hv]]] := @C06_ms1_soundness E (scalars_of P1 P2 R') sch t t'' crs hb vs hg hn hc2 (gen2 hg hP2).
exists ex1, ex2; split.
- move=> R2 X a z z' c c' hr hc hcc.
  move: (rbatch_commit_G1 I (@scalars_of_alike 0 0 R2) hr hK (erefl z)).
  rewrite hc; case hm : (batch_commit_G1 _ _ _) => [[m z1]|e] //= -[[hm1 _] _].
  by rewrite (rcoms_fun (ok_C1 I) hcc hm1) (hX _ _ _ _ _ hm).
- move=> R2 Y z z' c c' hc hcc.
  move: (rbatch_commit_scalar_to_B2 I (@scalars_of_alike 0 0 R2) Y hK (erefl z)).
  rewrite hc; case hm : (batch_commit_scalar_to_B2 _ _ _) => [[m z1]|e] //= -[[hm1 _] _].
  by rewrite (rcoms_fun (ok_C2 I) hcc hm1) (hY _ _ _ _ _ hm).
- by move=> q f p p' hq hp; rewrite (rms1_verify I sch hq hp hK) => /hv.
Qed.

Lemma ms2_ark_decides (R' : ark_rng A) sch sch' (q : MSMEG2 E) f (X : seq (Fr E)) (Y : seq (G2 E)) b crs d (t : ark_rst R') :
  bilinear E -> nondegenerate E -> valid_sched sch -> valid_sched sch' -> rms2 r2 q f -> rseq (ra r2) Y b -> rK crs d ->
  (0 < size X)%N -> (0 < size Y)%N -> ms2_wf q (size X) (size Y) -> two_keys crs -> u2 crs + (0, g1_gen crs) != 0 ->
  exists p t' o, [/\ ark_ms2_commit_and_prove sch f X b d t = Ok (p, t'),
    ark_ms2_verify sch' f p d = Ok o & o <-> ms2_holds q X Y].
Proof.
move=> hb hn vs vs' hq hy hK sx sy hwf htk k1.
pose R := scalars_of 0 0 R'.
have [p [s' [o [h1 h2 h3]]]] := @C09_ms2_decides E R sch sch' q X Y crs t hb hn vs vs' sx sy hwf htk k1.
move: (rms2_commit_and_prove I (@scalars_of_alike 0 0 R') sch X hq hy hK (erefl t)).
rewrite h1; case h : (ark_ms2_commit_and_prove _ _ _ _ _ _) => [[p' t']|e] //= -[hp _].
by exists p', t', o; split=> //; rewrite (rms2_verify I sch' hq hp hK).
Qed.

Lemma ms2_ark_wi sch sch' (q : MSMEG2 E) f (X : seq (Fr E)) (Y : seq (G2 E)) b (X' : seq (Fr E)) (Y' : seq (G2 E)) b' crs d :
  bilinear E -> nondegenerate E -> cyclic (G1 E) -> cyclic (G2 E) -> valid_sched sch -> valid_sched sch' ->
  canonical r1 -> canonical r2 -> rms2 r2 q f -> rseq (ra r2) Y b -> rseq (ra r2) Y' b' -> rK crs d ->
  hiding_crs crs -> proper_crs crs ->
  (0 < size X)%N -> (0 < size Y)%N -> ms2_wf q (size X) (size Y) -> size X' = size X -> size Y' = size Y ->
  ms2_holds q X Y -> ms2_holds q X' Y' ->
  let N := (size X + (2 * size Y + 2))%N in
  exists phi : N.-tuple (Fr E) -> N.-tuple (Fr E), bijective phi /\
  forall (R R' : ark_rng A) (s : ark_rst R) (z : ark_rst R') (u : N.-tuple (Fr E)),
    ark_draws N s = u -> ark_draws N z = phi u ->
    ark_seen (ark_ms2_commit_and_prove sch f X b d s) = ark_seen (ark_ms2_commit_and_prove sch' f X' b' d z).
Proof.
move=> hb hn hc1 hc2 vs vs' k1 k2 hq hy hy' hK hh hp sx sy hwf sx' sy' H H' N.
have [phi [bphi W]] := @C13_ms2 E sch sch' q X X' Y Y' crs hb hn hc1 hc2 vs vs' hh hp sx sy hwf sx' sy' H H'.
exists phi; split=> // R R' s z u es ez.
have e : draws N (z : rst (scalars_of 0 0 R')) = phi (draws N (s : rst (scalars_of 0 0 R))).
  by apply/val_inj; rewrite /= -ark_drawsE ez; congr (tval (phi _)); apply/val_inj; rewrite /= -es (ark_drawsE 0 0).
have := W _ _ _ _ e.
move: (rms2_commit_and_prove I (@scalars_of_alike 0 0 R) sch X hq hy hK (erefl s)).
move: (rms2_commit_and_prove I (@scalars_of_alike 0 0 R') sch' X' hq hy' hK (erefl z)).
case: (ms2_commit_and_prove sch q X Y crs _) => [[p s1]|e1]; case: (ms2_commit_and_prove sch' q X' Y' crs _) => [[p' s1']|e1'] //=;
case: (ark_ms2_commit_and_prove sch f X b d _) => [[w t1]|e2] //=; case: (ark_ms2_commit_and_prove sch' f X' b' d _) => [[w' t1']|e2'] //=.
- by move=> [hw' _] [hw _] ee; rewrite (rpublic_eq k1 k2 hw hw' (Ok_inj ee)).
- by move=> <- <- [->].
Qed.

Lemma ms2_ark_sound (R' : ark_rng A) sch (t t' : ark_rst R') d P1 P2 :
  bilinear E -> valid_sched sch -> ark_generate_crs t = (d, t') ->
  rp r1 P1 (ark_rand_g1 t).1 -> rp r2 P2 (ark_rand_g2 (ark_rand_g1 t).2).1 -> nondegenerate E -> cyclic (G1 E) -> P1 != 0 -> 
  exists (ex1 : Com1 E -> Fr E) (ex2 : Com2 E -> G2 E),
  [/\ forall (R2 : ark_rng A) X (z z' : ark_rst R2) c c', ark_batch_commit_scalar_to_B1 X d z = Ok (c', z') ->
        rseq (rcom r1) c (ark_coms c') -> map ex1 c = X,
      forall (R2 : ark_rng A) Y b (z z' : ark_rst R2) c c', rseq (ra r2) Y b -> ark_batch_commit_G2 b d z = Ok (c', z') ->
        rseq (rcom r2) c (ark_coms c') -> map ex2 c = Y
    & forall q f p p', rms2 r2 q f -> rcproof r1 r2 p p' -> ark_ms2_verify sch f p' d = Ok true ->
        ms2_holds q (map ex1 (coms (xcoms p))) (map ex2 (coms (ycoms p)))].
Proof.
move=> hb vs hd h1 h2 hn hc1 hP1; move: (scripted_crs h1 h2); rewrite hd.
case hg : (generate_crs _) => [crs t''] [/= hK _].
have [ex1 [ex2 [_ hX _ hY hv]]] := @C07_ms2_soundness E (scalars_of P1 P2 R') sch t t'' crs hb vs hg hn hc1 (gen1 hg hP1).
exists ex1, ex2; split.
- move=> R2 X z z' c c' hc hcc.
  move: (rbatch_commit_scalar_to_B1 I (@scalars_of_alike 0 0 R2) X hK (erefl z)).
  rewrite hc; case hm : (batch_commit_scalar_to_B1 _ _ _) => [[m z1]|e] //= -[[hm1 _] _].
  by rewrite (rcoms_fun (ok_C1 I) hcc hm1) (hX _ _ _ _ _ hm).
- move=> R2 Y b z z' c c' hr hc hcc.
  move: (rbatch_commit_G2 I (@scalars_of_alike 0 0 R2) hr hK (erefl z)).
  rewrite hc; case hm : (batch_commit_G2 _ _ _) => [[m z1]|e] //= -[[hm1 _] _].
  by rewrite (rcoms_fun (ok_C2 I) hcc hm1) (hY _ _ _ _ _ hm).
- by move=> q f p p' hq hp; rewrite (rms2_verify I sch hq hp hK) => /hv.
Qed.

Lemma quad_ark_decides (R' : ark_rng A) sch sch' (q : QuadEqu E) f (X : seq (Fr E)) (Y : seq (Fr E)) crs d (t : ark_rst R') :
  bilinear E -> nondegenerate E -> valid_sched sch -> valid_sched sch' -> rquad q f -> rK crs d ->
  (0 < size X)%N -> (0 < size Y)%N -> quad_wf q (size X) (size Y) -> two_keys crs -> u2 crs + (0, g1_gen crs) != 0 -> v2 crs + (0, g2_gen crs) != 0 ->
  exists p t' o, [/\ ark_quad_commit_and_prove sch f X Y d t = Ok (p, t'),
    ark_quad_verify sch' f p d = Ok o & o <-> quad_holds q X Y].
Proof.
move=> hb hn vs vs' hq  hK sx sy hwf htk k1 k2.
pose R := scalars_of 0 0 R'.
have [p [s' [o [h1 h2 h3]]]] := @C09_quad_decides E R sch sch' q X Y crs t hb hn vs vs' sx sy hwf htk k1 k2.
move: (rquad_commit_and_prove I (@scalars_of_alike 0 0 R') sch X Y hq  hK (erefl t)).
rewrite h1; case h : (ark_quad_commit_and_prove _ _ _ _ _ _) => [[p' t']|e] //= -[hp _].
by exists p', t', o; split=> //; rewrite (rquad_verify I sch' hq hp hK).
Qed.

Lemma quad_ark_wi sch sch' (q : QuadEqu E) f (X : seq (Fr E)) (Y : seq (Fr E)) (X' : seq (Fr E)) (Y' : seq (Fr E)) crs d :
  bilinear E -> nondegenerate E -> cyclic (G1 E) -> cyclic (G2 E) -> valid_sched sch -> valid_sched sch' ->
  canonical r1 -> canonical r2 -> rquad q f -> rK crs d ->
  hiding_crs crs -> proper_crs crs ->
  (0 < size X)%N -> (0 < size Y)%N -> quad_wf q (size X) (size Y) -> size X' = size X -> size Y' = size Y ->
  quad_holds q X Y -> quad_holds q X' Y' ->
  let N := (size X + (size Y + 1))%N in
  exists phi : N.-tuple (Fr E) -> N.-tuple (Fr E), bijective phi /\
  forall (R R' : ark_rng A) (s : ark_rst R) (z : ark_rst R') (u : N.-tuple (Fr E)),
    ark_draws N s = u -> ark_draws N z = phi u ->
    ark_seen (ark_quad_commit_and_prove sch f X Y d s) = ark_seen (ark_quad_commit_and_prove sch' f X' Y' d z).
Proof.
move=> hb hn hc1 hc2 vs vs' k1 k2 hq   hK hh hp sx sy hwf sx' sy' H H' N.
have [phi [bphi W]] := @C13_quad E sch sch' q X X' Y Y' crs hb hn hc1 hc2 vs vs' hh hp sx sy hwf sx' sy' H H'.
exists phi; split=> // R R' s z u es ez.
have e : draws N (z : rst (scalars_of 0 0 R')) = phi (draws N (s : rst (scalars_of 0 0 R))).
  by apply/val_inj; rewrite /= -ark_drawsE ez; congr (tval (phi _)); apply/val_inj; rewrite /= -es (ark_drawsE 0 0).
have := W _ _ _ _ e.
move: (rquad_commit_and_prove I (@scalars_of_alike 0 0 R) sch X Y hq  hK (erefl s)).
move: (rquad_commit_and_prove I (@scalars_of_alike 0 0 R') sch' X' Y' hq  hK (erefl z)).
case: (quad_commit_and_prove sch q X Y crs _) => [[p s1]|e1]; case: (quad_commit_and_prove sch' q X' Y' crs _) => [[p' s1']|e1'] //=;
case: (ark_quad_commit_and_prove sch f X Y d _) => [[w t1]|e2] //=; case: (ark_quad_commit_and_prove sch' f X' Y' d _) => [[w' t1']|e2'] //=.
- by move=> [hw' _] [hw _] ee; rewrite (rpublic_eq k1 k2 hw hw' (Ok_inj ee)).
- by move=> <- <- [->].
Qed.

Lemma quad_ark_sound (R' : ark_rng A) sch (t t' : ark_rst R') d P1 P2 :
  bilinear E -> valid_sched sch -> ark_generate_crs t = (d, t') ->
  rp r1 P1 (ark_rand_g1 t).1 -> rp r2 P2 (ark_rand_g2 (ark_rand_g1 t).2).1 -> nondegenerate E -> cyclic (G1 E) -> cyclic (G2 E) -> P1 != 0 -> P2 != 0 -> 
  exists (ex1 : Com1 E -> Fr E) (ex2 : Com2 E -> Fr E),
  [/\ forall (R2 : ark_rng A) X (z z' : ark_rst R2) c c', ark_batch_commit_scalar_to_B1 X d z = Ok (c', z') ->
        rseq (rcom r1) c (ark_coms c') -> map ex1 c = X,
      forall (R2 : ark_rng A) Y (z z' : ark_rst R2) c c', ark_batch_commit_scalar_to_B2 Y d z = Ok (c', z') ->
        rseq (rcom r2) c (ark_coms c') -> map ex2 c = Y
    & forall q f p p', rquad q f -> rcproof r1 r2 p p' -> ark_quad_verify sch f p' d = Ok true ->
        quad_holds q (map ex1 (coms (xcoms p))) (map ex2 (coms (ycoms p)))].
Proof.
move=> hb vs hd h1 h2 hn hc1 hc2 hP1 hP2; move: (scripted_crs h1 h2); rewrite hd.
case hg : (generate_crs _) => [crs t''] [/= hK _].
have [ex1 [ex2 [_ hX _ hY hv]]] := @C08_quad_soundness E (scalars_of P1 P2 R') sch t t'' crs hb vs hg hn hc1 hc2 (gen1 hg hP1) (gen2 hg hP2).
exists ex1, ex2; split.
- move=> R2 X z z' c c' hc hcc.
  move: (rbatch_commit_scalar_to_B1 I (@scalars_of_alike 0 0 R2) X hK (erefl z)).
  rewrite hc; case hm : (batch_commit_scalar_to_B1 _ _ _) => [[m z1]|e] //= -[[hm1 _] _].
  by rewrite (rcoms_fun (ok_C1 I) hcc hm1) (hX _ _ _ _ _ hm).
- move=> R2 Y z z' c c' hc hcc.
  move: (rbatch_commit_scalar_to_B2 I (@scalars_of_alike 0 0 R2) Y hK (erefl z)).
  rewrite hc; case hm : (batch_commit_scalar_to_B2 _ _ _) => [[m z1]|e] //= -[[hm1 _] _].
  by rewrite (rcoms_fun (ok_C2 I) hcc hm1) (hY _ _ _ _ _ hm).
- by move=> q f p p' hq hp; rewrite (rquad_verify I sch hq hp hK) => /hv.
Qed.
End Transfer.
