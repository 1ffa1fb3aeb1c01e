(** C99: the same over affine and projective points. *)
From mathcomp Require Import all_ssreflect all_algebra.
From Verif Require Import Base Group DataStructures Generator Commit Statement Prove Verify Derived Spec SpecVerify SpecHide Draws.
From Verif Require Import SpecBij BijProps Ark SpecArk ArkRel ArkLemmas ArkTransfer SpecArkBij.
Set Implicit Arguments.
Unset Strict Implicit.
Unset Printing Implicit Defensive.
Import GRing.Theory.
Local Open Scope ring_scope.

Section ArkBij.
Context {E : pairing} {A : ark (Fr E)} {r1 : repr (G1 E) (C1 A)} {r2 : repr (G2 E) (C2 A)} {rt : GT E -> out A -> Prop}.
Hypothesis I : implements r1 r2 rt.
Local Notation rK := (rcrs r1 r2 rt).
Local Notation F := (Fr E).

Definition ark_tape : ark_rng A :=
  @ArkRng F A (seq F) (fun t => (head 0 t, behead t)) (fun t => (prj_zero (C1 A), t)) (fun t => (prj_zero (C2 A), t)).

Lemma ark_tape_draws n (t : seq F) : size t = n -> ark_draws n (t : ark_rst ark_tape) = t.
Proof. by elim: n t => [|n IH] [|x t] //= [h]; rewrite IH. Qed.

Lemma rpublic_fun p p' q q' : rcproof r1 r2 p q -> rcproof r1 r2 p' q' -> ark_public q = ark_public q' -> public p = public p'.
Proof.
have K1 := ok_C1 I; have K2 := ok_C2 I.
move=> /rpublic [h1 h2 h3] /rpublic [h1' h2' h3'] e.
have e1 : ark_coms (ark_xcoms q) = ark_coms (ark_xcoms q') := congr1 (fun z => z.1.1) e.
have e2 : ark_coms (ark_ycoms q) = ark_coms (ark_ycoms q') := congr1 (fun z => z.1.2) e.
rewrite /public; congr (_, _, _).
- by apply: (rcoms_fun K1 h1); rewrite e1.
- by apply: (rcoms_fun K2 h2); rewrite e2.
- move: h3 h3'; rewrite e.
  elim: [seq _ | f <- equ_proofs p] [seq _ | f <- equ_proofs p'] (ark_public q').2 => [|x s IH] [|y t] [|z u] //=.
  case=> -[g1 g2 g3] g4 [[j1 j2 j3] j4]; rewrite (IH _ _ g4 j4); congr (_ :: _).
  case: x y g1 g2 g3 j1 j2 j3 {g4 j4 IH} => [[y1 y2] y3] [[z1 z2] z3] /= g1 g2 g3 j1 j2 j3.
  by rewrite (rcoms_fun K2 g1 j1) (rcoms_fun K1 g2 j2) g3 j3.
Qed.

Lemma gives_ark N (f : forall R : rng E, rst R -> res (CProof E * rst R)) (g : forall R : ark_rng A, ark_rst R -> res (ark_CProof A * ark_rst R)) p p' :
  (forall (R : ark_rng A) (s : ark_rst R), rres (rpair (rcproof r1 r2) eq) (f (scalars_of 0 0 R) s) (g R s)) ->
  consumes N f -> canonical r1 -> canonical r2 -> rcproof r1 r2 p p' ->
  forall t : N.-tuple F, gives f p t <-> ark_gives g p' t.
Proof.
move=> hfg hc k1 k2 hp t; split=> [h R s es|h R s es].
  have e : draws N (s : rst (scalars_of 0 0 R)) = t by apply/val_inj; rewrite /= -es (ark_drawsE 0 0).
  move: (h _ _ e) (hfg R s); case: (f _ _) => [[c s1]|//] ee; case: (g R s) => [[w t1]|//] [/= hw _].
  by rewrite /ark_seen (rpublic_eq k1 k2 hw hp (Ok_inj ee)).
have et := ark_tape_draws (size_tuple t).
move: (h _ _ et) (hfg _ (tval t : ark_rst ark_tape)); case: (g _ _) => [[w t1]|//] ee.
case hf : (f _ _) => [[c s1]|//] [/= hw _]; have ec := rpublic_fun hw hp (Ok_inj ee).
have [_ hR] := hc _ _ _ _ hf.
have hs : same_draws N (tval t : rst (scalars_of 0 0 ark_tape)) s.
  move=> k hk; have -> : drawn s k = nth 0 t k by rewrite -es -[k]/(nat_of_ord (Ordinal hk)) -tnth_nth tnth_mktuple.
  have e : draws N (tval t : rst (scalars_of 0 0 ark_tape)) = t by apply/val_inj; rewrite /= -(ark_drawsE 0 0) et.
  by rewrite -[in RHS]e -[k]/(nat_of_ord (Ordinal hk)) -tnth_nth tnth_mktuple.
by rewrite (hR _ _ hs) /= ec.
Qed.

Lemma unique_iff (T : Type) (P Q : T -> Prop) : (forall t, P t <-> Q t) -> (exists! t, P t) <-> (exists! t, Q t).
Proof.
by move=> h; split=> -[t [/h ht U]]; exists t; split=> // t' /h; exact: U.
Qed.

Lemma k_C99_ppe_ark sch sch' (q : PPE E) f (X : seq (G1 E)) (Y : seq (G2 E)) a b crs d p p' (pf : EquProof E) :
  bilinear E -> nondegenerate E -> cyclic (G1 E) -> cyclic (G2 E) -> valid_sched sch -> valid_sched sch' ->
  canonical r1 -> canonical r2 -> rppe r1 r2 rt q f -> rseq (ra r1) X a -> rseq (ra r2) Y b -> rcrs r1 r2 rt crs d -> rcproof r1 r2 p p' ->
  hiding_crs crs -> proper_crs crs -> (0 < size X)%N -> (0 < size Y)%N -> ppe_wf q (size X) (size Y) -> ppe_holds q X Y ->
  size (coms (xcoms p)) = size X -> size (coms (ycoms p)) = size Y -> equ_proofs p = [:: pf] ->
  equ_type pf = PairingProduct -> size (pi pf) = 2%N -> size (theta pf) = 2%N ->
  (ark_ppe_verify sch' f p' d = Ok true <->
   exists! t : (2 * size X + (2 * size Y + 4)).-tuple (Fr E),
     ark_gives (fun R s => ark_ppe_commit_and_prove (R := R) sch f a b d s) p' t).
Proof.
move=> hb hn hc1 hc2 vs vs' k1 k2 hq hx hy hK hp hh hpr sx sy wf hold sx' sy' ep ety spi sth.
rewrite (rppe_verify I sch' hq hp hK) -(unique_iff (gives_ark (f := fun R s => ppe_commit_and_prove (R := R) sch q X Y crs s) _ _ k1 k2 hp)).
- exact: (k_C99_ppe hb hn hc1 hc2 vs vs' hh hpr sx sy wf hold sx' sy' ep ety spi sth).
- by move=> R s; exact: (rppe_commit_and_prove I (@scalars_of_alike _ _ 0 0 R) sch hq hx hy hK (erefl s)).
- exact: ppe_cap_draws.
Qed.

Lemma k_C99_ms1_ark sch sch' (q : MSMEG1 E) f (X : seq (G1 E)) (Y : seq (Fr E)) a crs d p p' (pf : EquProof E) :
  bilinear E -> nondegenerate E -> cyclic (G1 E) -> cyclic (G2 E) -> valid_sched sch -> valid_sched sch' ->
  canonical r1 -> canonical r2 -> rms1 r1 q f -> rseq (ra r1) X a -> rcrs r1 r2 rt crs d -> rcproof r1 r2 p p' ->
  hiding_crs crs -> proper_crs crs -> (0 < size X)%N -> (0 < size Y)%N -> ms1_wf q (size X) (size Y) -> ms1_holds q X Y ->
  size (coms (xcoms p)) = size X -> size (coms (ycoms p)) = size Y -> equ_proofs p = [:: pf] ->
  equ_type pf = MultiScalarG1 -> size (pi pf) = 2%N -> size (theta pf) = 1%N ->
  ([/\ ark_ms1_verify sch' f p' d = Ok true & multiples (v1 crs) (coms (ycoms p))] <->
   exists! t : (2 * size X + (size Y + 2)).-tuple (Fr E),
     ark_gives (fun R s => ark_ms1_commit_and_prove (R := R) sch f a Y d s) p' t).
Proof.
move=> hb hn hc1 hc2 vs vs' k1 k2 hq hx hK hp hh hpr sx sy wf hold sx' sy' ep ety spi sth.
rewrite (rms1_verify I sch' hq hp hK) -(unique_iff (gives_ark (f := fun R s => ms1_commit_and_prove (R := R) sch q X Y crs s) _ _ k1 k2 hp)).
- exact: (k_C99_ms1 hb hn hc1 hc2 vs vs' hh hpr sx sy wf hold sx' sy' ep ety spi sth).
- by move=> R s; exact: (rms1_commit_and_prove I (@scalars_of_alike _ _ 0 0 R) sch Y hq hx hK (erefl s)).
- exact: ms1_cap_draws.
Qed.

Lemma k_C99_ms2_ark sch sch' (q : MSMEG2 E) f (X : seq (Fr E)) (Y : seq (G2 E)) b crs d p p' (pf : EquProof E) :
  bilinear E -> nondegenerate E -> cyclic (G1 E) -> cyclic (G2 E) -> valid_sched sch -> valid_sched sch' ->
  canonical r1 -> canonical r2 -> rms2 r2 q f -> rseq (ra r2) Y b -> rcrs r1 r2 rt crs d -> rcproof r1 r2 p p' ->
  hiding_crs crs -> proper_crs crs -> (0 < size X)%N -> (0 < size Y)%N -> ms2_wf q (size X) (size Y) -> ms2_holds q X Y ->
  size (coms (xcoms p)) = size X -> size (coms (ycoms p)) = size Y -> equ_proofs p = [:: pf] ->
  equ_type pf = MultiScalarG2 -> size (pi pf) = 1%N -> size (theta pf) = 2%N ->
  ([/\ ark_ms2_verify sch' f p' d = Ok true & multiples (u1 crs) (coms (xcoms p))] <->
   exists! t : (size X + (2 * size Y + 2)).-tuple (Fr E),
     ark_gives (fun R s => ark_ms2_commit_and_prove (R := R) sch f X b d s) p' t).
Proof.
move=> hb hn hc1 hc2 vs vs' k1 k2 hq hy hK hp hh hpr sx sy wf hold sx' sy' ep ety spi sth.
rewrite (rms2_verify I sch' hq hp hK) -(unique_iff (gives_ark (f := fun R s => ms2_commit_and_prove (R := R) sch q X Y crs s) _ _ k1 k2 hp)).
- exact: (k_C99_ms2 hb hn hc1 hc2 vs vs' hh hpr sx sy wf hold sx' sy' ep ety spi sth).
- by move=> R s; exact: (rms2_commit_and_prove I (@scalars_of_alike _ _ 0 0 R) sch X hq hy hK (erefl s)).
- exact: ms2_cap_draws.
Qed.

Lemma k_C99_quad_ark sch sch' (q : QuadEqu E) f (X : seq (Fr E)) (Y : seq (Fr E)) crs d p p' (pf : EquProof E) :
  bilinear E -> nondegenerate E -> cyclic (G1 E) -> cyclic (G2 E) -> valid_sched sch -> valid_sched sch' ->
  canonical r1 -> canonical r2 -> rquad q f -> rcrs r1 r2 rt crs d -> rcproof r1 r2 p p' ->
  hiding_crs crs -> proper_crs crs -> (0 < size X)%N -> (0 < size Y)%N -> quad_wf q (size X) (size Y) -> quad_holds q X Y ->
  size (coms (xcoms p)) = size X -> size (coms (ycoms p)) = size Y -> equ_proofs p = [:: pf] ->
  equ_type pf = Quadratic -> size (pi pf) = 1%N -> size (theta pf) = 1%N ->
  ([/\ ark_quad_verify sch' f p' d = Ok true, multiples (u1 crs) (coms (xcoms p)) & multiples (v1 crs) (coms (ycoms p))] <->
   exists! t : (size X + (size Y + 1)).-tuple (Fr E),
     ark_gives (fun R s => ark_quad_commit_and_prove (R := R) sch f X Y d s) p' t).
Proof.
move=> hb hn hc1 hc2 vs vs' k1 k2 hq hK hp hh hpr sx sy wf hold sx' sy' ep ety spi sth.
rewrite (rquad_verify I sch' hq hp hK) -(unique_iff (gives_ark (f := fun R s => quad_commit_and_prove (R := R) sch q X Y crs s) _ _ k1 k2 hp)).
- exact: (k_C99_quad hb hn hc1 hc2 vs vs' hh hpr sx sy wf hold sx' sy' ep ety spi sth).
- by move=> R s; exact: (rquad_commit_and_prove I (@scalars_of_alike _ _ 0 0 R) sch X Y hq hK (erefl s)).
- exact: quad_cap_draws.
Qed.
End ArkBij.
