(** C99: under a hiding key [commit_and_prove] is one-to-one onto the accepted proofs. *)
From mathcomp Require Import all_ssreflect all_algebra.
From Verif Require Import Base BaseLemmas Group DataStructures MatLemmas CoreAlg ComLemmas Generator Commit Statement Prove Verify Spec SpecMat SpecVerify SpecHide ProveLemmas CommitLemmas VerifyLemmas Holds Complete Main SoundGen Draws GenProps CapLemmas HideCore HideTape Hiding MatProps VProps HideProps SpecRerand RerandProps Exist ExistProps SpecBij BijCore BijStages.
Set Implicit Arguments.
Unset Strict Implicit.
Unset Printing Implicit Defensive.
Import GRing.Theory.
Local Open Scope ring_scope.

Lemma pub_mk {E : pairing} (p : CProof E) pf cx cy pf' : equ_proofs p = [:: pf] ->
  public (mkCProof cx cy [:: pf']) = public p <->
  [/\ coms cx = coms (xcoms p), coms cy = coms (ycoms p) & (pi pf', theta pf', equ_type pf') = (pi pf, theta pf, equ_type pf)].
Proof.
move=> e; rewrite /public e /=; split=> [h|[-> -> [-> -> ->]] //].
split; [exact: (congr1 (fun z => z.1.1) h) | exact: (congr1 (fun z => z.1.2) h) |].
exact: (congr1 (fun z => head (pi pf, theta pf, equ_type pf) z.2) h).
Qed.

Lemma k_C99_ppe : forall (E : pairing) (sch sch' : sched) (q : PPE E) (X : seq (G1 E)) (Y : seq (G2 E)) (crs : CRS E) (p : CProof E) (pf : EquProof E),
  bilinear E -> nondegenerate E -> cyclic (G1 E) -> cyclic (G2 E) -> valid_sched sch -> valid_sched sch' -> hiding_crs crs -> proper_crs crs ->
  (0 < size X)%N -> (0 < size Y)%N -> ppe_wf q (size X) (size Y) -> ppe_holds q X Y ->
  size (coms (xcoms p)) = size X -> size (coms (ycoms p)) = size Y -> equ_proofs p = [:: pf] ->
  equ_type pf = PairingProduct -> size (pi pf) = 2%N -> size (theta pf) = 2%N ->
  (ppe_verify sch' q p crs = Ok true <->
   exists! t : (2 * size X + (2 * size Y + 4)).-tuple (Fr E), gives (fun R s => ppe_commit_and_prove (R := R) sch q X Y crs s) p t).
Proof.
move=> E sch sch' q X Y crs p pf hb hn hc1 hc2 vs vs' hk hp hX hY wf hold sx sy ep ety sp st.
have tk := hiding_two_keys hk; have [hu hv0] := tk.
have hok (R R' : rng E) (s s' : rst R) (z z' : rst R') cx cy :
  batch_commit_G1 X crs s = Ok (cx, s') -> batch_commit_G2 Y crs z = Ok (cy, z') -> forall (R : rng E) (s : rst R), isok (ppe_prove sch q X Y cx cy crs s).
  by move=> /batch_made_G1 mx /batch_made_G2 my R0 s0; apply: ppe_prove_total.
split=> [hv|[t [ht _]]]; last first.
  have [c [s' [e acc]]] := ppe_cap_complete vs vs' hb (tval t : rst (@tape_rng E)) hX hY wf tk hold.
  have hpub := ht _ (tval t : rst (@tape_rng E)) (draws_tape t); rewrite e in hpub; have epub := Ok_inj hpub.
  have av : ppe_verify sch' q p crs = Ok true by rewrite -acc; apply: k_C33_ppe_randomness.
  exact: av.
apply: (@bij_core E (2 * size X) (2 * size Y) 4 _ _ (fun R s => batch_commit_G1 (R := R) X crs s) (fun R s => batch_commit_G2 (R := R) Y crs s)
  (fun cx cy R s => ppe_prove (R := R) sch q X Y cx cy crs s) _ (fun cx cy pf' => mkCProof cx cy [:: pf']) (coms (xcoms p)) (coms (ycoms p)) pf).
- exact: G1_batch_draws.
- exact: G2_batch_draws.
- by move=> cx cy; exact: ppe_prove_draws.
- by move=> R s; rewrite isok_batch_commit_G1 hX hu.
- by move=> R s; rewrite isok_batch_commit_G2 hY hv0.
- exact: hok.
- by move=> cx cy R s s' pf' e; have [-> _] := ppe_prove_sizes vs e.
- by move=> R s s1 s2 s3 cx cy pf' e1 e2 e3; apply/ppe_cap_steps; exists s1, s2, pf'.
- by move=> cx cy pf'; exact: pub_mk.
- exact: one_G1.
- exact: one_G2.
move=> R R' s s' z z' cx cy e1 e2 ecx ecy.
have mx := batch_made_G1 e1; have my := batch_made_G2 e2.
have [h _] := k_C59_ppe hb hn hc1 hc2 vs vs' hk hp mx my hX hY wf hold ety sp st; apply: h.
by rewrite -hv; apply: k_C33_ppe_randomness; rewrite /public ep /= ecx ecy.
Qed.

Lemma k_C99_ms1 : forall (E : pairing) (sch sch' : sched) (q : MSMEG1 E) (X : seq (G1 E)) (Y : seq (Fr E)) (crs : CRS E) (p : CProof E) (pf : EquProof E),
  bilinear E -> nondegenerate E -> cyclic (G1 E) -> cyclic (G2 E) -> valid_sched sch -> valid_sched sch' -> hiding_crs crs -> proper_crs crs ->
  (0 < size X)%N -> (0 < size Y)%N -> ms1_wf q (size X) (size Y) -> ms1_holds q X Y ->
  size (coms (xcoms p)) = size X -> size (coms (ycoms p)) = size Y -> equ_proofs p = [:: pf] ->
  equ_type pf = MultiScalarG1 -> size (pi pf) = 2%N -> size (theta pf) = 1%N ->
  ([/\ ms1_verify sch' q p crs = Ok true & multiples (v1 crs) (coms (ycoms p))] <->
   exists! t : (2 * size X + (size Y + 2)).-tuple (Fr E), gives (fun R s => ms1_commit_and_prove (R := R) sch q X Y crs s) p t).
Proof.
move=> E sch sch' q X Y crs p pf hb hn hc1 hc2 vs vs' hk hp hX hY wf hold sx sy ep ety sp st.
have tk := hiding_two_keys hk; have [hu hv0] := tk.
have hok (R R' : rng E) (s s' : rst R) (z z' : rst R') cx cy :
  batch_commit_G1 X crs s = Ok (cx, s') -> batch_commit_scalar_to_B2 Y crs z = Ok (cy, z') -> forall (R : rng E) (s : rst R), isok (ms1_prove sch q X Y cx cy crs s).
  by move=> /batch_made_G1 mx /batch_made_B2 my R0 s0; apply: ms1_prove_total.
split=> [[hv hmy]|[t [ht _]]]; last first.
  have [c [s' [e acc]]] := ms1_cap_complete vs vs' hb (tval t : rst (@tape_rng E)) hX hY wf tk hold.
  have hpub := ht _ (tval t : rst (@tape_rng E)) (draws_tape t); rewrite e in hpub; have epub := Ok_inj hpub.
  have av : ms1_verify sch' q p crs = Ok true by rewrite -acc; apply: k_C33_ms1_randomness.
  have ecx : coms (xcoms c) = coms (xcoms p) := congr1 (fun z => z.1.1) epub; have ecy : coms (ycoms c) = coms (ycoms p) := congr1 (fun z => z.1.2) epub.
  have [s1 [s2 [pf' [e1 e2 _ _]]]] := proj1 (ms1_cap_steps _ _ _ _ _ _ _ _) e.
  split=> //; rewrite -?ecx -?ecy; [exact: (mult_B2 hk e2)].
apply: (@bij_core E (2 * size X) (size Y) 2 _ _ (fun R s => batch_commit_G1 (R := R) X crs s) (fun R s => batch_commit_scalar_to_B2 (R := R) Y crs s)
  (fun cx cy R s => ms1_prove (R := R) sch q X Y cx cy crs s) _ (fun cx cy pf' => mkCProof cx cy [:: pf']) (coms (xcoms p)) (coms (ycoms p)) pf).
- exact: G1_batch_draws.
- exact: B2_batch_draws.
- by move=> cx cy; exact: ms1_prove_draws.
- by move=> R s; rewrite isok_batch_commit_G1 hX hu.
- by move=> R s; rewrite isok_batch_commit_B2 hY hv0.
- exact: hok.
- by move=> cx cy R s s' pf' e; have [-> _] := ms1_prove_sizes vs e.
- by move=> R s s1 s2 s3 cx cy pf' e1 e2 e3; apply/ms1_cap_steps; exists s1, s2, pf'.
- by move=> cx cy pf'; exact: pub_mk.
- exact: one_G1.
- exact: one_B2.
move=> R R' s s' z z' cx cy e1 e2 ecx ecy.
have mx := batch_made_G1 e1; have my := batch_made_B2 e2.
have [h _] := k_C59_ms1 hb hn hc1 hc2 vs vs' hk hp mx my hX hY wf hold ety sp st; apply: h.
by rewrite -hv; apply: k_C33_ms1_randomness; rewrite /public ep /= ecx ecy.
Qed.

Lemma k_C99_ms2 : forall (E : pairing) (sch sch' : sched) (q : MSMEG2 E) (X : seq (Fr E)) (Y : seq (G2 E)) (crs : CRS E) (p : CProof E) (pf : EquProof E),
  bilinear E -> nondegenerate E -> cyclic (G1 E) -> cyclic (G2 E) -> valid_sched sch -> valid_sched sch' -> hiding_crs crs -> proper_crs crs ->
  (0 < size X)%N -> (0 < size Y)%N -> ms2_wf q (size X) (size Y) -> ms2_holds q X Y ->
  size (coms (xcoms p)) = size X -> size (coms (ycoms p)) = size Y -> equ_proofs p = [:: pf] ->
  equ_type pf = MultiScalarG2 -> size (pi pf) = 1%N -> size (theta pf) = 2%N ->
  ([/\ ms2_verify sch' q p crs = Ok true & multiples (u1 crs) (coms (xcoms p))] <->
   exists! t : (size X + (2 * size Y + 2)).-tuple (Fr E), gives (fun R s => ms2_commit_and_prove (R := R) sch q X Y crs s) p t).
Proof.
move=> E sch sch' q X Y crs p pf hb hn hc1 hc2 vs vs' hk hp hX hY wf hold sx sy ep ety sp st.
have tk := hiding_two_keys hk; have [hu hv0] := tk.
have hok (R R' : rng E) (s s' : rst R) (z z' : rst R') cx cy :
  batch_commit_scalar_to_B1 X crs s = Ok (cx, s') -> batch_commit_G2 Y crs z = Ok (cy, z') -> forall (R : rng E) (s : rst R), isok (ms2_prove sch q X Y cx cy crs s).
  by move=> /batch_made_B1 mx /batch_made_G2 my R0 s0; apply: ms2_prove_total.
split=> [[hv hmx]|[t [ht _]]]; last first.
  have [c [s' [e acc]]] := ms2_cap_complete vs vs' hb (tval t : rst (@tape_rng E)) hX hY wf tk hold.
  have hpub := ht _ (tval t : rst (@tape_rng E)) (draws_tape t); rewrite e in hpub; have epub := Ok_inj hpub.
  have av : ms2_verify sch' q p crs = Ok true by rewrite -acc; apply: k_C33_ms2_randomness.
  have ecx : coms (xcoms c) = coms (xcoms p) := congr1 (fun z => z.1.1) epub; have ecy : coms (ycoms c) = coms (ycoms p) := congr1 (fun z => z.1.2) epub.
  have [s1 [s2 [pf' [e1 e2 _ _]]]] := proj1 (ms2_cap_steps _ _ _ _ _ _ _ _) e.
  split=> //; rewrite -?ecx -?ecy; [exact: (mult_B1 hk e1)].
apply: (@bij_core E (size X) (2 * size Y) 2 _ _ (fun R s => batch_commit_scalar_to_B1 (R := R) X crs s) (fun R s => batch_commit_G2 (R := R) Y crs s)
  (fun cx cy R s => ms2_prove (R := R) sch q X Y cx cy crs s) _ (fun cx cy pf' => mkCProof cx cy [:: pf']) (coms (xcoms p)) (coms (ycoms p)) pf).
- exact: B1_batch_draws.
- exact: G2_batch_draws.
- by move=> cx cy; exact: ms2_prove_draws.
- by move=> R s; rewrite isok_batch_commit_B1 hX hu.
- by move=> R s; rewrite isok_batch_commit_G2 hY hv0.
- exact: hok.
- by move=> cx cy R s s' pf' e; have [-> _] := ms2_prove_sizes vs e.
- by move=> R s s1 s2 s3 cx cy pf' e1 e2 e3; apply/ms2_cap_steps; exists s1, s2, pf'.
- by move=> cx cy pf'; exact: pub_mk.
- exact: one_B1.
- exact: one_G2.
move=> R R' s s' z z' cx cy e1 e2 ecx ecy.
have mx := batch_made_B1 e1; have my := batch_made_G2 e2.
have [h _] := k_C59_ms2 hb hn hc1 hc2 vs vs' hk hp mx my hX hY wf hold ety sp st; apply: h.
by rewrite -hv; apply: k_C33_ms2_randomness; rewrite /public ep /= ecx ecy.
Qed.

Lemma k_C99_quad : forall (E : pairing) (sch sch' : sched) (q : QuadEqu E) (X : seq (Fr E)) (Y : seq (Fr E)) (crs : CRS E) (p : CProof E) (pf : EquProof E),
  bilinear E -> nondegenerate E -> cyclic (G1 E) -> cyclic (G2 E) -> valid_sched sch -> valid_sched sch' -> hiding_crs crs -> proper_crs crs ->
  (0 < size X)%N -> (0 < size Y)%N -> quad_wf q (size X) (size Y) -> quad_holds q X Y ->
  size (coms (xcoms p)) = size X -> size (coms (ycoms p)) = size Y -> equ_proofs p = [:: pf] ->
  equ_type pf = Quadratic -> size (pi pf) = 1%N -> size (theta pf) = 1%N ->
  ([/\ quad_verify sch' q p crs = Ok true, multiples (u1 crs) (coms (xcoms p)) & multiples (v1 crs) (coms (ycoms p))] <->
   exists! t : (size X + (size Y + 1)).-tuple (Fr E), gives (fun R s => quad_commit_and_prove (R := R) sch q X Y crs s) p t).
Proof.
move=> E sch sch' q X Y crs p pf hb hn hc1 hc2 vs vs' hk hp hX hY wf hold sx sy ep ety sp st.
have tk := hiding_two_keys hk; have [hu hv0] := tk.
have hok (R R' : rng E) (s s' : rst R) (z z' : rst R') cx cy :
  batch_commit_scalar_to_B1 X crs s = Ok (cx, s') -> batch_commit_scalar_to_B2 Y crs z = Ok (cy, z') -> forall (R : rng E) (s : rst R), isok (quad_prove sch q X Y cx cy crs s).
  by move=> /batch_made_B1 mx /batch_made_B2 my R0 s0; apply: quad_prove_total.
split=> [[hv hmx hmy]|[t [ht _]]]; last first.
  have [c [s' [e acc]]] := quad_cap_complete vs vs' hb (tval t : rst (@tape_rng E)) hX hY wf tk hold.
  have hpub := ht _ (tval t : rst (@tape_rng E)) (draws_tape t); rewrite e in hpub; have epub := Ok_inj hpub.
  have av : quad_verify sch' q p crs = Ok true by rewrite -acc; apply: k_C33_quad_randomness.
  have ecx : coms (xcoms c) = coms (xcoms p) := congr1 (fun z => z.1.1) epub; have ecy : coms (ycoms c) = coms (ycoms p) := congr1 (fun z => z.1.2) epub.
  have [s1 [s2 [pf' [e1 e2 _ _]]]] := proj1 (quad_cap_steps _ _ _ _ _ _ _ _) e.
  split=> //; rewrite -?ecx -?ecy; [exact: (mult_B1 hk e1) | exact: (mult_B2 hk e2)].
apply: (@bij_core E (size X) (size Y) 1 _ _ (fun R s => batch_commit_scalar_to_B1 (R := R) X crs s) (fun R s => batch_commit_scalar_to_B2 (R := R) Y crs s)
  (fun cx cy R s => quad_prove (R := R) sch q X Y cx cy crs s) _ (fun cx cy pf' => mkCProof cx cy [:: pf']) (coms (xcoms p)) (coms (ycoms p)) pf).
- exact: B1_batch_draws.
- exact: B2_batch_draws.
- by move=> cx cy; exact: quad_prove_draws.
- by move=> R s; rewrite isok_batch_commit_B1 hX hu.
- by move=> R s; rewrite isok_batch_commit_B2 hY hv0.
- exact: hok.
- by move=> cx cy R s s' pf' e; have [-> _] := quad_prove_sizes vs e.
- by move=> R s s1 s2 s3 cx cy pf' e1 e2 e3; apply/quad_cap_steps; exists s1, s2, pf'.
- by move=> cx cy pf'; exact: pub_mk.
- exact: one_B1.
- exact: one_B2.
move=> R R' s s' z z' cx cy e1 e2 ecx ecy.
have mx := batch_made_B1 e1; have my := batch_made_B2 e2.
have [h _] := k_C59_quad hb hn hc1 hc2 vs vs' (or_intror hk) hp mx my hX hY wf hold ety sp st; apply: h.
by rewrite -hv; apply: k_C33_quad_randomness; rewrite /public ep /= ecx ecy.
Qed.
