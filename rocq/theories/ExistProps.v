(** Which proofs verify, equation type by equation type. *)
From mathcomp Require Import all_ssreflect all_algebra.
From Verif Require Import Base BaseLemmas Group DataStructures MatLemmas CoreAlg ComLemmas Generator Commit Statement Prove Verify Spec SpecMat SpecVerify SpecHide ProveLemmas CommitLemmas VerifyLemmas Holds Complete Main SoundGen Extract Draws GenProps CapLemmas HideCore HideTape Hiding MatProps VProps HideProps RerandCore SpecRerand Rerand RerandProps Exist.
Set Implicit Arguments.
Unset Strict Implicit.
Unset Printing Implicit Defensive.
Import GRing.Theory.
Local Open Scope ring_scope.


Lemma hiding_two_keys {E : pairing} (crs : CRS E) : hiding_crs crs -> two_keys crs.
Proof. by case=> a1 [a2 [t1 [t2 [hu hv _]]]]; rewrite /two_keys hu hv. Qed.
Lemma binding_two_keys {E : pairing} (crs : CRS E) : binding_crs crs -> two_keys crs.
Proof. by case=> a1 [a2 [t1 [t2 [hu hv _]]]]; rewrite /two_keys hu hv. Qed.
Lemma drawn_draws {E : pairing} N (R : rng E) (s : rst R) (t : N.-tuple (Fr E)) k : draws N s = t -> (k < N)%N -> drawn s k = nth 0 t k.
Proof. by move=> <- hk; rewrite -[k]/(nat_of_ord (Ordinal hk)) -tnth_nth tnth_mktuple. Qed.

Lemma ppe_prove_hon {E : pairing} (R : rng E) (sch : sched) (q : PPE E) (X : seq (G1 E)) (Y : seq (G2 E)) cx cy crs (s : rst R) : valid_sched sch ->
  ppe_pshape q (size X) (size Y) cx cy crs ->
  seen (fun g => (pi g, theta g)) (ppe_prove sch q X Y cx cy crs s) = Ok (hon (size X) (size Y) 2 2 (nth 0 (com1_batch_linear_map (ppe_a q))) (nth 0 (com1_batch_linear_map X)) (nth 0 (crs_u crs)) (nth 0 (com2_batch_linear_map (ppe_b q))) (nth 0 (com2_batch_linear_map Y)) (nth 0 (crs_v crs)) (ent 0 (ppe_gamma q)) (ent 0 (crand cx)) (ent 0 (crand cy)) (drawn s)).
Proof.
move=> vs h; rewrite (ppe_prove_Ok vs s h); cbv beta iota delta [seen ppe_pf pi theta hon]; congr (Ok (_, _)).
- apply: eq_in_mkseq => i hi; apply: eq_pi_fun; [by move=> [|[|l]] | by [] | by [] |].
  by move=> l hl; rewrite ent_mkmat // /Tt; move: hi hl; case: i => [|[|i]] //; case: l => [|[|l]].
apply: eq_in_mkseq => l hl; apply: eq_th_fun; [by move=> [|[|i]] | by [] |].
by move=> i hi; rewrite ent_mkmat // /Tt; move: hi hl; case: i => [|[|i]] //; case: l => [|[|l]].
Qed.

Lemma ppe_prove_sizes {E : pairing} (R : rng E) (sch : sched) (q : PPE E) (X : seq (G1 E)) (Y : seq (G2 E)) cx cy crs (s s' : rst R) pf : valid_sched sch ->
  ppe_prove sch q X Y cx cy crs s = Ok (pf, s') -> equ_type pf = PairingProduct /\ size (pi pf) = 2%N /\ size (theta pf) = 2%N.
Proof.
move=> vs h; have hs : ppe_pshape q (size X) (size Y) cx cy crs.
  by refine (etrans (esym (isok_ppe_prove vs q X Y cx cy crs s)) _); rewrite h.
have e := congr1 fst (Ok_inj (etrans (esym h) (ppe_prove_Ok vs s hs))); rewrite [LHS]/= in e.
by rewrite e.
Qed.

Lemma k_C59_ppe : forall (E : pairing) (sch sch' : sched) (q : PPE E) (X : seq (G1 E)) (Y : seq (G2 E)) (cx : Commit1 E) (cy : Commit2 E) (crs : CRS E) (pf : EquProof E),
  bilinear E -> nondegenerate E -> cyclic (G1 E) -> cyclic (G2 E) -> valid_sched sch -> valid_sched sch' -> hiding_crs crs -> proper_crs crs ->
  made_G1 crs X cx -> made_G2 crs Y cy -> (0 < size X)%N -> (0 < size Y)%N -> ppe_wf q (size X) (size Y) -> ppe_holds q X Y ->
  equ_type pf = PairingProduct -> size (pi pf) = 2%N -> size (theta pf) = 2%N ->
  (ppe_verify sch' q (mkCProof cx cy [:: pf]) crs = Ok true <->
   exists! t : 4.-tuple (Fr E), yields (fun R s => ppe_prove (R := R) sch q X Y cx cy crs s) pf t).
Proof.
move=> E sch sch' q X Y cx cy crs pf hb hn hc1 hc2 vs vs' hk hp mx my hX hY wf hold ety sp st.
have tk := hiding_two_keys hk.
have hO (R : rng E) (s : rst R) : isok (ppe_prove sch q X Y cx cy crs s) by apply: ppe_prove_total.
have ps : ppe_pshape q (size X) (size Y) cx cy crs.
  exact: (etrans (esym (isok_ppe_prove vs q X Y cx cy crs ([::] : rst (@tape_rng E)))) (hO _ _)).
have hH (R : rng E) (s : rst R) := ppe_prove_hon s vs ps.
have acc (R : rng E) (s : rst R) pf0 s' : ppe_prove sch q X Y cx cy crs s = Ok (pf0, s') -> ppe_verify sch' q (mkCProof cx cy [:: pf0]) crs = Ok true.
  move=> e0; have [b hv' hb'] := ppe_dec vs hb vs' mx my e0; rewrite hv'; congr Ok; exact/hb'.
have hTt (t : nat -> Fr E) t' : (forall k, (k < 4)%N -> t k = t' k) -> _ := @TtE E (size X) (size Y) 2 2 4 _ _ _ _ _ _ _ _ _ erefl t t'.
split=> [h|[t [ht _]]]; last first.
  have /isokP[[pf0 s'] e0] := hO _ (tval t : rst (@tape_rng E)).
  rewrite -(acc _ _ _ _ e0); apply: k_C33_ppe_randomness.
  have := ht _ _ (draws_tape t); rewrite e0 => e1; have e5 := Ok_inj e1.
  have e2 : pi pf0 = pi pf := congr1 fst e5; have e3 : theta pf0 = theta pf := congr1 snd e5.
  have e4 : equ_type pf0 = PairingProduct by have := Ok_inj (etrans (esym e0) (ppe_prove_Ok vs _ ps)) => -[-> _].
  by rewrite /public /= e2 e3 ety e4.
have /isokP[[pf0 s'] e0] := hO _ ([::] : rst (@tape_rng E)).
have h0 := acc _ _ _ _ e0.
have hs : ppe_vshape q cx cy pf crs by rewrite -(isok_ppe_verify vs') h.
have hs0 : ppe_vshape q cx cy pf0 crs by rewrite -(isok_ppe_verify vs') h0.
have e := Ok_inj (etrans (esym (ppe_verify_Ok vs' hs)) h); have e' := Ok_inj (etrans (esym (ppe_verify_Ok vs' hs0)) h0).
move: e e'; rewrite /ppe_veq; case: (tk) => hu hv; rewrite ?hu ?hv => /eqP e /eqP e'.
have := etrans (esym e) e'; rewrite -[LHS]addrA -[RHS]addrA => /addrI ee.
have := hH _ ([::] : rst (@tape_rng E)); rewrite e0 => e1; have e2 := Ok_inj e1.
have e3 := congr1 fst e2; have e4 := congr1 snd e2; rewrite [LHS]/= in e3; rewrite [LHS]/= in e4; rewrite e3 e4 in ee.
have [t [ht hu']] := hon_unique (N := 4) (kx := 2) (ky := 2) hb erefl (splits2 hb hn hc1 hc2 hp hk) (free2 hp hk) sp st ee.
exists t; split.
  move=> R s hs1; rewrite hH; apply: congr1; rewrite -ht; apply: hTt => k hk1; exact: drawn_draws.
move=> t' /(_ _ _ (draws_tape t')); rewrite hH => e5; apply: hu'; rewrite -(Ok_inj e5); apply: hTt => k hk1.
by apply/esym; apply: drawn_draws => //; exact: draws_tape.
Qed.

Lemma k_C63_ppe : forall (E : pairing) (sch : sched) (q : PPE E) (cx : Commit1 E) (cy : Commit2 E) (crs : CRS E),
  bilinear E -> nondegenerate E -> cyclic (G1 E) -> cyclic (G2 E) -> valid_sched sch -> binding_crs crs -> proper_crs crs ->
  (0 < size (coms cx))%N -> (0 < size (coms cy))%N -> ppe_wf q (size (coms cx)) (size (coms cy)) ->
  (exists pf, ppe_verify sch q (mkCProof cx cy [:: pf]) crs = Ok true) <->
  (exists X Y, [/\ commits_G1 crs (coms cx) X, commits_G2 crs (coms cy) Y & ppe_holds q X Y]).
Proof.
move=> E sch q cx cy crs hb hn hc1 hc2 vs bk hp hX hY wf; split=> [[pf h]|[X [Y [[hx cX] [hy cY] hold]]]].
  case: (hp) => hp1 hp2.
  have [X [x [Y [y [[h1 h2 h3 h4] [k1 k2 k3 k4]]]]]] := joint hb vs hn bk hc1 hc2 hp1 hp2 (coms cx) (coms cx) (coms cy) (coms cy).
  by exists X, Y; split=> //; apply: k1 h.
have [rx mx] := commits_made hx cX; have [ry my] := commits_made hy cY.
rewrite -hx in hX wf; rewrite -hy in hY wf.
have /isokP[[pf s'] e0] := ppe_prove_total vs ([::] : rst (@tape_rng E)) hX hY wf (binding_two_keys bk) mx my.
exists pf; rewrite (@k_C33_ppe_randomness E sch q (mkCProof cx cy [:: pf]) (mkCProof (mkCommit (coms cx) rx) (mkCommit (coms cy) ry) [:: pf])) //.
have [b hv' hb'] := ppe_dec vs hb vs mx my e0; rewrite hv'; congr Ok; exact/hb'.
Qed.

Lemma k_C64_ppe : forall (E : pairing) (sch : sched) (q : PPE E) (cx : Commit1 E) (cy : Commit2 E) (crs : CRS E),
  bilinear E -> nondegenerate E -> cyclic (GT E) -> valid_sched sch -> hiding_crs crs -> proper_crs crs ->
  size (ppe_a q) = size (coms cy) -> size (ppe_b q) = size (coms cx) -> gamma_fits (size (coms cx)) (size (coms cy)) (ppe_gamma q) ->
  exists pf, ppe_verify sch q (mkCProof cx cy [:: pf]) crs = Ok true.
Proof.
move=> E sch q cx cy crs hb hn hcT vs hk hp ha hb' hg; have [hu hv] := hiding_two_keys hk.
have [p [th [h1 h2 h3]]] := veq_onto_u hb hn hcT hk hp 2 (com1_batch_linear_map (ppe_a q)) (com2_batch_linear_map (ppe_b q)) (ppe_gamma q) (coms cx) (coms cy) (linear_map_PPE (ppe_target q)).
exists (mkEquProof p th PairingProduct [::]).
rewrite (ppe_verify_Ok vs); last by apply/ppe_vshapeP; split; rewrite /= ?h1 ?h2 ?hu ?hv.
by rewrite /ppe_veq ?hu ?hv h3.
Qed.

Lemma ms1_prove_hon {E : pairing} (R : rng E) (sch : sched) (q : MSMEG1 E) (X : seq (G1 E)) (Y : seq (Fr E)) cx cy crs (s : rst R) : valid_sched sch ->
  ms1_pshape q (size X) (size Y) cx cy crs ->
  seen (fun g => (pi g, theta g)) (ms1_prove sch q X Y cx cy crs s) = Ok (hon (size X) (size Y) 2 1 (nth 0 (com1_batch_linear_map (ms1_a q))) (nth 0 (com1_batch_linear_map X)) (nth 0 (crs_u crs)) (nth 0 [seq s2map crs y | y <- ms1_b q]) (nth 0 [seq s2map crs y | y <- Y]) (nth 0 (crs_v crs)) (ent 0 (ms1_gamma q)) (ent 0 (crand cx)) (ent 0 (crand cy)) (drawn s)).
Proof.
move=> vs h; rewrite (ms1_prove_Ok vs s h); cbv beta iota delta [seen ms1_pf pi theta hon]; congr (Ok (_, _)).
- apply: eq_in_mkseq => i hi; apply: eq_pi_fun; [by move=> [|[|l]] | by [] | by [] |].
  by move=> l hl; rewrite ent_mkmat // /Tt; move: hi hl; case: i => [|[|i]] //; case: l => [|[|l]].
apply: eq_in_mkseq => l hl; apply: eq_th_fun; [by move=> [|[|i]] | by [] |].
by move=> i hi; rewrite ent_mkmat // /Tt; move: hi hl; case: i => [|[|i]] //; case: l => [|[|l]].
Qed.

Lemma ms1_prove_sizes {E : pairing} (R : rng E) (sch : sched) (q : MSMEG1 E) (X : seq (G1 E)) (Y : seq (Fr E)) cx cy crs (s s' : rst R) pf : valid_sched sch ->
  ms1_prove sch q X Y cx cy crs s = Ok (pf, s') -> equ_type pf = MultiScalarG1 /\ size (pi pf) = 2%N /\ size (theta pf) = 1%N.
Proof.
move=> vs h; have hs : ms1_pshape q (size X) (size Y) cx cy crs.
  by refine (etrans (esym (isok_ms1_prove vs q X Y cx cy crs s)) _); rewrite h.
have e := congr1 fst (Ok_inj (etrans (esym h) (ms1_prove_Ok vs s hs))); rewrite [LHS]/= in e.
by rewrite e.
Qed.

Lemma k_C59_ms1 : forall (E : pairing) (sch sch' : sched) (q : MSMEG1 E) (X : seq (G1 E)) (Y : seq (Fr E)) (cx : Commit1 E) (cy : Commit2 E) (crs : CRS E) (pf : EquProof E),
  bilinear E -> nondegenerate E -> cyclic (G1 E) -> cyclic (G2 E) -> valid_sched sch -> valid_sched sch' -> hiding_crs crs -> proper_crs crs ->
  made_G1 crs X cx -> made_B2 crs Y cy -> (0 < size X)%N -> (0 < size Y)%N -> ms1_wf q (size X) (size Y) -> ms1_holds q X Y ->
  equ_type pf = MultiScalarG1 -> size (pi pf) = 2%N -> size (theta pf) = 1%N ->
  (ms1_verify sch' q (mkCProof cx cy [:: pf]) crs = Ok true <->
   exists! t : 2.-tuple (Fr E), yields (fun R s => ms1_prove (R := R) sch q X Y cx cy crs s) pf t).
Proof.
move=> E sch sch' q X Y cx cy crs pf hb hn hc1 hc2 vs vs' hk hp mx my hX hY wf hold ety sp st.
have tk := hiding_two_keys hk.
have hO (R : rng E) (s : rst R) : isok (ms1_prove sch q X Y cx cy crs s) by apply: ms1_prove_total.
have ps : ms1_pshape q (size X) (size Y) cx cy crs.
  exact: (etrans (esym (isok_ms1_prove vs q X Y cx cy crs ([::] : rst (@tape_rng E)))) (hO _ _)).
have hH (R : rng E) (s : rst R) := ms1_prove_hon s vs ps.
have acc (R : rng E) (s : rst R) pf0 s' : ms1_prove sch q X Y cx cy crs s = Ok (pf0, s') -> ms1_verify sch' q (mkCProof cx cy [:: pf0]) crs = Ok true.
  move=> e0; exact: (ms1_ok vs hb vs' mx my e0 hold).
have hTt (t : nat -> Fr E) t' : (forall k, (k < 2)%N -> t k = t' k) -> _ := @TtE E (size X) (size Y) 2 1 2 _ _ _ _ _ _ _ _ _ erefl t t'.
split=> [h|[t [ht _]]]; last first.
  have /isokP[[pf0 s'] e0] := hO _ (tval t : rst (@tape_rng E)).
  rewrite -(acc _ _ _ _ e0); apply: k_C33_ms1_randomness.
  have := ht _ _ (draws_tape t); rewrite e0 => e1; have e5 := Ok_inj e1.
  have e2 : pi pf0 = pi pf := congr1 fst e5; have e3 : theta pf0 = theta pf := congr1 snd e5.
  have e4 : equ_type pf0 = MultiScalarG1 by have := Ok_inj (etrans (esym e0) (ms1_prove_Ok vs _ ps)) => -[-> _].
  by rewrite /public /= e2 e3 ety e4.
have /isokP[[pf0 s'] e0] := hO _ ([::] : rst (@tape_rng E)).
have h0 := acc _ _ _ _ e0.
have hs : ms1_vshape q cx cy pf crs by rewrite -(isok_ms1_verify vs') h.
have hs0 : ms1_vshape q cx cy pf0 crs by rewrite -(isok_ms1_verify vs') h0.
have e := Ok_inj (etrans (esym (ms1_verify_Ok vs' hs)) h); have e' := Ok_inj (etrans (esym (ms1_verify_Ok vs' hs0)) h0).
move: e e'; rewrite /ms1_veq; case: (tk) => hu hv; rewrite ?hu ?hv => /eqP e /eqP e'.
have := etrans (esym e) e'; rewrite -[LHS]addrA -[RHS]addrA => /addrI ee.
have := hH _ ([::] : rst (@tape_rng E)); rewrite e0 => e1; have e2 := Ok_inj e1.
have e3 := congr1 fst e2; have e4 := congr1 snd e2; rewrite [LHS]/= in e3; rewrite [LHS]/= in e4; rewrite e3 e4 in ee.
have [t [ht hu']] := hon_unique (N := 2) (kx := 2) (ky := 1) hb erefl (splits2 hb hn hc1 hc2 hp hk) (free2 hp hk) sp st ee.
exists t; split.
  move=> R s hs1; rewrite hH; apply: congr1; rewrite -ht; apply: hTt => k hk1; exact: drawn_draws.
move=> t' /(_ _ _ (draws_tape t')); rewrite hH => e5; apply: hu'; rewrite -(Ok_inj e5); apply: hTt => k hk1.
by apply/esym; apply: drawn_draws => //; exact: draws_tape.
Qed.

Lemma k_C63_ms1 : forall (E : pairing) (sch : sched) (q : MSMEG1 E) (cx : Commit1 E) (cy : Commit2 E) (crs : CRS E),
  bilinear E -> nondegenerate E -> cyclic (G1 E) -> cyclic (G2 E) -> valid_sched sch -> binding_crs crs -> proper_crs crs ->
  (0 < size (coms cx))%N -> (0 < size (coms cy))%N -> ms1_wf q (size (coms cx)) (size (coms cy)) ->
  (exists pf, ms1_verify sch q (mkCProof cx cy [:: pf]) crs = Ok true) <->
  (exists X Y, [/\ commits_G1 crs (coms cx) X, commits_B2 crs (coms cy) Y & ms1_holds q X Y]).
Proof.
move=> E sch q cx cy crs hb hn hc1 hc2 vs bk hp hX hY wf; split=> [[pf h]|[X [Y [[hx cX] [hy cY] hold]]]].
  case: (hp) => hp1 hp2.
  have [X [x [Y [y [[h1 h2 h3 h4] [k1 k2 k3 k4]]]]]] := joint hb vs hn bk hc1 hc2 hp1 hp2 (coms cx) (coms cx) (coms cy) (coms cy).
  by exists X, y; split=> //; apply: k2 h.
have [rx mx] := commits_made hx cX; have [ry my] := commits_made hy cY.
rewrite -hx in hX wf; rewrite -hy in hY wf.
have /isokP[[pf s'] e0] := ms1_prove_total vs ([::] : rst (@tape_rng E)) hX hY wf (binding_two_keys bk) mx my.
exists pf; rewrite (@k_C33_ms1_randomness E sch q (mkCProof cx cy [:: pf]) (mkCProof (mkCommit (coms cx) rx) (mkCommit (coms cy) ry) [:: pf])) //.
exact: (ms1_ok vs hb vs mx my e0 hold).
Qed.

Lemma k_C64_ms1 : forall (E : pairing) (sch : sched) (q : MSMEG1 E) (cx : Commit1 E) (cy : Commit2 E) (crs : CRS E),
  bilinear E -> nondegenerate E -> cyclic (GT E) -> valid_sched sch -> hiding_crs crs -> proper_crs crs ->
  size (ms1_a q) = size (coms cy) -> size (ms1_b q) = size (coms cx) -> gamma_fits (size (coms cx)) (size (coms cy)) (ms1_gamma q) ->
  exists pf, ms1_verify sch q (mkCProof cx cy [:: pf]) crs = Ok true.
Proof.
move=> E sch q cx cy crs hb hn hcT vs hk hp ha hb' hg; have [hu hv] := hiding_two_keys hk.
have [p [th [h1 h2 h3]]] := veq_onto_u hb hn hcT hk hp 1 (com1_batch_linear_map (ms1_a q)) [seq s2map crs y | y <- ms1_b q] (ms1_gamma q) (coms cx) (coms cy) (comT_pairing (com1_linear_map (ms1_target q)) (s2map crs 1)).
exists (mkEquProof p th MultiScalarG1 [::]).
rewrite (ms1_verify_Ok vs); last by apply/ms1_vshapeP; split; rewrite /= ?h1 ?h2 ?hu ?hv.
by rewrite /ms1_veq ?hu ?hv h3.
Qed.

Lemma ms2_prove_hon {E : pairing} (R : rng E) (sch : sched) (q : MSMEG2 E) (X : seq (Fr E)) (Y : seq (G2 E)) cx cy crs (s : rst R) : valid_sched sch ->
  ms2_pshape q (size X) (size Y) cx cy crs ->
  seen (fun g => (pi g, theta g)) (ms2_prove sch q X Y cx cy crs s) = Ok (hon (size X) (size Y) 1 2 (nth 0 [seq s1map crs y | y <- ms2_a q]) (nth 0 [seq s1map crs x | x <- X]) (nth 0 (crs_u crs)) (nth 0 (com2_batch_linear_map (ms2_b q))) (nth 0 (com2_batch_linear_map Y)) (nth 0 (crs_v crs)) (ent 0 (ms2_gamma q)) (ent 0 (crand cx)) (ent 0 (crand cy)) (drawn s)).
Proof.
move=> vs h; rewrite (ms2_prove_Ok vs s h); cbv beta iota delta [seen ms2_pf pi theta hon]; congr (Ok (_, _)).
- apply: eq_in_mkseq => i hi; apply: eq_pi_fun; [by move=> [|[|l]] | by [] | by [] |].
  by move=> l hl; rewrite ent_mkmat // /Tt; move: hi hl; case: i => [|[|i]] //; case: l => [|[|l]].
apply: eq_in_mkseq => l hl; apply: eq_th_fun; [by move=> [|[|i]] | by [] |].
by move=> i hi; rewrite ent_mkmat // /Tt; move: hi hl; case: i => [|[|i]] //; case: l => [|[|l]].
Qed.

Lemma ms2_prove_sizes {E : pairing} (R : rng E) (sch : sched) (q : MSMEG2 E) (X : seq (Fr E)) (Y : seq (G2 E)) cx cy crs (s s' : rst R) pf : valid_sched sch ->
  ms2_prove sch q X Y cx cy crs s = Ok (pf, s') -> equ_type pf = MultiScalarG2 /\ size (pi pf) = 1%N /\ size (theta pf) = 2%N.
Proof.
move=> vs h; have hs : ms2_pshape q (size X) (size Y) cx cy crs.
  by refine (etrans (esym (isok_ms2_prove vs q X Y cx cy crs s)) _); rewrite h.
have e := congr1 fst (Ok_inj (etrans (esym h) (ms2_prove_Ok vs s hs))); rewrite [LHS]/= in e.
by rewrite e.
Qed.

Lemma k_C59_ms2 : forall (E : pairing) (sch sch' : sched) (q : MSMEG2 E) (X : seq (Fr E)) (Y : seq (G2 E)) (cx : Commit1 E) (cy : Commit2 E) (crs : CRS E) (pf : EquProof E),
  bilinear E -> nondegenerate E -> cyclic (G1 E) -> cyclic (G2 E) -> valid_sched sch -> valid_sched sch' -> hiding_crs crs -> proper_crs crs ->
  made_B1 crs X cx -> made_G2 crs Y cy -> (0 < size X)%N -> (0 < size Y)%N -> ms2_wf q (size X) (size Y) -> ms2_holds q X Y ->
  equ_type pf = MultiScalarG2 -> size (pi pf) = 1%N -> size (theta pf) = 2%N ->
  (ms2_verify sch' q (mkCProof cx cy [:: pf]) crs = Ok true <->
   exists! t : 2.-tuple (Fr E), yields (fun R s => ms2_prove (R := R) sch q X Y cx cy crs s) pf t).
Proof.
move=> E sch sch' q X Y cx cy crs pf hb hn hc1 hc2 vs vs' hk hp mx my hX hY wf hold ety sp st.
have tk := hiding_two_keys hk.
have hO (R : rng E) (s : rst R) : isok (ms2_prove sch q X Y cx cy crs s) by apply: ms2_prove_total.
have ps : ms2_pshape q (size X) (size Y) cx cy crs.
  exact: (etrans (esym (isok_ms2_prove vs q X Y cx cy crs ([::] : rst (@tape_rng E)))) (hO _ _)).
have hH (R : rng E) (s : rst R) := ms2_prove_hon s vs ps.
have acc (R : rng E) (s : rst R) pf0 s' : ms2_prove sch q X Y cx cy crs s = Ok (pf0, s') -> ms2_verify sch' q (mkCProof cx cy [:: pf0]) crs = Ok true.
  move=> e0; exact: (ms2_ok vs hb vs' mx my e0 hold).
have hTt (t : nat -> Fr E) t' : (forall k, (k < 2)%N -> t k = t' k) -> _ := @TtE E (size X) (size Y) 1 2 2 _ _ _ _ _ _ _ _ _ erefl t t'.
split=> [h|[t [ht _]]]; last first.
  have /isokP[[pf0 s'] e0] := hO _ (tval t : rst (@tape_rng E)).
  rewrite -(acc _ _ _ _ e0); apply: k_C33_ms2_randomness.
  have := ht _ _ (draws_tape t); rewrite e0 => e1; have e5 := Ok_inj e1.
  have e2 : pi pf0 = pi pf := congr1 fst e5; have e3 : theta pf0 = theta pf := congr1 snd e5.
  have e4 : equ_type pf0 = MultiScalarG2 by have := Ok_inj (etrans (esym e0) (ms2_prove_Ok vs _ ps)) => -[-> _].
  by rewrite /public /= e2 e3 ety e4.
have /isokP[[pf0 s'] e0] := hO _ ([::] : rst (@tape_rng E)).
have h0 := acc _ _ _ _ e0.
have hs : ms2_vshape q cx cy pf crs by rewrite -(isok_ms2_verify vs') h.
have hs0 : ms2_vshape q cx cy pf0 crs by rewrite -(isok_ms2_verify vs') h0.
have e := Ok_inj (etrans (esym (ms2_verify_Ok vs' hs)) h); have e' := Ok_inj (etrans (esym (ms2_verify_Ok vs' hs0)) h0).
move: e e'; rewrite /ms2_veq; case: (tk) => hu hv; rewrite ?hu ?hv => /eqP e /eqP e'.
have := etrans (esym e) e'; rewrite -[LHS]addrA -[RHS]addrA => /addrI ee.
have := hH _ ([::] : rst (@tape_rng E)); rewrite e0 => e1; have e2 := Ok_inj e1.
have e3 := congr1 fst e2; have e4 := congr1 snd e2; rewrite [LHS]/= in e3; rewrite [LHS]/= in e4; rewrite e3 e4 in ee.
have [t [ht hu']] := hon_unique (N := 2) (kx := 1) (ky := 2) hb erefl (splits12 hb hn hc1 hc2 hp hk) (free1 hp (or_intror hk)) sp st ee.
exists t; split.
  move=> R s hs1; rewrite hH; apply: congr1; rewrite -ht; apply: hTt => k hk1; exact: drawn_draws.
move=> t' /(_ _ _ (draws_tape t')); rewrite hH => e5; apply: hu'; rewrite -(Ok_inj e5); apply: hTt => k hk1.
by apply/esym; apply: drawn_draws => //; exact: draws_tape.
Qed.

Lemma k_C63_ms2 : forall (E : pairing) (sch : sched) (q : MSMEG2 E) (cx : Commit1 E) (cy : Commit2 E) (crs : CRS E),
  bilinear E -> nondegenerate E -> cyclic (G1 E) -> cyclic (G2 E) -> valid_sched sch -> binding_crs crs -> proper_crs crs ->
  (0 < size (coms cx))%N -> (0 < size (coms cy))%N -> ms2_wf q (size (coms cx)) (size (coms cy)) ->
  (exists pf, ms2_verify sch q (mkCProof cx cy [:: pf]) crs = Ok true) <->
  (exists X Y, [/\ commits_B1 crs (coms cx) X, commits_G2 crs (coms cy) Y & ms2_holds q X Y]).
Proof.
move=> E sch q cx cy crs hb hn hc1 hc2 vs bk hp hX hY wf; split=> [[pf h]|[X [Y [[hx cX] [hy cY] hold]]]].
  case: (hp) => hp1 hp2.
  have [X [x [Y [y [[h1 h2 h3 h4] [k1 k2 k3 k4]]]]]] := joint hb vs hn bk hc1 hc2 hp1 hp2 (coms cx) (coms cx) (coms cy) (coms cy).
  by exists x, Y; split=> //; apply: k3 h.
have [rx mx] := commits_made hx cX; have [ry my] := commits_made hy cY.
rewrite -hx in hX wf; rewrite -hy in hY wf.
have /isokP[[pf s'] e0] := ms2_prove_total vs ([::] : rst (@tape_rng E)) hX hY wf (binding_two_keys bk) mx my.
exists pf; rewrite (@k_C33_ms2_randomness E sch q (mkCProof cx cy [:: pf]) (mkCProof (mkCommit (coms cx) rx) (mkCommit (coms cy) ry) [:: pf])) //.
exact: (ms2_ok vs hb vs mx my e0 hold).
Qed.

Lemma k_C64_ms2 : forall (E : pairing) (sch : sched) (q : MSMEG2 E) (cx : Commit1 E) (cy : Commit2 E) (crs : CRS E),
  bilinear E -> nondegenerate E -> cyclic (GT E) -> valid_sched sch -> hiding_crs crs -> proper_crs crs ->
  size (ms2_a q) = size (coms cy) -> size (ms2_b q) = size (coms cx) -> gamma_fits (size (coms cx)) (size (coms cy)) (ms2_gamma q) ->
  exists pf, ms2_verify sch q (mkCProof cx cy [:: pf]) crs = Ok true.
Proof.
move=> E sch q cx cy crs hb hn hcT vs hk hp ha hb' hg; have [hu hv] := hiding_two_keys hk.
have [p [th [h1 h2 h3]]] := veq_onto_v hb hn hcT hk hp 1 [seq s1map crs y | y <- ms2_a q] (com2_batch_linear_map (ms2_b q)) (ms2_gamma q) (coms cx) (coms cy) (comT_pairing (s1map crs 1) (com2_linear_map (ms2_target q))).
exists (mkEquProof p th MultiScalarG2 [::]).
rewrite (ms2_verify_Ok vs); last by apply/ms2_vshapeP; split; rewrite /= ?h1 ?h2 ?hu ?hv.
by rewrite /ms2_veq ?hu ?hv h3.
Qed.

Lemma quad_prove_hon {E : pairing} (R : rng E) (sch : sched) (q : QuadEqu E) (X : seq (Fr E)) (Y : seq (Fr E)) cx cy crs (s : rst R) : valid_sched sch ->
  quad_pshape q (size X) (size Y) cx cy crs ->
  seen (fun g => (pi g, theta g)) (quad_prove sch q X Y cx cy crs s) = Ok (hon (size X) (size Y) 1 1 (nth 0 [seq s1map crs y | y <- quad_a q]) (nth 0 [seq s1map crs x | x <- X]) (nth 0 (crs_u crs)) (nth 0 [seq s2map crs y | y <- quad_b q]) (nth 0 [seq s2map crs y | y <- Y]) (nth 0 (crs_v crs)) (ent 0 (quad_gamma q)) (ent 0 (crand cx)) (ent 0 (crand cy)) (drawn s)).
Proof.
move=> vs h; rewrite (quad_prove_Ok vs s h); cbv beta iota delta [seen quad_pf pi theta hon]; congr (Ok (_, _)).
- apply: eq_in_mkseq => i hi; apply: eq_pi_fun; [by move=> [|[|l]] | by [] | by [] |].
  by move=> l hl; rewrite ent_mkmat // /Tt; move: hi hl; case: i => [|[|i]] //; case: l => [|[|l]].
apply: eq_in_mkseq => l hl; apply: eq_th_fun; [by move=> [|[|i]] | by [] |].
by move=> i hi; rewrite ent_mkmat // /Tt; move: hi hl; case: i => [|[|i]] //; case: l => [|[|l]].
Qed.

Lemma quad_prove_sizes {E : pairing} (R : rng E) (sch : sched) (q : QuadEqu E) (X : seq (Fr E)) (Y : seq (Fr E)) cx cy crs (s s' : rst R) pf : valid_sched sch ->
  quad_prove sch q X Y cx cy crs s = Ok (pf, s') -> equ_type pf = Quadratic /\ size (pi pf) = 1%N /\ size (theta pf) = 1%N.
Proof.
move=> vs h; have hs : quad_pshape q (size X) (size Y) cx cy crs.
  by refine (etrans (esym (isok_quad_prove vs q X Y cx cy crs s)) _); rewrite h.
have e := congr1 fst (Ok_inj (etrans (esym h) (quad_prove_Ok vs s hs))); rewrite [LHS]/= in e.
by rewrite e.
Qed.

Lemma k_C59_quad : forall (E : pairing) (sch sch' : sched) (q : QuadEqu E) (X : seq (Fr E)) (Y : seq (Fr E)) (cx : Commit1 E) (cy : Commit2 E) (crs : CRS E) (pf : EquProof E),
  bilinear E -> nondegenerate E -> cyclic (G1 E) -> cyclic (G2 E) -> valid_sched sch -> valid_sched sch' -> binding_crs crs \/ hiding_crs crs -> proper_crs crs ->
  made_B1 crs X cx -> made_B2 crs Y cy -> (0 < size X)%N -> (0 < size Y)%N -> quad_wf q (size X) (size Y) -> quad_holds q X Y ->
  equ_type pf = Quadratic -> size (pi pf) = 1%N -> size (theta pf) = 1%N ->
  (quad_verify sch' q (mkCProof cx cy [:: pf]) crs = Ok true <->
   exists! t : 1.-tuple (Fr E), yields (fun R s => quad_prove (R := R) sch q X Y cx cy crs s) pf t).
Proof.
move=> E sch sch' q X Y cx cy crs pf hb hn hc1 hc2 vs vs' hk hp mx my hX hY wf hold ety sp st.
have tk : two_keys crs by case: hk; [exact: binding_two_keys | exact: hiding_two_keys].
have hO (R : rng E) (s : rst R) : isok (quad_prove sch q X Y cx cy crs s) by apply: quad_prove_total.
have ps : quad_pshape q (size X) (size Y) cx cy crs.
  exact: (etrans (esym (isok_quad_prove vs q X Y cx cy crs ([::] : rst (@tape_rng E)))) (hO _ _)).
have hH (R : rng E) (s : rst R) := quad_prove_hon s vs ps.
have acc (R : rng E) (s : rst R) pf0 s' : quad_prove sch q X Y cx cy crs s = Ok (pf0, s') -> quad_verify sch' q (mkCProof cx cy [:: pf0]) crs = Ok true.
  move=> e0; exact: (quad_ok vs hb vs' mx my e0 hold).
have hTt (t : nat -> Fr E) t' : (forall k, (k < 1)%N -> t k = t' k) -> _ := @TtE E (size X) (size Y) 1 1 1 _ _ _ _ _ _ _ _ _ erefl t t'.
split=> [h|[t [ht _]]]; last first.
  have /isokP[[pf0 s'] e0] := hO _ (tval t : rst (@tape_rng E)).
  rewrite -(acc _ _ _ _ e0); apply: k_C33_quad_randomness.
  have := ht _ _ (draws_tape t); rewrite e0 => e1; have e5 := Ok_inj e1.
  have e2 : pi pf0 = pi pf := congr1 fst e5; have e3 : theta pf0 = theta pf := congr1 snd e5.
  have e4 : equ_type pf0 = Quadratic by have := Ok_inj (etrans (esym e0) (quad_prove_Ok vs _ ps)) => -[-> _].
  by rewrite /public /= e2 e3 ety e4.
have /isokP[[pf0 s'] e0] := hO _ ([::] : rst (@tape_rng E)).
have h0 := acc _ _ _ _ e0.
have hs : quad_vshape q cx cy pf crs by rewrite -(isok_quad_verify vs') h.
have hs0 : quad_vshape q cx cy pf0 crs by rewrite -(isok_quad_verify vs') h0.
have e := Ok_inj (etrans (esym (quad_verify_Ok vs' hs)) h); have e' := Ok_inj (etrans (esym (quad_verify_Ok vs' hs0)) h0).
move: e e'; rewrite /quad_veq; case: (tk) => hu hv; rewrite ?hu ?hv => /eqP e /eqP e'.
have := etrans (esym e) e'; rewrite -[LHS]addrA -[RHS]addrA => /addrI ee.
have := hH _ ([::] : rst (@tape_rng E)); rewrite e0 => e1; have e2 := Ok_inj e1.
have e3 := congr1 fst e2; have e4 := congr1 snd e2; rewrite [LHS]/= in e3; rewrite [LHS]/= in e4; rewrite e3 e4 in ee.
have [t [ht hu']] := hon_unique (N := 1) (kx := 1) (ky := 1) hb erefl (splits11 hb hn hc1 hp hk) (free1 hp hk) sp st ee.
exists t; split.
  move=> R s hs1; rewrite hH; apply: congr1; rewrite -ht; apply: hTt => k hk1; exact: drawn_draws.
move=> t' /(_ _ _ (draws_tape t')); rewrite hH => e5; apply: hu'; rewrite -(Ok_inj e5); apply: hTt => k hk1.
by apply/esym; apply: drawn_draws => //; exact: draws_tape.
Qed.

Lemma k_C63_quad : forall (E : pairing) (sch : sched) (q : QuadEqu E) (cx : Commit1 E) (cy : Commit2 E) (crs : CRS E),
  bilinear E -> nondegenerate E -> cyclic (G1 E) -> cyclic (G2 E) -> valid_sched sch -> binding_crs crs -> proper_crs crs ->
  (0 < size (coms cx))%N -> (0 < size (coms cy))%N -> quad_wf q (size (coms cx)) (size (coms cy)) ->
  (exists pf, quad_verify sch q (mkCProof cx cy [:: pf]) crs = Ok true) <->
  (exists X Y, [/\ commits_B1 crs (coms cx) X, commits_B2 crs (coms cy) Y & quad_holds q X Y]).
Proof.
move=> E sch q cx cy crs hb hn hc1 hc2 vs bk hp hX hY wf; split=> [[pf h]|[X [Y [[hx cX] [hy cY] hold]]]].
  case: (hp) => hp1 hp2.
  have [X [x [Y [y [[h1 h2 h3 h4] [k1 k2 k3 k4]]]]]] := joint hb vs hn bk hc1 hc2 hp1 hp2 (coms cx) (coms cx) (coms cy) (coms cy).
  by exists x, y; split=> //; apply: k4 h.
have [rx mx] := commits_made hx cX; have [ry my] := commits_made hy cY.
rewrite -hx in hX wf; rewrite -hy in hY wf.
have /isokP[[pf s'] e0] := quad_prove_total vs ([::] : rst (@tape_rng E)) hX hY wf (binding_two_keys bk) mx my.
exists pf; rewrite (@k_C33_quad_randomness E sch q (mkCProof cx cy [:: pf]) (mkCProof (mkCommit (coms cx) rx) (mkCommit (coms cy) ry) [:: pf])) //.
exact: (quad_ok vs hb vs mx my e0 hold).
Qed.

Lemma k_C64_quad : forall (E : pairing) (sch : sched) (q : QuadEqu E) (cx : Commit1 E) (cy : Commit2 E) (crs : CRS E) x y,
  bilinear E -> valid_sched sch -> hiding_crs crs -> commits_B1 crs (coms cx) x -> commits_B2 crs (coms cy) y ->
  size (quad_a q) = size (coms cy) -> size (quad_b q) = size (coms cx) -> gamma_fits (size (coms cx)) (size (coms cy)) (quad_gamma q) ->
  exists pf, quad_verify sch q (mkCProof cx cy [:: pf]) crs = Ok true.
Proof.
move=> E sch q cx cy crs x y hb vs hk hx hy ha hb' hg; have [hu hv] := hiding_two_keys hk.
have [z h] := veq_flat hb hk (quad_a q) (quad_b q) (quad_gamma q) (quad_target q) hx hy.
exists (mkEquProof [:: z *: v1 crs] [:: 0] Quadratic [::]).
rewrite (quad_verify_Ok vs); last by apply/quad_vshapeP; split; rewrite /= ?hu ?hv.
by rewrite /quad_veq h.
Qed.
