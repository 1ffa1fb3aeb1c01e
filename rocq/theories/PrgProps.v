(** A generator that is not truly random: proofs for the properties. *)
From mathcomp Require Import all_ssreflect all_algebra.
From Verif Require Import Base BaseLemmas Group DataStructures MatLemmas CoreAlg ComLemmas.
From Verif Require Import Generator Commit Statement Prove Verify Spec SpecVerify SpecHide SpecSxdh SpecMulti SpecAdaptive SpecError SpecPanic SpecPrg.
From Verif Require Import ProveLemmas CommitLemmas Draws HideTape HideProps SoundGen Sxdh MultiLemmas MultiProps Adaptive ErrorLemmas PrgLemmas.
Set Implicit Arguments.
Unset Strict Implicit.
Unset Printing Implicit Defensive.
Import Order.Theory GRing.Theory Num.Theory.
Local Open Scope ring_scope.

Section Games.
Context {F : finFieldType} {A B C : lmodType F} {e : A -> B -> C}.
Local Notation E := (Pairing e).
Context {R : rng E} {K O1 O2 W : finType} (seed : K -> rst R) (s1 : O1 -> A) (s2 : O2 -> B).

(** The reference string as the outcome of a prover that does nothing. *)
Lemma seeded_crs (D : W -> pred (CRS E)) :
  `|Pr (fun x : W * K => D x.1 (generate_crs (seed x.2)).1) - game s1 s2 real_crs D|
  = prg_adv seed s1 s2 (fun w (o : A * B * 4.-tuple F) => D w (real_crs o.1.1 o.1.2 (tnth o.2 (inord 0)) (tnth o.2 (inord 1)) (tnth o.2 (inord 2)) (tnth o.2 (inord 3)))).
Proof.
pose f := fun (w : W) (crs : CRS E) (R : rng E) (s : rst R) => Ok (tt, s).
pose D' := fun w crs (_ : res unit) => D w crs.
have hf w crs : determined 0 id (f w crs) by [].
have nth4 (t : 4.-tuple F) i : (i < 4)%N -> nth 0 t i = tnth t (inord i) by move=> hi; rewrite (tnth_nth 0) inordK.
have h := @seeded_game F A B C e R K seed O1 O2 W s1 s2 unit unit D' id 0 f hf.
have e1 : seeded seed D' id f = Pr (fun x : W * K => D x.1 (generate_crs (seed x.2)).1).
  by apply: eq_Pr => -[w k] /=; case: (generate_crs _).
have e2 : game s1 s2 real_crs (proof_test (N := 0) D' id f) = game s1 s2 real_crs D.
  apply: (Pr_bij (h := fun x : (W * 0.-tuple F) * (O1 * O2 * (F * F * F * F)) => (x.1.1, x.2))) => [|[[w t] [[o1 o2] [[[a b] c] d]]] //].
  by exists (fun y => ((y.1, [tuple]), y.2)) => [[[w t] y]|[w y]] //=; rewrite (tuple0 t).
rewrite e1 e2 in h; rewrite h /prg_adv; congr (`|_ - _|).
  apply: eq_Pr => -[w k]; rewrite /prg_test; set o := outputs _ _.
  by rewrite gen_queue ?size_tuple // !nth4.
by apply: eq_Pr => -[w [[o1 o2] t]]; rewrite /prg_test gen_queue ?size_tuple // !nth4.
Qed.

Lemma gen_points (s : rst R) : (g1_gen (generate_crs s).1 = (outputs 0 s).1.1) * (g2_gen (generate_crs s).1 = (outputs 0 s).1.2).
Proof.
rewrite /generate_crs /outputs /=; case: (rand_g1 s) => p1 z1 /=; case: (rand_g2 z1) => p2 z2 /=.
by split; do 4 case: (rand_fr _) => ? ? /=.
Qed.
Lemma seeded_bad (X : pred (W * K)) (bad : A -> B -> bool) (b : rat) :
  (forall w k, X (w, k) -> bad (g1_gen (generate_crs (seed k)).1) (g2_gen (generate_crs (seed k)).1)) ->
  Pr (fun o : O1 * O2 => bad (s1 o.1) (s2 o.2)) <= b ->
  Pr X <= prg_adv seed s1 s2 (fun (_ : unit) (o : A * B * 0.-tuple F) => bad o.1.1 o.1.2) + b.
Proof.
move=> hX hb; pose T := fun (_ : unit) (o : A * B * 0.-tuple F) => bad o.1.1 o.1.2; rewrite -[X in prg_adv _ _ _ X]/T.
have h1 : Pr X <= prg_real seed T.
  apply: le_trans (_ : Pr (fun x : W * K => bad (g1_gen (generate_crs (seed x.2)).1) (g2_gen (generate_crs (seed x.2)).1)) <= _).
    by apply: Pr_le => -[w k]; exact: hX.
  apply: le_trans (@Pr_snd W K (fun k => bad (g1_gen (generate_crs (seed k)).1) (g2_gen (generate_crs (seed k)).1))) _; rewrite le_eqVlt; apply/orP; left; apply/eqP.
  apply: (Pr_bij (h := fun k : K => (tt, k))) => [|k]; first by exists snd => [k|[[] k]].
  by rewrite /T !gen_points.
have h2 : prg_ideal s1 s2 T <= b.
  apply: le_trans hb; rewrite le_eqVlt; apply/orP; left; apply/eqP.
  apply: (Pr_bij (h := fun x : unit * (O1 * O2 * 0.-tuple F) => x.2.1)) => [|[[] [o t]]] //.
  by exists (fun o => (tt, (o, [tuple]))) => [[[] [o t]]|o] //=; rewrite (tuple0 t).
have h3 : prg_real seed T - prg_ideal s1 s2 T <= prg_adv seed s1 s2 T by exact: ler_norm.
apply: le_trans h1 _; rewrite -[X in X <= _](subrK (prg_ideal s1 s2 T)); exact: ler_add h3 h2.
Qed.
End Games.

Lemma k_C89_commit_G1 : forall (E : pairing) (x : G1 E) (crs : CRS E),
  determined (2) id (fun R s => commit_G1 (R := R) x crs s).
Proof.
exact: @G1_det.
Qed.

Lemma k_C89_commit_G2 : forall (E : pairing) (x : G2 E) (crs : CRS E),
  determined (2) id (fun R s => commit_G2 (R := R) x crs s).
Proof.
exact: @G2_det.
Qed.

Lemma k_C89_commit_scalar_to_B1 : forall (E : pairing) (x : Fr E) (crs : CRS E),
  determined (1) id (fun R s => commit_scalar_to_B1 (R := R) x crs s).
Proof.
exact: @B1_det.
Qed.

Lemma k_C89_commit_scalar_to_B2 : forall (E : pairing) (x : Fr E) (crs : CRS E),
  determined (1) id (fun R s => commit_scalar_to_B2 (R := R) x crs s).
Proof.
exact: @B2_det.
Qed.

Lemma k_C89_batch_commit_G1 : forall (E : pairing) (x : seq (G1 E)) (crs : CRS E),
  determined (2 * size x) id (fun R s => batch_commit_G1 (R := R) x crs s).
Proof.
exact: @G1_batch_det.
Qed.

Lemma k_C89_batch_commit_G2 : forall (E : pairing) (x : seq (G2 E)) (crs : CRS E),
  determined (2 * size x) id (fun R s => batch_commit_G2 (R := R) x crs s).
Proof.
exact: @G2_batch_det.
Qed.

Lemma k_C89_batch_commit_scalar_to_B1 : forall (E : pairing) (x : seq (Fr E)) (crs : CRS E),
  determined (size x) id (fun R s => batch_commit_scalar_to_B1 (R := R) x crs s).
Proof.
exact: @B1_batch_det.
Qed.

Lemma k_C89_batch_commit_scalar_to_B2 : forall (E : pairing) (x : seq (Fr E)) (crs : CRS E),
  determined (size x) id (fun R s => batch_commit_scalar_to_B2 (R := R) x crs s).
Proof.
exact: @B2_batch_det.
Qed.

Lemma k_C89_ppe_prove : forall (E : pairing) (sch : sched), valid_sched sch ->
  forall (q : PPE E) (X : seq (G1 E)) (Y : seq (G2 E)) (cx : Commit1 E) (cy : Commit2 E) (crs : CRS E),
  determined 4 id (fun R s => ppe_prove (R := R) sch q X Y cx cy crs s).
Proof.
exact: @ppe_prove_det.
Qed.

Lemma k_C89_ppe_cap : forall (E : pairing) (sch : sched), valid_sched sch ->
  forall (q : PPE E) (X : seq (G1 E)) (Y : seq (G2 E)) (crs : CRS E),
  determined (2 * size X + (2 * size Y + 4)) id (fun R s => ppe_commit_and_prove (R := R) sch q X Y crs s).
Proof.
exact: @ppe_cap_det.
Qed.

Lemma k_C89_ms1_prove : forall (E : pairing) (sch : sched), valid_sched sch ->
  forall (q : MSMEG1 E) (X : seq (G1 E)) (Y : seq (Fr E)) (cx : Commit1 E) (cy : Commit2 E) (crs : CRS E),
  determined 2 id (fun R s => ms1_prove (R := R) sch q X Y cx cy crs s).
Proof.
exact: @ms1_prove_det.
Qed.

Lemma k_C89_ms1_cap : forall (E : pairing) (sch : sched), valid_sched sch ->
  forall (q : MSMEG1 E) (X : seq (G1 E)) (Y : seq (Fr E)) (crs : CRS E),
  determined (2 * size X + (size Y + 2)) id (fun R s => ms1_commit_and_prove (R := R) sch q X Y crs s).
Proof.
exact: @ms1_cap_det.
Qed.

Lemma k_C89_ms2_prove : forall (E : pairing) (sch : sched), valid_sched sch ->
  forall (q : MSMEG2 E) (X : seq (Fr E)) (Y : seq (G2 E)) (cx : Commit1 E) (cy : Commit2 E) (crs : CRS E),
  determined 2 id (fun R s => ms2_prove (R := R) sch q X Y cx cy crs s).
Proof.
exact: @ms2_prove_det.
Qed.

Lemma k_C89_ms2_cap : forall (E : pairing) (sch : sched), valid_sched sch ->
  forall (q : MSMEG2 E) (X : seq (Fr E)) (Y : seq (G2 E)) (crs : CRS E),
  determined (size X + (2 * size Y + 2)) id (fun R s => ms2_commit_and_prove (R := R) sch q X Y crs s).
Proof.
exact: @ms2_cap_det.
Qed.

Lemma k_C89_quad_prove : forall (E : pairing) (sch : sched), valid_sched sch ->
  forall (q : QuadEqu E) (X : seq (Fr E)) (Y : seq (Fr E)) (cx : Commit1 E) (cy : Commit2 E) (crs : CRS E),
  determined 1 id (fun R s => quad_prove (R := R) sch q X Y cx cy crs s).
Proof.
exact: @quad_prove_det.
Qed.

Lemma k_C89_quad_cap : forall (E : pairing) (sch : sched), valid_sched sch ->
  forall (q : QuadEqu E) (X : seq (Fr E)) (Y : seq (Fr E)) (crs : CRS E),
  determined (size X + (size Y + 1)) id (fun R s => quad_commit_and_prove (R := R) sch q X Y crs s).
Proof.
exact: @quad_cap_det.
Qed.

Lemma k_C89_system : forall (E : pairing) (sch : sched), valid_sched sch ->
  forall (qs : seq (eqn E)) (v : assign E) (crs : CRS E),
  determined (system_draws qs v) id (fun R s => prove_system (R := R) sch qs v crs s).
Proof.
exact: @system_det.
Qed.

Lemma k_C89_session : forall (E : pairing) (sch : sched) (k M N : nat) (qs : seq answer -> seq (eqn E)) (v : seq answer -> assign E) (crs : CRS E),
  valid_sched sch -> (k * M <= N)%N -> (forall h, (system_draws (qs h) (v h) <= M)%N) -> determined N id (prover sch k qs v crs).
Proof.
exact: prover_det.
Qed.

Lemma k_C89_game : forall (F : finFieldType) (A B C : lmodType F) (e : A -> B -> C), let E := Pairing e in
  forall (R : rng E) (K O1 O2 W : finType) (seed : K -> rst R) (s1 : O1 -> A) (s2 : O2 -> B) (T V : Type)
  (D : W -> CRS E -> pred (res V)) (view : T -> V) (N : nat) (f : W -> CRS E -> forall R : rng E, rst R -> res (T * rst R)),
  (forall w crs, determined N view (f w crs)) ->
  `|seeded seed D view f - game s1 s2 real_crs (proof_test (N := N) D view f)| = prg_adv seed s1 s2 (prg_test D view f (N := N)).
Proof.
by move=> F A B C e E R K O1 O2 W seed s1 s2 T V D view N f hf; exact: seeded_game.
Qed.

Lemma k_C89_crs : forall (F : finFieldType) (A B C : lmodType F) (e : A -> B -> C), let E := Pairing e in
  forall (R : rng E) (K O1 O2 W : finType) (seed : K -> rst R) (s1 : O1 -> A) (s2 : O2 -> B) (D : W -> pred (CRS E)),
  `|Pr (fun x : W * K => D x.1 (generate_crs (seed x.2)).1) - game s1 s2 real_crs D|
  = prg_adv seed s1 s2 (fun w (o : A * B * 4.-tuple F) => D w (real_crs o.1.1 o.1.2 (tnth o.2 (inord 0)) (tnth o.2 (inord 1)) (tnth o.2 (inord 2)) (tnth o.2 (inord 3)))).
Proof.
by move=> F A B C e E R K O1 O2 W seed s1 s2 D; exact: seeded_crs.
Qed.

Lemma k_C89_ppe_wi : forall (F : finFieldType) (A B C : lmodType F) (e : A -> B -> C), let E := Pairing e in
  forall (R : rng E) (K O1 O2 W : finType) (seed : K -> rst R) (s1 : O1 -> A) (s2 : O2 -> B) (D : W -> CRS E -> pred _)
  (sch sch' : sched) (m n : nat) (q : W -> CRS E -> PPE E) (X X' : W -> CRS E -> seq A) (Y Y' : W -> CRS E -> seq B),
  bilinear E -> nondegenerate E -> cyclic (G1 E) -> cyclic (G2 E) -> valid_sched sch -> valid_sched sch' -> (0 < m)%N -> (0 < n)%N ->
  (forall w crs, [/\ size (X w crs) = m, size (Y w crs) = n, size (X' w crs) = m & size (Y' w crs) = n]) ->
  (forall w crs, proper_crs crs -> [/\ ppe_wf (q w crs) m n, ppe_holds (q w crs) (X w crs) (Y w crs) & ppe_holds (q w crs) (X' w crs) (Y' w crs)]) ->
  let N := (2 * m + (2 * n + 4))%N in
  let f1 := (fun w crs R s => ppe_commit_and_prove (R := R) sch (q w crs) (X w crs) (Y w crs) crs s) in
  let f2 := (fun w crs R s => ppe_commit_and_prove (R := R) sch' (q w crs) (X' w crs) (Y' w crs) crs s) in
  let B1 := proof_test (N := N) D public f1 in let B2 := proof_test (N := N) D public f2 in
  is_true (`|seeded seed D public f1 - seeded seed D public f2| <=
  prg_adv seed s1 s2 (prg_test D public f1 (N := N)) + prg_adv seed s1 s2 (prg_test D public f2 (N := N))
  + ((ddh_adv s1 (ddh1 s2 B1) + ddh_adv s1 (ddh2 s2 B1) + ddh_adv s2 (ddh3 s1 B1) + ddh_adv s2 (ddh4 s1 B1))
  + (ddh_adv s1 (ddh1 s2 B2) + ddh_adv s1 (ddh2 s2 B2) + ddh_adv s2 (ddh3 s1 B2) + ddh_adv s2 (ddh4 s1 B2)) + bad_point s1 s2)).
Proof.
move=> F A B C e E R K O1 O2 W seed s1 s2 D sch sch' m n q X X' Y Y' hb hnd ca cb vs vs' hm hn hs hw N f1 f2 B1 B2.
apply: seeded_step => [w crs|w crs|]; last exact: (ppe_comp_wi_ddh s1 s2 D hb hnd ca cb vs vs' hm hn hs hw).
  have [z1 z2 _ _] := hs w crs; rewrite /N -z1 -z2; apply: determined_view; exact: ppe_cap_det.
have [_ _ z1 z2] := hs w crs; rewrite /N -z1 -z2; apply: determined_view; exact: ppe_cap_det.
Qed.

Lemma k_C89_ms1_wi : forall (F : finFieldType) (A B C : lmodType F) (e : A -> B -> C), let E := Pairing e in
  forall (R : rng E) (K O1 O2 W : finType) (seed : K -> rst R) (s1 : O1 -> A) (s2 : O2 -> B) (D : W -> CRS E -> pred _)
  (sch sch' : sched) (m n : nat) (q : W -> CRS E -> MSMEG1 E) (X X' : W -> CRS E -> seq A) (Y Y' : W -> CRS E -> seq F),
  bilinear E -> nondegenerate E -> cyclic (G1 E) -> cyclic (G2 E) -> valid_sched sch -> valid_sched sch' -> (0 < m)%N -> (0 < n)%N ->
  (forall w crs, [/\ size (X w crs) = m, size (Y w crs) = n, size (X' w crs) = m & size (Y' w crs) = n]) ->
  (forall w crs, proper_crs crs -> [/\ ms1_wf (q w crs) m n, ms1_holds (q w crs) (X w crs) (Y w crs) & ms1_holds (q w crs) (X' w crs) (Y' w crs)]) ->
  let N := (2 * m + (n + 2))%N in
  let f1 := (fun w crs R s => ms1_commit_and_prove (R := R) sch (q w crs) (X w crs) (Y w crs) crs s) in
  let f2 := (fun w crs R s => ms1_commit_and_prove (R := R) sch' (q w crs) (X' w crs) (Y' w crs) crs s) in
  let B1 := proof_test (N := N) D public f1 in let B2 := proof_test (N := N) D public f2 in
  is_true (`|seeded seed D public f1 - seeded seed D public f2| <=
  prg_adv seed s1 s2 (prg_test D public f1 (N := N)) + prg_adv seed s1 s2 (prg_test D public f2 (N := N))
  + ((ddh_adv s1 (ddh1 s2 B1) + ddh_adv s1 (ddh2 s2 B1) + ddh_adv s2 (ddh3 s1 B1) + ddh_adv s2 (ddh4 s1 B1))
  + (ddh_adv s1 (ddh1 s2 B2) + ddh_adv s1 (ddh2 s2 B2) + ddh_adv s2 (ddh3 s1 B2) + ddh_adv s2 (ddh4 s1 B2)) + bad_point s1 s2)).
Proof.
move=> F A B C e E R K O1 O2 W seed s1 s2 D sch sch' m n q X X' Y Y' hb hnd ca cb vs vs' hm hn hs hw N f1 f2 B1 B2.
apply: seeded_step => [w crs|w crs|]; last exact: (ms1_comp_wi_ddh s1 s2 D hb hnd ca cb vs vs' hm hn hs hw).
  have [z1 z2 _ _] := hs w crs; rewrite /N -z1 -z2; apply: determined_view; exact: ms1_cap_det.
have [_ _ z1 z2] := hs w crs; rewrite /N -z1 -z2; apply: determined_view; exact: ms1_cap_det.
Qed.

Lemma k_C89_ms2_wi : forall (F : finFieldType) (A B C : lmodType F) (e : A -> B -> C), let E := Pairing e in
  forall (R : rng E) (K O1 O2 W : finType) (seed : K -> rst R) (s1 : O1 -> A) (s2 : O2 -> B) (D : W -> CRS E -> pred _)
  (sch sch' : sched) (m n : nat) (q : W -> CRS E -> MSMEG2 E) (X X' : W -> CRS E -> seq F) (Y Y' : W -> CRS E -> seq B),
  bilinear E -> nondegenerate E -> cyclic (G1 E) -> cyclic (G2 E) -> valid_sched sch -> valid_sched sch' -> (0 < m)%N -> (0 < n)%N ->
  (forall w crs, [/\ size (X w crs) = m, size (Y w crs) = n, size (X' w crs) = m & size (Y' w crs) = n]) ->
  (forall w crs, proper_crs crs -> [/\ ms2_wf (q w crs) m n, ms2_holds (q w crs) (X w crs) (Y w crs) & ms2_holds (q w crs) (X' w crs) (Y' w crs)]) ->
  let N := (m + (2 * n + 2))%N in
  let f1 := (fun w crs R s => ms2_commit_and_prove (R := R) sch (q w crs) (X w crs) (Y w crs) crs s) in
  let f2 := (fun w crs R s => ms2_commit_and_prove (R := R) sch' (q w crs) (X' w crs) (Y' w crs) crs s) in
  let B1 := proof_test (N := N) D public f1 in let B2 := proof_test (N := N) D public f2 in
  is_true (`|seeded seed D public f1 - seeded seed D public f2| <=
  prg_adv seed s1 s2 (prg_test D public f1 (N := N)) + prg_adv seed s1 s2 (prg_test D public f2 (N := N))
  + ((ddh_adv s1 (ddh1 s2 B1) + ddh_adv s1 (ddh2 s2 B1) + ddh_adv s2 (ddh3 s1 B1) + ddh_adv s2 (ddh4 s1 B1))
  + (ddh_adv s1 (ddh1 s2 B2) + ddh_adv s1 (ddh2 s2 B2) + ddh_adv s2 (ddh3 s1 B2) + ddh_adv s2 (ddh4 s1 B2)) + bad_point s1 s2)).
Proof.
move=> F A B C e E R K O1 O2 W seed s1 s2 D sch sch' m n q X X' Y Y' hb hnd ca cb vs vs' hm hn hs hw N f1 f2 B1 B2.
apply: seeded_step => [w crs|w crs|]; last exact: (ms2_comp_wi_ddh s1 s2 D hb hnd ca cb vs vs' hm hn hs hw).
  have [z1 z2 _ _] := hs w crs; rewrite /N -z1 -z2; apply: determined_view; exact: ms2_cap_det.
have [_ _ z1 z2] := hs w crs; rewrite /N -z1 -z2; apply: determined_view; exact: ms2_cap_det.
Qed.

Lemma k_C89_quad_wi : forall (F : finFieldType) (A B C : lmodType F) (e : A -> B -> C), let E := Pairing e in
  forall (R : rng E) (K O1 O2 W : finType) (seed : K -> rst R) (s1 : O1 -> A) (s2 : O2 -> B) (D : W -> CRS E -> pred _)
  (sch sch' : sched) (m n : nat) (q : W -> CRS E -> QuadEqu E) (X X' : W -> CRS E -> seq F) (Y Y' : W -> CRS E -> seq F),
  bilinear E -> nondegenerate E -> cyclic (G1 E) -> cyclic (G2 E) -> valid_sched sch -> valid_sched sch' -> (0 < m)%N -> (0 < n)%N ->
  (forall w crs, [/\ size (X w crs) = m, size (Y w crs) = n, size (X' w crs) = m & size (Y' w crs) = n]) ->
  (forall w crs, proper_crs crs -> [/\ quad_wf (q w crs) m n, quad_holds (q w crs) (X w crs) (Y w crs) & quad_holds (q w crs) (X' w crs) (Y' w crs)]) ->
  let N := (m + (n + 1))%N in
  let f1 := (fun w crs R s => quad_commit_and_prove (R := R) sch (q w crs) (X w crs) (Y w crs) crs s) in
  let f2 := (fun w crs R s => quad_commit_and_prove (R := R) sch' (q w crs) (X' w crs) (Y' w crs) crs s) in
  let B1 := proof_test (N := N) D public f1 in let B2 := proof_test (N := N) D public f2 in
  is_true (`|seeded seed D public f1 - seeded seed D public f2| <=
  prg_adv seed s1 s2 (prg_test D public f1 (N := N)) + prg_adv seed s1 s2 (prg_test D public f2 (N := N))
  + ((ddh_adv s1 (ddh1 s2 B1) + ddh_adv s1 (ddh2 s2 B1) + ddh_adv s2 (ddh3 s1 B1) + ddh_adv s2 (ddh4 s1 B1))
  + (ddh_adv s1 (ddh1 s2 B2) + ddh_adv s1 (ddh2 s2 B2) + ddh_adv s2 (ddh3 s1 B2) + ddh_adv s2 (ddh4 s1 B2)) + bad_point s1 s2)).
Proof.
move=> F A B C e E R K O1 O2 W seed s1 s2 D sch sch' m n q X X' Y Y' hb hnd ca cb vs vs' hm hn hs hw N f1 f2 B1 B2.
apply: seeded_step => [w crs|w crs|]; last exact: (quad_comp_wi_ddh s1 s2 D hb hnd ca cb vs vs' hm hn hs hw).
  have [z1 z2 _ _] := hs w crs; rewrite /N -z1 -z2; apply: determined_view; exact: quad_cap_det.
have [_ _ z1 z2] := hs w crs; rewrite /N -z1 -z2; apply: determined_view; exact: quad_cap_det.
Qed.

Lemma k_C89_ppe_zk : forall (F : finFieldType) (A B C : lmodType F) (e : A -> B -> C), let E := Pairing e in
  forall (R : rng E) (K O1 O2 W : finType) (seed : K -> rst R) (s1 : O1 -> A) (s2 : O2 -> B) (D : W -> CRS E -> pred _)
  (sch sch' : sched) (m n : nat) (q : W -> CRS E -> PPE E) (X : W -> CRS E -> seq A) (Y : W -> CRS E -> seq B) (k l : W -> CRS E -> F) (P : W -> CRS E -> A) (Q : W -> CRS E -> B),
  bilinear E -> nondegenerate E -> cyclic (G1 E) -> cyclic (G2 E) -> valid_sched sch -> valid_sched sch' -> (0 < m)%N -> (0 < n)%N ->
  (forall w crs, size (X w crs) = m /\ size (Y w crs) = n) ->
  (forall w crs, proper_crs crs -> ppe_wf (q w crs) m n /\ ppe_holds (q w crs) (X w crs) (Y w crs)) ->
  (forall w crs, proper_crs crs -> ppe_target (q w crs) = e (k w crs *: g1_gen crs) (Q w crs) + e (P w crs) (l w crs *: g2_gen crs)) ->
  let N := (2 * m + (2 * n + 4))%N in
  let f1 := (fun w crs R s => ppe_commit_and_prove (R := R) sch (q w crs) (X w crs) (Y w crs) crs s) in
  let B1 := proof_test (N := N) D public f1 in
  is_true (`|seeded seed D public f1 -
    sim_game N D s1 s2 (fun t1 t2 w crs p => public (ppe_fix (E := E) t1 t2 (k w crs) (l w crs) (P w crs) (Q w crs) p))
      (fun w crs R s => ppe_commit_and_prove (R := R) sch' (q w crs) (nseq m 0) (nseq n 0) crs s)| <=
  prg_adv seed s1 s2 (prg_test D public f1 (N := N))
  + ((ddh_adv s1 (ddh1 s2 B1) + ddh_adv s1 (ddh2 s2 B1) + ddh_adv s2 (ddh3 s1 B1) + ddh_adv s2 (ddh4 s1 B1)) + bad_point s1 s2)).
Proof.
move=> F A B C e E R K O1 O2 W seed s1 s2 D sch sch' m n q X Y k l P Q hb hnd ca cb vs vs' hm hn hs hw hf N f1 B1.
apply: seeded_sim => [w crs|]; last exact: (ppe_comp_zk_ddh s1 s2 D hb hnd ca cb vs vs' hm hn hs hw hf).
have [z1 z2] := hs w crs; rewrite /N -z1 -z2; apply: determined_view; exact: ppe_cap_det.
Qed.

Lemma k_C89_ms1_zk : forall (F : finFieldType) (A B C : lmodType F) (e : A -> B -> C), let E := Pairing e in
  forall (R : rng E) (K O1 O2 W : finType) (seed : K -> rst R) (s1 : O1 -> A) (s2 : O2 -> B) (D : W -> CRS E -> pred _)
  (sch sch' : sched) (m n : nat) (q : W -> CRS E -> MSMEG1 E) (X : W -> CRS E -> seq A) (Y : W -> CRS E -> seq F),
  bilinear E -> nondegenerate E -> cyclic (G1 E) -> cyclic (G2 E) -> valid_sched sch -> valid_sched sch' -> (0 < m)%N -> (0 < n)%N ->
  (forall w crs, size (X w crs) = m /\ size (Y w crs) = n) ->
  (forall w crs, proper_crs crs -> ms1_wf (q w crs) m n /\ ms1_holds (q w crs) (X w crs) (Y w crs)) ->
  let N := (2 * m + (n + 2))%N in
  let f1 := (fun w crs R s => ms1_commit_and_prove (R := R) sch (q w crs) (X w crs) (Y w crs) crs s) in
  let B1 := proof_test (N := N) D public f1 in
  is_true (`|seeded seed D public f1 -
    sim_game N D s1 s2 (fun t1 t2 w crs p => public (ms1_fix (E := E) t1 t2 (q w crs) p))
      (fun w crs R s => ms1_commit_and_prove (R := R) sch' (q w crs) (nseq m 0) (nseq n 0) crs s)| <=
  prg_adv seed s1 s2 (prg_test D public f1 (N := N))
  + ((ddh_adv s1 (ddh1 s2 B1) + ddh_adv s1 (ddh2 s2 B1) + ddh_adv s2 (ddh3 s1 B1) + ddh_adv s2 (ddh4 s1 B1)) + bad_point s1 s2)).
Proof.
move=> F A B C e E R K O1 O2 W seed s1 s2 D sch sch' m n q X Y hb hnd ca cb vs vs' hm hn hs hw N f1 B1.
apply: seeded_sim => [w crs|]; last exact: (ms1_comp_zk_ddh s1 s2 D hb hnd ca cb vs vs' hm hn hs hw).
have [z1 z2] := hs w crs; rewrite /N -z1 -z2; apply: determined_view; exact: ms1_cap_det.
Qed.

Lemma k_C89_ms2_zk : forall (F : finFieldType) (A B C : lmodType F) (e : A -> B -> C), let E := Pairing e in
  forall (R : rng E) (K O1 O2 W : finType) (seed : K -> rst R) (s1 : O1 -> A) (s2 : O2 -> B) (D : W -> CRS E -> pred _)
  (sch sch' : sched) (m n : nat) (q : W -> CRS E -> MSMEG2 E) (X : W -> CRS E -> seq F) (Y : W -> CRS E -> seq B),
  bilinear E -> nondegenerate E -> cyclic (G1 E) -> cyclic (G2 E) -> valid_sched sch -> valid_sched sch' -> (0 < m)%N -> (0 < n)%N ->
  (forall w crs, size (X w crs) = m /\ size (Y w crs) = n) ->
  (forall w crs, proper_crs crs -> ms2_wf (q w crs) m n /\ ms2_holds (q w crs) (X w crs) (Y w crs)) ->
  let N := (m + (2 * n + 2))%N in
  let f1 := (fun w crs R s => ms2_commit_and_prove (R := R) sch (q w crs) (X w crs) (Y w crs) crs s) in
  let B1 := proof_test (N := N) D public f1 in
  is_true (`|seeded seed D public f1 -
    sim_game N D s1 s2 (fun t1 t2 w crs p => public (ms2_fix (E := E) t1 t2 (q w crs) p))
      (fun w crs R s => ms2_commit_and_prove (R := R) sch' (q w crs) (nseq m 0) (nseq n 0) crs s)| <=
  prg_adv seed s1 s2 (prg_test D public f1 (N := N))
  + ((ddh_adv s1 (ddh1 s2 B1) + ddh_adv s1 (ddh2 s2 B1) + ddh_adv s2 (ddh3 s1 B1) + ddh_adv s2 (ddh4 s1 B1)) + bad_point s1 s2)).
Proof.
move=> F A B C e E R K O1 O2 W seed s1 s2 D sch sch' m n q X Y hb hnd ca cb vs vs' hm hn hs hw N f1 B1.
apply: seeded_sim => [w crs|]; last exact: (ms2_comp_zk_ddh s1 s2 D hb hnd ca cb vs vs' hm hn hs hw).
have [z1 z2] := hs w crs; rewrite /N -z1 -z2; apply: determined_view; exact: ms2_cap_det.
Qed.

Lemma k_C89_quad_zk : forall (F : finFieldType) (A B C : lmodType F) (e : A -> B -> C), let E := Pairing e in
  forall (R : rng E) (K O1 O2 W : finType) (seed : K -> rst R) (s1 : O1 -> A) (s2 : O2 -> B) (D : W -> CRS E -> pred _)
  (sch sch' : sched) (m n : nat) (q : W -> CRS E -> QuadEqu E) (X : W -> CRS E -> seq F) (Y : W -> CRS E -> seq F),
  bilinear E -> nondegenerate E -> cyclic (G1 E) -> cyclic (G2 E) -> valid_sched sch -> valid_sched sch' -> (0 < m)%N -> (0 < n)%N ->
  (forall w crs, size (X w crs) = m /\ size (Y w crs) = n) ->
  (forall w crs, proper_crs crs -> quad_wf (q w crs) m n /\ quad_holds (q w crs) (X w crs) (Y w crs)) ->
  let N := (m + (n + 1))%N in
  let f1 := (fun w crs R s => quad_commit_and_prove (R := R) sch (q w crs) (X w crs) (Y w crs) crs s) in
  let B1 := proof_test (N := N) D public f1 in
  is_true (`|seeded seed D public f1 -
    sim_game N D s1 s2 (fun t1 t2 w crs p => public (quad_fix (E := E) t1 t2 (q w crs) crs p))
      (fun w crs R s => quad_commit_and_prove (R := R) sch' (q w crs) (nseq m 0) (nseq n 0) crs s)| <=
  prg_adv seed s1 s2 (prg_test D public f1 (N := N))
  + ((ddh_adv s1 (ddh1 s2 B1) + ddh_adv s1 (ddh2 s2 B1) + ddh_adv s2 (ddh3 s1 B1) + ddh_adv s2 (ddh4 s1 B1)) + bad_point s1 s2)).
Proof.
move=> F A B C e E R K O1 O2 W seed s1 s2 D sch sch' m n q X Y hb hnd ca cb vs vs' hm hn hs hw N f1 B1.
apply: seeded_sim => [w crs|]; last exact: (quad_comp_zk_ddh s1 s2 D hb hnd ca cb vs vs' hm hn hs hw).
have [z1 z2] := hs w crs; rewrite /N -z1 -z2; apply: determined_view; exact: quad_cap_det.
Qed.

Lemma k_C89_system_wi : forall (F : finFieldType) (A B C : lmodType F) (e : A -> B -> C), let E := Pairing e in
  forall (R : rng E) (K O1 O2 W : finType) (seed : K -> rst R) (s1 : O1 -> A) (s2 : O2 -> B) (D : W -> CRS E -> pred _)
  (sch sch' : sched) (N : nat) (qs : W -> CRS E -> seq (eqn E)) (v v' : W -> CRS E -> assign E),
  bilinear E -> nondegenerate E -> cyclic (G1 E) -> cyclic (G2 E) -> valid_sched sch -> valid_sched sch' -> 
  (forall w crs, system_draws (qs w crs) (v w crs) = N /\ system_draws (qs w crs) (v' w crs) = N) ->
  (forall w crs, proper_crs crs -> [/\ same_sizes (v w crs) (v' w crs), every (fun q => eqn_wf q (v w crs)) (qs w crs),
     every (fun q => eqn_holds q (v w crs)) (qs w crs) & every (fun q => eqn_holds q (v' w crs)) (qs w crs)]) ->
  let f1 := (fun w crs R s => prove_system (R := R) sch (qs w crs) (v w crs) crs s) in
  let f2 := (fun w crs R s => prove_system (R := R) sch' (qs w crs) (v' w crs) crs s) in
  let B1 := proof_test (N := N) D public_system f1 in let B2 := proof_test (N := N) D public_system f2 in
  is_true (`|seeded seed D public_system f1 - seeded seed D public_system f2| <=
  prg_adv seed s1 s2 (prg_test D public_system f1 (N := N)) + prg_adv seed s1 s2 (prg_test D public_system f2 (N := N))
  + ((ddh_adv s1 (ddh1 s2 B1) + ddh_adv s1 (ddh2 s2 B1) + ddh_adv s2 (ddh3 s1 B1) + ddh_adv s2 (ddh4 s1 B1))
  + (ddh_adv s1 (ddh1 s2 B2) + ddh_adv s1 (ddh2 s2 B2) + ddh_adv s2 (ddh3 s1 B2) + ddh_adv s2 (ddh4 s1 B2)) + bad_point s1 s2)).
Proof.
move=> F A B C e E R K O1 O2 W seed s1 s2 D sch sch' N qs v v' hb hnd ca cb vs vs' hN hw f1 f2 B1 B2.
apply: seeded_step => [w crs|w crs|]; last by apply: (system_comp_wi_ddh s1 s2 D hb hnd ca cb vs vs' _ hw) => w crs _; exact: (hN w crs).1.
  rewrite -(hN w crs).1; apply: determined_view; exact: system_det.
rewrite -(hN w crs).2; apply: determined_view; exact: system_det.
Qed.

Lemma k_C89_system_zk : forall (F : finFieldType) (A B C : lmodType F) (e : A -> B -> C), let E := Pairing e in
  forall (R : rng E) (K O1 O2 W : finType) (seed : K -> rst R) (s1 : O1 -> A) (s2 : O2 -> B) (D : W -> CRS E -> pred _)
  (sch sch' : sched) (N : nat) (qs : W -> CRS E -> seq (eqn E * gt_form E)) (v : W -> CRS E -> assign E),
  bilinear E -> nondegenerate E -> cyclic (G1 E) -> cyclic (G2 E) -> valid_sched sch -> valid_sched sch' -> 
  (forall w crs, system_draws [seq q.1 | q <- qs w crs] (v w crs) = N) ->
  (forall w crs, proper_crs crs -> [/\ every (fun q => eqn_wf q.1 (v w crs)) (qs w crs),
     every (fun q => eqn_holds q.1 (v w crs)) (qs w crs) & every (fun q => eqn_form crs q.1 q.2) (qs w crs)]) ->
  let f1 := (fun w crs R s => prove_system (R := R) sch [seq q.1 | q <- qs w crs] (v w crs) crs s) in
  let B1 := proof_test (N := N) D public_system f1 in
  is_true (`|seeded seed D public_system f1 -
    sim_game N D s1 s2 (fun t1 t2 w crs p => public_system (fix_system (E := E) t1 t2 crs (qs w crs) p))
      (fun w crs R s => prove_system (R := R) sch' [seq q.1 | q <- qs w crs] (zero_assign (v w crs)) crs s)| <=
  prg_adv seed s1 s2 (prg_test D public_system f1 (N := N))
  + ((ddh_adv s1 (ddh1 s2 B1) + ddh_adv s1 (ddh2 s2 B1) + ddh_adv s2 (ddh3 s1 B1) + ddh_adv s2 (ddh4 s1 B1)) + bad_point s1 s2)).
Proof.
move=> F A B C e E R K O1 O2 W seed s1 s2 D sch sch' N qs v hb hnd ca cb vs vs' hN hw f1 B1.
apply: seeded_sim => [w crs|]; last by apply: (system_comp_zk_ddh s1 s2 D hb hnd ca cb vs vs' _ hw) => w crs _; exact: (hN w crs).
rewrite -(hN w crs); apply: determined_view; exact: system_det.
Qed.

Lemma k_C89_session_wi : forall (F : finFieldType) (A B C : lmodType F) (e : A -> B -> C), let E := Pairing e in
  forall (R : rng E) (K O1 O2 W : finType) (seed : K -> rst R) (s1 : O1 -> A) (s2 : O2 -> B) (D : W -> CRS E -> pred (res (seq answer)))
  (sch sch' : sched) (k M N : nat) (qs : W -> CRS E -> seq answer -> seq (eqn E)) (v v' : W -> CRS E -> seq answer -> assign E),
  bilinear E -> nondegenerate E -> cyclic (G1 E) -> cyclic (G2 E) -> valid_sched sch -> valid_sched sch' -> (k * M <= N)%N ->
  (forall w crs h, (system_draws (qs w crs h) (v w crs h) <= M)%N /\ (system_draws (qs w crs h) (v' w crs h) <= M)%N) ->
  (forall w crs h, proper_crs crs -> [/\ same_sizes (v w crs h) (v' w crs h), every (fun q => eqn_wf q (v w crs h)) (qs w crs h),
     every (fun q => eqn_holds q (v w crs h)) (qs w crs h) & every (fun q => eqn_holds q (v' w crs h)) (qs w crs h)]) ->
  let f1 := fun w crs => prover sch k (qs w crs) (v w crs) crs in
  let f2 := fun w crs => prover sch' k (qs w crs) (v' w crs) crs in
  let B1 := proof_test (N := N) D id f1 in let B2 := proof_test (N := N) D id f2 in
  is_true (`|seeded seed D id f1 - seeded seed D id f2| <=
  prg_adv seed s1 s2 (prg_test D id f1 (N := N)) + prg_adv seed s1 s2 (prg_test D id f2 (N := N))
  + ((ddh_adv s1 (ddh1 s2 B1) + ddh_adv s1 (ddh2 s2 B1) + ddh_adv s2 (ddh3 s1 B1) + ddh_adv s2 (ddh4 s1 B1))
  + (ddh_adv s1 (ddh1 s2 B2) + ddh_adv s1 (ddh2 s2 B2) + ddh_adv s2 (ddh3 s1 B2) + ddh_adv s2 (ddh4 s1 B2)) + bad_point s1 s2)).
Proof.
move=> F A B C e E R K O1 O2 W seed s1 s2 D sch sch' k M N qs v v' hb hnd ca cb vs vs' hN hM hw f1 f2 B1 B2.
apply: seeded_step => [w crs|w crs|]; last by apply: (adaptive_comp_wi_ddh s1 s2 D hb hnd ca cb vs vs' hN _ hw) => w crs h _; exact: (hM w crs h).1.
  by apply: (prover_det _ vs hN) => h; exact: (hM w crs h).1.
by apply: (prover_det _ vs' hN) => h; exact: (hM w crs h).2.
Qed.

Lemma k_C89_session_zk : forall (F : finFieldType) (A B C : lmodType F) (e : A -> B -> C), let E := Pairing e in
  forall (R : rng E) (K O1 O2 W : finType) (seed : K -> rst R) (s1 : O1 -> A) (s2 : O2 -> B) (D : W -> CRS E -> pred (res (seq answer)))
  (sch sch' : sched) (k M N : nat) (qs : W -> CRS E -> seq answer -> seq (eqn E * gt_form E)) (v : W -> CRS E -> seq answer -> assign E),
  bilinear E -> nondegenerate E -> cyclic (G1 E) -> cyclic (G2 E) -> valid_sched sch -> valid_sched sch' -> (k * M <= N)%N ->
  (forall w crs h, (system_draws [seq q.1 | q <- qs w crs h] (v w crs h) <= M)%N) ->
  (forall w crs h, proper_crs crs -> [/\ every (fun q => eqn_wf q.1 (v w crs h)) (qs w crs h),
     every (fun q => eqn_holds q.1 (v w crs h)) (qs w crs h) & every (fun q => eqn_form crs q.1 q.2) (qs w crs h)]) ->
  let f1 := fun w crs => prover sch k (fun h => [seq q.1 | q <- qs w crs h]) (v w crs) crs in
  let B1 := proof_test (N := N) D id f1 in
  is_true (`|seeded seed D id f1 - sim_session N D s1 s2 (fun t1 t2 w crs => simulator (E := E) t1 t2 sch' k (qs w crs) (v w crs) crs)| <=
  prg_adv seed s1 s2 (prg_test D id f1 (N := N))
  + ((ddh_adv s1 (ddh1 s2 B1) + ddh_adv s1 (ddh2 s2 B1) + ddh_adv s2 (ddh3 s1 B1) + ddh_adv s2 (ddh4 s1 B1)) + bad_point s1 s2)).
Proof.
move=> F A B C e E R K O1 O2 W seed s1 s2 D sch sch' k M N qs v hb hnd ca cb vs vs' hN hM hw f1 B1.
apply: seeded_sim => [w crs|]; last by apply: (adaptive_comp_zk_ddh s1 s2 D hb hnd ca cb vs vs' hN _ hw) => w crs h _; exact: (hM w crs h).
by apply: (prover_det _ vs hN) => h; exact: (hM w crs h).
Qed.

Lemma k_C89_ppe_forgery : forall (F : finFieldType) (A B C : lmodType F) (e : A -> B -> C), let E := Pairing e in
  forall (R : rng E) (K W : finType) (seed : K -> rst R) (sch : sched) (lie : pred (PPE E)) (adv : W -> CRS E -> PPE E * CProof E),
  bilinear E -> valid_sched sch -> (forall q X Y, lie q -> ~ ppe_holds (E := E) q X Y) -> seeded_forgery seed (ppe_verify sch) lie adv = 0.
Proof.
move=> F A B C e E R K W seed sch lie adv hb vs hl; apply: Pr_none => -[w k] /=.
case hg : (generate_crs (seed k)) => [crs s'] /=; have [ex1 [ex2 [_ _ _ _ hs]]] := ppe_sound_gen hb vs hg.
apply/negP => /andP [hq]; case hv : (ppe_verify _ _ _ _) => [[]|] // _.
exact: hl hq (hs _ _ hv).
Qed.

Lemma k_C89_ms1_forgery : forall (F : finFieldType) (A B C : lmodType F) (e : A -> B -> C), let E := Pairing e in
  forall (R : rng E) (K O1 O2 W : finType) (seed : K -> rst R) (s1 : O1 -> A) (s2 : O2 -> B) (sch : sched) (lie : pred (MSMEG1 E)) (adv : W -> CRS E -> MSMEG1 E * CProof E),
  bilinear E -> nondegenerate E -> cyclic B -> valid_sched sch -> (forall q X Y, lie q -> ~ ms1_holds (E := E) q X Y) ->
  is_true (seeded_forgery seed (ms1_verify sch) lie adv <= prg_adv seed s1 s2 (fun (_ : unit) (o : A * B * 0.-tuple F) => o.1.2 == 0) + Pr (fun o => s2 o == 0)).
Proof.
move=> F A B C e E R K O1 O2 W seed s1 s2 sch lie adv hb hnd cb vs hl.
apply: (@seeded_bad F A B C e R K O1 O2 W seed s1 s2 _ (fun P Q => Q == 0) _) => [w k hk|]; last first.
  exact: (@Pr_snd O1 O2 (fun o => s2 o == 0)).
move: hk; rewrite /=; case hg : (generate_crs (seed k)) => [crs s'] /= /andP [hq]; case hv : (ms1_verify _ _ _ _) => [[]|] // _.
apply/negPn/negP; move=> n2.
have [ex1 [ex2 [_ _ _ _ hs]]] := ms1_sound_gen hb vs hg hnd cb n2.
exact: hl hq (hs _ _ hv).
Qed.

Lemma k_C89_ms2_forgery : forall (F : finFieldType) (A B C : lmodType F) (e : A -> B -> C), let E := Pairing e in
  forall (R : rng E) (K O1 O2 W : finType) (seed : K -> rst R) (s1 : O1 -> A) (s2 : O2 -> B) (sch : sched) (lie : pred (MSMEG2 E)) (adv : W -> CRS E -> MSMEG2 E * CProof E),
  bilinear E -> nondegenerate E -> cyclic A -> valid_sched sch -> (forall q X Y, lie q -> ~ ms2_holds (E := E) q X Y) ->
  is_true (seeded_forgery seed (ms2_verify sch) lie adv <= prg_adv seed s1 s2 (fun (_ : unit) (o : A * B * 0.-tuple F) => o.1.1 == 0) + Pr (fun o => s1 o == 0)).
Proof.
move=> F A B C e E R K O1 O2 W seed s1 s2 sch lie adv hb hnd ca vs hl.
apply: (@seeded_bad F A B C e R K O1 O2 W seed s1 s2 _ (fun P Q => P == 0) _) => [w k hk|]; last first.
  exact: (@Pr_fst O1 O2 (fun o => s1 o == 0)).
move: hk; rewrite /=; case hg : (generate_crs (seed k)) => [crs s'] /= /andP [hq]; case hv : (ms2_verify _ _ _ _) => [[]|] // _.
apply/negPn/negP; move=> n1.
have [ex1 [ex2 [_ _ _ _ hs]]] := ms2_sound_gen hb vs hg hnd ca n1.
exact: hl hq (hs _ _ hv).
Qed.

Lemma k_C89_quad_forgery : forall (F : finFieldType) (A B C : lmodType F) (e : A -> B -> C), let E := Pairing e in
  forall (R : rng E) (K O1 O2 W : finType) (seed : K -> rst R) (s1 : O1 -> A) (s2 : O2 -> B) (sch : sched) (lie : pred (QuadEqu E)) (adv : W -> CRS E -> QuadEqu E * CProof E),
  bilinear E -> nondegenerate E -> cyclic A -> cyclic B -> valid_sched sch -> (forall q X Y, lie q -> ~ quad_holds (E := E) q X Y) ->
  is_true (seeded_forgery seed (quad_verify sch) lie adv <= prg_adv seed s1 s2 (fun (_ : unit) (o : A * B * 0.-tuple F) => (o.1.1 == 0) || (o.1.2 == 0)) + bad_point s1 s2).
Proof.
move=> F A B C e E R K O1 O2 W seed s1 s2 sch lie adv hb hnd ca cb vs hl.
apply: (@seeded_bad F A B C e R K O1 O2 W seed s1 s2 _ (fun P Q => (P == 0) || (Q == 0)) _) => [w k hk|]; last first.
  exact: lexx.
move: hk; rewrite /=; case hg : (generate_crs (seed k)) => [crs s'] /= /andP [hq]; case hv : (quad_verify _ _ _ _) => [[]|] // _.
apply/negPn/negP; rewrite negb_or => /andP [n1 n2].
have [ex1 [ex2 [_ _ _ _ hs]]] := quad_sound_gen hb vs hg hnd ca cb n1 n2.
exact: hl hq (hs _ _ hv).
Qed.
