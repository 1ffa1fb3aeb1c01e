(** Proofs that the tests of Suite.v pass: batches of commitments, the generated reference string, proofs. *)
From mathcomp Require Import all_ssreflect all_algebra.
From Verif Require Import Base Group DataStructures Generator Commit Statement Derived Codec Prove Verify.
From Verif Require Import Spec SpecMat SpecCodec SpecApi EqProps ComLemmas MatInst CodecLemmas CodecProps MatLemmas Complete CommitLemmas CommitProps.
From Verif Require Import VProps SchedProps CapLemmas Suite SuiteLemmas SuiteLemmas2.
Set Implicit Arguments.
Unset Strict Implicit.
Unset Printing Implicit Defensive.
Import GRing.Theory.
Local Open Scope ring_scope.

Section Suite3.
Context {E : pairing} {R : rng E}.
Variable rand_gt : rst R -> GT E * rst R.
Variable cs : codecs E.
Implicit Type s : rst R.

Lemma s_commit_G1_batching s : test_commit_G1_batching s s = Ok tt.
Proof.
rewrite /test_commit_G1_batching; case hc: (generate_crs s) => [crs s']; draw.
have [hu hv] := gen_sizes hc.
rewrite /idx !bind_Ok; cbv zeta; rewrite G1_batch_each ?hu //.
rewrite !commit_G1_Ok ?hu // /one_by_one /= !commit_G1_Ok ?hu //= !commit_G1_Ok ?hu //= bind_claim // claimT //.
exact/k_C54_commit.
Qed.
Lemma s_commit_G2_batching s : test_commit_G2_batching s s = Ok tt.
Proof.
rewrite /test_commit_G2_batching; case hc: (generate_crs s) => [crs s']; draw.
have [hu hv] := gen_sizes hc.
rewrite /idx !bind_Ok; cbv zeta; rewrite G2_batch_each ?hv //.
rewrite !commit_G2_Ok ?hv // /one_by_one /= !commit_G2_Ok ?hv //= !commit_G2_Ok ?hv //= bind_claim // claimT //.
exact/k_C54_commit.
Qed.
Lemma s_commit_scalar_B1_batching s : test_commit_scalar_B1_batching s s = Ok tt.
Proof.
rewrite /test_commit_scalar_B1_batching; case hc: (generate_crs s) => [crs s']; draw.
have [hu hv] := gen_sizes hc.
rewrite /idx !bind_Ok; cbv zeta; rewrite B1_batch_each ?hu //.
rewrite !commit_B1_Ok ?hu // /one_by_one /= !commit_B1_Ok ?hu //= !commit_B1_Ok ?hu //= bind_claim // claimT //.
exact/k_C54_commit.
Qed.
Lemma s_commit_scalar_B2_batching s : test_commit_scalar_B2_batching s s = Ok tt.
Proof.
rewrite /test_commit_scalar_B2_batching; case hc: (generate_crs s) => [crs s']; draw.
have [hu hv] := gen_sizes hc.
rewrite /idx !bind_Ok; cbv zeta; rewrite B2_batch_each ?hv //.
rewrite !commit_B2_Ok ?hv // /one_by_one /= !commit_B2_Ok ?hv //= !commit_B2_Ok ?hv //= bind_claim // claimT //.
exact/k_C54_commit.
Qed.

Lemma claim_iff b : claim b = Ok tt <-> b.
Proof. by rewrite /claim; case: b. Qed.
Lemma bind_claim_iff b (k : unit -> res unit) : bind (claim b) k = Ok tt <-> b /\ k tt = Ok tt.
Proof. by rewrite /claim; case: b => /=; split=> //; case. Qed.

Lemma s_valid_generators s : bilinear E -> nondegenerate E ->
  test_valid_generators s = Ok tt <-> (rand_g1 s).1 != 0 /\ (rand_g2 (rand_g1 s).2).1 != 0.
Proof.
move=> hb hn; rewrite /test_valid_generators /generate_crs.
case: (rand_g1 s) => p1 s1 /=; case: (rand_g2 s1) => p2 s2 /=; draw; rewrite /=.
rewrite !bind_claim_iff claim_iff eqxx; split=> [[_ [-> [-> _]]] //|[h1 h2]]; do !split=> //.
by apply/eqP => /hn []; apply/eqP.
Qed.

Lemma s_valid_binding s : test_valid_binding_CRS s s = Ok tt <->
  [/\ (rand_g1 s).1 != 0, (rand_g2 (rand_g1 s).2).1 != 0,
      drawn (rand_g2 (rand_g1 s).2).2 2 != 0 & drawn (rand_g2 (rand_g1 s).2).2 3 != 0].
Proof.
rewrite /test_valid_binding_CRS /generate_crs /drawn /after /=.
case: (rand_g1 s) => [p1 s1] /=; case: (rand_g2 s1) => [p2 s2] /=.
case: (rand_fr s2) => [a1 s3] /=; case: (rand_fr s3) => [a2 s4] /=.
case: (rand_fr s4) => [u1 s5] /=; case: (rand_fr s5) => [u2 s6] /=.
rewrite !bind_claim_iff claim_iff /com_eq /= !eqxx !subr0 !scaler_eq0.
case: (p1 == 0); case: (p2 == 0); case: (u1 == 0); case: (u2 == 0); rewrite ?orbT ?orbF ?andbT /=.
all: by split=> [[? [? [? [? [? [? [? ?]]]]]]]|[? ? ? ?]].
Qed.

Lemma dims_mkmat (T : Type) m n (f : nat -> nat -> T) : dims m n (mkmat m n f).
Proof. exact/dims_rect/rect_mkmat. Qed.

Lemma some_G1 X crs s : (0 < size X)%N -> size (crs_u crs) = 2%N ->
  exists c s', batch_commit_G1 (E := E) X crs s = Ok (c, s') /\ dims (size X) 2 (crand c).
Proof. by move=> h hk; rewrite batch_commit_G1_Ok //; do 2 eexists; split; [reflexivity|exact: dims_mkmat]. Qed.
Lemma some_G2 X crs s : (0 < size X)%N -> size (crs_v crs) = 2%N ->
  exists c s', batch_commit_G2 (E := E) X crs s = Ok (c, s') /\ dims (size X) 2 (crand c).
Proof. by move=> h hk; rewrite batch_commit_G2_Ok //; do 2 eexists; split; [reflexivity|exact: dims_mkmat]. Qed.
Lemma some_B1 X crs s : (0 < size X)%N -> size (crs_u crs) = 2%N ->
  exists c s', batch_commit_scalar_to_B1 (E := E) X crs s = Ok (c, s') /\ dims (size X) 1 (crand c).
Proof. by move=> h hk; rewrite batch_commit_B1_Ok ?hk //; do 2 eexists; split; [reflexivity|exact: dims_mkmat]. Qed.
Lemma some_B2 X crs s : (0 < size X)%N -> size (crs_v crs) = 2%N ->
  exists c s', batch_commit_scalar_to_B2 (E := E) X crs s = Ok (c, s') /\ dims (size X) 1 (crand c).
Proof. by move=> h hk; rewrite batch_commit_B2_Ok ?hk //; do 2 eexists; split; [reflexivity|exact: dims_mkmat]. Qed.

Lemma fits_small (pf : EquProof E) m n t u : size (pi pf) = m -> size (theta pf) = n -> dims t u (pf_rand pf) ->
  (m < 64)%N -> (n < 64)%N -> (t < 64)%N -> (u < 64)%N -> equproof_fits pf.
Proof.
move=> hp ht [hr hc] hm hn ht' hu; split; [|split]; [apply: shortP; rewrite ?hp ?ht //..|].
apply: short_matP; first by rewrite hr.
by apply/(all_nthP [::]) => i; rewrite hr => hi; rewrite hc.
Qed.

Lemma some_ppe sch (q : PPE E) X Y cx cy crs s : valid_sched sch -> (0 < size X)%N -> (0 < size Y)%N ->
  dims (size X) 2 (crand cx) -> dims (size Y) 2 (crand cy) -> dims (size X) (size Y) (ppe_gamma q) ->
  size (ppe_a q) = size Y -> size (ppe_b q) = size X -> size (crs_u crs) = 2%N -> size (crs_v crs) = 2%N ->
  exists pf s', ppe_prove sch q X Y cx cy crs s = Ok (pf, s').
Proof.
move=> hs hx hy hcx hcy hg ha hb hu hv.
have [|[pf s'] h] := proj2 (k_C35_ppe_panics q X Y cx cy crs s hs); last by exists pf, s'.
by rewrite hu hv.
Qed.

Lemma some_ms1 sch (q : MSMEG1 E) X Y cx cy crs s : valid_sched sch -> (0 < size X)%N -> (0 < size Y)%N ->
  dims (size X) 2 (crand cx) -> dims (size Y) 1 (crand cy) -> dims (size X) (size Y) (ms1_gamma q) ->
  size (ms1_a q) = size Y -> size (ms1_b q) = size X -> size (crs_u crs) = 2%N -> size (crs_v crs) = 2%N ->
  exists pf s', ms1_prove sch q X Y cx cy crs s = Ok (pf, s').
Proof.
move=> hs hx hy hcx hcy hg ha hb hu hv.
have [|[pf s'] h] := proj2 (k_C35_ms1_panics q X Y cx cy crs s hs); last by exists pf, s'.
by rewrite hu hv.
Qed.

Lemma some_ms2 sch (q : MSMEG2 E) X Y cx cy crs s : valid_sched sch -> (0 < size X)%N -> (0 < size Y)%N ->
  dims (size X) 1 (crand cx) -> dims (size Y) 2 (crand cy) -> dims (size X) (size Y) (ms2_gamma q) ->
  size (ms2_a q) = size Y -> size (ms2_b q) = size X -> size (crs_u crs) = 2%N -> size (crs_v crs) = 2%N ->
  exists pf s', ms2_prove sch q X Y cx cy crs s = Ok (pf, s').
Proof.
move=> hs hx hy hcx hcy hg ha hb hu hv.
have [|[pf s'] h] := proj2 (k_C35_ms2_panics q X Y cx cy crs s hs); last by exists pf, s'.
by rewrite hu hv.
Qed.

Lemma some_quad sch (q : QuadEqu E) X Y cx cy crs s : valid_sched sch -> (0 < size X)%N -> (0 < size Y)%N ->
  dims (size X) 1 (crand cx) -> dims (size Y) 1 (crand cy) -> dims (size X) (size Y) (quad_gamma q) ->
  size (quad_a q) = size Y -> size (quad_b q) = size X -> size (crs_u crs) = 2%N -> size (crs_v crs) = 2%N ->
  exists pf s', quad_prove sch q X Y cx cy crs s = Ok (pf, s').
Proof.
move=> hs hx hy hcx hcy hg ha hb hu hv.
have [|[pf s'] h] := proj2 (k_C35_quad_panics q X Y cx cy crs s hs); last by exists pf, s'.
by rewrite hu hv.
Qed.

Lemma gamma_dims : dims 2 1 [:: [:: 1]; [:: 0 : Fr E]].
Proof. by split=> // -[|[|i]]. Qed.

Ltac commits hu hv := match goal with
  | |- context [batch_commit_G1 ?X ?crs ?s] =>
      let c := fresh "c" in let s' := fresh "s" in let e := fresh "e" in let d := fresh "d" in
      have [c [s' [e d]]] := @some_G1 X crs s isT hu; rewrite e bind_Ok; cbv beta iota
  | |- context [batch_commit_G2 ?X ?crs ?s] =>
      let c := fresh "c" in let s' := fresh "s" in let e := fresh "e" in let d := fresh "d" in
      have [c [s' [e d]]] := @some_G2 X crs s isT hv; rewrite e bind_Ok; cbv beta iota
  | |- context [batch_commit_scalar_to_B1 ?X ?crs ?s] =>
      let c := fresh "c" in let s' := fresh "s" in let e := fresh "e" in let d := fresh "d" in
      have [c [s' [e d]]] := @some_B1 X crs s isT hu; rewrite e bind_Ok; cbv beta iota
  | |- context [batch_commit_scalar_to_B2 ?X ?crs ?s] =>
      let c := fresh "c" in let s' := fresh "s" in let e := fresh "e" in let d := fresh "d" in
      have [c [s' [e d]]] := @some_B2 X crs s isT hv; rewrite e bind_Ok; cbv beta iota
  end.

Ltac proves_ppe hs hu hv := match goal with
  | |- context [ppe_prove ?sch ?Q ?X ?Y ?C ?D ?crs ?S] =>
    let pf := fresh "pf" in let s' := fresh "s" in let e := fresh "e" in
    have [pf [s' e]] := @some_ppe sch Q X Y C D crs S hs isT isT ltac:(assumption) ltac:(assumption) gamma_dims erefl erefl hu hv;
    rewrite e bind_Ok; cbv beta iota
  end.
Lemma s_PPE_proof_type sch s : valid_sched sch -> test_PPE_proof_type rand_gt sch s = Ok tt.
Proof.
move=> hs; rewrite /test_PPE_proof_type; case hc: (generate_crs s) => [crs s0]; draw; have [hu hv] := gen_sizes hc.
cbv zeta; commits hu hv; commits hu hv; draw; proves_ppe hs hu hv.
match goal with h : ppe_prove _ _ _ _ _ _ _ _ = _ |- _ => have [-> _ _ _] := k_C35_ppe_shape hs h end.
by [].
Qed.
Lemma s_PPE_serde sch s : valid_sched sch -> elements_ok cs good_codec -> test_PPE_cproof_serde rand_gt cs sch s = Ok tt.
Proof.
move=> hs he; rewrite /test_PPE_cproof_serde; case hc: (generate_crs s) => [crs s0]; draw; have [hu hv] := gen_sizes hc.
cbv zeta; commits hu hv; commits hu hv; draw; proves_ppe hs hu hv.
match goal with h : ppe_prove _ _ _ _ _ _ _ _ = _ |- _ => have [_ hp ht hr] := k_C35_ppe_shape hs h end.
by apply: (serde_twice (equproof_back he) _ (@k_C54_equproof _)); exact: fits_small hp ht hr _ _ _ _.
Qed.

Ltac proves_ms1 hs hu hv := match goal with
  | |- context [ms1_prove ?sch ?Q ?X ?Y ?C ?D ?crs ?S] =>
    let pf := fresh "pf" in let s' := fresh "s" in let e := fresh "e" in
    have [pf [s' e]] := @some_ms1 sch Q X Y C D crs S hs isT isT ltac:(assumption) ltac:(assumption) gamma_dims erefl erefl hu hv;
    rewrite e bind_Ok; cbv beta iota
  end.
Lemma s_MSMEG1_proof_type sch s : valid_sched sch -> test_MSMEG1_proof_type sch s = Ok tt.
Proof.
move=> hs; rewrite /test_MSMEG1_proof_type; case hc: (generate_crs s) => [crs s0]; draw; have [hu hv] := gen_sizes hc.
cbv zeta; commits hu hv; commits hu hv; draw; proves_ms1 hs hu hv.
match goal with h : ms1_prove _ _ _ _ _ _ _ _ = _ |- _ => have [-> _ _ _] := k_C35_ms1_shape hs h end.
by [].
Qed.
Lemma s_MSMEG1_serde sch s : valid_sched sch -> elements_ok cs good_codec -> test_MSGMEG1_cproof_serde cs sch s = Ok tt.
Proof.
move=> hs he; rewrite /test_MSGMEG1_cproof_serde; case hc: (generate_crs s) => [crs s0]; draw; have [hu hv] := gen_sizes hc.
cbv zeta; commits hu hv; commits hu hv; draw; proves_ms1 hs hu hv.
match goal with h : ms1_prove _ _ _ _ _ _ _ _ = _ |- _ => have [_ hp ht hr] := k_C35_ms1_shape hs h end.
by apply: (serde_twice (equproof_back he) _ (@k_C54_equproof _)); exact: fits_small hp ht hr _ _ _ _.
Qed.

Ltac proves_ms2 hs hu hv := match goal with
  | |- context [ms2_prove ?sch ?Q ?X ?Y ?C ?D ?crs ?S] =>
    let pf := fresh "pf" in let s' := fresh "s" in let e := fresh "e" in
    have [pf [s' e]] := @some_ms2 sch Q X Y C D crs S hs isT isT ltac:(assumption) ltac:(assumption) gamma_dims erefl erefl hu hv;
    rewrite e bind_Ok; cbv beta iota
  end.
Lemma s_MSMEG2_proof_type sch s : valid_sched sch -> test_MSMEG2_proof_type sch s = Ok tt.
Proof.
move=> hs; rewrite /test_MSMEG2_proof_type; case hc: (generate_crs s) => [crs s0]; draw; have [hu hv] := gen_sizes hc.
cbv zeta; commits hu hv; commits hu hv; draw; proves_ms2 hs hu hv.
match goal with h : ms2_prove _ _ _ _ _ _ _ _ = _ |- _ => have [-> _ _ _] := k_C35_ms2_shape hs h end.
by [].
Qed.
Lemma s_MSMEG2_serde sch s : valid_sched sch -> elements_ok cs good_codec -> test_MSMEG2_proof_serde cs sch s = Ok tt.
Proof.
move=> hs he; rewrite /test_MSMEG2_proof_serde; case hc: (generate_crs s) => [crs s0]; draw; have [hu hv] := gen_sizes hc.
cbv zeta; commits hu hv; commits hu hv; draw; proves_ms2 hs hu hv.
match goal with h : ms2_prove _ _ _ _ _ _ _ _ = _ |- _ => have [_ hp ht hr] := k_C35_ms2_shape hs h end.
by apply: (serde_twice (equproof_back he) _ (@k_C54_equproof _)); exact: fits_small hp ht hr _ _ _ _.
Qed.

Ltac proves_quad hs hu hv := match goal with
  | |- context [quad_prove ?sch ?Q ?X ?Y ?C ?D ?crs ?S] =>
    let pf := fresh "pf" in let s' := fresh "s" in let e := fresh "e" in
    have [pf [s' e]] := @some_quad sch Q X Y C D crs S hs isT isT ltac:(assumption) ltac:(assumption) gamma_dims erefl erefl hu hv;
    rewrite e bind_Ok; cbv beta iota
  end.
Lemma s_quadratic_proof_type sch s : valid_sched sch -> test_quadratic_proof_type sch s = Ok tt.
Proof.
move=> hs; rewrite /test_quadratic_proof_type; case hc: (generate_crs s) => [crs s0]; draw; have [hu hv] := gen_sizes hc.
cbv zeta; commits hu hv; commits hu hv; draw; proves_quad hs hu hv.
match goal with h : quad_prove _ _ _ _ _ _ _ _ = _ |- _ => have [-> _ _ _] := k_C35_quad_shape hs h end.
by [].
Qed.
Lemma s_quadratic_serde sch s : valid_sched sch -> elements_ok cs good_codec -> test_quadratic_proof_serde cs sch s = Ok tt.
Proof.
move=> hs he; rewrite /test_quadratic_proof_serde; case hc: (generate_crs s) => [crs s0]; draw; have [hu hv] := gen_sizes hc.
cbv zeta; commits hu hv; commits hu hv; draw; proves_quad hs hu hv.
match goal with h : quad_prove _ _ _ _ _ _ _ _ = _ |- _ => have [_ hp ht hr] := k_C35_quad_shape hs h end.
by apply: (serde_twice (equproof_back he) _ (@k_C54_equproof _)); exact: fits_small hp ht hr _ _ _ _.
Qed.

Lemma s_PPE_cproof sch sch' s : valid_sched sch -> valid_sched sch' ->
  test_PPE_cproof_is_commit_and_prove rand_gt sch sch' s s = Ok tt.
Proof.
move=> hs hs'; rewrite /test_PPE_cproof_is_commit_and_prove; case hc: (generate_crs s) => [crs s0]; have [hu hv] := gen_sizes hc.
cbv zeta; cbn [skip size ppe_a ppe_b]; draw; cbv zeta; cbn [skip size ppe_a ppe_b]; draw.
commits hu hv; commits hu hv; proves_ppe hs hu hv; draw.
rewrite (@ppe_cap_sched _ _ _ hs' hs) /ppe_commit_and_prove.
do 3 match goal with h : _ = Ok _ |- _ => rewrite h bind_Ok; cbv beta iota; clear h end.
by rewrite bind_Ok; cbv beta iota; rewrite (claim_same (@k_C54_cproof _)).
Qed.

Lemma s_MSMEG1_cproof sch sch' s : valid_sched sch -> valid_sched sch' ->
  test_MSMEG1_cproof_is_commit_and_prove sch sch' s s = Ok tt.
Proof.
move=> hs hs'; rewrite /test_MSMEG1_cproof_is_commit_and_prove; case hc: (generate_crs s) => [crs s0]; have [hu hv] := gen_sizes hc.
cbv zeta; cbn [skip size ms1_a ms1_b]; draw; cbv zeta; cbn [skip size ms1_a ms1_b]; draw.
commits hu hv; commits hu hv; proves_ms1 hs hu hv; draw.
rewrite (@ms1_cap_sched _ _ _ hs' hs) /ms1_commit_and_prove.
do 3 match goal with h : _ = Ok _ |- _ => rewrite h bind_Ok; cbv beta iota; clear h end.
by rewrite bind_Ok; cbv beta iota; rewrite (claim_same (@k_C54_cproof _)).
Qed.

Lemma s_MSMEG2_cproof sch sch' s : valid_sched sch -> valid_sched sch' ->
  test_MSMEG2_cproof_is_commit_and_prove sch sch' s s = Ok tt.
Proof.
move=> hs hs'; rewrite /test_MSMEG2_cproof_is_commit_and_prove; case hc: (generate_crs s) => [crs s0]; have [hu hv] := gen_sizes hc.
cbv zeta; cbn [skip size ms2_a ms2_b]; draw; cbv zeta; cbn [skip size ms2_a ms2_b]; draw.
commits hu hv; commits hu hv; proves_ms2 hs hu hv; draw.
rewrite (@ms2_cap_sched _ _ _ hs' hs) /ms2_commit_and_prove.
do 3 match goal with h : _ = Ok _ |- _ => rewrite h bind_Ok; cbv beta iota; clear h end.
by rewrite bind_Ok; cbv beta iota; rewrite (claim_same (@k_C54_cproof _)).
Qed.

Lemma s_quadratic_cproof sch sch' s : valid_sched sch -> valid_sched sch' ->
  test_quadratic_cproof_is_commit_and_prove sch sch' s s = Ok tt.
Proof.
move=> hs hs'; rewrite /test_quadratic_cproof_is_commit_and_prove; case hc: (generate_crs s) => [crs s0]; have [hu hv] := gen_sizes hc.
cbv zeta; cbn [skip size quad_a quad_b]; draw; cbv zeta; cbn [skip size quad_a quad_b]; draw.
commits hu hv; commits hu hv; proves_quad hs hu hv; draw.
rewrite (@quad_cap_sched _ _ _ hs' hs) /quad_commit_and_prove.
do 3 match goal with h : _ = Ok _ |- _ => rewrite h bind_Ok; cbv beta iota; clear h end.
by rewrite bind_Ok; cbv beta iota; rewrite (claim_same (@k_C54_cproof _)).
Qed.
End Suite3.
