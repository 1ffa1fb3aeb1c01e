(** Proofs that the tests of Suite.v pass: the reference string, serialization, commitments. *)
From mathcomp Require Import all_ssreflect all_algebra.
From Verif Require Import Base Group DataStructures Generator Commit Statement Derived Codec Prove Verify.
From Verif Require Import Spec SpecMat SpecCodec SpecApi EqProps ComLemmas MatInst CodecLemmas CodecProps CommitLemmas CommitProps.
From Verif Require Import Suite SuiteLemmas.
Set Implicit Arguments.
Unset Strict Implicit.
Unset Printing Implicit Defensive.
Import GRing.Theory.
Local Open Scope ring_scope.

Lemma unwrap_back T (D : T -> Prop) (c : codec T) m v x : reads_back D c -> D x -> unwrap (de c m v (ser c m x)) = Ok x.
Proof. by move=> hb hx; rewrite -[ser c m x]cats0 hb. Qed.

Lemma serde_twice T (D : T -> Prop) (c : codec T) (eqb : T -> T -> bool) x :
  reads_back D c -> D x -> (forall x y, eqb x y <-> x = y) ->
  (let! _ := (let c_bytes := ser c Yes x in
     let! d := unwrap (de c Yes VYes c_bytes) in claim (eqb x d)) in
   let u_bytes := ser c No x in
   let! d := unwrap (de c No VYes u_bytes) in claim (eqb x d)) = Ok tt.
Proof.
move=> hb hx he; cbv zeta; rewrite !(unwrap_back _ _ hb hx) /=.
by rewrite (claim_same (x := x) he).
Qed.

Lemma shortP (T : Type) (s : seq T) : (size s < 64)%N -> short s.
Proof. by move=> h; apply: (ltn_trans h); apply: ltn_expl. Qed.
Lemma short_matP (T : Type) (M : matrix T) : (size M < 64)%N -> all (fun r => size r < 64)%N M -> short_mat M.
Proof.
move=> h hM; split; first exact: shortP.
by elim: M hM {h} => [|r M IH] /=; constructor; [apply: shortP|apply: IH]; case/andP: hM.
Qed.

Lemma gen_sizes (E : pairing) (R : rng E) (s s' : rst R) crs : generate_crs s = (crs, s') ->
  size (crs_u crs) = 2%N /\ size (crs_v crs) = 2%N.
Proof. by rewrite /generate_crs; draw => -[<- _]. Qed.

Section Suite2.
Context {E : pairing} {R : rng E}.
Variable rand_gt : rst R -> GT E * rst R.
Variable cs : codecs E.
Implicit Type s : rst R.

Lemma s_B1_serde s : elements_ok cs good_codec -> test_B1_serde cs s = Ok tt.
Proof.
case=> _ h _ _; rewrite /test_B1_serde; draw.
exact: (serde_twice (com1_back h) Logic.I (@com_eqP' _ _)).
Qed.
Lemma s_B2_serde s : elements_ok cs good_codec -> test_B2_serde cs s = Ok tt.
Proof.
case=> _ _ h _; rewrite /test_B2_serde; draw.
exact: (serde_twice (com2_back h) Logic.I (@com_eqP' _ _)).
Qed.
Lemma s_CRS_serde s : elements_ok cs good_codec -> test_CRS_serde cs s = Ok tt.
Proof.
move=> h; rewrite /test_CRS_serde; case hc: (generate_crs s) => [crs s'].
have [hu hv] := gen_sizes hc.
have hf : crs_fits crs by split; apply: shortP; rewrite ?hu ?hv.
have eqU : vec_eq com_eq (crs_u crs) (crs_u crs) by apply/(vec_eqP (@com_eqP' _ _)).
have eqV : vec_eq com_eq (crs_v crs) (crs_v crs) by apply/(vec_eqP (@com_eqP' _ _)).
by cbv zeta; rewrite !(unwrap_back _ _ (crs_back h) hf) /= /claim eqU eqV !eqxx.
Qed.
Lemma s_equtypes_serde : test_equtypes_serde = Ok tt.
Proof. by []. Qed.
Lemma s_PPE_equation_type s : test_PPE_equation_type rand_gt s = Ok tt.
Proof. by rewrite /test_PPE_equation_type; draw. Qed.
Lemma s_MSMEG1_equation_type s : test_MSMEG1_equation_type s = Ok tt.
Proof. by rewrite /test_MSMEG1_equation_type; draw. Qed.
Lemma s_MSMEG2_equation_type s : test_MSMEG2_equation_type s = Ok tt.
Proof. by rewrite /test_MSMEG2_equation_type; draw. Qed.
Lemma s_quadratic_equation_type s : test_quadratic_equation_type s = Ok tt.
Proof. by rewrite /test_quadratic_equation_type; draw. Qed.
Lemma s_PPE_equation_serde s : elements_ok cs good_codec -> test_PPE_equation_serde rand_gt cs s = Ok tt.
Proof.
move=> h; rewrite /test_PPE_equation_serde; draw.
by apply: (serde_twice (ppe_back h) _ (@k_C54_ppe _)); split; [|split]; [exact: shortP..|exact: short_matP].
Qed.
Lemma s_MSMEG1_equation_serde s : elements_ok cs good_codec -> test_MSMEG1_equation_serde cs s = Ok tt.
Proof.
move=> h; rewrite /test_MSMEG1_equation_serde; draw.
by apply: (serde_twice (ms1_back h) _ (@k_C54_ms1 _)); split; [|split]; [exact: shortP..|exact: short_matP].
Qed.
Lemma s_MSMEG2_equation_serde s : elements_ok cs good_codec -> test_MSMEG2_equation_serde cs s = Ok tt.
Proof.
move=> h; rewrite /test_MSMEG2_equation_serde; draw.
by apply: (serde_twice (ms2_back h) _ (@k_C54_ms2 _)); split; [|split]; [exact: shortP..|exact: short_matP].
Qed.
Lemma s_quadratic_equation_serde s : elements_ok cs good_codec -> test_quadratic_equation_serde cs s = Ok tt.
Proof.
move=> h; rewrite /test_quadratic_equation_serde; draw.
by apply: (serde_twice (quad_back h) _ (@k_C54_quad _)); split; [|split]; [exact: shortP..|exact: short_matP].
Qed.
Lemma s_commit_serde s : elements_ok cs good_codec -> test_commit_serde cs s = Ok tt.
Proof.
move=> h; rewrite /test_commit_serde; draw; cbv zeta.
rewrite (serde_twice (commit1_back h) _ (@k_C54_commit _ _)) /=; last first.
  by split; [exact: shortP|exact: short_matP].
by apply: (serde_twice (commit2_back h) _ (@k_C54_commit _ _)); split; [exact: shortP|exact: short_matP].
Qed.
Lemma s_commit_append_com1 s : test_commit_append_com1 s = Ok tt.
Proof.
rewrite /test_commit_append_com1; draw; rewrite /=.
by rewrite bind_claim ?claimT //; apply/k_C54_commit.
Qed.
Lemma s_commit_append_com2 s : test_commit_append_com2 s = Ok tt.
Proof.
rewrite /test_commit_append_com2; draw; rewrite /=.
by rewrite bind_claim ?claimT //; apply/k_C54_commit.
Qed.
End Suite2.
