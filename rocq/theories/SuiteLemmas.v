(** Proofs that the tests of Suite.v pass. *)
From mathcomp Require Import all_ssreflect all_algebra.
From Verif Require Import Base Group DataStructures Generator Commit Statement Derived Codec Prove Verify.
From Verif Require Import Spec SpecMat EqProps ComLemmas MatInst Suite.
Set Implicit Arguments.
Unset Strict Implicit.
Unset Printing Implicit Defensive.
Import GRing.Theory.
Local Open Scope ring_scope.

Lemma claimT (b : bool) : b -> claim b = Ok tt. Proof. by move=> H; rewrite /claim H. Qed.
Lemma bind_claim B (b : bool) (k : unit -> res B) : b -> bind (claim b) k = k tt.
Proof. by move=> H; rewrite /claim H. Qed.
Lemma claim_same (T : Type) (eqb : T -> T -> bool) x y : (forall x y, eqb x y <-> x = y) -> x = y ->
  claim (eqb x y) = Ok tt.
Proof. by move=> H -> ; rewrite claimT //; apply/H. Qed.

Ltac draw := repeat match goal with
  | |- context [let (_, _) := ?f ?s in _] => let x := fresh "x" in let s' := fresh "s" in destruct (f s) as [x s'] end.

Ltac passes := repeat (rewrite bind_claim; last first); [..|rewrite claimT //].
Ltac groups := rewrite ?/com_is_zero ?/comT_is_zero ?/com_eq ?/comT_eq /=;
  do 4 rewrite ?/t0 ?/t1 ?/t2 ?/t3 /=; rewrite ?addr0 ?add0r ?addrN ?opprB ?eqxx //.

Lemma pair0l (E : pairing) (y : G2 E) : bilinear E -> pair_e (0 : G1 E) y = 0.
Proof. by case=> _ _ h _; rewrite -(scale0r (0 : G1 E)) h scale0r. Qed.
Lemma pair0r (E : pairing) (x : G1 E) : bilinear E -> pair_e x (0 : G2 E) = 0.
Proof. by case=> _ _ _ h; rewrite -(scale0r (0 : G2 E)) h scale0r. Qed.

Lemma pairM (E : pairing) k l (x : G1 E) (y : G2 E) : bilinear E -> pair_e (k *: x) (l *: y) = pair_e x ((k * l) *: y).
Proof. by case=> _ _ sl sr; rewrite sl !sr scalerA. Qed.

Section SuiteG.
Context {E : pairing} {R : rng E}.
Variable rand_gt : rst R -> GT E * rst R.
Implicit Type s : rst R.

Lemma s_B1_add_zero s : test_B1_add_zero s = Ok tt.
Proof. rewrite /test_B1_add_zero; draw; passes; groups. Qed.
Lemma s_B2_add_zero s : test_B2_add_zero s = Ok tt.
Proof. rewrite /test_B2_add_zero; draw; passes; groups. Qed.
Lemma s_BT_add_zero s : test_BT_add_zero rand_gt s = Ok tt.
Proof. rewrite /test_BT_add_zero; draw; passes; groups. Qed.
Lemma s_B1_add s : test_B1_add s = Ok tt.
Proof. rewrite /test_B1_add; draw; passes; groups. by rewrite (addrC x.1) (addrC x.2) !eqxx. Qed.
Lemma s_B2_add s : test_B2_add s = Ok tt.
Proof. rewrite /test_B2_add; draw; passes; groups. by rewrite (addrC x.1) (addrC x.2) !eqxx. Qed.
Lemma s_BT_add s : test_BT_add rand_gt s = Ok tt.
Proof. rewrite /test_BT_add; draw; passes; groups. by rewrite (addrC x.1.1) (addrC x.1.2) (addrC x.2.1) (addrC x.2.2) !eqxx. Qed.
Lemma s_B1_sum s : test_B1_sum s = Ok tt.
Proof. rewrite /test_B1_sum; draw; passes; groups. Qed.
Lemma s_B2_sum s : test_B2_sum s = Ok tt.
Proof. rewrite /test_B2_sum; draw; passes; groups. Qed.
Lemma s_BT_sum s : test_BT_sum rand_gt s = Ok tt.
Proof. rewrite /test_BT_sum; draw; passes; groups. Qed.
Lemma s_B1_neg s : test_B1_neg s = Ok tt.
Proof. rewrite /test_B1_neg; draw; passes; groups. Qed.
Lemma s_B2_neg s : test_B2_neg s = Ok tt.
Proof. rewrite /test_B2_neg; draw; passes; groups. Qed.
Lemma s_BT_neg s : test_BT_neg rand_gt s = Ok tt.
Proof. rewrite /test_BT_neg; draw; passes; groups. Qed.
Lemma s_B1_sub s : test_B1_sub s = Ok tt.
Proof. rewrite /test_B1_sub; draw; passes; groups. Qed.
Lemma s_B2_sub s : test_B2_sub s = Ok tt.
Proof. rewrite /test_B2_sub; draw; passes; groups. Qed.
Lemma s_BT_sub s : test_BT_sub rand_gt s = Ok tt.
Proof. rewrite /test_BT_sub; draw; passes; groups. Qed.
Lemma s_B1_scalar_mul s : test_B1_scalar_mul s = Ok tt.
Proof. rewrite /test_B1_scalar_mul; draw; passes; groups. Qed.
Lemma s_B2_scalar_mul s : test_B2_scalar_mul s = Ok tt.
Proof. rewrite /test_B2_scalar_mul; draw; passes; groups. Qed.
Lemma s_B_pairing_zero_G1 s : bilinear E -> test_B_pairing_zero_G1 s = Ok tt.
Proof. by move=> hb; rewrite /test_B_pairing_zero_G1; draw; passes; rewrite ?/t0 ?/t1 ?/t2 ?/t3 /= pair0l ?eqxx. Qed.
Lemma s_B_pairing_zero_G2 s : bilinear E -> test_B_pairing_zero_G2 s = Ok tt.
Proof. by move=> hb; rewrite /test_B_pairing_zero_G2; draw; passes; rewrite ?/t0 ?/t1 ?/t2 ?/t3 /= pair0r ?eqxx. Qed.
Lemma s_B_pairing_commit s : bilinear E -> test_B_pairing_commit s = Ok tt.
Proof. by move=> hb; rewrite /test_B_pairing_commit; draw; passes; rewrite ?/t0 ?/t1 ?/t2 ?/t3 /= ?pair0r ?pair0l ?eqxx. Qed.
Lemma s_B_pairing_rand s : test_B_pairing_rand s = Ok tt.
Proof. by rewrite /test_B_pairing_rand; draw; passes; rewrite /= ?eqxx. Qed.
Lemma s_B_pairing_sum s : test_B_pairing_sum s = Ok tt.
Proof. by rewrite /test_B_pairing_sum; draw; rewrite /comT_pairing_sum /assert_eq /= claimT //; groups; rewrite /multi_pairing /= !add0r !eqxx. Qed.
Lemma s_B_into_matrix s : test_B_into_matrix s = Ok tt.
Proof. by rewrite /test_B_into_matrix; draw; passes; apply/mat_eqP. Qed.
Lemma s_B_from_matrix s : test_B_from_matrix s = Ok tt.
Proof. by rewrite /test_B_from_matrix; draw; rewrite /=; passes; groups. Qed.
Lemma s_batched_linear_maps s : test_batched_linear_maps s = Ok tt.
Proof. by rewrite /test_batched_linear_maps; draw; rewrite /=; passes; groups. Qed.
Lemma s_batched_scalar_linear_maps s : test_batched_scalar_linear_maps s = Ok tt.
Proof. by rewrite /test_batched_scalar_linear_maps /generate_crs; draw; rewrite /=; passes; groups. Qed.
Lemma s_PPE_linear_maps s : test_PPE_linear_maps s = Ok tt.
Proof. by rewrite /test_PPE_linear_maps; draw; rewrite /=; passes; groups. Qed.
Lemma s_MSMEG1_linear_maps s : bilinear E -> test_MSMEG1_linear_maps s = Ok tt.
Proof. by move=> hb; rewrite /test_MSMEG1_linear_maps /generate_crs; draw; rewrite /=; passes; groups; rewrite ?pair0l ?scale1r ?eqxx. Qed.
Lemma s_MSMEG2_linear_maps s : bilinear E -> test_MSMEG2_linear_maps s = Ok tt.
Proof. by move=> hb; rewrite /test_MSMEG2_linear_maps /generate_crs; draw; rewrite /=; passes; groups; rewrite ?pair0r ?scale1r ?eqxx. Qed.
Lemma s_QuadEqu_linear_maps s : bilinear E -> test_QuadEqu_linear_maps s = Ok tt.
Proof.
move=> hb; rewrite /test_QuadEqu_linear_maps /generate_crs; draw; rewrite /=; passes; groups.
  by rewrite !scale1r !(pairM x6) // !eqxx.
by rewrite !scale1r !eqxx.
Qed.
Lemma s_PPE_commutes s : bilinear E -> PPE_linear_bilinear_map_commutativity s = Ok tt.
Proof.
move=> hb; rewrite /PPE_linear_bilinear_map_commutativity; draw; rewrite /=; passes; groups.
by rewrite ?pair0l ?pair0r ?eqxx.
Qed.
Lemma s_MSMEG1_commutes s : bilinear E -> MSMEG1_linear_bilinear_map_commutativity s = Ok tt.
Proof.
move=> hb; rewrite /MSMEG1_linear_bilinear_map_commutativity /generate_crs; draw; rewrite /=; passes; groups.
by case: hb (hb) => _ _ sl sr hb; rewrite !(pair0l _ hb) !scale1r !(sr x7) !(sl x7) !eqxx.
Qed.
Lemma s_MSMEG2_commutes s : bilinear E -> MSMEG2_linear_bilinear_map_commutativity s = Ok tt.
Proof.
move=> hb; rewrite /MSMEG2_linear_bilinear_map_commutativity /generate_crs; draw; rewrite /=; passes; groups.
by case: hb (hb) => _ _ sl sr hb; rewrite !(pair0r _ hb) !scale1r !(sl x6) !(sr x6) !eqxx.
Qed.
Lemma s_Quad_commutes s : bilinear E -> QuadEqu_linear_bilinear_map_commutativity s = Ok tt.
Proof.
move=> hb; rewrite /QuadEqu_linear_bilinear_map_commutativity /generate_crs; draw; rewrite /=; passes; groups.
by rewrite !scale1r !(pairM x6) // !eqxx.
Qed.

End SuiteG.

Ltac rows := repeat match goal with |- (_ :: _) = (_ :: _) => congr (_ :: _) end.
Ltac numerals := rewrite ?add0r ?mul1r ?mulr1 -?natrM -?natrD ?oppr0; rewrite ?/mat_eq /= ?eqxx //.
Ltac vectors := rewrite ?/com_eq /= ?scaler0 ?scale1r ?scalerA ?addr0 ?add0r -?scalerDl -?natrM -?natrD ?oppr0 ?eqxx //.

Section SuiteM.
Context {E : pairing} {R : rng E}.
Variables sch : sched.
Implicit Type s : rst R.

Lemma s_col_vec_to_vec : test_col_vec_to_vec (E := E) = Ok tt.
Proof. by rewrite /test_col_vec_to_vec /=; passes; rewrite !eqxx. Qed.
Lemma s_vec_to_col_vec : test_vec_to_col_vec (E := E) = Ok tt.
Proof. by rewrite /test_vec_to_col_vec /=; passes; rewrite /mat_eq /= !eqxx. Qed.
Lemma s_field_left_entry : test_field_matrix_left_mul_entry (E := E) sch = Ok tt.
Proof. by rewrite /test_field_matrix_left_mul_entry /=; passes; numerals. Qed.
Lemma s_field_right_entry : test_field_matrix_right_mul_entry (E := E) sch = Ok tt.
Proof. by rewrite /test_field_matrix_right_mul_entry /=; passes; numerals. Qed.
Lemma s_field_left : test_field_matrix_left_mul (E := E) sch = Ok tt.
Proof. by rewrite /test_field_matrix_left_mul /=; passes; numerals. Qed.
Lemma s_field_right : test_field_matrix_right_mul (E := E) sch = Ok tt.
Proof. by rewrite /test_field_matrix_right_mul /=; passes; numerals. Qed.
Lemma s_field_left_par : valid_sched sch -> test_field_matrix_left_mul_par (E := E) sch = Ok tt.
Proof. by move=> hs; rewrite /test_field_matrix_left_mul_par (m_C21_field_left (sch 0%N) (hs 0%N)) /=; passes; numerals. Qed.
Lemma s_field_right_par : valid_sched sch -> test_field_matrix_right_mul_par (E := E) sch = Ok tt.
Proof. by move=> hs; rewrite /test_field_matrix_right_mul_par (m_C21_field_right (sch 0%N) (hs 0%N)) /=; passes; numerals. Qed.
Lemma s_B1_matrix_left_mul_entry s : test_B1_matrix_left_mul_entry sch s = Ok tt.
Proof. by rewrite /test_B1_matrix_left_mul_entry; draw; rewrite /=; passes; vectors. Qed.
Lemma s_B1_matrix_right_mul_entry s : test_B1_matrix_right_mul_entry sch s = Ok tt.
Proof. by rewrite /test_B1_matrix_right_mul_entry; draw; rewrite /=; passes; vectors. Qed.
Lemma s_B1_matrix_scalar_mul s : test_B1_matrix_scalar_mul s = Ok tt.
Proof. by rewrite /test_B1_matrix_scalar_mul; draw; rewrite /=; passes; vectors. Qed.
Lemma s_B2_matrix_scalar_mul s : test_B2_matrix_scalar_mul s = Ok tt.
Proof. by rewrite /test_B2_matrix_scalar_mul; draw; rewrite /=; passes; vectors. Qed.
Lemma s_B1_transpose_vec s : test_B1_transpose_vec s = Ok tt.
Proof. by rewrite /test_B1_transpose_vec; draw; rewrite /=; passes; vectors. Qed.
Lemma s_B1_matrix_transpose s : test_B1_matrix_transpose s = Ok tt.
Proof. by rewrite /test_B1_matrix_transpose; draw; rewrite /=; passes; vectors. Qed.
Lemma s_B2_transpose_vec s : test_B2_transpose_vec s = Ok tt.
Proof. by rewrite /test_B2_transpose_vec; draw; rewrite /=; passes; vectors. Qed.
Lemma s_B2_matrix_transpose s : test_B2_matrix_transpose s = Ok tt.
Proof. by rewrite /test_B2_matrix_transpose; draw; rewrite /=; passes; vectors. Qed.
Lemma s_B1_matrix_neg s : test_B1_matrix_neg s = Ok tt.
Proof. by rewrite /test_B1_matrix_neg; draw; rewrite /=; passes; vectors. Qed.
Lemma s_B2_matrix_neg s : test_B2_matrix_neg s = Ok tt.
Proof. by rewrite /test_B2_matrix_neg; draw; rewrite /=; passes; vectors. Qed.
Lemma s_B1_matrix_add s : test_B1_matrix_add s = Ok tt.
Proof.
rewrite /test_B1_matrix_add; draw; rewrite /=; passes; vectors; last by rewrite addrC eqxx.
by rewrite -{2}(scale1r x) -scalerDl -(natrD _ 1 10) eqxx.
Qed.
Lemma s_B2_matrix_add s : test_B2_matrix_add s = Ok tt.
Proof.
rewrite /test_B2_matrix_add; draw; rewrite /=; passes; vectors; last by rewrite addrC eqxx.
by rewrite -{2}(scale1r x) -scalerDl -(natrD _ 1 10) eqxx.
Qed.
Lemma s_field_matrix_scalar_mul : test_field_matrix_scalar_mul (E := E) = Ok tt.
Proof. by rewrite /test_field_matrix_scalar_mul /=; passes; numerals. Qed.
Lemma s_field_transpose_vec : test_field_transpose_vec (E := E) = Ok tt.
Proof. by rewrite /test_field_transpose_vec /=; passes; numerals. Qed.
Lemma s_field_matrix_transpose : test_field_matrix_transpose (E := E) = Ok tt.
Proof. by rewrite /test_field_matrix_transpose /=; passes; numerals. Qed.
Lemma s_field_matrix_neg : test_field_matrix_neg (E := E) = Ok tt.
Proof. by rewrite /test_field_matrix_neg /=; passes; numerals. Qed.
Lemma s_field_matrix_add : test_field_matrix_add (E := E) = Ok tt.
Proof. by rewrite /test_field_matrix_add /=; passes; numerals; rewrite addrC eqxx. Qed.
End SuiteM.
