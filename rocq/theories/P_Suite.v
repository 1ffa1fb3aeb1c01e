(** Property C72: the tests of /repo pass for every pairing, generator, state and schedule. *)
From mathcomp Require Import all_ssreflect all_algebra.
From Verif Require Import Base Group DataStructures Generator Commit Statement Derived Codec Prove Verify Spec SpecCodec SpecRng Suite SuiteLemmas SuiteLemmas2 SuiteLemmas3 SuiteLemmas4 Concrete Concrete2 Concrete3 Concrete10.
Set Implicit Arguments.
Unset Strict Implicit.
Unset Printing Implicit Defensive.
Import GRing.Theory.
Local Open Scope ring_scope.

(** data_structures.rs:944-956. *)
Theorem C72_test_B1_add_zero : forall (E : pairing) (R : rng E) (s : rst R),
  test_B1_add_zero s = Ok tt.
Proof. exact: @s_B1_add_zero. Qed.
Print Assumptions C72_test_B1_add_zero.

(** data_structures.rs:960-972. *)
Theorem C72_test_B2_add_zero : forall (E : pairing) (R : rng E) (s : rst R),
  test_B2_add_zero s = Ok tt.
Proof. exact: @s_B2_add_zero. Qed.
Print Assumptions C72_test_B2_add_zero.

(** data_structures.rs:976-990. *)
Theorem C72_test_BT_add_zero : forall (E : pairing) (R : rng E) (rand_gt : rst R -> GT E * rst R) (s : rst R),
  test_BT_add_zero rand_gt s = Ok tt.
Proof. exact: @s_BT_add_zero. Qed.
Print Assumptions C72_test_BT_add_zero.

(** data_structures.rs:994-1009. *)
Theorem C72_test_B1_add : forall (E : pairing) (R : rng E) (s : rst R),
  test_B1_add s = Ok tt.
Proof. exact: @s_B1_add. Qed.
Print Assumptions C72_test_B1_add.

(** data_structures.rs:1013-1028. *)
Theorem C72_test_B2_add : forall (E : pairing) (R : rng E) (s : rst R),
  test_B2_add s = Ok tt.
Proof. exact: @s_B2_add. Qed.
Print Assumptions C72_test_B2_add.

(** data_structures.rs:1032-1051. *)
Theorem C72_test_BT_add : forall (E : pairing) (R : rng E) (rand_gt : rst R -> GT E * rst R) (s : rst R),
  test_BT_add rand_gt s = Ok tt.
Proof. exact: @s_BT_add. Qed.
Print Assumptions C72_test_BT_add.

(** data_structures.rs:1055-1074. *)
Theorem C72_test_B1_sum : forall (E : pairing) (R : rng E) (s : rst R),
  test_B1_sum s = Ok tt.
Proof. exact: @s_B1_sum. Qed.
Print Assumptions C72_test_B1_sum.

(** data_structures.rs:1078-1097. *)
Theorem C72_test_B2_sum : forall (E : pairing) (R : rng E) (s : rst R),
  test_B2_sum s = Ok tt.
Proof. exact: @s_B2_sum. Qed.
Print Assumptions C72_test_B2_sum.

(** data_structures.rs:1101-1126. *)
Theorem C72_test_BT_sum : forall (E : pairing) (R : rng E) (rand_gt : rst R -> GT E * rst R) (s : rst R),
  test_BT_sum rand_gt s = Ok tt.
Proof. exact: @s_BT_sum. Qed.
Print Assumptions C72_test_BT_sum.

(** data_structures.rs:1130-1140. *)
Theorem C72_test_B1_neg : forall (E : pairing) (R : rng E) (s : rst R),
  test_B1_neg s = Ok tt.
Proof. exact: @s_B1_neg. Qed.
Print Assumptions C72_test_B1_neg.

(** data_structures.rs:1144-1154. *)
Theorem C72_test_B2_neg : forall (E : pairing) (R : rng E) (s : rst R),
  test_B2_neg s = Ok tt.
Proof. exact: @s_B2_neg. Qed.
Print Assumptions C72_test_B2_neg.

(** data_structures.rs:1158-1170. *)
Theorem C72_test_BT_neg : forall (E : pairing) (R : rng E) (rand_gt : rst R -> GT E * rst R) (s : rst R),
  test_BT_neg rand_gt s = Ok tt.
Proof. exact: @s_BT_neg. Qed.
Print Assumptions C72_test_BT_neg.

(** data_structures.rs:1174-1189. *)
Theorem C72_test_B1_sub : forall (E : pairing) (R : rng E) (s : rst R),
  test_B1_sub s = Ok tt.
Proof. exact: @s_B1_sub. Qed.
Print Assumptions C72_test_B1_sub.

(** data_structures.rs:1193-1208. *)
Theorem C72_test_B2_sub : forall (E : pairing) (R : rng E) (s : rst R),
  test_B2_sub s = Ok tt.
Proof. exact: @s_B2_sub. Qed.
Print Assumptions C72_test_B2_sub.

(** data_structures.rs:1212-1231. *)
Theorem C72_test_BT_sub : forall (E : pairing) (R : rng E) (rand_gt : rst R -> GT E * rst R) (s : rst R),
  test_BT_sub rand_gt s = Ok tt.
Proof. exact: @s_BT_sub. Qed.
Print Assumptions C72_test_BT_sub.

(** data_structures.rs:1235-1248. *)
Theorem C72_test_B1_scalar_mul : forall (E : pairing) (R : rng E) (s : rst R),
  test_B1_scalar_mul s = Ok tt.
Proof. exact: @s_B1_scalar_mul. Qed.
Print Assumptions C72_test_B1_scalar_mul.

(** data_structures.rs:1252-1265. *)
Theorem C72_test_B2_scalar_mul : forall (E : pairing) (R : rng E) (s : rst R),
  test_B2_scalar_mul s = Ok tt.
Proof. exact: @s_B2_scalar_mul. Qed.
Print Assumptions C72_test_B2_scalar_mul.

(** data_structures.rs:1269-1287. *)
Theorem C72_test_B1_serde : forall (E : pairing) (R : rng E) (cs : codecs E) (s : rst R),
  elements_ok cs good_codec -> test_B1_serde cs s = Ok tt.
Proof. exact: @s_B1_serde. Qed.
Print Assumptions C72_test_B1_serde.

Example C72_test_B1_serde_case : elements_ok (toys predT) good_codec /\ test_B1_serde (E := toy) (toys predT) (1%N : rst ctr) = Ok tt.
Proof. split; first exact: toys_good. by vm_compute. Qed.

(** data_structures.rs:1291-1309. *)
Theorem C72_test_B2_serde : forall (E : pairing) (R : rng E) (cs : codecs E) (s : rst R),
  elements_ok cs good_codec -> test_B2_serde cs s = Ok tt.
Proof. exact: @s_B2_serde. Qed.
Print Assumptions C72_test_B2_serde.

Example C72_test_B2_serde_case : elements_ok (toys predT) good_codec /\ test_B2_serde (E := toy) (toys predT) (1%N : rst ctr) = Ok tt.
Proof. split; first exact: toys_good. by vm_compute. Qed.

(** data_structures.rs:1313-1326. *)
Theorem C72_test_B_pairing_zero_G1 : forall (E : pairing) (R : rng E) (s : rst R),
  bilinear E -> test_B_pairing_zero_G1 s = Ok tt.
Proof. exact: @s_B_pairing_zero_G1. Qed.
Print Assumptions C72_test_B_pairing_zero_G1.

Example C72_test_B_pairing_zero_G1_case : bilinear toy /\ test_B_pairing_zero_G1 (E := toy) (1%N : rst ctr) = Ok tt.
Proof. split; first exact: toy_bilinear. by vm_compute. Qed.

(** data_structures.rs:1330-1343. *)
Theorem C72_test_B_pairing_zero_G2 : forall (E : pairing) (R : rng E) (s : rst R),
  bilinear E -> test_B_pairing_zero_G2 s = Ok tt.
Proof. exact: @s_B_pairing_zero_G2. Qed.
Print Assumptions C72_test_B_pairing_zero_G2.

Example C72_test_B_pairing_zero_G2_case : bilinear toy /\ test_B_pairing_zero_G2 (E := toy) (1%N : rst ctr) = Ok tt.
Proof. split; first exact: toy_bilinear. by vm_compute. Qed.

(** data_structures.rs:1347-1357. *)
Theorem C72_test_B_pairing_commit : forall (E : pairing) (R : rng E) (s : rst R),
  bilinear E -> test_B_pairing_commit s = Ok tt.
Proof. exact: @s_B_pairing_commit. Qed.
Print Assumptions C72_test_B_pairing_commit.

Example C72_test_B_pairing_commit_case : bilinear toy /\ test_B_pairing_commit (E := toy) (1%N : rst ctr) = Ok tt.
Proof. split; first exact: toy_bilinear. by vm_compute. Qed.

(** data_structures.rs:1361-1377. *)
Theorem C72_test_B_pairing_rand : forall (E : pairing) (R : rng E) (s : rst R),
  test_B_pairing_rand s = Ok tt.
Proof. exact: @s_B_pairing_rand. Qed.
Print Assumptions C72_test_B_pairing_rand.

(** data_structures.rs:1381-1407. *)
Theorem C72_test_B_pairing_sum : forall (E : pairing) (R : rng E) (s : rst R),
  test_B_pairing_sum s = Ok tt.
Proof. exact: @s_B_pairing_sum. Qed.
Print Assumptions C72_test_B_pairing_sum.

(** data_structures.rs:1410-1427. *)
Theorem C72_test_B_into_matrix : forall (E : pairing) (R : rng E) (s : rst R),
  test_B_into_matrix s = Ok tt.
Proof. exact: @s_B_into_matrix. Qed.
Print Assumptions C72_test_B_into_matrix.

(** data_structures.rs:1430-1464. *)
Theorem C72_test_B_from_matrix : forall (E : pairing) (R : rng E) (s : rst R),
  test_B_from_matrix s = Ok tt.
Proof. exact: @s_B_from_matrix. Qed.
Print Assumptions C72_test_B_from_matrix.

(** data_structures.rs:1467-1484. *)
Theorem C72_test_batched_linear_maps : forall (E : pairing) (R : rng E) (s : rst R),
  test_batched_linear_maps s = Ok tt.
Proof. exact: @s_batched_linear_maps. Qed.
Print Assumptions C72_test_batched_linear_maps.

(** data_structures.rs:1487-1511. *)
Theorem C72_test_batched_scalar_linear_maps : forall (E : pairing) (R : rng E) (s : rst R),
  test_batched_scalar_linear_maps s = Ok tt.
Proof. exact: @s_batched_scalar_linear_maps. Qed.
Print Assumptions C72_test_batched_scalar_linear_maps.

(** data_structures.rs:1514-1531. *)
Theorem C72_test_PPE_linear_maps : forall (E : pairing) (R : rng E) (s : rst R),
  test_PPE_linear_maps s = Ok tt.
Proof. exact: @s_PPE_linear_maps. Qed.
Print Assumptions C72_test_PPE_linear_maps.

(** data_structures.rs:1535-1554. *)
Theorem C72_test_MSMEG1_linear_maps : forall (E : pairing) (R : rng E) (s : rst R),
  bilinear E -> test_MSMEG1_linear_maps s = Ok tt.
Proof. exact: @s_MSMEG1_linear_maps. Qed.
Print Assumptions C72_test_MSMEG1_linear_maps.

Example C72_test_MSMEG1_linear_maps_case : bilinear toy /\ test_MSMEG1_linear_maps (E := toy) (1%N : rst ctr) = Ok tt.
Proof. split; first exact: toy_bilinear. by vm_compute. Qed.

(** data_structures.rs:1558-1577. *)
Theorem C72_test_MSMEG2_linear_maps : forall (E : pairing) (R : rng E) (s : rst R),
  bilinear E -> test_MSMEG2_linear_maps s = Ok tt.
Proof. exact: @s_MSMEG2_linear_maps. Qed.
Print Assumptions C72_test_MSMEG2_linear_maps.

Example C72_test_MSMEG2_linear_maps_case : bilinear toy /\ test_MSMEG2_linear_maps (E := toy) (1%N : rst ctr) = Ok tt.
Proof. split; first exact: toy_bilinear. by vm_compute. Qed.

(** data_structures.rs:1581-1602. *)
Theorem C72_test_QuadEqu_linear_maps : forall (E : pairing) (R : rng E) (s : rst R),
  bilinear E -> test_QuadEqu_linear_maps s = Ok tt.
Proof. exact: @s_QuadEqu_linear_maps. Qed.
Print Assumptions C72_test_QuadEqu_linear_maps.

Example C72_test_QuadEqu_linear_maps_case : bilinear toy /\ test_QuadEqu_linear_maps (E := toy) (1%N : rst ctr) = Ok tt.
Proof. split; first exact: toy_bilinear. by vm_compute. Qed.

(** data_structures.rs:1646-1659. *)
Theorem C72_test_col_vec_to_vec : forall (E : pairing),
  test_col_vec_to_vec (E := E) = Ok tt.
Proof. exact: @s_col_vec_to_vec. Qed.
Print Assumptions C72_test_col_vec_to_vec.

(** data_structures.rs:1662-1675. *)
Theorem C72_test_vec_to_col_vec : forall (E : pairing),
  test_vec_to_col_vec (E := E) = Ok tt.
Proof. exact: @s_vec_to_col_vec. Qed.
Print Assumptions C72_test_vec_to_col_vec.

(** data_structures.rs:1678-1699. *)
Theorem C72_test_field_matrix_left_mul_entry : forall (E : pairing) (sch : sched),
  test_field_matrix_left_mul_entry (E := E) sch = Ok tt.
Proof. exact: @s_field_left_entry. Qed.
Print Assumptions C72_test_field_matrix_left_mul_entry.

(** data_structures.rs:1702-1723. *)
Theorem C72_test_field_matrix_right_mul_entry : forall (E : pairing) (sch : sched),
  test_field_matrix_right_mul_entry (E := E) sch = Ok tt.
Proof. exact: @s_field_right_entry. Qed.
Print Assumptions C72_test_field_matrix_right_mul_entry.

(** data_structures.rs:1726-1778. *)
Theorem C72_test_field_matrix_left_mul : forall (E : pairing) (sch : sched),
  test_field_matrix_left_mul (E := E) sch = Ok tt.
Proof. exact: @s_field_left. Qed.
Print Assumptions C72_test_field_matrix_left_mul.

(** data_structures.rs:1781-1835. *)
Theorem C72_test_field_matrix_right_mul : forall (E : pairing) (sch : sched),
  test_field_matrix_right_mul (E := E) sch = Ok tt.
Proof. exact: @s_field_right. Qed.
Print Assumptions C72_test_field_matrix_right_mul.

(** data_structures.rs:1838-1892. *)
Theorem C72_test_field_matrix_left_mul_par : forall (E : pairing) (sch : sched),
  valid_sched sch -> test_field_matrix_left_mul_par (E := E) sch = Ok tt.
Proof. exact: @s_field_left_par. Qed.
Print Assumptions C72_test_field_matrix_left_mul_par.

Example C72_test_field_matrix_left_mul_par_case : valid_sched fwd /\ test_field_matrix_left_mul_par (E:=toy) fwd = Ok tt.
Proof. split; first exact: fwd_valid. by vm_compute. Qed.

(** data_structures.rs:1895-1947. *)
Theorem C72_test_field_matrix_right_mul_par : forall (E : pairing) (sch : sched),
  valid_sched sch -> test_field_matrix_right_mul_par (E := E) sch = Ok tt.
Proof. exact: @s_field_right_par. Qed.
Print Assumptions C72_test_field_matrix_right_mul_par.

Example C72_test_field_matrix_right_mul_par_case : valid_sched fwd /\ test_field_matrix_right_mul_par (E:=toy) fwd = Ok tt.
Proof. split; first exact: fwd_valid. by vm_compute. Qed.

(** data_structures.rs:1951-1978. *)
Theorem C72_test_B1_matrix_left_mul_entry : forall (E : pairing) (R : rng E) (sch : sched) (s : rst R),
  test_B1_matrix_left_mul_entry sch s = Ok tt.
Proof. exact: @s_B1_matrix_left_mul_entry. Qed.
Print Assumptions C72_test_B1_matrix_left_mul_entry.

(** data_structures.rs:1982-2006. *)
Theorem C72_test_B1_matrix_right_mul_entry : forall (E : pairing) (R : rng E) (sch : sched) (s : rst R),
  test_B1_matrix_right_mul_entry sch s = Ok tt.
Proof. exact: @s_B1_matrix_right_mul_entry. Qed.
Print Assumptions C72_test_B1_matrix_right_mul_entry.

(** data_structures.rs:2009-2047. *)
Theorem C72_test_field_matrix_scalar_mul : forall (E : pairing),
  test_field_matrix_scalar_mul (E := E) = Ok tt.
Proof. exact: @s_field_matrix_scalar_mul. Qed.
Print Assumptions C72_test_field_matrix_scalar_mul.

(** data_structures.rs:2050-2076. *)
Theorem C72_test_B1_matrix_scalar_mul : forall (E : pairing) (R : rng E) (s : rst R),
  test_B1_matrix_scalar_mul s = Ok tt.
Proof. exact: @s_B1_matrix_scalar_mul. Qed.
Print Assumptions C72_test_B1_matrix_scalar_mul.

(** data_structures.rs:2079-2105. *)
Theorem C72_test_B2_matrix_scalar_mul : forall (E : pairing) (R : rng E) (s : rst R),
  test_B2_matrix_scalar_mul s = Ok tt.
Proof. exact: @s_B2_matrix_scalar_mul. Qed.
Print Assumptions C72_test_B2_matrix_scalar_mul.

(** data_structures.rs:2108-2127. *)
Theorem C72_test_B1_transpose_vec : forall (E : pairing) (R : rng E) (s : rst R),
  test_B1_transpose_vec s = Ok tt.
Proof. exact: @s_B1_transpose_vec. Qed.
Print Assumptions C72_test_B1_transpose_vec.

(** data_structures.rs:2130-2174. *)
Theorem C72_test_B1_matrix_transpose : forall (E : pairing) (R : rng E) (s : rst R),
  test_B1_matrix_transpose s = Ok tt.
Proof. exact: @s_B1_matrix_transpose. Qed.
Print Assumptions C72_test_B1_matrix_transpose.

(** data_structures.rs:2177-2196. *)
Theorem C72_test_B2_transpose_vec : forall (E : pairing) (R : rng E) (s : rst R),
  test_B2_transpose_vec s = Ok tt.
Proof. exact: @s_B2_transpose_vec. Qed.
Print Assumptions C72_test_B2_transpose_vec.

(** data_structures.rs:2199-2243. *)
Theorem C72_test_B2_matrix_transpose : forall (E : pairing) (R : rng E) (s : rst R),
  test_B2_matrix_transpose s = Ok tt.
Proof. exact: @s_B2_matrix_transpose. Qed.
Print Assumptions C72_test_B2_matrix_transpose.

(** data_structures.rs:2246-2266. *)
Theorem C72_test_field_transpose_vec : forall (E : pairing),
  test_field_transpose_vec (E := E) = Ok tt.
Proof. exact: @s_field_transpose_vec. Qed.
Print Assumptions C72_test_field_transpose_vec.

(** data_structures.rs:2269-2304. *)
Theorem C72_test_field_matrix_transpose : forall (E : pairing),
  test_field_matrix_transpose (E := E) = Ok tt.
Proof. exact: @s_field_matrix_transpose. Qed.
Print Assumptions C72_test_field_matrix_transpose.

(** data_structures.rs:2307-2346. *)
Theorem C72_test_field_matrix_neg : forall (E : pairing),
  test_field_matrix_neg (E := E) = Ok tt.
Proof. exact: @s_field_matrix_neg. Qed.
Print Assumptions C72_test_field_matrix_neg.

(** data_structures.rs:2349-2393. *)
Theorem C72_test_B1_matrix_neg : forall (E : pairing) (R : rng E) (s : rst R),
  test_B1_matrix_neg s = Ok tt.
Proof. exact: @s_B1_matrix_neg. Qed.
Print Assumptions C72_test_B1_matrix_neg.

(** data_structures.rs:2396-2440. *)
Theorem C72_test_B2_matrix_neg : forall (E : pairing) (R : rng E) (s : rst R),
  test_B2_matrix_neg s = Ok tt.
Proof. exact: @s_B2_matrix_neg. Qed.
Print Assumptions C72_test_B2_matrix_neg.

(** data_structures.rs:2442-2500. *)
Theorem C72_test_field_matrix_add : forall (E : pairing),
  test_field_matrix_add (E := E) = Ok tt.
Proof. exact: @s_field_matrix_add. Qed.
Print Assumptions C72_test_field_matrix_add.

(** data_structures.rs:2503-2566. *)
Theorem C72_test_B1_matrix_add : forall (E : pairing) (R : rng E) (s : rst R),
  test_B1_matrix_add s = Ok tt.
Proof. exact: @s_B1_matrix_add. Qed.
Print Assumptions C72_test_B1_matrix_add.

(** data_structures.rs:2569-2632. *)
Theorem C72_test_B2_matrix_add : forall (E : pairing) (R : rng E) (s : rst R),
  test_B2_matrix_add s = Ok tt.
Proof. exact: @s_B2_matrix_add. Qed.
Print Assumptions C72_test_B2_matrix_add.

(** generator.rs:138-149. *)
Theorem C72_test_valid_generators : forall (E : pairing) (R : rng E) (s : rst R),
  bilinear E -> nondegenerate E ->
  test_valid_generators s = Ok tt <-> (rand_g1 s).1 != 0 /\ (rand_g2 (rand_g1 s).2).1 != 0.
Proof. exact: @s_valid_generators. Qed.
Print Assumptions C72_test_valid_generators.

Example C72_test_valid_generators_case : bilinear toy /\ nondegenerate toy /\ test_valid_generators (E := toy) (1%N : rst ctr) = Ok tt /\ test_valid_generators (E := toy) (6%N : rst ctr) = Panic AssertFailed.
Proof. split; first exact: toy_bilinear. split; first exact: toy_nondegenerate. split; first by vm_compute. by vm_compute. Qed.

(** generator.rs:153-182. *)
Theorem C72_test_valid_binding_CRS : forall (E : pairing) (R : rng E) (s : rst R),
  test_valid_binding_CRS s s = Ok tt <->
  [/\ (rand_g1 s).1 != 0, (rand_g2 (rand_g1 s).2).1 != 0,
      drawn (rand_g2 (rand_g1 s).2).2 2 != 0 & drawn (rand_g2 (rand_g1 s).2).2 3 != 0].
Proof. exact: @s_valid_binding. Qed.
Print Assumptions C72_test_valid_binding_CRS.

Example C72_test_valid_binding_CRS_case : test_valid_binding_CRS (E := toy) (1%N : rst ctr) (1%N : rst ctr) = Ok tt /\ test_valid_binding_CRS (E := toy) (6%N : rst ctr) (6%N : rst ctr) = Panic AssertFailed.
Proof. split; first by vm_compute. by vm_compute. Qed.

(** generator.rs:186-207. *)
Theorem C72_test_CRS_serde : forall (E : pairing) (R : rng E) (cs : codecs E) (s : rst R),
  elements_ok cs good_codec -> test_CRS_serde cs s = Ok tt.
Proof. exact: @s_CRS_serde. Qed.
Print Assumptions C72_test_CRS_serde.

Example C72_test_CRS_serde_case : elements_ok (toys predT) good_codec /\ test_CRS_serde (E := toy) (toys predT) (1%N : rst ctr) = Ok tt.
Proof. split; first exact: toys_good. by vm_compute. Qed.

(** statement.rs:211-233. *)
Theorem C72_test_equtypes_serde : test_equtypes_serde = Ok tt.
Proof. exact: @s_equtypes_serde. Qed.
Print Assumptions C72_test_equtypes_serde.

(** statement.rs:236-248. *)
Theorem C72_test_PPE_equation_type : forall (E : pairing) (R : rng E) (rand_gt : rst R -> GT E * rst R) (s : rst R),
  test_PPE_equation_type rand_gt s = Ok tt.
Proof. exact: @s_PPE_equation_type. Qed.
Print Assumptions C72_test_PPE_equation_type.

(** statement.rs:251-273. *)
Theorem C72_test_PPE_equation_serde : forall (E : pairing) (R : rng E) (rand_gt : rst R -> GT E * rst R) (cs : codecs E) (s : rst R),
  elements_ok cs good_codec -> test_PPE_equation_serde rand_gt cs s = Ok tt.
Proof. exact: @s_PPE_equation_serde. Qed.
Print Assumptions C72_test_PPE_equation_serde.

Example C72_test_PPE_equation_serde_case : elements_ok (toys predT) good_codec /\ test_PPE_equation_serde (E := toy) ctr_gt (toys predT) (1%N : rst ctr) = Ok tt.
Proof. split; first exact: toys_good. by vm_compute. Qed.

(** statement.rs:276-288. *)
Theorem C72_test_MSMEG1_equation_type : forall (E : pairing) (R : rng E) (s : rst R),
  test_MSMEG1_equation_type s = Ok tt.
Proof. exact: @s_MSMEG1_equation_type. Qed.
Print Assumptions C72_test_MSMEG1_equation_type.

(** statement.rs:291-313. *)
Theorem C72_test_MSMEG1_equation_serde : forall (E : pairing) (R : rng E) (cs : codecs E) (s : rst R),
  elements_ok cs good_codec -> test_MSMEG1_equation_serde cs s = Ok tt.
Proof. exact: @s_MSMEG1_equation_serde. Qed.
Print Assumptions C72_test_MSMEG1_equation_serde.

Example C72_test_MSMEG1_equation_serde_case : elements_ok (toys predT) good_codec /\ test_MSMEG1_equation_serde (E := toy) (toys predT) (1%N : rst ctr) = Ok tt.
Proof. split; first exact: toys_good. by vm_compute. Qed.

(** statement.rs:316-328. *)
Theorem C72_test_MSMEG2_equation_type : forall (E : pairing) (R : rng E) (s : rst R),
  test_MSMEG2_equation_type s = Ok tt.
Proof. exact: @s_MSMEG2_equation_type. Qed.
Print Assumptions C72_test_MSMEG2_equation_type.

(** statement.rs:331-353. *)
Theorem C72_test_MSMEG2_equation_serde : forall (E : pairing) (R : rng E) (cs : codecs E) (s : rst R),
  elements_ok cs good_codec -> test_MSMEG2_equation_serde cs s = Ok tt.
Proof. exact: @s_MSMEG2_equation_serde. Qed.
Print Assumptions C72_test_MSMEG2_equation_serde.

Example C72_test_MSMEG2_equation_serde_case : elements_ok (toys predT) good_codec /\ test_MSMEG2_equation_serde (E := toy) (toys predT) (1%N : rst ctr) = Ok tt.
Proof. split; first exact: toys_good. by vm_compute. Qed.

(** statement.rs:356-367. *)
Theorem C72_test_quadratic_equation_type : forall (E : pairing) (R : rng E) (s : rst R),
  test_quadratic_equation_type s = Ok tt.
Proof. exact: @s_quadratic_equation_type. Qed.
Print Assumptions C72_test_quadratic_equation_type.

(** statement.rs:370-391. *)
Theorem C72_test_quadratic_equation_serde : forall (E : pairing) (R : rng E) (cs : codecs E) (s : rst R),
  elements_ok cs good_codec -> test_quadratic_equation_serde cs s = Ok tt.
Proof. exact: @s_quadratic_equation_serde. Qed.
Print Assumptions C72_test_quadratic_equation_serde.

Example C72_test_quadratic_equation_serde_case : elements_ok (toys predT) good_codec /\ test_quadratic_equation_serde (E := toy) (toys predT) (1%N : rst ctr) = Ok tt.
Proof. split; first exact: toys_good. by vm_compute. Qed.

(** commit.rs:294-335. *)
Theorem C72_test_commit_serde : forall (E : pairing) (R : rng E) (cs : codecs E) (s : rst R),
  elements_ok cs good_codec -> test_commit_serde cs s = Ok tt.
Proof. exact: @s_commit_serde. Qed.
Print Assumptions C72_test_commit_serde.

Example C72_test_commit_serde_case : elements_ok (toys predT) good_codec /\ test_commit_serde (E := toy) (toys predT) (1%N : rst ctr) = Ok tt.
Proof. split; first exact: toys_good. by vm_compute. Qed.

(** commit.rs:338-386. *)
Theorem C72_test_commit_append_com1 : forall (E : pairing) (R : rng E) (s : rst R),
  test_commit_append_com1 s = Ok tt.
Proof. exact: @s_commit_append_com1. Qed.
Print Assumptions C72_test_commit_append_com1.

(** commit.rs:389-437. *)
Theorem C72_test_commit_append_com2 : forall (E : pairing) (R : rng E) (s : rst R),
  test_commit_append_com2 s = Ok tt.
Proof. exact: @s_commit_append_com2. Qed.
Print Assumptions C72_test_commit_append_com2.

(** commit.rs:440-464. *)
Theorem C72_test_commit_G1_batching : forall (E : pairing) (R : rng E) (s : rst R),
  test_commit_G1_batching s s = Ok tt.
Proof. exact: @s_commit_G1_batching. Qed.
Print Assumptions C72_test_commit_G1_batching.

(** commit.rs:467-492. *)
Theorem C72_test_commit_G2_batching : forall (E : pairing) (R : rng E) (s : rst R),
  test_commit_G2_batching s s = Ok tt.
Proof. exact: @s_commit_G2_batching. Qed.
Print Assumptions C72_test_commit_G2_batching.

(** commit.rs:495-520. *)
Theorem C72_test_commit_scalar_B1_batching : forall (E : pairing) (R : rng E) (s : rst R),
  test_commit_scalar_B1_batching s s = Ok tt.
Proof. exact: @s_commit_scalar_B1_batching. Qed.
Print Assumptions C72_test_commit_scalar_B1_batching.

(** commit.rs:523-548. *)
Theorem C72_test_commit_scalar_B2_batching : forall (E : pairing) (R : rng E) (s : rst R),
  test_commit_scalar_B2_batching s s = Ok tt.
Proof. exact: @s_commit_scalar_B2_batching. Qed.
Print Assumptions C72_test_commit_scalar_B2_batching.

(** prove.rs:511-535. *)
Theorem C72_test_PPE_proof_type : forall (E : pairing) (R : rng E) (rand_gt : rst R -> GT E * rst R) (sch : sched) (s : rst R),
  valid_sched sch -> test_PPE_proof_type rand_gt sch s = Ok tt.
Proof. exact: @s_PPE_proof_type. Qed.
Print Assumptions C72_test_PPE_proof_type.

Example C72_test_PPE_proof_type_case : valid_sched fwd /\ test_PPE_proof_type (E := toy) ctr_gt fwd (1%N : rst ctr) = Ok tt.
Proof. split; first exact: fwd_valid. by vm_compute. Qed.

(** prove.rs:538-589. *)
Theorem C72_test_PPE_cproof_is_commit_and_prove : forall (E : pairing) (R : rng E) (rand_gt : rst R -> GT E * rst R) (sch sch' : sched) (s : rst R),
  valid_sched sch -> valid_sched sch' ->
  test_PPE_cproof_is_commit_and_prove rand_gt sch sch' s s = Ok tt.
Proof. exact: @s_PPE_cproof. Qed.
Print Assumptions C72_test_PPE_cproof_is_commit_and_prove.

Example C72_test_PPE_cproof_is_commit_and_prove_case : valid_sched fwd /\ valid_sched bwd /\ test_PPE_cproof_is_commit_and_prove (E := toy) ctr_gt fwd bwd (1%N : rst ctr) (1%N : rst ctr) = Ok tt.
Proof. split; first exact: fwd_valid. split; first exact: bwd_valid. by vm_compute. Qed.

(** prove.rs:592-625. *)
Theorem C72_test_PPE_cproof_serde : forall (E : pairing) (R : rng E) (rand_gt : rst R -> GT E * rst R) (cs : codecs E) (sch : sched) (s : rst R),
  valid_sched sch -> elements_ok cs good_codec -> test_PPE_cproof_serde rand_gt cs sch s = Ok tt.
Proof. exact: @s_PPE_serde. Qed.
Print Assumptions C72_test_PPE_cproof_serde.

Example C72_test_PPE_cproof_serde_case : valid_sched fwd /\ elements_ok (toys predT) good_codec /\ test_PPE_cproof_serde (E := toy) ctr_gt (toys predT) fwd (1%N : rst ctr) = Ok tt.
Proof. split; first exact: fwd_valid. split; first exact: toys_good. by vm_compute. Qed.

(** prove.rs:628-650. *)
Theorem C72_test_MSMEG1_proof_type : forall (E : pairing) (R : rng E) (sch : sched) (s : rst R),
  valid_sched sch -> test_MSMEG1_proof_type sch s = Ok tt.
Proof. exact: @s_MSMEG1_proof_type. Qed.
Print Assumptions C72_test_MSMEG1_proof_type.

Example C72_test_MSMEG1_proof_type_case : valid_sched fwd /\ test_MSMEG1_proof_type (E := toy) fwd (1%N : rst ctr) = Ok tt.
Proof. split; first exact: fwd_valid. by vm_compute. Qed.

(** prove.rs:653-702. *)
Theorem C72_test_MSMEG1_cproof_is_commit_and_prove : forall (E : pairing) (R : rng E) (sch sch' : sched) (s : rst R),
  valid_sched sch -> valid_sched sch' ->
  test_MSMEG1_cproof_is_commit_and_prove sch sch' s s = Ok tt.
Proof. exact: @s_MSMEG1_cproof. Qed.
Print Assumptions C72_test_MSMEG1_cproof_is_commit_and_prove.

Example C72_test_MSMEG1_cproof_is_commit_and_prove_case : valid_sched fwd /\ valid_sched bwd /\ test_MSMEG1_cproof_is_commit_and_prove (E := toy) fwd bwd (1%N : rst ctr) (1%N : rst ctr) = Ok tt.
Proof. split; first exact: fwd_valid. split; first exact: bwd_valid. by vm_compute. Qed.

(** prove.rs:705-736. *)
Theorem C72_test_MSGMEG1_cproof_serde : forall (E : pairing) (R : rng E) (cs : codecs E) (sch : sched) (s : rst R),
  valid_sched sch -> elements_ok cs good_codec -> test_MSGMEG1_cproof_serde cs sch s = Ok tt.
Proof. exact: @s_MSMEG1_serde. Qed.
Print Assumptions C72_test_MSGMEG1_cproof_serde.

Example C72_test_MSGMEG1_cproof_serde_case : valid_sched fwd /\ elements_ok (toys predT) good_codec /\ test_MSGMEG1_cproof_serde (E := toy) (toys predT) fwd (1%N : rst ctr) = Ok tt.
Proof. split; first exact: fwd_valid. split; first exact: toys_good. by vm_compute. Qed.

(** prove.rs:739-761. *)
Theorem C72_test_MSMEG2_proof_type : forall (E : pairing) (R : rng E) (sch : sched) (s : rst R),
  valid_sched sch -> test_MSMEG2_proof_type sch s = Ok tt.
Proof. exact: @s_MSMEG2_proof_type. Qed.
Print Assumptions C72_test_MSMEG2_proof_type.

Example C72_test_MSMEG2_proof_type_case : valid_sched fwd /\ test_MSMEG2_proof_type (E := toy) fwd (1%N : rst ctr) = Ok tt.
Proof. split; first exact: fwd_valid. by vm_compute. Qed.

(** prove.rs:764-813. *)
Theorem C72_test_MSMEG2_cproof_is_commit_and_prove : forall (E : pairing) (R : rng E) (sch sch' : sched) (s : rst R),
  valid_sched sch -> valid_sched sch' ->
  test_MSMEG2_cproof_is_commit_and_prove sch sch' s s = Ok tt.
Proof. exact: @s_MSMEG2_cproof. Qed.
Print Assumptions C72_test_MSMEG2_cproof_is_commit_and_prove.

Example C72_test_MSMEG2_cproof_is_commit_and_prove_case : valid_sched fwd /\ valid_sched bwd /\ test_MSMEG2_cproof_is_commit_and_prove (E := toy) fwd bwd (1%N : rst ctr) (1%N : rst ctr) = Ok tt.
Proof. split; first exact: fwd_valid. split; first exact: bwd_valid. by vm_compute. Qed.

(** prove.rs:816-847. *)
Theorem C72_test_MSMEG2_proof_serde : forall (E : pairing) (R : rng E) (cs : codecs E) (sch : sched) (s : rst R),
  valid_sched sch -> elements_ok cs good_codec -> test_MSMEG2_proof_serde cs sch s = Ok tt.
Proof. exact: @s_MSMEG2_serde. Qed.
Print Assumptions C72_test_MSMEG2_proof_serde.

Example C72_test_MSMEG2_proof_serde_case : valid_sched fwd /\ elements_ok (toys predT) good_codec /\ test_MSMEG2_proof_serde (E := toy) (toys predT) fwd (1%N : rst ctr) = Ok tt.
Proof. split; first exact: fwd_valid. split; first exact: toys_good. by vm_compute. Qed.

(** prove.rs:850-877. *)
Theorem C72_test_quadratic_proof_type : forall (E : pairing) (R : rng E) (sch : sched) (s : rst R),
  valid_sched sch -> test_quadratic_proof_type sch s = Ok tt.
Proof. exact: @s_quadratic_proof_type. Qed.
Print Assumptions C72_test_quadratic_proof_type.

Example C72_test_quadratic_proof_type_case : valid_sched fwd /\ test_quadratic_proof_type (E := toy) fwd (1%N : rst ctr) = Ok tt.
Proof. split; first exact: fwd_valid. by vm_compute. Qed.

(** prove.rs:880-932. *)
Theorem C72_test_quadratic_cproof_is_commit_and_prove : forall (E : pairing) (R : rng E) (sch sch' : sched) (s : rst R),
  valid_sched sch -> valid_sched sch' ->
  test_quadratic_cproof_is_commit_and_prove sch sch' s s = Ok tt.
Proof. exact: @s_quadratic_cproof. Qed.
Print Assumptions C72_test_quadratic_cproof_is_commit_and_prove.

Example C72_test_quadratic_cproof_is_commit_and_prove_case : valid_sched fwd /\ valid_sched bwd /\ test_quadratic_cproof_is_commit_and_prove (E := toy) fwd bwd (1%N : rst ctr) (1%N : rst ctr) = Ok tt.
Proof. split; first exact: fwd_valid. split; first exact: bwd_valid. by vm_compute. Qed.

(** prove.rs:935-971. *)
Theorem C72_test_quadratic_proof_serde : forall (E : pairing) (R : rng E) (cs : codecs E) (sch : sched) (s : rst R),
  valid_sched sch -> elements_ok cs good_codec -> test_quadratic_proof_serde cs sch s = Ok tt.
Proof. exact: @s_quadratic_serde. Qed.
Print Assumptions C72_test_quadratic_proof_serde.

Example C72_test_quadratic_proof_serde_case : valid_sched fwd /\ elements_ok (toys predT) good_codec /\ test_quadratic_proof_serde (E := toy) (toys predT) fwd (1%N : rst ctr) = Ok tt.
Proof. split; first exact: fwd_valid. split; first exact: toys_good. by vm_compute. Qed.

(** tests/commit.rs:22-34. *)
Theorem C72_PPE_linear_bilinear_map_commutativity : forall (E : pairing) (R : rng E) (s : rst R),
  bilinear E -> PPE_linear_bilinear_map_commutativity s = Ok tt.
Proof. exact: @s_PPE_commutes. Qed.
Print Assumptions C72_PPE_linear_bilinear_map_commutativity.

Example C72_PPE_linear_bilinear_map_commutativity_case : bilinear toy /\ PPE_linear_bilinear_map_commutativity (E := toy) (1%N : rst ctr) = Ok tt.
Proof. split; first exact: toy_bilinear. by vm_compute. Qed.

(** tests/commit.rs:37-51. *)
Theorem C72_MSMEG1_linear_bilinear_map_commutativity : forall (E : pairing) (R : rng E) (s : rst R),
  bilinear E -> MSMEG1_linear_bilinear_map_commutativity s = Ok tt.
Proof. exact: @s_MSMEG1_commutes. Qed.
Print Assumptions C72_MSMEG1_linear_bilinear_map_commutativity.

Example C72_MSMEG1_linear_bilinear_map_commutativity_case : bilinear toy /\ MSMEG1_linear_bilinear_map_commutativity (E := toy) (1%N : rst ctr) = Ok tt.
Proof. split; first exact: toy_bilinear. by vm_compute. Qed.

(** tests/commit.rs:54-68. *)
Theorem C72_MSMEG2_linear_bilinear_map_commutativity : forall (E : pairing) (R : rng E) (s : rst R),
  bilinear E -> MSMEG2_linear_bilinear_map_commutativity s = Ok tt.
Proof. exact: @s_MSMEG2_commutes. Qed.
Print Assumptions C72_MSMEG2_linear_bilinear_map_commutativity.

Example C72_MSMEG2_linear_bilinear_map_commutativity_case : bilinear toy /\ MSMEG2_linear_bilinear_map_commutativity (E := toy) (1%N : rst ctr) = Ok tt.
Proof. split; first exact: toy_bilinear. by vm_compute. Qed.

(** tests/commit.rs:71-85. *)
Theorem C72_QuadEqu_linear_bilinear_map_commutativity : forall (E : pairing) (R : rng E) (s : rst R),
  bilinear E -> QuadEqu_linear_bilinear_map_commutativity s = Ok tt.
Proof. exact: @s_Quad_commutes. Qed.
Print Assumptions C72_QuadEqu_linear_bilinear_map_commutativity.

Example C72_QuadEqu_linear_bilinear_map_commutativity_case : bilinear toy /\ QuadEqu_linear_bilinear_map_commutativity (E := toy) (1%N : rst ctr) = Ok tt.
Proof. split; first exact: toy_bilinear. by vm_compute. Qed.

(** tests/prover.rs:25-62. *)
Theorem C72_pairing_product_equation_verifies : forall (E : pairing) (R : rng E) (sch sch' : sched) (s : rst R),
  valid_sched sch -> valid_sched sch' -> bilinear E -> pairing_product_equation_verifies sch sch' s = Ok tt.
Proof. move=> E R sch sch' s hs hs' hb; exact: @s_ppe_verifies. Qed.
Print Assumptions C72_pairing_product_equation_verifies.

Example C72_pairing_product_equation_verifies_case : bilinear toy /\ valid_sched fwd /\ valid_sched bwd /\ pairing_product_equation_verifies (E := toy) fwd bwd (1%N : rst ctr) = Ok tt.
Proof. split; first exact: toy_bilinear. split; first exact: fwd_valid. split; first exact: bwd_valid. by vm_compute. Qed.

(** tests/prover.rs:65-100. *)
Theorem C72_multi_scalar_mult_equation_G1_verifies : forall (E : pairing) (R : rng E) (sch sch' : sched) (s : rst R),
  valid_sched sch -> valid_sched sch' -> bilinear E -> multi_scalar_mult_equation_G1_verifies sch sch' s = Ok tt.
Proof. move=> E R sch sch' s hs hs' hb; exact: @s_ms1_verifies. Qed.
Print Assumptions C72_multi_scalar_mult_equation_G1_verifies.

Example C72_multi_scalar_mult_equation_G1_verifies_case : bilinear toy /\ valid_sched fwd /\ valid_sched bwd /\ multi_scalar_mult_equation_G1_verifies (E := toy) fwd bwd (1%N : rst ctr) = Ok tt.
Proof. split; first exact: toy_bilinear. split; first exact: fwd_valid. split; first exact: bwd_valid. by vm_compute. Qed.

(** tests/prover.rs:103-138. *)
Theorem C72_multi_scalar_mult_equation_G2_verifies : forall (E : pairing) (R : rng E) (sch sch' : sched) (s : rst R),
  valid_sched sch -> valid_sched sch' -> bilinear E -> multi_scalar_mult_equation_G2_verifies sch sch' s = Ok tt.
Proof. move=> E R sch sch' s hs hs' hb; exact: @s_ms2_verifies. Qed.
Print Assumptions C72_multi_scalar_mult_equation_G2_verifies.

Example C72_multi_scalar_mult_equation_G2_verifies_case : bilinear toy /\ valid_sched fwd /\ valid_sched bwd /\ multi_scalar_mult_equation_G2_verifies (E := toy) fwd bwd (1%N : rst ctr) = Ok tt.
Proof. split; first exact: toy_bilinear. split; first exact: fwd_valid. split; first exact: bwd_valid. by vm_compute. Qed.

(** tests/prover.rs:141-172. *)
Theorem C72_quadratic_equation_verifies : forall (E : pairing) (R : rng E) (sch sch' : sched) (s : rst R),
  valid_sched sch -> valid_sched sch' -> bilinear E -> quadratic_equation_verifies sch sch' s = Ok tt.
Proof. move=> E R sch sch' s hs hs' hb; exact: @s_quad_verifies. Qed.
Print Assumptions C72_quadratic_equation_verifies.

Example C72_quadratic_equation_verifies_case : bilinear toy /\ valid_sched fwd /\ valid_sched bwd /\ quadratic_equation_verifies (E := toy) fwd bwd (1%N : rst ctr) = Ok tt.
Proof. split; first exact: toy_bilinear. split; first exact: fwd_valid. split; first exact: bwd_valid. by vm_compute. Qed.

(** The test at prove.rs:764 draws from two generators without setting DETERMINISTIC_TEST_RNG,
    so it may start from two different states; then it can fail. *)
Theorem C72_MSMEG2_cproof_two_states_refuted :
  ~ (forall (E : pairing) (R : rng E) (sch sch' : sched) (s s' : rst R), bilinear E -> valid_sched sch -> valid_sched sch' ->
     test_MSMEG2_cproof_is_commit_and_prove sch sch' s s' = Ok tt).
Proof. exact: MSMEG2_two_states. Qed.
Print Assumptions C72_MSMEG2_cproof_two_states_refuted.

(** The test at prove.rs:880 draws from two generators without setting DETERMINISTIC_TEST_RNG,
    so it may start from two different states; then it can fail. *)
Theorem C72_quadratic_cproof_two_states_refuted :
  ~ (forall (E : pairing) (R : rng E) (sch sch' : sched) (s s' : rst R), bilinear E -> valid_sched sch -> valid_sched sch' ->
     test_quadratic_cproof_is_commit_and_prove sch sch' s s' = Ok tt).
Proof. exact: quadratic_two_states. Qed.
Print Assumptions C72_quadratic_cproof_two_states_refuted.

