{
 "claims": [
  {
   "property": "C01",
   "status": "proved",
   "theorems": [
    "C01_ppe_completeness"
   ],
   "note": ""
  },
  {
   "property": "C02",
   "status": "proved",
   "theorems": [
    "C02_ms1_completeness"
   ],
   "note": ""
  },
  {
   "property": "C03",
   "status": "proved",
   "theorems": [
    "C03_ms2_completeness"
   ],
   "note": ""
  },
  {
   "property": "C04",
   "status": "proved",
   "theorems": [
    "C04_quad_completeness"
   ],
   "note": ""
  },
  {
   "property": "C05",
   "status": "proved",
   "theorems": [
    "C05_ppe_soundness"
   ],
   "note": ""
  },
  {
   "property": "C06",
   "status": "proved",
   "theorems": [
    "C06_ms1_soundness"
   ],
   "note": ""
  },
  {
   "property": "C07",
   "status": "proved",
   "theorems": [
    "C07_ms2_soundness"
   ],
   "note": ""
  },
  {
   "property": "C08",
   "status": "proved",
   "theorems": [
    "C08_quad_soundness"
   ],
   "note": ""
  },
  {
   "property": "C09",
   "status": "proved",
   "theorems": [
    "C09_ppe_decides",
    "C09_ms1_decides",
    "C09_ms2_decides",
    "C09_quad_decides",
    "C09_generated_keys"
   ],
   "note": ""
  },
  {
   "property": "C10",
   "status": "proved",
   "theorems": [
    "C10_G1_binding",
    "C10_G1_batch_binding",
    "C10_G2_binding",
    "C10_G2_batch_binding"
   ],
   "note": ""
  },
  {
   "property": "C11",
   "status": "proved",
   "theorems": [
    "C11_B1_binding",
    "C11_B1_batch_binding",
    "C11_B2_binding",
    "C11_B2_batch_binding"
   ],
   "note": ""
  },
  {
   "property": "C12",
   "status": "proved",
   "theorems": [
    "C12_G1_one",
    "C12_G1_batch",
    "C12_G1_counts",
    "C12_G1_binding",
    "C12_G2_one",
    "C12_G2_batch",
    "C12_G2_counts",
    "C12_G2_binding",
    "C12_B1_one",
    "C12_B1_batch",
    "C12_B1_counts",
    "C12_B1_binding",
    "C12_B2_one",
    "C12_B2_batch",
    "C12_B2_counts",
    "C12_B2_binding"
   ],
   "note": ""
  },
  {
   "property": "C13",
   "status": "proved",
   "theorems": [
    "C13_ppe",
    "C13_ppe_counts",
    "C13_ms1",
    "C13_ms1_counts",
    "C13_ms2",
    "C13_ms2_counts",
    "C13_quad",
    "C13_quad_counts"
   ],
   "note": ""
  },
  {
   "property": "C14",
   "status": "proved",
   "theorems": [
    "C14_joint_satisfaction",
    "C14_unique_assignment"
   ],
   "note": ""
  },
  {
   "property": "C15",
   "status": "proved",
   "theorems": [
    "C15_G1_secret_refuted",
    "C15_B1_secret_refuted",
    "C15_B1_single_secret_refuted",
    "C15_G2_secret_refuted",
    "C15_B2_secret_refuted",
    "C15_B2_single_secret_refuted",
    "C15_ppe_proof_secret_refuted",
    "C15_ms1_proof_secret_refuted",
    "C15_ms2_proof_secret_refuted",
    "C15_ms1_proof_scalars_refuted",
    "C15_ms2_proof_scalars_refuted",
    "C15_quad_proof_scalars_refuted",
    "C15_G1_bytes_secret_refuted",
    "C15_G2_bytes_secret_refuted"
   ],
   "note": "the claim as stated is false; the theorems refute it for the Commit1/Commit2/CProof values and for the serialized bytes, under every key"
  },
  {
   "property": "C16",
   "status": "proved",
   "theorems": [
    "C16_G1_batch_is_singles",
    "C16_G2_batch_is_singles",
    "C16_B1_batch_is_singles",
    "C16_B2_batch_is_singles"
   ],
   "note": ""
  },
  {
   "property": "C17",
   "status": "proved",
   "theorems": [
    "C17_ppe_steps",
    "C17_ppe_total",
    "C17_ms1_steps",
    "C17_ms1_total",
    "C17_ms2_steps",
    "C17_ms2_total",
    "C17_quad_steps",
    "C17_quad_total"
   ],
   "note": ""
  },
  {
   "property": "C18",
   "status": "proved",
   "theorems": [
    "C18_G1_draws",
    "C18_G1_batch_draws",
    "C18_G2_draws",
    "C18_G2_batch_draws",
    "C18_B1_draws",
    "C18_B1_batch_draws",
    "C18_B2_draws",
    "C18_B2_batch_draws",
    "C18_ppe_prove_draws",
    "C18_ppe_cap_draws",
    "C18_ms1_prove_draws",
    "C18_ms1_cap_draws",
    "C18_ms2_prove_draws",
    "C18_ms2_cap_draws",
    "C18_quad_prove_draws",
    "C18_quad_cap_draws",
    "C18_generate_draws"
   ],
   "note": ""
  },
  {
   "property": "C19",
   "status": "proved",
   "theorems": [
    "C19_append_returns",
    "C19_append_panics",
    "C19_append_panic_unchanged",
    "C19_append_assoc"
   ],
   "note": ""
  },
  {
   "property": "C20",
   "status": "proved",
   "theorems": [
    "C20_api_made1",
    "C20_api_append1",
    "C20_api_made2",
    "C20_api_append2"
   ],
   "note": ""
  },
  {
   "property": "C21",
   "status": "proved",
   "theorems": [
    "C21_field_right",
    "C21_field_left",
    "C21_com_right",
    "C21_com_left"
   ],
   "note": ""
  },
  {
   "property": "C22",
   "status": "proved",
   "theorems": [
    "C22_field_right_value",
    "C22_field_left_value",
    "C22_field_right_assoc",
    "C22_field_left_assoc",
    "C22_field_left_right",
    "C22_field_right_addl",
    "C22_field_right_addr",
    "C22_field_left_addl",
    "C22_field_left_addr",
    "C22_com_right_value",
    "C22_com_left_value",
    "C22_com_right_assoc",
    "C22_com_left_assoc",
    "C22_com_left_right",
    "C22_com_right_addl",
    "C22_com_right_addr",
    "C22_com_left_addl",
    "C22_com_left_addr"
   ],
   "note": ""
  },
  {
   "property": "C23",
   "status": "proved",
   "theorems": [
    "C23_field_add_value",
    "C23_field_add_comm",
    "C23_field_add_assoc",
    "C23_field_neg_value",
    "C23_field_add_neg",
    "C23_field_add_zero",
    "C23_field_scalar_value",
    "C23_field_scalar_addl",
    "C23_field_scalar_addr",
    "C23_field_scalar_mul",
    "C23_field_scalar_one",
    "C23_com_add_value",
    "C23_com_add_comm",
    "C23_com_add_assoc",
    "C23_com_neg_value",
    "C23_com_add_neg",
    "C23_com_add_zero",
    "C23_com_scalar_value",
    "C23_com_scalar_addl",
    "C23_com_scalar_addr",
    "C23_com_scalar_mul",
    "C23_com_scalar_one"
   ],
   "note": ""
  },
  {
   "property": "C24",
   "status": "proved",
   "theorems": [
    "C24_field_transpose_value",
    "C24_field_transpose_involutive",
    "C24_field_transpose_right",
    "C24_field_transpose_left",
    "C24_com_transpose_value",
    "C24_com_transpose_involutive",
    "C24_com_transpose_right",
    "C24_com_transpose_left"
   ],
   "note": ""
  },
  {
   "property": "C25",
   "status": "proved",
   "theorems": [
    "C25_field_add",
    "C25_field_neg",
    "C25_field_scalar_mul",
    "C25_field_transpose",
    "C25_field_right_mul",
    "C25_field_left_mul",
    "C25_com_add",
    "C25_com_neg",
    "C25_com_scalar_mul",
    "C25_com_transpose",
    "C25_com_right_mul",
    "C25_com_left_mul",
    "C25_col_vec_to_vec"
   ],
   "note": ""
  },
  {
   "property": "C26",
   "status": "proved",
   "theorems": [
    "C26_com_abelian",
    "C26_com_sub",
    "C26_com_eq",
    "C26_com_is_zero",
    "C26_com_sum",
    "C26_comT_abelian",
    "C26_comT_sub",
    "C26_comT_eq",
    "C26_comT_is_zero",
    "C26_comT_sum"
   ],
   "note": ""
  },
  {
   "property": "C27",
   "status": "proved",
   "theorems": [
    "C27_module"
   ],
   "note": ""
  },
  {
   "property": "C28",
   "status": "proved",
   "theorems": [
    "C28_additive",
    "C28_homogeneous",
    "C28_no_zero_divisors",
    "C28_nondegenerate",
    "C28_pairing_sum",
    "C28_entries",
    "C28_sum_entries"
   ],
   "note": ""
  },
  {
   "property": "C29",
   "status": "proved",
   "theorems": [
    "C29_PPE",
    "C29_MSMEG1",
    "C29_MSMEG2",
    "C29_quad",
    "C29_com1_maps_linear",
    "C29_com1_batch_maps",
    "C29_com2_maps_linear",
    "C29_com2_batch_maps",
    "C29_target_maps_linear"
   ],
   "note": ""
  },
  {
   "property": "C30",
   "status": "proved",
   "theorems": [
    "C30_com_from_as_col_vec",
    "C30_as_vec",
    "C30_com_from_exact",
    "C30_comT_from_as_matrix",
    "C30_comT_from_exact",
    "C30_col_vec_round_trip"
   ],
   "note": ""
  },
  {
   "property": "C31",
   "status": "proved",
   "theorems": [
    "C31_shape",
    "C31_gt",
    "C31_one_key",
    "C31_every_key"
   ],
   "note": ""
  },
  {
   "property": "C32",
   "status": "proved",
   "theorems": [
    "C32_difference",
    "C32_hiding_spans",
    "C32_hiding_independent",
    "C32_binding_does_not_span"
   ],
   "note": ""
  },
  {
   "property": "C33",
   "status": "proved",
   "theorems": [
    "C33_ppe_randomness",
    "C33_ppe_crs",
    "C33_ms1_randomness",
    "C33_ms1_crs",
    "C33_ms2_randomness",
    "C33_ms2_crs",
    "C33_quad_randomness",
    "C33_quad_crs"
   ],
   "note": ""
  },
  {
   "property": "C34",
   "status": "proved",
   "theorems": [
    "C34_ppe_panics",
    "C34_ppe_value",
    "C34_ms1_panics",
    "C34_ms1_value",
    "C34_ms2_panics",
    "C34_ms2_value",
    "C34_quad_panics",
    "C34_quad_value"
   ],
   "note": ""
  },
  {
   "property": "C35",
   "status": "proved",
   "theorems": [
    "C35_ppe_panics",
    "C35_ppe_shape",
    "C35_ms1_panics",
    "C35_ms1_shape",
    "C35_ms2_panics",
    "C35_ms2_shape",
    "C35_quad_panics",
    "C35_quad_shape"
   ],
   "note": ""
  },
  {
   "property": "C36",
   "status": "proved",
   "theorems": [
    "C36_ppe_refuted",
    "C36_ppe_verify_refuted",
    "C36_ms1_refuted",
    "C36_ms1_verify_refuted",
    "C36_ms2_refuted",
    "C36_ms2_verify_refuted",
    "C36_quad_refuted",
    "C36_quad_verify_refuted"
   ],
   "note": "the claim as stated is false; the theorems refute it: no equation without x- or without y-variables can be proved"
  },
  {
   "property": "C37",
   "status": "proved",
   "theorems": [
    "C37_ppe_pi",
    "C37_ppe_theta",
    "C37_ms1_pi",
    "C37_ms1_theta_refuted",
    "C37_ms2_pi_refuted",
    "C37_ms2_theta",
    "C37_quad_pi_refuted",
    "C37_quad_theta_refuted"
   ],
   "note": "holds for PPE, for pi of MSMEG1 and theta of MSMEG2; the rest of the claim is false and refuted by the _refuted theorems"
  },
  {
   "property": "C38",
   "status": "proved",
   "theorems": [
    "C38_ppe",
    "C38_ms1",
    "C38_ms2",
    "C38_quad"
   ],
   "note": ""
  },
  {
   "property": "C39",
   "status": "proved",
   "theorems": [
    "C39_bytes",
    "C39_reads_back",
    "C39_canonical",
    "C39_rejects",
    "C39_empty",
    "C39_size"
   ],
   "note": ""
  },
  {
   "property": "C40",
   "status": "proved",
   "theorems": [
    "C40_com1",
    "C40_com2",
    "C40_crs",
    "C40_commit1",
    "C40_commit2",
    "C40_equproof",
    "C40_ppe",
    "C40_ms1",
    "C40_ms2",
    "C40_quad"
   ],
   "note": ""
  },
  {
   "property": "C41",
   "status": "proved",
   "theorems": [
    "C41_com1_canonical",
    "C41_com1_one",
    "C41_com1_prefix",
    "C41_com2_canonical",
    "C41_com2_one",
    "C41_com2_prefix",
    "C41_crs_canonical",
    "C41_crs_one",
    "C41_crs_prefix",
    "C41_commit1_canonical",
    "C41_commit1_one",
    "C41_commit1_prefix",
    "C41_commit2_canonical",
    "C41_commit2_one",
    "C41_commit2_prefix",
    "C41_equproof_canonical",
    "C41_equproof_one",
    "C41_equproof_prefix",
    "C41_ppe_canonical",
    "C41_ppe_one",
    "C41_ppe_prefix",
    "C41_ms1_canonical",
    "C41_ms1_one",
    "C41_ms1_prefix",
    "C41_ms2_canonical",
    "C41_ms2_one",
    "C41_ms2_prefix",
    "C41_quad_canonical",
    "C41_quad_one",
    "C41_quad_prefix"
   ],
   "note": "canonicity of the element codecs is a hypothesis; the default point format of arkworks does not satisfy it (C94), C93 is the version for single values"
  },
  {
   "property": "C42",
   "status": "proved",
   "theorems": [
    "C42_com1",
    "C42_com2",
    "C42_crs",
    "C42_commit1",
    "C42_commit2",
    "C42_equproof",
    "C42_ppe",
    "C42_ms1",
    "C42_ms2",
    "C42_quad"
   ],
   "note": ""
  },
  {
   "property": "C43",
   "status": "proved",
   "theorems": [
    "C43_ppe",
    "C43_ms1",
    "C43_ms2",
    "C43_quad"
   ],
   "note": ""
  },
  {
   "property": "C44",
   "status": "proved",
   "theorems": [
    "C44_ms1_refuted",
    "C44_ms2_refuted",
    "C44_quad_refuted"
   ],
   "note": "the claim as stated is false; the theorems refute it when the RNG draws the identity"
  },
  {
   "property": "C45",
   "status": "proved",
   "theorems": [
    "C45_G1_homomorphic",
    "C45_G1_batch_homomorphic",
    "C45_G2_homomorphic",
    "C45_G2_batch_homomorphic",
    "C45_B1_homomorphic",
    "C45_B1_batch_homomorphic",
    "C45_B2_homomorphic",
    "C45_B2_batch_homomorphic"
   ],
   "note": ""
  },
  {
   "property": "C46",
   "status": "proved",
   "theorems": [
    "C46_ppe_stamp",
    "C46_ppe_mismatch",
    "C46_ms1_stamp",
    "C46_ms1_mismatch",
    "C46_ms2_stamp",
    "C46_ms2_mismatch",
    "C46_quad_stamp",
    "C46_quad_mismatch"
   ],
   "note": ""
  },
  {
   "property": "C47",
   "status": "proved",
   "theorems": [
    "C47_ppe_verify",
    "C47_ppe_prove",
    "C47_ms1_verify",
    "C47_ms1_prove",
    "C47_ms2_verify",
    "C47_ms2_prove",
    "C47_quad_verify",
    "C47_quad_prove"
   ],
   "note": ""
  },
  {
   "property": "C48",
   "status": "proved",
   "theorems": [
    "C48_ppe_simulated",
    "C48_ppe_counts",
    "C48_ppe_accepted",
    "C48_ms1_simulated",
    "C48_ms1_counts",
    "C48_ms1_accepted",
    "C48_ms2_simulated",
    "C48_ms2_counts",
    "C48_ms2_accepted",
    "C48_quad_simulated",
    "C48_quad_counts",
    "C48_quad_accepted"
   ],
   "note": ""
  },
  {
   "property": "C49",
   "status": "proved",
   "theorems": [
    "C49_bound",
    "C49_quarter",
    "C49_games",
    "C49_real"
   ],
   "note": ""
  },
  {
   "property": "C50",
   "status": "proved",
   "theorems": [
    "C50_ppe",
    "C50_ppe_ddh",
    "C50_ms1",
    "C50_ms1_ddh",
    "C50_ms2",
    "C50_ms2_ddh",
    "C50_quad",
    "C50_quad_ddh"
   ],
   "note": ""
  },
  {
   "property": "C51",
   "status": "proved",
   "theorems": [
    "C51_com1",
    "C51_com2",
    "C51_crs",
    "C51_commit1",
    "C51_commit2",
    "C51_equproof",
    "C51_ppe",
    "C51_ms1",
    "C51_ms2",
    "C51_quad"
   ],
   "note": ""
  },
  {
   "property": "C52",
   "status": "proved",
   "theorems": [
    "C52_com1",
    "C52_com2",
    "C52_crs",
    "C52_commit1",
    "C52_commit2",
    "C52_equproof",
    "C52_ppe",
    "C52_ms1",
    "C52_ms2",
    "C52_quad"
   ],
   "note": ""
  },
  {
   "property": "C53",
   "status": "proved",
   "theorems": [
    "C53_ppe",
    "C53_ppe_ddh",
    "C53_ms1",
    "C53_ms1_ddh",
    "C53_ms2",
    "C53_ms2_ddh",
    "C53_quad",
    "C53_quad_ddh"
   ],
   "note": ""
  },
  {
   "property": "C54",
   "status": "proved",
   "theorems": [
    "C54_commit",
    "C54_ppe",
    "C54_ms1",
    "C54_ms2",
    "C54_quad",
    "C54_equproof",
    "C54_cproof",
    "C54_private"
   ],
   "note": ""
  },
  {
   "property": "C55",
   "status": "proved",
   "theorems": [
    "C55_ppe_prove",
    "C55_ppe_commit_and_prove",
    "C55_ppe_verify",
    "C55_ms1_prove",
    "C55_ms1_commit_and_prove",
    "C55_ms1_verify",
    "C55_ms2_prove",
    "C55_ms2_commit_and_prove",
    "C55_ms2_verify",
    "C55_quad_prove",
    "C55_quad_commit_and_prove",
    "C55_quad_verify"
   ],
   "note": ""
  },
  {
   "property": "C56",
   "status": "proved",
   "theorems": [
    "C56_ppe_complete",
    "C56_ppe_decides",
    "C56_ms1_complete",
    "C56_ms1_decides",
    "C56_ms2_complete",
    "C56_ms2_decides",
    "C56_quad_complete",
    "C56_quad_decides"
   ],
   "note": ""
  },
  {
   "property": "C57",
   "status": "proved",
   "theorems": [
    "C57_system_complete",
    "C57_system_built",
    "C57_system_decides",
    "C57_system_sound"
   ],
   "note": ""
  },
  {
   "property": "C58",
   "status": "proved",
   "theorems": [
    "C58_system_wi",
    "C58_system_wi_counts",
    "C58_system_zk",
    "C58_system_zk_counts",
    "C58_system_comp_wi",
    "C58_system_comp_wi_ddh",
    "C58_system_comp_zk",
    "C58_system_comp_zk_ddh"
   ],
   "note": ""
  },
  {
   "property": "C59",
   "status": "proved",
   "theorems": [
    "C59_ppe",
    "C59_ms1",
    "C59_ms2",
    "C59_quad"
   ],
   "note": ""
  },
  {
   "property": "C60",
   "status": "proved",
   "theorems": [
    "C60_ppe_verifies",
    "C60_ppe_fresh",
    "C60_ppe_counts",
    "C60_ms1_verifies",
    "C60_ms1_fresh",
    "C60_ms1_counts",
    "C60_ms2_verifies",
    "C60_ms2_fresh",
    "C60_ms2_counts",
    "C60_quad_verifies",
    "C60_quad_fresh",
    "C60_quad_counts",
    "C60_G1_values",
    "C60_G2_values",
    "C60_B1_values",
    "C60_B2_values"
   ],
   "note": ""
  },
  {
   "property": "C61",
   "status": "proved",
   "theorems": [
    "C61_ppe",
    "C61_ms1",
    "C61_ms2",
    "C61_quad",
    "C61_literal_power_refuted"
   ],
   "note": ""
  },
  {
   "property": "C62",
   "status": "proved",
   "theorems": [
    "C62_G1_homomorphic",
    "C62_G2_homomorphic",
    "C62_B1_homomorphic",
    "C62_B2_homomorphic",
    "C62_ppe_equations",
    "C62_ppe_runs",
    "C62_ms1_equations",
    "C62_ms1_runs",
    "C62_ms2_equations",
    "C62_ms2_runs",
    "C62_quad_equations",
    "C62_quad_runs",
    "C62_ppe_subst_holds",
    "C62_ppe_subst_verify",
    "C62_ppe_subst_prove",
    "C62_ms1_subst_holds",
    "C62_ms1_subst_verify",
    "C62_ms1_subst_prove",
    "C62_ms2_subst_holds",
    "C62_ms2_subst_verify",
    "C62_ms2_subst_prove",
    "C62_quad_subst_holds",
    "C62_quad_subst_verify",
    "C62_quad_subst_prove"
   ],
   "note": ""
  },
  {
   "property": "C63",
   "status": "proved",
   "theorems": [
    "C63_ppe",
    "C63_ms1",
    "C63_ms2",
    "C63_quad"
   ],
   "note": ""
  },
  {
   "property": "C64",
   "status": "proved",
   "theorems": [
    "C64_ppe",
    "C64_ms1",
    "C64_ms2",
    "C64_quad"
   ],
   "note": ""
  },
  {
   "property": "C65",
   "status": "proved",
   "theorems": [
    "C65_ppe",
    "C65_ms1",
    "C65_ms2",
    "C65_quad"
   ],
   "note": ""
  },
  {
   "property": "C66",
   "status": "proved",
   "theorems": [
    "C66_G1",
    "C66_G2",
    "C66_B1",
    "C66_B2"
   ],
   "note": ""
  },
  {
   "property": "C67",
   "status": "proved",
   "theorems": [
    "C67_field_add",
    "C67_field_neg",
    "C67_field_scalar_mul",
    "C67_field_transpose",
    "C67_field_right_mul",
    "C67_field_left_mul",
    "C67_com_add",
    "C67_com_neg",
    "C67_com_scalar_mul",
    "C67_com_transpose",
    "C67_com_right_mul",
    "C67_com_left_mul",
    "C67_flatten",
    "C67_com_from",
    "C67_comT_from",
    "C67_pairing_sum",
    "C67_scalar_map1",
    "C67_batch_scalar_map1",
    "C67_scalar_map2",
    "C67_batch_scalar_map2",
    "C67_linear_map_MSMEG1",
    "C67_linear_map_MSMEG2",
    "C67_linear_map_quad",
    "C67_append",
    "C67_commit_G1",
    "C67_batch_commit_G1",
    "C67_commit_G2",
    "C67_batch_commit_G2",
    "C67_commit_B1",
    "C67_batch_commit_B1",
    "C67_commit_B2",
    "C67_batch_commit_B2",
    "C67_ppe_verify",
    "C67_ms1_verify",
    "C67_ms2_verify",
    "C67_quad_verify",
    "C67_ppe_prove",
    "C67_ms1_prove",
    "C67_ms2_prove",
    "C67_quad_prove",
    "C67_ppe_commit_and_prove",
    "C67_ms1_commit_and_prove",
    "C67_ms2_commit_and_prove",
    "C67_quad_commit_and_prove"
   ],
   "note": ""
  },
  {
   "property": "C68",
   "status": "proved",
   "theorems": [
    "C68_commit_G1",
    "C68_batch_commit_G1",
    "C68_commit_scalar_to_B1",
    "C68_batch_commit_scalar_to_B1",
    "C68_commit_G2",
    "C68_batch_commit_G2",
    "C68_commit_scalar_to_B2",
    "C68_batch_commit_scalar_to_B2",
    "C68_ppe_prove",
    "C68_ppe_commit_and_prove",
    "C68_ms1_prove",
    "C68_ms1_commit_and_prove",
    "C68_ms2_prove",
    "C68_ms2_commit_and_prove",
    "C68_quad_prove",
    "C68_quad_commit_and_prove"
   ],
   "note": ""
  },
  {
   "property": "C69",
   "status": "proved",
   "theorems": [
    "C69_field_add",
    "C69_field_neg",
    "C69_field_scalar_mul",
    "C69_field_transpose",
    "C69_field_right_mul",
    "C69_field_left_mul",
    "C69_com_add",
    "C69_com_neg",
    "C69_com_scalar_mul",
    "C69_com_transpose",
    "C69_com_right_mul",
    "C69_com_left_mul",
    "C69_flatten",
    "C69_com_from",
    "C69_comT_from",
    "C69_pairing_sum",
    "C69_scalar_map1",
    "C69_batch_scalar_map1",
    "C69_scalar_map2",
    "C69_batch_scalar_map2",
    "C69_linear_map_MSMEG1",
    "C69_linear_map_MSMEG2",
    "C69_linear_map_quad",
    "C69_append",
    "C69_commit_G1",
    "C69_batch_commit_G1",
    "C69_commit_B1",
    "C69_batch_commit_B1",
    "C69_commit_G2",
    "C69_batch_commit_G2",
    "C69_commit_B2",
    "C69_batch_commit_B2",
    "C69_ppe_verify",
    "C69_ms1_verify",
    "C69_ms2_verify",
    "C69_quad_verify",
    "C69_ppe_prove",
    "C69_ms1_prove",
    "C69_ms2_prove",
    "C69_quad_prove",
    "C69_ppe_commit_and_prove",
    "C69_ms1_commit_and_prove",
    "C69_ms2_commit_and_prove",
    "C69_quad_commit_and_prove"
   ],
   "note": ""
  },
  {
   "property": "C70",
   "status": "proved",
   "theorems": [
    "C70_equtype",
    "C70_com1",
    "C70_com1_check",
    "C70_com2",
    "C70_com2_check",
    "C70_crs",
    "C70_crs_check",
    "C70_commit1",
    "C70_commit1_check",
    "C70_commit2",
    "C70_commit2_check",
    "C70_equproof",
    "C70_equproof_check",
    "C70_ppe",
    "C70_ppe_check",
    "C70_ms1",
    "C70_ms1_check",
    "C70_ms2",
    "C70_ms2_check",
    "C70_quad",
    "C70_quad_check"
   ],
   "note": ""
  },
  {
   "property": "C71",
   "status": "proved",
   "theorems": [
    "C71_equtype",
    "C71_com1",
    "C71_com1_errors",
    "C71_com2",
    "C71_com2_errors",
    "C71_crs",
    "C71_crs_errors",
    "C71_commit1",
    "C71_commit1_errors",
    "C71_commit2",
    "C71_commit2_errors",
    "C71_equproof",
    "C71_equproof_errors",
    "C71_ppe",
    "C71_ppe_errors",
    "C71_ms1",
    "C71_ms1_errors",
    "C71_ms2",
    "C71_ms2_errors",
    "C71_quad",
    "C71_quad_errors"
   ],
   "note": ""
  },
  {
   "property": "C72",
   "status": "proved",
   "theorems": [
    "C72_test_B1_add_zero",
    "C72_test_B2_add_zero",
    "C72_test_BT_add_zero",
    "C72_test_B1_add",
    "C72_test_B2_add",
    "C72_test_BT_add",
    "C72_test_B1_sum",
    "C72_test_B2_sum",
    "C72_test_BT_sum",
    "C72_test_B1_neg",
    "C72_test_B2_neg",
    "C72_test_BT_neg",
    "C72_test_B1_sub",
    "C72_test_B2_sub",
    "C72_test_BT_sub",
    "C72_test_B1_scalar_mul",
    "C72_test_B2_scalar_mul",
    "C72_test_B1_serde",
    "C72_test_B2_serde",
    "C72_test_B_pairing_zero_G1",
    "C72_test_B_pairing_zero_G2",
    "C72_test_B_pairing_commit",
    "C72_test_B_pairing_rand",
    "C72_test_B_pairing_sum",
    "C72_test_B_into_matrix",
    "C72_test_B_from_matrix",
    "C72_test_batched_linear_maps",
    "C72_test_batched_scalar_linear_maps",
    "C72_test_PPE_linear_maps",
    "C72_test_MSMEG1_linear_maps",
    "C72_test_MSMEG2_linear_maps",
    "C72_test_QuadEqu_linear_maps",
    "C72_test_col_vec_to_vec",
    "C72_test_vec_to_col_vec",
    "C72_test_field_matrix_left_mul_entry",
    "C72_test_field_matrix_right_mul_entry",
    "C72_test_field_matrix_left_mul",
    "C72_test_field_matrix_right_mul",
    "C72_test_field_matrix_left_mul_par",
    "C72_test_field_matrix_right_mul_par",
    "C72_test_B1_matrix_left_mul_entry",
    "C72_test_B1_matrix_right_mul_entry",
    "C72_test_field_matrix_scalar_mul",
    "C72_test_B1_matrix_scalar_mul",
    "C72_test_B2_matrix_scalar_mul",
    "C72_test_B1_transpose_vec",
    "C72_test_B1_matrix_transpose",
    "C72_test_B2_transpose_vec",
    "C72_test_B2_matrix_transpose",
    "C72_test_field_transpose_vec",
    "C72_test_field_matrix_transpose",
    "C72_test_field_matrix_neg",
    "C72_test_B1_matrix_neg",
    "C72_test_B2_matrix_neg",
    "C72_test_field_matrix_add",
    "C72_test_B1_matrix_add",
    "C72_test_B2_matrix_add",
    "C72_test_valid_generators",
    "C72_test_valid_binding_CRS",
    "C72_test_CRS_serde",
    "C72_test_equtypes_serde",
    "C72_test_PPE_equation_type",
    "C72_test_PPE_equation_serde",
    "C72_test_MSMEG1_equation_type",
    "C72_test_MSMEG1_equation_serde",
    "C72_test_MSMEG2_equation_type",
    "C72_test_MSMEG2_equation_serde",
    "C72_test_quadratic_equation_type",
    "C72_test_quadratic_equation_serde",
    "C72_test_commit_serde",
    "C72_test_commit_append_com1",
    "C72_test_commit_append_com2",
    "C72_test_commit_G1_batching",
    "C72_test_commit_G2_batching",
    "C72_test_commit_scalar_B1_batching",
    "C72_test_commit_scalar_B2_batching",
    "C72_test_PPE_proof_type",
    "C72_test_PPE_cproof_is_commit_and_prove",
    "C72_test_PPE_cproof_serde",
    "C72_test_MSMEG1_proof_type",
    "C72_test_MSMEG1_cproof_is_commit_and_prove",
    "C72_test_MSGMEG1_cproof_serde",
    "C72_test_MSMEG2_proof_type",
    "C72_test_MSMEG2_cproof_is_commit_and_prove",
    "C72_test_MSMEG2_proof_serde",
    "C72_test_quadratic_proof_type",
    "C72_test_quadratic_cproof_is_commit_and_prove",
    "C72_test_quadratic_proof_serde",
    "C72_PPE_linear_bilinear_map_commutativity",
    "C72_MSMEG1_linear_bilinear_map_commutativity",
    "C72_MSMEG2_linear_bilinear_map_commutativity",
    "C72_QuadEqu_linear_bilinear_map_commutativity",
    "C72_pairing_product_equation_verifies",
    "C72_multi_scalar_mult_equation_G1_verifies",
    "C72_multi_scalar_mult_equation_G2_verifies",
    "C72_quadratic_equation_verifies",
    "C72_MSMEG2_cproof_two_states_refuted",
    "C72_quadratic_cproof_two_states_refuted"
   ],
   "note": "two tests pass only when no zero is drawn (stated exactly); two tests do not fix the seed and are shown to fail for two different states (_refuted)"
  },
  {
   "property": "C73",
   "status": "proved",
   "theorems": [
    "C73_small_field_matrix_mul",
    "C73_field_matrix_mul",
    "C73_large_field_matrix_mul",
    "C73_small_B1_matrix_mul",
    "C73_group_arith",
    "C73_small_batch_commit_G1",
    "C73_batch_commit_G1",
    "C73_large_batch_commit_G1",
    "C73_small_batch_commit_G2",
    "C73_batch_commit_G2",
    "C73_large_batch_commit_G2",
    "C73_small_batch_commit_scalar_to_B1",
    "C73_batch_commit_scalar_to_B1",
    "C73_large_batch_commit_scalar_to_B1",
    "C73_small_batch_commit_scalar_to_B2",
    "C73_batch_commit_scalar_to_B2",
    "C73_large_batch_commit_scalar_to_B2",
    "C73_small_PPE_proof",
    "C73_PPE_proof",
    "C73_large_PPE_proof",
    "C73_small_PPE_verify",
    "C73_PPE_verify",
    "C73_large_PPE_verify"
   ],
   "note": ""
  },
  {
   "property": "C74",
   "status": "proved",
   "theorems": [
    "C74_ppe_never",
    "C74_ms1_bound",
    "C74_ms1_tight",
    "C74_ms2_bound",
    "C74_ms2_tight",
    "C74_quad_bound",
    "C74_quad_tight",
    "C74_uniform",
    "C74_G1_binding",
    "C74_G2_binding",
    "C74_B1_binding",
    "C74_B1_tight",
    "C74_B2_binding",
    "C74_B2_tight"
   ],
   "note": ""
  },
  {
   "property": "C75",
   "status": "proved",
   "theorems": [
    "C75_keys",
    "C75_decrypt_G1",
    "C75_decrypt_G2",
    "C75_decrypt_B1",
    "C75_decrypt_B2",
    "C75_ppe",
    "C75_ms1",
    "C75_ms2",
    "C75_quad"
   ],
   "note": ""
  },
  {
   "property": "C76",
   "status": "proved",
   "theorems": [
    "C76_G1",
    "C76_G2",
    "C76_B1",
    "C76_B2",
    "C76_ppe",
    "C76_ms1",
    "C76_ms2",
    "C76_quad"
   ],
   "note": ""
  },
  {
   "property": "C77",
   "status": "proved",
   "theorems": [
    "C77_opens_G1",
    "C77_opens_G2",
    "C77_opens_B1",
    "C77_opens_B2",
    "C77_keys_1",
    "C77_keys_2",
    "C77_ddh_1",
    "C77_ddh_2",
    "C77_ppe_X",
    "C77_ppe_Y",
    "C77_ms1_X",
    "C77_ms1_Y",
    "C77_ms2_X",
    "C77_ms2_Y",
    "C77_quad_X",
    "C77_quad_Y"
   ],
   "note": ""
  },
  {
   "property": "C78",
   "status": "proved",
   "theorems": [
    "C78_keys_1",
    "C78_keys_2",
    "C78_ppe_X",
    "C78_ppe_Y",
    "C78_ms1_X",
    "C78_ms1_Y",
    "C78_ms2_X",
    "C78_ms2_Y",
    "C78_quad_X",
    "C78_quad_Y"
   ],
   "note": ""
  },
  {
   "property": "C79",
   "status": "proved",
   "theorems": [
    "C79_com",
    "C79_mat",
    "C79_comT",
    "C79_maps",
    "C79_generate_crs",
    "C79_prepare_keys",
    "C79_commit_G1",
    "C79_batch_commit_G1",
    "C79_commit_scalar_to_B1",
    "C79_batch_commit_scalar_to_B1",
    "C79_commit_G2",
    "C79_batch_commit_G2",
    "C79_commit_scalar_to_B2",
    "C79_batch_commit_scalar_to_B2",
    "C79_append",
    "C79_derived_eq",
    "C79_ppe_prove",
    "C79_ppe_commit_and_prove",
    "C79_ppe_verify",
    "C79_ms1_prove",
    "C79_ms1_commit_and_prove",
    "C79_ms1_verify",
    "C79_ms2_prove",
    "C79_ms2_commit_and_prove",
    "C79_ms2_verify",
    "C79_quad_prove",
    "C79_quad_commit_and_prove",
    "C79_quad_verify"
   ],
   "note": ""
  },
  {
   "property": "C80",
   "status": "proved",
   "theorems": [
    "C80_ppe_decides",
    "C80_ppe_sound",
    "C80_ppe_wi",
    "C80_ms1_decides",
    "C80_ms1_sound",
    "C80_ms1_wi",
    "C80_ms2_decides",
    "C80_ms2_sound",
    "C80_ms2_wi",
    "C80_quad_decides",
    "C80_quad_sound",
    "C80_quad_wi"
   ],
   "note": ""
  },
  {
   "property": "C81",
   "status": "proved",
   "theorems": [
    "C81_ppe_shift",
    "C81_ppe_refuted",
    "C81_ppe_sound",
    "C81_ms1_shift",
    "C81_ms1_refuted",
    "C81_ms1_sound",
    "C81_ms2_shift",
    "C81_ms2_refuted",
    "C81_ms2_sound",
    "C81_quad_shift",
    "C81_quad_refuted",
    "C81_quad_sound"
   ],
   "note": "verify is invariant and soundness holds for the part the pairing sees; that accepted commitments represent group elements is false (_refuted). Points of G2 outside the group are not covered"
  },
  {
   "property": "C82",
   "status": "proved",
   "theorems": [
    "C82_crs_represent",
    "C82_crs_roundtrip",
    "C82_commit1_represent",
    "C82_commit1_roundtrip",
    "C82_commit2_represent",
    "C82_commit2_roundtrip",
    "C82_equproof_represent",
    "C82_equproof_roundtrip",
    "C82_ppe_represent",
    "C82_ppe_roundtrip",
    "C82_ms1_represent",
    "C82_ms1_roundtrip",
    "C82_ms2_represent",
    "C82_ms2_roundtrip",
    "C82_quad_represent",
    "C82_quad_roundtrip",
    "C82_read",
    "C82_send",
    "C82_ppe_decides",
    "C82_ppe_sound",
    "C82_ppe_unvalidated_refuted",
    "C82_ms1_decides",
    "C82_ms1_sound",
    "C82_ms1_unvalidated_refuted",
    "C82_ms2_decides",
    "C82_ms2_sound",
    "C82_ms2_unvalidated_refuted",
    "C82_quad_decides",
    "C82_quad_sound",
    "C82_quad_unvalidated_refuted"
   ],
   "note": "a sender that serializes the two commitments and one EquProof one after the other is part of the specification (CProof itself derives no serialization). The claim for Validate::No is refuted"
  },
  {
   "property": "C83",
   "status": "proved",
   "theorems": [
    "C83_ppe",
    "C83_ms1",
    "C83_ms2",
    "C83_quad"
   ],
   "note": "C50 for the second model. The published part of a proof leaves out the randomness that CProof also holds (C15)"
  },
  {
   "property": "C84",
   "status": "proved",
   "theorems": [
    "C84_ppe",
    "C84_ms1",
    "C84_ms2",
    "C84_quad"
   ],
   "note": "C53 for the second model. For a pairing product equation the target must be given as e(k g1, Q) + e(P, l g2)"
  },
  {
   "property": "C85",
   "status": "proved",
   "theorems": [
    "C85_system_draws",
    "C85_perfect_wi",
    "C85_perfect_zk",
    "C85_comp_wi",
    "C85_comp_wi_ddh",
    "C85_comp_zk",
    "C85_comp_zk_ddh"
   ],
   "note": "the bounds are for the reference string being generated once; what is published leaves out the randomness that Commit and EquProof also hold (C15)"
  },
  {
   "property": "C86",
   "status": "proved",
   "theorems": [
    "C86_ppe_known_holds",
    "C86_ppe_known_verify",
    "C86_ppe_known_prove",
    "C86_ms1_known_holds",
    "C86_ms1_known_verify",
    "C86_ms1_known_prove",
    "C86_ms2_known_holds",
    "C86_ms2_known_verify",
    "C86_ms2_known_prove",
    "C86_quad_known_holds",
    "C86_quad_known_verify",
    "C86_quad_known_prove",
    "C86_G1_mirror",
    "C86_G2_mirror",
    "C86_B1_mirror",
    "C86_B2_mirror",
    "C86_binding_mirror",
    "C86_hiding_mirror",
    "C86_ppe_mirror_holds",
    "C86_ppe_mirror_verify",
    "C86_ppe_mirror_prove",
    "C86_ms1_mirror_holds",
    "C86_ms1_mirror_verify",
    "C86_ms1_mirror_prove",
    "C86_ms2_mirror_holds",
    "C86_ms2_mirror_verify",
    "C86_ms2_mirror_prove",
    "C86_quad_mirror_holds",
    "C86_quad_mirror_verify",
    "C86_quad_mirror_prove",
    "C86_ppe_holds",
    "C86_ppe_verify",
    "C86_ppe_prove",
    "C86_ms1_holds",
    "C86_ms1_verify",
    "C86_ms1_prove",
    "C86_ms2_holds",
    "C86_ms2_verify",
    "C86_ms2_prove",
    "C86_quad_holds",
    "C86_quad_verify",
    "C86_quad_prove",
    "C86_ppe_known_y_holds",
    "C86_ppe_known_y_verify",
    "C86_ppe_known_y_prove",
    "C86_ms1_known_y_holds",
    "C86_ms1_known_y_verify",
    "C86_ms1_known_y_prove",
    "C86_ms2_known_y_holds",
    "C86_ms2_known_y_verify",
    "C86_ms2_known_y_prove",
    "C86_quad_known_y_holds",
    "C86_quad_known_y_verify",
    "C86_quad_known_y_prove",
    "C86_ppe_mirror_run",
    "C86_ms1_mirror_run",
    "C86_ms2_mirror_run",
    "C86_quad_mirror_run"
   ],
   "note": "prove and verify for at least one variable on each side of the shorter equation, since the empty lists behave differently (C36); the statement about holds has no such condition, so padding is the way around C36"
  },
  {
   "property": "C87",
   "status": "proved",
   "theorems": [
    "C87_prove_system",
    "C87_verify_system",
    "C87_system_complete",
    "C87_system_decides",
    "C87_system_sound",
    "C87_system_wi"
   ],
   "note": "C57 and C58 for the second model. Points outside the groups are not excluded by the verifier (C81), so soundness asks that the points represent group elements"
  },
  {
   "property": "C88",
   "status": "proved",
   "theorems": [
    "C88_comp_wi",
    "C88_comp_zk"
   ],
   "note": "C85 for the second model; what is published leaves out the randomness that Commit and EquProof also hold (C15)"
  },
  {
   "property": "C89",
   "status": "proved",
   "theorems": [
    "C89_commit_G1",
    "C89_commit_G2",
    "C89_commit_scalar_to_B1",
    "C89_commit_scalar_to_B2",
    "C89_batch_commit_G1",
    "C89_batch_commit_G2",
    "C89_batch_commit_scalar_to_B1",
    "C89_batch_commit_scalar_to_B2",
    "C89_ppe_prove",
    "C89_ppe_cap",
    "C89_ms1_prove",
    "C89_ms1_cap",
    "C89_ms2_prove",
    "C89_ms2_cap",
    "C89_quad_prove",
    "C89_quad_cap",
    "C89_system",
    "C89_session",
    "C89_game",
    "C89_crs",
    "C89_ppe_wi",
    "C89_ms1_wi",
    "C89_ms2_wi",
    "C89_quad_wi",
    "C89_ppe_zk",
    "C89_ms1_zk",
    "C89_ms2_zk",
    "C89_quad_zk",
    "C89_system_wi",
    "C89_system_zk",
    "C89_session_wi",
    "C89_session_zk",
    "C89_ppe_forgery",
    "C89_ms1_forgery",
    "C89_ms2_forgery",
    "C89_quad_forgery"
   ],
   "note": "C50, C53, C58, C74 and C85 for a generator started from a random seed; the example with zeros shows that some assumption on the generator is needed"
  },
  {
   "property": "C90",
   "status": "proved",
   "theorems": [
    "C90_crs_agrees",
    "C90_crs_enough",
    "C90_crs_back",
    "C90_crs_blame",
    "C90_crs_errors",
    "C90_crs_total_refuted",
    "C90_commit1_agrees",
    "C90_commit1_enough",
    "C90_commit1_back",
    "C90_commit1_blame",
    "C90_commit1_errors",
    "C90_commit1_total_refuted",
    "C90_commit2_agrees",
    "C90_commit2_enough",
    "C90_commit2_back",
    "C90_commit2_blame",
    "C90_commit2_errors",
    "C90_commit2_total_refuted",
    "C90_equproof_agrees",
    "C90_equproof_enough",
    "C90_equproof_back",
    "C90_equproof_blame",
    "C90_equproof_errors",
    "C90_equproof_total_refuted",
    "C90_ppe_agrees",
    "C90_ppe_enough",
    "C90_ppe_back",
    "C90_ppe_blame",
    "C90_ppe_errors",
    "C90_ppe_total_refuted",
    "C90_ms1_agrees",
    "C90_ms1_enough",
    "C90_ms1_back",
    "C90_ms1_blame",
    "C90_ms1_errors",
    "C90_ms1_total_refuted",
    "C90_ms2_agrees",
    "C90_ms2_enough",
    "C90_ms2_back",
    "C90_ms2_blame",
    "C90_ms2_errors",
    "C90_ms2_total_refuted",
    "C90_quad_agrees",
    "C90_quad_enough",
    "C90_quad_back",
    "C90_quad_blame",
    "C90_quad_errors",
    "C90_quad_total_refuted",
    "C90_capacity",
    "C90_receive",
    "C90_receive_sent"
   ],
   "note": "that reading always gives a value or an error is false as soon as a request for memory can be refused (C90_*_total_refuted); C39-C43, C51, C52, C70, C71 are about results and stay true (C90_*_agrees)"
  },
  {
   "property": "C91",
   "status": "proved",
   "theorems": [
    "C91_traced_generate_crs",
    "C91_alike_generate_crs",
    "C91_traced_commit_G1",
    "C91_alike_commit_G1",
    "C91_traced_batch_commit_G1",
    "C91_alike_batch_commit_G1",
    "C91_traced_commit_scalar_to_B1",
    "C91_alike_commit_scalar_to_B1",
    "C91_traced_batch_commit_scalar_to_B1",
    "C91_alike_batch_commit_scalar_to_B1",
    "C91_traced_commit_G2",
    "C91_alike_commit_G2",
    "C91_traced_batch_commit_G2",
    "C91_alike_batch_commit_G2",
    "C91_traced_commit_scalar_to_B2",
    "C91_alike_commit_scalar_to_B2",
    "C91_traced_batch_commit_scalar_to_B2",
    "C91_alike_batch_commit_scalar_to_B2",
    "C91_traced_ppe_prove",
    "C91_alike_ppe_prove",
    "C91_traced_ppe_commit_and_prove",
    "C91_alike_ppe_commit_and_prove",
    "C91_traced_ppe_verify",
    "C91_alike_ppe_verify",
    "C91_traced_ms1_prove",
    "C91_alike_ms1_prove",
    "C91_traced_ms1_commit_and_prove",
    "C91_alike_ms1_commit_and_prove",
    "C91_traced_ms1_verify",
    "C91_alike_ms1_verify",
    "C91_traced_ms2_prove",
    "C91_alike_ms2_prove",
    "C91_traced_ms2_commit_and_prove",
    "C91_alike_ms2_commit_and_prove",
    "C91_traced_ms2_verify",
    "C91_alike_ms2_verify",
    "C91_traced_quad_prove",
    "C91_alike_quad_prove",
    "C91_traced_quad_commit_and_prove",
    "C91_alike_quad_commit_and_prove",
    "C91_traced_quad_verify",
    "C91_alike_quad_verify",
    "C91_named_ppe_commit_and_prove",
    "C91_named_ms1_commit_and_prove",
    "C91_named_ms2_commit_and_prove",
    "C91_named_quad_commit_and_prove",
    "C91_sizes_ppe_commit_and_prove",
    "C91_sizes_ppe_verify",
    "C91_sizes_ms1_commit_and_prove",
    "C91_sizes_ms1_verify",
    "C91_sizes_ms2_commit_and_prove",
    "C91_sizes_ms2_verify",
    "C91_sizes_quad_commit_and_prove",
    "C91_sizes_quad_verify",
    "C91_generate_crs_expr",
    "C91_cost_commit_G1",
    "C91_cost_batch_commit_G1",
    "C91_cost_commit_scalar_to_B1",
    "C91_cost_batch_commit_scalar_to_B1",
    "C91_cost_commit_G2",
    "C91_cost_batch_commit_G2",
    "C91_cost_commit_scalar_to_B2",
    "C91_cost_batch_commit_scalar_to_B2",
    "C91_cost_ppe_prove",
    "C91_cost_ms1_prove",
    "C91_cost_ms2_prove",
    "C91_cost_quad_prove",
    "C91_pairs_ppe_verify",
    "C91_pairs_ms1_verify",
    "C91_pairs_ms2_verify",
    "C91_pairs_quad_verify"
   ],
   "note": "about the second model (Ark.v): which group operations are performed, not how long they take; scalar arithmetic and the time of a multiplication are outside (DESIGN.md)"
  },
  {
   "property": "C92",
   "status": "proved",
   "theorems": [
    "C92_batch_commit_G1",
    "C92_batch_commit_G1_same",
    "C92_commit_G1",
    "C92_batch_commit_scalar_to_B1",
    "C92_batch_commit_scalar_to_B1_same",
    "C92_commit_scalar_to_B1",
    "C92_batch_commit_G2",
    "C92_batch_commit_G2_same",
    "C92_commit_G2",
    "C92_batch_commit_scalar_to_B2",
    "C92_batch_commit_scalar_to_B2_same",
    "C92_commit_scalar_to_B2",
    "C92_ppe",
    "C92_ppe_same",
    "C92_ms1",
    "C92_ms1_same",
    "C92_ms2",
    "C92_ms2_same",
    "C92_quad",
    "C92_quad_same"
   ],
   "note": "hiding (C13, C50) is about fresh draws; the API takes any generator and does not notice a reused state (ark_std::test_rng always starts from the same one)"
  },
  {
   "property": "C93",
   "status": "proved",
   "theorems": [
    "C93_com1_one",
    "C93_com1_other",
    "C93_com2_one",
    "C93_com2_other",
    "C93_crs_one",
    "C93_crs_other",
    "C93_commit1_one",
    "C93_commit1_other",
    "C93_commit2_one",
    "C93_commit2_other",
    "C93_equproof_one",
    "C93_equproof_other",
    "C93_ppe_one",
    "C93_ppe_other",
    "C93_ms1_one",
    "C93_ms1_other",
    "C93_ms2_one",
    "C93_ms2_other",
    "C93_quad_one",
    "C93_quad_other"
   ],
   "note": ""
  },
  {
   "property": "C94",
   "status": "proved",
   "theorems": [
    "C94_prime_field",
    "C94_extension",
    "C94_field_members",
    "C94_field_canonical",
    "C94_field_size",
    "C94_field_cuttable",
    "C94_point_members",
    "C94_point_lawful",
    "C94_point_size",
    "C94_point_cut",
    "C94_point_errors",
    "C94_field_io",
    "C94_point_io",
    "C94_point_flags",
    "C94_point_one",
    "C94_point_exact",
    "C94_point_uncompressed",
    "C94_point_canonical_refuted",
    "C94_transports",
    "C94_commit1_uncompressed",
    "C94_commit1_compressed",
    "C94_commit2_uncompressed",
    "C94_commit2_compressed",
    "C94_equproof_uncompressed",
    "C94_equproof_compressed",
    "C94_proof_malleable"
   ],
   "note": "the formats are written from the documentation of ark-ff/ark-ec 0.5, whose sources are not in /repo; curves with formats of their own (ark-bls12-381) are not represented; canonicity of the point format is refuted (C94_point_canonical_refuted)"
  },
  {
   "property": "C95",
   "status": "proved",
   "theorems": [
    "C95_ppe_pi",
    "C95_ppe_theta",
    "C95_ppe_x",
    "C95_ppe_y",
    "C95_ppe_a",
    "C95_ppe_b",
    "C95_ppe_gamma",
    "C95_ppe_target",
    "C95_ppe_u",
    "C95_ppe_v",
    "C95_ms1_pi",
    "C95_ms1_theta",
    "C95_ms1_x",
    "C95_ms1_y",
    "C95_ms1_a",
    "C95_ms1_b",
    "C95_ms1_gamma",
    "C95_ms1_target",
    "C95_ms1_u",
    "C95_ms2_pi",
    "C95_ms2_theta",
    "C95_ms2_x",
    "C95_ms2_y",
    "C95_ms2_a",
    "C95_ms2_b",
    "C95_ms2_gamma",
    "C95_ms2_target",
    "C95_ms2_v",
    "C95_quad_pi",
    "C95_quad_theta",
    "C95_quad_x",
    "C95_quad_y",
    "C95_quad_a",
    "C95_quad_b",
    "C95_quad_gamma",
    "C95_quad_target",
    "C95_ms1_theta_rest",
    "C95_ms2_pi_rest",
    "C95_quad_pi_rest",
    "C95_quad_theta_rest",
    "C95_binding_keys",
    "C95_hiding_keys"
   ],
   "note": ""
  },
  {
   "property": "C96",
   "status": "proved",
   "theorems": [
    "C96_ppe",
    "C96_ppe_outputs_refuted",
    "C96_ms1",
    "C96_ms1_outputs_refuted",
    "C96_ms2",
    "C96_ms2_outputs_refuted",
    "C96_quad",
    "C96_ppe_outputs",
    "C96_ppe_accepted",
    "C96_ms1_outputs",
    "C96_ms1_accepted",
    "C96_ms2_outputs",
    "C96_ms2_accepted",
    "C96_quad_outputs"
   ],
   "note": ""
  },
  {
   "property": "C97",
   "status": "proved",
   "theorems": [
    "C97_strip",
    "C97_bytes",
    "C97_built",
    "C97_commit1_read",
    "C97_commit2_read",
    "C97_equproof_read",
    "C97_ppe_verdict",
    "C97_ppe_received",
    "C97_ppe_wi",
    "C97_ppe_wi_counts",
    "C97_ppe_zk",
    "C97_ppe_zk_counts",
    "C97_ppe_wi_ddh",
    "C97_ppe_zk_ddh",
    "C97_ppe_full_refuted",
    "C97_ppe_full_wi_refuted",
    "C97_ms1_verdict",
    "C97_ms1_received",
    "C97_ms1_wi",
    "C97_ms1_wi_counts",
    "C97_ms1_zk",
    "C97_ms1_zk_counts",
    "C97_ms1_wi_ddh",
    "C97_ms1_zk_ddh",
    "C97_ms1_full_refuted",
    "C97_ms1_full_wi_refuted",
    "C97_ms2_verdict",
    "C97_ms2_received",
    "C97_ms2_wi",
    "C97_ms2_wi_counts",
    "C97_ms2_zk",
    "C97_ms2_zk_counts",
    "C97_ms2_wi_ddh",
    "C97_ms2_zk_ddh",
    "C97_ms2_full_refuted",
    "C97_ms2_full_wi_refuted",
    "C97_quad_verdict",
    "C97_quad_received",
    "C97_quad_wi",
    "C97_quad_wi_counts",
    "C97_quad_zk",
    "C97_quad_zk_counts",
    "C97_quad_wi_ddh",
    "C97_quad_zk_ddh",
    "C97_quad_full_refuted",
    "C97_quad_full_wi_refuted"
   ],
   "note": ""
  },
  {
   "property": "C98",
   "status": "proved",
   "theorems": [
    "C98_ppe_run_ark",
    "C98_ms1_run_ark",
    "C98_ms2_run_ark",
    "C98_quad_run_ark",
    "C98_G1_binding_ark",
    "C98_G1_hiding_ark",
    "C98_B1_ark",
    "C98_G2_binding_ark",
    "C98_G2_hiding_ark",
    "C98_B2_ark",
    "C98_ppe_ark",
    "C98_ms1_ark",
    "C98_ms2_ark",
    "C98_quad_ark",
    "C98_G1_binding",
    "C98_G1_hiding",
    "C98_B1",
    "C98_G2_binding",
    "C98_G2_hiding",
    "C98_B2",
    "C98_G1_counts",
    "C98_G2_counts",
    "C98_ppe_run",
    "C98_ppe_run_counts",
    "C98_ms1_run",
    "C98_ms1_run_counts",
    "C98_ms2_run",
    "C98_ms2_run_counts",
    "C98_quad_run",
    "C98_quad_run_counts",
    "C98_orthogonal",
    "C98_ppe",
    "C98_ppe_counts",
    "C98_ms1",
    "C98_ms1_counts",
    "C98_ms2",
    "C98_ms2_counts",
    "C98_quad",
    "C98_quad_counts"
   ],
   "note": ""
  },
  {
   "property": "C99",
   "status": "proved",
   "theorems": [
    "C99_ppe_ark",
    "C99_ms1_ark",
    "C99_ms2_ark",
    "C99_quad_ark",
    "C99_ppe",
    "C99_ms1",
    "C99_ms2",
    "C99_quad"
   ],
   "note": ""
  }
 ]
}