{
 "claims": [
  {
   "property": "C01",
   "status": "proved",
   "theorems": [
    "C01_pieri_A"
   ],
   "note": "1<=m<=n, every partition in the rectangle, every i>=0"
  },
  {
   "property": "C02",
   "status": "proved",
   "theorems": [
    "C02_qpieri_A"
   ],
   "note": ""
  },
  {
   "property": "C03",
   "status": "proved",
   "theorems": [
    "C03_pieri_commute_A"
   ],
   "note": ""
  },
  {
   "property": "C04",
   "status": "proved",
   "theorems": [
    "C04_giambelli_A",
    "C04_toS_A"
   ],
   "note": ""
  },
  {
   "property": "C05",
   "status": "proved",
   "theorems": [
    "C05_commutative_A"
   ],
   "note": ""
  },
  {
   "property": "C06",
   "status": "proved",
   "theorems": [
    "C06_associative_A"
   ],
   "note": ""
  },
  {
   "property": "C07",
   "status": "proved",
   "theorems": [
    "C07_unit_A",
    "C07_additive_A",
    "C07_scalar_A",
    "C07_q_linear_A"
   ],
   "note": ""
  },
  {
   "property": "C08",
   "status": "proved",
   "theorems": [
    "C08_toS_mul_A",
    "C08_toS_add_A"
   ],
   "note": ""
  },
  {
   "property": "C09",
   "status": "proved",
   "theorems": [
    "C09_qmult_q0_A",
    "C09_qtoS_q0_A",
    "C09_qpieri_q0_A"
   ],
   "note": ""
  },
  {
   "property": "C10",
   "status": "proved",
   "theorems": [
    "C10_pieri_degree_A",
    "C10_mult_degree_A"
   ],
   "note": ""
  },
  {
   "property": "C11",
   "status": "proved",
   "theorems": [
    "C11_duality_A",
    "C11_dualize_A"
   ],
   "note": ""
  },
  {
   "property": "C12",
   "status": "proved",
   "theorems": [
    "C12_schub_classes_A",
    "C12_m0_refuted"
   ],
   "note": "m = 0 refuted"
  },
  {
   "property": "C13",
   "status": "proved",
   "theorems": [
    "C13_all_kstrict",
    "C13_cols_refuted",
    "C13_schub_classes_IG",
    "C13_schub_classes_OG"
   ],
   "note": "cols < k refuted"
  },
  {
   "property": "C14",
   "status": "proved",
   "theorems": [
    "C14_part_conj",
    "C14_involution",
    "C14_size",
    "C14_trailing_zeros"
   ],
   "note": ""
  },
  {
   "property": "C15",
   "status": "proved",
   "theorems": [
    "C15_part2index_A",
    "C15_inverse_A"
   ],
   "note": ""
  },
  {
   "property": "C16",
   "status": "proved",
   "theorems": [
    "C16_part2index_IG",
    "C16_part2index_OG",
    "C16_inverse_IG",
    "C16_inverse_OG"
   ],
   "note": ""
  },
  {
   "property": "C17",
   "status": "proved",
   "theorems": [
    "C17_dualize_class_A",
    "C17_dualize_involution_A",
    "C17_dualize_point_A",
    "C17_involution_IG",
    "C17_class_IG",
    "C17_point_IG",
    "C17_involution_OG",
    "C17_class_OG"
   ],
   "note": ""
  },
  {
   "property": "C18",
   "status": "proved",
   "theorems": [
    "C18_pair_IG",
    "C18_pair_OG",
    "C18_pair_OG_marked",
    "C18_inverse_IG",
    "C18_inverse_OG_odd",
    "C18_inverse_OG_even"
   ],
   "note": ""
  },
  {
   "property": "C19",
   "status": "proved",
   "theorems": [
    "C19_other_types",
    "C19_type_swap",
    "C19_miami_swap",
    "C19_schub_type",
    "C19_schub_type_other"
   ],
   "note": ""
  },
  {
   "property": "C20",
   "status": "proved",
   "theorems": [
    "C20_roundtrip",
    "C20_injective",
    "C20_reads_all",
    "C20_identifier",
    "C20_class_symbols",
    "C20_variable_symbols"
   ],
   "note": ""
  },
  {
   "property": "C21",
   "status": "proved",
   "theorems": [
    "C21_transparent",
    "C21_giambelli",
    "C21_pieri"
   ],
   "note": ""
  },
  {
   "property": "C22",
   "status": "proved",
   "theorems": [
    "C22_add",
    "C22_mul",
    "C22_const",
    "C22_q",
    "C22_class",
    "C22_tree",
    "C22_bracketing",
    "C22_total"
   ],
   "note": ""
  },
  {
   "property": "C23",
   "status": "proved",
   "theorems": [
    "C23_pieri_set"
   ],
   "note": ""
  },
  {
   "property": "C24",
   "status": "proved",
   "theorems": [
    "C24_pieri_set"
   ],
   "note": ""
  },
  {
   "property": "C25",
   "status": "proved",
   "theorems": [
    "C25_positive_IG",
    "C25_positive_OG",
    "C25_quantum_OG"
   ],
   "note": ""
  },
  {
   "property": "C26",
   "status": "proved",
   "theorems": [
    "C26_homogeneous_IG",
    "C26_homogeneous_OG",
    "C26_quantum_OG",
    "C26_quantum_OG_two_parameters"
   ],
   "note": ""
  },
  {
   "property": "C27",
   "status": "proved",
   "theorems": [
    "C27_ring_IG",
    "C27_ring_OG_odd",
    "C27_toS_IG",
    "C27_toS_OG_odd",
    "C27_giambelli_IG",
    "C27_giambelli_OG_odd",
    "C27_pieri_commute_IG",
    "C27_pieri_commute_OG_odd",
    "C27_ring_OG_even",
    "C27_toS_OG_even",
    "C27_giambelli_OG_even",
    "C27_pieri_commute_OG_even",
    "C27_two_parameters_refuted"
   ],
   "note": "mult, toS: every IG and OG; qmult, qtoS: every IG and OG but OG(N/2-1,N), N even, the exception named in the property (refuted there; what holds there is C77)"
  },
  {
   "property": "C28",
   "status": "proved",
   "theorems": [
    "C28_remove_rim_hooks"
   ],
   "note": ""
  },
  {
   "property": "C29",
   "status": "proved",
   "theorems": [
    "C29_terms",
    "C29_agrees",
    "C29_refuted"
   ],
   "note": "the property as documented (equality with qmult) is refuted; what holds is proved"
  },
  {
   "property": "C30",
   "status": "proved",
   "theorems": [
    "C30_SchurPol",
    "C30_rejects"
   ],
   "note": ""
  },
  {
   "property": "C31",
   "status": "proved",
   "theorems": [
    "C31_effect",
    "C31_refuted"
   ],
   "note": "the stronger claim (object never changed) is refuted"
  },
  {
   "property": "C32",
   "status": "proved",
   "theorems": [
    "C32_type_A",
    "C32_IG",
    "C32_OG_actual",
    "C32_OG_refuted",
    "C32_reports_A",
    "C32_reports_IG",
    "C32_reports_OG"
   ],
   "note": "for OG the model and theorem state what the constructor accepts; the intended bound is refuted"
  },
  {
   "property": "C33",
   "status": "proved",
   "theorems": [
    "C33_type_A",
    "C33_IG_refuted",
    "C33_OG_refuted"
   ],
   "note": "holds for Gr(m,n), refuted for every IG and OG"
  },
  {
   "property": "C34",
   "status": "proved",
   "theorems": [
    "C34_products",
    "C34_pieri",
    "C34_index2part",
    "C34_part2pair_IG",
    "C34_part2index_refuted",
    "C34_type_swap_refuted",
    "C34_pairs_OG_refuted"
   ],
   "note": "the calls that raise are refutations of the intended property"
  },
  {
   "property": "C35",
   "status": "proved",
   "theorems": [
    "C35_roundtrip",
    "C35_exact_ABC",
    "C35_exact_D"
   ],
   "note": ""
  },
  {
   "property": "C36",
   "status": "proved",
   "theorems": [
    "C36_generators_A",
    "C36_generators_IG",
    "C36_generators_OG",
    "C36_generators_OG0_refuted",
    "C36_point_A",
    "C36_point_IG",
    "C36_point_OG"
   ],
   "note": "OG(0,N) refuted"
  },
  {
   "property": "C37",
   "status": "proved",
   "theorems": [
    "C37_entries",
    "C37_type_A",
    "C37_IG",
    "C37_OG_odd",
    "C37_OG_even"
   ],
   "note": ""
  },
  {
   "property": "C38",
   "status": "proved",
   "theorems": [
    "C38_bijection",
    "C38_total"
   ],
   "note": ""
  },
  {
   "property": "C39",
   "status": "proved",
   "theorems": [
    "C39_sum",
    "C39_value",
    "C39_term",
    "C39_number",
    "C39_number_refuted",
    "C39_bare_q_refuted"
   ],
   "note": "two inputs outside the property are refuted"
  },
  {
   "property": "C40",
   "status": "proved",
   "theorems": [
    "C40_partition_to_ascii",
    "C40_embed_partition",
    "C40_draw_ascii_partition",
    "C40_narrow_refuted",
    "C40_empty_refuted"
   ],
   "note": "narrow widths and the empty partition are refuted"
  },
  {
   "property": "C41",
   "status": "proved",
   "theorems": [
    "C41_valid_part",
    "C41_partition",
    "C41_clip",
    "C41_clip_idempotent",
    "C41_in_range",
    "C41_in_range_zeros_refuted",
    "C41_zero_padding",
    "C41_valid_linear"
   ],
   "note": "final zeros in is_in_range are refuted"
  },
  {
   "property": "C42",
   "status": "proved",
   "theorems": [
    "C42_refuted",
    "C42_returns",
    "C42_two_parameters"
   ],
   "note": "both directions proved; OG(N/2-1,N) with N > 16 is the exception named in the property"
  },
  {
   "property": "C43",
   "status": "proved",
   "theorems": [
    "C43_mult_special_A"
   ],
   "note": ""
  },
  {
   "property": "C44",
   "status": "proved",
   "theorems": [
    "C44_pieri_IG",
    "C44_qpieri_IG",
    "C44_pieri_OG",
    "C44_qpieri_OG_odd",
    "C44_qpieri_OG_even",
    "C44_qpieri_OG_two_parameters"
   ],
   "note": ""
  },
  {
   "property": "C45",
   "status": "proved",
   "theorems": [
    "C45_special_IG",
    "C45_special_OG_odd",
    "C45_special_OG_even"
   ],
   "note": "as C27: the quantum half leaves out OG(N/2-1,N), N even, which is C77"
  },
  {
   "property": "C46",
   "status": "proved",
   "theorems": [
    "C46_homogeneous_IG",
    "C46_homogeneous_OG_odd",
    "C46_homogeneous_OG_even"
   ],
   "note": "quantum half on OG(N/2-1,N), N even: see C84"
  },
  {
   "property": "C47",
   "status": "proved",
   "theorems": [
    "C47_q0_IG",
    "C47_q0_OG_odd",
    "C47_q0_OG_even"
   ],
   "note": "OG(N/2-1,N), N even: see C84"
  },
  {
   "property": "C48",
   "status": "proved",
   "theorems": [
    "C48_duality_A",
    "C48_duality_IG",
    "C48_duality_OG_odd",
    "C48_duality_OG_even"
   ],
   "note": ""
  },
  {
   "property": "C49",
   "status": "proved",
   "theorems": [
    "C49_symmetric_A",
    "C49_symmetric_IG",
    "C49_symmetric_OG_odd",
    "C49_symmetric_OG_even"
   ],
   "note": ""
  },
  {
   "property": "C50",
   "status": "proved",
   "theorems": [
    "C50_littlewood_richardson_A"
   ],
   "note": ""
  },
  {
   "property": "C51",
   "status": "proved",
   "theorems": [
    "C51_rim_hook_rule"
   ],
   "note": ""
  },
  {
   "property": "C52",
   "status": "proved",
   "theorems": [
    "C52_vertical_pieri_A",
    "C52_vertical_qpieri_A"
   ],
   "note": ""
  },
  {
   "property": "C53",
   "status": "proved",
   "theorems": [
    "C53_conjugate_mult_A",
    "C53_conjugate_qmult_A"
   ],
   "note": ""
  },
  {
   "property": "C54",
   "status": "proved",
   "theorems": [
    "C54_full_row_A",
    "C54_full_column_A"
   ],
   "note": ""
  },
  {
   "property": "C55",
   "status": "proved",
   "theorems": [
    "C55_plus",
    "C55_minus",
    "C55_times",
    "C55_power",
    "C55_plus_returns",
    "C55_times_returns",
    "C55_minus_returns",
    "C55_power_returns",
    "C55_kind",
    "C55_kind_class",
    "C55_order_refuted",
    "C55_zero_refuted",
    "C55_minus_kind_refuted"
   ],
   "note": "powers with a nonnegative integer exponent; three expectations of a user are refuted"
  },
  {
   "property": "C56",
   "status": "proved",
   "theorems": [
    "C56_equal",
    "C56_hash",
    "C56_less",
    "C56_total",
    "C56_transitive",
    "C56_unique_list"
   ],
   "note": ""
  },
  {
   "property": "C57",
   "status": "proved",
   "theorems": [
    "C57_latex",
    "C57_latex_standalone",
    "C57_environments",
    "C57_plot",
    "C57_print_partition",
    "C57_yd",
    "C57_label",
    "C57_label_plot"
   ],
   "note": ""
  },
  {
   "property": "C58",
   "status": "proved",
   "theorems": [
    "C58_type_swap",
    "C58_type_swap_pieri"
   ],
   "note": ""
  },
  {
   "property": "C59",
   "status": "proved",
   "theorems": [
    "C59_spinor"
   ],
   "note": ""
  },
  {
   "property": "C60",
   "status": "proved",
   "theorems": [
    "C60_powers_of_two"
   ],
   "note": ""
  },
  {
   "property": "C61",
   "status": "proved",
   "theorems": [
    "C61_count_IG",
    "C61_count_OG"
   ],
   "note": ""
  },
  {
   "property": "C62",
   "status": "proved",
   "theorems": [
    "C62_jacobi_trudi_A"
   ],
   "note": ""
  },
  {
   "property": "C63",
   "status": "proved",
   "theorems": [
    "C63_relations_A"
   ],
   "note": ""
  },
  {
   "property": "C64",
   "status": "proved",
   "theorems": [
    "C64_read_back",
    "C64_print_class",
    "C64_read_class",
    "C64_read_power"
   ],
   "note": ""
  },
  {
   "property": "C65",
   "status": "proved",
   "theorems": [
    "C65_operator",
    "C65_operands",
    "C65_len",
    "C65_len_refuted"
   ],
   "note": ""
  },
  {
   "property": "C66",
   "status": "proved",
   "theorems": [
    "C66_injective",
    "C66_call",
    "C66_degree"
   ],
   "note": ""
  },
  {
   "property": "C67",
   "status": "proved",
   "theorems": [
    "C67_relations_IG",
    "C67_relations_OG_odd",
    "C67_relations_OG_even",
    "C67_relation_of_degree_2k_OG_even"
   ],
   "note": ""
  },
  {
   "property": "C68",
   "status": "proved",
   "theorems": [
    "C68_top_class_OG_odd",
    "C68_top_class_OG_even"
   ],
   "note": ""
  },
  {
   "property": "C69",
   "status": "proved",
   "theorems": [
    "C69_two_rows_IG",
    "C69_two_rows_OG_odd",
    "C69_two_rows_OG_even"
   ],
   "note": ""
  },
  {
   "property": "C70",
   "status": "proved",
   "theorems": [
    "C70_kostka",
    "C70_SchurPol"
   ],
   "note": ""
  },
  {
   "property": "C71",
   "status": "proved",
   "theorems": [
    "C71_nonzero_A",
    "C71_nonzero_IG",
    "C71_nonzero_OG_odd",
    "C71_nonzero_OG_even",
    "C71_overlap_A",
    "C71_nested_LG",
    "C71_nested_OG_max"
   ],
   "note": ""
  },
  {
   "property": "C72",
   "status": "proved",
   "theorems": [
    "C72_projective_A",
    "C72_projective_IG",
    "C72_quadric",
    "C72_quadric_middle",
    "C72_quadric_pair"
   ],
   "note": ""
  },
  {
   "property": "C73",
   "status": "proved",
   "theorems": [
    "C73_rows_A",
    "C73_columns_A",
    "C73_symmetry_A"
   ],
   "note": ""
  },
  {
   "property": "C74",
   "status": "proved",
   "theorems": [
    "C74_set",
    "C74_set_list",
    "C74_set_A",
    "C74_pieri_list",
    "C74_pair_list",
    "C74_unset",
    "C74_unset_index",
    "C74_names_refuted"
   ],
   "note": ""
  },
  {
   "property": "C75",
   "status": "proved",
   "theorems": [
    "C75_never_zero_A",
    "C75_never_zero_IG",
    "C75_never_zero_OG_odd",
    "C75_never_zero_OG_even"
   ],
   "note": "OG(N/2-1,N), N even, has two parameters: see C86"
  },
  {
   "property": "C76",
   "status": "proved",
   "theorems": [
    "C76_Gr",
    "C76_IG",
    "C76_OG_odd",
    "C76_OG_even",
    "C76_OG_two"
   ],
   "note": "qact on OG(N/2-1,N), N even, for N <= 16, the range in which qpieri is right (C42)"
  },
  {
   "property": "C77",
   "status": "proved",
   "theorems": [
    "C77_product_laws",
    "C77_special",
    "C77_commute"
   ],
   "note": "N <= 16 is the range in which qpieri is right (C42); beyond it C42_two_parameters refutes it"
  },
  {
   "property": "C78",
   "status": "proved",
   "theorems": [
    "C78_Gr",
    "C78_OG",
    "C78_IG_refuted"
   ],
   "note": "IG is the exception named in the property (refuted there)"
  },
  {
   "property": "C79",
   "status": "proved",
   "theorems": [
    "C79_results",
    "C79_bounded",
    "C79_giambelli",
    "C79_pieri"
   ],
   "note": ""
  },
  {
   "property": "C80",
   "status": "proved",
   "theorems": [
    "C80_basis",
    "C80_other_rings",
    "C80_sums_refuted"
   ],
   "note": "the refusal of sums is refuted"
  },
  {
   "property": "C81",
   "status": "proved",
   "theorems": [
    "C81_near_rectangle_A",
    "C81_two_rows_A"
   ],
   "note": ""
  },
  {
   "property": "C82",
   "status": "proved",
   "theorems": [
    "C82_Gr",
    "C82_IG",
    "C82_OG_odd",
    "C82_OG_even",
    "C82_OG_two"
   ],
   "note": ""
  },
  {
   "property": "C83",
   "status": "proved",
   "theorems": [
    "C83_Gr",
    "C83_IG",
    "C83_OG"
   ],
   "note": ""
  },
  {
   "property": "C84",
   "status": "proved",
   "theorems": [
    "C84_homogeneous",
    "C84_q0"
   ],
   "note": "N <= 16 is the range in which qpieri is right (C42)"
  },
  {
   "property": "C85",
   "status": "proved",
   "theorems": [
    "C85_duality",
    "C85_symmetric"
   ],
   "note": "N <= 16 is the range in which qpieri is right (C42); for the classical product see C48, C49"
  },
  {
   "property": "C86",
   "status": "proved",
   "theorems": [
    "C86_never_zero"
   ],
   "note": "N <= 16 is the range in which qpieri is right (C42)"
  },
  {
   "property": "C87",
   "status": "proved",
   "theorems": [
    "C87_part_itr",
    "C87_itr_kstrict",
    "C87_part_itr_between",
    "C87_part_gen"
   ],
   "note": ""
  },
  {
   "property": "C88",
   "status": "proved",
   "theorems": [
    "C88_height",
    "C88_rejects",
    "C88_empty",
    "C88_zero_rows_refuted"
   ],
   "note": ""
  },
  {
   "property": "C89",
   "status": "proved",
   "theorems": [
    "C89_quantum",
    "C89_classical",
    "C89_small_degree"
   ],
   "note": ""
  },
  {
   "property": "C90",
   "status": "proved",
   "theorems": [
    "C90_A",
    "C90_IG",
    "C90_OG_odd",
    "C90_OG_even",
    "C90_overlap_A",
    "C90_rows_LG",
    "C90_rows_OG_max"
   ],
   "note": "explicit forms: C90_overlap_A, C90_rows_LG, C90_rows_OG_max; the spaces with two parameters are not included"
  },
  {
   "property": "C91",
   "status": "proved",
   "theorems": [
    "C91_powers_A",
    "C91_interval_A",
    "C91_square_A"
   ],
   "note": ""
  },
  {
   "property": "C92",
   "status": "proved",
   "theorems": [
    "C92_strange_A",
    "C92_automorphism_A"
   ],
   "note": ""
  },
  {
   "property": "C93",
   "status": "proved",
   "theorems": [
    "C93_lines_A",
    "C93_classes_A"
   ],
   "note": ""
  },
  {
   "property": "C94",
   "status": "proved",
   "theorems": [
    "C94_qmult_A",
    "C94_qtoS_A"
   ],
   "note": ""
  },
  {
   "property": "C95",
   "status": "proved",
   "theorems": [
    "C95_left_A",
    "C95_left_IG",
    "C95_left_OG",
    "C95_right_refuted",
    "C95_index_refuted",
    "C95_qindex_refuted"
   ],
   "note": ""
  },
  {
   "property": "C96",
   "status": "proved",
   "theorems": [
    "C96_powers_A",
    "C96_powers_LG",
    "C96_powers_OG_max"
   ],
   "note": ""
  },
  {
   "property": "C97",
   "status": "proved",
   "theorems": [
    "C97_rotation_IG",
    "C97_square_IG",
    "C97_symmetry_IG"
   ],
   "note": ""
  },
  {
   "property": "C98",
   "status": "proved",
   "theorems": [
    "C98_top_OG_odd",
    "C98_top_OG_even",
    "C98_symmetry_OG_odd",
    "C98_symmetry_OG_even"
   ],
   "note": "OG(m,N) with N even and m = N/2 has the same products as OG(m-1,N-1) (C59); OG(N/2-1,N) has two parameters and is not included"
  },
  {
   "property": "C99",
   "status": "proved",
   "theorems": [
    "C99_rotation_OG_even",
    "C99_symmetry_OG_even"
   ],
   "note": "the class of the other type acts by the same rotation with the types exchanged before and after (C58); OG(n-1,2n) has two parameters and is not included"
  },
  {
   "property": "C100",
   "status": "proved",
   "theorems": [
    "C100_point_OG_odd",
    "C100_point_OG_even",
    "C100_symmetry_OG_odd",
    "C100_symmetry_OG_even"
   ],
   "note": ""
  },
  {
   "property": "C101",
   "status": "proved",
   "theorems": [
    "C101_Gr",
    "C101_IG",
    "C101_OG"
   ],
   "note": "counts calls of giambelli_rec_inner, not the other Python frames between them; qgiambelli on OG(N/2-1,N) is not included"
  },
  {
   "property": "C102",
   "status": "proved",
   "theorems": [
    "C102_LG",
    "C102_OG_odd",
    "C102_OG_even"
   ],
   "note": ""
  },
  {
   "property": "C103",
   "status": "proved",
   "theorems": [
    "C103_LG",
    "C103_OG_odd",
    "C103_OG_even"
   ],
   "note": ""
  },
  {
   "property": "C104",
   "status": "proved",
   "theorems": [
    "C104_presentation_A"
   ],
   "note": ""
  },
  {
   "property": "C105",
   "status": "proved",
   "theorems": [
    "C105_presentation_LG",
    "C105_presentation_OG_odd",
    "C105_presentation_OG_even"
   ],
   "note": ""
  },
  {
   "property": "C106",
   "status": "proved",
   "theorems": [
    "C106_classes",
    "C106_product"
   ],
   "note": ""
  },
  {
   "property": "C107",
   "status": "proved",
   "theorems": [
    "C107_product"
   ],
   "note": ""
  },
  {
   "property": "C108",
   "status": "proved",
   "theorems": [
    "C108_symplectic",
    "C108_orthogonal_odd",
    "C108_orthogonal_even",
    "C108_type_A"
   ],
   "note": ""
  },
  {
   "property": "C109",
   "status": "proved",
   "theorems": [
    "C109_type_A",
    "C109_symplectic",
    "C109_orthogonal_odd",
    "C109_orthogonal_even"
   ],
   "note": ""
  },
  {
   "property": "C110",
   "status": "proved",
   "theorems": [
    "C110_type_A",
    "C110_symplectic",
    "C110_orthogonal_odd",
    "C110_orthogonal_even"
   ],
   "note": ""
  },
  {
   "property": "C111",
   "status": "proved",
   "theorems": [
    "C111_type_A",
    "C111_type_A_shape",
    "C111_symplectic",
    "C111_orthogonal_odd",
    "C111_orthogonal_even"
   ],
   "note": ""
  }
 ]
}