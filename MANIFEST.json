{
 "claims": [
  {
   "property": "C01",
   "status": "proved",
   "theorems": [
    "C01_Z2"
   ],
   "note": ""
  },
  {
   "property": "C02",
   "status": "proved",
   "theorems": [
    "C02_ZP_operations",
    "C02_ZP_closed",
    "C02_ZP_field"
   ],
   "note": ""
  },
  {
   "property": "C03",
   "status": "proved",
   "theorems": [
    "C03_panics_iff",
    "C03_unsuitable",
    "C03_suitable"
   ],
   "note": ""
  },
  {
   "property": "C04",
   "status": "proved",
   "theorems": [
    "C04_Q_exact",
    "C04_Q_small",
    "C04_Q_eq",
    "C04_Q_field"
   ],
   "note": ""
  },
  {
   "property": "C05",
   "status": "proved",
   "theorems": [
    "C05_Q_panics_or_exact",
    "C05_Q_silent_wrong"
   ],
   "note": "In the form of the rewritten statement; the unrestricted claim is false and C05_Q_silent_wrong exhibits it."
  },
  {
   "property": "C06",
   "status": "proved",
   "theorems": [
    "C06_pop_pivot"
   ],
   "note": ""
  },
  {
   "property": "C07",
   "status": "proved",
   "theorems": [
    "C07_drain_sorted",
    "C07_canonical_unique"
   ],
   "note": ""
  },
  {
   "property": "C08",
   "status": "proved",
   "theorems": [
    "C08_clone_pivot"
   ],
   "note": ""
  },
  {
   "property": "C09",
   "status": "proved",
   "theorems": [
    "C09_history",
    "C09_representation_independent",
    "C09_added"
   ],
   "note": ""
  },
  {
   "property": "C10",
   "status": "proved",
   "theorems": [
    "C10_entry_order",
    "C10_eq_compatible",
    "C10_incoherent_disagree",
    "C10_scale"
   ],
   "note": ""
  },
  {
   "property": "C11",
   "status": "proved",
   "theorems": [
    "C11_product",
    "C11_product_filtration",
    "C11_product_panics",
    "C11_product_basis"
   ],
   "note": ""
  },
  {
   "property": "C12",
   "status": "proved",
   "theorems": [
    "C12_sum"
   ],
   "note": ""
  },
  {
   "property": "C13",
   "status": "proved",
   "theorems": [
    "C13_consolidate",
    "C13_consolidate_passes",
    "C13_consolidate_filtered"
   ],
   "note": ""
  },
  {
   "property": "C14",
   "status": "proved",
   "theorems": [
    "C14_eq_on_col"
   ],
   "note": ""
  },
  {
   "property": "C15",
   "status": "proved",
   "theorems": [
    "C15_reverse_column",
    "C15_reverse_leading",
    "C15_unreverse_reverse",
    "C15_reverse_unreverse",
    "C15_reverse_basis",
    "C15_unreverse_basis",
    "C15_basis_roundtrip",
    "C15_split",
    "C15_split_panics"
   ],
   "note": ""
  },
  {
   "property": "C16",
   "status": "proved",
   "theorems": [
    "C16_columns",
    "C16_filtrations",
    "C16_bases",
    "C16_index"
   ],
   "note": ""
  },
  {
   "property": "C17",
   "status": "proved",
   "theorems": [
    "C17_adaptors",
    "C17_with_filtration",
    "C17_reverse",
    "C17_unreverse",
    "C17_product",
    "C17_coherent_at"
   ],
   "note": ""
  },
  {
   "property": "C18",
   "status": "proved",
   "theorems": [
    "C18_cache_transparent"
   ],
   "note": ""
  },
  {
   "property": "C19",
   "status": "proved",
   "theorems": [
    "C19_cache_reentrant_panics",
    "C19_cached_square_panics"
   ],
   "note": "The hoped-for transparency is false; the theorem characterises when the wrapper panics."
  },
  {
   "property": "C20",
   "status": "proved",
   "theorems": [
    "C20_vec_basis",
    "C20_reverse_lookup"
   ],
   "note": ""
  },
  {
   "property": "C21",
   "status": "proved",
   "theorems": [
    "C21_vecvec",
    "C21_mapvec"
   ],
   "note": ""
  },
  {
   "property": "C22",
   "status": "proved",
   "theorems": [
    "C22_standard_algo_terminates"
   ],
   "note": ""
  },
  {
   "property": "C23",
   "status": "proved",
   "theorems": [
    "C23_V_unitriangular"
   ],
   "note": ""
  },
  {
   "property": "C24",
   "status": "proved",
   "theorems": [
    "C24_R_reduced"
   ],
   "note": ""
  },
  {
   "property": "C25",
   "status": "proved",
   "theorems": [
    "C25_pairs_intrinsic",
    "C25_any_decomposition"
   ],
   "note": ""
  },
  {
   "property": "C26",
   "status": "proved",
   "theorems": [
    "C26_read_off_diagram",
    "C26_essential_intrinsic",
    "C26_essential_intrinsic_blocks"
   ],
   "note": ""
  },
  {
   "property": "C27",
   "status": "proved",
   "theorems": [
    "C27_partition",
    "C27_diagram_partition"
   ],
   "note": ""
  },
  {
   "property": "C28",
   "status": "proved",
   "theorems": [
    "C28_wrong_direction"
   ],
   "note": "Exact description of the corrupted essential set."
  },
  {
   "property": "C29",
   "status": "proved",
   "theorems": [
    "C29_presentation_independent",
    "C29_standard_algo"
   ],
   "note": ""
  },
  {
   "property": "C30",
   "status": "proved",
   "theorems": [
    "C30_clearing_terminates"
   ],
   "note": ""
  },
  {
   "property": "C31",
   "status": "proved",
   "theorems": [
    "C31_clearing_decomposition"
   ],
   "note": ""
  },
  {
   "property": "C32",
   "status": "proved",
   "theorems": [
    "C32_clearing_intrinsic",
    "C32_clearing_agrees_with_standard"
   ],
   "note": ""
  },
  {
   "property": "C33",
   "status": "proved",
   "theorems": [
    "C33_col_is_cycle"
   ],
   "note": ""
  },
  {
   "property": "C34",
   "status": "proved",
   "theorems": [
    "C34_duality_intrinsic",
    "C34_standard_algo_duality",
    "C34_standard_vs_clearing_duality"
   ],
   "note": ""
  },
  {
   "property": "C35",
   "status": "proved",
   "theorems": [
    "C35_index_roundtrip",
    "C35_index_injective",
    "C35_none_iff_empty"
   ],
   "note": ""
  },
  {
   "property": "C36",
   "status": "proved",
   "theorems": [
    "C36_overflow_exact",
    "C36_overflow_dimension",
    "C36_wrapping",
    "C36_wrapping_collision"
   ],
   "note": ""
  },
  {
   "property": "C37",
   "status": "proved",
   "theorems": [
    "C37_bases_enumerate",
    "C37_bases_diameter"
   ],
   "note": ""
  },
  {
   "property": "C38",
   "status": "proved",
   "theorems": [
    "C38_build_rips_bases_returns_iff",
    "C38_max_dim_zero_panics"
   ],
   "note": "False for max_dim = 0 with two or more points; the exact behaviour is proved."
  },
  {
   "property": "C39",
   "status": "proved",
   "theorems": [
    "C39_multi_basis_concatenates",
    "C39_rips_basis"
   ],
   "note": ""
  },
  {
   "property": "C40",
   "status": "proved",
   "theorems": [
    "C40_boundary_column",
    "C40_boundary_boundary_zero"
   ],
   "note": ""
  },
  {
   "property": "C41",
   "status": "proved",
   "theorems": [
    "C41_coboundary_column",
    "C41_coboundary_is_transpose",
    "C41_coboundary_coboundary_zero"
   ],
   "note": ""
  },
  {
   "property": "C42",
   "status": "proved",
   "theorems": [
    "C42_filtration_value_is_diameter",
    "C42_boundary_rows_earlier",
    "C42_faces_no_later"
   ],
   "note": ""
  },
  {
   "property": "C43",
   "status": "proved",
   "theorems": [
    "C43_built_matrices_coherent",
    "C43_override_panics",
    "C43_override_exact",
    "C43_override_disagrees"
   ],
   "note": "False of the code; the exact (wrong) behaviour is proved."
  },
  {
   "property": "C44",
   "status": "proved",
   "theorems": [
    "C44_cohomology_intrinsic",
    "C44_agrees_with_standard",
    "C44_diagram_shape",
    "C44_homology_same_pairs"
   ],
   "note": ""
  },
  {
   "property": "C45",
   "status": "proved",
   "theorems": [
    "C45_primary_bridges"
   ],
   "note": ""
  },
  {
   "property": "C46",
   "status": "proved",
   "theorems": [
    "C46_coboundary_column",
    "C46_transpose",
    "C46_boundary_column"
   ],
   "note": ""
  },
  {
   "property": "C47",
   "status": "proved",
   "theorems": [
    "C47_times_coherent",
    "C47_infinite_times_refuted"
   ],
   "note": ""
  },
  {
   "property": "C48",
   "status": "proved",
   "theorems": [
    "C48_boundary_squared",
    "C48_coboundary_squared",
    "C48_cells_listed"
   ],
   "note": ""
  },
  {
   "property": "C49",
   "status": "proved",
   "theorems": [
    "C49_basis",
    "C49_map_table",
    "C49_vec_table"
   ],
   "note": ""
  },
  {
   "property": "C50",
   "status": "proved",
   "theorems": [
    "C50_reduce",
    "C50_grpph",
    "C50_u16_truncation_refuted"
   ],
   "note": ""
  },
  {
   "property": "C51",
   "status": "proved",
   "theorems": [
    "C51_negative_columns_suffice",
    "C51_grpph_with_involution"
   ],
   "note": ""
  },
  {
   "property": "C52",
   "status": "proved",
   "theorems": [
    "C52_diagram_is_barcode",
    "C52_diagram_is_barcode_blocks",
    "C52_bars_count_persistent_betti"
   ],
   "note": ""
  },
  {
   "property": "C53",
   "status": "proved",
   "theorems": [
    "C53_clearing_diagram_is_barcode"
   ],
   "note": ""
  },
  {
   "property": "C54",
   "status": "proved",
   "theorems": [
    "C54_rips_barcode",
    "C54_rips_bars_count"
   ],
   "note": ""
  },
  {
   "property": "C55",
   "status": "proved",
   "theorems": [
    "C55_generators_basis",
    "C55_code_cells_basis"
   ],
   "note": ""
  },
  {
   "property": "C56",
   "status": "proved",
   "theorems": [
    "C56_reduce_path_homology",
    "C56_grpph_path_homology"
   ],
   "note": ""
  },
  {
   "property": "C57",
   "status": "proved",
   "theorems": [
    "C57_weighted_digraph"
   ],
   "note": ""
  },
  {
   "property": "C58",
   "status": "proved",
   "theorems": [
    "C58_births_and_deaths"
   ],
   "note": ""
  },
  {
   "property": "C59",
   "status": "proved",
   "theorems": [
    "C59_circuit_rank_bound",
    "C59_circuit_rank"
   ],
   "note": ""
  },
  {
   "property": "C60",
   "status": "proved",
   "theorems": [
    "C60_essential_cycles"
   ],
   "note": ""
  },
  {
   "property": "C61",
   "status": "proved",
   "theorems": [
    "C61_representatives"
   ],
   "note": ""
  },
  {
   "property": "C62",
   "status": "proved",
   "theorems": [
    "C62_representatives_in_graph"
   ],
   "note": ""
  },
  {
   "property": "C63",
   "status": "proved",
   "theorems": [
    "C63_complete_digraph",
    "C63_cycle_digraph"
   ],
   "note": ""
  },
  {
   "property": "C64",
   "status": "proved",
   "theorems": [
    "C64_rips_program",
    "C64_reported_bars",
    "C64_max_dim_zero_panics"
   ],
   "note": ""
  },
  {
   "property": "C65",
   "status": "proved",
   "theorems": [
    "C65_demo_assertions_hold"
   ],
   "note": ""
  },
  {
   "property": "C66",
   "status": "proved",
   "theorems": [
    "C66_cycle_death"
   ],
   "note": ""
  },
  {
   "property": "C67",
   "status": "proved",
   "theorems": [
    "C67_digraph_determines_bars"
   ],
   "note": ""
  },
  {
   "property": "C68",
   "status": "proved",
   "theorems": [
    "C68_point_order",
    "C68_program_point_order"
   ],
   "note": ""
  },
  {
   "property": "C69",
   "status": "proved",
   "theorems": [
    "C69_rips_stability",
    "C69_grpph_stability",
    "C69_longer_edges"
   ],
   "note": ""
  },
  {
   "property": "C70",
   "status": "proved",
   "theorems": [
    "C70_rips_homology"
   ],
   "note": ""
  },
  {
   "property": "C71",
   "status": "proved",
   "theorems": [
    "C71_cohomology_counts",
    "C71_homology_counts"
   ],
   "note": ""
  },
  {
   "property": "C72",
   "status": "proved",
   "theorems": [
    "C72_components"
   ],
   "note": ""
  },
  {
   "property": "C73",
   "status": "proved",
   "theorems": [
    "C73_program_prints_barcode",
    "C73_circle"
   ],
   "note": ""
  },
  {
   "property": "C74",
   "status": "proved",
   "theorems": [
    "C74_recorded_times_exact",
    "C74_upper_triangle",
    "C74_asymmetric_refuted"
   ],
   "note": ""
  },
  {
   "property": "C75",
   "status": "proved",
   "theorems": [
    "C75_order_type"
   ],
   "note": ""
  },
  {
   "property": "C76",
   "status": "proved",
   "theorems": [
    "C76_reads",
    "C76_returns_on_wide_tables",
    "C76_missing_entry_panics",
    "C76_returns_iff"
   ],
   "note": ""
  },
  {
   "property": "C77",
   "status": "proved",
   "theorems": [
    "C77_clearing_any_order"
   ],
   "note": ""
  },
  {
   "property": "C78",
   "status": "proved",
   "theorems": [
    "C78_any_dimension_order",
    "C78_order_does_not_change_pairs",
    "C78_wrong_direction"
   ],
   "note": ""
  },
  {
   "property": "C79",
   "status": "proved",
   "theorems": [
    "C79_clearing_presentation_independent"
   ],
   "note": ""
  },
  {
   "property": "C80",
   "status": "proved",
   "theorems": [
    "C80_unknown_vertex_panics",
    "C80_known_vertices_return"
   ],
   "note": ""
  },
  {
   "property": "C81",
   "status": "proved",
   "theorems": [
    "C81_ZP_standard",
    "C81_ZP_clearing"
   ],
   "note": ""
  },
  {
   "property": "C82",
   "status": "proved",
   "theorems": [
    "C82_Q_standard",
    "C82_Q_clearing",
    "C82_release_wrong_refuted"
   ],
   "note": ""
  },
  {
   "property": "C83",
   "status": "proved",
   "theorems": [
    "C83_std_heap_history",
    "C83_std_standard",
    "C83_std_clearing"
   ],
   "note": ""
  },
  {
   "property": "C84",
   "status": "proved",
   "theorems": [
    "C84_cached_product",
    "C84_cached_square_exact"
   ],
   "note": ""
  },
  {
   "property": "C85",
   "status": "proved",
   "theorems": [
    "C85_cached_standard"
   ],
   "note": ""
  },
  {
   "property": "C86",
   "status": "proved",
   "theorems": [
    "C86_cached_clearing"
   ],
   "note": ""
  },
  {
   "property": "C87",
   "status": "proved",
   "theorems": [
    "C87_repeated_points",
    "C87_program_repeated_points"
   ],
   "note": ""
  },
  {
   "property": "C88",
   "status": "proved",
   "theorems": [
    "C88_correspondence_stability",
    "C88_distortion"
   ],
   "note": ""
  },
  {
   "property": "C89",
   "status": "proved",
   "theorems": [
    "C89_monotone_distances"
   ],
   "note": ""
  },
  {
   "property": "C90",
   "status": "proved",
   "theorems": [
    "C90_bottleneck_stability",
    "C90_program_bottleneck"
   ],
   "note": ""
  },
  {
   "property": "C91",
   "status": "proved",
   "theorems": [
    "C91_grpph_stability",
    "C91_scaled_weights"
   ],
   "note": ""
  },
  {
   "property": "C92",
   "status": "proved",
   "theorems": [
    "C92_two_arithmetics"
   ],
   "note": ""
  },
  {
   "property": "C93",
   "status": "proved",
   "theorems": [
    "C93_double_grpph"
   ],
   "note": ""
  },
  {
   "property": "C94",
   "status": "proved",
   "theorems": [
    "C94_exact_doubles"
   ],
   "note": ""
  },
  {
   "property": "C95",
   "status": "proved",
   "theorems": [
    "C95_rips_program_doubles"
   ],
   "note": ""
  },
  {
   "property": "C96",
   "status": "proved",
   "theorems": [
    "C96_rips_program_stability"
   ],
   "note": ""
  },
  {
   "property": "C97",
   "status": "proved",
   "theorems": [
    "C97_dijkstra",
    "C97_std_queue"
   ],
   "note": ""
  },
  {
   "property": "C98",
   "status": "proved",
   "theorems": [
    "C98_any_weights"
   ],
   "note": ""
  },
  {
   "property": "C99",
   "status": "proved",
   "theorems": [
    "C99_grpph_dijkstra"
   ],
   "note": ""
  },
  {
   "property": "C100",
   "status": "proved",
   "theorems": [
    "C100_enclosing_radius",
    "C100_program",
    "C100_truncation"
   ],
   "note": ""
  },
  {
   "property": "C101",
   "status": "proved",
   "theorems": [
    "C101_least_total_length",
    "C101_spanning_tree",
    "C101_minimum_spanning_tree",
    "C101_program"
   ],
   "note": ""
  },
  {
   "property": "C102",
   "status": "proved",
   "theorems": [
    "C102_level_counts",
    "C102_euler_characteristic"
   ],
   "note": ""
  },
  {
   "property": "C103",
   "status": "proved",
   "theorems": [
    "C103_raw_doubles",
    "C103_raw_bars"
   ],
   "note": ""
  },
  {
   "property": "C104",
   "status": "proved",
   "theorems": [
    "C104_disjoint_union",
    "C104_isolated_vertices"
   ],
   "note": ""
  },
  {
   "property": "C105",
   "status": "proved",
   "theorems": [
    "C105_max_dim_pairs",
    "C105_max_dim_program"
   ],
   "note": ""
  },
  {
   "property": "C106",
   "status": "proved",
   "theorems": [
    "C106_dimension_0_any_field",
    "C106_field_matters"
   ],
   "note": ""
  },
  {
   "property": "C107",
   "status": "proved",
   "theorems": [
    "C107_standard",
    "C107_clearing",
    "C107_rips"
   ],
   "note": ""
  },
  {
   "property": "C108",
   "status": "proved",
   "theorems": [
    "C108_groups",
    "C108_far_groups",
    "C108_program"
   ],
   "note": ""
  },
  {
   "property": "C109",
   "status": "proved",
   "theorems": [
    "C109_release_product",
    "C109_release_product_lowest",
    "C109_release_sum",
    "C109_release_inverses",
    "C109_debug_release",
    "C109_zero_denominator"
   ],
   "note": ""
  },
  {
   "property": "C110",
   "status": "proved",
   "theorems": [
    "C110_reversal",
    "C110_reversal_doubles",
    "C110_reversal_exact_doubles"
   ],
   "note": ""
  },
  {
   "property": "C111",
   "status": "proved",
   "theorems": [
    "C111_change_of_units",
    "C111_double_units"
   ],
   "note": ""
  },
  {
   "property": "C112",
   "status": "proved",
   "theorems": [
    "C112_distances",
    "C112_detours",
    "C112_parallel",
    "C112_parallel_doubles"
   ],
   "note": ""
  },
  {
   "property": "C113",
   "status": "proved",
   "theorems": [
    "C113_gap",
    "C113_program"
   ],
   "note": ""
  },
  {
   "property": "C114",
   "status": "proved",
   "theorems": [
    "C114_bridge",
    "C114_doubles",
    "C114_shared_vertex",
    "C114_attached_forest"
   ],
   "note": ""
  }
 ]
}