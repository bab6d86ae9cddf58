(** [Print Assumptions] for every property theorem; written by manifest.py. *)
From Verif Require PropArithmetics PropBottleneck PropBridge PropCache PropCached PropClearing PropClearingDet PropClearingOrder PropClusters PropColumns PropCycle PropDijkstra PropDisjoint PropDistances PropDouble PropDoubleRips PropDuality PropEnclosing PropEuler PropFieldChange PropFields PropGap PropGrpph PropGrpphDemo PropGrpphExamples PropGrpphPanic PropGrpphRun PropGrpphStability PropMachine PropMatrices PropMaxDim PropPathHomology PropPersistence PropQRelease PropRankBound PropRawGrpph PropRelabel PropReps PropReversal PropRips PropRipsCircle PropRipsCli PropRipsCohomology PropRipsComponents PropRipsCounts PropRipsCsv PropRipsHomology PropRipsInput PropRipsOrder PropRipsPersistence PropRipsRepeat PropScale PropSpanTotal PropSpanTree PropStability PropStandard PropStdHeap PropWedge PropWeighted.
Print Assumptions Verif.PropArithmetics.C92_two_arithmetics.
Print Assumptions Verif.PropBottleneck.C89_monotone_distances.
Print Assumptions Verif.PropBottleneck.C90_bottleneck_stability.
Print Assumptions Verif.PropBottleneck.C90_program_bottleneck.
Print Assumptions Verif.PropBridge.C114_bridge.
Print Assumptions Verif.PropBridge.C114_doubles.
Print Assumptions Verif.PropCache.C18_cache_transparent.
Print Assumptions Verif.PropCache.C19_cache_reentrant_panics.
Print Assumptions Verif.PropCache.C19_cached_square_panics.
Print Assumptions Verif.PropCached.C84_cached_product.
Print Assumptions Verif.PropCached.C84_cached_square_exact.
Print Assumptions Verif.PropCached.C85_cached_standard.
Print Assumptions Verif.PropCached.C86_cached_clearing.
Print Assumptions Verif.PropClearing.C30_clearing_terminates.
Print Assumptions Verif.PropClearing.C31_clearing_decomposition.
Print Assumptions Verif.PropClearing.C32_clearing_intrinsic.
Print Assumptions Verif.PropClearing.C32_clearing_agrees_with_standard.
Print Assumptions Verif.PropClearing.C33_col_is_cycle.
Print Assumptions Verif.PropClearingDet.C79_clearing_presentation_independent.
Print Assumptions Verif.PropClearingOrder.C78_any_dimension_order.
Print Assumptions Verif.PropClearingOrder.C78_order_does_not_change_pairs.
Print Assumptions Verif.PropClearingOrder.C78_wrong_direction.
Print Assumptions Verif.PropClusters.C108_groups.
Print Assumptions Verif.PropClusters.C108_far_groups.
Print Assumptions Verif.PropClusters.C108_program.
Print Assumptions Verif.PropColumns.C06_pop_pivot.
Print Assumptions Verif.PropColumns.C07_drain_sorted.
Print Assumptions Verif.PropColumns.C07_canonical_unique.
Print Assumptions Verif.PropColumns.C08_clone_pivot.
Print Assumptions Verif.PropColumns.C09_history.
Print Assumptions Verif.PropColumns.C09_representation_independent.
Print Assumptions Verif.PropColumns.C09_added.
Print Assumptions Verif.PropColumns.C10_entry_order.
Print Assumptions Verif.PropColumns.C10_eq_compatible.
Print Assumptions Verif.PropColumns.C10_incoherent_disagree.
Print Assumptions Verif.PropColumns.C10_scale.
Print Assumptions Verif.PropCycle.C66_cycle_death.
Print Assumptions Verif.PropDijkstra.C97_dijkstra.
Print Assumptions Verif.PropDijkstra.C98_any_weights.
Print Assumptions Verif.PropDijkstra.C97_std_queue.
Print Assumptions Verif.PropDijkstra.C99_grpph_dijkstra.
Print Assumptions Verif.PropDisjoint.C104_disjoint_union.
Print Assumptions Verif.PropDisjoint.C104_isolated_vertices.
Print Assumptions Verif.PropDistances.C112_distances.
Print Assumptions Verif.PropDistances.C112_detours.
Print Assumptions Verif.PropDistances.C112_parallel.
Print Assumptions Verif.PropDistances.C112_parallel_doubles.
Print Assumptions Verif.PropDouble.C93_double_grpph.
Print Assumptions Verif.PropDouble.C94_exact_doubles.
Print Assumptions Verif.PropDoubleRips.C95_rips_program_doubles.
Print Assumptions Verif.PropDoubleRips.C96_rips_program_stability.
Print Assumptions Verif.PropDuality.C34_duality_intrinsic.
Print Assumptions Verif.PropDuality.C34_standard_algo_duality.
Print Assumptions Verif.PropDuality.C34_standard_vs_clearing_duality.
Print Assumptions Verif.PropEnclosing.C100_enclosing_radius.
Print Assumptions Verif.PropEnclosing.C100_program.
Print Assumptions Verif.PropEnclosing.C100_truncation.
Print Assumptions Verif.PropEuler.C102_level_counts.
Print Assumptions Verif.PropEuler.C102_euler_characteristic.
Print Assumptions Verif.PropFieldChange.C106_dimension_0_any_field.
Print Assumptions Verif.PropFieldChange.C106_field_matters.
Print Assumptions Verif.PropFieldChange.C107_standard.
Print Assumptions Verif.PropFieldChange.C107_clearing.
Print Assumptions Verif.PropFieldChange.C107_rips.
Print Assumptions Verif.PropFields.C01_Z2.
Print Assumptions Verif.PropFields.C02_ZP_operations.
Print Assumptions Verif.PropFields.C02_ZP_closed.
Print Assumptions Verif.PropFields.C02_ZP_field.
Print Assumptions Verif.PropFields.C03_panics_iff.
Print Assumptions Verif.PropFields.C03_unsuitable.
Print Assumptions Verif.PropFields.C03_suitable.
Print Assumptions Verif.PropFields.C04_Q_exact.
Print Assumptions Verif.PropFields.C04_Q_small.
Print Assumptions Verif.PropFields.C04_Q_eq.
Print Assumptions Verif.PropFields.C04_Q_field.
Print Assumptions Verif.PropFields.C05_Q_panics_or_exact.
Print Assumptions Verif.PropFields.C05_Q_silent_wrong.
Print Assumptions Verif.PropGap.C113_gap.
Print Assumptions Verif.PropGap.C113_program.
Print Assumptions Verif.PropGrpph.C45_primary_bridges.
Print Assumptions Verif.PropGrpph.C46_coboundary_column.
Print Assumptions Verif.PropGrpph.C46_transpose.
Print Assumptions Verif.PropGrpph.C46_boundary_column.
Print Assumptions Verif.PropGrpph.C47_times_coherent.
Print Assumptions Verif.PropGrpph.C47_infinite_times_refuted.
Print Assumptions Verif.PropGrpph.C48_boundary_squared.
Print Assumptions Verif.PropGrpph.C48_coboundary_squared.
Print Assumptions Verif.PropGrpph.C48_cells_listed.
Print Assumptions Verif.PropGrpph.C49_basis.
Print Assumptions Verif.PropGrpph.C49_map_table.
Print Assumptions Verif.PropGrpph.C49_vec_table.
Print Assumptions Verif.PropGrpphDemo.C65_demo_assertions_hold.
Print Assumptions Verif.PropGrpphExamples.C63_complete_digraph.
Print Assumptions Verif.PropGrpphExamples.C63_cycle_digraph.
Print Assumptions Verif.PropGrpphPanic.C80_unknown_vertex_panics.
Print Assumptions Verif.PropGrpphPanic.C80_known_vertices_return.
Print Assumptions Verif.PropGrpphRun.C50_reduce.
Print Assumptions Verif.PropGrpphRun.C50_grpph.
Print Assumptions Verif.PropGrpphRun.C50_u16_truncation_refuted.
Print Assumptions Verif.PropGrpphRun.C51_negative_columns_suffice.
Print Assumptions Verif.PropGrpphRun.C51_grpph_with_involution.
Print Assumptions Verif.PropGrpphStability.C91_grpph_stability.
Print Assumptions Verif.PropGrpphStability.C91_scaled_weights.
Print Assumptions Verif.PropMachine.C81_ZP_standard.
Print Assumptions Verif.PropMachine.C81_ZP_clearing.
Print Assumptions Verif.PropMachine.C82_Q_standard.
Print Assumptions Verif.PropMachine.C82_Q_clearing.
Print Assumptions Verif.PropMachine.C82_release_wrong_refuted.
Print Assumptions Verif.PropMatrices.C11_product.
Print Assumptions Verif.PropMatrices.C11_product_filtration.
Print Assumptions Verif.PropMatrices.C11_product_panics.
Print Assumptions Verif.PropMatrices.C11_product_basis.
Print Assumptions Verif.PropMatrices.C12_sum.
Print Assumptions Verif.PropMatrices.C13_consolidate.
Print Assumptions Verif.PropMatrices.C13_consolidate_passes.
Print Assumptions Verif.PropMatrices.C13_consolidate_filtered.
Print Assumptions Verif.PropMatrices.C14_eq_on_col.
Print Assumptions Verif.PropMatrices.C15_reverse_column.
Print Assumptions Verif.PropMatrices.C15_reverse_leading.
Print Assumptions Verif.PropMatrices.C15_unreverse_reverse.
Print Assumptions Verif.PropMatrices.C15_reverse_unreverse.
Print Assumptions Verif.PropMatrices.C15_reverse_basis.
Print Assumptions Verif.PropMatrices.C15_unreverse_basis.
Print Assumptions Verif.PropMatrices.C15_basis_roundtrip.
Print Assumptions Verif.PropMatrices.C15_split.
Print Assumptions Verif.PropMatrices.C15_split_panics.
Print Assumptions Verif.PropMatrices.C16_columns.
Print Assumptions Verif.PropMatrices.C16_filtrations.
Print Assumptions Verif.PropMatrices.C16_bases.
Print Assumptions Verif.PropMatrices.C16_index.
Print Assumptions Verif.PropMatrices.C17_adaptors.
Print Assumptions Verif.PropMatrices.C17_with_filtration.
Print Assumptions Verif.PropMatrices.C17_reverse.
Print Assumptions Verif.PropMatrices.C17_unreverse.
Print Assumptions Verif.PropMatrices.C17_product.
Print Assumptions Verif.PropMatrices.C17_coherent_at.
Print Assumptions Verif.PropMatrices.C20_vec_basis.
Print Assumptions Verif.PropMatrices.C20_reverse_lookup.
Print Assumptions Verif.PropMatrices.C21_vecvec.
Print Assumptions Verif.PropMatrices.C21_mapvec.
Print Assumptions Verif.PropMaxDim.C105_max_dim_pairs.
Print Assumptions Verif.PropMaxDim.C105_max_dim_program.
Print Assumptions Verif.PropPathHomology.C55_generators_basis.
Print Assumptions Verif.PropPathHomology.C55_code_cells_basis.
Print Assumptions Verif.PropPathHomology.C56_reduce_path_homology.
Print Assumptions Verif.PropPathHomology.C56_grpph_path_homology.
Print Assumptions Verif.PropPersistence.C52_diagram_is_barcode.
Print Assumptions Verif.PropPersistence.C52_diagram_is_barcode_blocks.
Print Assumptions Verif.PropPersistence.C52_bars_count_persistent_betti.
Print Assumptions Verif.PropPersistence.C53_clearing_diagram_is_barcode.
Print Assumptions Verif.PropQRelease.C109_release_product.
Print Assumptions Verif.PropQRelease.C109_release_product_lowest.
Print Assumptions Verif.PropQRelease.C109_release_sum.
Print Assumptions Verif.PropQRelease.C109_release_inverses.
Print Assumptions Verif.PropQRelease.C109_debug_release.
Print Assumptions Verif.PropQRelease.C109_zero_denominator.
Print Assumptions Verif.PropRankBound.C59_circuit_rank_bound.
Print Assumptions Verif.PropRawGrpph.C103_raw_doubles.
Print Assumptions Verif.PropRawGrpph.C103_raw_bars.
Print Assumptions Verif.PropRelabel.C67_digraph_determines_bars.
Print Assumptions Verif.PropReps.C61_representatives.
Print Assumptions Verif.PropReversal.C110_reversal.
Print Assumptions Verif.PropReversal.C110_reversal_doubles.
Print Assumptions Verif.PropReversal.C110_reversal_exact_doubles.
Print Assumptions Verif.PropRips.C35_index_roundtrip.
Print Assumptions Verif.PropRips.C35_index_injective.
Print Assumptions Verif.PropRips.C35_none_iff_empty.
Print Assumptions Verif.PropRips.C36_overflow_exact.
Print Assumptions Verif.PropRips.C36_overflow_dimension.
Print Assumptions Verif.PropRips.C36_wrapping.
Print Assumptions Verif.PropRips.C36_wrapping_collision.
Print Assumptions Verif.PropRips.C37_bases_enumerate.
Print Assumptions Verif.PropRips.C37_bases_diameter.
Print Assumptions Verif.PropRips.C38_build_rips_bases_returns_iff.
Print Assumptions Verif.PropRips.C38_max_dim_zero_panics.
Print Assumptions Verif.PropRips.C39_multi_basis_concatenates.
Print Assumptions Verif.PropRips.C39_rips_basis.
Print Assumptions Verif.PropRips.C40_boundary_column.
Print Assumptions Verif.PropRips.C40_boundary_boundary_zero.
Print Assumptions Verif.PropRips.C41_coboundary_column.
Print Assumptions Verif.PropRips.C41_coboundary_is_transpose.
Print Assumptions Verif.PropRips.C41_coboundary_coboundary_zero.
Print Assumptions Verif.PropRips.C42_filtration_value_is_diameter.
Print Assumptions Verif.PropRips.C42_boundary_rows_earlier.
Print Assumptions Verif.PropRips.C42_faces_no_later.
Print Assumptions Verif.PropRips.C43_built_matrices_coherent.
Print Assumptions Verif.PropRips.C43_override_panics.
Print Assumptions Verif.PropRips.C43_override_exact.
Print Assumptions Verif.PropRips.C43_override_disagrees.
Print Assumptions Verif.PropRipsCircle.C73_program_prints_barcode.
Print Assumptions Verif.PropRipsCircle.C73_circle.
Print Assumptions Verif.PropRipsCli.C64_rips_program.
Print Assumptions Verif.PropRipsCli.C64_reported_bars.
Print Assumptions Verif.PropRipsCli.C64_max_dim_zero_panics.
Print Assumptions Verif.PropRipsCohomology.C44_cohomology_intrinsic.
Print Assumptions Verif.PropRipsCohomology.C44_agrees_with_standard.
Print Assumptions Verif.PropRipsCohomology.C44_diagram_shape.
Print Assumptions Verif.PropRipsCohomology.C44_homology_same_pairs.
Print Assumptions Verif.PropRipsComponents.C72_components.
Print Assumptions Verif.PropRipsCounts.C71_cohomology_counts.
Print Assumptions Verif.PropRipsCounts.C71_homology_counts.
Print Assumptions Verif.PropRipsCsv.C77_clearing_any_order.
Print Assumptions Verif.PropRipsCsv.C76_reads.
Print Assumptions Verif.PropRipsCsv.C76_returns_on_wide_tables.
Print Assumptions Verif.PropRipsCsv.C76_missing_entry_panics.
Print Assumptions Verif.PropRipsCsv.C76_returns_iff.
Print Assumptions Verif.PropRipsHomology.C70_rips_homology.
Print Assumptions Verif.PropRipsInput.C74_recorded_times_exact.
Print Assumptions Verif.PropRipsInput.C74_upper_triangle.
Print Assumptions Verif.PropRipsInput.C74_asymmetric_refuted.
Print Assumptions Verif.PropRipsInput.C75_order_type.
Print Assumptions Verif.PropRipsOrder.C68_point_order.
Print Assumptions Verif.PropRipsOrder.C68_program_point_order.
Print Assumptions Verif.PropRipsPersistence.C54_rips_barcode.
Print Assumptions Verif.PropRipsPersistence.C54_rips_bars_count.
Print Assumptions Verif.PropRipsRepeat.C87_repeated_points.
Print Assumptions Verif.PropRipsRepeat.C87_program_repeated_points.
Print Assumptions Verif.PropRipsRepeat.C88_correspondence_stability.
Print Assumptions Verif.PropRipsRepeat.C88_distortion.
Print Assumptions Verif.PropScale.C111_change_of_units.
Print Assumptions Verif.PropScale.C111_double_units.
Print Assumptions Verif.PropSpanTotal.C101_least_total_length.
Print Assumptions Verif.PropSpanTree.C101_spanning_tree.
Print Assumptions Verif.PropSpanTree.C101_minimum_spanning_tree.
Print Assumptions Verif.PropSpanTree.C101_program.
Print Assumptions Verif.PropStability.C69_rips_stability.
Print Assumptions Verif.PropStability.C69_grpph_stability.
Print Assumptions Verif.PropStability.C69_longer_edges.
Print Assumptions Verif.PropStandard.C22_standard_algo_terminates.
Print Assumptions Verif.PropStandard.C23_V_unitriangular.
Print Assumptions Verif.PropStandard.C24_R_reduced.
Print Assumptions Verif.PropStandard.C25_pairs_intrinsic.
Print Assumptions Verif.PropStandard.C25_any_decomposition.
Print Assumptions Verif.PropStandard.C26_read_off_diagram.
Print Assumptions Verif.PropStandard.C26_essential_intrinsic.
Print Assumptions Verif.PropStandard.C26_essential_intrinsic_blocks.
Print Assumptions Verif.PropStandard.C27_partition.
Print Assumptions Verif.PropStandard.C27_diagram_partition.
Print Assumptions Verif.PropStandard.C28_wrong_direction.
Print Assumptions Verif.PropStandard.C29_presentation_independent.
Print Assumptions Verif.PropStandard.C29_standard_algo.
Print Assumptions Verif.PropStdHeap.C83_std_heap_history.
Print Assumptions Verif.PropStdHeap.C83_std_standard.
Print Assumptions Verif.PropStdHeap.C83_std_clearing.
Print Assumptions Verif.PropWedge.C114_shared_vertex.
Print Assumptions Verif.PropWedge.C114_attached_forest.
Print Assumptions Verif.PropWeighted.C57_weighted_digraph.
Print Assumptions Verif.PropWeighted.C58_births_and_deaths.
Print Assumptions Verif.PropWeighted.C59_circuit_rank.
Print Assumptions Verif.PropWeighted.C60_essential_cycles.
Print Assumptions Verif.PropWeighted.C62_representatives_in_graph.
