{
 "claims": [
  {
   "property": "C01",
   "status": "proved",
   "theorems": [
    "C01_jump_ahead_is_n_draws",
    "C01_jump_ahead_state",
    "C01_jump_ahead_additive"
   ],
   "note": "jump_ahead(n) = n draws for every 64-bit n; the only exception is the stored word after jump_ahead(0) from an unmasked seed, whose later draws still agree."
  },
  {
   "property": "C02",
   "status": "proved",
   "theorems": [
    "C02_draw_in_range",
    "C02_draw_injective",
    "C02_full_period",
    "C02_every_value_visited"
   ],
   "note": "Range, injectivity, exact period 2^63 and visiting every value."
  },
  {
   "property": "C03",
   "status": "partial",
   "theorems": [
    "C03_random_below_one_iff",
    "C03_random_int_below_bound_iff",
    "C03_random_range_refuted"
   ],
   "note": "Refuted as stated. Holds exactly when the drawn integer is below 2^63-512; the unguarded statement is refuted: every stream contains a draw for which random() is 1.0 and random_int(n) is n."
  },
  {
   "property": "C04",
   "status": "partial",
   "theorems": [
    "C04_history_windows_disjoint_partial",
    "C04_history_streams_refuted"
   ],
   "note": "Disjointness holds for the first 429496 histories with 10000 draws; histories are separated by only 10000 draws, so a long history overlaps its successor (refuted as stated)."
  },
  {
   "property": "C05",
   "status": "proved",
   "theorems": [
    "C05_sample_cdf_bin",
    "C05_sample_cdf_in_range"
   ],
   "note": "For any non-decreasing table whose last entry is >= the variate."
  },
  {
   "property": "C06",
   "status": "proved",
   "theorems": [
    "C06_position_of_cell_index",
    "C06_cell_index_of_position"
   ],
   "note": "All mesh sizes."
  },
  {
   "property": "C07",
   "status": "proved",
   "theorems": [
    "C07_surface_in_range",
    "C07_surface_used",
    "C07_surface_shared_iff_same_face"
   ],
   "note": "Range, coverage, and same number iff same face or the two sides of one face."
  },
  {
   "property": "C08",
   "status": "proved",
   "theorems": [
    "C08_neigh_cells_of_face",
    "C08_neigh_cells_sound"
   ],
   "note": "Both directions: from a cell face and from a surface number."
  },
  {
   "property": "C09",
   "status": "proved",
   "theorems": [
    "C09_surface_normal"
   ],
   "note": ""
  },
  {
   "property": "C10",
   "status": "proved",
   "theorems": [
    "C10_neighbor_is_adjacent",
    "C10_step_and_back",
    "C10_interface_of_neighbors",
    "C10_interface_rejects_non_neighbors"
   ],
   "note": "Neighbour, step-back, interface, and rejection of non-neighbours."
  },
  {
   "property": "C11",
   "status": "proved",
   "theorems": [
    "C11_area_agrees",
    "C11_area_times_thickness",
    "C11_volumes_sum"
   ],
   "note": "Exact real arithmetic; all accesses shown in range."
  },
  {
   "property": "C12",
   "status": "proved",
   "theorems": [
    "C12_plane_cells",
    "C12_plane_ranges_contiguous",
    "C12_plane_surfaces"
   ],
   "note": ""
  },
  {
   "property": "C13",
   "status": "partial",
   "theorems": [
    "C13_crossings_found_partial",
    "C13_found_are_crossings",
    "C13_crossings_found_refuted"
   ],
   "note": "Refuted as stated for domains taller than wide (vertical lines end at y = hx instead of hy); proved when hy <= hx, and soundness of every reported crossing is unconditional."
  },
  {
   "property": "C14",
   "status": "proved",
   "theorems": [
    "C14_reflect_flips_one_cosine",
    "C14_reflections_commute",
    "C14_reflect_surface",
    "C14_modify_angle_keeps_layout"
   ],
   "note": "Any number of angles per octant; also preserved by modify_angle."
  },
  {
   "property": "C15",
   "status": "partial",
   "theorems": [
    "C15_reverse_2d",
    "C15_reverse_3d_partial",
    "C15_reverse_3d_refuted"
   ],
   "note": "2-D reverse proved. 3-D reverse refuted as stated: in octants 3, 4, 7, 8 the z cosine is not negated and the map is not an involution."
  },
  {
   "property": "C16",
   "status": "partial",
   "theorems": [
    "C16_ordinates",
    "C16_unit_vectors",
    "C16_weights_level_symmetric_partial",
    "C16_weights_refuted"
   ],
   "note": "Refuted as stated: S12 and S14 read another order's weight map and S16 (and orders below 2) read outside the tables. Proved for S2-S10; counts, distinctness and unit length proved for every order that returns."
  },
  {
   "property": "C17",
   "status": "proved",
   "theorems": [
    "C17_slices_inside",
    "C17_slices_disjoint",
    "C17_slices_cover",
    "C17_boundary_is_three_faces"
   ],
   "note": "Any per-angle sizes; get_boundary is the concatenation of the three faces."
  },
  {
   "property": "C18",
   "status": "partial",
   "theorems": [
    "C18_update_angle_partial",
    "C18_update_group_partial",
    "C18_unsupported_throws",
    "C18_update_refuted"
   ],
   "note": "Refuted as stated: a face without conditions makes the routine skip the remaining axes. Proved (one angle and a whole group) when no empty face precedes a non-empty one and mirrored angles have equal face sizes."
  },
  {
   "property": "C19",
   "status": "partial",
   "theorems": [
    "C19_round_trip_partial",
    "C19_access",
    "C19_self_scatter",
    "C19_out_is_column_sum_partial",
    "C19_copy",
    "C19_square_input",
    "C19_round_trip_refuted"
   ],
   "note": "Refuted as stated: negative off-diagonal entries outside the positive band are dropped. Proved for every matrix whose off-diagonal entries are non-negative (the diagonal may have any sign); element access, self-scatter, copies and the squareness check are proved for all matrices."
  },
  {
   "property": "C20",
   "status": "proved",
   "theorems": [
    "C20_cdf"
   ],
   "note": "Exact real arithmetic."
  },
  {
   "property": "C21",
   "status": "proved",
   "theorems": [
    "C21_schedule_independent",
    "C21_sorted_bank",
    "C21_ids_distinct"
   ],
   "note": "Any thread assignment, any order within threads, any interleaving of insertions, any number of cycles; histories are an arbitrary function of stream number and site. Sums are over exact reals."
  },
  {
   "property": "C22",
   "status": "partial",
   "theorems": [
    "C22_resize_partial",
    "C22_resize_same",
    "C22_resize_refuted"
   ],
   "note": "Refuted as stated: every stream reaches a state for which growing reads past the bank, and an empty bank is read out of range. Proved whenever the draws avoid the 512 values that random_int maps to its bound."
  },
  {
   "property": "C23",
   "status": "partial",
   "theorems": [
    "C23_scalar_order_independent",
    "C23_scalar_statistics",
    "C23_spatial_order_independent",
    "C23_spatial_statistics",
    "C23_spatial_reset",
    "C23_relative_deviation_refuted"
   ],
   "note": "Order independence and the exact statistics are proved; renormalisation invariance of the relative deviation is refuted for spatial tallies (it is scaled by sqrt(norm))."
  },
  {
   "property": "C24",
   "status": "partial",
   "theorems": [
    "C24_site_counted_in_its_cell",
    "C24_entropy_defined_partial",
    "C24_entropy_bounds",
    "C24_entropy_order_independent",
    "C24_entropy_index_refuted"
   ],
   "note": "Refuted as stated: the range check lets index n_pin through and the write is out of range. Bounds, order independence and correct location are proved."
  },
  {
   "property": "C25",
   "status": "partial",
   "theorems": [
    "C25_cycle_count_refuted",
    "C25_inactive_first"
   ],
   "note": "Refuted as stated: one extra active cycle is always run."
  },
  {
   "property": "C26",
   "status": "proved",
   "theorems": [
    "C26_ray_layout",
    "C26_tolerance_refuted"
   ],
   "note": "For every domain, counts and polar angle the rays of octants 1 and 2 connect entry slots to exit slots one-to-one and end exactly at the middle of their exit slot. Needs half ray spacings above the comparison tolerance; without it a slot is misassigned (C26_tolerance_refuted)."
  },
  {
   "property": "C27",
   "status": "proved",
   "theorems": [
    "C27_characteristics",
    "C27_conservation",
    "C27_bounds",
    "C27_angle_balance",
    "C27_angle_weight",
    "C27_infinite_medium"
   ],
   "note": "For all rays, cross sections, sources and incoming fluxes: characteristic equation up to the table error, conservation, bounds and positivity, balance of all rays of an angle, a whole Gauss-Seidel sweep of a reflected uniform medium, and the ray weight (C27_angle_weight). Positive cross sections and segment lengths are needed (a zero optical length reads past the exponential table, see C63)."
  },
  {
   "property": "C28",
   "status": "proved",
   "theorems": [
    "C28_schedule_independent"
   ],
   "note": "For all thread counts, assignments and orders; rays are atomic steps, which is sound because concurrent rays share only data they read."
  },
  {
   "property": "C29",
   "status": "proved",
   "theorems": [
    "C29_flat",
    "C29_angle",
    "C29_zero_length_refuted"
   ],
   "note": "For rays whose regions are all crossed and segment lengths positive: corrected segment lengths times spacing reproduce each region's area (flat, and per angle). A region crossed only by zero-length segments gets NaN (C29_zero_length_refuted)."
  },
  {
   "property": "C30",
   "status": "partial",
   "theorems": [
    "C30_round_trip",
    "C30_write_succeeds",
    "C30_pin_round_trip",
    "C30_pin_subplanes_refuted"
   ],
   "note": "Refuted for the PIN treatment when a macroplane spans several planes (C30_pin_subplanes_refuted: the write is outside the array contract). Proved for PIN_PLANE, and for PIN with one plane per macroplane; the write succeeds for positive data."
  },
  {
   "property": "C31",
   "status": "proved",
   "theorems": [
    "C31_leakage_kept",
    "C31_succeeds",
    "C31_plain",
    "C31_zero_flux_refuted"
   ],
   "note": "Zero flux under a negative leaky source divides by zero (C31_zero_flux_refuted); the statement is about regions with positive flux."
  },
  {
   "property": "C32",
   "status": "partial",
   "theorems": [
    "C32_expand",
    "C32_axial_refuted"
   ],
   "note": "Refuted as stated (C32_axial_refuted): the inclusive range copies one element too many, so the first z-normal surface above each plane is overwritten. C32_expand gives the exact result for all groupings: in-plane currents right, all other z-normal currents untouched."
  },
  {
   "property": "C33",
   "status": "partial",
   "theorems": [
    "C33_records",
    "C33_overflow_refuted"
   ],
   "note": "C33_records: for crossings of fewer than 256 segments the packed records give back each direction exactly and the counts sum to the segments of the ray. Refuted beyond that (C33_overflow_refuted): the 8-bit counts wrap."
  },
  {
   "property": "C34",
   "status": "proved",
   "theorems": [
    "C34_partition",
    "C34_defined"
   ],
   "note": "For every list of pins: the regions' lists are a permutation of 0..n-1, ids strictly increasing and exactly those used, each region holds exactly the flat regions of its material with the library's group constants; undefined ids raise an exception, otherwise construction succeeds. Flat region order is the order in which pins and material regions are listed."
  },
  {
   "property": "C35",
   "status": "partial",
   "theorems": [
    "C35_unsplit",
    "C35_split",
    "C35_stale_refuted"
   ],
   "note": "Refuted as stated: expand(group) after expand(group, split) keeps the split cross sections (C35_stale_refuted). Proved for all histories without splitting, and right after any expansion with splitting."
  },
  {
   "property": "C36",
   "status": "partial",
   "theorems": [
    "C36_rates",
    "C36_scatter_partial",
    "C36_emission",
    "C36_spectrum",
    "C36_bounds",
    "C36_spectrum_bounds",
    "C36_scatter_bounds",
    "C36_scatter_total",
    "C36_volume",
    "C36_negative_scatter_refuted"
   ],
   "note": "Refuted as stated for negative scattering (C36_negative_scatter_refuted). Proved: reaction rates of transport, nu-fission and fission; scattering when the pin's rate is not negative; production and emission per group; spectrum sums to one; bounds for the three reactions, for the spectrum over the producing regions and for scattering when the rate is not negative; total scattered out of each group; volume weighting equals flux weighting with flat flux when region areas add up to the pin area."
  },
  {
   "property": "C37",
   "status": "partial",
   "theorems": [
    "C37_equal_partial",
    "C37_same",
    "C37_spectrum_refuted"
   ],
   "note": "Refuted as stated: fission spectrum and region list are not compared (C37_spectrum_refuted). Proved: equal regions agree in all compared data, and regions with the same data compare equal."
  },
  {
   "property": "C38",
   "status": "partial",
   "theorems": [
    "C38_lookup_by_id",
    "C38_dense_index",
    "C38_dense_injective",
    "C38_count_partial",
    "C38_count_refuted"
   ],
   "note": "Refuted as stated for the count: assigning an identifier twice is counted twice. Lookup, rejection, dense indices are proved for every assignment history, the count when no identifier is repeated."
  },
  {
   "property": "C39",
   "status": "proved",
   "theorems": [
    "C39_spectrum_normalised",
    "C39_spectrum_unfissile",
    "C39_transport_is_total",
    "C39_transport_is_stored_total",
    "C39_construction"
   ],
   "note": "Exact reals. The column sum is that of the table given when off-diagonal entries are non-negative, and that of the stored matrix in general (see C19)."
  },
  {
   "property": "C40",
   "status": "partial",
   "theorems": [
    "C40_source",
    "C40_commute",
    "C40_balance",
    "C40_auxiliary",
    "C40_external_refuted",
    "C40_external_partial",
    "C40_2d3d"
   ],
   "note": "Refuted as stated for external sources: the accepted array is (group, region) but read as (region, group) (C40_external_refuted). Without one, the source is chi times fission source plus in-scattering from the other groups, whatever came before (C40_source, C40_commute, C40_balance, C40_auxiliary), also for the split 2D3D fission source (C40_2d3d)."
  },
  {
   "property": "C41",
   "status": "partial",
   "theorems": [
    "C41_unsplit_partial",
    "C41_plain",
    "C41_split_refuted"
   ],
   "note": "Refuted as stated when splitting is active (C41_split_refuted: the source is divided by the unsplit cross section); holds without splitting (C41_unsplit_partial) and for the variant divided by 4 pi only (C41_plain)."
  },
  {
   "property": "C42",
   "status": "proved",
   "theorems": [
    "C42_row",
    "C42_cancel",
    "C42_total"
   ],
   "note": "C42_row (every cell, any coefficients, no out-of-range or exception), C42_cancel and C42_total."
  },
  {
   "property": "C43",
   "status": "partial",
   "theorems": [
    "C43_homogenised",
    "C43_put_back",
    "C43_macro_balance",
    "C43_put_back_refuted",
    "C43_surface_flux_plane",
    "C43_surface_flux_refuted",
    "C43_current",
    "C43_no_data",
    "C43_defined",
    "C43_transport_balance",
    "C43_surface_flux"
   ],
   "note": "Proved when the CMFD mesh has the planes of the transport mesh: C43_current, C43_surface_flux, C43_transport_balance, C43_defined. With fewer planes: the homogenised currents keep the balance (C43_homogenised, C43_macro_balance), but what is put back is refuted: C43_put_back_refuted (current through the top set to zero, surfaces inside a macroplane get the current of its bottom; C43_put_back says exactly what is stored) and C43_surface_flux_refuted (surface flux read from a plane of another macroplane)."
  },
  {
   "property": "C44",
   "status": "partial",
   "theorems": [
    "C44_limit",
    "C44_terminates",
    "C44_exact_start",
    "C44_refuted",
    "C44_flux"
   ],
   "note": "Refuted as stated: C44_refuted (one pass more than the limit). C44_limit: never more than one extra pass and tolerances met otherwise; C44_terminates; C44_flux: non-negative. C44_exact_start: a start that solves the system exactly always runs past the limit."
  },
  {
   "property": "C45",
   "status": "proved",
   "theorems": [
    "C45_order",
    "C45_solution",
    "C45_unique",
    "C45_defined",
    "C45_sweep_defined"
   ],
   "note": "C45_order for every octant and size; C45_solution: the sweep of an angle solves the discrete equations for any cell equation; C45_unique: the solution is unique; C45_defined, C45_sweep_defined: no out-of-range access for matching sizes."
  },
  {
   "property": "C46",
   "status": "partial",
   "theorems": [
    "C46_dd",
    "C46_2d",
    "C46_dd_sc",
    "C46_cdd",
    "C46_fixup",
    "C46_defined",
    "C46_sc_exact",
    "C46_uniform",
    "C46_reduces",
    "C46_pmb_refuted",
    "C46_pmb_plane_refuted",
    "C46_pmb_partial"
   ],
   "note": "Refuted as stated for the PMB variant (C46_pmb_refuted: not balanced unless the plane height is 1; C46_pmb_plane_refuted: it reads the height of the wrong plane). Every other scheme satisfies the balance exactly: C46_dd, C46_2d, C46_dd_sc, C46_cdd, C46_fixup; C46_defined: they are defined for positive data; C46_sc_exact, C46_uniform, C46_reduces."
  },
  {
   "property": "C47",
   "status": "partial",
   "theorems": [
    "C47_installs",
    "C47_defined",
    "C47_residual_refuted",
    "C47_plane_round_trip",
    "C47_plane_residual_refuted"
   ],
   "note": "Refuted as stated: C47_residual_refuted (the residual uses region 1 for every region, can be too large or too small, and a one-region mesh is read outside the array), C47_plane_residual_refuted (always zero on the macroplane mesh). C47_installs, C47_defined, C47_plane_round_trip: the flux is installed and reads back on both meshes."
  },
  {
   "property": "C48",
   "status": "partial",
   "theorems": [
    "C48_limits_partial",
    "C48_parameters",
    "C48_min_refuted"
   ],
   "note": "Refuted as stated for the minimum (C48_min_refuted: convergence exactly at min_iter is ignored and one more step is done). C48_limits_partial: never more than max_iter, never fewer than min_iter, stops exactly at the first converged step after min_iter; C48_parameters: exactly which input is accepted."
  },
  {
   "property": "C49",
   "status": "partial",
   "theorems": [
    "C49_dumps_partial",
    "C49_defined",
    "C49_blocked_refuted"
   ],
   "note": "Refuted as stated for repeated, zero or negative requests, which block later ones (C49_blocked_refuted). For distinct positive requests exactly those performed are dumped once (C49_dumps_partial); the iterator never leaves the list (C49_defined)."
  },
  {
   "property": "C50",
   "status": "partial",
   "theorems": [
    "C50_limit_partial",
    "C50_negative_refuted"
   ],
   "note": "Refuted as stated: a missing or negative limit wraps to an unsigned value and is accepted (C50_negative_refuted). Positive limits are kept and respected, zero is rejected (C50_limit_partial)."
  },
  {
   "property": "C51",
   "status": "proved",
   "theorems": [
    "C51_moc_sweep",
    "C51_moc_homogeneous",
    "C51_moc_scale",
    "C51_ratio",
    "C51_scale",
    "C51_total_fission",
    "C51_fission_source",
    "C51_integral"
   ],
   "note": "C51_ratio for every sweeper and number of iterations (without CMFD acceleration); C51_scale for every homogeneous sweeper: same iterations, dumps, k and errors. C51_total_fission, C51_fission_source, C51_integral tie the bookkeeping to the production integral."
  },
  {
   "property": "C52",
   "status": "partial",
   "theorems": [
    "C52_sum",
    "C52_idempotent_partial",
    "C52_scale",
    "C52_scaled",
    "C52_idempotent_refuted"
   ],
   "note": "Refuted as stated for a negative sum (C52_idempotent_refuted). C52_sum for every non-zero sum; C52_idempotent_partial for positive sums; C52_scale, C52_scaled."
  },
  {
   "property": "C53",
   "status": "partial",
   "theorems": [
    "C53_rational_approximation",
    "C53_nearest_on_its_side",
    "C53_within_tolerance",
    "C53_unbounded_refuted",
    "C53_closest_refuted"
   ],
   "note": "Refuted as stated. Termination, lowest terms, bounded denominator, Dirichlet-quality error and one-sided optimality are proved; closest possible is refuted (1/5 with denominators up to 3 gives 0) and zero tolerance without a bound overflows int."
  },
  {
   "property": "C54",
   "status": "partial",
   "theorems": [
    "C54_read",
    "C54_accepted",
    "C54_kept",
    "C54_terminates",
    "C54_dropped",
    "C54_refuted"
   ],
   "note": "Refuted as stated: C54_refuted (the character before an opening brace is dropped, so 12{3} loses a digit; the text }{1 passes the checks and the loop never ends; naked numbers, documented to throw, are accepted). C54_read, C54_accepted and C54_kept: on texts whose braces nest and open after a blank the result is exactly what the text says and every number is kept; C54_terminates; C54_dropped gives the lost character for every input."
  },
  {
   "property": "C55",
   "status": "proved",
   "theorems": [
    "C55_text",
    "C55_injective",
    "C55_runs"
   ],
   "note": "C55_text (the text describes exactly the true positions), C55_injective, C55_runs."
  },
  {
   "property": "C56",
   "status": "proved",
   "theorems": [
    "C56_line",
    "C56_reads"
   ],
   "note": "C56_reads and C56_line, for every text, comment flag and number of reads."
  },
  {
   "property": "C57",
   "status": "partial",
   "theorems": [
    "C57_lattice_layout",
    "C57_lattice_acceptance",
    "C57_lattice_size_rejected",
    "C57_negative_dimensions_refuted",
    "C57_lattice_lookup",
    "C57_lattice_lookup_near",
    "C57_left_edge_refuted"
   ],
   "note": "Refuted as stated: a point on the left or bottom edge moving outwards is looked up in the last column or reads outside the tables, and negative dimensions whose product matches are accepted. Layout, acceptance, size rejection and lookup of every other point (inside, on a boundary entering, or within tolerance) are proved."
  },
  {
   "property": "C58",
   "status": "partial",
   "theorems": [
    "C58_plane_lookup",
    "C58_position_agrees",
    "C58_position_bijection",
    "C58_position_refuted"
   ],
   "note": "Refuted as stated: a plane whose lattices have equal sizes but different pin counts is accepted and two pins share a position. Proved for every accepted plane: position, pin and point lookup agree; bijection when pin counts conform."
  },
  {
   "property": "C59",
   "status": "partial",
   "theorems": [
    "C59_rect",
    "C59_cyl",
    "C59_fsrs",
    "C59_refuted"
   ],
   "note": "Refuted as stated: C59_refuted (a sector count of zero or less is accepted and gives no regions; repeated and negative radii are accepted and give zero and negative areas; zero subdivisions divide by zero). C59_rect, C59_cyl and C59_fsrs prove the claim, the equal ring areas and the region counts for growing positive radii and 2, 4, 6 or 8 sectors."
  },
  {
   "property": "C60",
   "status": "partial",
   "theorems": [
    "C60_pin_fuel",
    "C60_unknown_material_partial",
    "C60_unknown_material_refuted"
   ],
   "note": "Refuted as stated: unknown materials after the first fissile one are accepted. The fuel flag and rejection before the first fissile material are proved."
  },
  {
   "property": "C61",
   "status": "partial",
   "theorems": [
    "C61_macroplanes",
    "C61_moc_plane_index",
    "C61_moc_geometry",
    "C61_identical_geometry_refuted"
   ],
   "note": "Refuted as stated: a core mesh accepts a macroplane whose planes have different pin meshes. Everything else is proved for all accepted cores with non-empty blocks, and identical geometry is proved for every core the MoC sweeper constructor accepts (it checks lattice ids)."
  },
  {
   "property": "C62",
   "status": "proved",
   "theorems": [
    "C62_equivalent_planes",
    "C62_unique_planes",
    "C62_scan_defined"
   ],
   "note": "Under the hypothesis that pin-mesh ids identify pin meshes, which holds because the meshes are stored in a map keyed by id."
  },
  {
   "property": "C63",
   "status": "partial",
   "theorems": [
    "C63_error",
    "C63_between_neighbours",
    "C63_upper_end_refuted"
   ],
   "note": "Refuted as stated at the upper end of the range, where the interpolation reads one past the table. Below it the read is in range and the relative error bound is proved."
  },
  {
   "property": "C64",
   "status": "proved",
   "theorems": [
    "C64_leakage",
    "C64_telescopes"
   ],
   "note": "add_tl over arbitrary macroplane heights, currents and pin counts with relaxation: the new leakage is the weighted mean of the axial current difference and the old leakage; with no relaxation the heights-weighted leakages of a column telescope to bottom minus top of the core."
  },
  {
   "property": "C65",
   "status": "partial",
   "theorems": [
    "C65_round_trip_one_macroplane",
    "C65_round_trip_refuted",
    "C65_several_files",
    "C65_overlap_refused",
    "C65_uncovered_refuted",
    "C65_default_top_refuted"
   ],
   "note": "Refuted as stated. Proved: with one macroplane what output wrote is read back exactly; several files with explicit, disjoint plane ranges fill exactly the macroplanes they name; overlapping ranges are refused. Refuted: with two or more macroplanes the written file is never readable (read buffer of one plane against data sets of all planes); a top_plane left at its default is accepted by the checks, then refused; a macroplane named by no tag is accepted silently and keeps 0.5 and 1."
  },
  {
   "property": "C66",
   "status": "proved",
   "theorems": [
    "C66_zero_radial"
   ],
   "note": "zero_partial=false leaves partial currents alone; both cases covered."
  },
  {
   "property": "C67",
   "status": "partial",
   "theorems": [
    "C67_source_stream_refuted"
   ],
   "note": "Refuted as stated: the theorem shows the source stream and history 0 coincide."
  },
  {
   "property": "C68",
   "status": "proved",
   "theorems": [
    "C68_segment_intersection",
    "C68_parallel_not_reported"
   ],
   "note": "Exact real arithmetic."
  },
  {
   "property": "C69",
   "status": "proved",
   "theorems": [
    "C69_circle_intersection",
    "C69_tangent_reported"
   ],
   "note": "Exact real arithmetic; the tangent test of the code is shown to be dead (a tangent is reported as two equal points)."
  },
  {
   "property": "C71",
   "status": "proved",
   "theorems": [
    "C71_product_weights_sum",
    "C71_update_weights",
    "C71_azimuthal_weights"
   ],
   "note": "Exact reals; std::sort/std::unique that extract the azimuthal angles are not modelled."
  },
  {
   "property": "C72",
   "status": "proved",
   "theorems": [
    "C72_direction_consistent",
    "C72_direction_unit",
    "C72_direction_reflect"
   ],
   "note": "Exact reals."
  },
  {
   "property": "C73",
   "status": "proved",
   "theorems": [
    "C73_initialize_scalar"
   ],
   "note": ""
  },
  {
   "property": "C74",
   "status": "partial",
   "theorems": [
    "C74_equal_if_dense_equal",
    "C74_equality_refuted"
   ],
   "note": "Refuted as stated: two different non-negative 3-group matrices compare equal. The other direction is proved."
  },
  {
   "property": "C75",
   "status": "partial",
   "theorems": [
    "C75_unique_name",
    "C75_duplicate_names_refuted"
   ],
   "note": "Refuted as stated: duplicate names are accepted and the first material becomes unreachable. Proved for names that occur once."
  },
  {
   "property": "C77",
   "status": "partial",
   "theorems": [
    "C77_assembly_order",
    "C77_assembly_acceptance",
    "C77_heights_refuted"
   ],
   "note": "Refuted for heights: a non-positive uniform height is accepted and leaves no heights at all, and negative heights in a list are accepted. Order, blocks, common grid and acceptance are proved."
  },
  {
   "property": "C78",
   "status": "partial",
   "theorems": [
    "C78_core_map",
    "C78_negative_dimensions_refuted",
    "C78_one_enabled_core"
   ],
   "note": "Refuted for two negative dimensions whose product matches the list. Proved for positive dimensions."
  },
  {
   "property": "C81",
   "status": "partial",
   "theorems": [
    "C81_trig",
    "C81_trig_defined",
    "C81_pin_modular",
    "C81_rational",
    "C81_shallow_refuted",
    "C81_rational_slope_refuted",
    "C81_rational_spacing_refuted"
   ],
   "note": "Refuted as stated. TRIG is proved (counts even and positive, spacing never above the request, slope close). RATIONAL is proved for angles up to 45 degrees or domains at least as high as wide; otherwise spacing and slope are refuted, and shallow angles reach undefined behaviour."
  },
  {
   "property": "C83",
   "status": "partial",
   "theorems": [
    "C83_density",
    "C83_height_refuted"
   ],
   "note": "Refuted as stated (C83_height_refuted): the worker uses the height of the plane whose number is the macroplane's index. C83_density gives the exact height used, and correctness when the heights agree."
  },
  {
   "property": "C84",
   "status": "proved",
   "theorems": [
    "C84_weights",
    "C84_cell_balance",
    "C84_deposits"
   ],
   "note": "Over the coarse ray records of C33; the entry faces and the path of each direction through the mesh are hypotheses (path_ok, entry_ok) with a worked instance; floating point as reals."
  },
  {
   "property": "C82",
   "status": "partial",
   "theorems": [
    "C82_each_slot_once",
    "C82_nonneg",
    "C82_incoming_refuted"
   ],
   "note": "Refuted as stated (C82_incoming_refuted): the coarse cell number is used as the surface number. Proved: each boundary slot is updated exactly once and stays non-negative."
  },
  {
   "property": "C85",
   "status": "partial",
   "theorems": [
    "C85_round_trip",
    "C85_multi",
    "C85_multi_total",
    "C85_missing_refuted",
    "C85_fissile_refuted",
    "C85_update"
   ],
   "note": "Refuted as stated: uncovered macroplanes are accepted silently, and homogenised regions are never marked fissile. Proved: round trip of each data set, plane-wise files, no overlap accepted, no out-of-range access, values and removal after an update. HDF5 itself is not modelled (data sets are arrays)."
  },
  {
   "property": "C86",
   "status": "proved",
   "theorems": [
    "C86_partition"
   ],
   "note": "Permutation of the pin cells, and membership of each region, for every pin order filling the plane and every stack of macroplanes."
  },
  {
   "property": "C87",
   "status": "partial",
   "theorems": [
    "C87_reaction",
    "C87_spectrum",
    "C87_reaction_refuted"
   ],
   "note": "Refuted without the condition that scattering plus fission is at most the transport cross section (C87_reaction_refuted). Proved under it, and for the spectrum table."
  },
  {
   "property": "C88",
   "status": "partial",
   "theorems": [
    "C88_pin_powers",
    "C88_planes_refuted",
    "C88_residual"
   ],
   "note": "Refuted as stated with several planes (C88_planes_refuted: the array sums to the fuel pins of one plane). C88_pin_powers: region sums, placement, one common factor, total equal to the 2-D fuel count; C88_residual: zero exactly when unchanged, symmetric, non-negative."
  },
  {
   "property": "C89",
   "status": "proved",
   "theorems": [
    "C89_faces",
    "C89_balance",
    "C89_balance_2d"
   ],
   "note": "C89_balance (three dimensions), C89_balance_2d, C89_faces: for any schedule, boundary update and balanced cell equation."
  },
  {
   "property": "C90",
   "status": "proved",
   "theorems": [
    "C90_schedule"
   ],
   "note": "C90_schedule."
  },
  {
   "property": "C91",
   "status": "proved",
   "theorems": [
    "C91_infinite_medium"
   ],
   "note": "C91_infinite_medium."
  },
  {
   "property": "C92",
   "status": "partial",
   "theorems": [
    "C92_refuted",
    "C92_interior",
    "C92_high",
    "C92_low"
   ],
   "note": "Refuted as stated: C92_refuted (west, south and bottom vacuum sides use the wrong weight, so a partial current enters). C92_interior, C92_high and the reflecting part of C92_low are proved; C92_low says what is stored otherwise."
  },
  {
   "property": "C70",
   "status": "partial",
   "theorems": [
    "C70_alpha",
    "C70_unique",
    "C70_refuted"
   ],
   "note": "Refuted as stated: C70_refuted (2 pi and 3 pi on the x axis). C70_alpha and C70_unique: right for every point off the x axis."
  },
  {
   "property": "C93",
   "status": "partial",
   "theorems": [
    "C93_cyl",
    "C93_cyl_lengths",
    "C93_horizontal_refuted",
    "C93_rect_lengths",
    "C93_rect"
   ],
   "note": "Refuted as stated: C93_horizontal_refuted (horizontal chords are sorted wrongly). C93_rect, C93_rect_lengths, C93_cyl and C93_cyl_lengths prove lengths and regions for rising chords (cylindrical: 2, 4 or 6 sectors), with point comparison exact."
  },
  {
   "property": "C94",
   "status": "partial",
   "theorems": [
    "C94_rect",
    "C94_rect_refuted",
    "C94_cyl",
    "C94_cyl_total",
    "C94_cyl_refuted"
   ],
   "note": "Refuted as stated: C94_rect_refuted (points of the left or bottom edge) and C94_cyl_refuted (points of the x axis). C94_rect, C94_cyl and C94_cyl_total prove the claim for the other points."
  },
  {
   "property": "C96",
   "status": "partial",
   "theorems": [
    "C96_centre",
    "C96_entering",
    "C96_refuted",
    "C96_azimuthal",
    "C96_eight_refuted"
   ],
   "note": "Refuted as stated: C96_refuted (from a point inside, the point behind is returned; a ray to a corner gives none) and C96_eight_refuted (with eight sectors the diagonals are not drawn). C96_centre, C96_entering and C96_azimuthal prove it from the centre, from outside, and for 2, 4 and 6 sectors."
  },
  {
   "property": "C97",
   "status": "partial",
   "theorems": [
    "C97_outer",
    "C97_six_refuted"
   ],
   "note": "Refuted as stated: C97_six_refuted (six sectors get equal areas though their shapes differ). C97_outer proves it for 2, 4 and 8 sectors."
  },
  {
   "property": "C98",
   "status": "proved",
   "theorems": [
    "C98_sweep"
   ],
   "note": "C98_sweep, for the isotropic source and unsplit cross sections."
  },
  {
   "property": "C99",
   "status": "proved",
   "theorems": [
    "C99_record",
    "C99_zero",
    "C99_converged"
   ],
   "note": "C99_record, C99_zero, C99_converged; without CMFD acceleration."
  },
  {
   "property": "C76",
   "status": "partial",
   "theorems": [
    "C76_ulp",
    "C76_relative",
    "C76_order",
    "C76_equiv_sound",
    "C76_equiv_reflexive",
    "C76_equiv_symmetric",
    "C76_refuted"
   ],
   "note": "Refuted as stated: C76_refuted (numbers of opposite sign compare equal in units of last place, negative zero overflows, not transitive). C76_ulp, C76_relative, C76_order, C76_equiv_sound, C76_equiv_reflexive and C76_equiv_symmetric prove it within one sign and for the combined comparison."
  },
  {
   "property": "C95",
   "status": "partial",
   "theorems": [
    "C95_line",
    "C95_circle",
    "C95_rect",
    "C95_rect_region",
    "C95_cyl",
    "C95_cyl_region",
    "C95_refuted"
   ],
   "note": "Refuted as stated: C95_refuted (a line ahead within the tolerance is not seen). C95_line, C95_circle, C95_rect, C95_rect_region, C95_cyl and C95_cyl_region prove it when the surfaces are clear of the tolerances."
  },
  {
   "property": "C100",
   "status": "partial",
   "theorems": [
    "C100_isotropic",
    "C100_every_direction",
    "C100_refuted"
   ],
   "note": "Refuted as stated: C100_refuted (the second number may be zero; the stored reciprocal of the sine is then a division by zero). C100_isotropic and C100_every_direction prove it for all other pairs."
  },
  {
   "property": "C101",
   "status": "partial",
   "theorems": [
    "C101_scatter",
    "C101_capture",
    "C101_fission",
    "C101_yield",
    "C101_refuted"
   ],
   "note": "Refuted as stated: C101_refuted (the random number zero picks scattering in a material that does not scatter and divides by zero). C101_scatter, C101_fission, C101_capture and C101_yield prove it otherwise."
  },
  {
   "property": "C102",
   "status": "partial",
   "theorems": [
    "C102_exit",
    "C102_refuted"
   ],
   "note": "Refuted as stated: C102_refuted (on a face the particle is leaving through, that face is not seen). C102_exit proves it strictly inside."
  },
  {
   "property": "C103",
   "status": "partial",
   "theorems": [
    "C103_move",
    "C103_reflect",
    "C103_refuted"
   ],
   "note": "Refuted as stated: C103_refuted (every move is nudged past its end). C103_move bounds the nudge and says which side it is on, C103_reflect follows a reflection."
  },
  {
   "property": "C104",
   "status": "partial",
   "theorems": [
    "C104_rect",
    "C104_rect_leaves",
    "C104_rect_refuted",
    "C104_cyl",
    "C104_cyl_refuted"
   ],
   "note": "Refuted as stated: C104_cyl_refuted (angles are compared without regard to wrapping: on a line between sectors the sector behind may be given), C104_rect_refuted (read past the end of the edges for a point beyond the last one). C104_rect, C104_rect_leaves and C104_cyl prove it when edges are met exactly or clear of the tolerances and the angles differ by less than half a turn."
  },
  {
   "property": "C105",
   "status": "proved",
   "theorems": [
    "C105_scores",
    "C105_particle",
    "C105_free_path",
    "C105_track"
   ],
   "note": "Over any answers the mesh gives about places, surfaces and regions (those are C102, C104, C95, C106 and C107)."
  },
  {
   "property": "C106",
   "status": "partial",
   "theorems": [
    "C106_reported",
    "C106_face",
    "C106_inside",
    "C106_returned",
    "C106_refuted"
   ],
   "note": "Refuted as stated: C106_refuted (west-south edge, both reflecting: only the west face is seen, the particle ends outside heading out, and finding its pin reads out of range). C106_reported says exactly which faces are seen; C106_face, C106_returned and C106_inside prove it for one face."
  },
  {
   "property": "C107",
   "status": "partial",
   "theorems": [
    "C107_plane",
    "C107_plane_refuted",
    "C107_location",
    "C107_location_refuted"
   ],
   "note": "Refuted as stated: C107_location_refuted (on the boundary of two pins heading up: position and box of one, mesh and region of the other), C107_plane_refuted (error on an interface with no vertical motion; read past the end above the core). C107_location proves it for an accepted core whose lattices line up, everywhere but on the lower boundary of a pin heading up."
  },
  {
   "property": "C108",
   "status": "proved",
   "theorems": [
    "C108_boundary_sweep",
    "C108_sweep",
    "C108_nonnegative",
    "C108_boundary",
    "C108_currents"
   ],
   "note": "C108_sweep: the whole group sweep as a chain of passes followed by the clean-up; C108_boundary / C108_boundary_sweep: incoming data in both update modes; C108_currents: recorded currents balance every cell (3-D), other groups kept; C108_nonnegative."
  },
  {
   "property": "C109",
   "status": "partial",
   "theorems": [
    "C109_ratio",
    "C109_first_partial",
    "C109_nonneg",
    "C109_first_refuted"
   ],
   "note": "Refuted as stated: without partial currents of the previous iteration the code takes the partial current leaving the domain, not the one entering (C109_first_refuted). C109_first_partial says what is taken. The matching of elements with surfaces, the scaling by ratios and the sign are proved."
  },
  {
   "property": "C110",
   "status": "partial",
   "theorems": [
    "C110_segments",
    "C110_core",
    "C110_tall_refuted"
   ],
   "note": "Refuted as stated for cores taller than wide: the lines between columns of pins are drawn only up to the height of the core's width, so a ray above that is not cut there (C110_tall_refuted). Proved for cores no taller than wide, rays whose crossings the point comparison tells apart and whose pieces do not run within the comparison tolerance of a pin boundary."
  },
  {
   "property": "C111",
   "status": "partial",
   "theorems": [
    "C111_ray",
    "C111_corner_refuted"
   ],
   "note": "Refuted as stated for rays ending in a corner of the core: such a ray is recorded as leaving the core and then crossing a surface of a cell that does not exist (C111_corner_refuted). Proved for all other rays that are neither horizontal nor vertical, in cores no taller than wide (see C110), with between 1 and 255 segments per pin and cuts that the comparisons tell apart from the pin boundaries they are not on."
  },
  {
   "property": "C80",
   "status": "partial",
   "theorems": [
    "C80_volumes",
    "C80_each",
    "C80_unaligned_refuted"
   ],
   "note": "Refuted as stated for cores whose lattices do not line up: such a core is accepted but its volumes read a plane height past the end (C80_unaligned_refuted). Proved for lined-up cores: one volume per region under every treatment, each the area of its region times the height, adding up to the volume of the core."
  },
  {
   "property": "C79",
   "status": "partial",
   "theorems": [
    "C79_pin_partial",
    "C79_region_refuted"
   ],
   "note": "Refuted as stated (C79_region_refuted): the region within the pin is looked up at the centre of the pin in core coordinates instead of at the point, so for every pin whose centre is farther than half a pitch from the core's origin the answer is one less than the first region of the pin. Proved: plane and pin are the right ones and the answer is exactly that (C79_pin_partial)."
  },
  {
   "property": "C112",
   "status": "proved",
   "theorems": [
    "C112_pin_powers"
   ],
   "note": "Powers of the regions as in C88; three-dimensional and two-dimensional arrays, the common factor and what it makes them add up to."
  },
  {
   "property": "C113",
   "status": "partial",
   "theorems": [
    "C113_balance",
    "C113_subplane_refuted"
   ],
   "note": "Refuted as stated when planes are grouped: the cross section is looked up by cell number, but homogenised regions hold several cells, so the lookup leaves the array (C113_subplane_refuted). Proved in three dimensions for cross-section regions numbered like the cells, for every balanced cell equation."
  },
  {
   "property": "C114",
   "status": "proved",
   "theorems": [
    "C114_schedule",
    "C114_refused",
    "C114_zero_modulo"
   ],
   "note": "The sweepers are arbitrary transformations of a common state. A modulo of zero is accepted by the input and undefined (C114_zero_modulo)."
  },
  {
   "property": "C115",
   "status": "partial",
   "theorems": [
    "C115_projection",
    "C115_negative_throws",
    "C115_negative_refuted"
   ],
   "note": "Refuted as stated for negative Sn pin fluxes: they are announced as corrected and set to zero, but the MoC sweeper refuses zeros, so such a sweep always throws (C115_negative_throws, C115_negative_refuted). Everything else is proved for every sweep that ends normally."
  },
  {
   "property": "C116",
   "status": "partial",
   "theorems": [
    "C116_handover",
    "C116_subplanes_refuted"
   ],
   "note": "Refuted as stated when a macroplane has several planes: the values of the macroplane mesh are written as if they were those of the full mesh (C116_subplanes_refuted). Proved with one plane per macroplane."
  },
  {
   "property": "C117",
   "status": "proved",
   "theorems": [
    "C117_cmfd_step"
   ],
   "note": "The CMFD solver itself is any function here (CMFD is the subject of C18, C19 and others); without discrepant_flux_update."
  },
  {
   "property": "C118",
   "status": "partial",
   "theorems": [
    "C118_single",
    "C118_2d3d_refuted"
   ],
   "note": "Refuted as stated for the 2D3D sweeper: the sum stops at the number of regions of one sweeper although the source holds those of both, so a change among the last MoC regions gives an error of zero (C118_2d3d_refuted). Proved for the single-mesh sweepers."
  },
  {
   "property": "C119",
   "status": "proved",
   "theorems": [
    "C119_ray",
    "C119_angle",
    "C119_defined"
   ],
   "note": "The fluxes and attenuations are those of MocModel.v sweep_ray for the same segments."
  },
  {
   "property": "C120",
   "status": "partial",
   "theorems": [
    "C120_square",
    "C120_oblong_refuted"
   ],
   "note": "Refuted as stated for cells that are not square: the sums on x-normal faces are divided by the cell width in x and those on y-normal faces by the width in y, so a flat flux is not reproduced in a 1 by 2 cell (C120_oblong_refuted). Proved for square cells whose ray length times spacing gives the cell area."
  },
  {
   "property": "C121",
   "status": "proved",
   "theorems": [
    "C121_residual",
    "C121_zero"
   ],
   "note": "Angles and planes must write disjoint factors, as those of a sweep do."
  },
  {
   "property": "C122",
   "status": "partial",
   "theorems": [
    "C122_currents",
    "C122_surface_flux_refuted"
   ],
   "note": "Refuted as stated for surface fluxes: the correction worker subtracts the fluxes of the backward direction, so a flux of one in all directions gives a surface flux of zero (C122_surface_flux_refuted). Proved for the currents."
  },
  {
   "property": "C123",
   "status": "partial",
   "theorems": [
    "C123_ray",
    "C123_weights",
    "C123_positive",
    "C123_after",
    "C123_subplane_refuted"
   ],
   "note": "Refuted as stated when a macroplane has several planes: only currents are spread over the planes, the surface fluxes of the upper planes stay zero (C123_subplane_refuted). Proved: the tally of rays, its sign, and the division by areas."
  },
  {
   "property": "C124",
   "status": "partial",
   "theorems": [
    "C124_last",
    "C124_alone",
    "C124_idle",
    "C124_shared_refuted",
    "C124_stale_refuted"
   ],
   "note": "Refuted as stated when both users update: scattering matrices and the state counter are not shared while the other cross sections are, so the one that did not update last has removal unequal to transport less self-scattering (C124_shared_refuted), and with one group its expanded cross sections stay old (C124_stale_refuted). Proved: the one that updated last, and any history in which only one updates."
  },
  {
   "property": "C125",
   "status": "proved",
   "theorems": [
    "C125_copy"
   ],
   "note": "Pins must fill the plane (fills), which C40 and others establish."
  },
  {
   "property": "C126",
   "status": "partial",
   "theorems": [
    "C126_accepted",
    "C126_octants",
    "C126_usable",
    "C126_axis_refuted",
    "C126_vertical_refuted",
    "C126_negative_refuted"
   ],
   "note": "Refuted as stated: angles in a coordinate plane, vertical angles (also by leaving out theta) and first-octant directions with a negative polar angle (negative reciprocal sine, and leaving the octant when rays are laid out) are accepted. Proved: weights, unit length, octant places, and full usability for angles off the axes with a positive polar angle."
  },
  {
   "property": "C127",
   "status": "partial",
   "theorems": [
    "C127_round_trip",
    "C127_made",
    "C127_accepted",
    "C127_short_refuted",
    "C127_layout_refuted",
    "C127_negative_refuted"
   ],
   "note": "Refuted as stated: the lengths of the theta and alpha arrays and the octant layout are not checked, and a negative polar angle comes back with another reciprocal sine. Proved: the round trip for everything the generators make, and what an accepted file gives."
  },
  {
   "property": "C128",
   "status": "partial",
   "theorems": [
    "C128_assign",
    "C128_product",
    "C128_user_refuted"
   ],
   "note": "Refuted as stated: quadratures without counts (user-specified, level-symmetric) pass the check whatever their sizes. Proved: when it is refused, exact copy, and that product quadratures never change size."
  },
  {
   "property": "C129",
   "status": "proved",
   "theorems": [
    "C129_update",
    "C129_collapsed",
    "C129_others",
    "C129_layout"
   ],
   "note": "Sorting and de-duplication are modelled; the comparison of doubles is any reflexive comparison."
  },
  {
   "property": "C130",
   "status": "proved",
   "theorems": [
    "C130_pairs",
    "C130_slope",
    "C130_fixed",
    "C130_weight"
   ],
   "note": "For every number of passes; how many passes are made depends on rounding and is not modelled."
  },
  {
   "property": "C131",
   "status": "proved",
   "theorems": [
    "C131_unchanged",
    "C131_stationary",
    "C131_eigenvalue"
   ],
   "note": "The linear solver is a parameter: what is needed of it is that it returns a guess that solves the system already, or (converse) that it solves. All iterations up to the limit are made on an exact start, see C44_exact_start."
  },
  {
   "property": "C132",
   "status": "partial",
   "theorems": [
    "C132_scaled",
    "C132_coefficients",
    "C132_refuted"
   ],
   "note": "Refuted as stated: the tolerance on the fission source is absolute, so the decision to stop depends on the normalisation. Proved: everything scales when that tolerance is scaled along, and the matrices are the same."
  },
  {
   "property": "C133",
   "status": "proved",
   "theorems": [
    "C133_options"
   ],
   "note": "Text that is no number is read as -1 and refused."
  },
  {
   "property": "C134",
   "status": "proved",
   "theorems": [
    "C134_exact",
    "C134_accepted",
    "C134_order"
   ],
   "note": "Documents are trees of elements, attributes and text as the default parsing leaves them; the parser itself is a parameter."
  },
  {
   "property": "C135",
   "status": "partial",
   "theorems": [
    "C135_refuted",
    "C135_one"
   ],
   "note": "Refuted as stated: of several elements of the same name the first is changed silently (C135_refuted). C135_one: an accepted amendment sets one of the values the path fits, and when there is only one, that one."
  },
  {
   "property": "C136",
   "status": "proved",
   "theorems": [
    "C136_command_line",
    "C136_unique"
   ],
   "note": "An argument starting with a dash other than -a counts as the file name; empty arguments before the file name are skipped."
  },
  {
   "property": "C137",
   "status": "partial",
   "theorems": [
    "C137_extension",
    "C137_no_extension",
    "C137_refuted",
    "C137_tag"
   ],
   "note": "Refuted as stated: the last dot is searched in the whole path, so ./in gives an empty name. Proved with an extension, or without one when no directory has a dot; C137_tag for the name given in the input."
  },
  {
   "property": "C138",
   "status": "proved",
   "theorems": [
    "C138_round_trip",
    "C138_vector",
    "C138_frame",
    "C138_accepted",
    "C138_paths",
    "C138_groups",
    "C138_group_accepted"
   ],
   "note": "Files are trees of groups and data sets of values of any type; the HDF5 library is modelled by creating, finding and replacing nodes. No axioms."
  },
  {
   "property": "C139",
   "status": "proved",
   "theorems": [
    "C139_read_same_rank",
    "C139_vector",
    "C139_write_right"
   ],
   "note": "An array given with no elements takes any size (C138); reading into a non-contiguous array aborts the program."
  },
  {
   "property": "C140",
   "status": "proved",
   "theorems": [
    "C140_read_only",
    "C140_calls",
    "C140_open"
   ],
   "note": "Ranges over reads, writes, creating groups and asking for dimensions; opening files and entering groups are C147."
  },
  {
   "property": "C141",
   "status": "proved",
   "theorems": [
    "C141_elapsed",
    "C141_toc",
    "C141_child"
   ],
   "note": "The clock is any sequence of real readings."
  },
  {
   "property": "C142",
   "status": "partial",
   "theorems": [
    "C142_toc_refuted",
    "C142_start_refuted",
    "C142_first"
   ],
   "note": "Refuted as stated: stopping returns the accumulated total (C142_toc_refuted), and a timer asked for again under the same name is not started (C142_start_refuted). C142_first: both hold for the first run of a new name."
  },
  {
   "property": "C143",
   "status": "proved",
   "theorems": [
    "C143_counts",
    "C143_attributes"
   ],
   "note": ""
  },
  {
   "property": "C144",
   "status": "proved",
   "theorems": [
    "C144_sn",
    "C144_2d3d",
    "C144_ends",
    "C144_solver",
    "C144_threads"
   ],
   "note": "Only the choice is modelled: making the sweeper chosen can still fail. Text comparisons for the plain Sn sweeper are exact; those of the corrected ones ignore case and surrounding space."
  },
  {
   "property": "C145",
   "status": "partial",
   "theorems": [
    "C145_refuted",
    "C145_same"
   ],
   "note": "Refuted as stated: CDD in capitals is accepted within 2D3D but refused alone, and with no equation given the two choose different ones. C145_same: equal when the equation is given as documented."
  },
  {
   "property": "C146",
   "status": "partial",
   "theorems": [
    "C146_lower_rank_refuted",
    "C146_higher_rank_refuted",
    "C146_write_refuted"
   ],
   "note": "Refuted as stated: a data set of lower rank fills part of the array silently, one of higher rank makes the check read past the extents, writes given dimensions with other numbers of values run past the end of memory. The accepted cases are C138 and C139."
  },
  {
   "property": "C147",
   "status": "partial",
   "theorems": [
    "C147_refuted"
   ],
   "note": "Refuted as stated: opening a missing file and entering a missing group raise the library exception, which nothing in the wrapper catches. The other calls are C140."
  },
  {
   "property": "C148",
   "status": "proved",
   "theorems": [
    "C148_run",
    "C148_sn",
    "C148_moc"
   ],
   "note": "C148_run for any sweeper meeting the contract, C148_sn for the Sn sweeper, C148_moc for the MoC sweeper. Extinguished fission is the only way to the undefined outcome."
  },
  {
   "property": "C149",
   "status": "proved",
   "theorems": [
    "C149_step",
    "C149_balance"
   ],
   "note": "C149_step for every iteration and group, C149_balance at a fixed point. The mesh is three-dimensional; cell equations are those shown to conserve neutrons in C46."
  },
  {
   "property": "C150",
   "status": "proved",
   "theorems": [
    "C150_level_symmetric",
    "C150_s2",
    "C150_octants",
    "C150_product"
   ],
   "note": "Real arithmetic. C150_level_symmetric, C150_s2, C150_product, C150_octants."
  },
  {
   "property": "C151",
   "status": "partial",
   "theorems": [
    "C151_refuted"
   ],
   "note": "Refuted as stated: S12 and S14 read the weight maps of S14 and S16, so the z moment is above 0.34 and the x and y moments below 0.33. The orders up to 10 are C150."
  },
  {
   "property": "C152",
   "status": "proved",
   "theorems": [
    "C152_outcome",
    "C152_made"
   ],
   "note": "For Gauss polar angles the sum of the weights is conditional on the polar weights not summing to zero (sums over Newton iterates)."
  },
  {
   "property": "C153",
   "status": "proved",
   "theorems": [
    "C153_bounds",
    "C153_corrected"
   ],
   "note": "Real arithmetic. C153_bounds under the condition that the rays sweep at most the volume of each region; C153_corrected shows that the FLAT volume correction meets it."
  },
  {
   "property": "C154",
   "status": "partial",
   "theorems": [
    "C154_refuted"
   ],
   "note": "Refuted as stated: with rays that sweep more than the volume of a region (no volume correction) a positive source with nothing coming in gives a negative scalar flux. The condition under which it holds is C153."
  },
  {
   "property": "C155",
   "status": "proved",
   "theorems": [
    "C155_sweep",
    "C155_inner",
    "C155_balance",
    "C155_closed",
    "C155_open"
   ],
   "note": "Real arithmetic. C155_sweep and C155_inner for every sweep and inner iteration; C155_balance, C155_closed and C155_open for a stationary iteration with one inner iteration per group."
  },
  {
   "property": "C156",
   "status": "proved",
   "theorems": [
    "C156_moc",
    "C156_sn"
   ],
   "note": "Real arithmetic, for the MoC sweeper (C156_moc, with rays that sweep at most the volume of each region, as the volume correction ensures, C153) and for the Sn sweeper (C156_sn, with any cell equation that leaves a uniform flux alone, C46_uniform)."
  },
  {
   "property": "C157",
   "status": "proved",
   "theorems": [
    "C157_histories",
    "C157_means"
   ],
   "note": "Real arithmetic. Cycles are interleavings of histories (C105) over threads; a calculation that throws (entropy of a source outside the mesh) or meets undefined behaviour is a separate outcome."
  },
  {
   "property": "C158",
   "status": "proved",
   "theorems": [
    "C158_fluxes",
    "C158_powers"
   ],
   "note": "Real arithmetic."
  },
  {
   "property": "C159",
   "status": "proved",
   "theorems": [
    "C159_agree"
   ],
   "note": "Real arithmetic; for worlds where the regions found at a place are those of the pin there (placed)."
  },
  {
   "property": "C160",
   "status": "proved",
   "theorems": [
    "C160_accepted",
    "C160_source"
   ],
   "note": "Real arithmetic; groups exist for random numbers below 1 (C161_group_refuted shows what 1 does)."
  },
  {
   "property": "C161",
   "status": "partial",
   "theorems": [
    "C161_messages_refuted",
    "C161_inactive_refuted",
    "C161_group_refuted",
    "C161_refused"
   ],
   "note": "Refuted as stated: C161_messages_refuted (the bank is made before the checks, so the messages for a negative number of particles and for an empty input never appear), C161_inactive_refuted (more inactive cycles than cycles is accepted and tallies nothing), C161_group_refuted (the random number 1 gives a group that does not exist). Proved: C161_refused, the messages that do appear."
  },
  {
   "property": "C162",
   "status": "proved",
   "theorems": [
    "C162_regions",
    "C162_defined"
   ],
   "note": ""
  },
  {
   "property": "C163",
   "status": "proved",
   "theorems": [
    "C163_rational",
    "C163_trig",
    "C163_strict_refuted"
   ],
   "note": "Real arithmetic, angles in the open first quadrant. That different angles can coincide is C163_strict_refuted (the strict order is refuted)."
  },
  {
   "property": "C164",
   "status": "proved",
   "theorems": [
    "C164_matched"
   ],
   "note": "Real arithmetic; quadratures of the kinds listed in `usable`, core at least as sensible as `sensible` says."
  },
  {
   "property": "C165",
   "status": "proved",
   "theorems": [
    "C165_made",
    "C165_problem",
    "C165_eigenvalue"
   ],
   "note": "Real arithmetic. Hypotheses: spacing between boundary points well above the comparison tolerance (`resolved`, as in C26), tracing gives pieces of positive length in existing regions (`traceable`; C110 says when), flat or angle correction (without correction the volumes do not match, C29)."
  },
  {
   "property": "C166",
   "status": "proved",
   "theorems": [
    "C166_warned",
    "C166_missed_refuted",
    "C166_early_refuted"
   ],
   "note": "C166_missed_refuted and C166_early_refuted refute the two readings a user might take from the message."
  },
  {
   "property": "C167",
   "status": "proved",
   "theorems": [
    "C167_rays",
    "C167_refused",
    "C167_pins"
   ],
   "note": "A byte above 127 is undefined behaviour of tolower and is an outcome of its own."
  },
  {
   "property": "C168",
   "status": "proved",
   "theorems": [
    "C168_options",
    "C168_quadrature",
    "C168_idle"
   ],
   "note": "Texts are those of 7-bit characters for which the outcome is defined."
  },
  {
   "property": "C169",
   "status": "proved",
   "theorems": [
    "C169_macroplanes"
   ],
   "note": ""
  },
  {
   "property": "C170",
   "status": "proved",
   "theorems": [
    "C170_superposition",
    "C170_monotone"
   ],
   "note": "Real arithmetic; the interpolated exponential is any function."
  },
  {
   "property": "C171",
   "status": "proved",
   "theorems": [
    "C171_stable"
   ],
   "note": "Real arithmetic."
  },
  {
   "property": "C172",
   "status": "proved",
   "theorems": [
    "C172_contraction",
    "C172_converge"
   ],
   "note": "Real arithmetic; boundaries that reflect or repeat are covered by C171 only."
  },
  {
   "property": "C173",
   "status": "proved",
   "theorems": [
    "C173_positive",
    "C173_strict",
    "C173_monotone",
    "C173_unique",
    "C173_solver",
    "C173_tame",
    "C173_solve",
    "C173_refuted"
   ],
   "note": "Real arithmetic.  The linear solver (Eigen BiCGSTAB) is not modelled: C173_solve assumes that it solves its systems.  C173_refuted shows that the range of the corrections is needed."
  },
  {
   "property": "C174",
   "status": "proved",
   "theorems": [
    "C174_off",
    "C174_moc",
    "C174_iteration"
   ],
   "note": "Real arithmetic; the linear solver is assumed to return a guess that solves its system already (C173_solver derives this from solving).  The homogenised cross sections and currents enter as the CMFD problem made for the sweeper."
  },
  {
   "property": "C175",
   "status": "proved",
   "theorems": [
    "C175_record",
    "C175_taken",
    "C175_blind"
   ],
   "note": "Stated for any sweeper and any CMFD."
  },
  {
   "property": "C176",
   "status": "proved",
   "theorems": [
    "C176_flux",
    "C176_eigenvalue",
    "C176_run"
   ],
   "note": "Real arithmetic.  C176_run holds for any CMFD solve; C176_eigenvalue and C176_flux say when the listed exceptions cannot occur."
  },
  {
   "property": "C177",
   "status": "proved",
   "theorems": [
    "C177_status",
    "C177_zero",
    "C177_one",
    "C177_message",
    "C177_results"
   ],
   "note": "What the stages print and how they end is a parameter; allocation failure and errors of standard output are not modelled."
  },
  {
   "property": "C178",
   "status": "proved",
   "theorems": [
    "C178_log",
    "C178_unlogged",
    "C178_again",
    "C178_error"
   ],
   "note": "Streams are modelled by what they take and whether they have failed; buffering is not modelled, so what reaches the file when a process is killed is not covered.  The process-wide states of LogFile and LogScreen are as src/util/files.cpp sets them."
  },
  {
   "property": "C179",
   "status": "proved",
   "theorems": [
    "C179_first",
    "C179_later",
    "C179_thrown",
    "C179_failure"
   ],
   "note": "Interrupts are taken between the steps of run; that the handler calls functions a signal handler may not call, and an interrupt inside a step, are not modelled."
  },
  {
   "property": "C180",
   "status": "proved",
   "theorems": [
    "C180_contraction",
    "C180_converge",
    "C180_downscatter"
   ],
   "note": "Exact real arithmetic; no fission source (a fixed-source run has none); cross sections not split. The external source array an input can give has a value for each region and group as the source reads it only if there are as many groups as regions (see the property on external sources)."
  },
  {
   "property": "C181",
   "status": "proved",
   "theorems": [
    "C181_stops",
    "C181_error"
   ],
   "note": "As C180. If the very first iteration already satisfies the tolerance, the bound needs incoming fluxes that the iteration left as they were."
  },
  {
   "property": "C182",
   "status": "proved",
   "theorems": [
    "C182_superposition",
    "C182_scale"
   ],
   "note": "Exact real arithmetic; no fission source; stopping by an unscaled tolerance is not linear, hence the scaled tolerance in the statement."
  },
  {
   "property": "C183",
   "status": "proved",
   "theorems": [
    "C183_planes",
    "C183_bounds",
    "C183_whole",
    "C183_round_trip"
   ],
   "note": "Exact real arithmetic. The scattering data are taken to be for the groups of the mesh (see C184). Group boundaries in a file are not compared with those of the mesh."
  },
  {
   "property": "C184",
   "status": "proved",
   "theorems": [
    "C184_safe",
    "C184_accepts",
    "C184_rank_refuted",
    "C184_fewer_groups_refuted",
    "C184_more_groups_refuted",
    "C184_spill_refuted",
    "C184_empty_range"
   ],
   "note": "The statement lists what is not checked; each gap is proved with a concrete input (the _refuted theorems)."
  },
  {
   "property": "C185",
   "status": "proved",
   "theorems": [
    "C185_converge"
   ],
   "note": "Exact real arithmetic; the tabulated exponential of C63. The boundary conditions are those the sweep supports (C18): vacuum, reflecting and prescribed. The rate is independent of the source but depends on the thinnest ray."
  },
  {
   "property": "C186",
   "status": "proved",
   "theorems": [
    "C186_converge",
    "C186_stops"
   ],
   "note": "Exact real arithmetic; no fission source. The residual does not look at boundary fluxes, so no error bound is claimed at the stop (C181 has one for open boundaries)."
  },
  {
   "property": "C187",
   "status": "proved",
   "theorems": [
    "C187_reads",
    "C187_makes"
   ],
   "note": "A number is the exact decimal written: rounding to the nearest double is not modelled (overflow is). The constructor reading from an already open file, which only the tests use, is not modelled."
  },
  {
   "property": "C188",
   "status": "proved",
   "theorems": [
    "C188_accepts",
    "C188_ends",
    "C188_too_short",
    "C188_unused",
    "C188_headings_refuted",
    "C188_separation_refuted"
   ],
   "note": "The statement lists what is not checked; the headings and the unseparated numbers are proved with a concrete file (the _refuted theorems). Bytes above 127 on a line of numbers are undefined behaviour (tolower) and count as not accepted."
  },
  {
   "property": "C189",
   "status": "proved",
   "theorems": [
    "C189_sweep",
    "C189_vacuum",
    "C189_source",
    "C189_built"
   ],
   "note": "Exact real arithmetic; the tabulated exponential of C63 is any function of the optical length, reciprocity does not depend on its accuracy. Prescribed boundaries are excluded. C189_built discharges the assumptions about rays, weights and boundary arrays for set-up sweepers (as C165)."
  },
  {
   "property": "C190",
   "status": "proved",
   "theorems": [
    "C190_adjoint",
    "C190_limit"
   ],
   "note": "Exact real arithmetic; no fission source (the fixed-source solver has none). The cross sections of the sweeper are those of the mesh, and both problems are dominated (C186), which gives the solutions."
  },
  {
   "property": "C191",
   "status": "proved",
   "theorems": [
    "C191_written",
    "C191_shared",
    "C191_balance",
    "C191_merged",
    "C191_refuted"
   ],
   "note": "Currents are given by an arbitrary array; the balance theorem fills it as C42 says. The misplacement with merged planes is proved in general (C191_merged) and with a concrete core (C191_refuted). The data in the HDF5 file are the subject of C138-C140."
  },
  {
   "property": "C192",
   "status": "proved",
   "theorems": [
    "C192_sn",
    "C192_moc_powers",
    "C192_moc",
    "C192_scale",
    "C192_fixed",
    "C192_undefined"
   ],
   "note": "Exact real arithmetic; Normalize runs over the fluxes in another order, which real sums do not notice. A division by a zero total has no value in the model. The data in the HDF5 file are the subject of C138-C140."
  },
  {
   "property": "C193",
   "status": "proved",
   "theorems": [
    "C193_monotone",
    "C193_nonnegative",
    "C193_one_sided",
    "C193_solutions"
   ],
   "note": "Exact real arithmetic, as in C180-C186; every ray crosses at least one region. The statement on solutions needs scattering below the collisions, in the weighted sense of C180, and at least one inner iteration."
  },
  {
   "property": "C194",
   "status": "proved",
   "theorems": [
    "C194_largest",
    "C194_unique",
    "C194_fissile",
    "C194_medium"
   ],
   "note": "Exact real arithmetic, without CMFD acceleration; converged means that an iteration changes no flux at all. Hypotheses: those of C186 (rays cross regions, scattering below collisions in the weighted sense of C180, at least one inner iteration) and no prescribed incoming flux. That a positive solution exists is proved for the cores behind mirrors only; the theorem does not say that the iteration converges."
  },
  {
   "property": "C195",
   "status": "proved",
   "theorems": [
    "C195_above",
    "C195_below",
    "C195_shows"
   ],
   "note": "Exact real arithmetic, without CMFD acceleration; hypotheses of C194. The comparison of fluxes is for every region, group and incoming flux, not for the residual norm the code prints."
  },
  {
   "property": "C196",
   "status": "proved",
   "theorems": [
    "C196_inside",
    "C196_elsewhere",
    "C196_side",
    "C196_corner",
    "C196_west_east",
    "C196_south_north",
    "C196_plane",
    "C196_back"
   ],
   "note": "States what the function does, including where it departs from its declaration (planes) and where it reads outside the table (lower corners of the domain). The point must be on a line or clear of it by more than the comparison can tell; exact real arithmetic. Failed assertions are a separate outcome. The function is part of the public interface of the mesh but is not called by the solvers."
  },
  {
   "property": "C197",
   "status": "proved",
   "theorems": [
    "C197_drawn",
    "C197_lined",
    "C197_accepted"
   ],
   "note": "Exact real arithmetic up to the printing of numbers. The behaviour of the drawing library (current point, arcs joined to it, strokes) is written down in DrawProps.v as part of the statement; fixed text, scaling to the page and ray drawing are not modelled. The lines of the mesh are those of CoreMesh::lines, whose vertical ones end at the width of the core (see GeomModel.v)."
  },
  {
   "property": "C198",
   "status": "proved",
   "theorems": [
    "C198_listed",
    "C198_read_back",
    "C198_silent",
    "C198_first"
   ],
   "note": "Every angle must have a ray: for one without, the opening bracket is overwritten (Example C198_no_rays); the ray layout gives every angle at least one (C81). How Python reads lists, words and comments is written down in RayPyProps.v as part of the statement. Printing of numbers is a parameter: one word for a double, one line for an integer."
  },
  {
   "property": "C199",
   "status": "proved",
   "theorems": [
    "C199_above",
    "C199_below",
    "C199_unique",
    "C199_solver",
    "C199_fissile",
    "C199_bracket"
   ],
   "note": "Real arithmetic; the linear solver is assumed to solve its systems (C199_solver, C199_bracket).  That the passes converge is not proved."
  },
  {
   "property": "C200",
   "status": "proved",
   "theorems": [
    "C200_bracket",
    "C200_same",
    "C200_kept"
   ],
   "note": "CMFD is arbitrary in C200_bracket and C200_same (any factor and fluxes that it may return). That accelerated calculations converge is not proved; without it, C200_same says what they converge to if they do. C200_kept needs a CMFD problem consistent with the converged pin fluxes (C174). Real arithmetic."
  },
  {
   "property": "C201",
   "status": "proved",
   "theorems": [
    "C201_complete",
    "C201_names",
    "C201_values",
    "C201_same"
   ],
   "note": "Values are given (other properties say what they are) with the stated sizes; numbers and strings are treated alike. A hard link is modelled as a copy made when the link is made: C201 shows that nothing is written through either name afterwards. Messages to the log are left out."
  },
  {
   "property": "C202",
   "status": "proved",
   "theorems": [
    "C202_reads",
    "C202_same",
    "C202_short",
    "C202_missing"
   ],
   "note": "As in C187 and C188 numbers are exact decimals; rounding to doubles is not modelled. The largest double is stored for a number that is too large, as libstdc++ does. C202_reads takes a word as last entry of a scattering row to be zero; that a number too large becomes the largest double is shown on an example only (C202_instance_word)."
  },
  {
   "property": "C203",
   "status": "proved",
   "theorems": [
    "C203_source",
    "C203_refused",
    "C203_2d3d"
   ],
   "note": "The sweeper is taken to be made and the limits of the solver acceptable. How the external source is used, with groups and regions exchanged, is C40. Other exceptions of the HDF5 library than a failed opening are those of H5Model. Messages are left out."
  }
 ]
}