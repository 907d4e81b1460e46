{
 "claims": [
  {
   "property": "C01",
   "status": "proved",
   "theorems": [
    "C01_cj_energy_balance",
    "C01_cj_no_loss"
   ],
   "note": "Energy balance with the amount expelled through the oldest cell made explicit, and no loss before the grid is full; every call sequence, any number of sources, any increasing cell times."
  },
  {
   "property": "C02",
   "status": "proved",
   "theorems": [
    "C02_cj_exact"
   ],
   "note": "Exact superposition as long as the history fits in the leading cells of one time step."
  },
  {
   "property": "C03",
   "status": "proved",
   "theorems": [
    "C03_cj_bounds",
    "C03_cj_linear"
   ],
   "note": "Maximum principle for spacings of at least dt, and linearity in the load sequence."
  },
  {
   "property": "C04",
   "status": "proved",
   "theorems": [
    "C04_mlaa_refines",
    "C04_mlaa_energy",
    "C04_mlaa_exact_when_short",
    "C04_mlaa_runs"
   ],
   "note": "Refinement to the block-averaged history, total energy, exactness for short histories, no failure within the horizon. Level sizes at least 1 (numpy mean of an empty slice is nan otherwise)."
  },
  {
   "property": "C05",
   "status": "partial",
   "theorems": [
    "C05_liu_refines_partial",
    "C05_liu_energy_partial",
    "C05_liu_exact_when_short",
    "C05_liu_runs",
    "C05_liu_no_wait_W1_refuted",
    "C05_liu_no_wait_W2_refuted"
   ],
   "note": "Proved when all waiting periods are at least 1; refuted for W1 = 0 and for W2 = 0 (C05_liu_no_wait_W1_refuted, C05_liu_no_wait_W2_refuted)."
  },
  {
   "property": "C06",
   "status": "proved",
   "theorems": [
    "C06_time_ClaessonJaved",
    "C06_grid_unique",
    "C06_usable_by_load_aggregation"
   ],
   "note": "Termination of the loop, closed form of every time, first arrival at tmax, uniqueness, and fitness for the load aggregation scheme."
  },
  {
   "property": "C07",
   "status": "proved",
   "theorems": [
    "C07_time_MarcottePasquier",
    "C07_grid_unique",
    "C07_increasing"
   ],
   "note": "Termination, closed form of every time, first arrival at tmax, uniqueness."
  },
  {
   "property": "C08",
   "status": "partial",
   "theorems": [
    "C08_uniform",
    "C08_geometric",
    "C08_increasing",
    "C08_increasing_refuted",
    "C08_terminates"
   ],
   "note": "Shape, residual of the last step, and termination of the ratio search (Nt >= 2) proved for all inputs; strict increase proved for Nt <= 316 and tmax >= (Nt+1)*dt, and refuted for Nt = 4000, tmax = 4000.1*dt (C08_increasing_refuted). For Nt = 1 the exact iteration diverges (floats overflow to inf and then stop), so termination is stated for Nt >= 2."
  },
  {
   "property": "C09",
   "status": "proved",
   "theorems": [
    "C09_segment_ratios",
    "C09_exact_roots",
    "C09_root_order"
   ],
   "note": "Sound for any reported roots; with the exact real roots never fails, sums to one exactly, and does not depend on the order of the roots. numpy's root finder is an oracle."
  },
  {
   "property": "C10",
   "status": "proved",
   "theorems": [
    "C10_segments_on_axis",
    "C10_segments_partition",
    "C10_default_ratios",
    "C10_midpoints"
   ],
   "note": "Any tilt, orientation and ratios; axis positions, contact of consecutive segments, lengths, midpoints."
  },
  {
   "property": "C11",
   "status": "partial",
   "theorems": [
    "C11_distance_partial",
    "C11_symmetry_refuted"
   ],
   "note": "Symmetric for equal radii, lower bounds and translation invariance proved; symmetry refuted for overlapping boreholes of different radii (C11_symmetry_refuted)."
  },
  {
   "property": "C12",
   "status": "proved",
   "theorems": [
    "C12_find_duplicates"
   ],
   "note": "The decoding of the condensed index is proved for every list size, with the root of the code as a real root."
  },
  {
   "property": "C13",
   "status": "proved",
   "theorems": [
    "C13_remove_duplicates",
    "C13_no_duplicates_left",
    "C13_identity",
    "C13_idempotent"
   ],
   "note": "Sub-list, separation, coverage of every cluster, identity and idempotence."
  },
  {
   "property": "C14",
   "status": "proved",
   "theorems": [
    "C14_rectangle",
    "C14_row_order",
    "C14_legacy_rectangle",
    "C14_spacing"
   ],
   "note": "Layout, count, order, dimensions, spacing; both builders."
  },
  {
   "property": "C15",
   "status": "proved",
   "theorems": [
    "C15_L",
    "C15_U",
    "C15_box",
    "C15_counts",
    "C15_legacy_L",
    "C15_legacy_U",
    "C15_legacy_box"
   ],
   "note": "Layout as an exact set of lattice points without repetition, counts for all sizes including degenerate ones; both families of builders. N_2 = 0 raises in the L and U methods."
  },
  {
   "property": "C16",
   "status": "proved",
   "theorems": [
    "C16_staggered",
    "C16_staggered_line",
    "C16_staggered_spacing",
    "C16_dense",
    "C16_default_origin"
   ],
   "note": "Layout, counts, spacing, exact nearest neighbours of dense fields, default origin."
  },
  {
   "property": "C17",
   "status": "proved",
   "theorems": [
    "C17_circle"
   ],
   "note": "Radius, chord lengths (hence equal angles and distinctness), first position."
  },
  {
   "property": "C18",
   "status": "proved",
   "theorems": [
    "C18_constructor_ok",
    "C18_constructor",
    "C18_list_of_field",
    "C18_field_of_list",
    "C18_index",
    "C18_slice",
    "C18_add",
    "C18_add_assoc"
   ],
   "note": "Round trips, integer and slice indexing, concatenation and associativity for boreholes, lists and fields."
  },
  {
   "property": "C19",
   "status": "partial",
   "theorems": [
    "C19_unique_distance",
    "C19_classes",
    "C19_zero_tolerance_refuted"
   ],
   "note": "Proved for every positive tolerance, with termination; refuted for a tolerance of zero (C19_zero_tolerance_refuted)."
  },
  {
   "property": "C20",
   "status": "proved",
   "theorems": [
    "C20_accepts_chains",
    "C20_default",
    "C20_structure"
   ],
   "note": "Python indexing with negative integers and the fuel of the two loops are modelled; acceptance is equivalent to the specification."
  },
  {
   "property": "C21",
   "status": "proved",
   "theorems": [
    "C21_connections",
    "C21_unique",
    "C21_flow",
    "C21_accepts",
    "C21_inputs"
   ],
   "note": "Pipes enter through arbitrary coefficients; numpy.linalg.solve is Gaussian elimination in exact reals."
  },
  {
   "property": "C22",
   "status": "partial",
   "theorems": [
    "C22_ends",
    "C22_mixing_partial",
    "C22_scalar_flow",
    "C22_mixing_refuted"
   ],
   "note": "False in general: with unequal flows and circuits that do not end in the order in which they begin, the weights go to the wrong circuits (C22_mixing_refuted). Proved for reversed flow, equal flows (C22_scalar_flow) and ordered circuits (C22_mixing_partial)."
  },
  {
   "property": "C23",
   "status": "partial",
   "theorems": [
    "C23_sum",
    "C23_borehole",
    "C23_segments",
    "C23_by_circuit",
    "C23_network_partial",
    "C23_network_refuted"
   ],
   "note": "Sum over boreholes, over segments and by circuit proved; the form with the network outlet temperature is false when C22 is (C23_network_refuted) and proved otherwise (C23_network_partial)."
  },
  {
   "property": "C24",
   "status": "proved",
   "theorems": [
    "C24_equilibrium"
   ],
   "note": "For pipes that have the property themselves (pipe_neutral, C27)."
  },
  {
   "property": "C25",
   "status": "partial",
   "theorems": [
    "C25_same_arguments",
    "C25_scalar_flows",
    "C25_told_apart_partial",
    "C25_mixing_refuted",
    "C25_scalar_array_refuted"
   ],
   "note": "False in general (C25_mixing_refuted, C25_scalar_array_refuted). Proved for repeated calls with the same arguments, for single flows of the network that are farther apart than the tolerance, and for all methods but the network outlet temperature when calls are told apart."
  },
  {
   "property": "C26",
   "status": "proved",
   "theorems": [
    "C26_positive_circuits",
    "C26_coaxial_circuits",
    "C26_energy",
    "C26_boundary",
    "C26_continuous",
    "C26_unique"
   ],
   "note": "Existence and uniqueness: the returned profiles are the only continuous ones with these energy balances and end conditions."
  },
  {
   "property": "C27",
   "status": "proved",
   "theorems": [
    "C27_equilibrium",
    "C27_neutral"
   ],
   "note": ""
  },
  {
   "property": "C28",
   "status": "partial",
   "theorems": [
    "C28_heat_balance_partial",
    "C28_fluid",
    "C28_balanced",
    "C28_nonreversible_refuted"
   ],
   "note": "False for a negative flow with reversible_flow=False (C28_nonreversible_refuted); proved for positive flows and for reversible flows."
  },
  {
   "property": "C29",
   "status": "proved",
   "theorems": [
    "C29_coefficients",
    "C29_bounds",
    "C29_wide_spacing_refuted"
   ],
   "note": " C29_wide_spacing_refuted: a U-tube that can be built with pipes wide apart has a negative conductance between the legs in the line source approximation, and its outlet temperature passes beyond the wall temperature."
  },
  {
   "property": "C30",
   "status": "partial",
   "theorems": [
    "C30_nonreversible_partial",
    "C30_nonreversible_heat",
    "C30_heat_refuted",
    "C30_reversible"
   ],
   "note": "False for the heat extraction rates of the segments, which change sign (C30_heat_refuted, C30_nonreversible_heat); proved for all other results, and for reversible flows."
  },
  {
   "property": "C31",
   "status": "partial",
   "theorems": [
    "C31_history_partial",
    "C31_direction_refuted"
   ],
   "note": "False when the direction of the flow changes between calls (C31_direction_refuted); proved for calls told apart by the tolerance, with one direction of the flow or reversible_flow=False. Segment ratios are stored by value in the model."
  },
  {
   "property": "C32",
   "status": "proved",
   "theorems": [
    "C32_inverts",
    "C32_defined"
   ],
   "note": ""
  },
  {
   "property": "C33",
   "status": "proved",
   "theorems": [
    "C33_flows",
    "C33_wall",
    "C33_symmetric",
    "C33_local"
   ],
   "note": "Heat flows, wall heat, symmetry and local resistance, for any number of pipes and any invertible matrix (infinite circuit entries included)."
  },
  {
   "property": "C34",
   "status": "proved",
   "theorems": [
    "C34_symmetric",
    "C34_turned",
    "C34_multipole"
   ],
   "note": "Symmetry, rotation, agreement with the multipole method of order zero."
  },
  {
   "property": "C35",
   "status": "partial",
   "theorems": [
    "C35_utube",
    "C35_single",
    "C35_coaxial_partial",
    "C35_coaxial_accepts",
    "C35_coaxial_outside_refuted",
    "C35_coaxial_negative_refuted"
   ],
   "note": "U-tubes: equivalence with disks that fit (point sets), and construction with J=0 never fails otherwise. Coaxial: accepted whenever buildable, but refuted the other way: C35_coaxial_outside_refuted (outer pipe outside the borehole), C35_coaxial_negative_refuted (negative inner radius and resistances)."
  },
  {
   "property": "C36",
   "status": "partial",
   "theorems": [
    "C36_continuous",
    "C36_flow_continuous",
    "C36_close",
    "C36_reynolds",
    "C36_laminar",
    "C36_annulus_laminar",
    "C36_turbulent",
    "C36_transition",
    "C36_sign",
    "C36_annulus_friction_refuted"
   ],
   "note": "Continuity at every flow rate with any continuous friction law and with the Colebrook-White friction factor; the code is within (1 +- 1e-6)^2 of it; laminar values, Gnielinski from 4000 on, sign. The friction factor of the annulus is taken at another Reynolds number than that of the annulus: C36_annulus_friction_refuted."
  },
  {
   "property": "C37",
   "status": "partial",
   "theorems": [
    "C37_history_partial",
    "C37_tolerance_refuted"
   ],
   "note": "Proved for calls whose arguments are equal or differ beyond the tolerances; refuted within them (C37_tolerance_refuted). Arrays are stored by value in the model, the code keeps references."
  },
  {
   "property": "C38",
   "status": "proved",
   "theorems": [
    "C38_transient",
    "C38_steady",
    "C38_approximation",
    "C38_inclined"
   ],
   "note": "Transient, steady state and approximation for vertical boreholes; inclined boreholes with exact integration along the emitting one."
  },
  {
   "property": "C39",
   "status": "proved",
   "theorems": [
    "C39_receiver",
    "C39_emitter",
    "C39_receiver_steady",
    "C39_emitter_steady",
    "C39_receiver_approximation",
    "C39_emitter_approximation",
    "C39_inclined_receiver"
   ],
   "note": "Receiver and emitter, transient, steady state and approximation; receiver for boreholes of any inclination and any quadrature rule."
  },
  {
   "property": "C40",
   "status": "partial",
   "theorems": [
    "C40_transient",
    "C40_steady",
    "C40_approximation",
    "C40_inclined_steady",
    "C40_inclined_transient",
    "C40_inclined_self_refuted",
    "C40_inclined_self_all"
   ],
   "note": "Proved for vertical boreholes (transient, steady, approximation), for inclined steady state, and for inclined transient with heads at least one radius apart. False for every inclined borehole on itself: C40_inclined_self_refuted, C40_inclined_self_all."
  },
  {
   "property": "C41",
   "status": "proved",
   "theorems": [
    "C41_array",
    "C41_equivalent_array",
    "C41_inclined_array"
   ],
   "note": "Vertical, equivalent and inclined branches; times in any order."
  },
  {
   "property": "C42",
   "status": "partial",
   "theorems": [
    "C42_integrand",
    "C42_transient",
    "C42_steady",
    "C42_image_alone_refuted"
   ],
   "note": "Proved for the real part and the full transient solution, and for the image and steady state of boreholes at least one radius apart. The image alone of a borehole on itself differs: C42_image_alone_refuted."
  },
  {
   "property": "C43",
   "status": "proved",
   "theorems": [
    "C43_equivalent"
   ],
   "note": "Equality with the weighted mean over the distances."
  },
  {
   "property": "C44",
   "status": "proved",
   "theorems": [
    "C44_mean",
    "C44_conserves",
    "C44_range",
    "C44_constant",
    "C44_equal"
   ],
   "note": ""
  },
  {
   "property": "C45",
   "status": "proved",
   "theorems": [
    "C45_times"
   ],
   "note": ""
  },
  {
   "property": "C46",
   "status": "proved",
   "theorems": [
    "C46_ubwt",
    "C46_mift",
    "C46_uniform"
   ],
   "note": "The uniformity of wall temperatures is in C46_uniform: the same g-function value satisfies the equation of every source."
  },
  {
   "property": "C47",
   "status": "partial",
   "theorems": [
    "C47_uhtr",
    "C47_ubwt",
    "C47_mift_one",
    "C47_mift_fails",
    "C47_mift_refuted",
    "C47_mift_values_refuted"
   ],
   "note": "Proved for UHTR, UBWT and MIFT with one mass flow rate (C47_uhtr, C47_ubwt, C47_mift_one). False for several mass flow rates: C47_mift_refuted (ValueError as soon as there are times below the threshold, C47_mift_fails), C47_mift_values_refuted (wrong values when the number of such times equals that of the mass flow rates)."
  },
  {
   "property": "C48",
   "status": "partial",
   "theorems": [
    "C48_partition",
    "C48_segments",
    "C48_indices",
    "C48_accepted",
    "C48_integer",
    "C48_refuted"
   ],
   "note": "Proved for one number of segments and one list of ratios per borehole. C48_refuted: a list shorter than the number of boreholes is accepted and boreholes are dropped."
  },
  {
   "property": "C49",
   "status": "proved",
   "theorems": [
    "C49_self",
    "C49_reciprocal",
    "C49_response"
   ],
   "note": "C49_self and C49_reciprocal hold for any kernel, inclined fields included; C49_response identifies every entry for vertical fields at least a radius apart."
  },
  {
   "property": "C50",
   "status": "partial",
   "theorems": [
    "C50_once",
    "C50_kinds",
    "C50_filled",
    "C50_written",
    "C50_refuted"
   ],
   "note": "Proved: every borehole and every pair of boreholes is in exactly one group of the right kind (C50_once, C50_kinds); every entry of a matrix is written (C50_written); when the segments of each borehole are at distinct depths there is a matrix (C50_filled). False in general: index out of range for horizontal boreholes (C50_refuted)."
  },
  {
   "property": "C51",
   "status": "partial",
   "theorems": [
    "C51_exact",
    "C51_tolerance",
    "C51_refuted",
    "C51_inclined_refuted"
   ],
   "note": "Proved for vertical boreholes of which those of the same length are at the same depth: equal to the detailed solver when distinct distances are apart (C51_exact), otherwise within the distance tolerance (C51_tolerance). False without the condition on depths (C51_refuted) and for inclined boreholes (C51_inclined_refuted)."
  },
  {
   "property": "C52",
   "status": "proved",
   "theorems": [
    "C52_classes"
   ],
   "note": "Termination, classes and tolerance for every list of positive distances."
  },
  {
   "property": "C53",
   "status": "partial",
   "theorems": [
    "C53_several",
    "C53_single",
    "C53_refuted"
   ],
   "note": "False: C53_refuted; for every inclined borehole the response is overestimated (C53_single). With several boreholes the statement holds (C53_several)."
  },
  {
   "property": "C54",
   "status": "partial",
   "theorems": [
    "C54_partition",
    "C54_same",
    "C54_segments",
    "C54_refuted"
   ],
   "note": "False for fields whose boreholes of equal dimensions are not adjacent in the list: C54_refuted. Every borehole is in exactly one equivalent borehole for every field (C54_partition); same dimensions and conserved length for fields in blocks (C54_same, C54_segments)."
  },
  {
   "property": "C55",
   "status": "proved",
   "theorems": [
    "C55_weights",
    "C55_pairs",
    "C55_close"
   ],
   "note": "Weights, number of pairs and closeness of the distances for every field."
  },
  {
   "property": "C56",
   "status": "partial",
   "theorems": [
    "C56_mixed_stored",
    "C56_mixed_refuted",
    "C56_mixed_nothing_stored",
    "C56_equal",
    "C56_equal_array_refuted"
   ],
   "note": "False of mixed_inlet_temperature: C56_mixed_refuted, C56_mixed_nothing_stored (C56_mixed_stored says what it computes); and of equal_inlet_temperature with an array of flows: C56_equal_array_refuted. True of equal_inlet_temperature with a number: C56_equal."
  },
  {
   "property": "C57",
   "status": "proved",
   "theorems": [
    "C57_network_meaning",
    "C57_single_borehole",
    "C57_utube",
    "C57_meaning"
   ],
   "note": "Stated for positive or reversible flows; see C28 for the others."
  },
  {
   "property": "C58",
   "status": "proved",
   "theorems": [
    "C58_cj_first_moment"
   ],
   "note": "First moment of the load (mean age) is exact until the grid is full."
  },
  {
   "property": "C59",
   "status": "partial",
   "theorems": [
    "C59_five_tuple_refuted",
    "C59_seven_tuple_partial"
   ],
   "note": "The five-attribute tuple raises (C59_five_tuple_refuted); the seven-attribute tuple works (C59_seven_tuple_partial)."
  },
  {
   "property": "C60",
   "status": "proved",
   "theorems": [
    "C60_members",
    "C60_segments",
    "C60_merge"
   ],
   "note": "Members, segments and merging."
  },
  {
   "property": "C61",
   "status": "partial",
   "theorems": [
    "C61_rectangle",
    "C61_L",
    "C61_U",
    "C61_box",
    "C61_staggered_partial",
    "C61_dense_partial",
    "C61_circle",
    "C61_staggered_origin_refuted",
    "C61_on_circle_refuted"
   ],
   "note": "Agreement proved when no borehole stands exactly at distance r_b of the origin and, for staggered and dense fields, when the origin is given; refuted otherwise (C61_on_circle_refuted, C61_staggered_origin_refuted)."
  },
  {
   "property": "C62",
   "status": "partial",
   "theorems": [
    "C62_equality",
    "C62_reflexive",
    "C62_symmetry_refuted"
   ],
   "note": "Characterisation and reflexivity proved; symmetry refuted (C62_symmetry_refuted)."
  },
  {
   "property": "C63",
   "status": "proved",
   "theorems": [
    "C63_file_round_trip",
    "C63_deprecated_reader"
   ],
   "note": "Files as tables of numbers."
  },
  {
   "property": "C64",
   "status": "proved",
   "theorems": [
    "C64_lean_outward"
   ],
   "note": "as_specified is part of what every builder is proved to return (C14-C17)."
  },
  {
   "property": "C65",
   "status": "proved",
   "theorems": [
    "C65_inlet_inverts",
    "C65_defined"
   ],
   "note": ""
  },
  {
   "property": "C66",
   "status": "proved",
   "theorems": [
    "C66_equivalent_balance"
   ],
   "note": "Scalar flow: an array of flows makes the equivalent network raise."
  },
  {
   "property": "C67",
   "status": "proved",
   "theorems": [
    "C67_equivalent_network"
   ],
   "note": "Scalar flow, same number of segments in all boreholes."
  },
  {
   "property": "C68",
   "status": "proved",
   "theorems": [
    "C68_effective",
    "C68_bounds"
   ],
   "note": "Stated for positive or reversible flows; see C28 for the others."
  },
  {
   "property": "C69",
   "status": "proved",
   "theorems": [
    "C69_turned",
    "C69_mirrored",
    "C69_scaled",
    "C69_field"
   ],
   "note": "Rotation, mirror image, scaling, for all orders; field equivariance."
  },
  {
   "property": "C70",
   "status": "proved",
   "theorems": [
    "C70_continuous",
    "C70_flux"
   ],
   "note": "Continuity in the plane and flux continuity across the wall for all orders and any multipole strengths."
  },
  {
   "property": "C71",
   "status": "proved",
   "theorems": [
    "C71_passive"
   ],
   "note": "Positive definiteness of the two-pipe line source matrix from the geometric conditions."
  },
  {
   "property": "C72",
   "status": "proved",
   "theorems": [
    "C72_terminates",
    "C72_colebrook",
    "C72_unique",
    "C72_near",
    "C72_laminar"
   ],
   "note": "Contraction of the iteration in 1/sqrt f on an interval it never leaves; uniqueness by monotonicity."
  },
  {
   "property": "C73",
   "status": "proved",
   "theorems": [
    "C73_utube",
    "C73_coaxial",
    "C73_utube_none",
    "C73_sign",
    "C73_order",
    "C73_parallel",
    "C73_series",
    "C73_laminar",
    "C73_coaxial_laminar",
    "C73_layers"
   ],
   "note": "Existence, positivity and the stated invariances."
  },
  {
   "property": "C74",
   "status": "proved",
   "theorems": [
    "C74_vertical",
    "C74_inclined",
    "C74_inclined_nodes",
    "C74_inclined_steady",
    "C74_heat_kernel",
    "C74_initial",
    "C74_inclined_heat_kernel",
    "C74_inclined_initial"
   ],
   "note": "Vertical; inclined with exact integration and with any quadrature rule; steady state. The time derivative is the heat kernel over both boreholes and the response starts from zero, which determines it."
  },
  {
   "property": "C75",
   "status": "proved",
   "theorems": [
    "C75_positive",
    "C75_image_negative",
    "C75_increasing_in_time",
    "C75_decreasing_in_distance"
   ],
   "note": "Sign, monotonicity in time and distance."
  },
  {
   "property": "C76",
   "status": "partial",
   "theorems": [
    "C76_steady_limit",
    "C76_steady_error",
    "C76_inclined",
    "C76_inclined_part",
    "C76_inclined_self_refuted"
   ],
   "note": "Proved with a rate for vertical boreholes; for inclined boreholes at least one radius apart and for one of the parts alone. False for an inclined borehole on itself: C76_inclined_self_refuted."
  },
  {
   "property": "C77",
   "status": "proved",
   "theorems": [
    "C77_scaling",
    "C77_diffusivity"
   ],
   "note": "Exact invariances."
  },
  {
   "property": "C78",
   "status": "proved",
   "theorems": [
    "C78_ubwt",
    "C78_mift",
    "C78_equal",
    "C78_constant"
   ],
   "note": "Responses as functions of time evaluated on the grid (Detailed solver, linear interpolation)."
  },
  {
   "property": "C79",
   "status": "proved",
   "theorems": [
    "C79_diagonal"
   ],
   "note": ""
  },
  {
   "property": "C80",
   "status": "proved",
   "theorems": [
    "C80_segmentation",
    "C80_positive",
    "C80_increasing",
    "C80_exists",
    "C80_symmetric",
    "C80_below"
   ],
   "note": "C80_below is for one time step."
  },
  {
   "property": "C81",
   "status": "proved",
   "theorems": [
    "C81_exact",
    "C81_tolerance"
   ],
   "note": "For fields in blocks (see C54) on a grid of lengths that the tolerances cannot confuse; equality when the distances are apart, bracket by the tolerance otherwise."
  },
  {
   "property": "C82",
   "status": "proved",
   "theorems": [
    "C82_field"
   ],
   "note": "For the fields of C81 with distances apart."
  },
  {
   "property": "C83",
   "status": "proved",
   "theorems": [
    "C83_exact"
   ],
   "note": "For the fields of C81 with distances apart; existence of the solution follows from that of the detailed solver."
  },
  {
   "property": "C84",
   "status": "proved",
   "theorems": [
    "C84_causal",
    "C84_causal_flows"
   ],
   "note": "C84_causal for one flow, any times; C84_causal_flows for several flows, times above the threshold."
  },
  {
   "property": "C85",
   "status": "partial",
   "theorems": [
    "C85_default_field",
    "C85_default_network",
    "C85_stored_flow",
    "C85_stored_flows",
    "C85_stored_capacity",
    "C85_explicit",
    "C85_stored_integer_refuted"
   ],
   "note": "False of stored integers (and numpy floats): C85_stored_integer_refuted. True of floats and arrays."
  },
  {
   "property": "C86",
   "status": "partial",
   "theorems": [
    "C86_borehole_flows_error",
    "C86_borehole_flows_refuted",
    "C86_series",
    "C86_unequal"
   ],
   "note": "False for boreholes in parallel with equal flows: C86_borehole_flows_refuted, and for all such calls: C86_borehole_flows_error. Choice of the similarities: C86_series, C86_unequal."
  },
  {
   "property": "C87",
   "status": "partial",
   "theorems": [
    "C87_clamped",
    "C87_number",
    "C87_length",
    "C87_order",
    "C87_linear_start",
    "C87_zero",
    "C87_integer_refuted"
   ],
   "note": "A Python integer is refused as time: C87_integer_refuted. The other parts are proved."
  },
  {
   "property": "C88",
   "status": "partial",
   "theorems": [
    "C88_field",
    "C88_network",
    "C88_temperature_refuted",
    "C88_lower_case_refuted"
   ],
   "note": "False of fluids at other temperatures than 20 degrees: C88_temperature_refuted, and of boundary conditions in small letters: C88_lower_case_refuted. True otherwise: C88_field, C88_network."
  },
  {
   "property": "C89",
   "status": "proved",
   "theorems": [
    "C89_similarities",
    "C89_equivalent"
   ],
   "note": "C89_similarities for all boundary conditions; C89_equivalent for a uniform wall temperature (uniform heat extraction rates are in C90)."
  },
  {
   "property": "C90",
   "status": "proved",
   "theorems": [
    "C90_detailed",
    "C90_equivalent",
    "C90_increasing"
   ],
   "note": "Methods detailed and equivalent; similarities through C89_similarities."
  },
  {
   "property": "C91",
   "status": "proved",
   "theorems": [
    "C91_flow_alone",
    "C91_total_alone",
    "C91_equal_flows",
    "C91_library"
   ],
   "note": "For the methods detailed and similarities (arrays of flows for each inlet), and for all methods (total flows). C91_library: for networks of the pipes of the library without a condition on the coefficients."
  },
  {
   "property": "C93",
   "status": "partial",
   "theorems": [
    "C93_network_kept",
    "C93_network_changed_refuted"
   ],
   "note": "False for the method of the equivalent boreholes and a network storing an array of flows: C93_network_changed_refuted. True otherwise: C93_network_kept."
  },
  {
   "property": "C94",
   "status": "proved",
   "theorems": [
    "C94_field",
    "C94_exists",
    "C94_library"
   ],
   "note": "C94_field: networks of SingleUTube, Coaxial and MultipleUTube boreholes that are vertical and at least six radii apart, method detailed. C94_library has the positive definite ground response as a hypothesis instead of the distance; C94_exists has the condition on the coefficients of the network (passive, circulates)"
  },
  {
   "property": "C95",
   "status": "proved",
   "theorems": [
    "C95_profile",
    "C95_unique"
   ],
   "note": "eig is a parameter required to diagonalise the system (numpy.linalg.eig with an invertible matrix of eigenvectors)"
  },
  {
   "property": "C96",
   "status": "proved",
   "theorems": [
    "C96_eigenvectors"
   ],
   "note": "eig is a parameter required to diagonalise the system (numpy.linalg.eig with an invertible matrix of eigenvectors)"
  },
  {
   "property": "C97",
   "status": "proved",
   "theorems": [
    "C97_heat_balance"
   ],
   "note": "eig is a parameter required to diagonalise the system (numpy.linalg.eig with an invertible matrix of eigenvectors)"
  },
  {
   "property": "C98",
   "status": "proved",
   "theorems": [
    "C98_equilibrium"
   ],
   "note": "eig is a parameter required to diagonalise the system (numpy.linalg.eig with an invertible matrix of eigenvectors)"
  },
  {
   "property": "C99",
   "status": "proved",
   "theorems": [
    "C99_passive"
   ],
   "note": "eig is a parameter required to diagonalise the system (numpy.linalg.eig with an invertible matrix of eigenvectors)"
  },
  {
   "property": "C100",
   "status": "proved",
   "theorems": [
    "C100_inlet"
   ],
   "note": "eig is a parameter required to diagonalise the system (numpy.linalg.eig with an invertible matrix of eigenvectors)"
  },
  {
   "property": "C101",
   "status": "proved",
   "theorems": [
    "C101_single"
   ],
   "note": "eig is a parameter required to diagonalise the system (numpy.linalg.eig with an invertible matrix of eigenvectors)"
  },
  {
   "property": "C102",
   "status": "proved",
   "theorems": [
    "C102_independent"
   ],
   "note": "eig is a parameter required to diagonalise the system (numpy.linalg.eig with an invertible matrix of eigenvectors)"
  },
  {
   "property": "C103",
   "status": "proved",
   "theorems": [
    "C103_reversed"
   ],
   "note": "eig is a parameter required to diagonalise the system (numpy.linalg.eig with an invertible matrix of eigenvectors)"
  },
  {
   "property": "C104",
   "status": "partial",
   "theorems": [
    "C104_sign_refuted",
    "C104_sign_partial"
   ],
   "note": "false of the code: C104_sign_refuted (negative flow, reversible_flow=False); C104_sign_partial covers positive flows (F32)"
  },
  {
   "property": "C105",
   "status": "proved",
   "theorems": [
    "C105_between"
   ],
   "note": "eig is a parameter required to diagonalise the system (numpy.linalg.eig with an invertible matrix of eigenvectors)"
  },
  {
   "property": "C106",
   "status": "proved",
   "theorems": [
    "C106_effective"
   ],
   "note": "eig is a parameter required to diagonalise the system (numpy.linalg.eig with an invertible matrix of eigenvectors)"
  },
  {
   "property": "C107",
   "status": "proved",
   "theorems": [
    "C107_network"
   ],
   "note": "eig is a parameter required to diagonalise the system (numpy.linalg.eig with an invertible matrix of eigenvectors)"
  },
  {
   "property": "C108",
   "status": "proved",
   "theorems": [
    "C108_pipes",
    "C108_network",
    "C108_direction",
    "C108_inlet"
   ],
   "note": "library_pipe: SingleUTube/Coaxial (Pipe_Model) and MultipleUTube (Multi_Model) with resistances of a passive delta-circuit; the eigenvectors of MultipleUTube are a parameter required to diagonalise the system"
  },
  {
   "property": "C109",
   "status": "proved",
   "theorems": [
    "C109_vertical",
    "C109_default"
   ],
   "note": "the error d of the algebraic formula exp1 is a hypothesis (it is an argument of the model); the error e of the default coefficients is proved in C112"
  },
  {
   "property": "C110",
   "status": "proved",
   "theorems": [
    "C110_inclined"
   ],
   "note": "compared with the solution with the same rule; off_walls is the condition on the nodes"
  },
  {
   "property": "C111",
   "status": "proved",
   "theorems": [
    "C111_parts",
    "C111_receiver",
    "C111_scaling",
    "C111_scaling_vertical"
   ],
   "note": "the identities of the vertical approximation other than scaling are in C38-C40"
  },
  {
   "property": "C112",
   "status": "partial",
   "theorems": [
    "C112_default",
    "C112_all",
    "C112_increasing",
    "C112_terms",
    "C112_maximum_refuted"
   ],
   "note": "C112_default, C112_all, C112_increasing and C112_terms are proved for all N below 25; N = 25, the documented maximum, is an IndexError (C112_maximum_refuted)"
  },
  {
   "property": "C113",
   "status": "partial",
   "theorems": [
    "C113_vertical",
    "C113_inclined",
    "C113_mixed",
    "C113_steady_self_refuted"
   ],
   "note": "true when all boreholes are vertical (C113_vertical), when every pair has an inclined borehole (C113_inclined) and, with exact integrals along the emitting borehole and without the approximation, for mixed lists (C113_mixed) except for the steady state with images of boreholes closer than a radius: C113_steady_self_refuted"
  },
  {
   "property": "C114",
   "status": "proved",
   "theorems": [
    "C114_each",
    "C114_groups",
    "C114_exists"
   ],
   "note": "C114_groups: the weights of the method equivalent are those of its groups"
  },
  {
   "property": "C115",
   "status": "proved",
   "theorems": [
    "C115_mean",
    "C115_uniform"
   ],
   "note": "UHTR for the methods detailed and similarities, UBWT for all methods"
  },
  {
   "property": "C116",
   "status": "proved",
   "theorems": [
    "C116_last_heat",
    "C116_last_temperature",
    "C116_at_heat",
    "C116_at_temperature",
    "C116_uniform",
    "C116_exists_heat",
    "C116_exists_temperature"
   ],
   "note": "Methods detailed and similarities. A given time needs increasing times and a single flow (C117). A single time value with a given time (nan) is not modelled"
  },
  {
   "property": "C117",
   "status": "partial",
   "theorems": [
    "C117_last",
    "C117_none",
    "C117_time_refuted"
   ],
   "note": "False of the code with a time: C117_none shows that no figure exists for two boreholes or more, C117_time_refuted gives an object. C117_last proves the rest"
  },
  {
   "property": "C118",
   "status": "partial",
   "theorems": [
    "C118_none",
    "C118_refuted"
   ],
   "note": "False of the code: C118_none, C118_refuted (numpy.asscalar was removed before numpy 1.26)"
  },
  {
   "property": "C119",
   "status": "partial",
   "theorems": [
    "C119_vertical_heat",
    "C119_vertical_temperature",
    "C119_inclined_refuted"
   ],
   "note": "Proved for vertical boreholes; C119_inclined_refuted for an inclined one"
  },
  {
   "property": "C120",
   "status": "partial",
   "theorems": [
    "C120_g",
    "C120_heat",
    "C120_temperature",
    "C120_values",
    "C120_groups_refuted"
   ],
   "note": "Proved for the methods detailed and similarities; C120_groups_refuted for the method equivalent"
  },
  {
   "property": "C121",
   "status": "proved",
   "theorems": [
    "C121_stable",
    "C121_single",
    "C121_touching_refuted"
   ],
   "note": "Vertical boreholes. C121_touching_refuted: boreholes one radius apart, which are accepted, have a singular response; the constant 6 is sufficient and not claimed to be the smallest"
  },
  {
   "property": "C122",
   "status": "proved",
   "theorems": [
    "C122_detailed",
    "C122_similarities",
    "C122_equivalent"
   ],
   "note": "Methods similarities and equivalent under the conditions of C89"
  },
  {
   "property": "C123",
   "status": "proved",
   "theorems": [
    "C123_first"
   ],
   "note": "Method detailed; the first time only"
  },
  {
   "property": "C124",
   "status": "proved",
   "theorems": [
    "C124_field",
    "C124_values",
    "C124_rectangle",
    "C124_L",
    "C124_U",
    "C124_box",
    "C124_staggered",
    "C124_dense",
    "C124_circle"
   ],
   "note": "Exact roots of the polynomial of utilities.segment_ratios are a hypothesis (sr_exact_roots, C09); C124_field is for any number of segments and any field that is spread"
  },
  {
   "property": "C125",
   "status": "proved",
   "theorems": [
    "C125_detailed",
    "C125_displacement",
    "C125_vertical",
    "C125_inclined"
   ],
   "note": "A tilt between 0 and 1e-6 is excluded (plain_tilts): the constructor forgets the orientation of such boreholes but keeps their tilt"
  },
  {
   "property": "C126",
   "status": "proved",
   "theorems": [
    "C126_order",
    "C126_field",
    "C126_similarities",
    "C126_box"
   ],
   "note": "Vertical boreholes; blocks of inclined boreholes are only reciprocal up to the quadrature rule (C40)"
  },
  {
   "property": "C127",
   "status": "proved",
   "theorems": [
    "C127_units",
    "C127_vertical",
    "C127_dimensionless",
    "C127_similarities"
   ],
   "note": "Fields without pipes. For method 'similarities' both forms of the field must be sharp, because the comparisons add 1e-30 m to denominators"
  },
  {
   "property": "C128",
   "status": "proved",
   "theorems": [
    "C128_spacing",
    "C128_depth",
    "C128_deeper_sources",
    "C128_rectangle"
   ],
   "note": "Vertical fields at uniform heat extraction rates. Nothing is claimed at a uniform wall temperature, where optimal loads may have either sign"
  },
  {
   "property": "C129",
   "status": "proved",
   "theorems": [
    "C129_equivalent",
    "C129_one_flow"
   ],
   "note": "Flows are given by m_flow_network (a float or an array) and cp_f by a float. Zero flows, m_flow_borehole and unequal groups are outside"
  },
  {
   "property": "C130",
   "status": "proved",
   "theorems": [
    "C130_positive",
    "C130_multiple"
   ],
   "note": "The passivity of the objects assumes that no delta-circuit resistance is infinite, the model of C95-C107 has real resistances. J = 0 only: multipoles of higher orders are outside"
  },
  {
   "property": "C131",
   "status": "proved",
   "theorems": [
    "C131_local"
   ],
   "note": "J = 0. Fluid to pipe resistances are taken as given numbers"
  },
  {
   "property": "C132",
   "status": "proved",
   "theorems": [
    "C132_effective",
    "C132_built"
   ],
   "note": "numpy.linalg.eig is a parameter that is assumed to diagonalise the matrix (C95-C107). Negative flows need reversible_flow=True"
  },
  {
   "property": "C133",
   "status": "proved",
   "theorems": [
    "C133_not_above",
    "C133_pulse_above"
   ],
   "note": "Floats are reals. C133_pulse_above shows that the hypothesis on the loads cannot be dropped"
  },
  {
   "property": "C134",
   "status": "proved",
   "theorems": [
    "C134_concave",
    "C134_slowing",
    "C134_simulation"
   ],
   "note": "Quadrature is exact; the real part alone is covered as well (C134_concave, C134_slowing with img = false)"
  },
  {
   "property": "C135",
   "status": "proved",
   "theorems": [
    "C135_not_above",
    "C135_not_below",
    "C135_constant"
   ],
   "note": "Floats are reals"
  },
  {
   "property": "C136",
   "status": "partial",
   "theorems": [
    "C136_not_above",
    "C136_not_below",
    "C136_constant",
    "C136_no_wait_refuted"
   ],
   "note": "Proved for waiting periods of at least one step. C136_no_wait_refuted: with a zero waiting period on the first level a constant load is overestimated already (same cause as finding F1)"
  },
  {
   "property": "C137",
   "status": "proved",
   "theorems": [
    "C137_flow",
    "C137_length",
    "C137_all",
    "C137_limit"
   ],
   "note": "Floats are reals; the resistances are those of the object, they do not follow the flow (as in the code)"
  },
  {
   "property": "C138",
   "status": "proved",
   "theorems": [
    "C138_flow",
    "C138_length",
    "C138_reversed"
   ],
   "note": "Floats are reals"
  },
  {
   "property": "C139",
   "status": "partial",
   "theorems": [
    "C139_unsupported",
    "C139_case",
    "C139_mixture",
    "C139_attributes",
    "C139_stale_refuted"
   ],
   "note": "Proved, except for the last sentence, which is false: C139_stale_refuted (finding F40). The library scp is a parameter of the model; strings are ASCII"
  },
  {
   "property": "C140",
   "status": "partial",
   "theorems": [
    "C140_append_refuted",
    "C140_left_behind"
   ],
   "note": "False: C140_append_refuted, it raises for every fluid and dictionary; C140_left_behind gives what is left in an empty one (finding F41)"
  },
  {
   "property": "C141",
   "status": "proved",
   "theorems": [
    "C141_bound",
    "C141_parallel",
    "C141_series",
    "C141_formula",
    "C141_utube"
   ],
   "note": "Floats are reals; boreholes with the same pipe"
  },
  {
   "property": "C142",
   "status": "proved",
   "theorems": [
    "C142_resistance",
    "C142_heat",
    "C142_length"
   ],
   "note": "Floats are reals; boreholes with the same pipe and length, one flow rate for the network; the resistances are those of the object, they do not follow the flow (as in the code)"
  },
  {
   "property": "C143",
   "status": "proved",
   "theorems": [
    "C143_series_least",
    "C143_series_heat",
    "C143_parallel_most"
   ],
   "note": "Floats are reals; boreholes with the same pipe and length, one flow rate for the network; the resistances are those of the object, they do not follow the flow (as in the code)"
  },
  {
   "property": "C144",
   "status": "proved",
   "theorems": [
    "C144_detailed",
    "C144_similarities",
    "C144_field",
    "C144_even",
    "C144_one",
    "C144_limit"
   ],
   "note": "Floats are reals and the integrals exact; method 'detailed', and 'similarities' when its similarities are sharp; only the first of the times (later values depend on the history through the interpolation). Not for the default expanding ratios of two numbers of segments, which do not refine each other"
  },
  {
   "property": "C145",
   "status": "proved",
   "theorems": [
    "C145_detailed",
    "C145_field"
   ],
   "note": "Floats are reals and the integrals exact; method 'detailed'; not strict; for the first (or only) of the times. For several boreholes the energy of given loads need not grow with the time, since a borehole acts on itself at its radius"
  },
  {
   "property": "C146",
   "status": "proved",
   "theorems": [
    "C146_detailed",
    "C146_field",
    "C146_uhtr"
   ],
   "note": "Floats are reals and the integrals exact; method 'detailed'; the added boreholes are at the end of the list (C126: the order does not matter) and not wider than those of the field (same linear start). Uniform wall temperature: first of the times"
  },
  {
   "property": "C147",
   "status": "proved",
   "theorems": [
    "C147_reciprocal",
    "C147_transposed",
    "C147_outlet"
   ],
   "note": "Floats are reals; single U-tubes and coaxial boreholes (_BasePipe with one circuit); conductances between the legs symmetric"
  },
  {
   "property": "C148",
   "status": "proved",
   "theorems": [
    "C148_reciprocal",
    "C148_symmetric"
   ],
   "note": "Floats are reals; the resistances of the two legs from the wall are equal (two equal pipes placed symmetrically)"
  },
  {
   "property": "C149",
   "status": "partial",
   "theorems": [
    "C149_parallel",
    "C149_series_refuted"
   ],
   "note": "Proved when all boreholes are in parallel (C149_parallel). False of two equal boreholes in series: C149_series_refuted. Floats are reals and quadratures exact integrals; method 'detailed'; first time value"
  },
  {
   "property": "C150",
   "status": "partial",
   "theorems": [
    "C150_alike",
    "C150_uneven_refuted"
   ],
   "note": "Proved when all boreholes have the same flow (C150_alike). False when two equal boreholes are fed unequally: C150_uneven_refuted. Floats are reals and quadratures exact integrals; method 'detailed'; first time value"
  },
  {
   "property": "C151",
   "status": "proved",
   "theorems": [
    "C151_outlet",
    "C151_temperature",
    "C151_primitives"
   ],
   "note": "Floats are reals; the flow is a number"
  },
  {
   "property": "C152",
   "status": "proved",
   "theorems": [
    "C152_error",
    "C152_positive",
    "C152_vertical",
    "C152_inclined"
   ],
   "note": "Floats are reals; numpy.euler_gamma is its 16 digits; one argument at a time"
  },
  {
   "property": "C153",
   "status": "partial",
   "theorems": [
    "C153_copies",
    "C153_careful",
    "C153_ratios_stale",
    "C153_ratios_refuted",
    "C153_result_stale",
    "C153_result_refuted"
   ],
   "note": "False as stated: C153_ratios_refuted and C153_result_refuted; C153_ratios_stale shows that the answer is wrong for every borehole and every change of the ratios. C153_copies and C153_careful prove it for callers that write in no array they have given or received"
  },
  {
   "property": "C154",
   "status": "proved",
   "theorems": [
    "C154_reciprocal",
    "C154_transposed"
   ],
   "note": "numpy.linalg.eig is any function that decomposes the matrix (eig_ok); floats are reals"
  },
  {
   "property": "C155",
   "status": "proved",
   "theorems": [
    "C155_reciprocal",
    "C155_symmetric"
   ],
   "note": "numpy.linalg.eig is any function that decomposes the matrix (eig_ok); floats are reals"
  },
  {
   "property": "C156",
   "status": "proved",
   "theorems": [
    "C156_pipes",
    "C156_circuits",
    "C156_reciprocal",
    "C156_transposed"
   ],
   "note": "each pipe is reversible with reciprocal resistances between its legs; for several U-tubes numpy.linalg.eig is any function that decomposes the matrix (eig_ok); floats are reals"
  },
  {
   "property": "C157",
   "status": "proved",
   "theorems": [
    "C157_ground",
    "C157_inlet",
    "C157_heat"
   ],
   "note": "the response of the ground is any symmetric matrix; for one step of time (no history of heat extraction rates)"
  },
  {
   "property": "C158",
   "status": "proved",
   "theorems": [
    "C158_accepts",
    "C158_points",
    "C158_distinct",
    "C158_borehole"
   ],
   "note": "strings are ASCII; str.upper of other letters is not modelled"
  },
  {
   "property": "C159",
   "status": "partial",
   "theorems": [
    "C159_copies",
    "C159_refill",
    "C159_refill_outlet",
    "C159_stale",
    "C159_refuted",
    "C159_formatted_refuted"
   ],
   "note": "False of the code for the network outlet temperature, see C159_refuted and C159_stale (the fluid of the circuits is mixed with the former flows). Proved: for a caller that writes in no array after handing it over, the answers of a network that keeps copies (C159_copies); for a caller that refills its arrays in place, the answers of a new network from the six other methods (C159_refill), and from all seven if all requests and writes share the flow in the same way (C159_refill_outlet). As for C25, calls are supposed to be told apart by the stores."
  },
  {
   "property": "C160",
   "status": "proved",
   "theorems": [
    "C160_mlaa_linear",
    "C160_liu_linear"
   ],
   "note": "C160_mlaa_linear and C160_liu_linear; ClaessonJaved is C03_cj_linear."
  },
  {
   "property": "C161",
   "status": "proved",
   "theorems": [
    "C161_mlaa_within",
    "C161_liu_within",
    "C161_cj_within",
    "C161_cj_monotone",
    "C161_mlaa_monotone",
    "C161_liu_monotone"
   ],
   "note": "All three schemes. The range of the loads has to contain zero for ClaessonJaved, whose cells start empty; Liu with waiting periods of at least one step (see C05)."
  },
  {
   "property": "C162",
   "status": "partial",
   "theorems": [
    "C162_cj_idle",
    "C162_mlaa_idle",
    "C162_liu_idle",
    "C162_mlaa_refuted",
    "C162_liu_refuted"
   ],
   "note": "Proved for ClaessonJaved without conditions (C162_cj_idle) and for MLAA and Liu while no loads are aggregated (C162_mlaa_idle, C162_liu_idle). False for MLAA and Liu beyond, see C162_mlaa_refuted and C162_liu_refuted: the blocks are placed by the number of steps since the beginning."
  },
  {
   "property": "C163",
   "status": "partial",
   "theorems": [
    "C163_mlaa",
    "C163_liu",
    "C163_cj",
    "C163_cj_below",
    "C163_cj_refuted"
   ],
   "note": "Proved for MLAA (C163_mlaa) and for Liu with waiting periods of at least one step (C163_liu). For ClaessonJaved proved while there are no more time steps than cells (C163_cj), and false beyond, see C163_cj_refuted: part of the load has left the last cell before the end of the horizon. Under loads that are not negative the shorter horizon then gives the smaller temperature variations (C163_cj_below)."
  },
  {
   "property": "C164",
   "status": "proved",
   "theorems": [
    "C164_cj",
    "C164_mlaa",
    "C164_liu"
   ],
   "note": "All three schemes, without conditions on their parameters. A permutation of the sources and a scalar load for all of them are special cases."
  },
  {
   "property": "C165",
   "status": "proved",
   "theorems": [
    "C165_times",
    "C165_one_level",
    "C165_mlaa_runs",
    "C165_liu_runs",
    "C165_agree"
   ],
   "note": "tmax/dt is a real number in the model: a quotient that floats round across an integer gives one step more or less in the code."
  },
  {
   "property": "C166",
   "status": "proved",
   "theorems": [
    "C166_cj",
    "C166_mp",
    "C166_geometric",
    "C166_steps",
    "C166_simulation"
   ],
   "note": "Floats are reals: the comparisons of the loops are exact."
  },
  {
   "property": "C167",
   "status": "proved",
   "theorems": [
    "C167_cj",
    "C167_mlaa",
    "C167_liu"
   ],
   "note": "The bound is attained (examples). The aggregated loads never vary more than the loads themselves; that is what the proof shows."
  },
  {
   "property": "C168",
   "status": "proved",
   "theorems": [
    "C168_mlaa",
    "C168_liu",
    "C168_cj"
   ],
   "note": "For ClaessonJaved the range of the loads includes zero, the growth is taken up to the end of the last cell, and the steps must end there at the latest."
  },
  {
   "property": "C169",
   "status": "proved",
   "theorems": [
    "C169_last_cj",
    "C169_last_mlaa",
    "C169_last_liu",
    "C169_cj",
    "C169_mlaa",
    "C169_liu"
   ],
   "note": "C169_last_*: only the last load counts (without conditions on the cell parameters). C169_cj, C169_mlaa, C169_liu: effect of the current load."
  },
  {
   "property": "C170",
   "status": "proved",
   "theorems": [
    "C170_lattice",
    "C170_rectangle",
    "C170_L",
    "C170_box",
    "C170_similarities"
   ],
   "note": "C170_lattice: any lattice shape and any options with one list of ratios for all boreholes. C170_rectangle, C170_L, C170_box: the constructors with default options. Method 'detailed'; C170_similarities: method 'similarities' for fields that its tolerances do not confuse. The segment ratios rest on the exact roots of the expansion ratio, as C124."
  },
  {
   "property": "C171",
   "status": "proved",
   "theorems": [
    "C171_box",
    "C171_U",
    "C171_L",
    "C171_counts"
   ],
   "note": "C171_box, C171_U, C171_L: same boreholes in some order and same g-function with default options, method 'detailed'; segment ratios as C124. C171_counts: the condition on the size is needed."
  },
  {
   "property": "C172",
   "status": "proved",
   "theorems": [
    "C172_sum",
    "C172_commute",
    "C172_parts",
    "C172_slices"
   ],
   "note": "C172_sum: boreholes of a sum, read off by indexing. C172_commute, C172_parts, C172_slices: default options, method 'detailed'; segment ratios as C124."
  }
 ]
}