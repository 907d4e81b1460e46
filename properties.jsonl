{"id": "C01", "title": "ClaessonJaved conserves the applied load", "statement": "Run a ClaessonJaved object by alternating next_time_step and set_current_load over any load sequence. The width-weighted sum of the aggregated loads of every source always equals the sum of the loads applied so far minus exactly what was shifted out of the last (oldest) aggregation cell; in particular nothing is lost or created before the oldest cell is reached.", "quantifier": "for every number of sources, every aggregation grid with positive widths, every load sequence of any length", "why_tests_cant": "tests run one short load profile on one grid; conservation must hold after every prefix of every load history", "anchors": ["pygfunction/load_aggregation.py: ClaessonJaved.next_time_step, set_current_load, _build_cells"]}
{"id": "C02", "title": "ClaessonJaved is exact when no aggregation takes place", "statement": "If all aggregation cells have the simulation time step as width, then after n steps temporal_superposition returns exactly the classical (non-aggregated) temporal superposition sum over past steps of (Q_i - Q_{i-1}) g(t_n - t_{i-1}) summed over sources.", "quantifier": "for every g-function array, number of sources and load sequence not longer than the grid", "why_tests_cant": "an identity between a stateful recurrence and a convolution over the whole history, for every history length", "anchors": ["pygfunction/load_aggregation.py: ClaessonJaved.temporal_superposition, initialize, next_time_step"]}
{"id": "C03", "title": "ClaessonJaved aggregated loads obey a maximum principle and superpose", "statement": "Every aggregated load always stays between the smallest and the largest of 0 and the loads applied so far, and the aggregated state (hence the wall temperature drop) produced by the sum of two load histories is the sum of the states produced by each.", "quantifier": "for every grid with widths at least one time step and all load histories of equal length", "why_tests_cant": "a bound and a linearity law over all histories", "anchors": ["pygfunction/load_aggregation.py: ClaessonJaved.next_time_step, _build_cells, temporal_superposition"]}
{"id": "C04", "title": "MLAA conserves the applied load and aggregates by block averages", "statement": "Run an MLAA object through any load sequence that fits its simulation horizon. At any time the loads kept at full resolution are the most recent loads verbatim, and the energy represented by all aggregation levels together equals the sum of all applied loads.", "quantifier": "for every level configuration with N0 >= 1 and every load sequence no longer than the number of simulation steps", "why_tests_cant": "the level hand-over happens at data-dependent steps; tests run one configuration", "anchors": ["pygfunction/load_aggregation.py: MLAA.next_time_step, set_current_load, temporal_superposition"]}
{"id": "C05", "title": "Liu conserves the applied load", "statement": "Run a Liu object through any load sequence. The loads of the hourly/daily/... levels together always represent the sum of all applied loads, and the most recent loads are kept verbatim, whatever the level sizes and waiting periods.", "quantifier": "for every level sizes N1,N2,N3 >= 1, every waiting periods W1,W2,W3 >= 0 and every load sequence within the horizon", "why_tests_cant": "hand-over between three levels with waiting periods happens at data dependent steps; degenerate waiting periods are not covered by tests", "anchors": ["pygfunction/load_aggregation.py: Liu.next_time_step, set_current_load, temporal_superposition, _build_cells"]}
{"id": "C06", "title": "time_ClaessonJaved grid covers the horizon on a doubling lattice", "statement": "time_ClaessonJaved(dt, tmax) returns strictly increasing times starting at dt whose steps are dt times non-decreasing powers of two with exactly cells_per_level steps per power, whose last value is at least tmax and whose last but one value is below tmax.", "quantifier": "for every dt > 0, tmax > 0 and cells_per_level >= 1", "why_tests_cant": "the loop runs until a data dependent horizon; the number of cells is unbounded", "anchors": ["pygfunction/utilities.py: time_ClaessonJaved"]}
{"id": "C07", "title": "time_MarcottePasquier grid covers the horizon", "statement": "time_MarcottePasquier(dt, tmax, non_expanding_cells) returns strictly increasing times starting at dt; the first non_expanding_cells steps all equal dt, later steps double, the last value reaches tmax and the last but one does not.", "quantifier": "for every dt > 0, tmax > 0 and number of non expanding cells >= 1", "why_tests_cant": "unbounded loop with data dependent exit", "anchors": ["pygfunction/utilities.py: time_MarcottePasquier"]}
{"id": "C08", "title": "time_geometric grid ends at the horizon", "statement": "When the requested horizon exceeds Nt*dt, time_geometric returns Nt strictly increasing times, the first equal to dt, with a constant ratio between consecutive steps, ending at tmax (up to the tolerance of the solved ratio); otherwise it returns the uniform grid dt, 2dt, ... up to the horizon.", "quantifier": "for every dt > 0, tmax > 0, Nt >= 1 and every ratio r > 1 solving the closing equation", "why_tests_cant": "numerical root finding and closed forms for all sizes", "anchors": ["pygfunction/utilities.py: time_geometric"]}
{"id": "C09", "title": "segment_ratios returns a symmetric positive partition of unity", "statement": "segment_ratios(nSegments, end_length_ratio) returns nSegments positive ratios summing to 1, symmetric about the middle, with end ratios equal to end_length_ratio and geometric expansion towards the middle, or raises an error.", "quantifier": "for every nSegments >= 1 and every end_length_ratio", "why_tests_cant": "the expansion ratio is a polynomial root; sizes are unbounded and odd/even cases differ", "anchors": ["pygfunction/utilities.py: segment_ratios"]}
{"id": "C10", "title": "Borehole.segments partitions the borehole", "statement": "Splitting a borehole into segments with any admissible ratios yields consecutive segments on the borehole axis: the first starts at the head, each next one starts where the previous ends (in all three coordinates), the lengths add to H, the last ends at the toe, and radius, tilt and orientation are inherited.", "quantifier": "for every borehole (any tilt and orientation), every number of segments, every positive ratios summing to one", "why_tests_cant": "geometric identity over all split sizes and angles", "anchors": ["pygfunction/boreholes.py: Borehole.segments, _segment_edges, _segment_midpoints"]}
{"id": "C11", "title": "Borehole.distance is symmetric", "statement": "b1.distance(b2) equals b2.distance(b1), is never below the borehole radius, is invariant under a common translation, and never exceeds the planar distance when boreholes do not overlap.", "quantifier": "for every pair of boreholes", "why_tests_cant": "law over all pairs, including pairs with different radii", "anchors": ["pygfunction/boreholes.py: Borehole.distance"]}
{"id": "C12", "title": "find_duplicates is sound and complete", "statement": "find_duplicates returns exactly the index pairs (i, j), i < j, each once and in lexicographic order, of boreholes whose planar distance is below the largest borehole radius of the field.", "quantifier": "for every non-empty list of boreholes of any length", "why_tests_cant": "the decoding of the condensed distance index must be right for every size of the list", "anchors": ["pygfunction/boreholes.py: find_duplicates"]}
{"id": "C13", "title": "remove_duplicates leaves a duplicate-free subfield", "statement": "remove_duplicates returns a sub-list in original order without any pair of boreholes closer than the largest borehole radius, keeps at least one borehole of every cluster of duplicates, and is the identity on fields without duplicates.", "quantifier": "for every non-empty list of boreholes", "why_tests_cant": "chains of near duplicates are not enumerable by tests", "anchors": ["pygfunction/boreholes.py: remove_duplicates"]}
{"id": "C14", "title": "Rectangular fields have the advertised layout", "statement": "Borefield.rectangle_field (and the legacy boreholes.rectangle_field) return N_1*N_2 boreholes, one at each lattice point (i*B_1, j*B_2), all with the given H, D, r_b; distinct boreholes are at least min(B_1,B_2) apart.", "quantifier": "for every N_1, N_2 >= 1 and every spacings B_1, B_2 > 0", "why_tests_cant": "sizes are unbounded", "anchors": ["pygfunction/borefield.py: Borefield.rectangle_field", "pygfunction/boreholes.py: rectangle_field"]}
{"id": "C15", "title": "L, U and box fields are duplicate-free sub-lattices with the right count", "statement": "L_shaped_field, U_shaped_field and box_shaped_field return boreholes on the boundary of the N_1 x N_2 lattice only, each lattice point at most once, with N_1+N_2-1, N_1+2(N_2-1) (N_1>=2) and 2(N_1-1)+2(N_2-1) (N_1,N_2>=2) boreholes, and degenerate sizes fall back to a row without duplicates.", "quantifier": "for every N_1, N_2 >= 1 and spacings > 0", "why_tests_cant": "corner handling must be right for all sizes, including degenerate ones", "anchors": ["pygfunction/borefield.py: L_shaped_field, U_shaped_field, box_shaped_field", "pygfunction/boreholes.py: L_shaped_field, U_shaped_field, box_shaped_field"]}
{"id": "C16", "title": "Staggered and dense fields keep the advertised spacing and count", "statement": "staggered_rectangle_field returns lattice points shifted by half a spacing on every other row with the advertised number of boreholes (with or without the last borehole of shifted rows), and in dense_rectangle_field every pair of distinct boreholes is at least B apart with nearest neighbours exactly B apart.", "quantifier": "for every N_1, N_2 >= 1, spacings > 0 and both values of include_last_borehole", "why_tests_cant": "row parity and size interact; sizes unbounded", "anchors": ["pygfunction/borefield.py: staggered_rectangle_field, dense_rectangle_field"]}
{"id": "C17", "title": "Circular fields are regular polygons", "statement": "circle_field returns N boreholes at distance R from the origin, pairwise distinct, at equal angles.", "quantifier": "for every N >= 1 and R > 0", "why_tests_cant": "all sizes", "anchors": ["pygfunction/borefield.py: circle_field", "pygfunction/boreholes.py: circle_field"]}
{"id": "C18", "title": "Borefield round-trips through its list form", "statement": "Borefield.from_boreholes(f.to_boreholes()) equals f; len, indexing, slicing, iteration and concatenation of Borefields agree with the same operation on the list of boreholes, and Borefield + list/borehole/borefield associates like list concatenation.", "quantifier": "for every bore field of any size, every index and slice, every operands", "why_tests_cant": "container laws for all sizes", "anchors": ["pygfunction/borefield.py: __init__, __getitem__, __add__, __radd__, to_boreholes, from_boreholes"]}
{"id": "C19", "title": "Unique distances represent every pair of boreholes", "statement": "The distances and weights returned for two groups of boreholes account for every pair of boreholes exactly once, distances are increasing, and every actual distance differs from the representative of its class by less than the relative tolerance.", "quantifier": "for every groups of boreholes and every tolerance", "why_tests_cant": "greedy clustering of an arbitrary multiset of distances", "anchors": ["pygfunction/boreholes.py: _EquivalentBorehole.unique_distance"]}
{"id": "C20", "title": "bore_connectivity is accepted exactly when it is a set of disjoint chains", "statement": "Network construction accepts a connectivity list if and only if every borehole is fed from the field inlet or from another borehole of the list, no borehole feeds two others, and following the feeds from any borehole reaches the inlet; otherwise a ValueError/AssertionError is raised.", "quantifier": "for every list of integers, including negative and out of range entries and cycles", "why_tests_cant": "graph property over all lists; tests try a handful", "anchors": ["pygfunction/networks.py: Network.__init__, _verify_bore_connectivity, _find_inlets_outlets, _path_to_inlet"]}
{"id": "C21", "title": "Network inlet and outlet temperatures follow the connections", "statement": "For any accepted network, the inlet temperature coefficients returned by the network give each borehole fed by the field the network inlet temperature and each other borehole the outlet temperature of the borehole feeding it; the system solved by the code has exactly one solution, whatever the boreholes' own coefficients.", "quantifier": "for every accepted connectivity, every borehole coefficients, inlet temperature and wall temperatures", "why_tests_cant": "unique solvability and its meaning for all topologies", "anchors": ["pygfunction/networks.py: coefficients_inlet_temperature, coefficients_outlet_temperature, _initialize_coefficients_connectivity"]}
{"id": "C22", "title": "Network outlet temperature is the flow-weighted mixture of circuit outlets", "statement": "The network outlet temperature equals the sum over circuits of (flow of the circuit) * (outlet temperature of the last borehole of that circuit) divided by the total flow.", "quantifier": "for every accepted connectivity and every per-circuit mass flow rates", "why_tests_cant": "the pairing between per-circuit flow and circuit outlet must be right for all borehole numberings", "anchors": ["pygfunction/networks.py: _coefficients_mixing, coefficients_outlet_temperature, coefficients_network_outlet_temperature"]}
{"id": "C23", "title": "Network heat balance", "statement": "The heat extraction rate of the network equals the sum of the heat extraction rates of all boreholes and equals m_flow*cp*(T_out - T_in).", "quantifier": "for every accepted connectivity, mass flow rates, heat capacities, inlet and wall temperatures", "why_tests_cant": "conservation law over all topologies and flows", "anchors": ["pygfunction/networks.py: coefficients_network_heat_extraction_rate, coefficients_fluid_heat_extraction_rate, coefficients_borehole_heat_extraction_rate"]}
{"id": "C24", "title": "Uniform temperature is an equilibrium of a network", "statement": "If the inlet temperature equals all borehole wall temperatures, every inlet, outlet and network outlet temperature equals it and every heat extraction rate is zero, for every network whose boreholes have that property.", "quantifier": "for every accepted connectivity and number of segments", "why_tests_cant": "fixed point for all topologies", "anchors": ["pygfunction/networks.py: coefficients_inlet_temperature, coefficients_outlet_temperature, coefficients_network_outlet_temperature, coefficients_network_heat_extraction_rate"]}
{"id": "C25", "title": "Network queries do not depend on earlier queries", "statement": "The value returned by any get_*/coefficients_* method of a Network for given arguments is the same whatever methods were called before with whatever arguments.", "quantifier": "for every sequence of method calls", "why_tests_cant": "history independence of a tolerance-keyed cache; tests never interleave calls", "anchors": ["pygfunction/networks.py: _check_coefficients, _set_stored_coefficients, _get_stored_coefficients, _check_mixing_coefficients, _format_inputs"]}
{"id": "C26", "title": "Single U-tube solution satisfies the fluid energy equations and boundary conditions", "statement": "The temperature profiles returned for a single U-tube (or coaxial) borehole satisfy the coupled differential energy balances of the two legs with the delta-circuit resistances, start at the inlet temperature, are continuous at the bottom, and end at the returned outlet temperature.", "quantifier": "for every positive thermal resistances, flow rate, length, number of segments and wall temperature profile", "why_tests_cant": "analytic identity over all parameters", "anchors": ["pygfunction/pipes.py: SingleUTube.coefficients_outlet_temperature, coefficients_temperature, _update_model_variables, _f1.._f5, _F4, _F5, _general_solution"]}
{"id": "C27", "title": "Uniform temperature is an equilibrium of a borehole", "statement": "If the inlet fluid temperature equals the temperature of every borehole wall segment, the outlet temperature and the fluid temperature at all depths equal it, and all heat extraction rates vanish: the temperature coefficients sum to one and the heat coefficients sum to zero.", "quantifier": "for every resistances, flow rates, number and ratios of segments", "why_tests_cant": "identity over all parameters and segmentations", "anchors": ["pygfunction/pipes.py: SingleUTube.coefficients_outlet_temperature, coefficients_temperature, coefficients_borehole_heat_extraction_rate, coefficients_fluid_heat_extraction_rate"]}
{"id": "C28", "title": "Borehole heat balance", "statement": "The sum of the heat extraction rates of all borehole segments equals the heat gained by the fluid, m_flow*cp*(T_out - T_in).", "quantifier": "for every pipe configuration, flow rate of either sign, number and ratios of segments and temperatures", "why_tests_cant": "conservation law over all parameters including negative flow", "anchors": ["pygfunction/pipes.py: coefficients_borehole_heat_extraction_rate, coefficients_fluid_heat_extraction_rate"]}
{"id": "C29", "title": "Outlet temperature lies between inlet and wall temperatures", "statement": "For a single U-tube the coefficients of the outlet temperature are non-negative, so the outlet temperature always lies between the smallest and largest of the inlet and wall temperatures.", "quantifier": "for every positive resistances (non-negative pipe-to-pipe conductance), flow rate, length and segmentation", "why_tests_cant": "inequality over all parameters", "anchors": ["pygfunction/pipes.py: SingleUTube.coefficients_outlet_temperature"]}
{"id": "C30", "title": "Negative flow with reversible_flow=False behaves like its absolute value", "statement": "With reversible_flow=False the sign of the mass flow rate has no influence on any result; with reversible_flow=True a negative flow swaps the roles of the two legs.", "quantifier": "for every pipe geometry, resistances, flow rate and temperatures", "why_tests_cant": "all methods and all parameters", "anchors": ["pygfunction/pipes.py: SingleUTube._format_inputs, _update_model_variables, coefficients_borehole_heat_extraction_rate"]}
{"id": "C31", "title": "Pipe queries do not depend on earlier queries", "statement": "The values returned by any get_*/coefficients_* method of a pipe object for given arguments do not depend on which methods were called before with which arguments.", "quantifier": "for every sequence of method calls", "why_tests_cant": "history independence of cached model variables keyed by tolerance", "anchors": ["pygfunction/pipes.py: _check_model_variables, _check_coefficients, _set_stored_coefficients, _format_inputs"]}
{"id": "C32", "title": "get_inlet_temperature inverts the heat extraction rate", "statement": "For every requested total heat extraction rate, the inlet temperature returned produces, through get_total_heat_extraction_rate, exactly the requested rate.", "quantifier": "for every pipe, flow rate, wall temperatures and rate", "why_tests_cant": "inverse law for all parameters", "anchors": ["pygfunction/pipes.py: coefficients_inlet_temperature, coefficients_fluid_heat_extraction_rate, get_inlet_temperature, get_fluid_heat_extraction_rate"]}
{"id": "C33", "title": "Delta-circuit resistances reproduce the resistance matrix", "statement": "The delta-circuit of thermal resistances derived from the matrix R yields, for all fluid and wall temperatures, the same heat flow from each pipe as inverting R; in particular the heat received by the borehole wall and the local borehole resistance agree.", "quantifier": "for every number of pipes, every invertible symmetric R with non-zero circuit entries", "why_tests_cant": "matrix identity for all sizes", "anchors": ["pygfunction/pipes.py: thermal_resistances, local_borehole_thermal_resistance, update_thermal_resistances"]}
{"id": "C34", "title": "Line source resistances are symmetric and invariant under rotation", "statement": "The J=0 thermal resistance matrix is symmetric, unchanged when all pipes are rotated about the borehole axis, and equals the zeroth order multipole matrix.", "quantifier": "for every pipe positions inside the borehole and conductivities", "why_tests_cant": "identity over all geometries", "anchors": ["pygfunction/pipes.py: thermal_resistances, multipole"]}
{"id": "C35", "title": "U-tube geometry checks are sound and complete", "statement": "Construction of a U-tube borehole succeeds only if radii and conductivities are positive, r_in <= r_out, every pipe lies inside the borehole and no two pipes overlap, and it succeeds whenever these hold; coaxial construction succeeds only if the pipes are nested inside the borehole.", "quantifier": "for every geometry", "why_tests_cant": "decision rule over all inputs", "anchors": ["pygfunction/pipes.py: _BasePipe._check_geometry, Coaxial._check_geometry"]}
{"id": "C36", "title": "Convection correlations are continuous across regime changes", "statement": "The Nusselt number used for pipes is continuous at the laminar/transition and transition/turbulent limits, the laminar value is returned below 2300, and the convective coefficient does not depend on the sign of the mass flow rate.", "quantifier": "for every Reynolds, Prandtl number and friction factor", "why_tests_cant": "continuity for all parameters", "anchors": ["pygfunction/pipes.py: convective_heat_transfer_coefficient_circular_pipe, _Nusselt_number_turbulent_flow, fluid_friction_factor_circular_pipe"]}
{"id": "C37", "title": "Cached thermal resistances equal recomputed ones", "statement": "thermal_resistances returns the same matrices whether or not earlier calls with other arguments were made.", "quantifier": "for every sequence of calls", "why_tests_cant": "history independence of a global cache", "anchors": ["pygfunction/pipes.py: thermal_resistances"]}
{"id": "C38", "title": "Finite line source reciprocity", "statement": "For vertical boreholes at equal effective distance, H2 * finite_line_source(b1 -> b2) equals H1 * finite_line_source(b2 -> b1), for the real part, the image part and their sum, at any time and at steady state.", "quantifier": "for every pair of lengths, depths, distances and times", "why_tests_cant": "analytic identity over all parameters", "anchors": ["pygfunction/heat_transfer.py: _finite_line_source_integrand, finite_line_source, _finite_line_source_steady_state"]}
{"id": "C39", "title": "Finite line source is additive under splitting", "statement": "Splitting the receiving borehole into consecutive segments, the length-weighted sum of the responses of the segments is the response of the whole; splitting the emitting borehole, the responses to the segments add to the response to the whole.", "quantifier": "for every subdivision into any number of segments", "why_tests_cant": "identity over all subdivisions", "anchors": ["pygfunction/heat_transfer.py: _finite_line_source_integrand, _finite_line_source_steady_state"]}
{"id": "C40", "title": "Real and image parts add to the full solution", "statement": "finite_line_source with reaSource=True, imgSource=True equals the sum of the solutions with only the real and only the image source, for vertical and inclined boreholes, transient and steady.", "quantifier": "for every geometry and time", "why_tests_cant": "identity over all geometries including coincident ones", "anchors": ["pygfunction/heat_transfer.py: _finite_line_source_integrand, _finite_line_source_inclined_integrand, _finite_line_source_inclined_steady_state"]}
{"id": "C41", "title": "Array of times gives the same values as separate calls", "statement": "The value of finite_line_source at one time of an array of times does not depend on the other times of the array and equals the scalar evaluation.", "quantifier": "for every array of times", "why_tests_cant": "cumulative evaluation must be right for all arrays", "anchors": ["pygfunction/heat_transfer.py: finite_line_source, finite_line_source_vectorized"]}
{"id": "C42", "title": "Inclined solution reduces to the vertical one", "statement": "For zero tilts the inclined finite line source integrand, integrated exactly along the emitting borehole, equals the vertical integrand.", "quantifier": "for every lengths, depths, distances and integration variable", "why_tests_cant": "analytic identity", "anchors": ["pygfunction/heat_transfer.py: _finite_line_source_inclined_integrand, _finite_line_source_integrand"]}
{"id": "C43", "title": "Equivalent-borehole response is the weighted mean of pairwise responses", "statement": "The response factor between two groups of boreholes equals the sum over distances of (number of pairs at the distance) * (pair response) divided by the number of receiving boreholes.", "quantifier": "for every distances, weights, lengths and depths", "why_tests_cant": "identity over all group sizes", "anchors": ["pygfunction/heat_transfer.py: finite_line_source_equivalent_boreholes_vectorized, _finite_line_source_equivalent_boreholes_integrand"]}
{"id": "C44", "title": "Load history reconstruction conserves heat", "statement": "The reconstructed load history over the reversed time steps carries the same total heat as the original history; it equals the original when all time steps are equal and is constant when the load is constant; reconstructed loads stay within the range of the original loads.", "quantifier": "for every strictly increasing positive time vector and every load history", "why_tests_cant": "identity over all time grids", "anchors": ["pygfunction/solvers/_base_solver.py: load_history_reconstruction"]}
{"id": "C45", "title": "Temporal superposition uses the right response times", "statement": "The temperature returned by the temporal superposition is the sum over reconstructed steps of the load increment times the response factor at the elapsed time since the start of that step.", "quantifier": "for every time grid, load history and response factors", "why_tests_cant": "index arithmetic for all sizes", "anchors": ["pygfunction/solvers/_base_solver.py: temporal_superposition, load_history_reconstruction, solve"]}
{"id": "C46", "title": "The total heat extraction rate is normalised at every time", "statement": "For the UBWT and MIFT conditions, at every time (including times below the linearisation threshold) the length-weighted average of the dimensionless segment heat extraction rates is one; for UBWT wall temperatures are uniform.", "quantifier": "for every response factors, time vector and threshold for which the linear systems are solvable", "why_tests_cant": "loop invariant over all times and thresholds", "anchors": ["pygfunction/solvers/_base_solver.py: solve"]}
{"id": "C47", "title": "g-functions are linear below the threshold and unchanged above", "statement": "For times not above the threshold the returned g-function equals t/threshold times the value computed at the threshold, for times above it the value is the one computed at that time; this holds for every boundary condition and for every pair of mass flow rates.", "quantifier": "for every sorted time vector, threshold and number of mass flow rates", "why_tests_cant": "index arithmetic between two time grids for all sizes", "anchors": ["pygfunction/solvers/_base_solver.py: solve"]}
{"id": "C48", "title": "Segment bookkeeping partitions the segments over boreholes", "statement": "Each segment of the solver belongs to exactly one borehole, boreholes own consecutive index ranges of the requested number of segments, and every borehole of the field has segments.", "quantifier": "for every list of numbers of segments accepted by the solver", "why_tests_cant": "all list sizes, including lists of wrong length", "anchors": ["pygfunction/solvers/_base_solver.py: __init__, borehole_segments, _check_inputs"]}
{"id": "C49", "title": "Detailed solver fills the response matrix and satisfies reciprocity", "statement": "Every entry of the segment-to-segment response matrix is set to the finite line source solution of that pair (emitter j, receiver i), and H_i h_ij = H_j h_ji for segments of different boreholes.", "quantifier": "for every number of boreholes and segments", "why_tests_cant": "index arithmetic for all sizes", "anchors": ["pygfunction/solvers/detailed.py: thermal_response_factors, _thermal_response_factors_borehole_to_self"]}
{"id": "C50", "title": "Similarities solver fills the whole response matrix", "statement": "Every ordered pair of boreholes is assigned to exactly one similarity group, so that every entry of the segment-to-segment response matrix is written exactly once.", "quantifier": "for every bore field and every similarity relation", "why_tests_cant": "greedy grouping over all fields", "anchors": ["pygfunction/solvers/similarities.py: _find_axial_borehole_pairs, _map_segment_pairs_vertical, thermal_response_factors"]}
{"id": "C51", "title": "Similarities solver agrees with the detailed solver", "statement": "With exact comparisons, the value used for each pair of segments is the finite line source solution of that very pair of segments.", "quantifier": "for every bore field (vertical or inclined) and segmentation", "why_tests_cant": "soundness of the similarity relation at segment level for all fields", "anchors": ["pygfunction/solvers/similarities.py: _compare_realandimage_pairs_vertical, _compare_realandimage_pairs_inclined, _find_axial_borehole_pairs, _map_axial_segment_pairs_vertical"]}
{"id": "C52", "title": "Distance classes of the similarities solver respect the tolerance", "statement": "Every pair of boreholes of a group gets a representative distance within the relative tolerance disTol of its actual distance, and the search terminates.", "quantifier": "for every multiset of positive distances and tolerance > 0", "why_tests_cant": "greedy clustering over arbitrary multisets", "anchors": ["pygfunction/solvers/similarities.py: _find_distances"]}
{"id": "C53", "title": "Single inclined boreholes are treated as inclined", "statement": "The similarities solver treats a field made of one inclined borehole with the inclined finite line source solution.", "quantifier": "for every borehole", "why_tests_cant": "branch condition over all inputs", "anchors": ["pygfunction/solvers/similarities.py: _find_axial_borehole_pairs"]}
{"id": "C54", "title": "Equivalent boreholes group boreholes of equal dimensions and conserve length", "statement": "The equivalent solver partitions the boreholes into equivalent boreholes; all members of an equivalent borehole have the same length, depth and radius (within tolerance), and the total length is that of the field.", "quantifier": "for every bore field and every clustering outcome", "why_tests_cant": "bookkeeping between dimension groups and clusters for every ordering of the field", "anchors": ["pygfunction/solvers/equivalent.py: find_groups, _find_unique_boreholes, segment_lengths"]}
{"id": "C55", "title": "Nearest-distance weights of the equivalent solver count every pair", "statement": "For each pair of equivalent boreholes the weights over the unique distances add up to the number of pairs of boreholes, and each pair is assigned to the closest unique distance.", "quantifier": "for every sorted list of unique distances and every actual distances", "why_tests_cant": "binary search and tie breaking over all inputs", "anchors": ["pygfunction/solvers/equivalent.py: _find_unique_distances"]}
{"id": "C56", "title": "Legacy g-function interfaces honour their arguments", "statement": "mixed_inlet_temperature and equal_inlet_temperature evaluate the g-function for the mass flow rate and heat capacity passed as arguments.", "quantifier": "for every network, mass flow rate and heat capacity", "why_tests_cant": "dependence on an argument for all values", "anchors": ["pygfunction/gfunction.py: mixed_inlet_temperature, equal_inlet_temperature, gFunction._format_inputs"]}
{"id": "C57", "title": "Effective resistances are consistent", "statement": "For a single borehole with one circuit, network_thermal_resistance equals the effective borehole thermal resistance of the borehole, and the definition R = (T_f - T_b)/Q with mean fluid temperature and uniform wall temperature holds.", "quantifier": "for every pipe coefficients and flow", "why_tests_cant": "identity over all parameters", "anchors": ["pygfunction/networks.py: network_thermal_resistance", "pygfunction/pipes.py: effective_borehole_thermal_resistance"]}
{"id": "C58", "title": "ClaessonJaved aggregation preserves the mean age of the load", "statement": "As long as no load has left the oldest cell, the age-weighted sum of the aggregated loads (ages measured at the start of each cell, in time steps) equals the age-weighted sum of the loads that were set, for each source.", "quantifier": "for every increasing vector of cell times, every number of sources and every sequence of next_time_step / set_current_load calls shorter than the number of cells", "why_tests_cant": "The property is an invariant of arbitrary load histories; a test can only sample a few histories and cell layouts.", "anchors": ["pygfunction/load_aggregation.py: ClaessonJaved.next_time_step", "pygfunction/load_aggregation.py: ClaessonJaved._build_cells"]}
{"id": "C59", "title": "Equivalent boreholes accept the documented tuple", "statement": "The tuple of attributes (H, D, r_b, x, y) documented for the equivalent borehole constructor, with tilt and orientation defaulting to zero, builds an equivalent borehole.", "quantifier": "for every attribute values", "why_tests_cant": "the documented default form is never exercised; a law about every tuple", "anchors": ["pygfunction/boreholes.py: _EquivalentBorehole.__init__"]}
{"id": "C60", "title": "Equivalent boreholes stand for their members", "statement": "An equivalent borehole built from boreholes of common dimensions contains each of them once in order; splitting it into segments gives for every member the same segments as splitting the member itself; merging equivalent boreholes appends their members.", "quantifier": "for every list of boreholes of common dimensions, every segment ratios, every member", "why_tests_cant": "identity over all members, tilts and segmentations", "anchors": ["pygfunction/boreholes.py: _EquivalentBorehole.__init__, segments"]}
{"id": "C61", "title": "Deprecated field builders agree with the Borefield methods", "statement": "Each deprecated builder of the boreholes module returns the same boreholes as the Borefield class method of the same name called with the same arguments (in any order for the box), including the default origin, documented as the centre of the field.", "quantifier": "for every sizes, spacings, dimensions, tilt and origin", "why_tests_cant": "two independent implementations compared over unbounded sizes, including degenerate ones", "anchors": ["pygfunction/boreholes.py: rectangle_field, staggered_rectangle_field, dense_rectangle_field, L_shaped_field, U_shaped_field, box_shaped_field, circle_field", "pygfunction/borefield.py: same names"]}
{"id": "C62", "title": "Borefield equality", "statement": "Two bore fields compare equal exactly when they have the same number of boreholes and corresponding attributes agree within tolerance; the comparison is reflexive and symmetric.", "quantifier": "for every pair of bore fields", "why_tests_cant": "law over all pairs of fields, including values at the edge of the tolerance", "anchors": ["pygfunction/borefield.py: Borefield.__eq__"]}
{"id": "C63", "title": "Bore field files round-trip", "statement": "A bore field with at least one borehole written to a file and read back is the same bore field, and the deprecated file reader returns the boreholes of the field read by the new one, for files with or without inclination columns.", "quantifier": "for every non-empty bore field and every table of at least five columns", "why_tests_cant": "column order and broadcasting for all sizes", "anchors": ["pygfunction/borefield.py: to_file, from_file", "pygfunction/boreholes.py: field_from_file"]}
{"id": "C64", "title": "Inclined fields lean outward from the origin", "statement": "In every field built with a tilt, a borehole at least one radius away from the origin leans along the ray from the origin through its head: its toe is on the same ray, further by H*sin(tilt); boreholes at the origin are vertical.", "quantifier": "for every builder, every position, tilt and origin", "why_tests_cant": "trigonometric identity in all quadrants", "anchors": ["pygfunction/borefield.py: rectangle_field and the other builders"]}
{"id": "C65", "title": "Network inlet temperature for a heat rate inverts the heat rate", "statement": "The inlet temperature returned for a total heat extraction rate, given back to the network, produces that heat extraction rate; the query succeeds exactly when the heat rate depends on the inlet temperature.", "quantifier": "for every accepted connectivity, flows, wall temperatures and heat rate", "why_tests_cant": "inverse relation over all coefficients", "anchors": ["pygfunction/networks.py: get_network_inlet_temperature, coefficients_network_inlet_temperature, coefficients_network_heat_extraction_rate"]}
{"id": "C66", "title": "Heat balance of an equivalent network", "statement": "The heat extraction rate of an equivalent network equals |m_flow|*cp*(T_out - T_in), with its own network outlet temperature, whatever the numbers of boreholes represented by each equivalent borehole.", "quantifier": "for every weights with positive sum, scalar flow, segments and wall temperatures", "why_tests_cant": "conservation law over all weights", "anchors": ["pygfunction/networks.py: _EquivalentNetwork.coefficients_network_heat_extraction_rate, _coefficients_mixing, _format_inputs"]}
{"id": "C67", "title": "An equivalent network reproduces the parallel network it represents", "statement": "If every borehole of a parallel network has the pipes and the wall temperatures of its group, the equivalent network with one borehole per group, weighted by the number of boreholes of the group, has the same heat extraction rate and the same outlet temperature.", "quantifier": "for every assignment of boreholes to groups, flow, number of segments and wall temperatures", "why_tests_cant": "equality of two assemblies for all groupings", "anchors": ["pygfunction/networks.py: _EquivalentNetwork, Network"]}
{"id": "C68", "title": "Effective resistance of a single U-tube", "statement": "The effective borehole thermal resistance of a single U-tube or coaxial borehole equals the local borehole resistance times eta/tanh(eta), where eta is the borehole length over the heat capacity rate times the square root of (s/2)^2 + c*s with s the conductance to the wall and c the conductance between the legs. It is larger than the local resistance and at most (1+eta) times it.", "quantifier": "for every passive circuit of resistances, flow rate, heat capacity and length", "why_tests_cant": "closed form and inequality over all parameters", "anchors": ["pygfunction/pipes.py: effective_borehole_thermal_resistance, local_borehole_thermal_resistance, SingleUTube.coefficients_outlet_temperature"]}
{"id": "C69", "title": "Thermal resistances do not depend on turns, mirror images or the unit of length", "statement": "The thermal resistances (matrix and delta-circuit) of a borehole are unchanged when all pipes are turned about the borehole axis, mirrored, or when all lengths of the cross-section are multiplied by the same factor; the temperature field of the multipole method moves with the pipes and the number of iterations is the same.", "quantifier": "for every number of pipes, every order of multipoles, every angle and factor", "why_tests_cant": "equivariance of an iterative method over all geometries", "anchors": ["pygfunction/pipes.py: thermal_resistances, multipole, _F_mk"]}
{"id": "C70", "title": "The temperature field of the multipole method satisfies the conditions at the borehole wall", "statement": "The temperature field returned by the multipole method is continuous everywhere outside the pipes, also across the borehole wall, and the radial heat flux is the same on both sides of the wall (conductivity of the grout times slope inside equals conductivity of the ground times slope outside).", "quantifier": "for every set of pipes strictly inside the borehole, all heat flows, every order of multipoles, every direction", "why_tests_cant": "boundary condition of a field given by two formulas, for all geometries and orders", "anchors": ["pygfunction/pipes.py: multipole"]}
{"id": "C71", "title": "Every single U-tube that can be built is a passive circuit", "statement": "For any two pipes that fit in the borehole without overlapping and positive conductivities and pipe resistance, the line source resistance matrix can be inverted, construction succeeds and the thermal circuit is passive, so that the fluid temperature formulas apply for every non-zero flow rate.", "quantifier": "for every geometry accepted by the checks, every conductivities, every flow rate", "why_tests_cant": "positive definiteness over a continuum of geometries", "anchors": ["pygfunction/pipes.py: SingleUTube, thermal_resistances, _check_geometry"]}
{"id": "C72", "title": "The friction factor solves the Colebrook-White equation", "statement": "For a relative roughness up to 0.1 and a tolerance up to one half, the computation of the friction factor ends; from a Reynolds number of 2300 on, the Colebrook-White equation has exactly one solution and 1/sqrt(f) of the value returned is within the relative tolerance of it; below 2300, f Re = 64.", "quantifier": "for every flow rate, radius, viscosity, density, roughness and tolerance", "why_tests_cant": "termination and accuracy of an iteration for all parameters", "anchors": ["pygfunction/pipes.py: fluid_friction_factor_circular_pipe"]}
{"id": "C73", "title": "Fluid to pipe and fluid to fluid thermal resistances", "statement": "The resistances exist and are positive for every physical fluid and geometry; they do not depend on the direction of the flow nor on the order in which the pipes of a coaxial exchanger are given; two parallel U-tubes behave as single U-tubes with half of the flow; in laminar flow the film resistance of a pipe is 1/(3.66 pi k); conduction resistances of layers add up; U-tubes have no fluid to fluid resistance.", "quantifier": "for every pipe type, flow rate, radii, conductivities, roughness and fluid", "why_tests_cant": "statements over all inputs", "anchors": ["pygfunction/pipes.py: fluid_to_pipe_thermal_resistance, fluid_to_fluid_thermal_resistance, conduction_thermal_resistance_circular_pipe, convective_heat_transfer_coefficient_concentric_annulus"]}
{"id": "C74", "title": "The finite line source integrand is an integral of point sources", "statement": "The integrand of the finite line source solution, written with erf for vertical boreholes and along one borehole only for inclined ones, equals the double integral of point sources over the points of the two boreholes in space, minus the same for the mirror image of the emitting borehole; the steady-state solution is the integral of 1/distance.", "quantifier": "for every geometry, inclination, orientation and integration variable", "why_tests_cant": "analytic identity over all parameters", "anchors": ["pygfunction/heat_transfer.py: _finite_line_source_integrand, _finite_line_source_inclined_integrand, _finite_line_source_inclined_steady_state"]}
{"id": "C75", "title": "Sign and monotonicity of the response", "statement": "The response of a buried vertical borehole is positive with or without its image, the image alone is negative, the response increases with time and decreases with distance.", "quantifier": "for every lengths, depths, distances and times", "why_tests_cant": "inequalities over all real parameters", "anchors": ["pygfunction/heat_transfer.py: finite_line_source, _finite_line_source_integrand"]}
{"id": "C76", "title": "The transient solution tends to the steady-state solution", "statement": "The values of finite_line_source at increasing times tend to its value at time=inf, for vertical and inclined boreholes.", "quantifier": "for every geometry", "why_tests_cant": "limit", "anchors": ["pygfunction/heat_transfer.py: finite_line_source, _finite_line_source_steady_state, _finite_line_source_inclined_integrand, _finite_line_source_inclined_steady_state"]}
{"id": "C77", "title": "The response depends on dimensionless groups only", "statement": "Multiplying all lengths by l and the time by l^2, or dividing the time and multiplying the diffusivity by the same number, does not change finite_line_source.", "quantifier": "for every scale, geometry and time", "why_tests_cant": "invariance over all parameters", "anchors": ["pygfunction/heat_transfer.py: finite_line_source, _finite_line_source_integrand"]}
{"id": "C78", "title": "The equations of each time step are those of temporal superposition", "statement": "At every time, wall temperatures, heat extraction rates and inlet temperature returned for the UBWT and MIFT conditions satisfy the superposition of the response factors and the fluid equations of the network; with equal time steps the superposition is exactly the sum of load increments times the response at the elapsed time, and with constant loads it is exact on every time grid.", "quantifier": "for every number of sources, response factors, strictly increasing positive time vector", "why_tests_cant": "loop invariant over all grids and sizes", "anchors": ["pygfunction/solvers/_base_solver.py: solve, temporal_superposition, load_history_reconstruction"]}
{"id": "C79", "title": "g-functions of equal and different mass flow rates are consistent", "statement": "The value of the g-function for wall temperatures and fluid of the same mass flow rate is the one that the formula used for different mass flow rates gives, when the network coefficients are the sums of the segment coefficients.", "quantifier": "for every network coefficients, mass flow rates, time grid", "why_tests_cant": "algebraic identity over all coefficients", "anchors": ["pygfunction/solvers/_base_solver.py: solve"]}
{"id": "C80", "title": "g-functions of vertical fields: discretization, sign, growth and bounds", "statement": "With uniform heat extraction rates the g-function of a field of vertical boreholes does not depend on the number of segments or their lengths, is positive and increases with time. With uniform temperatures a solution exists whenever the response matrices are definite, it coincides with uniform heat extraction rates when all sources feel the same sum of responses (in particular for a single source), and its step response does not exceed that of uniform heat extraction rates.", "quantifier": "for every vertical field, segmentation, time grid", "why_tests_cant": "real-valued identities and inequalities for all fields", "anchors": ["pygfunction/solvers/_base_solver.py: solve", "pygfunction/solvers/detailed.py: thermal_response_factors"]}
{"id": "C81", "title": "Response factors of equivalent boreholes are averages of those of the boreholes", "statement": "For vertical boreholes with the same discretisation, the response factor between two segments of equivalent boreholes is the mean over the receiving boreholes of the sum over the emitting boreholes of the response factors of the detailed solver, up to the distance tolerance.", "quantifier": "for every field, every outcome of the clustering, all times and segments", "why_tests_cant": "averages over all pairs of boreholes with approximated distances, reciprocity and shared evaluations, for all fields", "anchors": ["pygfunction/solvers/equivalent.py: initialize, thermal_response_factors, find_groups, segment_lengths", "pygfunction/heat_transfer.py: finite_line_source_equivalent_boreholes_vectorized"]}
{"id": "C82", "title": "Uniform heat extraction rates: the equivalent solver gives the mean response of the field", "statement": "With the boundary condition of uniform heat extraction rates the g-function of the equivalent solver is the mean of the responses between the boreholes of the field, the same as that of the detailed solver, whatever the number of clusters and of segments.", "quantifier": "for every field, every outcome of the clustering, every segmentation and every time", "why_tests_cant": "independence of the clustering for all fields", "anchors": ["pygfunction/solvers/equivalent.py: initialize, thermal_response_factors, find_groups, segment_lengths", "pygfunction/heat_transfer.py: finite_line_source_equivalent_boreholes_vectorized"]}
{"id": "C83", "title": "Uniform wall temperature: equivalent boreholes are exact for symmetric groups", "statement": "If the boreholes of each equivalent borehole see the boreholes of every other one at the same distances, the g-function and heat extraction rates for a uniform wall temperature are those of the detailed solver.", "quantifier": "for every field, every outcome of the clustering with this symmetry, every time grid", "why_tests_cant": "equality of the solutions of two systems of different sizes through the whole time history, for all fields", "anchors": ["pygfunction/solvers/equivalent.py: initialize, thermal_response_factors, find_groups, segment_lengths", "pygfunction/heat_transfer.py: finite_line_source_equivalent_boreholes_vectorized"]}
{"id": "C84", "title": "Values of the g-function do not depend on later times", "statement": "The values of a g-function at the first times of a list are those of a g-function asked for these times only.", "quantifier": "for every field or network, method, boundary condition and list of times (several mass flow rates: for times above the linear start)", "why_tests_cant": "the time history is solved step by step through an interpolated and reversed history; independence must hold for all lists", "anchors": ["pygfunction/gfunction.py: gFunction.__init__, evaluate_g_function, _format_inputs, _check_inputs", "pygfunction/solvers/_base_solver.py: solve, temporal_superposition, load_history_reconstruction"]}
{"id": "C85", "title": "Values missing from a call are completed from the network", "statement": "Without a boundary condition, a list of boreholes is solved for a uniform wall temperature and a network for a uniform inlet fluid temperature. A mass flow rate or heat capacity that is not given is the one stored in the network, and one that is given takes precedence.", "quantifier": "for every network, stored value and other argument", "why_tests_cant": "all combinations of types of stored values and arguments", "anchors": ["pygfunction/gfunction.py: gFunction.__init__, evaluate_g_function, _format_inputs, _check_inputs"]}
{"id": "C86", "title": "Flows for each borehole are accepted by the default method", "statement": "A network of boreholes can be given the mass flow rate of each borehole, for the default method as for the others; boreholes in series or with different flows are solved by the method of the similarities.", "quantifier": "for every network, array of flows and argument", "why_tests_cant": "a statement about all networks and flows, including the choice of the solver", "anchors": ["pygfunction/gfunction.py: gFunction.__init__, evaluate_g_function, _format_inputs, _check_inputs", "pygfunction/solvers/equivalent.py: _check_solver_specific_inputs"]}
{"id": "C87", "title": "Times of the g-function", "statement": "One value is returned for each time; negative times count as zero; a single time is an array of one time; times out of order are an error; the values start from zero on a line up to the threshold r_b^2/(25 alpha).", "quantifier": "for every object and list of times", "why_tests_cant": "all lists of times, including zero, negative and unordered ones", "anchors": ["pygfunction/gfunction.py: gFunction.__init__, evaluate_g_function, _format_inputs, _check_inputs", "pygfunction/solvers/_base_solver.py: solve"]}
{"id": "C88", "title": "from_static_params is the g-function of the objects it describes", "statement": "gFunction.from_static_params gives the g-function of the boreholes, or of the network of pipes, built from its parameters, with the fluid at the given temperature.", "quantifier": "for every set of parameters", "why_tests_cant": "equality of two constructions for all parameters", "anchors": ["pygfunction/gfunction.py: gFunction.from_static_params", "pygfunction/media.py: Fluid"]}
{"id": "C89", "title": "The methods agree through the g-function object", "statement": "For fields whose distances the tolerances do not confuse, method='similarities' and method='detailed' give the same g-function; method='equivalent' too for a uniform wall temperature and a clustering that respects the symmetry.", "quantifier": "for every boundary condition (similarities), field, time list", "why_tests_cant": "equality of two different algorithms for all fields", "anchors": ["pygfunction/gfunction.py: gFunction.__init__, evaluate_g_function, _format_inputs, _check_inputs"]}
{"id": "C90", "title": "Uniform heat extraction rate: value of the g-function", "statement": "For a uniform heat extraction rate, the g-function at each time is the mean over the boreholes of the sum of the finite line source responses of all boreholes, independently of the number of segments; it is positive and increases.", "quantifier": "for every vertical field, segmentation and time list", "why_tests_cant": "an identity with exact integrals for all fields, and monotonicity over a continuum", "anchors": ["pygfunction/gfunction.py: gFunction.__init__, evaluate_g_function, _format_inputs, _check_inputs"]}
{"id": "C91", "title": "Several mass flow rates at once", "statement": "If several mass flow rates are given, the diagonal g-functions are those of each flow alone, and the cross g-functions of two equal flows are the g-function of this flow.", "quantifier": "for every network, list of flows, times above the linear start", "why_tests_cant": "equality of results of separate runs for all inputs", "anchors": ["pygfunction/gfunction.py: gFunction.__init__, evaluate_g_function, _format_inputs, _check_inputs"]}
{"id": "C93", "title": "Evaluating a g-function leaves the network unchanged", "statement": "Creating a gFunction object does not change the network it is given, so that later g-functions of the same network are not affected.", "quantifier": "for every network, method and argument", "why_tests_cant": "aliasing for all networks and options", "anchors": ["pygfunction/gfunction.py: gFunction.__init__, evaluate_g_function, _format_inputs, _check_inputs", "pygfunction/solvers/equivalent.py: _check_solver_specific_inputs"]}
{"id": "C94", "title": "The g-function of a network exists", "statement": "For a uniform inlet temperature the linear systems of all time steps have a unique solution, so that a g-function is returned, if each borehole takes heat where its wall is warmer than its inlet and the ground responses are positive definite.", "quantifier": "for every vertical field, network, flow and list of times", "why_tests_cant": "solvability of an unbounded sequence of linear systems", "anchors": ["pygfunction/gfunction.py: gFunction.__init__, evaluate_g_function, _format_inputs, _check_inputs"]}
{"id": "C95", "title": "Fluid temperatures of several U-tubes obey the energy balances", "statement": "get_temperature of MultipleUTube and IndependentMultipleUTube returns the only continuous fluid temperatures for which, in every segment, the heat capacity rate of each leg times its temperature gradient is the heat received from the wall and the other pipes through the delta-circuit; both legs of a U-tube agree at the bottom; the legs are fed at the top as the configuration says. get_outlet_temperature and get_borehole_heat_extraction_rate are the mixed temperature at the top and the heat flow through the wall of each segment of these temperatures.", "quantifier": "for every number of U-tubes, circuit of resistances, configuration (parallel, series, independent), flow rates and segments", "why_tests_cant": "solution of a boundary value problem of any size, existence and uniqueness", "anchors": ["pygfunction/pipes.py: MultipleUTube, IndependentMultipleUTube, _BasePipe"]}
{"id": "C96", "title": "Answers do not depend on the eigenvectors", "statement": "The temperatures and heat extraction rates are the same for every (real or complex) set of eigenvectors that numpy.linalg.eig may return.", "quantifier": "for every number of U-tubes, circuit of resistances, configuration (parallel, series, independent), flow rates and segments", "why_tests_cant": "all bases of eigenvectors", "anchors": ["pygfunction/pipes.py: MultipleUTube, IndependentMultipleUTube, _BasePipe"]}
{"id": "C97", "title": "Heat taken from the wall is carried away", "statement": "The heat extraction rates of the segments sum up to get_total_heat_extraction_rate, which is the sum over the circuits of the heat capacity rate times the temperature rise of get_fluid_heat_extraction_rate.", "quantifier": "for every number of U-tubes, circuit of resistances, configuration (parallel, series, independent), flow rates and segments", "why_tests_cant": "identity for all parameters", "anchors": ["pygfunction/pipes.py: MultipleUTube, IndependentMultipleUTube, _BasePipe"]}
{"id": "C98", "title": "Several U-tubes at equilibrium", "statement": "If inlet and wall temperatures are all t, all fluid temperatures are t and no heat is exchanged.", "quantifier": "for every number of U-tubes, circuit of resistances, configuration (parallel, series, independent), flow rates and segments", "why_tests_cant": "identity for all parameters", "anchors": ["pygfunction/pipes.py: MultipleUTube, IndependentMultipleUTube, _BasePipe"]}
{"id": "C99", "title": "Several U-tubes are passive", "statement": "For every reference temperature t, the sum of (wall temperature - t) times heat extraction rate is at least half the gain of heat capacity rate times squared temperature above t of the fluid. In particular a borehole fed at t takes heat from warm walls on the average.", "quantifier": "for every number of U-tubes, circuit of resistances, configuration (parallel, series, independent), flow rates and segments", "why_tests_cant": "inequality between integrals for all parameters", "anchors": ["pygfunction/pipes.py: MultipleUTube, IndependentMultipleUTube, _BasePipe"]}
{"id": "C100", "title": "get_inlet_temperature of several U-tubes", "statement": "The inlet temperatures returned for requested heat extraction rates exist and produce exactly these rates, for any number of independent circuits.", "quantifier": "for every number of U-tubes, circuit of resistances, configuration (parallel, series, independent), flow rates and segments", "why_tests_cant": "inverse of a matrix of any size", "anchors": ["pygfunction/pipes.py: MultipleUTube, IndependentMultipleUTube, _BasePipe"]}
{"id": "C101", "title": "One U-tube of MultipleUTube is a SingleUTube", "statement": "With nPipes = 1 all three configurations return the temperatures and heat extraction rates of SingleUTube with the same resistances.", "quantifier": "for every circuit, flow, direction and segments", "why_tests_cant": "agreement of two closed forms (hyperbolic functions and matrix exponential)", "anchors": ["pygfunction/pipes.py: MultipleUTube, IndependentMultipleUTube, SingleUTube"]}
{"id": "C102", "title": "Independent U-tubes fed alike", "statement": "IndependentMultipleUTube with the flow divided equally and equal inlet temperatures has the temperatures and heat extraction rates of MultipleUTube in parallel, and the mean of its outlet temperatures is the outlet temperature.", "quantifier": "for every number of U-tubes, circuit of resistances, configuration (parallel, series, independent), flow rates and segments", "why_tests_cant": "agreement of two systems for all parameters", "anchors": ["pygfunction/pipes.py: MultipleUTube, IndependentMultipleUTube, _BasePipe"]}
{"id": "C103", "title": "Reversed flow in several U-tubes", "statement": "A negative flow in a reversible borehole gives the temperatures and heat extraction rates of the positive flow in the borehole with its pipes numbered backwards.", "quantifier": "for every circuit, parallel or series, flow and segments", "why_tests_cant": "symmetry for all parameters", "anchors": ["pygfunction/pipes.py: MultipleUTube, IndependentMultipleUTube, _BasePipe"]}
{"id": "C104", "title": "Flow without sign if not reversible", "statement": "With reversible_flow=False the direction of the flow is not taken into account: MultipleUTube and IndependentMultipleUTube answer for m_flow_borehole as for its absolute value.", "quantifier": "for every circuit and flow", "why_tests_cant": "sign of the flow for all parameters", "anchors": ["pygfunction/pipes.py: MultipleUTube, IndependentMultipleUTube, _BasePipe"]}
{"id": "C105", "title": "Fluid temperatures stay in range", "statement": "With positive delta-circuit resistances, all fluid and outlet temperatures lie between the lowest and the highest of the inlet and wall temperatures.", "quantifier": "for every number of U-tubes, circuit of resistances, configuration (parallel, series, independent), flow rates and segments", "why_tests_cant": "maximum principle for all parameters", "anchors": ["pygfunction/pipes.py: MultipleUTube, IndependentMultipleUTube, _BasePipe"]}
{"id": "C106", "title": "Effective resistance of several U-tubes", "statement": "effective_borehole_thermal_resistance of MultipleUTube is positive and is the ratio of the difference of the uniform wall temperature and the mean of inlet and outlet temperatures to the heat extraction rate per length.", "quantifier": "for every circuit, flow and configuration with one inlet", "why_tests_cant": "identity and sign for all parameters", "anchors": ["pygfunction/pipes.py: MultipleUTube, IndependentMultipleUTube, _BasePipe"]}
{"id": "C107", "title": "Several U-tubes in networks", "statement": "The coefficients of MultipleUTube given to a Network preserve equal temperatures, agree between borehole and fluid heat extraction, are passive, and reduce deviations of the inlet temperature.", "quantifier": "for every circuit, flow, configuration with one inlet and segments", "why_tests_cant": "identities for all parameters", "anchors": ["pygfunction/pipes.py: MultipleUTube", "pygfunction/networks.py: Network"]}
{"id": "C108", "title": "A borehole network creates no energy", "statement": "For a network of SingleUTube, Coaxial and MultipleUTube boreholes, at all inlet and wall temperatures and for every reference temperature c, the sum over the segments of (wall temperature - c) times the heat extraction rate is at least half the sum over the circuits of the heat capacity rate times ((outlet temperature - c)^2 - (inlet temperature - c)^2). Walls at one temperature therefore give heat to a colder inlet fluid and take heat from a warmer one, and a warmer inlet fluid takes less heat from the ground. This is what the g-function of a network needs to exist (C94).", "quantifier": "for every layout of the connections, flow direction, mixture of borehole types, number of segments and temperatures", "why_tests_cant": "inequality between outputs over all temperatures, networks and flows", "anchors": ["pygfunction/networks.py: Network.coefficients_borehole_heat_extraction_rate, coefficients_outlet_temperature", "pygfunction/pipes.py: SingleUTube, Coaxial, MultipleUTube", "pygfunction/solvers/_base_solver.py: solve"]}
{"id": "C109", "title": "The approximation between vertical boreholes is close to the solution", "statement": "finite_line_source with approximation=True differs from the value without it by at most (e + d w) E1(dis^2/(4 alpha t)) L / (4 H2), where e is the largest error of the sum of exponentials that stands for the error function, d the relative error of the formula of the exponential integral E1, w the sum of the absolute coefficients and L the sum of the distances between the ends of the boreholes and of their images. With the default number of terms e is at most 1/500 and w at most 2 + 1/500.", "quantifier": "for all positive times, diffusivities, distances, lengths and depths, real and image parts, all coefficients and formulas of E1", "why_tests_cant": "bound of an error over a continuum of arguments; tests compare a few values with a tolerance", "anchors": ["pygfunction/heat_transfer.py: finite_line_source_approximation, finite_line_source", "pygfunction/utilities.py: _erf_coeffs, exp1"]}
{"id": "C110", "title": "The approximation between inclined boreholes is close to the solution", "statement": "finite_line_source with approximation=True and an inclined borehole differs from the value without it, with the same Gauss-Legendre rule, by at most the number of parts asked for times (e + d w) E1(r_b^2/(4 alpha t)) times the sum of the absolute weights times H1 / (2 H2), provided every node of the rule is at least a radius away from the axis of the receiving borehole or on it.", "quantifier": "for all tilts, orientations, positions, lengths, times, rules and coefficients", "why_tests_cant": "bound of an error over a continuum of geometries and times", "anchors": ["pygfunction/heat_transfer.py: finite_line_source_inclined_approximation, finite_line_source_inclined_vectorized"]}
{"id": "C111", "title": "Identities of the approximation", "statement": "The approximation for inclined boreholes is the sum of its real and image parts; the length of a receiving borehole times its value is the sum of the same over the parts of the borehole; multiplying all lengths by l and the time by l^2 changes neither this approximation nor the one for vertical boreholes.", "quantifier": "for all boreholes, rules, coefficients, formulas of E1, times and splittings", "why_tests_cant": "equalities over all geometries, splittings and scales", "anchors": ["pygfunction/heat_transfer.py: finite_line_source_inclined_approximation, finite_line_source_approximation"]}
{"id": "C112", "title": "The tabulated coefficients approximate the error function", "statement": "For every number of terms N that the table has, the sum of a_n exp(-b_n x^2) is within 1/8 of erf(x) for all x >= 0, increases with x and stays below one; for the default N = 10 it is within 1/500. All N up to the documented maximum of 25 are accepted.", "quantifier": "for all x >= 0 and all N", "why_tests_cant": "uniform bound over an unbounded interval for 25 tables of constants", "anchors": ["pygfunction/utilities.py: _erf_coeffs, _a_Q, _b_Q, _a_erf, _b_erf", "pygfunction/heat_transfer.py: finite_line_source (parameter N)"]}
{"id": "C113", "title": "Lists of boreholes give the table of the pairs", "statement": "finite_line_source called with lists of boreholes (or a list and a borehole) returns the table of its values for the pairs of boreholes, with one row for each receiving borehole: the value of a pair does not depend on the other boreholes in the lists.", "quantifier": "for all lists, times (number, array, infinity), real and image parts", "why_tests_cant": "relation between calls over all mixtures of vertical and inclined boreholes", "anchors": ["pygfunction/heat_transfer.py: finite_line_source, finite_line_source_vectorized, finite_line_source_inclined_vectorized, _finite_line_source_inclined_steady_state", "pygfunction/boreholes.py: Borehole.distance, is_vertical"]}
{"id": "C114", "title": "The heat extraction rates of the figure have mean 1", "statement": "In visualize_heat_extraction_rates, called for all boreholes of a gFunction with profiles=True, there is one curve per borehole, in their order, and the mean of the curves weighted by the borehole lengths is 1 at every time. With the method 'equivalent' there is one curve per group of boreholes and the weights are the total lengths of the groups. The figure, and that of the temperatures, exists for every object that has a g-function.", "quantifier": "for every field, segmentation, list of times, boundary condition, method, mass flow rate of several", "why_tests_cant": "equality between quantities that come from the solution of a linear system at each time, for all fields and times", "anchors": ["pygfunction/gfunction.py: gFunction.visualize_heat_extraction_rates, _heat_extraction_rates", "pygfunction/solvers/_base_solver.py: solve"]}
{"id": "C115", "title": "The wall temperatures of the figure agree with the g-function", "statement": "In visualize_temperatures, called for all boreholes: with boundary condition 'UHTR' the length-weighted mean of the curves equals gFunc at every time; with 'UBWT' every curve equals gFunc.", "quantifier": "for every field, segmentation and list of times; UBWT also for every method and choice of boreholes", "why_tests_cant": "equality of two outputs for all inputs", "anchors": ["pygfunction/gfunction.py: gFunction.visualize_temperatures, _temperatures", "pygfunction/solvers/_base_solver.py: solve"]}
{"id": "C116", "title": "Profiles along the boreholes agree with the curves over time", "statement": "visualize_heat_extraction_rate_profiles and visualize_temperature_profiles: the mean of the profile of a borehole, weighted by the segment ratios, is the last value of its curve over time, or for a given time the value on the line between the two surrounding times. The points lie at the mid-points of the segments; a single segment is drawn from end to end. Uniform heat extraction rates are drawn as 1 from end to end. Times before the first or after the last raise an error.", "quantifier": "for every field, segmentation, list of increasing times, boundary condition and time within the range", "why_tests_cant": "relates two figures for all inputs; interpolation at all real times", "anchors": ["pygfunction/gfunction.py: gFunction.visualize_heat_extraction_rate_profiles, visualize_temperature_profiles, _heat_extraction_rate_profiles, _temperature_profiles"]}
{"id": "C117", "title": "Profiles with several mass flow rates", "statement": "For an object with an array of several mass flow rates, the profile figures can be drawn for each flow, at the last time and at any time within the range.", "quantifier": "for every field of at least two boreholes, times and arrays of flows", "why_tests_cant": "the error shows only for arrays of flows together with a time, and is independent of the values", "anchors": ["pygfunction/gfunction.py: gFunction._heat_extraction_rate_profiles, _temperature_profiles"]}
{"id": "C118", "title": "Temperature profiles with a uniform wall temperature", "statement": "For an object with boundary condition 'UBWT', visualize_temperature_profiles draws the profiles.", "quantifier": "for every object with a uniform borehole wall temperature, every time", "why_tests_cant": "the call fails for all inputs with the versions of numpy that the package requires; no test draws it", "anchors": ["pygfunction/gfunction.py: gFunction._temperature_profiles", "setup.cfg: install_requires"]}
{"id": "C119", "title": "Profiles are drawn at the depths of the points of the borehole", "statement": "In the profile figures, the vertical coordinate of a point is the depth below the ground surface of the corresponding point of the borehole.", "quantifier": "for every borehole, vertical or inclined, every segmentation, boundary condition and time", "why_tests_cant": "geometric statement over all boreholes and segmentations", "anchors": ["pygfunction/gfunction.py: gFunction._heat_extraction_rate_profiles, _temperature_profiles", "pygfunction/boreholes.py: Borehole._segment_midpoints"]}
{"id": "C120", "title": "All figures of an object share the time axis", "statement": "The curves of visualize_heat_extraction_rates and visualize_temperatures have the same abscissae ln(t/ts) as those of visualize_g_function, with ts = H^2/(9 alpha) and H the mean length of the boreholes; the latter goes through the values of gFunc.", "quantifier": "for every field, method, list of times and diffusivity", "why_tests_cant": "equality for all fields; differs only for groups of different sizes and lengths", "anchors": ["pygfunction/gfunction.py: gFunction.visualize_g_function, visualize_heat_extraction_rates, visualize_temperatures"]}
{"id": "C121", "title": "The ground response of vertical boreholes is stable", "statement": "For a field of vertical boreholes that are all at least six borehole radii apart, cut into segments of any lengths, and any pattern of heat extraction rates that is not zero everywhere, the sum over the segments of the heat extracted times the drop of the wall temperature that it causes is positive. So no pattern of extraction and injection can be kept up without effect on the wall temperatures, and the system of a uniform wall temperature has one solution.", "quantifier": "for every number of boreholes and segments, all positions, lengths and depths, every time, every heat extraction pattern", "why_tests_cant": "a statement about the definiteness of a matrix of integrals, of any size, for all geometries and times", "anchors": ["pygfunction/solvers/detailed.py: Detailed.thermal_response_factors", "pygfunction/heat_transfer.py: finite_line_source"]}
{"id": "C122", "title": "Every such field has a g-function at a uniform wall temperature", "statement": "For a field of vertical boreholes at least six radii apart, gFunction with boundary_condition='UBWT' returns one value per time for every list of increasing times that does not repeat a time; no linear system in it is singular. For the methods 'similarities' and 'equivalent' this holds for the fields on which they agree with 'detailed'.", "quantifier": "for every field, segmentation and list of times", "why_tests_cant": "existence of a solution of a linear system at every time step, for all fields", "anchors": ["pygfunction/gfunction.py: gFunction.evaluate_g_function", "pygfunction/solvers/_base_solver.py: solve", "pygfunction/solvers/detailed.py: Detailed.thermal_response_factors"]}
{"id": "C123", "title": "The first value at a uniform wall temperature is below that of uniform heat extraction", "statement": "For such a field and a first time that is positive, the first value of the g-function with 'UBWT' is positive and at most the first value with 'UHTR' for the same times.", "quantifier": "for every field, segmentation and list of times", "why_tests_cant": "inequality between two solutions for all geometries", "anchors": ["pygfunction/gfunction.py: gFunction.evaluate_g_function", "pygfunction/solvers/_base_solver.py: solve"]}
{"id": "C124", "title": "Fields of the library have g-functions", "statement": "For the fields of vertical boreholes built by Borefield.rectangle_field, staggered_rectangle_field, dense_rectangle_field, L_shaped_field, U_shaped_field, box_shaped_field and circle_field with a spacing of at least six borehole radii, evaluate_g_function with method='detailed', default options and boundary condition 'UBWT' or 'UHTR' returns one value for each of any positive increasing times. The first value with 'UBWT' is positive and at most that with 'UHTR', whose values increase with time.", "quantifier": "for all numbers of boreholes, spacings, dimensions, origins, diffusivities and times", "why_tests_cant": "composition of the builders, the segment ratios, the solver and its linear systems, for all sizes of fields", "anchors": ["pygfunction/borefield.py: Borefield.evaluate_g_function, rectangle_field, staggered_rectangle_field, dense_rectangle_field, L_shaped_field, U_shaped_field, box_shaped_field, circle_field", "pygfunction/gfunction.py: gFunction", "pygfunction/utilities.py: segment_ratios"]}
{"id": "C125", "title": "The g-function does not depend on the place of the field or on the direction of the axes", "statement": "Displacing, turning or mirroring a whole field of boreholes (their heads and the directions in which they lean) leaves gFunction unchanged, at every boundary condition, with or without a network of pipes: with method='detailed' for all fields, with the other methods for all displacements, for all vertical fields, and for inclined fields whose segments are either above each other or at a distance in plan that floats tell from zero.", "quantifier": "for all fields, motions, times, options, methods and boundary conditions", "why_tests_cant": "tests compare a few fields; invariance under all motions of all fields, including the grouping of similar pairs and of similar boreholes, needs a proof", "anchors": ["pygfunction/gfunction.py: gFunction", "pygfunction/heat_transfer.py: finite_line_source, _finite_line_source_integrand, _finite_line_source_inclined_integrand", "pygfunction/solvers/similarities.py: Similarities._find_axial_borehole_pairs, _compare_realandimage_pairs_inclined", "pygfunction/solvers/equivalent.py: Equivalent.find_groups", "pygfunction/boreholes.py: Borehole"]}
{"id": "C126", "title": "The order of the boreholes does not change the g-function", "statement": "Listing the vertical boreholes of a field in another order, each with its own number of segments and ratios, leaves gFunction unchanged with boundary conditions 'UHTR' and 'UBWT' and method='detailed', and with method='similarities' for fields that the tolerances do not confuse. In particular the deprecated builder boreholes.box_shaped_field, which lists boreholes in another order than Borefield.box_shaped_field, gives the same g-function.", "quantifier": "for all fields of vertical boreholes, orders, numbers of segments, ratios and times", "why_tests_cant": "the solver fills blocks below the diagonal by reciprocity, in the order of the boreholes, and solves a system whose pivots depend on the order; tests compare a few orders", "anchors": ["pygfunction/gfunction.py: gFunction, uniform_temperature", "pygfunction/solvers/detailed.py: Detailed.thermal_response_factors", "pygfunction/solvers/_base_solver.py: _BaseSolver.solve", "pygfunction/boreholes.py: box_shaped_field"]}
{"id": "C127", "title": "The units of length and time do not change the g-function", "statement": "Multiplying all lengths of a field by l > 0, all times by mu > 0 and the thermal diffusivity by l^2/mu leaves gFunction unchanged with boundary conditions 'UHTR' and 'UBWT' and method='detailed'. The g-function of a field is therefore that of its dimensionless form: lengths over a length L, times over L^2/alpha, diffusivity 1. With method='similarities' the same holds for fields that the tolerances do not confuse in either unit.", "quantifier": "for all fields of vertical boreholes and all fields of inclined boreholes without a quadrature node on another segment, all l, mu, alpha > 0, numbers of segments, positive ratios and times", "why_tests_cant": "the linear start, the interpolation of past loads and the integrals over infinite intervals all depend on absolute times and lengths; tests evaluate fields in one unit", "anchors": ["pygfunction/gfunction.py: gFunction", "pygfunction/heat_transfer.py: finite_line_source, finite_line_source_vectorized, finite_line_source_inclined_vectorized", "pygfunction/solvers/_base_solver.py: _BaseSolver.solve", "pygfunction/boreholes.py: find_duplicates"]}
{"id": "C128", "title": "Spacing lowers and burial depth raises the g-function at uniform heat extraction rates", "statement": "With boundary_condition='UHTR' and method='detailed', a field of the same vertical boreholes no pair of which is closer has lower g-functions at every time, strictly lower if some pair is further apart. The same field at a greater burial depth has strictly higher g-functions at positive times. In particular a rectangular field with wider spacings has lower g-functions.", "quantifier": "for all fields of vertical boreholes with a g-function, all positive diffusivities, positive ratios and times, all additional depths", "why_tests_cant": "a test compares two fields; the sign for every geometry and time rests on the monotonicity of an integral of differences of error functions", "anchors": ["pygfunction/gfunction.py: gFunction", "pygfunction/heat_transfer.py: finite_line_source", "pygfunction/borefield.py: Borefield.rectangle_field, Borefield.evaluate_g_function"]}
{"id": "C129", "title": "Equivalent boreholes do not change the g-functions of parallel networks", "statement": "With boundary_condition='MIFT', gFunction with method='equivalent' returns the same values as with method='detailed' for a network of boreholes in parallel, if boreholes of the same dimensions have the same pipes and every borehole of a group sees the same distances to the boreholes of each group. This holds for one mass flow rate of the network and for an array of them, where all g-functions of pairs of flow rates agree.", "quantifier": "for all fields that the tolerances do not confuse, all equitable clusterings, all pipes, nonzero mass flow rates of the network, time grids, diffusivities, numbers and ratios of segments", "why_tests_cant": "the tests compare both methods on single fields up to a tolerance and cannot tell an approximation from an identity; whether grouping commutes with the solution of the linear systems of all time steps is a statement on all fields", "anchors": ["pygfunction/gfunction.py: gFunction", "pygfunction/solvers/equivalent.py: Equivalent", "pygfunction/networks.py: Network, _EquivalentNetwork"]}
{"id": "C130", "title": "Thermal resistances of any number of pipes that fit in a borehole are those of a passive circuit", "statement": "With J=0, thermal_resistances succeeds for any number of pipes of any radii that lie side by side inside the borehole. The matrix R is symmetric and positive definite: heat flows that do not all vanish always lose work. The delta-circuit gives heat flows that lose work for all fluid temperatures that are not all at the wall temperature. MultipleUTube and IndependentMultipleUTube are built whenever the geometry is valid, and their resistances, if finite, meet the condition under which the fluid temperatures are well defined and heat flows to the colder side (C95-C107).", "quantifier": "for all numbers, positions and radii of pipes without overlap inside the borehole (touching allowed), all positive conductivities and fluid to pipe resistances", "why_tests_cant": "positive definiteness for every number and every position of the pipes is a statement on the logarithmic potential in a disk; tests can only try single geometries, and a singular or indefinite matrix appears on exceptional ones", "anchors": ["pygfunction/pipes.py: thermal_resistances, MultipleUTube, IndependentMultipleUTube"]}
{"id": "C131", "title": "Better conductors lower the local borehole thermal resistance", "statement": "With J=0, local_borehole_thermal_resistance is positive, and it does not increase when pipes are added, when outer radii of the pipes grow, when the conductivity of the ground or of the grout grows, or when fluid to pipe resistances decrease, the other arguments being the same.", "quantifier": "for all pairs of valid cross-sections of any numbers of pipes ordered in this way", "why_tests_cant": "the resistance is the inverse of the trace of an inverted matrix in all arguments; monotony over all geometries cannot be sampled", "anchors": ["pygfunction/pipes.py: thermal_resistances, _BasePipe.local_borehole_thermal_resistance"]}
{"id": "C132", "title": "The effective resistance of several U-tubes is at least the local resistance", "statement": "For a MultipleUTube in series or in parallel, effective_borehole_thermal_resistance is at least local_borehole_thermal_resistance, which is positive: mixing along the depth and between the legs never helps. For boreholes built with J=0 no condition on the circuit is needed but finite resistances.", "quantifier": "for all passive circuits of any number of U-tubes, all nonzero flow rates, heat capacities and borehole lengths", "why_tests_cant": "the inequality relates an expression of eigenvalues and eigenvectors at all flow rates and lengths to the delta-circuit; a test covers single numbers", "anchors": ["pygfunction/pipes.py: _BasePipe.effective_borehole_thermal_resistance, _BasePipe.local_borehole_thermal_resistance, MultipleUTube"]}
{"id": "C133", "title": "ClaessonJaved does not overestimate under loads that never decrease", "statement": "If the thermal responses grow by no more in each time step than in the one before, and the load of every source starts at or above zero and never decreases, then temporal_superposition of ClaessonJaved returns at most the exact temporal superposition of the loads. A load that stops may be overestimated.", "quantifier": "for all time steps, horizons, cells per level, numbers of sources, numbers of steps (also beyond the horizon), call sequences and slowing responses", "why_tests_cant": "an inequality between two schemes for every load history of every length; a test compares a few histories within a tolerance", "anchors": ["pygfunction/load_aggregation.py: ClaessonJaved", "pygfunction/utilities.py: time_ClaessonJaved"]}
{"id": "C134", "title": "The response of a single vertical borehole slows down", "statement": "The finite line source response of a vertical borehole at its own wall is a concave function of time from r_b^2/(4 alpha) on, and with a time step of at least 5 r_b^2/(8 alpha) it grows by less in each step than in the one before, the first step included. So a simulation of one borehole with ClaessonJaved and the g-function of evaluate_g_function (UHTR, detailed) never gives more than the exact superposition when the load never decreases.", "quantifier": "for all lengths, depths, radii, diffusivities and times; all numbers of segments, conductivities, horizons, cells per level and load histories that never decrease", "why_tests_cant": "concavity over all times and a bound over all load histories", "anchors": ["pygfunction/heat_transfer.py: finite_line_source", "pygfunction/borefield.py: Borefield.evaluate_g_function", "pygfunction/load_aggregation.py: ClaessonJaved"]}
{"id": "C135", "title": "MLAA errs to one side under monotone loads and not at all under constant ones", "statement": "If the thermal responses grow by no more in each time step than in the one before, then temporal_superposition of MLAA returns at most the exact superposition when no load ever decreases, and at least the exact superposition when no load ever increases, whatever the signs of the loads. Constant loads are superposed exactly, for any thermal response.", "quantifier": "for all horizons, positive numbers of cells on the levels, numbers of sources, call sequences and time steps; all slowing responses (all responses for constant loads)", "why_tests_cant": "an inequality for every load history of every length", "anchors": ["pygfunction/load_aggregation.py: MLAA"]}
{"id": "C136", "title": "Liu errs to one side under monotone loads and not at all under constant ones", "statement": "If the thermal responses grow by no more in each time step than in the one before, then temporal_superposition of Liu returns at most the exact superposition when no load ever decreases, and at least the exact superposition when no load ever increases, whatever the signs of the loads. Constant loads are superposed exactly, for any thermal response.", "quantifier": "for all horizons, positive numbers of cells on the levels, waiting periods, numbers of sources, call sequences and time steps; all slowing responses (all responses for constant loads)", "why_tests_cant": "an inequality for every load history of every length", "anchors": ["pygfunction/load_aggregation.py: Liu"]}
{"id": "C137", "title": "Effective resistance of one U-tube: effect of flow, length and pipe resistances", "statement": "For a borehole with one U-tube or coaxial pipes and fixed resistances, effective_borehole_thermal_resistance is smaller the larger the heat capacity rate of the flow and larger the longer the borehole. Smaller conductances to the wall and a larger conductance between the legs never lower it. It tends to local_borehole_thermal_resistance, from above, as the flow grows.", "quantifier": "for all delta-circuits that conduct, lengths, flow rates of one direction and heat capacities", "why_tests_cant": "strict monotonicity and a limit over a continuum of flow rates and lengths", "anchors": ["pygfunction/pipes.py: _BasePipe.effective_borehole_thermal_resistance", "pygfunction/pipes.py: _BasePipe.local_borehole_thermal_resistance", "pygfunction/pipes.py: SingleUTube", "pygfunction/pipes.py: Coaxial"]}
{"id": "C138", "title": "Heat of one U-tube at a uniform wall temperature: effect of flow and length", "statement": "At one wall temperature different from the inlet temperature, a larger flow through a borehole with one U-tube or coaxial pipes exchanges strictly more heat and its outlet temperature is strictly nearer to the inlet temperature. A longer borehole with the same resistances exchanges strictly more heat and its outlet temperature is strictly nearer to that of the wall. Reversing the flow of a reversible borehole with a symmetric circuit changes neither its outlet temperature nor its effective resistance.", "quantifier": "for all delta-circuits that conduct, lengths, flow rates of one direction, heat capacities and temperatures", "why_tests_cant": "strict monotonicity over a continuum of flow rates and lengths", "anchors": ["pygfunction/pipes.py: _BasePipe.get_outlet_temperature", "pygfunction/pipes.py: _BasePipe.get_fluid_heat_extraction_rate"]}
{"id": "C139", "title": "Fluid: names, mixtures and consistent properties", "statement": "Fluid accepts exactly the names Water, MPG, MEG, MMA, MEA and the long names of the four mixtures, in any case, and raises ValueError for any other; short and long names are for the same mixture with mass fraction percent/100, and water ignores the percentage. All attributes are those of the library at the temperature T, with nu rho = mu and rhoCp = rho cp, and the methods return the attributes. When T_C is assigned, the methods still agree with each other.", "quantifier": "for all names, percentages, temperatures and coolant libraries", "why_tests_cant": "all strings and all libraries of coolants", "anchors": ["pygfunction/media.py: Fluid"]}
{"id": "C140", "title": "Fluid.append_to_dict appends the properties to a dictionary", "statement": "append_to_dict appends one formatted value per attribute of the fluid to the lists of the dictionary.", "quantifier": "for all fluids and dictionaries", "why_tests_cant": "a method that raises for every input; no test calls it", "anchors": ["pygfunction/media.py: Fluid.append_to_dict"]}
{"id": "C141", "title": "Thermal resistance of a network of identical boreholes", "statement": "For n boreholes with the same pipe and length and one total flow, network_thermal_resistance is exactly the effective resistance of one borehole at its share of the flow when all are in parallel. For any other network it is strictly larger than the effective resistance of one borehole at the flow of a circuit, hence larger than the local resistance. With all boreholes in series it has the closed form of one borehole whose outlet factor is that of one borehole to the power n.", "quantifier": "for all numbers of boreholes, connections, flow rates of both directions, heat capacities and pipes (U-tubes and coaxial pipes that conduct)", "why_tests_cant": "an inequality over all networks, by summation along circuits of any length", "anchors": ["pygfunction/networks.py: network_thermal_resistance", "pygfunction/pipes.py: _BasePipe.effective_borehole_thermal_resistance"]}
{"id": "C142", "title": "More flow through a network: smaller resistance, more heat", "statement": "For any network of boreholes with the same U-tube or coaxial pipes, a larger heat capacity rate of the total flow strictly lowers network_thermal_resistance. At one wall temperature different from the inlet temperature it strictly increases the heat extracted or injected by the network, and brings the outlet temperature of the network strictly nearer to the inlet temperature. Longer boreholes with the same resistances strictly raise the resistance of the network and the heat, and bring its outlet temperature strictly nearer to that of the wall.", "quantifier": "for all numbers of boreholes, connections, numbers of segments, flow rates, heat capacities, temperatures and circuits of pipes that conduct", "why_tests_cant": "strict monotonicity over a continuum of flow rates for every network; the boreholes in series and the flow in each of them act in opposite directions", "anchors": ["pygfunction/networks.py: network_thermal_resistance", "pygfunction/networks.py: Network.get_network_outlet_temperature", "pygfunction/networks.py: Network.get_network_heat_extraction_rate"]}
{"id": "C143", "title": "Series and parallel connections of the same boreholes", "statement": "At the same total flow, with the same U-tubes or coaxial pipes and fixed resistances, no connection of n boreholes has a smaller network_thermal_resistance than all of them in series, and none exchanges more heat at one wall temperature. Among the networks of circuits of the same length, all boreholes in parallel have the largest resistance.", "quantifier": "for all numbers of boreholes, connections, flow rates, heat capacities, temperatures and circuits of pipes that conduct", "why_tests_cant": "an optimum over all connections of any number of boreholes", "anchors": ["pygfunction/networks.py: network_thermal_resistance", "pygfunction/networks.py: Network.get_network_heat_extraction_rate", "pygfunction/networks.py: _find_inlets_outlets"]}
{"id": "C144", "title": "Finer segments lower the first value of the g-function", "statement": "At a uniform borehole wall temperature, cutting the segments of vertical boreholes into shorter ones never raises the first value of the g-function: k*n equal segments give a value that is positive and at most that of n segments, any segments give at most the value of one segment per borehole, and repeated doubling of the number of segments gives a decreasing sequence with a limit.", "quantifier": "for all fields of vertical boreholes at least six radii apart, diffusivities, increasing positive times, segment ratios and refinements of them", "why_tests_cant": "the tests compare values for one or two numbers of segments; this orders the values for all of them", "anchors": ["pygfunction/borefield.py: Borefield.evaluate_g_function", "pygfunction/gfunction.py: gFunction.evaluate_g_function", "pygfunction/solvers/_base_solver.py: _BaseSolver.solve", "pygfunction/boreholes.py: Borehole.segments"]}
{"id": "C145", "title": "The g-function of one borehole grows with the time", "statement": "For one vertical borehole divided into any segments, at a uniform borehole wall temperature, the first value of the g-function is positive and is larger when the first of the times is later.", "quantifier": "for all lengths, depths, radii, diffusivities, segments and pairs of positive times", "why_tests_cant": "the segments interact through a linear system whose solution changes with the time; tests compare a few values", "anchors": ["pygfunction/borefield.py: Borefield.evaluate_g_function", "pygfunction/solvers/_base_solver.py: _BaseSolver.solve", "pygfunction/heat_transfer.py: finite_line_source_vectorized"]}
{"id": "C146", "title": "Boreholes added to a field", "statement": "Uniform wall temperature: when boreholes are added to a field of vertical boreholes, the first value of the g-function divided by the total length does not grow, so that for the same total heat extraction rate the wall temperature changes by no more. Uniform heat extraction rates: at every time the g-function of two fields together, times the total length, is larger than the sum of the two g-functions times the lengths of their fields.", "quantifier": "for all fields of vertical boreholes at least six radii apart, numbers and lengths of added boreholes, options common to the boreholes, diffusivities and times", "why_tests_cant": "compares values of different fields, of which there are infinitely many; tests evaluate a few fields one by one", "anchors": ["pygfunction/borefield.py: Borefield.evaluate_g_function", "pygfunction/solvers/_base_solver.py: _BaseSolver.solve", "pygfunction/solvers/detailed.py: Detailed.thermal_response_factors"]}
{"id": "C147", "title": "The direction of the flow in a U-tube", "statement": "A single U-tube whose flow is reversed: the heat extraction rate at segment i for one degree at the wall of segment j becomes the one at j for one degree at i; the outlet temperature for one degree at the inlet is the same; and what a degree at the inlet does at segment k in one direction is what the wall at k does to the outlet in the other direction.", "quantifier": "for all single U-tubes and coaxial boreholes able to reverse their flow with the same conductance from leg to leg both ways, flows, fluids and segments", "why_tests_cant": "a relation between two continuous models with real parameters; tests compare a few stored values of one direction", "anchors": ["pygfunction/pipes.py: _BasePipe.coefficients_borehole_heat_extraction_rate", "pygfunction/pipes.py: _BasePipe.coefficients_outlet_temperature", "pygfunction/pipes.py: _BasePipe.get_borehole_heat_extraction_rate"]}
{"id": "C148", "title": "Reciprocity of a U-tube with equal legs", "statement": "When both legs of a single U-tube have the same resistance from the borehole wall, the heat extraction rate at one segment for one degree at the wall of another is the one at the other for one degree at the first; and the effect of the inlet on segment k is minus the capacity times the effect of segment k on the outlet.", "quantifier": "for all single U-tubes with equal legs, flows, fluids and segments of any number and ratios", "why_tests_cant": "a relation between all pairs of segments of all such boreholes", "anchors": ["pygfunction/pipes.py: _BasePipe.coefficients_borehole_heat_extraction_rate", "pygfunction/pipes.py: _BasePipe.coefficients_outlet_temperature"]}
{"id": "C149", "title": "The inlet condition is not below the uniform wall temperature", "statement": "At the first time value, the g-function of piped boreholes with a mixed inlet fluid temperature ('MIFT') is not below the g-function of the same field with a uniform borehole wall temperature ('UBWT').", "quantifier": "for all fields of vertical boreholes that do not touch and all connections, with single U-tubes whose legs are equal (any segments) or with any pipes of the library (one segment each), all flows, fluids, conductivities and time values", "why_tests_cant": "compares the solutions of two linear systems over all fields and flows; tests compare each with stored values", "anchors": ["pygfunction/gfunction.py: gFunction.evaluate_g_function", "pygfunction/solvers/_base_solver.py: _BaseSolver.solve", "pygfunction/networks.py: Network.network_thermal_resistance"]}
{"id": "C150", "title": "The inlet condition is not above uniform heat extraction", "statement": "At the first time value, the g-function of boreholes of equal lengths and pipes with a mixed inlet fluid temperature is not above the one with uniform heat extraction rates ('UHTR').", "quantifier": "for all fields of vertical boreholes alike that do not touch, piped in parallel, with one segment each, all flows, fluids and time values", "why_tests_cant": "as C149", "anchors": ["pygfunction/gfunction.py: gFunction.evaluate_g_function", "pygfunction/solvers/_base_solver.py: _BaseSolver.solve"]}
{"id": "C151", "title": "Single U-tubes: the general procedure agrees with the formulas", "statement": "The coefficients of outlet temperature and of fluid temperatures that the general procedure of the pipe classes computes for a single U-tube or a coaxial pipe (general solution, conditions at the head and at the bottom, linear solve) exist and are those of the closed-form methods, for the two directions of flow.", "quantifier": "for all delta-circuits that conduct, all flows, directions, fluids, lengths, segment ratios and depths", "why_tests_cant": "two derivations of transcendental functions of continuous parameters; tests sample one of them", "anchors": ["pygfunction/pipes.py: _BasePipe.coefficients_outlet_temperature, coefficients_temperature", "pygfunction/pipes.py: SingleUTube._general_solution, _flow_direction, _continuity_condition_head, _pipe_connectivity", "pygfunction/pipes.py: SingleUTube.coefficients_outlet_temperature, coefficients_temperature"]}
{"id": "C152", "title": "The exponential integral of the library is within one percent", "statement": "For every positive argument the logarithm in the library's exponential integral is that of a number above one, the result is positive, and it differs from the integral of exp(-t)/t from the argument to infinity by at most one percent of it. With the default coefficients the approximate finite line source solutions of vertical and inclined boreholes then keep a known distance from the exact ones, with no assumption on the exponential integral.", "quantifier": "for all positive arguments; for all times, diffusivities, distances, lengths and depths, reals and images", "why_tests_cant": "a formula without a proof in its source, over an unbounded range of arguments; tests compare a few values", "anchors": ["pygfunction/utilities.py: exp1", "pygfunction/heat_transfer.py: finite_line_source_vertical (approximation), finite_line_source_inclined (approximation)"]}
{"id": "C153", "title": "Arrays given to a borehole and received from it can be reused", "statement": "Coefficients of a single U-tube or coaxial borehole do not depend on what the caller does with its own arrays: neither writing new ratios in an array that was given as segment_ratios before, nor writing in a returned array of coefficients, changes a later answer. (False of the code, which keeps references. True if the caller writes in no array it has given or received.)", "quantifier": "for all boreholes, all sequences of requests, updates and writes of the caller, all contents of the arrays", "why_tests_cant": "sequences of calls and writes are unbounded; the tests give a new array to each call and never write in the results", "anchors": ["pygfunction/pipes.py: _BasePipe._set_stored_coefficients, _get_stored_coefficients, _check_model_variables, _check_coefficients, SingleUTube.coefficients_outlet_temperature, Coaxial"]}
{"id": "C154", "title": "The direction of the flows in several U-tubes", "statement": "Reverse all flows of a reversible borehole with several U-tubes, in parallel, in series or on separate circuits. For any two sets of inlet and wall temperatures, one in each direction, the heat rates of the segments in one direction weighted by the wall temperatures of the other, minus the same with the directions exchanged, is the heat capacity rate times (outlet temperature times inlet temperature of the other direction, minus the converse). Hence the matrix of the heat rates of the segments for the reversed flows is the transposed one, the coefficients of the inlet temperatures are those of the wall temperatures in the outlet temperatures, and the coefficients of the inlets in the outlets are transposed.", "quantifier": "for all numbers of U-tubes, passive symmetric circuits of resistances, nonzero flows, heat capacities, lengths, segment ratios and temperatures", "why_tests_cant": "a relation between two calls for matrices of any size, through eigenvectors; tests compare stored numbers", "anchors": ["pygfunction/pipes.py: MultipleUTube, IndependentMultipleUTube, _BasePipe.coefficients_borehole_heat_extraction_rate, coefficients_outlet_temperature"]}
{"id": "C155", "title": "Reciprocity of several U-tubes that look the same from the outlet", "statement": "When the circuit of resistances is unchanged by numbering the pipes from the other end (four pipes in a square, for instance), the U-tubes in parallel or in series are their own reciprocal: the matrix of the heat rates of the segments for the wall temperatures is symmetric, and the coefficient of the inlet temperature in the heat rate of a segment is minus the heat capacity rate times the coefficient of the wall temperature of the segment in the outlet temperature.", "quantifier": "for all numbers of U-tubes, such passive circuits, positive flows, heat capacities, lengths and segment ratios", "why_tests_cant": "symmetry of a matrix of any size computed through eigenvectors; tests compare stored numbers", "anchors": ["pygfunction/pipes.py: MultipleUTube, _BasePipe.coefficients_borehole_heat_extraction_rate, coefficients_outlet_temperature"]}
{"id": "C156", "title": "The direction of the flow in a network", "statement": "Reverse the flow of a network of boreholes that are meant for both directions. For any two sets of temperatures, one in each direction, the heat rates of the segments in one direction weighted by the wall temperatures of the other, minus the same with the directions exchanged, is the inlet temperature of the second times the heat rate of the network in the first minus the converse. Hence the matrix of the heat rates of the segments for the wall temperatures is transposed by reversing the flow, the coefficient of the inlet temperature in the heat rate of a segment is minus the coefficient of the wall temperature of that segment in the heat rate of the network with the flow reversed, and the coefficient of the inlet temperature in the heat rate of the network is the same in both directions.", "quantifier": "for all networks (any boreholes in series and parallel), flows per circuit not all zero, pipes (single U-tubes, coaxial, several U-tubes in series or parallel, in any mixture) that are reversible, numbers and ratios of segments and temperatures", "why_tests_cant": "an identity between two calls with opposite flows for every network; tests compare stored numbers of a few networks", "anchors": ["pygfunction/networks.py: Network.coefficients_borehole_heat_extraction_rate, coefficients_network_heat_extraction_rate, coefficients_outlet_temperature, _format_inputs"]}
{"id": "C157", "title": "The inlet temperature does not depend on the direction of the flow", "statement": "Put the network of C156 in a ground whose response is symmetric: the wall of a segment cools by as much for one watt extracted at another segment as the wall of the other for one watt extracted at the first. Then, at equal inlet temperatures, the network extracts the same heat in both directions of the flow, and to extract the same heat it needs the same inlet temperature, although the heat rates and wall temperatures of the boreholes differ.", "quantifier": "for all networks, pipes and flows as in C156, symmetric responses of the ground, undisturbed ground temperatures and inlet temperatures", "why_tests_cant": "compares the solutions of two coupled systems of any size", "anchors": ["pygfunction/networks.py: Network.coefficients_borehole_heat_extraction_rate, coefficients_network_heat_extraction_rate"]}
{"id": "C158", "title": "Compass directions", "statement": "cardinal_point accepts, in capitals or small letters, exactly the sixteen usual names: a letter, north or south followed by east or west, and a letter followed by a two-letter name that contains it. It returns the angle in [0, 2 pi), counterclockwise from the east (x axis), of that direction, where a letter followed by a direction means halfway between both; different names give different angles. A borehole built with this orientation and a tilt has its segments in that direction from its head.", "quantifier": "for all strings of ASCII characters, and all boreholes and segments", "why_tests_cant": "equivalence over all strings and the meaning of the angles for the coordinates of the segments; tests do not cover the function", "anchors": ["pygfunction/utilities.py: cardinal_point", "pygfunction/boreholes.py: Borehole.segments"]}
{"id": "C159", "title": "The array of flows shared with a network", "statement": "A caller may keep one array of circuit flows and fill it again in place between two requests to a network: every request is answered for the flows that the array contains at that moment, as by a network built for this request.", "quantifier": "for all networks, all sequences of requests and of statements that write in the arrays of flows of the caller", "why_tests_cant": "histories of requests and writes, in which the same array object is met again with other contents; tests pass new arrays or numbers", "anchors": ["pygfunction/networks.py: Network._coefficients_mixing, Network._check_mixing_coefficients, Network._set_stored_coefficients, Network._format_inputs, Network.coefficients_network_outlet_temperature"]}
{"id": "C160", "title": "Superposition of loads with MLAA and Liu", "statement": "Simulating a linear combination of two load histories gives the same combination of the two temperature histories, at every step, also once loads have been aggregated. The combined simulation runs whenever the two others do.", "quantifier": "for all pairs of simulations of the same shape, all coefficients, all cell parameters, all response factors", "why_tests_cant": "whole simulations related to each other, across all moments at which cells are aggregated; tests simulate single histories", "anchors": ["pygfunction/load_aggregation.py: MLAA.next_time_step, MLAA.set_current_load, MLAA.temporal_superposition; Liu.next_time_step, Liu.set_current_load, Liu.temporal_superposition"]}
{"id": "C161", "title": "Bounds and order of aggregated temperatures", "statement": "If the thermal response never diminishes with time, the temperature variation lies between those of the smallest and of the largest load applied all the time, and loads that are nowhere smaller give temperature variations that are not smaller.", "quantifier": "for all load histories, all pairs of ordered histories, all growing response factors, all three schemes (ClaessonJaved: cells no shorter than the time step)", "why_tests_cant": "order between the answers of whole simulations, for every history; tests compare with reference values", "anchors": ["pygfunction/load_aggregation.py: ClaessonJaved, MLAA, Liu: temporal_superposition"]}
{"id": "C162", "title": "Time steps before the first load", "statement": "Time steps during which no load is set, at the beginning of a simulation, do not change the temperatures found after a given load history.", "quantifier": "for all numbers of idle steps, all simulations", "why_tests_cant": "an equality between simulations of different lengths; tests begin with a load", "anchors": ["pygfunction/load_aggregation.py: ClaessonJaved, MLAA, Liu: next_time_step, temporal_superposition"]}
{"id": "C163", "title": "The horizon of a load aggregation", "statement": "A simulation that fits its maximum simulation time gives the same temperatures with any longer maximum simulation time, at every step, for the same thermal responses.", "quantifier": "for all simulations, all pairs of horizons, all response factors, all three schemes", "why_tests_cant": "compares two whole simulations with arrays of different sizes; tests choose one horizon", "anchors": ["pygfunction/load_aggregation.py: ClaessonJaved, MLAA, Liu: _build_cells, next_time_step, temporal_superposition", "pygfunction/utilities.py: time_ClaessonJaved"]}
{"id": "C164", "title": "Sources that share their loads", "statement": "Heat sources that are given the same loads at every step may be simulated as a single source whose thermal response is the sum of theirs, and the sources may be numbered in any order: the temperatures are the same.", "quantifier": "for all numbers of sources and groups, all assignments of sources to groups, all simulations, all response factors, all three schemes", "why_tests_cant": "for every number of sources and every assignment; tests use one numbering of a few sources", "anchors": ["pygfunction/load_aggregation.py: ClaessonJaved, MLAA, Liu: set_current_load, next_time_step, temporal_superposition"]}
{"id": "C165", "title": "The time steps of a load aggregation", "statement": "The times at which MLAA and Liu ask for thermal responses are the multiples of the time step up to the first one that reaches the maximum simulation time; ClaessonJaved asks for the same times when one level of cells is enough. Every simulation whose steps all begin before the maximum simulation time can be carried out, and the three schemes give the same temperatures until the first of them aggregates loads.", "quantifier": "for all positive time steps and horizons, all cell parameters of at least one, all simulations, all response factors", "why_tests_cant": "every time step and horizon, also those that do not divide each other; tests use horizons that are multiples of the time step", "anchors": ["pygfunction/load_aggregation.py: MLAA._build_cells, MLAA.get_times_for_simulation, Liu._build_cells, Liu.get_times_for_simulation, ClaessonJaved.get_times_for_simulation; temporal_superposition", "pygfunction/utilities.py: time_ClaessonJaved"]}
{"id": "C166", "title": "The unit of time of a load aggregation", "statement": "Time grids built from a time step and a horizon expressed in another unit of time are the same grids in that unit, and simulations with ClaessonJaved, MLAA and Liu are the same simulations.", "quantifier": "for all positive ratios of the units, all time steps and horizons, all grids of the library, all simulations", "why_tests_cant": "for every ratio of units; tests use seconds", "anchors": ["pygfunction/load_aggregation.py: ClaessonJaved, MLAA, Liu: _build_cells, get_times_for_simulation", "pygfunction/utilities.py: time_ClaessonJaved, time_MarcottePasquier, time_geometric"]}
{"id": "C167", "title": "Errors of the thermal responses", "statement": "If the thermal responses given to a load aggregation scheme are wrong by at most e, the temperatures are wrong by at most e times the sum of the sizes of all changes of the load since the beginning of the simulation, also after loads have been aggregated; with several sources the bounds add.", "quantifier": "for all pairs of response factors, all simulations, all cell parameters (waiting periods of Liu at least one, cells of ClaessonJaved no shorter than the time step), all three schemes", "why_tests_cant": "aggregation could amplify errors after any number of steps; tests compare with reference values for one g-function", "anchors": ["pygfunction/load_aggregation.py: ClaessonJaved, MLAA, Liu: initialize, next_time_step, set_current_load, temporal_superposition"]}
{"id": "C168", "title": "Aggregated temperatures and temporal superposition", "statement": "The temperature of a load aggregation scheme differs from the temporal superposition of the loads by at most the range of the loads times the growth of the thermal response beyond the steps whose loads are kept one by one: the first N0 steps of MLAA, the W1 steps of Liu, the first level of cells of ClaessonJaved (up to the end of its last cell).", "quantifier": "for all simulations, all growing response factors, all cell parameters of at least one, all three schemes", "why_tests_cant": "a bound for every load history at every step; tests compare with reference values of one history", "anchors": ["pygfunction/load_aggregation.py: ClaessonJaved, MLAA, Liu: next_time_step, set_current_load, temporal_superposition", "pygfunction/utilities.py: time_ClaessonJaved"]}
{"id": "C169", "title": "The load of the current time step", "statement": "Of several loads set during one time step only the last one counts, for the temperatures of this and of all later steps. At any step, changing the current load changes the temperature by the change of the load times the first value of the thermal response, whatever loads came before; the change may thus be found without a new simulation.", "quantifier": "for all simulations before and after, all pairs of current loads, all response factors, all cell parameters of at least one, all three schemes", "why_tests_cant": "the current load could leak in averages of older loads at particular steps; tests set one load per step", "anchors": ["pygfunction/load_aggregation.py: ClaessonJaved, MLAA, Liu: set_current_load, next_time_step, temporal_superposition"]}
{"id": "C170", "title": "Fields laid along the other axis", "statement": "A rectangular field of N1 by N2 vertical boreholes with spacings B1 and B2 has the same g-function as the field of N2 by N1 boreholes with spacings B2 and B1, though the boreholes are created in another order. The same holds of L-shaped and box-shaped fields. It holds with the default options, for uniform heat extraction rates and uniform wall temperatures, with the method of all segments.", "quantifier": "for all numbers of boreholes, spacings, dimensions of the boreholes, diffusivities, times and both boundary conditions without a network", "why_tests_cant": "constructors of fields could exchange a count or a spacing for one of the axes, and tests compare few fields with reference values", "anchors": ["pygfunction/borefield.py: Borefield.rectangle_field, Borefield.L_shaped_field, Borefield.box_shaped_field, Borefield.evaluate_g_function", "pygfunction/gfunction.py: gFunction"]}
{"id": "C171", "title": "Shapes that coincide", "statement": "A box-shaped field with at most two boreholes along a side, a U-shaped field with at most two boreholes along its base or a single row, and an L-shaped field with a single leg hold the same boreholes as the rectangular field of the same size, each once, and have the same g-function, when the boreholes are vertical.", "quantifier": "for all such sizes, all spacings, dimensions of the boreholes, diffusivities, times and both boundary conditions without a network", "why_tests_cant": "the constructors handle small sizes with special counts, where a borehole could be doubled or lost; tests take sizes of a few boreholes", "anchors": ["pygfunction/borefield.py: Borefield.rectangle_field, Borefield.L_shaped_field, Borefield.U_shaped_field, Borefield.box_shaped_field, Borefield.evaluate_g_function"]}
{"id": "C172", "title": "Fields assembled from parts", "statement": "The order of the operands of + (boreholes, lists of boreholes, bore fields) does not change the g-function of the resulting field of vertical boreholes. A field assembled from parts that together hold the boreholes of another field has its g-function; in particular a field cut into two slices and put together again keeps its g-function, whatever the slices.", "quantifier": "for all operands with at least one borehole or field, all pairs of slices that take each borehole once, all diffusivities and times, both boundary conditions without a network", "why_tests_cant": "all ways to cut and assemble a field; tests compare the attributes of few sums and no g-functions", "anchors": ["pygfunction/borefield.py: Borefield.__add__, __radd__, __getitem__, evaluate_g_function", "pygfunction/boreholes.py: Borehole.__add__, __radd__"]}
