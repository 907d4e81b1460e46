{
"C01": [
"proved",
"Energy balance with the amount expelled through the oldest cell made explicit, and no loss before the grid is full; every call sequence, any number of sources, any increasing cell times."
],
"C02": [
"proved",
"Exact superposition as long as the history fits in the leading cells of one time step."
],
"C03": [
"proved",
"Maximum principle for spacings of at least dt, and linearity in the load sequence."
],
"C04": [
"proved",
"Refinement to the block-averaged history, total energy, exactness for short histories, no failure within the horizon. Level sizes at least 1 (numpy mean of an empty slice is nan otherwise)."
],
"C05": [
"partial",
"Proved when all waiting periods are at least 1; refuted for W1 = 0 and for W2 = 0 (C05_liu_no_wait_W1_refuted, C05_liu_no_wait_W2_refuted)."
],
"C58": [
"proved",
"First moment of the load (mean age) is exact until the grid is full."
],
"C06": [
"proved",
"Termination of the loop, closed form of every time, first arrival at tmax, uniqueness, and fitness for the load aggregation scheme."
],
"C07": [
"proved",
"Termination, closed form of every time, first arrival at tmax, uniqueness."
],
"C08": [
"partial",
"Shape, residual of the last step, and termination of the ratio search (Nt >= 2) proved for all inputs; strict increase proved for Nt <= 316 and tmax >= (Nt+1)*dt, and refuted for Nt = 4000, tmax = 4000.1*dt (C08_increasing_refuted). For Nt = 1 the exact iteration diverges (floats overflow to inf and then stop), so termination is stated for Nt >= 2."
],
"C09": [
"proved",
"Sound for any reported roots; with the exact real roots never fails, sums to one exactly, and does not depend on the order of the roots. numpy's root finder is an oracle."
],
"C10": [
"proved",
"Any tilt, orientation and ratios; axis positions, contact of consecutive segments, lengths, midpoints."
],
"C11": [
"partial",
"Symmetric for equal radii, lower bounds and translation invariance proved; symmetry refuted for overlapping boreholes of different radii (C11_symmetry_refuted)."
],
"C12": [
"proved",
"The decoding of the condensed index is proved for every list size, with the root of the code as a real root."
],
"C13": [
"proved",
"Sub-list, separation, coverage of every cluster, identity and idempotence."
],
"C19": [
"partial",
"Proved for every positive tolerance, with termination; refuted for a tolerance of zero (C19_zero_tolerance_refuted)."
],
"C59": [
"partial",
"The five-attribute tuple raises (C59_five_tuple_refuted); the seven-attribute tuple works (C59_seven_tuple_partial)."
],
"C60": [
"proved",
"Members, segments and merging."
],
"C14": [
"proved",
"Layout, count, order, dimensions, spacing; both builders."
],
"C15": [
"proved",
"Layout as an exact set of lattice points without repetition, counts for all sizes including degenerate ones; both families of builders. N_2 = 0 raises in the L and U methods."
],
"C16": [
"proved",
"Layout, counts, spacing, exact nearest neighbours of dense fields, default origin."
],
"C17": [
"proved",
"Radius, chord lengths (hence equal angles and distinctness), first position."
],
"C18": [
"proved",
"Round trips, integer and slice indexing, concatenation and associativity for boreholes, lists and fields."
],
"C61": [
"partial",
"Agreement proved when no borehole stands exactly at distance r_b of the origin and, for staggered and dense fields, when the origin is given; refuted otherwise (C61_on_circle_refuted, C61_staggered_origin_refuted)."
],
"C62": [
"partial",
"Characterisation and reflexivity proved; symmetry refuted (C62_symmetry_refuted)."
],
"C63": [
"proved",
"Files as tables of numbers."
],
"C64": [
"proved",
"as_specified is part of what every builder is proved to return (C14-C17)."
],
"C20": [
"proved",
"Python indexing with negative integers and the fuel of the two loops are modelled; acceptance is equivalent to the specification."
],
"C21": [
"proved",
"Pipes enter through arbitrary coefficients; numpy.linalg.solve is Gaussian elimination in exact reals."
],
"C22": [
"partial",
"False in general: with unequal flows and circuits that do not end in the order in which they begin, the weights go to the wrong circuits (C22_mixing_refuted). Proved for reversed flow, equal flows (C22_scalar_flow) and ordered circuits (C22_mixing_partial)."
],
"C23": [
"partial",
"Sum over boreholes, over segments and by circuit proved; the form with the network outlet temperature is false when C22 is (C23_network_refuted) and proved otherwise (C23_network_partial)."
],
"C24": [
"proved",
"For pipes that have the property themselves (pipe_neutral, C27)."
],
"C25": [
"partial",
"False in general (C25_mixing_refuted, C25_scalar_array_refuted). Proved for repeated calls with the same arguments, for single flows of the network that are farther apart than the tolerance, and for all methods but the network outlet temperature when calls are told apart."
],
"C57": [
"proved",
"Stated for positive or reversible flows; see C28 for the others."
],
"C65": [
"proved",
""
],
"C66": [
"proved",
"Scalar flow: an array of flows makes the equivalent network raise."
],
"C67": [
"proved",
"Scalar flow, same number of segments in all boreholes."
],
"C26": [
"proved",
"Existence and uniqueness: the returned profiles are the only continuous ones with these energy balances and end conditions."
],
"C27": [
"proved",
""
],
"C28": [
"partial",
"False for a negative flow with reversible_flow=False (C28_nonreversible_refuted); proved for positive flows and for reversible flows."
],
"C29": [
"proved",
" C29_wide_spacing_refuted: a U-tube that can be built with pipes wide apart has a negative conductance between the legs in the line source approximation, and its outlet temperature passes beyond the wall temperature."
],
"C30": [
"partial",
"False for the heat extraction rates of the segments, which change sign (C30_heat_refuted, C30_nonreversible_heat); proved for all other results, and for reversible flows."
],
"C31": [
"partial",
"False when the direction of the flow changes between calls (C31_direction_refuted); proved for calls told apart by the tolerance, with one direction of the flow or reversible_flow=False. Segment ratios are stored by value in the model."
],
"C32": [
"proved",
""
],
"C68": [
"proved",
"Stated for positive or reversible flows; see C28 for the others."
],
"C33": [
"proved",
"Heat flows, wall heat, symmetry and local resistance, for any number of pipes and any invertible matrix (infinite circuit entries included)."
],
"C34": [
"proved",
"Symmetry, rotation, agreement with the multipole method of order zero."
],
"C35": [
"partial",
"U-tubes: equivalence with disks that fit (point sets), and construction with J=0 never fails otherwise. Coaxial: accepted whenever buildable, but refuted the other way: C35_coaxial_outside_refuted (outer pipe outside the borehole), C35_coaxial_negative_refuted (negative inner radius and resistances)."
],
"C37": [
"partial",
"Proved for calls whose arguments are equal or differ beyond the tolerances; refuted within them (C37_tolerance_refuted). Arrays are stored by value in the model, the code keeps references."
],
"C69": [
"proved",
"Rotation, mirror image, scaling, for all orders; field equivariance."
],
"C70": [
"proved",
"Continuity in the plane and flux continuity across the wall for all orders and any multipole strengths."
],
"C71": [
"proved",
"Positive definiteness of the two-pipe line source matrix from the geometric conditions."
],
"C36": [
"partial",
"Continuity at every flow rate with any continuous friction law and with the Colebrook-White friction factor; the code is within (1 +- 1e-6)^2 of it; laminar values, Gnielinski from 4000 on, sign. The friction factor of the annulus is taken at another Reynolds number than that of the annulus: C36_annulus_friction_refuted."
],
"C72": [
"proved",
"Contraction of the iteration in 1/sqrt f on an interval it never leaves; uniqueness by monotonicity."
],
"C73": [
"proved",
"Existence, positivity and the stated invariances."
],
"C38": [
"proved",
"Transient, steady state and approximation for vertical boreholes; inclined boreholes with exact integration along the emitting one."
],
"C39": [
"proved",
"Receiver and emitter, transient, steady state and approximation; receiver for boreholes of any inclination and any quadrature rule."
],
"C40": [
"partial",
"Proved for vertical boreholes (transient, steady, approximation), for inclined steady state, and for inclined transient with heads at least one radius apart. False for every inclined borehole on itself: C40_inclined_self_refuted, C40_inclined_self_all."
],
"C41": [
"proved",
"Vertical, equivalent and inclined branches; times in any order."
],
"C42": [
"partial",
"Proved for the real part and the full transient solution, and for the image and steady state of boreholes at least one radius apart. The image alone of a borehole on itself differs: C42_image_alone_refuted."
],
"C43": [
"proved",
"Equality with the weighted mean over the distances."
],
"C74": [
"proved",
"Vertical; inclined with exact integration and with any quadrature rule; steady state. The time derivative is the heat kernel over both boreholes and the response starts from zero, which determines it."
],
"C75": [
"proved",
"Sign, monotonicity in time and distance."
],
"C76": [
"partial",
"Proved with a rate for vertical boreholes; for inclined boreholes at least one radius apart and for one of the parts alone. False for an inclined borehole on itself: C76_inclined_self_refuted."
],
"C77": [
"proved",
"Exact invariances."
],
"C44": [
"proved",
""
],
"C45": [
"proved",
""
],
"C46": [
"proved",
"The uniformity of wall temperatures is in C46_uniform: the same g-function value satisfies the equation of every source."
],
"C47": [
"partial",
"Proved for UHTR, UBWT and MIFT with one mass flow rate (C47_uhtr, C47_ubwt, C47_mift_one). False for several mass flow rates: C47_mift_refuted (ValueError as soon as there are times below the threshold, C47_mift_fails), C47_mift_values_refuted (wrong values when the number of such times equals that of the mass flow rates)."
],
"C48": [
"partial",
"Proved for one number of segments and one list of ratios per borehole. C48_refuted: a list shorter than the number of boreholes is accepted and boreholes are dropped."
],
"C49": [
"proved",
"C49_self and C49_reciprocal hold for any kernel, inclined fields included; C49_response identifies every entry for vertical fields at least a radius apart."
],
"C78": [
"proved",
"Responses as functions of time evaluated on the grid (Detailed solver, linear interpolation)."
],
"C79": [
"proved",
""
],
"C80": [
"proved",
"C80_below is for one time step."
],
"C50": [
"partial",
"Proved: every borehole and every pair of boreholes is in exactly one group of the right kind (C50_once, C50_kinds); every entry of a matrix is written (C50_written); when the segments of each borehole are at distinct depths there is a matrix (C50_filled). False in general: index out of range for horizontal boreholes (C50_refuted)."
],
"C51": [
"partial",
"Proved for vertical boreholes of which those of the same length are at the same depth: equal to the detailed solver when distinct distances are apart (C51_exact), otherwise within the distance tolerance (C51_tolerance). False without the condition on depths (C51_refuted) and for inclined boreholes (C51_inclined_refuted)."
],
"C52": [
"proved",
"Termination, classes and tolerance for every list of positive distances."
],
"C53": [
"partial",
"False: C53_refuted; for every inclined borehole the response is overestimated (C53_single). With several boreholes the statement holds (C53_several)."
],
"C54": [
"partial",
"False for fields whose boreholes of equal dimensions are not adjacent in the list: C54_refuted. Every borehole is in exactly one equivalent borehole for every field (C54_partition); same dimensions and conserved length for fields in blocks (C54_same, C54_segments)."
],
"C55": [
"proved",
"Weights, number of pairs and closeness of the distances for every field."
],
"C81": [
"proved",
"For fields in blocks (see C54) on a grid of lengths that the tolerances cannot confuse; equality when the distances are apart, bracket by the tolerance otherwise."
],
"C82": [
"proved",
"For the fields of C81 with distances apart."
],
"C83": [
"proved",
"For the fields of C81 with distances apart; existence of the solution follows from that of the detailed solver."
],
"C56": [
"partial",
"False of mixed_inlet_temperature: C56_mixed_refuted, C56_mixed_nothing_stored (C56_mixed_stored says what it computes); and of equal_inlet_temperature with an array of flows: C56_equal_array_refuted. True of equal_inlet_temperature with a number: C56_equal."
],
"C84": [
"proved",
"C84_causal for one flow, any times; C84_causal_flows for several flows, times above the threshold."
],
"C85": [
"partial",
"False of stored integers (and numpy floats): C85_stored_integer_refuted. True of floats and arrays."
],
"C86": [
"partial",
"False for boreholes in parallel with equal flows: C86_borehole_flows_refuted, and for all such calls: C86_borehole_flows_error. Choice of the similarities: C86_series, C86_unequal."
],
"C87": [
"partial",
"A Python integer is refused as time: C87_integer_refuted. The other parts are proved."
],
"C88": [
"partial",
"False of fluids at other temperatures than 20 degrees: C88_temperature_refuted, and of boundary conditions in small letters: C88_lower_case_refuted. True otherwise: C88_field, C88_network."
],
"C89": [
"proved",
"C89_similarities for all boundary conditions; C89_equivalent for a uniform wall temperature (uniform heat extraction rates are in C90)."
],
"C90": [
"proved",
"Methods detailed and equivalent; similarities through C89_similarities."
],
"C91": [
"proved",
"For the methods detailed and similarities (arrays of flows for each inlet), and for all methods (total flows). C91_library: for networks of the pipes of the library without a condition on the coefficients."
],
"C93": [
"partial",
"False for the method of the equivalent boreholes and a network storing an array of flows: C93_network_changed_refuted. True otherwise: C93_network_kept."
],
"C94": [
"proved",
"C94_field: networks of SingleUTube, Coaxial and MultipleUTube boreholes that are vertical and at least six radii apart, method detailed. C94_library has the positive definite ground response as a hypothesis instead of the distance; C94_exists has the condition on the coefficients of the network (passive, circulates)"
],
"C95": [
"proved",
"eig is a parameter required to diagonalise the system (numpy.linalg.eig with an invertible matrix of eigenvectors)"
],
"C96": [
"proved",
"eig is a parameter required to diagonalise the system (numpy.linalg.eig with an invertible matrix of eigenvectors)"
],
"C97": [
"proved",
"eig is a parameter required to diagonalise the system (numpy.linalg.eig with an invertible matrix of eigenvectors)"
],
"C98": [
"proved",
"eig is a parameter required to diagonalise the system (numpy.linalg.eig with an invertible matrix of eigenvectors)"
],
"C99": [
"proved",
"eig is a parameter required to diagonalise the system (numpy.linalg.eig with an invertible matrix of eigenvectors)"
],
"C100": [
"proved",
"eig is a parameter required to diagonalise the system (numpy.linalg.eig with an invertible matrix of eigenvectors)"
],
"C101": [
"proved",
"eig is a parameter required to diagonalise the system (numpy.linalg.eig with an invertible matrix of eigenvectors)"
],
"C102": [
"proved",
"eig is a parameter required to diagonalise the system (numpy.linalg.eig with an invertible matrix of eigenvectors)"
],
"C103": [
"proved",
"eig is a parameter required to diagonalise the system (numpy.linalg.eig with an invertible matrix of eigenvectors)"
],
"C105": [
"proved",
"eig is a parameter required to diagonalise the system (numpy.linalg.eig with an invertible matrix of eigenvectors)"
],
"C106": [
"proved",
"eig is a parameter required to diagonalise the system (numpy.linalg.eig with an invertible matrix of eigenvectors)"
],
"C107": [
"proved",
"eig is a parameter required to diagonalise the system (numpy.linalg.eig with an invertible matrix of eigenvectors)"
],
"C104": [
"partial",
"false of the code: C104_sign_refuted (negative flow, reversible_flow=False); C104_sign_partial covers positive flows (F32)"
],
"C108": [
"proved",
"library_pipe: SingleUTube/Coaxial (Pipe_Model) and MultipleUTube (Multi_Model) with resistances of a passive delta-circuit; the eigenvectors of MultipleUTube are a parameter required to diagonalise the system"
],
"C109": [
"proved",
"the error d of the algebraic formula exp1 is a hypothesis (it is an argument of the model); the error e of the default coefficients is proved in C112"
],
"C110": [
"proved",
"compared with the solution with the same rule; off_walls is the condition on the nodes"
],
"C111": [
"proved",
"the identities of the vertical approximation other than scaling are in C38-C40"
],
"C112": [
"partial",
"C112_default, C112_all, C112_increasing and C112_terms are proved for all N below 25; N = 25, the documented maximum, is an IndexError (C112_maximum_refuted)"
],
"C113": [
"partial",
"true when all boreholes are vertical (C113_vertical), when every pair has an inclined borehole (C113_inclined) and, with exact integrals along the emitting borehole and without the approximation, for mixed lists (C113_mixed) except for the steady state with images of boreholes closer than a radius: C113_steady_self_refuted"
],
"C114": [
"proved",
"C114_groups: the weights of the method equivalent are those of its groups"
],
"C115": [
"proved",
"UHTR for the methods detailed and similarities, UBWT for all methods"
],
"C116": [
"proved",
"Methods detailed and similarities. A given time needs increasing times and a single flow (C117). A single time value with a given time (nan) is not modelled"
],
"C117": [
"partial",
"False of the code with a time: C117_none shows that no figure exists for two boreholes or more, C117_time_refuted gives an object. C117_last proves the rest"
],
"C118": [
"partial",
"False of the code: C118_none, C118_refuted (numpy.asscalar was removed before numpy 1.26)"
],
"C119": [
"partial",
"Proved for vertical boreholes; C119_inclined_refuted for an inclined one"
],
"C120": [
"partial",
"Proved for the methods detailed and similarities; C120_groups_refuted for the method equivalent"
],
"C121": [
"proved",
"Vertical boreholes. C121_touching_refuted: boreholes one radius apart, which are accepted, have a singular response; the constant 6 is sufficient and not claimed to be the smallest"
],
"C122": [
"proved",
"Methods similarities and equivalent under the conditions of C89"
],
"C123": [
"proved",
"Method detailed; the first time only"
],
"C124": [
"proved",
"Exact roots of the polynomial of utilities.segment_ratios are a hypothesis (sr_exact_roots, C09); C124_field is for any number of segments and any field that is spread"
],
"C125": [
"proved",
"A tilt between 0 and 1e-6 is excluded (plain_tilts): the constructor forgets the orientation of such boreholes but keeps their tilt"
],
"C126": [
"proved",
"Vertical boreholes; blocks of inclined boreholes are only reciprocal up to the quadrature rule (C40)"
],
"C127": [
"proved",
"Fields without pipes. For method 'similarities' both forms of the field must be sharp, because the comparisons add 1e-30 m to denominators"
],
"C128": [
"proved",
"Vertical fields at uniform heat extraction rates. Nothing is claimed at a uniform wall temperature, where optimal loads may have either sign"
],
"C129": [
"proved",
"Flows are given by m_flow_network (a float or an array) and cp_f by a float. Zero flows, m_flow_borehole and unequal groups are outside"
],
"C130": [
"proved",
"The passivity of the objects assumes that no delta-circuit resistance is infinite, the model of C95-C107 has real resistances. J = 0 only: multipoles of higher orders are outside"
],
"C131": [
"proved",
"J = 0. Fluid to pipe resistances are taken as given numbers"
],
"C132": [
"proved",
"numpy.linalg.eig is a parameter that is assumed to diagonalise the matrix (C95-C107). Negative flows need reversible_flow=True"
],
"C133": [
"proved",
"Floats are reals. C133_pulse_above shows that the hypothesis on the loads cannot be dropped"
],
"C134": [
"proved",
"Quadrature is exact; the real part alone is covered as well (C134_concave, C134_slowing with img = false)"
],
"C135": [
"proved",
"Floats are reals"
],
"C136": [
"partial",
"Proved for waiting periods of at least one step. C136_no_wait_refuted: with a zero waiting period on the first level a constant load is overestimated already (same cause as finding F1)"
],
"C137": [
"proved",
"Floats are reals; the resistances are those of the object, they do not follow the flow (as in the code)"
],
"C138": [
"proved",
"Floats are reals"
],
"C139": [
"partial",
"Proved, except for the last sentence, which is false: C139_stale_refuted (finding F40). The library scp is a parameter of the model; strings are ASCII"
],
"C140": [
"partial",
"False: C140_append_refuted, it raises for every fluid and dictionary; C140_left_behind gives what is left in an empty one (finding F41)"
],
"C141": [
"proved",
"Floats are reals; boreholes with the same pipe"
],
"C142": [
"proved",
"Floats are reals; boreholes with the same pipe and length, one flow rate for the network; the resistances are those of the object, they do not follow the flow (as in the code)"
],
"C143": [
"proved",
"Floats are reals; boreholes with the same pipe and length, one flow rate for the network; the resistances are those of the object, they do not follow the flow (as in the code)"
],
"C144": [
"proved",
"Floats are reals and the integrals exact; method 'detailed', and 'similarities' when its similarities are sharp; only the first of the times (later values depend on the history through the interpolation). Not for the default expanding ratios of two numbers of segments, which do not refine each other"
],
"C145": [
"proved",
"Floats are reals and the integrals exact; method 'detailed'; not strict; for the first (or only) of the times. For several boreholes the energy of given loads need not grow with the time, since a borehole acts on itself at its radius"
],
"C146": [
"proved",
"Floats are reals and the integrals exact; method 'detailed'; the added boreholes are at the end of the list (C126: the order does not matter) and not wider than those of the field (same linear start). Uniform wall temperature: first of the times"
],
"C147": [
"proved",
"Floats are reals; single U-tubes and coaxial boreholes (_BasePipe with one circuit); conductances between the legs symmetric"
],
"C148": [
"proved",
"Floats are reals; the resistances of the two legs from the wall are equal (two equal pipes placed symmetrically)"
],
"C149": [
"partial",
"Proved when all boreholes are in parallel (C149_parallel). False of two equal boreholes in series: C149_series_refuted. Floats are reals and quadratures exact integrals; method 'detailed'; first time value"
],
"C150": [
"partial",
"Proved when all boreholes have the same flow (C150_alike). False when two equal boreholes are fed unequally: C150_uneven_refuted. Floats are reals and quadratures exact integrals; method 'detailed'; first time value"
],
"C151": [
"proved",
"Floats are reals; the flow is a number"
],
"C152": [
"proved",
"Floats are reals; numpy.euler_gamma is its 16 digits; one argument at a time"
],
"C153": [
"partial",
"False as stated: C153_ratios_refuted and C153_result_refuted; C153_ratios_stale shows that the answer is wrong for every borehole and every change of the ratios. C153_copies and C153_careful prove it for callers that write in no array they have given or received"
],
"C154": [
"proved",
"numpy.linalg.eig is any function that decomposes the matrix (eig_ok); floats are reals"
],
"C155": [
"proved",
"numpy.linalg.eig is any function that decomposes the matrix (eig_ok); floats are reals"
],
"C156": [
"proved",
"each pipe is reversible with reciprocal resistances between its legs; for several U-tubes numpy.linalg.eig is any function that decomposes the matrix (eig_ok); floats are reals"
],
"C157": [
"proved",
"the response of the ground is any symmetric matrix; for one step of time (no history of heat extraction rates)"
],
"C158": [
"proved",
"strings are ASCII; str.upper of other letters is not modelled"
],
"C159": [
"partial",
"False of the code for the network outlet temperature, see C159_refuted and C159_stale (the fluid of the circuits is mixed with the former flows). Proved: for a caller that writes in no array after handing it over, the answers of a network that keeps copies (C159_copies); for a caller that refills its arrays in place, the answers of a new network from the six other methods (C159_refill), and from all seven if all requests and writes share the flow in the same way (C159_refill_outlet). As for C25, calls are supposed to be told apart by the stores."
],
"C160": [
"proved",
"C160_mlaa_linear and C160_liu_linear; ClaessonJaved is C03_cj_linear."
],
"C161": [
"proved",
"All three schemes. The range of the loads has to contain zero for ClaessonJaved, whose cells start empty; Liu with waiting periods of at least one step (see C05)."
],
"C162": [
"partial",
"Proved for ClaessonJaved without conditions (C162_cj_idle) and for MLAA and Liu while no loads are aggregated (C162_mlaa_idle, C162_liu_idle). False for MLAA and Liu beyond, see C162_mlaa_refuted and C162_liu_refuted: the blocks are placed by the number of steps since the beginning."
],
"C163": [
"partial",
"Proved for MLAA (C163_mlaa) and for Liu with waiting periods of at least one step (C163_liu). For ClaessonJaved proved while there are no more time steps than cells (C163_cj), and false beyond, see C163_cj_refuted: part of the load has left the last cell before the end of the horizon. Under loads that are not negative the shorter horizon then gives the smaller temperature variations (C163_cj_below)."
],
"C164": [
"proved",
"All three schemes, without conditions on their parameters. A permutation of the sources and a scalar load for all of them are special cases."
],
"C165": [
"proved",
"tmax/dt is a real number in the model: a quotient that floats round across an integer gives one step more or less in the code."
],
"C166": [
"proved",
"Floats are reals: the comparisons of the loops are exact."
],
"C167": [
"proved",
"The bound is attained (examples). The aggregated loads never vary more than the loads themselves; that is what the proof shows."
],
"C168": [
"proved",
"For ClaessonJaved the range of the loads includes zero, the growth is taken up to the end of the last cell, and the steps must end there at the latest."
],
"C169": [
"proved",
"C169_last_*: only the last load counts (without conditions on the cell parameters). C169_cj, C169_mlaa, C169_liu: effect of the current load."
],
"C170": [
"proved",
"C170_lattice: any lattice shape and any options with one list of ratios for all boreholes. C170_rectangle, C170_L, C170_box: the constructors with default options. Method 'detailed'; C170_similarities: method 'similarities' for fields that its tolerances do not confuse. The segment ratios rest on the exact roots of the expansion ratio, as C124."
],
"C171": [
"proved",
"C171_box, C171_U, C171_L: same boreholes in some order and same g-function with default options, method 'detailed'; segment ratios as C124. C171_counts: the condition on the size is needed."
],
"C172": [
"proved",
"C172_sum: boreholes of a sum, read off by indexing. C172_commute, C172_parts, C172_slices: default options, method 'detailed'; segment ratios as C124."
]
}