# Formal model of pygfunction in Rocq (Coq 8.16.1)

Source under study: `/repo/pygfunction` (read as text, never executed here).
Development: `/verif/rocq/theories`, logical path `Verif`.

## 1. Conventions

* One group of files per area `X`:
  * `X_Model.v`: definitions transcribed from the code, each with a comment citing file and lines. No proofs.
  * `X_Spec.v`: the specification, written without the model's helpers.
  * `X_Proofs.v`: lemmas.
  * `X_Props.v`: only the property theorems (`exact lemma`), an `Example` beside each, `Print Assumptions` under each.
* Exceptions (`ValueError`, `AssertionError`, `IndexError`, ...) are values: `option` or a small result type.
* `while` loops become recursion on explicit fuel with an error value, and the theorem shows that enough fuel exists.
* A statement that is false of the faithful model is recorded as a theorem `..._refuted` with a concrete witness;
  when a restricted version holds it is proved beside it with the suffix `_partial`, and the missing part is named.

## 2. Trusted base

* Coq's kernel (and `coqchk`).
* Axioms listed by `Print Assumptions`: only those of the Coq standard library used by the classical reals:
  `ClassicalDedekindReals.sig_forall_dec`, `ClassicalDedekindReals.sig_not_dec`,
  `FunctionalExtensionality.functional_extensionality_dep`, and for some results (those that use Coquelicot or classical
  choice on the reals) `Classical_Prop.classic`. Purely combinatorial theorems are closed under the global context.
* The reading of the Python code. The code is not run; the tie is the citation on each definition.
* Floating point: Python floats are idealised as exact real numbers `R` (no rounding, overflow, NaN or infinity).
  `numpy` reductions, `einsum`, `cumsum`, `diff`, `linalg.solve`, `searchsorted`, `argmax`, `argsort` are modelled by their
  mathematical meaning; `scipy` quadratures are modelled by exact integrals, `erf` by its integral.
* Not modelled: plotting, printing, file formats, `scp` fluid property library, timing, dtype selection, warnings.

## 3. Plan per property

| Id | What is modelled | How it is proved |
|----|------------------|------------------|
| C01-C03 | ClaessonJaved state = list of aggregated loads per source, shift matrix as a list recurrence, `einsum` as double sum | induction over the load sequence; energy balance as telescoping sum; refinement to a convolution for unit widths; convexity for the maximum principle |
| C04 | MLAA state (Q_b history, level arrays), `next_time_step` transcribed with slices | invariant over steps: level arrays are block means of the history; energy by summation over blocks |
| C05 | Liu state, all three waiting periods | same; counterexample for a zero waiting period |
| C06-C08 | loops of the three time grids on fuel | induction on the loop; doubling powers |
| C09 | branches of `segment_ratios`; polynomial root treated as an oracle whose acceptance test is modelled | list symmetry and sums |
| C10 | `segments` with cos/sin of tilt and orientation | cumulative sums, telescoping |
| C11 | `distance` = max(r_b, sqrt(dx^2+dy^2)) | algebra; counterexample for different radii |
| C12-C13 | condensed distance vector, index decoding, removal loop | bijection pair <-> condensed index; invariant of the removal loop |
| C14-C17 | list of coordinates built by each field builder, new and legacy | membership characterisations, counts, distance lower bounds |
| C18 | container of parallel lists | list homomorphisms |
| C19 | greedy loop over the sorted distances | loop invariant; counterexample for zero tolerance |
| C20 | `_verify_bore_connectivity`, `_path_to_inlet` with Python negative indexing | fuelled walk; characterisation by inductive reachability |
| C21-C24 | connectivity matrices, `numpy.linalg.solve` as Gaussian elimination with pivoting over exact reals (`LinAlg.v`), mixing row | strong induction on the distance to the inlet gives existence and uniqueness; sums over chains |
| C25 | cache automaton of Network with tolerance key | history counterexamples; conditional independence |
| C26-C29 | closed form of single U-tube with exp, sqrt | derivative identities (Coquelicot), algebra on exponentials |
| C30-C31 | `_format_inputs`, cached model variables as a state machine | counterexamples + conditional theorem |
| C32, C68 | coefficient algebra | field; hyperbolic functions |
| C33-C34 | delta-circuit construction, line source formula over complex positions | sums; algebra |
| C69-C70 | the whole multipole method: `_F_mk`, iteration with its stopping rule, fluid temperatures, temperature field (real parts; logarithm of the modulus for the complex logarithm) | induction over the iterations with a relation between the poles; derivatives along rays |
| C71 | construction of `SingleUTube` with J = 0 | the matrix is a convex combination of two diagonally dominant ones |
| C35 | boolean checks transcribed including numpy `all`/`any` quirks | equivalence with the geometric predicate / counterexamples |
| C36 | Nusselt branches | algebra at the break points |
| C72 | the Colebrook-White loop with fuel, in exact reals | contraction of 1/sqrt f with factor 1/2 on an invariant interval |
| C73 | the two resistance functions, all pipe types | positivity of each term; case analysis |
| C37 | cache list with `isclose` keys | counterexample + conditional theorem |
| C38-C43 | integrand with abstract even kernel, quadrature as exact integral | algebra with evenness; telescoping over subdivisions; Coquelicot integral for C42 |
| C74-C77 | the same integrands, inclined ones with a quadrature rule or exact integral along the emitting borehole | differentiation under erf, Coquelicot integrals, monotone convergence |
| C44-C47 | reconstruction by piecewise linear interpolation, superposition sum, solve loop with Gaussian elimination (`LinAlg.v`) as the linear solver | telescoping; loop invariants; counterexample for several mass flow rates |
| C48 | cumulative segment indices and the tautological length check | induction; counterexample |
| C49 | matrix assembly as a sequence of writes | case analysis on block indices |
| C78-C80 | the same loops; Detailed matrix of vertical fields | loop invariant, Abel summation, positive definite forms, C39 summed over segments |
| C50-C53 | the four grouping loops, both comparison functions, segment pairs, distance classes, assembly of the matrix with the index offsets; the method 'similarities' with the line source solutions of C38-C43 (the approximation is modelled in C109-C113 only) | permutation of the groups; invariant of the writes; comparison with the detailed matrix; counterexamples at matrix level with strict inequalities between the integrals |
| C54, C55, C81-C83 | grouping of equal boreholes, number of clusters, construction of the equivalent boreholes, distances of the field, nearest-distance weights, pair groups, assembly of the matrix; scipy's hierarchical clustering is a parameter with a contract (labels 0..k-1, heights are differences of the data); the fluid side of the solver (_EquivalentNetwork) is in rows C66, C67 | block structure of the groups; invariant of the writes; sums over members; lumping of the linear systems step by step |
| C56 | argument plumbing of the legacy wrappers | counterexample; equality for the honoured arguments |
| C84-C91, C93, C94 | gfunction.py: constructor with optional arguments as tagged values (None, int, float, numpy float, array, 2-D array), `_format_inputs`, `_check_inputs`, dispatch to the three solvers, `evaluate_g_function`, `from_static_params`, the three legacy functions; solvers of the previous rows. Network and pipes as in C20-C25 with pipes as pairs of coefficient functions of flow. Not modelled: visualisation, inclined boreholes with a network and the equivalent method. The heat extraction rates and temperature profiles are in rows C114-C120, the approximation of the FLS in rows C109-C113 | composition of the solver results; prefix invariant of the time loop; energy (positive definite) argument for existence; 1-borehole and 2-borehole witnesses |
| C57 | coefficient algebra | field |
| C95-C107 | pipes.py: MultipleUTube 1844-2220, IndependentMultipleUTube 2289-2501 and the methods of _BasePipe for any number of pipes; numpy.linalg.eig and the inverse of the eigenvectors are a parameter (complex numbers), assumed to diagonalise the matrix; delta-circuit given (C71 for the thermal resistances) | matrix exponential solves the ODE; energy estimate gives uniqueness, solvability of the linear systems and passivity; squared positive part for the maximum principle |
| C108 | networks.py of C20-C25 with the pipes of C26-C32 and C95-C107: no new code, joins the three models with the g-function of C94 | mean value theorem on the energy carried along a segment; telescoping along segments and circuits of the squares of the temperatures |
| C109-C113 | heat_transfer.py 9-650 (list and pair calls, approximations) and utilities.py 427-514 (the tables of coefficients, digit by digit); exp1 and erfc are arguments of the approximation, erfc is 1 - erf in the theorems (exp1 itself is in row C152); the number N is a natural number | the solution as an integral of the error function against 1/s^2 exp(-d^2 s^2), whose error is E1; interval evaluation of erf and of the sums on a grid in fixed-point integers, checked in the kernel, with monotonicity between grid points |
| C114-C120 | gfunction.py 491-1400 (figures of a g-function object: data of the curves; not the plan view, colours, labels), what _base_solver.solve stores, equivalent.py 193-201 and 397-405 | invariants of the solution at all time steps; figures as lists of curves |
| C121-C123 | no further code: detailed.py, heat_transfer.py, _base_solver.py and gfunction.py as modelled for C40-C94 | positive semi-definite kernels (limits of sums of squares), derivative of the kernel in the wave number, packing bound for the points of the plane, splitting of the integral |
| C124 | borefield.py 146-341 (evaluate_g_function) with the default options of the solvers | composition of C09, C14-C17, C90 and C121-C123 |
| C125 | gfunction.py, solvers/*, heat_transfer.py: the whole call on a field that is displaced, turned or mirrored | every distance, lean and relative orientation is preserved; the solvers see the same numbers |
| C126 | gfunction.py, solvers/detailed.py, solvers/_base_solver.py: the call with the boreholes in another order | the matrix is permuted by reciprocity of the line source; the solution of the permuted system is the permuted one |
| C127 | gfunction.py, heat_transfer.py, solvers/detailed.py, solvers/_base_solver.py: the call in other units of length and time | line sources by substitution in the integrals, also for nodes on the extension of a segment; every step of the solver commutes with the factors |
| C128 | gfunction.py, heat_transfer.py, borefield.py: g-functions at uniform heat extraction rates of two fields | the line source decreases with the distance; the error function is concave, so the image term shrinks with the depth; sums by index |
| C129 | gfunction.py, networks.py: methods 'equivalent' and 'detailed' with a mixed inlet temperature | the systems of all time steps are lumped by group; the coefficients of the equivalent network are those of the network with equal rows in a group |
| C130, C131 | pipes.py: `thermal_resistances` with J = 0 for any number of pipes, constructors of MultipleUTube and IndependentMultipleUTube (1844-1886, 2289-2330), `local_borehole_thermal_resistance` | Green's function of the disk: positive on points by Szego's kernel and the logarithm series, averaged over roots of unity on the circles of the pipes, limits of many points; the resistance is the least work of flows of sum one |
| C132 | pipes.py: `effective_borehole_thermal_resistance`, `local_borehole_thermal_resistance` of MultipleUTube | Cauchy-Schwarz in the form of the circuit at each depth and along the depth; mean value theorem on the energy carried by the fluid |
| C133, C134 | ClaessonJaved as in C01-C03 with the grid of C06; heat_transfer.py: finite line source of a vertical borehole at its wall; evaluate_g_function as in C124 | invariant: energy of the first k cells is at most the load of the same ages; Abel summation and Chebyshev's sum inequality. Derivative in time of the response is (1/t) exp(-r^2/(4 alpha t)) times a function that decreases with time (polynomial inequality in three exponentials); first step by scaling the integral by the powers of the square root of 2 |
| C135, C136 | MLAA and Liu as in C04, C05 | averaging a block of monotone loads against decreasing rises moves the sum to one side (Chebyshev), block by block |
| C137, C138 | pipes.py: effective resistance and outlet temperature of one U-tube or coaxial borehole, as in C68 | closed form with eta coth eta; eta coth eta grows and coth eta falls; the rest is algebra |
| C141 | networks.py: network_thermal_resistance on the whole network model of C21-C25 | circuit by circuit: the sum of a^i + a^(L-i) is at most L(1 + a^L); Chebyshev's inequality over the circuits |
| C142 | as C141, with the U-tubes of C68 | the factor of a borehole is exp(-2 theta), tanh theta = tanh(eta)/k; theta/eta falls and theta (1+A)/(1-A) grows, by mean value theorems and Jensen's inequality over the circuits |
| C143 | as C142 | Jensen's inequality for the exponential over the circuits, and theta(n x) <= n theta(x) |
| C144 | as C122 | energies: the heat at uniform temperature minimises the energy of the field, a finer field has more candidates |
| C145 | as C144, one borehole | the energy of any loads grows with the time (the kernel of one borehole is positive semidefinite at every s) |
| C146 | as C144 and C90 | the loads of the field with none in the added boreholes are loads of the larger field: least energy; positive responses between the two fields |
| C147 | as C50 | the product of temperature differences of two solutions, one per direction, is conserved down the borehole up to the heat at the wall |
| C148 | as C147 | with equal legs the reversed flow is the same flow |
| C149 | as C94, in parallel | the loads at the mixed inlet temperature against the loads of least energy at a uniform wall temperature, both quadratic forms; C148 gives the symmetry of the coefficients; two boreholes in series as a counter-example |
| C150 | as C149, one segment each | with equal conductances the mean wall temperature of the loads is at most that of uniform loads; two boreholes with flows 1 and 2 as a counter-example |
| C151 | pipes.py: _BasePipe 347-529 for one pipe, SingleUTube 1350-1566 and 1658-1764 | identity between the edge functions of the closed form and the primitives F4, F5, in the exponentials of the depths |
| C152 | utilities.py 43-73 (exp1), one positive argument, with the formula of C109-C113 | integral recursion for exp(x) E1(x) on 1420 cells in fixed-point integers, checked in the kernel; expansions below the first and above the last cell |
| C153 | pipes.py 809-900, 1128-1167, 319-345, 563-598, 632-667: the stores with references to the arrays of ratios and of coefficients | simulation of the store by value (C31) for careful callers; strict monotonicity of the outlet coefficients along the depth for the refutation |
| C154, C155 | pipes.py MultipleUTube and IndependentMultipleUTube (model of C95-C107) | bilinear identity for two profiles with opposite flows, integrated over the segments; boundary terms at the head for the three kinds of connection |
| C156, C157 | networks.py Network (model of C20-C26) with the pipes of C147, C154 | reciprocity of each pipe; the products of the temperatures of the two directions telescope along the circuits; exchange of the sums over the ground |
| C158 | utilities.py cardinal_point 9-22 and the segments of boreholes.py | sum of two unit vectors at angles a and b; membership in the list of names |
| C159 | references to the arrays of flows in networks.py 571-1114, 1146-1274 | requests with the contents of the arrays at that moment |
| C160-C162 | load_aggregation.py (models of C01-C05) | linear combinations, growing responses, ordered loads, idle steps |
| C163 | load_aggregation.py (models of C01-C05), utilities.py 251-265 | two simulations with different horizons |
| C164 | load_aggregation.py (models of C01-C05) | loads handed out to the members of groups, responses added |
| C165-C166 | load_aggregation.py 452, 703, 357-369, 605-617 (number of steps and times of MLAA and Liu), models of C01-C08 | the regular grid reaching the horizon, the same grid in another unit |
| C167 | load_aggregation.py (models of C01-C05) | total variation of a load history |
| C168 | load_aggregation.py (models of C01-C05), utilities.py 251-265 | temporal superposition of the load history |
| C169 | load_aggregation.py (models of C01-C05) | pairs of simulations that differ in the current load |
| C170 | borefield.py (C14, C15), gfunction.py (C124-C126) | fields with exchanged axes |
| C171 | borefield.py (C14, C15), gfunction.py (C124, C126) | fields of small sizes |
| C172 | borefield.py (C18), gfunction.py (C124, C126) | sums and slices of fields |
| C139, C140 | media.py: class Fluid with its mutable attributes; the scp library is a parameter | upper case as an equivalence of words; computation |
| C65-C67 | network inlet coefficients; `_EquivalentNetwork` | field; sums over the groups |

Findings (places where the code violates the stated property) are collected in section 4 as they are proved.

## 4. Findings

Behaviours of the code found while modelling; each is a theorem on the model.

- **F1 (C05)** `load_aggregation.Liu` with a waiting period of zero at the first or second level loses
  or repeats loads: `C05_liu_no_wait_W1_refuted`, `C05_liu_no_wait_W2_refuted`.
- **F2 (C08)** `utilities.time_geometric(1, 4000.1, 4000)` is not increasing: the loop stops when two
  iterates differ by 1e-10, the ratio is still too large and the last but one time exceeds `tmax`:
  `C08_increasing_refuted`. `C08_increasing` gives a safe range of arguments.
- **F3 (C11)** `Borehole.distance` takes the radius of its own borehole only, so it is not symmetric for
  boreholes of different radii closer than the larger radius: `C11_symmetry_refuted`.
- **F4 (C19)** `_EquivalentBorehole.unique_distance` with `disTol = 0` merges all distances in one class
  (the first distance compares equal to itself, so the class found is empty): `C19_zero_tolerance_refuted`.
- **F5 (C59)** `_EquivalentBorehole((H, D, r_b, x, y))`, a documented form, raises `AttributeError`:
  `C59_five_tuple_refuted`.
- **F6 (C61)** The deprecated `boreholes.staggered_rectangle_field` swaps the default origins of its two
  variants, so that inclined fields do not lean away from the documented centre: `C61_staggered_origin_refuted`.
- **F7 (C61)** A borehole at distance exactly `r_b` of the origin is vertical in the deprecated builders and
  inclined in the `Borefield` methods: `C61_on_circle_refuted`.
- **F8 (C62)** `Borefield.__eq__` is not symmetric (`numpy.allclose` is relative to its second argument):
  `C62_symmetry_refuted`.
- **F9 (C22, C23)** `Network._coefficients_mixing` assigns the flow of circuit k to the k-th outlet in borehole
  order, although circuits are numbered by their first borehole. With `bore_connectivity = [-1, -1, 1, 0]` and
  unequal circuit flows, the network outlet temperature mixes with the wrong weights and the network heat balance
  does not hold: `C22_mixing_refuted`, `C23_network_refuted`.
- **F10 (C25)** The mixing weights are computed from the flows formatted last, not from those of the call: a call of
  the network outlet temperature whose outlet coefficients are already stored uses the flows of the call in between:
  `C25_mixing_refuted`.
- **F11 (C25)** The key of the stored coefficients does not tell a total flow from an array of circuit flows that
  all equal it: `C25_scalar_array_refuted`.
- **F12 (C28, C30)** `SingleUTube` and `Coaxial` with `reversible_flow=False` are documented to use the absolute value of
  a negative flow, but `coefficients_borehole_heat_extraction_rate` multiplies by the signed flows of the pipes: the
  rates of the segments have the wrong sign and do not add up to the rate of the fluid: `C28_nonreversible_refuted`,
  `C30_heat_refuted`.
- **F13 (C31)** `_check_model_variables` compares the key of the last update, but the index of the inlet leg is
  overwritten by every `_format_inputs`. With `reversible_flow=True`, a call answered from the stored coefficients
  leaves the direction of that call behind, and `get_temperature` for the other direction exchanges the two legs:
  `C31_direction_refuted`.
- **F14 (C35)** `Coaxial._check_geometry` tests `np.all(x) > 0` (true for all non-zero x) and `np.any` for the containment:
  negative radii and resistances, and an outer pipe larger than the borehole, are accepted:
  `C35_coaxial_negative_refuted`, `C35_coaxial_outside_refuted`.
- **F15 (C37)** `thermal_resistances` compares `R_fp` with the default tolerance of `numpy.allclose` (1e-5): a slightly
  different resistance is answered with the matrices of the last call: `C37_tolerance_refuted`. The stored arguments and
  results are references, so that a caller who changes the returned arrays in place changes the stored values (not modelled).
- **F16 (C29)** With widely spaced pipes the line source approximation (J = 0) gives a negative conductance between the legs
  of a U-tube; for long boreholes the outlet temperature then passes beyond the wall temperature:
  `C29_wide_spacing_refuted`.
- **F17 (C36)** `convective_heat_transfer_coefficient_concentric_annulus` takes the friction factor of a circular pipe of
  radius `r_out - r_in` with the whole mass flow rate, hence at a Reynolds number larger than that of the annulus by
  `(r_out + r_in)/(r_out - r_in)`: `C36_annulus_friction_refuted`.
- **F18 (C40, C42)** `_finite_line_source_inclined_integrand` clamps the horizontal distance to the borehole radius
  (`rr`) for both sources when they are evaluated together, but evaluates the image alone with the unclamped distance
  (heat_transfer.py 1251). For every inclined borehole on itself the real and image parts do not add up to the full
  solution, at any time (`C40_inclined_self_all`); a vertical borehole evaluated by the inclined formula (a list with at
  least one inclined borehole) has another image than by the vertical formula (`C42_image_alone_refuted`).
- **F19 (C76)** At steady state the inclined solution uses the unclamped distance for the image also when both sources are
  asked for (heat_transfer.py 1492): the self-response of an inclined borehole at `time=inf` is not the limit of its
  transient values (`C76_inclined_self_refuted`).
- **F20 (C47)** With several mass flow rates `gFunc[:,:,:p_long] = gFunc[:,:,p_long-1] * time[:p_long] / time_threshold`
  (_base_solver.py 447) broadcasts shapes (F, F) and (p_long,): ValueError when 1 < F and p_long differs from F, wrong
  values when p_long = F.
  Theorems C47_mift_refuted, C47_mift_values_refuted, C47_mift_fails.
- **F21 (C48)** `_check_inputs` compares `len(self.nBoreSegments)` with itself (_base_solver.py 606-607): a list of numbers of
  segments that is too short is accepted and boreholes are silently left out of the field. Theorem C48_refuted.
- **F22 (C50)** For inclined boreholes the offset of the indices of unique segment pairs is the number of all segment pairs
  (similarities.py 372, 451: `k0 += len(k_pair)`), not the number of unique ones. Two horizontal boreholes of different
  lengths with two segments each raise IndexError. Theorem C50_refuted.
- **F23 (C51)** Pairs of vertical boreholes of the same length with opposite differences of depth are put in one group without
  being swapped (similarities.py 605-611, `equal_H and cond_deltaD_equal_H`); at segment level the value of another pair of
  segments is used. Theorem C51_refuted; C51_exact shows that fields in which boreholes of the same length are at the same
  depth are solved exactly.
- **F24 (C51)** The comparison of inclined pairs only looks at the cosines of the orientations relative to the line through the
  heads (similarities.py 806-818): boreholes that lean to the same side and to opposite sides of that line are taken as
  similar. Theorem C51_inclined_refuted (three boreholes in a row, orientations 60, 60 and -60 degrees).
- **F25 (C53)** `boreholes[0].is_vertical` without call parentheses (similarities.py 924) is always true: a single inclined
  borehole is solved as vertical, and its response is overestimated at every time. Theorems C53_single, C53_refuted.
- **F26 (C54)** The cluster labels are collected group by group (groups of boreholes of the same dimensions, equivalent.py
  355-389) but are paired with the boreholes in the order of the list (394-398). If boreholes of the same dimensions are not
  adjacent in the list, boreholes of different dimensions are merged and the total length changes. Theorem C54_refuted
  (lengths 100, 50, 100, 50 m: 400 m instead of 300 m).
- **F27 (C86)** The solver of the equivalent boreholes (the default method) reads `self.nBoreholes` before it is set
  (equivalent.py 830-832, set at 344) when `m_flow_borehole` is given: AttributeError for all boreholes in parallel with equal
  flows, also when the flows come from an array stored in the network (gfunction.py 1424-1425). Theorems
  C86_borehole_flows_error, C86_borehole_flows_refuted.
- **F28 (C56)** `mixed_inlet_temperature` does not use `m_flow_network` and `cp_f` (gfunction.py 1932-1934): the values stored
  in the network are used, and it is an error if there are none. `equal_inlet_temperature` multiplies an array of flows
  (documented) by the number of boreholes. Theorems C56_mixed_refuted, C56_mixed_nothing_stored, C56_equal_array_refuted.
- **F29 (C85, C87)** Tests of the form `type(x) is float` (gfunction.py 1422, 1426): flows and heat capacities stored in a network
  as integers or numpy floats are not used (AssertionError afterwards); an integer time is refused. Theorems
  C85_stored_integer_refuted, C87_integer_refuted.
- **F30 (C88)** `from_static_params` takes the heat capacity of the fluid at 20 degrees, not at `fluid_temperature` (line 428);
  a boundary condition in small letters passes its own test and is refused by the constructor. Theorems
  C88_temperature_refuted, C88_lower_case_refuted.
- **F31 (C93)** The solver of the equivalent boreholes writes to `network.m_flow_network` of the user's network (equivalent.py
  834-837). The value is a numpy float, which the next gFunction of this network does not accept (F29). Theorem
  C93_network_changed_refuted.
- Remarks read in the code, not stated as theorems: `np.allclose` on 2-D flows (gfunction.py 1444-1447) compares the rows (flow
  cases), not the boreholes. Times repeated above the threshold give a zero
  time step (a division by zero in numpy; 0 in the model, whence the hypothesis `no_repeats`).
- **F32 (C104)** With `reversible_flow=False` the documentation says that the absolute value of the flow is used. MultipleUTube and
  IndependentMultipleUTube keep the sign in the flows of the pipes (pipes.py 2206, 2484) while inlets and outlets are not
  exchanged: the differential equations are solved backwards and the fluid leaves hotter than inlet and wall. Theorem
  C104_sign_refuted. `IndependentMultipleUTube` with a scalar flow fails (enumerate over a numpy bool); the effective resistance
  needs one inlet (`.item()`): remarks, not theorems.
- **F33 (C112)** `_erf_coeffs(N)` has tables for N = 0 to 24, while the documentation of the functions that use it says that the maximum
  is 25: `N=25` is an IndexError. The table for N has N + 1 exponentials and a constant, not N terms, and the coefficients are
  used as exp(-b_n x^2) while the docstring says exp(-b_n^2 x^2). Theorems C112_maximum_refuted, C112_terms.
- **F34 (C113)** A list that has an inclined borehole sends all pairs through the inclined formulas. The steady state of these puts no
  radius under the image part, so the value of a vertical borehole on itself is smaller than the one of the single call.
  Theorem C113_steady_self_refuted.
- **F35 (C117)** With several mass flow rates and a time, `_heat_extraction_rate_profiles` slices the axis of the flows by the segments of the
  borehole (`Q_b[i0:i1,:]`) and keeps all sources: the lengths do not match and the figure is an error for any field of two
  boreholes or more; `_temperature_profiles` interpolates along the sources. Theorems C117_none, C117_time_refuted.
- **F36 (C118)** `_temperature_profiles` calls `np.asscalar` for 'UBWT'; numpy >= 1.26.4, which setup.cfg asks for, does not have it.
  Theorems C118_none, C118_refuted.
- **F37 (C119)** The profiles add the distance along the borehole to the depth of the head, so those of an inclined borehole are drawn too
  deep (a borehole of 100 m tilted by 60 degrees: 104 m instead of 54 m). Theorem C119_inclined_refuted.
- **F38 (C120)** With the method 'equivalent', the figures of heat extraction rates and temperatures take the mean length of the groups, not
  weighted by the number of boreholes: their time axis differs from the one of the g-function. Theorem C120_groups_refuted.
- **F39 (C121)** Boreholes exactly one radius apart are accepted (the check for duplicates is a strict comparison) and have equal responses,
  since a distance is not taken below the radius: the system of a uniform wall temperature is singular. Theorem C121_touching_refuted.
- **F40 (C139)** After `fluid.T_C = ...`, `density()`, `dynamic_viscosity()` and `specific_heat_capacity()` are at the
  new temperature, `kinematic_viscosity()` and `volumetric_heat_capacity()` at the old one, because the latter read the
  attributes set by the constructor: `C139_stale_refuted`.
- **F41 (C140)** `Fluid.append_to_dict` raises for every fluid: it formats every attribute with `.5E`, also the object
  `fluid` and the string `name`. Three values are appended before it raises: `C140_append_refuted`, `C140_left_behind`.
- **F42 (C150)** Two equal boreholes in parallel fed with flows 1 and 2: the g-function with 'MIFT' is above the one with
  'UHTR'. The network resistance is that at a uniform wall temperature, where the borehole with more flow takes more heat;
  the ground makes the loads more even than that, and the difference is counted as a wall temperature. So 'UHTR' is not an
  upper bound of 'MIFT' in fields with unequal flows.
- **F43 (C149)** Two equal boreholes in series: the g-function with 'MIFT' is below the one with 'UBWT'. By symmetry the
  mean wall temperature of this pair is the same for all loads of the same total. The resistance of the network assumes the
  loads of a uniform wall temperature, so that the value returned with 'MIFT' is below the mean wall temperature of the field.
- **F44 (C153)** The stores of a borehole keep the caller's array of segment ratios and hand out their own arrays of coefficients. A caller that fills the same array with new ratios (`ratios[:] = ...`) and asks again gets the coefficients of the former ratios, without any error; a caller that scales a returned array in place changes what the borehole returns next. `C153_ratios_stale`, `C153_ratios_refuted`, `C153_result_refuted`. A network keeps its ratios and coefficients the same way (networks.py 1187); that is not modelled, its arrays of flows are (F45).
- **F45 (C159)** The network keeps the caller's array of flows itself with its mixing weights (`self._mixing_m_flow = m_flow_network`, networks.py 1112). A caller that fills the same array with other flows in place and asks again for the network outlet temperature gets the outlet temperatures of the new flows mixed with the weights of the former ones: the check compares the array with itself (`C159_stale`, `C159_refuted`). The flows formatted last (`self._m_flow_in`, 1232-1238) are the caller's array too, so that the weights can even be those of flows written for another purpose (`C159_formatted_refuted`). The other keys are products, hence new arrays, and the other methods are right (`C159_refill`).
- **F46 (C162)** With MLAA and Liu, beginning the simulation some steps before the first load changes the temperatures: the places of the blocks are counted from the beginning of the simulation. `C162_mlaa_refuted`, `C162_liu_refuted`. ClaessonJaved has no such effect (`C162_cj_idle`).
- **F47 (C163)** ClaessonJaved loses load before `tmax`: in every step a part of each cell moves on, so after as many steps as there are cells the first loads begin to leave the last cell. The temperatures near the end of a simulation depend on how much longer than the simulation `tmax` was chosen. `C163_cj_refuted` (one cell per level, three steps, `tmax` of three against four steps), `C163_cj_below`.
