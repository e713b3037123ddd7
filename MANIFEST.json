{
 "claims": [
  {
   "property": "C01",
   "status": "proved",
   "theorems": [
    "C01_hermitian"
   ],
   "note": "conj is any involution on constants; callables are opaque names wrapped by VHC"
  },
  {
   "property": "C02",
   "status": "proved",
   "theorems": [
    "C02_step",
    "C02_history",
    "C02_empty",
    "C02_errors"
   ],
   "note": "refinement to an abstract mapping, per step and per history"
  },
  {
   "property": "C03",
   "status": "proved",
   "theorems": [
    "C03_invariant",
    "C03_neighbors"
   ],
   "note": ""
  },
  {
   "property": "C04",
   "status": "proved",
   "theorems": [
    "C04_set_atomic",
    "C04_del_atomic"
   ],
   "note": ""
  },
  {
   "property": "C05",
   "status": "proved",
   "theorems": [
    "C05_delete_site"
   ],
   "note": ""
  },
  {
   "property": "C06",
   "status": "proved",
   "theorems": [
    "C06_delete_hopping"
   ],
   "note": ""
  },
  {
   "property": "C07",
   "status": "proved",
   "theorems": [
    "C07_contains_site",
    "C07_contains_hopping",
    "C07_contains_total",
    "C07_contains_symmetric",
    "C07_hopping_has_sites"
   ],
   "note": ""
  },
  {
   "property": "C08",
   "status": "proved",
   "theorems": [
    "C08_sites",
    "C08_site_value_pairs",
    "C08_hoppings"
   ],
   "note": ""
  },
  {
   "property": "C09",
   "status": "proved",
   "theorems": [
    "C09_neighbors",
    "C09_neighbors_symmetric"
   ],
   "note": ""
  },
  {
   "property": "C10",
   "status": "proved",
   "theorems": [
    "C10_two_core"
   ],
   "note": "eradicate_dangling; survivors = greatest self-supporting set"
  },
  {
   "property": "C11",
   "status": "proved",
   "theorems": [
    "C11_general_key_set",
    "C11_general_key_del",
    "C11_flat_set",
    "C11_flat_del"
   ],
   "note": "processes = independent work-list semantics of nested iterable/callable keys"
  },
  {
   "property": "C12",
   "status": "proved",
   "theorems": [
    "C12_update",
    "C12_update_empty"
   ],
   "note": ""
  },
  {
   "property": "C13",
   "status": "proved",
   "theorems": [
    "C13_fill",
    "C13_reachable",
    "C13_errors",
    "C13_success",
    "C13_success_no_raise"
   ],
   "note": ""
  },
  {
   "property": "C14",
   "status": "proved",
   "theorems": [
    "C14_group_action",
    "C14_elements",
    "C14_which_act",
    "C14_family",
    "C14_free",
    "C14_in_fd",
    "C14_to_fd_in_fd",
    "C14_to_fd_fixed",
    "C14_decompose",
    "C14_orbits",
    "C14_to_fd2",
    "C14_reversed",
    "C14_family_data"
   ],
   "note": "floating-point selection of the data in add_site_family is not modelled; exactness of det and det_x_inv_m is the hypothesis exact_inverse"
  },
  {
   "property": "C15",
   "status": "proved",
   "theorems": [
    "C15_hopping_kind",
    "C15_tag_difference"
   ],
   "note": ""
  },
  {
   "property": "C16",
   "status": "proved",
   "theorems": [
    "C16_add_edge",
    "C16_compress",
    "C16_id_order",
    "C16_out",
    "C16_iteration",
    "C16_iteration_refuted",
    "C16_has_dangling",
    "C16_pickle"
   ],
   "note": "edge ids = positions in the unique list specified by id_order; iteration of two-way graphs with negative tails is refuted (bug in EdgeIterator)"
  },
  {
   "property": "C17",
   "status": "proved",
   "theorems": [
    "C17_lookup",
    "C17_errors",
    "C17_doubly_dangling_refuted",
    "C17_head",
    "C17_tail_partial",
    "C17_tail",
    "C17_tail_refuted"
   ],
   "note": "tail is exact only if all nodes have outgoing edges (C17_tail); C17_tail_refuted and C17_doubly_dangling_refuted exhibit the bugs"
  },
  {
   "property": "C18",
   "status": "proved",
   "theorems": [
    "C18_in_edges",
    "C18_errors",
    "C18_mirror"
   ],
   "note": ""
  },
  {
   "property": "C19",
   "status": "proved",
   "theorems": [
    "C19_edge_id",
    "C19_disabled"
   ],
   "note": ""
  },
  {
   "property": "C20",
   "status": "proved",
   "theorems": [
    "C20_finalized",
    "C20_succeeds",
    "C20_lead_on_missing_site",
    "C20_hermitian",
    "C20_call_conjugated"
   ],
   "note": "finite systems; finalizing attached leads is C21; discrete symmetries and parameter names not modelled"
  },
  {
   "property": "C21",
   "status": "proved",
   "theorems": [
    "C21_accepts",
    "C21_finalized",
    "C21_translational"
   ],
   "note": "hypotheses on the symmetry hold for every 1D TranslationalSymmetry (C21_translational)"
  },
  {
   "property": "C22",
   "status": "proved",
   "theorems": [
    "C22_orbitals",
    "C22_total",
    "C22_undeclared",
    "C22_bisect"
   ],
   "note": ""
  },
  {
   "property": "C23",
   "status": "proved",
   "theorems": [
    "C23_succeeds",
    "C23_blocks",
    "C23_hermitian",
    "C23_restriction",
    "C23_finalized_ok",
    "C23_finalized_blocks"
   ],
   "note": "dense matrices; hypotheses on the graph and Hermiticity are proved for finalized builders (C23_finalized_ok)"
  },
  {
   "property": "C24",
   "status": "proved",
   "theorems": [
    "C24_sparse_dense"
   ],
   "note": "also: same exceptions, and no buffer overrun; counterexamples for multigraphs and loops as Examples"
  },
  {
   "property": "C25",
   "status": "proved",
   "theorems": [
    "C25_where",
    "C25_where_hoppings",
    "C25_density",
    "C25_current",
    "C25_source",
    "C25_succeeds",
    "C25_lengths",
    "C25_ket_none",
    "C25_real",
    "C25_bind"
   ],
   "note": "complex numbers are any StarRing (exact arithmetic); numerical Hermiticity test is a parameter; counterexamples to the unrestricted claim: C25_scalar_refuted, C25_current_norbs_refuted, C25_ham_shape_refuted, C25_infinite_hopping_refuted, C25_no_hopping_refuted (Examples)"
  },
  {
   "property": "C26",
   "status": "proved",
   "theorems": [
    "C26_call_act",
    "C26_tocoo"
   ],
   "note": "infinite systems: hoppings to the next cell excluded (the code accepts some of them, see C25_infinite_hopping_refuted)"
  },
  {
   "property": "C27",
   "status": "proved",
   "theorems": [
    "C27_continuity",
    "C27_stationary",
    "C27_antisymmetric"
   ],
   "note": "exact arithmetic; finite systems"
  },
  {
   "property": "C28",
   "status": "proved",
   "theorems": [
    "C28_layout",
    "C28_submatrix",
    "C28_missing",
    "C28_blocks_sum"
   ],
   "note": "block number -1 excluded: C28_negative_block_refuted"
  },
  {
   "property": "C29",
   "status": "proved",
   "theorems": [
    "C29_computed",
    "C29_deduced",
    "C29_insufficient"
   ],
   "note": "the branch for two missing leads is wrong in the code: C29_both_missing_refuted"
  },
  {
   "property": "C30",
   "status": "proved",
   "theorems": [
    "C30_columns",
    "C30_unitary"
   ],
   "note": "both-missing branch: C30_both_missing_refuted"
  },
  {
   "property": "C31",
   "status": "proved",
   "theorems": [
    "C31_moments_operator",
    "C31_moments",
    "C31_incremental",
    "C31_add_moments",
    "C31_add_vectors",
    "C31_init"
   ],
   "note": "exact arithmetic; num_moments=1 fails with IndexError (Example)"
  },
  {
   "property": "C32",
   "status": "proved",
   "theorems": [
    "C32_gaussian",
    "C32_classes",
    "C32_sizes"
   ],
   "note": "random numbers are arbitrary self-conjugate (real) ring elements; exact arithmetic; the distribution is not modelled"
  },
  {
   "property": "C33",
   "status": "proved",
   "theorems": [
    "C33_errors",
    "C33_sites",
    "C33_finitely_many",
    "C33_bloch",
    "C33_infinite",
    "C33_splits_all",
    "C33_finite",
    "C33_hermitian",
    "C33_keep",
    "C33_commutative",
    "C33_phases"
   ],
   "note": "for keep, value functions are assumed not to distinguish sites related by the kept translation (they are evaluated at images in the new fundamental domain); onsite functions take the site first and have no further parameter called _site0; momenta is not empty (for NoSymmetry all parameters are dropped: ex_no_momenta_refuted); the sort used by bind_sum is any permutation; the phases are any function with exp(0)=1 and exp(-x)=conj(exp(x)) (C33_phases: cos and sin satisfy this, standard library reals); discrete symmetries and the band structure plots are not modelled; C33_hermitian needs Hermitian onsite elements for the diagonal, the reflection for keep follows from C01 on the new builder"
  },
  {
   "property": "C34",
   "status": "proved",
   "theorems": [
    "C34_errors",
    "C34_finite",
    "C34_hermitian",
    "C34_infinite"
   ],
   "note": "leads are covered by applying the theorems to the lead builder with its own parameter name (the construction of the names phi_lead0, ... is not modelled); discrete symmetries are not modelled; the gauge (magnetic_gauge) is not modelled: phi is any callable with phi(b, a) = conj phi(a, b); for systems with a translational symmetry phi has to be invariant, since it is evaluated at the images in the fundamental domain"
  },
  {
   "property": "C35",
   "status": "proved",
   "theorems": [
    "C35_lattice",
    "C35_transformation",
    "C35_reduced",
    "C35_no_failure",
    "C35_terminates_two"
   ],
   "note": "axioms of the standard library reals; lstsq and round are oracles with their documented properties; C35_lattice needs no assumption on them; termination is proved for two vectors only (the property claims no more); finding: the result need not be size-reduced (C35_size_reduced_refuted)"
  },
  {
   "property": "C36",
   "status": "proved",
   "theorems": [
    "C36_closest",
    "C36_terminates",
    "C36_zero_refuted",
    "C36_grouped",
    "C36_voronoi",
    "C36_voronoi_reduced",
    "C36_voronoi_terminates"
   ],
   "note": "exact real arithmetic (axioms of the standard library reals); lstsq, inv, round, argsort are oracles with their documented properties; termination is not claimed for group_by_length=True; cvp(n=0) never returns (C36_zero_refuted); reduced cell equality for rtol=0, minimality for every rtol>=0"
  },
  {
   "property": "C37",
   "status": "proved",
   "theorems": [
    "C37_rename",
    "C37_routing",
    "C37_rejects",
    "C37_identity",
    "C37_compose",
    "C37_builder",
    "C37_builder_errors",
    "C37_finite",
    "C37_infinite"
   ],
   "note": "the UserWarning for unknown names is not modelled; a HermConjOfFunc value is represented by its wrapped function; functions are opaque callables with a list of distinct parameter names; finding: a builder with an unhashable constant value (numpy array) cannot be substituted, TypeError (ex_unhashable)"
  },
  {
   "property": "C38",
   "status": "proved",
   "theorems": [
    "C38_range",
    "C38_deterministic",
    "C38_separates",
    "C38_uniform",
    "C38_gauss"
   ],
   "note": "md5 and the UTF-8 encoding are arbitrary functions; little-endian platform; C38_gauss is over the reals of the standard library (its axioms), the rest is closed under the global context; finding: input and salt are concatenated without separator, so different salts can collide (Example C38_salt_refuted)"
  },
  {
   "property": "C39",
   "status": "proved",
   "theorems": [
    "C39_lead",
    "C39_range",
    "C39_attach",
    "C39_preserves",
    "C39_errors",
    "C39_terminates"
   ],
   "note": "the system has no symmetry and the lead one direction (other cases: ValueError, not modelled); warnings not modelled; C39_range and C39_terminates assume that the cells of sym.subgroup((n,)) are n consecutive cells; findings: ValueError documented but RuntimeError raised and the system emptied; with origin the system can lose sites of its own (ex_attach_origin); period doubling can lose a part of the lead (ex_attach_lost)"
  },
  {
   "property": "C40",
   "status": "proved",
   "theorems": [
    "C40_scattering",
    "C40_submatrix",
    "C40_refused"
   ],
   "note": "the linear solver is any function that returns solutions; the hypotheses no_empty_lead and nonneg_leads are needed: C40_empty_lead_refuted, C40_negative_lead_refuted"
  },
  {
   "property": "C43",
   "status": "proved",
   "theorems": [
    "C43_value",
    "C43_block_independent",
    "C43_not_two"
   ],
   "note": "exact arithmetic in any StarRing"
  },
  {
   "property": "C41",
   "status": "proved",
   "theorems": [
    "C41_wave"
   ],
   "note": "exact solver, exact arithmetic"
  },
  {
   "property": "C42",
   "status": "proved",
   "theorems": [
    "C42_ldos",
    "C42_refused"
   ],
   "note": "0.5/pi is a parameter"
  },
  {
   "property": "C44",
   "status": "proved",
   "theorems": [
    "C44_value",
    "C44_sums",
    "C44_deduced",
    "C44_conductance"
   ],
   "note": "the two numerical channel counts of the code are parameters; deduced values and conductances need them to agree"
  },
  {
   "property": "C45",
   "status": "proved",
   "theorems": [
    "C45_data"
   ],
   "note": ""
  },
  {
   "property": "C46",
   "status": "proved",
   "theorems": [
    "C46_current",
    "C46_isometry",
    "C46_unitary",
    "C46_conductance"
   ],
   "note": "unitarity S S^dagger = 1 needs a field (complex numbers are one); orthonormal columns hold in any StarRing"
  },
  {
   "property": "C47",
   "status": "proved",
   "theorems": [
    "C47_agree"
   ],
   "note": "positive: a sum of absolute squares vanishes only if all terms do (true for complex numbers)"
  },
  {
   "property": "C48",
   "status": "proved",
   "theorems": [
    "C48_same_transmission"
   ],
   "note": "channel count of the self-energy = number of modes is a hypothesis (numerical test in the code)"
  },
  {
   "property": "C49",
   "status": "proved",
   "theorems": [
    "C49_matrix",
    "C49_add_moments",
    "C49_add_vectors",
    "C49_rescale"
   ],
   "note": "before averaging over the vectors; with the default accumulate_vectors=False add_moments raises half-way (Example C49_default_refuted)"
  },
  {
   "property": "C50",
   "status": "proved",
   "theorems": [
    "C50_velocity",
    "C50_direction"
   ],
   "note": "direction == dimension gives IndexError rather than ValueError (Example)"
  },
  {
   "property": "C51",
   "status": "proved",
   "theorems": [
    "C51_trace",
    "C51_correlator"
   ],
   "note": ""
  },
  {
   "property": "C52",
   "status": "proved",
   "theorems": [
    "C52_fft",
    "C52_series",
    "C52_integrate_polynomial",
    "C52_integrate",
    "C52_jackson",
    "C52_lorentz",
    "C52_total",
    "C52_rescale",
    "C52_fermi",
    "C52_fermi_refused"
   ],
   "note": "over the reals of the standard library (its axioms); scipy dct and numpy chebval modelled by their documented formulas"
  },
  {
   "property": "C53",
   "status": "proved",
   "theorems": [
    "C53_symmetries",
    "C53_trace",
    "C53_det",
    "C53_outcome"
   ],
   "note": "numpy.linalg.qr, x/|x|, det and comparison with zero are oracles with their documented properties (exact arithmetic); circular(1,\"D\",charge) can raise IndexError (Example)"
  },
  {
   "property": "C54",
   "status": "proved",
   "theorems": [
    "C54_act",
    "C54_sign",
    "C54_defined",
    "C54_which",
    "C54_reversed",
    "C54_stable"
   ],
   "note": "the computation of the Bravais periods and of the remaining columns, determinant and inverse (floating point) is an oracle: reversing the periods reverses the Bravais periods, and the family data are exact; finding: a family first met through a reversed symmetry is cached with the wrong sign (C54_first_use_refuted), which also corrupts the original symmetry"
  },
  {
   "property": "C55",
   "status": "proved",
   "theorems": [
    "C55_n_closest",
    "C55_grouped",
    "C55_closest",
    "C55_roundtrip",
    "C55_total",
    "C55_opposite",
    "C55_deltas",
    "C55_vec"
   ],
   "note": "exact real arithmetic (standard library reals); lstsq, inv, round and argsort as specified in CvpSpec/LllSpec (such libraries exist: libs2_ok); loops with fuel, None = still running; termination of lll is proved for at most two lattice vectors (C55_total); finding: the flood-fill directions are voronoi @ transf instead of voronoi @ transf.T (lattice.py:126, 455, wraparound.py:391), so C55_deltas needs a symmetric transformation matrix and C55_deltas_refuted shows that it fails for the basis (1,0),(3,1)"
  },
  {
   "property": "C56",
   "status": "proved",
   "theorems": [
    "C56_sound",
    "C56_complete",
    "C56_once",
    "C56_finite",
    "C56_exhausted",
    "C56_error",
    "C56_translations",
    "C56_no_symmetry",
    "C56_wire",
    "C56_disc"
   ],
   "note": "set iteration orders are arbitrary functions that list each element once; all sublattices are assumed to have the same fundamental domain of tags (the symmetry data of a family depend on the primitive vectors only); shape functions are total; the check of the dimension of start and the error cases of wire are not modelled; findings: for skewed bases shape misses connected sites (C56_strip_refuted); a start site can be yielded twice when the sublattices have different equivalent closest tags (C56_twice_refuted)"
  },
  {
   "property": "C57",
   "status": "proved",
   "theorems": [
    "C57_neighbors",
    "C57_order",
    "C57_total"
   ],
   "note": "exact real arithmetic (standard library reals), libraries as in C55; sublattices assumed distinct; success (C57_total) assumes that the lattice reduction terminates, proved in C35/C55 for at most two lattice vectors; without the separation hypothesis chains of almost equal distances are merged by the code into one shell"
  },
  {
   "property": "C58",
   "status": "proved",
   "theorems": [
    "C58_init",
    "C58_accept",
    "C58_validate",
    "C58_names",
    "C58_third",
    "C58_projectors",
    "C58_blocks",
    "C58_canonical",
    "C58_conservation",
    "C58_stack_refuted",
    "C58_canonical_refuted"
   ],
   "note": "exact arithmetic: numbers below the tolerances are zero; type errors and mismatched sizes are not modelled; findings: the check that projectors stack to a unitary matrix accepts overcomplete sets (C58_stack_refuted); the check for canonical form misses blocks without positive real parts, abs(X.data > 1e-7), symmetry.py:161-162 (C58_canonical_refuted)"
  },
  {
   "property": "C59",
   "status": "proved",
   "theorems": [
    "C59_validate",
    "C59_modes",
    "C59_sound",
    "C59_particle_hole_refuted"
   ],
   "note": "in a commutative ring with involution where 2 is no zero divisor; finding: a broken particle-hole symmetry is passed on to modes, system.py:338 (C59_particle_hole_refuted); physics.modes itself is not modelled"
  },
  {
   "property": "C60",
   "status": "proved",
   "theorems": [
    "C60_linsys",
    "C60_flat_band",
    "C60_errors",
    "C60_stabilization_refuted"
   ],
   "note": "over any numClosedFieldType of MathComp (complex numbers); svd and the tests of the condition number are oracles with their exact-arithmetic properties; finding: stabilization[1]=True forces the reduction to a regular problem, contrary to the documentation (C60_stabilization_refuted)"
  },
  {
   "property": "C61",
   "status": "proved",
   "theorems": [
    "C61_propagating",
    "C61_left_order_refuted",
    "C61_clusters_refuted",
    "C61_total"
   ],
   "note": "no symmetries, no projectors; exact arithmetic; svd, qr, eigh, the (generalized) Schur solver and np.angle are oracles with their specified properties (LeadsSpec); findings: order of left-movers with equal momentum (C61_left_order_refuted); eigenvalues that form a chain within the tolerance are not processed at all (C61_clusters_refuted)"
  },
  {
   "property": "C62",
   "status": "proved",
   "theorems": [
    "C62_selfenergy"
   ],
   "note": "as C61; the eigensolver returns a complete set: eigenvectors for the eigenvalues on the unit circle and Schur vectors for the others (eig_of)"
  },
  {
   "property": "C63",
   "status": "proved",
   "theorems": [
    "C63_operator",
    "C63_hermitian",
    "C63_half",
    "C63_dispersion",
    "C63_continuum",
    "C63_operator_refuted"
   ],
   "note": "over any field with involution in which 2 is invertible (C63_operator, C63_hermitian, C63_half), over the complex numbers (C63_dispersion, C63_continuum); SymPy (sympify, expand, ordering and collecting of terms) and the generation of source code are not modelled: an expression is a sum of ordered products; finding: half of the hoppings is dropped also when the operator is not Hermitian (C63_operator_refuted)"
  },
  {
   "property": "C64",
   "status": "proved",
   "theorems": [
    "C64_shortest_path",
    "C64_path_length",
    "C64_predecessors"
   ],
   "note": "generic over totally ordered weights; the Fibonacci heap is represented by the set of its nodes and remove_min by an oracle that returns some node of smallest value; the weights are exact"
  },
  {
   "property": "C65",
   "status": "proved",
   "theorems": [
    "C65_flux",
    "C65_constant",
    "C65_affine",
    "C65_average_refuted",
    "C65_tol_refuted"
   ],
   "note": "finite systems without leads, exact arithmetic over the reals of the standard library; dblquad is an oracle, constant fields need no assumption on it (C65_constant), fields linear in the position only exactness for linear functions (C65_affine); findings: average is ignored (C65_average_refuted), tol is compared with the areas of triangles so that phases vanish for small length units when the field is a function (C65_tol_refuted)"
  },
  {
   "property": "C66",
   "status": "proved",
   "theorems": [
    "C66_flux",
    "C66_constant",
    "C66_disconnected",
    "C66_single_site_refuted"
   ],
   "note": "exact arithmetic over the reals of the standard library; dblquad, argsort, set.pop, ties of the heap and connected_components are oracles with their specified properties; unit cells with at least one hopping between cells; finding: a unit cell with a single site raises ValueError in _check_infinite_syst (C66_single_site_refuted)"
  },
  {
   "property": "C67",
   "status": "proved",
   "theorems": [
    "C67_energies",
    "C67_continuous",
    "C67_velocity",
    "C67_curvature",
    "C67_curvature_refuted",
    "C67_degenerate_refuted",
    "C67_hermitian"
   ],
   "note": "exact arithmetic over the reals of the standard library; eigh and eigvalsh are oracles that return some eigensystem (sorted eigenvalues, unitary matrix) at each momentum, no continuity assumed; np.allclose is equality; findings: ediff is computed with np.divide(..., where=) without out, so the diagonal is uninitialized memory that enters the curvature (dispersion.py:141, C67_curvature_refuted); velocities of degenerate bands depend on the basis chosen by eigh (C67_degenerate_refuted)"
  },
  {
   "property": "C68",
   "status": "proved",
   "theorems": [
    "C68_closest",
    "C68_total",
    "C68_empty",
    "C68_no_positions"
   ],
   "note": "exact arithmetic over the reals of the standard library; np.linalg.lstsq, inv and argsort are oracles with their specified properties (as in C35, C36, C55); existence of a result (C68_total) for at most two periodic directions, as termination of lll is proved for those only; finding: an empty builder with a symmetry raises StopIteration instead of returning None (C68_empty)"
  },
  {
   "property": "C69",
   "status": "proved",
   "theorems": [
    "C69_accepts",
    "C69_automatic",
    "C69_never_fails",
    "C69_data",
    "C69_acts",
    "C69_fundamental_domain",
    "C69_history",
    "C69_example",
    "C69_history_example",
    "C69_tolerance_refuted"
   ],
   "note": "exact arithmetic over any ordered field (tolerances as in the code); np.linalg.pinv, svd, norm, np.round, argmax are oracles with their specified properties, which exist over the real algebraic numbers (FamilyPropsExample.v); floating-point errors are not modelled; the tolerances do accept a period that is no lattice vector (C69_tolerance_refuted), so C69_data states closeness and C69_acts assumes lattice vectors"
  },
  {
   "property": "C70",
   "status": "proved",
   "theorems": [
    "C70_exact",
    "C70_negative",
    "C70_sites",
    "C70_commutator",
    "C70_levels",
    "C70_sign_lost",
    "C70_negative_refuted",
    "C70_degree_refuted",
    "C70_name_refuted"
   ],
   "note": "exact arithmetic over any numClosedFieldType; sympy (expansion, collection of powers) is modelled by its effect, the discretization along the field is taken as given (C63); sites exist at all positions (translations are not divided out). Findings: for B < 0 and matrix-valued coefficients the result is not the Hamiltonian in the reversed field, e.g. for sigma_x k_x + sigma_y k_y the sign of B has no effect (C70_negative_refuted, C70_sign_lost); monomials of degree 7 or more raise ValueError in math.sqrt (C70_degree_refuted: k_x**8); a parameter whose name contains the letter B, e.g. mu_B, raises NameError if its hopping has no ladder operators (C70_name_refuted, line 273 tests a string instead of a list)"
  },
  {
   "property": "C71",
   "status": "proved",
   "theorems": [
    "C71_real",
    "C71_real_odd",
    "C71_paired",
    "C71_even",
    "C71_not_closed",
    "C71_square",
    "C71_qr_exists",
    "C71_check_refuted"
   ],
   "note": "exact arithmetic over any numClosedFieldType (np.allclose is equality); la.schur (of the one normal matrix it is called with: a unitary diagonalization) and la.qr are oracles with their specified properties; C71_qr_exists constructs such a qr; the branch cut is an arbitrary phase. Finding: modes that are neither orthonormal nor span a closed space can pass the check that is meant to detect this, and all assertions, and the result spans another space (C71_check_refuted)"
  },
  {
   "property": "C72",
   "status": "proved",
   "theorems": [
    "C72_unitary",
    "C72_time_reversal",
    "C72_particle_hole",
    "C72_chiral",
    "C72_sign_refuted",
    "C72_order",
    "C72_order_refuted"
   ],
   "note": "exact arithmetic over any numClosedFieldType; phase(q) = exp(-iq) is any function with phase(-q) the conjugate of phase(q); ValueError without a relation is None. Findings: with particle-hole and chiral, vecslmbdainv rather than vecs gets the minus sign, so that the stabilized data are those of minus the returned wave functions (C72_sign_refuted: a scattering matrix element between such a block and another one has the opposite sign relative to the returned wave functions; the self-energy is unaffected); with time reversal and chiral the momenta of the transformed block are in the reverse of the documented order (C72_order_refuted)"
  }
 ]
}