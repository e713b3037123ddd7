# Formal model of kwant in Rocq (Coq 8.16.1): design

Everything is in `rocq/theories/`. Files come in triples:

* `*Model.v`  - executable Gallina transcription of the Python/Cython code,
  branch by branch; every definition cites file and lines of `/repo`;
  exceptions are values, mutable state is threaded and *survives* exceptions
  (so "an error leaves the state unchanged" is a theorem, not a convention).
* `*Proofs.v` - lemmas.
* `*Props.v`  - only property theorems (closed by `exact`), their independent
  specifications, non-vacuity `Example`s, and `Print Assumptions`.

## Plan per property

| Prop | Model | Method |
|---|---|---|
| C01-C09 | Builder state = insertion-ordered dictionary of sites -> (onsite value, ordered list of (head, value or marker)); all of `_get_edge/_set_edge/_del_edge/_set_site/_set_hopping/_del_site/_del_hopping/__getitem__/__contains__/neighbors/degree/hoppings`; symmetry abstract (record of operations + laws) and instantiated by NoSymmetry and TranslationalSymmetry | invariant by induction over operation histories; refinement to an abstract mapping (functions site -> option value, site*site -> option value) |
| C10 | `eradicate_dangling` with explicit fuel = number of sites | loop invariant, 2-core as greatest set |
| C11 | key trees, `expand`, `__setitem__`, `__delitem__` | structural induction |
| C12 | `update` | induction over the other builder's items, using C02 |
| C13 | `fill` (BFS by generations, order of sets = an arbitrary permutation oracle) | BFS invariant |
| C14 | `TranslationalSymmetry.which/act/reversed` on integer tags with given integer matrices (m_part, det_x_inv_m_part, det_m) | linear arithmetic over Z, floor division lemmas. The data are assumed to satisfy the adjugate identity which the code asserts; C69 proves this for `add_site_family` |
| C15 | `HoppingKind.__call__` | direct |
| C16-C19 | `Graph.compressed` and `CGraph` methods on lists; arrays = lists/total functions with explicit update | loop invariants of the counting sort |
| C20 | `FiniteSystem.__init__` + `hamiltonian` | composition of C08/C16/C17 |
| C21 | `InfiniteSystem.__init__` + `hamiltonian` | same |
| C22 | `_site_ranges`, `_bisect`, `_get_orbs` | run-length invariants |
| C23, C24 | `make_dense(_full)`, `make_sparse(_full)`, block offsets; entries in an abstract commutative ring with involution | matrices as functions on indices; loops as folds |
| C25-C27 | `operator.pyx` `_operate`, `act`, `tocoo` | sums over index ranges in an abstract ring with involution |
| C28-C30, C40 | `solvers/common.py` BlockResult/SMatrix, `_make_linear_sys` bookkeeping | finite sums, list slicing; numerical solve not modelled |
| C31 | kpm Chebyshev recursion over an abstract module with a Hermitian operator | induction on moments |
| C32 | rmt `gaussian` | matrix algebra over a ring with involution, random draws universally quantified |
| C33 | wraparound value functions | sums over images |
| C34 | `_add_peierls_phase` | uses builder refinement |
| C35 | `lll` in exact arithmetic with a rounding oracle | unimodularity and Gram-Schmidt invariants |
| C36 | `cvp`, `voronoi` over the reals of the standard library | Cauchy-Schwarz with the dual basis; descent for the Voronoi cell |
| C37 | `_substitute_params` | list algebra |
| C38 | digest arithmetic on 128-bit words | integer arithmetic |
| C39 | attach_lead on top of fill | uses C13 |
| C40, C41, C45, C47 | `_make_linear_sys`, `smatrix`, `greens_function`, `wave_function` of `solvers/common.py` with an arbitrary linear solver that returns solutions | block linear algebra over a ring with involution |
| C42 | `ldos` of `solvers/sparse.py`/`common.py` with any `nrhs` | folds over chunks of right-hand sides |
| C43, C44, C46, C48 | `two_terminal_shotnoise`, `GreensFunction.transmission`, current conservation, Fisher-Lee | trace identities |
| C49-C52 | `kpm.py`: Correlator, conductivity velocity operators, LocalVectors, density/integration/kernels (the last over stdlib reals) | induction over histories; discrete orthogonality of cosines |
| C53 | rmt `circular` | matrix algebra, QR/det oracles |
| C54 | `TranslationalSymmetry` with a cache of lattice data, histories of add_site_family/subgroup | invariants over histories; integer linear algebra |
| C55 | `Monatomic.n_closest`, `closest`, `pos`, `vec` on top of cvp, over stdlib reals | uses C36; enumeration invariants |
| C56 | `Polyatomic.shape`, `wire`: the flood fill | invariant of the breadth-first search |
| C57 | `Polyatomic.neighbors` over stdlib reals | uses C55; grouping of sorted distances |
| C58, C59 | `DiscreteSymmetry`, `validate_symmetries`, choice of symmetries in `InfiniteSystem.modes` | block matrices over a ring with involution |
| C60-C62 | `physics/leads.py` without symmetries, LAPACK as oracles, over an arbitrary numClosedFieldType (MathComp) | linear algebra; Krein-form and limiting-absorption arguments |
| C63 | `continuum/discretizer.py` after sympify | operators as sums of shifted terms; sin(kh)/h over stdlib reals |
| C64 | `dijkstra_directed` with a heap oracle | loop invariant of Dijkstra's algorithm |
| C65 | `magnetic_gauge` for finite systems without leads, over stdlib reals | potentials on spanning forests; every loop is fixed relative to earlier ones |

Floating point is not modelled anywhere unless said so: numbers are elements of
an abstract ring (with involution for complex conjugation) or rationals.
| C69 | `add_site_family` over any ordered field (MathComp), numpy.linalg as oracles | linear algebra: the vector farthest from the span of the others is independent of them; the adjugate; integers with an error below 1/2 |
| C70 | `continuum/landau_levels.py` over a numClosedFieldType | ladder operators on all levels; the loop over powers multiplies matrix elements; a degree argument excludes roots of negative numbers |
| C71 | `phs_symmetrization` over a numClosedFieldType; schur and qr as oracles | the square root of a symmetric unitary matrix is symmetric unitary; orthogonal projectors of equal trace; induction on the pairs |
| C72 | `transform_modes` over a numClosedFieldType; modes data as matrices and lists | validity and stabilized data as separate specifications; each relation by matrix algebra on the columns |

## Trusted base

**Kernel.** Coq 8.16.1's kernel (including its virtual machine, used by
`vm_compute` in concrete `Example`s) accepts every file; no plugin is used, no
check is switched off, there is no `Axiom`, `Parameter`, `Admitted`, functor or
module type of our own. Oracles (solvers, random numbers, hash functions,
rounding, sorting) are section variables or arguments, so that the theorems are
universally quantified over them, and what is assumed about each of them is a
visible hypothesis of the theorem.

**Print Assumptions.** Every theorem listed in MANIFEST.json is "Closed under
the global context" with the following exceptions, which are stated over the
reals of Coq's standard library and therefore depend on its axioms:

* `ClassicalDedekindReals.sig_forall_dec` and
  `FunctionalExtensionality.functional_extensionality_dep`: `C35_*`
  (except `C35_size_reduced_refuted`), `C49_rescale`, `C52_rescale`, `C55_vec`,
  `C67_hermitian`;
* these two and `ClassicalDedekindReals.sig_not_dec`: `C33_phases`, `C36_*`,
  `C52_*` (other than those named here), `C55_*` (other than `C55_vec`),
  `C56_wire`, `C56_disc`, `C57_*`, `C63_dispersion`, `C63_continuum`,
  `C65_*`, `C66_*`, `C67_energies`, `C68_*`;
* these three and `Classical_Prop.classic`: `C38_deterministic`, `C38_gauss`,
  `C52_lorentz`, `C52_fermi`, `C67_continuous`, `C67_velocity`,
  `C67_curvature`, `C67_curvature_refuted`, `C67_degenerate_refuted`.

Nothing else is assumed. (vcheck also lists `Coq.ssr.ssrunder.*` and the
`RbaseSymbolsImpl`/`RinvImpl` interface constants: they belong to modules that
are loaded, not to axioms our theorems use beyond those above.)

**Correspondence.** The model is a hand-written transcription: that it says what
the Python/Cython code does is checked only by reading. Every definition cites
the lines it models and says where it simplifies. Systematic simplifications:

* exact arithmetic: numbers are elements of an arbitrary commutative ring with
  involution (`StarRing`), a field, Q, or R; no rounding, overflow, NaN; C
  integers are unbounded unless the theorem says otherwise;
* Python dictionaries are insertion-ordered association lists; sets whose order
  is unspecified are permutation oracles; sites are compared structurally
  (interning of sites and tags is not modelled);
* user callables are opaque names or total functions without side effects;
* no concurrency, no garbage collection, no interruption by signals.

**What is modelled** (file: model):

| code | model files |
|---|---|
| `builder.py`: Builder (all item access, deletion, iteration, `update`, `eradicate_dangling`, `neighbors`, `degree`, `hoppings`, `fill`), HoppingKind | BuilderModel, HoppingKindModel, FillModel |
| `builder.py`: `attach_lead` | AttachModel |
| `builder.py`: `_Substituted`, `_substitute_params`, `Builder.substituted`; evaluation of value functions with `params` | ParamModel, SubstModel |
| `lattice.py`: TranslationalSymmetry objects with their shared caches (`reversed`, `add_site_family`, `_get_site_family_data`, `which`, `act`) | TsCacheModel |
| `lattice.py`: add_site_family: choice of the integer data of a lattice (exact arithmetic; numpy.linalg functions are oracles) | FamilyModel |
| `builder.py`: `_add_peierls_phase` | PeierlsModel |
| `wraparound.py`: `wraparound` (bind_site, bind_hopping_as_site, bind_hopping, bind_sum) | WrapModel |
| `builder.py`: FiniteSystem, InfiniteSystem (finalization, `hamiltonian`) | SystemModel |
| `lattice.py`: TranslationalSymmetry (`which`, `act`, `to_fd`, `in_fd`, `has_subgroup`, ...) | SymmetryModel |
| `graph/core.pyx`: Graph, CGraph | GraphModel |
| `_system.pyx`: `make_dense(_full)`, `make_sparse(_full)`, `hamiltonian_submatrix`; `_site_ranges`, `_bisect`, `_get_orbs` | SubmatrixModel, OrbitalsModel |
| `operator.pyx`: Density, Current, Source (`__call__`, `act`, `bind`, `tocoo`, `where` normalization) | OperatorModel |
| `solvers/common.py`: `_make_linear_sys`, `smatrix`, `greens_function`, `ldos`, `wave_function`, BlockResult, SMatrix, GreensFunction; `physics/noise.py` | SolverModel, SolverLinear*, SolverGF*, SolverNoise |
| `kpm.py`: SpectralDensity, Correlator, vector factories, velocity operators, kernels | KpmModel, KpmCorrModel, KpmReal |
| `rmt.py` | RmtModel |
| `digest.py` | DigestModel |
| `linalg/lll.py`: cvp, voronoi | CvpModel |
| `lattice.py`: Monatomic `pos`, `vec`, `n_closest`, `closest`, the flood-fill directions `voronoi` | LatticeModel |
| `lattice.py`: `Polyatomic.shape`, `Polyatomic.wire` | ShapeModel |
| `lattice.py`: `Polyatomic.neighbors` | NeighborsModel |
| `physics/symmetry.py`: DiscreteSymmetry; `system.py`: InfiniteSystem `validate_symmetries` and the choice of symmetries in `modes`; `builder.py`: projectors of `discrete_symmetry` | DiscModel |
| `physics/leads.py`: setup_linsys, make_proper_modes, compute_block_modes, modes, StabilizedModes.selfenergy, all without symmetries | LeadsModel |
| `physics/leads.py`: phs_symmetrization (la.schur and la.qr are oracles) | PhsModel |
| `physics/leads.py`: transform_modes | TransformModel |
| `continuum/discretizer.py`: discretize_symbolic (after sympify and expand), the values and hoppings of build_discretized; `continuum/_common.py`: gcd | DiscretizeModel |
| `continuum/landau_levels.py`: to_landau_basis, discretize_landau, _builder_value, _ladder_term, _evaluate_ladder_term (after sympify and the discretization along the field) | LandauModel |
| `graph/dijkstra.pyx`: dijkstra_directed (the Fibonacci heap is an oracle that returns a node of smallest value) | DijkstraModel |
| `physics/gauge.py`: _surface_integral, _find_loops, _order_links, _assign_csr, _distance_matrix, _loops_in_finite, _shortest_distance_forest, _calculate_phases, _previous_phase_finite, _finite_wrapper, _peierls_finite, magnetic_gauge for finite systems without leads (dblquad is an oracle) | GaugeModel |
| `physics/gauge.py`: _loops_in_infinite, _check_infinite_syst, _previous_phase_infinite, _infinite_wrapper, _peierls_infinite, magnetic_gauge for infinite systems | InfGaugeModel |
| `physics/dispersion.py`: Bands (LAPACK is an oracle) | BandsModel |
| `builder.py`: Builder.closest | ClosestModel |
| `linalg/lll.py`: gs_coefficient, gs, is_c_reduced, lll (the ndim check is not modelled) | LllModel |

**What is not modelled:** plotting, the rest of `continuum` (sympify, lambdify, the generated source code), `qsymm`, the use of
symmetries and projectors in `physics/leads.py`, `linalg` (LAPACK, MUMPS bindings),
`physics/gauge.py` for finite systems with leads, floating-point errors, error messages,
warnings, pickling.
