{"id": "C01", "title": "Hermiticity of builder hoppings", "statement": "After any sequence of assignments and deletions on a Builder (with or without a spatial symmetry), reading builder[j, i] returns the Hermitian conjugate of builder[i, j] (conjugate of the matrix, or a Hermitian-conjugated function), and one of the two is readable exactly when the other is.", "quantifier": "all builders reachable by finite histories of site/hopping assignments and deletions (including failing ones), all pairs of sites, all constant or callable values", "why_tests_cant": "The internal storage keeps one direction as a value and the other as a marker; whether the two stay paired depends on the whole history of writes, overwrites in the opposite direction, deletions and failures.", "anchors": ["kwant/builder.py:Builder.__getitem__", "kwant/builder.py:Builder._set_hopping", "kwant/builder.py:Builder._del_hopping", "kwant/builder.py:Builder._del_site", "kwant/builder.py:Other", "kwant/builder.py:HermConjOfFunc"]}
{"id": "C02", "title": "Builder is a last-write-wins mapping", "statement": "Assigning a value to a site or hopping makes reads of that key (and of its symmetry images) return that value, makes reads of the reversed hopping return its conjugate, and leaves the result of every other read unchanged; thus a Builder behaves like an abstract mapping with overwrite semantics under every history.", "quantifier": "all histories of operations, all keys, all values, all symmetries satisfying the group-action laws", "why_tests_cant": "Frame conditions quantify over every other key and every earlier history.", "anchors": ["kwant/builder.py:Builder.__setitem__", "kwant/builder.py:Builder._set_site", "kwant/builder.py:Builder._set_hopping", "kwant/builder.py:Builder._set_edge", "kwant/builder.py:Builder.__getitem__"]}
{"id": "C03", "title": "Symmetry-invariant reads", "statement": "builder[key], key in builder and degree(key) give the same answer for a site or hopping and for each of its images under the builder's symmetry group.", "quantifier": "all reachable builders, all group elements, all keys", "why_tests_cant": "The symmetry group is infinite.", "anchors": ["kwant/builder.py:Builder.__getitem__", "kwant/builder.py:Builder.__contains__", "kwant/builder.py:Builder.degree", "kwant/builder.py:Symmetry.to_fd"]}
{"id": "C04", "title": "Failing assignments and deletions leave the builder untouched", "statement": "If assigning or deleting a single site or hopping raises an error (missing site, self-hopping, bad key), every observable of the builder is exactly what it was before: no half-added hopping and no half-deleted site can result.", "quantifier": "all reachable builders, all keys, all values", "why_tests_cant": "Every failure point in every reachable state has to be considered.", "anchors": ["kwant/builder.py:Builder._set_hopping", "kwant/builder.py:Builder._del_hopping", "kwant/builder.py:Builder._del_site", "kwant/builder.py:validate_hopping"]}
{"id": "C05", "title": "Deleting a site removes exactly it and its hoppings", "statement": "del builder[site] succeeds iff the site (orbit) is present; afterwards the site and all hoppings touching any image of it are absent, and all other sites and hoppings keep their values, although the deletion iterates over the very list it shortens when a site hops to its own images.", "quantifier": "all reachable builders and all sites, including sites with hoppings to their own images", "why_tests_cant": "The iteration-while-mutating argument depends on the order of list entries, i.e. on the history.", "anchors": ["kwant/builder.py:Builder._del_site", "kwant/builder.py:Builder._del_edge", "kwant/builder.py:Builder._out_neighbors"]}
{"id": "C06", "title": "Deleting a hopping removes both directions and nothing else", "statement": "del builder[i, j] raises KeyError iff the hopping is absent; otherwise afterwards neither (i, j) nor (j, i) nor any image is present, and all other values are unchanged.", "quantifier": "all reachable builders, all hoppings", "why_tests_cant": "Requires that the partner entry exists in every reachable state.", "anchors": ["kwant/builder.py:Builder._del_hopping", "kwant/builder.py:Builder._del_edge"]}
{"id": "C07", "title": "Membership agrees with readability", "statement": "key in builder is True exactly when builder[key] does not raise, and it is symmetric for hoppings: (i, j) in builder iff (j, i) in builder; a present hopping implies both of its sites are present.", "quantifier": "all reachable builders, all keys", "why_tests_cant": "Relation between two independent code paths in all reachable states.", "anchors": ["kwant/builder.py:Builder.__contains__", "kwant/builder.py:Builder.__getitem__", "kwant/builder.py:Builder._get_edge"]}
{"id": "C08", "title": "hoppings() enumerates each hopping exactly once", "statement": "Iterating hoppings()/hopping_value_pairs() yields, for every present hopping orbit {(i,j),(j,i) and images}, exactly one representative, with the value a read would give; sites() yields each site orbit exactly once.", "quantifier": "all reachable builders", "why_tests_cant": "Exactly-once depends on exactly one of the two directions carrying the marker in every reachable state.", "anchors": ["kwant/builder.py:Builder.hoppings", "kwant/builder.py:Builder.hopping_value_pairs", "kwant/builder.py:Builder.sites", "kwant/builder.py:Builder.site_value_pairs"]}
{"id": "C09", "title": "neighbors() and degree() describe the hopping relation", "statement": "neighbors(s) yields, without repetition, exactly the sites t for which (s, t) is in the builder, for s anywhere in space; degree(s) is their number; t is a neighbor of s iff s is a neighbor of t.", "quantifier": "all reachable builders, all sites, all symmetries", "why_tests_cant": "Symmetric relation over infinitely many images.", "anchors": ["kwant/builder.py:Builder.neighbors", "kwant/builder.py:Builder.degree", "kwant/builder.py:Builder._out_degree"]}
{"id": "C10", "title": "eradicate_dangling computes the 2-core", "statement": "After eradicate_dangling() no site has fewer than two hoppings, and the set of remaining sites is the largest subset of the original sites in which every site keeps at least two hoppings to the subset; hoppings between surviving sites keep their values, and the loop always terminates.", "quantifier": "all reachable builders, all iteration orders", "why_tests_cant": "Maximality and termination over all graphs.", "anchors": ["kwant/builder.py:Builder.eradicate_dangling"]}
{"id": "C11", "title": "Assignments with general keys are sequential simple assignments", "statement": "syst[key] = value for a nested iterable/callable key performs the simple assignments in left-to-right depth-first order, stops at the first failure, and mixing sites and hoppings in one key raises TypeError at the first key of the other kind, keeping the earlier ones.", "quantifier": "all finite key trees, all builders", "why_tests_cant": "Nested key trees of any depth.", "anchors": ["kwant/builder.py:Builder.expand", "kwant/builder.py:Builder.__setitem__", "kwant/builder.py:Builder.__delitem__"]}
{"id": "C12", "title": "update() overlays one builder on another", "statement": "After a.update(b) with equal symmetries every site/hopping of b reads as in b, everything of a not in b reads as before, nothing else appears; updating an empty builder reproduces b.", "quantifier": "all pairs of reachable builders with the same symmetry", "why_tests_cant": "All pairs of histories.", "anchors": ["kwant/builder.py:Builder.update"]}
{"id": "C13", "title": "fill() computes the flood-fill closure", "statement": "When fill() returns normally, the sites added are exactly the sites reachable from the starting sites through template hoppings inside the shape without crossing sites already present; every template hopping between an added site and any present site is in the target with the template's value; values and hoppings among previously present sites are unchanged; the target stays Hermitian.", "quantifier": "all targets, templates, shapes, start lists, iteration orders", "why_tests_cant": "The algorithm only remembers two generations of sites; correctness depends on a global BFS invariant.", "anchors": ["kwant/builder.py:Builder.fill"]}
{"id": "C14", "title": "Translational symmetry is a free group action with a fundamental domain", "statement": "For every site family commensurate with the periods: act is a group action of Z^n, which(act(g, s)) = g + which(s), to_fd is idempotent and lands in the fundamental domain, every site is act(which(s), to_fd(s)), and two sites are in the same orbit iff to_fd agrees; the same holds for the reversed symmetry, which has the same fundamental domain and inverse group action.", "quantifier": "all integer period matrices with their adjugate data (either sign of the determinant), all tags (also negative), all group elements", "why_tests_cant": "Floor division with negative operands/determinants over all of Z^d.", "anchors": ["kwant/lattice.py:TranslationalSymmetry.which", "kwant/lattice.py:TranslationalSymmetry.act", "kwant/lattice.py:TranslationalSymmetry.reversed", "kwant/builder.py:Symmetry.to_fd", "kwant/builder.py:Symmetry.in_fd", "kwant/builder.py:NoSymmetry"]}
{"id": "C15", "title": "HoppingKind yields exactly the matching hoppings", "statement": "Calling a HoppingKind(delta, fa, fb) on a builder yields exactly the pairs (a, b) with a in the fundamental domain present and of family fa, b of family fb with a.tag - b.tag = delta and b (up to symmetry) present, each once.", "quantifier": "all builders, all deltas", "why_tests_cant": "All builders.", "anchors": ["kwant/builder.py:HoppingKind.__call__"]}
{"id": "C16", "title": "Graph compression preserves the edge multiset", "statement": "Compressing a Graph raises ValueError exactly when negative tails would be lost, never reads or writes outside its arrays, and otherwise yields a CGraph whose edge ids list the added edges (without, for one-way graphs, those with negative tail) grouped by tail, dangling ones last, in insertion order within a group; num_edges, out_neighbors, out_edge_ids, has_dangling_edges and pickling agree with it, and so does iteration unless the graph is two-way and has a negative tail (there the iterator runs out of bounds: refuted).", "quantifier": "all lists of edges, all node counts", "why_tests_cant": "CSR construction by counting sort with in-place offset shifting; all inputs.", "anchors": ["kwant/graph/core.pyx:Graph.compressed", "kwant/graph/core.pyx:CGraph.out_neighbors", "kwant/graph/core.pyx:EdgeIterator"]}
{"id": "C17", "title": "Edge lookup in compressed graphs", "statement": "first_edge_id(i, j) returns the smallest edge id with that tail and head, raises EdgeDoesNotExistError iff there is none; has_edge and all_edge_ids agree; head(edge_id) inverts it, and so does tail(edge_id), which uses binary search, if all nodes have outgoing edges (in general it may return an earlier node without outgoing edges instead of the tail: refuted; so is safety for lookups of doubly dangling edges).", "quantifier": "all compressed graphs, all nodes incl. dangling ones, all edge ids", "why_tests_cant": "Search correctness over all graphs, empty nodes included.", "anchors": ["kwant/graph/core.pyx:CGraph.first_edge_id", "kwant/graph/core.pyx:CGraph.has_edge", "kwant/graph/core.pyx:CGraph.all_edge_ids", "kwant/graph/core.pyx:CGraph.tail", "kwant/graph/core.pyx:CGraph.head"]}
{"id": "C18", "title": "Two-way compression: in-edges mirror out-edges", "statement": "In a two-way graph, in_neighbors(n)/in_edge_ids(n) list exactly the (tail, edge id) pairs of the edges with head n, including dangling edges with negative ends, which appear only on their non-negative end.", "quantifier": "all edge lists with allowed negative nodes", "why_tests_cant": "Counting sort with two interleaved cursors.", "anchors": ["kwant/graph/core.pyx:Graph.compressed", "kwant/graph/core.pyx:CGraph.in_neighbors", "kwant/graph/core.pyx:CGraph.in_edge_ids"]}
{"id": "C19", "title": "Edge-number translation", "statement": "With edge_nr_translation=True, edge_id(k) is the compressed id of the k-th added edge: iterating the compressed graph at that id gives back the tail and head of the k-th add_edge call; distinct edges get distinct ids.", "quantifier": "all edge lists, all edge numbers", "why_tests_cant": "Bijectivity for all inputs.", "anchors": ["kwant/graph/core.pyx:Graph.compressed", "kwant/graph/core.pyx:CGraph.edge_id"]}
{"id": "C20", "title": "Finalization preserves the Hamiltonian (finite systems)", "statement": "For a finite builder, sites of the finalized system are exactly the builder's sites, sorted and without repetition, id_by_site is the inverse of sites, and hamiltonian(i, j) equals the builder's value builder[sites[i], sites[j]] (evaluated at the sites if callable) for every present hopping, the onsite value for i = j, and raises otherwise; hence hamiltonian(j, i) is the conjugate of hamiltonian(i, j).", "quantifier": "all reachable finite builders, all site pairs, all parameter values", "why_tests_cant": "Composition of sorting, graph compression, edge ids and markers for all histories.", "anchors": ["kwant/builder.py:FiniteSystem.__init__", "kwant/builder.py:_FinalizedBuilderMixin.hamiltonian", "kwant/graph/core.pyx:CGraph.first_edge_id"]}
{"id": "C21", "title": "Finalization of leads (infinite systems)", "statement": "For a builder with 1D translational symmetry and nearest-cell hoppings, the finalized system lists first the cell sites connected to the previous cell, then the others, then the interface images in matching order; hamiltonian(i, j) within the cell and between cell and interface equals the builder's values; builders with longer hoppings are rejected with ValueError.", "quantifier": "all reachable builders with 1D symmetry, any valid interface order", "why_tests_cant": "Every builder history and interface order.", "anchors": ["kwant/builder.py:InfiniteSystem.__init__", "kwant/builder.py:InfiniteSystem.hamiltonian"]}
{"id": "C22", "title": "Orbital offsets from site_ranges", "statement": "The site_ranges computed at finalization together with binary search give, for every site, its number of orbitals and the sum of the orbital counts of all preceding sites; the sentinel gives the total.", "quantifier": "all sequences of sites with declared orbital counts, all site indices", "why_tests_cant": "Run-length encoding + bisect over all sequences.", "anchors": ["kwant/builder.py:_site_ranges", "kwant/operator.pyx:_get_orbs", "kwant/operator.pyx:_bisect", "kwant/operator.pyx:_get_tot_norbs"]}
{"id": "C23", "title": "hamiltonian_submatrix is the block matrix of hamiltonian(i, j)", "statement": "The dense matrix returned for site lists (to_sites, from_sites without repetition) has block (i, j) equal to hamiltonian(to[i], from[j]) if i=j or the hopping exists, and zero otherwise, with block offsets given by cumulative orbital counts; the full matrix is Hermitian; a submatrix is the restriction of the full matrix.", "quantifier": "all systems with Hermitian Hamiltonians, all site lists, all block sizes", "why_tests_cant": "All graphs, all block shapes and index lists.", "anchors": ["kwant/_system.pyx:hamiltonian_submatrix", "kwant/_system.pyx:make_dense", "kwant/_system.pyx:make_dense_full"]}
{"id": "C24", "title": "Sparse and dense Hamiltonians coincide", "statement": "hamiltonian_submatrix(sparse=True) represents the same matrix as sparse=False, for the full system and for submatrices.", "quantifier": "all systems, all site lists", "why_tests_cant": "All systems.", "anchors": ["kwant/_system.pyx:make_sparse", "kwant/_system.pyx:make_sparse_full", "kwant/_system.pyx:make_dense", "kwant/_system.pyx:make_dense_full"]}
{"id": "C25", "title": "Local operators compute their defining bilinear forms", "statement": "Density(bra, ket) gives, for each selected site in the requested order, bra_a^dagger M_a ket_a; Current gives, for each selected hopping (a, b), i (bra_b^dagger H_ab^dagger M_a ket_a - bra_a^dagger M_a H_ab ket_b); Source gives i bra_a^dagger (H_aa^dagger M_a - M_a H_aa) ket_a; with sum=True the sum of these. Exactly the requested existing sites/hoppings are accepted. call with ket=None equals call with ket=bra (of which the real part, if Hermiticity was checked, loses nothing for Hermitian onsite values); binding parameters first gives the same results. Restrictions, each shown necessary by a counterexample: a scalar onsite requires the selected sites to have the maximal number of orbitals, a function or dictionary onsite of a Current requires equal numbers of orbitals at both ends, hamiltonian(a, b) must have the declared shape.", "quantifier": "all low-level systems (finite and infinite), all where arguments, all onsite arguments, all vectors, all parameters", "why_tests_cant": "Index arithmetic over all block layouts.", "anchors": ["kwant/operator.pyx:_LocalOperator.__call__", "kwant/operator.pyx:Density._operate", "kwant/operator.pyx:Current._operate", "kwant/operator.pyx:Source._operate"]}
{"id": "C26", "title": "Operator call and act agree", "statement": "For every operator, the sum of the expectation values op(bra, ket) over the selected sites/hoppings equals the inner product of bra with op.act(ket); Density.tocoo as a matrix applied to ket equals act(ket).", "quantifier": "all systems, where-lists, vectors, onsite matrices", "why_tests_cant": "Bilinear identity over all vectors and layouts.", "anchors": ["kwant/operator.pyx:_LocalOperator.act", "kwant/operator.pyx:Density.tocoo"]}
{"id": "C27", "title": "Current conservation (continuity equation)", "statement": "For every finite system and any two vectors, the sum of the currents of all hoppings (a, b) from site a plus the source at a is i (density_a(H bra, ket) - density_a(bra, H ket)); hence for a state with real energy the currents from each site and its source add up to zero. The current of hopping (b, a) is minus that of (a, b) when H is Hermitian and intertwines the Hermitian onsite operators (H_ab M_b = M_a H_ab, for example scalars).", "quantifier": "all finite systems with any onsite operators, all wave functions", "why_tests_cant": "Algebraic identity over all wave functions.", "anchors": ["kwant/operator.pyx:Current", "kwant/operator.pyx:Source"]}
{"id": "C28", "title": "S-matrix block layout", "statement": "For an SMatrix, out_block_coords/in_block_coords of the selected leads are consecutive slices that tile the rows/columns of data exactly, each as long as the lead's number of modes; submatrix(a, b) - where a and b are leads or (lead, block) pairs with a conserved quantity - returns exactly those elements; the transmissions between the blocks of two leads add up to the transmission between the leads; requests for uncomputed leads raise ValueError. (Restriction shown necessary by a counterexample: block number -1 silently gives an empty matrix.)", "quantifier": "all numbers of leads, mode counts, lead selections", "why_tests_cant": "All lead configurations.", "anchors": ["kwant/solvers/common.py:SMatrix.out_block_coords", "kwant/solvers/common.py:SMatrix.in_block_coords", "kwant/solvers/common.py:BlockResult.submatrix"]}
{"id": "C29", "title": "Deduced transmissions equal computed ones", "statement": "SMatrix.transmission(a, b) is the sum of |S|^2 when the elements were computed; for a unitary S and current_conserving, when exactly one of the two leads was not computed and it is the only one missing on its side, it equals the number that the full S-matrix gives; when there are not enough elements (or current is not conserved) ValueError is raised. (The case that both leads are missing is refuted: the code returns wrong numbers there, see C29_both_missing_refuted.)", "quantifier": "all unitary scattering matrices, all subsets of computed leads", "why_tests_cant": "Sum rules for all matrices and selections.", "anchors": ["kwant/solvers/common.py:BlockResult.transmission", "kwant/solvers/common.py:SMatrix._transmission"]}
{"id": "C30", "title": "Conductance matrix sum rules", "statement": "Whenever conductance_matrix() succeeds each of its columns sums to zero and the off-diagonal entries are minus the transmissions; for a unitary S-matrix with every off-diagonal transmission computed or deducible from a single missing lead it succeeds, its diagonal is N_i - R_i and each row sums to zero as well.", "quantifier": "all S-matrices and numbers of leads", "why_tests_cant": "All matrices.", "anchors": ["kwant/solvers/common.py:BlockResult.conductance_matrix"]}
{"id": "C31", "title": "KPM moments: incremental equals from scratch", "statement": "After any sequence of add_moments and add_vectors calls on a SpectralDensity (refused calls included), moment n of vector r equals operator(v_r, T_n(H) v_r), or <v_r|T_n(H)|v_r> when operator=None (where two moments are computed per step); hence the result does not depend on the increments. A refused call leaves the object unchanged.", "quantifier": "all Hermitian H, vectors, operators, all histories of increments (odd and even)", "why_tests_cant": "Parity bookkeeping over all increment sequences.", "anchors": ["kwant/kpm.py:SpectralDensity.__init__", "kwant/kpm.py:SpectralDensity.add_moments", "kwant/kpm.py:SpectralDensity.add_vectors", "kwant/kpm.py:_VectorFactory"]}
{"id": "C32", "title": "Random matrix ensembles have their symmetries", "statement": "gaussian(n, sym) returns a Hermitian matrix satisfying the time-reversal/particle-hole/chiral conditions of the requested Altland-Zirnbauer class, for whatever random numbers are drawn; invalid sizes raise ValueError.", "quantifier": "all sizes, all classes, all random draws", "why_tests_cant": "All random draws.", "anchors": ["kwant/rmt.py:gaussian"]}
{"id": "C33", "title": "wraparound: Bloch Hamiltonian", "statement": "wraparound(builder, keep) keeps the sites whose cell differs from the fundamental domain by kept translations only. In the finalized result (finite without keep, infinite with keep) the matrix element <x|H(k)|y> is the sum over all wrapped translations g of exp(i g.k) times the element <x|H|g y> of the original builder (onsite for g y = x), for constants and functions alike, each function being called with its own parameters; there is an edge exactly if some image is connected; without keep H(k) is Hermitian for every k if the onsite elements are. ValueError is raised exactly if the parameter names of a constructed function clash.", "quantifier": "all builders with any number of translational symmetries, all keep, all value functions, all momenta and parameters", "why_tests_cant": "All momenta and all builders.", "anchors": ["kwant/wraparound.py:wraparound"]}
{"id": "C34", "title": "add_peierls_phase multiplies every hopping by the phase", "statement": "In the finalized system returned by add_peierls_phase (finite or infinite) every hopping matrix element equals the original one times phi(a, b), for constant and function values alike, and onsite elements, sites and lead interfaces are unchanged, whenever phi(b, a) = conj(phi(a, b)) (and phi is invariant under the translational symmetry); the result is Hermitian whatever phi returns; ValueError exactly if the parameter name clashes with one of a hopping function.", "quantifier": "all builders, all phase functions", "why_tests_cant": "All systems and phase functions.", "anchors": ["kwant/builder.py:_add_peierls_phase"]}
{"id": "C35", "title": "LLL reduction preserves the lattice and reduces it", "statement": "Whenever lll(basis, c) returns (vecs, transf), whatever roundings and Gram-Schmidt coefficients were computed on the way, vecs and basis generate the same lattice; transf is an integer matrix with an integer inverse and vecs[i] = sum_j transf[j, i] basis[j]. In exact arithmetic the result is c-reduced (the squared lengths of consecutive orthogonalized vectors do not drop by a factor c or more), RuntimeError is never raised for linearly independent vectors, and for two vectors and c > 4/3 lll always returns. (The result is not necessarily size-reduced.)", "quantifier": "all bases of any dimension, all c, all rounding functions, all numbers of loop iterations", "why_tests_cant": "All bases; loop invariants.", "anchors": ["kwant/linalg/lll.py:gs_coefficient, gs, is_c_reduced, lll"]}
{"id": "C36", "title": "Closest lattice vectors", "statement": "cvp(vec, basis, n) terminates for n >= 1 and returns n different integer coefficient vectors, sorted by distance, such that no other point of the (infinite) lattice is closer to vec than any of them; with group_by_length=True it returns exactly the lattice points of the n closest groups of almost equal distance, every other lattice point being farther by more than the tolerance. voronoi(basis) terminates and returns 2(2^D - 1) different vectors (the second half the negatives of the first) whose half-spaces intersect in exactly the Voronoi cell; with reduced=True the set is minimal and (rtol=0) still describes the cell.", "quantifier": "all linearly independent bases in any dimension, all target points, all n, all correct rounding/sorting libraries", "why_tests_cant": "Universal minimality over an infinite lattice.", "anchors": ["kwant/linalg/lll.py:cvp", "kwant/linalg/lll.py:voronoi"]}
{"id": "C37", "title": "Parameter-name substitution", "statement": "Renaming parameters via substituted() composes like functions, evaluates the function with arguments routed by the new names, rejects renamings that would merge two parameters (ValueError), and renaming to the same names is the identity. Builder.substituted applies it to every value function, leaves the original alone, fails for a builder with leads, and the hamiltonian of the finalized substituted (finite or infinite) system equals the original one with every parameter looked up under its new name.", "quantifier": "all substitutions, all functions", "why_tests_cant": "All substitution maps.", "anchors": ["kwant/builder.py:_substitute_params", "kwant/builder.py:_Substituted", "kwant/builder.py:Builder.substituted"]}
{"id": "C38", "title": "digest is a deterministic uniform source in [0, 1)", "statement": "uniform(input, salt) depends only on its arguments and lies in [0, 1) for every input; gauss is well-defined (never takes log 0).", "quantifier": "all inputs and salts", "why_tests_cant": "All 128-bit hash values.", "anchors": ["kwant/digest.py:uniform", "kwant/digest.py:gauss"]}
{"id": "C39", "title": "Lead attachment", "statement": "Whenever attach_lead returns, the system interrupted the lead, the added sites are exactly the lead sites in the cells up to the last one shared with the system (plus add_cells) that can be reached from the following cell along lead hoppings without entering the system, they and their hoppings carry the values of the lead, the interface is the set of sites of that last cell that hop to the next one, and without origin nothing of the system is changed. A lead with hoppings beyond the next cell is replaced by one with a longer period whose hoppings reach the next cell only, which agrees with the given lead on all sites connected to its fundamental domain. ValueError (negative add_cells, empty lead, missing family, no intersection) leaves the system unchanged; a lead that is not interrupted is rejected with RuntimeError, and then the system is empty. attach_lead always terminates.", "quantifier": "all systems and leads that can be built, all origins, all add_cells, all iteration orders of sets", "why_tests_cant": "All geometries.", "anchors": ["kwant/builder.py:Builder.attach_lead", "kwant/builder.py:Builder.fill"]}
{"id": "C40", "title": "S-matrix columns are scattering states", "statement": "Whenever smatrix() succeeds (non-negative lead numbers, no lead without any mode), its data have one row per outgoing mode of the selected out leads and one column per incoming mode of the selected in leads, and every column - also every block returned by submatrix(a, b) - holds the outgoing amplitudes of a solution of the scattering equations (Hamiltonian rows plus mode matching at every lead, for any mixture of mode and self-energy leads) whose only incoming wave is unit amplitude in that mode. Empty, unsorted or repeating lead lists raise ValueError; self-energy and nonexistent leads are refused.", "quantifier": "all systems, energies, mixtures of leads with any numbers of propagating and evanescent modes, lead selections, and exact linear solvers", "why_tests_cant": "index bookkeeping and block assembly must be right for every combination of leads; tests try a few systems", "anchors": ["kwant/solvers/common.py:SparseSolver._make_linear_sys", "kwant/solvers/common.py:SparseSolver.smatrix", "kwant/solvers/common.py:BlockResult.submatrix"]}
{"id": "C43", "title": "Two-terminal shot noise does not depend on the computed block", "statement": "two_terminal_shotnoise(smatrix) is Tr(t t^dagger - (t t^dagger)^2) of the first computed block; for a unitary S-matrix of two leads this number is the same (and real) whichever leads were selected when computing the S-matrix - transmission or reflection; for another number of leads ValueError is raised.", "quantifier": "all unitary two-lead scattering matrices, all mode numbers, all selections of leads", "why_tests_cant": "holds by unitarity for every matrix of every size; tests compare some random matrices", "anchors": ["kwant/physics/noise.py:two_terminal_shotnoise", "kwant/solvers/common.py:BlockResult.submatrix"]}
{"id": "C41", "title": "wave_function returns scattering states", "statement": "wave_function(sys)(lead) returns one row per incoming propagating mode of the lead, each of which is the restriction to the scattering region of a solution of the scattering equations with that mode as the only incoming wave; it succeeds only for leads with modes.", "quantifier": "all systems, leads, energies, exact solvers", "why_tests_cant": "tests compare a few systems with smatrix or with operators", "anchors": ["kwant/solvers/common.py:WaveFunction", "kwant/solvers/common.py:SparseSolver._make_linear_sys"]}
{"id": "C42", "title": "ldos sums |psi|^2 over all incoming modes", "statement": "ldos() returns 1/(2 pi) times the sum over all incoming modes of all leads of |psi|^2, independent of how many right-hand sides are solved at once; self-energy leads and check_hermiticity=False raise NotImplementedError.", "quantifier": "all systems, energies, chunk sizes >= 1", "why_tests_cant": "chunking boundaries depend on the number of modes and the solver's nrhs", "anchors": ["kwant/solvers/common.py:SparseSolver.ldos"]}
{"id": "C44", "title": "Transmission and sum rules from Green's functions", "statement": "GreensFunction.transmission(a, b) equals Tr(Gamma_a G Gamma_b G^dagger), for a = b plus the number of channels and 2 Im Tr(Gamma G); for a Hermitian Hamiltonian and real energy transmissions into and out of each lead sum to its number of channels for arbitrary self-energies; transmissions with one missing lead are deduced to the same value, and conductance_matrix has the values N - R and -T with vanishing row and column sums.", "quantifier": "all systems, self-energies, lead selections", "why_tests_cant": "the sum rules are identities over all Hamiltonians and self-energies", "anchors": ["kwant/solvers/common.py:GreensFunction", "kwant/solvers/common.py:BlockResult.transmission", "kwant/solvers/common.py:BlockResult.conductance_matrix"]}
{"id": "C45", "title": "greens_function data", "statement": "Whenever greens_function() succeeds, its data (and every block returned by submatrix) are the matrix elements of (E - H - Sigma)^-1 between the interface orbitals of the selected leads, in interface order, Sigma being the sum of all leads' self-energies embedded at their interfaces.", "quantifier": "all systems, interfaces (also overlapping), self-energies, lead selections, exact solvers", "why_tests_cant": "index bookkeeping for all interfaces and orbital counts", "anchors": ["kwant/solvers/common.py:SparseSolver.greens_function", "kwant/solvers/common.py:SparseSolver._make_linear_sys"]}
{"id": "C46", "title": "Current conservation and unitarity", "statement": "For a Hermitian Hamiltonian, real energy and leads whose modes are normalized to unit current, the currents into all leads of any two solutions sum to zero (self-energy leads included); without self-energy leads the columns of the S-matrix are orthonormal, the full S-matrix is unitary, its transmissions from and to each lead sum to the number of modes, and the conductance matrix has zero row and column sums.", "quantifier": "all Hermitian systems, energies, mode sets", "why_tests_cant": "unitarity for all systems is a theorem, tests sample random matrices", "anchors": ["kwant/solvers/common.py:SparseSolver.smatrix", "kwant/solvers/common.py:SMatrix"]}
{"id": "C47", "title": "S-matrix elements do not depend on the selection", "statement": "The element of the S-matrix between two modes is the same number whatever out_leads and in_leads were selected, whether Hermiticity is checked, and whichever (exact) linear solver is used - also when the linear system is singular.", "quantifier": "all pairs of calls on the same Hermitian system with mode leads", "why_tests_cant": "all pairs of lead selections and solvers", "anchors": ["kwant/solvers/common.py:SparseSolver.smatrix"]}
{"id": "C48", "title": "smatrix and greens_function agree", "statement": "If the leads' self-energies are those of their modes, smatrix().transmission(a, b) and greens_function().transmission(a, b) are equal for all leads a, b, reflection (a = b) included (Fisher-Lee relation), whatever other leads were selected in either call.", "quantifier": "all systems with mode leads, energies, lead selections", "why_tests_cant": "tests compare both on a few random systems up to rounding", "anchors": ["kwant/solvers/common.py:GreensFunction", "kwant/solvers/common.py:SMatrix", "kwant/physics/leads.py:StabilizedModes.selfenergy"]}
{"id": "C49", "title": "Correlator: moments matrix after any history", "statement": "Element (m, n) of the moments matrix of vector v_r is <T_m(H) O1 v_r | O2 T_n(H) v_r>, after any sequence of add_moments and add_vectors calls (with accumulate_vectors=True for add_moments); both internal spectral densities use the same rescaled Hamiltonian.", "quantifier": "all Hamiltonians, operators, vectors, all histories", "why_tests_cant": "Two linked incremental computations must stay consistent over every history.", "anchors": ["kwant/kpm.py:Correlator"]}
{"id": "C50", "title": "Velocity operator is i[H, X] and Hermitian", "statement": "For a direction given by name the velocity operator used by conductivity() is i(HX - XH) for the position operator of that direction, and it is Hermitian when H is; a direction beyond the dimension of the system is refused.", "quantifier": "all Hamiltonians, positions, directions", "why_tests_cant": "Algebraic identity for every matrix.", "anchors": ["kwant/kpm.py:_velocity", "kwant/kpm.py:conductivity"]}
{"id": "C51", "title": "Local vectors give exact traces", "statement": "With LocalVectors over all orbitals, moment n of vector r is the diagonal element of T_n(H), the sum over vectors is the trace of T_n(H), and for a Correlator with Hermitian operators Tr(O1 T_m(H) O2 T_n(H)).", "quantifier": "all Hermitian H and operators, all histories", "why_tests_cant": "Exactness for every system size.", "anchors": ["kwant/kpm.py:LocalVectors", "kwant/kpm.py:SpectralDensity", "kwant/kpm.py:Correlator"]}
{"id": "C52", "title": "KPM densities, integration and kernels", "statement": "The densities obtained by Fourier transform equal the density evaluated directly at the same energies; integrate() of any polynomial of degree below 3 * num_moments gives exactly the corresponding combination of moments, in particular integrate() is the mean of <v|operator|v>; the Jackson and Lorentz kernels keep the zeroth moment; the rescaling maps every energy between the bounds strictly into (-1, 1).", "quantifier": "all moments, numbers of moments, polynomials, bounds", "why_tests_cant": "Identities over the reals for all inputs and sizes.", "anchors": ["kwant/kpm.py:_calc_fft_moments", "kwant/kpm.py:SpectralDensity.__call__", "kwant/kpm.py:SpectralDensity.integrate", "kwant/kpm.py:jackson_kernel", "kwant/kpm.py:lorentz_kernel", "kwant/kpm.py:_rescale", "kwant/kpm.py:fermi_distribution"]}
{"id": "C53", "title": "Circular ensembles are unitary, symmetric, and have the requested charge", "statement": "circular(n, sym, charge) returns a unitary matrix that satisfies the chiral, time-reversal and particle-hole conditions listed in its docstring for the class, for whatever random numbers are drawn; with charge given, the number of negative eigenvalues (chiral classes, via the trace) or the sign of the determinant/Pfaffian (D, DIII) is the requested one; excluded sizes and charges raise ValueError, and no other exception is raised except RuntimeError for a QR decomposition without the quaternionic structure.", "quantifier": "all sizes, all classes, all charges, all random draws", "why_tests_cant": "All random draws; the symplectic classes rely on a property of the QR decomposition (uniqueness) that the docstring says is not understood.", "anchors": ["kwant/rmt.py:circular"]}
{"id": "C54", "title": "A TranslationalSymmetry acts by its periods, after any history", "statement": "After any sequence of creating symmetries, reversed(), add_site_family, deletion of cached families, which and act on any of the objects, act(g, site) of a symmetry object moves the site by the sum of g[i] times the i-th of its own periods (in lattice coordinates of the family), which(act(g, s)) = g + which(s), and reversed() gives a symmetry with opposite periods, the opposite action and the same fundamental domain, provided that each family is first met through an object that is not reversed. (Without this proviso the sign can be wrong, for the reversed copy and for the original.)", "quantifier": "all histories of operations, all symmetry objects sharing caches, all families, group elements and sites", "why_tests_cant": "Depends on the whole history of the shared cache.", "anchors": ["kwant/lattice.py:TranslationalSymmetry.reversed", "kwant/lattice.py:TranslationalSymmetry.add_site_family", "kwant/lattice.py:TranslationalSymmetry._get_site_family_data", "kwant/lattice.py:TranslationalSymmetry.act", "kwant/lattice.py:TranslationalSymmetry.which"]}
{"id": "C55", "title": "n_closest and closest find the closest sites of a lattice", "statement": "For linearly independent primitive vectors, lat.n_closest(x, n) returns the tags of n different sites ordered by their distance from x such that no other site is closer; with group_by_length it returns n complete groups of sites of almost equal distance; lat.closest(x) is a closest site, and lat.closest(lat.pos(tag)) = tag. lat.vec(delta) is the displacement between sites whose tags differ by delta. In one and two lattice dimensions the search always succeeds. The directions used for flood fills come in opposite pairs; if the transformation matrix of the lattice reduction is symmetric they bound the Voronoi cell of the lattice, and from every site one of them leads closer to any other site. (For other bases the latter fails: the directions are computed with the transposed matrix.)", "quantifier": "all lattices (any dimension), points, n, tolerances", "why_tests_cant": "Real-valued inputs and arbitrary lattices; a search over finitely many candidates must be complete for all of them.", "anchors": ["kwant/lattice.py:Monatomic.n_closest", "kwant/lattice.py:Monatomic.closest", "kwant/lattice.py:Monatomic.pos", "kwant/lattice.py:Polyatomic.vec", "kwant/lattice.py:Polyatomic.__init__"]}
{"id": "C56", "title": "lat.shape yields the connected part of the shape once", "statement": "lat.shape(function, start)(symmetry) yields only sites of the sublattices in the fundamental domain of the symmetry whose position satisfies function; it yields exactly those whose tag can be reached from the tags closest to start in steps along the flood-fill directions through tags with some site in the shape; each is yielded once if the starting tags are inequivalent; the generator is exhausted after finitely many passes iff there are finitely many; ValueError is raised iff no site with one of the closest tags is in the shape. The result does not depend on the iteration order of sets. A disc-like shape around start is filled completely (for lattices with symmetric transformation matrix; in general it is not, see C56_strip_refuted). lat.wire(center, radius) is the shape of the points within the radius from the axis through center along the period.", "quantifier": "all shape functions, starting points, symmetries, lattices, set iteration orders", "why_tests_cant": "The shape function is an arbitrary predicate, the domain infinite, set order unspecified.", "anchors": ["kwant/lattice.py:Polyatomic.shape", "kwant/lattice.py:Polyatomic.wire"]}
{"id": "C57", "title": "lat.neighbors(n) returns each n-th neighbor hopping once, up to reversal", "statement": "If the distances between sites are separated by more than eps times the shortest lattice vector up to the n-th one, lat.neighbors(n, eps) returns HoppingKinds such that every hopping of one of them has the n-th shortest distance between sites of the lattice (counting 0 as the zeroth), and of each hopping of that distance and its reverse exactly one is of a returned kind; the zero hopping is returned iff n = 0. The kinds are different, ordered by the sublattices and decreasing tags; within a sublattice the lexicographically larger of the hopping and its reverse is returned. If the distances between sites of each pair of sublattices are separated as well, the search terminates and raises no IndexError.", "quantifier": "all lattices with any number of sublattices and dimension, all n and eps", "why_tests_cant": "Arbitrary real lattices and offsets; completeness of the search over an infinite set of hoppings; ties and tolerances.", "anchors": ["kwant/lattice.py:Polyatomic.neighbors"]}
{"id": "C58", "title": "DiscreteSymmetry holds a consistent set of symmetries and reports the broken ones", "statement": "DiscreteSymmetry(projectors, time_reversal, particle_hole, chiral) is accepted (without projectors) iff the given symmetries are part of a lawful set: unitary matrices, antiunitary symmetries with square 1 or -1, chiral symmetry with square 1, all three if two are present, product of all three the identity; the stored symmetries are such a set and contain the given ones. validate(h) returns exactly the names of the symmetries that h (padded with zeros) breaks, each once in a fixed order; if all three symmetries are declared, never exactly one of them is broken. Accepted projectors with as many columns in total as rows form an orthonormal basis, and then 'Conservation law' is returned iff h is not block diagonal in it. For a declared conservation law with integer eigenvalues the projectors of a finalized builder are orthonormal bases of its eigenspaces, in ascending order, and 'Conservation law' is returned iff h does not commute with it. (Projectors with more columns are accepted although they do not stack to a unitary matrix, and symmetries that are not in canonical form are accepted if the blocks have no positive real parts.)", "quantifier": "all matrices of all sizes over any commutative ring with involution (a field for projectors)", "why_tests_cant": "All matrices; acceptance is an equivalence with the existence of a lawful completion.", "anchors": ["kwant/physics/symmetry.py:DiscreteSymmetry", "kwant/builder.py:_FinalizedBuilderMixin.discrete_symmetry"]}
{"id": "C59", "title": "Leads: exactly the symmetries of the Bloch Hamiltonian are used", "statement": "InfiniteSystem.validate_symmetries returns exactly the names of the declared symmetries that the Bloch Hamiltonian H(z) = ham + z hop + z* hop^+ breaks for some z on the unit circle (antiunitary symmetries invert z). InfiniteSystem.modes(energy) passes on to physics.modes the declared conservation law and time reversal iff the lead has them, chiral symmetry iff the lead has it and energy = 0, and these are symmetries of the Hamiltonian with the energy subtracted that is passed on. Particle-hole symmetry is passed on iff energy = 0, also if it is broken and was announced to be ignored.", "quantifier": "all lead Hamiltonians, hoppings (also with fewer columns than rows), energies, declared symmetries, iteration orders of the set of broken symmetries", "why_tests_cant": "All momenta and all matrices.", "anchors": ["kwant/system.py:InfiniteSystem.modes", "kwant/system.py:InfiniteSystem.validate_symmetries", "kwant/physics/symmetry.py:DiscreteSymmetry.validate"]}
{"id": "C60", "title": "The lead eigenproblem has exactly the Bloch states as solutions", "statement": "For every unit cell Hamiltonian h (with the energy subtracted) and inter-cell hopping t, singular or not, and every stabilization setting except (.., True), the eigenvalue problem that setup_linsys sets up, with its extract function, is equivalent to the Schroedinger equation of the infinite lead: extract maps the eigenvectors of every eigenvalue mu != 0 bijectively to the Bloch states psi(j) = phi/mu^j. For Hermitian h, setup_linsys fails with the flat-band RuntimeError iff some state decouples from all hoppings and has zero energy, with ValueError iff t = 0, and never otherwise. (stabilization[1]=True does the opposite of what is documented.)", "quantifier": "all matrices of all sizes over the complex numbers, all stabilization settings, all eigenvalues", "why_tests_cant": "All leads and momenta; the equivalence is a bijection between solution spaces.", "anchors": ["kwant/physics/leads.py:setup_linsys"]}
{"id": "C61", "title": "Propagating modes are an ordered, current-normalized basis, and are always found", "statement": "Every mode that modes() returns is a Bloch state of the lead with the returned momentum; its velocity is dE/dk = <phi|dH/dk|phi>/<phi|phi>; it carries unit current, sign(v); modes with the same momentum are orthogonal and not coupled by dH/dk; together they are a basis of the eigenvectors on the unit circle. The first half moves towards the system (negative velocity, increasing momentum), the second half away from it (positive velocity, decreasing momentum). Unless the lead has a flat band at the energy, modes() succeeds: no zero velocity, as many left- as right-movers, one outgoing (propagating or evanescent) state for each degree of freedom of the hopping. (The documented order of left-movers with equal momentum by magnitude of velocity is reversed; chains of nearly equal eigenvalues around the whole circle are skipped.)", "quantifier": "all Hermitian leads of all sizes, all stabilization settings except (..., True), exact linear algebra oracles; no symmetries declared", "why_tests_cant": "All leads; degenerate momenta.", "anchors": ["kwant/physics/leads.py:make_proper_modes", "kwant/physics/leads.py:modes", "kwant/physics/leads.py:compute_block_modes"]}
{"id": "C62", "title": "The self-energy is exactly equivalent to the half-infinite lead", "statement": "Unless the lead has a flat band at the energy: StabilizedModes.selfenergy() cannot be computed iff the end of the half-infinite lead has a bound state at this energy. Otherwise each wave function psi0 at the interface has an outgoing continuation (right-moving modes and decaying states) that solves the Schroedinger equation in all cells of the half-infinite lead, and for every such continuation, hop^+ psi(0) = Sigma psi0, and <psi0| i(Sigma - Sigma^+) |psi0> is the sum of the absolute squares of the amplitudes of the right-moving modes (the current into the lead).", "quantifier": "all Hermitian leads of all sizes (also hoppings with fewer columns than rows), all wave functions at the interface", "why_tests_cant": "All leads, all boundary conditions, infinitely many cells.", "anchors": ["kwant/physics/leads.py:StabilizedModes.selfenergy", "kwant/physics/leads.py:modes"]}
{"id": "C63", "title": "discretize gives the operator with central differences, and the continuum as the grid gets finer", "statement": "For every Hermitian continuum Hamiltonian (a matrix of sums of ordered products of momenta, constants and functions of the position, in any order), the tight-binding system built by discretize acts on wave functions exactly like the given operator with each momentum k_c replaced by the central difference -i (psi(x + h) - psi(x - h)) / (2 h), where h is the grid spacing, or half of it in the directions in which the product contains an even number of momenta; all functions are evaluated at the right (shifted) positions. The Hamiltonian is Hermitian, and only one of each pair of opposite hoppings is kept. With position-independent coefficients plane waves are mapped to plane waves by the Hamiltonian with k_c -> sin(k_c h)/h, which tends to the continuum Hamiltonian as the grid spacings go to zero. (Operators that are not Hermitian are silently replaced by others.)", "quantifier": "all expressions with any number and order of momenta and functions, all numbers of components and dimensions, all grid spacings and grid offsets, all wave functions", "why_tests_cant": "Infinitely many expressions; equality of operators on all wave functions; a limit.", "anchors": ["kwant/continuum/discretizer.py:discretize_symbolic", "kwant/continuum/discretizer.py:_discretize_summand", "kwant/continuum/discretizer.py:_extract_hoppings", "kwant/continuum/discretizer.py:build_discretized", "kwant/continuum/_common.py:gcd"]}
{"id": "C64", "title": "dijkstra_directed returns shortest paths", "statement": "For every weighted directed graph in CSR format with non-negative (possibly infinite) weights, dijkstra_directed terminates; for each pair of a source and a target it returns a path (from target to source) whose length is minimal among all paths along links of finite weight and the corresponding length, and no path exactly if there is none; the predecessor array describes a tree of shortest paths to all nodes that are reachable from the source. This holds whichever of several nodes of equal distance is removed first from the heap.", "quantifier": "all graphs, all sources and targets, all ways to break ties", "why_tests_cant": "Infinitely many graphs and weights, and the tie breaking depends on the internal state of the heap.", "anchors": ["kwant/graph/dijkstra.pyx:dijkstra_directed", "kwant/graph/dijkstra.pyx:_calculate_path"]}
{"id": "C65", "title": "magnetic_gauge: phases around every loop are given by the flux", "statement": "For every finite system without leads and every magnetic field, magnetic_gauge returns unit complex numbers with peierls(b, a) = conj(peierls(a, b)), such that the product of the phases around every closed loop of hoppings (not only the loops that are used to fix the gauge) is exp(i pi flux), where flux is the flux through the loop; for a constant field the flux is the field times the enclosed (vector) area. The loop finding terminates and raises no exception, whatever the order in which sets are traversed and ties are broken. (The argument average is ignored; tol is compared with areas and not with fluxes.)", "quantifier": "all graphs and positions of sites, all closed loops of hoppings, all constant fields in two and three dimensions, all other fields for which the integration over triangles is exact", "why_tests_cant": "Infinitely many systems and loops; the set of loops used to fix the gauge depends on tie breaking and on the order of sets.", "anchors": ["kwant/physics/gauge.py:magnetic_gauge", "kwant/physics/gauge.py:_find_loops", "kwant/physics/gauge.py:_shortest_distance_forest", "kwant/physics/gauge.py:_calculate_phases", "kwant/physics/gauge.py:_surface_integral"]}
{"id": "C66", "title": "magnetic_gauge on infinite systems: phases around every loop through any number of cells", "statement": "For an infinite system (a lead) with a connected unit cell of at least two sites and a translation-invariant magnetic field, magnetic_gauge returns a function that gives for every hopping of the infinite system, in any unit cell, a unit complex number with peierls(b, a) = conj(peierls(a, b)) that is invariant under translations of the hopping by unit cells; the product of the phases around every closed loop of hoppings, through any number of unit cells, is exp(i pi flux); for a constant field the flux is the field times the enclosed (vector) area. A disconnected unit cell is refused. (A unit cell of a single site, although connected, is refused too: ValueError.)", "quantifier": "all graphs and positions of sites of the unit cell, all closed loops in the infinite system, all constant fields in two and three dimensions, all translation-invariant fields whose flux through triangles is additive, all orders of traversal of sets and ties", "why_tests_cant": "Infinitely many systems and infinitely many loops in each of them; the loops used to fix the gauge lie within two unit cells and depend on tie breaking.", "anchors": ["kwant/physics/gauge.py:magnetic_gauge", "kwant/physics/gauge.py:_loops_in_infinite", "kwant/physics/gauge.py:_check_infinite_syst", "kwant/physics/gauge.py:_previous_phase_infinite", "kwant/physics/gauge.py:_infinite_wrapper"]}
{"id": "C67", "title": "Bands: energies of Bloch waves, velocities and curvatures are their derivatives", "statement": "kwant.physics.Bands(syst)(k) returns, in ascending order, exactly the energies for which the infinite system has a Bloch wave of momentum k; they have period 2 pi, are continuous in k and do not depend on derivative_order and return_eigenvectors; returned eigenvectors give Bloch waves. For every nondegenerate band the returned velocity is the derivative of the returned energy with respect to k, and the derivative of the velocity is the returned curvature (if the array entries that np.divide leaves uninitialized are zero). derivative_order > 2 is refused. (Velocities of degenerate bands are not derivatives of band energies; the curvature is wrong when uninitialized memory is not zero.)", "quantifier": "all Hermitian cell Hamiltonians and hopping matrices of any size, all momenta, all eigensystems that the eigensolver may choose at each momentum", "why_tests_cant": "Infinitely many Hamiltonians and momenta; derivatives are limits, and the eigensolver is free to choose phases and bases at each momentum.", "anchors": ["kwant/physics/dispersion.py:Bands.__init__", "kwant/physics/dispersion.py:Bands.__call__"]}
{"id": "C68", "title": "Builder.closest: the closest site of the infinite system", "statement": "For a builder with sites and with a translational symmetry (or none), closest(pos) returns a translate of one of its sites (a site with a position), and no translate of any site of the builder, by any element of the symmetry group, is closer to pos. In at most two periodic directions a site is always found. A builder without sites returns None without a symmetry and raises with one; a site family without positions raises.", "quantifier": "all builders, site families with positions, numbers of periodic directions and dimensions, all sets of linearly independent periods (however skewed), all positions", "why_tests_cant": "Infinitely many lattices, symmetries and positions; the closest translate has to be compared with infinitely many translates.", "anchors": ["kwant/builder.py:Builder.closest", "kwant/linalg/lll.py:lll", "kwant/linalg/lll.py:cvp"]}
{"id": "C69", "title": "add_site_family chooses exact data for every commensurate lattice", "statement": "For every translational symmetry and every lattice with linearly independent primitive vectors: if the periods are lattice vectors, add_site_family accepts the family if and only if the periods together with other_vectors are linearly independent (always, if other_vectors is not given); the choice of the remaining vectors and of the integer data (transformation matrix, its determinant and its inverse times the determinant) never fails. Conversely, accepted periods are lattice vectors up to the tolerances of the code. The symmetry then moves every site by exactly the sum of its periods times the group element, the reversed symmetry by the opposite, and the fundamental domain that contains a site is given by the integer parts of its coordinates along the periods in the basis that is completed with other_vectors and the chosen vectors. This holds after every history of creating and reversing symmetries, adding, deleting and using families (first used by a symmetry that is not reversed).", "quantifier": "all dimensions of space and lattice, all lattices, periods, other_vectors, sites, group elements and histories", "why_tests_cant": "Infinitely many lattices and periods; that a completion exists and that the integer inverse is exact is a statement of linear algebra about all of them.", "anchors": ["kwant/lattice.py:TranslationalSymmetry.add_site_family", "kwant/lattice.py:TranslationalSymmetry.act", "kwant/lattice.py:TranslationalSymmetry.which"]}
{"id": "C70", "title": "discretize_landau: exact matrix elements between Landau levels", "statement": "For every Hamiltonian that is a polynomial (with matrix coefficients) of degree up to six in the two momenta perpendicular to a field B >= 0, and every number N of levels, the Hamiltonian of the system returned by discretize_landau between any two sites (position along the field, Landau level below N) equals the exact matrix element between the levels of the harmonic oscillator, where the momenta are k_0 = sqrt(B/2) (a + a^+) and k_1 = i sqrt(B/2) (a - a^+), with [k_0, k_1] = -i B: there are no errors from the truncation to N levels. The system has no other sites. For B < 0 the values are those of the momenta with a and a^+ exchanged, but with the two Landau level indices exchanged. For free electrons the levels are |B| (2 n + 1).", "quantifier": "all Hamiltonians, fields, numbers of levels and pairs of sites", "why_tests_cant": "Infinitely many polynomials, levels and fields; the tests compare a few Hamiltonians with truncated matrices.", "anchors": ["kwant/continuum/landau_levels.py:discretize_landau", "kwant/continuum/landau_levels.py:to_landau_basis", "kwant/continuum/landau_levels.py:_builder_value", "kwant/continuum/landau_levels.py:_ladder_term", "kwant/continuum/landau_levels.py:_evaluate_ladder_term"]}
{"id": "C71", "title": "phs_symmetrization: particle-hole symmetric modes at a TRIM", "statement": "Given orthonormal modes (the columns of wfs) whose span is mapped into itself by the antiunitary particle-hole operator psi -> P psi^*: if the operator squares to 1, the returned modes are orthonormal, span the same space, and each is its own particle-hole partner; if it squares to -1, the number of modes is even, and the returned modes are orthonormal, span the same space and come in pairs (psi, P psi). No assertion fails. Orthonormal modes whose span is not mapped into itself, or on which the operator squares neither to 1 nor to -1, raise ValueError.", "quantifier": "all unitary P, all dimensions and numbers of modes, all results of the Schur and QR decompositions", "why_tests_cant": "Infinitely many operators, spaces and (non-unique) matrix decompositions; the tests draw a few random matrices.", "anchors": ["kwant/physics/leads.py:phs_symmetrization"]}
{"id": "C72", "title": "transform_modes: modes of a symmetry-related block", "statement": "Let the data be valid modes data of a lead block (h, t): Bloch states with their momenta, with their velocities, normalized to unit current, left-movers before right-movers; stabilized data consistent with them. transform_modes returns valid modes data of the block with onsite and hopping U h U^+, U t U^+ (unitary), U h^* U^+, U t^* U^+ (time reversal), minus those (particle-hole), -U h U^+, -U t U^+ (chiral); if several are given, the first in this order is used. The stabilized data are those of the returned modes for unitary and time reversal, and those of minus the returned modes for particle-hole and chiral. The documented order of momenta is preserved for unitary and particle-hole.", "quantifier": "all blocks, dimensions, numbers of modes, valid modes data and unitary U", "why_tests_cant": "Infinitely many leads and symmetry operators; the tests look at a few Hamiltonians with block structure and compare only S-matrix symmetries.", "anchors": ["kwant/physics/leads.py:transform_modes"]}
