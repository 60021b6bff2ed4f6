{"id": "C01", "title": "Operator equality is an equivalence and != is its negation", "statement": "For any two operators with the same index types, a == b holds exactly when they agree on creator/annihilator kind and on every index, == is reflexive, symmetric and transitive, and a != b is true exactly when a == b is false.", "quantifier": "all pairs/triples of operators, any number of indices and any index values", "why_tests_cant": "The index space is infinite; tests compare a few literals.", "anchors": ["include/ieompp/algebra/operator/operator.hpp: Operator::operator==, operator!=, same_indices"]}
{"id": "C02", "title": "Conjugating an operator is an involution and is_conjugate recognises exactly the adjoint", "statement": "get_conjugate flips only the creator flag, conjugating twice gives the operator back, in-place conjugate() leaves the same value as get_conjugate(), and a.is_conjugate(b) is true exactly when b == a.get_conjugate(). On Fock space the conjugate acts as the adjoint.", "quantifier": "all operators and all Fock states", "why_tests_cant": "Must hold for every index tuple and every many-body state.", "anchors": ["include/ieompp/algebra/operator/operator.hpp: conjugate, get_conjugate, is_conjugate"]}
{"id": "C03", "title": "OperatorSmaller is a strict total order compatible with ==", "statement": "OperatorSmaller is irreflexive, transitive and total (a<b or b<a unless a==b), it puts every creator before every annihilator, orders equal kinds lexicographically by index, and OperatorGreater(a,b) equals OperatorSmaller(b,a).", "quantifier": "all pairs/triples of operators with any number of totally ordered indices", "why_tests_cant": "std::lower_bound/std::sort have undefined behaviour if any triple violates the strict-weak-order laws.", "anchors": ["include/ieompp/algebra/operator/order.hpp: OperatorSmaller, OperatorGreater"]}
{"id": "C04", "title": "Conjugating a monomial is the adjoint", "statement": "get_conjugate of a monomial is an involution, satisfies (AB)^+ = B^+ A^+, agrees with the in-place conjugate, is_conjugate(a,b) holds exactly when b == a.get_conjugate(), and the resulting operator product is the adjoint of the original one on Fock space.", "quantifier": "all monomials of any length, all Fock states", "why_tests_cant": "Unbounded length and infinitely many index values.", "anchors": ["include/ieompp/algebra/monomial/monomial.hpp: conjugate, get_conjugate, is_conjugate"]}
{"id": "C05", "title": "Multiplying monomials and terms is operator composition", "statement": "a*b (and a*=b for distinct objects) yields an object acting on Fock space as 'first b, then a' with prefactors multiplied; multiplication is associative with the empty monomial as unit; the operands are unchanged.", "quantifier": "all monomials/terms of any length", "why_tests_cant": "Unbounded length.", "anchors": ["include/ieompp/algebra/monomial/monomial.hpp: operator*=, operator*", "include/ieompp/algebra/term/term.hpp: operator*=, operator*"]}
{"id": "C06", "title": "Conjugating a term is the adjoint including the prefactor", "statement": "get_conjugate of a term conjugates the complex prefactor, reverses and conjugates the operators, is an involution, and yields the adjoint operator on Fock space.", "quantifier": "all terms with complex prefactors", "why_tests_cant": "Infinite input space.", "anchors": ["include/ieompp/algebra/term/term.hpp: get_conjugate"]}
{"id": "C07", "title": "TermSmaller is a strict weak order whose ties are exactly 'same operators'", "statement": "TermSmaller is irreflexive and transitive, two terms are incomparable exactly when have_same_operators holds, shorter terms come first, and TermGreater is the converse relation.", "quantifier": "all pairs/triples of terms of any length", "why_tests_cant": "copy_as_unique_terms relies on this for every list of terms; a violation is undefined behaviour.", "anchors": ["include/ieompp/algebra/term/order.hpp: TermSmaller, TermGreater", "include/ieompp/algebra/term/term.hpp: have_same_operators"]}
{"id": "C08", "title": "commutate returns the commutator", "statement": "For terms A and B with concrete indices whose operator counts have an even product, the sum of the terms that commutate(A,B,result) appends equals AB - BA as an operator on Fock space, and terms already in the result container are kept in place.", "quantifier": "all terms of any lengths m,n with m*n even, all prefactors, all Fock states", "why_tests_cant": "Sign bookkeeping must be right for every pair of contraction positions and every length.", "anchors": ["include/ieompp/algebra/commutator.hpp: commutate", "include/ieompp/algebra/anticommutator.hpp: anticommutates, anticommutator"]}
{"id": "C09", "title": "commutate on two odd terms gives the anticommutator, so the assertion is necessary", "statement": "For odd operator counts m and n the appended terms sum to AB + BA; hence a release build, which drops the m*n-even assertion, silently returns the anticommutator instead of the commutator.", "quantifier": "all terms with m*n odd", "why_tests_cant": "Depends on all lengths and on asserts being compiled out.", "anchors": ["include/ieompp/algebra/commutator.hpp: commutate"]}
{"id": "C10", "title": "Symbolic commutation is correct under every substitution of the indices", "statement": "When indices are symbols, the terms produced by commutate, with each Kronecker delta read as 0 or 1, sum to AB - BA (m*n even) after substituting any concrete values for the symbols, including substitutions that identify different symbols, and whether or not the comparison of two equal symbols (compared as const char* by address) reports them equal.", "quantifier": "all symbolic terms, all substitutions, all address-comparison outcomes for equal strings", "why_tests_cant": "Quantifies over every substitution.", "anchors": ["include/ieompp/algebra/commutator.hpp: commutate", "include/ieompp/algebra/anticommutator.hpp: anticommutes_symbolic, anticommutator", "include/ieompp/symbolic/prefactor.hpp"]}
{"id": "C11", "title": "anticommutates answers true only for operators whose anticommutator vanishes", "statement": "If anticommutates(a,b) is true then ab + ba = 0 on Fock space (for symbolic indices: for every substitution); if it is false then ab + ba equals the prefactor computed by anticommutator (1, or the product of Kronecker deltas) times the identity.", "quantifier": "all pairs of operators, all states, all substitutions", "why_tests_cant": "Infinite index space.", "anchors": ["include/ieompp/algebra/anticommutator.hpp: anticommutates, anticommutator"]}
{"id": "C12", "title": "Commutation preserves size and additive quantum numbers", "statement": "Every term appended by commutate(A,B) has exactly m+n-2 operators, and its total_creations (creators minus annihilators) and total_spin equal those of A plus those of B.", "quantifier": "all pairs of terms", "why_tests_cant": "Every contraction of every pair.", "anchors": ["include/ieompp/algebra/commutator.hpp: commutate", "include/ieompp/algebra/term/checks.hpp: total_creations, total_spin, total_momentum"]}
{"id": "C13", "title": "copy_as_unique_terms collects like terms without changing the sum", "statement": "The output is strictly increasing in TermSmaller, contains no two terms with the same operators, contains exactly the operator products of the input, each with the sum of its prefactors, and so represents the same operator as the input list.", "quantifier": "all lists of terms in any order", "why_tests_cant": "All lists of any length and all orders.", "anchors": ["include/ieompp/algebra/term/list.hpp: copy_as_unique_terms", "include/ieompp/algebra/term/order.hpp"]}
{"id": "C14", "title": "Kronecker deltas: equality, ordering and meaning", "statement": "Kronecker equality is symmetric in the two indices and an equivalence; order() keeps the value of the delta under every substitution and two deltas are equal exactly when their ordered forms coincide.", "quantifier": "all index strings, all substitutions", "why_tests_cant": "Infinite strings.", "anchors": ["include/ieompp/algebra/kronecker.hpp: Kronecker"]}
{"id": "C15", "title": "Multiplying symbolic prefactors multiplies their values", "statement": "For every substitution of the indices the value (number times product of deltas) of p*q, p*=delta, p*=number, p*=vector of deltas is the product of the values; multiplication is commutative and associative in value.", "quantifier": "all prefactors and substitutions", "why_tests_cant": "Infinite input space.", "anchors": ["include/ieompp/symbolic/prefactor.hpp: Prefactor::operator*=, operator*"]}
{"id": "C16", "title": "order_kroneckers preserves the value and canonicalises first indices only", "statement": "order_kroneckers keeps the value under every substitution and keeps the multiset of deltas, its comparator is a strict weak order on ordered deltas (so std::sort is defined), and for two prefactors with the same multiset of deltas the sequences of first indices coincide; the second indices need not (the comparator never compares them), so the result is not a canonical form (defect).", "quantifier": "all delta lists and every valid outcome of an unstable sort", "why_tests_cant": "Quantifies over all permutations and sort implementations.", "anchors": ["include/ieompp/symbolic/prefactor.hpp: Prefactor::order_kroneckers"]}
{"id": "C17", "title": "Chain neighbours are the two adjacent sites of a ring", "statement": "For every chain size N>=1 and site i<N the neighbors array holds (i-1) mod N and (i+1) mod N, all indices are valid, the relation is symmetric, and following unique_neighbors from each site visits each ring bond exactly once.", "quantifier": "all N (1..2^64-1) and all sites", "why_tests_cant": "Unbounded lattice size.", "anchors": ["include/ieompp/lattices/periodic_chain.hpp: PeriodicChain::neighbors, unique_neighbors"]}
{"id": "C18", "title": "Chain lattice_distance is the ring metric and agrees with neighboring", "statement": "lattice_distance is symmetric, zero exactly on equal sites, satisfies the triangle inequality, never exceeds N/2, equals the least number of nearest-neighbour hops between the sites, and neighboring(a,b) is true exactly when b is in neighbors(a).", "quantifier": "all N and all pairs/triples of sites", "why_tests_cant": "Unbounded lattice size.", "anchors": ["include/ieompp/lattices/periodic_chain.hpp: lattice_distance, neighboring"]}
{"id": "C19", "title": "Iterating a chain yields each site once in ascending order", "statement": "The range begin()..end() of a chain (and of a square lattice) visits exactly the valid indices, each once, ascending, and terminates.", "quantifier": "all lattice sizes", "why_tests_cant": "Unbounded size.", "anchors": ["include/ieompp/lattices/periodic_chain.hpp: begin, end", "include/ieompp/lattices/periodic_square_lattice.hpp: begin, end", "include/ieompp/iterators/integer_iterator.hpp"]}
{"id": "C20", "title": "Chain position-to-index inverts index-to-position, modulo the lattice period", "statement": "lattice(lattice[i] + m*length) == i for every site i and every integer m, the wrapping loops terminate, and for momentum space every real argument is mapped to a valid index of a site nearest to it on the ring.", "quantifier": "all N, sites, spacings, integers m and real positions (exact real arithmetic)", "why_tests_cant": "All real positions and all windings.", "anchors": ["include/ieompp/lattices/periodic_chain.hpp: operator[], operator()"]}
{"id": "C21", "title": "Which real-space positions map to a valid chain site", "statement": "For a real-space chain with u = v mod length, operator()(v) terminates and returns the ring-nearest site when u <= (N-1)dx or u > (N-1/2)dx; for u in the interval between, on every chain, it converts -1.0 to an unsigned integer, which is undefined (defect).", "quantifier": "all real positions", "why_tests_cant": "The failing positions form a thin interval just beyond the last site, below half a lattice spacing.", "anchors": ["include/ieompp/lattices/periodic_chain.hpp: operator()"]}
{"id": "C22", "title": "Where chain closest() returns the ring-nearest site", "statement": "closest(v) returns a site whose distance to v, modulo the lattice period, is minimal over all sites: for every v on a real-space chain and for v <= pi - dx/2 on a momentum-space chain; for v within dx/2 of the zone edge pi (N>=2) it returns site N-1, which is not nearest (defect).", "quantifier": "all sites and positions", "why_tests_cant": "All real positions.", "anchors": ["include/ieompp/lattices/periodic_chain.hpp: closest"]}
{"id": "C23", "title": "Square-lattice index and coordinates are mutually inverse exactly for Nx = Ny", "statement": "On an Nx x Ny lattice, (x,y) -> index is a bijection between coordinate pairs x<Nx, y<Ny and indices < Nx*Ny, with x_index and y_index its inverse, if and only if Nx = Ny; for Nx < Ny different coordinates collide (defect for rectangular lattices).", "quantifier": "all Nx, Ny and all coordinates", "why_tests_cant": "All lattice shapes; the shipped tests and programs only use square ones.", "anchors": ["include/ieompp/lattices/periodic_square_lattice.hpp: index, x_index, y_index"]}
{"id": "C24", "title": "Square-lattice neighbours are the four adjacent torus sites", "statement": "neighbors(i) holds exactly the indices of (x+-1,y) and (x,y+-1) on the torus, all valid, the relation is symmetric, agrees with neighboring, and (N>=3) unique_neighbors lists each torus bond once, whenever Nx = Ny = N. On rectangles (defect): all neighbour indices lie in the lattice exactly if Nx <= Ny, and for Nx < Ny the relation is symmetric only on the 1 x 2 and 1 x 3 lattices.", "quantifier": "all Nx, Ny, all sites", "why_tests_cant": "Unbounded lattice sizes and shapes.", "anchors": ["include/ieompp/lattices/periodic_square_lattice.hpp: neighbors, unique_neighbors, neighboring"]}
{"id": "C25", "title": "Square-lattice distance is the torus metric", "statement": "lattice_distance_x and lattice_distance_y are the ring distances of the coordinates, symmetric, bounded by half the extents, both zero only for equal sites, and their sum is the least number of nearest-neighbour hops on the torus, whenever Nx = Ny; on every rectangle with Nx <> Ny there are distinct sites with both distances zero (defect).", "quantifier": "all Nx, Ny, all pairs of sites", "why_tests_cant": "Unbounded.", "anchors": ["include/ieompp/lattices/periodic_square_lattice.hpp: lattice_distance_x, lattice_distance_y"]}
{"id": "C26", "title": "Square-lattice position-to-index on images of lattice sites", "statement": "For Nx = Ny and every site i and every lattice translation T, lattice(lattice[i] + T) == i in real space; in momentum space it is i except that a coordinate 0 moved by a positive winding comes out as coordinate N, e.g. (pi,pi) gives an index >= size (defect).", "quantifier": "all sizes, sites and translations (exact real arithmetic)", "why_tests_cant": "All positions.", "anchors": ["include/ieompp/lattices/periodic_square_lattice.hpp: operator[], operator()"]}
{"id": "C27", "title": "Real-space three-operator basis is complete, duplicate-free and indexed by get_3op_index", "statement": "Basis3Operator for N sites has N + N^3 elements; element i<N is the creator on site i spin up; basis[get_3op_index(i1,i2,i3)] is c+_{i1,up} c+_{i2,down} c_{i3,down}; all elements are distinct; get_3op_index is a bijection from site triples onto N..N+N^3-1, computed without wrap-around as long as N+N^3 fits in 64 bits.", "quantifier": "all N and site triples", "why_tests_cant": "Unbounded N; overflow only at sizes no test can allocate.", "anchors": ["include/ieompp/models/hubbard_real_space/basis.hpp: Basis1Operator, Basis3Operator, get_3op_index"]}
{"id": "C28", "title": "Momentum-space basis conserves momentum and is indexed by get_3op_index", "statement": "The basis has 1+N^2 elements, the first is the creator at q; basis[get_3op_index(i1,i2)] has creators i1 (up), i2 (down) and an annihilator i3 with k_i1 + k_i2 - k_i3 = k_q modulo 2 pi; all elements are distinct.", "quantifier": "all N, q, i1, i2 (exact real arithmetic)", "why_tests_cant": "All sizes and momenta.", "anchors": ["include/ieompp/models/hubbard_momentum_space/basis.hpp: Basis3Operator, get_3op_index"]}
{"id": "C29", "title": "The conjugate basis is the element-wise adjoint", "statement": "get_conjugate of a basis has the same size and its element i is the adjoint of element i.", "quantifier": "all N", "why_tests_cant": "All sizes.", "anchors": ["include/ieompp/models/hubbard_real_space/basis.hpp: get_conjugate", "include/ieompp/models/hubbard_momentum_space/basis.hpp: get_conjugate"]}
{"id": "C30", "title": "The kinetic matrix is the commutator with the hopping Hamiltonian", "statement": "For every periodic chain with N>=3 sites and every square lattice of at least 3x3 sites (equal sides), [H_kin, basis[row]] = sum over columns of M(row,col)*basis[col] as operators on Fock space, with H_kin = -J sum over sites, neighbours and spins of c+_i c_j: for init_kinetic_matrix and for init_kinetic_matrix_no on the one-operator basis, and for init_matrix with U=0 on the three-operator basis, both read as plain monomials and as the orthogonalised operators c+_{a,up}(2 c+_{b,down}c_{c,down} - delta_bc).", "quantifier": "all N>=3, both lattices, all J, all rows, all Fock states", "why_tests_cant": "Physics correctness for all sizes.", "anchors": ["include/ieompp/models/hubbard_real_space/blaze_sparse.hpp: init_kinetic_matrix, init_matrix"]}
{"id": "C31", "title": "The full matrix is the commutator with the Hubbard Hamiltonian projected on the basis", "statement": "The operators c+_{a,up} and c+_{a,up}(2 c+_{b,down}c_{c,down} - delta_bc) are orthogonal with equal norm in the Frobenius product on Fock space, and every entry of init_matrix is the projection of [H_kin + U sum_i n_up n_down, basis[row]] on basis[col] (with the norm divided out); the rows of c+_i and of the on-site triple (i,i,i) are exact, not only projections.", "quantifier": "all N>=3, both lattices, all J, U, all rows and columns, all Fock states", "why_tests_cant": "All sizes and states.", "anchors": ["include/ieompp/models/hubbard_real_space/blaze_sparse.hpp: init_matrix", "include/ieompp/models/hubbard_real_space/liouvillian.hpp"]}
{"id": "C32", "title": "Sparse rows are filled with strictly increasing columns within the reserved capacity", "statement": "init_matrix, init_kinetic_matrix and init_kinetic_matrix_no append every row with strictly increasing columns < basis size, each row is finalised exactly once in order, and the total number of appended entries never exceeds the value passed to reserve (blaze's append has undefined behaviour otherwise).", "quantifier": "all N >= 3, both lattices (equal sides), the one- and the three-operator basis, every valid sort", "why_tests_cant": "blaze checks this only in debug mode; must hold for every size.", "anchors": ["include/ieompp/models/hubbard_real_space/blaze_sparse.hpp: init_kinetic_matrix, init_matrix, number_of_*_elements"]}
{"id": "C33", "title": "Lattices with fewer than three sites per side get duplicate columns (defect)", "statement": "For every chain with one or two sites and every square lattice with both sides one or both two, the neighbour list repeats a site, so both init_kinetic_matrix and init_matrix append the same column twice to a row: undefined behaviour of the sparse matrix. Square lattices whose sides differ do not work at all (defect): init_matrix is undefined behaviour on every one of them (a column that does not exist when Ny < Nx, the same column twice when Nx < Ny); init_kinetic_matrix is undefined behaviour when Ny < Nx, and when 3 <= Nx < Ny every matrix it builds is not symmetric (the last site hops away, no site hops to it) and lets site Nx hop to itself.", "quantifier": "all small lattices, all J, U, every valid sort", "why_tests_cant": "Edge sizes; blaze's check is off in release builds so the duplicate is silent.", "anchors": ["include/ieompp/models/hubbard_real_space/blaze_sparse.hpp: init_kinetic_matrix"]}
{"id": "C34", "title": "The real-space Liouvillian matrix is symmetric", "statement": "For all N>=3 M(i,j) = M(j,i), hence the exact time evolution is unitary for real parameters.", "quantifier": "all N, J, U, rows and columns", "why_tests_cant": "All sizes.", "anchors": ["include/ieompp/models/hubbard_real_space/blaze_sparse.hpp: init_matrix"]}
{"id": "C35", "title": "Momentum-space matrix: entries, symmetry, capacity and meaning", "statement": "The momentum-space matrix has diagonal eps(q)+U/2 and eps1+eps2-eps3+U/2, first row and column U/(2N), no other entries, strictly increasing columns, is symmetric, and the number of entries fits the reserved count. Every entry is the Frobenius projection of [sum eps n + (U/N) sum c+c c+c, basis[row]] on basis[col], and the first row, [H, c+_q], is exact.", "quantifier": "all N>0, q, U, dispersions, all rows and columns, all Fock states", "why_tests_cant": "All sizes.", "anchors": ["include/ieompp/models/hubbard_momentum_space/blaze_sparse.hpp: init_matrix, number_of_matrix_elements"]}
{"id": "C36", "title": "Normal-ordered matrix rows: capacity, column order, completeness; distance from the true equation of motion (defect)", "statement": "init_matrix_no writes strictly increasing columns within the reserved capacity, one-operator rows hold exactly the collected contributions and three-operator rows the collected contributions per column up to sums that IsZero. The rows are meant to be the commutator with the Hubbard Hamiltonian in the basis of normal-ordered operators, products of more operators being dropped. The true interaction commutator of c+_i is U<n>c+_i + U:c+ n:, but (defect) the rows written for c+_i differ from it: the amplitude for creating an electron in the vacuum is off by U(1-<n>)(1+<n>). For :c+_1up c+_2down c_3down: the exact equation of motion (any stationary one-particle expectation values g_ab = <c+_a c_b>, h_ab = <c_a c+_b>) has U(g_21 h_31 + g_23(g_22-g_33)), U h_21 g_23 and -U h_31 g_23 on c+_1, c+_2, c+_3, and U(g_11+g_22-g_33), -U g_21, U h_31, U h_21, -U h_31 on :123:, :113:, :121:, :223:, :323:, plus five-operator and all-up normal-ordered products; (defect) the written row uses g_31 for h_31 in the third, and g_21, g_31 for h_21, h_31 in the last two places (and, for r2 = r3, keeps the one-operator pair only), so it differs from the equation of motion by exactly U((g_21-h_21):c+_2 c+_2 c_3: - (g_31-h_31)c+_3 c+_2 c_3 - (g_22-g_33)c+_1 c+_2 c_3) for r2 <> r3 and U(h_21-g_21)g_22 c+_2 for r2 = r3. The rows are exact for the infinite-temperature values g_ab = delta_ab/2 and wrong e.g. for 1=2=a, 3=b by U(g_aa+g_bb-1) and U(g_ab+g_ba) in two matrix elements.", "quantifier": "all N>=3, both lattices, all J, U and expectation-value tables", "why_tests_cant": "All sizes/values.", "anchors": ["include/ieompp/models/hubbard_real_space/blaze_sparse_no.hpp: init_matrix_no"]}
{"id": "C37", "title": "make_columns_unique merges without losing weight (defect for empty lists)", "statement": "For a non-empty triplet list sorted by column make_columns_unique gives strictly increasing columns, every kept entry carries the full weight of its column, dropped columns have a weight that IsZero, only the last column may be kept although its weight IsZero, and has_unique_columns then returns true; has_unique_columns decides uniqueness on sorted lists. For an empty list both functions dereference end() (defect).", "quantifier": "all triplet lists, every valid unstable sort", "why_tests_cant": "Unbounded lists.", "anchors": ["include/ieompp/types/triplet.hpp: TripletList::sort, make_columns_unique, has_unique_columns"]}
{"id": "C38", "title": "Matrix predicates decide what they say", "statement": "is_quadratic returns true exactly for square matrices and is_symmetric exactly for square matrices whose mirrored entries are all equal (in the sense of IsEqual); is_hermitian of matrix_check.hpp never looks at mirrored entries: it returns true exactly when every entry on and below the diagonal equals its own conjugate, so it rejects the Pauli matrix sigma_y and accepts the non-hermitian shift matrix (defect).", "quantifier": "all matrices of all dimensions", "why_tests_cant": "All matrices.", "anchors": ["include/ieompp/types/matrix_check.hpp", "include/ieompp/types/function_matrix.hpp: is_symmetric, is_hermitian"]}
{"id": "C39", "title": "Function matrices compare extensionally", "statement": "Two function matrices are == exactly when dimensions and all entries agree (in the sense of IsEqual); != is the negation; their is_hermitian decides hermiticity, M(i,j) = conj(M(j,i)) for all i and j, although only one triangle is inspected.", "quantifier": "all dimensions and functions", "why_tests_cant": "All functions.", "anchors": ["include/ieompp/types/function_matrix.hpp"]}
{"id": "C40", "title": "Eigen triplet list: declared shape and sort order", "statement": "Sorting permutes the entries, keeps the declared row count, sort_row_major orders by column and sort_column_major by row (the names are swapped, defect), and cols() always returns the row count given to the constructor, not the column count (defect).", "quantifier": "all lists", "why_tests_cant": "All lists.", "anchors": ["include/ieompp/types/eigen/triplet_list.hpp"]}
{"id": "C41", "title": "Expectation-value table lookups are in range and translation invariant", "statement": "For all site pairs of a chain the lookup by lattice distance is inside the table and gives the Fermi-sea average (1/2pi) int cos(k d dx) dk over |k| <= k_F = filling*pi of the infinite chain; it is symmetric, translation invariant, and ev(a,a) is the filling. For the square lattice with equal sides every lookup is inside the table and gives the average over |kx|+|ky| <= pi of the half-filled infinite lattice, symmetric with diagonal 1/2; on rectangles every pair whose computed distances are at most half the sides is looked up correctly, but on every lattice with Ny >= Nx + 2, and for Ny + 2 <= Nx <= 2 Ny - 1, there is a pair of sites whose lookup leaves the table (defect).", "quantifier": "all N, fillings, pairs", "why_tests_cant": "Out-of-range reads are undefined behaviour and depend on N parity.", "anchors": ["include/ieompp/models/hubbard_real_space/expectation_value.hpp"]}
{"id": "C42", "title": "Site occupation is real and independent of the inversion-symmetry shortcut", "statement": "For every coefficient vector, basis of a shipped lattice and symmetric one-particle function, the half-sum shortcut and the full double sum of the site occupation return the same complex number, and its imaginary part is 0; the full sum is sum_ij e_ij v_i conj(v_j)/2 with e_ij the code's expectation values of basis element i and the conjugate of basis element j.", "quantifier": "all vectors, all basis sizes", "why_tests_cant": "All vectors.", "anchors": ["include/ieompp/models/hubbard_real_space/site_occupation.hpp: operator()"]}
{"id": "C43", "title": "Three-operator expectation values follow Wick's theorem", "statement": "For a paramagnetic Slater determinant psi with real density matrix rho(i,j) = <c+_i c_j>, every expectation value the site occupation uses for basis elements a, b equals 2 <B_a^+ psi | B_b^+ psi> (B the basis operators c+_i and c+_i1 (2 c+_i2 c_i3 - delta)), and the site occupation is <psi| A A^+ |psi> for A = sum_k v_k B_k, for the one- and the three-operator basis.", "quantifier": "all site triples and all one-particle density matrices", "why_tests_cant": "All index coincidences.", "anchors": ["include/ieompp/models/hubbard_real_space/site_occupation.hpp: expectation_value_1_1, expectation_value_1_3, expectation_value_3_1, expectation_value_3_3"]}
{"id": "C44", "title": "Parallel reductions do not depend on the schedule", "statement": "Interleaving the loads and stores of the threads' '+=' in any way, the per-thread accumulation followed by the final sum gives the sum over all iterations (exact arithmetic) for every number of threads and every assignment and order of iterations; no two threads touch the same element; every assignment has a complete interleaving; hence the site occupation has one value for all schedules.", "quantifier": "all thread counts and schedules", "why_tests_cant": "Tests run one schedule.", "anchors": ["include/ieompp/models/hubbard_real_space/site_occupation.hpp", "include/ieompp/models/hubbard_real_space/fermi_jump/1d.hpp", "include/ieompp/models/hubbard_real_space/fermi_jump/2d.hpp"]}
{"id": "C45", "title": "Fermi jump may be evaluated for bases of different size in one process", "statement": "Every history of Fermi-jump evaluations in one process whose bases are never larger than that of the first evaluation returns, for every schedule, |sum_i f_i (h_i + sum_jk (2<c+_j c_k> - delta_jk) h_ijk)|^2 of the current arguments alone; (defect) the first later evaluation with a larger basis writes outside of the static buffer.", "quantifier": "all call histories", "why_tests_cant": "A history property: static local buffers only fail on the second call.", "anchors": ["include/ieompp/models/hubbard_real_space/fermi_jump/1d.hpp: operator()"]}
{"id": "C46", "title": "Fermi-jump factor tables are initialised before they are read", "statement": "Constructing the three-operator fermi-jump objects (1d, 2d) only writes inside the table, which afterwards holds (cos, sin)(k_F r_i) for every site i; (defect) the one-operator object and both FermiJump1D_NO objects write outside of a table of size 0 for every lattice with at least one site.", "quantifier": "all N", "why_tests_cant": "Undefined behaviour that usually appears to work.", "anchors": ["include/ieompp/models/hubbard_real_space/fermi_jump/1d.hpp", "include/ieompp/models/hubbard_real_space/fermi_jump_no.hpp"]}
{"id": "C47", "title": "Excited Fermi sea tracks occupation exactly", "statement": "For any sequence of calls of apply_monomial, apply_operator, create_particle and annihilate_particle on a fresh object, the object vanishes exactly when the operator product annihilates the Fermi sea (Pauli principle); otherwise an orbital is reported occupied exactly when it is occupied in the product state, and is_initial_fermi_sea is true exactly for the Fermi sea. Applying a monomial without vanishing and then its conjugate restores the state before, at any point of the history.", "quantifier": "all operator sequences and dispersions", "why_tests_cant": "All histories.", "anchors": ["include/ieompp/models/hubbard_momentum_space/excited_fermi_sea.hpp"]}
{"id": "C48", "title": "apply_monomial reports success and failure consistently", "statement": "create_particle and annihilate_particle return true exactly when the state has not vanished afterwards. apply_monomial and apply_operator (defect: inverted) return true exactly when this very call made the state vanish; on an already vanished object they return false, like on success.", "quantifier": "all states and monomials", "why_tests_cant": "All histories.", "anchors": ["include/ieompp/models/hubbard_momentum_space/excited_fermi_sea.hpp: apply_monomial"]}
{"id": "C49", "title": "Non-vanishing expectation values are complete and correct", "statement": "The list of (left index, right index, value) contains exactly the pairs of basis operators c+ (2 c+ c - delta) whose expectation value <FS| B_i B_j^+ |FS> is non-zero, each once. The value is right for elements without Kronecker term; otherwise (defect) it is the value for c+ (2 c+ c + delta): for q occupied and any k, the entry of c+_q c+_k c_k with c+_q is 3 or 1 instead of 1 or -1. The comparison used by sort() is a strict total order on the index pairs.", "quantifier": "all N, q, Fermi energies", "why_tests_cant": "All sizes/occupations.", "anchors": ["include/ieompp/models/hubbard_momentum_space/non_vanishing_expectation_values.hpp"]}
{"id": "C50", "title": "Momentum-space particle number is real", "statement": "The particle number computed from the non-vanishing expectation values equals the real part of the full double sum over the basis of h_i conj(h_j) <FS| B_i B_j^+ |FS> (with the values of the list, B = c+ (2 c+ c + delta)), and the accumulated imaginary part is exactly zero. It is n_q |h_0 + sum_k (1 + 2 n_k) h_(q,k)|^2 + 4 sum over k1 <> q, k2 of n_k1 n_k2 (1 - n_(k1+k2-q)) |h_(k1,k2)|^2 with n_k = 1 for momenta below the Fermi energy and 0 otherwise, hence never negative.", "quantifier": "all vectors", "why_tests_cant": "All vectors.", "anchors": ["include/ieompp/models/hubbard_momentum_space/particle_number.hpp"]}
{"id": "C51", "title": "An RK4 step is the fourth-order Taylor polynomial of the propagator", "statement": "For a constant matrix M and step h a step maps y to (1 + hM + (hM)^2/2 + (hM)^3/6 + (hM)^4/24) y; it is linear in y, independent of previous steps (no stale buffers), and n steps give the n-th power.", "quantifier": "all matrices, dimensions, step sizes, vectors, step counts", "why_tests_cant": "All inputs; static/reused buffers are a history property.", "anchors": ["include/ieompp/ode/rk4.hpp: RK4::step"]}
{"id": "C52", "title": "RK4 with a function matrix equals RK4 with the tabulated matrix", "statement": "Stepping with a function matrix gives the same vector as stepping with the matrix of its entries, in any arithmetic (so also with rounding), for every distribution of the rows over parallel threads.", "quantifier": "all functions, dimensions, vectors", "why_tests_cant": "All inputs.", "anchors": ["include/ieompp/ode/rk4.hpp: RK4::step", "include/ieompp/types/function_matrix.hpp"]}
{"id": "C53", "title": "Measurement schedule of the time loop", "statement": "For dt > 0 the simulation terminates after the first n steps that reach t_end (ceil(t_end/dt) in exact arithmetic) and writes exactly the lines for step 0, m, 2m, ... <= n with m = max(1, measurement interval), each with the observable of the state after that many integration steps; this also holds with rounded arithmetic of relative error u while 32 u n^2 <= 1 (double precision: 2^24 steps). has_time_interval_passed is false for t <= last and monotone in t. The final state is not measured unless m divides n, and for dt <= 0 the program never ends (defects).", "quantifier": "all dt, t_end, intervals, integrators, observables, rounding functions", "why_tests_cant": "All parameters and run lengths; rounding drift only shows after many steps.", "anchors": ["src/hubbard/include/common.hpp: has_time_interval_passed", "src/hubbard/hubbard_real_1d_rk4.cpp: main"]}
{"id": "C54", "title": "Dispersion is bounded, even and periodic", "statement": "The dispersion table has one value -2J sum_v cos(k.v) per momentum, |eps| <= 2|J|d, eps(-k) = eps(k) and (N even, spacing 1) eps(k+pi) = -eps(k) under the index maps of the zone; for even N the plane waves of the zone are eigenvectors of the kinetic matrix with exactly these energies; for odd N the zone is not that of the periodic chain: the energy of its first momentum is no eigenvalue of the kinetic matrix (defect).", "quantifier": "all N, J, momenta", "why_tests_cant": "All values.", "anchors": ["include/ieompp/models/hubbard/dispersion.hpp"]}
{"id": "C55", "title": "Integer iterator arithmetic obeys the random-access laws", "statement": "(it + n) - n and (it += n) followed by it - n restore it, (a + n) - a is n, ++ and -- add and subtract one and undo each other, it[n] is it + n, and the comparisons are those of the values, all modulo 2^64. it -= n (defect) adds n, so it does what it - n does only for n = 0 or n = 2^63.", "quantifier": "all values and offsets", "why_tests_cant": "All offsets.", "anchors": ["include/ieompp/iterators/integer_iterator.hpp"]}
{"id": "C56", "title": "Comment and blank lines, and only those, are skipped", "statement": "is_skippable_line is true exactly for lines of white space optionally followed by # and a text without line terminators; next_line returns the first line that is not of this form (also if it is an unterminated last line) and leaves the stream right behind it, so repeated calls return all such lines in order. (defect) A carriage return is not matched after #, so in a file with DOS line ends every comment line is returned as data.", "quantifier": "all strings/files", "why_tests_cant": "All strings.", "anchors": ["include/ieompp/io/line.hpp: is_skippable_line, next_line"]}
{"id": "C57", "title": "Reading lines terminates at the end of the file", "statement": "next_line returns iff some remaining line (an unterminated last line counts) is neither blank nor a comment. (defect) Otherwise, in particular at the end of a file or on a stream whose eof or fail bit is set, it never returns.", "quantifier": "all files", "why_tests_cant": "Non-termination cannot be observed by a test.", "anchors": ["include/ieompp/io/line.hpp: next_line"]}
{"id": "C58", "title": "A triplet list survives a write/read round trip", "statement": "write_triplet_list (text mode) writes the number of elements and one tab-separated line per element in order; next_line can read these lines back, and the text determines the elements whenever the printed form determines the scalar; binary mode writes nothing. (defect) read_triplet_list consumes the file but never changes the list, so no non-empty list survives the round trip, and it never returns on a file that could not be opened.", "quantifier": "all lists", "why_tests_cant": "All lists.", "anchors": ["include/ieompp/io/triplet_list.hpp"]}
{"id": "C59", "title": "File headers are complete comment blocks", "statement": "write_header writes the creation time and, for each description before the first empty one, a line # and one line per entry; with the default prefix and texts without line ends all lines are comments, so next_line skips them; all values are aligned in one column, the creation time too iff the longest key has at least 6 characters. (defect) Everything after an empty description and the value of an entry with an empty key are lost.", "quantifier": "all descriptions", "why_tests_cant": "All strings incl. empty lines.", "anchors": ["include/ieompp/io/file_header.hpp"]}
{"id": "C60", "title": "Restarting from a checkpoint keeps the earlier measurements", "statement": "If the n-th measurement is a complete line, clean_output_file copies all lines up to it, in order, n = 0 copies nothing. (defect) The newlines are dropped: the new file is one line, and if the old file starts with a comment that line is a comment, so no reader finds a measurement again. (defect) With fewer than n measurements it never returns, or, if the last line is an unterminated measurement, that line is copied repeatedly until n is reached; called after the start-up of a program, which truncates the output file, it never returns.", "quantifier": "all files and n", "why_tests_cant": "All crash points.", "anchors": ["src/hubbard/include/checkpoint.hpp: clean_output_file"]}
{"id": "C61", "title": "Printing a tuple shows each component", "statement": "print_tuple prints left, the components separated by the delimiter, and right. (defect) Every position shows the last component, so the output is right only if all components print alike (for components of equal printed length, exactly then). compose concatenates the printed arguments.", "quantifier": "all tuples", "why_tests_cant": "All tuples.", "anchors": ["include/ieompp/tuple.hpp"]}
{"id": "C62", "title": "Number helpers satisfy the complex-number identities", "statement": "multiply_with_conjugate(a,b) = a*conj(b), add_conjugate_products(a,b) = a conj(b) + conj(a) b (real), conjugate is an involutive automorphism, IsZero/IsEqual are |.| < eps tests with IsEqual(a,b) = IsZero(a-b), reflexive, symmetric, invariant under conjugation, transitive only up to a doubled tolerance.", "quantifier": "all numbers", "why_tests_cant": "All numbers.", "anchors": ["include/ieompp/types/number/complex.hpp", "include/ieompp/types/number/is_zero.hpp", "include/ieompp/types/number/is_equal.hpp"]}
{"id": "C63", "title": "Filling a dense matrix from a function", "statement": "init writes f(i,j) to every entry (i,j) of the matrix; init_symmetric calls f only on and below the diagonal, mirrors the value, and yields a symmetric matrix whose lower triangle is f.", "quantifier": "all dimensions and functions", "why_tests_cant": "All dimensions.", "anchors": ["include/ieompp/types/eigen/init.hpp"]}
{"id": "C64", "title": "The integrated equation is the projected Heisenberg equation of motion", "statement": "For every coefficient vector h, component k of (i M) h, the right-hand side integrated by the programs, is the coefficient of basis operator k in the Frobenius projection of i[H, sum_j h_j B_j] on the basis, for the real-space Hubbard matrix on chains and square lattices and for the momentum-space matrix. For the one-operator basis of the kinetic programs no projection is needed: i[H, sum_j h_j B_j] is exactly sum_k (iMh)_k B_k.", "quantifier": "all lattices (>= 3 sites per side), parameters, coefficient vectors, components", "why_tests_cant": "All sizes and vectors; the row/column convention only shows for non-symmetric data.", "anchors": ["include/ieompp/models/hubbard_real_space/blaze_sparse.hpp: init_matrix", "src/hubbard/real_space/matrix.hpp: compute_matrix", "include/ieompp/ode/rk4.hpp"]}
{"id": "C65", "title": "RK4 changes the norm by an explicit higher-order amount", "statement": "For every anti-hermitian matrix L, every vector u and real step h one RK4 step u -> u' satisfies 576(<u',u'> - <u,u>) = h^8 <L^4 u, L^4 u> - 8 h^6 <L^3 u, L^3 u> exactly: the norm is conserved up to sixth order.", "quantifier": "all dimensions, anti-hermitian matrices, vectors, steps (exact arithmetic)", "why_tests_cant": "All inputs.", "anchors": ["include/ieompp/ode/rk4.hpp: RK4::step"]}
{"id": "C66", "title": "The generator of the real-space programs is anti-hermitian for real parameters", "statement": "For real J and U the matrix i*M built by compute_matrix is anti-hermitian, hence every time step of the program obeys the exact norm balance of an anti-hermitian generator. Both hold for the kinetic programs as well.", "quantifier": "all lattices (>= 3 sites per side), real J, U, dt, vectors", "why_tests_cant": "All sizes.", "anchors": ["include/ieompp/models/hubbard_real_space/blaze_sparse.hpp: init_matrix", "src/hubbard/real_space/matrix.hpp: compute_matrix"]}
{"id": "C67", "title": "The initial vector represents the creator on site 0", "statement": "init_vector gives a vector of the basis size whose operator sum_j h_j B_j is c+_{0,up}, for every basis of the shipped lattices. The same holds for the one-operator basis of the kinetic programs.", "quantifier": "all lattices and basis sizes", "why_tests_cant": "All sizes.", "anchors": ["src/hubbard/include/vector.hpp: init_vector"]}
{"id": "C68", "title": "The site occupation is never negative", "statement": "With the one-particle expectation values of any paramagnetic Slater determinant (real density matrix) the site occupation computed for the three-operator basis is real and >= 0 for every coefficient vector and both settings of the inversion-symmetry switch. The same holds for the one-operator basis. (Defect: the averages the programs ship, those of the infinite chain taken at the distance on the ring, are not those of any state of the ring: on 4, 12, 20, ... sites at half filling the measured occupation of the coefficients 1, -1, 1, -1, ... is negative.)", "quantifier": "all lattices, determinants, vectors, schedules (exact real arithmetic)", "why_tests_cant": "All vectors; a sign error in one Kronecker term only shows for special coefficient vectors.", "anchors": ["include/ieompp/models/hubbard_real_space/site_occupation.hpp: operator()"]}
{"id": "C69", "title": "The Fermi jump measures the anticommutator with the annihilator at k_F", "statement": "For a paramagnetic Slater determinant psi with real density matrix the Fermi jump computed from the coefficient vector v of the three-operator basis is |sum_i f_i <psi| {A, c_i} |psi>|^2 with A = sum_k v_k B_k and f_i the factor table of the object.", "quantifier": "all lattices, determinants, vectors, factor tables, schedules", "why_tests_cant": "All vectors and occupations; only the normal-ordering prefactors make the equality true.", "anchors": ["include/ieompp/models/hubbard_real_space/fermi_jump/1d.hpp: operator()", "include/ieompp/models/hubbard_real_space/fermi_jump/2d.hpp: operator()"]}
{"id": "C70", "title": "A triplet list reports its dimensions and sorts by the named order", "statement": "rows() is the number of rows given to the constructor; matrix_insert appends exactly one element and changes no dimension. (defect) cols() returns the number of rows, so it is right only for square lists. (defect) sort_column_major orders by the row and sort_row_major by the column, and by nothing else: a list in column-major order can lose that order.", "quantifier": "all lists, dimensions and admissible results of std::sort", "why_tests_cant": "All lists and tie-breakings of an unstable sort.", "anchors": ["include/ieompp/types/eigen/triplet_list.hpp: TripletList, matrix_insert"]}
{"id": "C71", "title": "Cleaning the output file keeps a backup at every crash point", "statement": "At every crash point of clean_output_file the complete old contents is in the output file or in its .bak file and no other file has changed; while it runs the new file holds a beginning of the text described in C60, at the end all of it; if the output file does not exist the call throws without changing a file. (defect) If the call is interrupted and repeated, the backup is replaced by the truncated file and the old contents is lost.", "quantifier": "all files, entry counts, crash points and buffer flushes", "why_tests_cant": "Crash points and flush times cannot be enumerated by tests.", "anchors": ["src/hubbard/include/checkpoint.hpp: clean_output_file"]}
{"id": "C72", "title": "Checkpoint files are numbered consecutively and completed in order", "statement": "Within a run the i-th call of write_checkpoint_file creates <prefix>i.blaze and <prefix>i.info, no two calls use the same file and no other file changes; at every crash point the archive is complete if the info file has been touched. (defect) The numbers restart at 0 in every run: a second run overwrites the first checkpoints of the earlier run and keeps the later ones, and a crash can leave a new archive with an old info file.", "quantifier": "all numbers of calls below 2^64, archives, times, crash points", "why_tests_cant": "All histories of calls, runs and crash points.", "anchors": ["src/hubbard/include/checkpoint.hpp: write_checkpoint_file"]}
{"id": "C73", "title": "The command line overrides the response file, which overrides the defaults", "statement": "After start-up every option has the value of the command line if given there, else of the first line of the response file giving it, else its default; an option given twice on the command line is an error, and so is a line --key=value of the response file whose value is empty or whose key begins no option name. (defect) If the response file does not exist the program never gets beyond reading it.", "quantifier": "all option sets, command lines and response files with lines --key=value or not beginning with -", "why_tests_cant": "All combinations of options.", "anchors": ["src/hubbard/include/cli.hpp: read_response_file, parse_command_line_options", "src/hubbard/include/application.hpp: Application::Application"]}
{"id": "C74", "title": "A run can be repeated from its response file", "statement": "A run without response file writes all options to <out without extension>.rsp; a second run given only this file has the same value for every option except response_file. (defect) The output path of the second run is not the one in the file: it is the one of the command line or the default.", "quantifier": "all option sets and command lines without line ends and empty values", "why_tests_cant": "All values.", "anchors": ["src/hubbard/include/cli.hpp: read_response_file, parse_command_line_options", "src/hubbard/include/application.hpp: Application::Application"]}
{"id": "C75", "title": "The output file starts with the parameters as comments", "statement": "Every line of the header written by a program is a comment (if no text contains a line end); in a run without response file the listed options are the values used. (defect) In a run with a response file options set by the file are listed with their defaults.", "quantifier": "all option sets, command lines, response files, platform texts", "why_tests_cant": "All values.", "anchors": ["src/hubbard/include/application.hpp: Application::Application"]}
{"id": "C76", "title": "The files of a run have distinct paths", "statement": "The response, log, matrix and checkpoint paths are the output path with its extension replaced; after start-up the response path holds the options, the output file is empty and no other file than the log has changed. (defect) With an output file *.rsp (*.log) the response (log) path is the output path, and the response file is lost; the old contents of the output file is lost in every case.", "quantifier": "all output paths and file systems", "why_tests_cant": "All paths.", "anchors": ["src/hubbard/include/application.hpp: Application::Application"]}
{"id": "C77", "title": "Time evolution is stable below an explicit step size", "statement": "For real J, U, dt with dt (3 z |J| + |U|) <= sqrt 8 (z the number of nearest neighbours) the norm of the coefficient vector never grows, however many RK4 steps are made with the generator i*M of the real-space Hubbard matrix. For the kinetic matrix alone the norm never grows for any start vector exactly if dt z |J| <= sqrt 8: above it the uniform vector grows in every step.", "quantifier": "all lattices (>= 3 sites per side), real J, U, dt, start vectors, numbers of steps (exact arithmetic)", "why_tests_cant": "All sizes, vectors and numbers of steps; instability shows only after many steps.", "anchors": ["include/ieompp/ode/rk4.hpp: RK4::step", "include/ieompp/models/hubbard_real_space/blaze_sparse.hpp: init_matrix, init_kinetic_matrix", "src/hubbard/real_space/matrix.hpp: compute_matrix"]}
{"id": "C78", "title": "Time evolution converges to the exact solution with a known error", "statement": "dh/dt = i M h has exactly one solution for every start vector, and its norm is constant. After k RK4 steps of size dt (dt L <= sqrt 8, L = 3 z |J| + |U|, for the kinetic matrix L = z |J|) the coefficient vector differs from the exact solution at t = k dt by at most t dt^4 L^5 / 120 times the norm of the start vector. For the kinetic programs the operator sum_j h_j(t) c+_j of the exact solution obeys the Heisenberg equation dA/dt = i[H, A] exactly, in every matrix element.", "quantifier": "all lattices (>= 3 sites per side), real J, U, dt, start vectors, numbers of steps (exact arithmetic)", "why_tests_cant": "All sizes, vectors, times; the exact solution is not available to a test.", "anchors": ["include/ieompp/ode/rk4.hpp: RK4::step", "include/ieompp/models/hubbard_real_space/blaze_sparse.hpp: init_matrix, init_kinetic_matrix", "src/hubbard/real_space/matrix.hpp: compute_matrix"]}
{"id": "C79", "title": "The exact coefficients of the theory program are the infinite chain", "statement": "The coefficients (-i)^d J_d(2t) computed by hubbard_real_1d_kinetic_theory solve dh_j/dt = -i (h_{j-1} + h_{j+1}), h_j(0) = delta_{j,0} on the infinite chain. On the ring of N sites they differ from the exact solution by at most t^M/M! (N = 2M) or sqrt 2 (t^{M+1}/(M+1)! + t^{M+2}/(M+2)!) (N = 2M+1), and from the RK4 run of the kinetic program (J = 1, dt <= sqrt 2, unit start vector) by at most that plus 4/15 t dt^4. The value written for a time step is the real number sum_ij ev(i,j) h_i conj(h_j) for every number of threads, distribution and interleaving. (defect) They never solve the ring exactly; the expectation values are constructed with filling 1 and k_F = 1/2, so the program writes 1 at t = 0 where the half-filled chain has 1/2.", "quantifier": "all N >= 3 (the program: 128), times, step sizes, schedules (exact arithmetic)", "why_tests_cant": "All sizes, times and schedules; the exact solution of the ring is not available to a test.", "anchors": ["src/hubbard/hubbard_real_1d_kinetic_theory.cpp: minus_i_power, main", "include/ieompp/models/hubbard_real_space/expectation_value.hpp: ExpectationValue1DHalfFilled", "include/ieompp/lattices/periodic_chain.hpp: lattice_distance"]}
{"id": "C80", "title": "Printed operators, monomials and terms are distinct", "statement": "Two operators, non-empty monomials or terms of the same type (any number of bool, integer and text indices) print the same characters only if they are equal, and two terms with symbolic prefactor only if value, deltas (in order) and operators are equal, whether or not arrows are enabled, if no text index contains a comma or closing brace and equal prefactor values are recognised by their text. For Hubbard terms with integer prefactors there is no condition. (defect) Names are not escaped: (\"a,b\",\"c\") and (\"a\",\"b,c\") print alike; printing an empty monomial or a term without operators is undefined behaviour.", "quantifier": "all operators, monomials, terms, prefactors", "why_tests_cant": "All names and lengths.", "anchors": ["include/ieompp/algebra/operator/io.hpp: operator<<, PrintHelper", "include/ieompp/algebra/monomial/io.hpp: operator<<", "include/ieompp/algebra/term/io.hpp: operator<<", "include/ieompp/algebra/kronecker.hpp: operator<<", "include/ieompp/symbolic/prefactor.hpp: operator<<"]}
{"id": "C81", "title": "The commutator programs print the commutators of the Hubbard model", "statement": "hubbard_commutators_real_space and hubbard_commutators_momentum_space print one fixed text, whichever string literals the compiler pools and however std::sort treats ties. Under every assignment of sites (momenta) to the symbols the terms printed in a section add up to the commutator of the section's Hamiltonian terms with its operator; summed over any list of bonds or sites (momenta, scattering processes) they add up to the commutator with the hopping or interaction (kinetic or interaction) operator of that list.", "quantifier": "all literal addresses, sort results, assignments of sites or momenta, lists of bonds, states", "why_tests_cant": "All assignments, compilers and sort algorithms.", "anchors": ["src/hubbard/hubbard_commutators_real_space.cpp: main", "src/hubbard/hubbard_commutators_momentum_space.cpp: main", "include/ieompp/algebra/commutator.hpp: commutate", "include/ieompp/symbolic/prefactor.hpp: order_kroneckers"]}
{"id": "C82", "title": "Momentum-space program prints the projected particle number at t = 0 and t = 8 dt", "statement": "For every N, J, U and dt (with N (1 + 3N) below 2^64), every order of the parallel conjugation and every content of the integrator's static buffers, the momentum-space program completes and prints exactly two numbers, whatever t_end and measurement_interval are (defect: both options are ignored). The first is 1 if the central momentum N/2 has energy -2J cos k below zero and 0 otherwise (even N: k = 0, energy -2J); the second is never negative. For real J, U and dt (6|J| + |U|) <= sqrt 8 the second is at most 1 + 9N and differs from the particle number of the unique exact solution of the projected equation of motion (energies on the diagonal, U/(2N) between c+_q and every other basis element) at time 8 dt by at most 2 (1 + 9N) 8 dt^5 (6|J| + |U|)^5 / 120.", "quantifier": "all N, J, U, dt, option values, thread orders and buffer contents", "why_tests_cant": "A run compares one parameter set with numbers that have no independent reference; the bound holds for all parameters and the exact solution.", "anchors": ["src/hubbard/hubbard_momentum_1d_rk4.cpp main", "src/hubbard/momentum_space/momentum_space.hpp compute_matrix", "include/ieompp/models/hubbard_momentum_space/particle_number.hpp ParticleNumber", "include/ieompp/ode/rk4.hpp step"]}
{"id": "C83", "title": "Small test program: coefficients converge, printed occupation lacks a conjugation", "statement": "hubbard_trivial writes steps + 1 lines, line k with time k dt, four coefficients and a particle number. For dt (2|J| + |U|) <= sqrt 8 the norm of the coefficients never exceeds 1 and they differ from the unique exact solution of the 4x4 equation of motion at time k dt by at most k dt dt^4 (2|J| + |U|)^5 / 120. The number written equals sum_ij h_i conj(h_j) <A_i A_j^+>, which is real, plus 2i sum over i <> j of <A_i A_j^+> h_i Im h_j (defect: products of different coefficients are taken without complex conjugation); with the built-in parameters the second line has a non-zero imaginary part.", "quantifier": "all J, U, dt, numbers of steps, buffer contents and coefficient vectors", "why_tests_cant": "The program has no reference values; the error bound and the deviation formula hold for all parameters and times.", "anchors": ["src/hubbard/hubbard_trivial.cpp main, particle_number, write_state", "include/ieompp/ode/rk4.hpp step"]}
{"id": "C84", "title": "Sparse matrices as text files", "statement": "read_matrix of a text whose content lines (those neither blank nor comments) are a line '<rows>x<cols>' (white space allowed), a line starting with a number n, and n lines 'row column value' at different positions inside the matrix returns, with the matrix having exactly these dimensions and exactly these elements; blank lines and comments may stand anywhere and whatever follows the n-th entry stays in the stream. A first content line of another form throws IOException and leaves the matrix untouched. The output of write_matrix, put behind such two header lines, is read back element by element for every value type whose printed form its input operator understands. (defect) write_matrix does not write the two header lines: reading back what it wrote throws whenever an element is stored and never returns otherwise; (defect) a file with fewer content lines than announced makes the call hang; (defect) for a row-major matrix with more rows than columns the behaviour is undefined; (defect) a second content line that does not begin with a number, or a number of entries of 2^63 or more, is not reported: no entry is read, the matrix gets its dimensions and no element, and the entry lines stay in the stream; (defect) dimensions larger than the storage index type can hold are not reported but undefined behaviour; (defect) an entry line that does not begin with a number is not reported: as first entry it is undefined behaviour, later it is read as the element of row 0 with column and value of the entry before it.", "quantifier": "all texts (any lines, comments, white space, numbers with any number of digits), all matrices, both storage orders, all value types", "why_tests_cant": "the space of files is infinite, and a call that never returns cannot be observed by a test", "anchors": ["include/ieompp/io/eigen/sparse.hpp: write_matrix, read_matrix", "include/ieompp/io/line.hpp: next_line"]}
{"id": "C85", "title": "Products when both sides are the same object", "statement": "For two different monomials x *= y appends the operators of y to x and changes nothing else, and x * y is a new monomial with the operators of x followed by those of y whether or not x and y are the same object, which keep their values; the same holds for terms with symbolic prefactor (numbers multiplied, Kronecker deltas and operators appended). (defect) x *= x is only right if the vector of x has room for all but one of the elements to be appended, that is capacity + 1 >= 2 size; otherwise, in particular right after the construction from at least two operators, it reads through iterators into memory already given back. For a term both the vector of Kronecker deltas and that of operators must have this room.", "quantifier": "all objects, the same or different, all sizes, all capacities and growth policies of the vectors", "why_tests_cant": "whether a self-product works depends on the hidden capacity, that is on the history of the vector and the growth policy of the standard library; a test sees one of them and undefined behaviour may look right", "anchors": ["include/ieompp/algebra/monomial/monomial.hpp: operator*=, operator*", "include/ieompp/algebra/term/term.hpp: operator*=, operator*", "include/ieompp/symbolic/prefactor.hpp: operator*="]}
{"id": "C86", "title": "What the coefficient programs print", "statement": "The programs hubbard_real_1d_rk4_coefficients and hubbard_real_1d_kinetic_rk4_coefficients complete and write one line for step 0 and for every measurement_interval-th step up to the end time, and no other. The first line holds the coefficients (1, 0, 0, ...). Every line has one complex number per basis element, and for dt L <= sqrt 8 (L = 6|J|+|U|, respectively 2|J|) their squares never sum to more than 1 and the numbers of step k differ from the one exact solution of the equation of motion at time k dt by at most k dt dt^4 L^5 / 120 in the Euclidean norm -- whatever the contents of the static buffers and however the time variable is rounded.", "quantifier": "all N >= 3 within the 64-bit capacity, all J, U, dt > 0, t_end, measurement intervals, time roundings with relative error u as long as 32 u steps^2 <= 1, sorting functions and initial buffer contents; coefficients in exact arithmetic", "why_tests_cant": "The bound and the schedule concern the whole run for every parameter; a test compares a few runs with reference values.", "anchors": ["src/hubbard/hubbard_real_1d_rk4_coefficients.cpp main", "src/hubbard/hubbard_real_1d_kinetic_rk4_coefficients.cpp main", "src/hubbard/real_space/matrix.hpp compute_matrix compute_kinetic_matrix", "src/hubbard/include/vector.hpp init_vector", "src/hubbard/include/rk4.hpp init_rk4"]}
{"id": "C87", "title": "What the site occupation programs print", "statement": "The programs hubbard_real_1d_rk4 and hubbard_real_1d_kinetic_rk4 complete and write one line for step 0 and for every measurement_interval-th step up to the end time, and no other. The first value is the filling factor. Every value is real (the assertion on the imaginary part never fails) and equals, up to 10 (N+N^3) (respectively 2 N) times k dt dt^4 L^5 / 120, the sum over all pairs of basis elements of their Wick expectation value in the Fermi sea times Re(y_r y_s^*) for the exact solution y at time k dt -- for every number of threads, distribution of the iterations and interleaving, each measurement having its own; for every distribution there are interleavings with which all measurements finish.", "quantifier": "all N >= 3 within the 64-bit capacity, all J, U, fillings in [0, 1], dt > 0 with dt L <= sqrt 8, t_end, measurement intervals, time roundings, thread counts and schedules per measurement; coefficients in exact arithmetic", "why_tests_cant": "The claim is about every schedule of every measurement and every parameter of a complete run.", "anchors": ["src/hubbard/hubbard_real_1d_rk4.cpp main", "src/hubbard/hubbard_real_1d_kinetic_rk4.cpp main", "src/hubbard/real_space/site_occupation.hpp init_site_occupation", "src/hubbard/real_space/expectation_value_1d.hpp init_expectation_value", "include/ieompp/models/hubbard_real_space/site_occupation.hpp SiteOccupation"]}
{"id": "C88", "title": "What the Fermi jump programs print", "statement": "The programs hubbard_real_1d_rk4_jump (N >= 3 sites, any filling factor in [0,1]) and hubbard_real_2d_rk4_jump (N x N sites, N >= 3, any kx, ky) complete and write one line for step 0 and for every measurement_interval-th step up to the end time, and no other. The first value is 1. For dt L <= sqrt 8 every value lies between 0 and the basis size n, and differs from |sum_i e^{i k_F r_i} (y_i + sum_jk (2<c+_j c_k> - delta_jk) y_ijk)|^2, with y the unique exact solution of the equations of motion at time k dt and the averages taken in the Fermi sea, by at most 2 n (k dt) dt^4 L^5/120, L = 6|J| + |U| on the chain and 12|J| + |U| on the square. This holds for every distribution of the loop iterations over the threads and every interleaving, also those in the constructor and although all calls share one static buffer; for every distribution there are interleavings with which all loops finish.", "quantifier": "all sizes, J, U, filling factors, momenta, step sizes, end times, measurement intervals, roundings of the time, thread counts and schedules", "why_tests_cant": "A run shows one parameter set and one schedule, without reference values.", "anchors": ["src/hubbard/hubbard_real_1d_rk4_jump.cpp main", "src/hubbard/hubbard_real_2d_rk4_jump.cpp main", "src/hubbard/real_space/fermi_jump.hpp init_fermi_jump", "include/ieompp/models/hubbard_real_space/fermi_jump/1d.hpp FermiJump1D", "include/ieompp/models/hubbard_real_space/fermi_jump/2d.hpp FermiJump2D"]}
{"id": "C89", "title": "Symbolic index names never clash unless the user makes them", "statement": "Two symbolic indices compare equal exactly if their names are equal, != is the negation, and printing an index prints its name. Indices of one kind built by the default constructor or from an int are equal exactly if they were built from the same number (or both by default), and the printed names of indices of different kinds (space, momentum, spin) built that way never coincide; so the printed product of operators with such indices determines the product. (defect) The names are not reserved: Index(\"r_1\") equals Index(1), and names containing a comma make different operators print alike.", "quantifier": "every kind, every number, every two indices, every product of operators", "why_tests_cant": "a test compares a handful of numbers; freedom from clashes is a statement about all integers and all kinds", "anchors": ["include/ieompp/symbolic/index.hpp Index, operator==, operator<<", "include/ieompp/algebra/operator/io.hpp operator<<"]}
{"id": "C90", "title": "The dispersion program writes the complete band structure", "statement": "hubbard_dispersion_1d terminates, returns 0 and leaves in dispersion.txt exactly one line per site of the Brillouin zone of the chain of 1024 sites (the statement holds for every size), in increasing order of the wave vector k = -pi + 2 pi i/N, consisting of k, a tab and the energy -2 cos k, whatever the file contained before, and touches no other file. The wave vectors increase strictly from -pi and stay below pi, the energies lie in [-2,2], the maximum 2 is in the first line only, the minimum -2 only in the line of k = 0, and k and -k have equal energies. (defect) If the file cannot be opened nothing is written and the exit code is 0 all the same.", "quantifier": "every size of the chain, every prior content of the file system, every way of printing numbers", "why_tests_cant": "the program has no test; completeness of the table is a statement about every site", "anchors": ["src/hubbard/hubbard_dispersion_1d.cpp main", "include/ieompp/lattices/periodic_chain.hpp begin, end, operator[]", "include/ieompp/models/hubbard/dispersion.hpp Dispersion"]}
{"id": "C91", "title": "Rounding errors of the time evolution in double precision are bounded", "statement": "Every operation on doubles in the time evolution of the real-space programs rounds: the products and sums of the complex matrix-vector product (row by row, in storage order), the quotients dt/2 and dt/6 and the vector updates of the Runge-Kutta step.  With IEEE double precision (round to nearest even, gradual underflow; what an overflow returns is left open), exactly representable J and U/2, any chain or square lattice the programs can store, |dt| between 2^-1000 and 2^100, a row sum L = 3 z |J| + |U| (interacting) or z |J| (kinetic) of at most 2^500 with dt^2 L^2 <= 8, and a start vector u of length at most 2^200: after k <= 2^40 steps the computed vector differs from the one exact arithmetic would give by at most k (|u| 2^-41 + 2^-925) in the Euclidean norm, from the exact solution of the equations of motion by at most t dt^4 L^5/120 |u| more, and its length exceeds |u| by at most k (|u| 2^-41 + 2^-925).  Multiplying the matrix by i is exact.", "quantifier": "all lattices, couplings, step sizes within the stability bound, start vectors, numbers of steps up to 2^40, results of overflowing operations", "why_tests_cant": "a test compares a few numbers with a tolerance; the bound covers every rounding of every operation over up to 2^40 steps", "anchors": ["include/ieompp/ode/rk4.hpp: RK4::step", "src/hubbard/real_space/matrix.hpp", "src/hubbard/include/vector.hpp"]}
{"id": "C92", "title": "Positions and momenta in double precision lead to the right sites", "statement": "With every operation rounded to IEEE double precision (the constants pi and 2 pi, the spacing, the position of a site, sums and differences, the wrapping loops, the quotient before std::round): on a momentum-space chain with N <= 2^40 sites operator() maps every number within 2^-44 of the momentum of site i to i, so lattice(lattice[i]) == i; lattice(k_i1 + k_i2 - k_q) is site (i1 + i2 - q) mod N for all i1, i2, q, each wrapping loop running at most once; hence the momentum-space basis is, operator for operator, the one of exact arithmetic (C28).  On a real-space chain with N <= 2^50 sites and spacing between 2^-900 and 2^900, lattice(lattice[i]) == i. On a real-space chain with spacing 1 looking up any integer coordinate z with |z| <= 2^50 returns z mod N.", "quantifier": "all sizes, sites, triples of sites, spacings", "why_tests_cant": "which sites are hit depends on the last bits of pi, of the quotient 2 pi/N and of every intermediate sum; a test sees a few N", "anchors": ["include/ieompp/lattices/periodic_chain.hpp: operator[], operator()", "include/ieompp/models/hubbard_momentum_space/basis.hpp: Basis3Operator", "include/ieompp/constants.hpp"]}
{"id": "C93", "title": "Site occupation in floating point, for every thread schedule", "statement": "Computed with operations of relative error u and absolute error eta (in particular with doubles: u = 2^-53, eta = 2^-1075), the complex number the site-occupation measurement accumulates differs from the exact one by at most ((1+u)^k - 1) W + (1+u)^k 401 k eta in real and in imaginary part, whatever the number T of threads, the distribution of the iterations and the interleaving; k = n^2 + T + 6, W = 2 n |v|^2 for the one-operator basis (size n), k = n^2 + T + 12, W = 34 n |v|^2 for the three-operator basis, with and without the inversion-symmetry shortcut, for expectation values of magnitude at most 1 and |v|^2 <= 4. For doubles and k <= 2^50 that is at most k W / 2^52 + 2^-1000, also as distance to <A A^+> in the determinant the expectation values belong to; two runs with different schedules differ by at most the sum of both bounds. Only which thread executes which iterations in which order influences the rounding, not how the threads interleave, and some interleaving always completes. (defect) The assertion that the imaginary part is smaller than epsilon is not guaranteed: with the same input it holds for one distribution of the iterations over threads and fails for another.", "quantifier": "all bases, vectors, expectation values (|.| <= 1), numbers of threads, distributions of iterations, interleavings, and all arithmetics with the stated error bounds", "why_tests_cant": "dynamic scheduling makes the order of the rounded additions differ between runs; a test observes a few schedules of a few inputs", "anchors": ["include/ieompp/models/hubbard_real_space/site_occupation.hpp:SiteOccupation::operator()", "include/ieompp/types/number/complex.hpp:multiply_with_conjugate", "include/ieompp/types/number/complex.hpp:add_conjugate_products", "include/ieompp/types/number/is_zero.hpp:IsZero"]}
{"id": "C94", "title": "The real-space programs in double precision, from the start to the printed lines", "statement": "Run the four programs hubbard_real_1d(_kinetic)_rk4(_coefficients) with every double rounded (time variables, matrix times i, every Runge-Kutta step, every threaded measurement; assertions disabled) on a chain of N >= 3 sites with exactly representable J and U/2, a step size dt within the stability bound dt^2 L^2 <= 8 (L = 2|J|, or 6|J|+|U|) and at most 2^24 steps.  The program terminates; it writes a line after step 0 and after every multiple of the measurement interval and no other, the time t_k in the line of step k satisfies |t_k - k dt| <= k steps dt/2^52; the printed coefficients lie within k dt^5 L^5/120 + k/2^40 of the exact solution of the equations of motion at time k dt; the printed occupation differs from the exact occupation at time k dt by at most 3 N (k dt^5 L^5/120 + k/2^40) + 2 N delta + (N^2 + T + 6) N/2^50 + 2^-1000 for the kinetic program, and by 15 n (k dt^5 L^5/120 + k/2^40) + 42 n delta + 17 (n^2 + T + 12) n/2^50 + 2^-1000 with n = N + N^3 for the interacting one, for every number T of threads, distribution of the iterations and interleaving, where delta bounds the error of the table of initial expectation values (2^-53 if its elements are rounded correctly).", "quantifier": "all chain lengths, couplings, step sizes within the bound, end times, intervals, fillings, tables, thread counts, distributions and interleavings, results of overflowing operations", "why_tests_cant": "the programs have no tests; the bound adds up the discretisation and every rounding of millions of operations in an order which depends on the thread schedule", "anchors": ["src/hubbard/hubbard_real_1d_rk4.cpp: main", "src/hubbard/hubbard_real_1d_kinetic_rk4.cpp: main", "src/hubbard/hubbard_real_1d_rk4_coefficients.cpp: main", "src/hubbard/hubbard_real_1d_kinetic_rk4_coefficients.cpp: main", "include/ieompp/ode/rk4.hpp: RK4::step", "include/ieompp/models/hubbard_real_space/site_occupation.hpp: SiteOccupation::operator()", "src/hubbard/real_space/matrix.hpp"]}
{"id": "C95", "title": "Fermi jump in double precision", "statement": "Evaluating the Fermi jump of the three-operator basis in double precision (expectation values at most 1 in magnitude, Fourier factors with parts in [-1,1], no overflow) returns the exact jump of the same coefficients h up to k (3m + 2^-400)^2 / 2^49, where m is the sum of the magnitudes of the parts of h, k = N^2 + N + T + 6 and T is the number of threads: for every distribution of the iterations over the threads, every interleaving and every content of the static array from earlier calls. The normal-ordered coefficients are the same bits for every schedule; the returned number depends only on which thread executes which iterations of the second loop, in which order, so two schedules differ by at most the sum of their errors. In a Slater determinant the returned double is, up to that error, the squared modulus of the Fourier sum of <{A(t), c_i}>. Every distribution has a schedule that finishes.", "quantifier": "every lattice the library ships with N + N^3 < 2^64, every expectation-value table, every vector of coefficients with magnitudes up to 2^400, every number of threads with k <= 2^50, every schedule of both loops, every earlier content of the static array", "why_tests_cant": "The rounding errors depend on the order of the additions, which differs between runs; tests compare single runs with a tolerance and cannot bound the error for all inputs and schedules.", "anchors": ["include/ieompp/models/hubbard_real_space/fermi_jump/1d.hpp: FermiJump1D<Float, Basis3Operator>::operator()", "include/ieompp/models/hubbard_real_space/fermi_jump/2d.hpp: FermiJump2D<Float, Basis3Operator>::operator()"]}
{"id": "C96", "title": "The Fermi-jump programs in double precision, from the start to the printed lines", "statement": "Run hubbard_real_1d_rk4_jump (chain of N >= 3 sites) or hubbard_real_2d_rk4_jump (square lattice of N x N sites, N >= 3) with every double rounded (time variables, matrix times i, every Runge-Kutta step, every threaded evaluation of the Fermi jump, the static array of earlier evaluations included; assertions disabled), with exactly representable J and U/2, a step size within the stability bound dt^2 L^2 <= 8 (L = 6|J|+|U|, or 12|J|+|U|), at most 2^24 steps, a table of expectation values within delta of the exact Fermi sea and Fourier factors within eps of the exact ones (both with magnitudes at most 1; for factors rounded to the nearest double eps = 2^-53).  The program terminates; if its parallel loops finish (and for every distribution of the iterations there are interleavings with which they all do) it writes one line after step 0 and after every multiple of the measurement interval and no other; the time t_k in the line of step k satisfies |t_k - k dt| <= k steps dt/2^52 and the Fermi jump lies within 3 n (k dt^5 L^5/120 + k/2^40) + 144 n (delta + eps) + r n/2^43 of the jump of the exact solution at time k dt, where S is the number of sites, n = S + S^3 the number of coefficients, r = S^2 + S + T + 6 and T the number of threads: for every schedule of every evaluation.", "quantifier": "all lattice sizes, couplings, step sizes within the bound, end times, intervals, fillings, Fermi points, tables, thread counts, distributions and interleavings, results of overflowing operations", "why_tests_cant": "the programs have no tests; the bound adds up the discretisation and every rounding of millions of operations in an order which depends on the thread schedule", "anchors": ["src/hubbard/hubbard_real_1d_rk4_jump.cpp: main", "src/hubbard/hubbard_real_2d_rk4_jump.cpp: main", "include/ieompp/ode/rk4.hpp: RK4::step", "include/ieompp/models/hubbard_real_space/fermi_jump/1d.hpp: FermiJump1D<Float, Basis3Operator>::operator()", "include/ieompp/models/hubbard_real_space/fermi_jump/2d.hpp: FermiJump2D<Float, Basis3Operator>::operator()", "src/hubbard/real_space/matrix.hpp"]}
{"id": "C97", "title": "commutate into the vector that holds an argument", "statement": "commutate(a, b, c) with a std::vector c: if a and b are not elements of c the call is defined whatever the capacity of c, and appends the terms of C08/C10.  If a or b (or both) is an element of c, the call is defined if and only if the spare capacity of c is at least the number of pairs (operator of a, operator of b), the last pair not counted, which do not anticommute; then the result is that for copies of a and b.  So after reserving room for all new terms the call is right; (defect) on a full vector it reads through dangling references (undefined behaviour) as soon as one pair other than the last does not anticommute.", "quantifier": "all index and prefactor types (symbolic or not), all terms, containers, capacities, growth policies, both, either or none of the arguments inside the container", "why_tests_cant": "whether a reference dangles depends on the capacity of the vector and on the position of the last new term; a test with spare capacity passes", "anchors": ["include/ieompp/algebra/commutator.hpp: commutate"]}
{"id": "C98", "title": "Energies and Fermi sea in double precision", "statement": "Dispersion<double> built from PeriodicChain(N) and PeriodicChain(N, 1.) holds for every momentum the energy -2 J cos k up to |J| / 2^44 (plus underflow), for every std::cos that is right up to one unit in the last place.  Hence every momentum whose energy differs from the Fermi energy 0 by more than that is classified (below or not below) as in exact arithmetic.  For N divisible by 4 the momenta -pi/2 and pi/2 have energy exactly 0 and are not below the Fermi energy; (defect) for N = 4, 8, 16 (the default), ..., 2^40 and J > 0 the program's doubles put both below it: exactly the momenta N/4..3N/4 count as occupied, two more than in exact arithmetic.", "quantifier": "all N up to 2^40, J without overflow or underflow, all momenta, all cosines accurate to one unit in the last place, all results of an overflowing operation", "why_tests_cant": "which side of zero a rounding error falls on cannot be seen by comparing energies up to a tolerance, and the occupation is a discontinuous function of them", "anchors": ["include/ieompp/models/hubbard/dispersion.hpp: Dispersion", "include/ieompp/lattices/periodic_chain.hpp: PeriodicChain::operator[]", "include/ieompp/constants.hpp: Pi, TwoPi", "include/ieompp/models/hubbard_momentum_space/excited_fermi_sea.hpp: ExcitedFermiSea", "src/hubbard/hubbard_momentum_1d_rk4.cpp: main"]}
{"id": "C99", "title": "Momentum-space program in double precision", "statement": "hubbard_momentum_1d_rk4 with N sites (N at most 4096), hopping J, interaction U and step dt, computed in IEEE doubles, completes for all parameters in range with dt (7 |J| + (N+2) |U| / 2) <= sqrt 8.  The first number printed is exactly 1 if the energy of the central momentum in the table is negative and exactly 0 otherwise.  The second is the particle number of the exact solution of the Heisenberg equation of motion at time 8 dt up to 3 (1 + 9 N) 8 (dt (6|J| + |U|))^5 / 120 (the method) plus N^3 / 2^30 (rounding), with the momenta of negative energy in the table occupied.  If no energy is within rounding error of the Fermi energy these are the momenta below it; (defect) for N = 4, 8, 16 (the default), ..., 4096 they include the two momenta at the Fermi energy, which exact arithmetic does not count as occupied.", "quantifier": "all N from 1 to 4096, J, U up to 2^400, dt from 2^-1000 to 2^100 in the stability region, all cosines accurate to one unit in the last place, all orders in which threads fill the basis, all results of an overflowing operation", "why_tests_cant": "a test sees one printed number for one parameter set and has no exact value to compare with; the bound needs the exact solution, the error of the method and of some N^2 rounded operations per step at once", "anchors": ["src/hubbard/hubbard_momentum_1d_rk4.cpp: main", "src/hubbard/momentum_space/momentum_space.hpp: compute_matrix", "include/ieompp/models/hubbard_momentum_space/blaze_sparse.hpp: init_matrix", "include/ieompp/models/hubbard_momentum_space/particle_number.hpp: ParticleNumber", "include/ieompp/ode/rk4.hpp: RK4::step"]}
{"id": "C100", "title": "A program reports its build and starts in a defined environment", "statement": "The texts of the boost and clang or gcc versions are major.minor.patch and differ for different versions; the texts of operating system, architecture, library, blaze version, byte order and number of threads name what the build was made for. --help prints the help and --version the eleven values, both exit with code 1; otherwise a program with an output path starts: the header lists the eleven values in order, the log file is started anew, the response path holds the options, the output file is empty and no other file has changed. (defect) Without LOGNAME or with a host name of 128 or more characters every start but --help is undefined behaviour; the version of an Intel compiler is right only if minor and patch are 0; 'compiled by' names user and host of the run; for an output file *.log the log is emptied.", "quantifier": "all builds, environments, option sets, command lines and file systems", "why_tests_cant": "All environments and command lines.", "anchors": ["include/ieompp/platform.hpp: Platform", "include/ieompp/types/blaze.hpp: blaze_version", "src/hubbard/include/application.hpp: Application::Application, print_version", "src/hubbard/include/logging.hpp: Loggers::init"]}
{"id": "C101", "title": "The text of an exception names file, line and message", "statement": "what() of an exception thrown with THROW is file:line: message; texts thrown in one file with different lines or messages differ. A NUL character in the message hides the rest of it.", "quantifier": "all files, lines and messages", "why_tests_cant": "All messages.", "anchors": ["include/ieompp/exception.hpp: Exception, create_exception"]}
{"id": "C102", "title": "Number of stored matrix elements and what the log says about it", "statement": "On a chain or square lattice with N sites (sides of at least 3) and z neighbours per site, the kinetic matrix stores N z elements, all -J; the full matrix N z + 2 N^3 z elements -J, N^3 z elements J and 3 N + N^3 elements U/2; the momentum-space matrix one element e(q)+U/2, 2 N^2 elements U/(2N) and its N^2 other diagonal elements. compute_matrix logs dimension, number of stored elements and number of all elements. (defect) The number logged with a % sign is the share, a hundredth of the percentage; stored zeros count as non-zero, 3 N + N^3 of them for U = 0; from N = 1626 on the number of all elements wraps around.", "quantifier": "all lattice sizes that fit, all parameters, any std::sort and any condition on the values counted", "why_tests_cant": "The count is a polynomial in the number of sites; tests check single sizes.", "anchors": ["src/hubbard/real_space/matrix.hpp: compute_matrix, compute_kinetic_matrix", "src/hubbard/momentum_space/momentum_space.hpp: compute_matrix", "include/ieompp/models/hubbard_real_space/blaze_sparse.hpp: init_kinetic_matrix, init_matrix", "include/ieompp/models/hubbard_momentum_space/blaze_sparse.hpp: init_matrix"]}
{"id": "C103", "title": "hubbard_dispersion_1d in double precision", "statement": "With IEEE doubles and a cosine good to one unit in the last place, the program with N sites (1 to 2^40) ends without undefined behaviour, returns 0, and leaves in dispersion.txt exactly N lines of two numbers: the wave vectors - pi + 2 pi i/N to within 2^-45 in strictly increasing order, and the energies - 2 cos k to within 2^-44 + 2^-1073; no other file changes, the numbers do not depend on what was in the file or on how numbers are formatted, and a file that cannot be opened is left out silently. If N is a power of two (as in the program shipped, 1024) the middle line has the wave vector 0 exactly and, if cos 0 = 1, the energy -2 exactly; (defect) the lines of k = - pi/2 and k = pi/2, where the energy is 0, show a small negative number instead.", "quantifier": "every number of sites up to 2^40, every such cosine, every overflow behaviour, every file system and every number formatting", "why_tests_cant": "a test with N = 1024 checks one table, not the error bound for every N and every cosine implementation", "anchors": ["src/hubbard/hubbard_dispersion_1d.cpp: main", "include/ieompp/lattices/periodic_chain.hpp: operator[]", "include/ieompp/models/hubbard/dispersion.hpp: Dispersion"]}
{"id": "C104", "title": "hubbard_trivial in double precision", "statement": "With IEEE doubles, for every J and U representable as doubles (U/2 too), every step dt with dt (2|J| + |U|) <= sqrt 8 and up to 2^40 steps, the program writes one line per step and one more; in line k the time is k dt up to one rounding, the four coefficients differ from the exact solution of the equation of motion at k dt by at most the discretisation error k dt^5 L^5/120 plus 2^-40 per step, and both parts of the number written differ by at most 2^-41 from the occupation of these coefficients plus the spurious term of C83 (defect). With the constants of the program (J = U = 1, dt = 0.01, 2000 steps): 2001 lines, every coefficient vector within 10^-6, every time within 10^-13 of k/100.", "quantifier": "all doubles J, U, dt in the stated range, every number of steps up to 2^40, every overflow behaviour", "why_tests_cant": "rounding errors of every operation over 2^40 steps cannot be observed by comparing a few printed values", "anchors": ["src/hubbard/hubbard_trivial.cpp: main, particle_number", "include/ieompp/ode/rk4.hpp: RK4::step"]}
{"id": "C105", "title": "The exact-solution program writes the double sum of its coefficients, within explicit rounding bounds, for every thread schedule", "statement": "hubbard_real_1d_kinetic_theory, run in IEEE doubles with a correctly sized number of threads, writes theory.txt with exactly `steps` lines `time<TAB>re<TAB>im` for k = 0..steps-1 and returns 0 (it also returns 0 when the file cannot be opened, and then changes no file). For every division of the rows among the threads and every interleaving of their loads and stores, the time of line k differs from k dt by at most (k dt + 1)/2^53 and the value from the exact real number sum_ij avg(d_ij) h_i(t) conj(h_j(t)), t = k dt, by at most (N^2 + T + 3) N / 2^48 + 4 N d + 3 N^2 (b + (2t+1)/2^53) in each part, where d and b are the errors of the averages and of boost's Bessel function; the imaginary column is therefore only rounding noise. The exact value is the one the program computes in exact arithmetic and is 1 at t = 0. Every division of the rows can be run to the end. (Defect: the vector of results has one element per thread of the first parallel region but is indexed with the thread number of the second; if the second region gets more threads and one of the extra ones receives a row, the behaviour is undefined.)", "quantifier": "all chain lengths up to 2^20, time steps, numbers of steps, thread counts, divisions and interleavings, Bessel implementations and tables of given accuracy, all ways of printing a double", "why_tests_cant": "The result depends on rounding in N^2 additions in an order chosen by the scheduler; tests see one schedule and one size.", "anchors": ["src/hubbard/hubbard_real_1d_kinetic_theory.cpp main", "src/hubbard/hubbard_real_1d_kinetic_theory.cpp minus_i_power", "include/ieompp/models/hubbard_real_space/expectation_value.hpp ExpectationValue1DHalfFilled"]}
{"id": "C106", "title": "The averages computed in doubles are the Fermi-sea integrals up to 2^-48, for every lattice size and filling", "statement": "With a std::sin of relative error at most 2^-52, ExpectationValue1DHalfFilled built by init_expectation_value returns for all sites a, b of a chain (N up to 2^52, spacing between 2^-100 and 2^100, filling between 0 and 1) a value that differs from the exact Fermi-sea average by at most 2^-48, independent of the distance and the spacing; it is symmetric and exactly the filling for a = b. ExpectationValue2DHalfFilled does the same on every N x N lattice (and every element of the table of an Nx x Ny lattice is within 2^-48 of the exact one), with exactly 1/2 on the diagonal. These are the tables the occupation, Fermi-jump and theory programs rely on (their error analysis needs an error bound and values at most 1), so the theory program is covered with only std::sin and boost's Bessel function left open. The correctly rounded sine has the required accuracy. (Defect: the averages that vanish exactly at half filling do not vanish in the object: at the distances 2, 4, 8, ... it holds a number of size at least 2^-60.)", "quantifier": "all lattice sizes, spacings, fillings, pairs of sites and sine implementations of that accuracy", "why_tests_cant": "The error bound must hold at every distance, where the argument of the sine grows with the distance; tests compare a few values with a tolerance.", "anchors": ["include/ieompp/models/hubbard_real_space/expectation_value.hpp ExpectationValue1DHalfFilled", "include/ieompp/models/hubbard_real_space/expectation_value.hpp ExpectationValue2DHalfFilled", "src/hubbard/real_space/expectation_value_1d.hpp init_expectation_value", "include/ieompp/models/hubbard/dispersion.hpp calculate_fermi_momentum_1d"]}
{"id": "C107", "title": "The real-space programs in double precision with the tables they compute themselves", "statement": "hubbard_real_1d_kinetic_rk4, hubbard_real_1d_rk4, hubbard_real_1d_rk4_jump (chain of N >= 3 sites) and hubbard_real_2d_rk4_jump (N x N sites) compute the averages of the Fermi sea and the Fourier factors e^{i k_F r} in double precision before the time evolution starts. If std::sin and std::cos are within two units in the last place (and, for the factors, between -1 and 1; the correctly rounded functions are), then the averages are within 2^-48 of the integrals over the Fermi sea, the factors of the chain within N/2^49 of e^{i filling pi r} and those of the square lattice within (N(|kx|+|ky|)+1)/2^51 of e^{i(kx x + ky y)}, for every schedule of the loop that fills the table; and every printed value obeys the bounds of C94 and C96 with these numbers in place of the errors of the tables, so that from the options to the printed line nothing is assumed about the numbers except for std::sin and std::cos. For every distribution of the iterations there are interleavings with which the Fermi-jump programs finish.", "quantifier": "all lattice sizes, couplings, fillings, momenta up to 2^900, step sizes within the stability bound, end times, intervals, thread counts, distributions and interleavings, results of overflowing operations, all implementations of sin and cos with that accuracy", "why_tests_cant": "The factors' error grows with the lattice; tests compare a few small lattices with a tolerance.", "anchors": ["include/ieompp/models/hubbard_real_space/fermi_jump/1d.hpp: FermiJump1D", "include/ieompp/models/hubbard_real_space/fermi_jump/2d.hpp: FermiJump2D", "include/ieompp/models/hubbard_real_space/expectation_value.hpp: ExpectationValue1DHalfFilled, ExpectationValue2DHalfFilled", "src/hubbard/hubbard_real_1d_rk4.cpp: main", "src/hubbard/hubbard_real_1d_rk4_jump.cpp: main", "src/hubbard/hubbard_real_2d_rk4_jump.cpp: main"]}
{"id": "C108", "title": "Without interaction the printed occupation stays at the filling factor and the jump at 1", "statement": "Averages that depend on the distance on the ring only are carried along unchanged by the kinetic equation of motion: the occupation of its exact solution is constant in time for every start vector, and equal to <c+_0 c_0> when started with c+_0. With U = 0 the coefficients of the three-operator elements of the full equation of motion stay exactly zero on every shipped lattice and the others are those of the kinetic equation. Hence hubbard_real_1d_kinetic_rk4 prints the filling factor at every measured step up to k N (dt L)^6 / 36 (L = 2|J|, dt L <= sqrt 8, exact arithmetic), hubbard_real_1d_rk4 with U = 0 prints it up to the truncation error of C87, and in double precision both print it up to the error bounds of C107. The Fermi jump at a momentum of the lattice is conserved, too: with U = 0, hubbard_real_1d_rk4_jump with N filling_factor an even integer and hubbard_real_2d_rk4_jump with (kx, ky) = 2 pi (qx, qy)/N print 1 up to the truncation error of C88 in exact arithmetic and up to the error bounds of C107 in doubles (plus N times the distance of kx, ky from 2 pi q/N). (defect) For other fillings the momentum pi filling_factor is not one of the ring and the exact printed quantity is not 1: with N = 4k + 2 and half filling its derivative at t = 0 is 4 J, and for J > 0 it exceeds 1.", "quantifier": "all N >= 3, J, fillings, rings of averages, times, step sizes within the stability bound, schedules of the parallel loops, roundings within the stated accuracy", "why_tests_cant": "a conservation law over all times and step counts; a run prints numbers close to the filling for one parameter set only", "anchors": ["src/hubbard/hubbard_real_1d_kinetic_rk4.cpp: main", "src/hubbard/hubbard_real_1d_rk4.cpp: main", "include/ieompp/models/hubbard_real_space/blaze_sparse.hpp", "include/ieompp/models/hubbard_real_space/site_occupation.hpp", "include/ieompp/models/hubbard_real_space/expectation_value.hpp"]}
{"id": "C109", "title": "Without hopping the programs compute the exact atomic limit", "statement": "With J = 0, on every shipped lattice, the exact solution of the full equation of motion started with c+_0 has exactly two coefficients that are not zero: that of c+_0 and that of the three-operator element at site 0, and the operator they stand for is c+_0 + (e^(iUt) - 1) c+_0 n_0 - the exact Heisenberg operator, satisfying dA/dt = i [H_int, A] in every matrix element, so that the truncation of the basis costs nothing. Hence the occupation of the site stays <c+_0 c_0> for every table of averages, and the Fermi jump is 1 - 2 rho (1 - rho) (1 - cos Ut) with rho = <c+_0 c_0> (the collapse and revival with period 2 pi / |U|) whatever the momentum. hubbard_real_1d_rk4 with J = 0 prints the filling factor, hubbard_real_1d_rk4_jump prints this curve with rho = filling_factor and hubbard_real_2d_rk4_jump prints (1 + cos Ut)/2, up to the truncation errors of C87 and C88 in exact arithmetic (dt |U| <= sqrt 8) and up to the error bounds of C107 in double precision.", "quantifier": "all U, lattices of the shipped kinds, times, tables of averages, momenta, fillings, step sizes within the stability bound, schedules of the parallel loops, roundings within the stated accuracy", "why_tests_cant": "a closed form over all times and system sizes; a run compares finitely many printed numbers", "anchors": ["src/hubbard/hubbard_real_1d_rk4.cpp: main", "src/hubbard/hubbard_real_1d_rk4_jump.cpp: main", "src/hubbard/hubbard_real_2d_rk4_jump.cpp: main", "include/ieompp/models/hubbard_real_space/blaze_sparse.hpp", "include/ieompp/models/hubbard_real_space/fermi_jump.hpp"]}
{"id": "C110", "title": "The time evolution and the programs respect the symmetries of the lattice", "statement": "For every permutation s of the sites that maps neighbours to neighbours, on every shipped lattice and for every J and U, the matrix of the full equation of motion is unchanged when every basis element is replaced by its image (site a by s(a), and all three sites of a three-operator element); if s leaves site 0 in place the exact coefficients of c+_0(t) are unchanged too. The reflection and the rotations of the ring, and the reflections of x and y and their exchange on the square, are such permutations. In exact arithmetic this holds for the computed vectors after every number of Runge-Kutta steps, of any step size: in every line of hubbard_real_1d_rk4_coefficients the coefficients at (a, b, c) and at (-a, -b, -c) modulo N are equal, and two runs of hubbard_real_2d_rk4_jump at the momenta (kx, ky) and (ky, kx), or (-kx, ky) when N kx is a multiple of 2 pi, print the same lines whatever the schedules of their parallel loops.", "quantifier": "all lattices of the shipped kinds, lattice symmetries, J, U, times, numbers of steps, step sizes, momenta, schedules", "why_tests_cant": "an equality between all pairs of runs related by a symmetry, for all parameters", "anchors": ["src/hubbard/hubbard_real_1d_rk4_coefficients.cpp: main", "src/hubbard/hubbard_real_2d_rk4_jump.cpp: main", "include/ieompp/models/hubbard_real_space/blaze_sparse.hpp", "include/ieompp/models/hubbard_real_space/fermi_jump.hpp", "include/ieompp/lattices/periodic_chain.hpp", "include/ieompp/lattices/periodic_square_lattice.hpp", "include/ieompp/ode/rk4.hpp"]}
{"id": "C111", "title": "Time reversal and particle-hole symmetry of the coefficients", "statement": "Let y(t) be the solution of the equation of motion which the real-space programs integrate (the Hubbard matrix of the one- and three-operator basis on a shipped chain or square lattice, times i), starting from c+_0 alone. For every J, U and t: y(-t) is the complex conjugate of y(t) (the matrix times i is purely imaginary). If the sites can be coloured black and white so that neighbours differ (the ring exactly when N is even with the even-odd colouring, the N x N torus for even N with the checkerboard), then y_i(t) = e^{iUt} s_i conj(y_i(t)), where s_i = +1/-1 for c+ on a white/black site and minus the product of the three shades for a three-operator element; equivalently e^{-iUt/2} y_i(t) is real when s_i = 1 and purely imaginary when s_i = -1. Without interaction this survives the discretisation: every line printed by hubbard_real_1d_kinetic_rk4_coefficients for even N has real coefficients on the even sites and purely imaginary ones on the odd sites, also when every operation is rounded to double precision (the zeros are exact, as long as nothing overflows).", "quantifier": "all J, U, t, all shipped lattices (all even ring and torus sizes for the second part), all time steps and run lengths", "why_tests_cant": "a test sees a few sizes and times; the symmetry is a statement about every entry of the matrix and every time", "anchors": ["include/ieompp/models/hubbard_real_space/blaze_sparse.hpp", "include/ieompp/models/hubbard_real_space/basis.hpp", "src/hubbard/real_space/matrix.hpp", "src/hubbard/hubbard_real_1d_rk4_coefficients.cpp: main", "src/hubbard/hubbard_real_1d_kinetic_rk4_coefficients.cpp: main", "include/ieompp/ode/rk4.hpp"]}
{"id": "C112", "title": "Scaling and sign of the parameters", "statement": "For the real-space Hubbard programs only J t and U t matter: the coefficients for (l J, l U) at time t are those for (J, U) at time l t, for every real l; and a run with J and U multiplied and dt divided by l (with the same number of steps) prints the same coefficients (hubbard_real_1d_rk4_coefficients), the same occupations (hubbard_real_1d_rk4, same thread schedules) and the same jumps (hubbard_real_1d_rk4_jump, hubbard_real_2d_rk4_jump), line by line, in real arithmetic. On a lattice with two sublattices (ring and torus of even size) the coefficients for -J are those for J times the product of the shades (+1 white, -1 black) of the sites of the basis element, also line by line in the output of hubbard_real_1d_rk4_coefficients, in real arithmetic and - bit by bit, as rounding to nearest is odd - in IEEE doubles; and the coefficients for -U are the complex conjugates of those for U times the same sign (for the exact solution, and bit by bit in the output of hubbard_real_1d_rk4_coefficients in doubles).", "quantifier": "all J, U, l, lattice sizes, step widths, run lengths, output intervals, fillings and thread schedules", "why_tests_cant": "a metamorphic relation between two runs for every parameter set; a test compares a few pairs", "anchors": ["include/ieompp/models/hubbard_real_space/blaze_sparse.hpp", "include/ieompp/ode/rk4.hpp", "src/hubbard/hubbard_real_1d_rk4_coefficients.cpp: main", "src/hubbard/hubbard_real_1d_rk4.cpp: main", "src/hubbard/hubbard_real_1d_rk4_jump.cpp: main", "src/hubbard/hubbard_real_2d_rk4_jump.cpp: main"]}
{"id": "C113", "title": "Momentum-space program: exactly solvable limits and scaling", "statement": "In real arithmetic, for every N, dt and option values: with U = 0 hubbard_momentum_1d_rk4 prints 1 and (1 - x^6/72 + x^8/576)^8, x = dt e, if the energy e = -2J cos(-pi + 2 pi (N/2)/N) of the central momentum is below zero, and 0 and 0 otherwise, whereas the particle number of the exact solution keeps its initial value (the second number shows the damping of the integration only, not physics); with J = 0 no momentum is occupied and it prints 0 and 0 for every U; and with J and U multiplied and dt divided by the same positive number it prints the same two numbers.", "quantifier": "all N, J, U, dt, scale factors, option values, thread orders and buffer contents", "why_tests_cant": "the limits hold for every size and step width; a test evaluates a few of them, without an independent reference", "anchors": ["src/hubbard/hubbard_momentum_1d_rk4.cpp main", "src/hubbard/momentum_space/momentum_space.hpp compute_matrix", "include/ieompp/models/hubbard_momentum_space/particle_number.hpp ParticleNumber", "include/ieompp/ode/rk4.hpp step"]}
{"id": "C114", "title": "What the exact-solution program writes over time", "statement": "The squares of the coefficients of the infinite chain add up to one: J_0(x)^2 + 2 sum_{n>=1} J_n(x)^2 = 1 for every x >= 0. As long as the wave has not gone round the ring, hubbard_real_1d_kinetic_theory writes the constant 1: on N >= 3 sites the exact value of the written sum differs from 1 by at most N (2 + b) b, b = t^M/M! (N = 2M) or sqrt 2 (t^{M+1}/(M+1)! + t^{M+2}/(M+2)!) (N = 2M+1), so for the 128 sites of the program and t <= 20 by at most 1/1000; in double precision each part of the written complex number is within that plus the rounding bound of C105 of (1, 0), for every thread schedule. (defect) On every ring the sum tends to 0 for t -> infinity although the occupation of the chain is constant in time: the coefficients of the infinite chain leave the ring instead of going round it.", "quantifier": "all N, times, step sizes, schedules, Bessel implementations of given accuracy", "why_tests_cant": "an infinite sum, a bound for all times and a limit; a test sees finitely many lines of one run", "anchors": ["src/hubbard/hubbard_real_1d_kinetic_theory.cpp main"]}
{"id": "C115", "title": "Light cone of the time evolution", "statement": "In the real-space programs with interaction the coefficients start at site 0. After k RK4 steps every coefficient of an operator with a site more than 4k hops away from site 0 is exactly zero, on the ring (distance along the ring) and on the square lattice (Manhattan distance on the torus), for all J, U and dt; the coefficients program prints these zeros, also when every operation is rounded to double precision (as long as nothing overflows). For the exact solution the coefficients of all operators reaching at least d hops away have, together, length at most (3 z |J| t)^d / d! (z = number of neighbours), independent of U and of the lattice size: the spreading velocity is set by the hopping alone.", "quantifier": "all chain lengths and square lattices of at least 3 sites per side, all J, U, dt, numbers of steps, times and distances", "why_tests_cant": "locality has to hold for every step count and every far-away operator, and the bound for every time and interaction", "anchors": ["include/ieompp/models/hubbard_real_space/blaze_sparse.hpp", "include/ieompp/ode/rk4.hpp", "include/ieompp/lattices/periodic_chain.hpp", "include/ieompp/lattices/periodic_square_lattice.hpp", "src/hubbard/hubbard_real_1d_rk4_coefficients.cpp: main"]}
{"id": "C116", "title": "The length of the chain does not matter until the light cone closes", "statement": "Take two rings of N and N' >= 3 sites, both with at least 8k + 1 sites. After k RK4 steps hubbard_real_1d_rk4_coefficients has, for both, exactly the same coefficients for c+_a and c+_a c+_b c_c whenever a, b, c are within 4k hops of site 0 and are counted relative to site 0 (site -o of one ring is site N - o, of the other N' - o); all other coefficients are zero on both (C115). The printed times are the same. So enlarging the chain does not change the results before the light cone has closed around the ring. In IEEE double arithmetic the printed doubles are the same bit by bit, if both rings have at least 8k + 3 sites (as long as nothing overflows).", "quantifier": "all N, N' >= 3, J, U, time steps, numbers of steps, output intervals", "why_tests_cant": "a relation between runs of all pairs of sizes at all steps", "anchors": ["include/ieompp/models/hubbard_real_space/blaze_sparse.hpp", "include/ieompp/models/hubbard_real_space/basis.hpp", "include/ieompp/lattices/periodic_chain.hpp", "include/ieompp/ode/rk4.hpp", "src/hubbard/hubbard_real_1d_rk4_coefficients.cpp: main"]}
{"id": "C117", "title": "Convergence with the length of the chain", "statement": "For the exact solution (which the printed coefficients approximate) on two rings of N and N' sites, both with at least 2D + 1 sites, and any t >= 0: the coefficients of all c+_a and c+_a c+_b c_c with a, b, c within D hops of site 0, counted relative to site 0, differ - all of them together, as a vector - by at most 2 (6|J| + |U|) t (6|J| t)^D / (D+1)!. So at fixed J, U, t the coefficients converge factorially fast as the chain grows, with an explicit a priori bound for the finite-size error of a run.", "quantifier": "all N, N' >= 3, D, J, U, t", "why_tests_cant": "a bound for every pair of chain lengths and every time", "anchors": ["include/ieompp/models/hubbard_real_space/blaze_sparse.hpp", "include/ieompp/models/hubbard_real_space/basis.hpp", "include/ieompp/lattices/periodic_chain.hpp"]}
{"id": "C118", "title": "The evolved operator is the true Heisenberg operator up to U^2 |J| t^3", "statement": "The three-operator basis is not closed under the commutator with the Hubbard Hamiltonian: the program projects every commutator with the interaction back to the basis. The price of this truncation is bounded: for every shipped lattice with coordination number z, and on every finite set of Fock modes that holds the orbitals, the operator A(t) built from the exact solution of the program's differential equation and the solution X(t) of Heisenberg's equation with the same initial operator c+_(0,up) satisfy ||A(t) - X(t)|| <= (3 z / 4) U^2 |J| t^3 ||c+_0|| in the Hilbert-Schmidt norm, for all J, U and t >= 0. X exists and is unique. Hence without interaction or without hopping nothing is lost: the program's operator is the Heisenberg operator itself. With both it is lost at once: for J and U different from 0 the two operators agree on no interval [0, eps). With the Runge-Kutta error of the program run with step dt, dt^2 L^2 <= 8, L = 3 z |J| + |U|, the operator after k steps is within (3 z / 4) U^2 |J| t^3 + t dt^4 L^5 / 120 of the true one, t = k dt, in real arithmetic; in IEEE double arithmetic the vector behind line k of the shipped coefficient program for the full model obeys the same bound with k / 2^40 added.", "quantifier": "all J, U, shipped lattices and sizes, numbers of Fock modes and orderings of them, times, step sizes and numbers of steps", "why_tests_cant": "the truncation error of a Heisenberg calculation in the full Fock space has dimension 4^(2N); tests can only compare single runs on the smallest lattices", "anchors": ["include/ieompp/models/hubbard_real_space/blaze_sparse.hpp", "include/ieompp/models/hubbard_real_space/basis.hpp", "include/ieompp/ode/rk4.hpp", "src/hubbard/hubbard_real_1d_rk4_coefficients.cpp: main"]}
{"id": "C119", "title": "The size of the square lattice does not matter until the light cone closes", "statement": "Take two square lattices of L x L and L' x L' sites (periodic). After k RK4 steps of the full equation of motion, with L, L' >= 8k + 1, the coefficients of c+_a and of c+_a c+_b c_c are exactly the same in both whenever a, b, c are within 4k hops of site 0 (Manhattan distance on the torus) and are given by their displacement from site 0; all other coefficients are zero on both (C115). For the exact solution, L, L' >= 2D + 1 and t >= 0, the coefficients of all operators within D hops differ - all of them together, as a vector - by at most 2 (12|J| + |U|) t (12|J| t)^D / (D+1)!, independent of the sizes: an a priori bound for the finite-size error of a run on the square lattice.", "quantifier": "all L, L' >= 3, J, U, time steps, numbers of steps, D, t", "why_tests_cant": "Two lattices of any two sizes are compared, for all displacements; a test compares two runs.", "anchors": ["include/ieompp/models/hubbard_real_space/blaze_sparse.hpp", "include/ieompp/models/hubbard_real_space/basis.hpp", "include/ieompp/lattices/periodic_square_lattice.hpp", "include/ieompp/ode/rk4.hpp"]}
{"id": "C120", "title": "What the three-operator basis misses: the equation of motion is closed only without interaction or without correlated hops", "statement": "For every combination A of the operators of the Hubbard basis (creators and the three-operator products) and every shipped lattice, couplings and number of orbitals: the product of the program's matrix with the coefficients of A gives the operator of the basis nearest (in the Hilbert-Schmidt distance) to the commutator of the Hamiltonian with A; the distance that remains is at least |U|/2 and at most 3|U|/2 times the length of the part of A made of products that act on more than one site. So the commutator is itself an operator of the basis exactly when U = 0 or all coefficients of such products vanish: the hierarchy the program cuts off is never closed by accident.", "quantifier": "all J, U; every shipped lattice size; every assignment of modes; every coefficient vector; every competing coefficient vector", "why_tests_cant": "a lower bound on the truncation error over all coefficient vectors and all competitors cannot be sampled; a test can only compare one vector on one small lattice", "anchors": ["include/ieompp/models/hubbard_real_space/basis.hpp: Basis3Operator", "include/ieompp/models/hubbard_real_space/blaze_sparse.hpp: init_matrix"]}
{"id": "C121", "title": "The output files keep six significant digits", "statement": "A double the programs write with << is printed as one word of at most thirteen characters (digits, point, e, + and -), which read back as a decimal numeral is the number with six significant digits nearest to it: the relative error is at most 5e-6, a number with at most six significant digits is read back exactly, larger numbers are never printed as smaller ones, and two numbers further apart than one unit of the sixth digit are printed differently and in order. (defect) The stream's precision is never raised, so a file does not hold the computed double: among more than 900001 numbers of one decade two are always printed the same, although a double has sixteen digits.", "quantifier": "all real numbers, in particular all finite doubles", "why_tests_cant": "a test compares a few printed numbers; the error bound, the exactness and the loss of digits hold for every number", "anchors": ["src/hubbard/hubbard_real_1d_rk4.cpp", "src/hubbard/hubbard_real_1d_rk4_coefficients.cpp", "src/hubbard/hubbard_dispersion_1d.cpp", "src/hubbard/hubbard_trivial.cpp"]}
{"id": "C122", "title": "The output files are tables that can be read back", "statement": "An output file of the real-space programs is a header of comment lines followed by one line per measurement. A reader that skips the lines starting with #, splits lines at tabs and reads decimal numerals gets exactly one row per measurement, all rows of a coefficient file with the time and the real and imaginary parts of every coefficient in order, and each number equal to the written double up to a relative error of 5e-6 (provided no option value contains a line break). For hubbard_real_1d_rk4_coefficients and its kinetic variant in double precision the numbers read are the exact solution at k dt up to the discretisation error, k 2^-40 and 1e-5; for hubbard_real_1d_rk4 and its kinetic variant the second column is the occupation up to the error bound of the measurement, for the two jump programs the Fermi jump, for hubbard_real_1d_kinetic_theory the exact occupation, for hubbard_momentum_1d_rk4 the two printed particle numbers, for hubbard_dispersion_1d the columns are the wave vectors and the energies, and the 2001 rows of trivial.txt are the exact solution of the two-site system to 1e-6, each with the same relative error of 5e-6 on top. If measurement times are more than one unit of the sixth digit apart the first column strictly increases. (defect) In a run with more than 900001 measurements within one decade of the time two rows carry the same time.", "quantifier": "all option values, lattice sizes, parameters, step sizes, numbers of steps and measured values", "why_tests_cant": "a test parses one file; misaligned columns, unreadable numbers or repeated times in some other run are not seen", "anchors": ["src/hubbard/hubbard_real_1d_rk4_coefficients.cpp", "src/hubbard/hubbard_real_1d_kinetic_rk4_coefficients.cpp", "src/hubbard/hubbard_real_1d_rk4.cpp", "src/hubbard/hubbard_dispersion_1d.cpp", "src/hubbard/hubbard_trivial.cpp", "src/hubbard/include/application.hpp"]}
{"id": "C123", "title": "The computed motion depends continuously on J and U, and the numbers as written on the command line are what it follows", "statement": "For every shipped lattice (ring or square with side at least 3), the exact motions for parameters (J, U) and (J', U') that start from the programs' start vector are at every time t >= 0 at most (3 z |J' - J| + |U' - U|) t apart in Euclidean length, z being the coordination number of the lattice: a small change of a parameter cannot change the result by more than a small amount, at most linearly in time and independently of the number of sites; without interaction (the kinetic programs) the bound is z |J' - J| t, and on the ring the occupation of the central site changes by at most 10 n (6 |J' - J| + |U' - U|) t, n = N + N^3 being the size of the basis. When J and U are given as decimal numerals, which are converted to the nearest doubles (0.1 is not a double), the motion for the converted values stays within (3 z |J| + |U|) t / 2^53 of the motion for the values as written, and hubbard_real_1d_rk4_coefficients, run in doubles with step dt, writes coefficients that are after k steps within k dt^5 L^5 / 120 + k / 2^40 + k dt (6 |J| + |U|) / 2^53 of the exact motion for the values as written. The exact motion covers at most (3 z |J| + |U|) |s - t| between the times s and t; when the step width is given as a numeral too, the coefficients after k steps are compared with the motion at k times the step width as written, at the price of one more term of the last kind. The table read back from the output file of hubbard_real_1d_rk4_coefficients or hubbard_real_1d_rk4 is correspondingly close, line by line, to the times, coefficients and occupations that belong to the numerals on the command line, with the discretisation, the rounding of every double and the six printed digits all included in the stated bound (for the occupation: whenever every written line holds a value).", "quantifier": "every lattice size, all real parameters J, U, J', U', all times, all decimal numerals for J and U whose values are 0 or of normal size, every step width within the stability bound, every number of steps up to 2^24", "why_tests_cant": "a test compares a few parameter values at a few times; that no parameter value and no size amplifies an error of the input is a statement about all of them", "anchors": ["src/hubbard/include/cli.hpp: make_value", "src/hubbard/hubbard_real_1d_rk4_coefficients.cpp: main", "src/hubbard/hubbard_real_1d_rk4.cpp: main", "include/ieompp/models/hubbard_real_space/blaze_sparse.hpp: init_matrix, init_kinetic_matrix"]}
