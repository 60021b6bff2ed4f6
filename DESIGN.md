# Formal model of f-koehler/ieompp in Rocq (Coq 8.16.1)

This file is written by `tools/design.py` (fixed part: `tools/design_head.md`).

## Method

* The C++ in `/repo` is modelled function by function as total Gallina functions
  (`theories/M_*.v`). Every definition cites file and lines and says where it simplifies. Nothing
  in `/repo` is executed.
* Undefined behaviour (out-of-range access, `front()` of an empty container, conversion of a
  negative number to unsigned, reading through an invalidated iterator, failing assert) is the
  outcome `UB`, never a default value.
* Loops whose termination is in question carry fuel. A result is `terminates_with` (some fuel, and
  every larger one, gives it); non-termination is proved as "no fuel suffices".
* Unsigned 64-bit arithmetic is `Z` with explicit `mod 2^64` (`u64`).
* Parallel loops (`#pragma omp parallel for`) have an interleaving semantics (`M_OpenMP`): any
  distribution of the iterations over any number of threads, any interleaving of the elementary
  reads and writes. Sequential consistency is assumed for the single accesses; the modelled loops
  are proved not to share cells between threads.
* Static local buffers, default values of members, file contents before the start, the internal
  state of input streams (eof and fail bits) are part of the state and universally quantified.
* Numbers: `double` and `std::complex<double>` are exact (the reals, pairs of reals, or an arbitrary commutative
  ring with an involution). Exceptions: the time variables of the programs are rounded by an arbitrary rounding
  with relative error `u` (`M_TimeLoop`, C53, C82, C86-C88), and the tolerance comparisons of
  `types/number` are modelled with their epsilon (C62, C63). The time evolution of the real-space programs is
  also modelled with every operation rounded to IEEE double precision (`M_Rounding`, `M_Double`, which uses
  Flocq's definition of rounding: C91), and so are the positions of chain sites and the momentum-space basis
  (`M_LatticeDouble`: C92) and the site-occupation measurement with its interleaving threads
  (`M_RoundedMeasurement`: C93; the expectation values are given there, exact, and std::norm is re*re + im*im). The Fermi jump likewise is `M_RoundedJump` (C95). The programs which print it, with all roundings, are `M_DoubleJumpPrograms` (C96). The whole real-space programs with all of these roundings together are `M_DoublePrograms` (C94; the table of
  expectation values is there a parameter with a stated error; `M_DoubleExpectation` (C106) computes that table with doubles, std::sin being any function good to one unit in the last place, and `M_DoubleMain` (C107) is the real-space programs and their Fermi-jump variants with the tables they compute themselves). `hubbard_dispersion_1d` with doubles is `M_DoubleDispersionProgram` (C103), `hubbard_trivial` is `M_DoubleTrivial` (C104), and the exact-solution program is `M_TheoryProgram` (C105). The dispersion table of the chain with doubles is `M_DoubleDispersion` (C98; std::cos is any function with an error of at most one unit in the last place), and the momentum-space program with doubles is `M_DoubleMomentum` (C99). Contraction of a*b+c into a fused operation is not modelled
  there (the build files of the project do not ask for it), nor is the recovery from NaN in complex products.
* The independent specification of the operator algebra is the action of creation and
  annihilation operators on occupation-number states (Fock space, `Spec_Fock.v`), defined without
  reference to the library's algebra code.
* False properties of the faithful model are recorded as `..._refuted`; the true part is
  proved under exactly the guard needed, and the property text states both.

## Trusted base

* Coq 8.16.1's kernel. No plugin, no native/vm trust beyond the kernel's own `vm_compute`
  conversion. No axiom, parameter, admitted proof, functor or module type of our own.
* The axioms of the standard library listed by `Print Assumptions`, theorem by theorem, in
  `AXIOMS.md` (generated by `tools/axioms.py` from the built theories). They are: the axioms of the standard
  library's real numbers (`sig_forall_dec`, `sig_not_dec`), functional extensionality, and
  excluded middle (`Classical_Prop.classic`, through Coquelicot's integrals). Theorems about the
  algebra, the index arithmetic, text processing and files are closed under the global context.
* Coquelicot is used for Riemann integrals and derivatives; it adds no axioms beyond these.
* The reading of the C++ documented in the comments of the models: in particular the
  parts of the standard library, Eigen, Blaze, Boost.Program_options, Cereal and OpenMP that the
  code calls are modelled from their documentation (std::vector, std::list::sort, std::lower_bound,
  std::regex for the two expressions used, getline, operator>>, strtoul, filesystem copy/rename,
  CompressedMatrix append/finalize, SparseMatrix insert/reserve, `parallel for`).

## Parts of the code that are modelled

* `algebra/` (operators, monomials, terms, lists, orders, conjugation, commutator and
  anticommutator, Kronecker deltas, printing), `symbolic/` (prefactors, indices): M_Operator,
  M_Commutator, M_Commutators, M_Alias, M_CommutateAlias, M_Print, M_Index.
* `lattices/`, `iterators/`: M_Lattice (indices), M_LatticeReal (positions).
* `models/`: M_Basis, M_Matrix (kinetic, interaction, normal-ordered and momentum-space matrices, Blaze's
  append protocol), M_Expectation, M_SiteOccupation, M_FermiJump, M_FermiSea, M_NonVanishing,
  M_Dispersion.
* `ode/rk4.hpp`, `types/*/multiply_assign.hpp`: M_Ode. `types/number`, `types/matrix_check.hpp`,
  `types/function_matrix.hpp`, `types/eigen/init.hpp`, `types/eigen/triplet_list.hpp`,
  `types/triplet.hpp`: M_Number, M_MatrixCheck, M_Matrix.
* `io/`, `types/description.hpp`, `tuple.hpp`: M_Text, M_Io, M_EigenIo.
* `src/hubbard/`: all programs (M_Programs, M_JumpPrograms, M_MomentumProgram, M_Theory, M_Trivial,
  M_Commutators, M_TimeLoop, M_DispersionProgram) and their helpers `include/cli.hpp`, `checkpoint.hpp`, `common.hpp`,
  `vector.hpp`, `rk4.hpp`, `application.hpp`, `logging.hpp` (M_Cli, M_Io, M_TimeLoop, M_Ode, M_Platform).
* `platform.hpp`, `exception.hpp`: M_Platform.

## Not modelled

* Rounding of floating-point arithmetic outside of the time variables and of C91-C99 and C103-C107; overflow, NaN and infinities; the printing of
  floating-point numbers is a parameter except in C121-C123, where `M_Ostream` rounds to six significant digits as glibc's printf does;
  the reading of a number from the command line (C123, `M_OptionValue`) is taken to give the nearest double, as glibc's strtod does.
* Logging (except which file it goes to) and timing (`spdlog.hpp`, `application_timer.hpp`), the type traits (`operator_traits.hpp`,
  `types/*/traits.hpp`, `names.hpp`, `is_symbolic.hpp`, `get_index.hpp`): these are
  compile-time only or have no effect on results.
* Weak memory effects of data races (none of the modelled loops has a race), allocation failure,
  the operating system's buffering of written data (a crash loses or keeps whole file system operations).
* Code that cannot be instantiated: the generic `expectation_value` of SiteOccupation for three
  operators calls a function without its arguments and does not compile when used.
* `/repo/tests`, build scripts, Python tools.

## Plan and outcome per property

Model files are `theories/M_*.v`; `Spec_*.v` are the specifications the statements use, `Pf_*.v` auxiliary proofs, `Ex_*.v` concrete cases meeting the hypotheses. The names of the theorems are in MANIFEST.json.

| id | property | status | theorems in | how it is proved |
|----|----|----|----|----|
| C01 | Operator equality is an equivalence and != is its negation | proved (1) | `P_Algebra` | case analysis and induction over index and operator lists; adjointness and the commutator identities by the action on Fock space (Spec_Fock) with a telescoping contraction lemma valid in every CAR algebra |
| C02 | Conjugating an operator is an involution and is_conjugate recognises exactly the adjoint | proved (2) | `P_Algebra` | case analysis and induction over index and operator lists; adjointness and the commutator identities by the action on Fock space (Spec_Fock) with a telescoping contraction lemma valid in every CAR algebra |
| C03 | OperatorSmaller is a strict total order compatible with == | proved (2) | `P_Algebra` | case analysis and induction over index and operator lists; adjointness and the commutator identities by the action on Fock space (Spec_Fock) with a telescoping contraction lemma valid in every CAR algebra |
| C04 | Conjugating a monomial is the adjoint | proved (2) | `P_Algebra` | case analysis and induction over index and operator lists; adjointness and the commutator identities by the action on Fock space (Spec_Fock) with a telescoping contraction lemma valid in every CAR algebra |
| C05 | Multiplying monomials and terms is operator composition | proved (2) | `P_Algebra` | case analysis and induction over index and operator lists; adjointness and the commutator identities by the action on Fock space (Spec_Fock) with a telescoping contraction lemma valid in every CAR algebra |
| C06 | Conjugating a term is the adjoint including the prefactor | proved (1) | `P_Algebra` | case analysis and induction over index and operator lists; adjointness and the commutator identities by the action on Fock space (Spec_Fock) with a telescoping contraction lemma valid in every CAR algebra |
| C07 | TermSmaller is a strict weak order whose ties are exactly 'same operators' | proved (1) | `P_Algebra` | case analysis and induction over index and operator lists; adjointness and the commutator identities by the action on Fock space (Spec_Fock) with a telescoping contraction lemma valid in every CAR algebra |
| C08 | commutate returns the commutator | proved (2) | `P_Algebra` | case analysis and induction over index and operator lists; adjointness and the commutator identities by the action on Fock space (Spec_Fock) with a telescoping contraction lemma valid in every CAR algebra |
| C09 | commutate on two odd terms gives the anticommutator, so the assertion is necessary | proved (1) | `P_Algebra` | case analysis and induction over index and operator lists; adjointness and the commutator identities by the action on Fock space (Spec_Fock) with a telescoping contraction lemma valid in every CAR algebra |
| C10 | Symbolic commutation is correct under every substitution of the indices | proved (1) | `P_Algebra2` | invariant of the lower_bound insertion; symbolic prefactors by valuations; comparator laws; refutation of canonicity by a witness |
| C11 | anticommutates answers true only for operators whose anticommutator vanishes | proved (2) | `P_Algebra2` | invariant of the lower_bound insertion; symbolic prefactors by valuations; comparator laws; refutation of canonicity by a witness |
| C12 | Commutation preserves size and additive quantum numbers | proved (2) | `P_Algebra2` | invariant of the lower_bound insertion; symbolic prefactors by valuations; comparator laws; refutation of canonicity by a witness |
| C13 | copy_as_unique_terms collects like terms without changing the sum | proved (1) | `P_Algebra2` | invariant of the lower_bound insertion; symbolic prefactors by valuations; comparator laws; refutation of canonicity by a witness |
| C14 | Kronecker deltas: equality, ordering and meaning | proved (1) | `P_Algebra2` | invariant of the lower_bound insertion; symbolic prefactors by valuations; comparator laws; refutation of canonicity by a witness |
| C15 | Multiplying symbolic prefactors multiplies their values | proved (1) | `P_Algebra2` | invariant of the lower_bound insertion; symbolic prefactors by valuations; comparator laws; refutation of canonicity by a witness |
| C16 | order_kroneckers preserves the value and canonicalises first indices only | proved (4) | `P_Algebra2` | invariant of the lower_bound insertion; symbolic prefactors by valuations; comparator laws; refutation of canonicity by a witness |
| C17 | Chain neighbours are the two adjacent sites of a ring | proved (4) | `P_Lattice` | linear and modular arithmetic; graph distance by induction over paths; 64-bit wrap-around explicit |
| C18 | Chain lattice_distance is the ring metric and agrees with neighboring | proved (3) | `P_Lattice` | linear and modular arithmetic; graph distance by induction over paths; 64-bit wrap-around explicit |
| C19 | Iterating a chain yields each site once in ascending order | proved (3) | `P_Lattice` | linear and modular arithmetic; graph distance by induction over paths; 64-bit wrap-around explicit |
| C20 | Chain position-to-index inverts index-to-position, modulo the lattice period | proved (3) | `P_LatticeReal` | real arithmetic, wrapping loops with fuel and explicit bounds |
| C21 | Which real-space positions map to a valid chain site | proved (2) | `P_LatticeReal` | real arithmetic, wrapping loops with fuel and explicit bounds |
| C22 | Where chain closest() returns the ring-nearest site | proved (3) | `P_LatticeReal` | real arithmetic, wrapping loops with fuel and explicit bounds |
| C23 | Square-lattice index and coordinates are mutually inverse exactly for Nx = Ny | proved (3) | `P_Lattice` | linear and modular arithmetic; graph distance by induction over paths; 64-bit wrap-around explicit |
| C24 | Square-lattice neighbours are the four adjacent torus sites | proved (7) | `P_Lattice`, `P_Rectangle2` | linear and modular arithmetic; graph distance by induction over paths; 64-bit wrap-around explicit; explicit witnesses with symbolic sides; u64 arithmetic without wrap except in the distance |
| C25 | Square-lattice distance is the torus metric | proved (4) | `P_Lattice`, `P_Rectangle2` | linear and modular arithmetic; graph distance by induction over paths; 64-bit wrap-around explicit; explicit witnesses with symbolic sides; u64 arithmetic without wrap except in the distance |
| C26 | Square-lattice position-to-index on images of lattice sites | proved (4) | `P_LatticeReal` | real arithmetic, wrapping loops with fuel and explicit bounds |
| C27 | Real-space three-operator basis is complete, duplicate-free and indexed by get_3op_index | proved (4) | `P_Basis` | nested loops as flat_map; closed form of the index arithmetic; distinctness by injectivity of the indices |
| C28 | Momentum-space basis conserves momentum and is indexed by get_3op_index | proved (1) | `P_Basis` | nested loops as flat_map; closed form of the index arithmetic; distinctness by injectivity of the indices |
| C29 | The conjugate basis is the element-wise adjoint | proved (1) | `P_Basis` | nested loops as flat_map; closed form of the index arithmetic; distinctness by injectivity of the indices |
| C30 | The kinetic matrix is the commutator with the hopping Hamiltonian | proved (3) | `P_KineticNo`, `P_Matrix` | the second copy of the kinetic matrix, against the same specification; loops producing triplet rows against commutators in Fock space; counting argument for the capacity; sortedness |
| C31 | The full matrix is the commutator with the Hubbard Hamiltonian projected on the basis | proved (3) | `P_Matrix` | loops producing triplet rows against commutators in Fock space; counting argument for the capacity; sortedness |
| C32 | Sparse rows are filled with strictly increasing columns within the reserved capacity | proved (3) | `P_KineticNo`, `P_Matrix` | the second copy of the kinetic matrix, against the same specification; loops producing triplet rows against commutators in Fock space; counting argument for the capacity; sortedness |
| C33 | Lattices with fewer than three sites per side get duplicate columns (defect) | proved (4) | `P_Matrix`, `P_Rectangle` | loops producing triplet rows against commutators in Fock space; counting argument for the capacity; sortedness; sides that differ: an explicit site whose neighbour list breaks the matrix; inversion of the loop for the rows that do get built |
| C34 | The real-space Liouvillian matrix is symmetric | proved (1) | `P_Matrix` | loops producing triplet rows against commutators in Fock space; counting argument for the capacity; sortedness |
| C35 | Momentum-space matrix: entries, symmetry, capacity and meaning | proved (3) | `P_Momentum` | as P_Matrix, momentum space |
| C36 | Normal-ordered matrix rows: capacity, column order, completeness; distance from the true equation of motion (defect) | proved (7) | `P_NormalOrder`, `P_Triplet` | projection onto the normal-ordered basis in Fock space against the rows of the code; invariant of the merge loop |
| C37 | make_columns_unique merges without losing weight (defect for empty lists) | proved (3) | `P_Triplet` | invariant of the merge loop |
| C38 | Matrix predicates decide what they say | proved (3) | `P_MatrixCheck` | loops as forallb/existsb and folds |
| C39 | Function matrices compare extensionally | proved (2) | `P_MatrixCheck` | loops as forallb/existsb and folds |
| C40 | Eigen triplet list: declared shape and sort order | proved (2) | `P_MatrixCheck` | loops as forallb/existsb and folds |
| C41 | Expectation-value table lookups are in range and translation invariant | proved (7) | `P_Expectation`, `P_Rectangle2` | integrals over the Fermi sea with Coquelicot's Riemann integral; index arithmetic of the table; explicit witnesses with symbolic sides; u64 arithmetic without wrap except in the distance |
| C42 | Site occupation is real and independent of the inversion-symmetry shortcut | proved (2) | `P_SiteOccupation` | Wick's theorem in Fock space by Slater determinants; interleaving semantics of the parallel loops |
| C43 | Three-operator expectation values follow Wick's theorem | proved (3) | `P_SiteOccupation` | Wick's theorem in Fock space by Slater determinants; interleaving semantics of the parallel loops |
| C44 | Parallel reductions do not depend on the schedule | proved (5) | `P_SiteOccupation` | Wick's theorem in Fock space by Slater determinants; interleaving semantics of the parallel loops |
| C45 | Fermi jump may be evaluated for bases of different size in one process | proved (4) | `P_FermiJump` | invariant of the interleaving semantics of parallel loops (no two threads touch the same cell); induction over call histories; Slater determinants for the physical meaning |
| C46 | Fermi-jump factor tables are initialised before they are read | proved (3) | `P_FermiJump` | invariant of the interleaving semantics of parallel loops (no two threads touch the same cell); induction over call histories; Slater determinants for the physical meaning |
| C47 | Excited Fermi sea tracks occupation exactly | proved (3) | `P_FermiSea` | refinement to occupation sets |
| C48 | apply_monomial reports success and failure consistently | proved (2) | `P_FermiSea` | refinement to occupation sets |
| C49 | Non-vanishing expectation values are complete and correct | proved (4) | `P_NonVanishing` | expectation values in the Fermi sea by the action on occupation sets |
| C50 | Momentum-space particle number is real | proved (3) | `P_NonVanishing`, `P_ParticleNumber` | expectation values in the Fermi sea by the action on occupation sets; as P_NonVanishing, plus the parallel reduction |
| C51 | An RK4 step is the fourth-order Taylor polynomial of the propagator | proved (4) | `P_Ode` | module algebra: the step is the Taylor polynomial of degree 4 of the exponential; buffers and aliasing explicit |
| C52 | RK4 with a function matrix equals RK4 with the tabulated matrix | proved (2) | `P_Ode` | module algebra: the step is the Taylor polynomial of degree 4 of the exponential; buffers and aliasing explicit |
| C53 | Measurement schedule of the time loop | proved (6) | `P_TimeLoop` | induction over the iterations with an arbitrary rounding of relative error u |
| C54 | Dispersion is bounded, even and periodic | proved (6) | `P_Dispersion` | real trigonometry; plane waves as eigenvectors of the matrix built by the code |
| C55 | Integer iterator arithmetic obeys the random-access laws | proved (3) | `P_Lattice` | linear and modular arithmetic; graph distance by induction over paths; 64-bit wrap-around explicit |
| C56 | Comment and blank lines, and only those, are skipped | proved (6) | `P_Text` | regular expressions by derivatives; fuel as above |
| C57 | Reading lines terminates at the end of the file | proved (4) | `P_Text` | regular expressions by derivatives; fuel as above |
| C58 | A triplet list survives a write/read round trip | proved (7) | `P_Io` | texts as lists of characters, induction over lines; termination by fuel, non-termination for every fuel |
| C59 | File headers are complete comment blocks | proved (6) | `P_Io` | texts as lists of characters, induction over lines; termination by fuel, non-termination for every fuel |
| C60 | Restarting from a checkpoint keeps the earlier measurements | proved (7) | `P_Cli`, `P_Io` | parser as structural recursion over the arguments and over the lines of the response file; precedence by an invariant of the stored values; texts as lists of characters, induction over lines; termination by fuel, non-termination for every fuel |
| C61 | Printing a tuple shows each component | proved (4) | `P_Io` | texts as lists of characters, induction over lines; termination by fuel, non-termination for every fuel |
| C62 | Number helpers satisfy the complex-number identities | proved (5) | `P_Number` | case analysis over the reals / any commutative ring |
| C63 | Filling a dense matrix from a function | proved (2) | `P_MatrixCheck` | loops as forallb/existsb and folds |
| C64 | The integrated equation is the projected Heisenberg equation of motion | proved (3) | `P_Dynamics`, `P_DynamicsKinetic` | Heisenberg equation: matrix of the code against commutators in Fock space; (anti-)hermiticity and conserved norms by summation identities; the same for the one-operator basis; the hopping commutator is a row of the kinetic matrix (C30), the matrix is symmetric, sums over sparse rows are sums over entries |
| C65 | RK4 changes the norm by an explicit higher-order amount | proved (1) | `P_Ode` | module algebra: the step is the Taylor polynomial of degree 4 of the exponential; buffers and aliasing explicit |
| C66 | The generator of the real-space programs is anti-hermitian for real parameters | proved (4) | `P_Dynamics`, `P_DynamicsKinetic` | Heisenberg equation: matrix of the code against commutators in Fock space; (anti-)hermiticity and conserved norms by summation identities; the same for the one-operator basis; the hopping commutator is a row of the kinetic matrix (C30), the matrix is symmetric, sums over sparse rows are sums over entries |
| C67 | The initial vector represents the creator on site 0 | proved (2) | `P_Dynamics`, `P_DynamicsKinetic` | Heisenberg equation: matrix of the code against commutators in Fock space; (anti-)hermiticity and conserved norms by summation identities; the same for the one-operator basis; the hopping commutator is a row of the kinetic matrix (C30), the matrix is symmetric, sums over sparse rows are sums over entries |
| C68 | The site occupation is never negative | proved (3) | `P_DynamicsKinetic`, `P_Positive`, `P_ShippedAverages` | the same for the one-operator basis; the hopping commutator is a row of the kinetic matrix (C30), the matrix is symmetric, sums over sparse rows are sums over entries; the occupation is the square norm of a vector in Fock space; the alternating sum of the table is 1/2 minus 2/pi times an even partial sum of Leibniz series, which exceeds pi/4 |
| C69 | The Fermi jump measures the anticommutator with the annihilator at k_F | proved (1) | `P_FermiJump` | invariant of the interleaving semantics of parallel loops (no two threads touch the same cell); induction over call histories; Slater determinants for the physical meaning |
| C70 | A triplet list reports its dimensions and sorts by the named order | proved (4) | `P_Checkpoint` | the file system as a map, the program as the list of its file system operations; every prefix is a crash point; induction over the number of checkpoints |
| C71 | Cleaning the output file keeps a backup at every crash point | proved (4) | `P_Checkpoint` | the file system as a map, the program as the list of its file system operations; every prefix is a crash point; induction over the number of checkpoints |
| C72 | Checkpoint files are numbered consecutively and completed in order | proved (5) | `P_Checkpoint` | the file system as a map, the program as the list of its file system operations; every prefix is a crash point; induction over the number of checkpoints |
| C73 | The command line overrides the response file, which overrides the defaults | proved (5) | `P_Cli` | parser as structural recursion over the arguments and over the lines of the response file; precedence by an invariant of the stored values |
| C74 | A run can be repeated from its response file | proved (2) | `P_Cli` | parser as structural recursion over the arguments and over the lines of the response file; precedence by an invariant of the stored values |
| C75 | The output file starts with the parameters as comments | proved (3) | `P_Cli` | parser as structural recursion over the arguments and over the lines of the response file; precedence by an invariant of the stored values |
| C76 | The files of a run have distinct paths | proved (3) | `P_Cli` | parser as structural recursion over the arguments and over the lines of the response file; precedence by an invariant of the stored values |
| C77 | Time evolution is stable below an explicit step size | proved (2) | `P_Stability` | energy identity |P x|^2 = |x|^2 - h^6/72 |A^3 x|^2 + h^8/576 |A^4 x|^2; Schur test; Taylor's theorem; Picard iteration for existence |
| C78 | Time evolution converges to the exact solution with a known error | proved (6) | `P_Heisenberg`, `P_Stability` | existence and uniqueness from P_Stability; the derivative of a matrix element is a finite sum of derivatives of the coefficients, C64_kinetic turns it into the commutator; energy identity |P x|^2 = |x|^2 - h^6/72 |A^3 x|^2 + h^8/576 |A^4 x|^2; Schur test; Taylor's theorem; Picard iteration for existence |
| C79 | The exact coefficients of the theory program are the infinite chain | proved (7) | `P_Theory` | discrete Fourier analysis of the printed sums |
| C80 | Printed operators, monomials and terms are distinct | proved (6) | `P_Print` | printed texts as character lists; unique readability by induction |
| C81 | The commutator programs print the commutators of the Hubbard model | proved (5) | `P_Commutators` | symbolic evaluation of the printing programs on the model of the symbolic algebra; equality of operators in Fock space for every lattice |
| C82 | Momentum-space program prints the projected particle number at t = 0 and t = 8 dt | proved (3) | `P_MomentumProgram` | as P_JumpPrograms, for the momentum-space program (arrow matrix: closed-form bound for its norm) |
| C83 | Small test program: coefficients converge, printed occupation lacks a conjugation | proved (3) | `P_Trivial` | as P_Programs for the 4x4 matrix |
| C84 | Sparse matrices as text files | proved (10) | `P_EigenIo` | regular expressions by derivatives; induction over the lines; fuel-indexed loops with a proof that no fuel suffices for the non-terminating cases |
| C85 | Products when both sides are the same object | proved (7) | `P_Alias` | objects as a store of vectors with capacity and relocation count; induction over the copy loop |
| C86 | What the coefficient programs print | proved (2) | `P_Programs` | composition of the theorems about matrix, RK4, time loop, averages and site occupation; bounded quadratic forms |
| C87 | What the site occupation programs print | proved (4) | `P_Programs` | composition of the theorems about matrix, RK4, time loop, averages and site occupation; bounded quadratic forms |
| C88 | What the Fermi jump programs print | proved (4) | `P_JumpPrograms` | composition of C34/C66 (matrix), C77/C78 (RK4 error bound), C53 (time loop), C41 (averages), C45/C46 (observable); Bessel inequality for the two real linear forms of the amplitude |
| C89 | Symbolic index names never clash unless the user makes them | proved (6) | `P_Index` | injectivity of decimal notation |
| C90 | The dispersion program writes the complete band structure | proved (3) | `P_DispersionProgram` | C19 (iteration) and C54 (table) composed |
| C91 | Rounding errors of the time evolution in double precision are bounded | proved (5) | `P_Rounding` | forward error analysis in the standard model of floating-point arithmetic |
| C92 | Positions and momenta in double precision lead to the right sites | proved (6) | `P_LatticeDouble` | explicit error bounds for every operation, compared with the gap between neighbouring momenta |
| C93 | Site occupation in floating point, for every thread schedule | proved (13) | `P_RoundedMeasurement`, `P_RoundedMeasurement2`, `P_RoundedMeasurement3`, `P_RoundedMeasurement4` | error propagation through every operation (relative factor and absolute part), an invariant of the threads' partial sums over all interleavings; the refutation evaluates the rounding of each addition;  |
| C94 | The real-space programs in double precision, from the start to the printed lines | proved (7) | `P_DoublePrograms`, `P_DoublePrograms2` | the double-precision time loop agrees with one whose roundings have relative error 2^-53 (so C53 applies), then C91 for the coefficients, Lipschitz bounds of the occupation as a quadratic form for coefficients and table, C93 for the measurement;  |
| C95 | Fermi jump in double precision | proved (5) | `P_RoundedJump`, `P_RoundedJump2` | the elements of the static array are written by one iteration each (so no interleaving matters); relative error predicates for every operation with a floor against underflow, summed over any grouping of the summands; C69 for the physical meaning;  |
| C96 | The Fermi-jump programs in double precision, from the start to the printed lines | proved (5) | `P_DoubleJumpPrograms`, `P_DoubleJumpPrograms2` | as P_DoublePrograms, with C95 for the rounding of an evaluation, a Lipschitz bound of the jump in the coefficients, the table and the phase factors, and the static array carried through the evaluations;  |
| C97 | commutate into the vector that holds an argument | proved (4) | `P_CommutateAlias` | the two loops as one list of pairs; induction with the invariant that the references still point into the current block |
| C98 | Energies and Fermi sea in double precision | proved (5) | `P_DoubleDispersion` | explicit error bounds for every operation; pi to 17 digits from the Machin series (exact rational arithmetic), so that the double next to pi and the positions of the Fermi points are known exactly |
| C99 | Momentum-space program in double precision | proved (3) | `P_DoubleMomentum` | the rounded matrix is again antisymmetric after multiplication by i and close to the exact one (an arrow matrix), so two stable runs stay together (perturbation lemma for antisymmetric operators); rounding of eight steps as in C89; the measurement is a sum of at most 6 N^2 terms; combined with the exact solution as in C82 |
| C100 | A program reports its build and starts in a defined environment | proved (11) | `P_Platform` | the constructor of Application around the command line model of M_Cli; texts by cutting at the separators, which do not occur in decimal numbers; start-up by the invariant of stored options of C73 |
| C101 | The text of an exception names file, line and message | proved (3) | `P_Platform` | the constructor of Application around the command line model of M_Cli; texts by cutting at the separators, which do not occur in decimal numbers; start-up by the invariant of stored options of C73 |
| C102 | Number of stored matrix elements and what the log says about it | proved (8) | `P_MatrixLog` | closed form of the rows (C30, C35); counting is invariant under the permutation made by std::sort; the N rows with three equal sites by a bijection |
| C103 | hubbard_dispersion_1d in double precision | proved (2) | `P_DoubleDispersionProgram` | the main function followed line by line; the numbers from the C92 and C98 error bounds, the exact ones because 2 pi/N is exact for powers of two |
| C104 | hubbard_trivial in double precision | proved (2) | `P_DoubleTrivial` | the 4x4 matrix as a sparse matrix with full rows, so that the C91 error analysis applies; the particle number with explicit bounds for each of its 16 terms |
| C105 | The exact-solution program writes the double sum of its coefficients, within explicit rounding bounds, for every thread schedule | proved (5) | `P_TheoryProgram` | the memory of the threads as disjoint cells, so every interleaving gives each partial sum in program order; forward error bounds for every summand and every addition order; sum J_n^2 <= 1 and the Lipschitz bound of J_n from the recurrence (no special-function library) |
| C106 | The averages computed in doubles are the Fermi-sea integrals up to 2^-48, for every lattice size and filling | proved (8) | `P_DoubleExpectation`, `P_DoubleExpectation2` | forward error analysis in which the absolute error of the argument is divided by the same distance again (so the bound is uniform); pi to 17 digits for the nonzero values at half filling;  |
| C107 | The real-space programs in double precision with the tables they compute themselves | proved (10) | `P_DoubleMain`, `P_DoubleMain2` | rounding errors of the phases, Lipschitz bound of sine and cosine, C46 for the loop; C106 and the factors put into C94 and C96 |
| C108 | Without interaction the printed occupation stays at the filling factor and the jump at 1 | proved (13) | `P_JumpLimits`, `P_LimitsDouble`, `P_Occupation`, `P_OccupationDouble`, `P_OccupationFree` | without hopping the amplitude has two terms; without interaction a plane wave is an eigenvector of the hopping, so the amplitude only rotates; for N = 4k + 2 the derivative at t = 0 is computed; C107 (C96 with moved phases for the square lattice) around the closed forms; the ring table commutes with the hopping matrix, so the quadratic form is conserved (derivative zero); one Taylor step changes it only by its sixth and eighth order terms; C107 around the conserved value; the entries coupling one- and three-operator elements are multiples of U; the kinetic solution extended by zeros solves the full equation, uniqueness does the rest |
| C109 | Without hopping the programs compute the exact atomic limit | proved (11) | `P_Atomic`, `P_AtomicOperator`, `P_JumpLimits`, `P_LimitsDouble` | with J = 0 the matrix couples c+_0 only to its own three-operator element: the closed form solves the equation, uniqueness does the rest; the two-term vector is an operator; its commutator with the interaction in every occupation state is computed and compared with the derivative; without hopping the amplitude has two terms; without interaction a plane wave is an eigenvector of the hopping, so the amplitude only rotates; for N = 4k + 2 the derivative at t = 0 is computed; C107 (C96 with moved phases for the square lattice) around the closed forms |
| C110 | The time evolution and the programs respect the symmetries of the lattice | proved (7) | `P_Symmetry` | the entries of the matrix depend on adjacency and equality of sites only; uniqueness of the solution, and invariance of every Taylor step by reindexing; the averages depend on ring distances only |
| C111 | Time reversal and particle-hole symmetry of the coefficients | proved (7) | `P_ParticleHole`, `P_ParticleHoleDouble` | the entries are purely imaginary and change sign under the colouring except for the diagonal U; the transformed vector is a solution with the same start, so uniqueness applies; without interaction the pattern of zeros is kept by every Taylor step; the zeros are kept by every rounded operation: only 0+0=0, 0*x=x*0=0 are used |
| C112 | Scaling and sign of the parameters | proved (10) | `P_AttractionDouble`, `P_Parameters`, `P_SignDouble` | as P_SignDouble with complex conjugation: the matrix for (J, -U) is minus the matrix for (J, U) times the two signs, and times i it is the conjugate times the signs; the entries are linear in (J, U) and change sign with J under the colouring; one Taylor step depends on dt times the matrix only; induction over the steps, and uniqueness for the exact solution; the two runs are related by a sign per coefficient: every rounded operation is odd, every stored matrix element of the -J run is the element of the J run times the two signs (same columns in the same order), so the relation is an invariant of the rounded step |
| C113 | Momentum-space program: exactly solvable limits and scaling | proved (5) | `P_MomentumLimits` | without interaction the matrix is diagonal, so one step multiplies the first coefficient with the fourth-order Taylor polynomial of exp(ix); induction over the steps; scaling as in C112; uniqueness for the exact solution |
| C114 | What the exact-solution program writes over time | proved (5) | `P_TheoryValue` | derivative of the truncated sum of squares; conservation of the occupation on the ring (C108) and the distance of C79; an energy estimate t(a^2+b^2) - (n+1/2)ab for J_n, J_(n+1) shows that they decay |
| C115 | Light cone of the time evolution | proved (6) | `P_LightCone`, `P_LightConeDouble` | levels by distance from site 0: the matrix raises the level by at most one, so RK4 by at most four; for the exact solution an energy estimate of the part beyond level d with the matrix for U = 0, by induction on d (Lieb-Robinson); structural: every stored column is at most one level away and sums and products of zeros are zero in doubles |
| C116 | The length of the chain does not matter until the light cone closes | proved (3) | `P_Window`, `P_WindowDouble` | the matrix entries between elements within D hops of site 0 are the same functions of the offsets on every ring with at least 2D+1 sites; so the vectors agree on the window as long as they vanish outside it, step by step; the rows of the window are copied element by element in the same order (carrying preserves the order of columns), so each rounded row sum takes the same steps; rows at the edge meet zeros only |
| C117 | Convergence with the length of the chain | proved (1) | `P_Grow` | the solution on one ring, cut off at D hops and carried to the other ring, satisfies the equation of motion up to what has reached level D, bounded by C115; Duhamel then bounds the difference |
| C118 | The evolved operator is the true Heisenberg operator up to U^2 |J| t^3 | proved (6) | `P_Truncation`, `P_TruncationDouble`, `P_TruncationStrict` | the matrix elements of the program's operator between all basis states obey Heisenberg's equation up to the projected-away part of the commutator; that part is the residual of an orthogonal projection (C113), so it is no longer than the residual of any other approximation: only coefficients two hops of doublon number away contribute. A level function on the basis (0 for the initial operator, +1 per new operator pair) and a Duhamel estimate bound those coefficients by |U J| t^2. The commutator with H is an anti-hermitian superoperator, so the residual integrates to the bound; existence and uniqueness of the true motion from the matrix exponential.; triangle inequality: C94 (rounded run against the exact coefficients) and C118; if the operators agreed on an interval, the missed part would vanish there, so by C120 all coefficients of products on several sites; the equations of motion then force the coefficient of the doublon operator at site 0 and that of the creator at site 0 to vanish on the interval, but the latter starts at 1 |
| C119 | The size of the square lattice does not matter until the light cone closes | proved (2) | `P_WindowSquare` | as C116 and C117, with displacements on the torus in place of offsets on the ring: the matrix on the window is given by the displacements alone |
| C120 | What the three-operator basis misses: the equation of motion is closed only without interaction or without correlated hops | proved (3) | `P_Closure` | what is missed is, matrix element by matrix element, -U (D - 1/2) times the part of the operator acting on several sites, where D is the whole number by which the number of doubly occupied sites changes; |D - 1/2| is at least 1/2, and at most 3/2 where the operator has a matrix element; the missed part is orthogonal to the basis |
| C121 | The output files keep six significant digits | proved (7) | `P_Ostream` | correct rounding to six decimal digits (Flocq's FLX format in radix ten), then the text is read back by an independent reader of decimal numerals, by induction on the digits |
| C122 | The output files are tables that can be read back | proved (15) | `P_OutputFile`, `P_OutputJump`, `P_OutputMomentum`, `P_OutputPrograms`, `P_OutputPrograms2`, `P_OutputTrivial` | the text is split by an independent reader: induction over the lines and columns, using that a printed number contains neither tab nor newline nor #; as P_OutputPrograms, with C96; as P_OutputPrograms, with C99; the error bounds of C94 and C103 for the written doubles, composed with the error of reading the text; as P_OutputPrograms, with C94 and C105; as P_OutputPrograms, with C104 |
| C123 | The computed motion depends continuously on J and U, and the numbers as written on the command line are what it follows | proved (9) | `P_Continuity`, `P_ContinuityDouble`, `P_ContinuityFile`, `P_ContinuityKinetic`, `P_ContinuityTime` | the matrix is linear in J and U, so the second motion misses the first equation by the matrix of the differences applied to it; the differential inequality of C79 (duhamel) and conservation of the norm give the linear bound; relative error of one rounding of the numeral's value (Spec_Numeral.numeral, M_OptionValue.option_value), C123_solution, and the triangle inequality with C94; C123_written and C123_time give the distance of the motion the program follows from the motion for the values as written; C94 and the tables of C122 (read_solution, read_measured) do the rest; the same for the matrix without interaction; the occupation is a quadratic form with coefficients at most 5 in absolute value of vectors of length 1; y(l t) solves the equation for (l J, l U) (C112), so C123_solution bounds the speed of the motion; then the triangle inequality |

Models used by each theorem file:

* `P_Algebra`: M_Commutator, M_Operator
* `P_Algebra2`: M_Commutator, M_Operator
* `P_Alias`: M_Alias
* `P_Atomic`: M_Basis, M_Dispersion, M_Expectation, M_Lattice, M_LatticeReal, M_Matrix, M_MatrixCheck, M_Ode, M_OpenMP, M_Operator, M_Programs, M_SiteOccupation, M_TimeLoop
* `P_AtomicOperator`: M_Basis, M_Dispersion, M_Expectation, M_Lattice, M_LatticeReal, M_Matrix, M_MatrixCheck, M_Ode, M_OpenMP, M_Operator, M_Programs, M_SiteOccupation, M_TimeLoop
* `P_AttractionDouble`: M_Basis, M_Dispersion, M_Double, M_DoublePrograms, M_Lattice, M_Matrix, M_Ode, M_OpenMP, M_Operator, M_Programs, M_RoundedMeasurement, M_Rounding, M_TimeLoop
* `P_Basis`: M_Basis, M_Lattice, M_LatticeReal, M_Operator
* `P_Checkpoint`: M_Io, M_Text
* `P_Cli`: M_Cli, M_Io, M_Text
* `P_Closure`: M_Basis, M_Dispersion, M_Lattice, M_Matrix, M_MatrixCheck, M_Ode, M_OpenMP, M_Operator, M_Programs
* `P_CommutateAlias`: M_Alias, M_CommutateAlias, M_Commutator, M_Operator
* `P_Commutators`: M_Basis, M_Commutator, M_Commutators, M_Io, M_Lattice, M_Operator, M_Print, M_Text
* `P_Continuity`: M_Basis, M_Dispersion, M_Lattice, M_LatticeReal, M_Matrix, M_Ode, M_Operator, M_Programs, M_TimeLoop
* `P_ContinuityDouble`: M_Basis, M_Dispersion, M_Double, M_DoublePrograms, M_Expectation, M_Io, M_Lattice, M_Matrix, M_Ode, M_OpenMP, M_Operator, M_OptionValue, M_Programs, M_RoundedMeasurement, M_Rounding, M_SiteOccupation, M_Text, M_TimeLoop
* `P_ContinuityFile`: M_Basis, M_Cli, M_Dispersion, M_Double, M_DoublePrograms, M_Expectation, M_Io, M_Lattice, M_Matrix, M_Ode, M_OpenMP, M_Operator, M_OptionValue, M_Ostream, M_OutputFile, M_Programs, M_RoundedMeasurement, M_Rounding, M_SiteOccupation, M_Text, M_TimeLoop
* `P_ContinuityKinetic`: M_Basis, M_Dispersion, M_Lattice, M_LatticeReal, M_Matrix, M_Ode, M_Operator, M_Programs, M_TimeLoop
* `P_ContinuityTime`: M_Basis, M_Dispersion, M_Double, M_DoublePrograms, M_Expectation, M_Io, M_Lattice, M_Matrix, M_Ode, M_OpenMP, M_Operator, M_OptionValue, M_Programs, M_RoundedMeasurement, M_Rounding, M_SiteOccupation, M_Text, M_TimeLoop
* `P_Dispersion`: M_Basis, M_Dispersion, M_Lattice, M_LatticeReal, M_Matrix, M_Ode
* `P_DispersionProgram`: M_Dispersion, M_DispersionProgram, M_Io, M_Lattice, M_LatticeReal, M_Matrix, M_Text
* `P_DoubleDispersion`: M_Dispersion, M_Double, M_DoubleDispersion, M_LatticeDouble, M_LatticeReal, M_Matrix, M_OpenMP, M_Rounding
* `P_DoubleDispersionProgram`: M_Dispersion, M_DispersionProgram, M_Double, M_DoubleDispersion, M_DoubleDispersionProgram, M_Io, M_Lattice, M_LatticeDouble, M_LatticeReal, M_Matrix, M_OpenMP, M_Rounding, M_Text
* `P_DoubleExpectation`: M_Dispersion, M_Double, M_DoubleExpectation, M_Expectation, M_Lattice, M_LatticeDouble, M_Matrix, M_Rounding
* `P_DoubleExpectation2`: M_Dispersion, M_Double, M_DoubleExpectation, M_Expectation, M_Io, M_Lattice, M_LatticeDouble, M_Matrix, M_OpenMP, M_Rounding, M_Text, M_TheoryProgram
* `P_DoubleJumpPrograms`: M_Basis, M_Dispersion, M_Double, M_DoubleJumpPrograms, M_DoublePrograms, M_Expectation, M_FermiJump, M_JumpPrograms, M_Lattice, M_LatticeReal, M_Matrix, M_Ode, M_OpenMP, M_Operator, M_Programs, M_RoundedJump, M_RoundedMeasurement, M_Rounding, M_SiteOccupation, M_TimeLoop
* `P_DoubleJumpPrograms2`: M_Basis, M_Dispersion, M_Double, M_DoubleJumpPrograms, M_DoublePrograms, M_Expectation, M_Lattice, M_Matrix, M_Ode, M_OpenMP, M_Operator, M_Programs, M_RoundedMeasurement, M_Rounding, M_SiteOccupation, M_TimeLoop
* `P_DoubleMain`: M_Basis, M_Dispersion, M_Double, M_DoubleExpectation, M_DoubleJumpPrograms, M_DoubleMain, M_DoublePrograms, M_Expectation, M_FermiJump, M_Lattice, M_LatticeDouble, M_LatticeReal, M_Matrix, M_Ode, M_OpenMP, M_Operator, M_Programs, M_Rounding, M_SiteOccupation
* `P_DoubleMain2`: M_Basis, M_Dispersion, M_Double, M_DoubleExpectation, M_DoubleJumpPrograms, M_DoubleMain, M_DoublePrograms, M_Expectation, M_FermiJump, M_Lattice, M_LatticeDouble, M_LatticeReal, M_Matrix, M_Ode, M_OpenMP, M_Operator, M_Programs, M_Rounding, M_SiteOccupation, M_TimeLoop
* `P_DoubleMomentum`: M_Basis, M_Dispersion, M_Double, M_DoubleDispersion, M_DoubleMomentum, M_FermiSea, M_Lattice, M_LatticeDouble, M_LatticeReal, M_Matrix, M_MomentumProgram, M_NonVanishing, M_Ode, M_OpenMP, M_Operator, M_RoundedMeasurement, M_Rounding, M_SiteOccupation
* `P_DoublePrograms`: M_Basis, M_Dispersion, M_Double, M_DoublePrograms, M_Expectation, M_Lattice, M_Matrix, M_Ode, M_OpenMP, M_Operator, M_Programs, M_RoundedMeasurement, M_Rounding, M_SiteOccupation, M_TimeLoop
* `P_DoublePrograms2`: M_Basis, M_Dispersion, M_Double, M_DoublePrograms, M_Expectation, M_Lattice, M_Matrix, M_Ode, M_OpenMP, M_Operator, M_Programs, M_RoundedMeasurement, M_Rounding, M_SiteOccupation, M_TimeLoop
* `P_DoubleTrivial`: M_Dispersion, M_Double, M_DoubleTrivial, M_LatticeDouble, M_Matrix, M_MatrixCheck, M_Ode, M_Rounding, M_Trivial
* `P_Dynamics`: M_Basis, M_Lattice, M_Matrix, M_MatrixCheck, M_Ode, M_Operator
* `P_DynamicsKinetic`: M_Basis, M_Dispersion, M_Lattice, M_Matrix, M_MatrixCheck, M_Ode, M_OpenMP, M_Operator, M_SiteOccupation
* `P_EigenIo`: M_EigenIo, M_Io, M_Matrix, M_Text
* `P_Expectation`: M_Dispersion, M_Expectation, M_Lattice, M_LatticeReal, M_Matrix
* `P_FermiJump`: M_Basis, M_Dispersion, M_FermiJump, M_Lattice, M_Matrix, M_Ode, M_OpenMP, M_Operator, M_SiteOccupation
* `P_FermiSea`: M_Basis, M_FermiSea, M_Operator
* `P_Grow`: M_Basis, M_Dispersion, M_JumpPrograms, M_Lattice, M_LatticeReal, M_Matrix, M_Ode, M_OpenMP, M_Operator, M_Programs, M_TimeLoop
* `P_Heisenberg`: M_Basis, M_Dispersion, M_Lattice, M_Matrix, M_MatrixCheck, M_Ode, M_Operator
* `P_Index`: M_Index, M_Io, M_Operator, M_Print, M_Text
* `P_Io`: M_Io, M_Text
* `P_JumpLimits`: M_Basis, M_Dispersion, M_Expectation, M_FermiJump, M_JumpPrograms, M_Lattice, M_LatticeReal, M_Matrix, M_Ode, M_OpenMP, M_Operator, M_Programs, M_SiteOccupation, M_TimeLoop
* `P_JumpPrograms`: M_Basis, M_Dispersion, M_Expectation, M_FermiJump, M_JumpPrograms, M_Lattice, M_LatticeReal, M_Matrix, M_Ode, M_OpenMP, M_Operator, M_Programs, M_SiteOccupation, M_TimeLoop
* `P_KineticNo`: M_Basis, M_KineticNo, M_Lattice, M_Matrix, M_Operator
* `P_Lattice`: M_Lattice
* `P_LatticeDouble`: M_Basis, M_Double, M_Lattice, M_LatticeDouble, M_LatticeReal, M_Operator, M_Rounding
* `P_LatticeReal`: M_Lattice, M_LatticeReal
* `P_LightCone`: M_Basis, M_Dispersion, M_JumpPrograms, M_Lattice, M_LatticeReal, M_Matrix, M_Ode, M_OpenMP, M_Operator, M_Programs, M_TimeLoop
* `P_LightConeDouble`: M_Basis, M_Dispersion, M_Double, M_DoublePrograms, M_Lattice, M_Matrix, M_Ode, M_OpenMP, M_Operator, M_Programs, M_RoundedMeasurement, M_Rounding, M_TimeLoop
* `P_LimitsDouble`: M_Basis, M_Dispersion, M_Double, M_DoubleExpectation, M_DoubleJumpPrograms, M_DoubleMain, M_DoublePrograms, M_Expectation, M_FermiJump, M_JumpPrograms, M_Lattice, M_LatticeDouble, M_LatticeReal, M_Matrix, M_Ode, M_OpenMP, M_Operator, M_Programs, M_Rounding, M_SiteOccupation, M_TimeLoop
* `P_Matrix`: M_Basis, M_Lattice, M_Matrix, M_Operator
* `P_MatrixCheck`: M_Matrix, M_MatrixCheck, M_Number
* `P_MatrixLog`: M_Basis, M_Io, M_Lattice, M_Matrix, M_MatrixLog, M_Operator, M_Text
* `P_Momentum`: M_Basis, M_Lattice, M_LatticeReal, M_Matrix, M_Operator
* `P_MomentumLimits`: M_Basis, M_Dispersion, M_FermiSea, M_Lattice, M_LatticeReal, M_Matrix, M_MomentumProgram, M_NonVanishing, M_Ode, M_OpenMP, M_Operator, M_SiteOccupation
* `P_MomentumProgram`: M_Basis, M_Dispersion, M_FermiSea, M_Lattice, M_LatticeReal, M_Matrix, M_MomentumProgram, M_NonVanishing, M_Ode, M_OpenMP, M_Operator, M_SiteOccupation
* `P_NonVanishing`: M_Basis, M_Dispersion, M_FermiSea, M_Lattice, M_LatticeReal, M_Matrix, M_NonVanishing, M_Number, M_OpenMP, M_Operator, M_SiteOccupation
* `P_NormalOrder`: M_Basis, M_Lattice, M_Matrix, M_Operator
* `P_Number`: M_Number
* `P_Occupation`: M_Basis, M_Dispersion, M_Expectation, M_Lattice, M_LatticeReal, M_Matrix, M_MatrixCheck, M_Ode, M_OpenMP, M_Operator, M_Programs, M_SiteOccupation, M_TimeLoop
* `P_OccupationDouble`: M_Basis, M_Dispersion, M_Double, M_DoubleExpectation, M_DoubleJumpPrograms, M_DoubleMain, M_DoublePrograms, M_Expectation, M_FermiJump, M_Lattice, M_LatticeDouble, M_LatticeReal, M_Matrix, M_Ode, M_OpenMP, M_Operator, M_Programs, M_Rounding, M_SiteOccupation, M_TimeLoop
* `P_OccupationFree`: M_Basis, M_Dispersion, M_Expectation, M_Lattice, M_LatticeReal, M_Matrix, M_MatrixCheck, M_Ode, M_OpenMP, M_Operator, M_Programs, M_SiteOccupation, M_TimeLoop
* `P_Ode`: M_Matrix, M_MatrixCheck, M_Ode
* `P_Ostream`: M_Double, M_Io, M_Ostream, M_Text
* `P_OutputFile`: M_Basis, M_Cli, M_Dispersion, M_Double, M_DoublePrograms, M_Expectation, M_Io, M_Lattice, M_Matrix, M_Ode, M_OpenMP, M_Operator, M_Ostream, M_OutputFile, M_Programs, M_RoundedMeasurement, M_Rounding, M_SiteOccupation, M_Text, M_TimeLoop
* `P_OutputJump`: M_Basis, M_Cli, M_Dispersion, M_DispersionProgram, M_Double, M_DoubleDispersion, M_DoubleDispersionProgram, M_DoubleJumpPrograms, M_DoublePrograms, M_Expectation, M_Io, M_JumpPrograms, M_Lattice, M_LatticeReal, M_Matrix, M_Ode, M_OpenMP, M_Operator, M_Ostream, M_OutputFile, M_Programs, M_RoundedJump, M_RoundedMeasurement, M_Rounding, M_SiteOccupation, M_Text, M_TimeLoop
* `P_OutputMomentum`: M_Basis, M_Dispersion, M_Double, M_DoubleDispersion, M_DoubleMomentum, M_FermiSea, M_Io, M_Lattice, M_LatticeDouble, M_LatticeReal, M_Matrix, M_MomentumProgram, M_NonVanishing, M_Ode, M_OpenMP, M_Operator, M_Ostream, M_OutputFile, M_RoundedMeasurement, M_Rounding, M_SiteOccupation, M_Text
* `P_OutputPrograms`: M_Basis, M_Cli, M_Dispersion, M_DispersionProgram, M_Double, M_DoubleDispersion, M_DoubleDispersionProgram, M_DoublePrograms, M_Expectation, M_Io, M_Lattice, M_LatticeReal, M_Matrix, M_Ode, M_OpenMP, M_Operator, M_Ostream, M_OutputFile, M_Programs, M_RoundedMeasurement, M_Rounding, M_SiteOccupation, M_Text, M_TimeLoop
* `P_OutputPrograms2`: M_Basis, M_Cli, M_Dispersion, M_DispersionProgram, M_Double, M_DoubleDispersion, M_DoubleDispersionProgram, M_DoublePrograms, M_Expectation, M_Io, M_Lattice, M_LatticeReal, M_Matrix, M_Ode, M_OpenMP, M_Operator, M_Ostream, M_OutputFile, M_Programs, M_RoundedMeasurement, M_Rounding, M_SiteOccupation, M_Text, M_Theory, M_TheoryProgram, M_TimeLoop
* `P_OutputTrivial`: M_Basis, M_Cli, M_Dispersion, M_DispersionProgram, M_Double, M_DoubleDispersion, M_DoubleDispersionProgram, M_DoublePrograms, M_DoubleTrivial, M_Expectation, M_Io, M_Lattice, M_LatticeReal, M_Matrix, M_Ode, M_OpenMP, M_Operator, M_Ostream, M_OutputFile, M_Programs, M_RoundedMeasurement, M_Rounding, M_SiteOccupation, M_Text, M_Theory, M_TheoryProgram, M_TimeLoop, M_Trivial
* `P_Parameters`: M_Basis, M_Dispersion, M_Expectation, M_FermiJump, M_JumpPrograms, M_Lattice, M_LatticeReal, M_Matrix, M_Ode, M_OpenMP, M_Operator, M_Programs, M_SiteOccupation, M_TimeLoop
* `P_ParticleHole`: M_Basis, M_Dispersion, M_Expectation, M_FermiJump, M_Lattice, M_LatticeReal, M_Matrix, M_Ode, M_OpenMP, M_Operator, M_Programs, M_SiteOccupation, M_TimeLoop
* `P_ParticleHoleDouble`: M_Basis, M_Dispersion, M_Double, M_DoublePrograms, M_Lattice, M_Matrix, M_Ode, M_OpenMP, M_Operator, M_Programs, M_RoundedMeasurement, M_Rounding, M_TimeLoop
* `P_ParticleNumber`: M_Basis, M_Dispersion, M_FermiSea, M_Lattice, M_LatticeReal, M_Matrix, M_NonVanishing, M_Number, M_OpenMP, M_Operator, M_SiteOccupation
* `P_Platform`: M_Cli, M_Io, M_Matrix, M_Platform, M_Text
* `P_Positive`: M_Basis, M_Dispersion, M_Lattice, M_Matrix, M_OpenMP, M_Operator, M_SiteOccupation
* `P_Print`: M_Basis, M_Commutator, M_Io, M_Operator, M_Print, M_SiteOccupation, M_Text
* `P_Programs`: M_Basis, M_Dispersion, M_Expectation, M_Lattice, M_LatticeReal, M_Matrix, M_Ode, M_OpenMP, M_Operator, M_Programs, M_SiteOccupation, M_TimeLoop
* `P_Rectangle`: M_Basis, M_Lattice, M_Matrix, M_Operator
* `P_Rectangle2`: M_Dispersion, M_Expectation, M_Lattice, M_Matrix
* `P_RoundedJump`: M_Basis, M_Dispersion, M_Double, M_FermiJump, M_Lattice, M_Matrix, M_Ode, M_OpenMP, M_Operator, M_RoundedJump, M_RoundedMeasurement, M_Rounding, M_SiteOccupation
* `P_RoundedJump2`: M_Basis, M_Dispersion, M_Double, M_FermiJump, M_Lattice, M_Matrix, M_Ode, M_OpenMP, M_Operator, M_RoundedJump, M_RoundedMeasurement, M_Rounding, M_SiteOccupation
* `P_RoundedMeasurement`: M_Basis, M_Dispersion, M_Matrix, M_Number, M_Ode, M_OpenMP, M_Operator, M_RoundedMeasurement, M_Rounding, M_SiteOccupation
* `P_RoundedMeasurement2`: M_Basis, M_Dispersion, M_Double, M_Matrix, M_Number, M_Ode, M_OpenMP, M_Operator, M_RoundedMeasurement, M_Rounding, M_SiteOccupation
* `P_RoundedMeasurement3`: M_Basis, M_Dispersion, M_Double, M_Matrix, M_Number, M_Ode, M_OpenMP, M_Operator, M_RoundedMeasurement, M_Rounding, M_SiteOccupation
* `P_RoundedMeasurement4`: M_Basis, M_Dispersion, M_Double, M_Lattice, M_Matrix, M_Number, M_Ode, M_OpenMP, M_Operator, M_RoundedMeasurement, M_Rounding, M_SiteOccupation
* `P_Rounding`: M_Basis, M_Dispersion, M_Double, M_Lattice, M_Matrix, M_MatrixCheck, M_Ode, M_Operator, M_Rounding
* `P_ShippedAverages`: M_Basis, M_Dispersion, M_Expectation, M_Lattice, M_LatticeReal, M_Matrix, M_MatrixCheck, M_Ode, M_OpenMP, M_Operator, M_Programs, M_SiteOccupation, M_TimeLoop
* `P_SignDouble`: M_Basis, M_Dispersion, M_Double, M_DoublePrograms, M_Lattice, M_Matrix, M_Ode, M_OpenMP, M_Operator, M_Programs, M_RoundedMeasurement, M_Rounding, M_TimeLoop
* `P_SiteOccupation`: M_Basis, M_Dispersion, M_Lattice, M_Matrix, M_Number, M_Ode, M_OpenMP, M_Operator, M_SiteOccupation
* `P_Stability`: M_Basis, M_Dispersion, M_Lattice, M_Matrix, M_MatrixCheck, M_Ode, M_Operator
* `P_Symmetry`: M_Basis, M_Dispersion, M_Expectation, M_FermiJump, M_JumpPrograms, M_Lattice, M_LatticeReal, M_Matrix, M_Ode, M_OpenMP, M_Operator, M_Programs, M_SiteOccupation, M_TimeLoop
* `P_Text`: M_Text
* `P_Theory`: M_Basis, M_Dispersion, M_Expectation, M_Lattice, M_Matrix, M_Ode, M_OpenMP, M_Theory
* `P_TheoryProgram`: M_Basis, M_Dispersion, M_DispersionProgram, M_Double, M_Expectation, M_Io, M_Lattice, M_Matrix, M_Ode, M_OpenMP, M_Operator, M_RoundedMeasurement, M_Rounding, M_SiteOccupation, M_Text, M_Theory, M_TheoryProgram
* `P_TheoryValue`: M_Basis, M_Dispersion, M_DispersionProgram, M_Double, M_Expectation, M_Io, M_Lattice, M_Matrix, M_Ode, M_OpenMP, M_Operator, M_Rounding, M_SiteOccupation, M_Text, M_Theory, M_TheoryProgram
* `P_TimeLoop`: M_LatticeReal, M_Matrix, M_Number, M_TimeLoop
* `P_Triplet`: M_Basis, M_Lattice, M_Matrix, M_Operator
* `P_Trivial`: M_Dispersion, M_Matrix, M_MatrixCheck, M_Ode, M_Trivial
* `P_Truncation`: M_Basis, M_Dispersion, M_Lattice, M_Matrix, M_MatrixCheck, M_Ode, M_OpenMP, M_Operator, M_Programs
* `P_TruncationDouble`: M_Basis, M_Dispersion, M_Double, M_DoublePrograms, M_Lattice, M_Matrix, M_Ode, M_OpenMP, M_Operator, M_Programs, M_RoundedMeasurement, M_Rounding, M_TimeLoop
* `P_TruncationStrict`: M_Basis, M_Dispersion, M_Lattice, M_Matrix, M_MatrixCheck, M_Ode, M_OpenMP, M_Operator, M_Programs
* `P_Window`: M_Basis, M_Dispersion, M_JumpPrograms, M_Lattice, M_LatticeReal, M_Matrix, M_Ode, M_OpenMP, M_Operator, M_Programs, M_TimeLoop
* `P_WindowDouble`: M_Basis, M_Dispersion, M_Double, M_DoublePrograms, M_Lattice, M_Matrix, M_Ode, M_OpenMP, M_Operator, M_Programs, M_RoundedMeasurement, M_Rounding, M_TimeLoop
* `P_WindowSquare`: M_Basis, M_Dispersion, M_JumpPrograms, M_Lattice, M_LatticeReal, M_Matrix, M_Ode, M_OpenMP, M_Operator, M_Programs, M_TimeLoop

## Findings: claims one would expect and that are false of the code

Each is a theorem about the model with the suffix `_refuted`; the true part is proved beside it, and the property text states both.

* `C100_intel_refuted` (P_Platform): (defect) __INTEL_COMPILER is 100 major + 10 minor + patch; the text has 10 minor + patch in the place of the minor version, so it is right only if minor and patch are 0
* `C100_log_lost_refuted` (P_Platform): (defect) With an output file *.log the log file is the output file, which is emptied after the log was started
* `C100_logname_refuted` (P_Platform): (defect) Without the environment variable LOGNAME (daemons, containers), or with a host name of 128 characters or more, every other start is undefined behaviour, also with --version
* `C102_percent_refuted` (P_MatrixLog): (defect) The number logged with a % sign is a hundredth of the percentage
* `C102_wrap_refuted` (P_MatrixLog): (defect) For chains of more than 1625 sites the number of matrix elements does not fit into 64 bits: the logged number, and with it the share, is wrong
* `C102_zeros_refuted` (P_MatrixLog): (defect) Without interaction 3 N + N^3 of the elements counted as non-zero are zeros
* `C103_power_refuted` (P_DoubleDispersionProgram): for N a power of two: the middle line has the wave vector 0 exactly, and the energy -2 exactly if the cosine of 0 is 1; (defect) in lines N/4 and 3N/4 the energy is 0, but a negative number is written
* `C105_more_threads_refuted` (P_TheoryProgram): Defect: results has one vector per thread of the first parallel region (64-66), but is indexed with the thread number of the second (76). OpenMP does not promise that the two have equally many threads; a row in a thread without vector is undefined behaviour
* `C106_half_filling_refuted` (P_DoubleExpectation): Rounding defect: at half filling the averages at even distances vanish, but at the distances 2, 4, 8, ... the object holds values different from 0 (pi is not a double)
* `C108_jump_refuted` (P_JumpLimits): (defect) With N = 4k + 2 sites pi/2 is no momentum of the ring. At half filling the exact value of the printed quantity then leaves 1 at once, although nothing interacts: its derivative at t = 0 is 4 J, and for J > 0 it exceeds 1, which no jump of a momentum distribution does
* `C114_decay_refuted` (P_TheoryValue): on any ring the written value dies out
* `C122_times_distinct_refuted` (P_OutputFile): (defect) if more than 900001 consecutive times lie between 10^e and 10^(e+1), two of these rows have the same time
* `C16_canonical_form_refuted` (P_Algebra2): The canonical-form claim is false: the comparator ignores the second index
* `C21_every_position_refuted` (P_LatticeReal): So "every position maps to a site" is false on every real-space chain
* `C22_momentum_closest_refuted` (P_LatticeReal): ... and wrong on the whole interval around the zone edge, where site 0 is nearest
* `C23_index_collision_refuted` (P_Lattice): On a rectangle two different coordinate pairs can share one index
* `C23_rectangle_refuted` (P_Lattice)
* `C24_asymmetric_refuted` (P_Rectangle2): with more columns than rows the relation is not symmetric, except on the 1 x 2 and 1 x 3 lattices
* `C24_rectangle_refuted` (P_Lattice): Rectangles: a neighbour index can lie outside the lattice, and the neighbour relation need not be symmetric
* `C25_every_rectangle_refuted` (P_Rectangle2): ** C25: two different sites at distance zero, on every rectangle
* `C25_rectangle_refuted` (P_Lattice): On a rectangle two different sites can have both distances 0
* `C26_zone_edge_refuted` (P_LatticeReal): The zone corner: position (pi, pi), an image of site 0, gives an index beyond the lattice
* `C33_duplicate_columns_refuted` (P_Matrix)
* `C33_rectangle_kinetic_refuted` (P_Rectangle): (defect) On every square lattice with 3 <= Nx < Ny the kinetic matrix, where it can be built at all, is not symmetric: the last site hops to site (Nx - 2) Nx + Nx - 1, but no site hops to the last one; and site Nx hops to itself
* `C33_rectangle_refuted` (P_Rectangle): (defect) The full matrix cannot be built on any square lattice with different sides
* `C33_tall_refuted` (P_Rectangle): (defect) On every square lattice with Ny < Nx a row gets a column that does not exist: init_kinetic_matrix and init_matrix are undefined behaviour, whatever the parameters
* `C36_one_operator_rows_refuted` (P_Triplet): ... but the code has the two coefficients exchanged: between the vacuum and the state with one particle in (i,up) the written row (J = 0) differs from the commutator by U (1 - ev) (1 + ev)
* `C36_three_operator_rows_refuted` (P_NormalOrder)
* `C37_empty_refuted` (P_Triplet)
* `C38_hermitian_examples_refuted` (P_MatrixCheck)
* `C38_hermitian_refuted` (P_MatrixCheck): matrix_check.hpp: what is_hermitian really decides - every entry of the lower triangle equals its own conjugate
* `C40_refuted` (P_MatrixCheck): cols() gives the number of rows, and neither sort gives the order it is named after
* `C41_rectangle_refuted` (P_Expectation): Rectangles: the lookup can leave the table (defect)
* `C41_tall_refuted` (P_Rectangle2)
* `C41_wide_refuted` (P_Rectangle2): ** C41: the lookup leaves the table
* `C45_larger_basis_refuted` (P_FermiJump): DEFECT: the static h_NO keeps the size of the first evaluation, so the first later evaluation with a larger basis writes outside of it
* `C46_reserve_refuted` (P_FermiJump): DEFECT: the one-operator class and both FermiJump1D_NO classes only reserve the table, so every construction for at least one site writes outside of it
* `C48_true_means_success_refuted` (P_FermiSea): "true means success" is false of apply_monomial: for every dispersion, the empty monomial succeeds and returns false, and a doubled operator fails and returns true
* `C49_delta_sign_refuted` (P_NonVanishing): For the basis operators of the matrix, c+ (2 c+ c - delta) (C35), the values are wrong: for every occupied q and every momentum k, the element c+_q c+_k c_k and the element c+_q get the value 3 or 1 (k occupied or not) instead of 1 or -1
* `C53_end_refuted` (P_TimeLoop): Defects: the final state is not measured unless the interval divides the number of steps, and with a step size that is not positive the program never ends
* `C53_nontermination_refuted` (P_TimeLoop)
* `C54_odd_refuted` (P_Dispersion): For odd N the momentum grid -pi + 2 pi i/N is not that of the periodic chain: the tabulated energy of its first momentum is no eigenvalue of the kinetic matrix (defect)
* `C55_minus_assign_refuted` (P_Lattice): [it -= d] does not move back by d: it moves forward, whenever 2d is not 0 mod 2^64
* `C56_dos_comment_refuted` (P_Text): (defect) . does not match a carriage return, so in a file with DOS line ends no comment line is skipped: next_line returns it as data. Blank DOS lines are skipped
* `C57_never_returns_refuted` (P_Text): (defect) If only blank lines and comments remain, in particular at the end of the file, the call never returns, no matter how long one waits
* `C57_stuck_stream_refuted` (P_Text): The same on every stream whose eof or fail bit is already set, for example after the last unterminated line has been read or if the file could not be opened
* `C58_round_trip_refuted` (P_Io): (defect) so a written list with at least one element is never read back
* `C58_unreadable_file_refuted` (P_Io): (defect) on a file that could not be opened (fail bit set) it never returns
* `C59_empty_description_hides_the_rest_refuted` (P_Io): (defect) everything after an empty description is lost, except that its keys still widen the columns
* `C59_value_without_key_refuted` (P_Io): (defect) the value of an entry with an empty key is lost
* `C60_fewer_measurements_never_returns_refuted` (P_Io): (defect) If the file has fewer than n measurements and its last line (the empty one after the final newline, usually) is not a measurement, clean_output_file never returns
* `C60_measurements_become_a_comment_refuted` (P_Io): (defect) If the file starts with a comment line (as every output file of the programs does) the glued line is a comment: the measurements are lost for every reader
* `C60_new_file_is_one_line_refuted` (P_Io)
* `C60_resume_never_returns_refuted` (P_Cli)
* `C61_components_in_order_refuted` (P_Io): (defect) and for no other tuple whose components print with the same number of characters
* `C68_shipped_averages_refuted` (P_ShippedAverages)
* `C70_column_major_refuted` (P_Checkpoint)
* `C71_second_run_loses_the_backup_refuted` (P_Checkpoint): (defect) A second crash loses the data: if the function is interrupted after opening the new file and runs again, the backup is overwritten with the truncated file, and the old contents is left in neither file
* `C72_second_run_overwrites_refuted` (P_Checkpoint): (defect) The numbers start at 0 again in every run: a second run overwrites the first checkpoints of the first one and leaves the later ones, so that the directory mixes both
* `C72_stale_info_refuted` (P_Checkpoint): (defect) In a second run a crash can leave the new archive with the info file (the time) of the first run, for every pair of different checkpoints
* `C73_missing_response_file_refuted` (P_Cli): (defect) If the response file does not exist, the program never gets beyond reading it
* `C74_out_of_response_file_ignored_refuted` (P_Cli): (defect) The output file of a run with a response file is the one of the command line or the default; the line --out=... of the response file has no effect on it
* `C75_header_lists_defaults_refuted` (P_Cli): (defect) with a response file they are not: an option set by the file is listed with its default
* `C76_response_file_lost_refuted` (P_Cli): (defect) they do not for an output file *.rsp: the response file is lost. The old contents of the output file is lost in every case (also if the run is meant to resume from a checkpoint)
* `C79_half_filling_refuted` (P_Theory): The program constructs the table with filling 1 and Fermi momentum 1/2: at t = 0 it writes 1, the half-filled Fermi sea has 1/2
* `C79_ring_refuted` (P_Theory)
* `C80_names_refuted` (P_Print): ** Defect: names with a comma or a brace are not escaped
* `C83_particle_number_refuted` (P_Trivial): With the parameters of the program the second line has an imaginary part
* `C84_bad_entry_refuted` (P_EigenIo): (defect) An entry line that does not begin with a number is not reported. As first entry it is undefined behaviour (column and value are uninitialised); later it stands for the element of row 0 with column and value of the entry before it, and that is undefined behaviour only if this position has been given already
* `C84_huge_count_refuted` (P_EigenIo): (defect) A number of entries of 2^63 or more is not reported: it becomes a negative Index (strtoul stops at 2^64 - 1), no entry is read, and the entry lines are left in the stream
* `C84_huge_dimensions_refuted` (P_EigenIo): (defect) Dimensions beyond the storage index type of the matrix are not reported either: Eigen is asked for a matrix it cannot have
* `C84_no_count_refuted` (P_EigenIo): (defect) A second line that does not begin with a number (optionally signed) is not reported: it counts as zero entries
* `C84_not_read_back_refuted` (P_EigenIo): (defect) write_matrix writes neither the dimensions nor the number of entries. Reading what it wrote throws if at least one element is stored, and never returns otherwise
* `C84_row_major_refuted` (P_EigenIo): (defect) row-major matrices with more rows than columns: Eigen is given too few reserve sizes
* `C84_short_file_refuted` (P_EigenIo): (defect) A file that ends too early: no content line at all, no count, or fewer entries than announced. The call never returns
* `C85_self_refuted` (P_Alias): (defect) in particular after the construction from a list of at least two operators, when the capacity is the size
* `C89_reserved_refuted` (P_Index): DEFECT: the names of numbered indices are not reserved, and a name with a comma makes two different operators print alike
* `C93_assert_refuted` (P_RoundedMeasurement3): in double precision, whether [assert(types::IsZero(result.imag()))] (site_occupation.hpp 64) holds depends on how the runtime distributes the iterations: it holds with one thread and fails with two
* `C97_full_refuted` (P_CommutateAlias): a full container, as after push_back or initialisation: undefined behaviour as soon as a pair other than the last one does not anticommute
* `C98_fermi_sea_refuted` (P_DoubleDispersion): (defect) For N a power of two (such as the default 16) the two momenta at the Fermi energy count as occupied in double precision: N/2 + 1 momenta lie below the Fermi energy; in exact arithmetic these two are not below it, and N/2 - 1 are
* `C99_fermi_sea_refuted` (P_DoubleMomentum): (defect) If N is a power of two (the default is 16), the two momenta at the Fermi energy are counted as occupied as well, and the second number is that of this larger Fermi sea
