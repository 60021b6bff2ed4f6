# Formal model of f-koehler/ieompp in Rocq (Coq 8.16.1)

This file is written by `tools/design.py` (fixed part: `tools/design_head.md`).

## Method

* The C++ in `/repo` is modelled function by function as total Gallina functions
  (`theories/M_*.v`). Every definition cites file and lines and says where it simplifies. Nothing
  in `/repo` is executed.
* Undefined behaviour (out-of-range access, `front()` of an empty container, conversion of a
  negative number to unsigned, reading through an invalidated iterator, failing assert) is the
  outcome `UB`, never a default value.
* Loops whose termination is in question carry fuel. A result is `terminates_with` (some fuel, and
  every larger one, gives it); non-termination is proved as "no fuel suffices".
* Unsigned 64-bit arithmetic is `Z` with explicit `mod 2^64` (`u64`).
* Parallel loops (`#pragma omp parallel for`) have an interleaving semantics (`M_OpenMP`): any
  distribution of the iterations over any number of threads, any interleaving of the elementary
  reads and writes. Sequential consistency is assumed for the single accesses; the modelled loops
  are proved not to share cells between threads.
* Static local buffers, default values of members, file contents before the start, the internal
  state of input streams (eof and fail bits) are part of the state and universally quantified.
* Numbers: `double` and `std::complex<double>` are exact (the reals, pairs of reals, or an arbitrary commutative
  ring with an involution). Exceptions: the time variables of the programs are rounded by an arbitrary rounding
  with relative error `u` (`M_TimeLoop`, C53, C82, C86-C88), and the tolerance comparisons of
  `types/number` are modelled with their epsilon (C62, C63). The time evolution of the real-space programs is
  also modelled with every operation rounded to IEEE double precision (`M_Rounding`, `M_Double`, which uses
  Flocq's definition of rounding: C91), and so are the positions of chain sites and the momentum-space basis
  (`M_LatticeDouble`: C92) and the site-occupation measurement with its interleaving threads
  (`M_RoundedMeasurement`: C93; the expectation values are given there, exact, and std::norm is re*re + im*im). The Fermi jump likewise is `M_RoundedJump` (C95). The programs which print it, with all roundings, are `M_DoubleJumpPrograms` (C96). The whole real-space programs with all of these roundings together are `M_DoublePrograms` (C94; the table of
  expectation values is there a parameter with a stated error; `M_DoubleExpectation` (C106) computes that table with doubles, std::sin being any function good to one unit in the last place, and `M_DoubleMain` (C107) is the real-space programs and their Fermi-jump variants with the tables they compute themselves). `hubbard_dispersion_1d` with doubles is `M_DoubleDispersionProgram` (C103), `hubbard_trivial` is `M_DoubleTrivial` (C104), and the exact-solution program is `M_TheoryProgram` (C105). The dispersion table of the chain with doubles is `M_DoubleDispersion` (C98; std::cos is any function with an error of at most one unit in the last place), and the momentum-space program with doubles is `M_DoubleMomentum` (C99). Contraction of a*b+c into a fused operation is not modelled
  there (the build files of the project do not ask for it), nor is the recovery from NaN in complex products.
* The independent specification of the operator algebra is the action of creation and
  annihilation operators on occupation-number states (Fock space, `Spec_Fock.v`), defined without
  reference to the library's algebra code.
* False properties of the faithful model are recorded as `..._refuted`; the true part is
  proved under exactly the guard needed, and the property text states both.

## Trusted base

* Coq 8.16.1's kernel. No plugin, no native/vm trust beyond the kernel's own `vm_compute`
  conversion. No axiom, parameter, admitted proof, functor or module type of our own.
* The axioms of the standard library listed by `Print Assumptions`, theorem by theorem, in
  `AXIOMS.md` (generated by `tools/axioms.py` from the built theories). They are: the axioms of the standard
  library's real numbers (`sig_forall_dec`, `sig_not_dec`), functional extensionality, and
  excluded middle (`Classical_Prop.classic`, through Coquelicot's integrals). Theorems about the
  algebra, the index arithmetic, text processing and files are closed under the global context.
* Coquelicot is used for Riemann integrals and derivatives; it adds no axioms beyond these.
* The reading of the C++ documented in the comments of the models: in particular the
  parts of the standard library, Eigen, Blaze, Boost.Program_options, Cereal and OpenMP that the
  code calls are modelled from their documentation (std::vector, std::list::sort, std::lower_bound,
  std::regex for the two expressions used, getline, operator>>, strtoul, filesystem copy/rename,
  CompressedMatrix append/finalize, SparseMatrix insert/reserve, `parallel for`).

## Parts of the code that are modelled

* `algebra/` (operators, monomials, terms, lists, orders, conjugation, commutator and
  anticommutator, Kronecker deltas, printing), `symbolic/` (prefactors, indices): M_Operator,
  M_Commutator, M_Commutators, M_Alias, M_CommutateAlias, M_Print, M_Index.
* `lattices/`, `iterators/`: M_Lattice (indices), M_LatticeReal (positions).
* `models/`: M_Basis, M_Matrix (kinetic, interaction, normal-ordered and momentum-space matrices, Blaze's
  append protocol), M_Expectation, M_SiteOccupation, M_FermiJump, M_FermiSea, M_NonVanishing,
  M_Dispersion.
* `ode/rk4.hpp`, `types/*/multiply_assign.hpp`: M_Ode. `types/number`, `types/matrix_check.hpp`,
  `types/function_matrix.hpp`, `types/eigen/init.hpp`, `types/eigen/triplet_list.hpp`,
  `types/triplet.hpp`: M_Number, M_MatrixCheck, M_Matrix.
* `io/`, `types/description.hpp`, `tuple.hpp`: M_Text, M_Io, M_EigenIo.
* `src/hubbard/`: all programs (M_Programs, M_JumpPrograms, M_MomentumProgram, M_Theory, M_Trivial,
  M_Commutators, M_TimeLoop, M_DispersionProgram) and their helpers `include/cli.hpp`, `checkpoint.hpp`, `common.hpp`,
  `vector.hpp`, `rk4.hpp`, `application.hpp`, `logging.hpp` (M_Cli, M_Io, M_TimeLoop, M_Ode, M_Platform).
* `platform.hpp`, `exception.hpp`: M_Platform.

## Not modelled

* Rounding of floating-point arithmetic outside of the time variables and of C91-C99 and C103-C107; overflow, NaN and infinities; the printing of
  floating-point numbers is a parameter except in C121-C123, where `M_Ostream` rounds to six significant digits as glibc's printf does;
  the reading of a number from the command line (C123, `M_OptionValue`) is taken to give the nearest double, as glibc's strtod does.
* Logging (except which file it goes to) and timing (`spdlog.hpp`, `application_timer.hpp`), the type traits (`operator_traits.hpp`,
  `types/*/traits.hpp`, `names.hpp`, `is_symbolic.hpp`, `get_index.hpp`): these are
  compile-time only or have no effect on results.
* Weak memory effects of data races (none of the modelled loops has a race), allocation failure,
  the operating system's buffering of written data (a crash loses or keeps whole file system operations).
* Code that cannot be instantiated: the generic `expectation_value` of SiteOccupation for three
  operators calls a function without its arguments and does not compile when used.
* `/repo/tests`, build scripts, Python tools.
