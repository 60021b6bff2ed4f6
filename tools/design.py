"""Writes /verif/DESIGN.md: fixed text plus tables generated from properties.jsonl, MANIFEST.json and the theories."""
import json,re,glob,os
root=os.path.dirname(os.path.dirname(os.path.abspath(__file__)))
T=os.path.join(root,"rocq/theories/")
HOW={
"P_Algebra":"case analysis and induction over index and operator lists; adjointness and the commutator identities by the action on Fock space (Spec_Fock) with a telescoping contraction lemma valid in every CAR algebra",
"P_Algebra2":"invariant of the lower_bound insertion; symbolic prefactors by valuations; comparator laws; refutation of canonicity by a witness",
"P_Alias":"objects as a store of vectors with capacity and relocation count; induction over the copy loop",
"P_Basis":"nested loops as flat_map; closed form of the index arithmetic; distinctness by injectivity of the indices",
"P_Checkpoint":"the file system as a map, the program as the list of its file system operations; every prefix is a crash point; induction over the number of checkpoints",
"P_Cli":"parser as structural recursion over the arguments and over the lines of the response file; precedence by an invariant of the stored values",
"P_Commutators":"symbolic evaluation of the printing programs on the model of the symbolic algebra; equality of operators in Fock space for every lattice",
"P_Dispersion":"real trigonometry; plane waves as eigenvectors of the matrix built by the code",
"P_Dynamics":"Heisenberg equation: matrix of the code against commutators in Fock space; (anti-)hermiticity and conserved norms by summation identities",
"P_Occupation":"the ring table commutes with the hopping matrix, so the quadratic form is conserved (derivative zero); one Taylor step changes it only by its sixth and eighth order terms",
"P_OccupationFree":"the entries coupling one- and three-operator elements are multiples of U; the kinetic solution extended by zeros solves the full equation, uniqueness does the rest",
"P_Symmetry":"the entries of the matrix depend on adjacency and equality of sites only; uniqueness of the solution, and invariance of every Taylor step by reindexing; the averages depend on ring distances only",
"P_Parameters":"the entries are linear in (J, U) and change sign with J under the colouring; one Taylor step depends on dt times the matrix only; induction over the steps, and uniqueness for the exact solution",
"P_SignDouble":"the two runs are related by a sign per coefficient: every rounded operation is odd, every stored matrix element of the -J run is the element of the J run times the two signs (same columns in the same order), so the relation is an invariant of the rounded step",
"P_AttractionDouble":"as P_SignDouble with complex conjugation: the matrix for (J, -U) is minus the matrix for (J, U) times the two signs, and times i it is the conjugate times the signs",
"P_LightConeDouble":"structural: every stored column is at most one level away and sums and products of zeros are zero in doubles",
"P_Grow":"the solution on one ring, cut off at D hops and carried to the other ring, satisfies the equation of motion up to what has reached level D, bounded by C115; Duhamel then bounds the difference",
"P_WindowSquare":"as C116 and C117, with displacements on the torus in place of offsets on the ring: the matrix on the window is given by the displacements alone",
"P_Window":"the matrix entries between elements within D hops of site 0 are the same functions of the offsets on every ring with at least 2D+1 sites; so the vectors agree on the window as long as they vanish outside it, step by step",
"P_WindowDouble":"the rows of the window are copied element by element in the same order (carrying preserves the order of columns), so each rounded row sum takes the same steps; rows at the edge meet zeros only",
"P_LightCone":"levels by distance from site 0: the matrix raises the level by at most one, so RK4 by at most four; for the exact solution an energy estimate of the part beyond level d with the matrix for U = 0, by induction on d (Lieb-Robinson)",
"P_Truncation":"the matrix elements of the program's operator between all basis states obey Heisenberg's equation up to the projected-away part of the commutator; that part is the residual of an orthogonal projection (C113), so it is no longer than the residual of any other approximation: only coefficients two hops of doublon number away contribute. A level function on the basis (0 for the initial operator, +1 per new operator pair) and a Duhamel estimate bound those coefficients by |U J| t^2. The commutator with H is an anti-hermitian superoperator, so the residual integrates to the bound; existence and uniqueness of the true motion from the matrix exponential.",
"P_Closure":"what is missed is, matrix element by matrix element, -U (D - 1/2) times the part of the operator acting on several sites, where D is the whole number by which the number of doubly occupied sites changes; |D - 1/2| is at least 1/2, and at most 3/2 where the operator has a matrix element; the missed part is orthogonal to the basis",
"P_Ostream":"correct rounding to six decimal digits (Flocq's FLX format in radix ten), then the text is read back by an independent reader of decimal numerals, by induction on the digits",
"P_OutputPrograms":"the error bounds of C94 and C103 for the written doubles, composed with the error of reading the text",
"P_OutputPrograms2":"as P_OutputPrograms, with C94 and C105","P_OutputTrivial":"as P_OutputPrograms, with C104",
"P_OutputJump":"as P_OutputPrograms, with C96","P_OutputMomentum":"as P_OutputPrograms, with C99",
"P_Continuity":"the matrix is linear in J and U, so the second motion misses the first equation by the matrix of the differences applied to it; the differential inequality of C79 (duhamel) and conservation of the norm give the linear bound",
"P_ContinuityDouble":"relative error of one rounding of the numeral's value (Spec_Numeral.numeral, M_OptionValue.option_value), C123_solution, and the triangle inequality with C94",
"P_ContinuityKinetic":"the same for the matrix without interaction; the occupation is a quadratic form with coefficients at most 5 in absolute value of vectors of length 1",
"P_ContinuityTime":"y(l t) solves the equation for (l J, l U) (C112), so C123_solution bounds the speed of the motion; then the triangle inequality",
"P_ContinuityFile":"C123_written and C123_time give the distance of the motion the program follows from the motion for the values as written; C94 and the tables of C122 (read_solution, read_measured) do the rest",
"P_OutputFile":"the text is split by an independent reader: induction over the lines and columns, using that a printed number contains neither tab nor newline nor #",
"P_TruncationStrict":"if the operators agreed on an interval, the missed part would vanish there, so by C120 all coefficients of products on several sites; the equations of motion then force the coefficient of the doublon operator at site 0 and that of the creator at site 0 to vanish on the interval, but the latter starts at 1",
"P_TruncationDouble":"triangle inequality: C94 (rounded run against the exact coefficients) and C118",
"P_TheoryValue":"derivative of the truncated sum of squares; conservation of the occupation on the ring (C108) and the distance of C79; an energy estimate t(a^2+b^2) - (n+1/2)ab for J_n, J_(n+1) shows that they decay",
"P_MomentumLimits":"without interaction the matrix is diagonal, so one step multiplies the first coefficient with the fourth-order Taylor polynomial of exp(ix); induction over the steps; scaling as in C112; uniqueness for the exact solution",
"P_ParticleHoleDouble":"the zeros are kept by every rounded operation: only 0+0=0, 0*x=x*0=0 are used",
"P_ParticleHole":"the entries are purely imaginary and change sign under the colouring except for the diagonal U; the transformed vector is a solution with the same start, so uniqueness applies; without interaction the pattern of zeros is kept by every Taylor step",
"P_Atomic":"with J = 0 the matrix couples c+_0 only to its own three-operator element: the closed form solves the equation, uniqueness does the rest",
"P_AtomicOperator":"the two-term vector is an operator; its commutator with the interaction in every occupation state is computed and compared with the derivative",
"P_JumpLimits":"without hopping the amplitude has two terms; without interaction a plane wave is an eigenvector of the hopping, so the amplitude only rotates; for N = 4k + 2 the derivative at t = 0 is computed",
"P_LimitsDouble":"C107 (C96 with moved phases for the square lattice) around the closed forms",
"P_OccupationDouble":"C107 around the conserved value",
"P_ShippedAverages":"the alternating sum of the table is 1/2 minus 2/pi times an even partial sum of Leibniz series, which exceeds pi/4",
"P_Heisenberg":"existence and uniqueness from P_Stability; the derivative of a matrix element is a finite sum of derivatives of the coefficients, C64_kinetic turns it into the commutator",
"P_DynamicsKinetic":"the same for the one-operator basis; the hopping commutator is a row of the kinetic matrix (C30), the matrix is symmetric, sums over sparse rows are sums over entries",
"P_EigenIo":"regular expressions by derivatives; induction over the lines; fuel-indexed loops with a proof that no fuel suffices for the non-terminating cases",
"P_Expectation":"integrals over the Fermi sea with Coquelicot's Riemann integral; index arithmetic of the table",
"P_FermiJump":"invariant of the interleaving semantics of parallel loops (no two threads touch the same cell); induction over call histories; Slater determinants for the physical meaning",
"P_FermiSea":"refinement to occupation sets",
"P_Io":"texts as lists of characters, induction over lines; termination by fuel, non-termination for every fuel",
"P_JumpPrograms":"composition of C34/C66 (matrix), C77/C78 (RK4 error bound), C53 (time loop), C41 (averages), C45/C46 (observable); Bessel inequality for the two real linear forms of the amplitude",
"P_Lattice":"linear and modular arithmetic; graph distance by induction over paths; 64-bit wrap-around explicit",
"P_LatticeReal":"real arithmetic, wrapping loops with fuel and explicit bounds",
"P_Matrix":"loops producing triplet rows against commutators in Fock space; counting argument for the capacity; sortedness",
"P_DoubleMain":"rounding errors of the phases, Lipschitz bound of sine and cosine, C46 for the loop","P_DoubleMain2":"C106 and the factors put into C94 and C96",
"P_Rectangle":"sides that differ: an explicit site whose neighbour list breaks the matrix; inversion of the loop for the rows that do get built",
"P_Rectangle2":"explicit witnesses with symbolic sides; u64 arithmetic without wrap except in the distance",
"P_KineticNo":"the second copy of the kinetic matrix, against the same specification",
"P_MatrixCheck":"loops as forallb/existsb and folds",
"P_Momentum":"as P_Matrix, momentum space",
"P_MomentumProgram":"as P_JumpPrograms, for the momentum-space program (arrow matrix: closed-form bound for its norm)",
"P_NonVanishing":"expectation values in the Fermi sea by the action on occupation sets",
"P_NormalOrder":"projection onto the normal-ordered basis in Fock space against the rows of the code",
"P_Number":"case analysis over the reals / any commutative ring",
"P_Ode":"module algebra: the step is the Taylor polynomial of degree 4 of the exponential; buffers and aliasing explicit",
"P_ParticleNumber":"as P_NonVanishing, plus the parallel reduction",
"P_Positive":"the occupation is the square norm of a vector in Fock space",
"P_Print":"printed texts as character lists; unique readability by induction",
"P_Programs":"composition of the theorems about matrix, RK4, time loop, averages and site occupation; bounded quadratic forms",
"P_SiteOccupation":"Wick's theorem in Fock space by Slater determinants; interleaving semantics of the parallel loops",
"P_Stability":"energy identity |P x|^2 = |x|^2 - h^6/72 |A^3 x|^2 + h^8/576 |A^4 x|^2; Schur test; Taylor's theorem; Picard iteration for existence",
"P_Text":"regular expressions by derivatives; fuel as above",
"P_Theory":"discrete Fourier analysis of the printed sums",
"P_TimeLoop":"induction over the iterations with an arbitrary rounding of relative error u",
"P_Triplet":"invariant of the merge loop",
"P_Trivial":"as P_Programs for the 4x4 matrix",
"P_Index":"injectivity of decimal notation",
"P_LatticeDouble":"explicit error bounds for every operation, compared with the gap between neighbouring momenta",
"P_RoundedMeasurement":"error propagation through every operation (relative factor and absolute part), an invariant of the threads' partial sums over all interleavings; the refutation evaluates the rounding of each addition",
"P_DoublePrograms":"the double-precision time loop agrees with one whose roundings have relative error 2^-53 (so C53 applies), then C91 for the coefficients, Lipschitz bounds of the occupation as a quadratic form for coefficients and table, C93 for the measurement",
"P_DoubleJumpPrograms":"as P_DoublePrograms, with C95 for the rounding of an evaluation, a Lipschitz bound of the jump in the coefficients, the table and the phase factors, and the static array carried through the evaluations",
"P_CommutateAlias":"the two loops as one list of pairs; induction with the invariant that the references still point into the current block",
"P_DoubleDispersion":"explicit error bounds for every operation; pi to 17 digits from the Machin series (exact rational arithmetic), so that the double next to pi and the positions of the Fermi points are known exactly",
"P_DoubleDispersionProgram":"the main function followed line by line; the numbers from the C92 and C98 error bounds, the exact ones because 2 pi/N is exact for powers of two",
"P_DoubleTrivial":"the 4x4 matrix as a sparse matrix with full rows, so that the C91 error analysis applies; the particle number with explicit bounds for each of its 16 terms",
"P_DoubleMomentum":"the rounded matrix is again antisymmetric after multiplication by i and close to the exact one (an arrow matrix), so two stable runs stay together (perturbation lemma for antisymmetric operators); rounding of eight steps as in C89; the measurement is a sum of at most 6 N^2 terms; combined with the exact solution as in C82",
"P_TheoryProgram":"the memory of the threads as disjoint cells, so every interleaving gives each partial sum in program order; forward error bounds for every summand and every addition order; sum J_n^2 <= 1 and the Lipschitz bound of J_n from the recurrence (no special-function library)",
"P_DoubleExpectation":"forward error analysis in which the absolute error of the argument is divided by the same distance again (so the bound is uniform); pi to 17 digits for the nonzero values at half filling",
"P_Platform":"the constructor of Application around the command line model of M_Cli; texts by cutting at the separators, which do not occur in decimal numbers; start-up by the invariant of stored options of C73",
"P_MatrixLog":"closed form of the rows (C30, C35); counting is invariant under the permutation made by std::sort; the N rows with three equal sites by a bijection",
"P_RoundedJump":"the elements of the static array are written by one iteration each (so no interleaving matters); relative error predicates for every operation with a floor against underflow, summed over any grouping of the summands; C69 for the physical meaning",
"P_Rounding":"forward error analysis in the standard model of floating-point arithmetic",
"P_DispersionProgram":"C19 (iteration) and C54 (table) composed",
}
props=[json.loads(l) for l in open(root+"/properties.jsonl")]
claims={c["property"]:c for c in json.load(open(root+"/MANIFEST.json"))["claims"]}
where={}; comment={}; mods={}
for f in sorted(glob.glob(T+"P_*.v")):
    s=open(f).read(); b=os.path.basename(f)[:-2]
    mods[b]=sorted(set(re.findall(r"\bM_[A-Za-z]+",s)))
    for m in re.finditer(r"^(?:Theorem|Corollary)\s+(C\d+_\w+)",s,re.M):
        where[m.group(1)]=b
        pre=s[:m.start()].rstrip()
        if pre.endswith("*)") and "(**" in pre: comment[m.group(1)]=" ".join(pre[pre.rindex("(**")+3:-2].split())
out=[open(root+"/tools/design_head.md").read().rstrip(),""]
out+=["## Plan and outcome per property","","Model files are `theories/M_*.v`; `Spec_*.v` are the specifications the statements use, `Pf_*.v` auxiliary proofs, `Ex_*.v` concrete cases meeting the hypotheses. The names of the theorems are in MANIFEST.json.","",
 "| id | property | status | theorems in | how it is proved |","|----|----|----|----|----|"]
for p in props:
    c=claims[p["id"]]; fs=sorted({where[t] for t in c["theorems"]})
    out.append(f"| {p['id']} | {p['title']} | {c['status']} ({len(c['theorems'])}) | {', '.join('`'+x+'`' for x in fs)} | {'; '.join(dict.fromkeys(HOW.get(x,'') for x in fs))} |")
out+=["","Models used by each theorem file:",""]
for b in sorted(mods): out.append(f"* `{b}`: "+", ".join(mods[b]))
out+=["","## Findings: claims one would expect and that are false of the code","",
"Each is a theorem about the model with the suffix `_refuted`; the true part is proved beside it, and the property text states both.",""]
for t in sorted(where):
    if t.endswith("_refuted"): out.append(f"* `{t}` ({where[t]})"+(": "+comment[t].rstrip(".") if t in comment else ""))
open(root+"/DESIGN.md","w").write("\n".join(out)+"\n")
print(len(out))
