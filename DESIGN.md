# Formal model of OPM/IFEM in Rocq (Coq 8.16.1)

Everything is in `rocq/theories/`. Layout:

| file | content |
|---|---|
| `Base.v`, `QcLra.v` | shared helpers: scalar type, sums, list access with explicit out-of-bounds, linear arithmetic over `Qc` |
| `<Unit>_model.v` | executable Gallina model of one C++ unit, each definition cites file and lines and states its simplifications |
| `<Unit>_spec.v` | the small specification the theorems are stated with: it reads raw tables and inputs, not the helpers of the model |
| `<Unit>_proofs*.v` | lemmas |
| `<Unit>_props.v` | `Theorem ... exact lemma. Qed. Print Assumptions` and `Example`s showing that concrete, non-trivial cases meet the hypotheses |

## Modelling conventions

* `Real` (double) is modelled by exact rationals `Qc` (canonical rationals of the
  standard library, Leibniz equality, decidable order). Rounding, NaN and infinities are *not*
  modelled: the theorems are about the algebra the code implements, not about floating point error.
* `int`/`size_t` are unbounded `Z`/`nat`; overflow is not modelled unless stated.
* `std::vector` is `list`; an out-of-range access, a dereferenced end iterator or a null pointer is
  an explicit outcome (`None`), so "does not fail" is part of what is proved.
* `std::map`/`std::set` are sorted association lists with the same observable behaviour.
* Loops are structural recursion/folds in the same iteration order as the code; loops that may not
  terminate carry fuel and a theorem says how much suffices (or that none does).
* OpenMP parallel regions are modelled by arbitrary interleavings of the per-thread update sequences.
* Console output, timing, profiling and XML access are not modelled (the parsed values are inputs).

## Naming of theorems

`Cnn_name` says (part of) the property; `Cnn_name_partial` proves it under an extra restriction named in
the comment; `Cnn_name_refuted` proves, with a concrete reachable witness, that the code violates the
full property. Whenever a `_refuted` theorem exists the status in `MANIFEST.json` is `partial`, and the
note says what holds and what does not.

## Plan per property

| id | property | unit | proof | status |
|---|---|---|---|---|
| C01 | Thread groups partition the elements of a structured patch | ThreadGroups | strips are consecutive intervals; permutation of `seq 0 nel` | proved |
| C02 | Elements run concurrently never share a basis function | ThreadGroups, Race | interval separation of strips of one colour; every interleaving of two threads gives the serial sum | proved |
| C03 | Zero-span elements do not disturb the thread groups | ThreadGroups | invariants of the scan over the mask; out-of-range scan explicit | proved |
| C04 | Filtering and mapping thread groups | ThreadGroups | list lemmas | proved |
| C05 | Equation numbers are a bijection with the free DOFs | SAM | induction over the DOF loop | proved |
| C06 | Expanding a solution satisfies every boundary condition | SAM | entrywise reading of the expansion loop | proved |
| C07 | Element matrix assembly is the constraint congruence | SAM | entrywise sums; loop lemmas for folds of updates | proved |
| C08 | Load assembly is the transpose of solution expansion | SAM | adjointness by linearity over the element loop | proved |
| C09 | The precomputed sparsity pattern covers every assembled entry | SAM | set membership through the nested loops | proved |
| C10 | Reaction forces collect all prescribed-DOF contributions | SAM | entrywise; refutation by witness | partial |
| C11 | Nodal DOF value lookup | SAM | case analysis on bounds; refutation | partial |
| C12 | DOF and equation numbers map back to node and local DOF | SAM | monotone table search | partial |
| C13 | Constraint equations are kept in a consistent order | MPC | lexicographic comparison, strict weak order laws | proved |
| C14 | Adding and merging masters preserves the linear form | MPC | linear-form semantics | proved |
| C15 | Resolving chained constraints preserves the solution set | MPC | induction over the rank of the chain; witnesses for the tolerance | partial |
| C16 | Chained constraints are flattened correctly into the equation tables | SAMpatch | walk over the chain | proved |
| C17 | Merging two models keeps all constraints within bounds | SAMpatch | bounds-checked arrays; refutation by computation | partial |
| C18 | Node DOF table | SAMpatch | prefix sums | proved |
| C19 | Element connectivity lookup by external element number | SAMpatch | search loop | proved |
| C20 | Renumbering nodes of a model | ASMnum | map invariants | proved |
| C21 | Compressing a sparse matrix keeps all its entries | Sparse | invariants of the compression loops | proved |
| C22 | Sparse matrix-vector product | Sparse | sum over the stored entries | partial |
| C23 | Sparse matrix dump lists the entries | Sparse | traversal order | partial |
| C24 | Structural edits of sparse matrices | Sparse | entrywise | proved |
| C25 | Time stepping never passes the stop time and lands on section ends | TimeStep | state machine; invariants over operation lists | partial |
| C26 | Cut-back only affects the current step | TimeStep | frame lemmas | partial |
| C27 | Restart resumes at the saved time | TimeStep | replay invariant | partial |
| C28 | Gathering element vectors stays in bounds | Vec | bounds of every access of the gather loop | proved |
| C29 | Equations without contributions are regularised | SAM, Sparse | entrywise | partial |
| C30 | Boundary condition codes | ASMbc | digit lists | partial |
| C31 | Diagonal system matrix | SAM | entrywise | partial |
| C32 | Assembling nodal vectors into matrix columns | SAM | entrywise | partial |
| C33 | Assembled sparse matrix is the sum of the element contributions | Sparse, SAM | fold over elements | partial |
| C34 | Adding sparse matrices | Sparse | entrywise | partial |
| C35 | Constraint equations of a patch | ASMbc | invariants over histories of calls | partial |
| C36 | Merging the constraint sets of the patches | MPC | sorted set merge | proved |
| C37 | Updating constraint coefficients | SAMpatch | fold over the slave table | proved |
| C38 | Copying the time stepping parameters | TimeStep | bisimulation until the end of the first section | partial |
| C39 | Geometrically graded time steps | TimeStep | geometric series | proved |
| C40 | Rigid and weighted nodal couplings | ASMbc | algebra of the coupling coefficients | proved |
| C41 | Connecting patches | ASMnum | collapse as renaming | partial |
| C42 | Periodic closing of structured patches | ASMnum | grid index arithmetic | partial |
| C43 | Reshaping dense matrices | Mat | in-place memmove loops with bounds | partial |
| C44 | Determinant and inverse | Mat | ring identities | partial |
| C45 | Dense matrix products | Mat | nested accumulation loops | partial |
| C46 | Three- and four-dimensional matrices | Mat | index arithmetic | partial |
| C47 | Vector kernels | Mat | strided loops | partial |
| C48 | Nodal vectors survive extraction and injection | Vec | round trip | partial |
| C49 | Element results, solution fields and control point search | Vec | entrywise | proved |
| C50 | Deformed element coordinates | Vec | entrywise | partial |
| C51 | Integer lists are parsed as written | Vec | inductive grammar | partial |
| C52 | Array utilities | Vec | list lemmas | partial |
| C53 | Newmark time integration keeps the Newmark relations | Dyn | invariant of prediction and correction, lifted over the iteration loop by induction | proved |
| C54 | Generalized alpha, HHT and nonlinear Newmark keep the Newmark relations | Dyn | invariants of the three drivers over the loop; concrete counterexamples by computation | partial |
| C55 | The Newton matrix is the derivative of the residual | Dyn | entries of residual and Newton matrix computed from the BLAS model of Mat, then linear algebra | partial |
| C56 | Backward difference coefficients | Dyn | coefficients after any history by induction on the steps, exactness by field arithmetic | partial |
| C57 | Convergence control of the nonlinear iterations | Dyn | invariant of the checks (scaled norms, current run of increases), induction on the loop | partial |
| C58 | Line search | Dyn | invariant of the search loop with the list of tried factors | partial |
| C59 | History of solution vectors | Dyn | downward induction on the states | proved |
| C60 | An assembly round of the equation system sums all element contributions | AlgEq | frame lemmas per call (what each call adds), induction on the elements, sums of Sparse and SAM for the matrices | partial |
| C61 | The equation system neither leaks nor uses dangling memory | AlgEq | world invariant (exclusive ownership of the heap) preserved by every legal call, induction on the program | partial |
| C62 | Copies and sums of equation systems | AlgEq | world invariant plus frame property of every call | partial |
| C63 | Static condensation yields an equivalent reduced system | Cond | block elimination over index sets of retained and other equations, from the split of Sparse and the matrices of Mat | partial |
| C64 | The recovery matrix file is read back exactly, and an incomplete file is refused | Cond | decimal printing and scanning are inverse; induction over the columns; case analysis of the cut position | partial |
| C65 | The coloring of LR B-spline elements makes the multi-threaded assembly race free | Color | invariant of the greedy loop (an element of a color is not among the marked elements of an earlier one), conflicts are marked; race freedom of Race per color | partial |
| C66 | The coloring of unstructured Lagrange elements respects nodes and constraint equations | Color | as C65; the second pass only adds elements, and connects every node coupled to a master | partial |
| C67 | Nodal forces are the negative sums of the element vectors | Glb | invariant: the column of a node is minus the sum of the contributions so far; induction on the calls | partial |
| C68 | Global norms are the final operation of the sum over the elements, with or without element norms | Glb | invariants of the accumulation over the events; concatenated groups as one vector | partial |
| C69 | Lagrange basis functions are the Lagrange polynomials and interpolation is exact | Lagr | the computed products and sums equal the Lagrange polynomial and its derivative; uniqueness by counting roots | partial |
| C70 | Chebyshev polynomials and functions and their derivatives | Cheb | three-term recurrences by induction; derivatives from the differential identities; sums over the coefficients by induction | partial |
| C71 | Legendre polynomials and derivatives are exact on the closed interval | Lege | three classical identities by joint induction; orthogonality of moments by integration of the recurrence; uniqueness | proved |
| C72 | Gauss-Legendre and Gauss-Lobatto-Legendre rules integrate polynomials exactly | Lege | eigenvectors of the tridiagonal matrix are the values of the polynomials; n roots by interlacing; weights from the interpolatory rule | partial |
| C73 | Values and derivatives of the scalar functions of time and space | Fun | location of the argument among sorted points; derivatives in an open interval where the branch is constant; induction on products | partial |
| C74 | isZero and isConstant never misreport | Fun | case analysis of the functions; convex combination for interpolated values | partial |
| C75 | Text definitions of functions give the documented function | Fun | evaluation of the parsed object for each documented form; the parser is a total function of the tokens | partial |
| C76 | The restart file gives back what was written | Rst | the new level is the last of the file: exact file after the write; induction on the history | partial |
| C77 | A crash while restart data is written does not damage the states written before | Rst | all intermediate files of a write are listed and characterised; no step touches another level | partial |
| C78 | Results and restart data are written on schedule, also after a restart | Rst | invariant of the counters of exporter and restart writer at every step; rewriting equal data is the identity | partial |
| C79 | The results file holds every dumped time level | Exp | invariant: the file is the numbered list of snapshots so far; induction on the program | partial |
| C80 | Elements of a structured patch are connected to the functions that live on them | Str | the loops produce a grid enumeration; each entry computed by division with remainder; support of a B-spline function as in the textbook definition | proved |
| C81 | Boundary sets and boundary conditions refer to the edge or face that was named | Str | the loops produce layers of a grid; membership and uniqueness by arithmetic on grid positions | partial |
| C82 | Connected patches share the nodes at the same positions | Str | positions of the boundary node lists of C81; the orientation switch by cases | partial |
| C83 | Adaptive refinement marks the elements or functions with the largest errors | Adap | insertion sort is a sorted permutation; the marked entries are a prefix of it; prefix characterised by the limit through sortedness; sums by induction | partial |
| C84 | The adaptive loop ends by its stop criteria | Adap | case analysis of calcRefinement; induction over the cycles of the loop with the history as an arbitrary function of the step | partial |
| C85 | Connected functions of a multi-patch model share one global number | Gno | invariant of the loop over the patches: equal numbers are the equivalence generated by the interfaces of the patches processed, numbers of processed patches are 0..M-1, the others are consecutive from M; renumbering and compression preserve it | partial |
| C86 | Gradients of basis functions satisfy the chain rule | Map | the cofactor formulas are inverse matrices (field); chain rule and uniqueness by exchange of finite sums | partial |
| C87 | Second and third derivatives of basis functions satisfy the chain rule | Map | congruence with the inverse Jacobian and back is the identity, by exchange of finite sums; counterexamples by computation | partial |
| C88 | Boundary normals are unit outward normals | Map | identities of the vector product; lengths through their squares | proved |
| C89 | The Piola mapping is differentiated exactly and preserves the divergence | Map | determinant along a line is a cubic polynomial; quotient rule; Jacobi formula for the divergence | partial |
| C90 | Subdomains of a structured patch cover it with the requested overlap | Sub | closed form of the start and size of each piece by induction; grid positions by division with remainder | partial |
| C91 | The orientation of an interface between processes matches the serial connection | Sub | each entry of the iterator in closed form; the eight cases compared with the serial orientation switch of unit Str | partial |
| C92 | Equation numbers of a partitioned model are a consistent distribution | Ddp | the vector after each process is determined by the list of equations in order of first occurrence; the lists of the processes are prefixes of each other | proved |
| C93 | Numbers of nodes and equations agree across process interfaces | Ddg | invariant over the processes: owned unknowns have distinct numbers in consecutive ranges, slaves have the number of a master; representative by descent in the rank | partial |
| C94 | The exchange of numbers between processes ends, with the same result for every schedule | Ddm | invariant: a residual list of messages in rank order (unsent or under way) describes calls left, channels and final result; its first element can always proceed; steps commute with the sequential run | partial |
| C95 | An explicit Runge-Kutta step solves the equations of its method, which has the announced order | Tin | stage loop by induction against the tableau equations, uniqueness since A is strictly lower triangular; all trees up to a size are enumerated (completeness by induction), conditions by computation in Q with a proof that reduction is harmless | partial |
| C96 | The embedded Runge-Kutta step ends, and an accepted step meets the tolerance | Tin | loop invariant (same start time, pair of the current size); termination by geometric decrease of the step size | partial |
| C97 | Adams-Bashforth runs follow the multistep formula | Tin | invariant: the load list is the history shifted by one; induction over the steps | partial |
| C98 | Adams-Moulton runs follow the multistep formula and free their load vectors once | Tin | closed form of the pointer list and the memory after n steps; induction over the steps; destructor by induction over the list | partial |
| C99 | The Gauss rules integrate every polynomial of degree below 2n to double precision | Qua | moments of the tables in exact rational arithmetic; linearity over the coefficients; antiderivatives are unique up to a constant (null derivative) | partial |
| C100 | The triangle rules integrate linear and cubic functions over every triangle | Qua | iterated antiderivatives of a general cubic polynomial; linear arithmetic over the ten coefficients | partial |
| C101 | Full tensors obey matrix algebra in every dimension | Ten | case analysis on the storage (1, 4 or 9 components), then ring and field identities entry by entry | partial |
| C102 | Symmetric tensors: storage, invariants, inverse and congruence transformation | Ten | the same for 1, 3, 4 and 6 components; conjugation by an orthogonal matrix as polynomial identities in Q^T Q | partial |
| C103 | Deformation measures, products and assignment agree between the storage kinds | Ten | ring identities; concrete counterexamples for the 33 storage | partial |
| C104 | Local axes are orthonormal, right-handed and aligned | Ten | orthonormal pairs and their cross product (Groebner bases, nsatz); lower bound 1/2 for the squared length of the projected axis | proved |
| C105 | Principal values are the eigenvalues | Ten | completing the square; in 3D: interlacing with the leading 2x2 block bounds the discriminant, then the triple-angle formula; the iteration is the identity when two off-diagonal terms vanish, by induction over the iterations | partial |
| C106 | Rotations of tensors are proper rotations with one sense | Ten | unit quaternions (nsatz); column operations entry by entry | partial |

## Parts of the code that are modelled

| unit | modelled | not modelled |
|---|---|---|
| ThreadGroups | `Utility/ThreadGroups.C`: calcGroups (2D, 3D, with and without masks), getStripDirection, oneGroup, oneStripe, filter, applyMap, reduction of threads | printing, the OpenMP runtime (number of threads is a parameter) |
| Race | `ASM/ASMs2D.C` loop over groups with `SAM::assembleSystem` updates as atomic additions | tearing of non-atomic additions within one colour (excluded by disjointness, C02) |
| SAM | `LinAlg/SAM.C`: equation tables, element and right-hand-side assembly, couplings, expansion, reactions, nodal access; `LinAlg/DiagMatrix.C` assembly | norms, dynamic parts of `SAM.C` not listed by a comment |
| SAMpatch | `ASM/SAMpatch.C`: initialisation of nodes, elements, constraints, merge, coefficient update | node and DOF type characters, optional renumbering map of merge |
| MPC | `Utility/MPC.C/.h`, resolution and merging of constraint sets in `ASM/ASMbase.C` | printing |
| ASMbc | `ASM/ASMbase.C` boundary conditions and couplings | couplings in local axes unless listed |
| ASMnum | `ASM/ASMbase.C`, `SIM/SIMbase.C`: renumbering, collapsing, periodic closing; `closeBoundaries` of ASMs2D/3D | splines |
| Sparse | `LinAlg/SparseMatrix.C`, `SystemMatrix.C` vectors: storage, compression, products, edits, assembly, addition, dump | external solvers (SuperLU, UMFPACK, SAMG) |
| TimeStep | `SIM/TimeStep.C`: sections, increment, cut-back, restart, copying, grading | XML and text parsing |
| Mat | `LinAlg/matrix.h`, `matrixnd.h`: built-in versions and the BLAS calls of vector kernels by their documented meaning | LAPACK calls |
| Vec | `ASM/ASMbase.C` nodal/element vectors; `Utility/Utilities.C` gather, merge, search, parsing integers | spline evaluation |
| Dyn | SIM/NewmarkSIM.C, GenAlphaSIM.C, HHTSIM.C, NewmarkNLSIM.C (predict/correct/solve step, setSolution), NonLinSIM.C (loop, checkConvergence, lineSearch), SIMsolution.C pushSolution, ASM/NewmarkMats.C, HHTMats.C, BDFMats.C, Utility/BDF.C | rotations, restart, output, NaN norms, assembly and solution of the global system (arbitrary results) |
| AlgEq | ASM/AlgEqSystem.C init, copy, add, clear, setAssociatedVector, initialize, assemble, finalize with the heap of matrices, vectors and thread buffers; LinAlg/SAM.C assembleSystem (three variants); the matrices are those of Sparse | other matrix types than SparseMatrix, PETSc vectors, staticCondensation, recoverInternals, performAnalysis profiling, truly concurrent assemble() calls (see Race) |
| Cond | ASM/AlgEqSystem.C staticCondensation, readRecoveryMatrix, recoverInternals, LinAlg/SAM.C getNodeEqns; matrices from Sparse and Mat | the equation solver (parameter: exact solver), number overflow in the file header, signs in scanf |
| Color | ASM/LR/ASMLRSpline.C generateThreadGroups, checkThreadGroups; ASM/ASMu2DLag.C generateThreadGroupsMultiColored (with OpenMP, more than one thread) | geometric search (tables), MADOF; the assembly itself is the list of updates per element |
| Glb | ASM/GlbForceVec.C, GlbNorm.C, ElmNorm.h, IntegrandBase.C ForceBase::assemble, SIM/SIMbase.C getBoundaryNodes and the summation part of solutionNorms, LinAlg/SAM.C getElmNodes, getNodeDOFs | the integration itself (terms per element are arbitrary), addBoundaryTerms, MPI reduction, matrix contents before initialize() |
| RPoly, Lagr, Cheb, Lege | ASM/Lagrange.C, Utility/LagrangeInterpolator.C, Chebyshev.C (scalar and vector functions), Legendre.C, in exact real arithmetic (Coq Reals; division by zero is a non-finite number) | rounding, ChebyshevTensorFunc, reading of files beyond the token list, the LAPACK eigenvalue routine (parameter) and the convergence of the GLL iteration |
| Fun | Utility/Functions.C and Functions.h: scalar functions of time and space (evaluate, deriv, dderiv, isZero, isConstant), points from files, parseFunction, parseRealFunc(cline,A) | rounding, expression functions (arbitrary), field and Chebyshev functions in the parser, DiracSpaceFunc, number conversion and files (parameters), column selection, vector and tensor functions, printing |
| Rst | Utility/HDF5Restart.C, HDF5Base.C, DataExporter.C dumpTimeLevel (schedule), Apps/Utils/SIMSolver.h solveProblem, saveState, restart (levels) | several processes, disk failures, the serialization itself (arbitrary named strings), HDF5 internals (completed calls are kept in order; a dataset created but not written has no contents) |
| Exp | Utility/DataExporter.C registerField, setFieldValue, dumpTimeLevel, OnControl; HDF5Writer.C constructor, getLastTimeLevel, openFile, closeFile, writeVector, entry conditions of writeSIM and writeKnotspan | one value per field; bases, time info, log, eigenmodes, several writers and processes |
| Str | ASM/ASMs1D.C, ASMs2D.C, ASMs3D.C createMNPC, generateFEMTopology, getBoundaryNodes, getBoundary1Nodes, getCorner, findBoundaryElms, constrainEdge, constrainFace, setNodeNumbers, connectPatch, connectBasis; ASMs2DLag.C, ASMs3DLag.C createMNPC; ASMs3Dmx.C connectPatch (face indices) | shared patches, mixed-basis topology, local coordinate systems, coordinates (compared by an arbitrary predicate); the collapse of node pairs itself is unit ASMnum |
| Adap | SIM/AdaptiveSetup.C calcRefinement, errorLimits; SIM/AdaptiveSIM.C adaptMesh; Apps/Utils/SIMSolverAdap.h solveProblem; ASM/LR/ASMu2D.C, ASMu2Dmx.C remapErrors | rational arithmetic; the solver, norms, refine itself, mixed refinement bases, output are arguments; parallel runs left out |
| Gno | ASM/LR/GlobalNodes.C calcGlobalNodes, InterfaceOrder; Utility/Utilities.C renumber; size of the error array in SIM/AdaptiveSetup.C | the boundary function lists (LRSpline library) are an argument |
| Map | Utility/CoordinateMapping.C (all functions), LinAlg/matrix.h det, inverse, Utility/Vec3.h length, cross, normalize, ASM/FiniteElement.C piolaBasis, piolaGradient, the calls in ASMs2D/3D.C and LR/ASMu2D/3D.C | real arithmetic; dimension errors; basis function values are arguments |
| Sub | ASM/DomainDecomposition.C calcSubdomains, OrientIterator; SIM/SIMinput.C getElmConnectivities (pairs of one interface) | exact quotient for double(nel)/g, LR-spline patches |
| Ddp | ASM/DomainDecomposition.C calcGlobalEqNumbersPart, getGlobalEq | MPI as rank-ordered passing of the vectors (forced by the blocking calls, see Ddm) |
| Ddg | ASM/DomainDecomposition.C calcGlobalNodeNumbers, calcGlobalEqNumbers, setupEquationNumbers; DomainDecomposition.h SlaveOrder; Utility/Utilities.C renumber; LinAlg/SAM.C getNodeDOFs | first block only, no Lagrange multipliers, the interface lists of the patches are arguments |
| Ddm | order of send/receive calls in ASM/DomainDecomposition.C calcGlobalNodeNumbers, calcGlobalEqNumbers, calcGlobalEqNumbersPart; LinAlg/ProcessAdm.C send, receive; result handling of setup | message contents are arbitrary functions of what the sender received; MPI_Bcast and MPI_Allreduce |
| Tin | Apps/Utils/TimeIntUtils.C Order, Steps; SIMExplicitRK.h, SIMExplicitRKE.h, SIMExplicitLMM.h, SIMImplicitLMM.h: constructors, solveStep, solveRK, advanceStep, destructor; SIM/TimeStep.C cutback | real arithmetic; the simulator (assembly, solution, boundary values, norms, nonlinear iteration) is given by arbitrary functions; printing and saving |
| Qua | Utility/GaussQuadrature.C, Utility/TriangleQuadrature.C (all); the sums in ASM/ASMs2DTri.C integrate, evalBasis and of the tensor product rules | rounding of the decimals to double and of the sums |
| Ten | Utility/Tensor.C (products, assignment, inverse, rotations, local axes, principal values except the LAPACK version), Utility/Tensor.h index, Utility/Vec3.h normalize, cross, length | real arithmetic; printing; LAPACK; rotVec is modelled without theorems |

Code not listed is not modelled: splines and quadrature from GoTools/LRSpline, file formats, PETSc,
the application drivers and the XML reader.

## Trusted base

* Coq's kernel (coqc 8.16.1) including `vm_compute` (used for witnesses of `_refuted` theorems and examples).
* The reading of the C++ code by the author: the code was not compiled or run here.
* The simplifications named above and in the comments of the definitions.

## Assumptions

`Print Assumptions` follows every theorem in the `_props.v` files. No axioms of our own are used. All theorems
print "Closed under the global context", except those of the units over the real numbers (Lagr, Cheb, Lege: C69-C72; Fun: C73-C75; Map: C86-C89; Tin: C95-C98; Qua: C99-C100; Ten: C101-C106),
which use axioms of Coq's standard library of real numbers and nothing else:

* `ClassicalDedekindReals.sig_forall_dec`, `ClassicalDedekindReals.sig_not_dec`,
* `FunctionalExtensionality.functional_extensionality_dep`,
* `Classical_Prop.classic` (where the derivative and intermediate value lemmas of the library use it).

Equality and order of reals are decided in the models of these units (`Req_EM_T`, `Rle_dec`), which is
classical but needs no axiom beyond these.
(`vcheck` lists the ssreflect `Under_rel` constants: they come with the loaded standard library file
`ssrunder` and are not used by the theorems.)

## Findings: places where the code violates the property a user relies on

* **C10 Reaction forces collect all prescribed-DOF contributions.** The code violates the full property (finding): with several constrained DOFs in an element only the last one contributes; C10_last_wins says exactly what is computed.
* **C11 Nodal DOF value lookup.** The code violates the full property (finding): the last DOF of the model always reads as zero.
* **C12 DOF and equation numbers map back to node and local DOF.** DOF numbers: proved in full. Equation numbers: the code reports the preceding DOF (finding, characterised exactly by C12_equation_shifted).
* **C15 Resolving chained constraints preserves the solution set.** Resolution by substitution preserves the solution set when no product of coefficients along a chain falls within the zero tolerance (integers with the code's tolerance, everything with tolerance 0) and ends with no chained master, for all visiting orders; linking by pointers (C15_link) does so for all coefficients. Missing: a bound on the perturbation when terms are dropped (C15_tolerance_refuted shows the exact equivalence fails); chains through a fixed master (C15_fixed_master_refuted) and cyclic sets (C15_cyclic_refuted: endless recursion) are violated by the code.
* **C17 Merging two models keeps all constraints within bounds.** Proved for models without ignored constraints and with gapless positive element numbers. The general claim is false of the code: with ignored constraints valid ones are lost (C17_lost_constraint_refuted) or arrays overflow (C17_overflow_refuted), zero-span elements overflow the pointer array, gaps give wrong connectivities, the number of specified DOFs accumulates. The optional renumbering map of merge() is not modelled.
* **C22 Sparse matrix-vector product.** Proved except for compressed matrices of the UMFPACK solver, where the code reads column storage as row storage (index -1): refuted by C22_product_umfpack_refuted.
* **C23 Sparse matrix dump lists the entries.** Holds for editable matrices and compressed columns with a non-empty first column. The code violates it for compressed rows (prints A[i-1] instead of A[j-1]), for an empty first column and for an empty compressed matrix (front() of an empty array).
* **C25 Time stepping never passes the stop time and lands on section ends.** Proved for every simulation (increments, cut-backs of steps not ending at a section end, arbitrary iteration/CFL numbers) from sane parsed input; termination and exact step counts too. Refuted: a cut-back of a step that completed a section makes the section end be stepped over; negative times end at once; the step limit only stops one increment.
* **C26 Cut-back only affects the current step.** Time/step size part proved for every state; the frame part is exact (only the last listed size of the current section changes), and the full claim is refuted: the overwritten entry is not the one of the current step, and after a completed section it belongs to the next one.
* **C27 Restart resumes at the saved time.** Proved without sections (any state) and with sections for fixed step sizes, start time 0, no cut-backs; refuted otherwise, since the restored time is recomputed by replaying the schedule from time 0.
* **C29 Equations without contributions are regularised.** Full statement proved whenever the diagonal can be written. The code silently skips equations outside a locked pattern and one-equation systems (refuted theorems).
* **C30 Boundary condition codes.** Setting codes and single-DOF queries are proved; queries with several DOFs at once are refuted (only leading digits, respectively only one digit, are checked) and the exact answer is proved instead.
* **C31 Diagonal system matrix.** Full statement (diagonal of the full assembly for every element) is violated when a free equation occurs twice in an element.
* **C32 Assembling nodal vectors into matrix columns.** Full statement is violated: constraint coefficients are ignored, so it holds for unit coefficients only.
* **C33 Assembled sparse matrix is the sum of the element contributions.** Proved for all modes that are supported by the solver; for SAMG / no solver with locked pre-assembly the code locks an empty pattern and drops everything (C33_samg_preassembly_refuted).
* **C34 Adding sparse matrices.** Proved when B has flagged equations, the formats agree and the target is editable or has the same pattern. The code ignores a B filled through operator() and reads a compressed B in the format of the target's solver.
* **C35 Constraint equations of a patch.** Proved for DOFs without conditions and for all histories (well-formedness). Refuted: constraining a slave DOF again changes its equation although failure is reported (twice the same call gives slave = 2*master), periodicity chains become cyclic, overriding a prescribed value is undefined behaviour, fixing a slave DOF leaves both conditions.
* **C38 Copying the time stepping parameters.** Holds until the end of the first section (or without sections); refuted later, the schedule position is reset by copying.
* **C41 Connecting patches.** One collapse is characterised completely; connecting is proved for two patches without common numbers. The transitive claim is refuted: connecting six patches around a point in an unlucky order leaves three different numbers; a duplicated node in one patch is left behind.
* **C42 Periodic closing of structured patches.** Proved when all fields are closed. Refuted: closing one basis of a mixed patch in two directions gives equations violated by constant fields; the "all DOFs" test counts digits, so a code containing the digit 0 can merge nodes by mistake.
* **C43 Reshaping dense matrices.** Proved except for three refuted cases: adding rows to a matrix with no rows and two or more columns never returns; filling a longer vector from an array reads past the array; the trace of a matrix with two more columns than rows adds an off-diagonal entry.
* **C44 Determinant and inverse.** Exact arithmetic. Proved unless the determinant equals -999, which the code uses as the mark of an unsupported size (refuted); matrices with more rows than columns are accepted and give a meaningless result (refuted).
* **C45 Dense matrix products.** Built-in (non-BLAS) versions in exact arithmetic. Refuted: accumulating in a result of another size is not rejected and can leave the storage.
* **C46 Three- and four-dimensional matrices.** 3D is proved. Refuted: writing a column of a 4D matrix uses a wrong offset (misplaced parenthesis) unless the last index or the second dimension is 1; printing a 4D matrix exchanges the labels.
* **C47 Vector kernels.** The built-in versions are proved. The BLAS versions agree only if the stride divides the length and the offset is less than the stride; otherwise they miss elements or read past the end (refuted). Adding with a stride to an empty vector loses the last element (refuted).
* **C48 Nodal vectors survive extraction and injection.** Proved for well-formed tables. Refuted: the INDEX_CHECK test of injectNodalVec accepts a node one past the end and then reads out of bounds.
* **C50 Deformed element coordinates.** Proved when there are as many fields as coordinates. Refuted otherwise: with more fields per node the displacements of wrong nodes are added.
* **C51 Integer lists are parsed as written.** Proved for the grammar IntList. Refuted: a comma after a range inserts a zero value; a blank before a comma or at the end of the text is an error.
* **C52 Array utilities.** Refuted: merging values by keys with repeated keys gives more values than merged keys.
* **C54 Generalized alpha, HHT and nonlinear Newmark keep the Newmark relations.** HHT: proved for steps of one or more iterations without sub-iterations. Refuted: an HHT step that converges in the first check gets the velocity increment instead of the velocity, and a second sub-iteration subtracts the predicted velocity again.
* **C55 The Newton matrix is the derivative of the residual.** HHT is proved for elements with mass matrix and one or two right-hand-side vectors. Refuted: massless elements miss the factor 1+alpha; negative Rayleigh coefficients are in the Newton matrix but not in the residual.
* **C56 Backward difference coefficients.** Refuted: the second step with a changed step size uses the coefficients for equal steps; extrapolation ignores changed step sizes; BDFMats drops the inertia term when there are only the three vectors that the first-order scheme needs.
* **C57 Convergence control of the nonlinear iterations.** NaN norms are not modelled. Refuted: after a step that used the absolute tolerance the reference norm is 1, so later steps may converge with neither tolerance met; the static variables are shared by all simulators of a class.
* **C58 Line search.** Refuted: zero work before and after the update gives 0/0; the reported factor differs from the applied one when the factors agree only within the tolerance.
* **C60 An assembly round of the equation system sums all element contributions.** Elements one at a time (the thread number selects the scalar buffer; concurrent access is covered by C04). Sparse matrix types, associated vectors; StdVector right-hand sides. Refuted: an element with neither matrices nor vectors is skipped completely, its scalars are lost.
* **C61 The equation system neither leaks nor uses dangling memory.** The order restrictions are those of the relation legal. Refuted outside of it: init() on an initialised system leaks its matrices, a second initialize() leaks the thread buffers, self-assignment, finalize() without initialize() and element numbers out of range with reactions are undefined.
* **C62 Copies and sums of equation systems.** add() is proved for the matrices under the conditions of C34, for as many vectors as there are matrices and as many reactions as there are vectors. Refuted: the other vectors and reactions are not added, more matrices than vectors is undefined, and copying a system with several matrices loses the associated vectors.
* **C63 Static condensation yields an equivalent reduced system.** Exact rational arithmetic; the solver is any function that returns the unique solution or fails. Refuted: whenever the last equation is not retained the retained list is read past its end (undefined); imat equal to the number of matrices is undefined; nodes given twice silently retain equations of other nodes.
* **C64 The recovery matrix file is read back exactly, and an incomplete file is refused.** Numbers are 8 bytes by an arbitrary encoding that is inverted by reading; file contents are byte lists (no other reordering of writes). Refuted: a matrix without rows whose header is cut is accepted; if the file cannot be opened for writing the reduction goes on silently.
* **C65 The coloring of LR B-spline elements makes the multi-threaded assembly race free.** Proved in full for one basis. With additional bases it is proved if the midpoint or quarter points of each element of the other basis find all the elements within it; refuted otherwise (an element covering three in a row). The geometric search is a table in the model. Serial consistency of memory as in Race.
* **C66 The coloring of unstructured Lagrange elements respects nodes and constraint equations.** The partition holds always. Race freedom is proved for unique node numbers, resolved constraints, masters in the patch and at most one one-noded element per node (if these are separated); each of the four conditions is shown necessary by a counterexample.
* **C67 Nodal forces are the negative sums of the element vectors.** Proved for distinct legal nodes and long enough element vectors. Refuted: two properties covering whole patches with a common node give a duplicate node, the node map is accepted and the assembly writes outside of the matrix; the same after a refused node map; short element vectors are read past the end (the size check is commented out).
* **C68 Global norms are the final operation of the sum over the elements, with or without element norms.** Proved if empty norm groups come last. Refuted: an empty group (a requested projection that is not available) between others loses the first value of the next group and shifts the rest; more values than norms are read past the last group. One process, square root as a parameter.
* **C69 Lagrange basis functions are the Lagrange polynomials and interpolation is exact.** Proved for distinct points in exact arithmetic. Refuted: interpolating more data than grid points reads the grid out of bounds.
* **C70 Chebyshev polynomials and functions and their derivatives.** Refuted: the derivative of the second kind divides by zero at the end points; the second derivative is that of the end point within 1e-6 of it; a planar vector function given by one file dereferences a missing component. ChebyshevTensorFunc is not modelled.
* **C72 Gauss-Legendre and Gauss-Lobatto-Legendre rules integrate polynomials exactly.** GL proved for every n >= 3 given the eigenvalues of its matrix (proved to be n distinct ones). Refuted: for n = 2 an entry of the matrix is not set, both points are 0 and the weights are not finite (reachable from ASMs1DSpec with two Gauss points). GLL proved for exact GLL points; convergence of its iteration is not proved, only its fixed points and the residual at the tolerance.
* **C73 Values and derivatives of the scalar functions of time and space.** Exact arithmetic. First derivatives proved except the refuted time derivative of rotations and of products whose spatial part depends on the time; second derivatives proved except double time derivatives (refuted) and those of interpolated functions. Refuted: a line that steps back within the tolerance after a jump leaves the table unsorted.
* **C74 isZero and isConstant never misreport.** Refuted: step and Dirac time functions report that they are constant, and a product does when its spatial factor follows the time; a table of zeros interpolated in space is not recognised as zero.
* **C75 Text definitions of functions give the documented function.** Proved for the forms listed. Refuted: the amplitude is dropped for Interpolate1D and taken as difference increment for expressions, parameters of Linear and Constant in the time part are ignored, StepXY without lower bounds starts at -1, missing parameters are undefined behaviour. Field, Chebyshev not modelled; atof, atoi and files are parameters.
* **C76 The restart file gives back what was written.** Proved for levels that the file does not have. Refuted: a level that exists keeps its old data although writeData reports success (also a new run with the restart file of an earlier run); entries with empty values are lost.
* **C77 A crash while restart data is written does not damage the states written before.** Refuted: a restart without level takes the incomplete level or fails, and repeating the write never completes an entry whose dataset existed without contents. The HDF5 library is taken to keep completed calls in order.
* **C78 Results and restart data are written on schedule, also after a restart.** Proved when the results were written at the restart step; refuted for all other intervals (the restarted run then always differs), and for a restart from an earlier level into the same file.
* **C79 The results file holds every dumped time level.** Proved for integer vector and SIM fields in a new file. Refuted: VECTOR fields are never stored, KNOTSPAN fields ignore ONCE and disabling, appending skips a level and later loses data, a field never given a value is undefined behaviour, and a failed dump leaves the file open so that later levels are lost.
* **C81 Boundary sets and boundary conditions refer to the edge or face that was named.** Proved for patches that are not reversed; with reversal for Dirichlet conditions, corners, node numbers and 3D node sets. Refuted for 2D node sets and for element sets of reversed patches, and for curves whose end span has zero length.
* **C82 Connected patches share the nodes at the same positions.** Proved for patches that are not reversed and for edges 3 and 4 of reversed surfaces. Refuted for the other edges and for faces of reversed patches. In 2D the pairs before the first mismatch stay connected.
* **C83 Adaptive refinement marks the elements or functions with the largest errors.** Exact arithmetic. Proved: worst-first and the number marked for all criteria; thresholds up to ties of entry 0; the Doerfler target unless entry 0 is needed and has the smallest error. Refuted: ties of entry 0 with the limit, the Doerfler target in that case and its minimality, marking when nothing reaches the limit (read out of bounds), symmetry of zero errors.
* **C84 The adaptive loop ends by its stop criteria.** Proved for all histories. Refuted: errors in the marking (negative reference norm, several patches with element based refinement) and failing refinements are reported like a criterion, by return value 0.
* **C85 Connected functions of a multi-patch model share one global number.** Proved when every interface has the lower numbered patch as master, every patch has a function that is not slave at an interface, and functions with a common slave are already connected by earlier patches; without the last condition, that equal numbers imply connection and that the numbers are consecutive. Refuted without these conditions (patches with a common neighbour that meet at a corner, reversed interfaces, patches without own functions).
* **C86 Gradients of basis functions satisfy the chain rule.** Proved over the real numbers when the determinant is not -999; refuted for determinant -999, which is taken for an error of the determinant function: J is not inverted and dNdX is wrong.
* **C87 Second and third derivatives of basis functions satisfy the chain rule.** Proved for structured patches. Refuted for unstructured patches, which pass dNdu instead of dNdX to utl::Hessian: the second derivatives are right only where the geometry is affine. Third derivatives proved for affine geometries in 1D and 2D, refuted for others, not implemented in 3D.
* **C89 The Piola mapping is differentiated exactly and preserves the divergence.** Proved in 2 and 3 dimensions, with derivatives in the sense of real analysis. Refuted: detJacGradient is zero in 1D, JacobianGradient adds to output matrices that are used again, G depends on the parametrization of the element.
* **C90 Subdomains of a structured patch cover it with the requested overlap.** Proved whenever the subdomains fit (always with an overlap between 1 and the subdomain size). Refuted: without overlap some requests throw std::length_error (4 subdomains of 8 elements); an overlap above the subdomain size is accepted and elements are lost.
* **C91 The orientation of an interface between processes matches the serial connection.** Proved for orientations 0-3 and for 4-7 on square faces. Refuted for 4-7 on rectangular faces (orders with dim1 and dim2 exchanged). getElmConnectivities uses the iterator in the inverse direction: wrong neighbours for orientations 5 and 6.
* **C93 Numbers of nodes and equations agree across process interfaces.** Proved for interfaces whose masters have lower rank, when two masters of a slave unknown are joined among themselves by earlier interfaces (ghost_same_iff); refuted without (unknowns of the two masters keep different numbers), for the sizes of node interfaces (nRecv =! size is an assignment), for maxDof (0-based argument of getNodeDOFs), and for ghost connections that differ only in the master patch (lost in the set).
* **C94 The exchange of numbers between processes ends, with the same result for every schedule.** Proved when every interface has its master on a lower rank than its slave and the connections are in the order of the set. Refuted: an interface with its master on a higher rank hangs at once (not checked by the code); an error return of one process leaves the later ones waiting; setup adds up lok, which is always one, so failures are ignored in MPI builds.
* **C95 An explicit Runge-Kutta step solves the equations of its method, which has the announced order.** Order is stated by Butcher's conditions over all rooted trees (not by a limit of the error). Refuted: Order is 0 for the embedded methods; with operators marked linear a run starting with a step number other than 1 solves with a matrix never assembled.
* **C96 The embedded Runge-Kutta step ends, and an accepted step meets the tolerance.** Proved. Refuted for tolerances of 1 or more: the estimate starts with 1, so the first solution is accepted without any estimate, and the step size is then changed as if the estimate were 1.
* **C97 Adams-Bashforth runs follow the multistep formula.** The formula is proved for all runs. Refuted: the weights assume a constant step size (AB2 is exact for linear loads only if the steps are equal); after a restart all methods with two or more levels read a null load vector.
* **C98 Adams-Moulton runs follow the multistep formula and free their load vectors once.** Proved for runs without extra initial conditions in which all steps are solved. Refuted: if a step after the first is not solved, the destructor deletes a vector twice, for every order; with initial conditions AM2 uses the load of the time before the start in place of that of the start; after a restart a null vector is read.
* **C99 The Gauss rules integrate every polynomial of degree below 2n to double precision.** Proved for 1 to 9 points, with the decimals of the source as exact numbers. Refuted for 10 points: its table has 8 digits, even the length of the interval is off by 2e-8 (that accuracy is proved).
* **C100 The triangle rules integrate linear and cubic functions over every triangle.** Proved for the rules with 1 and 4 points. Refuted for 3 points: the point (1/2,1/2) is listed twice, so the integral of the second area coordinate is detJ/4 instead of detJ/6 and a uniform load is distributed 1/3, 1/2, 1/6; with (1/2,0) in its place the rule is exact for quadratic functions.
* **C101 Full tensors obey matrix algebra in every dimension.** Proved for distinct full tensors. Refuted for T.postMult(T), which reads components it has overwritten, and for the in-place product of symmetric tensors, whose storage is copied as if it were full (unit times unit is not unit).
* **C102 Symmetric tensors: storage, invariants, inverse and congruence transformation.** Proved except: the von Mises value in one dimension has the sign of the stress; ddot(A,A) counts each off-diagonal pair once and differs from the squared L2-norm (both refuted, the second with the exact difference).
* **C103 Deformation measures, products and assignment agree between the storage kinds.** Proved for tensors without the extra 33 component and the assignments named there. Refuted for 2D tensors with 33: the shear is written to (or read from) the 33 slot; assignment to a 3D symmetric tensor loses s33, an old s33 survives, and a full 2D tensor gets the components in the wrong places.
* **C105 Principal values are the eigenvalues.** Proved for 2D and, when the deviator is above the tolerance, for 3D and 2D with the 33 component: the trigonometric formula gives the three roots with their multiplicities. Refuted in 3D for a nonzero hydrostatic tensor, which gets the values 0 (its deviator) instead of the mean, and for the iterative version, which never rotates the pair (1,3): with only s13 it returns the diagonal.
* **C106 Rotations of tensors are proper rotations with one sense.** Proved for the rotation vector and for rotate about axes 1 and 3. Refuted about axis 2, which turns the other way (proved to be the rotation by the opposite angle).

## Testing the theorems against wrong programs

`seeded/LOG.jsonl` has one line per seeded bug: the edited definition, the edit, the claim it breaks, the
theorems that failed and those tightened. Seeded bugs that no theorem noticed led to new or stronger
theorems, which were then tested against the same bug again.
