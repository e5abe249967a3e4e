{"id": "C01", "title": "Thread groups partition the elements of a structured patch", "statement": "After computing thread groups for a structured 2D or 3D patch (element-count overload), every element index 0..nel-1 occurs exactly once over the two groups and all threads, and no other index occurs.", "quantifier": "all element counts, thread counts, minimum strip widths and strip directions (including automatic choice)", "why_tests_cant": "a test fixes a mesh and a thread count; a lost or duplicated element shows up only for particular remainders els mod parts", "anchors": ["src/Utility/ThreadGroups.C:calcGroups", "src/Utility/ThreadGroups.C:oneGroup", "src/Utility/ThreadGroups.C:getStripDirection"]}
{"id": "C02", "title": "Elements run concurrently never share a basis function", "statement": "If two elements belong to different threads of the same group, then in the strip direction they are separated by at least the minimum strip width of elements, so two spline functions/nodes of that degree can not have both elements in their support: any schedule of the threads in a group is free of conflicting updates.", "quantifier": "all element counts, thread counts, minimum strip widths, directions, and all interleavings of threads inside a group", "why_tests_cant": "races depend on the schedule and on the mesh size; a passing run does not exclude them", "anchors": ["src/Utility/ThreadGroups.C:calcGroups"]}
{"id": "C03", "title": "Zero-span elements do not disturb the thread groups", "statement": "With knot-span masks, every non-zero-span element is assigned to exactly one (group, thread), no element is assigned twice, and strips of one group are separated by at least the minimum width counted in non-zero elements.", "quantifier": "all knot-span masks (any position of zero spans), thread counts, degrees and directions", "why_tests_cant": "the mask space is exponential; existing tests use one or two masks", "anchors": ["src/Utility/ThreadGroups.C:calcGroups(BoolVec)"]}
{"id": "C04", "title": "Filtering and mapping thread groups", "statement": "Filtering by an element list keeps exactly the listed elements, each in its old group and thread and in the old relative order; mapping replaces each index by its image and keeps the structure.", "quantifier": "all thread groups and all element lists/maps", "why_tests_cant": "quantifies over all lists", "anchors": ["src/Utility/ThreadGroups.C:filter", "src/Utility/ThreadGroups.C:applyMap"]}
{"id": "C05", "title": "Equation numbers are a bijection with the free DOFs", "statement": "When equation initialisation succeeds, the free DOFs (status 1 or 2) are numbered 1..neq without gaps or duplicates, status-1 DOFs before status-2 DOFs and in DOF order within each status; a suppressed DOF has equation 0, or minus its constraint number if it is a slave, and neq equals the number of free DOFs.", "quantifier": "all status-code arrays and all constraint-equation arrays", "why_tests_cant": "a numbering error needs a particular mix of codes; all arrays must be covered", "anchors": ["src/LinAlg/SAM.C:initSystemEquations"]}
{"id": "C06", "title": "Expanding a solution satisfies every boundary condition", "statement": "Expanding an equation-order vector to DOF order copies free DOFs, yields zero in fixed DOFs and in every slave DOF yields c0*scale + sum(c_i * master_i) evaluated on the expanded vector itself; restricting the expanded vector returns the original vector.", "quantifier": "all valid DOF/constraint tables, all solution vectors, all scale factors", "why_tests_cant": "constraints interact through shared masters; only a few models are tested", "anchors": ["src/LinAlg/SAM.C:expandVector", "src/LinAlg/SAM.C:getSolVec"]}
{"id": "C07", "title": "Element matrix assembly is the constraint congruence", "statement": "Assembling an element matrix adds exactly T'KT to the system matrix, where row i of T expresses element DOF i by the free equations, and subtracts T'K c0 from the right-hand side; hence the result is independent of the order in which elements are assembled.", "quantifier": "all element matrices, connectivities, constraint tables, equation pairs and element orders", "why_tests_cant": "exact algebraic identity over all tables, also non-symmetric matrices and repeated equations", "anchors": ["src/LinAlg/SparseMatrix.C:assemSparse", "src/LinAlg/SparseMatrix.C:assemble"]}
{"id": "C08", "title": "Load assembly is the transpose of solution expansion", "statement": "Adding a DOF-order load to the system right-hand side is adjoint to (homogeneous) expansion: for every equation vector x, the inner product of x and the assembled load equals that of the expanded x and the load.", "quantifier": "all loads, all equation vectors, all constraint tables", "why_tests_cant": "virtual-work identity over all vectors", "anchors": ["src/LinAlg/SAM.C:assembleRHS", "src/LinAlg/SAM.C:addToRHS", "src/LinAlg/SAM.C:expandVector"]}
{"id": "C09", "title": "The precomputed sparsity pattern covers every assembled entry", "statement": "Every matrix position written by assembling any element of the model is contained in the coupling pattern computed in advance from the same tables, and the pattern is symmetric; so assembly into a locked pattern never touches a non-existing entry.", "quantifier": "all meshes, constraint tables, elements", "why_tests_cant": "a missing coupling appears only for special constraint/element combinations and then corrupts memory shared between threads", "anchors": ["src/LinAlg/SAM.C:getDofCouplings", "src/LinAlg/SparseMatrix.C:assemSparse", "src/LinAlg/SparseMatrix.C:preAssemble"]}
{"id": "C10", "title": "Reaction forces collect all prescribed-DOF contributions", "statement": "When an element matrix is assembled with reaction forces requested, the reaction force in each constrained DOF receives the sum over all prescribed/dependent element DOFs j of -c0_j K(i,j).", "quantifier": "all element matrices and constraint tables", "why_tests_cant": "needs two or more constrained DOFs with non-zero values in one element", "anchors": ["src/LinAlg/SAM.C:assembleSystem", "src/LinAlg/SAM.C:assembleReactions"]}
{"id": "C11", "title": "Nodal DOF value lookup", "statement": "Looking up local DOF d of node n in a DOF-order vector of full length returns the component at that DOF, for every node and every local DOF, and zero outside the range.", "quantifier": "all DOF tables, nodes, local DOFs, vectors", "why_tests_cant": "boundary value: only the very last DOF of a model is special", "anchors": ["src/LinAlg/SAM.C:getDofVal"]}
{"id": "C12", "title": "DOF and equation numbers map back to node and local DOF", "statement": "The (node, local DOF) pair reported for a DOF number - or for an equation number - is the unique pair whose DOF (equation) number is the given one.", "quantifier": "all DOF tables with arbitrary (also zero) DOFs per node, all DOF and equation numbers", "why_tests_cant": "off-by-one at node borders", "anchors": ["src/LinAlg/SAM.C:getNodeAndLocalDof"]}
{"id": "C13", "title": "Constraint equations are kept in a consistent order", "statement": "The ordering used for sets of constraint equations is a strict weak order, in both comparison modes; in slave-only mode two equations are equivalent exactly when they have the same slave DOF, so a set holds at most one equation per slave DOF.", "quantifier": "all constraint equations", "why_tests_cant": "transitivity is a three-way property over an infinite domain; std::set has undefined behaviour without it", "anchors": ["src/Utility/MPC.C:MPCLess::operator()", "src/Utility/MPC.C:operator<(DOF)"]}
{"id": "C14", "title": "Adding and merging masters preserves the linear form", "statement": "Adding a master term to a constraint changes the value of its linear form by exactly that term (terms within the zero tolerance are ignored) and never lists a master twice; merging two equations with equal slave adds their linear forms unless they are identical.", "quantifier": "all equations, all terms, all DOF values", "why_tests_cant": "over all coefficient values and master lists", "anchors": ["src/Utility/MPC.C:addMaster", "src/Utility/MPC.C:merge"]}
{"id": "C15", "title": "Resolving chained constraints preserves the solution set", "statement": "After chain resolution of an acyclic set of constraint equations, no master DOF is a slave of another equation, and a vector satisfies all resolved equations if and only if it satisfies all original ones (up to dropped terms below the zero tolerance).", "quantifier": "all acyclic sets of constraint equations, any chain depth and any visiting order", "why_tests_cant": "unbounded recursion depth and sharing", "anchors": ["src/ASM/ASMbase.C:resolveMPCchains"]}
{"id": "C16", "title": "Chained constraints are flattened correctly into the equation tables", "statement": "The constraint tables built from chained constraint objects express each slave by free DOFs only, with coefficients being products along the chains and the offset being the accumulated constants: evaluating the flat equation equals evaluating the chain recursively.", "quantifier": "all chain depths, all coefficients, all fixed/free status arrays", "why_tests_cant": "unbounded recursion depth", "anchors": ["src/ASM/SAMpatch.C:initConstraintEqs"]}
{"id": "C17", "title": "Merging two models keeps all constraints within bounds", "statement": "Merging the tables of one model into another re-creates the tables for the union of both: every valid constraint of both is present, element and node numbers of the second are shifted by the sizes of the first and no table is written out of bounds.", "quantifier": "all pairs of models, including models with ignored (conflicting) constraints and zero-span elements", "why_tests_cant": "needs a conflicting constraint or zero-span element in a merged model", "anchors": ["src/ASM/SAMpatch.C:merge", "src/ASM/SAMpatch.C:initConstraintEqs", "src/ASM/ASMbase.C:shiftGlobalElmNums"]}
{"id": "C18", "title": "Node DOF table", "statement": "The DOF table assigns to the nodes consecutive, disjoint DOF ranges whose lengths are the nodal DOF counts of the patches, covering 1..ndof; a DOF has status fixed iff some patch fixes it, and patches that disagree on a node's DOF count are rejected.", "quantifier": "all multi-patch models", "why_tests_cant": "all patch orders and overlaps", "anchors": ["src/ASM/SAMpatch.C:initNodeDofs"]}
{"id": "C19", "title": "Element connectivity lookup by external element number", "statement": "After initialisation, looking up element e returns exactly the global nodes of the patch element whose external number is e, an empty list for unused numbers, regardless of the order of patches; duplicated external numbers are rejected when reordering takes place.", "quantifier": "all patch orders, element numberings with holes", "why_tests_cant": "permutations and holes of unbounded size", "anchors": ["src/ASM/SAMpatch.C:initElementConn", "src/LinAlg/SAM.C:getElmNodes"]}
{"id": "C20", "title": "Renumbering nodes of a model", "statement": "Renumbering a multi-patch model makes the used node numbers 1..N without gaps; two patch nodes share a number after iff they did before, the relative order is retained, and the reported number of changes is right.", "quantifier": "all multi-patch numberings with positive numbers", "why_tests_cant": "any gap pattern", "anchors": ["src/ASM/ASMbase.C:renumberNodes(model)", "src/Utility/Utilities.C:renumber"]}
{"id": "C21", "title": "Compressing a sparse matrix keeps all its entries", "statement": "Converting an editable sparse matrix to compressed row storage (diagonal first) or compressed column storage does not change the value read at any position (r,c); the transposing variant transposes it. In every reachable storage state reading never leaves an array and a write reaches exactly the addressed entry, and is dropped exactly when the position is outside the matrix or outside a locked pattern.", "quantifier": "all matrices reachable through any sequence of the public operations, all dimensions and sparsity patterns, including empty rows and columns", "why_tests_cant": "pattern space and operation histories are unbounded; empty leading/trailing rows are the corner cases", "anchors": ["src/LinAlg/SparseMatrix.C:optimiseRows", "src/LinAlg/SparseMatrix.C:optimiseCols", "src/LinAlg/SparseMatrix.C:operator()"]}
{"id": "C22", "title": "Sparse matrix-vector product", "statement": "The matrix-vector product in any storage state and for any solver type is y_r = sum_c A(r,c) x_c.", "quantifier": "all matrices, vectors, storage formats and solver types", "why_tests_cant": "must hold in every storage state for all patterns", "anchors": ["src/LinAlg/SparseMatrix.C:multiply"]}
{"id": "C23", "title": "Sparse matrix dump lists the entries", "statement": "Dumping a matrix in coordinate format lists each stored non-zero with its own row, column and value, in every storage state.", "quantifier": "all matrices and storage formats", "why_tests_cant": "value/index pairing for all patterns", "anchors": ["src/LinAlg/SparseMatrix.C:dump"]}
{"id": "C24", "title": "Structural edits of sparse matrices", "statement": "Augmenting adds B at (r0,c0) and its transpose at (c0,r0) and grows the dimension accordingly; truncation removes exactly the entries below the tolerance relative to the largest diagonal entry; redimensioning keeps entries inside the new size; resizing zeroes; splitting a non-empty editable matrix by an increasing equation subset puts each entry in exactly one of four blocks and loses none; a column of a non-empty editable matrix is extracted exactly; the infinity norm is the largest absolute row sum; the CSR pointers delimit the rows.", "quantifier": "all reachable matrices, offsets, thresholds and equation subsets", "why_tests_cant": "all patterns", "anchors": ["src/LinAlg/SparseMatrix.C:augment", "src/LinAlg/SparseMatrix.C:truncate", "src/LinAlg/SparseMatrix.C:redim", "src/LinAlg/SparseMatrix.C:split", "src/LinAlg/SparseMatrix.C:getColumn", "src/LinAlg/SparseMatrix.C:Linfnorm", "src/LinAlg/SparseMatrix.C:calcCSR"]}
{"id": "C25", "title": "Time stepping never passes the stop time and lands on section ends", "statement": "Every successful increment advances time by the reported step size, the time never exceeds the stop time, time-section end points are hit exactly, and once the end is reached no further increment succeeds.", "quantifier": "all step schedules, all histories of increments and cut-backs", "why_tests_cant": "unbounded histories", "anchors": ["src/SIM/TimeStep.C:increment", "src/SIM/TimeStep.C:hasReached", "src/SIM/TimeStep.C:finished"]}
{"id": "C26", "title": "Cut-back only affects the current step", "statement": "A successful cut-back moves the time to (start of step)+(reduced step size), never below the minimum step size, and leaves the schedule of other time sections and other listed steps unchanged.", "quantifier": "all schedules and histories", "why_tests_cant": "depends on the history of completed sections", "anchors": ["src/SIM/TimeStep.C:cutback"]}
{"id": "C27", "title": "Restart resumes at the saved time", "statement": "Restoring a serialized time-stepping state yields the step number and time that were saved.", "quantifier": "all schedules, start times and histories including cut-backs", "why_tests_cant": "depends on the whole history before the restart", "anchors": ["src/SIM/TimeStep.C:serialize", "src/SIM/TimeStep.C:deSerialize", "src/SIM/TimeStep.C:reset"]}
{"id": "C28", "title": "Gathering element vectors stays in bounds", "statement": "Gathering nodal blocks from a vector returns the blocks selected by the index array in order, counts the indices that are out of range, and reads no memory outside the input when the input holds whole blocks.", "quantifier": "all index arrays, block sizes, offsets and inputs", "why_tests_cant": "out-of-bounds reads show only for particular sizes", "anchors": ["src/Utility/Utilities.C:gather"]}
{"id": "C29", "title": "Equations without contributions are regularised", "statement": "At the end of assembly exactly the equations that received no contribution get a diagonal term, so equations that received element contributions (directly or as masters) are unchanged.", "quantifier": "all sequences of element assemblies", "why_tests_cant": "all assembly histories", "anchors": ["src/LinAlg/SystemMatrix.C:flagNonZeroEqs", "src/LinAlg/SystemMatrix.C:endAssembly"]}
{"id": "C30", "title": "Boundary condition codes", "statement": "Fixing local DOFs of a node marks exactly these DOFs as fixed, keeps previously fixed ones, reports exactly the invalid digits and a fixed-query for several DOFs is true iff all (any) of them are fixed.", "quantifier": "all digit codes, nodes, histories of fix operations", "why_tests_cant": "all digit combinations and histories", "anchors": ["src/ASM/ASMbase.C:fix", "src/ASM/ASMbase.C:isFixed", "src/Utility/Utilities.C:getDigits"]}
{"id": "C31", "title": "Diagonal system matrix", "statement": "Assembling an element matrix into a diagonal system matrix adds to each equation exactly the diagonal entry which assembly into a full matrix would produce, including constraint contributions.", "quantifier": "all element matrices, constraint tables and elements, including elements in which an equation occurs more than once", "why_tests_cant": "degenerated elements and shared masters are rare in tests", "anchors": ["src/LinAlg/DiagMatrix.C:assemble"]}
{"id": "C32", "title": "Assembling nodal vectors into matrix columns", "statement": "Adding a nodal vector to columns of a rectangular matrix adds to column j the load T'e_j v_j, i.e. constrained DOFs are distributed to their masters with the constraint coefficients.", "quantifier": "all nodes, constraint tables and nodal vectors", "why_tests_cant": "needs constraints with non-unit coefficients", "anchors": ["src/LinAlg/SparseMatrix.C:assembleCol"]}
{"id": "C33", "title": "Assembled sparse matrix is the sum of the element contributions", "statement": "After any history of assembly rounds, an assembly round (re-initialise, assemble a set of elements, finish) on a sparse matrix leaves in every off-diagonal position, and on the diagonal of every equation that gets contributions, exactly the sum of the element matrices transformed by the constraints - in all storage modes (growing, pre-computed pattern not yet locked, locked compressed pattern): no contribution is lost to the locked pattern and nothing of earlier rounds is left.", "quantifier": "all models accepted by the equation initialisation, all element matrices, all subsets of elements, all pre-assembly modes, all numbers of rounds", "why_tests_cant": "the pattern must cover the contributions of every model; the history is unbounded", "anchors": ["src/LinAlg/SparseMatrix.C:initAssembly", "src/LinAlg/SparseMatrix.C:preAssemble", "src/LinAlg/SparseMatrix.C:assemble", "src/ASM/AlgEqSystem.C:initialize", "src/LinAlg/SAM.C:getDofCouplings"]}
{"id": "C34", "title": "Adding sparse matrices", "statement": "Adding alpha*B to a matrix with a large enough dimension changes every entry (r,c) by alpha*B(r,c).", "quantifier": "all reachable matrices A and B in all storage states", "why_tests_cant": "all patterns and combinations of storage states", "anchors": ["src/LinAlg/SparseMatrix.C:add"]}
{"id": "C35", "title": "Constraint equations of a patch", "statement": "Adding two-/three-point constraints, periodicity and prescribed values to a patch adds exactly the requested equations for DOFs without conditions, never disturbs other equations, keeps at most one equation per DOF, never makes a DOF its own master, lets fixations take precedence (unless overridden), and reports the DOFs that could not be constrained.", "quantifier": "every patch state, every sequence of fix/prescribe/add2PC/add3PC calls, all nodes, directions, codes", "why_tests_cant": "the outcome depends on the whole history of earlier calls on the same DOF", "anchors": ["src/ASM/ASMbase.C: ASMbase::addMPC", "src/ASM/ASMbase.C: ASMbase::add2PC", "src/ASM/ASMbase.C: ASMbase::add3PC", "src/ASM/ASMbase.C: ASMbase::addPeriodicity", "src/ASM/ASMbase.C: ASMbase::prescribe"]}
{"id": "C36", "title": "Merging the constraint sets of the patches", "statement": "Collecting the constraint equations of all patches leaves, over the whole model, exactly one equation for every slave DOF constrained by some patch. It belongs to the first patch constraining that DOF and is that patch's equation combined with those of the later patches: multi-master equations without constant term get the masters of the later ones added (unless identical), all other first definitions win unchanged.", "quantifier": "all patch lists with ordered constraint sets, all coefficients", "why_tests_cant": "all overlaps of any number of patches", "anchors": ["src/ASM/ASMbase.C:mergeAndGetAllMPCs", "src/Utility/MPC.C:merge"]}
{"id": "C37", "title": "Updating constraint coefficients", "statement": "After the constants and coefficients of the constraint equations have changed (their DOFs have not), updating the tables for a previous solution yields the master terms a fresh initialisation would give, and constants of the incremental form (total constant minus previous value of the slave, zero if the total constant is zero); all other tables are unchanged. Added to the previous solution, an increment then reproduces non-zero prescribed values and keeps homogeneous equations satisfied.", "quantifier": "all chained constraint sets, all coefficients before and after, all previous solutions (or none)", "why_tests_cant": "chains of any depth with arbitrary coefficients, all previous solutions", "anchors": ["src/ASM/SAMpatch.C:updateConstraintEqs"]}
{"id": "C38", "title": "Copying the time stepping parameters", "statement": "A copy of the time stepping object continues exactly like the original: the next increment of both gives the same time and step size.", "quantifier": "all parsed schedules and all states reached by simulations", "why_tests_cant": "the state space of schedules and positions is unbounded; a test copies in the first section only", "anchors": ["src/SIM/TimeStep.C: TimeStep::increment, cutback, reset, hasReached, parse, operator=, serialize, deSerialize", "src/SIM/TimeStep.h: TimeStep"]}
{"id": "C39", "title": "Geometrically graded time steps", "statement": "For positive first and last step sizes, the graded step sizes of a time section are finitely many, begin with the first size, lie between the two given sizes (the last one may be smaller, but is positive) and add up exactly to the section length.", "quantifier": "all section lengths and all pairs of step sizes", "why_tests_cant": "the loop runs a data dependent number of times over real parameters", "anchors": ["src/SIM/TimeStep.C: TimeStep::increment, cutback, reset, hasReached, parse, operator=, serialize, deSerialize", "src/SIM/TimeStep.h: TimeStep"]}
{"id": "C40", "title": "Rigid and weighted nodal couplings", "statement": "A rigid coupling makes every unconstrained DOF of the slave node follow the rigid body motion of the master node (translation plus rotation cross offset), a weighted coupling makes it the weighted sum of the master values; no other condition changes.", "quantifier": "every patch state, offsets, weights, number of fields up to 9", "why_tests_cant": "must hold for every offset vector and every state of earlier conditions", "anchors": ["src/ASM/ASMbase.C: ASMbase::addRigidMPC", "src/ASM/ASMbase.C: ASMbase::addNodalCouplings"]}
{"id": "C41", "title": "Connecting patches", "statement": "Collapsing two nodes gives both the smaller of their numbers and moves the conditions along; connecting two patches gives every matched pair a common number and changes no other node; neighborhood is symmetric. After connecting all patches of a model, all nodes that are (transitively) matched have the same number.", "quantifier": "all multi-patch models, all node pairs, all sequences of connections", "why_tests_cant": "the outcome depends on the order of the connections and on the neighbor lists built so far", "anchors": ["src/ASM/ASMbase.C: ASMbase::collapseNodes", "src/ASM/ASMbase.C: ASMbase::mergeNodes", "src/ASM/ASMbase.C: ASMbase::addNeighbor", "src/ASM/ASMs2D.C: ASMs2D::connectBasis"]}
{"id": "C42", "title": "Periodic closing of structured patches", "statement": "Closing a structured 2D or 3D patch in any sequence of directions identifies exactly the nodes of opposite sides (a torus), and conditions follow their nodes.", "quantifier": "all patch sizes, node offsets, direction sequences, existing conditions", "why_tests_cant": "all sizes and all direction sequences", "anchors": ["src/ASM/ASMs2D.C: ASMs2D::closeBoundaries", "src/ASM/ASMs3D.C: ASMs3D::closeBoundaries", "src/ASM/ASMbase.C: ASMbase::makePeriodic"]}
{"id": "C43", "title": "Reshaping dense matrices", "statement": "Resizing, adding and removing rows and columns, transposing, reading and replacing rows, columns and blocks, making diagonal matrices and scaling columns of a dense matrix give exactly the entries of the corresponding mathematical operation, leave other entries alone and never touch memory outside the matrix.", "quantifier": "all sizes, entries, offsets, block sizes (also overlapping the border)", "why_tests_cant": "in-place moves of columns depend on all sizes; tests use a few", "anchors": ["src/LinAlg/matrix.h: utl::matrix", "src/LinAlg/matrix.h: utl::matrixBase", "src/LinAlg/matrix.h: matrix::expandRows", "src/LinAlg/matrix.h: matrix::augmentRows", "src/LinAlg/matrix.h: matrix::fillBlock"]}
{"id": "C44", "title": "Determinant and inverse", "statement": "For square matrices of dimension 1 to 3, det is the determinant, and inverse replaces the matrix by its inverse and returns the determinant, unless the determinant is within the tolerance of zero, when the matrix is left unchanged and zero is returned.", "quantifier": "all matrices of dimension 1 to 3, all tolerances", "why_tests_cant": "identity over all entries", "anchors": ["src/LinAlg/matrix.h: utl::matrix", "src/LinAlg/matrix.h: matrix::det", "src/LinAlg/matrix.h: matrix::inverse"]}
{"id": "C45", "title": "Dense matrix products", "statement": "Matrix-vector, matrix-matrix and outer products, with any combination of transposition, scaling and accumulation, compute the mathematical sums; incompatible operands are rejected and leave the result untouched or empty.", "quantifier": "all sizes, entries, flags", "why_tests_cant": "all sizes and flag combinations", "anchors": ["src/LinAlg/matrix.h: utl::matrix", "src/LinAlg/matrix.h: matrix::multiply", "src/LinAlg/matrix.h: matrix::multiplyMat", "src/LinAlg/matrix.h: matrix::outer_product"]}
{"id": "C46", "title": "Three- and four-dimensional matrices", "statement": "Columns of 3D and 4D matrices can be read and written by their indices, products and sub-matrix traces of 3D matrices are the mathematical ones, and printed blocks carry their own indices.", "quantifier": "all dimensions, indices, entries", "why_tests_cant": "all index combinations", "anchors": ["src/LinAlg/matrixnd.h: utl::matrix3d", "src/LinAlg/matrixnd.h: utl::matrix4d"]}
{"id": "C47", "title": "Vector kernels", "statement": "Adding, relaxing, summing, dotting and norming vectors with offsets and strides use exactly the elements offset, offset+stride, ... of the vectors, in the built-in and in the BLAS versions alike.", "quantifier": "all lengths, offsets, strides, values", "why_tests_cant": "all offset/stride combinations", "anchors": ["src/LinAlg/matrix.h: utl::vector"]}
{"id": "C48", "title": "Nodal vectors survive extraction and injection", "statement": "Extracting the nodal values of a patch from a global vector gives the values of its nodes in order; injecting a patch vector sets exactly the values of the patch nodes on the chosen basis and leaves everything else; extracting what was injected gives it back, and injecting what was extracted changes nothing; no memory outside the arrays is touched.", "quantifier": "all patches, node numberings, DOF tables, bases and vectors", "why_tests_cant": "an error shows only for particular combinations of shared nodes, DOF-less nodes and bases", "anchors": ["src/ASM/ASMbase.C:extractNodalVec", "src/ASM/ASMbase.C:injectNodalVec", "src/ASM/ASMbase.C:extractNodeVec", "src/ASM/ASMbase.C:injectNodeVec"]}
{"id": "C49", "title": "Element results, solution fields and control point search", "statement": "Element results are returned for exactly the active elements of the patch, in order, with zero for elements without a value; the solution at selected nodes is the nodal solution, zero for Lagrange multipliers, and invalid nodes are refused; the control point search returns the closest point within the tolerance or reports that there is none.", "quantifier": "all element tables, node lists, tolerances and point sets", "why_tests_cant": "all sizes and all positions of inactive elements and special nodes", "anchors": ["src/ASM/ASMbase.C:extractElmRes", "src/ASM/ASMbase.C:getSolution", "src/ASM/ASMbase.C:searchCtrlPt"]}
{"id": "C50", "title": "Deformed element coordinates", "statement": "The deformed coordinates of an element are the reference coordinates plus the displacements of the same nodes; mismatching sizes are refused and other element vectors are kept.", "quantifier": "all element sizes and numbers of fields per node", "why_tests_cant": "depends on the number of fields per node", "anchors": ["src/ASM/ASMbase.C:deformedConfig"]}
{"id": "C51", "title": "Integer lists are parsed as written", "statement": "A text with integers and ranges i:j separated by blanks or commas is parsed into the listed values in order; parsing ends for every text and keeps the values that were there before.", "quantifier": "all texts", "why_tests_cant": "the language of texts is infinite", "anchors": ["src/Utility/Utilities.C:parseIntegers"]}
{"id": "C52", "title": "Array utilities", "statement": "The closest value in a sorted array is found; searching keys and indices returns the first match; merging appends each new value once, and merging values by key keeps each key with its value; interleaving puts the values of two nodal fields node by node.", "quantifier": "all arrays", "why_tests_cant": "all lengths and all orderings", "anchors": ["src/Utility/Utilities.C:find_closest", "src/Utility/Utilities.C:merge", "src/Utility/Utilities.C:interleave", "src/Utility/Utilities.C:findKey", "src/Utility/Utilities.C:findIndex"]}
{"id": "C53", "title": "Newmark time integration keeps the Newmark relations", "statement": "After the prediction and after every correction of a time step, with any number of iterations and any solution increments, the displacement, velocity and acceleration satisfy the Newmark relations with respect to the previous state; the zero-acceleration, constant-velocity and constant-displacement predictors predict what their names say.", "quantifier": "all states, step sizes, Newmark parameters, predictors, increments, numbers of iterations and outcomes of the convergence checks", "why_tests_cant": "all histories of increments and iterations", "anchors": ["src/SIM/NewmarkSIM.C:predictStep", "src/SIM/NewmarkSIM.C:correctStep", "src/SIM/NewmarkSIM.C:solveStep"]}
{"id": "C54", "title": "Generalized alpha, HHT and nonlinear Newmark keep the Newmark relations", "statement": "A converged time step of the generalized alpha, HHT and nonlinear Newmark drivers satisfies the Newmark relations, also with sub-iterations and with displacements set from outside; during generalized alpha iterations the solution is the alpha-weighted mean of the old and new state. The parameters derived from alpha or rho_inf are the second-order accurate ones and agree with those of the element matrices.", "quantifier": "all states, parameters, increments, numbers of iterations and sub-iterations", "why_tests_cant": "all histories; the failures need convergence without iterations or sub-iterations", "anchors": ["src/SIM/GenAlphaSIM.C:predictStep", "src/SIM/GenAlphaSIM.C:correctStep", "src/SIM/HHTSIM.C:correctStep", "src/SIM/NewmarkNLSIM.C:correctStep", "src/SIM/HHTSIM.C:setSolution", "src/ASM/NewmarkMats.C:NewmarkMats", "src/ASM/HHTMats.C:HHTMats"]}
{"id": "C55", "title": "The Newton matrix is the derivative of the residual", "statement": "For linear elements the element residual after a correction by x equals the residual before minus the element Newton matrix times x, for Newmark, generalized alpha, HHT and nonlinear Newmark with mass, stiffness, geometric stiffness, damping and Rayleigh damping; the HHT predictor and corrector evaluate the same alpha-residual, including the external loads.", "quantifier": "all element matrices, states, increments and parameters", "why_tests_cant": "holds for all matrices; the terms are spread over three classes", "anchors": ["src/ASM/NewmarkMats.C:getNewtonMatrix", "src/ASM/NewmarkMats.C:getRHSVector", "src/ASM/HHTMats.C:getNewtonMatrix", "src/ASM/HHTMats.C:getRHSVector", "src/SIM/HHTSIM.C:finalizeRHSvector"]}
{"id": "C56", "title": "Backward difference coefficients", "statement": "The BDF coefficients in use give the exact time derivative of polynomials up to the order of the scheme for every sequence of step sizes, from the first step on; the second-derivative version likewise; extrapolation has the same order; the element residual and Newton matrix use the same coefficients.", "quantifier": "all sequences of time steps and all polynomials up to the degree", "why_tests_cant": "all sequences of step sizes", "anchors": ["src/Utility/BDF.C:advanceStep", "src/Utility/BDF.C:getCoefs", "src/Utility/BDF.h:extrapolate", "src/ASM/BDFMats.C:getNewtonMatrix", "src/ASM/BDFMats.C:getRHSVector"]}
{"id": "C57", "title": "Convergence control of the nonlinear iterations", "statement": "A time step ends at the first iteration whose norm is below the tolerance (relative to the reference norm, or absolute) or which meets the divergence rule (above the limit while growing, or more than the given number of increases in a row), and after maxit iterations at the latest; every solution increment is added exactly once; simulators do not influence each other.", "quantifier": "all sequences of norms, tolerances, limits and iteration numbers", "why_tests_cant": "all sequences of norms", "anchors": ["src/SIM/NewmarkSIM.C:checkConvergence", "src/SIM/NonLinSIM.C:checkConvergence", "src/SIM/NewmarkSIM.C:solveStep", "src/SIM/NonLinSIM.C:solveStep"]}
{"id": "C58", "title": "Line search", "statement": "The line search scales the increment by a factor between 1/2 and 3/2, tries at most ten factors, stops when the criterion is met or the factors agree, and otherwise uses the best factor; the factor it reports is the one applied; it is defined for all residuals.", "quantifier": "all residual functions and tolerances", "why_tests_cant": "the residual is an arbitrary function of the step length", "anchors": ["src/SIM/NonLinSIM.C:lineSearch"]}
{"id": "C59", "title": "History of solution vectors", "statement": "Pushing the solution moves every state one place back, keeps the current state and the vectors beyond the last complete state.", "quantifier": "all numbers of states and vectors per state", "why_tests_cant": "all sizes", "anchors": ["src/SIM/SIMsolution.C:pushSolution"]}
{"id": "C60", "title": "An assembly round of the equation system sums all element contributions", "statement": "After initialize(), assemble() of any set of elements by any number of threads and finalize(), in a system with any earlier legal history: every call is defined; each system matrix is the sum of its element matrices with the constraints eliminated (equations without contribution get the given regularisation if the matrices are reinitialised); each right-hand-side vector is the sum of the element vectors minus the prescribed-value terms of the matrices associated with it; reaction forces and scalars are the sums of the element contributions; other systems do not change.", "quantifier": "all DOF tables, numbers of matrices, vectors, scalars and threads, element sets, element orders and thread assignments, earlier histories", "why_tests_cant": "all histories, sizes, schedules of the elements on the threads", "anchors": ["src/ASM/AlgEqSystem.C:initialize", "src/ASM/AlgEqSystem.C:assemble", "src/ASM/AlgEqSystem.C:finalize", "src/LinAlg/SAM.C:assembleSystem", "src/LinAlg/SparseMatrix.C:assemble"]}
{"id": "C61", "title": "The equation system neither leaks nor uses dangling memory", "statement": "In every program that creates, initialises, copies, assigns, adds, assembles, clears and destroys any number of equation systems in a legal order, every call is defined, every allocated matrix, vector and thread buffer belongs to exactly one living system, matrices are associated with vectors of their own system, and everything is released when the systems are cleared or destroyed.", "quantifier": "all legal call sequences on any number of systems", "why_tests_cant": "all histories", "anchors": ["src/ASM/AlgEqSystem.C:init", "src/ASM/AlgEqSystem.C:copy", "src/ASM/AlgEqSystem.C:add", "src/ASM/AlgEqSystem.C:clear", "src/ASM/AlgEqSystem.C:setAssociatedVector", "src/ASM/AlgEqSystem.C:initialize", "src/ASM/AlgEqSystem.C:finalize"]}
{"id": "C62", "title": "Copies and sums of equation systems", "statement": "A copied or assigned system has the contents of the original, and afterwards neither changes when the other is used; adding a system adds its matrices, vectors, scalars and reaction forces and changes no other system.", "quantifier": "all legal call sequences on any number of systems", "why_tests_cant": "all histories", "anchors": ["src/ASM/AlgEqSystem.C:copy", "src/ASM/AlgEqSystem.C:add", "src/ASM/AlgEqSystem.h:operator="]}
{"id": "C63", "title": "Static condensation yields an equivalent reduced system", "statement": "If staticCondensation() returns true, a vector solves the assembled equation system if and only if its retained part solves the reduced system and its other part is the recovery matrix times (1, retained part); recoverInternals() then returns the expanded solution of the whole system from any solution of the reduced one, and each solution is recovered from its retained part. Nodes that do not exist and retained DOFs that are not free are refused.", "quantifier": "all DOF tables, system matrices, right-hand sides, sets of retained nodes and exact solvers", "why_tests_cant": "all matrices and retained sets", "anchors": ["src/ASM/AlgEqSystem.C:staticCondensation", "src/ASM/AlgEqSystem.C:recoverInternals", "src/LinAlg/SparseMatrix.C:split", "src/LinAlg/SAM.C:getNodeEqns"]}
{"id": "C64", "title": "The recovery matrix file is read back exactly, and an incomplete file is refused", "statement": "readRecoveryMatrix() of a file written by staticCondensation() returns true and the same matrix; if the writing was interrupted at any byte the file is refused; reduction, file and recovery together give the solution of the whole system.", "quantifier": "all matrix sizes and contents, all crash points (lengths of the file)", "why_tests_cant": "all sizes and all interruption points", "anchors": ["src/ASM/AlgEqSystem.C:staticCondensation", "src/ASM/AlgEqSystem.C:readRecoveryMatrix", "src/ASM/AlgEqSystem.C:recoverInternals"]}
{"id": "C65", "title": "The coloring of LR B-spline elements makes the multi-threaded assembly race free", "statement": "The thread groups generated for an LR B-spline patch contain every element exactly once, and no two elements of one group share a basis function, so assembling the groups one after the other with any distribution of the elements of a group to threads gives the same sums as the serial assembly; checkThreadGroups() reports exactly the groups with a repeated function.", "quantifier": "all meshes (element-function incidences), element orderings, sets of additional bases, distributions to threads and interleavings", "why_tests_cant": "all meshes and all thread schedules", "anchors": ["src/ASM/LR/ASMLRSpline.C:LR::generateThreadGroups", "src/ASM/LR/ASMLRSpline.C:checkThreadGroups"]}
{"id": "C66", "title": "The coloring of unstructured Lagrange elements respects nodes and constraint equations", "statement": "The thread groups generated for an unstructured Lagrange patch contain every element exactly once, and no two elements of one group contribute to the same degree of freedom, neither at a common node nor over the masters of constrained nodes, so the parallel assembly gives the serial sums.", "quantifier": "all element topologies, node numberings, sets of constraint equations, with and without the separate group of one-noded elements, all distributions to threads and interleavings", "why_tests_cant": "all meshes, constraints and thread schedules", "anchors": ["src/ASM/ASMu2DLag.C:generateThreadGroupsMultiColored", "src/ASM/ASMbase.C:getNodeIndex"]}
{"id": "C67", "title": "Nodal forces are the negative sums of the element vectors", "statement": "After initNodeMap() and initialize(), any sequence of assemble() calls gives at each boundary node minus the sum of the entries of the element vectors at this node; getForce() by node and by index agree, nodes outside the map give zero, getTotalForce() is the sum over the nodes; assemble() succeeds exactly if the element has a boundary node; getBoundaryNodes() gives the nodes of the properties.", "quantifier": "all tables, node lists, numbers of components, element vectors and sequences of calls", "why_tests_cant": "all meshes and call sequences", "anchors": ["src/ASM/GlbForceVec.C:initNodeMap", "src/ASM/GlbForceVec.C:assemble", "src/ASM/GlbForceVec.C:getForce", "src/ASM/GlbForceVec.C:getTotalForce", "src/SIM/SIMbase.C:getBoundaryNodes", "src/LinAlg/SAM.C:getElmNodes"]}
{"id": "C68", "title": "Global norms are the final operation of the sum over the elements, with or without element norms", "statement": "Integrating norms over any number of loops in any order gives, with and without storage of element norms, the same global norms: the final operation (none, absolute value, signed square root) applied once to the sum of all element terms, and the element norms are the final operation applied once to the sum of the terms of the element; the force resultant is the sum of the element forces.", "quantifier": "all group sizes, final operations, numbers of elements and sequences of element contributions", "why_tests_cant": "all sequences of integration loops and orders", "anchors": ["src/ASM/GlbNorm.C:assemble", "src/ASM/GlbNorm.C:applyFinalOp", "src/ASM/ElmNorm.h", "src/SIM/SIMbase.C:solutionNorms", "src/ASM/IntegrandBase.C:ForceBase::assemble"]}
{"id": "C69", "title": "Lagrange basis functions are the Lagrange polynomials and interpolation is exact", "statement": "Evaluating the one-dimensional basis gives the value and the derivative of the unique polynomial that is 1 at its own point and 0 at the others; computeBasis() gives the products in one, two or three directions, the first fastest, and their partial derivatives; they add up to one and reproduce every polynomial of the degree; the interpolator goes through its data. Requests are refused exactly for illegal numbers and for derivatives outside the points.", "quantifier": "all point sets, numbers of points per direction, coordinates and polynomials", "why_tests_cant": "all real coordinates and all polynomials of the degree", "anchors": ["src/ASM/Lagrange.C:Lagrange::evalPol", "src/ASM/Lagrange.C:Lagrange::evalDer", "src/ASM/Lagrange.C:computeBasis", "src/Utility/LagrangeInterpolator.C:evaluate", "src/Utility/LagrangeInterpolator.C:get"]}
{"id": "C70", "title": "Chebyshev polynomials and functions and their derivatives", "statement": "The polynomials of first and second kind take the values of the Chebyshev polynomials (cos(n t), sin((n+1)t)/sin t), the derivative functions return their derivatives; a Chebyshev function is the sum of coefficients times products of polynomials over its domain, deriv() and dderiv() are its first and second partial derivatives; gradient and hessian of a vector function hold those of the components.", "quantifier": "all degrees, coordinates, domains, coefficients, numbers of variables", "why_tests_cant": "all real coordinates, degrees and coefficient files", "anchors": ["src/Utility/Chebyshev.C:evalPol1", "src/Utility/Chebyshev.C:evalPol2", "src/Utility/Chebyshev.C:evalDer1", "src/Utility/Chebyshev.C:evalDer2", "src/Utility/Chebyshev.C:eval2Der1", "src/Utility/Chebyshev.C:ChebyshevFunc", "src/Utility/Chebyshev.C:ChebyshevVecFunc"]}
{"id": "C71", "title": "Legendre polynomials and derivatives are exact on the closed interval", "statement": "eval() and derEval() return the value and the derivative of the Legendre polynomial (orthogonal to all polynomials of lower degree, 1 at 1) at every point of [-1,1] including the ends, and refuse exactly degrees below 1 and points outside.", "quantifier": "all degrees and coordinates", "why_tests_cant": "all degrees and real coordinates", "anchors": ["src/Utility/Legendre.C:eval", "src/Utility/Legendre.C:derEval"]}
{"id": "C72", "title": "Gauss-Legendre and Gauss-Lobatto-Legendre rules integrate polynomials exactly", "statement": "GL() with n points returns increasing points inside ]-1,1[ and weights that integrate every polynomial of degree up to 2n-1 exactly; GLL() includes the end points and is exact up to degree 2n-3; basisDerivatives() gives the derivatives of the Lagrange polynomials of the GLL points at these points, that is differentiates all polynomials of degree below n.", "quantifier": "all numbers of points, all polynomials of the degree", "why_tests_cant": "all polynomials and all numbers of points", "anchors": ["src/Utility/Legendre.C:GL", "src/Utility/Legendre.C:GLL", "src/Utility/Legendre.C:basisDerivatives", "src/ASM/ASMs1DSpec.C:integrate"]}
{"id": "C73", "title": "Values and derivatives of the scalar functions of time and space", "statement": "deriv(X,d) is the partial derivative of the function in coordinate d (4: time) wherever the function is smooth, for constants, time functions, products, linear, quadratic, rotation, step and interpolated functions; tables are interpolated linearly, constant outside; quadratic functions vanish at their end points and take their maximum midway; the rotation functions are the displacements of a rigid rotation.", "quantifier": "all functions and all products, all points, times and directions", "why_tests_cant": "all real coordinates, tables and compositions", "anchors": ["src/Utility/Functions.C:LinearFunc::evaluate", "src/Utility/Functions.C:LinearFunc::deriv", "src/Utility/Functions.C:SpaceTimeFunc::deriv", "src/Utility/Functions.C:SpaceTimeFunc::dderiv", "src/Utility/Functions.C:QuadraticXFunc", "src/Utility/Functions.C:LinearRotZFunc", "src/Utility/Functions.C:Interpolate1D", "src/Utility/Functions.C:LinearFunc::LinearFunc"]}
{"id": "C74", "title": "isZero and isConstant never misreport", "statement": "If isZero() is true the function is zero everywhere (interpolated and linear functions of time: below 1e-12 times the argument, 1e-24 for tables); if isConstant() is true its value does not depend on the time (from time zero on).", "quantifier": "all functions, points and times", "why_tests_cant": "all real arguments", "anchors": ["src/Utility/Functions.h:isZero", "src/Utility/Functions.h:isConstant", "src/Utility/Function.h:isConstant", "src/Utility/Functions.C:LinearFunc::isZero"]}
{"id": "C75", "title": "Text definitions of functions give the documented function", "statement": "The text of a function (amplitude, spatial form with its parameters, time function with its parameters, names in any case) defines amplitude times spatial function times time function, with the documented value of each form; without a name the constant.", "quantifier": "all names, parameters, amplitudes and points", "why_tests_cant": "all texts and all arguments", "anchors": ["src/Utility/Functions.C:parseRealFunc", "src/Utility/Functions.C:parseFunction"]}
{"id": "C76", "title": "The restart file gives back what was written", "statement": "After writeData of a new level, readData of that level returns exactly the non-empty entries that were written (split in bases and solution), all other levels read as before; after any number of writes every level is readable, a negative level means the last one, and a missing file or level is reported.", "quantifier": "all serialized states, levels, files and histories of writes", "why_tests_cant": "all data and histories of writes", "anchors": ["src/Utility/HDF5Restart.C:HDF5Restart::writeData", "src/Utility/HDF5Restart.C:HDF5Restart::readData", "src/Utility/HDF5Restart.C:read_restart_data"]}
{"id": "C77", "title": "A crash while restart data is written does not damage the states written before", "statement": "At every point of a write, the other levels are unchanged and the level being written cannot be read or reads as the first entries; restarting without a level finds the last complete state; repeating the write completes the level.", "quantifier": "all points at which a write can be interrupted, all files and data", "why_tests_cant": "all crash points", "anchors": ["src/Utility/HDF5Restart.C:HDF5Restart::writeData", "src/Utility/HDF5Restart.C:HDF5Restart::readData", "Apps/Utils/SIMSolver.h:SIMSolver::restart"]}
{"id": "C78", "title": "Results and restart data are written on schedule, also after a restart", "statement": "Results are written at the multiples of their interval, restart data at the positive multiples of theirs, with consecutive levels; a run restarted from a saved step writes the same steps to the same levels as the uninterrupted run, and the restart file ends up the same.", "quantifier": "all intervals, numbers of steps and restart steps", "why_tests_cant": "all schedules and interruptions", "anchors": ["src/Utility/DataExporter.C:DataExporter::dumpTimeLevel", "src/Utility/HDF5Restart.C:HDF5Restart::dumpStep", "Apps/Utils/SIMSolver.h:SIMSolver::saveState", "Apps/Utils/SIMSolver.h:SIMSolver::restart", "Apps/Utils/SIMSolver.h:SIMSolver::solveProblem"]}
{"id": "C79", "title": "The results file holds every dumped time level", "statement": "Each due dump adds one level with exactly the fields enabled at that time and their values, fields marked ONCE in the first one only; appending continues after the last level; a failed dump does not affect later ones.", "quantifier": "all programs of registrations, values, control messages and dumps", "why_tests_cant": "all histories of calls", "anchors": ["src/Utility/DataExporter.C:DataExporter::dumpTimeLevel", "src/Utility/DataExporter.C:DataExporter::registerField", "src/Utility/HDF5Writer.C:HDF5Writer::getLastTimeLevel", "src/Utility/HDF5Writer.C:HDF5Writer::openFile", "src/Utility/HDF5Writer.C:HDF5Writer::writeVector", "src/Utility/HDF5Writer.C:HDF5Writer::writeKnotspan"]}
{"id": "C80", "title": "Elements of a structured patch are connected to the functions that live on them", "statement": "Knot-span element (e1,e2,e3) of a structured spline patch is connected to exactly the tensor-product functions with support on it, in lexicographic order; zero-length spans are not numbered, the others get consecutive element numbers, every control point lying on some element gets the next consecutive node number, and Lagrange patches number the grid points of each element likewise.", "quantifier": "all spline spaces (numbers of coefficients, orders, knot vectors) in one, two and three dimensions", "why_tests_cant": "all sizes, orders and knot vectors", "anchors": ["src/ASM/ASMs1D.C:ASMs1D::createMNPC", "src/ASM/ASMs2D.C:ASMs2D::createMNPC", "src/ASM/ASMs2D.C:ASMs2D::generateFEMTopology", "src/ASM/ASMs3D.C:ASMs3D::createMNPC", "src/ASM/ASMs3D.C:ASMs3D::generateFEMTopology", "src/ASM/ASMs2DLag.C:ASMs2DLag::createMNPC", "src/ASM/ASMs3DLag.C:ASMs3DLag::createMNPC"]}
{"id": "C81", "title": "Boundary sets and boundary conditions refer to the edge or face that was named", "statement": "The node set, element set and Dirichlet condition of a named vertex, edge or face of a structured patch contain each node or element of that boundary once and no other, also on patches whose last parameter direction was reversed when they were read.", "quantifier": "all patch sizes, bases, boundary indices, numbers of layers and orientations", "why_tests_cant": "all sizes and boundary indices", "anchors": ["src/ASM/ASMs1D.C:ASMs1D::getBoundaryNodes", "src/ASM/ASMs2D.C:ASMs2D::getBoundaryNodes", "src/ASM/ASMs2D.C:ASMs2D::constrainEdge", "src/ASM/ASMs2D.C:ASMs2D::getCorner", "src/ASM/ASMs2D.C:ASMs2D::findBoundaryElms", "src/ASM/ASMs2D.C:ASMs2D::setNodeNumbers", "src/ASM/ASMs3D.C:ASMs3D::getBoundaryNodes", "src/ASM/ASMs3D.C:ASMs3D::getBoundary1Nodes", "src/ASM/ASMs3D.C:ASMs3D::constrainFace", "src/ASM/ASMs3D.C:ASMs3D::getCorner", "src/ASM/ASMs3D.C:ASMs3D::findBoundaryElms"]}
{"id": "C82", "title": "Connected patches share the nodes at the same positions", "statement": "connectPatch of an edge or face with that of a neighbour pairs each node of one with exactly the node of the other at the position given by the orientation flag, is refused if the sizes differ, and reports a failure if and only if some pair has different coordinates (when checked).", "quantifier": "all pairs of patch sizes, edges or faces, orientations, layers and node coordinates", "why_tests_cant": "all sizes and orientations", "anchors": ["src/ASM/ASMs1D.C:ASMs1D::connectBasis", "src/ASM/ASMs2D.C:ASMs2D::connectPatch", "src/ASM/ASMs2D.C:ASMs2D::connectBasis", "src/ASM/ASMs3D.C:ASMs3D::connectPatch", "src/ASM/ASMs3D.C:ASMs3D::connectBasis", "src/ASM/ASMs3Dmx.C:ASMs3Dmx::connectPatch"]}
{"id": "C83", "title": "Adaptive refinement marks the elements or functions with the largest errors", "statement": "For each marking criterion the marked entries are distinct, none of the unmarked ones has a larger error than a marked one, and their number or error is the one asked for: ceil(n*beta/100) entries (percentage), all entries whose error reaches the given percentage of the largest, average or smallest error (thresholds), entries that carry at least beta percent of the total error (Doerfler), the percentage plus all entries that tie with the last marked one (symmetrized). The error of a basis function is the sum of the errors of the elements in its support, and of a global function of a multi-patch model the sum over all its local functions.", "quantifier": "all error vectors, percentages and criteria, all function supports and patch numberings", "why_tests_cant": "all error distributions, including ties", "anchors": ["src/SIM/AdaptiveSetup.C:AdaptiveSetup::calcRefinement", "src/SIM/AdaptiveSetup.C:AdaptiveSetup::errorLimits", "src/ASM/LR/ASMu2D.C:ASMu2D::remapErrors"]}
{"id": "C84", "title": "The adaptive loop ends by its stop criteria", "statement": "A mesh is refined only while the number of steps and degrees of freedom, the error tolerance and the condition number permit it, and each of these criteria stops it; the loop solves at most max(1,maxstep) meshes, every mesh after the first is a refinement of its predecessor, and the return value tells whether the loop ended because of a criterion, a failed solution or a failed output.", "quantifier": "all settings, all histories of errors, sizes, norms and failures", "why_tests_cant": "all histories of the loop", "anchors": ["src/SIM/AdaptiveSetup.C:AdaptiveSetup::calcRefinement", "src/SIM/AdaptiveSIM.C:AdaptiveSIM::adaptMesh", "Apps/Utils/SIMSolverAdap.h:SIMSolverAdap::solveProblem"]}
{"id": "C85", "title": "Connected functions of a multi-patch model share one global number", "statement": "calcGlobalNodes gives two functions of a multi-patch model of unstructured patches the same number if and only if they are connected by a chain of interfaces, and the numbers are exactly 0..N-1, where N is the size that the refinement uses for its error array.", "quantifier": "all numbers of patches and functions, all boundary function lists and interfaces", "why_tests_cant": "all topologies of patches", "anchors": ["src/ASM/LR/GlobalNodes.C:GlobalNodes::calcGlobalNodes", "src/Utility/Utilities.C:utl::renumber", "src/SIM/AdaptiveSetup.C:AdaptiveSetup::calcRefinement"]}
{"id": "C86", "title": "Gradients of basis functions satisfy the chain rule", "statement": "In an integration point where the parameter space and the physical space have the same dimension and the mapping is not singular, utl::Jacobian returns the determinant of dx/du, leaves its inverse in J and sets dNdX to the unique matrix with dN/du = dN/dx dx/du, so the coordinates have the identity as gradient. A point with |det| <= 1e-12, and no other, returns 0 and clears dNdX. For curves and surfaces in higher-dimensional space the returned value is the length of the tangent and the area of the parallelogram of the tangents.", "quantifier": "all numbers of nodes, all element coordinates and basis function derivatives, 1 to 3 dimensions", "why_tests_cant": "all geometries", "anchors": ["src/Utility/CoordinateMapping.C:utl::Jacobian", "src/LinAlg/matrix.h:matrix::det", "src/LinAlg/matrix.h:matrix::inverse"]}
{"id": "C87", "title": "Second and third derivatives of basis functions satisfy the chain rule", "statement": "The second derivatives computed in a regular point of a patch satisfy the second order chain rule (so they are uniquely determined, symmetric, and vanish for the coordinates), on structured and unstructured patches; the matrix form holds the pairs 11,22,33,12,13,23; the third derivatives satisfy the third order chain rule.", "quantifier": "all element coordinates and derivatives, all dimensions", "why_tests_cant": "all geometries", "anchors": ["src/Utility/CoordinateMapping.C:utl::Hessian", "src/Utility/CoordinateMapping.C:utl::Hessian2", "src/ASM/ASMs2D.C:ASMs2D::integrate", "src/ASM/LR/ASMu2D.C:ASMu2D::integrate", "src/ASM/LR/ASMu3D.C:ASMu3D::integrate"]}
{"id": "C88", "title": "Boundary normals are unit outward normals", "statement": "On the boundary of a plane, shell or volume patch the normal passed to the integrand is a unit vector, perpendicular to the boundary (and tangent to the shell), pointing out of the patch; the dilation is the length or area of the boundary tangents. On a curve the tangent is a unit vector along the curve. A singular point has dilation zero and no derivatives.", "quantifier": "all element coordinates and basis function derivatives, all edges and faces", "why_tests_cant": "all geometries", "anchors": ["src/Utility/CoordinateMapping.C:utl::Jacobian", "src/Utility/Vec3.h:Vec3::normalize", "src/ASM/ASMs2D.C:ASMs2D::integrate", "src/ASM/ASMs3D.C:ASMs3D::integrate"]}
{"id": "C89", "title": "The Piola mapping is differentiated exactly and preserves the divergence", "statement": "JacobianGradient and detJacGradient give the derivatives of the Jacobian and of its determinant with respect to the coordinates; piolaBasis maps function N of basis b to J e_b N/det J, piolaGradient gives the gradient of its components, and the divergence is the parametric one over det J. The stabilization matrix G is symmetric, positive semi-definite and independent of the parametrization.", "quantifier": "all Jacobians, second derivatives of the geometry and basis functions, 2 and 3 dimensions", "why_tests_cant": "all geometries", "anchors": ["src/Utility/CoordinateMapping.C:utl::JacobianGradient", "src/Utility/CoordinateMapping.C:utl::detJacGradient", "src/Utility/CoordinateMapping.C:utl::getGmat", "src/ASM/FiniteElement.C:MxFiniteElement::piolaGradient", "src/ASM/FiniteElement.C:MxFiniteElement::piolaBasis"]}
{"id": "C90", "title": "Subdomains of a structured patch cover it with the requested overlap", "statement": "DomainDecomposition::calcSubdomains splits a structured patch with nel1 x nel2 x nel3 elements in g1 x g2 x g3 blocks of elements, the block in the k-th position of a direction starting at k times (size - overlap) with size nel/g+1; every element number occurs once at most per subdomain in increasing order; every element of the patch is in some subdomain; neighbouring subdomains share exactly the requested number of element layers, and subdomains further apart share none if the overlap is at most half of the size.", "quantifier": "all numbers of elements and subdomains below 2^20, all overlaps, 1 to 3 directions", "why_tests_cant": "all meshes and partitions", "anchors": ["src/ASM/DomainDecomposition.C:DomainDecomposition::calcSubdomains", "src/ASM/DomainDecomposition.C:calcSubdomains1D", "src/ASM/DomainDecomposition.C:calcSubdomains2D", "src/ASM/DomainDecomposition.C:calcSubdomains3D"]}
{"id": "C91", "title": "The orientation of an interface between processes matches the serial connection", "statement": "When a slave patch on another process receives the numbers of the nodes of an interface, node (k,l) of its face or node k of its edge gets the number of the node of the master that the serial connection of the patches identifies with it, for each of the eight orientations; every master node is used exactly once. The element pairs of an interface used for graph partitioning are the pairs of elements that touch each other.", "quantifier": "all sizes of faces and edges, all orientations", "why_tests_cant": "all meshes", "anchors": ["src/ASM/DomainDecomposition.C:DomainDecomposition::OrientIterator", "src/SIM/SIMinput.C:SIMinput::getElmConnectivities", "src/ASM/ASMs3D.C:ASMs3D::connectBasis"]}
{"id": "C92", "title": "Equation numbers of a partitioned model are a consistent distribution", "statement": "After calcGlobalEqNumbersPart every equation that some element has gets a number from 1 to N, in each block, all different and the same on all processes; the numbers between minEq and maxEq of a process are those of the equations that it is the first to have; the ranges of the processes follow each other without gaps; getGlobalEq returns these numbers and zero outside the range; G2LEQ is the inverse.", "quantifier": "all numbers of processes, equations, blocks, all element connectivities", "why_tests_cant": "all partitions and models", "anchors": ["src/ASM/DomainDecomposition.C:DomainDecomposition::calcGlobalEqNumbersPart", "src/ASM/DomainDecomposition.C:DomainDecomposition::getGlobalEq"]}
{"id": "C93", "title": "Numbers of nodes and equations agree across process interfaces", "statement": "calcGlobalNodeNumbers and calcGlobalEqNumbers number the unknowns of the distributed patches so that the ranges minEq..maxEq of the processes are consecutive from 1, the numbers in the range of a process are those of the unknowns it is not slave of, each once, a slave unknown has the number of a master, and two unknowns have the same number exactly if the interfaces join them. Interfaces that do not match in size or constraints are an error.", "quantifier": "all numbers of processes, sizes and interfaces (several interfaces, chains and shared corners)", "why_tests_cant": "all models and distributions", "anchors": ["src/ASM/DomainDecomposition.C:DomainDecomposition::calcGlobalNodeNumbers", "src/ASM/DomainDecomposition.C:DomainDecomposition::calcGlobalEqNumbers", "src/ASM/DomainDecomposition.h:DomainDecomposition::SlaveOrder"]}
{"id": "C94", "title": "The exchange of numbers between processes ends, with the same result for every schedule", "statement": "While calcGlobalNodeNumbers, calcGlobalEqNumbers and calcGlobalEqNumbersPart run on n processes, no schedule and no choice of the MPI library to copy a message or to wait for its receiver makes the processes wait for each other forever: until all are done some call can complete; the number of calls bounds every execution; every receive gets the message meant for it, and at the end each process has received what it gets when the ranks run one after the other. A process that fails makes setup fail on all processes.", "quantifier": "all numbers of processes, interfaces, message contents, all interleavings and all buffering decisions", "why_tests_cant": "schedules and buffering of an MPI library", "anchors": ["src/ASM/DomainDecomposition.C:DomainDecomposition::calcGlobalNodeNumbers", "src/ASM/DomainDecomposition.C:DomainDecomposition::calcGlobalEqNumbers", "src/ASM/DomainDecomposition.C:DomainDecomposition::calcGlobalEqNumbersPart", "src/ASM/DomainDecomposition.C:DomainDecomposition::setup", "src/LinAlg/ProcessAdm.C:ProcessAdm::send", "src/LinAlg/ProcessAdm.C:ProcessAdm::receive"]}
{"id": "C95", "title": "An explicit Runge-Kutta step solves the equations of its method, which has the announced order", "statement": "One step of SIMExplicitRK (Euler, Heun, RK3, RK4), and every step inside SIMExplicitRKE, from time t-dt to t gives exactly the solution defined by the Butcher tableau (stage times, stage states, weights, boundary values), for every right-hand side; the tableau satisfies all order conditions of TimeIntegration::Order(method), and of no higher order; a failing stage is reported.", "quantifier": "all right-hand sides, boundary conditions, states, times, step sizes, all rooted trees", "why_tests_cant": "all right-hand sides; order is a statement about all trees", "anchors": ["Apps/Utils/SIMExplicitRK.h:SIMExplicitRK::solveRK", "Apps/Utils/SIMExplicitRKE.h:SIMExplicitRKE", "Apps/Utils/TimeIntUtils.C:Order"]}
{"id": "C96", "title": "The embedded Runge-Kutta step ends, and an accepted step meets the tolerance", "statement": "SIMExplicitRKE::solveStep always ends when the smallest step size is positive. An accepted step starts at the time of the given step, is at most as long, at least the smallest step size if it was cut, its solution is the step of the lower-order method and the norm of its difference to the higher-order one with the same stages is at most the tolerance; the next step size is not smaller. If the tolerance is not met at the smallest step size the step fails.", "quantifier": "all simulators, norms, tolerances, start states, step sizes", "why_tests_cant": "adaptive loop with unbounded number of cut-backs", "anchors": ["Apps/Utils/SIMExplicitRKE.h:SIMExplicitRKE::solveStep", "src/SIM/TimeStep.C:TimeStep::cutback"]}
{"id": "C97", "title": "Adams-Bashforth runs follow the multistep formula", "statement": "All steps of SIMExplicitLMM give the solution of the Adams-Bashforth formula with as many levels as the history has (the start-up steps have lower order; with initial conditions for all levels the full order at once); the weights are exact for all polynomials up to the order, for every time and step size; the run works after a restart and with varying step sizes.", "quantifier": "all right-hand sides, numbers of steps, step sizes, histories", "why_tests_cant": "all histories and numbers of steps", "anchors": ["Apps/Utils/SIMExplicitLMM.h:SIMExplicitLMM::solveStep", "Apps/Utils/SIMExplicitLMM.h:SIMExplicitLMM::advanceStep"]}
{"id": "C98", "title": "Adams-Moulton runs follow the multistep formula and free their load vectors once", "statement": "All steps of SIMImplicitLMM give the nonlinear solver the equations of the Adams-Moulton formula; the weights are exact for all polynomials up to the order; every load vector is deleted exactly once, whenever the run ends.", "quantifier": "all right-hand sides, nonlinear solvers, numbers of steps, histories", "why_tests_cant": "all histories, failing steps", "anchors": ["Apps/Utils/SIMImplicitLMM.h:SIMImplicitLMM::solveStep", "Apps/Utils/SIMImplicitLMM.h:SIMImplicitLMM::advanceStep", "Apps/Utils/SIMImplicitLMM.h:~SIMImplicitLMM"]}
{"id": "C99", "title": "The Gauss rules integrate every polynomial of degree below 2n to double precision", "statement": "For every available number n of points, the sum over the points and weights of GaussQuadrature differs from the integral over [-1,1] of any polynomial of degree at most 2n-1 by no more than rounding of double precision (2e-16 times the sum of the sizes of the coefficients); the same for the tensor product rule on the square. The points are increasing, symmetric and inside the domain, the weights positive; other n give no rule.", "quantifier": "all polynomials of degree below 2n (in each variable), all n", "why_tests_cant": "infinitely many polynomials", "anchors": ["src/Utility/GaussQuadrature.C:GaussQuadrature::getGauss", "src/ASM/ASMs2D.C:ASMs2D::integrate"]}
{"id": "C100", "title": "The triangle rules integrate linear and cubic functions over every triangle", "statement": "TriangleQuadrature with 1, 3 and 4 points, as used in the element loop of triangle patches, integrates all linear, quadratic and cubic functions of the area coordinates over every triangle up to rounding; in particular a uniform load gives each node a third.", "quantifier": "all polynomials of the degree, all triangles", "why_tests_cant": "infinitely many polynomials and triangles", "anchors": ["src/Utility/TriangleQuadrature.C:TriangleQuadrature::getCoord", "src/Utility/TriangleQuadrature.C:TriangleQuadrature::getWeight", "src/ASM/ASMs2DTri.C:ASMs2DTri::integrate"]}
{"id": "C101", "title": "Full tensors obey matrix algebra in every dimension", "statement": "For all tensors of dimension 1, 2 and 3 the products (also in place, before and behind, and with a factor of another dimension), the products with points, transpose, symmetrize, trace, det, inverse and shift are those of the matrices; the determinant is multiplicative; a tensor whose determinant is within the tolerance is left alone and zero is returned.", "quantifier": "all component values, dimensions, tolerances and shifts", "why_tests_cant": "infinitely many tensors", "anchors": ["src/Utility/Tensor.C:Tensor::postMult", "src/Utility/Tensor.C:Tensor::preMult", "src/Utility/Tensor.C:Tensor::inverse", "src/Utility/Tensor.C:Tensor::det", "src/Utility/Tensor.C:Tensor::shift", "src/Utility/Tensor.C:operator*"]}
{"id": "C102", "title": "Symmetric tensors: storage, invariants, inverse and congruence transformation", "statement": "For every symmetric tensor, also 2D with the 33 component, (i,j) and (j,i) address the documented storage; trace, L2-norm, von Mises value, determinant and inverse are those of the matrix; transform gives T A T^T and for orthogonal T leaves trace, norm, von Mises value and determinant unchanged.", "quantifier": "all component values and transformations", "why_tests_cant": "infinitely many tensors and transformations", "anchors": ["src/Utility/Tensor.h:SymmTensor::index", "src/Utility/Tensor.C:SymmTensor::transform", "src/Utility/Tensor.C:SymmTensor::inverse", "src/Utility/Tensor.C:SymmTensor::vonMises", "src/Utility/Tensor.C:SymmTensor::L2norm"]}
{"id": "C103", "title": "Deformation measures, products and assignment agree between the storage kinds", "statement": "The Cauchy-Green tensors are F^T F and F F^T whatever the receiving object held, the dyadic product is u u^T, the product of symmetric tensors is the upper triangle of the matrix product, and assignment between full and symmetric tensors of any dimensions copies the components both have and sets the others to zero.", "quantifier": "all tensors, dimensions and kinds of storage", "why_tests_cant": "infinitely many tensors", "anchors": ["src/Utility/Tensor.C:SymmTensor::rightCauchyGreen", "src/Utility/Tensor.C:SymmTensor::leftCauchyGreen", "src/Utility/Tensor.C:SymmTensor::outerProd", "src/Utility/Tensor.C:Tensor::operator=", "src/Utility/Tensor.C:SymmTensor::redim"]}
{"id": "C104", "title": "Local axes are orthonormal, right-handed and aligned", "statement": "The axes made from a normal vector or from two independent tangents form a rotation matrix; the normal (first tangent) is the Z-axis (X-axis) or X-axis (Z-axis) as asked for, and the cross product of the tangents is another axis.", "quantifier": "all vectors longer than the tolerance", "why_tests_cant": "infinitely many vectors", "anchors": ["src/Utility/Tensor.C:Tensor::Tensor(const Vec3&,bool)", "src/Utility/Tensor.C:Tensor::Tensor(const Vec3&,const Vec3&,bool,bool)", "src/Utility/Vec3.h:Vec3::normalize"]}
{"id": "C105", "title": "Principal values are the eigenvalues", "statement": "The principal values of a symmetric tensor are the roots of its characteristic polynomial, largest first.", "quantifier": "all symmetric tensors", "why_tests_cant": "infinitely many tensors", "anchors": ["src/Utility/Tensor.C:SymmTensor::principal"]}
{"id": "C106", "title": "Rotations of tensors are proper rotations with one sense", "statement": "The tensor made from a rotation vector is a proper rotation that keeps the vector; rotating a tensor about a coordinate axis multiplies it by the right-handed rotation about that axis.", "quantifier": "all rotation vectors, tensors, angles and axes", "why_tests_cant": "infinitely many vectors and angles", "anchors": ["src/Utility/Tensor.C:Tensor::Tensor(Real,Real,Real)", "src/Utility/Tensor.C:Tensor::rotate"]}
