{"id": "C01", "title": "Index packing is a bijection", "statement": "For every pair/triple of sizes, compress2Indices/compress3Indices map the in-range index tuples one-to-one onto 0..product-1, decompress2Indices/decompress3Indices are their inverses in both directions, and no intermediate int operation overflows as long as the product of the sizes fits in an int.", "quantifier": "all sizes and all in-range indices, all flat indices below the product", "why_tests_cant": "the domain is infinite (any sizes); a test samples a few shapes", "anchors": ["src/utilities.cpp:compress3Indices", "src/utilities.cpp:decompress3Indices", "src/utilities.cpp:compress2Indices", "src/utilities.cpp:decompress2Indices"]}
{"id": "C02", "title": "mod is the mathematical remainder", "statement": "For every integer a and every b>0, mod(a,b) lies in [0,b) and differs from a by a multiple of b; it is periodic in a with period b.", "quantifier": "all integers a, all positive b", "why_tests_cant": "unbounded integers including negatives and multiples of b", "anchors": ["src/utilities.cpp:mod"]}
{"id": "C03", "title": "Work division is a partition", "statement": "For every number of tasks and every number of MPI processes, the task ranges that divideWork/divideWorkIter give to ranks 0,1,2,... are contiguous and, joined in rank order, are exactly 0..n-1: every task runs on exactly one rank. The loads of two ranks never differ by more than one. workDivHelper (used to build MPI counts/displacements) describes the same division on every rank.", "quantifier": "all task counts, all communicator sizes, all ranks", "why_tests_cant": "must hold for every number of ranks; tests run on a handful of ranks", "anchors": ["src/mpi/mpiController.cpp:divideWork", "src/mpi/mpiController.cpp:divideWorkIter", "src/mpi/mpiController.cpp:workDivHelper"]}
{"id": "C04", "title": "Gathering divided work rebuilds the serial result", "statement": "If each rank computes f on its divideWork share and the shares are combined with gatherv/allGatherv, the head (resp. every rank) ends up with the list f(0),...,f(n-1) in serial order, for any number of ranks.", "quantifier": "all functions, task counts and communicator sizes", "why_tests_cant": "depends on agreement of count/displacement arithmetic for all sizes", "anchors": ["src/mpi/mpiController.h:gatherv", "src/mpi/mpiController.h:allGatherv", "src/mpi/mpiController.cpp:workDivHelper"]}
{"id": "C05", "title": "bigAllGatherV inside a pool sends the right amount of data", "statement": "In bigAllGatherV over any communicator each participating process contributes its own chunk and everyone receives the concatenation of the chunks in communicator rank order.", "quantifier": "all communicators, pool layouts and chunk sizes", "why_tests_cant": "only wrong for processes whose world rank differs from their rank in the pool; needs large pooled runs", "anchors": ["src/mpi/mpiController.h:bigAllGatherV"]}
{"id": "C06", "title": "Two-buffer allReduceSum returns the sum on every process count", "statement": "After allReduceSum(in,out), out holds the element-wise sum of all ranks' in, for every number of ranks including one.", "quantifier": "all numbers of ranks and all buffers", "why_tests_cant": "tests usually run on one configuration; the result must hold on all", "anchors": ["src/mpi/mpiController.h:allReduceSum", "src/algebra/PMatrix.h:dot"]}
{"id": "C07", "title": "MPI pools tile the processes", "statement": "If the requested pool size does not divide the number of processes (or is 0) the program stops; otherwise every process belongs to exactly one pool, all pools have the requested size, and (pool, rank in pool) identifies the process. The cross-pool communicators also partition the processes and meet every pool exactly once.", "quantifier": "all numbers of processes and pool sizes", "why_tests_cant": "all process counts", "anchors": ["src/mpi/mpiController.cpp:MPIcontroller"]}
{"id": "C08", "title": "Mesh points and indices are in bijection", "statement": "For every mesh with positive sizes and every offset, looking up the index of the coordinates of point i returns i; the coordinates of distinct indices are distinct modulo reciprocal lattice vectors; and every k point that differs from a mesh point by an integer vector gets the same index as that mesh point.", "quantifier": "all meshes, offsets, indices and reciprocal lattice vectors", "why_tests_cant": "infinitely many meshes/images", "anchors": ["src/points.cpp:getPointCoordinates", "src/points.cpp:isPointStored", "src/points.cpp:getIndex"]}
{"id": "C09", "title": "Off-mesh k points are rejected by lookup on a full mesh", "statement": "On a full mesh isPointStored returns -1 (and getIndex stops with an error) for every k point that is not within the tolerance of a mesh point.", "quantifier": "all k points not on the mesh", "why_tests_cant": "the accepted set is uncountable; a test tries a few points", "anchors": ["src/points.cpp:isPointStored", "src/points.cpp:getIndex"]}
{"id": "C10", "title": "Addition and subtraction of mesh points obey momentum conservation", "statement": "On a Gamma-centred full mesh, the sum/difference of two points is the mesh point congruent to the sum/difference of the coordinates modulo a reciprocal lattice vector; the reported umklapp vector is integer and equals the discrepancy; addition is commutative and associative and (a+b)-b=a.", "quantifier": "all meshes and all pairs/triples of points", "why_tests_cant": "all meshes", "anchors": ["src/points.cpp:Point::operator+", "src/points.cpp:Point::operator-", "src/points.cpp:hasUmklapp"]}
{"id": "C11", "title": "Lookup in a filtered (active) point list is exact", "statement": "For every mesh (at most 1000 points per direction) and every strictly increasing list of kept points, after setActiveLayer the lookup of the coordinates of the j-th kept point (or any of its periodic images) returns j, and the lookup of a mesh point that was not kept returns -1; duplicates are never reported.", "quantifier": "all meshes, filters and periodic images", "why_tests_cant": "binary search correctness over all lists", "anchors": ["src/points.cpp:setActiveLayer", "src/points.cpp:pointsBinarySearch", "src/points.cpp:internalPointsBinarySearch", "src/points.cpp:innermostPointsBinarySearch", "src/points.cpp:isPointStored"]}
{"id": "C12", "title": "Every stored path/filtered point can be looked up", "statement": "For every explicitly stored list of points (k path, or filtered mesh with an offset), isPointStored applied to the coordinates of a stored point finds it.", "quantifier": "all paths, filters and offsets", "why_tests_cant": "depends on the sortedness heuristics for all lists", "anchors": ["src/points.cpp:isPointStored", "src/points.cpp:Points(path)", "src/points.cpp:setActiveLayer"]}
{"id": "C13", "title": "An active layer with out-of-range indices is refused", "statement": "setActiveLayer stops with an error for any filter that contains a negative index or an index not smaller than the number of mesh points.", "quantifier": "all meshes and filters", "why_tests_cant": "all filters", "anchors": ["src/points.cpp:setActiveLayer"]}
{"id": "C14", "title": "Irreducible points are exactly the orbit representatives", "statement": "For every finite list of point permutations that contains the identity and is closed under composition and inverse (the crystal symmetries acting on the mesh), setIrreduciblePoints never stops with an error; two points have the same representative iff a symmetry maps one to the other; the representative is the smallest index of the orbit; the stars partition the points; star sizes add up to the number of points.", "quantifier": "all point sets, all symmetry groups", "why_tests_cant": "all groups and meshes; loop-carried state", "anchors": ["src/points.cpp:setIrreduciblePoints", "src/points.cpp:irrPointsIterator", "src/points.cpp:getReducibleStarFromIrreducible"]}
{"id": "C15", "title": "Reducible/irreducible index maps are mutually inverse", "statement": "After setIrreduciblePoints on any number of MPI ranks, asIrreducibleIndex(asReducibleIndex(i))=i for every irreducible index, asReducibleIndex(asIrreducibleIndex(k)) is the representative of k, and irrPointsIterator lists the representatives in increasing order, each once; the ranks' parallelIrrPointsIterator lists joined in rank order give the same list.", "quantifier": "all point sets, symmetry groups, MPI sizes", "why_tests_cant": "as above, plus all rank counts", "anchors": ["src/points.cpp:setIrreduciblePoints", "src/points.cpp:asIrreducibleIndex", "src/points.cpp:asReducibleIndex", "src/points.cpp:parallelIrrPointsIterator"]}
{"id": "C16", "title": "Rotations map representatives to star members", "statement": "After setIrreduciblePoints, the rotation returned for a point by getRotationToIrreducible maps the point to its representative, and the rotations returned by getRotationsStar map the representative onto each member of the star, one per member.", "quantifier": "all point sets and symmetry groups, with and without group velocities", "why_tests_cant": "all groups and meshes", "anchors": ["src/points.cpp:getRotationToIrreducible", "src/points.cpp:getRotationsStar", "src/points.cpp:setIrreduciblePoints"]}
{"id": "C17", "title": "Recomputing irreducible points refreshes the stars", "statement": "Calling setIrreduciblePoints again on the same points (e.g. with a different symmetry list) gives the same stars as calling it once on a fresh object.", "quantifier": "all histories of calls", "why_tests_cant": "history-dependent", "anchors": ["src/points.cpp:setIrreduciblePoints"]}
{"id": "C18", "title": "Active Bloch-state numbering is a bijection", "statement": "For every number of bands kept at each wavevector, the state index and the pair (wavevector, band) determine each other; the storage slots of velocities and eigenvectors of different (k, bands, component) never overlap and lie inside the allocated buffer.", "quantifier": "all lists of band counts", "why_tests_cant": "all shapes", "anchors": ["src/bands/active_bandstructure.cpp:buildIndices", "src/bands/active_bandstructure.cpp:bloch2Comb", "src/bands/active_bandstructure.cpp:comb2Bloch", "src/bands/active_bandstructure.cpp:velBloch2Comb", "src/bands/active_bandstructure.cpp:eigBloch2Comb"]}
{"id": "C19", "title": "BTE state numbering of irreducible states is a bijection", "statement": "stateToBte and bteToState are mutually inverse between the states at irreducible wavevectors and 0..numIrrStates-1.", "quantifier": "all band counts and irreducible sets", "why_tests_cant": "all shapes", "anchors": ["src/bands/active_bandstructure.cpp:buildSymmetries", "src/bands/active_bandstructure.cpp:stateToBte", "src/bands/active_bandstructure.cpp:bteToState"]}
{"id": "C20", "title": "Energy window keeps the tight contiguous hull of the relevant bands", "statement": "For an energy window, apply returns nothing iff no band lies strictly inside the window; otherwise it returns the first and last band strictly inside, every in-window band lies between them, and the returned energies are exactly those of the in-window bands.", "quantifier": "all energy lists and windows", "why_tests_cant": "all inputs", "anchors": ["src/bands/window.cpp:apply", "src/bands/window.cpp:internalEnWindow"]}
{"id": "C21", "title": "Population window keeps every state that is populated at some requested temperature and chemical potential", "statement": "With a population window, a band whose |dn/dT|-like window function exceeds the threshold at one of the requested temperatures and chemical potentials is kept.", "quantifier": "all temperatures, chemical potentials, energies", "why_tests_cant": "all inputs", "anchors": ["src/bands/window.cpp:apply", "src/bands/window.cpp:internalPopWindow"]}
{"id": "C22", "title": "Filtered band structure does not depend on the number of ranks or threads", "statement": "The list of kept wavevectors and kept band ranges assembled by the active band-structure builders equals the serial one for any number of MPI ranks and OpenMP threads.", "quantifier": "all windows, point counts, ranks, threads", "why_tests_cant": "all schedules", "anchors": ["src/bands/active_bandstructure.cpp:buildOnTheFly", "src/bands/active_bandstructure.cpp:buildAsPostprocessing"]}
{"id": "C23", "title": "Distributed matrix: each element lives on exactly one process", "statement": "For every matrix size, process grid and block size, each matrix element is local to exactly one process; local2Global and global2Local are mutually inverse there; the local states of all processes partition the index set; and the local storage size of a process equals the number of elements it owns.", "quantifier": "all matrix sizes, process grids and block sizes", "why_tests_cant": "all process grids", "anchors": ["src/algebra/PMatrix.h:ParallelMatrix", "src/algebra/PMatrix.h:local2Global", "src/algebra/PMatrix.h:global2Local", "src/algebra/PMatrix.h:indicesAreLocal", "src/algebra/PMatrix.h:getAllLocalStates"]}
{"id": "C24", "title": "getAllLocalRows/getAllLocalCols list the rows/columns owned by the process", "statement": "getAllLocalRows (getAllLocalCols) returns exactly the set of global rows (columns) for which the process owns elements.", "quantifier": "all matrix sizes, process grids and block sizes", "why_tests_cant": "only wrong for block-cyclic layouts with more than one block per process", "anchors": ["src/algebra/PMatrix.h:getAllLocalRows", "src/algebra/PMatrix.h:getAllLocalCols"]}
{"id": "C25", "title": "Serial matrix storage round-trips and checks bounds", "statement": "For the serial matrix, writing element (r,c) and reading (r',c') gives the new value iff (r,c)=(r',c') and the old one otherwise; out-of-range access stops with an error; local2Global/global2Local are inverse.", "quantifier": "all sizes, indices and histories of writes", "why_tests_cant": "all histories", "anchors": ["src/algebra/SMatrix.h:operator()", "src/algebra/SMatrix.h:local2Global", "src/algebra/SMatrix.h:global2Local"]}
{"id": "C26", "title": "eye() yields the identity from any previous content", "statement": "After eye() the serial matrix is the identity whatever it contained before.", "quantifier": "all previous contents", "why_tests_cant": "history-dependent", "anchors": ["src/algebra/SMatrix.h:eye"]}
{"id": "C27", "title": "symmetrize() yields a symmetric matrix and keeps symmetric ones", "statement": "symmetrize replaces A by (A+A^T)/2: the result is symmetric, symmetric matrices are unchanged, the diagonal and the quadratic form are unchanged.", "quantifier": "all square matrices", "why_tests_cant": "all matrices", "anchors": ["src/algebra/SMatrix.cpp:symmetrize"]}
{"id": "C28", "title": "Serial prod computes the matrix product for every transposition flag", "statement": "prod(B,transA,transB) returns op(A)op(B) with the shape of that product for all compatible shapes.", "quantifier": "all shapes and flags", "why_tests_cant": "only square cases exercised in tests", "anchors": ["src/algebra/SMatrix.cpp:prod"]}
{"id": "C29", "title": "VectorBTE indexing is a bijection and elementwise algebra is pointwise", "statement": "glob2Loc/loc2Glob are inverse; sums, differences, products, quotients of two vectors act element by element; a vector with dimensionality 1 is broadcast to every direction; reciprocal twice restores non-zero entries.", "quantifier": "all vectors, sizes", "why_tests_cant": "all sizes", "anchors": ["src/bte/vector_bte.cpp:baseOperator", "src/bte/vector_bte.cpp:glob2Loc", "src/bte/vector_bte.cpp:loc2Glob", "src/bte/vector_bte.cpp:reciprocal"]}
{"id": "C30", "title": "VectorBTE times distributed matrix equals the dense row-vector product", "statement": "The product of a vector with a distributed matrix is the ordinary vector-matrix product whatever the distribution of elements over ranks and threads.", "quantifier": "all matrices, vectors and distributions", "why_tests_cant": "all schedules", "anchors": ["src/bte/vector_bte.cpp:operator*(ParallelMatrix)"]}
{"id": "C31", "title": "Excluded acoustic modes do not enter the inner product", "statement": "In VectorBTE::dot the excluded (acoustic, zero frequency) modes contribute nothing and all others contribute with the weight of their star.", "quantifier": "all vectors, exclusions and symmetry reductions", "why_tests_cant": "differs only with symmetries and excluded states after index reordering", "anchors": ["src/bte/vector_bte.cpp:dot"]}
{"id": "C32", "title": "In-memory and on-the-fly collision operators agree", "statement": "For any list of scattering events, building the collision matrix in memory and multiplying it with a population gives the same vector as the matrix-free evaluation, without and with crystal symmetries.", "quantifier": "all scattering event lists, populations, symmetry rotations", "why_tests_cant": "two independent code paths over all inputs", "anchors": ["src/bte/ph_scattering.cpp:builder", "src/bte/el_scattering.cpp:builder", "src/bte/scattering.cpp:dot"]}
{"id": "C33", "title": "Collision operator does not depend on the distribution of work", "statement": "Linewidths and matrix elements summed over MPI ranks do not depend on how the pairs of wavevectors (or matrix blocks) are divided over ranks, pools, threads or batches.", "quantifier": "all distributions", "why_tests_cant": "all schedules", "anchors": ["src/bte/ph_scattering.cpp:builder", "src/bte/scattering.cpp:getIteratorWavevectorPairs"]}
{"id": "C34", "title": "Wavevector-pair iterators cover every pair once and keep pools in step", "statement": "The pair lists given to all ranks cover every (irreducible k1, k2) pair needed exactly once, and all ranks of a pool get lists of the same length so that collective calls match.", "quantifier": "all point counts, rank counts, pools", "why_tests_cant": "all schedules", "anchors": ["src/bte/scattering.cpp:getIteratorWavevectorPairs", "src/bte/phel_scattering.cpp:getIrrWavevectorPairs"]}
{"id": "C35", "title": "Diagonal plus off-diagonal action is the full collision operator", "statement": "offDiagonalDot(v) + diagonal*v = dot(v) for every population in every storage mode.", "quantifier": "all populations and modes", "why_tests_cant": "all inputs", "anchors": ["src/bte/scattering.cpp:offDiagonalDot", "src/bte/scattering.cpp:dot"]}
{"id": "C36", "title": "Averaging couplings over degenerate bands", "statement": "symmetrizeCoupling makes couplings equal within every triple of degenerate groups, preserves the sum of couplings within groups, and applying it twice changes nothing more.", "quantifier": "all coupling tensors and band energies", "why_tests_cant": "all inputs", "anchors": ["src/bte/scattering.cpp:symmetrizeCoupling"]}
{"id": "C37", "title": "Linewidths of degenerate bands are averaged for every calculation", "statement": "After degeneracyAveragingLinewidths degenerate bands have equal linewidths for each temperature/chemical potential and the sum over the degenerate group is unchanged.", "quantifier": "all energies and linewidths", "why_tests_cant": "only visible with several temperatures", "anchors": ["src/bte/scattering.cpp:degeneracyAveragingLinewidths"]}
{"id": "C38", "title": "Normal plus Umklapp rates give the total", "statement": "The Umklapp and Normal linewidths add up to the total intrinsic linewidth for every list of scattering events.", "quantifier": "all event lists", "why_tests_cant": "all inputs", "anchors": ["src/bte/ph_scattering.cpp:builder"]}
{"id": "C39", "title": "Rescaling to the symmetric (Omega) representation", "statement": "a2Omega multiplies element (i,j) by 1/sqrt(t_i t_j) exactly once: applying it twice changes nothing, linewidths read through getLinewidths are unchanged, with and without symmetries.", "quantifier": "all matrices, populations, histories", "why_tests_cant": "history-dependent", "anchors": ["src/bte/scattering.cpp:a2Omega", "src/bte/scattering.cpp:getLinewidths"]}
{"id": "C40", "title": "Linewidths round-trip through set/get", "statement": "getLinewidths after setLinewidths(L) returns L.", "quantifier": "all linewidth vectors and both representations", "why_tests_cant": "all inputs", "anchors": ["src/bte/scattering.cpp:setLinewidths", "src/bte/scattering.cpp:getLinewidths"]}
{"id": "C41", "title": "Equilibrium populations satisfy detailed balance", "statement": "The Bose and Fermi populations lie in their physical range, decrease with energy, satisfy n(n+1)=-T dn/dE (f(1-f) for fermions) as computed by getPopPopPm1, and satisfy n1 n2 (n3+1) = (n1+1)(n2+1) n3 when e1+e2=e3.", "quantifier": "all real energies, temperatures and chemical potentials in range", "why_tests_cant": "continuous domain", "anchors": ["src/particle.cpp:getPopulation", "src/particle.cpp:getDndt", "src/particle.cpp:getDnde", "src/particle.cpp:getPopPopPm1"]}
{"id": "C42", "title": "Gaussian smearing is an even function", "statement": "The Gaussian smearing weight of E and -E are equal and non-negative.", "quantifier": "all energies", "why_tests_cant": "continuous domain", "anchors": ["src/delta_function.cpp:GaussianDeltaFunction::getSmearing"]}
{"id": "C43", "title": "Tetrahedra tile the mesh cell and give normalised weights", "statement": "The six tetrahedra used per grid cell have equal volume and tile the cell; for any corner energies the tetrahedron weight is non-negative and the DOS of one band integrates to 1.", "quantifier": "all corner energies", "why_tests_cant": "continuous domain", "anchors": ["src/delta_function.cpp:TetrahedronDeltaFunction"]}
{"id": "C44", "title": "Input reading ignores comments, blank lines and the order of keys", "statement": "Adding comments or blank lines and permuting independent key=value lines does not change the resulting settings.", "quantifier": "all input files", "why_tests_cant": "all files", "anchors": ["src/context.cpp:setupFromInput"]}
{"id": "C45", "title": "Boolean, number and list values are read faithfully", "statement": "The textual forms documented for booleans, numbers with units and lists are parsed to the value they denote; anything else stops with an error.", "quantifier": "all strings", "why_tests_cant": "all strings", "anchors": ["src/context.cpp:parseBool", "src/context.cpp:parseDoubleWithUnits", "src/context.cpp:parseDoubleList"]}
{"id": "C46", "title": "Each (temperature, chemical potential/doping) request is calculated once", "statement": "The sweep has exactly one calculation per pair of requested temperature and chemical potential (or doping); its parameters are retrieved from the calculation index.", "quantifier": "all lists of temperatures and dopings", "why_tests_cant": "all inputs", "anchors": ["src/statistics_sweep.cpp:StatisticsSweep", "src/statistics_sweep.cpp:getCalcStatistics"]}
{"id": "C47", "title": "Chemical potential search converges to the requested doping", "statement": "For any monotone carrier count that brackets the target the bisection keeps the root bracketed, halves the interval each step and stops with the electron count matched to tolerance or an error, never silently.", "quantifier": "all monotone functions and targets", "why_tests_cant": "loop over all inputs", "anchors": ["src/statistics_sweep.cpp:findChemicalPotentialFromDoping"]}
{"id": "C48", "title": "Sweep min/max/delta expands to the expected list", "statement": "A sweep from min to max with step delta>0 lists min, min+delta, ... up to max, and always terminates.", "quantifier": "all min, max, delta", "why_tests_cant": "delta<=0 never terminates", "anchors": ["src/statistics_sweep.cpp:StatisticsSweep"]}
{"id": "C49", "title": "Wigner-Seitz vectors: weights add up to the supercell size", "statement": "For every supercell and every interatomic shift, each supercell lattice translation is represented, the weights 1/degeneracy of the images of one translation add up to 1, and the total weight equals the number of cells.", "quantifier": "all supercells and shifts", "why_tests_cant": "all inputs", "anchors": ["src/crystal.cpp:buildWignerSeitzVectors", "src/crystal.cpp:buildWignerSeitzVectorsWithShift"]}
{"id": "C50", "title": "Convergence check uses the largest relative change", "statement": "findMaxRelativeDifference returns the maximum over all components of |x-xRef|/|xRef|.", "quantifier": "all tensors", "why_tests_cant": "all inputs", "anchors": ["src/utilities.cpp:findMaxRelativeDifference"]}
{"id": "C51", "title": "splitVector and batching lose nothing", "statement": "splitVector with chunk size >= 1 returns chunks of at most that size whose concatenation is the input; the batch ranges of the builders (numbers of wavevectors and of batches whose product fits in an int) and of the band structure cover every wavevector once, in order.", "quantifier": "all vectors, chunk sizes >= 1, numbers of batches", "why_tests_cant": "all sizes", "anchors": ["src/utilities.h:splitVector", "src/bte/ph_scattering.cpp:builder", "src/bte/el_scattering.cpp:builder"]}
{"id": "C52", "title": "Tokenizer drops separators only", "statement": "tokenize returns the maximal runs of characters that are not separators, in order; no token is empty; joining with any separators and tokenizing again gives the same tokens.", "quantifier": "all strings", "why_tests_cant": "all strings", "anchors": ["src/utilities.cpp:tokenize"]}
{"id": "C53", "title": "Third-state helper covers all momentum-conserving points", "statement": "The points prepared by Helper3rdState contain q1+q2 and q1-q2 for every pair, sorted and without repetitions, for any number of ranks and threads; cached quantities are returned for the wavevector they were computed for.", "quantifier": "all meshes, windows, ranks, batches", "why_tests_cant": "all schedules", "anchors": ["src/bte/helper_3rd_state.cpp:Helper3rdState", "src/bte/helper_3rd_state.cpp:get", "src/bte/helper_3rd_state.cpp:prepare"]}
{"id": "C54", "title": "Folding to the Brillouin zone and to the Wigner-Seitz cell", "statement": "foldToBz returns an equivalent point with coordinates in [0,1) up to tolerance and is idempotent; bzToWs returns an equivalent point of minimal norm.", "quantifier": "all points and cells", "why_tests_cant": "continuous domain", "anchors": ["src/points.cpp:foldToBz", "src/points.cpp:bzToWs", "src/points.cpp:setupGVectors"]}
{"id": "C55", "title": "Full band-structure storage round-trips", "statement": "Energies, velocities and eigenvectors stored for a point are returned unchanged for that point and leave all other points untouched; (k,b) and state index determine each other; on every rank the iterators visit only states that the rank owns.", "quantifier": "all sizes, distributions, histories of writes", "why_tests_cant": "histories and distributions", "anchors": ["src/bands/bandstructure.cpp:FullBandStructure"]}
{"id": "C56", "title": "Large messages are split without loss", "statement": "datatypeHelper decomposes any message length into whole int-sized blocks plus remainder whose total equals the length.", "quantifier": "all 64-bit lengths", "why_tests_cant": "only visible above 2^31 elements", "anchors": ["src/mpi/mpiController.h:datatypeHelper"]}
{"id": "C57", "title": "Stars contain only symmetry-equivalent points", "statement": "Every point put in the star of an irreducible point is, up to a reciprocal lattice vector, the image of that point under one of the crystal symmetries, for every mesh (also one that does not have the symmetry of the crystal).", "quantifier": "all meshes and symmetry lists", "why_tests_cant": "depends on the mesh/symmetry combination", "anchors": ["src/points.cpp:setIrreduciblePoints", "src/points.cpp:isPointStored"]}
{"id": "C58", "title": "Invalid mesh parameters are refused", "statement": "Building a mesh of points with a non-positive size or an offset outside [0,1) stops with an error; any other request is accepted unchanged.", "quantifier": "all sizes and offsets", "why_tests_cant": "continuous domain", "anchors": ["src/points.cpp:setMesh"]}
{"id": "C59", "title": "findMesh recovers the mesh from a list of points", "statement": "Given the points of a regular mesh in any order and in any periodic image, findMesh returns the mesh sizes and the offset.", "quantifier": "all meshes, orders and images", "why_tests_cant": "unbounded number of orders and images", "anchors": ["src/points.cpp:findMesh"]}
{"id": "C60", "title": "A k path contains the end points of all its segments", "statement": "The list of points built from a list of segments contains (to 1e-8) both end points of every segment, whatever the spacing.", "quantifier": "all segment lists and spacings", "why_tests_cant": "continuous domain", "anchors": ["src/points.cpp:Points"]}
{"id": "C61", "title": "Without a window nothing is filtered", "statement": "With window type 'nothing', apply keeps every band, reports the first and last band of the input and returns the input energies.", "quantifier": "all band counts and energies", "why_tests_cant": "any number of bands", "anchors": ["src/bands/window.cpp:apply"]}
{"id": "C62", "title": "Dot product and norm of a distributed matrix", "statement": "dot(that) and norm() of a distributed matrix equal the sum over all matrix elements (its square root), on every process and for every number of processes, including one.", "quantifier": "every matrix shape, process grid, block size, matrix content and number of processes", "why_tests_cant": "the tests are run on fixed process counts with a couple of matrices; the reduction must be right for every distribution", "anchors": ["src/algebra/PMatrix.h: ParallelMatrix::dot", "src/algebra/PMatrix.h: ParallelMatrix::norm", "src/algebra/PMatrix.h: ParallelMatrix::squaredNorm"]}
{"id": "C63", "title": "Batches sent to a device lose nothing", "statement": "The wavevectors of a process are sent to the device in batches that are a partition of its list, in order, none empty nor larger than requested, also for a process that owns no wavevectors.", "quantifier": "all lists of wavevectors and batch sizes", "why_tests_cant": "all sizes and numbers of processes", "anchors": ["src/common_kokkos.cpp:splitToBatches", "src/harmonic/phonon_h0_kokkos.cpp:kokkosBatchedDiagonalizeFromCoordinates", "src/harmonic/electron_h0_wannier.cpp:estimateBatchSize"]}
{"id": "C64", "title": "Batches fit in the memory of the device", "statement": "The number of batches (or of points per batch) chosen from the free memory and from the memory needed per wavevector is such that no batch needs more than the free memory; an error is raised when one point does not fit.", "quantifier": "all numbers of wavevectors, sizes and free memories", "why_tests_cant": "all sizes", "anchors": ["src/interaction/interaction_3ph.cpp:estimateNumBatches", "src/interaction/interaction_elph.cpp:estimateNumBatches", "src/harmonic/phonon_h0_kokkos.cpp:estimateBatchSize"]}
{"id": "C65", "title": "Fixed points of the iterative BTE solver are the solutions of the BTE", "statement": "A population is left unchanged by one iteration of the Omini-Sparavigna solver (phonons or electrons) if and only if it solves the linearised BTE; otherwise each state moves by its residual divided by the diagonal. Excluded states stay at zero; the starting point solves the BTE without off-diagonal elements.", "quantifier": "all collision matrices, drifts, populations, excluded states, calculations and directions", "why_tests_cant": "any matrix of any size", "anchors": ["src/apps/phonon_transport_app.cpp:run", "src/apps/electron_wannier_transport_app.cpp:runIterativeMethod"]}
{"id": "C66", "title": "The iterative BTE solver converges to the solution", "statement": "The populations of the Omini-Sparavigna iteration get arbitrarily close to the solution of the BTE.", "quantifier": "all symmetric positive definite collision matrices and drifts", "why_tests_cant": "convergence is a statement about all iterations and all matrices", "anchors": ["src/apps/phonon_transport_app.cpp:run", "src/apps/electron_wannier_transport_app.cpp:runIterativeMethod"]}
{"id": "C67", "title": "The variational BTE solver reaches the solution", "statement": "For a symmetric positive definite collision matrix the conjugate gradient iterations reach the solution of the BTE in at most as many steps as there are states, whatever the starting point, keep it, and increase the variational functional at every step before; at every step the vector used as residual is the residual of the current population.", "quantifier": "all symmetric positive definite matrices of any size, drifts, starting points, calculations and directions", "why_tests_cant": "any matrix of any size, any number of steps", "anchors": ["src/apps/phonon_transport_app.cpp:run", "src/apps/electron_wannier_transport_app.cpp:runVariationalMethod"]}
{"id": "C68", "title": "Conductivities shown by the variational solver are lower bounds", "statement": "The diagonal of the conductivity shown at each step of the variational solver grows and never exceeds the one of the solution; at the solution it coincides with the heat carried by the population, and the tensor is symmetric with non-negative diagonal.", "quantifier": "all symmetric positive definite matrices, drifts, starting points and steps", "why_tests_cant": "any matrix, any step", "anchors": ["src/observable/phonon_thermal_cond.cpp:calcVariational", "src/apps/phonon_transport_app.cpp:run", "src/apps/electron_wannier_transport_app.cpp:runVariationalMethod"]}
{"id": "C69", "title": "BTE solvers stop when every transport coefficient has converged", "statement": "A result is returned only if, at the last iteration, no transport coefficient of any calculation changed by more than the threshold; the run is aborted if this does not happen within the allowed iterations.", "quantifier": "all sequences of computed tensors, thresholds and iteration limits", "why_tests_cant": "all histories of iterations", "anchors": ["src/apps/phonon_transport_app.cpp:run", "src/apps/electron_wannier_transport_app.cpp:runIterativeMethod", "src/utilities.cpp:findMaxRelativeDifference"]}
{"id": "C70", "title": "No current flows when the Seebeck force opposes a temperature gradient", "statement": "Applying the force given by the Seebeck tensor printed by the code against a temperature gradient stops the electric current in every direction, and the heat that then flows is minus the printed thermal conductivity times the gradient; mobility times carrier density is the conductivity.", "quantifier": "all electron populations, symmetries, temperatures, gradients", "why_tests_cant": "a relation between the outputs that must hold for every crystal and set of populations", "anchors": ["src/observable/onsager.cpp:calcTransportCoefficients", "src/observable/onsager.cpp:calcFromPopulation"]}
{"id": "C71", "title": "Transport coefficients obey reciprocity and the second law", "statement": "In the relaxation time approximation the conductivity, Seebeck-related and thermal conductivity tensors are symmetric, cross coefficients are reciprocal, electrical and thermal conductivities (electrons and phonons) are positive semidefinite, and carriers of a single energy conduct no heat at zero current.", "quantifier": "all band structures, lifetimes, symmetries, temperatures, dimensionalities and directions", "why_tests_cant": "an inequality over all inputs and directions", "anchors": ["src/observable/onsager.cpp:calcFromPopulation", "src/observable/onsager.cpp:calcTransportCoefficients", "src/observable/phonon_thermal_cond.cpp:calcFromPopulation"]}
{"id": "C72", "title": "Transport coefficients do not depend on how states are shared between processes and threads", "statement": "The coefficients are sums over all states of the full zone (every irreducible state with every rotation of its star), whichever way irreducible states are distributed over processes and threads.", "quantifier": "all sets of states, distributions and thread schedules", "why_tests_cant": "all schedules and numbers of processes", "anchors": ["src/observable/onsager.cpp:calcFromPopulation", "src/observable/phonon_thermal_cond.cpp:calcFromPopulation"]}
{"id": "C73", "title": "EPA transport coefficients describe zero-current heat conduction", "statement": "Coefficients from the electron-phonon averaged approximation are sums over energy bins, reciprocal, and give no heat conduction at zero current when all carriers have the same energy.", "quantifier": "all velocity tensors, rates, energies and temperatures", "why_tests_cant": "a relation over all inputs", "anchors": ["src/observable/onsager.cpp:calcFromEPA"]}
{"id": "C74", "title": "Entry n of every list of the transport output belongs to calculation n", "statement": "In the JSON output, the lists of temperatures, dopings and of each transport coefficient have one entry per calculation, in the same order.", "quantifier": "all sets of calculations", "why_tests_cant": "all combinations of dopings and temperatures", "anchors": ["src/observable/onsager.cpp:outputToJSON"]}
{"id": "C75", "title": "The relaxon populations solve the BTE", "statement": "Populations built from all eigenvectors and (positive) eigenvalues of the collision matrix solve the linearised BTE, for any distribution of the matrix of eigenvectors.", "quantifier": "all symmetric matrices, eigenvectors, drifts and distributions", "why_tests_cant": "any matrix of any size", "anchors": ["src/observable/onsager.cpp:calcFromRelaxons"]}
{"id": "C76", "title": "The specific heat is a non-negative sum over the full zone", "statement": "The specific heat is the sum over all states of |dn/dT| |E - mu| with each irreducible state weighted by its star, without the phonon states below the cutoff, independently of thread schedule, and is never negative.", "quantifier": "all states, stars, schedules", "why_tests_cant": "all schedules", "anchors": ["src/observable/specific_heat.cpp:calc"]}
{"id": "C77", "title": "Electron transport in one and two dimensions", "statement": "Onsager coefficients of systems with one or two dimensions are accumulated inside their buffers.", "quantifier": "all dimensionalities and numbers of calculations", "why_tests_cant": "out of bounds accesses are not seen by tests that compare values", "anchors": ["src/observable/onsager.cpp:calcFromPopulation"]}
{"id": "C78", "title": "Relaxons with only some eigenvalues", "statement": "If only some of the eigenvalues of the collision matrix were computed, the missing relaxons are skipped.", "quantifier": "all numbers of computed eigenvalues", "why_tests_cant": "out of bounds accesses are not seen by tests that compare values", "anchors": ["src/observable/onsager.cpp:calcFromRelaxons"]}
{"id": "C79", "title": "The simple acoustic sum rule removes the forces of a rigid translation", "statement": "After the simple rule, the force constants summed over all cells and atoms vanish for every atom and pair of directions, only on-site elements change, and force constants that obey the rule are left alone; after the simple and the crystal rules Born charges add up to zero. Names of rules are compared ignoring case, unknown ones are refused.", "quantifier": "all force constants, charges, supercells and numbers of atoms", "why_tests_cant": "an identity over all force constants and sizes", "anchors": ["src/harmonic/phonon_h0_sum_rule.cpp:setAcousticSumRule", "src/harmonic/phonon_h0_sum_rule.cpp:sp_zeu"]}
{"id": "C80", "title": "The crystal acoustic sum rule removes the forces of a rigid translation", "statement": "After the crystal rule, the force constants summed over all cells and atoms vanish for every atom and pair of directions, force constants are symmetric under exchange of the atoms, and force constants that already obey both conditions are left alone.", "quantifier": "all force constants, supercells and numbers of atoms", "why_tests_cant": "an identity over all force constants and sizes; high-symmetry test crystals hide it", "anchors": ["src/harmonic/phonon_h0_sum_rule.cpp:setAcousticSumRule"]}
{"id": "C81", "title": "The interpolated electronic Hamiltonian is Hermitian, periodic and time reversal symmetric", "statement": "For tight binding data with H(-R)=H(R)^+ the Hamiltonian interpolated at any wavevector is Hermitian, it does not change when a reciprocal lattice vector is added, with real hoppings H(-k) is the conjugate of H(k), and the same holds with shifted (minimal image) vectors; null shifts change nothing.", "quantifier": "all tight binding data, wavevectors, reciprocal vectors, shifts", "why_tests_cant": "real wavevectors and hoppings are infinitely many", "anchors": ["src/harmonic/electron_h0_wannier.cpp:ElectronH0Wannier::batchedBuildHamiltonians", "src/harmonic/electron_h0_wannier.cpp:ElectronH0Wannier::addShiftedVectors"]}
{"id": "C82", "title": "Bands on an accelerator are those of the processor", "statement": "The Hamiltonian built on the device is the one built on the host, with and without shifted vectors, and no element outside the stored data is read.", "quantifier": "all tight binding data, shifts and wavevectors", "why_tests_cant": "needs all sizes; out of bounds reads are silent on a device", "anchors": ["src/harmonic/electron_h0_wannier.cpp:ElectronH0Wannier::kokkosBatchedBuildBlochHamiltonian"]}
{"id": "C83", "title": "The Berry connection is the Fourier sum of the position matrix", "statement": "The Berry connection at a wavevector is U^+ (sum over R of exp(ikR) r(R)/deg(R)) U plus the derivative of U, reading only elements of the position matrix.", "quantifier": "all tight binding data and wavevectors", "why_tests_cant": "out of bounds reads are silent", "anchors": ["src/harmonic/electron_h0_wannier.cpp:ElectronH0Wannier::getBerryConnection"]}
{"id": "C84", "title": "The velocity operator is a Hermitian, gauge covariant derivative of the Hamiltonian", "statement": "The velocity operator is Hermitian, the finite difference uses the Hamiltonians at k plus and minus delta along each direction and is within delta^2/6 sum |R|^3 |H(R)|/deg of the derivative of the Hamiltonian, band velocities and squared elements do not depend on the phases of the eigenvectors, and host and device give the same.", "quantifier": "all tight binding data, wavevectors, eigenvectors, phases", "why_tests_cant": "real wavevectors and phases are infinitely many", "anchors": ["src/harmonic/electron_h0_wannier.cpp:ElectronH0Wannier::batchedDiagonalizeWithVelocities", "src/harmonic/electron_h0_wannier.cpp:ElectronH0Wannier::kokkosBatchedDiagonalizeWithVelocities"]}
{"id": "C85", "title": "Degenerate bands get well defined velocities", "statement": "Bands are cut into groups of bands within the threshold of the first; inside each group the velocity operator becomes diagonal, keeps its trace and stays Hermitian, everything else is unchanged, and the device, for any thread order and number of points, gives the same result as the host.", "quantifier": "all energies, thresholds, numbers of points and bands, thread orders, velocity operators", "why_tests_cant": "all degeneracy patterns and thread orders", "anchors": ["src/harmonic/harmonic.cpp:HarmonicHamiltonian::kokkosBatchedTreatDegenerateVelocities", "src/harmonic/electron_h0_wannier.cpp:ElectronH0Wannier::batchedDiagonalizeWithVelocities"]}
{"id": "C86", "title": "Batches on the device do not change the bands", "statement": "The energies, eigenvectors and velocities returned for a list of points are those of each point, in order, whatever the size of the batches sent to the device, also for a process without points.", "quantifier": "all lists of points and batch sizes", "why_tests_cant": "all sizes", "anchors": ["src/harmonic/electron_h0_wannier.cpp:ElectronH0Wannier::kokkosPopulate"]}
{"id": "C87", "title": "Phonon interpolation is the Fourier transform of the force constants", "statement": "Without polar corrections, the matrix diagonalised at a wavevector is the Fourier transform of the real-space force constants over the periodic images of each pair of atoms, each image weighted by one over the number of equally close images and zero if another image is closer; the weight is the same seen from either atom, and the result does not change when a reciprocal lattice vector is added to the wavevector.", "quantifier": "all crystals, supercells, force constants and wavevectors", "why_tests_cant": "tests compare a few frequencies of one material; dropped images or wrong wrapping of cell indices show only for particular supercells and positions", "anchors": ["src/harmonic/phonon_h0.cpp: wsInit, wsWeight, reorderDynamicalMatrix, shortRangeTerm"]}
{"id": "C88", "title": "Dynamical matrix is Hermitian and frequencies at q and -q agree", "statement": "The matrix given to the eigensolver is Hermitian at every wavevector; if force constants are symmetric the symmetrisation step does nothing; the matrix at -q is the complex conjugate of the one at q, so the frequencies are the same, with and without the long-range term.", "quantifier": "all crystals, force constants, charges and wavevectors", "why_tests_cant": "holds for a continuum of wavevectors and any force constants", "anchors": ["src/harmonic/phonon_h0.cpp: diagonalizeFromCoordinates, addLongRangeTerm, dynDiagonalize"]}
{"id": "C89", "title": "Phonons computed on the device are those of the host", "statement": "The batched construction of dynamical matrices gives the matrix of the one-point construction, including the long-range term, for every order of the atomic additions over reciprocal vectors.", "quantifier": "all crystals, wavevectors and thread schedules", "why_tests_cant": "the order of atomic additions is not controlled by a test", "anchors": ["src/harmonic/phonon_h0_kokkos.cpp: kokkosBatchedBuildBlochHamiltonian", "src/harmonic/phonon_h0.cpp: PhononH0, diagonalizeFromCoordinates"]}
{"id": "C90", "title": "Acoustic modes have zero frequency at Gamma", "statement": "If the force constants are symmetric and exert no net force under rigid translations, the three rigid translations are eigenvectors with zero eigenvalue of the matrix at q=0, also in polar materials.", "quantifier": "all crystals, force constants, Born charges and masses", "why_tests_cant": "must hold for any crystal; tests check one material with high symmetry", "anchors": ["src/harmonic/phonon_h0.cpp: PhononH0, addLongRangeTerm, dynDiagonalize"]}
{"id": "C91", "title": "Frequencies are signed square roots and eigenvectors are normalised with the masses", "statement": "The frequency of a mode is sign(w) sqrt(|w|) of its eigenvalue on both paths, ordering is kept, and displacement patterns U satisfy U^+ M U = 1.", "quantifier": "all eigenvalues, masses and unitary eigenvectors", "why_tests_cant": "for all real eigenvalues including zero and negative ones", "anchors": ["src/harmonic/phonon_h0.cpp: dynDiagonalize, diagonalizeFromCoordinates", "src/harmonic/phonon_h0_kokkos.cpp: kokkosBatchedDiagonalizeFromCoordinates, kokkosBatchedScaleEigenvectors"]}
{"id": "C92", "title": "Phonon velocities differentiate the square root of the dynamical matrix", "statement": "The matrix that is differentiated squares to the dynamical matrix of a stable crystal, is Hermitian, does not depend on the arbitrary phases of eigenvectors, and where the eigenvectors are constant gives the finite difference of each frequency.", "quantifier": "all dynamical matrices, eigenvector choices and steps", "why_tests_cant": "phases of eigenvectors are arbitrary outputs of the eigensolver", "anchors": ["src/harmonic/phonon_h0.cpp: diagonalizeVelocityFromCoordinates"]}
{"id": "C93", "title": "Dipole-dipole interaction has the prefactor 4 pi e^2 / V", "statement": "Each reciprocal vector contributes 4 pi e^2 / V exp(-g.eps.g/4) (g.Z_a)_i (g.Z_b)_j / (g.eps.g) exp(i g.(tau_a - tau_b)) to the dynamical matrix of a polar material.", "quantifier": "all crystals, charges, dielectric tensors and wavevectors", "why_tests_cant": "an overall factor is compatible with every symmetry tested", "anchors": ["src/constants/constants.h: fourPi", "src/harmonic/phonon_h0.cpp: addLongRangeTerm"]}
{"id": "C94", "title": "Scattering processes conserve energy and particle number, and reverse processes have the same rate", "statement": "For a smearing that is positive only on the energy shell, the contributions of every three-phonon absorption and decay to the collision operator (each process is met once for each role of the second phonon) add up to zero on the energies; the rate of a process equals the rate of the reverse process; exchanging the two states of a pair does not change the rates; isotope scattering only moves phonons from one state to another; electron-phonon scattering annihilates the root of f(1-f), so that the number of electrons does not change.", "quantifier": "all energies, populations, couplings, smearing values, numberings of the states and symmetries, for every pair and every band of the third state", "why_tests_cant": "A test compares the rates of one material with stored numbers; the conservation laws must hold for every process of every material, and a wrong factor that is small in the tested material would pass.", "anchors": ["src/bte/ph_scattering.cpp:builder", "src/bte/el_scattering.cpp:builder"]}
{"id": "C95", "title": "Using symmetries does not change the collision operator", "statement": "The product of the collision operator with a vector that has the symmetry of the crystal is the same whether the points are reduced by symmetry or not.", "quantifier": "all grids, symmetries, transitions and populations; false in general: the in-scattering from the images of the state under the symmetries is left out (exact formula proved)", "why_tests_cant": "A test would need a material where transitions between equivalent states dominate; the conductivities of the tested materials agree within the tolerance of the convergence.", "anchors": ["src/bte/ph_scattering.cpp:builder (is1 != is2Irr)", "src/bte/el_scattering.cpp:builder (is1 != is2Irr)"]}
{"id": "C96", "title": "Three-phonon couplings are the squared matrix elements of the third derivatives", "statement": "For every point given to the calculation of the three-phonon couplings, the two tensors returned have the dimensions of the numbers of bands of the three states, and each of their elements is the squared modulus of the sum over Cartesian components and pairs of lattice vectors of the weighted third derivatives between the three displacements, with the phases of q3 = q1 + q2 and of q3 = q1 - q2. The result for a point does not depend on the other points of the call nor on their numbers of bands, and points can be divided between calls.", "quantifier": "all force constants, weights, wavevectors, eigenvectors, numbers of bands and lists of points", "why_tests_cant": "The tests compare a few couplings of one material with all weights equal to one; a weight applied twice or a padding error on points with fewer bands is invisible there.", "anchors": ["src/interaction/interaction_3ph.cpp: Interaction3Ph::cacheD3, Interaction3Ph::getCouplingsSquared, Interaction3Ph::Interaction3Ph"]}
{"id": "C97", "title": "Three-phonon couplings do not depend on the arbitrary choices of the eigenvectors", "statement": "Multiplying any eigenvector by a phase leaves every coupling unchanged; mixing degenerate bands with a unitary matrix leaves the sum of the couplings over these bands unchanged, for each of the three states; opposite wavevectors with conjugate eigenvectors give the same couplings; the emission of a phonon is the absorption of the opposite one; wavevectors can be changed by reciprocal lattice vectors; a rigid translation of the crystal does not couple.", "quantifier": "all force constants, wavevectors, eigenvectors, phases, unitary matrices and reciprocal vectors", "why_tests_cant": "The phases and the mixing returned by the eigensolver change between libraries and machines; tests see only those of one run.", "anchors": ["src/interaction/interaction_3ph.cpp: Interaction3Ph::getCouplingsSquared, Interaction3Ph::cacheD3"]}
{"id": "C98", "title": "Force constants of a ShengBTE file are read back where the interaction uses them", "statement": "After reading a file of third-order force constants, the tensor used by the interaction has, for each pair of cells and each three atoms, the values of the file for these cells and atoms (the last ones if repeated) and zero where the file gives none; each cell of the file appears once; no memory outside of the tensors is used.", "quantifier": "all lists of triplets, cells, atoms and values", "why_tests_cant": "Test files have the same cells for the second and third atom; with different numbers of cells the indices are exchanged and the memory read is not the tensor.", "anchors": ["src/parser/ifc3_parser.cpp: IFC3Parser::parseFromShengBTE, findIndexRow", "src/interaction/interaction_3ph.cpp: Interaction3Ph::Interaction3Ph"]}
{"id": "C99", "title": "Electron-phonon couplings do not depend on the distribution of the tensor nor on the choice of eigenvectors", "statement": "The couplings returned for each final point are the squared moduli of the sum over both sets of lattice vectors, Wannier functions and modes of the coupling tensor, with the phases and degeneracies of the lattice vectors, plus the long range term. They do not depend on how many processes share the tensor nor on which lattice vectors each holds, nor on the division of the final points in batches; sums over degenerate electronic or phonon states do not depend on the eigenvectors chosen.", "quantifier": "all tensors, distributions over processes, wavevectors, eigenvectors and batches", "why_tests_cant": "Tests run with one or two process counts and one eigensolver.", "anchors": ["src/interaction/interaction_elph.cpp: InteractionElPhWan::cacheElPh, InteractionElPhWan::calcCouplingSquared, InteractionElPhWan::polarCorrectionPart2"]}
{"id": "C100", "title": "The polar part of the electron-phonon coupling is the Froehlich expression", "statement": "The long range coefficient of a mode is the sum over reciprocal vectors, inside the cutoff, of 4 pi e^2 / V times the charges projected on the displacement, divided by q.eps.q; it multiplies the overlap of the electronic states, and is left out at the Gamma point.", "quantifier": "all polar materials, wavevectors and modes", "why_tests_cant": "The tests compare against reference values produced by the same constants.", "anchors": ["src/interaction/interaction_elph.cpp: InteractionElPhWan::polarCorrectionPart1Static, InteractionElPhWan::calcCouplingSquared", "src/constants/constants.h: fourPi"]}
{"id": "C101", "title": "Wannier transformation of the electron-phonon couplings is invertible on the coarse mesh", "statement": "Without disentanglement, the tensor produced by the conversion of the ab initio electron-phonon couplings, when interpolated back at the points of the coarse electron and phonon meshes, gives exactly the couplings that were read. The tensor does not depend on the number of MPI processes.", "quantifier": "all couplings, unitary gauges, phonon eigenvector matrices, meshes, Wigner-Seitz vectors, numbers of processes", "why_tests_cant": "A test compares a few couplings of one material within a tolerance; the identity involves completeness of plane waves over Wigner-Seitz vectors with degeneracies on every mesh.", "anchors": ["src/apps/qe_to_phoebe_wannier.cpp: ElPhQeToPhoebeApp::blochToWannier", "src/interaction/interaction_elph.cpp: calcCouplingSquared", "src/crystal.cpp: buildWignerSeitzVectors"]}
{"id": "C102", "title": "Interpolated electronic bands at coarse mesh points", "statement": "At the points of the k-mesh used by Wannier90 the interpolated Hamiltonian has the energies and the states of the ab initio calculation.", "quantifier": "all energies, gauges, meshes, points", "why_tests_cant": "Tests compare a few energies of one material; the identity must hold for every mesh and gauge.", "anchors": ["src/harmonic/electron_h0_wannier.cpp: diagonalizeFromCoordinates", "src/apps/qe_to_phoebe_wannier.cpp: testElectronicTransform"]}
{"id": "C103", "title": "Rotation to the Wannier gauge with any number of threads", "statement": "The rotation of the couplings to the Wannier gauge does not depend on how OpenMP distributes its loops between threads.", "quantifier": "all numbers of threads, modes, bands, Wannier functions, couplings, gauges", "why_tests_cant": "The error appears only for numbers of threads that do not divide modes times Wannier functions; a test runs with a fixed number of threads.", "anchors": ["src/apps/qe_to_phoebe_wannier.cpp: l.224-264 and l.568-608 (omp for nowait collapse(4))"]}
{"id": "C104", "title": "Distributed Wannier transformation", "statement": "The conversion that reads one file at a time and distributes the lattice vectors gives, on each process, the entries of the tensor computed at once.", "quantifier": "all distributions of the q-points in files, orders of the files, numbers of processes, couplings", "why_tests_cant": "Serial tests do not exercise the rounds, the chunks and the local indices; processes without vectors appear only in large runs.", "anchors": ["src/apps/qe_to_phoebe_wannier.cpp: BlochToWannierEfficient"]}
{"id": "C105", "title": "Long range part of the electron-phonon coupling", "statement": "The long range part subtracted from the couplings before the Wannier transformation is the one added back after the interpolation: at the coarse mesh points their sum is the ab initio coupling.", "quantifier": "all couplings, gauges, long range coefficients, points away from Gamma", "why_tests_cant": "The error is the imaginary part of an overlap, zero for real gauges; a test on one polar material compares within a tolerance.", "anchors": ["src/apps/qe_to_phoebe_wannier.cpp: l.133-192, l.473-532", "src/interaction/interaction_elph.cpp: getPolarCorrectionStatic, polarCorrectionPart2"]}
{"id": "C106", "title": "Bands read from the ab initio code and disentanglement", "statement": "The couplings of every ab initio band that has a weight on the Wannier functions enter the Wannier tensor; the product of disentanglement and rotation matrices keeps orthonormality.", "quantifier": "all couplings, gauges with more bands than Wannier functions, offsets", "why_tests_cant": "Tests use materials without disentanglement or compare with stored results.", "anchors": ["src/apps/qe_to_phoebe_wannier.cpp: setupRotationMatrices, l.115-130", "src/apps/elph_qe_to_phoebe_app.cpp: readGFromQEFile"]}
{"id": "C107", "title": "Offset between ab initio and Wannier bands", "statement": "When the energies of Wannier90 are those of consecutive bands of the ab initio code, the offset found is the index of the first of them.", "quantifier": "all increasing energies, all positions of the window", "why_tests_cant": "The answer is right when no band lies above the window, as in a test without disentanglement; it is off by one otherwise.", "anchors": ["src/apps/qe_to_phoebe_wannier.cpp: computeOffset"]}
{"id": "C108", "title": "The lattice vectors of the Fourier interpolation are the Wigner-Seitz vectors of the coarse mesh", "statement": "For every crystal, coarse mesh and cutoff >= 1 the interpolation uses, each once, exactly the lattice vectors that are as short as their images under the supercell translations; every class of vectors is represented and the inverse degeneracies of a class sum to one; the zero vector comes first, with degeneracy one. A cutoff below one is refused.", "quantifier": "all meshes, cutoffs and metrics in which the shortest images lie in the neighbouring supercells", "why_tests_cant": "the search is a loop over cells whose completeness depends on the metric of the crystal; a test fixes one lattice", "anchors": ["src/harmonic/electron_h0_fourier.cpp: ElectronH0Fourier::setPositionVectors"]}
{"id": "C109", "title": "Fourier-interpolated bands go through the ab initio energies", "statement": "For every set of energies on the complete coarse mesh, every number of bands and processes, the interpolated band b evaluated at the i-th coarse point equals the energy given for it. The linear system to be solved is Hermitian and positive definite for every complete mesh. Among all functions built from the same stars and passing through the same energies, the interpolated band is the only one whose roughness is smallest. The roughness is the one documented for the method.", "quantifier": "all energies, meshes, crystals, numbers of bands and MPI processes", "why_tests_cant": "exact reproduction is an algebraic identity between the Lagrange multipliers and the coefficients; a test can only check one set of bands to a tolerance", "anchors": ["src/harmonic/electron_h0_fourier.cpp: getLagrangeMultipliers, getCoefficients, getEnergyFromCoordinates, ElectronH0Fourier::ElectronH0Fourier"]}
{"id": "C110", "title": "Fourier-interpolated group velocities are the gradients of the bands, periodic in reciprocal space", "statement": "At every wavevector each component of the velocity is the derivative of the interpolated energy along that axis; energies and velocities at k + G equal those at k for every reciprocal lattice vector G.", "quantifier": "all wavevectors, coefficients and lattice vectors", "why_tests_cant": "derivatives and periodicity hold on a continuum of points", "anchors": ["src/harmonic/electron_h0_fourier.cpp: getGroupVelocityFromCoordinates, getDerivativeStarFunction, getStarFunction"]}
{"id": "C111", "title": "Selecting the bands of an energy window keeps the right bands and the right number of electrons", "statement": "trimBands keeps, in order and with unchanged coefficients, exactly the bands with an energy in the window at some coarse point, and takes off the occupied states those of the bands below the window.", "quantifier": "all band structures, windows and spin settings", "why_tests_cant": "depends on the ordering of all bands at all coarse points; windows with no band or with a band crossing between two points are not in tests", "anchors": ["src/harmonic/electron_h0_fourier.cpp: ElectronH0Fourier::trimBands"]}
{"id": "C112", "title": "EPA couplings of two energies come from the nearest bins", "statement": "For energy bins with a constant positive step, the coupling returned for a mode and a pair of electron energies is the tabulated value of the bins closest to the two energies, the first or last bin for energies outside; with a single bin it is the only value. If the first two bins coincide the lookup is undefined.", "quantifier": "all tables, bins, modes and energies whose bin number fits an int", "why_tests_cant": "the nearest-bin claim must hold at every energy, including outside the bins and half way between two of them", "anchors": ["src/interaction/interaction_epa.cpp:InteractionEpa::getCoupling"]}
{"id": "C113", "title": "EPA energy grids cover the requested window", "statement": "The energies at which EPA transport is computed are the centres of equal steps inside [fermi - range, fermi + range], as many as fit. The bins of the averaged couplings start at the minimum energy; given by step they end within a step of the maximum, and every energy of the window is within one step of the bin used for it. Given by number, the maximum of the window is never a bin. Windows whose minimum is above the maximum are refused.", "quantifier": "all windows, steps and numbers of bins", "why_tests_cant": "off-by-one errors of a grid depend on whether the window is a multiple of the step", "anchors": ["src/apps/transport_epa_app.cpp:TransportEpaApp::run", "src/apps/qe_to_phoebe_epa.cpp:ElPhQeToPhoebeApp::epaPostProcessing"]}
{"id": "C114", "title": "EPA averages are weighted averages of |g|^2/2w, for any number of processes", "statement": "The averaged coupling of a mode and a pair of bins is the sum over k, all q points and bands of gaussian weights times |g|^2/(2 w), divided by the total weight, whatever the number of processes. It lies between the smallest and the largest coupling if every frequency is above the cutoff and the total weight above 1e-12. It does not otherwise: modes below the cutoff stay in the normalisation, and small weights leave the sum not normalised. The frequency of a mode is its average over all q points.", "quantifier": "all numbers of bands, points, processes, stars, weights, couplings and frequencies", "why_tests_cant": "normalisation errors need every combination of frequencies and weights, and every number of processes", "anchors": ["src/apps/qe_to_phoebe_epa.cpp:ElPhQeToPhoebeApp::epaPostProcessing"]}
{"id": "C115", "title": "The EPA file is read back as it was written", "statement": "Reading the file written by the EPA calculation gives the number of electrons, frequencies, bins and all couplings up to the digits printed; files with more than one spin are refused. A file cut anywhere within its couplings is accepted and the missing couplings are zero.", "quantifier": "all tables, sizes and truncation points", "why_tests_cant": "a writer and a reader agree only if they do for every size and order of the indices", "anchors": ["src/apps/qe_to_phoebe_epa.cpp:ElPhQeToPhoebeApp::epaPostProcessing", "src/interaction/interaction_epa.cpp:InteractionEpa::parseEpaCoupling"]}
{"id": "C116", "title": "EPA scattering rates", "statement": "The rate at an energy is the sum over modes of absorption and emission terms with the couplings of the nearest bins, the populations of the mode and of the final energy, and the density of states linearly interpolated at the final energy (exact for a linear density, zero outside of the grid). Rates are not negative and do not depend on the number of processes. Final energies on the ends of the grid find no states, and a negative average frequency reads outside of the table.", "quantifier": "all grids, densities, frequencies, populations, couplings and numbers of processes", "why_tests_cant": "indexing by truncated frequencies must stay in bounds for every frequency and energy", "anchors": ["src/apps/transport_epa_app.cpp:TransportEpaApp::calcEnergyProjVelocity", "src/apps/transport_epa_app.cpp:TransportEpaApp::getScatteringRates"]}
{"id": "C117", "title": "EPA projected velocities and density of states", "statement": "The energy projected velocity tensor is symmetric, positive semidefinite and unchanged by every crystal operation that permutes the velocities of each star; the density of states counts every point of the full zone and is not negative; both are independent of the number of processes.", "quantifier": "all states, stars, rotations, energies, weights and numbers of processes", "why_tests_cant": "symmetry of the tensor must hold for every group and every star", "anchors": ["src/apps/transport_epa_app.cpp:TransportEpaApp::calcEnergyProjVelocity"]}
{"id": "C118", "title": "Interband heat conductivity of phonons", "statement": "The Wigner thermal conductivity adds to the conductivity of the bands the sum over pairs of bands of mean energy, heat capacities, rotated velocities and a Lorentzian of the energy difference. The added tensor is symmetric and never lowers the conductivity along any direction. It does not depend on the phases of the eigenvectors, on the choice of eigenvectors of degenerate bands (once the band term is added), or on the distribution of the wavevectors over processes. It is zero when the velocity operator has no off-diagonal elements. Two bands of one wavevector with equal energy and infinite relaxation time give no number.", "quantifier": "all meshes, numbers of bands, energies, Hermitian velocity operators, relaxation times, temperatures, rotations, bases and process layouts", "why_tests_cant": "Positivity, symmetry and invariance must hold for every crystal and every eigenvector the solver may return; a test sees one.", "anchors": ["src/observable/wigner_phonon_thermal_cond.cpp:WignerPhononThermalConductivity"]}
{"id": "C119", "title": "Interband Onsager coefficients of electrons", "statement": "The Wigner transport coefficients add to L_EE, L_ET, L_TE, L_TT the response of every pair of bands. The added conductivity is non-negative along any direction, symmetric when the mesh contains k and -k of a time-reversal symmetric crystal, independent of the phases of the eigenvectors and of the process layout. The added terms are finite for degenerate bands, obey the reciprocity L_TE = -T L_ET of the band terms, and the total does not depend on the basis chosen for degenerate bands.", "quantifier": "all meshes, numbers of bands, energies, Hermitian velocity operators, relaxation times, temperatures, chemical potentials and process layouts", "why_tests_cant": "Signs, factors and invariances must hold for all band structures; degenerate bands appear only on special points.", "anchors": ["src/observable/wigner_electron.cpp:WignerElCoefficients"]}
{"id": "C120", "title": "Relaxation-time viscosity", "statement": "The viscosity tensor computed in the relaxation time approximation is the sum over all states of the full Brillouin zone of q_i v_j q_k v_l n(n+1) tau / (kBT N V) (f(1-f) and the spin degeneracy for electrons), where phonons that are excluded or below the frequency cutoff do not count. It is unchanged when the pairs (ij) and (kl), the two momenta or the two velocities are exchanged, it is non-negative on every strain rate, it has every symmetry of the set of states, and it does not depend on the number of processes and threads.", "quantifier": "All irreducible states, stars, relaxation times, distributions over processes and threads.", "why_tests_cant": "Symmetry and positivity must hold for every crystal and every strain rate, and the parallel sum for every schedule.", "anchors": ["src/observable/phonon_viscosity.cpp:PhononViscosity::calcRTA", "src/observable/electron_viscosity.cpp:ElectronViscosity::calcRTA"]}
{"id": "C121", "title": "Conserved eigenvectors are normalised", "statement": "The eigenvectors of energy, charge and momentum conservation have norm one, are proportional to sqrt(n(n+1)) times energy, one and wavevector, do not depend on the number of processes, and energy is orthogonal to momentum when each state has a time-reversed partner. They are numbers for every mesh.", "quantifier": "All band structures, temperatures, chemical potentials, meshes and distributions of states.", "why_tests_cant": "Normalisation is a statement about sums over arbitrary states; the exceptional meshes are found only by a general argument.", "anchors": ["src/observable/viscosity_io.cpp:genericCalcSpecialEigenvectors"]}
{"id": "C122", "title": "Search of the conserved relaxon", "statement": "The relaxon removed from the viscosity as the energy (or charge) eigenvector is the first one with the largest overlap if that overlap is at least 0.75, otherwise none is removed; with orthonormal relaxons at most one can pass the threshold, and an exact eigenvector is found whatever its sign. The search works for any number of relaxons.", "quantifier": "All orthonormal sets of relaxons, all vectors, all sizes and distributions of the matrix.", "why_tests_cant": "Uniqueness follows from Bessel's inequality for all matrices; the failing sizes lie outside the sizes of tests.", "anchors": ["src/observable/viscosity_io.cpp:genericRelaxonEigenvectorsCheck"]}
{"id": "C123", "title": "Phonon viscosity from relaxons", "statement": "The phonon viscosity computed from the relaxons accepts one calculation only, is symmetric in (ij)<->(kl) and j<->l, damps every wave, does not depend on the number of processes, and equals the relaxation-time viscosity when the collision matrix is diagonal.", "quantifier": "All collision matrices, sizes, distributions of the matrix and of the relaxons.", "why_tests_cant": "The comparison with the relaxation-time formula must hold for all indices and all states.", "anchors": ["src/observable/phonon_viscosity.cpp:PhononViscosity::calcFromRelaxons"]}
{"id": "C124", "title": "Electron viscosity from relaxons", "statement": "The electron viscosity computed from the relaxons accepts one calculation only, is symmetric in j<->l, does not depend on the number of processes, equals the relaxation-time viscosity when the collision matrix is diagonal, and can be computed from a subset of the relaxons.", "quantifier": "All collision matrices, numbers of relaxons, distributions of the matrix.", "why_tests_cant": "The comparison with the relaxation-time formula must hold for all states, and memory safety for all numbers of relaxons.", "anchors": ["src/observable/electron_viscosity.cpp:ElectronViscosity::calcFromRelaxons"]}
{"id": "C125", "title": "Coefficients of the real-space solver", "statement": "The drag coefficients written for the real-space solver are phi_i D phi_j summed over all pairs of states: symmetric for a symmetric collision matrix, non-negative for a non-negative one, zero along directions of conserved momentum, independent of the distribution of the matrix. The velocity coefficients are phi_i v_j theta_0 summed over the states that count.", "quantifier": "All collision matrices, eigenvectors and distributions.", "why_tests_cant": "The statement is about every matrix and every distribution over processes.", "anchors": ["src/observable/viscosity_io.cpp:genericOutputRealSpaceToJSON"]}
{"id": "C126", "title": "The coupling written to an HDF5 file in format 1 is the coupling read back", "statement": "The electron-phonon coupling of every pair of Wannier functions, mode and pair of lattice vectors that qe2Phoebe writes in file format 1 is the value that a later run reads, whatever the number of processes of the two runs, the order in which the processes reach the file, the size of the pieces in which the data set is written, and whether each process held the whole tensor or only its lattice vectors. With pools each process obtains the couplings of exactly the lattice vectors it keeps, and every vector is kept by some process. Findings: a tensor distributed over the processes and larger than one piece per process is written with the data of the first piece repeated; more processes than lattice vectors read past the end of an empty list.", "quantifier": "all dimensions of the tensor, all tensors, all numbers of processes of the writer and of the reader, all orders of the writes, all maximum sizes of a piece, all processes of a pool", "why_tests_cant": "A test writes and reads a small tensor with a fixed number of processes; data sets of more than 1 GB per process, where pieces matter, are never tested.", "anchors": ["src/apps/qe_to_phoebe_utils.cpp:writeElPhCouplingHDF5v1", "src/interaction/interaction_elph_parsing.cpp:parseHDF5V1", "src/interaction/interaction_elph_parsing.cpp:parseHeaderHDF5"]}
{"id": "C127", "title": "The coupling written to an HDF5 file in format 2 is the coupling read back", "statement": "A file of format 2 has a header and one data set per electronic lattice vector. Written by one process, or by several if all of them have opened it before the first one writes, it is complete: every lattice vector has its couplings. One process, or pools of any size, read a complete file correctly. Findings: since every process truncates the file when it opens it, there is an order of the processes in which what the others wrote, and the header, is lost and the file cannot be read; without pools a run of several processes obtains zero for all lattice vectors but those of the first process.", "quantifier": "all dimensions, all tensors, all numbers of processes, all interleavings of the steps of the processes", "why_tests_cant": "The lost data sets depend on the order in which processes open the file, which a test cannot enumerate; the broadcast of the tensor of the head process only matters with several processes.", "anchors": ["src/apps/qe_to_phoebe_utils.cpp:writeElPhCouplingHDF5v2", "src/apps/qe_to_phoebe_utils.cpp:writeHeaderHDF5", "src/interaction/interaction_elph_parsing.cpp:parseHDF5V2"]}
{"id": "C128", "title": "Table of the density of states", "statement": "For a minimum energy not above the maximum and a positive spacing, the table of the density of states has an entry at the minimum energy and at every multiple of the spacing after it up to the maximum, and no other; each entry is the density at its energy; the table is the same for every number of MPI processes; the area under the curve is the same in the units of the output as in internal units.", "quantifier": "every density, energy window whose number of points fits an int, number of processes, conversion factor", "why_tests_cant": "every energy window, spacing and number of processes", "anchors": ["src/apps/dos_app.cpp:calcDOS", "src/apps/dos_app.cpp:outputDOSToJSON", "src/mpi/mpiHelper.h:gatherv"]}
{"id": "C129", "title": "Density of states from irreducible points", "statement": "The density of states obtained from the irreducible points and the sizes of their stars is that of the full mesh, that is, the average over all points and sum over bands of the weights of the cells; it is never negative and vanishes in a gap.", "quantifier": "every mesh, band structure, set of symmetries, energy", "why_tests_cant": "every band structure and set of symmetries", "anchors": ["src/delta_function.cpp:TetrahedronDeltaFunction::getDOS", "src/delta_function.cpp:TetrahedronDeltaFunction::getSmearing"]}
{"id": "C130", "title": "Labels of a path", "statement": "For every path of wavevectors, the output has one index per end of a segment, in order, and the point of the path at that index is that end (for two ends that share a label, possibly the first of them).", "quantifier": "every path of one or more segments, coordinates, labels, spacing", "why_tests_cant": "every path: number of segments, continuous and discontinuous joints, labels", "anchors": ["src/apps/bands_app.cpp:outputBandsToJSON", "src/points.cpp:Points::Points"]}
{"id": "C131", "title": "Third-order force constants of phono3py files are read where the interaction uses them", "statement": "For a file whose supercell lists the cells of one atom in a consistent order, the reader succeeds, and for every pair of lattice vectors in its windows and every triple of atoms and directions the tensor handed to the three-phonon interaction is the force constant of the file between the three atoms, in internal units, or zero if the weight of one of the two pairs is zero; the weights of the pairs are handed over separately at the same vectors, and every lattice vector at which a pair has a positive weight is present exactly once. A supercell that has no atom where a needed cell should be is rejected with an error.", "quantifier": "every crystal, supercell size, order of the cells, tensor of force constants", "why_tests_cant": "every crystal, supercell and order of the atoms", "anchors": ["src/parser/ifc3_parser.cpp:IFC3Parser::parseFromPhono3py", "src/parser/ifc3_parser.cpp:findIndexRow", "src/parser/ifc3_parser.cpp:reorderDynamicalMatrix"]}
{"id": "C132", "title": "Wigner-Seitz weights of the images of a pair of atoms sum to one", "statement": "For every pair of atoms and every residue of the lattice modulo the supercell, the weights of the images of the pair (harmonic and third-order constants) add up to one, are equal for the images of shortest distance and vanish for all others, so that no force constant is lost or counted twice.", "quantifier": "every crystal, supercell size, pair of atoms", "why_tests_cant": "every crystal and atomic position, including ties and skewed cells", "anchors": ["src/parser/ifc3_parser.cpp:wsWeight", "src/parser/ifc3_parser.cpp:IFC3Parser::wsInit", "src/harmonic/phonon_h0.cpp:PhononH0::wsInit", "src/harmonic/phonon_h0.cpp:PhononH0::wsWeight"]}
{"id": "C133", "title": "The cell of a Quantum ESPRESSO Bravais index has the lengths and angles of the manual", "statement": "For every Bravais index and every set of parameters that describe a lattice, the primitive vectors read have the lengths and mutual angles that the manual of Quantum ESPRESSO lists for that index (within the twelve decimals of the roots of two and three for indices 4 and 5) and are right-handed; parameters that describe no lattice and unknown indices are rejected; for index 0 the vectors are those of the file, in units of the lattice parameter if one is given. Findings: for the base-centred monoclinic index 13 the vector b has a wrong length and direction; triclinic cells with coplanar edges are accepted.", "quantifier": "every Bravais index, every lattice parameters", "why_tests_cant": "every real value of the lattice parameters for each of the twenty lattices", "anchors": ["src/parser/qe_input_parser.cpp:getQELattice", "src/exceptions.cpp:Error::Error"]}
{"id": "C134", "title": "Force constants of Quantum ESPRESSO are read as written", "statement": "For every crystal, every file of force constants in the format of q2r.x (species, atoms, optional dielectric tensor and effective charges, supercell, one value per pair of directions, pair of atoms and cell) is read into a crystal and arrays that hold each number at its own indices; a file whose cell parameters are invalid is rejected, and so is a file that ends too early or has a word in place of a value.", "quantifier": "All numbers of species and atoms, all positions, masses, types, all lattice indices accepted by getQELattice, presence or absence of the dielectric block, all supercells and values, anything after the data", "why_tests_cant": "An integration test reads the files of two crystals and checks a few frequencies; a permuted index or a silently accepted truncated file shows only for low symmetry or damaged files", "anchors": ["src/parser/qe_input_parser.cpp:QEParser::parsePhHarmonic", "src/parser/qe_input_parser.cpp:getQELattice"]}
{"id": "C135", "title": "The Hamiltonian of Wannier90 is read so that energies are unchanged", "statement": "Reading a Wannier90 tb.dat file fills the arrays with every matrix element, degeneracy and position element of the file (in Rydberg and Bohr, transposed), for any number of lattice vectors; the energies computed at any wavevector are those of the Hamiltonian of the file, with and without the shifts of the Wigner-Seitz file.", "quantifier": "All numbers of Wannier functions and lattice vectors (any number of lines of 15 degeneracies), all complex elements, all wavevectors, all shifts", "why_tests_cant": "The transposition is invisible without shifts because a Hermitian matrix and its transpose have equal eigenvalues; the tests use no Wigner-Seitz file", "anchors": ["src/parser/qe_input_parser.cpp:QEParser::parseElHarmonicWannier", "src/bands/electron_h0_wannier.cpp:ElectronH0Wannier::ElectronH0Wannier"]}
{"id": "C136", "title": "Shifts of Wannier90 are attached to their pair and lattice vector", "statement": "Reading a wsvec.dat file stores, for each lattice vector in the order of the file and each pair of Wannier functions, the number of shifts and every shift at its own index.", "quantifier": "All lists of lattice vectors, pairs and shifts (at most 8 per entry)", "why_tests_cant": "The vector index is inferred from changes between consecutive lines, so the property depends on the whole file; no test reads one", "anchors": ["src/parser/qe_input_parser.cpp:QEParser::parseElHarmonicWannier"]}
{"id": "C137", "title": "Force constants of phonopy reach the right pair of atoms, cell and directions", "statement": "For every supercell and any order in which phonopy lists its cells, element (i,j,R,a,b) of the harmonic array is the force constant between direction i of atom a in cell R and direction j of atom b at the origin, whichever of the two layouts (full or compact) the fc2.hdf5 file has; the phonon frequencies do not depend on the layout.", "quantifier": "All supercells, cell orders, numbers of atoms, index maps, force constants symmetric under exchange, both layouts", "why_tests_cant": "The test reads one full file of a crystal whose blocks are symmetric; the exchange of directions in the compact layout shows only for blocks that are not", "anchors": ["src/parser/phonopy_input_parser.cpp:PhonopyParser::parsePhHarmonic", "src/parser/phonopy_input_parser.cpp:findRIndex"]}
{"id": "C138", "title": "Born charges of phonopy reach their atoms", "statement": "Reading a BORN file (any comments and blank lines) gives the dielectric matrix and, for every atom of the crystal, its effective charges, also when the crystal has several atoms of one species.", "quantifier": "All crystals, all files with any number of charge lines, comments and blank lines, head and other processes", "why_tests_cant": "The test reads one file of one polar crystal; the defect needs crystals with more atoms than species", "anchors": ["src/parser/phonopy_input_parser.cpp:PhonopyParser::parsePhHarmonic"]}
{"id": "C139", "title": "The phonopy description of the crystal is read as it was written", "statement": "When phono3py_disp.yaml has the layout that phono3py writes, the program obtains from it the supercell size (the one of the harmonic force constants when the file has two), the length unit, the three lattice vectors in order, the atoms in order with their positions and a species number that maps back to the written symbol with every symbol listed once, and the lattice and positions of the matching supercell, whatever other lines, how many atoms and however many digits the file has. A file whose supercell matrix is not diagonal stops the program.", "quantifier": "every file in that layout: any header and trailer lines without the searched words, any number of atoms, any one- or two-letter symbols in any order, any numerals, with or without a separate harmonic supercell", "why_tests_cant": "the reader searches for words in lines and carries state between them; a test reads one or two example files", "anchors": ["src/parser/phonopy_input_parser.cpp:parsePhHarmonic", "src/utilities.cpp:tokenize"]}
{"id": "C140", "title": "The file of plotted couplings holds every requested coupling once", "statement": "The coupling plot application writes, for every requested pair of wavevectors and every requested pair of electron bands and phonon mode, the coupling of exactly that pair, bands and mode at the place of the file given by the order of pairs, first band, second band, mode, whatever the number of processes and the order in which they write. The pairs are all points with the fixed q, or with the fixed k, or all points with all points; the band ranges used lie within the bands of the Hamiltonians, a valid requested range is kept and the default range means all bands. Processes of a pool make equally many collective calls.", "quantifier": "every list of points, every coupling function, every band range, every number of processes and every order of their writes", "why_tests_cant": "depends on the division of pairs between processes, on the buffer limits and on the order of writes, which a test fixes", "anchors": ["src/apps/elph_plot_app.cpp:run"]}
{"id": "C141", "title": "The requested application starts, and only with the input that it reads", "statement": "Each of the fourteen application names starts the application of that name and every other name stops the program. An application that starts finds every input variable that its run reads set by the user, and an input file in which all of them are set is not refused.", "quantifier": "every application name, every combination of set and unset input variables and their values", "why_tests_cant": "the checks and the reads are in different functions of fourteen applications; a test covers the inputs of its examples", "anchors": ["src/apps/app.cpp:App::loadApp", "src/apps/app.cpp:throwErrorIfUnset", "src/apps/phonon_transport_app.cpp:checkRequirements", "src/apps/electron_wannier_transport_app.cpp:checkRequirements", "src/apps/elph_plot_app.cpp:checkRequirements", "src/apps/ph_el_lifetimes.cpp:checkRequirements"]}
{"id": "C142", "title": "Command line and progress reports", "statement": "The program reads the file named after the first -in on the command line, stops if there is none or it cannot be read, and takes the name after -out as output file, to which it prints. During a loop of any length it prints at most 22 progress lines, in order of steps, with percentages between 0 and 100 that do not decrease, the last one saying 100% at the last step.", "quantifier": "every command line, every number of steps", "why_tests_cant": "the number of lines depends on the number of steps through integer division and on which steps are special; a test tries a few", "anchors": ["src/io.cpp:getCmdOption", "src/io.cpp:IO", "src/io.cpp:LoopPrint"]}
{"id": "C143", "title": "Reading of the XML file of Quantum ESPRESSO", "statement": "A band structure computed on a full mesh of wavevectors and read from the XML file of Quantum ESPRESSO has the mesh of the run, and at every mesh point the energies, in Rydberg, that the file lists for that wavevector, whatever the order of the points and the periodic images used; the lattice vectors, the species of every atom, the Fermi level and the number of electrons are those of the file; files with a Monkhorst-Pack node or with spin are never accepted.", "quantifier": "every mesh (below a million points per direction, shift below the spacing), order and image of the points, invertible reciprocal cell, bands, atoms and user Fermi level", "why_tests_cant": "The order of the points and the cell are unbounded; a wrong index or a transposed inverse shows only for skew cells or for unordered lists, and tests read one file.", "anchors": ["src/parser/qe_input_parser.cpp:QEParser::parseElHarmonicFourier", "src/points/points.cpp:Points::findMesh", "src/bands/bandstructure.cpp:FullBandStructure::setEnergies"]}
{"id": "C144", "title": "Driving terms of the transport equation", "statement": "For every number of processes and order of threads, the thermal and electric driving terms used by the transport solvers have, for every temperature, chemical potential, direction and irreducible state, the derivative of the equilibrium population times the velocity of the state; the symmetrized version is the same divided by the square root of n(n+1), or f(1-f); rotating the term of an irreducible state gives the term of the rotated state.", "quantifier": "every band structure with its symmetry tables, sweep, particle, number of processes and thread schedule", "why_tests_cant": "The sum over processes is right only if every irreducible state is written by exactly one process, for all process counts and state counts; tests use one process and one crystal.", "anchors": ["src/bte/drift.cpp:BulkTDrift", "src/bte/drift.cpp:BulkEDrift", "src/bands/active_bandstructure.cpp:ActiveBandStructure::parallelIrrStateIterator", "src/particle.cpp:Particle::getDndt"]}
{"id": "C145", "title": "Files of relaxation times", "statement": "In the files of relaxation times every calculation has one list per irreducible wavevector with one entry per band, all lists in the order of the states of the transport equation, so that the n-th time, linewidth, velocity and energy belong to the same state; the time written for a state times the linewidth written for it is hbar, in eV fs or meV ps, whatever representation the collision matrix has; a constant relaxation time is written as it was given; relaxon and EPA times use the same units as the single mode times.", "quantifier": "every band structure with its symmetry tables, number of calculations, diagonal of the matrix, representation, constant relaxation time and rate", "why_tests_cant": "Conversion factors and nested list orders are checked by tests, if at all, for one material; a missing 2 pi or a misplaced state depends on the representation and on the symmetries.", "anchors": ["src/bte/scattering.cpp:ScatteringMatrix::outputToJSON", "src/bte/scattering.cpp:ScatteringMatrix::relaxonsToJSON", "src/apps/transport_epa_app.cpp:TransportEpaApp::outputToJSON", "src/bte/scattering.cpp:ScatteringMatrix::getTimesFromVectorBTE"]}
{"id": "C146", "title": "Construction of a crystal", "statement": "Every atom of a crystal has the name, mass and isotope coupling of its species, with the values the user chose in place of the natural ones; the cell volume is that of the parallelepiped of the lattice vectors (in two dimensions the area of the plane cell), and never negative; wavevectors with crystal coordinates k have the phase 2 pi k.x at the point with crystal coordinates x; every stored symmetry comes from a distance preserving map that takes the crystal onto itself, species by species, and acts on wavevectors as the inverse of that map; inputs with a flat cell, lists of unequal length, unknown elements or incomplete custom values are rejected.", "quantifier": "every cell, list of atoms and species, custom masses and couplings, application, and answer of spglib that keeps its contract", "why_tests_cant": "Row and column conventions, transposes and inverses agree by accident for the symmetric cells used in tests; which inputs are rejected ranges over all inputs.", "anchors": ["src/crystal.cpp:Crystal::Crystal", "src/crystal.cpp:calcVolume", "src/crystal.cpp:Crystal::calcReciprocalCell", "src/crystal.cpp:Crystal::getVolumeUnitCell", "src/points.cpp:Points::setIrreduciblePoints"]}
{"id": "C147", "title": "Periodic table", "statement": "Looking up an element gives the mass, mass variance and nuclear charge stored for exactly that symbol, which occurs once; after any sequence of changes an element has the last value set for it and no other element has changed; an unknown symbol is always an error.", "quantifier": "every string and every sequence of setMass and setMassVariance", "why_tests_cant": "The index of an element is its atomic number minus one: one row out of order would return another element's data; histories are unbounded.", "anchors": ["src/constants/periodic_table.cpp:PeriodicTable::findElementByStr", "src/constants/periodic_table.cpp:PeriodicTable::setMass", "src/constants/periodic_table.h:PeriodicTable::elements"]}
{"id": "C148", "title": "Rotations of Wannier90", "statement": "The rotation matrices used for the transformation of the electron-phonon coupling are, at every mesh point, those that Wannier90 wrote for that wavevector, in whatever order and with whatever periodic images its files list the wavevectors; with disentanglement they are the product of the disentanglement matrix and of the rotation of the same wavevector; a file that does not give every wavevector and every entry is rejected.", "quantifier": "every mesh, order of the wavevectors in either file, number of bands and Wannier functions, matrices, and truncated or inconsistent file", "why_tests_cant": "The two files may list points in different orders and the matrices are square in most tests, so exchanged indices or a product in the wrong order stay hidden; truncation points are unbounded.", "anchors": ["src/apps/qe_to_phoebe_wannier.cpp:ElPhQeToPhoebeApp::setupRotationMatrices"]}
{"id": "C149", "title": "Scattering of phonons by electrons in a phonon transport run", "statement": "When an electron-phonon file is given, the decay rate of each phonon is the sum of the rate due to phonons and the rate due to electrons, in the relaxation time approximation and in every exact solver, with the scattering matrix in memory or recomputed at each step.", "quantifier": "all collision matrices, events, added rates, populations and storage modes", "why_tests_cant": "the two storage modes use different code paths; whether the iteration converges to the equation with the added rate holds or fails for all rates at once", "anchors": ["src/apps/phonon_transport_app.cpp:PhononTransportApp::run", "src/bte/scattering.cpp:setLinewidths", "src/bte/scattering.cpp:offDiagonalDot"]}
{"id": "C150", "title": "Course of a transport run", "statement": "A transport run that reaches its end has written exactly the files of the relaxation time approximation and of each requested solver, each once; a run that is stopped leaves the first of them. It is stopped exactly for the stated incompatible inputs or when a solver does not converge. The scattering matrix is used in a fixed order, never after its diagonalisation and only after it was computed; the order in which the solvers are named does not matter.", "quantifier": "all inputs, solver lists, convergence histories and iteration limits", "why_tests_cant": "The inputs, the list of solvers and the convergence histories combine freely; tests run a few combinations to the end and never the runs that stop in the middle.", "anchors": ["src/apps/phonon_transport_app.cpp:PhononTransportApp::run", "src/apps/electron_wannier_transport_app.cpp:ElectronWannierTransportApp::run", "src/bte/scattering.cpp:setup"]}
{"id": "C151", "title": "Linewidths of phonons due to electrons", "statement": "The linewidth of a phonon due to electrons is pi / (N T) times the sum over the electron points of the mesh, and over the two bands, of coupling, f(1-f) and smearing of the transitions that absorb it; it does not depend on the number of processes or batches, is never negative, is zero below the cutoff, and is the same with and without symmetries.", "quantifier": "all meshes, stars, band structures, couplings, temperatures, numbers of processes and of batches", "why_tests_cant": "The sum runs over irreducible points weighted with the sizes of their stars; whether this equals the sum over all points depends on the symmetry of every term, and a test compares numbers for one material and one mesh.", "anchors": ["src/bte/phel_scattering.cpp:PhElScatteringMatrix::builder", "src/bte/phel_scattering.cpp:getIrrWavevectorPairs", "src/apps/phonon_transport_app.cpp:getPhononElectronLinewidth", "src/bands/window.cpp:internalEnWindow"]}
{"id": "C152", "title": "Scattering of phonons by isotopes", "statement": "The rate of scattering by mass disorder is the Tamura formula for the eigenvectors of the dynamical matrix, whatever the temperature; it is the same for a process and its reverse for every kind of smearing, never negative and zero without mass disorder.", "quantifier": "all crystals, eigenvectors, velocities, populations and smearing widths", "why_tests_cant": "The rates hold for continuous families of eigenvectors, energies and velocities; the reference values of a test fix one crystal and one kind of smearing.", "anchors": ["src/bte/ph_scattering.cpp:PhScatteringMatrix::PhScatteringMatrix", "src/bte/ph_scattering.cpp:builder"]}
{"id": "C153", "title": "The accounts of the memory of the device are balanced", "statement": "The amount of device memory that the program counts as used is, after any sequence of constructions, copies, additions of Wannier shifts, caches of the coupling and destructions, the sum of what the live Hamiltonians and interactions occupy, and is zero again when all are gone; the memory of distinct live allocations never exceeds it, so the batches are never sized with memory that is not there. Findings: assigning a Hamiltonian leaves the old amount in the accounts for ever; copies of an electron-phonon interaction share one entry although each has its own cache, so that live memory can exceed the amount in use and the final amount depends on the order of the destructions.", "quantifier": "all histories of constructors, copy constructors, assignments, destructors, addShiftedVectors, cacheElPh and parse on any number of objects of any sizes", "why_tests_cant": "a test runs one history; the accounts must hold after every history and in every order of destruction", "anchors": ["src/common_kokkos.cpp:DeviceManager", "src/harmonic/phonon_h0.cpp:PhononH0", "src/harmonic/electron_h0_wannier.cpp:ElectronH0Wannier", "src/interaction/interaction_3ph.cpp:Interaction3Ph::getDeviceMemoryUsage", "src/interaction/interaction_elph.cpp:InteractionElPhWan"]}
{"id": "C154", "title": "Operations on distributed matrices are the operations on the whole matrices", "statement": "Sums, differences, multiples, quotients and negatives of distributed matrices with one layout, products of square distributed matrices with any transpositions, and symmetrisation give, on every number of processes and for every layout, the distributed form of the same operation on the whole matrices; matrices of different sizes are refused. Findings: sums only compare sizes, so that matrices of one size in different layouts are added element to wrong element; the product of rectangular matrices has the shape of one of the operands, padded with zeros, or stops the program.", "quantifier": "all sizes, element types, values, process grids and block sizes", "why_tests_cant": "a test uses one grid and one shape; the result must not depend on the distribution", "anchors": ["src/algebra/PMatrix.cpp:ParallelMatrix::prod", "src/algebra/PMatrix.cpp:ParallelMatrix::symmetrize", "src/algebra/PMatrix.h:ParallelMatrix::operator+="]}
{"id": "C155", "title": "Copies, differences and norms of observables", "statement": "The difference of two thermal conductivities is taken component by component for every calculation, and its norm is zero exactly for the calculations in which the two agree. The norm bounds every component and vanishes only when they all do. A copy or an assigned observable has the values of its source, can be shown and used like it, and changes nothing else. A conductivity is shown in the units of the output, divided by the thickness in two dimensions.", "quantifier": "every observable (specific heat, conductivity, viscosity) in any number of dimensions, at any number of temperatures and chemical potentials, with any values; all crystals and sweeps they refer to", "why_tests_cant": "The statements range over all values and sizes, and over pairs of observables that refer to different crystals; a test compares a few conductivities of one crystal.", "anchors": ["src/observable/observable.cpp:Observable::operator=", "src/observable/observable.cpp:Observable::operator-", "src/observable/observable.cpp:Observable::baseOperatorMinus", "src/observable/observable.cpp:Observable::getNorm", "src/observable/phonon_thermal_cond.cpp:PhononThermalConductivity::operator-", "src/observable/specific_heat.cpp:SpecificHeat::whichType"]}
{"id": "C156", "title": "A refused input stops every process", "statement": "When an input is refused, the message is printed once and every process ends with an error code, whatever the schedule and the number of processes; no process starts the application. An accepted input lets every process run the whole application. A run of the variational or relaxons solver with symmetries is refused. An accepted input gets exactly the warnings it deserves (relaxons with an even number of points or adaptive smearing, two dimensions without thickness), from the first process only.", "quantifier": "every input file accepted by the parser, every application (any sequence of collective calls and printed lines per process), every number of MPI processes and every interleaving of their steps", "why_tests_cant": "The failure needs several processes and an input that is refused; it then shows as a run that hangs in some collective call, for every schedule, which a test on one process cannot see and a test on several cannot distinguish from a slow run.", "anchors": ["src/exceptions.cpp:Error::Error", "src/exceptions.cpp:Warning::Warning", "src/context.cpp:Context::inputSanityCheck", "src/context.cpp:Context::printInputSummary", "src/mpi/mpiController.cpp:MPIcontroller::finalize", "src/main.cpp:main"]}
{"id": "C157", "title": "Diagonalisation of the collision matrix", "statement": "The relaxons solver obtains, in ascending order, all eigenvalues of the collision matrix or as many of the smallest ones as the input asks for, with their eigenvectors; the optional check of negative eigenvalues does not change them. A warning appears exactly when there are negative eigenvalues and lists all those that are not positive. Matrices or grids of processes that are not square, more eigenvalues than states, and failures of the library are refused. Complex and single-process matrices are diagonalised too.", "quantifier": "every symmetric matrix, size, number of requested eigenvalues and of processes, with or without symmetries, for every routine that behaves as documented", "why_tests_cant": "tests diagonalise one small matrix; the range of sizes where work arrays fit, the position of the zero crossing in the spectrum and the behaviour of the check depend on the spectrum", "anchors": ["src/algebra/PMatrix.cpp:ParallelMatrix<double>::diagonalize", "src/algebra/SMatrix.cpp:SerialMatrix<double>::diagonalize", "src/bte/scattering.cpp:ScatteringMatrix::diagonalize", "src/algebra/PMatrix.h:initBlacs"]}
{"id": "C158", "title": "Matrices behave as values", "statement": "The matrices that hold energies, velocities and eigenvectors (class Matrix, serial or distributed) behave as values: after any sequence of construction, assignment (also between serial and distributed, and to itself), writing and destruction, every matrix shows the size and the elements last given to it, writing or destroying one never changes another, no memory is used after it is freed, freed twice or lost, and when all matrices are gone no memory is held. A copied band structure has energies, velocities and eigenvectors equal to the original's and independent of them. Not so for copy construction and arithmetic, which dereference a null pointer, nor for meshes whose velocities exceed 2147483647 numbers.", "quantifier": "every sequence of constructions, default constructions, assignments, element writes and destructions of any number of matrices of any size, serial or distributed with any distribution; every band structure copied after any such history", "why_tests_cant": "memory errors depend on the history of assignments between serial and distributed matrices; tests make a few matrices and do not look for leaks or aliasing", "anchors": ["src/algebra/Matrix.h:Matrix::operator=", "src/algebra/Matrix.h:Matrix::~Matrix", "src/algebra/Matrix.h:Matrix::Matrix", "src/algebra/Matrix.h:Matrix::operator+=", "src/algebra/Matrix.cpp:Matrix::prod", "src/algebra/SMatrix.h:SerialMatrix", "src/bands/bandstructure.cpp:FullBandStructure::FullBandStructure"]}
