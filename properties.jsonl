{"id": "C01", "title": "Cluster tree index ranges nest and tile", "statement": "The cluster tree built over a geometry of n>0 dofs has root range [0,n), every inner node has exactly two children whose half-open index ranges are non-empty, adjacent, and together equal to the parent's range, and the leaves' ranges listed left to right tile [0,n) without gap or overlap.", "quantifier": "every number of dofs, every geometry (every outcome of the sort along the main direction at every level), every minBlockSize", "why_tests_cant": "The tree shape depends on floating-point geometry; tests see a handful of meshes.", "anchors": ["lib/hmat/cluster_tree_impl.hpp: ClusterTree<2>::splitClusterTreeByGeometry", "lib/hmat/cluster_tree_impl.hpp: ClusterTree::initializeClusterTree"]}
{"id": "C02", "title": "DOF permutation of a cluster tree is a bijection", "statement": "After construction, mapOriginalDofToHMatDof and mapHMatDofToOriginalDof are total on [0,n), stay in [0,n) and are inverse to each other; the dofs owned by a tree node are exactly the original dofs whose H-matrix index lies in the node's range.", "quantifier": "every n>0, every geometry, every minBlockSize", "why_tests_cant": "A single repeated or lost dof in any of exponentially many split histories would corrupt every matvec.", "anchors": ["lib/hmat/dof_permutation_impl.hpp: DofPermutation::addDofIndexPair", "lib/hmat/cluster_tree_impl.hpp: ClusterTree<2>::splitClusterTreeByGeometry"]}
{"id": "C03", "title": "Cluster tree leaf size and depth bounds", "statement": "Splitting terminates; for minBlockSize>=1 every leaf holds at most minBlockSize dofs, sibling clusters differ in size by at most one, and a node at depth d of a tree over n dofs holds at most ceil(n/2^d) dofs.", "quantifier": "every n>0, every geometry, every minBlockSize>=1", "why_tests_cant": "Needs an induction over the recursion; testing can't bound depth for all n.", "anchors": ["lib/hmat/cluster_tree_impl.hpp: ClusterTree<2>::splitClusterTreeByGeometry"]}
{"id": "C04", "title": "Block cluster tree leaves tile the matrix exactly once", "statement": "For every row index i<rows and column index j<columns there is exactly one leaf in the list returned by leafNodes() whose row and column ranges contain (i,j), and every leaf lies inside the matrix; numberOfLeafs() equals the length of leafNodes().", "quantifier": "every pair of cluster trees, every admissibility function, every maxBlockSize", "why_tests_cant": "Missing or doubled entries only show up for particular tree shapes/admissibility outcomes.", "anchors": ["lib/hmat/block_cluster_tree_impl.hpp: BlockClusterTree::initializeBlockClusterTree", "lib/hmat/simple_tree_node_impl.hpp: SimpleTreeNode::leafNodes, numberOfLeafs"]}
{"id": "C05", "title": "Admissible blocks respect maxBlockSize and the admissibility condition", "statement": "A leaf flagged admissible (hence compressed to low rank) has at most maxBlockSize rows and columns and its cluster pair satisfies the admissibility condition; a leaf not flagged admissible has a row or column cluster that cannot be divided; a block whose own cluster pair is admissible and small enough is never refined.", "quantifier": "every pair of cluster trees, every admissibility function, every maxBlockSize", "why_tests_cant": "The flag is computed on a copy and one level late; only an argument over all trees shows which part of the claim survives.", "anchors": ["lib/hmat/block_cluster_tree_impl.hpp: BlockClusterTree::initializeBlockClusterTree"]}
{"id": "C06", "title": "H-matrix matvec equals the dense product in every transpose mode", "statement": "HMatrix::apply(X,Y,trans,alpha,beta) sets Y to alpha*op(A)*X+beta*Y, where A is the matrix (in original dof order) represented by the leaf blocks and op is identity, conjugate, transpose or conjugate transpose.", "quantifier": "every block cluster tree, leaf data (dense or low rank), X, Y, alpha, beta, mode, and every order in which worker threads add the leaf results", "why_tests_cant": "Leaf results are accumulated concurrently in any interleaving; tests run one schedule on one matrix.", "anchors": ["lib/hmat/hmatrix_impl.hpp: HMatrix::apply, permuteMatToHMatDofs, permuteMatToOriginalDofs", "lib/hmat/hmatrix_dense_data_impl.hpp: HMatrixDenseData::apply", "lib/hmat/hmatrix_low_rank_data_impl.hpp: HMatrixLowRankData::apply"]}
{"id": "C07", "title": "Distributed H-matrix product equals the serial one", "statement": "With the leaves dealt round-robin to nproc ranks, every leaf is owned by exactly one rank and after MPI_Allreduce every rank holds the same Y as a single-process apply (beta*Y is counted exactly once).", "quantifier": "every number of ranks, every leaf list, every X, Y, alpha, beta, mode", "why_tests_cant": "Rank counts and leaf counts are unbounded; a dropped or double-counted leaf appears only for some combinations.", "anchors": ["lib/hmat/hmatrix_impl.hpp: HMatrix::initialize, HMatrix::apply"]}
{"id": "C08", "title": "Dof permutation of vectors is invertible and value preserving", "statement": "permuteMatToOriginalDofs(permuteMatToHMatDofs(M)) = M and vice versa, and entry i of M moves to row mapOriginalDofToHMatDof(i).", "quantifier": "every permutation produced by a cluster tree, every matrix", "why_tests_cant": "Quantifies over all permutations.", "anchors": ["lib/hmat/hmatrix_impl.hpp: HMatrix::permuteMatToHMatDofs, permuteMatToOriginalDofs"]}
{"id": "C09", "title": "Initialising an H-matrix is idempotent", "statement": "Calling initialize again on an H-matrix leaves the represented operator and its block statistics unchanged.", "quantifier": "every history of initialize/reset calls", "why_tests_cant": "A property of call histories.", "anchors": ["lib/hmat/hmatrix_impl.hpp: HMatrix::initialize, HMatrix::reset"]}
{"id": "C10", "title": "H-matrix Frobenius norm is the norm of the represented matrix", "statement": "frobeniusNorm()^2 equals the sum of |a_ij|^2 over all entries of the represented matrix (single process).", "quantifier": "every block cluster tree and leaf data", "why_tests_cant": "Recursion over arbitrary trees.", "anchors": ["lib/hmat/hmatrix_impl.hpp: HMatrix::frobeniusNorm_impl", "lib/hmat/hmatrix_low_rank_data_impl.hpp: HMatrixLowRankData::frobeniusNorm", "lib/hmat/hmatrix_dense_data_impl.hpp: HMatrixDenseData::frobeniusNorm"]}
{"id": "C11", "title": "ACA compression: bounded rank and termination", "statement": "The ACA compressor always terminates; the low-rank factors it returns have shapes rows x r and r x cols with r <= min(maxRank, rows, cols), no row or column pivot is used twice, and it makes at most three ACA sweeps.", "quantifier": "every block, every kernel value, every convergence outcome, every random starting index", "why_tests_cant": "Depends on data-dependent pivoting and random start indices.", "anchors": ["lib/hmat/hmatrix_aca_compressor_impl.hpp: compressBlockImpl, aca, computeCross, selectMinPivot, updateLowRankBlocksAndNorm"]}
{"id": "C12", "title": "ACA crosses interpolate the block", "statement": "After every accepted cross the approximation A*B agrees exactly (in exact arithmetic) with the matrix block on every pivot row and every pivot column used so far.", "quantifier": "every block over a field, every sequence of pivots the code can choose", "why_tests_cant": "Induction over the sequence of crosses with arbitrary entries.", "anchors": ["lib/hmat/hmatrix_aca_compressor_impl.hpp: computeCross, evaluateMatMinusLowRank, updateLowRankBlocksAndNorm"]}
{"id": "C13", "title": "Block compressor honours the distance cutoff", "statement": "A block whose clusters are farther apart than the cutoff is represented by a zero low-rank block and the matrix entries are not evaluated; other blocks are compressed.", "quantifier": "every block cluster node and cutoff", "why_tests_cant": "Control-flow property for all inputs.", "anchors": ["lib/hmat/hmatrix_compressor_impl.hpp: HMatrixCompressor::compressBlock"]}
{"id": "C14", "title": "H-matrix bounding boxes: containment, merge and distance", "statement": "merge yields the smallest box containing both arguments; the distance between two boxes is zero iff they meet, symmetric, and a lower bound on the distance of any two contained points; dividing a box gives two boxes that tile it; a point inside a half-open box is contained in exactly one of its two halves; the corners listed are the eight corners of the box.", "quantifier": "all boxes and points", "why_tests_cant": "Geometric for-all statement; admissibility safety rests on it.", "anchors": ["lib/hmat/bounding_box_impl.hpp: BoundingBox::merge, distance, divide, contains"]}
{"id": "C15", "title": "Morton codes are a bijection on octree coordinates", "statement": "deMorton inverts morton for all coordinates below 1024, morton inverts deMorton for all codes below 2^30, and coordinates above 1023 are rejected.", "quantifier": "all 2^30 coordinates/codes", "why_tests_cant": "2^30 cases and a bit-twiddling implementation.", "anchors": ["lib/fmm/octree_impl.hpp: morton, deMorton, dilate3, contract3"]}
{"id": "C16", "title": "Octree parent/child indexing is consistent with geometry", "statement": "getFirstChild..getLastChild of a node are exactly the 8 nodes whose getParent is that node; the children's Morton coordinates are twice the parent's plus 0 or 1 in each direction, so children's cubes tile the parent's cube.", "quantifier": "all nodes on all levels", "why_tests_cant": "for-all over node indices.", "anchors": ["lib/fmm/octree_impl.hpp: Octree::getParent, getFirstChild, getLastChild, getNodesPerSide, getNodesPerLevel, cubeBounds"]}
{"id": "C17", "title": "Octree neighbour lists are exact and symmetric", "statement": "getNeighbors(node,level) returns without repetition exactly the nodes on the level whose integer coordinates differ by at most one in each direction, other than the node itself; neighbourhood is symmetric and within the grid.", "quantifier": "all nodes and levels up to 10", "why_tests_cant": "for-all over nodes/levels, including boundary boxes.", "anchors": ["lib/fmm/octree_impl.hpp: Octree::getNeighbors"]}
{"id": "C18", "title": "FMM interaction lists are exact", "statement": "Iterating an InteractionList from begin until finished visits each non-empty node of the level whose parent is a neighbour of (or equal to) the node's parent, and that is not itself a neighbour of the node nor the node itself, exactly once, and nothing else.", "quantifier": "all nodes and levels", "why_tests_cant": "Iterator state machine over all nodes.", "anchors": ["lib/fmm/interaction_list_impl.hpp: InteractionList"]}
{"id": "C19", "title": "Near field and interaction lists cover every leaf pair exactly once", "statement": "If no ancestor of leaf s is flagged empty: for two leaf boxes s,t either they are equal or neighbours (and in no interaction list of each other's ancestors), or there is exactly one level at which the ancestors of s lies in the interaction list of the ancestor of t.", "quantifier": "all leaf pairs, all tree depths", "why_tests_cant": "Induction over levels.", "anchors": ["lib/fmm/octree_impl.hpp: Octree", "lib/fmm/interaction_list_impl.hpp: InteractionList"]}
{"id": "C20", "title": "Octree emptiness flags are correct on every level", "statement": "isEmpty(node,level) is false iff some element has its centroid in the node's cube.", "quantifier": "all grids, all levels, all nodes", "why_tests_cant": "for-all over levels; tests check leaves only.", "anchors": ["lib/fmm/octree_impl.hpp: Octree::Octree, Octree::isEmpty"]}
{"id": "C21", "title": "Octree leaf lookup returns the cube containing the point", "statement": "For a point inside the octree's bounding box getLeafContainingPoint returns a valid leaf index whose cube bounds contain the point.", "quantifier": "all points in the bounding box", "why_tests_cant": "Continuum of points including the upper faces.", "anchors": ["lib/fmm/octree_impl.hpp: Octree::getLeafContainingPoint, cubeBounds, cubeWidth"]}
{"id": "C22", "title": "Edge numbering of a triangle grid", "statement": "Edge indices are consecutive from 0; two element sides get the same edge index iff they have the same two vertices (irrespective of orientation); each edge's node pair and per-element edge lists agree.", "quantifier": "all finite triangle lists (including non-manifold and repeated triangles)", "why_tests_cant": "for-all meshes.", "anchors": ["lib/grid/bempp_grid/triangle_imp/bempp_grid_data_container_impl.hpp: DataContainer::init, getEntityNodes"]}
{"id": "C23", "title": "Barycentric refinement numbering", "statement": "The barycentric grid has 6 sons per father triangle and V+E+F vertices; each son consists of one father vertex, the midpoint of an incident father edge and the father's barycentre, no son is repeated, neighbouring fathers share the same midpoint vertex, sons cover each father edge half exactly once per adjacent father, and orientation is that of the father.", "quantifier": "all triangle grids", "why_tests_cant": "for-all meshes.", "anchors": ["lib/grid/concrete_grid.hpp: ConcreteGrid::barycentricGridSonPair"]}
{"id": "C24", "title": "Lazily created shared objects are created once and complete under concurrency", "statement": "Concurrent callers of Lazy::get all receive the same fully constructed object; the initialiser is never run twice at once nor again after it succeeded (if it throws, that caller gets the exception and a later caller retries). C69 treats barycentricGridSonPair.", "quantifier": "all interleavings of any number of threads", "why_tests_cant": "Schedules cannot be enumerated by tests.", "anchors": ["lib/common/lazy.hpp: Lazy::get", "lib/grid/concrete_grid.hpp: ConcreteGrid::barycentricGridSonPair"]}
{"id": "C25", "title": "Grid segment set algebra", "statement": "For segments of one grid (excluded sets of non-negative indices; C65 treats others) and every codimension 0..3 and index, contains() of complement/union_/difference/intersection equals the corresponding Boolean combination of contains() of the operands.", "quantifier": "all segments, codimensions and indices", "why_tests_cant": "for-all over sets.", "anchors": ["lib/grid/grid_segment.cpp: GridSegment::complement, union_, difference, intersection, contains"]}
{"id": "C26", "title": "Open and closed domain segments", "statement": "closedDomain(d) contains exactly the elements of domain d and the lower-dimensional entities touching one of them; openDomain(d) contains exactly the elements of domain d and the lower-dimensional entities that are touched by elements of domain d only and do not lie on the boundary of the domain (an edge is a boundary edge when exactly one side of a domain element lies on it). Edges with more than 256 incident domain elements are the subject of C64.", "quantifier": "all grids and domain labels", "why_tests_cant": "for-all meshes, including high-valence vertices.", "anchors": ["lib/grid/grid_segment.cpp: GridSegment::openDomain, closedDomain"]}
{"id": "C27", "title": "Point-in-grid test counts crossings by parity", "statement": "areInside reports a point as inside iff the ray from it crosses the closed surface an odd number of times.", "quantifier": "all closed surfaces and points", "why_tests_cant": "for-all geometry.", "anchors": ["lib/grid/grid.cpp: areInside", "lib/grid/ray_triangle_intersection.cpp: zRayIntersectsTriangle"]}
{"id": "C28", "title": "Structured grid factory produces the declared grid", "statement": "createSimplexGrid/createCubeGrid with nx x ny cells insert (nx+1)(ny+1) vertices in lexicographic order and 2*nx*ny (nx*ny) elements referring to existing vertices; each cell is covered by its two triangles which share the cell diagonal; the triangulation is conforming and consistently oriented.", "quantifier": "all nx, ny >= 1", "why_tests_cant": "for-all sizes.", "anchors": ["lib/grid/structured_grid_factory.hpp: BemppStructuredGridFactory::createSimplexGrid, createCubeGrid, insertVertices, computeUnitOffsets"]}
{"id": "C29", "title": "Continuous P1 dof maps", "statement": "On any segment, each used vertex carries exactly one global dof, global dof ids are consecutive, getGlobalDofs and global2localDofs are mutually consistent, dofs of two elements coincide iff the vertices coincide, and flat local dofs enumerate each (element, local dof) pair carrying a dof once.", "quantifier": "all grids and segments, strict and non-strict modes", "why_tests_cant": "for-all meshes.", "anchors": ["lib/space/piecewise_linear_continuous_scalar_space.cpp: assignDofsImpl"]}
{"id": "C30", "title": "Piecewise constant and discontinuous P1 dof maps", "statement": "Every element of the segment carries its own dofs, ids are consecutive, no dof is shared; flat local dofs enumerate the local dofs in the order of their global dofs and flatLocalDofCount equals globalDofCount (for piecewise constants: on a segment that is the whole grid).", "quantifier": "all grids and segments", "why_tests_cant": "for-all meshes.", "anchors": ["lib/space/piecewise_constant_scalar_space.cpp: assignDofsImpl, flatLocalDofCount", "lib/space/piecewise_linear_discontinuous_scalar_space.cpp: assignDofsImpl"]}
{"id": "C31", "title": "RWG dofs: one per interior edge with opposite signs", "statement": "In the default dof mode without boundary dofs, on grids whose edges have at most two adjacent elements: the dofs are the edges of the segment with two adjacent elements; each is attached to exactly those two elements, with equal magnitude (the edge length) and opposite sign.", "quantifier": "all such grids and segments", "why_tests_cant": "for-all meshes.", "anchors": ["lib/space/rwg_vector_space.cpp: assignDofsImpl, global2localDofs"]}
{"id": "C32", "title": "Global to flat-local dof matrix", "statement": "For the scalar P1 spaces the sparse matrix returned for mapping global dofs to flat local dofs has, for every flat local dof, exactly one entry, in the column of its global dof, equal to the dof weight (one).", "quantifier": "all grids, segments and modes of these spaces", "why_tests_cant": "for-all dof maps.", "anchors": ["lib/space/space.cpp: constructGlobalToFlatLocalDofsMappingSparseMatrix"]}
{"id": "C33", "title": "Dense weak form assembly computes the Galerkin matrix for every schedule", "statement": "Entry (r,c) of the assembled matrix equals the sum over all pairs of element/local dof attached to global test dof r and trial dof c of conj(test weight)*trial weight*local integral, for every distribution of test elements over threads and every interleaving of additions.", "quantifier": "all spaces, local integrals and thread schedules", "why_tests_cant": "Schedules and meshes are unbounded.", "anchors": ["lib/assembly/dense_global_assembler.cpp: DenseWeakFormAssemblerLoopBody, assembleDetachedWeakForm, gatherGlobalDofs"]}
{"id": "C34", "title": "Dense block assembly is a submatrix of dense assembly", "statement": "assembleDenseBlock(rows r0..r1, cols c0..c1) returns exactly the corresponding submatrix of the full dense weak form, and requests with a negative bound or an end beyond the dof count are rejected (C68 treats start behind end).", "quantifier": "all ranges, spaces and schedules", "why_tests_cant": "for-all sub-blocks.", "anchors": ["lib/assembly/dense_global_block_assembler.cpp: DenseWeakFormBlockAssemblerLoopBody, gatherElementInformation, assembleDenseBlock"]}
{"id": "C35", "title": "H-matrix entry accessor agrees with dense assembly", "statement": "computeMatrixBlock returns, for every index block in H-matrix numbering, the block of the dense weak form in original numbering, on all of its four evaluation paths (single column, single row, small block, general).", "quantifier": "all blocks, permutations, spaces, numbers of operator terms", "why_tests_cant": "Path selection depends on block shape; cross-path equality is a for-all claim.", "anchors": ["lib/assembly/weak_form_hmat_assembly_helper.cpp: WeakFormHMatAssemblyHelper::computeMatrixBlock"]}
{"id": "C36", "title": "Potential operator assembly paths agree", "statement": "The H-matrix assembly helper for potential operators returns on all three evaluation paths the same values as dense potential assembly at the permuted row (point*componentCount+component) and column.", "quantifier": "all blocks, points, component counts, permutations", "why_tests_cant": "for-all blocks.", "anchors": ["lib/assembly/potential_operator_hmat_assembly_helper.cpp: computeMatrixBlock", "lib/assembly/dense_global_assembler.cpp: assemblePotentialOperator"]}
{"id": "C37", "title": "Local dof lists describe exactly the requested dofs", "statement": "LocalDofListsCache::get(start,count) lists every (element, local dof, weight, array index) incident to the requested H-matrix dofs once, and nothing else; repeated or concurrent requests return equal lists.", "quantifier": "all spaces, permutations, ranges and request histories", "why_tests_cant": "Cached, concurrent, for-all ranges.", "anchors": ["lib/assembly/local_dof_lists_cache.cpp: get, findLocalDofs"]}
{"id": "C38", "title": "Component lists describe exactly the requested point components", "statement": "ComponentListsCache::get(start,count) groups exactly the requested permuted rows by point and component with the right array index.", "quantifier": "all component counts, permutations, ranges and histories", "why_tests_cant": "for-all ranges.", "anchors": ["lib/assembly/component_lists_cache.cpp: get, findComponents"]}
{"id": "C39", "title": "Discrete operator cache is transparent", "statement": "Used by one thread at a time, getWeakForm returns a live operator equal to a fresh assembly, never null, and while the caller keeps it, further requests with the same id object return the same one without assembling.", "quantifier": "all histories of requests and expirations", "why_tests_cant": "Histories with object lifetimes.", "anchors": ["lib/assembly/discrete_boundary_operator_cache.cpp: getWeakForm, aliveOperators"]}
{"id": "C40", "title": "Sparse operator apply follows the BLAS contract", "statement": "apply(mode,x,y,alpha,beta) of a sparse discrete operator (constructed plain, transposed or conjugate-transposed) gives y = alpha*op(A)x+beta*y for real and complex vectors in every mode, and asMatrix, rowCount and columnCount agree with the same matrix; old content of y (even NaN-like) is ignored when beta is 0.", "quantifier": "all sparse matrices, vectors, modes and scalars", "why_tests_cant": "for-all linear algebra.", "anchors": ["lib/assembly/discrete_sparse_boundary_operator.cpp: reallyApplyBuiltInImpl, applyBuiltInImpl, isTransposed, asMatrix"]}
{"id": "C41", "title": "Dense operator apply and asMatrix agree", "statement": "DiscreteBoundaryOperator::asMatrix built by applying unit vectors returns the matrix A for which apply computes alpha*op(A)x+beta*y whatever the uninitialised buffers contain; the matrix overload of apply works column by column and rejects wrong sizes; dense and H-matrix operators satisfy this contract.", "quantifier": "all matrices, modes, vectors, scalars", "why_tests_cant": "for-all linear algebra.", "anchors": ["lib/assembly/discrete_boundary_operator.cpp: asMatrix, apply", "lib/assembly/discrete_dense_boundary_operator.cpp: applyBuiltInImpl"]}
{"id": "C42", "title": "Sparse and dense assembly of local operators agree", "statement": "For real result types, assembling an elementary local operator in sparse mode (triplets summed, elements evaluated in parallel sub-ranges) and in dense mode gives the same matrix, the Galerkin matrix of the local integrals.", "quantifier": "all spaces and local matrices", "why_tests_cant": "for-all meshes.", "anchors": ["lib/assembly/elementary_local_operator.cpp: assembleWeakFormInDenseMode, assembleWeakFormInSparseMode, generateTriplets"]}
{"id": "C43", "title": "Multidimensional arrays address each element once and in bounds", "statement": "For in-range indices the 2-, 3- and 4-dimensional arrays map index tuples injectively onto [0,size) (column-major, onto), slices alias the corresponding elements of the parent, and assignment through one tuple changes no other element.", "quantifier": "all extents and indices", "why_tests_cant": "for-all extents.", "anchors": ["lib/fiber/_2d_array_imp.hpp", "lib/fiber/_3d_array_imp.hpp", "lib/fiber/_4d_array_imp.hpp"]}
{"id": "C44", "title": "In-place addition and scaling of arrays", "statement": "For arrays of equal extents operator+= adds elementwise; operator*= multiplies each element once by the scalar; neither reads or writes outside the storage.", "quantifier": "all arrays", "why_tests_cant": "for-all extents.", "anchors": ["lib/fiber/_2d_array_imp.hpp: operator+=", "lib/fiber/_3d_array_imp.hpp: operator+=", "lib/fiber/_4d_array_imp.hpp: operator+="]}
{"id": "C45", "title": "Element pair topology classification", "statement": "For two elements with distinct vertices, the classification is Disjoint/SharedVertex/SharedEdge/Coincident exactly according to the number of common vertices 0/1/2/all, the reported shared local indices point at equal vertices on both sides, and the result is symmetric under swapping the elements.", "quantifier": "all pairs of triangles/quadrilaterals", "why_tests_cant": "for-all index configurations (many permutations).", "anchors": ["lib/fiber/element_pair_topology.hpp: determineElementPairTopologyIn3D"]}
{"id": "C46", "title": "Quadrature order look-up by distance", "statement": "After setting distance-dependent orders (at most 16 brackets, or pairwise different distances, in any order), the look-up returns the order of a narrowest bracket whose maximal normalised distance is not below the given one; the last order applies beyond the largest distance; mismatching list lengths are rejected.", "quantifier": "all bracket lists and distances", "why_tests_cant": "for-all sequences and distances.", "anchors": ["lib/fiber/accuracy_options.cpp: AccuracyOptionsEx::setDoubleRegular, doubleRegular, setSingleRegular, singleRegular"]}
{"id": "C47", "title": "Singular quadrature remapping keeps shared features", "statement": "Remapping Duffy points for a shared vertex (edge) is an affine bijection of the reference triangle sending the reference corner (edge) to the shared local vertex (edge vertices in order); every point/weight slot of the tensor rule is written exactly once.", "quantifier": "all shared vertex/edge positions, all points, all rule sizes", "why_tests_cant": "for-all points and rule sizes.", "anchors": ["lib/fiber/numerical_quadrature.cpp: remapPointsSharedVertexTriangle, remapPointsSharedEdgeTriangle, fillPointsAndWeightsSingular"]}
{"id": "C48", "title": "Local matrix cache is transparent", "statement": "evaluateLocalWeakForms returns, for every requested element pair, the local matrix (or its column or row) integrated with the shapesets of these elements and the quadrature orders of this pair, whether or not singular pairs were cached beforehand, for every call variant and nominal distance; the cache holds every pair of elements with a common vertex, and filling it never writes outside it.", "quantifier": "all grids, request patterns and cache contents", "why_tests_cant": "for-all request patterns.", "anchors": ["lib/fiber/default_local_assembler_for_integral_operators_on_surfaces_imp.hpp: cacheLocalWeakForms, evaluateLocalWeakForms"]}
{"id": "C49", "title": "Hermite interpolator stays in bounds, interpolates nodes, and has fourth-order accuracy", "statement": "For x in [start,end) evaluate reads only stored samples; at a node it returns the stored value; when the samples are those of a function with fourth derivative bounded by M the error is at most M h^4/384 (so cubics are reproduced). initialize accepts exactly equal-length data of at least two points with start < end.", "quantifier": "all sample vectors, functions and arguments", "why_tests_cant": "for-all x and data.", "anchors": ["lib/fiber/hermite_interpolator.hpp: HermiteInterpolator::initialize, evaluate"]}
{"id": "C50", "title": "Scattered ranges partition work under every split history", "statement": "Splitting a ScatteredRange any number of times in any order yields ranges that together visit every index begin, begin+step,.. of the original exactly once; splitting stops at the grain size.", "quantifier": "all ranges and all split trees", "why_tests_cant": "TBB chooses the splits at run time.", "anchors": ["lib/assembly/scattered_range.hpp: ScatteredRange"]}
{"id": "C51", "title": "Bounding boxes of dofs contain their support and reference point", "statement": "extendBoundingBox and the bounding boxes spaces report for their global dofs contain every point they were given (all corners of all elements of the dof's support), are the smallest such boxes, and contain the dof's reference point.", "quantifier": "all point sets", "why_tests_cant": "for-all geometry.", "anchors": ["lib/common/bounding_box_helpers.hpp: createBoundingBox, extendBoundingBox"]}
{"id": "C52", "title": "Discrete operator algebra matches matrix algebra", "statement": "For sums, differences, products, negatives and scalar multiples of discrete operators with fitting shapes, matvec, multiplication with arrays, shape and as_matrix agree with the matrix expression, and transpose() yields the transposed matrix (except for zero operators, for which it raises NotImplementedError).", "quantifier": "all expression trees of operators", "why_tests_cant": "Structural induction over expressions.", "anchors": ["python/bempp/api/assembly/discrete_boundary_operator.py: DiscreteBoundaryOperatorSum, Product, Scaled"]}
{"id": "C53", "title": "Adjoint of discrete operators is the conjugate transpose", "statement": "adjoint() and rmatvec of composite and dense discrete operators realise the conjugate transposed matrix.", "quantifier": "all expression trees incl. complex scalars", "why_tests_cant": "Complex scalars are rarely tested.", "anchors": ["python/bempp/api/assembly/discrete_boundary_operator.py: ScaledDiscreteBoundaryOperator._adjoint, _rmatvec, DenseDiscreteBoundaryOperator._rmatvec"]}
{"id": "C54", "title": "Blocked discrete operator acts as the block matrix", "statement": "A completed blocked discrete operator has shape (sum of row dims, sum of column dims), its matvec, products with arrays, as_matrix and single blocks [i,j] agree with the block matrix (missing blocks are zero), and so do sums, products and multiples of blocked operators with the sums, products and multiples of the block matrices; inconsistent dimensions and rows/columns without operator are rejected.", "quantifier": "all block layouts and vectors", "why_tests_cant": "for-all layouts.", "anchors": ["python/bempp/api/assembly/blocked_operator.py: BlockedDiscreteOperator"]}
{"id": "C55", "title": "Coefficient vectors of lists of grid functions round-trip", "statement": "grid_function_list_from_coefficients(coefficients_of_grid_function_list(fs)) returns functions with the same coefficients, and the i-th block starts at the sum of previous dof counts.", "quantifier": "all lists of grid functions", "why_tests_cant": "for-all lists.", "anchors": ["python/bempp/api/assembly/blocked_operator.py: coefficients_of_grid_function_list, grid_function_list_from_coefficients"]}
{"id": "C56", "title": "Weak form caching of boundary operators is invisible", "statement": "weak_form() and strong_form() of a boundary operator, with or without recompute, give the same operator whatever weak_form and strong_form calls (successful or not) and constructions were made before; a second weak_form() call returns the stored operator and changes nothing.", "quantifier": "all histories of constructions and calls", "why_tests_cant": "Property of call histories.", "anchors": ["python/bempp/api/assembly/boundary_operator.py: BoundaryOperator.weak_form, BoundaryOperator.strong_form"]}
{"id": "C57", "title": "Boundary operator calculus", "statement": "The weak form of A+B, c*A, A*B, dual products, transposes, adjoints, reinterpretations and projections is the sum, multiple, weak(A)*strong(B), strong(A)^H weak(B), ... of the discretisations, at any depth of nesting, with the spaces of the result as documented; operators whose spaces have different numbers of degrees of freedom are rejected; strong forms compose: strong(A*B)=strong(A)*strong(B).", "quantifier": "all operator expressions over spaces with fitting dof counts, all histories", "why_tests_cant": "for-all expressions.", "anchors": ["python/bempp/api/assembly/boundary_operator.py: _SumBoundaryOperator, _ProductBoundaryOperator, _ScaledBoundaryOperator, _DualProductBoundaryOperator, _TransposeBoundaryOperator, _AdjointBoundaryOperator, _ProjectionBoundaryOperator, _ReinterpretSpacesBoundaryOperator"]}
{"id": "C58", "title": "A default H-matrix bounding box is neutral for merge", "statement": "Merging a default-constructed box with a box gives the latter's bounds.", "quantifier": "every box", "why_tests_cant": "Fails only for boxes in the negative half space; for-all boxes.", "anchors": ["lib/hmat/bounding_box_impl.hpp: BoundingBox::BoundingBox, merge"]}
{"id": "C59", "title": "createBoundingBox's reference point is the midpoint of the box", "statement": "createBoundingBox sets the given bounds and a reference point that is the midpoint of the box, hence inside it.", "quantifier": "every box", "why_tests_cant": "for-all boxes.", "anchors": ["lib/common/bounding_box_helpers.hpp: createBoundingBox"]}
{"id": "C60", "title": "An octree's own interaction lists cover every pair of non-empty leaves", "statement": "With the emptiness flags of an octree constructed from a grid, two non-empty leaf boxes are neighbours (or equal), or exactly one level has the ancestor of one in the interaction list of the ancestor of the other.", "quantifier": "all grids, tree depths, leaf pairs", "why_tests_cant": "Needs the exact content of the per-level sets for every grid.", "anchors": ["lib/fmm/octree_impl.hpp: Octree::Octree, isEmpty", "lib/fmm/interaction_list_impl.hpp: InteractionList"]}
{"id": "C61", "title": "Octree leaf lists partition the elements", "statement": "getLeafCubeEntities over all leaves lists every element of the grid exactly once, in the leaf containing its centroid, in increasing order.", "quantifier": "all grids and depths", "why_tests_cant": "for-all over grids.", "anchors": ["lib/fmm/octree_impl.hpp: Octree::Octree, getLeafCubeEntities"]}
{"id": "C62", "title": "Extended octree cubes contain their elements", "statement": "The extended cube bounds of the leaf an element is assigned to contain every point of the element.", "quantifier": "all non-degenerate triangle grids, every element and point", "why_tests_cant": "Continuum of element shapes.", "anchors": ["lib/fmm/octree_impl.hpp: extendedCubeBounds, Octree::Octree", "lib/grid/concrete_grid_view.hpp: maximumElementDiameter"]}
{"id": "C63", "title": "Element diameter bounds of a grid view", "statement": "maximumElementDiameter/minimumElementDiameter are the largest/smallest element diameter, and an element's diameter is at least the length of each of its sides.", "quantifier": "all non-empty grids of non-degenerate triangles", "why_tests_cant": "Continuum of element shapes.", "anchors": ["lib/grid/concrete_grid_view.hpp: minimumElementDiameter, maximumElementDiameter"]}
{"id": "C64", "title": "Open domains on non-manifold edges of any valence", "statement": "openDomain(d) keeps an edge all of whose adjacent elements (two or more) belong to the domain, whatever their number.", "quantifier": "all grids and domain labels, including edges shared by hundreds of elements", "why_tests_cant": "A counter overflow shows only for meshes no test contains.", "anchors": ["lib/grid/grid_segment.cpp: GridSegment::openDomain"]}
{"id": "C65", "title": "Complement of a segment built from arbitrary excluded sets", "statement": "For a segment constructed from any four sets of integers, complement() contains exactly the in-range entities the segment does not contain.", "quantifier": "all sets of integers, including out-of-range indices", "why_tests_cant": "for-all over sets.", "anchors": ["lib/grid/grid_segment.cpp: GridSegment::complement, GridSegment::GridSegment"]}
{"id": "C66", "title": "Entity ids are unique and stable", "statement": "No two entities of a grid (elements, edges, vertices of the level) have the same id, and the id determines the entity.", "quantifier": "all triangle grids", "why_tests_cant": "for-all meshes.", "anchors": ["lib/grid/bempp_grid/triangle_imp/bempp_grid_data_container_impl.hpp: DataContainer::init, id"]}
{"id": "C67", "title": "Domain indices follow their elements through grid creation", "statement": "A grid created from a connectivity list and domain indices reports for every element the domain index given for it at insertion.", "quantifier": "all grids, insertion orders and domain index lists", "why_tests_cant": "for-all meshes.", "anchors": ["lib/grid/grid_factory.cpp: createGridFromConnectivityArrays", "lib/grid/concrete_grid.hpp: permuteInsertionDomainIndices"]}
{"id": "C68", "title": "Dense block requests with start behind end are rejected", "statement": "assembleDenseBlock rejects a row or column range whose start lies behind its end.", "quantifier": "all spaces and all integer ranges", "why_tests_cant": "for-all ranges; on most builds the wrong size is undefined behaviour rather than a visible failure.", "anchors": ["lib/assembly/dense_global_block_assembler.cpp: assembleDenseBlock"]}
{"id": "C69", "title": "The barycentric grid is handed out together with its complete son map", "statement": "Every call of barycentricGridSonPair, however calls interleave, returns the refined grid together with the completely filled father-to-son map.", "quantifier": "all numbers of threads and all interleavings", "why_tests_cant": "depends on the schedule; the window is too short for tests to hit.", "anchors": ["lib/grid/concrete_grid.hpp: barycentricGridSonPair"]}
{"id": "C70", "title": "The ray/triangle test stores the intersection point", "statement": "When zRayIntersectsTriangle reports an intersection, the position it stores is the point where the ray meets the triangle.", "quantifier": "all points and triangles", "why_tests_cant": "for-all real inputs.", "anchors": ["lib/grid/ray_triangle_intersection.cpp: zRayIntersectsTriangle"]}
{"id": "C71", "title": "The ray/triangle test detects and classifies intersections", "statement": "zRayIntersectsTriangle returns a positive number iff the upward ray meets the triangle (beyond the tolerance, for triangles not nearly vertical); it returns 1/6 iff it meets a vertex, 1 iff it meets the interior, 1/2 otherwise; the meeting point is unique.", "quantifier": "all points and triangles", "why_tests_cant": "for-all real inputs including degenerate positions.", "anchors": ["lib/grid/ray_triangle_intersection.cpp: zRayIntersectsTriangle"]}
{"id": "C72", "title": "RWG dofs live on exactly two elements in every mode", "statement": "Whatever the dof mode and the edge valences, each RWG dof (without boundary dofs) is attached to exactly two elements with weights of equal magnitude and opposite sign.", "quantifier": "all grids, segments and modes", "why_tests_cant": "for-all meshes including branching edges.", "anchors": ["lib/space/rwg_vector_space.cpp: assignDofsImpl"]}
{"id": "C73", "title": "Piecewise constant flat local dofs on segments", "statement": "On any segment, flatLocalDofCount of the piecewise constant space equals the number of local dofs that carry a global dof, and the global-to-flat mapping can be built.", "quantifier": "all grids and segments", "why_tests_cant": "for-all segments.", "anchors": ["lib/space/piecewise_constant_scalar_space.cpp: assignDofsImpl, flatLocalDofCount", "lib/space/space.cpp: constructGlobalToFlatLocalDofsMappingVectors"]}
{"id": "C74", "title": "The global-to-flat matrix carries the dof weights for every space", "statement": "For every space the entry of the global-to-flat-local matrix is the weight of the local dof, so that the product with a coefficient vector gives the local coefficients.", "quantifier": "all spaces with consistent dof maps", "why_tests_cant": "for-all dof maps.", "anchors": ["lib/space/space.cpp: constructGlobalToFlatLocalDofsMappingVectors"]}
{"id": "C75", "title": "Sparse operators built with CONJUGATE", "statement": "A sparse discrete operator constructed with transposition mode CONJUGATE acts as the (conjugate of the) stored matrix.", "quantifier": "all matrices and vectors", "why_tests_cant": "for-all matrices.", "anchors": ["lib/assembly/discrete_sparse_boundary_operator.cpp: isTransposed"]}
{"id": "C76", "title": "Sparse assembly of complex local operators", "statement": "For complex result types the sparse-mode matrix of a local operator equals the dense-mode one.", "quantifier": "all spaces and local matrices", "why_tests_cant": "for-all inputs.", "anchors": ["lib/assembly/elementary_local_operator.cpp: generateTriplets"]}
{"id": "C77", "title": "The discrete operator cache under concurrency", "statement": "Concurrent getWeakForm calls never return null and always return the right weak form.", "quantifier": "all interleavings of calls and of callers dropping their operators", "why_tests_cant": "depends on schedules.", "anchors": ["lib/assembly/discrete_boundary_operator_cache.cpp: getWeakForm"]}
{"id": "C78", "title": "aliveOperators lists the live cached operators", "statement": "aliveOperators returns exactly the cached operators that are still alive.", "quantifier": "all histories", "why_tests_cant": "for-all histories.", "anchors": ["lib/assembly/discrete_boundary_operator_cache.cpp: aliveOperators"]}
{"id": "C79", "title": "Operators with equal ids share the cached weak form", "statement": "A request for an operator whose id equals (by content) that of a live cached operator returns the cached one.", "quantifier": "all histories and operators", "why_tests_cant": "depends on the memory addresses of the id objects.", "anchors": ["lib/assembly/discrete_boundary_operator_cache.cpp: AbstractBoundaryOperatorIdHash, getWeakForm"]}
{"id": "C80", "title": "In-place addition rejects arrays of different extents", "statement": "operator+= throws when the extents of the two arrays differ.", "quantifier": "all arrays", "why_tests_cant": "for-all extents.", "anchors": ["lib/fiber/_2d_array_imp.hpp: operator+=", "lib/fiber/_3d_array_imp.hpp: operator+=", "lib/fiber/_4d_array_imp.hpp: operator+="]}
{"id": "C81", "title": "Array storage is managed safely", "statement": "No sequence of constructions (own or client memory), copies, assignments, resizings and destructions of arrays frees memory twice, frees a client's memory or touches freed memory; every array has live storage for its whole extent, no two arrays own the same memory, and nothing leaks once all arrays are destroyed.", "quantifier": "all histories of array operations", "why_tests_cant": "depends on histories.", "anchors": ["lib/fiber/_2d_array_imp.hpp: set_size, init_memory, free_memory", "lib/fiber/_3d_array_imp.hpp: set_size, init_memory, init_empty, free_memory", "lib/fiber/_4d_array_imp.hpp: set_size, init_memory, free_memory"]}
{"id": "C82", "title": "The Hermite interpolator may be evaluated on its whole closed range", "statement": "evaluate(x) for x in [rangeStart(), rangeEnd()], both ends included (the documented assertion), reads only stored samples.", "quantifier": "all sample vectors and arguments", "why_tests_cant": "for-all x including the end point.", "anchors": ["lib/fiber/hermite_interpolator.hpp: HermiteInterpolator::evaluate"]}
{"id": "C83", "title": "maxDistance bounds all distances", "statement": "No point of an element of the first grid is further from a point of an element of the second grid than maxDistance(grid1, grid2).", "quantifier": "all grids with flat elements, all points", "why_tests_cant": "for-all grids and points.", "anchors": ["lib/grid/max_distance.cpp: maxDistance", "lib/grid/grid.cpp: Grid::getBoundingBox"]}
{"id": "C84", "title": "Kernels can be interpolated for every wave number", "statement": "For every wave number, sampling density and pair of grids the interpolated exponential can be set up, and at the distance of any two points of the grids it is evaluated in bounds with error at most (k h)^4/384.", "quantifier": "all wave numbers k >= 0, sampling densities, grids and pairs of points", "why_tests_cant": "for-all parameters.", "anchors": ["lib/fiber/initialize_interpolator_for_modified_helmholtz_3d_kernels.cpp: initializeInterpolatorForModifiedHelmholtz3dKernels", "lib/operators/modified_helmholtz_operators_imp.hpp"]}
{"id": "C85", "title": "Duffy transformations are exact changes of variables", "statement": "For coincident, edge- and vertex-adjacent elements the region maps send the open parameter cube into the interior of element x element, almost every pair of interior points is hit by exactly one region and one parameter point, and the weight of a region is the modulus of the Jacobian determinant of its map; hence constants are integrated exactly whenever the tensor rule is exact for cubics.", "quantifier": "all shapes, adjacency types, regions and points of the four-dimensional cube", "why_tests_cant": "for-all points of a four-dimensional domain; a wrong sign or permutation only degrades accuracy.", "anchors": ["lib/fiber/quadrature/galerkinduffy.hpp: GalerkinDuffyExpression::getPointX, getPointY, getWeight", "lib/fiber/numerical_quadrature.cpp: fillDoubleSingularQuadraturePointsAndWeights"]}
{"id": "C86", "title": "Singular rules never evaluate the kernel at coinciding points", "statement": "For two triangles sharing a vertex, an edge or everything, with tensor rule points inside the open unit square, the pairs of physical points of the singular rule never coincide, provided the triangles are non-degenerate and different triangles do not overlap.", "quantifier": "all element pairs, vertex orders, geometries and rules", "why_tests_cant": "for-all geometries and local numberings; one division by zero poisons the matrix.", "anchors": ["lib/fiber/numerical_quadrature.cpp: fillDoubleSingularQuadraturePointsAndWeights", "lib/fiber/element_pair_topology.hpp: determineElementPairTopologyIn3D"]}
{"id": "C87", "title": "Quadrature orders of an element pair", "statement": "Elements of one grid with a common vertex get a singular rule whose orders are the singular option applied to (element order + 5), whatever the distance options and the nominal distance; all other pairs, in particular elements of different grids, get a regular rule whose orders are the option of the narrowest bracket covering the normalised distance (centre distance over the larger element size, or the nominal distance over the average element size), applied to the element orders; exchanging the elements exchanges the orders.", "quantifier": "all grids, element pairs, accuracy options and nominal distances", "why_tests_cant": "for-all geometries and option lists; a wrong order only degrades accuracy.", "anchors": ["lib/fiber/default_quadrature_descriptor_selector_for_integral_operators.cpp: quadratureDescriptor, regularOrder, singularOrder, elementDistanceSquared", "lib/fiber/default_local_assembler_for_operators_on_surfaces_utilities.cpp: elementSizeSquared, elementCenter, averageElementSize"]}
{"id": "C88", "title": "Operands of the wrong size are rejected by discrete operators", "statement": "Sums of discrete operators with different shapes, products with different inner dimensions, and the application to an array with the wrong number of rows raise an exception.", "quantifier": "all operators and arrays", "why_tests_cant": "All pairs of operator types and sizes.", "anchors": ["python/bempp/api/assembly/discrete_boundary_operator.py: DiscreteBoundaryOperator, DenseDiscreteBoundaryOperator.__add__, ZeroDiscreteBoundaryOperator._matvec"]}
{"id": "C89", "title": "Operands of the wrong size are rejected by blocked discrete operators", "statement": "Sums of blocked discrete operators with different block dimensions, products with different inner block dimensions, and the application to an array with the wrong number of rows raise an exception.", "quantifier": "all blocked operators and arrays", "why_tests_cant": "All layouts and sizes.", "anchors": ["python/bempp/api/assembly/blocked_operator.py: BlockedDiscreteOperatorBase.__add__, BlockedDiscreteOperatorBase.__mul__, BlockedDiscreteOperator._matvec"]}
{"id": "C90", "title": "Boundary operators on incompatible spaces are rejected", "statement": "Adding boundary operators with different domain, range or dual spaces, or multiplying operators whose inner spaces differ, raises an exception at construction.", "quantifier": "all pairs of operators and spaces, including spaces on segments of a grid", "why_tests_cant": "All pairs of spaces.", "anchors": ["python/bempp/api/assembly/boundary_operator.py: _SumBoundaryOperator, _ProductBoundaryOperator", "python/bempp/api/space/space.py: Space.is_compatible", "lib/space/adaptive_space_impl.hpp: AdaptiveSpace::spaceIsCompatible"]}
{"id": "C91", "title": "Caching of blocked operators is invisible", "statement": "weak_form() and strong_form() of a blocked operator, a sum, multiple or product of blocked operators always discretise its present blocks, whatever was discretised before; assigning a block later takes effect at the next call, at least with recompute=True.", "quantifier": "all programs that create, combine, modify and discretise blocked operators", "why_tests_cant": "All histories of assignments and cached discretisations.", "anchors": ["python/bempp/api/assembly/blocked_operator.py: BlockedOperatorBase.weak_form, BlockedOperatorBase.strong_form, BlockedOperator.__setitem__, SumBlockedOperator, ProductBlockedOperator, ScaledBlockedOperator"]}
{"id": "C92", "title": "Strong forms and products of blocked operators", "statement": "The strong form of a blocked operator with m x n blocks is the block diagonal matrix of the m inverse mass matrices times the weak form, and the product of an l x m and an m x n operator has the weak form weak(A) strong(B).", "quantifier": "all blocked operators, square or not", "why_tests_cant": "All block layouts, spaces and histories.", "anchors": ["python/bempp/api/assembly/blocked_operator.py: BlockedOperatorBase.strong_form, ProductBlockedOperator._weak_form_impl"]}
{"id": "C93", "title": "Grid functions behave as values", "statement": "The coefficients of a grid function, and its projections onto any dual space, are determined by how it was created: reading coefficients or projections in between, in any order, changes neither these nor the functions computed from it (sums, differences, multiples, products with operators), including their dual spaces.", "quantifier": "all programs that create, combine and read grid functions", "why_tests_cant": "All orders of lazily cached reads.", "anchors": ["python/bempp/api/assembly/grid_function.py: GridFunction.coefficients, GridFunction.projections, GridFunction.__add__, GridFunction.__mul__, GridFunction.__sub__"]}
{"id": "C94", "title": "Operators act on grid functions as their discretisations", "statement": "A*f is a function in the range space of A whose projections onto the dual space are weak(A) times the coefficients of f and whose coefficients are strong(A) times them; (A*B)*f and A*(B*f) agree; a blocked operator maps a list of functions to the list with projections sum_j A_kj f_j.  Other functions are not affected.", "quantifier": "all operator expressions, all functions of a program, all block layouts", "why_tests_cant": "for-all expressions, functions and layouts.", "anchors": ["python/bempp/api/assembly/boundary_operator.py: BoundaryOperator.__mul__", "python/bempp/api/assembly/blocked_operator.py: BlockedOperatorBase.__mul__"]}
{"id": "C95", "title": "Operators reject functions from other spaces", "statement": "Applying an operator to a grid function, or a blocked operator to a list of grid functions, raises an exception unless the functions are in spaces on the grid and of the kind of the domain spaces.", "quantifier": "all operators, functions and lists", "why_tests_cant": "All pairs of spaces.", "anchors": ["python/bempp/api/assembly/boundary_operator.py: BoundaryOperator.__mul__", "python/bempp/api/assembly/blocked_operator.py: BlockedOperatorBase.__mul__"]}
{"id": "C96", "title": "Blocks of a row or column share their spaces", "statement": "After any history, all blocks assigned in a row of a blocked operator have the recorded range and dual space of the row and all blocks of a column the recorded domain space; assigning a block changes this block only; a block whose spaces disagree is rejected and nothing changes.", "quantifier": "all programs that create, combine, modify and discretise blocked operators", "why_tests_cant": "All histories of assignments.", "anchors": ["python/bempp/api/assembly/blocked_operator.py: BlockedOperator.__setitem__"]}
{"id": "C97", "title": "Tensor quadrature on a pair of elements is the double sum", "statement": "For every rule, any number of shape functions, transformations and components and one scalar kernel per transformation (one shared kernel with BLAS), the local matrix computed with a tensor-product rule has as entry (f, g) the double sum over test and trial points of weights, integration elements, kernel values and conjugated test times trial values, with BLAS (either order of multiplication) and with the generic loops.", "quantifier": "all element data, rules, transformations and kernels", "why_tests_cant": "Sizes, orders of multiplication and memory layouts are unbounded.", "anchors": ["lib/fiber/typical_test_scalar_kernel_trial_integral.cpp: evaluateWithTensorQuadratureRuleImpl", "lib/fiber/default_test_kernel_trial_integral_imp.hpp: evaluateWithTensorQuadratureRule", "lib/fiber/test_scalar_kernel_trial_integrand_functor.hpp: evaluate"]}
{"id": "C98", "title": "Quadrature with point pairs is the sum over the pairs", "statement": "The same for rules given by pairs of points (singular integrals), including the variant that integrates the real and imaginary parts of a complex kernel separately for real basis functions.", "quantifier": "all element data, rules, transformations, kernels and scalar types", "why_tests_cant": "Sizes and layouts are unbounded; real and complex variants differ.", "anchors": ["lib/fiber/typical_test_scalar_kernel_trial_integral.cpp: evaluateWithNontensorQuadratureRule, evaluateWithNontensorQuadratureRuleStandardImpl", "lib/fiber/default_test_kernel_trial_integral_imp.hpp: evaluateWithNontensorQuadratureRule"]}
{"id": "C99", "title": "One kernel can be shared by several transformations", "statement": "The integral of a sum over several transformations with a single kernel is defined, with that kernel in every term, for all scalar types.", "quantifier": "all element data, rules, transformations and scalar types", "why_tests_cant": "The offending combination of scalar types and counts is not exercised by the shipped operators.", "anchors": ["lib/fiber/test_scalar_kernel_trial_integrand_functor.hpp: evaluate", "lib/fiber/typical_test_scalar_kernel_trial_integral.cpp: TypicalTestScalarKernelTrialIntegral"]}
{"id": "C100", "title": "BLAS in quadrature does not change local matrices", "statement": "For the Laplace and modified Helmholtz single layer, double layer, adjoint double layer and hypersingular operators, every setting of the BLAS option and all shapeset orders give the local matrix of the operator's bilinear form under the quadrature rule: kernel times values, kernel times surface curls, and for modified Helmholtz kernel times surface curls plus wave number squared times kernel times normals times values.", "quantifier": "all settings, orders, geometries, bases, wave numbers, kernels, rules and scalar types", "why_tests_cant": "Two different sets of transformations and kernels must agree for all data.", "anchors": ["lib/operators/modified_helmholtz_operators_imp.hpp: modifiedHelmholtzHypersingularBoundaryOperator", "lib/operators/laplace_operators_imp.hpp", "lib/fiber/modified_helmholtz_3d_hypersingular_integrand_functor_2.hpp: evaluate", "lib/fiber/surface_curl_3d_functor.hpp: evaluate"]}
{"id": "C101", "title": "Continuous polynomial spaces of any order", "statement": "On a triangulation, for every order from 1 to 10, segment and value of strictlyOnSegment: the local dofs of each element are its Lagrange nodes; a local dof is active iff the vertex, edge or element containing the node is on the segment (and, if strict, the element is); two active local dofs belong to the same global dof iff they sit at the same point of the surface (continuity); all dof maps are mutually consistent and every global dof is used. Other orders are refused.", "quantifier": "all conforming triangulations, segments, orders and flags", "why_tests_cant": "Grids, vertex numberings (orientation of shared edges) and orders are unbounded in combination.", "anchors": ["lib/space/piecewise_polynomial_continuous_scalar_space.cpp: initialize, assignDofsImpl", "lib/space/space_helper.cpp: initializeLocal2FlatLocalDofMap"]}
{"id": "C102", "title": "Discontinuous polynomial spaces of any order", "statement": "On a triangulation, for every order from 0 to 10, segment and dof mode: every global dof belongs to exactly one local dof, the local dofs of an element are its Lagrange nodes, a local dof is active iff the element is on the segment (mode element on segment) and the vertex, edge or element of its node is (mode reference point on segment). Without a mode or for other orders the constructor throws.", "quantifier": "all conforming triangulations, segments, orders and modes", "why_tests_cant": "Grids and segments are unbounded.", "anchors": ["lib/space/piecewise_polynomial_discontinuous_scalar_space.cpp: initialize, assignDofsImpl"]}
{"id": "C103", "title": "The discontinuous space contains the continuous one", "statement": "For a continuous polynomial space created from Python with any order 1 to 10, domains, closed and strictly_on_segment, discontinuous_space and super_space exist, are discontinuous, and contain every function of the space.", "quantifier": "all triangulations, orders, domain sets and flags", "why_tests_cant": "The dof modes are derived from the flags by hand; all combinations and domain shapes matter.", "anchors": ["python/bempp/api/space/space.py: ContinuousPolynomialSpace", "cython/bempp/core/space/space.pyx: function_space", "lib/grid/grid_segment.cpp: AdaptiveGridSegmentFactory::update"]}
{"id": "C104", "title": "Flat local dof data of discontinuous spaces", "statement": "Position, bounding box and normal reported for flat local dof number i of a discontinuous polynomial space are those of the local dof with that flat number.", "quantifier": "all triangulations, segments, modes and orders", "why_tests_cant": "Numberings for all orders.", "anchors": ["lib/space/piecewise_polynomial_discontinuous_scalar_space.cpp: getFlatLocalDofPositions, getFlatLocalDofBoundingBoxes, getFlatLocalDofNormals, flatLocal2localDofs"]}
{"id": "C105", "title": "Normal components of Raviart-Thomas and RWG functions are continuous", "statement": "For every function of the default RT and RWG spaces on any segment of a triangulation with at most two triangles per edge, the outward normal components that evaluate returns on the two sides of an edge cancel, at all points of the edge; they vanish on edges outside the segment and on boundary edges. The coefficient of an edge is, up to sign, its total flux (RT) or its normal component (RWG).", "quantifier": "all triangulations in space, segments, coefficient vectors, edges and points", "why_tests_cant": "Meshes, orientations and coefficients are unbounded; a sign error shows up only for some numberings of the elements.", "anchors": ["lib/space/rwg_vector_space.cpp: assignDofsImpl", "lib/space/raviart_thomas_0_vector_space.cpp: assignDofsImpl", "lib/fiber/hdiv_function_value_functor.hpp: evaluate", "cython/bempp/core/space/local_evaluator.hpp: evaluateLocalBasis", "python/bempp/api/assembly/grid_function.py: GridFunction.evaluate"]}
{"id": "C106", "title": "Surface divergence", "statement": "The divergence computed for vector-valued functions is the divergence in the tangential plane of the function on the surface, in any orthonormal basis; for a Raviart-Thomas basis function it is one over the area of the element, in balance with its flux.", "quantifier": "all triangles in space, differentiable reference functions, points and bases", "why_tests_cant": "An identity between derivatives for all geometries.", "anchors": ["lib/fiber/surface_div_3d_functor.hpp: evaluate", "lib/fiber/hdiv_function_value_functor.hpp: evaluate", "lib/fiber/raviart_thomas_0_shapeset.hpp"]}
{"id": "C107", "title": "Nedelec functions", "statement": "Functions of the Nedelec spaces are the Raviart-Thomas (RWG) functions with the same coefficients turned by the element normal. Their tangential components agree on both sides of an edge of equally oriented triangles and vanish on edges without a dof. The computed surface curl is the normal component of the curl, and for basis functions equals the divergence of the Raviart-Thomas function.", "quantifier": "all triangulations in space, segments, coefficient vectors, edges, points and reference functions", "why_tests_cant": "Meshes and coefficients are unbounded; derivatives in space for all geometries.", "anchors": ["lib/fiber/nedelec_0_shapeset.hpp: evaluate", "lib/fiber/hcurl_function_value_functor.hpp: evaluate", "lib/fiber/hcurl_surface_curl_functor.hpp: evaluate", "lib/space/nedelec_0_vector_space.cpp", "lib/space/scaled_nedelec_0_vector_space.cpp"]}
{"id": "C108", "title": "Normals, surface gradient and surface curl", "statement": "The normal of a triangle is the one unit vector orthogonal to it for which the corners run anticlockwise. The surface gradient is tangential and its component in every tangential direction is the derivative of the function in that direction; the surface curl is the gradient turned by the normal.", "quantifier": "all triangles in space, differentiable functions, points and directions", "why_tests_cant": "Real-valued geometry.", "anchors": ["lib/grid/concrete_geometry.hpp: calculateNormals", "lib/fiber/surface_grad_3d_functor.hpp: evaluate", "lib/fiber/surface_curl_3d_functor.hpp: evaluate"]}
{"id": "C109", "title": "Functions of continuous scalar spaces are continuous", "statement": "A grid function in a continuous scalar space (order 1 to 10, any domains, closed and strictly_on_segment) takes the same value at a point of the surface whichever element it is evaluated on: for spaces that are not strict on all elements, for strict ones among elements of the segment, and it is zero on the others. The value at a Lagrange node is the coefficient of the node's dof.", "quantifier": "all triangulations, orders, segments, coefficients, pairs of elements and shared points", "why_tests_cant": "Polynomials of ten degrees on unbounded meshes with every relative orientation of neighbours.", "anchors": ["lib/fiber/lagrange_scalar_shapeset.hpp: evaluate", "lib/fiber/linear_scalar_shapeset.hpp: evaluate", "lib/space/piecewise_polynomial_continuous_scalar_space.cpp: assignDofsImpl", "cython/bempp/core/space/local_evaluator.hpp: evaluateLocalBasis", "python/bempp/api/assembly/grid_function.py: GridFunction.evaluate"]}
{"id": "C110", "title": "evaluate_on_vertices returns the function's vertex values", "statement": "GridFunction.evaluate_on_vertices of a function in a continuous space returns for every vertex of the segment the value of the function there.", "quantifier": "all triangulations, segments, flags and coefficients", "why_tests_cant": "Depends on the iteration order over elements.", "anchors": ["python/bempp/api/assembly/grid_function.py: GridFunction.evaluate_on_vertices"]}
{"id": "C111", "title": "GridFunction.integrate returns the integral", "statement": "GridFunction.integrate returns, for every component, the quadrature sum over the elements of values times weights times integration elements.", "quantifier": "all grids, functions, rules and numbers of components", "why_tests_cant": "Shapes and dtypes of arrays for all kinds of function.", "anchors": ["python/bempp/api/assembly/grid_function.py: GridFunction.integrate"]}
{"id": "C112", "title": "Kernels are the fundamental solution and its derivatives", "statement": "Off the diagonal, each kernel of the Laplace, (modified) Helmholtz and Maxwell operators has the value of exp(-k|x-y|)/(4 pi |x-y|), its normal derivative in y (double layer), in x (adjoint), minus the second normal derivative (hypersingular), its gradient (Maxwell, potential gradients) or the multiples with k and 1/k, for every complex wave number; Laplace is k = 0; single layer and hypersingular kernels are symmetric and the adjoint kernel is the double layer kernel with points exchanged; no kernel reads geometrical data it did not request.", "quantifier": "all complex wave numbers, all pairs of distinct points, all normals", "why_tests_cant": "An identity between functions of several real variables.", "anchors": ["lib/fiber/laplace_3d_*_kernel_functor.hpp: evaluate", "lib/fiber/modified_helmholtz_3d_*_kernel_functor.hpp: evaluate", "lib/fiber/modified_maxwell_3d_*_kernel_functor.hpp: evaluate"]}
{"id": "C113", "title": "Evaluated potentials solve the differential equation", "statement": "The functions returned by the potential operators (Laplace, modified Helmholtz, Helmholtz single and double layer, electric and magnetic field, single layer gradient), as functions of the evaluation point, satisfy their equation (Laplace u = k^2 u, -k^2 u or 0) exactly away from the quadrature points, for every density, mesh and quadrature rule; the gradient operators return the gradient of the potentials; the magnetic field is free of divergence; potentials are additive over the elements.", "quantifier": "all wave numbers, densities, quadrature points, weights and evaluation points off the quadrature points", "why_tests_cant": "A differential identity at all points.", "anchors": ["lib/fiber/default_kernel_trial_integral_imp.hpp: evaluate", "lib/fiber/default_evaluator_for_integral_operators_imp.hpp: evaluate", "lib/operators/*_potential_operator.cpp", "python/bempp/api/operators/potential"]}
{"id": "C114", "title": "Far field operators are the limits of the potentials", "statement": "For every unit direction x, the Helmholtz and Maxwell far field operators return the limit of r exp(-ikr) u(r x) as r grows, u being the corresponding potential of the same density.", "quantifier": "all complex wave numbers (nonzero for the electric field), unit directions, densities, meshes and rules", "why_tests_cant": "A limit.", "anchors": ["lib/fiber/modified_helmholtz_3d_far_field_*_kernel_functor.hpp: evaluate", "lib/fiber/modified_maxwell_3d_far_field_*_kernel_functor.hpp: evaluate", "python/bempp/api/operators/far_field"]}
{"id": "C115", "title": "Helmholtz operators use the outgoing fundamental solution", "statement": "The Helmholtz operators with wave number k have the kernel exp(ik|x-y|)/(4 pi |x-y|); its modulus is that of the Laplace kernel times exp(-Im k |x-y|).", "quantifier": "all complex wave numbers and pairs of distinct points", "why_tests_cant": "A sign convention checked for all complex numbers.", "anchors": ["python/bempp/api/operators/boundary/helmholtz.py: single_layer", "python/bempp/api/operators/potential/helmholtz.py: single_layer"]}
{"id": "C116", "title": "Local matrices do not depend on how they are computed", "statement": "Every local matrix a numerical integrator of the test-kernel-trial kind writes is the matrix of its own pair of elements: it is the same for both call variants and for lists of pairs, with or without cached geometrical data, whatever else is in the batch and whatever earlier calls left in the thread's scratch data; calls whose number of results does not match the number of elements are rejected.", "quantifier": "all integrators, element lists, shapesets, dof selections, cache settings and histories of the thread-local data", "why_tests_cant": "Dependence on scratch data left by an arbitrary history.", "anchors": ["lib/fiber/separable_numerical_test_kernel_trial_integrator_imp.hpp: integrateCpu, precalculateGeometricalData", "lib/fiber/nonseparable_numerical_test_kernel_trial_integrator_imp.hpp: integrate"]}
{"id": "C117", "title": "The shared basis data of the nonseparable integrator is thread safe", "statement": "For any number of threads and any interleaving, every basis data object handed out is alive and holds the values of its shapeset, all calls for a shapeset get the same object, nothing is deleted twice or leaked, and the local matrices are those of their pairs.", "quantifier": "all numbers of threads, shapesets and interleavings", "why_tests_cant": "Race between lookup and insertion.", "anchors": ["lib/fiber/nonseparable_numerical_test_kernel_trial_integrator_imp.hpp: basisData, integrate, ~NonseparableNumericalTestKernelTrialIntegrator"]}
{"id": "C118", "title": "The three ways of integrating potentials agree", "statement": "Integrating a potential for many points and one element, one point and many elements, or pairs of points and elements gives the same local matrix for each point and element; a selected component is that row of it.", "quantifier": "all points, elements, shapesets, dof selections and kernels that ask for positions only at the evaluation point", "why_tests_cant": "All batches.", "anchors": ["lib/fiber/numerical_kernel_trial_integrator_imp.hpp: integrate"]}
{"id": "C119", "title": "Space preprocessing does not change an operator", "statement": "A boundary operator asked for between given spaces has these spaces and, as weak form, the Galerkin matrix of its bilinear form for the basis functions of the domain and the dual space, whether it is assembled directly (dense or use_projection_spaces=False), on the super spaces followed by projections, or on the non-barycentric versions of the spaces; projecting an operator to subspaces gives the Galerkin matrix for the subspaces.", "quantifier": "all spaces contained in super spaces with invertible mass matrix, all forms, all option settings and all programs executed before", "why_tests_cant": "Ranges over all spaces and forms.", "anchors": ["python/bempp/api/operators/boundary/_common.py: get_operator_with_space_preprocessing, get_wave_operator_with_space_preprocessing", "python/bempp/api/space/projection.py: project_operator, rewrite_operator_spaces", "python/bempp/api/assembly/boundary_operator.py: _ProjectionBoundaryOperator"]}
{"id": "C120", "title": "The hypersingular operator does not depend on use_slp", "statement": "hypersingular(...) with use_slp=False, use_slp=True or a given single layer operator has the same weak form: the Galerkin matrix of the form that sums the single layer form over the components of the surface curls (and, for wave problems, the squared wave number times that of the functions times the normal).", "quantifier": "all domain, range and dual spaces whose curls (and multiples by the normal) belong to the space of the single layer operator, all wave numbers", "why_tests_cant": "Ranges over all spaces and forms.", "anchors": ["python/bempp/api/operators/boundary/laplace.py: hypersingular", "python/bempp/api/operators/boundary/modified_helmholtz.py: hypersingular"]}
{"id": "C121", "title": "Blocks of multitrace operators", "statement": "Block (0,0), (0,1), (1,0), (1,1) of a multitrace operator is minus the double layer, the single layer, the hypersingular and the adjoint double layer operator, with weak form the Galerkin matrix for the trial functions of the column and the test functions of the row, for linear and dual spaces, on one grid or from a grid to another; range and dual space agree along rows, the domain along columns; single layer and hypersingular pairs likewise.", "quantifier": "all grids, spaces and wave numbers", "why_tests_cant": "Ranges over all spaces and forms.", "anchors": ["python/bempp/api/operators/boundary/_common.py: multitrace_operator_impl, multitrace_operator_impl_lin, multitrace_operator_impl_dual, slp_and_hyp_impl"]}
{"id": "C122", "title": "function_space returns the space asked for", "statement": "function_space(grid, kind, order, ...) succeeds exactly for the documented kinds and orders (and restriction to domains where this is supported) and then returns a space of that kind, order and part of the grid; any other call raises an error.", "quantifier": "all grids, kinds, orders and options", "why_tests_cant": "Ranges over all arguments.", "anchors": ["python/bempp/api/space/space.py: function_space and the classes of spaces", "cython/bempp/core/space/space.pyx: function_space"]}
{"id": "C123", "title": "Super space, discontinuous space, non-barycentric space", "statement": "For every space: grid and is_barycentric tell on which grid it lives; its super space and its discontinuous space exist, live on the same grid and the same domains, are not barycentric, and are their own super/discontinuous spaces; its non-barycentric space, where has_non_barycentric_space says so, has the corresponding kind, order and domains on the original grid; curl-conforming spaces know the divergence-conforming space of the same grid and domains.", "quantifier": "all arguments for which function_space succeeds", "why_tests_cant": "Ranges over all arguments.", "anchors": ["python/bempp/api/space/space.py: DiscontinuousPolynomialSpace ... RotatedBuffaChristiansenSpace"]}
{"id": "C124", "title": "Equal spaces are the same spaces", "statement": "Spaces (from function_space or attributes of such) that compare equal consist of the same functions: same grid, kind, order, options and set of domains; spaces from equal arguments compare equal, whatever the order of the domains; and the order or repetition of domains does not influence the part of the grid.", "quantifier": "all arguments of function_space, all chains of attributes, all domain lists", "why_tests_cant": "Ranges over all arguments and chains of attributes.", "anchors": ["python/bempp/api/space/space.py: Space.__eq__, function_space", "lib/grid/grid_segment.cpp: openDomain, closedDomain"]}
{"id": "C125", "title": "Linear functions on the barycentric refinement are the linear functions of the grid", "statement": "The spaces B-P and B-DP of order 1 have as many dofs as P and DP of order 1, and the function with given coefficients has the same value at every physical point as the function of P (DP) with these coefficients: the sons of an element are the six triangles corner, edge midpoint, centre, they cover it, the son map numbers them, and each son carries the coefficients of its father.", "quantifier": "all triangular grids, numberings of the refined elements, coefficient vectors and points", "why_tests_cant": "Ranges over all grids and points.", "anchors": ["lib/space/piecewise_linear_continuous_scalar_space_barycentric.cpp: assignDofsImpl", "lib/space/piecewise_linear_discontinuous_scalar_space_barycentric.cpp: assignDofsImpl", "lib/fiber/linear_scalar_shapeset_barycentric.hpp", "lib/grid/concrete_grid.hpp: barycentricSonMap"]}
{"id": "C126", "title": "Vector functions on the barycentric refinement are those of the grid", "statement": "The spaces B-RT, B-RWG, B-NC and B-SNC have as many dofs as the spaces without B-, and functions with the same coefficients have the same value at every physical point.", "quantifier": "all triangular grids, numberings of the refined elements, coefficient vectors and points", "why_tests_cant": "Ranges over all grids and points.", "anchors": ["lib/space/raviart_thomas_0_vector_space_barycentric.cpp: assignDofsImpl", "lib/space/rwg_vector_space_barycentric.cpp: assignDofsImpl", "lib/space/nedelec_0_vector_space_barycentric.cpp: assignDofsImpl", "lib/space/scaled_nedelec_0_vector_space_barycentric.cpp: assignDofsImpl", "lib/fiber/raviart_thomas_0_shapeset_barycentric.hpp", "lib/fiber/nedelec_0_shapeset_barycentric.hpp"]}
{"id": "C127", "title": "Piecewise constant functions on dual cells and fathers", "statement": "A function of the space DUAL has, on every fine triangle that touches vertex v, the coefficient of v as its value, one dof per vertex; a function of the piecewise constants on the refinement has on all six sons of an element the coefficient of that element.", "quantifier": "all triangular grids, numberings of the refined elements and coefficient vectors", "why_tests_cant": "Ranges over all grids.", "anchors": ["lib/space/piecewise_constant_dual_grid_scalar_space.cpp: assignDofsImpl", "lib/space/piecewise_constant_scalar_space_barycentric.cpp: assignDofsImpl"]}
{"id": "C128", "title": "Buffa-Christiansen functions are the dual functions of the edges", "statement": "On an oriented surface the space BC has one dof per edge between two triangles. Its function has, through every side of every triangle of the barycentric refinement, the flux that defines the Buffa-Christiansen function of that edge: outflow 1/(2N) from each of the 2N fine triangles round the edge's one end, inflow at the other, flux 1/2 through each dual half edge of the edge, none elsewhere except through the boundary edges at its ends. Normal components cancel across all edges of the refinement for all coefficient vectors, and the functions of RBC are those of BC turned by a right angle.", "quantifier": "all oriented triangulated surfaces with or without boundary, all numberings and iteration orders, coefficient vectors and points", "why_tests_cant": "Ranges over all surfaces, vertex valences and numberings.", "anchors": ["lib/space/buffa_christiansen_vector_space.cpp: assignDofsImpl", "lib/space/rotated_buffa_christiansen_vector_space.cpp: assignDofsImpl", "lib/fiber/buffa_christiansen_shapeset.hpp", "lib/fiber/rotated_buffa_christiansen_shapeset.hpp"]}
{"id": "C129", "title": "Building a Buffa-Christiansen space ends on every grid", "statement": "Constructing a space BC or RBC ends on every triangular grid, with a space or with an exception that reports a bad mesh.", "quantifier": "all grids, oriented surfaces or not", "why_tests_cant": "Termination on every grid cannot be tested.", "anchors": ["lib/space/buffa_christiansen_vector_space.cpp: assignDofsImpl", "lib/space/rotated_buffa_christiansen_vector_space.cpp: assignDofsImpl"]}
{"id": "C130", "title": "Importing a Gmsh file gives its triangles", "statement": "import_grid on a Gmsh 2.2 file, ASCII or binary, with nodes numbered from 1 gives the grid of its triangles: element k is the k-th triangle with its corners in order, its id and its first tag as domain index; the vertices are the nodes used by triangles, each once, at their coordinates. Elements of other types, unused nodes and other sections have no influence.", "quantifier": "all node and element lists of a valid file, all numbers of tags, element types and other sections", "why_tests_cant": "Ranges over all files.", "anchors": ["python/bempp/api/file_interfaces/gmsh.py: parse_gmsh, read_vertex, read_element, create_grid_structure, import_data_sets", "python/bempp/api/file_interfaces/general_interface.py: import_grid"]}
{"id": "C131", "title": "An exported Gmsh file says what was exported", "statement": "Exporting a data set writes a Gmsh 2.2 file, ASCII or binary, with exactly its vertices, elements, domain indices and data arrays (real and imaginary parts, times, ids given or 1, 2, ...). Exporting a grid, a function or series of functions writes the vertices and elements of the grid and the values of the functions at vertices or elements.", "quantifier": "all data sets, grids and functions", "why_tests_cant": "Ranges over all grids and data.", "anchors": ["python/bempp/api/file_interfaces/gmsh.py: export_data_sets", "python/bempp/api/file_interfaces/general_interface.py: export, bempp_object_to_grid_data_set, GenericGrid, Data.add_data"]}
{"id": "C132", "title": "Export and import of a grid gives the grid", "statement": "Importing an exported Gmsh file gives the same elements with the same corners at the same places (in ASCII files: at the places as printed); only unused vertices are dropped and the others renumbered, and the id maps give the old numbers plus one. ASCII files may contain data.", "quantifier": "all grids, functions and options", "why_tests_cant": "Ranges over all grids.", "anchors": ["python/bempp/api/file_interfaces/gmsh.py: export_data_sets, parse_gmsh", "python/bempp/api/file_interfaces/general_interface.py: export, import_grid"]}
{"id": "C133", "title": "Domain indices survive export and import", "statement": "The domain indices of a grid that is exported to a Gmsh file and imported again are the same.", "quantifier": "all grids and domain indices", "why_tests_cant": "Ranges over all grids.", "anchors": ["python/bempp/api/file_interfaces/general_interface.py: bempp_object_to_grid_data_set", "python/bempp/api/file_interfaces/gmsh.py: export_data_sets"]}
{"id": "C134", "title": "Ids given to export are the ids in the file", "statement": "With vertex_ids and element_ids given, export writes these ids to the file.", "quantifier": "all grids and id lists", "why_tests_cant": "Ranges over all id lists.", "anchors": ["python/bempp/api/file_interfaces/general_interface.py: export, bempp_object_to_grid_data_set", "python/bempp/api/file_interfaces/gmsh.py: export_data_sets"]}
{"id": "C135", "title": "Exported binary files with data can be imported", "statement": "A file that export writes with the default settings (binary) for a grid function can be imported and gives its grid.", "quantifier": "all grids and functions", "why_tests_cant": "Ranges over all data.", "anchors": ["python/bempp/api/file_interfaces/gmsh.py: export_data_sets, parse_gmsh"]}
{"id": "C136", "title": "Series of functions are exported completely", "statement": "Exporting a series of scalar functions writes the values of every function, and imaginary parts if one of them is complex, with or without given time steps.", "quantifier": "all series of functions on a grid", "why_tests_cant": "Ranges over all series.", "anchors": ["python/bempp/api/file_interfaces/general_interface.py: export, bempp_object_to_grid_data_set, Data", "python/bempp/api/file_interfaces/gmsh.py: export_data_sets"]}
{"id": "C137", "title": "The transformation of exported data", "statement": "With the option transformation, export writes the transformed values: real or imaginary parts, or one value computed from all components.", "quantifier": "all functions and transformations", "why_tests_cant": "Ranges over all functions.", "anchors": ["python/bempp/api/file_interfaces/general_interface.py: transform_array, bempp_object_to_grid_data_set, Data.add_data"]}
{"id": "C138", "title": "Several data sets are written to several files", "statement": "export_data_sets with several data sets writes one file for each, which says what that data set says, with given or default ids.", "quantifier": "all lists of data sets", "why_tests_cant": "Ranges over all lists of data sets.", "anchors": ["python/bempp/api/file_interfaces/gmsh.py: export_data_sets"]}
{"id": "C139", "title": "References to missing nodes are rejected", "statement": "Importing a Gmsh file with a triangle that refers to a node which is not in the file raises an exception.", "quantifier": "all files", "why_tests_cant": "Ranges over all files.", "anchors": ["python/bempp/api/file_interfaces/gmsh.py: parse_gmsh, create_grid_structure"]}
{"id": "C140", "title": "Importing ends on every file", "statement": "Importing a Gmsh file ends on every sequence of bytes, with a grid or an exception.", "quantifier": "all sequences of bytes", "why_tests_cant": "Termination on every input cannot be tested.", "anchors": ["python/bempp/api/file_interfaces/gmsh.py: parse_gmsh"]}
{"id": "C141", "title": "The iterative solvers solve the discretised equation", "statement": "After f, info, ... = gmres(A, b, ...) or cg(A, b, ...) with the weak form, f lies in the domain of A; when info is 0, the weak form of A times the coefficients of f is, up to the tolerance, the vector of projections of b onto the dual space of A, so that A * f has the projections of b; the residuals and the iteration count are those of the iteration; existing functions and operators are not changed; operators that are not square are rejected.", "quantifier": "all operators built from others, all histories of operators and functions, all tolerances and all behaviours of the underlying iteration", "why_tests_cant": "Ranges over all operators, right-hand sides and histories of cached values.", "anchors": ["python/bempp/api/linalg/iterative_solvers.py: gmres, cg, _gmres_single_op_imp, _it_counter"]}
{"id": "C142", "title": "The iterative solvers with the strong form", "statement": "With use_strong_form=True and a right-hand side in the range space of A, info = 0 means that the coefficients of A * f are, up to the tolerance, those of b.", "quantifier": "all operators built from others, all histories, all behaviours of the underlying iteration", "why_tests_cant": "Ranges over all operators, right-hand sides and histories of cached values.", "anchors": ["python/bempp/api/linalg/iterative_solvers.py: gmres, cg, _gmres_single_op_imp"]}
{"id": "C143", "title": "With the strong form the right-hand side must lie in the range space", "statement": "With use_strong_form=True a right-hand side that does not lie in the range space of A is rejected, and nothing changes.", "quantifier": "all operators and right-hand sides", "why_tests_cant": "Ranges over all pairs of spaces.", "anchors": ["python/bempp/api/linalg/iterative_solvers.py: gmres, cg, _gmres_single_op_imp"]}
{"id": "C144", "title": "Right-hand sides given by projections", "statement": "A right-hand side given by its projections onto some dual space is the same right-hand side for the solvers, whatever the dual space of A is.", "quantifier": "all operators, all right-hand sides given by projections", "why_tests_cant": "Ranges over all pairs of dual spaces.", "anchors": ["python/bempp/api/linalg/iterative_solvers.py: _gmres_single_op_imp", "python/bempp/api/assembly/grid_function.py: projections"]}
{"id": "C145", "title": "The direct solver solves the discretised equation", "statement": "lu(A, b) returns a function in the domain of A whose coefficients solve the dense system with the matrix of A and the projections of b, or raises when the dense solver does, for operators that are not stored as sparse matrices.", "quantifier": "all operators built from others, all histories, all behaviours of the dense solver", "why_tests_cant": "Ranges over all operators, right-hand sides and histories of cached values.", "anchors": ["python/bempp/api/linalg/direct_solvers.py: lu"]}
{"id": "C146", "title": "Precomputed LU factors and sparse operators", "statement": "compute_lu_factors(A) gives factors with which lu(A, b, factors) is lu(A, b), and lu works for every square operator, whether it is stored sparse or not.", "quantifier": "all operators and right-hand sides", "why_tests_cant": "Ranges over all operators.", "anchors": ["python/bempp/api/linalg/direct_solvers.py: compute_lu_factors, lu"]}
{"id": "C147", "title": "The iterative solver for blocked operators", "statement": "gmres with a blocked operator and a list of right-hand sides returns one function for every column, in the domain space of that column; when info is 0, the block matrix of the weak (strong) form times the stacked coefficients is, up to the tolerance, the stacked vector of projections onto the dual spaces of the rows (of coefficients); operators that are not square are rejected; nothing else changes.", "quantifier": "all blocked operators built from others, all histories, all behaviours of the underlying iteration", "why_tests_cant": "Ranges over all block structures, right-hand sides and histories of cached values.", "anchors": ["python/bempp/api/linalg/iterative_solvers.py: _gmres_block_op_imp", "python/bempp/api/assembly/blocked_operator.py: projections_of_grid_function_list, grid_function_list_from_coefficients"]}
{"id": "C148", "title": "Lists of right-hand sides must fit the blocked operator", "statement": "gmres with a blocked operator rejects lists of right-hand sides that do not have one function for every row, in the range space of the row when the strong form is used.", "quantifier": "all blocked operators and all lists of functions", "why_tests_cant": "Ranges over all lists of functions.", "anchors": ["python/bempp/api/linalg/iterative_solvers.py: _gmres_block_op_imp"]}
{"id": "C149", "title": "Linear combinations of potential operators", "statement": "Sums, differences, negatives and multiples P * a of potential operators with the same points, components and degrees of freedom can be formed, and their value for a grid function is, at every point and in every component, the linear combination of the values; evaluation does not change the function.", "quantifier": "all linear combinations, all functions and their histories", "why_tests_cant": "Ranges over all linear combinations and histories.", "anchors": ["python/bempp/api/assembly/potential_operator.py: evaluate, __add__, __mul__, __neg__, __sub__"]}
{"id": "C150", "title": "Potential operators that do not fit are rejected", "statement": "Potential operators with different components, points or spaces cannot be added or subtracted, functions from another space cannot be evaluated, and a * P is P * a.", "quantifier": "all potential operators and functions", "why_tests_cant": "Ranges over all pairs of operators.", "anchors": ["python/bempp/api/assembly/potential_operator.py: __is_compatible, __add__, evaluate"]}
{"id": "C151", "title": "Local potentials do not depend on the batching", "statement": "Whatever points and elements a potential operator is evaluated for in one go, whatever the order in which the groups of pairs with equal rules are processed and whatever the result arrays held before, every pair of a point and an element gets the quadrature sum of integrand * Jacobian * weight with the rule chosen for this pair; concurrent requests for an integrator all get a live one of the right rule.", "quantifier": "all sets of points and elements, all orders of the groups, all previous contents, all interleavings of threads", "why_tests_cant": "Ranges over all batches, group orders and interleavings of threads.", "anchors": ["lib/fiber/default_local_assembler_for_potential_operators_on_surfaces_imp.hpp: evaluateLocalContributions (three overloads), getIntegrator", "lib/fiber/default_kernel_trial_integral_imp.hpp: evaluateWithPureWeights", "lib/fiber/numerical_kernel_trial_integrator_imp.hpp"]}
{"id": "C152", "title": "H-matrix blocks of potential operators", "statement": "Every block of rows and columns an H-matrix requests of a potential operator holds, for the row of component k of point i and the column of a degree of freedom, the sum over the elements of the dof's support of weight * local potential, whichever of the three code paths (single column, single row, block) serves the request.", "quantifier": "all spaces, permutations, point sets, blocks and numbers of components", "why_tests_cant": "Ranges over all spaces, blocks and permutations of rows and columns.", "anchors": ["lib/assembly/potential_operator_hmat_assembly_helper.cpp: computeMatrixBlock", "lib/assembly/hmat_global_assembler.cpp: assemblePotentialOperator"]}
{"id": "C153", "title": "Quadrature rules of potentials", "statement": "The rule chosen for a point and an element belongs to the element's number of corners and has the order requested for the narrowest range of distances containing the point's distance from the element's centre in units of the element's size (with a nominal distance: the nominal one in units of the average size), relative to twice the order of the shape functions; a rule is found for every point and every element of positive size.", "quantifier": "all accuracy options, grids, points, elements and nominal distances", "why_tests_cant": "Ranges over all option lists and all real distances.", "anchors": ["lib/fiber/default_quadrature_descriptor_selector_for_potential_operators.cpp: quadratureDescriptor", "lib/fiber/accuracy_options.cpp"]}
{"id": "C154", "title": "Geometry of the rows of a potential operator", "statement": "The cluster tree of the rows receives one entry per point and component, row r lying at point r / components.", "quantifier": "all point sets and numbers of components", "why_tests_cant": "Ranges over all point sets.", "anchors": ["lib/assembly/hmat_global_assembler.cpp: PotentialGeometryInterface, assemblePotentialOperator", "lib/hmat/geometry_impl.hpp: fillGeometry"]}
{"id": "C155", "title": "Volumes for the test for vanishing pivots", "statement": "For a boundary operator the volume kept for each row and each column of the H-matrix is that of the smallest element in the support of its degree of freedom, so that every test for a vanishing pivot in the compression is defined.", "quantifier": "all spaces and permutations", "why_tests_cant": "Ranges over all spaces and permutations.", "anchors": ["lib/assembly/weak_form_hmat_assembly_helper.cpp: constructor", "lib/hmat/hmatrix_aca_compressor_impl.hpp"]}
{"id": "C156", "title": "Volumes for the test for vanishing pivots of potentials", "statement": "For a potential operator a volume is kept for every row of the H-matrix, so that every test for a vanishing pivot in the compression is defined.", "quantifier": "all point sets, numbers of components, rows and columns", "why_tests_cant": "Ranges over all rows.", "anchors": ["lib/assembly/potential_operator_hmat_assembly_helper.cpp: constructor (testVolumes)", "lib/hmat/hmatrix_aca_compressor_impl.hpp"]}
{"id": "C157", "title": "Local grid refinement ends", "statement": "refine of a grid with marked elements terminates with a result, whichever marked element set.pop returns in each turn; no turn is stuck, and there are at most as many turns as elements and marks together.", "quantifier": "all well-formed triangle grids, sets of marked elements and orders of popping", "why_tests_cant": "The loop adds marks while it runs; termination for every grid and every order cannot be tested.", "anchors": ["python/bempp/api/grid/grid_view.py: GridView.refine"]}
{"id": "C158", "title": "Refined grids are surfaces", "statement": "Refining a surface (at most two elements at an edge, no two elements with the same corners) gives a well-formed surface again (valid indices, three different corners, one domain index and reference edge per element), without boundary if the grid had none.", "quantifier": "all triangle grids that are surfaces, sets of marked elements, orders of popping", "why_tests_cant": "Conformity ranges over all mesh topologies and closure patterns.", "anchors": ["python/bempp/api/grid/grid_view.py: GridView.refine"]}
{"id": "C159", "title": "Which edges local refinement bisects", "statement": "The bisected edges are the smallest set of edges containing the reference edge of each marked element and the reference edge of each element of which it contains an edge; so the order of popping does not influence them or the number of new vertices.", "quantifier": "all surfaces, sets of marked elements, orders of popping", "why_tests_cant": "Ranges over all grids and schedules of the loop.", "anchors": ["python/bempp/api/grid/grid_view.py: GridView.refine"]}
{"id": "C160", "title": "Refined elements tile the old ones", "statement": "The elements of the refined grid come in blocks, one per old element in order; a block covers just the old element, with the same orientation and with areas adding up, has its domain index, and is the element itself with its reference edge or consists of 2 to 4 triangles; marked elements are bisected; old vertices keep their indices.", "quantifier": "all surfaces, vertex positions, domain indices, sets of marked elements, orders of popping", "why_tests_cant": "Continuum of geometries, all combinations of bisected edges.", "anchors": ["python/bempp/api/grid/grid_view.py: GridView.refine"]}
{"id": "C161", "title": "Repeated refinement does not degrade elements", "statement": "After any number of refinements with any marks each element arises from an element of the first grid by newest vertex bisection (bisecting the edge opposite the newest vertex), and its quality (squared area over squared sum of squared sides) is at least a ninth of that element's; the reference edges of a grid made from arrays are longest edges.", "quantifier": "all surfaces, histories of marks and refinements, orders of popping", "why_tests_cant": "All histories of refinements.", "anchors": ["python/bempp/api/grid/grid_view.py: GridView.refine", "python/bempp/api/grid/grid_view.py: GridView.reference_edges"]}
{"id": "C162", "title": "No hanging nodes after local refinement", "statement": "Each new vertex of a refined grid is the midpoint of an edge of the old grid that is no longer an edge of any element, and both its halves are edges of as many elements as it was.", "quantifier": "all grids, sets of marked elements, orders of popping", "why_tests_cant": "All mesh topologies.", "anchors": ["python/bempp/api/grid/grid_view.py: GridView.refine"]}
{"id": "C163", "title": "Marks of elements", "statement": "The set of marked elements is the set of those marked since clear_marks was last called; get_mark tells whether an element is marked; clear_marks and refine may be called before anything is marked.", "quantifier": "all sequences of calls of mark, get_mark, clear_marks", "why_tests_cant": "All histories of calls.", "anchors": ["python/bempp/api/grid/grid_view.py: GridView.mark", "python/bempp/api/grid/grid_view.py: GridView.get_mark", "python/bempp/api/grid/grid_view.py: GridView.clear_marks"]}
{"id": "C164", "title": "Connectivity matrices of a grid view", "statement": "vertex_to_element_matrix (edge_to_element_matrix) has a row for each vertex (edge) and a column for each element, with entry 1 if the vertex (edge) belongs to the element and 0 otherwise.", "quantifier": "all triangle grids", "why_tests_cant": "All meshes.", "anchors": ["python/bempp/api/grid/grid_view.py: GridView.vertex_to_element_matrix", "python/bempp/api/grid/grid_view.py: GridView.edge_to_element_matrix", "python/bempp/api/grid/grid_view.py: GridView._create_connectivity_matrices"]}
{"id": "C165", "title": "Assembling the singular part of an integral operator", "statement": "assemble_weak_form(..., assemble_only_singular_part=True) gives a sparse matrix that has the entries of the full weak form for each pair of dofs whose supports touch (share a vertex) and zeros elsewhere, whatever the order in which Python's sets are traversed; it is zero if the two spaces live on different grids; if the kernel's integrals vanish for elements that do not touch it is the whole weak form.", "quantifier": "all grids, pairs of spaces with real dof weights, local integrals, orders of traversal", "why_tests_cant": "All meshes and dof numberings, all orders of traversal of sets.", "anchors": ["python/bempp/api/assembly/assembler.py: assemble_singular_part, _matrix_from_integration_pairs", "python/bempp/api/assembly/abstract_boundary_operator.py: ElementaryAbstractIntegralOperator.assemble_weak_form"]}
{"id": "C166", "title": "Chebyshev interpolation is exact for polynomials", "statement": "For any values at the order+1 Chebyshev nodes (distinct points of [-1, 1] including both ends) evaluateInterpolationPolynomial returns, at every list of points, the values of a polynomial of degree at most the order with those values at the nodes; polynomials of such degree are reproduced, also at the nodes.", "quantifier": "all positive orders, values at nodes, evaluation points", "why_tests_cant": "Continuum of points, all orders.", "anchors": ["lib/fmm/chebychev_tools_impl.hpp: ChebychevTools::ChebychevTools, evaluateInterpolationPolynomial"]}
{"id": "C167", "title": "Chebyshev differentiation is exact for polynomials", "statement": "derivativeWeights returns the derivatives at the nodes of the polynomial of degree at most the order with the given values at the nodes.", "quantifier": "all positive orders, values at nodes", "why_tests_cant": "All orders and polynomials.", "anchors": ["lib/fmm/chebychev_tools_impl.hpp: ChebychevTools::ChebychevTools, derivativeWeights"]}
{"id": "C168", "title": "Chebyshev interpolation onto child boxes", "statement": "childInterpolationMatrix takes the values of a polynomial of degree at most the order at the nodes of the parent to its values at the nodes of the two children, intervals at both ends of the parent with the given ratio of child to parent width.", "quantifier": "all positive orders, ratios, polynomials", "why_tests_cant": "Continuum of ratios, all orders.", "anchors": ["lib/fmm/chebychev_tools_impl.hpp: ChebychevTools::childInterpolationMatrix"]}
{"id": "C169", "title": "Chebyshev differentiation in three dimensions", "statement": "derivativeWeights3d in direction 0, 1 or 2 gives for each node (i, j, k) the derivative of the polynomial through the values along the line in that direction, and assigns every entry.", "quantifier": "all positive orders, values, directions, contents of fresh memory", "why_tests_cant": "All orders; index layout.", "anchors": ["lib/fmm/chebychev_tools_impl.hpp: ChebychevTools::derivativeWeights3d"]}
{"id": "C170", "title": "Regular spheres are closed triangulated surfaces", "statement": "regular_sphere(n) (grid_from_sphere(n, radius, origin)) gives 8*4^n triangles on 4*4^n+2 nodes; each directed side belongs to exactly one triangle and its reverse to exactly one other; every node is a corner of a triangle and the corners of a triangle are three different existing nodes.", "quantifier": "all refinement levels, radii, origins", "why_tests_cant": "All refinement levels.", "anchors": ["cython/bempp/core/grid/py_sphere.hpp: SphereMesh::SphereMesh, refineTriangles", "cython/bempp/core/grid/grid.pyx: grid_from_sphere", "python/bempp/api/shapes/shapes.py: regular_sphere"]}
{"id": "C171", "title": "Regular spheres have their nodes on the sphere and face outwards", "statement": "All nodes of grid_from_sphere(n, radius, origin) have distance |radius| from the origin, no midpoint that is projected is the centre, and for a positive radius the normal of every triangle points away from the centre.", "quantifier": "all refinement levels, radii, origins", "why_tests_cant": "All refinement levels; continuum of radii.", "anchors": ["cython/bempp/core/grid/py_sphere.hpp: SphereMesh::SphereMesh, refineTriangles"]}
{"id": "C172", "title": "Entities are found by their index", "statement": "Whatever calls were made before, element_from_index(i) (vertex_from_index, edge_from_index) returns the entity whose index in the index set is i; as in Python lists negative arguments count from the end, and arguments outside of the range raise IndexError.", "quantifier": "all views, histories of calls, arguments", "why_tests_cant": "Every history of a cache.", "anchors": ["python/bempp/api/grid/grid_view.py: element_from_index, vertex_from_index, edge_from_index"]}
{"id": "C173", "title": "Entities are found by their insertion index", "statement": "element_from_insertion_index(i) (vertex_from_insertion_index) returns the entity that was inserted as number i.", "quantifier": "all grids made by a factory, histories of calls, arguments", "why_tests_cant": "Every history of a cache.", "anchors": ["cython/bempp/core/grid/grid.pyx: element_from_insertion_index, vertex_from_insertion_index"]}
{"id": "C174", "title": "P1 coefficients and vertex values", "statement": "For the continuous P1 space on a grid without unused vertices p1_dof_to_vertex_matrix is a square matrix, and its product with the coefficients of a function has at the insertion index of each vertex the coefficient of the dof at that vertex, however the vertices were inserted.", "quantifier": "all grids without unused vertices, insertion orders, coefficient vectors", "why_tests_cant": "All meshes and numberings.", "anchors": ["python/bempp/api/fenics_interface/p1_coupling.py: p1_dof_to_vertex_matrix"]}
{"id": "C175", "title": "The trace of a FEniCS P1 function", "statement": "The matrix of p1_trace, applied to the coefficients of a FEniCS P1 function, gives each BEM++ dof the coefficient of the FEniCS dof at the same mesh vertex.", "quantifier": "all boundary meshes, numberings of boundary vertices, mesh vertices, FEniCS dofs and BEM++ dofs, coefficient vectors", "why_tests_cant": "All meshes and numberings.", "anchors": ["python/bempp/api/fenics_interface/p1_coupling.py: p1_trace, p1_dof_to_vertex_matrix"]}
{"id": "C176", "title": "Element data round trip", "statement": "grid_from_element_data with arrays of three rows makes a grid exactly when every corner is the number of a column of vertices and the domain indices are absent or one for each element, and raises otherwise; the vertices, elements and domain_indices of the grid's leaf view are then the given columns, each moved to the index that the grid assigned to it, the corners renumbered accordingly and in the same order.", "quantifier": "all arrays with three rows, all domain index lists, all numberings of vertices and elements by the Dune grid", "why_tests_cant": "for-all meshes and numberings; the tests use one grid whose numbering is the insertion order.", "anchors": ["lib/grid/grid_factory.cpp: createGridFromConnectivityArrays", "lib/grid/concrete_grid_view_imp.hpp: getRawElementDataImpl", "cython/bempp/core/grid/grid.pyx: grid_from_element_data", "cython/bempp/core/grid/grid_view.pyx: vertices, elements, domain_indices"]}
{"id": "C177", "title": "Element data with another number of rows is rejected", "statement": "grid_from_element_data raises when the vertices or the elements do not have exactly three rows, and never reads outside the given arrays.", "quantifier": "all arrays of all shapes", "why_tests_cant": "for-all shapes; reading beyond an array usually goes unnoticed in a test.", "anchors": ["cython/bempp/core/grid/grid.pyx: grid_from_element_data", "lib/grid/grid_factory.cpp: createGridFromConnectivityArrays (pointer version)"]}
{"id": "C178", "title": "Structured grids of the three coordinate planes", "statement": "structured_grid(lower_left, upper_right, (n, m), axis, offset) returns, for the axes xy, xz and yz, the uniform triangulation of the rectangle in that plane at the given offset: the (n+1)(m+1) lattice points as vertices, two triangles for every cell, all normals along the same direction (+z, -y, +x for positive sides) and of half the cell's area. Other axes, wrong lengths and subdivisions below one raise.", "quantifier": "all rectangles, offsets, subdivisions and axes, and all numberings of the intermediate grid", "why_tests_cant": "for-all subdivisions and numberings of the intermediate grid.", "anchors": ["python/bempp/api/grid/grid.py: structured_grid", "cython/bempp/core/grid/grid.pyx: structured_grid", "lib/grid/grid_factory.cpp: createStructuredGrid", "lib/grid/structured_grid_factory.hpp"]}
{"id": "C179", "title": "The unit space has a single global dof on every element", "statement": "A UnitScalarSpace has exactly one global dof; getGlobalDofs of every element is that dof, global2localDofs of it lists local dof 0 of every element exactly once, and the flat local dof with an element's index is that element's.", "quantifier": "all grids and all iteration orders", "why_tests_cant": "for-all meshes and iteration orders.", "anchors": ["lib/space/unit_scalar_space.cpp: assignDofsImpl, getGlobalDofs, global2localDofs, flatLocal2localDofs"]}
{"id": "C180", "title": "Position and bounding box of the unit space's dof", "statement": "The position of a UnitScalarSpace's dof is the mean of the elements' centres; its bounding box is the smallest box holding all corners, with that position as reference point inside it, so that the debug assertions of getGlobalDofBoundingBoxes hold.", "quantifier": "all non-empty triangular grids (exact arithmetic)", "why_tests_cant": "for-all meshes.", "anchors": ["lib/space/unit_scalar_space.cpp: getGlobalDofPositions, getGlobalDofBoundingBoxes"]}
