#!/usr/bin/env python3
# Generates /verif/properties.jsonl from the table below.
import json, os
P=[]
def p(id,title,statement,quantifier,why,anchors):
    P.append(dict(id=id,title=title,statement=statement,quantifier=quantifier,why_tests_cant=why,anchors=anchors))

# ---------------------------------------------------------------- HMat
p("C01","Cluster tree index ranges nest and tile",
  "The cluster tree built over a geometry of n>0 dofs has root range [0,n), every inner node has exactly two children whose half-open index ranges are non-empty, adjacent, and together equal to the parent's range, and the leaves' ranges listed left to right tile [0,n) without gap or overlap.",
  "every number of dofs, every geometry (every outcome of the sort along the main direction at every level), every minBlockSize",
  "The tree shape depends on floating-point geometry; tests see a handful of meshes.",
  ["lib/hmat/cluster_tree_impl.hpp: ClusterTree<2>::splitClusterTreeByGeometry","lib/hmat/cluster_tree_impl.hpp: ClusterTree::initializeClusterTree"])
p("C02","DOF permutation of a cluster tree is a bijection",
  "After construction, mapOriginalDofToHMatDof and mapHMatDofToOriginalDof are total on [0,n), stay in [0,n) and are inverse to each other; the dofs owned by a tree node are exactly the original dofs whose H-matrix index lies in the node's range.",
  "every n>0, every geometry, every minBlockSize",
  "A single repeated or lost dof in any of exponentially many split histories would corrupt every matvec.",
  ["lib/hmat/dof_permutation_impl.hpp: DofPermutation::addDofIndexPair","lib/hmat/cluster_tree_impl.hpp: ClusterTree<2>::splitClusterTreeByGeometry"])
p("C03","Cluster tree leaf size and depth bounds",
  "Splitting terminates; for minBlockSize>=1 every leaf holds at most minBlockSize dofs, sibling clusters differ in size by at most one, and a node at depth d of a tree over n dofs holds at most ceil(n/2^d) dofs.",
  "every n>0, every geometry, every minBlockSize>=1",
  "Needs an induction over the recursion; testing can't bound depth for all n.",
  ["lib/hmat/cluster_tree_impl.hpp: ClusterTree<2>::splitClusterTreeByGeometry"])
p("C04","Block cluster tree leaves tile the matrix exactly once",
  "For every row index i<rows and column index j<columns there is exactly one leaf in the list returned by leafNodes() whose row and column ranges contain (i,j), and every leaf lies inside the matrix; numberOfLeafs() equals the length of leafNodes().",
  "every pair of cluster trees, every admissibility function, every maxBlockSize",
  "Missing or doubled entries only show up for particular tree shapes/admissibility outcomes.",
  ["lib/hmat/block_cluster_tree_impl.hpp: BlockClusterTree::initializeBlockClusterTree","lib/hmat/simple_tree_node_impl.hpp: SimpleTreeNode::leafNodes, numberOfLeafs"])
p("C05","Admissible blocks respect maxBlockSize and the admissibility condition",
  "A leaf flagged admissible (hence compressed to low rank) has at most maxBlockSize rows and columns and its cluster pair satisfies the admissibility condition; a leaf not flagged admissible has a row or column cluster that cannot be divided; a block whose own cluster pair is admissible and small enough is never refined.",
  "every pair of cluster trees, every admissibility function, every maxBlockSize",
  "The flag is computed on a copy and one level late; only an argument over all trees shows which part of the claim survives.",
  ["lib/hmat/block_cluster_tree_impl.hpp: BlockClusterTree::initializeBlockClusterTree"])
p("C06","H-matrix matvec equals the dense product in every transpose mode",
  "HMatrix::apply(X,Y,trans,alpha,beta) sets Y to alpha*op(A)*X+beta*Y, where A is the matrix (in original dof order) represented by the leaf blocks and op is identity, conjugate, transpose or conjugate transpose.",
  "every block cluster tree, leaf data (dense or low rank), X, Y, alpha, beta, mode, and every order in which worker threads add the leaf results",
  "Leaf results are accumulated concurrently in any interleaving; tests run one schedule on one matrix.",
  ["lib/hmat/hmatrix_impl.hpp: HMatrix::apply, permuteMatToHMatDofs, permuteMatToOriginalDofs","lib/hmat/hmatrix_dense_data_impl.hpp: HMatrixDenseData::apply","lib/hmat/hmatrix_low_rank_data_impl.hpp: HMatrixLowRankData::apply"])
p("C07","Distributed H-matrix product equals the serial one",
  "With the leaves dealt round-robin to nproc ranks, every leaf is owned by exactly one rank and after MPI_Allreduce every rank holds the same Y as a single-process apply (beta*Y is counted exactly once).",
  "every number of ranks, every leaf list, every X, Y, alpha, beta, mode",
  "Rank counts and leaf counts are unbounded; a dropped or double-counted leaf appears only for some combinations.",
  ["lib/hmat/hmatrix_impl.hpp: HMatrix::initialize, HMatrix::apply"])
p("C08","Dof permutation of vectors is invertible and value preserving",
  "permuteMatToOriginalDofs(permuteMatToHMatDofs(M)) = M and vice versa, and entry i of M moves to row mapOriginalDofToHMatDof(i).",
  "every permutation produced by a cluster tree, every matrix",
  "Quantifies over all permutations.",
  ["lib/hmat/hmatrix_impl.hpp: HMatrix::permuteMatToHMatDofs, permuteMatToOriginalDofs"])
p("C09","Initialising an H-matrix is idempotent",
  "Calling initialize again on an H-matrix leaves the represented operator and its block statistics unchanged.",
  "every history of initialize/reset calls",
  "A property of call histories.",
  ["lib/hmat/hmatrix_impl.hpp: HMatrix::initialize, HMatrix::reset"])
p("C10","H-matrix Frobenius norm is the norm of the represented matrix",
  "frobeniusNorm()^2 equals the sum of |a_ij|^2 over all entries of the represented matrix (single process).",
  "every block cluster tree and leaf data",
  "Recursion over arbitrary trees.",
  ["lib/hmat/hmatrix_impl.hpp: HMatrix::frobeniusNorm_impl","lib/hmat/hmatrix_low_rank_data_impl.hpp: HMatrixLowRankData::frobeniusNorm","lib/hmat/hmatrix_dense_data_impl.hpp: HMatrixDenseData::frobeniusNorm"])
p("C11","ACA compression: bounded rank and termination",
  "The ACA compressor always terminates; the low-rank factors it returns have shapes rows x r and r x cols with r <= min(maxRank, rows, cols), no row or column pivot is used twice, and it makes at most three ACA sweeps.",
  "every block, every kernel value, every convergence outcome, every random starting index",
  "Depends on data-dependent pivoting and random start indices.",
  ["lib/hmat/hmatrix_aca_compressor_impl.hpp: compressBlockImpl, aca, computeCross, selectMinPivot, updateLowRankBlocksAndNorm"])
p("C12","ACA crosses interpolate the block",
  "After every accepted cross the approximation A*B agrees exactly (in exact arithmetic) with the matrix block on every pivot row and every pivot column used so far.",
  "every block over a field, every sequence of pivots the code can choose",
  "Induction over the sequence of crosses with arbitrary entries.",
  ["lib/hmat/hmatrix_aca_compressor_impl.hpp: computeCross, evaluateMatMinusLowRank, updateLowRankBlocksAndNorm"])
p("C13","Block compressor honours the distance cutoff",
  "A block whose clusters are farther apart than the cutoff is represented by a zero low-rank block and the matrix entries are not evaluated; other blocks are compressed.",
  "every block cluster node and cutoff",
  "Control-flow property for all inputs.",
  ["lib/hmat/hmatrix_compressor_impl.hpp: HMatrixCompressor::compressBlock"])
p("C14","H-matrix bounding boxes: containment, merge and distance",
  "merge yields the smallest box containing both arguments; the distance between two boxes is zero iff they meet, symmetric, and a lower bound on the distance of any two contained points; dividing a box gives two boxes that tile it; a point inside a half-open box is contained in exactly one of its two halves; the corners listed are the eight corners of the box.",
  "all boxes and points",
  "Geometric for-all statement; admissibility safety rests on it.",
  ["lib/hmat/bounding_box_impl.hpp: BoundingBox::merge, distance, divide, contains"])
# ---------------------------------------------------------------- FMM
p("C15","Morton codes are a bijection on octree coordinates",
  "deMorton inverts morton for all coordinates below 1024, morton inverts deMorton for all codes below 2^30, and coordinates above 1023 are rejected.",
  "all 2^30 coordinates/codes",
  "2^30 cases and a bit-twiddling implementation.",
  ["lib/fmm/octree_impl.hpp: morton, deMorton, dilate3, contract3"])
p("C16","Octree parent/child indexing is consistent with geometry",
  "getFirstChild..getLastChild of a node are exactly the 8 nodes whose getParent is that node; the children's Morton coordinates are twice the parent's plus 0 or 1 in each direction, so children's cubes tile the parent's cube.",
  "all nodes on all levels",
  "for-all over node indices.",
  ["lib/fmm/octree_impl.hpp: Octree::getParent, getFirstChild, getLastChild, getNodesPerSide, getNodesPerLevel, cubeBounds"])
p("C17","Octree neighbour lists are exact and symmetric",
  "getNeighbors(node,level) returns without repetition exactly the nodes on the level whose integer coordinates differ by at most one in each direction, other than the node itself; neighbourhood is symmetric and within the grid.",
  "all nodes and levels up to 10",
  "for-all over nodes/levels, including boundary boxes.",
  ["lib/fmm/octree_impl.hpp: Octree::getNeighbors"])
p("C18","FMM interaction lists are exact",
  "Iterating an InteractionList from begin until finished visits each non-empty node of the level whose parent is a neighbour of (or equal to) the node's parent, and that is not itself a neighbour of the node nor the node itself, exactly once, and nothing else.",
  "all nodes and levels",
  "Iterator state machine over all nodes.",
  ["lib/fmm/interaction_list_impl.hpp: InteractionList"])
p("C19","Near field and interaction lists cover every leaf pair exactly once",
  "If no ancestor of leaf s is flagged empty: for two leaf boxes s,t either they are equal or neighbours (and in no interaction list of each other's ancestors), or there is exactly one level at which the ancestors of s lies in the interaction list of the ancestor of t.",
  "all leaf pairs, all tree depths",
  "Induction over levels.",
  ["lib/fmm/octree_impl.hpp: Octree","lib/fmm/interaction_list_impl.hpp: InteractionList"])
p("C20","Octree emptiness flags are correct on every level",
  "isEmpty(node,level) is false iff some element has its centroid in the node's cube.",
  "all grids, all levels, all nodes",
  "for-all over levels; tests check leaves only.",
  ["lib/fmm/octree_impl.hpp: Octree::Octree, Octree::isEmpty"])
p("C21","Octree leaf lookup returns the cube containing the point",
  "For a point inside the octree's bounding box getLeafContainingPoint returns a valid leaf index whose cube bounds contain the point.",
  "all points in the bounding box",
  "Continuum of points including the upper faces.",
  ["lib/fmm/octree_impl.hpp: Octree::getLeafContainingPoint, cubeBounds, cubeWidth"])
# ---------------------------------------------------------------- Grid
p("C22","Edge numbering of a triangle grid",
  "Edge indices are consecutive from 0; two element sides get the same edge index iff they have the same two vertices (irrespective of orientation); each edge's node pair and per-element edge lists agree.",
  "all finite triangle lists (including non-manifold and repeated triangles)",
  "for-all meshes.",
  ["lib/grid/bempp_grid/triangle_imp/bempp_grid_data_container_impl.hpp: DataContainer::init, getEntityNodes"])
p("C23","Barycentric refinement numbering",
  "The barycentric grid has 6 sons per father triangle and V+E+F vertices; each son consists of one father vertex, the midpoint of an incident father edge and the father's barycentre, no son is repeated, neighbouring fathers share the same midpoint vertex, sons cover each father edge half exactly once per adjacent father, and orientation is that of the father.",
  "all triangle grids",
  "for-all meshes.",
  ["lib/grid/concrete_grid.hpp: ConcreteGrid::barycentricGridSonPair"])
p("C24","Lazily created shared objects are created once and complete under concurrency",
  "Concurrent callers of Lazy::get all receive the same fully constructed object; the initialiser is never run twice at once nor again after it succeeded (if it throws, that caller gets the exception and a later caller retries). C69 treats barycentricGridSonPair.",
  "all interleavings of any number of threads",
  "Schedules cannot be enumerated by tests.",
  ["lib/common/lazy.hpp: Lazy::get","lib/grid/concrete_grid.hpp: ConcreteGrid::barycentricGridSonPair"])
p("C25","Grid segment set algebra",
  "For segments of one grid (excluded sets of non-negative indices; C65 treats others) and every codimension 0..3 and index, contains() of complement/union_/difference/intersection equals the corresponding Boolean combination of contains() of the operands.",
  "all segments, codimensions and indices",
  "for-all over sets.",
  ["lib/grid/grid_segment.cpp: GridSegment::complement, union_, difference, intersection, contains"])
p("C26","Open and closed domain segments",
  "closedDomain(d) contains exactly the elements of domain d and the lower-dimensional entities touching one of them; openDomain(d) contains exactly the elements of domain d and the lower-dimensional entities that are touched by elements of domain d only and do not lie on the boundary of the domain (an edge is a boundary edge when exactly one side of a domain element lies on it). Edges with more than 256 incident domain elements are the subject of C64.",
  "all grids and domain labels",
  "for-all meshes, including high-valence vertices.",
  ["lib/grid/grid_segment.cpp: GridSegment::openDomain, closedDomain"])
p("C27","Point-in-grid test counts crossings by parity",
  "areInside reports a point as inside iff the ray from it crosses the closed surface an odd number of times.",
  "all closed surfaces and points",
  "for-all geometry.",
  ["lib/grid/grid.cpp: areInside","lib/grid/ray_triangle_intersection.cpp: zRayIntersectsTriangle"])
p("C28","Structured grid factory produces the declared grid",
  "createSimplexGrid/createCubeGrid with nx x ny cells insert (nx+1)(ny+1) vertices in lexicographic order and 2*nx*ny (nx*ny) elements referring to existing vertices; each cell is covered by its two triangles which share the cell diagonal; the triangulation is conforming and consistently oriented.",
  "all nx, ny >= 1",
  "for-all sizes.",
  ["lib/grid/structured_grid_factory.hpp: BemppStructuredGridFactory::createSimplexGrid, createCubeGrid, insertVertices, computeUnitOffsets"])
# ---------------------------------------------------------------- Spaces
p("C29","Continuous P1 dof maps",
  "On any segment, each used vertex carries exactly one global dof, global dof ids are consecutive, getGlobalDofs and global2localDofs are mutually consistent, dofs of two elements coincide iff the vertices coincide, and flat local dofs enumerate each (element, local dof) pair carrying a dof once.",
  "all grids and segments, strict and non-strict modes",
  "for-all meshes.",
  ["lib/space/piecewise_linear_continuous_scalar_space.cpp: assignDofsImpl"])
p("C30","Piecewise constant and discontinuous P1 dof maps",
  "Every element of the segment carries its own dofs, ids are consecutive, no dof is shared; flat local dofs enumerate the local dofs in the order of their global dofs and flatLocalDofCount equals globalDofCount (for piecewise constants: on a segment that is the whole grid).",
  "all grids and segments",
  "for-all meshes.",
  ["lib/space/piecewise_constant_scalar_space.cpp: assignDofsImpl, flatLocalDofCount","lib/space/piecewise_linear_discontinuous_scalar_space.cpp: assignDofsImpl"])
p("C31","RWG dofs: one per interior edge with opposite signs",
  "In the default dof mode without boundary dofs, on grids whose edges have at most two adjacent elements: the dofs are the edges of the segment with two adjacent elements; each is attached to exactly those two elements, with equal magnitude (the edge length) and opposite sign.",
  "all such grids and segments",
  "for-all meshes.",
  ["lib/space/rwg_vector_space.cpp: assignDofsImpl, global2localDofs"])
p("C32","Global to flat-local dof matrix",
  "For the scalar P1 spaces the sparse matrix returned for mapping global dofs to flat local dofs has, for every flat local dof, exactly one entry, in the column of its global dof, equal to the dof weight (one).",
  "all grids, segments and modes of these spaces",
  "for-all dof maps.",
  ["lib/space/space.cpp: constructGlobalToFlatLocalDofsMappingSparseMatrix"])
# ---------------------------------------------------------------- Assembly
p("C33","Dense weak form assembly computes the Galerkin matrix for every schedule",
  "Entry (r,c) of the assembled matrix equals the sum over all pairs of element/local dof attached to global test dof r and trial dof c of conj(test weight)*trial weight*local integral, for every distribution of test elements over threads and every interleaving of additions.",
  "all spaces, local integrals and thread schedules",
  "Schedules and meshes are unbounded.",
  ["lib/assembly/dense_global_assembler.cpp: DenseWeakFormAssemblerLoopBody, assembleDetachedWeakForm, gatherGlobalDofs"])
p("C34","Dense block assembly is a submatrix of dense assembly",
  "assembleDenseBlock(rows r0..r1, cols c0..c1) returns exactly the corresponding submatrix of the full dense weak form, and requests with a negative bound or an end beyond the dof count are rejected (C68 treats start behind end).",
  "all ranges, spaces and schedules",
  "for-all sub-blocks.",
  ["lib/assembly/dense_global_block_assembler.cpp: DenseWeakFormBlockAssemblerLoopBody, gatherElementInformation, assembleDenseBlock"])
p("C35","H-matrix entry accessor agrees with dense assembly",
  "computeMatrixBlock returns, for every index block in H-matrix numbering, the block of the dense weak form in original numbering, on all of its four evaluation paths (single column, single row, small block, general).",
  "all blocks, permutations, spaces, numbers of operator terms",
  "Path selection depends on block shape; cross-path equality is a for-all claim.",
  ["lib/assembly/weak_form_hmat_assembly_helper.cpp: WeakFormHMatAssemblyHelper::computeMatrixBlock"])
p("C36","Potential operator assembly paths agree",
  "The H-matrix assembly helper for potential operators returns on all three evaluation paths the same values as dense potential assembly at the permuted row (point*componentCount+component) and column.",
  "all blocks, points, component counts, permutations",
  "for-all blocks.",
  ["lib/assembly/potential_operator_hmat_assembly_helper.cpp: computeMatrixBlock","lib/assembly/dense_global_assembler.cpp: assemblePotentialOperator"])
p("C37","Local dof lists describe exactly the requested dofs",
  "LocalDofListsCache::get(start,count) lists every (element, local dof, weight, array index) incident to the requested H-matrix dofs once, and nothing else; repeated or concurrent requests return equal lists.",
  "all spaces, permutations, ranges and request histories",
  "Cached, concurrent, for-all ranges.",
  ["lib/assembly/local_dof_lists_cache.cpp: get, findLocalDofs"])
p("C38","Component lists describe exactly the requested point components",
  "ComponentListsCache::get(start,count) groups exactly the requested permuted rows by point and component with the right array index.",
  "all component counts, permutations, ranges and histories",
  "for-all ranges.",
  ["lib/assembly/component_lists_cache.cpp: get, findComponents"])
p("C39","Discrete operator cache is transparent",
  "Used by one thread at a time, getWeakForm returns a live operator equal to a fresh assembly, never null, and while the caller keeps it, further requests with the same id object return the same one without assembling.",
  "all histories of requests and expirations",
  "Histories with object lifetimes.",
  ["lib/assembly/discrete_boundary_operator_cache.cpp: getWeakForm, aliveOperators"])
p("C40","Sparse operator apply follows the BLAS contract",
  "apply(mode,x,y,alpha,beta) of a sparse discrete operator (constructed plain, transposed or conjugate-transposed) gives y = alpha*op(A)x+beta*y for real and complex vectors in every mode, and asMatrix, rowCount and columnCount agree with the same matrix; old content of y (even NaN-like) is ignored when beta is 0.",
  "all sparse matrices, vectors, modes and scalars",
  "for-all linear algebra.",
  ["lib/assembly/discrete_sparse_boundary_operator.cpp: reallyApplyBuiltInImpl, applyBuiltInImpl, isTransposed, asMatrix"])
p("C41","Dense operator apply and asMatrix agree",
  "DiscreteBoundaryOperator::asMatrix built by applying unit vectors returns the matrix A for which apply computes alpha*op(A)x+beta*y whatever the uninitialised buffers contain; the matrix overload of apply works column by column and rejects wrong sizes; dense and H-matrix operators satisfy this contract.",
  "all matrices, modes, vectors, scalars",
  "for-all linear algebra.",
  ["lib/assembly/discrete_boundary_operator.cpp: asMatrix, apply","lib/assembly/discrete_dense_boundary_operator.cpp: applyBuiltInImpl"])
p("C42","Sparse and dense assembly of local operators agree",
  "For real result types, assembling an elementary local operator in sparse mode (triplets summed, elements evaluated in parallel sub-ranges) and in dense mode gives the same matrix, the Galerkin matrix of the local integrals.",
  "all spaces and local matrices",
  "for-all meshes.",
  ["lib/assembly/elementary_local_operator.cpp: assembleWeakFormInDenseMode, assembleWeakFormInSparseMode, generateTriplets"])
# ---------------------------------------------------------------- Fiber
p("C43","Multidimensional arrays address each element once and in bounds",
  "For in-range indices the 2-, 3- and 4-dimensional arrays map index tuples injectively onto [0,size) (column-major, onto), slices alias the corresponding elements of the parent, and assignment through one tuple changes no other element.",
  "all extents and indices",
  "for-all extents.",
  ["lib/fiber/_2d_array_imp.hpp","lib/fiber/_3d_array_imp.hpp","lib/fiber/_4d_array_imp.hpp"])
p("C44","In-place addition and scaling of arrays",
  "For arrays of equal extents operator+= adds elementwise; operator*= multiplies each element once by the scalar; neither reads or writes outside the storage.",
  "all arrays",
  "for-all extents.",
  ["lib/fiber/_2d_array_imp.hpp: operator+=","lib/fiber/_3d_array_imp.hpp: operator+=","lib/fiber/_4d_array_imp.hpp: operator+="])
p("C45","Element pair topology classification",
  "For two elements with distinct vertices, the classification is Disjoint/SharedVertex/SharedEdge/Coincident exactly according to the number of common vertices 0/1/2/all, the reported shared local indices point at equal vertices on both sides, and the result is symmetric under swapping the elements.",
  "all pairs of triangles/quadrilaterals",
  "for-all index configurations (many permutations).",
  ["lib/fiber/element_pair_topology.hpp: determineElementPairTopologyIn3D"])
p("C46","Quadrature order look-up by distance",
  "After setting distance-dependent orders (at most 16 brackets, or pairwise different distances, in any order), the look-up returns the order of a narrowest bracket whose maximal normalised distance is not below the given one; the last order applies beyond the largest distance; mismatching list lengths are rejected.",
  "all bracket lists and distances",
  "for-all sequences and distances.",
  ["lib/fiber/accuracy_options.cpp: AccuracyOptionsEx::setDoubleRegular, doubleRegular, setSingleRegular, singleRegular"])
p("C47","Singular quadrature remapping keeps shared features",
  "Remapping Duffy points for a shared vertex (edge) is an affine bijection of the reference triangle sending the reference corner (edge) to the shared local vertex (edge vertices in order); every point/weight slot of the tensor rule is written exactly once.",
  "all shared vertex/edge positions, all points, all rule sizes",
  "for-all points and rule sizes.",
  ["lib/fiber/numerical_quadrature.cpp: remapPointsSharedVertexTriangle, remapPointsSharedEdgeTriangle, fillPointsAndWeightsSingular"])
p("C48","Local matrix cache is transparent",
  "evaluateLocalWeakForms returns, for every requested element pair, the local matrix (or its column or row) integrated with the shapesets of these elements and the quadrature orders of this pair, whether or not singular pairs were cached beforehand, for every call variant and nominal distance; the cache holds every pair of elements with a common vertex, and filling it never writes outside it.",
  "all grids, request patterns and cache contents",
  "for-all request patterns.",
  ["lib/fiber/default_local_assembler_for_integral_operators_on_surfaces_imp.hpp: cacheLocalWeakForms, evaluateLocalWeakForms"])
p("C49","Hermite interpolator stays in bounds, interpolates nodes, and has fourth-order accuracy",
  "For x in [start,end) evaluate reads only stored samples; at a node it returns the stored value; when the samples are those of a function with fourth derivative bounded by M the error is at most M h^4/384 (so cubics are reproduced). initialize accepts exactly equal-length data of at least two points with start < end.",
  "all sample vectors, functions and arguments",
  "for-all x and data.",
  ["lib/fiber/hermite_interpolator.hpp: HermiteInterpolator::initialize, evaluate"])
p("C50","Scattered ranges partition work under every split history",
  "Splitting a ScatteredRange any number of times in any order yields ranges that together visit every index begin, begin+step,.. of the original exactly once; splitting stops at the grain size.",
  "all ranges and all split trees",
  "TBB chooses the splits at run time.",
  ["lib/assembly/scattered_range.hpp: ScatteredRange"])
p("C51","Bounding boxes of dofs contain their support and reference point",
  "extendBoundingBox and the bounding boxes spaces report for their global dofs contain every point they were given (all corners of all elements of the dof's support), are the smallest such boxes, and contain the dof's reference point.",
  "all point sets",
  "for-all geometry.",
  ["lib/common/bounding_box_helpers.hpp: createBoundingBox, extendBoundingBox"])
# ---------------------------------------------------------------- Python API
p("C52","Discrete operator algebra matches matrix algebra",
  "For sums, differences, products, negatives and scalar multiples of discrete operators with fitting shapes, matvec, multiplication with arrays, shape and as_matrix agree with the matrix expression, and transpose() yields the transposed matrix (except for zero operators, for which it raises NotImplementedError).",
  "all expression trees of operators",
  "Structural induction over expressions.",
  ["python/bempp/api/assembly/discrete_boundary_operator.py: DiscreteBoundaryOperatorSum, Product, Scaled"])
p("C53","Adjoint of discrete operators is the conjugate transpose",
  "adjoint() and rmatvec of composite and dense discrete operators realise the conjugate transposed matrix.",
  "all expression trees incl. complex scalars",
  "Complex scalars are rarely tested.",
  ["python/bempp/api/assembly/discrete_boundary_operator.py: ScaledDiscreteBoundaryOperator._adjoint, _rmatvec, DenseDiscreteBoundaryOperator._rmatvec"])
p("C54","Blocked discrete operator acts as the block matrix",
  "A completed blocked discrete operator has shape (sum of row dims, sum of column dims), its matvec, products with arrays, as_matrix and single blocks [i,j] agree with the block matrix (missing blocks are zero), and so do sums, products and multiples of blocked operators with the sums, products and multiples of the block matrices; inconsistent dimensions and rows/columns without operator are rejected.",
  "all block layouts and vectors",
  "for-all layouts.",
  ["python/bempp/api/assembly/blocked_operator.py: BlockedDiscreteOperator"])
p("C55","Coefficient vectors of lists of grid functions round-trip",
  "grid_function_list_from_coefficients(coefficients_of_grid_function_list(fs)) returns functions with the same coefficients, and the i-th block starts at the sum of previous dof counts.",
  "all lists of grid functions",
  "for-all lists.",
  ["python/bempp/api/assembly/blocked_operator.py: coefficients_of_grid_function_list, grid_function_list_from_coefficients"])
p("C56","Weak form caching of boundary operators is invisible",
  "weak_form() and strong_form() of a boundary operator, with or without recompute, give the same operator whatever weak_form and strong_form calls (successful or not) and constructions were made before; a second weak_form() call returns the stored operator and changes nothing.",
  "all histories of constructions and calls",
  "Property of call histories.",
  ["python/bempp/api/assembly/boundary_operator.py: BoundaryOperator.weak_form, BoundaryOperator.strong_form"])
p("C57","Boundary operator calculus",
  "The weak form of A+B, c*A, A*B, dual products, transposes, adjoints, reinterpretations and projections is the sum, multiple, weak(A)*strong(B), strong(A)^H weak(B), ... of the discretisations, at any depth of nesting, with the spaces of the result as documented; operators whose spaces have different numbers of degrees of freedom are rejected; strong forms compose: strong(A*B)=strong(A)*strong(B).",
  "all operator expressions over spaces with fitting dof counts, all histories",
  "for-all expressions.",
  ["python/bempp/api/assembly/boundary_operator.py: _SumBoundaryOperator, _ProductBoundaryOperator, _ScaledBoundaryOperator, _DualProductBoundaryOperator, _TransposeBoundaryOperator, _AdjointBoundaryOperator, _ProjectionBoundaryOperator, _ReinterpretSpacesBoundaryOperator"])

exec(open(os.path.join(os.path.dirname(os.path.abspath(__file__)),"more_properties.py")).read())

with open(os.path.join(os.path.dirname(__file__),"..","properties.jsonl"),"w") as f:
    for q in P: f.write(json.dumps(q)+"\n")
print(len(P))
