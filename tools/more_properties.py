# Properties appended as the model grew (exec'd by gen_properties.py).
p("C58","A default H-matrix bounding box is neutral for merge",
  "Merging a default-constructed box with a box gives the latter's bounds.",
  "every box",
  "Fails only for boxes in the negative half space; for-all boxes.",
  ["lib/hmat/bounding_box_impl.hpp: BoundingBox::BoundingBox, merge"])
p("C59","createBoundingBox's reference point is the midpoint of the box",
  "createBoundingBox sets the given bounds and a reference point that is the midpoint of the box, hence inside it.",
  "every box",
  "for-all boxes.",
  ["lib/common/bounding_box_helpers.hpp: createBoundingBox"])
p("C60","An octree's own interaction lists cover every pair of non-empty leaves",
  "With the emptiness flags of an octree constructed from a grid, two non-empty leaf boxes are neighbours (or equal), or exactly one level has the ancestor of one in the interaction list of the ancestor of the other.",
  "all grids, tree depths, leaf pairs",
  "Needs the exact content of the per-level sets for every grid.",
  ["lib/fmm/octree_impl.hpp: Octree::Octree, isEmpty","lib/fmm/interaction_list_impl.hpp: InteractionList"])
p("C61","Octree leaf lists partition the elements",
  "getLeafCubeEntities over all leaves lists every element of the grid exactly once, in the leaf containing its centroid, in increasing order.",
  "all grids and depths",
  "for-all over grids.",
  ["lib/fmm/octree_impl.hpp: Octree::Octree, getLeafCubeEntities"])
p("C62","Extended octree cubes contain their elements",
  "The extended cube bounds of the leaf an element is assigned to contain every point of the element.",
  "all non-degenerate triangle grids, every element and point",
  "Continuum of element shapes.",
  ["lib/fmm/octree_impl.hpp: extendedCubeBounds, Octree::Octree","lib/grid/concrete_grid_view.hpp: maximumElementDiameter"])
p("C63","Element diameter bounds of a grid view",
  "maximumElementDiameter/minimumElementDiameter are the largest/smallest element diameter, and an element's diameter is at least the length of each of its sides.",
  "all non-empty grids of non-degenerate triangles",
  "Continuum of element shapes.",
  ["lib/grid/concrete_grid_view.hpp: minimumElementDiameter, maximumElementDiameter"])

p("C64","Open domains on non-manifold edges of any valence",
  "openDomain(d) keeps an edge all of whose adjacent elements (two or more) belong to the domain, whatever their number.",
  "all grids and domain labels, including edges shared by hundreds of elements",
  "A counter overflow shows only for meshes no test contains.",
  ["lib/grid/grid_segment.cpp: GridSegment::openDomain"])
p("C65","Complement of a segment built from arbitrary excluded sets",
  "For a segment constructed from any four sets of integers, complement() contains exactly the in-range entities the segment does not contain.",
  "all sets of integers, including out-of-range indices",
  "for-all over sets.",
  ["lib/grid/grid_segment.cpp: GridSegment::complement, GridSegment::GridSegment"])
p("C66","Entity ids are unique and stable",
  "No two entities of a grid (elements, edges, vertices of the level) have the same id, and the id determines the entity.",
  "all triangle grids",
  "for-all meshes.",
  ["lib/grid/bempp_grid/triangle_imp/bempp_grid_data_container_impl.hpp: DataContainer::init, id"])
p("C67","Domain indices follow their elements through grid creation",
  "A grid created from a connectivity list and domain indices reports for every element the domain index given for it at insertion.",
  "all grids, insertion orders and domain index lists",
  "for-all meshes.",
  ["lib/grid/grid_factory.cpp: createGridFromConnectivityArrays","lib/grid/concrete_grid.hpp: permuteInsertionDomainIndices"])
p("C68","Dense block requests with start behind end are rejected",
  "assembleDenseBlock rejects a row or column range whose start lies behind its end.",
  "all spaces and all integer ranges",
  "for-all ranges; on most builds the wrong size is undefined behaviour rather than a visible failure.",
  ["lib/assembly/dense_global_block_assembler.cpp: assembleDenseBlock"])
p("C69","The barycentric grid is handed out together with its complete son map",
  "Every call of barycentricGridSonPair, however calls interleave, returns the refined grid together with the completely filled father-to-son map.",
  "all numbers of threads and all interleavings",
  "depends on the schedule; the window is too short for tests to hit.",
  ["lib/grid/concrete_grid.hpp: barycentricGridSonPair"])
p("C70","The ray/triangle test stores the intersection point",
  "When zRayIntersectsTriangle reports an intersection, the position it stores is the point where the ray meets the triangle.",
  "all points and triangles",
  "for-all real inputs.",
  ["lib/grid/ray_triangle_intersection.cpp: zRayIntersectsTriangle"])
p("C71","The ray/triangle test detects and classifies intersections",
  "zRayIntersectsTriangle returns a positive number iff the upward ray meets the triangle (beyond the tolerance, for triangles not nearly vertical); it returns 1/6 iff it meets a vertex, 1 iff it meets the interior, 1/2 otherwise; the meeting point is unique.",
  "all points and triangles",
  "for-all real inputs including degenerate positions.",
  ["lib/grid/ray_triangle_intersection.cpp: zRayIntersectsTriangle"])
p("C72","RWG dofs live on exactly two elements in every mode",
  "Whatever the dof mode and the edge valences, each RWG dof (without boundary dofs) is attached to exactly two elements with weights of equal magnitude and opposite sign.",
  "all grids, segments and modes",
  "for-all meshes including branching edges.",
  ["lib/space/rwg_vector_space.cpp: assignDofsImpl"])
p("C73","Piecewise constant flat local dofs on segments",
  "On any segment, flatLocalDofCount of the piecewise constant space equals the number of local dofs that carry a global dof, and the global-to-flat mapping can be built.",
  "all grids and segments",
  "for-all segments.",
  ["lib/space/piecewise_constant_scalar_space.cpp: assignDofsImpl, flatLocalDofCount","lib/space/space.cpp: constructGlobalToFlatLocalDofsMappingVectors"])
p("C74","The global-to-flat matrix carries the dof weights for every space",
  "For every space the entry of the global-to-flat-local matrix is the weight of the local dof, so that the product with a coefficient vector gives the local coefficients.",
  "all spaces with consistent dof maps",
  "for-all dof maps.",
  ["lib/space/space.cpp: constructGlobalToFlatLocalDofsMappingVectors"])
p("C75","Sparse operators built with CONJUGATE",
  "A sparse discrete operator constructed with transposition mode CONJUGATE acts as the (conjugate of the) stored matrix.",
  "all matrices and vectors",
  "for-all matrices.",
  ["lib/assembly/discrete_sparse_boundary_operator.cpp: isTransposed"])
p("C76","Sparse assembly of complex local operators",
  "For complex result types the sparse-mode matrix of a local operator equals the dense-mode one.",
  "all spaces and local matrices",
  "for-all inputs.",
  ["lib/assembly/elementary_local_operator.cpp: generateTriplets"])
p("C77","The discrete operator cache under concurrency",
  "Concurrent getWeakForm calls never return null and always return the right weak form.",
  "all interleavings of calls and of callers dropping their operators",
  "depends on schedules.",
  ["lib/assembly/discrete_boundary_operator_cache.cpp: getWeakForm"])
p("C78","aliveOperators lists the live cached operators",
  "aliveOperators returns exactly the cached operators that are still alive.",
  "all histories",
  "for-all histories.",
  ["lib/assembly/discrete_boundary_operator_cache.cpp: aliveOperators"])
p("C79","Operators with equal ids share the cached weak form",
  "A request for an operator whose id equals (by content) that of a live cached operator returns the cached one.",
  "all histories and operators",
  "depends on the memory addresses of the id objects.",
  ["lib/assembly/discrete_boundary_operator_cache.cpp: AbstractBoundaryOperatorIdHash, getWeakForm"])
p("C80","In-place addition rejects arrays of different extents",
  "operator+= throws when the extents of the two arrays differ.",
  "all arrays",
  "for-all extents.",
  ["lib/fiber/_2d_array_imp.hpp: operator+=","lib/fiber/_3d_array_imp.hpp: operator+=","lib/fiber/_4d_array_imp.hpp: operator+="])
p("C81","Array storage is managed safely",
  "No sequence of constructions (own or client memory), copies, assignments, resizings and destructions of arrays frees memory twice, frees a client's memory or touches freed memory; every array has live storage for its whole extent, no two arrays own the same memory, and nothing leaks once all arrays are destroyed.",
  "all histories of array operations",
  "depends on histories.",
  ["lib/fiber/_2d_array_imp.hpp: set_size, init_memory, free_memory","lib/fiber/_3d_array_imp.hpp: set_size, init_memory, init_empty, free_memory","lib/fiber/_4d_array_imp.hpp: set_size, init_memory, free_memory"])
p("C82","The Hermite interpolator may be evaluated on its whole closed range",
  "evaluate(x) for x in [rangeStart(), rangeEnd()], both ends included (the documented assertion), reads only stored samples.",
  "all sample vectors and arguments",
  "for-all x including the end point.",
  ["lib/fiber/hermite_interpolator.hpp: HermiteInterpolator::evaluate"])
p("C83","maxDistance bounds all distances",
  "No point of an element of the first grid is further from a point of an element of the second grid than maxDistance(grid1, grid2).",
  "all grids with flat elements, all points",
  "for-all grids and points.",
  ["lib/grid/max_distance.cpp: maxDistance","lib/grid/grid.cpp: Grid::getBoundingBox"])
p("C84","Kernels can be interpolated for every wave number",
  "For every wave number, sampling density and pair of grids the interpolated exponential can be set up, and at the distance of any two points of the grids it is evaluated in bounds with error at most (k h)^4/384.",
  "all wave numbers k >= 0, sampling densities, grids and pairs of points",
  "for-all parameters.",
  ["lib/fiber/initialize_interpolator_for_modified_helmholtz_3d_kernels.cpp: initializeInterpolatorForModifiedHelmholtz3dKernels","lib/operators/modified_helmholtz_operators_imp.hpp"])
p("C85","Duffy transformations are exact changes of variables",
  "For coincident, edge- and vertex-adjacent elements the region maps send the open parameter cube into the interior of element x element, almost every pair of interior points is hit by exactly one region and one parameter point, and the weight of a region is the modulus of the Jacobian determinant of its map; hence constants are integrated exactly whenever the tensor rule is exact for cubics.",
  "all shapes, adjacency types, regions and points of the four-dimensional cube",
  "for-all points of a four-dimensional domain; a wrong sign or permutation only degrades accuracy.",
  ["lib/fiber/quadrature/galerkinduffy.hpp: GalerkinDuffyExpression::getPointX, getPointY, getWeight","lib/fiber/numerical_quadrature.cpp: fillDoubleSingularQuadraturePointsAndWeights"])
p("C86","Singular rules never evaluate the kernel at coinciding points",
  "For two triangles sharing a vertex, an edge or everything, with tensor rule points inside the open unit square, the pairs of physical points of the singular rule never coincide, provided the triangles are non-degenerate and different triangles do not overlap.",
  "all element pairs, vertex orders, geometries and rules",
  "for-all geometries and local numberings; one division by zero poisons the matrix.",
  ["lib/fiber/numerical_quadrature.cpp: fillDoubleSingularQuadraturePointsAndWeights","lib/fiber/element_pair_topology.hpp: determineElementPairTopologyIn3D"])
p("C87","Quadrature orders of an element pair",
  "Elements of one grid with a common vertex get a singular rule whose orders are the singular option applied to (element order + 5), whatever the distance options and the nominal distance; all other pairs, in particular elements of different grids, get a regular rule whose orders are the option of the narrowest bracket covering the normalised distance (centre distance over the larger element size, or the nominal distance over the average element size), applied to the element orders; exchanging the elements exchanges the orders.",
  "all grids, element pairs, accuracy options and nominal distances",
  "for-all geometries and option lists; a wrong order only degrades accuracy.",
  ["lib/fiber/default_quadrature_descriptor_selector_for_integral_operators.cpp: quadratureDescriptor, regularOrder, singularOrder, elementDistanceSquared","lib/fiber/default_local_assembler_for_operators_on_surfaces_utilities.cpp: elementSizeSquared, elementCenter, averageElementSize"])

p("C88","Operands of the wrong size are rejected by discrete operators",
  "Sums of discrete operators with different shapes, products with different inner dimensions, and the application to an array with the wrong number of rows raise an exception.",
  "all operators and arrays",
  "All pairs of operator types and sizes.",
  ["python/bempp/api/assembly/discrete_boundary_operator.py: DiscreteBoundaryOperator, DenseDiscreteBoundaryOperator.__add__, ZeroDiscreteBoundaryOperator._matvec"])

p("C89","Operands of the wrong size are rejected by blocked discrete operators",
  "Sums of blocked discrete operators with different block dimensions, products with different inner block dimensions, and the application to an array with the wrong number of rows raise an exception.",
  "all blocked operators and arrays",
  "All layouts and sizes.",
  ["python/bempp/api/assembly/blocked_operator.py: BlockedDiscreteOperatorBase.__add__, BlockedDiscreteOperatorBase.__mul__, BlockedDiscreteOperator._matvec"])
p("C90","Boundary operators on incompatible spaces are rejected",
  "Adding boundary operators with different domain, range or dual spaces, or multiplying operators whose inner spaces differ, raises an exception at construction.",
  "all pairs of operators and spaces, including spaces on segments of a grid",
  "All pairs of spaces.",
  ["python/bempp/api/assembly/boundary_operator.py: _SumBoundaryOperator, _ProductBoundaryOperator","python/bempp/api/space/space.py: Space.is_compatible","lib/space/adaptive_space_impl.hpp: AdaptiveSpace::spaceIsCompatible"])
p("C91","Caching of blocked operators is invisible",
  "weak_form() and strong_form() of a blocked operator, a sum, multiple or product of blocked operators always discretise its present blocks, whatever was discretised before; assigning a block later takes effect at the next call, at least with recompute=True.",
  "all programs that create, combine, modify and discretise blocked operators",
  "All histories of assignments and cached discretisations.",
  ["python/bempp/api/assembly/blocked_operator.py: BlockedOperatorBase.weak_form, BlockedOperatorBase.strong_form, BlockedOperator.__setitem__, SumBlockedOperator, ProductBlockedOperator, ScaledBlockedOperator"])
p("C92","Strong forms and products of blocked operators",
  "The strong form of a blocked operator with m x n blocks is the block diagonal matrix of the m inverse mass matrices times the weak form, and the product of an l x m and an m x n operator has the weak form weak(A) strong(B).",
  "all blocked operators, square or not",
  "All block layouts, spaces and histories.",
  ["python/bempp/api/assembly/blocked_operator.py: BlockedOperatorBase.strong_form, ProductBlockedOperator._weak_form_impl"])
p("C93","Grid functions behave as values",
  "The coefficients of a grid function, and its projections onto any dual space, are determined by how it was created: reading coefficients or projections in between, in any order, changes neither these nor the functions computed from it (sums, differences, multiples, products with operators), including their dual spaces.",
  "all programs that create, combine and read grid functions",
  "All orders of lazily cached reads.",
  ["python/bempp/api/assembly/grid_function.py: GridFunction.coefficients, GridFunction.projections, GridFunction.__add__, GridFunction.__mul__, GridFunction.__sub__"])
p("C94","Operators act on grid functions as their discretisations",
  "A*f is a function in the range space of A whose projections onto the dual space are weak(A) times the coefficients of f and whose coefficients are strong(A) times them; (A*B)*f and A*(B*f) agree; a blocked operator maps a list of functions to the list with projections sum_j A_kj f_j.  Other functions are not affected.",
  "all operator expressions, all functions of a program, all block layouts",
  "for-all expressions, functions and layouts.",
  ["python/bempp/api/assembly/boundary_operator.py: BoundaryOperator.__mul__","python/bempp/api/assembly/blocked_operator.py: BlockedOperatorBase.__mul__"])
p("C95","Operators reject functions from other spaces",
  "Applying an operator to a grid function, or a blocked operator to a list of grid functions, raises an exception unless the functions are in spaces on the grid and of the kind of the domain spaces.",
  "all operators, functions and lists",
  "All pairs of spaces.",
  ["python/bempp/api/assembly/boundary_operator.py: BoundaryOperator.__mul__","python/bempp/api/assembly/blocked_operator.py: BlockedOperatorBase.__mul__"])
p("C96","Blocks of a row or column share their spaces",
  "After any history, all blocks assigned in a row of a blocked operator have the recorded range and dual space of the row and all blocks of a column the recorded domain space; assigning a block changes this block only; a block whose spaces disagree is rejected and nothing changes.",
  "all programs that create, combine, modify and discretise blocked operators",
  "All histories of assignments.",
  ["python/bempp/api/assembly/blocked_operator.py: BlockedOperator.__setitem__"])
p("C97","Tensor quadrature on a pair of elements is the double sum",
  "For every rule, any number of shape functions, transformations and components and one scalar kernel per transformation (one shared kernel with BLAS), the local matrix computed with a tensor-product rule has as entry (f, g) the double sum over test and trial points of weights, integration elements, kernel values and conjugated test times trial values, with BLAS (either order of multiplication) and with the generic loops.",
  "all element data, rules, transformations and kernels",
  "Sizes, orders of multiplication and memory layouts are unbounded.",
  ["lib/fiber/typical_test_scalar_kernel_trial_integral.cpp: evaluateWithTensorQuadratureRuleImpl","lib/fiber/default_test_kernel_trial_integral_imp.hpp: evaluateWithTensorQuadratureRule","lib/fiber/test_scalar_kernel_trial_integrand_functor.hpp: evaluate"])
p("C98","Quadrature with point pairs is the sum over the pairs",
  "The same for rules given by pairs of points (singular integrals), including the variant that integrates the real and imaginary parts of a complex kernel separately for real basis functions.",
  "all element data, rules, transformations, kernels and scalar types",
  "Sizes and layouts are unbounded; real and complex variants differ.",
  ["lib/fiber/typical_test_scalar_kernel_trial_integral.cpp: evaluateWithNontensorQuadratureRule, evaluateWithNontensorQuadratureRuleStandardImpl","lib/fiber/default_test_kernel_trial_integral_imp.hpp: evaluateWithNontensorQuadratureRule"])
p("C99","One kernel can be shared by several transformations",
  "The integral of a sum over several transformations with a single kernel is defined, with that kernel in every term, for all scalar types.",
  "all element data, rules, transformations and scalar types",
  "The offending combination of scalar types and counts is not exercised by the shipped operators.",
  ["lib/fiber/test_scalar_kernel_trial_integrand_functor.hpp: evaluate","lib/fiber/typical_test_scalar_kernel_trial_integral.cpp: TypicalTestScalarKernelTrialIntegral"])
p("C100","BLAS in quadrature does not change local matrices",
  "For the Laplace and modified Helmholtz single layer, double layer, adjoint double layer and hypersingular operators, every setting of the BLAS option and all shapeset orders give the local matrix of the operator's bilinear form under the quadrature rule: kernel times values, kernel times surface curls, and for modified Helmholtz kernel times surface curls plus wave number squared times kernel times normals times values.",
  "all settings, orders, geometries, bases, wave numbers, kernels, rules and scalar types",
  "Two different sets of transformations and kernels must agree for all data.",
  ["lib/operators/modified_helmholtz_operators_imp.hpp: modifiedHelmholtzHypersingularBoundaryOperator","lib/operators/laplace_operators_imp.hpp","lib/fiber/modified_helmholtz_3d_hypersingular_integrand_functor_2.hpp: evaluate","lib/fiber/surface_curl_3d_functor.hpp: evaluate"])
p("C101","Continuous polynomial spaces of any order",
  "On a triangulation, for every order from 1 to 10, segment and value of strictlyOnSegment: the local dofs of each element are its Lagrange nodes; a local dof is active iff the vertex, edge or element containing the node is on the segment (and, if strict, the element is); two active local dofs belong to the same global dof iff they sit at the same point of the surface (continuity); all dof maps are mutually consistent and every global dof is used. Other orders are refused.",
  "all conforming triangulations, segments, orders and flags",
  "Grids, vertex numberings (orientation of shared edges) and orders are unbounded in combination.",
  ["lib/space/piecewise_polynomial_continuous_scalar_space.cpp: initialize, assignDofsImpl","lib/space/space_helper.cpp: initializeLocal2FlatLocalDofMap"])
p("C102","Discontinuous polynomial spaces of any order",
  "On a triangulation, for every order from 0 to 10, segment and dof mode: every global dof belongs to exactly one local dof, the local dofs of an element are its Lagrange nodes, a local dof is active iff the element is on the segment (mode element on segment) and the vertex, edge or element of its node is (mode reference point on segment). Without a mode or for other orders the constructor throws.",
  "all conforming triangulations, segments, orders and modes",
  "Grids and segments are unbounded.",
  ["lib/space/piecewise_polynomial_discontinuous_scalar_space.cpp: initialize, assignDofsImpl"])
p("C103","The discontinuous space contains the continuous one",
  "For a continuous polynomial space created from Python with any order 1 to 10, domains, closed and strictly_on_segment, discontinuous_space and super_space exist, are discontinuous, and contain every function of the space.",
  "all triangulations, orders, domain sets and flags",
  "The dof modes are derived from the flags by hand; all combinations and domain shapes matter.",
  ["python/bempp/api/space/space.py: ContinuousPolynomialSpace","cython/bempp/core/space/space.pyx: function_space","lib/grid/grid_segment.cpp: AdaptiveGridSegmentFactory::update"])
p("C104","Flat local dof data of discontinuous spaces",
  "Position, bounding box and normal reported for flat local dof number i of a discontinuous polynomial space are those of the local dof with that flat number.",
  "all triangulations, segments, modes and orders",
  "Numberings for all orders.",
  ["lib/space/piecewise_polynomial_discontinuous_scalar_space.cpp: getFlatLocalDofPositions, getFlatLocalDofBoundingBoxes, getFlatLocalDofNormals, flatLocal2localDofs"])
p("C105","Normal components of Raviart-Thomas and RWG functions are continuous",
  "For every function of the default RT and RWG spaces on any segment of a triangulation with at most two triangles per edge, the outward normal components that evaluate returns on the two sides of an edge cancel, at all points of the edge; they vanish on edges outside the segment and on boundary edges. The coefficient of an edge is, up to sign, its total flux (RT) or its normal component (RWG).",
  "all triangulations in space, segments, coefficient vectors, edges and points",
  "Meshes, orientations and coefficients are unbounded; a sign error shows up only for some numberings of the elements.",
  ["lib/space/rwg_vector_space.cpp: assignDofsImpl","lib/space/raviart_thomas_0_vector_space.cpp: assignDofsImpl","lib/fiber/hdiv_function_value_functor.hpp: evaluate","cython/bempp/core/space/local_evaluator.hpp: evaluateLocalBasis","python/bempp/api/assembly/grid_function.py: GridFunction.evaluate"])
p("C106","Surface divergence",
  "The divergence computed for vector-valued functions is the divergence in the tangential plane of the function on the surface, in any orthonormal basis; for a Raviart-Thomas basis function it is one over the area of the element, in balance with its flux.",
  "all triangles in space, differentiable reference functions, points and bases",
  "An identity between derivatives for all geometries.",
  ["lib/fiber/surface_div_3d_functor.hpp: evaluate","lib/fiber/hdiv_function_value_functor.hpp: evaluate","lib/fiber/raviart_thomas_0_shapeset.hpp"])
p("C107","Nedelec functions",
  "Functions of the Nedelec spaces are the Raviart-Thomas (RWG) functions with the same coefficients turned by the element normal. Their tangential components agree on both sides of an edge of equally oriented triangles and vanish on edges without a dof. The computed surface curl is the normal component of the curl, and for basis functions equals the divergence of the Raviart-Thomas function.",
  "all triangulations in space, segments, coefficient vectors, edges, points and reference functions",
  "Meshes and coefficients are unbounded; derivatives in space for all geometries.",
  ["lib/fiber/nedelec_0_shapeset.hpp: evaluate","lib/fiber/hcurl_function_value_functor.hpp: evaluate","lib/fiber/hcurl_surface_curl_functor.hpp: evaluate","lib/space/nedelec_0_vector_space.cpp","lib/space/scaled_nedelec_0_vector_space.cpp"])
p("C108","Normals, surface gradient and surface curl",
  "The normal of a triangle is the one unit vector orthogonal to it for which the corners run anticlockwise. The surface gradient is tangential and its component in every tangential direction is the derivative of the function in that direction; the surface curl is the gradient turned by the normal.",
  "all triangles in space, differentiable functions, points and directions",
  "Real-valued geometry.",
  ["lib/grid/concrete_geometry.hpp: calculateNormals","lib/fiber/surface_grad_3d_functor.hpp: evaluate","lib/fiber/surface_curl_3d_functor.hpp: evaluate"])
p("C109","Functions of continuous scalar spaces are continuous",
  "A grid function in a continuous scalar space (order 1 to 10, any domains, closed and strictly_on_segment) takes the same value at a point of the surface whichever element it is evaluated on: for spaces that are not strict on all elements, for strict ones among elements of the segment, and it is zero on the others. The value at a Lagrange node is the coefficient of the node's dof.",
  "all triangulations, orders, segments, coefficients, pairs of elements and shared points",
  "Polynomials of ten degrees on unbounded meshes with every relative orientation of neighbours.",
  ["lib/fiber/lagrange_scalar_shapeset.hpp: evaluate","lib/fiber/linear_scalar_shapeset.hpp: evaluate","lib/space/piecewise_polynomial_continuous_scalar_space.cpp: assignDofsImpl","cython/bempp/core/space/local_evaluator.hpp: evaluateLocalBasis","python/bempp/api/assembly/grid_function.py: GridFunction.evaluate"])
p("C110","evaluate_on_vertices returns the function's vertex values",
  "GridFunction.evaluate_on_vertices of a function in a continuous space returns for every vertex of the segment the value of the function there.",
  "all triangulations, segments, flags and coefficients",
  "Depends on the iteration order over elements.",
  ["python/bempp/api/assembly/grid_function.py: GridFunction.evaluate_on_vertices"])
p("C111","GridFunction.integrate returns the integral",
  "GridFunction.integrate returns, for every component, the quadrature sum over the elements of values times weights times integration elements.",
  "all grids, functions, rules and numbers of components",
  "Shapes and dtypes of arrays for all kinds of function.",
  ["python/bempp/api/assembly/grid_function.py: GridFunction.integrate"])
p("C112","Kernels are the fundamental solution and its derivatives",
  "Off the diagonal, each kernel of the Laplace, (modified) Helmholtz and Maxwell operators has the value of exp(-k|x-y|)/(4 pi |x-y|), its normal derivative in y (double layer), in x (adjoint), minus the second normal derivative (hypersingular), its gradient (Maxwell, potential gradients) or the multiples with k and 1/k, for every complex wave number; Laplace is k = 0; single layer and hypersingular kernels are symmetric and the adjoint kernel is the double layer kernel with points exchanged; no kernel reads geometrical data it did not request.",
  "all complex wave numbers, all pairs of distinct points, all normals",
  "An identity between functions of several real variables.",
  ["lib/fiber/laplace_3d_*_kernel_functor.hpp: evaluate","lib/fiber/modified_helmholtz_3d_*_kernel_functor.hpp: evaluate","lib/fiber/modified_maxwell_3d_*_kernel_functor.hpp: evaluate"])
p("C113","Evaluated potentials solve the differential equation",
  "The functions returned by the potential operators (Laplace, modified Helmholtz, Helmholtz single and double layer, electric and magnetic field, single layer gradient), as functions of the evaluation point, satisfy their equation (Laplace u = k^2 u, -k^2 u or 0) exactly away from the quadrature points, for every density, mesh and quadrature rule; the gradient operators return the gradient of the potentials; the magnetic field is free of divergence; potentials are additive over the elements.",
  "all wave numbers, densities, quadrature points, weights and evaluation points off the quadrature points",
  "A differential identity at all points.",
  ["lib/fiber/default_kernel_trial_integral_imp.hpp: evaluate","lib/fiber/default_evaluator_for_integral_operators_imp.hpp: evaluate","lib/operators/*_potential_operator.cpp","python/bempp/api/operators/potential"])
p("C114","Far field operators are the limits of the potentials",
  "For every unit direction x, the Helmholtz and Maxwell far field operators return the limit of r exp(-ikr) u(r x) as r grows, u being the corresponding potential of the same density.",
  "all complex wave numbers (nonzero for the electric field), unit directions, densities, meshes and rules",
  "A limit.",
  ["lib/fiber/modified_helmholtz_3d_far_field_*_kernel_functor.hpp: evaluate","lib/fiber/modified_maxwell_3d_far_field_*_kernel_functor.hpp: evaluate","python/bempp/api/operators/far_field"])
p("C115","Helmholtz operators use the outgoing fundamental solution",
  "The Helmholtz operators with wave number k have the kernel exp(ik|x-y|)/(4 pi |x-y|); its modulus is that of the Laplace kernel times exp(-Im k |x-y|).",
  "all complex wave numbers and pairs of distinct points",
  "A sign convention checked for all complex numbers.",
  ["python/bempp/api/operators/boundary/helmholtz.py: single_layer","python/bempp/api/operators/potential/helmholtz.py: single_layer"])
p("C116","Local matrices do not depend on how they are computed",
  "Every local matrix a numerical integrator of the test-kernel-trial kind writes is the matrix of its own pair of elements: it is the same for both call variants and for lists of pairs, with or without cached geometrical data, whatever else is in the batch and whatever earlier calls left in the thread's scratch data; calls whose number of results does not match the number of elements are rejected.",
  "all integrators, element lists, shapesets, dof selections, cache settings and histories of the thread-local data",
  "Dependence on scratch data left by an arbitrary history.",
  ["lib/fiber/separable_numerical_test_kernel_trial_integrator_imp.hpp: integrateCpu, precalculateGeometricalData","lib/fiber/nonseparable_numerical_test_kernel_trial_integrator_imp.hpp: integrate"])
p("C117","The shared basis data of the nonseparable integrator is thread safe",
  "For any number of threads and any interleaving, every basis data object handed out is alive and holds the values of its shapeset, all calls for a shapeset get the same object, nothing is deleted twice or leaked, and the local matrices are those of their pairs.",
  "all numbers of threads, shapesets and interleavings",
  "Race between lookup and insertion.",
  ["lib/fiber/nonseparable_numerical_test_kernel_trial_integrator_imp.hpp: basisData, integrate, ~NonseparableNumericalTestKernelTrialIntegrator"])
p("C118","The three ways of integrating potentials agree",
  "Integrating a potential for many points and one element, one point and many elements, or pairs of points and elements gives the same local matrix for each point and element; a selected component is that row of it.",
  "all points, elements, shapesets, dof selections and kernels that ask for positions only at the evaluation point",
  "All batches.",
  ["lib/fiber/numerical_kernel_trial_integrator_imp.hpp: integrate"])
p("C119","Space preprocessing does not change an operator",
  "A boundary operator asked for between given spaces has these spaces and, as weak form, the Galerkin matrix of its bilinear form for the basis functions of the domain and the dual space, whether it is assembled directly (dense or use_projection_spaces=False), on the super spaces followed by projections, or on the non-barycentric versions of the spaces; projecting an operator to subspaces gives the Galerkin matrix for the subspaces.",
  "all spaces contained in super spaces with invertible mass matrix, all forms, all option settings and all programs executed before",
  "Ranges over all spaces and forms.",
  ["python/bempp/api/operators/boundary/_common.py: get_operator_with_space_preprocessing, get_wave_operator_with_space_preprocessing","python/bempp/api/space/projection.py: project_operator, rewrite_operator_spaces","python/bempp/api/assembly/boundary_operator.py: _ProjectionBoundaryOperator"])
p("C120","The hypersingular operator does not depend on use_slp",
  "hypersingular(...) with use_slp=False, use_slp=True or a given single layer operator has the same weak form: the Galerkin matrix of the form that sums the single layer form over the components of the surface curls (and, for wave problems, the squared wave number times that of the functions times the normal).",
  "all domain, range and dual spaces whose curls (and multiples by the normal) belong to the space of the single layer operator, all wave numbers",
  "Ranges over all spaces and forms.",
  ["python/bempp/api/operators/boundary/laplace.py: hypersingular","python/bempp/api/operators/boundary/modified_helmholtz.py: hypersingular"])
p("C121","Blocks of multitrace operators",
  "Block (0,0), (0,1), (1,0), (1,1) of a multitrace operator is minus the double layer, the single layer, the hypersingular and the adjoint double layer operator, with weak form the Galerkin matrix for the trial functions of the column and the test functions of the row, for linear and dual spaces, on one grid or from a grid to another; range and dual space agree along rows, the domain along columns; single layer and hypersingular pairs likewise.",
  "all grids, spaces and wave numbers",
  "Ranges over all spaces and forms.",
  ["python/bempp/api/operators/boundary/_common.py: multitrace_operator_impl, multitrace_operator_impl_lin, multitrace_operator_impl_dual, slp_and_hyp_impl"])
p("C122","function_space returns the space asked for",
  "function_space(grid, kind, order, ...) succeeds exactly for the documented kinds and orders (and restriction to domains where this is supported) and then returns a space of that kind, order and part of the grid; any other call raises an error.",
  "all grids, kinds, orders and options",
  "Ranges over all arguments.",
  ["python/bempp/api/space/space.py: function_space and the classes of spaces","cython/bempp/core/space/space.pyx: function_space"])
p("C123","Super space, discontinuous space, non-barycentric space",
  "For every space: grid and is_barycentric tell on which grid it lives; its super space and its discontinuous space exist, live on the same grid and the same domains, are not barycentric, and are their own super/discontinuous spaces; its non-barycentric space, where has_non_barycentric_space says so, has the corresponding kind, order and domains on the original grid; curl-conforming spaces know the divergence-conforming space of the same grid and domains.",
  "all arguments for which function_space succeeds",
  "Ranges over all arguments.",
  ["python/bempp/api/space/space.py: DiscontinuousPolynomialSpace ... RotatedBuffaChristiansenSpace"])
p("C124","Equal spaces are the same spaces",
  "Spaces (from function_space or attributes of such) that compare equal consist of the same functions: same grid, kind, order, options and set of domains; spaces from equal arguments compare equal, whatever the order of the domains; and the order or repetition of domains does not influence the part of the grid.",
  "all arguments of function_space, all chains of attributes, all domain lists",
  "Ranges over all arguments and chains of attributes.",
  ["python/bempp/api/space/space.py: Space.__eq__, function_space","lib/grid/grid_segment.cpp: openDomain, closedDomain"])
p("C125","Linear functions on the barycentric refinement are the linear functions of the grid",
  "The spaces B-P and B-DP of order 1 have as many dofs as P and DP of order 1, and the function with given coefficients has the same value at every physical point as the function of P (DP) with these coefficients: the sons of an element are the six triangles corner, edge midpoint, centre, they cover it, the son map numbers them, and each son carries the coefficients of its father.",
  "all triangular grids, numberings of the refined elements, coefficient vectors and points",
  "Ranges over all grids and points.",
  ["lib/space/piecewise_linear_continuous_scalar_space_barycentric.cpp: assignDofsImpl","lib/space/piecewise_linear_discontinuous_scalar_space_barycentric.cpp: assignDofsImpl","lib/fiber/linear_scalar_shapeset_barycentric.hpp","lib/grid/concrete_grid.hpp: barycentricSonMap"])
p("C126","Vector functions on the barycentric refinement are those of the grid",
  "The spaces B-RT, B-RWG, B-NC and B-SNC have as many dofs as the spaces without B-, and functions with the same coefficients have the same value at every physical point.",
  "all triangular grids, numberings of the refined elements, coefficient vectors and points",
  "Ranges over all grids and points.",
  ["lib/space/raviart_thomas_0_vector_space_barycentric.cpp: assignDofsImpl","lib/space/rwg_vector_space_barycentric.cpp: assignDofsImpl","lib/space/nedelec_0_vector_space_barycentric.cpp: assignDofsImpl","lib/space/scaled_nedelec_0_vector_space_barycentric.cpp: assignDofsImpl","lib/fiber/raviart_thomas_0_shapeset_barycentric.hpp","lib/fiber/nedelec_0_shapeset_barycentric.hpp"])
p("C127","Piecewise constant functions on dual cells and fathers",
  "A function of the space DUAL has, on every fine triangle that touches vertex v, the coefficient of v as its value, one dof per vertex; a function of the piecewise constants on the refinement has on all six sons of an element the coefficient of that element.",
  "all triangular grids, numberings of the refined elements and coefficient vectors",
  "Ranges over all grids.",
  ["lib/space/piecewise_constant_dual_grid_scalar_space.cpp: assignDofsImpl","lib/space/piecewise_constant_scalar_space_barycentric.cpp: assignDofsImpl"])
p("C128","Buffa-Christiansen functions are the dual functions of the edges",
  "On an oriented surface the space BC has one dof per edge between two triangles. Its function has, through every side of every triangle of the barycentric refinement, the flux that defines the Buffa-Christiansen function of that edge: outflow 1/(2N) from each of the 2N fine triangles round the edge's one end, inflow at the other, flux 1/2 through each dual half edge of the edge, none elsewhere except through the boundary edges at its ends. Normal components cancel across all edges of the refinement for all coefficient vectors, and the functions of RBC are those of BC turned by a right angle.",
  "all oriented triangulated surfaces with or without boundary, all numberings and iteration orders, coefficient vectors and points",
  "Ranges over all surfaces, vertex valences and numberings.",
  ["lib/space/buffa_christiansen_vector_space.cpp: assignDofsImpl","lib/space/rotated_buffa_christiansen_vector_space.cpp: assignDofsImpl","lib/fiber/buffa_christiansen_shapeset.hpp","lib/fiber/rotated_buffa_christiansen_shapeset.hpp"])
p("C129","Building a Buffa-Christiansen space ends on every grid",
  "Constructing a space BC or RBC ends on every triangular grid, with a space or with an exception that reports a bad mesh.",
  "all grids, oriented surfaces or not",
  "Termination on every grid cannot be tested.",
  ["lib/space/buffa_christiansen_vector_space.cpp: assignDofsImpl","lib/space/rotated_buffa_christiansen_vector_space.cpp: assignDofsImpl"])
G="python/bempp/api/file_interfaces/gmsh.py: "
I="python/bempp/api/file_interfaces/general_interface.py: "
p("C130","Importing a Gmsh file gives its triangles",
  "import_grid on a Gmsh 2.2 file, ASCII or binary, with nodes numbered from 1 gives the grid of its triangles: element k is the k-th triangle with its corners in order, its id and its first tag as domain index; the vertices are the nodes used by triangles, each once, at their coordinates. Elements of other types, unused nodes and other sections have no influence.",
  "all node and element lists of a valid file, all numbers of tags, element types and other sections",
  "Ranges over all files.",
  [G+"parse_gmsh, read_vertex, read_element, create_grid_structure, import_data_sets",I+"import_grid"])
p("C131","An exported Gmsh file says what was exported",
  "Exporting a data set writes a Gmsh 2.2 file, ASCII or binary, with exactly its vertices, elements, domain indices and data arrays (real and imaginary parts, times, ids given or 1, 2, ...). Exporting a grid, a function or series of functions writes the vertices and elements of the grid and the values of the functions at vertices or elements.",
  "all data sets, grids and functions",
  "Ranges over all grids and data.",
  [G+"export_data_sets",I+"export, bempp_object_to_grid_data_set, GenericGrid, Data.add_data"])
p("C132","Export and import of a grid gives the grid",
  "Importing an exported Gmsh file gives the same elements with the same corners at the same places (in ASCII files: at the places as printed); only unused vertices are dropped and the others renumbered, and the id maps give the old numbers plus one. ASCII files may contain data.",
  "all grids, functions and options",
  "Ranges over all grids.",
  [G+"export_data_sets, parse_gmsh",I+"export, import_grid"])
p("C133","Domain indices survive export and import",
  "The domain indices of a grid that is exported to a Gmsh file and imported again are the same.",
  "all grids and domain indices","Ranges over all grids.",
  [I+"bempp_object_to_grid_data_set",G+"export_data_sets"])
p("C134","Ids given to export are the ids in the file",
  "With vertex_ids and element_ids given, export writes these ids to the file.",
  "all grids and id lists","Ranges over all id lists.",
  [I+"export, bempp_object_to_grid_data_set",G+"export_data_sets"])
p("C135","Exported binary files with data can be imported",
  "A file that export writes with the default settings (binary) for a grid function can be imported and gives its grid.",
  "all grids and functions","Ranges over all data.",
  [G+"export_data_sets, parse_gmsh"])
p("C136","Series of functions are exported completely",
  "Exporting a series of scalar functions writes the values of every function, and imaginary parts if one of them is complex, with or without given time steps.",
  "all series of functions on a grid","Ranges over all series.",
  [I+"export, bempp_object_to_grid_data_set, Data",G+"export_data_sets"])
p("C137","The transformation of exported data",
  "With the option transformation, export writes the transformed values: real or imaginary parts, or one value computed from all components.",
  "all functions and transformations","Ranges over all functions.",
  [I+"transform_array, bempp_object_to_grid_data_set, Data.add_data"])
p("C138","Several data sets are written to several files",
  "export_data_sets with several data sets writes one file for each, which says what that data set says, with given or default ids.",
  "all lists of data sets","Ranges over all lists of data sets.",
  [G+"export_data_sets"])
p("C139","References to missing nodes are rejected",
  "Importing a Gmsh file with a triangle that refers to a node which is not in the file raises an exception.",
  "all files","Ranges over all files.",
  [G+"parse_gmsh, create_grid_structure"])
p("C140","Importing ends on every file",
  "Importing a Gmsh file ends on every sequence of bytes, with a grid or an exception.",
  "all sequences of bytes","Termination on every input cannot be tested.",
  [G+"parse_gmsh"])
IS="python/bempp/api/linalg/iterative_solvers.py: "
DS="python/bempp/api/linalg/direct_solvers.py: "
PO="python/bempp/api/assembly/potential_operator.py: "
p("C141","The iterative solvers solve the discretised equation",
  "After f, info, ... = gmres(A, b, ...) or cg(A, b, ...) with the weak form, f lies in the domain of A; when info is 0, the weak form of A times the coefficients of f is, up to the tolerance, the vector of projections of b onto the dual space of A, so that A * f has the projections of b; the residuals and the iteration count are those of the iteration; existing functions and operators are not changed; operators that are not square are rejected.",
  "all operators built from others, all histories of operators and functions, all tolerances and all behaviours of the underlying iteration","Ranges over all operators, right-hand sides and histories of cached values.",
  [IS+"gmres, cg, _gmres_single_op_imp, _it_counter"])
p("C142","The iterative solvers with the strong form",
  "With use_strong_form=True and a right-hand side in the range space of A, info = 0 means that the coefficients of A * f are, up to the tolerance, those of b.",
  "all operators built from others, all histories, all behaviours of the underlying iteration","Ranges over all operators, right-hand sides and histories of cached values.",
  [IS+"gmres, cg, _gmres_single_op_imp"])
p("C143","With the strong form the right-hand side must lie in the range space",
  "With use_strong_form=True a right-hand side that does not lie in the range space of A is rejected, and nothing changes.",
  "all operators and right-hand sides","Ranges over all pairs of spaces.",
  [IS+"gmres, cg, _gmres_single_op_imp"])
p("C144","Right-hand sides given by projections",
  "A right-hand side given by its projections onto some dual space is the same right-hand side for the solvers, whatever the dual space of A is.",
  "all operators, all right-hand sides given by projections","Ranges over all pairs of dual spaces.",
  [IS+"_gmres_single_op_imp","python/bempp/api/assembly/grid_function.py: projections"])
p("C145","The direct solver solves the discretised equation",
  "lu(A, b) returns a function in the domain of A whose coefficients solve the dense system with the matrix of A and the projections of b, or raises when the dense solver does, for operators that are not stored as sparse matrices.",
  "all operators built from others, all histories, all behaviours of the dense solver","Ranges over all operators, right-hand sides and histories of cached values.",
  [DS+"lu"])
p("C146","Precomputed LU factors and sparse operators",
  "compute_lu_factors(A) gives factors with which lu(A, b, factors) is lu(A, b), and lu works for every square operator, whether it is stored sparse or not.",
  "all operators and right-hand sides","Ranges over all operators.",
  [DS+"compute_lu_factors, lu"])
p("C147","The iterative solver for blocked operators",
  "gmres with a blocked operator and a list of right-hand sides returns one function for every column, in the domain space of that column; when info is 0, the block matrix of the weak (strong) form times the stacked coefficients is, up to the tolerance, the stacked vector of projections onto the dual spaces of the rows (of coefficients); operators that are not square are rejected; nothing else changes.",
  "all blocked operators built from others, all histories, all behaviours of the underlying iteration","Ranges over all block structures, right-hand sides and histories of cached values.",
  [IS+"_gmres_block_op_imp","python/bempp/api/assembly/blocked_operator.py: projections_of_grid_function_list, grid_function_list_from_coefficients"])
p("C148","Lists of right-hand sides must fit the blocked operator",
  "gmres with a blocked operator rejects lists of right-hand sides that do not have one function for every row, in the range space of the row when the strong form is used.",
  "all blocked operators and all lists of functions","Ranges over all lists of functions.",
  [IS+"_gmres_block_op_imp"])
p("C149","Linear combinations of potential operators",
  "Sums, differences, negatives and multiples P * a of potential operators with the same points, components and degrees of freedom can be formed, and their value for a grid function is, at every point and in every component, the linear combination of the values; evaluation does not change the function.",
  "all linear combinations, all functions and their histories","Ranges over all linear combinations and histories.",
  [PO+"evaluate, __add__, __mul__, __neg__, __sub__"])
p("C150","Potential operators that do not fit are rejected",
  "Potential operators with different components, points or spaces cannot be added or subtracted, functions from another space cannot be evaluated, and a * P is P * a.",
  "all potential operators and functions","Ranges over all pairs of operators.",
  [PO+"__is_compatible, __add__, evaluate"])

PA="lib/fiber/default_local_assembler_for_potential_operators_on_surfaces_imp.hpp: "
PH="lib/assembly/potential_operator_hmat_assembly_helper.cpp: "
p("C151","Local potentials do not depend on the batching",
  "Whatever points and elements a potential operator is evaluated for in one go, whatever the order in which the groups of pairs with equal rules are processed and whatever the result arrays held before, every pair of a point and an element gets the quadrature sum of integrand * Jacobian * weight with the rule chosen for this pair; concurrent requests for an integrator all get a live one of the right rule.",
  "all sets of points and elements, all orders of the groups, all previous contents, all interleavings of threads","Ranges over all batches, group orders and interleavings of threads.",
  [PA+"evaluateLocalContributions (three overloads), getIntegrator","lib/fiber/default_kernel_trial_integral_imp.hpp: evaluateWithPureWeights","lib/fiber/numerical_kernel_trial_integrator_imp.hpp"])
p("C152","H-matrix blocks of potential operators",
  "Every block of rows and columns an H-matrix requests of a potential operator holds, for the row of component k of point i and the column of a degree of freedom, the sum over the elements of the dof's support of weight * local potential, whichever of the three code paths (single column, single row, block) serves the request.",
  "all spaces, permutations, point sets, blocks and numbers of components","Ranges over all spaces, blocks and permutations of rows and columns.",
  [PH+"computeMatrixBlock","lib/assembly/hmat_global_assembler.cpp: assemblePotentialOperator"])
p("C153","Quadrature rules of potentials",
  "The rule chosen for a point and an element belongs to the element's number of corners and has the order requested for the narrowest range of distances containing the point's distance from the element's centre in units of the element's size (with a nominal distance: the nominal one in units of the average size), relative to twice the order of the shape functions; a rule is found for every point and every element of positive size.",
  "all accuracy options, grids, points, elements and nominal distances","Ranges over all option lists and all real distances.",
  ["lib/fiber/default_quadrature_descriptor_selector_for_potential_operators.cpp: quadratureDescriptor","lib/fiber/accuracy_options.cpp"])
p("C154","Geometry of the rows of a potential operator",
  "The cluster tree of the rows receives one entry per point and component, row r lying at point r / components.",
  "all point sets and numbers of components","Ranges over all point sets.",
  ["lib/assembly/hmat_global_assembler.cpp: PotentialGeometryInterface, assemblePotentialOperator","lib/hmat/geometry_impl.hpp: fillGeometry"])
p("C155","Volumes for the test for vanishing pivots",
  "For a boundary operator the volume kept for each row and each column of the H-matrix is that of the smallest element in the support of its degree of freedom, so that every test for a vanishing pivot in the compression is defined.",
  "all spaces and permutations","Ranges over all spaces and permutations.",
  ["lib/assembly/weak_form_hmat_assembly_helper.cpp: constructor","lib/hmat/hmatrix_aca_compressor_impl.hpp"])
p("C156","Volumes for the test for vanishing pivots of potentials",
  "For a potential operator a volume is kept for every row of the H-matrix, so that every test for a vanishing pivot in the compression is defined.",
  "all point sets, numbers of components, rows and columns","Ranges over all rows.",
  [PH+"constructor (testVolumes)","lib/hmat/hmatrix_aca_compressor_impl.hpp"])
GV="python/bempp/api/grid/grid_view.py: GridView."
p("C157","Local grid refinement ends",
  "refine of a grid with marked elements terminates with a result, whichever marked element set.pop returns in each turn; no turn is stuck, and there are at most as many turns as elements and marks together.",
  "all well-formed triangle grids, sets of marked elements and orders of popping",
  "The loop adds marks while it runs; termination for every grid and every order cannot be tested.",
  [GV+"refine"])
p("C158","Refined grids are surfaces",
  "Refining a surface (at most two elements at an edge, no two elements with the same corners) gives a well-formed surface again (valid indices, three different corners, one domain index and reference edge per element), without boundary if the grid had none.",
  "all triangle grids that are surfaces, sets of marked elements, orders of popping",
  "Conformity ranges over all mesh topologies and closure patterns.",
  [GV+"refine"])
p("C159","Which edges local refinement bisects",
  "The bisected edges are the smallest set of edges containing the reference edge of each marked element and the reference edge of each element of which it contains an edge; so the order of popping does not influence them or the number of new vertices.",
  "all surfaces, sets of marked elements, orders of popping",
  "Ranges over all grids and schedules of the loop.",
  [GV+"refine"])
p("C160","Refined elements tile the old ones",
  "The elements of the refined grid come in blocks, one per old element in order; a block covers just the old element, with the same orientation and with areas adding up, has its domain index, and is the element itself with its reference edge or consists of 2 to 4 triangles; marked elements are bisected; old vertices keep their indices.",
  "all surfaces, vertex positions, domain indices, sets of marked elements, orders of popping",
  "Continuum of geometries, all combinations of bisected edges.",
  [GV+"refine"])
p("C161","Repeated refinement does not degrade elements",
  "After any number of refinements with any marks each element arises from an element of the first grid by newest vertex bisection (bisecting the edge opposite the newest vertex), and its quality (squared area over squared sum of squared sides) is at least a ninth of that element's; the reference edges of a grid made from arrays are longest edges.",
  "all surfaces, histories of marks and refinements, orders of popping",
  "All histories of refinements.",
  [GV+"refine",GV+"reference_edges"])
p("C162","No hanging nodes after local refinement",
  "Each new vertex of a refined grid is the midpoint of an edge of the old grid that is no longer an edge of any element, and both its halves are edges of as many elements as it was.",
  "all grids, sets of marked elements, orders of popping",
  "All mesh topologies.",
  [GV+"refine"])
p("C163","Marks of elements",
  "The set of marked elements is the set of those marked since clear_marks was last called; get_mark tells whether an element is marked; clear_marks and refine may be called before anything is marked.",
  "all sequences of calls of mark, get_mark, clear_marks",
  "All histories of calls.",
  [GV+"mark",GV+"get_mark",GV+"clear_marks"])
p("C164","Connectivity matrices of a grid view",
  "vertex_to_element_matrix (edge_to_element_matrix) has a row for each vertex (edge) and a column for each element, with entry 1 if the vertex (edge) belongs to the element and 0 otherwise.",
  "all triangle grids","All meshes.",
  [GV+"vertex_to_element_matrix",GV+"edge_to_element_matrix",GV+"_create_connectivity_matrices"])
p("C165","Assembling the singular part of an integral operator",
  "assemble_weak_form(..., assemble_only_singular_part=True) gives a sparse matrix that has the entries of the full weak form for each pair of dofs whose supports touch (share a vertex) and zeros elsewhere, whatever the order in which Python's sets are traversed; it is zero if the two spaces live on different grids; if the kernel's integrals vanish for elements that do not touch it is the whole weak form.",
  "all grids, pairs of spaces with real dof weights, local integrals, orders of traversal","All meshes and dof numberings, all orders of traversal of sets.",
  ["python/bempp/api/assembly/assembler.py: assemble_singular_part, _matrix_from_integration_pairs","python/bempp/api/assembly/abstract_boundary_operator.py: ElementaryAbstractIntegralOperator.assemble_weak_form"])
CT="lib/fmm/chebychev_tools_impl.hpp: ChebychevTools::"
p("C166","Chebyshev interpolation is exact for polynomials",
  "For any values at the order+1 Chebyshev nodes (distinct points of [-1, 1] including both ends) evaluateInterpolationPolynomial returns, at every list of points, the values of a polynomial of degree at most the order with those values at the nodes; polynomials of such degree are reproduced, also at the nodes.",
  "all positive orders, values at nodes, evaluation points","Continuum of points, all orders.",
  [CT+"ChebychevTools, evaluateInterpolationPolynomial"])
p("C167","Chebyshev differentiation is exact for polynomials",
  "derivativeWeights returns the derivatives at the nodes of the polynomial of degree at most the order with the given values at the nodes.",
  "all positive orders, values at nodes","All orders and polynomials.",
  [CT+"ChebychevTools, derivativeWeights"])
p("C168","Chebyshev interpolation onto child boxes",
  "childInterpolationMatrix takes the values of a polynomial of degree at most the order at the nodes of the parent to its values at the nodes of the two children, intervals at both ends of the parent with the given ratio of child to parent width.",
  "all positive orders, ratios, polynomials","Continuum of ratios, all orders.",
  [CT+"childInterpolationMatrix"])
p("C169","Chebyshev differentiation in three dimensions",
  "derivativeWeights3d in direction 0, 1 or 2 gives for each node (i, j, k) the derivative of the polynomial through the values along the line in that direction, and assigns every entry.",
  "all positive orders, values, directions, contents of fresh memory","All orders; index layout.",
  [CT+"derivativeWeights3d"])
PS="cython/bempp/core/grid/py_sphere.hpp: "
p("C170","Regular spheres are closed triangulated surfaces",
  "regular_sphere(n) (grid_from_sphere(n, radius, origin)) gives 8*4^n triangles on 4*4^n+2 nodes; each directed side belongs to exactly one triangle and its reverse to exactly one other; every node is a corner of a triangle and the corners of a triangle are three different existing nodes.",
  "all refinement levels, radii, origins","All refinement levels.",
  [PS+"SphereMesh::SphereMesh, refineTriangles","cython/bempp/core/grid/grid.pyx: grid_from_sphere","python/bempp/api/shapes/shapes.py: regular_sphere"])
p("C171","Regular spheres have their nodes on the sphere and face outwards",
  "All nodes of grid_from_sphere(n, radius, origin) have distance |radius| from the origin, no midpoint that is projected is the centre, and for a positive radius the normal of every triangle points away from the centre.",
  "all refinement levels, radii, origins","All refinement levels; continuum of radii.",
  [PS+"SphereMesh::SphereMesh, refineTriangles"])
p("C172","Entities are found by their index",
  "Whatever calls were made before, element_from_index(i) (vertex_from_index, edge_from_index) returns the entity whose index in the index set is i; as in Python lists negative arguments count from the end, and arguments outside of the range raise IndexError.",
  "all views, histories of calls, arguments","Every history of a cache.",
  ["python/bempp/api/grid/grid_view.py: element_from_index, vertex_from_index, edge_from_index"])
p("C173","Entities are found by their insertion index",
  "element_from_insertion_index(i) (vertex_from_insertion_index) returns the entity that was inserted as number i.",
  "all grids made by a factory, histories of calls, arguments","Every history of a cache.",
  ["cython/bempp/core/grid/grid.pyx: element_from_insertion_index, vertex_from_insertion_index"])
P1C="python/bempp/api/fenics_interface/p1_coupling.py: "
p("C174","P1 coefficients and vertex values",
  "For the continuous P1 space on a grid without unused vertices p1_dof_to_vertex_matrix is a square matrix, and its product with the coefficients of a function has at the insertion index of each vertex the coefficient of the dof at that vertex, however the vertices were inserted.",
  "all grids without unused vertices, insertion orders, coefficient vectors","All meshes and numberings.",
  [P1C+"p1_dof_to_vertex_matrix"])
p("C175","The trace of a FEniCS P1 function",
  "The matrix of p1_trace, applied to the coefficients of a FEniCS P1 function, gives each BEM++ dof the coefficient of the FEniCS dof at the same mesh vertex.",
  "all boundary meshes, numberings of boundary vertices, mesh vertices, FEniCS dofs and BEM++ dofs, coefficient vectors","All meshes and numberings.",
  [P1C+"p1_trace, p1_dof_to_vertex_matrix"])
p("C176","Element data round trip",
  "grid_from_element_data with arrays of three rows makes a grid exactly when every corner is the number of a column of vertices and the domain indices are absent or one for each element, and raises otherwise; the vertices, elements and domain_indices of the grid's leaf view are then the given columns, each moved to the index that the grid assigned to it, the corners renumbered accordingly and in the same order.",
  "all arrays with three rows, all domain index lists, all numberings of vertices and elements by the Dune grid",
  "for-all meshes and numberings; the tests use one grid whose numbering is the insertion order.",
  ["lib/grid/grid_factory.cpp: createGridFromConnectivityArrays","lib/grid/concrete_grid_view_imp.hpp: getRawElementDataImpl","cython/bempp/core/grid/grid.pyx: grid_from_element_data","cython/bempp/core/grid/grid_view.pyx: vertices, elements, domain_indices"])
p("C177","Element data with another number of rows is rejected",
  "grid_from_element_data raises when the vertices or the elements do not have exactly three rows, and never reads outside the given arrays.",
  "all arrays of all shapes",
  "for-all shapes; reading beyond an array usually goes unnoticed in a test.",
  ["cython/bempp/core/grid/grid.pyx: grid_from_element_data","lib/grid/grid_factory.cpp: createGridFromConnectivityArrays (pointer version)"])
p("C178","Structured grids of the three coordinate planes",
  "structured_grid(lower_left, upper_right, (n, m), axis, offset) returns, for the axes xy, xz and yz, the uniform triangulation of the rectangle in that plane at the given offset: the (n+1)(m+1) lattice points as vertices, two triangles for every cell, all normals along the same direction (+z, -y, +x for positive sides) and of half the cell's area. Other axes, wrong lengths and subdivisions below one raise.",
  "all rectangles, offsets, subdivisions and axes, and all numberings of the intermediate grid",
  "for-all subdivisions and numberings of the intermediate grid.",
  ["python/bempp/api/grid/grid.py: structured_grid","cython/bempp/core/grid/grid.pyx: structured_grid","lib/grid/grid_factory.cpp: createStructuredGrid","lib/grid/structured_grid_factory.hpp"])
p("C179","The unit space has a single global dof on every element",
  "A UnitScalarSpace has exactly one global dof; getGlobalDofs of every element is that dof, global2localDofs of it lists local dof 0 of every element exactly once, and the flat local dof with an element's index is that element's.",
  "all grids and all iteration orders",
  "for-all meshes and iteration orders.",
  ["lib/space/unit_scalar_space.cpp: assignDofsImpl, getGlobalDofs, global2localDofs, flatLocal2localDofs"])
p("C180","Position and bounding box of the unit space's dof",
  "The position of a UnitScalarSpace's dof is the mean of the elements' centres; its bounding box is the smallest box holding all corners, with that position as reference point inside it, so that the debug assertions of getGlobalDofBoundingBoxes hold.",
  "all non-empty triangular grids (exact arithmetic)",
  "for-all meshes.",
  ["lib/space/unit_scalar_space.cpp: getGlobalDofPositions, getGlobalDofBoundingBoxes"])
