#!/usr/bin/env python3
# writes DESIGN.md from design_head.md, the table below, MANIFEST.json, properties.jsonl and assumptions.txt
import json,os,re
D=os.path.dirname(os.path.abspath(__file__)); R=os.path.join(D,'..')
G=[]
def g(mod,props,modelled,proof,not_modelled): G.append((mod,props,modelled,proof,not_modelled))
g("HMatTree*, HMatBlockProofs","C01-C05","cluster trees (recursion on size, arbitrary sort oracle), dof permutations, block cluster trees, admissibility","induction over the recursion and over trees; C05 refuted in two points, the rest partial","geometry enters only through the oracle of comparisons and boxes")
g("HMatApply*, HMatNorm*, ComplexR","C06-C10, C13","HMatrix::initialize, apply in all transpose modes, permutations of vectors, distributed apply, leaf data, frobeniusNorm, compressBlock with cutoff","sums over the tiling of C04, any order of additions; C09, C13 refuted","MPI transport is a permutation of partial sums; rounding")
g("Aca*","C11, C12","the ACA sweep with oracles for convergence and random indices","invariant over the steps","rounding; the stopping criterion is an oracle")
g("Box*","C14, C51, C58, C59","bounding boxes of hmat and common/","order reasoning over the reals; C58, C59 refuted","NaN, infinities, rounding")
g("Fmm*, FmmGeom*","C15-C21, C60-C63","Morton codes, octree levels, neighbour and interaction lists, leaf lists, extended cubes","bit lemmas, arithmetic, induction on levels; C20, C60 refuted","levels above 10 (the code throws); transformation operators of the FMM, 64-bit wrap-around")
g("Grid*, GridGeom*","C22, C23, C28, C66, C67","edge numbering, ids, barycentric refinement, structured grids, grid factory with domain indices","fold invariants","Dune's iterators are lists; adaptive refinement")
g("Seg*","C25, C26, C64, C65","grid segments as sets, open and closed domains","set reasoning, counting; C64, C65 refuted","")
g("Asm*, Par, DofList*, Cache*, HBlock*","C33-C38, C68","dense assembly and block assembly, mutex and interleavings, local dof lists, component lists, entry accessors of H-matrices, potential assembly","permutation invariance, interleaving semantics with loads and stores; C68 refuted","local integrals are a parameter; TBB's map is atomic")
g("Lazy*","C24, C69","lazy.hpp and ConcreteGrid's lazily created members, small-step interleavings","reachability invariants; C69 refuted","sequentially consistent memory")
g("Range*","C50","scattered_range.hpp with 64-bit arithmetic","induction over split histories","")
g("Inside*","C27, C70, C71","ray/triangle test and areInside over rationals","case analysis, field; C27, C70 refuted","rounding; quadrilaterals")
g("Space*","C29-C32, C72-C74","dof numbering of P1, P0, DP1, RWG spaces, global-to-flat matrix","fold invariants; C72-C74 refuted","one-dimensional grids, bounding boxes")
g("Oper*, LocalOp*","C40-C42, C75, C76","discrete dense/sparse/H operators, BLAS contract, assembly of local operators","algebra over a ring; C75, C76 refuted","Eigen's products are the textbook sums")
g("DiscCache*","C39, C77-C79","cache of discrete operators with weak pointers, threads","state machine invariants; C77-C79 refuted","C++ memory model")
g("Array*","C43, C44, C80, C81","2d/3d/4d arrays: addressing, slices, arithmetic, ownership","arithmetic modulo 2^64, heap invariant; C80 refuted","")
g("Hermite*","C49, C82-C84","Hermite interpolator, set-up of interpolated kernels, maxDistance","Rolle-type error bound over the reals; C82, C84 refuted","rounding")
g("Quad*, Duffy*, Topo","C45, C47, C85, C86","element pair topology, Duffy rules, remapping","real algebra, enumeration of cases","quadrilaterals other than coincident (code throws)")
g("Acc*","C46, C87","accuracy options, descriptor selection","list induction","int overflow; std::sort with <= as libstdc++ does it")
g("LocalCache*","C48","local assembler with its cache of singular pairs","invariant over requests","parallel loop over disjoint slots is sequential")
g("MatAlg, PyOp*, PyBlock*","C52-C54, C88, C89","Python discrete operators and blocked ones, SciPy's LinearOperator protocol","structural induction over expressions; C53, C88, C89 refuted","dtypes")
g("PyBop*, PyBbop*, PyGf*","C55-C57, C90-C96","boundary operators, blocked operators, grid functions as a heap of objects with caches","invariants over histories; C90-C93, C95 refuted","labels, logs, negative indices")
g("CxRing, Intg*, IntgOp*","C97-C100","test-kernel-trial integrals with and without BLAS, wiring of scalar operators","sums over a commutative ring","kernel values are arbitrary")
g("Poly*, Lag*","C101-C104, C109, C110","polynomial spaces of any order, evaluation","fold invariants, barycentric coordinates; C104, C110 refuted","Dune's Pk2D, P1 bases modelled from their documentation")
g("Vec*","C105-C108","geometry of a triangle, RT/Nedelec shapesets, surface differential operators","real algebra","Dune's geometry map, Jacobian, pseudo-inverse and RT basis modelled by their formulas")
g("GfInt*","C111","GridFunction.integrate with NumPy semantics","case analysis; C111 refuted for complex and vector functions","")
g("Kern*","C112-C115","all kernel functors, wave number wiring, far fields","derivatives and limits over the reals (own derivative notion from Coq's Reals)","rounding; interpolated kernels see C49, C82-C84")
g("NumInt*","C116-C118","separable and nonseparable integrators, caching of geometry, kernel-trial integrator","equality of evaluation orders, interleavings for the shared map","CUDA paths")
g("Gal*","C119-C121","operator factories of the Python API: space preprocessing, use_slp, multitrace","expressions of C57 with Galerkin matrices as atoms","assembly of atoms (C33-C36, C97-C100, C116)")
g("Fsp*","C122-C124","function_space factory, attributes, equality","case analysis, induction over chains of attributes; C122 refuted","refinement between calls")
g("Bary*, Bc*","C125-C129","spaces on the barycentric refinement, Buffa-Christiansen spaces","geometry over the reals, flux bookkeeping; C126, C129 refuted","bounding boxes; Dune's maps as for C105")
g("File*","C130-C140","Gmsh reader and writer on byte strings, export/import of the general interface","parser correctness by induction over sections, round trips, termination by decreasing input; C133-C139 refuted in part","printing, parsing and packing of floating point numbers are parameters; the file system; creation of the Dune grid from the arrays")
g("Slv*, Pot*","C141-C150","gmres, cg, lu for operators, gmres for blocked operators; potential operators","refinement to the calculus of C55, C57, C91-C94, SciPy as parameter; C143, C144, C146, C148, C150 refuted in part","tolerances, restarts, logging; assembly of potentials")
g("PotAsm*","C151-C156","local assembler, quadrature selection and H-matrix accessor of potential operators, volumes for the pivot tests","refinement of the batched loops to pointwise sums, cache argument of C37; C156 refuted in part","floating point; kernels and geometry maps are parameters")
g("Ref*","C157-C163","marks, reference edges and the loop and reconstruction of GridView.refine as transition system; geometry over R","invariant of the loop (least closed edge set), decision of the pair incidences of the children per pattern by a symbolic table, sums over blocks, bisection as a relation with quality estimate; C162, C163 refuted in part","floating point; Dune edge numbering abstracted to vertex pairs")
g("Sing*","C164-C165","connectivity matrices, assembly of the singular part from python","counting in coordinate matrices, sets as duplicate-free lists in any order, sums over supports (C33)","floating point; local integrals are a parameter")
g("Cheb*","C166-C169","Chebyshev nodes, barycentric weights, interpolation, differentiation matrix, child interpolation, 3d derivatives over R","trigonometric sums show that the weighted sum of the values of polynomials of lower degree vanishes; synthetic division; stdlib derivative as specification","floating point; vectors of other sizes; order 0 (asserted)")
g("Sph*","C170, C171","SphereMesh: octahedron, refinement with the map of lines, projection, placing","the final map of lines is the deduplicated list of sides, so midpoints are a symmetric injective function of sides; twelve codes for the directed sides of the children; triangles spanned by three directions with nonnegative dot products and positive determinant are preserved","floating point; int overflow")
g("Ent*","C172, C173","the reverse maps of GridView and the insertion index dictionaries of the core Grid, with their caches, over histories of calls","the cache is the inverse of a permutation; induction over the history","partially filled caches after exceptions are modelled but no theorem covers them")
g("Trace*","C174, C175","p1_dof_to_vertex_matrix and p1_trace on the P1 dof map of SpaceModel; scipy coo matrices with and without shape","each matrix has a single one per row or column; the whole-grid P1 dof of a vertex is its index","dolfin; np.int")
g("Eda*","C176, C177, C178","grid_from_element_data through the Fortran-order memory and the Eigen map, validation, raw element data of the leaf view under any numbering, structured_grid with axis and offset","the store loops realise the numbering; the lattice loop is a permutation of the cells; vector algebra over R","numpy conversions; empty arrays")
g("Uss*","C179, C180","UnitScalarSpace: dof assignment loop, dof maps, position and bounding box over exact reals","induction over the element list","getFlatLocalDofPositions and boxes; weights")
exec(open(os.path.join(D,'more_design.py')).read()) if os.path.exists(os.path.join(D,'more_design.py')) else None
M=json.load(open(os.path.join(R,'MANIFEST.json')))['claims']
P={}
for l in open(os.path.join(R,'properties.jsonl')):
    x=json.loads(l); P[x['id']]=x
A={};cur=None
for l in open(os.path.join(D,'assumptions.txt')):
    if l.startswith('@@'): cur=l.split()[2]; A[cur]=[]
    else:
        x=re.match(r'^([A-Z]\w+\.\w+)',l)
        if x: A[cur].append(x.group(1))
short={'ClassicalDedekindReals.sig_forall_dec':'S','ClassicalDedekindReals.sig_not_dec':'N','FunctionalExtensionality.functional_extensionality_dep':'F','Classical_Prop.classic':'C'}
o=open(os.path.join(D,'design_head.md')).read()
o+="## Plan per group of properties\n| files | properties | modelled | proof | not modelled |\n|--|--|--|--|--|\n"
for r in G: o+="| "+" | ".join(r)+" |\n"
o+="""
No property on the list was found to be inexpressible; none is `not_applicable`.

## Trusted base
* Coq 8.16.1's kernel (and `coqchk`, which accepts the development); `vm_compute` is used for closed examples only.
* The reading of the source: every definition of a model cites the lines it models, simplifications are stated there. Nothing of /repo is executed or extracted.
* The libraries under the code (Dune, Eigen, BLAS, TBB, NumPy, SciPy, the C++ and Python run times) behave as the comments of the models say.
* Axioms: none of our own. `Print Assumptions` of each theorem lists a subset of these axioms of Coq's standard library, all of which come with its real numbers:
  S = `ClassicalDedekindReals.sig_forall_dec`, N = `ClassicalDedekindReals.sig_not_dec`, F = `FunctionalExtensionality.functional_extensionality_dep`, C = `Classical_Prop.classic`.
* No functors, module types, `Admitted`, or disabled checks.

### Assumptions of each theorem ("-": closed under the global context)
| property | theorem: axioms |
|--|--|
"""
for c in M:
    o+="| "+c['property']+" | "+"; ".join(t+": "+(("".join(short[a] for a in A[t]) or '-') if t in A else '?') for t in c['theorems'])+" |\n"
o+="\n## Where the code disagrees with the property (status partial)\nThe `_refuted` theorems prove these on concrete witnesses; the `_partial` theorems say what does hold.\n"
for c in M:
    if c['status']=='partial': o+="* "+c['property']+" "+P[c['property']]['title']+": "+c['note']+"\n"
o+="\n## Assumptions and limits of the proved properties\n"
for c in M:
    if c['status']=='proved' and c['note']: o+="* "+c['property']+": "+c['note']+"\n"
o+="\n## Seeded errors\n`seeded/LOG.jsonl` lists every wrong program tried: the definition edited, the edit, the claim it breaks, the theorems that failed and those that were tightened after an edit had survived.\n"
open(os.path.join(R,'DESIGN.md'),'w').write(o)
print(len(o), [t for c in M for t in c['theorems'] if t not in A])
