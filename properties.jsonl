{"id": "C01", "title": "combinations enumerates every n-element sub-sequence exactly once", "statement": "For every list L and every 0 <= n <= len(L), combinations(L, n) yields exactly the order-preserving n-element selections from L: every selection of n distinct positions occurs exactly once, in lexicographic order of positions, and there are binomial(len(L), n) of them; for n > len(L) a single empty selection is yielded.", "quantifier": "all lists of any length over any element type, all natural n", "why_tests_cant": "The number of selections grows combinatorially; tests check one or two literal lists, never completeness and uniqueness for every length.", "anchors": ["pycomplex/math/combinatorial.py:combinations"]}
{"id": "C02", "title": "combinations parity is the sign of bringing the selection to the front", "statement": "The parity yielded next to each selection is the parity of the permutation that moves the selected elements to the front (selected elements in order, followed by the remaining elements in order).", "quantifier": "all lists of distinct elements, all n <= len(L), all yielded selections", "why_tests_cant": "Needs to hold for all selections of all sizes; the shipped tests only look at the selections, never the parity.", "anchors": ["pycomplex/math/combinatorial.py:combinations", "pycomplex/topology/cubical.py:generate_cube_boundary"]}
{"id": "C03", "title": "permutations enumerates all n! orderings with the correct sign", "statement": "For every non-empty list L, permutations(L) yields every ordering of L exactly once (n! results when the elements are distinct), and the parity attached to an ordering is the parity of the number of inversions relative to the order of L; the empty list yields nothing.", "quantifier": "all lists of distinct elements of any length", "why_tests_cant": "n! outputs for each n; a test can only enumerate a few small n.", "anchors": ["pycomplex/math/combinatorial.py:permutations", "pycomplex/topology/simplicial.py:permutation_map"]}
{"id": "C04", "title": "Oriented simplex boundary", "statement": "For every n-simplex with n >= 2, the generated boundary contains for each corner c the face omitting corner c, ordered such that summing any orientation-antisymmetric quantity over the generated faces equals the alternating sum over the omitted corners; consequently the boundary of the boundary vanishes. For 1-simplices the generator fails with an index error.", "quantifier": "all dimensions n, all simplices with distinct corners, all antisymmetric quantities", "why_tests_cant": "Sign errors depend on the parity of both the corner number and the dimension; every dimension is a separate case for a test.", "anchors": ["pycomplex/topology/simplicial.py:generate_simplex_boundary"]}
{"id": "C05", "title": "A simplicial topology is a chain complex", "statement": "For every array of n-simplices with distinct corners and contiguous vertex labels, in any dimension, with any mixture of orientations, manifold or not, the topology returned by from_simplices has topology matrices whose consecutive products matrices[i] * matrices[i+1] are zero.", "quantifier": "all dimensions n >= 1, all finite lists of simplices, all orders the row index may sort by", "why_tests_cant": "Quantifies over every mesh in every dimension; tests only check a few synthetic meshes and check_chain itself skips the last product.", "anchors": ["pycomplex/topology/simplicial.py:TopologySimplicial.from_simplices", "pycomplex/topology/util.py:topology_matrix"]}
{"id": "C06", "title": "Every face is stored exactly once", "statement": "In a topology built by from_simplices, elements[k] lists every k-face (set of k+1 vertices contained in some input simplex) exactly once, and nothing else; each stored element is one of the oriented faces generated from its coface.", "quantifier": "all dimensions, all k, all finite lists of simplices with distinct corners", "why_tests_cant": "Completeness and uniqueness over every mesh cannot be enumerated by tests.", "anchors": ["pycomplex/topology/simplicial.py:TopologySimplicial.from_simplices"]}
{"id": "C07", "title": "Topology matrix entries are the incidence numbers", "statement": "In a topology built by from_simplices the (i, j) entry of matrices[k] is +1 or -1 when the k-element i is a face of the (k+1)-element j and 0 otherwise; every column has exactly k+2 nonzeros; no duplicate entries are summed.", "quantifier": "all dimensions, all meshes with distinct corners, all i, j, k", "why_tests_cant": "Sparse construction sums duplicate indices silently; only a proof rules out collisions for every mesh.", "anchors": ["pycomplex/topology/util.py:topology_matrix", "pycomplex/topology/primal.py:PrimalTopology.matrix"]}
{"id": "C08", "title": "Two cofaces cancel exactly when consistently oriented", "statement": "If a codimension-1 face is shared by exactly two N-simplices, the corresponding row of matrices[-1] sums to zero if and only if the two simplices induce opposite orientations on the face.", "quantifier": "all meshes in all dimensions >= 2, all shared faces", "why_tests_cant": "Depends on the arbitrary choice of representative for the face, which differs per mesh and per sort order.", "anchors": ["pycomplex/topology/simplicial.py:relative_simplex_parity", "pycomplex/topology/util.py:relative_permutations"]}
{"id": "C09", "title": "Construction is rejected exactly for non-contiguous vertex labels", "statement": "from_simplices succeeds on a non-empty array of simplices with distinct corners if and only if the set of used labels is {0..m-1} for some m; otherwise it raises ValueError and no topology object is produced.", "quantifier": "all label assignments", "why_tests_cant": "A rejection condition must be exact over all label sets.", "anchors": ["pycomplex/topology/primal.py:PrimalTopology.__init__", "pycomplex/topology/simplicial.py:TopologySimplicial.from_simplices"]}
{"id": "C10", "title": "fix_orientation orients or raises", "statement": "For a mesh whose interior faces each have exactly two cofaces, fix_orientation either returns a mesh with the same simplices as vertex sets in the same order in which any two simplices sharing a face are consistently oriented, or raises ValueError, and it raises only if no choice of flips makes the mesh consistent (given a SAT solver that is sound and complete and returns a full assignment).", "quantifier": "all meshes, all satisfying assignments the solver may return", "why_tests_cant": "Result depends on which satisfying assignment an external solver happens to return; tests see one.", "anchors": ["pycomplex/topology/simplicial.py:TopologySimplicial.fix_orientation", "pycomplex/topology/base.py:BaseTopology.relative_parity"]}
{"id": "C11", "title": "The boundary of an oriented mesh is closed", "statement": "For every consistently oriented N-dimensional simplicial mesh in which each codimension-1 face has at most two cofaces, topology.boundary is None when no face has a single coface, and otherwise is a topology of dimension N-1 (N >= 3) whose own signed coface sums all vanish, i.e. the boundary is itself closed (boundary.boundary is None whenever the boundary is oriented).", "quantifier": "all oriented meshes in all dimensions", "why_tests_cant": "Needs the boundary-of-boundary identity for every mesh and every choice of representatives.", "anchors": ["pycomplex/topology/primal.py:PrimalTopology.boundary", "pycomplex/topology/primal.py:PrimalTopology.is_closed"]}
{"id": "C12", "title": "Boundary elements refer back to the right parent elements", "statement": "boundary.parent_idx[k][i] is the unique index of a parent k-element with the same vertex set as boundary k-element i after mapping vertices back; the indices are pairwise distinct and in range.", "quantifier": "all oriented meshes with boundary, all k, all i", "why_tests_cant": "Relabelling, sorting and re-indexing interact; must hold on every mesh.", "anchors": ["pycomplex/topology/primal.py:PrimalTopology.boundary", "pycomplex/topology/primal.py:PrimalTopology.find_correspondence"]}
{"id": "C13", "title": "select_subset keeps exactly the selected elements", "statement": "select_subset(chain) returns a topology whose N-elements are, in order, exactly the N-elements with a nonzero chain entry, relabelled by an order-preserving bijection onto a contiguous vertex range, with parent_idx pointing at elements with identical vertex sets; a chain of wrong length raises ValueError.", "quantifier": "all meshes and all chains", "why_tests_cant": "Must hold for each of the 2^n subsets of each mesh.", "anchors": ["pycomplex/topology/primal.py:PrimalTopology.select_subset"]}
{"id": "C14", "title": "Interior and boundary selectors split every chain", "statement": "For each k, selector_interior[k] and selector_boundary[k] are 0/1 selection matrices with S*S.T = identity, S_int * S_bnd.T = 0 and S_int.T*S_int + S_bnd.T*S_bnd = identity; rows select elements in increasing order.", "quantifier": "all index sets of boundary elements, all element counts", "why_tests_cant": "Partition identities over all subsets of elements.", "anchors": ["pycomplex/topology/util.py:selection_matrix", "pycomplex/topology/primal.py:PrimalTopology.selector_interior", "pycomplex/topology/primal.py:PrimalTopology.selector_boundary"]}
{"id": "C15", "title": "The dual of a closed mesh is a chain complex", "statement": "For every closed oriented topology the dual matrices (transposes in reverse order) have zero consecutive products, and their shapes match the reversed element counts.", "quantifier": "all closed chain complexes of any length", "why_tests_cant": "All meshes, all dimensions.", "anchors": ["pycomplex/topology/dual.py:ClosedDual.matrices"]}
{"id": "C16", "title": "The dual of a mesh with boundary is a chain complex", "statement": "For every oriented topology with oriented boundary, the matrices of its dual, which glue the dual of the boundary onto the dual of the interior, have zero consecutive products.", "quantifier": "all oriented meshes with boundary, all dimensions", "why_tests_cant": "Holds or fails depending on the representative orientation chosen for faces of codimension >= 2, which varies by mesh and vertex numbering.", "anchors": ["pycomplex/topology/dual.py:Dual.matrices", "pycomplex/topology/primal.py:PrimalTopology.boundary"]}
{"id": "C17", "title": "Averaging operators are convex combinations", "statement": "Every row of averaging_operators_0[k] is non-negative, sums to one and assigns the same weight 1/(k+1) to each corner of the simplicial k-element and zero to other vertices.", "quantifier": "all simplicial meshes of all dimensions", "why_tests_cant": "Intermediate path counts are kept in 8-bit integers; small test meshes never reach the overflow range.", "anchors": ["pycomplex/topology/base.py:BaseTopology.averaging_operators_0", "pycomplex/sparse.py:normalize_l1"]}
{"id": "C18", "title": "degree counts incident N-elements", "statement": "degree[k][i] equals the number of N-elements incident to k-element i.", "quantifier": "all meshes, all elements, any number of incident elements", "why_tests_cant": "Counts are accumulated in an 8-bit type; the failure needs at least 128 incident elements.", "anchors": ["pycomplex/topology/base.py:BaseTopology.degree"]}
{"id": "C19", "title": "check_chain detects broken chain complexes", "statement": "check_chain returns normally only if all consecutive products of topology matrices vanish.", "quantifier": "all topologies of all dimensions", "why_tests_cant": "A checker's soundness is a statement about all inputs it accepts.", "anchors": ["pycomplex/topology/base.py:BaseTopology.check_chain"]}
{"id": "C20", "title": "Fundamental domains enumerate all flags", "statement": "For each n-simplex, fundamental_domains yields (n+1)! domains; each is a flag (vertex, edge, ..., n-simplex) in which consecutive entries are incident, and every flag of the simplex occurs exactly once.", "quantifier": "all dimensions n >= 2, all meshes", "why_tests_cant": "Factorially many flags in each dimension.", "anchors": ["pycomplex/topology/simplicial.py:TopologySimplicial.fundamental_domains", "pycomplex/topology/util.py:element_indices"]}
{"id": "C21", "title": "Barycentric (fundamental) subdivision preserves orientation", "statement": "If the parent mesh is consistently oriented then the simplices produced by subdivide_fundamental(oriented=True) are consistently oriented; adjacent subdivided simplices induce opposite orientations on their shared face.", "quantifier": "all dimensions n >= 2, all oriented meshes", "why_tests_cant": "Sign bookkeeping across (n+1)! children, for every n.", "anchors": ["pycomplex/topology/simplicial.py:TopologySimplicial.subdivide_fundamental"]}
{"id": "C22", "title": "Simplicial (vertex-insertion) subdivision preserves the boundary", "statement": "subdivide_simplicial replaces each n-simplex (n >= 2) by n+1 simplices joining the new vertex to each oriented face; the alternating boundary of the children equals, up to a global sign, the boundary of the parent, with all faces containing the new vertex cancelling.", "quantifier": "all dimensions n >= 2, all simplices", "why_tests_cant": "Sign conventions vary with the parity of the dimension.", "anchors": ["pycomplex/topology/simplicial.py:TopologySimplicial.subdivide_simplicial"]}
{"id": "C23", "title": "Loop subdivision preserves orientation and counts", "statement": "subdivide_loop of a triangular topology with V vertices, E edges and F triangles yields 4F triangles over V+E vertices; each child has distinct corners, and the oriented boundary of the four children of a triangle is the parent boundary with each edge split at its new vertex (the three inner edges cancel).", "quantifier": "all triangular meshes", "why_tests_cant": "Depends on the opposite-edge column convention for every triangle of every mesh.", "anchors": ["pycomplex/topology/simplicial.py:TopologyTriangular.subdivide_loop"]}
{"id": "C24", "title": "Direct loop subdivision is a chain complex", "statement": "subdivide_loop_direct applied to any triangular chain complex yields boundary and orientation arrays whose two topology matrices multiply to zero.", "quantifier": "all triangular topologies", "why_tests_cant": "Involves an index lookup on the plus end of each edge that must be right for every edge direction.", "anchors": ["pycomplex/topology/simplicial.py:TopologyTriangular.subdivide_loop_direct"]}
{"id": "C25", "title": "Direct loop subdivision stores the right corners", "statement": "In the result of subdivide_loop_direct, the corners listed in elements[2] of every fine triangle are exactly the end points of its three boundary edges.", "quantifier": "all triangular topologies with any number of triangles", "why_tests_cant": "A broadcasting slip is invisible on single-triangle meshes and on tests that only compare the matrices.", "anchors": ["pycomplex/topology/simplicial.py:TopologyTriangular.subdivide_loop_direct"]}
{"id": "C26", "title": "Oriented cube boundary", "statement": "For every n-cube (n >= 2) the generated degree-1 boundary consists of the 2n faces, mirrored such that the boundary of the boundary vanishes for any quantity antisymmetric under the reflections and axis swaps of a cube.", "quantifier": "all dimensions n, all cubes", "why_tests_cant": "Mirror logic depends on the parity of the axis number; each dimension is a new case.", "anchors": ["pycomplex/topology/cubical.py:generate_cube_boundary"]}
{"id": "C27", "title": "A cubical topology is a chain complex", "statement": "Whenever from_cubes accepts an array of cubes with distinct corners (does not raise), the resulting topology matrices have zero consecutive products, in any dimension.", "quantifier": "all dimensions, all finite lists of cubes whose faces match up as cubes", "why_tests_cant": "All meshes and dimensions; includes rotated and mirrored neighbours.", "anchors": ["pycomplex/topology/cubical.py:TopologyCubical.from_cubes", "pycomplex/topology/cubical.py:relative_cube_parity"]}
{"id": "C28", "title": "Product vertices are numbered without collision", "statement": "In the product of two cubical topologies the vertex label of the pair (u, v) is u + v * n_vertices(self): distinct pairs get distinct labels, labels fill 0 .. n_self*n_other - 1, and the positions attached by ComplexCubical.product are the concatenation of the positions of u and v.", "quantifier": "all pairs of cubical topologies", "why_tests_cant": "Numbering conventions in two different functions must agree for all sizes.", "anchors": ["pycomplex/topology/cubical.py:TopologyCubical.product", "pycomplex/complex/cubical.py:ComplexCubical.product"]}
{"id": "C29", "title": "Regular grid cubes refer to the right vertices", "statement": "In n_cube_grid(shape), the corner b of the cube at grid position x is the vertex whose coordinates are x + b, for every cube and corner; there are prod(shape) cubes and prod(shape+1) vertices, all referenced.", "quantifier": "all dimensions and all positive grid shapes", "why_tests_cant": "Relies on raw stride manipulation; correctness for all shapes is not testable by examples.", "anchors": ["pycomplex/synthetic.py:n_cube_grid"]}
{"id": "C30", "title": "Stencil symbols are the basis of the exterior algebra", "statement": "generate(n) returns as symbols of degree k exactly the strictly increasing k-tuples of axes, each once; every degree-(k+1) symbol lists one term per axis it contains, referring to the symbol without that axis, with parity equal to the number of larger axes in the symbol mod 2.", "quantifier": "all n, all degrees", "why_tests_cant": "Combinatorial structure for every dimension.", "anchors": ["pycomplex/stencil/util.py:generate"]}
{"id": "C31", "title": "The periodic stencil derivative is closed", "statement": "For every grid shape of any dimension, applying two consecutive primal derivative operators to any form gives zero, and likewise for two consecutive dual operators.", "quantifier": "all dimensions, all positive shapes, all degrees, all forms with values in a commutative ring", "why_tests_cant": "All shapes, dimensions and field values.", "anchors": ["pycomplex/stencil/topology.py:StencilTopology.primal"]}
{"id": "C32", "title": "Stencil dual derivative is the adjoint of the primal derivative", "statement": "For every periodic grid and degree, <d f, g> = <f, d.T g> for all forms f and g of the right degree, where d.T is the operator used as the dual derivative.", "quantifier": "all dimensions, all positive shapes (including extent 1), all forms", "why_tests_cant": "All shapes and all pairs of forms.", "anchors": ["pycomplex/stencil/topology.py:StencilTopology.primal", "pycomplex/stencil/topology.py:StencilTopology.dual"]}
{"id": "C33", "title": "Coarsening after refining restores the form", "statement": "On every even grid, transfers[n] applied to the transpose of transfers[n] is the identity on coarse n-forms.", "quantifier": "all dimensions, all even shapes, all coarse forms", "why_tests_cant": "All shapes and values; the two maps are implemented by unrelated reshaping tricks.", "anchors": ["pycomplex/stencil/topology.py:StencilTopology.transfers", "pycomplex/stencil/util.py:binning"]}
{"id": "C34", "title": "Operator simplification preserves meaning", "statement": "Multiplying or adding stencil operators, which eagerly simplifies the expression, yields an operator whose action on every input equals composing or adding the actions of the factors.", "quantifier": "all operator expressions built from composition, sum, zero, identity, diagonal and derivative operators of any nesting depth, all inputs", "why_tests_cant": "Rewriting over an unbounded expression language.", "anchors": ["pycomplex/stencil/operator.py:ComposedOperator.simplify", "pycomplex/stencil/operator.py:CombinedOperator.simplify", "pycomplex/stencil/operator.py:DiagonalOperator.simplify"]}
{"id": "C35", "title": "Operator transpose is the adjoint and an involution", "statement": "For every operator expression built from leaves whose two callables are adjoint, transpose() yields an expression whose action is the adjoint of the original, and transposing twice restores the original action.", "quantifier": "all operator expressions of any nesting depth, all inputs", "why_tests_cant": "Structural induction over unbounded expressions.", "anchors": ["pycomplex/stencil/operator.py:StencilOperator.transpose", "pycomplex/stencil/operator.py:ComposedOperator.transpose", "pycomplex/stencil/operator.py:CombinedOperator.transpose"]}
{"id": "C36", "title": "Block operator product is composition", "statement": "(A * B) * x = A * (B * x) for every pair of compatible block operators and every block vector, where each block is an arbitrary operator; zero blocks may be skipped without effect.", "quantifier": "all block shapes, all operators, all vectors", "why_tests_cant": "All block sizes and contents.", "anchors": ["pycomplex/stencil/block.py:BlockOperator.__mul__", "pycomplex/stencil/block.py:BlockOperator.vector_mul"]}
{"id": "C37", "title": "Dense round trip of stencil block vectors", "statement": "template.from_dense(v.to_dense()) equals v for every block vector v with the layout of the template.", "quantifier": "all numbers of blocks and all block sizes", "why_tests_cant": "Offsets versus sizes coincide for one or two blocks; only larger layouts expose the difference.", "anchors": ["pycomplex/stencil/block.py:BlockArray.from_dense", "pycomplex/stencil/block.py:BlockArray.to_dense"]}
{"id": "C38", "title": "Checkerboard evaluation yields the true diagonal", "statement": "BlockOperator.diagonal() returns the diagonal entries of each diagonal block for operators that couple a cell only to itself and to its axis neighbours within a component.", "quantifier": "all grid shapes, all such operators", "why_tests_cant": "Depends on the parity of the extents under periodic wrap-around.", "anchors": ["pycomplex/stencil/block.py:BlockOperator.diagonal", "pycomplex/stencil/util.py:checkerboard"]}
{"id": "C39", "title": "The canonical first-order system is symmetric and its normal equations are positive semi-definite", "statement": "System.canonical(complex).A is a symmetric operator for every periodic stencil complex, and the normal system satisfies <x, A.T A x> = <A x, A x> for all x.", "quantifier": "all dimensions, shapes, scales, all vectors", "why_tests_cant": "All shapes and all vectors.", "anchors": ["pycomplex/stencil/linear_system.py:System.canonical", "pycomplex/stencil/linear_system.py:System.normal"]}
{"id": "C40", "title": "A V-cycle leaves an exact solution unchanged", "statement": "If x has zero residual on the finest level, smoothing keeps zero-residual vectors fixed, and the transfers and the coarse solver map zero to zero, then v_cycle and any number of solve_v_cycle iterations return x unchanged, for hierarchies of any depth.", "quantifier": "all hierarchy depths, all iteration counts, all equations meeting the contract", "why_tests_cant": "Recursion depth and iteration counts are unbounded.", "anchors": ["pycomplex/stencil/multigrid.py:v_cycle", "pycomplex/stencil/multigrid.py:solve_v_cycle"]}
{"id": "C41", "title": "Hierarchy lists levels from coarsest to finest", "statement": "hierarchy(levels) has levels+1 entries, the last is the equation itself and each entry is the coarse version of its successor.", "quantifier": "all level counts", "why_tests_cant": "Unbounded number of levels.", "anchors": ["pycomplex/stencil/multigrid.py:MultiGridEquation.hierarchy"]}
{"id": "C42", "title": "Block merge and split are inverse", "statement": "DenseBlockArray.split applied to the merged vector returns the original blocks, and SparseBlockMatrix multiplication agrees with multiplication of the merged matrices.", "quantifier": "all block counts and sizes, all entries", "why_tests_cant": "All block layouts.", "anchors": ["pycomplex/block.py:DenseBlockArray.split", "pycomplex/block.py:DenseBlockArray.merge", "pycomplex/block.py:SparseBlockMatrix.__mul__"]}
{"id": "C43", "title": "Inverse of 3x3 matrices", "statement": "inverse(A) * A = A * inverse(A) = identity for every 3x3 matrix with nonzero determinant, and null(A) is mapped to zero by every singular A.", "quantifier": "all real 3x3 matrices", "why_tests_cant": "A continuum of inputs.", "anchors": ["pycomplex/math/linalg.py:inverse", "pycomplex/math/linalg.py:adjoint", "pycomplex/math/linalg.py:null"]}
{"id": "C44", "title": "rotation_from_plane returns a rotation", "statement": "For orthonormal u and v in any dimension the returned matrix is orthogonal, maps u to a unit vector of the plane orthogonal to u, and leaves vectors orthogonal to both u and v fixed.", "quantifier": "all dimensions n, all orthonormal pairs", "why_tests_cant": "Continuum of inputs in every dimension.", "anchors": ["pycomplex/math/linalg.py:rotation_from_plane"]}
{"id": "C45", "title": "Volume of a closed triangle mesh is translation invariant", "statement": "For every closed consistently oriented triangle mesh in 3-space, volume() is unchanged by translating all vertices and flips sign when all triangles are reversed.", "quantifier": "all closed meshes, all positions, all translation vectors", "why_tests_cant": "All meshes and a continuum of positions.", "anchors": ["pycomplex/complex/simplicial/euclidian.py:ComplexTriangularEuclidian3.volume", "pycomplex/complex/base.py:BaseComplex.translate"]}
{"id": "C46", "title": "Clipping a triangle mesh splits triangles without changing orientation", "statement": "clip(clip=False) replaces every cut triangle by three triangles whose combined oriented boundary is the boundary of the original with its two cut edges split, and leaves other triangles untouched.", "quantifier": "all side assignments of all triangles", "why_tests_cant": "All meshes and all cutting planes.", "anchors": ["pycomplex/complex/simplicial/euclidian.py:ComplexTriangularEuclidian.clip"]}
{"id": "C47", "title": "Extruded surfaces are closed", "statement": "extrude(other) of an oriented triangle mesh with boundary yields a triangle list in which every directed edge is matched by its reverse.", "quantifier": "all oriented triangle meshes with boundary", "why_tests_cant": "Depends on the stored direction of boundary edges, which varies per mesh.", "anchors": ["pycomplex/complex/simplicial/euclidian.py:ComplexTriangularEuclidian3.extrude"]}
{"id": "C48", "title": "Multilinear sampling weights form a partition of unity", "statement": "The corner weights used by sample_primal_0 and sample_dual_0 on regular complexes are non-negative and sum to one for every point after clipping, so sampling a constant form returns the constant and sampling at a corner returns that corner's value.", "quantifier": "all dimensions, all real barycentric coordinates", "why_tests_cant": "Continuum of points in every dimension.", "anchors": ["pycomplex/complex/regular.py:ComplexRegularMixin.sample_primal_0", "pycomplex/complex/regular.py:ComplexRegularMixin.sample_dual_0"]}
{"id": "C49", "title": "adjecent_pairs yields every adjacent pair", "statement": "adjecent_pairs(it) yields exactly the pairs of consecutive items of the iterable, in order.", "quantifier": "all finite iterables", "why_tests_cant": "All sequences; failure needs a falsy item.", "anchors": ["pycomplex/stencil/util.py:adjecent_pairs"]}
{"id": "C50", "title": "pascal computes binomial coefficients", "statement": "pascal(n, k) returns the binomial coefficient for all 0 <= k <= n.", "quantifier": "all n and k", "why_tests_cant": "All n, k.", "anchors": ["pycomplex/stencil/util.py:pascal"]}
{"id": "C51", "title": "accumulate returns all running totals", "statement": "accumulate(xs, func) yields, for every non-empty prefix of xs, the left fold of func over the prefix; an empty input yields nothing.", "quantifier": "all lists, all functions", "why_tests_cant": "All lengths.", "anchors": ["pycomplex/util.py:accumulate"]}
{"id": "C52", "title": "normalize_l1 scales rows or columns to unit absolute sum", "statement": "For every matrix whose rows (axis 1) or columns (axis 0) have nonzero absolute sum, normalize_l1 returns a matrix with the same zero pattern and signs whose absolute sums along that axis are one.", "quantifier": "all matrices without empty rows/columns", "why_tests_cant": "All shapes and entries.", "anchors": ["pycomplex/sparse.py:normalize_l1"]}
{"id": "C53", "title": "Conjugate gradient keeps its residual invariant", "statement": "In exact arithmetic, at every iteration of solve_cg the maintained residual equals b - A x for the current iterate, so that a returned converged solution satisfies the convergence test on the true residual.", "quantifier": "all linear operators, all right-hand sides, all iteration counts", "why_tests_cant": "Unbounded iterations.", "anchors": ["pycomplex/solvers.py:solve_cg"]}
{"id": "C54", "title": "Subdivision operator of the loop scheme matches the fine vertices", "statement": "subdivide_loop_operator returns an operator with one row per vertex of the loop-subdivided complex.", "quantifier": "all triangular complexes", "why_tests_cant": "Shape agreement for all meshes.", "anchors": ["pycomplex/complex/simplicial/euclidian.py:ComplexTriangularEuclidian.subdivide_loop_operator", "pycomplex/complex/simplicial/euclidian.py:ComplexTriangularEuclidian.subdivide_loop"]}
{"id": "C55", "title": "is_oriented detects exactly the consistently oriented meshes", "statement": "For every simplicial mesh whose facets have at most two cofaces, is_oriented returns True if and only if every facet shared by two simplices receives opposite signs from them.", "quantifier": "all dimensions, all such meshes, every solver meeting the SAT contract", "why_tests_cant": "The answer depends on a SAT solver's choice among valid assignments; tests see one solver on a few meshes.", "anchors": ["pycomplex/topology/base.py:BaseTopology.is_oriented", "pycomplex/topology/base.py:BaseTopology.relative_parity"]}
{"id": "C56", "title": "Averaging over incident top simplices uses equal weights", "statement": "Row e of averaging_operators_N[k] has weight 1/c on each of the c top simplices that contain k-element e and 0 on all others, so that each row sums to one.", "quantifier": "all dimensions, all simplicial meshes, all elements", "why_tests_cant": "Path counts in int8 products depend on the dimension; tests cover two or three dimensions and small meshes.", "anchors": ["pycomplex/topology/base.py:BaseTopology.averaging_operators_N", "pycomplex/topology/base.py:BaseTopology.accumulated_operators_N"]}
{"id": "C57", "title": "Stencil smoothers are symmetric operators", "statement": "For every form degree n and both weight choices, the smoother maps n-forms to n-forms and <S f, g> = <f, S g> for all f, g, which is what wrapping it in SymmetricOperator claims.", "quantifier": "all dimensions, all grid shapes, all degrees, all fields", "why_tests_cant": "Symmetry is a statement about all pairs of fields; boundary handling of the convolution depends on extents.", "anchors": ["pycomplex/stencil/complex.py:StencilComplex.smoothers", "pycomplex/stencil/util.py:smoother"]}
{"id": "C58", "title": "Coarsening is the scaled transpose of refinement", "statement": "For every form degree n on a grid with even extents, 2^ndim <coarsen f, g> = <f, refine g> for all fine f and coarse g.", "quantifier": "all dimensions, all even grid shapes, all degrees, all fields", "why_tests_cant": "Adjointness is a statement about all pairs of fields and all degrees.", "anchors": ["pycomplex/stencil/complex.py:StencilComplex.coarsen", "pycomplex/stencil/complex.py:StencilComplex.refine"]}
{"id": "C59", "title": "Grid transfers reproduce constant forms", "statement": "For every form degree n on a grid with even extents, coarsen and refine map a form that is constant in each component to the form with the same constants.", "quantifier": "all dimensions, all even grid shapes, all degrees, all constants", "why_tests_cant": "Weights are products over a degree-dependent set of axes; tests see one or two dimensions.", "anchors": ["pycomplex/stencil/complex.py:StencilComplex.coarsen", "pycomplex/stencil/complex.py:StencilComplex.refine"]}
{"id": "C60", "title": "Loop subdivision transfer matrices follow the geometry", "statement": "The transfer matrices returned by subdivide_loop send a coarse vertex to the same fine vertex, a coarse edge to exactly the two fine edges it is split into, and a coarse triangle to its four children; those of subdivide_loop_direct do the same with the halves of edge e stored at 2e and 2e+1.", "quantifier": "all triangular meshes accepted by from_simplices", "why_tests_cant": "The fine edge numbering comes from a sort over the whole mesh; tests look at a few meshes and at shapes.", "anchors": ["pycomplex/topology/simplicial.py:TopologyTriangular.subdivide_loop", "pycomplex/topology/simplicial.py:TopologyTriangular.subdivide_loop_transfer", "pycomplex/topology/simplicial.py:TopologyTriangular.subdivide_loop_direct_transfer"]}
{"id": "C61", "title": "Vertex normals are the volume gradient", "statement": "For every closed triangle mesh in 3-space, moving one vertex by any vector x changes volume() by exactly the inner product of x with the entry of vertex_normals() for that vertex, divided by six; the vertex normals of a closed mesh sum to zero.", "quantifier": "all closed meshes, all positions, all vertices, all displacements", "why_tests_cant": "Finite differences only approximate a gradient, and the exact linearity in one vertex holds over a continuum.", "anchors": ["pycomplex/complex/simplicial/euclidian.py:ComplexTriangularEuclidian3.vertex_normals", "pycomplex/complex/simplicial/euclidian.py:ComplexTriangularEuclidian3.volume"]}
{"id": "C62", "title": "Conjugate gradient ends within n passes and lowers the energy", "statement": "For every symmetric operator and symmetric constraint projection on n unknowns, solve_cg in exact arithmetic never uses up an iteration limit larger than n; n passes without an early stop leave a residual of exactly zero; and if the operator is positive on the constrained space, the returned vector is either the constrained start vector or has strictly lower energy x.Ax - 2 b.x than it.", "quantifier": "all dimensions, all symmetric operators and projections, all right-hand sides and start vectors", "why_tests_cant": "Tests run with rounding on a few systems; orthogonality of all residuals of all systems is an exact statement over a continuum.", "anchors": ["pycomplex/solvers.py:solve_cg"]}
{"id": "C63", "title": "Picking on a regular grid finds the containing cube and samples affine forms exactly", "statement": "On a regular complex whose boxes have one size and form a grid, if tree.query returns a closest centroid then pick_primal returns a cube containing every point that lies in some cube, so that sample_primal_0 of an affine function of the vertex positions returns that affine function of the point; with an initial guess the picked cube contains the point as well, and pick_fundamental accepts guesses.", "quantifier": "all dimensions, all grids, all points, all affine functions, all guesses", "why_tests_cant": "Continuum of points and coefficients in all dimensions; points on shared faces have several closest centroids.", "anchors": ["pycomplex/complex/regular.py:ComplexRegularMixin.pick_primal", "pycomplex/complex/regular.py:ComplexRegularMixin.pick_fundamental", "pycomplex/complex/regular.py:ComplexRegularMixin.sample_primal_0"]}
{"id": "C64", "title": "Cubical fix_orientation orients or raises", "statement": "For a cubical mesh in which every face belongs to at most two cubes, fix_orientation returns a mesh with every cube either kept or mirrored along its first axis in which any two cubes sharing a side are consistently oriented, or raises ValueError, and it raises only if no choice of mirrored cubes is consistent or if the last cube shares no side with another cube while some cubes share one (given a sound and complete SAT solver). is_oriented is True only for consistently oriented meshes, and is True for consistently oriented connected ones.", "quantifier": "all dimensions, all cubical meshes, all assignments the solver may return, all row orders", "why_tests_cant": "Result depends on which satisfying assignment an external solver returns, and must hold for each corner numbering of each cube.", "anchors": ["pycomplex/topology/cubical.py:TopologyCubical.fix_orientation", "pycomplex/topology/base.py:BaseTopology.relative_parity", "pycomplex/topology/base.py:BaseTopology.is_oriented"]}
{"id": "C65", "title": "Boundary and subsets of cubical meshes", "statement": "For every consistently oriented cubical mesh of dimension N whose faces belong to at most two cubes, boundary is None exactly when no face belongs to a single cube, and never fails; otherwise it is a topology of dimension N-1 whose elements are the stored faces of exactly one cube in their parent order, all having the same coefficient in the boundary of their cube for N >= 2, and whose signed coface sums vanish; parent_idx gives the unique parent element equal up to orientation. The boundary of an open curve consists of its end points. Inconsistent meshes raise ValueError. select_subset returns the selected cubes in order and with their orientation under an order-preserving renumbering, with exactly their faces.", "quantifier": "all dimensions, all cubical meshes, all chains, all row orders", "why_tests_cant": "Needs the boundary of a boundary identity and the choice of representatives on every mesh in every dimension; the source itself says it is not sure orientation is preserved.", "anchors": ["pycomplex/topology/primal.py:PrimalTopology.boundary", "pycomplex/topology/primal.py:PrimalTopology.find_correspondence", "pycomplex/topology/primal.py:PrimalTopology.select_subset", "pycomplex/topology/cubical.py:TopologyCubical.boundary_type"]}
{"id": "C66", "title": "Cubical subdivision is a refinement with the same orientation", "statement": "Subdividing any cubical mesh the library accepts succeeds. The result is again a valid mesh with 2^N times as many cubes and one vertex per element of the coarse mesh of any dimension; cube j*2^N + a is the small cube at corner a of coarse cube j, its corner at the centre of a face of the coarse cube being the number of that face. It is consistently oriented exactly when the coarse mesh is; faces keep belonging to at most two cubes, connected meshes stay connected, and its boundary faces are exactly the outer faces of small cubes on boundary faces of the coarse mesh; so is_oriented accepts it when the coarse mesh is oriented and connected.", "quantifier": "all dimensions, all cubical meshes with any numbering of corners, all row orders", "why_tests_cant": "Each coarse cube may meet its neighbours with any of the 2^N N! relative placements; the claim concerns every dimension and every such gluing.", "anchors": ["pycomplex/topology/cubical.py:TopologyCubical.subdivide_cubical", "pycomplex/topology/cubical.py:TopologyCubical.cubical_domains"]}
{"id": "C67", "title": "Cubical transfers pair elements with their parts", "statement": "The transfer of level k lists in increasing order, each once, exactly the k-elements of the subdivided mesh that have a coarse vertex, each with the only coarse k-element whose number it contains. Paired elements are, up to orientation, the small cubes at the corners of their coarse element, one per corner, so every coarse k-element occurs 2^k times. The transfer matrices are built without error and are the 0/1 matrices of this pairing, of shape fine by coarse.", "quantifier": "all dimensions and levels, all cubical meshes, all row orders", "why_tests_cant": "Selection by nonzero over arrays silently misaligns fine and coarse lists if any element has two coarse vertices or two parents; that has to be excluded on every mesh.", "anchors": ["pycomplex/topology/cubical.py:TopologyCubical.subdivide_cubical_transfers", "pycomplex/topology/cubical.py:TopologyCubical.subdivide_cubical_relations", "pycomplex/topology/util.py:transfer_matrix"]}
{"id": "C68", "title": "Transferred cubical elements keep their orientation", "statement": "In every pair of the cubical transfers the fine element is oriented like the coarse element it is part of, so the 0/1 transfer matrices need no signs.", "quantifier": "all dimensions and levels, all cubical meshes, all row orders", "why_tests_cant": "The stored orientation of an element depends on which cube lists it first and on the numbering of vertices; the source carries a FIXME about it.", "anchors": ["pycomplex/topology/cubical.py:TopologyCubical.subdivide_cubical_transfers"]}
{"id": "C69", "title": "Averages and degrees of cubical meshes", "statement": "On every cubical mesh, averaging_operators_0[k] gives each corner of a k-cube the weight 1/2^k and every other vertex 0, so its rows sum to one; averaging_operators_N[k] gives each cube that has the k-element as a face an equal weight; degree counts the cubes at each element.", "quantifier": "all dimensions and levels, all cubical meshes, all row orders", "why_tests_cant": "The operators are chained int8 products whose entries grow like k!; whether they stay exact depends on the dimension and on the number of incident cubes.", "anchors": ["pycomplex/topology/base.py:BaseTopology.accumulated_operators_0", "pycomplex/topology/base.py:BaseTopology.averaging_operators_0", "pycomplex/topology/base.py:BaseTopology.averaging_operators_N", "pycomplex/topology/base.py:BaseTopology.degree"]}
{"id": "C70", "title": "Smoothing moves vertices to averages of crease centroids", "statement": "For any chains of crease elements with one coefficient per element, smoothing succeeds and moves every vertex to the average of the centroids of the crease elements of lowest dimension at that vertex, the elements of highest dimension being creases unless a chain is given for them; vertices without crease elements stay where they are.", "quantifier": "all cubical and simplicial meshes, all dimensions, all positions and centroids, all sets of creases", "why_tests_cant": "The result depends on the order in which levels overwrite each other and on how often each vertex occurs in the selected corner rows, for every combination of creases.", "anchors": ["pycomplex/complex/base.py:BaseComplex.smooth"]}
{"id": "C71", "title": "The smoothing operator does what smoothing does", "statement": "On every cubical mesh and for all creases, applying smooth_operator to the vertices gives the vertices of the smoothed mesh, and its rows are convex combinations.", "quantifier": "all cubical meshes, all dimensions, all vertex positions, all sets of creases", "why_tests_cant": "Two independent implementations, one by grouping and one by masked sparse products and row normalisation, have to agree for every mesh and every combination of creases.", "anchors": ["pycomplex/complex/base.py:BaseComplex.smooth", "pycomplex/complex/base.py:BaseComplex.smooth_operator"]}
{"id": "C72", "title": "The subdivision operator does what subdivision does", "statement": "On every cubical mesh, applying subdivide_operator to the vertices gives the vertices of the subdivided mesh, with and without smoothing and for all creases; without smoothing the vertex of each element is at the average of its corners.", "quantifier": "all cubical meshes, all dimensions, all vertex positions, all sets of creases", "why_tests_cant": "Creases are passed to the finer mesh through the transfer matrices, and the agreement of both ways has to hold on every mesh for every combination of creases.", "anchors": ["pycomplex/complex/cubical.py:ComplexCubical.subdivide_cubical", "pycomplex/complex/cubical.py:ComplexCubical.subdivide_operator", "pycomplex/complex/cubical.py:ComplexCubical.primal_position"]}
{"id": "C73", "title": "Quads cut into triangles", "statement": "Cutting a quad mesh into triangles gives four triangles around the centre of each quad, each with one of its sides and its orientation; the result is consistently oriented, manifold, connected exactly if the quad mesh is, has the same boundary and the expected numbers of elements; the operators place its vertices and pass on values as the cut does.", "quantifier": "all quad meshes, all row orders, all vertex positions", "why_tests_cant": "The statement concerns every quad mesh, including non-manifold and non-orientable ones, and sign conventions of two different boundary constructions.", "anchors": ["pycomplex/topology/cubical.py:TopologyCubical2.subdivide_simplicial", "pycomplex/complex/cubical.py:ComplexCubical2.subdivide_simplicial"]}
{"id": "C74", "title": "Simplices cut into cubes", "statement": "Cutting a mesh of triangles or tetrahedra into cubes gives one cube at each corner of each simplex, whose corners are the centres of the faces at that corner; the result is a valid mesh with the expected numbers of elements, connected, manifold and consistently oriented if the simplices are, with their orientation, and its boundary is the boundary of the simplices cut in the same way.", "quantifier": "all meshes of triangles and tetrahedra, all row orders", "why_tests_cant": "Corners are found by rolling index rows and by intersecting sorted faces; the statement concerns every mesh and its orientation, not a few samples.", "anchors": ["pycomplex/topology/simplicial.py:TopologySimplicial.subdivide_cubical"]}
{"id": "C75", "title": "Volumes of simplices", "statement": "The unsigned volume of a simplex in any dimension is the height times the volume of the base over the dimension; it depends on the distances between the corners only, is zero exactly if the corners are dependent, and is the absolute value of the signed volume where there is one. The signed volume changes sign with odd reorderings of the corners, is invariant under translation, scales with the determinant of linear maps, and is the sum of the signed volumes with each corner replaced by a given point.", "quantifier": "all dimensions of simplex and space, all positions of the corners", "why_tests_cant": "Statements about all simplices of all dimensions, including degenerate ones, and identities between volumes of different simplices.", "anchors": ["pycomplex/geometry/euclidian.py:unsigned_volume", "pycomplex/geometry/euclidian.py:signed_volume"]}
{"id": "C76", "title": "Circumcentres in barycentric coordinates", "statement": "circumcenter_barycentric returns, for each simplex of a batch, coordinates that add up to one of a point with the same squared distance, less the weight, to all corners; circumcenter returns that point. The result for a simplex does not depend on its size or the other simplices of the batch.", "quantifier": "all batches of simplices of all dimensions, all weights, every eigendecomposition that is one", "why_tests_cant": "The pseudoinverse is truncated relative to the largest eigenvalue of the batch: whether a result is right depends on the sizes of all simplices, and fails outside a range that samples do not leave.", "anchors": ["pycomplex/geometry/euclidian.py:circumcenter_barycentric", "pycomplex/geometry/euclidian.py:circumcenter", "pycomplex/geometry/euclidian.py:circumcenter_barycentric_weighted"]}
{"id": "C77", "title": "Normals and gradients of simplices", "statement": "simplex_normals gives for each corner of an independent simplex the unit vector in its plane that is perpendicular to the side opposite the corner, on the side of the corner; simplex_gradients gives vectors that add up to zero, of the length of the volume of the opposite side, which are the derivatives of the volume with respect to the corners. segment_normals is perpendicular to the simplex, has the length of its volume times a factorial, and gives the signed volume of the simplex with any further point.", "quantifier": "all dimensions, all independent corners, every singular value decomposition that is one", "why_tests_cant": "Pseudoinverse and normalisation are truncated at a relative size; whether a normal exists and what it is depends on shape and dimension, and the claim about derivatives is about all displacements.", "anchors": ["pycomplex/geometry/euclidian.py:simplex_normals", "pycomplex/geometry/euclidian.py:simplex_gradients", "pycomplex/geometry/euclidian.py:segment_normals", "pycomplex/math/linalg.py:pinv"]}
{"id": "C78", "title": "Surfaces, the solids that fill them, areas and lines", "statement": "The volume of a triangulated surface is the sum of the signed volumes of any tetrahedra it bounds, and each closed oriented surface bounds some; it is multiplied by the determinant of a linear map and negated by turning the triangles over, and also right for a surface cut open along a plane through the origin. Other open surfaces are refused. The area is the sum of the areas of the triangles and the vertex areas add up to it. The area inside a closed line in the plane is the sum of the signed areas of the triangles with any point.", "quantifier": "all triangulated surfaces, positions and displacements", "why_tests_cant": "Claims about all closed surfaces, including self-intersecting ones of any genus, and all ways of filling them.", "anchors": ["pycomplex/complex/simplicial/euclidian.py:volume", "pycomplex/complex/simplicial/euclidian.py:vertex_areas", "pycomplex/complex/simplicial/euclidian.py:area", "pycomplex/complex/cubical.py:volume"]}
{"id": "C79", "title": "Centre of mass of the solid inside a surface", "statement": "center_of_mass of a closed surface is the centre of mass of the solid inside: the mean of the centroids of the tetrahedra that fill it, weighted by volume. It moves with the surface.", "quantifier": "all closed surfaces, all fillings, all translations", "why_tests_cant": "The code takes unsigned volumes of tetrahedra with the origin, which is right where every triangle faces away from the origin; tests with solids around the origin cannot tell.", "anchors": ["pycomplex/complex/simplicial/euclidian.py:center_of_mass"]}
{"id": "C80", "title": "Primal and dual metric of simplicial complexes", "statement": "With circumcentres as centres, the primal metric of every element of a simplicial complex is its volume: 1 for vertices, lengths, areas, volumes. The dual metric of a facet is the sum over its simplices of the distance between the centres, counted negatively where the centre lies beyond the facet. The dual cells of the vertices have the same total volume as the top elements.", "quantifier": "all oriented simplicial complexes of any dimension, all positions and centres", "why_tests_cant": "The metric is added up from fundamental domains which overlap and stick out when centres are outside their elements; that signs make up for this is a claim about all shapes of simplices and all dimensions.", "anchors": ["pycomplex/complex/simplicial/euclidian.py:metric", "pycomplex/topology/simplicial.py:fundamental_domains", "pycomplex/geometry/euclidian.py:unsigned_volume"]}
{"id": "C81", "title": "The cotangent formula is the circumcentric metric", "statement": "For meshes of non-degenerate triangles compute_edge_ratio, the halved sum of the cotangents of the angles opposite to an edge, is the dual length of the edge divided by its length, as given by the metric with circumcentres.", "quantifier": "all oriented triangulations in any dimension of space, without degenerate triangles", "why_tests_cant": "An identity between two different computations over all shapes of triangles, obtuse ones with negative dual lengths included.", "anchors": ["pycomplex/complex/simplicial/euclidian.py:compute_edge_ratio", "pycomplex/complex/simplicial/euclidian.py:metric", "pycomplex/geometry/euclidian.py:triangle_angles"]}
{"id": "C82", "title": "Pairwise Delaunay and well-centred meshes", "statement": "is_pairwise_delaunay holds exactly if the dual metric of every facet is positive, as its docstring says; in n-space with neighbours on different sides of their common facet this is the Delaunay condition: of every two neighbours the one has its other vertex outside the circumsphere of the other, and at the boundary the centre lies inside of the boundary facet. A mesh with every centre inside its element (is_well_centered) is pairwise Delaunay and has a dual metric that is positive for every element of every dimension.", "quantifier": "all simplicial complexes of dimension at least two, all positions of the vertices, all centres", "why_tests_cant": "An equivalence between sums of signed squares over facets, the metric added up from fundamental domains, and a geometric condition, over all shapes of simplices and all dimensions; a test can only see finitely many shapes.", "anchors": ["pycomplex/complex/base.py:is_pairwise_delaunay", "pycomplex/complex/base.py:is_well_centered", "pycomplex/complex/base.py:positive_dual_metric", "pycomplex/complex/simplicial/base.py:dual_edge_excess", "pycomplex/complex/simplicial/base.py:remap_boundary_N"]}
{"id": "C83", "title": "pick_primal finds the simplex of a point", "statement": "For a point of a mesh that passes is_pairwise_delaunay, pick_primal returns a simplex that has the point together with its barycentric coordinates there (non-negative, of sum one), with the tree of offset dual vertices and with any guess in range; sample_primal_0 then returns the linear interpolation of the values at the corners of the simplex of the point.", "quantifier": "all oriented simplicial complexes of dimension at least two in the space of their dimension, all positions and weights of vertices, all points, all guesses, all answers of the nearest neighbour search, the linear solver and the SAT solver", "why_tests_cant": "The offsets come from a singular linear system, the search from a tree over lifted points: that the closest lifted point is the right simplex depends on all simplices of the mesh at once; a test sees finitely many meshes and points.", "anchors": ["pycomplex/complex/simplicial/base.py:pick_primal", "pycomplex/complex/simplicial/base.py:pick_primal_precomp", "pycomplex/complex/simplicial/base.py:weights_to_offsets", "pycomplex/complex/simplicial/base.py:augment", "pycomplex/complex/simplicial/base.py:sample_primal_0"]}
{"id": "C84", "title": "pick_dual finds the dual cell of a point", "statement": "pick_dual returns the vertex with the least power at the point, the squared distance less the weight: without weights, the closest vertex.", "quantifier": "all simplicial complexes of dimension at least two in the space of their dimension without flat simplices, all weights, positive or negative, all points", "why_tests_cant": "The weights enter through square roots of differences to the largest weight as a further coordinate; that the closest lifted point minimises the power is an identity over all weights and points.", "anchors": ["pycomplex/complex/simplicial/base.py:pick_dual", "pycomplex/complex/simplicial/base.py:pick_precompute", "pycomplex/complex/simplicial/base.py:weights_to_offsets"]}
{"id": "C85", "title": "Connected components of a mesh", "statement": "label_connections gives two top elements the same label exactly if a chain of elements joins them in which consecutive ones have a facet in common; is_connected says whether there is one class; split_connected_components returns one connected mesh per class, larger ones first, which together hold every element once with its corners in the original order.", "quantifier": "all simplicial and cubical meshes, all answers of connected_components that meet its contract", "why_tests_cant": "The graph is the int8 product of the signed incidence matrix with its transpose, in which contributions of several common facets may cancel; that an entry is non-zero exactly for neighbours depends on the signs of all pairs of elements.", "anchors": ["pycomplex/topology/base.py:label_connections", "pycomplex/topology/base.py:is_connected", "pycomplex/topology/primal.py:split_connected_components"]}
{"id": "C86", "title": "The manifold check", "statement": "regions_per_vertex counts the classes of top simplices at every vertex when one walks from simplex to simplex through facets at the vertex; check_manifold and is_manifold accept a mesh exactly if it is a manifold: for curves, at most two edges at a vertex; for surfaces, the triangles at every vertex form one fan or ring; for solids, the link of every vertex is a sphere or a disc.", "quantifier": "all simplicial meshes of any dimension, all answers of connected_components that meet its contract", "why_tests_cant": "Manifoldness is a statement about the neighbourhood of every vertex of every mesh; a test sees finitely many neighbourhoods.", "anchors": ["pycomplex/topology/base.py:regions_per_vertex", "pycomplex/topology/base.py:check_manifold", "pycomplex/topology/base.py:is_manifold"]}
{"id": "C87", "title": "Lengths of arcs on the sphere", "statement": "edge_length of two points of the unit sphere is the angle between them; these lengths are symmetric, at most pi, zero exactly for equal points, pi exactly for opposite points, satisfy the triangle inequality, and add up at a point between the ends of an arc.", "quantifier": "all points of unit spheres of any dimension", "why_tests_cant": "The triangle inequality and additivity are statements about all triples of real points; tests sample some of them up to rounding.", "anchors": ["pycomplex/geometry/spherical.py:edge_length"]}
{"id": "C88", "title": "Circumcenters and intersections on the sphere", "statement": "The circumcenter of an edge is the midpoint of its arc; circumcenters of triangles and larger simplices are points of the sphere as far from one corner as from the others, on the side of the corners; intersect_edges returns the point where two arcs cross.", "quantifier": "all points of the unit sphere; all euclidian circumcenters that are equidistant from the corners", "why_tests_cant": "Which of two opposite points is returned depends on the order of the arguments; a test fixes an order.", "anchors": ["pycomplex/geometry/spherical.py:circumcenter", "pycomplex/geometry/spherical.py:edge_circumcenter", "pycomplex/geometry/spherical.py:triangle_circumcenter", "pycomplex/geometry/spherical.py:intersect_edges"]}
{"id": "C89", "title": "Areas of spherical triangles", "statement": "The area of a spherical triangle is the sum of its angles less pi; it is not negative, depends only on the lengths of the sides and not on the order of the corners, adds up when the triangle is cut from a corner to the opposite side or from an inner point to the corners, and is zero for degenerate triangles.", "quantifier": "all triangles on the unit sphere of 3-space whose corners are not on one great circle; degenerate triangles with equal corners", "why_tests_cant": "Additivity is a relation between the areas of infinitely many triangles; each test checks one cut up to rounding.", "anchors": ["pycomplex/geometry/spherical.py:triangle_area_from_normals", "pycomplex/geometry/spherical.py:triangle_area_from_corners", "pycomplex/geometry/spherical.py:unsigned_volume"]}
{"id": "C90", "title": "Metric of meshes on the sphere", "statement": "For an oriented, well-centred mesh of arcs or triangles on the unit sphere the metric is computed; the primal measure of an edge is the length of its arc, that of a triangle its area on the sphere; the dual measure of an edge is the length of the arcs from its centre to those of the triangles at it, that of a vertex the area (length) of the parts around it; primal cells and dual cells add up to the same total; lengths and areas scale with the radius and its square. Meshes that are not oriented, not well centred or of higher dimension are refused.", "quantifier": "all meshes of n-simplices with n = 1 in any space, n = 2 in 3-space, whose edges do not join opposite points and whose triangles are not on a great circle; all barycentric coordinates of the centres, all radii", "why_tests_cant": "The identities relate sums over all flags of a mesh to lengths and areas; tests check some meshes up to rounding.", "anchors": ["pycomplex/complex/simplicial/spherical.py:ComplexSpherical.metric", "pycomplex/complex/simplicial/spherical.py:ComplexSpherical.primal_position", "pycomplex/complex/base.py:BaseComplex.is_well_centered"]}
{"id": "C91", "title": "Transfer of dual cells on the sphere", "statement": "multigrid_transfer_dual of a spherical mesh and its loop subdivision returns the areas in which the dual cells of the two meshes overlap: the values are not negative, every row adds up to the area of a coarse dual cell, every column to the area of a fine dual cell; inside the central triangles the values are the areas of the pieces cut by the arcs around the cells. Different radii, meshes that are not well centred and centres outside of the cells of the triangle are refused.", "quantifier": "all meshes of any number of triangles, all positions on the sphere, all edge points and centres inside of their edges and triangles, all answers of pick_dual that name the cell", "why_tests_cant": "The identity is a decomposition of areas on the sphere for every position of the two centres; the test that wanted to check it is skipped, and rounding hides small errors.", "anchors": ["pycomplex/complex/simplicial/spherical.py:ComplexSpherical2.multigrid_transfer_dual"]}
{"id": "C92", "title": "Metric of regular complexes", "statement": "For an oriented mesh of boxes parallel to the axes, of any sizes, the primal metric lists the length, area, volume, ... of every element, and the dual metric of an element is the sum, over the boxes around it, of the box between the element and the middle of the big one. The products of primal and dual measures of all k-elements add up to the volume of the mesh times n over k. Fewer than 128 boxes meet in an element; meshes that are not oriented are refused.", "quantifier": "all box meshes of every dimension up to seven and any number of boxes, all rational coordinates, every numbering and mirroring of corners", "why_tests_cant": "The sums run over all fundamental domains of all boxes around an element, and the sizes of the boxes vary freely; the tests only look at uniform grids.", "anchors": ["pycomplex/complex/regular.py:ComplexRegularMixin.metric", "pycomplex/geometry/regular.py:hypervolume"]}
{"id": "C93", "title": "Velocities from fluxes", "statement": "If the flux along each dual edge is that of one uniform velocity, dual_flux_to_dual_velocity gives that velocity at the dual vertex of every cell (the part in the plane of the cell, when the mesh is a surface), and zero at the dual vertices of the boundary. This holds for simplices with at least three corners. For segments and for regular complexes the result is the opposite velocity, given fluxes by the same rule.", "quantifier": "all meshes of nondegenerate simplices of every dimension in space of the same or one more dimension, every numbering and orientation of faces, every uniform velocity; all regular complexes whose face centres span the space", "why_tests_cant": "The only test of a flat mesh compares with a relative tolerance of 1e9, so it accepts anything; whether pseudoinverse, orientation and metric fit together has to hold for cells of any shape.", "anchors": ["pycomplex/complex/base.py:BaseComplex.dual_flux_to_dual_velocity"]}
{"id": "C94", "title": "Weighted averages reproduce linear functions", "statement": "Every row of weighted_average_operators that has a domain holds weights that are not negative, add up to one and are positive exactly for the cells joined to the element. The averages over the two cells of an inner face and over cells at equal distances around a vertex of a plane mesh reproduce linear functions. Around a vertex whose cells are at different distances they do not, although the docstring says that they are mean value coordinates, which do.", "quantifier": "all lists of nondegenerate domains of every dimension, all averaging operators of the dual with positive entries; all inner faces; all rings of any number of cells; a fan of six acute triangles for the refutation", "why_tests_cant": "No test calls it; uniform meshes hide the error, and positivity and sums have to hold for meshes of any size and dimension.", "anchors": ["pycomplex/complex/base.py:BaseComplex.weighted_average_operators", "pycomplex/complex/simplicial/base.py:BaseComplexSimplicial.sample_dual_0"]}
{"id": "C95", "title": "Sampling of dual forms on simplicial complexes", "statement": "Given a correct pick in the subdivided complex, every value of sample_dual_0 is the combination of the averages of the form at the elements of one flag (vertex in edge in ... in cell), with the coordinates of the point with respect to the positions of exactly these elements: the exchange of the last two corners of mirrored domains is undone for the right domains. If the averages agree with an affine function at the positions of the elements, the samples do as well; constants are reproduced.", "quantifier": "all simplicial complexes of every dimension, all positions, forms, averaging operators and points, all answers of the picking that are correct", "why_tests_cant": "No test calls it and the examples only plot the result; a wrong exchange only shows for points in mirrored domains and looks plausible, and the parity of the index has to agree with the order of the domains in every dimension.", "anchors": ["pycomplex/complex/simplicial/base.py:BaseComplexSimplicial.sample_dual_0", "pycomplex/complex/simplicial/base.py:BaseComplexSimplicial.pick_fundamental", "pycomplex/topology/simplicial.py:TopologySimplicial.subdivide_fundamental"]}
{"id": "C96", "title": "Regular simplices", "statement": "For every dimension n >= 1 the default n_simplex(n) has n+1 vertices at distance one from the origin, all pairs at the same distance, with centre of gravity at the origin and in general position; n_simplex(n, equilateral=False) is the origin and the unit points, with signed volume 1/n!. Both are oriented like the axes.", "quantifier": "all dimensions n, every ordered field with square roots", "why_tests_cant": "The tests construct the simplex in a handful of dimensions and plot it or use the topology only; the construction is recursive in the dimension and its orientation is never looked at.", "anchors": ["pycomplex/synthetic.py:n_simplex", "pycomplex/geometry/euclidian.py:signed_volume"]}
{"id": "C97", "title": "Minimal residual solver", "statement": "For a symmetric system that is not singular and any right hand side, solve_minres(A, b) returns the vector of smallest residual in the Krylov space of the passes it made, makes at most n passes, and stops only at the solution up to the tolerance.", "quantifier": "all sizes n, all symmetric matrices, right hand sides, shifts, tolerances, precisions and limits of passes, every ordered field with square roots", "why_tests_cant": "No test calls it. That the short recurrences keep all directions orthogonal and the residual minimal is a statement about every earlier pass, for every matrix; a wrong sign shows as slow convergence only.", "anchors": ["pycomplex/solvers.py:solve_minres"]}
