# Design of the formal model of pycomplex

Everything below is about the source text in /repo (package `pycomplex`). Nothing of it is
executed; the model in `rocq/theories` is a hand translation, function by function, and each
definition cites the file and line range it models.

## Layout

* `XModel.v` - computable Gallina definitions mirroring the code (exceptions are values).
* `XSpec.v`  - small independent specification (what the English property means).
* `XProofs.v` - lemmas.
* `XProps.v` - the property theorems, concrete non-trivial examples, `Print Assumptions`.

## Modelling conventions

* Vertex labels and element indices (int32 in the code) are `nat`; overflow of int32 is not modelled.
* `sign_dtype` (int8) arithmetic is `Z`; where the code can leave the int8 range the wrap-around is explicit.
* Floating point is idealised: identities that only need ring laws are proved over an arbitrary
  commutative ring given by section variables (no axioms); where division or order is needed
  rationals (`Q`/`Qc`) or the standard library reals are used (the axioms then show up in
  `Print Assumptions`).
* Sparse matrices are coordinate lists; the value of an entry is the sum of all triples with that
  coordinate (scipy sums duplicates).
* `numpy_indexed.as_index` sorts rows by an order that is not the numerical lexicographic order (void
  byte order). The model takes an arbitrary total order on rows as a parameter; theorems hold for all
  such orders. `index` picks the first occurrence (stable sort), `inverse` the rank of the row.
* External solvers (SAT, eigen, svd, sparse LU) are parameters; what is assumed about them is a hypothesis
  visible in the theorem statement.

## Plan per property

* **C01 combinations enumerates every n-element sub-sequence exactly once** - `combinations` as a structurally recursive function on the list; spec = inductive 'selection of positions' relation, NoDup, lexicographic order, count = binomial.
* **C02 combinations parity is the sign of bringing the selection to the front** - Compare the yielded parity with inversion parity of (chosen ++ rest). The code's sum telescopes differently; expect a conditional theorem for n <= 1 plus a refutation for n >= 2.
* **C03 permutations enumerates all n! orderings with the correct sign** - `permutations` recursive on the list; spec = stdlib `Permutation`, `NoDup`, inversion count.
* **C04 Oriented simplex boundary** - `generate_simplex_boundary` as option-valued function (None = IndexError). Proof: sign of a roll = parity of |A||B|; alternating sum; simplicial identity.
* **C05 A simplicial topology is a chain complex** - `from_simplices` modelled level by level (`construct_lower`), for an arbitrary total row order; matrices as sums of coordinate triples; proof through an antisymmetric indicator of an oriented face.
* **C06 Every face is stored exactly once** - Spec: `face_of k s f` on vertex sets. Induction over levels.
* **C07 Topology matrix entries are the incidence numbers** - Entry function of the coordinate list vs. incidence; NoDup of the faces of one simplex.
* **C08 Two cofaces cancel exactly when consistently oriented** - Row sum of the two entries vs. induced orientation (inversion parity).
* **C09 Construction is rejected exactly for non-contiguous vertex labels** - Constructor check as option; characterise success.
* **C10 fix_orientation orients or raises** - SAT solver as an oracle argument with soundness/completeness hypotheses recorded in the statement.
* **C11 The boundary of an oriented mesh is closed** - `boundary` modelled; row sums of matrices[-1]; reuse C05.
* **C12 Boundary elements refer back to the right parent elements** - `find_correspondence` by lookup of sorted rows; reuse C06.
* **C13 select_subset keeps exactly the selected elements** - `select_subset` with np.unique mapping.
* **C14 Interior and boundary selectors split every chain** - `selection_matrix` as entry function; algebra of 0/1 matrices.
* **C15 The dual of a closed mesh is a chain complex** - Transposes of a chain complex, any length.
* **C16 The dual of a mesh with boundary is a chain complex** - `Dual.matrices` as block matrices; proved when the gluing condition holds, gluing proved for N = 2; 3-D counterexample by computation (refuted).
* **C17 Averaging operators are convex combinations** - path-count product with explicit int8 wrap; rational normalisation.
* **C18 degree counts incident N-elements** - int8 wrap explicit; conditional theorem (< 128) and refutation.
* **C19 check_chain detects broken chain complexes** - loop bound n_dim-2: refuted by witness; partial: products it does inspect.
* **C20 Fundamental domains enumerate all flags** - flags as chains of faces; induction over dimension.
* **C21 Barycentric (fundamental) subdivision preserves orientation** - signs of flags; adjacent flags differ in one entry.
* **C22 Simplicial (vertex-insertion) subdivision preserves the boundary** - cone over each oriented face; formal chain identity.
* **C23 Loop subdivision preserves orientation and counts** - `subdivide_loop` row formula; oriented-edge multiset identity.
* **C24 Direct loop subdivision is a chain complex** - `surface` describes a triangle mesh with sign convention kappa; every product entry is (1 - kappa) times a defect. Refuted for every mesh of `from_simplices` (kappa = -1), proved for kappa = 1.
* **C25 Direct loop subdivision stores the right corners** - refuted for >= 2 triangles; partial for one triangle.
* **C26 Oriented cube boundary** - `generate_cube_boundary` degree 1 on cubes as functions from bit vectors; antisymmetric quantities.
* **C27 A cubical topology is a chain complex** - `from_cubes` level by level like C05 with hyperoctahedral parity; which arrays are accepted (iff), which elements are listed, the value of every matrix entry.
* **C28 Product vertices are numbered without collision** - arithmetic of pair numbering.
* **C29 Regular grid cubes refer to the right vertices** - stride arithmetic over mixed-radix numerals.
* **C30 Stencil symbols are the basis of the exterior algebra** - `generate` modelled on lists; spec on sorted tuples.
* **C31 The periodic stencil derivative is closed** - fields as functions on Z^n periodic index vectors; convolution with wrap; induction over symbols.
* **C32 Stencil dual derivative is the adjoint of the primal derivative** - finite periodic sums; shift invariance of the sum.
* **C33 Coarsening after refining restores the form** - bin/tile as functions on even grids.
* **C34 Operator simplification preserves meaning** - deep embedding of operator expressions, semantics into functions; simplify proved sound for the structural rules; refutation for adjacent derivatives / allclose.
* **C35 Operator transpose is the adjoint and an involution** - adjointness by induction over expressions.
* **C36 Block operator product is composition** - block sums over an abstract additive group.
* **C37 Dense round trip of stencil block vectors** - np.split with sizes instead of offsets: refuted for three blocks, partial for <= 2 blocks.
* **C38 Checkerboard evaluation yields the true diagonal** - checkerboard on periodic grids: even extents proved, odd refuted.
* **C39 The canonical first-order system is symmetric and its normal equations are positive semi-definite** - block entries of canonical system; symmetry from adjointness; normal equations.
* **C40 A V-cycle leaves an exact solution unchanged** - `v_cycle` recursion over the hierarchy list.
* **C41 Hierarchy lists levels from coarsest to finest** - list recursion.
* **C42 Block merge and split are inverse** - offset arithmetic; block product; refuted for vectors of equal length, which np.asarray stacks into one 2-d array.
* **C43 Inverse of 3x3 matrices** - field identities over any field where 3 is not 0, against the Leibniz determinant.
* **C44 rotation_from_plane returns a rotation** - mathcomp matrices over any commutative ring, dimension n; determinant by Sylvester's identity.
* **C45 Volume of a closed triangle mesh is translation invariant** - sum of determinants over triangles in any field with 2, 3 not 0; the sum of an antisymmetric function over the directed edges of a closed mesh vanishes.
* **C46 Clipping a triangle mesh splits triangles without changing orientation** - case analysis on the sides of the corners; multiset of directed edges; uniqueness of directed edges for consistency; positions in an ordered field; clip=True through select_subset (C13).
* **C47 Extruded surfaces are closed** - multiset of directed edges; stored boundary edges run along their only triangle; success for connected surfaces whose boundary passes each vertex at most once.
* **C48 Multilinear sampling weights form a partition of unity** - product weights over bit vectors; induction over dimension. Stated for the sampling functions through a specification record `interpolates` (constants, range, corners, affine functions at the nearest point).
* **C49 adjecent_pairs yields every adjacent pair** - falsy-first-item behaviour; partial + refuted.
* **C50 pascal computes binomial coefficients** - fuel recursion; binomial identity.
* **C51 accumulate returns all running totals** - fold lemmas.
* **C52 normalize_l1 scales rows or columns to unit absolute sum** - rationals/reals entrywise.
* **C53 Conjugate gradient keeps its residual invariant** - state machine of the loop with projector `deflate`; the invariant is proved for every exit. The convergence bound holds for the iterate before the last update only (partial, with refutation).
* **C54 Subdivision operator of the loop scheme matches the fine vertices** - row counts; refuted for every mesh with at least one triangle.
* **C55 is_oriented detects consistent orientation** - SAT oracle; reuse C10.
* **C56 Averaging over top simplices uses equal weights** - path counts N!/k! style invariants, int8 wrap bound; reuse C17.
* **C57 Stencil smoothers are symmetric** - each axis pass is a symmetric convolution; composition in a fixed order of commuting passes.
* **C58 Coarsening is the scaled transpose of refinement** - adjoint of bin and tile plus C57.
* **C59 Transfers reproduce constants** - weights of each pass sum to one.
* **C60 Loop subdivision transfer matrices follow the geometry** - entries of the three COO matrices computed; the halves of an edge found by their vertex pair.
* **C61 Vertex normals are the volume gradient** - multilinearity of the determinant plus the directed-edge cancellation of C45.
* **C62 Conjugate gradient ends within n passes and lowers the energy** - orthogonal residuals and conjugate directions by induction over passes; at most n orthogonal nonzero vectors (elimination).
* **C63 Picking on a regular grid finds the containing cube** - axis-wise comparison of squared distances to centroids; affine forms are then sampled exactly. Guesses and boxes of unequal size are refuted.
* **C64 Cubical fix_orientation orients or raises** - `relative_parity` related to the last topology matrix for any kind of element (GenOrient); entries of that matrix are signs of sides of cubes (CubeChain), and mirroring a cube along its first axis negates them.
* **C65 Boundary and subsets of cubical meshes** - cubes renumbered by an order preserving map have the same sides (CSubProofs); boundary faces are stored as they occur in their only cube, so all have the same sign and the boundary of the boundary vanishes by C27's identity.
* **C66 Cubical subdivision is a refinement with the same orientation** - the table `cubical_domains` is written level by level; entry (a, b) of a cube is the face through corner a along the axes b (CDomTop). Small cubes are described through that table (CDomSub); a face of a small cube is either inside its coarse cube or a part of one of its faces, and parts of related faces are related with the same sign (CDomOrient).
* **C67 Cubical transfers pair elements with their parts** - every fine element is, up to orientation, a cell between two faces of one coarse cube; it has a coarse vertex iff its lowest corner has dimension 0 (CDomTrans, CDomPairs).
* **C68 Transferred cubical elements keep their orientation** - true of vertices, of cubes, and of faces of highest dimension: both the coarse and the fine face are stored as generated from the first cube that has them, and these first cubes correspond (CDomInherit). False of edges in three dimensions (witness: one cube).
* **C69 Averages and degrees of cubical meshes** - the chained products count the ways down from an element to a corner and up from a face to a cube, k! and (n-k)! many, in int8 (CAvgProofs). Exact up to k = 5; at 6! the weights turn negative, in every mesh of dimension six or seven.
* **C70 Smoothing moves vertices to averages of crease centroids** - one level groups the repeated centroids by corner; levels overwrite each other from the highest dimension down, so the lowest dimension with a crease wins (SmoProofs). One coordinate of the vertices is modelled, over exact rationals; the centroids are a parameter, since the simplicial classes use circumcentres.
* **C71 The smoothing operator does what smoothing does** - masks select the lowest level with a crease at each vertex; row normalisation divides by the number of creases times the number of corners, whatever the common weight, so the int8 sign error of C69 cancels. True of vertices with a crease, hence of all vertices if no chain of n-cubes is given; false of the others.
* **C72 The subdivision operator does what subdivision does** - vertices through the stacked averages of C69, smoothing through C71 on the fine mesh of C66 with the creases passed on by the matrices of C67. Proved up to dimension five where no chain of n-cubes is given; false at dimension six.
* **C73 Quads cut into triangles** - both meshes are families of directed edges (QuadProofs); orientation, sharing, chains and boundary are compared there, and the directed edges of the triangles are those of the quads and spokes that cancel in pairs (QuadTri).
* **C74 Simplices cut into cubes** - triangles: halves of edges and spokes, again as families of directed edges (QuadCut). Tetrahedra: the edge common to two faces is found as the repeated entries of their sorted corners; the cubes are numbered upwards along each axis, so common faces match (QuadTet). False of orientation: the quads run against their triangle, and the cubes of a tetrahedron against each other. Boundary and manifoldness of the cubes of tetrahedra are not stated.
* **C75 Volumes of simplices** - over any real closed field, matrices of corners. The determinant of the edges is that of the corners bordered by ones (GeoProofs), from which reordering, translation, linear maps and the sum over replaced corners follow; the Gram determinant splits off the squared height and is a function of the squared distances.
* **C76 Circumcentres** - eigh is a parameter with the contract A = W diag(v) W^T, W orthogonal; such a function exists for every real closed field (Spectral: the spectral theorem, proved here). A centre solves the bordered linear system, the untruncated pseudoinverse solves solvable systems; independent corners have exactly one centre. False as stated: the truncation at ratio 10^6 drops eigenvalues that matter. C76_vertices and C76_triangle give the exact results of vertices and of a right triangle of any size, C76_batch_refuted the influence of another simplex. C76_ratio: every batch has a ratio from which on all results are right.
* **C77 Normals and gradients of simplices** - numpy.linalg.svd is a parameter with the contract u diag(s) v = A, u and v orthonormal, s decreasing and not negative (`svd_of`); such a function exists for every real closed field (Svd: proved here from the spectral theorem). The pseudoinverse of the corners less their mean has the gradients of the barycentric coordinates as columns, as long as no singular value that is not zero is cut off; C77_unique shows that gradient is unique, C77_tolerance that the condition holds for every simplex from some tolerance on. False as stated: simplex_gradients is the dimension times the derivative of the volume (C77_volume_gradient_refuted), flat simplices have no normals (C77_sliver_refuted), and simplices of codimension two or more raise ValueError (C77_wide).
* **C78 Volume, area and normals of surfaces** - a surface is a list of triangles and a function giving positions in a real closed field. Closed and oriented means that every directed side occurs as often as the opposite one; such lists have vanishing sums of antisymmetric functions (SurfProofs.balanced_zero), which gives translation and the vertex normals. `encloses` says a surface bounds tetrahedra: every alternating function of triangles has the same sum over the surface and around the tetrahedra; C78_cone shows each closed surface bounds its cone from any vertex. False as stated: open surfaces are not refused (C78_open_refuted; harmless if the opening is in a plane through the origin, C78_cut), vertex areas add up to twice the area, and lines with an edge turned around are not refused (C78_turned_edge_refuted).
* **C79 Centre of mass** - proved when all triangles face away from the origin, or all towards it. False as stated: C79_lifted gives the exact result for a tetrahedron lifted by any h, which does not move along (C79_translate_refuted) and lies outside the tetrahedron once 2 h^2 > 1 (C79_outside_refuted).
* **C80 Primal and dual metric** - `metric` is modelled on the fundamental domains of C20 over a real closed field; the centres are any affine combinations of corners (`centres`), so weighted centres are covered by all theorems but those about circumcentres. Measures of flags are determinants of tables of coordinates (MetAff.measure_affine), which are added up by Laplace expansion along the flag (MetSum.share_one). Volumes of top elements are proved when the centres of proper faces are inside (C80_top_partial), their own centre may be anywhere; lower elements when their own centre is inside as well (C80_faces_partial, C80_faces for the exact factor otherwise). For triangles nothing is needed but distinct corners (C80_triangles). False as stated: a tetrahedron with an obtuse face (C80_obtuse_refuted), with the exact factor in C80_top_excess.
* **C81 The cotangent formula** - angles are represented by their cosines, clipped as in the code; 1/tan of arccos is cos/sqrt(1-cos^2) (MetModel.cotangent). Proved from C80_dual_edges and the algebra of a corner (MetCot.corner_algebra), for all triangulations.
* **C82 Pairwise Delaunay and well-centred meshes** - `dual_edge_excess` and `remap_boundary_N` are modelled with the group sums of C80; the sum at a facet is a sum over the at most two simplices around it (DelProofs.around_two), where the signed squares and the signed lengths have the same sign (two_signs). The Delaunay condition follows from the distances along the common normal (DelGeo.pair_sign), which exists since a vector orthogonal to all edges of a simplex that is not flat is zero (DelFree.orthogonal_zero). For well-centred meshes every fundamental domain has positive measure (DelPos.dom_pos). False as stated when three simplices share a facet (C82_three_refuted).
* **C83 pick_primal finds the simplex of a point** - the tree and the solver are oracles with a contract (TreeSpec.nearest_contract, minres_contract; both can be met: TreeProofs.scan, least). The normal equations for the offsets are consistent, since the powers of the centres solve them (TreeGeo.rads), so on a connected mesh the offsets are the powers of the centres up to one constant (W_const); the closest lifted centre then is a simplex whose sphere has least power at the point, and with empty spheres such a simplex has every vertex of the point's coordinates (TreeMain.support). Partial: for connected meshes with empty spheres; for several parts false (C83_components_refuted). A mesh that is only pairwise Delaunay need not have empty spheres unless its union is convex, which is not modelled.
* **C84 pick_dual finds the dual cell of a point** - from the contract of the search and the identity for lifted distances (TreeProofs.nearest_power).
* **C85 Connected components of a mesh** - scipy's connected_components is an oracle with a contract (CompSpec.components_contract, met by CompProps.flood). The entry of the int8 product for two different simplices is plus or minus one if they have exactly one common facet, and plus or minus n+1 if they have the same vertices (CompProofs.gram_nz), so it vanishes exactly for non-neighbours up to dimension 254. The parts come from C13. Partial: for simplices; false for cubes (C85_cubes_refuted).
* **C86 The manifold check** - the graph of the simplices at a vertex is treated as in C85; a common facet can be chosen through the vertex (CompProofs.star_face). For surfaces a longest walk of neighbours is a row or ring of all triangles at the vertex (CompWalk). Partial: the count is proved up to dimension nine; the check is right for surfaces without edges of three triangles (C86_surfaces), and false for curves, for edges of three triangles, for solids and from dimension ten on.
* **C87 Lengths of arcs on the sphere** - coordinates are the real numbers of the standard library, arccos is `acos`, nan is None. The specification is the angle between two vectors (SphSpec.is_angle). The triangle inequality comes from the Cauchy-Schwarz inequality for the components orthogonal to the middle point, additivity from the addition theorems (SphProofs.angle_add).
* **C88 Circumcenters and intersections on the sphere** - the euclidian circumcenter is a parameter, required to be equidistant from the corners (that of the code is C76). Partial: nan for corners of a great circle; triangle_circumcenter returns the opposite point for corners in counterclockwise order, and intersect_edges the opposite point when the second arc starts on the left of the first.
* **C89 Areas of spherical triangles** - the angles of the specification are those between the tangents at the corners. All parts follow from the additivity of angles in a plane; that the area is not negative from the triangle inequality for the polar triangle. Partial: three equal corners have the area pi/2.
* **C90 Metric of meshes on the sphere** - the barycentric coordinates of the centres are a parameter that only has to be positive (those of the code are C76). The domains are the flags of C20; sums over the flags through an element are regrouped by its facets, and the arcs and areas of the parts are added by C87_split, C89_cut and C89_inside. The specification names the centres as the points of the sphere with the given coordinates (SMetSpec.central), the measures by edge_length and triangle_area_from_corners, which C87 and C89 tie to angles.
* **C91 Transfer of dual cells on the sphere** - the two meshes are given by the attributes that the function reads; STrSpec.subdivision says how they belong together (numbering of the four triangles, points inside of their edges and triangles, the picked cells, crossing arcs). Each piece is cut from a triangle with C89_cut and C89_inside; the point returned by intersect_edges is the crossing or its antipode by the sign of a determinant (C88). Proved for triangles in counterclockwise order; for the other order the function takes both antipodes, and the column of a fine vertex is too large by 2 (pi - area) (C91_clockwise_refuted). That the arcs cross is a hypothesis. Not stated: that the pieces are the intersections of the cells as sets of points.
* **C92 Metric of regular complexes** - exact rationals. RMetSpec.box places the corners of a cube; the measure of an element is the product of its extents (largest minus smallest coordinate) along the axes in which it is not flat, so it does not depend on the order of corners. A domain's restricted hypervolume is the product of its nonzero differences (sorting lemma); an element of dimension k gets 2^k domains of each cube around it (C66), each 1/2^k of its measure. The degree is int8 (C69), hence the bound of 128.
* **C93 Velocities from fluxes** - ordered field with square roots, svd as an oracle with the contract of C77. VelSpec.step_across: the dual edge of a face as a step into the cell, of the length given by the dual metric; uniform_flow: oriented flux = velocity . step (what the dual derivative of a linear potential gives). The matrix of gradients has the rank of the plane, so the first n_dim singular values are the nonzero ones and the truncated inverse undoes it within the plane. The sparse products are computed entry by entry from the triples. C93_numbering ties 'face i is opposite corner i' to the model of construct_lower, and shows that it fails for segments. Partial: false for segments and regular complexes (opposite sign).
* **C94 Weighted averages** - ordered field with square roots; positions, domains, and averaging operators of the dual are arguments. The weight of a domain is a volume over a product of lengths; C94_weights gets its sign from C75 (volumes of independent points are positive). C94_faces: weights are inverse distances, and the two cells are opposite each other. C94_ring_partial: the contribution of an edge is the difference of the two cells turned by a right angle, over the distance; so it sums to zero around the vertex if the distance is the same for all cells. C94_vertices_refuted: a fan of six acute triangles (circumcentres inside) with one cell further away.
* **C95 Sampling of dual forms** - commutative ring; pick_primal of the subdivided complex is an argument with the contract of C83 (index in range, coordinates of the point in the simplex with that index). The topology of the subdivided complex is the modelled one (C20, C21), its vertices the concatenated positions. coordinates_of and is_flag are stated without the subdivision; the proof follows the label of an element through offsets, concatenation and the exchange of the last two columns.
* **C96 Regular simplices** - ordered field with square roots, the vertices as matrix rows, the recursion of the code as a recursion on the dimension. Scalar products of the vertices by induction give length, distances and independence. The orientation is the sign of signed_volume (C75), by expansion of the determinant along the first row. False in even dimensions (C96_orientation_refuted), true in odd ones and for the canonical simplex.
* **C97 Minimal residual solver** - ordered field with square roots; eps is any positive number. One record for the variables of the loop, one function for a pass, nan as a value of its own for beta = 0. Krylov spaces and lengths are stated separately (MinSpec). The invariant of the loop: the Lanczos vectors are orthonormal, A maps each into the span of the ones up to the next, the residual is phibar times a vector perpendicular to A times all of them. Minimality, the bound on the passes and exactness after n passes follow. Missing in the partial theorem: how good the result is when a test ends the loop earlier. That the loop ends only near the solution is false, as is the use of the default x0 and the right hand side zero (C97_*_refuted).

## Trusted base

* Coq 8.16.1 kernel (checked with coqchk), and the axioms printed by `Print Assumptions` for each theorem (next section).
* Faithfulness of the hand translation (each definition cites its source lines and its simplifications).
* Behaviour of numpy / scipy / numpy_indexed primitives as written down in the model's comments.

## Axioms

`Print Assumptions` follows every property theorem in the `*Props.v` files. All of those up to C86
print "Closed under the global context": no axiom is used. The theorems of SphProps, SMetProps and STrProps use the real numbers of the
standard library and depend on its axioms, and on nothing else: `ClassicalDedekindReals.sig_not_dec`,
`ClassicalDedekindReals.sig_forall_dec`, `FunctionalExtensionality.functional_extensionality_dep` and, all of them
but C88_opposite, C88_intersect_partial and C88_intersect_refuted, `Classical_Prop.classic`. The context list of coqchk also names constants that mathcomp seals behind
modules (loaded by RotModel / RotProps); no theorem depends on them as axioms.

## What is modelled

| Source | Model file | Not modelled there |
|---|---|---|
| `math/combinatorial.py` | CombModel | - |
| `topology/util.py`, `topology/simplicial.py` 12-180, `topology/primal.py` constructor | SimpModel | int32 overflow |
| `topology/simplicial.py` fix_orientation, `topology/primal.py` boundary / find_correspondence / select_subset / selectors, `topology/base.py` chain checks and relative_parity | BdryModel | SAT solver internals (oracle), connected-component labelling |
| `topology/dual.py` matrices | BdryModel, DualProofs | duals of subdivisions |
| `topology/base.py` averaging, degree; `sparse.py` normalize_l1; `util.py` accumulate | AvgModel | float rounding of the normalisation |
| `stencil/topology.py`, `stencil/util.py` | StModel on arrays of Arr.v | boundary conditions of non-periodic grids other than as coded in the derivative; float32 |
| `stencil/operator.py` | OpModel | numpy broadcasting of diagonals beyond the modelled shapes |
| `stencil/block.py`, `stencil/linear_system.py` canonical / normal | BlkModel | numpy object-array stacking in vector_mul |
| `stencil/complex.py` hodge, smoothers, coarsen, refine; `stencil/equation.py` residual, jacobi, overrelax, smooth; `stencil/multigrid.py`; `stencil/diffusion.py` formulate and transfers | MgModel | block Gauss-Seidel smoothers, eigen solvers, minres (oracle); 1/0 is an arbitrary element instead of inf; the initial coarse guess y*0 only fits because left and right spaces agree |
| `topology/simplicial.py` 182-255, 335-537 (fundamental domains, barycentric / vertex / loop / direct loop subdivision and transfers), `topology/util.py` transfer_matrix, element_indices | SubdModel | subdivide_cubical; the cached parent attribute |
| `topology/cubical.py` 475-493 (fix_orientation), `topology/primal.py` 138-224 for cubical topologies | COrModel | SAT solver internals (oracle) |
| `complex/base.py` 144-221 (smooth, smooth_operator); `complex/cubical.py` 36-111 (primal_position, subdivide_cubical, subdivide_operator) | SmoModel | one coordinate per vertex, exact rationals; chains as arrays with keys that are not negative; rows without entries stay empty |
| `topology/cubical.py` 501-547 (subdivide_simplicial, transfer operators), `complex/cubical.py` 314-324; `topology/simplicial.py` 257-333 (subdivide_cubical) | QuadModel | vertex positions one coordinate, exact rationals |
| `geometry/euclidian.py` 212-304 (unsigned_volume, signed_volume), 332-356 (segment_normals) | GeoModel | real closed field instead of floats; one simplex instead of arrays of them |
| `geometry/euclidian.py` 55-209 (circumcenter, circumcenter_barycentric, the weighted variant) | CircModel | real closed field; numpy.linalg.eigh a parameter; leading axes one list |
| `geometry/euclidian.py` 360-395 (simplex_normals, simplex_gradients), `math/linalg.py` 206-226 (pinv) | NormModel | real closed field; numpy.linalg.svd a parameter; one simplex instead of arrays of them; nan as None |
| `complex/simplicial/euclidian.py` 518-557, 570-605 (normals, areas, volume, centre of mass), `complex/cubical.py` 348-367 (volume of a line) | SurfModel | real closed field; a mesh is its list of triangles and positions; is_closed a parameter of the line |
| `complex/simplicial/euclidian.py` 141-196, 208-217, 250-271 (metric, cotangent ratios), `geometry/euclidian.py` 308-330 (triangle_angles) | MetModel | real closed field; centres and barycentric coordinates of top elements are parameters; group_by as sums over keys in increasing order; angles by their cosine |
| `complex/base.py` 246-258 (positive_dual_metric, is_well_centered, is_pairwise_delaunay), `complex/simplicial/base.py` 43-66, 214-232 (dual_edge_excess, remap_boundary_N) | DelModel | real closed field; primal positions and barycentric coordinates are parameters |
| `complex/simplicial/base.py` 252-299, 309-368, 378-446, 531-548 (weights_to_offsets, augment, pick_precompute, pick_primal, pick_dual, sample_primal_0), `complex/simplicial/euclidian.py` 24-35 (homogenize) | TreeModel | real closed field; one point; cKDTree and minres are oracles with a contract; LinAlgError as ValueError; caching not modelled |
| `topology/base.py` 22-45, 95-133 (regions_per_vertex, label_connections, is_connected, check_manifold, is_manifold), `topology/primal.py` 231-242 (split_connected_components) | CompModel | connected_components is an oracle with a contract; the order of the elements of a group is taken as increasing; ManifoldException as RuntimeError; caching not modelled |
| `geometry/spherical.py` except triangle_areas_around_center, `math/linalg.py` 7-64 (dot, normalized) | SphModel | real numbers in place of floats; one element instead of a batch; vectors of different length |
| `complex/simplicial/spherical.py` 134-195 (primal_position, metric), `complex/base.py` 250-253 | SMetModel | real numbers in place of floats; primal_barycentric as a parameter; SAT solver as a parameter |
| `complex/simplicial/spherical.py` 255-383 (multigrid_transfer_dual) | STrModel | real numbers in place of floats; the attributes of the meshes and the answers of pick_dual as parameters; a mesh of one triangle without a match raises in the model, where numpy broadcasts |
| `complex/regular.py` 279-350 (fundamental_domain_postions, metric), `geometry/regular.py` 11-32 (hypervolume) | RMetModel | exact rationals in place of floats; only complexes with as many coordinates as dimensions |
| `complex/base.py` 344-446 (dual_flux_to_dual_velocity), 234-238 (hodge_PD, of the faces) | VelModel | ordered field with square roots in place of floats; one flux at a time; is_pairwise_delaunay is an argument; a cell without finite inverse spoils the whole result instead of its own entries |
| `complex/base.py` 260-342 (weighted_average_operators), `sparse.py` 23-29 | WavModel | ordered field with square roots in place of floats; division by zero gives zero instead of inf; matrices as functions of row and column; averaging operators of the dual are an argument (their construction is C17), their extra rows on the boundary (FIXME in the code) are rows without domains |
| `complex/simplicial/base.py` 19-23, 448-529 (subdivide_fundamental, pick_fundamental, sample_dual_0) | FSampModel | commutative ring in place of floats; pick_primal of the subdivided complex and the averaging operators are arguments; one value per element; no guess of domains |
| `synthetic.py` 16-47 (n_simplex) | RegSModel | ordered field with square roots in place of floats; construction of the complex object left out (topology: C01 and others) |
| `solvers.py` 82-267 (solve_minres) | MinModel | ordered field with square roots in place of floats; variables that are written and never read left out; x0 only by its type; maxiter a natural number |
| `topology/cubical.py` 253-350, 416-448 (subdivide_cubical, relations, transfers, cubical_domains) | CDomModel | dtype of index arrays; the stored `_transfers` attribute is returned as a value |
| `topology/cubical.py` 13-251, 450-473 (cube boundary, parity, from_cubes, product), `complex/cubical.py` 200-227 (vertices of a product), `synthetic.py` 86-124 (n_cube_grid) | CubeModel | subdivisions of cubical topologies; centering of the grid |
| `block.py` 28-54, 240-271, 291-315 (shape, constructor, sparse product and merge, dense split and merge) | BarrModel | diags, norms, the row and column transforms |
| `math/linalg.py` 7-22, 132-203 (dot, adjoint, null, inverse) | LinModel | broadcasting over many matrices; integer overflow |
| `math/linalg.py` 117-129 (rotation_from_plane, argument of the arccos in angle_from_rotation) | RotModel | arccos itself |
| `complex/simplicial/euclidian.py` 304-338 (shapes), 380-445 (clip), 515-550, 570-588, 771-802; `complex/base.py` translate | TriModel | plotting, normalised normals, vertex areas; extrude for meshes of different topologies |
| `complex/regular.py` 36-277 (pick and sample functions) | SampModel | the search tree (oracle for the closest centroid), forms with more than one value per element, toroidal variants |
| `solvers.py` 6-79 (solve_cg) | CgModel | float rounding and overflow; minres; comparisons with nan are False |

Whatever is not listed (complex/*, geometry/*, plotting, file IO, eigen-solvers, SVD, caching decorators, most of math/linalg)
is not modelled, unless a row above says so. Floating point rounding, int32 overflow and numpy dtype conversions other than
the int8 wrap-around mentioned above are not modelled anywhere.

## Findings (properties false of the faithful model)

* C02: parity yielded by `combinations` is wrong for two or more selected items (`C02_*_refuted`).
* C16: the dual of a 3-D mesh with boundary need not be a chain complex.
* C18: `degree` wraps at 128 incident elements (int8).
* C19: `check_chain` inspects only the first n_dim-2 products.
* C10/C11/C55: `is_oriented` and `fix_orientation` quirks; `boundary` of a 1-D open mesh fails its assertion.
* C34: `allclose` tolerance turns small diagonals into zero; two derivatives that fit only by shape are dropped.
* C36, C39: the same tolerance removes terms from block products and from the normal equations at small spacing.
* C37: `from_dense` passes block sizes instead of offsets to np.split; three or more blocks always raise.
* C38: checkerboard diagonals are wrong on odd periodic extents.
* C22: `subdivide_simplicial` raises IndexError for curves. C23: on two triangles with the same corners loop subdivision
  destroys consistency (`C23_pillow`).
* C24: the direct loop subdivision of any mesh from `from_simplices` is not a chain complex (sign convention).
* C25: the direct loop subdivision computes corners from the edges of the first triangle only.
* C27: `from_cubes` raises AssertionError for every array of cubes of dimension >= 8; with mirror=False the matrices are not a chain complex (`C27_unoriented`). C28: two cells on the same corners in different cyclic order are accepted by `from_cubes` but make every product raise (`C28_rejected_example`).
* C49: `adjecent_pairs` loses pairs when an item is falsy. C50: `pascal` does not end outside 0 <= k <= n.
* C42: a BlockArray built from vectors of equal length is stacked by np.asarray into a 2-d array: merge gives a 2-d array and split raises IndexError.
* C43: `null` returns the zero vector for rank-2 matrices whose rows lie on one line (`C43_null_rank2_refuted`); `adjoint` is the cofactor matrix, the transpose of the adjugate.
* C54: `subdivide_loop_operator` has a row for every vertex, edge and triangle, so that it has too many rows by the number of triangles, and smooth=True always raises ValueError.
* C53: `solve_cg` tests the residual from before its last update, so that the returned vector can fail the test it passed; the test on the direction is absolute, so that a right hand side of size 1e-5 gives the start vector back unsolved.
* C63: `pick_primal` with a guess keeps the guess for points beyond its far side; `pick_fundamental` with correct guesses raises UnboundLocalError; on grids of unequal boxes the closest centroid can belong to a cube not containing the point.
* C64: cubical `fix_orientation` raises ValueError when the last cube shares no side with another one while other cubes share sides: the solution of the clauses is shorter than the list of cubes.
* C68 (cubical.py:340, FIXME): the edges of a three-dimensional subdivided mesh need not be oriented like the coarse edges they are halves of. For the single cube [0,1,2,7,4,5,6,3] six of the 24 halves are reversed, so using the transfer matrix of level 1 on 1-forms without signs flips their sign.
* C69 (base.py:207-260): on cubical meshes of dimension six and seven, the rows of averaging_operators_0[6] sum to -1, because 6! overflows int8; averaging_operators_N likewise where the codimension is six or more. degree turns into -128 at 128 incident cubes.
* C71 (base.py:166 and 217): with a chain of n-cubes that leaves out all cubes at a vertex, smooth keeps that vertex, while smooth_operator has an empty row, which sends it to the origin.
* C72 (cubical.py:96): in dimension six and seven, subdivide_operator puts the new vertices of 6-cubes at minus their position in the subdivided mesh.
* C74 (simplicial.py:257-333): on tetrahedra, the cubes at corners 0 and 1 induce the same orientation on their common face, so the result is never consistently oriented; boundary matrices of the result do not cancel. On triangles the quads run against their triangle, while cutting quads into triangles (cubical.py:501) keeps the direction: there and back reverses all triangles (C74_there_and_back).
* C74: dimensions other than two and three raise NotImplementedError.
* complex/cubical.py:305-311: ComplexCubical1.to_simplicial calls topology.as_1(), which no topology class defines.
* C76 (euclidian.py:154-156): eigenvalues smaller than the largest of the whole batch by more than 10^6 are dropped. The border of ones has eigenvalues near one whatever the size of the simplex, so: a vertex farther than about 22.4 from the origin gets the coordinate 1/2 instead of 1 (C76_far_vertex_refuted); a right triangle with legs below 1/1000 gets its barycentre, above 1000 coordinates that add up to 0 (C76_scale_refuted); adding a far vertex to the batch halves or zeroes the coordinates of the others (C76_batch_refuted).
* C76 (euclidian.py:55): circumcenter_barycentric_weighted ignores its argument ratio; with dependent corners it divides by zero.
* C77 (euclidian.py:378-395): the docstring of simplex_gradients promises the gradient of the volume with respect to the corners; the result is n_dim times that (C77_volume_gradient_refuted). Its length is the volume of the opposite side.
* C77 (linalg.py:206-226): a triangle whose height is below about 10^-9 of its base has nan normals although its corners are independent (C77_sliver_refuted); pinv of a matrix with more columns than rows raises ValueError, so segments in 3-space have no simplex_normals (C77_wide).
* C78 (complex/simplicial/euclidian.py:582-584): the docstring of volume promises ValueError for open surfaces, the check is commented out; the value then depends on the position (C78_open_refuted). examples/modelling/stability.py relies on this after clipping, which is right as the opening lies in a plane through the origin (C78_cut).
* C78 (complex/simplicial/euclidian.py:550-557): vertex_areas does not halve the cross products: they add up to twice the area (C78_vertex_areas_refuted).
* C78 (complex/cubical.py:348-367): is_closed does not see orientation; a closed line with an edge turned around gets a value that depends on its position (C78_turned_edge_refuted).
* C79 (complex/simplicial/euclidian.py:588-600): center_of_mass weighs with unsigned volumes. A tetrahedron lifted off the origin by 1 has its computed centre of mass below itself (C79_outside_refuted). examples/modelling/stability.py:65 uses it for the centre of buoyancy.
* C80 (complex/simplicial/euclidian.py:187): primal volumes are not signed, as a FIXME there suspects. A tetrahedron with corners (0,0,0) (4,0,0) (1,1,0) (0,0,2) gets 71/28 of its volume, and its obtuse face three times its area (C80_obtuse_refuted); so every tetrahedral mesh with an obtuse face has a wrong primal metric.
* C81 (complex/simplicial/euclidian.py:263): the docstring of compute_edge_ratio says primal/dual; the value is dual/primal (C81_cotan).
* C82 (complex/base.py:256): with three triangles at an edge, which `is_oriented` accepts since only facets of exactly two simplices give a condition, is_pairwise_delaunay adds signed squares: 81-25-25 is positive though the dual length 9-5-5 is not (C82_three_refuted).
* C82: dual_edge_excess pairs corner c with boundary c. For complexes of dimension 1 the boundary of an edge lists its first corner first, so the signs there go with the other end; this is only visible with weights, and the theorems start at dimension 2.
* C82 (complex/simplicial/euclidian.py:161-166): `metric` takes its signs from unweighted circumcentres, though its positions are weighted; the theorems of C80 and C82 therefore require the signs to agree with the coordinates of the centres.
* C83 (complex/simplicial/base.py:350-362): the offsets of the dual vertices are determined per connected part only up to a constant and minres of a zero right hand side gives zero, so on a mesh of several parts, though pairwise Delaunay with empty circumspheres, a corner of one triangle is found in the other (C83_components_refuted). The docstring asks for a Delaunay mesh only.
* C83 (complex/simplicial/base.py:399): the check is of pairs of neighbours. On a connected mesh that is not convex the circumsphere of a simplex can have vertices of simplices further away; nothing is proved there.
* C83: pick_primal does not check the orientation; on a mesh that is not oriented `boundary` fails and its bare `except` takes all facets for interior ones (see C55), which gives other offsets.
* C85 (topology/base.py:105): the graph is the product of signed matrices, in which two common facets may cancel. A Moebius band of two quadrilaterals is labelled as two components and would be split (C85_cubes_refuted). For simplices this cannot happen below dimension 255. An unsigned product would avoid it.
* C86 (topology/base.py:121-124): check_manifold only looks at connectedness around vertices. It accepts every curve, also with three edges at a vertex (C86_curves_refuted), three triangles at an edge (C86_manifold_refuted), and the cone over a torus (C86_solids_refuted).
* C86 (topology/base.py:35): accumulated_operators_N counts flags in int8, and n! is a multiple of 256 from n = 10 on, so every mesh of dimension ten or more has zero regions per vertex and is refused (C86_high_dimension_refuted).
* C88 (geometry/spherical.py:162-184): intersect_edges returns the opposite of the point where the arcs cross whenever the second arc starts to the left of the first (C88_intersect_refuted).
* C88 (geometry/spherical.py:121-133): triangle_circumcenter (not used at present) returns the opposite of the circumcenter for corners in counterclockwise order (C88_triangle_refuted).
* C88 (geometry/spherical.py:136-159): the circumcenter of three points on a great circle is nan, though its poles are equidistant from them (C88_great_circle_refuted).
* C89 (geometry/spherical.py:24-39): a triangle with three equal corners has the area pi/2, because the normals of all sides are zero vectors (C89_point_refuted).
* `ComplexSpherical2.multigrid_transfer_dual` takes the sign of the two intersections from the order of the corners: for a mesh with clockwise triangles both points are antipodes of the crossings, no assertion fails, and the columns do not add up to the dual cells (C91_clockwise_refuted). Nothing in the class asks for counterclockwise triangles. The matrix has shape (coarse, fine), the docstring says [fine, coarse].
* `coarse_to_fine` and `fine_to_coarse` of the same class (385-404) pass the function `multigrid_transfer_dual` itself to normalize_l1 instead of calling it, so they always raise.
* **dual_flux_to_dual_velocity changes sign with the kind of complex** (C93_segments_refuted, C93_regular_refuted): for triangles and tetrahedra the gradients point into the cell, for cubes (base.py:383, face centre minus cell centre) out of it, and for segments face i is corner i itself (simplicial.py:122-130) while the gradient is that of the opposite end. The same dual potential thus moves particles in opposite directions on a triangulated and on a regular mesh. Also, test_flux_to_vector passes rtol=1e9 and therefore checks nothing.
* **weighted_average_operators is not exact on linear functions around vertices** (C94_vertices_refuted): base.py:326-330 divides the length of the dual edge by the distances of the vertex to the edge and to the cell; so a cell gets the tangents of the angles between it and the edges, over its distance. Mean value coordinates, which the docstring claims, have the tangents of half the angles between neighbouring cells instead; the two agree only if the edge bisects that angle, that is for cells at equal distances. (The other reference, Meyer et al., has the square of the distance.) sample_dual_0 and interpolated velocities are therefore off by a first-order error around vertices unless all cells are at the same distance.
* C96: n_simplex(n) is turned against the axes for every even n (`synthetic.py` 29-38): the base of the recursion is positive and every step puts the apex first, which changes the sign. n_simplex(2), the triangle that tests and examples start from, is clockwise; n_simplex(n, equilateral=False) is positive. n_simplex(0) divides by zero (equilateral), n_simplex(0, equilateral=False) is a point.
* C97: solve_minres(A, b) always raises AttributeError, as x0 = None has no dtype (`solvers.py` 100); an x0 that is given is not used beyond its type. b = 0 gives nan (1.0 / beta). gmin starts with |alfa| of the first pass (`solvers.py` 169-170), which is zero if b and A b are perpendicular: the condition estimate is infinite and the loop ends after one pass; for the exchange of two coordinates and b = (1, 0) the result is 0 for every tolerance, although the matrix is orthogonal.

## Testing the theorems

`seeded/LOG.jsonl` records edits of the model that imitate realistic bugs. For each edit every proof that broke was
replaced by an admission in the scratch copy, and `Print Assumptions` then tells which property theorems depend on a
broken proof (`theorems_failed`). Edits whose claim was not caught led to tightened theorems (`theorems_tightened`).
