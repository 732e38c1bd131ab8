# Formal model of delfem2 in Coq: design

## Approach

The C++ source in /repo (library part: `/repo/include/delfem2`) was read as text.  Each modelled
function is re-written as a total, computable Gallina function that follows the C++ loop by loop.

* `std::vector<T>` is `list T`.  Reads and writes go through `vget`/`vset`, which return `None` when the
  index is out of range.  A model function that returns `None` stands for: out-of-range access, failed
  `assert`, use of the UINT_MAX sentinel as an index, or fuel exhaustion of a `while` loop.  Therefore a theorem of the form
  `... = Some r /\ spec r` excludes all of these, and establishes termination.
* `for` loops are `forn lo hi body state`; `while` loops carry fuel, and theorems show the fuel given is enough.
* Indices (`unsigned int`, `size_t`) are `nat` (unbounded).  The UINT_MAX sentinel is `None : option nat`.
  Assumption: the number of elements, vertices etc. is below 2^32-1, so no index wraps and no genuine index equals
  the sentinel.  Where wrapping or bit patterns are the subject (Morton codes, the parallel_for
  counter) words are `N`/`Z` with explicit reduction modulo 2^w.
* Floating point is modelled by exact arithmetic: linear algebra over an arbitrary commutative ring or field (a Section
  parameter which becomes a universally quantified hypothesis of the theorem), geometry over Coq's `R`.
  Rounding error is *not* modelled.
* Files: `Imp.v` (loops, vectors), `<Topic>Model.v` (definitions only, with citations), `<Topic>Spec.v` (independent
  specification), `<Topic>Proofs.v`, `<Topic>Props.v` (the property theorems, each closed by `exact`, followed by
  `Print Assumptions`, with an `Example` that meets the hypotheses).

## Plan per property

| id | modelled | how proved |
|----|----------|-----------|
| C01 | JArray_ElSuP_MeshElem | loop invariants: counting, prefix sums, bucket filling (one generic "counting sort" lemma) |
| C02 | JArrayPointSurPoint_MeshOneRingNeighborhood | loop invariant on visited flags |
| C03 | JArray_Sort | bubble-sort invariant per row, Permutation + Sorted |
| C04 | JArray_AddDiagonal | loop invariants |
| C05 | JArray_Extend | loop invariants, visited flags |
| C06 | JArrayEdgeUnidir_PointSurPoint | loop invariants; vm_compute counterexample for reuse |
| C07 | ElSuEl_MeshElem | invariant over flags; symmetric under manifoldness |
| C08 | JArrayEdge_MeshElem, MeshLine_* | set-valued rows; counterexample for tets |
| C09 | MarkConnectedElements, MakeGroupElem | reachability invariant, measure for the stack |
| C10 | FlipElement_Tri, convert2Tri_Quad | list induction |
| C11 | UnifySeparateIndexing_PosTex | counterexample; positive part if time |
| C12 | ElemQuad_DihedralTri | from C07 |
| C13-C18, C20 | dtri_topology | invariant `mesh consistent` preserved by each operation; induction over histories |
| C19 | MakeInnerRelationTri, InitializeMesh | loop invariants |
| C21-C25 | CMatrixSparse | refinement to dense matrices over a commutative ring |
| C26-C27 | tri-/pentadiagonal solver | induction over block rows, with an abstract block inverse |
| C28 | CG/PCG | invariant r = b - A x |
| C29 | expandBits, MortonCode, clz | bit-level reasoning on N |
| C30 | BVHTopology_Morton | Karras' theorem: internal node ranges, induction on ranges |
| C31-C34 | BVH geometry and queries | tree induction |
| C35-C36 | Dijkstra | invariant of the priority queue |
| C37-C38 | expression evaluator | induction on expression trees; counterexamples |
| C39 | str.cpp | list induction |
| C40 | CadTopo | invariant over histories; counterexamples |
| C41 | k-d tree | tree induction |
| C42 | parallel_for | transition system, invariant over all interleavings; counterexamples |
| C43-C44 | voxel grid, SearchGrid | loop invariants; counterexample |
| C45 | polynomial roots | Reals (nra), counterexamples |
| C46 | matrix inverse | field; elimination invariant |
| C47-C48 | quaternion, Bezier | ring/field identities, convexity |
| C49 | mshsubdiv.cpp: quadrangle and hexahedron topology, averaged and Catmull-Clark positions | jagged edge tables, least face search, bilinear and trilinear identities; counterexamples for reuse, tetrahedra and isolated vertices |
| C50 | polygon area, centroid, moments, length over the reals | induction over edges, integral of quadratics over swept triangles |
| C51 | clusterpoints.cpp: 2D and 3D clustering, quotient table | ordered edge set, greedy matching invariant, bucket lemmas for the quotient rows; counterexample for equal ratios |
| C52 | ls_ilu_block_sparse: substitutions, Decompose for blocks 1, 2, 3, n, CopyValue, SetPattern0, Initialize_ILUk | row invariants for the substitutions and the elimination, Gauss-Jordan invariant, linked-list chain invariant for the fill pattern |
| C53 | CMatrixSparse SetPattern, setZero, AddDia | refinement to dense matrices |
| C54 | block tridiagonal Solve/Merge end to end | from C26 |
| C55 | DijkstraElem_MeshElemGeo3, Dijkstra_FillFromBoundary, MeshClustering | Dijkstra invariant over an abstract ordered distance |
| C56-C58 | str.cpp: removing, trimming, quotes, XML tags, CSV, attributes, JSON dictionary | list induction; counterexamples |
| C59 | loops given to the mesh generator: packing, orientation, resampling, crossing test | loop invariants over jagged rows; exact segment intersection over the reals; naturality to run the counterexample on integers |
| C60 | lp.cpp: CLinPro AddEqn, Precomp, GetValid, Solve | invariant of the simplex table (unit columns of the basis, non-negative right-hand sides, solution set unchanged); reduced-cost argument for the maximum; link between table and constraints; counterexamples computed over the rationals |
| C61 | geo_convhull2.h: ConvexHull2 | stack invariant of the scan (strict left turns, points sorted by angle, all points left of every edge, popped points in the hull of the kept ones); sorting is any function that sorts strict weak orderings; counterexamples for every such function |
| C62 | msh_primitive.cpp: sphere, cylinders, disk, capsule, cube, icosahedron, torus, quad and hex grids | the loops give a list of triangles over a grid of abstract vertices; an injective numbering of the abstract vertices carries the pairing of directed edges over; orientation by determinants and bounds on the ten-digit pi |
| C63 | ls_masterslave.cpp, whole file | row phase and column phase as updates of the dense matrix (one invariant per loop), zeroing phases by ownership of positions; pattern by the visited-flag passes of C02; the virtual-work form of the constrained problem by regrouping sums over carriers |
| C64 | dtri_topology.cpp 679-857 | fans as finite paths of turns (orbits of an injective partial map); the collapsed mesh described corner by corner and link by link before the two deletions, then renumbered; link condition from the rings; fans of the result glued from the old fans |
| C65 | dtri_topology.cpp 414-553, 859-929 | the two turning loops with the visited path as ghost state, decided by the orbit of the stored corner; the assertions as decision procedures; the boundary edges of a manifold mesh form a permutation of the boundary points, followed by the stack walk | proved; three failing cases shown |
| C66 | dtri2_v2dtri.cpp 21-41, 166-242, 306-412, 636-680; vec2.cpp 386-421 | the circle centre over the reals; a flip of a Delaunay-violating edge keeps both triangles counter-clockwise; both loops end because the number of corners at the point grows with flips and the rest of the turn shrinks with moves; insertion keeps area and boundary; the loop over the points with the super triangle as boundary | proved for finished runs of Meshing_Initialize; two failing cases shown |
| C67 | femutil.cpp shape functions, fem_poisson.cpp/.h element matrices and MergeLinSys for triangles and tetrahedra | one lemma on element-by-element assembly turns every quadratic form of the result into a sum of element forms (from the Merge theorem of C23); shape functions by field arithmetic, uniqueness of gradients; positivity as a sum of squares, connectivity by induction; the patch test by counting directed edges around a point | proved |
| C68 | fem_solidlinear.h/.cpp element matrices, MergeLinSys for static, Newmark, backward Euler and stiffness warping | the assembly lemma of C67 with d x d blocks; element stiffness as the double contraction of strains; completed squares (deviator and trace) for positivity, a rigid motion with d fixed corners of a non-flat element is zero; rotation of the element form for stiffness warping; one tetrahedron refutes symmetry with different rotations | proved |
| C69 | geo_gjksat2.h: GJK, EPA, separating axes; NaN as None | GJK: points of the set of differences beyond the current edge decrease; SAT: a corner of the polygon of separating directions is normal to an edge; EPA: every direction is between the ends of an edge of the polygon, points strictly beyond the edges decrease; zero triangle for the refutation | proved |
| C70 | geo_edge.cpp, geo_line.cpp, geo_plane.cpp, geo_tri.cpp: nearest points; NaN as None | clamped quadratic; the difference of nearest points is normal to both lines; the segment from a point of the triangle to the foot of the perpendicular leaves the triangle through an edge | proved |
| C71 | geo_edge.cpp, geo_tri.cpp, geo_plane.cpp, geo_tet.cpp: intersection tests; NaN as None | signs of turns and Helly's theorem on a line in the plane; barycentric coordinates are unique in space; for two triangles the line of the two planes, cut by each triangle in a segment, ordered along the line | proved |
| C72 | msh_boundingbox.cpp, msh_center_of_gravity.cpp, mshmisc.cpp: boxes, centres, areas, masses; NaN as None | loop invariants: smallest box of the points so far, weighted sums; closed surfaces by antisymmetric sums over directed edges, boundaries by antisymmetric sums over oriented triangles up to rotation, both by permutations | proved |
| C73 | mshmisc.cpp, msh_affine_transformation.cpp, msh_normal.cpp: cleaning, quality, extrusion, smoothing, joining, affine maps, normals | loop invariants over positions of arrays; numbering of used points by rank; extrusion by signed counts of oriented triangles that telescope over the layers and cancel over shared edges; smoothing by uniqueness of the centre | proved |
| C74 | fem_distance3.cpp, fem_rod2.cpp, fem_rod3_straight.cpp, fem_discreteshell.cpp, fem_quadratic_bending.cpp, fem_stvk.cpp, fem_mips.cpp: energies, forces and matrices | derivatives along arbitrary motions (derivable_pt_lim) with the chain rule, staged through lengths, directions and tangents; values against norms, angles and strains of a separate specification; positive semidefiniteness by sums of squares | proved |
| C75 | pbd_geo3.cpp, pbd_stvk.h, pbd_bending_for_dtri.cpp, RotationalComponentOfMatrix2 of mat2.cpp: steps and projections over arrays | the multipliers solve a Gram system whose determinant vanishes exactly for dependent gradients; least motion by duality; loops over meshes by invariants; the rotation by the eigenvectors of the Gram matrix, optimal among all rotations by the moments | proved |
| C76 | mat4.cpp, mat4.h: Gauss-Jordan elimination with and without exchange of rows for any size, products, affine matrices, projections, camera, ray of a pixel | each elimination step is an equivalence of linear relations between x and y, a column without pivot gives a kernel vector, the exchanges compose to a permutation undone at the end; the rest by algebra on rows and columns | proved |
| C77 | srch_bruteforce.cpp, point_on_surface_mesh.cpp: nearest points, signed distances, hits of lines and rays, height fields, tetrahedra of points and the walk to them, faces of tetrahedra, triangles and samples around a point | loops with the invariant that the best so far is best among those seen, or that the list or map so far has exactly the hits seen; the flood fill by the worklist invariant of linked triangles; closest points of triangles from the proximity proofs | proved |
| C78 | geo_curve_ndegree.h: flat knots, the algorithm of de Boor, samples, the table of coefficients of the B-splines on a span, curves on uniform clamped knots and their derivatives | a round of de Boor is one step down in the recursion of Cox and de Boor for the window of B-splines on the span; a row of the table evaluates to the B-spline; the derivative by induction on the degree with the identity of neighbouring knots | proved |
| C79 | fdm_array2.h and fdm_stablefluids.h: arrays with clamped reads, the pressure solver, divergence, subtraction of the gradient, interpolation and semi-Lagrangian advection, for velocities at faces and at cells | a loop over cells gives each cell its new value once; a sweep is an equation between the old and the new array, errors by induction along the order of the cells; totals telescope | proved |
| C80 | geo_polyline.h and geo_polyline.cpp except the area and the winding number: lengths, samples, tangents, nearest points, resampling, smoothing, boxes, motions | loop invariants: best so far among the segments seen; for resampling, position plus remaining length is the number of points times the step, ended by a measure of segments and points left | proved |
| C81 | sampling.h: MyERand48 with the C++ integer types, RandomVec2, SampleTent, the hemisphere samples and RandGaussVec3 | the three 16 bit parts are one number of 48 bits; 2^k divides 1+a+...+a^(n-1) exactly if it divides n when a=1 mod 4, by induction on k, which gives the period; samples by trigonometric identities | proved |
| C82 | fem_beam2.h: dWddW_Beam2; kinetic_damping.h: EnergyKinetic and CKineticDamper::Damp | the energy is a quadratic form of the stretch and the turns of the ends; the work of the answered forces is its bilinear form, by field; the damper by induction over the history of calls | proved |
| C83 | grid3hash.h: the cubic kernels; img_interpolation.cpp: ImageInterpolation_Bilinear | the kernel is a sum of cubes cut off at 0, whose derivatives are proved from the definition; sums over nodes reduce to the four nodes around the point; the image by the integer parts of the point | proved |
| C84 | sampler_trimesh.h: both samplers; color.cpp: GetRGB_HSV, heatmap, getColor and one colour map | the cumulative sums by induction over the triangles; the binary search keeps the share between its ends and stops at an assertion otherwise; colours by cases and induction over the map | proved |
| C85 | geo_ccd.cpp: FindCoplanerInterp, FindRootCubic_Bisect and EvaluateCubic | the volume is a cubic polynomial of the time with unique coefficients; bisection keeps a change of sign, so a root, by induction; a function without a change of sign that has a root has an extreme value on the other side, which is one of those tried | proved |
| C86 | msh_unindexed.h: UnidexedVertexDataTriMesh, UnindexedNormalTriMesh3, UnindexedColorTriMesh3 and UnindexedEdgeMesh3_UnindexedTrimesh3 | a loop whose steps write one block each writes all blocks, by induction on the number of blocks; positions are taken apart by division | proved |

## Trusted base

* Coq 8.16.1 kernel (including the `vm_compute` conversion machine).
* The faithfulness of the hand translation from C++ to Gallina (each definition cites the lines it models).
* Axioms: none of our own.  Theorems about real numbers rest on the standard library's real-number axioms; what
  `Print Assumptions` reports is listed per theorem at the end of this file.

## What is modelled

Generated by tools/gen_scope.py from the citations in the model files. Lines of a listed file that are not cited are not modelled.

* `cadtopo.h` (CadModel): lines 19-24, 21, 32-40, 42-55, 57-69, 71-77, 88-97, 99-107, 120-125, 127-145, 147-157, 159-187, 189-193, 195-198, 200-205, 207-214, 216-224, 226-234
* `clusterpoints.cpp` (CluModel): lines 22-24, 26-29, 36-45, 47-60, 67-153, 83-98, 110-117, 155-193, 166-176, 179-181, 196-274, 233-246, 254-268
* `color.cpp` (SmpModel): lines 10-55, 70-79, 81-109, 111-131, 120-130, 143-155
* `color.h` (SmpModel): lines 55-75
* `dijkstra.h` (DijkModel): lines 26-30, 32-44, 57-89, 91-110, 112-157, 159-200, 202-263, 264-300
* `dtri2_v2dtri.cpp` (DelaModel): lines 21-41, 166-242, 189, 190-201, 219, 306-351, 353-423, 366-412, 636-672
* `dtri_topology.cpp` (CollModel, DtriModel, FanModel): lines 20-65, 67-95, 97-136, 142-254, 198-203, 214-219, 230-235, 246-251, 256-329, 286-291, 302-307, 318-323, 331-412, 394-399, 400-405, 414-431, 433-481, 483-501, 503-531, 517-528, 533-553, 555-591, 596-611, 613-628, 630-661, 663-677, 679-857, 758-768, 769-779, 780-786, 806-827, 828-845, 846-851, 859-874, 876-929, 885-896, 900-906, 907-926
* `dtri_topology.h` (DtriModel): lines 24-42, 44-60
* `fdm_array2.h` (FluModel): lines 12-58, 15-16, 18-26, 23-26, 28-45, 47-54, 60-83
* `fdm_stablefluids.h` (FluModel): lines 14-41, 27-34, 43-60, 62-79, 81-105, 107-125, 127-180, 139-149, 151-161, 163-170, 172-179, 182-202
* `fem_beam2.h` (BeamModel): lines 10-76, 21-44, 46-54
* `fem_discreteshell.cpp` (EnerModel): lines 23-45
* `fem_distance3.cpp` (EnerModel): lines 19-42, 44-61, 65-93, 103-153
* `fem_mips.cpp` (EnerModel): lines 15-131, 43-58, 44-131, 85-115
* `fem_poisson.cpp` (FemModel): lines 15-47, 49-103, 163-194, 196-249
* `fem_poisson.h` (FemModel): lines 92-126, 108-111, 128-162, 164-202, 204-247
* `fem_quadratic_bending.cpp` (EnerModel): lines 11-46, 16-29, 49-107, 57-80
* `fem_rod2.cpp` (EnerModel): lines 13-131, 33-97
* `fem_rod3_straight.cpp` (EnerModel): lines 14-45, 29-44, 59-129, 68-128
* `fem_solidlinear.cpp` (FemModel): lines 35-53, 55-80, 89-124, 126-200, 409-435, 437-498
* `fem_solidlinear.h` (FemModel): lines 128-153, 155-189, 192-237, 281-329, 331-379, 381-443, 445-526
* `fem_stvk.cpp` (EnerModel): lines 18-68, 23-32, 37-40, 70-155, 77-86, 91-94, 123-133, 134-154, 143, 211-264, 267-376, 277-292, 298-301, 302-315, 316-334, 325, 339-374
* `femutil.cpp` (FemModel): lines 16-21, 88-115, 177-197, 202-212, 215-258, 260-281
* `femutil.h` (FemModel): lines 182-197, 231-250, 252-270
* `geo_ccd.cpp` (CcdModel): lines 29-35, 43-66, 53-64, 190-267, 222-251, 253-265
* `geo_convhull2.h` (HullModel): lines 27-103, 32, 34-45, 48-56, 59-70, 75-79, 89-99
* `geo_curve_cubic.h` (BezModel): lines 29-41, 43-52, 54-70, 186-240, 204-239, 286-302, 308-345, 350-372
* `geo_curve_ndegree.h` (BspModel): lines 25-36, 38-74, 48-55, 76-91, 93-146, 101-103, 105-131, 115-129, 148-168, 170-193
* `geo_curve_quadratic.h` (BezModel): lines 62-83, 116-133, 174-182, 184-199, 213-223, 228-276, 246-275, 296-305, 311-321, 326-344
* `geo_edge.cpp` (IsecModel, ProxModel): lines 26-44, 74-82, 98-106, 116-122, 134-167, 199-268, 288-313, 317-354, 370-415, 425-464, 437-453
* `geo_gjksat2.h` (GjkModel): lines 15-29, 37-86, 43-46, 56-85, 68, 73, 74, 96-102, 108-131, 141-178, 149-157, 164-177, 187-201, 203-231, 207-218, 209-216, 219-229
* `geo_line.cpp` (ProxModel): lines 137-150, 164-180, 217-238
* `geo_plane.cpp` (IsecModel, ProxModel): lines 23-35, 39-48, 65-88, 92-115, 126-135
* `geo_polygon2.cpp` (PolyModel): lines 41-52, 126-149, 162-177, 187-234, 246-275, 284-351, 446-504, 455-470, 485-490, 514-522, 524-533, 536-575
* `geo_polyline.cpp` (PlnModel): lines 12-21, 30-38, 44-72
* `geo_polyline.h` (PlnModel): lines 53-67, 85-97, 114-130, 132-147, 149-164, 173-198, 200-211, 220-244
* `geo_tet.cpp` (IsecModel): lines 83-92, 94-113
* `geo_tri.cpp` (EnerModel, IsecModel, ProxModel): lines 26-36, 38-51, 57-120, 125-177, 179-198, 203-304, 236-241, 243-261, 263-281, 319-330, 334-361, 366-380, 383-406, 426-452, 427-441, 427-451
* `geo_tri.h` (EnerModel, SmpModel): lines 101-110, 102-110
* `grid3hash.h` (KernModel): lines 38-47, 49-57, 59-68, 70-79
* `gridvoxel.cpp` (VoxModel): lines 19-25, 39-44, 46-68, 70-134, 83-94, 103-113, 136-192, 148-160, 170-180, 194-271, 206-218, 228-238, 273-291, 296-326, 303-308, 328-358, 335-340
* `gridvoxel.h` (VoxModel): lines 54-90, 61-70, 71-76, 77-81
* `img_interpolation.cpp` (KernModel): lines 13-42
* `jagarray.cpp` (JagModel): lines 16-53, 35-37, 49-52, 72-93, 82-90, 118-166, 162-165, 174-218, 214-217
* `kinetic_damping.h` (BeamModel): lines 12-23, 25-39
* `lp.cpp` (LpModel): lines 14-45, 48-86, 92-187, 100-108, 105-107, 111-116, 118-187, 122-134, 137-159, 142-156, 161-163, 170-180, 193-211, 213-217, 219-258, 261-271, 277-398, 279-294, 299-334, 335-341, 346-355, 356-363, 376-382, 390-396
* `lp.h` (LpModel): lines 20-22, 38-62, 65-69
* `ls_block_sparse.cpp` (SpModel): lines 15-28, 31-42, 45-57, 59-78, 80-101, 95-96, 103-133, 135-207, 215-273, 222, 244-271, 292-327, 300, 347-384, 354, 397-415, 427-444, 456-472, 481-502, 504-533, 535-562
* `ls_block_sparse.h` (SpModel): lines 45-55, 72-85, 92-105, 147-151, 153-164, 185-202, 208-258, 216-256, 260-310, 274-308, 312-357, 322-355
* `ls_ilu_block_sparse.cpp` (IluModel, MatnModel): lines 20-35, 37-48, 50-81, 84-103, 153-416, 170-214, 219-281, 287-349, 357-411, 419-490, 499-643, 507-516, 525-544, 553-576, 585-611, 615-641, 646-676, 677-815, 685-696, 703-722, 729-753, 760-788, 792-813, 827-855, 849-991, 1002-1042, 1053-1089
* `ls_ilu_block_sparse.h` (IluModel): lines 43-46, 59-66
* `ls_masterslave.cpp` (MsModel): lines 14-25, 27-137, 38-48, 55-85, 58-60, 64-67, 94-132, 140-293, 149-199, 163-167, 173-174, 187-188, 194-198, 201-249, 203-207, 213-214, 235-236, 244-248, 251-260, 262-276, 278-292
* `ls_pentadiagonal.h` (MatnModel): lines 24-29, 44-52, 61-71, 76-83, 95-108, 109-119, 120-124, 130-213, 150-171, 173-179, 181-206, 218-239, 242-259, 260-278
* `ls_tridiagonal.h` (MatnModel): lines 19-23, 37-43, 53-57, 73-94, 97-121, 123-145
* `lsitrsol.h` (CgModel): lines 36-74, 81-148
* `mat2.cpp` (PbdModel): lines 13-29, 51-57, 78-85, 87-96, 98-154, 138-143
* `mat3.cpp` (EnerModel): lines 44-48
* `mat3.h` (EnerModel): lines 110-130, 190-202, 252-274, 339-376
* `mat3_funcs.cpp` (PbdModel, QuatModel): lines 72-89, 409-443, 452-474
* `mat4.cpp` (Mat4Model, QuatModel): lines 17-47, 37-45, 49-103, 54-61, 66-72, 82-90, 95-100, 105-113, 115-121, 131-158, 175-204, 224-260, 278-286, 292-299, 301-310, 318-327, 338-354, 362-371, 383-394, 404-415, 426-435, 443-452, 464-474, 482-511, 519-527, 554-563, 573-626, 634-641, 649-664, 667-696, 707-736, 744-757, 764-780, 788-795, 827-833
* `mat4.h` (Mat4Model): lines 62-82, 84-93, 95-116, 135-150, 241-247, 334-348, 420-423, 442-448, 466-468, 470-472, 474-478, 483-491, 516-522, 523-529, 530-536, 537-543, 546-561
* `matn.h` (MatnModel): lines 18-42, 44-108, 44-65, 91-102, 104-108, 112-125, 127-139, 144-156, 158-168
* `msh_affine_transformation.cpp` (EditModel): lines 25-28, 80-87, 131-146, 158-163, 174-181, 192-203, 229-236, 247-261, 272-286, 296-321, 365-385
* `msh_boundingbox.cpp` (MeasModel): lines 116-121, 164-178, 181-198, 222-236, 240-258, 274-291, 303-325, 340-362, 376-384, 398-431, 434-472, 453-463, 465-471, 474-525, 491-501, 503-511, 527-533
* `msh_center_of_gravity.cpp` (MeasModel): lines 44-54, 92-98, 123-134, 219-233, 242-270, 284-313, 327-353, 367-397, 415-433, 437-462, 476-498
* `msh_normal.cpp` (EditModel): lines 24-27, 29-45, 62-98, 130-174
* `msh_primitive.cpp` (PrimModel): lines 14-38, 40-87, 48, 92-134, 101, 155-225, 165, 242-294, 251, 312-445, 381-400, 416-435, 513-552, 557-610, 627-659, 677-710
* `msh_topology_uniform.cpp` (JagModel, TopoModel): lines 19-51, 33-35, 46-49, 53-66, 68-98, 102-119, 121-130, 148-206, 175-183, 226-245, 250-299, 272-274, 295-298, 301-316, 361-398, 400-414, 416-436, 440-462, 466-488, 475-478, 492-500, 503-547, 569-588
* `msh_unindexed.h` (UnixModel): lines 15-29, 31-51, 40-42, 53-69, 71-86
* `mshelm.h` (TopoModel): lines 81-131, 142-170
* `mshmisc.cpp` (EditModel, MeasModel): lines 40-42, 44-54, 112-114, 123-134, 223-255, 259-288, 292-351, 300-322, 353-372, 376-408, 566-593, 595-618, 620-641, 642-652, 655-671, 674-701
* `mshsubdiv.cpp` (SubdModel): lines 18-35, 37-59, 62-147, 116-123, 151-226, 177-188, 384-576, 468-491, 492-503, 579-681, 683-718, 720-779
* `parse_math_expression.cpp` (PexpModel): lines 18-44, 34, 35-39, 54-78, 79-84, 94-128, 133-144, 145-148, 156-165, 167-185, 195-358, 360-364, 366-430, 432-482, 447-454, 494-510, 498-503, 512-584, 573-580, 586-594
* `parse_math_expression.h` (PexpModel): lines 29-36, 44-71, 54-62
* `pbd_bending_for_dtri.cpp` (PbdModel): lines 17-32, 36-70, 54-58, 54-67
* `pbd_geo3.cpp` (PbdModel): lines 18-37, 39-61, 63-109, 163-208, 174-207, 213-248, 218-247
* `pbd_stvk.h` (PbdModel): lines 27-53, 34-51, 37-40, 41-44
* `point_on_surface_mesh.cpp` (BruteModel): lines 14-27, 36-51, 63-76, 85-101, 113-137, 118-122, 123-131, 147-165, 174-185
* `point_on_surface_mesh.h` (BruteModel): lines 30-40
* `polynomial_root.h` (PrModel): lines 20-29, 199-227, 239-264
* `quat.cpp` (QuatModel): lines 17-23, 26-30, 37-48, 56-62, 74-92, 104-113, 123-140, 161-174, 184-210, 225-243, 256-262, 272-278, 304-311, 330-340, 347-354, 363-383
* `quat.h` (QuatModel): lines 225, 238, 253-256, 298-303
* `sampler_trimesh.h` (SmpModel): lines 18-35, 26-29, 36-60, 41-49, 70-91, 93-117, 98-106
* `sampling.h` (RndModel): lines 18-48, 50-54, 83-96, 98-103, 105-113, 115-123, 125-134
* `srch_bruteforce.cpp` (BruteModel): lines 40-54, 45-52, 63-88, 71-78, 98-125, 138-157, 170-201, 216-250, 254-279, 270-275, 290-315, 307, 308-312, 326-339, 343-381, 385-441, 391-395, 401-408, 429-431, 445-465, 478-498, 511-531, 526, 543-565, 560, 579-615, 617-641
* `srch_bruteforce.h` (BruteModel): lines 30-34, 35-39, 40-47, 55-57
* `srch_bv3_aabb.h` (BvModel): lines 26, 38-41, 42-45, 78-96, 129-140, 141-156, 164-181, 182-194, 195-202, 203-214
* `srch_bv3_sphere.h` (BvModel): lines 27-30, 31-55, 56-61, 62-67, 68-79, 80-93, 94-98, 99-103, 104-109, 114-125, 126-148, 154-156
* `srch_bvh.cpp` (MortModel): lines 192-203, 208-214, 253-266, 287-299, 305-363, 365-393, 443-481
* `srch_bvh.h` (BvModel, MortModel): lines 30-35, 146-154, 174-179, 222-244, 246-330, 356-382, 392-421, 427-455
* `srch_kdtree.h` (KdModel): lines 10-16, 18-61, 26-45, 63-76, 78-141, 143-148
* `srchgrid.h` (SgModel): lines 9-16, 13, 31-37, 39-55, 58-70, 64-69, 72-76, 88-114, 100, 116-140, 132
* `str.cpp` (StrModel): lines 57-69, 71-78, 80-104, 89-91, 107-131, 133-154, 156-169, 171-194, 181-186, 202-222, 211-216, 224-245, 248-270, 275-304, 306-329, 369-398, 401-417
* `thread.h` (ParModel): lines 21-48, 29-30, 33-44, 47, 50-78, 63-74, 77
* `vec2.cpp` (DelaModel, EnerModel, PbdModel, PolyModel): lines 12-24, 28-36, 76-81, 249-254, 261-268, 316-321, 386-421
* `vec2.h` (GjkModel): lines 174-178
* `vec3.h` (EnerModel, ProxModel): lines 60-135, 83-97, 103-109, 111-115, 140-215, 261, 264-300, 275-280
* `vec3_funcs.h` (CcdModel, EnerModel): lines 30-50, 118-127
* `view_vectorx.h` (CgModel): lines 32-39, 44-47, 49-51, 61-71, 73-83, 85-95, 100-105

Not modelled: floating-point rounding (scalars are exact: integers, rationals, reals or an abstract ring/field), machine-integer overflow unless a model says otherwise, memory allocation, I/O and console output, OpenGL/CUDA/OpenMP back ends, and every file of `include/delfem2` that is not listed above:

`4rotsym.h`, `alembic/abc_meshexport.h`, `bem.cpp`, `bem.h`, `cad2.cpp`, `cad2.h`, `cad2_io_dxf.cpp`, `cad2_io_dxf.h`, `cad2_io_svg.cpp`, `cad2_io_svg.h`, `cad2_mesh_deformation.h`, `cad2_mesher.cpp`, `cad2_mesher.h`, `cad3d.cpp`, `cad3d.h`, `cagedef.h`, `cam_modelview.h`, `cam_projection.h`, `cloth_internal.h`, `cloth_selfcollision.cpp`, `cloth_selfcollision.h`, `clusterpoints.h`, `cnpy/smpl_cnpy.cpp`, `cnpy/smpl_cnpy.h`, `cnpy/tensor.h`, `colormap.h`, `cuda/cu_bvh.h`, `cuda/cu_matvec.h`, `cuda/cvimggraygrad.h`, `cuda/cvpmslindisp_cuda.h`, `cuda/cvpmsnormdist_cuda.h`, `cuda/random.h`, `cuda/tex.h`, `cuda/viewtensor.h`, `cvbundleadjust.h`, `cvcamera.h`, `cvimggraygrad.cpp`, `cvimggraygrad.h`, `cvpmsnormdist.h`, `defarap.cpp`, `defarap.h`, `defarapenergy_geo3.cpp`, `defarapenergy_geo3.h`, `deflap.cpp`, `deflap.h`, `dfm2_inline.h`, `dtet_v3.cpp`, `dtet_v3.h`, `dtri2_v2dtri.h`, `dtri3_v3dtri.cpp`, `dtri3_v3dtri.h`, `eigen/cvbundleadjust.h`, `eigen/cvfundamentalmat.h`, `eigen/eigen_matrix_dense.cpp`, `eigen/eigen_matrix_dense.h`, `eigen/eigen_rigidbody.cpp`, `eigen/eigen_rigidbody.h`, `eigen/grid2.h`, `eigen/implicit_rbf_approximation.h`, `eigen/ls_dense.h`, `eigen/ls_ilu_sparse.h`, `eigen/ls_sparse.h`, `eigen/msh_io.h`, `eigen/vec3_funcs.cpp`, `eigen_opengl/funcs.h`, `expmap_geo3dijk.h`, `fem_discreteshell.h`, `fem_distance3.h`, `fem_dkt.cpp`, `fem_dkt.h`, `fem_helmholtz.cpp`, `fem_helmholtz.h`, `fem_invertiblefem.h`, `fem_mips.h`, `fem_mitc3.cpp`, `fem_mitc3.h`, `fem_navierstokes.cpp`, `fem_navierstokes.h`, `fem_quadratic_bending.h`, `fem_rod2.h`, `fem_rod3_darboux.cpp`, `fem_rod3_darboux.h`, `fem_rod3_straight.h`, `fem_solidhyper.cpp`, `fem_solidhyper.h`, `fem_stokes.cpp`, `fem_stokes.h`, `fem_stvk.h`, `femcloth.cpp`, `femcloth.h`, `file.cpp`, `file.h`, `filenpy_str.cpp`, `filenpy_str.h`, `garment.h`, `geo_aabb.h`, `geo_ccd.h`, `geo_convhull3.h`, `geo_edge.h`, `geo_gjksat3.h`, `geo_line.h`, `geo_meta_funcs.h`, `geo_plane.h`, `geo_polygon2.h`, `geo_quad.cpp`, `geo_quad.h`, `geo_surface_parametric.h`, `geo_tet.h`, `geodelaunay3_v3.cpp`, `geodelaunay3_v3.h`, `geosolidelm_v3.cpp`, `geosolidelm_v3.h`, `gizmo_geo3.cpp`, `gizmo_geo3.h`, `glfw/ViewRig.h`, `glfw/mouseinput.h`, `glfw/util.h`, `glfw/viewer2.cpp`, `glfw/viewer2.h`, `glfw/viewer3.cpp`, `glfw/viewer3.h`, `grid2.h`, `gridcube.cpp`, `gridcube.h`, `hair_darboux_collision.cpp`, `hair_darboux_collision.h`, `hair_darboux_solver.h`, `hair_darboux_util.cpp`, `hair_darboux_util.h`, `img_interpolation.h`, `img_ioppm.cpp`, `img_ioppm.h`, `isrf_adf.cpp`, `isrf_adf.h`, `isrf_iss.cpp`, `isrf_iss.h`, `isrf_sdf.h`, `jagarray.h`, `ls_masterslave.h`, `ls_solver_block_sparse.h`, `ls_solver_block_sparse_ilu.h`, `mat2.h`, `mat3_funcs.h`, `metashape_camera.h`, `mkl/mkl_matd.cpp`, `mkl/mlk_matd.h`, `msh_affine_transformation.h`, `msh_arrow.h`, `msh_boundingbox.h`, `msh_center_of_gravity.h`, `msh_geodesic_polyhedron.cpp`, `msh_geodesic_polyhedron.h`, `msh_io_misc.cpp`, `msh_io_misc.h`, `msh_io_obj.cpp`, `msh_io_obj.h`, `msh_io_ply.cpp`, `msh_io_ply.h`, `msh_normal.h`, `msh_primitive.h`, `msh_topology_mix.cpp`, `msh_topology_mix.h`, `msh_topology_uniform.h`, `msh_uniform_class.h`, `mshmisc.h`, `mshsubdiv.h`, `noise.h`, `opengl/funcs.cpp`, `opengl/funcs.h`, `opengl/new/drawer_cad2.cpp`, `opengl/new/drawer_cad2.h`, `opengl/new/drawer_dynmesh.cpp`, `opengl/new/drawer_dynmesh.h`, `opengl/new/drawer_msh.cpp`, `opengl/new/drawer_msh.h`, `opengl/new/drawer_mshcolormap.cpp`, `opengl/new/drawer_mshcolormap.h`, `opengl/new/drawer_mshdisp.cpp`, `opengl/new/drawer_mshdisp.h`, `opengl/new/drawer_mshtex.cpp`, `opengl/new/drawer_mshtex.h`, `opengl/new/drawer_mshtri.cpp`, `opengl/new/drawer_mshtri.h`, `opengl/new/drawer_mshunindex.h`, `opengl/new/drawer_points.cpp`, `opengl/new/drawer_points.h`, `opengl/new/drawer_polyline.h`, `opengl/new/drawer_polylinecolormap.h`, `opengl/new/drawer_render2tex.cpp`, `opengl/new/drawer_render2tex.h`, `opengl/new/drawer_sphere.h`, `opengl/new/funcs.cpp`, `opengl/new/funcs.h`, `opengl/old/adf3.h`, `opengl/old/cad2dtriv2.cpp`, `opengl/old/cad2dtriv2.h`, `opengl/old/caddtri_v3.cpp`, `opengl/old/caddtri_v3.h`, `opengl/old/color.cpp`, `opengl/old/color.h`, `opengl/old/colorv3.cpp`, `opengl/old/colorv3.h`, `opengl/old/funcs.cpp`, `opengl/old/funcs.h`, `opengl/old/gizmo.cpp`, `opengl/old/gizmo.h`, `opengl/old/gridcube.cpp`, `opengl/old/gridcube.h`, `opengl/old/mshuni.cpp`, `opengl/old/mshuni.h`, `opengl/old/r2tglo.cpp`, `opengl/old/r2tglo.h`, `opengl/old/rigv3.cpp`, `opengl/old/rigv3.h`, `opengl/old/tex.h`, `opengl/old/v2.cpp`, `opengl/old/v2.h`, `opengl/old/v3q.cpp`, `opengl/old/v3q.h`, `opengl/r2t.cpp`, `opengl/r2t.h`, `opengl/tex.cpp`, `opengl/tex.h`, `pbd_bending_for_dtri.h`, `pbd_geo3.h`, `polyline_elastic_beam2.h`, `polyline_elastic_rod2.h`, `pugixml/metashape_camera.h`, `quadrature.h`, `rgd_v2m3.cpp`, `rgd_v2m3.h`, `rig_bvh.cpp`, `rig_bvh.h`, `rig_geo3.cpp`, `rig_geo3.h`, `rig_msh.h`, `rigopt.h`, `sampler_lloyd2.h`, `slice.cpp`, `slice.h`, `specialfuncs.cpp`, `specialfuncs.h`, `srch_bv2_aabb.h`, `srch_kdtree_tri.h`, `srch_selfintersection_bvh.h`, `srch_trimesh3_class.h`, `stb/io.h`, `stb_opengl/glyph.cpp`, `stb_opengl/glyph.h`, `stb_opengl/img2tex.h`, `stb_opengl/screenshot.h`, `str.h`, `svd3.cpp`, `svd3.h`, `tensordata.h`, `tinygltf/io_gltf.cpp`, `tinygltf/io_gltf.h`, `vec3_funcs.cpp`, `vecxitrsol.cpp`, `vecxitrsol.h`, `view_array2d.h`, `viewtensor.h`.

## Assumptions per theorem (output of Print Assumptions)

Generated by tools/gen_assumptions.py from a finished build.

Closed under the global context (no axioms):

C01_ElSuP_exact, C02_PSuP_exact, C03_Sort_rows, C04_AddDiagonal, C05_Extend, C06_EdgeUnidir, C06_EdgeUnidir_reuse_refuted, C07_ElSuEl, C07_face_tables, C08_MeshLine, C08_JArrayEdge, C08_edge_tables, C08_tet_refuted, C09_Mark, C09_MakeGroup, C10_Flip, C10_Flip_involution, C10_QuadSplit, C11_Unify, C11_Unify_refuted, C12_Dihedral, C13_InsertPoint_Elem, C14_InsertPoint_ElemEdge, C15_FlipEdge, C15_FlipEdge_boundary, C15_FlipEdge_refuted, C16_DeleteTri, C17_history, C18_moves, C19_InitializeMesh, C19_InitializeMesh_refuted, C20_PSuP_dtri, C20_vertex0_refuted, C21_MatVec, C22_MatTVec, C22_adjoint, C22_MatVecDegenerate, C23_Merge4, C23_Mearge, C23_Merge2, C23_Merge4_detects, C23_zero_fill_refuted, C23_zero_fill_corrupts, C23_offset_diagonal_refuted, C23_failed_merge_leaves_buffer_dirty, C24_SetFixedBC, C25_ScaleBlkLen, C25_ScaleBlk, C26_storage, C26_Decompose_Solve, C26_Merge, C26_FixBC, C27_storage, C27_Decompose_Solve, C27_Merge, C27_MergeBlock, C27_FixBC, C28_CG_residual, C28_PCG_residual, C28_CG_terminates, C28_PCG_terminates, C29_expandBits, C29_MortonCode, C29_dominance, C29_leading_zeros, C30_tree, C30_single_refuted, C32_query, C35_hops, C35_assert, C37_eval, C37_bracketed, C37_unknown, C37_setkey, C37_sign_refuted, C38_chain, C39_Split, C39_Split_set, C39_Split_Parentheses, C39_Split_Quote, C39_empty, C39_trailing_refuted, C40_history, C40_flags, C40_EdgeIndexes_Face, C40_FindFaceIndexes_IncludeEdge, C40_VertexIndexs_Face, C40_isolated_refuted, C42_once, C42_once2, C42_terminates, C42_error, C42_throw_raises, C42_zero_refuted, C42_wrap_refuted, C43_Adj_Grid, C43_MeshQuad, C43_MeshHex, C43_MeshTet, C43_Dilation, C43_Erosion, C43_AABB, C43_set_order_refuted, C44_read_refuted, C44_ranges, C46_Inverse_generic, C46_Inverse_1, C46_Inverse_2, C46_Inverse_3, C46_Inverse_Matrix, C46_no_pivoting_refuted, C49_quad_topology, C49_hex_topology, C49_reuse_refuted, C49_tet_refuted, C52_forward_substitution, C52_backward_substitution, C52_solve_precond, C52_degenerate, C52_copy_value, C52_pattern_level0, C52_pattern_levels, C52_level_limit, C52_fill_minimal, C52_complete_pattern, C52_factorise, C52_factorise_complex, C52_incomplete_factorisation, C52_complete_factorisation_solves, C52_return_value_refuted, C52_empty_row_refuted, C53_SetPattern, C53_setZero, C53_AddDia, C54_Solve, C54_Merge, C54_Merge_rectangular_refuted, C55_fill, C55_clustering, C56_Remove_Replace, C56_RemoveBeginning, C56_RemoveBeginning_refuted, C56_Remove_Quote, C56_Get_Parentheses, C56_Get_Parentheses_refuted, C57_XML, C57_trailing_refuted, C58_CSV, C58_ParseAttributes, C58_ParseAttributes_refuted, C58_Json, C58_Json_refuted, C58_Json_blank_refuted, C60_linear_program_solved, C60_inconsistent_rejected, C60_rejection_means_inconsistent, C60_out_of_iterations_refuted, C60_lower_bound_only_refuted, C60_redundant_equality_refuted, C60_prepare_twice_refuted, C63_pattern, C63_matrix, C63_load, C63_solution, C63_pipeline, C63_rigid_cluster, C63_lone_slave_refuted, C63_adjacent_slaves_refuted, C64_collapse, C64_when, C64_manifold, C64_history, C64_edge_once_refuted, C65_asserts, C65_corners, C65_neighbours, C65_neighbours_boundary, C65_find_edge, C65_find_edge_all, C65_holes, C65_asserts_corner_refuted, C65_corners_boundary_refuted, C65_holes_bowtie_refuted, C81_no_overflow_refuted.

Standard-library axioms `ClassicalDedekindReals.sig_forall_dec`:

C41_ConstructKDT, C51_quotient_graph, C59_JArray, C62_quad_grid, C62_hex_grid, C73_remove_unused, C73_extrude_check_refuted, C73_add_mesh, C73_scale, C73_translate, C73_translate3, C77_points_on_faces, C79_gradient, C86_vertices, C86_colours, C86_sides, C86_sides_of_mesh, C86_vertices_outside.

Standard-library axioms `ClassicalDedekindReals.sig_forall_dec`, `FunctionalExtensionality.functional_extensionality_dep`:

C31_mesh_boxes, C32_box_point, C34_box_merge, C34_box_addpoint, C44_OneRing, C44_Initialize, C45_Eval, C45_exact_root_refuted, C47_QuatVec, C47_matrices, C48_Quadratic, C48_Split, C48_Polyline_single_refuted, C49_quad_geometry, C49_hex_geometry, C49_catmull_clark, C49_isolated_refuted, C50_CgArea_symmetries, C51_pairs_and_singles, C51_no_neighbours_left, C51_ties_leave_neighbours_refuted, C59_FixLoopOrientation, C59_self_crossing, C59_cross_loops_refuted, C62_cube, C66_circle_test, C66_delaunay, C66_add_point, C66_laplacian, C66_add_outside_refuted, C66_duplicate_refuted, C67_shape_tri, C67_shape_tet, C67_measure, C67_gradient, C67_poisson, C67_symmetric, C67_constants, C67_semidefinite, C67_solvable, C67_newton, C67_patch, C67_diffusion, C67_diffusion_step, C67_diffusion_solvable, C68_gradient, C68_static, C68_newmark, C68_beuler, C68_stiffwarp, C68_symmetric, C68_rigid, C68_balance, C68_semidefinite, C68_kernel, C68_solvable, C68_newton, C68_newmark_step, C68_newmark_solvable, C68_beuler_step, C68_beuler_solvable, C68_stiffwarp_rigid, C68_stiffwarp_identity, C69_gjk, C69_simplex, C69_sat, C69_sat_line_refuted, C71_edges_in_the_plane, C71_edges_apart_refuted, C71_box_and_edge, C71_box_and_edge_refuted, C71_line_and_triangle, C71_triangle_behind_the_ray_refuted, C71_ray_and_triangle, C71_ray_in_the_plane_refuted, C71_plane_and_line, C71_plane_with_normal_and_line, C71_origin_in_tetrahedron, C71_triangle_pair_sound, C71_triangle_pair_exact, C71_triangle_pair_common_corner, C71_triangle_pair_refuted, C72_bounding_box, C72_center_and_width, C72_center_and_width_local, C72_group_of_triangles, C72_group_of_ranges, C72_group_of_tetrahedra_refuted, C72_longest_edge, C72_centre_of_points, C72_centre_of_tetrahedra, C72_centre_of_one_triangle, C72_centre_of_one_triangle_refuted, C72_centre_of_solid, C72_centre_of_closed_solid_moves, C72_centre_of_boundary, C72_masses_of_tetrahedra, C72_masses_of_plane_triangles, C73_extrude, C73_normalize, C73_mean_ratio, C75_step, C75_update, C76_gauss, C76_gauss_refuted, C76_pivot, C76_pivot_refuted, C76_inverse, C76_product, C76_homography, C76_affine, C76_affine_then, C76_ortho, C77_points_on_meshes, C77_line_and_mesh, C77_ray_and_mesh, C77_ray_and_part, C77_height_field, C77_points_on_height_fields, C77_weights_in_tetrahedra, C77_face_of_a_point, C77_tetrahedron_of_a_point, C77_walk_to_a_point, C77_hits_on_edges_refuted, C77_walk_finds_the_tetrahedron_refuted, C78_flat_knots, C78_de_boor, C78_de_boor_means, C78_de_boor_ends, C78_de_boor_fails, C78_samples, C78_uniform, C78_uniform_means, C78_uniform_ends, C78_uniform_derivative, C78_uniform_derivative_inside, C78_algorithms_agree, C78_simple_end_knots_refuted, C78_mean_after_a_knot_refuted, C79_sweeps, C79_error_never_grows, C79_unchanged, C79_no_new_extremes, C79_balance, C79_divergence, C79_projection, C79_cell_divergence, C79_cell_projection, C79_interpolation, C79_thin_grids_fail, C79_advection, C79_advection_keeps, C79_advection_fails, C79_cell_advection, C79_advection_bounded_refuted, C79_cell_divergence_sign_refuted, C80_sample, C80_tangent, C80_tangent_after_end_refuted, C80_smooth, C80_smooth_stays, C80_box, C81_generator, C81_period, C81_every_number_once, C81_pairs, C82_damping, C82_first_peak_refuted, C83_kernel, C83_partition, C83_derivative, C83_image, C83_image_range, C84_hsv, C84_color_map, C84_heatmap.

Standard-library axioms `ClassicalDedekindReals.sig_forall_dec`, `ClassicalDedekindReals.sig_not_dec`, `FunctionalExtensionality.functional_extensionality_dep`:

C31_mesh_spheres, C31_point_spheres, C31_rebuild_refuted, C32_sphere_queries, C33_nearest, C33_range, C33_end_to_end, C34_box_tests, C34_sphere_addpoint, C34_sphere_merge, C34_sphere_tests, C34_sphere_range, C34_sphere_line_ray, C34_sphere_setpoints, C34_sphere_inactive_refuted, C36_points, C36_assert, C36_source_refuted, C41_SearchNearstPoint, C45_Quadratic, C45_linear_refuted, C45_Bisection, C47_QuatQuat, C47_Quat_Mat3, C47_Normalize, C47_CartesianAngle, C47_small_angle_refuted, C47_Bryant, C47_EulerAngle, C48_AABB_tiny_refuted, C48_Nearest_point_refuted, C50_Length, C51_merged_points, C51_area_and_moments, C55_geo, C59_ResamplingLoop, C59_resampled_edges, C59_pipeline, C59_clockwise_refuted, C61_convex_hull, C61_two_points_refuted, C61_point_on_first_side_refuted, C61_point_on_last_side_refuted, C62_capsule, C62_capsule_no_cylinder_refuted, C62_torus, C62_torus_two_segments_refuted, C62_icosahedron, C62_degenerate, C66_initialize, C69_epa_apart, C69_epa_result, C69_epa, C69_epa_same_refuted, C70_nearest_point_of_an_edge, C70_nearest_point_of_an_edge_2, C70_nearest_point_of_an_edge_to_the_origin, C70_nearest_point_of_a_line, C70_nearest_points_of_two_lines, C70_nearest_points_of_an_edge_and_a_line, C70_reported_contact_is_near, C70_near_edges_are_in_contact, C70_distance_of_edges_is_that_of_their_lines, C70_nearest_point_of_a_triangle_to_the_origin, C70_nearest_point_of_a_triangle, C70_nearest_point_of_the_border, C70_point_inside_its_triangle_is_moved, C70_small_triangles_fail_an_assertion, C70_nearest_point_of_the_plane, C70_distance_of_the_plane, C70_projection_of_the_first_corner_refuted, C70_nested_parallel_edges_refuted, C71_point_above_triangle, C72_centre_of_segments, C72_centre_of_triangles, C72_centre_of_chosen_triangles, C72_area_of_chosen_triangles, C72_centres_in_box, C72_centres_and_radius, C72_masses_of_triangles, C73_quality, C73_smoothing, C73_rotate, C73_normalize_vectors, C73_tangent, C73_tangent_unit_refuted, C73_normal_tri, C73_unit_normal, C73_normal_isolated, C73_normal_quad, C73_distortion, C74_spring, C74_edges, C74_rod_plane, C74_rod_plane_stable, C74_rod_space, C74_shell, C74_bending, C74_bending_flat, C74_bending_force_refuted, C74_membrane_flat, C74_membrane, C74_membrane_hessian, C74_positive_part_refuted, C74_mips, C74_mips_hessian_refuted, C75_strain_one, C75_strain, C75_strain_rest, C75_bend, C75_bend_rest, C75_bend_one, C75_seam, C75_seam_one, C75_rigid_sum, C75_rigid, C75_rigid_rest, C75_rigid_rest_refuted, C75_rotation, C75_rotation_refuted, C76_rodriguez, C76_cartesian, C76_cartesian_refuted, C76_lookat, C76_frustum, C76_ray, C77_normals_on_meshes, C77_nearest_point, C77_nearest_point_of_part, C77_distance_to_triangle, C77_signed_distance, C77_first_hit, C77_nearest_face, C77_triangles_around_a_point, C77_samples_around_a_sample, C77_keys_are_distances_refuted, C77_weights_of_nearest_face_refuted, C77_samples_near_refuted, C80_length, C80_nearest, C80_nearest_repeated_start_refuted, C80_nearest_vertex, C80_arc_length, C80_resample, C80_resample_ends_refuted, C80_motions, C81_tent, C81_hemisphere, C81_hemisphere_normal, C82_energy, C82_same_ends_fail, C82_rigid_motions, C82_balance, C82_cantilever, C82_bar, C84_sample, C84_sample_selective, C84_inside, C84_twice, C84_every_number_refuted, C85_touch_refuted, C86_normals.

Standard-library axioms `ClassicalDedekindReals.sig_forall_dec`, `ClassicalDedekindReals.sig_not_dec`, `Classical_Prop.classic`, `FunctionalExtensionality.functional_extensionality_dep`:

C38_left_refuted, C47_slerp, C48_Cubic, C48_Polyline, C48_Area, C48_AABB, C48_Nearest, C48_Length, C48_Length_line_refuted, C50_CgArea, C50_Polar, C50_SecondMoment, C50_SecondMoment_square_refuted, C62_sphere, C62_cylinder_closed, C62_cylinder_open, C62_disk, C81_gauss, C85_found, C85_crossing, C85_none_cubic, C85_none_quadratic.
