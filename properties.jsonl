{"id": "C01", "title": "Elements-around-points table is exact", "statement": "For a uniform mesh whose vertex indices are all below the vertex count, JArray_ElSuP_MeshElem terminates without an out-of-range access and row p of the jagged array lists exactly the elements that use vertex p, in ascending order, once per use; the index array has vertex-count+1 entries, starts at 0, is non-decreasing and ends at the number of element corners.", "quantifier": "all meshes: any element size, element count, vertex count, connectivity (including degenerate elements and isolated vertices)", "why_tests_cant": "The result is a function of arbitrary connectivity of unbounded size; tests see a handful of meshes.", "anchors": ["include/delfem2/msh_topology_uniform.cpp:JArray_ElSuP_MeshElem"]}
{"id": "C02", "title": "One-ring table is exact", "statement": "JArray_PSuP_MeshElem gives, in row p, exactly the vertices other than p that share an element with p, each once, and the relation is symmetric.", "quantifier": "all uniform meshes with in-range vertex indices", "why_tests_cant": "Same: unbounded connectivity, order of flags matters.", "anchors": ["include/delfem2/msh_topology_uniform.cpp:JArray_PSuP_MeshElem", "include/delfem2/msh_topology_uniform.cpp:JArrayPointSurPoint_MeshOneRingNeighborhood"]}
{"id": "C03", "title": "Row sort sorts rows and nothing else", "statement": "JArray_Sort leaves the index array alone and replaces every row by its ascending permutation.", "quantifier": "all jagged arrays with a well-formed index array", "why_tests_cant": "Sortedness for every row content needs induction.", "anchors": ["include/delfem2/jagarray.cpp:JArray_Sort"]}
{"id": "C04", "title": "AddDiagonal adds exactly the missing diagonal", "statement": "JArray_AddDiagonal keeps every row's entries in order and appends the row's own number exactly when it was not there; afterwards every row contains its own number; applying it again changes nothing.", "quantifier": "all well-formed jagged arrays", "why_tests_cant": "Depends on every combination of rows with and without diagonal.", "anchors": ["include/delfem2/jagarray.cpp:JArray_AddDiagonal"]}
{"id": "C05", "title": "Extend computes the two-step neighbourhood", "statement": "JArray_Extend produces in row i exactly the k different from i reachable from i by two steps in the input relation, each once.", "quantifier": "all square well-formed jagged arrays", "why_tests_cant": "Graph property over arbitrary relations.", "anchors": ["include/delfem2/jagarray.cpp:JArray_Extend"]}
{"id": "C06", "title": "Undirected edge table lists each edge once", "statement": "JArrayEdgeUnidir_PointSurPoint called with empty output vectors lists in row i exactly the neighbours j of i with i<j, in input order. The function relies on the output index vector being empty: with a reused, non-empty output vector the counts are wrong.", "quantifier": "all well-formed jagged arrays; the negative part exhibits a reused output", "why_tests_cant": "Tests always pass fresh vectors.", "anchors": ["include/delfem2/jagarray.cpp:JArrayEdgeUnidir_PointSurPoint"]}
{"id": "C07", "title": "Face adjacency is sound, complete and symmetric", "statement": "ElSuEl_MeshElem: for each element and face the adjacent-element entry is either an element other than itself that has a face with the same vertices, or the sentinel when there is none; on meshes where a face is shared by at most two elements the table is symmetric.", "quantifier": "all uniform meshes with distinct vertices per face", "why_tests_cant": "Quantifies over connectivity.", "anchors": ["include/delfem2/msh_topology_uniform.cpp:ElSuEl_MeshElem"]}
{"id": "C08", "title": "Element edges are all listed, once", "statement": "JArrayEdge_MeshElem / MeshLine_MeshElem list exactly the edges of the mesh's elements, each undirected edge once. For tetrahedra the edge between local nodes 2 and 3 is lost because the edge table holds {2,2}.", "quantifier": "all triangle/quad/hex meshes; tetrahedra give a counterexample", "why_tests_cant": "A missing edge is only visible if a test enumerates all edges of all element types.", "anchors": ["include/delfem2/msh_topology_uniform.cpp:JArrayEdge_MeshElem", "include/delfem2/msh_topology_uniform.cpp:MeshLine_JArrayEdge", "include/delfem2/msh_topology_uniform.cpp:MeshLine_MeshElem", "include/delfem2/mshelm.h:noelElemEdge_Tet"]}
{"id": "C09", "title": "Grouping equals connected components", "statement": "MarkConnectedElements flags exactly the elements reachable from the seed through unflagged adjacent elements; MakeGroupElem gives two elements the same group exactly when they are connected through the adjacency table, and every element gets a group below the group count.", "quantifier": "all adjacency tables, all seeds", "why_tests_cant": "Reachability needs induction over arbitrary graphs; termination of the stack loop too.", "anchors": ["include/delfem2/msh_topology_uniform.cpp:MarkConnectedElements", "include/delfem2/msh_topology_uniform.cpp:MakeGroupElem"]}
{"id": "C10", "title": "Triangle flips and quad splits preserve the element set", "statement": "FlipElement_Tri reverses every triangle, keeps its vertices and is an involution; convert2Tri_Quad emits two triangles per quad that use only that quad's vertices with the quad's orientation: their directed edges are the quad's four directed edges plus the diagonal in both directions.", "quantifier": "all index arrays", "why_tests_cant": "Involution and orientation for all arrays.", "anchors": ["include/delfem2/msh_topology_uniform.cpp:FlipElement_Tri", "include/delfem2/msh_topology_uniform.cpp:convert2Tri_Quad"]}
{"id": "C11", "title": "Unified indexing reproduces positions and texture indices", "statement": "UnifySeparateIndexing_PosTex: looking up each corner's unified index in the two tables gives back the corner's original position index and texture index, for meshes in which no triangle mentions a position index and a texture index at different corners that another corner of the mesh pairs up; in general the round trip fails.", "quantifier": "all pairs of triangle index arrays of equal length", "why_tests_cant": "Counterexample needs two triangles that share indices crosswise.", "anchors": ["include/delfem2/msh_topology_uniform.cpp:UnifySeparateIndexing_PosTex"]}
{"id": "C12", "title": "Dihedral quads enumerate interior edges", "statement": "ElemQuad_DihedralTri lists, for each pair of edge-adjacent triangles of a consistently oriented manifold mesh, exactly one quad (opposite vertex, opposite vertex, edge start, edge end).", "quantifier": "all oriented manifold triangle meshes", "why_tests_cant": "Ranges over all meshes.", "anchors": ["include/delfem2/msh_topology_uniform.cpp:ElemQuad_DihedralTri"]}
{"id": "C13", "title": "Triangle insertion in a triangle keeps the mesh consistent", "statement": "InsertPoint_Elem on a consistent dynamic triangle mesh yields a consistent mesh with two more triangles in which the split triangle is replaced by the three triangles joining the new point to its edges, and all other triangles' vertices are unchanged.", "quantifier": "all consistent meshes, all triangles, all fresh points", "why_tests_cant": "The invariant couples every triangle with its neighbours.", "anchors": ["include/delfem2/dtri_topology.cpp:InsertPoint_Elem", "include/delfem2/dtri_topology.cpp:AssertDTri", "include/delfem2/dtri_topology.cpp:AssertMeshDTri"]}
{"id": "C14", "title": "Point insertion on an edge keeps the mesh consistent", "statement": "InsertPoint_ElemEdge on an interior edge of a consistent mesh yields a consistent mesh with two more triangles; the two triangles at the edge are replaced by the four triangles joining the new point to the outer edges.", "quantifier": "all consistent meshes, all interior edges", "why_tests_cant": "As above.", "anchors": ["include/delfem2/dtri_topology.cpp:InsertPoint_ElemEdge"]}
{"id": "C15", "title": "Edge flip keeps the mesh consistent", "statement": "FlipEdge on an interior edge of a consistent mesh yields a consistent mesh with the same number of triangles; the two triangles at the edge are replaced by the two triangles on the other diagonal. On a boundary edge it changes nothing and reports failure.", "quantifier": "all consistent meshes and edges", "why_tests_cant": "As above.", "anchors": ["include/delfem2/dtri_topology.cpp:FlipEdge"]}
{"id": "C16", "title": "Triangle deletion keeps the mesh consistent", "statement": "DeleteTri of an isolated-from-neighbours triangle moves the last triangle into the hole, keeps all adjacency links and point links valid, and removes exactly that triangle.", "quantifier": "all meshes meeting the documented precondition", "why_tests_cant": "Renaming of the last triangle must be reflected in every link.", "anchors": ["include/delfem2/dtri_topology.cpp:DeleteTri"]}
{"id": "C17", "title": "Any history of mesh edits keeps the mesh consistent", "statement": "Starting from any consistent mesh, every sequence of successful InsertPoint_Elem, InsertPoint_ElemEdge and FlipEdge calls keeps the mesh consistent, never indexes out of range, adds exactly two triangles per insertion and none per flip.", "quantifier": "all finite operation sequences", "why_tests_cant": "Unbounded histories.", "anchors": ["include/delfem2/dtri_topology.cpp:InsertPoint_Elem", "include/delfem2/dtri_topology.cpp:InsertPoint_ElemEdge", "include/delfem2/dtri_topology.cpp:FlipEdge"]}
{"id": "C18", "title": "Walking around a point: counter-clockwise and clockwise moves are inverse", "statement": "On a consistent mesh MoveCCW followed by MoveCW returns to the same triangle and corner (and vice versa) whenever the first move succeeds, and both stay on the same vertex.", "quantifier": "all consistent meshes and corners", "why_tests_cant": "All meshes.", "anchors": ["include/delfem2/dtri_topology.cpp:MoveCCW", "include/delfem2/dtri_topology.cpp:MoveCW"]}
{"id": "C19", "title": "Building adjacency for a triangle list", "statement": "InitializeMesh on an edge-manifold consistently oriented triangle list gives a consistent dynamic mesh with the same triangles.", "quantifier": "all edge-manifold oriented triangle lists", "why_tests_cant": "All lists.", "anchors": ["include/delfem2/dtri_topology.cpp:InitializeMesh", "include/delfem2/dtri_topology.cpp:MakeInnerRelationTri"]}
{"id": "C20", "title": "Neighbour table of a dynamic mesh omits vertex 0's neighbours", "statement": "The dynamic-mesh JArray_PSuP should list every vertex's neighbours; because the visited array is initialised with 0 rather than an impossible index, vertex 0 gets an empty row. For every other vertex the row is exact.", "quantifier": "all meshes; the negative part exhibits one", "why_tests_cant": "Only row 0 is affected.", "anchors": ["include/delfem2/dtri_topology.cpp:JArray_PSuP"]}
{"id": "C21", "title": "Sparse matrix times vector equals the dense product", "statement": "CMatrixSparse::MatVec computes y := alpha*A*x + beta*y where A is the dense matrix denoted by diagonal blocks plus the compressed off-diagonal blocks, for block sizes 1,2,3,4 and the generic path.", "quantifier": "all patterns (including repeated columns and empty rows), values, alpha, beta, x, y over any commutative ring", "why_tests_cant": "All sizes and patterns; five different code paths must agree.", "anchors": ["include/delfem2/ls_block_sparse.cpp:CMatrixSparse::MatVec", "include/delfem2/ls_block_sparse.cpp:MatVec_MatSparseCRS_Blk11", "include/delfem2/ls_block_sparse.cpp:MatVec_MatSparseCRS_Blk22", "include/delfem2/ls_block_sparse.cpp:MatVec_MatSparseCRS_Blk33", "include/delfem2/ls_block_sparse.cpp:MatVec_MatSparseCRS_Blk44"]}
{"id": "C22", "title": "Transposed product is adjoint to the product", "statement": "MatTVec computes y := alpha*A^T*x + beta*y for the same dense matrix, so <A x, z> = <x, A^T z>; MatVecDegenerate equals MatVec of the matrix with every block replaced by scalar times identity.", "quantifier": "all patterns, values and vectors over any commutative ring", "why_tests_cant": "All sizes and patterns.", "anchors": ["include/delfem2/ls_block_sparse.cpp:CMatrixSparse::MatTVec", "include/delfem2/ls_block_sparse.cpp:CMatrixSparse::MatVecDegenerate"]}
{"id": "C23", "title": "Merging an element matrix adds exactly the element entries", "statement": "Merge adds element block (i,j) to dense block (row i, column j) and changes nothing else, when every needed entry is in the pattern; with the buffer variant that fills with zeros, a missing pattern entry is not detected and the block is added to an unrelated entry.", "quantifier": "all patterns, element sizes and node lists; the negative part exhibits a fresh buffer", "why_tests_cant": "Corruption only for missing entries and fresh buffers.", "anchors": ["include/delfem2/ls_block_sparse.h:Merge", "include/delfem2/ls_block_sparse.h:Mearge"]}
{"id": "C24", "title": "Fixing degrees of freedom produces the constrained matrix", "statement": "SetFixedBC makes every flagged row and column of the dense matrix zero off the diagonal and one on the diagonal, and leaves all other entries unchanged.", "quantifier": "all patterns, block sizes and flag vectors", "why_tests_cant": "All patterns.", "anchors": ["include/delfem2/ls_block_sparse.h:SetFixedBC", "include/delfem2/ls_block_sparse.cpp:SetFixedBC_Dia", "include/delfem2/ls_block_sparse.cpp:SetFixedBC_Row", "include/delfem2/ls_block_sparse.cpp:SetFixedBC_Col"]}
{"id": "C25", "title": "Symmetric block scaling", "statement": "MatSparse_ScaleBlkLen_LeftRight / ScaleBlk_LeftRight multiply dense entry (i,j) by scale_i*scale_j and nothing else.", "quantifier": "all patterns and scale vectors", "why_tests_cant": "All patterns.", "anchors": ["include/delfem2/ls_block_sparse.cpp:MatSparse_ScaleBlk_LeftRight", "include/delfem2/ls_block_sparse.cpp:MatSparse_ScaleBlkLen_LeftRight"]}
{"id": "C26", "title": "Block tridiagonal factorisation solves the system", "statement": "BlockTriDiagonalMatrix Decompose then Solve returns the x with A x = b whenever every pivot block met by the elimination is inverted correctly, for every number of blocks (at least two) and block size; distinct in-band block positions occupy distinct storage.", "quantifier": "all sizes and values over a field with non-vanishing pivots", "why_tests_cant": "All sizes.", "anchors": ["include/delfem2/ls_tridiagonal.h:BlockTriDiagonalMatrix"]}
{"id": "C27", "title": "Block pentadiagonal storage and factorisation", "statement": "In BlockPentaDiagonalMatrix distinct in-band positions occupy distinct storage inside the buffer; Decompose then Solve returns the x with A x = b under non-vanishing pivots.", "quantifier": "all sizes and values", "why_tests_cant": "All sizes; index arithmetic at the first and last rows.", "anchors": ["include/delfem2/ls_pentadiagonal.h:BlockPentaDiagonalMatrix"]}
{"id": "C28", "title": "Conjugate gradient keeps the residual honest", "statement": "After any number of iterations of Solve_CG or Solve_PCG with any matrix, preconditioner and tolerance, the residual vector equals b - A x for the returned x, and the returned history describes that residual. In exact arithmetic, for a symmetric definite matrix (and preconditioner), both report convergence after at most as many iterations as there are unknowns.", "quantifier": "all matrices, right-hand sides, preconditioners, iteration counts over a field", "why_tests_cant": "Holds for every iteration count.", "anchors": ["include/delfem2/lsitrsol.h:Solve_CG", "include/delfem2/lsitrsol.h:Solve_PCG"]}
{"id": "C29", "title": "Morton code interleaves bits and preserves dominance", "statement": "For every input below 1024 expandBits puts bit i of the input at bit 3i of the output and clears all others; the Morton code of a point is the interleaving of its three quantised coordinates, and a point that is nowhere smaller in any coordinate never gets a smaller code; the leading-zero count is exact on every 32-bit word.", "quantifier": "all ten-bit inputs (expandBits), all points (MortonCode), all 32-bit words (leading zeros)", "why_tests_cant": "2^32 inputs per function.", "anchors": ["include/delfem2/srch_bvh.cpp:expandBits", "include/delfem2/srch_bvh.cpp:nbits_leading_zero", "include/delfem2/srch_bvh.cpp:MortonCode"]}
{"id": "C30", "title": "Morton-code tree is a complete binary tree over all objects", "statement": "For every non-decreasing sequence of at least two Morton codes (with or without duplicates) BVHTopology_Morton terminates and produces a binary tree rooted at node 0 in which every one of the 2n-1 nodes is reached exactly once from the root, every object sits in exactly one leaf, and parent links are right.", "quantifier": "all sorted code sequences of every length, including duplicates", "why_tests_cant": "Each internal node is computed independently from prefix lengths; correctness is a global property.", "anchors": ["include/delfem2/srch_bvh.cpp:BVHTopology_Morton", "include/delfem2/srch_bvh.cpp:MortonCode_DeterminRange", "include/delfem2/srch_bvh.cpp:MortonCode_FindSplit"]}
{"id": "C31", "title": "Bounding volumes enclose everything below them", "statement": "After BVH_BuildBVHGeometry every node's volume encloses, with the margin, every corner of every element below it and every volume below it, for box and sphere volumes, whatever the array held before (mesh leaf-maker). With the point leaf-maker, re-building into the same array keeps the old volumes, so the result depends on history.", "quantifier": "all well-formed trees and geometry; negative part exhibits a rebuild", "why_tests_cant": "All trees.", "anchors": ["include/delfem2/srch_bvh.h:BVH_BuildBVHGeometry", "include/delfem2/srch_bv3_aabb.h:CBV3_AABB", "include/delfem2/srch_bv3_sphere.h:CBV3_Sphere"]}
{"id": "C32", "title": "Hierarchical query misses nothing and returns nothing extra", "statement": "BVH_GetIndElem_Predicate returns every leaf whose volume satisfies the predicate exactly once, and only those, when the predicate is monotone along the tree. On nested boxes and spheres the point, line, ray and distance-range queries are of this kind.", "quantifier": "all trees, all monotone predicates", "why_tests_cant": "All trees and predicates.", "anchors": ["include/delfem2/srch_bvh.h:BVH_GetIndElem_Predicate"]}
{"id": "C33", "title": "Nearest-point search through the hierarchy is exact", "statement": "BVH_IndPoint_NearestPoint returns a point at minimal distance among all points in the tree, and that distance; BVH_Range_DistToNearestPoint returns the least near and far distances over all leaves.", "quantifier": "all trees, point sets and query positions", "why_tests_cant": "Pruning correctness for all configurations.", "anchors": ["include/delfem2/srch_bvh.h:BVH_IndPoint_NearestPoint", "include/delfem2/srch_bvh.h:BVH_Range_DistToNearestPoint"]}
{"id": "C34", "title": "Box and sphere operations are sound", "statement": "CBV3_AABB and CBV3_Sphere: merging yields a volume that contains both operands; adding a point contains the point and the old volume; the reported distance range bounds the distance to every contained point; the intersection, inclusion, line and ray tests are exact for active volumes. Inactive (empty) spheres are not treated as empty by the sphere tests.", "quantifier": "all boxes/spheres/points over the reals", "why_tests_cant": "Continuous input space.", "anchors": ["include/delfem2/srch_bv3_aabb.h", "include/delfem2/srch_bv3_sphere.h"]}
{"id": "C35", "title": "Topological element distance is the shortest path length", "statement": "DijkstraElem_MeshElemTopo assigns to each element the least number of adjacency steps from the seed, leaves the sentinel at unreachable elements, and numbers the reachable elements in an order of non-decreasing distance. With assert compiled in it aborts exactly when some element is unreachable.", "quantifier": "all adjacency tables, seeds and priority queues whose top is a least entry", "why_tests_cant": "Graph property.", "anchors": ["include/delfem2/dijkstra.h:DijkstraElem_MeshElemTopo"]}
{"id": "C36", "title": "Point distance field is the shortest edge-path length, except at the source", "statement": "DijkstraPoint_MeshTri3D reports at every point other than the source the least total edge length of a path from the source (-1 if there is none) and calls AddPoint in non-decreasing order of distance. At the source it reports the least round trip, not 0. With assert compiled in it aborts unless every point is reachable.", "quantifier": "all points, adjacency lists, sources and priority queues whose top is a least entry", "why_tests_cant": "Graph property; tests check only other vertices.", "anchors": ["include/delfem2/dijkstra.h:DijkstraPoint_MeshTri3D"]}
{"id": "C37", "title": "Expressions evaluate to their value", "statement": "CMathExpressionEvaluator: after any calls, SetExp succeeds on every text that spells (blanks ignored, operators grouping to the right, in particular fully parenthesised) an expression tree over numbers, PI, registered variables, the five binary operators and the library functions; after any further SetKey calls Eval returns the tree's value under the values last set, and IsKeyUsed tells exactly the tree's variables. With an unregistered variable SetExp returns false. SetKey is always defined. With assert compiled in, a text with a leading sign aborts.", "quantifier": "all expression trees of any depth and all their spellings, all variable assignments, all histories of SetKey and SetExp calls", "why_tests_cant": "Parser over unbounded nested input.", "anchors": ["include/delfem2/parse_math_expression.cpp:CMathExpressionEvaluator"]}
{"id": "C38", "title": "Subtraction and division chains associate to the right", "statement": "The usual left-to-right reading of a-b+c, a-b-c and a/b/c is not what Eval computes: it computes a-(b+c), a-(b-c) and a/(b/c).", "quantifier": "negative: exhibits expressions", "why_tests_cant": "Needs a chain with a non-associative operator.", "anchors": ["include/delfem2/parse_math_expression.cpp:GetLowestPriorityOperator"]}
{"id": "C39", "title": "String splitting cuts at exactly the right places", "statement": "Split (character, set) returns the maximal delimiter-free stretches in order, so that their concatenation is the input without the delimiters. Split_Parentheses cuts at exactly the delimiters outside of brackets and Split_Quote at exactly those outside of quotes (dropping empty fields), unless the text ends with such a delimiter, in which case the last field is returned once with and once without the delimiter.", "quantifier": "all strings, delimiters, brackets and quotes", "why_tests_cant": "All strings.", "anchors": ["include/delfem2/str.cpp:Split", "include/delfem2/str.cpp:Split_Parentheses", "include/delfem2/str.cpp:Split_Quote"]}
{"id": "C40", "title": "CAD topology stays closed under every editing history", "statement": "Every sequence of Clear, AddPolygon, AddVtx_Face and AddVtx_Edge with any arguments succeeds and gives the drawing one expects: a new polygon is a new face with a new cycle, a vertex on an edge is inserted between its end points on the one boundary that has it, an isolated vertex joins its face, an invalid index changes nothing and is reported. Each edge is on one loop and each loop in one face, Assert holds, EdgeIndexes_Face lists the boundary of a face in order and an edge is found in exactly its face. Without isolated vertices VertexIndexs_Face and FindFaceIndexes_IncludeVeretx are exact; once a face contains an isolated vertex both give wrong answers.", "quantifier": "all operation sequences; negative parts exhibit histories", "why_tests_cant": "Unbounded histories.", "anchors": ["include/delfem2/cadtopo.h:CadTopo"]}
{"id": "C41", "title": "k-d tree nearest point is exact", "statement": "Whatever std::sort does with ties, ConstructKDT stores every input point once, with the splitting order property and logarithmic height, and SearchNearstPoint returns a point of minimal distance to the query (provided some point is closer than the largest double; otherwise an unassigned variable).", "quantifier": "all non-empty point lists and queries", "why_tests_cant": "Pruning correctness.", "anchors": ["include/delfem2/srch_kdtree.h"]}
{"id": "C42", "title": "parallel_for runs each index exactly once under every schedule", "statement": "With at least one worker and num+workers not exceeding the counter range, every schedule of parallel_for (one and two indices) ends after a bounded number of steps, never calls the body twice or out of range, and calls it exactly once for each index if no exception is raised. If a call throws, the caller gets an exception, and after the error flag is set at most one more call per other worker is started. If the counter can wrap, an index is run twice; if the reported concurrency is zero nothing runs.", "quantifier": "all interleavings, worker counts, index counts, throwing bodies", "why_tests_cant": "Schedules.", "anchors": ["include/delfem2/thread.h:parallel_for"]}
{"id": "C43", "title": "Voxel boundary, dilation and erosion", "statement": "Grid3Voxel_Dilation sets exactly the voxels that are set or have a set face neighbour; Grid3Voxel_Erosion keeps exactly the set voxels whose six neighbours are all set; Adj_Grid gives the voxel one step across a face, or -1 outside; MeshQuad3D_VoxelGrid emits one outward unit square per face between a set and an unset (or outside) voxel, and the squares form a closed surface (every directed edge is matched by its reverse); the hexahedral and tetrahedral meshes have one hexahedron and six positively oriented tetrahedra per set voxel; the box of added cells is the smallest one. Setting a voxel through the grid's setter and dilating does not dilate that voxel unless the index orders agree (refuted).", "quantifier": "all grid sizes and contents (0/1 for surface, dilation and erosion)", "why_tests_cant": "In-place update order matters for all contents.", "anchors": ["include/delfem2/gridvoxel.cpp"]}
{"id": "C44", "title": "Grid bucket search reads past the end of its array", "statement": "SearchGrid::PostProcess builds, for each cell, the range of objects in that cell; it evaluates an element one past the end of the object array on every call whose objects are in existing cells. Apart from that read the ranges are exact, and GetOneRingNeighbor returns, each once, the objects whose cell touches that of the query point, among them every object within the cell size in each coordinate.", "quantifier": "all object lists; negative part for the read", "why_tests_cant": "Out-of-bounds reads do not fail tests.", "anchors": ["include/delfem2/srchgrid.h:SearchGrid"]}
{"id": "C45", "title": "Polynomial evaluation, quadratic roots and bisection", "statement": "Eval_Polynomial evaluates the polynomial. RootsInRange_QuadraticPolynomial returns exactly the real roots in the range when the leading coefficient is non-zero; for a linear polynomial with non-zero constant nothing it returns is a root, and the range is ignored. RootInInterval_Bisection returns a number in the interval that is within (interval length)/2^iterations of a root, provided no bisection point is an exact root; if one (or the right end) is, the root is lost and the result can be arbitrarily far away.", "quantifier": "all coefficients, degrees, ranges and iteration counts; negative parts exhibit inputs", "why_tests_cant": "Continuous input space.", "anchors": ["include/delfem2/polynomial_root.h:Eval_Polynomial", "include/delfem2/polynomial_root.h:RootsInRange_QuadraticPolynomial", "include/delfem2/polynomial_root.h:RootInInterval_Bisection"]}
{"id": "C46", "title": "Small dense inverses are inverses", "statement": "Inverse_Matrix for n=1,2,3 (with the determinant non-zero) and the generic elimination (when it reports success) produce a matrix that multiplied with the original gives the identity.", "quantifier": "all matrices over a field, all n for the generic version", "why_tests_cant": "All values and sizes.", "anchors": ["include/delfem2/matn.h:Inverse_Matrix", "include/delfem2/ls_ilu_block_sparse.cpp:CalcInvMat"]}
{"id": "C47", "title": "Quaternion algebra is rotation algebra", "statement": "QuatQuat is associative and norm-multiplicative; QuatVec of a product is the composition of the rotations; QuatVec of a unit quaternion preserves dot and cross products and QuatConjVec inverts it; the quaternion-to-matrix functions agree with QuatVec and the matrix-to-quaternion function inverts them up to sign; Normalize, the axis-angle, Bryant-angle and Euler-angle constructors give the unit quaternions of the named rotations, and slerp stays on the unit sphere and interpolates. The small-angle branch of the axis-angle constructor is not a unit quaternion.", "quantifier": "all quaternions, vectors and angles over the reals", "why_tests_cant": "Continuous input space.", "anchors": ["include/delfem2/quat.cpp", "include/delfem2/quat.h", "include/delfem2/mat3_funcs.cpp", "include/delfem2/mat4.cpp"]}
{"id": "C48", "title": "Bezier curves: evaluation, splitting, boxes, nearest points, area and length", "statement": "Point evaluation of quadratic and cubic Bezier curves interpolates the end points, is a convex combination of the control points for parameters in [0,1], is affine invariant and agrees with de Casteljau; the tangent function is the derivative; splitting at t gives the two sub-curves; polylines sample the curve at equal parameters; the area functions return the integral of (x dy - y dx)/2; boxes are the exact coordinate ranges; the nearest-point functions return a parameter in [0,1] at least as good as every sample; the closed-form length is the integral of the speed. Failing inputs: a one-vertex polyline, a cubic coefficient between 0 and 1e-10, a curve collapsed to a point (NaN), a straight decelerating curve (NaN length).", "quantifier": "all control points, dimensions, parameters and sample counts over the reals", "why_tests_cant": "Continuous input space.", "anchors": ["include/delfem2/geo_curve_cubic.h", "include/delfem2/geo_curve_quadratic.h"]}
{"id": "C49", "title": "Subdivision refines meshes consistently", "statement": "Refining a quadrangle or hexahedron mesh adds exactly one vertex per edge, per (hexahedron) face and per element, shared by all elements around it; it replaces each element by four quadrangles or eight hexahedra and reports, for each edge of a quadrangle mesh, its ends and the elements on it. With the averaged positions the old vertices stay and each child covers exactly its quarter or eighth of its parent's bilinear or trilinear map. The Catmull-Clark positions follow the published rule inside, and keep border vertices and border edge middles. Known limits: the neighbour vector must be empty on entry, tetrahedron subdivision aborts because its edge table misses an edge, and a vertex of no quadrangle is moved to the origin by the Catmull-Clark rule.", "quantifier": "every mesh of any size without repeated vertices in an element and with at most two elements on each edge (quadrangles) or face (hexahedra), every coordinate and every parameter of the maps", "why_tests_cant": "The sharing of new vertices depends on the whole connectivity, and positions are real identities over all parameters; tests check a few meshes.", "anchors": ["include/delfem2/mshsubdiv.cpp: SubdivTopo_MeshQuad, SubdivTopo_MeshHex, SubdivTopo_MeshTet, SubdivPoints3_MeshQuad, SubdivisionPoints_Hex, SubdivisionPoints_QuadCatmullClark"]}
{"id": "C50", "title": "Polygon area, centroid, moments and length", "statement": "CgArea_Polygon returns the signed area (integral of 1 over the region bounded by the polygon, each part counted with its winding number) and the centroid (first moments divided by the area), and has no defined result exactly when the signed area is zero; translating, scaling, rotating, reversing the polygon or starting at another vertex changes area and centroid accordingly. RotationalMomentPolar_Polygon2 is the integral of the squared distance to the pivot and obeys the parallel axis theorem. SecondMomentOfArea_Polygon returns the principal moments and axes; for a polygon whose two principal moments are equal (a square) it leaves its outputs unwritten. Length_Polygon is the perimeter.", "quantifier": "all polygons with any number of vertices, over the reals", "why_tests_cant": "All sizes and all coordinates.", "anchors": ["include/delfem2/geo_polygon2.cpp:CgArea_Polygon", "include/delfem2/geo_polygon2.cpp:RotationalMomentPolar_Polygon2", "include/delfem2/geo_polygon2.cpp:SecondMomentOfArea_Polygon"]}
{"id": "C51", "title": "Point clustering is a valid partition", "statement": "For a symmetric neighbour table and positive areas BinaryClustering_Points2d and BinaryClustering_Points3d assign each point to exactly one cluster; each cluster is a pair of neighbours or a single point, numbered in the order pairs, then singles. When no two edges have the same area ratio the pairs are the greedy matching (taken in ascending order of the ratio of the smaller and larger area; every edge touches a pair that is at least as good), so no two neighbours stay single; with equal ratios this fails (only one edge per ratio is considered). The 3D variant returns for each cluster the sum of areas, the area-weighted mean of positions and the unit vector along the area-weighted mean of normals, and keeps the total area and first moments. Clustering_Psup returns the quotient graph: clusters c and d are neighbours exactly when c differs from d and a point of c has a neighbour in d, each listed once; symmetry is inherited.", "quantifier": "all symmetric neighbour tables of any size, all positive areas, all positions and normals without opposite weighted neighbours; for Clustering_Psup all neighbour tables and all partitions", "why_tests_cant": "All graphs, all area values; the matching depends on the order of all scores.", "anchors": ["include/delfem2/clusterpoints.cpp:BinaryClustering_Points2d", "include/delfem2/clusterpoints.cpp:BinaryClustering_Points3d", "include/delfem2/clusterpoints.cpp:Clustering_Psup"]}
{"id": "C52", "title": "Block incomplete LU: pattern, factors, substitutions", "statement": "Forward substitution solves (L+D)y=b and backward substitution solves (1+U)x=y for the factors stored in a CPreconditionerILU, for every block size and every pattern. Decompose leaves factors whose product has the numbers of the input on the diagonal and at every stored block if no pivot is reported as singular. CopyValue puts the numbers of the matrix into the pattern. Level 0 keeps exactly the blocks of the matrix; level k keeps them all with level 0, adds only fill whose level (one above the larger of the two blocks that create it) is at most k, and leaves out no fill made by two stored blocks below level k; level -1 stores exactly the fill of the complete elimination, and Initialize_ILUk(-1), CopyValue, Decompose and SolvePrecond then solve A x = b exactly.", "quantifier": "all block sizes, patterns, levels and values without a reported singular pivot", "why_tests_cant": "The fill pattern depends on every elimination before it; a test checks one pattern.", "anchors": ["include/delfem2/ls_ilu_block_sparse.cpp", "include/delfem2/ls_ilu_block_sparse.h"]}
{"id": "C53", "title": "Pattern setup, clearing and diagonal shift of a sparse matrix", "statement": "Initialize followed by SetPattern with a valid compressed pattern yields a usable square zero matrix with exactly that pattern; setZero makes every dense entry zero; AddDia adds the given number to the dense diagonal and nothing else.", "quantifier": "all patterns, block sizes and values over any commutative ring", "why_tests_cant": "All sizes and patterns.", "anchors": ["include/delfem2/ls_block_sparse.h:CMatrixSparse::Initialize", "include/delfem2/ls_block_sparse.h:CMatrixSparse::SetPattern", "include/delfem2/ls_block_sparse.h:CMatrixSparse::setZero", "include/delfem2/ls_block_sparse.h:CMatrixSparse::AddDia"]}
{"id": "C54", "title": "Pentadiagonal linear system with fixed degrees of freedom", "statement": "LinearSystemSolver_BlockPentaDiagonal: Merge accumulates every element block at its block row and column (square element blocks); Solve returns a vector that is zero at every flagged degree of freedom and satisfies every other row of the assembled system, whenever no pivot block of the constrained matrix is singular.", "quantifier": "all sizes, flags, element lists and values over a field", "why_tests_cant": "All sizes and flag patterns.", "anchors": ["include/delfem2/ls_pentadiagonal.h:LinearSystemSolver_BlockPentaDiagonal"]}
{"id": "C55", "title": "Centre-distance field, distance from the border of a region, and clustering", "statement": "DijkstraElem_MeshElemGeo3 gives the least total centre-to-centre distance through included elements. Dijkstra_FillFromBoundary gives the least number of steps inside the region from its border. MeshClustering picks kernels by farthest-point sampling, labels every element with its nearest kernel (first on ties), and leaves no cluster empty.", "quantifier": "all adjacency tables, meshes, regions, inclusion predicates, seeds and priority queues whose top is a least entry", "why_tests_cant": "Graph properties.", "anchors": ["include/delfem2/dijkstra.h:DijkstraElem_MeshElemGeo3", "include/delfem2/dijkstra.h:Dijkstra_FillFromBoundary", "include/delfem2/dijkstra.h:MeshClustering"]}
{"id": "C56", "title": "Removing, replacing, trimming, unquoting", "statement": "Remove, RemoveSpace and Replace act character by character. RemoveBeginning drops leading delimiters, but leaves a text of delimiters only as it is. Remove_Quote returns what is between the first and the last quote, or the text itself if it has fewer than two. Get_Parentheses returns what is between the first opening and the last closing bracket, or nothing if there is no such pair; with equal brackets occurring once it forms an invalid range.", "quantifier": "all strings and characters; negative parts exhibit inputs", "why_tests_cant": "All strings.", "anchors": ["include/delfem2/str.cpp:Remove", "include/delfem2/str.cpp:Replace", "include/delfem2/str.cpp:RemoveBeginning", "include/delfem2/str.cpp:Remove_Quote", "include/delfem2/str.cpp:Get_Parentheses"]}
{"id": "C57", "title": "Separating tags and contents", "statement": "XML_SeparateTagContent appends content, tag, content, ... of a terminated text in order, without leading blanks, and terminates within the text. Content after the last tag is dropped.", "quantifier": "all NUL-terminated strings", "why_tests_cant": "All strings.", "anchors": ["include/delfem2/str.cpp:XML_SeparateTagContent"]}
{"id": "C58", "title": "Reading numbers, attributes and dictionaries", "statement": "ReadVector_CSV appends the value of each comma-separated field. ParseAttributes maps each name to the value first given to it, with or without quotes; a trailing blank ends up in the last value. ReadDictionary_Json maps each key to the value first given to it when keys and values contain no quote or blank and begin with no comma or colon; other values are taken apart or lose their blanks, and the empty dictionary is undefined.", "quantifier": "all attribute lists, dictionaries and number lists; negative parts exhibit inputs", "why_tests_cant": "All strings.", "anchors": ["include/delfem2/str.cpp:ReadVector_CSV", "include/delfem2/str.cpp:ParseAttributes", "include/delfem2/str.cpp:ReadDictionary_Json"]}
{"id": "C59", "title": "Preparing boundary loops for meshing", "statement": "JArray_FromVecVec_XY packs the loops without loss; FixLoopOrientation keeps or reverses each loop so that the first is counterclockwise and the others clockwise; ResamplingLoop cuts every edge into the fewest equal parts shorter than the given length (one more when the length divides it exactly), keeping old points, perimeter and area, using every index once. The search for crossing edges in CheckInputBoundaryForTriangulation accepts no loop with two non-neighbouring edges that share a point. Failing inputs: an outer loop given clockwise with edges of different lengths makes ResamplingLoop read out of bounds after FixLoopOrientation (the sequence GenMesh uses), and crossings between different loops are missed because the y coordinate is read twice.", "quantifier": "all lists of loops and edge lengths, over the reals", "why_tests_cant": "All loops, counts and coordinates.", "anchors": ["include/delfem2/geo_polygon2.cpp:JArray_FromVecVec_XY", "include/delfem2/geo_polygon2.cpp:FixLoopOrientation", "include/delfem2/geo_polygon2.cpp:ResamplingLoop", "include/delfem2/geo_polygon2.cpp:CheckInputBoundaryForTriangulation", "include/delfem2/dtri2_v2dtri.cpp:GenMesh"]}
{"id": "C60", "title": "Linear programming", "statement": "For constraints a.x <= b, a.x >= b or a.x = b on non-negative variables, Precomp never fails and returns 0, 2 or 3. After 0, GetValid is a feasible point, and Solve returns for every target a feasible point together with the value of the target there; if it returns 0 before the iterations are used up the value is the maximum over all feasible points, and if it returns 2 the target can be raised along feasible points over a length of 1e10. Inconsistent constraints are never accepted; a rejection with 3 after convergence and a non-zero first-phase target means that they are inconsistent. Failing cases: running out of iterations is also reported as 0; if the only lower bounds have right-hand sides that are not positive and there is no constraint the origin violates, Precomp returns 0 but Solve fails an assertion; an equality given twice is rejected although it is consistent; preparing an object again after AddEqn reads stale entries.", "quantifier": "all lists of constraints with at least one violated by the origin or with no lower bound, all targets with coefficients that are zero or at least 1e-30, all iteration limits, over every ordered field", "why_tests_cant": "All constraint systems, sizes and pivoting histories.", "anchors": ["include/delfem2/lp.cpp:LinPro_SolveTable", "include/delfem2/lp.cpp:LinPro_CheckTable", "include/delfem2/lp.cpp:CLinPro::Precomp", "include/delfem2/lp.cpp:CLinPro::Solve", "include/delfem2/lp.cpp:CLinPro::GetValid", "include/delfem2/lp.cpp:CLinPro::AddEqn"]}
{"id": "C61", "title": "Convex hull of points in the plane", "statement": "ConvexHull2 returns the hull as a closed counterclockwise polygon: it starts with the lowest point, names every other vertex once and the first one again at the end, turns strictly left everywhere, has no point on the right of an edge, and every point is in the hull of the vertices. Failing cases: fewer than three points, and two points in the first or the last direction seen from the lowest point (such as a point on the bottom side of a rectangle), end in undefined behaviour.", "quantifier": "all point sets with at least three points and a unique lowest point, whose directions from it differ by more than 1e-8 or not at all, with no two points in the first or last direction; every sorting function; over the reals", "why_tests_cant": "All point sets and all sizes.", "anchors": ["include/delfem2/geo_convhull2.h:ConvexHull2"]}
{"id": "C62", "title": "Generated meshes are the surfaces they are named after", "statement": "The sphere, closed cylinder, capsule, cube, icosahedron and torus meshes are closed oriented surfaces (every directed edge is in exactly one triangle and so is its opposite, every index is a vertex, every vertex is used) with Euler characteristic 2, 0 for the torus; the open cylinder and the disk have as border exactly their end rings. All points are on the surface named, at the stated parameters; the cube's vertices are exactly the grid points of its surface, each once. All triangles face outwards (the disk upwards, the torus away from its core circle). Quad and hex grids number vertices and cells row by row. Failing cases: a torus with two segments is not a closed surface, a capsule with no ring for the cylinder is undefined.", "quantifier": "all radii, lengths and numbers of segments (sphere orientation: up to 2^32 rings), over the reals", "why_tests_cant": "All sizes.", "anchors": ["include/delfem2/msh_primitive.cpp:MeshTri3D_Sphere", "include/delfem2/msh_primitive.cpp:MeshTri3D_Cube", "include/delfem2/msh_primitive.cpp:MeshTri3_Torus", "include/delfem2/msh_primitive.cpp:MeshTri3_Capsule", "include/delfem2/msh_primitive.cpp:MeshTri3D_CylinderClosed", "include/delfem2/msh_primitive.cpp:MeshHex3_Grid"]}
{"id": "C63", "title": "Degrees of freedom that copy others", "statement": "With master-slave flags (each slave names the same component of another node, which is not itself a slave), JArray_AddMasterSlavePattern returns duplicate-free rows holding exactly the neighbours, the slaves and their neighbours, and the masters of the neighbours of every node. On a matrix whose blocks suffice, SetMasterSlave makes slave rows and columns those of the identity and every other entry the sum of all entries carried by its row and column; setRHS_MasterSlave does the same with the load. Hence solving the new system and copying masters to slaves gives exactly the solutions of the original system restricted to vectors in which slaves equal masters. The extended pattern suffices when every slave touches its master or another slave of it and masters of neighbouring slaves are equal or in the extended neighbourhood, for instance one rigid cluster. Failing cases: a slave that touches no other slave of its master, and neighbouring slaves with masters apart.", "quantifier": "all meshes, flags, block sizes and matrices over every commutative ring; negative parts exhibit inputs", "why_tests_cant": "All patterns, flags and values.", "anchors": ["include/delfem2/ls_masterslave.cpp:JArray_AddMasterSlavePattern", "include/delfem2/ls_masterslave.cpp:SetMasterSlave", "include/delfem2/ls_masterslave.cpp:setRHS_MasterSlave"]}
{"id": "C64", "title": "Collapsing an edge of a dynamic triangle mesh", "statement": "CollapseEdge_MeshDTri on an edge between two triangles of a consistent mesh, an edge which no third triangle has, never fails an assertion. If it returns false, points and triangles are unchanged. If it returns true, the result is consistent, has the two triangles less, has every corner of the fan of the removed end renamed to the kept end and nothing else renamed, keeps all links and glues the two outer neighbours on each side. On meshes without doubled edges and with one fan at both ends it returns true exactly when no boundary edge touches either end, the two ends have no common neighbour besides the far corners of the two triangles, and the surroundings are not a tetrahedron. Manifold meshes stay manifold and the removed point is no longer used. Every history of insertions, flips, deletions and collapses keeps the mesh consistent. Failing case: an edge that four triangles share.", "quantifier": "all consistent meshes of any size, all edges, all histories of edits; negative part exhibits a mesh", "why_tests_cant": "All meshes, edges and histories.", "anchors": ["include/delfem2/dtri_topology.cpp:CollapseEdge_MeshDTri", "include/delfem2/dtri_topology.cpp:DeleteTri", "include/delfem2/dtri_topology.cpp:MoveCCW"]}
{"id": "C65", "title": "Looking around points, mesh assertions and holes of a dynamic triangle mesh", "statement": "AssertDTri passes exactly when corners are distinct and links are mutual; AssertMeshDTri passes on every consistent mesh, and both together with all corners being points imply consistency. GetTriArrayAroundPoint returns the corners met turning counter-clockwise from the stored one, each once, in order, all at the point, and all corners at the point if its fan is closed or starts at the stored corner. FindPointAroundPoint returns at an inner point exactly the joined points, each once, and stops at its assertion at a boundary point. FindEdge_LookAroundPoint finds a triangle with the directed edge if and only if one exists, at inner and at boundary points. FindEdge_LookAllTriangles finds the first one or leaves its arguments alone. extractHoles on a manifold mesh returns closed loops that meet no point twice and step exactly along the boundary edges. Failing cases: AssertMeshDTri accepts second and third corners out of range; GetTriArrayAroundPoint misses triangles of a boundary point; extractHoles mixes two loops through a common point.", "quantifier": "all consistent meshes of any size, all points; negative parts exhibit meshes", "why_tests_cant": "All meshes and points.", "anchors": ["include/delfem2/dtri_topology.cpp:AssertDTri", "include/delfem2/dtri_topology.cpp:AssertMeshDTri", "include/delfem2/dtri_topology.cpp:GetTriArrayAroundPoint", "include/delfem2/dtri_topology.cpp:FindPointAroundPoint", "include/delfem2/dtri_topology.cpp:FindEdge_LookAroundPoint", "include/delfem2/dtri_topology.cpp:FindEdge_LookAllTriangles", "include/delfem2/dtri_topology.cpp:extractHoles"]}
{"id": "C66", "title": "Delaunay meshes of points in the plane", "statement": "DetDelaunay returns 3 for triangles of area below 1e-10 and otherwise says whether the fourth point is inside, on or outside the circle through the first three (with relative tolerance 1e-20). DelaunayAroundPoint on a consistent mesh of counter-clockwise triangles always ends without failed assertion, keeps the mesh consistent, every triangle counter-clockwise, the number of triangles, the covered area, the boundary edges and the points used, and at the end no point across an edge opposite to the given point is inside the circumcircle. AddPointsMesh inserts the point in the triangle or edge that has it, keeping orientation, area and boundary, leaves the mesh alone if the point is already used or beyond a boundary edge, and cannot abort if the point is strictly inside some triangle. Meshing_Initialize, when it finishes on points that span at least 1e-4, yields a consistent mesh with 2n+1 counter-clockwise triangles that covers exactly a triangle strictly containing all points, and uses every point. LaplacianArroundPoint moves an inner point to the mean of itself and its neighbours and leaves boundary points. Failing cases: a point inside a non-convex mesh may be silently left out, and a repeated point aborts.", "quantifier": "all point sets and consistent meshes of any size; negative parts exhibit meshes", "why_tests_cant": "All point sets and meshes; termination of flipping needs a potential argument.", "anchors": ["include/delfem2/vec2.cpp:DetDelaunay", "include/delfem2/dtri2_v2dtri.cpp:DelaunayAroundPoint", "include/delfem2/dtri2_v2dtri.cpp:AddPointsMesh", "include/delfem2/dtri2_v2dtri.cpp:Meshing_Initialize", "include/delfem2/dtri2_v2dtri.cpp:MakeSuperTriangle", "include/delfem2/dtri2_v2dtri.cpp:LaplacianArroundPoint"]}
{"id": "C67", "title": "Linear finite elements for the Poisson and the diffusion equation", "statement": "TriDlDx and TetDlDx give the affine functions that are one at a corner and zero at the others; TriArea2D and TetVolume3D are the signed area and volume. On meshes without flat elements, MergeLinSys_Poission adds to matrix and load the weak form of -div(alpha grad u) = source at the current values: for all piecewise linear fields the added quadratic form is the sum over the elements of alpha |e| grad u . grad v. What is added is symmetric, has zero row sums, is positive semidefinite if no element is inverted; with one fixed point per connected component the system after SetFixedBC has only one solution; adding its solution to the values makes the residual of the next assembly vanish at the free points; values of an affine function leave no residual at interior points (patch test). MergeLinSys_Diffusion adds the weak form of one time step: the updated velocity and value satisfy rho dw/dt - div(alpha grad w) = source in weak form at the new time, and the matrix is non-singular for positive rho.", "quantifier": "all triangle meshes in the plane and tetrahedral meshes in space, all sizes, values, coefficients and matrices that have the blocks; over the reals", "why_tests_cant": "All meshes, fields and coefficients.", "anchors": ["include/delfem2/femutil.cpp:TriDlDx", "include/delfem2/femutil.cpp:TetDlDx", "include/delfem2/fem_poisson.cpp:MergeLinSys_Poission_MeshTri2D", "include/delfem2/fem_poisson.cpp:MergeLinSys_Poission_MeshTet3D", "include/delfem2/fem_poisson.cpp:MergeLinSys_Diffusion_MeshTri2D", "include/delfem2/fem_poisson.cpp:MergeLinSys_Diffusion_MeshTet3D"]}
{"id": "C68", "title": "Linear elasticity: statics, Newmark, backward Euler and stiffness warping", "statement": "On meshes without flat elements the MergeLinSys functions of linear elasticity add to matrix and load the weak form of elastic equilibrium under gravity: for all piecewise linear displacement fields the added form is the sum over the elements of |e| (lambda div u div v + 2 mu strain(u) : strain(v)). What is added is symmetric, translations and infinitesimal rotations produce no force, the residual has the resultant and torque of gravity, the energy is not negative and vanishes only without strain. If every point is reached from fixed ones through elements with all other corners held, the system after SetFixedBC has only one solution; adding its solution to the displacement brings the free degrees of freedom into equilibrium. The Newmark and the backward Euler systems are the weak form of rho a + elastic force = rho g at the new time (consistent and lumped mass), and have only one solution for positive density. The stiffness-warped system with one matrix R at all points is the elastic one in the coordinates turned back by R: a body that the current step turns by R and shifts feels no elastic force, and with R = 1 it is the backward Euler step.", "quantifier": "all triangle meshes in the plane and tetrahedral meshes in space, all sizes, displacements, velocities, accelerations, material parameters, time steps and matrices that have the blocks; over the reals", "why_tests_cant": "All meshes, fields and material parameters.", "anchors": ["include/delfem2/femutil.cpp:SetEmatConsistentMassTet", "include/delfem2/fem_solidlinear.cpp:MergeLinSys_SolidLinear_Static_MeshTri2D", "include/delfem2/fem_solidlinear.cpp:MergeLinSys_SolidLinear_Static_MeshTet3D", "include/delfem2/fem_solidlinear.cpp:MergeLinSys_SolidLinear_NewmarkBeta_MeshTri2D", "include/delfem2/fem_solidlinear.cpp:MergeLinSys_SolidLinear_NewmarkBeta_MeshTet3D", "include/delfem2/fem_solidlinear.cpp:MergeLinSys_SolidLinear_BEuler_MeshTet3D", "include/delfem2/fem_solidlinear.cpp:MergeLinSys_SolidStiffwarp_BEuler_MeshTet3D"]}
{"id": "C69", "title": "Collision of convex hulls in the plane: GJK, separating axes and penetration", "statement": "For all finite point sets that are not empty the GJK test ends, after at most twice the product of the numbers of points and three iterations, and says that the convex hulls have a common point if and only if they do; the triangle of a collision has differences of points of the two sets as corners and contains the origin. The test with separating axes always ends; its answer 'apart' is right, and its answer 'collision' is right if the points are not all on parallel lines. The penetration is false if the hulls are apart. Whenever it returns a vector t for colliding sets (and the corners of the GJK triangle are different), t is the shortest separation up to the tolerance: no motion of the second set that is at most as long as t separates the hulls, and moving it by t lengthened by the tolerance does; it is returned, after at most three times the product of the numbers of points and one iterations, if the corners of the GJK triangle are on the boundary of the set of differences and not on a line. Refuted: for points on one line the separating axes always say 'collision'; for two sets with the same first and the same last point the loop of the penetration never ends.", "quantifier": "all finite lists of points that are not empty, all positive tolerances; over the reals, with 0/0 as NaN", "why_tests_cant": "All point sets, with ties, repeated and collinear points; termination of unbounded loops.", "anchors": ["include/delfem2/geo_gjksat2.h:FindFurthest", "include/delfem2/geo_gjksat2.h:FindIntersectingSimplexForGjk2", "include/delfem2/geo_gjksat2.h:IsIntersect_Points2_Points2_Gjk", "include/delfem2/geo_gjksat2.h:FindClosestEdge", "include/delfem2/geo_gjksat2.h:Penetration_Points2_Points2_Epa", "include/delfem2/geo_gjksat2.h:Range_ProjectionPointsOnAxis", "include/delfem2/geo_gjksat2.h:IsIntersect_Points2_Points2_Sat"]}
{"id": "C70", "title": "Nearest points of edges, lines, triangles and planes, and contact of edges", "statement": "For all points and edges the answer is a point of the edge with the returned parameter in [0,1]; it is the nearest one for edges of length 1e-10 or more, and never further than it by more than half of 1e-10. For all points and lines, all pairs of lines that are not parallel, and all edges and lines that are parallel or not nearly so, the answers are nearest points. A contact of two edges is reported only if they share no vertex and come within delta, and it is reported if the nearest points of their lines are on the edges and within delta. For all triangles that are not too small the answer for the origin is the nearest point with its barycentric coordinates; for a point off the plane of the triangle the answer is at least as near as every point of the triangle and is at most 0.0001 outside in barycentric coordinates. The foot of the perpendicular in the plane of a triangle is the nearest point of the plane. Refuted: every point strictly inside of a triangle and in its plane is moved to the border; triangles of twice the area between 1e-10 and 6e-10 fail an assertion; an edge beside the middle of a parallel longer one is not reported as contact; the projection of the first corner is 0/0.", "quantifier": "all points, edges, lines and triangles; over the reals, with 0/0 as NaN", "why_tests_cant": "All positions, with degenerate edges, parallel lines and flat triangles; optimality over all points of the sets.", "anchors": ["include/delfem2/geo_edge.cpp:Nearest_Origin_Edge", "include/delfem2/geo_edge.cpp:Nearest_Edge_Point", "include/delfem2/geo_edge.cpp:Distance_Edge_Point", "include/delfem2/geo_edge.cpp:Nearest_Edge3_Point3", "include/delfem2/geo_edge.cpp:Nearest_Edge3_Line3", "include/delfem2/geo_edge.cpp:Distance_Edge3_Edge3", "include/delfem2/geo_edge.cpp:IsContact_Edge3_Edge3_Proximity", "include/delfem2/geo_line.cpp:Nearest_Line3_Point3", "include/delfem2/geo_line.cpp:Nearest_Line3_Line3", "include/delfem2/geo_plane.cpp:Nearest_Origin3_PlaneTri3", "include/delfem2/geo_tri.cpp:Nearest_Origin3_Tri3", "include/delfem2/geo_tri.cpp:Nearest_Triangle3_Point3", "include/delfem2/geo_tri.cpp:ProjectPointOnTriangle", "include/delfem2/geo_tri.cpp:DistanceFaceVertex"]}
{"id": "C71", "title": "Intersection tests of edges, boxes, lines, rays, planes, triangles and tetrahedra", "statement": "For all edges in the plane: edges with a common point are reported, and a report is right unless the four ends are on one line. For all boxes and edges in the plane: a report is right, and an edge with two ends that is not reported misses the inside of the box. For all lines that are not parallel to a triangle the weights are those of the only point of the line in the plane of the triangle, and with no tolerance the answer tells whether the line meets the triangle; the ray test returns the common point of ray and triangle if and only if there is one. A point passes the inside test if and only if it is straight above, below or in the triangle. The intersection of a plane and a line is the only point of both. The weights of the origin in a tetrahedron are the only ones. For all pairs of triangles of a mesh: the reported edge is in both triangles; triangles in general position without a common corner are reported if and only if they have a common point, and the reported edge is the whole intersection; triangles with a common corner are never reported. Refuted: edges on one line that are a little apart are reported; an edge that is one point inside a box is not; a triangle behind the ray is reported by the first test; a ray in the plane of a triangle is not reported; triangles that cross are not reported if the second corner of one is in the plane of the other; an edge in the plane of the other triangle fails an assertion.", "quantifier": "all edges, boxes, lines, rays, triangles, tetrahedra and meshes; over the reals, with 0/0 as NaN", "why_tests_cant": "All positions, with parallel, touching and degenerate ones; existence and non-existence of common points.", "anchors": ["include/delfem2/geo_edge.cpp:IsIntersect_Edge2_Edge2", "include/delfem2/geo_edge.cpp:IsIntersect_AABB2_Edge2", "include/delfem2/geo_tri.cpp:IntersectRay_Tri3", "include/delfem2/geo_tri.cpp:isPointSameSide", "include/delfem2/geo_tri.cpp:isPointInsideTriangle", "include/delfem2/geo_tri.cpp:isRayIntersectingTriangle", "include/delfem2/geo_tri.cpp:isIntersectTriPair", "include/delfem2/geo_plane.cpp:Intersection_Plane3_Line3", "include/delfem2/geo_tet.cpp:barycentricCoord_Origin_Tet"]}
{"id": "C72", "title": "Bounding boxes, centres of gravity, areas and masses of meshes", "statement": "For all points the bounding box is the smallest box around them, whatever was in the output before; centre and widths are those of the box, also along three given directions, and for a group of triangles or of elements given by ranges exactly the corners of the elements of the group count; the size is the largest difference of two points in one coordinate. The centres of gravity of points, segments, triangles, chosen triangles and tetrahedra are the means of the middles weighted by length, area or signed volume, with the right total, and are not numbers exactly if the total is zero; those of points, segments and triangles are in the bounding box. The centre of the solid inside a closed surface moves with the points wherever the origin is, and is the centre of the tetrahedra the surface is the boundary of. The centres and the largest radius of triangles are exact. Every tetrahedron or triangle gives an equal part of its mass to each of its corners and the total mass is density times volume or area. Refuted: the box of a group of tetrahedra misses corners, because three corners per element are assumed; the centre of one triangle is 0.999999 times its middle.", "quantifier": "all arrays of points, segments, triangles and tetrahedra, all groups and flags; over the reals, with 0/0 as NaN", "why_tests_cant": "All sizes of meshes; invariance under translation and the divergence theorem for every closed surface.", "anchors": ["include/delfem2/msh_boundingbox.cpp:BoundingBox3_Points3", "include/delfem2/msh_boundingbox.cpp:CenterWidth_Points3", "include/delfem2/msh_boundingbox.cpp:GetCenterWidthLocal", "include/delfem2/msh_boundingbox.cpp:GetCenterWidthGroup", "include/delfem2/msh_boundingbox.cpp:Size_Points3D_LongestAABBEdge", "include/delfem2/msh_center_of_gravity.cpp:CG_MeshTri3_Solid", "include/delfem2/msh_center_of_gravity.cpp:CG_MeshTri3_Shell", "include/delfem2/msh_center_of_gravity.cpp:CG_MeshTet3", "include/delfem2/msh_center_of_gravity.cpp:CentsMaxRad_MeshTri3", "include/delfem2/mshmisc.cpp:MassPoint_Tet3D", "include/delfem2/mshmisc.cpp:Area_MeshTri3"]}
{"id": "C73", "title": "Editing and building meshes: cleaning, extruding, smoothing, joining, moving, normals", "statement": "Removing the unused points of a mesh keeps all elements, corner positions and the order of the used points, leaves no unused point, and reports the new number of every point. The quality of a triangulation is the exact largest aspect and smallest area. Extruding triangles gives the points of all layers, three tetrahedra of a third of the volume for each prism, and neighbouring prisms fit together: the faces of all tetrahedra cancel in pairs except the bottom, the top and the walls over the border. Smoothing puts every point in turn in the area-weighted centre of its triangles and no point leaves a box around the mesh. Joining keeps both meshes. Scaling, translating, rotating and normalising move every point as asked; rotating keeps distances; after normalising the box is centred at the origin with the longest side as asked. Normalised vectors are unit vectors in the same direction. Vertex normals of triangles and quads are the directions of the sums of the unit normals of the faces, and are not numbers for a vertex without faces. A mapped triangle is accepted exactly if it is not turned over and the ratios of area and sides are within the limits. Refuted: extrusion accepts a triangle with equal first and third corners and builds it from point 0; tangent vectors are not unit vectors.", "quantifier": "all arrays of points and elements, numbers of layers and dimensions; over the reals, with 0/0 as NaN", "why_tests_cant": "All meshes and sizes; that tetrahedra of neighbouring prisms match depends on the numbering of all points.", "anchors": ["include/delfem2/mshmisc.cpp:RemoveUnreferencedPoints_MeshElem", "include/delfem2/mshmisc.cpp:Quality_MeshTri2D", "include/delfem2/mshmisc.cpp:ExtrudeTri2Tet", "include/delfem2/mshmisc.cpp:LaplacianSmoothing", "include/delfem2/mshmisc.cpp:AddMesh", "include/delfem2/mshmisc.cpp:Distortion_MappingTriangleFrom2To3Dim", "include/delfem2/msh_affine_transformation.cpp:Rotate_Points3", "include/delfem2/msh_affine_transformation.cpp:Normalize_Points3", "include/delfem2/msh_affine_transformation.cpp:TangentVector_Points3", "include/delfem2/msh_normal.cpp:Normal_MeshTri3D", "include/delfem2/msh_normal.cpp:Normal_MeshQuad3"]}
{"id": "C74", "title": "Energies and constraints of springs, rods, shells and membranes with their derivatives", "statement": "Springs, edge-length constraints of triangles and tetrahedra, rods in the plane and in space, discrete shells, quadratic bending, Saint Venant-Kirchhoff membranes and the most isometric parameterization: every value is the one its definition gives (lengths, tangent of half an angle, cosine of the dihedral angle, cotangent-weighted sums, Green-Lagrange strains, elastic energy, distortion), and the gradient returned with it is its gradient: along every motion of the vertices the rate of the value is the power of the returned forces. The matrices of the spring and of the straight rod in space are the exact second derivatives, that of the rod in the plane is at rest, that of the membrane is wherever the stress is positive definite by the margin used, and the matrices of the planar rod and the membrane are always symmetric and positive semidefinite. Flat shapes mapped by any affine map have no bending energy. Refuted: the forces of the quadratic bending energy are its gradient (they are half of it); the positive part of a stress is kept by the projection (the other eigenvector is used); the matrix of the isometric parameterization is symmetric.", "quantifier": "all positions with lengths, areas and 1 + cosine above the threshold of the division, all motions through them; over the reals", "why_tests_cant": "Derivatives at all positions and in all directions; a finite difference test sees a few and with tolerance.", "anchors": ["include/delfem2/fem_distance3.cpp:WdWddW_SquareLengthLineseg3D", "include/delfem2/fem_distance3.cpp:CdC_LengthTriEdges23", "include/delfem2/fem_distance3.cpp:CdC_LengthTetEdges", "include/delfem2/fem_rod2.cpp:WdWddW_Rod2", "include/delfem2/fem_rod3_straight.cpp:CdC_Rod3BendStraight", "include/delfem2/fem_rod3_straight.cpp:WdWddW_Rod3BendStraight", "include/delfem2/fem_discreteshell.cpp:CdC_DiscreteShell", "include/delfem2/fem_quadratic_bending.cpp:CdC_QuadBend", "include/delfem2/fem_quadratic_bending.cpp:WdWddW_Bend", "include/delfem2/fem_stvk.cpp:CdC_StVK", "include/delfem2/fem_stvk.cpp:CdC_EnergyStVK", "include/delfem2/fem_stvk.cpp:WdWddW_CST", "include/delfem2/fem_stvk.cpp:MakePositiveDefinite_Sim22", "include/delfem2/fem_mips.cpp:WdWddW_MIPS"]}
{"id": "C75", "title": "Position based dynamics: steps, constraint projections, seams and rigid clusters", "statement": "A step moves the free points by their velocity with gravity, sets their velocity to the distance moved over the time step whatever the constraints did in between, and leaves the fixed points and their velocities alone. Projecting three constraints succeeds exactly when their gradients are independent; then only the listed points move, the constraints change to first order by minus the given part of their value, no other displacement doing that has less mass-weighted length, and linear and angular momentum stay when the constraints allow it. The strain projection of a triangle gives its edges their rest lengths to first order and keeps its centre and angular momentum; for any mesh the sum of positions and the points of no triangle stay, and a mesh with its rest lengths is unchanged. The bending projection is defined for every consistent mesh with a positively oriented rest shape, keeps the sum of positions, scales the bending vector of an edge by one minus the ratio, and leaves affine images of the rest shape unchanged. A seam moves two points together by a hundredth, or to their middle, and keeps their middle. Clusters in the plane keep the sum of positions; for moment matrices away from the special cases the points go the given part of the way to the rest shape turned by the rotation with the least squared distance, and a rigid copy of the rest shape is unchanged. Refuted: a cluster at rest is unchanged (a rectangle wider than high is moved to its centre); the rotational component of a matrix is a rotation (a reflection for a matrix that reverses the orientation).", "quantifier": "all arrays, masses, meshes, flags, clusters and stiffnesses for which the indices exist; over the reals", "why_tests_cant": "All positions and masses, and a comparison with all other displacements and all rotations; a test sees single configurations.", "anchors": ["include/delfem2/pbd_geo3.cpp:PBD_Pre3D", "include/delfem2/pbd_geo3.cpp:PBD_Post", "include/delfem2/pbd_geo3.cpp:PBD_Update_Const3", "include/delfem2/pbd_geo3.cpp:PBD_ConstProj_Rigid2D", "include/delfem2/pbd_geo3.cpp:PBD_Seam", "include/delfem2/pbd_stvk.h:PBD_TriStrain", "include/delfem2/pbd_bending_for_dtri.cpp:PBD_Bend", "include/delfem2/mat2.cpp:RotationalComponentOfMatrix2", "include/delfem2/mat3_funcs.cpp:Inverse_Mat3"]}
{"id": "C76", "title": "4x4 matrices: inverses, products, affine maps, rotations, projections, cameras and rays", "statement": "Inverting a 4x4 matrix gives its two-sided inverse for every invertible matrix, and divides by zero for every other; the same holds of the elimination with exchange of rows for any size, and the elimination without exchange gives the inverse whenever it does not set its flag to 1. Products of matrices act on points one after the other, transposes act from the other side, and the image of a point is its image in projective space. The matrices of translations, scalings, 3x3 matrices and vector products do what their names say; translating and rotating a matrix acts after it. A Rodriguez vector of length 2 tan(t/2) turns by t about its direction and a Cartesian vector of length t by t; both keep distances and orientation. The camera matrix is a rigid motion that takes the eye to the origin, the centre straight ahead along -z at its distance, and the up direction to the upper half of the yz plane. The orthographic projection takes the box and the perspective projection the frustum, and nothing else in front of the eye, to the cube [-1,1]^3. The ray of a pixel has a unit direction, starts over the centre of the pixel on the plane z=1, passes over it on the plane z=-1 in front, and stays over it. Refuted: a singular matrix is reported (the returned flag is never false); the flag 1 means singular; Cartesian vectors shorter than 1e-10 give rotations.", "quantifier": "all matrices of all sizes (inversion), all 4x4 matrices, points, vectors, angles, boxes, frusta, cameras and pixels; over the reals", "why_tests_cant": "All matrices and all sizes; a test sees single matrices.", "anchors": ["include/delfem2/mat4.cpp:CalcInvMat", "include/delfem2/mat4.cpp:CalcInvMatPivot", "include/delfem2/mat4.cpp:Inverse_Mat4", "include/delfem2/mat4.h:MatMat4", "include/delfem2/mat4.cpp:Mat4_AffineProjectionOrtho", "include/delfem2/mat4.cpp:Mat4_AffineProjectionFrustum", "include/delfem2/mat4.cpp:Mat4_AffineLookAt", "include/delfem2/mat4.cpp:Vec3_Mat4Vec3_Homography", "include/delfem2/mat4.cpp:Mat4_AffineRotationRodriguez", "include/delfem2/mat4.cpp:Mat4_AffineRotationCartesian", "include/delfem2/mat4.h:RayFromInverseMvpMatrix"]}
{"id": "C77", "title": "Searches on meshes: nearest points, signed distances, hits of lines and rays, tetrahedra of points, triangles around a point", "statement": "The nearest point of a mesh of triangles, of some of its triangles and of one triangle is a closest point of that set, with weights that are not negative. The signed distance to it has the sign of the side given by the normals, the distance as its absolute value, and a unit direction that leads to it. A line gives exactly its hits, in the order of the triangles. A ray gives its hits in front, with increasing keys; the key is the ray parameter (times the squared length of the direction in the whole-mesh form), every hit has its key, of equal keys the first triangle stays, and without tolerance the first entry is the first point of the ray on the mesh. A line against a height field gives exactly the hits of its triangles, and the position on the grid is the point that was hit. The weights of a point in a tetrahedron are unique and give the point back; the search gives the first tetrahedron with the point, or none; the walk gives a tetrahedron with the point or has left the mesh or made 50 steps. The nearest face of a mesh of tetrahedra has the nearest boundary point. The triangles around a point are those linked to the first one by neighbours in reach. Refuted: a ray through an edge reports both triangles; keys are distances along the ray; the walk finds a tetrahedron that has the point and is a neighbour; the weights of the nearest face are those of the nearest point; a sample finds itself in a sphere around it.", "quantifier": "all meshes, points, lines, rays, height fields, first guesses, adjacencies and samples (triangles not too small where a nearest point is asked for); over the reals", "why_tests_cant": "All meshes and query points; a test sees single queries.", "anchors": ["include/delfem2/srch_bruteforce.cpp:Nearest_Point_MeshTri3D", "include/delfem2/srch_bruteforce.cpp:Nearest_Point_MeshTri3DPart", "include/delfem2/srch_bruteforce.cpp:IntersectionLine_MeshTri3", "include/delfem2/srch_bruteforce.cpp:IntersectionRay_MeshTri3", "include/delfem2/srch_bruteforce.cpp:IntersectionRay_MeshTri3DPart", "include/delfem2/srch_bruteforce.cpp:IntersectionLine_Hightfield", "include/delfem2/srch_bruteforce.cpp:Nearest_Point_MeshTet3D", "include/delfem2/srch_bruteforce.cpp:Nearest_Point_MeshTetFace3D", "include/delfem2/srch_bruteforce.cpp:SDFNormal_NearestPoint", "include/delfem2/srch_bruteforce.cpp:DistanceToTri", "include/delfem2/srch_bruteforce.cpp:IndexesOfConnectedTriangleInSphere", "include/delfem2/srch_bruteforce.cpp:IsTherePointOnMeshInsideSphere", "include/delfem2/point_on_surface_mesh.cpp:PositionOnMeshTri3"]}
{"id": "C78", "title": "B-splines: the algorithm of de Boor, tables of coefficients, and derivatives", "statement": "For every degree, number of control points and rising knots the algorithm of de Boor gives the B-spline curve of the recursion of Cox and de Boor at every parameter from knot p to knot n that is not at most 1e-10 after an inner knot; it is a mean of the control points near the parameter, with weights that do not depend on them, and the end control points at ends with repeated knots. Outside of these parameters it reads control points that do not exist, and it divides by zero if the first span has length zero. Samples of a clamped curve go from the first control point to the last. The curve from tables of coefficients on uniform clamped knots is, for every degree, the B-spline curve of these knots, a mean of the control points, and runs from the first to the last one; its derivative function gives the derivative of the curve, and inside of the unit intervals both algorithms agree. Flat knots repeat each knot by its multiplicity and stay sorted. Refuted: sampling works for simple knots at the ends; just after a knot the answer stays within the control points.", "quantifier": "all degrees, numbers of control points, control points, knots and parameters; over the reals, for each coordinate of the points", "why_tests_cant": "All degrees, knots and parameters; a test sees single curves.", "anchors": ["include/delfem2/geo_curve_ndegree.h:FlatKnot", "include/delfem2/geo_curve_ndegree.h:DeBoorBSpline", "include/delfem2/geo_curve_ndegree.h:SampleBSpline", "include/delfem2/geo_curve_ndegree.h:Sample_BsplineCurveSegment", "include/delfem2/geo_curve_ndegree.h:Sample_BsplineCurve", "include/delfem2/geo_curve_ndegree.h:Sample_BsplineDerivative"]}
{"id": "C79", "title": "Fluids on grids: pressure, divergence, projection and advection", "statement": "For every size of the grid and all values: each iteration of the pressure solver is a sweep of Gauss and Seidel for the Poisson equation without flow through the border; the distance to any solution never grows, exactly the solutions are left unchanged, without sources no new extremes appear, and if the sources do not balance there is no solution and every iteration changes the array. The divergence of velocities at faces is the outflow of each cell divided by h, and its total is the flow through the border. Subtracting a pressure gradient keeps the velocities at the border and changes the divergence by the discrete Laplacian of the pressure, so the divergence becomes 0 in every cell when the pressure solves the equation with the matching factor. For velocities at cells the border is kept and the divergence changes by the Laplacian over two steps. Interpolation gives the values at nodes, means inside of the grid, and is exact for bilinear fields. Advection gives each velocity the one interpolated at the place dt against the flow, keeps constant fields, does nothing for dt=0, and stays within the old values if those places are in the grid; it fails on grids with one row or column of cells. Refuted: advection never makes velocities larger (it extrapolates outside of the grid); the divergence at cells has the sign of a divergence.", "quantifier": "all sizes of grids, velocities, pressures, sources, time steps, cell sizes and numbers of iterations; over the reals", "why_tests_cant": "All fields, sizes and numbers of iterations; a test sees single fields.", "anchors": ["include/delfem2/fdm_stablefluids.h:SolvePoissionEquationOnGrid2ByGaussSeidelMethod", "include/delfem2/fdm_stablefluids.h:Divergence_StaggerdGrid2", "include/delfem2/fdm_stablefluids.h:Divergence_CellCenteredGrid2", "include/delfem2/fdm_stablefluids.h:SubstructPressureGradient_StaggeredGrid2", "include/delfem2/fdm_stablefluids.h:SubstructPressureGradient_CellCenteredGrid2", "include/delfem2/fdm_stablefluids.h:AdvectionSemiLagrangian_StaggeredGrid2", "include/delfem2/fdm_stablefluids.h:AdvectionSemiLagrangian_CellCenteredGrid2", "include/delfem2/fdm_array2.h:FdmArray2", "include/delfem2/fdm_array2.h:LinearInterpolationOnGrid2"]}
{"id": "C80", "title": "Polylines: lengths, samples, nearest points, resampling and smoothing", "statement": "For every polyline: the length is the sum of the segments, and two of its points are never further apart than along it. A sample is the point with that parameter, the nearer end beyond the ends, and the points themselves at integers; the tangent is the vector along the segment of the parameter. The sample at the answered parameter of the nearest point is a point of the polyline and no other is nearer, if the first segment has a length; so is the point at the answered arc length, if no segment is shorter than 1e-10; no vertex is nearer than the answered one. Resampling with a positive step ends, its point k is at the length k*step, there are as many as there are such lengths before the end, and consecutive ones are at most a step apart. Smoothing changes at most four inner points around the given one, keeps the ends, changes nothing with factor 1 and leaves no half space that contains the polyline with factors from 0 to 1. The box is the smallest one; moving and turning keep distances and lengths. Refuted: tangents exist wherever samples do (an assertion fails from the last point on); nearest points of polylines that start with a repeated point; resampling ends for steps that are not positive.", "quantifier": "all polylines of any number of points, parameters, query points, steps and factors; over the reals", "why_tests_cant": "All polylines and steps; a test sees single curves and cannot see that a loop ends.", "anchors": ["include/delfem2/geo_polyline.h:Length_Polyline", "include/delfem2/geo_polyline.h:Sample_Polyline", "include/delfem2/geo_polyline.h:Tangent_Polyline", "include/delfem2/geo_polyline.h:Nearest_Polyline", "include/delfem2/geo_polyline.h:Smooth_Polyline", "include/delfem2/geo_polyline.h:ArcLengthPointInPolyline", "include/delfem2/geo_polyline.h:AABB_Polyline", "include/delfem2/geo_polyline.h:FindNearestPointInPoints", "include/delfem2/geo_polyline.cpp:Polyline_Resample_Polyline", "include/delfem2/geo_polyline.cpp:Translate", "include/delfem2/geo_polyline.cpp:Rotate"]}
{"id": "C81", "title": "Random numbers: generator, period, tent filter and directions", "statement": "For every seed: a call of the random number generator is one step of drand48 on the 48 bits of the seed, and the number is the new 48 bits divided by 2^48, from 0 to less than 1. The state returns exactly after the multiples of 2^48 calls, and within 2^48 calls every state and so every multiple of 2^-48 comes exactly once. The tent sample is from -1 to less than 1 and is the inverse of the distribution with density 1-|x|. Directions over the z axis have length 1 and height the first number or its root; directions around a unit normal have length 1 and make with it the angle whose cosine is the root of the first number, so are never below the surface. The Gaussian sample has the distance from the axis whose tail probability is the first number; the number 0 is outside of its domain. Refuted: the generator avoids undefined behaviour (products of int overflow for seeds whose third part is at least 36405).", "quantifier": "all seeds, numbers of calls, normals and numbers in the unit interval", "why_tests_cant": "A period of 2^48 calls and all seeds cannot be run.", "anchors": ["include/delfem2/sampling.h:MyERand48", "include/delfem2/sampling.h:RandomVec2", "include/delfem2/sampling.h:RandGaussVec3", "include/delfem2/sampling.h:SampleTent", "include/delfem2/sampling.h:SampleHemisphereZupUniform", "include/delfem2/sampling.h:SampleHemisphereZupCos", "include/delfem2/sampling.h:SampleHemisphereNormalCos"]}
{"id": "C82", "title": "Beams in the plane, and kinetic damping", "statement": "For every beam with different ends, stiffnesses and displacements: the element routine answers the gradient and the symmetric second derivative of the Euler-Bernoulli energy, which is never negative for stiffnesses that are not negative; the forces vanish exactly for small rigid motions; forces and moments at the ends balance; a clamped beam carries the force P across its free end at the displacement P L^3/(3 EI) and the rotation P L^2/(2 EI), and along it at P L/AE. Ends at the same place divide by zero. The kinetic damper, over every history of calls, sets the velocities to zero exactly in the calls from the fourth on where the last three kinetic energies have a peak in the middle, and otherwise leaves them. Refuted: a peak of the first three energies is found.", "quantifier": "all beams, stiffnesses, displacements and histories of velocities", "why_tests_cant": "Tests see a few beams and short histories.", "anchors": ["include/delfem2/fem_beam2.h:dWddW_Beam2", "include/delfem2/kinetic_damping.h:EnergyKinetic", "include/delfem2/kinetic_damping.h:CKineticDamper"]}
{"id": "C83", "title": "Kernels of particles on grids, and interpolation in images", "statement": "For every point and cell size: the cubic kernel of particles on grids is even, positive within two cells, 0 outside, at most 2/3; the derivatives answered are its derivatives everywhere. Over the nodes around any point in space the weights sum to 1, their first moments to 0, the second moments to a third of the squared cell size in each direction and 0 between directions, and the derivatives to 0. Bilinear interpolation in an image answers exactly for the points from 0 to less than the width and height; each colour is the bilinear mix of the four pixels around, with the last row and column repeated, lies from 0 to 1, and is the pixel at the place of a pixel; no read is outside of the image.", "quantifier": "all points, cell sizes, boxes of nodes and images", "why_tests_cant": "Partition of unity and derivatives hold at all real points, and reads at all edges of all images.", "anchors": ["include/delfem2/grid3hash.h:WGrid1Cubic", "include/delfem2/grid3hash.h:dWGrid1Cubic", "include/delfem2/grid3hash.h:WGrid3Cubic", "include/delfem2/grid3hash.h:dWGrid3Cubic", "include/delfem2/img_interpolation.cpp:ImageInterpolation_Bilinear"]}
{"id": "C84", "title": "Random points on meshes of triangles, and colours", "statement": "For every mesh, selection of triangles and pair of numbers: the sampler answers a selected triangle exactly if the first number falls into the open interval that is its share of the total area, so with a chance proportional to its area and never for a triangle without area; the two ratios are a point in the triangle, and every inner point comes from exactly two pairs of numbers, the place in the unit square and its mirror image, so points are uniform. Refuted: every number of the engine gives a point (0 and the ends of the shares fail an assertion). Colours from hue, saturation and value follow the standard formula, with the value as the greatest channel and the value times one minus the saturation as the least. Colour maps with increasing values give the first colour below, the last above and the straight mix between neighbours, without a division by zero; the heat map is the straight path from blue over cyan, green and yellow to red and agrees with the colour map of these colours.", "quantifier": "all meshes, selections, numbers drawn, hues, values and colour maps", "why_tests_cant": "Uniformity is a statement about all numbers that may be drawn, and the binary search must be right for all meshes.", "anchors": ["include/delfem2/sampler_trimesh.h:RandomSamplingOnMeshTri3", "include/delfem2/sampler_trimesh.h:RandomSamplingOnMeshTri3Selective", "include/delfem2/color.cpp:GetRGB_HSV", "include/delfem2/color.cpp:heatmap", "include/delfem2/color.cpp:getColor", "include/delfem2/color.cpp:ColorMap_BlueCyanGreenYellowRed"]}
{"id": "C85", "title": "Times when four moving points are in a plane", "statement": "For every four points that move along straight lines from time 0 to 1: the search for a time when they are in a plane fails no assertion; a time that it finds is from 0 to 1 and at most 2^-16 from a time from 0 to 1 when they are in a plane; it finds one whenever the side of the points differs between the times 0 and 1. If it finds none and the volume is a cubic function of the time whose third coefficient is more than 1e-30, or a linear function, then the points are never in a plane from 0 to 1, so no contact is missed; for a quadratic function their side never changes. Refuted: a touch is found also if the volume is a quadratic function (it is missed).", "quantifier": "all places of four points at the times 0 and 1", "why_tests_cant": "A missed contact needs only one motion among all; the claim is about all real times between 0 and 1.", "anchors": ["include/delfem2/geo_ccd.cpp:FindCoplanerInterp", "include/delfem2/geo_ccd.cpp:FindRootCubic_Bisect", "include/delfem2/geo_ccd.cpp:EvaluateCubic"]}
{"id": "C86", "title": "Meshes whose triangles do not share their data", "statement": "For every triangle mesh whose triangles name vertices that exist, and whatever the output arrays held before: the unshared coordinates have nine numbers for each triangle, and each corner has the coordinates of its vertex; the unshared normals of a triangle that is not flat are, at its three corners, one vector of length 1 along the area vector and at right angles to all sides; the unshared colours of a triangle are, at its three corners, the colour of its group; the sides of unshared triangles are, for each triangle, three sides from a corner to the next one, so for a mesh both ends are the vertices of the triangle. No array is read or written outside. A triangle that names a vertex that does not exist makes the program read outside of the array.", "quantifier": "all triangle meshes, groups and colours, and all contents of the output arrays before", "why_tests_cant": "The sizes of meshes are not bounded and the old contents of the arrays are arbitrary.", "anchors": ["include/delfem2/msh_unindexed.h:UnidexedVertexDataTriMesh", "include/delfem2/msh_unindexed.h:UnindexedNormalTriMesh3", "include/delfem2/msh_unindexed.h:UnindexedColorTriMesh3", "include/delfem2/msh_unindexed.h:UnindexedEdgeMesh3_UnindexedTrimesh3"]}
