c("C01","proved",["C01_ElSuP_exact"])
c("C02","proved",["C02_PSuP_exact"])
c("C03","proved",["C03_Sort_rows"])
c("C04","proved",["C04_AddDiagonal"],"Rows must have no repeated entries, as the function asserts.")
c("C05","proved",["C05_Extend"])
c("C06","proved",["C06_EdgeUnidir","C06_EdgeUnidir_reuse_refuted"],"Positive for an empty output index vector; the reuse failure is proved by a witness.")
c("C07","proved",["C07_ElSuEl","C07_face_tables"],"For every face table and mesh; the library's own tables are shown to list the geometric faces.")
c("C08","proved",["C08_MeshLine","C08_JArrayEdge","C08_edge_tables","C08_tet_refuted"],"Holds for triangle, quad and hexahedron tables; refuted for the tetrahedron table ({2,2} entry).")
c("C09","proved",["C09_Mark","C09_MakeGroup"])
c("C10","proved",["C10_Flip","C10_Flip_involution","C10_QuadSplit"])
c("C11","proved",["C11_Unify","C11_Unify_refuted"],"Positive under the stated pairing condition; the general claim is refuted by a witness on which the function aborts.")
c("C12","proved",["C12_Dihedral"])
c("C13","proved",["C13_InsertPoint_Elem"])
c("C14","proved",["C14_InsertPoint_ElemEdge"],"Interior edges, p not a corner of either triangle.")
c("C15","proved",["C15_FlipEdge","C15_FlipEdge_boundary","C15_FlipEdge_refuted"],"Flip keeps consistency when the edge is flippable; refuted without that condition (valence-3 end point).")
c("C16","proved",["C16_DeleteTri"])
c("C17","proved",["C17_history"],"Histories of insertions, edge insertions, flips, deletions and point additions, each allowed when issued.")
c("C18","proved",["C18_moves"])
c("C19","proved",["C19_InitializeMesh","C19_InitializeMesh_refuted"],"Requires that no two triangles share all three corners; refuted without (pillow).")
c("C20","proved",["C20_PSuP_dtri","C20_vertex0_refuted"],"Exact for every vertex but vertex 0, whose row is always empty (refuted).")
c("C21","proved",["C21_MatVec"],"Over any commutative ring (exact arithmetic).")
c("C22","proved",["C22_MatTVec","C22_adjoint","C22_MatVecDegenerate"],"Over any commutative ring (exact arithmetic).")
c("C23","proved",["C23_Merge4","C23_Mearge","C23_Merge2","C23_Merge4_detects","C23_zero_fill_refuted","C23_zero_fill_corrupts","C23_offset_diagonal_refuted","C23_failed_merge_leaves_buffer_dirty"],"Positive part requires that equal row and column blocks occur only at equal positions; the failure otherwise is proved by a witness.")
c("C24","proved",["C24_SetFixedBC"])
c("C25","proved",["C25_ScaleBlkLen","C25_ScaleBlk"])
c("C52","proved",["C52_forward_substitution","C52_backward_substitution","C52_solve_precond","C52_degenerate","C52_copy_value","C52_pattern_level0","C52_pattern_levels","C52_level_limit","C52_fill_minimal","C52_complete_pattern","C52_factorise","C52_factorise_complex","C52_incomplete_factorisation","C52_complete_factorisation_solves","C52_return_value_refuted","C52_empty_row_refuted"],"Over any field with the code's pivot tests. A block keeps the level of the first elimination that creates it (the code never lowers a level). The return value is true after up to ten singular pivots (refuted as a success flag).")
c("C53","proved",["C53_SetPattern","C53_setZero","C53_AddDia"])
c("C26","proved",["C26_storage","C26_Decompose_Solve","C26_Merge","C26_FixBC"],"Over any field-like scalar structure (exact arithmetic); hypothesis: every pivot block met is one the inverse routine inverts.")
c("C27","proved",["C27_storage","C27_Decompose_Solve","C27_Merge","C27_MergeBlock","C27_FixBC"],"As C26, at least four blocks (the code asserts this).")
c("C46","proved",["C46_Inverse_generic","C46_Inverse_1","C46_Inverse_2","C46_Inverse_3","C46_Inverse_Matrix","C46_no_pivoting_refuted"],"Two-sided inverse; no pivoting, so some invertible matrices are rejected (witness).")
c("C54","proved",["C54_Solve","C54_Merge","C54_Merge_rectangular_refuted"],"Merge proved for square element blocks; refuted for rectangular ones (inner loop bound).")
c("C28","proved",["C28_CG_residual","C28_PCG_residual","C28_CG_terminates","C28_PCG_terminates"],"Exact arithmetic over a field; the matrix is the block sparse matrix of C21.")
c("C29","proved",["C29_expandBits","C29_MortonCode","C29_dominance","C29_leading_zeros"],"Coordinates are exact rationals.")
c("C30","proved",["C30_tree","C30_single_refuted"],"At least two objects; with one object the stored node is its own child (refuted).")
c("C31","proved",["C31_mesh_boxes","C31_mesh_spheres","C31_point_spheres","C31_rebuild_refuted"],"Over the reals. Point leaf-maker: built into an empty array; rebuilding is refuted.")
c("C32","proved",["C32_query","C32_box_point","C32_sphere_queries"],"Any monotone predicate, and the library's own predicates on nested volumes.")
c("C33","proved",["C33_nearest","C33_range","C33_end_to_end"],"Over the reals; end to end from sorted Morton codes.")
c("C34","proved",["C34_box_merge","C34_box_addpoint","C34_box_tests","C34_sphere_addpoint","C34_sphere_merge","C34_sphere_tests","C34_sphere_range","C34_sphere_line_ray","C34_sphere_setpoints","C34_sphere_inactive_refuted"],"Over the reals.")
c("C35","proved",["C35_hops","C35_assert"],"For any priority queue whose top is a least entry (ties broken in any way).")
c("C36","proved",["C36_points","C36_assert","C36_source_refuted"],"Distances over the reals. The value at the source is a round trip (refuted: not 0).")
c("C55","proved",["C55_geo","C55_fill","C55_clustering"],"Distances over the reals for C55_geo. Clustering: at most as many clusters as elements.")
c("C37","proved",["C37_eval","C37_bracketed","C37_unknown","C37_setkey","C37_sign_refuted"],"Any arithmetic with commuting addition and multiplication. All spellings of the right-grouping grammar, not only bracketed ones. Leading signs only without assert; with assert they abort (refuted).")
c("C38","proved",["C38_chain","C38_left_refuted"],"The refutation is over the reals.")
c("C39","proved",["C39_Split","C39_Split_set","C39_Split_Parentheses","C39_Split_Quote","C39_empty","C39_trailing_refuted"],"Split_Quote: delimiter different from the quote.")
c("C56","proved",["C56_Remove_Replace","C56_RemoveBeginning","C56_RemoveBeginning_refuted","C56_Remove_Quote","C56_Get_Parentheses","C56_Get_Parentheses_refuted"])
c("C57","proved",["C57_XML","C57_trailing_refuted"])
c("C58","proved",["C58_CSV","C58_ParseAttributes","C58_ParseAttributes_refuted","C58_Json","C58_Json_refuted","C58_Json_blank_refuted"],"Number conversion (std::stod) is a parameter.")
c("C40","proved",["C40_history","C40_flags","C40_EdgeIndexes_Face","C40_FindFaceIndexes_IncludeEdge","C40_VertexIndexs_Face","C40_isolated_refuted"])
c("C41","proved",["C41_ConstructKDT","C41_SearchNearstPoint"],"Over the reals.")
c("C42","proved",["C42_once","C42_once2","C42_terminates","C42_error","C42_throw_raises","C42_zero_refuted","C42_wrap_refuted"],"Sequentially consistent atomics; T unsigned.")
c("C43","proved",["C43_Adj_Grid","C43_MeshQuad","C43_MeshHex","C43_MeshTet","C43_Dilation","C43_Erosion","C43_AABB","C43_set_order_refuted"],"Machine integers do not overflow.")
c("C44","proved",["C44_read_refuted","C44_ranges","C44_OneRing","C44_Initialize"],"Coordinates are reals; std::sort is any sorting function.")
c("C45","proved",["C45_Eval","C45_Quadratic","C45_linear_refuted","C45_Bisection","C45_exact_root_refuted"],"Over the reals.")
c("C47","proved",["C47_QuatQuat","C47_QuatVec","C47_matrices","C47_Quat_Mat3","C47_Normalize","C47_CartesianAngle","C47_small_angle_refuted","C47_Bryant","C47_EulerAngle","C47_slerp"],"Over the reals.")
c("C48","proved",["C48_Cubic","C48_Quadratic","C48_Split","C48_Polyline","C48_Polyline_single_refuted","C48_Area","C48_AABB","C48_AABB_tiny_refuted","C48_Nearest","C48_Nearest_point_refuted","C48_Length","C48_Length_line_refuted"],"Over the reals extended with infinities and NaN where the code divides or takes roots. The quadrature branch of the length (quadratic coefficient below 1e-5) is not modelled.")
c("C49","proved",["C49_quad_topology","C49_quad_geometry","C49_hex_topology","C49_hex_geometry","C49_catmull_clark","C49_reuse_refuted","C49_tet_refuted","C49_isolated_refuted"],"Over the reals for positions. SubdivisionPoints_Tet is not modelled because the topology step aborts.")
c("C50","proved",["C50_CgArea","C50_CgArea_symmetries","C50_Polar","C50_SecondMoment","C50_SecondMoment_square_refuted","C50_Length"],"Over the reals. Area_Polygon and Polygon_Resample_Polygon cannot be instantiated (missing Area_Tri/Length) and are not modelled.")
c("C51","proved",["C51_pairs_and_singles","C51_no_neighbours_left","C51_ties_leave_neighbours_refuted","C51_merged_points","C51_area_and_moments","C51_quotient_graph"],"Over the reals. Maximality of the matching holds without equal ratios and is refuted with equal ratios: std::set keeps one edge per score.")
c("C59","proved",["C59_JArray","C59_FixLoopOrientation","C59_ResamplingLoop","C59_resampled_edges","C59_pipeline","C59_clockwise_refuted","C59_self_crossing","C59_cross_loops_refuted"],"Over the reals. Resampling is proved for loops stored in vertex order (what JArray_FromVecVec_XY makes); for reversed loops it is refuted. IsInclude_Loop is not modelled.")
c("C60","proved",["C60_linear_program_solved","C60_inconsistent_rejected","C60_rejection_means_inconsistent","C60_out_of_iterations_refuted","C60_lower_bound_only_refuted","C60_redundant_equality_refuted","C60_prepare_twice_refuted"],"Over every ordered field with exact arithmetic; assertions on. That the simplex iterations end within a given number is not claimed (the pivoting rule can cycle).")
c("C61","proved",["C61_convex_hull","C61_two_points_refuted","C61_point_on_first_side_refuted","C61_point_on_last_side_refuted"],"Over the reals; std::sort is any sorting function. Point sets with two points in an extreme direction are refuted.")
c("C62","proved",["C62_sphere","C62_cylinder_closed","C62_cylinder_open","C62_disk","C62_capsule","C62_capsule_no_cylinder_refuted","C62_torus","C62_torus_two_segments_refuted","C62_cube","C62_icosahedron","C62_degenerate","C62_quad_grid","C62_hex_grid"],"Over the reals; the ten-digit pi of the source is kept, and its distance to PI is proved (PrimPi). No overflow of the vertex numbers. The analytic shape classes of msh_primitive.cpp are not modelled.")
c("C63","proved",["C63_pattern","C63_matrix","C63_load","C63_solution","C63_pipeline","C63_rigid_cluster","C63_lone_slave_refuted","C63_adjacent_slaves_refuted"],"Over every commutative ring, all sizes. C63_matrix assumes the stored blocks suffice (ms_closed); C63_pipeline discharges this from a condition on the mesh and the flags, C63_rigid_cluster gives the common case; the two refuted theorems show that outside the condition SetMasterSlave fails its assertion. Copying master values to slaves after the solve is done by the caller (examples) and is part of the statement of C63_solution.")
c("C64","proved",["C64_collapse","C64_when","C64_manifold","C64_history","C64_edge_once_refuted"],"std::sort and std::set_intersection of the two rings are modelled as a test for a common element. Edges without neighbour reach assert(0) in the code and are excluded.")
c("C65","proved",["C65_asserts","C65_corners","C65_neighbours","C65_neighbours_boundary","C65_find_edge","C65_find_edge_all","C65_holes","C65_asserts_corner_refuted","C65_corners_boundary_refuted","C65_holes_bowtie_refuted"],"The stored corner of the point is a hypothesis (points that no triangle uses have none). The multimap of boundary edges is a list in insertion order.")
c("C66","proved",["C66_circle_test","C66_delaunay","C66_add_point","C66_initialize","C66_laplacian","C66_add_outside_refuted","C66_duplicate_refuted"],"Over the reals. That the finished triangulation is Delaunay at every edge is not claimed (the code flips around the new point only once and the mesh has a super triangle). C66_initialize speaks of runs that finish; a point within the area tolerance of all triangles aborts (C66_duplicate_refuted).")
c("C67","proved",["C67_shape_tri","C67_shape_tet","C67_measure","C67_gradient","C67_poisson","C67_symmetric","C67_constants","C67_semidefinite","C67_solvable","C67_newton","C67_patch","C67_diffusion","C67_diffusion_step","C67_diffusion_solvable"],"Over the reals; the decimal literals for 1/3, 1/6 and 1/12 are modelled as exact fractions. Elements have pairwise different corners. The quadrature, quad and hex elements of fem_poisson/femutil are not modelled.")
c("C68","proved",["C68_gradient","C68_static","C68_newmark","C68_beuler","C68_stiffwarp","C68_symmetric","C68_rigid","C68_balance","C68_semidefinite","C68_kernel","C68_solvable","C68_newton","C68_newmark_step","C68_newmark_solvable","C68_beuler_step","C68_beuler_solvable","C68_stiffwarp_rigid","C68_stiffwarp_identity"],"Over the reals; decimal literals for fractions are modelled exactly. Stiffness warping: the weak form is stated for the same matrix at all points; with different matrices at the corners of an element the matrix is not symmetric (C68_stiffwarp_asymmetric_refuted); the example 603 solves it with BiCGStab, which does not need symmetry.")
c("C69","proved",["C69_gjk","C69_simplex","C69_sat","C69_sat_line_refuted","C69_epa_apart","C69_epa_result","C69_epa","C69_epa_same_refuted"],"Over the reals, with CVec2 as the vector type (its normalize divides zero by zero; NaN is modelled). The refuted claims are that the separating-axis test is right for all point sets (C69_sat_line_refuted) and that the penetration always returns (C69_epa_same_refuted).")
c("C70","proved",["C70_nearest_point_of_an_edge","C70_nearest_point_of_an_edge_2","C70_nearest_point_of_an_edge_to_the_origin","C70_nearest_point_of_a_line","C70_nearest_points_of_two_lines","C70_nearest_points_of_an_edge_and_a_line","C70_reported_contact_is_near","C70_near_edges_are_in_contact","C70_distance_of_edges_is_that_of_their_lines","C70_nearest_point_of_a_triangle_to_the_origin","C70_nearest_point_of_a_triangle","C70_nearest_point_of_the_border","C70_point_inside_its_triangle_is_moved","C70_small_triangles_fail_an_assertion","C70_nearest_point_of_the_plane","C70_distance_of_the_plane","C70_projection_of_the_first_corner_refuted","C70_nested_parallel_edges_refuted"],"Over the reals. The refuted claims are: the nearest point of a triangle for points in its plane (C70_point_inside_its_triangle_is_moved), that small triangles are handled (C70_small_triangles_fail_an_assertion), that near edges are always reported (C70_nested_parallel_edges_refuted), and that the projection of a corner exists (C70_projection_of_the_first_corner_refuted). Nearest_Plane3_Point3 and Distance_Edge2_Edge2 are not modelled: their bodies do not compile when instantiated.")
c("C71","proved",["C71_edges_in_the_plane","C71_edges_apart_refuted","C71_box_and_edge","C71_box_and_edge_refuted","C71_line_and_triangle","C71_triangle_behind_the_ray_refuted","C71_point_above_triangle","C71_ray_and_triangle","C71_ray_in_the_plane_refuted","C71_plane_and_line","C71_plane_with_normal_and_line","C71_origin_in_tetrahedron","C71_triangle_pair_sound","C71_triangle_pair_exact","C71_triangle_pair_common_corner","C71_triangle_pair_refuted"],"Over the reals. The theorems ending in _refuted give the inputs for which the claim does not hold: see the statement.")
c("C72","proved",["C72_bounding_box","C72_center_and_width","C72_center_and_width_local","C72_group_of_triangles","C72_group_of_ranges","C72_group_of_tetrahedra_refuted","C72_longest_edge","C72_centre_of_points","C72_centre_of_segments","C72_centre_of_triangles","C72_centre_of_chosen_triangles","C72_centre_of_tetrahedra","C72_area_of_chosen_triangles","C72_centres_in_box","C72_centre_of_one_triangle","C72_centre_of_one_triangle_refuted","C72_centres_and_radius","C72_centre_of_solid","C72_centre_of_closed_solid_moves","C72_centre_of_boundary","C72_masses_of_tetrahedra","C72_masses_of_triangles","C72_masses_of_plane_triangles"],"Over the reals. The theorems ending in _refuted give the inputs for which the claim does not hold: see the statement.")
c("C73","proved",["C73_remove_unused","C73_quality","C73_extrude","C73_extrude_check_refuted","C73_smoothing","C73_add_mesh","C73_scale","C73_translate","C73_translate3","C73_rotate","C73_normalize","C73_normalize_vectors","C73_tangent","C73_tangent_unit_refuted","C73_normal_tri","C73_unit_normal","C73_normal_isolated","C73_normal_quad","C73_distortion","C73_mean_ratio"],"Over the reals. The theorems ending in _refuted give the inputs for which the claim does not hold: see the statement.")
c("C74","proved",["C74_spring","C74_edges","C74_rod_plane","C74_rod_plane_stable","C74_rod_space","C74_shell","C74_bending","C74_bending_flat","C74_bending_force_refuted","C74_membrane_flat","C74_membrane","C74_membrane_hessian","C74_positive_part_refuted","C74_mips","C74_mips_hessian_refuted"],"Over the reals, at positions where no divisor is below the threshold of the code. The theorems ending in _refuted give the inputs for which the claim does not hold: see the statement.")
c("C75","proved",["C75_step","C75_update","C75_strain_one","C75_strain","C75_strain_rest","C75_bend","C75_bend_rest","C75_bend_one","C75_seam","C75_seam_one","C75_rigid_sum","C75_rigid","C75_rigid_rest","C75_rigid_rest_refuted","C75_rotation","C75_rotation_refuted"],"Over the reals; quotients by zero are failures of the model. The theorems ending in _refuted give the inputs for which the claim does not hold: see the statement.")
c("C76","proved",["C76_gauss","C76_gauss_refuted","C76_pivot","C76_pivot_refuted","C76_inverse","C76_product","C76_homography","C76_affine","C76_affine_then","C76_rodriguez","C76_cartesian","C76_cartesian_refuted","C76_lookat","C76_ortho","C76_frustum","C76_ray"],"Over the reals; a division by zero in the elimination is a failure of the model. The theorems ending in _refuted give the inputs for which the claim does not hold: see the statement.")
c("C77","proved",["C77_points_on_meshes","C77_points_on_faces","C77_normals_on_meshes","C77_nearest_point","C77_nearest_point_of_part","C77_distance_to_triangle","C77_signed_distance","C77_line_and_mesh","C77_ray_and_mesh","C77_first_hit","C77_ray_and_part","C77_height_field","C77_points_on_height_fields","C77_weights_in_tetrahedra","C77_face_of_a_point","C77_tetrahedron_of_a_point","C77_walk_to_a_point","C77_nearest_face","C77_triangles_around_a_point","C77_samples_around_a_sample","C77_hits_on_edges_refuted","C77_keys_are_distances_refuted","C77_walk_finds_the_tetrahedron_refuted","C77_weights_of_nearest_face_refuted","C77_samples_near_refuted"],"Over the reals. The theorems ending in _refuted give the inputs for which the claim does not hold: see the statement.")
c("C78","proved",["C78_flat_knots","C78_de_boor","C78_de_boor_means","C78_de_boor_ends","C78_de_boor_fails","C78_samples","C78_uniform","C78_uniform_means","C78_uniform_ends","C78_uniform_derivative","C78_uniform_derivative_inside","C78_algorithms_agree","C78_simple_end_knots_refuted","C78_mean_after_a_knot_refuted"],"Over the reals; points are modelled by one coordinate, since the templates use only sums and products with numbers. The theorems ending in _refuted give the inputs for which the claim does not hold: see the statement.")
c("C79","proved",["C79_sweeps","C79_error_never_grows","C79_unchanged","C79_no_new_extremes","C79_balance","C79_divergence","C79_gradient","C79_projection","C79_cell_divergence","C79_cell_projection","C79_interpolation","C79_thin_grids_fail","C79_advection","C79_advection_keeps","C79_advection_fails","C79_cell_advection","C79_advection_bounded_refuted","C79_cell_divergence_sign_refuted"],"Over the reals. The theorems ending in _refuted give the inputs for which the claim does not hold: see the statement.")
c("C80","proved",["C80_length","C80_sample","C80_tangent","C80_tangent_after_end_refuted","C80_nearest","C80_nearest_repeated_start_refuted","C80_nearest_vertex","C80_arc_length","C80_resample","C80_resample_ends_refuted","C80_smooth","C80_smooth_stays","C80_box","C80_motions"],"Over the reals. The theorems ending in _refuted give the inputs for which the claim does not hold: see the statement.")
c("C81","proved",["C81_generator","C81_period","C81_every_number_once","C81_no_overflow_refuted","C81_pairs","C81_tent","C81_hemisphere","C81_hemisphere_normal","C81_gauss"],"The generator over integers of the sizes of the C++ types, with int overflow wrapping around; samples over the reals. The theorem ending in _refuted gives the seeds with undefined behaviour.")
c("C82","proved",["C82_energy","C82_same_ends_fail","C82_rigid_motions","C82_balance","C82_cantilever","C82_bar","C82_damping","C82_first_peak_refuted"],"Over the reals. The theorem ending in _refuted shows that the damper misses a peak of the first three energies.")
c("C83","proved",["C83_kernel","C83_partition","C83_derivative","C83_image","C83_image_range"],"Over the reals and integers without bounds.")
c("C84","proved",["C84_sample","C84_sample_selective","C84_inside","C84_twice","C84_every_number_refuted","C84_hsv","C84_color_map","C84_heatmap"],"Over the reals, with the drawn numbers as arguments. The theorem ending in _refuted shows that the number 0 fails.")
c("C85","proved",["C85_found","C85_crossing","C85_none_cubic","C85_none_quadratic","C85_touch_refuted"],"Over the reals. The theorem ending in _refuted gives a touch that is missed.")
c("C86","proved",["C86_vertices","C86_normals","C86_colours","C86_sides","C86_sides_of_mesh","C86_vertices_outside"],"Over the reals. The flags of groups are taken as natural numbers.")
