{"claims": [
{"property": "C01", "status": "proved", "theorems": ["hil_literal", "hil_literal_unique", "hil_literal_escape", "hil_literal_stored", "hil_literal_unclosed"], "note": "for every host"},
{"property": "C02", "status": "proved", "theorems": ["hil_operator_table", "hil_decimal", "hil_expression", "hil_program"], "note": "doubles, files, shell and callbacks are an arbitrary host; expressions that concatenate while format_double is a Heisenberg variable are left unspecified"},
{"property": "C03", "status": "proved", "theorems": ["hil_macro", "hil_macro_named", "hil_conditional", "hil_macro_blanks_refuted"], "note": "operand written in the documented grammar at the tightest level, up to blanks; hil_macro_blanks_refuted shows the manual's wording fails for blanks after the operand"},
{"property": "C04", "status": "proved", "theorems": ["namespace_one_type", "namespace_type_stable", "namespace_assign", "namespace_create", "namespace_read_back"], "note": "Any history of create/assign/assign_default/push-super operations on one namespace. A rejected operation leaves the namespace as it was by construction of run_ops (the C++ throws before modifying a map)."},
{"property": "C05", "status": "partial", "theorems": ["namespace_lookup_refuted", "namespace_exists_sound", "namespace_lookup_partial"], "note": "Full statement is false (namespace_lookup_refuted): exists_recursive uses all_of over the direct supers with the non-recursive exists. Proved: soundness of exists_recursive for every hierarchy; documented search for hierarchies one level deep; agreement for one super of depth one (as built by Interpreter::make_sub on a main interpreter). Missing: deeper hierarchies, several supers."},
{"property": "C06", "status": "partial", "theorems": ["hil_sequence_partial", "hil_sequence_refuted"], "note": "the full statement is false, see hil_sequence_refuted ({a};#{b}); proved when the second statement does not start with an operator sign"},
{"property": "C07", "status": "partial", "theorems": ["hil_exit_partial", "hil_exit_refuted"], "note": "the full statement is false, see hil_exit_refuted (the program exit); proved for variables without an exit callback"},
{"property": "C08", "status": "proved", "theorems": ["tree_find_leaf", "tree_find_leaf_throws", "tree_find_leaf_pos"], "note": "integers unbounded, positions exact rationals, box positions as functions of the dimension index"},
{"property": "C09", "status": "proved", "theorems": ["tree_find_neighbors", "tree_face_neighbors"], "note": "for every direction vector, not only face directions"},
{"property": "C10", "status": "proved", "theorems": ["tree_structure", "tree_children_partition", "tree_count", "tree_refine_unrefine", "tree_refine_nonleaf", "tree_unrefine_leaf"], "note": "over all histories of refine, unrefine, status and element updates and flood fills"},
{"property": "C100", "status": "partial", "theorems": ["atmosphere_decreasing_partial", "atmosphere_decreasing_refuted", "atmosphere_jump"], "note": "The full statement is refuted: 1e-10 m below each of the six bases the pressure jumps up. Proved for all other altitudes."},
{"property": "C101", "status": "proved", "theorems": ["integral_sum", "integral_exact", "integral_area", "integral_change", "integral_conserved"], "note": "exact for elements given by their vertices (no snapped faces); the quadrature sum itself holds for all meshes. integral_conserved is stated for the first stage; integral_change links every theorem of Spatial_Thm"},
{"property": "C102", "status": "proved", "theorems": ["integral_surface_sum", "integral_length"], "note": "the length is proved for unsnapped elements in two dimensions"},
{"property": "C103", "status": "proved", "theorems": ["expr_parse", "expr_lengths", "expr_eval", "expr_eval_defined"], "note": "ASCII text; the interpreter is an arbitrary pair of functions"},
{"property": "C104", "status": "partial", "theorems": ["expr_malformed_refuted", "expr_malformed_partial"], "note": "refuted: a blank side takes front() of an empty string; what holds: any other ASCII code is made of proper statements, for which C103 applies"},
{"property": "C105", "status": "proved", "theorems": ["linearized_vectors", "linearized_inner", "linearized_state", "linearized_start"], "note": "the explicit update is any function that keeps the vectors from -1 on"},
{"property": "C106", "status": "partial", "theorems": ["linearized_operator_refuted", "linearized_operator_partial", "linearized_rhs_refuted", "linearized_rhs_partial", "linearized_reference_refuted", "linearized_reference_partial"], "note": "refuted: the operator subtracts the residual cache, the right hand side is always zero, the reference momentum is sqrt(n_dim) times the density; the partial theorems say what is computed. That update_implicit leaves the storage is gmres_storage_refuted"},
{"property": "C107", "status": "proved", "theorems": ["doublet_velocity", "doublet_wall", "doublet_thermodynamics", "doublet_defined", "doublet_far", "doublet_line"], "note": "exact arithmetic with real functions"},
{"property": "C108", "status": "partial", "theorems": ["doublet_axial_refuted", "doublet_axial_partial"], "note": "refuted: the axial momentum is copied instead of the axial velocity"},
{"property": "C109", "status": "proved", "theorems": ["smooth_roughness", "smooth_average", "smooth_normalized"], "note": "exact real arithmetic; one element and variable at a time"},
{"property": "C11", "status": "proved", "theorems": ["tree_flood_fill", "tree_flood_fill_throws"], "note": "for a call on a leaf (calls on non-leaves: C44)"},
{"property": "C110", "status": "proved", "theorems": ["smooth_viscosity", "smooth_viscosity_zero", "smooth_viscosity_units", "smooth_viscosity_monotone", "smooth_viscosity_two"], "note": "exact real arithmetic; one element at a time"},
{"property": "C111", "status": "proved", "theorems": ["filter_modes", "filter_identity", "filter_constant", "filter_conserves", "filter_homogeneous"], "note": "exact real arithmetic"},
{"property": "C112", "status": "proved", "theorems": ["artvisc_elwise", "artvisc_interpolated", "artvisc_continuous", "artvisc_spread"], "note": "one element, exact real arithmetic; matching of hanging vertices not modelled"},
{"property": "C113", "status": "proved", "theorems": ["artvisc_velocity", "artvisc_restores", "artvisc_bound"], "note": "exact real arithmetic; advection and diffusion in between are arbitrary functions that do not write the flow state"},
{"property": "C114", "status": "proved", "theorems": ["admis_check", "admis_flow", "admis_admitted"], "note": "exceptions of parallel loops are those of the sequential loop"},
{"property": "C115", "status": "proved", "theorems": ["admis_unchanged", "admis_runs", "admis_fixed", "admis_coefs"], "note": "check, coefficients and smearing of the loop are arbitrary functions; matching of hanging vertices not modelled"},
{"property": "C116", "status": "partial", "theorems": ["admis_viscosity_partial", "admis_viscosity_refuted", "admis_laplacian_lost"], "note": "the bulk viscosity is kept; the Laplacian viscosity is overwritten (refuted)"},
{"property": "C117", "status": "proved", "theorems": ["gas_quantities", "gas_stagnation"], "note": "exact real arithmetic"},
{"property": "C118", "status": "proved", "theorems": ["gas_pressure_stress", "gas_stress"], "note": "exact real arithmetic"},
{"property": "C119", "status": "partial", "theorems": ["gas_heat_flux_partial", "gas_heat_flux_refuted"], "note": "the sign is the opposite of the documented one (refuted); the magnitude is right"},
{"property": "C12", "status": "proved", "theorems": ["tree_file_round_trip"], "note": "HDF5 table modelled as an association list of rows"},
{"property": "C120", "status": "proved", "theorems": ["gas_transport"], "note": "exact real arithmetic"},
{"property": "C121", "status": "proved", "theorems": ["report_columns", "report_width", "report_default", "report_empty"], "note": "report_empty: without labels header() pops from an empty string, which is undefined behaviour"},
{"property": "C13", "status": "proved", "theorems": ["mutual_ptr_mutual", "mutual_ptr_safe", "mutual_ptr_pair", "mutual_ptr_unpair", "mutual_ptr_destroy", "mutual_ptr_move_construct", "mutual_ptr_move_assign", "mutual_ptr_partner_type", "mutual_ptr_get"], "note": ""},
{"property": "C14", "status": "proved", "theorems": ["vertex_history", "vertex_defined", "vertex_handles", "vertex_merge", "vertex_merged_forever", "vertex_mean"], "note": "Every history of the operations of Vertex, Transferable_ptr and Non_transferable_ptr refines a specification with no bookkeeping. Mass = number of handles; the mean-position theorem is for histories without copies, moves, destructions and reassignments."},
{"property": "C15", "status": "proved", "theorems": ["container_serial_numbers", "container_purge_report", "container_histories_run"], "note": "for histories of fewer than 2^31 calls (int serial counter)"},
{"property": "C16", "status": "proved", "theorems": ["erase_if_keeps", "erase_if_pure"], "note": ""},
{"property": "C17", "status": "proved", "theorems": ["vector_view_enumerates", "sequence_view_enumerates", "concatenation_enumerates", "index_enumerates", "connection_view_enumerates"], "note": ""},
{"property": "C18", "status": "proved", "theorems": ["connected_vertices_glued", "gluing_is_rotation", "glued_by_rotation", "flip_normal_points_across", "cartesian_direction"], "note": "1 to 3 dimensions, by enumeration of all allowed face pairs."},
{"property": "C19", "status": "proved", "theorems": ["face_partner_unique", "match_faces_correct"], "note": "Any row size, number of variables and data type; the gluing relation is the same as for C18 with rs-1 instead of 1 as the largest coordinate."},
{"property": "C20", "status": "proved", "theorems": ["rows_partition_element", "row_points_unique", "write_row_only_row", "read_row_correct", "row_bounds_correct"], "note": "Exact reals instead of double; int overflow not modelled. The six face arrays are distinct arrays."},
{"property": "C21", "status": "proved", "theorems": ["element_blocks_disjoint", "residual_cache_room", "vertex_values_separate", "pde_offsets_agree", "connection_blocks_disjoint", "face_pointer_agrees", "coarse_storage_fits"], "note": "The residual cache and the later stages share storage by design; room and disjointness from the other blocks is proved. coarse_storage_fits shows the coarse side of hanging-node connections has room iff row_size <= 2*n_dim+6."},
{"property": "C22", "status": "proved", "theorems": ["history_bounds", "history_factor"], "note": "double as R; growth factor is Rpower(1/(1-w),1/N)"},
{"property": "C23", "status": "proved", "theorems": ["simplex_nearest", "simplex_nearest_any_tree"], "note": "The tree, its construction, the doubling of the guess and the projection on segments and triangles are modelled; arithmetic is exact. simplex_sort_refuted shows that more than 100 copies of a point simplex make the construction endless."},
{"property": "C24", "status": "partial", "theorems": ["simplex_intersections_partial", "simplex_intersections_refuted", "simplex_sort_refuted"], "note": "False in full: the radius of the ball around a node is used where its square is needed, so crossings are missed if a node is larger than 1 (simplex_intersections_refuted). Proved for surfaces of extent at most 1."},
{"property": "C25", "status": "proved", "theorems": ["pde_flux", "pde_characteristics"], "note": "Any solver of regular 3x3 systems stands for the QR factorisation."},
{"property": "C26", "status": "proved", "theorems": ["bc_nonpenetration", "bc_no_slip", "bc_thermal", "bc_freestream_outflow", "bc_pressure_outflow"], "note": ""},
{"property": "C27", "status": "proved", "theorems": ["spatial_convection", "spatial_residual", "spatial_diffusion"], "note": "For all PDEs whose update is added to the state (Navier-Stokes, thermodynamic fix), any row size of at least 2, dimensions 1 to 3, any rule as exact as Gauss-Lobatto with symmetric weights; examples spatial_fits (mesh with a hanging node) and spatial_line (computed run)."},
{"property": "C28", "status": "proved", "theorems": ["basis_interpolate", "basis_diff_mat", "basis_equidistant"], "note": "The equidistant basis needs a row size of at least 2 (its only node is 0/0 otherwise)."},
{"property": "C29", "status": "proved", "theorems": ["physical_basis_indices", "physical_basis_coords"], "note": "std::legendre itself, linear independence and projection() are not modelled; int overflow of size() is ignored."},
{"property": "C30", "status": "proved", "theorems": ["pow_nonneg", "pow_neg", "pow_double", "log_least", "log_invalid"], "note": "int overflow is undefined behaviour in the model; exactly characterised"},
{"property": "C31", "status": "proved", "theorems": ["bisection_correct", "bisection_step", "bisection_in_bracket"], "note": "double as R, NaN as None"},
{"property": "C32", "status": "proved", "theorems": ["bicgstab_residual"], "note": "Exact arithmetic with division by zero kept apart; the statement is about runs whose solution is finite (see C61)."},
{"property": "C33", "status": "proved", "theorems": ["stopwatch_history", "stopwatch_rejects", "stopwatch_add"], "note": "time in exact rationals; clock readings are inputs"},
{"property": "C34", "status": "partial", "theorems": ["layer_fills_unit_partial", "layer_fills_unit_refuted"], "note": "The heights add up to 1 only if n_wall*ws = 2^-n_grow; counterexample ws = 1/4, n_wall = 1 gives 7/8. Exact formula in C49."},
{"property": "C35", "status": "proved", "theorems": ["mesh_valid", "mesh_connect_rest"], "note": "all meshes that sequences of calls of the interface (refused ones included) can produce; valid() counts exactly the redundant and missing connections, connect_rest() closes exactly the open faces"},
{"property": "C36", "status": "partial", "theorems": ["mesh_file_partial", "mesh_file", "mesh_file_refuted"], "note": "mesh_file says exactly what is read back; refuted: the fine elements of a refined connection between deformed elements are permuted once more on reading (mesh_file_refuted: two fine elements change places); mesh_file_partial: round trip for directions whose permutation is the identity, for meshes with a file representation (storable). Missing: the other directions, for which the statement is false"},
{"property": "C37", "status": "partial", "theorems": ["fix_admissible_refuted", "fix_admissible_partial"], "note": "False as stated: the last smoothing is not followed by a check, and one smoothing is left out of the count (both refuted by a concrete run). Proved: the exact number of smoothings (twice the number after which the state settles), that the state before the last one is admissible, and that the result is admissible if smoothing preserves admissibility."},
{"property": "C38", "status": "partial", "theorems": ["flow_time_refuted", "flow_time_partial"], "note": "False as stated: a step in which a fix happens changes the flow state but not the flow time. Proved: the flow time advances by the sum of the steps without a fix. The iteration counter is C65."},
{"property": "C39", "status": "proved", "theorems": ["update_balanced", "smoothing_ends", "update_start", "update_again", "surface_then_update"], "note": "fuel stands for the three do-while loops of update(); that the flood-fill loop ends is proved only for meshes without surface (C77); the end of the smoothing loop is proved for all meshes"},
{"property": "C40", "status": "proved", "theorems": ["vertex_sharing"], "note": "Arbitrary order of the single steps of both parallel loops; hanging vertex matching is not part of it."},
{"property": "C41", "status": "proved", "theorems": ["csv_table"], "note": "std::stod is any function that refuses the empty entry."},
{"property": "C42", "status": "proved", "theorems": ["hypercube_matvec_kronecker", "dimension_matvec_single", "pow_outer_power", "interp_multilinear", "interp_at_vertices"], "note": "double as R; hypercube_matvec needs at least one dimension and at least one row and column"},
{"property": "C43", "status": "proved", "theorems": ["proj_to_segment_nearest", "bounding_ball_bounds", "intersects_exact"], "note": "double as R; intersects for distinct endpoints"},
{"property": "C44", "status": "partial", "theorems": ["tree_flood_fill_nonleaf_partial", "tree_flood_fill_nonleaf_refuted"], "note": "the documented behaviour is refuted: the fill also starts from the non-leaf itself and floods its neighbours; what does hold is the _partial theorem"},
{"property": "C45", "status": "proved", "theorems": ["stretched_ind_correct", "direction_normal"], "note": ""},
{"property": "C46", "status": "proved", "theorems": ["kernel_factory_exact"], "note": ""},
{"property": "C47", "status": "proved", "theorems": ["refined_connection_conforms", "refined_connection_wrong_number"], "note": "Enumeration of all cases; Vertex::eat itself, face storage and normals are not part of the model."},
{"property": "C48", "status": "proved", "theorems": ["hanging_vertices_interpolated"], "note": "1D is not covered: the function does not support it (hypercube_matvec on a 0-dimensional array, str[-1])."},
{"property": "C49", "status": "proved", "theorems": ["layer_spacing", "layer_spacing_positive", "layer_n_grow", "layer_total_height"], "note": "Real arithmetic."},
{"property": "C50", "status": "proved", "theorems": ["hil_sequence"], "note": ""},
{"property": "C51", "status": "proved", "theorems": ["hil_end_of_text"], "note": ""},
{"property": "C52", "status": "proved", "theorems": ["vertex_weak"], "note": ""},
{"property": "C53", "status": "proved", "theorems": ["vertex_votes"], "note": ""},
{"property": "C54", "status": "proved", "theorems": ["simplex_crossings"], "note": "Eigen's LU factorisation is an abstract exact solver."},
{"property": "C55", "status": "proved", "theorems": ["pde_speed"], "note": ""},
{"property": "C56", "status": "proved", "theorems": ["bc_characteristic"], "note": ""},
{"property": "C57", "status": "partial", "theorems": ["bc_characteristic_flux_partial", "bc_characteristic_flux_refuted"], "note": "False as stated: half of the outgoing flux remains at the interface (refuted). Proved: incoming fluxes are unmodified, outgoing ones are exactly halved."},
{"property": "C58", "status": "partial", "theorems": ["csv_safe_partial", "csv_endless_refuted", "csv_bounds_refuted"], "note": "False as stated: a last line without line break is read for ever (the second getline after the end does not erase the line), and a row shorter than the first is searched beyond its end. Proved when every line up to the first blank one is ended by a line break and has at least as many commas as the first."},
{"property": "C59", "status": "proved", "theorems": ["gmres_optimal", "gmres_monotone", "gmres_exact"], "note": "For any least-squares solver in place of Eigen's QR (one is shown to exist); about runs whose solution is finite (see C61), with n_restart + 4 vectors (see C60)."},
{"property": "C60", "status": "partial", "theorems": ["gmres_storage_refuted", "gmres_storage_partial"], "note": "False: with exactly the documented n_restart + 3 vectors, vector n_restart + 3 is written. Proved: n_restart + 4 are enough and fewer than n_restart + 3 are refused."},
{"property": "C61", "status": "partial", "theorems": ["solved_stays_refuted", "solved_stays_partial"], "note": "False: neither solver stops at a zero residual. Proved: one restart of gmres gives a finite vector exactly when the vectors of its Krylov space are independent."},
{"property": "C62", "status": "proved", "theorems": ["equation_interface"], "note": "The operator of Solver::Linearized itself is not modelled."},
{"property": "C63", "status": "proved", "theorems": ["bicgstab_storage"], "note": ""},
{"property": "C64", "status": "proved", "theorems": ["fix_terminates"], "note": "all states, smoothers and admissibility checks"},
{"property": "C65", "status": "proved", "theorems": ["update_counters"], "note": "all kernels and parameters"},
{"property": "C66", "status": "partial", "theorems": ["max_time_step_refuted", "max_time_step_partial"], "note": "False for n_cheby_flow >= 2: the limit is applied before multiplication by the Chebyshev factor. Proved: the bound holds for n_cheby_flow = 1, and with the factor chebyshev_step(n, n-1) otherwise."},
{"property": "C67", "status": "proved", "theorems": ["chebyshev_steps"], "note": "real arithmetic"},
{"property": "C68", "status": "proved", "theorems": ["quad_derivative", "quad_by_parts"], "note": "nodes and weights are arbitrary with the stated exactness; examples give the two-node Gauss-Legendre and three-node Gauss-Lobatto rules"},
{"property": "C69", "status": "proved", "theorems": ["quad_prolong_restrict", "quad_projection"], "note": "quad_lobatto_restrict shows that the exactness is needed"},
{"property": "C70", "status": "proved", "theorems": ["quad_filter"], "note": ""},
{"property": "C71", "status": "proved", "theorems": ["quad_tables"], "note": "the members node, node_weights, diff_mat, boundary, orthogonal, filter, prolong, restrict; the eigenvalues are not modelled"},
{"property": "C72", "status": "partial", "theorems": ["mesh_pointers_partial", "mesh_pointers_refuted"], "note": "refuted: connect a face twice and delete the second connection, then valid() reports (0, 0) and the face pointer is null; proved for histories in which no face is connected while it is connected already. Missing: histories with double connections, for which the statement is false"},
{"property": "C73", "status": "proved", "theorems": ["mesh_cleanup", "mesh_cleanup_refuted"], "note": "mesh_cleanup_refuted shows the last sentence, the loss of elements by write() followed by cleanup()"},
{"property": "C74", "status": "partial", "theorems": ["update_lock_refuted", "update_lock_partial"], "note": "refuted: only the lock of the visited element is checked, so an unlocked sibling coarsens a locked one; partial: if all siblings are locked nothing happens"},
{"property": "C75", "status": "partial", "theorems": ["update_orphans_refuted", "update_orphans_partial", "refine_unrefine_no_orphans"], "note": "refuted: the flood fill unrefines a node when none of its children has an element itself, although their descendants may; partial: meshes without surface, and the part before the flood fill for all meshes"},
{"property": "C76", "status": "partial", "theorems": ["update_order_refuted", "update_order_partial"], "note": "refuted with two extruded elements of different requests; partial: the requests for which the order does not matter"},
{"property": "C77", "status": "proved", "theorems": ["update_requests", "update_requests_again", "update_idle"], "note": "no surface"},
{"property": "C78", "status": "proved", "theorems": ["trim_extrudable", "trim_filled"], "note": "what faces away from the surface is an arbitrary predicate; each iteration of the parallel loop is one step"},
{"property": "C79", "status": "partial", "theorems": ["trim_repeatable_refuted", "trim_repeatable_partial"], "note": "the full statement is refuted: the result depends on the order of the elements; what does hold is the _partial theorem"},
{"property": "C80", "status": "proved", "theorems": ["deform_exact", "deform_uniform", "surface_ready", "update_ready", "layer_made"], "note": "layer_made composes it with delete_bad_extrusions"},
{"property": "C81", "status": "proved", "theorems": ["plain_connected"], "note": "Examples wall_connections; n >= 2, see line_swapped for one dimension."},
{"property": "C82", "status": "proved", "theorems": ["surface_connected", "surface_finishes"], "note": "Example wall_connections."},
{"property": "C83", "status": "partial", "theorems": ["update_connected_partial", "update_connected_refuted"], "note": "Refuted: elements that lose their nodes keep their connections (wall_wrong). Holds if no element is lost; Example half_connections. Missing: nothing that is true."},
{"property": "C84", "status": "proved", "theorems": ["layers_complete"], "note": "Every way to connect extruded elements with each other is covered as long as only their free faces are used; the source's choice is not modelled. Example half_layered."},
{"property": "C85", "status": "partial", "theorems": ["layers_point_refuted", "layers_point_partial"], "note": "False for several layers: Example split_dangles. Proved for one layer and for updates that do not ask for refinement of extruded elements."},
{"property": "C86", "status": "proved", "theorems": ["free_kernels", "free_uniform_flow", "free_cartesian"], "note": "the admissibility fix is not modelled; deformed meshes: see the hypothesis closed"},
{"property": "C87", "status": "proved", "theorems": ["jac_shared", "jac_mean", "jac_refined"], "note": "Example jac_fits, jac_arranged: a mesh of bent elements with a hanging node"},
{"property": "C88", "status": "proved", "theorems": ["jac_plane", "jac_solid"], "note": "Elements whose faces are snapped: C90"},
{"property": "C89", "status": "proved", "theorems": ["jac_uniform_flow", "jac_agreeing"], "note": "Example jac_example: three bent elements with a hanging node"},
{"property": "C90", "status": "partial", "theorems": ["jac_snapped_partial", "jac_snapped_refuted"], "note": "False for four points in a row, even if one face only is snapped, by a polynomial of degree row size - 2 that vanishes at the vertices and is not discarded by snap_node_adj: a frustum whose wall is bent by x - x^2. Missing: nothing that is true in general; for larger row sizes the identity depends on the adjustments"},
{"property": "C91", "status": "proved", "theorems": ["visc_kernels", "visc_uniform_flow", "visc_deformed"], "note": "Examples visc_example and visc_deformed_example: Cartesian and bent elements with a hanging node, Sutherland's law"},
{"property": "C92", "status": "proved", "theorems": ["stress_flux", "stress_dissipates", "stress_transport"], "note": "Example stress_example: shear flow along a wall"},
{"property": "C93", "status": "proved", "theorems": ["snap_position", "snap_face_position"], "note": "exact real arithmetic; vertices and nodes are inputs"},
{"property": "C94", "status": "proved", "theorems": ["snap_surface", "snap_problem", "snap_elsewhere", "snap_two_refuted"], "note": "the first part of Solver::snap_faces; the sweeps that afterwards average adjustments at the edges of neighbours are not modelled. snap_two_refuted: with 2 points in a row the face is moved but misses the surface, so that the hypothesis cannot be dropped"},
{"property": "C95", "status": "proved", "theorems": ["sweep_keeps", "sweep_plane", "sweep_plane_stays"], "note": "Average at joints, ends and inner points kept; neutral on walls that meet; flow state restored in 2 and 3 dimensions. Edges at hanging nodes in two dimensions are not covered by the values at the ends."},
{"property": "C96", "status": "partial", "theorems": ["sweep_stays_partial", "sweep_corner_refuted", "sweep_hanging_refuted"], "note": "The full statement is false: corners between directions 0 and 2 and hanging walls are changed (both refuted for every row size). Proved for all meshes whose edges continue each other or form corners of other directions and do not hang."},
{"property": "C97", "status": "proved", "theorems": ["vis_polynomial", "vis_fetch", "vis_interior", "vis_face", "vis_edges", "vis_sample", "vis_one_dim"], "note": "the Qpoint_func is any function from quadrature points to vectors; exact real arithmetic"},
{"property": "C98", "status": "proved", "theorems": ["bounds_field_extremes"], "note": "numeric_limits<double>::max() is any bound on the sampled values"},
{"property": "C99", "status": "proved", "theorems": ["atmosphere_domain", "atmosphere_profile", "atmosphere_gas", "atmosphere_sea_level", "atmosphere_offset", "atmosphere_hydrostatic", "atmosphere_continuous", "atmosphere_geometric", "atmosphere_geometric_hydrostatic"], "note": "Real arithmetic; the temperature of the standard is specified by its gradients, not by the table of the code."}
]}
