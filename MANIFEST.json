{"claims": [
{"property": "C01", "status": "proved", "theorems": ["C01_velocity_1d_bijection"], "note": ""},
{"property": "C02", "status": "proved", "theorems": ["C02_velocity_2d_bijection"], "note": ""},
{"property": "C03", "status": "proved", "theorems": ["C03_velocity_3d_bijection"], "note": ""},
{"property": "C04", "status": "proved", "theorems": ["C04_symmetric_velocity"], "note": ""},
{"property": "C05", "status": "proved", "theorems": ["C05_permute_in_place"], "note": ""},
{"property": "C06", "status": "proved", "theorems": ["C06_stencil_tables"], "note": ""},
{"property": "C07", "status": "partial", "theorems": ["C07_opposite_table", "C07_opposite_table_bad_axis", "C07_involution_without_nodup_refuted", "C07_is_symmetric_one_scheme_partial", "C07_is_symmetric_refuted"], "note": "the table part is proved (involution when no scheme repeats a number); is_symmetric reports the last scheme only, so its claim is refuted for composite stencils and proved for one scheme"},
{"property": "C08", "status": "partial", "theorems": ["C08_halo_symmetric_partial", "C08_halo_iff", "C08_halo_refuted"], "note": "vmax is a signed maximum: proved for symmetric stencils, exact criterion given, refuted for one sided stencils"},
{"property": "C09", "status": "proved", "theorems": ["C09_partition_axis", "C09_partition_exact"], "note": ""},
{"property": "C10", "status": "partial", "theorems": ["C10_coordinates_split_independent_partial", "C10_no_velocity_refuted"], "note": "proved for axes with at least one ghost cell; with ghost width 0 the inner coordinates are cut to one value (refuted)"},
{"property": "C100", "status": "partial", "theorems": ["C100_bar", "C100_monotone", "C100_newline", "C100_calls", "C100_header", "C100_full_refuted", "C100_outside", "C100_calls_zero"], "note": "All proved except that the bar is full at the end only: for totals above 200 it is full before (C100_full_refuted). Beyond the total the bar grows, and a bar with the total 0 raises."},
{"property": "C101", "status": "proved", "theorems": ["C101_history", "C101_simulation", "C101_periodic", "C101_plane"], "note": "For ducts with bounce back at rest, obstacles away from the periodic sides (as in C67), in exact arithmetic. Ducts without obstacle and domains with all sides periodic are included; other boundary conditions are not."},
{"property": "C102", "status": "partial", "theorems": ["C102_assign", "C102_add", "C102_add_inner", "C102_programs", "C102_raise_refuted", "C102_stale_refuted"], "note": "All proved except the last sentence, which is false: an addition to an item of m or F raises after the change (C102_raise_refuted), and the moments are then old (C102_stale_refuted)."},
{"property": "C103", "status": "proved", "theorems": ["C103_cell", "C103_initial", "C103_history", "C103_simulation", "C103_alone_cell", "C103_alone_initial", "C103_alone_history", "C103_alone", "C103_converse_refuted"], "note": "Hypotheses: no relative velocity, quiet conditions, the dictionaries are built (the inverse is an oracle). C103_simulation: the same schemes and conditions, other data. C103_alone: the first schemes of the list, no velocity repeated in one of them, the same table of velocities with and without the others. C103_converse_refuted: the schemes which read the others do depend on them. Examples C103_example, C103_alone_example."},
{"property": "C104", "status": "proved", "theorems": ["C104_cell", "C104_initial", "C104_history", "C104_selected", "C104_source_refuted"], "note": "Hypotheses: no relative velocity, quiet conditions, the dictionaries are built (the inverse is an oracle), no velocity repeated in a scheme, the same table of velocities in both simulations; the selected schemes have no sources, or their conserved moments keep their order and their sources. C104_source_refuted: with sources another order changes the result. Examples C104_example (two schemes exchanged), C104_source_example (the second of two schemes with sources, one cell)."},
{"property": "C11", "status": "partial", "theorems": ["C11_box_length_accepted", "C11_box_length_partial", "C11_box_length_refuted", "C11_empty_box_refuted"], "note": "exact acceptance criterion proved; the tolerance compares a number of cells with dx, so boxes off by half a cell are accepted when dx is large (refuted)"},
{"property": "C12", "status": "proved", "theorems": ["C12_ghost_exchange", "C12_messages_match", "C12_update_twice", "C12_loopy_width_one", "C12_loopy_refuted", "C12_thin_region_refuted"], "note": "for all process grids in which every process owns at least as many cells as the ghost layer is wide (needed, refuted otherwise); the loo.py version is right for width one only"},
{"property": "C13", "status": "partial", "theorems": ["C13_storage_order_invisible", "C13_offset_in_buffer", "C13_generated_access_partial", "C13_generated_access_iff", "C13_generated_access_refuted"], "note": "Array accesses: proved for all orders. Generated kernels: right exactly when the spatial part of the order is increasing (refuted otherwise)"},
{"property": "C14", "status": "proved", "theorems": ["C14_distance", "C14_fluid_is_the_box", "C14_exists"], "note": "All dimensions, sizes, velocities and labels; distances as exact rationals. Interface sides (label -2) are no walls."},
{"property": "C15", "status": "proved", "theorems": ["C15_last_element_decides", "C15_no_link_outside", "C15_links", "C15_targets", "C15_exists", "C15_far_left_refuted", "C15_reopened_wall_refuted", "C15_on_border_refuted", "C15_interface_refuted"], "note": "Elements are abstract (inside test, bounding box, distance). The link theorem asks what distance_ok and bounds_ok say of the elements; the four refuted theorems show what happens without: slices that wrap, walls lost behind reopened cells, cells on the border of a fluid element, stale links across process interfaces."},
{"property": "C16", "status": "proved", "theorems": ["C16_points", "C16_one_link", "C16_exists", "C16_coordinate", "C16_ends", "C16_on_the_wall"], "note": "For elements the point is at the stored distance; that it lies on the border is then the meaning of the element's distance (C15, C37-C41)."},
{"property": "C17", "status": "proved", "theorems": ["C17_after_transport", "C17_elsewhere"], "note": "Neumann along one axis: if the prescribed neighbour is fluid."},
{"property": "C18", "status": "proved", "theorems": ["C18_weights", "C18_half_way", "C18_continuous", "C18_linear", "C18_bouzidi_anti_wrong", "C18_bouzidi_anti_refuted"], "note": "Proved for Bouzidi bounce back; the linear exactness is false for Bouzidi anti bounce back (finding)."},
{"property": "C19", "status": "partial", "theorems": ["C19_not_read", "C19_order_partial", "C19_conditions_order", "C19_bouzidi_anti_refuted", "C19_bouzidi_read_refuted", "C19_neumann_x_refuted"], "note": "Holds for bounce back, anti bounce back, Neumann, and (thanks to the copy) Bouzidi bounce back; false for Bouzidi anti bounce back and NeumannX/Y/Z."},
{"property": "C20", "status": "partial", "theorems": ["C20_uniform_partial", "C20_defect", "C20_stays_uniform_partial", "C20_bouzidi_refuted"], "note": "Holds for bounce back, anti bounce back, Neumann, and Bouzidi with the wall before one half or equal wall equilibria; false for Bouzidi bounce back beyond one half with a moving wall and for Bouzidi anti bounce back."},
{"property": "C21", "status": "proved", "theorems": ["C21_matrices_inverse"], "note": ""},
{"property": "C22", "status": "partial", "theorems": ["C22_conserved_found", "C22_conserved_in_front_partial", "C22_ordered_conserved", "C22_unordered_refuted"], "note": "Placement is right iff every conserved moment has an index not smaller than its rank in the list of conserved moments; false otherwise (refuted)."},
{"property": "C23", "status": "partial", "theorems": ["C23_scheme_equilibria", "C23_relaxation", "C23_collision_conserves", "C23_base_relative_velocity_refuted"], "note": "Proved for all schemes without relative velocity and for the pull step with relative velocity when T(u), T(-u) are inverse and do not mix conserved with other moments; the step of BaseAlgorithm with a relative velocity does not keep the conserved moments (refuted)."},
{"property": "C24", "status": "partial", "theorems": ["C24_equilibrium_fixed", "C24_uniform_equilibrium_partial", "C24_relative_velocity_refuted"], "note": "Fixed frame: proved. Relative velocity: proved when the relaxation parameters of the conserved moments are zero, refuted otherwise."},
{"property": "C25", "status": "proved", "theorems": ["C25_f2m_m2f"], "note": "f2m and m2f kernels never use the relative velocity."},
{"property": "C26", "status": "partial", "theorems": ["C26_pull_is_base_partial", "C26_pull_loop_is_base_loop", "C26_relative_velocity_refuted"], "note": "Proved without relative velocity, in a cell and on loops; refuted with a relative velocity."},
{"property": "C27", "status": "proved", "theorems": ["C27_global_conservation"], "note": "All process grids, one or two storages; exact arithmetic."},
{"property": "C28", "status": "proved", "theorems": ["C28_transport", "C28_permutation", "C28_translations"], "note": ""},
{"property": "C29", "status": "proved", "theorems": ["C29_parallel_is_serial"], "note": "Needs every process to own at least as many cells as the ghost width (C12)."},
{"property": "C30", "status": "partial", "theorems": ["C30_solid_cells_not_written", "C30_fluid_cells_updated", "C30_solid_cells_constant_partial", "C30_other_buffer_refuted"], "note": "The kernel claim is proved; after the exchange of the storages a solid cell shows the value of the other storage, so it is constant only if both agree there (refuted otherwise)."},
{"property": "C31", "status": "partial", "theorems": ["C31_two_half_steps", "C31_half_step_partial", "C31_coupled_refuted", "C31_relative_velocity_refuted"], "note": "Exact sequential semantics proved; the simultaneous reading holds for decoupled sources and is refuted for coupled ones and with a relative velocity."},
{"property": "C32", "status": "partial", "theorems": ["C32_moments_partial", "C32_kernels", "C32_clean_sequences", "C32_write_moment_refuted", "C32_other_moments_refuted", "C32_lost_step_refuted", "C32_view_refuted", "C32_relaxation_refuted", "C32_numpy_transport_refuted"], "note": "Proved for every sequence of operations in which a block of writes of moments is closed by m2f (or f2m, a time step, a write of distributions); refuted for the other sequences."},
{"property": "C33", "status": "partial", "theorems": ["C33_time_and_counter", "C33_last_step_visible", "C33_interleaving", "C33_transport_refuted", "C33_time_step_refuted"], "note": "Proved with the time step evaluated at its first use; transport() is invisible with two storages; later changes of the parameters do not change the time step."},
{"property": "C34", "status": "proved", "theorems": ["C34_one_or_two_buffers", "C34_boundary_conditions_partial", "C34_stale_ghosts_refuted"], "note": "Periodic domains proved; with boundary conditions proved when the values read by the kernel are determined by the inner values."},
{"property": "C35", "status": "partial", "theorems": ["C35_scalar", "C35_vector", "C35_one_writer", "C35_coordinates", "C35_grid_iff", "C35_uneven_refuted"], "note": "Proved for every size, process grid and dimension whenever set_grid succeeds. set_grid succeeds exactly when each direction is split evenly in pieces of at least two cells (C35_grid_iff), so the claim is false for uneven splits: an exception is raised (C35_uneven_refuted). Entries past the last component of a vector are zero."},
{"property": "C36", "status": "partial", "theorems": ["C36_coordinates_scalars", "C36_vector_iff", "C36_vector_refuted", "C36_topology_iff", "C36_topology_refuted", "C36_elements_iff", "C36_elements_refuted"], "note": "Coordinates and scalars proved for all grids. Vector dimensions match exactly in dimension 3, the topology exactly in dimensions 2 and 3, the number of elements exactly for symmetric sizes; the other cases are refuted."},
{"property": "C37", "status": "partial", "theorems": ["C37_circle_inside", "C37_circle_box", "C37_ellipse_inside", "C37_ellipse_box_partial", "C37_ellipse_box_refuted", "C37_sphere_inside", "C37_sphere_box", "C37_ellipsoid_inside", "C37_ellipsoid_box_partial"], "note": "Inside tests proved for all four shapes; boxes of circles and spheres are the smallest. Boxes of ellipses and ellipsoids proved when the vectors are exactly orthogonal; refuted for the ellipses accepted thanks to the absolute tolerance 1e-14."},
{"property": "C38", "status": "partial", "theorems": ["C38_parallelogram_inside", "C38_triangle_inside", "C38_parallelogram_box", "C38_triangle_box", "C38_triangle_smallest_refuted"], "note": "All proved except that the box of a triangle is not the smallest one: it is that of the parallelogram (refuted)."},
{"property": "C39", "status": "proved", "theorems": ["C39_parallel", "C39_two_lines", "C39_edges", "C39_collinear_refuted", "C39_parallelogram", "C39_triangle", "C39_parallelogram_enter", "C39_triangle_enter"], "note": "Edges parallel to the velocity are skipped: a single such edge is not seen (C39_collinear_refuted), but for the closed contours of parallelograms and triangles the result is the first hit without restriction."},
{"property": "C40", "status": "partial", "theorems": ["C40_inside", "C40_parallelepiped_inside", "C40_refuted", "C40_parallelepiped_refuted", "C40_partial", "C40_full_axis", "C40_oblique_circle_refuted"], "note": "False of the code: the box uses half the axis. Proved: characterisation of the inside test (for every base, and for a parallelepiped in terms of its point and its three vectors), the points up to half height are in the box, the corrected box with the full axis contains the cylinder; refuted for every base and for every parallelepiped, and for oblique circular bases."},
{"property": "C41", "status": "proved", "theorems": ["C41_ellipse", "C41_circle", "C41_ellipsoid", "C41_sphere", "C41_ellipse_enter", "C41_ellipsoid_enter", "C41_on_curve_refuted"], "note": "Proved for all points off the curve; from a point on the curve the second intersection is missed (C41_on_curve_refuted)."},
{"property": "C42", "status": "proved", "theorems": ["C42_exact"], "note": "Exact arithmetic over any numClosedFieldType; polynomials of degree at least 1 with nonzero leading coefficient. Closed under the global context."},
{"property": "C43", "status": "partial", "theorems": ["C43_vN_clear", "C43_svN_clear", "C43_vN_reject", "C43_svN_reject", "C43_vN_exact", "C43_svN_exact", "C43_accept_refuted"], "note": "Exact when no compared quantity is in the tolerance window (C43_vN_clear, C43_svN_clear); a polynomial whose roots are in the closed disk (and simple on the circle) is never rejected; each polynomial has a tolerance below which the tests are exact. The last part of the claim (reported stable implies no amplification factor above one) is refuted: with the fixed absolute tolerance monic polynomials with arbitrarily large roots are accepted."},
{"property": "C44", "status": "partial", "theorems": ["C44_run", "C44_spectrum", "C44_out", "C44_verdict", "charpoly_spec", "C44_run_relative_partial", "C44_relative_refuted"], "note": "Complete without relative velocity (any equilibrium, linearised with dual numbers, any number of steps, both storages, all processes, roots of the computed polynomial = growth factors of modes, verdict). With a relative velocity the matrix is right only when T(u) leaves the conserved moments alone; otherwise refuted: the code multiplies the Jacobian by the shifted conserved moments."},
{"property": "C45", "status": "proved", "theorems": ["C45_standard", "C45_range", "C45_grey", "C45_periodic"], "note": "Over the rationals; float rounding is not modelled."},
{"property": "C46", "status": "proved", "theorems": ["C46_own_times", "C46_nonneg", "C46_recursion_refuted", "C46_exception_refuted"], "note": "Proved for call trees without recursion; refuted for a monitored function calling itself and after an exception."},
{"property": "C47", "status": "proved", "theorems": ["C47_rewrite", "C47_covers", "C47_same_entry", "C47_nested_refuted", "C47_arity_refuted"], "note": "Proved for well bracketed indices without nested conserved names and with as many indices as the storage order (every accepted token list has this structure); refuted when a conserved name stands inside an index, or too many indices are given."},
{"property": "C48", "status": "proved", "theorems": ["C48_list_of_labels", "C48_box_labels", "C48_element_labels", "C48_get_box", "C48_add_elem", "C48_z_without_y_refuted", "C48_wrong_size_refuted", "C48_add_dim_refuted"], "note": "One label per side holds for an integer or a list of the right size; lists of a wrong size are accepted by the code. add_elem does not check the dimension."},
{"property": "C49", "status": "proved", "theorems": ["C49_first_order_flux", "C49_equilibrium_exists"], "note": ""},
{"property": "C50", "status": "partial", "theorems": ["C50_moving_frame_moments", "C50_change_of_frame_partial", "C50_assembled_frame", "C50_single_relaxation_partial", "C50_not_closed_refuted", "C50_equal_parameters_refuted"], "note": "T(u)T(-u)=I needs the span of the polynomials to be invariant by translation; equal parameters give the fixed frame result when the conserved moments have parameter zero."},
{"property": "C51", "status": "partial", "theorems": ["C51_interior_view_partial", "C51_no_ghost_refuted"], "note": "proved for ghost width >= 1; with width 0 the view is empty (refuted)"},
{"property": "C52", "status": "partial", "theorems": ["C52_edges", "C52_ellipse", "C52_circle", "C52_ellipsoid", "C52_cylinder_refuted"], "note": "Proved for polygons, ellipses, circles and ellipsoids; false for cylinders, where the normal is mapped by the matrix of the vectors."},
{"property": "C53", "status": "partial", "theorems": ["C53_distance_partial", "C53_enter", "C53_label", "C53_face", "C53_flat_refuted", "C53_label_refuted", "C53_colours_refuted"], "note": "Proved for points off the surface, when the velocity is not parallel to the ends or the point is farther than dmax*1e-16 from their planes; refuted otherwise. A hit carries the label of the face of the side, or of the end, on which it lies (C53_face). The label of points without a hit is the label of the bottom (C53_label_refuted). The drawing of the geometry gives the labels of the sides to other faces (C53_colours_refuted)."},
{"property": "C54", "status": "proved", "theorems": ["C54_closed_vessel", "C54_parallel", "C54_bouzidi_refuted"], "note": "Walls at rest (equilibrium of the wall values equal for opposite velocities), even moments, bounce back for all labels. One process: the ghost exchange is any map which keeps the fluid cells. C54_parallel: every process grid, with the exchange between the processes, solid elements. Refuted for Bouzidi's bounce back."},
{"property": "C55", "status": "partial", "theorems": ["C55_walls_and_periods", "C55_channel_mass", "C55_parallel_mass", "C55_periodic_first_refuted", "C55_long_velocity_refuted"], "note": "Proved for boxes without elements, velocities at most one along each axis and wall axes before the periodic ones, on one process and (mass) on every process grid; without either of the last two conditions the statement is refuted (leak at the edges)."},
{"property": "C56", "status": "proved", "theorems": ["C56_second_order"], "note": "No source terms, no relative velocity (the class ignores both). Derivatives by SymPy are an oracle: any derivations which commute, with the chain rule for the equilibria; the transport is its Taylor expansion."},
{"property": "C57", "status": "proved", "theorems": ["C57_parallel_is_serial", "C57_exists", "C57_links", "C57_cells", "C57_quiet", "C57_neumann_refuted", "C57_thin_refuted", "C57_exists_refuted"], "note": "Boxes with any labels and solid elements (obstacle, thick); quiet (no condition reads a value written by a condition) holds for the simple methods (C57_quiet) and is needed (C57_neumann_refuted); thick is needed (C57_thin_refuted); with elements the domains of the processes may not exist (C57_exists_refuted), C57_exists gives a condition. Fluid elements are not in the claim."},
{"property": "C58", "status": "proved", "theorems": ["C58_moments", "C58_distributions", "C58_once", "C58_first_step", "C58_no_data_refuted"], "note": "With an entry 'init'; without it nothing is initialised (C58_no_data_refuted)."},
{"property": "C59", "status": "partial", "theorems": ["C59_all_replaced", "C59_single_pass_iff", "C59_matrix_refuted", "C59_circular_refuted", "C59_no_replacement_refuted"], "note": "Equilibria, relaxation parameters and relative velocity: proved. Matrices: a single pass, complete exactly when no value uses a symbol placed before it (C59_single_pass_iff), refuted otherwise."},
{"property": "C60", "status": "proved", "theorems": ["C60_wall_equilibrium", "C60_without_value", "C60_table", "C60_distributions_refuted", "C60_accumulation_refuted"], "note": "For functions which set all the conserved moments of a point from time and position; the refuted variants are findings outside this hypothesis."},
{"property": "C61", "status": "proved", "theorems": ["C61_numpy_is_cython", "C61_nest", "C61_regular", "C61_pull", "C61_split", "C61_in_place_refuted", "C61_order_refuted", "C61_coords_refuted", "C61_halo_refuted", "C61_view_refuted", "C61_split_refuted"], "note": "NumPy slices equal Cython loops for every kernel which meets the conditions, with the pull step as an instance; each condition is needed."},
{"property": "C62", "status": "partial", "theorems": ["C62_intersection", "C62_distance", "C62_point_inside", "C62_convex", "C62_bounds", "C62_infinity", "C62_domain", "C62_link", "C62_box", "C62_grazing_refuted", "C62_on_surface_refuted", "C62_fluid_refuted"], "note": "Proved for all meshes (intersection, distance, bounds of the surface), for bodies whose half lines cross the surface, for convex bodies and solid elements in a domain. Refuted for grazing half lines, cells on the surface and fluid elements through a wall. The inverse of a matrix is exact."},
{"property": "C63", "status": "proved", "theorems": ["C63_cython_loop", "C63_numpy_run", "C63_cython", "C63_numpy", "C63_formula", "C63_base", "C63_runs", "C63_refines", "C63_conservation", "C63_relaxation_refuted"], "note": "Closed under the global context. C63_cython and C63_numpy: every inner cell of the generated pull kernels gets the step of the scheme, no other element changes; C63_cython_loop and C63_numpy_run: the same link for any list of statements of the algorithms; C63_base: the base algorithm without relative velocity. C63_runs: both back ends agree after any number of steps on every process grid, C63_refines and C63_conservation carry the theorems on the steps to the generated code. The relaxation parameters of NumPy must not read the conserved moments (C63_relaxation_refuted)."},
{"property": "C64", "status": "proved", "theorems": ["C64_step", "C64_determined", "C64_kernels", "C64_runs", "C64_conservation", "C64_moving", "C64_given_velocity", "C64_kept", "C64_unordered_refuted", "C64_sizes_refuted", "C64_again_refuted"], "note": "SymPy's inversion and simplification are oracles with the usual specification; parameters are replaced before (C59). C64_moving (relative velocity) is without sources and for polynomials whose span is invariant by translation. The hypotheses ordered and sized are needed (refutations); with the key M the dictionary is changed by the construction (refutation)."},
{"property": "C65", "status": "proved", "theorems": ["C65_simulation", "C65_vessel", "C65_channel"], "note": "Joins C57, C63 and C64: quiet (no condition reads a value written by a condition) and the obstacle and thick hypotheses are those of C57, needed there by refutations; no relative velocity; the velocities of the dictionary are those of the stencil, given by their number in each scheme. The mass in a channel is without elements here, with elements in C67_simulation."},
{"property": "C66", "status": "partial", "theorems": ["C66_values", "C66_cython_memory", "C66_coordinates_fail", "C66_reserved", "C66_coordinates_refuted", "C66_extra_refuted", "C66_lambda_refuted", "C66_third_axis_refuted"], "note": "Proved for conserved moments, time, time step and extra parameters up to Python 3.12 whose name is not a variable of _get_args. False for coordinates (local variables never assigned), for extra parameters from Python 3.13 on, for the name lambda with value zero."},
{"property": "C67", "status": "partial", "theorems": ["C67_step", "C67_mass", "C67_parallel_mass", "C67_simulation", "C67_beside_refuted"], "note": "Proved for elements which stay between the centres of the first and of the last cells along the periodic axes, velocities at most one along each axis, wall axes before the periodic ones (C55 refutes the statement without the last two); refuted for an obstacle beside a periodic side. Several processes: the hypotheses of C57."},
{"property": "C68", "status": "proved", "theorems": ["C68_kernels", "C68_start", "C68_determined", "C68_distributions", "C68_unknown", "C68_simulation", "C68_mass"], "note": "Functions of the user work element by element and only depend on the values of the coordinates; dictionaries with distinct conserved moments, each of them in front of its rank or after (ordered); simulation and mass without relative velocity, as in C65."},
{"property": "C69", "status": "partial", "theorems": ["C69_text", "C69_unique", "C69_end", "C69_no_statement", "C69_end_refuted", "C69_empty_refuted"], "note": "The block structure of the files is proved for all routines whose right sides and local names do not end with 'end' and whose loops have a statement other than x = x. Both conditions are needed: C69_end, C69_no_statement and the refutations give what happens without them (findings)."},
{"property": "C70", "status": "partial", "theorems": ["C70_value", "C70_unique", "C70_backends", "C70_numpy_total", "C70_cython", "C70_symbolic_exponent_refuted", "C70_piecewise"], "note": "Proved for both back ends and all expressions of the model. Partial: false for Cython with an exponent which is not a number (C70_symbolic_exponent_refuted) and with a Piecewise inside of an expression (C70_piecewise); the printers inherited from SymPy are modelled from its source, which is not in /repo."},
{"property": "C71", "status": "proved", "theorems": ["C71_rest", "C71_vessel"], "note": "Hypotheses of C65 and C68: no relative velocity, solid elements found by value, quiet links (no condition reads a value which another one has changed), dictionaries with the conserved moments in order; exact arithmetic."},
{"property": "C72", "status": "proved", "theorems": ["C72_domain_of_dependence", "C72_simulation"], "note": "Hypotheses of C65 and C68: no relative velocity, solid elements found by value, quiet links (no condition reads a value which another one has changed), dictionaries with the conserved moments in order; exact arithmetic."},
{"property": "C73", "status": "proved", "theorems": ["C73_superposition"], "note": "Hypotheses of C65 and C68: no relative velocity, solid elements found by value, quiet links (no condition reads a value which another one has changed), dictionaries with the conserved moments in order; exact arithmetic."},
{"property": "C74", "status": "proved", "theorems": ["C74_translation"], "note": "Hypotheses of C65 and C68: no relative velocity, solid elements found by value, quiet links (no condition reads a value which another one has changed), dictionaries with the conserved moments in order; exact arithmetic."},
{"property": "C75", "status": "proved", "theorems": ["C75_budget", "C75_no_source", "C75_constant_source", "C75_simulation"], "note": "Hypotheses of C65 and C68: no relative velocity, solid elements found by value, quiet links (no condition reads a value which another one has changed), dictionaries with the conserved moments in order; exact arithmetic. Closed domains: the vessels of C54 and the ducts of C67."},
{"property": "C76", "status": "partial", "theorems": ["C76_ends", "C76_sequential", "C76_step", "C76_base", "C76_coupled_refuted", "C76_moving_refuted", "C76_empty_block_refuted"], "note": "Proved for uncoupled sources, conserved moments not relaxed with a relative velocity and no empty block; false without each of these conditions (three refutations)."},
{"property": "C77", "status": "partial", "theorems": ["C77_axis", "C77_periodic", "C77_exchange", "C77_refuted"], "note": "Proved for one process and ghost layers of width one; refuted for the widths 0 and 2 and for two processes."},
{"property": "C78", "status": "proved", "theorems": ["C78_step", "C78_run", "C78_runs", "C78_cython"], "note": "Under the conditions of C76, on one process with periodic sides and velocities -1, 0, 1."},
{"property": "C79", "status": "partial", "theorems": ["C79_careful", "C79_set_refuted", "C79_view_refuted"], "note": "Proved for programs which read an array before they set entries of it after a kernel call, without writes in views; refuted without these conditions."},
{"property": "C80", "status": "partial", "theorems": ["C80_accepted", "C80_validate", "C80_exits", "C80_unreachable", "C80_empty_list_refuted", "C80_list_refuted"], "note": "The rules are characterised exactly. Not true: an accepted dictionary with an empty list, and a rejected one with a list as boundary condition, raise an exception."},
{"property": "C81", "status": "partial", "theorems": ["C81_stencil", "C81_geometry", "C81_scheme", "C81_codegen", "C81_init", "C81_conditions", "C81_refuted", "C81_geometry_values", "C81_codegen_values", "C81_init_values", "C81_conditions_values"], "note": "Each read is characterised exactly; accepted dictionaries on which the constructors fail are given for each of them."},
{"property": "C82", "status": "partial", "theorems": ["C82_routines", "C82_module", "C82_sys_path", "C82_temporary", "C82_simulations", "C82_second_refuted", "C82_shadow_refuted", "C82_order_refuted", "C82_directory"], "note": "Proved for all sequences of simulations with the NumPy back end when two generations in a directory are in different seconds, when no earlier directory of sys.path has the module and when the directory is not in sys.path; the three exceptions are refuted. The compilation by Cython is not modelled."},
{"property": "C83", "status": "proved", "theorems": ["C83_result", "C83_any_time", "C83_ends", "C83_total", "C83_update", "C83_simulation", "C83_thin_refuted"], "note": "For all interleavings of the events of sends, receives and Waitall; the ghost width is at most the number of cells of each process (necessary: C83_thin_refuted). The progress of MPI is assumed. C83_simulation has the hypotheses of C65."},
{"property": "C84", "status": "proved", "theorems": ["C84_ranks", "C84_domain", "C84_owner", "C84_neighbors", "C84_transmit", "C84_message", "C84_ignored_refuted", "C84_directions", "C84_directions_order"], "note": "MPI.Compute_dims is an oracle with its specification in the MPI standard; ranks of a Cartesian grid are row major and reorder is False. C84_ignored_refuted: options beyond the dimension are ignored, so that processes are left without a domain."},
{"property": "C85", "status": "proved", "theorems": ["C85_kernel", "C85_boundary", "C85_step", "C85_negative", "C85_onesided_refuted", "C85_order_refuted", "C85_label_refuted"], "note": "The three conditions of the statement are needed (refutations). The time step is treated access by access (C85_step); the values it computes are those of C61 and C63."},
{"property": "C86", "status": "proved", "theorems": ["C86_determined", "C86_conserved", "C86_equal_parameters", "C86_equilibrium", "C86_simulation", "C86_domain_of_dependence", "C86_mass", "C86_same", "C86_rest", "C86_span_refuted"], "note": "Schemes without source terms, with moments given by polynomials. NumPy if the parameters are numbers and no component of the velocity is just a conserved moment (C63). The condition on the span of the conserved polynomials is needed (C86_span_refuted)."},
{"property": "C87", "status": "proved", "theorems": ["C87_invariant", "C87_convex", "C87_simulation", "C87_maximum", "C87_comparison", "C87_contraction", "C87_stable", "C87_parameter_refuted", "C87_anti_refuted"], "note": "Rational arithmetic, no source terms, no relative velocity. Walls: bounce back and Bouzidi bounce back at rest, Neumann. Contraction: closed domains with bounce back. NumPy if the parameters are numbers."},
{"property": "C88", "status": "proved", "theorems": ["C88_collision", "C88_one_parameter", "C88_energy", "C88_simulation", "C88_parameter_refuted"], "note": "Rational arithmetic, no source terms, no relative velocity; closed domains (closed_domain of C54/C72) with bounce back at rest."},
{"property": "C89", "status": "proved", "theorems": ["C89_mirror", "C89_symmetric", "C89_middle", "C89_exchange_refuted"], "note": "Examples C89_example, C89_symmetric_example. C89_exchange_refuted shows that the exchange of axes is not a symmetry."},
{"property": "C90", "status": "proved", "theorems": ["C90_determined", "C90_start_determined", "C90_simulation", "C90_budget", "C90_no_source", "C90_source", "C90_mass", "C90_clock", "C90_half_times_refuted"], "note": "Symbols which have the same value in all the cells (time, time step, extra parameters), no relative velocity; coordinates as symbols are the subject of C66 only. NumPy if the parameters of relaxation have no conserved moments (C63). Examples C90_example, C90_values; C90_half_times_refuted shows that the sources are not integrated by the trapezoidal rule."},
{"property": "C91", "status": "proved", "theorems": ["C91_determined", "C91_no_source", "C91_density", "C91_momentum", "C91_gravity", "C91_friction", "C91_simulation", "C91_budget", "C91_constant_source", "C91_mass", "C91_source_refuted", "C91_friction_refuted"], "note": "The statement describes what the code does; that it is not what the user's sources mean is shown by C91_source_refuted (half of a mass source) and C91_friction_refuted (no friction in the frame of the fluid), recorded as a finding in DESIGN.md. Hypotheses: moments given by polynomials whose span is invariant by translation, parameters 0 for the conserved moments; with NumPy the parameters are numbers and no component of the velocity is just a conserved moment."},
{"property": "C92", "status": "partial", "theorems": ["C92_rounded", "C92_process_grids", "C92_pull", "C92_base", "C92_numpy", "C92_rearranged", "C92_coordinates", "C92_edge", "C92_mass_refuted", "C92_coordinates_refuted", "C92_edge_refuted"], "note": "Independence of the process grid, the storage order and the back end is proved for any arithmetic without laws and any scoped statement list, with the geometry computed exactly. Refuted in binary64: the exact conservation of the mass, and that the coordinates (hence the cells inside an element) do not depend on the process grid; they do not if dx/2 and the corner of the box are integers times a power of two (53 bits)."},
{"property": "C93", "status": "proved", "theorems": ["C93_order", "C93_accepted", "C93_order_refuted"], "note": "Both simulations are described by the same history with the numbers of the distributions changed. Hypotheses: no velocity repeated in a scheme, dictionaries with the key equilibrium, quiet conditions (C93_order_refuted shows that they are needed), the reordered dictionary is built by the oracle of the inverse. C93_accepted: stencil, table of the opposite velocities and boundary of the new order exist. Example C93_example."},
{"property": "C94", "status": "proved", "theorems": ["C94_combined", "C94_single", "C94_source_refuted"], "note": "Both dictionaries are described by the same history. Hypotheses: both are built (the inverse is an oracle), quiet conditions, the conserved moments have the same polynomials. C94_source_refuted: with a source the conserved moments cannot be mixed in. Examples C94_example (two parameters), C94_single_example (one parameter)."},
{"property": "C95", "status": "proved", "theorems": ["C95_step", "C95_interior", "C95_own_cell", "C95_look", "C95_world", "C95_reading_refuted", "C95_processes_refuted", "C95_local_array"], "note": "The step, its independence of the old moments inside, the agreement with C31 for sources of the own cell, the step of several processes and the moments after the user looked at them; refuted: the result does not depend on the process grid and on reads of the moments. The Cython statement is about the position which is read only."},
{"property": "C96", "status": "proved", "theorems": ["C96_operations", "C96_simulation", "C96_schemes", "C96_mass"], "note": "The bounds are computed by the statements of the step in an arithmetic of bounds (NearProofs.v); + - * and the negation, other operations need their own bound. The geometry is exact: the same inner cells, links and distances in both runs. In a closed domain the mass computed in binary64 stays within the sum of these bounds of the exact one (C96_mass)."},
{"property": "C97", "status": "partial", "theorems": ["C97_accepted", "C97_default", "C97_same_layout", "C97_generated_access_partial", "C97_negative_refuted", "C97_reshape"], "note": "The accesses are right when no entry is negative and the space axes increase (as by default); refuted with a negative entry, and by C13_generated_access_refuted for other orders. The rest is proved for all orders."},
{"property": "C98", "status": "proved", "theorems": ["C98_collision", "C98_history", "C98_simulation", "C98_parameter_refuted"], "note": "C98_parameter_refuted shows that the condition on the parameters is needed."},
{"property": "C99", "status": "proved", "theorems": ["C99_step", "C99_alternating", "C99_simulation", "C99_never_uniform"], "note": "For domains whose sides are all periodic, in exact arithmetic."}
]}
