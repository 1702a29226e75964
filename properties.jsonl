{"id": "C01", "title": "1D velocity numbers and coordinates are one-to-one", "statement": "In dimension 1, building a Velocity from an integer coordinate and rebuilding a Velocity from the number it received gives back the same coordinate; building from any number >= 0 and asking for the number of the resulting coordinate gives back that number. Numbers are never negative and two different coordinates never share a number.", "quantifier": "for all integers vx and all numbers num >= 0", "why_tests_cant": "The numbering is an infinite bijection; the tests check a short list of numbers.", "anchors": ["pylbm/stencil.py:Velocity.__init__", "pylbm/stencil.py:Velocity._set_num", "pylbm/stencil.py:Velocity._set_coord"]}
{"id": "C02", "title": "2D velocity numbers and coordinates are one-to-one", "statement": "In dimension 2, Velocity(vx,vy) and Velocity(num) are inverse of each other: every integer pair has a number >= 0, every number >= 0 has exactly one integer pair, and the numbers of the pairs whose larger absolute component is n are exactly (2n-1)^2 .. (2n+1)^2-1 (the velocities are numbered ring by ring).", "quantifier": "for all integers vx, vy and all numbers num >= 0", "why_tests_cant": "The code uses a lookup table, a square root and list indexing with possibly negative indices; tests only reach small rings.", "anchors": ["pylbm/stencil.py:Velocity._R2", "pylbm/stencil.py:Velocity._set_num", "pylbm/stencil.py:Velocity._set_coord"]}
{"id": "C03", "title": "3D velocity numbers and coordinates are one-to-one inside the supported cube", "statement": "In dimension 3, Velocity(vx,vy,vz) receives a number exactly when all components are below 100 in absolute value; rebuilding a velocity from that number gives back the same coordinates, every number below 199^3 is used by exactly one velocity, and velocities are numbered shell by shell of the larger absolute component.", "quantifier": "for all integer triples and all numbers", "why_tests_cant": "There are nearly eight million velocities, and the failing ones are infinitely many.", "anchors": ["pylbm/stencil.py:Velocity._set_num", "pylbm/stencil.py:Velocity._set_coord", "pylbm/stencil.py:permute_in_place"]}
{"id": "C04", "title": "Symmetric of a velocity", "statement": "Velocity.get_symmetric(axis) is an involution, keeps the dimension, negates every component when axis is None and every component except the axis one otherwise, raises ValueError exactly when axis is negative or not below the dimension, and the result carries the number of its own coordinates.", "quantifier": "for all velocities of dimension 1, 2 and 3 and all axis values", "why_tests_cant": "Tests use a few velocities; the involution must hold for all of them since boundary tables are built on it.", "anchors": ["pylbm/stencil.py:Velocity.get_symmetric"]}
{"id": "C05", "title": "The permutation generator lists every distinct arrangement once", "statement": "permute_in_place(data) yields every distinct permutation of data exactly once, in increasing lexicographic order, and leaves data sorted when it is exhausted.", "quantifier": "for all lists of integers of any length, with repetitions", "why_tests_cant": "The number of lists and permutations is unbounded; repeated entries are the delicate case.", "anchors": ["pylbm/stencil.py:permute_in_place", "pylbm/stencil.py:cmp"]}
{"id": "C06", "title": "Stencil tables are consistent", "statement": "For a Stencil built from several elementary schemes: the unique velocities are sorted by number and contain no duplicate, every velocity number given by the user belongs to them, the index table of each scheme sends its local velocities to the unique list at the position holding that very velocity, nv_ptr holds the running totals of the nv, get_all_velocities lists the schemes one after the other in the user's order, and the inverse tables num2index and unum2index undo the numbering.", "quantifier": "for all dimensions, all numbers of schemes and all lists of velocity numbers", "why_tests_cant": "Schemes can share velocities in any pattern; tests only use the textbook stencils.", "anchors": ["pylbm/stencil.py:Stencil.__init__", "pylbm/stencil.py:Stencil.get_all_velocities", "pylbm/stencil.py:Stencil.nv_ptr"]}
{"id": "C07", "title": "Table of opposite velocities", "statement": "For a stencil closed under the chosen symmetry, Stencil.get_symmetric(axis) is an involutive permutation of the velocity indices which stays within each elementary scheme and sends each index to the index of the opposite velocity; for a stencil which is not closed it raises ValueError. Stencil.is_symmetric answers true exactly when every elementary scheme is closed.", "quantifier": "for all stencils, with any number of schemes, and all axes", "why_tests_cant": "Asymmetric and composite stencils are infinitely many; the answer of is_symmetric depends on the position of the asymmetric scheme.", "anchors": ["pylbm/stencil.py:Stencil.get_symmetric", "pylbm/stencil.py:Stencil.is_symmetric"]}
{"id": "C08", "title": "The ghost layer is wide enough for transport", "statement": "The array allocated for a process is wide enough: for every cell of the inner region and every velocity v of the stencil, the cell at position x - v read by the transport lies inside the allocated array.", "quantifier": "for all stencils, all region sizes, all cells and velocities", "why_tests_cant": "An out of range read wraps silently with negative indices; only some stencils trigger it.", "anchors": ["pylbm/stencil.py:Stencil.vmax", "pylbm/storage.py:Array.__init__", "pylbm/algorithm/base.py:BaseAlgorithm.transport_local"]}
{"id": "C09", "title": "The MPI partition covers the domain exactly", "statement": "For any global number of cells and any process grid, the regions given to the processes are contiguous, cover every cell exactly once, are ordered by process coordinates, and their sizes along an axis differ by at most one, the larger ones first.", "quantifier": "for all sizes n >= 0, all numbers of processes per axis >= 1, all dimensions 1 to 3", "why_tests_cant": "Needs many processes and arbitrary non divisible sizes.", "anchors": ["pylbm/mpi_topology.py:MpiTopology.get_region_indices_", "pylbm/mpi_topology.py:MpiTopology.get_region_indices", "pylbm/mpi_topology.py:MpiTopology.get_region"]}
{"id": "C10", "title": "Cell coordinates do not depend on the process grid", "statement": "The coordinates a process holds for its cells are the global cell centres x0 + dx*(g+1/2) of the global cell indices g it owns, ghosts included, so that the coordinates of a run on several processes are the restriction of those of the run on one process, and neighbouring cells are dx apart.", "quantifier": "for all boxes, space steps, halo widths, process grids and cells", "why_tests_cant": "All splits and sizes cannot be enumerated.", "anchors": ["pylbm/domain.py:Domain.create_coords", "pylbm/mpi_topology.py:MpiTopology.get_region"]}
{"id": "C11", "title": "A box that is not a multiple of the space step is rejected", "statement": "Domain accepts a box only when its length in each direction is the space step times a whole number of cells (up to rounding), and the number of cells it then uses is that whole number.", "quantifier": "for all box bounds and all space steps > 0", "why_tests_cant": "The acceptance threshold depends on the units chosen for the space step.", "anchors": ["pylbm/domain.py:Domain.create_coords"]}
{"id": "C12", "title": "The ghost exchange fills every ghost cell with the periodic neighbour value", "statement": "After Array.update on all processes, each ghost cell of each process, edges and corners included, holds the value that the owner of the corresponding cell of the periodic global domain holds in its inner region, and no inner cell has changed.", "quantifier": "for all dimensions, process grids, ghost widths not larger than the smallest region, and all initial array contents", "why_tests_cant": "Depends on the process grid, including 1 or 2 processes per axis where both neighbours are the same process, and on the order of the axes.", "anchors": ["pylbm/storage.py:Array._set_subarray", "pylbm/storage.py:Array.update"]}
{"id": "C13", "title": "Storage order is invisible to the user", "statement": "Reading a value through Array indexing (velocity, then space indices) after writing it through the same indices gives that value and changes no other entry, whatever storage order of the axes was chosen; two storages with different orders that received the same writes give the same reads.", "quantifier": "for all permutations of the axes, all shapes, all sequences of writes and reads", "why_tests_cant": "All permutations, shapes and histories cannot be enumerated.", "anchors": ["pylbm/storage.py:Array.__init__", "pylbm/storage.py:SOA", "pylbm/storage.py:AOS", "pylbm/symbolic.py:set_order"]}
{"id": "C14", "title": "Distance to the walls of the box", "statement": "For a rectangular domain, the distance stored for a fluid cell and a velocity is the smallest fraction of the velocity after which the segment leaves the box (valin when it does not leave), the flag is the label of the wall crossed first, and both are set exactly for cells whose target lies out of the box.", "quantifier": "for all box sizes, all velocities, all labels, all cells", "why_tests_cant": "Velocities of any length and corner cells with ties give infinitely many cases.", "anchors": ["pylbm/domain.py:Domain.__add_init", "pylbm/domain.py:Domain.__init__"]}
{"id": "C15", "title": "Only fluid cells carry boundary links, and solid or added cells follow the order of the elements", "statement": "After the construction of a Domain each cell is either fluid or not, the last element of the geometry that contains the cell decides which, and after cleaning no cell outside the fluid carries a distance or a flag.", "quantifier": "for all lists of elements, added or removed, all cells", "why_tests_cant": "Depends on every possible order and overlap of elements.", "anchors": ["pylbm/domain.py:Domain.__init__", "pylbm/domain.py:Domain.__add_elem", "pylbm/domain.py:Domain.clean"]}
{"id": "C16", "title": "Boundary points are the solid ends of fluid links", "statement": "For each label and velocity, the points treated by the boundary condition are exactly the points reached from a fluid cell flagged with this label by the opposite velocity, and the coordinates passed to the user's boundary function lie on the wall, at the stored distance from the fluid cell along that opposite velocity.", "quantifier": "for all domains, flags, distances, velocities and labels", "why_tests_cant": "All geometries and stencils cannot be enumerated.", "anchors": ["pylbm/boundary.py:BoundaryVelocity", "pylbm/boundary.py:BoundaryMethod.prepare_rhs"]}
{"id": "C17", "title": "Bounce back returns the outgoing particle", "statement": "After the bounce back condition and the transport, the distribution of velocity k at a fluid cell next to a wall is the distribution that the opposite velocity had at this same cell, plus the prescribed right hand side (difference of the wall equilibria); anti bounce back gives minus that distribution plus the sum of the wall equilibria; Neumann gives the distribution of the same velocity at the prescribed neighbour.", "quantifier": "for all fields, all stencils with opposite velocities, all sets of boundary points", "why_tests_cant": "Fields and geometries are infinite.", "anchors": ["pylbm/boundary.py:BounceBack", "pylbm/boundary.py:AntiBounceBack", "pylbm/boundary.py:Neumann"]}
{"id": "C18", "title": "Bouzidi conditions are consistent interpolations", "statement": "The interpolated bounce back reduces to the bounce back when the wall is half way, is continuous in the wall position, uses for every wall position in (0,1] two non negative weights that sum to one, and for a state which is linear along the link it gives the exact value at the point where the particle left, whatever the wall position.", "quantifier": "for all wall distances in (0,1], all fields", "why_tests_cant": "The distance is a real number; the formula changes at one half.", "anchors": ["pylbm/boundary.py:BouzidiBounceBack", "pylbm/boundary.py:BouzidiAntiBounceBack"]}
{"id": "C19", "title": "Boundary updates do not interfere", "statement": "Within one boundary condition pass, a value written for one boundary link is never read by the update of another link of the same condition, so the result does not depend on the order in which the links are processed.", "quantifier": "for all domains whose links join fluid cells to outer points, and all orders of the links", "why_tests_cant": "Order dependence shows only on special geometries and on parallel execution.", "anchors": ["pylbm/boundary.py:BounceBack", "pylbm/boundary.py:AntiBounceBack", "pylbm/boundary.py:Neumann", "pylbm/boundary.py:BouzidiBounceBack"]}
{"id": "C20", "title": "A uniform equilibrium is preserved by its own boundary conditions", "statement": "If the distributions are everywhere the equilibrium of a state and the boundary value is that same state, then applying the boundary condition (bounce back, anti bounce back, Bouzidi, Neumann) writes at the boundary points the same equilibrium values, so the uniform state stays uniform.", "quantifier": "for all states, equilibria, wall distances in (0,1]", "why_tests_cant": "It needs all wall distances and all equilibria.", "anchors": ["pylbm/boundary.py:BounceBack", "pylbm/boundary.py:BouzidiBounceBack", "pylbm/boundary.py:AntiBounceBack", "pylbm/boundary.py:BouzidiAntiBounceBack", "pylbm/boundary.py:Neumann"]}
{"id": "C21", "title": "Moment and inverse matrices stay inverse", "statement": "The matrices M and invM of a Scheme satisfy M*invM = invM*M = identity after the assembly by blocks and after the conserved moments have been moved to the front.", "quantifier": "for all invertible elementary moment matrices, all numbers of schemes and all lists of conserved moments", "why_tests_cant": "Unbounded sizes and permutations.", "anchors": ["pylbm/scheme.py:Scheme._create_moments_matrices", "pylbm/scheme.py:Scheme._permute_consm_in_front"]}
{"id": "C22", "title": "Conserved moments are placed in front consistently", "statement": "After the construction of a Scheme, the index recorded for each conserved moment is the row of the moment matrix, of the equilibrium vector and of the relaxation parameters which belonged to this moment in the user's description, and those indices are 0, 1, 2, ... in the order of the conserved moments; all the other moments are kept, once each.", "quantifier": "for all schemes and all orders in which conserved moments are listed", "why_tests_cant": "The order of the conserved moments and of the equilibria is free.", "anchors": ["pylbm/scheme.py:Scheme._get_conserved_moments", "pylbm/scheme.py:Scheme._permute_consm_in_front"]}
{"id": "C23", "title": "Relaxation keeps the conserved moments", "statement": "The relaxation step leaves every conserved moment of every cell unchanged, whatever the relaxation parameters and the other moments are, with and without relative velocity; with relaxation parameter 0 a moment is unchanged and with 1 it becomes its equilibrium value.", "quantifier": "for all moments vectors, relaxation parameters, equilibrium functions", "why_tests_cant": "Real valued inputs and arbitrary user supplied functions.", "anchors": ["pylbm/algorithm/base.py:BaseAlgorithm.relaxation_local", "pylbm/scheme.py:Scheme._get_equilibrium"]}
{"id": "C24", "title": "Equilibrium is a fixed point of the collision", "statement": "Applying equilibrium twice is the same as once, a cell at equilibrium is unchanged by the relaxation for all relaxation parameters, and a uniform equilibrium state of a periodic domain without source is unchanged by any number of time steps.", "quantifier": "for all schemes, states and numbers of time steps", "why_tests_cant": "Unbounded number of steps and arbitrary states.", "anchors": ["pylbm/algorithm/base.py:BaseAlgorithm.equilibrium_local", "pylbm/algorithm/base.py:BaseAlgorithm.relaxation_local", "pylbm/simulation.py:Simulation.one_time_step"]}
{"id": "C25", "title": "Distributions and moments convert back and forth", "statement": "m2f after f2m gives back the distributions and f2m after m2f gives back the moments, on every cell, whatever mixture of schemes is used.", "quantifier": "for all fields and all schemes", "why_tests_cant": "Infinite fields.", "anchors": ["pylbm/algorithm/base.py:BaseAlgorithm.f2m_local", "pylbm/algorithm/base.py:BaseAlgorithm.m2f_local"]}
{"id": "C26", "title": "The fused pull kernel computes the same step as the separate kernels", "statement": "The one_time_step kernel of the Pull algorithm (which reads shifted distributions directly) gives the same distributions as transport, f2m, source, relaxation, source and m2f applied one after the other by the Base algorithm.", "quantifier": "for all fields, schemes, source terms and cells", "why_tests_cant": "Infinite fields and symbolic schemes.", "anchors": ["pylbm/algorithm/base.py:BaseAlgorithm.one_time_step_local", "pylbm/algorithm/pull.py:PullAlgorithm.one_time_step_local"]}
{"id": "C27", "title": "Global conservation over any number of time steps", "statement": "In a periodic domain without source term, the sum over the domain of each conserved moment is the same after any number of time steps as at the beginning.", "quantifier": "for all schemes, initial fields, relaxation parameters, domain sizes, numbers of steps", "why_tests_cant": "Unbounded number of steps and arbitrary data.", "anchors": ["pylbm/simulation.py:Simulation.one_time_step", "pylbm/algorithm/base.py:BaseAlgorithm.transport_local", "pylbm/algorithm/base.py:BaseAlgorithm.relaxation_local"]}
{"id": "C28", "title": "Transport moves each distribution by its own velocity", "statement": "The transport of a periodic field is a permutation of the values of each distribution: after n transports the value of velocity k found in cell x is the value that was in cell x - n*v_k (indices modulo the domain), nothing is lost or duplicated, and the step commutes with translations of the domain.", "quantifier": "for all fields, sizes, velocities, numbers of steps, translations", "why_tests_cant": "Unbounded histories.", "anchors": ["pylbm/algorithm/base.py:BaseAlgorithm.transport_local", "pylbm/storage.py:Array.update"]}
{"id": "C29", "title": "A parallel run gives the same result as a run on one process", "statement": "For a periodic domain, after any number of time steps the inner values held by all processes of any process grid, glued together, equal the values computed by a single process from the same initial data.", "quantifier": "for all process grids, sizes, schemes, initial fields and numbers of steps", "why_tests_cant": "All process grids and histories.", "anchors": ["pylbm/simulation.py:Simulation.one_time_step", "pylbm/storage.py:Array.update", "pylbm/mpi_topology.py:MpiTopology"]}
{"id": "C30", "title": "Solid cells are not modified by the kernels when the fluid test is on", "statement": "With the check of fluid cells enabled, a time step changes no distribution of a cell that is not fluid.", "quantifier": "for all masks, fields and schemes", "why_tests_cant": "All masks and fields.", "anchors": ["pylbm/algorithm/base.py:BaseAlgorithm.one_time_step"]}
{"id": "C31", "title": "Source terms act by two half steps", "statement": "In a time step with source terms, each conserved moment with a source receives half a time step of its source before the relaxation and half after, evaluated with the current moments; moments without source receive nothing.", "quantifier": "for all source functions, schemes, cells", "why_tests_cant": "Arbitrary user supplied functions.", "anchors": ["pylbm/algorithm/base.py:BaseAlgorithm.source_term_local", "pylbm/algorithm/ode.py:euler", "pylbm/scheme.py:Scheme.set_source_terms"]}
{"id": "C32", "title": "Moments read by the user are those of the current distributions", "statement": "Whenever the user reads the moments of a Simulation, the values returned are the moments of the distributions at that moment, whatever sequence of time steps, reads and writes of moments and distributions came before.", "quantifier": "for all sequences of public operations", "why_tests_cant": "Unbounded histories; a lazy update flag decides whether the moments are recomputed.", "anchors": ["pylbm/simulation.py:Simulation.m", "pylbm/simulation.py:Simulation.m_halo", "pylbm/simulation.py:Simulation.F_halo", "pylbm/simulation.py:Simulation.one_time_step"]}
{"id": "C33", "title": "Time, iteration counter and buffers advance together", "statement": "After n time steps the iteration counter is n, the time is n times the time step, and the distributions visible to the user are those computed by the last step, whatever other operations were interleaved.", "quantifier": "for all n and all sequences of public operations", "why_tests_cant": "Unbounded histories.", "anchors": ["pylbm/simulation.py:Simulation.one_time_step", "pylbm/container.py:Container"]}
{"id": "C34", "title": "Backends with one or two buffers give the same results", "statement": "A run with the NumPy container (where the new distributions share the storage of the old ones) and a run with the Cython container (two storages swapped at each step) show the same distributions and moments to the user after every sequence of time steps.", "quantifier": "for all schemes, fields, numbers of steps", "why_tests_cant": "Aliasing bugs depend on the order of evaluation of every cell.", "anchors": ["pylbm/container.py:NumpyContainer", "pylbm/container.py:CythonContainer", "pylbm/simulation.py:Simulation.one_time_step", "pylbm/generator/codegen.py:NumPyCodeGen"]}
{"id": "C35", "title": "The HDF5 file holds the global field", "statement": "A scalar or vector field written by all processes of a process grid gives a dataset in which every entry is the value of the field at the global cell with these indices, each entry being written by exactly one process.", "quantifier": "for all process grids, sizes, dimensions 1 to 3, fields", "why_tests_cant": "All process grids and sizes.", "anchors": ["pylbm/hdf5.py:H5File.set_grid", "pylbm/hdf5.py:H5File._get_slice", "pylbm/hdf5.py:H5File.add_scalar", "pylbm/hdf5.py:H5File.add_vector"]}
{"id": "C36", "title": "The XDMF description matches the HDF5 datasets", "statement": "The dimensions written in the XDMF file for the grid, the scalar fields and the vector fields are the dimensions of the datasets of the HDF5 file.", "quantifier": "for all dimensions, sizes and fields", "why_tests_cant": "Concerns the relation of two files for all sizes and dimensions.", "anchors": ["pylbm/hdf5.py:H5File.save", "pylbm/hdf5.py:H5File.add_vector"]}
{"id": "C37", "title": "Inside test and bounding box of round elements", "statement": "For circles, ellipses, spheres and ellipsoids the inside test is true exactly for the points of the geometric shape, and every such point lies in the bounding box given by get_bounds, which is the smallest box for circles and spheres.", "quantifier": "for all centres, radii, axes and points", "why_tests_cant": "Real valued inputs.", "anchors": ["pylbm/elements/circle.py:Circle", "pylbm/elements/ellipse.py:Ellipse", "pylbm/elements/sphere.py:Sphere", "pylbm/elements/ellipsoid.py:Ellipsoid"]}
{"id": "C38", "title": "Inside test and bounding box of parallelograms and triangles", "statement": "For parallelograms and triangles the inside test is true exactly for the points point + a*v1 + b*v2 with a, b in [0,1] (parallelogram) or a, b >= 0 and a + b <= 1 (triangle), and every such point lies in the box given by get_bounds, which is the smallest one.", "quantifier": "for all vertices and all points, non degenerate elements", "why_tests_cant": "Real valued inputs.", "anchors": ["pylbm/elements/parallelogram.py:Parallelogram", "pylbm/elements/triangle.py:Triangle"]}
{"id": "C39", "title": "Distance to straight edges", "statement": "The distance computed from a point along a velocity to a set of edges is the smallest positive fraction at which the half line meets one of the edges, at most the given maximum, and the point it designates lies on the edge; if no edge is met the value is the default; two lines have no intersection only when they are parallel.", "quantifier": "for all points, velocities, edges, maxima", "why_tests_cant": "Real valued inputs.", "anchors": ["pylbm/elements/utils.py:intersection_two_lines", "pylbm/elements/utils.py:distance_lines"]}
{"id": "C40", "title": "Bounding box of cylinders contains the cylinder", "statement": "Every point for which the inside test of a cylinder is true lies in the bounding box given by get_bounds, so that no cell of the element is missed.", "quantifier": "for all centres, axes and points", "why_tests_cant": "Real valued inputs.", "anchors": ["pylbm/elements/cylinder.py:Cylinder.get_bounds", "pylbm/elements/cylinder.py:Cylinder.point_inside"]}
{"id": "C41", "title": "Distance to round elements", "statement": "The distance computed from an outer point along a velocity to an ellipse or an ellipsoid is the smallest positive fraction at which the half line meets the curve or surface, the designated point lies on it, and the default is returned exactly when it is not met before the maximum.", "quantifier": "for all points, velocities, axes, maxima", "why_tests_cant": "Real valued inputs.", "anchors": ["pylbm/elements/utils.py:distance_ellipse", "pylbm/elements/utils.py:distance_ellipsoid"]}
{"id": "C42", "title": "The Schur test is exact", "statement": "is_S answers true for a polynomial of degree at least one exactly when all its complex roots have modulus strictly less than one.", "quantifier": "for all complex polynomials of any degree >= 1 with non zero leading coefficient, in exact arithmetic", "why_tests_cant": "Recursive criterion over all degrees and complex coefficients.", "anchors": ["pylbm/analysis/stability.py:is_S", "pylbm/analysis/stability.py:operator_circ", "pylbm/analysis/stability.py:operator_star"]}
{"id": "C43", "title": "The von Neumann tests are exact away from the tolerance", "statement": "is_vN answers true exactly when all roots have modulus at most one, and is_svN exactly when moreover the roots of modulus one are simple, as long as no compared quantity falls in the tolerance window; a scheme reported stable has no amplification factor of modulus larger than one.", "quantifier": "for all complex polynomials of degree >= 1, in exact arithmetic", "why_tests_cant": "Recursive criterion over all degrees and coefficients; the tolerance is absolute.", "anchors": ["pylbm/analysis/stability.py:is_vN", "pylbm/analysis/stability.py:is_svN", "pylbm/analysis/stability.py:operator_deriv"]}
{"id": "C44", "title": "The amplification matrix has the spectrum of one time step", "statement": "For each wave vector, the eigenvalues of the matrix built by Stability are those of one linearised time step of the scheme acting on plane waves (with the opposite wave vector), and the coefficients computed from it are those of its characteristic polynomial.", "quantifier": "for all schemes, wave vectors and sizes", "why_tests_cant": "All sizes and entries.", "anchors": ["pylbm/analysis/stability.py:Stability.__init__", "pylbm/analysis/stability.py:Stability.eigenvalues", "pylbm/analysis/stability.py:algo_cohn_schur"]}
{"id": "C45", "title": "Colors stay in range", "statement": "hsl_to_rgb returns for all hue, saturation and lightness in [0,1] three components in [0,1], grey when the saturation is zero, and the value it returns is the standard conversion.", "quantifier": "for all h, s, l in [0,1]", "why_tests_cant": "Real valued inputs, branches on h.", "anchors": ["pylbm/utils.py:hsl_to_rgb"]}
{"id": "C46", "title": "Timings of nested monitored calls add up", "statement": "For every well bracketed sequence of starts and stops of timers with increasing clock values, the own times of all the timers add up to the time spent in the outermost calls, and no timer is left open.", "quantifier": "for all sequences of nested calls", "why_tests_cant": "Unbounded call trees.", "anchors": ["pylbm/monitoring.py:PerfMonitor", "pylbm/monitoring.py:monitor"]}
{"id": "C47", "title": "Rewriting of the user's expressions", "statement": "When the conserved moments are replaced by array entries in an expression, every conserved name becomes the entry of the right index in the right storage order and all other tokens are unchanged.", "quantifier": "for all token lists, all sets of conserved names and storage orders", "why_tests_cant": "All expressions.", "anchors": ["pylbm/algorithm/transform.py:parse_expr", "pylbm/algorithm/transform.py:transform_expr", "pylbm/symbolic.py:set_order"]}
{"id": "C48", "title": "Labels of the geometry", "statement": "The labels of a box are expanded to one label per side (a single integer is repeated), list_of_labels returns every label used by the box sides and the elements, without duplicates, and nothing else. Adding elements of the dimension of the box one by one gives the geometry which has them after the others, in this order; add_elem does not refuse another dimension, the constructor does.", "quantifier": "for all boxes, labels and lists of elements", "why_tests_cant": "Unbounded lists of elements.", "anchors": ["pylbm/geometry.py:get_box", "pylbm/geometry.py:Geometry.__init__", "pylbm/geometry.py:Geometry.list_of_labels"]}
{"id": "C49", "title": "First order flux of the equivalent equation", "statement": "The first order coefficients given by EquivalentEquation are, for each space direction, the sum over the velocities of the velocity component times la times the conserved moment carried by the equilibrium distribution of that velocity.", "quantifier": "for all schemes and states", "why_tests_cant": "All schemes and states.", "anchors": ["pylbm/analysis/equivalent_equation.py:EquivalentEquation.__init__"]}
{"id": "C50", "title": "The relative velocity frame is an exact change of frame", "statement": "With a relative velocity, shifting the moments by u and by -u are inverse of each other, so that the collision in the moving frame keeps the conserved moments and with equal relaxation parameters gives the same result as in the fixed frame.", "quantifier": "for all schemes and velocities u", "why_tests_cant": "All velocities and schemes.", "anchors": ["pylbm/scheme.py:Scheme._create_moments_matrices", "pylbm/algorithm/base.py:BaseAlgorithm.relaxation_local"]}
{"id": "C51", "title": "The interior view is exactly the cells that are not ghosts", "statement": "Array._in(key), used to read the moments and distributions without the ghost cells, returns exactly the cells which are not ghosts, in order, on each axis.", "quantifier": "for all sizes and ghost widths", "why_tests_cant": "All widths including zero.", "anchors": ["pylbm/storage.py:Array._in"]}
{"id": "C52", "title": "Normal vectors of the borders", "statement": "The normal vector returned with the distance to an element is a unit vector, orthogonal to the border at the point that is hit, and does not point in the direction of the velocity.", "quantifier": "for all elements, points and velocities for which a border is found", "why_tests_cant": "All shapes, points and directions; the tests only check distances.", "anchors": ["pylbm/elements/utils.py:distance_lines", "pylbm/elements/utils.py:distance_ellipse", "pylbm/elements/utils.py:distance_ellipsoid", "pylbm/elements/cylinder.py:Cylinder.distance"]}
{"id": "C53", "title": "The distance to a cylinder is the first crossing of its surface", "statement": "Cylinder.distance returns the smallest positive multiple (at most dmax) of the velocity leading to the side or the ends of the cylinder with the label of the part that is hit, and -1 if there is none; a link from an outer point to an inner point is always found.", "quantifier": "for all cylinders with any of the four bases, all points off the surface and all velocities", "why_tests_cant": "All oblique frames and directions, combining a base in the plane with two ends.", "anchors": ["pylbm/elements/cylinder.py:Cylinder.distance", "pylbm/elements/base.py:BaseCircle.distance"]}
{"id": "C54", "title": "A vessel closed by bounce back walls keeps its mass", "statement": "In a domain whose sides and elements all carry the bounce back condition with walls at rest, every even conserved moment (for instance the mass) summed over the fluid cells is unchanged by any number of time steps; with Bouzidi's bounce back this fails.", "quantifier": "for all stencils, boxes, elements, schemes (with or without relative velocity), initial values and numbers of steps", "why_tests_cant": "Needs all geometries and states; the tests compare a few runs with stored fields.", "anchors": ["pylbm/boundary.py:Boundary", "pylbm/boundary.py:BounceBack", "pylbm/domain.py:Domain", "pylbm/simulation.py:one_time_step"]}
{"id": "C55", "title": "Walls and periodic sides together", "statement": "In a box with periodic sides along some axes and bounce back walls along the others, a distribution that enters a cell through a wall is the reflected one, all the others come from the fluid around the box, and even conserved moments keep their total.", "quantifier": "for all boxes, stencils, states and cells, corners included", "why_tests_cant": "The corners where a wall meets a periodic side depend on the order of the axes and on the velocities; the tests look at global fields of a few cases.", "anchors": ["pylbm/domain.py:Domain.__add_init", "pylbm/domain.py:construct_mpi_topology", "pylbm/storage.py:Array.update", "pylbm/boundary.py:Boundary"]}
{"id": "C56", "title": "Second order equivalent equation", "statement": "The partial differential equation printed by EquivalentEquation, with its second order terms, is the one satisfied up to the third order in the time step by the solutions of the scheme that are smooth in space and time; the other moments then follow the conserved ones to first order.", "quantifier": "for all stencils, moments, relaxation parameters, linear and nonlinear equilibria, space dimensions and smooth fields", "why_tests_cant": "Tests compare the printed formulas with formulas computed by hand for a few schemes; they do not relate them to the time step.", "anchors": ["pylbm/analysis/equivalent_equation.py:EquivalentEquation"]}
{"id": "C57", "title": "Boundary conditions and domain decomposition", "statement": "The solid cells and the boundary links of the processes are exactly those of the same box and solid elements on one process, each link on the process that owns the fluid cell, with the same distance, label, normal and wall point; and a run on any process grid (exchange of the ghost cells, boundary conditions of each process, time step) computes in every cell the same values as a run on any other process grid.", "quantifier": "for all boxes with any labels (walls, periodic, mixed) in dimension 1 to 3, lists of solid elements such that no segment of a velocity between two fluid cells meets an element, stencils, schemes, conditions without reads of values written by conditions, boundary functions depending on time and space, process grids on which the domains exist, initial values and numbers of steps", "why_tests_cant": "The test suite runs on one process; comparing process grids would test some sizes and positions of the walls only.", "anchors": ["pylbm/domain.py:Domain", "pylbm/boundary.py:Boundary", "pylbm/mpi_topology.py:MpiTopology", "pylbm/simulation.py:Simulation.boundary_condition"]}
{"id": "C58", "title": "Initial state of a simulation", "statement": "After the initialisation from moments, the conserved moments of the distributions are the values given by the user (the last entry wins; a conserved moment without entry keeps its value), the other moments are at equilibrium whatever was given for them, the array of the moments agrees with the distributions and both storages are equal; from distributions, the distributions are the given values and the moments follow. A simulation made with initialize=False is initialised by its first time step, exactly once, and the first step starts from these values.", "quantifier": "for all schemes with an invertible moment matrix, equilibria, initial data, states and sequences of operations before and after the first step, with one or two storages", "why_tests_cant": "Tests compare the fields of examples after many steps; they do not look at the non conserved moments, at the second storage, or at operations before the first step.", "anchors": ["pylbm/simulation.py:Simulation.initialization", "pylbm/simulation.py:Simulation._initialize", "pylbm/simulation.py:Simulation.one_time_step"]}
{"id": "C59", "title": "Replacement of the parameters", "statement": "In the equilibria, the relaxation parameters and the relative velocity, every parameter of the dictionary (and every coordinate and conserved moment) is replaced, also when values of parameters are expressions of other parameters in any order, and the value of the result is that of the expression with the values of the parameters; in the matrices all the parameters are replaced too.", "quantifier": "for all expressions, dictionaries of parameters without circular definition, orders of the dictionary, meanings of the operators and values of the other symbols", "why_tests_cant": "The examples use dictionaries whose values are numbers, so one pass is enough and the order does not matter.", "anchors": ["pylbm/symbolic.py:recursive_sub", "pylbm/algorithm/base.py:BaseAlgorithm.__init__", "pylbm/analysis/stability.py:Stability.eigenvalues"]}
{"id": "C60", "title": "Equilibria of the walls", "statement": "At every step, the distributions used for a prescribed boundary condition at a point of the wall are those whose conserved moments are the values given by the user's function of the label at this point, at the current time when the condition depends on time (at the start otherwise), and whose other moments are at equilibrium; they are zero for a label without value; labels of the same method do not interfere.", "quantifier": "for all schemes whose equilibria depend on the conserved moments, lists of links and labels, functions of the user which set the conserved moments, and sequences of times", "why_tests_cant": "The test cases have few labels and constant or stationary values, and never check the table itself, only final fields with a tolerance.", "anchors": ["pylbm/boundary.py:BoundaryMethod.prepare_rhs", "pylbm/boundary.py:BoundaryMethod.update_feq", "pylbm/simulation.py:Simulation._initialize", "pylbm/simulation.py:Simulation.boundary_condition"]}
{"id": "C61", "title": "The kernels printed for NumPy and Cython compute the same arrays", "statement": "A kernel (a loop over the cells with assignments to arrays and local symbols) printed for NumPy, as statements on slices with broadcasting, does not raise and gives the same arrays as the nested loops printed for Cython, for every order of the cells; this holds for the step of the pull algorithm on a grid whose axes are longer than twice the halo, with the moments as an array or as local variables, and with one loop or one loop for each statement. The conditions (accesses in the arrays, same axes in the same order, no element written by a cell and used by another, symbols assigned before use and not views of arrays) are each needed.", "quantifier": "for all kernels, right hand sides, dimensions, ranges, shapes of arrays, storage places of the component, velocities within the halo, initial arrays and initial values of the local variables", "why_tests_cant": "The tests compare final fields of a few schemes within a tolerance, and never a scheme whose symbols alias an array; the equivalence of slices and loops is for all programs and sizes.", "anchors": ["pylbm/generator/printing/pycode.py:NumPyPrinter._print_Indexed", "pylbm/generator/printing/pycode.py:NumPyPrinter._print_For", "pylbm/generator/printing/cython.py:CythonCodePrinter._print_For", "pylbm/generator/ast.py:For", "pylbm/algorithm/base.py:BaseAlgorithm.one_time_step", "pylbm/algorithm/pull.py:PullAlgorithm.one_time_step_local"]}
{"id": "C62", "title": "Elements given by a mesh of triangles", "statement": "The intersection of a half line and a triangle is the point where they meet, or none; distance gives the first intersection with the mesh up to dmax, the label and the normal of a triangle that gives it. point_inside tells the inside of the body whose surface is the mesh, for points off the surface whose half lines along the axes cross the surface where they meet it; in particular for convex bodies, and for boxes for all points off the six planes. The bounds contain the surface and the body. A domain with solid elements has as fluid cells those outside of all the bodies, a fluid cell has a link exactly where the next cell is not fluid, and the link carries the first intersection. This fails for grazing half lines, for cells on the surface, and for fluid elements through a wall.", "quantifier": "for all meshes of triangles with outward normals, all points, directions and dmax, all bodies and convex bodies, all three dimensional grids, velocities, labels and lists of solid elements", "why_tests_cant": "The tests have no STL file at all; the geometric claims hold for infinitely many meshes and points.", "anchors": ["pylbm/elements/stl_element.py:intersection", "pylbm/elements/stl_element.py:STLElement.point_inside", "pylbm/elements/stl_element.py:STLElement.distance", "pylbm/elements/stl_element.py:STLElement.get_bounds", "pylbm/domain.py:Domain.__add_elem"]}
{"id": "C63", "title": "The kernels generated for NumPy and Cython compute the step of the scheme, on every process grid", "statement": "Take the symbolic statements built by one_time_step of the base and pull algorithms from a scheme (moments matrix, its inverse, equilibria, relaxation parameters, relative velocity matrix, sources), printed as the loops of Cython and as the slices of NumPy, and run by each process on its own arrays between updates of the ghosts. (1) Each inner cell gets the value which the formula transport, f2m, half source, relaxation, half source, m2f gives from the arrays before the kernel; no other cell changes. (2) The runs of all the processes, glued, are the serial step iterated, whatever the process grid. (3) If the equilibria of the conserved moments are these moments, there is no source and the box is periodic, the sums of the conserved moments are constant. (4) The NumPy kernels need relaxation parameters which do not read the conserved moments.", "quantifier": "all schemes (numbers of velocities and of conserved moments, matrices, expression trees), all dimensions, array sizes, ghost widths at least the largest velocity, all contents of the arrays, all process grids, all numbers of steps, all commutative rings", "why_tests_cant": "Tests run a few schemes of the demos on small grids with one back end at a time; they can neither range over expressions, relative velocities and process grids nor compare all the cells with the formula.", "anchors": ["pylbm/algorithm/base.py:191-600", "pylbm/algorithm/pull.py", "pylbm/generator/printing/cython.py:212-342", "pylbm/generator/printing/pycode.py:1063-1122", "pylbm/container.py", "pylbm/simulation.py"]}
{"id": "C64", "title": "The step which is computed is the one written in the dictionary", "statement": "Let a scheme be built from a dictionary: stencils, polynomials (or the matrix M), relaxation parameters, equilibria (or distributions at equilibrium), conserved moments and source terms of each elementary scheme. In the order and with the names of the dictionary, the distributions written by the generated kernels at a cell are, from those which arrive from the neighbours, the ones whose conserved moments have got two half steps of their sources and whose other moments have relaxed to their own equilibrium with their own parameter, evaluated for the conserved moments between the half steps; this determines them. It holds for both back ends, at every inner cell, and for any number of steps on every process grid; without sources the sum of each conserved moment over the domain is constant. With a relative velocity the moments of polynomials relax in the frame which moves with the velocity of the cell, to those of the distributions at equilibrium; with the key M the relative velocity has no effect. The construction does not change the dictionary. It needs conserved moments in an order compatible with the moments and lists of the right sizes, and fails for a second construction with the key M.", "quantifier": "for all dictionaries (numbers of schemes, velocities, polynomials as expressions, equilibria, parameters, sources, orders of the moments), all distributions, grids, process grids and numbers of steps, all commutative rings", "why_tests_cant": "The tests run some demos and compare with stored results; they do not compare the step with the dictionary, and all their dictionaries list the conserved moments in the order of the moments and are used once.", "anchors": ["pylbm/scheme.py:Scheme.__init__", "pylbm/scheme.py:Scheme._create_moments_matrices", "pylbm/scheme.py:Scheme._get_equilibrium", "pylbm/scheme.py:Scheme._get_conserved_moments", "pylbm/scheme.py:Scheme._permute_consm_in_front", "pylbm/scheme.py:Scheme._check_entry_size", "pylbm/algorithm/base.py:BaseAlgorithm.__init__"]}
{"id": "C65", "title": "A whole simulation with boundary conditions follows its dictionary on every process grid", "statement": "Simulation.one_time_step updates the ghosts, applies the boundary methods, runs the generated kernel on each process and exchanges the storages. For a scheme built from a dictionary on a box with solid elements and bounce-back, anti-bounce-back (and mixed) conditions, and a thick enough domain: (1) there is one history of the whole domain in which every cell follows the dictionary from what arrives in it, the value of the condition where there is a wall, the value of the neighbour (through periodic sides) elsewhere; (2) whatever the process grid, the order of the storage and the back end (Cython, or NumPy with constant parameters), the values computed by all the processes are this history at every step and NumPy raises no error; (3) in a vessel closed by bounce back, or a channel with bounce-back walls and periodic sides, walls at rest, without sources, the sum over the fluid cells of all the processes of each conserved moment which counts opposite velocities the same (the density) is constant.", "quantifier": "for all dictionaries, boxes, solid elements, boundary conditions, initial values, process grids, storage orders, numbers of steps, all commutative rings", "why_tests_cant": "The tests compare a few demos with stored results on one process; they cannot range over dictionaries, process grids and boundaries, nor separate the part of the kernels, of the conditions and of the exchanges.", "anchors": ["pylbm/simulation.py:Simulation.one_time_step", "pylbm/simulation.py:Simulation.boundary_condition", "pylbm/boundary.py", "pylbm/algorithm/base.py", "pylbm/algorithm/pull.py", "pylbm/scheme.py", "pylbm/generator/printing", "pylbm/mpi_topology.py", "pylbm/container.py"]}
{"id": "C66", "title": "The symbols of the user have their values in the generated kernels", "statement": "The equilibria, relaxation parameters, relative velocities and source terms of a dictionary are expressions of the conserved moments, of the time t, of the coordinates X, Y, Z, of the time step and of symbols whose value is given in sol.extra_parameters or as argument of one_time_step. Every generated kernel, with both back ends, gets the value of each of these symbols which the user means (the coordinates of the cell, the current time, the value given) and no call raises an error.", "quantifier": "for all expressions, all sets of conserved moments and extra parameters, all values, all cells, dimensions, kernels (one_time_step, equilibrium, relaxation, source_term), both back ends", "why_tests_cant": "No test or demo uses coordinates or extra parameters in a scheme, and an uninitialised variable often holds a plausible value.", "anchors": ["pylbm/algorithm/base.py:92-155", "pylbm/algorithm/base.py:265-271", "pylbm/algorithm/base.py:551-600", "pylbm/algorithm/base.py:630-681", "pylbm/symbolic.py:call_genfunction", "pylbm/generator/codegen.py:CodeGen.routine", "pylbm/generator/codegen.py:CythonCodeGen._declare_locals"]}
{"id": "C67", "title": "Flow around obstacles between walls and periodic sides", "statement": "In a box with periodic sides along some axes, bounce back walls along the others and elements with bounce back borders inside, each distribution of a fluid cell is after a step the one of the image in the box of the cell it comes from, or the reflected one if it comes from behind a wall or from a solid cell; without sources and with everything at rest, the sum over the fluid cells of each conserved moment which counts opposite velocities the same is constant, on one process or several, with hand written or generated kernels.", "quantifier": "for all boxes, lists of elements, stencils, states, fluid cells, process grids and numbers of steps, all commutative rings", "why_tests_cant": "The demos of flows around obstacles are compared with stored results of a few steps; whether every link at every corner, border and periodic side goes to the right place is not visible in them.", "anchors": ["pylbm/domain.py:Domain.__add_init", "pylbm/domain.py:Domain.__add_elem", "pylbm/storage.py:Array.update", "pylbm/boundary.py:Boundary", "pylbm/simulation.py:Simulation.one_time_step"]}
{"id": "C68", "title": "A simulation starts from the initial values of its dictionary, on every process grid", "statement": "Simulation.initialization writes the values of dico['init'] (a number or a function of the coordinates, for a symbol of a conserved moment or an integer) into the moments, then calls the generated kernels equilibrium and m2f on all the cells of the process with the halo, and copies the distributions. There is one field of the whole domain such that on every process grid, with both back ends and every order of the storage, no error is raised and the distributions of the inner cells of the processes are this field; in each cell the conserved moments have the value given by the last entry which names them (0 without an entry) at the coordinates of the cell of the whole domain, and every moment has its equilibrium value; this determines the distributions. With the type 'distributions' the values are those of the user. A key which is neither a conserved moment nor an integer in the range is an error on every process. Together with C65: a whole simulation, from its dictionary to any step, is one history, whatever the process grid; in a closed vessel the total mass is at all times the sum of the user's function over the fluid cells.", "quantifier": "for all dictionaries, initial values and functions of the coordinates, boxes, elements, process grids, storage orders, both back ends, numbers of steps, all commutative rings", "why_tests_cant": "The tests run a few initial conditions on one process and compare the result of many steps; a value placed one cell too far on one process, a row in the wrong order after the permutation of the conserved moments or an unset moment is hidden.", "anchors": ["pylbm/simulation.py:254-318", "pylbm/algorithm/base.py:157-168", "pylbm/algorithm/base.py:336-402", "pylbm/storage.py:133-136", "pylbm/container.py:55-75", "pylbm/scheme.py:225-241"]}
{"id": "C69", "title": "The text of the generated files has the block structure of the kernels", "statement": "The printers write a loop as a line 'for i in range(a, b):' per index, the text of the statements of the body, and a comment '#end' per index; statements whose two sides have the same text are dropped; doprint strips and indents the lines several times, indent_code counts the lines which end with ':' and 'end' and dump_code writes the header, the signatures, the declarations and the bodies of all the routines. For both back ends the file, read by the rule of Python (lines of a suite have one indentation, larger than the header; comments and blank lines are ignored; a suite is not empty), is one block per kernel with its declarations, its nested loops around their statements in order, and nothing else; this reading is unique. A right side which ends with 'end' (a symbol named tend) moves the statement out of its loop without any error; a loop, or a NumPy kernel, whose statements are all of the form x = x is not a source (equilibrium of a scheme whose moments are all conserved).", "quantifier": "for all lists of routines, names, arguments, local variables, nested loops and texts of the sides of the statements", "why_tests_cant": "The tests compile a few schemes; the effect of one more nested indentation, of an empty body or of the name of a symbol on the structure of the file cannot be seen by running them.", "anchors": ["pylbm/generator/printing/cython.py:101-151", "pylbm/generator/printing/cython.py:301-342", "pylbm/generator/printing/cython.py:379-410", "pylbm/generator/printing/pycode.py:683-748", "pylbm/generator/printing/pycode.py:1086-1152", "pylbm/generator/codegen.py:942-993", "pylbm/generator/codegen.py:1030-1164", "pylbm/generator/codegen.py:1195-1300"]}
{"id": "C70", "title": "The text of an expression has the value of the expression", "statement": "The printers turn the expressions of SymPy (numbers, symbols, elements of arrays with indices and slices, sums, products with a rational coefficient and factors in the denominator, powers, calls) into the text of Cython and NumPy. This text, read with the grammar and the precedence of Python (unary minus, ** to the right, left associative products and quotients, left associative sums, calls, subscripts), is an expression whose unique value is the value of the expression of SymPy; so both back ends compute the same number whatever the signs SymPy extracts. NumPy has a text for every expression; Cython has one if and only if every exponent is a number (x**n raises TypeError). A Piecewise inside of an expression is printed with the syntax of C by the Cython printer: no text which contains it is an expression.", "quantifier": "for all expressions, values of the symbols, arrays and functions, numbers with an inverse and powers, answers of could_extract_minus_sign", "why_tests_cant": "The tests compile the expressions of the schemes which they use; a missing pair of parentheses, a wrong sign or a wrong precedence only shows for particular nestings of sums, products, quotients and powers, and there are infinitely many.", "anchors": ["pylbm/generator/printing/cython.py:190-223", "pylbm/generator/printing/cython.py:242-279", "pylbm/generator/printing/pycode.py:424-505", "pylbm/generator/printing/pycode.py:927-942", "pylbm/generator/printing/pycode.py:1063-1085"]}
{"id": "C71", "title": "A uniform state at rest stays at rest, on every process grid", "statement": "A simulation starts from constant initial values in equilibrium, the sources vanish on this state, and at every link the condition gives the state back (for bounce back: the difference of the equilibria imposed at the wall for the two opposite velocities is the difference of the state; for the anti bounce back: the sum; Bouzidi: the same with the weight of the interpolation). Then the distributions of all the cells keep their values at all steps, on every process grid, with both back ends. In particular a state which is symmetric in the velocities, between walls at rest with bounce back or Bouzidi bounce back and around solid elements, does not move, whatever the densities given at the walls.", "quantifier": "for all dictionaries, boxes, elements, boundary conditions, process grids, storage orders, both back ends, numbers of steps, all commutative rings", "why_tests_cant": "The tests compare a few runs with stored results; a spurious current next to one kind of wall, in one direction, on one process grid is not among them.", "anchors": ["pylbm/simulation.py:374-420", "pylbm/simulation.py:254-318", "pylbm/boundary.py:400-893", "pylbm/algorithm/base.py:191-600"]}
{"id": "C72", "title": "Information moves at most one velocity per step", "statement": "The distributions of a cell after t steps only depend on the initial values of the cells at most t*V away in each direction (with the periodic sides), where V is the largest component of a velocity, and on the values imposed, during the step s, at the walls at most (t-s)*V away. Two simulations, with other data elsewhere and on other process grids, have the same values there.", "quantifier": "for all dictionaries, pairs of initial data and wall data, boxes, elements, process grids, numbers of steps, all commutative rings", "why_tests_cant": "The tests run whole simulations; a halo which brings a value from a wrong place far away changes a few cells near the sides of the processes for particular grids only.", "anchors": ["pylbm/simulation.py:374-420", "pylbm/storage.py:210-368", "pylbm/boundary.py:400-893", "pylbm/algorithm/pull.py:11-59"]}
{"id": "C73", "title": "Superposition for linear schemes", "statement": "If the equilibria and the sources are linear in the conserved moments and the parameters of relaxation are numbers, the simulation of a linear combination of two initial data and of two sets of wall values is the linear combination of the simulations, in every cell and at every step, for every boundary condition and both back ends.", "quantifier": "for all linear dictionaries, coefficients, initial data, wall data, boxes, elements, conditions, process grids, numbers of steps, all commutative rings", "why_tests_cant": "A constant added by a boundary condition or by the initialization, or a use of the absolute value of a distribution, is not seen by runs from one initial condition.", "anchors": ["pylbm/simulation.py:254-318", "pylbm/simulation.py:374-420", "pylbm/boundary.py:400-893", "pylbm/algorithm/base.py:191-600"]}
{"id": "C74", "title": "Translation of the data translates the simulation", "statement": "In a box whose sides are all periodic and without elements, initial data moved by any vector of cells give the simulation moved by this vector: no cell is special, neither the first and the last ones, nor those at the sides of the processes; also with sources.", "quantifier": "for all dictionaries, initial data, vectors, periodic boxes, process grids, storage orders, both back ends, numbers of steps, all commutative rings", "why_tests_cant": "The tests run one position of the initial data; the dependence on the position shows only for data placed across the sides of particular process grids.", "anchors": ["pylbm/simulation.py:254-318", "pylbm/simulation.py:374-420", "pylbm/storage.py:210-368", "pylbm/domain.py:385-450"]}
{"id": "C75", "title": "Budget of the conserved quantities with source terms", "statement": "In a closed domain (walls with bounce back at rest, periodic sides, solid elements) the total over the fluid cells of a conserved moment which counts opposite velocities the same changes in one step by exactly what the two half steps of the sources add to the values which arrive in the cells. A moment without a source is conserved whatever the sources of the other moments; with a number s as source, the total after t steps is the sum of the user's initial function over the fluid cells plus t times the number of fluid cells times dt s, on every process grid with both back ends.", "quantifier": "for all dictionaries with sources, initial data, closed boxes with elements, process grids, storage orders, both back ends, numbers of steps, all commutative rings", "why_tests_cant": "The tests do not compare the totals with the sources; a half step forgotten on one back end, or a source applied after the equilibrium, changes the result by an amount which a test with a tolerance accepts.", "anchors": ["pylbm/algorithm/base.py:191-600", "pylbm/algorithm/ode.py:11-16", "pylbm/simulation.py:374-420", "pylbm/boundary.py:400-893"]}
{"id": "C76", "title": "The loo.py kernel of a time step does not depend on the order of its work items", "statement": "Every execution of the kernel one_time_step of the loo.py back end ends, and whatever the interleaving of the loads and stores of the work items, and whatever the order of the rows inside of a block, the array fnew holds at each cell the step of the scheme (the same value as the Cython kernel) and nothing else is written. This holds if no source reads a moment which another source changes, if the conserved moments are not relaxed when there is a relative velocity, and if each block of instructions has a printed row; it fails without each of these.", "quantifier": "for all schemes, grids, storage positions, initial contents of the arrays and of the private memory, all interleavings of the work items, all orders of the rows of a block, all sound ways of dropping the rows equal to their right hand side, all commutative rings", "why_tests_cant": "The repository has no test of the loo.py back end; a test sees one schedule of one device, and an ordering which is missing shows only with another scheduler.", "anchors": ["pylbm/generator/printing/loopy.py:154-167", "pylbm/generator/printing/loopy.py:280-370", "pylbm/generator/codegen.py:1300-1470", "pylbm/algorithm/base.py:298-600"]}
{"id": "C77", "title": "The loo.py update of the ghost cells", "statement": "Every execution of the kernels update_x, update_y, update_z gives to each stored cell, corners included, the value of its image in the periodic domain, for every storage order, and changes nothing else; it is the exchange of the other back ends on one process with ghost layers of width one. With ghost layers of another width, or several processes, it is wrong.", "quantifier": "for all dimensions, sizes at least three, numbers of components, storage orders, contents, interleavings of the work items", "why_tests_cant": "The corners and the storage orders combine; a race between the two copies of a line depends on the schedule.", "anchors": ["pylbm/storage.py:305-327", "pylbm/storage.py:368-424"]}
{"id": "C78", "title": "Runs of the loo.py back end", "statement": "Any number of time steps with the loo.py back end on one process (update of the ghost cells, kernel, exchange of the two arrays) gives the run of the scheme on the periodic domain, whatever the orders of the work items, whatever is in the ghost cells and in the second array at the start; the values are those of the generated Cython code.", "quantifier": "for all schemes with the conditions of C76 and velocities with components -1, 0, 1, all sizes, initial arrays, numbers of steps, executions, all commutative rings", "why_tests_cant": "Equality of two back ends after any number of steps cannot be tested for all schemes, and loo.py is not run by the tests.", "anchors": ["pylbm/simulation.py:374-420", "pylbm/container.py:60-110", "pylbm/storage.py:305-424", "pylbm/generator/printing/loopy.py:154-167"]}
{"id": "C79", "title": "Arrays with a copy on the device", "statement": "For a program of reads, assignments and kernel calls which reads an array before it assigns entries of it, all the values read and the final content on the device are those of one ordinary array. An assignment right after a kernel call resets the other entries to old values, and what is written in a view returned by a read is lost.", "quantifier": "for all sequences of operations, kernels, keys, values, index and value types", "why_tests_cant": "The fault appears only for some orders of the operations, with a device.", "anchors": ["pylbm/storage.py:107-158", "pylbm/simulation.py:201-243"]}
{"id": "C80", "title": "The validation accepts exactly the documented dictionaries", "statement": "validate accepts a dictionary for Stencil, Domain, Geometry, Scheme or Simulation if and only if its keys are the known ones with values of the expected shape, the exclusive keys are not given together and the keys needed by the class are there; otherwise it ends the program with the message. Two exceptions: an accepted dictionary with an empty list raises IndexError, and a boundary condition described by a non-empty list raises an exception. The key comm of the domain and the textual keys of the parameters are never accepted.", "quantifier": "for all dictionaries of Python objects, all five classes", "why_tests_cant": "The interplay of required and excludes for all combinations of keys, and all shapes of nested values, cannot be enumerated.", "anchors": ["pylbm/validator.py:24-66", "pylbm/validator.py:69-172", "pylbm/validator.py:175-353"]}
{"id": "C81", "title": "Accepted dictionaries and the constructors", "statement": "For an accepted dictionary, the reads of Stencil, Geometry/Domain, Scheme, the code generation, the initialization and the boundary conditions succeed exactly under explicit further conditions (an interval x or dim, a velocity, polynomials when there are several schemes, no tuple of labels, elements of the dimension of the box, a directory in the options, tuples for the initial values, a method for each label); each condition fails for some accepted dictionary.", "quantifier": "for all accepted dictionaries of all classes and all labels", "why_tests_cant": "The gap between two independent readers of the same dictionary shows only on inputs which no test gives.", "anchors": ["pylbm/validator.py:175-353", "pylbm/stencil.py:547-610", "pylbm/geometry.py:27-200", "pylbm/scheme.py:131-224", "pylbm/simulation.py:101-320", "pylbm/boundary.py:238-330"]}
{"id": "C82", "title": "The routines that are called are those which have been generated", "statement": "Each simulation imports the routines which it has generated (or, without generation, those which the last generation in this directory has written), whatever simulations have been compiled before in the same or in other directories, each attribute being the last routine added under this name; sys.path is restored and a temporary directory leaves no trace. Exceptions: two generations in the same directory in the same second with sources of the same size (the compiled file of the first is run), a module of the same name in an earlier directory of sys.path, and a directory which was already in sys.path (moved to the end).", "quantifier": "for all sequences of simulations, all directories, all sets of routines, all times", "why_tests_cant": "Tests run one simulation per process in a fresh directory; the stale and shadowed modules depend on the history of the file system.", "anchors": ["pylbm/generator/generator.py:9-33", "pylbm/generator/autowrap.py:18-90", "pylbm/generator/autowrap.py:142-179", "pylbm/simulation.py:112-123"]}
{"id": "C83", "title": "Processes without a common clock", "statement": "With asynchronous messages (a send may leave, a receive may complete at any time between its post and Waitall; only messages with the same source, destination and tag keep their order), any execution of a program of ghost exchanges and local computations gives each process exactly the values of the execution in lock step; no execution blocks before all the processes have finished, and each process makes a bounded number of events. With fewer cells than ghost cells the result depends on the pace of the processes. For whole simulations (ghost update, boundary methods, generated kernel in each step, both back ends): a process which has finished k steps has the cells of the history of C65 at the time k, wherever the other processes are.", "quantifier": "for all process grids in dimensions 1 to 3, all ghost widths, all programs, all interleavings of the events", "why_tests_cant": "The number of interleavings is exponential and MPI chooses them; a race or a deadlock may never show in a test.", "anchors": ["pylbm/storage.py:233-303", "pylbm/storage.py:305-366", "pylbm/simulation.py:374-420"]}
{"id": "C84", "title": "Process grid and messages between the buffers", "statement": "The ranks below the number of processes of the grid and the coordinates are in bijection; a process has a domain exactly if the options make a grid of at most size processes and its rank is in it; with the default options every process has one, and whenever there is a grid every cell belongs to the domain of exactly one rank. The neighbours computed by storage.py are those of the exchange and neighbours of each other. In any storage order, sending and receiving the subarrays copies exactly the slab of the sender to the slab of the receiver, value by value, and changes no other entry, which is the message of the model of update. get_directions lists every vector of {-1,0,1}^dim once.", "quantifier": "for all grids, ranks, options, domain sizes, storage orders, numbers of values, ghost widths and array contents", "why_tests_cant": "Process grids, storage orders and sizes are unbounded; an offset of a slab which is wrong in one storage order or for unequal domains is missed by tests with one process.", "anchors": ["pylbm/mpi_topology.py:66-80", "pylbm/mpi_topology.py:137-243", "pylbm/options.py:26-52", "pylbm/storage.py:210-303"]}
{"id": "C85", "title": "The generated code stays inside of the arrays", "statement": "The generated kernels of the boundary conditions, run on the buffers in any storage order with both back ends, access only entries of the arrays and compute the updates of the boundary model, for all domains with elements, methods and labels other than 999. The accesses of a time step stay inside of the arrays for all the turns of the loops exactly if no velocity is larger than the halo, for the storage orders which keep the order of the axes of the space. Without these conditions (velocities of one sign, exchanged axes, label 999) the compiled code, in which the checks are switched off, accesses memory outside of the arrays.", "quantifier": "for all stencils, domains, elements, boundary methods, storage orders, sizes, array contents", "why_tests_cant": "An access outside of an array is silent when the checks are switched off, and depends on the geometry and on the stencil.", "anchors": ["pylbm/boundary.py:322-376", "pylbm/boundary.py:411-463", "pylbm/boundary.py:508-617", "pylbm/boundary.py:646-817", "pylbm/generator/codegen.py:1041-1042", "pylbm/symbolic.py:84-256"]}
{"id": "C86", "title": "Whole simulations with a relative velocity", "statement": "With a relative velocity the simulation follows one history in which each step is the arrivals from the neighbours followed by a collision in the frame which moves with the velocity of the cell: the conserved moments of that frame are kept, the others relax to the moments of the equilibrium distributions in that frame. This history is determined by the data, and the state of a cell depends only on the cells in reach. If translates of conserved polynomials are combinations of conserved polynomials, the conserved moments of the fixed frame are kept too, the total over a closed domain remains the initial one, and with one relaxation parameter the simulation is the same as without relative velocity. A uniform equilibrium given back by the walls is kept. Without the condition on the conserved polynomials a conserved moment changes.", "quantifier": "for all schemes with polynomial moments whose span is invariant by translation, relative velocities, domains, boundary conditions, initial data, process grids, storage orders, numbers of steps", "why_tests_cant": "The tests run a few schemes with a relative velocity for a few steps; the claims concern every velocity field, domain and process grid.", "anchors": ["pylbm/scheme.py:148-149", "pylbm/scheme.py:165-190", "pylbm/scheme.py:480-560", "pylbm/algorithm/base.py:102-139", "pylbm/algorithm/base.py:251-253", "pylbm/algorithm/base.py:298-430", "pylbm/algorithm/pull.py:30-60", "pylbm/simulation.py:200-420"]}
{"id": "C87", "title": "Bounds of the computed states", "statement": "If the moments which are not conserved have one parameter between 0 and 1 (a number or a function of the conserved moments), a convex set of states which contains the equilibria of its states and which the walls respect is never left by the simulation. For one conserved moment, the sum of the distributions, with increasing equilibria: the density stays between the bounds of the initial data, two simulations stay in the order of their initial data, and in a closed domain the sum of the distances of the distributions of two simulations does not grow. With the parameter 2, or with anti bounce back, values leave the bounds.", "quantifier": "for all dictionaries, stencils, domains, elements, boundary conditions, initial data, process grids, storage orders, numbers of steps", "why_tests_cant": "A bound holds for every cell and every time; a run shows it for one set of data until the run stops.", "anchors": ["pylbm/scheme.py:200-330", "pylbm/algorithm/base.py:142-250", "pylbm/algorithm/base.py:298-430", "pylbm/boundary.py:411-463", "pylbm/boundary.py:508-817", "pylbm/simulation.py:200-420"]}
{"id": "C88", "title": "The energy of linear simulations decreases", "statement": "Let the equilibrium be the orthogonal projection on the states given by the conserved moments, for a weighted sum of squares of the distributions which the moments diagonalize. If the parameters are between 0 and 2 (or with one parameter between 0 and 2, without the diagonal form), no collision increases this energy, and in a closed domain with walls at rest the total energy of the simulation never grows. With the parameter 5/2 it grows.", "quantifier": "for all dictionaries, weights, states, closed domains, initial data, process grids, storage orders, numbers of steps", "why_tests_cant": "Stability concerns all the data and all the times.", "anchors": ["pylbm/scheme.py:200-330", "pylbm/algorithm/base.py:142-250", "pylbm/boundary.py:508-560", "pylbm/simulation.py:200-420"]}
{"id": "C89", "title": "Mirror images of simulations", "statement": "Reflect some of the axes. If the set of velocities of each scheme, the solid elements and the labels of the sides are their own mirror images, each moment of the dictionary is even or odd, and equilibria, parameters and sources respect these signs, then the simulation of the mirrored initial data with the mirrored equilibria at the walls is the mirror image of the simulation: on every process grid, with both back ends, in every storage order. Symmetric data give symmetric moments at every time, and the odd moments vanish in the cells of the mirror. The exchange of two axes with different labels is not such a symmetry: in a corner the label of the first axis wins.", "quantifier": "for all dictionaries, reflections, elements, conditions, initial data, process grids, storage orders, numbers of steps", "why_tests_cant": "A test of symmetry looks at one simulation; an error in the distances, the labels or the reads of one side of the domain is seen only if the test reaches it.", "anchors": ["pylbm/domain.py:470-620", "pylbm/boundary.py:100-330", "pylbm/simulation.py:200-420", "pylbm/algorithm/base.py:142-250"]}
{"id": "C90", "title": "Dictionaries with the time and parameters", "statement": "The equilibria, relaxation parameters and sources may contain symbols which are not moments: the time, the time step, extra parameters. During each step the simulation follows the dictionary with the values which these symbols have at the start of the step (the time is the number of steps done times dt), the initial state is the equilibrium at time 0: on every process grid, with both back ends, in every storage order. In a closed domain the total of an even conserved moment without source is constant, and with a source s of the time and the parameters alone it grows in the step i by dt s(i dt) per fluid cell. The two half steps of the source are both taken at the start of the step: the rule is not the trapezoidal one.", "quantifier": "for all dictionaries with symbols of this kind, values of the symbols in each step, domains, conditions, initial data, process grids, storage orders, numbers of steps", "why_tests_cant": "The tests of the repository have constant coefficients; a value which is read one step late or early changes a result by the size of the time step only.", "anchors": ["pylbm/simulation.py:106", "pylbm/simulation.py:396-420", "pylbm/algorithm/base.py:121-149", "pylbm/algorithm/base.py:630-681"]}
{"id": "C91", "title": "Source terms together with a relative velocity", "statement": "In a simulation with a relative velocity and source terms each cell collides as follows, on every process grid, with both back ends, in every storage order: the parameters and the equilibrium are taken at the conserved moments after half a step of the sources, the other moments relax in the frame which moves with the velocity before the sources, and the conserved moments in the moving frame are the old ones changed by one half step of the sources, which reads the moments of the moving frame. Hence a constant source s of the density gives dt s / 2 per cell and step (half of what the simulation without relative velocity gives), a force which depends on the density alone has half of its effect on the momentum, and a friction has no effect when the frame moves with the fluid; without sources the collision is that of C86, and the density without source is conserved in closed domains.", "quantifier": "for all dictionaries with polynomials whose span is invariant by translation, relative velocities, source terms, domains, conditions, initial data, process grids, storage orders, numbers of steps", "why_tests_cant": "No test of the repository combines a relative velocity with a source; a factor one half in a force is not visible without a known solution.", "anchors": ["pylbm/algorithm/pull.py:12-59", "pylbm/algorithm/base.py:251-263", "pylbm/algorithm/base.py:298-334", "pylbm/algorithm/base.py:404-495"]}
{"id": "C92", "title": "The results do not depend on the process grid bit for bit", "statement": "For an arithmetic without any law (addition and multiplication need not be associative or commutative: rounded numbers), and for any list of statements of a time step which writes a local value before it is read and reads f[k] before fnew[k] is written, whatever the right-hand sides are: with the boundary conditions and the exchanges, every process grid, every storage order and both back ends give after any number of steps the same values, bit for bit, from the same initial values and wall values; each value is what the statements compute from what arrives. The statements of the algorithms pull and base are such lists for every scheme, and stay so when the right-hand sides are rearranged without new symbols. In binary64 the total mass is nevertheless not exactly constant, and the coordinates which domain.py computes depend on the process grid, so that a cell on the edge of an element can be inside with one process grid and outside with another; not so if dx/2 and the corner of the box are small integers times a power of two, when all the coordinates are exact.", "quantifier": "for all arithmetics, lists of statements, domains, conditions, process grids, storage orders, initial values, wall values, numbers of steps", "why_tests_cant": "The tests of the repository run on one process with tolerances; they cannot show that no rounding depends on the decomposition.", "anchors": ["pylbm/simulation.py:396-420", "pylbm/algorithm/base.py:551-600", "pylbm/algorithm/pull.py:12-59", "pylbm/domain.py:415-447", "pylbm/elements/circle.py:114-117"]}
{"id": "C93", "title": "The order of the velocities does not matter", "statement": "If the velocities of each scheme of the dictionary are written in another order (with the equilibria of the walls and the columns of the matrix of the moments following), then the new simulation is accepted whenever the old one is, and the two give the same results from the same initial data: each distribution of the new one is the distribution of the old one with the same velocity, and all the moments are equal after any number of steps, on every process grid, with both back ends and in every storage order. The boundary conditions must not read what they write: the Bouzidi anti bounce back of the Cython code in a narrow channel gives results which depend on the order of the velocities.", "quantifier": "for all dictionaries given with an equilibrium, orders of the velocities of each scheme, domains, quiet conditions, initial data, wall values, process grids, storage orders, numbers of steps", "why_tests_cant": "The tests of the repository write each stencil in one order; the numbering goes through the offsets, the table of the opposite velocities, the links of the boundary and the matrices, and each of them could mix two numberings.", "anchors": ["pylbm/stencil.py:643-720", "pylbm/boundary.py:28-180", "pylbm/scheme.py:344-420", "pylbm/algorithm/base.py:551-600"]}
{"id": "C94", "title": "The choice of the moments which are not conserved", "statement": "Two dictionaries with the same velocities, conserved moments and sources give the same distributions after any number of steps, on every process grid, with both back ends and in every storage order, when each moment of the second one which is not conserved is a combination of moments of the first one with its own relaxation parameter and of conserved moments without source, and its equilibrium is the same combination of the equilibria. In particular with one relaxation parameter (BGK) and no source only the equilibrium distributions matter, not the polynomials. With a source of a conserved moment, adding this moment to another one changes the scheme.", "quantifier": "for all pairs of such dictionaries, combinations, domains, quiet conditions, initial data, wall values, process grids, storage orders, numbers of steps", "why_tests_cant": "The two dictionaries produce different matrices, generated expressions and moments; that all of them cancel cannot be seen from runs with tolerances.", "anchors": ["pylbm/scheme.py:344-420", "pylbm/algorithm/base.py:121-149", "pylbm/algorithm/base.py:298-334", "pylbm/algorithm/pull.py:12-59"]}
{"id": "C95", "title": "Source terms which read neighbouring cells", "statement": "A source term may name a conserved moment with shifted indices (rho[ix - 1]). The NumPy step then adds, in each half step and each inner cell, dt/2 times the source of the moments of the cells which are read; these are the moments of the current step in inner cells, and in the cells of the halo whatever the array of the moments held before the step. So the result is the documented one where all the cells read (directly, or through a cell which is read) are inner, it coincides with the usual step when a source reads its own cell only, and next to the halo it depends on old values: on the process grid and on whether the user looked at the moments. The Cython kernel reads another entry of the local moments.", "quantifier": "all schemes without relative velocity, all sources which do not read moments with an earlier source, all offsets, all cells, arrays of distributions and of moments; for the Cython position all moments, cells and offsets", "why_tests_cant": "No test of the project has such a source; the error is in the halo only and vanishes when the old moments happen to be right, e.g. in the first half step after the initialization.", "anchors": ["pylbm/algorithm/base.py:439-504", "pylbm/algorithm/transform.py:28-73", "pylbm/algorithm/pull.py:12-59", "pylbm/simulation.py:174-177", "pylbm/simulation.py:374-420", "pylbm/generator/printing/cython.py:288-289"]}
{"id": "C96", "title": "The values computed in binary64 stay within a computed bound of the exact ones", "statement": "Run a simulation in binary64 and the same simulation with exact numbers, each on any process grid, with any of the two back ends and any order of the storage. Interval data attached to the parameters, the initial values and the boundary values, pushed through the very statements of the step (one rounding of relative size 2^-53 and absolute size 2^-1075 for each operation), give for every cell, velocity and time a pair (b, e), or nothing when a value could leave the range. If there is a pair then the computed value is a finite number, the exact value is at most b 2^-200 and they differ by at most e 2^-200: no overflow, no NaN, and an a-posteriori bound of the error which is the same for all process grids. In a vessel or a duct with walls at rest the exact sum of the computed values, over all the processes, stays within the sum of these bounds of the exact mass of the start.", "quantifier": "all schemes and kernels whose operations are + - * and the negation (or operations with a bound), all domains, boundary conditions, process grids, back ends, storage orders, initial and boundary values, times and cells", "why_tests_cant": "A test compares with a tolerance chosen by hand, for the steps it runs; the error bound concerns the exact solution, which no run computes.", "anchors": ["pylbm/simulation.py:374-420", "pylbm/algorithm/base.py:551-600", "pylbm/algorithm/pull.py:12-59", "pylbm/boundary.py:341-895"]}
{"id": "C97", "title": "The arrays of a simulation have the layout which the generated code uses", "statement": "For each back end the arrays m, F and Fnew, and after any number of steps those which took their places, have the same buffer shape and layout, the one of the storage order given to the generator. An order is accepted exactly when its entries are the axes, each once (counted from the start or from the end). Without an order (None or an empty list) NumPy stores the velocity first and the others last. The access generated for a velocity and a shift is at the place of that value in each of the three arrays (true when no entry is negative and the space axes are in increasing order; false otherwise). AOS.reshape has one row per cell, the values of the cell in the order of the velocities.", "quantifier": "all back ends, dimensions, sizes, orders (lists of integers), numbers of steps, velocities, shifts and cells", "why_tests_cant": "The tests use a few orders and the default one; an access outside the buffer of a Cython kernel, which has no bounds check, may go unnoticed.", "anchors": ["pylbm/container.py:10-97", "pylbm/storage.py:60-121", "pylbm/storage.py:423-524", "pylbm/symbolic.py:84-256", "pylbm/simulation.py:128-171"]}
{"id": "C98", "title": "Simulations with the parameters 2 or 0 run backwards", "statement": "If every moment which is not conserved has the parameter 2 or 0, there is no source, the equilibria respect the reversal of all the velocities, and the domain is closed (periodic sides, walls and obstacles with bounce back at rest), then a simulation can be undone: take the state after T steps, exchange the distributions of opposite velocities, collide once, and run the same program. After t steps the conserved moments are those of the first simulation after T - t steps (with the sign of the moment) in every fluid cell, and one more collision gives its reversed distributions. With the parameter 1 two states have the same image.", "quantifier": "all such dictionaries, stencils, domains, obstacles, process grids (which may differ between both runs), back ends, storage orders, initial states, numbers of steps", "why_tests_cant": "Reversibility holds for the exact numbers only and concerns all states and all times; a lost or misplaced distribution anywhere (halo, corner, wall) breaks it, possibly after many steps.", "anchors": ["pylbm/simulation.py:374-420", "pylbm/algorithm/base.py:506-600", "pylbm/algorithm/pull.py:14-58", "pylbm/boundary.py:400-470", "pylbm/storage.py:305-366"]}
{"id": "C99", "title": "Alternating sums are kept without rest velocity", "statement": "In a periodic domain whose sizes along some axes are even, if the sums along these axes of the components of all the velocities are odd (e.g. D1Q2, D2Q4), the sum over the cells of a conserved moment with the sign + in the even cells and - in the odd ones changes its sign at each step and nothing else, whatever the equilibria and the relaxation parameters; if they are all even it is constant. So a scheme without rest velocity has conserved quantities which the user did not ask for, and a perturbation of one cell never becomes uniform.", "quantifier": "all schemes without relative velocity whose moment has no source, all dimensions, sets of axes, periodic sizes, initial data, process grids, storage orders, back ends and numbers of steps", "why_tests_cant": "A run shows finitely many states, in floating point; that the oscillation is never damped is a statement about all the steps and all the parameters.", "anchors": ["pylbm/simulation.py:374-420", "pylbm/algorithm/pull.py:12-59"]}
{"id": "C100", "title": "Progress bar and headers", "statement": "Between 0 and the total the progress bar has exactly its length, its number of stars is the integer nearest to the share which is done (none at the start, all at the end), it never goes back and is full at the end only; k calls write the bars of 0 to k and the line ends when the total is reached; a header is three lines of the same width.", "quantifier": "all lengths of the bar, totals, iterations, prefixes, numbers of calls and titles", "why_tests_cant": "The output goes to the terminal; the cases which fail (totals above 200, more calls than announced, total 0) are not those one looks at.", "anchors": ["pylbm/utils.py:20-23", "pylbm/utils.py:132-176"]}
{"id": "C101", "title": "Translations along the periodic sides of a duct", "statement": "In a domain with walls at rest (bounce back) along some axes, periodic sides along the others and obstacles inside, the initial values moved by a vector along the periodic axes which leaves the obstacles unchanged give the simulation moved by this vector, at all times: values with a period keep it, and between plane walls without obstacle values which do not change along the periodic axes never change along them.", "quantifier": "all schemes without relative velocity, all dimensions, ducts, obstacles, periods, initial data, process grids, storage orders, back ends and numbers of steps", "why_tests_cant": "A run has one shift, one process grid and finitely many steps; a wrong link at a periodic side or at one corner of an obstacle shows for some shifts only.", "anchors": ["pylbm/domain.py:Domain.__add_init", "pylbm/domain.py:Domain.__add_elem", "pylbm/storage.py:Array.update", "pylbm/boundary.py:Boundary", "pylbm/simulation.py:Simulation.one_time_step"]}
{"id": "C102", "title": "Items of m, m_halo, F and F_halo", "statement": "Reading or setting an item of m_halo and F_halo does what the operations of C32 do; m and F cannot be set and the attempt changes nothing. sol.F_halo[i] += w adds w to the distribution i in all the stored cells and marks the moments as old; sol.m_halo[i] += w adds w to the moment i of the present distributions. sol.m[i] += w and sol.F[i] += w raise an exception, but only after the inner cells were changed, and the flag does not know of the change of F. Programs which change the distributions by F_halo only read the right moments at any time; a statement which raises an exception leaves the state unchanged.", "quantifier": "all states, indices, values, cells, schemes and programs of reads, assignments, additions and steps", "why_tests_cant": "The tests do not use the exceptions; after a caught exception the moments are wrong without any message.", "anchors": ["pylbm/utils.py:26-61", "pylbm/simulation.py:200-243", "pylbm/storage.py:126-157"]}
{"id": "C103", "title": "Schemes which do not read the others", "statement": "In a simulation with several schemes, take some of them whose equilibria, relaxation parameters and sources only contain their own conserved moments (a flow which carries a temperature). At all times their distributions in every cell are the same whatever the initial values of the other schemes and their equilibria at the walls: they depend only on the initial values of their own conserved moments and on their own equilibria at the walls. The others may read them. If the first schemes of the list have this property and the others bring no new velocity, the simulation of all the schemes and the simulation of the first ones alone hold the same distributions of the first ones.", "quantifier": "all lists of schemes without relative velocity, all sets of schemes with that property, dimensions, stencils, domains with obstacles, boundary conditions whose reads are not written, initial data, process grids, storage orders, back ends and numbers of steps", "why_tests_cant": "All the schemes share one matrix, one list of conserved moments and one numbering of the velocities; a wrong offset or a permutation of the moments mixes them only for some lists of schemes, and the test cases compare nothing between two runs.", "anchors": ["pylbm/scheme.py:Scheme", "pylbm/algorithm/base.py:439-550", "pylbm/boundary.py:Boundary", "pylbm/simulation.py:Simulation.one_time_step"]}
{"id": "C104", "title": "The order of the schemes and simulations of some of them", "statement": "Take some of the schemes of a simulation, in any order, whose equilibria and relaxation parameters only contain their own conserved moments, and which either have no sources or have the same sources and conserved moments in the same order. A simulation of these schemes alone, in the new order and with the same domain, data, conditions and walls, holds at all times the distributions they have in the simulation of all the schemes, under the new numbers. In particular, without sources the order of the schemes in the list does not matter. With sources in another order this is false: the order of the schemes changes the result.", "quantifier": "all lists of schemes without relative velocity, all selections and orders which keep the table of the velocities, dimensions, domains with obstacles, boundary conditions whose reads are not written, initial data, process grids, storage orders, back ends and numbers of steps", "why_tests_cant": "The numbers of the distributions, of the conserved moments, of the links and of the opposite velocities all change with the order of the schemes; a test has one list in one order.", "anchors": ["pylbm/scheme.py:Scheme", "pylbm/stencil.py:Stencil", "pylbm/algorithm/base.py:439-550", "pylbm/boundary.py:Boundary", "pylbm/simulation.py:Simulation.one_time_step"]}
