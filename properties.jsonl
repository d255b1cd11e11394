{"id": "C01", "title": "Element tables are complete and consistent", "statement": "For every element type string, get_elements and get_meshio_cell_type accept exactly the same nine names (QUAD4, QUAD8, TRI3, TRI6, HEX8, HEX20, HEX27, TET4, TET10) and reject every other string; for an accepted one, re_order is a permutation of 0..n-1 where n is the node count of that element, and different names give different meshio cell types.", "quantifier": "every string used as ele_type", "why_tests_cant": "The set of rejected strings is infinite.", "anchors": ["jax_fem/basis.py:get_elements", "jax_fem/generate_mesh.py:get_meshio_cell_type"]}
{"id": "C02", "title": "Face vertex re-indexing points at the same vertices", "statement": "If re_order is a permutation, reorder_inds maps a table of vertex numbers in basix ordering to positions in the mesh ordering so that looking the result up in re_order gives back the original table, entry for entry and with the same shape; in particular the nodes used to decide whether a face lies on a boundary are the nodes of that face.", "quantifier": "every permutation, every index table", "why_tests_cant": "A test compares a few tables; the claim is for every table and permutation.", "anchors": ["jax_fem/basis.py:reorder_inds", "jax_fem/basis.py:get_face_shape_vals_and_grads"]}
{"id": "C03", "title": "Re-ordered shape functions interpolate at the mesh's own nodes", "statement": "After applying re_order, shape function k equals 1 at the k-th node of the meshio/Abaqus reference cell and 0 at every other node (Lagrange families), so a nodal array in mesh ordering is interpolated at the right places; for every element type node k of the mesh ordering is the basix node that re_order[k] names.", "quantifier": "every Lagrange element type, every pair of nodes", "why_tests_cant": "Numeric tests on solved problems do not isolate a swapped pair of nodes.", "anchors": ["jax_fem/basis.py:get_elements", "jax_fem/basis.py:get_shape_vals_and_grads"]}
{"id": "C04", "title": "Shape functions reproduce constants and linear fields everywhere", "statement": "At every reference point (not only at quadrature points) the tabulated shape functions of an element sum to one, their reference gradients sum to zero, and they reproduce the coordinates of the point from the coordinates of the nodes.", "quantifier": "every reference point, every element type", "why_tests_cant": "The reference points form a continuum.", "anchors": ["jax_fem/basis.py:get_shape_vals_and_grads", "jax_fem/basis.py:get_face_shape_vals_and_grads"]}
{"id": "C05", "title": "Gradient recovery is exact on linear fields", "statement": "sol_to_grad applied to the nodal values of any affine field on any mesh with invertible cell Jacobians returns that field's gradient at every quadrature point of every cell.", "quantifier": "every mesh (coordinates, connectivity), every affine field, every quadrature rule, dim 2 and 3", "why_tests_cant": "The patch test on one mesh says nothing about the others.", "anchors": ["jax_fem/fe.py:FiniteElement.get_shape_grads", "jax_fem/fe.py:FiniteElement.sol_to_grad"]}
{"id": "C06", "title": "Quadrature-point interpolation agrees with the geometry map", "statement": "convert_from_dof_to_quad (and its face version) of the nodal values of an affine field equals that field evaluated at get_physical_quad_points (get_physical_surface_quad_points); it is linear in the nodal values and keeps constants.", "quantifier": "every mesh, every affine field, every selection of faces", "why_tests_cant": "Sampled meshes only.", "anchors": ["jax_fem/fe.py:FiniteElement.convert_from_dof_to_quad", "jax_fem/fe.py:FiniteElement.get_physical_quad_points", "jax_fem/fe.py:FiniteElement.get_physical_surface_quad_points", "jax_fem/fe.py:FiniteElement.convert_from_dof_to_face_quad"]}
{"id": "C07", "title": "Cell measure is correct and frame independent", "statement": "get_shape_grads is unchanged by translating all points, JxW scales with the determinant of any linear map applied to the points, and the JxW of a cell sum to its signed area/volume (exactly, for straight triangles and tetrahedra with any rule whose weights sum to the reference measure, and for any QUAD4 cell with a rule exact on linear functions).", "quantifier": "every mesh, translation, linear map", "why_tests_cant": "Sampled meshes only.", "anchors": ["jax_fem/fe.py:FiniteElement.get_shape_grads"]}
{"id": "C08", "title": "Surface measure obeys Nanson's formula", "statement": "For every face of a positively oriented cell with an affine map, the nanson_scale values returned by get_face_shape_grads sum to the physical area (length in 2D) of that face; for an inverted cell they sum to minus the area.", "quantifier": "every affine cell, every face, every rule whose weights sum to the reference face measure", "why_tests_cant": "Sampled meshes only.", "anchors": ["jax_fem/fe.py:FiniteElement.get_face_shape_grads", "jax_fem/basis.py:get_face_shape_vals_and_grads"]}
{"id": "C09", "title": "Dirichlet node selection is exact", "statement": "For every dirichlet_bc_info, group i selects exactly the nodes whose point (and index) satisfies location_fns[i], in increasing order and without repetition; the component is vecs[i] and the value is value_fns[i] at that node's point. Lists of different length and location functions with 0 or more than 2 arguments raise.", "quantifier": "every mesh, every list of location/value functions", "why_tests_cant": "Functions and meshes are unbounded.", "anchors": ["jax_fem/fe.py:FiniteElement.Dirichlet_boundary_conditions", "jax_fem/fe.py:FiniteElement.update_Dirichlet_boundary_conditions"]}
{"id": "C10", "title": "Boundary face selection is exact", "statement": "get_boundary_conditions_inds returns for each location function exactly the pairs (cell, local face) all of whose face vertices satisfy it, in lexicographic order and without repetition; Mesh.count_selected_faces returns the number of such pairs.", "quantifier": "every mesh, element face table and location function", "why_tests_cant": "Functions and meshes are unbounded.", "anchors": ["jax_fem/fe.py:FiniteElement.get_boundary_conditions_inds", "jax_fem/generate_mesh.py:Mesh.count_selected_faces"]}
{"id": "C11", "title": "Global dof numbering is a bijection", "statement": "(variable, node, component) -> offset + node*vec + component is a bijection onto 0..num_total_dofs_all_vars-1, it is the position at which flattening a solution list puts that component, and the row indices used for Dirichlet rows and for the assembled matrix use the same numbering.", "quantifier": "every number of variables, every node count and vec per variable", "why_tests_cant": "Sizes are unbounded.", "anchors": ["jax_fem/problem.py:Problem.__post_init__", "jax_fem/solver.py:_PetscTangentCache._refresh_bc_rows_if_needed"]}
{"id": "C12", "title": "Flatten and unflatten are inverse", "statement": "Unflattening a flattened solution list gives it back, and flattening an unflattened dof vector of the right length gives it back; the entry order is variable-major, then node, then component.", "quantifier": "every list of shapes and values", "why_tests_cant": "Sizes are unbounded.", "anchors": ["jax_fem/problem.py:Problem.__post_init__", "jax_fem/solver.py:get_flatten_fn"]}
{"id": "C13", "title": "Batching of cells is invisible", "statement": "Evaluating the cell kernels in up to 20 batches gives, for every number of cells >= 1, the same values and Jacobians in the same order as evaluating each cell once; every cell is evaluated exactly once. With zero cells the call raises.", "quantifier": "every number of cells, every kernel, every set of internal variables", "why_tests_cant": "Batch-boundary errors depend on num_cells mod 20.", "anchors": ["jax_fem/problem.py:Problem.split_and_compute_cell"]}
{"id": "C14", "title": "Residual assembly sums exactly the element contributions", "statement": "compute_residual returns, for each variable, node and component, the sum over all cells (and all selected faces of every surface) and all local positions of the element vector entry whose global number is that (node, component): nothing lost, duplicated or moved.", "quantifier": "every mesh including repeated nodes, every kernel, every number of variables and surfaces", "why_tests_cant": "Meshes and kernels are unbounded.", "anchors": ["jax_fem/problem.py:Problem.compute_residual_vars", "jax_fem/problem.py:Problem.compute_residual_vars_helper"]}
{"id": "C15", "title": "Matrix assembly sums exactly the element Jacobians", "statement": "The sparse matrix given by (I, J, V) after newton_update has in row r, column c the sum of all element Jacobian entries whose global row and column numbers are r and c, over cells and selected faces; I, J and V have the same length, all indices are in range.", "quantifier": "every mesh, kernel, number of variables and surfaces", "why_tests_cant": "Meshes and kernels are unbounded.", "anchors": ["jax_fem/problem.py:Problem.__post_init__", "jax_fem/problem.py:Problem.compute_newton_vars"]}
{"id": "C16", "title": "The assembled matrix is the derivative of the residual", "statement": "If every element kernel is differentiable, the global residual is differentiable at every solution and its derivative in direction d is the assembled matrix times d; for kernels that are affine the identity residual(u+d) - residual(u) = A d is exact.", "quantifier": "every mesh, every differentiable kernel, every state and direction", "why_tests_cant": "Finite-difference tests sample directions and states.", "anchors": ["jax_fem/problem.py:Problem.pre_jit_fns", "jax_fem/problem.py:Problem.compute_newton_vars"]}
{"id": "C17", "title": "newton_update and compute_residual agree", "statement": "For every solution list the residual returned by newton_update equals the one returned by compute_residual.", "quantifier": "every problem and solution", "why_tests_cant": "Two code paths, unbounded inputs.", "anchors": ["jax_fem/problem.py:Problem.newton_update", "jax_fem/problem.py:Problem.compute_residual"]}
{"id": "C18", "title": "Internal forces balance and loads are conserved", "statement": "For any stress map the residual contributed by the Laplace kernel sums to zero over the nodes in each component; for any source map the mass-kernel residual sums to the quadrature of the source over the mesh; for any traction map the surface-kernel residual sums to the quadrature of the traction over the selected faces.", "quantifier": "every mesh, solution, stress/source/traction map", "why_tests_cant": "Maps and meshes are unbounded.", "anchors": ["jax_fem/problem.py:Problem.get_laplace_kernel", "jax_fem/problem.py:Problem.get_mass_kernel", "jax_fem/problem.py:Problem.get_surface_kernel"]}
{"id": "C19", "title": "Surface integral declarations are checked", "statement": "Constructing a Problem succeeds only if the number of location functions equals the number of surface maps (or of universal surface kernels when no surface maps are given, or zero when neither is given).", "quantifier": "every combination of declared maps", "why_tests_cant": "All combinations.", "anchors": ["jax_fem/problem.py:Problem.pre_jit_fns"]}
{"id": "C20", "title": "Row elimination computes the documented residual", "statement": "apply_bc_vec(r, u) equals r at every unconstrained dof and u - scale*u_b at every constrained dof, where u_b is the value of the last condition that mentions the dof.", "quantifier": "every residual, solution, list of conditions (also overlapping ones), scale", "why_tests_cant": "Overlaps and sizes are unbounded.", "anchors": ["jax_fem/solver.py:apply_bc_vec", "jax_fem/solver.py:apply_bc"]}
{"id": "C21", "title": "BC assignment helpers touch exactly the constrained dofs", "statement": "assign_bc writes the last prescribed value at each constrained dof and leaves every other dof alone, is idempotent; assign_zeros_bc / assign_ones_bc write 0 / 1 there; copy_bc keeps constrained entries and zeroes the others.", "quantifier": "every vector and list of conditions", "why_tests_cant": "Sizes are unbounded.", "anchors": ["jax_fem/solver.py:assign_bc", "jax_fem/solver.py:assign_zeros_bc", "jax_fem/solver.py:assign_ones_bc", "jax_fem/solver.py:copy_bc"]}
{"id": "C22", "title": "Dirichlet rows of the tangent are identity rows", "statement": "The matrix returned by get_A has, for every constrained dof, the identity row, and for every other dof the assembled row; it is the derivative of the residual with conditions applied.", "quantifier": "every problem and list of conditions", "why_tests_cant": "Sizes are unbounded.", "anchors": ["jax_fem/solver.py:get_A", "jax_fem/solver.py:_PetscTangentCache.update"]}
{"id": "C23", "title": "A Newton step with an exact linear solve enforces the boundary values", "statement": "If the increment solves the linear system exactly, then after one full step every constrained dof has its prescribed value whatever the starting point; the initial guess x0 handed to the linear solver already satisfies every constrained row.", "quantifier": "every problem, starting point and exact solver", "why_tests_cant": "Unbounded.", "anchors": ["jax_fem/solver.py:newton_step"]}
{"id": "C24", "title": "The cached tangent never uses stale boundary rows", "statement": "For every sequence of problem evaluations and update_Dirichlet_boundary_conditions calls, get_A returns the matrix a freshly built cache would return. (For direct reassignment of the index lists between variables this fails.)", "quantifier": "every history of updates and tangent requests", "why_tests_cant": "Histories are unbounded.", "anchors": ["jax_fem/solver.py:_PetscTangentCache", "jax_fem/solver.py:_get_petsc_tangent_cache"]}
{"id": "C25", "title": "Solver options resolve to one method", "statement": "A dict with no method key means Newton with exactly the recognised keys; the legacy flat form equals the nested form; two method keys or a non-dict method block raise ValueError; unrecognised flat keys never change the result.", "quantifier": "every options dict", "why_tests_cant": "Dicts are unbounded.", "anchors": ["jax_fem/solver.py:_resolve_solver_options", "jax_fem/solver.py:solver"]}
{"id": "C26", "title": "Linear solver selection", "statement": "The back-end used is the first present of jax, amgx, spsolve, petsc, custom; with none present it is jax with preconditioning; defaults are as documented; writing the default into the caller's dict does not change any later solve.", "quantifier": "every options dict and sequence of solves", "why_tests_cant": "Dicts and histories are unbounded.", "anchors": ["jax_fem/solver.py:linear_solver"]}
{"id": "C27", "title": "Checked back-ends return only verified solutions", "statement": "jax_solver and petsc_solver return x only if the residual norm |Ax-b| is below 0.1 (so never when it is NaN); otherwise they raise.", "quantifier": "every matrix, right-hand side and behaviour of the iterative method", "why_tests_cant": "The iterative method is arbitrary.", "anchors": ["jax_fem/solver.py:jax_solve", "jax_fem/solver.py:petsc_solve"]}
{"id": "C28", "title": "Newton returns only converged, finite solutions", "statement": "If solver() with Newton returns, then the last residual norm is finite and is <= tol or <= rel_tol times the initial one (or the initial one is zero); all dofs are finite; a NaN residual or dof raises AssertionError. If the initial residual already meets the tolerance the initial guess is returned without a linear solve.", "quantifier": "every residual function, linear solver and options", "why_tests_cant": "Unbounded, includes NaN behaviour.", "anchors": ["jax_fem/solver.py:solver"]}
{"id": "C29", "title": "Returned solutions satisfy the boundary conditions to tolerance", "statement": "In every solution returned by Newton, each constrained dof differs from its prescribed value by at most the final residual norm (hence by at most max(tol, rel_tol * initial residual)).", "quantifier": "every problem, option set, linear solver", "why_tests_cant": "Unbounded.", "anchors": ["jax_fem/solver.py:solver", "jax_fem/solver.py:apply_bc_vec"]}
{"id": "C30", "title": "Line search never picks a worse step", "statement": "line_search returns dofs + alpha*inc with alpha in {1, 1/2, 1/4, 1/8}, the residual norm at alpha is no larger than at any larger trial step, and if alpha > 1/8 halving it again would increase the norm.", "quantifier": "every residual function, dofs and increment", "why_tests_cant": "Unbounded.", "anchors": ["jax_fem/solver.py:line_search"]}
{"id": "C31", "title": "Arc-length iterates stay on the arc", "statement": "In both arc-length variants, after every corrector iteration |u - u_prev|^2 + psi^2 (lambda - lambda_prev)^2 |load|^2 = Delta_l^2, and the next linearised equilibrium A(u_next - u) = -(residual) + dlambda*load holds for exact linear solves.", "quantifier": "every problem, state, Delta_l, psi, number of iterations", "why_tests_cant": "Unbounded.", "anchors": ["jax_fem/solver.py:arc_length_solver_disp_driven", "jax_fem/solver.py:arc_length_solver_force_driven"]}
{"id": "C32", "title": "Arc-length picks the forward root", "statement": "Of the two roots the one whose increment has the larger inner product with the previous direction is taken; when both products are negligible the larger lambda is taken.", "quantifier": "every state", "why_tests_cant": "Unbounded.", "anchors": ["jax_fem/solver.py:arc_length_solver_disp_driven", "jax_fem/solver.py:arc_length_solver_force_driven"]}
{"id": "C33", "title": "Arc-length continuation bookkeeping", "statement": "The history has at most max_continuation_steps records numbered 0,1,2,...; only the last can have lambda >= 1; the step callback is called once per record in order with the same data; the result is polished by Newton iff lambda reached 1; in force control the step length switches exactly at Delta_l_switch_step.", "quantifier": "every continuation run", "why_tests_cant": "Unbounded.", "anchors": ["jax_fem/solver.py:_solve_arc_length_disp", "jax_fem/solver.py:_solve_arc_length_force", "jax_fem/solver.py:_finish_arc_length", "jax_fem/solver.py:_solve_arc_length"]}
{"id": "C34", "title": "Dynamic relaxation never moves constrained dofs", "statement": "At every iteration each constrained dof of the dynamic relaxation solver either has the value it had at the start of the iteration loop or is NaN; on normal exit the largest free residual is <= tol or NaN.", "quantifier": "every problem and number of iterations", "why_tests_cant": "Unbounded.", "anchors": ["jax_fem/solver.py:dynamic_relax_solve", "jax_fem/solver.py:assembleCSR"]}
{"id": "C35", "title": "Relaxation damping is bounded", "statement": "The damping coefficient is in [1e-3, 3.9] for every finite or infinite input (NaN only for NaN), so the velocity multiplier (2-ch)/(2+ch) has absolute value < 1.", "quantifier": "every input", "why_tests_cant": "Continuum.", "anchors": ["jax_fem/solver.py:calC"]}
{"id": "C36", "title": "Multipoint constraints are enforced exactly", "statement": "With P_mat set, every solution returned by the Newton method is P times a reduced vector (so dofs with equal rows of P_mat, such as the two sides of a periodic cell, have equal values) (so it satisfies every constraint encoded in P), the reduced matrix is P^T A P and the reduced residual P^T r, and the reduced matrix is the derivative of the reduced residual.", "quantifier": "every P, A, residual", "why_tests_cant": "Unbounded.", "anchors": ["jax_fem/solver.py:get_A", "jax_fem/solver.py:solver"]}
{"id": "C37", "title": "Adjoint gradients equal the implicit-function gradients", "statement": "If the adjoint system is solved exactly, the vector-Jacobian product returned by ad_wrapper's backward pass equals the derivative of v . u(params) along the solution manifold for every parameter direction, with and without P_mat.", "quantifier": "every problem, parameter point, cotangent and direction", "why_tests_cant": "Finite-difference tests sample.", "anchors": ["jax_fem/solver.py:implicit_vjp", "jax_fem/solver.py:ad_wrapper"]}
{"id": "C38", "title": "AMGX resources are always released", "statement": "Whatever step fails (or none), every AMGX handle that was created is destroyed exactly once, in reverse order of creation, and no other is.", "quantifier": "every failure point", "why_tests_cant": "Crash points.", "anchors": ["jax_fem/solver.py:AMGX_solve_host"]}
{"id": "C39", "title": "MMA bounds are well ordered", "statement": "For every design in [xmin, xmax] with xmin < xmax and a positive move limit, every history of previous designs and asymptotes: low < alfa <= x <= beta < upp, xmin <= alfa, beta <= xmax, alfa < beta, and both bounds are within the move limit.", "quantifier": "every design, history and iteration number", "why_tests_cant": "Continuum and histories.", "anchors": ["jax_fem/mma.py:MMA.mmasub"]}
{"id": "C40", "title": "MMA approximations are consistent", "statement": "The convex separable approximation built by mmasub has the gradient of the objective and of each constraint at the current design, matches each constraint's value there, and has strictly positive coefficients.", "quantifier": "every gradient, design, bounds", "why_tests_cant": "Continuum.", "anchors": ["jax_fem/mma.py:MMA.mmasub"]}
{"id": "C41", "title": "The MMA sub-problem solver stays in the interior", "statement": "At every inner iteration of subsolv, whatever finite numbers the linear solve returns, x stays strictly between alfa and beta and y, z, lam, xsi, eta, mu, zet, s stay strictly positive.", "quantifier": "every sub-problem and every number of iterations", "why_tests_cant": "Unbounded iterations.", "anchors": ["jax_fem/mma.py:subsolv"]}
{"id": "C42", "title": "Topology optimization never leaves the design box", "statement": "optimize returns densities in [0,1] and evaluates the objective and constraints only at densities in [0,1], for every objective and constraint with finite values and gradients, every linear solve returning finite numbers, every number of iterations, and starting density in [0,1].", "quantifier": "every objective/constraint handle and iteration count", "why_tests_cant": "Histories.", "anchors": ["jax_fem/mma.py:optimize"]}
{"id": "C43", "title": "Density filtering is an averaging", "statement": "applyDensityFilter keeps constants and never leaves the range of its input; filter weights are non-negative and zero beyond the radius.", "quantifier": "every mesh and density", "why_tests_cant": "Continuum.", "anchors": ["jax_fem/mma.py:applyDensityFilter", "jax_fem/mma.py:compute_filter_kd_tree"]}
{"id": "C44", "title": "rectangle_mesh is a conforming tiling", "statement": "For all Nx, Ny >= 1 and sizes, rectangle_mesh has (Nx+1)(Ny+1) points and Nx*Ny cells; cell (i,j) has the four corners of grid square (i,j) counter-clockwise, every point is used, no two cells are equal, the cells cover exactly the rectangle without overlap, no mesh point touches a cell without being one of its corners, and the cell areas add up to domain_x*domain_y.", "quantifier": "every Nx, Ny, domain_x, domain_y", "why_tests_cant": "Sizes are unbounded.", "anchors": ["jax_fem/generate_mesh.py:rectangle_mesh"]}
{"id": "C45", "title": "box_mesh is a conforming tiling", "statement": "For all Nx, Ny, Nz >= 1 box_mesh has (Nx+1)(Ny+1)(Nz+1) points and Nx*Ny*Nz cells; each cell has the eight corners of its grid box in HEX8 order with positive orientation, every point is used, no two cells are equal, the cells cover exactly the box without overlap, no mesh point touches a cell without being one of its corners, and volumes add up.", "quantifier": "every size", "why_tests_cant": "Sizes are unbounded.", "anchors": ["jax_fem/generate_mesh.py:box_mesh"]}
{"id": "C46", "title": "Cylinder mesh clean-up keeps geometry", "statement": "Dropping points 0 and 14 and renumbering keeps the coordinates of every cell vertex, for every mesh whose cells do not use the two dropped points.", "quantifier": "every point list and cell list", "why_tests_cant": "Unbounded.", "anchors": ["jax_fem/generate_mesh.py:cylinder_mesh_gmsh"]}
{"id": "C47", "title": "TET4 check measures orientation", "statement": "check_mesh_TET4 returns for each cell the Jacobian determinant get_shape_grads would use (six times the signed volume); it is unchanged by translation, changes sign when two nodes are swapped.", "quantifier": "every mesh", "why_tests_cant": "Continuum.", "anchors": ["jax_fem/generate_mesh.py:check_mesh_TET4"]}
{"id": "C48", "title": "VTU version rewrite changes only the header", "statement": "Given two different paths modify_vtu_file keeps the number of lines and every character outside occurrences of the version-2.2 header, replaces each such occurrence by the version-1.0 header, and is idempotent; carriage returns become newlines. Given the same path twice it empties the file.", "quantifier": "every file", "why_tests_cant": "Unbounded.", "anchors": ["jax_fem/utils.py:modify_vtu_file"]}
{"id": "C49", "title": "save_sol validates extra data", "statement": "save_sol writes no file and raises if some cell array does not have one entry per cell or some point array does not have one entry per node; otherwise the written mesh has the solution and every extra array, in single precision, under its name (a later duplicate name wins). A path without a directory part always raises.", "quantifier": "every set of extra arrays", "why_tests_cant": "Unbounded.", "anchors": ["jax_fem/utils.py:save_sol"]}
{"id": "C50", "title": "Logger handlers are not duplicated", "statement": "However often setup_logger is called with a name, that logger has exactly one handler afterwards if it started with none, and keeps its handlers if it started with some.", "quantifier": "every call history", "why_tests_cant": "Histories.", "anchors": ["jax_fem/logger_setup.py:setup_logger"]}
{"id": "C51", "title": "The residual is the weak form", "statement": "For a one-variable problem declared by a stress map, a source map and traction maps, compute_residual returns one array of shape (nodes, components) whose entry (n, k) is the sum over cells and selected faces containing node n of the quadratures of stress(grad u) . grad phi, source(u, x) phi and traction(u, x) phi, with u, grad u and x as returned by the interpolation methods.", "quantifier": "every mesh, solution, internal variables and maps", "why_tests_cant": "Maps and meshes are unbounded.", "anchors": ["jax_fem/problem.py:Problem.compute_residual", "jax_fem/problem.py:Problem.get_laplace_kernel", "jax_fem/problem.py:Problem.get_mass_kernel", "jax_fem/problem.py:Problem.get_surface_kernel"]}
{"id": "C52", "title": "Virtual work of linear fields is exact", "statement": "Testing the residual with the nodal values of a linear scalar field gives the quadrature of stress times its gradient plus source and traction times its value at the quadrature points.", "quantifier": "every linear field, mesh with non-zero JxW, solution, maps", "why_tests_cant": "Continuum of fields and unbounded meshes.", "anchors": ["jax_fem/problem.py:Problem.compute_residual"]}
{"id": "C53", "title": "Symmetric stresses exert no torque", "statement": "If the stress is symmetric at every quadrature point, the moment of the residual about any pair of axes equals the moment of source and tractions.", "quantifier": "every mesh with non-zero JxW, solution, maps", "why_tests_cant": "Continuum.", "anchors": ["jax_fem/problem.py:Problem.compute_residual"]}
{"id": "C54", "title": "Rigid translations cost nothing", "statement": "Adding the same vector to the solution at all nodes leaves the residual of a problem with only a stress map unchanged.", "quantifier": "every mesh, solution, vector", "why_tests_cant": "Continuum.", "anchors": ["jax_fem/problem.py:Problem.compute_residual"]}
{"id": "C55", "title": "Consistent arguments construct a well-formed problem", "statement": "If every mesh is of a supported type with cells of the right size and existing nodes, all variables have the same number of cells, location functions take one or two arguments and their number matches the declared surface integrands, constructing a Problem succeeds and the result carries the given meshes, components and dimension.", "quantifier": "every argument list", "why_tests_cant": "Unbounded.", "anchors": ["jax_fem/problem.py:Problem.__post_init__"]}
{"id": "C56", "title": "Newton has no iteration limit", "statement": "solver() with Newton returns or raises only when a tolerance is met, a value is not finite or a step raises; there is no limit on the number of iterations, so there are problems and linear solvers for which the call never returns.", "quantifier": "every number of iterations", "why_tests_cant": "Non-termination cannot be observed.", "anchors": ["jax_fem/solver.py:solver"]}
{"id": "C57", "title": "Arc-length points are one update past the last residual check", "statement": "Every arc-length step makes at least one update, and its last update starts from a point whose residual norm is not above 1e-6; the point the step returns is the updated one, whose residual has not been checked. A step started in equilibrium therefore makes exactly one predictor update and need not return an equilibrium.", "quantifier": "every step, problem and linear solver", "why_tests_cant": "The returned residual depends on the nonlinearity; tests use mild ones.", "anchors": ["jax_fem/solver.py:arc_length_solver_disp_driven", "jax_fem/solver.py:arc_length_solver_force_driven"]}
{"id": "C58", "title": "Dynamic relaxation needs one variable and nonzero finite tangent rows", "statement": "If the dynamic relaxation solver returns, every variable except the first has no dofs, and every row of the tangent (with the boundary-condition rows) at the starting point has a finite positive sum of absolute values; in particular problems with two or more real variables never return.", "quantifier": "all problems, options, linear back-ends, starting points, numbers of iterations", "why_tests_cant": "a test can show one multi-variable problem failing, not that all of them do", "anchors": ["jax_fem/solver.py:_solve_dynamic_relax", "jax_fem/solver.py:assembleCSR", "jax_fem/solver.py:dynamic_relax_solve"]}
{"id": "C59", "title": "What solver() returns", "statement": "Whatever the method, options, P_mat, linear back-end and derivative, a solution returned by solver() has one array per variable, of shape (number of nodes, vec); solver() returns a pair (solution, info) exactly if the arc_length method is chosen with a true return_info.", "quantifier": "all problems, option dictionaries, methods, P_mat, linear back-ends, numbers of iterations", "why_tests_cant": "the space of methods, options and linear back-end outputs is unbounded", "anchors": ["jax_fem/solver.py:solver"]}
{"id": "C60", "title": "The MMA sub-problem direction is the Newton step", "statement": "With an exact linear solve the direction computed by subsolv from the reduced system - either of the two, depending on whether there are fewer constraints than variables - is the Newton step of the full system of relaxed optimality conditions in all nine groups of unknowns.", "quantifier": "every sub-problem, interior point, relaxation", "why_tests_cant": "Elimination identities over a continuum, two code paths.", "anchors": ["jax_fem/mma.py:subsolv"]}
{"id": "C61", "title": "Quality and termination of the MMA sub-problem solver", "statement": "subsolv ends for every positive epsimin; the point it returns satisfies the optimality conditions of the convex sub-problem, relaxed by some e with epsimin < e <= 10 epsimin, up to 0.9 e in every component, unless its last Newton loop used all 200 iterations. One Newton iteration never increases the norm of the residual unless its line search gave up after 50 trial steps.", "quantifier": "every sub-problem and linear solver returning finite numbers", "why_tests_cant": "Unbounded iterations over a continuum.", "anchors": ["jax_fem/mma.py:subsolv"]}
{"id": "C62", "title": "Filter weights are symmetric when the neighbourhoods are small", "statement": "If no flexible cell has more than 20 cells within the filter radius, the filter matrix has the weight max(0, radius - distance) for every pair of cells and is symmetric.", "quantifier": "every mesh and set of flexible cells", "why_tests_cant": "Quantifies over meshes.", "anchors": ["jax_fem/mma.py:compute_filter_kd_tree"]}
{"id": "C63", "title": "optimize needs twenty flexible cells", "statement": "With at least one and fewer than 20 flexible cells optimize raises IndexError before the objective is evaluated.", "quantifier": "every mesh, handle and option", "why_tests_cant": "A test shows one mesh.", "anchors": ["jax_fem/mma.py:compute_filter_kd_tree", "jax_fem/mma.py:optimize"]}
{"id": "C64", "title": "The sensitivity filter is the transpose of the density filter", "statement": "For a symmetric filter and densities between 0.001 and 1, filtering the gradient of the objective and of each constraint with applySensitivityFilter is the chain rule through applyDensityFilter: for every direction v, filtered gradient times v is gradient times filtered v.", "quantifier": "every filter, density, gradient and direction", "why_tests_cant": "Continuum.", "anchors": ["jax_fem/mma.py:applySensitivityFilter", "jax_fem/mma.py:applyDensityFilter"]}
{"id": "C65", "title": "optimize runs to the end", "statement": "If the handles and the linear solver raise nothing, optimize raises nothing and ends after exactly maxIters evaluations of the objective, for every number of constraints.", "quantifier": "every mesh with at least 20 flexible cells, handle, option and iteration count", "why_tests_cant": "Unbounded iterations.", "anchors": ["jax_fem/mma.py:optimize"]}
{"id": "C66", "title": "optimize is the method of moving asymptotes", "statement": "Every run of optimize that returns is a sequence of designs from the starting density to the result in which each iteration minimizes the sub-problem built at its own design from the gradients at the (filtered) design, the two previous designs and the previous asymptotes; no density changes by more than the move limit in one iteration.", "quantifier": "every mesh, handle, option and iteration count", "why_tests_cant": "Histories of unbounded length.", "anchors": ["jax_fem/mma.py:optimize", "jax_fem/mma.py:MMA"]}
{"id": "C67", "title": "Integration on the structured meshes", "statement": "A QUAD4 element on rectangle_mesh and a HEX8 element on box_mesh have the cell size times the quadrature weight as JxW at every quadrature point of every cell, so that JxW adds up to the area or volume of the domain times the sum of the weights of the rule.", "quantifier": "every size, rule and Dirichlet data", "why_tests_cant": "Sizes are unbounded; joins the node order of two modules.", "anchors": ["jax_fem/generate_mesh.py:rectangle_mesh", "jax_fem/generate_mesh.py:box_mesh", "jax_fem/fe.py:FiniteElement.get_shape_grads"]}
{"id": "C68", "title": "Timing decorators are transparent", "statement": "A function decorated with timeit or walltime returns what it returned, raises what it raised and changes files as it did before; walltime with a directory also replaces one file there by the start time, end time and difference, and nothing is written or logged if the function raises.", "quantifier": "every function, directory, file name and clock", "why_tests_cant": "Quantifies over functions.", "anchors": ["jax_fem/utils.py:timeit", "jax_fem/utils.py:walltime"]}
{"id": "C69", "title": "Patch test on the structured meshes", "statement": "On rectangle_mesh with QUAD4 and on box_mesh with HEX8, for every stress law that does not depend on the position, every quadrature rule with non-zero weights and every affine displacement, the residual vanishes at every node inside the domain (with a uniform body force it is the force on one cell). A problem held at an affine field on the boundary is therefore solved exactly by that field: the residual with Dirichlet rows is zero.", "quantifier": "every mesh size, element count, quadrature rule, stress law, affine field and selection of held nodes that contains the boundary", "why_tests_cant": "Quantifies over mesh sizes, stress laws and fields.", "anchors": ["jax_fem/problem.py:Problem.compute_residual", "jax_fem/generate_mesh.py:rectangle_mesh", "jax_fem/generate_mesh.py:box_mesh", "jax_fem/solver.py:apply_bc_vec"]}
{"id": "C70", "title": "The matrix of periodic conditions", "statement": "periodic_boundary_conditions returns a matrix P with one row per dof and one column per dof that is on no side B; the fields P y are exactly the fields with equal values on each pair of dofs tied by a condition, each for one y. It raises if a node of side A has no partner or several, or if a dof is on side A of one condition and on side B of another; it raises nothing otherwise. A solution of the Newton solver with this P_mat has equal values on tied dofs. (If a dof is tied twice and one column is left, broadcasting hides the error and fields are lost.)", "quantifier": "every mesh, number of components, set of conditions, location function and mapping", "why_tests_cant": "Quantifies over meshes and sets of conditions.", "anchors": ["applications/periodic_bc/example.py:periodic_boundary_conditions", "jax_fem/solver.py:newton_solver"]}
{"id": "C71", "title": "Outer faces of the active part", "statement": "Whatever cells become active in whatever order, the external faces after the last update are the faces of active cells that no other active cell shares, each once; the marker table of the heat flux has in the row of each boundary face whether it is external and whether it is moreover at the laser height; the points held at the ambient temperature are exactly those of no active cell. (The update checks only the number of active cells: a cell that becomes quiet while another becomes active keeps its faces.)", "quantifier": "every mesh, initial set of active cells and history of growth", "why_tests_cant": "Histories are unbounded and the dict, list and set updates interact.", "anchors": ["applications/quiet_element/example.py:hash_map_for_faces", "applications/quiet_element/example.py:initialize_hash_map", "applications/quiet_element/example.py:update_hash_map", "applications/quiet_element/example.py:get_active_face_truth_tab"]}
{"id": "C72", "title": "Heat balance of the quiet element simulation", "statement": "In every pass of the simulation, whatever the toolpath and the solver do, the residual is the weak form of the heat equation on the active part: conduction and storage in the active cells, laser and convection through its outer faces and no others; the nodes of no active cell are held at 300 and contribute nothing. Where the residual with its Dirichlet rows vanishes, stored heat is incoming heat. Each pass starts from the solver's last temperatures. The faces at the laser height are those of the last birth of a cell, and if the first pass activates no cell UnboundLocalError is raised.", "quantifier": "every mesh, rule, initial active cells, toolpath of any length and solver", "why_tests_cant": "Histories are unbounded; joins dict bookkeeping, boundary selection, Dirichlet updates and assembly.", "anchors": ["applications/quiet_element/example.py:Thermal", "applications/quiet_element/example.py:quiet_element_simulation"]}
{"id": "C73", "title": "Virtual work, energy and minimum potential energy", "statement": "For every problem of one variable with tensor, mass and surface maps, the residual dotted with any nodal field v is the integral of stress : grad v plus source . v over the cells plus traction . v over the selected faces. If the maps are the derivatives of energy densities then this is the derivative of the total energy along v. For linear elasticity, with loads that do not depend on the solution, the potential energy at u + v is exactly the one at u plus the residual times v plus the strain energy of v, so a field in equilibrium on the free dofs has the least potential energy among the fields with its Dirichlet values.", "quantifier": "every mesh, element, quadrature rule, maps, load, field and direction", "why_tests_cant": "Continuum of fields and energy densities.", "anchors": ["jax_fem/problem.py:Problem.compute_residual", "jax_fem/problem.py:Problem.get_laplace_kernel", "jax_fem/problem.py:Problem.get_mass_kernel", "jax_fem/problem.py:Problem.get_surface_kernel", "tests/benchmarks/linear_elasticity_cube/test_linear_elasticity_cube.py:LinearElasticity"]}
{"id": "C74", "title": "Symmetry and definiteness of the stiffness matrix", "statement": "The matrix that newton_update assembles, used as a bilinear form on nodal fields, is the integral of the tangents of the user's maps: v K w is the integral of d stress(grad w) : grad v plus the source and traction tangents. Maps with symmetric tangents (such as derivatives of an energy) give a symmetric matrix; maps whose tangents have no negative direction, with no negative integration weight, give v K v >= 0. Linear elasticity with lambda, mu >= 0 has both.", "quantifier": "every mesh, element, quadrature rule, maps, field and correct jvp", "why_tests_cant": "Continuum; sums over cells of unbounded number.", "anchors": ["jax_fem/problem.py:Problem.newton_update", "jax_fem/problem.py:Problem.compute_newton_vars"]}
{"id": "C75", "title": "Explicit dynamics: motion, momentum, energy, stability", "statement": "The run of n steps returns n + 1 states, the first the given one; held dofs are zero from the first step on, and at every other dof lumped mass times second difference is minus dt squared times the residual, with the Taylor step first. The lumped masses add up to density times volume and are positive on box_mesh with HEX8. Run from its last two states in the other order the scheme returns through the same states. Without loads the momentum of every component nobody holds is constant; for linear elasticity so is the moment of momentum, and the energy between two states is the same after any number of steps; for every time step below some positive bound the strain and kinetic energies therefore stay below the given energy for all times.", "quantifier": "every mesh, element, rule, held nodes, density, time step, initial state and number of steps", "why_tests_cant": "Unbounded number of steps and continuum of states.", "anchors": ["applications/explicit_dynamics/example.py:main", "jax_fem/problem.py:Problem.compute_residual"]}
{"id": "C76", "title": "Perfect plasticity: admissible stress, flow rule, dissipation, unique stress", "statement": "Whatever the displacement gradient and the old state, the stress of the return map has von Mises stress at most 250; it is the elastic stress where that is allowed and otherwise lies on the yield surface in the same direction, with the same mean stress. It is the closest admissible stress in elastic energy, and the missing stress is that of a plastic strain of maximal dissipation; it is the only such stress. Over any number of load steps with any solver, the stress kept at each quadrature point is the one the residual of the step used, stays admissible and symmetric, and the work done is at least the stored elastic energy; the volume average is admissible. In one step the residual is monotone, and two solutions of the same step have the same stress at every quadrature point.", "quantifier": "every dimension, gradient, state, mesh, rule, solver and number of load steps", "why_tests_cant": "Continuum of states, unbounded load histories, uniqueness.", "anchors": ["tests/benchmarks/plasticity/test_plasticity.py:Plasticity", "jax_fem/problem.py:Problem.compute_residual"]}
{"id": "C77", "title": "Large deformations with a mesh moved every load step: nothing is lost by the updates", "statement": "In the updated Lagrangian run, each pass starts from the initial points plus the sum of the increments found so far, for any solver and any number of passes. As long as no cell inverts, the deformation gradient carried from pass to pass is the gradient of the whole displacement on the initial mesh, and the residual of a trial increment on the moved mesh equals the residual of the whole displacement on the initial mesh with the first Piola-Kirchhoff stress of a neo-Hookean body. Its work is the derivative of the stored energy, each cell weighted with its density cubed, and it vanishes for rotations. With a solver that meets the prescribed values, the end at x = 0 never moves and after i passes the end at x = 1 has moved by -0.1 i/7 and turned by i pi/7. Densities are limited to [0.02, 1]; the objective is the sum of squared final displacements.", "quantifier": "every mesh of three-dimensional cells, rule, densities, solver, number of passes and trial increment", "why_tests_cant": "Continuum of states, unbounded histories, equality of two residuals for all inputs.", "anchors": ["applications/updated_lagrangian/example.py:UpdatedLagrangian", "applications/updated_lagrangian/example.py:end_to_end_ul", "applications/updated_lagrangian/example.py:push_F_prev", "applications/updated_lagrangian/example.py:build_dirichlet_bc_by_tag"]}
{"id": "C78", "title": "Implicit wave equation: weak form, energy, unique step, orientation of triangles", "statement": "In the wave application the residual of a pass against any test field v is the integral of c^2 dt^2 grad x . grad v + (x - 2u + w) v, with u and w the two states before. Pass j is handed the two states before it whatever the solver does. Kinetic plus potential energy decrease in each pass by exactly a sum of squares, so the energy never exceeds that of the first computed state for any c and dt. If the quadrature sees the free fields each pass has exactly one solution, and runs of any length exist. transform_cells exits exactly on a triangle without area; otherwise each triangle comes out turning left with the same nodes and area, untouched if it did before, and midside nodes between the same corners.", "quantifier": "every mesh, element, rule, held nodes, c, dt, solver and number of passes; every mesh of TRI3 or TRI6 cells", "why_tests_cant": "Unbounded number of passes, continuum of states, existence and uniqueness.", "anchors": ["applications/wave/example.py:wave", "applications/wave/example.py:transform_cells", "applications/wave/example.py:orientation"]}
{"id": "C79", "title": "Linear elasticity is well posed", "statement": "For linear elasticity with lambda >= 0, mu > 0, loads that do not depend on the solution and positive integration weights, if no field that is zero at the prescribed dofs is free of strain then exactly one nodal field takes every prescribed value and has no residual elsewhere; no field with these values has less potential energy; and the matrix of the Newton step with its Dirichlet rows gives every right hand side exactly one solution, at every state. A box_mesh of HEX8 or rectangle_mesh of QUAD4 cells with the nodes at x = 0 prescribed in every component meets the condition, for every size and every quadrature rule with two points per axis or more.", "quantifier": "every mesh, element, rule, load, prescribed values and constants; every number of cells of the structured meshes", "why_tests_cant": "Existence and uniqueness; unbounded meshes.", "anchors": ["jax_fem/problem.py:Problem.newton_update", "jax_fem/problem.py:Problem.compute_residual", "jax_fem/solver.py:get_A", "jax_fem/generate_mesh.py:box_mesh", "tests/benchmarks/linear_elasticity_cube/test_linear_elasticity_cube.py:LinearElasticity"]}
{"id": "C80", "title": "solver() solves linear problems in one step", "statement": "If the residual of the problem is affine in the solution, the problem has a solution, no Jacobian at a quadrature point is singular, jax.jvp is right and the linear solver is exact, then solver(problem, options) with any options that select Newton's method (with or without line search, any back-end, any initial guess, any tolerance >= 0) terminates after at most one step and returns sol_list: either a solution, which takes every prescribed value and has no residual at any other dof, or the initial guess if its residual norm already meets the tolerances. None of the checks of the linear back-ends rejects or changes an exact solution. Linear elasticity with dead loads is such a problem; without free motion solver() returns its only solution.", "quantifier": "every problem with affine residual: any number of variables, elements, mesh, kernels, conditions; every initial guess, option dictionary and exact back-end", "why_tests_cant": "Termination and exactness for all meshes, loads and guesses.", "anchors": ["jax_fem/solver.py:solver", "jax_fem/solver.py:line_search", "jax_fem/solver.py:linear_solver", "jax_fem/solver.py:jax_solve", "jax_fem/solver.py:petsc_solve", "jax_fem/problem.py:Problem.newton_update"]}
{"id": "C81", "title": "Linear problems have exactly one solution exactly when no change goes unnoticed", "statement": "If the residual of a problem is affine in the solution (any number of variables, any kernels), there is exactly one set of nodal fields with every prescribed value and no residual elsewhere if and only if no nonzero change that is zero at the prescribed dofs leaves the other residuals unchanged; then the linear system of each Newton step has exactly one solution from every iterate and solver() returns the solution. User maps that are affine in the solution make the residual affine. Diffusion with flux kappa grad u, source alpha u + load and Robin flux beta u + load with nonnegative coefficients has exactly one solution if kappa > 0 and chains of cells lead from every node to a held one, on every mesh of TRI3, QUAD4, TET4 or HEX8 cells of any shape; without alpha and beta every component must be held somewhere. Each pass of the quiet element simulation has exactly one solution, over any toolpath.", "quantifier": "every problem with affine residual; every mesh, rule, coefficient and load; every toolpath and number of passes", "why_tests_cant": "Existence and uniqueness for all meshes and coefficients.", "anchors": ["jax_fem/problem.py:Problem.compute_residual", "jax_fem/problem.py:Problem.newton_update", "jax_fem/solver.py:solver", "jax_fem/problem.py:Problem.get_laplace_kernel", "jax_fem/problem.py:Problem.get_surface_kernel", "applications/quiet_element/example.py:Thermal"]}
{"id": "C82", "title": "Stokes flow: weak form, symmetry, exactly one solution, boundary conditions on the contour", "statement": "In the Stokes application the residuals of velocity u and pressure p against any test fields v and q are the integrals of grad u : grad v + p div v and of q div u. u and p solve the problem exactly when they take the prescribed values and both integrals vanish for all test fields that are zero there. With six-node triangles for the velocity, three-node ones with the same corners for the pressure and a rule with positive weights that is exact for degree two, the form is symmetric, and there is exactly one solution for all prescribed values if chains of triangles lead from every node to one with prescribed velocity and chains of edges with free midpoints lead from every corner to one with prescribed pressure; the linear system of each Newton step is then regular and solver() returns the solution. configure_Dirichlet_BC_for_dolphin adds zero velocity exactly at the nodes of boundary edges with 1e-5 < x < 1 - 1e-5, keeps all else, and raises AssertionError if a corner belongs to one triangle only.", "quantifier": "every mesh, prescribed values, test fields, initial guess; every triangulation for the contour and every order of Python's set", "why_tests_cant": "Existence and uniqueness (a saddle point, not a minimum) for all meshes.", "anchors": ["applications/stokes/example.py:StokesFlow", "applications/stokes/example.py:StokesFlow.configure_Dirichlet_BC_for_dolphin", "jax_fem/problem.py:Problem.compute_residual", "jax_fem/solver.py:solver"]}
{"id": "C83", "title": "Transient thermoelasticity: weak form, exactly one solution per step, energy and boundedness of whole runs, heat balance", "statement": "After set_params([sol_u_old, sol_dT_old, dt]) the residuals of the displacement u and temperature change T against any test fields v and z are the integrals of (sigma(u) - kappa T I) : grad v and of (C (T - T_old)/dt + kappa T0 (div u - div u_old)/dt) z + k grad T . grad z. u and T solve the step exactly when they take the prescribed values and both vanish for all tests that are zero there. For positive mu, T0, C, k, dt and lambda >= 0, any kappa, each step has exactly one solution on a mesh of positively oriented three-node triangles linked through edges and held by rollers; the linear systems are regular and solver() returns it. The time loop therefore has exactly one run for every list of positive steps. If every prescribed temperature is theta, the energy (strain energy - kappa theta div u + C/(2 T0) (T - theta)^2) at the end plus what conduction and the jumps lose equals the energy at the start, so from rest C/(2 T0) times the integral of (T - theta)^2 plus all losses stays below (C/(2 T0) + kappa^2/(2 (lambda + mu))) theta^2 volume at every time, however many and large the steps. If no temperature is prescribed the integral of C T + kappa T0 div u never changes.", "quantifier": "every material with positive constants, mesh, prescribed values, number and sizes of time steps, test fields", "why_tests_cant": "Unconditional stability and conservation over runs of any length with any step sizes; existence and uniqueness for all meshes of a coupled non-symmetric system.", "anchors": ["applications/thermal_mechanical_full/example.py:thermal_mechanical_full", "applications/thermal_mechanical_full/example.py:thermal_mechanical_full.set_params", "applications/thermal_mechanical_full/example.py:thermal_mechanical_full.get_universal_kernel", "applications/thermal_mechanical_full/example.py:main_fns", "jax_fem/solver.py:solver"]}
{"id": "C84", "title": "Functions of symmetric matrices by eigenvalues: the custom derivative rule is the derivative, repeated eigenvalues included", "statement": "get_eigen_f_custom(fn)(x) applies fn to the eigenvalues of the symmetric part of x: it does not depend on which eigenvectors eigh returns, agrees with matrix polynomials, sums and products, turns with the axes, and keeps monotonicity and Lipschitz bounds of fn. The tangent its rule returns for a direction v is the derivative of the result along v for every x, repeated eigenvalues included, as soon as the supplied slope of fn is right at the eigenvalues of x; the tangent is a symmetric matrix, the fourth-order tensor has major symmetry and is as steep as fn. The sum of psi over the eigenvalues has psi' of the matrix as its gradient.", "quantifier": "every dimension, function, matrix, direction and every eigenvalue routine that returns an orthonormal decomposition", "why_tests_cant": "The interesting points (repeated eigenvalues) have measure zero and finite differences of random matrices never meet them; all functions and dimensions.", "anchors": ["applications/phase_field_fracture/eigen.py:get_eigen_f_custom", "applications/phase_field_fracture/eigen.py:get_eigen_f_jax", "applications/phase_field_fracture/eigen.py:f_jvp"]}
{"id": "C85", "title": "Nonlinear problems whose stress grows with the gradient have exactly one solution", "statement": "If at every quadrature point the stress and source maps together grow at least k > 0 and at most L times as fast as the field (in a possibly degenerate inner product such as that of gradients or of strains), the surface loads do not depend on the solution, and no field that is zero at the prescribed dofs escapes that inner product, the problem has exactly one solution, differentiable maps or not. If the maps derive from an energy the solution is its strict minimiser among fields with the prescribed values. A field with the prescribed values and a small residual is close to the solution.", "quantifier": "every problem with one variable, mesh, element, rule and boundary conditions; every flux or stress with these bounds", "why_tests_cant": "Existence for nonlinear equations needs a fixed-point argument; a solver run shows one iterate of one problem and says nothing about uniqueness.", "anchors": ["jax_fem/problem.py:compute_residual", "jax_fem/problem.py:get_tensor_map", "jax_fem/problem.py:get_mass_map", "jax_fem/solver.py:solver"]}
{"id": "C86", "title": "Phase-field fracture: the split of the energy and the stress", "statement": "The positive and the negative part of the strain energy are not negative and add up to the energy of linear elasticity, whatever eigenvectors the eigenvalue routine returns. The stress of the second option is the gradient of (1 - d)^2 psi_plus + psi_minus at every strain, also with repeated or zero eigenvalues; without damage it is linear elasticity; damage does not touch a strain that shortens every direction and scales one that stretches every direction by (1 - d)^2; the law is isotropic; the stress grows with the strain at least as fast as 2 mu min(1, (1 - d)^2). The first option (automatic differentiation at a strain with noise on the diagonal) is the second option at the noisy strain when its eigenvalues differ, and within a stated multiple of the noise of the second option otherwise.", "quantifier": "every dimension, displacement gradient, damage value, pair of elastic constants and eigenvalue routine that returns an orthonormal eigenbasis", "why_tests_cant": "Differentiability at repeated eigenvalues and at sign changes is a limit statement; a test compares numbers at a few strains.", "anchors": ["applications/phase_field_fracture/example.py:get_maps", "applications/phase_field_fracture/example.py:get_tensor_map", "applications/phase_field_fracture/eigen.py:get_eigen_f_custom"]}
{"id": "C87", "title": "Phase-field fracture: the two problems have one solution each", "statement": "While no quadrature point is fully damaged and the supports stop every motion without strain, the displacement problem has exactly one solution, and a solution has the least energy of all displacements with the prescribed values. The phase-field problem is linear and has exactly one solution for every non-negative history on every mesh of first-order elements, which minimises the crack energy; with nothing prescribed its resistance and driving force balance over the body, and with zero history the damage is zero. The reported traction of an affine displacement with constant damage is the stress on the normal times the measure of the selected faces.", "quantifier": "every mesh, element and rule with positive weights, every support, damage, history and material constants", "why_tests_cant": "Existence, uniqueness and minimality range over all fields; a solver run shows one iterate.", "anchors": ["applications/phase_field_fracture/example.py:get_mass_map", "applications/phase_field_fracture/example.py:get_tensor_map", "applications/phase_field_fracture/example.py:compute_traction", "jax_fem/problem.py:compute_residual"]}
{"id": "C88", "title": "Phase-field fracture: the staggered loop", "statement": "In every run that returns, the history after a step is at every quadrature point the largest driving energy of the displacements accepted so far (and of the history at the start), so it never decreases. Each accepted state is a displacement solved for its load and some damage, and the damage solved for the history of that displacement, and the last pass changed both by at most the tolerance relative to their norm; with NaN and zero norms the loop stops exactly in the stated cases. A pass that leaves the damage unchanged is a fixed point. With exact sub-solutions each half of a pass does not raise the energy of the cracked solid, the first if the previous displacement has the new prescribed values, the second if the driving energy is nowhere below the history.", "quantifier": "every sequence of loads, number of passes, mesh and pair of solvers", "why_tests_cant": "Runs of any length with a stopping test on floating-point norms; a test sees one history.", "anchors": ["applications/phase_field_fracture/example.py:compute_history", "applications/phase_field_fracture/example.py:set_params", "jax_fem/problem.py:compute_residual", "jax_fem/solver.py:solver"]}
{"id": "C89", "title": "Gradients evaluated at the nodes", "statement": "For an affine field every row of u_grads is its gradient. For any field, row re_order[a] of a cell holds the gradient at the cell's node a wherever the cell's map is invertible there. Row a itself is node a for TRI3 and TET4, but not for elements whose node order differs from basix's: on a square with the field x y, row 2 holds the gradient at node 3 (refuted as stated in the example's comments, where points and nodes are the same).", "quantifier": "every mesh of Lagrange elements, every field and cell", "why_tests_cant": "Which row belongs to which node is invisible in shapes and for affine fields; a patch test passes with any order.", "anchors": ["applications/nodal_stress/example.py:get_shape_grads_ref", "applications/nodal_stress/example.py:get_shape_grads_physical"]}
{"id": "C90", "title": "Finite-strain plasticity: the return map and its histories", "statement": "A step with positive volume ratios leaves a symmetric positive elastic strain whose shear stress does not exceed the strength at the new hardening; the hardening never decreases and changes only when the elastic step would exceed the strength, in which case the new shear stress equals the strength and keeps its direction. The three stress measures returned belong to the same state (P F^T = tau = J sigma, tau symmetric) and to the state stored for the next step. A rotated observer sees rotated results; rigid rotations and pure volume changes cause no flow. As long as a point has not yielded, the residual's stress is the gradient of an elastic energy of the total deformation, however many steps were taken. The stored strain does not keep determinant one: plastic steps enlarge it (refuted as claimed in the comments of the code).", "quantifier": "every displacement gradient, stored state and rotation; any number of load steps, any solver, any three-dimensional mesh", "why_tests_cant": "The state is never in reach of an assertion: a wrong hardening factor, transposed inverse or stale internal variable gives plausible stresses; frame indifference and path independence range over all rotations and paths.", "anchors": ["applications/finite_plasticity/model.py:get_maps", "applications/finite_plasticity/model.py:update_int_vars_gp", "applications/finite_plasticity/model.py:compute_stress", "applications/finite_plasticity/single_cell.py:simulation"]}
{"id": "C91", "title": "Crystal plasticity: orientations and stiffness", "statement": "The orientation matrix of a quaternion q turns every vector v to q v q*; it is a rotation for unit quaternions (and a rotation scaled by the square of the size otherwise), the same for q and -q, and products of quaternions give products of matrices. Rotating tensors of second and fourth order means applying them in rotated axes, composes, and keeps their symmetries. The stiffness is Hooke's law of a cubic crystal; in every orientation its stress is symmetric, its energy positive, and it does not see the symmetries of the cube.", "quantifier": "every quaternion, every matrix, every tensor and strain", "why_tests_cant": "A test compares a few rotations; a transposed factor or an index in the wrong place shows only for orientations off the axes or strains with shear, and positivity ranges over all strains and orientations.", "anchors": ["applications/crystal_plasticity/models.py:rotate_tensor_rank_4", "applications/crystal_plasticity/models.py:rotate_tensor_rank_2", "applications/crystal_plasticity/models.py:get_rot_mat"]}
{"id": "C92", "title": "Crystal plasticity: the local Newton solve and its derivative rule", "statement": "A stress the local solver returns meets the crystal's implicit law to 1e-8. It walks from zero stress along Newton directions, with at most four halvings, and stops at the first stress that meets the tolerance; the result does not depend on how long it might have run on. A lattice that is only rotated gives exactly zero stress and leaves the state alone; a uniform stretch of a crystal gives the bulk pressure in one pass without slip. The custom derivative rule gives the velocity of the stress along every differentiable curve of gradients and states on which the law holds.", "quantifier": "every gradient, state, orientation, slip table, time step, linear solver and number of passes", "why_tests_cant": "The inner iteration is hidden in jit and custom_jvp; a test sees single converged values, not the law, the stopping rule, or the derivative in all directions of a parameter space of dozens of entries.", "anchors": ["applications/crystal_plasticity/models.py:CrystalPlasticity"]}
{"id": "C93", "title": "Crystal plasticity: stresses, slip, hardening and load histories", "statement": "The stress of a point is the one of the elastic lattice deformation after the step (det(Fn) P F^T = Fe S Fe^T) and belongs to the state that is stored. Slip goes the way of the resolved shear stress, so plastic work is never negative; the flow is trace free and slip on a single system keeps the plastic volume (slip on several does not: refuted). All systems harden by the same amount, resistances below saturation never fall (but one step can exceed saturation: refuted). Rotating the deformed body, or body and crystal before the deformation, rotates the results. In a load history each step solves with the state before it, each point stores the state of a stress that meets the law, orientations never change, and the reported stress of a cell is the average of the Cauchy stresses weighted by volume.", "quantifier": "every gradient, state, rotation, slip table and time step; any number of load steps, any solver, any three-dimensional mesh", "why_tests_cant": "Stale internal variables, a swapped order of unpacking or a wrong pull-back give plausible stresses; objectivity, dissipation and histories range over all rotations, stresses and paths.", "anchors": ["applications/crystal_plasticity/models.py:CrystalPlasticity", "applications/crystal_plasticity/polycrystal_neper.py:problem"]}
{"id": "C94", "title": "Elements of second order: what the entries of the solution mean", "statement": "For TRI6, TET10 and HEX27 the field takes its entries as values at the nodes and reproduces every polynomial of degree two sampled there. For QUAD8 and HEX20 the entry of a vertex is the value there, but the entry of a mid-edge node is the mean of the field over the edge; the value at that node is 3/2 of its entry minus a quarter of the entries of the two ends. With entries taken that way every polynomial of degree two is reproduced; sampling it at the nodes, as boundary conditions do, does not (refuted), except for degree one, where all nine elements do.", "quantifier": "all nine element types, all polynomials of degree two, all entries and points of the reference cell", "why_tests_cant": "Solutions of QUAD8 and HEX20 look smooth and linear tests pass; that a prescribed mid-edge value is a mean and not a point value shows only as a lost order of convergence.", "anchors": ["jax_fem/basis.py:get_elements", "jax_fem/basis.py:get_shape_vals_and_grads"]}
{"id": "C95", "title": "Quadrature rules: choice, exactness and full integration", "statement": "Cells and faces use the rule the argument stands for and the given order (0 included) or the element's default; other arguments raise TypeError. The rules of the default orders integrate exactly what basix promises. With a rule of large enough order, products of gradients, products of shape functions and shape functions are integrated exactly on every affine cell; for gradients the default order is large enough for TRI3, TET4, TRI6, TET10, QUAD4, HEX8 (the code asks whether it is) and HEX27. It is not for QUAD8 and HEX20 (the code says full integration): every affine cell has a displacement that is not rigid and has no strain at any quadrature point (refuted). With one point the mass matrices of TRI3 and TET4 are singular (refuted).", "quantifier": "all nine element types, orders, rules that keep basix's promise, affine cells, pairs of nodes and components", "why_tests_cant": "A test integrates a few fields on a few meshes; an unseen displacement shows only as a spurious zero-energy mode of particular supports, and exactness is a statement about all polynomials of a degree.", "anchors": ["jax_fem/basis.py:_normalize_quadrature_rule", "jax_fem/basis.py:get_elements", "jax_fem/basis.py:get_shape_vals_and_grads", "jax_fem/fe.py:FiniteElement"]}
{"id": "C96", "title": "Robin boundary conditions by universal kernels", "statement": "The universal cell and surface kernels of the Robin example define the same problem as the maps its comment offers as an alternative (stress = gradient, source = minus the body force, traction = 5 u^2 on both surfaces): equal residuals and equal Newton tangents for every mesh, solution and choice of surfaces; hence the residual is the weak form of the Robin problem with the stated body force.", "quantifier": "all meshes, elements, numbers of quadrature points, solutions, body forces and Robin maps, any way of differentiating the kernels", "why_tests_cant": "The example compares one solution with a reference file; whether two ways of writing a problem agree for every state cannot be settled by one state.", "anchors": ["applications/robin_bc/example.py:Poisson", "jax_fem/problem.py:Problem"]}
{"id": "C97", "title": "Distributed Poisson: any partition gives the Galerkin solution", "statement": "The parallel example assembles, for every partition of the mesh over ranks, every numbering, ghost layer and order of cells and vertices, the same problem: the matrix is the form of grad u . grad w, the vector the load by one point per cell, and with the boundary rows replaced the system is the Galerkin problem. On the unit-square grid that problem has one solution, interior rows are the five-point stencil, the matrix is symmetric positive definite on vectors that vanish on the boundary (what CG and Jacobi need, although the whole matrix is never symmetric), and the values gathered from the ranks are those of the Galerkin solution.", "quantifier": "all grids, triangulations, partitions, numberings, ghosts, sources and, for the gathering, all keys that tell the vertices apart", "why_tests_cant": "A run with a few ranks checks one partition of one mesh; that no partition or ordering changes the result, or the solvability for every grid, needs a proof.", "anchors": ["applications/parallel/example.py:unit_square_triangle_mesh", "applications/parallel/example.py:element_stiffness", "applications/parallel/example.py:element_load", "applications/parallel/example.py:global_dof"]}
{"id": "C98", "title": "Dendritic solidification, implicit solver: one solution, heat balance, gradient flux", "statement": "A step of the implicit solidification example solves the two coupled equations of Kobayashi's model with the interface width taken at the old direction. It has exactly one solution for every positive time step and anisotropy below 1; solver() returns it; the run from the seed exists and is the only one. With no prescribed temperature the integral of T - K p never changes, with noise. All-liquid and all-solid states at one temperature never change. The angle used is the angle of the gradient, also at zero and across the cut; eps has the derivative used; for a whole number of arms the flux is the derivative of the interface energy.", "quantifier": "all meshes of the plane whose elements see the fields, parameters, old fields, noise arrays, numbers of steps and solvers that solve", "why_tests_cant": "A run shows one mesh and one noise array; unique solvability for every step size, exact conservation over all runs and differentiability across the cut of arctan2 need a proof.", "anchors": ["applications/dendrite/implicit_fem/example.py:Solidification", "applications/dendrite/implicit_fem/example.py:safe_arctan2", "applications/dendrite/implicit_fem/example.py:simulation"]}
{"id": "C99", "title": "Dendritic solidification, explicit solver: lumped masses, step equations, heat drift of the noise", "statement": "get_mass returns, for every node, tau/dt (phase) and 1/dt (temperature) times the integral of its shape function. A step of explicit_euler never fails, and the change of the fields in the lumped inner product is the right-hand side of Kobayashi's equations at the old fields, tested with any fields. All-liquid and all-solid states at one temperature are fixed. After k steps of any run the integral of T - K p is the initial one minus dt K/tau times the integrals of the noise terms: conserved without noise, not conserved with it (the heat equation leaves the noise out). On rectangle meshes with quadrature inside the square all masses are positive, so the example's run exists for every number of steps.", "quantifier": "all meshes of the plane, parameters, fields, noise arrays, numbers of steps", "why_tests_cant": "A run shows one mesh, one noise array and rounded numbers; that the lumped step is the stated weak form for all test fields and that the only heat drift is that of the noise needs a proof.", "anchors": ["applications/dendrite/explicit_fem/example.py:SolidificationMass", "applications/dendrite/explicit_fem/example.py:SolidificationForce", "applications/dendrite/explicit_fem/example.py:get_mass", "applications/dendrite/explicit_fem/example.py:get_explicit_dynamics"]}
{"id": "C100", "title": "Dendritic solidification, finite differences: operators, edges, steps, the frozen gradient of eps squared, heat", "statement": "Inside the grid grad and laplace are the central differences (exact for polynomials of degree two) and laplace sums to zero over the grid. The angle is that of the gradient, in [0, 2 pi), and eps has the derivative used. zero_flux_BC copies the edges and is idempotent. In a run of any length every pass solves the discrete Kobayashi equations with one exception: the gradient of eps squared stays the one of the first pass, because the jitted phase_field closes over it; so the first pass solves them, and the second one does not in general. The sum of T - K p over inner places is conserved by every run (over the whole grid it is not), uniform all-liquid or all-solid states stay, and under dt (2/hx^2 + 2/hy^2) <= 1 the temperature obeys a maximum principle. The seed fails on non-square grids.", "quantifier": "all grid sizes, parameters, spacings, noise arrays, fields and numbers of passes", "why_tests_cant": "Pictures of one run look plausible with the frozen term; that it is frozen in every pass, and the balances for all grids and step counts, are statements about all executions.", "anchors": ["applications/dendrite/explicit_fd/example.py:simulation", "applications/dendrite/explicit_fd/example.py:phase_field", "applications/dendrite/explicit_fd/example.py:T_field", "applications/dendrite/explicit_fd/example.py:zero_flux_BC", "applications/dendrite/explicit_fd/example.py:get_theta"]}
{"id": "C101", "title": "Laser heating with phases and thermal stresses: stress update, run, phases, heat balance, the faces selected as top", "statement": "The stress update of the mechanical problem takes the elastic guess (old stress plus Hooke's law, with the moduli of the phase, applied to the change of strain beyond the thermal one), keeps its mean stress, keeps its shear part when the von Mises stress is at most 250 MPa and scales it to that limit otherwise; held fixed, a temperature change dT changes the stress by the pressure E alpha dT / (1 - 2 nu) only. A run of n passes returns n states; in every pass the heat problem is solved with the last temperature as old one and the beam at x = 0.125 mm + 0.5 t, on for t < 0.5 ms; every tenth pass solves the displacement, and the stored stress and strain are those of the solution, with the temperature change over the ten passes; while a point keeps its phase and does not yield its stress is independent of the path. Phases are decided by the temperatures after every tenth pass, never go back, and solid metal reheated above the melting point stays solid. The heat problem conducts, stores, loses by convection and radiation and takes in the beam through the selected faces, and where its Dirichlet residual vanishes the heat balance holds. On the grid of the script the function top selects seven faces for every face on the upper plane (the tolerance equals the layer height), so the beam brings in at least twice its heat.", "quantifier": "all displacement gradients, stored stresses and strains, temperatures, phases; all solvers, meshes, fields and numbers of passes; all grids of five layers", "why_tests_cant": "A test looks at one run; the balances, path independence and phase rules concern every history, and a doubled heat input still gives plausible pictures.", "anchors": ["applications/thermal_mechanical/example.py:get_maps", "applications/thermal_mechanical/example.py:stress_return_maps", "applications/thermal_mechanical/example.py:update_stress_strain", "applications/thermal_mechanical/example.py:update_dT_and_phase", "applications/thermal_mechanical/example.py:top", "applications/thermal_mechanical/example.py:walls", "applications/thermal_mechanical/example.py:thermal_neumann_top"]}
{"id": "C102", "title": "Neo-Hookean elasticity: stress, objectivity, energy, small strains, potential, torque, rigid motions, traction", "statement": "For every deformation gradient F with positive determinant the first Piola-Kirchhoff stress that the scripts obtain by differentiating the stored energy is mu J^(-2/d) (F - tr(F^T F)/d F^-T) + kappa (J - 1) J F^-T (in two and three dimensions, and for the plane-strain energy of the cellular example), and with a density rho it is rho times that. The energy does not change when F is rotated from either side, the stress rotates with the body, P F^T is symmetric, the stress of a rotation is zero; the energy is never negative and vanishes for rotations only. For small displacements the three-dimensional and the plane-strain energies give Hooke's law with lambda = E nu / ((1 + nu)(1 - 2 nu)); the two-dimensional beam energy does not: its first parameter is lambda - mu/3. The assembled residual is the derivative of stored energy less work of dead loads, does no work on turning the deformed body or on any field when the body is only moved and turned (beyond that of the loads), and the reported traction of a homogeneous deformation is the third column of its stress times the measure of the selected faces.", "quantifier": "all deformation gradients with positive determinant, all rotations, all moduli, all problems of this kind, meshes, displacements without crushed quadrature points, test fields", "why_tests_cant": "A test compares two reaction forces with stored numbers; symmetry under rotations, positivity, the linear law and the energy principle concern every deformation.", "anchors": ["tests/benchmarks/hyperelasticity/test_hyper_elasticity.py:HyperElasticity", "tests/benchmarks/hyperelasticity/test_hyper_elasticity.py:compute_traction", "applications/arc_length/hyperelastic_models.py:psi", "applications/dynamic_relaxation/cellular_displacement.py:psi", "applications/dynamic_relaxation/beam3d_displacement.py:psi", "applications/scalability/hyperelastic3d_common.py:psi"]}
{"id": "C103", "title": "Third medium contact: rotation, energy, stress, objectivity, moment, passes and geometry", "statement": "The rotation computed from the eigenvectors of F^T F is the rotation of the polar decomposition of F, the only one, and in the plane it is the rotation by the angle of (F00 + F11, F10 - F01). The stored energy is that of shape and volume in the solid, and in the medium a millionth of the shape part plus the energy of turning away from the rotation of the pass before; it is never negative and is zero only for rotations, in the medium only for the old one. The stress obtained by differentiation is a closed formula. Turning body and old rotation together changes nothing; the solid exerts no moment, the medium one proportional to the sine of the angle to the old rotation. The random diagonal is needed: a body that is only turned always has equal eigenvalues. The rotation handed to the next pass is the mean over the points of a cell, which is a rotation only when these agree; otherwise no state of the medium there is free of energy. The residual is the derivative of the total energy. The cells marked solid are exactly those of the C on every refinement of the grid, the prescribed displacements are zero at the left and the drop at one corner node, and pass l of n + 1 uses the factor 1.2 l / n, the solution before it and its mean rotations.", "quantifier": "all deformation gradients with positive determinant, all eigenvector routines, all old rotations, all displacements without inverted points, all test fields, all refinements of the grid, all numbers of passes, all solvers", "why_tests_cant": "A run shows pictures of one simulation; uniqueness of the rotation, zero sets of the energy, the energy principle and the selection of cells on every grid concern all inputs.", "anchors": ["applications/third_medium_contact/example.py:Contact", "applications/third_medium_contact/example.py:get_maps", "applications/third_medium_contact/example.py:post_processing"]}
{"id": "C104", "title": "Differentiable mesh points: rebuilt problems, node, check, finite differences, manufactured solution", "statement": "As long as every location and value function tells the same of the moved nodes as of the old ones, a problem built anew on the moved points and the old problem evaluated with the moved points are the same: selected faces, residual, system of each Newton step, prescribed values, solutions. This covers every node of the lower edge moved by at most 1e-3 on every grid; it fails for a node of the upper edge moved sideways, whose prescribed value stays that of the old place. The node chosen for the finite difference is on the lower edge, not a corner, and nearest to x = 0.35; with one column of cells a corner is returned. The check of the face counts lets a run through exactly for steps up to 1e-3. The nonlinear problem has at most one solution on each moved mesh, so the finite difference is the difference quotient of the sum of squares of the solution of the problem evaluated with the moved points, and it tends to the derivative of that sum wherever there is one. Source, flux and prescribed values are those of the exact solution.", "quantifier": "all element types, meshes, maps, boundary data and moved points that keep the boundary data; all grids, steps, positive quadrature rules and solvers returning solutions", "why_tests_cant": "The example compares two numbers for one node of one mesh; that both describe the same function of the points, on every mesh and for every small step, and that the solution is unique, concern all inputs.", "anchors": ["applications/differentiable_mesh/example.py:NonlinearPoisson", "applications/differentiable_mesh/example.py:pick_fd_node_on_neumann_edge", "applications/differentiable_mesh/finite_difference.py:gold_fd_two_independent_problems"]}
{"id": "C105", "title": "Convergence study: norms of the error, fields the elements reproduce, source and boundary values", "statement": "On a mesh without negative measures the L2 error is the root of the sum over quadrature points of the squared error times the measure, a number and never nan; the H1 error adds the root of the same sum for the gradients, so it is at least the L2 error. With positive measures the L2 (H1) error is zero exactly when values (values and gradients) agree with the given function at every quadrature point, and a change of the solution changes the L2 error by the norm of the change at most. Nodal values of an affine function have zero L2 and H1 error for every element on every mesh, and nodal values of any polynomial of degree two have zero error for TRI6, TET10 and HEX27 on every mesh of affine cells; for TET4 this is false. With correct second derivatives the source is the Laplacian of the known solution, and a run returns the errors of a field that takes the known values at every node near the surface of the cube and satisfies the discrete equation at every other node.", "quantifier": "all elements, meshes, measures, solutions and functions; all polynomials of degree one and two; all correct differentiation operators and solvers", "why_tests_cant": "The study prints four estimated orders for two meshes; that the norms vanish only for agreement and that whole polynomial spaces are reproduced on all meshes concern all inputs.", "anchors": ["applications/convergence_rate/example.py:compute_l2_norm_error", "applications/convergence_rate/example.py:compute_h1_norm_error", "applications/convergence_rate/example.py:true_u_fn", "jax_fem/basis.py:get_shape_vals_and_grads"]}
{"id": "C106", "title": "Volume sensitivity: deformed volume, its derivative, the parameters; areas of boundary faces", "statement": "On a mesh without zero measures the volume computed from a displacement is the volume of the mesh with the displaced points (for triangles and tetrahedra the determinants of the displaced edges), det A times the old one for an affine motion and the old one for a rigid motion. The target is never negative, zero exactly at the volume 1.01, and its derivative in every direction is twice the volume error times the cofactor integral. Setting the parameters changes only the prescribed displacement of the top; the corner, the bottom, the mesh and the given internal variables stay. These conditions do not stop a rotation about the third axis: a solution turned about it keeps all prescribed values, the volume and the target. The surface area computed for a location function is the sum of the measures of exactly the selected faces, the same in every component and whatever the solution, the true area on affine cells, and ValueError for a location function of the wrong arity.", "quantifier": "all elements, meshes, displacements, motions, directions, parameters, angles and location functions", "why_tests_cant": "The example runs one HEX8 cell and the test compares one area to a tolerance; the identities hold for all meshes and displacements and the freedom to turn is not visible in a run.", "anchors": ["applications/crystal_plasticity/volume_sensitivity.py:target_value", "applications/crystal_plasticity/volume_sensitivity.py:set_params", "tests/benchmarks/linear_elasticity_cylinder/test_linear_elasticity_cylinder.py:compute_surface_area", "jax_fem/fe.py:sol_to_grad"]}
{"id": "C107", "title": "Arc length demonstration: circle, tangent, nan, exit, direction, convergence of the first step", "statement": "Every pass of the arc length demonstration gives the point of the circle of radius Delta_l about the previous point that lies on the tangent of the force at the current displacement and has the greatest load factor; the force left is exactly the square of the displacement of the pass. A pass is nan exactly when the slope or the load vector is zero or the tangent misses the circle. What the solver returns lies on the circle and comes from a pass whose residual was at most 1e-6; the run returns one point per step, neighbours at distance Delta_l up to the first nan. From a point of the curve the first pass always raises the load, so behind the limit point it turns back: the descending branch is not followed. With the values of the demonstration the first step returns within six passes a point within 1e-6 of the curve.", "quantifier": "all radii, previous points, load vectors, iterates, numbers of steps and passes; the demonstration's first step", "why_tests_cant": "The demonstration plots two steps; that the circle condition is exact, when nan arises and where the method turns back concern all starting points.", "anchors": ["applications/arc_length/demo_analytical.py:arc_length_solver", "applications/arc_length/demo_analytical.py:internal_force", "applications/arc_length/demo_analytical.py:slope"]}
{"id": "C108", "title": "One variable of three components or two variables of one and two components give the same elasticity", "statement": "The example with one displacement variable and the example with two variables (universal kernels for one and for two variables) are both built on every mesh whose cells fit the element. The first is linear elasticity with the Lame parameters of E = 70000 and nu = 0.3 without loads. Both prescribe a tenth in the first direction and zero in the others at the right side, zero at the left side and nothing elsewhere. For every displacement and all mesh points the residual of the two variable problem at the split field is the split residual of the one variable problem, so the solutions of the one are exactly the solutions of the other, split. On every box mesh both have exactly one solution, and it is the same displacement.", "quantifier": "all element types, meshes, quadrature rules, point sets and displacement fields; all box meshes for existence and uniqueness", "why_tests_cant": "The example pair is compared by eye on one mesh of two cells; that the multi-variable flattening, slicing and assembly agree for all fields cannot be sampled.", "anchors": ["applications/stokes/example_1var.py:LinearElasticity", "applications/stokes/example_2vars.py:LinearElasticity", "jax_fem/problem.py:Problem"]}
{"id": "C109", "title": "Neural network surrogate: true gradients, objectivity, rest, moment balance, no stored energy, loss and samples", "statement": "For all weights the input gradient of the network is its true gradient at every input, also at the kink of the activation, and the gradient of a batch is row by row that of the single inputs. The stress computed from it turns with the body, is zero for a body that is only turned, and P F^T is symmetric. Its power is the rate of the network's energy without its linear part plus shear stress times shear strain rate, since the shear strain is counted once: for some weights the stress has no stored energy at all (the claim that it always has one is refuted). The training loss is the mean error relative to sqrt(label^2 + 0.001), is never negative and is zero exactly if all labels are met; with zero loss the stress before the shift is the data. Every epoch uses each sample except the first exactly once in batches of at most 16. The example prescribes zero at the bottom, 0 and -1.5 at the top, nothing elsewhere.", "quantifier": "all weights, inputs, batches, displacement gradients, orthogonal matrices, differentiable motions, sample counts and sampler permutations; all meshes for the boundary values", "why_tests_cant": "A test evaluates one trained network at some strains; frame indifference, the exact gradient and the missing stored energy concern all weights and motions.", "anchors": ["applications/surrogate_model/train.py:SurrogateModel", "applications/surrogate_model/train.py:Network", "applications/surrogate_model/train.py:FEMDataset", "applications/surrogate_model/example.py:NnbasedMetamaterial", "applications/surrogate_model/example.py:problem"]}
{"id": "C110", "title": "Finite plasticity examples: load programs, prescribed values step by step, indentation profile, rigid motions", "statement": "The single cell is pulled to 1 percent in ten equal steps and back, the plate is pressed to scale 0.2 in four and back. For every mesh and every list of scales the loop of boundary updates never fails, leaves the mesh as it is, and the variable of each step prescribes exactly the conditions of its own scale: cell z = 0 below, z = scale on top, x and y zero at the origin, y zero at the x corner, nothing else; plate zero on the walls and, on top, minus 10 times the scale times (wall distance / 5 + 1e-10). The wall distance is zero exactly on the walls and greatest exactly at the centre. That the walls are held everywhere is false: on the top edge the later condition wins with the value -scale/1e9. Of the rigid motions the unloaded cell admits the identity and sign changes of x and y (so the half turn about z), no infinitesimal one; the stretched cell admits none.", "quantifier": "all meshes, all lists of scales, all initial scales, all steps; all rigid motions of the cell", "why_tests_cant": "A test runs one mesh through one program; that no step keeps a value of an earlier scale and that no rigid motion is left concern all meshes, programs and motions.", "anchors": ["applications/finite_plasticity/single_cell.py:simulation", "applications/finite_plasticity/thin_plate.py:simulation", "applications/finite_plasticity/model.py:Plasticity"]}
{"id": "C111", "title": "Stress sensitivity of a stretched crystal", "statement": "stress_sensitivity.py stretches one crystal in ten steps and returns the last average Cauchy stress zz as a function of the factor alpha of the initial slip resistances. The displacements of the top are (k+1)/2000 and every step takes 1/20. alpha scales the resistances and nothing else; the crystal starts without plastic deformation or slip, in the axes of space. For any solver, step k solves the problem with the corner held, the bottom sliding, the top moved by its displacement and the state the step before left; at every quadrature point a stress meets the law of the crystal up to 1e-8, and the new state and the problem's stress are those of it; the recorded stress is the mean of the Cauchy stress zz over the first cell. The run fails only if the solver does. The solution of a step is not unique: turning the deformed body about the third axis by any angle gives another solution. The returned stress is well defined all the same: a run with the solutions turned by any angles, different from step to step, has the same stress in every step and the same state at every point.", "quantifier": "all solvers, tables of slip systems, three-dimensional elements and meshes, factors alpha, angles, and runs that end; the turned solutions for bodies that are not crushed and whose corner nodes are on the axis", "why_tests_cant": "One run gives one history with one of the solutions. That the others give the same stress, so that the derivative in alpha has a meaning, needs all angles in all steps.", "anchors": ["applications/crystal_plasticity/stress_sensitivity.py:problem", "applications/crystal_plasticity/stress_sensitivity.py:simulation", "applications/crystal_plasticity/models.py:CrystalPlasticity"]}
{"id": "C112", "title": "Arc length beams: load path, supports, end force, mesh", "statement": "For every mesh, field and parameter lam, the vector that the force controlled solver drives to zero is, at each free value, the residual of the beam whose right end carries the surface map (5 lam, 0) and, at each held value, the distance to the prescribed one; it vanishes exactly when the field solves that beam. So at lam = 0 the end is free of load while the small load in the middle below stays, and at lam = 1 the field solves the main problem. For every field the residual adds up to the end load times the length of the end along x and 1e-5 times the length of the middle faces along y, and at equilibrium the held values alone carry this: the surface map (5, 0) makes the clamp push along +x, the beam is compressed. Force control holds the left end only, displacement control also the right end at (-2.5, 0), scaled by lam on the way, and its supports together carry nothing along the beam. On the 50 x 2 mesh the assertion on the edges holds, the end is two faces and the middle two faces, each of length one. The stress is the derivative of the plane neo-Hookean energy.", "quantifier": "all meshes of built elements, all fields, all parameters, all end loads; all quadrature rules on the mesh of the example", "why_tests_cant": "A run follows one path on one mesh and sees the norm of the vector; that the path passes only through equilibria of the beam with the scaled load, and that nothing of the counter load is left at the end, concerns all fields and parameters.", "anchors": ["applications/arc_length/beam2d_force.py:BeamCounterLoad", "applications/arc_length/beam2d_force.py:BeamHyperelasticWithImperfection", "applications/arc_length/beam2d_displacement.py:compression_dirichlet_bc_info", "applications/arc_length/hyperelastic_models.py:BeamHyperelastic", "jax_fem/solver.py:get_q_vec", "jax_fem/solver.py:arc_length_solver_force_driven"]}
{"id": "C113", "title": "Boundaries selected by node numbers", "statement": "A location function may take the point, or the point and the number of the node. For every mesh, element type and list of conditions, functions which accept the same nodes give the same finite element variable and the same boundary faces in the same order, however many arguments they take, and raise in the same cases. On every rectangle mesh whose cells are wider than the tolerance, left, right, bottom and top by coordinates are the numbers below Ny+1, from Nx(Ny+1) on, the multiples of Ny+1 and those with remainder Ny. The index sets of the example are its right and top side; among all rectangles {6,7,8} is the right side of the 2 x 2 and the 3 x 1 mesh only and {2,5,8} the top side of meshes two cells high and at most two wide only. The example prints the node lists [0 1 2], [6 7 8] and the faces (0,0), (2,0) and (1,3), (3,3).", "quantifier": "all meshes, elements, location functions of one or two arguments and condition lists; all rectangle meshes", "why_tests_cant": "A test compares the two ways on one mesh; that they agree for every pair of functions accepting the same nodes, and for which meshes a set of numbers is a side, ranges over all meshes.", "anchors": ["applications/boundary_index/example.py", "jax_fem/fe.py:FiniteElement.Dirichlet_boundary_conditions", "jax_fem/fe.py:FiniteElement.get_boundary_conditions_inds", "jax_fem/generate_mesh.py:rectangle_mesh"]}
{"id": "C114", "title": "Stretched cube of 20-node elements", "statement": "For every mesh file with points in space the serendipity example moves the mesh as a whole so that the least coordinate along each axis is zero; an empty mesh raises. Where the file places the cube does not matter: every translation gives the same finite element variable. The nodes at the greatest x are displaced by a tenth of the extent and held across, the nodes at the least x are held, all others are free; where the tolerances of both ends meet the far end wins. Some node is always displaced, and a cube at least 1e-4 long has a node held at zero. The stress is Hooke's law with E = 70000 and nu = 0.3.", "quantifier": "all point lists in space, all cells, quadrature rules and translations; all displacement gradients", "why_tests_cant": "A test stretches the cube of one mesh file; that the result is independent of its position and which nodes are held ranges over all files.", "anchors": ["applications/serendipity/example.py"]}
{"id": "C115", "title": "Relaxed beam with and without its small load", "statement": "For every planar element, mesh and field the residual of the compressed beam of the dynamic relaxation example exceeds that of the same beam without surface load by 1e-5 across the beam, spread over the nodes of the loaded cells with weights adding up to the length of the loaded faces. The second solve, which starts from a solution of the first, starts with the held values in place and exactly the negative small load as residual at the free values. On the mesh of the example no field balances both with and without the small load, so the second solve cannot end where it began.", "quantifier": "all planar elements, meshes, derivatives of the energy and fields; all quadrature rules for the example mesh", "why_tests_cant": "A test compares two computed fields; that the residuals differ by the load for every field, and that no field whatever solves both, ranges over all fields.", "anchors": ["applications/dynamic_relaxation/beam2d_displacement.py"]}
