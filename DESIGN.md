# Design of the jax-fem model

## Trusted base

* Coq 8.16.1 kernel (with `vm_compute`).
* What `Print Assumptions` prints under each theorem; the list is at the end of this file. No axiom is added here:
  they are the standard library's axioms for real numbers, and `Classical_Prop.classic` where Coquelicot or the
  standard library's analysis uses it.
* The reading of the Python source: nothing is run. Each definition cites file and lines.
* The models of library functions (numpy, jax, scipy, PETSc) stated next to the definitions that use them.

## Numbers

The code computes with float64. The model is written over a record of operations `ops`
(Num.v) and instantiated at

* any commutative ring / field (theorems about assembly, boundary conditions, geometry);
  `Z` and `Qc` instances execute and are used for examples,
* `R` (analysis: derivatives, norms, arc-length, MMA),
* `XR` = reals with +inf, -inf, NaN and IEEE-like comparison/arithmetic rules
  (control flow that depends on NaN and infinities: Newton loop, dynamic relaxation,
  checked linear solves, MMA). Rounding and signed zeros are not modelled.

## What is modelled as an oracle (universally quantified argument, never an axiom)

jax.jvp (only in the derivative theorems, with "is the derivative" as hypothesis),
sparse linear solves, numpy.linalg.solve, KDTree queries, basix quadrature rules and reference
normals, user callbacks, user kernels/maps, the clock.
PETSc `setValuesCOO`, `zeroRows`, `transpose`, `matMult` are modelled by their documented effect.
Loops without a bound in the code take fuel and return a separate out-of-fuel value.

## What is modelled

| code | model | remarks |
|------|-------|---------|
| basis.py: get_elements, reorder_inds, get_shape_vals_and_grads, get_face_shape_vals_and_grads | Basis.v | tabulation of the nine element types: seven Lagrange, two serendipity (QUAD8, HEX20) with the degrees of freedom of basix 0.10 (environment.yml): vertex values and means over the edges; quadrature rules are arguments |
| fe.py: all of FiniteElement | Fe.v, Basis.v (`fe_init`) | inverse and determinant for dim 2 and 3 |
| problem.py: Problem.\_\_post_init\_\_, geometry, kernels, batching, assembly | Problem.v, Init.v | `custom_init` by what it leaves; `jacfwd` by columns of a jvp |
| solver.py 63-285 linear solvers, options | LinSolve.v, Amgx.v, Options.v | the numerical back-ends are oracles |
| solver.py 286-421 Dirichlet rows, newton_step | SolverBc.v, Newton.v | |
| solver.py 424-466 line_search | Newton.v | |
| solver.py 469-556 tangent, cache | SolverCache.v, SolverBc.v | object identities as numbers |
| solver.py 559-855 arc length | ArcLength.v | |
| solver.py 858-1085 dynamic relaxation | DynRelax.v | |
| solver.py 1088-1340 options, solver() | Options.v, Newton.v, Solver.v | |
| solver.py 1362-1455 implicit_vjp, ad_wrapper | Adjoint.v | |
| mma.py: all | Mma.v, MmaOpt.v | |
| generate_mesh.py: rectangle_mesh, box_mesh, count_selected_faces, check_mesh_TET4, get_meshio_cell_type, renumbering of cylinder_mesh_gmsh | Mesh.v, Basis.v | |
| utils.py: save_sol, modify_vtu_file, timeit, walltime | Utils.v | meshio's encoder is an oracle |
| logger_setup.py | Utils.v | |
| applications/periodic_bc/example.py: periodic_boundary_conditions | Periodic.v | |
| applications/quiet_element/example.py 28-250, loops 300-351 | Quiet.v, Thermal.v | reading of mesh and toolpath files and vtk output left out |
| tests/benchmarks/linear_elasticity_cube/test_linear_elasticity_cube.py 20-25, applications/explicit_dynamics/example.py 20-26 | Elastic.v | |
| applications/explicit_dynamics/example.py 76-112 | Dynamics.v | the mode shape, the choice of dt and the post-processing left out; u0, v0, dt, number of steps are arguments |
| tests/benchmarks/plasticity/test_plasticity.py 16-88, loop 131-139 | Plasticity.v | the solver of a step is an argument |
| applications/updated_lagrangian/example.py 16-22, 35-174, 199-225 | Lagrangian.v | the solver of a pass is an argument; differentiation of the run, mesh shift (181-183) and output left out |
| applications/wave/example.py 21-71, 84-129, 166-174 | Wave.v | the solver of a pass is an argument; reading of the numpy files, output left out |
| applications/stokes/example.py 16-111 | Stokes.v | real arithmetic; list(set(...)) is any function listing the elements once; orientation of triangles in Wave.v; reading of files, output left out |
| applications/thermal_mechanical_full/example.py 24-99, 160-170, 206-216 | ThermoMech.v | real arithmetic; the solver of a pass is an argument; the time step stored per quadrature point instead of per cell; a missing internal variable is zero; orientation of triangles (102-156) in Wave.v; reading of files, output left out |
| applications/phase_field_fracture/eigen.py 10-75 | Eigen.v | real arithmetic; eigh and jax.grad of the scalar function are arguments; differentiation of get_eigen_f_jax by JAX not modelled |
| jax_fem/problem.py 100-300 (nonlinear maps) | SpecMonotone.v (vocabulary only) | the model of the residual is Problem.v |
| applications/phase_field_fracture/example.py 40-175, 180-185, 254-279 | Fracture.v | real arithmetic in the maps; eigh, jax.grad, the random noise and the two solver calls are arguments; the while loop has a number of passes that may run out; file output not modelled |
| applications/nodal_stress/example.py 40-87, 140-145 | NodalStress.v | any ring; element.points from the table in Basis.v; the hyperelastic problem itself is not modelled |
| applications/finite_plasticity/model.py 7-118, single_cell.py 18-23, 72-84 | FinPlast.v | real arithmetic, Rpower for det(f)**(-1/3) (theorems ask for positive volume ratios); the solver is an argument; boundary values, mesh and file output of the scripts not modelled |
| applications/crystal_plasticity/models.py 20-291, slip_systems_fcc.txt, polycrystal_neper.py 137-157 | CrystalPlast.v | real arithmetic; the hardening exponent 2.5 as the square times the square root; jacfwd is the derivative (Coquelicot Derive); np.linalg.solve is an argument; the while loop has a number of passes that may run out; the finite element solver is an argument; quaternion files, Neper meshes and file output not modelled |
| jax_fem/basis.py 127-139, 160-168, 193-201, fe.py 68-69, 85-95 | Quadrature.v | basix.make_quadrature and string_to_type are arguments; the rules of the default orders are written down in SpecQuad.v (not HEX27's) and proved exact |
| applications/robin_bc/example.py 18-89 | Robin.v | real arithmetic; the element files, location functions and output not modelled |
| applications/parallel/example.py | Parallel.v | grid, element matrices, assembly over ranks (what a DMPlex rank sees is a record; PETSc insertion, zeroRows and the gathering by communication are modelled by their documented effects, the Krylov solver by "a solution"), boundary rows, gathering by rounded coordinates |
| applications/dendrite/implicit_fem/example.py 32-175, 204-222 | Dendrite.v | real arithmetic, no negative zero; jax.grad of eps_fn written out (C98_anisotropy proves it is the derivative); the random array is an argument, the same in every pass; output not modelled |
| applications/dendrite/explicit_fem/example.py 39-224, 250-265 | DendriteEx.v | real arithmetic; the random array is an argument, the same in every pass; csr_array and its row sums are sums over all entries; output not modelled |
| applications/dendrite/explicit_fd/example.py 10-176 | DendriteFd.v | real arithmetic; arrays are functions of two indices, entries outside the grid are never read (C100_grid); jax.jit is modelled as capturing the closed-over arrays at the first call; the random array is an argument, the same in every pass; output not modelled |
| applications/thermal_mechanical/example.py 22-255 | Laser.v | real arithmetic; both solvers are arguments returning Ok or an error; per-cell arrays are lists of functions of the quadrature point; output not modelled |
| tests/benchmarks/hyperelasticity/test_hyper_elasticity.py 14-72, applications/arc_length/hyperelastic_models.py, applications/dynamic_relaxation (beam2d, beam3d, cellular), applications/nodal_stress/example.py 14-40, applications/scalability/hyperelastic3d_common.py (energies and stresses) | HyperElastic.v | real arithmetic, powers by Rpower (determinant positive); jax.grad is an argument returning the gradient where the determinant is positive |
| applications/third_medium_contact/example.py 39-181 | Contact.v | real arithmetic; np.linalg.eigh, jax.grad, the random diagonal and the solver are arguments; output not modelled |
| applications/differentiable_mesh/example.py 45-165, applications/differentiable_mesh/finite_difference.py | DiffMesh.v | real arithmetic; the solver is an argument (any, then one that returns solutions); the gradient by ad_wrapper is that of C37; existence of a solution of the nonlinear problem is not proved, only that there is one at most; output not modelled |
| applications/convergence_rate/example.py 14-102 | ErrorNorm.v | real arithmetic, nan as None; jax.jacrev, jax.hessian and the solver are arguments; the gmsh mesh is any list of points and cells; the printed orders (convergence_test) not modelled |
| applications/crystal_plasticity/volume_sensitivity.py 22-40, 58-80; tests/benchmarks/linear_elasticity_cylinder/test_linear_elasticity_cylinder.py 39-75 | Volume.v | real arithmetic; the time loop and its gradient are not modelled again (C37, C38 give the gradient of one solve); the problem's crystal plasticity law is that of the CrystalPlasticity model |
| applications/arc_length/demo_analytical.py 12-78 | ArcDemo.v | real arithmetic, nan as None; a Python ZeroDivisionError for a float start at slope zero is counted as nan; the loop has fuel with an explicit out-of-fuel value; plots not modelled |
| applications/stokes/example_1var.py 20-80, applications/stokes/example_2vars.py 20-90 | TwoVars.v | real arithmetic; any mesh and element type in three dimensions; the gmsh mesh is replaced by a mesh argument (and by the box mesh in C108_box); saving of results not modelled |
| applications/surrogate_model/train.py 26-86, 115-126; applications/surrogate_model/example.py 27-44, 64-107 | Surrogate.v | real arithmetic; the gradient is written out in reverse mode and proved to be the derivative; the sampler is an arbitrary permutation; initial weights, optimizer, gradient of the loss by the weights, files not modelled |
| applications/finite_plasticity/single_cell.py 19-23, 35-78; applications/finite_plasticity/thin_plate.py 22-26, 38-79 | FinLoad.v | real arithmetic; any mesh instead of the gmsh box; the material and the internal variables are in FinPlast.v; saving of results not modelled |
| applications/crystal_plasticity/stress_sensitivity.py 39-41, 63-68, 74-112 | SensStress.v | real arithmetic; any mesh instead of the gmsh box; the solver is any function of the step and its problem; saved files, plots and jax.grad not modelled; material in CrystalPlast.v |
| applications/arc_length/hyperelastic_models.py 9-52; applications/arc_length/beam2d_force.py 22-90; applications/arc_length/beam2d_displacement.py 25-68; jax_fem/solver.py 561-565, 583, 637-642, 647-651, 661, 669-671 | Beam.v | real arithmetic; jax.grad is an argument; the step of the arc length solver is in ArcLength.v; callbacks, files and options not modelled |
| applications/boundary_index/example.py 16-30, 53-88 | BoundIndex.v | real arithmetic; printing not modelled |
| applications/serendipity/example.py 16-26, 33, 39-45, 51-66, 68 | Serendip.v | real arithmetic; the mesh file is an argument; files not modelled |
| applications/dynamic_relaxation/beam2d_displacement.py 16-67, 73-76, 81-108, 117-120 | RelaxBeam.v, Beam.v | real arithmetic; jax.grad is an argument; the solver is in DynRelax.v |
## Not modelled

Rounding, jit compilation, performance, the text of log messages (solver.py 22-57, print_BC_info), gmsh,
meshio file formats, GPU transfers, ffmpeg; in generate_mesh.py
`box_mesh_gmsh` and the geometry part of `cylinder_mesh_gmsh`; in utils.py `read_abaqus_and_write_vtk`, `json_parse`,
`make_video`; the applications except those in the table.

## Plan per property

| id | model | proof |
|----|-------|-------|
| C01 | `Basis.get_elements`, `Mesh.get_meshio_cell_type` on strings | case analysis on the nine names, Permutation by computation |
| C02 | `Basis.reorder_inds` | `find index` lemma for NoDup lists |
| C03 | Lagrange tabulation (`Basis.tabulate`) over any field, meshio node tables as spec | computation over the nodes, generic in field |
| C04 | same | `ring` at a symbolic point |
| C05 | `Fe.get_shape_grads` (det/inverse for dim 2, 3), `sol_to_grad` | J J^-1 = I and sum manipulation, any field |
| C06 | `convert_from_dof_to_quad` etc. | sums |
| C07 | JxW | determinants, `field` |
| C08 | `get_face_shape_grads` over R | cofactor identity |
| C09 | `Dirichlet_boundary_conditions` | filter/argwhere lemmas |
| C10 | `get_boundary_conditions_inds`, `count_selected_faces` | argwhere2 lemmas |
| C11 | `offset`, `find_ind`, row indices | prefix sums, div/mod |
| C12 | ravel/unflatten | list splitting |
| C13 | `split_and_compute_cell` incl. slicing of every input array | firstn/skipn, induction on cuts |
| C14 | gather, kernels, scatter-add | sums over occurrences |
| C15 | COO triplets, `setValuesCOO` | sums over occurrences |
| C16 | kernel Jacobian by columns from `jvp` | derivative of finite sums |
| C17 | both code paths | rewriting |
| C18 | Laplace/mass/surface kernels | exchange of sums, partition of unity |
| C19 | assertion logic | cases |
| C20-C23 | `.at[].set/.add`, zeroRows | fold invariants |
| C24 | cache as state machine with object identities | invariant over histories, plus a refutation for direct list moves |
| C25, C26 | dicts as association lists | cases / extensional lemmas |
| C27 | result type with AssertionError | XR comparisons |
| C28, C29 | Newton loop with fuel over XR | loop induction |
| C30 | unrolled loop over R | cases |
| C31-C33 | arc-length inner and outer loop over R | quadratic formula, loop induction |
| C34, C35 | dynamic relaxation over XR | loop induction |
| C36, C37 | matrices as lists | sum exchange, transpose identities, chain rule |
| C38 | steps with a failure oracle | induction on steps |
| C39-C43 | MMA over R | lra/nra, invariants |
| C44-C46 | mesh generators | div/mod arithmetic, sums |
| C47 | determinant | ring |
| C48 | Python str.replace on characters | induction |
| C49, C50 | small state machines | induction |
| C51-C55 | kernels, `problem_init` | exchange of sums, partition of unity, cases |
| C56 | Newton loop | a problem whose residual never falls keeps it running for every fuel |
| C57 | arc-length outer loop | loop induction |
| C58, C59 | dynamic relaxation, solver() dispatch | loop induction, cases |
| C60, C61 | subsolv: reduced systems, line search | elimination identities, loop induction |
| C62-C66 | filter, sensitivities, optimize | sums, loop induction over histories |
| C67 | QUAD4/HEX8 elements on the structured meshes | determinants of congruent cells, sums |
| C68 | timeit, walltime | cases over results and worlds |
| C69 | residual on the structured meshes | each inside node is every local node once; partition of unity |
| C70 | periodic_boundary_conditions | ranks of free dofs, one unit per row |
| C71 | dict, inner and all faces as lists; one update per growth | invariant over histories of growth |
| C72 | Thermal, set_params, the loop over passes with any solver | loop invariant; residual of C51/C18; the marked boundary faces are a permutation of the outer faces |
| C73 | energy densities as functions of gradient, value, position, internal variables; total energy by the code's own quadrature | weak form of C18/C51 plus derivative of finite sums; quadratic expansion for linear elasticity |
| C74 | tangents of the maps as derivatives along lines; matrix as coo entries | C16 applied to unit fields, bilinearity |
| C75 | mass, fixed, acceleration, scan as list recursion with compute_residual as modelled | induction over steps; bilinear strain energy; finite quadratic form bound for the time step |
| C76 | return map on real (dim, dim) arrays with np.where as case distinction; internal variables per cell and quadrature point; load loop with any solver | deviatoric split, Cauchy-Schwarz, variational inequality; loop invariant; virtual work of C73 for monotonicity |
| C77 | universal kernel, set_params, push_F_prev and the loop with any solver; np.maximum as Rmax | F J0 = J(moved points) as loop invariant, pull-back identity for the stress, C73 for the energy; telescoping of the prescribed increments |
| C78 | universal kernel, set_params, time loop with any solver; triangles with real coordinates | residual equal to that of a problem with tensor and mass maps, then C73; telescoping energy identity; Gaussian elimination for existence (LinAlg.v); case analysis on the turn |
| C79 | assembled residual and matrix of any elastic problem of one variable | zero energy means zero strain; Gaussian elimination (LinAlg.v) gives existence, C73/C74 the energy and the matrix; induction over the slices of cells of a structured mesh excludes free motions |
| C80 | the solver models of C28 (extended reals) on the image of a problem over the reals | naturality of every model definition in the numbers (LiftFacts.v); C22 and the affine residual give the residual along a line through the matrix; the full step has norm 0 and the half step more; C79 for elasticity |
| C81 | the residual and Newton models on any problem over the reals; thermal model of C72 | Gaussian elimination (LinAlg.v) on the affine residual gives existence and uniqueness from a trivial kernel; tangent form of C73 as energy; gradient of a first-order element vanishes on a grid rule only for constants; induction over chains of cells |
| C82 | two-variable universal kernel; loop over cells and nodes of the contour | generic layer for two variables with flux and source (CoupledFacts.v, CoupledLinear.v); tests with the change itself give no gradient of the velocity, quadratic shape functions are unisolvent for a degree-two rule; test with a vector along an edge at its midpoint compares the pressures at its ends |
| C83 | two-variable universal kernel with the old state as internal variables; the time loop with any solver | generic two-variable layer; tests with the change in displacement and T/T0 times the change in temperature cancel the coupling; the same tests with u - u_old and T - theta give the energy identity, a constant test the heat balance; induction over the loop; rigid motions of triangles that share an edge agree |
| C84 | the value and the rule written with sums over indices, any eigh | the rule equals the sum over pairs of divided differences; for polynomials that is the derivative (induction on coefficients); Hermite interpolation at the eigenvalues reduces to a function with zero value and slope there; eigenvalues move at most as fast as the matrix, so that part is o(t) |
| C85 | the residual of Problem.v with any maps | Riesz representation by elimination (LinAlg.v), contraction in the energy inner product, limits entry by entry (MonoFacts.v); Cauchy-Schwarz over quadrature points; mean value theorem along the segment for the minimum |
| C86 | split energies, both stress options and the noise, any eigh | functions of a symmetric matrix (C84 machinery): the sum of positive parts of eigenvalues is convex with gradient the spectral projection; monotonicity and Lipschitz bound of the projection pair by pair of eigenvectors |
| C87 | the two problems of the example, compute_traction | C85 for the displacement with the growth bound of C86; posed linear problem (C80 machinery) for the phase field; test with constants for the balance |
| C88 | set_params, compute_history, one pass, the while loop with fuel, the loop over loads | invariants of the pass by induction over passes and loads; case analysis of NaN/infinity in the test; minimality of C87 for the descent |
| C89 | the two helpers and the product with the solution | the same element with the element's points as quadrature points (C05); chain rule at the node with the polynomial derivatives of C04; a square for the refutation |
| C90 | the return map and the maps built on it, the update of the internal variables, the load loop with any solver | the correction as a function of the trial strain; 3x3 matrix algebra; equivariance under rotations; derivative of the energy along a line; Cauchy-Schwarz for the determinant; induction over load steps |
| C91 | rotate_tensor_rank_2/4, get_rot_mat, the stiffness | polynomial identities entry by entry; adjointness of the turning; sum of squares for the energy |
| C92 | helper, implicit_residual, newton_solver with fuel, f_jvp | the residual equals the law of the separate specification; induction over passes; derivative of the residual at zero stress is the identity; chain rule along curves and regularity of the matrix of slopes |
| C93 | tensor map, update_int_vars_gp, compute_avg_stress, cp_init, the load loop with any solver | 3x3 matrix algebra and equivariance under rotations; a uniaxial stress that meets the law exactly for the refutations; induction over load steps |
| C94 | the nine element tables, shape functions | computed: each function along each edge as a list of coefficients, integrated exactly; linearity of the integral; sums over the nodes by ring for each product of coordinates |
| C95 | choice of rule and order, the element tables, the cell matrices of fe.py | integrals of monomials over the reference cells by derivatives (beta integrals by induction); shape functions and their gradients lie in the span of covered monomials (computed per element); linearity; an explicit displacement for the refutation |
| C96 | universal kernels of the example | entry by entry equality with the kernels the maps give, then C51 |
| C97 | grid loops, element stiffness and load, setValues, zeroRows, owned values | cell by cell: the local form is the energy of the linear interpolant, independent of the order of vertices; totals over permuted cells; injectivity by zero energy and spreading from the boundary; LinAlg.solvable |
| C98 | kernel, set_params, time loop of the implicit solidification example | equality with a point-wise coupled kernel, then the weak form of coupled problems; uniqueness by testing with the phase field (the anti-symmetric part drops) and then the temperature; heat balance with the constant test field; a continuous branch of the angle for the flux |
| C99 | kernels of masses and forces, get_mass, explicit_euler, time loop | both kernels are point-wise coupled kernels; row sums of the Jacobian by differentiating the residual along constants; step equations node by node with the hat fields; heat drift by the constant test field, induction on the steps; positive shape values on rectangles |
| C100 | difference operators, edges, both updates, the time loop with the captured arrays, the seed | index arithmetic of the shifted arrays, telescoping sums, induction over the passes with the captured field fixed; a half-solid field with three noise spots for the refutation, done for all grids from 7 x 7 |
| C101 | maps, parameters, start values, updates and time loop of the two problems; the selecting functions | return map by the shear part and its scaling; induction over the passes with an invariant on the stored arrays; phases as a fold over the sampled temperatures; the residual as a weak form, tested with one for the balance; index arithmetic of the grid for the selected faces, affine columns for the doubled beam |
| C102 | energies, stress by differentiation, traction | derivative of determinant by cofactors; rotations by the algebra of products; energy by Hadamard and the mean inequality; residual by virtual work as in C47; affine fields on elements; a turned box as witness |
| C103 | rotation, energy, stress, mean rotations, parameters, passes, marking of the cells | uniqueness of the positive root of a symmetric matrix from its spectral form; the plane rotation in closed form; gradients by the chain rule; induction over the passes; centroids on the grid; the spectral theorem in three dimensions (Spectral3.v) as witness for eigh |
| C104 | location and value functions, source, flux, chosen node, new problems on moved points, check, finite difference | rebuilding is a congruence of the construction of the problem; uniqueness from the monotone flux; determinant of the moved cells; selection of nodes and faces on the grid; derivatives of the exact solution; the application with one column of cells as witness |
| C105 | norms of the error, known solution, source, boundary conditions, run | sums of squares with positive weights; Minkowski by induction; completeness of the quadratic bases by computation over a ring, carried to affine cells with the inverse Jacobian; uniqueness of derivatives; the reference tetrahedron as witness |
| C106 | target value, set_params, location functions, surface area | Jacobian of the displaced mesh is (I + grad u) times the Jacobian; product rule of determinants; derivative of the determinant by cofactors; selection of nodes and faces; turning as an affine map of the displaced points; the reference tetrahedron as witness |
| C107 | internal force, slope, one pass, the loop, the steps | the quadratic equation of the load increment is the circle on the tangent; greatest root; induction over passes and steps; contraction of the residual by explicit bounds for the first step |
| C108 | both universal kernels, both boundary conditions, both problems | unravelling of one and of two variables; residual entries of both as the same cell sums; prescribed values node by node; existence and uniqueness on boxes by the clamped elasticity theorem |
| C109 | dense layers, activation, network, reverse mode gradient, loss, samples, strain and stress, boundary values | chain rule layer by layer with transposed sums, derivative of the activation at zero by the limit; strain invariance under orthogonal matrices; power by the product rule; refutation by weights with energy exp(E11+E12-1), mean value theorem and uniqueness of the derivative; induction over chunks |
| C110 | scales, boundary conditions of both examples, set_params, the sequence of updated variables | induction over the scales with the updated value list; prescribed values by the selection theorem; the profile by cases of the nearest wall; rigid motions from the conditions at four nodes and orthonormal columns |
| C111 | program, start, loop and recorded stress of stress_sensitivity.py on the crystal material of C93 | loop specification by induction over the steps; the gradient of the turned body is the turned gradient, so law, state and stress zz are the same and the residual turns with the body; two runs in lockstep by induction; bodies at rest for the examples |
| C112 | mesh, location functions, conditions, loads, the three problems, load vector and balance of the arc length beams | the residual is affine in the surface loads, so the mapped load vector rescales the end load; zero on held values; test field one for the totals; faces and lengths on the 50 x 2 mesh by computation and Nanson on affine cells |
| C113 | mesh, location functions of one and two arguments, conditions and problem of boundary_index | the loops over groups and faces are congruences in the accepted nodes; node numbers of the grid by division with remainder; the sets by bounding the mesh by its last node and cases |
| C114 | shift, location functions, conditions, variable and stress of the serendipity example | minimum and maximum of a column by induction; a translation cancels against its minimum; cases on the last group of conditions holding a dof |
| C115 | the two problems of the dynamic relaxation beam | the residual is affine in the surface load; totals by the test field one; on the example mesh the loaded nodes are free, so a common solution makes the loaded length vanish |

## Assumptions of each theorem

What `Print Assumptions` lists (run again on every build, under each theorem). All are axioms of Coq's standard library:

* D = `ClassicalDedekindReals.sig_forall_dec`
* N = `ClassicalDedekindReals.sig_not_dec`
* F = `FunctionalExtensionality.functional_extensionality_dep`
* C = `Classical_Prop.classic`
* E = `ClassicalEpsilon.constructive_indefinite_description` (only to exhibit an exact linear solver in an example)

**closed under the global context**: C01_face_cell, C01_meshio_cell, C01_meshio_injective, C01_names, C01_re_order_permutation, C02_face_nodes, C02_reorder_inds, C03_kronecker, C03_node_positions, C04_facet_points, C04_gradients_sum_to_zero, C04_linear_completeness, C04_linear_gradients, C04_partition_of_unity, C05_affine_gradient_exact, C05_face_gradient_exact, C06_affine_field_at_quad_points, C06_constants, C06_linear, C07_affine_cell, C07_linear_map, C07_quad4, C07_simplex, C07_translation, C09_dirichlet_selection, C09_dirichlet_update, C09_prescribed_value, C10_count_selected_faces, C10_face_selection, C11_dof_numbering_bijection, C11_element_indices, C11_flatten_position, C12_flatten_unflatten, C12_unflatten_flatten, C13_batching_invisible, C13_no_cells_raises, C14_residual_assembly, C14_standard_kernels, C15_matrix_assembly, C16_affine_exact, C17_newton_update_agrees, C18_internal_forces_balance, C18_total_load, C19_mismatch_raises, C19_second_list_unchecked, C19_surface_count, C20_apply_bc_vec, C20_constrained_prescribed, C21_assign_bc, C21_assign_bc_idempotent, C21_assign_ones_bc, C21_assign_zeros_bc, C21_copy_bc, C22_tangent_rows, C23_initial_guess, C23_newton_step_enforces_bc, C24_cache_fresh, C24_moved_lists_refuted, C25_flat, C25_method, C25_two_methods, C36_matrix, C38_amgx_errors, C38_amgx_refuted, C38_amgx_released, C46_coordinates_kept, C46_dropped_point_refuted, C46_no_orphans, C47_arity, C47_jacobian, C47_orientation, C47_translation, C48_idempotent, C48_missing, C48_newlines, C48_only_header, C48_same_path_refuted, C49_bare_file_name, C49_rejected, C49_saved, C49_unknown_element, C50_handlers_kept, C50_levels, C50_one_handler, C51_weak_form, C52_virtual_work, C53_moment_balance, C54_rigid_translation, C55_construction, C70_accepts, C70_chains, C70_columns, C70_image, C70_matched, C70_repeated_refuted, C71_external, C71_fewer_raises, C71_held, C71_markers, C71_shrinking_refuted, C73_virtual_work, C78_run, C82_weak_form, C89_affine, C95_choice, C95_orders, C95_rejects, C100_edges, C109_epoch, C113_same_faces, C113_same_nodes

**C, D, E, F, N**: C80_nonvacuous

**C, D, F, N**: C42_box, C43_weights, C62_symmetric, C63_few_cells, C65_completes, C66_history, C77_energy, C77_equivalent, C77_held, C77_nonvacuous, C77_passes, C77_rigid, C77_total_gradient, C80_elastic, C80_one_step, C80_solver, C81_solver, C82_solver, C83_solver, C85_minimum, C87_balance, C87_displacement, C87_phase, C88_descent, C90_determinant, C90_history, C90_history_nonvacuous, C90_isochoric_refuted, C90_no_shear, C90_objective, C90_return, C90_stress, C90_yields, C94_dual, C94_meaning, C94_serendipity, C94_serendipity_nonvacuous, C95_default_rules, C95_mass_refuted, C95_nonvacuous, C98_angle, C98_example, C98_flux, C98_heat_balance, C98_one_solution, C98_rectangle, C98_regular, C98_runs, C98_solver, C98_solves, C98_steady, C98_weak_form, C99_conserved, C99_conserved_refuted, C99_example, C99_latent_heat, C99_mass, C99_rectangle, C99_runs, C99_steady, C99_step, C100_angle, C100_example, C100_first_pass, C100_grid, C100_heat_balance, C100_later_passes_refuted, C100_maximum, C100_run, C100_steady, C100_whole_grid_refuted, C102_beam_refuted, C102_density, C102_energy, C102_linear, C102_objective, C102_potential, C102_rigid, C102_stress, C102_torque, C102_traction, C103_energy, C103_first_met, C103_grad_met, C103_moment, C103_never_relaxed, C103_objective, C103_posed, C103_potential, C103_stress, C109_stored_energy_refuted, C112_balance, C112_displaced, C112_displaced_met, C112_ends, C112_met, C112_problems, C112_stress, C112_support, C112_total, C115_different, C115_load, C115_met, C115_start

**D**: C68_platform_refuted, C68_timeit, C68_walltime_file, C68_walltime_log_only, C68_walltime_raises

**D, F**: C04_gradient_is_derivative, C16_matrix_is_derivative, C22_tangent_is_derivative, C36_derivative, C37_adjoint, C40_convex, C43_constant, C43_range, C44_area, C44_conforming, C44_layout, C44_tiling, C45_conforming, C45_layout, C45_tiling, C45_volume, C64_adjoint, C67_box, C67_rectangle, C69_box, C69_box_solved, C69_nonvacuous, C69_rectangle, C69_rectangle_solved, C73_elastic_energy, C73_elastic_expansion, C73_elastic_minimum, C73_energy_gradient, C74_bilinear_form, C74_elastic, C74_nonnegative, C74_symmetric, C75_box_mass, C75_energy, C75_mass, C75_momentum, C75_motion, C75_nonvacuous, C75_reversal, C75_runs, C75_spin, C75_stability, C77_tags, C78_energy, C78_nonvacuous, C78_one_solution, C78_orientation, C78_run_exists, C79_clamped_box, C79_clamped_rectangle, C79_minimum, C79_nonvacuous, C79_one_solution, C79_regular, C82_contour, C82_contour_problem, C82_contour_raises, C82_symmetric, C83_material, C83_triangles, C83_weak_form, C84_algebra, C84_derivative, C84_growth, C84_isotropic, C84_lipschitz, C84_polynomial, C84_potential, C84_tangent, C84_value, C86_any_eigh, C86_isotropic, C86_one_sided, C86_split, C86_stress_gradient, C86_undamaged, C87_traction, C89_gradient_at_node, C89_nonvacuous, C89_row_order_refuted, C89_simplex, C91_quaternion, C91_stiffness, C91_turning, C94_affine, C94_lagrange, C94_midpoint, C94_midpoint_nonvacuous, C94_nodal_values_refuted, C94_sampling_refuted, C95_full_integration, C95_gradients, C95_load, C95_mass, C95_stiffness, C100_exact, C100_operators, C103_bc, C103_noise, C103_shape, C104_node, C104_node_refuted, C106_affine, C106_area, C106_deformed, C106_params, C106_rate, C106_simplex, C106_target, C110_cell, C110_cell_scales, C110_edge, C110_edge_refuted, C110_half_turn, C110_plate, C110_plate_scales, C110_profile, C110_rigid, C110_small, C110_stretch, C111_program, C111_start, C112_clamped, C112_compressed, C112_edges, C113_met, C113_sets, C113_sides, C113_sides_select, C114_origin, C114_stress

**D, F, N**: C08_face_measure, C08_nanson, C25_flat_is_nested, C25_unrecognised, C26_default_sticks, C26_dict_after, C26_selection, C26_sharing, C27_jax, C27_petsc, C28_bad_start, C28_converged_start, C28_nan_raises, C28_newton_contract, C29_bc_to_tolerance, C30_line_search, C30_nan_refuted, C31_disp_iterate, C31_disp_linearised, C31_disp_step, C31_force_iterate, C31_force_linearised, C31_force_step, C31_residual, C31_update_raises, C32_disp_choice, C32_force_choice, C33_control_required, C33_displacement, C33_force, C33_load_required, C33_polished, C34_guess, C34_iterates, C34_no_guess, C34_result, C35_damping, C35_multiplier, C35_velocity, C36_dynamic_relax_refuted, C36_equal_rows, C36_same_evaluation, C36_solution, C39_asymptotes, C39_bounds, C40_constraint_gradient, C40_constraint_value, C40_objective_gradient, C40_positive, C41_subsolv, C41_visited, C56_no_iteration_limit, C57_disp_last_update, C57_disp_prescribed, C57_force_last_update, C57_returned_point_in_equilibrium_refuted, C58_one_variable, C58_rows, C59_no_pair, C59_pair, C59_shapes, C60_newton, C61_descent, C61_ends, C61_quality, C66_moves, C67_nonvacuous, C70_solution, C72_chain, C72_equilibrium, C72_heat_balance, C72_no_birth, C72_quiet_nodes, C72_runs, C72_weak_form, C75_small_steps, C76_average, C76_flow, C76_history, C76_monotone, C76_nonvacuous, C76_return, C76_unique_stress, C76_work, C80_backends, C80_elastic_affine, C81_alternative, C81_box, C81_connected, C81_definite, C81_diffusion, C81_held_needed, C81_nonvacuous, C81_rectangle, C81_regular, C81_thermal, C82_contour_nonvacuous, C82_nonvacuous, C82_regular, C82_solves, C82_taylor_hood, C83_balance, C83_bounded, C83_energy, C83_nonvacuous, C83_one_solution, C83_regular, C83_runs, C83_solves, C85_flux, C85_nonvacuous, C85_one_solution, C85_residual_bound, C85_stress, C86_grows, C86_noise, C86_nonvacuous, C88_fixed_point, C88_history, C88_nonvacuous, C88_steps, C88_test, C91_nonvacuous, C92_search, C92_slips, C92_solved, C92_tangent, C92_tangent_nonvacuous, C92_unloaded, C92_volume_change, C93_body_turned, C93_flow, C93_hardening, C93_history, C93_history_nonvacuous, C93_objective, C93_saturation_refuted, C93_stress, C93_volume_refuted, C95_default_rules_nonvacuous, C95_full_integration_refuted, C96_example, C98_anisotropy, C100_anisotropy, C101_clamped, C101_heat, C101_mechanics, C101_phases, C101_remelting_refuted, C101_run, C101_stress, C101_thermoelastic, C101_top_refuted, C103_eigh_met, C103_mean, C103_passes, C103_rotation, C104_check, C104_finite_difference, C104_finite_difference_met, C104_limit, C104_manufactured, C104_rebuilt, C104_rebuilt_met, C104_rebuilt_refuted, C104_unique, C105_affine, C105_h1, C105_l2, C105_quadratic, C105_quadratic_met, C105_quadratic_refuted, C105_run, C105_run_met, C105_source, C105_triangle, C106_area_true, C106_met, C106_spin, C106_spin_met, C107_demo, C107_exit, C107_first, C107_forward_refuted, C107_fuel, C107_nan, C107_pass, C107_steps, C108_bc, C108_box, C108_built, C108_elastic, C108_residual, C108_solves, C109_batch, C109_boundary, C109_chain, C109_fitted, C109_gradient, C109_loss, C109_moment, C109_objective, C109_power, C109_rest, C111_history, C111_solutions, C111_solutions_met, C111_turned, C111_turned_met, C112_mesh, C113_printed, C114_ends, C114_held, C114_met, C114_moved

**F**: C78_weak_form, C96_same_newton, C96_same_residual, C96_weak_form
