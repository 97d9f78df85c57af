{"id": "C01", "title": "Grid construction enforces upper - lower = step * shape", "statement": "Every Grid the constructor returns keeps the requested shape and satisfies domain[i][1] - domain[i][0] = step[i] * shape[i] on every axis, whichever way it was requested (no step or domain, scalar or per-axis step, scalar or per-axis domain); a requested step is the step obtained, a requested domain is the domain obtained; giving both step and domain, or sequences whose length differs from the number of axes, raises and never yields a Grid.", "quantifier": "every number of axes, every positive shape, every step and domain argument form", "why_tests_cant": "tests construct a handful of 1-3d grids; the identity must hold for every dimension, shape and argument form", "anchors": ["jax_cfd/base/grids.py: Grid.__init__"]}
{"id": "C02", "title": "Mesh points are where the offset says", "statement": "Grid.axes(offset)/Grid.mesh(offset) places point (i_0,...,i_{d-1}) at coordinate lower_a + (i_a + offset_a) * step_a on every axis a, arrays have the shape of the grid, an offset of the wrong length raises, and eval_on_mesh(fn, offset) holds fn of those coordinates at that offset and grid. Offsets in [0,1] put every point inside the closed domain.", "quantifier": "every grid, offset, function and index", "why_tests_cant": "quantifies over all grids, offsets, user functions and indices", "anchors": ["jax_cfd/base/grids.py: Grid.axes, Grid.mesh, Grid.eval_on_mesh, Grid.cell_center"]}
{"id": "C03", "title": "GridArray arithmetic never mixes offsets or grids", "statement": "An arithmetic operation (ufunc or grids.applied function) on GridArrays returns a result exactly when the operands have one common offset and one common grid; the result then carries that offset and grid and the pointwise data; otherwise it raises InconsistentOffsetError / InconsistentGridError. grids.applied raises on any GridVariable argument.", "quantifier": "every list of operands (arrays, scalars, GridArrays, GridVariables) in any order", "why_tests_cant": "the set-based uniqueness test must be right for every number and order of operands, not for a tested pair", "anchors": ["jax_cfd/base/grids.py: GridArray.__array_ufunc__, applied, consistent_offset, consistent_grid"]}
{"id": "C04", "title": "Control volume and face offsets", "statement": "control_volume_offsets(c)[j] equals c.offset with 1/2 added on axis j only; Grid.cell_faces[j] is the cell centre with 1/2 added on axis j only, so the faces of the control volume of a cell-centred variable are the grid's cell faces; averaged_offset of arrays with equal offsets is that offset.", "quantifier": "every dimension and offset", "why_tests_cant": "must hold for every dimension and offset", "anchors": ["jax_cfd/base/grids.py: control_volume_offsets, Grid.cell_faces, averaged_offset"]}
{"id": "C05", "title": "Periodic shift is a cyclic index shift", "statement": "For a variable with periodic boundary conditions along an axis, shift(k, axis) returns, for any integer k (negative, zero, larger than the axis), an array of the same shape on the same grid with offset increased by k on that axis only, whose entry at index i is the entry of the original at (i + k) mod n along that axis; it never raises.", "quantifier": "every dimension, shape, axis, integer shift, data, offset and padding mode", "why_tests_cant": "shift amounts are unbounded and interact with offsets, wrap-around and the trimming logic; tests sample a few shifts of small arrays", "anchors": ["jax_cfd/base/grids.py: GridVariable.shift", "jax_cfd/base/boundaries.py: ConstantBoundaryConditions.shift, _pad, _trim, _trim_padding"]}
{"id": "C06", "title": "Periodic shifts compose and invert", "statement": "shift(a) followed by shift(b) along one axis equals shift(a+b); shift(k) then shift(-k) returns the original data and offset; shifts along different axes commute.", "quantifier": "every pair of integer shifts, every axis, every array", "why_tests_cant": "group law over all integers, arrays and offsets produced by earlier shifts (histories)", "anchors": ["jax_cfd/base/boundaries.py: ConstantBoundaryConditions.shift, _pad, _trim_padding"]}
{"id": "C07", "title": "Periodic padding is the periodic extension, also of already padded arrays", "statement": "pad((lo, hi), axis) of a periodic variable appends exactly lo and hi cells that continue the data periodically and lowers the offset by lo; padding an array that already carries padding again yields the periodic extension of the original data (any sequence of pads).", "quantifier": "every array, axis, nonnegative widths, and every history of earlier pads", "why_tests_cant": "histories of pads of arbitrary widths cannot be enumerated", "anchors": ["jax_cfd/base/boundaries.py: ConstantBoundaryConditions.pad, _pad, _trim_padding"]}
{"id": "C08", "title": "Dirichlet ghost cells make the wall interpolant equal the boundary value", "statement": "For cell-centred data with Dirichlet value b on a side, the ghost cell produced by padding/shifting by one satisfies (ghost + adjacent interior)/2 = b, on either side, and interior values are unchanged; with MIRROR padding of any width every ghost and its mirror image average to b; with EXTEND all ghosts equal the first. For edge-aligned data padded across a wall, the data are unchanged, the entry on the wall is its value, and the ghosts beyond it repeat the wall value with EXTEND; with MIRROR they are the wall value minus the mirror image, so they average with it to half the wall value.", "quantifier": "every dimension, shape, axis, boundary value, data, width", "why_tests_cant": "must hold for all data and boundary values and both sides", "anchors": ["jax_cfd/base/boundaries.py: ConstantBoundaryConditions._pad"]}
{"id": "C09", "title": "impose_bc sets exactly the dependent boundary entries", "statement": "For edge-aligned data with Dirichlet values (b_lo, b_hi), impose_bc returns a variable of the grid's shape whose last entry (offset 1) or first entry (offset 0) along the axis equals b_hi or b_lo, all other entries are unchanged, and applying it again changes nothing; for periodic or cell-centred data it changes nothing at all.", "quantifier": "every dimension, shape, data, boundary value, per-axis mix of boundary types", "why_tests_cant": "idempotence and frame conditions over all shapes/data and all mixes of boundary types", "anchors": ["jax_cfd/base/boundaries.py: ConstantBoundaryConditions.impose_bc, trim_boundary, pad_and_impose_bc"]}
{"id": "C10", "title": "Neumann ghost cells reproduce the prescribed wall derivative", "statement": "For cell-centred data with Neumann value g on a side, the ghost cell produced by padding/shifting by one makes the one-sided difference across that wall equal g, on either side; interior values are unchanged; edge-aligned Neumann data raises. MIRROR padding of any width gives each ghost its mirror image plus (above) or minus (below) the derivative times one cell width.", "quantifier": "every dimension, shape, axis, data, derivative value, grid step", "why_tests_cant": "sign conventions on the two sides must be right for every datum and step", "anchors": ["jax_cfd/base/boundaries.py: ConstantBoundaryConditions._pad"]}
{"id": "C11", "title": "Trimming removes exactly the padding", "statement": "trim_boundary applied to a padded array returns the same interior as trim_boundary of the array before padding, for any padding widths and for periodic, Dirichlet and Neumann sides.", "quantifier": "every array, width, boundary type", "why_tests_cant": "all widths and data", "anchors": ["jax_cfd/base/boundaries.py: ConstantBoundaryConditions.trim_boundary, _trim_padding, pad"]}
{"id": "C12", "title": "Boundary conditions inferred for pressure", "statement": "Pressure boundary conditions derived from a velocity are periodic exactly on the axes where all velocity components are periodic, homogeneous Neumann on the axes where none is, and mixed axes raise.", "quantifier": "every number of components and axes, every combination of boundary types", "why_tests_cant": "exponentially many combinations", "anchors": ["jax_cfd/base/boundaries.py: get_pressure_bc_from_velocity, consistent_boundary_conditions, is_periodic_boundary_conditions"]}
{"id": "C13", "title": "Boundary conditions inferred for advective flux", "statement": "The flux boundary condition is periodic where the velocity is periodic, homogeneous Dirichlet on axes parallel to the wall, homogeneous Dirichlet at a no-penetration wall, homogeneous Neumann when both velocity and scalar are (homogeneous) Neumann, and any other combination raises instead of returning a wrong condition.", "quantifier": "every combination of boundary types/values, axis and direction", "why_tests_cant": "combinatorial", "anchors": ["jax_cfd/base/boundaries.py: get_advection_flux_bc_from_velocity_and_scalar"]}
{"id": "C14", "title": "Difference quotients: value, location and exactness on affine data", "statement": "forward/backward/central_difference return (u[i+1]-u[i])/h, (u[i]-u[i-1])/h, (u[i+1]-u[i-1])/(2h) located at offset +1/2, -1/2, +0; on data sampled from an affine function of position they return its exact slope away from the wrap-around; they are linear and annihilate constants.", "quantifier": "every dimension, shape, step, axis, data", "why_tests_cant": "all data/steps/dimensions", "anchors": ["jax_cfd/base/finite_differences.py: forward_difference, backward_difference, central_difference, stencil_sum"]}
{"id": "C15", "title": "Laplacian equals divergence of gradient", "statement": "For a periodic variable, laplacian(u) equals the divergence (backward differences) of the forward-difference gradient of u at every point, sits at the offset of u, vanishes on constants and is linear.", "quantifier": "every dimension, shape, step, data", "why_tests_cant": "all dimensions and data; tests compare to tolerance on samples", "anchors": ["jax_cfd/base/finite_differences.py: laplacian, divergence, forward_difference"]}
{"id": "C16", "title": "Discrete conservation and summation by parts", "statement": "For periodic variables the sum over all cells of divergence(v), of centered_divergence(v), of laplacian(u) and of any difference quotient is exactly zero (exact arithmetic), and sum(u * div v) = - sum(grad u . v).", "quantifier": "every dimension, shape, data", "why_tests_cant": "telescoping over arbitrary shapes and dimensions", "anchors": ["jax_cfd/base/finite_differences.py: divergence, centered_divergence, laplacian, backward_difference"]}
{"id": "C17", "title": "Mimetic identities of curl", "statement": "curl_2d of a discrete gradient is zero everywhere; the divergence (of matching differences) of curl_3d is zero everywhere, and curl_3d of a discrete gradient is zero, on periodic grids.", "quantifier": "every shape, step, data", "why_tests_cant": "all data", "anchors": ["jax_cfd/base/finite_differences.py: curl_2d, curl_3d, forward_difference"]}
{"id": "C18", "title": "Laplacian is symmetric and negative semidefinite", "statement": "On periodic grids sum(u * laplacian(w)) = sum(laplacian(u) * w) and sum(u * laplacian(u)) = - sum over axes of sum((forward difference)^2) <= 0, so diffusion never increases the sum of squares rate.", "quantifier": "every dimension, shape, data", "why_tests_cant": "all data", "anchors": ["jax_cfd/base/finite_differences.py: laplacian", "jax_cfd/base/diffusion.py: diffuse"]}
{"id": "C19", "title": "Pressure projection yields a divergence-free velocity", "statement": "If the pressure solver returns q whose (periodic) laplacian equals the divergence of v, then projection(v) returns a velocity, with the same boundary conditions, offsets and grid, whose divergence is zero at every cell; and a divergence-free velocity is returned unchanged when the solver returns a constant.", "quantifier": "every dimension, shape, velocity and every solver meeting the equation", "why_tests_cant": "for all velocity fields and any solver; tests check norms of samples to tolerance", "anchors": ["jax_cfd/base/pressure.py: projection", "jax_cfd/base/finite_differences.py: divergence, forward_difference, laplacian"]}
{"id": "C20", "title": "Laplacian matrices act like the finite-difference Laplacian", "statement": "The 1-d matrices built for a grid act on data exactly like the finite-difference laplacian with the corresponding homogeneous boundary conditions (periodic, Neumann, Dirichlet; cell-centred or edge-aligned), for every axis length of at least 3, and are symmetric.", "quantifier": "every size >= 3, step, boundary type on each side, vector", "why_tests_cant": "all sizes and vectors", "anchors": ["jax_cfd/base/array_utils.py: laplacian_matrix, laplacian_matrix_w_boundaries, _laplacian_boundary_dirichlet_cell_centered, _laplacian_boundary_neumann_cell_centered"]}
{"id": "C21", "title": "Fast diagonalisation applies the requested function of the summed operator", "statement": "With orthonormal eigen-decompositions of the per-axis operators, transform(func, operators) scales every joint eigenvector by func(sum of eigenvalues); pseudoinverse gives x with A x = b whenever b is orthogonal to the kernel up to the cutoff, and A+ A A+ = A+.", "quantifier": "every number of axes, sizes, operators, func", "why_tests_cant": "all sizes/operators", "anchors": ["jax_cfd/base/fast_diagonalization.py: transform, pseudoinverse, _hermitian_matmul_transform"]}
{"id": "C22", "title": "Implicit diffusion solve inverts 1 - nu dt Laplacian", "statement": "The fast-diagonalisation diffusion solve returns u_new with (1 - nu*dt*Laplacian) u_new = u for nu*dt >= 0, for every periodic velocity component.", "quantifier": "every size, nu, dt >= 0, data", "why_tests_cant": "all data and coefficients", "anchors": ["jax_cfd/base/diffusion.py: solve_fast_diag", "jax_cfd/base/fast_diagonalization.py: transform"]}
{"id": "C23", "title": "Explicit diffusion at the stable time step obeys a maximum principle", "statement": "For 0 <= dt <= stable_time_step(nu, grid), u + dt * diffuse(u, nu) stays between the minimum and maximum of u at every cell and keeps the total sum; stable_time_step is infinite exactly when nu is zero.", "quantifier": "every dimension (also d > 2), shape, step, nu > 0, data", "why_tests_cant": "the bound must hold in every dimension and for all data", "anchors": ["jax_cfd/base/diffusion.py: diffuse, stable_time_step"]}
{"id": "C24", "title": "Linear interpolation", "statement": "interpolation.linear(c, offset) is the identity when the offset is c's, returns a variable at exactly the requested offset, is at each point a convex combination of entries of c (so stays within min/max of c and preserves constants), preserves the periodic sum, and reproduces affine data; a wrong offset length raises.", "quantifier": "every dimension, offset pair, data", "why_tests_cant": "all offsets (fractions, integers, negative), data", "anchors": ["jax_cfd/base/interpolation.py: linear, _linear_along_axis"]}
{"id": "C25", "title": "Upwind interpolation picks the upwind neighbour", "statement": "interpolation.upwind to a face returns the value behind the face when the velocity there is positive and the value ahead otherwise; identical offsets return c; offsets that differ on more than one axis raise.", "quantifier": "every dimension, axis, velocity, data", "why_tests_cant": "all sign patterns", "anchors": ["jax_cfd/base/interpolation.py: upwind"]}
{"id": "C26", "title": "Van Leer limiter and TVD interpolation stay within neighbours", "statement": "van_leer_limiter(r) is 0 for r <= 0, lies in [0,2) and within [0, 2r] for r>0, satisfies phi(r)/r = phi(1/r) and phi(1)=1; the limited Lax-Wendroff interpolant at a face lies between the two cell values adjacent to the face whenever the Courant number is at most 1 in magnitude.", "quantifier": "every real r; every data, velocity and dt with |courant|<=1", "why_tests_cant": "continuum of values", "anchors": ["jax_cfd/base/interpolation.py: van_leer_limiter, apply_tvd_limiter, lax_wendroff, safe_div"]}
{"id": "C27", "title": "Advection conserves the transported total", "statement": "On periodic grids the sum over all cells of advect_general(c, v, ...) (hence advect_linear, advect_upwind, advect_van_leer_using_limiters) and of each component of convect_linear(v) is exactly zero, whatever interpolation functions are used; a non-periodic scalar raises.", "quantifier": "every interpolation function, shape, dimension, data", "why_tests_cant": "all interpolation functions and data", "anchors": ["jax_cfd/base/advection.py: advect_general, _advect_aligned, convect_linear, advect_linear, advect_upwind, advect_van_leer_using_limiters"]}
{"id": "C28", "title": "Advection preserves constants in divergence-free flow", "statement": "If the face-aligned velocity is divergence free, advecting a constant scalar with an interpolation that preserves constants gives exactly zero tendency everywhere.", "quantifier": "every divergence-free velocity, dimension", "why_tests_cant": "all velocity fields", "anchors": ["jax_cfd/base/advection.py: advect_general, _advect_aligned"]}
{"id": "C29", "title": "convect_linear equals advecting each component", "statement": "For a staggered periodic velocity, convect_linear(v)[i] equals advect_linear(v[i], v) at every point.", "quantifier": "every dimension, shape, data", "why_tests_cant": "documented equivalence for all fields; the optimised code reuses fluxes", "anchors": ["jax_cfd/base/advection.py: convect_linear, _align_velocities, _velocities_to_flux, advect_linear"]}
{"id": "C30", "title": "Upwind and limited advection steps are monotone under the CFL limit", "statement": "One forward Euler step of 1-d periodic upwind advection (and of the Van Leer limited scheme) with constant velocity and Courant number at most 1 creates no new extrema and does not increase total variation; advection.stable_time_step(max_velocity, C, grid) gives max_velocity*dt <= C*step on every axis.", "quantifier": "every size, data, velocity, dt within the limit", "why_tests_cant": "all data and sizes", "anchors": ["jax_cfd/base/advection.py: advect_upwind, advect_van_leer_using_limiters, stable_time_step"]}
{"id": "C31", "title": "Semi-Lagrangian advection is bounded and exact for zero/whole-cell displacement", "statement": "advect_step_semilagrangian returns values between the minimum and maximum of c for any velocity and dt, returns c itself for zero velocity, and the cyclic shift of c for a uniform velocity displacing by whole cells; domains that do not start at zero or non-periodic scalars raise.", "quantifier": "every data, velocity, dt", "why_tests_cant": "all displacements", "anchors": ["jax_cfd/base/advection.py: advect_step_semilagrangian"]}
{"id": "C32", "title": "Downsampling staggered velocities commutes with divergence", "statement": "Every coarse value is the mean of the fine values on the coarse face; the coarse divergence of a downsampled staggered velocity is the block mean of the fine divergence, so divergence-free fields stay divergence free; downsampling by f1 and then f2 is downsampling by f1*f2; wrong grids, domains, non-integer ratios and sizes that are not multiples across the direction raise (along the direction itself the size is not checked: refuted).", "quantifier": "every factor, shape, dimension, data", "why_tests_cant": "all factors and shapes", "anchors": ["jax_cfd/base/resize.py: downsample_staggered_velocity_component, downsample_staggered_velocity", "jax_cfd/base/array_utils.py: block_reduce"]}
{"id": "C33", "title": "repeated and trajectory are exact iteration", "statement": "repeated(f, n)(x) is f applied n times and repeated(f, n+m) = repeated(f, n) after repeated(f, m); trajectory(f, n) returns the final state f^n(x) and frames whose i-th entry is post_process(f^{i+1}(x)) (or f^i(x) when started with the input), for every n including 0.", "quantifier": "every step function, state and step count", "why_tests_cant": "every history length and step function", "anchors": ["jax_cfd/base/funcutils.py: repeated, trajectory"]}
{"id": "C34", "title": "init_context runs the wrapped function once, and is always restored", "statement": "Inside init_context every repeated/scan evaluates its function exactly once; nested contexts are reference counted and the mode is restored when every context has been left, also when the body raises.", "quantifier": "every nesting and exception point", "why_tests_cant": "every nesting depth and crash point", "anchors": ["jax_cfd/base/funcutils.py: init_context, repeated, scan"]}
{"id": "C35", "title": "Explicit Runge-Kutta steps implement their tableau", "statement": "navier_stokes_rk computes exactly the projected Runge-Kutta recursion of its tableau even though it skips zero coefficients; the state returned is always in the image of the projection; forward_euler is P(u + dt*F(u)); tableaus of inconsistent length are rejected.", "quantifier": "every tableau, equation, projection and state", "why_tests_cant": "all tableaus and equations", "anchors": ["jax_cfd/base/time_stepping.py: navier_stokes_rk, forward_euler, midpoint_rk2, heun_rk2, classic_rk4, ButcherTableau"]}
{"id": "C36", "title": "Order of the explicit Runge-Kutta schemes", "statement": "On a linear equation u' = L u each scheme's step is the Taylor polynomial of exp(dt L) truncated at its order (1, 2, 2, 4) and n steps converge at that rate, and constants of motion (states with F=0 fixed by P) are preserved by every scheme.", "quantifier": "every linear operator, step size, state", "why_tests_cant": "all operators", "anchors": ["jax_cfd/base/time_stepping.py: forward_euler, midpoint_rk2, heun_rk2, classic_rk4"]}
{"id": "C37", "title": "Spectral IMEX steps solve their implicit equations", "statement": "With implicit_solve(y, h) returning x with x - h*G(x) = y, backward_forward_euler, crank_nicolson_rk2 and the low-storage RK-CN schemes return states satisfying their defining equations, and on linear problems (also with non-commuting explicit and implicit parts) match the exact exponential to the stated order; coefficient lists of mismatched lengths are rejected. Steady states of the equation (F + G = 0, with the implicit solve inverting I - hG) are kept by every number of steps of backward_forward_euler, crank_nicolson_rk2, crank_nicolson_rk3 and imex_rk_sil3.", "quantifier": "every equation (explicit terms, implicit terms, implicit solve), state, step size", "why_tests_cant": "all equations", "anchors": ["jax_cfd/spectral/time_stepping.py: backward_forward_euler, crank_nicolson_rk2, low_storage_runge_kutta_crank_nicolson, crank_nicolson_rk3, crank_nicolson_rk4"]}
{"id": "C38", "title": "imex_runge_kutta skips only unused stages", "statement": "imex_runge_kutta evaluates stage terms lazily but its result always equals the full double sum of the tableau; it never reads a stage it did not compute; malformed tableaus are rejected.", "quantifier": "every tableau, equation, state", "why_tests_cant": "all tableaus (zero patterns)", "anchors": ["jax_cfd/spectral/time_stepping.py: imex_runge_kutta, ImExButcherTableau, imex_rk_sil3"]}
{"id": "C39", "title": "Spectral implicit solves are exact and never singular", "statement": "For every wavenumber, implicit_solve(y, dt) of NavierStokes2D returns x with x - dt*implicit_terms(x) = y for viscosity, drag, dt >= 0, with a denominator >= 1 (no division by zero); same solvability for the Kuramoto-Sivashinsky, nonlinear Schroedinger equations where it holds.", "quantifier": "every wavenumber, viscosity, drag, dt", "why_tests_cant": "all parameters", "anchors": ["jax_cfd/spectral/equations.py: NavierStokes2D.implicit_terms, implicit_solve, KuramotoSivashinsky, NonlinearSchrodinger"]}
{"id": "C40", "title": "Vorticity-velocity inversion in Fourier space", "statement": "vorticity_to_velocity returns, for every vorticity spectrum, a velocity whose spectral divergence is zero at every wavenumber and whose spectral curl reproduces the vorticity at every nonzero wavenumber and zero at the mean mode, with no division by zero.", "quantifier": "every grid, spectrum, wavenumber", "why_tests_cant": "all spectra", "anchors": ["jax_cfd/spectral/utils.py: vorticity_to_velocity, spectral_curl_2d"]}
{"id": "C41", "title": "Dealiasing filters and spectral padding", "statement": "The 2/3 brick-wall filter is a 0/1 mask (idempotent); exponential filters lie in [0,1] with 1 at the mean mode, so that filtering a square field with an even number of points multiplies each wave by a factor in [0,1], keeps the mean and never increases the sum of squares (with an odd number of points it loses a column: refuted); truncating a padded spectrum returns the original spectrum.", "quantifier": "every grid size and spectrum", "why_tests_cant": "all sizes", "anchors": ["jax_cfd/spectral/utils.py: brick_wall_filter_2d, exponential_filter, truncated_rfft, padded_irfft", "jax_cfd/spectral/utils.py"]}
{"id": "C42", "title": "Array splitting and concatenation are inverse", "statement": "split_along_axis followed by concat_along_axis returns the inputs for every split index and axis (also negative); split_axis/unstack return the slices in order; axes outside [-ndim, ndim) raise.", "quantifier": "every array, axis, index", "why_tests_cant": "all axes/indices/shapes", "anchors": ["jax_cfd/base/array_utils.py: split_along_axis, concat_along_axis, split_axis, unstack, _normalize_axis, slice_along_axis"]}
{"id": "C43", "title": "Gram-Schmidt QR", "statement": "gram_schmidt_qr(A) returns Q with orthonormal columns and upper-triangular R with QR = A for every matrix with linearly independent columns.", "quantifier": "every size and full-rank matrix", "why_tests_cant": "all matrices", "anchors": ["jax_cfd/base/array_utils.py: gram_schmidt_qr"]}
{"id": "C44", "title": "interp1d interpolates", "statement": "interp1d(x, y)(xq) returns y_k at x_k, lies between neighbouring values within range, and outside the range follows the chosen fill rule.", "quantifier": "every increasing x, y, query", "why_tests_cant": "all node sets", "anchors": ["jax_cfd/base/array_utils.py: interp1d"]}
{"id": "C45", "title": "Tiling layers are inverse and tiled convolution equals the untiled one", "statement": "batch_to_space inverts space_to_batch for every dividing tile layout, halo exchange supplies exactly the periodic neighbours, and a tiled periodic convolution equals the untiled periodic convolution.", "quantifier": "every layout, shape, kernel, data", "why_tests_cant": "all layouts", "anchors": ["jax_cfd/ml/tiling.py: space_to_batch, batch_to_space, halo_exchange_pad, apply_convolution"]}
{"id": "C46", "title": "Learned stencils satisfy their polynomial accuracy constraints for all network outputs", "statement": "For every value of the network's free parameters, the interpolation/derivative coefficients produced satisfy the linear accuracy constraints exactly, so polynomials up to the accuracy order are reproduced.", "quantifier": "every network output, stencil, order", "why_tests_cant": "the network output is unconstrained", "anchors": ["jax_cfd/ml/layers_util.py: polynomial_accuracy_constraints, polynomial_accuracy_coefficients, PolynomialConstraint, _exponents_up_to_degree"]}
{"id": "C47", "title": "Forcings", "statement": "no_forcing adds zero, sum_forcings is the pointwise sum of its parts, linear/filtered forcings are as documented, and Kolmogorov and Taylor-Green forcings are discretely divergence free on periodic grids.", "quantifier": "every grid, forcing list, velocity", "why_tests_cant": "all grids and lists", "anchors": ["jax_cfd/base/forcings.py: no_forcing, sum_forcings, linear_forcing, kolmogorov_forcing, taylor_green_forcing, simple_turbulence_forcing"]}
{"id": "C48", "title": "Subgrid viscosity model conserves momentum and is nonnegative", "statement": "evm_model returns the divergence of 2*viscosity*strain rate; the Smagorinsky viscosity is nonnegative and symmetric; the eddy-viscosity acceleration sums to zero over a periodic domain for every viscosity function and never adds kinetic energy; the explicit Smagorinsky step conserves momentum and incompressibility, and an exact implicit solve conserves momentum without increasing the kinetic energy.", "quantifier": "every velocity field, viscosity function", "why_tests_cant": "all fields", "anchors": ["jax_cfd/base/subgrid_models.py: smagorinsky_viscosity, evm_model, implicit_evm_solve_with_diffusion, explicit_smagorinsky_navier_stokes"]}
{"id": "C49", "title": "Explicit Navier-Stokes equation is the documented combination", "statement": "The explicit terms are convection + diffusion(viscosity/density) + forcing/density for each component and one semi-implicit step composed with projection leaves the velocity divergence free and conserves total momentum when there is no forcing.", "quantifier": "every velocity, parameters", "why_tests_cant": "all fields and parameters", "anchors": ["jax_cfd/base/equations.py: navier_stokes_explicit_terms, semi_implicit_navier_stokes, sum_fields, stable_time_step"]}
{"id": "C50", "title": "Collocated operators", "statement": "The collocated advection/projection operators conserve totals on periodic grids and the projection yields zero centred divergence when the solver satisfies its equation.", "quantifier": "every field", "why_tests_cant": "all fields", "anchors": ["jax_cfd/collocated/advection.py", "jax_cfd/collocated/pressure.py: projection"]}
{"id": "C51", "title": "Finite differences at walls", "statement": "For every mix of periodic, cell-centred walled (Dirichlet/Neumann) and edge-aligned Dirichlet axes, forward, backward and central differences and laplacian return the difference quotients of neighbour values, where the value past a wall is the ghost value that meets the wall condition exactly.", "quantifier": "every grid, axis, data, boundary value and mix of boundary types", "why_tests_cant": "combinations of boundary types, offsets, axes and sizes are unbounded; tests use a handful", "anchors": ["jax_cfd/base/finite_differences.py: forward_difference, backward_difference, central_difference, laplacian", "jax_cfd/base/boundaries.py: ConstantBoundaryConditions.shift"]}
{"id": "C52", "title": "Pressure projection in a box with walls", "statement": "In a box whose axes are periodic or bounded by walls with edge-aligned normal velocity components, if the solver returns q whose laplacian under the inferred pressure boundary conditions equals the divergence of v, projection returns a velocity with the same grid, offsets and boundary conditions, still holding the wall values, with zero divergence in every cell.", "quantifier": "every box, velocity and wall values; every solver answer satisfying its equation", "why_tests_cant": "tests check a few sizes with a numerical tolerance", "anchors": ["jax_cfd/base/pressure.py: projection", "jax_cfd/base/boundaries.py: get_pressure_bc_from_velocity"]}
{"id": "C53", "title": "Box flux balance", "statement": "In such a box whose normal wall values agree on opposite walls (e.g. no penetration) the divergence of the velocity sums to zero over all cells, so the pressure equation is solvable.", "quantifier": "every box and staggered velocity", "why_tests_cant": "all fields", "anchors": ["jax_cfd/base/finite_differences.py: divergence"]}
{"id": "C54", "title": "The two implementations of van Leer advection agree", "statement": "For a periodic scalar, advect_van_leer (whatever its padding mode) returns the same grid, offset and numbers as advect_van_leer_using_limiters, namely minus the outflow of the upwind flux corrected by the van Leer limiter. It holds for offsets in [1/2, 1) on every axis and for one-dimensional grids at offset 0 or in [1/2, 1]; it fails for scalars on the faces of a staggered grid in two or more dimensions.", "quantifier": "every grid, periodic scalar, periodic velocities at any offsets, time step and padding mode", "why_tests_cant": "two different programs must agree on all fields, including ties and sign changes of the jumps and of the velocity", "anchors": ["jax_cfd/base/advection.py: advect_van_leer, advect_van_leer_using_limiters"]}
{"id": "C55", "title": "Kinetic energy and scalar variance are not created by centred transport", "statement": "With a discretely divergence-free face-aligned velocity on a periodic grid, linear advection of a cell-centred scalar is orthogonal to the scalar (the sum of c times its tendency is zero), and convection of the velocity by itself with linear interpolation is orthogonal to the velocity summed over components, so semi-discrete energy is conserved exactly.", "quantifier": "every periodic grid, scalar and divergence-free staggered velocity", "why_tests_cant": "an identity over all fields; tests sample a few with tolerances", "anchors": ["jax_cfd/base/advection.py: advect_linear, convect_linear", "jax_cfd/base/interpolation.py: linear"]}
{"id": "C56", "title": "The pressure solvers solve the pressure equation", "statement": "In a box with periodic axes or walls, solve_fast_diag (any usable implementation) returns a cell-centred field whose laplacian under the inferred pressure boundary conditions is the divergence of the velocity minus its mean, provided the eigenvalue cutoff times the square of each axis length is below 2; projection with it yields a velocity with the same boundary conditions and constant (zero, for balanced walls) divergence. solve_fast_diag_channel_flow is the matmul variant; solve_cg gives zero divergence whenever the iteration returns a solution of its system.", "quantifier": "every dimension, grid with at least 3 cells per axis, box velocity, implementation and cutoff below the bound", "why_tests_cant": "tests use a few random fields with tolerances; solvability needs the spectrum of the Laplacian for every grid", "anchors": ["jax_cfd/base/pressure.py: solve_fast_diag, solve_fast_diag_channel_flow, solve_cg, projection, _rhs_transform", "jax_cfd/base/fast_diagonalization.py: pseudoinverse"]}
{"id": "C57", "title": "Projection is an orthogonal projection", "statement": "Projection leaves divergence-free velocities unchanged, is idempotent, splits the velocity orthogonally when walls are impermeable (so it never increases kinetic energy), and the pressure correction it uses is determined up to a constant.", "quantifier": "every box with periodic axes or walls, every velocity and every solver answer satisfying the pressure equation", "why_tests_cant": "an identity over all fields, including the choice among all solutions of a singular system", "anchors": ["jax_cfd/base/pressure.py: projection, solve_fast_diag"]}
{"id": "C58", "title": "Dealiased spectral nonlinearities are exact and conservative", "statement": "On grids whose size is a multiple of four, the padded products used by the dealiased KuramotoSivashinsky and Burgers equations equal the exact convolution of the spectra at the represented wave numbers, u u_x equals (u^2/2)_x, and the nonlinear term neither changes the mean nor (without a Nyquist mode) the energy of the field.", "quantifier": "every such grid, every spectrum, every wave number", "why_tests_cant": "an exact algebraic identity over all spectra; aliasing errors appear only for particular combinations of modes", "anchors": ["jax_cfd/spectral/utils.py: truncated_rfft, padded_irfft", "jax_cfd/spectral/equations.py: KuramotoSivashinsky.explicit_terms, ForcedBurgersEquation.explicit_terms"]}
{"id": "C59", "title": "Initial velocity fields are what the documentation says", "statement": "initial_velocity_field samples each given function at the coordinates of the faces of its component and keeps the boundary conditions given (periodic by default); with projection iterations the result is divergence-free, the same for every number of iterations, with the momentum of the sampled field. filtered_velocity_field (staggered and collocated) filters the noise by a log-normal spectrum whose largest value is at the requested wave number, and after one or more iterations returns a periodic, divergence-free field without net momentum whose largest speed is exactly maximum_velocity, the same for every number of iterations; when the projection of the noise is zero (always so in one dimension) it divides zero by zero instead.", "quantifier": "all grids in any dimension, all noise arrays, all elementwise velocity functions, all positive maximum velocities and peak wave numbers, every number of iterations, every pressure solver that solves the Poisson equation", "why_tests_cant": "Tests sample a few seeds, sizes and one iteration count; the guarantee is for every noise array, grid and iteration count.", "anchors": ["jax_cfd/base/initial_conditions.py: wrap_variables, _log_normal_pdf, _max_speed, filtered_velocity_field, initial_velocity_field", "jax_cfd/collocated/initial_conditions.py: filtered_velocity_field", "jax_cfd/base/funcutils.py: repeated"]}
{"id": "C60", "title": "Post-processing diagnostics compute what they name", "statement": "velocity_trajectory_to_xarray stores the velocity components (and one preceding scalar) in order with cell-centre coordinates; two scalars raise IndexError, a missing component is silently filled. On such a dataset vorticity_2d equals curl_2d of the staggered velocity, enstrophy_2d is half its square, kinetic_energy half the squared speed. fourier_transform stores at each wave vector k exactly sum_x a(x) exp(-i k.(x-x0)), with ascending wave numbers; the total of energy_spectrum is N times the total kinetic energy. The binsum isotropic spectrum puts each mode into exactly the shell around its label and never holds more than the total energy; the number of shells is 2*floor((n-1)/4). spatial_autocorrelation is the mean of u_i u_{i+d}, maximal at displacement 0 (but its displacement labels are cell-centre coordinates, and the largest displacement is missing).", "quantifier": "all grids, all array values, any number of spatial dimensions (two for vorticity), all sizes of at least two points per axis", "why_tests_cant": "Tests compare a few fields to reference values; identity with the curl, Parseval and shell membership are claims about every field and size.", "anchors": ["jax_cfd/data/xarray_utils.py: velocity_trajectory_to_xarray, construct_coords, vorticity_2d, enstrophy_2d, magnitude, speed, kinetic_energy, fourier_transform, periodic_correlate, spatial_autocorrelation, groupby_bins_sum, _isotropize_binsum, energy_spectrum"]}
{"id": "C61", "title": "Skill metrics measure what they say", "statement": "l2_loss_single_step and l2_loss_cumulative are scale times the sum of squared differences over exactly the n-th, respectively the first n, time steps, are nonnegative and vanish only on agreement, and the cumulative loss is the sum of the single-step losses; the correlation metrics lie in [-1, 1] and are 1 for predictions proportional to the target; streaming_mean returns the average over all batches of every reported metric; temporal_autocorrelation returns the lagged products and is largest at lag 0. correlation_single_step does not correlate sample by sample (refuted: stacking shifts its axes).", "quantifier": "all trajectories, numbers of components, shapes, time axes, steps, scales, batches, keys, signals", "why_tests_cant": "Metrics are averages over arbitrary arrays; a test checks a few arrays, while a wrong axis or boundary shows only for some shapes.", "anchors": ["jax_cfd/ml/metrics.py: l2_loss_cumulative, l2_loss_single_step, correlation_single_step", "jax_cfd/data/evaluation.py: state_correlation, temporal_autocorrelation", "jax_cfd/ml/train_utils.py: streaming_mean"]}
{"id": "C62", "title": "What the solver around a neural network guarantees", "statement": "Whatever a network computes: stacking velocity components into channels and splitting them loses nothing; a flux corrector returns minus the divergence of its predicted fluxes, at the cell faces, with zero total in every component; learned advection creates no momentum; modular_navier_stokes_model with learned convection, forcing and acceleration modules returns a divergence-free velocity and conserves momentum when no module exerts a net force; learned_corrector (all three variants) with a flux corrector keeps the momentum of the base step, but a learned corrector does not keep the velocity divergence-free.", "quantifier": "every grid, dimension, network (any function with the right output shape), state, time step, viscosity, density, Runge-Kutta tableau and every exact pressure and diffusion solver", "why_tests_cant": "Tests can only try a few weights of a network, while the guarantees must hold for every function the network may come to represent during training.", "anchors": ["jax_cfd/ml/networks.py: stack_aligned_field, split_to_aligned_field, aligned_field_from_split_divergence, velocity_corrector_network, flux_corrector_network", "jax_cfd/ml/advections.py: self_advection, modular_advection", "jax_cfd/ml/equations.py: modular_navier_stokes_model, learned_corrector, learned_corrector_v2, learned_corrector_v3", "jax_cfd/ml/forcings.py: sum_forcings"]}
{"id": "C63", "title": "Rollouts, encoders and decoders, and training steps", "statement": "A model rollout saves exactly the states after the documented numbers of steps, can be checkpointed and resumed and subsampled without changing anything, and fails exactly when one of its steps fails; decoded_trajectory_with_inputs sees only the first num_init_frames frames and returns them followed by the decoded predictions; Euler integration of a learned derivative adds exactly dt times the derivative per step; the encoders pick the documented frames (slice_last_n and stack_last_n only when time is the first axis) and encoding followed by decoding returns the last frame (a (1,2,1)/4 smoothing for collocated data); input noise touches only the first frame and is bounded; training reports the loss at the parameters before each update, with the right step numbers, and can be resumed.", "quantifier": "every step, post-processing, derivative, network, loss, optimiser and sampler function (which may fail), every number of steps and batches, every grid, array shape and time axis", "why_tests_cant": "Unit tests run a few rollouts with one model; that frames, restarts and losses line up must hold for all numbers of steps and all functions, and that no later frame leaks into the prediction is a statement about all inputs.", "anchors": ["jax_cfd/ml/model_builder.py: repeated, trajectory_from_step, ModularStepModel", "jax_cfd/ml/model_utils.py: with_preprocessing, with_split_input, with_input_included, decoded_trajectory_with_inputs", "jax_cfd/ml/time_integrators.py: euler_integrator", "jax_cfd/ml/equations.py: time_derivative_network_model", "jax_cfd/ml/encoders.py: aligned_array_encoder, collocated_to_staggered_encoder, slice_last_state_encoder, slice_last_n_state_encoder, stack_last_n_state_encoder", "jax_cfd/ml/decoders.py: aligned_array_decoder, staggered_to_collocated_decoder", "jax_cfd/ml/train_utils.py: train_step, add_noise_to_input_frame, preprocess"]}
{"id": "C64", "title": "Symmetry, similarity and solver independence of the Navier-Stokes solvers", "statement": "Running semi_implicit_navier_stokes or implicit_diffusion_navier_stokes on a translated, axis-relabelled, rescaled copy of a periodic problem (same Reynolds and Courant numbers) gives the copied solution after every number of steps: no axis, origin or unit is preferred. Advection, convection and projection each commute with copying, and the velocity does not depend on which exact pressure (or diffusion) solver is used.", "quantifier": "every number of dimensions, grid shape, cell size, offset, velocity, scale, relabelling of axes, translation, flux limiter, Runge-Kutta tableau, number of steps, and every pair of exact pressure and diffusion solvers", "why_tests_cant": "Unit tests compare a few rotated or scaled runs to a tolerance; a swapped axis or a preferred direction in one of the dimension loops shows up only for the right shapes and data, and invariance is a claim about all pairs of problems.", "anchors": ["jax_cfd/base/equations.py: semi_implicit_navier_stokes, implicit_diffusion_navier_stokes", "jax_cfd/base/pressure.py: projection", "jax_cfd/base/advection.py: advect_linear, advect_upwind, advect_van_leer_using_limiters, convect_van_leer", "jax_cfd/base/diffusion.py: diffuse", "jax_cfd/base/time_stepping.py: navier_stokes_rk"]}
{"id": "C65", "title": "Pseudo-spectral Navier-Stokes: conservation, steady flows and time-discrete runs", "statement": "For the two-dimensional pseudo-spectral NavierStokes2D equation: explicit_terms of a state inside the 2/3 band stays inside the band and never creates mean vorticity (any forcing); the advection of a real band-limited vorticity changes neither enstrophy nor energy; flows with a single wave length are steady for the explicit terms. For every spectral time stepper, coefficients, time step and number of steps: linear relations between two equations are respected, linear problems are multiplied by powers of a scheme-specific amplification factor (at most one for damped modes, unconditionally), the mean vorticity of an unforced run obeys the scalar drag law (and is constant without drag), and single-wave-length flows decay mode by mode exactly as the linear problem. A forcing adds exactly the curl of its components to the explicit terms; ForcedNavierStokes2D (Kolmogorov forcing, drag 0.1) started from rest or from a multiple of cos(4y) follows the scalar relaxation problem of that amplitude for every scheme and number of steps, and keeps its laminar flow.", "quantifier": "every grid size, domain, state (band-limited / real / single wave length as stated), viscosity, drag, forcing function, scheme and coefficients, time step and number of steps", "why_tests_cant": "Tests check a few states and a few steps up to a tolerance; conservation and exact decay must hold for all states, schemes and run lengths.", "anchors": ["jax_cfd/spectral/equations.py:NavierStokes2D", "jax_cfd/spectral/time_stepping.py:imex_runge_kutta", "jax_cfd/spectral/time_stepping.py:low_storage_runge_kutta_crank_nicolson", "jax_cfd/spectral/utils.py:vorticity_to_velocity", "jax_cfd/spectral/utils.py:brick_wall_filter_2d", "jax_cfd/spectral/equations.py:ForcedNavierStokes2D"]}
{"id": "C66", "title": "The nonlinear Schroedinger equation: mass, energy, gauge and translation symmetry", "statement": "For NonlinearSchrodinger on a grid with an even number of points, with and without dealiasing: the right-hand side (explicit_terms + implicit_terms) changes neither the mass nor the Hamiltonian to first order, each part separately does not change the mass; and a run with any spectral time stepper commutes with multiplying the field by a unit complex number and with translating it by whole cells, so a plane wave stays a plane wave.", "quantifier": "every even number of points, cell size, dealiasing flag, complex spectrum, unit factor, integer shift, scheme and coefficients, time step and number of steps", "why_tests_cant": "Tests run one soliton for a few steps up to a tolerance; conservation and equivariance must hold for every state and every run.", "anchors": ["jax_cfd/spectral/equations.py:NonlinearSchrodinger", "jax_cfd/spectral/utils.py:padded_ifft_2x", "jax_cfd/spectral/utils.py:truncated_fft_2x", "jax_cfd/spectral/time_stepping.py:imex_runge_kutta"]}
{"id": "C67", "title": "Kuramoto-Sivashinsky and Burgers runs: mean, clock, translation and reflection symmetry", "statement": "A run of KuramotoSivashinsky or (unforced) Burgers with any spectral time stepper keeps the mean mode exactly; it commutes with translating the initial field by whole cells (an even number of cells with dealiasing; the forcing translated too) and, for KuramotoSivashinsky, with the reflection u(x) -> -u(-x). The time component of the forced Burgers state advances by exactly dt per step for backward_forward_euler, crank_nicolson_rk2, crank_nicolson_rk3 and imex_rk_sil3 and within dt/10^13 for crank_nicolson_rk4. Refuted: odd numbers of points without dealiasing; one-cell translations of the Nyquist mode with dealiasing.", "quantifier": "every grid size (even; multiple of 4 with dealiasing), cell size, field or spectrum, forcing function, viscosity, shift, scheme and coefficients, time step and number of steps", "why_tests_cant": "Tests run one initial condition for a few steps; exact invariants and equivariance must hold for all runs.", "anchors": ["jax_cfd/spectral/equations.py:KuramotoSivashinsky", "jax_cfd/spectral/equations.py:ForcedBurgersEquation", "jax_cfd/spectral/utils.py:padded_irfft", "jax_cfd/spectral/utils.py:truncated_rfft", "jax_cfd/spectral/time_stepping.py:crank_nicolson_rk4", "jax_cfd/spectral/time_stepping.py:imex_rk_sil3"]}
{"id": "C68", "title": "Learned eddy viscosities cannot create momentum or, when nonnegative, energy", "statement": "The learned eddy-viscosity models (scalar, scalar from gradients, tensor-valued) feed the network the documented channels and place (viscosity_scale + 1e-6) times its outputs at the places of the strain-rate tensor, symmetrically in the two indices; the resulting acceleration has one field per velocity component, exerts no net force for any network, and does no positive work when scale and outputs are nonnegative; steps of modular_navier_stokes_model with such a module and implicit eddy-viscosity solves inherit this.", "quantifier": "every network, viscosity scale, order of set iteration, grid, dimension and staggered periodic velocity", "why_tests_cant": "a network's weights and inputs are unbounded and the iteration order of a Python set is not specified; tests fix one of each", "anchors": ["jax_cfd/ml/viscosities.py:learned_scalar_viscosity", "jax_cfd/ml/viscosities.py:learned_scalar_viscosity_from_gradients", "jax_cfd/ml/viscosities.py:learned_tensor_viscosity", "jax_cfd/ml/viscosities.py:eddy_viscosity_model", "jax_cfd/ml/diffusions.py:implicit_evm_solve_with_diffusion"]}
{"id": "C69", "title": "gradient_tensor is the cell-centred velocity gradient", "statement": "gradient_tensor of a velocity on the cell faces lies at the cell centres with entry (a, k) the derivative of component k along axis a; its trace is the divergence and, in 2D, its antisymmetric part is the curl averaged over the cell corners; it accepts exactly the offsets 0, 1/2 and 1.", "quantifier": "every grid, dimension, offset and periodic data", "why_tests_cant": "identities must hold for all data, grids and dimensions", "anchors": ["jax_cfd/base/finite_differences.py:gradient_tensor"]}
{"id": "C70", "title": "Velocity-vorticity codecs and spectral downsampling are exact", "statement": "Encoding the last frames of a divergence-free velocity as (spectral or physical) vorticity and decoding it gives the velocity back up to its mean; decoding a resolved zero-mean vorticity and encoding it gives the vorticity back; the encoded vorticity is the curl of the velocity and has no mean. Downsampling a spectrum that fits the coarse grid samples the fine field at every r-th point. The exceptions - an odd last axis, different factors on the two axes, an odd number of rows - are exact too.", "quantifier": "every doubly periodic 2-d grid (any sizes and steps; even where stated), every pair of trajectories of any length, every real velocity / vorticity field and every downsampling factor", "why_tests_cant": "Round trips and aliasing depend on every Fourier mode of arbitrary fields and on the parity of the sizes; tests try a few smooth fields on a few even power-of-two grids, in floating point.", "anchors": ["jax_cfd/ml/encoders.py:vorticity_encoder", "jax_cfd/ml/encoders.py:vorticity_velocity_encoder", "jax_cfd/ml/encoders.py:spectral_vorticity_encoder", "jax_cfd/ml/decoders.py:vorticity_decoder", "jax_cfd/ml/decoders.py:spectral_vorticity_decoder", "jax_cfd/base/resize.py:downsample_spectral"]}
{"id": "C71", "title": "Learned interpolation is an average with weights adding up to one", "statement": "Interpolating a field half a cell along an axis with a learned interpolation returns, at every face, an average of the cells of the stencil around it with weights that add up to 1, whatever the network returns; so constants are kept, and a network that returns zeros gives linear interpolation. The weights do not depend on the implementation options: fused or separate constraints and patches, constraints as 1x1 convolutions, patch extraction method and tile layout all give the same values. Unknown targets or tags and one-cell stencils are refused. Interpolating to the field's own offset does not return the field (it gains an axis).", "quantifier": "every network that keeps the grid, every grid with equal steps, any number of dimensions, every velocity, tags, stencil size function, option combination that fits, and every interpolated field", "why_tests_cant": "The weights come from a network with arbitrary outputs, and seven options choose different code paths (block-diagonal matrices, convolutions, tilings) that must agree for all of them; tests compare a few random networks on a few shapes.", "anchors": ["jax_cfd/ml/interpolations.py:FusedLearnedInterpolation", "jax_cfd/ml/interpolations.py:IndividualLearnedInterpolation", "jax_cfd/ml/interpolations.py:anisotropic_learned_interpolation", "jax_cfd/ml/layers.py:fuse_spatial_derivative_layers", "jax_cfd/ml/layers.py:SpatialDerivative"]}
{"id": "C72", "title": "Convolutional towers are exact, translation-equivariant networks that keep the grid", "statement": "A periodic convolution layer of a tower computes, at every cell, the bias plus the correlation of the periodic input with the dilated kernel around that cell, whatever tile layout is used (stride one). A tower built from such layers, for every number of layers, channels, rates, strides, weights and nonlinearity, moves along with its input: moving the input by total-stride * k cells moves the output by k cells; the tile layout does not matter for stride one; spatially uniform inputs give uniform outputs. Settings given per layer with conflicting lengths are refused. The standard tower, residual block towers, residual connections and MLP towers keep the grid and move along; MLP towers act cell by cell. scale_to_range maps each slice onto [min, max]. With a stride greater than one, however, a tile layout changes the result (refuted).", "quantifier": "every grid of one to three axes (any dimension for MLP towers), every weight, kernel size, dilation rate, stride, layer count, nonlinearity, input, and every shift", "why_tests_cant": "Equivariance and independence of the tile layout must hold for all weights, shifts and shapes; the unit tests check output shapes for a few configurations only.", "anchors": ["jax_cfd/ml/towers.py:forward_flex_tower", "jax_cfd/ml/towers.py:forward_tower", "jax_cfd/ml/towers.py:residual_block_tower", "jax_cfd/ml/towers.py:mlp_tower", "jax_cfd/ml/towers.py:scale_to_range", "jax_cfd/ml/towers.py:periodic_convolution", "jax_cfd/ml/layers.py:PeriodicConvGeneral"]}
{"id": "C73", "title": "Periodic transpose convolutions are exact, move along and are adjoint to convolutions", "statement": "A periodic transpose convolution layer of stride s over one to three axes refines the grid by s and returns, at every fine cell, the bias plus the correlation with the kernel of the input put at every s-th fine cell with zeros between (periodic, centred): it is the ordinary periodic convolution layer applied to the spread-out input, and for stride one the ordinary layer itself. Moving the input by k cells moves the output by s*k cells. For odd kernels it is the adjoint of the strided convolution with reversed taps. A kernel with kernel // stride >= axis size, a tile layout and a dilation rate other than one are refused.", "quantifier": "every grid of one to three axes, every kernel shape, stride, number of channels, weights, bias, input and shift", "why_tests_cant": "Exactness at the periodic seams, alignment after the roll and adjointness must hold for all kernel sizes, strides and weights; unit tests check output shapes only.", "anchors": ["jax_cfd/ml/layers.py:PeriodicConvTransposeGeneral", "jax_cfd/ml/towers.py:periodic_transpose_convolution", "jax_cfd/ml/tiling.py:apply_convolution"]}
{"id": "C74", "title": "What mirror convolutions compute on periodic fields", "statement": "MirrorConv2D applied to periodic fields on a plane grid returns one field per input (at most one per output channel: further channels are lost), with the offset and boundary conditions of the input, and equal to the bias plus the correlation with the kernel, evaluated at a cell displaced by half the other axis' kernel along each axis; it is centred only when the kernels have a single tap. A 3 by 3 kernel with a single one in the centre does not act as the identity.", "quantifier": "every plane grid, every list of periodic fields with non-negative offsets, every kernel shape, dilation rate, weights and bias", "why_tests_cant": "The displacement hides behind trained weights: shapes are right and nothing fails, so tests on shapes or on training pass.", "anchors": ["jax_cfd/ml/layers.py:MirrorConvGeneral", "jax_cfd/ml/towers.py:mirror_convolution", "jax_cfd/base/boundaries.py:impose_bc"]}
{"id": "C75", "title": "What interpolation at a point returns", "statement": "point_interpolation of order 1 returns, at any point inside or outside the domain, the multilinear interpolant of the data continued beyond the array as the documentation of the mode pictures it; order 0 returns the value of the node less than half a cell away. Both return the stored value at the array's own points and never leave the range of the data. Order 1 reproduces affine data exactly between the first and last nodes, is periodic in mode 'wrap' (order 0 is not, half way between nodes), clamps to the box of the nodes in mode 'nearest', and in mode 'wrap' agrees with linear interpolation of a periodic field to an offset. Other orders, unknown modes and points of the wrong dimension are refused.", "quantifier": "every number of axes, grid, offset, data, point, fill value, mode and order", "why_tests_cant": "Behaviour outside the array, at ties and on lines through nodes depends on the point; tests sample a few points inside.", "anchors": ["jax_cfd/base/interpolation.py:point_interpolation"]}
{"id": "C76", "title": "Solvers with learned interpolation, end to end", "statement": "The velocity solver whose convection uses a learned (fused) interpolation for both the advected component and the advecting velocity is, whatever the network returns, a flux-form scheme: the convection of each component is minus the discrete divergence of a product of two stencil averages with weights that sum to one, so it exerts no net force on a periodic domain; every step of the modular Navier-Stokes model built on it is divergence free, and its total momentum changes by the forcing alone, for any number of steps. If the network moves along with its input, translating the initial velocity by whole cells translates every later state.", "quantifier": "every dimension, grid, viscosity, density, number of steps, periodic velocity and every network output", "why_tests_cant": "The network's weights are trained: conservation must hold whatever they are, and tests fix one initialisation.", "anchors": ["jax_cfd/ml/advections.py:modular_self_advection", "jax_cfd/ml/advections.py:self_advection", "jax_cfd/ml/interpolations.py:FusedLearnedInterpolation", "jax_cfd/ml/equations.py:modular_navier_stokes_model"]}
{"id": "C77", "title": "Mirror symmetry of the finite-volume solvers", "statement": "Nothing in the finite-volume solvers prefers a direction: on periodic grids, advecting the mirror image of a scalar with the mirror image of a velocity (component across the mirror negated) gives the mirror image of the tendency, for linear, upwind and flux-limited advection with any limiter; projection with any exact pressure solver and whole runs of the semi-implicit and implicit-diffusion Navier-Stokes solvers commute with mirrors along any axis and about any cell centre or face, after every number of steps; so flows that are symmetric about a plane stay symmetric for ever, with no flow through the plane.", "quantifier": "every dimension, grid, mirror axis and position, limiter, explicit Runge-Kutta tableau, number of steps, periodic velocity, scalar, viscosity and mirror-respecting forcing", "why_tests_cant": "An off-by-one in an upwind neighbour, limiter argument or difference direction breaks the symmetry only at some cells of some flows; tests compare a few fields to a tolerance.", "anchors": ["jax_cfd/base/advection.py:advect_linear", "jax_cfd/base/advection.py:advect_upwind", "jax_cfd/base/advection.py:advect_van_leer_using_limiters", "jax_cfd/base/pressure.py:projection", "jax_cfd/base/equations.py:semi_implicit_navier_stokes", "jax_cfd/base/equations.py:implicit_diffusion_navier_stokes"]}
{"id": "C78", "title": "Flux limiting of an arbitrary (learned) interpolation", "statement": "The transformed interpolation module wraps any base interpolation, learned or not, in the TVD limiter. At the face half a cell ahead the result is the upwind value moved towards the base's answer by the limiter's value at the ratio of the upstream jump to the jump over the face: with Van Leer's limiter it is the upwind value at extrema and the unlimited base answer where the jumps are equal, and it lies between the two adjacent cells if the base's answer lies between the upwind value and their mean. The advection built on it (modular_advection) is in flux form and conserves the advected quantity whatever the base or network. Contrary to the documentation the limiter does not make every base TVD: bases with weights summing to one exist for which the limited value exceeds every value of the field, on smooth data and over faces without a jump.", "quantifier": "every dimension, grid, periodic field, velocity, limiter function and base interpolation, every network output", "why_tests_cant": "The base interpolation is an arbitrary function; tests use lax_wendroff only, and cannot show boundedness for learned weights (it is false).", "anchors": ["jax_cfd/ml/interpolations.py: transformed, tvd_limiter_transformation, linear, upwind, lax_wendroff", "jax_cfd/base/interpolation.py: apply_tvd_limiter, van_leer_limiter, safe_div", "jax_cfd/ml/advections.py: modular_advection"]}
{"id": "C79", "title": "Symmetries of the 2D pseudo-spectral Navier-Stokes solver", "statement": "Runs of NavierStokes2D commute with the symmetries of the periodic box: started from the initial vorticity translated by whole cells, or rotated by 180 degrees, a run fails with the same error or returns the translated (rotated) vorticity of the original run, for every scheme, step size, number of steps, viscosity, drag and smooth flag, and every forcing that moves along. ForcedNavierStokes2D (Kolmogorov flow) commutes with all translations along x, with translations along y by whole forcing periods, and with half turns about a node of the forcing.", "quantifier": "every grid with an even number of columns, initial vorticity field (no band limit), translation, scheme, dt, number of steps, viscosity, drag, smooth flag and compatible forcing", "why_tests_cant": "A statement about all fields and all numbers of steps; a test compares one translated field over a few steps up to rounding.", "anchors": ["jax_cfd/spectral/equations.py: NavierStokes2D, ForcedNavierStokes2D", "jax_cfd/spectral/time_stepping.py: all schemes", "jax_cfd/spectral/utils.py: vorticity_to_velocity, spectral_curl_2d, brick_wall_filter_2d"]}
{"id": "C80", "title": "Order of accuracy of the finite-difference operators", "statement": "On periodic grids of any dimension, cell widths and offsets, the operators approximate calculus with explicit error bounds: for variables holding the values of smooth box-periodic functions with partial derivatives bounded by M, forward/backward/central differences, laplacian, divergence of a staggered velocity, linear interpolation to any offset, linear advection of a scalar, linear convection of a velocity and the whole explicit right-hand side of the Navier-Stokes equations are within an explicit constant times the sum of squared cell widths of the exact derivative, divergence, value, -div(v c), -div(v v_i) or full right-hand side at the points named by the offset of their result; upwind advection is within an explicit constant times the cell widths, also where the velocity changes sign.", "quantifier": "every grid, dimension, cell width, offset, smooth periodic function with bounded derivatives, velocity, viscosity, density and forcing", "why_tests_cant": "An error bound for all smooth functions and all resolutions; a convergence test measures the slope for one function on a few grids.", "anchors": ["jax_cfd/base/finite_differences.py: forward_difference, backward_difference, central_difference, laplacian, divergence", "jax_cfd/base/interpolation.py: linear", "jax_cfd/base/advection.py: advect_linear, advect_upwind, convect_linear", "jax_cfd/base/diffusion.py: diffuse", "jax_cfd/base/equations.py: navier_stokes_explicit_terms"]}
{"id": "C81", "title": "Runs converge to the exact solutions", "statement": "On every periodic grid in any dimension, a run of any number of steps that starts from the values of a smooth exact solution stays within an explicit bound, n dt times a first-order-in-dt plus second-order-in-h (first-order for upwind) term, of the exact solution at the reached time: explicit diffusion of the heat equation up to stable_time_step, implicit diffusion (diffusion.solve_fast_diag) for every time step, and transport with advect_upwind under the CFL time step of advection.stable_time_step. So refining the grid and the time step makes the error at any fixed time go to zero.", "quantifier": "all periodic grids of any dimension, shape and cell width, all offsets, viscosities and admissible time steps, all smooth exact solutions, all step counts", "why_tests_cant": "Convergence to the continuum solution is a statement about every smooth solution, every resolution and every number of steps; tests compare one solution at one or two resolutions.", "anchors": ["jax_cfd/base/diffusion.py: diffuse, stable_time_step, solve_fast_diag", "jax_cfd/base/advection.py: advect_upwind, stable_time_step", "jax_cfd/base/finite_differences.py: laplacian"]}
{"id": "C82", "title": "Latent encoders, decoders and corrector networks preserve alignment and channels", "statement": "channels_split_decoder returns the channels of its input in order; latent_decoder after latent_encoder returns the last frame of each component whenever the decoder network undoes the encoder network; aligned_latent_encoder attaches channel k to offset k and aligned_latent_decoder sees exactly that array again; velocity_corrector_network_w_boundaries evaluates the network on variables interpolated to the network offsets and returns variables on the cell faces. Refuted: aligned_latent_encoder keeps all latent channels (channels beyond the offsets are dropped); the corrector works with its default process_fn (it raises TypeError).", "quantifier": "all networks (arbitrary functions), grids, channel counts, frames, offsets and input tuples", "why_tests_cant": "The towers are learned: the glue must be right for every network and shape, while tests run one freshly initialised network.", "anchors": ["jax_cfd/ml/encoders.py: latent_encoder, aligned_latent_encoder", "jax_cfd/ml/decoders.py: channels_split_decoder, latent_decoder, aligned_latent_decoder", "jax_cfd/ml/networks.py: interpolate_gridvar, velocity_corrector_network_w_boundaries"]}
{"id": "C83", "title": "Failure metrics and reductions", "statement": "The correlation metrics are non-negative and zero exactly when the prediction matches the ground truth above the threshold and stays within the threshold below it; the same for the energy-spectrum metric on positive spectra except that a spurious mode of energy exactly 1 is not counted (refuted: every spurious mode is caught); the mean over devices of means over equal shards is the mean over the whole batch (refuted for unequal shards).", "quantifier": "all thresholds, sample counts, line lengths and values; all batches, shard counts and shard sizes", "why_tests_cant": "Being zero if and only if a simulation is right is a statement about every pair of trajectories; tests evaluate a few arrays.", "anchors": ["jax_cfd/data/evaluation.py: energy_spectrum_metric, u_x_correlation_metric, u_t_correlation_metric", "jax_cfd/ml/metrics.py: local_reduce, distributed_reduce"]}
{"id": "C84", "title": "Isotropic spectra by interpolation and grids from attributes", "statement": "isotropize by interpolation of a positive 2D spectrum over evenly spaced wave-number axes samples only inside the axes, so it never returns NaN, labels its values with the multiples of the larger spacing up to the smaller largest wave number, and returns at k a value between 2 pi k times the smallest and the largest energy; it is exact when the logarithm of the energy is linear in the wave vector; isotropic_energy_spectrum of any 2D dataset with positive spectrum has these properties; isotropize chooses its method by the number of axes and refuses the rest; grid_from_attrs rebuilds the square or rectangular grid described by the attributes.", "quantifier": "all axes sizes and spacings, all positive spectra, both interpolation methods, all numbers of quadrature points, all attribute values", "why_tests_cant": "Staying inside the sampled wave numbers depends on rounding of k_max for every size and spacing; a test uses one size.", "anchors": ["jax_cfd/data/xarray_utils.py: _isotropize_interpolation_2d, isotropize, isotropic_energy_spectrum, grid_from_attrs"]}
{"id": "C85", "title": "Pressure solves with open boundaries", "statement": "solve_fast_diag with explicitly given pressure conditions of which at least one side is Dirichlet returns a solution of the pressure equation when no axis has walls on both sides; when one has, the mean of the divergence is removed although the equation is solvable without that, so the promised solution of the pressure equation is not returned; with an open side the equation has at most one solution, so all solvers agree.", "quantifier": "all dimensions, sizes of at least 3 cells per axis, all velocities with a divergence, all mixtures of periodic, Dirichlet and Neumann pressure conditions with an open side, all cutoffs below the spectral gap", "why_tests_cant": "The spectral gap and the invertibility of the matrices must hold for every size and every mixture of conditions; the repository tests none with an open side.", "anchors": ["jax_cfd/base/pressure.py: solve_fast_diag, _rhs_transform", "jax_cfd/base/array_utils.py: laplacian_matrix_w_boundaries"]}
{"id": "C86", "title": "Lax-Wendroff transport is second-order, stable and not monotone", "statement": "Advection with the lax_wendroff interpolation is in flux form with coefficients that do not depend on the flow direction; in a uniform flow one explicit step is the classical Lax-Wendroff update, never increases the sum of squares for Courant numbers of size at most 1, moves the field exactly one cell at Courant number +-1, and the run converges to the exactly transported function with error O(h^2) in root mean square; it does not keep values within the old bounds.", "quantifier": "all dimensions, grid sizes, scalars and offsets, axes, speeds of either sign, time steps with Courant number at most 1, numbers of steps, and all periodic functions with bounded third derivatives", "why_tests_cant": "The docstring promises second-order accuracy and non-monotonicity; a unit test samples one profile, one resolution and one Courant number, while stability and order are statements about all of them and all numbers of steps.", "anchors": ["jax_cfd/base/interpolation.py: lax_wendroff", "jax_cfd/base/advection.py: advect_general"]}
{"id": "C87", "title": "What each time stepper does to a conserved energy", "statement": "When the right-hand side conserves an energy and the constraint is an orthogonal projection: a forward Euler step increases the energy by exactly dt^2 times that of the projected tendency; midpoint and Heun RK2 increase it by exactly dt^4/4 times that of the second derivative; classic RK4 never increases it under its classical limit sqrt(8); Crank-Nicolson-type schemes conserve it exactly and backward Euler dissipates a known amount. In particular centred advection of a scalar in a discretely divergence-free flow is stable with classic_rk4 and the step of stable_time_step with Courant number at most sqrt(8)/d over any number of steps, and grows with forward_euler for every time step. One forward Euler step of semi_implicit_navier_stokes from a divergence-free velocity changes the kinetic energy by exactly 2 dt times the work of convection, diffusion and force plus the energy of the change of the velocity; with convect_linear, no viscosity and no force the energy never decreases over any number of steps.", "quantifier": "all state spaces, inner products, right-hand sides (linear where stated), projections, time steps, states and numbers of steps; for the advection, all dimensions, grids, scalars and divergence-free flows", "why_tests_cant": "Stability is a statement about every initial state and unboundedly many steps; a unit test runs a few steps from one state, and an unstable scheme looks fine there because its growth per step is of order dt^2 or dt^4.", "anchors": ["jax_cfd/base/time_stepping.py: forward_euler, midpoint_rk2, heun_rk2, classic_rk4", "jax_cfd/spectral/time_stepping.py: backward_forward_euler, crank_nicolson_rk2, low_storage_runge_kutta_crank_nicolson", "jax_cfd/base/advection.py: advect_linear, stable_time_step", "jax_cfd/base/equations.py: semi_implicit_navier_stokes", "jax_cfd/base/advection.py: convect_linear"]}
{"id": "C88", "title": "Agreement of boundary conditions across fields", "statement": "consistent_boundary_conditions succeeds exactly when the fields agree, axis by axis, on being periodic at the lower side, and reports it; the pressure boundary conditions derived from a velocity are periodic on exactly those axes and zero-Neumann on the others; has_all_periodic_boundary_conditions means periodic below on every axis of every field. On conditions that are periodic on both sides or neither this is what the docstring says, whatever the order of the fields; a boundary mixed within one field is not noticed, against the docstring.", "quantifier": "all dimensions, numbers of fields, combinations of conditions and orders of the fields", "why_tests_cant": "The combinations of conditions per side, axis and field are unboundedly many; the existing tests use a few proper ones, so they cannot see that only lower sides are examined.", "anchors": ["jax_cfd/base/boundaries.py: is_periodic_boundary_conditions, has_all_periodic_boundary_conditions, consistent_boundary_conditions, get_pressure_bc_from_velocity"]}
{"id": "C89", "title": "Summaries of predictions", "statement": "data/evaluation.py: average over samples and the first ndim spatial dimensions is the mean over the cells that agree on the remaining dimensions, keeping averaged dimensions with size one; the mean-error summary of two models is a metric (nonnegative, symmetric, zero exactly for equal predictions, triangle inequality) and bounds the difference of the mean predictions; the fraction of errors below a threshold lies in [0,1], grows with the threshold, is one exactly when all errors are below it, and threshold*(1-fraction) is at most the mean error; absent models raise KeyError.", "quantifier": "all arrays, dimension lists, sizes, models, thresholds and numbers of spatial dimensions", "why_tests_cant": "the tests compare a few random datasets; the metric laws and the bounds must hold for every dataset", "anchors": ["jax_cfd/data/evaluation.py:absolute_error", "jax_cfd/data/evaluation.py:below_error_threshold", "jax_cfd/data/evaluation.py:average", "jax_cfd/data/evaluation.py:compute_summary_dataset"]}
{"id": "C90", "title": "Interior faces and interior grids", "statement": "grids.domain_interior_masks returns, per axis, an array of zeros and ones that never marks a face on the boundary of the domain as interior and, when half a cell is wider than the isclose tolerance at the ends of the domain, is one exactly at the faces strictly inside it (without that condition - a domain far from the origin - interior faces are masked as well). The interior grid of a variable at nodes, cell centres or faces keeps the cell widths, leaves periodic axes alone and has along every other axis exactly the points of the variable strictly inside the domain; an axis left without points raises ZeroDivisionError.", "quantifier": "all grids of any dimension, sizes and domains; all indices; all variables at nodes, centres or faces and all boundary types", "why_tests_cant": "the tests check two or three small unit grids; far-away domains and the correspondence of all coordinates need an argument over all grids", "anchors": ["jax_cfd/base/grids.py:domain_interior_masks", "jax_cfd/base/grids.py:GridVariable._interior_grid"]}
{"id": "C91", "title": "Named boundary conditions and placing arrays on a grid", "statement": "Each convenience constructor of boundary conditions (periodic, Dirichlet, Neumann, channel flow, periodic-and-Neumann, periodic-and-Dirichlet) gives, in every dimension, walls of the stated kind with the given values (zero by default) on the stated axes and periodicity on the others; in a channel flow a cell-centred variable shifted towards a wall meets the wall value halfway to the ghost cell, and shifts along the other axes are cyclic; channel flow in one dimension is accepted by no variable; values(axis, grid) returns the two constants over the remaining axes, and zeros rather than (None, None) for periodic_boundary_conditions; Grid.stagger puts component k on the faces normal to axis k and drops surplus components, Grid.center puts every array at the cell centre.", "quantifier": "all dimensions, axes, boundary values, grids, data and padding modes", "why_tests_cant": "the tests use two or three dimensions and fixed values; the statement is for every dimension and value", "anchors": ["jax_cfd/base/boundaries.py:dirichlet_boundary_conditions", "jax_cfd/base/boundaries.py:neumann_boundary_conditions", "jax_cfd/base/boundaries.py:channel_flow_boundary_conditions", "jax_cfd/base/boundaries.py:periodic_and_neumann_boundary_conditions", "jax_cfd/base/boundaries.py:periodic_and_dirichlet_boundary_conditions", "jax_cfd/base/boundaries.py:ConstantBoundaryConditions.values", "jax_cfd/base/grids.py:Grid.stagger", "jax_cfd/base/grids.py:Grid.center"]}
{"id": "C92", "title": "The filtered spectral step of the ML models", "statement": "modular_spectral_step_fn with do_filter_step=True gives the step without the filter followed by one multiplication of wave (a, b) of the resulting real field by 10^(-6((a/n)^2+(b/n)^2)^2). It keeps the mean vorticity, never increases the enstrophy of the stepped field, and always returns the spectrum of a real field. It fails on every grid whose two half-sizes differ. Over any number of steps the filter acts once per step, so with the filter the solution at a fixed final time tends to rest (apart from its mean) as the time step shrinks, even for exact steady flows without viscosity, which the unfiltered model keeps for ever.", "quantifier": "every square grid with an even number of points per side, smooth flag, forcing function, viscosity, drag, scheme, dt, spectrum and (for flows of one wave length) number of steps", "why_tests_cant": "a test steps a few times on one grid with one dt; the loss of the small-step limit and the enstrophy bound are statements about all of them", "anchors": ["jax_cfd/ml/equations.py:modular_spectral_step_fn", "jax_cfd/spectral/utils.py:exponential_filter"]}
{"id": "C93", "title": "Scaling of grid variables", "statement": "fixed_scale_gridvar multiplies every entry of every variable that lies on no wall by the factor and gives the entries on walls the value of their wall, keeping grids, offsets and boundary conditions. Scalings compose (s then t equals t*s at once) and, for variables that satisfy their wall conditions, scaling by 1/s undoes scaling by s. On bare arrays, fixed_scale maps the constant 1 to the factor, is linear and composes.", "quantifier": "every number of variables, grid, dimension, data, factor, and boundary conditions with which every axis is periodic, cell-centred, or edge-aligned between Dirichlet walls of any values", "why_tests_cant": "a test scales a few fields, mostly periodic ones; that the walls are never scaled and nothing is lost under repeated scaling is a statement about all boundary values and factors", "anchors": ["jax_cfd/ml/towers.py:fixed_scale_gridvar", "jax_cfd/ml/towers.py:fixed_scale"]}
{"id": "C94", "title": "Velocity correlations", "statement": "velocity_spatial_correlation returns one array per velocity component, named after component and axis, in which the axis is replaced by half as many displacements; each entry is the mean over the periodic line of the products of values that far apart. Displacement zero gives the mean square, which no other displacement exceeds; moving the flow along the axis changes nothing.", "quantifier": "every dataset with one to three dimensions of any sizes (at least two points along the axis), every axis, all values, every entry, every distance the flow is moved", "why_tests_cant": "a test computes the correlation of a few fields; the mean-square peak and translation invariance are statements about all fields", "anchors": ["jax_cfd/data/xarray_utils.py:velocity_spatial_correlation", "jax_cfd/data/xarray_utils.py:spatial_autocorrelation"]}
{"id": "C95", "title": "Non-periodic convolutions", "statement": "A non-periodic convolution layer returns, at every position of the kernel inside the array (taps 'rate' cells apart, every 'stride'-th position), the correlation of the array with the weights plus the bias, and nothing else. It is local: on any part of an array that starts at a multiple of the stride it returns the same part of its result for the whole array.", "quantifier": "every number of axes, shape, number of channels, kernel, rate, stride, weights, data, and every part of the array into which the kernel fits", "why_tests_cant": "a test tries a few kernels and shapes; which cells every entry depends on is a statement about all of them", "anchors": ["jax_cfd/ml/layers.py:NonPeriodicConvGeneral", "jax_cfd/ml/layers.py:NonPeriodicConv1D"]}
{"id": "C96", "title": "Evaluation over batches and the gradient of the loss", "statement": "Evaluating a model (eval_batch with streaming_mean) returns under exactly the metrics' names the mean over the batches of metric(predicted trajectory, batch); a metric that is never negative and vanishes only on agreement averages to 0 exactly when every batch is predicted exactly. loss_and_gradient returns the loss at the given parameters and the one gradient with respect to the parameters, the target held fixed; a training step along it reports the old loss and, if the gradient is not zero, strictly lowers the loss on that batch for every sufficiently small learning rate.", "quantifier": "every model, loss and metric function, nonempty sequence of batches, list of distinctly named metrics, parameter vector of any length, loss differentiable at the parameters, and small learning rate", "why_tests_cant": "a test evaluates one model on one batch; means over any number of batches, and descent along the gradient, are statements about all models, losses and batches", "anchors": ["jax_cfd/ml/train_utils.py:eval_batch", "jax_cfd/ml/train_utils.py:streaming_mean", "jax_cfd/ml/train_utils.py:loss_and_gradient", "jax_cfd/ml/train_utils.py:train_step"]}
{"id": "C97", "title": "The random forcing of the spectral equations", "statement": "random_forcing_module returns, on a one-dimensional grid, a force with one value per point that never exceeds half the number n of waves, changes by at most n/5 per unit of time and, on a domain of length 2 pi with at least 7 points, sums to zero at every time. That it does so on coarser grids is refuted (a wave of number 3 is constant on 3 points).", "quantifier": "every one-dimensional grid, number of waves, offset, seed, time, and every generator of random numbers that respects its arguments", "why_tests_cant": "a test draws a few forces and looks at a few times; bounds and balance must hold for all draws and times", "anchors": ["jax_cfd/spectral/forcings.py:random_forcing_module"]}
{"id": "C98", "title": "Forcing in vorticity space", "statement": "vorticity_space_forcing calls its forcing once, on the velocity (less its mean) whose vorticity it is given, as periodic fields at offset (0, 0), and returns an array of the grid's shape that is the curl of the force: every Fourier coefficient below the highest wave numbers is 2 pi i (kx fv^ - ky fu^), so it adds no mean vorticity.", "quantifier": "every two-dimensional grid with an even last axis, every solenoidal velocity with nothing at the highest wave numbers, every forcing", "why_tests_cant": "a test applies one forcing to one flow; that no component is swapped or mis-signed for any wave is a statement about all of them", "anchors": ["jax_cfd/ml/forcings.py:vorticity_space_forcing"]}
{"id": "C99", "title": "Quantile thresholds and colour scales", "statement": "The thresholds of approximate_quantiles are quantiles of the values at time 0: for every q in [0, 1] more than q (N - 1) of the N values are at most, and more than (1 - q) (N - 1) at least, the threshold, which lies between two of the values. The colour scale of quantile_normalize_fn is symmetric about 0 and covers more than q (N - 1) of the pixels.", "quantifier": "every array and time axis, every list of quantiles, every image", "why_tests_cant": "a test sorts a few arrays; that ranks and interpolation are right must hold for all values, ties included", "anchors": ["jax_cfd/data/evaluation.py:approximate_quantiles", "jax_cfd/data/visualization.py:quantile_normalize_fn"]}
