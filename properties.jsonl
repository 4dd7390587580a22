{"id": "C01", "title": "A lossless MZI node is unitary", "statement": "CouplingNode.mzi_node_matrix(theta, phi) of a node with loss (0, 0) is a unitary matrix, both as a 2x2 matrix and embedded on the node's two rails of an n-rail system; the embedding leaves every other rail untouched.", "quantifier": "every theta, phi, every pair of beam-splitter errors, every n and every pair of distinct rails", "why_tests_cant": "theta, phi and both errors range over the reals; a test samples finitely many.", "anchors": ["simphox/circuit/coupling.py: phase_matrix, CouplingNode.dc, CouplingNode.mzi_node_matrix, _embed_2x2"]}
{"id": "C02", "title": "The vectorised MZI elements are the node's matrix", "statement": "The matrix elements a mesh applies at a node (phase style TOP) are those of that node's mzi_node_matrix, so the mesh matrix is the product of the nodes' own matrices.", "quantifier": "every theta, phi, beam-splitter errors and dB losses of the node", "why_tests_cant": "continuous four-parameter family; the two code paths place the losses at different points of the node.", "anchors": ["simphox/circuit/forward.py: _parallel_mzi, _mzi_terms", "simphox/circuit/coupling.py: CouplingNode.mzi_node_matrix"]}
{"id": "C03", "title": "A lossless mesh conserves power", "statement": "For a mesh with zero losses, matrix_fn()(params, x) has the same total power as x, and matrix() is unitary, in every phase style.", "quantifier": "every list of nodes whose columns touch each rail at most once, every params (thetas, phis, gammas), every error, every phase style, every input vector", "why_tests_cant": "unbounded node lists and real parameters.", "anchors": ["simphox/circuit/forward.py: ForwardMesh.matrix_fn, ForwardMesh.columns, _parallel_mzi, _parallel_transform"]}
{"id": "C04", "title": "A mesh with attenuating losses never amplifies", "statement": "If every node's dB loss entries are <= 0 (the code's sign convention for attenuation), the output power of matrix_fn never exceeds the input power.", "quantifier": "every mesh with rail-disjoint columns, every params, errors, losses <= 0, every input", "why_tests_cant": "unbounded meshes, real losses; a sampled test cannot exclude a gain for some phase setting.", "anchors": ["simphox/circuit/forward.py: _parallel_mzi, _parallel_transform, ForwardMesh.matrix_fn"]}
{"id": "C05", "title": "Propagation is linear and given by the matrix", "statement": "matrix_fn()(params, x) equals matrix_fn()(params) @ x, and propagation of a superposition is the superposition of the propagations.", "quantifier": "every mesh, params, inputs and complex coefficients", "why_tests_cant": "quantifies over all input vectors.", "anchors": ["simphox/circuit/forward.py: ForwardMesh.matrix_fn, _parallel_transform"]}
{"id": "C06", "title": "Backward propagation is the transpose (reciprocity)", "statement": "matrix(back=True) is the transpose of matrix(): the mesh is a reciprocal device.", "quantifier": "every mesh with rail-disjoint columns, every phase style, every params and beam-splitter errors", "why_tests_cant": "unbounded meshes; holds for symmetric errors only and must be checked for every error pair.", "anchors": ["simphox/circuit/forward.py: ForwardMesh.matrix_fn(back=True), _parallel_mzi(back=True), ForwardMesh.idx"]}
{"id": "C07", "title": "The JAX path computes the same matrix as the NumPy path", "statement": "matrix_fn(use_jax=True) and matrix_fn(use_jax=False) return the same outputs: the padding of columns to a common width with masked dummy nodes changes nothing, whatever order the scatter applies its writes in.", "quantifier": "every mesh with rail-disjoint columns in range (columns of unequal width included), every params and inputs, every scatter order", "why_tests_cant": "depends on the widths of all columns and on an unspecified scatter order.", "anchors": ["simphox/circuit/forward.py: ForwardMesh.idx, _parallel_transform (use_jax), ForwardMesh.matrix_fn"]}
{"id": "C08", "title": "A per-node error acts on the node it was given to", "statement": "A bs_error or loss set on a CouplingNode affects exactly the rails of that node in matrix(), independently of the order in which nodes are listed.", "quantifier": "every mesh and every permutation of its node list within the feed-forward order", "why_tests_cant": "ranges over all orderings and error assignments.", "anchors": ["simphox/circuit/forward.py: ForwardMesh.__post_init__ (bs_errors, losses, node_idxs), ForwardMesh.all_errors, _parallel_transform"]}
{"id": "C09", "title": "Propagation steps end in the mesh output", "statement": "The last slice returned by propagate / propagate_matrix_fn equals matrix_fn applied to the same inputs, with explicit=True as well as explicit=False.", "quantifier": "every mesh, params, errors, losses, inputs, both values of explicit", "why_tests_cant": "real-parameter family over unbounded meshes.", "anchors": ["simphox/circuit/forward.py: ForwardMesh.propagate_matrix_fn, _parallel_propagate, _parallel_dc, _parallel_multiply"]}
{"id": "C10", "title": "tree(n) is a well-formed balanced binary tree", "statement": "tree(n) has n-1 nodes whose ids are exactly 0..n-2, every node has top < bottom < n, every rail but the last is the top port of exactly one node, no rail is used twice in a column, a nulled top rail is not used in a later column, and the number of columns is ceil(log2 n).", "quantifier": "every n >= 2 (n_rails >= n)", "why_tests_cant": "unbounded n.", "anchors": ["simphox/circuit/vector.py: _tree, tree", "simphox/circuit/forward.py: ForwardMesh.invert_columns"]}
{"id": "C11", "title": "tree(n, balanced=False) is a well-formed linear chain", "statement": "The chain has n-1 nodes, ids exactly 0..n-2, node i couples rails i and i+1 in column i, n-1 columns, and a nulled rail is not touched again.", "quantifier": "every n >= 2", "why_tests_cant": "unbounded n.", "anchors": ["simphox/circuit/vector.py: _tree(balanced=False), tree"]}
{"id": "C12", "title": "vector_unit routes the programmed vector to the last rail", "statement": "After vector_unit(v) the mesh matrix applied to v puts all power of v in the last rail with zero phase: the last output is a nonnegative real, and the power left in every other rail is at most the machine epsilon used in the split-ratio formula; the total power is preserved.", "quantifier": "every vector v of every length n >= 2 (zero entries included), balanced and chain, TOP and BOTTOM style, ideal couplers", "why_tests_cant": "all complex vectors of all lengths, including degenerate zero pairs.", "anchors": ["simphox/circuit/vector.py: _program_vector_unit, vector_unit, tree", "simphox/circuit/forward.py: ForwardMesh.parallel_nullify", "simphox/circuit/coupling.py: transmissivity_to_phase, direct_transmissivity"]}
{"id": "C13", "title": "cascade / triangular / tree_cascade realise any unitary", "statement": "The matrix of the mesh returned by triangular(u) or tree_cascade(u) is u.", "quantifier": "every n and every n x n unitary u", "why_tests_cant": "all unitaries of all sizes; the degenerate (zero-entry) ones are a null set that random tests never hit.", "anchors": ["simphox/circuit/matrix.py: cascade, triangular, tree_cascade"]}
{"id": "C14", "title": "cascade honours the requested phase style", "statement": "cascade(u, phase_style=s) returns a mesh of style s realising u.", "quantifier": "every unitary u and every supported phase style", "why_tests_cant": "depends on what aggregation keeps for every list of subunits.", "anchors": ["simphox/circuit/matrix.py: cascade", "simphox/circuit/forward.py: ForwardMesh.aggregate"]}
{"id": "C15", "title": "The triangular mesh packs into 2n-3 columns", "statement": "triangular(u) for an n x n unitary has n(n-1)/2 nodes with distinct ids 0..n(n-1)/2-1, 2n-3 columns, no rail used twice in a column, and tree_cascade has the same number of nodes in rail-disjoint columns.", "quantifier": "every n >= 2", "why_tests_cant": "unbounded n.", "anchors": ["simphox/circuit/matrix.py: cascade", "simphox/circuit/vector.py: _tree"]}
{"id": "C16", "title": "rectangular(u) has the Clements geometry", "statement": "rectangular(u) has n(n-1)/2 nodes, n columns (one for n = 2), column i holds the nearest-neighbour couplers whose top rail has the parity of i, rails are disjoint in each column and ids are exactly 0..n(n-1)/2-1 in list order.", "quantifier": "every n >= 2", "why_tests_cant": "unbounded n.", "anchors": ["simphox/circuit/rectangular.py: rectangular"]}
{"id": "C17", "title": "rectangular(u) realises any unitary", "statement": "The matrix of rectangular(u) is u.", "quantifier": "every n and every n x n unitary u", "why_tests_cant": "all unitaries of all sizes.", "anchors": ["simphox/circuit/rectangular.py: rectangular, get_alpha_checkerboard, grid_common_mode_flow, checkerboard_to_param"]}
{"id": "C18", "title": "butterfly(n) is a well-formed butterfly", "statement": "butterfly(n) never uses a rail twice in a column, all rails are in range with top < bottom; for n = 2^k it has k columns of n/2 nodes each.", "quantifier": "every n >= 2 (structure), every k >= 1 (counts)", "why_tests_cant": "unbounded n.", "anchors": ["simphox/circuit/vector.py: _butterfly, butterfly"]}
{"id": "C19", "title": "bowtie(u) uses n(n-1)/2 nodes", "statement": "The bowtie architecture of an n x n unitary has exactly n(n-1)/2 nodes, all with 0 <= top < bottom < n.", "quantifier": "every n >= 2", "why_tests_cant": "unbounded recursion depth.", "anchors": ["simphox/circuit/matrix.py: _bowtie, bowtie"]}
{"id": "C20", "title": "transmissivity_to_phase inverts the MZI's split ratio", "statement": "For a transmissivity s reachable by the node's couplers, an MZI set to theta = transmissivity_to_phase(s, mzi_terms) sends exactly the fraction s of the power across; unreachable s is clamped to the nearest reachable one.", "quantifier": "every s, every pair of beam-splitter errors", "why_tests_cant": "two real error parameters and a real target.", "anchors": ["simphox/circuit/coupling.py: transmissivity_to_phase, CouplingNode.mzi_terms", "simphox/circuit/forward.py: _parallel_mzi"]}
{"id": "C21", "title": "parallel_nullify nulls the top port", "statement": "The theta, phi returned by parallel_nullify for a column make the top output of every node vanish (up to the machine-epsilon regularisation) whenever the split ratio is reachable; in the SYMMETRIC style it raises instead.", "quantifier": "every vector, every node, every error pair, every phase style", "why_tests_cant": "all complex amplitudes incl. zeros, all errors.", "anchors": ["simphox/circuit/forward.py: ForwardMesh.parallel_nullify"]}
{"id": "C22", "title": "dirichlet_matrix is unitary and routes v to one rail", "statement": "For a vector v with v[0] != 0, dirichlet_matrix(v) is unitary and v @ dirichlet_matrix(v) has amplitude norm(v) on the last rail and zero on all others; the same for the embedded form.", "quantifier": "every length and every complex v with nonzero first entry", "why_tests_cant": "unbounded length.", "anchors": ["simphox/circuit/matrix.py: dirichlet_matrix"]}
{"id": "C23", "title": "csinv assembles a unitary", "statement": "csinv(l0, l1, r0, r1, theta) of unitary blocks is unitary (even and odd partitions).", "quantifier": "every block size, all unitary blocks, all angles", "why_tests_cant": "unbounded size.", "anchors": ["simphox/circuit/matrix.py: csinv"]}
{"id": "C24", "title": "Column bookkeeping is consistent", "statement": "columns partitions the nodes of a mesh: each node appears in exactly one column, in list order; invert_columns is an involution that reverses the column order; offset and offset_column preserve this.", "quantifier": "every list of nodes and every sequence of invert/offset operations", "why_tests_cant": "all histories of relabelling operations.", "anchors": ["simphox/circuit/forward.py: ForwardMesh.columns, invert_columns, offset, offset_column, aggregate"]}
{"id": "C25", "title": "In-situ backpropagation measures the exact gradient", "statement": "Without noise, the phase gradient measured by in_situ_matrix_fn from three power readings equals the derivative of the real cost with respect to that phase shift.", "quantifier": "every mesh, input, adjoint vector and phase", "why_tests_cant": "real-analytic identity over all fields.", "anchors": ["simphox/circuit/forward.py: ForwardMesh.in_situ_matrix_fn, phase_shift_localize"]}
{"id": "C26", "title": "Non-MZI node matrices are lossless couplers too", "statement": "CouplingNode.mmi_node_matrix and coupling_matrix_phase with zero error and loss are unitary, like ideal_node.", "quantifier": "every theta, phi, s in [0, 1]", "why_tests_cant": "continuous parameters.", "anchors": ["simphox/circuit/coupling.py: coupling_matrix_phase, coupling_matrix_s, CouplingNode.ideal_node, CouplingNode.mmi_node_matrix"]}
{"id": "C27", "title": "Matrix and functional derivatives agree", "statement": "YeeGrid.deriv (sparse matrices) and YeeGrid.diff_fn (rolls) compute the same forward and backward differences of every field.", "quantifier": "every grid shape, spacing, Bloch phase and field", "why_tests_cant": "all shapes including size-1 axes, all fields.", "anchors": ["simphox/grid.py: YeeGrid.deriv, YeeGrid.diff_fn"]}
{"id": "C28", "title": "The backward difference is minus the adjoint of the forward difference", "statement": "On a uniform grid <D_b f, g> = -<f, D_f g> for all fields, Bloch phase included.", "quantifier": "every grid shape, spacing, Bloch phase, all fields", "why_tests_cant": "summation by parts over all fields.", "anchors": ["simphox/grid.py: YeeGrid.deriv"]}
{"id": "C29", "title": "Discrete div curl = 0", "statement": "The backward divergence of curl_h's output vanishes and the forward divergence of curl_e's output vanishes for every field, in 1D, 2D and 3D.", "quantifier": "every shape, spacing, Bloch phase, every field", "why_tests_cant": "all fields.", "anchors": ["simphox/grid.py: YeeGrid.curl_fn, YeeGrid.deriv", "simphox/utils.py: curl_fn, d2curl_op"]}
{"id": "C30", "title": "FDTD stepping without PML is linear and keeps zero fields zero", "statement": "Without sources the zero state is a fixed point of step; the evolution of a superposition of states and sources is the superposition of the evolutions.", "quantifier": "every grid, permittivity, number of steps, source sequence", "why_tests_cant": "all states and unbounded step counts.", "anchors": ["simphox/fdtd.py: FDTD.step, _step_e, _step_h, zero_state"]}
{"id": "C31", "title": "FDTD conserves charge", "statement": "Without PML and sources, the discrete divergence of D = eps E and of H is constant in time.", "quantifier": "every initial state and every number of steps", "why_tests_cant": "unbounded histories.", "anchors": ["simphox/fdtd.py: FDTD.step, _step_e, _step_h"]}
{"id": "C32", "title": "FDTD conserves the leapfrog energy and is stable at the built-in time step", "statement": "Without PML and sources the discrete energy is the same after any number of steps, and at the built-in dt with eps >= 1 it is nonnegative, so fields cannot blow up exponentially.", "quantifier": "every initial state, eps >= 1 (per cell) and every number of steps", "why_tests_cant": "unbounded time, all fields.", "anchors": ["simphox/fdtd.py: FDTD.__init__ (dt), FDTD.step"]}
{"id": "C33", "title": "JAX and NumPy FDTD steps inject the same source", "statement": "_step_e / _step_h with use_jax=True and use_jax=False give the same fields for the same source.", "quantifier": "every state, source and region", "why_tests_cant": "all fields.", "anchors": ["simphox/fdtd.py: _step_e, _step_h"]}
{"id": "C34", "title": "step does not modify the state passed to it", "statement": "FDTD.step returns a new state; a state kept by the caller (for instance the previous H in run_cw_port) is unchanged.", "quantifier": "every state and number of steps", "why_tests_cant": "aliasing over all call histories.", "anchors": ["simphox/fdtd.py: FDTD.step, _step_e, _step_h, run_cw_port"]}
{"id": "C35", "title": "The PML accumulates the convolution it documents", "statement": "The PML memory fields satisfy psi_{n+1} = b psi_n + c * difference, so a constant forcing leads to a geometric sum.", "quantifier": "every field history", "why_tests_cant": "unbounded histories.", "anchors": ["simphox/utils.py: curl_pml_fn", "simphox/fdtd.py: FDTD._step_e, _step_h, curl_e_pml, curl_h_pml"]}
{"id": "C36", "title": "FDFD field conversions are mutually consistent", "statement": "For a field e solving the source-free problem, h2e(e2h(e)) gives back e.", "quantifier": "every grid, frequency, permittivity and source-free e", "why_tests_cant": "all fields of all sizes.", "anchors": ["simphox/fdfd.py: FDFD.e2h, FDFD.h2e, FDFD.mat"]}
{"id": "C37", "title": "The JAX field solver and the sparse operators solve the same equation", "statement": "The operator applied by get_fields_fn in 2D (TE/TM) is mat_ez / mat_hz, and in 3D is mat.", "quantifier": "every grid and permittivity", "why_tests_cant": "all fields.", "anchors": ["simphox/fdfd.py: FDFD.mat, mat_ez, mat_hz, get_fields_fn", "simphox/primitives.py: TMOperator"]}
{"id": "C38", "title": "PML stretching leaves the interior alone", "statement": "scpml returns factor 1 exactly on the cells outside the PML and factors with nonnegative absorption inside it; the derivatives in the interior are those without PML.", "quantifier": "every grid size and PML thickness accepted by the constructor", "why_tests_cant": "all sizes; off-by-one boundaries.", "anchors": ["simphox/fdfd.py: FDFD.scpml", "simphox/utils.py: pml_sigma"]}
{"id": "C39", "title": "FDFD.from_simgrid preserves the simulation", "statement": "The FDFD built from a SimGrid has the same shape and the same PML thickness as the SimGrid.", "quantifier": "every SimGrid with PML", "why_tests_cant": "all spacings and PML sizes.", "anchors": ["simphox/fdfd.py: FDFD.from_simgrid", "simphox/grid.py: YeeGrid.__init__"]}
{"id": "C40", "title": "Permittivity averaging stays within the material's range", "statement": "Each Yee-averaged permittivity lies between the minimum and maximum of the grid's permittivity; a homogeneous medium is unchanged; numpy and jax versions agree.", "quantifier": "every permittivity array of every shape", "why_tests_cant": "all arrays.", "anchors": ["simphox/utils.py: yee_avg, yee_avg_jax, yee_avg_2d_z", "simphox/grid.py: YeeGrid.eps_t"]}
{"id": "C41", "title": "slice / mask / set_eps touch exactly the requested box", "statement": "For an in-bounds box, mask is 1 exactly on the cells of the box and 0 elsewhere, set_eps changes exactly these cells, and the number of cells per axis is round(size/spacing) (1 for zero sizes).", "quantifier": "every grid, center and size inside the grid", "why_tests_cant": "all geometric placements; boundary cells.", "anchors": ["simphox/grid.py: Grid.slice, Grid.mask, Grid.set_eps, Grid.mask_fn"]}
{"id": "C42", "title": "pml_safe_placement returns a point outside the PML", "statement": "The returned x, y lie at least pml thickness plus separation away from both edges, a point already safe is not moved, and the function is idempotent.", "quantifier": "every grid accepted by the constructor and every location", "why_tests_cant": "all sizes; for narrow grids the two clamps conflict.", "anchors": ["simphox/grid.py: YeeGrid.pml_safe_placement, YeeGrid.__init__"]}
{"id": "C43", "title": "Grid.add rejects patterns outside the grid", "statement": "add raises ValueError unless the pattern's bounding box is inside the grid.", "quantifier": "every bounding box", "why_tests_cant": "16 combinations of violated bounds over all reals.", "anchors": ["simphox/grid.py: Grid.add"]}
{"id": "C44", "title": "Port.size follows the port orientation", "statement": "For angles multiple of 90 degrees the size is (0, w, h) for horizontal and (w, 0, h) for vertical ports, any other angle raises; rotating by 180 does not change it.", "quantifier": "every real angle, width and height", "why_tests_cant": "all angles incl. negative.", "anchors": ["simphox/grid.py: Port.size"]}
{"id": "C45", "title": "Box alignment is exact and preserves size", "statement": "align moves the centre onto the target, halign/valign make the chosen edges coincide, translate composes additively, none changes the size, and mask covers exactly the box's pixels.", "quantifier": "all boxes and targets", "why_tests_cant": "all real geometries.", "anchors": ["simphox/utils.py: Box"]}
{"id": "C46", "title": "Reported modes are ordered and guided", "statement": "ModeSolver.solve returns betas in decreasing order, all real parts positive, each the square root of an eigenvalue, without failing when the problem has guided modes.", "quantifier": "every list of eigenpairs the eigensolver may return", "why_tests_cant": "the eigensolver's output order is unspecified.", "anchors": ["simphox/mode.py: ModeSolver.solve"]}
{"id": "C47", "title": "Mode overlap measurement separates forward and backward waves", "statement": "measure_fn is linear in the fields, returns (1, 0) for the mode itself and (0, 1) for its reversed copy, hence (a, b) for the superposition.", "quantifier": "every normalisable mode and all amplitudes", "why_tests_cant": "all amplitudes and modes.", "anchors": ["simphox/mode.py: ModeLibrary.measure_fn"]}
{"id": "C48", "title": "The Pardiso wrapper never reuses a stale factorisation", "statement": "Every solve(A, b) returns the solution for the matrix A passed in this call, whatever matrices, failures and free() calls came before.", "quantifier": "every history of solve / free calls, failures included", "why_tests_cant": "all call histories; depends on collisions of a truncated string key.", "anchors": ["simphox/mkl.py: Pardiso.solve, _check_mat, free"]}
{"id": "C49", "title": "The sparse-solve gradient is the true adjoint", "statement": "The cotangents returned by spsolve's backward rule are the derivative of the solve: for every perturbation dA, db, <g, dx> = <gA, dA> + <gb, db>.", "quantifier": "every matrix, right-hand side, cotangent and perturbation", "why_tests_cant": "all matrices of all sizes.", "anchors": ["simphox/primitives.py: spsolve, spsolve_bwd"]}
{"id": "C50", "title": "parse_excitation normalises every documented format", "statement": "Every documented excitation (name, (name, index) pair, list of them, dict of index lists) is turned into the list of its (name, index) pairs, in order.", "quantifier": "every finite excitation value", "why_tests_cant": "recursive data of any size, including one-element and empty lists.", "anchors": ["simphox/parse.py: parse_excitation, parse_source_port"]}
{"id": "C51", "title": "get_symmetry_fn returns a symmetric design", "statement": "The output is invariant under each requested reflection, and a symmetric input is unchanged, whatever combination of flags and array shape is used.", "quantifier": "all shapes (even and odd), all arrays, all flag combinations", "why_tests_cant": "all arrays and parities.", "anchors": ["simphox/transform.py: get_symmetry_fn"]}
{"id": "C52", "title": "get_mask_fn only lets the design region change", "statement": "Pixels outside the box(es) keep their initial value and pixels inside take the new value, also for overlapping boxes.", "quantifier": "all arrays and box lists", "why_tests_cant": "all arrays and box overlaps.", "anchors": ["simphox/transform.py: get_mask_fn", "simphox/utils.py: Box.mask"]}
{"id": "C53", "title": "get_smooth_fn maps densities into [0, 1] monotonically", "statement": "The projection maps [0, 1] to [0, 1], fixes 0 and 1 and is monotone.", "quantifier": "every beta > 0, 0 < eta < 1 and density", "why_tests_cant": "all real parameters.", "anchors": ["simphox/transform.py: get_smooth_fn"]}
{"id": "C54", "title": "normalized_error is a real number in [0, 1], zero iff equal up to phase", "statement": "normalized_error(u)(uhat) is defined, lies in [0, 1] and vanishes exactly when uhat equals u up to a global phase.", "quantifier": "every unitary u and every estimate uhat, lossy ones included", "why_tests_cant": "all matrices.", "anchors": ["simphox/utils.py: normalized_error", "simphox/circuit/forward.py: ForwardMesh.matrix_opt"]}
{"id": "C55", "title": "get_measure_fn pairs each measured port with its own orientation", "statement": "The i-th entry measured by get_measure_fn is the forward/backward amplitude of the i-th measure port with the sign of that port.", "quantifier": "every set of ports and measure list, whatever the set iteration order", "why_tests_cant": "Python's set order is unspecified.", "anchors": ["simphox/sim.py: SimGrid.get_measure_fn, port_modes"]}
{"id": "C56", "title": "The FDFD source/solution relation is Maxwell's equation", "statement": "solve(src) returns a field satisfying mat @ e = k0-scaled source for every source for which the linear solver returns a solution.", "quantifier": "every grid and source", "why_tests_cant": "all fields.", "anchors": ["simphox/fdfd.py: FDFD.solve, FDFD.mat"]}
{"id": "C57", "title": "In-situ backpropagation hands back the cotangent of the input", "statement": "The input gradient returned by the custom VJP of in_situ_matrix_fn is M^T g, the cotangent of the inputs, so that layers can be chained.", "quantifier": "every mesh, input and cotangent", "why_tests_cant": "all real-valued inputs and cotangents.", "anchors": ["simphox/circuit/forward.py: ForwardMesh.in_situ_matrix_fn, matrix_bwd"]}
{"id": "C58", "title": "bowtie(u) returns a mesh for every unitary", "statement": "bowtie(u) returns a mesh whose columns can be enumerated, for every n x n unitary.", "quantifier": "every n >= 2 and every unitary", "why_tests_cant": "every size.", "anchors": ["simphox/circuit/matrix.py: bowtie, _bowtie", "simphox/circuit/forward.py: ForwardMesh.columns"]}
{"id": "C59", "title": "The 2D TM solve returns Maxwell fields", "statement": "For tm_2d=True the pair (e, h) returned by FDFD.solve satisfies both discrete curl equations (up to the global sign convention of the time dependence) with the given source.", "quantifier": "every 2D grid, permittivity and source for which the linear solver returns an exact solution", "why_tests_cant": "all permittivity distributions; tests use homogeneous or visually compared fields.", "anchors": ["simphox/fdfd.py: FDFD.solve, FDFD.mat_hz"]}
{"id": "C60", "title": "FDFD is reciprocal", "statement": "For any two sources j1, j2 solved on the same grid, the volume-weighted sums of e1 . j2 and of e2 . j1 are equal (3D, 2D TE, 2D TM), with and without PML.", "quantifier": "every grid, permittivity, PML and pair of sources", "why_tests_cant": "all pairs of sources on all grids.", "anchors": ["simphox/fdfd.py: FDFD.solve, FDFD.mat, mat_ez, mat_hz, scpml"]}
{"id": "C61", "title": "The lossless FDFD operator conserves power", "statement": "On a grid without PML and with real permittivity, mat is Hermitian, Bloch phases included, so that a source does no net work on the field it creates.", "quantifier": "every uniform grid, Bloch phase, real permittivity, source", "why_tests_cant": "all sizes and fields.", "anchors": ["simphox/fdfd.py: FDFD.mat", "simphox/grid.py: YeeGrid.deriv"]}
{"id": "C62", "title": "eps_t reflects the current permittivity", "statement": "The averaged permittivity eps_t used by every solver is the Yee average of the grid's current eps, after any sequence of fill, add, set_eps and reads.", "quantifier": "every history of edits and reads", "why_tests_cant": "all interleavings of edits and reads; tests read once.", "anchors": ["simphox/grid.py: YeeGrid.eps_t, fill, add, set_eps"]}
{"id": "C63", "title": "Grid.add extrudes the pattern over [zmin, zmin + thickness]", "statement": "On a 3D grid, add writes eps at exactly the z cells of [zmin, zmin + thickness] above the pattern's pixels.", "quantifier": "every spacing, zmin and thickness inside the grid", "why_tests_cant": "all spacings, anisotropic ones included.", "anchors": ["simphox/grid.py: Grid.add"]}
{"id": "C64", "title": "port_source accepts every documented source", "statement": "port_source({(port, mode): weight}) and port_source({port: weight}) return the weighted sum of the requested port modes, for every mode index the port guides.", "quantifier": "every set of ports, every source dictionary", "why_tests_cant": "all dictionaries and mode indices; tests use the fundamental mode by index.", "anchors": ["simphox/sim.py: SimGrid.port_source, SimGrid.port_modes"]}
{"id": "C65", "title": "poynting_fn(axis) is the Poynting vector along axis", "statement": "For each axis 0, 1, 2 poynting_fn(axis)(e, h) returns the axis component of e x conj(h), averaged to the cell corners.", "quantifier": "every axis and all fields", "why_tests_cant": "all fields and axes; tests only use the default.", "anchors": ["simphox/utils.py: poynting_fn"]}
{"id": "C66", "title": "TMOperator's backward rule is the exact transpose", "statement": "The cotangent TMOperator reports for the permittivity is the gradient of the assembled entries, for every real perturbation.", "quantifier": "all derivative matrices, index patterns, cotangents and perturbations", "why_tests_cant": "all sizes and perturbation directions.", "anchors": ["simphox/primitives.py: TMOperator.compile_operator_along_axis"]}
{"id": "C67", "title": "2D cross-section modes satisfy Maxwell's equations", "statement": "For every mode ModeLibrary reports on a 2D cross section, the fields e and h satisfy both curl equations at every pixel for propagation with the reported beta, h is divergence free, and conversely every such Maxwell mode is an eigenvector of the solver's operator.", "quantifier": "every grid, spacing, wavelength, positive permittivity and eigenpair", "why_tests_cant": "all cross sections and modes.", "anchors": ["simphox/mode.py: ModeSolver.waveguide_mode_matrix, solve, h2e, ModeLibrary.e, h"]}
{"id": "C68", "title": "1D cross-section modes satisfy Maxwell's equations", "statement": "The fields e and h reported for a 1D mode satisfy both curl equations at every pixel, for TE and for TM.", "quantifier": "every 1D grid, spacing, wavelength, positive permittivity and eigenpair", "why_tests_cant": "all profiles and modes.", "anchors": ["simphox/mode.py: ModeSolver.waveguide_mode_matrix, ModeLibrary.e, ModeLibrary.h"]}
{"id": "C69", "title": "A guided mode carries power forward", "statement": "The power density poynting_fn computes from a 1D mode's own e and h is nonnegative along the propagation axis when beta > 0.", "quantifier": "every 1D mode, TE and TM", "why_tests_cant": "all profiles and wavelengths.", "anchors": ["simphox/mode.py: ModeLibrary.e, h, sz, measure_fn", "simphox/utils.py: poynting_fn"]}
{"id": "C70", "title": "evolve, phase and beat_length agree", "statement": "evolve(length) multiplies a single mode by exp(i phase(length)), and the intensity of two interfering modes has period beat_length along the guide.", "quantifier": "every mode, weight, length, pixel", "why_tests_cant": "all lengths and mode pairs.", "anchors": ["simphox/mode.py: ModeLibrary.evolve, phase, beat_length, n"]}
{"id": "C71", "title": "evolve propagates the mode's own fields", "statement": "evolve(length) is the field of the mode at distance length, that is, mode times exp(i beta length) solves Maxwell's equations with the reported e and h.", "quantifier": "every cross section and mode", "why_tests_cant": "all cross sections.", "anchors": ["simphox/mode.py: ModeLibrary.evolve, e, h"]}
{"id": "C72", "title": "dispersion_sweep solves each wavelength", "statement": "dispersion_sweep(wavelengths) returns one solution per wavelength, solved at that wavelength.", "quantifier": "every array of wavelengths, with and without a progress bar", "why_tests_cant": "all arrays.", "anchors": ["simphox/mode.py: ModeSolver.dispersion_sweep, ModeLibrary.update_wavelength"]}
{"id": "C73", "title": "place puts the mode on the requested plane", "statement": "ModeLibrary.place returns an array of the grid's shape holding the mode on the requested cells and zero elsewhere, in 2D and in 3D.", "quantifier": "every grid, centre, size and orientation", "why_tests_cant": "all orientations and grids.", "anchors": ["simphox/mode.py: ModeLibrary.place"]}
{"id": "C74", "title": "view_fn preserves the Poynting direction", "statement": "view_fn re-orients fields so that the power along the view's normal is the z power of the viewed fields, for each axis.", "quantifier": "every axis, all fields", "why_tests_cant": "all fields.", "anchors": ["simphox/grid.py: YeeGrid.view_fn", "simphox/utils.py: poynting_fn"]}
{"id": "C75", "title": "profile is inverse to view_fn", "statement": "Viewing a field that holds SimCrossSection.profile on a port gives back the mode, for each propagation axis.", "quantifier": "every axis, all modes", "why_tests_cant": "all fields.", "anchors": ["simphox/sim.py: SimCrossSection.profile", "simphox/grid.py: YeeGrid.view_fn"]}
{"id": "C76", "title": "SimGrid.modes reflects the current permittivity", "statement": "modes(center, size, ...) returns the modes of the grid's current permittivity, after any sequence of edits and calls.", "quantifier": "every history of edits and calls", "why_tests_cant": "all interleavings.", "anchors": ["simphox/sim.py: SimGrid.modes"]}
{"id": "C77", "title": "to_2d returns the effective-index projection", "statement": "to_2d(wavelength, slab_loc) on a 3D grid returns a 2D simulation whose permittivity where the column equals the slab is the square of the slab's effective index.", "quantifier": "every 3D grid and wavelength", "why_tests_cant": "all grids and wavelengths.", "anchors": ["simphox/sim.py: SimGrid.to_2d"]}
{"id": "C78", "title": "s-parameters are normalised by the source port", "statement": "get_sim_sparams_fn divides the outgoing amplitudes by the incoming amplitude at the source's port and mode.", "quantifier": "every list of ports, source and measure_info", "why_tests_cant": "all orders of measure_info.", "anchors": ["simphox/sim.py: SimGrid.get_sim_sparams_fn, get_measure_fn"]}
{"id": "C79", "title": "A unidirectional port source launches into the device only", "statement": "In a uniform waveguide the field of port_source(unidirectional=True) vanishes behind the source and not in front of it.", "quantifier": "every beta, spacing, port position and orientation", "why_tests_cant": "all spacings and wavelengths.", "anchors": ["simphox/sim.py: SimGrid.port_source"]}
{"id": "C80", "title": "Common mode flow does not change the circuit", "statement": "grid_common_mode_flow moves phases so that only upper coupler arms and the outputs carry any, all in [0, 2 pi), and the transfer of the grid is unchanged whatever the couplers are; gamma may be omitted.", "quantifier": "every number of units and layers, all phases, all couplers, all inputs", "why_tests_cant": "all sizes and real phases.", "anchors": ["simphox/circuit/rectangular.py: grid_common_mode_flow"]}
{"id": "C81", "title": "Sensitivity indices of the rectangular mesh", "statement": "Along each diagonal of nodes get_alpha_checkerboard places a permutation of 1..length and zero elsewhere; random_theta(n) lists them in the node order of rectangular.", "quantifier": "every n >= 2", "why_tests_cant": "unbounded n.", "anchors": ["simphox/circuit/rectangular.py: get_alpha_checkerboard, random_theta"]}
{"id": "C82", "title": "rectangular_rows returns the rows of the nulling sequence", "statement": "rectangular_rows(mesh) returns n - 1 meshes, row i holding the i + 1 nodes of the i-th diagonal.", "quantifier": "every n >= 2", "why_tests_cant": "unbounded n.", "anchors": ["simphox/circuit/rectangular.py: rectangular_rows"]}
{"id": "C83", "title": "Nullification basis vectors null their own column", "statement": "For a lossless mesh with equal left and right beam splitter errors and a phase style other than DIFFERENTIAL, nullification_basis has one vector per column, and propagating the c-th vector forward through columns 0..c leaves unit power on the lower rail of every node of column c and nothing on any other rail. propagate with column_cutoff=None is the full propagation.", "quantifier": "every well-formed mesh, parameter setting, phase style and column", "why_tests_cant": "The vector is produced by a backward pass with a column cut-off; whether the cut-off boundary and the backward elements are exactly right must hold for every mesh shape, depth and phase setting.", "anchors": ["simphox/circuit/forward.py: ForwardMesh.nullification_basis, propagate_matrix_fn, propagate"]}
{"id": "C84", "title": "Programming by a null basis realises the target matrix on imperfect hardware", "statement": "Programming a mesh that has coupler errors by the nullification basis of another mesh with the same wiring, whatever its current phases, gives the target's transfer matrix up to output phases whenever every target split ratio is reachable by the hardware node; the gammas are untouched, and a SYMMETRIC mesh raises.", "quantifier": "every pair of meshes with the same wiring, target setting, starting phases and coupler errors", "why_tests_cant": "Correctness depends on every column being nulled by light that crosses all already-programmed columns; it must hold for all meshes and errors, not a sampled few.", "anchors": ["simphox/circuit/forward.py: ForwardMesh.program_by_null_basis, parallel_nullify, nullification_basis"]}
{"id": "C85", "title": "Programming a mesh by its own null basis restores its phases", "statement": "If every theta is strictly between 0 and pi and every phi in [0, 2 pi), programming a mesh from any starting phases by its own nullification basis restores exactly the thetas and phis the basis was computed with.", "quantifier": "every well-formed lossless TOP or BOTTOM mesh, phase setting and starting point", "why_tests_cant": "It is an inverse-function claim over a continuum of phases and all mesh shapes.", "anchors": ["simphox/circuit/forward.py: ForwardMesh.program_by_null_basis, nullification_basis"]}
{"id": "C86", "title": "opt_run works without a progress bar or visualisation", "statement": "opt_run's pbar and viz arguments are optional: a run over problems with distinct simulations and sources returns a record whether or not a progress bar and an OptViz are given.", "quantifier": "every optimiser, list of problems, number of iterations, intervals and starting simulations", "why_tests_cant": "Absence of an exception for every combination of options and problem lists is a universal claim.", "anchors": ["simphox/opt.py: opt_run, opt_viz"]}
{"id": "C87", "title": "Costs, parameters and final permittivities of an optimisation", "statement": "A run that returns reports exactly one cost per iteration; cost k is the mean over the problems of their cost at the parameters held before update k (a problem with a source is evaluated on the simulation's result, one without on the raw parameters); the returned parameters are those after the last update, and every simulation is left with the permittivity its last problem's transform gives for the returned parameters.", "quantifier": "every optimiser, list of problems, number of iterations and intervals for which the run returns", "why_tests_cant": "It relates the whole history of a stateful loop, for every length and every aliasing of simulation objects, to the recurrence of the optimiser.", "anchors": ["simphox/opt.py: opt_run, OptProblem"]}
{"id": "C88", "title": "Recorded metrics, permittivities and fields belong to the labelled iteration", "statement": "With an interval k > 0 the permittivity, field or metric series recorded for a simulation holds exactly the iterations divisible by k, in order, and the three entries labelled i belong to the same parameters (those of cost i).", "quantifier": "every optimiser, list of problems with distinct simulations, number of iterations and intervals", "why_tests_cant": "It is a history property: entries of different series recorded at different points of the loop body must agree in every iteration.", "anchors": ["simphox/opt.py: opt_run"]}
{"id": "C89", "title": "metric_interval thins out the recorded metrics", "statement": "With metric_interval = k the metrics are recorded every k iterations and the run returns.", "quantifier": "every optimiser, non-empty list of problems, interval and number of iterations", "why_tests_cant": "The failure depends on the relation of interval and iteration count, over all of them.", "anchors": ["simphox/opt.py: opt_run"]}
{"id": "C90", "title": "Problems without simulation, without source, or sharing a simulation can be combined", "statement": "opt_run accepts lists that mix problems with a simulation and source, problems without (sim or source None) and problems that share a simulation, and attributes each result to the simulation it came from.", "quantifier": "every optimiser and list of problems", "why_tests_cant": "Attribution must be right for every mixture and order of problems.", "anchors": ["simphox/opt.py: opt_run, opt_viz, OptProblem"]}
{"id": "C91", "title": "hessian_vector_unit returns the Hessian of the misfit", "statement": "For every vector v with non-zero norm, entry (a, b) of hessian_vector_unit(v, balanced) is the second partial derivative, by phases a and b of the list theta_0..theta_(n-2), phi_0..phi_(n-2), of the squared distance between the programmed unit's output for conj(v)/|v| and the last basis vector, at the programmed phases; the matrix is symmetric.", "quantifier": "every vector with n >= 2 entries and positive norm, both tree structures, every pair of phases", "why_tests_cant": "A derivative is a limit over infinitely many phase settings, and the recursion over tree nodes must be right for every n and vector.", "anchors": ["simphox/circuit/vector.py: hessian_vector_unit, _program_vector_unit, _tree"]}
{"id": "C92", "title": "hessian_fd and hessian_vector_unit agree", "statement": "The finite-difference Hessian with step e equals the analytic one up to the factor (sin e / e)^2, entry by entry, for every non-zero step (up to the square root of 72(n-1) times the machine epsilon in the split-ratio formula).", "quantifier": "every vector with n >= 2 entries and positive norm, both tree structures, every non-zero step, every entry", "why_tests_cant": "The tests compare the two at one step size and a few sizes with a tolerance; the exact relation is universal in vector and step.", "anchors": ["simphox/circuit/vector.py: hessian_fd, hessian_vector_unit"]}
{"id": "C93", "title": "A programmed vector unit sits at a global minimum of its misfit", "statement": "For the vector it was programmed with, the unit's misfit is zero, no phase setting gives a negative misfit, and the derivative by every theta and phi is zero at the programmed phases (up to 2(n-1) times, for the squared derivative 8(n-1) times, the machine epsilon in the split-ratio formula).", "quantifier": "every vector with n >= 2 entries and positive norm, both tree structures, every competing phase setting", "why_tests_cant": "Optimality compares with all phase settings.", "anchors": ["simphox/circuit/vector.py: balanced_tree, unbalanced_tree, _program_vector_unit", "simphox/circuit/forward.py: matrix_fn"]}
{"id": "C94", "title": "Cosine-sine decomposition round trip", "statement": "For every unitary u, csinv(*cs(u)) is u; the four block factors cs returns are unitary and its angles lie in [0, pi/2].", "quantifier": "every unitary of every size n >= 2, even or odd, and every SVD and QR routine meeting its contract", "why_tests_cant": "The decomposition must be right for all unitaries including those with zero blocks or repeated singular values, where the result depends on which factorisation LAPACK picks.", "anchors": ["simphox/circuit/matrix.py: cs, csinv"]}
{"id": "C95", "title": "bowtie(u) implements u", "statement": "For every unitary u the mesh returned by bowtie(u) has a transfer matrix equal to u up to a global phase.", "quantifier": "every unitary of every size n >= 2 and every SVD and QR routine meeting its contract", "why_tests_cant": "It relates a recursive matrix decomposition to the product of all nodes of the mesh, for all sizes and all unitaries.", "anchors": ["simphox/circuit/matrix.py: bowtie, _bowtie, cs", "simphox/circuit/forward.py: matrix_fn"]}
{"id": "C96", "title": "The fidelity cost is optimal exactly at the requested outputs", "statement": "For a requested set of output amplitudes, the cost returned by fidelity lies in [-1, 0] for every passive output and equals -1 exactly when the measured amplitudes are the requested ones, normalised, up to one global phase.", "quantifier": "every measured-mode list, requested amplitudes, insertion weight and output vector", "why_tests_cant": "a continuum of outputs; the optimum has to be unique among all of them.", "anchors": ["simphox/sim.py: SimGrid.fidelity"]}
{"id": "C97", "title": "Splitter metrics and TE ratio are shares of the power", "statement": "splitter_metrics returns reflectivity and transmissivity in [0,1] that add up to 1 and are the shares of the two outputs; insertion is the total power and bounds the parts; te_ratio is the share of the Hx power, invariant to scaling, 1 exactly without Hy.", "quantifier": "every amplitude vector with nonzero output power; every mode field", "why_tests_cant": "a continuum of fields.", "anchors": ["simphox/utils.py: splitter_metrics", "simphox/mode.py: ModeLibrary.te_ratio"]}
{"id": "C98", "title": "The Gaussian pulse is centred, has the requested width and is cut off cleanly", "statement": "gaussian_fn returns a pulse that is 0 up to start_time, peaks with modulus 1 at start_time + center_time_factor * pulse_width, is symmetric about its peak, has the carrier of the given wavelength (and chirp), and has a width proportional to pulse_width.", "quantifier": "every wavelength, pulse width, start time, centre factor, chirp and time", "why_tests_cant": "a continuum of parameters.", "anchors": ["simphox/utils.py: gaussian_fn"]}
{"id": "C99", "title": "A CW run can be resumed from its final state", "statement": "Running run_cw_port for a steps and then, from the returned state, for b steps gives the fluxes and the state of one run of a + b steps.", "quantifier": "every grid, source, wavelength, initial state and numbers of steps", "why_tests_cant": "unbounded step counts and all states.", "anchors": ["simphox/fdtd.py: FDTD.run_cw_port"]}
{"id": "C100", "title": "Source weights scale the CW excitation", "statement": "The weights given in a source dictionary scale the injected modes of run_cw_port.", "quantifier": "every source dictionary, grid and number of steps", "why_tests_cant": "all weights and step counts.", "anchors": ["simphox/fdtd.py: FDTD.run_cw_port", "simphox/parse.py: parse_source_port"]}
{"id": "C101", "title": "CW fluxes are measured at the wavelength of the run", "statement": "Every flux returned by run_cw_port is the measurement, against the port modes at the wavelength of the run, of the fields of its step with H averaged to the time of E.", "quantifier": "every grid, wavelength and number of steps", "why_tests_cant": "unbounded histories.", "anchors": ["simphox/fdtd.py: FDTD.run_cw_port", "simphox/sim.py: SimGrid.get_measure_fn"]}
{"id": "C102", "title": "Every documented source format is normalised to the same table", "statement": "parse_source_port maps a port name, a (port, mode) pair, a list of those or a dictionary to the table of exactly the (port, mode) pairs it asks for, with their weights, each once.", "quantifier": "every source description", "why_tests_cant": "lists of any length, any nesting of formats.", "anchors": ["simphox/parse.py: parse_source_port"]}
{"id": "C103", "title": "psvd(a) implements a", "statement": "The two meshes and the singular values returned by psvd(a), applied in turn to any input, output a times the input; singular values are nonnegative and sorted.", "quantifier": "every matrix with at least two rows and columns, every valid SVD, every input", "why_tests_cant": "all sizes and a continuum of matrices.", "anchors": ["simphox/circuit/matrix.py: psvd", "simphox/circuit/rectangular.py: rectangular"]}
{"id": "C104", "title": "Aggregated meshes compose", "statement": "Aggregating meshes whose ids and columns were offset by what comes before gives a mesh whose matrix, with the concatenated parameters, is the product of the meshes' matrices, in both directions of light.", "quantifier": "every list of evaluable meshes of default phase style on the same rails, all parameters and inputs", "why_tests_cant": "unbounded lists of meshes of any size.", "anchors": ["simphox/circuit/forward.py: ForwardMesh.aggregate, offset, offset_column, matrix_fn"]}
{"id": "C105", "title": "column_ordered is the same circuit in light order", "statement": "column_ordered lists the same nodes sorted by column, is idempotent, and has the same matrix as the original mesh for all parameters.", "quantifier": "every evaluable mesh, all parameters", "why_tests_cant": "all wirings and errors.", "anchors": ["simphox/circuit/forward.py: ForwardMesh.column_ordered"]}
{"id": "C106", "title": "add_error_variance perturbs only the errors", "statement": "add_error_variance returns a mesh of the same wiring, style and column count whose errors and losses are the old ones plus the scaled draws; zero deviations give the same matrix; without loss deviation a lossless mesh still conserves power; equal splitter errors stay equal.  phases() shifts the phases by the drawn errors, output phases only on request.", "quantifier": "every evaluable mesh, all deviations and all random draws", "why_tests_cant": "has to hold for every draw of the random generator.", "anchors": ["simphox/circuit/forward.py: ForwardMesh.add_error_variance, phases"]}
{"id": "C107", "title": "A mesh stays usable after offset or aggregate", "statement": "After mesh.offset(k), or after a mesh was passed to aggregate, the mesh can still be evaluated.", "quantifier": "every list of meshes, every offset", "why_tests_cant": "aliasing between all argument lists.", "anchors": ["simphox/circuit/forward.py: ForwardMesh.__post_init__, offset, aggregate"]}
{"id": "C108", "title": "A mesh owns its parameters", "statement": "The parameters of a mesh change only by assigning to or programming that mesh.", "quantifier": "every history of reads, assignments and in-place writes", "why_tests_cant": "aliasing over all histories.", "anchors": ["simphox/circuit/forward.py: ForwardMesh.params, program_by_null_basis, InSituBackpropLayer"]}
{"id": "C109", "title": "Envelope estimates agree with the meshes", "statement": "The layer counts of the envelope calculators are the columns of the tree and rectangular meshes the library builds, footprint is length times height, the equivalent output count is the least integer that matches, and no estimate predicts gain.", "quantifier": "every size n >= 3 (n = 2 counts one column twice), all lengths and losses", "why_tests_cant": "all sizes.", "anchors": ["simphox/circuit/envelope.py: binary_svd_depth_size, rectangular_depth_size, binary_equiv_cascade_size"]}
{"id": "C110", "title": "parallel_mzi returns the elements of the mesh", "statement": "mesh.parallel_mzi() returns the node elements with which the mesh's matrix is evaluated.", "quantifier": "every mesh and parameters", "why_tests_cant": "a continuum of parameters.", "anchors": ["simphox/circuit/forward.py: ForwardMesh.parallel_mzi"]}
{"id": "C111", "title": "Guided modes are orthogonal", "statement": "Two modes of a ModeLibrary with different propagation constants carry no power together: for a 2-D cross section the sum over the cells of e_i x conj(h_j) along the propagation axis is zero, for a 1-D cross section the mode arrays are orthogonal vectors. Hence the power of a superposition returned by evolve is the weighted sum of the powers of its modes and is the same at every length.", "quantifier": "all lossless cross sections (any shape, spacing, wavelength, positive permittivity), all pairs and all finite sets of modes with pairwise different betas, all weights and lengths", "why_tests_cant": "A statement about every permittivity distribution and every pair of eigenvectors of an operator that is not symmetric; a test checks a few waveguides to rounding error.", "anchors": ["simphox/mode.py: ModeSolver.waveguide_mode_matrix, ModeLibrary.e, ModeLibrary.h, ModeLibrary.evolve"]}
{"id": "C112", "title": "No effective index exceeds the largest index of the cross section", "statement": "Every mode the solver can return satisfies beta <= k0 * sqrt(max eps), so the default shift (k0 sqrt(max eps))^2 handed to the eigensolver lies at or above every guided eigenvalue. For 1-D cross sections every eigenvalue is real, so keeping only real parts loses nothing.", "quantifier": "all cross sections with positive permittivity, all eigenpairs", "why_tests_cant": "Quantifies over all permittivity distributions and all eigenpairs; the numerical solver only ever shows the few eigenvalues nearest the shift.", "anchors": ["simphox/mode.py: ModeSolver.solve, ModeSolver.waveguide_mode_matrix"]}
{"id": "C113", "title": "Measuring a mode in another mode's fields gives zero", "statement": "measure_fn(i) applied to the fields e(j), h(j) of another mode j with a different propagation constant returns (0, 0): mode amplitudes can be read off a superposition one by one.", "quantifier": "all cross sections, both polarisations, all pairs of modes with different betas", "why_tests_cant": "The half-cell averages in the Poynting vector and the 1/eps weight of TM fields decide it; on the symmetric waveguides of tests the crosstalk cancels.", "anchors": ["simphox/mode.py: ModeLibrary.measure_fn", "simphox/utils.py: poynting_fn"]}
{"id": "C114", "title": "FDTD has a finite propagation speed", "statement": "After n calls of step, the fields at a cell depend only on the permittivity, the initial state (with its PML memories) and the sources within n cells of it on the periodic grid: changing anything further away changes nothing there.", "quantifier": "every grid, every pair of permittivities, states and source schedules agreeing near the cell, every number of steps, numpy and jax, with and without PML", "why_tests_cant": "all pairs of simulations and unbounded step counts; tests compare single runs.", "anchors": ["simphox/fdtd.py: FDTD.step, _step_e, _step_h, curl_e_pml, curl_h_pml", "simphox/utils.py: curl_fn, curl_pml_fn, yee_avg"]}
{"id": "C115", "title": "The FDTD absorbing layers act only in their own cells", "statement": "A simulation with PML and one without it, from the same fields and sources, agree after n steps at every cell more than n cells away from the layers.", "quantifier": "every grid, layer thickness, state (any memories), source schedule and number of steps", "why_tests_cant": "unbounded histories, all layer geometries; an off-by-one region is invisible in plots.", "anchors": ["simphox/fdtd.py: FDTD._set_pml, _step_e, _step_h"]}
{"id": "C116", "title": "FDTD with PML is linear and leaves uniform static fields alone", "statement": "The evolution with PML of a superposition of states (memories included) and sources is the superposition of the evolutions; spatially uniform fields with empty memories never change without sources; numpy and jax agree without sources.", "quantifier": "every grid, layers, state, schedule, complex weights, number of steps", "why_tests_cant": "all states and unbounded step counts.", "anchors": ["simphox/fdtd.py: FDTD.step, _step_e, _step_h, zero_state"]}
{"id": "C117", "title": "The PML coefficients damp", "statement": "Every memory factor b lies strictly between 0 and 1 and every weight c in (-1, 0]; c vanishes exactly for differences along the axes parallel to the layer and outside it; both get stronger towards the outer boundary.", "quantifier": "every 3-D grid and spacing, thickness accepted by the constructor, exponent >= 1, negative log reflection, positive correction", "why_tests_cant": "all parameter values and cells; real-analysis inequality.", "anchors": ["simphox/fdtd.py: FDTD._set_pml", "simphox/utils.py: pml_sigma"]}
{"id": "C118", "title": "The two PML layers of an axis are mirror images", "statement": "The conductivity profile of the upper layer is the mirror image of the lower layer's, so a mirror-symmetric device is simulated symmetrically.", "quantifier": "every axis length, spacing, thickness and PML parameters", "why_tests_cant": "all thicknesses; tests only look at fields.", "anchors": ["simphox/utils.py: pml_sigma", "simphox/fdtd.py: FDTD._set_pml"]}
{"id": "C119", "title": "FDTD accepts a PML in every dimension", "statement": "FDTD(size, spacing, pml=...) constructs a simulation with layers of the given thickness whenever the thickness is more than 3 cells and less than half of every axis, in 1, 2 and 3 dimensions.", "quantifier": "every grid dimension, shape and thickness", "why_tests_cant": "all shapes; the tests never construct an FDTD with PML below 3-D.", "anchors": ["simphox/fdtd.py: FDTD.__init__, _set_pml", "simphox/grid.py: YeeGrid.__init__"]}
{"id": "C120", "title": "block_design draws the requested cross section", "statement": "Grid.block_design draws two waveguides of the given size, mirror images about the grid's centre, `gap` apart (one when gap is 0), standing at wg_height (centred when not given), with the perturbing blocks `sep` away from them beside or above; a gap of whole cells is drawn with that many cells.", "quantifier": "every grid, Box, height, gap, separation and block", "why_tests_cant": "continuous geometry plus rounding to pixels for every size; rounding bugs appear only at particular alignments.", "anchors": ["simphox/grid.py: Grid.block_design, Grid.set_eps", "simphox/utils.py: Box"]}
{"id": "C121", "title": "block_design is repeatable", "statement": "The permittivity drawn by block_design does not depend on where the waveguide Box stood before the call (it is moved by the call), and repeating the call leaves the grid unchanged.", "quantifier": "every grid, initial permittivity, design and position of the Box", "why_tests_cant": "all initial positions and permittivities.", "anchors": ["simphox/grid.py: Grid.block_design", "simphox/utils.py: Box.align, valign, translate, copy"]}
{"id": "C122", "title": "Substrate and rib layers", "statement": "After block_design(sub_height, rib_y) or from_pattern(sub_z, rib_t), before the boxes are drawn, cells whose top is at most the substrate height hold the substrate permittivity, cells up to the rib's top hold the core's, and others keep theirs.", "quantifier": "every grid, heights >= 0, permittivities and cell", "why_tests_cant": "all heights including the default 0.", "anchors": ["simphox/grid.py: Grid.fill, block_design", "simphox/fdfd.py: FDFD.from_pattern", "simphox/fdtd.py: FDTD.from_pattern"]}
{"id": "C123", "title": "When from_pattern can build a grid", "statement": "from_pattern(height, component_t, ...) builds a grid exactly when height and component_t are both positive (3-D) or both not (2-D); otherwise it raises.", "quantifier": "every height and thickness", "why_tests_cant": "all real pairs.", "anchors": ["simphox/fdfd.py: FDFD.from_pattern", "simphox/fdtd.py: FDTD.from_pattern", "simphox/grid.py: Grid.__init__"]}
{"id": "C124", "title": "Grid.add is all or nothing", "statement": "If Grid.add raises, the grid's permittivity, components and ports are unchanged; if it returns, one component was added and its ports replace the old ones.", "quantifier": "every grid, pattern, permittivity, zmin/thickness (given or not)", "why_tests_cant": "all failure points.", "anchors": ["simphox/grid.py: Grid.add"]}
{"id": "C125", "title": "Editing keeps the shape of the permittivity", "statement": "set_eps never changes the shape of the permittivity array, so fill keeps working along the last axis of the grid.", "quantifier": "every grid shape", "why_tests_cant": "all shapes, including axes of one cell.", "anchors": ["simphox/grid.py: Grid.set_eps, fill"]}
{"id": "C126", "title": "Grids do not share permittivity", "statement": "Editing one grid (fill, add, set_eps, block_design) never changes the permittivity of another grid or an array of the caller.", "quantifier": "every pair of grids and sequence of edits", "why_tests_cant": "aliasing over all histories.", "anchors": ["simphox/grid.py: Grid.__init__, fill, add, set_eps", "simphox/fdfd.py: FDFD.from_simgrid"]}
{"id": "C127", "title": "Propagated fields retrace under time reversal", "statement": "In a lossless mesh (any splitting errors), propagating conj(b[-1]) forward, where b = propagate(x, back=True), returns conj(b)[::-1] slice by slice; and conj(f[-1]) sent backward, f = propagate(x), returns conj(f)[::-1].", "quantifier": "every lossless TOP or BOTTOM mesh, all phases, splitting errors and fields", "why_tests_cant": "all meshes and fields; the digital in-situ scheme pairs the k-th backward slice with the k-th forward slice.", "anchors": ["simphox/circuit/forward.py: propagate_matrix_fn, _parallel_propagate"]}
{"id": "C128", "title": "rectangular_phase_shift_powers lists the shifter powers in node order", "statement": "For the fields propagate() returns on rectangular(u), rectangular_phase_shift_powers gives, in node order, the fraction of the power in the top arm before each theta and each phi shifter, and the fraction on every output rail.", "quantifier": "every size n, all phases and inputs", "why_tests_cant": "all sizes; strided slicing depends on the parity of n.", "anchors": ["simphox/circuit/rectangular.py: rectangular_phase_shift_powers"]}
{"id": "C129", "title": "Phases are angles", "statement": "matrix_fn (both directions) is unchanged when any theta, phi or gamma is shifted by whole multiples of its period: 2 pi, except for shifters that apply half angles to both arms (theta of SYMMETRIC, theta and phi of DIFFERENTIAL), whose period is 4 pi and where one turn of 2 pi negates the node.", "quantifier": "every mesh, style, splitter error, loss, direction, parameters, input and number of turns", "why_tests_cant": "all meshes and an unbounded set of equivalent phase settings; nullification returns phases modulo 2 pi and relies on this.", "anchors": ["simphox/circuit/forward.py: matrix_fn, _parallel_mzi"]}
{"id": "C130", "title": "Small phase errors cause small output errors", "statement": "If in column c no node's |theta - theta'| + |phi - phi'| exceeds D_c and no |gamma - gamma'| exceeds G, then the outputs of matrix_fn at the two settings differ by at most (sum of D_c over the columns + G) times the input amplitude; nodes of one column count only with their maximum.", "quantifier": "every well-formed attenuating mesh, style, splitter errors, direction, input, and pair of parameter settings", "why_tests_cant": "a bound over a continuum of perturbations of any number of phases.", "anchors": ["simphox/circuit/forward.py: matrix_fn, _parallel_mzi, _parallel_transform"]}
{"id": "C131", "title": "The listing order of the nodes does not matter", "statement": "Two lists with the same nodes (distinct ids) in different order give meshes with the same matrix_fn.", "quantifier": "every node list and permutation of it", "why_tests_cant": "all permutations of all node lists.", "anchors": ["simphox/circuit/forward.py: ForwardMesh.__post_init__, columns, matrix_fn"]}
{"id": "C132", "title": "Uncoupled rails are independent", "statement": "If no node couples the rails S to the other rails, the outputs on S depend only on the inputs on S, on the phases of the nodes on S and on the gammas of S; matrix entries between S and the rest are zero, and a rail without nodes only gets its gamma.", "quantifier": "every well-formed mesh, set of rails, parameters, inputs, both directions", "why_tests_cant": "all meshes and all ways of splitting their rails.", "anchors": ["simphox/circuit/forward.py: matrix_fn, _parallel_transform"]}
{"id": "C133", "title": "FDTD without PML is reversible in time", "statement": "Take E after n steps of FDTD.step and minus the H before the last of them: k more steps lead back to E after n - k steps and minus the H before that. With electric current sources on the numpy backend the same holds if the sources are played backwards with the opposite sign.", "quantifier": "every grid, permittivity, initial state, n, k; every schedule of electric sources (numpy)", "why_tests_cant": "ranges over all states and run lengths", "anchors": ["simphox/fdtd.py:step", "simphox/fdtd.py:_step_e", "simphox/fdtd.py:_step_h"]}
{"id": "C134", "title": "FDTD commutes with translations of the periodic grid", "statement": "Rolling the permittivity, the initial fields and the source regions by any number of cells along any axis rolls the fields of every later step by the same number of cells.", "quantifier": "every grid without PML, axis, shift, initial state and schedule of sources, both backends", "why_tests_cant": "ranges over all shifts, states and schedules", "anchors": ["simphox/fdtd.py:step", "simphox/grid.py:diff_fn", "simphox/utils.py:yee_avg"]}
{"id": "C135", "title": "FDTD commutes with mirror images", "statement": "Mirroring the permittivity cell by cell, the fields (each component at its Yee position, E as a vector, H as a pseudovector) and the electric currents gives the mirror image of the fields at every later step.", "quantifier": "every grid without PML, axis, initial state and schedule of electric sources, both backends", "why_tests_cant": "ranges over all states and schedules", "anchors": ["simphox/fdtd.py:step", "simphox/grid.py:diff_fn", "simphox/utils.py:yee_avg"]}
{"id": "C136", "title": "No unit of length", "statement": "Multiplying all spacings by u > 0 and dividing the currents by u leaves the FDTD fields of every step unchanged; multiplying all pixels and the wavelength by u divides the FDFD matrices (3-D, TE, TM) by u^2, so the normalised fields are the same.", "quantifier": "every grid, u, initial state, schedule, both backends; every FDFD problem", "why_tests_cant": "ranges over all grids and scale factors", "anchors": ["simphox/fdtd.py:step", "simphox/fdtd.py:__init__", "simphox/fdfd.py:mat", "simphox/fdfd.py:mat_ez", "simphox/fdfd.py:mat_hz"]}
{"id": "C137", "title": "Numerical dispersion of FDTD", "statement": "In a uniform medium a transverse plane wave with m_a periods across the grid stays that plane wave, E and H turning by e^{-i w dt} per step, for every w with (2 sin(w dt/2))^2 = dt^2/eps sum_a (2 sin(pi m_a/n_a)/spacing_a)^2; such a real w exists for every m when eps >= 1.", "quantifier": "every grid (1-3 dimensions), mode numbers, polarisation, permittivity, number of steps, both backends", "why_tests_cant": "ranges over all modes and run lengths", "anchors": ["simphox/fdtd.py:step", "simphox/fdtd.py:__init__", "simphox/grid.py:diff_fn"]}
{"id": "C138", "title": "Plane waves and the FDFD operators", "statement": "Without PML and in a uniform medium the FDFD matrices multiply a (transverse) Bloch plane wave by K^2 - k0^2 eps (3-D and TE) or K^2/eps - k0^2 (TM), K being the lattice wave vector (2 sin(theta_a/2)/spacing_a).", "quantifier": "every shape, spacing, Bloch phases, wave fitting them, polarisation, permittivity, wavelength", "why_tests_cant": "ranges over all waves and grids", "anchors": ["simphox/fdfd.py:mat", "simphox/fdfd.py:mat_ez", "simphox/fdfd.py:mat_hz", "simphox/grid.py:deriv"]}
{"id": "C139", "title": "CW steady states of FDTD are FDFD solutions", "statement": "Take the FDFD solution of a current distribution on the grid of an FDTD simulation without PML, at the wave number 2 sin(om dt / 2) / dt. Start FDTD from these fields (H half a step later) and drive it with the same currents oscillating at om: after n steps E is the FDFD field times e^{-i om n dt} and H times e^{-i om (n + 1/2) dt}, for every n, eps, shape and current. Source-free solutions are resonances with either backend. Conversely, a step that only turns the phases is a solution of the frequency-domain equations.", "quantifier": "every grid and permittivity, frequency, current distribution, exact linear solver and number of steps", "why_tests_cant": "A test compares two simulations of one device up to a tolerance; that the two solvers discretise the same equations, and the exact frequency shift between them, is a statement about all devices.", "anchors": ["simphox/fdtd.py: FDTD.step, FDTD.run", "simphox/fdfd.py: FDFD.mat, FDFD.solve"]}
{"id": "C140", "title": "FDTD energy balance with sources", "statement": "With the NumPy stepping and no PML, the leapfrog energy changes in each step by exactly minus dt times the work of the electric current on the E fields before and after the step, minus dt times the work of the magnetic currents on H; no energy is created or lost elsewhere, for any list of sources, and the balance adds up over a run.", "quantifier": "every grid, permittivity, state, source lists and number of steps", "why_tests_cant": "Tests look at a few fields; an unphysical gain or loss shows only as a drift in particular runs.", "anchors": ["simphox/fdtd.py: FDTD.step, FDTD._step_e, FDTD._step_h"]}
{"id": "C141", "title": "FDTD is reciprocal", "statement": "With the NumPy stepping and no PML, emitter and receiver can be exchanged: a current of component c at cell p with any waveform produces at cell q the component d of E that the same current of component d at q produces in component c at p, after any number of steps and in any permittivity. More generally the convolution over time of the currents of one run with the fields of another is symmetric. (The jax backend, whose sources overwrite the field, is not reciprocal.)", "quantifier": "every grid, permittivity, pair of cells, pair of components, waveform; every two schedules of electric currents", "why_tests_cant": "Reciprocity relates two whole runs of every device; a test can compare one pair of cells in one device.", "anchors": ["simphox/fdtd.py: FDTD.step"]}
{"id": "C142", "title": "matrix_opt reports the distance to the target and takes bounded steps against the gradient", "statement": "matrix_opt(uopt, params, step_size) starts from the given phases (or the mesh's own). Each update_fn(i, state) returns the normalized error at the phases it was given: for a lossless mesh and a unitary target a number in [0, 1], equal to 0 exactly when the mesh implements uopt up to a global phase. The gradient it follows exists. The first update moves every phase by step_size * g / (|g| + 1e-8) against its partial derivative g, and no update after any history of updates moves a phase by more than 7.3 step sizes.", "quantifier": "for every lossless mesh, unitary target, phase setting, gradient, step size and history of updates", "why_tests_cant": "the gradient's existence is a statement about limits over every path of phases, the step bound is an invariant of every update history", "anchors": ["simphox/circuit/forward.py: ForwardMesh.matrix_opt", "simphox/utils.py: normalized_error"]}
{"id": "C143", "title": "gaussian_fft returns the pulse response of measured profiles", "statement": "gaussian_fft(profiles, pulse_width, center_wavelength, dt, t0, linear_chirp) is, for each profile, the (circular) response of the device with that spectrum to the chirped Gaussian pulse sampled every dt and centred at t0 (default: the middle sample). An all-ones profile returns the pulse, whose modulus peaks at 1 at its centre; a passive profile never increases the pulse's energy and a lossless one keeps it. Several profiles measured at the same times, one per column, are treated independently.", "quantifier": "for every number of samples, profile, pulse parameter and number of profiles", "why_tests_cant": "the convolution theorem and energy conservation range over all sample counts and complex profiles", "anchors": ["simphox/utils.py: gaussian_fft"]}
{"id": "C144", "title": "Random initial phases give a uniformly distributed row", "statement": "A vector unit built by the library starts with random phases. Averaged over the draws, the chain unit of n outputs sends from every input exactly 1/n of the power to its last output, whatever the phis, and each drawn split ratio is realised exactly by the node it is meant for. The same is claimed for the balanced tree: that holds if each node draws with its own alpha and beta, but the code draws in list order and uses the draws in node order, so a five-output balanced tree has an input with average power 3/10 instead of 1/5.", "quantifier": "every n >= 2, rail count, phase style, input, phi and gamma, every generator of independent split ratios with mean beta/(alpha+beta)", "why_tests_cant": "It is a statement about the distribution of the phases: a test sees single draws, and the averages for one size say nothing about others.", "anchors": ["simphox/circuit/forward.py: ForwardMesh.__attrs_post_init__, rand_s, rand_theta", "simphox/circuit/vector.py: tree, _balanced_tree", "simphox/utils.py: random"]}
{"id": "C145", "title": "Backpropagation layers implement their mesh; networks of them never amplify", "statement": "Without noise, InSituBackpropLayer sends every row of a batch through its mesh with the current parameters and then applies the activation; a new layer starts from the mesh it was given (gammas zeroed when asked). Networks of any depth of lossless layers without activation preserve the power of each row, and with attenuating meshes and nonexpansive activations never separate two inputs further, whatever the trained phases. Phase noise changes no power, amplitude noise scales it by (1 + std*draw)^2. Noise is drawn afresh at every call only without jit: with use_jit (the default) every call repeats the first call's noise.", "quantifier": "every well-formed mesh, parameters, batch, activation, number of layers, noise level and draws, every number of calls", "why_tests_cant": "Quantifies over all parameters training can reach, all depths and all noise draws.", "anchors": ["simphox/circuit/forward.py: InSituBackpropLayer, ForwardMesh.in_situ_matrix_fn"]}
{"id": "C146", "title": "Shot noise leaves measured gradients unbiased", "statement": "The in situ gradient measured with photodetector shot noise of any strength equals, on average over the (zero-mean) draws, the noiseless measured gradient, for every theta, phi and gamma entry and every batch; with zero noise it is that gradient for every draw.", "quantifier": "every mesh, parameters, batch of inputs and cotangents, shot noise strength, gradient entry, and every average under which affine functions of the draws have their noiseless value", "why_tests_cant": "A statement about expectations over random draws for all meshes.", "anchors": ["simphox/circuit/forward.py: ForwardMesh.in_situ_matrix_fn (matrix_bwd, both values of all_analog)"]}
{"id": "C147", "title": "Random splits are beta distributed and beta_phase is their phase density", "statement": "beta_pdf(x, a, b) is a probability density on [0, 1]. A random phase drawn by the mesh is below t exactly for a fraction pi * (integral of beta_phase(., beta, alpha) up to t) of the uniform numbers, i.e. the phase has density pi * beta_phase. beta_phase itself should therefore be that density, but it carries an extra factor 1/pi: it integrates to 1/pi, not 1.", "quantifier": "all integers alpha, beta >= 1, all phase intervals, every mesh node without splitter error, every uniform number", "why_tests_cant": "Statements about integrals and distributions cannot be settled by sampling.", "anchors": ["simphox/utils.py: beta_pdf, beta_phase", "simphox/circuit/forward.py: ForwardMesh.rand_s, rand_theta"]}
{"id": "C148", "title": "A component's model holds its ports' s-parameters at each wavelength", "statement": "Component.from_fdfd(pattern, ..., wavelengths, in_ports, out_ports, profile_size_factor) gives a component whose model, selected at a wavelength, an input port and an output port, is the amplitude leaving the output port over the amplitude entering the input port when that port is excited, source and measurement using the ports' modes at that wavelength and with that profile size factor; ports can be named in any order and a subset of them can be asked for.", "quantifier": "all patterns, wavelength lists, port names and orders, profile size factors", "why_tests_cant": "the mode used for source and measurement depends on the wavelength; a test at 1.55 um with the ports in dictionary order cannot see that the wavelength never reaches them", "anchors": ["simphox/circuit/component.py:Component.from_fdfd", "simphox/sim.py:SimGrid.get_sim_sparams_fn", "simphox/sim.py:SimGrid.port_source", "simphox/sim.py:SimGrid.get_measure_fn"]}
{"id": "C149", "title": "decorate labels field samples with their positions", "statement": "For every grid, SimGrid.decorate attaches to each sample of E and H the position the sample stands for on the Yee grid, the positions for which the simulation's curls map plane waves to plane waves.", "quantifier": "all grid shapes and spacings, all field components, cells and plane waves", "why_tests_cant": "a label half a cell off is invisible in plots and in any test with an axis-aligned wave; only an oblique wave at every cell shows it", "anchors": ["simphox/sim.py:SimGrid.decorate", "simphox/grid.py:Grid.__init__", "simphox/grid.py:YeeGrid.diff_fn"]}
{"id": "C150", "title": "shift_slice moves a selection along one axis", "statement": "shift_slice(t, shift, axis) returns t with its entry on axis selecting the indices moved by shift, the other entries unchanged, and returns t unchanged when that entry is a slice with an open end.", "quantifier": "all tuples of ints and slices, shifts and axes", "why_tests_cant": "the branch depends on the entry's type and ends; tests exercise integer entries", "anchors": ["simphox/utils.py:shift_slice"]}
{"id": "C151", "title": "Noisy adjoint inputs rescale the measured gradient, they do not turn it", "statement": "With amplitude and phase errors of any size on the adjoint inputs, and shot noise of any strength at the taps, the in situ measured gradient equals, on average over the draws, one factor (the mean of the error factor) times the gradient measured without noise: the same factor for every theta, phi and gamma and every batch.", "quantifier": "every well-formed mesh (any splitter errors and losses, top or bottom phase style), parameters, batch, noise strength, gradient entry and every average under which the error factors share a real mean", "why_tests_cant": "a statement about expectations over random draws for all meshes; sampling cannot separate a small bias from noise", "anchors": ["simphox/circuit/forward.py: ForwardMesh.in_situ_matrix_fn (matrix_bwd, all_analog=True)"]}
{"id": "C152", "title": "The absorbing layers damp exactly the derivatives across them", "statement": "In every FDTD step with PML, the E and H updates are the plain Yee updates in which each derivative d along an axis is replaced by (1 + c) d + b c d_prev, d_prev being the same derivative at the step before, with b = exp(-(sigma + 1e-8) dt), c = (b - 1) sigma / (sigma + 1e-8) and sigma the graded conductivity of the cell's depth into the first or last t cells of that axis; outside the layers of an axis sigma = 0 and its derivatives are untouched.", "quantifier": "every uniform 3-D grid, permittivity, layer thickness and grading that absorbs, every state, source history, field component and cell, numpy and jax", "why_tests_cant": "a statement about every cell and every field history; tests only watch a pulse being absorbed", "anchors": ["simphox/fdtd.py: FDTD.step, _step_e, _step_h, _set_pml", "simphox/utils.py: curl_pml_fn, pml_sigma"]}
{"id": "C153", "title": "The FDFD absorbing layers only ever take power, and remove every resonance of a line", "statement": "For a 1-D FDFD simulation with layers at both ends, the power an FDFD solution carries is the same at every cell between the layers where there is no source, never increases towards either end inside them, and in total the sources give exactly the (nonnegative) power the layers take; hence neither mat_ez nor mat_hz is ever singular. In any dimension, with layers across one axis, the power through consecutive planes differs exactly by what the stretched cells take and the sources give.", "quantifier": "every cell count, layer thickness, grading, positive permittivity, wavelength, source and every field solving the system the solver factors", "why_tests_cant": "a test looks at one pulse or one source; that no frequency/permittivity resonates and that layers never amplify is a statement about all of them", "anchors": ["simphox/fdfd.py: FDFD.__init__ (scpml), scpml, mat_ez, mat_hz, solve"]}
{"id": "C154", "title": "Poynting's theorem for FDFD solutions", "statement": "In a 3-D FDFD simulation the power leaving any box of unstretched cells, summed over its six faces from the returned E and H, equals the power given by the sources inside the box; it is zero for a box without source.", "quantifier": "every grid, real permittivity (per component), wavelength, source, box of unstretched cells, and exact linear solve", "why_tests_cant": "a conservation law over all boxes and all sources; tests compare single field values", "anchors": ["simphox/fdfd.py: FDFD.solve, e2h, curl_e, curl_h"]}
{"id": "C155", "title": "Cell counts and cell ranges survive floating-point rounding", "statement": "If a size, centre, height or box edge is k times the spacing, both written as decimals and therefore rounded to binary64 before they are divided, Grid(...).shape, slice/mask/set_eps, fill, add and Box use exactly k cells.", "quantifier": "every spacing that is not subnormal and every whole number of cells up to 2^49", "why_tests_cant": "the rounding errors depend on every bit of the two numbers; tests use a handful of decimals", "anchors": ["simphox/grid.py: Grid.__init__, slice, fill, add", "simphox/utils.py: Box.min_i, max_i, mask"]}
{"id": "C156", "title": "hessian_distribution samples Hessians", "statement": "hessian_distribution(n, balanced, n_samples) returns, for each of n_samples random unit vectors, the Hessian of that vector unit.", "quantifier": "every n, tree and every vectors drawn", "why_tests_cant": "the result is random; a test can only check its shape for one n", "anchors": ["simphox/circuit/vector.py: hessian_distribution, hessian_vector_unit"]}
{"id": "C157", "title": "Rounding errors of a mesh's matrix grow linearly with its depth", "statement": "The output the matrix function computes in floating point differs from the exact output by at most about 4 (columns + 1) (e + 3 d) times the input amplitude, where d is the precision of the arrays (3/2^53 for complex128; 1/2^24 for the default complex64 inputs) and e the accuracy of the computed node matrices.", "quantifier": "every attenuating mesh, both directions, every style, parameters, input, and every arithmetic with relative error d and absolute error u", "why_tests_cant": "rounding errors depend on every number; a test compares one mesh within a tolerance it chooses", "anchors": ["simphox/circuit/forward.py: matrix_fn, _parallel_transform"]}
{"id": "C158", "title": "Real, integer and absent inputs", "statement": "The matrix function, propagate and hessian_fd accept integer, real and complex arrays, treating equal numbers equally, and propagate() without inputs uses the identity.", "quantifier": "every mesh, parameters, input values and array kind", "why_tests_cant": "the tests only pass complex arrays", "anchors": ["simphox/circuit/forward.py: matrix_fn, propagate, propagate_matrix_fn", "simphox/circuit/vector.py: hessian_fd"]}
{"id": "C159", "title": "FDTD converges to Maxwell's equations", "statement": "Where E and H solve Maxwell's equations with the grid's permittivity and currents J and K that the sources inject at the middle of each update, repeated step() calls stay close to the samples of E and H at the Yee positions and half-step times: the root mean square error at time T = N dt is at most sqrt(2/(1-1/sqrt kap)) times (initial error + T (sqrt emax + 3)/8 M dx^2), for permittivities between kap > 1 and emax and third derivatives at most M; for permittivity 1 it is at most of first order in dx at fixed T.", "quantifier": "every grid (dimension, shape, spacing, permittivity), every smooth solution and currents, every number of steps and starting state", "why_tests_cant": "convergence is a statement about all resolutions and all solutions; a test compares one run at one resolution", "anchors": ["simphox/fdtd.py: FDTD.step, _step_e, _step_h, dt", "simphox/utils.py: curl_fn, d2curl_op", "simphox/grid.py: YeeGrid"]}
{"id": "C160", "title": "FDTD rounding errors add up, they do not compound", "statement": "Where every arithmetic operation of step() is off by a relative error d (plus u on underflow) and dt and eps_t by e, the fields after N steps differ in root mean square from exactly computed ones by at most 2 B N (340 (d+e) (X+P) + 72 u (1+dt) sqrt(emax)), X and P bounding the exact fields and the sources' contributions and B = sqrt(2/(1-1/sqrt kap)) for permittivities between kap > 1 and emax, whatever the number of cells; in complex128, d+e is 11 units of 2^-53.", "quantifier": "every grid, permittivity, spacing, starting state and source schedule (at most one source per step), every N with 680 B N (d+e) <= 1", "why_tests_cant": "the bound must hold for every rounding pattern and number of steps; a test sees one run", "anchors": ["simphox/fdtd.py: FDTD.__init__ (dt), step, _step_e, _step_h, eps_t", "simphox/grid.py: YeeGrid.diff_fn", "simphox/utils.py: curl_fn, yee_avg"]}
{"id": "C161", "title": "CouplingNode.nullify empties the lower rail", "statement": "nullify(vector, idx) of a node with ideal couplers on rails idx, idx+1 returns the vector with rail idx+1 empty and all its power in rail idx, the unitary matrix that does this and the node phases in [0, 2 pi) that realise it, whatever lower_theta and lower_phi say.", "quantifier": "every vector (also zero entries), every index and node size, all four option combinations", "why_tests_cant": "the nulling must hold for every complex amplitude pair; the code has no test of nullify", "anchors": ["simphox/circuit/coupling.py: CouplingNode.nullify, mzi_node_matrix, dc, phase_matrix"]}
{"id": "C162", "title": "Propagation through a mesh on the jax path equals the numpy path", "statement": "propagate_matrix_fn(use_jax=True) returns slice by slice the fields of the numpy path, forwards and backwards, with explicit True or False, over all columns whatever column_cutoff says.", "quantifier": "every mesh with disjoint rails per column, parameters, errors, losses, input, and every order in which the scatters write", "why_tests_cant": "the padded dummy nodes and the scatter order matter only for particular column shapes and schedules", "anchors": ["simphox/circuit/forward.py: ForwardMesh.propagate_matrix_fn, idx, _parallel_propagate, _parallel_multiply, _parallel_transform"]}
{"id": "C163", "title": "Small splitter errors and losses move a mesh's output little", "statement": "Two meshes with the same wiring and style but different splitter errors, losses and phases give output amplitudes that differ by at most the sum over the columns of the largest change of a node in the column (radians of splitter error and phase, plus ln(10)/20 per dB of loss) plus the largest change of a gamma, times the input amplitude; an ideal mesh built with splitter errors up to d and losses up to L dB is off by at most 2 d + ln(10)/10 L per column.", "quantifier": "every mesh size and wiring, all four phase styles, both directions, all errors, attenuations, phases and inputs", "why_tests_cant": "a sensitivity bound over all perturbations and meshes; tests sample a few error values", "anchors": ["simphox/circuit/forward.py: ForwardMesh.matrix_fn, _parallel_mzi, _mzi_terms", "simphox/circuit/coupling.py: CouplingNode"]}
{"id": "C164", "title": "Absorbing materials make every frequency-domain problem well posed", "statement": "FDFD accepts a complex permittivity: the solver's answer is exact if and only if the returned field satisfies the wave equation whose permittivity is the complex average over the cells each component touches, and the returned pair satisfies Maxwell's equations. If on a grid without PML every cell absorbs (or every cell amplifies) by at least sigma, then for every source and every Bloch phase there is exactly one solution, the work of the source is what the material takes, and the electric field is at most |source| / (k0 sigma) (TM: |h| at most sqrt(1 + kappa^2) |source| / k0 when |Re eps| <= kappa |Im eps|). A real permittivity gives back the lossless matrices, whose systems may have no solution.", "quantifier": "every grid shape and spacing, Bloch phase, wavelength, complex permittivity array, source and solver returning an exact solution", "why_tests_cant": "existence, uniqueness and a bound over all sources and permittivities of unbounded grids; tests solve single systems", "anchors": ["simphox/fdfd.py: FDFD.mat, mat_ez, mat_hz, solve", "simphox/grid.py: YeeGrid.eps_t", "simphox/utils.py: yee_avg"]}
{"id": "C165", "title": "Frequency-domain solutions of absorbing problems are stable", "statement": "On a grid without PML where every cell absorbs (or every cell amplifies) by at least sigma, an FDFD answer that leaves a residual in the solver's equations, for one source and permittivity, differs from the exact answer for another source and another such permittivity by at most (|change of source| + |residual| / k0 + max change of permittivity / sigma * |source|) / (k0 sigma) in the electric field (3-D and TE). For TM with |Re eps| <= kappa |Im eps| in both structures the magnetic field moves by at most sqrt(1 + kappa^2) (|change of source| + |residual| / k0 + max change of permittivity / sigma * |source|) / k0.", "quantifier": "every grid shape and spacing, Bloch phase, wavelength, pair of complex permittivity arrays and sources, and every solver with any residual", "why_tests_cant": "a bound over all perturbations and all tolerances of an iterative solver; tests compare single solves", "anchors": ["simphox/fdfd.py: FDFD.mat, mat_ez, mat_hz, solve"]}
{"id": "C166", "title": "Frequency-domain solutions respect the symmetries of Maxwell's equations", "statement": "With a complex permittivity, FDFD.solve is reciprocal (exchanging source and receiver, PML allowed). On an absorbing grid without PML: moving structure and source by m cells moves both returned fields by m cells; the mirror image of structure and source gives the mirror image of the fields (along x and y, and along z if all layers agree); expressing the problem in a unit of length u times smaller multiplies the fields by u. This holds in 3-D and for both 2-D polarizations.", "quantifier": "every grid shape and spacing, wavelength, complex permittivity array, source, axis, shift and unit, and all solvers returning exact solutions", "why_tests_cant": "equality of fields over all structures, sources and shifts of unbounded grids", "anchors": ["simphox/fdfd.py: FDFD.mat, mat_ez, mat_hz, solve", "simphox/grid.py: YeeGrid.eps_t"]}
{"id": "C167", "title": "Absorbing layers and complex permittivities have one sign convention", "statement": "A one-dimensional simulation with PML at both ends and a material whose permittivity has positive real and nonpositive imaginary part in every cell has, for every source and both polarizations, exactly one solution. (False for the opposite sign: an absorbing material in the convention of the returned fields, Im eps > 0, can make the system singular with the default PML.)", "quantifier": "every number of cells, layer thickness, grading, reflection, wavelength, permittivity array of that sign, source and exact solver", "why_tests_cant": "singularity of the system for some material in an infinite set of materials", "anchors": ["simphox/fdfd.py: FDFD.scpml, mat_ez, mat_hz, solve", "simphox/grid.py: YeeGrid.eps_t"]}
{"id": "C168", "title": "Frequency-domain solutions converge to the solutions of Maxwell's equations", "statement": "If E, H are smooth complex amplitudes solving Maxwell's equations with current J in a material absorbing everywhere by at least sigma, the fields returned by solve (3-D and 2-D TE, no PML) differ from the samples of E and H in root mean square by at most (1 + (1 + eps_max)/sigma) M Dx^2 / (6 k0), M bounding the third derivatives.", "quantifier": "every grid, cell size, wavelength, smooth solution, source, complex permittivity array and exact solver", "why_tests_cant": "convergence is a statement about all grids and all smooth fields", "anchors": ["simphox/fdfd.py: FDFD.mat, mat_ez, solve", "simphox/grid.py: YeeGrid.eps_t, curl_fn"]}
{"id": "C169", "title": "Adjoint fields give the gradient with respect to the permittivity", "statement": "When the permittivity changes, the overlap of the solved field of a source j1 with j2 changes by exactly k0 times the volume-weighted sum of (change of the permittivity at the component) x (new field of j1) x (field of j2 in the old structure), PML included (TM: through 1/eps and the gradients of h). For absorbing materials on a uniform grid the derivative with respect to the permittivity of one cell is k0 times the product of the two old fields averaged over the edges the cell touches, with an error at most dl^2 |j1| |j2| / (k0 sigma^3) for changes of at most dl (TM: with h, 1/k0 and the products of the electric fields, error at most dl^2 sqrt(1 + kappa^2) |j1| |j2| / (k0 sigma^2) if |Re eps| <= kappa |Im eps|).", "quantifier": "every grid, pixel sizes (complex with PML for the exact change), complex permittivity before and after, wavelength, pair of sources and exact solvers", "why_tests_cant": "gradients of inverse design must be right for every structure and every change; finite-difference checks test single directions", "anchors": ["simphox/fdfd.py: FDFD.mat, mat_ez, mat_hz, solve", "simphox/grid.py: YeeGrid.eps_t"]}
{"id": "C170", "title": "Vector units of imperfect hardware", "statement": "vector_unit(v, bs_error_mean=e, loss_mean=l) (zero spread) succeeds for every e and l; every coupler of the returned network carries the error (e, e) and the loss (l, l), and the returned array holds the output powers the returned network itself (errors and losses included) gives for each column of v, the last output of the last column being real and nonnegative. Without loss and with |e| < pi/4 the network still routes all of the last column to the last rail (each other rail keeps at most the guard eps) provided each group of rails merged upwards carries at most cos^2(2e) of the merged power; with light on the first of two rails only, no phase setting leaves less than sin^2(2e) of it there.", "quantifier": "every number of rails >= 2, input array, balanced or linear tree, phase style TOP or BOTTOM, common coupler error and loss", "why_tests_cant": "fabrication errors and input vectors range over a continuum; a test programs a few random vectors, mostly with ideal couplers", "anchors": ["simphox/circuit/vector.py: vector_unit, _program_vector_unit, tree, _tree", "simphox/circuit/forward.py: add_error_mean, parallel_nullify"]}
{"id": "C171", "title": "Which modes ModeSolver.solve looks for; the interval search", "statement": "solve() without a guess (or with 0.0) looks near a value no eigenvalue exceeds, so that nearer means a larger propagation constant; solve(beta_guess=(lo, hi)) looks for exactly the modes with lo <= beta <= hi and reports those found, by decreasing beta; the matrix it gives to the Hermitian eigensolver is Hermitian.", "quantifier": "every cross section (1-D and 2-D), permittivity, wavelength, guess and interval, and every output of the eigensolver", "why_tests_cant": "the ordering and Hermiticity claims quantify over all permittivity maps and all eigenpairs; a test sees one waveguide and one interval", "anchors": ["simphox/mode.py: ModeSolver.solve, ModeSolver.waveguide_mode_matrix", "simphox/mkl.py: Feast.feast, feast_eigs"]}
{"id": "C172", "title": "Sources, profiles and measurements use the axis the port faces", "statement": "For a port at angle 0/180 (90/270) degrees the source is launched and the mode profile oriented along x (y), and the fields at the port are viewed along the same axis; other angles are rejected.", "quantifier": "every angle, width, height and profile size factor, 2-D and 3-D simulations", "why_tests_cant": "the axis is inferred from which sizes are zero; degenerate sizes are many and tests use one layout", "anchors": ["simphox/sim.py: SimCrossSection.prop_axis, SimGrid.port_modes", "simphox/grid.py: Port.size, YeeGrid.view_fn", "simphox/mode.py: ModeLibrary.place"]}
{"id": "C173", "title": "BPM fails cleanly", "statement": "The unfinished BPM class never returns a result: construction or every adi_polarized call raises, at any point of any sequence of calls; a failing call leaves the simulation unchanged.", "quantifier": "every dimension, grid, flag and number of calls", "why_tests_cant": "the second half concerns the state after exceptions, for any history", "anchors": ["simphox/bpm.py: BPM.__init__, init, adi_polarized"]}
{"id": "C174", "title": "Dispersion: group index and response of modes to the permittivity", "statement": "For modes that vary continuously, the derivative of the propagation constant with respect to any change of the wavelength and the permittivity array is (k0' sum |h|^2 + sum (k0 eps)' |e|^2) / (2 Re power) of the unperturbed fields; in particular n = ModeLibrary.n obeys dn/dlambda = (n - ng)/lambda with ng the energy per length over the power, and |ng| is never below the smallest index on the grid. In 1-d cross sections n ng is the mean permittivity weighted by the mode, and the propagation constant of the fundamental mode grows with permittivity and frequency.", "quantifier": "every 2-d and 1-d cross section, permittivity, wavelength, mode and differentiable family of such; the identity behind it for any two solvers on one grid, however different", "why_tests_cant": "a derivative and an inequality over all permittivities; a finite-difference test checks one waveguide to a few digits", "anchors": ["simphox/mode.py: ModeSolver.waveguide_mode_matrix, update_wavelength, dispersion_sweep, ModeLibrary.e, ModeLibrary.h, ModeLibrary.n", "simphox/grid.py: YeeGrid.eps_t"]}
{"id": "C175", "title": "FDFD.sparams returns leaving over entering amplitudes", "statement": "FDFD.sparams(port_name, mode_idx, measure_info) returns, for each (port, mode) measure_info stands for, the amplitude leaving through it over the amplitude entering at the source.", "quantifier": "every set of ports, source, form of measure_info and iteration order of Python's sets", "why_tests_cant": "the polarity of a port is looked up in the iteration order of a set; tests see one order and one form of measure_info", "anchors": ["simphox/fdfd.py: FDFD.sparams", "simphox/sim.py: SimGrid.get_measure_fn, port_source, port_modes, parse_excitation"]}
{"id": "C176", "title": "No axis is special", "statement": "Exchanging two axes of a simulation, or moving all of them up by one, exchanges or moves its result: the fields of the FDTD run, of the FDFD solution and of the modes of the relabelled structure under the relabelled sources are the relabelled fields (H, a pseudovector, changes sign under an exchange).", "quantifier": "every grid, permittivity, spacing, absorbing layer, Bloch phase, source, schedule and backend", "why_tests_cant": "the three axes are written out separately in the curls, the averages and the mode operator; tests use one orientation of each structure", "anchors": ["simphox/fdtd.py: FDTD.step", "simphox/fdfd.py: FDFD.mat, solve", "simphox/mode.py: ModeSolver.wgm", "simphox/grid.py: YeeGrid.curl_e, curl_h, eps_t"]}
{"id": "C177", "title": "Mode indices of a ModeLibrary", "statement": "Throughout its life a ModeLibrary answers for index i < num_modes with the i-th strongest guided mode of its last solve (h, e, beta, n, ns, dbeta, dn, beat_length, evolve agree), rejects every other index with ValueError, and is empty when nothing is guided.", "quantifier": "every output of the eigensolver, history of update_wavelength calls (failed ones included), index and list of weights", "why_tests_cant": "all histories and indices; tests use index 0 of a fresh library", "anchors": ["simphox/mode.py: ModeLibrary.__init__, _update_solve, update_wavelength, _check_num_modes, beta, n, ns, dbeta, dn, h, e, evolve, beat_length"]}
{"id": "C178", "title": "TM simulations converge to the solutions of Maxwell's equations", "statement": "On finer and finer grids the fields returned by a 2-D simulation with an out-of-plane magnetic field converge to the solution of Maxwell's equations, with an explicit bound on the error at every cell size.", "quantifier": "every smooth solution, grid, complex permittivity that absorbs, wavenumber and cell size", "why_tests_cant": "a bound for all solutions and all cell sizes; tests compare one grid with stored numbers", "anchors": ["simphox/fdfd.py: FDFD.mat_hz, solve (tm_2d), h_to_e", "simphox/utils.py: yee_avg"]}
{"id": "C179", "title": "When a simulation without losses has a solution", "statement": "A frequency-domain simulation of a box filled with one material (real or complex permittivity, any Bloch phases on the boundary, no layers) has a solution for every source exactly when no plane wave of the grid that fits the box has the wave number of the material; then the solution is unique and at most k0 |source| over the distance to the nearest resonance.", "quantifier": "every box shape, cell size, Bloch phase, permittivity, wavenumber and source, in 2-D (both polarizations) and 3-D", "why_tests_cant": "solvability for all sources; a test solves one system that happens to be regular", "anchors": ["simphox/fdfd.py: FDFD.mat, mat_ez, mat_hz, solve", "simphox/grid.py: YeeGrid.deriv, bloch"]}
{"id": "C180", "title": "Lossless materials have finitely many resonances", "statement": "For every real positive permittivity (any pattern, no layers, any Bloch phases) a frequency-domain simulation has exactly one solution for every source at all wavelengths but finitely many: at most one per unknown; at each of those some source has no solution.", "quantifier": "every permittivity array, shape, cell size, Bloch phase, wavenumber and source; 2-D (both polarizations) and 3-D", "why_tests_cant": "existence and uniqueness at all wavenumbers of a continuum; tests use one wavelength", "anchors": ["simphox/fdfd.py: FDFD.mat, mat_ez, mat_hz, solve"]}
{"id": "C181", "title": "A lossless run never forgets its initial state", "statement": "Without absorbing layers and with permittivity above 1, two FDTD runs with the same sources but different initial fields keep their distance: the energy of the difference stays for ever between two fixed multiples of its initial value. So a run with a CW source started from rest never settles into the periodic fields that FDFD computes; its distance to them keeps its size.", "quantifier": "every grid, permittivity >= kap > 1, schedule of electric and magnetic sources, pair of initial states and number of steps", "why_tests_cant": "concerns every later time of every run; a test of finite length cannot tell slow settling from none", "anchors": ["simphox/fdtd.py: FDTD.step, run", "simphox/fdfd.py: FDFD.solve"]}
{"id": "C182", "title": "Lock-in averages of a CW run converge to the FDFD fields", "statement": "For a frequency that is not a resonance of the grid, multiply the fields of a CW run by e^{+i omega t} and average over n consecutive steps: the result is within A/n of the FDFD solution at the lattice wavenumber, at every cell, for E and H, whatever the initial fields and wherever the window starts. Frequencies above the band of the grid are never resonances.", "quantifier": "every grid, permittivity >= kap > 1, source, frequency that is not a resonance, initial state, window start and window length", "why_tests_cant": "a limit over all window lengths, uniform in the start of the window", "anchors": ["simphox/fdtd.py: FDTD.step, run", "simphox/fdfd.py: FDFD.solve, mat"]}
{"id": "C183", "title": "A lossless CW run stays bounded exactly when FDFD has a solution for its source", "statement": "Without absorbing layers and with permittivity above 1, the energy of a run driven by a CW electric source is bounded for all time exactly when the FDFD system at the lattice wavenumber has a solution for that source, whatever the initial fields. Otherwise the fields grow in proportion to the number of steps. There is a solution exactly when the source is orthogonal to every resonance (source-free solution) at that wavenumber.", "quantifier": "every grid, permittivity >= kap > 1 (growth: >= 1), source pattern, frequency with non-zero lattice wavenumber, initial state and number of steps", "why_tests_cant": "boundedness over all time and existence of a solution of a linear system are not observable in a finite test", "anchors": ["simphox/fdtd.py: FDTD.step, run", "simphox/fdfd.py: FDFD.solve, mat"]}
{"id": "C184", "title": "What sources add to a lossless run is bounded by what each step's sources produce from rest", "statement": "Without absorbing layers and with permittivity above 1, the size of the fields (square root of the energy) after any run is at most a fixed constant times the size of the initial fields plus the sum, over the steps, of the size of the fields the sources of that step would produce in one step from rest, which is at most dt times three times the norm of the electric current plus the norm of the magnetic current; two runs differ by at most the same constant times the differences put in. With permittivity 1 allowed the factor grows in proportion to the number of steps. A CW electric source adds the same amount at every step, so its fields grow at most linearly.", "quantifier": "every grid, permittivity >= kap > 1 (or >= 1), electric and magnetic source schedule (pair of schedules), initial state (pair) and number of steps", "why_tests_cant": "a bound uniform over all schedules and run lengths", "anchors": ["simphox/fdtd.py: FDTD.step, run"]}
{"id": "C185", "title": "At all but finitely many frequencies a lossless CW run is bounded and yields the FDFD fields", "statement": "A lossless FDTD grid has at most three resonances per cell. At every frequency whose lattice wavenumber is not one of them, FDFD has a solution for every source, every run driven by a CW electric source is bounded for all time whatever its initial fields, and its lock-in averages over n states are within A/n of the FDFD fields at every cell.", "quantifier": "every grid, permittivity >= kap > 1, frequency with positive lattice wavenumber outside a finite set, source, initial state, window start and window length", "why_tests_cant": "a claim about all frequencies and all times; the exceptional set depends on the permittivity", "anchors": ["simphox/fdtd.py: FDTD.step, run", "simphox/fdfd.py: FDFD.solve, mat"]}
