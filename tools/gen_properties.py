#!/usr/bin/env python3
"""Writes /verif/properties.jsonl from the table below (one entry per property)."""
import json, os
P = []
def p(title, statement, quantifier, why, anchors):
    P.append(dict(id="C%02d" % (len(P) + 1), title=title, statement=statement,
                  quantifier=quantifier, why_tests_cant=why, anchors=anchors))
CP, FW, VE, MA, RE = ("simphox/circuit/%s.py" % x for x in ("coupling", "forward", "vector", "matrix", "rectangular"))
GR, UT, SI, FT, FF, MO, TR, PA, PR, MK, OP = ("simphox/%s.py" % x for x in
  ("grid", "utils", "sim", "fdtd", "fdfd", "mode", "transform", "parse", "primitives", "mkl", "opt"))

p("A lossless MZI node is unitary",
  "CouplingNode.mzi_node_matrix(theta, phi) of a node with loss (0, 0) is a unitary matrix, both as a 2x2 matrix and embedded on the node's two rails of an n-rail system; the embedding leaves every other rail untouched.",
  "every theta, phi, every pair of beam-splitter errors, every n and every pair of distinct rails",
  "theta, phi and both errors range over the reals; a test samples finitely many.",
  [CP + ": phase_matrix, CouplingNode.dc, CouplingNode.mzi_node_matrix, _embed_2x2"])
p("The vectorised MZI elements are the node's matrix",
  "The matrix elements a mesh applies at a node (phase style TOP) are those of that node's mzi_node_matrix, so the mesh matrix is the product of the nodes' own matrices.",
  "every theta, phi, beam-splitter errors and dB losses of the node",
  "continuous four-parameter family; the two code paths place the losses at different points of the node.",
  [FW + ": _parallel_mzi, _mzi_terms", CP + ": CouplingNode.mzi_node_matrix"])
p("A lossless mesh conserves power",
  "For a mesh with zero losses, matrix_fn()(params, x) has the same total power as x, and matrix() is unitary, in every phase style.",
  "every list of nodes whose columns touch each rail at most once, every params (thetas, phis, gammas), every error, every phase style, every input vector",
  "unbounded node lists and real parameters.",
  [FW + ": ForwardMesh.matrix_fn, ForwardMesh.columns, _parallel_mzi, _parallel_transform"])
p("A mesh with attenuating losses never amplifies",
  "If every node's dB loss entries are <= 0 (the code's sign convention for attenuation), the output power of matrix_fn never exceeds the input power.",
  "every mesh with rail-disjoint columns, every params, errors, losses <= 0, every input",
  "unbounded meshes, real losses; a sampled test cannot exclude a gain for some phase setting.",
  [FW + ": _parallel_mzi, _parallel_transform, ForwardMesh.matrix_fn"])
p("Propagation is linear and given by the matrix",
  "matrix_fn()(params, x) equals matrix_fn()(params) @ x, and propagation of a superposition is the superposition of the propagations.",
  "every mesh, params, inputs and complex coefficients",
  "quantifies over all input vectors.",
  [FW + ": ForwardMesh.matrix_fn, _parallel_transform"])
p("Backward propagation is the transpose (reciprocity)",
  "matrix(back=True) is the transpose of matrix(): the mesh is a reciprocal device.",
  "every mesh with rail-disjoint columns, every phase style, every params and beam-splitter errors",
  "unbounded meshes; holds for symmetric errors only and must be checked for every error pair.",
  [FW + ": ForwardMesh.matrix_fn(back=True), _parallel_mzi(back=True), ForwardMesh.idx"])
p("The JAX path computes the same matrix as the NumPy path",
  "matrix_fn(use_jax=True) and matrix_fn(use_jax=False) return the same outputs: the padding of columns to a common width with masked dummy nodes changes nothing, whatever order the scatter applies its writes in.",
  "every mesh with rail-disjoint columns in range (columns of unequal width included), every params and inputs, every scatter order",
  "depends on the widths of all columns and on an unspecified scatter order.",
  [FW + ": ForwardMesh.idx, _parallel_transform (use_jax), ForwardMesh.matrix_fn"])
p("A per-node error acts on the node it was given to",
  "A bs_error or loss set on a CouplingNode affects exactly the rails of that node in matrix(), independently of the order in which nodes are listed.",
  "every mesh and every permutation of its node list within the feed-forward order",
  "ranges over all orderings and error assignments.",
  [FW + ": ForwardMesh.__post_init__ (bs_errors, losses, node_idxs), ForwardMesh.all_errors, _parallel_transform"])
p("Propagation steps end in the mesh output",
  "The last slice returned by propagate / propagate_matrix_fn equals matrix_fn applied to the same inputs, with explicit=True as well as explicit=False.",
  "every mesh, params, errors, losses, inputs, both values of explicit",
  "real-parameter family over unbounded meshes.",
  [FW + ": ForwardMesh.propagate_matrix_fn, _parallel_propagate, _parallel_dc, _parallel_multiply"])
p("tree(n) is a well-formed balanced binary tree",
  "tree(n) has n-1 nodes whose ids are exactly 0..n-2, every node has top < bottom < n, every rail but the last is the top port of exactly one node, no rail is used twice in a column, a nulled top rail is not used in a later column, and the number of columns is ceil(log2 n).",
  "every n >= 2 (n_rails >= n)",
  "unbounded n.",
  [VE + ": _tree, tree", FW + ": ForwardMesh.invert_columns"])
p("tree(n, balanced=False) is a well-formed linear chain",
  "The chain has n-1 nodes, ids exactly 0..n-2, node i couples rails i and i+1 in column i, n-1 columns, and a nulled rail is not touched again.",
  "every n >= 2",
  "unbounded n.",
  [VE + ": _tree(balanced=False), tree"])
p("vector_unit routes the programmed vector to the last rail",
  "After vector_unit(v) the mesh matrix applied to v puts all power of v in the last rail with zero phase: the last output is a nonnegative real, and the power left in every other rail is at most the machine epsilon used in the split-ratio formula; the total power is preserved.",
  "every vector v of every length n >= 2 (zero entries included), balanced and chain, TOP and BOTTOM style, ideal couplers",
  "all complex vectors of all lengths, including degenerate zero pairs.",
  [VE + ": _program_vector_unit, vector_unit, tree", FW + ": ForwardMesh.parallel_nullify", CP + ": transmissivity_to_phase, direct_transmissivity"])
p("cascade / triangular / tree_cascade realise any unitary",
  "The matrix of the mesh returned by triangular(u) or tree_cascade(u) is u.",
  "every n and every n x n unitary u",
  "all unitaries of all sizes; the degenerate (zero-entry) ones are a null set that random tests never hit.",
  [MA + ": cascade, triangular, tree_cascade"])
p("cascade honours the requested phase style",
  "cascade(u, phase_style=s) returns a mesh of style s realising u.",
  "every unitary u and every supported phase style",
  "depends on what aggregation keeps for every list of subunits.",
  [MA + ": cascade", FW + ": ForwardMesh.aggregate"])
p("The triangular mesh packs into 2n-3 columns",
  "triangular(u) for an n x n unitary has n(n-1)/2 nodes with distinct ids 0..n(n-1)/2-1, 2n-3 columns, no rail used twice in a column, and tree_cascade has the same number of nodes in rail-disjoint columns.",
  "every n >= 2",
  "unbounded n.",
  [MA + ": cascade", VE + ": _tree"])
p("rectangular(u) has the Clements geometry",
  "rectangular(u) has n(n-1)/2 nodes, n columns (one for n = 2), column i holds the nearest-neighbour couplers whose top rail has the parity of i, rails are disjoint in each column and ids are exactly 0..n(n-1)/2-1 in list order.",
  "every n >= 2",
  "unbounded n.",
  [RE + ": rectangular"])
p("rectangular(u) realises any unitary",
  "The matrix of rectangular(u) is u.",
  "every n and every n x n unitary u",
  "all unitaries of all sizes.",
  [RE + ": rectangular, get_alpha_checkerboard, grid_common_mode_flow, checkerboard_to_param"])
p("butterfly(n) is a well-formed butterfly",
  "butterfly(n) never uses a rail twice in a column, all rails are in range with top < bottom; for n = 2^k it has k columns of n/2 nodes each.",
  "every n >= 2 (structure), every k >= 1 (counts)",
  "unbounded n.",
  [VE + ": _butterfly, butterfly"])
p("bowtie(u) uses n(n-1)/2 nodes",
  "The bowtie architecture of an n x n unitary has exactly n(n-1)/2 nodes, all with 0 <= top < bottom < n.",
  "every n >= 2",
  "unbounded recursion depth.",
  [MA + ": _bowtie, bowtie"])
p("transmissivity_to_phase inverts the MZI's split ratio",
  "For a transmissivity s reachable by the node's couplers, an MZI set to theta = transmissivity_to_phase(s, mzi_terms) sends exactly the fraction s of the power across; unreachable s is clamped to the nearest reachable one.",
  "every s, every pair of beam-splitter errors",
  "two real error parameters and a real target.",
  [CP + ": transmissivity_to_phase, CouplingNode.mzi_terms", FW + ": _parallel_mzi"])
p("parallel_nullify nulls the top port",
  "The theta, phi returned by parallel_nullify for a column make the top output of every node vanish (up to the machine-epsilon regularisation) whenever the split ratio is reachable; in the SYMMETRIC style it raises instead.",
  "every vector, every node, every error pair, every phase style",
  "all complex amplitudes incl. zeros, all errors.",
  [FW + ": ForwardMesh.parallel_nullify"])
p("dirichlet_matrix is unitary and routes v to one rail",
  "For a vector v with v[0] != 0, dirichlet_matrix(v) is unitary and v @ dirichlet_matrix(v) has amplitude norm(v) on the last rail and zero on all others; the same for the embedded form.",
  "every length and every complex v with nonzero first entry",
  "unbounded length.",
  [MA + ": dirichlet_matrix"])
p("csinv assembles a unitary",
  "csinv(l0, l1, r0, r1, theta) of unitary blocks is unitary (even and odd partitions).",
  "every block size, all unitary blocks, all angles",
  "unbounded size.",
  [MA + ": csinv"])
p("Column bookkeeping is consistent",
  "columns partitions the nodes of a mesh: each node appears in exactly one column, in list order; invert_columns is an involution that reverses the column order; offset and offset_column preserve this.",
  "every list of nodes and every sequence of invert/offset operations",
  "all histories of relabelling operations.",
  [FW + ": ForwardMesh.columns, invert_columns, offset, offset_column, aggregate"])
p("In-situ backpropagation measures the exact gradient",
  "Without noise, the phase gradient measured by in_situ_matrix_fn from three power readings equals the derivative of the real cost with respect to that phase shift.",
  "every mesh, input, adjoint vector and phase",
  "real-analytic identity over all fields.",
  [FW + ": ForwardMesh.in_situ_matrix_fn, phase_shift_localize"])
p("Non-MZI node matrices are lossless couplers too",
  "CouplingNode.mmi_node_matrix and coupling_matrix_phase with zero error and loss are unitary, like ideal_node.",
  "every theta, phi, s in [0, 1]",
  "continuous parameters.",
  [CP + ": coupling_matrix_phase, coupling_matrix_s, CouplingNode.ideal_node, CouplingNode.mmi_node_matrix"])
p("Matrix and functional derivatives agree",
  "YeeGrid.deriv (sparse matrices) and YeeGrid.diff_fn (rolls) compute the same forward and backward differences of every field.",
  "every grid shape, spacing, Bloch phase and field",
  "all shapes including size-1 axes, all fields.",
  [GR + ": YeeGrid.deriv, YeeGrid.diff_fn"])
p("The backward difference is minus the adjoint of the forward difference",
  "On a uniform grid <D_b f, g> = -<f, D_f g> for all fields, Bloch phase included.",
  "every grid shape, spacing, Bloch phase, all fields",
  "summation by parts over all fields.",
  [GR + ": YeeGrid.deriv"])
p("Discrete div curl = 0",
  "The backward divergence of curl_h's output vanishes and the forward divergence of curl_e's output vanishes for every field, in 1D, 2D and 3D.",
  "every shape, spacing, Bloch phase, every field",
  "all fields.",
  [GR + ": YeeGrid.curl_fn, YeeGrid.deriv", UT + ": curl_fn, d2curl_op"])
p("FDTD stepping without PML is linear and keeps zero fields zero",
  "Without sources the zero state is a fixed point of step; the evolution of a superposition of states and sources is the superposition of the evolutions.",
  "every grid, permittivity, number of steps, source sequence",
  "all states and unbounded step counts.",
  [FT + ": FDTD.step, _step_e, _step_h, zero_state"])
p("FDTD conserves charge",
  "Without PML and sources, the discrete divergence of D = eps E and of H is constant in time.",
  "every initial state and every number of steps",
  "unbounded histories.",
  [FT + ": FDTD.step, _step_e, _step_h"])
p("FDTD conserves the leapfrog energy and is stable at the built-in time step",
  "Without PML and sources the discrete energy is the same after any number of steps, and at the built-in dt with eps >= 1 it is nonnegative, so fields cannot blow up exponentially.",
  "every initial state, eps >= 1 (per cell) and every number of steps",
  "unbounded time, all fields.",
  [FT + ": FDTD.__init__ (dt), FDTD.step"])
p("JAX and NumPy FDTD steps inject the same source",
  "_step_e / _step_h with use_jax=True and use_jax=False give the same fields for the same source.",
  "every state, source and region",
  "all fields.",
  [FT + ": _step_e, _step_h"])
p("step does not modify the state passed to it",
  "FDTD.step returns a new state; a state kept by the caller (for instance the previous H in run_cw_port) is unchanged.",
  "every state and number of steps",
  "aliasing over all call histories.",
  [FT + ": FDTD.step, _step_e, _step_h, run_cw_port"])
p("The PML accumulates the convolution it documents",
  "The PML memory fields satisfy psi_{n+1} = b psi_n + c * difference, so a constant forcing leads to a geometric sum.",
  "every field history",
  "unbounded histories.",
  [UT + ": curl_pml_fn", FT + ": FDTD._step_e, _step_h, curl_e_pml, curl_h_pml"])
p("FDFD field conversions are mutually consistent",
  "For a field e solving the source-free problem, h2e(e2h(e)) gives back e.",
  "every grid, frequency, permittivity and source-free e",
  "all fields of all sizes.",
  [FF + ": FDFD.e2h, FDFD.h2e, FDFD.mat"])
p("The JAX field solver and the sparse operators solve the same equation",
  "The operator applied by get_fields_fn in 2D (TE/TM) is mat_ez / mat_hz, and in 3D is mat.",
  "every grid and permittivity",
  "all fields.",
  [FF + ": FDFD.mat, mat_ez, mat_hz, get_fields_fn", PR + ": TMOperator"])
p("PML stretching leaves the interior alone",
  "scpml returns factor 1 exactly on the cells outside the PML and factors with nonnegative absorption inside it; the derivatives in the interior are those without PML.",
  "every grid size and PML thickness accepted by the constructor",
  "all sizes; off-by-one boundaries.",
  [FF + ": FDFD.scpml", UT + ": pml_sigma"])
p("FDFD.from_simgrid preserves the simulation",
  "The FDFD built from a SimGrid has the same shape and the same PML thickness as the SimGrid.",
  "every SimGrid with PML",
  "all spacings and PML sizes.",
  [FF + ": FDFD.from_simgrid", GR + ": YeeGrid.__init__"])
p("Permittivity averaging stays within the material's range",
  "Each Yee-averaged permittivity lies between the minimum and maximum of the grid's permittivity; a homogeneous medium is unchanged; numpy and jax versions agree.",
  "every permittivity array of every shape",
  "all arrays.",
  [UT + ": yee_avg, yee_avg_jax, yee_avg_2d_z", GR + ": YeeGrid.eps_t"])
p("slice / mask / set_eps touch exactly the requested box",
  "For an in-bounds box, mask is 1 exactly on the cells of the box and 0 elsewhere, set_eps changes exactly these cells, and the number of cells per axis is round(size/spacing) (1 for zero sizes).",
  "every grid, center and size inside the grid",
  "all geometric placements; boundary cells.",
  [GR + ": Grid.slice, Grid.mask, Grid.set_eps, Grid.mask_fn"])
p("pml_safe_placement returns a point outside the PML",
  "The returned x, y lie at least pml thickness plus separation away from both edges, a point already safe is not moved, and the function is idempotent.",
  "every grid accepted by the constructor and every location",
  "all sizes; for narrow grids the two clamps conflict.",
  [GR + ": YeeGrid.pml_safe_placement, YeeGrid.__init__"])
p("Grid.add rejects patterns outside the grid",
  "add raises ValueError unless the pattern's bounding box is inside the grid.",
  "every bounding box",
  "16 combinations of violated bounds over all reals.",
  [GR + ": Grid.add"])
p("Port.size follows the port orientation",
  "For angles multiple of 90 degrees the size is (0, w, h) for horizontal and (w, 0, h) for vertical ports, any other angle raises; rotating by 180 does not change it.",
  "every real angle, width and height",
  "all angles incl. negative.",
  [GR + ": Port.size"])
p("Box alignment is exact and preserves size",
  "align moves the centre onto the target, halign/valign make the chosen edges coincide, translate composes additively, none changes the size, and mask covers exactly the box's pixels.",
  "all boxes and targets",
  "all real geometries.",
  [UT + ": Box"])
p("Reported modes are ordered and guided",
  "ModeSolver.solve returns betas in decreasing order, all real parts positive, each the square root of an eigenvalue, without failing when the problem has guided modes.",
  "every list of eigenpairs the eigensolver may return",
  "the eigensolver's output order is unspecified.",
  [MO + ": ModeSolver.solve"])
p("Mode overlap measurement separates forward and backward waves",
  "measure_fn is linear in the fields, returns (1, 0) for the mode itself and (0, 1) for its reversed copy, hence (a, b) for the superposition.",
  "every normalisable mode and all amplitudes",
  "all amplitudes and modes.",
  [MO + ": ModeLibrary.measure_fn"])
p("The Pardiso wrapper never reuses a stale factorisation",
  "Every solve(A, b) returns the solution for the matrix A passed in this call, whatever matrices, failures and free() calls came before.",
  "every history of solve / free calls, failures included",
  "all call histories; depends on collisions of a truncated string key.",
  [MK + ": Pardiso.solve, _check_mat, free"])
p("The sparse-solve gradient is the true adjoint",
  "The cotangents returned by spsolve's backward rule are the derivative of the solve: for every perturbation dA, db, <g, dx> = <gA, dA> + <gb, db>.",
  "every matrix, right-hand side, cotangent and perturbation",
  "all matrices of all sizes.",
  [PR + ": spsolve, spsolve_bwd"])
p("parse_excitation normalises every documented format",
  "Every documented excitation (name, (name, index) pair, list of them, dict of index lists) is turned into the list of its (name, index) pairs, in order.",
  "every finite excitation value",
  "recursive data of any size, including one-element and empty lists.",
  [PA + ": parse_excitation, parse_source_port"])
p("get_symmetry_fn returns a symmetric design",
  "The output is invariant under each requested reflection, and a symmetric input is unchanged, whatever combination of flags and array shape is used.",
  "all shapes (even and odd), all arrays, all flag combinations",
  "all arrays and parities.",
  [TR + ": get_symmetry_fn"])
p("get_mask_fn only lets the design region change",
  "Pixels outside the box(es) keep their initial value and pixels inside take the new value, also for overlapping boxes.",
  "all arrays and box lists",
  "all arrays and box overlaps.",
  [TR + ": get_mask_fn", UT + ": Box.mask"])
p("get_smooth_fn maps densities into [0, 1] monotonically",
  "The projection maps [0, 1] to [0, 1], fixes 0 and 1 and is monotone.",
  "every beta > 0, 0 < eta < 1 and density",
  "all real parameters.",
  [TR + ": get_smooth_fn"])
p("normalized_error is a real number in [0, 1], zero iff equal up to phase",
  "normalized_error(u)(uhat) is defined, lies in [0, 1] and vanishes exactly when uhat equals u up to a global phase.",
  "every unitary u and every estimate uhat, lossy ones included",
  "all matrices.",
  [UT + ": normalized_error", FW + ": ForwardMesh.matrix_opt"])
p("get_measure_fn pairs each measured port with its own orientation",
  "The i-th entry measured by get_measure_fn is the forward/backward amplitude of the i-th measure port with the sign of that port.",
  "every set of ports and measure list, whatever the set iteration order",
  "Python's set order is unspecified.",
  [SI + ": SimGrid.get_measure_fn, port_modes"])
p("The FDFD source/solution relation is Maxwell's equation",
  "solve(src) returns a field satisfying mat @ e = k0-scaled source for every source for which the linear solver returns a solution.",
  "every grid and source",
  "all fields.",
  [FF + ": FDFD.solve, FDFD.mat"])

p("In-situ backpropagation hands back the cotangent of the input",
  "The input gradient returned by the custom VJP of in_situ_matrix_fn is M^T g, the cotangent of the inputs, so that layers can be chained.",
  "every mesh, input and cotangent",
  "all real-valued inputs and cotangents.",
  [FW + ": ForwardMesh.in_situ_matrix_fn, matrix_bwd"])
p("bowtie(u) returns a mesh for every unitary",
  "bowtie(u) returns a mesh whose columns can be enumerated, for every n x n unitary.",
  "every n >= 2 and every unitary",
  "every size.",
  ["simphox/circuit/matrix.py: bowtie, _bowtie", FW + ": ForwardMesh.columns"])

p("The 2D TM solve returns Maxwell fields",
  "For tm_2d=True the pair (e, h) returned by FDFD.solve satisfies both discrete curl equations (up to the global sign convention of the time dependence) with the given source.",
  "every 2D grid, permittivity and source for which the linear solver returns an exact solution",
  "all permittivity distributions; tests use homogeneous or visually compared fields.",
  [FF + ": FDFD.solve, FDFD.mat_hz"])
p("FDFD is reciprocal",
  "For any two sources j1, j2 solved on the same grid, the volume-weighted sums of e1 . j2 and of e2 . j1 are equal (3D, 2D TE, 2D TM), with and without PML.",
  "every grid, permittivity, PML and pair of sources",
  "all pairs of sources on all grids.",
  [FF + ": FDFD.solve, FDFD.mat, mat_ez, mat_hz, scpml"])
p("The lossless FDFD operator conserves power",
  "On a grid without PML and with real permittivity, mat is Hermitian, Bloch phases included, so that a source does no net work on the field it creates.",
  "every uniform grid, Bloch phase, real permittivity, source",
  "all sizes and fields.",
  [FF + ": FDFD.mat", GR + ": YeeGrid.deriv"])

p("eps_t reflects the current permittivity",
  "The averaged permittivity eps_t used by every solver is the Yee average of the grid's current eps, after any sequence of fill, add, set_eps and reads.",
  "every history of edits and reads",
  "all interleavings of edits and reads; tests read once.",
  [GR + ": YeeGrid.eps_t, fill, add, set_eps"])
p("Grid.add extrudes the pattern over [zmin, zmin + thickness]",
  "On a 3D grid, add writes eps at exactly the z cells of [zmin, zmin + thickness] above the pattern's pixels.",
  "every spacing, zmin and thickness inside the grid",
  "all spacings, anisotropic ones included.",
  [GR + ": Grid.add"])

p("port_source accepts every documented source",
  "port_source({(port, mode): weight}) and port_source({port: weight}) return the weighted sum of the requested port modes, for every mode index the port guides.",
  "every set of ports, every source dictionary",
  "all dictionaries and mode indices; tests use the fundamental mode by index.",
  [SI + ": SimGrid.port_source, SimGrid.port_modes"])

p("poynting_fn(axis) is the Poynting vector along axis",
  "For each axis 0, 1, 2 poynting_fn(axis)(e, h) returns the axis component of e x conj(h), averaged to the cell corners.",
  "every axis and all fields",
  "all fields and axes; tests only use the default.",
  [UT + ": poynting_fn"])
p("TMOperator's backward rule is the exact transpose",
  "The cotangent TMOperator reports for the permittivity is the gradient of the assembled entries, for every real perturbation.",
  "all derivative matrices, index patterns, cotangents and perturbations",
  "all sizes and perturbation directions.",
  [PR + ": TMOperator.compile_operator_along_axis"])

p("2D cross-section modes satisfy Maxwell's equations",
  "For every mode ModeLibrary reports on a 2D cross section, the fields e and h satisfy both curl equations at every pixel for propagation with the reported beta, h is divergence free, and conversely every such Maxwell mode is an eigenvector of the solver's operator.",
  "every grid, spacing, wavelength, positive permittivity and eigenpair",
  "all cross sections and modes.",
  [MO + ": ModeSolver.waveguide_mode_matrix, solve, h2e, ModeLibrary.e, h"])
p("1D cross-section modes satisfy Maxwell's equations",
  "The fields e and h reported for a 1D mode satisfy both curl equations at every pixel, for TE and for TM.",
  "every 1D grid, spacing, wavelength, positive permittivity and eigenpair",
  "all profiles and modes.",
  [MO + ": ModeSolver.waveguide_mode_matrix, ModeLibrary.e, ModeLibrary.h"])
p("A guided mode carries power forward",
  "The power density poynting_fn computes from a 1D mode's own e and h is nonnegative along the propagation axis when beta > 0.",
  "every 1D mode, TE and TM",
  "all profiles and wavelengths.",
  [MO + ": ModeLibrary.e, h, sz, measure_fn", UT + ": poynting_fn"])
p("evolve, phase and beat_length agree",
  "evolve(length) multiplies a single mode by exp(i phase(length)), and the intensity of two interfering modes has period beat_length along the guide.",
  "every mode, weight, length, pixel",
  "all lengths and mode pairs.",
  [MO + ": ModeLibrary.evolve, phase, beat_length, n"])
p("evolve propagates the mode's own fields",
  "evolve(length) is the field of the mode at distance length, that is, mode times exp(i beta length) solves Maxwell's equations with the reported e and h.",
  "every cross section and mode",
  "all cross sections.",
  [MO + ": ModeLibrary.evolve, e, h"])
p("dispersion_sweep solves each wavelength",
  "dispersion_sweep(wavelengths) returns one solution per wavelength, solved at that wavelength.",
  "every array of wavelengths, with and without a progress bar",
  "all arrays.",
  [MO + ": ModeSolver.dispersion_sweep, ModeLibrary.update_wavelength"])
p("place puts the mode on the requested plane",
  "ModeLibrary.place returns an array of the grid's shape holding the mode on the requested cells and zero elsewhere, in 2D and in 3D.",
  "every grid, centre, size and orientation",
  "all orientations and grids.",
  [MO + ": ModeLibrary.place"])
p("view_fn preserves the Poynting direction",
  "view_fn re-orients fields so that the power along the view's normal is the z power of the viewed fields, for each axis.",
  "every axis, all fields",
  "all fields.",
  [GR + ": YeeGrid.view_fn", UT + ": poynting_fn"])
p("profile is inverse to view_fn",
  "Viewing a field that holds SimCrossSection.profile on a port gives back the mode, for each propagation axis.",
  "every axis, all modes",
  "all fields.",
  [SI + ": SimCrossSection.profile", GR + ": YeeGrid.view_fn"])
p("SimGrid.modes reflects the current permittivity",
  "modes(center, size, ...) returns the modes of the grid's current permittivity, after any sequence of edits and calls.",
  "every history of edits and calls",
  "all interleavings.",
  [SI + ": SimGrid.modes"])
p("to_2d returns the effective-index projection",
  "to_2d(wavelength, slab_loc) on a 3D grid returns a 2D simulation whose permittivity where the column equals the slab is the square of the slab's effective index.",
  "every 3D grid and wavelength",
  "all grids and wavelengths.",
  [SI + ": SimGrid.to_2d"])
p("s-parameters are normalised by the source port",
  "get_sim_sparams_fn divides the outgoing amplitudes by the incoming amplitude at the source's port and mode.",
  "every list of ports, source and measure_info",
  "all orders of measure_info.",
  [SI + ": SimGrid.get_sim_sparams_fn, get_measure_fn"])
p("A unidirectional port source launches into the device only",
  "In a uniform waveguide the field of port_source(unidirectional=True) vanishes behind the source and not in front of it.",
  "every beta, spacing, port position and orientation",
  "all spacings and wavelengths.",
  [SI + ": SimGrid.port_source"])
p("Common mode flow does not change the circuit",
  "grid_common_mode_flow moves phases so that only upper coupler arms and the outputs carry any, all in [0, 2 pi), and the transfer of the grid is unchanged whatever the couplers are; gamma may be omitted.",
  "every number of units and layers, all phases, all couplers, all inputs",
  "all sizes and real phases.",
  ["simphox/circuit/rectangular.py: grid_common_mode_flow"])
p("Sensitivity indices of the rectangular mesh",
  "Along each diagonal of nodes get_alpha_checkerboard places a permutation of 1..length and zero elsewhere; random_theta(n) lists them in the node order of rectangular.",
  "every n >= 2",
  "unbounded n.",
  ["simphox/circuit/rectangular.py: get_alpha_checkerboard, random_theta"])
p("rectangular_rows returns the rows of the nulling sequence",
  "rectangular_rows(mesh) returns n - 1 meshes, row i holding the i + 1 nodes of the i-th diagonal.",
  "every n >= 2",
  "unbounded n.",
  ["simphox/circuit/rectangular.py: rectangular_rows"])

p("Nullification basis vectors null their own column",
  "For a lossless mesh with equal left and right beam splitter errors and a phase style other than DIFFERENTIAL, nullification_basis has one vector per column, and propagating the c-th vector forward through columns 0..c leaves unit power on the lower rail of every node of column c and nothing on any other rail. propagate with column_cutoff=None is the full propagation.",
  "every well-formed mesh, parameter setting, phase style and column",
  "The vector is produced by a backward pass with a column cut-off; whether the cut-off boundary and the backward elements are exactly right must hold for every mesh shape, depth and phase setting.",
  ["simphox/circuit/forward.py: ForwardMesh.nullification_basis, propagate_matrix_fn, propagate"])
p("Programming by a null basis realises the target matrix on imperfect hardware",
  "Programming a mesh that has coupler errors by the nullification basis of another mesh with the same wiring, whatever its current phases, gives the target's transfer matrix up to output phases whenever every target split ratio is reachable by the hardware node; the gammas are untouched, and a SYMMETRIC mesh raises.",
  "every pair of meshes with the same wiring, target setting, starting phases and coupler errors",
  "Correctness depends on every column being nulled by light that crosses all already-programmed columns; it must hold for all meshes and errors, not a sampled few.",
  ["simphox/circuit/forward.py: ForwardMesh.program_by_null_basis, parallel_nullify, nullification_basis"])
p("Programming a mesh by its own null basis restores its phases",
  "If every theta is strictly between 0 and pi and every phi in [0, 2 pi), programming a mesh from any starting phases by its own nullification basis restores exactly the thetas and phis the basis was computed with.",
  "every well-formed lossless TOP or BOTTOM mesh, phase setting and starting point",
  "It is an inverse-function claim over a continuum of phases and all mesh shapes.",
  ["simphox/circuit/forward.py: ForwardMesh.program_by_null_basis, nullification_basis"])

p("opt_run works without a progress bar or visualisation",
  "opt_run's pbar and viz arguments are optional: a run over problems with distinct simulations and sources returns a record whether or not a progress bar and an OptViz are given.",
  "every optimiser, list of problems, number of iterations, intervals and starting simulations",
  "Absence of an exception for every combination of options and problem lists is a universal claim.",
  ["simphox/opt.py: opt_run, opt_viz"])
p("Costs, parameters and final permittivities of an optimisation",
  "A run that returns reports exactly one cost per iteration; cost k is the mean over the problems of their cost at the parameters held before update k (a problem with a source is evaluated on the simulation's result, one without on the raw parameters); the returned parameters are those after the last update, and every simulation is left with the permittivity its last problem's transform gives for the returned parameters.",
  "every optimiser, list of problems, number of iterations and intervals for which the run returns",
  "It relates the whole history of a stateful loop, for every length and every aliasing of simulation objects, to the recurrence of the optimiser.",
  ["simphox/opt.py: opt_run, OptProblem"])
p("Recorded metrics, permittivities and fields belong to the labelled iteration",
  "With an interval k > 0 the permittivity, field or metric series recorded for a simulation holds exactly the iterations divisible by k, in order, and the three entries labelled i belong to the same parameters (those of cost i).",
  "every optimiser, list of problems with distinct simulations, number of iterations and intervals",
  "It is a history property: entries of different series recorded at different points of the loop body must agree in every iteration.",
  ["simphox/opt.py: opt_run"])
p("metric_interval thins out the recorded metrics",
  "With metric_interval = k the metrics are recorded every k iterations and the run returns.",
  "every optimiser, non-empty list of problems, interval and number of iterations",
  "The failure depends on the relation of interval and iteration count, over all of them.",
  ["simphox/opt.py: opt_run"])
p("Problems without simulation, without source, or sharing a simulation can be combined",
  "opt_run accepts lists that mix problems with a simulation and source, problems without (sim or source None) and problems that share a simulation, and attributes each result to the simulation it came from.",
  "every optimiser and list of problems",
  "Attribution must be right for every mixture and order of problems.",
  ["simphox/opt.py: opt_run, opt_viz, OptProblem"])

p("hessian_vector_unit returns the Hessian of the misfit",
  "For every vector v with non-zero norm, entry (a, b) of hessian_vector_unit(v, balanced) is the second partial derivative, by phases a and b of the list theta_0..theta_(n-2), phi_0..phi_(n-2), of the squared distance between the programmed unit's output for conj(v)/|v| and the last basis vector, at the programmed phases; the matrix is symmetric.",
  "every vector with n >= 2 entries and positive norm, both tree structures, every pair of phases",
  "A derivative is a limit over infinitely many phase settings, and the recursion over tree nodes must be right for every n and vector.",
  ["simphox/circuit/vector.py: hessian_vector_unit, _program_vector_unit, _tree"])
p("hessian_fd and hessian_vector_unit agree",
  "The finite-difference Hessian with step e equals the analytic one up to the factor (sin e / e)^2, entry by entry, for every non-zero step (up to the square root of 72(n-1) times the machine epsilon in the split-ratio formula).",
  "every vector with n >= 2 entries and positive norm, both tree structures, every non-zero step, every entry",
  "The tests compare the two at one step size and a few sizes with a tolerance; the exact relation is universal in vector and step.",
  ["simphox/circuit/vector.py: hessian_fd, hessian_vector_unit"])
p("A programmed vector unit sits at a global minimum of its misfit",
  "For the vector it was programmed with, the unit's misfit is zero, no phase setting gives a negative misfit, and the derivative by every theta and phi is zero at the programmed phases (up to 2(n-1) times, for the squared derivative 8(n-1) times, the machine epsilon in the split-ratio formula).",
  "every vector with n >= 2 entries and positive norm, both tree structures, every competing phase setting",
  "Optimality compares with all phase settings.",
  ["simphox/circuit/vector.py: balanced_tree, unbalanced_tree, _program_vector_unit", "simphox/circuit/forward.py: matrix_fn"])

p("Cosine-sine decomposition round trip",
  "For every unitary u, csinv(*cs(u)) is u; the four block factors cs returns are unitary and its angles lie in [0, pi/2].",
  "every unitary of every size n >= 2, even or odd, and every SVD and QR routine meeting its contract",
  "The decomposition must be right for all unitaries including those with zero blocks or repeated singular values, where the result depends on which factorisation LAPACK picks.",
  ["simphox/circuit/matrix.py: cs, csinv"])
p("bowtie(u) implements u",
  "For every unitary u the mesh returned by bowtie(u) has a transfer matrix equal to u up to a global phase.",
  "every unitary of every size n >= 2 and every SVD and QR routine meeting its contract",
  "It relates a recursive matrix decomposition to the product of all nodes of the mesh, for all sizes and all unitaries.",
  ["simphox/circuit/matrix.py: bowtie, _bowtie, cs", "simphox/circuit/forward.py: matrix_fn"])

p("The fidelity cost is optimal exactly at the requested outputs",
  "For a requested set of output amplitudes, the cost returned by fidelity lies in [-1, 0] for every passive output and equals -1 exactly when the measured amplitudes are the requested ones, normalised, up to one global phase.",
  "every measured-mode list, requested amplitudes, insertion weight and output vector", "a continuum of outputs; the optimum has to be unique among all of them.",
  ["simphox/sim.py: SimGrid.fidelity"])
p("Splitter metrics and TE ratio are shares of the power",
  "splitter_metrics returns reflectivity and transmissivity in [0,1] that add up to 1 and are the shares of the two outputs; insertion is the total power and bounds the parts; te_ratio is the share of the Hx power, invariant to scaling, 1 exactly without Hy.",
  "every amplitude vector with nonzero output power; every mode field", "a continuum of fields.",
  ["simphox/utils.py: splitter_metrics", "simphox/mode.py: ModeLibrary.te_ratio"])
p("The Gaussian pulse is centred, has the requested width and is cut off cleanly",
  "gaussian_fn returns a pulse that is 0 up to start_time, peaks with modulus 1 at start_time + center_time_factor * pulse_width, is symmetric about its peak, has the carrier of the given wavelength (and chirp), and has a width proportional to pulse_width.",
  "every wavelength, pulse width, start time, centre factor, chirp and time", "a continuum of parameters.",
  ["simphox/utils.py: gaussian_fn"])
p("A CW run can be resumed from its final state",
  "Running run_cw_port for a steps and then, from the returned state, for b steps gives the fluxes and the state of one run of a + b steps.",
  "every grid, source, wavelength, initial state and numbers of steps", "unbounded step counts and all states.",
  ["simphox/fdtd.py: FDTD.run_cw_port"])
p("Source weights scale the CW excitation",
  "The weights given in a source dictionary scale the injected modes of run_cw_port.",
  "every source dictionary, grid and number of steps", "all weights and step counts.",
  ["simphox/fdtd.py: FDTD.run_cw_port", "simphox/parse.py: parse_source_port"])
p("CW fluxes are measured at the wavelength of the run",
  "Every flux returned by run_cw_port is the measurement, against the port modes at the wavelength of the run, of the fields of its step with H averaged to the time of E.",
  "every grid, wavelength and number of steps", "unbounded histories.",
  ["simphox/fdtd.py: FDTD.run_cw_port", "simphox/sim.py: SimGrid.get_measure_fn"])
p("Every documented source format is normalised to the same table",
  "parse_source_port maps a port name, a (port, mode) pair, a list of those or a dictionary to the table of exactly the (port, mode) pairs it asks for, with their weights, each once.",
  "every source description", "lists of any length, any nesting of formats.",
  ["simphox/parse.py: parse_source_port"])

p("psvd(a) implements a",
  "The two meshes and the singular values returned by psvd(a), applied in turn to any input, output a times the input; singular values are nonnegative and sorted.",
  "every matrix with at least two rows and columns, every valid SVD, every input", "all sizes and a continuum of matrices.",
  ["simphox/circuit/matrix.py: psvd", "simphox/circuit/rectangular.py: rectangular"])
p("Aggregated meshes compose",
  "Aggregating meshes whose ids and columns were offset by what comes before gives a mesh whose matrix, with the concatenated parameters, is the product of the meshes' matrices, in both directions of light.",
  "every list of evaluable meshes of default phase style on the same rails, all parameters and inputs", "unbounded lists of meshes of any size.",
  ["simphox/circuit/forward.py: ForwardMesh.aggregate, offset, offset_column, matrix_fn"])
p("column_ordered is the same circuit in light order",
  "column_ordered lists the same nodes sorted by column, is idempotent, and has the same matrix as the original mesh for all parameters.",
  "every evaluable mesh, all parameters", "all wirings and errors.",
  ["simphox/circuit/forward.py: ForwardMesh.column_ordered"])
p("add_error_variance perturbs only the errors",
  "add_error_variance returns a mesh of the same wiring, style and column count whose errors and losses are the old ones plus the scaled draws; zero deviations give the same matrix; without loss deviation a lossless mesh still conserves power; equal splitter errors stay equal.  phases() shifts the phases by the drawn errors, output phases only on request.",
  "every evaluable mesh, all deviations and all random draws", "has to hold for every draw of the random generator.",
  ["simphox/circuit/forward.py: ForwardMesh.add_error_variance, phases"])
p("A mesh stays usable after offset or aggregate",
  "After mesh.offset(k), or after a mesh was passed to aggregate, the mesh can still be evaluated.",
  "every list of meshes, every offset", "aliasing between all argument lists.",
  ["simphox/circuit/forward.py: ForwardMesh.__post_init__, offset, aggregate"])
p("A mesh owns its parameters",
  "The parameters of a mesh change only by assigning to or programming that mesh.",
  "every history of reads, assignments and in-place writes", "aliasing over all histories.",
  ["simphox/circuit/forward.py: ForwardMesh.params, program_by_null_basis, InSituBackpropLayer"])
p("Envelope estimates agree with the meshes",
  "The layer counts of the envelope calculators are the columns of the tree and rectangular meshes the library builds, footprint is length times height, the equivalent output count is the least integer that matches, and no estimate predicts gain.",
  "every size n >= 3 (n = 2 counts one column twice), all lengths and losses", "all sizes.",
  ["simphox/circuit/envelope.py: binary_svd_depth_size, rectangular_depth_size, binary_equiv_cascade_size"])
p("parallel_mzi returns the elements of the mesh",
  "mesh.parallel_mzi() returns the node elements with which the mesh's matrix is evaluated.",
  "every mesh and parameters", "a continuum of parameters.",
  ["simphox/circuit/forward.py: ForwardMesh.parallel_mzi"])

p("Guided modes are orthogonal",
  "Two modes of a ModeLibrary with different propagation constants carry no power together: for a 2-D cross section the sum over the cells of e_i x conj(h_j) along the propagation axis is zero, for a 1-D cross section the mode arrays are orthogonal vectors. Hence the power of a superposition returned by evolve is the weighted sum of the powers of its modes and is the same at every length.",
  "all lossless cross sections (any shape, spacing, wavelength, positive permittivity), all pairs and all finite sets of modes with pairwise different betas, all weights and lengths",
  "A statement about every permittivity distribution and every pair of eigenvectors of an operator that is not symmetric; a test checks a few waveguides to rounding error.",
  ["simphox/mode.py: ModeSolver.waveguide_mode_matrix, ModeLibrary.e, ModeLibrary.h, ModeLibrary.evolve"])
p("No effective index exceeds the largest index of the cross section",
  "Every mode the solver can return satisfies beta <= k0 * sqrt(max eps), so the default shift (k0 sqrt(max eps))^2 handed to the eigensolver lies at or above every guided eigenvalue. For 1-D cross sections every eigenvalue is real, so keeping only real parts loses nothing.",
  "all cross sections with positive permittivity, all eigenpairs",
  "Quantifies over all permittivity distributions and all eigenpairs; the numerical solver only ever shows the few eigenvalues nearest the shift.",
  ["simphox/mode.py: ModeSolver.solve, ModeSolver.waveguide_mode_matrix"])
p("Measuring a mode in another mode's fields gives zero",
  "measure_fn(i) applied to the fields e(j), h(j) of another mode j with a different propagation constant returns (0, 0): mode amplitudes can be read off a superposition one by one.",
  "all cross sections, both polarisations, all pairs of modes with different betas",
  "The half-cell averages in the Poynting vector and the 1/eps weight of TM fields decide it; on the symmetric waveguides of tests the crosstalk cancels.",
  ["simphox/mode.py: ModeLibrary.measure_fn", "simphox/utils.py: poynting_fn"])
p("FDTD has a finite propagation speed",
  "After n calls of step, the fields at a cell depend only on the permittivity, the initial state (with its PML memories) and the sources within n cells of it on the periodic grid: changing anything further away changes nothing there.",
  "every grid, every pair of permittivities, states and source schedules agreeing near the cell, every number of steps, numpy and jax, with and without PML",
  "all pairs of simulations and unbounded step counts; tests compare single runs.",
  ["simphox/fdtd.py: FDTD.step, _step_e, _step_h, curl_e_pml, curl_h_pml", "simphox/utils.py: curl_fn, curl_pml_fn, yee_avg"])
p("The FDTD absorbing layers act only in their own cells",
  "A simulation with PML and one without it, from the same fields and sources, agree after n steps at every cell more than n cells away from the layers.",
  "every grid, layer thickness, state (any memories), source schedule and number of steps",
  "unbounded histories, all layer geometries; an off-by-one region is invisible in plots.",
  ["simphox/fdtd.py: FDTD._set_pml, _step_e, _step_h"])
p("FDTD with PML is linear and leaves uniform static fields alone",
  "The evolution with PML of a superposition of states (memories included) and sources is the superposition of the evolutions; spatially uniform fields with empty memories never change without sources; numpy and jax agree without sources.",
  "every grid, layers, state, schedule, complex weights, number of steps",
  "all states and unbounded step counts.",
  ["simphox/fdtd.py: FDTD.step, _step_e, _step_h, zero_state"])
p("The PML coefficients damp",
  "Every memory factor b lies strictly between 0 and 1 and every weight c in (-1, 0]; c vanishes exactly for differences along the axes parallel to the layer and outside it; both get stronger towards the outer boundary.",
  "every 3-D grid and spacing, thickness accepted by the constructor, exponent >= 1, negative log reflection, positive correction",
  "all parameter values and cells; real-analysis inequality.",
  ["simphox/fdtd.py: FDTD._set_pml", "simphox/utils.py: pml_sigma"])
p("The two PML layers of an axis are mirror images",
  "The conductivity profile of the upper layer is the mirror image of the lower layer's, so a mirror-symmetric device is simulated symmetrically.",
  "every axis length, spacing, thickness and PML parameters",
  "all thicknesses; tests only look at fields.",
  ["simphox/utils.py: pml_sigma", "simphox/fdtd.py: FDTD._set_pml"])
p("FDTD accepts a PML in every dimension",
  "FDTD(size, spacing, pml=...) constructs a simulation with layers of the given thickness whenever the thickness is more than 3 cells and less than half of every axis, in 1, 2 and 3 dimensions.",
  "every grid dimension, shape and thickness",
  "all shapes; the tests never construct an FDTD with PML below 3-D.",
  ["simphox/fdtd.py: FDTD.__init__, _set_pml", "simphox/grid.py: YeeGrid.__init__"])

p("block_design draws the requested cross section",
  "Grid.block_design draws two waveguides of the given size, mirror images about the grid's centre, `gap` apart (one when gap is 0), standing at wg_height (centred when not given), with the perturbing blocks `sep` away from them beside or above; a gap of whole cells is drawn with that many cells.",
  "every grid, Box, height, gap, separation and block",
  "continuous geometry plus rounding to pixels for every size; rounding bugs appear only at particular alignments.",
  ["simphox/grid.py: Grid.block_design, Grid.set_eps", "simphox/utils.py: Box"])
p("block_design is repeatable",
  "The permittivity drawn by block_design does not depend on where the waveguide Box stood before the call (it is moved by the call), and repeating the call leaves the grid unchanged.",
  "every grid, initial permittivity, design and position of the Box",
  "all initial positions and permittivities.",
  ["simphox/grid.py: Grid.block_design", "simphox/utils.py: Box.align, valign, translate, copy"])
p("Substrate and rib layers",
  "After block_design(sub_height, rib_y) or from_pattern(sub_z, rib_t), before the boxes are drawn, cells whose top is at most the substrate height hold the substrate permittivity, cells up to the rib's top hold the core's, and others keep theirs.",
  "every grid, heights >= 0, permittivities and cell",
  "all heights including the default 0.",
  ["simphox/grid.py: Grid.fill, block_design", "simphox/fdfd.py: FDFD.from_pattern", "simphox/fdtd.py: FDTD.from_pattern"])
p("When from_pattern can build a grid",
  "from_pattern(height, component_t, ...) builds a grid exactly when height and component_t are both positive (3-D) or both not (2-D); otherwise it raises.",
  "every height and thickness",
  "all real pairs.",
  ["simphox/fdfd.py: FDFD.from_pattern", "simphox/fdtd.py: FDTD.from_pattern", "simphox/grid.py: Grid.__init__"])
p("Grid.add is all or nothing",
  "If Grid.add raises, the grid's permittivity, components and ports are unchanged; if it returns, one component was added and its ports replace the old ones.",
  "every grid, pattern, permittivity, zmin/thickness (given or not)",
  "all failure points.",
  ["simphox/grid.py: Grid.add"])
p("Editing keeps the shape of the permittivity",
  "set_eps never changes the shape of the permittivity array, so fill keeps working along the last axis of the grid.",
  "every grid shape",
  "all shapes, including axes of one cell.",
  ["simphox/grid.py: Grid.set_eps, fill"])
p("Grids do not share permittivity",
  "Editing one grid (fill, add, set_eps, block_design) never changes the permittivity of another grid or an array of the caller.",
  "every pair of grids and sequence of edits",
  "aliasing over all histories.",
  ["simphox/grid.py: Grid.__init__, fill, add, set_eps", "simphox/fdfd.py: FDFD.from_simgrid"])
p("Propagated fields retrace under time reversal",
  "In a lossless mesh (any splitting errors), propagating conj(b[-1]) forward, where b = propagate(x, back=True), returns conj(b)[::-1] slice by slice; and conj(f[-1]) sent backward, f = propagate(x), returns conj(f)[::-1].",
  "every lossless TOP or BOTTOM mesh, all phases, splitting errors and fields",
  "all meshes and fields; the digital in-situ scheme pairs the k-th backward slice with the k-th forward slice.",
  ["simphox/circuit/forward.py: propagate_matrix_fn, _parallel_propagate"])
p("rectangular_phase_shift_powers lists the shifter powers in node order",
  "For the fields propagate() returns on rectangular(u), rectangular_phase_shift_powers gives, in node order, the fraction of the power in the top arm before each theta and each phi shifter, and the fraction on every output rail.",
  "every size n, all phases and inputs",
  "all sizes; strided slicing depends on the parity of n.",
  ["simphox/circuit/rectangular.py: rectangular_phase_shift_powers"])
p("Phases are angles",
  "matrix_fn (both directions) is unchanged when any theta, phi or gamma is shifted by whole multiples of its period: 2 pi, except for shifters that apply half angles to both arms (theta of SYMMETRIC, theta and phi of DIFFERENTIAL), whose period is 4 pi and where one turn of 2 pi negates the node.",
  "every mesh, style, splitter error, loss, direction, parameters, input and number of turns",
  "all meshes and an unbounded set of equivalent phase settings; nullification returns phases modulo 2 pi and relies on this.",
  ["simphox/circuit/forward.py: matrix_fn, _parallel_mzi"])
p("Small phase errors cause small output errors",
  "If in column c no node's |theta - theta'| + |phi - phi'| exceeds D_c and no |gamma - gamma'| exceeds G, then the outputs of matrix_fn at the two settings differ by at most (sum of D_c over the columns + G) times the input amplitude; nodes of one column count only with their maximum.",
  "every well-formed attenuating mesh, style, splitter errors, direction, input, and pair of parameter settings",
  "a bound over a continuum of perturbations of any number of phases.",
  ["simphox/circuit/forward.py: matrix_fn, _parallel_mzi, _parallel_transform"])
p("The listing order of the nodes does not matter",
  "Two lists with the same nodes (distinct ids) in different order give meshes with the same matrix_fn.",
  "every node list and permutation of it",
  "all permutations of all node lists.",
  ["simphox/circuit/forward.py: ForwardMesh.__post_init__, columns, matrix_fn"])
p("Uncoupled rails are independent",
  "If no node couples the rails S to the other rails, the outputs on S depend only on the inputs on S, on the phases of the nodes on S and on the gammas of S; matrix entries between S and the rest are zero, and a rail without nodes only gets its gamma.",
  "every well-formed mesh, set of rails, parameters, inputs, both directions",
  "all meshes and all ways of splitting their rails.",
  ["simphox/circuit/forward.py: matrix_fn, _parallel_transform"])
p("FDTD without PML is reversible in time",
  "Take E after n steps of FDTD.step and minus the H before the last of them: k more steps lead back to E after n - k steps and minus the H before that. With electric current sources on the numpy backend the same holds if the sources are played backwards with the opposite sign.",
  "every grid, permittivity, initial state, n, k; every schedule of electric sources (numpy)",
  "ranges over all states and run lengths",
  ["simphox/fdtd.py:step", "simphox/fdtd.py:_step_e", "simphox/fdtd.py:_step_h"])
p("FDTD commutes with translations of the periodic grid",
  "Rolling the permittivity, the initial fields and the source regions by any number of cells along any axis rolls the fields of every later step by the same number of cells.",
  "every grid without PML, axis, shift, initial state and schedule of sources, both backends",
  "ranges over all shifts, states and schedules",
  ["simphox/fdtd.py:step", "simphox/grid.py:diff_fn", "simphox/utils.py:yee_avg"])
p("FDTD commutes with mirror images",
  "Mirroring the permittivity cell by cell, the fields (each component at its Yee position, E as a vector, H as a pseudovector) and the electric currents gives the mirror image of the fields at every later step.",
  "every grid without PML, axis, initial state and schedule of electric sources, both backends",
  "ranges over all states and schedules",
  ["simphox/fdtd.py:step", "simphox/grid.py:diff_fn", "simphox/utils.py:yee_avg"])
p("No unit of length",
  "Multiplying all spacings by u > 0 and dividing the currents by u leaves the FDTD fields of every step unchanged; multiplying all pixels and the wavelength by u divides the FDFD matrices (3-D, TE, TM) by u^2, so the normalised fields are the same.",
  "every grid, u, initial state, schedule, both backends; every FDFD problem",
  "ranges over all grids and scale factors",
  ["simphox/fdtd.py:step", "simphox/fdtd.py:__init__", "simphox/fdfd.py:mat", "simphox/fdfd.py:mat_ez", "simphox/fdfd.py:mat_hz"])
p("Numerical dispersion of FDTD",
  "In a uniform medium a transverse plane wave with m_a periods across the grid stays that plane wave, E and H turning by e^{-i w dt} per step, for every w with (2 sin(w dt/2))^2 = dt^2/eps sum_a (2 sin(pi m_a/n_a)/spacing_a)^2; such a real w exists for every m when eps >= 1.",
  "every grid (1-3 dimensions), mode numbers, polarisation, permittivity, number of steps, both backends",
  "ranges over all modes and run lengths",
  ["simphox/fdtd.py:step", "simphox/fdtd.py:__init__", "simphox/grid.py:diff_fn"])
p("Plane waves and the FDFD operators",
  "Without PML and in a uniform medium the FDFD matrices multiply a (transverse) Bloch plane wave by K^2 - k0^2 eps (3-D and TE) or K^2/eps - k0^2 (TM), K being the lattice wave vector (2 sin(theta_a/2)/spacing_a).",
  "every shape, spacing, Bloch phases, wave fitting them, polarisation, permittivity, wavelength",
  "ranges over all waves and grids",
  ["simphox/fdfd.py:mat", "simphox/fdfd.py:mat_ez", "simphox/fdfd.py:mat_hz", "simphox/grid.py:deriv"])
p("CW steady states of FDTD are FDFD solutions",
  "Take the FDFD solution of a current distribution on the grid of an FDTD simulation without PML, at the wave number 2 sin(om dt / 2) / dt. Start FDTD from these fields (H half a step later) and drive it with the same currents oscillating at om: after n steps E is the FDFD field times e^{-i om n dt} and H times e^{-i om (n + 1/2) dt}, for every n, eps, shape and current. Source-free solutions are resonances with either backend. Conversely, a step that only turns the phases is a solution of the frequency-domain equations.",
  "every grid and permittivity, frequency, current distribution, exact linear solver and number of steps",
  "A test compares two simulations of one device up to a tolerance; that the two solvers discretise the same equations, and the exact frequency shift between them, is a statement about all devices.",
  ["simphox/fdtd.py: FDTD.step, FDTD.run", "simphox/fdfd.py: FDFD.mat, FDFD.solve"])
p("FDTD energy balance with sources",
  "With the NumPy stepping and no PML, the leapfrog energy changes in each step by exactly minus dt times the work of the electric current on the E fields before and after the step, minus dt times the work of the magnetic currents on H; no energy is created or lost elsewhere, for any list of sources, and the balance adds up over a run.",
  "every grid, permittivity, state, source lists and number of steps",
  "Tests look at a few fields; an unphysical gain or loss shows only as a drift in particular runs.",
  ["simphox/fdtd.py: FDTD.step, FDTD._step_e, FDTD._step_h"])
p("FDTD is reciprocal",
  "With the NumPy stepping and no PML, emitter and receiver can be exchanged: a current of component c at cell p with any waveform produces at cell q the component d of E that the same current of component d at q produces in component c at p, after any number of steps and in any permittivity. More generally the convolution over time of the currents of one run with the fields of another is symmetric. (The jax backend, whose sources overwrite the field, is not reciprocal.)",
  "every grid, permittivity, pair of cells, pair of components, waveform; every two schedules of electric currents",
  "Reciprocity relates two whole runs of every device; a test can compare one pair of cells in one device.",
  ["simphox/fdtd.py: FDTD.step"])
p("matrix_opt reports the distance to the target and takes bounded steps against the gradient",
  "matrix_opt(uopt, params, step_size) starts from the given phases (or the mesh's own). Each update_fn(i, state) returns the normalized error at the phases it was given: for a lossless mesh and a unitary target a number in [0, 1], equal to 0 exactly when the mesh implements uopt up to a global phase. The gradient it follows exists. The first update moves every phase by step_size * g / (|g| + 1e-8) against its partial derivative g, and no update after any history of updates moves a phase by more than 7.3 step sizes.",
  "for every lossless mesh, unitary target, phase setting, gradient, step size and history of updates",
  "the gradient's existence is a statement about limits over every path of phases, the step bound is an invariant of every update history",
  ["simphox/circuit/forward.py: ForwardMesh.matrix_opt", "simphox/utils.py: normalized_error"])
p("gaussian_fft returns the pulse response of measured profiles",
  "gaussian_fft(profiles, pulse_width, center_wavelength, dt, t0, linear_chirp) is, for each profile, the (circular) response of the device with that spectrum to the chirped Gaussian pulse sampled every dt and centred at t0 (default: the middle sample). An all-ones profile returns the pulse, whose modulus peaks at 1 at its centre; a passive profile never increases the pulse's energy and a lossless one keeps it. Several profiles measured at the same times, one per column, are treated independently.",
  "for every number of samples, profile, pulse parameter and number of profiles",
  "the convolution theorem and energy conservation range over all sample counts and complex profiles",
  ["simphox/utils.py: gaussian_fft"])
p("Random initial phases give a uniformly distributed row",
  "A vector unit built by the library starts with random phases. Averaged over the draws, the chain unit of n outputs sends from every input exactly 1/n of the power to its last output, whatever the phis, and each drawn split ratio is realised exactly by the node it is meant for. The same is claimed for the balanced tree: that holds if each node draws with its own alpha and beta, but the code draws in list order and uses the draws in node order, so a five-output balanced tree has an input with average power 3/10 instead of 1/5.",
  "every n >= 2, rail count, phase style, input, phi and gamma, every generator of independent split ratios with mean beta/(alpha+beta)",
  "It is a statement about the distribution of the phases: a test sees single draws, and the averages for one size say nothing about others.",
  ["simphox/circuit/forward.py: ForwardMesh.__attrs_post_init__, rand_s, rand_theta", "simphox/circuit/vector.py: tree, _balanced_tree", "simphox/utils.py: random"])
p("Backpropagation layers implement their mesh; networks of them never amplify",
  "Without noise, InSituBackpropLayer sends every row of a batch through its mesh with the current parameters and then applies the activation; a new layer starts from the mesh it was given (gammas zeroed when asked). Networks of any depth of lossless layers without activation preserve the power of each row, and with attenuating meshes and nonexpansive activations never separate two inputs further, whatever the trained phases. Phase noise changes no power, amplitude noise scales it by (1 + std*draw)^2. Noise is drawn afresh at every call only without jit: with use_jit (the default) every call repeats the first call's noise.",
  "every well-formed mesh, parameters, batch, activation, number of layers, noise level and draws, every number of calls",
  "Quantifies over all parameters training can reach, all depths and all noise draws.",
  ["simphox/circuit/forward.py: InSituBackpropLayer, ForwardMesh.in_situ_matrix_fn"])
p("Shot noise leaves measured gradients unbiased",
  "The in situ gradient measured with photodetector shot noise of any strength equals, on average over the (zero-mean) draws, the noiseless measured gradient, for every theta, phi and gamma entry and every batch; with zero noise it is that gradient for every draw.",
  "every mesh, parameters, batch of inputs and cotangents, shot noise strength, gradient entry, and every average under which affine functions of the draws have their noiseless value",
  "A statement about expectations over random draws for all meshes.",
  ["simphox/circuit/forward.py: ForwardMesh.in_situ_matrix_fn (matrix_bwd, both values of all_analog)"])
p("Random splits are beta distributed and beta_phase is their phase density",
  "beta_pdf(x, a, b) is a probability density on [0, 1]. A random phase drawn by the mesh is below t exactly for a fraction pi * (integral of beta_phase(., beta, alpha) up to t) of the uniform numbers, i.e. the phase has density pi * beta_phase. beta_phase itself should therefore be that density, but it carries an extra factor 1/pi: it integrates to 1/pi, not 1.",
  "all integers alpha, beta >= 1, all phase intervals, every mesh node without splitter error, every uniform number",
  "Statements about integrals and distributions cannot be settled by sampling.",
  ["simphox/utils.py: beta_pdf, beta_phase", "simphox/circuit/forward.py: ForwardMesh.rand_s, rand_theta"])
p("A component's model holds its ports' s-parameters at each wavelength",
  "Component.from_fdfd(pattern, ..., wavelengths, in_ports, out_ports, profile_size_factor) gives a component whose model, selected at a wavelength, an input port and an output port, is the amplitude leaving the output port over the amplitude entering the input port when that port is excited, source and measurement using the ports' modes at that wavelength and with that profile size factor; ports can be named in any order and a subset of them can be asked for.",
  "all patterns, wavelength lists, port names and orders, profile size factors",
  "the mode used for source and measurement depends on the wavelength; a test at 1.55 um with the ports in dictionary order cannot see that the wavelength never reaches them",
  ["simphox/circuit/component.py:Component.from_fdfd", "simphox/sim.py:SimGrid.get_sim_sparams_fn", "simphox/sim.py:SimGrid.port_source", "simphox/sim.py:SimGrid.get_measure_fn"])
p("decorate labels field samples with their positions",
  "For every grid, SimGrid.decorate attaches to each sample of E and H the position the sample stands for on the Yee grid, the positions for which the simulation's curls map plane waves to plane waves.",
  "all grid shapes and spacings, all field components, cells and plane waves",
  "a label half a cell off is invisible in plots and in any test with an axis-aligned wave; only an oblique wave at every cell shows it",
  ["simphox/sim.py:SimGrid.decorate", "simphox/grid.py:Grid.__init__", "simphox/grid.py:YeeGrid.diff_fn"])
p("shift_slice moves a selection along one axis",
  "shift_slice(t, shift, axis) returns t with its entry on axis selecting the indices moved by shift, the other entries unchanged, and returns t unchanged when that entry is a slice with an open end.",
  "all tuples of ints and slices, shifts and axes",
  "the branch depends on the entry's type and ends; tests exercise integer entries",
  ["simphox/utils.py:shift_slice"])
p("Noisy adjoint inputs rescale the measured gradient, they do not turn it",
  "With amplitude and phase errors of any size on the adjoint inputs, and shot noise of any strength at the taps, the in situ measured gradient equals, on average over the draws, one factor (the mean of the error factor) times the gradient measured without noise: the same factor for every theta, phi and gamma and every batch.",
  "every well-formed mesh (any splitter errors and losses, top or bottom phase style), parameters, batch, noise strength, gradient entry and every average under which the error factors share a real mean",
  "a statement about expectations over random draws for all meshes; sampling cannot separate a small bias from noise",
  ["simphox/circuit/forward.py: ForwardMesh.in_situ_matrix_fn (matrix_bwd, all_analog=True)"])
p("The absorbing layers damp exactly the derivatives across them",
  "In every FDTD step with PML, the E and H updates are the plain Yee updates in which each derivative d along an axis is replaced by (1 + c) d + b c d_prev, d_prev being the same derivative at the step before, with b = exp(-(sigma + 1e-8) dt), c = (b - 1) sigma / (sigma + 1e-8) and sigma the graded conductivity of the cell's depth into the first or last t cells of that axis; outside the layers of an axis sigma = 0 and its derivatives are untouched.",
  "every uniform 3-D grid, permittivity, layer thickness and grading that absorbs, every state, source history, field component and cell, numpy and jax",
  "a statement about every cell and every field history; tests only watch a pulse being absorbed",
  ["simphox/fdtd.py: FDTD.step, _step_e, _step_h, _set_pml", "simphox/utils.py: curl_pml_fn, pml_sigma"])
p("The FDFD absorbing layers only ever take power, and remove every resonance of a line",
  "For a 1-D FDFD simulation with layers at both ends, the power an FDFD solution carries is the same at every cell between the layers where there is no source, never increases towards either end inside them, and in total the sources give exactly the (nonnegative) power the layers take; hence neither mat_ez nor mat_hz is ever singular. In any dimension, with layers across one axis, the power through consecutive planes differs exactly by what the stretched cells take and the sources give.",
  "every cell count, layer thickness, grading, positive permittivity, wavelength, source and every field solving the system the solver factors",
  "a test looks at one pulse or one source; that no frequency/permittivity resonates and that layers never amplify is a statement about all of them",
  ["simphox/fdfd.py: FDFD.__init__ (scpml), scpml, mat_ez, mat_hz, solve"])
p("Poynting's theorem for FDFD solutions",
  "In a 3-D FDFD simulation the power leaving any box of unstretched cells, summed over its six faces from the returned E and H, equals the power given by the sources inside the box; it is zero for a box without source.",
  "every grid, real permittivity (per component), wavelength, source, box of unstretched cells, and exact linear solve",
  "a conservation law over all boxes and all sources; tests compare single field values",
  ["simphox/fdfd.py: FDFD.solve, e2h, curl_e, curl_h"])
p("Cell counts and cell ranges survive floating-point rounding",
  "If a size, centre, height or box edge is k times the spacing, both written as decimals and therefore rounded to binary64 before they are divided, Grid(...).shape, slice/mask/set_eps, fill, add and Box use exactly k cells.",
  "every spacing that is not subnormal and every whole number of cells up to 2^49",
  "the rounding errors depend on every bit of the two numbers; tests use a handful of decimals",
  ["simphox/grid.py: Grid.__init__, slice, fill, add", "simphox/utils.py: Box.min_i, max_i, mask"])
p("hessian_distribution samples Hessians",
  "hessian_distribution(n, balanced, n_samples) returns, for each of n_samples random unit vectors, the Hessian of that vector unit.",
  "every n, tree and every vectors drawn",
  "the result is random; a test can only check its shape for one n",
  ["simphox/circuit/vector.py: hessian_distribution, hessian_vector_unit"])
p("Rounding errors of a mesh's matrix grow linearly with its depth",
  "The output the matrix function computes in floating point differs from the exact output by at most about 4 (columns + 1) (e + 3 d) times the input amplitude, where d is the precision of the arrays (3/2^53 for complex128; 1/2^24 for the default complex64 inputs) and e the accuracy of the computed node matrices.",
  "every attenuating mesh, both directions, every style, parameters, input, and every arithmetic with relative error d and absolute error u",
  "rounding errors depend on every number; a test compares one mesh within a tolerance it chooses",
  ["simphox/circuit/forward.py: matrix_fn, _parallel_transform"])
p("Real, integer and absent inputs",
  "The matrix function, propagate and hessian_fd accept integer, real and complex arrays, treating equal numbers equally, and propagate() without inputs uses the identity.",
  "every mesh, parameters, input values and array kind",
  "the tests only pass complex arrays",
  ["simphox/circuit/forward.py: matrix_fn, propagate, propagate_matrix_fn", "simphox/circuit/vector.py: hessian_fd"])
p("FDTD converges to Maxwell's equations",
  "Where E and H solve Maxwell's equations with the grid's permittivity and currents J and K that the sources inject at the middle of each update, repeated step() calls stay close to the samples of E and H at the Yee positions and half-step times: the root mean square error at time T = N dt is at most sqrt(2/(1-1/sqrt kap)) times (initial error + T (sqrt emax + 3)/8 M dx^2), for permittivities between kap > 1 and emax and third derivatives at most M; for permittivity 1 it is at most of first order in dx at fixed T.",
  "every grid (dimension, shape, spacing, permittivity), every smooth solution and currents, every number of steps and starting state",
  "convergence is a statement about all resolutions and all solutions; a test compares one run at one resolution",
  ["simphox/fdtd.py: FDTD.step, _step_e, _step_h, dt", "simphox/utils.py: curl_fn, d2curl_op", "simphox/grid.py: YeeGrid"])
p("FDTD rounding errors add up, they do not compound",
  "Where every arithmetic operation of step() is off by a relative error d (plus u on underflow) and dt and eps_t by e, the fields after N steps differ in root mean square from exactly computed ones by at most 2 B N (340 (d+e) (X+P) + 72 u (1+dt) sqrt(emax)), X and P bounding the exact fields and the sources' contributions and B = sqrt(2/(1-1/sqrt kap)) for permittivities between kap > 1 and emax, whatever the number of cells; in complex128, d+e is 11 units of 2^-53.",
  "every grid, permittivity, spacing, starting state and source schedule (at most one source per step), every N with 680 B N (d+e) <= 1",
  "the bound must hold for every rounding pattern and number of steps; a test sees one run",
  ["simphox/fdtd.py: FDTD.__init__ (dt), step, _step_e, _step_h, eps_t", "simphox/grid.py: YeeGrid.diff_fn", "simphox/utils.py: curl_fn, yee_avg"])
p("CouplingNode.nullify empties the lower rail",
  "nullify(vector, idx) of a node with ideal couplers on rails idx, idx+1 returns the vector with rail idx+1 empty and all its power in rail idx, the unitary matrix that does this and the node phases in [0, 2 pi) that realise it, whatever lower_theta and lower_phi say.",
  "every vector (also zero entries), every index and node size, all four option combinations",
  "the nulling must hold for every complex amplitude pair; the code has no test of nullify",
  ["simphox/circuit/coupling.py: CouplingNode.nullify, mzi_node_matrix, dc, phase_matrix"])
p("Propagation through a mesh on the jax path equals the numpy path",
  "propagate_matrix_fn(use_jax=True) returns slice by slice the fields of the numpy path, forwards and backwards, with explicit True or False, over all columns whatever column_cutoff says.",
  "every mesh with disjoint rails per column, parameters, errors, losses, input, and every order in which the scatters write",
  "the padded dummy nodes and the scatter order matter only for particular column shapes and schedules",
  ["simphox/circuit/forward.py: ForwardMesh.propagate_matrix_fn, idx, _parallel_propagate, _parallel_multiply, _parallel_transform"])
p("Small splitter errors and losses move a mesh's output little",
  "Two meshes with the same wiring and style but different splitter errors, losses and phases give output amplitudes that differ by at most the sum over the columns of the largest change of a node in the column (radians of splitter error and phase, plus ln(10)/20 per dB of loss) plus the largest change of a gamma, times the input amplitude; an ideal mesh built with splitter errors up to d and losses up to L dB is off by at most 2 d + ln(10)/10 L per column.",
  "every mesh size and wiring, all four phase styles, both directions, all errors, attenuations, phases and inputs",
  "a sensitivity bound over all perturbations and meshes; tests sample a few error values",
  ["simphox/circuit/forward.py: ForwardMesh.matrix_fn, _parallel_mzi, _mzi_terms", "simphox/circuit/coupling.py: CouplingNode"])
p("Absorbing materials make every frequency-domain problem well posed",
  "FDFD accepts a complex permittivity: the solver's answer is exact if and only if the returned field satisfies the wave equation whose permittivity is the complex average over the cells each component touches, and the returned pair satisfies Maxwell's equations. If on a grid without PML every cell absorbs (or every cell amplifies) by at least sigma, then for every source and every Bloch phase there is exactly one solution, the work of the source is what the material takes, and the electric field is at most |source| / (k0 sigma) (TM: |h| at most sqrt(1 + kappa^2) |source| / k0 when |Re eps| <= kappa |Im eps|). A real permittivity gives back the lossless matrices, whose systems may have no solution.",
  "every grid shape and spacing, Bloch phase, wavelength, complex permittivity array, source and solver returning an exact solution",
  "existence, uniqueness and a bound over all sources and permittivities of unbounded grids; tests solve single systems",
  ["simphox/fdfd.py: FDFD.mat, mat_ez, mat_hz, solve", "simphox/grid.py: YeeGrid.eps_t", "simphox/utils.py: yee_avg"])
p("Frequency-domain solutions of absorbing problems are stable",
  "On a grid without PML where every cell absorbs (or every cell amplifies) by at least sigma, an FDFD answer that leaves a residual in the solver's equations, for one source and permittivity, differs from the exact answer for another source and another such permittivity by at most (|change of source| + |residual| / k0 + max change of permittivity / sigma * |source|) / (k0 sigma) in the electric field (3-D and TE). For TM with |Re eps| <= kappa |Im eps| in both structures the magnetic field moves by at most sqrt(1 + kappa^2) (|change of source| + |residual| / k0 + max change of permittivity / sigma * |source|) / k0.",
  "every grid shape and spacing, Bloch phase, wavelength, pair of complex permittivity arrays and sources, and every solver with any residual",
  "a bound over all perturbations and all tolerances of an iterative solver; tests compare single solves",
  ["simphox/fdfd.py: FDFD.mat, mat_ez, mat_hz, solve"])
p("Frequency-domain solutions respect the symmetries of Maxwell's equations",
  "With a complex permittivity, FDFD.solve is reciprocal (exchanging source and receiver, PML allowed). On an absorbing grid without PML: moving structure and source by m cells moves both returned fields by m cells; the mirror image of structure and source gives the mirror image of the fields (along x and y, and along z if all layers agree); expressing the problem in a unit of length u times smaller multiplies the fields by u. This holds in 3-D and for both 2-D polarizations.",
  "every grid shape and spacing, wavelength, complex permittivity array, source, axis, shift and unit, and all solvers returning exact solutions",
  "equality of fields over all structures, sources and shifts of unbounded grids",
  ["simphox/fdfd.py: FDFD.mat, mat_ez, mat_hz, solve", "simphox/grid.py: YeeGrid.eps_t"])
p("Absorbing layers and complex permittivities have one sign convention",
  "A one-dimensional simulation with PML at both ends and a material whose permittivity has positive real and nonpositive imaginary part in every cell has, for every source and both polarizations, exactly one solution. (False for the opposite sign: an absorbing material in the convention of the returned fields, Im eps > 0, can make the system singular with the default PML.)",
  "every number of cells, layer thickness, grading, reflection, wavelength, permittivity array of that sign, source and exact solver",
  "singularity of the system for some material in an infinite set of materials",
  ["simphox/fdfd.py: FDFD.scpml, mat_ez, mat_hz, solve", "simphox/grid.py: YeeGrid.eps_t"])
p("Frequency-domain solutions converge to the solutions of Maxwell's equations",
  "If E, H are smooth complex amplitudes solving Maxwell's equations with current J in a material absorbing everywhere by at least sigma, the fields returned by solve (3-D and 2-D TE, no PML) differ from the samples of E and H in root mean square by at most (1 + (1 + eps_max)/sigma) M Dx^2 / (6 k0), M bounding the third derivatives.",
  "every grid, cell size, wavelength, smooth solution, source, complex permittivity array and exact solver",
  "convergence is a statement about all grids and all smooth fields",
  ["simphox/fdfd.py: FDFD.mat, mat_ez, solve", "simphox/grid.py: YeeGrid.eps_t, curl_fn"])
p("Adjoint fields give the gradient with respect to the permittivity",
  "When the permittivity changes, the overlap of the solved field of a source j1 with j2 changes by exactly k0 times the volume-weighted sum of (change of the permittivity at the component) x (new field of j1) x (field of j2 in the old structure), PML included (TM: through 1/eps and the gradients of h). For absorbing materials on a uniform grid the derivative with respect to the permittivity of one cell is k0 times the product of the two old fields averaged over the edges the cell touches, with an error at most dl^2 |j1| |j2| / (k0 sigma^3) for changes of at most dl (TM: with h, 1/k0 and the products of the electric fields, error at most dl^2 sqrt(1 + kappa^2) |j1| |j2| / (k0 sigma^2) if |Re eps| <= kappa |Im eps|).",
  "every grid, pixel sizes (complex with PML for the exact change), complex permittivity before and after, wavelength, pair of sources and exact solvers",
  "gradients of inverse design must be right for every structure and every change; finite-difference checks test single directions",
  ["simphox/fdfd.py: FDFD.mat, mat_ez, mat_hz, solve", "simphox/grid.py: YeeGrid.eps_t"])
p("Vector units of imperfect hardware",
  "vector_unit(v, bs_error_mean=e, loss_mean=l) (zero spread) succeeds for every e and l; every coupler of the returned network carries the error (e, e) and the loss (l, l), and the returned array holds the output powers the returned network itself (errors and losses included) gives for each column of v, the last output of the last column being real and nonnegative. Without loss and with |e| < pi/4 the network still routes all of the last column to the last rail (each other rail keeps at most the guard eps) provided each group of rails merged upwards carries at most cos^2(2e) of the merged power; with light on the first of two rails only, no phase setting leaves less than sin^2(2e) of it there.",
  "every number of rails >= 2, input array, balanced or linear tree, phase style TOP or BOTTOM, common coupler error and loss",
  "fabrication errors and input vectors range over a continuum; a test programs a few random vectors, mostly with ideal couplers",
  ["simphox/circuit/vector.py: vector_unit, _program_vector_unit, tree, _tree", "simphox/circuit/forward.py: add_error_mean, parallel_nullify"])
p("Which modes ModeSolver.solve looks for; the interval search",
  "solve() without a guess (or with 0.0) looks near a value no eigenvalue exceeds, so that nearer means a larger propagation constant; solve(beta_guess=(lo, hi)) looks for exactly the modes with lo <= beta <= hi and reports those found, by decreasing beta; the matrix it gives to the Hermitian eigensolver is Hermitian.",
  "every cross section (1-D and 2-D), permittivity, wavelength, guess and interval, and every output of the eigensolver",
  "the ordering and Hermiticity claims quantify over all permittivity maps and all eigenpairs; a test sees one waveguide and one interval",
  ["simphox/mode.py: ModeSolver.solve, ModeSolver.waveguide_mode_matrix", "simphox/mkl.py: Feast.feast, feast_eigs"])
p("Sources, profiles and measurements use the axis the port faces",
  "For a port at angle 0/180 (90/270) degrees the source is launched and the mode profile oriented along x (y), and the fields at the port are viewed along the same axis; other angles are rejected.",
  "every angle, width, height and profile size factor, 2-D and 3-D simulations",
  "the axis is inferred from which sizes are zero; degenerate sizes are many and tests use one layout",
  ["simphox/sim.py: SimCrossSection.prop_axis, SimGrid.port_modes", "simphox/grid.py: Port.size, YeeGrid.view_fn", "simphox/mode.py: ModeLibrary.place"])
p("BPM fails cleanly",
  "The unfinished BPM class never returns a result: construction or every adi_polarized call raises, at any point of any sequence of calls; a failing call leaves the simulation unchanged.",
  "every dimension, grid, flag and number of calls",
  "the second half concerns the state after exceptions, for any history",
  ["simphox/bpm.py: BPM.__init__, init, adi_polarized"])
p("Dispersion: group index and response of modes to the permittivity",
  "For modes that vary continuously, the derivative of the propagation constant with respect to any change of the wavelength and the permittivity array is (k0' sum |h|^2 + sum (k0 eps)' |e|^2) / (2 Re power) of the unperturbed fields; in particular n = ModeLibrary.n obeys dn/dlambda = (n - ng)/lambda with ng the energy per length over the power, and |ng| is never below the smallest index on the grid. In 1-d cross sections n ng is the mean permittivity weighted by the mode, and the propagation constant of the fundamental mode grows with permittivity and frequency.",
  "every 2-d and 1-d cross section, permittivity, wavelength, mode and differentiable family of such; the identity behind it for any two solvers on one grid, however different",
  "a derivative and an inequality over all permittivities; a finite-difference test checks one waveguide to a few digits",
  ["simphox/mode.py: ModeSolver.waveguide_mode_matrix, update_wavelength, dispersion_sweep, ModeLibrary.e, ModeLibrary.h, ModeLibrary.n", "simphox/grid.py: YeeGrid.eps_t"])
p("FDFD.sparams returns leaving over entering amplitudes",
  "FDFD.sparams(port_name, mode_idx, measure_info) returns, for each (port, mode) measure_info stands for, the amplitude leaving through it over the amplitude entering at the source.",
  "every set of ports, source, form of measure_info and iteration order of Python's sets",
  "the polarity of a port is looked up in the iteration order of a set; tests see one order and one form of measure_info",
  ["simphox/fdfd.py: FDFD.sparams", "simphox/sim.py: SimGrid.get_measure_fn, port_source, port_modes, parse_excitation"])
p("No axis is special",
  "Exchanging two axes of a simulation, or moving all of them up by one, exchanges or moves its result: the fields of the FDTD run, of the FDFD solution and of the modes of the relabelled structure under the relabelled sources are the relabelled fields (H, a pseudovector, changes sign under an exchange).",
  "every grid, permittivity, spacing, absorbing layer, Bloch phase, source, schedule and backend",
  "the three axes are written out separately in the curls, the averages and the mode operator; tests use one orientation of each structure",
  ["simphox/fdtd.py: FDTD.step", "simphox/fdfd.py: FDFD.mat, solve", "simphox/mode.py: ModeSolver.wgm", "simphox/grid.py: YeeGrid.curl_e, curl_h, eps_t"])
p("Mode indices of a ModeLibrary",
  "Throughout its life a ModeLibrary answers for index i < num_modes with the i-th strongest guided mode of its last solve (h, e, beta, n, ns, dbeta, dn, beat_length, evolve agree), rejects every other index with ValueError, and is empty when nothing is guided.",
  "every output of the eigensolver, history of update_wavelength calls (failed ones included), index and list of weights",
  "all histories and indices; tests use index 0 of a fresh library",
  ["simphox/mode.py: ModeLibrary.__init__, _update_solve, update_wavelength, _check_num_modes, beta, n, ns, dbeta, dn, h, e, evolve, beat_length"])
p("TM simulations converge to the solutions of Maxwell's equations",
  "On finer and finer grids the fields returned by a 2-D simulation with an out-of-plane magnetic field converge to the solution of Maxwell's equations, with an explicit bound on the error at every cell size.",
  "every smooth solution, grid, complex permittivity that absorbs, wavenumber and cell size",
  "a bound for all solutions and all cell sizes; tests compare one grid with stored numbers",
  ["simphox/fdfd.py: FDFD.mat_hz, solve (tm_2d), h_to_e", "simphox/utils.py: yee_avg"])
p("When a simulation without losses has a solution",
  "A frequency-domain simulation of a box filled with one material (real or complex permittivity, any Bloch phases on the boundary, no layers) has a solution for every source exactly when no plane wave of the grid that fits the box has the wave number of the material; then the solution is unique and at most k0 |source| over the distance to the nearest resonance.",
  "every box shape, cell size, Bloch phase, permittivity, wavenumber and source, in 2-D (both polarizations) and 3-D",
  "solvability for all sources; a test solves one system that happens to be regular",
  ["simphox/fdfd.py: FDFD.mat, mat_ez, mat_hz, solve", "simphox/grid.py: YeeGrid.deriv, bloch"])
p("Lossless materials have finitely many resonances",
  "For every real positive permittivity (any pattern, no layers, any Bloch phases) a frequency-domain simulation has exactly one solution for every source at all wavelengths but finitely many: at most one per unknown; at each of those some source has no solution.",
  "every permittivity array, shape, cell size, Bloch phase, wavenumber and source; 2-D (both polarizations) and 3-D",
  "existence and uniqueness at all wavenumbers of a continuum; tests use one wavelength",
  ["simphox/fdfd.py: FDFD.mat, mat_ez, mat_hz, solve"])
p("A lossless run never forgets its initial state",
  "Without absorbing layers and with permittivity above 1, two FDTD runs with the same sources but different initial fields keep their distance: the energy of the difference stays for ever between two fixed multiples of its initial value. So a run with a CW source started from rest never settles into the periodic fields that FDFD computes; its distance to them keeps its size.",
  "every grid, permittivity >= kap > 1, schedule of electric and magnetic sources, pair of initial states and number of steps",
  "concerns every later time of every run; a test of finite length cannot tell slow settling from none",
  ["simphox/fdtd.py: FDTD.step, run", "simphox/fdfd.py: FDFD.solve"])
p("Lock-in averages of a CW run converge to the FDFD fields",
  "For a frequency that is not a resonance of the grid, multiply the fields of a CW run by e^{+i omega t} and average over n consecutive steps: the result is within A/n of the FDFD solution at the lattice wavenumber, at every cell, for E and H, whatever the initial fields and wherever the window starts. Frequencies above the band of the grid are never resonances.",
  "every grid, permittivity >= kap > 1, source, frequency that is not a resonance, initial state, window start and window length",
  "a limit over all window lengths, uniform in the start of the window",
  ["simphox/fdtd.py: FDTD.step, run", "simphox/fdfd.py: FDFD.solve, mat"])
p("A lossless CW run stays bounded exactly when FDFD has a solution for its source",
  "Without absorbing layers and with permittivity above 1, the energy of a run driven by a CW electric source is bounded for all time exactly when the FDFD system at the lattice wavenumber has a solution for that source, whatever the initial fields. Otherwise the fields grow in proportion to the number of steps. There is a solution exactly when the source is orthogonal to every resonance (source-free solution) at that wavenumber.",
  "every grid, permittivity >= kap > 1 (growth: >= 1), source pattern, frequency with non-zero lattice wavenumber, initial state and number of steps",
  "boundedness over all time and existence of a solution of a linear system are not observable in a finite test",
  ["simphox/fdtd.py: FDTD.step, run", "simphox/fdfd.py: FDFD.solve, mat"])
p("What sources add to a lossless run is bounded by what each step's sources produce from rest",
  "Without absorbing layers and with permittivity above 1, the size of the fields (square root of the energy) after any run is at most a fixed constant times the size of the initial fields plus the sum, over the steps, of the size of the fields the sources of that step would produce in one step from rest, which is at most dt times three times the norm of the electric current plus the norm of the magnetic current; two runs differ by at most the same constant times the differences put in. With permittivity 1 allowed the factor grows in proportion to the number of steps. A CW electric source adds the same amount at every step, so its fields grow at most linearly.",
  "every grid, permittivity >= kap > 1 (or >= 1), electric and magnetic source schedule (pair of schedules), initial state (pair) and number of steps",
  "a bound uniform over all schedules and run lengths",
  ["simphox/fdtd.py: FDTD.step, run"])
p("At all but finitely many frequencies a lossless CW run is bounded and yields the FDFD fields",
  "A lossless FDTD grid has at most three resonances per cell. At every frequency whose lattice wavenumber is not one of them, FDFD has a solution for every source, every run driven by a CW electric source is bounded for all time whatever its initial fields, and its lock-in averages over n states are within A/n of the FDFD fields at every cell.",
  "every grid, permittivity >= kap > 1, frequency with positive lattice wavenumber outside a finite set, source, initial state, window start and window length",
  "a claim about all frequencies and all times; the exceptional set depends on the permittivity",
  ["simphox/fdtd.py: FDTD.step, run", "simphox/fdfd.py: FDFD.solve, mat"])
out = os.path.join(os.path.dirname(__file__), "..", "properties.jsonl")
with open(out, "w") as f:
    for x in P:
        f.write(json.dumps(x) + "\n")
print(len(P), "properties")
