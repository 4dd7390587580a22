# Formal model of fancompute/simphox in Rocq (Coq 8.16.1)

## Approach

The model is a shallow embedding: each Python function of interest becomes a total Gallina function with the same
branches, in the same order, with exceptions as values (`option` / an error type).  Floating point numbers are
modelled by Coq's classical reals `R`, complex numbers by pairs of reals (`Cx.v`, our own small file, no external
library).  Arrays of rank one are functions `nat -> C` (or lists) together with their length; rank 3 fields are
functions of three indices.  Python object mutation is returned as a new value, except where a property is *about*
aliasing (C34), where a small heap model is used.

Layout of `rocq/theories`:

* `Cx.v`, `Arr.v`: complex numbers, angle, finite sums, assignment with numpy fancy-indexing semantics.
* `Spec_*.v`: small, model-independent specifications (unitary, power, transpose, permutation, ...).
* `Model_*.v`: the model, one file per Python module, no proofs.
* `Proof_*.v`: lemmas.
* `Prop_*.v`: property theorems only, each closed by `exact`, followed by `Print Assumptions` and non-vacuity examples.

## Plan per property

| id | modelled | how proved |
|----|----------|------------|
| C01 | 2x2 complex matrices `phase_matrix`, `dc`, `mzi_node_matrix`, embedding | algebra + sin^2+cos^2 |
| C02 | `_mzi_terms`, `_parallel_mzi` vs. `mzi_node_matrix` | algebra; refutation witness for right loss |
| C03 | `ForwardMesh` as record, `columns`, `_parallel_transform`, `matrix_fn` | column invariant: power preserved; induction on columns |
| C04 | same with losses | contraction per node; induction |
| C05 | same | pointwise linearity; induction over columns, expansion in basis |
| C06 | `back=True` | bilinear form x^T M y, induction over columns; refutations for unequal errors and DIFFERENTIAL |
| C07 | `idx`, masked transform, arbitrary scatter order | per column equality by case analysis on rails |
| C08 | list-order errors vs id-order use | refutation witness + positive theorem when ids = positions |
| C09 | `propagate_matrix_fn`, `_parallel_dc`, `_parallel_multiply` | induction; refutation with error |
| C10, C11, C18, C19 | `_tree`, `_butterfly`, `_bowtie` recursion with fuel/well-founded size | strong induction on size |
| C12, C21, C20 | `_program_vector_unit`, `parallel_nullify`, arccos/angle | trigonometric lemma for one node, induction over columns |
| C13, C14, C15 | `cascade` loop | induction over subunits using C12; aggregation |
| C16, C17 | `rectangular` loops, nulling rotations on the working matrix | counting by induction; realisation by an invariant of the nulling loop (working matrix upper triangular and unitary, hence diagonal), then moving the left rotations across the phases |
| C22, C23, C26 | formulas over finite sums | telescoping sums |
| C24 | relabelling operations | filter/partition lemmas; refutation for stale column count |
| C25 | measured powers | derivative of real cost along one phase |
| C27-C29 | periodic difference operators on functions of Z/n indices | index arithmetic, summation by parts |
| C30-C35 | FDTD step on abstract fields, numpy/jax variants, heap for aliasing | linear algebra, induction on steps, refutations |
| C36, C37, C39, C56 | FDFD operators as functions on fields | algebra; refutations |
| C38 | `pml_sigma`, `scpml` | index arithmetic |
| C40-C45 | grid geometry on integers/reals | order reasoning, refutations |
| C46, C47 | sort/filter model; overlap functional | list induction; linearity |
| C48 | state machine of the wrapper with a parametric key function | invariant over histories; refutations |
| C49 | dense linear algebra over C | adjoint identity |
| C50 | inductive type of Python values | structural induction; refutations |
| C51-C53 | arrays as functions | index arithmetic, tanh monotone |
| C54 | traces over finite sums | Cauchy-Schwarz; refutation |
| C55 | set iteration order as a permutation parameter | refutation + positive theorem |
| C57 | `InSituBackpropLayer`-style backward pass | same adjoint computation as C25; refuted (normalisation) |
| C58, C82 | `bowtie(u)`, `rectangular_rows` through `ForwardMesh.columns` | refutation: an empty column raises |
| C59-C61 | FDFD operators with PML pixels and Bloch phase | summation by parts on the Yee grid; refutation witness for C59 |
| C62, C76 | lru_cache as an explicit cache in the state | histories of edits and reads; refutation |
| C63-C65, C73-C75 | index arithmetic of `Grid.add`, `port_source`, `poynting_fn`, `place`, `view_fn`, `profile` | case analysis per axis; refutations |
| C66 | `TMOperator` forward and custom vjp | adjoint identity by summation by parts |
| C67-C72 | mode operators and field reconstruction for any eigenpair (the eigensolver is a parameter) | algebra of difference operators; refutations |
| C77-C79 | `to_2d`, s-parameters, `port_source` on a uniform lattice waveguide | algebra, explicit lattice waves; refutations |
| C80, C81 | `grid_common_mode_flow`, `get_alpha_checkerboard`, `random_theta` | induction over layers / diagonals |
| C83-C85 | column cut-offs, `nullification_basis`, `program_by_null_basis` | invariant over columns: programmed hardware prefix = diagonal phases x target prefix; two unitary nodes nulling the same input differ by output phases |
| C86-C90 | `opt.py` `opt_run`, `opt_viz`, `OptProblem`: loop over an abstract optimiser, heap of simulation eps, histories, exceptions as None | loop invariants (parameters = optimiser recurrence, series = multiples of the interval); refutations by concrete runs |
| C91-C93 | `vector.py` `hessian_vector_unit`, `hessian_fd`, the pn/pnsn bookkeeping of `_program_vector_unit`, `set_descendants` (`Model_hess.v`), misfit and second partials (`Spec_hess.v`) | the unit as a binary tree (structural induction); amplitude is multi-affine in the e^{i phase}; closed form of the second derivative from nulling + unitarity; loop invariant for the block assignments; refutation for every n >= 3; with the division guard: the input the programmed phases focus exactly (pushed back through the tree), distance to the real input = misfit, second derivative linear in the input and bounded by it (`Proof_hess10.v`) |
| C94, C95 | `matrix.py` `cs`, `_bowtie`, `bowtie` with SVD/QR as parameters that meet their contracts (`Model_cs.v`, `Model_bowtie.v`, `Spec_cs.v`) | block algebra: the QR factors are triangular with orthogonal columns hence diagonal; exact characterisation by injectivity of the lower-left block; explicit run for n = 2, 3; refutations |
| C96 - C98 | `SimGrid.fidelity`, `splitter_metrics`, `te_ratio`, `gaussian_fn` (`Model_metric.v`, `Spec_metric.v`) | Cauchy-Schwarz with its equality case for the optimum; shares by division; the pulse by monotonicity of exp; refutations at concrete targets and by rescaling |
| C99 - C102 | `parse_source_port`, `run_cw_port` over the no-PML step (`Model_cw.v`, `Spec_cw.v`) | induction over the step list; source phase is periodic; the parsed table characterised by an inductive "asks for" relation; a one-cell grid refutes resumption and weights |
| C103 - C108, C110 | `psvd`, `aggregate` of offset meshes, `column_ordered`, `add_error_variance` (draws are parameters), `phases`, in-place renumbering of shared node objects, the params getter/setter over a heap of arrays, `parallel_mzi` defaults (`Model_meshops.v`, `Spec_meshops.v`) | run of a mesh as a fold over its columns; columns of a concatenated node list; induction over the list of meshes; refutations on two-node meshes |
| C109 | `envelope.py` (`Model_envelope.v`) | ceil(log2 n) = Nat.log2_up n, against the column counts proved for tree and rectangular |
| C111 - C113 | `mode.py` (`Model_mode.v`, `Model_adj.v`) | Lorentz reciprocity by summation by parts on the Yee grid (C67 supplies Maxwell's equations), mirrored modes separate the two terms; the index bound from the discrete curl-curl identity with div h = 0; crosstalk: rolled eigenvectors in uniform media, a two-cell waveguide as counterexample. |
| C114 - C119 | `Model_fdtdpml`: `_set_pml`, `curl_e_pml`, `curl_h_pml`, `_step_e`/`_step_h` with regions, `zero_state`, construction checks, what `step` does to the caller's memory lists | locality of one half step on lower/upper neighbours, ring distance, induction on steps; interior by induction on depth; linearity; monotone exp; explicit mirror computation; concrete 10^3 run for the caller |
| C120 - C126 | `Model_design`: `fill` on the whole array, `block_design` over real boxes and pixels, layers of `from_pattern`, failure points of `add`, shapes after `squeeze`, permittivity buffers. | Box arithmetic over R, rounding bounds (floor/around), keep-or-overwrite argument for idempotence, induction on edit lists for aliasing; concrete refutations on a 10 x 10 grid. |
| C127 | time reversal of explicit propagation, both directions; Model_forward | induction over the columns: every stage is a symmetric unitary on disjoint rails, so it inverts under conjugation; Proof_insitu5/6. The same lemma gives C25 for all_analog=False (Model_insitu2). |
| C128 | rectangular_phase_shift_powers with numpy strides and IndexErrors; Model_rectpow | even n: induction over pairs of columns against the node list of rectangular(u); odd n and n = 2 refuted by counting; Proof_rectpow. |
| C129 | matrix_fn of Model_forward, every style | elements are unchanged by Cexp periodicity (Proof_phase); sharpness on a one-node mesh. |
| C130 | matrix_fn of Model_forward | chord bound per node through the coupler factorisation, disjoint rails per column, telescoping over the columns with the triangle inequality; Proof_lip. |
| C131 | mk_mesh, columns, matrix_fn | columns of permuted lists are permutations, disjoint writes commute; true for equal errors and losses, refuted otherwise (errors are looked up by list position); Proof_local. |
| C132 | matrix_fn of Model_forward | agreement on S is preserved by every column; Proof_local. |
| C133 | Model_fdtd run/free_run | One step back undoes the last step exactly; induction on the steps taken back. |
| C134 | Model_fdtd run | Differences, Yee averages and source updates commute with the roll; induction over the schedule. |
| C135 | Model_fdtd run; image maps of cells and edges in Spec_sym | Forward differences of edge images are minus centre images and conversely; along z the averages of eps are missing: counterexample with two layers. |
| C136 | Model_fdtd run; Model_fdfd mat3, mat_ez, mat_hz | dt scales with u and the differences with 1/u (axes of one cell have no differences); induction over the schedule; entrywise for the matrices. |
| C137 | Model_fdtd free_run; plane waves in Spec_disp | Plane waves are eigenvectors of the differences; double cross product of the transverse amplitude; z solves the quadratic of the leapfrog step; induction on n. |
| C138 | Model_fdfd mat3, mat_ez, mat_hz applied to raveled fields | Difference quotients with Bloch boundary multiply the wave by its lattice wave number, wrap-around included. |
| C139 | FDTD stepping and FDFD `mat`/`solve` on one grid | Maxwell form of the FDFD solution (C56), induction over the steps; converse by cancelling the phase factors |
| C140 | FDTD stepping with sources | adjointness of the two curls; induction over the run |
| C141 | FDTD runs from rest with electric currents | summation by parts in time, adjoint curls; impulse responses; a 3-cell counterexample for jax |
| C142 | Model_matopt.v (cost, adam, update_fn over the model of the mesh); differentiability of every matrix entry along a smooth path by composition; the step bound from the invariant m^2 <= 53 v | Refuted part: at a perfect match the error has a corner (2 sqrt(n-1)/n |sin(d/2)| along any output phase), so the gradient update_fn follows does not exist there |
| C143 | Model_pulse.v (fft, ifft as sums; broadcasting of 2-D profiles); orthogonality of the T-th roots of unity, convolution theorem, Parseval | 1-D proved; 2-D refuted (raises unless square, then scales each column by one number instead of filtering it) |
| C144 | rand_s/rand_theta with scipy's betaincinv as a parameter and np.random.rand as a sequence; expectation = iterated average over independent draws | the row of the mesh is a product of splits, affine in each of them; induction over the chain, over columns for the tree; counterexample for five outputs |
| C145 | layer call, initial parameters, noise on the matrix, jit as replay of the first trace | linearity of the mesh, C03/C04 per layer, induction over the layers; counterexample for fresh noise |
| C146 | the backward rule with amplitude, phase and shot noise draws as arguments | each entry is an affine function of the draws |
| C147 | beta_pdf, beta_phase for integer parameters (scipy's beta is a parameter), with rand_theta | substitution x = cos^2(theta/2) in the Riemann integral (Coquelicot), monotone distribution function |
| C148 | from_fdfd over an abstract device (modes, solver and measurement as functions of port, wavelength and factor); xarray selection by label | exact at 1.55 um, factor 3 and port order; elsewhere refuted (non-interference: modes at other wavelengths never read; default labels raise; labels by position) |
| C149 | coordinate lists of decorate; the curls of Model_yee on sampled plane waves | the curls act exactly on Yee-sampled waves (all wave vectors); labels right across, refuted (half a cell) along the component's axis |
| C150 | entries as int, numpy int or slice | ints and open slices proved; closed slices always raise and numpy ints do not move (refuted) |
| C151 | the backward rule with amplitude, phase and shot noise draws as arguments | slices are linear and local in the input; each tap is linear in the adjoint inputs, hence in the error factors |
| C152 | the two field updates with the six region corrections and memories | the two regions of an axis are disjoint, the correction's coefficient vanishes off the axis and outside the layers; the memory is the previous derivative |
| C153 | the stretched cell widths (C38) inside the curl matrices and solve | summation of Re(i conj(e) curl h) over planes; imaginary parts of the widths are nonpositive; a source-free field has zero energy in the layers and the recursion propagates the zero |
| C154 | solve's E and H as the Yee Maxwell equations (C56) | discrete product rule on each cell and telescoping of the faces |
| C155 | the quotients in binary64 (Flocq's rounding to nearest even), np.around and int | monotonicity of rounding around k +- 1/4; relative error of the literals; exact evaluation for 0.3/0.1 |
| C156 | the loop over the drawn vectors and the [0] | C91 for each draw; the length of a row |
| C157 | the matrix function over an arbitrary arithmetic; binary64 and binary32 rounding (Flocq) | one column is within 2K of the exact one in norm; contraction of the exact columns; induction over columns |
| C158 | the kind (real or complex) of the array next to its values; numpy's same_kind rule for += | by cases on the kind |
| C159 | Spec_conv: smooth fields, derivatives, Maxwell's equations, Yee sample places; the model of step and run | central differences are second-order (mean value theorem); residual per step; energy norm and stability bounds of C04/C05; discrete Duhamel sum (induction over steps) |
| C160 | Model_fdtdfl: step with an abstract machine arithmetic, dt and eps_t in binary64; Spec_fdtdfl: error of an arithmetic | cell-wise error propagation, energy norm of one step's error, discrete Duhamel sum (C159), Gronwall by strong induction; Flocq for binary64 |
| C161 | Model_nodenull; Spec_nodenull: an MZI with each phase in either arm | polar form; exact residual for each option (the lower_* options do not null the returned vector) |
| C162 | Model_propjax: the scan over padded columns, any scatter order | padded nodes rewrite an unused rail with its own value (as C07); lengths for the cut-off |
| C163 | Model_forward (meshes, node elements) | node as phases-coupler-phases-coupler-phases, each factor Lipschitz and contracting; triangle inequality over columns (as C130) |
| C164 | Model_fdfdc: the operators and solve of Model_fdfd with a complex permittivity | operators as Bloch difference quotients; their adjointness makes the curl-curl part real, so the imaginary part bounds the field; trivial kernel and Gaussian elimination give existence |
| C165 | Model_fdfdc with a second permittivity and a solver that leaves a residual | the difference of two answers solves the wave equation with the differences as source; the absorption bound of C164 applied to it; TM: an energy identity for the difference of the electric fields |
| C166 | Model_fdfdc with the structures of Spec_fdfdsy (moved, mirrored, rescaled) | the image of a solution solves the image problem (equivariance of curls and averages), and absorbing problems have one solution (C164); reciprocity by weighted summation by parts |
| C167 | Model_fdfdc, Model_fdfd.scpml | energy argument around the ring of cells with complex weights (Proof_absorb3.ring_zero); counterexample with rational fields: a resonance of eleven cells with the default PML |
| C168 | Model_fdfdc on the grids of Model_fdtd; smooth phasors and their samples in Spec_fdfdcv | central differences (C159) bound the residual of the samples; the energy of the error is bounded by the residual because the material absorbs (Proof_fdfdcv.S2_bound) |
| C169 | Model_fdfdc; edge averages of field products in Spec_fdfdad | the change acts as a source, reciprocity (C166) moves it onto the second field; transposed averages by cyclic shifts of sums; remainder by stability (C165), the a-priori bound (C164) and Cauchy-Schwarz |
| C170 | Model_vector (vector_unit with bs_error_mean, loss_mean); groups of rails in Spec_vunit | each tree node only mixes two groups of consecutive rails (recursion on the tree); the power of a group is kept by the couplers inside it, so the split each node needs is the ratio of group powers; induction over columns with the nulling lemma of one MZI |
| C171 | Model_feast (beta_guess dispatch, feast dispatch, reported pairs), Model_mode, Model_parse (mode_solve) | Rayleigh bounds of C112; anti-Hermitian part of the operator in closed form: differences of averaged permittivities times a mixed second difference that couples each cell to its neighbours, so Hermitian iff one constant; padding and intervals by case analysis |
| C172 | Model_portaxes (prop_axis, view axis, region of a port), Model_grid (Port.size), Model_mode (view_c, profile_c) | case analysis on which of the three sizes vanish |
| C173 | Model_bpm (constructor outcomes; the in-place writes of adi_polarized before it fails) | induction on the number of calls |
| C174 | Model_mode (operators, fields, update_wavelength), Spec_pert | Lorentz reciprocity between two solvers; Caratheodory-style limits; Young's inequality per cell |
| C175 | Model_sparams (all outcomes of sparams, on top of Model_parse) | list induction; one case per form of measure_info |
| C176 | Model_fdtd, Model_fdfdc, Model_mode (existing models); relabelled grids in Spec_swap | the operators commute with the relabelling; uniqueness for the frequency domain; refuted for the rotation of a layered structure |
| C177 | Model_modelib (betas, modes, num_modes as the state of an object; exceptions as results), on top of mode_solve of Model_parse | invariant over histories; index arithmetic; negative indices and empty cross sections refuted |
| C178 | Model_fdfdc (complex permittivity); smooth fields sampled at the Yee positions | consistency (Taylor) plus stability (energy estimates) of the TM operator; the electric field has the wrong sign: refuted with a wave on every grid |
| C179 | Model_fdfdc with uniform permittivity; the assumed property of the linear solver (it returns a solution) becomes the conclusion here | discrete Fourier transform with Bloch phases (Parseval), mode-by-mode solution of curl curl (Lagrange identity), transverse and longitudinal test waves at resonance |
| C180 | Model_fdfdc with real positive permittivity, one family of systems indexed by k0 | kernel vectors at different wavenumbers are orthogonal in the energy product; more orthogonal vectors than unknowns contradict Gauss elimination; resonance excludes a source by testing with the kernel vector |
| C181 | Model_fdtd run with numpy update; field_energy of the difference of two states | differences obey the source-free update; the conserved shifted energy is equivalent to the field energy for permittivity above 1; C139 supplies the periodic run |
| C182 | Model_fdtd run, Model_fdfd solve3 with the exact-solver assumption exact3 used for C139 | mean ergodic argument: the transient x is e^{i omega dt} step(z) - z for some z because the FDFD system is solvable, so demodulated sums telescope; bounded by energy |
| C183 | Model_fdtd run with numpy update; exact3 of Model_fdfd for one source; field_energy | Fredholm alternative for the symmetric Maxwell operator: unsolvable means some resonance has non-zero overlap with the source, and the overlap of the run with it grows linearly; solvable means bounded by C139 and the conserved shifted energy |
| C184 | Model_fdtd run and step with numpy update; field_energy | Duhamel: a step with sources is the source-free step plus the step from rest; uniform bound of the source-free evolution from the conserved shifted energy; triangle inequality of the energy norm |
| C185 | Model_fdtd run, Model_fdfd solve3 and exact3; the real FDFD matrices agree with the complex-permittivity model used for C180 | C180 (eigenvalue count) transported to the FDTD grid, then C182 and C183 |

A property that is false of the code is kept as the user would state it; the manifest then says `partial`, the part that holds is
proved, and a `_refuted` theorem exhibits inputs on which the code violates it (the witness is proved, not tested).

## Trusted base

* Coq 8.16.1's kernel (the gate re-checks with a clean build).
* Axioms: only those of Coq's standard library behind the classical reals.  `AXIOMS.md` lists, for every claimed theorem, exactly what
  `Print Assumptions` prints; the union is
  `ClassicalDedekindReals.sig_forall_dec`, `ClassicalDedekindReals.sig_not_dec`,
  `FunctionalExtensionality.functional_extensionality_dep`, `Classical_Prop.classic`.
  No axiom of ours, no `Admitted`, no functor or module type, no section-less `Variable`/`Hypothesis`, no kernel flag.
  Coquelicot (Riemann integrals, no axioms of its own) is imported in Spec_beta, Proof_beta and Prop_beta (C147); no other library outside
  the standard library is used.
* The correspondence between the Gallina definitions of `Model_*.v` and the Python text, by reading: each definition cites its lines.
* The reading of numpy/scipy/jax primitives built into the model: fancy-indexed assignment writes in order with the last value winning
  (in jax, in any order), boolean masks, `np.angle` = principal argument with `np.angle(0) = 0`, `np.mod(x, 2 pi)` in `[0, 2 pi)`,
  `arccos` of a clipped argument, `lax.scan` = left fold, sparse matrices = linear maps.

### Idealisations common to all files

* Floating point is exact real/complex arithmetic: no rounding, overflow, NaN or complex64 truncation, except where a property is
  about a guard (`np.spacing(1)` is the parameter `eps`, NaN results are `None`).
* Exceptions are `None`/an error constructor; the exception class is not distinguished, nor is partially done work before it, except in
  the state-machine models (Pardiso wrapper, caches, FDTD heap).
* Linear solvers, eigensolvers, random number generators, hashing and set order are parameters: theorems hold for every possible
  result they can return (C46, C48, C49, C55, C56, C67).

### Modelled code (simphox/)

| module | modelled | file |
|---|---|---|
| circuit/coupling.py | all node and coupler matrices, `transmissivity_to_phase`, `direct_transmissivity`, node/numbering dataclass | Model_coupling |
| circuit/forward.py | `ForwardMesh` construction, columns, `matrix_fn`, `idx`, `propagate_matrix_fn` (explicit and implicit, with cut-offs, numpy and jax), `parallel_nullify`, `nullification_basis`, `program_by_null_basis`, offsets/inversions/aggregation, error setters, `in_situ_matrix_fn` (both measurement schemes) | Model_forward, Model_null, Model_insitu, Model_insitu2, Model_propjax |
| circuit/vector.py, matrix.py | `tree`, `vector_unit`, `cascade`, `triangular`, `tree_cascade`, `butterfly`, `bowtie`, `dirichlet_matrix`, `csinv`, `cs`, `bowtie` phases, `normalized_error`, vector-unit Hessians, `hessian_distribution` | Model_vector, Model_matrix, Model_cs, Model_bowtie, Model_hess, Model_hessdist, Model_kind |
| circuit/rectangular.py | `rectangular`, `rectangular_rows`, `grid_common_mode_flow`, `get_alpha_checkerboard`, `random_theta`, `rectangular_phase_shift_powers` | Model_rect, Model_rectpow |
| utils.py | difference operators, `curl_fn`, `pml_*`, `yee_avg*`, box, smoothing, masks, symmetry | Model_yee, Model_parse |
| grid.py | `Grid`, `YeeGrid`, `Port`, slices, masks, averaging, `add`, `set_eps`, pml placement, view functions | Model_grid |
| grid.py, fdfd.py, fdtd.py | `fill`, `block_design`, layers and dimensions of `from_pattern`, failure points of `add`, array shapes, buffer sharing | Model_design |
| fdtd.py | step functions of both backends, PML accumulation, in-place semantics | Model_fdtd |
| fdtd.py, utils.py | `_set_pml`, `pml_sigma`, `curl_e_pml`, `curl_h_pml`, steps with PML regions, construction with PML, effect of `step` on the given memory lists | Model_fdtdpml |
| fdfd.py | operators, TE/TM/3D solves (real and complex permittivity), conversions, `from_simgrid`, `TMOperator` | Model_fdfd, Model_fdfdc, Model_adj |
| mode.py, sim.py | mode operators, `ModeLibrary` bookkeeping, `evolve`, `dispersion_sweep`, `place`, `SimGrid` ports, sources, measurements, s-parameters, caches | Model_mode, Model_parse |
| sim.py, utils.py, mode.py | `fidelity`, `splitter_metrics`, `te_ratio`, `gaussian_fn` | Model_metric |
| parse.py, fdtd.py | `parse_source_port`, `run_cw_port` | Model_cw |
| utils.py | `gaussian_fft` (1-D and 2-D profiles) | Model_pulse |
| circuit/forward.py | `InSituBackpropLayer`, noise in `in_situ_matrix_fn` (both schemes) | Model_layer |
| sim.py, circuit/component.py, utils.py | `decorate`, `Component.from_fdfd` (device abstract), `shift_slice` | Model_comp |
| grid.py, utils.py | the float quotients of `Grid.__init__`, `slice`, `fill`, `add`, `Box` (binary64, no overflow) | Model_float |
| utils.py | `beta_pdf`, `beta_phase` (integer parameters) | Model_beta |
| circuit/forward.py | `rand_s`, `rand_theta` (betaincinv and the generator are parameters) | Model_rand |
| circuit/forward.py | `matrix_opt` (cost, adam state, update) | Model_matopt |
| circuit/coupling.py | `CouplingNode.nullify` | Model_nodenull |
| fdtd.py, grid.py, utils.py | `step` without PML over an arbitrary floating-point arithmetic; `dt`, `eps_t` in binary64 | Model_fdtdfl |
| circuit/forward.py | `matrix_fn` over an arbitrary floating-point arithmetic; kinds of arrays | Model_fround, Model_kind |
| circuit/forward.py, matrix.py | `column_ordered`, effects of `aggregate`, `add_error_variance`, `phases`, `parallel_mzi` defaults, `params` aliasing, `psvd` | Model_meshops |
| circuit/envelope.py | all | Model_envelope |
| opt.py | `OptProblem`, `opt_run`, `opt_viz` (names and configuration) with an abstract optimiser | Model_opt |
| parse.py, mkl.py, transform.py, primitives.py | excitation parsing, Pardiso cache, density transforms, sparse-solve adjoint | Model_parse, Model_adj |

### Not modelled

`viz.py`, `typing.py`; the arithmetic of `bpm.py` (never reached: Model_bpm); gds/shapely pattern input (the polygons behind `from_pattern`); plotting and progress bars;
FDFD `tfsf_profile`;
the Feast eigensolver itself (its dispatch and the use of its output are: Model_feast); haiku itself (the layer is modelled with its parameters as an argument).

## Findings (all proved as `_refuted` or exact-characterisation theorems)

See the notes in `MANIFEST.json`; the main ones: right-coupler loss misplaced in `_parallel_mzi` (C02); `back=True` is not the transpose
for DIFFERENTIAL or unequal errors (C06); errors stored in list order, used by node id (C08); explicit propagation uses the wrong error sign
(C09); `aggregate` drops the phase style (C14); in-situ gradients come in column order and the input cotangent is not scaled back
(C25, C57); `diff_fn` ignores the Bloch phase (C27); jax FDTD source overwrites (C33); numpy FDTD steps in place (C34); PML memory is not
accumulated (C35); sign of `h2e` (C36); `from_simgrid` passes pixel counts as lengths (C39); precedence bug in `Grid.add` (C43); Pardiso
cache key elides entries (C48); set-order pairing of ports (C55); exchanged difference operators in `mat_hz` (C59); stale caches (C62, C76);
TM modes from the TE operator (C68); `dispersion_sweep` never changes the wavelength (C72); `place` raises in 3-D (C73);
`rectangular_rows` raises for n >= 3 (C82);
`opt_run` needs the optional `pbar` and `viz`, pairs eps of the next iteration with the field of this one, and cannot thin metrics (C86, C88, C89);
the theta-phi blocks of `hessian_vector_unit` and `hessian_fd` are the transposes of the true ones (C91);
`cs` loses every unitary whose lower-left block is singular because `np.sign(0) = 0` (C94); `bowtie(u)` raises for a crossing and for every even n >= 4,
gives diag(-u00, 1) for a diagonal 2 x 2 unitary and places left and right factors in the wrong order for n = 3 (C95);
`fidelity` is optimal at the conjugate of the requested amplitudes (C96); the Gaussian pulse width goes like the square root of `pulse_width` (C98);
`run_cw_port` restarts the source phase on resumption, ignores weights, and measures at 1.55 whatever the wavelength (C99 - C101);
a source given as a list of one name raises (C102);
`column_ordered` moves errors between nodes and drops the style (C105); `offset` and `aggregate` can leave meshes that raise (C107); the params setter
aliases the caller's arrays and building an in-situ layer zeroes the given mesh's output phases (C108); `parallel_mzi()` uses thetas for phis (C110);
mode measurements crosstalk: measure_fn(i) does not vanish on another mode's fields, although the modes themselves are orthogonal (C111, C113);
the upper FDTD/FDFD PML layer is weaker than the lower one at the cell centres (C118); FDTD with PML cannot be built below 3-D (C119);
`step` overwrites the PML memories of the state it is given, with jax too (C34);
`block_design` draws a one-pixel gap solid and ignores `wg_height=0` (C120); without a substrate the rib is overwritten (C122);
`add` without heights raises after editing (C124); `set_eps` drops axes of one cell (C125); grids built from one array share it (C126);
rectangular_phase_shift_powers loses entries for every odd n and raises for n = 2 (C128);
splitter errors and losses are looked up by list position, not by node id (C131);
the mirror image along z of a 3-D FDTD run is not the run of the mirror image when eps varies along z, because yee_avg averages eps along x and y only (C135);
with jax, sources overwrite, so a response depends on what else is in the source cell and reciprocity fails (C141);
`matrix_opt` has no gradient at a perfect match: the error has a corner there (C142);
`gaussian_fft` broadcasts along the wrong axis for several profiles (C143);
random initial phases of a balanced tree are drawn in list order but used by node number, so its splits are not uniform on average (C144; in the chain the two reversals cancel);
noise of `in_situ_matrix_fn` is drawn at trace time, so a jitted layer repeats the same noise at every call (C145);
`beta_phase` is not normalised: an extra factor 1/pi (C147);
FDFD s-parameters and `Component.from_fdfd` take source and measurement modes at 1.55 um whatever the simulated wavelength, and measure with factor 3 (C148);
`decorate` labels all components at the same corner, half a cell off along the component's own axis (C149);
`shift_slice` raises for every slice with two ends (C150);
the H that `FDFD.solve` returns has the sign of exp(-i w t) while the layers absorb exp(-i k x), so Re(E x H*) points towards the source (C153);
`fill`, `add` and `Box` truncate quotients of floats: with spacing 0.1, `fill(0.3)` fills two cells and a box from 0.3 to 0.6 is drawn one cell low (C155);
`hessian_distribution` returns first rows instead of Hessians (C156);
`matrix()` works in single precision by default: the identity it starts from is complex64 and every column is written back into it (C157);
the matrix function raises for real inputs, `hessian_fd` for real vectors and `propagate()` without inputs (C158);
`CouplingNode.nullify` with `lower_theta` or `lower_phi` returns a vector that is not nulled (C161);
propagate_matrix_fn(use_jax=True, explicit=False) always raises TypeError (unknown arguments to _parallel_transform), and with a
column_cutoff, documented as ignored with jax, leaves out the gammas while propagating all columns (C162);
the TM answer of a mirror-symmetric absorbing problem is not mirror symmetric: `mat_hz` takes the permittivity of the edge on the wrong side of the cell (C166);
scpml and the returned fields use opposite time conventions: a material that absorbs for the returned Maxwell fields (Im eps > 0) acts as gain for the PML, and the FDFD system can be singular with the default PML (C167);
programming by null vectors keeps the np.spacing(1) guard in the split ratios, so it is inexact by a relative 2.2e-16 even for ideal hardware (C84, C85);
solve with an interval gives the Hermitian eigensolver a 2-D operator that is not Hermitian for any waveguide, ignores how many pairs were found, and squares a negative lower bound (C171);
a port of height 0 (the default) in a 3-D simulation is viewed along z but placed along x or y, and one of width 0 facing y launches along x (C172);
BPM.adi_polarized overwrites the grid's pixel sizes with 0 in place before it raises (C173);
FDFD.sparams raises for every dictionary measure_info (its declared type) and for every source mode_idx > 0, and can return inverse ratios when ports face each other (C175);
rotating the axes of a layered structure changes the FDTD result, because the permittivity is averaged along x and y but not along z (C176);
ModeLibrary accepts negative mode indices (-1 is the weakest guided mode) and cannot be built, or updated, where nothing is guided (C177);
the electric field of a TM simulation converges to the opposite of the electric field, however fine the grid; and h_z only to first order where the permittivity varies (C178);
a lossless box without layers has no solution at the resonances of the grid, e.g. vacuum on a row of n cells of size dx at k0 = 2 sin(pi/n)/dx (C179).
