(** C114-C119, C152, C34 (PML memory): FDTD with perfectly matched layers. *)
From Coq Require Import Reals List Arith.
From Verif Require Import Cx Arr Model_yee Spec_yee Model_fdtd Spec_fdtd Model_fdfd Model_fdtdpml Spec_fdtdpml
  Proof_fdtdpml Proof_fdtdpml2 Proof_fdtdpml3 Proof_fdtdpml4.
Import ListNotations.
Local Open Scope R_scope.

(** ** C114 finite propagation speed: after n steps the fields at a cell depend only on the permittivity, the initial state and
    the sources at most n cells away (on the periodic grid), with and without PML, numpy and jax. *)
Theorem C114_finite_speed : forall g g' jax st st' sch sch' n i j k, in_grid (g_shape g) i j k -> length sch = n ->
  agree_grid (near (g_shape g) n i j k) g g' ->
  agree_v (near (g_shape g) n i j k) (f_e st) (f_e st') -> agree_v (near (g_shape g) n i j k) (f_h st) (f_h st') ->
  agree_schedule (near (g_shape g) n i j k) sch sch' -> forall c,
  f_e (run g jax st sch) c i j k = f_e (run g' jax st' sch') c i j k /\
  f_h (run g jax st sch) c i j k = f_h (run g' jax st' sch') c i j k.
Proof. exact finite_speed_free. Qed.
Theorem C114_finite_speed_pml : forall g g' jax p st st' sch sch' n i j k, in_grid (g_shape g) i j k -> length sch = n ->
  agree_grid (near (g_shape g) n i j k) g g' -> agree_state (near (g_shape g) n i j k) st st' ->
  agree_schedule (near (g_shape g) n i j k) sch sch' -> forall c,
  ps_e (prun g jax p st sch) c i j k = ps_e (prun g' jax p st' sch') c i j k /\
  ps_h (prun g jax p st sch) c i j k = ps_h (prun g' jax p st' sch') c i j k.
Proof. exact finite_speed. Qed.
Example C114_case : in_grid (g_shape cube10) 5 5 5 /\ agree_grid (near (g_shape cube10) 4 5 5 5) cube10 cube10' /\
  g_eps cube10 0%nat 5%nat 5%nat <> g_eps cube10' 0%nat 5%nat 5%nat.
Proof. exact speed_instance. Qed.

(** ** C115 the layers act only on their own cells: n steps later, every cell more than n cells away from all layers carries the
    fields of the simulation without PML, whatever the memories. *)
Theorem C115_interior : forall g jax p st sch n i j k, length sch = n -> deep g p n i j k -> forall c,
  ps_e (prun g jax p st sch) c i j k = f_e (run g jax (fields st) sch) c i j k /\
  ps_h (prun g jax p st sch) c i j k = f_h (run g jax (fields st) sch) c i j k.
Proof. exact interior. Qed.
Example C115_case : wf_pml cube20 pml4 /\ deep cube20 pml4 5 9 9 9 /\ ~ deep cube20 pml4 5 8 9 9.
Proof. exact deep_instance. Qed.

(** ** C116 superposition and rest states with PML. *)
Theorem C116_superposition : forall g jax p al be l1 l2 l3, lin_schedule al be l1 l2 l3 -> forall s1 s2,
  prun g jax p (lin_pstate al be s1 s2) l3 = lin_pstate al be (prun g jax p s1 l1) (prun g jax p s2 l2).
Proof. exact prun_lin. Qed.
(** Uniform static fields (in particular zero) stay as they are. *)
Theorem C116_rest : forall g jax p e h n, prun g jax p (uniform_state e h) (repeat [] n) = uniform_state e h.
Proof. exact uniform_fixed_n. Qed.
(** Without sources numpy and jax agree. *)
Theorem C116_backends : forall g p st n, prun g true p st (repeat [] n) = prun g false p st (repeat [] n).
Proof. exact prun_jax_free. Qed.

(** ** C117 the coefficients damp: 0 < b < 1, -1 < c <= 0, and c = 0 exactly for the differences along another axis or outside
    the layer; both grow in strength towards the outer boundary. *)
Theorem C117_coefficients : forall g p o r c i j k, wf_grid g -> g_ndim g = 3%nat -> wf_pml g p -> absorbing p -> in_grid (g_shape g) i j k ->
  0 < cpml_b g p o r c i j k < 1 /\ -1 < cpml_c g p o r c i j k <= 0 /\
  (cpml_c g p o r c i j k = 0 <-> c <> fst r \/ (p_cells p c <= coord c i j k <= g_shape g c - p_cells p c)%nat).
Proof. exact coef_shape. Qed.
Theorem C117_graded : forall g p o a lo i j k i' j' k', wf_grid g -> g_ndim g = 3%nat -> wf_pml g p -> absorbing p ->
  in_grid (g_shape g) i j k -> in_grid (g_shape g) i' j' k' -> coord a i' j' k' = (coord a i j k + 1)%nat ->
  ((coord a i' j' k' < g_shape g a - p_cells p a)%nat ->
    cpml_b g p o (a, lo) a i j k <= cpml_b g p o (a, lo) a i' j' k' /\ cpml_c g p o (a, lo) a i j k <= cpml_c g p o (a, lo) a i' j' k') /\
  ((p_cells p a <= coord a i j k)%nat ->
    cpml_b g p o (a, lo) a i' j' k' <= cpml_b g p o (a, lo) a i j k /\ cpml_c g p o (a, lo) a i' j' k' <= cpml_c g p o (a, lo) a i j k).
Proof. exact coef_graded. Qed.
Example C117_case : wf_grid cube10 /\ wf_pml cube10 pml4 /\ absorbing pml4.
Proof. split; [exact cube_wf | exact pml4_ok]. Qed.

(** ** C118 the two layers of an axis are mirror images: true of the conductivity at the cell edges (E update), false at the cell
    centres (H update), where the upper layer is weaker at every cell.  Missing: the mirror symmetry itself, false of the code. *)
Theorem C118_edges_partial : forall p h n t i, 0 < h -> (0 < t)%nat -> (2 * t < n)%nat -> (1 <= i <= t)%nat ->
  sigma p h n t true (n - i) = sigma p h n t true i.
Proof. exact edge_mirror. Qed.
Theorem C118_centres_refuted : forall p h n t i, absorbing p -> 0 < h -> (0 < t)%nat -> (2 * t < n)%nat -> (i < t)%nat ->
  sigma p h n t false (n - 1 - i) < sigma p h n t false i.
Proof. exact centre_mirror. Qed.
Example C118_case : (0 < p_cells pml4 AX)%nat /\ (2 * p_cells pml4 AX < g_shape cube10 AX)%nat /\ absorbing pml4.
Proof. destruct pml4_ok as [W A]. split; [apply W | split; [apply W | exact A]]. Qed.

(** ** C119 construction: in three dimensions every thickness the grid accepts gives a simulation with layers of that thickness;
    in one and two dimensions FDTD with PML always raises.  Missing: 1-D and 2-D, where the claim is false. *)
Theorem C119_three_d_partial : forall g x y z m lr corr, g_ndim g = 3%nat ->
  (3 < x < g_shape g AX / 2)%nat -> (3 < y < g_shape g AY / 2)%nat -> (3 < z < g_shape g AZ / 2)%nat ->
  exists p, make_fdtd g (Some [x; y; z]) m lr corr = Some (Some p) /\ wf_pml g p /\
    p_cells p AX = x /\ p_cells p AY = y /\ p_cells p AZ = z.
Proof. exact make_3d. Qed.
Theorem C119_low_dimension_refuted : forall g t m lr corr, (g_ndim g < 3)%nat -> make_fdtd g (Some t) m lr corr = None.
Proof. exact make_low_dim. Qed.
Example C119_case : g_ndim cube10 = 3%nat /\ (3 < 4 < g_shape cube10 AX / 2)%nat.
Proof. split; [reflexivity |]. change (g_shape cube10 AX / 2)%nat with 5%nat. split; repeat constructor. Qed.

(** ** C34 (PML): with jax too, step replaces the memories inside the caller's state, so a second call with the same state
    object gives other fields. *)
Theorem C34_pml_memory_refuted : exists g p st c i j k, wf_grid g /\ wf_pml g p /\ absorbing p /\ in_grid (g_shape g) i j k /\
  let first := pstep_jax_caller g p st [] in
  let second := pstep_jax_caller g p (snd first) [] in
  ps_e (fst second) c i j k <> ps_e (fst first) c i j k.
Proof. exact second_call. Qed.

(** ** C152 inside the layers (the first and last t cells of each axis) a step replaces the derivative across the layer by
    (1 + c) times itself plus b c times that of the step before, with the graded b and c of Spec_fdtdpml; every other derivative
    is untouched (c = 0 there).  The second step of any two, whatever the sources of the first were: *)
Theorem C152_step : forall g jax p st srcs c i j k, wf_grid g -> g_ndim g = 3%nat -> wf_pml g p -> absorbing p -> in_grid (g_shape g) i j k ->
  let st1 := pstep g jax p st srcs in let st2 := pstep g jax p st1 [] in
  ps_e st2 c i j k = (ps_e st1 c i j k + RtoC (dt_of g) / RtoC (eps_t g jax c i j k) * rot (fun a b => damped g p true (ps_h st1) (ps_h st) a b i j k) c)%C /\
  ps_h st2 c i j k = (ps_h st1 c i j k - RtoC (dt_of g) * rot (fun a b => damped g p false (ps_e st2) (ps_e st1) a b i j k) c)%C.
Proof. exact layer_step. Qed.
(** The first step after a reset of the memories, from any fields: *)
Theorem C152_first : forall g jax p e h c i j k, wf_grid g -> g_ndim g = 3%nat -> wf_pml g p -> absorbing p -> in_grid (g_shape g) i j k ->
  let st := mkPstate e h zero_mem zero_mem in let st1 := pstep g jax p st [] in
  ps_e st1 c i j k = (e c i j k + RtoC (dt_of g) / RtoC (eps_t g jax c i j k) * rot (fun a b => RtoC (1 + layer_c g p true a (coord a i j k)) * yee_quot g true a (h b) i j k) c)%C /\
  ps_h st1 c i j k = (h c i j k - RtoC (dt_of g) * rot (fun a b => RtoC (1 + layer_c g p false a (coord a i j k)) * yee_quot g false a (ps_e st1 b) i j k) c)%C.
Proof. exact layer_first. Qed.
Example C152_case : (wf_grid cube10 /\ wf_pml cube10 pml4 /\ absorbing pml4) /\ g_ndim cube10 = 3%nat /\ in_grid (g_shape cube10) 1 5 5 /\
  depth 10 4 true 1 = 3 / 4 /\ depth 10 4 true 5 = 0 /\ depth 10 4 true 9 = 3 / 4.
Proof.
  split; [exact C117_case |]. split; [reflexivity |]. split; [repeat split; cbn; repeat constructor |].
  unfold depth. cbn. repeat split; field.
Qed.

Print Assumptions C114_finite_speed.
Print Assumptions C114_finite_speed_pml.
Print Assumptions C115_interior.
Print Assumptions C116_superposition.
Print Assumptions C116_rest.
Print Assumptions C116_backends.
Print Assumptions C117_coefficients.
Print Assumptions C117_graded.
Print Assumptions C118_edges_partial.
Print Assumptions C118_centres_refuted.
Print Assumptions C119_three_d_partial.
Print Assumptions C119_low_dimension_refuted.
Print Assumptions C34_pml_memory_refuted.
Print Assumptions C152_step.
Print Assumptions C152_first.
