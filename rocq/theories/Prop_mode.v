(** C67 - C79: waveguide modes, their orientation at ports, sources and 2-d projections. *)
From Coq Require Import Reals List Arith ZArith Lra Lia Bool.
From Verif Require Import Cx Arr Model_coupling Model_yee Spec_yee Model_fdfd Spec_fdfd Model_adj Model_grid Model_mode Spec_mode
  Proof_mode Proof_mode2 Proof_mode3 Proof_mode4 Proof_mode5 Spec_poynting Proof_poynting.
Import ListNotations.
Local Open Scope R_scope.

(** C67: every eigenpair of the 2-d operator gives fields that satisfy both curl equations at every cell and carry no magnetic charge;
    they travel as e^{-i beta z} (time dependence e^{i k0 t}).  Conversely every such Maxwell mode is an eigenvector. *)
Theorem C67_modes_are_maxwell : forall q beta vx vy, q_k0 q <> 0 -> beta <> 0 -> pos_eps q -> eigen2 q (RtoC (beta * beta)) vx vy ->
  let h := mode_h q beta vx vy in let e := mode_e q beta h in
  maxwell_mode (q_shape q) (fwd (q_shape q) (q_dx q)) (bwd (q_shape q) (q_dx q)) (- (Ci * RtoC beta))%C (q_k0 q) (q_eps_t q) e h /\
  div_free (q_shape q) (fwd (q_shape q) (q_dx q)) (- (Ci * RtoC beta))%C h.
Proof. exact modes_maxwell. Qed.
Print Assumptions C67_modes_are_maxwell.
Theorem C67_maxwell_are_modes : forall q beta e h, q_k0 q <> 0 -> pos_eps q ->
  maxwell_mode (q_shape q) (fwd (q_shape q) (q_dx q)) (bwd (q_shape q) (q_dx q)) (- (Ci * RtoC beta))%C (q_k0 q) (q_eps_t q) e h ->
  eigen2 q (RtoC (beta * beta)) (ravel (q_shape q) (h AX)) (ravel (q_shape q) (h AY)).
Proof. exact maxwell_eigen. Qed.
Print Assumptions C67_maxwell_are_modes.
(** ModeSolver.e2h of the electric field of a mode (ModeSolver.h2e of its magnetic field) is MINUS the magnetic field (see C36). *)
Theorem C36_mode_round_trip_refuted : forall q beta vx vy c i j k, q_k0 q <> 0 -> beta <> 0 -> pos_eps q -> eigen2 q (RtoC (beta * beta)) vx vy -> in_grid (q_shape q) i j k ->
  let h := mode_h q beta vx vy in mode_e2h q beta (mode_e q beta h) c i j k = (- h c i j k)%C.
Proof. exact mode_round_trip. Qed.
Print Assumptions C36_mode_round_trip_refuted.
Example C67_nonvacuous : q_k0 ex2 <> 0 /\ pos_eps ex2 /\ eigen2 ex2 (RtoC (2 * 2)) ex2_vx ex2_vy /\ ex2_vy 0%nat <> ex2_vy 2%nat.
Proof. exact ex2_ok. Qed.

(** C68: 1-d modes.  TE: Maxwell's equations at every cell, with the permittivity of the cells. *)
Theorem C68_te_partial : forall q, q_shape q AY = 1%nat -> q_k0 q <> 0 -> forall beta v,
  eigen1 q (RtoC (beta * beta)) v ->
  let m := unravel_f (q_shape q) v in
  maxwell_mode (q_shape q) (bwd (q_shape q) (q_dx q)) (fwd (q_shape q) (q_dx q)) (Ci * RtoC beta)%C (q_k0 q) (fun _ => q_eps q)
    (e_1d q false beta m) (h_1d q false beta m).
Proof. exact te_1d_maxwell. Qed.
Print Assumptions C68_te_partial.
(** TM: only in a uniform medium (and at frequency -k0: the opposite time convention). *)
Theorem C68_tm_uniform_partial : forall q, q_shape q AY = 1%nat -> q_k0 q <> 0 -> forall beta x v, 0 < x ->
  (forall i j k, in_grid (q_shape q) i j k -> q_eps q i j k = x) -> eigen1 q (RtoC (beta * beta)) v ->
  let m := unravel_f (q_shape q) v in
  maxwell_mode (q_shape q) (bwd (q_shape q) (q_dx q)) (fwd (q_shape q) (q_dx q)) (Ci * RtoC beta)%C (- q_k0 q) (q_eps_t q)
    (e_1d q true beta m) (h_1d q true beta m).
Proof. exact tm_1d_maxwell. Qed.
Print Assumptions C68_tm_uniform_partial.
(** TM in a waveguide: not Maxwell, whatever the staggering and the signs of beta and of the frequency. *)
Theorem C68_tm_refuted : exists q beta v, q_shape q AY = 1%nat /\ q_shape q AZ = 1%nat /\ q_k0 q <> 0 /\ beta <> 0 /\ pos_eps q /\
  eigen1 q (RtoC (beta * beta)) v /\
  forall De Dh, (De, Dh) = (bwd (q_shape q) (q_dx q), fwd (q_shape q) (q_dx q)) \/ (De, Dh) = (fwd (q_shape q) (q_dx q), bwd (q_shape q) (q_dx q)) ->
  forall kz w, kz = beta \/ kz = - beta -> w = q_k0 q \/ w = - q_k0 q ->
  ~ maxwell_mode (q_shape q) De Dh (Ci * RtoC kz)%C w (q_eps_t q) (e_1d q true beta (unravel_f (q_shape q) v)) (h_1d q true beta (unravel_f (q_shape q) v)).
Proof. exact tm_1d_refuted. Qed.
Print Assumptions C68_tm_refuted.
Example C68_nonvacuous : eigen1 ex1 (RtoC (2 * 2)) ex1_v /\ ex1_v 0%nat <> ex1_v 1%nat.
Proof. split; [exact ex1_eigen |]. cbn. intro E. apply RtoC_inj in E. lra. Qed.

(** C69: the power a 1-d mode carries along its propagation axis, as poynting_fn reports it: TM never negative ... *)
Theorem C69_tm_power_partial : forall q beta m i, q_k0 q <> 0 -> q_eps_t q AX i 0%nat 0%nat <> 0 ->
  exists p, poynting 2 (q_shape q AX) 1 (as_array (e_1d q true beta m)) (as_array (h_1d q true beta m)) = Some p /\
    p i 0%nat = RtoC (beta / (q_k0 q * q_eps_t q AX i 0%nat 0%nat) * Cn2 (m i 0%nat 0%nat)).
Proof. exact tm_power. Qed.
Print Assumptions C69_tm_power_partial.
(** ... TE never positive: for tm_2d=False every guided mode carries its power backwards. *)
Theorem C69_te_power_refuted : forall q beta m i, q_k0 q <> 0 -> (i < q_shape q AX)%nat ->
  exists p, poynting 2 (q_shape q AX) 1 (as_array (e_1d q false beta m)) (as_array (h_1d q false beta m)) = Some p /\
    p i 0%nat = RtoC (- (beta / q_k0 q) * Cn2 (mean_first (q_shape q AX) (fun i j => m i j 0%nat) i 0%nat)).
Proof. exact te_power_corners. Qed.
Print Assumptions C69_te_power_refuted.

(** C70: evolve advances the phase by phase(length), and two modes beat with period beat_length. *)
Theorem C70_evolve_phase : forall k0 f beta len c i j k, k0 <> 0 ->
  evolve ((f, beta) :: nil) (1 :: nil) len c i j k = (f c i j k * cis (mode_phase k0 beta len))%C.
Proof. exact evolve_phase. Qed.
Print Assumptions C70_evolve_phase.
Theorem C70_beat_period : forall f0 f1 b0 b1 w0 w1 len c i j k, b0 <> b1 ->
  Cn2 (evolve ((f0, b0) :: (f1, b1) :: nil) (w0 :: w1 :: nil) (len + beat_length b0 b1) c i j k) =
  Cn2 (evolve ((f0, b0) :: (f1, b1) :: nil) (w0 :: w1 :: nil) len c i j k).
Proof. exact beat_period. Qed.
Print Assumptions C70_beat_period.

(** C71: evolve multiplies by e^{+i beta length}; the 2-d fields solve Maxwell's equations with e^{-i beta z} (C67) and not with e^{+i beta z}. *)
Theorem C71_evolve_direction_refuted : exists q beta vx vy, q_k0 q <> 0 /\ 0 < beta /\ pos_eps q /\ eigen2 q (RtoC (beta * beta)) vx vy /\
  forall w, w = q_k0 q \/ w = - q_k0 q ->
  let h := mode_h q beta vx vy in
  ~ maxwell_mode (q_shape q) (fwd (q_shape q) (q_dx q)) (bwd (q_shape q) (q_dx q)) (Ci * RtoC beta)%C w (q_eps_t q) (mode_e q beta h) h.
Proof. exact evolve_2d_refuted. Qed.
Print Assumptions C71_evolve_direction_refuted.
(** For 1-d modes (TE) the direction is the right one. *)
Theorem C71_evolve_te_partial : forall q, q_shape q AY = 1%nat -> q_shape q AZ = 1%nat -> q_k0 q <> 0 -> forall beta v len,
  eigen1 q (RtoC (beta * beta)) v ->
  let m := unravel_f (q_shape q) v in
  (forall c i j k, evolve ((e_1d q false beta m, beta) :: nil) (1 :: nil) len c i j k = (e_1d q false beta m c i j k * cis (beta * len))%C) /\
  maxwell_mode (q_shape q) (bwd (q_shape q) (q_dx q)) (fwd (q_shape q) (q_dx q)) (Ci * RtoC beta)%C (q_k0 q) (fun _ => q_eps q)
    (e_1d q false beta m) (h_1d q false beta m).
Proof. exact evolve_te. Qed.
Print Assumptions C71_evolve_te_partial.

(** C72: dispersion_sweep solves the same operator for every wavelength; without a progress bar it raises. *)
Theorem C72_sweep_refuted : forall q wavelengths,
  dispersion_sweep q false wavelengths = None /\
  exists calls, dispersion_sweep q true wavelengths = Some calls /\ length calls = length wavelengths /\
    forall c, In c calls -> call_solver c = q.
Proof. exact sweep_same. Qed.
Print Assumptions C72_sweep_refuted.
Theorem C72_update_wavelength_partial : forall q w, q_k0 (update_wavelength q w) = 2 * PI / w /\
  q_shape (update_wavelength q w) = q_shape q /\ q_eps (update_wavelength q w) = q_eps q.
Proof. exact update_ok. Qed.
Print Assumptions C72_update_wavelength_partial.

(** C73: 2-d simulations: the mode lands on the requested cells and nowhere else. *)
Theorem C73_place_2d_partial : forall n m a b c mode, (0 <= a <= b)%Z -> (b <= n)%Z -> (0 <= c < m)%Z ->
  forall i j, (0 <= i < n)%Z -> (0 <= j < m)%Z ->
  place_1d n m a b c (b - a) mode i j = Some (if (Z.leb a i && Z.ltb i b && Z.eqb j c)%bool then mode (i - a)%Z else C0).
Proof. exact place_1d_ok. Qed.
Print Assumptions C73_place_2d_partial.
(** 3-d simulations: place raises whenever some size is zero, as for every plane normal to an axis, whatever the grid, the mode's shape and the orientation. *)
Theorem C73_place_3d_refuted : forall X Y Zn pa p qq r0 r1 r2,
  (exists c, r0 = SIndex c \/ r1 = SIndex c \/ r2 = SIndex c) -> place_3d_raises X Y Zn pa p qq r0 r1 r2 = true.
Proof. exact place_3d_always_raises. Qed.
Print Assumptions C73_place_3d_refuted.
(** ... and given slices only, it reads the slice along x as a range of components, so only 0:3 is accepted there, whatever the plane. *)
Theorem C73_place_3d_slices_refuted : forall X Y Zn p qq a b c d e f, (0 <= a <= b)%Z -> (b <= 3)%Z -> (0 <= c <= d)%Z -> (d <= X)%Z -> (0 <= e <= f)%Z -> (f <= Y)%Z ->
  (place_3d_raises X Y Zn AX p qq (SSlice a b) (SSlice c d) (SSlice e f) = false <->
   a = 0%Z /\ b = 3%Z /\ (p = (f - e)%Z \/ p = 1%Z) /\ (qq = Zn \/ qq = 1%Z)).
Proof. exact place_3d_slices. Qed.
Print Assumptions C73_place_3d_slices_refuted.
Theorem C73_place_3d_slices_y_refuted : forall X Y Zn p qq a b c d e f, (0 <= a <= b)%Z -> (b <= 3)%Z -> (0 <= c <= d)%Z -> (d <= X)%Z -> (0 <= e <= f)%Z -> (f <= Y)%Z ->
  (place_3d_raises X Y Zn AY p qq (SSlice a b) (SSlice c d) (SSlice e f) = false <->
   a = 0%Z /\ b = 3%Z /\ (p = (d - c)%Z \/ p = 1%Z) /\ (qq = Zn \/ qq = 1%Z)).
Proof. exact place_3d_slices_y. Qed.
Print Assumptions C73_place_3d_slices_y_refuted.
Theorem C73_place_3d_slices_z_refuted : forall X Y Zn p qq a b c d e f, (0 <= a <= b)%Z -> (b <= 3)%Z -> (0 <= c <= d)%Z -> (d <= X)%Z -> (0 <= e <= f)%Z -> (f <= Y)%Z ->
  (place_3d_raises X Y Zn AZ p qq (SSlice a b) (SSlice c d) (SSlice e f) = false <->
   a = 0%Z /\ b = 3%Z /\ (p = (d - c)%Z \/ p = 1%Z) /\ (qq = (f - e)%Z \/ qq = 1%Z)).
Proof. exact place_3d_slices_z. Qed.
Print Assumptions C73_place_3d_slices_z_refuted.

(** C74: the power poynting_fn computes from a view is the power along the view's axis for x and z, its opposite for y. *)
Theorem C74_view_power_partial : forall va e h, va <> AY -> poynting_z (view_c va e) (view_c va h) = power_along va e h.
Proof. exact view_power_xz. Qed.
Print Assumptions C74_view_power_partial.
Theorem C74_view_power_refuted : forall e h, poynting_z (view_c AY e) (view_c AY h) = (- power_along AY e h)%C.
Proof. exact (view_power AY). Qed.
Print Assumptions C74_view_power_refuted.
Theorem C74_right_handed : forall va, right_handed (view_axes va AX) (view_axes va AY) (view_axes va AZ) <-> va <> AY.
Proof. exact view_not_right_handed. Qed.
Print Assumptions C74_right_handed.

(** C75: viewing the oriented profile gives back the mode for ports along y; one component changes sign along x and along z. *)
Theorem C75_profile_y_partial : forall f c, view_c AY (profile_c AY f) c = f c.
Proof. exact profile_y. Qed.
Print Assumptions C75_profile_y_partial.
Theorem C75_profile_refuted : forall f, f AX <> C0 -> f AZ <> C0 ->
  view_c AX (profile_c AX f) AX <> f AX /\ view_c AZ (profile_c AZ f) AZ <> f AZ.
Proof. exact profile_bad. Qed.
Print Assumptions C75_profile_refuted.
(** The power along the port's axis is reversed for x and y. *)
Theorem C75_profile_power : forall pa e h, power_along pa (profile_c pa e) (profile_c pa h) =
  match pa with AZ => power_along AZ e h | _ => (- power_along AZ e h)%C end.
Proof. exact profile_power. Qed.
Print Assumptions C75_profile_power.

(** C76: SimGrid.modes: correct while the permittivity is not written ... *)
Theorem C76_no_write_partial : forall K V E key_eq (solve : E -> K -> V) e ops k, (forall o, In o ops -> exists k, o = MModes K E k) ->
  snd (mstep K V E key_eq solve (mrun K V E key_eq solve (mkM K V E e []) ops) (MModes K E k)) = Some (solve e k).
Proof. exact fresh_modes. Qed.
Print Assumptions C76_no_write_partial.
(** ... and after the first call with some arguments, those arguments get the modes of the permittivity of that time for ever. *)
Theorem C76_stale_refuted : forall K V E key_eq (solve : E -> K -> V) e ops k,
  snd (mstep K V E key_eq solve (mrun K V E key_eq solve (mkM K V E e []) (MModes K E k :: ops)) (MModes K E k)) = Some (solve e k).
Proof. exact stale_modes. Qed.
Print Assumptions C76_stale_refuted.
Example C76_nonvacuous : m_eps _ _ _ (mrun nat R R Nat.eq_dec (fun e _ => e) (mkM _ _ _ 1 []) [MModes nat R 0%nat; MWrite nat R (fun _ => 2)]) = 2.
Proof. reflexivity. Qed.

(** C77 *)
Theorem C77_to_2d_refuted : forall nz spacing, to_2d_raises nz spacing = true.
Proof. exact to_2d_always_raises. Qed.
Print Assumptions C77_to_2d_refuted.
(** With equal spacings the slab's grid is a cube instead of a column. *)
Theorem C77_to_2d_shape_refuted : forall nz spacing, (forall a, 0 < spacing a /\ spacing a = spacing AZ) -> to_2d_slab_shape nz spacing = [nz; nz; nz].
Proof. exact to_2d_cube. Qed.
Print Assumptions C77_to_2d_shape_refuted.
(** and the formula it would use has the effective index of the slab only at wavelength 1. *)
Theorem C77_to_2d_k0 : forall wavelength beta, 0 < wavelength -> beta <> 0 ->
  (to_2d_slab_eps wavelength beta = mode_n (k0_of wavelength) beta ^ 2 <-> wavelength = 1).
Proof. exact to_2d_k0. Qed.
Print Assumptions C77_to_2d_k0.

(** C78: the s-parameters are divided by the amplitude at the source port ... *)
Theorem C78_divisor_partial : forall ports p, In p ports -> sparam_divisor ports None (Some (p, O)) = Some (p, O).
Proof. exact sparam_default. Qed.
Print Assumptions C78_divisor_partial.
(** Without a port name the source is the first entry of measure_info, by default the first port. *)
Theorem C78_first_port_partial : forall p ports info, sparam_divisor (p :: ports) (Some ((p, O) :: info)) None = Some (p, O) /\ sparam_divisor (p :: ports) None None = Some (p, O).
Proof. exact sparam_first_port. Qed.
Print Assumptions C78_first_port_partial.
(** ... but not when measure_info lists the ports in another order. *)
Theorem C78_divisor_refuted : forall p q r, p <> q -> sparam_divisor (p :: q :: r) (Some [(q, O); (p, O)]) (Some (p, O)) = Some (q, O).
Proof. exact sparam_wrong. Qed.
Print Assumptions C78_divisor_refuted.

(** C79: in a single-mode lattice waveguide the unidirectional source sends more power away from [shift] (into the device) than towards it ... *)
Theorem C79_directional_partial : forall beta dx b p0 shift u R L, shift = 1%Z \/ shift = (-1)%Z -> free_wave beta dx b ->
  lattice_wave beta dx (uni_source beta dx p0 shift) u -> outgoing_at b dx u (p0 + shift) shift R -> outgoing_at b dx u p0 (- shift) L ->
  0 < beta * dx -> beta * dx < PI -> dx <> 0 -> Cn2 R < Cn2 L.
Proof. exact uni_ratio. Qed.
Print Assumptions C79_directional_partial.
(** ... but never none: the residual wave vanishes only if e^{-i beta dx} is the lattice's own wave, and it never is. *)
Theorem C79_unidirectional_refuted : forall beta dx b p0 shift u R L, shift = 1%Z \/ shift = (-1)%Z -> free_wave beta dx b ->
  lattice_wave beta dx (uni_source beta dx p0 shift) u -> outgoing_at b dx u (p0 + shift) shift R -> outgoing_at b dx u p0 (- shift) L ->
  dx <> 0 -> beta <> 0 -> R <> C0.
Proof. exact uni_never_silent. Qed.
Print Assumptions C79_unidirectional_refuted.
Theorem C79_matched : forall beta dx b p0 shift u R L, shift = 1%Z \/ shift = (-1)%Z -> free_wave beta dx b ->
  lattice_wave beta dx (uni_source beta dx p0 shift) u -> outgoing_at b dx u (p0 + shift) shift R -> outgoing_at b dx u p0 (- shift) L ->
  dx <> 0 -> (R = C0 <-> cis (- (b * dx)) = cis (- (beta * dx))).
Proof. exact uni_silent. Qed.
Print Assumptions C79_matched.
Example C79_nonvacuous : exists u R L, free_wave 1 1 (PI / 3) /\ lattice_wave 1 1 (uni_source 1 1 0 1) u /\
  outgoing_at (PI / 3) 1 u (0 + 1) 1 R /\ outgoing_at (PI / 3) 1 u 0 (- (1)) L.
Proof. destruct (uni_exists 1 1 (PI / 3) 0 free_wave_ex) as (u & R & L & H). exists u, R, L. split; [exact free_wave_ex | exact H]. Qed.
