(** C153, C154: power flow of FDFD solutions and their absorbing layers. *)
From Coq Require Import Reals Lra Lia List Arith.
From Verif Require Import Cx Arr Model_coupling Model_yee Spec_yee Model_fdfd Spec_fdfd Proof_fdfd2 Prop_fdfd Spec_absorb Proof_absorb Proof_absorb2 Proof_absorb3 Proof_absorb4 Proof_absorb5 Proof_harm.
Local Open Scope R_scope.

(** C153.  From one plane to the next the power changes by what the stretched cells take (their imaginary widths are nonpositive, C38) and what sources give. *)
Theorem C153_plane_balance : forall s dxf dxb k0 eps e h src a m, faraday s dxf k0 e h -> ampere s dxb k0 eps e h src ->
  (forall b, b <> a -> real_axis s dxf dxb b) -> (forall m, (m < s a)%nat -> dxf a m <> C0 /\ dxb a m <> C0) -> (m < s a)%nat ->
  let m' := succ_p (s a) m in
  power_through s e h a m' = power_through s e h a m + im (dxf a m) * taken_h s k0 eps e h a m + im (dxb a m') * taken_e s k0 eps e h a m' +
    given_n s dxf e src a m + given_t s dxb e src a m'.
Proof. exact balance_plane. Qed.
Print Assumptions C153_plane_balance.
(** One dimension: the solution of any source flows unchanged between the layers and only loses power in them, in the direction it travels. *)
Theorem C153_line_absorbs : forall d n t p lr pe w solver src m, line_with_layers d n t p lr pe w -> exact2 d (mat_ez d) solver src ->
  (m + 1 < n)%nat -> src (m + 1)%nat 0%nat 0%nat = C0 ->
  let (e, h) := solve2_te d solver src in
  power_through (d_shape d) e h AX (m + 1) <= power_through (d_shape d) e h AX m /\
  ((t <= m)%nat -> (m + 1 <= n - t)%nat -> power_through (d_shape d) e h AX (m + 1) = power_through (d_shape d) e h AX m).
Proof.
  intros d n t p lr pe w solver src m L E Hm S0. pose proof L as (Es & Hb & _ & _ & _ & Hk & _).
  pose proof (C56_solve_te_maxwell d solver src Hb ltac:(lra) ltac:(rewrite Es; reflexivity) E) as M. destruct (solve2_te d solver src) as [e h]. destruct M as [F A].
  apply (line_flow d n t p lr pe w e h (only_z src) m L F A Hm). intros []; cbn [only_z]; auto.
Qed.
Print Assumptions C153_line_absorbs.
(** All fields, both polarisations: in total the sources give exactly what the layers take, which is never negative. *)
Theorem C153_line_total : forall d n t p lr pe w e h src, line_with_layers d n t p lr pe w -> faraday (d_shape d) (d_dxf d) (d_k0 d) e h ->
  ampere (d_shape d) (d_dxb d) (d_k0 d) (d_eps d) e h src ->
  Rsum n (given_t (d_shape d) (d_dxb d) e src AX) =
  Rsum n (fun m => - im (d_dxf d AX m) * (d_k0 d * (Cn2 (h AY m 0%nat 0%nat) + Cn2 (h AZ m 0%nat 0%nat))) +
    - im (d_dxb d AX m) * (d_k0 d * (d_eps d AY m 0%nat 0%nat * Cn2 (e AY m 0%nat 0%nat) + d_eps d AZ m 0%nat 0%nat * Cn2 (e AZ m 0%nat 0%nat)))) /\
  0 <= Rsum n (given_t (d_shape d) (d_dxb d) e src AX).
Proof.
  intros d n t p lr pe w e h src L F A. pose proof (line_total d n t p lr pe w e h src L F A) as T. split; [exact T |]. rewrite T.
  apply Rsum_nonneg. intros m Hm. destruct (stretch_parts d n t p lr pe w m L Hm) as ((_ & I1 & _ & I2) & _). pose proof L as (_ & _ & _ & _ & _ & Hk & _ & _ & _ & _ & _ & EP).
  apply Rplus_le_le_0_compat; (apply Rmult_le_pos; [lra |]); (apply Rmult_le_pos; [lra |]); apply Rplus_le_le_0_compat; try apply Cn2_nonneg; (apply Rmult_le_pos; [left; apply EP | apply Cn2_nonneg]).
Qed.
Print Assumptions C153_line_total.
(** So a line with layers has no resonance: whatever the permittivity and the wavelength, neither system matrix is singular. *)
Theorem C153_line_regular : forall d n t p lr pe w x, line_with_layers d n t p lr pe w ->
  ((forall r, (r < n)%nat -> matvec n (mat_ez d) x r = C0) -> forall r, (r < n)%nat -> x r = C0) /\
  ((forall r, (r < n)%nat -> matvec n (mat_hz d) x r = C0) -> forall r, (r < n)%nat -> x r = C0).
Proof. exact line_regular. Qed.
Print Assumptions C153_line_regular.
(** Hence for every source there is exactly one field that an exact solver can return, in both polarisations. *)
Theorem C153_line_solvable : forall d n t p lr pe w src, line_with_layers d n t p lr pe w -> forall M, M = mat_ez d \/ M = mat_hz d ->
  exists x, exact2 d M (fun _ _ => x) src /\ forall solver, exact2 d M solver src ->
    forall r, (r < n)%nat -> solver M (fun r => RtoC (d_k0 d) * ravel (d_shape d) src r)%C r = x r.
Proof. exact line_solvable. Qed.
Print Assumptions C153_line_solvable.
(** Twelve cells; every field solves the equations for its own source; a wave in the middle that needs no source at cell 6 and carries power. *)
Example C153_nonvacuous : line_with_layers line12 12 4 4 (-16) 1 1 /\
  (forall e, faraday (d_shape line12) (d_dxf line12) (d_k0 line12) e (h_for line12 e) /\ ampere (d_shape line12) (d_dxb line12) (d_k0 line12) (d_eps line12) e (h_for line12 e) (src_for line12 e)) /\
  src_for line12 wave3 AZ 6%nat 0%nat 0%nat = C0 /\ power_through (d_shape line12) wave3 (h_for line12 wave3) AX 5 = -1.
Proof. split; [exact line12_ok |]. split; [intro e; apply fields_for; cbn; lra | exact wave3_ok]. Qed.

(** C154.  Poynting's theorem: the power leaving any box of unstretched cells is the power the sources inside give. *)
Theorem C154_poynting : forall d solver src w l u, d_bloch d = (fun _ => C1) -> d_k0 d <> 0 -> exact3 d solver src -> clear_box (d_shape d) (d_dxf d) (d_dxb d) w l u ->
  let (e, h) := solve3 d solver src in outflow (d_shape d) w l u e h = source_power w l u e src.
Proof.
  intros d solver src w l u Hb Hk E B. pose proof (C56_solve3_maxwell d solver src Hb Hk E) as M. destruct (solve3 d solver src) as [e h]. destruct M as [F A].
  exact (poynting_box (d_shape d) (d_dxf d) (d_dxb d) (d_k0 d) (d_eps d) e h src w l u F A B).
Qed.
Print Assumptions C154_poynting.
(** In particular no power is created or lost where there is no source. *)
Theorem C154_no_source : forall d solver src w l u, d_bloch d = (fun _ => C1) -> d_k0 d <> 0 -> exact3 d solver src -> clear_box (d_shape d) (d_dxf d) (d_dxb d) w l u ->
  (forall c i j k, (l AX <= i < u AX)%nat -> (l AY <= j < u AY)%nat -> (l AZ <= k < u AZ)%nat -> src c i j k = C0) ->
  let (e, h) := solve3 d solver src in outflow (d_shape d) w l u e h = 0.
Proof.
  intros d solver src w l u Hb Hk E B Z. pose proof (C154_poynting d solver src w l u Hb Hk E B) as P. destruct (solve3 d solver src) as [e h]. rewrite P.
  unfold source_power. rewrite (box_ext l u _ (fun _ _ _ => 0 * 0)).
  - rewrite box_scal. ring.
  - intros i j k Hi Hj Hk'. rewrite !Z by auto. cbn. ring.
Qed.
Print Assumptions C154_no_source.
(** Every field is the exact solution of some source; the box is everything between the layers. *)
Example C154_nonvacuous : clear_box (d_shape cube12) (d_dxf cube12) (d_dxb cube12) (fun _ => 1) (fun _ => 4%nat) (fun _ => 9%nat) /\
  forall x, exists src, exact3 cube12 (fun _ _ => x) src.
Proof. split; [exact cube12_ok |]. intro x. apply any_solution. cbn. lra. Qed.
