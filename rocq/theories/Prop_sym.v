(** C133-C138: symmetries of the time-domain simulation, the unit of length, numerical dispersion. *)
From Coq Require Import Reals Lra Lia List Arith.
From Verif Require Import Cx Arr Model_coupling Model_yee Spec_yee Model_fdtd Spec_fdtd Model_fdfd Spec_sym Spec_disp Proof_sym Proof_sym2 Proof_sym3 Proof_disp Proof_disp2 Proof_disp3.
Import ListNotations.
Local Open Scope R_scope.

(** C133: time reversal.  From E after n steps and minus the H before the last of them, k steps lead back to E after n - k steps and minus the
    H before that. *)
Theorem C133_free : forall g jax st n k, (k <= n)%nat -> (0 < n)%nat ->
  let back := free_run g jax (mkState (f_e (free_run g jax st n)) (neg (f_h (free_run g jax st (n - 1))))) k in
  f_e back = f_e (free_run g jax st (n - k)) /\ ((k < n)%nat -> f_h back = neg (f_h (free_run g jax st (n - k - 1)))).
Proof. exact reversal_free. Qed.
Print Assumptions C133_free.
(** With electric current sources (numpy backend): play them backwards with the opposite sign. *)
Theorem C133_driven : forall g st l1 l2, Forall electric (l1 ++ l2) -> l1 ++ l2 <> [] ->
  let back := run g false (mkState (f_e (run g false st (l1 ++ l2))) (neg (f_h (run g false st (removelast (l1 ++ l2))))))
                (map (map opposite) (rev l2)) in
  f_e back = f_e (run g false st l1) /\ (l1 <> [] -> f_h back = neg (f_h (run g false st (removelast l1)))).
Proof. exact reversal. Qed.
Print Assumptions C133_driven.
Example C133_driven_meets : let J := mkSource (Some (fun _ _ _ _ => C1)) None (fun c i _ _ => match c with AZ => Nat.eqb i 1 | _ => false end) in
  Forall electric ([[J]; [J; J]] ++ [[]; [J]]) /\ [[J]; [J; J]] ++ [[]; [J]] <> [].
Proof. split; [repeat constructor | discriminate]. Qed.

(** C134: translations of the periodic grid. *)
Theorem C134_translation : forall g a d jax sch st, positive_shape (g_shape g) ->
  run (moved_grid a d g) jax (moved_state (g_shape g) a d st) (map (map (moved_source (g_shape g) a d)) sch) =
  moved_state (g_shape g) a d (run g jax st sch).
Proof. exact moved_run. Qed.
Print Assumptions C134_translation.
Example C134_meets : positive_shape zs /\ moved zs AZ 1 (fun _ _ k => k) 0%nat 0%nat 0%nat = 1%nat /\ moved zs AZ 1 (fun _ _ k => k) 0%nat 0%nat 1%nat = 0%nat.
Proof. split; [intro a; destruct a; cbn; lia | split; reflexivity]. Qed.

(** C135: mirror images along x and y ... *)
Theorem C135_mirror_partial : forall g a jax sch st, positive_shape (g_shape g) -> a <> AZ -> Forall electric sch ->
  run (mirror_grid a g) jax (mirror_state (g_shape g) a st) (map (map (mirror_current (g_shape g) a)) sch) =
  mirror_state (g_shape g) a (run g jax st sch).
Proof. exact mirror_run. Qed.
Print Assumptions C135_mirror_partial.
(** ... along z when the permittivity does not depend on z ... *)
Theorem C135_mirror_z_partial : forall g jax sch st, positive_shape (g_shape g) -> (forall i j k k', g_eps g i j k = g_eps g i j k') -> Forall electric sch ->
  run (mirror_grid AZ g) jax (mirror_state (g_shape g) AZ st) (map (map (mirror_current (g_shape g) AZ)) sch) =
  mirror_state (g_shape g) AZ (run g jax st sch).
Proof. exact mirror_run_z. Qed.
Print Assumptions C135_mirror_z_partial.
(** ... and not along z in general: two layers, one step. *)
Theorem C135_mirror_z_refuted : exists g st, wf_grid g /\ (forall i j k, 1 <= g_eps g i j k) /\
  forall jax, free_run (mirror_grid AZ g) jax (mirror_state (g_shape g) AZ st) 1 <> mirror_state (g_shape g) AZ (free_run g jax st 1).
Proof. exact mirror_z_refuted. Qed.
Print Assumptions C135_mirror_z_refuted.
Example C135_images : map (centre_image 4) [0; 1; 2; 3]%nat = [3; 2; 1; 0]%nat /\ map (edge_image 4) [0; 1; 2; 3]%nat = [0; 3; 2; 1]%nat.
Proof. split; reflexivity. Qed.

(** C136: the unit of length. *)
Theorem C136_fdtd : forall g u jax sch st c i j k, wf_grid g -> 0 < u -> in_grid (g_shape g) i j k ->
  f_e (run (scaled_grid u g) jax st (map (map (scaled_source (/ u))) sch)) c i j k = f_e (run g jax st sch) c i j k /\
  f_h (run (scaled_grid u g) jax st (map (map (scaled_source (/ u))) sch)) c i j k = f_h (run g jax st sch) c i j k.
Proof. exact scaled_run. Qed.
Print Assumptions C136_fdtd.
Theorem C136_fdfd : forall d u x y, u <> 0 ->
  (forall r c, mat3 (enlarged u d) r c x y = RtoC (/ (u * u)) * mat3 d r c x y)%C /\
  (mat_ez (enlarged u d) x y = RtoC (/ (u * u)) * mat_ez d x y)%C /\ (mat_hz (enlarged u d) x y = RtoC (/ (u * u)) * mat_hz d x y)%C.
Proof. exact fdfd_scaled. Qed.
Print Assumptions C136_fdfd.
Example C136_meets : wf_grid zg /\ 0 < 1000.
Proof. split; [exact zg_wf | lra]. Qed.

(** C137: numerical dispersion.  In a uniform medium a transverse plane wave stays a plane wave and turns with the lattice frequency. *)
Theorem C137_dispersion : forall g m jax ee om E, wf_grid g -> 0 < ee -> (forall i j k, g_eps g i j k = ee) -> transverse g m E ->
  (2 * sin (om * dt_of g / 2)) ^ 2 = dt_of g ^ 2 * lattice_k2 g m / ee -> lattice_k2 g m <> 0 ->
  exists H, forall n, free_run g jax (mkState (times E (plane (g_shape g) m)) (times H (plane (g_shape g) m))) n =
    mkState (times (fun c => cis (- (om * (INR n * dt_of g))) * E c)%C (plane (g_shape g) m))
            (times (fun c => cis (- (om * (INR n * dt_of g))) * H c)%C (plane (g_shape g) m)).
Proof. exact dispersion. Qed.
Print Assumptions C137_dispersion.
(** The lattice frequency is real for every plane wave when eps >= 1. *)
Theorem C137_real_frequency : forall g m ee, wf_grid g -> 1 <= ee ->
  exists om, 0 <= om /\ (2 * sin (om * dt_of g / 2)) ^ 2 = dt_of g ^ 2 * lattice_k2 g m / ee.
Proof. exact dispersion_exists. Qed.
Print Assumptions C137_real_frequency.

(** C138: plane waves and the frequency-domain operators, Bloch phases included. *)
Theorem C138_3d : forall d sp th ee E c i j k, positive_shape (d_shape d) -> (forall a, sp a <> 0) ->
  d_dxf d = (fun a _ => RtoC (sp a)) -> d_dxb d = (fun a _ => RtoC (sp a)) ->
  fits (d_shape d) (d_bloch d) th -> (forall a, d_shape d a = 1%nat -> d_bloch d a = C1) ->
  (forall c i j k, d_eps d c i j k = ee) -> transverse_to sp th E -> in_grid (d_shape d) i j k ->
  bmatvec (dn d) (mat3 d) (fun c => ravel (d_shape d) (times E (bloch_wave th) c)) c (ridx (d_shape d) i j k) =
  (RtoC (wave_k2 sp th - d_k0 d * d_k0 d * ee) * (E c * bloch_wave th i j k))%C.
Proof. exact fdfd_plane. Qed.
Print Assumptions C138_3d.
Theorem C138_te : forall d sp th ee i j k, positive_shape (d_shape d) -> (forall a, sp a <> 0) ->
  d_dxf d = (fun a _ => RtoC (sp a)) -> d_dxb d = (fun a _ => RtoC (sp a)) ->
  fits (d_shape d) (d_bloch d) th -> (forall a, d_shape d a = 1%nat -> d_bloch d a = C1) ->
  (forall c i j k, d_eps d c i j k = ee) -> in_grid (d_shape d) i j k ->
  matvec (dn d) (mat_ez d) (ravel (d_shape d) (bloch_wave th)) (ridx (d_shape d) i j k) =
  (RtoC ((2 * sin (th AX / 2) / sp AX) ^ 2 + (2 * sin (th AY / 2) / sp AY) ^ 2 - d_k0 d * d_k0 d * ee) * bloch_wave th i j k)%C.
Proof. exact fdfd_plane_te. Qed.
Print Assumptions C138_te.
Theorem C138_tm : forall d sp th ee i j k, positive_shape (d_shape d) -> (forall a, sp a <> 0) -> ee <> 0 ->
  d_dxf d = (fun a _ => RtoC (sp a)) -> d_dxb d = (fun a _ => RtoC (sp a)) ->
  fits (d_shape d) (d_bloch d) th -> (forall a, d_shape d a = 1%nat -> d_bloch d a = C1) ->
  (forall c i j k, d_eps d c i j k = ee) -> in_grid (d_shape d) i j k ->
  matvec (dn d) (mat_hz d) (ravel (d_shape d) (bloch_wave th)) (ridx (d_shape d) i j k) =
  (RtoC (((2 * sin (th AX / 2) / sp AX) ^ 2 + (2 * sin (th AY / 2) / sp AY) ^ 2) / ee - d_k0 d * d_k0 d) * bloch_wave th i j k)%C.
Proof. exact fdfd_plane_tm. Qed.
Print Assumptions C138_tm.
(** Along x through 4 cells, polarised along z: a wave with one period meets C137's and C138's conditions. *)
Definition one_d : fgrid := mkGrid (fun a => match a with AX => 4%nat | _ => 1%nat end) 1 (fun _ => 1 / 10) (fun _ _ _ => 2).
Definition once : axis -> nat := fun a => match a with AX => 1%nat | _ => 0%nat end.
Definition z_pol : axis -> C := fun c => match c with AZ => C1 | _ => C0 end.
Example C137_meets : wf_grid one_d /\ transverse one_d once z_pol /\ lattice_k2 one_d once <> 0.
Proof.
  assert (W : wf_grid one_d).
  { split; [cbn; lia |]. split; [intro a; destruct a; cbn; lia |]. split; intros a; [cbn; lra |]. destruct a; cbn; [discriminate | reflexivity | reflexivity]. }
  split; [exact W |]. unfold transverse, lattice_k2, sum3, per_cell, one_d, once, z_pol. cbn [g_shape g_spacing]. split.
  - cbv zeta. replace (- (2 * PI * INR 0 / INR 1)) with 0 by (cbn [INR]; field). rewrite cis_0. unfold Cdiv. ring.
  - replace (2 * PI * INR 1 / INR 4 / 2) with (PI / 4) by (cbn [INR]; field). replace (2 * PI * INR 0 / INR 1 / 2) with 0 by (cbn [INR]; field).
    rewrite sin_0, sin_PI4. pose proof (sqrt_lt_R0 2 ltac:(lra)) as S. pose proof (sqrt_sqrt 2 ltac:(lra)) as Q.
    intro H. replace ((2 * (1 / sqrt 2) / (1 / 10)) ^ 2 + (2 * 0 / (1 / 10)) ^ 2 + (2 * 0 / (1 / 10)) ^ 2) with (400 / (sqrt 2 * sqrt 2)) in H by (field; lra).
    rewrite Q in H. lra.
Qed.
Example C138_meets : let s := g_shape one_d in let th a := per_cell s once a in
  fits s (fun _ => C1) th /\ transverse_to (fun _ => 1 / 10) th z_pol /\ in_grid s 3 0 0.
Proof.
  cbv zeta. split; [| split].
  - intro a. unfold per_cell, one_d, once. cbn [g_shape]. destruct a.
    + replace (2 * PI * INR 1 / INR 4 * INR 4) with (0 + 2 * PI * IZR 1) by (cbn [INR]; field). rewrite cis_period. apply cis_0.
    + replace (2 * PI * INR 0 / INR 1 * INR 1) with 0 by (cbn [INR]; field). apply cis_0.
    + replace (2 * PI * INR 0 / INR 1 * INR 1) with 0 by (cbn [INR]; field). apply cis_0.
  - unfold transverse_to, per_cell, one_d, once, z_pol. cbn [g_shape]. cbv zeta.
    replace (- (2 * PI * INR 0 / INR 1)) with 0 by (cbn [INR]; field). rewrite cis_0. unfold Cdiv. ring.
  - repeat split; cbn; lia.
Qed.
