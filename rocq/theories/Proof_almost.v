(** The resonances of an FDTD grid are finitely many: C180 carried over to the FDFD problem on the grid of an FDTD simulation. *)
From Coq Require Import Reals Lra Lia List Arith Classical FunctionalExtensionality.
From Verif Require Import Cx Arr Model_coupling Model_yee Spec_yee Model_fdfd Spec_fdfd Model_fdtd Spec_fdtd Spec_sym Spec_harm Spec_lockin Spec_drive.
From Verif Require Import Model_fdfdc Spec_fdfdc Proof_fdfdc4 Spec_conv Spec_reson2 Proof_reson4 Proof_lockin Proof_drive.
Import ListNotations.
Local Open Scope R_scope.

Definition lifted (g : fgrid) : cfdfd := mkCfdfd (g_shape g) (g_dx g) (g_dx g) (fun _ => C1) 0 (fun i j k => RtoC (g_eps g i j k)).
Lemma lifted_exact : forall g k src, (exists solver, exact3c (at_wave_number (lifted g) k) solver src) <-> (exists solver, exact3 (at_wavenumber g k) solver src).
Proof.
  intros g k src. assert (E : mat3c (at_wave_number (lifted g) k) = mat3 (at_wavenumber g k)).
  { destruct (real_matrices (g_shape g) (g_dx g) (g_dx g) (fun _ => C1) k (g_eps g)) as (A & _). apply functional_extensionality; intro a. apply functional_extensionality; intro b.
    apply functional_extensionality; intro r. apply functional_extensionality; intro c. exact (A a b r c). }
  split; intros [solver H]; exists solver; intros c r Hr; specialize (H c r Hr).
  - rewrite E in H. exact H.
  - rewrite E. exact H.
Qed.
Lemma resonances : forall g, (forall i j k, in_grid (g_shape g) i j k -> 0 < g_eps g i j k) ->
  exists ks : list R, (length ks <= 3 * npix (g_shape g))%nat /\ forall k, 0 < k -> (In k ks <-> exists src, ~ exists solver, exact3 (at_wavenumber g k) solver src).
Proof.
  intros g He. assert (L : lossless (lifted g)).
  { split; [eexists; split; reflexivity |]. intros i j k Hin. split; [reflexivity | exact (He i j k Hin)]. }
  destruct (finite3 (lifted g) L) as (ks & Hl & Hk). exists ks. split; [exact Hl |]. intros k K. destruct (Hk k K) as [A _]. rewrite A.
  split; intros [src N]; exists src; intro M; apply N; apply lifted_exact; exact M.
Qed.
Lemma almost : forall g kap, wf_grid g -> 1 < kap -> (forall i j k, in_grid (g_shape g) i j k -> kap <= g_eps g i j k) ->
  exists ks : list R, (length ks <= 3 * npix (g_shape g))%nat /\ forall om, 0 < lattice_wavenumber g om ->
  (In (lattice_wavenumber g om) ks <-> exists src, ~ exists solver, exact3 (at_wavenumber g (lattice_wavenumber g om)) solver src) /\
  (~ In (lattice_wavenumber g om) ks -> forall src sch, let d := at_wavenumber g (lattice_wavenumber g om) in (forall n, electric (sch n)) ->
   (forall n c i j k, in_grid (g_shape g) i j k -> current src_e (sch n) c i j k = (- (Ci * at_time om ((INR n + 1 / 2) * dt_of g) src c i j k))%C) ->
   (exists solver, exact3 d solver src) /\ forall st0,
   (exists B, forall n, field_energy g false (run g false st0 (map sch (seq 0 n))) <= B) /\
   forall solver, exact3 d solver src -> exists A, forall n0 n c i j k, (1 <= n)%nat -> in_grid (g_shape g) i j k ->
   let rec m := run g false st0 (map sch (seq 0 m)) in
   Cabs (lock_in_e g om rec n0 n c i j k - fst (solve3 d solver src) c i j k)%C <= A / INR n /\
   Cabs (lock_in_h g om rec n0 n c i j k - snd (solve3 d solver src) c i j k)%C <= A / INR n).
Proof.
  intros g kap W Hk He. destruct (resonances g (fun i j k H => Rlt_le_trans 0 kap _ ltac:(lra) (He i j k H))) as (ks & Hl & R). exists ks. split; [exact Hl |].
  intros om K. specialize (R _ K). split; [exact R |]. intros Hn src sch d Hel Hc.
  assert (S : forall j, exists solver, exact3 d solver j). { intro j. apply NNPP. intro N. apply Hn, R. exists j. exact N. }
  split; [apply S |]. intro st0. split.
  - apply (driven_bounded g kap W Hk He om src sch ltac:(lra) Hel Hc st0). apply S.
  - intros solver Hs. exact (lock_in_close g kap W Hk He om solver src sch ltac:(lra) Hs Hel Hc S st0).
Qed.
Lemma two_frequencies : wf_grid two_grid /\ (forall i j k, in_grid (g_shape two_grid) i j k -> 4 <= g_eps two_grid i j k) /\
  lattice_wavenumber two_grid (PI / 3) = 1 /\ (exists src, ~ exists solver, exact3 (at_wavenumber two_grid (lattice_wavenumber two_grid (PI / 3))) solver src) /\
  lattice_wavenumber two_grid PI = 2 /\ (forall src, exists solver, exact3 (at_wavenumber two_grid (lattice_wavenumber two_grid PI)) solver src).
Proof.
  destruct two_driven as (W & E & _ & N & _).
  assert (He : forall i j k, in_grid (g_shape two_grid) i j k -> 4 <= g_eps two_grid i j k) by (intros; cbn; lra).
  assert (D : dt_of two_grid = 1).
  { unfold dt_of, inv_sq, is_active, two_grid. cbn [g_spacing g_ndim axis_no Nat.ltb Nat.leb]. replace (/ (1 * 1) + 0 + 0) with 1 by field. rewrite sqrt_1. field. }
  assert (K : lattice_wavenumber two_grid PI = 2). { unfold lattice_wavenumber. rewrite D. replace (PI * 1 / 2) with (PI / 2) by field. rewrite sin_PI2. field. }
  split; [exact W |]. split; [exact He |]. split; [exact E |]. split; [exists alternating; exact N |]. split; [exact K |].
  apply (above_band two_grid 4 W ltac:(lra) He PI). rewrite K, D. assert (S4 : sqrt 4 = 2) by (replace 4 with (2 * 2) by ring; apply sqrt_square; lra). rewrite S4, Rabs_right by lra. lra.
Qed.
