(** C143: utils.gaussian_fft. *)
From Coq Require Import Reals List Arith Lia Lra.
From Verif Require Import Cx Arr Model_pulse Spec_pulse Proof_pulse.
Local Open Scope R_scope.

(** If the profile is the spectrum of the response h, the result is the response h to the chirped Gaussian pulse sampled at 0, dt, ..., centred at t0
    (default: sample T // 2). *)
Theorem C143_response : forall T h profile w wl dt t0 chirp, (0 < T)%nat -> (forall k, (k < T)%nat -> profile k = spectrum T h k) ->
  exists y, gaussian_fft T profile w wl dt t0 chirp = Some y /\ forall n, (n < T)%nat ->
    y n = respond T h (fun j => chirped w wl chirp (match t0 with Some c => c | None => INR (Nat.div T 2) * dt end) (INR j * dt)) n.
Proof. exact gaussian_responds. Qed.
Print Assumptions C143_response.
(** Every profile is the spectrum of some response, so the theorem above covers them all. *)
Theorem C143_every_profile : forall T profile, (0 < T)%nat -> exists h, forall k, (k < T)%nat -> profile k = spectrum T h k.
Proof. exact spectrum_surj. Qed.
Print Assumptions C143_every_profile.
Theorem C143_all_pass : forall T w wl dt t0 chirp, (0 < T)%nat ->
  exists y, gaussian_fft T (fun _ => C1) w wl dt t0 chirp = Some y /\ forall n, (n < T)%nat ->
    y n = chirped w wl chirp (match t0 with Some c => c | None => INR (Nat.div T 2) * dt end) (INR n * dt).
Proof. exact gaussian_identity. Qed.
Print Assumptions C143_all_pass.
Theorem C143_peak : forall T w wl dt chirp, (0 < T)%nat -> 0 <= w -> exists y, gaussian_fft T (fun _ => C1) w wl dt None chirp = Some y /\
  Cn2 (y (Nat.div T 2)) = 1 /\ forall n, (n < T)%nat -> Cn2 (y n) <= 1.
Proof. exact gaussian_peak. Qed.
Print Assumptions C143_peak.
(** A passive profile never gains energy, a lossless one keeps it. *)
Theorem C143_energy : forall T profile w wl dt t0 chirp y, gaussian_fft T profile w wl dt t0 chirp = Some y ->
  let c := match t0 with Some c => c | None => INR (Nat.div T 2) * dt end in
  let e0 := energy T (fun j => chirped w wl chirp c (INR j * dt)) in
  ((forall k, (k < T)%nat -> Cn2 (profile k) <= 1) -> energy T y <= e0) /\ ((forall k, (k < T)%nat -> Cn2 (profile k) = 1) -> energy T y = e0).
Proof. exact gaussian_energy. Qed.
Print Assumptions C143_energy.
(** Several profiles side by side (T samples of M signals) raise, unless M = T: then signal c is not filtered but scaled by the spectrum's c-th value. *)
Theorem C143_many_raise_refuted : forall T M profiles w wl dt t0 chirp, T <> M -> T <> 1%nat -> M <> 1%nat -> gaussian_fft_2d T M profiles w wl dt t0 chirp = None.
Proof. exact gaussian_2d_raises. Qed.
Print Assumptions C143_many_raise_refuted.
Theorem C143_many_square_refuted : forall T (profiles h : nat -> nat -> C) w wl dt t0 chirp, (2 <= T)%nat ->
  (forall c k, (c < T)%nat -> (k < T)%nat -> profiles k c = spectrum T (fun n => h n c) k) ->
  exists y, gaussian_fft_2d T T profiles w wl dt t0 chirp = Some (T, y) /\ forall n c, (n < T)%nat -> (c < T)%nat ->
    y n c = (spectrum T (fun j => chirped w wl chirp (match t0 with Some c => c | None => INR (Nat.div T 2) * dt end) (INR j * dt)) c * h n c)%C.
Proof. exact gaussian_2d_square. Qed.
Print Assumptions C143_many_square_refuted.
(** One profile given as a column returns a T x T array, its response h scaled by each value of the pulse's spectrum. *)
Theorem C143_column_refuted : forall T (profiles : nat -> nat -> C) (h : nat -> C) w wl dt t0 chirp, (2 <= T)%nat ->
  (forall k, (k < T)%nat -> profiles k 0%nat = spectrum T h k) ->
  exists y, gaussian_fft_2d T 1 profiles w wl dt t0 chirp = Some (T, y) /\ forall n c, (n < T)%nat -> (c < T)%nat ->
    y n c = (spectrum T (fun j => chirped w wl chirp (match t0 with Some c => c | None => INR (Nat.div T 2) * dt end) (INR j * dt)) c * h n)%C.
Proof. exact gaussian_2d_column. Qed.
Print Assumptions C143_column_refuted.

(** Non-vacuity: a two-sample delay and its spectrum; a passive, non-trivial profile. *)
Example C143_nonvacuous : (exists y, gaussian_fft 8 (spectrum 8 (basis 2)) 1 (31 / 20) (/ 10) None 0 = Some y) /\
  (exists y, gaussian_fft 8 (fun k => if Nat.eqb k 3 then RtoC (/ 2) else C1) 1 (31 / 20) (/ 10) None 0 = Some y) /\
  (forall k, (k < 8)%nat -> Cn2 (if Nat.eqb k 3 then RtoC (/ 2) else C1) <= 1).
Proof.
  split; [eexists; reflexivity |]. split; [eexists; reflexivity |].
  intros k _. destruct (Nat.eqb k 3); unfold Cn2, RtoC, C1; cbn [re im]; lra.
Qed.
