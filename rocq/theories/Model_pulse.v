(** Model of utils.gaussian_fft (utils.py:314-335).  No proofs in this file.  Simplification: exact reals (np.fft.fft / ifft are their defining sums). *)
From Coq Require Import Reals List Arith.
From Verif Require Import Cx Arr.
Local Open Scope R_scope.

(** np.fft.fft and np.fft.ifft of T samples (both raise for T = 0; see [gaussian_fft]). *)
Definition fft (T : nat) (x : vec) : vec := fun k => Csum T (fun j => (x j * cis (- (2 * PI * (INR j * INR k) / INR T)))%C).
Definition ifft (T : nat) (x : vec) : vec := fun n => (Csum T (fun k => (x k * cis (2 * PI * (INR k * INR n) / INR T))%C) / RtoC (INR T))%C.
(** utils.py:330-333: t = np.arange(T) * dt, t0 = t[T // 2] by default, exp(1j k0 (t - t0)) exp((-pulse_width + 1j chirp) (t - t0)^2). *)
Definition gf_pulse (T : nat) (pulse_width center_wavelength dt : R) (t0 : option R) (chirp : R) : vec := fun j =>
  let k0 := 2 * PI / center_wavelength in
  let c := match t0 with None => INR (Nat.div T 2) * dt | Some c => c end in
  let s := INR j * dt - c in
  (Cexp (mkC 0 (k0 * s)) * Cexp (mkC (- pulse_width * s ^ 2) (chirp * s ^ 2)))%C.
(** utils.py:333-335 for a profile of T samples; None = raises (no samples). *)
Definition gaussian_fft (T : nat) (profile : vec) (pulse_width center_wavelength dt : R) (t0 : option R) (chirp : R) : option vec :=
  if Nat.eqb T 0 then None
  else let g := fft T (gf_pulse T pulse_width center_wavelength dt t0 chirp) in Some (ifft T (fun k => (g k * profile k)%C)).
(** The same for profiles of shape (T, M): g * profiles broadcasts g along the LAST axis, ifft goes along axis 0.  Some (columns, values). *)
Definition gaussian_fft_2d (T M : nat) (profiles : mat) (pulse_width center_wavelength dt : R) (t0 : option R) (chirp : R) : option (nat * mat) :=
  if Nat.eqb T 0 then None
  else if (Nat.eqb T M || Nat.eqb T 1 || Nat.eqb M 1)%bool then
    let g := fft T (gf_pulse T pulse_width center_wavelength dt t0 chirp) in
    let cols := if Nat.eqb M 1 then T else M in
    Some (cols, fun n c => ifft T (fun k => (g (if Nat.eqb T 1 then 0%nat else c) * profiles k (if Nat.eqb M 1 then 0%nat else c))%C) n)
  else None.
