(** Vocabulary for C143: spectra, circular convolution, energy. *)
From Coq Require Import Reals List Arith.
From Verif Require Import Cx Arr.
Local Open Scope R_scope.
(** The discrete Fourier transform of T samples. *)
Definition spectrum (T : nat) (x : nat -> C) (k : nat) : C := Csum T (fun j => (x j * cis (- (2 * PI * INR (j * k) / INR T)))%C).
(** Circular convolution of two sequences of T samples: the response h to the signal x, T-periodic. *)
Definition respond (T : nat) (h x : nat -> C) (n : nat) : C := Csum T (fun m => (h m * x (Nat.modulo (n + T - m) T))%C).
(** The chirped Gaussian pulse centred at c. *)
Definition chirped (width wavelength chirp c t : R) : C :=
  (RtoC (exp (- width * (t - c) ^ 2)) * cis (2 * PI / wavelength * (t - c) + chirp * (t - c) ^ 2))%C.
Definition energy (T : nat) (x : nat -> C) : R := Rsum T (fun n => Cn2 (x n)).
