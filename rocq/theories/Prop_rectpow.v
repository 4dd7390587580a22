(** C128: rectangular_phase_shift_powers. *)
From Coq Require Import Reals List Arith ZArith Lia.
From Verif Require Import Cx Arr Spec_circuit Model_coupling Model_forward Model_rect Model_rectpow Proof_rectpow.
Import ListNotations.
Local Open Scope R_scope.

(** C128, full statement: for every n the three results list, in the node order of rectangular(u), the fraction of the power in the top arm
    just before each theta and each phi shifter (slices 4 c + 2 and 4 c of column c), and the fraction on every output rail.
    True for even n >= 4 ... *)
Theorem C128_even_partial : forall n u m p q x sl, (4 <= n)%nat -> (n mod 2 = 0)%nat -> rectangular n u = Some (m, p) -> propagate m false true q x = Some sl ->
  exists th ph ga, rectangular_phase_shift_powers n sl = Some (th, ph, ga) /\
    th = map (fun nd => Cn2 (nth (4 * Z.to_nat (column nd) + 2) sl (fun _ => C0) (top nd)) / power n (nth (4 * Z.to_nat (column nd) + 2) sl (fun _ => C0))) (nodes m) /\
    ph = map (fun nd => Cn2 (nth (4 * Z.to_nat (column nd)) sl (fun _ => C0) (top nd)) / power n (nth (4 * Z.to_nat (column nd)) sl (fun _ => C0))) (nodes m) /\
    ga = map (fun r => Cn2 (last sl (fun _ => C0) r) / power n (last sl (fun _ => C0))) (seq 0 n).
Proof. exact rect_powers_even. Qed.
Print Assumptions C128_even_partial.
(** ... false for every odd n: entries are missing ... *)
Theorem C128_odd_refuted : forall n u m p q x sl, (3 <= n)%nat -> (n mod 2 = 1)%nat -> rectangular n u = Some (m, p) -> propagate m false true q x = Some sl ->
  exists th ph ga, rectangular_phase_shift_powers n sl = Some (th, ph, ga) /\ (length th < length (nodes m))%nat /\ (length ph < length (nodes m))%nat.
Proof. exact rect_powers_odd. Qed.
Print Assumptions C128_odd_refuted.
(** ... and for n = 2, where it raises. *)
Theorem C128_two_refuted : forall u m p q x sl, rectangular 2 u = Some (m, p) -> propagate m false true q x = Some sl ->
  rectangular_phase_shift_powers 2 sl = None.
Proof. exact rect_powers_two. Qed.
Print Assumptions C128_two_refuted.
Example C128_nonvacuous : forall u q x, exists m p sl, rectangular 4 u = Some (m, p) /\ length (nodes m) = 6%nat /\ propagate m false true q x = Some sl.
Proof. exact rect_powers_example. Qed.
