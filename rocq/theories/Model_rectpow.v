(** Model of rectangular_phase_shift_powers (circuit/rectangular.py:178-191).  No proofs in this file. *)
From Coq Require Import Reals List Arith Bool.
From Verif Require Import Cx Arr Spec_circuit Model_coupling Model_forward.
Import ListNotations.
Local Open Scope R_scope.

(** rectangular.py:181-182: y = |prop|^2, each slice divided by its sum over the n rails. *)
Definition row_powers (n : nat) (prop : list vec) : list (nat -> R) :=
  map (fun v r => Cn2 (v r) / Rsum n (fun i => Cn2 (v i))) prop.
(** The column slices ::2 and 1::2 of a row of n entries. *)
Definition even_cols (n : nat) (f : nat -> R) : list R := map (fun t => f (2 * t)%nat) (seq 0 ((n + 1) / 2)).
Definition odd_cols (n : nat) (f : nat -> R) : list R := map (fun t => f (1 + 2 * t)%nat) (seq 0 (n / 2)).
(** rectangular.py:187-188: y[a::8, ::2] and y[b::8, 1::2], rows paired, the last entry of each pair dropped; None = IndexError
    (row i of y[a::8] is row a + 8 i of y) or hstack of nothing. *)
Definition paired (n a b : nat) (y : list (nat -> R)) : option (list R) :=
  let rows := all_some (map (fun i =>
    match nth_error y (a + 8 * i), nth_error y (b + 8 * i) with
    | Some e, Some o => Some (removelast (even_cols n e ++ odd_cols n o))
    | _, _ => None
    end) (seq 0 (n / 2))) in
  match rows with Some (r :: rs) => Some (concat (r :: rs)) | _ => None end.
(** rectangular.py:178-191, result (theta_p, phi_p, gamma_p). *)
Definition rectangular_phase_shift_powers (n : nat) (prop : list vec) : option (list R * list R * list R) :=
  let y := row_powers n prop in
  match paired n 2 6 y, paired n 0 4 y with
  | Some th, Some ph => Some (th, ph, map (last y (fun _ => 0)) (seq 0 n))
  | _, _ => None
  end.
