(** Model of CouplingNode.nullify (simphox/circuit/coupling.py:180-187).  No proofs in this file. *)
From Coq Require Import Reals List Arith Bool.
From Verif Require Import Cx Arr Model_coupling Model_forward.
Local Open Scope R_scope.

(** coupling.py:180-187: (nullified vector, matrix, theta, phi), None for IndexError; the vector has node.n elements, [idx] is not negative;
    arctan2(a, b) of moduli is the argument of b + i a. *)
Definition node_nullify (nd : node) (v : vec) (idx : nat) (lower_theta lower_phi : bool) : option (vec * mat * R * R) :=
  if (Nat.ltb (S idx) (n_of nd) && (Nat.ltb (top nd) (n_of nd) && Nat.ltb (bottom nd) (n_of nd)))%bool then
    let theta := Carg (mkC (Cabs (v (S idx))) (Cabs (v idx))) * 2 in
    let theta := if lower_theta then - theta else theta in
    let phi := Carg (v (S idx)) - Carg (v idx) in
    let phi := if lower_phi then - phi else phi in
    let mt := mzi_node_matrix nd theta phi in
    Some (matvec (n_of nd) mt v, mt, mod2pi theta, mod2pi phi)
  else None.
