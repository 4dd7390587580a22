(** Contracts of the two LAPACK routines called by the cosine-sine decomposition. *)
From Coq Require Import Reals.
From Verif Require Import Cx Arr Spec_circuit.
Local Open Scope R_scope.

(** (l, d, r) is a singular value decomposition of the m x m matrix A. *)
Definition svd_of (m : nat) (A : mat) (s : mat * (nat -> R) * mat) : Prop :=
  let '(l, d, r) := s in
  unitary m l /\ unitary m r /\ (forall k, (k < m)%nat -> 0 <= d k) /\
  forall i j, (i < m)%nat -> (j < m)%nat -> A i j = Csum m (fun k => l i k * RtoC (d k) * r k j)%C.

(** (Q, R) is a full QR decomposition of the p x k matrix A, with a real diagonal (LAPACK's convention). *)
Definition qr_of (p k : nat) (A : mat) (f : mat * mat) : Prop :=
  let '(Q, R) := f in
  unitary p Q /\ (forall i j, (i < p)%nat -> (j < k)%nat -> (j < i)%nat -> R i j = C0) /\
  (forall i, (i < k)%nat -> im (R i i) = 0) /\
  forall i j, (i < p)%nat -> (j < k)%nat -> A i j = Csum p (fun t => Q i t * R t j)%C.

(** The p x m matrix A maps no nonzero vector to zero. *)
Definition injective_mat (p m : nat) (A : mat) : Prop :=
  forall x : vec, (forall i, (i < p)%nat -> Csum m (fun k => A i k * x k)%C = C0) -> forall k, (k < m)%nat -> x k = C0.
