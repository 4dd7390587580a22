(** Model of simphox/primitives.py (backward rules), utils.normalized_error, utils.poynting_fn and mode.measure_fn.
    No proofs in this file.  Complex numbers exact; linear solvers abstract (a relation: "x solves A x = b"). *)
From Coq Require Import Reals List Arith Bool.
From Verif Require Import Cx Arr.
Local Open Scope R_scope.

(** primitives.py:18-23: coo_matrix((a_entries, (rows, cols))), duplicates add up.  K entries. *)
Definition coo_f (K : nat) (row col : nat -> nat) (a : vec) : mat := fun r c =>
  Csum K (fun k => if (Nat.eqb (row k) r && Nat.eqb (col k) c)%bool then a k else C0).
Definition mv (n : nat) (A : mat) (x : vec) : vec := fun r => Csum n (fun c => (A r c * x c)%C).
(** primitives.py:26-28 spsolve: x solves A x = b. *)
Definition spsolve (n K : nat) (row col : nat -> nat) (a b x : vec) : Prop := forall r, (r < n)%nat -> mv n (coo_f K row col a) x r = b r.
(** primitives.py:37-41 spsolve_bwd: lambda = spsolve(a, g, indices[::-1]); returns -lambda[i] * x[j], lambda. *)
Definition spsolve_bwd (row col : nat -> nat) (x lam : vec) : vec * vec := (fun k => (- lam (row k) * x (col k))%C, lam).

(** primitives.py:87-93 te: the entries at (row k, col k) of a diag(t) b. *)
Definition te (n : nat) (a b : mat) (row col : nat -> nat) (t : vec) : vec := fun k =>
  Csum n (fun l => (a (row k) l * t l * b l (col k))%C).
(** primitives.py:95-98 _te_backward_hcb: real part of the diagonal of b G a, G = coo_matrix((g, (col, row))). *)
Definition te_bwd (n K : nat) (a b : mat) (row col : nat -> nat) (g : vec) : nat -> R := fun l =>
  re (Csum n (fun r => (b l r * Csum n (fun c => (coo_f K col row g r c * a c l)%C))%C)).

(** utils.py:285-301 normalized_error: the number under the square root; np.sqrt is NaN (None) below zero, and so is 0 / 0. *)
Definition inner (n : nat) (u v : mat) : C := Csum n (fun j => Csum n (fun i => (Cconj (u i j) * v i j)%C)).
Definition ne_arg (n : nat) (u v : mat) : R := 1 - Cn2 (inner n u v) / Cn2 (inner n v v).
Definition normalized_error (n : nat) (u v : mat) : option R :=
  if Req_EM_T (Cn2 (inner n v v)) 0 then None else if Rle_dec 0 (ne_arg n u v) then Some (sqrt (ne_arg n u v)) else None.

(** utils.py:144-155 poynting_fn(axis) on n x m cross sections; component fields f c i j.
    np.roll(x, 1, axis)[i] = x[i - 1]. *)
Definition cfld := nat -> nat -> nat -> C.
Definition prev (n i : nat) : nat := if Nat.eqb i 0 then (n - 1)%nat else (i - 1)%nat.
Definition avg0 (n : nat) (f : nat -> nat -> C) : nat -> nat -> C := fun i j => ((f i j + f (prev n i) j) / RtoC 2)%C.
Definition avg1 (m : nat) (f : nat -> nat -> C) : nat -> nat -> C := fun i j => ((f i j + f i (prev m j)) / RtoC 2)%C.
(** np.roll((1, 2, 0), -axis)[s] *)
Definition ax (axis s : nat) : nat := Nat.modulo (axis + s + 1) 3.
(** e_cross and h_cross are stacks of length two, indexed by ax[0], ax[1]: None = IndexError. *)
Definition pick (s : nat) (a b : nat -> nat -> C) : option (nat -> nat -> C) :=
  match s with O => Some a | 1%nat => Some b | _ => None end.
Definition poynting (axis n m : nat) (e h : cfld) : option (nat -> nat -> C) :=
  let e0 := avg1 m (e (ax axis 0)) in let e1 := avg0 n (e (ax axis 1)) in
  let h0 := avg0 n (h (ax axis 0)) in let h1 := avg1 m (h (ax axis 1)) in
  match pick (ax axis 0) e0 e1, pick (ax axis 1) h0 h1, pick (ax axis 1) e0 e1, pick (ax axis 0) h0 h1 with
  | Some ea, Some hb, Some eb, Some ha => Some (fun i j => (ea i j * Cconj (hb i j) - eb i j * Cconj (ha i j))%C)
  | _, _, _, _ => None
  end.
Definition flux (n m : nat) (e h : cfld) : C :=
  match poynting 2 n m e h with Some p => Csum n (fun i => Csum m (fun j => p i j)) | None => C0 end.
(** mode.py:522-543 measure_fn *)
Definition measure (n m : nat) (em hm e h : cfld) : C * C :=
  let sm := flux n m em hm in
  let a := (flux n m e hm / sm / RtoC 2)%C in let b := (Cconj (flux n m em h / sm) / RtoC 2)%C in ((a + b)%C, (a - b)%C).
