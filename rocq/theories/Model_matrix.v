(** Model of the matrix builders of simphox/circuit/matrix.py: dirichlet_matrix and csinv (no proofs in this file).
    Arrays are total functions; shapes are explicit arguments. *)
From Coq Require Import Reals List Arith Bool.
From Verif Require Import Cx Arr Model_coupling.
Local Open Scope R_scope.

(** scipy.linalg.block_diag(A, B), A of shape (m, m); the entries of B follow. *)
Definition block_diag (m : nat) (A B : mat) : mat := fun i j =>
  if (i <? m)%nat && (j <? m)%nat then A i j
  else if (m <=? i)%nat && (m <=? j)%nat then B (i - m)%nat (j - m)%nat
  else C0.

(** matrix.py:107-121 dirichlet_matrix, line by line; n = v.size.  1/0 (when v[0] = 0) is Coq's total division. *)
Definition dm_y (v : vec) (k : nat) : R := Cabs (v k) ^ 2.                               (* 109 *)
Definition dm_yop (v : vec) (i j : nat) : R := sqrt (dm_y v i * dm_y v j).                (* 110 *)
Definition dm_ysum (v : vec) (k : nat) : R := Rsum (S k) (dm_y v).                        (* 111 *)
Definition dm_yden (v : vec) (k : nat) : R := 1 / sqrt (dm_ysum v k * dm_ysum v (S k)).   (* 112 *)
Definition dm_u0 : mat := fun _ _ => C0.                                                  (* 113 *)
Definition dm_u1 (v : vec) : mat := fun i j =>                                            (* 114: u[1:, :] = ... *)
  match i with O => dm_u0 i j | S k => RtoC (dm_yden v k * dm_yop v (S k) j) end.
Definition dm_u2 (v : vec) : mat := fun i j => if (i <=? j)%nat then C0 else dm_u1 v i j. (* 115: triu_indices *)
Definition dm_u3 (v : vec) : mat := fun i j =>                                            (* 116: diagonal of u[1:, 1:] *)
  match i, j with
  | S i', S j' => if Nat.eqb i' j' then RtoC (- dm_ysum v i' * dm_yden v i') else dm_u2 v i j
  | _, _ => dm_u2 v i j
  end.
Definition dm_u4 (n : nat) (v : vec) : mat := fun i j =>                                  (* 117: u[0] = ... *)
  match i with O => RtoC (sqrt (dm_y v j / dm_ysum v (n - 1))) | S _ => dm_u3 v i j end.
Definition dm_u5 (n : nat) (v : vec) : mat := fun i j => (dm_u4 n v i j * cis (- Carg (v j)))%C.   (* 108, 118 *)
Definition dm_roll (n : nat) (a : mat) : mat := fun i j => a ((i + 1) mod n)%nat j.       (* np.roll(u, -1, axis=0) *)
(** [embed_dim]: None, or Some d with d >= n (np.eye of a negative size raises otherwise). *)
Definition dirichlet_matrix (n : nat) (v : vec) (embed_dim : option nat) : option mat :=  (* 119-121 *)
  match n with
  | O => None
  | S _ =>
    match embed_dim with
    | None => Some (fun i j => dm_roll n (dm_u5 n v) j i)
    | Some d => if (n <=? d)%nat then Some (fun i j => block_diag n (dm_roll n (dm_u5 n v)) delta j i) else None
    end
  end.

(** matrix.py:163-185 csinv; l0, r0 are m0 x m0, l1, r1 are m1 x m1, theta has m entries.  np.block builds the
    2m x 2m matrix d; if m0 <> m1 a 1 is appended.  The products raise unless the shapes agree. *)
Definition cs_d (m : nat) (theta : nat -> R) : mat := fun i j =>
  if (i <? m)%nat
  then if (j <? m)%nat then (if Nat.eqb i j then RtoC (sin (theta i)) else C0)
       else (if Nat.eqb i (j - m) then RtoC (cos (theta i)) else C0)
  else if (j <? m)%nat then (if Nat.eqb (i - m) j then RtoC (cos (theta j)) else C0)
       else (if Nat.eqb (i - m) (j - m) then RtoC (- sin (theta (i - m)%nat)) else C0).
Definition csinv (m0 m1 m : nat) (l0 l1 r0 r1 : mat) (theta : nat -> R) : option mat :=
  let left := block_diag m0 l0 l1 in
  let right := block_diag m0 r0 r1 in
  let same := Nat.eqb m0 m1 in
  let d := if same then cs_d m theta else block_diag (2 * m) (cs_d m theta) (fun _ _ => C1) in
  let size := if same then (2 * m)%nat else (2 * m + 1)%nat in
  if Nat.eqb size (m0 + m1) then Some (matmul (m0 + m1) (matmul (m0 + m1) left d) right) else None.
