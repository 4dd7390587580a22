(** Model of the cosine-sine decomposition, simphox/circuit/matrix.py:123-160 (no proofs in this file).  scipy's [svd] and [qr] are
    parameters: an SVD routine maps (size, matrix) to (left factor, singular values, right factor) and a QR routine maps
    (rows, columns, matrix) to (Q, R) with Q square (scipy's default mode 'full').  Arrays are total functions. *)
From Coq Require Import Reals Arith Bool Ratan.
From Verif Require Import Cx Arr Model_coupling.
Local Open Scope R_scope.

(** np.sign of a complex number (numpy 1.x): the sign of the real part, or of the imaginary part if the real part is 0.
    On real values (the only ones of a LAPACK R diagonal) numpy 2's z/|z| is the same. *)
Definition rsign (x : R) : R := if Rlt_dec 0 x then 1 else if Rlt_dec x 0 then -1 else 0.
Definition csign (z : C) : C := RtoC (if Req_EM_T (re z) 0 then rsign (im z) else rsign (re z)).

Record cs_factors := { cs_l0 : mat; cs_l1 : mat; cs_r0 : mat; cs_r1 : mat; cs_theta : nat -> R }.

(** matrix.py:123-160 cs, line by line; n = mat.shape[0].  On an n x n matrix with n < 2 scipy's svd is called on an empty
    array, which old versions reject. *)
Definition cs (svd : nat -> mat -> mat * (nat -> R) * mat) (qr : nat -> nat -> mat -> mat * mat) (n : nat) (u : mat) : cs_factors :=
  let m := (n / 2)%nat in                                                                       (* 142 *)
  let m1 := (n - m)%nat in
  let q00 : mat := u in                                                                         (* 143-146: slices *)
  let q10 : mat := fun i j => u (m + i)%nat j in
  let q01 : mat := fun i j => u i (m + j)%nat in
  let q11 : mat := fun i j => u (m + i)%nat (m + j)%nat in
  let s := svd m q00 in                                                                         (* 147 *)
  let l0 := fst (fst s) in let d00 := snd (fst s) in let r0 := snd s in
  let f := qr m1 m (fun i j => Csum m (fun k => Cconj (q01 k i) * l0 k j)%C) in                 (* 148 *)
  let theta := fun k => asin (d00 k) in                                                         (* 149 *)
  let d01 := fun k => if Nat.odd n && Nat.eqb k m then C1 else snd f k k in                     (* 150 *)
  let r1 : mat := fun i j => Cconj (fst f j i * csign (d01 i))%C in                             (* 151 *)
  let g := qr m1 m (fun i j => Csum m (fun k => q10 i k * Cconj (r0 j k))%C) in                 (* 152 *)
  let d10 := fun k => if Nat.odd n && Nat.eqb k m then C1 else snd g k k in                     (* 153 *)
  let l1 : mat := fun i j => (fst g i j * csign (d10 j))%C in                                   (* 154 *)
  let phasor := Csum m1 (fun k => Csum m1 (fun j => Cconj (l1 j (m1 - 1)%nat) * q11 j k) * Cconj (r1 (m1 - 1)%nat k))%C in  (* 155 *)
  let r1' : mat := if Nat.odd n then fun i j => if Nat.eqb i (m1 - 1) then (r1 i j * phasor)%C else r1 i j else r1 in       (* 156-157 *)
  {| cs_l0 := l0; cs_l1 := l1; cs_r0 := r0; cs_r1 := r1'; cs_theta := theta |}.                 (* 158 *)
