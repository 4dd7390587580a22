(** Model of simphox/circuit/envelope.py (no proofs in this file).  Exact reals; np.ceil and np.log2 are the real functions. *)
From Coq Require Import Reals ZArith.
Local Open Scope R_scope.
Definition ceil (x : R) : R := IZR (- Int_part (- x)).
Definition log2 (x : R) : R := ln x / ln 2.
Definition log10 (x : R) : R := ln x / ln 10.
Record envelope := mkEnv { layers : R; length_cm : R; height_cm : R; footprint : R; loss_dB : R }.
(** The dictionary built at the end of each function (envelope.py:25-33, 56-64, 86-94). *)
Definition env (lay length height loss : R) : envelope := mkEnv lay (length / 10000) (height / 10000) (length * height / 100000000) loss.
(** envelope.py:6-33 *)
Definition binary_svd_depth_size (n k d len loss_db : R) : envelope :=
  let num_input := ceil (log2 n) in
  let num_unitary := k * ceil (log2 n) in
  let att := k + 1 in
  let wgs := ceil (n / k) * n in
  let lay := num_input + num_unitary + att in
  env lay (len * lay) (wgs * d) (- lay * loss_db + 10 * log10 (1 / ceil (n / k)) + 10 * log10 (1 / n) - 3).
(** envelope.py:36-64 *)
Definition rectangular_depth_size (n d len loss_db : R) (svd : bool) : envelope :=
  let s := if svd then 1 else 0 in
  let lay := ceil (log2 n) + (n * (1 + s) + s) in
  env lay (len * lay) (n * d) (- lay * loss_db - 10 * log10 n - 3 * s).
(** envelope.py:67-94 *)
Definition equiv_k (n n_equiv : R) : R := ceil (n_equiv ^ 2 / n).
Definition binary_equiv_cascade_size (n n_equiv d len loss_db : R) : envelope :=
  let k := equiv_k n n_equiv in
  let lay := ceil (log2 n) + k * ceil (log2 n) + (k + 1) in
  env lay (len * lay) (n * d) (- lay * loss_db + 10 * log10 (1 / n)).
