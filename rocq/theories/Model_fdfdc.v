(** Model of simphox/fdfd.py and of the permittivity average of simphox/grid.py for a COMPLEX permittivity array (absorbing or amplifying
    materials; grid.py:75-77 keeps the array it is given, complex or not).  No proofs in this file.
    Simplifications: exact arithmetic; the linear solver is an arbitrary function whose assumed property is stated in the theorems. *)
From Coq Require Import Reals Arith Bool.
From Verif Require Import Cx Arr Model_coupling Model_yee Model_fdfd.
Local Open Scope R_scope.

(** utils.py:195-200 yee_avg (shift=1) and grid.py:466-473 eps_t, on complex numbers. *)
Definition avg_c (s : shape3) (a : axis) (p : fld) : fld := fun i j k => ((p i j k + roll_p1 s a p i j k) / RtoC 2)%C.
Definition yee_avg_c (s : shape3) (p : fld) : vfld := fun c =>
  match c with AX => avg_c s AY p | AY => avg_c s AX p | AZ => avg_c s AY (avg_c s AX p) end.
(** What the operators depend on, as in Model_fdfd.fdfd; cf_eps is the permittivity array of the grid, before the average. *)
Record cfdfd := mkCfdfd { cf_shape : shape3; cf_dxf : pixel; cf_dxb : pixel; cf_bloch : axis -> C; cf_k0 : R; cf_eps : fld }.
Definition cf_n (d : cfdfd) : nat := npix (cf_shape d).
Definition cf_eps_t (d : cfdfd) : vfld := yee_avg_c (cf_shape d) (cf_eps d).
Definition cdf (d : cfdfd) : axis -> mat := deriv (cf_shape d) (cf_dxf d) (cf_bloch d) false.
Definition cdb (d : cfdfd) : axis -> mat := deriv (cf_shape d) (cf_dxb d) (cf_bloch d) true.
(** sp.diags(x.flatten()) *)
Definition diagc (s : shape3) (x : fld) : mat := fun r c => if Nat.eqb r c then ravel s x r else C0.
(** fdfd.py:124-134 mat *)
Definition mat3c (d : cfdfd) : axis -> axis -> mat := fun r c x y =>
  (bmatmul (cf_n d) (d2curl_op (cdb d)) (d2curl_op (cdf d)) r c x y -
   (if axis_eqb r c then RtoC (cf_k0 d * cf_k0 d) * diagc (cf_shape d) (cf_eps_t d r) x y else C0))%C.
(** fdfd.py:138-149 mat_ez *)
Definition mat_ez_c (d : cfdfd) : mat := fun x y =>
  (- matmul (cf_n d) (cdb d AX) (cdf d AX) x y - matmul (cf_n d) (cdb d AY) (cdf d AY) x y
   - RtoC (cf_k0 d * cf_k0 d) * diagc (cf_shape d) (cf_eps_t d AZ) x y)%C.
(** fdfd.py:151-161 mat_hz *)
Definition inv_c (x : fld) : fld := fun i j k => (C1 / x i j k)%C.
Definition mat_hz_c (d : cfdfd) : mat := fun x y =>
  (- matmul (cf_n d) (matmul (cf_n d) (cdb d AX) (diagc (cf_shape d) (inv_c (cf_eps_t d AY)))) (cdf d AX) x y
   - matmul (cf_n d) (matmul (cf_n d) (cdb d AY) (diagc (cf_shape d) (inv_c (cf_eps_t d AX)))) (cdf d AY) x y
   - RtoC (cf_k0 d * cf_k0 d) * eye x y)%C.
(** fdfd.py:193-238 solve; (e, h). *)
Definition cik0 (d : cfdfd) : C := (Ci * RtoC (cf_k0 d))%C.
Definition rhs3c (d : cfdfd) (src : vfld) : bvec := fun c r => (RtoC (cf_k0 d) * ravel (cf_shape d) (src c) r)%C.
Definition rhs2c (d : cfdfd) (src : fld) : vec := fun r => (RtoC (cf_k0 d) * ravel (cf_shape d) src r)%C.
Definition solve3c (d : cfdfd) (solver : (axis -> axis -> mat) -> bvec -> bvec) (src : vfld) : vfld * vfld :=
  let x := solver (mat3c d) (rhs3c d src) in
  let e : vfld := fun c => unravel_f (cf_shape d) (x c) in
  (e, fun c i j k => (curl_fn (diff_fn (cf_shape d) (cf_dxf d) false) e c i j k / cik0 d)%C).
Definition solve2_te_c (d : cfdfd) (solver : mat -> vec -> vec) (src : fld) : vfld * vfld :=
  let ez := unravel_f (cf_shape d) (solver (mat_ez_c d) (rhs2c d src)) in
  let df := diff_fn (cf_shape d) (cf_dxf d) false in
  (only_z ez, fun c i j k => match c with
     | AX => (df ez AY i j k / cik0 d)%C | AY => (- df ez AX i j k / cik0 d)%C | AZ => (C0 / cik0 d)%C end).
Definition solve2_tm_c (d : cfdfd) (solver : mat -> vec -> vec) (src : fld) : vfld * vfld :=
  let hz := unravel_f (cf_shape d) (solver (mat_hz_c d) (rhs2c d src)) in
  let db := diff_fn (cf_shape d) (cf_dxb d) true in
  (fun c i j k => match c with
     | AX => (db hz AY i j k / (cik0 d * cf_eps_t d AX i j k))%C
     | AY => (- db hz AX i j k / (cik0 d * cf_eps_t d AY i j k))%C
     | AZ => (C0 / (cik0 d * cf_eps_t d AZ i j k))%C end, only_z hz).
