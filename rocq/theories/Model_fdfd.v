(** Model of simphox/fdfd.py (operators, field conversions, solve, get_fields_fn assembly, scpml, from_simgrid) and of the
    COO assembly of simphox/primitives.py.  No proofs in this file.
    Simplifications: exact arithmetic; the linear solvers (pardiso, scipy, gmres, bicgstab) are an arbitrary function whose
    only assumed property, where one is needed, is stated in the theorem; real permittivity. *)
From Coq Require Import Reals List Arith ZArith Bool.
From Verif Require Import Cx Arr Model_coupling Model_yee.
Import ListNotations.
Local Open Scope R_scope.

(** What the operators depend on: shape3, the two pixel arrays _dxes (fdfd.py:93-99), Bloch factors, k0, eps_t. *)
Record fdfd := mkFdfd { d_shape : shape3; d_dxf : pixel; d_dxb : pixel; d_bloch : axis -> C; d_k0 : R; d_eps : axis -> rfld }.
Definition df_ (d : fdfd) : axis -> mat := deriv (d_shape d) (d_dxf d) (d_bloch d) false.
Definition db_ (d : fdfd) : axis -> mat := deriv (d_shape d) (d_dxb d) (d_bloch d) true.
Definition dn (d : fdfd) : nat := npix (d_shape d).
(** sp.diags(x.flatten()) *)
Definition diagm (s : shape3) (x : rfld) : mat := fun r c => if Nat.eqb r c then ravel s (fun i j k => RtoC (x i j k)) r else C0.
(** 3 x 3 block product. *)
Definition bmatmul (n : nat) (A B : axis -> axis -> mat) : axis -> axis -> mat := fun r c x y =>
  (matmul n (A r AX) (B AX c) x y + matmul n (A r AY) (B AY c) x y + matmul n (A r AZ) (B AZ c) x y)%C.
Definition axis_eqb (a b : axis) : bool :=
  match a, b with AX, AX => true | AY, AY => true | AZ, AZ => true | _, _ => false end.
(** fdfd.py:124-134 mat *)
Definition mat3 (d : fdfd) : axis -> axis -> mat := fun r c x y =>
  (bmatmul (dn d) (d2curl_op (db_ d)) (d2curl_op (df_ d)) r c x y -
   (if axis_eqb r c then RtoC (d_k0 d * d_k0 d) * diagm (d_shape d) (d_eps d r) x y else C0))%C.
(** fdfd.py:138-149 mat_ez *)
Definition ddz (d : fdfd) : mat := fun x y =>
  (- matmul (dn d) (db_ d AX) (df_ d AX) x y - matmul (dn d) (db_ d AY) (df_ d AY) x y)%C.
Definition mat_ez (d : fdfd) : mat := fun x y =>
  (ddz d x y - RtoC (d_k0 d * d_k0 d) * diagm (d_shape d) (d_eps d AZ) x y)%C.
(** fdfd.py:151-161 mat_hz *)
Definition inv_eps (x : rfld) : rfld := fun i j k => 1 / x i j k.
Definition mat_hz (d : fdfd) : mat := fun x y =>
  (- matmul (dn d) (matmul (dn d) (db_ d AX) (diagm (d_shape d) (inv_eps (d_eps d AY)))) (df_ d AX) x y
   - matmul (dn d) (matmul (dn d) (db_ d AY) (diagm (d_shape d) (inv_eps (d_eps d AX)))) (df_ d AY) x y
   - RtoC (d_k0 d * d_k0 d) * eye x y)%C.

Definition dcurl_e (d : fdfd) : vfld -> vfld := curl_fn (diff_fn (d_shape d) (d_dxf d) false).
Definition dcurl_h (d : fdfd) : vfld -> vfld := curl_fn (diff_fn (d_shape d) (d_dxb d) true).
Definition ik0 (d : fdfd) : C := (Ci * RtoC (d_k0 d))%C.
(** fdfd.py:163-176 e2h, 178-191 h2e (beta=None) *)
Definition e2h (d : fdfd) (e : vfld) : vfld := fun c i j k => (dcurl_e d e c i j k / ik0 d)%C.
Definition h2e (d : fdfd) (h : vfld) : vfld := fun c i j k => (dcurl_h d h c i j k / (ik0 d * RtoC (d_eps d c i j k)))%C.

(** fdfd.py:193-238 solve.  [solve3]: ndim = 3, [solver] any function (matrix, right-hand side) -> solution. *)
Definition bvec := axis -> vec.
Definition unravel_f (s : shape3) (v : vec) : fld := fun i j k => v (ridx s i j k).
Definition solve3 (d : fdfd) (solver : (axis -> axis -> mat) -> bvec -> bvec) (src : vfld) : vfld * vfld :=
  let b : bvec := fun c r => (RtoC (d_k0 d) * ravel (d_shape d) (src c) r)%C in
  let x := solver (mat3 d) b in
  let e : vfld := fun c => unravel_f (d_shape d) (x c) in
  (e, fun c i j k => (dcurl_e d e c i j k / ik0 d)%C).
(** ndim < 3: tm_2d = False / True.  Returns (e, h). *)
Definition only_z (f : fld) : vfld := fun c => match c with AZ => f | _ => fun _ _ _ => C0 end.
Definition solve2_te (d : fdfd) (solver : mat -> vec -> vec) (src : fld) : vfld * vfld :=
  let ez := unravel_f (d_shape d) (solver (mat_ez d) (fun r => RtoC (d_k0 d) * ravel (d_shape d) src r)%C) in
  let df := diff_fn (d_shape d) (d_dxf d) false in
  (only_z ez, fun c i j k => match c with
     | AX => (df ez AY i j k / ik0 d)%C | AY => (- df ez AX i j k / ik0 d)%C | AZ => (C0 / ik0 d)%C end).
Definition solve2_tm (d : fdfd) (solver : mat -> vec -> vec) (src : fld) : vfld * vfld :=
  let hz := unravel_f (d_shape d) (solver (mat_hz d) (fun r => RtoC (d_k0 d) * ravel (d_shape d) src r)%C) in
  let db := diff_fn (d_shape d) (d_dxb d) true in
  (fun c i j k => match c with
     | AX => (db hz AY i j k / (ik0 d * RtoC (d_eps d AX i j k)))%C
     | AY => (- db hz AX i j k / (ik0 d * RtoC (d_eps d AY i j k)))%C
     | AZ => (C0 / (ik0 d * RtoC (d_eps d AZ i j k)))%C end, only_z hz).

(** ** COO assembly (primitives.py:18-23, fdfd.py:343-346): coo_matrix sums duplicate entries. *)
Definition triple := (nat * nat * C)%type.
Fixpoint coo (l : list triple) : mat := fun r c =>
  match l with
  | [] => C0
  | (i, j, v) :: rest => ((if (Nat.eqb i r && Nat.eqb j c)%bool then v else C0) + coo rest r c)%C
  end.
Definition Ceqb (a b : C) : bool := if Req_EM_T (re a) (re b) then (if Req_EM_T (im a) (im b) then true else false) else false.
(** Sorted nonzeros of a sparse matrix: row-major positions of the nonzero entries and their values. *)
Definition positions (n : nat) : list (nat * nat) := list_prod (seq 0 n) (seq 0 n).
Definition support (n : nat) (M : mat) : list (nat * nat) := filter (fun p => negb (Ceqb (M (fst p) (snd p)) C0)) (positions n).
Definition nz_data (n : nat) (M : mat) : list C := map (fun p => M (fst p) (snd p)) (support n M).
Definition with_data (idx : list (nat * nat)) (v : list C) : list triple := map (fun x => (fst (fst x), snd (fst x), snd x)) (combine idx v).
Definition diag_idx (n : nat) : list (nat * nat) := map (fun i => (i, i)) (seq 0 n).
(** fdfd.py:375-390: TE branch of get_fields_fn: matrix handed to spsolve. *)
Definition te_matrix (d : fdfd) : mat :=
  coo (with_data (diag_idx (dn d) ++ support (dn d) (ddz d))
       (map (fun r => - (ravel (d_shape d) (fun i j k => RtoC (d_eps d AZ i j k)) r) * RtoC (d_k0 d * d_k0 d))%C (seq 0 (dn d)) ++
        nz_data (dn d) (ddz d))).
(** primitives.py:63-69, 83-95: TMOperator: the indices come from df @ db, the values from db @ diag(t) @ df. *)
Definition tm_term (d : fdfd) (a : axis) (t : rfld) : mat := matmul (dn d) (matmul (dn d) (db_ d a) (diagm (d_shape d) t)) (df_ d a).
Definition tm_idx (d : fdfd) (a : axis) : list (nat * nat) := support (dn d) (matmul (dn d) (df_ d a) (db_ d a)).
(** fdfd.py:350-373: TM branch; None when hcb.call gets data of another length than the declared one. *)
Definition neg_inv (x : rfld) : rfld := fun i j k => - 1 / x i j k.
Definition tm_matrix (d : fdfd) : option mat :=
  let tx := tm_term d AX (neg_inv (d_eps d AY)) in let ty := tm_term d AY (neg_inv (d_eps d AX)) in
  if (Nat.eqb (length (nz_data (dn d) tx)) (length (tm_idx d AX)) && Nat.eqb (length (nz_data (dn d) ty)) (length (tm_idx d AY)))%bool
  then Some (coo (with_data (diag_idx (dn d) ++ tm_idx d AX ++ tm_idx d AY)
              (map (fun _ => - RtoC (d_k0 d * d_k0 d))%C (seq 0 (dn d)) ++ nz_data (dn d) tx ++ nz_data (dn d) ty)))
  else None.
(** fdfd.py:391-399: 3-D branch: the operator given to bicgstab. *)
Definition op3 (d : fdfd) (e : vfld) : vfld := fun c i j k =>
  (dcurl_h d (dcurl_e d e) c i j k - RtoC (d_k0 d * d_k0 d) * RtoC (d_eps d c i j k) * e c i j k)%C.

(** ** fdfd.py:240-257 scpml along one axis: n cells of width h, t PML cells, positions p_i = i h (grid.py:87).
    [pe] = cell centres (E), [ph] = left edges (H).  Integer exponent exp_scale. *)
Definition p_pos (h : R) (i : nat) : R := INR i * h.
Definition pos_e (h : R) (i : nat) : R := (p_pos h i + p_pos h (i + 1)) / 2.
Definition pos_h (h : R) (i : nat) : R := p_pos h i.
Definition d_pml (h : R) (n t : nat) (d : nat -> R) (i : nat) : R :=
  if (i <? t)%nat then (d t - d i) / (d t - p_pos h 0)
  else if (i <? n - t)%nat then 0
  else (d i - d (n - t)%nat) / (p_pos h n - d (n - t)%nat).
Definition scpml (exp_scale : nat) (log_reflection k0 pml_eps : R) (h : R) (n t : nat) (for_h : bool) (i : nat) : C :=
  if Nat.eqb n 1 then C1 else
  (C1 + Ci * RtoC ((INR exp_scale + 1) * (d_pml h n t (if for_h then pos_h h else pos_e h) i) ^ exp_scale * log_reflection / (2 * (k0 * pml_eps))))%C.

(** ** PML thickness bookkeeping: grid.py:344 pml_shape = (pml / spacing).astype(int) (truncation), 348-350 the check
    3 < pml_shape < shape // 2 (AttributeError otherwise); fdfd.py:101-122 from_simgrid passes pml=simgrid.pml_shape. *)
Definition trunc (x : R) : Z := if Rle_dec 0 x then Int_part x else (- Int_part (- x))%Z.
Definition pml_cells (pml spacing : R) (shape : Z) : option Z :=
  let t := trunc (pml / spacing) in
  if (Z.leb t 3 || Z.leb (shape / 2) t)%bool then None else Some t.
(** The PML cells, per axis, of the FDFD built from a SimGrid whose pml_shape is [t]. *)
Definition from_simgrid_pml (t : option Z) (spacing : R) (shape : Z) : option (option Z) :=
  match t with None => Some None | Some t => match pml_cells (IZR t) spacing shape with None => None | Some u => Some (Some u) end end.
