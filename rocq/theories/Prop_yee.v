(** C27, C28, C29, C40: finite differences on the Yee grid. *)
From Coq Require Import Reals List Arith Lra Lia.
From Verif Require Import Cx Arr Model_coupling Model_yee Spec_yee Proof_yee Proof_yee2 Proof_yee3.
Local Open Scope R_scope.

(** C27: with periodic boundaries (bloch_phase = 0) the sparse matrices and the rolls agree on every field, for every
    shape and every (possibly complex, PML-stretched) pixel size. *)
Theorem C27_matrix_is_roll_partial : forall s dx (back : bool) a f i j k, in_grid s i j k ->
  matvec (npix s) (deriv s dx (fun _ => C1) back a) (ravel s f) (ridx s i j k) = diff_fn s dx back f a i j k.
Proof. exact deriv_diff_fn. Qed.
Print Assumptions C27_matrix_is_roll_partial.
(** What the matrices compute with any Bloch factors: difference quotients of the Bloch-periodic extension. *)
Theorem C27_matrix_is_bloch_difference : forall s dx bl (back : bool) a f i j k, in_grid s i j k ->
  matvec (npix s) (deriv s dx bl back a) (ravel s f) (ridx s i j k) =
  (if back then bwd_quot s dx bl a f i j k else fwd_quot s dx bl a f i j k).
Proof. exact deriv_apply. Qed.
Print Assumptions C27_matrix_is_bloch_difference.
(** False in general: diff_fn ignores the Bloch phase, so with any nontrivial phase along an axis with more than one cell
    the two differ on some field. *)
Theorem C27_bloch_refuted : forall s dx bl back a, positive_shape s -> (1 < s a)%nat -> bl a <> C1 ->
  (forall m, (m < s a)%nat -> dx a m <> C0) ->
  exists f i j k, in_grid s i j k /\
    matvec (npix s) (deriv s dx bl back a) (ravel s f) (ridx s i j k) <> diff_fn s dx back f a i j k.
Proof. exact deriv_diff_fn_bloch. Qed.
Print Assumptions C27_bloch_refuted.
Example C27_nonvacuous : let s := fun a => match a with AX => 3 | AY => 2 | AZ => 1 end%nat in
  positive_shape s /\ (1 < s AX)%nat /\ Ci <> C1 /\ in_grid s 2 1 0 /\
  diff_fn s (uniform_dx (fun _ => 1)) false (fun i j _ => RtoC (INR i)) AX 2%nat 1%nat 0%nat = RtoC (-2).
Proof. exact yee_example. Qed.

(** C28: <D_b f, g> = - <f, D_f g>, Bloch phase included (matrices), and for the rolls. *)
Theorem C28_adjoint_matrix : forall s (h : axis -> R) bl a u v,
  vdot (npix s) (matvec (npix s) (deriv s (uniform_dx h) bl true a) u) v =
  (- vdot (npix s) u (matvec (npix s) (deriv s (uniform_dx h) bl false a) v))%C.
Proof. exact deriv_adjoint. Qed.
Print Assumptions C28_adjoint_matrix.
Theorem C28_adjoint_roll : forall s (h : axis -> R) a f g,
  inner s (diff_fn s (uniform_dx h) true f a) g = (- inner s f (diff_fn s (uniform_dx h) false g a))%C.
Proof. exact diff_adjoint_b. Qed.
Print Assumptions C28_adjoint_roll.
(** Uniformity is needed: with two different cell widths the identity fails. *)
Theorem C28_nonuniform_refuted : exists s dx a f g,
  inner s (diff_fn s dx true f a) g <> (- inner s f (diff_fn s dx false g a))%C.
Proof. exact adjoint_nonuniform. Qed.
Print Assumptions C28_nonuniform_refuted.

(** C29: the divergence of a curl vanishes, for both difference flavours, any shape and any pixel size. *)
Theorem C29_div_curl_roll : forall s dx (of_h : bool) (f : vfld) i j k,
  divergence (diff_fn s dx of_h) (curl_fn (diff_fn s dx of_h) f) i j k = C0.
Proof. exact div_curl_gen. Qed.
Print Assumptions C29_div_curl_roll.
(** The sparse curl operator, Bloch boundary included. *)
Theorem C29_div_curl_matrix : forall s dx bl (back : bool) (v : axis -> vec) r, (r < npix s)%nat ->
  (matvec (npix s) (deriv s dx bl back AX) (bmatvec (npix s) (d2curl_op (deriv s dx bl back)) v AX) r +
   matvec (npix s) (deriv s dx bl back AY) (bmatvec (npix s) (d2curl_op (deriv s dx bl back)) v AY) r +
   matvec (npix s) (deriv s dx bl back AZ) (bmatvec (npix s) (d2curl_op (deriv s dx bl back)) v AZ) r)%C = C0.
Proof. exact div_curl_mat. Qed.
Print Assumptions C29_div_curl_matrix.
(** With a propagation constant: d/dz is multiplication by -i beta. *)
Theorem C29_div_curl_beta : forall s dx (of_h : bool) beta (f : vfld) i j k,
  let c := curl_beta_fn (diff_fn s dx of_h) beta f in
  (diff_fn s dx of_h (c AX) AX i j k + diff_fn s dx of_h (c AY) AY i j k - Ci * RtoC beta * c AZ i j k)%C = C0.
Proof. exact div_curl_beta. Qed.
Print Assumptions C29_div_curl_beta.

(** C40: averaging stays within the range of the permittivity. *)
Theorem C40_average_in_range : forall s p lo hi, (forall i j k, in_grid s i j k -> lo <= p i j k <= hi) ->
  forall c i j k, in_grid s i j k -> lo <= yee_avg s p c i j k <= hi.
Proof. exact yee_avg_bounds. Qed.
Print Assumptions C40_average_in_range.
Theorem C40_homogeneous : forall s p x, (forall i j k, in_grid s i j k -> p i j k = x) ->
  forall c i j k, in_grid s i j k -> yee_avg s p c i j k = x.
Proof. exact yee_avg_const. Qed.
Print Assumptions C40_homogeneous.
Theorem C40_numpy_jax : forall s p c i j k, yee_avg_jax s p c i j k = yee_avg s p c i j k /\
  yee_avg_2d_z s p i j k = yee_avg s p AZ i j k.
Proof. exact yee_avg_versions. Qed.
Print Assumptions C40_numpy_jax.
(** The total is preserved: averaging redistributes permittivity (periodically) without creating any. *)
Theorem C40_total_preserved : forall s p c, positive_shape s ->
  Rsum (s AX) (fun i => Rsum (s AY) (fun j => Rsum (s AZ) (fun k => yee_avg s p c i j k))) =
  Rsum (s AX) (fun i => Rsum (s AY) (fun j => Rsum (s AZ) (fun k => p i j k))).
Proof. exact yee_avg_total. Qed.
Print Assumptions C40_total_preserved.
Example C40_nonvacuous : let s := fun a => match a with AX => 2 | AY => 2 | AZ => 1 end%nat in
  let p := fun i j _ : nat => INR (1 + i + j) in
  (forall i j k, in_grid s i j k -> 1 <= p i j k <= 3) /\ yee_avg s p AX 0%nat 0%nat 0%nat = 3 / 2.
Proof. exact yee_avg_example. Qed.
