(** C47, C49, C54, C65, C66: overlaps, gradients, fidelity. *)
From Coq Require Import Reals List Arith Lra Lia Bool.
From Verif Require Import Cx Arr Model_adj Spec_adj Spec_circuit Spec_poynting Proof_adj Proof_poynting.
Local Open Scope R_scope.

(** C47: em, hm the mode; the measurement is linear and separates the forward amplitude y from the backward amplitude z. *)
Theorem C47_linear : forall n m em hm e h e' h' y z, let '(p, q) := measure n m em hm e h in let '(p', q') := measure n m em hm e' h' in
  measure n m em hm (fun c i j => (y * e c i j + z * e' c i j)%C) (fun c i j => (y * h c i j + z * h' c i j)%C) = ((y * p + z * p')%C, (y * q + z * q')%C).
Proof. exact measure_linear. Qed.
Print Assumptions C47_linear.
Theorem C47_separates : forall n m em hm y z, flux n m em hm <> C0 ->
  measure n m em hm (fun c i j => ((y + z) * em c i j)%C) (fun c i j => ((y - z) * hm c i j)%C) = (y, z).
Proof. exact measure_super. Qed.
Print Assumptions C47_separates.
Theorem C47_mode_itself : forall n m em hm, flux n m em hm <> C0 -> measure n m em hm em hm = (C1, C0).
Proof. exact measure_mode. Qed.
Print Assumptions C47_mode_itself.
Example C47_nonvacuous : flux 2 2 (fun c _ _ => if Nat.eqb c 0 then C1 else C0) (fun c _ _ => if Nat.eqb c 1 then C1 else C0) <> C0.
Proof.
  intros E. assert (Q := f_equal re E). unfold flux, poynting in Q. cbn in Q. unfold Cn2 in Q. cbn in Q. field_simplify in Q. lra.
Qed.

(** C49.  Exact version: for any two systems on the same positions, with solutions x, x', the change of the loss g . x is
    lambda . (b' - b) minus the entry gradient evaluated at x'. *)
Theorem C49_exact_change : forall n K row col a b x a' b' x' g lam, positions_ok n K row col ->
  spsolve n K row col a b x -> spsolve n K row col a' b' x' -> spsolve n K col row a g lam ->
  (dotn n g x' - dotn n g x)%C =
  (dotn n lam (fun r => b' r - b r)%C + dotn K (fst (spsolve_bwd row col x' lam)) (fun k => a' k - a k)%C)%C.
Proof.
  intros n K row col a b x a' b' x' g lam H Hx Hx' Hl. unfold dotn. rewrite (bwd_exact n K row col a b x a' b' x' g lam H Hx Hx' Hl).
  cbn [spsolve_bwd fst]. rewrite (Csum_ext K (fun r => (- lam (row r) * x' (col r) * (a' r - a r))%C) (fun k => (C0 - lam (row k) * (a' k - a k) * x' (col k))%C)) by (intros; ring).
  rewrite Csum_sub, (Csum_0 K (fun _ => C0)) by auto. ring.
Qed.
Print Assumptions C49_exact_change.
(** Derivative: along any perturbation (da, db) of an invertible system the difference quotient of g . x tends to
    <gA, da> + <gb, db>, linearly in t. *)
Theorem C49_derivative : forall n K row col a da b db g lam (xt : C -> vec) (Ainv : mat), positions_ok n K row col ->
  (forall i j, (i < n)%nat -> (j < n)%nat -> Csum n (fun r => (Ainv i r * coo_f K row col a r j)%C) = delta i j) ->
  (forall t, spsolve n K row col (fun k => (a k + t * da k)%C) (fun r => (b r + t * db r)%C) (xt t)) ->
  spsolve n K col row a g lam ->
  let '(ga, gb) := spsolve_bwd row col (xt C0) lam in
  exists M d, 0 < d /\ forall t, t <> C0 -> Cabs t < d ->
    Cabs ((dotn n g (xt t) - dotn n g (xt C0)) / t - (dotn K ga da + dotn n gb db))%C <= M * Cabs t.
Proof. exact bwd_derivative. Qed.
Print Assumptions C49_derivative.
(** One unknown: (2 + 0 t) x = 3 + t. *)
Example C49_nonvacuous : positions_ok 1 1 (fun _ => O) (fun _ => O) /\
  Csum 1 (fun r => (RtoC (1/2) * coo_f 1 (fun _ => O) (fun _ => O) (fun _ => RtoC 2) r 0%nat)%C) = delta 0 0 /\
  (forall t, spsolve 1 1 (fun _ => O) (fun _ => O) (fun k => (RtoC 2 + t * C0)%C) (fun r => (RtoC 3 + t * C1)%C) (fun _ => ((RtoC 3 + t) * RtoC (1/2))%C)) /\
  spsolve 1 1 (fun _ => O) (fun _ => O) (fun _ => RtoC 2) (fun _ => C1) (fun _ => RtoC (1/2)).
Proof.
  split; [intros k _; lia |]. split; [apply C_eq; cbn; field |]. split.
  - intros t r Hr. destruct r; [| lia]. unfold mv, coo_f. cbn. destruct t. apply C_eq; cbn; field.
  - intros r Hr. destruct r; [| lia]. apply C_eq; cbn; field.
Qed.

(** C54.  u unitary, uhat with at least the power of a unitary (in particular any unitary uhat). *)
Theorem C54_defined_partial : forall n u uhat, (0 < n)%nat -> unitary n u -> INR n <= nn n uhat ->
  exists x, normalized_error n u uhat = Some x /\ 0 <= x <= 1 /\
    (x = 0 <-> exists c, Cn2 c = 1 /\ forall i j, (i < n)%nat -> (j < n)%nat -> uhat i j = (c * u i j)%C).
Proof.
  intros n u v Hn Hu Hv. assert (HN : 0 < INR n) by (apply lt_0_INR; auto).
  assert (Nu : nn n u = INR n).
  { apply unitary_nn. intros j Hj. destruct (Hu j j Hj Hj) as [E _]. unfold delta in E. rewrite Nat.eqb_refl in E. exact E. }
  pose proof (ne_range n u v (INR n) HN Nu Hv) as R. pose proof (ne_zero n u v (INR n) HN Nu Hv) as Z. unfold normalized_error.
  destruct (Req_EM_T (Cn2 (inner n v v)) 0) as [E | _].
  - exfalso. rewrite inner_self, Cn2_RtoC in E. nra.
  - destruct (Rle_dec 0 (ne_arg n u v)); [| lra]. eexists. split; [reflexivity |]. split.
    + split; [apply sqrt_pos |]. rewrite <- sqrt_1. apply sqrt_le_1_alt. lra.
    + rewrite <- Z. split; [apply sqrt_eq_0; auto | intros ->; apply sqrt_0].
Qed.
Print Assumptions C54_defined_partial.
(** Every lossy copy r u (0 < r < 1) of the target is a NaN. *)
Theorem C54_lossy_refuted : forall n u r, (0 < n)%nat -> unitary n u -> 0 < r < 1 -> normalized_error n u (fun i j => (RtoC r * u i j)%C) = None.
Proof.
  intros n u r Hn Hu Hr. assert (HN : 0 < INR n) by (apply lt_0_INR; auto).
  assert (Nu : nn n u = INR n).
  { apply unitary_nn. intros j Hj. destruct (Hu j j Hj Hj) as [E _]. unfold delta in E. rewrite Nat.eqb_refl in E. exact E. }
  unfold normalized_error. destruct (Req_EM_T _ 0); auto. rewrite (ne_lossy n u (INR n) r HN Nu) by lra.
  destruct (Rle_dec 0 (1 - / (r * r))) as [L | L]; auto. exfalso.
  assert (1 < / (r * r)) by (rewrite <- Rinv_1 at 1; apply Rinv_lt_contravar; nra). lra.
Qed.
Print Assumptions C54_lossy_refuted.
Example C54_nonvacuous : unitary 2 delta /\ INR 2 <= nn 2 (fun i j => (Ci * delta i j)%C).
Proof.
  split.
  - intros i j Hi Hj. destruct i as [| [| i]], j as [| [| j]]; try lia; split; apply C_eq; cbn; ring.
  - unfold nn, Cn2. cbn. lra.
Qed.

(** C65: the z component ... *)
Theorem C65_axis2_partial : forall n m e h, exists p, poynting 2 n m e h = Some p /\ forall i j, (i < n)%nat -> (j < m)%nat ->
  p i j = (mean_second m (e O) i j * Cconj (mean_second m (h 1%nat) i j) - mean_first n (e 1%nat) i j * Cconj (mean_first n (h O) i j))%C.
Proof. exact poynting_corners. Qed.
Print Assumptions C65_axis2_partial.
(** ... is the only one available. *)
Theorem C65_other_axes_refuted : forall n m e h, poynting 0 n m e h = None /\ poynting 1 n m e h = None.
Proof. exact poynting_axis01. Qed.
Print Assumptions C65_other_axes_refuted.

(** C66: te is linear in t, and its backward rule is the exact transpose (real part, t being real). *)
Theorem C66_te_backward : forall n K a b row col g (dt : nat -> R), positions_ok n K row col ->
  re (dotn K g (te n a b row col (fun l => RtoC (dt l)))) = Rsum n (fun l => te_bwd n K a b row col g l * dt l).
Proof. exact te_adjoint. Qed.
Print Assumptions C66_te_backward.
Theorem C66_te_linear : forall n a b row col t dt k, te n a b row col (fun l => (t l + dt l)%C) k = (te n a b row col t k + te n a b row col dt k)%C.
Proof. exact te_linear. Qed.
Print Assumptions C66_te_linear.
