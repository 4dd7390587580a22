(** A travelling wave in a uniform medium meets the hypotheses of the convergence theorems. *)
From Coq Require Import Reals Lra Lia Psatz List Arith Bool FunctionalExtensionality.
From Verif Require Import Cx Arr Model_yee Spec_yee Model_fdtd Spec_fdtd Spec_conv Proof_conv.
Import ListNotations.
Local Open Scope R_scope.

Lemma cos_three : forall A a b M f f1, Rabs (A * (a * a * a)) <= M -> (forall x, f x = A * cos (a * x + b)) -> (forall x, f1 x = - (A * a) * sin (a * x + b)) -> three_times M f f1.
Proof.
  intros A a b M f f1 HM Ef Ef1. apply functional_extensionality in Ef. apply functional_extensionality in Ef1. subst f f1.
  assert (L : forall x, derivable_pt_lim (fun x => a * x + b) x a).
  { intro x. apply (lim_eq _ _ (a * 1 + 0)); [| ring]. apply (derivable_pt_lim_plus (mult_real_fct a id) (fct_cte b)); [apply derivable_pt_lim_scal, derivable_pt_lim_id | apply derivable_pt_lim_const]. }
  assert (Dc : forall B x, derivable_pt_lim (fun x => B * cos (a * x + b)) x (- (B * a) * sin (a * x + b))).
  { intros B x. replace (- (B * a) * sin (a * x + b)) with (B * (- sin (a * x + b) * a)) by ring. apply (derivable_pt_lim_scal (fun x => cos (a * x + b)) B).
    apply (derivable_pt_lim_comp (fun x => a * x + b) cos); [apply L | apply derivable_pt_lim_cos]. }
  assert (Ds : forall B x, derivable_pt_lim (fun x => B * sin (a * x + b)) x (B * a * cos (a * x + b))).
  { intros B x. replace (B * a * cos (a * x + b)) with (B * (cos (a * x + b) * a)) by ring. apply (derivable_pt_lim_scal (fun x => sin (a * x + b)) B).
    apply (derivable_pt_lim_comp (fun x => a * x + b) sin); [apply L | apply derivable_pt_lim_sin]. }
  exists (fun x => - (A * a) * a * cos (a * x + b)), (fun x => - (- (A * a) * a * a) * sin (a * x + b)).
  split; [apply Dc |]. split; [apply Ds |]. split; [apply Dc |]. intro x.
  replace (- (- (A * a) * a * a) * sin (a * x + b)) with (A * (a * a * a) * sin (a * x + b)) by ring. rewrite Rabs_mult.
  assert (Rabs (sin (a * x + b)) <= 1) by (apply Rabs_le, SIN_bound). pose proof (Rabs_pos (A * (a * a * a))). pose proof (Rabs_pos (sin (a * x + b))). nra.
Qed.

(** n cells of size d along x, permittivity 4. *)
Definition g4 (n : nat) (d : R) : fgrid := mkGrid (fun a => match a with AX => n | _ => 1%nat end) 1 (fun _ => d) (fun _ _ _ => 4).
Definition k4 (n : nat) (d : R) : R := 2 * PI / (INR n * d).
(** E_z = cos(k(x - t/2)), H_y = -2 cos(k(x - t/2)): the wave moves at half the speed of light. *)
Definition E4 n d : axis -> smooth_field := fun c p t => match c with AZ => cos (k4 n d * (p AX - t / 2)) | _ => 0 end.
Definition H4 n d : axis -> smooth_field := fun c p t => match c with AY => - 2 * cos (k4 n d * (p AX - t / 2)) | _ => 0 end.
Definition DE4 n d : axis -> axis -> smooth_field := fun c a p t => match c, a with AZ, AX => - k4 n d * sin (k4 n d * (p AX - t / 2)) | _, _ => 0 end.
Definition DH4 n d : axis -> axis -> smooth_field := fun c a p t => match c, a with AY, AX => 2 * k4 n d * sin (k4 n d * (p AX - t / 2)) | _, _ => 0 end.
Definition TE4 n d : axis -> smooth_field := fun c p t => match c with AZ => k4 n d / 2 * sin (k4 n d * (p AX - t / 2)) | _ => 0 end.
Definition TH4 n d : axis -> smooth_field := fun c p t => match c with AY => - k4 n d * sin (k4 n d * (p AX - t / 2)) | _ => 0 end.
Definition M4 n d : R := 2 * (k4 n d * k4 n d * k4 n d).
Section Ex.
Variable n : nat.
Variable d : R.
Hypothesis Hn : (1 <= n)%nat.
Hypothesis Hd : 0 < d.
Lemma nd_pos : 0 < INR n * d.
Proof. apply Rmult_lt_0_compat; [apply lt_0_INR; lia | exact Hd]. Qed.
Lemma k4_pos : 0 < k4 n d.
Proof. pose proof nd_pos. pose proof PI_RGT_0. unfold k4. apply Rdiv_lt_0_compat; lra. Qed.
Lemma k4_cube : 0 < k4 n d * k4 n d * k4 n d.
Proof. pose proof k4_pos. apply Rmult_lt_0_compat; [apply Rmult_lt_0_compat |]; assumption. Qed.
Lemma act4 : forall a, is_active (g4 n d) a = true -> a = AX.
Proof. intros a H. destruct a; [reflexivity | discriminate | discriminate]. Qed.
Lemma g4_wf : wf_grid (g4 n d).
Proof.
  split; [cbn; lia |]. split; [intro a; destruct a; cbn; lia |]. split; intros a Ha; [exact Hd |]. destruct a; [discriminate | reflexivity | reflexivity].
Qed.
Lemma g4_fits : forall F, (F = E4 n d \/ F = H4 n d) -> fits_grid (g4 n d) F.
Proof.
  assert (P : forall x t, cos (k4 n d * (x + INR n * d - t / 2)) = cos (k4 n d * (x - t / 2))).
  { intros. replace (k4 n d * (x + INR n * d - t / 2)) with (k4 n d * (x - t / 2) + 2 * INR 1 * PI); [apply cos_period |]. unfold k4. pose proof nd_pos. cbn [INR].
    assert (INR n <> 0) by (apply not_0_INR; lia). field. split; lra. }
  intros F HF c p t a. split; intro Ha.
  - apply act4 in Ha. subst a. destruct HF; subst F; destruct c; cbn [E4 H4 move same_axis g4 g_shape g_spacing]; unfold E4, H4, move; cbn [same_axis]; try reflexivity; rewrite P; reflexivity.
  - intro x. destruct a; [discriminate | |]; destruct HF; subst F; destruct c; reflexivity.
Qed.
Lemma zero_three : forall f f1, (forall x, f x = f 0) -> (forall x, f1 x = 0) -> three_times (M4 n d) f f1.
Proof.
  intros f f1 H0 H1. apply (cos_three (f 0) 0 0); [| intro x; rewrite Rmult_0_l, Rplus_0_r, cos_0, Rmult_1_r; apply H0 | intro x; rewrite H1; ring].
  replace (f 0 * (0 * 0 * 0)) with 0 by ring. rewrite Rabs_R0. unfold M4. pose proof k4_cube. lra.
Qed.
Lemma der_E4 : derivatives (M4 n d) (E4 n d) (DE4 n d) (TE4 n d).
Proof.
  pose proof k4_pos as Kp. pose proof k4_cube as K3.
  intros c p t. split.
  - intro a. destruct c; [apply zero_three; intros; reflexivity | apply zero_three; intros; reflexivity |]. destruct a; [| apply zero_three; intros; reflexivity | apply zero_three; intros; reflexivity].
    apply (cos_three 1 (k4 n d) (- (k4 n d * (t / 2)))); [unfold M4; rewrite Rabs_pos_eq; lra | |]; intro x; unfold E4, DE4, move; cbn [same_axis].
    + replace (k4 n d * x + - (k4 n d * (t / 2))) with (k4 n d * (x - t / 2)) by ring. ring.
    + replace (k4 n d * x + - (k4 n d * (t / 2))) with (k4 n d * (x - t / 2)) by ring. ring.
  - destruct c; [apply zero_three; intros; reflexivity | apply zero_three; intros; reflexivity |].
    apply (cos_three 1 (- (k4 n d / 2)) (k4 n d * p AX)).
    + unfold M4. rewrite Rabs_left1; [| replace (1 * (- (k4 n d / 2) * - (k4 n d / 2) * - (k4 n d / 2))) with (- (k4 n d * k4 n d * k4 n d / 8)) by field; lra].
      replace (1 * (- (k4 n d / 2) * - (k4 n d / 2) * - (k4 n d / 2))) with (- (k4 n d * k4 n d * k4 n d / 8)) by field. lra.
    + intro x. unfold E4. replace (- (k4 n d / 2) * x + k4 n d * p AX) with (k4 n d * (p AX - x / 2)) by field. ring.
    + intro x. unfold TE4. replace (- (k4 n d / 2) * x + k4 n d * p AX) with (k4 n d * (p AX - x / 2)) by field. field.
Qed.
Lemma der_H4 : derivatives (M4 n d) (H4 n d) (DH4 n d) (TH4 n d).
Proof.
  pose proof k4_pos as Kp. pose proof k4_cube as K3.
  intros c p t. split.
  - intro a. destruct c; [apply zero_three; intros; reflexivity | | apply zero_three; intros; reflexivity]. destruct a; [| apply zero_three; intros; reflexivity | apply zero_three; intros; reflexivity].
    apply (cos_three (- 2) (k4 n d) (- (k4 n d * (t / 2)))); [unfold M4; rewrite Rabs_left1; lra | |]; intro x; unfold H4, DH4, move; cbn [same_axis].
    + replace (k4 n d * x + - (k4 n d * (t / 2))) with (k4 n d * (x - t / 2)) by ring. ring.
    + replace (k4 n d * x + - (k4 n d * (t / 2))) with (k4 n d * (x - t / 2)) by ring. ring.
  - destruct c; [apply zero_three; intros; reflexivity | | apply zero_three; intros; reflexivity].
    apply (cos_three (- 2) (- (k4 n d / 2)) (k4 n d * p AX)).
    + unfold M4. replace (- 2 * (- (k4 n d / 2) * - (k4 n d / 2) * - (k4 n d / 2))) with (k4 n d * k4 n d * k4 n d / 4) by field.
      rewrite Rabs_pos_eq; lra.
    + intro x. unfold H4. replace (- (k4 n d / 2) * x + k4 n d * p AX) with (k4 n d * (p AX - x / 2)) by field. ring.
    + intro x. unfold TH4. replace (- (k4 n d / 2) * x + k4 n d * p AX) with (k4 n d * (p AX - x / 2)) by field. field.
Qed.
Lemma g4_maxwell : maxwell (g4 n d) (DE4 n d) (DH4 n d) (TE4 n d) (TH4 n d) (fun _ _ _ => 0) (fun _ _ _ => 0).
Proof.
  split; intros c i j k t Hin.
  - destruct c; unfold eps_t, yee_avg, avg_axis, ralong, curl_of, TE4, DH4; cbn [g4 g_eps]; field.
  - destruct c; unfold curl_of, TH4, DE4; ring.
Qed.
Lemma g4_drives : drives (g4 n d) (fun _ => []) (fun _ _ _ => 0) (fun _ _ _ => 0).
Proof. intros m c i j k Hin. split; reflexivity. Qed.
Lemma g4_eps : forall i j k, in_grid (g_shape (g4 n d)) i j k -> 4 <= g_eps (g4 n d) i j k <= 4.
Proof. intros. cbn. lra. Qed.
End Ex.
