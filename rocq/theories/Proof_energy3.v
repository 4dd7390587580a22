(** At eps = 1 and the built-in time step the fields of the checkerboard mode grow linearly. *)
From Coq Require Import Reals Lra Lia Psatz List Arith ZArith Bool FunctionalExtensionality.
From Verif Require Import Cx Arr Model_yee Spec_yee Proof_yee Proof_yee2 Model_fdtd Spec_fdtd Proof_fdtd.
Import ListNotations.
Local Open Scope R_scope.

Definition g1 : fgrid := mkGrid (fun a => match a with AX => 2%nat | _ => 1%nat end) 1 (fun _ => 1) (fun _ _ _ => 1).
Definition sg (i : nat) : R := if Nat.even i then 1 else -1.
Definition mode (a c : R) : fstate :=
  mkState (fun comp i _ _ => match comp with AZ => RtoC (a * sg i) | _ => C0 end)
          (fun comp i _ _ => match comp with AY => RtoC (c * sg i) | _ => C0 end).
Lemma sg_flip : forall i, sg ((i + 1) mod 2) = - sg i.
Proof.
  intros i. unfold sg. destruct (Nat.Even_or_Odd i) as [[m E] | [m E]]; subst i.
  - replace (2 * m + 1)%nat with (1 + m * 2)%nat by lia. rewrite Nat.mod_add by lia. simpl (1 mod 2)%nat.
    rewrite Nat.even_mul. simpl. reflexivity.
  - replace (2 * m + 1 + 1)%nat with (0 + (m + 1) * 2)%nat by lia. rewrite Nat.mod_add by lia. simpl (0 mod 2)%nat.
    rewrite Nat.add_1_r, Nat.even_succ, <- Nat.negb_even, Nat.even_mul. simpl. ring.
Qed.
Lemma sg_nxt : forall i, sg (nxt 2 i) = - sg i.
Proof. intros. unfold nxt. apply sg_flip. Qed.
Lemma sg_prv : forall i, sg (prv 2 i) = - sg i.
Proof. intros. unfold prv. replace (i + 2 - 1)%nat with (i + 1)%nat by lia. apply sg_flip. Qed.
Lemma wf_g1 : wf_grid g1.
Proof.
  unfold wf_grid, g1, positive_shape, is_active; cbn [g_ndim g_shape g_spacing].
  split; [lia | split; [| split]].
  - intros []; lia.
  - intros; lra.
  - intros [] H; simpl in H; try discriminate; reflexivity.
Qed.
Lemma dt_g1 : dt_of g1 = 1.
Proof.
  unfold dt_of, inv_sq, is_active, g1, axis_no. cbn [g_ndim g_spacing]. simpl (Nat.ltb _ _).
  match goal with |- 1 / sqrt ?x = _ => replace x with 1 by (cbn; field) end. rewrite sqrt_1. field.
Qed.
Lemma eps_g1 : forall jax c i j k, eps_t g1 jax c i j k = 1.
Proof.
  intros. destruct jax, c; unfold eps_t, yee_avg, yee_avg_jax, avg_axis, ralong, g1; cbn [g_eps]; field.
Qed.
Lemma Cdiv_1 : forall z, (z / RtoC 1)%C = z.
Proof. intros. rewrite RtoC_1. field. apply C1_neq_C0. Qed.
Lemma step_mode : forall jax a c, step g1 jax (mode a c) [] = mode (a + 2 * c) (- 2 * a - 3 * c).
Proof.
  intros jax a c.
  assert (Ee : step_e g1 jax (mode a c) [] = f_e (mode (a + 2 * c) (- 2 * a - 3 * c))).
  { apply same_eq. intros comp i j k. unfold step_e. cbn [fold_left]. rewrite eps_g1, dt_g1, Cdiv_1.
    unfold curl_h, curl_fn, diff_fn, roll_p1, along, coord, g_dx, uniform_dx, mode.
    cbn [f_e f_h g_shape g1]. destruct comp; simpl (is_active _ _); cbn [g_spacing g1]; rewrite ?Cdiv_1, ?sg_prv;
      apply C_eq; cbn [re im Cadd Csub Cmul RtoC C0]; ring. }
  unfold step. rewrite Ee.
  assert (Eh : step_h g1 jax (f_e (mode (a + 2 * c) (- 2 * a - 3 * c))) (f_h (mode a c)) [] = f_h (mode (a + 2 * c) (- 2 * a - 3 * c))).
  { apply same_eq. intros comp i j k. unfold step_h. cbn [fold_left]. rewrite dt_g1.
    unfold curl_e, curl_fn, diff_fn, roll_m1, along, coord, g_dx, uniform_dx, mode.
    cbn [f_e f_h g_shape g1]. destruct comp; simpl (is_active _ _); cbn [g_spacing g1]; rewrite ?Cdiv_1, ?sg_nxt;
      apply C_eq; cbn [re im Cadd Csub Cmul RtoC C0]; ring. }
  rewrite Eh. reflexivity.
Qed.
Lemma run_mode : forall jax n, exists x, (x = 1 \/ x = -1) /\
  free_run g1 jax (mode 1 0) n = mode (x * (1 - 2 * INR n)) (x * (2 * INR n)).
Proof.
  intros jax n. induction n as [| n (x & Hx & IH)].
  - exists 1. split; auto. unfold free_run; simpl. f_equal; ring.
  - exists (- x). split; [destruct Hx; subst; [right | left]; lra |].
    rewrite free_run_S, IH, step_mode, S_INR. f_equal; ring.
Qed.
Lemma energy_mode : forall jax a c, field_energy g1 jax (mode a c) = 2 * (a * a + c * c).
Proof.
  intros. unfold field_energy, sum3, rgrid_sum, mode. cbn [g_shape g1 Rsum f_e f_h]. rewrite !eps_g1.
  unfold Cn2, sg. cbn [re im RtoC C0]. cbn [Nat.even Rsum]. ring.
Qed.
Lemma mode_grows : forall jax n, field_energy g1 jax (free_run g1 jax (mode 1 0) n) =
  2 * ((1 - 2 * INR n) * (1 - 2 * INR n) + 4 * INR n * INR n).
Proof.
  intros jax n. destruct (run_mode jax n) as (x & Hx & E). rewrite E, energy_mode. destruct Hx; subst; ring.
Qed.
Lemma nat_above : forall M, exists n, M < INR n.
Proof.
  intros M. destruct (archimed (Rabs M)) as [H _]. pose proof (Rabs_pos M) as Hp. pose proof (Rle_abs M) as Ha.
  exists (Z.to_nat (up (Rabs M))). rewrite INR_IZR_INZ, Z2Nat.id; [lra |]. apply le_IZR. lra.
Qed.
Lemma unbounded_at_1 : forall jax M, exists n, M < field_energy g1 jax (free_run g1 jax (mode 1 0) n).
Proof.
  intros jax M. destruct (nat_above M) as [n Hn]. exists (S n). rewrite mode_grows, S_INR.
  pose proof (pos_INR n). nra.
Qed.
