(** Complex numbers as pairs of reals, with the few operations simphox uses:
    arithmetic, conjugation, [np.abs], [np.exp(1j*t)] ([cis]) and [np.angle] ([Carg]).
    This file is mathematical infrastructure; it models numpy's complex128 by exact
    complex numbers (no rounding). *)
From Coq Require Import Reals Lra Lia Psatz.
Local Open Scope R_scope.

Record C := mkC { re : R; im : R }.

Declare Scope C_scope.
Delimit Scope C_scope with C.
Bind Scope C_scope with C.

Definition C0 : C := mkC 0 0.
Definition C1 : C := mkC 1 0.
Definition Ci : C := mkC 0 1.
Definition RtoC (x : R) : C := mkC x 0.
Definition Cadd (a b : C) : C := mkC (re a + re b) (im a + im b).
Definition Copp (a : C) : C := mkC (- re a) (- im a).
Definition Csub (a b : C) : C := mkC (re a - re b) (im a - im b).
Definition Cmul (a b : C) : C :=
  mkC (re a * re b - im a * im b) (re a * im b + im a * re b).
Definition Cconj (a : C) : C := mkC (re a) (- im a).
(** squared modulus, np.abs(z) ** 2 *)
Definition Cn2 (a : C) : R := re a * re a + im a * im a.
(** np.abs *)
Definition Cabs (a : C) : R := sqrt (Cn2 a).
Definition Cinv (a : C) : C := mkC (re a / Cn2 a) (- im a / Cn2 a).
Definition Cdiv (a b : C) : C := Cmul a (Cinv b).
(** np.exp(1j * t) *)
Definition cis (t : R) : C := mkC (cos t) (sin t).
(** multiplication by a real number *)
Definition Cscal (r : R) (a : C) : C := mkC (r * re a) (r * im a).

Infix "+" := Cadd : C_scope.
Infix "-" := Csub : C_scope.
Infix "*" := Cmul : C_scope.
Infix "/" := Cdiv : C_scope.
Notation "- x" := (Copp x) : C_scope.

(** np.angle: the argument in (-pi, pi], 0 at the origin. *)
Definition Carg (z : C) : R :=
  if Req_EM_T (Cn2 z) 0 then 0
  else if Rle_dec 0 (im z) then acos (re z / Cabs z) else - acos (re z / Cabs z).

(** np.exp of a complex number *)
Definition Cexp (z : C) : C := Cscal (exp (re z)) (cis (im z)).

Lemma C_eq : forall a b : C, re a = re b -> im a = im b -> a = b.
Proof. intros [a1 a2] [b1 b2]; simpl; intros; subst; reflexivity. Qed.

Ltac ceq := apply C_eq; simpl; try ring.

Lemma C_ring_theory : ring_theory C0 C1 Cadd Cmul Csub Copp (@eq C).
Proof. constructor; intros; apply C_eq; simpl; ring. Qed.

Add Ring C_ring : C_ring_theory.

Lemma Cn2_nonneg : forall a, 0 <= Cn2 a.
Proof. intros [x y]; unfold Cn2; simpl; nra. Qed.

Lemma Cn2_zero_iff : forall a, Cn2 a = 0 <-> a = C0.
Proof.
  intros [x y]; unfold Cn2; simpl; split.
  - intro H. apply C_eq; simpl; nra.
  - intro H; inversion H; subst; ring.
Qed.

Lemma Cn2_pos : forall a, a <> C0 -> 0 < Cn2 a.
Proof.
  intros a H. destruct (Cn2_nonneg a) as [Hp | Hz]; auto.
  exfalso; apply H; apply Cn2_zero_iff; auto.
Qed.

Lemma C1_neq_C0 : C1 <> C0.
Proof. intro H; inversion H; lra. Qed.

Lemma C_field_theory : field_theory C0 C1 Cadd Cmul Csub Copp Cdiv Cinv (@eq C).
Proof.
  constructor.
  - exact C_ring_theory.
  - exact C1_neq_C0.
  - reflexivity.
  - intros p Hp. pose proof (Cn2_pos p Hp) as H.
    destruct p as [x y]. unfold Cn2 in H; simpl in H.
    apply C_eq; unfold Cinv, Cn2; simpl; field; lra.
Qed.

Add Field C_field : C_field_theory.

Lemma Cn2_mul : forall a b, Cn2 (a * b) = (Cn2 a * Cn2 b)%R.
Proof. intros; unfold Cn2; simpl; ring. Qed.
Lemma Cn2_conj : forall a, Cn2 (Cconj a) = Cn2 a.
Proof. intros; unfold Cn2; simpl; ring. Qed.
Lemma Cn2_opp : forall a, Cn2 (- a) = Cn2 a.
Proof. intros; unfold Cn2; simpl; ring. Qed.
Lemma Cn2_C0 : Cn2 C0 = 0.
Proof. unfold Cn2; simpl; ring. Qed.
Lemma Cn2_C1 : Cn2 C1 = 1.
Proof. unfold Cn2; simpl; ring. Qed.
Lemma Cn2_Ci : Cn2 Ci = 1.
Proof. unfold Cn2; simpl; ring. Qed.
Lemma Cn2_RtoC : forall x, Cn2 (RtoC x) = x * x.
Proof. intros; unfold Cn2; simpl; ring. Qed.
Lemma Cmul_conj : forall a, (a * Cconj a)%C = RtoC (Cn2 a).
Proof. intros; apply C_eq; unfold Cn2; simpl; ring. Qed.
Lemma Cconj_mul : forall a b, Cconj (a * b) = (Cconj a * Cconj b)%C.
Proof. intros; ceq. Qed.
Lemma Cconj_add : forall a b, Cconj (a + b) = (Cconj a + Cconj b)%C.
Proof. intros; ceq. Qed.
Lemma Cconj_sub : forall a b, Cconj (a - b) = (Cconj a - Cconj b)%C.
Proof. intros; ceq. Qed.
Lemma Cconj_opp : forall a, Cconj (- a) = (- Cconj a)%C.
Proof. intros; ceq. Qed.
Lemma Cconj_conj : forall a, Cconj (Cconj a) = a.
Proof. intros; ceq. Qed.
Lemma Cconj_RtoC : forall x, Cconj (RtoC x) = RtoC x.
Proof. intros; ceq. Qed.
Lemma Cconj_C0 : Cconj C0 = C0.
Proof. ceq. Qed.
Lemma Cconj_C1 : Cconj C1 = C1.
Proof. ceq. Qed.
Lemma Cconj_Ci : Cconj Ci = (- Ci)%C.
Proof. ceq. Qed.
Lemma Ci_sq : (Ci * Ci)%C = (- C1)%C.
Proof. ceq. Qed.

Lemma RtoC_add : forall x y, RtoC (x + y) = (RtoC x + RtoC y)%C.
Proof. intros; ceq. Qed.
Lemma RtoC_mul : forall x y, RtoC (x * y) = (RtoC x * RtoC y)%C.
Proof. intros; ceq. Qed.
Lemma RtoC_sub : forall x y, RtoC (x - y) = (RtoC x - RtoC y)%C.
Proof. intros; ceq. Qed.
Lemma RtoC_opp : forall x, RtoC (- x) = (- RtoC x)%C.
Proof. intros; ceq. Qed.
Lemma RtoC_0 : RtoC 0 = C0.
Proof. reflexivity. Qed.
Lemma RtoC_1 : RtoC 1 = C1.
Proof. reflexivity. Qed.
Lemma RtoC_inj : forall x y, RtoC x = RtoC y -> x = y.
Proof. intros x y H; inversion H; auto. Qed.
Lemma RtoC_inv : forall x, x <> 0 -> RtoC (/ x) = Cinv (RtoC x).
Proof. intros; apply C_eq; unfold Cinv, Cn2; simpl; field; auto. Qed.
Lemma Cscal_RtoC : forall r a, Cscal r a = (RtoC r * a)%C.
Proof. intros; ceq. Qed.
Lemma RtoC_neq0 : forall x, x <> 0 -> RtoC x <> C0.
Proof. intros x H E; inversion E; auto. Qed.

Lemma cis_0 : cis 0 = C1.
Proof. unfold cis; rewrite cos_0, sin_0; reflexivity. Qed.
Lemma cis_add : forall a b, cis (a + b) = (cis a * cis b)%C.
Proof. intros; unfold cis; apply C_eq; simpl; [rewrite cos_plus | rewrite sin_plus]; ring. Qed.
Lemma cis_opp : forall a, cis (- a) = Cconj (cis a).
Proof. intros; unfold cis; apply C_eq; simpl; [apply cos_neg | apply sin_neg]. Qed.
Lemma cis_sub : forall a b, cis (a - b) = (cis a * Cconj (cis b))%C.
Proof. intros; unfold Rminus; rewrite cis_add, cis_opp; reflexivity. Qed.
Lemma Cn2_cis : forall a, Cn2 (cis a) = 1.
Proof. intros; unfold Cn2, cis; simpl. pose proof (sin2_cos2 a) as H; unfold Rsqr in H; lra. Qed.
Lemma cis_conj_l : forall a, (Cconj (cis a) * cis a)%C = C1.
Proof. intros. rewrite <- cis_opp, <- cis_add. replace (- a + a)%R with 0 by ring. apply cis_0. Qed.
Lemma cis_conj_r : forall a, (cis a * Cconj (cis a))%C = C1.
Proof. intros. rewrite <- cis_opp, <- cis_add. replace (a + - a)%R with 0 by ring. apply cis_0. Qed.
Lemma cis_PI : cis PI = (- C1)%C.
Proof. unfold cis. rewrite cos_PI, sin_PI. ceq. Qed.
Lemma cis_PI2 : cis (PI / 2) = Ci.
Proof. unfold cis. rewrite cos_PI2, sin_PI2. reflexivity. Qed.
Lemma cis_neq_0 : forall a, cis a <> C0.
Proof. intros a H. pose proof (Cn2_cis a) as E. rewrite H, Cn2_C0 in E; lra. Qed.
Lemma cis_period : forall a (k : Z), cis (a + 2 * PI * IZR k) = cis a.
Proof.
  intros a k. unfold cis.
  assert (Hs : forall (x : R) (m : nat), cos (x + 2 * INR m * PI) = cos x /\ sin (x + 2 * INR m * PI) = sin x).
  { intros x m; split; [apply cos_period | apply sin_period]. }
  destruct (Z_le_gt_dec 0 k) as [Hk | Hk].
  - destruct (Z_of_nat_complete k Hk) as [m Hm]; subst k.
    rewrite <- INR_IZR_INZ. replace (2 * PI * INR m)%R with (2 * INR m * PI)%R by ring.
    destruct (Hs a m) as [Hc Hsn]; rewrite Hc, Hsn; reflexivity.
  - assert (Hk' : (0 <= - k)%Z) by lia.
    destruct (Z_of_nat_complete (- k) Hk') as [m Hm].
    assert (Hkm : IZR k = - INR m).
    { rewrite INR_IZR_INZ, <- Hm, opp_IZR. ring. }
    rewrite Hkm. destruct (Hs (a + 2 * PI * - INR m) m) as [Hc Hsn].
    replace (a + 2 * PI * - INR m + 2 * INR m * PI)%R with a in Hc, Hsn by ring.
    rewrite <- Hc, <- Hsn; reflexivity.
Qed.

Lemma Cabs_nonneg : forall z, 0 <= Cabs z.
Proof. intros; apply sqrt_pos. Qed.
Lemma Cabs_sq : forall z, Cabs z * Cabs z = Cn2 z.
Proof. intros; apply sqrt_sqrt, Cn2_nonneg. Qed.
Lemma Cabs_pos : forall z, z <> C0 -> 0 < Cabs z.
Proof. intros; apply sqrt_lt_R0, Cn2_pos; auto. Qed.
Lemma Cabs_mul : forall a b, Cabs (a * b) = (Cabs a * Cabs b)%R.
Proof. intros; unfold Cabs; rewrite Cn2_mul, sqrt_mult; auto using Cn2_nonneg. Qed.
Lemma Cabs_cis : forall a, Cabs (cis a) = 1.
Proof. intros; unfold Cabs; rewrite Cn2_cis; apply sqrt_1. Qed.
Lemma Cabs_RtoC : forall x, 0 <= x -> Cabs (RtoC x) = x.
Proof. intros; unfold Cabs; rewrite Cn2_RtoC; apply sqrt_square; auto. Qed.
Lemma Cabs_C0 : Cabs C0 = 0.
Proof. unfold Cabs; rewrite Cn2_C0; apply sqrt_0. Qed.
Lemma Cabs_conj : forall z, Cabs (Cconj z) = Cabs z.
Proof. intros; unfold Cabs; rewrite Cn2_conj; auto. Qed.
Lemma Cabs_opp : forall z, Cabs (- z) = Cabs z.
Proof. intros; unfold Cabs; rewrite Cn2_opp; auto. Qed.

Lemma re_le_Cabs : forall z, re z <= Cabs z.
Proof.
  intros z. pose proof (Cabs_nonneg z); pose proof (Cabs_sq z) as H1. unfold Cn2 in H1.
  destruct (Rle_dec (re z) 0); [lra|]. nra.
Qed.
Lemma re_ge_Cabs : forall z, - Cabs z <= re z.
Proof. intros z. pose proof (re_le_Cabs (- z)) as H. rewrite Cabs_opp in H; simpl in H; lra. Qed.

(** Polar decomposition with numpy's angle. *)
Lemma Carg_polar : forall z, z = (RtoC (Cabs z) * cis (Carg z))%C.
Proof.
  intros z. unfold Carg. destruct (Req_EM_T (Cn2 z) 0) as [H0 | H0].
  - unfold Cabs. rewrite H0, sqrt_0. apply Cn2_zero_iff in H0. rewrite H0. ceq.
  - assert (Hz : z <> C0) by (intro E; apply H0; rewrite E; apply Cn2_C0).
    pose proof (Cabs_pos z Hz) as Hp. pose proof (Cabs_sq z) as Hsq.
    pose proof (re_le_Cabs z) as H1; pose proof (re_ge_Cabs z) as H2.
    assert (Hr1 : -1 <= re z / Cabs z <= 1).
    { split.
      - apply Rmult_le_reg_r with (Cabs z); auto. unfold Rdiv. rewrite Rmult_assoc, Rinv_l; lra.
      - apply Rmult_le_reg_r with (Cabs z); auto. unfold Rdiv. rewrite Rmult_assoc, Rinv_l; lra. }
    assert (Hs : sqrt (1 - (re z / Cabs z)²) = Rabs (im z) / Cabs z).
    { replace (1 - (re z / Cabs z)²) with ((im z / Cabs z)²).
      - rewrite sqrt_Rsqr_abs. unfold Rdiv. rewrite Rabs_mult, Rabs_inv. rewrite (Rabs_right (Cabs z)) by lra. reflexivity.
      - unfold Rsqr. unfold Cn2 in Hsq. field_simplify_eq; try lra; nra. }
    destruct (Rle_dec 0 (im z)) as [Hi | Hi].
    + unfold cis. rewrite cos_acos, sin_acos by auto. rewrite Hs.
      rewrite Rabs_right by lra. apply C_eq; simpl; field; lra.
    + unfold cis. rewrite cos_neg, sin_neg, cos_acos, sin_acos by auto. rewrite Hs.
      rewrite Rabs_left by lra. apply C_eq; simpl; field; lra.
Qed.

Lemma Cconj_polar : forall z, Cconj z = (RtoC (Cabs z) * Cconj (cis (Carg z)))%C.
Proof. intros z. rewrite (Carg_polar z) at 1. rewrite Cconj_mul, Cconj_RtoC. reflexivity. Qed.

(** Multiplying by the conjugate phase gives the modulus. *)
Lemma Carg_unphase : forall z, (z * cis (- Carg z))%C = RtoC (Cabs z).
Proof.
  intros z. rewrite (Carg_polar z) at 1.
  replace (RtoC (Cabs z) * cis (Carg z) * cis (- Carg z))%C
    with (RtoC (Cabs z) * (cis (Carg z) * cis (- Carg z)))%C by ring.
  rewrite cis_opp, cis_conj_r. ring.
Qed.

Lemma Carg_C0 : Carg C0 = 0.
Proof. unfold Carg. destruct (Req_EM_T (Cn2 C0) 0) as [H | H]; auto. exfalso; apply H, Cn2_C0. Qed.

Lemma Carg_bound : forall z, - PI < Carg z <= PI.
Proof.
  intros z. pose proof PI_RGT_0 as HPI. unfold Carg.
  destruct (Req_EM_T (Cn2 z) 0) as [H0 | H0]; [lra |].
  assert (Hz : z <> C0) by (intro E; apply H0; rewrite E; apply Cn2_C0).
  pose proof (Cabs_pos z Hz) as Hp.
  destruct (Rle_dec 0 (im z)) as [Hi | Hi].
  - pose proof (acos_bound (re z / Cabs z)); lra.
  - pose proof (acos_bound (re z / Cabs z)) as Hb.
    destruct (Req_EM_T (acos (re z / Cabs z)) PI) as [E | E]; [| lra].
    exfalso.
    pose proof (re_le_Cabs z) as H1; pose proof (re_ge_Cabs z) as H2.
    assert (Hr1 : -1 <= re z / Cabs z <= 1).
    { split.
      - apply Rmult_le_reg_r with (Cabs z); auto. unfold Rdiv. rewrite Rmult_assoc, Rinv_l; lra.
      - apply Rmult_le_reg_r with (Cabs z); auto. unfold Rdiv. rewrite Rmult_assoc, Rinv_l; lra. }
    pose proof (cos_acos _ Hr1) as Hc. rewrite E, cos_PI in Hc.
    assert (Hre : re z = - Cabs z).
    { apply Rmult_eq_reg_r with (/ Cabs z); [| apply Rinv_neq_0_compat; lra].
      unfold Rdiv in Hc. rewrite <- Hc. field. lra. }
    pose proof (Cabs_sq z) as Hsq. unfold Cn2 in Hsq. rewrite Hre in Hsq. nra.
Qed.

Lemma Cexp_norm : forall z, Cn2 (Cexp z) = exp (re z) * exp (re z).
Proof.
  intros z. unfold Cexp. rewrite Cscal_RtoC, Cn2_mul, Cn2_RtoC, Cn2_cis. ring.
Qed.
Lemma Cexp_imag : forall t, Cexp (mkC 0 t) = cis t.
Proof. intros. unfold Cexp; simpl. rewrite exp_0. ceq. Qed.
Lemma Cexp_add : forall a b, Cexp (a + b) = (Cexp a * Cexp b)%C.
Proof. intros. unfold Cexp. simpl. rewrite exp_plus, cis_add. ceq. Qed.

Lemma Cmul_integral : forall a b, (a * b)%C = C0 -> a = C0 \/ b = C0.
Proof.
  intros a b H. assert (E : Cn2 a * Cn2 b = 0) by (rewrite <- Cn2_mul, H; apply Cn2_C0).
  apply Rmult_integral in E. destruct E as [E | E]; [left | right]; apply Cn2_zero_iff; auto.
Qed.
