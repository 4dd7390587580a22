From Coq Require Import Reals List Arith Bool Lia Lra ZArith FunctionalExtensionality.
From Verif Require Import Cx Arr Model_pulse Spec_pulse.
Local Open Scope R_scope.

(** ** Roots of unity *)
Definition rt (T : nat) (d : Z) : C := cis (2 * PI * IZR d / INR T).
Lemma rt_add : forall T a b, rt T (a + b) = (rt T a * rt T b)%C.
Proof. intros. unfold rt. rewrite <- cis_add, plus_IZR. f_equal. unfold Rdiv. ring. Qed.
Lemma rt_0 : forall T, rt T 0 = C1. Proof. intro. unfold rt. replace (2 * PI * 0 / INR T) with 0 by (unfold Rdiv; ring). apply cis_0. Qed.
Lemma rt_opp : forall T a, rt T (- a) = Cconj (rt T a).
Proof. intros. unfold rt. rewrite <- cis_opp, opp_IZR. f_equal. unfold Rdiv. ring. Qed.
Lemma rt_period : forall T a k, (0 < T)%nat -> rt T (a + k * Z.of_nat T) = rt T a.
Proof.
  intros T a k HT. unfold rt. rewrite plus_IZR, mult_IZR, <- INR_IZR_INZ.
  replace (2 * PI * (IZR a + IZR k * INR T) / INR T) with (2 * PI * IZR a / INR T + 2 * PI * IZR k); [apply cis_period |].
  field. apply not_0_INR. lia.
Qed.
Lemma rt_mod : forall T a, (0 < T)%nat -> rt T a = rt T (a mod Z.of_nat T).
Proof.
  intros T a HT. rewrite (Z.div_mod a (Z.of_nat T)) at 1 by lia.
  replace (Z.of_nat T * (a / Z.of_nat T) + a mod Z.of_nat T)%Z with (a mod Z.of_nat T + (a / Z.of_nat T) * Z.of_nat T)%Z by ring. apply rt_period; auto.
Qed.
Lemma rt_ne1 : forall T d, (0 < d < Z.of_nat T)%Z -> rt T d <> C1.
Proof.
  intros T d Hd H. unfold rt, cis in H. assert (E : cos (2 * PI * IZR d / INR T) = 1) by (apply (f_equal re) in H; exact H).
  replace (2 * PI * IZR d / INR T) with (2 * (PI * IZR d / INR T)) in E by (unfold Rdiv; ring). rewrite cos_2a_sin in E.
  assert (HT : 0 < INR T) by (apply lt_0_INR; lia). assert (Hd1 : 0 < IZR d) by (apply (IZR_lt 0); lia).
  assert (Hd2 : IZR d < INR T) by (rewrite INR_IZR_INZ; apply IZR_lt; lia). pose proof PI_RGT_0 as Pi.
  assert (0 < sin (PI * IZR d / INR T)).
  { apply sin_gt_0; [apply Rdiv_lt_0_compat; nra |]. apply Rmult_lt_reg_r with (INR T); auto. replace (PI * IZR d / INR T * INR T) with (PI * IZR d) by (field; lra). nra. }
  nra.
Qed.
Lemma rt_sum : forall T d, Csum T (fun k => rt T (Z.of_nat k * d)) = Csum T (fun k => rt T (Z.of_nat k * d)). Proof. reflexivity. Qed.
Lemma geometric : forall S T d, ((rt T d - C1) * Csum S (fun k => rt T (Z.of_nat k * d)) = rt T (Z.of_nat S * d) - C1)%C.
Proof.
  induction S; intros T d; cbn [Csum]; [rewrite Z.mul_0_l, rt_0; ring |].
  replace ((rt T d - C1) * (Csum S (fun k => rt T (Z.of_nat k * d)) + rt T (Z.of_nat S * d)))%C with
    ((rt T d - C1) * Csum S (fun k => rt T (Z.of_nat k * d)) + (rt T d - C1) * rt T (Z.of_nat S * d))%C by ring.
  rewrite IHS. replace (Z.of_nat (Datatypes.S S) * d)%Z with (d + Z.of_nat S * d)%Z by lia. rewrite rt_add. ring.
Qed.
Lemma ortho0 : forall T d, (0 < T)%nat -> (d mod Z.of_nat T <> 0)%Z -> Csum T (fun k => rt T (Z.of_nat k * d)) = C0.
Proof.
  intros T d HT Hd. pose proof (geometric T T d) as G.
  replace (rt T (Z.of_nat T * d)) with C1 in G by (rewrite (rt_mod T (Z.of_nat T * d)) by auto; rewrite Z.mul_comm, Z_mod_mult; symmetry; apply rt_0).
  assert (N : rt T d <> C1) by (rewrite rt_mod by auto; apply rt_ne1; pose proof (Z.mod_pos_bound d (Z.of_nat T)); lia).
  replace (C1 - C1)%C with C0 in G by ring. apply Cmul_integral in G. destruct G as [G | G]; auto. exfalso. apply N.
  replace (rt T d) with ((rt T d - C1) + C1)%C by ring. rewrite G. ring.
Qed.
Lemma ortho1 : forall T d, (0 < T)%nat -> (d mod Z.of_nat T = 0)%Z -> Csum T (fun k => rt T (Z.of_nat k * d)) = RtoC (INR T).
Proof.
  intros T d HT Hd. rewrite (Csum_ext T _ (fun _ => RtoC 1)); [rewrite <- Csum_RtoC, Rsum_const, Rmult_1_r; reflexivity |].
  intros k _. rewrite rt_mod by auto. rewrite <- Zmult_mod_idemp_r, Hd, Z.mul_0_r. apply rt_0.
Qed.
Lemma mod_diff : forall T i j, (i < T)%nat -> (j < T)%nat -> ((Z.of_nat i - Z.of_nat j) mod Z.of_nat T = 0)%Z -> i = j.
Proof. intros T i j Hi Hj H. apply Z.mod_divide in H; [| lia]. destruct H as [q H]. assert (q = 0)%Z by nia. lia. Qed.
(** Selecting one sample *)
Lemma select : forall T r (x : vec), (r < T)%nat ->
  (Csum T (fun k => Csum T (fun j => x j * rt T (Z.of_nat k * (Z.of_nat r - Z.of_nat j)))) / RtoC (INR T))%C = x r.
Proof.
  intros T r x Hr. rewrite Csum_swap. assert (HT : RtoC (INR T) <> C0) by (intro H; apply (f_equal re) in H; cbn [re RtoC C0] in H; revert H; apply not_0_INR; lia).
  rewrite (Csum_single T _ r Hr).
  - rewrite Csum_scal, ortho1; [| lia | rewrite Z.sub_diag; apply Zmod_0_l]. field. auto.
  - intros j Hj Hne. rewrite Csum_scal, ortho0; [ring | lia |]. intro K. apply mod_diff in K; auto; lia.
Qed.
(** ** The transforms *)
Lemma fft_rt : forall T x k, fft T x k = Csum T (fun j => (x j * rt T (- (Z.of_nat j * Z.of_nat k)))%C).
Proof.
  intros. apply Csum_ext. intros j _. f_equal. unfold rt. rewrite opp_IZR, mult_IZR, <- !INR_IZR_INZ. f_equal. unfold Rdiv. ring.
Qed.
Lemma ifft_rt : forall T x n, ifft T x n = (Csum T (fun k => x k * rt T (Z.of_nat k * Z.of_nat n)) / RtoC (INR T))%C.
Proof.
  intros. unfold ifft. f_equal. apply Csum_ext. intros j _. f_equal. unfold rt. rewrite mult_IZR, <- !INR_IZR_INZ. f_equal.
Qed.
Lemma spectrum_fft : forall T x k, spectrum T x k = fft T x k.
Proof. intros. apply Csum_ext. intros j _. rewrite mult_INR. reflexivity. Qed.
Lemma convolve : forall T h x n, (0 < T)%nat -> ifft T (fun k => (fft T x k * fft T h k)%C) n = respond T h x n.
Proof.
  intros T h x n HT. rewrite ifft_rt. unfold respond.
  rewrite (Csum_ext T _ (fun k => Csum T (fun m => (h m * Csum T (fun j => x j * rt T (Z.of_nat k * (Z.of_nat (Nat.modulo (n + T - m) T) - Z.of_nat j))))%C))).
  - rewrite Csum_swap. unfold Cdiv. rewrite <- Csum_scal_r. apply Csum_ext. intros m Hm. rewrite Csum_scal.
    rewrite <- (select T (Nat.modulo (n + T - m) T) x) by (apply Nat.mod_upper_bound; lia). unfold Cdiv. ring.
  - intros k _. rewrite !fft_rt. rewrite <- Csum_scal, <- Csum_scal_r. apply Csum_ext. intros m Hm. rewrite <- Csum_scal_r, <- Csum_scal_r, <- Csum_scal.
    apply Csum_ext. intros j _.
    assert (E : rt T (Z.of_nat k * (Z.of_nat ((n + T - m) mod T) - Z.of_nat j)) = rt T (- (Z.of_nat j * Z.of_nat k) + - (Z.of_nat m * Z.of_nat k) + Z.of_nat k * Z.of_nat n)).
    { rewrite Nat2Z.inj_mod. rewrite (Z.mod_eq (Z.of_nat (n + T - m))) by lia.
      replace (Z.of_nat k * (Z.of_nat (n + T - m) - Z.of_nat T * (Z.of_nat (n + T - m) / Z.of_nat T) - Z.of_nat j))%Z with
        ((- (Z.of_nat j * Z.of_nat k) + - (Z.of_nat m * Z.of_nat k) + Z.of_nat k * Z.of_nat n) + (Z.of_nat k * (1 - Z.of_nat (n + T - m) / Z.of_nat T)) * Z.of_nat T)%Z.
      - apply rt_period. auto.
      - rewrite Nat2Z.inj_sub, Nat2Z.inj_add by lia. ring. }
    rewrite E, !rt_add. ring.
Qed.
Lemma ifft_fft : forall T x n, (n < T)%nat -> ifft T (fft T x) n = x n.
Proof.
  intros T x n Hn. rewrite ifft_rt, <- (select T n x Hn). f_equal. apply Csum_ext. intros k _. rewrite fft_rt, <- Csum_scal_r. apply Csum_ext. intros j _.
  replace (Z.of_nat k * (Z.of_nat n - Z.of_nat j))%Z with (- (Z.of_nat j * Z.of_nat k) + Z.of_nat k * Z.of_nat n)%Z by ring. rewrite rt_add. ring.
Qed.
Lemma fft_ifft : forall T x k, (k < T)%nat -> fft T (ifft T x) k = x k.
Proof.
  intros T x k Hk. rewrite fft_rt, <- (select T k x Hk). unfold Cdiv. rewrite <- Csum_scal_r.
  rewrite (Csum_ext T _ (fun j => Csum T (fun l => (x l * rt T (Z.of_nat j * (Z.of_nat l - Z.of_nat k)) * Cinv (RtoC (INR T)))%C))).
  - rewrite Csum_swap. rewrite Csum_scal_r. rewrite (Csum_swap T T (fun i j => (x j * rt T (Z.of_nat i * (Z.of_nat k - Z.of_nat j)))%C)).
    rewrite <- Csum_scal_r. apply Csum_ext. intros l Hl. rewrite Csum_scal_r, !Csum_scal. f_equal. f_equal.
    destruct (Nat.eq_dec l k) as [-> | Hne]; [reflexivity |]. rewrite !ortho0; auto; try lia; intro K; apply mod_diff in K; auto; lia.
  - intros j _. rewrite ifft_rt. unfold Cdiv. rewrite <- !Csum_scal_r. apply Csum_ext. intros l _.
    replace (Z.of_nat j * (Z.of_nat l - Z.of_nat k))%Z with (Z.of_nat l * Z.of_nat j + - (Z.of_nat j * Z.of_nat k))%Z by ring. rewrite rt_add. ring.
Qed.
(** ** Energy *)
Lemma energy_C : forall T x, RtoC (energy T x) = Csum T (fun n => (Cconj (x n) * x n)%C).
Proof. intros. unfold energy. rewrite Csum_RtoC. apply Csum_ext. intros. apply C_eq; unfold Cn2; cbn [re im RtoC Cmul Cconj]; ring. Qed.
Lemma parseval : forall T x, (0 < T)%nat -> energy T (fft T x) = INR T * energy T x.
Proof.
  intros T x HT.
  assert (H : RtoC (energy T (fft T x)) = RtoC (INR T * energy T x)).
  { rewrite RtoC_mul, !energy_C.
    assert (HN : RtoC (INR T) <> C0) by (intro H; apply (f_equal re) in H; cbn [re RtoC C0] in H; revert H; apply not_0_INR; lia).
    (* sum_k conj(X_k) X_k = sum_j conj(x_j) sum_k X_k rt(jk) = T sum_j conj(x_j) x_j *)
    rewrite (Csum_ext T _ (fun k => Csum T (fun j => (Cconj (x j) * (fft T x k * rt T (Z.of_nat k * Z.of_nat j)))%C))).
    - rewrite Csum_swap. rewrite <- Csum_scal. apply Csum_ext. intros j Hj. rewrite Csum_scal.
      pose proof (ifft_fft T x j Hj) as I. rewrite ifft_rt in I.
      replace (Csum T (fun k => (fft T x k * rt T (Z.of_nat k * Z.of_nat j))%C)) with (RtoC (INR T) * (Csum T (fun k => (fft T x k * rt T (Z.of_nat k * Z.of_nat j))%C) / RtoC (INR T)))%C by (field; auto).
      rewrite I. ring.
    - intros k _. rewrite (fft_rt T x k) at 1. rewrite Csum_conj, <- Csum_scal_r. apply Csum_ext. intros j _.
      rewrite Cconj_mul, rt_opp, Cconj_conj. replace (Z.of_nat j * Z.of_nat k)%Z with (Z.of_nat k * Z.of_nat j)%Z by ring. ring. }
  apply (f_equal re) in H. exact H.
Qed.
Lemma parseval_inv : forall T x, (0 < T)%nat -> INR T * energy T (ifft T x) = energy T x.
Proof.
  intros T x HT. rewrite <- parseval by auto. unfold energy. apply Rsum_ext. intros k Hk. rewrite fft_ifft by auto. reflexivity.
Qed.
(** ** gaussian_fft *)
Lemma pulse_chirped : forall T w wl dt t0 chirp j,
  gf_pulse T w wl dt t0 chirp j = chirped w wl chirp (match t0 with Some c => c | None => INR (Nat.div T 2) * dt end) (INR j * dt).
Proof.
  intros. unfold gf_pulse, chirped. rewrite Cexp_imag. unfold Cexp. cbn [re im].
  destruct t0 as [c |]; [set (s := INR j * dt - c) | set (s := INR j * dt - INR (Nat.div T 2) * dt)]; rewrite cis_add; unfold Cscal; apply C_eq; cbn [re im Cmul RtoC cis]; ring.
Qed.
Lemma gaussian_responds : forall T h profile w wl dt t0 chirp, (0 < T)%nat -> (forall k, (k < T)%nat -> profile k = spectrum T h k) ->
  exists y, gaussian_fft T profile w wl dt t0 chirp = Some y /\ forall n, (n < T)%nat ->
    y n = respond T h (fun j => chirped w wl chirp (match t0 with Some c => c | None => INR (Nat.div T 2) * dt end) (INR j * dt)) n.
Proof.
  intros T h profile w wl dt t0 chirp HT HP. unfold gaussian_fft. destruct (Nat.eqb_spec T 0) as [| _]; [lia |]. eexists. split; [reflexivity |].
  intros n Hn. rewrite <- convolve by auto.
  rewrite !ifft_rt. f_equal. apply Csum_ext. intros k Hk. rewrite HP, spectrum_fft by auto. f_equal. f_equal.
  unfold fft. apply Csum_ext. intros j _. rewrite pulse_chirped. reflexivity.
Qed.
Lemma spectrum_surj : forall T profile, (0 < T)%nat -> exists h, forall k, (k < T)%nat -> profile k = spectrum T h k.
Proof. intros T profile HT. exists (ifft T profile). intros k Hk. rewrite spectrum_fft, fft_ifft; auto. Qed.
Lemma gaussian_identity : forall T w wl dt t0 chirp, (0 < T)%nat ->
  exists y, gaussian_fft T (fun _ => C1) w wl dt t0 chirp = Some y /\ forall n, (n < T)%nat ->
    y n = chirped w wl chirp (match t0 with Some c => c | None => INR (Nat.div T 2) * dt end) (INR n * dt).
Proof.
  intros T w wl dt t0 chirp HT. unfold gaussian_fft. destruct (Nat.eqb_spec T 0) as [| _]; [lia |]. eexists. split; [reflexivity |].
  intros n Hn. rewrite <- pulse_chirped with (T := T). rewrite <- (ifft_fft T (gf_pulse T w wl dt t0 chirp) n Hn).
  rewrite !ifft_rt. f_equal. apply Csum_ext. intros k Hk. ring.
Qed.
Lemma gaussian_energy : forall T profile w wl dt t0 chirp y, gaussian_fft T profile w wl dt t0 chirp = Some y ->
  let c := match t0 with Some c => c | None => INR (Nat.div T 2) * dt end in
  let e0 := energy T (fun j => chirped w wl chirp c (INR j * dt)) in
  ((forall k, (k < T)%nat -> Cn2 (profile k) <= 1) -> energy T y <= e0) /\ ((forall k, (k < T)%nat -> Cn2 (profile k) = 1) -> energy T y = e0).
Proof.
  intros T profile w wl dt t0 chirp y H c e0. unfold gaussian_fft in H. destruct (Nat.eqb_spec T 0) as [| HT]; [discriminate |].
  assert (P : (0 < T)%nat) by lia. assert (PR : 0 < INR T) by (apply lt_0_INR; auto).
  set (g := gf_pulse T w wl dt t0 chirp) in *.
  assert (Ey : INR T * energy T y = energy T (fun k => (fft T g k * profile k)%C)) by (rewrite <- (parseval_inv T (fun k => (fft T g k * profile k)%C)) by auto; congruence).
  assert (E0 : INR T * e0 = energy T (fft T g)).
  { rewrite parseval by auto. f_equal. unfold e0, energy. apply Rsum_ext. intros j _. unfold g. rewrite pulse_chirped. reflexivity. }
  assert (G : forall k, 0 <= Cn2 (fft T g k)) by (intro; unfold Cn2; nra).
  split; intro HP.
  - apply Rmult_le_reg_l with (INR T); auto. rewrite Ey, E0. unfold energy. apply Rsum_le. intros k Hk. rewrite Cn2_mul. specialize (HP k Hk). specialize (G k). nra.
  - apply Rmult_eq_reg_l with (INR T); [| lra]. rewrite Ey, E0. unfold energy. apply Rsum_ext. intros k Hk. rewrite Cn2_mul, HP by auto. ring.
Qed.
Lemma chirped_mod : forall w wl chirp c t, Cn2 (chirped w wl chirp c t) = exp (- w * (t - c) ^ 2) * exp (- w * (t - c) ^ 2).
Proof. intros. unfold chirped. rewrite Cn2_mul, Cn2_cis. unfold Cn2, RtoC. cbn [re im]. ring. Qed.
Lemma gaussian_peak : forall T w wl dt chirp, (0 < T)%nat -> 0 <= w -> exists y, gaussian_fft T (fun _ => C1) w wl dt None chirp = Some y /\
  Cn2 (y (Nat.div T 2)) = 1 /\ forall n, (n < T)%nat -> Cn2 (y n) <= 1.
Proof.
  intros T w wl dt chirp HT Hw. destruct (gaussian_identity T w wl dt None chirp HT) as (y & E & V). exists y. split; auto. split.
  - rewrite V by (apply Nat.div_lt; lia). rewrite chirped_mod. replace (INR (T / 2) * dt - INR (T / 2) * dt) with 0 by ring.
    replace (- w * 0 ^ 2) with 0 by ring. rewrite exp_0. ring.
  - intros n Hn. rewrite V, chirped_mod by auto. set (s := INR n * dt - INR (T / 2) * dt). 
    assert (L : exp (- w * s ^ 2) <= 1).
    { destruct (Req_dec (- w * s ^ 2) 0) as [-> | Hne]; [rewrite exp_0; lra |]. rewrite <- exp_0. left. apply exp_increasing. 
      assert (0 <= s ^ 2) by (apply pow2_ge_0). nra. }
    pose proof (exp_pos (- w * s ^ 2)). nra.
Qed.
(** ** Two-dimensional profiles *)
Lemma gaussian_2d_raises : forall T M profiles w wl dt t0 chirp, T <> M -> T <> 1%nat -> M <> 1%nat -> gaussian_fft_2d T M profiles w wl dt t0 chirp = None.
Proof.
  intros. unfold gaussian_fft_2d. destruct (Nat.eqb_spec T 0); auto. destruct (Nat.eqb_spec T M); [contradiction |]. destruct (Nat.eqb_spec T 1); [contradiction |].
  destruct (Nat.eqb_spec M 1); [contradiction | reflexivity].
Qed.
Lemma gaussian_2d_square : forall T (profiles h : nat -> nat -> C) w wl dt t0 chirp, (2 <= T)%nat ->
  (forall c k, (c < T)%nat -> (k < T)%nat -> profiles k c = spectrum T (fun n => h n c) k) ->
  exists y, gaussian_fft_2d T T profiles w wl dt t0 chirp = Some (T, y) /\ forall n c, (n < T)%nat -> (c < T)%nat ->
    y n c = (spectrum T (fun j => chirped w wl chirp (match t0 with Some c => c | None => INR (Nat.div T 2) * dt end) (INR j * dt)) c * h n c)%C.
Proof.
  intros T profiles h w wl dt t0 chirp HT HP. unfold gaussian_fft_2d. destruct (Nat.eqb_spec T 0); [lia |]. rewrite Nat.eqb_refl. cbn [orb].
  destruct (Nat.eqb_spec T 1); [lia |]. eexists. split; [reflexivity |]. intros n' c Hn Hc. cbv beta.
  rewrite <- (ifft_fft T (fun m => h m c) n' Hn) at 1. rewrite !ifft_rt. unfold Cdiv.
  rewrite (Csum_ext T _ (fun k => (fft T (gf_pulse T w wl dt t0 chirp) c * (fft T (fun m => h m c) k * rt T (Z.of_nat k * Z.of_nat n')))%C)).
  - rewrite Csum_scal, spectrum_fft. replace (fft T (gf_pulse T w wl dt t0 chirp) c) with
      (fft T (fun j => chirped w wl chirp (match t0 with Some c => c | None => INR (T / 2) * dt end) (INR j * dt)) c); [ring |].
    unfold fft. apply Csum_ext. intros j _. rewrite pulse_chirped. reflexivity.
  - intros k Hk. rewrite HP, spectrum_fft by auto. ring.
Qed.
(** One profile as a column: an outer product. *)
Lemma gaussian_2d_column : forall T (profiles : nat -> nat -> C) (h : nat -> C) w wl dt t0 chirp, (2 <= T)%nat ->
  (forall k, (k < T)%nat -> profiles k 0%nat = spectrum T h k) ->
  exists y, gaussian_fft_2d T 1 profiles w wl dt t0 chirp = Some (T, y) /\ forall n c, (n < T)%nat -> (c < T)%nat ->
    y n c = (spectrum T (fun j => chirped w wl chirp (match t0 with Some c => c | None => INR (Nat.div T 2) * dt end) (INR j * dt)) c * h n)%C.
Proof.
  intros T profiles h w wl dt t0 chirp HT HP. unfold gaussian_fft_2d. destruct (Nat.eqb_spec T 0); [lia |]. destruct (Nat.eqb_spec T 1); [lia |]. rewrite Nat.eqb_refl, orb_true_r.
  eexists. split; [reflexivity |]. intros n' c Hn Hc. cbv beta.
  rewrite <- (ifft_fft T h n' Hn) at 1. rewrite !ifft_rt. unfold Cdiv.
  rewrite (Csum_ext T _ (fun k => (fft T (gf_pulse T w wl dt t0 chirp) c * (fft T h k * rt T (Z.of_nat k * Z.of_nat n')))%C)).
  - rewrite Csum_scal, spectrum_fft. replace (fft T (gf_pulse T w wl dt t0 chirp) c) with
      (fft T (fun j => chirped w wl chirp (match t0 with Some c => c | None => INR (T / 2) * dt end) (INR j * dt)) c); [ring |].
    unfold fft. apply Csum_ext. intros j _. rewrite pulse_chirped. reflexivity.
  - intros k Hk. rewrite HP, spectrum_fft by auto. ring.
Qed.
