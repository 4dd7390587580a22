(** FDTD with PML: the coefficients, the two layers of an axis, the constructor, the caller's state. *)
From Coq Require Import Reals ZArith Lra Lia List Arith Bool FunctionalExtensionality.
From Verif Require Import Cx Arr Model_yee Spec_yee Proof_yee Proof_yee2 Model_fdtd Spec_fdtd Proof_fdtd Proof_energy2 Model_fdfd Spec_fdfd Proof_scpml
  Model_fdtdpml Spec_fdtdpml Proof_fdtdpml.
Import ListNotations.
Local Open Scope R_scope.

Definition s_max (p : fpml) : R := (INR (p_exp p) + 1) * - p_logr p / (2 * p_corr p).
Lemma s_max_pos : forall p, absorbing p -> 0 < s_max p.
Proof.
  intros p (Hm & Hl & Hc). unfold s_max. pose proof (pos_INR (p_exp p)). apply Rdiv_lt_0_compat; [| lra].
  apply Rmult_lt_0_compat; lra.
Qed.
Lemma sigma_form : forall p h n t o i, sigma p h n t o i = s_max p * d_pml h n t (pml_pos o h) i ^ p_exp p.
Proof. intros. unfold sigma, s_max, pml_pos. destruct o; unfold Rdiv; ring. Qed.
Lemma sigma_range : forall p h n t o i, absorbing p -> 0 < h -> (0 < t)%nat -> (2 * t < n)%nat -> (i < n)%nat ->
  0 <= sigma p h n t o i <= s_max p /\ (sigma p h n t o i = 0 <-> (t <= i <= n - t)%nat).
Proof.
  intros p h n t o i Ha Hh Ht Hn Hi. pose proof (s_max_pos p Ha) as Hs. rewrite sigma_form.
  pose proof (d_pml_range o h n t i Hh Ht Hn Hi) as [R0 R1]. pose proof (d_pml_zero o h n t i Hh Ht Hn Hi) as RZ.
  set (x := d_pml h n t (pml_pos o h) i) in *. destruct Ha as (Hm & _).
  assert (Hx : 0 <= x ^ p_exp p <= 1) by (split; [apply pow_le; auto | rewrite <- (pow1 (p_exp p)); apply pow_incr; auto]).
  split; [split; nra |]. rewrite <- RZ. split.
  - intro E. destruct (Req_dec x 0) as [| Hx0]; auto. exfalso. assert (0 < x ^ p_exp p) by (apply pow_lt; lra). nra.
  - intro E. rewrite E, pow_i by lia. ring.
Qed.
Lemma sigma_mono : forall p h n t o i, absorbing p -> 0 < h -> (0 < t)%nat -> (2 * t < n)%nat ->
  ((i + 1 < n - t)%nat -> sigma p h n t o (i + 1) <= sigma p h n t o i) /\
  ((t <= i)%nat -> (i + 1 < n)%nat -> sigma p h n t o i <= sigma p h n t o (i + 1)).
Proof.
  intros p h n t o i Ha Hh Ht Hn. pose proof (s_max_pos p Ha) as Hs. rewrite !sigma_form.
  destruct (d_pml_monotone o h n t i Hh Ht Hn) as [M1 M2]. split; intros.
  - apply Rmult_le_compat_l; [lra |]. apply pow_incr. split; [apply d_pml_range; auto; lia | auto].
  - apply Rmult_le_compat_l; [lra |]. apply pow_incr. split; [apply d_pml_range; auto; lia | auto].
Qed.

(** b and c as functions of sigma. *)
Definition bfun (dt s : R) : R := exp (- (alpha + s) * dt).
Definition cfun (dt s : R) : R := (bfun dt s - 1) * s / (s + alpha).
Lemma alpha_pos : 0 < alpha. Proof. unfold alpha. apply Rinv_0_lt_compat. lra. Qed.
Lemma bfun_range : forall dt s, 0 < dt -> 0 <= s -> 0 < bfun dt s < 1.
Proof.
  intros dt s Hd Hs. unfold bfun. split; [apply exp_pos |]. rewrite <- exp_0. apply exp_increasing. pose proof alpha_pos. nra.
Qed.
Lemma cfun_range : forall dt s, 0 < dt -> 0 <= s -> -1 < cfun dt s <= 0 /\ (cfun dt s = 0 <-> s = 0).
Proof.
  intros dt s Hd Hs. pose proof alpha_pos as Ha. destruct (bfun_range dt s Hd Hs) as [B0 B1].
  assert (Hr : 0 <= s / (s + alpha) < 1).
  { split; [apply Rmult_le_pos; [lra | left; apply Rinv_0_lt_compat; lra] |]. apply (Rmult_lt_reg_r (s + alpha)); [lra |].
    unfold Rdiv. rewrite Rmult_assoc, Rinv_l; lra. }
  assert (E : cfun dt s = - (1 - bfun dt s) * (s / (s + alpha))) by (unfold cfun; field; lra).
  rewrite E. split; [split; nra |]. split.
  - intro Z. assert (s / (s + alpha) = 0) by nra. unfold Rdiv in H. apply Rmult_integral in H. destruct H as [H | H]; auto.
    exfalso. revert H. apply Rinv_neq_0_compat. lra.
  - intro Z. rewrite Z. unfold Rdiv. ring.
Qed.
Lemma bc_mono : forall dt s s', 0 < dt -> 0 <= s -> s <= s' -> bfun dt s' <= bfun dt s /\ cfun dt s' <= cfun dt s.
Proof.
  intros dt s s' Hd Hs Hss. pose proof alpha_pos as Ha.
  assert (HB : bfun dt s' <= bfun dt s).
  { unfold bfun. destruct (Req_dec s s') as [-> |]; [lra |]. left. apply exp_increasing. nra. }
  split; auto. destruct (bfun_range dt s Hd Hs) as [B0 B1]. destruct (bfun_range dt s' Hd ltac:(lra)) as [B0' B1'].
  assert (E : forall x, 0 <= x -> cfun dt x = - ((1 - bfun dt x) * (x / (x + alpha)))) by (intros; unfold cfun; field; lra).
  rewrite !E by lra.
  assert (Hr : 0 <= s / (s + alpha)) by (apply Rmult_le_pos; [lra | left; apply Rinv_0_lt_compat; lra]).
  assert (Hr' : s / (s + alpha) <= s' / (s' + alpha)).
  { apply (Rmult_le_reg_r ((s + alpha) * (s' + alpha))); [apply Rmult_lt_0_compat; lra |].
    replace (s / (s + alpha) * ((s + alpha) * (s' + alpha))) with (s * (s' + alpha)) by (field; lra).
    replace (s' / (s' + alpha) * ((s + alpha) * (s' + alpha))) with (s' * (s + alpha)) by (field; lra). nra. }
  apply Ropp_le_contravar. apply Rmult_le_compat; lra.
Qed.
Lemma coef_fun : forall g p o r c i j k,
  cpml_b g p o r c i j k = bfun (dt_of g) (sigma_ax g p o r c i j k) /\ cpml_c g p o r c i j k = cfun (dt_of g) (sigma_ax g p o r c i j k).
Proof. intros. split; reflexivity. Qed.
Lemma axis_eqb : forall a b, Nat.eqb (axis_no a) (axis_no b) = true <-> a = b.
Proof. intros [] []; cbn; split; intro; try reflexivity; try discriminate. Qed.
Lemma in_grid_coord : forall s i j k a, in_grid s i j k -> (coord a i j k < s a)%nat.
Proof. intros s i j k a (A & B & D). destruct a; auto. Qed.
Lemma active3 : forall g a, g_ndim g = 3%nat -> is_active g a = true.
Proof. intros g a H. unfold is_active. rewrite H. destruct a; reflexivity. Qed.

Lemma coef_shape : forall g p o r c i j k, wf_grid g -> g_ndim g = 3%nat -> wf_pml g p -> absorbing p -> in_grid (g_shape g) i j k ->
  0 < cpml_b g p o r c i j k < 1 /\ -1 < cpml_c g p o r c i j k <= 0 /\
  (cpml_c g p o r c i j k = 0 <-> c <> fst r \/ (p_cells p c <= coord c i j k <= g_shape g c - p_cells p c)%nat).
Proof.
  intros g p o r c i j k Hwf Hn Hp Ha Hin. destruct (coef_fun g p o r c i j k) as [-> ->].
  pose proof (dt_pos g Hwf) as Hd. destruct (Hp c) as [T0 T1]. pose proof (in_grid_coord _ _ _ _ c Hin) as Hc.
  destruct Hwf as (_ & _ & Hsp & _). specialize (Hsp c (active3 g c Hn)).
  destruct (sigma_range p (g_spacing g c) (g_shape g c) (p_cells p c) o (coord c i j k) Ha Hsp T0 T1 Hc) as [[S0 _] SZ].
  unfold sigma_ax. destruct (Nat.eqb (axis_no c) (axis_no (fst r))) eqn:E.
  - apply axis_eqb in E. split; [apply bfun_range; auto |]. destruct (cfun_range (dt_of g) _ Hd S0) as [CR CZ]. split; auto.
    rewrite CZ, SZ. split; [auto |]. intros [H | H]; [contradiction | auto].
  - assert (c <> fst r) by (intro H; apply axis_eqb in H; congruence).
    split; [apply bfun_range; auto; lra |]. destruct (cfun_range (dt_of g) 0 Hd ltac:(lra)) as [CR CZ]. split; auto.
    rewrite CZ. split; auto.
Qed.
(** Grading along the normal axis. *)
Lemma coef_graded : forall g p o a lo i j k i' j' k', wf_grid g -> g_ndim g = 3%nat -> wf_pml g p -> absorbing p ->
  in_grid (g_shape g) i j k -> in_grid (g_shape g) i' j' k' -> coord a i' j' k' = (coord a i j k + 1)%nat ->
  ((coord a i' j' k' < g_shape g a - p_cells p a)%nat ->
    cpml_b g p o (a, lo) a i j k <= cpml_b g p o (a, lo) a i' j' k' /\ cpml_c g p o (a, lo) a i j k <= cpml_c g p o (a, lo) a i' j' k') /\
  ((p_cells p a <= coord a i j k)%nat ->
    cpml_b g p o (a, lo) a i' j' k' <= cpml_b g p o (a, lo) a i j k /\ cpml_c g p o (a, lo) a i' j' k' <= cpml_c g p o (a, lo) a i j k).
Proof.
  intros g p o a lo i j k i' j' k' Hwf Hn Hp Ha Hin Hin' Hc.
  destruct (coef_fun g p o (a, lo) a i j k) as [-> ->]. destruct (coef_fun g p o (a, lo) a i' j' k') as [-> ->].
  pose proof (dt_pos g Hwf) as Hd. destruct (Hp a) as [T0 T1].
  pose proof (in_grid_coord _ _ _ _ a Hin) as Hx. pose proof (in_grid_coord _ _ _ _ a Hin') as Hx'.
  destruct Hwf as (_ & _ & Hsp & _). specialize (Hsp a (active3 g a Hn)).
  unfold sigma_ax. cbn [fst]. rewrite Nat.eqb_refl, Hc.
  destruct (sigma_mono p (g_spacing g a) (g_shape g a) (p_cells p a) o (coord a i j k) Ha Hsp T0 T1) as [M1 M2].
  destruct (sigma_range p (g_spacing g a) (g_shape g a) (p_cells p a) o (coord a i j k) Ha Hsp T0 T1 Hx) as [[S0 _] _].
  destruct (sigma_range p (g_spacing g a) (g_shape g a) (p_cells p a) o (coord a i j k + 1) Ha Hsp T0 T1 ltac:(lia)) as [[S0' _] _].
  split; intro H; (apply bc_mono; auto; first [apply M1; lia | apply M2; lia]).
Qed.

(** ** The two layers of an axis *)
Lemma edge_mirror : forall p h n t i, 0 < h -> (0 < t)%nat -> (2 * t < n)%nat -> (1 <= i <= t)%nat ->
  sigma p h n t true (n - i) = sigma p h n t true i.
Proof.
  intros p h n t i Hh Ht Hn Hi. rewrite !sigma_form. f_equal. f_equal.
  rewrite (d_pml_right true) by (auto; lia). replace (n - i - (n - t))%nat with (t - i)%nat by lia.
  destruct (Nat.eq_dec i t) as [-> | Hne].
  - rewrite d_pml_mid by lia. rewrite Nat.sub_diag. cbn [INR]. unfold Rdiv. ring.
  - rewrite (d_pml_left true) by (auto; lia). f_equal. ring.
Qed.
Lemma pow_lt_mono : forall x y m, 0 <= x -> x < y -> (0 < m)%nat -> x ^ m < y ^ m.
Proof.
  intros x y m Hx Hy Hm. induction m as [| m IH]; [lia |]. destruct (Nat.eq_dec m 0) as [-> | H0]; [cbn; lra |].
  cbn [pow]. specialize (IH ltac:(lia)). pose proof (pow_le x m Hx). assert (0 < y ^ m) by (apply pow_lt; lra). nra.
Qed.
Lemma centre_mirror : forall p h n t i, absorbing p -> 0 < h -> (0 < t)%nat -> (2 * t < n)%nat -> (i < t)%nat ->
  sigma p h n t false (n - 1 - i) < sigma p h n t false i.
Proof.
  intros p h n t i Ha Hh Ht Hn Hi. pose proof (s_max_pos p Ha) as Hs. rewrite !sigma_form. destruct Ha as (Hm & _).
  apply Rmult_lt_compat_l; auto. apply pow_lt_mono; auto; [apply d_pml_range; auto; lia |].
  rewrite (d_pml_right false), (d_pml_left false) by (auto; lia).
  assert (1 <= INR t) by (change 1 with (INR 1); apply le_INR; lia). pose proof (pos_INR i).
  replace (n - 1 - i - (n - t))%nat with (t - 1 - i)%nat by lia. rewrite !minus_INR by lia. cbn [INR].
  apply (Rmult_lt_reg_r ((INR t - 1 / 2) * (INR t + 1 / 2))); [apply Rmult_lt_0_compat; lra |].
  replace ((INR t - 1 - INR i) / (INR t - 1 / 2) * ((INR t - 1 / 2) * (INR t + 1 / 2))) with ((INR t - 1 - INR i) * (INR t + 1 / 2)) by (field; lra).
  replace ((INR t - INR i) / (INR t + 1 / 2) * ((INR t - 1 / 2) * (INR t + 1 / 2))) with ((INR t - INR i) * (INR t - 1 / 2)) by (field; lra).
  nra.
Qed.

(** ** The constructor *)
Lemma thick_ok_3 : forall g x y z, thick_ok g [x; y; z] = true <->
  (3 < x < g_shape g AX / 2)%nat /\ (3 < y < g_shape g AY / 2)%nat /\ (3 < z < g_shape g AZ / 2)%nat.
Proof.
  intros. unfold thick_ok. cbn [combine forallb fst snd]. rewrite !andb_true_iff, !negb_true_iff, !orb_false_iff, !Nat.leb_gt. intuition.
Qed.
Lemma half_lt : forall n t, (t < n / 2)%nat -> (2 * t < n)%nat.
Proof. intros n t H. pose proof (Nat.div_mod n 2 ltac:(lia)). lia. Qed.
Lemma make_3d : forall g x y z m lr corr, g_ndim g = 3%nat ->
  (3 < x < g_shape g AX / 2)%nat -> (3 < y < g_shape g AY / 2)%nat -> (3 < z < g_shape g AZ / 2)%nat ->
  exists p, make_fdtd g (Some [x; y; z]) m lr corr = Some (Some p) /\ wf_pml g p /\
    p_cells p AX = x /\ p_cells p AY = y /\ p_cells p AZ = z.
Proof.
  intros g x y z m lr corr Hn X Y Z. exists (mkPml (fun a => match a with AX => x | AY => y | AZ => z end) m lr corr).
  split; [| split; [| auto]].
  - unfold make_fdtd. assert (H : thick_ok g [x; y; z] = true) by (apply thick_ok_3; auto). rewrite H, Hn. reflexivity.
  - intro a. destruct X as [X1 X2], Y as [Y1 Y2], Z as [Z1 Z2]. apply half_lt in X2, Y2, Z2. destruct a; cbn [p_cells]; lia.
Qed.
Lemma make_low_dim : forall g t m lr corr, (g_ndim g < 3)%nat -> make_fdtd g (Some t) m lr corr = None.
Proof.
  intros g t m lr corr Hn. unfold make_fdtd. destruct (thick_ok g t); [| reflexivity]. cbn [andb].
  destruct (Nat.eqb_spec (length t) (g_ndim g)) as [E | E]; [| reflexivity].
  destruct t as [| x [| y [| z t]]]; cbn [length] in E; try reflexivity. lia.
Qed.

(** ** The caller's state *)
Lemma cube_wf : wf_grid cube10.
Proof.
  unfold wf_grid, cube10, positive_shape. cbn [g_ndim g_shape g_spacing]. split; [lia |]. split; [intro; lia |]. split; [intros; lra |].
  intros a H. unfold is_active in H. cbn [g_ndim] in H. destruct a; discriminate.
Qed.
Lemma pml4_ok : wf_pml cube10 pml4 /\ absorbing pml4.
Proof.
  split; [intro a; unfold cube10, pml4; cbn [p_cells g_shape]; lia |]. unfold absorbing, pml4. cbn [p_exp p_logr p_corr]. repeat split; try lia; lra.
Qed.
Definition ramp : pstate := mkPstate zero_vfld (fun c _ j _ => match c with AZ => RtoC (INR j) | _ => C0 end) zero_mem zero_mem.
Lemma eps_one : forall jax c i j k, eps_t cube10 jax c i j k = 1.
Proof.
  intros jax c i j k. rewrite (ltac:(destruct jax; [rewrite eps_jax |]; reflexivity) : eps_t cube10 jax = eps_t cube10 false).
  unfold eps_t, cube10. cbn [g_shape g_eps]. destruct c; unfold yee_avg, avg_axis, ralong; lra.
Qed.
Lemma region_515 : forall v x c, fold_left (region_add cube10 pml4 v) pml_regions x c 5%nat 1%nat 5%nat = (x c 5%nat 1%nat 5%nat + v (AY, true) c 5%nat 1%nat 5%nat)%C.
Proof. intros. unfold pml_regions. cbn [fold_left]. reflexivity. Qed.
Lemma second_call : exists g p st c i j k, wf_grid g /\ wf_pml g p /\ absorbing p /\ in_grid (g_shape g) i j k /\
  let first := pstep_jax_caller g p st [] in
  let second := pstep_jax_caller g p (snd first) [] in
  ps_e (fst second) c i j k <> ps_e (fst first) c i j k.
Proof.
  exists cube10, pml4, ramp, AX, 5%nat, 1%nat, 5%nat. destruct pml4_ok as [W A].
  split; [apply cube_wf |]. split; [auto |]. split; [auto |]. split; [unfold in_grid, cube10; cbn [g_shape]; lia |].
  cbv zeta. unfold pstep_jax_caller. cbn [fst snd]. unfold pstep. cbn [ps_e ps_h ps_psi_e ps_psi_h].
  unfold pstep_e. cbn [fold_left ps_e ps_h ps_psi_e ps_psi_h]. rewrite !region_515. intro H. rewrite !eps_one in H.
  set (x := (ps_e ramp AX 5%nat 1%nat 5%nat + curl_h cube10 (ps_h ramp) AX 5%nat 1%nat 5%nat / RtoC 1 * RtoC (dt_of cube10))%C) in H.
  pose proof (dt_pos cube10 cube_wf) as Hd.
  set (b := cpml_b cube10 pml4 true (AY, true) AY 5%nat 1%nat 5%nat). set (cc := cpml_c cube10 pml4 true (AY, true) AY 5%nat 1%nat 5%nat).
  assert (D1 : diff_fn (g_shape cube10) (g_dx cube10) true (ps_h ramp AZ) AY 5%nat 1%nat 5%nat = C1).
  { unfold diff_fn, roll_p1, along, ramp, cube10, g_dx, uniform_dx, is_active, prv. cbn [ps_h g_shape g_ndim g_spacing coord axis_no Nat.ltb Nat.leb].
    change ((1 + 10 - 1) mod 10)%nat with 0%nat. apply C_eq; unfold Cdiv, Cinv, Cn2; cbn [re im RtoC Csub Cmul Cadd Copp C0 C1 INR]. all: field. }
  assert (D2 : diff_fn (g_shape cube10) (g_dx cube10) true (ps_h ramp AY) AZ 5%nat 1%nat 5%nat = C0).
  { unfold diff_fn, roll_p1, along, ramp. cbn [ps_h]. unfold Cdiv. ring. }
  assert (P1 : phi cube10 pml4 true (ps_h ramp) (ps_psi_e ramp) (AY, true) AX 5%nat 1%nat 5%nat = RtoC cc).
  { unfold phi, curl_pml, curl_pml_fn. cbn [snd]. unfold pml_diff. rewrite D1, D2. fold cc. change (ps_psi_e ramp) with zero_mem. unfold zero_mem. ring. }
  assert (P2 : phi cube10 pml4 true (ps_h ramp) (new_mem cube10 pml4 true (ps_h ramp) (ps_psi_e ramp)) (AY, true) AX 5%nat 1%nat 5%nat = (RtoC cc + RtoC cc * RtoC b)%C).
  { unfold phi, new_mem, curl_pml, curl_pml_fn. cbn [snd fst]. unfold pml_diff, pml_b. rewrite D1, D2. fold cc b. ring. }
  rewrite P1, P2 in H.
  destruct (coef_shape cube10 pml4 true (AY, true) AY 5%nat 1%nat 5%nat cube_wf eq_refl W A ltac:(unfold in_grid, cube10; cbn [g_shape]; lia)) as (B & CR & CZ).
  fold b in B. fold cc in CR, CZ. cbn [fst coord p_cells pml4 g_shape cube10] in CZ.
  assert (cc <> 0) by (intro E; apply CZ in E; destruct E as [E | E]; [congruence | lia]).
  assert (Z : (RtoC cc * RtoC b * RtoC (dt_of cube10))%C = C0).
  { transitivity ((x + (RtoC cc + RtoC cc * RtoC b) / RtoC 1 * RtoC (dt_of cube10)) - (x + RtoC cc / RtoC 1 * RtoC (dt_of cube10)))%C.
    - assert (E1 : forall z, (z / RtoC 1)%C = z) by (intro z; apply C_eq; unfold Cdiv, Cinv, Cn2; cbn [re im RtoC Csub Cmul Cadd Copp]; field). rewrite !E1. ring.
    - rewrite H. ring. }
  apply (f_equal re) in Z. cbn in Z. assert (cc * b * dt_of cube10 = 0) by lra. apply Rmult_integral in H1. destruct H1 as [H1 | H1]; [| lra].
  apply Rmult_integral in H1. lra.
Qed.
