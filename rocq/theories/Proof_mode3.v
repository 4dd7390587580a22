(** Proofs about Model_mode: concrete modes, refutations, evolve, orientation at ports, caches. *)
From Coq Require Import Reals List Arith ZArith Lra Lia Bool.
From Verif Require Import Cx Arr Model_coupling Model_yee Spec_yee Proof_yee Proof_yee2 Proof_yee3 Model_fdfd Spec_fdfd Proof_fdfd Proof_fdfd2 Proof_fdfd5 Model_grid Model_mode Spec_mode Proof_mode Proof_mode2.
Local Open Scope R_scope.

(** A 2 x 2 cross section with two materials: permittivity 1 and 3, k0 = sqrt 2; hy = 1 and 3, beta = 2. *)
Definition ex2_shape : shape3 := fun a => match a with AX => 2 | AY => 2 | AZ => 1 end%nat.
Definition ex2 : mode_solver := mkQ ex2_shape (fun _ => 1) (sqrt 2) (fun i _ _ => match i with O => 1 | _ => 3 end).
Definition ex2_vy : vec := fun r => match r with O | 1%nat => RtoC 1 | _ => RtoC 3 end.
Definition ex2_vx : vec := fun _ => C0.
Lemma ex2_cells : forall i j k, in_grid ex2_shape i j k -> (i = 0 \/ i = 1)%nat /\ (j = 0 \/ j = 1)%nat /\ k = 0%nat.
Proof. intros i j k (A & B & D). cbn in *. lia. Qed.
Lemma ex2_k : sqrt 2 * sqrt 2 = 2.
Proof. apply sqrt_sqrt. lra. Qed.
Lemma ex2_eigen : eigen2 ex2 (RtoC (2 * 2)) ex2_vx ex2_vy.
Proof.
  intros r Hr. unfold q_n in Hr. destruct (ridx_inv _ r Hr) as (i & j & k & H & ->).
  rewrite wg_row_x, wg_row_y by auto. cbv zeta.
  destruct (ex2_cells i j k H) as ([-> | ->] & [-> | ->] & ->);
  (split; unfold Wf, diff_fn, roll_m1, roll_p1, along, coord, unravel, ridx, q_dx, uniform_dx, q_eps_t, yee_avg, avg_axis, ralong, inv_eps;
   cbn -[Rdiv sqrt Cdiv Cinv]; rewrite ?ex2_k; apply C_eq; unfold Cdiv, Cinv, Cn2; cbn -[sqrt]; field).
Qed.
Lemma ex2_ok : q_k0 ex2 <> 0 /\ pos_eps ex2 /\ eigen2 ex2 (RtoC (2 * 2)) ex2_vx ex2_vy /\ ex2_vy 0%nat <> ex2_vy 2%nat.
Proof.
  split; [| split; [| split]].
  - cbn. apply Rgt_not_eq. apply sqrt_lt_R0. lra.
  - intros i j k H. destruct (ex2_cells i j k H) as ([-> | ->] & _ & _); cbn; lra.
  - apply ex2_eigen.
  - cbn. intro E. apply RtoC_inj in E. lra.
Qed.

(** A two-cell one-dimensional cross section: permittivity 2 and 5, k0 = 1; mode 1, 2, beta = 2. *)
Definition ex1_shape : shape3 := fun a => match a with AX => 2 | AY => 1 | AZ => 1 end%nat.
Definition ex1 : mode_solver := mkQ ex1_shape (fun _ => 1) 1 (fun i _ _ => match i with O => 2 | _ => 5 end).
Definition ex1_v : vec := fun r => match r with O => RtoC 1 | _ => RtoC 2 end.
Lemma ex1_cells : forall i j k, in_grid ex1_shape i j k -> (i = 0 \/ i = 1)%nat /\ j = 0%nat /\ k = 0%nat.
Proof. intros i j k (A & B & D). cbn in *. lia. Qed.
Lemma ex1_eigen : eigen1 ex1 (RtoC (2 * 2)) ex1_v.
Proof.
  intros r Hr. unfold q_n in Hr. destruct (ridx_inv _ r Hr) as (i & j & k & H & ->). rewrite wg1_apply by auto.
  destruct (ex1_cells i j k H) as ([-> | ->] & -> & ->);
  (unfold diff_fn, roll_m1, roll_p1, along, coord, unravel, ridx, q_dx, uniform_dx;
   cbn -[Rdiv Cdiv Cinv]; apply C_eq; unfold Cdiv, Cinv, Cn2; cbn; field).
Qed.
Lemma ex1_pos : pos_eps ex1.
Proof. intros i j k H. destruct (ex1_cells i j k H) as ([-> | ->] & _ & _); cbn; lra. Qed.
(** The y component of the curl of the reported TM field at cell 0, for either difference and either direction. *)
Lemma ex1_tm_bad : forall (o : bool) (kz w : R), (kz = 2 \/ kz = -2) -> (w = 1 \/ w = -1) ->
  (kz = 2 -> Ci * RtoC kz * e_1d ex1 true 2 (unravel_f ex1_shape ex1_v) AX 0%nat 0%nat 0%nat -
    diff_fn ex1_shape (q_dx ex1) o (e_1d ex1 true 2 (unravel_f ex1_shape ex1_v) AZ) AX 0%nat 0%nat 0%nat <>
    - (Ci * RtoC w * h_1d ex1 true 2 (unravel_f ex1_shape ex1_v) AY 0%nat 0%nat 0%nat))%C /\
  (kz = -2 -> Ci * RtoC kz * e_1d ex1 true 2 (unravel_f ex1_shape ex1_v) AX 0%nat 0%nat 0%nat -
    diff_fn ex1_shape (q_dx ex1) o (e_1d ex1 true 2 (unravel_f ex1_shape ex1_v) AZ) AX 0%nat 0%nat 0%nat <>
    - (Ci * RtoC w * h_1d ex1 true 2 (unravel_f ex1_shape ex1_v) AY 0%nat 0%nat 0%nat))%C.
Proof.
  intros o kz w Hz Hw.
  assert (EX : e_1d ex1 true 2 (unravel_f ex1_shape ex1_v) AX 0%nat 0%nat 0%nat = RtoC 1).
  { unfold e_1d, q_eps_t, yee_avg, avg_axis, ralong, unravel_f, ridx. cbn -[Rdiv Cdiv Cinv]. apply C_eq; unfold Cdiv, Cinv, Cn2; cbn; field. }
  assert (EZ : forall i, (i = 0 \/ i = 1)%nat -> e_1d ex1 true 2 (unravel_f ex1_shape ex1_v) AZ i 0%nat 0%nat = (Ci * RtoC (if Nat.eqb i 0%nat then 2 / 7 else - (2 / 7)))%C).
  { intros i [-> | ->]; unfold e_1d, q_eps_t, yee_avg, avg_axis, ralong, unravel_f, ridx, roll_m1, along; cbn -[Rdiv Cdiv Cinv]; apply C_eq; unfold Cdiv, Cinv, Cn2; cbn; field. }
  assert (HH : h_1d ex1 true 2 (unravel_f ex1_shape ex1_v) AY 0%nat 0%nat 0%nat = RtoC 1) by reflexivity.
  rewrite EX, HH. unfold diff_fn, roll_m1, roll_p1, along, coord. change (nxt (ex1_shape AX) 0%nat) with 1%nat. change (prv (ex1_shape AX) 0%nat) with 1%nat.
  rewrite !EZ by auto. cbn [Nat.eqb].
  assert (DX : q_dx ex1 AX 0%nat = C1) by reflexivity. rewrite DX.
  assert (D1 : forall z, (z / C1)%C = z) by (intros; field; apply C1_neq_C0). rewrite !D1.
  split; intros E Hc; subst kz; destruct o, Hw; subst w; apply (f_equal im) in Hc; cbn in Hc; lra.
Qed.
Lemma tm_1d_refuted : exists q beta v, q_shape q AY = 1%nat /\ q_shape q AZ = 1%nat /\ q_k0 q <> 0 /\ beta <> 0 /\ pos_eps q /\ eigen1 q (RtoC (beta * beta)) v /\
  forall De Dh, (De, Dh) = (bwd (q_shape q) (q_dx q), fwd (q_shape q) (q_dx q)) \/ (De, Dh) = (fwd (q_shape q) (q_dx q), bwd (q_shape q) (q_dx q)) ->
  forall kz w, kz = beta \/ kz = - beta -> w = q_k0 q \/ w = - q_k0 q ->
  ~ maxwell_mode (q_shape q) De Dh (Ci * RtoC kz)%C w (q_eps_t q) (e_1d q true beta (unravel_f (q_shape q) v)) (h_1d q true beta (unravel_f (q_shape q) v)).
Proof.
  exists ex1, 2, ex1_v. split; [reflexivity |]. split; [reflexivity |]. split; [cbn; lra |]. split; [lra |]. split; [exact ex1_pos |]. split; [exact ex1_eigen |].
  intros De Dh HD kz w Hz Hw [HF _].
  assert (H0 : in_grid ex1_shape 0%nat 0%nat 0%nat) by (repeat split; cbn; lia).
  specialize (HF AY 0%nat 0%nat 0%nat H0). unfold curl_of, with_kz in HF. cbn [q_k0 ex1] in Hw.
  assert (Hz' : kz = 2 \/ kz = -2) by (destruct Hz; [left | right]; lra).
  destruct HD as [HD | HD]; injection HD as -> ->.
  - destruct (ex1_tm_bad true kz w Hz' Hw) as [A1 A2]. rewrite <- diff_bwd in HF by exact H0. destruct Hz' as [Ez | Ez]; [apply (A1 Ez) | apply (A2 Ez)]; exact HF.
  - destruct (ex1_tm_bad false kz w Hz' Hw) as [A1 A2]. rewrite <- diff_fwd in HF by exact H0. destruct Hz' as [Ez | Ez]; [apply (A1 Ez) | apply (A2 Ez)]; exact HF.
Qed.

(** ** Evolution along z. *)
Lemma evolve_phase : forall k0 f beta len c i j k, k0 <> 0 ->
  evolve ((f, beta) :: nil) (1 :: nil) len c i j k = (f c i j k * cis (mode_phase k0 beta len))%C.
Proof.
  intros. cbn [evolve]. unfold mode_phase, mode_n. replace (k0 * len * (beta / k0)) with (beta * len) by (field; auto). change (RtoC 1) with C1. ring.
Qed.
Lemma beat_period : forall f0 f1 b0 b1 w0 w1 len c i j k, b0 <> b1 ->
  Cn2 (evolve ((f0, b0) :: (f1, b1) :: nil) (w0 :: w1 :: nil) (len + beat_length b0 b1) c i j k) =
  Cn2 (evolve ((f0, b0) :: (f1, b1) :: nil) (w0 :: w1 :: nil) len c i j k).
Proof.
  intros f0 f1 b0 b1 w0 w1 len c i j k Hb. cbn [evolve]. set (L := beat_length b0 b1).
  assert (E : cis (b0 * (len + L)) = (cis (b1 * L) * cis (b0 * len))%C).
  { rewrite <- cis_add. replace (b0 * (len + L)) with (b1 * L + b0 * len + 2 * PI * IZR 1).
    - apply cis_period.
    - unfold L, beat_length. cbn. field. lra. }
  assert (E1 : cis (b1 * (len + L)) = (cis (b1 * L) * cis (b1 * len))%C) by (rewrite <- cis_add; f_equal; ring).
  rewrite E, E1.
  replace (f0 c i j k * (cis (b1 * L) * cis (b0 * len)) * RtoC w0 + (f1 c i j k * (cis (b1 * L) * cis (b1 * len)) * RtoC w1 + C0))%C
    with (cis (b1 * L) * (f0 c i j k * cis (b0 * len) * RtoC w0 + (f1 c i j k * cis (b1 * len) * RtoC w1 + C0)))%C by ring.
  rewrite Cn2_mul, Cn2_cis. ring.
Qed.
(** The 2-d mode of ex2 evolves with e^{+i beta z}, the wrong way for its electric field. *)
Lemma ex2_ez : mode_e ex2 2 (mode_h ex2 2 ex2_vx ex2_vy) AZ 0%nat 0%nat 0%nat <> C0.
Proof.
  intro E0. pose proof (proj1 (proj2 ex2_ok)) as Hp. 
  assert (H0 : in_grid ex2_shape 0%nat 0%nat 0%nat) by (repeat split; cbn; lia).
  rewrite (ez_W ex2) in E0; [| apply ex2_ok | apply eps_t_nz; apply ex2_ok | exact H0].
  apply Cmul_integral in E0. destruct E0 as [E0 | E0].
  - assert (E1 : (Ci * RtoC (q_k0 ex2) * Cinv (Ci * RtoC (q_k0 ex2)))%C = C1) by (field; split; [apply RtoC_neq0; apply ex2_ok | apply Ci_neq0]).
    rewrite E0 in E1. apply C1_neq_C0. rewrite <- E1. ring.
  - unfold Wf, mode_h, diff_fn, roll_p1, along, coord, unravel_f, ridx, q_dx, uniform_dx, q_eps_t, yee_avg, avg_axis, ralong, inv_eps in E0.
    cbn -[Rdiv Cdiv Cinv cis Carg] in E0. unfold ex2_vx in E0. rewrite Carg_C0 in E0. replace (- 0) with 0 in E0 by ring. rewrite cis_0 in E0.
    apply (f_equal re) in E0. unfold Cdiv, Cinv, Cn2 in E0. cbn in E0. lra.
Qed.
Lemma evolve_2d_refuted : exists q beta vx vy, q_k0 q <> 0 /\ 0 < beta /\ pos_eps q /\ eigen2 q (RtoC (beta * beta)) vx vy /\
  forall w, w = q_k0 q \/ w = - q_k0 q ->
  let h := mode_h q beta vx vy in
  ~ maxwell_mode (q_shape q) (fwd (q_shape q) (q_dx q)) (bwd (q_shape q) (q_dx q)) (Ci * RtoC beta)%C w (q_eps_t q) (mode_e q beta h) h.
Proof.
  exists ex2, 2, ex2_vx, ex2_vy. destruct ex2_ok as (Hk & Hp & He & _). split; [exact Hk |]. split; [lra |]. split; [exact Hp |]. split; [exact He |].
  intros w Hw h [_ HA].
  assert (H0 : in_grid ex2_shape 0%nat 0%nat 0%nat) by (repeat split; cbn; lia).
  destruct (modes_maxwell ex2 2 ex2_vx ex2_vy Hk ltac:(lra) Hp He) as [[_ HA'] _]. fold h in HA'.
  destruct Hw as [-> | ->].
  - specialize (HA AX 0%nat 0%nat 0%nat H0). specialize (HA' AX 0%nat 0%nat 0%nat H0). rewrite <- HA' in HA. unfold curl_of, with_kz in HA.
    assert (E : (Ci * h AY 0%nat 0%nat 0%nat)%C = C0).
    { apply (Cmul_cancel' (RtoC 4)); [apply RtoC_neq0; lra |].
      set (b := bwd _ _ _ _ _ _ _) in HA. set (y := h AY 0%nat 0%nat 0%nat) in *.
      transitivity ((b - (- (Ci * RtoC 2)) * y) - (b - Ci * RtoC 2 * y))%C; [replace (RtoC 4) with (RtoC 2 + RtoC 2)%C by (apply C_eq; cbn; ring); ring |].
      rewrite HA. ring. }
    apply Cmul_integral in E. destruct E as [E | E]; [exact (Ci_neq0 E) |].
    unfold h, mode_h, unravel_f in E. cbn -[cis Carg] in E. unfold ex2_vx in E. rewrite Carg_C0 in E. replace (- 0) with 0 in E by ring. rewrite cis_0 in E.
    apply (f_equal re) in E. cbn in E. lra.
  - specialize (HA AZ 0%nat 0%nat 0%nat H0). specialize (HA' AZ 0%nat 0%nat 0%nat H0). unfold curl_of, with_kz in HA, HA'. rewrite HA' in HA.
    assert (He0 := ex2_ez). fold h in He0. set (ez := mode_e ex2 2 h AZ 0%nat 0%nat 0%nat) in *.
    assert (Hn : RtoC (q_eps_t ex2 AZ 0%nat 0%nat 0%nat) <> C0) by (apply RtoC_neq0; apply (eps_t_nz ex2 Hp); exact H0).
    assert (HK : RtoC (q_k0 ex2) <> C0) by (apply RtoC_neq0; exact Hk). set (K := RtoC (q_k0 ex2)) in *. set (ep := RtoC (q_eps_t ex2 AZ 0%nat 0%nat 0%nat)) in *.
    rewrite RtoC_opp in HA. fold K in HA.
    assert (E : (RtoC 2 * (Ci * K * ep * ez))%C = C0).
    { replace (RtoC 2) with (C1 + C1)%C by (apply C_eq; cbn; ring). transitivity (Ci * K * ep * ez - (Ci * - K * ep * ez))%C; [ring |]. rewrite HA. ring. }
    repeat (apply Cmul_integral in E; destruct E as [E | E]; [| try contradiction]); try contradiction; try (exact (Ci_neq0 E)).
    apply (RtoC_neq0 2) in E; auto; lra.
Qed.
