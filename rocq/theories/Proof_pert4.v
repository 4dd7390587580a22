(** Two analytic families of modes: a 2 x 2 cross section (hy only) and a 1-d cross section of two cells. *)
From Coq Require Import Reals List Arith ZArith Lra Lia Bool.
From Verif Require Import Cx Arr Model_coupling Model_yee Spec_yee Proof_yee Proof_yee2 Proof_yee3 Model_fdfd Spec_fdfd Proof_fdfd Proof_fdfd2 Model_grid Model_mode Spec_mode Proof_mode Proof_mode2 Proof_mode3 Spec_orth Proof_orth Proof_orth2 Proof_orth4 Proof_orth5 Spec_pert Proof_pert Proof_pert2 Proof_pert3.
Import ListNotations.
Local Open Scope R_scope.

Definition py : mode_solver := mkQ ex2_shape (fun _ => 1) 1 (fun i _ _ => match i with O => 1 | _ => 3 end).
Definition py_u (l : R) : R := 2 * PI / l * (2 * PI / l) - 1.
Definition py_r (l : R) : R := sqrt (py_u l * py_u l + 3).
Definition py_m (l : R) : mode2 := mkMode2 (sqrt (2 * py_u l + py_r l)) ex2_vx (fun x => match x with O | 1%nat => RtoC 1 | _ => RtoC (py_u l + py_r l) end).
Lemma py_rr : forall l, py_r l * py_r l = py_u l * py_u l + 3.
Proof. intro l. apply sqrt_sqrt. nra. Qed.
Lemma py_r0 : forall l, 0 < py_r l.
Proof. intro l. apply sqrt_lt_R0. nra. Qed.
Lemma py_u1 : forall l, l <> 0 -> -1 < py_u l.
Proof.
  intros l H. unfold py_u. assert (2 * PI / l <> 0). { pose proof PI_RGT_0. apply Rmult_integral_contrapositive_currified; [lra | apply Rinv_neq_0_compat; auto]. }
  pose proof (Rsqr_pos_lt _ H0) as P. unfold Rsqr in P. lra.
Qed.
Lemma py_b2 : forall l, l <> 0 -> 0 < 2 * py_u l + py_r l.
Proof.
  intros l H. pose proof (py_u1 l H). pose proof (py_rr l). pose proof (py_r0 l). set (u := py_u l) in *. set (r := py_r l) in *.
  destruct (Rle_lt_dec 0 u); [lra |]. assert (u * u < 1) by nra. assert (r * r > (-2 * u) * (-2 * u)) by nra. nra.
Qed.
Lemma py_bb : forall l, l <> 0 -> sqrt (2 * py_u l + py_r l) * sqrt (2 * py_u l + py_r l) = 2 * py_u l + py_r l.
Proof. intros. apply sqrt_sqrt. left. apply py_b2. assumption. Qed.
Lemma py_mode : forall l, l <> 0 -> is_mode2 (update_wavelength py l) (py_m l).
Proof.
  intros l Hl. pose proof (py_b2 l Hl) as B2. pose proof (py_rr l) as RR. split; [apply sqrt_lt_R0; exact B2 |].
  cbn [py_m m_beta m_vx m_vy]. rewrite (py_bb l Hl).
  intros x Hx; unfold q_n in Hx; destruct (ridx_inv _ x Hx) as (i & j & k & H & ->);
  rewrite wg_row_x, wg_row_y by auto; cbv zeta.
  assert (E : 2 * PI / l * (2 * PI / l) = py_u l + 1) by (unfold py_u; ring).
  generalize dependent (py_u l). generalize dependent (py_r l). intros r RR u. intros.
  destruct (ex2_cells i j k H) as ([-> | ->] & [-> | ->] & ->);
  (split; unfold Wf, diff_fn, roll_m1, roll_p1, along, coord, unravel, ridx, q_dx, uniform_dx, q_eps_t, yee_avg, avg_axis, ralong, inv_eps;
   cbn -[Rdiv sqrt Cdiv Cinv]; unfold k0_of; rewrite ?E; apply C_eq; unfold Cdiv, Cinv, Cn2; cbn -[sqrt]; try (field; fail); field_simplify; nra).
Qed.
Lemma cont_of : forall f t d, derivable_pt_lim f t d -> continuity_pt f t.
Proof. intros f t d H. apply derivable_continuous_pt. exists d. exact H. Qed.
Lemma k0_cont : forall l, l <> 0 -> continuity_pt (fun l => 2 * PI / l) l.
Proof. intros. eapply cont_of. apply k0_deriv. assumption. Qed.
Lemma k2_cont : forall l, l <> 0 -> continuity_pt (fun l => 2 * PI / l * (2 * PI / l)) l.
Proof. intros. apply (continuity_pt_mult (fun l => 2 * PI / l) (fun l => 2 * PI / l)); apply k0_cont; assumption. Qed.
Lemma sqrt_cont : forall f t, continuity_pt f t -> 0 <= f t -> continuity_pt (fun x => sqrt (f x)) t.
Proof. intros f t H Hp. apply (continuity_pt_comp f sqrt); [exact H | apply continuity_pt_sqrt; exact Hp]. Qed.
Lemma py_u_cont : forall l, l <> 0 -> continuity_pt py_u l.
Proof. intros. unfold py_u. apply (continuity_pt_minus (fun l => 2 * PI / l * (2 * PI / l)) (fun _ => 1)); [apply k2_cont; assumption | apply cont_const]. Qed.
Lemma py_r_cont : forall l, l <> 0 -> continuity_pt py_r l.
Proof.
  intros l H. unfold py_r. apply (sqrt_cont (fun l => py_u l * py_u l + 3)); [| nra].
  apply (continuity_pt_plus (fun l => py_u l * py_u l) (fun _ => 3)); [| apply cont_const]. apply (continuity_pt_mult py_u py_u); apply py_u_cont; assumption.
Qed.
Lemma py_beta_cont : forall l, l <> 0 -> continuity_pt (fun l => m_beta (py_m l)) l.
Proof.
  intros l H. cbn [py_m m_beta]. apply (sqrt_cont (fun l => 2 * py_u l + py_r l)); [| left; apply py_b2; exact H].
  apply (continuity_pt_plus (fun l => 2 * py_u l) py_r); [| apply py_r_cont; exact H]. apply (continuity_pt_mult (fun _ => 2) py_u); [apply cont_const | apply py_u_cont; exact H].
Qed.
Lemma py_pos : forall l, pos_eps (update_wavelength py l).
Proof. intros l i j k H. destruct (ex2_cells i j k H) as ([-> | ->] & _ & _); cbn; lra. Qed.
Lemma k0_nz : forall l, l <> 0 -> 2 * PI / l <> 0.
Proof. intros. pose proof PI_RGT_0. apply Rmult_integral_contrapositive_currified; [lra | apply Rinv_neq_0_compat; auto]. Qed.
Lemma near_nz : forall l t, Rabs (t - l) < Rabs l -> t <> 0.
Proof. intros l t H E. subst. replace (0 - l) with (- l) in H by ring. rewrite Rabs_Ropp in H. lra. Qed.
Lemma py_family : forall l, l <> 0 -> mode_family (fun l => update_wavelength py l) py_m l (Rabs l).
Proof.
  intros l H. split; [apply Rabs_pos_lt; exact H |]. intros t Ht. apply near_nz in Ht.
  split; [reflexivity | split; [reflexivity | split; [apply k0_nz; exact Ht | split; [apply py_pos | apply py_mode; exact Ht]]]].
Qed.
Lemma py_cont : forall l, l <> 0 ->
  field_cont (q_shape py) (fun l => lib_e (update_wavelength py l) (py_m l)) l /\ field_cont (q_shape py) (fun l => lib_h (update_wavelength py l) (py_m l)) l.
Proof.
  intros l H.
  assert (Hy : forall x, (x < npix (q_shape py))%nat -> ccont (fun t => m_vy (py_m t) x) l).
  { intros x _. cbn [py_m m_vy]. assert (W : ccont (fun l => RtoC (py_u l + py_r l)) l) by (apply cc_real; apply (continuity_pt_plus py_u py_r); [apply py_u_cont | apply py_r_cont]; exact H).
    destruct x as [| [| x]]; [apply cc_const | apply cc_const | exact W]. }
  assert (Hx : forall x, (x < npix (q_shape py))%nat -> ccont (fun t => m_vx (py_m t) x) l) by (intros x _; exact (cc_const C0 l)).
  assert (Hp : ccont (fun t => cis (- Carg (m_vx (py_m t) 0%nat))) l) by exact (cc_const (cis (- Carg C0)) l).
  assert (Hb0 : m_beta (py_m l) <> 0) by (cbn [py_m m_beta]; apply Rgt_not_eq, sqrt_lt_R0, py_b2; exact H).
  assert (Hd : forall a, q_h py a <> 0) by (intro; cbn; lra).
  assert (He0 : forall c i j k, in_grid (q_shape py) i j k -> q_eps_t (update_wavelength py l) c i j k <> 0).
  { intros c i j k Hg. apply Rgt_not_eq. pose proof (edge_eps_ge (update_wavelength py l) 1) as G.
    rewrite <- edge_eps_t by exact Hg. eapply Rlt_le_trans; [apply Rlt_0_1 | apply G; [| exact Hg]]. intros i' j' k' Hg'. destruct (ex2_cells i' j' k' Hg') as ([-> | ->] & _ & _); cbn; lra. }
  split; [apply lib_e_cont with (hh := q_h py) | apply lib_h_cont with (hh := q_h py)]; auto; try reflexivity;
    try (apply k0_cont; exact H); try (apply k0_nz; exact H); try (apply py_beta_cont; exact H); intros c i j k _; exact (cont_const (q_eps_t py c i j k) l).
Qed.
Lemma py_power : forall l, 0 < l -> power2 (update_wavelength py l) (py_m l) <> 0.
Proof.
  intros l Hl. assert (Hl0 : l <> 0) by lra. pose proof (py_mode l Hl0) as M. pose proof PI_RGT_0 as HPI.
  set (q := update_wavelength py l). set (b := m_beta (py_m l)). assert (Hb : 0 < b) by apply M.
  set (z := cis (- Carg C0)). assert (Hz : Cn2 z = 1) by (unfold z, Cn2, cis; cbn [re im]; pose proof (sin2_cos2 (- Carg C0)) as S2; unfold Rsqr in S2; lra).
  assert (HX : forall i j k, in_grid (q_shape py) i j k -> lib_h q (py_m l) AX i j k = C0) by (intros; unfold lib_h, mode_h, unravel_f; cbn [py_m m_vx ex2_vx]; unfold ex2_vx; ring).
  assert (HZ : forall i j k, in_grid (q_shape py) i j k -> lib_h q (py_m l) AZ i j k = C0).
  { intros i j k H. 
    destruct (ex2_cells i j k H) as ([-> | ->] & [-> | ->] & ->); unfold lib_h, mode_h, unravel_f; cbn -[Cdiv cis Carg py_u py_r sqrt]; unfold ex2_vx; cbn -[Cdiv cis Carg py_u py_r sqrt]; 
    apply C_eq; unfold Cdiv; cbn -[Cinv cis Carg py_u py_r sqrt]; ring. }
  assert (EX : forall i j k, in_grid (q_shape py) i j k -> lib_e q (py_m l) AX i j k = (RtoC (b / (2 * PI / l * q_eps_t q AX i j k)) * lib_h q (py_m l) AY i j k)%C).
  { intros i j k H. pose proof H as (Hi & Hj & Hk). unfold lib_e, mode_e, curl_beta_fn. fold b.
    assert (D0 : diff_fn (q_shape q) (q_dx q) true (lib_h q (py_m l) AZ) AY i j k = C0).
    { unfold diff_fn, roll_p1, along. rewrite !HZ; [| repeat split; auto; apply prv_bound; exact Hj | exact H]. unfold Cdiv. ring. }
    rewrite D0. change (q_k0 q) with (2 * PI / l).
    assert (N : q_eps_t q AX i j k <> 0).
    { apply Rgt_not_eq. pose proof (edge_eps_ge q 1) as G. rewrite <- edge_eps_t by exact H. eapply Rlt_le_trans; [apply Rlt_0_1 | apply G; [| exact H]]. intros i' j' k' Hg'. destruct (ex2_cells i' j' k' Hg') as ([-> | ->] & _ & _); cbn; lra. }
    generalize (lib_h q (py_m l) AY i j k). generalize dependent (q_eps_t q AX i j k). intros x Nx y.
    apply C_eq; unfold Cdiv, Cinv, Cn2; cbn [re im RtoC Csub Cmul Cadd Copp Ci C0]; field; repeat split; try lra; 
      rewrite ?Rmult_0_l, ?Rmult_0_r; nra. }
  assert (HE : forall i j k, in_grid (q_shape py) i j k -> 0 < b / (2 * PI / l * q_eps_t q AX i j k)).
  { intros i j k H. apply Rdiv_lt_0_compat; [exact Hb |]. apply Rmult_lt_0_compat; [apply Rdiv_lt_0_compat; lra |].
    pose proof (edge_eps_ge q 1) as G. rewrite <- edge_eps_t by exact H. eapply Rlt_le_trans; [apply Rlt_0_1 | apply G; [| exact H]]. intros i' j' k' Hg'. destruct (ex2_cells i' j' k' Hg') as ([-> | ->] & _ & _); cbn; lra. }
  unfold power2. change (q_shape q) with (q_shape py). apply Rgt_not_eq. apply Rmult_lt_0_compat; [lra |]. unfold cross_power, power_along.
  assert (T : forall i j k, in_grid (q_shape py) i j k ->
    re (lib_e q (py_m l) AX i j k * Cconj (lib_h q (py_m l) AY i j k) - lib_e q (py_m l) AY i j k * Cconj (lib_h q (py_m l) AX i j k))%C =
    b / (2 * PI / l * q_eps_t q AX i j k) * Cn2 (lib_h q (py_m l) AY i j k)).
  { intros i j k H. rewrite EX, HX by exact H. unfold Cn2. cbn [re im Csub Cadd Copp Cmul Cconj RtoC C0]. ring. }
  assert (G0 : in_grid (q_shape py) 0 0 0) by (repeat split; cbn; lia).
  apply (grid_re_pos (q_shape py) _ 0 0 0).
  - intros i j k H. rewrite T by exact H. apply Rmult_le_pos; [apply Rlt_le, HE; exact H | apply Cn2_nonneg].
  - exact G0.
  - rewrite T by exact G0. apply Rmult_lt_0_compat; [apply HE; exact G0 |].
    replace (lib_h q (py_m l) AY 0%nat 0%nat 0%nat) with (RtoC 1 * z)%C by reflexivity.
    replace (Cn2 (RtoC 1 * z)%C) with (Cn2 z) by (unfold Cn2; cbn [re im Cmul RtoC]; ring). lra.
Qed.

(** 1-d: two cells, permittivity 7 and 10. *)
Definition px_k (l : R) : R := 2 * PI / l * (2 * PI / l).
Definition px_r (l : R) : R := sqrt (9 / 4 * (px_k l * px_k l) + 4).
Definition px_b (l : R) : R := sqrt ((17 / 2 * px_k l - 2) + px_r l).
Definition px_v (l : R) : vec := fun x => match x with O => RtoC 1 | _ => RtoC ((3 / 2 * px_k l + px_r l) / 2) end.
Lemma px_rr : forall l, px_r l * px_r l = 9 / 4 * (px_k l * px_k l) + 4.
Proof. intro l. apply sqrt_sqrt. pose proof (Rle_0_sqr (px_k l)) as S. unfold Rsqr in S. lra. Qed.
Lemma px_r2 : forall l, 2 <= px_r l.
Proof. intro l. rewrite <- (sqrt_square 2) by lra. apply sqrt_le_1_alt. pose proof (Rle_0_sqr (px_k l)) as S. unfold Rsqr in S. lra. Qed.
Lemma px_k0 : forall l, l <> 0 -> 0 < px_k l.
Proof. intros l H. exact (Rsqr_pos_lt _ (k0_nz l H)). Qed.
Lemma px_eigen : forall l, l <> 0 -> eigen1 (update_wavelength ox l) (RtoC (px_b l * px_b l)) (px_v l).
Proof.
  intros l Hl x Hx. pose proof (px_k0 l Hl). pose proof (px_r2 l). pose proof (px_rr l) as RR.
  assert (E : px_b l * px_b l = (17 / 2 * px_k l - 2) + px_r l) by (apply sqrt_sqrt; lra). rewrite E.
  destruct (ridx_inv _ x Hx) as (i & j & k & Hg & ->). rewrite wg1_apply by exact Hg.
  assert (K : q_k0 (update_wavelength ox l) * q_k0 (update_wavelength ox l) = px_k l) by reflexivity. rewrite K. clear E K. unfold px_v.
  generalize dependent (px_k l). generalize dependent (px_r l). intros.
  destruct Hg as (Hi & Hj & Hk). cbn in Hi, Hj, Hk. assert (j = 0%nat) by lia. assert (k = 0%nat) by lia. subst.
  destruct i as [| [| i]]; [| | lia];
  unfold diff_fn, roll_m1, roll_p1, along, coord, unravel, ridx, q_dx, uniform_dx; cbn -[Rdiv Cdiv Cinv]; apply C_eq; unfold Cdiv, Cinv, Cn2; cbn; field_simplify; nra.
Qed.
Lemma px_k_cont : forall l, l <> 0 -> continuity_pt px_k l.
Proof. intros. apply k2_cont. assumption. Qed.
Lemma px_r_cont : forall l, l <> 0 -> continuity_pt px_r l.
Proof.
  intros l H. unfold px_r. apply (sqrt_cont (fun l => 9 / 4 * (px_k l * px_k l) + 4)); [| pose proof (Rle_0_sqr (px_k l)) as S; unfold Rsqr in S; lra].
  apply (continuity_pt_plus (fun l => 9 / 4 * (px_k l * px_k l)) (fun _ => 4)); [| apply cont_const].
  apply (continuity_pt_mult (fun _ => 9 / 4) (fun l => px_k l * px_k l)); [apply cont_const |]. apply (continuity_pt_mult px_k px_k); apply px_k_cont; exact H.
Qed.
Lemma px_family : forall l, l <> 0 -> mode_family1 (fun l => update_wavelength ox l) px_b px_v l (Rabs l).
Proof.
  intros l H. split; [apply Rabs_pos_lt; exact H | split; [| split]].
  - intros t Ht. apply near_nz in Ht. split; [reflexivity | split; [reflexivity | split; [| apply px_eigen; exact Ht]]].
    apply sqrt_lt_R0. pose proof (px_k0 t Ht). pose proof (px_r2 t). lra.
  - intros x _. unfold px_v. destruct x as [| x]; [apply cc_const |]. apply cc_real.
    apply (continuity_pt_mult (fun l => 3 / 2 * px_k l + px_r l) (fun _ => / 2)); [| apply cont_const].
    apply (continuity_pt_plus (fun l => 3 / 2 * px_k l) px_r); [| apply px_r_cont; exact H]. apply (continuity_pt_mult (fun _ => 3 / 2) px_k); [apply cont_const | apply px_k_cont; exact H].
  - exists 0%nat. split; [cbn; lia |]. cbn. intro X. apply (f_equal re) in X. cbn in X. lra.
Qed.
Lemma px_positive : forall l, l <> 0 -> positive_array (q_n ox) (px_v l).
Proof.
  intros l H x _. unfold px_v. pose proof (px_k0 l H). pose proof (px_r2 l). destruct x; cbn; split; lra.
Qed.
