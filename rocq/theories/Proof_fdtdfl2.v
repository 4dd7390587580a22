(** Rounding errors of one step, in norm. *)
From Coq Require Import Reals Lra Lia Psatz List Arith Bool FunctionalExtensionality.
From Verif Require Import Cx Arr Model_yee Spec_yee Proof_yee Proof_yee2 Model_fdtd Spec_fdtd Proof_fdtd Proof_energy Proof_energy2 Proof_fdtd3 Proof_sym Proof_harm2.
From Verif Require Import Spec_conv Proof_conv3 Proof_duhamel Proof_adj Model_fdtdfl Spec_fdtdfl Proof_fdtdfl.
Import ListNotations.
Local Open Scope R_scope.

(** ** Norms *)
Section Norms.
Variable g : fgrid.
Hypothesis W : wf_grid g.
Hypothesis Hpos : forall c i j k, in_grid (g_shape g) i j k -> 0 <= eps_t g false c i j k.
Definition est (e : vfld) : fstate := mkState e zero_vfld.
Definition hst (h : vfld) : fstate := mkState zero_vfld h.
Definition absf (f : vfld) : vfld := fun c i j k => RtoC (Cabs (f c i j k)).
Definition realf (f : axis -> rfld) : vfld := fun c i j k => RtoC (f c i j k).
Lemma nst_mono : forall a b, (forall c i j k, in_grid (g_shape g) i j k -> Cn2 (f_e a c i j k) <= Cn2 (f_e b c i j k) /\ Cn2 (f_h a c i j k) <= Cn2 (f_h b c i j k)) -> nst g a <= nst g b.
Proof.
  intros a b H. unfold nst. apply sqrt_le_1_alt. unfold field_energy, sum3.
  assert (P : forall c, rgrid_sum (g_shape g) (fun i j k => eps_t g false c i j k * Cn2 (f_e a c i j k) + Cn2 (f_h a c i j k)) <=
                        rgrid_sum (g_shape g) (fun i j k => eps_t g false c i j k * Cn2 (f_e b c i j k) + Cn2 (f_h b c i j k))).
  { intro c. apply rgrid_sum_le. intros i j k Hin. destruct (H c i j k Hin) as [A B]. pose proof (Hpos c i j k Hin).
    apply Rplus_le_compat; [apply Rmult_le_compat_l; assumption | assumption]. }
  pose proof (P AX); pose proof (P AY); pose proof (P AZ). lra.
Qed.
Lemma nst_est_mono : forall e f, (forall c i j k, in_grid (g_shape g) i j k -> Cabs (e c i j k) <= Cabs (f c i j k)) -> nst g (est e) <= nst g (est f).
Proof.
  intros e f H. apply nst_mono. intros c i j k Hin. unfold est; cbn [f_e f_h]. split; [| lra]. rewrite <- !Cabs_sq. pose proof (H c i j k Hin). pose proof (Cabs_nonneg (e c i j k)).
  apply Rmult_le_compat; lra.
Qed.
Lemma nst_hst_mono : forall e f, (forall c i j k, in_grid (g_shape g) i j k -> Cabs (e c i j k) <= Cabs (f c i j k)) -> nst g (hst e) <= nst g (hst f).
Proof.
  intros e f H. apply nst_mono. intros c i j k Hin. unfold hst; cbn [f_e f_h]. split; [lra |]. rewrite <- !Cabs_sq. pose proof (H c i j k Hin). pose proof (Cabs_nonneg (e c i j k)).
  apply Rmult_le_compat; lra.
Qed.
Lemma zero_n2 : Cn2 C0 = 0.
Proof. unfold Cn2. cbn. ring. Qed.
Lemma nst_est_le : forall st, nst g (est (f_e st)) <= nst g st.
Proof. intro st. apply nst_mono. intros. unfold est, zero_vfld; cbn [f_e f_h]. rewrite zero_n2. split; [lra | apply Cn2_nonneg]. Qed.
Lemma nst_hst_le : forall st, nst g (hst (f_h st)) <= nst g st.
Proof. intro st. apply nst_mono. intros. unfold hst, zero_vfld; cbn [f_e f_h]. rewrite zero_n2. split; [apply Cn2_nonneg | lra]. Qed.
Lemma nst_parts : forall st, nst g st <= nst g (est (f_e st)) + nst g (hst (f_h st)).
Proof.
  intro st. replace st with (sadd (est (f_e st)) (hst (f_h st))) at 1; [apply nst_triangle; exact Hpos |].
  apply state_eq; intros c i j k; unfold sadd, est, hst, vadd, zero_vfld; cbn [f_e f_h]; ring.
Qed.
Lemma nst_scal : forall x st, 0 <= x -> nst g (sscal x st) = x * nst g st.
Proof.
  intros x st Hx. unfold nst. replace (field_energy g false (sscal x st)) with (x * x * field_energy g false st).
  - rewrite sqrt_mult_alt by nra. rewrite sqrt_square by exact Hx. reflexivity.
  - unfold field_energy, sum3, sscal, vscal. cbn [f_e f_h]. rewrite !Rmult_plus_distr_l, <- !rgrid_sum_scal.
    f_equal; [f_equal |]; apply rgrid_sum_ext; intros; unfold Cn2; cbn [re im Cmul RtoC]; ring.
Qed.
Lemma est_add : forall e f, nst g (est (vadd e f)) <= nst g (est e) + nst g (est f).
Proof.
  intros. replace (est (vadd e f)) with (sadd (est e) (est f)); [apply nst_triangle; exact Hpos |].
  apply state_eq; intros c i j k; unfold sadd, est, hst, vadd, zero_vfld; cbn [f_e f_h]; ring.
Qed.
Lemma hst_add : forall e f, nst g (hst (vadd e f)) <= nst g (hst e) + nst g (hst f).
Proof.
  intros. replace (hst (vadd e f)) with (sadd (hst e) (hst f)); [apply nst_triangle; exact Hpos |].
  apply state_eq; intros c i j k; unfold sadd, est, hst, vadd, zero_vfld; cbn [f_e f_h]; ring.
Qed.
Lemma est_scal : forall x e, 0 <= x -> nst g (est (vscal x e)) = x * nst g (est e).
Proof.
  intros. rewrite <- nst_scal by assumption. f_equal. apply state_eq; intros c i j k; unfold sscal, est, vscal, zero_vfld; cbn [f_e f_h]; ring.
Qed.
Lemma hst_scal : forall x e, 0 <= x -> nst g (hst (vscal x e)) = x * nst g (hst e).
Proof.
  intros. rewrite <- nst_scal by assumption. f_equal. apply state_eq; intros c i j k; unfold sscal, hst, vscal, zero_vfld; cbn [f_e f_h]; ring.
Qed.
Lemma nst_hst_nrm : forall h, nst g (hst h) = nrm (g_shape g) h.
Proof.
  intro h. unfold nst, nrm. f_equal. rewrite energy_value. unfold hst. cbn [f_e f_h]. rewrite Qe_value. unfold sum3, zero_vfld.
  assert (Zr : forall c, rgrid_sum (g_shape g) (fun i j k => eps_t g false c i j k * Cn2 C0) = 0).
  { intro c. rewrite (rgrid_sum_ext _ _ (fun _ _ _ => 0)); [rewrite rgrid_sum_const; ring |]. intros. rewrite zero_n2. ring. }
  rewrite !Zr. ring.
Qed.
Definition cells3 : R := 3 * INR (g_shape g AX * g_shape g AY * g_shape g AZ).
Lemma hst_const : forall v, 0 <= v -> nst g (hst (realf (fun _ _ _ _ => v))) = v * sqrt cells3.
Proof.
  intros v Hv. rewrite nst_hst_nrm. unfold nrm. rewrite rin_split, !sin_self. unfold realf.
  rewrite !(rgrid_sum_ext _ (fun i j k => Cn2 (RtoC v)) (fun _ _ _ => v * v)) by (intros; unfold Cn2; cbn; ring). rewrite rgrid_sum_const.
  replace (INR (g_shape g AX * g_shape g AY * g_shape g AZ) * (v * v) + INR (g_shape g AX * g_shape g AY * g_shape g AZ) * (v * v) + INR (g_shape g AX * g_shape g AY * g_shape g AZ) * (v * v)) with (v * v * cells3) by (unfold cells3; ring).
  rewrite sqrt_mult_alt by nra. rewrite sqrt_square by exact Hv. reflexivity.
Qed.
Lemma est_weight : forall emax e, (forall c i j k, in_grid (g_shape g) i j k -> eps_t g false c i j k <= emax) -> 0 <= emax -> nst g (est e) <= sqrt emax * nst g (hst e).
Proof.
  intros emax e Hm Em. unfold nst. rewrite <- sqrt_mult_alt by exact Em. apply sqrt_le_1_alt. unfold field_energy, sum3, est, hst. cbn [f_e f_h]. rewrite !Rmult_plus_distr_l, <- !rgrid_sum_scal.
  assert (P : forall c, rgrid_sum (g_shape g) (fun i j k => eps_t g false c i j k * Cn2 (e c i j k) + Cn2 (zero_vfld c i j k)) <=
                        rgrid_sum (g_shape g) (fun i j k => emax * (eps_t g false c i j k * Cn2 (zero_vfld c i j k) + Cn2 (e c i j k)))).
  { intro c. apply rgrid_sum_le. intros i j k Hin. unfold zero_vfld. rewrite zero_n2. pose proof (Hm c i j k Hin). pose proof (Cn2_nonneg (e c i j k)). 
    assert (eps_t g false c i j k * Cn2 (e c i j k) <= emax * Cn2 (e c i j k)) by (apply Rmult_le_compat_r; lra). lra. }
  pose proof (P AX); pose proof (P AY); pose proof (P AZ). lra.
Qed.
(** Division by the permittivity (at least 1). *)
Lemma est_div : forall f, (forall c i j k, in_grid (g_shape g) i j k -> 1 <= eps_t g false c i j k) ->
  nst g (est (realf (fun c i j k => f c i j k / eps_t g false c i j k))) <= nst g (hst (realf f)).
Proof.
  intros f H1. unfold nst. apply sqrt_le_1_alt. unfold field_energy, sum3, est, hst, realf. cbn [f_e f_h].
  assert (P : forall c, rgrid_sum (g_shape g) (fun i j k => eps_t g false c i j k * Cn2 (RtoC (f c i j k / eps_t g false c i j k)) + Cn2 (zero_vfld c i j k)) <=
                        rgrid_sum (g_shape g) (fun i j k => eps_t g false c i j k * Cn2 (zero_vfld c i j k) + Cn2 (RtoC (f c i j k)))).
  { intro c. apply rgrid_sum_le. intros i j k Hin. unfold zero_vfld. rewrite zero_n2. pose proof (H1 c i j k Hin) as E. set (ep := eps_t g false c i j k) in *. set (x := f c i j k).
    rewrite !Proof_conv3.Cn2_RtoC. replace (ep * (x / ep * (x / ep))) with (x * x * / ep) by (field; lra).
    assert (I : / ep <= 1) by (rewrite <- Rinv_1; apply Rinv_le_contravar; lra). assert (x * x * / ep <= x * x * 1) by (apply Rmult_le_compat_l; [apply Rle_0_sqr | exact I]). lra. }
  pose proof (P AX); pose proof (P AY); pose proof (P AZ). lra.
Qed.
(** Magnitudes of the two differences in each component of the curl. *)
Definition Qf (of_h : bool) (f : vfld) : axis -> rfld := fun c i j k =>
  let df := diff_fn (g_shape g) (g_dx g) of_h in
  match c with
  | AX => Cabs (df (f AZ) AY i j k) + Cabs (df (f AY) AZ i j k)
  | AY => Cabs (df (f AX) AZ i j k) + Cabs (df (f AZ) AX i j k)
  | AZ => Cabs (df (f AY) AX i j k) + Cabs (df (f AX) AY i j k)
  end.
Lemma diff_norm2 : forall o f a, rgrid_sum (g_shape g) (fun i j k => Cn2 (diff_fn (g_shape g) (g_dx g) o f a i j k)) <= 4 * inv_sq g a * sin_ (g_shape g) f f.
Proof.
  intros o f a. rewrite <- (sin_self (g_shape g) (diff_fn (g_shape g) (g_dx g) o f a)). destruct o; [unfold g_dx; rewrite diff_norm_eq |]; apply (diff_norm g a f W).
Qed.
Lemma Q_norm : forall o f, nst g (hst (realf (fun c i j k => dt_of g * Qf o f c i j k))) <= 3 * nst g (hst f).
Proof.
  intros o f. rewrite !nst_hst_nrm. pose proof (nrm_pos (g_shape g) f) as N0. apply sq_le_le; [lra |]. rewrite nrm_sq.
  replace (3 * nrm (g_shape g) f * (3 * nrm (g_shape g) f)) with (9 * (nrm (g_shape g) f * nrm (g_shape g) f)) by ring. rewrite nrm_sq, !rin_split.
  set (dt := dt_of g). set (s := g_shape g).
  assert (P : forall (F : rfld) (p q : fld), (forall i j k, F i j k = dt * (Cabs (p i j k) + Cabs (q i j k))) ->
    sin_ s (fun i j k => RtoC (F i j k)) (fun i j k => RtoC (F i j k)) <= 2 * (dt * dt) * (rgrid_sum s (fun i j k => Cn2 (p i j k)) + rgrid_sum s (fun i j k => Cn2 (q i j k)))).
  { intros F p q HF. rewrite sin_self, <- rgrid_sum_add, <- rgrid_sum_scal. apply rgrid_sum_le. intros i j k _. rewrite HF, Proof_conv3.Cn2_RtoC, <- !Cabs_sq.
    set (x := Cabs (p i j k)). set (y := Cabs (q i j k)). pose proof (Rle_0_sqr (dt * (x - y))) as S1. unfold Rsqr in S1. lra. }
  pose proof (P (fun i j k => dt * Qf o f AX i j k) (diff_fn s (g_dx g) o (f AZ) AY) (diff_fn s (g_dx g) o (f AY) AZ) (fun i j k => eq_refl)) as P1.
  pose proof (P (fun i j k => dt * Qf o f AY i j k) (diff_fn s (g_dx g) o (f AX) AZ) (diff_fn s (g_dx g) o (f AZ) AX) (fun i j k => eq_refl)) as P2.
  pose proof (P (fun i j k => dt * Qf o f AZ i j k) (diff_fn s (g_dx g) o (f AY) AX) (diff_fn s (g_dx g) o (f AX) AY) (fun i j k => eq_refl)) as P3.
  unfold realf. pose proof (dt_sq g W) as D. fold dt in D.
  pose proof (diff_norm2 o (f AZ) AY) as N1. pose proof (diff_norm2 o (f AY) AZ) as N2. pose proof (diff_norm2 o (f AX) AZ) as N3.
  pose proof (diff_norm2 o (f AZ) AX) as N4. pose proof (diff_norm2 o (f AY) AX) as N5. pose proof (diff_norm2 o (f AX) AY) as N6. fold s in N1, N2, N3, N4, N5, N6.
  assert (In : forall a, 0 <= inv_sq g a).
  { intro a. unfold inv_sq. destruct (is_active g a) eqn:Ea; [| lra]. destruct W as (_ & _ & Hs & _). pose proof (Hs a Ea). left. apply Rinv_0_lt_compat. nra. }
  pose proof (In AX) as IX. pose proof (In AY) as IY. pose proof (In AZ) as IZ.
  pose proof (sin_pos s (f AX)) as SX. pose proof (sin_pos s (f AY)) as SY. pose proof (sin_pos s (f AZ)) as SZ.
  set (sx := sin_ s (f AX) (f AX)) in *. set (sy := sin_ s (f AY) (f AY)) in *. set (sz := sin_ s (f AZ) (f AZ)) in *.
  set (ix := inv_sq g AX) in *. set (iy := inv_sq g AY) in *. set (iz := inv_sq g AZ) in *.
  assert (T0 : 0 <= dt * dt) by (apply Rle_0_sqr).
  eapply Rle_trans; [apply Rplus_le_compat; [apply Rplus_le_compat; [exact P1 | exact P2] | exact P3] |].
  apply Rle_trans with (2 * (dt * dt) * (4 * iy * sz + 4 * iz * sy + (4 * iz * sx + 4 * ix * sz) + (4 * ix * sy + 4 * iy * sx))).
  - rewrite <- !Rmult_plus_distr_l. apply Rmult_le_compat_l; lra.
  - apply Rle_trans with (8 * (dt * dt * (ix + iy + iz)) * (sx + sy + sz)); [| rewrite D; lra].
    assert (X : iy * sz + iz * sy + (iz * sx + ix * sz) + (ix * sy + iy * sx) <= (ix + iy + iz) * (sx + sy + sz)).
    { assert (0 <= ix * sx) by (apply Rmult_le_pos; assumption). assert (0 <= iy * sy) by (apply Rmult_le_pos; assumption). assert (0 <= iz * sz) by (apply Rmult_le_pos; assumption). lra. }
    apply (Rmult_le_compat_l (8 * (dt * dt))) in X; lra.
Qed.
End Norms.
