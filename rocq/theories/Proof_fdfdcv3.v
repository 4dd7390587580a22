(** Proofs for C168 (3): TM simulations. *)
From Coq Require Import Reals Lra Lia Arith FunctionalExtensionality.
From Verif Require Import Cx Arr Model_coupling Model_yee Spec_yee Proof_yee Proof_yee2 Model_fdfd Spec_fdfd Proof_fdfd Proof_fdfd2 Model_fdtd Spec_fdtd Proof_energy Proof_adj Proof_absorb
  Model_fdfdc Spec_fdfdc Proof_fdfdc Proof_fdfdc2 Proof_fdfdc3 Proof_fdfdsy Spec_fdfdst Proof_fdfdst Spec_fdfdad Proof_fdfdad Spec_conv Proof_conv Proof_conv2 Proof_conv3 Proof_conv4 Spec_fdfdcv Proof_fdfdcv Proof_fdfdcv2 Spec_fdfdtm Proof_fdfdtm Spec_fdfdcv2.
Local Open Scope R_scope.
Section TM.
Variables (g : fgrid) (k0 : R) (eps : fld) (M Dx : R).
Let s := g_shape g.
Let d := fdfd_on g k0 eps.
(** Differences at a neighbouring cell. *)
Lemma shift_x : forall (f : fld) i j k, in_grid s i j k -> dplus d f AX i j k = diff_fn s (g_dx g) true f AX (succ_p (s AX) i) j k.
Proof.
  intros f i j k (Hi & Hj & Hk). rewrite (dplus_fn d eq_refl) by (repeat split; auto). cbn [d fdfd_on cf_shape cf_dxf]. fold s.
  assert (Hg : in_grid s (succ_p (s AX) i) j k) by (repeat split; auto; apply succ_lt; auto).
  rewrite diff_fwd by (repeat split; auto). rewrite diff_bwd by exact Hg. unfold fwd, bwd, at_coord, coord. rewrite pred_succ by auto. reflexivity.
Qed.
Lemma shift_y : forall (f : fld) i j k, in_grid s i j k -> dplus d f AY i j k = diff_fn s (g_dx g) true f AY i (succ_p (s AY) j) k.
Proof.
  intros f i j k (Hi & Hj & Hk). rewrite (dplus_fn d eq_refl) by (repeat split; auto). cbn [d fdfd_on cf_shape cf_dxf]. fold s.
  assert (Hg : in_grid s i (succ_p (s AY) j) k) by (repeat split; auto; apply succ_lt; auto).
  rewrite diff_fwd by (repeat split; auto). rewrite diff_bwd by exact Hg. unfold fwd, bwd, at_coord, coord. rewrite pred_succ by auto. reflexivity.
Qed.
Lemma succ_pred : forall n m, (m < n)%nat -> succ_p n (pred_p n m) = m.
Proof. intros n m H. unfold succ_p, pred_p. destruct m as [| m]; [destruct (Nat.eqb_spec (n - 1 + 1) n); lia | destruct (Nat.eqb_spec (m + 1) n); lia]. Qed.
Lemma back_x : forall (f : fld) i j k, in_grid s i j k -> dminus d (fun i j k => f (succ_p (s AX) i) j k) AX i j k = diff_fn s (g_dx g) false f AX i j k.
Proof.
  intros f i j k (Hi & Hj & Hk). rewrite (dminus_fn d eq_refl) by (repeat split; auto). cbn [d fdfd_on cf_shape cf_dxb]. fold s.
  rewrite diff_fwd by (repeat split; auto). rewrite diff_bwd by (repeat split; auto). unfold fwd, bwd, at_coord, coord. rewrite succ_pred by auto. reflexivity.
Qed.
Lemma back_y : forall (f : fld) i j k, in_grid s i j k -> dminus d (fun i j k => f i (succ_p (s AY) j) k) AY i j k = diff_fn s (g_dx g) false f AY i j k.
Proof.
  intros f i j k (Hi & Hj & Hk). rewrite (dminus_fn d eq_refl) by (repeat split; auto). cbn [d fdfd_on cf_shape cf_dxb]. fold s.
  rewrite diff_fwd by (repeat split; auto). rewrite diff_bwd by (repeat split; auto). unfold fwd, bwd, at_coord, coord. rewrite succ_pred by auto. reflexivity.
Qed.
Hypothesis Hz : s AZ = 1%nat.
Lemma flat_z : forall (f : fld) i j k, in_grid s i j k -> diff_fn s (g_dx g) true f AZ i j k = C0.
Proof.
  intros f i j k (Hi & Hj & Hk). rewrite diff_bwd by (repeat split; auto). unfold bwd, at_coord, coord. rewrite Hz in *. assert (k = 0)%nat by lia. subst k.
  cbn [pred_p Nat.sub]. unfold Cdiv. ring.
Qed.
Lemma eps_at_step : forall dl i j k, varies g eps dl -> in_grid s i j k ->
  Cabs (eps_at s eps AY i j k - eps_at s eps AY (succ_p (s AX) i) j k)%C <= dl /\ Cabs (eps_at s eps AX i j k - eps_at s eps AX i (succ_p (s AY) j) k)%C <= dl.
Proof.
  intros dl i j k V (Hi & Hj & Hk).
  assert (Hh : forall a b : C, Cabs a <= dl -> Cabs b <= dl -> forall z, z = (RtoC (-1 / 2) * (a + b))%C -> Cabs z <= dl).
  { intros a b A B z ->. rewrite Cabs_mul. assert (M1 : Cabs (RtoC (-1 / 2)) = 1 / 2). { unfold Cabs, Cn2. cbn [re im RtoC]. replace (-1 / 2 * (-1 / 2) + 0 * 0) with (1 / 2 * (1 / 2)) by field. apply sqrt_square; lra. }
    rewrite M1. pose proof (Cabs_add a b). lra. }
  unfold eps_at. rewrite !pred_succ by auto. split.
  - pose proof (pred_bound (s AX) i Hi) as Pi. destruct (V i j k ltac:(repeat split; auto)) as (A & _). destruct (V (pred_p (s AX) i) j k ltac:(repeat split; auto)) as (B & _).
    fold s in A, B. rewrite succ_pred in B by auto. apply (Hh _ _ A B). apply C_eq; unfold Cdiv, Cinv, Cn2; cbn [re im RtoC Cmul Cadd Csub]; field.
  - pose proof (pred_bound (s AY) j Hj) as Pj. destruct (V i j k ltac:(repeat split; auto)) as (_ & A). destruct (V i (pred_p (s AY) j) k ltac:(repeat split; auto)) as (_ & B).
    fold s in A, B. rewrite succ_pred in B by auto. apply (Hh _ _ A B). apply C_eq; unfold Cdiv, Cinv, Cn2; cbn [re im RtoC Cmul Cadd Csub]; field.
Qed.
Hypothesis W : wf_grid g.
Hypothesis Hk : 0 < k0.
Hypothesis HM : 0 <= M.
Hypothesis HD : forall a, is_active g a = true -> g_spacing g a <= Dx.
Variables (E H : axis -> phasor) (DE DH : axis -> axis -> phasor) (K : phasor).
Hypothesis FE : phasor_fits g E.
Hypothesis FH : phasor_fits g H.
Hypothesis dE : phasor_derivatives M E DE.
Hypothesis dH : phasor_derivatives M H DH.
Hypothesis HX : harmonic_tm g k0 eps DE DH E H K.
Let tau := M * Dx ^ 2 / 12.
Let t := sqrt 2 * tau.
Lemma tau_nonneg : 0 <= tau.
Proof. unfold tau. assert (0 <= Dx ^ 2) by (rewrite <- Rsqr_pow2; apply Rle_0_sqr). assert (0 <= M * Dx ^ 2) by (apply Rmult_le_pos; auto). lra. Qed.
Lemma small : forall z, Cn2 z <= 2 * (tau * tau) -> Cabs z <= t.
Proof.
  intros z Q. apply sq_le_le; [unfold t; apply Rmult_le_pos; [apply sqrt_pos | apply tau_nonneg] |]. rewrite Cabs_sq. unfold t.
  replace (sqrt 2 * tau * (sqrt 2 * tau)) with (sqrt 2 * sqrt 2 * (tau * tau)) by ring. rewrite sqrt_sqrt by lra. exact Q.
Qed.
Let h0 : fld := at_h g H AZ.
Let EY : fld := at_e g E AY.
Let EX : fld := at_e g E AX.
Let P : vfld := fun c i j k => match c with
  | AY => (Ci * RtoC k0 * EY (succ_p (s AX) i) j k)%C
  | AX => (- (Ci * RtoC k0) * EX i (succ_p (s AY) j) k)%C
  | AZ => C0 end.
Lemma slope_y : forall i j k, in_grid s i j k -> Cabs (dplus d h0 AX i j k - eps_at s eps AY (succ_p (s AX) i) j k * P AY i j k)%C <= t.
Proof.
  intros i j k Hg. pose proof Hg as (Hi & Hj & Hkk). rewrite shift_x by exact Hg. set (i' := succ_p (s AX) i). assert (Hg' : in_grid s i' j k) by (repeat split; auto; apply succ_lt; auto).
  pose proof (trunc_h g M Dx W HM HD H DH FH dH AY i' j k Hg') as Q. fold tau in Q.
  destruct (HX i' j k Hg') as (_ & X). rewrite (X AY ltac:(discriminate)) in Q.
  assert (C1' : curl_fn (diff_fn (g_shape g) (g_dx g) true) (at_h g H) AY i' j k = (- diff_fn s (g_dx g) true h0 AX i' j k)%C).
  { unfold curl_fn. fold s. rewrite (flat_z _ i' j k Hg'). fold h0. ring. }
  rewrite C1' in Q. apply small. eapply Rle_trans; [| exact Q]. right. unfold P. fold i'. unfold EY, at_e. fold s. unfold Cn2. cbn [re im Cadd Csub Copp Cmul Ci RtoC]. ring.
Qed.
Lemma slope_x : forall i j k, in_grid s i j k -> Cabs (dplus d h0 AY i j k - eps_at s eps AX i (succ_p (s AY) j) k * P AX i j k)%C <= t.
Proof.
  intros i j k Hg. pose proof Hg as (Hi & Hj & Hkk). rewrite shift_y by exact Hg. set (j' := succ_p (s AY) j). assert (Hg' : in_grid s i j' k) by (repeat split; auto; apply succ_lt; auto).
  pose proof (trunc_h g M Dx W HM HD H DH FH dH AX i j' k Hg') as Q. fold tau in Q.
  destruct (HX i j' k Hg') as (_ & X). rewrite (X AX ltac:(discriminate)) in Q.
  assert (C1' : curl_fn (diff_fn (g_shape g) (g_dx g) true) (at_h g H) AX i j' k = (diff_fn s (g_dx g) true h0 AY i j' k)%C).
  { unfold curl_fn. fold s. rewrite (flat_z _ i j' k Hg'). fold h0. ring. }
  rewrite C1' in Q. apply small. eapply Rle_trans; [| exact Q]. right. unfold P. fold j'. unfold EX, at_e. fold s. unfold Cn2. cbn [re im Cadd Csub Copp Cmul Ci RtoC]. ring.
Qed.
Lemma div_P : forall i j k, in_grid s i j k -> exists r, Cabs r <= t /\
  (- dminus d (P AY) AX i j k - dminus d (P AX) AY i j k)%C = (RtoC (k0 * k0) * h0 i j k + RtoC k0 * (K (h_place g AZ i j k) + r))%C.
Proof.
  intros i j k Hg. pose proof (trunc_e g M Dx W HM HD E DE FE dE AZ i j k Hg) as Q. fold tau in Q. destruct (HX i j k Hg) as (X & _).
  set (z := (curl_fn (diff_fn (g_shape g) (g_dx g) false) (at_e g E) AZ i j k - curl_at DE AZ (h_place g AZ i j k))%C) in *.
  exists (- (Ci * z))%C. split.
  - apply small. eapply Rle_trans; [| exact Q]. right. unfold Cn2. cbn [re im Copp Cmul Ci]. ring.
  - change (P AY) with (fun i j k => (Ci * RtoC k0 * EY (succ_p (s AX) i) j k)%C). change (P AX) with (fun i j k => (- (Ci * RtoC k0) * EX i (succ_p (s AY) j) k)%C).
    rewrite (back_x (fun i j k => (Ci * RtoC k0 * EY i j k)%C) i j k Hg), (back_y (fun i j k => (- (Ci * RtoC k0) * EX i j k)%C) i j k Hg).
    rewrite !diff_scal. unfold z. unfold curl_fn. fold s EX EY. rewrite X. change (H AZ (h_place g AZ i j k)) with (h0 i j k).
    apply C_eq; cbn [re im Cadd Csub Copp Cmul Ci RtoC]; ring.
Qed.
Variables (f src : fld) (sigma kappa dl emax : R).
Hypothesis HL : lossy d sigma.
Hypothesis HK : sloped d kappa.
Hypothesis HV : varies g eps dl.
Hypothesis Hdl : 0 <= dl.
Hypothesis HE : forall c i j k, in_grid s i j k -> Cabs (at_e g E c i j k) <= emax.
Hypothesis Hem : 0 <= emax.
Hypothesis Hsrc : forall i j k, in_grid s i j k -> src i j k = K (h_place g AZ i j k).
Hypothesis HW : wave_tm d src f.
Let x := fsub f h0.
Let p := vsub (flux d f) P.
Let q : vfld := fun c i j k => match c with
  | AY => (dplus d x AX i j k - eps_at s eps AY i j k * p AY i j k)%C
  | AX => (dplus d x AY i j k - eps_at s eps AX i j k * p AX i j k)%C
  | AZ => C0 end.
Let B := dl * (k0 * emax) + t.
Let S : fld := fun i j k => (src i j k - (- dminus d (P AY) AX i j k - dminus d (P AX) AY i j k - RtoC (k0 * k0) * h0 i j k) / RtoC k0)%C.
Lemma Ck0 : forall z, Cabs (Ci * RtoC k0 * z)%C = k0 * Cabs z /\ Cabs (- (Ci * RtoC k0) * z)%C = k0 * Cabs z.
Proof.
  intros z. assert (Q : Cn2 (Ci * RtoC k0 * z)%C = k0 * k0 * Cn2 z /\ Cn2 (- (Ci * RtoC k0) * z)%C = k0 * k0 * Cn2 z) by (split; unfold Cn2; cbn [re im Cmul Ci RtoC Copp]; ring).
  unfold Cabs. destruct Q as [-> ->]. rewrite sqrt_mult_alt by nra. rewrite sqrt_square by lra. auto.
Qed.
Lemma q_bound : forall c i j k, in_grid s i j k -> Cabs (q c i j k) <= match c with AZ => 0 | _ => B end.
Proof.
  intros c i j k Hg. pose proof (eps_nz d sigma HL) as N. change (cf_shape d) with s in N. change (cf_eps d) with eps in N. destruct (eps_at_step dl i j k HV Hg) as (V1 & V2).
  assert (Hs1 : in_grid s (succ_p (s AX) i) j k) by (destruct Hg as (? & ? & ?); repeat split; auto; apply succ_lt; auto).
  assert (Hs2 : in_grid s i (succ_p (s AY) j) k) by (destruct Hg as (? & ? & ?); repeat split; auto; apply succ_lt; auto).
  assert (bnd : forall e e' y z r : C, Cabs (e - e')%C <= dl -> Cabs y <= k0 * emax -> Cabs (r - e' * y)%C <= t -> z = ((e - e') * y + RtoC (-1) * (r - e' * y))%C -> Cabs z <= B).
  { intros e e' y z r A1 A2 A3 ->. eapply Rle_trans; [apply Cabs_add |]. rewrite !Cabs_mul. assert (M1 : Cabs (RtoC (-1)) = 1). { unfold Cabs, Cn2. cbn [re im RtoC]. replace (-1 * -1 + 0 * 0) with (1 * 1) by ring. apply sqrt_square; lra. }
    rewrite M1. unfold B. apply Rplus_le_compat; [apply Rmult_le_compat; auto; apply Cabs_nonneg | lra]. }
  destruct c.
  - apply (bnd (eps_at s eps AX i j k) (eps_at s eps AX i (succ_p (s AY) j) k) (P AX i j k) _ (dplus d h0 AY i j k)); [exact V2 | | apply slope_x; exact Hg |].
    + unfold P. rewrite (proj2 (Ck0 _)). apply Rmult_le_compat_l; [lra |]. apply HE. exact Hs2.
    + unfold q, x, p, vsub. rewrite dplus_sub. unfold fsub at 1, flux. change (cf_shape d) with s. change (cf_eps d) with eps. specialize (N AX i j k Hg). set (ee := eps_at s eps AX i j k) in *. change (RtoC (-1)) with (-C1)%C || replace (RtoC (-1)) with (- C1)%C by (apply C_eq; cbn; ring). field. exact N.
  - apply (bnd (eps_at s eps AY i j k) (eps_at s eps AY (succ_p (s AX) i) j k) (P AY i j k) _ (dplus d h0 AX i j k)); [exact V1 | | apply slope_y; exact Hg |].
    + unfold P. rewrite (proj1 (Ck0 _)). apply Rmult_le_compat_l; [lra |]. apply HE. exact Hs1.
    + unfold q, x, p, vsub. rewrite dplus_sub. unfold fsub at 1, flux. change (cf_shape d) with s. change (cf_eps d) with eps. specialize (N AY i j k Hg). set (ee := eps_at s eps AY i j k) in *. replace (RtoC (-1)) with (- C1)%C by (apply C_eq; cbn; ring). field. exact N.
  - unfold q. rewrite Cabs_C0. lra.
Qed.
Lemma S_bound : forall i j k, in_grid s i j k -> Cabs (S i j k) <= t.
Proof.
  intros i j k Hg. destruct (div_P i j k Hg) as (r & R1 & R2). unfold S. rewrite R2, Hsrc by exact Hg.
  match goal with |- Cabs ?z <= _ => replace z with (RtoC (-1) * r)%C end.
  - rewrite Cabs_mul. assert (M1 : Cabs (RtoC (-1)) = 1). { unfold Cabs, Cn2. cbn [re im RtoC]. replace (-1 * -1 + 0 * 0) with (1 * 1) by ring. apply sqrt_square; lra. } rewrite M1. lra.
  - replace (RtoC (-1)) with (- C1)%C by (apply C_eq; cbn; ring). field. intro Z. apply (f_equal re) in Z. cbn in Z. lra.
Qed.
Lemma p_wave : forall i j k, in_grid s i j k -> (- dminus d (p AY) AX i j k - dminus d (p AX) AY i j k)%C = (RtoC (cf_k0 d * cf_k0 d) * x i j k + RtoC (cf_k0 d) * S i j k)%C.
Proof.
  intros i j k Hg. specialize (HW i j k Hg). change (cf_k0 d) with k0 in *. unfold p, vsub. rewrite !dminus_sub.
  match goal with |- (- (?a - ?b) - (?c - ?e))%C = _ => transitivity ((- a - c) - (- b - e))%C; [ring |] end.
  match type of HW with ?l = _ => match goal with |- (?l' - ?m)%C = _ => change l' with l end end. rewrite HW. unfold S, x, fsub.
  field. intro Z. apply (f_equal re) in Z. cbn in Z. lra.
Qed.
Let cells := INR (s AX * s AY * s AZ).
Let c := sqrt (1 + kappa * kappa).
Lemma cells_pos : 0 < cells.
Proof. unfold cells. destruct W as (_ & Q & _). apply lt_0_INR. apply Nat.mul_pos_pos; [apply Nat.mul_pos_pos |]; apply Q. Qed.
Lemma B_nonneg : 0 <= B.
Proof. unfold B, t. pose proof (Rmult_le_pos _ _ (sqrt_pos 2) tau_nonneg). assert (0 <= dl * (k0 * emax)) by (apply Rmult_le_pos; [auto | apply Rmult_le_pos; lra]). lra. Qed.
Lemma Cabs_Cn2 : forall z y, Cabs z <= y -> Cn2 z <= y * y.
Proof. intros z y Q. rewrite <- Cabs_sq. apply Rmult_le_compat; auto; apply Cabs_nonneg. Qed.
Lemma power_const : forall (v : fld) y, (forall i j k, in_grid s i j k -> Cabs (v i j k) <= y) -> power2 s v <= cells * (y * y).
Proof. intros v y Q. unfold cells. rewrite <- rgrid_sum_const. apply rgrid_sum_le. intros. apply Cabs_Cn2, Q. assumption. Qed.
Lemma tm_energy : k0 * norm2 s x <= sqrt c * (sqrt (2 * cells) * B / sqrt sigma) + c * (sqrt cells * t).
Proof.
  pose proof HL as (Hs & _). destruct (lossy_good d (width g) sigma kappa eq_refl eq_refl Hk HL HK) as (gg & Hg & H1 & H2).
  pose proof (inner_flux d (width g) x p S eq_refl eq_refl p_wave) as EQ. change (cf_shape d) with s in EQ, H1, H2.
  assert (Q : vinner s p (fun c i j k => eps_at s (cf_eps d) c i j k * p c i j k + C1 * q c i j k)%C = (RtoC (cf_k0 d * cf_k0 d) * RtoC (power2 s x) + RtoC (cf_k0 d) * inner s S x)%C).
  { rewrite <- EQ. rewrite vinner_z0 by (intros; unfold p, vsub, fsub, flux, P; ring).
    f_equal; apply inner_ext'; try (intros i j k _; reflexivity); intros i j k Hin; unfold q; change (cf_eps d) with eps; ring. }
  destruct (key s (cf_k0 d) sigma kappa 1 gg (eps_at s (cf_eps d)) (fun _ _ _ _ => C1) p q S x Hg Hk ltac:(lra) H1 H2) as (K1 & K2).
  { intros. unfold Cabs, Cn2. cbn [re im C1]. replace (1 * 1 + 0 * 0) with (1 * 1) by ring. rewrite sqrt_square; lra. }
  { exact Q. }
  rewrite !Rmult_1_l in K1, K2. change (cf_k0 d) with k0 in K1, K2. fold c in K1.
  destruct (two_quadratics c sigma (vnorm2 s q) (vnorm2 s p) (norm2 s S) (k0 * norm2 s x) Hs (sqrt_pos _) (sqrt_pos _) (sqrt_pos _) (sqrt_pos _) ltac:(apply Rmult_le_pos; [lra | apply sqrt_pos]) K1 K2) as (A & _).
  eapply Rle_trans; [exact A |]. pose proof cells_pos as Cp. pose proof B_nonneg as Bp.
  assert (T0 : 0 <= t) by (unfold t; apply Rmult_le_pos; [apply sqrt_pos | apply tau_nonneg]).
  apply Rplus_le_compat.
  - apply Rmult_le_compat_l; [apply sqrt_pos |]. apply Rmult_le_compat_r; [left; apply Rinv_0_lt_compat, sqrt_lt_R0; exact Hs |].
    unfold vnorm2. rewrite <- (sqrt_square B Bp). rewrite <- sqrt_mult_alt by lra. apply sqrt_le_1_alt. unfold vpower2, sum3.
    pose proof (power_const (q AX) B (fun i j k Hin => q_bound AX i j k Hin)). pose proof (power_const (q AY) B (fun i j k Hin => q_bound AY i j k Hin)).
    pose proof (power_const (q AZ) 0 (fun i j k Hin => q_bound AZ i j k Hin)). lra.
  - apply Rmult_le_compat_l; [apply sqrt_pos |]. unfold norm2. rewrite <- (sqrt_square t T0). rewrite <- sqrt_mult_alt by lra. apply sqrt_le_1_alt. apply power_const. apply S_bound.
Qed.
Lemma tm_bound : rms_diff s f h0 <= (sqrt (c / sigma) + c) / (6 * k0) * (M * Dx ^ 2) + 2 * sqrt (c / sigma) * dl * emax.
Proof.
  pose proof tm_energy as A. pose proof HL as (Hs & _). pose proof cells_pos as Cp. pose proof tau_nonneg as Tp.
  assert (E1 : rms_diff s f h0 = norm2 s x / sqrt cells) by (unfold rms_diff, norm2; rewrite sqrt_div_alt by exact Cp; reflexivity).
  pose proof (sqrt_lt_R0 cells Cp) as Cs. set (n := sqrt cells) in *. set (r := sqrt 2) in *.
  assert (R0 : 0 <= r) by apply sqrt_pos. assert (R2 : r * r = 2) by (apply sqrt_sqrt; lra). assert (R1 : r <= 2) by (apply sq_le_le; lra).
  assert (E2 : sqrt (2 * cells) = r * n) by (apply sqrt_mult_alt; lra). rewrite E2 in A.
  assert (Pc : 0 <= c) by apply sqrt_pos.
  assert (E3 : sqrt (c / sigma) = sqrt c / sqrt sigma) by (apply sqrt_div_alt; exact Hs).
  pose proof (sqrt_lt_R0 sigma Hs) as Ss. assert (Y0 : 0 <= sqrt (c / sigma)) by apply sqrt_pos. 
  assert (A2 : norm2 s x / n <= (sqrt (c / sigma) * (r * B) + c * t) / k0).
  { apply (Rmult_le_reg_l (k0 * n)); [apply Rmult_lt_0_compat; auto |].
    replace (k0 * n * (norm2 s x / n)) with (k0 * norm2 s x) by (field; lra).
    replace (k0 * n * ((sqrt (c / sigma) * (r * B) + c * t) / k0)) with (sqrt c * (r * n * B / sqrt sigma) + c * (n * t)) by (rewrite E3; field; lra). exact A. }
  rewrite E1. eapply Rle_trans; [exact A2 |]. set (y := sqrt (c / sigma)) in *.
  replace ((y * (r * B) + c * t) / k0) with (y * (2 * tau) / k0 + c * (r * tau) / k0 + y * r * dl * emax).
  2:{ unfold B, t. fold r. transitivity ((y * (r * (dl * (k0 * emax)) + (r * r) * tau) + c * (r * tau)) / k0); [rewrite R2; field; lra | field; lra]. }
  replace ((y + c) / (6 * k0) * (M * Dx ^ 2)) with (y * (2 * tau) / k0 + c * (2 * tau) / k0) by (unfold tau; field; lra).
  apply Rplus_le_compat; [apply Rplus_le_compat_l |].
  - unfold Rdiv. apply Rmult_le_compat_r; [left; apply Rinv_0_lt_compat; lra |]. apply Rmult_le_compat_l; [exact Pc |]. apply Rmult_le_compat_r; auto.
  - apply Rmult_le_compat_r; [exact Hem |]. apply Rmult_le_compat_r; [exact Hdl |]. rewrite (Rmult_comm 2). apply Rmult_le_compat_l; auto.
Qed.
(** ** The electric field. *)
Variable amax : R.
Hypothesis HA : forall i j k, in_grid s i j k -> Cabs (eps i j k) <= amax.
Let N := norm2 s.
Lemma power2_succ : forall a (F : fld), power2 s (fun i j k => match a with AX => F (succ_p (s AX) i) j k | AY => F i (succ_p (s AY) j) k | AZ => F i j (succ_p (s AZ) k) end) = power2 s F.
Proof.
  intros a F. unfold power2. pose proof (f_equal re (grid_sum_succ s a (fun i j k => RtoC (Cn2 (F i j k))))) as Q. rewrite !re_grid_sum in Q.
  rewrite (rgrid_sum_ext s (fun i j k => re (RtoC (Cn2 (F i j k)))) (fun i j k => Cn2 (F i j k))) in Q by (intros; reflexivity). rewrite Q.
  apply rgrid_sum_ext. intros i j k _. destruct a; reflexivity.
Qed.
Lemma eps_at_abs : forall c i j k, c <> AZ -> in_grid s i j k -> Cabs (eps_at s eps c i j k) <= amax.
Proof.
  intros c' i j k Hc (Hi & Hj & Hkk).
  assert (Hh : forall a b : C, Cabs a <= amax -> Cabs b <= amax -> Cabs ((a + b) / RtoC 2)%C <= amax).
  { intros a b A1 B1. replace ((a + b) / RtoC 2)%C with (RtoC (1 / 2) * (a + b))%C by (apply C_eq; unfold Cdiv, Cinv, Cn2; cbn [re im RtoC Cmul Cadd]; field).
    rewrite Cabs_mul, Cabs_RtoC by lra. pose proof (Cabs_add a b). lra. }
  unfold eps_at. destruct c'; [| | congruence]; apply Hh; apply HA; repeat split; auto; apply pred_bound; auto.
Qed.
Lemma eps_at_low : forall c i j k, in_grid s i j k -> sigma <= Cabs (eps_at s eps c i j k).
Proof.
  intros c' i j k Hg. pose proof HL as (Hs & _). destruct (lossy_good d (width g) sigma kappa eq_refl eq_refl Hk HL HK) as (gg & Hgg & H1 & _).
  specialize (H1 c' i j k Hg). change (cf_shape d) with s in H1. change (cf_eps d) with eps in H1. set (z := eps_at s eps c' i j k) in *.
  apply sq_le_le; [apply Cabs_nonneg |]. rewrite Cabs_sq. unfold Cn2. pose proof (Rle_0_sqr (re z)) as Q. unfold Rsqr in Q. assert (Q3 : sigma * sigma <= im z * im z) by (pose proof (Rmult_le_compat sigma _ sigma _ (Rlt_le _ _ Hs) (Rlt_le _ _ Hs) H1 H1) as Q3; destruct Hgg as [-> | ->]; lra). lra.
Qed.
Lemma tm_parts : sqrt sigma * vnorm2 s p <= vnorm2 s q / sqrt sigma + sqrt c * norm2 s S /\ vnorm2 s q <= sqrt (2 * cells) * B /\ norm2 s S <= sqrt cells * t.
Proof.
  pose proof HL as (Hs & _). destruct (lossy_good d (width g) sigma kappa eq_refl eq_refl Hk HL HK) as (gg & Hg & H1 & H2).
  pose proof (inner_flux d (width g) x p S eq_refl eq_refl p_wave) as EQ. change (cf_shape d) with s in EQ, H1, H2.
  assert (Q : vinner s p (fun c i j k => eps_at s (cf_eps d) c i j k * p c i j k + C1 * q c i j k)%C = (RtoC (cf_k0 d * cf_k0 d) * RtoC (power2 s x) + RtoC (cf_k0 d) * inner s S x)%C).
  { rewrite <- EQ. rewrite vinner_z0 by (intros; unfold p, vsub, fsub, flux, P; ring).
    f_equal; apply inner_ext'; try (intros i j k _; reflexivity); intros i j k Hin; unfold q; change (cf_eps d) with eps; ring. }
  destruct (key s (cf_k0 d) sigma kappa 1 gg (eps_at s (cf_eps d)) (fun _ _ _ _ => C1) p q S x Hg Hk ltac:(lra) H1 H2) as (K1 & K2).
  { intros. unfold Cabs, Cn2. cbn [re im C1]. replace (1 * 1 + 0 * 0) with (1 * 1) by ring. rewrite sqrt_square; lra. }
  { exact Q. }
  rewrite !Rmult_1_l in K1, K2. change (cf_k0 d) with k0 in K1, K2. fold c in K1.
  destruct (two_quadratics c sigma (vnorm2 s q) (vnorm2 s p) (norm2 s S) (k0 * norm2 s x) Hs (sqrt_pos _) (sqrt_pos _) (sqrt_pos _) (sqrt_pos _) ltac:(apply Rmult_le_pos; [lra | apply sqrt_pos]) K1 K2) as (_ & A).
  pose proof cells_pos as Cp. pose proof B_nonneg as Bp.
  assert (T0 : 0 <= t) by (unfold t; apply Rmult_le_pos; [apply sqrt_pos | apply tau_nonneg]).
  split; [exact A |]. split.
  - unfold vnorm2. rewrite <- (sqrt_square B Bp). rewrite <- sqrt_mult_alt by lra. apply sqrt_le_1_alt. unfold vpower2, sum3.
    pose proof (power_const (q AX) B (fun i j k Hin => q_bound AX i j k Hin)). pose proof (power_const (q AY) B (fun i j k Hin => q_bound AY i j k Hin)).
    pose proof (power_const (q AZ) 0 (fun i j k Hin => q_bound AZ i j k Hin)). lra.
  - unfold norm2. rewrite <- (sqrt_square t T0). rewrite <- sqrt_mult_alt by lra. apply sqrt_le_1_alt. apply power_const. apply S_bound.
Qed.
(** The slopes of the error, forward and backward. *)
Let Fw : vfld := fun c => match c with AX => dplus d x AY | AY => dplus d x AX | AZ => fun _ _ _ => C0 end.
Let Bw : vfld := fun c => match c with AX => diff_fn s (g_dx g) true x AY | AY => diff_fn s (g_dx g) true x AX | AZ => fun _ _ _ => C0 end.
Lemma slopes_same : vnorm2 s Bw = vnorm2 s Fw.
Proof.
  unfold vnorm2, vpower2, sum3, Bw, Fw. f_equal.
  assert (A1 : power2 s (dplus d x AX) = power2 s (diff_fn s (g_dx g) true x AX)).
  { rewrite <- (power2_succ AX (diff_fn s (g_dx g) true x AX)). apply rgrid_sum_ext. intros i j k Hg. rewrite shift_x by exact Hg. reflexivity. }
  assert (A2 : power2 s (dplus d x AY) = power2 s (diff_fn s (g_dx g) true x AY)).
  { rewrite <- (power2_succ AY (diff_fn s (g_dx g) true x AY)). apply rgrid_sum_ext. intros i j k Hg. rewrite shift_y by exact Hg. reflexivity. }
  rewrite A1, A2. reflexivity.
Qed.
Lemma slopes_bound : 0 <= amax -> vnorm2 s Fw <= amax * vnorm2 s p + vnorm2 s q.
Proof.
  intro Ha. set (ep := fun c i j k => (match c with AZ => C0 | _ => eps_at s eps c i j k * p c i j k end)%C).
  assert (A : vnorm2 s Fw <= vnorm2 s ep + vnorm2 s q).
  { apply vnorm2_tri. intros c' i j k Hg. unfold Fw, ep, q. destruct c'; ring. }
  assert (A2 : vnorm2 s ep <= amax * vnorm2 s p).
  { apply vnorm2_mul; [exact Ha |]. intros c' i j k Hg. unfold ep. assert (Q : forall c', c' <> AZ -> Cn2 (eps_at s eps c' i j k * p c' i j k)%C <= amax * amax * Cn2 (p c' i j k)).
    { intros c0 Hc. rewrite <- !Cabs_sq, Cabs_mul. pose proof (eps_at_abs c0 i j k Hc Hg) as L. pose proof (Cabs_nonneg (eps_at s eps c0 i j k)). pose proof (Cabs_nonneg (p c0 i j k)).
      replace (amax * amax * (Cabs (p c0 i j k) * Cabs (p c0 i j k))) with (amax * Cabs (p c0 i j k) * (amax * Cabs (p c0 i j k))) by ring.
      apply Rmult_le_compat; try (apply Rmult_le_pos; auto); apply Rmult_le_compat_r; auto. }
    destruct c'; [apply Q; discriminate | apply Q; discriminate |]. rewrite Cn2_C0. apply Rmult_le_pos; [nra | apply Cn2_nonneg]. }
  lra.
Qed.
(** The field returned is the opposite of the electric field. *)
Variable e : vfld.
Hypothesis He1 : forall i j k, in_grid s i j k -> e AX i j k = (diff_fn s (g_dx g) true f AY i j k / (Ci * RtoC k0 * eps_at s eps AX i j k))%C.
Hypothesis He2 : forall i j k, in_grid s i j k -> e AY i j k = (- diff_fn s (g_dx g) true f AX i j k / (Ci * RtoC k0 * eps_at s eps AY i j k))%C.
Let y : vfld := fun c i j k => match c with AZ => C0 | _ => (- e c i j k - at_e g E c i j k)%C end.
Let rho : vfld := fun c i j k => match c with
  | AX => (diff_fn s (g_dx g) true h0 AY i j k + Ci * RtoC k0 * eps_at s eps AX i j k * EX i j k)%C
  | AY => (diff_fn s (g_dx g) true h0 AX i j k - Ci * RtoC k0 * eps_at s eps AY i j k * EY i j k)%C
  | AZ => C0 end.
Lemma rho_bound : forall c i j k, in_grid s i j k -> Cabs (rho c i j k) <= match c with AZ => 0 | _ => t end.
Proof.
  intros c' i j k Hg. destruct (HX i j k Hg) as (_ & X). destruct c'.
  - pose proof (trunc_h g M Dx W HM HD H DH FH dH AX i j k Hg) as Q. fold tau in Q. rewrite (X AX ltac:(discriminate)) in Q.
    unfold curl_fn in Q. fold s in Q. rewrite (flat_z _ i j k Hg) in Q. fold h0 in Q. apply small. eapply Rle_trans; [| exact Q]. right. unfold rho, EX, at_e. unfold Cn2. cbn [re im Cadd Csub Copp Cmul Ci RtoC C0]. ring.
  - pose proof (trunc_h g M Dx W HM HD H DH FH dH AY i j k Hg) as Q. fold tau in Q. rewrite (X AY ltac:(discriminate)) in Q.
    unfold curl_fn in Q. fold s in Q. rewrite (flat_z _ i j k Hg) in Q. fold h0 in Q. apply small. eapply Rle_trans; [| exact Q]. right. unfold rho, EY, at_e. unfold Cn2. cbn [re im Cadd Csub Copp Cmul Ci RtoC C0]. ring.
  - unfold rho. rewrite Cabs_C0. lra.
Qed.
Lemma diff_x : forall a i j k, diff_fn s (g_dx g) true f a i j k = (diff_fn s (g_dx g) true x a i j k + diff_fn s (g_dx g) true h0 a i j k)%C.
Proof. intros a i j k. unfold x, fsub. rewrite (diff_sub s (g_dx g) true f h0). ring. Qed.
Lemma k0C : RtoC k0 <> C0.
Proof. intro Z. apply (f_equal re) in Z. cbn in Z. lra. Qed.
Lemma y_form : forall c i j k, in_grid s i j k -> Cn2 (y c i j k) <= (/ (k0 * sigma)) * (/ (k0 * sigma)) * Cn2 (Bw c i j k + rho c i j k)%C.
Proof.
  intros c' i j k Hg. pose proof HL as (Hs & _). pose proof (eps_nz d sigma HL) as NZ. change (cf_shape d) with s in NZ. change (cf_eps d) with eps in NZ.
  assert (G : forall c0 (z w : C) , w = (Ci * RtoC k0 * eps_at s eps c0 i j k * z)%C \/ w = (- (Ci * RtoC k0 * eps_at s eps c0 i j k * z))%C -> Cn2 z <= (/ (k0 * sigma)) * (/ (k0 * sigma)) * Cn2 w).
  { intros c0 z w Hw. pose proof (eps_at_low c0 i j k Hg) as L. set (ee := eps_at s eps c0 i j k) in *.
    assert (Q : Cn2 w = k0 * k0 * (Cabs ee * Cabs ee) * Cn2 z) by (rewrite (Cabs_sq ee); destruct Hw as [-> | ->]; unfold Cn2; cbn [re im Cmul Copp Ci RtoC]; ring).
    rewrite Q. pose proof (Cn2_nonneg z) as Z0.
    replace (/ (k0 * sigma) * / (k0 * sigma) * (k0 * k0 * (Cabs ee * Cabs ee) * Cn2 z)) with ((Cabs ee / sigma) * (Cabs ee / sigma) * Cn2 z) by (field; lra).
    assert (L1 : 1 <= Cabs ee / sigma) by (apply (Rmult_le_reg_r sigma); [lra |]; unfold Rdiv; rewrite Rmult_assoc, Rinv_l by lra; lra). set (u := Cabs ee / sigma) in *. assert (U2 : 1 <= u * u) by nra. pose proof (Rmult_le_compat_r _ _ _ Z0 U2). lra. }
  destruct c'.
  - apply (G AX). right. unfold y, Bw, rho. rewrite He1, diff_x by exact Hg. specialize (NZ AX i j k Hg). change (at_e g E AX i j k) with (EX i j k). set (ee := eps_at s eps AX i j k) in *.
    set (a := diff_fn s (g_dx g) true x AY i j k). set (b := diff_fn s (g_dx g) true h0 AY i j k). pose proof k0C as KZ. field. repeat split; auto. intro Z. apply (f_equal im) in Z. cbn in Z. lra.
  - apply (G AY). left. unfold y, Bw, rho. rewrite He2, diff_x by exact Hg. specialize (NZ AY i j k Hg). change (at_e g E AY i j k) with (EY i j k). set (ee := eps_at s eps AY i j k) in *.
    set (a := diff_fn s (g_dx g) true x AX i j k). set (b := diff_fn s (g_dx g) true h0 AX i j k). pose proof k0C as KZ. field. repeat split; auto. intro Z. apply (f_equal im) in Z. cbn in Z. lra.
  - unfold y. rewrite Cn2_C0. apply Rmult_le_pos; [| apply Cn2_nonneg]. pose proof (Rinv_0_lt_compat (k0 * sigma) ltac:(apply Rmult_lt_0_compat; lra)). nra.
Qed.
Lemma amax_nonneg : 0 <= amax.
Proof. assert (G0 : in_grid s 0 0 0) by (destruct W as (_ & Q & _); repeat split; apply Q). eapply Rle_trans; [apply Cabs_nonneg | exact (HA _ _ _ G0)]. Qed.
Lemma y_bound : vnorm2 s y <= (vnorm2 s Fw + sqrt (2 * cells) * t) / (k0 * sigma).
Proof.
  pose proof HL as (Hs & _). pose proof cells_pos as Cp. assert (T0 : 0 <= t) by (unfold t; apply Rmult_le_pos; [apply sqrt_pos | apply tau_nonneg]).
  assert (A : vnorm2 s y <= / (k0 * sigma) * vnorm2 s (fun c i j k => Bw c i j k + rho c i j k)%C).
  { apply vnorm2_mul; [left; apply Rinv_0_lt_compat, Rmult_lt_0_compat; lra | apply y_form]. }
  assert (A2 : vnorm2 s (fun c i j k => Bw c i j k + rho c i j k)%C <= vnorm2 s Bw + vnorm2 s rho) by (apply vnorm2_tri; reflexivity).
  assert (A3 : vnorm2 s rho <= sqrt (2 * cells) * t).
  { unfold vnorm2. rewrite <- (sqrt_square t T0). rewrite <- sqrt_mult_alt by lra. apply sqrt_le_1_alt. unfold vpower2, sum3.
    pose proof (power_const (rho AX) t (fun i j k Hin => rho_bound AX i j k Hin)). pose proof (power_const (rho AY) t (fun i j k Hin => rho_bound AY i j k Hin)).
    pose proof (power_const (rho AZ) 0 (fun i j k Hin => rho_bound AZ i j k Hin)). lra. }
  rewrite slopes_same in A2. unfold Rdiv. rewrite Rmult_comm. eapply Rle_trans; [exact A |].
  apply Rmult_le_compat_l; [left; apply Rinv_0_lt_compat, Rmult_lt_0_compat; lra | lra].
Qed.
Lemma tm_e_bound : sqrt (vpower2 s y / (2 * cells)) <= (2 + amax / sigma + amax * sqrt (c / sigma)) / (6 * k0 * sigma) * (M * Dx ^ 2) + (1 + amax / sigma) / sigma * dl * emax.
Proof.
  pose proof y_bound as A. destruct tm_parts as (P1 & P2 & P3). pose proof (slopes_bound amax_nonneg) as P4. pose proof HL as (Hs & _). pose proof cells_pos as Cp. pose proof tau_nonneg as Tp. pose proof B_nonneg as Bp.
  pose proof amax_nonneg as Ap. assert (E1 : sqrt (vpower2 s y / (2 * cells)) = vnorm2 s y / sqrt (2 * cells)) by (unfold vnorm2; rewrite sqrt_div_alt by lra; reflexivity).
  rewrite E1. pose proof (sqrt_lt_R0 cells Cp) as Cs. set (r := sqrt 2). assert (Rp : 0 < r) by (apply sqrt_lt_R0; lra). assert (R2 : r * r = 2) by (apply sqrt_sqrt; lra).
  assert (R1 : r <= 2) by (apply sq_le_le; lra). assert (E2 : sqrt (2 * cells) = r * sqrt cells) by (apply sqrt_mult_alt; lra). rewrite E2 in *. set (n := sqrt cells) in *.
  pose proof (sqrt_lt_R0 sigma Hs) as Ss. pose proof (sqrt_sqrt sigma ltac:(lra)) as SS. assert (E3 : sqrt (c / sigma) = sqrt c / sqrt sigma) by (apply sqrt_div_alt; exact Hs).
  pose proof (sqrt_pos c) as Pc. set (rs := sqrt sigma) in *. set (rc := sqrt c) in *. assert (T0 : t = r * tau) by reflexivity.
  (* in units of r n *)
  assert (Q1 : vnorm2 s q <= r * n * B) by exact P2.
  assert (Q2 : vnorm2 s p <= r * n * B / sigma + rc / rs * (n * t)).
  { apply (Rmult_le_reg_l rs); [exact Ss |]. eapply Rle_trans; [exact P1 |]. replace (rs * (r * n * B / sigma + rc / rs * (n * t))) with (r * n * B / rs + rc * (n * t)) by (rewrite <- SS; field; lra).
    apply Rplus_le_compat; [unfold Rdiv; apply Rmult_le_compat_r; [left; apply Rinv_0_lt_compat; exact Ss | exact Q1] | apply Rmult_le_compat_l; auto]. }
  pose proof (Rmult_le_compat_l _ _ _ Ap Q2) as Q3.
  assert (Q4 : vnorm2 s Fw + r * n * t <= amax * (r * n * B / sigma + rc / rs * (n * t)) + r * n * B + r * n * t) by lra.
  assert (Kp : 0 < k0 * sigma) by (apply Rmult_lt_0_compat; lra).
  eapply Rle_trans; [unfold Rdiv; apply Rmult_le_compat_r; [left; apply Rinv_0_lt_compat, Rmult_lt_0_compat; lra | exact A] |].
  eapply Rle_trans; [apply Rmult_le_compat_r; [left; apply Rinv_0_lt_compat, Rmult_lt_0_compat; lra | unfold Rdiv; apply Rmult_le_compat_r; [left; apply Rinv_0_lt_compat; exact Kp | exact Q4]] |].
  rewrite E3. set (z := rc / rs). assert (Zp : 0 <= z) by (unfold z, Rdiv; apply Rmult_le_pos; [auto | left; apply Rinv_0_lt_compat; exact Ss]).
  replace ((amax * (r * n * B / sigma + z * (n * t)) + r * n * B + r * n * t) * / (k0 * sigma) * / (r * n)) with
    ((1 + amax / sigma) / sigma * dl * emax + (((1 + amax / sigma) * r + r) * tau + amax * z * tau) / (k0 * sigma)).
  2:{ unfold B. rewrite T0. field. repeat split; lra. }
  replace ((2 + amax / sigma + amax * z) / (6 * k0 * sigma) * (M * Dx ^ 2)) with (((1 + amax / sigma) * 2 * tau + 2 * tau + amax * z * (2 * tau)) / (k0 * sigma)) by (unfold tau; field; lra).
  rewrite Rplus_comm. apply Rplus_le_compat_r. unfold Rdiv at 1 3. apply Rmult_le_compat_r; [left; apply Rinv_0_lt_compat; exact Kp |].
  assert (X1 : 0 <= 1 + amax / sigma) by (assert (0 <= amax / sigma) by (unfold Rdiv; apply Rmult_le_pos; [auto | left; apply Rinv_0_lt_compat; lra]); lra).
  assert (X2 : (1 + amax / sigma) * r * tau <= (1 + amax / sigma) * 2 * tau) by (apply Rmult_le_compat_r; [auto | apply Rmult_le_compat_l; auto]).
  assert (X3 : r * tau <= 2 * tau) by (apply Rmult_le_compat_r; auto).
  assert (X4 : amax * z * tau <= amax * z * (2 * tau)) by (apply Rmult_le_compat_l; [apply Rmult_le_pos; auto | lra]). lra.
Qed.

End TM.
Lemma converge_tm : forall g k0 eps E H K DE DH M Dx sigma kappa dl emax solver src, wf_grid g -> g_shape g AZ = 1%nat -> 0 < k0 ->
  (forall a, is_active g a = true -> g_spacing g a <= Dx) ->
  lossy (fdfd_on g k0 eps) sigma -> sloped (fdfd_on g k0 eps) kappa -> varies g eps dl ->
  (forall c i j k, in_grid (g_shape g) i j k -> Cabs (at_e g E c i j k) <= emax) ->
  phasor_fits g E -> phasor_fits g H -> phasor_derivatives M E DE -> phasor_derivatives M H DH -> harmonic_tm g k0 eps DE DH E H K ->
  (forall i j k, in_grid (g_shape g) i j k -> src i j k = K (h_place g AZ i j k)) ->
  exact2c (fdfd_on g k0 eps) (mat_hz_c (fdfd_on g k0 eps)) solver src ->
  rms_diff (g_shape g) (snd (solve2_tm_c (fdfd_on g k0 eps) solver src) AZ) (at_h g H AZ) <=
  (sqrt (sqrt (1 + kappa * kappa) / sigma) + sqrt (1 + kappa * kappa)) / (6 * k0) * (M * Dx ^ 2) + 2 * sqrt (sqrt (1 + kappa * kappa) / sigma) * dl * emax.
Proof.
  intros g k0 eps E H K DE DH M Dx sigma kappa dl emax solver src W Hz Hk HD HL HK HV He FE FH dE dH HX Hs X.
  assert (G0 : in_grid (g_shape g) 0 0 0) by (destruct W as (_ & Q & _); repeat split; apply Q).
  refine (tm_bound g k0 eps M Dx Hz W Hk (M_nonneg M E DE dE) HD E H DE DH K FE FH dE dH HX _ src sigma kappa dl emax HL HK HV _ He _ Hs _).
  - destruct (HV _ _ _ G0) as (A & _). eapply Rle_trans; [apply Cabs_nonneg | exact A].
  - eapply Rle_trans; [apply Cabs_nonneg | exact (He AX _ _ _ G0)].
  - apply exact_tm_wave. exact X.
Qed.
Section Sum.
Lemma cos_tele : forall n h, 2 * sin h * Rsum n (fun i => cos (2 * (INR i * h))) = sin (2 * (INR n * h) - h) + sin h.
Proof.
  intros n h. induction n as [| n IH].
  - cbn [Rsum INR]. replace (2 * (0 * h) - h) with (- h) by ring. rewrite sin_neg. ring.
  - cbn [Rsum]. rewrite Rmult_plus_distr_l, IH, S_INR. replace (2 * ((INR n + 1) * h) - h) with (2 * (INR n * h) + h) by ring.
    set (u := 2 * (INR n * h)). rewrite sin_plus, sin_minus. ring.
Qed.
Lemma sum_sin2 : forall n, (3 <= n)%nat -> Rsum n (fun i => sin (INR i * (2 * PI / INR n)) * sin (INR i * (2 * PI / INR n))) = INR n / 2.
Proof.
  intros n Hn. set (h := 2 * PI / INR n). assert (N : 3 <= INR n) by (change 3 with (INR 3) || replace 3 with (INR 3) by (cbn; ring); apply le_INR; exact Hn).
  pose proof PI_RGT_0 as Pp. assert (Hh : 0 < h < PI).
  { unfold h. split; [apply Rdiv_lt_0_compat; lra |]. apply (Rmult_lt_reg_r (INR n)); [lra |]. replace (2 * PI / INR n * INR n) with (2 * PI) by (field; lra). nra. }
  pose proof (sin_gt_0 h (proj1 Hh) (proj2 Hh)) as Sh. pose proof (cos_tele n h) as T.
  assert (E : 2 * (INR n * h) - h = - h + 2 * INR 2 * PI) by (unfold h; cbn [INR]; field; lra). rewrite E, sin_period, sin_neg in T.
  assert (Z : Rsum n (fun i => cos (2 * (INR i * h))) = 0) by (apply (Rmult_eq_reg_l (2 * sin h)); lra).
  assert (Q : forall m, Rsum m (fun i => sin (INR i * h) * sin (INR i * h)) = INR m / 2 - / 2 * Rsum m (fun i => cos (2 * (INR i * h)))).
  { induction m as [| m IH]; [cbn; field |]. cbn [Rsum]. rewrite IH, S_INR. pose proof (cos_2a_sin (INR m * h)) as C. rewrite C. field. }
  rewrite Q, Z. field.
Qed.
End Sum.
Lemma electric_tm : forall g k0 eps E H K DE DH M Dx sigma kappa dl emax amax solver src, wf_grid g -> g_shape g AZ = 1%nat -> 0 < k0 ->
  (forall a, is_active g a = true -> g_spacing g a <= Dx) ->
  lossy (fdfd_on g k0 eps) sigma -> sloped (fdfd_on g k0 eps) kappa -> varies g eps dl -> (forall i j k, in_grid (g_shape g) i j k -> Cabs (eps i j k) <= amax) ->
  (forall c i j k, in_grid (g_shape g) i j k -> Cabs (at_e g E c i j k) <= emax) ->
  phasor_fits g E -> phasor_fits g H -> phasor_derivatives M E DE -> phasor_derivatives M H DH -> harmonic_tm g k0 eps DE DH E H K ->
  (forall i j k, in_grid (g_shape g) i j k -> src i j k = K (h_place g AZ i j k)) ->
  exact2c (fdfd_on g k0 eps) (mat_hz_c (fdfd_on g k0 eps)) solver src -> let e := fst (solve2_tm_c (fdfd_on g k0 eps) solver src) in
  rms_plane (g_shape g) (fun c i j k => - e c i j k)%C (at_e g E) <=
  (2 + amax / sigma + amax * sqrt (sqrt (1 + kappa * kappa) / sigma)) / (6 * k0 * sigma) * (M * Dx ^ 2) + (1 + amax / sigma) / sigma * dl * emax.
Proof.
  intros g k0 eps E H K DE DH M Dx sigma kappa dl emax amax solver src W Hz Hk HD HL HK HV HA He FE FH dE dH HX Hs X e.
  assert (G0 : in_grid (g_shape g) 0 0 0) by (destruct W as (_ & Q & _); repeat split; apply Q).
  pose proof (M_nonneg M E DE dE) as HM.
  assert (Hdl : 0 <= dl) by (destruct (HV _ _ _ G0) as (A & _); eapply Rle_trans; [apply Cabs_nonneg | exact A]).
  assert (Hem : 0 <= emax) by (eapply Rle_trans; [apply Cabs_nonneg | exact (He AX _ _ _ G0)]).
  set (d := fdfd_on g k0 eps) in *.
  assert (HW : wave_tm d src (snd (solve2_tm_c d solver src) AZ)) by (apply exact_tm_wave; exact X).
  assert (ET : forall c i j k, in_grid (g_shape g) i j k -> cf_eps_t d c i j k = eps_at (g_shape g) eps c i j k) by (intros; unfold cf_eps_t; apply eps_at_ok; assumption).
  eapply Rle_trans; [| refine (tm_e_bound g k0 eps M Dx Hz W Hk HM HD E H DE DH K FE FH dE dH HX (snd (solve2_tm_c d solver src) AZ) src sigma kappa dl emax HL HK HV Hdl He Hem Hs HW amax HA e _ _)].
  - right. unfold rms_plane. f_equal. f_equal. unfold vpower2, sum3.
    rewrite <- (Rplus_0_r (_ + _)) at 1. apply f_equal2; [reflexivity |].
    symmetry. unfold power2. rewrite (rgrid_sum_ext _ _ (fun _ _ _ => 0)) by (intros; apply Cn2_C0). rewrite rgrid_sum_const. ring.
  - intros i j k Hg. unfold e, solve2_tm_c. cbn [fst snd]. rewrite <- (ET AX i j k Hg). unfold only_z. reflexivity.
  - intros i j k Hg. unfold e, solve2_tm_c. cbn [fst snd]. rewrite <- (ET AY i j k Hg). unfold only_z. reflexivity.
Qed.
(** The instance. *)
Section Ex.
Variables (n : nat) (d : R).
Hypothesis Hn : (1 <= n)%nat.
Hypothesis Hd : 0 < d.
Let k := one_period n d.
Let M := 4 * (k * k * k).
Definition tm_wave_DE (k : R) : axis -> axis -> phasor := fun c a p => match c, a with AY, AX => mkC 0 (k * cos (k * p AX)) | _, _ => C0 end.
Definition tm_wave_DH (k : R) : axis -> axis -> phasor := fun c a p => match c, a with AZ, AX => (mkC 4 1 * RtoC (- k * sin (k * p AX)))%C | _, _ => C0 end.
Lemma tm_fits_E : phasor_fits (row n d) (tm_wave_E k).
Proof.
  intros c p a. split; intro Ha.
  - apply act_row in Ha. subst a. destruct c; [reflexivity | | reflexivity]. unfold tm_wave_E, move. cbn [same_axis row g_shape g_spacing]. unfold k. rewrite shift_k, sin_period by assumption. reflexivity.
  - intro x. destruct a; [discriminate | |]; destruct c; reflexivity.
Qed.
Lemma tm_fits_H : phasor_fits (row n d) (tm_wave_H k).
Proof.
  intros c p a. split; intro Ha.
  - apply act_row in Ha. subst a. destruct c; [reflexivity | reflexivity |]. unfold tm_wave_H, move. cbn [same_axis row g_shape g_spacing]. unfold k. rewrite shift_k, cos_period by assumption. reflexivity.
  - intro x. destruct a; [discriminate | |]; destruct c; reflexivity.
Qed.
Lemma tm_k3 : 0 < k * k * k.
Proof. apply k3; assumption. Qed.
Lemma tm_flat : forall f f1, (forall x, f x = f 0) -> (forall x, f1 x = 0) -> three_times M f f1.
Proof.
  intros f f1 H0 H1. apply (cos_three (f 0) 0 0); [| intro x; rewrite Rmult_0_l, Rplus_0_r, cos_0, Rmult_1_r; apply H0 | intro x; rewrite H1; ring].
  replace (f 0 * (0 * 0 * 0)) with 0 by ring. rewrite Rabs_R0. pose proof tm_k3. unfold M. lra.
Qed.
Lemma tm_der_E : phasor_derivatives M (tm_wave_E k) (tm_wave_DE k).
Proof.
  pose proof tm_k3 as K3. intros c p a. destruct c; [split; apply tm_flat; intros; reflexivity | | split; apply tm_flat; intros; reflexivity].
  destruct a; [| split; apply tm_flat; intros; reflexivity | split; apply tm_flat; intros; reflexivity].
  split; [apply tm_flat; intros; reflexivity |].
  apply (cos_three (-1) k (PI / 2)); [rewrite Rabs_left; unfold M; lra | |]; intro x; unfold tm_wave_E, tm_wave_DE, move; cbn [same_axis im]; rewrite (Rplus_comm (k * x) (PI / 2)).
  - rewrite (sin_cos (k * x)). ring.
  - rewrite <- cos_sin. ring.
Qed.
Lemma tm_der_H : phasor_derivatives M (tm_wave_H k) (tm_wave_DH k).
Proof.
  pose proof tm_k3 as K3. intros c p a. destruct c; [split; apply tm_flat; intros; reflexivity | split; apply tm_flat; intros; reflexivity |].
  destruct a; [| split; apply tm_flat; intros; reflexivity | split; apply tm_flat; intros; reflexivity].
  split.
  - apply (cos_three 4 k 0); [rewrite Rabs_pos_eq; unfold M; lra | |]; intro x; unfold tm_wave_H, tm_wave_DH, move; cbn [same_axis re im Cmul RtoC]; rewrite Rplus_0_r; ring.
  - apply (cos_three 1 k 0); [rewrite Rabs_pos_eq; unfold M; lra | |]; intro x; unfold tm_wave_H, tm_wave_DH, move; cbn [same_axis re im Cmul RtoC]; rewrite Rplus_0_r; ring.
Qed.
Lemma tm_row_harmonic : harmonic_tm (row n d) k (fun _ _ _ => mkC 4 1) (tm_wave_DE k) (tm_wave_DH k) (tm_wave_E k) (tm_wave_H k) (tm_wave_K k).
Proof.
  intros i j m Hg. assert (Ev : forall c, eps_at (g_shape (row n d)) (fun _ _ _ => mkC 4 1) c i j m = mkC 4 1) by (intro c; unfold eps_at; destruct c; apply C_eq; unfold Cdiv, Cinv, Cn2; cbn [re im RtoC Cmul Cadd]; field).
  split; [| intros c Hc; rewrite Ev; destruct c; [| | congruence]]; unfold curl_at, tm_wave_DE, tm_wave_DH, tm_wave_E, tm_wave_H, tm_wave_K; apply C_eq; cbn [re im RtoC Cmul Cadd Csub Copp Ci C0]; ring.
Qed.
Lemma tm_row_sloped : sloped (fdfd_on (row n d) k (fun _ _ _ => mkC 4 1)) 4.
Proof. intros i j m _. cbn. rewrite !Rabs_pos_eq by lra. lra. Qed.
Lemma tm_row_error : forall solver, let f := fdfd_on (row n d) k (fun _ _ _ => mkC 4 1) in let K := fun i j m => tm_wave_K k (h_place (row n d) AZ i j m) in
  exact2c f (mat_hz_c f) solver K -> rms_diff (g_shape (row n d)) (snd (solve2_tm_c f solver K) AZ) (at_h (row n d) (tm_wave_H k) AZ) <= 5 * (2 * PI / INR n) ^ 2.
Proof.
  intros solver f K X. assert (Kp : 0 < k) by (apply k_pos; assumption).
  assert (V : varies (row n d) (fun _ _ _ => mkC 4 1) 0).
  { intros i j m _. replace (mkC 4 1 - mkC 4 1)%C with C0 by ring. rewrite Cabs_C0. lra. }
  assert (He : forall c i j m, in_grid (g_shape (row n d)) i j m -> Cabs (at_e (row n d) (tm_wave_E k) c i j m) <= 1).
  { intros c i j m _. unfold at_e, tm_wave_E. destruct c; try (rewrite Cabs_C0; lra). set (y := k * _). unfold Cabs, Cn2. cbn [re im]. rewrite <- sqrt_1. apply sqrt_le_1_alt.
    pose proof (sin2_cos2 y) as Q. unfold Rsqr in Q. pose proof (Rle_0_sqr (cos y)) as Q2. unfold Rsqr in Q2. lra. }
  pose proof (converge_tm (row n d) k (fun _ _ _ => mkC 4 1) (tm_wave_E k) (tm_wave_H k) (tm_wave_K k) (tm_wave_DE k) (tm_wave_DH k) M d 1 4 0 1 solver K (row_wf n d Hn Hd) eq_refl Kp
    (fun a _ => Rle_refl d) (row_lossy n d) tm_row_sloped V He tm_fits_E tm_fits_H tm_der_E tm_der_H tm_row_harmonic (fun _ _ _ _ => eq_refl) X) as B.
  eapply Rle_trans; [exact B |]. replace (1 + 4 * 4) with 17 by ring.
  assert (C1' : sqrt 17 <= 4.2) by (apply sq_le_le; [lra | rewrite sqrt_sqrt; lra]). pose proof (sqrt_pos 17) as C0'.
  assert (C2 : sqrt (sqrt 17 / 1) <= 2.05) by (apply sq_le_le; [lra | rewrite sqrt_sqrt; lra]). set (c := sqrt 17) in *. pose proof (sqrt_pos (c / 1)) as C3. set (y := sqrt (c / 1)) in *.
  replace (2 * PI / INR n) with (k * d) by (unfold k, one_period; assert (INR n <> 0) by (apply not_0_INR; lia); field; split; lra).
  replace ((y + c) / (6 * k) * (M * d ^ 2) + 2 * y * 0 * 1) with ((y + c) * 4 / 6 * (k * d) ^ 2) by (unfold M; field; lra).
  apply Rmult_le_compat_r; [rewrite <- Rsqr_pow2; apply Rle_0_sqr | lra].
Qed.
Lemma tm_rms_norm : forall s (u v : vfld), 0 < INR (s AX * s AY * s AZ) ->
  rms_plane s u v = vnorm2 s (fun c i j k => match c with AZ => C0 | _ => (u c i j k - v c i j k)%C end) / sqrt (2 * INR (s AX * s AY * s AZ)).
Proof.
  intros s u v Hc. unfold rms_plane, vnorm2. rewrite sqrt_div_alt by lra. f_equal. f_equal. unfold vpower2, sum3.
  rewrite <- (Rplus_0_r (_ + _)) at 1. apply f_equal2; [reflexivity |].
  symmetry. unfold power2. rewrite (rgrid_sum_ext _ _ (fun _ _ _ => 0)) by (intros; apply Cn2_C0). rewrite rgrid_sum_const. ring.
Qed.
Lemma tm_row_cells : INR (g_shape (row n d) AX * g_shape (row n d) AY * g_shape (row n d) AZ) = INR n.
Proof. cbn [row g_shape]. rewrite !Nat.mul_1_r. reflexivity. Qed.
Lemma tm_E_norm : (3 <= n)%nat -> vnorm2 (g_shape (row n d)) (fun c i j m => match c with AZ => C0 | _ => (RtoC (-2) * at_e (row n d) (tm_wave_E k) c i j m)%C end) = sqrt (2 * INR n).
Proof.
  intro H3. unfold vnorm2. f_equal. unfold vpower2, sum3.
  assert (Z : forall F : fld, (forall i j m, F i j m = C0) -> power2 (g_shape (row n d)) F = 0).
  { intros F HF. unfold power2. rewrite (rgrid_sum_ext _ _ (fun _ _ _ => 0)) by (intros; rewrite HF; apply Cn2_C0). rewrite rgrid_sum_const. ring. }
  rewrite (Z (fun i j m => RtoC (-2) * at_e (row n d) (tm_wave_E k) AX i j m)%C) by (intros; unfold at_e, tm_wave_E; ring). rewrite (Z (fun _ _ _ => C0)) by reflexivity.
  assert (Y : power2 (g_shape (row n d)) (fun i j m => RtoC (-2) * at_e (row n d) (tm_wave_E k) AY i j m)%C = 4 * Rsum n (fun i => sin (INR i * (2 * PI / INR n)) * sin (INR i * (2 * PI / INR n)))).
  { unfold power2, rgrid_sum. cbn [row g_shape]. rewrite <- Rsum_scal. apply Rsum_ext. intros i Hi. cbn [Rsum].
    unfold at_e, tm_wave_E, e_place. cbn [index_along same_axis]. unfold width. cbn [row g_ndim g_spacing is_active].
    match goal with |- context [sin ?z] => replace z with (INR i * (2 * PI / INR n)) end.
    - unfold Cn2. cbn [re im RtoC Cmul]. ring.
    - unfold k, one_period. cbn [is_active row g_ndim]. assert (INR n <> 0) by (apply not_0_INR; lia). cbn. field. split; lra. }
  rewrite Y, sum_sin2 by exact H3. field.
Qed.
Lemma tm_row_electric : (40 <= n)%nat -> forall solver, let f := fdfd_on (row n d) k (fun _ _ _ => mkC 4 1) in let K := fun i j m => tm_wave_K k (h_place (row n d) AZ i j m) in
  exact2c f (mat_hz_c f) solver K -> 1 / 2 <= rms_plane (g_shape (row n d)) (fst (solve2_tm_c f solver K)) (at_e (row n d) (tm_wave_E k)).
Proof.
  intros H40 solver f K X. assert (Kp : 0 < k) by (apply k_pos; assumption).
  assert (V : varies (row n d) (fun _ _ _ => mkC 4 1) 0).
  { intros i j m _. replace (mkC 4 1 - mkC 4 1)%C with C0 by ring. rewrite Cabs_C0. lra. }
  assert (He : forall c i j m, in_grid (g_shape (row n d)) i j m -> Cabs (at_e (row n d) (tm_wave_E k) c i j m) <= 1).
  { intros c i j m _. unfold at_e, tm_wave_E. destruct c; try (rewrite Cabs_C0; lra). set (y := k * _). unfold Cabs, Cn2. cbn [re im]. rewrite <- sqrt_1. apply sqrt_le_1_alt.
    pose proof (sin2_cos2 y) as Q. unfold Rsqr in Q. pose proof (Rle_0_sqr (cos y)) as Q2. unfold Rsqr in Q2. lra. }
  assert (HA : forall i j m, in_grid (g_shape (row n d)) i j m -> Cabs (mkC 4 1) <= (21 / 5)).
  { intros _ _ _ _. apply sq_le_le; [lra |]. rewrite Cabs_sq. unfold Cn2. cbn [re im]. lra. }
  pose proof (electric_tm (row n d) k (fun _ _ _ => mkC 4 1) (tm_wave_E k) (tm_wave_H k) (tm_wave_K k) (tm_wave_DE k) (tm_wave_DH k) M d 1 4 0 1 (21 / 5) solver K (row_wf n d Hn Hd) eq_refl Kp
    (fun a _ => Rle_refl d) (row_lossy n d) tm_row_sloped V HA He tm_fits_E tm_fits_H tm_der_E tm_der_H tm_row_harmonic (fun _ _ _ _ => eq_refl) X) as B. cbv zeta in B. fold f in B.
  set (e := fst (solve2_tm_c f solver K)) in *. replace (1 + 4 * 4) with 17 in B by ring.
  assert (C1' : sqrt 17 <= (21 / 5)) by (apply sq_le_le; [lra | rewrite sqrt_sqrt; lra]). pose proof (sqrt_pos 17) as C0'.
  assert (C2 : sqrt (sqrt 17 / 1) <= (41 / 20)) by (apply sq_le_le; [lra | rewrite sqrt_sqrt; lra]). set (c := sqrt 17) in *. pose proof (sqrt_pos (c / 1)) as C3. set (y := sqrt (c / 1)) in *.
  assert (N40 : 40 <= INR n) by (replace 40 with (INR 40) by (cbn; ring); apply le_INR; exact H40).
  assert (KD : k * d = 2 * PI / INR n) by (unfold k, one_period; field; split; lra).
  assert (KD2 : 0 < k * d <= 1 / 5).
  { rewrite KD. pose proof PI_RGT_0. pose proof PI_4. split; [apply Rdiv_lt_0_compat; lra |]. apply (Rmult_le_reg_r (INR n)); [lra |]. replace (2 * PI / INR n * INR n) with (2 * PI) by (field; lra). lra. }
  assert (B2 : rms_plane (g_shape (row n d)) (fun c i j m => - e c i j m)%C (at_e (row n d) (tm_wave_E k)) <= 1 / 2).
  { eapply Rle_trans; [exact B |]. replace ((2 + (21 / 5) / 1 + (21 / 5) * y) / (6 * k * 1) * (M * d ^ 2) + (1 + (21 / 5) / 1) / 1 * 0 * 1) with (((31 / 5) + (21 / 5) * y) * 4 / 6 * (k * d * (k * d))) by (unfold M; field; lra).
    assert (U : k * d * (k * d) <= 1 / 25) by nra. assert (U2 : ((31 / 5) + (21 / 5) * y) * 4 / 6 <= 10) by lra. assert (U3 : 0 <= k * d * (k * d)) by nra. nra. }
  assert (HN : 0 < INR (g_shape (row n d) AX * g_shape (row n d) AY * g_shape (row n d) AZ)) by (rewrite tm_row_cells; lra).
  rewrite tm_rms_norm in B2 |- * by exact HN. rewrite tm_row_cells in *.
  set (s := g_shape (row n d)) in *.
  pose proof (vnorm2_tri s (fun c i j m => match c with AZ => C0 | _ => (RtoC (-2) * at_e (row n d) (tm_wave_E k) c i j m)%C end)
    (fun c i j m => match c with AZ => C0 | _ => (e c i j m - at_e (row n d) (tm_wave_E k) c i j m)%C end)
    (fun c i j m => match c with AZ => C0 | _ => (- e c i j m - at_e (row n d) (tm_wave_E k) c i j m)%C end)
    ltac:(intros c0 i j m _; destruct c0; apply C_eq; cbn [re im RtoC Cmul Cadd Csub Copp C0]; ring)) as T.
  unfold s in T. rewrite tm_E_norm in T by lia. fold s in T.
  assert (Sn : 0 < sqrt (2 * INR n)) by (apply sqrt_lt_R0; lra).
  set (u := vnorm2 s (fun c i j m => match c with AZ => C0 | _ => (e c i j m - at_e (row n d) (tm_wave_E k) c i j m)%C end)) in *.
  set (w := vnorm2 s _) in T. match type of B2 with ?a / _ <= _ => change a with w in B2 end.
  apply (Rmult_le_reg_r (sqrt (2 * INR n))); [exact Sn |]. apply (Rmult_le_compat_r (sqrt (2 * INR n))) in B2; [| lra].
  unfold Rdiv in B2 |- *. rewrite Rmult_assoc, Rinv_l in B2 by lra. rewrite (Rmult_assoc u), Rinv_l by lra. lra.
Qed.
Lemma tm_row_solvable : forall src, exists solver, exact2c (fdfd_on (row n d) k (fun _ _ _ => mkC 4 1)) (mat_hz_c (fdfd_on (row n d) k (fun _ _ _ => mkC 4 1))) solver src.
Proof.
  intro src. apply (well_posed_tm (fdfd_on (row n d) k (fun _ _ _ => mkC 4 1)) 1 4 src).
  - split; [exists (width (row n d)); split; reflexivity | apply k_pos; assumption].
  - apply row_lossy.
  - apply tm_row_sloped.
Qed.
End Ex.
