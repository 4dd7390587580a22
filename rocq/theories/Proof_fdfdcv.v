(** Proofs for C168 (1): truncation errors and the energy of the error. *)
From Coq Require Import Reals Lra Lia Arith.
From Verif Require Import Cx Arr Model_coupling Model_yee Spec_yee Proof_yee Proof_yee2 Model_fdfd Spec_fdfd Proof_fdfd Proof_fdfd2 Model_fdtd Spec_fdtd Proof_fdtd Proof_energy
  Model_fdfdc Spec_fdfdc Proof_fdfdc Proof_fdfdc2 Proof_fdfdc3 Proof_fdfdsy Spec_conv Proof_conv Proof_conv2 Proof_conv3 Spec_fdfdcv.
Local Open Scope R_scope.

(** ** Truncation *)
Lemma zero_third : forall M x, 0 <= M -> three_times M (fun _ => x) (fun _ => 0).
Proof.
  intros M x HM. exists (fun _ => 0), (fun _ => 0). repeat split; intros; try apply derivable_pt_lim_const. rewrite Rabs_R0. exact HM.
Qed.
Section T.
Variables (g : fgrid) (M Dx : R).
Hypothesis W : wf_grid g.
Hypothesis HM : 0 <= M.
Hypothesis HD : forall a, is_active g a = true -> g_spacing g a <= Dx.
Variables (F : axis -> phasor) (D : axis -> axis -> phasor).
Hypothesis Hfit : phasor_fits g F.
Hypothesis Hd : phasor_derivatives M F D.
Definition part (l : C -> R) (F : axis -> phasor) : axis -> smooth_field := fun c p _ => l (F c p).
Definition part2 (l : C -> R) (D : axis -> axis -> phasor) : axis -> axis -> smooth_field := fun c a p _ => l (D c a p).
Lemma part_fits : forall l, fits_grid g (part l F).
Proof. intros l c p t a. unfold part. destruct (Hfit c p a) as [A B]. split; intros; [rewrite A | rewrite B]; auto. Qed.
Lemma part_der : forall l, (l = re \/ l = im) -> derivatives M (part l F) (part2 l D) (fun _ _ _ => 0).
Proof.
  intros l Hl c p t. unfold part, part2. split; [intro a; destruct (Hd c p a) as [A B]; destruct Hl as [-> | ->]; auto | apply zero_third; exact HM].
Qed.
Lemma split_part : forall (f : fld) a o i j k, in_grid (g_shape g) i j k -> diff_fn (g_shape g) (g_dx g) o f a i j k =
  (diff_fn (g_shape g) (g_dx g) o (fun i j k => RtoC (re (f i j k))) a i j k + Ci * diff_fn (g_shape g) (g_dx g) o (fun i j k => RtoC (im (f i j k))) a i j k)%C.
Proof.
  intros f a o i j k Hg.
  rewrite <- (diff_scal (g_shape g) (g_dx g) o Ci), <- diff_add. apply diff_ext; [| exact Hg]. intros. apply C_eq; cbn; ring.
Qed.
Lemma curl_split : forall (v : vfld) o c i j k, in_grid (g_shape g) i j k -> curl_fn (diff_fn (g_shape g) (g_dx g) o) v c i j k =
  (curl_fn (diff_fn (g_shape g) (g_dx g) o) (fun c i j k => RtoC (re (v c i j k))) c i j k + Ci * curl_fn (diff_fn (g_shape g) (g_dx g) o) (fun c i j k => RtoC (im (v c i j k))) c i j k)%C.
Proof.
  intros v o c i j k Hg. unfold curl_fn. destruct c; rewrite (split_part (v AX)), (split_part (v AY)) || rewrite (split_part (v AX)), (split_part (v AZ)) || rewrite (split_part (v AY)), (split_part (v AZ)); auto; ring.
Qed.
Let tau := M * Dx ^ 2 / 12.
Lemma two_parts : forall (q1 q2 : R) (z : C), Rabs (q1 - re z) <= tau -> Rabs (q2 - im z) <= tau -> Cn2 (RtoC q1 + Ci * RtoC q2 - z)%C <= 2 * (tau * tau).
Proof.
  intros q1 q2 z A B. apply abs_sq in A, B. unfold Cn2. cbn [re im RtoC Cadd Csub Cmul Ci]. 
  replace (q1 + (0 * q2 - 1 * 0) - re z) with (q1 - re z) by ring. replace (0 + (0 * 0 + 1 * q2) - im z) with (q2 - im z) by ring. lra.
Qed.
Lemma curl_part : forall l, (l = re \/ l = im) -> forall c p t, curl_of (part2 l D) c p t = l (curl_at D c p).
Proof. intros l Hl c p t. unfold curl_of, part2, curl_at. destruct Hl as [-> | ->]; destruct c; cbn [re im Csub]; reflexivity. Qed.
Lemma trunc_e : forall c i j k, in_grid (g_shape g) i j k ->
  Cn2 (curl_fn (diff_fn (g_shape g) (g_dx g) false) (at_e g F) c i j k - curl_at D c (h_place g c i j k))%C <= 2 * (tau * tau).
Proof.
  intros c i j k Hg. rewrite curl_split by exact Hg.
  destruct (curl_e_samples g (part re F) M Dx (part2 re D) _ 0 c i j k W (part_fits re) (part_der re (or_introl eq_refl)) HD Hg) as (q1 & A1 & A2).
  destruct (curl_e_samples g (part im F) M Dx (part2 im D) _ 0 c i j k W (part_fits im) (part_der im (or_intror eq_refl)) HD Hg) as (q2 & B1 & B2).
  rewrite (curl_part re (or_introl eq_refl)) in A2. rewrite (curl_part im (or_intror eq_refl)) in B2.
  unfold curl_e, e_samples, part in A1, B1. unfold at_e. rewrite A1, B1. apply two_parts; unfold tau; lra.
Qed.
Lemma trunc_h : forall c i j k, in_grid (g_shape g) i j k ->
  Cn2 (curl_fn (diff_fn (g_shape g) (g_dx g) true) (at_h g F) c i j k - curl_at D c (e_place g c i j k))%C <= 2 * (tau * tau).
Proof.
  intros c i j k Hg. rewrite curl_split by exact Hg.
  destruct (curl_h_samples g (part re F) M Dx (part2 re D) _ 0 c i j k W (part_fits re) (part_der re (or_introl eq_refl)) HD Hg) as (q1 & A1 & A2).
  destruct (curl_h_samples g (part im F) M Dx (part2 im D) _ 0 c i j k W (part_fits im) (part_der im (or_intror eq_refl)) HD Hg) as (q2 & B1 & B2).
  rewrite (curl_part re (or_introl eq_refl)) in A2. rewrite (curl_part im (or_intror eq_refl)) in B2.
  unfold curl_h, h_samples, part in A1, B1. unfold at_h. rewrite A1, B1. apply two_parts; unfold tau; lra.
Qed.
End T.
(** ** Energy of the error *)
Section En.
Variables (d : cfdfd) (w : axis -> R).
Let s := cf_shape d.
Let k0 := cf_k0 d.
Hypothesis Hf : cf_dxf d = uniform_dx w.
Hypothesis Hbb : cf_dxb d = uniform_dx w.
Hypothesis Hb : cf_bloch d = (fun _ => C1).
Hypothesis Hk : 0 < k0.
Variables (e h r1 r2 : vfld).
Hypothesis H1 : forall c i j k, in_grid s i j k -> curl_fn (diff_fn s (cf_dxf d) false) e c i j k = (Ci * RtoC k0 * h c i j k + r1 c i j k)%C.
Hypothesis H2 : forall c i j k, in_grid s i j k -> curl_fn (diff_fn s (cf_dxb d) true) h c i j k = (- (Ci * RtoC k0 * eps_at s (cf_eps d) c i j k * e c i j k) + r2 c i j k)%C.
Let WR := sum3 (fun c => wsum s (fun i j k => re (eps_at s (cf_eps d) c i j k)) (e c)).
Let WI := sum3 (fun c => wsum s (fun i j k => im (eps_at s (cf_eps d) c i j k)) (e c)).
Lemma vinner_ext : forall u v u' v', (forall c, same_on s (u c) (u' c)) -> (forall c, same_on s (v c) (v' c)) -> vinner s u v = vinner s u' v'.
Proof. intros u v u' v' A B. unfold vinner. f_equal; [f_equal |]; apply inner_ext'; auto. Qed.
Lemma balance : (Ci * RtoC k0 * (RtoC (vpower2 s h) - mkC WR WI))%C = (vinner s h r1 - vinner s r2 e)%C.
Proof.
  pose proof (curl_adj d w Hf Hbb h e) as A. fold s in A.
  assert (L : vinner s (Spec_fdfd.curl_of (dminus d) h) e = (- (Ci * RtoC k0 * mkC WR WI) + vinner s r2 e)%C).
  { assert (Q : forall c, inner s (Spec_fdfd.curl_of (dminus d) h c) (e c) = (- (Ci * RtoC k0) * mkC (wsum s (fun i j k => re (eps_at s (cf_eps d) c i j k)) (e c)) (wsum s (fun i j k => im (eps_at s (cf_eps d) c i j k)) (e c)) + inner s (r2 c) (e c))%C).
    { intro c. rewrite <- inner_eps, <- inner_scal_l, <- inner_add_l. apply (inner_ext' s); [| intros i j k _; reflexivity]. intros i j k Hg.
      transitivity (curl_fn (diff_fn s (cf_dxb d) true) h c i j k).
      - unfold Spec_fdfd.curl_of, curl_fn. destruct c; rewrite !(dminus_fn d Hb) by exact Hg; reflexivity.
      - rewrite H2 by exact Hg. ring. }
    unfold vinner. rewrite !Q. unfold WR, WI, sum3. apply C_eq; cbn [re im RtoC Cadd Cmul Copp Ci]; ring. }
  assert (Rr : vinner s h (Spec_fdfd.curl_of (dplus d) e) = (- (Ci * RtoC k0) * RtoC (vpower2 s h) + vinner s h r1)%C).
  { assert (Q : forall c, inner s (h c) (Spec_fdfd.curl_of (dplus d) e c) = (- (Ci * RtoC k0) * RtoC (power2 s (h c)) + inner s (h c) (r1 c))%C).
    { intro c. rewrite <- inner_self. transitivity (inner s (h c) (fun i j k => Ci * RtoC k0 * h c i j k - - r1 c i j k)%C).
      - apply (inner_ext' s); [intros i j k _; reflexivity |]. intros i j k Hg.
        transitivity (curl_fn (diff_fn s (cf_dxf d) false) e c i j k).
        + unfold Spec_fdfd.curl_of, curl_fn. destruct c; rewrite !(dplus_fn d Hb) by exact Hg; reflexivity.
        + rewrite H1 by exact Hg. ring.
      - unfold inner. rewrite <- grid_sum_scal, <- grid_sum_add. apply grid_sum_ext. intros. apply C_eq; cbn; ring. }
    unfold vinner. rewrite !Q. unfold vpower2, sum3. apply C_eq; cbn [re im RtoC Cadd Cmul Copp Ci]; ring. }
  rewrite L, Rr in A. transitivity (Ci * RtoC k0 * RtoC (vpower2 s h) + (- (Ci * RtoC k0 * mkC WR WI) + vinner s r2 e) - vinner s r2 e)%C; [ring |].
  rewrite A. ring.
Qed.
Let Q := (vinner s h r1 - vinner s r2 e)%C.
Let S2 := vpower2 s e + vpower2 s h.
Let R2 := vpower2 s r1 + vpower2 s r2.
Lemma young_r : forall c u v t, Cn2 c = 1 -> 0 < t -> 2 * t * re (c * inner s u v)%C <= t * t * power2 s u + power2 s v.
Proof.
  intros c u v t Hc Ht. pose proof (young s u v c (/ t)) as Y. rewrite Hc in Y.
  apply (Rmult_le_compat_l (t * t)) in Y; [| nra].
  replace (t * t * (2 * / t * re (c * inner s u v)%C)) with (2 * t * re (c * inner s u v)%C) in Y by (field; lra).
  replace (t * t * (1 * power2 s u + / t * / t * power2 s v)) with (t * t * power2 s u + power2 s v) in Y by (field; lra). exact Y.
Qed.
Lemma young_Q : forall c t, Cn2 c = 1 -> 0 < t -> 2 * t * re (c * Q)%C <= R2 + t * t * S2.
Proof.
  intros c t Hc Ht. assert (Hm : Cn2 (- c)%C = 1) by (rewrite <- Hc; unfold Cn2; cbn; ring).
  pose proof (young_r c (h AX) (r1 AX) t Hc Ht). pose proof (young_r c (h AY) (r1 AY) t Hc Ht). pose proof (young_r c (h AZ) (r1 AZ) t Hc Ht).
  pose proof (young s (r2 AX) (e AX) (- c)%C t) as A. pose proof (young s (r2 AY) (e AY) (- c)%C t) as B. pose proof (young s (r2 AZ) (e AZ) (- c)%C t) as D. rewrite Hm in A, B, D.
  unfold Q, R2, S2, vinner, vpower2, sum3.
  assert (Z : forall a1 a2 a3 b1 b2 b3 : C, re (c * (a1 + a2 + a3 - (b1 + b2 + b3)))%C = re (c * a1)%C + re (c * a2)%C + re (c * a3)%C + re (- c * b1)%C + re (- c * b2)%C + re (- c * b3)%C) by (intros; cbn; ring).
  rewrite Z. nra.
Qed.
Variables (sigma emax : R).
Hypothesis HL : lossy d sigma.
Hypothesis He : 0 <= emax.
Hypothesis HE : forall i j k, in_grid s i j k -> re (cf_eps d i j k) <= emax.
Lemma vwsum_lower : forall (wt : axis -> rfld) f x, (forall c i j k, in_grid s i j k -> x <= wt c i j k) -> x * vpower2 s f <= sum3 (fun c => wsum s (wt c) (f c)).
Proof.
  intros wt f x H. unfold vpower2, sum3. pose proof (wsum_lower s (wt AX) (f AX) x (H AX)). pose proof (wsum_lower s (wt AY) (f AY) x (H AY)). pose proof (wsum_lower s (wt AZ) (f AZ) x (H AZ)). lra.
Qed.
Lemma S2_bound : k0 * k0 * S2 <= (1 + (1 + emax) / sigma) * (1 + (1 + emax) / sigma) * R2.
Proof.
  destruct (lossy_sign d sigma HL) as (sg & Hsg & Hs). fold s in Hs. pose proof (proj1 HL) as Sp.
  assert (G2 : Cn2 (RtoC sg) = 1) by (unfold Cn2; cbn; destruct Hsg as [-> | ->]; ring).
  assert (Gi : Cn2 (- Ci)%C = 1) by (unfold Cn2; cbn; ring).
  set (a := vpower2 s e). set (b := vpower2 s h).
  assert (X1 : k0 * sigma * a <= re (RtoC sg * Q)%C).
  { unfold Q. rewrite <- balance. apply Rle_trans with (k0 * (sg * WI)); [| right; cbn [re im RtoC Cmul Csub Ci]; ring].
    rewrite Rmult_assoc. apply Rmult_le_compat_l; [lra |].
    replace (sg * WI) with (sum3 (fun c => wsum s (fun i j k => sg * im (eps_at s (cf_eps d) c i j k)) (e c))).
    - apply (vwsum_lower (fun c i j k => sg * im (eps_at s (cf_eps d) c i j k)) e). exact Hs.
    - unfold WI, sum3, wsum. rewrite !Rmult_plus_distr_l, <- !rgrid_sum_scal. f_equal; [f_equal |]; apply rgrid_sum_ext; intros; ring. }
  assert (X2 : k0 * (b - emax * a) <= re (- Ci * Q)%C).
  { unfold Q. rewrite <- balance. apply Rle_trans with (k0 * (b - WR)); [| right; cbn [re im RtoC Cmul Csub Copp Ci]; unfold b; ring].
    apply Rmult_le_compat_l; [lra |]. assert (T : - emax * a <= - WR); [| lra].
    replace (- WR) with (sum3 (fun c => wsum s (fun i j k => - re (eps_at s (cf_eps d) c i j k)) (e c))).
    - apply (vwsum_lower (fun c i j k => - re (eps_at s (cf_eps d) c i j k)) e). intros c i j k Hg.
      pose proof (eps_at_form s (cf_eps d) (-1) 0 (- emax) ltac:(intros i' j' k' Hg'; specialize (HE i' j' k' Hg'); lra) c i j k Hg). lra.
    - transitivity (-1 * WR); [| ring]. unfold WR, sum3, wsum. rewrite !Rmult_plus_distr_l, <- !rgrid_sum_scal. f_equal; [f_equal |]; apply rgrid_sum_ext; intros; ring. }
  set (K1 := (1 + emax) / sigma). assert (K1p : 0 <= K1) by (apply Rmult_le_pos; [lra | left; apply Rinv_0_lt_compat; exact Sp]).
  set (t := k0 / (1 + K1)). assert (Tp : 0 < t) by (apply Rdiv_lt_0_compat; lra).
  pose proof (young_Q (RtoC sg) t G2 Tp) as Y1. pose proof (young_Q (- Ci)%C t Gi Tp) as Y2.
  set (x1 := re (RtoC sg * Q)%C) in *. set (x2 := re (- Ci * Q)%C) in *.
  assert (Z : k0 * S2 <= K1 * x1 + x2).
  { assert (K1 * (k0 * sigma * a) <= K1 * x1) by (apply Rmult_le_compat_l; auto). replace (K1 * (k0 * sigma * a)) with (k0 * ((1 + emax) * a)) in H by (unfold K1; field; lra).
    unfold S2. fold a b. lra. }
  assert (V : 2 * t * (K1 * x1 + x2) <= (1 + K1) * (R2 + t * t * S2)).
  { assert (K1 * (2 * t * x1) <= K1 * (R2 + t * t * S2)) by (apply Rmult_le_compat_l; auto). lra. }
  assert (U : 2 * t * (k0 * S2) <= (1 + K1) * (R2 + t * t * S2)) by (apply Rle_trans with (2 * t * (K1 * x1 + x2)); [apply Rmult_le_compat_l; lra | exact V]).
  apply (Rmult_le_compat_l (1 + K1)) in U; [| lra].
  replace ((1 + K1) * (2 * t * (k0 * S2))) with (2 * (k0 * k0 * S2)) in U by (unfold t; field; lra).
  replace ((1 + K1) * ((1 + K1) * (R2 + t * t * S2))) with ((1 + K1) * (1 + K1) * R2 + k0 * k0 * S2) in U by (unfold t; field; lra). lra.
Qed.
End En.

(** ** Convergence *)
Lemma vpower2_le : forall s v x, (forall c i j k, in_grid s i j k -> Cn2 (v c i j k) <= x) -> vpower2 s v <= 3 * INR (s AX * s AY * s AZ) * x.
Proof.
  intros s v x H. assert (P : forall c, power2 s (v c) <= INR (s AX * s AY * s AZ) * x) by (intro c; rewrite <- rgrid_sum_const; apply rgrid_sum_le; auto).
  unfold vpower2, sum3. pose proof (P AX). pose proof (P AY). pose proof (P AZ). lra.
Qed.
Lemma curl_fn_sub : forall s dx o (u v : vfld) c i j k, in_grid s i j k ->
  curl_fn (diff_fn s dx o) (fun c i j k => u c i j k - v c i j k)%C c i j k = (curl_fn (diff_fn s dx o) u c i j k - curl_fn (diff_fn s dx o) v c i j k)%C.
Proof. intros s dx o u v c i j k Hg. unfold curl_fn. destruct c; rewrite !(diff_sub s dx o (u _) (v _)); ring. Qed.
Lemma harmonic_bound : forall g k0 eps E H J DE DH M Dx sigma emax e h src, wf_grid g -> 0 < k0 -> 0 <= M ->
  (forall a, is_active g a = true -> g_spacing g a <= Dx) ->
  lossy (fdfd_on g k0 eps) sigma -> 0 <= emax -> (forall i j k, in_grid (g_shape g) i j k -> re (eps i j k) <= emax) ->
  phasor_fits g E -> phasor_fits g H -> phasor_derivatives M E DE -> phasor_derivatives M H DH -> harmonic g k0 eps DE DH E H J ->
  (forall c i j k, in_grid (g_shape g) i j k -> src c i j k = at_e g J c i j k) ->
  faraday (g_shape g) (uniform_dx (width g)) k0 e h -> ampere_c (fdfd_on g k0 eps) e h src ->
  rms_gap (g_shape g) (e, h) (at_e g E, at_h g H) <= (1 + (1 + emax) / sigma) / (6 * k0) * (M * Dx ^ 2).
Proof.
  intros g k0 eps E H J DE DH M Dx sigma emax e h src W Hk HM HD HL He HE FE FH dE dH HX Hs F A.
  set (s := g_shape g). set (d := fdfd_on g k0 eps). set (tau := M * Dx ^ 2 / 12).
  set (de := fun c i j k => (e c i j k - at_e g E c i j k)%C). set (dh := fun c i j k => (h c i j k - at_h g H c i j k)%C).
  set (r1 := fun c i j k => (- (curl_fn (diff_fn s (g_dx g) false) (at_e g E) c i j k - curl_at DE c (h_place g c i j k)))%C).
  set (r2 := fun c i j k => (- (curl_fn (diff_fn s (g_dx g) true) (at_h g H) c i j k - curl_at DH c (e_place g c i j k)))%C).
  assert (H1 : forall c i j k, in_grid s i j k -> curl_fn (diff_fn s (cf_dxf d) false) de c i j k = (Ci * RtoC k0 * dh c i j k + r1 c i j k)%C).
  { intros c i j k Hg. unfold de. rewrite curl_fn_sub by exact Hg. pose proof (F c i j k Hg) as Q.
    assert (Q' : curl_fn (diff_fn s (cf_dxf d) false) e c i j k = (Ci * RtoC k0 * h c i j k)%C).
    { rewrite <- Q. unfold curl_fn, Spec_fdfd.curl_of. destruct c; rewrite !diff_fwd by exact Hg; reflexivity. }
    rewrite Q'. unfold r1, dh. destruct (HX c i j k Hg) as [X _]. rewrite X. unfold at_h. change (cf_dxf d) with (g_dx g). ring. }
  assert (H2 : forall c i j k, in_grid s i j k -> curl_fn (diff_fn s (cf_dxb d) true) dh c i j k = (- (Ci * RtoC k0 * eps_at s (cf_eps d) c i j k * de c i j k) + r2 c i j k)%C).
  { intros c i j k Hg. unfold dh. rewrite curl_fn_sub by exact Hg. pose proof (A c i j k Hg) as Q.
    assert (Q' : curl_fn (diff_fn s (cf_dxb d) true) h c i j k = (- (Ci * RtoC k0 * eps_at s eps c i j k * e c i j k) - Ci * at_e g J c i j k)%C).
    { rewrite <- Hs by exact Hg. etransitivity; [| exact Q]. unfold curl_fn, Spec_fdfd.curl_of. destruct c; rewrite !diff_bwd by exact Hg; reflexivity. }
    rewrite Q'. unfold r2, de. destruct (HX c i j k Hg) as [_ X]. rewrite X. unfold at_e. change (cf_dxb d) with (g_dx g). change (cf_eps d) with eps. fold s. ring. }
  pose proof (S2_bound d (width g) eq_refl eq_refl eq_refl Hk de dh r1 r2 H1 H2 sigma emax HL He HE) as B. change (cf_shape d) with s in B. change (cf_k0 d) with k0 in B.
  assert (N : forall z : C, Cn2 (- z)%C = Cn2 z) by (intro; unfold Cn2; cbn; ring).
  set (cells := 3 * INR (s AX * s AY * s AZ)) in *.
  assert (B1 : vpower2 s r1 <= cells * (2 * (tau * tau))) by (apply vpower2_le; intros; unfold r1; rewrite N; apply (trunc_e g M Dx W HM HD E DE FE dE); auto).
  assert (B2 : vpower2 s r2 <= cells * (2 * (tau * tau))) by (apply vpower2_le; intros; unfold r2; rewrite N; apply (trunc_h g M Dx W HM HD H DH FH dH); auto).
  assert (Cp : 0 < cells). { unfold cells. destruct W as (_ & P & _). apply Rmult_lt_0_compat; [lra |]. apply lt_0_INR. apply Nat.mul_pos_pos; [apply Nat.mul_pos_pos |]; apply P. }
  pose proof (proj1 HL) as Sp. set (K := 1 + (1 + emax) / sigma) in *. assert (Kp : 0 < K). { assert (0 <= (1 + emax) / sigma) by (apply Rmult_le_pos; [lra | left; apply Rinv_0_lt_compat; exact Sp]). unfold K. lra. }
  assert (Tp : 0 <= tau). { unfold tau. assert (0 <= Dx ^ 2) by (rewrite <- Rsqr_pow2; apply Rle_0_sqr). assert (0 <= M * Dx ^ 2) by (apply Rmult_le_pos; auto). lra. }
  unfold rms_gap. cbn [fst snd]. fold de dh s. fold cells.
  replace (K / (6 * k0) * (M * Dx ^ 2)) with (K * (2 * tau) / k0) by (unfold tau; field; lra).
  assert (Xp : 0 <= K * (2 * tau) / k0). { apply Rmult_le_pos; [| left; apply Rinv_0_lt_compat; lra]. apply Rmult_le_pos; lra. }
  rewrite <- (sqrt_square (K * (2 * tau) / k0)) by exact Xp. apply sqrt_le_1_alt.
  apply (Rmult_le_reg_l (k0 * k0 * cells)); [apply Rmult_lt_0_compat; [nra | exact Cp] |].
  replace (k0 * k0 * cells * ((vpower2 s de + vpower2 s dh) / cells)) with (k0 * k0 * (vpower2 s de + vpower2 s dh)) by (field; lra).
  replace (k0 * k0 * cells * (K * (2 * tau) / k0 * (K * (2 * tau) / k0))) with (K * K * (cells * (2 * (tau * tau)) + cells * (2 * (tau * tau)))) by (field; lra).
  eapply Rle_trans; [exact B |]. apply Rmult_le_compat_l; [nra | lra].
Qed.
