(** C96-C98: figures of merit and the Gaussian source. *)
From Coq Require Import Reals List Arith Lra Lia.
From Verif Require Import Cx Arr Model_metric Spec_metric Proof_metric Proof_metric2.
Import ListNotations.
Local Open Scope R_scope.

(** C96, full statement: among passive outputs (total power at most 1) the cost lies in [-1, 0] and is -1 exactly for the desired
    amplitudes, normalised, up to one global phase.  The bounds hold; the minimum is at the CONJUGATE of the desired amplitudes. *)
Theorem C96_fidelity_optimum : forall mi d, NoDup mi -> (forall e, In e d -> In (dkey_pair (fst e)) mi) ->
  (exists i, (i < length mi)%nat /\ desired mi d i <> C0) ->
  forall w x, 0 <= w < 1 -> total_power (length mi) x <= 1 -> (w = 0 \/ total_power (length mi) x <> 0) ->
  exists c, fidelity mi d w x = Some c /\ -1 <= c <= 0 /\
   (c = -1 <-> exists a, forall i, (i < length mi)%nat ->
      x i = (cis a * Cscal (/ sqrt (total_power (length mi) (desired mi d))) (Cconj (desired mi d i)))%C).
Proof. exact fidelity_opt. Qed.
Print Assumptions C96_fidelity_optimum.
(** Real weights: the claim as stated. *)
Theorem C96_real_weights_partial : forall mi d, NoDup mi -> (forall e, In e d -> In (dkey_pair (fst e)) mi) ->
  (exists i, (i < length mi)%nat /\ desired mi d i <> C0) -> (forall i, (i < length mi)%nat -> im (desired mi d i) = 0) ->
  forall w x, 0 <= w < 1 -> total_power (length mi) x <= 1 -> (w = 0 \/ total_power (length mi) x <> 0) ->
  exists c, fidelity mi d w x = Some c /\ -1 <= c <= 0 /\
   (c = -1 <-> exists a, forall i, (i < length mi)%nat ->
      x i = (cis a * Cscal (/ sqrt (total_power (length mi) (desired mi d))) (desired mi d i))%C).
Proof. exact fidelity_real. Qed.
Print Assumptions C96_real_weights_partial.
(** Complex weights: for the target (1, i) the desired outputs get the worst cost of all, their conjugate the best. *)
Theorem C96_complex_refuted : total_power 2 quad_x = 1 /\
  (forall i, (i < 2)%nat -> quad_x i = Cscal (/ sqrt (total_power 2 (desired quad_info quad_d))) (desired quad_info quad_d i)) /\
  fidelity quad_info quad_d 0 quad_x = Some 0 /\ fidelity quad_info quad_d 0 (fun i => Cconj (quad_x i)) = Some (-1).
Proof. exact quad_wrong. Qed.
Print Assumptions C96_complex_refuted.
(** Insertion weight 1: only the insertion counts. *)
Theorem C96_insertion_only : forall mi d s, fidelity_target mi d = Some s -> forall x, total_power (length mi) x <> 0 ->
  fidelity mi d 1 x = Some (- total_power (length mi) x).
Proof. exact fidelity_insertion. Qed.
Print Assumptions C96_insertion_only.
Example C96_nonvacuous : let mi := default_info [4; 7; 9]%nat in let d := [(DName 7, C1); (DPair 9 0, RtoC 2)] in
  NoDup mi /\ (forall e, In e d -> In (dkey_pair (fst e)) mi) /\ desired mi d 1%nat = C1 /\ desired mi d 2%nat = RtoC 2 /\ desired mi d 0%nat = C0 /\ C1 <> C0.
Proof.
  cbv zeta. split; [repeat constructor; cbn; intuition congruence |]. split; [intros e [<- | [<- | []]]; cbn; auto |].
  repeat split. intros E. apply (f_equal re) in E. cbn in E. lra.
Qed.

(** C97: splitter metrics and te_ratio are shares of the power. *)
Theorem C97_splitter_metrics : forall n a0 b0 b1 s, (a0 < n)%nat -> (b0 < n)%nat -> (b1 < n)%nat -> a0 <> b0 -> a0 <> b1 -> b0 <> b1 ->
  s b0 <> C0 \/ s b1 <> C0 ->
  exists m, splitter_metrics n a0 b0 b1 s = Some m /\ 0 <= m_reflectivity m <= 1 /\ m_reflectivity m + m_transmissivity m = 1 /\
    m_upper m = Cn2 (s b0) /\ m_lower m = Cn2 (s b1) /\ m_reflection m = Cn2 (s a0) /\
    m_reflectivity m * (m_upper m + m_lower m) = m_upper m /\ m_insertion m = total_power n s /\
    m_reflection m + m_upper m + m_lower m <= m_insertion m.
Proof. exact splitter_ok. Qed.
Print Assumptions C97_splitter_metrics.
Theorem C97_te_ratio : forall n hx hy, total_power n hx + total_power n hy <> 0 ->
  exists a b, te_ratio 2 n hx hy = Some a /\ te_ratio 2 n hy hx = Some b /\ 0 <= a <= 1 /\ a + b = 1 /\
   a * (total_power n hx + total_power n hy) = total_power n hx /\
   (forall r, r <> 0 -> te_ratio 2 n (fun i => Cscal r (hx i)) (fun i => Cscal r (hy i)) = Some a) /\
   (a = 1 <-> forall i, (i < n)%nat -> hy i = C0) /\ (a = 0 <-> forall i, (i < n)%nat -> hx i = C0).
Proof. exact te_ok. Qed.
Print Assumptions C97_te_ratio.
Example C97_nonvacuous : exists s : vec, s 1%nat <> C0 /\ total_power 3 s = 3.
Proof. exists (fun _ => C1). split; [intros E; apply (f_equal re) in E; cbn in E; lra | unfold total_power, Cn2; cbn; ring]. Qed.

(** C98, full statement: a pulse that is 0 up to start_time, peaks with modulus 1 at start_time + center_time_factor * w, is
    symmetric about its peak, has the carrier 2 pi / wavelength, and a width proportional to w.  All but the last hold. *)
Theorem C98_pulse_partial : forall wl w fw start factor chirp, 0 < w -> 0 < factor -> let t0 := start + w * factor in
  exists g, (forall t, gaussian_fn wl w fw start factor chirp t = Some (g t)) /\
   (forall t, t <= start -> g t = C0) /\
   (forall t, start < t -> g t = Cscal (exp (- (2 * PI / w * (t - t0) ^ 2))) (cis (2 * PI / wl * (t - t0) + chirp * (t - t0) ^ 2))) /\
   (forall t, Cabs (g t) <= 1) /\ (forall t, Cabs (g t) = 1 <-> t = t0) /\
   (forall t, start < t -> t < 2 * t0 - start -> Cabs (g (2 * t0 - t)) = Cabs (g t)).
Proof. exact gaussian_pulse. Qed.
Print Assumptions C98_pulse_partial.
(** Rescaling all lengths and times by c changes the shape: one width w off the peak the modulus is exp(-2 pi w). *)
Theorem C98_width_refuted : forall wl w c, 0 < w -> 0 < c -> c <> 1 ->
  let t0 := 5 * w in exists z z', gaussian_fn wl w None 0 5 0 (t0 + w) = Some z /\ gaussian_fn (c * wl) (c * w) None 0 5 0 (c * (t0 + w)) = Some z' /\ Cabs z <> Cabs z'.
Proof. exact gaussian_not_scaling. Qed.
Print Assumptions C98_width_refuted.
(** Consequence: a short pulse does not ramp up, it jumps on with at least exp(-50 pi w) of its peak. *)
Theorem C98_jump : forall wl w, 0 < w -> forall t, 0 < t -> t <= 5 * w -> exists z, gaussian_fn wl w None 0 5 0 t = Some z /\ exp (- (50 * PI * w)) <= Cabs z.
Proof. exact gaussian_jump. Qed.
Print Assumptions C98_jump.
