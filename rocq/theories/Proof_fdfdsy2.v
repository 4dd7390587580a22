(** Proofs for C166 (2): shifted and mirrored structures. *)
From Coq Require Import Reals List Arith ZArith Lra Lia Bool FunctionalExtensionality.
From Verif Require Import Cx Arr Model_coupling Model_yee Spec_yee Proof_yee Proof_yee2 Proof_yee3 Model_fdfd Spec_fdfd Spec_fdtd Proof_energy Proof_fdfd Proof_fdfd2 Proof_fdfd3 Proof_fdfd4
  Model_fdfdc Spec_fdfdc Proof_fdfdc Proof_fdfdc2 Proof_fdfdc3 Spec_fdfdst Proof_fdfdst Model_fdtd Spec_sym Proof_sym2 Spec_fdfdsy Proof_fdfdsy.
Local Open Scope R_scope.

Lemma fld_eq : forall f h : fld, (forall i j k, f i j k = h i j k) -> f = h.
Proof. intros f h H. repeat (apply functional_extensionality; intro). apply H. Qed.
Lemma vfld_eq : forall f h : vfld, (forall c i j k, f c i j k = h c i j k) -> f = h.
Proof. intros f h H. apply functional_extensionality; intro. apply fld_eq, H. Qed.
(** ** Uniqueness. *)
Section U.
Variable d : cfdfd.
Hypothesis Hp : plain_grid d.
Variable sigma : R.
Hypothesis Hl : lossy d sigma.
Lemma uniq3 : forall src e e', wave3 d src e -> wave3 d src e' -> same_v (cf_shape d) e e'.
Proof.
  intros src e e' W W'. pose proof (wave3_sub _ _ _ _ _ W W') as WD.
  assert (WZ : wave3 d zero_vfld (vsub e e')).
  { intros c i j k Hg. rewrite (WD c i j k Hg). unfold vsub, fsub, zero_vfld. ring. }
  destruct Hp as ((h & Hf & Hb) & Hk). pose proof (w3_bound d h Hf Hb Hk sigma _ _ Hl WZ) as B.
  assert (E : vpower2 (cf_shape d) zero_vfld = 0) by (unfold vpower2, sum3; change (zero_vfld AX) with (fun _ _ _ : nat => C0); change (zero_vfld AY) with (fun _ _ _ : nat => C0); change (zero_vfld AZ) with (fun _ _ _ : nat => C0); rewrite power2_0; ring).
  rewrite E in B. apply le0 in B; [| exact (ksigma d Hp sigma Hl)]. unfold vpower2, sum3 in B.
  pose proof (power2_nonneg (cf_shape d) (vsub e e' AX)). pose proof (power2_nonneg (cf_shape d) (vsub e e' AY)). pose proof (power2_nonneg (cf_shape d) (vsub e e' AZ)).
  intros c i j k Hg. assert (Z : power2 (cf_shape d) (vsub e e' c) <= 0) by (destruct c; lra). pose proof (power2_zero _ _ Z i j k Hg) as Q. unfold vsub, fsub in Q.
  replace (e c i j k) with (e c i j k - e' c i j k + e' c i j k)%C by ring. rewrite Q. ring.
Qed.
Lemma sub_zero : forall s (f g : fld), power2 s (fsub f g) <= 0 -> same_on s f g.
Proof.
  intros s f g Z i j k Hg. pose proof (power2_zero _ _ Z i j k Hg) as Q. unfold fsub in Q. replace (f i j k) with (f i j k - g i j k + g i j k)%C by ring. rewrite Q. ring.
Qed.
Lemma uniq_te : forall src e e', wave_te d src e -> wave_te d src e' -> same_on (cf_shape d) e e'.
Proof.
  intros src e e' W W'. pose proof (wave_te_sub _ _ _ _ _ W W') as WD.
  assert (WZ : wave_te d (fun _ _ _ => C0) (fsub e e')).
  { intros i j k Hg. rewrite (WD i j k Hg). unfold fsub. ring. }
  destruct Hp as ((h & Hf & Hb) & Hk). pose proof (te_bound d h Hf Hb Hk sigma _ _ Hl WZ) as B.
  rewrite power2_0 in B. apply le0 in B; [| exact (ksigma d Hp sigma Hl)]. apply sub_zero, B.
Qed.
Lemma some_kappa : exists kappa, forall i j k, in_grid (cf_shape d) i j k -> Rabs (re (cf_eps d i j k)) <= kappa * Rabs (im (cf_eps d i j k)).
Proof.
  destruct Hl as (Hs & HL).
  exists (rgrid_sum (cf_shape d) (fun i j k => Cn2 (RtoC (sqrt (Rabs (re (cf_eps d i j k)))))) / sigma). intros i j k Hg.
  pose proof (power2_term (cf_shape d) (fun i j k => RtoC (sqrt (Rabs (re (cf_eps d i j k))))) i j k Hg) as P. unfold power2 in P. cbv beta in P.
  set (T := rgrid_sum (cf_shape d) (fun i j k => Cn2 (RtoC (sqrt (Rabs (re (cf_eps d i j k))))))) in *.
  assert (Q : Cn2 (RtoC (sqrt (Rabs (re (cf_eps d i j k))))) = Rabs (re (cf_eps d i j k))).
  { unfold Cn2. cbn [re im RtoC]. rewrite sqrt_sqrt by apply Rabs_pos. ring. }
  rewrite Q in P. assert (S1 : sigma <= Rabs (im (cf_eps d i j k))).
  { destruct HL as [HL | HL]; specialize (HL i j k Hg); [rewrite Rabs_pos_eq | rewrite Rabs_left]; lra. }
  pose proof (Rabs_pos (re (cf_eps d i j k))). apply Rle_trans with T; [exact P |].
  apply Rmult_le_reg_r with sigma; [exact Hs |]. replace (T / sigma * Rabs (im (cf_eps d i j k)) * sigma) with (T * Rabs (im (cf_eps d i j k))) by (field; lra).
  apply Rmult_le_compat_l; lra.
Qed.
Lemma uniq_tm : forall src e e', wave_tm d src e -> wave_tm d src e' -> same_on (cf_shape d) e e'.
Proof.
  intros src e e' W W'. pose proof (wave_tm_sub _ _ _ _ _ W W') as WD.
  assert (WZ : wave_tm d (fun _ _ _ => C0) (fsub e e')).
  { intros i j k Hg. rewrite (WD i j k Hg). unfold fsub. ring. }
  destruct some_kappa as (kappa & HK).
  destruct Hp as ((h & Hf & Hb) & Hk). pose proof (tm_bound d h Hf Hb sigma kappa _ _ Hl HK WZ) as B.
  rewrite power2_0 in B. replace ((1 + kappa * kappa) * 0) with 0 in B by ring. apply le0 in B; [| apply Rmult_lt_0_compat; exact Hk]. apply sub_zero, B.
Qed.
End U.
(** ** Shifts. *)
Section Move.
Variables (s : shape3) (a : axis) (m : nat).
Hypothesis Hs : positive_shape s.
Lemma moved_avg_c : forall b p i j k, avg_c s b (moved s a m p) i j k = moved s a m (avg_c s b p) i j k.
Proof.
  intros. pose proof (Hs a) as Ha. unfold avg_c, roll_p1, along, moved, through, pick, coord.
  destruct a, b; try reflexivity; rewrite ?prv_move by auto; reflexivity.
Qed.
Lemma moved_eps_c : forall p c, yee_avg_c s (moved s a m p) c = moved s a m (yee_avg_c s p c).
Proof.
  intros. apply fld_eq. intros i j k. unfold yee_avg_c. destruct c; try apply moved_avg_c.
  rewrite (fld_eq (avg_c s AX (moved s a m p)) (moved s a m (avg_c s AX p))) by (intros; apply moved_avg_c). apply moved_avg_c.
Qed.
Lemma moved_in : forall i j k, in_grid s i j k -> in_grid s (match a with AX => (i + m) mod s AX | _ => i end)%nat (match a with AY => (j + m) mod s AY | _ => j end)%nat (match a with AZ => (k + m) mod s AZ | _ => k end)%nat.
Proof.
  intros i j k (Hi & Hj & Hk). pose proof (Hs AX). pose proof (Hs AY). pose proof (Hs AZ). unfold in_grid. destruct a; (split; [| split]); auto; apply Nat.mod_upper_bound; lia.
Qed.
Lemma moved_at : forall (f : fld) i j k, moved s a m f i j k =
  f (match a with AX => (i + m) mod s AX | _ => i end)%nat (match a with AY => (j + m) mod s AY | _ => j end)%nat (match a with AZ => (k + m) mod s AZ | _ => k end)%nat.
Proof. intros. unfold moved, through, pick, coord. destruct a; reflexivity. Qed.
Lemma moved_cc : forall h e, curl_fn (diff_fn s (uniform_dx h) true) (curl_fn (diff_fn s (uniform_dx h) false) (moved_v s a m e)) =
  moved_v s a m (curl_fn (diff_fn s (uniform_dx h) true) (curl_fn (diff_fn s (uniform_dx h) false) e)).
Proof.
  intros. rewrite (vfld_eq (curl_fn (diff_fn s (uniform_dx h) false) (moved_v s a m e)) (moved_v s a m (curl_fn (diff_fn s (uniform_dx h) false) e))) by (intros; apply moved_curl; auto).
  apply vfld_eq. intros. apply moved_curl; auto.
Qed.
Lemma moved_dd : forall h (t u : fld) b, diff_fn s (uniform_dx h) true (fun i j k => moved s a m t i j k * diff_fn s (uniform_dx h) false (moved s a m u) b i j k)%C b =
  moved s a m (diff_fn s (uniform_dx h) true (fun i j k => t i j k * diff_fn s (uniform_dx h) false u b i j k)%C b).
Proof.
  intros. rewrite (fld_eq (fun i j k => moved s a m t i j k * diff_fn s (uniform_dx h) false (moved s a m u) b i j k)%C
     (moved s a m (fun i j k => t i j k * diff_fn s (uniform_dx h) false u b i j k)%C)) by (intros; rewrite moved_diff by auto; rewrite !moved_at; reflexivity).
  apply fld_eq. intros. apply moved_diff; auto.
Qed.
End Move.
Lemma in_pos : forall s i j k, in_grid s i j k -> positive_shape s.
Proof. intros s i j k (Hi & Hj & Hk) c. destruct c; lia. Qed.
Section Shift.
Variable d : cfdfd.
Hypothesis Hp : plain_grid d.
Hypothesis Hb : cf_bloch d = (fun _ => C1).
Variables (a : axis) (m : nat).
Let d' := moved_cf a m d.
Lemma plain' : plain_grid d'.
Proof. destruct Hp as ((h & Hf & Hbb) & Hk). split; [exists h; split; auto | exact Hk]. Qed.
Lemma lossy' : forall sigma, lossy d sigma -> lossy d' sigma.
Proof.
  intros sigma (Hs & HL). split; [exact Hs |]. destruct HL as [HL | HL]; [left | right]; intros i j k Hg; change (cf_eps d') with (moved (cf_shape d) a m (cf_eps d));
    rewrite moved_at; apply HL; apply moved_in; auto; eapply in_pos; exact Hg.
Qed.
Lemma shift_wave3 : forall src e, wave3 d src e -> wave3 d' (moved_v (cf_shape d) a m src) (moved_v (cf_shape d) a m e).
Proof.
  intros src e W. pose proof (proj1 (wave3_fn d Hb src e) W) as W1. apply (proj2 (wave3_fn d' Hb _ _)). intros c i j k Hg. pose proof (in_pos _ _ _ _ Hg) as Hs.
  destruct Hp as ((h & Hf & Hbb) & Hk). unfold cop3, cf_eps_t in *. cbn [d' moved_cf with_eps cf_shape cf_dxf cf_dxb cf_k0 cf_eps] in *. rewrite Hf, Hbb in *.
  rewrite moved_cc, moved_eps_c by auto. unfold moved_v. rewrite !moved_at. apply W1. apply moved_in; auto.
Qed.
Lemma shift_te : forall src e, wave_te d src e -> wave_te d' (moved (cf_shape d) a m src) (moved (cf_shape d) a m e).
Proof.
  intros src e W. pose proof (proj1 (wave_te_fn d Hb src e) W) as W1. apply (proj2 (wave_te_fn d' Hb _ _)). intros i j k Hg. pose proof (in_pos _ _ _ _ Hg) as Hs.
  destruct Hp as ((h & Hf & Hbb) & Hk). unfold cop2, cf_eps_t in *. cbn [d' moved_cf with_eps cf_shape cf_dxf cf_dxb cf_k0 cf_eps] in *. rewrite Hf, Hbb in *.
  replace (fun _ _ _ : nat => C1) with (moved (cf_shape d) a m (fun _ _ _ : nat => C1)) by (apply fld_eq; intros; apply moved_at).
  pose proof (moved_dd (cf_shape d) a m Hs h (fun _ _ _ => C1) e AX) as EX. pose proof (moved_dd (cf_shape d) a m Hs h (fun _ _ _ => C1) e AY) as EY.
  assert (E1 : forall i j k, moved (cf_shape d) a m (fun _ _ _ : nat => C1) i j k = C1) by (intros; apply moved_at).
  rewrite (fld_eq (fun i j k => C1 * diff_fn (cf_shape d) (uniform_dx h) false (moved (cf_shape d) a m e) AX i j k)%C (fun i j k => moved (cf_shape d) a m (fun _ _ _ : nat => C1) i j k * diff_fn (cf_shape d) (uniform_dx h) false (moved (cf_shape d) a m e) AX i j k)%C) by (intros; rewrite E1; reflexivity).
  rewrite (fld_eq (fun i j k => C1 * diff_fn (cf_shape d) (uniform_dx h) false (moved (cf_shape d) a m e) AY i j k)%C (fun i j k => moved (cf_shape d) a m (fun _ _ _ : nat => C1) i j k * diff_fn (cf_shape d) (uniform_dx h) false (moved (cf_shape d) a m e) AY i j k)%C) by (intros; rewrite E1; reflexivity).
  rewrite EX, EY, moved_eps_c by auto. rewrite !moved_at. apply W1. apply moved_in; auto.
Qed.
Lemma shift_tm : forall src e, wave_tm d src e -> wave_tm d' (moved (cf_shape d) a m src) (moved (cf_shape d) a m e).
Proof.
  intros src e W. pose proof (proj1 (wave_tm_fn d Hb src e) W) as W1. apply (proj2 (wave_tm_fn d' Hb _ _)). intros i j k Hg. pose proof (in_pos _ _ _ _ Hg) as Hs.
  destruct Hp as ((h & Hf & Hbb) & Hk). unfold cop2, cf_eps_t in *. cbn [d' moved_cf with_eps cf_shape cf_dxf cf_dxb cf_k0 cf_eps] in *. rewrite Hf, Hbb in *.
  rewrite !moved_eps_c by auto.
  pose proof (moved_dd (cf_shape d) a m Hs h (fun i j k => C1 / yee_avg_c (cf_shape d) (cf_eps d) AY i j k)%C e AX) as EX.
  pose proof (moved_dd (cf_shape d) a m Hs h (fun i j k => C1 / yee_avg_c (cf_shape d) (cf_eps d) AX i j k)%C e AY) as EY.
  assert (E1 : forall c, moved (cf_shape d) a m (fun i j k => C1 / yee_avg_c (cf_shape d) (cf_eps d) c i j k)%C = (fun i j k => C1 / moved (cf_shape d) a m (yee_avg_c (cf_shape d) (cf_eps d) c) i j k)%C)
    by (intros; apply fld_eq; intros; rewrite !moved_at; reflexivity).
  rewrite E1 in EX, EY. rewrite EX, EY. rewrite !moved_at. apply W1. apply moved_in; auto.
Qed.
End Shift.
(** The magnetic (electric) field follows the solved one. *)
Lemma curl_same : forall s dx o u v, same_v s u v -> same_v s (curl_fn (diff_fn s dx o) u) (curl_fn (diff_fn s dx o) v).
Proof. intros s dx o u v H c i j k Hg. apply curl_ext; [intros c2 x y z; exact (H c2 x y z) | exact Hg]. Qed.
Lemma shift3 : forall d sigma a m solver solver' src, plain_grid d -> lossy d sigma -> cf_bloch d = (fun _ => C1) ->
  exact3c d solver src -> exact3c (moved_cf a m d) solver' (moved_v (cf_shape d) a m src) ->
  let (e, h) := solve3c d solver src in let (e', h') := solve3c (moved_cf a m d) solver' (moved_v (cf_shape d) a m src) in
  same_v (cf_shape d) e' (moved_v (cf_shape d) a m e) /\ same_v (cf_shape d) h' (moved_v (cf_shape d) a m h).
Proof.
  intros d sigma a m solver solver' src Hp Hl Hb H H'. apply exact3c_wave in H. apply exact3c_wave in H'. apply (shift_wave3 d Hp Hb a m) in H.
  pose proof (uniq3 (moved_cf a m d) (plain' d Hp a m) sigma (lossy' d a m sigma Hl) _ _ _ H' H) as U.
  unfold solve3c in *. cbn [fst] in *. split; [exact U |]. intros c i j k Hg. pose proof (in_pos _ _ _ _ Hg) as Hs.
  destruct Hp as ((h & Hf & Hbb) & Hk). cbn [moved_cf with_eps cf_shape cf_dxf cf_k0 cik0] in *.
  unfold cik0 in *. cbn [moved_cf with_eps cf_shape cf_dxf cf_k0 cik0] in *. rewrite (curl_same _ _ _ _ _ U c i j k Hg). rewrite Hf. rewrite moved_curl by auto.
  unfold moved_v. rewrite !moved_at. reflexivity.
Qed.
Lemma diff_same : forall s dx o u v b, same_on s u v -> same_on s (diff_fn s dx o u b) (diff_fn s dx o v b).
Proof. intros s dx o u v b H i j k Hg. apply diff_ext; auto. Qed.
Lemma shift_te_all : forall d sigma a m solver solver' src, plain_grid d -> lossy d sigma -> cf_bloch d = (fun _ => C1) ->
  exact2c d (mat_ez_c d) solver src -> exact2c (moved_cf a m d) (mat_ez_c (moved_cf a m d)) solver' (moved (cf_shape d) a m src) ->
  let (e, h) := solve2_te_c d solver src in let (e', h') := solve2_te_c (moved_cf a m d) solver' (moved (cf_shape d) a m src) in
  same_v (cf_shape d) e' (moved_v (cf_shape d) a m e) /\ same_v (cf_shape d) h' (moved_v (cf_shape d) a m h).
Proof.
  intros d sigma a m solver solver' src Hp Hl Hb H H'. apply exact_te_wave in H. apply exact_te_wave in H'. apply (shift_te d Hp Hb a m) in H.
  pose proof (uniq_te (moved_cf a m d) (plain' d Hp a m) sigma (lossy' d a m sigma Hl) _ _ _ H' H) as U.
  unfold solve2_te_c in *. cbn [fst only_z] in *. destruct Hp as ((h & Hf & Hbb) & Hk).
  split; intros c i j k Hg; pose proof (in_pos _ _ _ _ Hg) as Hs.
  - destruct c; cbn [only_z]; unfold moved_v; rewrite ?moved_at; cbn [only_z]; try reflexivity. rewrite (U i j k Hg), moved_at. reflexivity.
  - unfold moved_v, cik0. rewrite !moved_at. cbn [moved_cf with_eps cf_shape cf_dxf cf_k0] in *.
    destruct c; try reflexivity; rewrite (diff_same _ _ _ _ _ _ U i j k Hg); rewrite Hf; rewrite moved_diff, !moved_at by auto; reflexivity.
Qed.
Lemma shift_tm_all : forall d sigma a m solver solver' src, plain_grid d -> lossy d sigma -> cf_bloch d = (fun _ => C1) ->
  exact2c d (mat_hz_c d) solver src -> exact2c (moved_cf a m d) (mat_hz_c (moved_cf a m d)) solver' (moved (cf_shape d) a m src) ->
  let (e, h) := solve2_tm_c d solver src in let (e', h') := solve2_tm_c (moved_cf a m d) solver' (moved (cf_shape d) a m src) in
  same_v (cf_shape d) e' (moved_v (cf_shape d) a m e) /\ same_v (cf_shape d) h' (moved_v (cf_shape d) a m h).
Proof.
  intros d sigma a m solver solver' src Hp Hl Hb H H'. apply exact_tm_wave in H. apply exact_tm_wave in H'. apply (shift_tm d Hp Hb a m) in H.
  pose proof (uniq_tm (moved_cf a m d) (plain' d Hp a m) sigma (lossy' d a m sigma Hl) _ _ _ H' H) as U.
  unfold solve2_tm_c in *. cbn [snd only_z] in *. destruct Hp as ((h & Hf & Hbb) & Hk).
  split; intros c i j k Hg; pose proof (in_pos _ _ _ _ Hg) as Hs.
  - unfold moved_v, cik0, cf_eps_t. rewrite !moved_at. cbn [moved_cf with_eps cf_shape cf_dxb cf_k0 cf_eps] in *. rewrite !moved_eps_c by auto. rewrite !moved_at.
    destruct c; try reflexivity; rewrite (diff_same _ _ _ _ _ _ U i j k Hg); rewrite Hbb; rewrite moved_diff, !moved_at by auto; reflexivity.
  - destruct c; cbn [only_z]; unfold moved_v; rewrite ?moved_at; cbn [only_z]; try reflexivity. rewrite (U i j k Hg), moved_at. reflexivity.
Qed.
