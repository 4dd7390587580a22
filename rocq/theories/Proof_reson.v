(** Proofs for C179 (1): the discrete Fourier transform of fields with Bloch phases. *)
From Coq Require Import Reals Lra Lia List Arith ZArith Bool.
From Verif Require Import Cx Arr Model_coupling Model_yee Spec_yee Proof_yee Proof_yee2 Model_fdfd Spec_fdfd Spec_fdtd Spec_disp Proof_pulse Proof_energy Proof_nbasis4 Model_fdfdc Spec_fdfdc Proof_fdfdc Proof_fdfdc2 Proof_disp2.
Local Open Scope R_scope.

Section One.
Variables (n : nat) (phi : R).
Hypothesis Hn : (0 < n)%nat.
Definition angle (p : nat) : R := (2 * PI * INR p + phi) / INR n.
Definition hat (v : nat -> C) (p : nat) : C := Csum n (fun i => v i * Cconj (cis (angle p * INR i)))%C.
Lemma n_nz : INR n <> 0. Proof. apply not_0_INR. lia. Qed.
Lemma angle_fits : forall p, cis (angle p * INR n) = cis phi.
Proof.
  intro p. unfold angle. replace ((2 * PI * INR p + phi) / INR n * INR n) with (phi + 2 * PI * IZR (Z.of_nat p)); [apply cis_period |].
  rewrite <- INR_IZR_INZ. field. exact n_nz.
Qed.
Lemma angle_pair : forall p i j, (Cconj (cis (angle p * INR i)) * cis (angle p * INR j))%C = (cis (phi / INR n * (INR j - INR i)) * rt n (Z.of_nat p * (Z.of_nat j - Z.of_nat i)))%C.
Proof.
  intros p i j. unfold rt. rewrite <- cis_opp, <- !cis_add. f_equal. rewrite mult_IZR, minus_IZR, <- !INR_IZR_INZ. unfold angle. field. exact n_nz.
Qed.
Lemma angle_ortho : forall i j, (i < n)%nat -> (j < n)%nat ->
  Csum n (fun p => Cconj (cis (angle p * INR i)) * cis (angle p * INR j))%C = if Nat.eqb i j then RtoC (INR n) else C0.
Proof.
  intros i j Hi Hj. rewrite (Csum_ext n _ (fun p => cis (phi / INR n * (INR j - INR i)) * rt n (Z.of_nat p * (Z.of_nat j - Z.of_nat i)))%C) by (intros; apply angle_pair).
  rewrite Csum_scal. destruct (Nat.eqb_spec i j) as [-> | E].
  - rewrite ortho1 by (auto; rewrite Z.sub_diag; apply Z.mod_0_l; lia). replace (phi / INR n * (INR j - INR j)) with 0 by ring. rewrite cis_0. ring.
  - rewrite ortho0; auto; [ring |]. intro H. apply E. symmetry. apply (mod_diff n); auto.
Qed.
Lemma hat_sq : forall v p, RtoC (Cn2 (hat v p)) = Csum n (fun i => Csum n (fun j => v i * Cconj (v j) * (Cconj (cis (angle p * INR i)) * cis (angle p * INR j)))%C).
Proof.
  intros v p. rewrite <- Cmul_conj. unfold hat at 2. rewrite Csum_conj, <- Csum_scal. unfold hat.
  rewrite Csum_swap. apply Csum_ext. intros j Hj. rewrite <- Csum_scal_r. apply Csum_ext. intros i Hi. rewrite Cconj_mul, Cconj_conj. ring.
Qed.
Lemma parseval1 : forall v, Rsum n (fun p => Cn2 (hat v p)) = INR n * Rsum n (fun i => Cn2 (v i)).
Proof.
  intro v. assert (E : RtoC (Rsum n (fun p => Cn2 (hat v p))) = RtoC (INR n * Rsum n (fun i => Cn2 (v i)))); [| apply (f_equal re) in E; exact E].
  rewrite Csum_RtoC, RtoC_mul, Csum_RtoC, <- Csum_scal.
  rewrite (Csum_ext n _ (fun p => Csum n (fun i => Csum n (fun j => v i * Cconj (v j) * (Cconj (cis (angle p * INR i)) * cis (angle p * INR j)))%C))) by (intros; apply hat_sq).
  rewrite Csum_swap. apply Csum_ext. intros i Hi. rewrite Csum_swap.
  rewrite (Csum_single n _ i Hi).
  - rewrite Csum_scal, angle_ortho, Nat.eqb_refl, Cmul_conj by auto. ring.
  - intros j Hj E. rewrite Csum_scal, angle_ortho by auto. destruct (Nat.eqb_spec i j); [congruence | ring].
Qed.
End One.

Section Three.
Variable s : shape3.
Hypothesis Hs : positive_shape s.
Variable phi : axis -> R.
Definition mode_th (p q r : nat) (a : axis) : R := match a with AX => angle (s AX) (phi AX) p | AY => angle (s AY) (phi AY) q | AZ => angle (s AZ) (phi AZ) r end.
Lemma mode_fits : forall bl, (forall a, bl a = cis (phi a)) -> forall p q r, fits s bl (mode_th p q r).
Proof. intros bl H p q r a. rewrite H. destruct a; cbn [mode_th]; apply angle_fits; apply Hs. Qed.
Definition hat3 (f : fld) (p q r : nat) : C := inner s f (bloch_wave (mode_th p q r)).
Lemma hat3_nest : forall f p q r, hat3 f p q r =
  hat (s AX) (phi AX) (fun i => hat (s AY) (phi AY) (fun j => hat (s AZ) (phi AZ) (fun k => f i j k) r) q) p.
Proof.
  intros f p q r. unfold hat3, inner, grid_sum, hat. apply Csum_ext. intros i Hi. rewrite <- Csum_scal_r. apply Csum_ext. intros j Hj.
  rewrite <- !Csum_scal_r. apply Csum_ext. intros k Hk. unfold bloch_wave. cbn [mode_th]. rewrite !cis_add, !Cconj_mul. ring.
Qed.
Lemma parseval3 : forall f, rgrid_sum s (fun p q r => Cn2 (hat3 f p q r)) = INR (s AX) * (INR (s AY) * (INR (s AZ) * power2 s f)).
Proof.
  intros f. unfold rgrid_sum, power2, rgrid_sum.
  set (Z := fun i j r => hat (s AZ) (phi AZ) (fun k => f i j k) r). set (Y := fun i q r => hat (s AY) (phi AY) (fun j => Z i j r) q).
  transitivity (Rsum (s AY) (fun q => Rsum (s AZ) (fun r => Rsum (s AX) (fun p => Cn2 (hat (s AX) (phi AX) (fun i => Y i q r) p))))).
  { rewrite Rsum_swap. apply Rsum_ext. intros q Hq. rewrite Rsum_swap. apply Rsum_ext. intros r Hr. apply Rsum_ext. intros p Hp. rewrite hat3_nest. reflexivity. }
  transitivity (Rsum (s AY) (fun q => Rsum (s AZ) (fun r => INR (s AX) * Rsum (s AX) (fun i => Cn2 (Y i q r))))).
  { apply Rsum_ext. intros q Hq. apply Rsum_ext. intros r Hr. apply parseval1. apply Hs. }
  transitivity (INR (s AX) * Rsum (s AX) (fun i => Rsum (s AZ) (fun r => Rsum (s AY) (fun q => Cn2 (Y i q r))))).
  { rewrite Rsum_swap. rewrite (Rsum_ext (s AZ) _ (fun r => INR (s AX) * Rsum (s AX) (fun i => Rsum (s AY) (fun q => Cn2 (Y i q r))))).
    - rewrite Rsum_scal. f_equal. rewrite Rsum_swap. reflexivity.
    - intros r Hr. rewrite Rsum_scal. f_equal. apply Rsum_swap. }
  f_equal. rewrite <- !Rsum_scal. apply Rsum_ext. intros i Hi.
  transitivity (Rsum (s AZ) (fun r => INR (s AY) * Rsum (s AY) (fun j => Cn2 (Z i j r)))).
  { apply Rsum_ext. intros r Hr. apply parseval1. apply Hs. }
  rewrite Rsum_scal, Rsum_swap. f_equal. rewrite <- !Rsum_scal. apply Rsum_ext. intros j Hj. apply parseval1. apply Hs.
Qed.
(** A field is bounded by another when all its modes are. *)
Lemma modes_bound : forall x y f g, (forall p q r, x * Cn2 (hat3 f p q r) <= y * Cn2 (hat3 g p q r)) -> x * power2 s f <= y * power2 s g.
Proof.
  intros x y f g H. pose proof (parseval3 f) as F. pose proof (parseval3 g) as G.
  assert (L : x * rgrid_sum s (fun p q r => Cn2 (hat3 f p q r)) <= y * rgrid_sum s (fun p q r => Cn2 (hat3 g p q r))).
  { rewrite <- !rgrid_sum_scal. apply rgrid_sum_le. intros; apply H. }
  rewrite F, G in L. pose proof (lt_0_INR _ (Hs AX)) as X. pose proof (lt_0_INR _ (Hs AY)) as Y. pose proof (lt_0_INR _ (Hs AZ)) as Z.
  apply Rmult_le_reg_l with (INR (s AZ)); auto. apply Rmult_le_reg_l with (INR (s AY)); auto. apply Rmult_le_reg_l with (INR (s AX)); auto. lra.
Qed.
Lemma modes_zero : forall f, (forall p q r, hat3 f p q r = C0) -> same_on s f (fun _ _ _ => C0).
Proof.
  intros f H. apply power2_zero. pose proof (modes_bound 1 0 f f) as B. rewrite Rmult_1_l, Rmult_0_l in B. apply B.
  intros p q r. rewrite H. unfold Cn2. cbn [re im C0]. lra.
Qed.
Lemma modes_vbound : forall x y (f g : vfld), (forall p q r, x * sum3 (fun c => Cn2 (hat3 (f c) p q r)) <= y * sum3 (fun c => Cn2 (hat3 (g c) p q r))) ->
  x * vpower2 s f <= y * vpower2 s g.
Proof.
  intros x y f g H. unfold vpower2.
  assert (P : forall h : vfld, sum3 (fun c => rgrid_sum s (fun p q r => Cn2 (hat3 (h c) p q r))) = INR (s AX) * (INR (s AY) * (INR (s AZ) * sum3 (fun c => power2 s (h c))))).
  { intro h. unfold sum3. rewrite !parseval3. ring. }
  assert (L : x * sum3 (fun c => rgrid_sum s (fun p q r => Cn2 (hat3 (f c) p q r))) <= y * sum3 (fun c => rgrid_sum s (fun p q r => Cn2 (hat3 (g c) p q r)))).
  { unfold sum3. rewrite <- !rgrid_sum_add, <- !rgrid_sum_scal. apply rgrid_sum_le. intros; apply H. }
  rewrite (P f), (P g) in L. pose proof (lt_0_INR _ (Hs AX)) as X. pose proof (lt_0_INR _ (Hs AY)) as Y. pose proof (lt_0_INR _ (Hs AZ)) as Z.
  apply Rmult_le_reg_l with (INR (s AZ)); auto. apply Rmult_le_reg_l with (INR (s AY)); auto. apply Rmult_le_reg_l with (INR (s AX)); auto. lra.
Qed.
End Three.
