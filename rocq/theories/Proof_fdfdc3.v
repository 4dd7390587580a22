(** Proofs for C164 (3): the linear systems are the wave equations; existence and uniqueness; Maxwell's equations. *)
From Coq Require Import Reals List Arith ZArith Lra Lia Bool.
From Verif Require Import Cx Arr Model_coupling Model_yee Spec_yee Proof_yee Proof_yee2 Proof_yee3 Model_fdfd Spec_fdfd Spec_fdtd Proof_energy Proof_fdfd Proof_fdfd2 Proof_fdfd6
  Proof_gauss Spec_absorb Proof_absorb5 Model_fdfdc Spec_fdfdc Proof_fdfdc Proof_fdfdc2.
Local Open Scope R_scope.

Section D.
Variable d : cfdfd.
Let s := cf_shape d.
Let n := npix s.
Let k0 := cf_k0 d.
Lemma sub_eq : forall a b c : C, (a - b)%C = c <-> a = (b + c)%C.
Proof. intros a b c. split; intros H; [rewrite <- H; ring | rewrite H; ring]. Qed.
Lemma sys3 : forall (x : bvec) src, (forall c r, (r < n)%nat -> bmatvec n (mat3c d) x c r = (RtoC k0 * ravel s (src c) r)%C) <-> wave3 d src (fun c => unravel s (x c)).
Proof.
  intros x src. split.
  - intros H c i j k Hg. fold s in Hg. specialize (H c _ (ridx_bound _ _ _ _ Hg)). fold n in H. unfold n, s in H. rewrite mat3c_apply in H by exact Hg. fold s in H.
    pose proof Hg as (Hi & Hj & Hk). rewrite ravel_ridx in H by auto. apply sub_eq in H. exact H.
  - intros H c r Hr. destruct (ridx_inv s r Hr) as (i & j & k & Hg & ->). unfold n, s. rewrite mat3c_apply by exact Hg. fold s.
    pose proof Hg as (Hi & Hj & Hk). rewrite ravel_ridx by auto. apply sub_eq. exact (H c i j k Hg).
Qed.
Lemma sys_te : forall (x : vec) src, (forall r, (r < n)%nat -> matvec n (mat_ez_c d) x r = (RtoC k0 * ravel s src r)%C) <-> wave_te d src (unravel s x).
Proof.
  intros x src. split.
  - intros H i j k Hg. fold s in Hg. specialize (H _ (ridx_bound _ _ _ _ Hg)). unfold n, s in H. rewrite mat_ez_c_apply in H by exact Hg. fold s in H.
    pose proof Hg as (Hi & Hj & Hk). rewrite ravel_ridx in H by auto. apply sub_eq in H. exact H.
  - intros H r Hr. destruct (ridx_inv s r Hr) as (i & j & k & Hg & ->). unfold n, s. rewrite mat_ez_c_apply by exact Hg. fold s.
    pose proof Hg as (Hi & Hj & Hk). rewrite ravel_ridx by auto. apply sub_eq. exact (H i j k Hg).
Qed.
Lemma sys_tm : forall (x : vec) src, (forall r, (r < n)%nat -> matvec n (mat_hz_c d) x r = (RtoC k0 * ravel s src r)%C) <-> wave_tm d src (unravel s x).
Proof.
  intros x src. split.
  - intros H i j k Hg. fold s in Hg. specialize (H _ (ridx_bound _ _ _ _ Hg)). unfold n, s in H. rewrite mat_hz_c_apply in H by exact Hg. fold s in H.
    pose proof Hg as (Hi & Hj & Hk). rewrite ravel_ridx in H by auto. apply sub_eq in H. exact H.
  - intros H r Hr. destruct (ridx_inv s r Hr) as (i & j & k & Hg & ->). unfold n, s. rewrite mat_hz_c_apply by exact Hg. fold s.
    pose proof Hg as (Hi & Hj & Hk). rewrite ravel_ridx by auto. apply sub_eq. exact (H i j k Hg).
Qed.
Lemma exact3c_wave : forall solver src, exact3c d solver src <-> wave3 d src (fst (solve3c d solver src)).
Proof. intros solver src. apply (sys3 (solver (mat3c d) (rhs3c d src)) src). Qed.
Lemma exact_te_wave : forall solver src, exact2c d (mat_ez_c d) solver src <-> wave_te d src (fst (solve2_te_c d solver src) AZ).
Proof. intros solver src. apply (sys_te (solver (mat_ez_c d) (rhs2c d src)) src). Qed.
Lemma exact_tm_wave : forall solver src, exact2c d (mat_hz_c d) solver src <-> wave_tm d src (snd (solve2_tm_c d solver src) AZ).
Proof. intros solver src. apply (sys_tm (solver (mat_hz_c d) (rhs2c d src)) src). Qed.

(** ** Three blocks as one matrix. *)
Definition ax_of (p : nat) : axis := match p with O => AX | S O => AY | _ => AZ end.
Definition num_of (c : axis) : nat := match c with AX => 0 | AY => 1 | AZ => 2 end%nat.
Definition flat3 (M : axis -> axis -> mat) : mat := fun p q => M (ax_of (p / n)%nat) (ax_of (q / n)%nat) (p mod n)%nat (q mod n)%nat.
Definition block (y : vec) : bvec := fun c r => y (num_of c * n + r)%nat.
Lemma flat3_apply : forall M y c r, (r < n)%nat -> matvec (3 * n) (flat3 M) y (num_of c * n + r)%nat = bmatvec n M (block y) c r.
Proof.
  intros M y c r Hr. unfold matvec at 1. rewrite Csum_prod. cbn [Csum]. unfold bmatvec, block, flat3.
  destruct (divmod_pair n (num_of c) r Hr) as [E1 E2].
  assert (Q : forall b, Csum n (fun j => M (ax_of ((num_of c * n + r) / n)%nat) (ax_of ((num_of b * n + j) / n)%nat) ((num_of c * n + r) mod n)%nat ((num_of b * n + j) mod n)%nat * y (num_of b * n + j)%nat)%C =
     matvec n (M c b) (fun r => y (num_of b * n + r)%nat) r).
  { intros b. unfold matvec. apply Csum_ext. intros j Hj. destruct (divmod_pair n (num_of b) j Hj) as [E3 E4]. rewrite E1, E2, E3, E4.
    replace (ax_of (num_of c)) with c by (destruct c; reflexivity). replace (ax_of (num_of b)) with b by (destruct b; reflexivity). reflexivity. }
  pose proof (Q AX) as QX. pose proof (Q AY) as QY. pose proof (Q AZ) as QZ. cbn [num_of] in QX, QY, QZ. cbn [num_of]. rewrite <- QX, <- QY, <- QZ. ring.
Qed.
Lemma flat_idx : forall p, (p < 3 * n)%nat -> exists c r, (r < n)%nat /\ p = (num_of c * n + r)%nat.
Proof.
  intros p H. destruct (le_lt_dec n p); [destruct (le_lt_dec (2 * n) p) |].
  - exists AZ, (p - 2 * n)%nat. cbn [num_of]. lia.
  - exists AY, (p - n)%nat. cbn [num_of]. lia.
  - exists AX, p. cbn [num_of]. lia.
Qed.
Lemma block_onto : forall M (b : bvec), (forall x, (forall c r, (r < n)%nat -> bmatvec n M x c r = C0) -> forall c r, (r < n)%nat -> x c r = C0) ->
  exists x, forall c r, (r < n)%nat -> bmatvec n M x c r = b c r.
Proof.
  intros M b HI.
  assert (I : injective (3 * n) (flat3 M)).
  { intros y Hy p Hp. destruct (flat_idx p Hp) as (c & r & Hr & ->). apply (HI (block y)); auto.
    intros c' r' Hr'. rewrite <- flat3_apply by auto. apply Hy. destruct c'; cbn [num_of]; lia. }
  destruct (onto (3 * n) (flat3 M) (fun p => b (ax_of (p / n)%nat) (p mod n)%nat) I) as (y & Hy). exists (block y). intros c r Hr.
  rewrite <- flat3_apply by auto. rewrite Hy by (destruct c; cbn [num_of]; lia). destruct (divmod_pair n (num_of c) r Hr) as [E1 E2]. rewrite E1, E2. destruct c; reflexivity.
Qed.

(** ** Well-posedness. *)
Hypothesis Hp : plain_grid d.
Variable sigma : R.
Hypothesis Hl : lossy d sigma.
Lemma ksigma : 0 < k0 * sigma * (k0 * sigma).
Proof. destruct Hp as (_ & Hk). destruct Hl as (Hs & _). fold k0 in Hk. assert (0 < k0 * sigma) by (apply Rmult_lt_0_compat; auto). apply Rmult_lt_0_compat; auto. Qed.
Lemma power2_0 : power2 s (fun _ _ _ => C0) = 0.
Proof. unfold power2. transitivity (rgrid_sum s (fun i j k => 0 * 0)); [apply rgrid_sum_ext; intros; unfold Cn2; cbn [re im C0]; ring | rewrite rgrid_sum_scal; ring]. Qed.
Lemma le0 : forall a p, 0 < a -> a * p <= 0 -> p <= 0.
Proof. intros a p Ha H. apply Rmult_le_reg_l with a; auto. lra. Qed.
Lemma inj3 : forall x, (forall c r, (r < n)%nat -> bmatvec n (mat3c d) x c r = C0) -> forall c r, (r < n)%nat -> x c r = C0.
Proof.
  intros x H. assert (W : wave3 d zero_vfld (fun c => unravel s (x c))).
  { apply sys3. intros c r Hr. rewrite H by auto. unfold zero_vfld, ravel. ring. }
  destruct Hp as ((h & Hf & Hb) & Hk). pose proof (w3_bound d h Hf Hb Hk sigma _ _ Hl W) as B. fold s k0 in B.
  assert (E : vpower2 s zero_vfld = 0) by (unfold vpower2, sum3; change (zero_vfld AX) with (fun _ _ _ : nat => C0); change (zero_vfld AY) with (fun _ _ _ : nat => C0); change (zero_vfld AZ) with (fun _ _ _ : nat => C0); rewrite power2_0; ring).
  rewrite E in B. apply le0 in B; [| exact ksigma]. unfold vpower2, sum3 in B.
  pose proof (power2_nonneg s (unravel s (x AX))). pose proof (power2_nonneg s (unravel s (x AY))). pose proof (power2_nonneg s (unravel s (x AZ))).
  intros c r Hr. destruct (ridx_inv s r Hr) as (i & j & k & Hg & ->).
  assert (Z : power2 s (unravel s (x c)) <= 0) by (destruct c; lra). exact (power2_zero s _ Z i j k Hg).
Qed.
Lemma inj_te : injective n (mat_ez_c d).
Proof.
  intros x H. assert (W : wave_te d (fun _ _ _ => C0) (unravel s x)).
  { apply sys_te. intros r Hr. rewrite H by auto. unfold ravel. ring. }
  destruct Hp as ((h & Hf & Hb) & Hk). pose proof (te_bound d h Hf Hb Hk sigma _ _ Hl W) as B. fold s k0 in B.
  rewrite power2_0 in B. apply le0 in B; [| exact ksigma].
  intros r Hr. destruct (ridx_inv s r Hr) as (i & j & k & Hg & ->). exact (power2_zero s _ B i j k Hg).
Qed.
Variable kappa : R.
Hypothesis HK : forall i j k, in_grid s i j k -> Rabs (re (cf_eps d i j k)) <= kappa * Rabs (im (cf_eps d i j k)).
Lemma inj_tm : injective n (mat_hz_c d).
Proof.
  intros x H. assert (W : wave_tm d (fun _ _ _ => C0) (unravel s x)).
  { apply sys_tm. intros r Hr. rewrite H by auto. unfold ravel. ring. }
  destruct Hp as ((h & Hf & Hb) & Hk). pose proof (tm_bound d h Hf Hb sigma kappa _ _ Hl HK W) as B. fold s k0 in B.
  rewrite power2_0 in B. fold k0 in Hk. replace ((1 + kappa * kappa) * 0) with 0 in B by ring. apply le0 in B; [| apply Rmult_lt_0_compat; auto].
  intros r Hr. destruct (ridx_inv s r Hr) as (i & j & k & Hg & ->). exact (power2_zero s _ B i j k Hg).
Qed.
End D.
Lemma well_posed3 : forall d sigma src, plain_grid d -> lossy d sigma ->
  (exists solver, exact3c d solver src) /\
  forall solver, exact3c d solver src -> let e := fst (solve3c d solver src) in
    im (vinner (cf_shape d) src e) = - (cf_k0 d * sum3 (fun c => rgrid_sum (cf_shape d) (fun i j k => im (eps_at (cf_shape d) (cf_eps d) c i j k) * Cn2 (e c i j k)))) /\
    (cf_k0 d * sigma) * (cf_k0 d * sigma) * vpower2 (cf_shape d) e <= vpower2 (cf_shape d) src /\
    (forall solver', exact3c d solver' src -> forall c, same_on (cf_shape d) (fst (solve3c d solver' src) c) (e c)).
Proof.
  intros d sigma src Hp Hl. split.
  - destruct (block_onto d (mat3c d) (fun c r => RtoC (cf_k0 d) * ravel (cf_shape d) (src c) r)%C (inj3 d Hp sigma Hl)) as (x & Hx).
    exists (fun _ _ => x). exact Hx.
  - intros solver E e. pose proof (proj1 (exact3c_wave d solver src) E) as W. pose proof Hp as ((h & Hf & Hb) & Hk). split; [| split].
    + exact (w3_power d h Hf Hb Hk src e W).
    + exact (w3_bound d h Hf Hb Hk sigma src e Hl W).
    + intros solver' E' c i j k Hg. unfold e, solve3c, fst, unravel_f.
      set (y := solver' (mat3c d) (rhs3c d src)). set (x := solver (mat3c d) (rhs3c d src)).
      pose proof (inj3 d Hp sigma Hl (fun c r => y c r - x c r)%C) as I.
      assert (Z : (y c (ridx (cf_shape d) i j k) - x c (ridx (cf_shape d) i j k))%C = C0).
      { apply I; [| apply ridx_bound; exact Hg]. intros c' r Hr.
        transitivity (bmatvec (npix (cf_shape d)) (mat3c d) y c' r - bmatvec (npix (cf_shape d)) (mat3c d) x c' r)%C.
        - unfold bmatvec. assert (Q : forall M (u v : vec) r, matvec (npix (cf_shape d)) M (fun r => u r - v r)%C r = (matvec (npix (cf_shape d)) M u r - matvec (npix (cf_shape d)) M v r)%C).
          { intros. unfold matvec. rewrite <- Csum_sub. apply Csum_ext. intros; ring. }
          rewrite (Q _ (y AX)), (Q _ (y AY)), (Q _ (y AZ)). ring.
        - pose proof (E c' r Hr) as A1. pose proof (E' c' r Hr) as A2. fold (rhs3c d src) in A1, A2. fold x in A1. fold y in A2. rewrite A1, A2. ring. }
      apply sub_eq in Z. rewrite Z. ring.
Qed.
Lemma well_posed_te : forall d sigma src, plain_grid d -> lossy d sigma ->
  (exists solver, exact2c d (mat_ez_c d) solver src) /\
  forall solver, exact2c d (mat_ez_c d) solver src -> let e := fst (solve2_te_c d solver src) AZ in
    im (inner (cf_shape d) src e) = - (cf_k0 d * rgrid_sum (cf_shape d) (fun i j k => im (eps_at (cf_shape d) (cf_eps d) AZ i j k) * Cn2 (e i j k))) /\
    (cf_k0 d * sigma) * (cf_k0 d * sigma) * power2 (cf_shape d) e <= power2 (cf_shape d) src /\
    (forall solver', exact2c d (mat_ez_c d) solver' src -> same_on (cf_shape d) (fst (solve2_te_c d solver' src) AZ) e).
Proof.
  intros d sigma src Hp Hl. split.
  - destruct (onto _ _ (fun r => RtoC (cf_k0 d) * ravel (cf_shape d) src r)%C (inj_te d Hp sigma Hl)) as (x & Hx). exists (fun _ _ => x). exact Hx.
  - intros solver E e. pose proof (proj1 (exact_te_wave d solver src) E) as W. pose proof Hp as ((h & Hf & Hb) & Hk). split; [| split].
    + exact (te_power d h Hf Hb Hk src e W).
    + exact (te_bound d h Hf Hb Hk sigma src e Hl W).
    + intros solver' E' i j k Hg. exact (inj_unique _ _ _ _ _ (inj_te d Hp sigma Hl) E' E _ (ridx_bound _ _ _ _ Hg)).
Qed.
Lemma well_posed_tm : forall d sigma kappa src, plain_grid d -> lossy d sigma ->
  (forall i j k, in_grid (cf_shape d) i j k -> Rabs (re (cf_eps d i j k)) <= kappa * Rabs (im (cf_eps d i j k))) ->
  (exists solver, exact2c d (mat_hz_c d) solver src) /\
  forall solver, exact2c d (mat_hz_c d) solver src -> let h := snd (solve2_tm_c d solver src) AZ in
    cf_k0 d * cf_k0 d * power2 (cf_shape d) h <= (1 + kappa * kappa) * power2 (cf_shape d) src /\
    (forall solver', exact2c d (mat_hz_c d) solver' src -> same_on (cf_shape d) (snd (solve2_tm_c d solver' src) AZ) h).
Proof.
  intros d sigma kappa src Hp Hl HK. split.
  - destruct (onto _ _ (fun r => RtoC (cf_k0 d) * ravel (cf_shape d) src r)%C (inj_tm d Hp sigma Hl kappa HK)) as (x & Hx). exists (fun _ _ => x). exact Hx.
  - intros solver E e. pose proof (proj1 (exact_tm_wave d solver src) E) as W. pose proof Hp as ((h & Hf & Hb) & Hk). split.
    + exact (tm_bound d h Hf Hb sigma kappa src e Hl HK W).
    + intros solver' E' i j k Hg. exact (inj_unique _ _ _ _ _ (inj_tm d Hp sigma Hl kappa HK) E' E _ (ridx_bound _ _ _ _ Hg)).
Qed.
(** ** Maxwell's equations: the permittivity moved to the source of the equations without a material. *)
Lemma maxwell3 : forall d solver src, cf_bloch d = (fun _ => C1) -> cf_k0 d <> 0 -> exact3c d solver src ->
  let (e, h) := solve3c d solver src in
  faraday (cf_shape d) (cf_dxf d) (cf_k0 d) e h /\ ampere_c d e h src.
Proof.
  intros d solver src Hb Hk E. set (x := solver (mat3c d) (rhs3c d src)). set (e := fun c => unravel_f (cf_shape d) (x c)).
  set (src' := fun c i j k => (src c i j k + RtoC (cf_k0 d) * eps_at (cf_shape d) (cf_eps d) c i j k * e c i j k)%C : C).
  assert (X : exact3 (real0 d) (fun _ _ => x) src').
  { intros c r Hr. change (dn (real0 d)) with (npix (cf_shape d)) in *. change (d_shape (real0 d)) with (cf_shape d). cbn [d_k0 real0].
    pose proof (E c r Hr) as A. fold (rhs3c d src) in A. fold x in A.
    destruct (ridx_inv _ r Hr) as (i & j & k & Hg & ->). pose proof Hg as (Hi & Hj & Hk'). rewrite ravel_ridx by auto. rewrite ravel_ridx in A by auto.
    rewrite mat3c_apply in A by exact Hg. pose proof (mat3_apply (real0 d) x c i j k Hg) as B.
    change (dn (real0 d)) with (npix (cf_shape d)) in B. change (d_shape (real0 d)) with (cf_shape d) in B. cbn [d_k0 real0 d_dxb d_dxf d_bloch d_eps] in B.
    etransitivity; [exact B |]. apply sub_eq in A. unfold src'.
    change (curl_fn (fun f a => quot (cf_shape d) (cf_dxb d) (cf_bloch d) true a f) (curl_fn (fun f a => quot (cf_shape d) (cf_dxf d) (cf_bloch d) false a f) (fun a => unravel (cf_shape d) (x a))) c i j k)
      with (curl_of (dminus d) (curl_of (dplus d) (fun a => unravel (cf_shape d) (x a))) c i j k).
    rewrite A. change (e c i j k) with (x c (ridx (cf_shape d) i j k)). apply C_eq; cbn [re im RtoC Cadd Csub Cmul]; ring. }
  pose proof (solve3_maxwell (real0 d) (fun _ _ => x) src' Hb Hk X) as M. unfold solve3 in M. unfold solve3c. fold x e in M. fold x. fold e.
  change (d_shape (real0 d)) with (cf_shape d) in M. fold e in M. destruct M as [M1 M2]. split; [exact M1 |].
  intros c i j k Hg. etransitivity; [exact (M2 c i j k Hg) |]. cbn [d_k0 real0 d_eps]. unfold src'. apply C_eq; cbn [re im RtoC Cadd Csub Cmul Copp Ci]; ring.
Qed.
Lemma maxwell_te : forall d solver src, cf_bloch d = (fun _ => C1) -> cf_k0 d <> 0 -> cf_shape d AZ = 1%nat -> exact2c d (mat_ez_c d) solver src ->
  let (e, h) := solve2_te_c d solver src in
  faraday (cf_shape d) (cf_dxf d) (cf_k0 d) e h /\ ampere_c d e h (only_z src).
Proof.
  intros d solver src Hb Hk Hz E. set (x := solver (mat_ez_c d) (rhs2c d src)). set (e := unravel_f (cf_shape d) x).
  set (src' := fun i j k => (src i j k + RtoC (cf_k0 d) * eps_at (cf_shape d) (cf_eps d) AZ i j k * e i j k)%C : C).
  assert (X : exact2 (real0 d) (mat_ez (real0 d)) (fun _ _ => x) src').
  { intros r Hr. change (dn (real0 d)) with (npix (cf_shape d)) in *. change (d_shape (real0 d)) with (cf_shape d). cbn [d_k0 real0].
    pose proof (E r Hr) as A. fold (rhs2c d src) in A. fold x in A.
    destruct (ridx_inv _ r Hr) as (i & j & k & Hg & ->). pose proof Hg as (Hi & Hj & Hk'). rewrite ravel_ridx by auto. rewrite ravel_ridx in A by auto.
    rewrite mat_ez_c_apply in A by exact Hg. pose proof (mat_ez_apply (real0 d) x i j k Hg) as B.
    change (dn (real0 d)) with (npix (cf_shape d)) in B. change (d_shape (real0 d)) with (cf_shape d) in B. cbn [d_k0 real0 d_dxb d_dxf d_bloch d_eps] in B.
    etransitivity; [exact B |]. apply sub_eq in A. unfold src'. unfold quot.
    change (bwd_quot (cf_shape d) (cf_dxb d) (cf_bloch d) AX (fwd_quot (cf_shape d) (cf_dxf d) (cf_bloch d) AX (unravel (cf_shape d) x)) i j k) with (dminus d (dplus d (unravel (cf_shape d) x) AX) AX i j k).
    change (bwd_quot (cf_shape d) (cf_dxb d) (cf_bloch d) AY (fwd_quot (cf_shape d) (cf_dxf d) (cf_bloch d) AY (unravel (cf_shape d) x)) i j k) with (dminus d (dplus d (unravel (cf_shape d) x) AY) AY i j k).
    rewrite A. change (e i j k) with (x (ridx (cf_shape d) i j k)). apply C_eq; cbn [re im RtoC Cadd Csub Cmul]; ring. }
  pose proof (solve_te_maxwell (real0 d) (fun _ _ => x) src' Hb Hk Hz X) as M. unfold solve2_te in M. unfold solve2_te_c. fold x. fold e.
  change (d_shape (real0 d)) with (cf_shape d) in M. fold e in M. destruct M as [M1 M2]. split; [exact M1 |].
  intros c i j k Hg. etransitivity; [exact (M2 c i j k Hg) |]. cbn [d_k0 real0 d_eps]. destruct c; unfold only_z, src'; apply C_eq; cbn [re im RtoC Cadd Csub Cmul Copp Ci C0]; ring.
Qed.
