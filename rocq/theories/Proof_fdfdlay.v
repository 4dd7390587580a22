(** Proofs for C167 (1): a line with layers and materials of the layers' sign. *)
From Coq Require Import Reals Lra Lia List Arith Bool.
From Verif Require Import Cx Arr Model_coupling Model_yee Spec_yee Proof_yee Proof_yee2 Model_fdfd Spec_fdfd Proof_scpml Proof_fdfd Proof_fdfd2 Proof_fdfd4
  Spec_absorb Proof_absorb Proof_absorb2 Proof_absorb3 Proof_absorb5 Proof_gauss Model_fdfdc Spec_fdfdc Proof_fdfdc Proof_fdfdc2 Proof_fdfdc3 Proof_fdfdsy Spec_fdfdlay.
Local Open Scope R_scope.

(** The real simulation with the same pixels. *)
Definition companion (d : cfdfd) : fdfd := mkFdfd (cf_shape d) (cf_dxf d) (cf_dxb d) (cf_bloch d) (cf_k0 d) (fun _ _ _ _ => 1).
Lemma companion_ok : forall d n t p lr pe w, layered d n t p lr pe w -> line_with_layers (companion d) n t p lr pe w.
Proof. intros d n t p lr pe w (A & B & C & D & E & F & G & H & I & J & K). unfold line_with_layers, companion; cbn. repeat split; auto; try (apply J); try (apply K; auto); intros; lra. Qed.
Section Line.
Variables (d : cfdfd) (n t p : nat) (lr pe w : R).
Hypothesis L : layered d n t p lr pe w.
Lemma lay_cop2 : forall (t1 t2 q u : fld),
  (forall m, (m < n)%nat -> t1 m 0%nat 0%nat <> C0 /\ 0 < re (C1 / t1 m 0%nat 0%nat)%C /\ im (C1 / t1 m 0%nat 0%nat)%C <= 0) ->
  (forall m, (m < n)%nat -> 0 < re (q m 0%nat 0%nat) /\ im (q m 0%nat 0%nat) <= 0) ->
  (forall m, (m < n)%nat -> cop2 d t1 t2 u m 0%nat 0%nat = (q m 0%nat 0%nat * u m 0%nat 0%nat)%C) -> forall m, (m < n)%nat -> u m 0%nat 0%nat = C0.
Proof.
  intros t1 t2 q u P1 Pq H. pose proof L as (Es & _ & _ & _ & _ & Hk & _ & Ht & Hn & _). pose proof (companion_ok _ _ _ _ _ _ _ L) as L'.
  set (F := cf_dxf d AX). set (B := cf_dxb d AX). set (x := fun m => u m 0%nat 0%nat).
  set (v := fun m => (t1 m 0%nat 0%nat * ((x (succ_p n m) - x m) / F m))%C).
  assert (NZ : forall m, (m < n)%nat -> F m <> C0 /\ B m <> C0) by (intros m Hm; apply (line_nz (companion d) n t p lr pe w L'); cbn; rewrite Es; exact Hm).
  assert (HR : forall m, (m < n)%nat -> ((v m - v (pred_p n m)) / B m = - (q m 0%nat 0%nat * x m))%C).
  { intros m Hm. pose proof (H m Hm) as E. unfold cop2 in E. rewrite Es in E.
    rewrite (diff_bwd _ _ _ AX), (diff_bwd _ _ _ AY) in E by (repeat split; auto). unfold bwd in E. cbn [coord at_coord] in E.
    assert (Hp : (pred_p n m < n)%nat) by (unfold pred_p; destruct m; lia).
    rewrite !(diff_fwd _ _ _ AX) in E by (repeat split; auto). unfold fwd in E. cbn [coord at_coord] in E.
    assert (Zy : forall y : C, (((y - y) / cf_dxb d AY 0%nat)%C = C0)) by (intro; unfold Cdiv; ring).
    change (pred_p 1 0) with 0%nat in E. rewrite Zy in E.
    assert (X : forall g z : C, (- g - C0)%C = z -> g = (- z)%C) by (intros g z G; rewrite <- G; ring).
    apply X in E. unfold v, x. exact E. }
  apply (ring_zero n (fun m => F m * (C1 / t1 m 0%nat 0%nat))%C (fun m => B m * q m 0%nat 0%nat)%C x v); try lia.
  - intros m Hm. unfold v. field. split; [apply NZ; auto | apply P1; auto].
  - intros m Hm. pose proof (HR (succ_p n m) (succ_lt n m Hm)) as E. rewrite pred_succ in E by auto.
    assert (E2 : (v (succ_p n m) - v m = B (succ_p n m) * - (q (succ_p n m) 0%nat 0%nat * x (succ_p n m)))%C) by (rewrite <- E; field; apply NZ; apply succ_lt; auto).
    replace (v (succ_p n m)) with (v m + (v (succ_p n m) - v m))%C by ring. rewrite E2. ring.
  - intros m Hm. destruct (stretch_parts (companion d) n t p lr pe w m L' Hm) as ((R1 & I1 & R2 & I2) & _). cbn [companion d_dxf d_dxb] in *. fold F in R1, I1. fold B in R2, I2.
    destruct (P1 m Hm) as (_ & A1 & A2). destruct (Pq m Hm) as (B1 & B2). set (z := (C1 / t1 m 0%nat 0%nat)%C) in *. cbn [Cmul im]. split; nra.
  - destruct (stretch_parts (companion d) n t p lr pe w 0 L' ltac:(lia)) as ((R1 & _) & _ & I). destruct (I ltac:(lia)) as [I1 _]. cbn [companion d_dxf d_dxb] in *. fold F in R1, I1.
    destruct (P1 0%nat ltac:(lia)) as (_ & A1 & A2). set (z := (C1 / t1 0%nat 0%nat 0%nat)%C) in *. cbn [Cmul im]. nra.
  - destruct (stretch_parts (companion d) n t p lr pe w 0 L' ltac:(lia)) as ((_ & _ & R1 & _) & _ & I). destruct (I ltac:(lia)) as [_ I1]. cbn [companion d_dxf d_dxb] in *. fold B in R1, I1.
    destruct (Pq 0%nat ltac:(lia)) as (B1 & B2). cbn [Cmul im]. nra.
Qed.
Hypothesis E : with_layers_sign d.
Lemma mean_sign : forall c i j k, in_grid (cf_shape d) i j k -> 0 < re (cf_eps_t d c i j k) /\ im (cf_eps_t d c i j k) <= 0.
Proof.
  intros c i j k H. unfold cf_eps_t. rewrite eps_at_ok by auto. destruct H as (Hi & Hj & Hk).
  pose proof (pred_bound _ _ Hi). pose proof (pred_bound _ _ Hj).
  assert (G : forall i j, (i < cf_shape d AX)%nat -> (j < cf_shape d AY)%nat -> 0 < re (cf_eps d i j k) /\ im (cf_eps d i j k) <= 0) by (intros; apply E; repeat split; auto).
  pose proof (G i j ltac:(auto) ltac:(auto)). pose proof (G (pred_p (cf_shape d AX) i) j ltac:(auto) ltac:(auto)). pose proof (G i (pred_p (cf_shape d AY) j) ltac:(auto) ltac:(auto)).
  pose proof (G (pred_p (cf_shape d AX) i) (pred_p (cf_shape d AY) j) ltac:(auto) ltac:(auto)).
  assert (D2 : forall z, (z / RtoC 2)%C = mkC (re z / 2) (im z / 2)) by (intro; apply C_eq; unfold Cdiv, Cinv, Cn2; cbn; field).
  assert (D4 : forall z, (z / RtoC 4)%C = mkC (re z / 4) (im z / 4)) by (intro; apply C_eq; unfold Cdiv, Cinv, Cn2; cbn; field).
  unfold eps_at. cbv zeta. destruct c; rewrite ?D2, ?D4; cbn [re im Cadd]; lra.
Qed.
Lemma lay_in : forall m, (m < n)%nat -> in_grid (cf_shape d) m 0 0.
Proof. intros m Hm. rewrite (proj1 L). repeat split; auto. Qed.
Lemma lay_n : npix (cf_shape d) = n.
Proof. unfold npix. rewrite (proj1 L). cbn. lia. Qed.
Lemma lay_ridx : forall r, ridx (cf_shape d) r 0 0 = r.
Proof. intro r. unfold ridx. rewrite (proj1 L). lia. Qed.
Lemma lay_zero : forall x, (forall m, (m < n)%nat -> unravel (cf_shape d) x m 0%nat 0%nat = C0) -> forall r, (r < n)%nat -> x r = C0.
Proof. intros x H r Hr. specialize (H r Hr). unfold unravel in H. rewrite lay_ridx in H. exact H. Qed.
Lemma lay_inj_te : injective n (mat_ez_c d).
Proof.
  intros x Hx. apply lay_zero. pose proof L as (Es & Hb & _ & _ & _ & Hk & _).
  assert (W : wave_te d (fun _ _ _ => C0) (unravel (cf_shape d) x)).
  { apply sys_te. rewrite lay_n. intros r Hr. rewrite Hx by auto. unfold ravel. ring. }
  pose proof (proj1 (wave_te_fn d Hb _ _) W) as W'. clear W.
  apply (lay_cop2 (fun _ _ _ => C1) (fun _ _ _ => C1) (fun i j k => RtoC (cf_k0 d * cf_k0 d) * cf_eps_t d AZ i j k)%C).
  - intros m Hm. split; [intro A; apply (f_equal re) in A; cbn in A; lra |]. replace (C1 / C1)%C with C1 by (apply C_eq; unfold Cdiv, Cinv, Cn2; cbn; field). cbn. lra.
  - intros m Hm. destruct (mean_sign AZ m 0 0 (lay_in m Hm)) as [A1 A2]. assert (K : 0 < cf_k0 d * cf_k0 d) by nra. cbn [Cmul re im RtoC]. split; nra.
  - intros m Hm. rewrite (W' m 0%nat 0%nat (lay_in m Hm)). ring.
Qed.
Lemma lay_inj_tm : injective n (mat_hz_c d).
Proof.
  intros x Hx. apply lay_zero. pose proof L as (Es & Hb & _ & _ & _ & Hk & _).
  assert (W : wave_tm d (fun _ _ _ => C0) (unravel (cf_shape d) x)).
  { apply sys_tm. rewrite lay_n. intros r Hr. rewrite Hx by auto. unfold ravel. ring. }
  pose proof (proj1 (wave_tm_fn d Hb _ _) W) as W'. clear W.
  apply (lay_cop2 (fun i j k => C1 / cf_eps_t d AY i j k)%C (fun i j k => C1 / cf_eps_t d AX i j k)%C (fun i j k => RtoC (cf_k0 d * cf_k0 d))%C).
  - intros m Hm. destruct (mean_sign AY m 0 0 (lay_in m Hm)) as [A1 A2]. set (z := cf_eps_t d AY m 0%nat 0%nat) in *.
    assert (Nz : z <> C0) by (intro A; rewrite A in A1; cbn in A1; lra).
    assert (N1 : C1 <> C0) by (intro A; apply (f_equal re) in A; cbn in A; lra).
    replace (C1 / (C1 / z))%C with z by (field; auto). repeat split; auto.
    intro A. apply N1. transitivity ((C1 / z) * z)%C; [field; auto | rewrite A; ring].
  - intros m Hm. cbn. assert (K : 0 < cf_k0 d * cf_k0 d) by nra. lra.
  - intros m Hm. rewrite (W' m 0%nat 0%nat (lay_in m Hm)). ring.
Qed.
Lemma lay_unique : forall M src, M = mat_ez_c d \/ M = mat_hz_c d ->
  (exists solver, exact2c d M solver src) /\
  forall solver solver', exact2c d M solver src -> exact2c d M solver' src -> forall r, (r < n)%nat ->
    solver M (rhs2c d src) r = solver' M (rhs2c d src) r.
Proof.
  intros M src HM. assert (HI : injective n M) by (destruct HM as [-> | ->]; [exact lay_inj_te | exact lay_inj_tm]). split.
  - destruct (onto n M (rhs2c d src) HI) as [x Hx]. exists (fun _ _ => x). intros r Hr. rewrite lay_n in *. apply Hx, Hr.
  - intros solver solver' H1 H2 r Hr. unfold exact2c in H1, H2. rewrite lay_n in H1, H2. exact (inj_unique n M _ _ (rhs2c d src) HI H1 H2 r Hr).
Qed.
End Line.
Lemma line_te : forall d n t p lr pe w src, layered d n t p lr pe w -> with_layers_sign d ->
  (exists solver, exact2c d (mat_ez_c d) solver src) /\
  forall solver solver', exact2c d (mat_ez_c d) solver src -> exact2c d (mat_ez_c d) solver' src ->
    same_on (cf_shape d) (fst (solve2_te_c d solver src) AZ) (fst (solve2_te_c d solver' src) AZ).
Proof.
  intros d n t p lr pe w src L E. destruct (lay_unique d n t p lr pe w L E (mat_ez_c d) src (or_introl eq_refl)) as [A B]. split; [exact A |].
  intros s1 s2 H1 H2 i j k Hg. unfold solve2_te_c, only_z; cbn [fst]. unfold unravel_f. pose proof (B s1 s2 H1 H2) as Q. apply Q.
  rewrite <- (lay_n d n t p lr pe w L). apply ridx_bound. exact Hg.
Qed.
Lemma line_tm : forall d n t p lr pe w src, layered d n t p lr pe w -> with_layers_sign d ->
  (exists solver, exact2c d (mat_hz_c d) solver src) /\
  forall solver solver', exact2c d (mat_hz_c d) solver src -> exact2c d (mat_hz_c d) solver' src ->
    same_on (cf_shape d) (snd (solve2_tm_c d solver src) AZ) (snd (solve2_tm_c d solver' src) AZ).
Proof.
  intros d n t p lr pe w src L E. destruct (lay_unique d n t p lr pe w L E (mat_hz_c d) src (or_intror eq_refl)) as [A B]. split; [exact A |].
  intros s1 s2 H1 H2 i j k Hg. unfold solve2_tm_c, only_z; cbn [snd]. unfold unravel_f. pose proof (B s1 s2 H1 H2) as Q. apply Q.
  rewrite <- (lay_n d n t p lr pe w L). apply ridx_bound. exact Hg.
Qed.
