(** Proofs for C167 (2): the line that resonates. *)
From Coq Require Import Reals Lra Lia List Arith Bool.
From Verif Require Import Cx Arr Model_coupling Model_yee Spec_yee Proof_yee Proof_yee2 Model_fdfd Spec_fdfd Proof_scpml Proof_fdfd Proof_fdfd2 Proof_fdfd3 Proof_fdfd4
  Model_fdfdc Spec_fdfdc Proof_fdfdc Proof_fdfdc3 Proof_fdfdsy Spec_fdfdlay.
Local Open Scope R_scope.
(** The source-free field and its differences. *)
Definition nul (m : nat) : C := match m with
  | 0%nat => mkC (-1 / 250000) (-27 / 1000000)
  | 1%nat => mkC (4 / 625) (-7 / 2000)
  | 2%nat => mkC (1) (0)
  | 3%nat => mkC (33 / 10) (13 / 2)
  | 4%nat => mkC (-27 / 10) (1 / 2)
  | 5%nat => mkC (-22 / 5) (-11 / 2)
  | 6%nat => mkC (-27 / 10) (-27 / 10)
  | 7%nat => mkC (7 / 5) (47 / 10)
  | 8%nat => mkC (28 / 5) (11 / 2)
  | 9%nat => mkC (13 / 10) (-17 / 10)
  | _ => mkC (1 / 1000) (-7 / 250)
  end.
(** Its forward differences. *)
Definition slp (m : nat) : C := match m with
  | 0%nat => mkC (1002246819201 / 6721648080250000) (6734505690927 / 26886592321000000)
  | 1%nat => mkC (3960981 / 260100625) (824499 / 6658576)
  | 2%nat => mkC (-3376927017 / 1479043210) (868656717 / 295808642)
  | 3%nat => mkC (-233086086 / 43456321) (-283474566 / 43456321)
  | 4%nat => mkC (-17 / 10) (-6)
  | 5%nat => mkC (17 / 10) (14 / 5)
  | 6%nat => mkC (41 / 10) (37 / 5)
  | 7%nat => mkC (21 / 5) (4 / 5)
  | 8%nat => mkC (-137248363 / 61744010) (-240570596 / 30872005)
  | 9%nat => mkC (-48596669779 / 110622401000) (-2787347311 / 13827800125)
  | _ => mkC (-871881687131 / 673287600250000) (36293067013 / 2693150401000000)
  end.
(** Widths. *)
Definition wf (m : nat) : C := match m with
  | 0%nat => mkC (1) (-163840 / 6561)
  | 1%nat => mkC (1) (-640 / 81)
  | 2%nat => mkC (1) (-10240 / 6561)
  | 3%nat => mkC (1) (-640 / 6561)
  | 4%nat => mkC (1) (0)
  | 5%nat => mkC (1) (0)
  | 6%nat => mkC (1) (0)
  | 7%nat => mkC (1) (0)
  | 8%nat => mkC (1) (-640 / 2401)
  | 9%nat => mkC (1) (-10240 / 2401)
  | _ => mkC (1) (-51840 / 2401)
  end.
(** Widths. *)
Definition wb (m : nat) : C := match m with
  | 0%nat => mkC (1) (-40)
  | 1%nat => mkC (1) (-405 / 32)
  | 2%nat => mkC (1) (-5 / 2)
  | 3%nat => mkC (1) (-5 / 32)
  | 4%nat => mkC (1) (0)
  | 5%nat => mkC (1) (0)
  | 6%nat => mkC (1) (0)
  | 7%nat => mkC (1) (0)
  | 8%nat => mkC (1) (-5 / 32)
  | 9%nat => mkC (1) (-5 / 2)
  | _ => mkC (1) (-405 / 32)
  end.
Lemma wf_ok : forall m, (m < 11)%nat -> (RtoC 1 * scpml 4 (-16) 1 1 1 11 4 false m)%C = wf m.
Proof.
  intros m Hm. do 11 (destruct m as [| m]; [unfold scpml, d_pml, pos_e, pos_h, p_pos; cbn [Nat.eqb Nat.ltb Nat.leb Nat.sub Nat.add INR wf]; apply C_eq; cbn [re im RtoC Cmul Cadd Ci C1]; field |]). lia.
Qed.
Lemma wb_ok : forall m, (m < 11)%nat -> (RtoC 1 * scpml 4 (-16) 1 1 1 11 4 true m)%C = wb m.
Proof.
  intros m Hm. do 11 (destruct m as [| m]; [unfold scpml, d_pml, pos_e, pos_h, p_pos; cbn [Nat.eqb Nat.ltb Nat.leb Nat.sub Nat.add INR wb]; apply C_eq; cbn [re im RtoC Cmul Cadd Ci C1]; field |]). lia.
Qed.
Lemma wf_nz : forall m, (m < 11)%nat -> wf m <> C0.
Proof. intros m Hm A. apply (f_equal re) in A. revert A. do 11 (destruct m as [| m]; [cbn; lra |]). lia. Qed.
Lemma wb_nz : forall m, (m < 11)%nat -> wb m <> C0.
Proof. intros m Hm A. apply (f_equal re) in A. revert A. do 11 (destruct m as [| m]; [cbn; lra |]). lia. Qed.
Lemma slope : forall m, (m < 11)%nat -> (nul (succ_p 11 m) - nul m)%C = (wf m * slp m)%C.
Proof. intros m Hm. do 11 (destruct m as [| m]; [unfold succ_p; cbn [Nat.eqb Nat.add nul wf slp]; apply C_eq; cbn [re im Cmul Csub]; lra |]). lia. Qed.
Lemma curve : forall m, (m < 11)%nat -> (slp m - slp (pred_p 11 m))%C = (- (wb m * (pair_mean m * nul m)))%C.
Proof. intros m Hm. do 11 (destruct m as [| m]; [unfold pred_p; cbn [Nat.sub nul wb slp pair_mean]; apply C_eq; cbn [re im Cmul Csub Copp]; lra |]). lia. Qed.
Lemma cells : forall m, (m < 11)%nat -> (cell m + cell (pred_p 11 m))%C = (RtoC 2 * pair_mean m)%C.
Proof.
  intros m Hm. destruct m as [| m].
  - change (pred_p 11 0) with 10%nat. cbn [cell]. unfold cell0. replace (RtoC 2) with (C1 + C1)%C by (apply C_eq; cbn; ring). ring.
  - replace (pred_p 11 (S m)) with m by (unfold pred_p; lia). cbn [cell]. ring.
Qed.
Lemma cells_pos : forall m, (m < 11)%nat -> 1 < re (cell m) /\ 1 / 4 < im (cell m).
Proof. intros m Hm. do 11 (destruct m as [| m]; [unfold cell, cell0, pair_mean; cbn [re im Cadd Csub Cmul RtoC]; lra |]). lia. Qed.
Lemma pred_p_succ : forall i, (i < 11)%nat -> succ_p 11 (pred_p 11 i) = i.
Proof. intros i Hi. destruct i as [| i]; [reflexivity |]. unfold pred_p, succ_p. destruct (Nat.eqb_spec (i + 1) 11); lia. Qed.
Definition nulf : fld := fun i _ _ => nul i.
Lemma amp_layered : layered amplified 11 4 4 (-16) 1 1.
Proof.
  unfold layered, amplified; cbn [cf_shape cf_dxf cf_dxb cf_bloch cf_k0 cf_eps].
  split; [reflexivity | split; [reflexivity |]]. repeat (split; [lia || lra |]). split; [intro x; split; reflexivity |].
  intros a x Ha. destruct a; [congruence | split; reflexivity | split; reflexivity].
Qed.
Lemma amp_te : wave_te amplified (fun _ _ _ => C0) nulf.
Proof.
  apply wave_te_fn; [reflexivity |]. intros i j k Hg. pose proof Hg as (Hi & Hj & Hk). cbn [amplified cf_shape] in Hi, Hj, Hk. assert (j = 0)%nat by lia. assert (k = 0)%nat by lia. subst j k.
  unfold cop2. assert (Es : cf_shape amplified = (fun a => match a with AX => 11%nat | _ => 1%nat end)) by reflexivity.
  rewrite (diff_bwd _ _ _ AX), (diff_bwd _ _ _ AY) by auto. unfold bwd. cbn [coord at_coord].
  assert (Hp : (pred_p 11 i < 11)%nat) by (unfold pred_p; destruct i; lia).
  rewrite !(diff_fwd _ _ _ AX) by (rewrite Es; repeat split; auto; lia). unfold fwd. cbn [coord at_coord]. rewrite Es. cbv beta iota.
  change (pred_p 1 0) with 0%nat.
  assert (Zy : forall y x : C, (((y - y) / x)%C = C0)) by (intros; unfold Cdiv; ring). rewrite Zy.
  unfold nulf. cbv beta. pose proof (slope (pred_p 11 i) Hp) as SP. rewrite (pred_p_succ i Hi) in SP |- *. rewrite slope, SP by auto.
  cbn [amplified cf_dxf cf_dxb cf_k0]. rewrite !wf_ok, wb_ok by auto.
  replace (cf_eps_t amplified AZ i 0%nat 0%nat) with (pair_mean i).
  - replace (C1 * (wf i * slp i / wf i) - C1 * (wf (pred_p 11 i) * slp (pred_p 11 i) / wf (pred_p 11 i)))%C with (slp i - slp (pred_p 11 i))%C by (field; split; apply wf_nz; auto).
    rewrite curve by auto. replace (RtoC (1 * 1)) with C1 by (apply C_eq; cbn; ring). field. apply wb_nz; auto.
  - unfold cf_eps_t. rewrite eps_at_ok by auto. unfold eps_at. cbv zeta. rewrite Es. cbv beta iota. change (pred_p 1 0) with 0%nat. cbn [amplified cf_eps].
    replace (cell i + cell (pred_p 11 i) + cell i + cell (pred_p 11 i))%C with ((cell i + cell (pred_p 11 i)) + (cell i + cell (pred_p 11 i)))%C by ring. rewrite cells by auto.
    apply C_eq; unfold Cdiv, Cinv, Cn2; cbn [re im RtoC Cmul Cadd]; field.
Qed.

Lemma amp_nonzero : nulf 0%nat 0%nat 0%nat <> C0.
Proof. intro A. apply (f_equal re) in A. unfold nulf in A. cbn in A. lra. Qed.
Lemma amp_many : exists solver, exact2c amplified (mat_ez_c amplified) solver (fun _ _ _ => C0) /\ fst (solve2_te_c amplified solver (fun _ _ _ => C0)) AZ 0%nat 0%nat 0%nat <> C0.
Proof.
  exists (fun _ _ => nul). assert (U : forall i j k, in_grid (cf_shape amplified) i j k -> unravel_f (cf_shape amplified) nul i j k = nulf i j k).
  { intros i j k (_ & Hj & Hk). cbn [amplified cf_shape] in Hj, Hk. unfold unravel_f, ridx, nulf. cbn [amplified cf_shape]. f_equal. lia. }
  split; [| exact amp_nonzero].
  apply exact_te_wave. change (fst (solve2_te_c amplified (fun _ _ => nul) (fun _ _ _ => C0)) AZ) with (unravel_f (cf_shape amplified) nul).
  apply wave_te_fn; [reflexivity |]. intros i j k Hg. pose proof (proj1 (wave_te_fn amplified eq_refl _ _) amp_te i j k Hg) as W. rewrite U by auto. rewrite <- W.
  unfold cop2. f_equal; [f_equal |]; apply diff_ext; auto; intros; f_equal; apply diff_ext; auto.
Qed.
Lemma amp_none : forall solver, ~ exact2c amplified (mat_ez_c amplified) solver at_cell0.
Proof.
  intros solver H. apply exact_te_wave in H. pose proof (proj1 (wave_te_fn amplified eq_refl _ _) H) as W1. pose proof (proj1 (wave_te_fn amplified eq_refl _ _) amp_te) as W2.
  set (e := fst (solve2_te_c amplified solver at_cell0) AZ) in *.
  assert (NF : nz_pixel (cf_shape amplified) (cf_dxf amplified)). { intros a m Hm. destruct a; cbn [amplified cf_dxf cf_shape] in *; [rewrite wf_ok by auto; apply wf_nz; auto | |]; intro A; apply (f_equal re) in A; cbn in A; lra. }
  assert (NB : nz_pixel (cf_shape amplified) (cf_dxb amplified)). { intros a m Hm. destruct a; cbn [amplified cf_dxb cf_shape] in *; [rewrite wb_ok by auto; apply wb_nz; auto | |]; intro A; apply (f_equal re) in A; cbn in A; lra. }
  assert (K : cf_k0 amplified <> 0) by (cbn; lra).
  pose proof (recip2 amplified _ _ _ nulf e (fun _ _ _ => C0) at_cell0 K NF NB W2 W1) as Q. unfold wpair, grid_sum, area in Q.
  cbn [amplified cf_shape Csum] in Q. unfold at_cell0, nulf in Q. cbn [amplified cf_dxb] in Q. rewrite (wb_ok 0) in Q by lia.
  assert (Z : (wb 0 * C1 * nul 0)%C = C0).
  { match type of Q with ?l = ?r => transitivity l; [ring | rewrite Q; ring] end. }
  apply (f_equal re) in Z. cbn in Z. lra.
Qed.
