(** Nullification basis: the statements (C83 - C85). *)
From Coq Require Import Reals Lra Lia Psatz List ZArith Permutation Bool FunctionalExtensionality.
From Verif Require Import Cx Arr Spec_circuit Model_coupling Model_forward Model_null Spec_mesh Spec_null
  Proof_node Proof_mesh Proof_forward Proof_forward2 Proof_forward3 Proof_forward4 Proof_vector Proof_null Proof_rect6
  Proof_nbasis Proof_nbasis2 Proof_nbasis3.
Import ListNotations.
Local Open Scope R_scope.

Lemma matrix_cols : forall m p x, wf_mesh m -> matrix_fn m false p x = Some (apply_gammas (gammas p) (cols_run (mzis m false p) (all_idx m) x)).
Proof.
  intros m p x Hw. destruct (wf_all m Hw) as (cols & E1 & E2 & E3 & E4 & E5 & E6 & E7).
  unfold matrix_fn. rewrite E1. cbv zeta. rewrite E3, E5. reflexivity.
Qed.
Lemma all_idx_len : forall m, length (all_idx m) = Z.to_nat (num_columns m).
Proof. intro m. unfold all_idx. rewrite map_length, seq_length. reflexivity. Qed.
Lemma cis_Carg_unit : forall z, Cn2 z = 1 -> cis (Carg z) = z.
Proof.
  intros z H. rewrite (Carg_polar z) at 2. unfold Cabs. rewrite H, sqrt_1. change (RtoC 1) with C1. ring.
Qed.

(** C83 *)
Lemma ones_lower : forall m c i, (lower_rail m c i -> ones m c i = C1) /\ (~ lower_rail m c i -> ones m c i = C0).
Proof.
  intros m c i. unfold ones, lower_rail. split; intro H.
  - destruct H as (nd & H1 & H2 & <-). replace (existsb _ _) with true; [reflexivity |]. symmetry. apply existsb_exists.
    exists (bottom nd). split; [| apply Nat.eqb_refl]. apply in_map. apply filter_In. split; [exact H1 | apply Z.eqb_eq; exact H2].
  - destruct (existsb _ _) eqn:E; [| reflexivity]. exfalso. apply H. apply existsb_exists in E. destruct E as (x & Hx & Ex).
    apply Nat.eqb_eq in Ex. subst x. apply in_map_iff in Hx. destruct Hx as (nd & E & Hin). apply filter_In in Hin. destruct Hin as [H1 H2].
    apply Z.eqb_eq in H2. exists nd. auto.
Qed.
Lemma null_vectors : forall m p, wf_mesh m -> lossless m -> equal_errors m -> style m <> DIFFERENTIAL ->
  exists ws, nullification_basis m p = Some ws /\ length ws = Z.to_nat (num_columns m) /\
    forall c w, nth_error ws c = Some w ->
      exists sl, propagate_cut m false false (Some (Z.of_nat (c + 1))) p w = Some sl /\
        forall i, (lower_rail m c i -> Cn2 (last sl w i) = 1) /\ (~ lower_rail m c i -> last sl w i = C0).
Proof.
  intros m p Hw Hl He Hs. exists (map (null_vec m p) (seq 0 (Z.to_nat (num_columns m)))). split; [apply basis_is; exact Hw |].
  split; [rewrite map_length, seq_length; reflexivity |]. intros c w Hn.
  assert (Hc : (c < Z.to_nat (num_columns m))%nat).
  { assert (K : (c < length (map (null_vec m p) (seq 0 (Z.to_nat (num_columns m)))))%nat) by (apply nth_error_Some; congruence).
    rewrite map_length, seq_length in K. exact K. }
  assert (Ew : w = null_vec m p c).
  { pose proof (nth_error_nth _ _ (null_vec m p 0) Hn) as K. rewrite map_nth, seq_nth in K by exact Hc. symmetry. exact K. }
  pose proof (null_vec_run m p c Hw Hl He Hs) as R. rewrite <- Ew in R.
  assert (Val : forall i, (lower_rail m c i -> Cn2 (ones m c i) = 1) /\ (~ lower_rail m c i -> ones m c i = C0)).
  { intro i. destruct (ones_lower m c i) as [O1 O2]. split; [intro H; rewrite (O1 H); unfold Cn2; cbn; ring | exact O2]. }
  destruct (Nat.eq_dec (S c) (Z.to_nat (num_columns m))) as [E | E].
  - destruct (cut_fwd_full m p w Hw) as (sl & S1 & S2); [lia |]. exists sl.
    split; [replace (Z.of_nat (c + 1)) with (num_columns m) by lia; exact S1 |].
    rewrite S2. assert (Ef : firstn (S c) (all_idx m) = all_idx m) by (apply firstn_all2; rewrite all_idx_len; lia).
    rewrite Ef in R. rewrite R. intro i. destruct (Val i) as [V1 V2]. unfold apply_gammas. split; intro H.
    + rewrite Cn2_mul, Cn2_cis, V1 by exact H. ring.
    + rewrite V2 by exact H. ring.
  - destruct (cut_fwd_run m p (S c) w Hw) as (sl & S1 & S2); [lia |]. exists sl.
    split; [rewrite Nat.add_1_r; exact S1 |]. rewrite S2, R. exact Val.
Qed.

(** C84 *)
Lemma program_realises : forall mh mt pt p0, wf_mesh mh -> wf_mesh mt -> same_wiring mh mt ->
  lossless mh -> lossless mt -> equal_errors mh -> equal_errors mt ->
  (style mh = TOP \/ style mh = BOTTOM) -> style mt <> DIFFERENTIAL ->
  Forall (fun e => - (PI/4) < fst e < PI/4) (bs_errors mh) ->
  (forall nd, In nd (nodes mt) ->
     crossing mt pt (node_id nd) <= (2 * (cos (PI/4 + fst (err_at mh (node_id nd))) * sin (PI/4 + fst (err_at mh (node_id nd))))) ^ 2) ->
  exists ws p, nullification_basis mt pt = Some ws /\ program_by_null_basis 0 mh p0 ws = Some p /\ gammas p = gammas p0 /\
    exists g, forall x, matrix_fn mh false (mkParams (thetas p) (phis p) g) x = matrix_fn mt false pt x.
Proof.
  intros mh mt pt p0 Wh Wt SW Lh Lt Eh Et Sh St Sm Re.
  destruct (program84 mh mt pt Wh Wt SW Lh Lt Eh Et Sh St Sm Re p0) as (ws & p & B1 & B2 & Ig & D & HD & ID).
  exists ws, p. split; [exact B1 |]. split; [exact B2 |]. split; [exact Ig |].
  exists (fun i => gammas pt i - Carg (D i)). intro x. rewrite !matrix_cols by assumption. f_equal.
  apply functional_extensionality. intro i. unfold apply_gammas. cbn [gammas].
  assert (Ef : firstn (Z.to_nat (num_columns mh)) (all_idx mh) = all_idx mh) by (apply firstn_all2; rewrite all_idx_len; lia).
  rewrite Ef in ID. destruct (wiring_idx mh mt SW) as (_ & W2 & _).
  change (mzis mh false (mkParams (thetas p) (phis p) (fun i0 => gammas pt i0 - Carg (D i0)))) with (mzis mh false p).
  rewrite ID, <- W2. unfold Rminus. rewrite cis_add, cis_opp, cis_Carg_unit by apply HD.
  set (z := cols_run _ _ _ _). transitivity ((Cconj (D i) * D i) * (cis (gammas pt i) * z))%C; [ring |].
  replace (Cconj (D i) * D i)%C with C1; [ring |].
  transitivity (RtoC (Cn2 (D i))); [rewrite HD; reflexivity |]. rewrite <- Cmul_conj. ring.
Qed.

(** C84: SYMMETRIC hardware cannot be programmed. *)
Lemma program_symmetric_raises : forall eps m p w ws, wf_mesh m -> (0 < num_columns m)%Z -> style m = SYMMETRIC ->
  program_by_null_basis eps m p (w :: ws) = None.
Proof.
  intros eps m p w ws Hw Hc Hs. destruct (wf_all m Hw) as (cols & E1 & E2 & E3 & E4 & E5 & E6 & E7).
  unfold program_by_null_basis. rewrite E1. cbn [obind]. destruct cols as [| nc cols]; [cbn in E2; lia |].
  cbn [combine null_steps]. destruct (E4 0%nat nc eq_refl) as (L1 & L2 & L3 & L4).
  assert (Hn : null_step eps m p nc w = None); [| rewrite Hn; reflexivity].
  unfold null_step. destruct (propagate_cut m false false (Some (col_label nc)) p w) as [sl |]; [| reflexivity]. cbn [obind]. cbv zeta.
  destruct (idx_ok _ _ _); [| reflexivity].
  rewrite L4, L2, Hs. destruct Hw as (_ & _ & _ & Hne). destruct (Hne 0%Z) as (nd & N1 & N2); [lia |].
  assert (Hin : In (top nd, bottom nd, node_id nd) (col_idx m 0)) by (apply in_col_idx; exists nd; auto).
  destruct (col_idx m 0) as [| [[t b] k] l]; [destruct Hin |]. cbn [map all_some]. unfold nullify_phi.
  destruct (mzi_terms (err_at m k)) as [[[? ?] ?] ?]. cbn [obind]. reflexivity.
Qed.

(** ** C85: the phases themselves are recovered *)
Lemma cis_inj : forall a b, 0 <= a < 2 * PI -> 0 <= b < 2 * PI -> cis a = cis b -> a = b.
Proof.
  intros a b Ha Hb H. pose proof PI_RGT_0 as P.
  pose proof (f_equal re H) as Hc. pose proof (f_equal im H) as Hs. cbn in Hc, Hs.
  assert (W : forall x y, 0 <= x < 2 * PI -> 0 <= y < 2 * PI -> cos x = cos y -> sin x = sin y -> x <= y -> x = y).
  { intros x y Hx Hy Ec Es Hle. 
    assert (E1 : cos (y - x) = 1) by (rewrite cos_minus, Ec, Es; pose proof (sin2_cos2 y) as S; unfold Rsqr in S; lra).
    destruct (Req_dec x y) as [| N]; [assumption | exfalso].
    assert (0 < y - x < 2 * PI) by lra.
    assert (0 < sin ((y - x) / 2)) by (apply sin_gt_0; lra).
    replace (y - x) with (2 * ((y - x) / 2)) in E1 by field. rewrite cos_2a_sin in E1. nra. }
  destruct (Rle_dec a b); [apply W; auto | symmetry; apply W; auto; lra].
Qed.
Lemma cross_eq : forall st theta phi e, 
  Cn2 (t12 (parallel_mzi st false theta phi (e, e) (0, 0))) = 2 * (cos (PI/4 + e) * sin (PI/4 + e)) ^ 2 * (1 + cos theta).
Proof. intros. rewrite mzi_cross_power. cbn [fst snd]. ring. Qed.
Lemma cs_bound : forall e, - (PI/4) < e < PI/4 -> 0 < cos (PI/4 + e) * sin (PI/4 + e) <= 1 / 2.
Proof.
  intros e He. destruct (PI4_bounds e He) as [Ha Hb]. pose proof (sin2_cos2 (PI/4 + e)) as S. unfold Rsqr in S.
  split; [apply Rmult_lt_0_compat; assumption |]. pose proof (pow2_ge_0 (cos (PI/4 + e) - sin (PI/4 + e))) as Q. nra.
Qed.
Lemma recover_theta : forall e theta t b, - (PI/4) < e < PI/4 -> 0 <= theta <= PI ->
  direct_transmissivity_eps 0 t b = 2 * (cos (PI/4 + e) * sin (PI/4 + e)) ^ 2 * (1 + cos theta) ->
  nullify_theta 0 (mzi_terms (e, e)) t b = theta.
Proof.
  intros e theta t b He Ht Hs. unfold nullify_theta, mzi_terms. cbn [fst snd]. rewrite Hs. unfold transmissivity_to_phase.
  destruct (cs_bound e He) as [H1 H2]. destruct (PI4_bounds e He) as [Ha Hb].
  replace ((2 * (cos (PI / 4 + e) * sin (PI / 4 + e)) ^ 2 * (1 + cos theta) - (cos (PI / 4 + e) * sin (PI / 4 + e)) ^ 2 -
     (sin (PI / 4 + e) * cos (PI / 4 + e)) ^ 2) / (2 * (cos (PI / 4 + e) * sin (PI / 4 + e)) * (sin (PI / 4 + e) * cos (PI / 4 + e)))) with (cos theta).
  - pose proof (COS_bound theta) as [C1' C2']. rewrite Rmax_left by lra. rewrite Rmin_left by lra. apply acos_cos. lra.
  - field. split; lra.
Qed.
Lemma unit_1112 : forall q, quad_unit q -> Cn2 (t11 q) + Cn2 (t12 q) = 1.
Proof. intros q Hu. destruct (unit_cols q Hu) as (R1 & _). apply (f_equal re) in R1. unfold Cn2. cbn in R1. lra. Qed.
Lemma unit_1121 : forall q, quad_unit q -> Cn2 (t11 q) + Cn2 (t21 q) = 1.
Proof. intros q Hu. destruct (unit_rows q Hu) as (R1 & _). apply (f_equal re) in R1. unfold Cn2. cbn in R1. lra. Qed.
Lemma recover_phi : forall st e theta phi phi' ut ub, (st = TOP \/ st = BOTTOM) -> - (PI/4) < e < PI/4 -> 0 < theta < PI ->
  qtop (parallel_mzi st false theta phi (e, e) (0, 0)) ut ub = C0 -> qbot (parallel_mzi st false theta phi (e, e) (0, 0)) ut ub = C1 ->
  qtop (parallel_mzi st false theta phi' (e, e) (0, 0)) ut ub = C0 -> cis phi' = cis phi.
Proof.
  intros st e theta phi phi' ut ub Hst He Ht H1 H2 H3.
  pose proof (parallel_mzi_unit st false theta phi (e, e)) as Hu.
  destruct (unit_conj12 _ ut ub Hu H1 H2) as [Eu Ev].
  destruct (cs_bound e He) as [B1 B2].
  assert (X : 0 < Cn2 (t12 (parallel_mzi st false theta phi (e, e) (0, 0))) < 1).
  { rewrite cross_eq. assert (-1 < cos theta < 1).
    { split.
      - rewrite <- cos_PI. apply cos_decreasing_1; lra.
      - rewrite <- cos_0. apply cos_decreasing_1; lra. }
    split; [apply Rmult_lt_0_compat; [apply Rmult_lt_0_compat; [lra | apply pow_lt; lra] | lra] |].
    set (g := cos (PI / 4 + e) * sin (PI / 4 + e)) in *. clearbody g. set (h := cos theta) in *. clearbody h.
    assert (G : g ^ 2 <= 1 / 4) by nra. assert (0 < g ^ 2) by nra. nra. }
  set (q := parallel_mzi st false theta phi (e, e) (0, 0)) in *.
  assert (Z0 : Cn2 C0 = 0) by (unfold Cn2; cbn; ring).
  assert (Nut : ut <> C0) by (intro K; rewrite Eu in K; apply (f_equal Cn2) in K; rewrite Cn2_conj' in K; rewrite Z0 in K; lra).
  assert (Nub : ub <> C0).
  { intro K; rewrite Ev in K; apply (f_equal Cn2) in K; rewrite Cn2_conj' in K. pose proof (unit_12 q Hu). rewrite Z0 in K; lra. }
  pose proof (unit_1112 q Hu) as R12. pose proof (unit_1121 q Hu) as R21.
  assert (N11 : t11 q <> C0) by (intro K; rewrite K in *; rewrite Z0 in *; lra).
  assert (N21 : t21 q <> C0) by (intro K; rewrite K in *; rewrite Z0 in *; lra).
  assert (Unit : forall f, (Cconj (cis f) * cis f)%C = C1) by (intro f; rewrite <- cis_opp, <- cis_add; replace (- f + f) with 0 by ring; apply cis_0).
  destruct Hst as [-> | ->].
  - assert (E11 : t11 (parallel_mzi TOP false theta phi' (e, e) (0, 0)) = (t11 q * (Cconj (cis phi) * cis phi'))%C).
    { unfold q, parallel_mzi, mzi_terms. cbn [fst snd t11]. replace (ln 10 * 0 / 20) with 0 by field. rewrite !Cexp_imag.
      set (A := (RtoC _ + _)%C). transitivity ((Cconj (cis phi) * cis phi) * A * cis phi')%C; [rewrite Unit; ring | ring]. }
    assert (E21 : t21 (parallel_mzi TOP false theta phi' (e, e) (0, 0)) = t21 q).
    { unfold q, parallel_mzi, mzi_terms. cbn [fst snd t21 b2R]. rewrite !Rmult_0_r. reflexivity. }
    unfold qtop in H1, H3. rewrite E11, E21 in H3.
    assert (K : (t11 q * (ut * (Cconj (cis phi) * cis phi' - C1)))%C = C0).
    { transitivity ((t11 q * (Cconj (cis phi) * cis phi') * ut + t21 q * ub) - (t11 q * ut + t21 q * ub))%C; [ring | rewrite H1, H3; ring]. }
    apply Cmul_integral in K. destruct K as [K | K]; [contradiction |]. apply Cmul_integral in K. destruct K as [K | K]; [contradiction |].
    transitivity (cis phi * (Cconj (cis phi) * cis phi' - C1) + cis phi)%C; [| rewrite K; ring].
    transitivity (Cconj (cis phi) * cis phi * cis phi')%C; [rewrite Unit; ring | ring].
  - assert (E21 : t21 (parallel_mzi BOTTOM false theta phi' (e, e) (0, 0)) = (t21 q * (Cconj (cis phi) * cis phi'))%C).
    { unfold q, parallel_mzi, mzi_terms. cbn [fst snd t21 b2R]. replace (ln 10 * 0 / 20) with 0 by field. rewrite !Rminus_0_r, !Rmult_1_r, !Cexp_imag.
      set (A := (Ci * _)%C). transitivity ((Cconj (cis phi) * cis phi) * A * cis phi')%C; [rewrite Unit; ring | ring]. }
    assert (E11 : t11 (parallel_mzi BOTTOM false theta phi' (e, e) (0, 0)) = t11 q) by reflexivity.
    unfold qtop in H1, H3. rewrite E11, E21 in H3.
    assert (K : (t21 q * (ub * (Cconj (cis phi) * cis phi' - C1)))%C = C0).
    { transitivity ((t11 q * ut + t21 q * (Cconj (cis phi) * cis phi') * ub) - (t11 q * ut + t21 q * ub))%C; [ring | rewrite H1, H3; ring]. }
    apply Cmul_integral in K. destruct K as [K | K]; [contradiction |]. apply Cmul_integral in K. destruct K as [K | K]; [contradiction |].
    transitivity (cis phi * (Cconj (cis phi) * cis phi' - C1) + cis phi)%C; [| rewrite K; ring].
    transitivity (Cconj (cis phi) * cis phi * cis phi')%C; [rewrite Unit; ring | ring].
Qed.

Section recover.
Variables (m : mesh) (pt : params).
Hypotheses (W : wf_mesh m) (L : lossless m) (E : equal_errors m).
Hypothesis (S : style m = TOP \/ style m = BOTTOM).
Hypothesis Small : Forall (fun e => - (PI/4) < fst e < PI/4) (bs_errors m).
Hypothesis Range : forall nd, In nd (nodes m) -> 0 < thetas pt (node_id nd) < PI /\ 0 <= phis pt (node_id nd) < 2 * PI.

Definition inv85 (p0 : params) (c : nat) (p : params) : Prop := gammas p = gammas p0 /\
  forall c' t b k, (c' < c)%nat -> In (t, b, k) (col_idx m c') -> thetas p k = thetas pt k /\ phis p k = phis pt k.

Lemma step85 : forall p0 cols c p nc, columns m = Some cols -> nth_error cols c = Some nc -> inv85 p0 c p ->
  exists p', null_step 0 m p nc (null_vec m pt c) = Some p' /\ inv85 p0 (Datatypes.S c) p'.
Proof.
  intros p0 cols c p nc Hcols Hn (Ig & ID).
  destruct (wf_all m W) as (cols0 & E1 & E2 & E3 & E4 & E5 & E6 & E7).
  assert (cols0 = cols) by congruence. subst cols0.
  assert (Hc : (c < Z.to_nat (num_columns m))%nat) by (rewrite <- E2; apply nth_error_Some; congruence).
  assert (Sd : style m <> DIFFERENTIAL) by (destruct S as [-> | ->]; discriminate).
  destruct (null_step_run 0 m p c nc (null_vec m pt c) W) as (p' & S1 & S2 & S3 & S4).
  { destruct S as [-> | ->]; discriminate. }
  { exact Hc. }
  { exists cols. split; [exact Hcols | exact Hn]. }
  exists p'. split; [exact S1 |]. split; [rewrite S2; exact Ig |].
  set (u := cols_run (mzis m false pt) (firstn c (all_idx m)) (null_vec m pt c)).
  assert (Ev : cols_run (mzis m false p) (firstn c (all_idx m)) (null_vec m pt c) = u).
  { unfold u. apply cols_el_ext; [apply Forall_firstn'; exact E6 |]. intros i t b k Hi Hin. apply in_firstn_idx in Hi. destruct Hi as (c' & Hc' & ->).
    unfold mzis. destruct (ID c' t b k Hc' Hin) as [-> ->]. reflexivity. }
  intros c' t b k Hlt Hin. destruct (Nat.eq_dec c' c) as [-> | Nc].
  2:{ destruct (S3 k) as [-> ->]; [intros t' b' K; destruct (id_column m c c' t' b' t b k E7 K Hin) as (Ec & _); lia |].
      apply (ID c' t b k); [lia | exact Hin]. }
  destruct (S4 t b k Hin) as (phi & P1 & P2 & P3). rewrite Ev in P1, P2.
  destruct (null_vec_enter m pt c t b k W L E Sd Hc Hin) as [U1 U2]. fold u in U1, U2.
  set (e := fst (err_at m k)) in *.
  assert (Ee : err_at m k = (e, e)) by (unfold e; rewrite (err_at_equal m E k) at 2; apply surjective_pairing).
  assert (He : - (PI/4) < e < PI/4).
  { unfold e, err_at. destruct (nth_in_or_default k (bs_errors m) (0, 0)) as [Hi | K].
    - rewrite Forall_forall in Small. apply Small. exact Hi.
    - rewrite K. cbn [fst]. pose proof PI_RGT_0. lra. }
  rewrite Ee in P1, P2.
  assert (Rk : 0 < thetas pt k < PI /\ 0 <= phis pt k < 2 * PI).
  { apply in_col_idx in Hin. destruct Hin as (nd & N1 & _ & _ & _ & ->). apply Range. exact N1. }
  destruct Rk as [Rt Rp].
  assert (Emz : mzis m false pt k = parallel_mzi (style m) false (thetas pt k) (phis pt k) (e, e) (0, 0)).
  { unfold mzis. rewrite Ee, (loss_at_zero m L). reflexivity. }
  rewrite Emz in U1, U2.
  set (q := parallel_mzi (style m) false (thetas pt k) (phis pt k) (e, e) (0, 0)) in *.
  assert (Hq : quad_unit q) by apply parallel_mzi_unit.
  destruct (unit_conj12 q (u t) (u b) Hq U1 U2) as [X1 X2].
  assert (Es : direct_transmissivity_eps 0 (u t) (u b) = 2 * (cos (PI/4 + e) * sin (PI/4 + e)) ^ 2 * (1 + cos (thetas pt k))).
  { unfold direct_transmissivity_eps. rewrite Rplus_0_r, X1, X2, !Cn2_conj', unit_12 by exact Hq. unfold q. rewrite cross_eq. field. }
  assert (Eth : nullify_theta 0 (mzi_terms (e, e)) (u t) (u b) = thetas pt k) by (apply recover_theta; [exact He | lra | exact Es]).
  split; [rewrite P2; exact Eth |].
  assert (Reach : direct_transmissivity_eps 0 (u t) (u b) <= (2 * (cos (PI/4 + e) * sin (PI/4 + e))) ^ 2).
  { rewrite Es. pose proof (COS_bound (thetas pt k)). pose proof (pow2_ge_0 (cos (PI/4 + e) * sin (PI/4 + e))). nra. }
  rewrite P3. apply cis_inj; [apply mod2pi_range | exact Rp |].
  apply (recover_phi (style m) e (thetas pt k) (phis pt k) (mod2pi phi) (u t) (u b) S He Rt U1 U2).
  apply Cn2_zero. rewrite <- Eth.
  destruct S as [Es' | Es']; rewrite Es' in P1 |- *.
  - apply (null_top 0 e _ _ (Rle_refl 0) He Reach phi P1).
  - apply (null_bottom 0 e _ _ (Rle_refl 0) He Reach phi P1).
Qed.

Lemma program_recovers_s : forall p0, exists ws p, nullification_basis m pt = Some ws /\ program_by_null_basis 0 m p0 ws = Some p /\
  forall nd, In nd (nodes m) -> (0 <= column nd < num_columns m)%Z ->
    thetas p (node_id nd) = thetas pt (node_id nd) /\ phis p (node_id nd) = phis pt (node_id nd).
Proof.
  intro p0. destruct (wf_all m W) as (cols & E1 & E2 & E3 & E4 & E5 & E6 & E7).
  exists (map (null_vec m pt) (seq 0 (Z.to_nat (num_columns m)))).
  unfold program_by_null_basis. rewrite E1. cbn [obind].
  destruct (null_loop 0 m (inv85 p0) cols (map (null_vec m pt) (seq 0 (Z.to_nat (num_columns m))))) with (p0 := p0) as (p & P1 & P2).
  - intros c p nc w Hn Hw Hi.
    assert (w = null_vec m pt c).
    { assert (Hlt : (c < length cols)%nat) by (apply nth_error_Some; congruence).
      pose proof (nth_error_nth _ _ (null_vec m pt 0) Hw) as K. rewrite map_nth, seq_nth in K by lia. symmetry. exact K. }
    subst w. exact (step85 p0 cols c p nc E1 Hn Hi).
  - rewrite map_length, seq_length. lia.
  - split; [reflexivity |]. intros c' t b k Hlt. lia.
  - exists p. split; [apply basis_is; exact W |]. split; [exact P1 |]. intros nd Hin Hcol. destruct P2 as [_ P2].
    apply (P2 (Z.to_nat (column nd)) (top nd) (bottom nd) (node_id nd)); [lia |]. apply in_col_idx. exists nd. repeat split; auto. lia.
Qed.
End recover.
