(** Proofs for C161. *)
From Coq Require Import Reals Lra Lia Psatz List Arith Bool FunctionalExtensionality.
From Verif Require Import Cx Arr Spec_circuit Model_coupling Model_forward Proof_mesh Proof_node Proof_forward2 Proof_forward4 Proof_vector Proof_cascade Model_rect Proof_rect Proof_rect2 Proof_rect6 Proof_metric Model_nodenull Spec_nodenull.
Import ListNotations.
Local Open Scope R_scope.

Definition perfect (nd : node) : Prop := bs_error nd = (0, 0) /\ loss nd = (0, 0).
Lemma mat2_ideal : forall nd t x, bs_error nd = (0, 0) -> loss nd = (0, 0) -> mzi_node_matrix2 nd t x = zmat t x.
Proof.
  intros nd t x E L. rewrite <- (ideal_mat2 2 0). unfold mzi_node_matrix2, dc. cbn [ideal bs_error loss]. rewrite E, L. reflexivity.
Qed.
Lemma node_app : forall nd t x v, bs_error nd = (0, 0) -> loss nd = (0, 0) -> bottom nd = S (top nd) -> (S (top nd) < n_of nd)%nat ->
  veq (n_of nd) (matvec (n_of nd) (mzi_node_matrix nd t x) v) (nodeop (top nd) t x 0 0 v).
Proof.
  intros nd t x v E L B Hn. unfold mzi_node_matrix. rewrite mat2_ideal, <- zquad_mat, <- apply_zquad, B by assumption. apply embed_app. cbn. lia.
Qed.
Section One.
Variables a b : C.
Let al := Carg a.
Let be := Carg b.
Let h := Carg (mkC (Cabs b) (Cabs a)).
Let N := Cabs (mkC (Cabs b) (Cabs a)).
Lemma hN : Cabs b = N * cos h /\ Cabs a = N * sin h.
Proof.
  pose proof (Carg_polar (mkC (Cabs b) (Cabs a))) as E. fold h N in E. apply (f_equal re) in E as E1. apply (f_equal im) in E as E2. cbn in E1, E2. split; lra.
Qed.
Lemma N2 : N * N = Cn2 a + Cn2 b.
Proof. unfold N. rewrite Cabs_sq. unfold Cn2 at 1. cbn [re im]. rewrite !Cabs_sq. ring. Qed.
Lemma apol : a = (RtoC (Cabs a) * cis al)%C. Proof. apply Carg_polar. Qed.
Lemma bpol : b = (RtoC (Cabs b) * cis be)%C. Proof. apply Carg_polar. Qed.
Definition low (lt lp : bool) : C := let t := if lt then - (h * 2) else h * 2 in let p := if lp then - (be - al) else be - al in
  (zb t * (cis p * a) + zd t * b)%C.
Lemma low_val : forall lt lp : bool, let t := if lt then - (h * 2) else h * 2 in let p := if lp then - (be - al) else be - al in
  low lt lp = (Ci * cis (t / 2) * (RtoC (cos h) * (cis p * a) - RtoC (if lt then - sin h else sin h) * b))%C.
Proof.
  intros lt lp t p. unfold low. cbv zeta. fold t p. rewrite zb_cos, zd_sin.
  assert (E : cos (t / 2) = cos h /\ sin (t / 2) = if lt then - sin h else sin h).
  { unfold t. destruct lt; [replace (- (h * 2) / 2) with (- h) by field; rewrite cos_neg, sin_neg | replace (h * 2 / 2) with h by field]; split; reflexivity. }
  destruct E as [-> ->]. ring.
Qed.
Lemma low_res : forall lt lp : bool, Cn2 (low lt lp) * (Cn2 a + Cn2 b) =
  match lt, lp with false, false => 0 | true, false => 4 * (Cn2 a * Cn2 b) | false, true => 4 * (im (a * Cconj b)%C * im (a * Cconj b)%C) | true, true => 4 * (re (a * Cconj b)%C * re (a * Cconj b)%C) end.
Proof.
  intros lt lp. pose proof hN as [HB HA]. pose proof N2 as HN. rewrite low_val. rewrite <- HN.
  set (p := if lp then _ else _). rewrite !Cn2_mul, Cn2_cis. replace (Cn2 Ci) with 1 by (unfold Cn2; cbn; ring).
  assert (Ea : re a = N * sin h * cos al /\ im a = N * sin h * sin al).
  { pose proof apol as E. rewrite HA in E. apply (f_equal re) in E as E1. apply (f_equal im) in E as E2. cbn in E1, E2. split; lra. }
  assert (Eb : re b = N * cos h * cos be /\ im b = N * cos h * sin be).
  { pose proof bpol as E. rewrite HB in E. apply (f_equal re) in E as E1. apply (f_equal im) in E as E2. cbn in E1, E2. split; lra. }
  destruct Ea as [Ea1 Ea2], Eb as [Eb1 Eb2].
  pose proof (sin2_cos2 al) as Sa. pose proof (sin2_cos2 be) as Sb. unfold Rsqr in Sa, Sb.
  assert (Pc : cos p = cos be * cos al + sin be * sin al) by (unfold p; destruct lp; rewrite ?cos_neg; apply cos_minus).
  assert (Ps : sin p = if lp then - (sin be * cos al - cos be * sin al) else sin be * cos al - cos be * sin al) by (unfold p; destruct lp; rewrite ?sin_neg, sin_minus; reflexivity).
  unfold Cn2. cbn [re im Csub Cadd Copp Cmul RtoC cis Cconj]. rewrite Pc, Ps, Ea1, Ea2, Eb1, Eb2.
  set (ca := cos al) in *. set (sa := sin al) in *. set (cb := cos be) in *. set (sb := sin be) in *. set (c := cos h). set (s := sin h). clearbody ca sa cb sb c s N.
  assert (Ka : sa * sa = 1 - ca * ca) by lra. assert (Kb : sb * sb = 1 - cb * cb) by lra.
  destruct lt, lp; ring [Ka Kb].
Qed.
End One.
Lemma residual : forall nd v idx (lt lp : bool), bs_error nd = (0, 0) -> loss nd = (0, 0) -> top nd = idx -> bottom nd = S idx -> (S idx < n_of nd)%nat ->
  exists w mt th ph, node_nullify nd v idx lt lp = Some (w, mt, th, ph) /\
  Cn2 (w (S idx)) * (Cn2 (v idx) + Cn2 (v (S idx))) = match lt, lp with
    | false, false => 0 | true, false => 4 * (Cn2 (v idx) * Cn2 (v (S idx)))
    | false, true => 4 * (im (v idx * Cconj (v (S idx)))%C * im (v idx * Cconj (v (S idx)))%C)
    | true, true => 4 * (re (v idx * Cconj (v (S idx)))%C * re (v idx * Cconj (v (S idx)))%C) end /\
  Cn2 (w idx) + Cn2 (w (S idx)) = Cn2 (v idx) + Cn2 (v (S idx)) /\
  (forall i, (i < n_of nd)%nat -> i <> idx -> i <> S idx -> w i = v i) /\
  unitary (n_of nd) mt /\ (forall i, (i < n_of nd)%nat -> w i = Csum (n_of nd) (fun j => mt i j * v j)%C) /\
  0 <= th < 2 * PI /\ 0 <= ph < 2 * PI /\ (forall i j, (i < n_of nd)%nat -> (j < n_of nd)%nat -> mt i j = mzi_node_matrix nd th ph i j) /\
  snd (mzi lt lp th ph (v idx, v (S idx))) = C0.
Proof.
  intros nd v idx lt lp E L T B Hn. unfold node_nullify. rewrite T, B. rewrite !(proj2 (Nat.ltb_lt _ _)) by lia. cbn [andb].
  set (a := v idx). set (b := v (S idx)).
  set (t := if lt then - (Carg (mkC (Cabs b) (Cabs a)) * 2) else Carg (mkC (Cabs b) (Cabs a)) * 2). set (p := if lp then - (Carg b - Carg a) else Carg b - Carg a).
  do 4 eexists. split; [reflexivity |].
  assert (AP : forall i, (i < n_of nd)%nat -> matvec (n_of nd) (mzi_node_matrix nd t p) v i = nodeop idx t p 0 0 v i).
  { intros i Hi. rewrite (node_app nd t p v E L); [rewrite T; reflexivity | congruence | rewrite T; exact Hn | exact Hi]. }
  assert (Lw : matvec (n_of nd) (mzi_node_matrix nd t p) v (S idx) = low a b lt lp).
  { rewrite AP by exact Hn. rewrite nodeop_S, cis_0. unfold low, t, p, a, b. cbv zeta. ring. }
  rewrite Lw. split; [apply low_res |]. split.
  { rewrite <- Lw, !AP by lia. rewrite nodeop_p, nodeop_S, cis_0. fold a b. rewrite za_sin, zb_cos, zd_sin. unfold Cn2. cbn [re im Cadd Cmul Copp RtoC Ci C1 cis].
    pose proof (sin2_cos2 (t / 2)) as S1. pose proof (sin2_cos2 p) as S2. unfold Rsqr in S1, S2.
    assert (K1 : sin (t / 2) * sin (t / 2) = 1 - cos (t / 2) * cos (t / 2)) by lra. assert (K2 : sin p * sin p = 1 - cos p * cos p) by lra.
    set (x := sin (t / 2)) in *. set (y := cos (t / 2)) in *. set (x2 := sin p) in *. set (y2 := cos p) in *. clearbody x y x2 y2. ring [K1 K2]. }
  split.
  { intros i Hi N1 N2. rewrite AP by exact Hi. apply nodeop_o; auto. }
  split; [apply (node_unitary nd t p L); rewrite ?T, ?B; auto; lia |]. split; [intros i Hi; reflexivity |].
  split; [apply mod2pi_range |]. split; [apply mod2pi_range |]. split.
  { intros i j _ _. unfold mzi_node_matrix. f_equal. unfold mzi_node_matrix2, phase_matrix. rewrite !cis_mod2pi. reflexivity. }
  assert (S2 : / sqrt 2 * / sqrt 2 = / 2) by (rewrite <- Rinv_mult, sqrt_sqrt by lra; reflexivity).
  unfold mzi, coupler, shift. set (g := / sqrt 2) in *. clearbody g. pose proof (low_res a b false false) as LR. cbv iota in LR.
  assert (Z : low a b false false = C0).
  { destruct (Req_dec (Cn2 a + Cn2 b) 0) as [Z0 | Nz].
    - pose proof (Cn2_nonneg a). pose proof (Cn2_nonneg b). unfold low. rewrite (Cn2_0 a), (Cn2_0 b) by lra. ring.
    - apply Cn2_0. apply (Rmult_eq_reg_r (Cn2 a + Cn2 b)); [rewrite LR; ring | exact Nz]. }
  unfold low in Z. cbv zeta iota in Z. unfold zb, zd in Z.
  set (t0 := Carg (mkC (Cabs b) (Cabs a)) * 2) in *. set (p0 := Carg b - Carg a) in *.
  assert (D2 : forall z, (z / RtoC 2)%C = (z * RtoC (/ 2))%C) by (intro z; apply C_eq; unfold Cdiv, Cinv, Cn2; cbn [re im Cmul RtoC]; field). rewrite !D2 in Z.
  assert (HG : (RtoC g * RtoC g)%C = RtoC (/ 2)) by (rewrite <- RtoC_mul, S2; reflexivity).
  assert (HT : (cis t0 * cis (- t0))%C = C1) by (rewrite <- cis_add, Rplus_opp_r; apply cis_0). assert (HP : (cis p0 * cis (- p0))%C = C1) by (rewrite <- cis_add, Rplus_opp_r; apply cis_0).
  rewrite !cis_mod2pi. unfold t, p.
  destruct lt, lp; cbn [fst snd]; set (Th := cis t0) in *; set (P := cis p0) in *; try set (T' := cis (- t0)) in *; try set (P' := cis (- p0)) in *; set (G := RtoC g) in *; rewrite <- HG in Z.
  - transitivity (T' * P' * C0)%C; [| ring]. rewrite <- Z. ring [HT HP Ci_sq].
  - transitivity (T' * C0)%C; [| ring]. rewrite <- Z. ring [HT HP Ci_sq].
  - transitivity (P' * C0)%C; [| ring]. rewrite <- Z. ring [HT HP Ci_sq].
  - rewrite <- Z. ring [HT HP Ci_sq].
Qed.
Lemma nullify_plain : forall nd v idx, bs_error nd = (0, 0) -> loss nd = (0, 0) -> top nd = idx -> bottom nd = S idx -> (S idx < n_of nd)%nat ->
  exists w mt th ph, node_nullify nd v idx false false = Some (w, mt, th, ph) /\
  w (S idx) = C0 /\ Cn2 (w idx) = Cn2 (v idx) + Cn2 (v (S idx)) /\ (forall i, (i < n_of nd)%nat -> i <> idx -> i <> S idx -> w i = v i) /\
  unitary (n_of nd) mt /\ (forall i, (i < n_of nd)%nat -> w i = Csum (n_of nd) (fun j => mt i j * v j)%C) /\
  0 <= th < 2 * PI /\ 0 <= ph < 2 * PI /\ (forall i j, (i < n_of nd)%nat -> (j < n_of nd)%nat -> mt i j = mzi_node_matrix nd th ph i j).
Proof.
  intros nd v idx E L T B Hn. destruct (residual nd v idx false false E L T B Hn) as (w & mt & th & ph & H & R & P & O & U & M & A1 & A2 & Q & _).
  exists w, mt, th, ph. split; [exact H |]. cbv iota in R.
  assert (Zw : w (S idx) = C0).
  { pose proof (Cn2_nonneg (v idx)). pose proof (Cn2_nonneg (v (S idx))). pose proof (Cn2_nonneg (w idx)). pose proof (Cn2_nonneg (w (S idx))). apply Cn2_0.
    apply Rmult_integral in R. destruct R as [R | R]; [exact R |]. lra. }
  split; [exact Zw |]. split; [rewrite <- P, Zw; replace (Cn2 C0) with 0 by (unfold Cn2; cbn; ring); ring |]. auto 10.
Qed.
