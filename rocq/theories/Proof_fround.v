(** Proofs for C157. *)
From Coq Require Import Reals Lra Lia Psatz List ZArith Bool FunctionalExtensionality.
From Verif Require Import Cx Arr Spec_circuit Model_coupling Model_forward Spec_mesh Proof_node Proof_mesh Proof_forward Proof_forward2 Proof_lip Proof_adj Model_fround Spec_fround.
Import ListNotations.
Local Open Scope R_scope.

Section Arith.
Variables (a : arith) (d u e : R).
Hypothesis (Ha : arith_ok d u a) (He : 0 <= e).
Let K : R := (1 + e) * (1 + d) ^ 3 - 1.
Let E : R := (2 * (1 + d) ^ 2 + (1 + d) + 1) * u.
Lemma K_pos : 0 <= K.
Proof.
  destruct Ha as (Hd & _). unfold K. assert (1 <= (1 + d) ^ 3) by (apply pow_R1_Rle; lra). nra.
Qed.
Lemma E_pos : 0 <= E.
Proof. destruct Ha as (Hd & Hu & _). unfold E. apply Rmult_le_pos; [| lra]. pose proof (pow2_ge_0 (1 + d)). lra. Qed.
Lemma split3 : forall x y z, Cabs (x - z)%C <= Cabs (x - y)%C + Cabs (y - z)%C.
Proof. intros. replace (x - z)%C with ((x - y) + (y - z))%C by ring. apply Cabs_add. Qed.
Lemma near_abs : forall x y r, Cabs (x - y)%C <= r -> Cabs x <= Cabs y + r.
Proof. intros x y r H. replace x with ((x - y) + y)%C by ring. pose proof (Cabs_add (x - y)%C y). lra. Qed.
(** One rounded product with an approximate factor. *)
Lemma mul_err : forall s' s x, Cabs s <= 1 -> Cabs (s' - s)%C <= e -> Cabs (amul a s' x - s * x)%C <= ((1 + e) * (1 + d) - 1) * Cabs x + u.
Proof.
  intros s' s x H1 H2. destruct Ha as (Hd & Hu & Hm & _). pose proof (Hm s' x) as M. pose proof (near_abs s' s e H2) as N.
  eapply Rle_trans; [apply (split3 _ (s' * x)%C) |].
  assert (E1 : Cabs (s' * x - s * x)%C <= e * Cabs x).
  { replace (s' * x - s * x)%C with ((s' - s) * x)%C by ring. rewrite Cabs_mul. apply Rmult_le_compat_r; [apply Cabs_nonneg | exact H2]. }
  assert (E2 : d * (Cabs s' * Cabs x) <= d * ((1 + e) * Cabs x)).
  { apply Rmult_le_compat_l; [lra |]. apply Rmult_le_compat_r; [apply Cabs_nonneg | lra]. }
  lra.
Qed.
(** One output of a node. *)
Lemma out_err : forall s' s r' r x y, Cabs s <= 1 -> Cabs r <= 1 -> Cabs (s' - s)%C <= e -> Cabs (r' - r)%C <= e ->
  Cabs (astore a (aadd a (amul a s' x) (amul a r' y)) - (s * x + r * y))%C <= K * (Cabs x + Cabs y) + E.
Proof.
  intros s' s r' r x y Hs Hr Es Er. pose proof (mul_err s' s x Hs Es) as M1. pose proof (mul_err r' r y Hr Er) as M2.
  destruct Ha as (Hd & Hu & _ & Had & Hst). set (p := amul a s' x) in *. set (q := amul a r' y) in *.
  set (X := Cabs x + Cabs y). assert (HX : 0 <= X) by (unfold X; pose proof (Cabs_nonneg x); pose proof (Cabs_nonneg y); lra).
  set (t := (s * x + r * y)%C).
  assert (T : Cabs t <= X).
  { unfold t, X. eapply Rle_trans; [apply Cabs_add |]. rewrite !Cabs_mul. pose proof (Cabs_nonneg x). pose proof (Cabs_nonneg y). nra. }
  set (A := (1 + e) * (1 + d) - 1) in *.
  assert (PQ : Cabs (p + q - t)%C <= A * X + 2 * u).
  { replace (p + q - t)%C with ((p - s * x) + (q - r * y))%C by (unfold t; ring). eapply Rle_trans; [apply Cabs_add |]. unfold X. lra. }
  pose proof (near_abs _ _ _ PQ) as NPQ. pose proof (Had p q) as AD. set (g := aadd a p q) in *.
  assert (G : Cabs (g - t)%C <= (A + d * (1 + A)) * X + (2 * (1 + d) + 1) * u).
  { eapply Rle_trans; [apply (split3 _ (p + q)%C) |].
    assert (d * Cabs (p + q)%C <= d * ((1 + A) * X + 2 * u)) by (apply Rmult_le_compat_l; lra). lra. }
  pose proof (near_abs _ _ _ G) as NG. pose proof (Hst g) as ST.
  eapply Rle_trans; [apply (split3 _ g) |].
  assert (d * Cabs g <= d * ((1 + A + d * (1 + A)) * X + (2 * (1 + d) + 1) * u)) by (apply Rmult_le_compat_l; lra).
  eapply Rle_trans; [apply Rplus_le_compat; [exact ST | exact G] |].
  assert (EK : K = A + d * (1 + A) + d * (1 + A + d * (1 + A))) by (unfold K, A; ring). rewrite EK. unfold E. nra.
Qed.
(** ** One column *)
Lemma ptf_fst : forall el (idx : list (nat * nat * nat)) v,
  map fst (map (fun x => let '(t, b, k) := x in (t, astore a (aadd a (amul a (t11 (el k)) (v t)) (amul a (t21 (el k)) (v b))))) idx ++
     map (fun x => let '(t, b, k) := x in (b, astore a (aadd a (amul a (t12 (el k)) (v t)) (amul a (t22 (el k)) (v b))))) idx) = rails idx.
Proof.
  intros. rewrite <- (pt_fst el idx v). rewrite !map_app, !map_map. f_equal; apply map_ext; intros [[t b] k]; reflexivity.
Qed.
Lemma ptf_top : forall el idx v t b k, NoDup (rails idx) -> In (t, b, k) idx ->
  parallel_transform_fl a el idx v t = astore a (aadd a (amul a (t11 (el k)) (v t)) (amul a (t21 (el k)) (v b))).
Proof.
  intros el idx v t b k Hnd Hin. unfold parallel_transform_fl. apply assign_in; [rewrite ptf_fst; auto |].
  apply in_or_app; left. apply in_map_iff. exists (t, b, k); auto.
Qed.
Lemma ptf_bot : forall el idx v t b k, NoDup (rails idx) -> In (t, b, k) idx ->
  parallel_transform_fl a el idx v b = astore a (aadd a (amul a (t12 (el k)) (v t)) (amul a (t22 (el k)) (v b))).
Proof.
  intros el idx v t b k Hnd Hin. unfold parallel_transform_fl. apply assign_in; [rewrite ptf_fst; auto |].
  apply in_or_app; right. apply in_map_iff. exists (t, b, k); auto.
Qed.
Lemma ptf_other : forall el idx v j, ~ In j (rails idx) -> parallel_transform_fl a el idx v j = v j.
Proof. intros. unfold parallel_transform_fl. apply assign_notin. rewrite ptf_fst. auto. Qed.
(** Entries of a contraction are at most 1. *)
Lemma contr_entries : forall q, quad_contr q -> Cabs (t11 q) <= 1 /\ Cabs (t12 q) <= 1 /\ Cabs (t21 q) <= 1 /\ Cabs (t22 q) <= 1.
Proof.
  intros q H. assert (L : forall z, Cn2 z <= 1 -> Cabs z <= 1) by (intros z Hz; unfold Cabs; rewrite <- sqrt_1; apply sqrt_le_1_alt; exact Hz).
  pose proof (H C1 C0) as A. pose proof (H C0 C1) as B. unfold qtop, qbot in A, B.
  replace (t11 q * C1 + t21 q * C0)%C with (t11 q) in A by ring. replace (t12 q * C1 + t22 q * C0)%C with (t12 q) in A by ring.
  replace (t11 q * C0 + t21 q * C1)%C with (t21 q) in B by ring. replace (t12 q * C0 + t22 q * C1)%C with (t22 q) in B by ring.
  rewrite Cn2_C0, Cn2_C1 in A, B. pose proof (Cn2_nonneg (t11 q)). pose proof (Cn2_nonneg (t12 q)). pose proof (Cn2_nonneg (t21 q)). pose proof (Cn2_nonneg (t22 q)).
  repeat split; apply L; lra.
Qed.
Definition col_near (n : nat) (el' el : nat -> quad) (idx : list (nat * nat * nat)) : Prop :=
  NoDup (rails idx) /\ (forall j, In j (rails idx) -> (j < n)%nat) /\ forall t b k, In (t, b, k) idx -> quad_contr (el k) /\ near_quad e (el' k) (el k).
(** Componentwise bounds f + g give the bound nrm f + nrm g. *)
Lemma nrm_split : forall n (w : vec) (f g : nat -> R), (forall i, (i < n)%nat -> 0 <= f i /\ 0 <= g i /\ Cabs (w i) <= f i + g i) ->
  nrm n w <= nrm n (fun i => RtoC (f i)) + nrm n (fun i => RtoC (g i)).
Proof.
  intros n w f g H. eapply Rle_trans; [| apply (nrm_tri n (fun i => RtoC (f i)) (fun i => RtoC (g i)))]. apply nrm_mono.
  unfold power. apply Rsum_le. intros i Hi. destruct (H i Hi) as (F & G & W). rewrite <- RtoC_add, Cn2_RtoC, <- Cabs_sq.
  pose proof (Cabs_nonneg (w i)). nra.
Qed.
Lemma nrm_const : forall n c, 0 <= c -> nrm n (fun _ => RtoC c) = sqrt (INR n) * c.
Proof.
  intros n c Hc. unfold nrm, power. rewrite (Rsum_ext n _ (fun _ => c * c)) by (intros; rewrite Cn2_RtoC; reflexivity).
  assert (S1 : Rsum n (fun _ => c * c) = INR n * (c * c)).
  { clear. induction n as [| n IH]; [cbn; ring |]. cbn [Rsum]. rewrite IH, S_INR. ring. }
  rewrite S1, sqrt_mult by (try apply pos_INR; nra). rewrite sqrt_square by exact Hc. reflexivity.
Qed.
Lemma column_err : forall n el' el idx v, col_near n el' el idx ->
  nrm n (fun i => parallel_transform_fl a el' idx v i - parallel_transform el idx v i)%C <= 2 * K * nrm n v + sqrt (INR n) * E.
Proof.
  intros n el' el idx v (Hnd & Hlt & Hq). pose proof K_pos as KP. pose proof E_pos as EP.
  set (in_b := fun i => if in_dec Nat.eq_dec i (rails idx) then true else false).
  (* f: K times the amplitudes of the two rails of the node; found by the actual error minus E, cut at 0 *)
  set (w := fun i => (parallel_transform_fl a el' idx v i - parallel_transform el idx v i)%C).
  set (f := fun i => Rmax 0 (Cabs (w i) - E)).
  eapply Rle_trans; [apply (nrm_split n w f (fun _ => E)) |].
  { intros i Hi. unfold f. split; [apply Rmax_l |]. split; [exact EP |]. pose proof (Rmax_r 0 (Cabs (w i) - E)). lra. }
  rewrite nrm_const by exact EP. apply Rplus_le_compat_r. apply nrm_le; [lra |].
  unfold power. rewrite <- Rsum_scal. apply (Rsum_pairs n _ idx); auto.
  - intros t b k Hin. destruct (Hq t b k Hin) as (Hc & N1 & N2 & N3 & N4). destruct (contr_entries _ Hc) as (C11 & C12 & C21 & C22).
    pose proof (out_err _ _ _ _ (v t) (v b) C11 C21 N1 N3) as O1. pose proof (out_err _ _ _ _ (v t) (v b) C12 C22 N2 N4) as O2.
    rewrite <- (ptf_top el' idx v t b k Hnd Hin) in O1. rewrite <- (ptf_bot el' idx v t b k Hnd Hin) in O2.
    change (t11 (el k) * v t + t21 (el k) * v b)%C with (qtop (el k) (v t) (v b)) in O1.
    change (t12 (el k) * v t + t22 (el k) * v b)%C with (qbot (el k) (v t) (v b)) in O2.
    rewrite <- (pt_top el idx v t b k Hnd Hin) in O1. rewrite <- (pt_bot el idx v t b k Hnd Hin) in O2.
    fold (w t) in O1. fold (w b) in O2. rewrite !Cn2_RtoC.
    pose proof (Cabs_nonneg (v t)) as Xt. pose proof (Cabs_nonneg (v b)) as Xb. rewrite <- !Cabs_sq. set (xt := Cabs (v t)) in *. set (xb := Cabs (v b)) in *.
    assert (B : 0 <= K * (xt + xb)) by (apply Rmult_le_pos; lra).
    assert (F1 : 0 <= f t <= K * (xt + xb)) by (unfold f; split; [apply Rmax_l | apply Rmax_lub; lra]).
    assert (F2 : 0 <= f b <= K * (xt + xb)) by (unfold f; split; [apply Rmax_l | apply Rmax_lub; lra]).
    assert (G1 : f t * f t <= (K * (xt + xb)) * (K * (xt + xb))) by nra. assert (G2 : f b * f b <= (K * (xt + xb)) * (K * (xt + xb))) by nra.
    assert (G3 : (xt + xb) * (xt + xb) <= 2 * (xt * xt + xb * xb)) by (pose proof (Rle_0_sqr (xt - xb)) as HS; unfold Rsqr in HS; lra).
    assert (G4 : K * K * ((xt + xb) * (xt + xb)) <= K * K * (2 * (xt * xt + xb * xb))) by (apply Rmult_le_compat_l; [nra | exact G3]). nra.
  - intros j Hj Hn. assert (W : w j = C0) by (unfold w; rewrite ptf_other, pt_other by auto; ring).
    unfold f. rewrite W, Cabs_C0, Rmax_left by lra. rewrite Cn2_RtoC. pose proof (Cn2_nonneg (v j)). nra.
Qed.
Lemma column_step : forall n el' el idx x v, col_near n el' el idx ->
  nrm n (fun i => parallel_transform_fl a el' idx x i - parallel_transform el idx v i)%C <=
  (1 + 2 * K) * nrm n (fun i => x i - v i)%C + 2 * K * nrm n v + sqrt (INR n) * E.
Proof.
  intros n el' el idx x v H. pose proof (column_err n el' el idx x H) as A. destruct H as (Hnd & Hlt & Hq).
  assert (Q : (fun i => parallel_transform_fl a el' idx x i - parallel_transform el idx v i)%C =
    (fun i => (parallel_transform_fl a el' idx x i - parallel_transform el idx x i) + parallel_transform el idx (fun i => x i - v i) i)%C).
  { rewrite pt_sub by auto. apply functional_extensionality; intro; ring. }
  rewrite Q. eapply Rle_trans; [apply (nrm_tri n (fun i => parallel_transform_fl a el' idx x i - parallel_transform el idx x i)%C) |].
  assert (B : nrm n (parallel_transform el idx (fun i => x i - v i)%C) <= nrm n (fun i => x i - v i)%C).
  { apply nrm_mono, column_contr; auto. intros t b k Hin. apply (Hq t b k Hin). }
  assert (C : nrm n x <= nrm n (fun i => x i - v i)%C + nrm n v).
  { replace x with (fun i => (x i - v i) + v i)%C at 1 by (apply functional_extensionality; intro; ring). apply (nrm_tri n (fun i => x i - v i)%C v). }
  pose proof K_pos. assert (2 * K * nrm n x <= 2 * K * (nrm n (fun i => x i - v i)%C + nrm n v)) by (apply Rmult_le_compat_l; lra). lra.
Qed.
Lemma gamma_step : forall n eg g x v, (forall i, (i < n)%nat -> Cabs (eg i - cis (g i))%C <= e) ->
  nrm n (fun i => apply_gammas_fl a eg x i - apply_gammas g v i)%C <= (1 + 2 * K) * nrm n (fun i => x i - v i)%C + 2 * K * nrm n v + sqrt (INR n) * E.
Proof.
  intros n eg g x v Hg. pose proof K_pos as KP. pose proof E_pos as EP. destruct Ha as (Hd & Hu & _).
  set (w := fun i => (apply_gammas_fl a eg x i - cis (g i) * x i)%C).
  assert (W : forall i, (i < n)%nat -> Cabs (w i) <= K * Cabs (x i) + E).
  { intros i Hi. unfold w, apply_gammas_fl. eapply Rle_trans; [apply (mul_err _ _ _ ltac:(rewrite Cabs_cis; lra) (Hg i Hi)) |].
    assert (L1 : (1 + e) * (1 + d) - 1 <= K).
    { unfold K. assert (1 + d <= (1 + d) ^ 3) by (assert (0 <= d * d) by nra; assert (0 <= d * d * d) by (apply Rmult_le_pos; nra); cbn [pow]; nra). nra. }
    assert (L2 : u <= E) by (unfold E; pose proof (pow2_ge_0 (1 + d)); nra).
    pose proof (Cabs_nonneg (x i)). nra. }
  assert (A : nrm n w <= K * nrm n x + sqrt (INR n) * E).
  { eapply Rle_trans; [apply (nrm_split n w (fun i => K * Cabs (x i)) (fun _ => E)) |].
    - intros i Hi. pose proof (Cabs_nonneg (x i)). repeat split; [nra | exact EP | apply W; exact Hi].
    - rewrite nrm_const by exact EP. apply Rplus_le_compat_r. apply nrm_le; [exact KP |]. apply Req_le. unfold power. rewrite <- Rsum_scal.
      apply Rsum_ext. intros i Hi. rewrite Cn2_RtoC, <- Cabs_sq. ring. }
  assert (Q : (fun i => apply_gammas_fl a eg x i - apply_gammas g v i)%C = (fun i => w i + apply_gammas g (fun i => x i - v i) i)%C).
  { apply functional_extensionality; intro i. unfold w, apply_gammas. ring. }
  rewrite Q. eapply Rle_trans; [apply (nrm_tri n w) |].
  assert (B : nrm n (apply_gammas g (fun i => x i - v i)%C) = nrm n (fun i => x i - v i)%C) by (unfold nrm; rewrite gammas_power; reflexivity).
  assert (C : nrm n x <= nrm n (fun i => x i - v i)%C + nrm n v).
  { replace x with (fun i => (x i - v i) + v i)%C at 1 by (apply functional_extensionality; intro; ring). apply (nrm_tri n (fun i => x i - v i)%C v). }
  assert (K * nrm n x <= K * (nrm n (fun i => x i - v i)%C + nrm n v)) by (apply Rmult_le_compat_l; lra).
  pose proof (nrm_pos n (fun i => x i - v i)%C). pose proof (nrm_pos n v). rewrite B. nra.
Qed.
(** ** All columns *)
Lemma fold_err : forall n el' el idxs, Forall (col_near n el' el) idxs -> forall x v X r, nrm n v <= X ->
  nrm n (fun i => x i - v i)%C <= r ->
  nrm n (fun i => fold_left (fun w idx => parallel_transform_fl a el' idx w) idxs x i - fold_left (fun w idx => parallel_transform el idx w) idxs v i)%C
  <= (1 + 2 * K) ^ length idxs * r + ((1 + 2 * K) ^ length idxs - 1) * X + INR (length idxs) * (1 + 2 * K) ^ length idxs * (sqrt (INR n) * E)
  /\ nrm n (fold_left (fun w idx => parallel_transform el idx w) idxs v) <= X.
Proof.
  intros n el' el idxs H. pose proof K_pos as KP. pose proof E_pos as EP. pose proof (sqrt_pos (INR n)) as SP.
  induction H as [| idx idxs H _ IH]; intros x v X r HX Hr; cbn [fold_left length]; [cbn [pow INR]; lra |].
  pose proof H as (Hnd & Hlt & Hq).
  assert (HX' : nrm n (parallel_transform el idx v) <= X).
  { eapply Rle_trans; [apply nrm_mono, column_contr; auto | exact HX]. intros t b k Hin. apply (Hq t b k Hin). }
  pose proof (column_step n el' el idx x v H) as S1. set (q := 1 + 2 * K) in *. assert (Q1 : 1 <= q) by (unfold q; lra).
  assert (S2 : nrm n (fun i => parallel_transform_fl a el' idx x i - parallel_transform el idx v i)%C <= q * r + (q - 1) * X + sqrt (INR n) * E).
  { eapply Rle_trans; [exact S1 |]. assert (q * nrm n (fun i => x i - v i)%C <= q * r) by (apply Rmult_le_compat_l; lra).
    assert (2 * K * nrm n v <= (q - 1) * X) by (unfold q; replace (1 + 2 * K - 1) with (2 * K) by ring; apply Rmult_le_compat_l; lra). lra. }
  destruct (IH _ _ X _ HX' S2) as [I1 I2]. split; [| exact I2]. eapply Rle_trans; [exact I1 |].
  assert (P1 : 1 <= q ^ length idxs) by (apply pow_R1_Rle; exact Q1). rewrite S_INR. cbn [pow]. set (P := q ^ length idxs) in *. set (Z := sqrt (INR n) * E).
  assert (ZP : 0 <= Z) by (apply Rmult_le_pos; lra). pose proof (pos_INR (length idxs)) as LP. set (L := INR (length idxs)) in *.
  assert (P * Z <= q * P * Z) by (apply Rmult_le_compat_r; [exact ZP | nra]).
  assert (L * P * Z <= L * (q * P) * Z) by (apply Rmult_le_compat_r; [exact ZP |]; apply Rmult_le_compat_l; [exact LP | nra]). nra.
Qed.
Lemma mesh_cols_near : forall m back p el' cols, wf_mesh m -> attenuating m -> columns m = Some cols ->
  (forall nd, In nd (nodes m) -> near_quad e (el' (node_id nd)) (parallel_mzi (style m) back (thetas p (node_id nd)) (phis p (node_id nd)) (err_at m (node_id nd)) (loss_at m (node_id nd)))) ->
  Forall (col_near (n_rails m) el' (mzis m back p)) (map triples cols) /\ length cols = Z.to_nat (num_columns m).
Proof.
  intros m back p el' cols (Hd & Hr & Hnd & Hcol) Hatt Hc Hn. unfold columns in Hc. apply all_some_map in Hc.
  assert (L : length cols = Z.to_nat (num_columns m)).
  { assert (G : forall (A B : Type) (P : A -> B -> Prop) l l', Forall2 P l l' -> length l = length l') by (intros A B P l l' G; induction G; cbn; auto).
    rewrite <- (G _ _ _ _ _ Hc). apply seq_length. }
  split; [| exact L]. clear L Hcol. revert Hc. generalize (seq 0 (Z.to_nat (num_columns m))) as sq. intros sq Hc. induction Hc as [| c mc sq cs Hm Hc IH]; cbn [map]; constructor; [| exact IH].
  set (l := filter (fun nd => Z.eqb (column nd) (Z.of_nat c)) (nodes m)) in *.
  change (nodes_in_column (nodes m) (Z.of_nat c)) with l in Hm.
  assert (Hl : renumber l = l) by (apply renumber_single, filter_nodup_id; exact Hnd).
  assert (Ht : triples mc = map (fun nd => (top nd, bottom nd, node_id nd)) l) by (rewrite (mk_mesh_triples _ _ _ Hm), Hl; reflexivity).
  assert (Hnode : forall t b k, In (t, b, k) (triples mc) -> exists nd, In nd (nodes m) /\ top nd = t /\ bottom nd = b /\ node_id nd = k).
  { intros t b k Q. rewrite Ht in Q. apply in_map_iff in Q. destruct Q as (nd & EQ & Q). apply filter_In in Q. exists nd. inversion EQ. repeat split; auto. apply Q. }
  split; [| split].
  - rewrite (mk_mesh_rails _ _ _ Hm). apply (Hd (Z.of_nat c)).
  - intros j Hj. destruct (rails_inv _ _ Hj) as (t & b & k & Hi & Ej). destruct (Hnode t b k Hi) as (nd & N1 & N3 & N4 & N5).
    destruct (Hr nd N1) as (R1 & R2 & _). destruct Ej; subst; assumption.
  - intros t b k Hi. destruct (Hnode t b k Hi) as (nd & N1 & N3 & N4 & N5). destruct (loss_at_neg m Hatt k) as [L1 L2].
    split; [apply parallel_mzi_contr; assumption |]. rewrite <- N5. apply (Hn nd N1).
Qed.
Lemma mesh_err : forall m back p el' eg x y y', wf_mesh m -> attenuating m ->
  (forall nd, In nd (nodes m) -> near_quad e (el' (node_id nd)) (parallel_mzi (style m) back (thetas p (node_id nd)) (phis p (node_id nd)) (err_at m (node_id nd)) (loss_at m (node_id nd)))) ->
  (forall i, (i < n_rails m)%nat -> Cabs (eg i - cis (gammas p i))%C <= e) ->
  matrix_fn m back p x = Some y -> matrix_fn_fl a m back el' eg x = Some y' ->
  let q := 1 + 2 * K in let L := Datatypes.S (Z.to_nat (num_columns m)) in
  nrm (n_rails m) (fun i => y' i - y i)%C <= (q ^ L - 1) * nrm (n_rails m) x + INR L * q ^ L * (sqrt (INR (n_rails m)) * E).
Proof.
  intros m back p el' eg x y y' Hwf Hatt Hn Hg Hy Hy' q L. unfold matrix_fn in Hy. unfold matrix_fn_fl in Hy'.
  destruct (columns m) as [cols |] eqn:Hc; [| discriminate]. destruct (forallb _ _) eqn:Hok in Hy; [| discriminate]. rewrite Hok in Hy'.
  assert (Inj : forall a b : vec, Some a = Some b -> a = b) by (intros ? ? Q; congruence). apply Inj in Hy, Hy'. clear Inj.
  destruct (mesh_cols_near m back p el' cols Hwf Hatt Hc Hn) as [F Len]. set (n := n_rails m) in *. set (el := mzis m back p) in *.
  assert (Zs : nrm n (fun i => x i - x i)%C <= 0).
  { apply Req_le. unfold nrm. rewrite <- sqrt_0. f_equal. unfold power. apply Rsum_0. intros i _. replace (x i - x i)%C with C0 by ring. apply Cn2_C0. }
  pose proof K_pos as KP. pose proof E_pos as EP. assert (Q1 : 1 <= q) by (unfold q; lra). pose proof (nrm_pos n x) as NX. set (Zr := sqrt (INR n) * E).
  assert (ZP : 0 <= Zr) by (apply Rmult_le_pos; [apply sqrt_pos | exact EP]).
  destruct back.
  - rewrite map_rev in Hy, Hy'. apply Forall_rev in F.
    pose proof (gamma_step n eg (gammas p) x x Hg) as G. assert (GX : nrm n (apply_gammas (gammas p) x) <= nrm n x) by (apply Req_le; unfold nrm; rewrite gammas_power; reflexivity).
    destruct (fold_err n el' el _ F _ _ (nrm n x) _ GX G) as [R1 _]. rewrite rev_length, map_length, Len in R1. rewrite <- Hy, <- Hy'. eapply Rle_trans; [exact R1 |].
    change (1 + 2 * K) with q in R1 |- *. change (sqrt (INR n) * E) with Zr in R1 |- *. unfold L. rewrite S_INR. cbn [pow]. set (P := q ^ Z.to_nat (num_columns m)). assert (P1 : 1 <= P) by (apply pow_R1_Rle; exact Q1).
    pose proof (pos_INR (Z.to_nat (num_columns m))) as LP. set (M := INR (Z.to_nat (num_columns m))) in *.
    assert (q * nrm n (fun i => x i - x i)%C <= 0) by nra.
    assert (P * (q * nrm n (fun i => x i - x i)%C + 2 * K * nrm n x + Zr) <= P * ((q - 1) * nrm n x + Zr)) by (apply Rmult_le_compat_l; [lra |]; unfold q in *; lra).
    assert (P * Zr <= q * P * Zr) by (apply Rmult_le_compat_r; [exact ZP | nra]).
    assert (M * P * Zr <= M * (q * P) * Zr) by (apply Rmult_le_compat_r; [exact ZP |]; apply Rmult_le_compat_l; [exact LP | nra]). nra.
  - destruct (fold_err n el' el _ F x x (nrm n x) 0 (Rle_refl _) Zs) as [R1 R2]. rewrite map_length, Len in R1.
    rewrite <- Hy, <- Hy'. eapply Rle_trans; [apply (gamma_step n eg (gammas p) _ _ Hg) |]. change (1 + 2 * K) with q in R1 |- *. change (sqrt (INR n) * E) with Zr in R1 |- *. unfold L. rewrite S_INR. cbn [pow].
    set (P := q ^ Z.to_nat (num_columns m)) in *. assert (P1 : 1 <= P) by (apply pow_R1_Rle; exact Q1). pose proof (pos_INR (Z.to_nat (num_columns m))) as LP. set (M := INR (Z.to_nat (num_columns m))) in *.
    match type of R1 with ?t <= _ => assert (q * t <= q * (P * 0 + (P - 1) * nrm n x + M * P * Zr)) by (apply Rmult_le_compat_l; lra) end.
    match type of R2 with ?t <= _ => assert (2 * K * t <= (q - 1) * nrm n x) by (unfold q; replace (1 + 2 * K - 1) with (2 * K) by ring; apply Rmult_le_compat_l; lra) end.
    assert (Zr <= q * P * Zr) by (assert (1 <= q * P) by nra; nra). nra.
Qed.
End Arith.
