(** Proofs for C170 (4): the theorems. *)
From Coq Require Import Reals Lra Lia List ZArith Permutation Bool FunctionalExtensionality.
From Verif Require Import Cx Arr Spec_circuit Model_coupling Model_forward Model_vector Spec_mesh Spec_tree Spec_vunit
  Proof_node Proof_mesh Proof_forward Proof_forward2 Proof_forward3 Proof_forward4 Proof_null Proof_null2 Proof_tree Proof_vector Proof_vunit Proof_vunit2 Proof_vunit3.
Import ListNotations.
Local Open Scope R_scope.
Lemma hardware : forall eps v n last balanced s e l, (2 <= n)%nat -> s = TOP \/ s = BOTTOM ->
  exists m p w, vector_unit eps v n last n balanced s e l = Some (m, p, w) /\ style m = s /\ n_rails m = n /\ nulling_network n m /\
    (forall nd, In nd (nodes m) -> bs_error nd = (e, e) /\ loss nd = (l, l)) /\
    bs_errors m = repeat (e, e) (n - 1) /\ losses m = repeat (l, l) (n - 1) /\
    (forall j, exists y, matrix_fn m false p (fun i => v i j) = Some y /\ (forall i, Cn2 (y i) = Cn2 (w i j)) /\
       (j = last -> im (y (n - 1)%nat) = 0 /\ 0 <= re (y (n - 1)%nat))).
Proof.
  intros eps v n last balanced s e l Hn Hs.
  destruct (unit_runs eps v n last balanced s e l Hn Hs) as (t & m & p & w & Et & M3 & M1 & M2 & M5 & M6 & Null & Wf & Ev & HP & Hm & Hw & Hg & _).
  exists m, p, w. split; [exact Ev |]. split; [exact M1 |]. split; [exact M2 |]. split; [exact Null |].
  assert (Hlen : length (nodes t) = (n - 1)%nat) by (destruct Null as (H & _); rewrite M3, map_length in H; exact H).
  assert (Hr : forall (A : Type) (x : A) (r : list node), map (fun _ => x) r = repeat x (length r)) by (intros A x r; induction r; cbn; congruence).
  split; [intros nd H; rewrite M3 in H; apply in_map_iff in H; destruct H as (x & <- & _); split; reflexivity |].
  split; [rewrite M5, Hr, Hlen; reflexivity |]. split; [rewrite M6, Hr, Hlen; reflexivity |].
  intro j. eexists. split; [apply Hm |]. split.
  - intro i. unfold apply_gammas. rewrite <- Hw, Cn2_mul, Cn2_cis. ring.
  - intros ->. rewrite <- Hw.
    assert (Hlast : apply_gammas (gammas p) (fun i => w i last) (n - 1)%nat = RtoC (Cabs (w (n - 1)%nat last))).
    { unfold apply_gammas. rewrite Hg, Nat.eqb_refl. rewrite <- Carg_unphase. ring. }
    rewrite Hlast. split; [reflexivity |]. cbn. apply Cabs_nonneg.
Qed.
Lemma nulls : forall eps v n last balanced s e, (2 <= n)%nat -> s = TOP \/ s = BOTTOM -> 0 <= eps -> - (PI / 4) < e < PI / 4 ->
  reachable_splits balanced eps e n (fun i => v i last) ->
  exists m p w y, vector_unit eps v n last n balanced s e 0 = Some (m, p, w) /\ matrix_fn m false p (fun i => v i last) = Some y /\
    (forall i, (i < n - 1)%nat -> Cn2 (y i) <= eps) /\ power n y = power n (fun i => v i last) /\
    y (n - 1)%nat = RtoC (Cabs (y (n - 1)%nat)) /\ power n (fun i => v i last) - INR (n - 1) * eps <= Cn2 (y (n - 1)%nat) <= power n (fun i => v i last).
Proof.
  intros eps v n last balanced s e Hn Hs Heps He Hre.
  destruct (unit_runs eps v n last balanced s e 0 Hn Hs) as (t & m & p & w & Et & M3 & M1 & M2 & M5 & M6 & Null & Wf & Ev & HP & Hm & Hw & Hg & Htr).
  exists m, p, w, (apply_gammas (gammas p) (fun i => w i last)). split; [exact Ev |]. split; [rewrite Hm, Hw; reflexivity |].
  assert (Hf : forall nd, In nd (nodes m) -> exists a h k, combines balanced n a h k /\ fed earlier (nodes m) nd a h k).
  { intros nd H. rewrite M3 in H. apply in_map_iff in H. destruct H as (x & <- & H). destruct (tree_fed n balanced s t Hn Et x H) as (a & h & k & Hc & F).
    exists a, h, k. split; [exact Hc |]. rewrite M3. apply (fed_map earlier earlier (fun nd => with_errors nd (e, e) (0, 0))); [intros; split; reflexivity | | exact F].
    intros y _. unfold earlier. reflexivity. }
  pose proof (nulled_all eps e s n m (thetas p) (phis p) (fun i => v i last) balanced Heps He Hs Null HP (proj1 Wf) Hf Hre Htr) as Hz0.
  assert (Hz : forall i, (i < n - 1)%nat -> Cn2 (w i last) <= eps).
  { intros i Hi. pose proof (f_equal (fun g => g i) (Hw last)) as Ei. cbv beta in Ei. rewrite Ei. exact (Hz0 i Hi). }
  assert (Hz' : forall i, (i < n - 1)%nat -> Cn2 (apply_gammas (gammas p) (fun i0 => w i0 last) i) <= eps) by (intros i Hi; unfold apply_gammas; rewrite Cn2_mul, Cn2_cis, Rmult_1_l; auto).
  split; [exact Hz' |].
  assert (Hp : power n (apply_gammas (gammas p) (fun i => w i last)) = power n (fun i => v i last)).
  { rewrite apply_gammas_power, Hw. apply run_power.
    - apply Forall_forall. intros o Ho. apply in_map_iff in Ho. destruct Ho as (nd & <- & H). destruct Null as (_ & _ & _ & B & _). specialize (B nd (Permutation_in _ HP H)). cbn. lia.
    - apply Forall_forall. intros o Ho. apply in_map_iff in Ho. destruct Ho as (nd & <- & H). cbn [opE quad_of]. apply parallel_mzi_unit. }
  split; [exact Hp |]. split.
  - assert (Hlast : apply_gammas (gammas p) (fun i => w i last) (n - 1)%nat = RtoC (Cabs (w (n - 1)%nat last))).
    { unfold apply_gammas. rewrite Hg, Nat.eqb_refl. rewrite <- Carg_unphase. ring. }
    rewrite Hlast at 1. f_equal. unfold apply_gammas. unfold Cabs. rewrite Cn2_mul, Cn2_cis, Rmult_1_l. reflexivity.
  - rewrite <- Hp. set (y := apply_gammas (gammas p) (fun i => w i last)) in *. pose proof (group_last y 0 n ltac:(lia)) as G1. pose proof (group_last_ge y 0 n eps ltac:(lia)) as G2.
    unfold group_power in G1, G2. cbn [Nat.add] in G1, G2. unfold power. split; [| exact G1]. specialize (G2 (fun i Hi => Hz' i ltac:(lia))). lra.
Qed.
Lemma limit : forall eps v balanced s e, s = TOP \/ s = BOTTOM -> - (PI / 4) < e < PI / 4 -> v 1%nat 0%nat = C0 ->
  exists m p w, vector_unit eps v 2 0 2 balanced s e 0 = Some (m, p, w) /\
    forall p', exists y, matrix_fn m false p' (fun i => v i 0%nat) = Some y /\ sin (2 * e) ^ 2 * Cn2 (v 0%nat 0%nat) <= Cn2 (y 0%nat).
Proof.
  intros eps v balanced s e Hs He Hv.
  destruct (unit_runs eps v 2 0 balanced s e 0 (le_n 2) Hs) as (t & m & p & w & Et & M3 & M1 & M2 & M5 & M6 & Null & Wf & Ev & HP & Hm & _).
  exists m, p, w. split; [exact Ev |]. intro p'. eexists. split; [apply Hm |]. unfold apply_gammas. rewrite Cn2_mul, Cn2_cis, Rmult_1_l.
  destruct Null as (N1 & _ & _ & N4 & _). assert (Lc : length (concat (ord m)) = 1%nat) by (rewrite (Permutation_length HP), N1; reflexivity).
  destruct (concat (ord m)) as [| nd [| ? ?]] eqn:Ec; [discriminate | | discriminate].
  assert (Hin : In nd (nodes m)) by (eapply Permutation_in; [exact HP | left; reflexivity]). specialize (N4 nd Hin).
  cbn [map run fold_left]. unfold opE, apply_op. replace (top nd) with 0%nat by lia. replace (bottom nd) with 1%nat by lia.
  unfold upd. cbn [Nat.eqb]. set (q := pnE _ _ _ _ _).
  assert (U : quad_unit q) by apply parallel_mzi_unit. pose proof (quad_unit_power q U (v 0%nat 0%nat) (v 1%nat 0%nat)) as P. rewrite Hv in *.
  replace (Cn2 C0) with 0 in P by (unfold Cn2; cbn; ring).
  assert (B : Cn2 (qbot q (v 0%nat 0%nat) C0) <= cos (2 * e) ^ 2 * Cn2 (v 0%nat 0%nat)).
  { unfold qbot. replace (t12 q * v 0%nat 0%nat + t22 q * C0)%C with (t12 q * v 0%nat 0%nat)%C by ring. rewrite Cn2_mul. apply Rmult_le_compat_r; [apply Cn2_nonneg |].
    unfold q, pnE. pose proof (mzi_cross_power s false (thetas p' (node_id nd)) (phis p' (node_id nd)) (e, e)) as Q. cbv zeta in Q. cbn [fst snd] in Q. rewrite Q. rewrite <- reach_e.
    set (a := cos (PI / 4 + e)) in *. set (d := sin (PI / 4 + e)) in *. pose proof (COS_bound (thetas p' (node_id nd))) as Hc.
    pose proof (pow2_ge_0 (a * d)) as Hp. replace ((2 * (a * d)) ^ 2) with ((a * d) ^ 2 + (d * a) ^ 2 + 2 * (a * d) ^ 2 * 1) by ring.
    replace (2 * (a * d) * (d * a) * cos (thetas p' (node_id nd))) with (2 * (a * d) ^ 2 * cos (thetas p' (node_id nd))) by ring.
    apply Rplus_le_compat_l. apply Rmult_le_compat_l; lra. }
  pose proof (cossin2 (2 * e)) as Hcs. assert (sin (2 * e) ^ 2 = 1 - cos (2 * e) ^ 2) as -> by lra. lra.
Qed.
Lemma group_ones : forall a k, group_power (fun _ => C1) a k = INR k.
Proof. intros a k. unfold group_power. induction k as [| k IH]; [reflexivity |]. cbn [Rsum]. rewrite IH, S_INR. unfold Cn2, C1, RtoC. cbn. lra. Qed.
Lemma uniform_reachable : forall eps e n, 3 / 4 <= cos (2 * e) ^ 2 -> INR n * eps <= 2 / 3 ->
  reachable_splits true eps e n (fun _ => C1).
Proof.
  intros eps e n He Hn a h k (Hh & Hk & ->). right. rewrite !group_ones.
  assert (H2 : 2 <= INR k) by (replace 2 with (INR 2) by reflexivity; apply le_INR; lia).
  assert (H1 : 2 * INR (k / 2) <= INR k).
  { replace 2 with (INR 2) by reflexivity. rewrite <- mult_INR. apply le_INR. pose proof (Nat.mul_div_le k 2). lia. }
  apply Rle_trans with (3 / 4 * (INR k - INR n * eps)); [lra |]. apply Rmult_le_compat_r; lra.
Qed.
Lemma cos_PI6_sq : cos (2 * (PI / 12)) ^ 2 = 3 / 4.
Proof. replace (2 * (PI / 12)) with (PI / 6) by field. rewrite cos_PI6. replace ((sqrt 3 / 2) ^ 2) with (sqrt 3 * sqrt 3 / 4) by field. rewrite sqrt_sqrt; lra. Qed.
