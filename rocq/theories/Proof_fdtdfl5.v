(** Theorems for C160. *)
From Coq Require Import Reals Lra Lia Psatz List Arith Bool ZArith FunctionalExtensionality.
From Flocq Require Import Core.
From Verif Require Import Cx Arr Model_yee Spec_yee Proof_yee Proof_yee2 Model_fdtd Spec_fdtd Proof_fdtd Proof_energy Proof_energy2 Proof_energy3 Proof_fdtd3 Proof_sym Proof_harm2.
From Verif Require Import Spec_conv Proof_conv3 Proof_duhamel Proof_adj Model_float Spec_float Proof_float Proof_fround2 Model_fdtdfl Spec_fdtdfl Proof_fdtdfl Proof_fdtdfl2 Proof_fdtdfl3 Proof_fdtdfl4.
Import ListNotations.
Local Open Scope R_scope.

Lemma uni_bound : forall g kap, wf_grid g -> 1 < kap -> (forall i j k, in_grid (g_shape g) i j k -> kap <= g_eps g i j k) ->
  forall st n, nst g (free_run g false st n) <= sqrt (2 / (1 - / sqrt kap)) * nst g st.
Proof.
  intros g kap W Hk He st n. pose proof (uniform_bound g false kap st n W Hk He) as G. unfold nst. rewrite <- sqrt_mult_alt.
  - apply sqrt_le_1_alt. exact G.
  - assert (1 < sqrt kap) by (rewrite <- sqrt_1; apply sqrt_lt_1_alt; lra). assert (/ sqrt kap < 1) by (rewrite <- Rinv_1; apply Rinv_lt_contravar; lra).
    apply Rlt_le, Rdiv_lt_0_compat; lra.
Qed.
Lemma lin_bound : forall g emax, wf_grid g -> (forall i j k, in_grid (g_shape g) i j k -> 1 <= g_eps g i j k <= emax) ->
  forall st n, nst g (free_run g false st n) <= 4 * (INR n + 1) * nst g st.
Proof.
  intros g emax W He st n. pose proof (growth_bound g false st n W (fun i j k Hin => proj1 (He i j k Hin))) as G. pose proof (epsp g emax He) as P.
  apply sq_le_le; [apply Rmult_le_pos; [pose proof (pos_INR n); lra | apply nst_pos] |]. rewrite nst_sq by exact P.
  replace (4 * (INR n + 1) * nst g st * (4 * (INR n + 1) * nst g st)) with (16 * ((INR n + 1) * (INR n + 1)) * (nst g st * nst g st)) by ring.
  rewrite nst_sq by exact P. exact G.
Qed.
Lemma rms_pos : forall g st, 0 <= rms g st.
Proof. intros. apply sqrt_pos. Qed.
Lemma fl_uniform : forall g ar mc d u e lo hi kap emax st0 sch N X P, wf_grid g -> 1 < kap -> (forall i j k, in_grid (g_shape g) i j k -> kap <= g_eps g i j k <= emax) ->
  farith_ok d u lo hi ar -> const_ok e lo hi g mc -> d + e <= 1 / 100 -> (forall n, (length (sch n) <= 1)%nat) ->
  (forall n, (n < N)%nat -> rms g (run g false st0 (map sch (seq 0 n))) <= X /\ rms g (push g (sch n)) <= P) ->
  let B := sqrt (2 / (1 - / sqrt kap)) in 680 * (B * INR N) * (d + e) <= 1 ->
  rms g (gap (run_fl ar g mc st0 (map sch (seq 0 N))) (run g false st0 (map sch (seq 0 N)))) <=
  2 * B * INR N * (340 * (d + e) * (X + P) + 72 * u * (1 + dt_of g) * sqrt emax).
Proof.
  intros g ar mc d u e lo hi kap emax st0 sch N X P W Hk He Ha Hc Ht Hs HXP B HB.
  assert (He1 : forall i j k, in_grid (g_shape g) i j k -> 1 <= g_eps g i j k <= emax) by (intros i j k Hin; pose proof (He i j k Hin); lra).
  destruct N as [| N].
  { cbn [seq map run run_fl INR]. rewrite rms_self by exact W. lra. }
  destruct (HXP 0%nat ltac:(lia)) as [X0 P0]. pose proof (rms_pos g (run g false st0 (map sch (seq 0 0)))) as X1. pose proof (rms_pos g (push g (sch 0%nat))) as P1.
  pose proof (run_err2 g ar mc d u e lo hi emax W He1 Ha Hc Ht st0 sch Hs (fun _ => B) (uni_bound g kap W Hk (fun i j k Hin => proj1 (He i j k Hin))) (fun _ => sqrt_pos _)
    (S N) X P (B * INR (S N)) (fun n Hn => proj1 (HXP n Hn)) (fun n Hn => proj2 (HXP n Hn))) as R. cbv zeta in R.
  eapply Rle_trans; [apply R |].
  - intros n Hn. rewrite Rsum_const'. rewrite Rmult_comm. apply Rmult_le_compat_l; [apply sqrt_pos |]. apply le_INR. exact Hn.
  - exact HB.
  - lra.
  - lra.
  - right. unfold B. ring.
Qed.
Lemma fl_any : forall g ar mc d u e lo hi emax st0 sch N X P, wf_grid g -> (forall i j k, in_grid (g_shape g) i j k -> 1 <= g_eps g i j k <= emax) ->
  farith_ok d u lo hi ar -> const_ok e lo hi g mc -> d + e <= 1 / 100 -> (forall n, (length (sch n) <= 1)%nat) ->
  (forall n, (n < N)%nat -> rms g (run g false st0 (map sch (seq 0 n))) <= X /\ rms g (push g (sch n)) <= P) ->
  1360 * (INR N * (INR N + 1)) * (d + e) <= 1 ->
  rms g (gap (run_fl ar g mc st0 (map sch (seq 0 N))) (run g false st0 (map sch (seq 0 N)))) <=
  4 * INR N * (INR N + 1) * (340 * (d + e) * (X + P) + 72 * u * (1 + dt_of g) * sqrt emax).
Proof.
  intros g ar mc d u e lo hi emax st0 sch N X P W He1 Ha Hc Ht Hs HXP HB.
  destruct N as [| N].
  { cbn [seq map run run_fl INR]. rewrite rms_self by exact W. lra. }
  destruct (HXP 0%nat ltac:(lia)) as [X0 P0]. pose proof (rms_pos g (run g false st0 (map sch (seq 0 0)))) as X1. pose proof (rms_pos g (push g (sch 0%nat))) as P1.
  pose proof (run_err2 g ar mc d u e lo hi emax W He1 Ha Hc Ht st0 sch Hs (fun n => 4 * (INR n + 1)) (lin_bound g emax W He1) (fun n => ltac:(pose proof (pos_INR n); lra))
    (S N) X P (2 * INR (S N) * (INR (S N) + 1)) (fun n Hn => proj1 (HXP n Hn)) (fun n Hn => proj2 (HXP n Hn))) as R. cbv zeta in R.
  eapply Rle_trans; [apply R |].
  - intros n Hn. rewrite sum_growth. pose proof (le_INR _ _ Hn) as L. pose proof (pos_INR n).
    assert (INR n * (INR n + 1) <= INR (S N) * (INR (S N) + 1)) by (apply Rmult_le_compat; lra). lra.
  - lra.
  - lra.
  - lra.
  - right. ring.
Qed.
Lemma push_nil : forall g, wf_grid g -> rms g (push g []) = 0.
Proof.
  intros g W. rewrite <- (rms_self g (push g []) W). f_equal. apply state_eq; intros c i j k; unfold push, gap; cbn [f_e f_h current]; unfold zero_vfld, Cdiv; ring.
Qed.
Lemma map_nil : forall m n, map (fun _ : nat => @nil source) (seq m n) = repeat [] n.
Proof. intros m n; revert m; induction n; intro m; [reflexivity | cbn; rewrite IHn; reflexivity]. Qed.
Lemma fl_free : forall g ar mc d u e lo hi kap emax st0 N, wf_grid g -> 1 < kap -> (forall i j k, in_grid (g_shape g) i j k -> kap <= g_eps g i j k <= emax) ->
  farith_ok d u lo hi ar -> const_ok e lo hi g mc -> d + e <= 1 / 100 ->
  let B := sqrt (2 / (1 - / sqrt kap)) in 680 * (B * INR N) * (d + e) <= 1 ->
  rms g (gap (run_fl ar g mc st0 (repeat [] N)) (free_run g false st0 N)) <=
  2 * B * INR N * (340 * (d + e) * (B * rms g st0) + 72 * u * (1 + dt_of g) * sqrt emax).
Proof.
  intros g ar mc d u e lo hi kap emax st0 N W Hk He Ha Hc Ht B HB.
  pose proof (fl_uniform g ar mc d u e lo hi kap emax st0 (fun _ => []) N (B * rms g st0) 0 W Hk He Ha Hc Ht) as F. rewrite map_nil in F.
  rewrite Rplus_0_r in F. apply F.
  - intro. cbn. lia.
  - intros n _. rewrite push_nil by exact W. split; [| lra]. rewrite map_nil. change (run g false st0 (repeat [] n)) with (free_run g false st0 n).
    rewrite !(rms_nst g W). unfold Rdiv. rewrite <- Rmult_assoc. apply Rmult_le_compat_r.
    + left. apply Rinv_0_lt_compat, sqrt_lt_R0, (cells3_pos g W).
    + apply uni_bound; auto. intros i j k Hin. apply (He i j k Hin).
  - exact HB.
Qed.
Lemma rms_tri : forall g emax a b c, wf_grid g -> (forall i j k, in_grid (g_shape g) i j k -> 1 <= g_eps g i j k <= emax) -> rms g (gap a c) <= rms g (gap a b) + rms g (gap b c).
Proof.
  intros g emax a b c W He. rewrite !(rms_nst g W). unfold Rdiv. rewrite <- Rmult_plus_distr_r. apply Rmult_le_compat_r.
  - left. apply Rinv_0_lt_compat, sqrt_lt_R0, (cells3_pos g W).
  - replace (gap a c) with (sadd (gap a b) (gap b c)) by (apply state_eq; intros x i j k; unfold sadd, vadd, gap; cbn [f_e f_h]; ring). apply nst_triangle. apply (epsp g emax He).
Qed.
(** Both errors together. *)
Lemma fl_total : forall g ar mc d u e lo hi kap emax E H J K DE DH TE TH sch M Dx st0 N X P, wf_grid g -> 1 < kap ->
  (forall i j k, in_grid (g_shape g) i j k -> kap <= g_eps g i j k <= emax) ->
  farith_ok d u lo hi ar -> const_ok e lo hi g mc -> d + e <= 1 / 100 -> (forall n, (length (sch n) <= 1)%nat) ->
  (forall n, (n < N)%nat -> rms g (run g false st0 (map sch (seq 0 n))) <= X /\ rms g (push g (sch n)) <= P) ->
  (forall a, is_active g a = true -> g_spacing g a <= Dx) -> fits_grid g E -> fits_grid g H -> derivatives M E DE TE -> derivatives M H DH TH ->
  maxwell g DE DH TE TH J K -> drives g sch J K ->
  let B := sqrt (2 / (1 - / sqrt kap)) in 680 * (B * INR N) * (d + e) <= 1 ->
  rms g (gap (run_fl ar g mc st0 (map sch (seq 0 N))) (exact_state g E H N)) <=
  B * (rms g (gap st0 (exact_state g E H 0)) + INR N * dt_of g * ((sqrt emax + 3) / 8) * M * Dx ^ 2) +
  2 * B * INR N * (340 * (d + e) * (X + P) + 72 * u * (1 + dt_of g) * sqrt emax).
Proof.
  intros g ar mc d u e lo hi kap emax E H J K DE DH TE TH sch M Dx st0 N X P W Hk He Ha Hc Ht Hs HXP HD FE FH SE SH MX DR B HB.
  assert (He1 : forall i j k, in_grid (g_shape g) i j k -> 1 <= g_eps g i j k <= emax) by (intros i j k Hin; pose proof (He i j k Hin); lra).
  eapply Rle_trans; [apply (rms_tri g emax _ (run g false st0 (map sch (seq 0 N))) _ W He1) |]. rewrite Rplus_comm. apply Rplus_le_compat.
  - exact (convergence g E H J K DE DH TE TH sch M Dx kap emax st0 N W Hk He HD FE FH SE SH MX DR).
  - exact (fl_uniform g ar mc d u e lo hi kap emax st0 sch N X P W Hk He Ha Hc Ht Hs HXP HB).
Qed.
(** The machine's arithmetic. *)
Lemma comp64 : forall z z', Rabs (re z' - re z) <= / 2 ^ 53 * Rabs (re z) + bpow radix2 (-1075) -> Rabs (im z' - im z) <= / 2 ^ 53 * Rabs (im z) + bpow radix2 (-1075) ->
  Cabs (z' - z)%C <= 3 / 2 ^ 53 * Cabs z + powerRZ 2 (-1074).
Proof.
  intros z z' H1 H2. eapply Rle_trans; [apply (Cabs_comp2 z (z' - z)%C (/ 2 ^ 53) (bpow radix2 (-1075))) |].
  - lra.
  - apply bpow_ge_0.
  - exact H1.
  - exact H2.
  - apply Rplus_le_compat.
    + pose proof (Cabs_nonneg z). apply Rmult_le_compat_r; lra.
    + replace (powerRZ 2 (-1074)) with (2 * bpow radix2 (-1075)); [pose proof (bpow_ge_0 radix2 (-1075)); lra |]. rewrite <- bp. change (-1074)%Z with (1 + -1075)%Z. rewrite bpow_plus. reflexivity.
Qed.
Lemma b64e : forall x, Rabs (b64 x - x) <= / 2 ^ 53 * Rabs x + bpow radix2 (-1075).
Proof. intro x. rewrite <- u53. apply b64_err. Qed.
Lemma ok_fl64 : farith_ok (3 / 2 ^ 53) (powerRZ 2 (-1074)) (powerRZ 2 (-1000)) (powerRZ 2 1000) b64_farith.
Proof.
  split; [lra |]. split; [apply powerRZ_le; lra |]. split; [apply powerRZ_lt; lra |]. split; [| split; [| split]].
  - intros z w. apply comp64; apply b64e.
  - intros z w. apply comp64; cbn [fa_sub b64_farith re im Csub Cadd Copp]; apply b64e.
  - intros z x. replace (Cabs z * Rabs x) with (Cabs (z * RtoC x)%C).
    + apply comp64; cbn [fa_mul b64_farith re im RtoC Cmul].
      * replace (re z * x - im z * 0) with (re z * x) by ring. apply b64e.
      * replace (re z * 0 + im z * x) with (im z * x) by ring. apply b64e.
    + rewrite Cabs_mul. f_equal. destruct (Rle_dec 0 x) as [p | q]; [rewrite Cabs_RtoC, Rabs_pos_eq by lra; reflexivity |].
      rewrite <- Cabs_opp. replace (- RtoC x)%C with (RtoC (- x)) by (apply C_eq; cbn; ring). rewrite Cabs_RtoC by lra. rewrite Rabs_left1 by lra. reflexivity.
  - intros z x [L1 L2]. assert (P : 0 < powerRZ 2 (-1000)) by (apply powerRZ_lt; lra). assert (X0 : 0 < x) by lra. assert (Ix : 0 < / x) by (apply Rinv_0_lt_compat; lra).
    assert (Nm : normal (1 / x)).
    { unfold normal. apply Rle_trans with (powerRZ 2 (-1000)); [rewrite <- !bp; apply bpow_le; lia |]. unfold Rdiv. rewrite Rmult_1_l. rewrite <- bp. change (-1000)%Z with (- (1000))%Z. rewrite bpow_opp, bp.
      apply Rinv_le_contravar; assumption. }
    destruct (rel_err_pos _ Nm) as [_ Re]. unfold Rdiv in Re. rewrite Rmult_1_l in Re. cbn [fa_div b64_farith].
    set (r := b64 (1 / x)) in *. assert (Er : Rabs (r - / x) <= / 2 ^ 53 * / x) by (unfold r, Rdiv; rewrite Rmult_1_l; exact Re). 
    assert (U : / 2 ^ 53 = 1 / 9007199254740992) by (cbn; lra). assert (Rr : 0 <= r <= 2 * / x) by (apply Rabs_le_inv in Er; rewrite U in Er; lra).
    assert (One : forall a, Rabs (b64 (a * r) - a * / x) <= 3 / 2 ^ 53 * Rabs (a * / x) + bpow radix2 (-1075)).
    { intro a. replace (b64 (a * r) - a * / x) with (b64 (a * r) - a * r + a * (r - / x)) by ring. eapply Rle_trans; [apply Rabs_triang |]. pose proof (b64e (a * r)) as B. rewrite !Rabs_mult in *.
      rewrite (Rabs_pos_eq r) in B by lra. rewrite (Rabs_pos_eq (/ x)) by lra. pose proof (Rabs_pos a) as A. assert (C1 : Rabs a * r <= Rabs a * (1 + / 2 ^ 53) * / x).
      { rewrite Rmult_assoc. apply Rmult_le_compat_l; [exact A |]. apply Rabs_le_inv in Er. lra. }
      assert (C2 : Rabs a * Rabs (r - / x) <= Rabs a * (/ 2 ^ 53 * / x)) by (apply Rmult_le_compat_l; assumption). assert (C3 : 0 <= Rabs a * / x) by (apply Rmult_le_pos; lra).
      set (q := Rabs a * / x) in *. replace (Rabs a * (1 + / 2 ^ 53) * / x) with ((1 + / 2 ^ 53) * q) in C1 by (unfold q; ring). replace (Rabs a * (/ 2 ^ 53 * / x)) with (/ 2 ^ 53 * q) in C2 by (unfold q; ring).
      unfold Rdiv at 1. rewrite U in *. lra. }
    assert (Ez : Cabs z / x = Cabs (z / RtoC x)%C) by (rewrite Cabs_div by exact X0; reflexivity). rewrite Ez.
    assert (Ezz : (z / RtoC x)%C = mkC (re z * / x) (im z * / x)) by (apply C_eq; unfold Cdiv, Cinv, Cn2; cbn [re im RtoC Cmul]; field; lra). rewrite Ezz.
    eapply Rle_trans; [apply (Cabs_comp2 (mkC (re z * / x) (im z * / x)) _ (3 / 2 ^ 53) (bpow radix2 (-1075))) |].
    + lra.
    + apply bpow_ge_0.
    + cbn [re im Csub Cadd Copp]. apply One.
    + cbn [re im Csub Cadd Copp]. apply One.
    + apply Rplus_le_compat_l. replace (powerRZ 2 (-1074)) with (2 * bpow radix2 (-1075)); [pose proof (bpow_ge_0 radix2 (-1075)); lra |]. rewrite <- bp. change (-1074)%Z with (1 + -1075)%Z. rewrite bpow_plus. reflexivity.
Qed.
