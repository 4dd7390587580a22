(** Lemmas about the figures of merit. *)
From Coq Require Import Reals List Arith Bool Lra Lia Psatz.
From Verif Require Import Cx Arr Spec_circuit Model_metric Spec_metric.
Import ListNotations.
Local Open Scope R_scope.

Lemma pair_eqb_true : forall a b, pair_eqb a b = true <-> a = b.
Proof. intros [a1 a2] [b1 b2]. unfold pair_eqb; cbn. rewrite andb_true_iff, !Nat.eqb_eq. split; [intros [-> ->]; reflexivity | intros [= -> ->]; auto]. Qed.
Lemma index_in : forall l k, In k l -> exists i, list_index l k = Some i /\ (i < length l)%nat /\ nth i l (O, O) = k.
Proof.
  induction l as [| x r IH]; intros k H; [destruct H |]. cbn [list_index length].
  destruct (pair_eqb x k) eqn:E.
  - exists 0%nat. apply pair_eqb_true in E. cbn. repeat split; [lia | exact E].
  - destruct H as [-> | H]; [rewrite (proj2 (pair_eqb_true k k) eq_refl) in E; discriminate |].
    destruct (IH k H) as (i & E1 & E2 & E3). exists (S i). rewrite E1. cbn. repeat split; [lia | exact E3].
Qed.
Lemma wanted_step : forall k w r key acc, wanted ((k, w) :: r) key acc = wanted r key (if pair_eqb (dkey_pair k) key then w else acc).
Proof. intros [p | p m] w r [a b] acc; cbn; reflexivity. Qed.
Lemma fill_is : forall mi d s, NoDup mi -> (forall e, In e d -> In (dkey_pair (fst e)) mi) ->
  exists s', fill_desired mi d s = Some s' /\ forall i, (i < length mi)%nat -> s' i = wanted d (nth i mi (O, O)) (s i).
Proof.
  intros mi d; induction d as [| [k w] r IH]; intros s ND H; [exists s; split; [reflexivity | intros; reflexivity] |].
  cbn [fill_desired]. destruct (index_in mi (dkey_pair k) (H (k, w) (or_introl eq_refl))) as (i & E1 & E2 & E3). rewrite E1.
  destruct (IH (fun j => if Nat.eqb j i then w else s j) ND (fun e He => H e (or_intror He))) as (s' & F1 & F2).
  exists s'; split; [exact F1 |]. intros j Hj. rewrite (F2 j Hj), wanted_step. f_equal.
  destruct (Nat.eqb_spec j i) as [-> | N].
  - rewrite (proj2 (pair_eqb_true _ _) (eq_sym E3)). reflexivity.
  - destruct (pair_eqb (dkey_pair k) (nth j mi (O, O))) eqn:E; [| reflexivity].
    exfalso. apply N. apply pair_eqb_true in E. rewrite <- E3 in E. symmetry.
    exact (proj1 (NoDup_nth mi (O, O)) ND i j E2 Hj E).
Qed.

Lemma norm2_sq : forall n x, norm2 n x ^ 2 = total_power n x.
Proof.
  intros n x. unfold norm2, total_power. rewrite <- Rsqr_pow2. apply Rsqr_sqrt. apply Rsum_nonneg; intros; apply Cn2_nonneg.
Qed.
Lemma power_nonneg : forall n x, 0 <= total_power n x.
Proof. intros; apply Rsum_nonneg; intros; apply Cn2_nonneg. Qed.
Lemma norm2_0 : forall n x, norm2 n x = 0 <-> total_power n x = 0.
Proof.
  intros n x; split; intros H; [rewrite <- norm2_sq, H; ring |]. unfold norm2. unfold total_power in H. rewrite H. apply sqrt_0.
Qed.
Lemma Cn2_scal : forall r z, Cn2 (Cscal r z) = r ^ 2 * Cn2 z.
Proof. intros r [a b]; unfold Cn2, Cscal; cbn; ring. Qed.
Lemma power_scal : forall n r x, total_power n (fun i => Cscal r (x i)) = r ^ 2 * total_power n x.
Proof. intros. unfold total_power. rewrite <- Rsum_scal. apply Rsum_ext; intros; apply Cn2_scal. Qed.

(** Bessel: the part of x outside conj(s). *)
Lemma bessel : forall n s x, total_power n s = 1 ->
  let z := Csum n (fun i => s i * x i)%C in
  Rsum n (fun i => Cn2 (x i - z * Cconj (s i))%C) = total_power n x - Cn2 z.
Proof.
  intros n s x Hs z.
  assert (E : forall i, Cn2 (x i - z * Cconj (s i))%C = Cn2 (x i) + Cn2 z * Cn2 (s i) - 2 * re (Cconj z * (s i * x i))%C).
  { intros i. destruct (x i) as [a b], z as [c d], (s i) as [e f]. unfold Cn2; cbn. ring. }
  rewrite (Rsum_ext n _ _ (fun i _ => E i)). rewrite Rsum_sub, Rsum_add, Rsum_scal.
  fold (total_power n s). rewrite Hs. fold (total_power n x).
  replace (Rsum n (fun i => 2 * re (Cconj z * (s i * x i))%C)) with (2 * Cn2 z); [ring |].
  rewrite Rsum_scal, <- re_Csum, Csum_scal. fold z. f_equal. destruct z as [c d]; unfold Cn2; cbn; ring.
Qed.
Lemma cs_bound : forall n s x, total_power n s = 1 -> Cn2 (Csum n (fun i => s i * x i)%C) <= total_power n x.
Proof.
  intros n s x Hs. pose proof (bessel n s x Hs) as B; cbv zeta in B.
  assert (0 <= Rsum n (fun i => Cn2 (x i - Csum n (fun i => s i * x i) * Cconj (s i))%C)) by (apply Rsum_nonneg; intros; apply Cn2_nonneg).
  lra.
Qed.
Lemma Cn2_0 : forall z, Cn2 z = 0 -> z = C0.
Proof. intros [a b]; unfold Cn2; cbn; intros H; apply C_eq; cbn; nra. Qed.
Lemma cs_equal : forall n s x, total_power n s = 1 -> total_power n x <= 1 ->
  (Cn2 (Csum n (fun i => s i * x i)%C) = 1 <-> exists a, forall i, (i < n)%nat -> x i = (cis a * Cconj (s i))%C).
Proof.
  intros n s x Hs Hx; split.
  - intros H. set (z := Csum n (fun i => s i * x i)%C) in *.
    pose proof (bessel n s x Hs) as B; cbv zeta in B. fold z in B.
    assert (Hz : Rsum n (fun i => Cn2 (x i - z * Cconj (s i))%C) = 0).
    { apply Rle_antisym; [lra |]. apply Rsum_nonneg; intros; apply Cn2_nonneg. }
    assert (Ha : z = cis (Carg z)).
    { rewrite (Carg_polar z) at 1. unfold Cabs. rewrite H, sqrt_1. apply C_eq; cbn; ring. }
    exists (Carg z). intros i Hi. assert (Hi0 := Rsum_zero_terms n _ (fun j _ => Cn2_nonneg _) Hz i Hi). apply Cn2_0 in Hi0.
    rewrite <- Ha. replace (x i) with ((x i - z * Cconj (s i)) + z * Cconj (s i))%C by ring. rewrite Hi0. ring.
  - intros [a Ha].
    rewrite (Csum_ext n _ (fun i => cis a * RtoC (Cn2 (s i)))%C).
    2:{ intros i Hi. rewrite (Ha i Hi). destruct (s i) as [e f]. unfold Cn2; apply C_eq; cbn; ring. }
    rewrite Csum_scal, <- Csum_RtoC. fold (total_power n s). rewrite Hs. unfold Cn2; cbn.
    pose proof (sin2_cos2 a) as T; unfold Rsqr in T. nra.
Qed.

Lemma fidelity_opt : forall mi d, NoDup mi -> (forall e, In e d -> In (dkey_pair (fst e)) mi) ->
  (exists i, (i < length mi)%nat /\ desired mi d i <> C0) ->
  forall w x, 0 <= w < 1 -> total_power (length mi) x <= 1 -> (w = 0 \/ total_power (length mi) x <> 0) ->
  exists c, fidelity mi d w x = Some c /\ -1 <= c <= 0 /\
   (c = -1 <-> exists a, forall i, (i < length mi)%nat ->
      x i = (cis a * Cscal (/ sqrt (total_power (length mi) (desired mi d))) (Cconj (desired mi d i)))%C).
Proof.
  intros mi d ND HK (i0 & Hi0 & Hd) w x Hw Hx Hwx. set (n := length mi) in *.
  destruct (fill_is mi d (fun _ => C0) ND HK) as (s & F1 & F2).
  assert (HP : total_power n s = total_power n (desired mi d)).
  { apply Rsum_ext. intros i Hi. rewrite (F2 i Hi). reflexivity. }
  assert (Hpos : 0 < total_power n s).
  { destruct (Rle_lt_or_eq_dec 0 _ (power_nonneg n s)) as [H | H]; [exact H |]. exfalso. apply Hd.
    rewrite HP in H. symmetry in H. apply Cn2_0. exact (Rsum_zero_terms n _ (fun j _ => Cn2_nonneg _) H i0 Hi0). }
  assert (Hn0 : norm2 n s <> 0) by (rewrite norm2_0; lra).
  set (N := norm2 n s) in *. set (t := fun i => Cscal (/ N) (s i)).
  assert (Ht : total_power n t = 1).
  { unfold t. rewrite power_scal, <- norm2_sq. fold N. field. exact Hn0. }
  assert (HN : N = sqrt (total_power n (desired mi d))) by (rewrite <- HP; reflexivity).
  assert (Htgt : fidelity_target mi d = Some t).
  { unfold fidelity_target. rewrite F1. fold n. fold N. destruct (Req_EM_T N 0) as [e | _]; [contradiction | reflexivity]. }
  unfold fidelity. rewrite Htgt. fold n. unfold fidelity_cost.
  assert (Tc : forall i, (i < n)%nat -> Cconj (t i) = Cscal (/ sqrt (total_power n (desired mi d))) (Cconj (desired mi d i))).
  { intros i Hi. unfold t. rewrite <- HN, (F2 i Hi). apply C_eq; cbn; unfold desired; ring. }
  assert (Hopt : Cn2 (Csum n (fun i => t i * x i)%C) = 1 <->
     exists a, forall i, (i < n)%nat -> x i = (cis a * Cscal (/ sqrt (total_power n (desired mi d))) (Cconj (desired mi d i)))%C).
  { rewrite (cs_equal n t x Ht Hx). split; intros [a H]; exists a; intros i Hi; specialize (H i Hi); rewrite ?(Tc i Hi) in *; exact H. }
  pose proof (cs_bound n t x Ht) as CB. pose proof (Cn2_nonneg (Csum n (fun i => t i * x i)%C)) as C0'.
  set (q := Cn2 (Csum n (fun i => t i * x i)%C)) in *.
  destruct (Req_EM_T w 0) as [-> | Hw0].
  - exists (- q). split; [reflexivity |]. split; [lra |]. rewrite <- Hopt. split; lra.
  - destruct Hwx as [-> | Hx0]; [lra |].
    assert (Hnx : norm2 n x <> 0) by (rewrite norm2_0; exact Hx0).
    destruct (Req_EM_T (norm2 n x) 0) as [e | _]; [contradiction |].
    rewrite norm2_sq. set (P := total_power n x) in *. set (M := norm2 n x) in *.
    assert (HM : M ^ 2 = P) by apply norm2_sq.
    assert (HPp : 0 < P) by (pose proof (power_nonneg n x) as PP; fold P in PP; lra).
    assert (Hq : Cn2 (Csum n (fun i => t i * Cscal (/ M) (x i))%C) = q / P).
    { rewrite (Csum_ext n _ (fun i => RtoC (/ M) * (t i * x i))%C) by (intros; apply C_eq; cbn; ring).
      rewrite Csum_scal. unfold q. destruct (Csum n (fun i => t i * x i)%C) as [u v]. unfold Cn2; cbn. rewrite <- HM. field. exact Hnx. }
    rewrite Hq. set (g := q / P).
    assert (Hg : g * P = q) by (unfold g; field; lra).
    assert (Hg1 : 0 <= g <= 1) by (split; nra).
    eexists; split; [reflexivity |]. split; [split; nra |].
    rewrite <- Hopt. split.
    + intros E. assert (P = 1) by nra. assert (g = 1) by nra. nra.
    + intros E. assert (P = 1) by nra. assert (g = 1) by nra. nra.
Qed.

Lemma power_conj : forall n x, total_power n (fun i => Cconj (x i)) = total_power n x.
Proof. intros. apply Rsum_ext; intros. destruct (x i); unfold Cn2; cbn; ring. Qed.

(** Insertion weight 1: only the total power counts. *)
Lemma fidelity_insertion : forall mi d s, fidelity_target mi d = Some s -> forall x, total_power (length mi) x <> 0 ->
  fidelity mi d 1 x = Some (- total_power (length mi) x).
Proof.
  intros mi d s H x Hx. unfold fidelity. rewrite H. unfold fidelity_cost.
  destruct (Req_EM_T 1 0); [lra |]. destruct (Req_EM_T (norm2 (length mi) x) 0) as [e | _]; [apply norm2_0 in e; contradiction |].
  rewrite norm2_sq. f_equal. ring.
Qed.

(** A quadrature target (1, i): the code gives the desired outputs the worst possible cost and their conjugate the best. *)
Definition quad_d : list (dkey * C) := [(DName 1, C1); (DName 2, Ci)].
Definition quad_info := default_info [1; 2]%nat.
Definition quad_x : vec := fun i => match i with O => RtoC (/ sqrt 2) | _ => (RtoC (/ sqrt 2) * Ci)%C end.
Lemma quad_wrong : total_power 2 quad_x = 1 /\ (forall i, (i < 2)%nat -> quad_x i = Cscal (/ sqrt (total_power 2 (desired quad_info quad_d))) (desired quad_info quad_d i)) /\
  fidelity quad_info quad_d 0 quad_x = Some 0 /\ fidelity quad_info quad_d 0 (fun i => Cconj (quad_x i)) = Some (-1).
Proof.
  assert (S2 : sqrt 2 * sqrt 2 = 2) by (apply sqrt_sqrt; lra). assert (Sp : 0 < sqrt 2) by (apply sqrt_lt_R0; lra).
  assert (I2 : / sqrt 2 * / sqrt 2 = / 2) by (rewrite <- Rinv_mult; rewrite S2; reflexivity).
  assert (P : total_power 2 (desired quad_info quad_d) = 2) by (cbv -[Rplus Rmult IZR Ropp]; ring).
  assert (F : fill_desired quad_info quad_d (fun _ => C0) = Some (fun j => if Nat.eqb j 1 then Ci else if Nat.eqb j 0 then C1 else C0)) by reflexivity.
  assert (N : norm2 2 (fun j => if Nat.eqb j 1 then Ci else if Nat.eqb j 0 then C1 else C0) = sqrt 2).
  { unfold norm2. f_equal. cbv -[Rplus Rmult IZR Ropp]; ring. }
  assert (T : fidelity_target quad_info quad_d = Some (fun i => Cscal (/ sqrt 2) (if Nat.eqb i 1 then Ci else if Nat.eqb i 0 then C1 else C0))).
  { unfold fidelity_target. rewrite F. change (length quad_info) with 2%nat. rewrite N. destruct (Req_EM_T (sqrt 2) 0); [lra | reflexivity]. }
  split; [unfold total_power, Cn2; cbn; nra |]. split.
  { intros i Hi. rewrite P. destruct i as [| [| i]]; [| | lia]; apply C_eq; cbn; ring. }
  unfold fidelity. rewrite T. change (length quad_info) with 2%nat. unfold fidelity_cost. destruct (Req_EM_T 0 0); [| lra].
  split; f_equal; unfold Cn2; cbn; nra.
Qed.
Lemma fidelity_real : forall mi d, NoDup mi -> (forall e, In e d -> In (dkey_pair (fst e)) mi) ->
  (exists i, (i < length mi)%nat /\ desired mi d i <> C0) -> (forall i, (i < length mi)%nat -> im (desired mi d i) = 0) ->
  forall w x, 0 <= w < 1 -> total_power (length mi) x <= 1 -> (w = 0 \/ total_power (length mi) x <> 0) ->
  exists c, fidelity mi d w x = Some c /\ -1 <= c <= 0 /\
   (c = -1 <-> exists a, forall i, (i < length mi)%nat ->
      x i = (cis a * Cscal (/ sqrt (total_power (length mi) (desired mi d))) (desired mi d i))%C).
Proof.
  intros mi d ND HK HD HR w x Hw Hx Hwx. destruct (fidelity_opt mi d ND HK HD w x Hw Hx Hwx) as (c & E & B & O).
  exists c. split; [exact E |]. split; [exact B |]. rewrite O.
  assert (J : forall i, (i < length mi)%nat -> Cconj (desired mi d i) = desired mi d i).
  { intros i Hi. apply C_eq; cbn; [reflexivity | rewrite (HR i Hi); ring]. }
  split; intros [a H]; exists a; intros i Hi; specialize (H i Hi); rewrite ?(J i Hi) in *; exact H.
Qed.
