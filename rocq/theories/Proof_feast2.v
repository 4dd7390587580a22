(** The interval and the default search for modes. *)
From Coq Require Import Reals List Arith ZArith Lra Lia Bool Permutation Sorted.
From Verif Require Import Cx Arr Model_coupling Model_yee Spec_yee Proof_yee Proof_yee2 Model_fdfd Spec_fdfd Model_mode Spec_mode Proof_mode Spec_orth Proof_orth Proof_orth2 Proof_orth3
  Model_parse Spec_parse Proof_parse Model_feast Spec_feast Proof_feast.
Import ListNotations.
Local Open Scope R_scope.

Lemma range_exact : forall k0 emax lo hi, 0 <= lo <= hi -> exists a b, mode_search k0 emax (TupleGuess lo hi) = Some (InRange a b) /\
  forall beta, 0 <= beta -> (a <= beta * beta <= b <-> lo <= beta <= hi).
Proof.
  intros k0 emax lo hi H. exists (lo ^ 2), (hi ^ 2). split; [reflexivity |]. intros beta Hb. split.
  - intros [A B]. split; apply Rnot_lt_le; intro X; nra.
  - intros [A B]. split; nra.
Qed.
Lemma range_negative : forall k0 emax lo hi, lo < - hi -> 0 < hi -> exists a b, mode_search k0 emax (TupleGuess lo hi) = Some (InRange a b) /\
  (exists beta, lo <= beta <= hi /\ 0 < beta) /\ forall lam, ~ (a <= lam <= b).
Proof.
  intros k0 emax lo hi H Hh. exists (lo ^ 2), (hi ^ 2). split; [reflexivity |]. split; [exists hi; lra |]. intros lam [A B]. nra.
Qed.
Lemma sqrt_mono_range : forall lo hi x, 0 <= lo -> lo * lo <= x <= hi * hi -> 0 <= hi -> lo <= sqrt x <= hi.
Proof.
  intros lo hi x Hl [A B] Hh. split.
  - rewrite <- (sqrt_square lo) by auto. apply sqrt_le_1_alt. exact A.
  - rewrite <- (sqrt_square hi) by auto. apply sqrt_le_1_alt. exact B.
Qed.
Lemma filter_none : forall V (l : list (C * V)), Forall (fun p => re (fst p) <= 0) l -> filter (fun p => if Rlt_dec 0 (re (fst p)) then true else false) l = [].
Proof. induction 1; cbn [filter]; auto. destruct (Rlt_dec 0 (re (fst x))); [lra | auto]. Qed.
Lemma filter_every : forall V (l : list (C * V)), Forall (fun p => 0 < re (fst p)) l -> filter (fun p => if Rlt_dec 0 (re (fst p)) then true else false) l = l.
Proof. induction 1; cbn [filter]; auto. destruct (Rlt_dec 0 (re (fst x))); [congruence | contradiction]. Qed.
Lemma interval_ok : forall V lo hi (found rest : list (C * V)), 0 < lo <= hi ->
  Forall (fun p => lo * lo <= re (fst p) <= hi * hi) found -> Forall (fun p => re (fst p) <= 0) rest ->
  exists s, interval_modes found rest = Some (map (fun p => sqrt (re (fst p))) s, map snd s) /\ Permutation s found /\ Sorted desc s /\
    Forall (fun b => lo <= b <= hi) (map (fun p => sqrt (re (fst p))) s).
Proof.
  intros V lo hi found rest Hl Hf Hr.
  assert (Hp : Forall (fun p : C * V => 0 < re (fst p)) found) by (eapply Forall_impl; [| exact Hf]; cbn; intros; nra).
  destruct (solve_prefix V (found ++ rest)) as (s & A1 & A2 & A3); [exists found, rest; auto |].
  rewrite filter_app, filter_every, filter_none, app_nil_r in A2 by auto.
  exists s. split; [exact A1 |]. split; [exact A2 |]. split; [exact A3 |]. apply Forall_forall. intros b Hb. apply in_map_iff in Hb. destruct Hb as (p & <- & Hp').
  apply (Permutation_in _ A2) in Hp'. rewrite Forall_forall in Hf. apply Hf in Hp'. apply sqrt_mono_range; lra.
Qed.
Lemma interval_leak : forall V (v : V) lo hi (found : list (C * V)), 0 < lo <= hi ->
  Forall (fun p => lo * lo <= re (fst p) <= hi * hi) found ->
  exists rest bs ms b, interval_modes found rest = Some (bs, ms) /\ In b bs /\ ~ (lo <= b <= hi) /\ length ms = S (length found).
Proof.
  intros V v lo hi found Hl Hf. set (p0 := (RtoC ((hi + 1) * (hi + 1)), v) : C * V).
  assert (Hp : Forall (fun p : C * V => 0 < re (fst p)) (found ++ [p0])).
  { apply Forall_app. split; [eapply Forall_impl; [| exact Hf]; cbn; intros; nra |]. repeat constructor. cbn. nra. }
  destruct (solve_prefix V ((found ++ [p0]) ++ [])) as (s & A1 & A2 & A3); [exists (found ++ [p0]), []; auto |].
  rewrite app_nil_r in *. rewrite filter_every in A2 by auto.
  exists [p0], (map (fun p => sqrt (re (fst p))) s), (map snd s), (hi + 1). split; [exact A1 |]. split; [| split; [lra |]].
  - apply in_map_iff. exists p0. split; [cbn; apply sqrt_square; lra |]. apply (Permutation_in _ (Permutation_sym A2)). apply in_or_app. right. left. reflexivity.
  - rewrite map_length, (Permutation_length A2), app_length. cbn [length]. lia.
Qed.
Lemma int_guess : forall k0 emax g, mode_search k0 emax g = None <-> g = OtherGuess.
Proof. intros k0 emax []; cbn; split; congruence. Qed.
Lemma near_guess : forall k0 emax b, b <> 0 -> exists sigma, mode_search k0 emax (FloatGuess b) = Some (NearSigma sigma) /\
  forall beta, 0 <= beta -> (beta * beta = sigma <-> beta = Rabs b).
Proof.
  intros k0 emax b Hb. exists (b ^ 2). split; [cbn [mode_search]; destruct (Req_EM_T b 0); [contradiction | reflexivity] |].
  intros beta H. split.
  - intro E. rewrite <- (Rabs_pos_eq beta H) at 1. apply Rsqr_eq_abs_0. unfold Rsqr. rewrite E. ring.
  - intros ->. replace (b ^ 2) with (Rsqr b) by (unfold Rsqr; ring). rewrite Rsqr_abs. reflexivity.
Qed.
Lemma feast_kind : forall d n r, feast_call d n n = Some r -> dtype_kind d = Some (routine_kind r).
Proof. intros d n r. unfold feast_call. rewrite Nat.eqb_refl. destruct d; cbn; intro E; try discriminate; assert (X : forall (a b : routine), Some a = Some b -> a = b) by congruence; apply X in E; subst r; reflexivity. Qed.
Lemma feast_accepts : forall d r c, feast_call d r c <> None <-> d <> OtherType /\ r = c.
Proof.
  intros d r c. unfold feast_call. destruct (Nat.eqb_spec r c) as [-> | N], d; cbn; split; intros H; try (split; congruence); try destruct H; congruence.
Qed.
Lemma sigma_is : forall k0 emax g, 0 <= emax -> g = NoGuess \/ g = FloatGuess 0 -> mode_search k0 emax g = Some (NearSigma (k0 * k0 * emax)).
Proof.
  intros k0 emax g He Hg. assert (E : (k0 * sqrt emax) ^ 2 = k0 * k0 * emax) by (pose proof (sqrt_sqrt emax He); nra).
  destruct Hg as [-> | ->]; cbn [mode_search]; [rewrite E; reflexivity |]. destruct (Req_EM_T 0 0); [rewrite E; reflexivity | congruence].
Qed.
Lemma Cabs_real : forall z, im z = 0 -> Cabs z = Rabs (re z).
Proof. intros z H. unfold Cabs, Cn2. rewrite H. replace (re z * re z + 0 * 0) with (Rsqr (re z)) by (unfold Rsqr; ring). apply sqrt_Rsqr_abs. Qed.
Lemma default_1d : forall q emax g, 0 <= emax -> eps_below q emax -> g = NoGuess \/ g = FloatGuess 0 ->
  exists sigma, mode_search (q_k0 q) emax g = Some (NearSigma sigma) /\
  forall lam1 v1 lam2 v2, eigen1 q lam1 v1 -> nonzero (q_n q) v1 -> eigen1 q lam2 v2 -> nonzero (q_n q) v2 ->
    (Cabs (lam1 - RtoC sigma)%C <= Cabs (lam2 - RtoC sigma)%C <-> re lam2 <= re lam1).
Proof.
  intros q emax g He HM Hg. exists (q_k0 q * q_k0 q * emax). split; [apply sigma_is; auto |].
  intros lam1 v1 lam2 v2 E1 N1 E2 N2. pose proof (modes1_real q lam1 v1 E1 N1) as I1. pose proof (modes1_real q lam2 v2 E2 N2) as I2.
  pose proof (modes1_bound q emax lam1 v1 HM E1 N1) as B1. pose proof (modes1_bound q emax lam2 v2 HM E2 N2) as B2.
  set (sg := q_k0 q * q_k0 q * emax) in *. rewrite !Cabs_real by (cbn; lra).
  replace (re (lam1 - RtoC sg)%C) with (- (sg - re lam1)) by (cbn; ring). replace (re (lam2 - RtoC sg)%C) with (- (sg - re lam2)) by (cbn; ring).
  rewrite !Rabs_Ropp, !Rabs_pos_eq by lra. lra.
Qed.
Lemma default_2d : forall q emax g, q_k0 q <> 0 -> pos_eps q -> 0 <= emax -> eps_below q emax -> g = NoGuess \/ g = FloatGuess 0 ->
  exists sigma, mode_search (q_k0 q) emax g = Some (NearSigma sigma) /\
  forall b1 x1 y1 b2 x2 y2, 0 < b1 -> 0 < b2 -> eigen2 q (RtoC (b1 * b1)) x1 y1 -> nonzero (q_n q) x1 \/ nonzero (q_n q) y1 ->
    eigen2 q (RtoC (b2 * b2)) x2 y2 -> nonzero (q_n q) x2 \/ nonzero (q_n q) y2 ->
    (Rabs (b1 * b1 - sigma) <= Rabs (b2 * b2 - sigma) <-> b2 <= b1).
Proof.
  intros q emax g Hk Hp He HM Hg. exists (q_k0 q * q_k0 q * emax). split; [apply sigma_is; auto |].
  intros b1 x1 y1 b2 x2 y2 P1 P2 E1 N1 E2 N2.
  pose proof (modes2_bound q emax b1 x1 y1 Hk ltac:(lra) Hp HM E1 N1) as B1. pose proof (modes2_bound q emax b2 x2 y2 Hk ltac:(lra) Hp HM E2 N2) as B2.
  set (sg := q_k0 q * q_k0 q * emax) in *. rewrite <- (Rabs_Ropp (b1 * b1 - sg)), <- (Rabs_Ropp (b2 * b2 - sg)), !Rabs_pos_eq by lra.
  split; intro H; [apply Rnot_lt_le; intro X |]; nra.
Qed.

(** A strip: 3 x 3 cells, permittivity 2 in the middle, 1 around. *)
Definition strip : mode_solver := mkQ (fun a => match a with AZ => 1%nat | _ => 3%nat end) (fun _ => 1) 1
  (fun i j _ => if (Nat.eqb i 1 && Nat.eqb j 1)%bool then 2 else 1).
Lemma strip_pos : pos_eps strip.
Proof. intros i j k _. cbn [strip q_eps]. destruct (_ && _)%bool; lra. Qed.
Lemma strip_cross : cross_section strip.
Proof. repeat split; cbn; lia. Qed.
Lemma strip_not : ~ hermitian2 (q_n strip) (wg_matrix strip).
Proof.
  intro H. apply (proj1 (herm2 strip strip_cross ltac:(cbn; lra) ltac:(cbn; lra) strip_pos)) in H. destruct H as (e & He).
  destruct (He 1%nat 1%nat ltac:(cbn; lia) ltac:(cbn; lia)) as [A _]. destruct (He 0%nat 0%nat ltac:(cbn; lia) ltac:(cbn; lia)) as [B _].
  revert A B. unfold q_eps_t, yee_avg, avg_axis, ralong. cbn. intros. lra.
Qed.
