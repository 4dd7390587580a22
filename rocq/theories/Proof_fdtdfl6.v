(** The machine's time step and permittivities; exact arithmetic; an example. *)
From Coq Require Import Reals Lra Lia Psatz List Arith Bool ZArith FunctionalExtensionality.
From Flocq Require Import Core.
From Verif Require Import Cx Arr Model_yee Spec_yee Proof_yee Proof_yee2 Model_fdtd Spec_fdtd Proof_fdtd Proof_energy Proof_energy2 Proof_energy3 Proof_fdtd3 Proof_sym Proof_harm2.
From Verif Require Import Spec_conv Proof_conv3 Proof_duhamel Proof_adj Model_float Spec_float Proof_float Proof_fround2 Model_fdtdfl Spec_fdtdfl Proof_fdtdfl Proof_fdtdfl2 Proof_fdtdfl3 Proof_fdtdfl4 Proof_fdtdfl5.
Import ListNotations.
Local Open Scope R_scope.

Lemma src_e_exact : forall g l e, fold_left (add_src_e_fl exact_farith (exact_const g)) l e = fold_left (add_src_e g false) l e.
Proof.
  intros g l. induction l as [| x l IH]; intro e; [reflexivity |]. cbn [fold_left]. rewrite IH. reflexivity.
Qed.
Lemma src_h_exact : forall g l e, fold_left (add_src_h_fl exact_farith (exact_const g)) l e = fold_left (add_src_h g false) l e.
Proof.
  intros g l. induction l as [| x l IH]; intro e; [reflexivity |]. cbn [fold_left]. rewrite IH. reflexivity.
Qed.
Lemma step_exact : forall g st l, step_fl exact_farith g (exact_const g) st l = step g false st l.
Proof.
  intros g st l.
  assert (C : forall o f, curl_fl exact_farith g o f = curl_fn (diff_fn (g_shape g) (g_dx g) o) f).
  { intros o f. apply same_eq. intros c i j k. destruct o, c; reflexivity. }
  assert (E : step_e_fl exact_farith g (exact_const g) st l = step_e g false st l).
  { unfold step_e_fl, step_e. rewrite src_e_exact. reflexivity. }
  assert (H : forall e, step_h_fl exact_farith g (exact_const g) e (f_h st) l = step_h g false e (f_h st) l).
  { intro e. unfold step_h_fl, step_h. rewrite src_h_exact. reflexivity. }
  unfold step_fl, step. cbv zeta. rewrite E, H. reflexivity.
Qed.
Lemma run_exact : forall g l st, run_fl exact_farith g (exact_const g) st l = run g false st l.
Proof. intros g l. induction l; intro st; [reflexivity |]. cbn [run_fl run]. rewrite step_exact. apply IHl. Qed.
Lemma dbl : forall a, 2 * powerRZ 2 a = powerRZ 2 (1 + a).
Proof. intro a. rewrite powerRZ_add by lra. f_equal. rewrite powerRZ_1. reflexivity. Qed.
(** Relative errors of positive numbers, in units of 2^-53. *)
Definition rel (k x' x : R) : Prop := Rabs (x' - x) <= k / 2 ^ 53 * x.
Lemma r_self : forall x, rel 0 x x.
Proof. intro x. unfold rel. rewrite Rminus_diag_eq by reflexivity. rewrite Rabs_R0. lra. Qed.
Lemma r_range : forall k x' x, rel k x' x -> 0 <= k <= 20 -> 0 < x -> 999 / 1000 * x <= x' <= 1001 / 1000 * x.
Proof.
  intros k x' x H Hk Hx. unfold rel in H. assert (U : k / 2 ^ 53 <= 1 / 1000) by (cbn; lra). assert (k / 2 ^ 53 * x <= 1 / 1000 * x) by (apply Rmult_le_compat_r; lra).
  apply Rabs_le_inv in H. lra.
Qed.
Lemma r_mono : forall k m x' x, rel k x' x -> k <= m -> 0 < x -> rel m x' x.
Proof. intros k m x' x H Hk Hx. unfold rel in *. eapply Rle_trans; [exact H |]. apply Rmult_le_compat_r; lra. Qed.
Lemma r_round : forall k x' x, rel k x' x -> 0 <= k <= 20 -> powerRZ 2 (-1000) <= x -> rel (k + 11 / 10) (b64 x') x.
Proof.
  intros k x' x H Hk Hx. assert (P : 0 < powerRZ 2 (-1000)) by (apply powerRZ_lt; lra). destruct (r_range k x' x H Hk ltac:(lra)) as [A B].
  assert (N : normal x').
  { unfold normal. apply Rle_trans with (999 / 1000 * x); [| lra]. assert (2 * powerRZ 2 (-1022) <= powerRZ 2 (-1000)).
    - rewrite dbl. rewrite <- !bp. apply bpow_le. lia.
    - assert (0 < powerRZ 2 (-1022)) by (apply powerRZ_lt; lra). lra. }
  destruct (rel_err_pos x' N) as [_ E]. unfold rel in *. replace (b64 x' - x) with (b64 x' - x' + (x' - x)) by ring. eapply Rle_trans; [apply Rabs_triang |].
  assert (/ 2 ^ 53 * x' <= / 2 ^ 53 * (11 / 10 * x)) by (apply Rmult_le_compat_l; [lra | lra]).
  replace ((k + 11 / 10) / 2 ^ 53 * x) with (/ 2 ^ 53 * (11 / 10 * x) + k / 2 ^ 53 * x) by (unfold Rdiv; ring). lra.
Qed.
Lemma r_add : forall k x' x y' y, rel k x' x -> rel k y' y -> rel k (x' + y') (x + y).
Proof. intros k x' x y' y H1 H2. unfold rel in *. replace (x' + y' - (x + y)) with ((x' - x) + (y' - y)) by ring. eapply Rle_trans; [apply Rabs_triang |]. lra. Qed.
Lemma r_half : forall k x' x, rel k x' x -> rel k (x' / 2) (x / 2).
Proof. intros k x' x H. unfold rel in *. replace (x' / 2 - x / 2) with ((x' - x) * / 2) by field. rewrite Rabs_mult, (Rabs_pos_eq (/ 2)) by lra. lra. Qed.
Lemma r_inv : forall k x' x, rel k x' x -> 0 <= k <= 20 -> 0 < x -> rel (11 / 10 * k) (1 / x') (1 / x).
Proof.
  intros k x' x H Hk Hx. destruct (r_range k x' x H Hk Hx) as [A B]. unfold rel in *. assert (X' : 0 < x') by lra. assert (I : 0 < / x) by (apply Rinv_0_lt_compat; lra). assert (I' : 0 < / x') by (apply Rinv_0_lt_compat; lra).
  replace (1 / x' - 1 / x) with (- ((x' - x) * (/ x' * / x))) by (field; lra). rewrite Rabs_Ropp, Rabs_mult, (Rabs_pos_eq (/ x' * / x)) by (apply Rmult_le_pos; lra).
  assert (P : 0 <= / x' * / x) by (apply Rmult_le_pos; lra).
  apply Rle_trans with (k / 2 ^ 53 * x * (/ x' * / x)); [apply Rmult_le_compat_r; assumption |].
  replace (k / 2 ^ 53 * x * (/ x' * / x)) with (k / 2 ^ 53 * / x') by (field; lra). replace (11 / 10 * k / 2 ^ 53 * (1 / x)) with (k / 2 ^ 53 * (11 / 10 * / x)) by (field; lra).
  apply Rmult_le_compat_l; [unfold Rdiv; apply Rmult_le_pos; lra |]. replace (11 / 10 * / x) with (/ (10 / 11 * x)) by (field; lra). apply Rinv_le_contravar; lra.
Qed.
Lemma r_sqrt : forall k x' x, rel k x' x -> 0 <= k <= 20 -> 0 < x -> rel k (sqrt x') (sqrt x).
Proof.
  intros k x' x H Hk Hx. destruct (r_range k x' x H Hk Hx) as [A B]. unfold rel in *. pose proof (sqrt_lt_R0 x Hx) as S1. pose proof (sqrt_pos x') as S2.
  assert (K : 0 <= k / 2 ^ 53) by (unfold Rdiv; apply Rmult_le_pos; lra).
  assert (E : (sqrt x' - sqrt x) * (sqrt x' + sqrt x) = x' - x) by (rewrite <- (sqrt_sqrt x) at 3 by lra; rewrite <- (sqrt_sqrt x') at 3 by lra; ring).
  apply (Rmult_le_reg_r (sqrt x' + sqrt x)); [lra |]. rewrite <- (Rabs_pos_eq (sqrt x' + sqrt x)) at 1 by lra. rewrite <- Rabs_mult, E.
  eapply Rle_trans; [exact H |]. rewrite Rmult_assoc. apply Rmult_le_compat_l; [exact K |]. rewrite <- (sqrt_sqrt x) at 1 by lra. apply Rmult_le_compat_l; lra.
Qed.
Definition fine (g : fgrid) : Prop := forall a, is_active g a = true -> powerRZ 2 (-400) <= g_spacing g a <= powerRZ 2 400.
Lemma pw : forall a b, (a <= b)%Z -> powerRZ 2 a <= powerRZ 2 b.
Proof. intros. rewrite <- !bp. apply bpow_le. assumption. Qed.
Lemma pp : forall a, 0 < powerRZ 2 a.
Proof. intro. apply powerRZ_lt. lra. Qed.
Lemma pmul : forall a b, powerRZ 2 a * powerRZ 2 b = powerRZ 2 (a + b).
Proof. intros. rewrite powerRZ_add by lra. reflexivity. Qed.
Lemma pinv : forall a, / powerRZ 2 a = powerRZ 2 (- a).
Proof. intros. rewrite <- !bp. symmetry. apply bpow_opp. Qed.
Lemma inv_range : forall g, wf_grid g -> fine g -> forall a, is_active g a = true -> powerRZ 2 (-800) <= inv_sq g a <= powerRZ 2 800.
Proof.
  intros g W F a A. unfold inv_sq. rewrite A. destruct (F a A) as [L U]. pose proof (pp (-400)). pose proof (pp 400).
  assert (M1 : powerRZ 2 (-800) <= g_spacing g a * g_spacing g a) by (change (-800)%Z with (-400 + -400)%Z; rewrite <- pmul; apply Rmult_le_compat; lra).
  assert (M2 : g_spacing g a * g_spacing g a <= powerRZ 2 800) by (change 800%Z with (400 + 400)%Z; rewrite <- pmul; apply Rmult_le_compat; lra). pose proof (pp (-800)).
  split.
  - change (-800)%Z with (- (800))%Z. rewrite <- pinv. apply Rinv_le_contravar; lra.
  - change 800%Z with (- (-800))%Z. rewrite <- pinv. apply Rinv_le_contravar; lra.
Qed.
Lemma dt_near : forall g, wf_grid g -> fine g -> rel 8 (dt64 g) (dt_of g).
Proof.
  intros g W F. unfold dt64, dt_of. cbv zeta.
  assert (Q : forall a, is_active g a = true -> rel (231 / 100) (b64 (1 / b64 (g_spacing g a * g_spacing g a))) (inv_sq g a)).
  { intros a A. pose proof (inv_range g W F a A) as IR. unfold inv_sq in *. rewrite A in *. destruct (F a A) as [L U]. pose proof (pp (-400)). pose proof (pp 400). pose proof (pp (-800)).
    assert (M1 : powerRZ 2 (-800) <= g_spacing g a * g_spacing g a) by (change (-800)%Z with (-400 + -400)%Z; rewrite <- pmul; apply Rmult_le_compat; lra).
    pose proof (pw (-1000) (-800) ltac:(lia)). pose proof (r_round 0 _ _ (r_self (g_spacing g a * g_spacing g a)) ltac:(lra) ltac:(lra)) as R1.
    apply r_inv in R1; [| lra | lra]. unfold Rdiv in R1 at 4. rewrite Rmult_1_l in R1. apply r_round in R1; [| lra | lra]. eapply r_mono; [exact R1 | lra | lra]. }
  pose proof (pw (-1000) (-800) ltac:(lia)) as Pw. pose proof (pp (-1000)) as P1. pose proof (pp (-800)) as P2. pose proof (pp 800) as P3.
  assert (IR := inv_range g W F). 
  assert (Qa : forall a, rel (231 / 100) (if is_active g a then b64 (1 / b64 (g_spacing g a * g_spacing g a)) else 0) (inv_sq g a) /\ 0 <= inv_sq g a <= powerRZ 2 800).
  { intro a. destruct (is_active g a) eqn:A; [split; [apply Q; exact A | pose proof (IR a A); lra] |]. unfold inv_sq. rewrite A. split; [| lra].
    unfold rel. rewrite Rminus_diag_eq by reflexivity. rewrite Rabs_R0. lra. }
  assert (AA : is_active g AX = true) by (destruct W as (Hn & _); unfold is_active; apply Nat.ltb_lt; cbn [axis_no]; lia).
  pose proof (proj1 (IR AX AA)) as LX. destruct (Qa AX) as [RX [_ UX]]. destruct (Qa AY) as [RY [LY UY]]. destruct (Qa AZ) as [RZ [LZ UZ]].
  set (x := inv_sq g AX) in *. set (y := inv_sq g AY) in *. set (z := inv_sq g AZ) in *.
  set (x' := if is_active g AX then _ else 0) in *. set (y' := if is_active g AY then _ else 0) in *. set (z' := if is_active g AZ then _ else 0) in *.
  pose proof (r_round _ _ _ (r_add _ _ _ _ _ RX RY) ltac:(lra) ltac:(lra)) as R1.
  assert (RZ' : rel (231 / 100 + 11 / 10) z' z) by (unfold rel in *; eapply Rle_trans; [exact RZ |]; apply Rmult_le_compat_r; lra).
  pose proof (r_round _ _ _ (r_add _ _ _ _ _ R1 RZ') ltac:(lra) ltac:(lra)) as R2.
  assert (Sp : powerRZ 2 (-400) <= sqrt (x + y + z)).
  { apply Rle_trans with (sqrt (powerRZ 2 (-400) * powerRZ 2 (-400))); [rewrite sqrt_square by (left; apply pp); lra |]. apply sqrt_le_1_alt. rewrite pmul. change (-400 + -400)%Z with (-800)%Z. lra. }
  assert (Su : sqrt (x + y + z) <= powerRZ 2 401).
  { apply Rle_trans with (sqrt (powerRZ 2 401 * powerRZ 2 401)); [| rewrite sqrt_square by (left; apply pp); lra]. apply sqrt_le_1_alt. rewrite pmul. change (401 + 401)%Z with (2 + 800)%Z. rewrite <- pmul.
    change (powerRZ 2 2) with (2 * (2 * 1)). lra. }
  pose proof (pw (-1000) (-400) ltac:(lia)) as Pw2. pose proof (pp (-400)) as P4.
  pose proof (r_sqrt _ _ _ R2 ltac:(lra) ltac:(lra)) as R3. apply r_round in R3; [| lra | lra]. apply r_inv in R3; [| lra | lra].
  assert (Lo : powerRZ 2 (-1000) <= 1 / sqrt (x + y + z)).
  { unfold Rdiv. rewrite Rmult_1_l. apply Rle_trans with (/ powerRZ 2 401); [rewrite pinv; apply pw; lia |]. apply Rinv_le_contravar; lra. }
  apply r_round in R3; [| lra | exact Lo]. eapply r_mono; [exact R3 | lra | lra].
Qed.
Lemma avg_near : forall s a k p' p emax, 0 <= k <= 10 -> (forall i j l, in_grid s i j l -> rel k (p' i j l) (p i j l) /\ 1 <= p i j l <= emax) ->
  forall i j l, in_grid s i j l -> rel (k + 22 / 10) (avg64 s a p' i j l) (avg_axis s a p i j l) /\ 1 <= avg_axis s a p i j l <= emax.
Proof.
  intros s a k p' p emax Hk H i j l Hin. unfold avg64, avg_axis.
  assert (B : rel k (ralong a (prv (s a)) p' i j l) (ralong a (prv (s a)) p i j l) /\ 1 <= ralong a (prv (s a)) p i j l <= emax).
  { destruct Hin as (I1 & I2 & I3). destruct a; unfold ralong; apply H; repeat split; auto; apply prv_bound; lia. }
  destruct (H i j l Hin) as [R1 B1]. destruct B as [R2 B2]. pose proof (pw (-1000) 0 ltac:(lia)) as Pw. change (powerRZ 2 0) with 1 in Pw.
  pose proof (r_round _ _ _ (r_add _ _ _ _ _ R1 R2) ltac:(lra) ltac:(lra)) as R3. apply r_half in R3. apply r_round in R3; [| lra | lra].
  split; [| lra]. eapply r_mono; [exact R3 | lra | lra].
Qed.
Lemma eps_near : forall g emax, (forall i j k, in_grid (g_shape g) i j k -> 1 <= g_eps g i j k <= emax) -> forall c i j k, in_grid (g_shape g) i j k ->
  rel 8 (eps64 g c i j k) (eps_t g false c i j k) /\ 1 <= eps_t g false c i j k <= emax.
Proof.
  intros g emax H c i j k Hin.
  assert (H0 : forall i j l, in_grid (g_shape g) i j l -> rel 0 (g_eps g i j l) (g_eps g i j l) /\ 1 <= g_eps g i j l <= emax) by (intros; split; [apply r_self | auto]).
  unfold eps64, eps_t, yee_avg. destruct c.
  - destruct (avg_near (g_shape g) AY 0 _ _ emax ltac:(lra) H0 i j k Hin) as [R1 R2]. split; [eapply r_mono; [exact R1 | lra | lra] | exact R2].
  - destruct (avg_near (g_shape g) AX 0 _ _ emax ltac:(lra) H0 i j k Hin) as [R1 R2]. split; [eapply r_mono; [exact R1 | lra | lra] | exact R2].
  - pose proof (avg_near (g_shape g) AX 0 _ _ emax ltac:(lra) H0) as H1.
    destruct (avg_near (g_shape g) AY (0 + 22 / 10) _ _ emax ltac:(lra) H1 i j k Hin) as [R1 R2]. split; [eapply r_mono; [exact R1 | lra | lra] | exact R2].
Qed.
Lemma const64_ok : forall g emax, wf_grid g -> (forall i j k, in_grid (g_shape g) i j k -> 1 <= g_eps g i j k <= emax) -> emax <= powerRZ 2 900 ->
  (forall a, is_active g a = true -> powerRZ 2 (-400) <= g_spacing g a <= powerRZ 2 400) ->
  const_ok (8 / 2 ^ 53) (powerRZ 2 (-1000)) (powerRZ 2 1000) g (const64 g).
Proof.
  intros g emax W He Hm F. pose proof (pp (-1000)). assert (P9 : 2 * powerRZ 2 900 <= powerRZ 2 1000) by (rewrite dbl; apply pw; lia).
  pose proof (pw (-1000) 0 ltac:(lia)) as Pw. change (powerRZ 2 0) with 1 in Pw. pose proof (pw (-1000) (-400) ltac:(lia)) as Pw4. pose proof (pw 400 1000 ltac:(lia)) as Pw5. pose proof (pw 0 1000 ltac:(lia)) as Pw6. change (powerRZ 2 0) with 1 in Pw6.
  assert (Pw7 : 2 * powerRZ 2 (-1000) <= 1) by (rewrite dbl; change 1 with (powerRZ 2 0); apply pw; lia).
  split; [lra |]. split; [exact (dt_near g W F) |]. split.
  - intro a. destruct (is_active g a) eqn:A; [pose proof (F a A); lra | lra].
  - intros c i j k Hin. destruct (eps_near g emax He c i j k Hin) as [R B]. split; [| exact R]. cbn [m_eps const64]. apply r_range in R; lra.
Qed.
Lemma fl_binary64 : forall g kap emax st0 N, wf_grid g -> 1 < kap -> (forall i j k, in_grid (g_shape g) i j k -> kap <= g_eps g i j k <= emax) -> emax <= powerRZ 2 900 ->
  (forall a, is_active g a = true -> powerRZ 2 (-400) <= g_spacing g a <= powerRZ 2 400) ->
  let B := sqrt (2 / (1 - / sqrt kap)) in 7480 / 2 ^ 53 * (B * INR N) <= 1 ->
  rms g (gap (run_fl b64_farith g (const64 g) st0 (repeat [] N)) (free_run g false st0 N)) <=
  2 * B * INR N * (3740 / 2 ^ 53 * (B * rms g st0) + 72 * powerRZ 2 (-1074) * (1 + dt_of g) * sqrt emax).
Proof.
  intros g kap emax st0 N W Hk He Hm F B HB.
  assert (He1 : forall i j k, in_grid (g_shape g) i j k -> 1 <= g_eps g i j k <= emax) by (intros i j k Hin; pose proof (He i j k Hin); lra).
  pose proof (fl_free g b64_farith (const64 g) _ _ _ _ _ kap emax st0 N W Hk He ok_fl64 (const64_ok g emax W He1 Hm F)) as R. cbv zeta in R. fold B in R.
  replace (3740 / 2 ^ 53) with (340 * (3 / 2 ^ 53 + 8 / 2 ^ 53)) by (unfold Rdiv; ring). apply R.
  - cbn; lra.
  - eapply Rle_trans; [| exact HB]. right. unfold Rdiv. ring.
Qed.
