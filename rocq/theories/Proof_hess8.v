(** C91-C93. *)
From Coq Require Import Reals Lra Lia List ZArith Bool Arith Permutation FunctionalExtensionality.
From Verif Require Import Cx Arr Spec_circuit Model_coupling Model_forward Model_vector Model_hess Spec_mesh Spec_tree Spec_hess Proof_node Proof_mesh Proof_forward Proof_forward2 Proof_forward3 Proof_forward4 Proof_tree Proof_vector Proof_insitu
  Proof_hess1 Proof_hess2 Proof_hess3 Proof_hess4 Proof_hess5 Proof_hess6 Proof_hess7.
Import ListNotations.
Local Open Scope R_scope.

Lemma hessian_ready : forall n balanced v, (2 <= n)%nat -> 0 < power n v ->
  exists m p q T h, conj_unit 0 (normalize n v) n balanced = Some (m, p) /\ hessian_vector_unit 0 v n balanced = Some h /\
    programmed n balanced (fun i => Cconj (normalize n v i)) m p q T /\
    (forall a b, h a b = hu (fst q) (snd q) T (fst (pair_of n a b)) (snd (pair_of n a b))).
Proof.
  intros n balanced v Hn Hv. destruct (unit_ready n balanced v Hn Hv) as (m & p & q & T & E1 & E2 & P).
  exists m, p, q, T, (hess_matrix n (hess_blocks (fst q) (snd q) (descendants n balanced))). split; [exact E1 |]. split; [| split; [exact P |]].
  - unfold hessian_vector_unit. cbv zeta. rewrite E1. cbn [obind fst]. rewrite E2. reflexivity.
  - intros a b. apply hess_matrix_hu; [apply (pr_ds _ _ _ _ _ _ _ P) | apply (pr_nd _ _ _ _ _ _ _ P)].
Qed.

Lemma hessian_blocks_spec : forall n balanced v, (2 <= n)%nat -> 0 < power n v ->
  exists m p h, conj_unit 0 (normalize n v) n balanced = Some (m, p) /\ hessian_vector_unit 0 v n balanced = Some h /\
    forall a b, (a < 2 * (n - 1))%nat -> (b < 2 * (n - 1))%nat ->
      (same_kind n a b -> second_partial m n (fun i => Cconj (normalize n v i)) p a b (h a b)) /\
      (~ same_kind n a b -> second_partial m n (fun i => Cconj (normalize n v i)) p (other n a) (other n b) (h a b)) /\
      h a b = h b a.
Proof.
  intros n balanced v Hn Hv. destruct (hessian_ready n balanced v Hn Hv) as (m & p & q & T & h & E1 & E2 & P & Eh).
  exists m, p, h. split; [exact E1 |]. split; [exact E2 |]. intros a b Ha Hb. pose proof (pr_nd _ _ _ _ _ _ _ P) as Hnd. split; [| split].
  - intros [S1 S2]. rewrite Eh. unfold pair_of. pose proof (second_hu n balanced _ m p q T P a b Ha Hb) as H. unfold ph_of in H.
    destruct (Nat.ltb_spec a (n - 1)), (Nat.ltb_spec b (n - 1)); try lia; exact H.
  - intros S. rewrite Eh. unfold pair_of.
    assert (Hoa : (other n a < 2 * (n - 1))%nat) by (unfold other; destruct (Nat.ltb_spec a (n - 1)); lia).
    assert (Hob : (other n b < 2 * (n - 1))%nat) by (unfold other; destruct (Nat.ltb_spec b (n - 1)); lia).
    pose proof (second_hu n balanced _ m p q T P (other n a) (other n b) Hoa Hob) as H. unfold ph_of, other in H. unfold same_kind in S. unfold other.
    destruct (Nat.ltb_spec a (n - 1)) as [La | La], (Nat.ltb_spec b (n - 1)) as [Lb | Lb]; try (exfalso; apply S; lia).
    + destruct (Nat.ltb_spec (a + (n - 1)) (n - 1)) as [K | K]; [lia |]. destruct (Nat.ltb_spec (b - (n - 1)) (n - 1)) as [K' | K']; [| lia].
      replace (a + (n - 1) - (n - 1))%nat with a in H by lia. cbn [fst snd]. rewrite hu_sym by exact Hnd. exact H.
    + destruct (Nat.ltb_spec (b + (n - 1)) (n - 1)) as [K | K]; [lia |]. destruct (Nat.ltb_spec (a - (n - 1)) (n - 1)) as [K' | K']; [| lia].
      replace (b + (n - 1) - (n - 1))%nat with b in H by lia. cbn [fst snd]. exact H.
  - rewrite !Eh. unfold pair_of. destruct (Nat.ltb a (n - 1)), (Nat.ltb b (n - 1)); cbn [fst snd]; try reflexivity; apply hu_sym; exact Hnd.
Qed.

Lemma hessian_wrong : forall n balanced v, (3 <= n)%nat -> (forall i, (i < n)%nat -> v i <> C0) ->
  exists m p h a b, conj_unit 0 (normalize n v) n balanced = Some (m, p) /\ hessian_vector_unit 0 v n balanced = Some h /\
    (a < 2 * (n - 1))%nat /\ (b < 2 * (n - 1))%nat /\ ~ second_partial m n (fun i => Cconj (normalize n v i)) p a b (h a b).
Proof.
  intros n balanced v Hn Hv.
  assert (Hpow : 0 < power n v).
  { unfold power. destruct n as [| k]; [lia |]. cbn [Rsum]. pose proof (Cn2_pos (v k) (Hv k ltac:(lia))).
    assert (0 <= Rsum k (fun i => Cn2 (v i))); [| lra]. clear. induction k as [| k IH]; cbn [Rsum]; [lra | pose proof (Cn2_nonneg (v k)); lra]. }
  destruct (hessian_ready n balanced v ltac:(lia) Hpow) as (m & p & q & T & h & E1 & E2 & P & Eh).
  destruct (some_wrong n balanced _ m p q T P Hn) as (i & j & Hi & Hj & Hne).
  { intros r Hr. specialize (Hv r Hr). apply Cn2_pos in Hv. intro K.
    assert (K' : Cn2 (Cconj (normalize n v r)) = 0) by (rewrite K; apply Cn2_C0). rewrite Cn2_conj in K'. unfold normalize in K'. rewrite Cn2_mul, Cn2_RtoC in K'. fold (power n v) in K'.
    rewrite <- Rinv_mult, sqrt_def in K' by lra. assert (0 < / power n v) by (apply Rinv_0_lt_compat; exact Hpow). nra. }
  exists m, p, h, (i + (n - 1))%nat, j. split; [exact E1 |]. split; [exact E2 |]. split; [lia |]. split; [lia |]. intro K.
  pose proof (second_hu n balanced _ m p q T P (i + (n - 1))%nat j ltac:(lia) ltac:(lia)) as H. apply Hne.
  rewrite (Eh (i + (n - 1))%nat j) in K. pose proof (mixed_unique _ _ _ K H) as E. unfold pair_of, ph_of in E.
  destruct (Nat.ltb_spec (i + (n - 1)) (n - 1)) as [B1 | B1]; [lia |]. destruct (Nat.ltb_spec j (n - 1)) as [B2 | B2]; [| lia].
  replace (i + (n - 1) - (n - 1))%nat with i in E by lia. exact E.
Qed.

Lemma fd_form : forall (g : R -> R -> R) F dx dy d2 e, e <> 0 ->
  (forall s u, g s u = 2 - 2 * re (F + dx * (cis s - C1) + dy * (cis u - C1) + d2 * (cis s - C1) * (cis u - C1))%C) ->
  (g e e + g (- e) (- e) - g e (- e) - g (- e) e) / (4 * e ^ 2) = (sin e / e) ^ 2 * (2 * re d2).
Proof.
  intros g F dx dy d2 e He H. rewrite !H. cbn. rewrite cos_neg, sin_neg. field. exact He.
Qed.
Lemma fd_err_misfit : forall m v n p, re (fd_err m v n p) = misfit m n (fun i => Cconj (v i)) p \/ matrix_fn m false p (fun i => Cconj (v i)) = None.
Proof.
  intros. unfold fd_err, misfit. destruct (matrix_fn m false p (fun i => Cconj (v i))) as [y |]; [left; cbn; ring | right; reflexivity].
Qed.
Lemma hessian_fd_spec : forall n balanced v error, (2 <= n)%nat -> 0 < power n v -> error <> 0 ->
  exists h hf, hessian_vector_unit 0 v n balanced = Some h /\ hessian_fd 0 v n balanced error = Some hf /\
    forall a b, (a < 2 * (n - 1))%nat -> (b < 2 * (n - 1))%nat -> hf a b = (sin error / error) ^ 2 * h a b.
Proof.
  intros n balanced v error Hn Hv He. destruct (hessian_ready n balanced v Hn Hv) as (m & p & q & T & h & E1 & E2 & P & Eh).
  exists h. eexists. split; [exact E2 |]. split; [unfold hessian_fd; cbv zeta; rewrite E1; cbn [obind fst snd]; reflexivity |].
  set (x := fun i => Cconj (normalize n v i)) in *.
  assert (Hm : forall p', re (fd_err m (normalize n v) n p') = misfit m n x p').
  { intro p'. destruct (fd_err_misfit m (normalize n v) n p') as [K | K]; [exact K |].
    destruct (pr_out _ _ _ _ _ _ _ P p') as (y & Ey & _). unfold x in Ey. congruence. }
  assert (G : forall (F : R -> R -> params) a b, (a < 2 * (n - 1))%nat -> (b < 2 * (n - 1))%nat -> (forall s u, F s u = bump n (bump n p a s) b u) ->
    fd_quot (fun s u => fd_err m (normalize n v) n (F s u)) error = (sin error / error) ^ 2 * hu (fst q) (snd q) T (ph_of n a) (ph_of n b)).
  { intros F a b Ha Hb HF. unfold fd_quot. rewrite !Hm, !HF.
    rewrite <- (dif2_hu (zp p) x (fst q) (snd q) (zp_unit p) (zp_quad p) (ph_of n a) (ph_of n b) T (pr_good _ _ _ _ _ _ _ P) (pr_nd _ _ _ _ _ _ _ P)
      (ph_in n balanced x m p q T P a Ha) (ph_in n balanced x m p q T P b Hb)).
    apply (fd_form (fun s u => misfit m n x (bump n (bump n p a s) b u)) C1 (Cconj (za (zp p) x T) * dif (zp p) x (ph_of n a) T)%C
      (Cconj (za (zp p) x T) * dif (zp p) x (ph_of n b) T)%C (Cconj (za (zp p) x T) * dif2 (zp p) x (ph_of n a) (ph_of n b) T)%C error He). intros s u.
    apply (misfit_bump n balanced x m p q T P a b s u). }
  assert (BT : forall p' i s, (i < n - 1)%nat -> plus_theta p' i s = bump n p' i s).
  { intros p' i s Hi. unfold plus_theta, bump. destruct (Nat.ltb_spec i (n - 1)); [reflexivity | lia]. }
  assert (BP : forall p' i s, plus_phi p' i s = bump n p' (i + (n - 1))%nat s).
  { intros p' i s. unfold plus_phi, bump. destruct (Nat.ltb_spec (i + (n - 1)) (n - 1)); [lia |]. replace (i + (n - 1) - (n - 1))%nat with i by lia. reflexivity. }
  assert (PT : forall i, (i < n - 1)%nat -> ph_of n i = (false, i)) by (intros i Hi; unfold ph_of; destruct (Nat.ltb_spec i (n - 1)); [reflexivity | lia]).
  assert (PP : forall i, ph_of n (i + (n - 1)) = (true, i)) by (intros i; unfold ph_of; destruct (Nat.ltb_spec (i + (n - 1)) (n - 1)); [lia | f_equal; lia]).
  intros a b Ha Hb. cbv beta. rewrite Eh. unfold pair_of.
  destruct (Nat.ltb_spec a (n - 1)) as [La | La], (Nat.ltb_spec b (n - 1)) as [Lb | Lb]; cbn [fst snd].
  - rewrite <- (PT a La), <- (PT b Lb). apply (G (fun s t => plus_theta (plus_theta p a s) b t) a b); [lia | lia |]. intros s u. rewrite !BT by assumption. reflexivity.
  - rewrite <- (PP a), <- (PT (b - (n - 1))%nat) by lia. apply (G (fun s t => plus_phi (plus_theta p (b - (n - 1)) s) a t) (b - (n - 1))%nat (a + (n - 1))%nat); [lia | lia |].
    intros s u. rewrite BP, BT by lia. reflexivity.
  - rewrite <- (PP b), <- (PT (a - (n - 1))%nat) by lia. apply (G (fun s t => plus_phi (plus_theta p (a - (n - 1)) s) b t) (a - (n - 1))%nat (b + (n - 1))%nat); [lia | lia |].
    intros s u. rewrite BP, BT by lia. reflexivity.
  - rewrite <- (PP (a - (n - 1))%nat), <- (PP (b - (n - 1))%nat).
    apply (G (fun s t => plus_phi (plus_phi p (a - (n - 1)) s) (b - (n - 1)) t) (a - (n - 1) + (n - 1))%nat (b - (n - 1) + (n - 1))%nat); [lia | lia |].
    intros s u. rewrite !BP. reflexivity.
Qed.

Lemma za_le : forall p x t, Cn2 (za (zp p) x t) <= below x t.
Proof.
  intros p x. induction t as [r | nd A IHA B IHB]; [unfold below; cbn; lra |].
  pose proof (quad_unit_power _ (zp_quad p (node_id nd)) (za (zp p) x A) (za (zp p) x B)) as E. unfold qtop, qbot in E. cbn [t11 t12 t21 t22] in E.
  pose proof (Cn2_nonneg (zq11 (zp p) (node_id nd) * za (zp p) x A + zq21 (zp p) (node_id nd) * za (zp p) x B)%C).
  unfold below in *. cbn [leaves za]. rewrite below_app. lra.
Qed.
Lemma unit_minimum : forall n balanced v, (2 <= n)%nat -> 0 < power n v ->
  exists m p, conj_unit 0 (normalize n v) n balanced = Some (m, p) /\
    misfit m n (fun i => Cconj (normalize n v i)) p = 0 /\
    (forall p', 0 <= misfit m n (fun i => Cconj (normalize n v i)) p') /\
    (forall a, (a < 2 * (n - 1))%nat -> derivable_pt_lim (fun s => misfit m n (fun i => Cconj (normalize n v i)) (bump n p a s)) 0 0).
Proof.
  intros n balanced v Hn Hv. destruct (unit_ready n balanced v Hn Hv) as (m & p & q & T & E1 & E2 & P).
  exists m, p. split; [exact E1 |]. split; [apply (misfit_zero _ _ _ _ _ _ _ P) |]. split.
  - intro p'. unfold misfit. destruct (pr_out _ _ _ _ _ _ _ P p') as (y & -> & ->).
    assert (H1 : below (fun i => Cconj (normalize n v i)) T = 1) by (rewrite <- (node_power _ p q T (pr_good _ _ _ _ _ _ _ P)); apply (pr_one _ _ _ _ _ _ _ P)).
    pose proof (za_le p' (fun i => Cconj (normalize n v i)) T) as H2. rewrite H1 in H2.
    pose proof (Cn2_mul (cis (gammas p' (n - 1)%nat)) (za (zp p') (fun i => Cconj (normalize n v i)) T)) as H3. rewrite Cn2_cis in H3.
    set (w := (cis (gammas p' (n - 1)%nat) * za (zp p') (fun i => Cconj (normalize n v i)) T)%C) in *.
    assert (H4 : Cn2 w <= 1) by lra. unfold Cn2 in H4. nra.
  - intros a Ha. apply (stationary n balanced _ m p q T P a Ha).
Qed.

(** The powers of the loop, as the user sees them: input powers below each node. *)
Definition ex_v : vec := fun i => if Nat.eqb i 0 then C1 else if Nat.eqb i 1 then RtoC 2 else RtoC 2.
Lemma ex_v_power : 0 < power 3 ex_v.
Proof. unfold power, ex_v, Cn2. cbn [Rsum Nat.eqb re im C1 RtoC]. lra. Qed.
Lemma ex_v_nz : forall i, (i < 3)%nat -> ex_v i <> C0.
Proof. intros i Hi K. apply (f_equal re) in K. unfold ex_v in K. destruct (Nat.eqb i 0), (Nat.eqb i 1); cbn in K; lra. Qed.
