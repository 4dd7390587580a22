(** Proofs about Model_adj. *)
From Coq Require Import Reals List Arith Lra Lia Bool.
From Verif Require Import Cx Arr Model_adj Spec_adj.
Local Open Scope R_scope.

(** ** sparse solve *)
Lemma coo_pair : forall n K row col a lam x, (forall k, (k < K)%nat -> (row k < n)%nat /\ (col k < n)%nat) ->
  Csum n (fun r => (lam r * mv n (coo_f K row col a) x r)%C) = Csum K (fun k => (lam (row k) * a k * x (col k))%C).
Proof.
  intros n K row col a lam x H. unfold mv, coo_f.
  rewrite (Csum_ext n _ (fun r => Csum K (fun k => if Nat.eqb (row k) r then (lam r * a k * x (col k))%C else C0))).
  - rewrite Csum_swap. apply Csum_ext. intros k Hk. destruct (H k Hk) as [Hr _].
    rewrite (Csum_single n _ (row k) Hr).
    + rewrite Nat.eqb_refl. reflexivity.
    + intros j _ Hj. destruct (Nat.eqb_spec (row k) j); [congruence | reflexivity].
  - intros r Hr. rewrite <- Csum_scal.
    rewrite (Csum_ext n _ (fun c => Csum K (fun k => if (Nat.eqb (row k) r && Nat.eqb (col k) c)%bool then (lam r * a k * x c)%C else C0))).
    + rewrite Csum_swap. apply Csum_ext. intros k Hk. destruct (H k Hk) as [_ Hc]. rewrite (Csum_single n _ (col k) Hc).
      * rewrite Nat.eqb_refl, andb_true_r. reflexivity.
      * intros j _ Hj. destruct (Nat.eqb_spec (col k) j); [congruence |]. rewrite andb_false_r. reflexivity.
    + intros c _. rewrite <- Csum_scal_r, <- Csum_scal. apply Csum_ext. intros k _. destruct (_ && _)%bool; ring.
Qed.
Lemma bwd_exact : forall n K row col a b x a' b' x' g lam, (forall k, (k < K)%nat -> (row k < n)%nat /\ (col k < n)%nat) ->
  spsolve n K row col a b x -> spsolve n K row col a' b' x' -> spsolve n K col row a g lam ->
  (Csum n (fun r => (g r * x' r)%C) - Csum n (fun r => (g r * x r)%C))%C =
  (Csum n (fun r => (lam r * (b' r - b r))%C) - Csum K (fun k => (lam (row k) * (a' k - a k) * x' (col k))%C))%C.
Proof.
  intros n K row col a b x a' b' x' g lam H Hx Hx' Hl.
  assert (T : forall y, Csum n (fun r => (g r * y r)%C) = Csum K (fun k => (lam (row k) * a k * y (col k))%C)).
  { intros y. rewrite (Csum_ext n _ (fun r => (y r * mv n (coo_f K col row a) lam r)%C)).
    - rewrite coo_pair by (intros k Hk; destruct (H k Hk); auto). apply Csum_ext. intros. ring.
    - intros r Hr. rewrite (Hl r Hr). ring. }
  rewrite !T.
  assert (Lb : Csum n (fun r => (lam r * b r)%C) = Csum K (fun k => (lam (row k) * a k * x (col k))%C)).
  { rewrite <- (coo_pair n) by auto. apply Csum_ext. intros r Hr. rewrite (Hx r Hr). reflexivity. }
  assert (Lb' : Csum n (fun r => (lam r * b' r)%C) = Csum K (fun k => (lam (row k) * a' k * x' (col k))%C)).
  { rewrite <- (coo_pair n) by auto. apply Csum_ext. intros r Hr. rewrite (Hx' r Hr). reflexivity. }
  rewrite (Csum_ext n (fun r => (lam r * (b' r - b r))%C) (fun r => (lam r * b' r - lam r * b r)%C)) by (intros; ring).
  rewrite Csum_sub, Lb, Lb'.
  rewrite (Csum_ext K (fun k => (lam (row k) * (a' k - a k) * x' (col k))%C) (fun k => (lam (row k) * a' k * x' (col k) - lam (row k) * a k * x' (col k))%C)) by (intros; ring).
  rewrite Csum_sub. ring.
Qed.
(** ** norms *)
Lemma Cabs_add : forall a b, Cabs (a + b)%C <= Cabs a + Cabs b.
Proof.
  intros a b. pose proof (Cabs_nonneg a). pose proof (Cabs_nonneg b). pose proof (Cabs_nonneg (a + b)%C).
  pose proof (Cabs_sq a). pose proof (Cabs_sq b). pose proof (Cabs_sq (a + b)%C).
  pose proof (re_le_Cabs (a * Cconj b)%C) as R. rewrite Cabs_mul, Cabs_conj in R.
  assert (E : Cn2 (a + b)%C = Cn2 a + Cn2 b + 2 * re (a * Cconj b)%C) by (destruct a, b; unfold Cn2; cbn; ring). nra.
Qed.
Lemma Cabs_sub : forall a b, Cabs (a - b)%C <= Cabs a + Cabs b.
Proof. intros a b. replace (a - b)%C with (a + - b)%C by ring. rewrite <- (Cabs_opp b). apply Cabs_add. Qed.
Lemma Cabs_Csum : forall n f, Cabs (Csum n f) <= Rsum n (fun i => Cabs (f i)).
Proof. induction n as [| n IH]; intros f; cbn [Csum Rsum]; [rewrite Cabs_C0; lra |]. pose proof (Cabs_add (Csum n f) (f n)). pose proof (IH f). lra. Qed.
Lemma Rsum_bound : forall n f B, (forall i, (i < n)%nat -> f i <= B) -> Rsum n f <= INR n * B.
Proof. intros. rewrite <- Rsum_const. apply Rsum_le. auto. Qed.
Lemma Cdiv_eq : forall a b c, b <> C0 -> a = (b * c)%C -> (a / b)%C = c.
Proof. intros a b c Hb ->. field. auto. Qed.

(** The difference quotient of the loss converges to the reported gradient, with rate proportional to |t|. *)
Lemma bwd_derivative : forall n K row col a da b db g lam (xt : C -> vec) (Ainv : mat),
  (forall k, (k < K)%nat -> (row k < n)%nat /\ (col k < n)%nat) ->
  (forall i j, (i < n)%nat -> (j < n)%nat -> Csum n (fun r => (Ainv i r * coo_f K row col a r j)%C) = delta i j) ->
  (forall t, spsolve n K row col (fun k => (a k + t * da k)%C) (fun r => (b r + t * db r)%C) (xt t)) ->
  spsolve n K col row a g lam ->
  let '(ga, gb) := spsolve_bwd row col (xt C0) lam in
  exists M d, 0 < d /\ forall t, t <> C0 -> Cabs t < d ->
    Cabs ((Csum n (fun r => (g r * xt t r)%C) - Csum n (fun r => (g r * xt C0 r)%C)) / t -
          (Csum K (fun k => (ga k * da k)%C) + Csum n (fun r => (gb r * db r)%C)))%C <= M * Cabs t.
Proof.
  intros n K row col a da b db g lam xt Ainv H HA Hx Hl. cbn [spsolve_bwd].
  assert (Hx0 : spsolve n K row col a b (xt C0)).
  { intros r Hr. pose proof (Hx C0 r Hr) as E. replace (b r) with (b r + C0 * db r)%C by ring. rewrite <- E.
    unfold mv, coo_f. apply Csum_ext. intros c _. f_equal. apply Csum_ext. intros k _. destruct (_ && _)%bool; auto. ring. }
  (* rows of the inverse give adjoints for the unit cotangents *)
  assert (HR : forall j, (j < n)%nat -> spsolve n K col row a (fun r => delta j r) (fun r => Ainv j r)).
  { intros j Hj r Hr. rewrite <- (HA j r Hj Hr). unfold mv. apply Csum_ext. intros c _.
    unfold coo_f. rewrite <- Csum_scal_r, <- Csum_scal. apply Csum_ext. intros k _. rewrite andb_comm. destruct (_ && _)%bool; ring. }
  set (D := Rsum n (fun j => Rsum n (fun r => Cabs (Ainv j r) * Cabs (db r)))).
  set (Q := Rsum n (fun j => Rsum K (fun k => Cabs (Ainv j (row k)) * Cabs (da k)))).
  set (X := fun t => Rsum n (fun j => Cabs (xt t j))).
  set (E := fun t => Rsum n (fun j => Cabs (xt t j - xt C0 j)%C)).
  assert (PP : forall x y, 0 <= Cabs x * Cabs y) by (intros; apply Rmult_le_pos; apply Cabs_nonneg).
  assert (HD : 0 <= D) by (apply Rsum_nonneg; intros; apply Rsum_nonneg; intros; apply PP).
  assert (HQ : 0 <= Q) by (apply Rsum_nonneg; intros; apply Rsum_nonneg; intros; apply PP).
  assert (HX : forall t, 0 <= X t) by (intros; apply Rsum_nonneg; intros; apply Cabs_nonneg).
  assert (HE : forall t, 0 <= E t) by (intros; apply Rsum_nonneg; intros; apply Cabs_nonneg).
  assert (XE : forall t, X t <= X C0 + E t).
  { intros t. unfold X, E. rewrite <- Rsum_add. apply Rsum_le. intros j _. replace (xt t j) with (xt C0 j + (xt t j - xt C0 j))%C at 1 by ring. apply Cabs_add. }
  assert (EB : forall t, E t <= Cabs t * (D + Q * X t)).
  { intros t. unfold E. apply Rle_trans with (Rsum n (fun j => Cabs t * (Rsum n (fun r => Cabs (Ainv j r) * Cabs (db r)) + Rsum K (fun k => Cabs (Ainv j (row k)) * Cabs (da k)) * X t))).
    - apply Rsum_le. intros j Hj.
      pose proof (bwd_exact n K row col a b (xt C0) _ _ (xt t) _ _ H Hx0 (Hx t) (HR j Hj)) as I. cbv beta in I. rewrite !Csum_delta_l in I by auto. rewrite I.
      eapply Rle_trans; [apply Cabs_sub |]. rewrite Rmult_plus_distr_l. apply Rplus_le_compat.
      + eapply Rle_trans; [apply Cabs_Csum |]. rewrite <- Rsum_scal. apply Rsum_le. intros r _.
        replace (Ainv j r * (b r + t * db r - b r))%C with (t * (Ainv j r * db r))%C by ring. rewrite !Cabs_mul. lra.
      + eapply Rle_trans; [apply Cabs_Csum |]. replace (Cabs t * (Rsum K (fun k => Cabs (Ainv j (row k)) * Cabs (da k)) * X t)) with (Cabs t * X t * Rsum K (fun k => Cabs (Ainv j (row k)) * Cabs (da k))) by ring.
        rewrite <- Rsum_scal. apply Rsum_le. intros k Hk.
        replace (Ainv j (row k) * (a k + t * da k - a k) * xt t (col k))%C with (t * (xt t (col k) * (Ainv j (row k) * da k)))%C by ring. rewrite !Cabs_mul.
        assert (Cabs (xt t (col k)) <= X t) by (apply (Rsum_term_le n (fun j => Cabs (xt t j))); [intros; apply Cabs_nonneg | apply H; auto]).
        rewrite Rmult_assoc. apply Rmult_le_compat_l; [apply Cabs_nonneg |]. apply Rmult_le_compat_r; [apply PP | auto].
    - right. rewrite Rsum_scal. f_equal. rewrite Rsum_add. f_equal. unfold Q. rewrite <- (Rmult_comm (X t)), <- Rsum_scal. apply Rsum_ext. intros. ring. }
  set (B := 2 * (X C0 + D)). set (L := Rsum K (fun k => Cabs (lam (row k)) * Cabs (da k))).
  assert (HL : 0 <= L) by (apply Rsum_nonneg; intros; apply PP).
  exists (L * (D + Q * B)), (/ (2 * (Q + 1))). split; [apply Rinv_0_lt_compat; lra |]. intros t Ht Hd.
  assert (Hq : Cabs t * Q <= 1 / 2 /\ Cabs t <= 1 / 2).
  { assert (F : / (2 * (Q + 1)) * (Q + 1) = 1 / 2) by (field; lra). pose proof (Cabs_nonneg t). split; nra. }
  destruct Hq as [Hq1 Hq2]. pose proof (Cabs_nonneg t) as Ht0.
  assert (XB : X t <= B). { pose proof (XE t). pose proof (EB t). pose proof (HX t). unfold B. nra. }
  assert (ET : E t <= Cabs t * (D + Q * B)). { eapply Rle_trans; [apply EB |]. apply Rmult_le_compat_l; auto. nra. }
  pose proof (bwd_exact n K row col a b (xt C0) _ _ (xt t) g lam H Hx0 (Hx t) Hl) as I. cbv beta in I.
  assert (Z : ((Csum n (fun r => g r * xt t r) - Csum n (fun r => g r * xt C0 r)) / t)%C =
              (Csum n (fun r => lam r * db r) - Csum K (fun k => lam (row k) * da k * xt t (col k)))%C).
  { apply Cdiv_eq; auto. rewrite I. rewrite (Csum_ext n _ (fun r => (t * (lam r * db r))%C)) by (intros; ring). rewrite Csum_scal.
    rewrite (Csum_ext K _ (fun k => (t * (lam (row k) * da k * xt t (col k)))%C)) by (intros; ring). rewrite Csum_scal. ring. }
  rewrite Z. clear Z I.
  assert (Z : (Csum n (fun r => lam r * db r) - Csum K (fun k => lam (row k) * da k * xt t (col k)) -
     (Csum K (fun k => - lam (row k) * xt C0 (col k) * da k) + Csum n (fun r => lam r * db r)))%C =
     (- Csum K (fun k => lam (row k) * da k * (xt t (col k) - xt C0 (col k))))%C).
  { rewrite (Csum_ext K (fun k => (lam (row k) * da k * (xt t (col k) - xt C0 (col k)))%C) (fun k => (lam (row k) * da k * xt t (col k) + - lam (row k) * xt C0 (col k) * da k)%C)) by (intros; ring).
    rewrite Csum_add. ring. }
  rewrite Z, Cabs_opp. eapply Rle_trans; [apply Cabs_Csum |].
  apply Rle_trans with (L * E t).
  - unfold L. rewrite Rmult_comm, <- Rsum_scal. apply Rsum_le. intros k Hk. rewrite !Cabs_mul.
    assert (Cabs (xt t (col k) - xt C0 (col k))%C <= E t) by (apply (Rsum_term_le n (fun j => Cabs (xt t j - xt C0 j)%C)); [intros; apply Cabs_nonneg | apply H; auto]).
    rewrite Rmult_comm. apply Rmult_le_compat_r; [apply PP | auto].
  - replace (L * (D + Q * B) * Cabs t) with (L * (Cabs t * (D + Q * B))) by ring. apply Rmult_le_compat_l; auto.
Qed.
(** ** te *)
Lemma te_adjoint_c : forall n K a b row col g dt, (forall k, (k < K)%nat -> (row k < n)%nat /\ (col k < n)%nat) ->
  Csum K (fun k => (g k * te n a b row col dt k)%C) =
  Csum n (fun l => (Csum n (fun r => b l r * Csum n (fun c => coo_f K col row g r c * a c l)) * dt l)%C).
Proof.
  intros n K a b row col g dt H. unfold te.
  rewrite (Csum_ext K _ (fun k => Csum n (fun l => (g k * (a (row k) l * dt l * b l (col k)))%C))) by (intros; rewrite Csum_scal; reflexivity).
  rewrite Csum_swap. apply Csum_ext. intros l _.
  assert (P := coo_pair n K col row g (fun r => b l r) (fun c => a c l) (fun k Hk => conj (proj2 (H k Hk)) (proj1 (H k Hk)))).
  unfold mv in P. rewrite P. rewrite <- Csum_scal_r. apply Csum_ext. intros. ring.
Qed.
Lemma te_adjoint : forall n K a b row col g (dt : nat -> R), (forall k, (k < K)%nat -> (row k < n)%nat /\ (col k < n)%nat) ->
  re (Csum K (fun k => (g k * te n a b row col (fun l => RtoC (dt l)) k)%C)) = Rsum n (fun l => te_bwd n K a b row col g l * dt l).
Proof.
  intros n K a b row col g dt H. rewrite te_adjoint_c by auto. rewrite re_Csum. apply Rsum_ext. intros l _. unfold te_bwd.
  set (z := Csum n (fun r => (b l r * Csum n (fun c => (coo_f K col row g r c * a c l)%C))%C)). destruct z. cbn. ring.
Qed.
Lemma te_linear : forall n a b row col t dt k, te n a b row col (fun l => (t l + dt l)%C) k = (te n a b row col t k + te n a b row col dt k)%C.
Proof. intros. unfold te. rewrite <- Csum_add. apply Csum_ext. intros. ring. Qed.

(** ** normalized_error *)
Lemma inner_self : forall n v, inner n v v = RtoC (nn n v).
Proof.
  intros. unfold inner, nn. rewrite Csum_RtoC. apply Csum_ext. intros j _. rewrite Csum_RtoC. apply Csum_ext. intros i _. rewrite <- Cmul_conj. ring.
Qed.
Lemma nn_nonneg : forall n v, 0 <= nn n v.
Proof. intros. apply Rsum_nonneg. intros. apply Rsum_nonneg. intros. apply Cn2_nonneg. Qed.
Lemma nn_zero : forall n v, nn n v = 0 -> forall i j, (i < n)%nat -> (j < n)%nat -> v i j = C0.
Proof.
  intros n v E i j Hi Hj.
  pose proof (Rsum_zero_terms n (fun j => Rsum n (fun i => Cn2 (v i j))) ltac:(intros; apply Rsum_nonneg; intros; apply Cn2_nonneg) E j Hj) as E1. cbv beta in E1.
  pose proof (Rsum_zero_terms n (fun i => Cn2 (v i j)) ltac:(intros; apply Cn2_nonneg) E1 i Hi) as E2. apply Cn2_zero_iff. exact E2.
Qed.
Lemma inner_sub : forall n u v c, inner n u (fun i j => (v i j - c * u i j)%C) = (inner n u v - c * inner n u u)%C.
Proof.
  intros. unfold inner. rewrite <- Csum_scal, <- Csum_sub. apply Csum_ext. intros j _. rewrite <- Csum_scal, <- Csum_sub. apply Csum_ext. intros i _. ring.
Qed.
Lemma nn_sub : forall n u v c, nn n (fun i j => (v i j - c * u i j)%C) = nn n v - 2 * re (Cconj c * inner n u v)%C + Cn2 c * nn n u.
Proof.
  intros. unfold nn, inner. rewrite <- Csum_scal, re_Csum, <- !Rsum_scal, <- Rsum_sub, <- Rsum_add. apply Rsum_ext. intros j _.
  rewrite <- Csum_scal, re_Csum, <- !Rsum_scal, <- Rsum_sub, <- Rsum_add. apply Rsum_ext. intros i _.
  destruct (v i j), (u i j), c. unfold Cn2. cbn. ring.
Qed.
Lemma cs_identity : forall n u v N, 0 < N -> nn n u = N ->
  N * nn n (fun i j => (v i j - (inner n u v / RtoC N) * u i j)%C) = N * nn n v - Cn2 (inner n u v).
Proof.
  intros n u v N HN Hu. rewrite nn_sub, Hu. destruct (inner n u v) as [x y]. unfold Cn2. cbn. unfold Cn2. cbn. field. lra.
Qed.
Lemma ne_arg_alt : forall n u v, ne_arg n u v = 1 - Cn2 (inner n u v) / (nn n v * nn n v).
Proof. intros. unfold ne_arg. rewrite inner_self, Cn2_RtoC. reflexivity. Qed.
Lemma ne_range : forall n u v N, 0 < N -> nn n u = N -> N <= nn n v -> 0 <= ne_arg n u v <= 1.
Proof.
  intros n u v N HN Hu Hv. rewrite ne_arg_alt. pose proof (cs_identity n u v N HN Hu) as I.
  pose proof (nn_nonneg n (fun i j => (v i j - (inner n u v / RtoC N) * u i j)%C)). pose proof (Cn2_nonneg (inner n u v)).
  set (m := nn n v) in *. set (z := Cn2 (inner n u v)) in *. assert (Hz : z <= m * m) by nra. assert (0 < m * m) by nra.
  assert (z / (m * m) <= 1). { apply Rmult_le_reg_r with (m * m); auto. unfold Rdiv. rewrite Rmult_assoc, Rinv_l by lra. lra. }
  assert (0 <= z / (m * m)) by (apply Rmult_le_pos; [auto | left; apply Rinv_0_lt_compat; auto]). lra.
Qed.
Lemma ne_zero : forall n u v N, 0 < N -> nn n u = N -> N <= nn n v ->
  (ne_arg n u v = 0 <-> exists c, Cn2 c = 1 /\ forall i j, (i < n)%nat -> (j < n)%nat -> v i j = (c * u i j)%C).
Proof.
  intros n u v N HN Hu Hv. split.
  - intros E. rewrite ne_arg_alt in E. pose proof (cs_identity n u v N HN Hu) as I.
    set (c := (inner n u v / RtoC N)%C) in *. set (w := fun i j => (v i j - c * u i j)%C) in *. pose proof (nn_nonneg n w) as Hw.
    set (m := nn n v) in *. set (z := Cn2 (inner n u v)) in *. assert (Hm : 0 < m * m) by nra.
    assert (Ez : z = m * m). { assert (z / (m * m) = 1) by lra. apply (f_equal (fun x => x * (m * m))) in H. unfold Rdiv in H. rewrite Rmult_assoc, Rinv_l in H by lra. lra. }
    assert (Em : m = N) by nra. assert (W0 : nn n w = 0) by nra. exists c. split.
    + unfold c, Cdiv. rewrite Cn2_mul. fold z. rewrite Ez, Em. unfold Cn2. cbn. unfold Cn2. cbn. field. lra.
    + intros i j Hi Hj. pose proof (nn_zero n w W0 i j Hi Hj) as Z. unfold w in Z. replace (v i j) with (v i j - c * u i j + c * u i j)%C by ring. rewrite Z. ring.
  - intros (c & Hc & Hv').
    assert (Iv : inner n u v = (c * RtoC N)%C).
    { rewrite <- Hu, <- inner_self. unfold inner. rewrite <- Csum_scal. apply Csum_ext. intros j Hj. rewrite <- Csum_scal. apply Csum_ext. intros i Hi. rewrite Hv' by auto. ring. }
    assert (Nv : nn n v = N).
    { rewrite <- Hu. unfold nn. apply Rsum_ext. intros j Hj. apply Rsum_ext. intros i Hi. rewrite Hv' by auto. rewrite Cn2_mul, Hc. ring. }
    rewrite ne_arg_alt, Nv, Iv, Cn2_mul, Hc, Cn2_RtoC. field. lra.
Qed.
Lemma ne_lossy : forall n u N r, 0 < N -> nn n u = N -> r <> 0 -> ne_arg n u (fun i j => (RtoC r * u i j)%C) = 1 - / (r * r).
Proof.
  intros n u N r HN Hu Hr.
  assert (Iv : inner n u (fun i j => (RtoC r * u i j)%C) = (RtoC r * RtoC N)%C).
  { rewrite <- Hu, <- inner_self. unfold inner. rewrite <- Csum_scal. apply Csum_ext. intros j Hj. rewrite <- Csum_scal. apply Csum_ext. intros i Hi. ring. }
  assert (Nv : nn n (fun i j => (RtoC r * u i j)%C) = r * r * N).
  { rewrite <- Hu. unfold nn. rewrite <- Rsum_scal. apply Rsum_ext. intros j Hj. rewrite <- Rsum_scal. apply Rsum_ext. intros i Hi. rewrite Cn2_mul, Cn2_RtoC. ring. }
  rewrite ne_arg_alt, Nv, Iv, Cn2_mul, !Cn2_RtoC. field. split; lra.
Qed.
Lemma unitary_nn : forall n u, (forall j, (j < n)%nat -> Csum n (fun i => (Cconj (u i j) * u i j)%C) = C1) -> nn n u = INR n.
Proof.
  intros n u H. unfold nn. rewrite (Rsum_ext n _ (fun _ => 1)).
  - rewrite Rsum_const. ring.
  - intros j Hj. assert (E := f_equal re (H j Hj)). rewrite re_Csum in E. cbn [re C1] in E. rewrite <- E. apply Rsum_ext. intros i _. destruct (u i j). unfold Cn2. cbn. ring.
Qed.
(** ** poynting and measure *)
Lemma flux_add_l : forall n m e e' h, flux n m (fun c i j => (e c i j + e' c i j)%C) h = (flux n m e h + flux n m e' h)%C.
Proof.
  intros. unfold flux, poynting. cbn. rewrite <- Csum_add. apply Csum_ext. intros i _. rewrite <- Csum_add. apply Csum_ext. intros j _.
  unfold avg0, avg1, Cdiv. ring.
Qed.
Lemma flux_scal_l : forall n m e h z, flux n m (fun c i j => (z * e c i j)%C) h = (z * flux n m e h)%C.
Proof.
  intros. unfold flux, poynting. cbn. rewrite <- Csum_scal. apply Csum_ext. intros i _. rewrite <- Csum_scal. apply Csum_ext. intros j _.
  unfold avg0, avg1, Cdiv. ring.
Qed.
Lemma flux_add_r : forall n m e h h', flux n m e (fun c i j => (h c i j + h' c i j)%C) = (flux n m e h + flux n m e h')%C.
Proof.
  intros. unfold flux, poynting. cbn. rewrite <- Csum_add. apply Csum_ext. intros i _. rewrite <- Csum_add. apply Csum_ext. intros j _.
  unfold avg0, avg1, Cdiv. rewrite !Cconj_mul, !Cconj_add. ring.
Qed.
Lemma flux_scal_r : forall n m e h z, flux n m e (fun c i j => (z * h c i j)%C) = (Cconj z * flux n m e h)%C.
Proof.
  intros. unfold flux, poynting. cbn. rewrite <- Csum_scal. apply Csum_ext. intros i _. rewrite <- Csum_scal. apply Csum_ext. intros j _.
  unfold avg0, avg1, Cdiv. rewrite !Cconj_mul, !Cconj_add, !Cconj_mul. ring.
Qed.
Lemma measure_linear : forall n m em hm e h e' h' y z, let '(p, q) := measure n m em hm e h in let '(p', q') := measure n m em hm e' h' in
  measure n m em hm (fun c i j => (y * e c i j + z * e' c i j)%C) (fun c i j => (y * h c i j + z * h' c i j)%C) = ((y * p + z * p')%C, (y * q + z * q')%C).
Proof.
  intros. unfold measure. cbv beta iota zeta.
  rewrite (flux_add_l n m (fun c i j => (y * e c i j)%C) (fun c i j => (z * e' c i j)%C)), !flux_scal_l.
  rewrite (flux_add_r n m em (fun c i j => (y * h c i j)%C) (fun c i j => (z * h' c i j)%C)), !flux_scal_r. unfold Cdiv.
  rewrite !Cconj_mul, !Cconj_add, !Cconj_mul, !Cconj_conj. apply f_equal2; ring.
Qed.
Lemma two_neq : (C1 + C1)%C <> C0.
Proof. intros E. assert (Q := f_equal re E). cbn in Q. lra. Qed.
Lemma two_is : RtoC 2 = (C1 + C1)%C.
Proof. apply C_eq; cbn; ring. Qed.
Lemma measure_mode : forall n m em hm, flux n m em hm <> C0 -> measure n m em hm em hm = (C1, C0).
Proof.
  intros n m em hm H. unfold measure. cbv beta iota zeta. assert (E : (flux n m em hm / flux n m em hm)%C = C1) by (field; auto). rewrite E. rewrite Cconj_C1, two_is.
  apply f_equal2; field; apply two_neq.
Qed.
Lemma measure_super : forall n m em hm y z, flux n m em hm <> C0 ->
  measure n m em hm (fun c i j => ((y + z) * em c i j)%C) (fun c i j => ((y - z) * hm c i j)%C) = (y, z).
Proof.
  intros n m em hm y z H. unfold measure. cbv beta iota zeta. rewrite flux_scal_l, flux_scal_r. set (s := flux n m em hm) in *.
  assert (E1 : ((y + z) * s / s)%C = (y + z)%C) by (field; auto). assert (E2 : (Cconj (y - z) * s / s)%C = Cconj (y - z)%C) by (field; auto).
  rewrite E1, E2, Cconj_conj, two_is. apply f_equal2; field; apply two_neq.
Qed.
Lemma poynting_axis2 : forall n m e h, exists p, poynting 2 n m e h = Some p /\ forall i j,
  p i j = (avg1 m (e O) i j * Cconj (avg1 m (h 1%nat) i j) - avg0 n (e 1%nat) i j * Cconj (avg0 n (h O) i j))%C.
Proof. intros. eexists. split; [reflexivity |]. intros. reflexivity. Qed.
Lemma poynting_axis01 : forall n m e h, poynting 0 n m e h = None /\ poynting 1 n m e h = None.
Proof. intros. split; reflexivity. Qed.
