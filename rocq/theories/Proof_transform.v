(** Proofs about transform.py: symmetry, masks, smoothing. *)
From Coq Require Import Reals List Arith ZArith Lra Lia Bool.
From Verif Require Import Cx Arr Model_yee Model_grid Spec_grid Proof_grid.
Import ListNotations.
Local Open Scope R_scope.

Lemma half_slice : forall n i, (0 < n)%Z -> (0 <= i < n)%Z -> in_slice n (- (n / 2 + 1)) n i = Z.leb (n - n / 2 - 1) i.
Proof.
  intros n i Hn Hi. pose proof (Z.div_mod n 2 ltac:(lia)) as E. pose proof (Z.mod_pos_bound n 2 ltac:(lia)) as B.
  set (q := (n / 2)%Z) in *. unfold in_slice, np_bound. destruct (Z.ltb_spec (- (q + 1)) 0); [| lia]. destruct (Z.ltb_spec n 0); [lia |].
  destruct (Z.leb_spec (Z.max 0 (Z.min n (- (q + 1) + n))) i), (Z.ltb_spec i (Z.max 0 (Z.min n n))), (Z.leb_spec (n - q - 1) i); cbn; auto; lia.
Qed.
Definition good (avg : bool) (n : Z) : Prop := avg = true \/ Z.odd n = true.
Lemma odd_half : forall n, Z.odd n = true -> (n = 2 * (n / 2) + 1)%Z.
Proof. intros n H. apply Z.odd_spec in H. destruct H as (k & ->). replace (2 * k + 1)%Z with (1 + k * 2)%Z by ring. rewrite Z.div_add by lia. change (1 / 2)%Z with 0%Z. ring. Qed.
Lemma ox_sym : forall avg n m x, good avg n -> sym_x n m (ortho_x_fn avg n x).
Proof.
  intros avg n m x G i j Hi Hj. unfold ortho_x_fn. destruct avg.
  - replace (n - 1 - (n - 1 - i))%Z with i by ring. lra.
  - destruct G as [G | G]; [discriminate |]. apply odd_half in G. rewrite !half_slice by lia. set (q := (n / 2)%Z) in *.
    destruct (Z.leb_spec (n - q - 1) (n - 1 - i)), (Z.leb_spec (n - q - 1) i); try (f_equal; lia); lia.
Qed.
Lemma oy_sym : forall avg n m x, good avg m -> sym_y n m (ortho_y_fn avg m x).
Proof.
  intros avg n m x G i j Hi Hj. unfold ortho_y_fn. destruct avg.
  - replace (m - 1 - (m - 1 - j))%Z with j by ring. lra.
  - destruct G as [G | G]; [discriminate |]. apply odd_half in G. rewrite !half_slice by lia. set (q := (m / 2)%Z) in *.
    destruct (Z.leb_spec (m - q - 1) (m - 1 - j)), (Z.leb_spec (m - q - 1) j); try (f_equal; lia); lia.
Qed.
Lemma ox_keeps_y : forall avg n m x, sym_y n m x -> sym_y n m (ortho_x_fn avg n x).
Proof.
  intros avg n m x H i j Hi Hj. unfold ortho_x_fn. assert (Hr : (0 <= n - 1 - i < n)%Z) by lia.
  destruct avg; [rewrite (H i j Hi Hj), (H _ j Hr Hj); auto |]. destruct (in_slice _ _ _ _); auto.
Qed.
Lemma tr_diag : forall n x, sym_diag n n (transpose_fn x).
Proof. intros n x i j _ _. unfold transpose_fn. lra. Qed.
Lemma anti_anti : forall n x, sym_anti n n (anti_fn n x).
Proof.
  intros n x i j _ _. unfold anti_fn. replace (n - 1 - (n - 1 - i))%Z with i by ring. replace (n - 1 - (n - 1 - j))%Z with j by ring. lra.
Qed.
Lemma tr_keeps_x : forall n x, sym_x n n x -> sym_y n n x -> sym_x n n (transpose_fn x).
Proof.
  intros n x Hx Hy i j Hi Hj. unfold transpose_fn. rewrite (Hx i j Hi Hj), (Hy j i Hj Hi). auto.
Qed.
Lemma tr_keeps_y : forall n x, sym_x n n x -> sym_y n n x -> sym_y n n (transpose_fn x).
Proof.
  intros n x Hx Hy i j Hi Hj. unfold transpose_fn. rewrite (Hy i j Hi Hj), (Hx j i Hj Hi). auto.
Qed.
Lemma anti_keeps_x : forall n x, sym_x n n x -> sym_y n n x -> sym_x n n (anti_fn n x).
Proof.
  intros n x Hx Hy i j Hi Hj. unfold anti_fn. rewrite (Hx i j Hi Hj). rewrite (Hy (n - 1 - j)%Z (n - 1 - i)%Z) by lia. auto.
Qed.
Lemma anti_keeps_y : forall n x, sym_x n n x -> sym_y n n x -> sym_y n n (anti_fn n x).
Proof.
  intros n x Hx Hy i j Hi Hj. unfold anti_fn. rewrite (Hy i j Hi Hj). rewrite (Hx (n - 1 - j)%Z (n - 1 - i)%Z) by lia. auto.
Qed.
Lemma anti_keeps_diag : forall n x, sym_diag n n x -> sym_diag n n (anti_fn n x).
Proof.
  intros n x H i j Hi Hj. unfold anti_fn. rewrite (H i j Hi Hj). rewrite (H (n - 1 - j)%Z (n - 1 - i)%Z) by lia. auto.
Qed.

Lemma symmetric_ortho : forall ox oy avg n m x, (ox = true -> good avg n) -> (oy = true -> good avg m) ->
  let y := symmetry_fn ox oy false false avg n m x in (ox = true -> sym_x n m y) /\ (oy = true -> sym_y n m y).
Proof.
  intros ox oy avg n m x Hx Hy y. unfold y, symmetry_fn. destruct ox, oy; split; intros; try discriminate.
  - apply ox_sym; auto.
  - apply ox_keeps_y, oy_sym; auto.
  - apply ox_sym; auto.
  - apply oy_sym; auto.
Qed.
Lemma symmetric_all : forall o dp dn avg n x, (o = true -> good avg n) ->
  let y := symmetry_fn o o dp dn avg n n x in
  (o = true -> sym_x n n y /\ sym_y n n y) /\ (dp = true -> sym_diag n n y) /\ (dn = true -> sym_anti n n y).
Proof.
  intros o dp dn avg n x Ho y. set (z := if o then ortho_x_fn avg n (ortho_y_fn avg n x) else x).
  assert (Hz : o = true -> sym_x n n z /\ sym_y n n z).
  { intros E. unfold z. rewrite E. split; [apply ox_sym; auto | apply ox_keeps_y, oy_sym; auto]. }
  set (w := if dp then transpose_fn z else z).
  assert (Hw : o = true -> sym_x n n w /\ sym_y n n w).
  { intros E. destruct (Hz E). unfold w. destruct dp; split; auto; [apply tr_keeps_x | apply tr_keeps_y]; auto. }
  assert (Hd : dp = true -> sym_diag n n w) by (intros E; unfold w; rewrite E; apply tr_diag).
  assert (Ey : y = if dn then anti_fn n w else w) by (unfold y, symmetry_fn, w, z; destruct o; reflexivity).
  rewrite Ey. clearbody w. clear Ey y. split; [| split].
  - intros E. destruct (Hw E). destruct dn; split; auto; [apply anti_keeps_x | apply anti_keeps_y]; auto.
  - intros E. destruct dn; auto. apply anti_keeps_diag; auto.
  - intros E. rewrite E. apply anti_anti.
Qed.
(** symmetric inputs *)
Lemma symmetric_fixed : forall ox oy dp dn avg n m x, ((dp || dn)%bool = true -> n = m) ->
  (ox = true -> sym_x n m x) -> (oy = true -> sym_y n m x) -> (dp = true -> sym_diag n m x) -> (dn = true -> sym_anti n m x) ->
  forall i j, (0 <= i < n)%Z -> (0 <= j < m)%Z -> symmetry_fn ox oy dp dn avg n m x i j = x i j.
Proof.
  intros ox oy dp dn avg n m x Hsq Hx Hy Hdp Hdn.
  set (a := if oy then ortho_y_fn avg m x else x).
  assert (Ha : forall i j, (0 <= i < n)%Z -> (0 <= j < m)%Z -> a i j = x i j).
  { intros i j Hi Hj. unfold a. destruct oy; auto. unfold ortho_y_fn. rewrite (Hy eq_refl i j Hi Hj). destruct avg; [lra |]. destruct (in_slice _ _ _ _); auto. }
  set (b := if ox then ortho_x_fn avg n a else a).
  assert (Hb : forall i j, (0 <= i < n)%Z -> (0 <= j < m)%Z -> b i j = x i j).
  { intros i j Hi Hj. unfold b. destruct ox; auto. unfold ortho_x_fn. rewrite !Ha by lia. rewrite (Hx eq_refl i j Hi Hj).
    destruct avg; [lra |]. destruct (in_slice _ _ _ _); auto. }
  set (c := if dp then transpose_fn b else b).
  assert (Hc : forall i j, (0 <= i < n)%Z -> (0 <= j < m)%Z -> c i j = x i j).
  { intros i j Hi Hj. unfold c. destruct dp; auto. specialize (Hsq eq_refl). subst m. unfold transpose_fn. rewrite !Hb by lia. rewrite (Hdp eq_refl i j Hi Hj). lra. }
  intros i j Hi Hj. change (symmetry_fn ox oy dp dn avg n m x) with (if dn then anti_fn n c else c). clearbody c. destruct dn; auto.
  assert (n = m) by (apply Hsq; destruct dp; reflexivity). subst m. unfold anti_fn. rewrite !Hc by lia. rewrite (Hdn eq_refl i j Hi Hj). lra.
Qed.
(** even length, avg = False: the two middle rows are swapped instead of made equal *)
Lemma even_swaps : forall k m x j, (0 < k)%Z -> (0 <= j < m)%Z ->
  let y := symmetry_fn true false false false false (2 * k) m x in y (k - 1)%Z j = x k j /\ y k j = x (k - 1)%Z j.
Proof.
  intros k m x j Hk Hj y. unfold y, symmetry_fn, ortho_x_fn. rewrite !half_slice by lia.
  replace (2 * k / 2)%Z with k by (rewrite Z.mul_comm, Z.div_mul; lia).
  destruct (Z.leb_spec (2 * k - k - 1) (k - 1)); [| lia]. destruct (Z.leb_spec (2 * k - k - 1) k); [| lia]. split; f_equal; lia.
Qed.
(** ortho_x and diag_p without ortho_y: x-symmetry is destroyed *)
Definition corner : arr2 := fun i j => if Z.eqb j 0%Z then 1 else 0.
Lemma mixed_bad : symmetry_fn true false true false true 2 2 corner 0%Z 0%Z = 1 /\ symmetry_fn true false true false true 2 2 corner 1%Z 0%Z = 1 / 2.
Proof. split; unfold symmetry_fn, transpose_fn, ortho_x_fn, corner; cbn; lra. Qed.

(** ** get_mask_fn *)
Lemma masks_sum_pos : forall bs n m i j, (0 < masks_sum bs n m i j <-> exists b, In b bs /\ b_mask b n m i j = true) /\ 0 <= masks_sum bs n m i j.
Proof.
  induction bs as [| b bs IH]; intros n m i j; cbn [masks_sum fold_right].
  - split; [split; [lra | intros (b & [] & _)] | lra].
  - destruct (IH n m i j) as [[A1 A2] B]. unfold masks_sum in *. destruct (b_mask b n m i j) eqn:E.
    + split; [split; [intros _; exists b; split; [left; auto | auto] | intros _; lra] | lra].
    + split; [| lra]. split.
      * intros H. destruct A1 as (b' & Hb & Hm); [lra |]. exists b'. split; [right; auto | auto].
      * intros (b' & [-> | Hb] & Hm); [congruence |]. assert (0 < fold_right (fun b acc => (if b_mask b n m i j then 1 else 0) + acc) 0 bs) by (apply A2; eauto). lra.
Qed.
Lemma mask_list_exact : forall init bs n m rho i j,
  ((exists b, In b bs /\ b_mask b n m i j = true) -> get_mask_fn init bs n m rho i j = rho i j) /\
  (~ (exists b, In b bs /\ b_mask b n m i j = true) -> get_mask_fn init bs n m rho i j = init i j).
Proof.
  intros. destruct (masks_sum_pos bs n m i j) as [H _]. unfold get_mask_fn. destruct (Rlt_dec 0 (masks_sum bs n m i j)) as [L | L]; split; intros E.
  - ring.
  - exfalso. apply E, H, L.
  - exfalso. apply L, H, E.
  - ring.
Qed.
Lemma mask_one_exact : forall init b n m rho i j,
  (b_mask b n m i j = true -> get_mask_fn1 init b n m rho i j = rho i j) /\
  (b_mask b n m i j = false -> get_mask_fn1 init b n m rho i j = init i j).
Proof. intros. unfold get_mask_fn1. split; intros ->; ring. Qed.

(** ** get_smooth_fn *)
Lemma tanh_alt : forall x, tanh x = 1 - 2 / (exp (2 * x) + 1).
Proof.
  intros x. unfold tanh, sinh, cosh. rewrite exp_Ropp. replace (2 * x) with (x + x) by ring. rewrite exp_plus.
  pose proof (exp_pos x). field. split; nra.
Qed.
Lemma tanh_lt : forall x y, x < y -> tanh x < tanh y.
Proof.
  intros x y H. rewrite !tanh_alt. pose proof (exp_increasing (2 * x) (2 * y) ltac:(lra)). pose proof (exp_pos (2 * x)). pose proof (exp_pos (2 * y)).
  assert (/ (exp (2 * y) + 1) < / (exp (2 * x) + 1)) by (apply Rinv_lt_contravar; nra). unfold Rdiv. lra.
Qed.
Lemma tanh_le : forall x y, x <= y -> tanh x <= tanh y.
Proof. intros x y [H | ->]; [left; apply tanh_lt; auto | lra]. Qed.
Lemma tanh_0' : tanh 0 = 0.
Proof. rewrite tanh_alt, Rmult_0_r, exp_0. lra. Qed.
Lemma tanh_neg : forall x, tanh (- x) = - tanh x.
Proof. intros x. unfold tanh, sinh, cosh. rewrite Ropp_involutive. field. pose proof (exp_pos x). pose proof (exp_pos (- x)). lra. Qed.
Lemma tanh_pos : forall x, 0 < x -> 0 < tanh x.
Proof. intros x H. rewrite <- tanh_0'. apply tanh_lt; auto. Qed.
Lemma project_den : forall beta eta, 0 < beta -> 0 < eta < 1 -> 0 < tanh (beta * eta) + tanh (beta * (1 - eta)).
Proof. intros. assert (0 < tanh (beta * eta)) by (apply tanh_pos; nra). assert (0 < tanh (beta * (1 - eta))) by (apply tanh_pos; nra). lra. Qed.
Lemma project_0 : forall beta eta, 0 < beta -> 0 < eta < 1 -> project beta eta 0 = 0.
Proof.
  intros beta eta Hb He. unfold project. replace (beta * (0 - eta)) with (- (beta * eta)) by ring. rewrite tanh_neg.
  pose proof (project_den beta eta Hb He). field. lra.
Qed.
Lemma project_1 : forall beta eta, 0 < beta -> 0 < eta < 1 -> project beta eta 1 = 1.
Proof. intros beta eta Hb He. unfold project. pose proof (project_den beta eta Hb He). field. lra. Qed.
Lemma project_lt : forall beta eta x y, 0 < beta -> 0 < eta < 1 -> x < y -> project beta eta x < project beta eta y.
Proof.
  intros beta eta x y Hb He H. unfold project. pose proof (project_den beta eta Hb He).
  apply Rmult_lt_compat_r; [apply Rinv_0_lt_compat; auto |]. assert (tanh (beta * (x - eta)) < tanh (beta * (y - eta))) by (apply tanh_lt; nra). lra.
Qed.
Lemma project_le : forall beta eta x y, 0 < beta -> 0 < eta < 1 -> x <= y -> project beta eta x <= project beta eta y.
Proof. intros beta eta x y Hb He [H | ->]; [left; apply project_lt; auto | lra]. Qed.
Lemma project_range : forall beta eta x, 0 < beta -> 0 < eta < 1 -> 0 <= x <= 1 -> 0 <= project beta eta x <= 1.
Proof.
  intros beta eta x Hb He [H0 H1]. split.
  - rewrite <- (project_0 beta eta Hb He). apply project_le; auto.
  - rewrite <- (project_1 beta eta Hb He). apply project_le; auto.
Qed.
Lemma disk_ind_nonneg : forall r a b, 0 <= (if in_disk r a b then 1 else 0) <= 1.
Proof. intros. destruct (in_disk r a b); lra. Qed.
Lemma disk_sum_pos : forall r, 0 < disk_sum r.
Proof.
  intros r. unfold disk_sum.
  assert (H1 : Rsum (2 * r + 1) (fun b => if in_disk r r b then 1 else 0) <= disk_sum r).
  { unfold disk_sum. apply (Rsum_term_le (2 * r + 1) (fun a => Rsum (2 * r + 1) (fun b => if in_disk r a b then 1 else 0)) r); [| lia].
    intros. apply Rsum_nonneg. intros. apply disk_ind_nonneg. }
  assert (H2 : (if in_disk r r r then 1 else 0) <= Rsum (2 * r + 1) (fun b => if in_disk r r b then 1 else 0)).
  { apply (Rsum_term_le (2 * r + 1) (fun b => if in_disk r r b then 1 else 0) r); [| lia]. intros. apply disk_ind_nonneg. }
  assert (E : in_disk r r r = true) by (unfold in_disk; apply Z.ltb_lt; nia). rewrite E in H2. unfold disk_sum in H1. lra.
Qed.
Lemma kernel_nonneg : forall r a b, 0 <= kernel r a b.
Proof. intros. unfold kernel. pose proof (disk_sum_pos r). apply Rmult_le_pos; [apply disk_ind_nonneg | left; apply Rinv_0_lt_compat; auto]. Qed.
Lemma kernel_sum : forall r, Rsum (2 * r + 1) (fun a => Rsum (2 * r + 1) (fun b => kernel r a b)) = 1.
Proof.
  intros r. transitivity (/ disk_sum r * disk_sum r).
  - unfold disk_sum at 2. rewrite <- Rsum_scal. apply Rsum_ext. intros a _. rewrite <- Rsum_scal. apply Rsum_ext. intros b _. unfold kernel, Rdiv. ring.
  - field. pose proof (disk_sum_pos r). lra.
Qed.
Lemma padded_range : forall n m x i j, in01 n m x -> 0 <= padded n m x i j <= 1.
Proof.
  intros n m x i j H. unfold padded. destruct (Z.leb_spec 0 i), (Z.ltb_spec i n), (Z.leb_spec 0 j), (Z.ltb_spec j m); cbn [andb]; try lra. apply H; lia.
Qed.
Lemma conv_mono : forall r n m x y i j, (forall i j, (0 <= i < n)%Z -> (0 <= j < m)%Z -> x i j <= y i j) -> conv_same r n m x i j <= conv_same r n m y i j.
Proof.
  intros r n m x y i j H. unfold conv_same. apply Rsum_le. intros a _. apply Rsum_le. intros b _. apply Rmult_le_compat_l; [apply kernel_nonneg |].
  unfold padded. destruct (Z.leb_spec 0 (i + Z.of_nat r - Z.of_nat a)), (Z.ltb_spec (i + Z.of_nat r - Z.of_nat a) n), (Z.leb_spec 0 (j + Z.of_nat r - Z.of_nat b)), (Z.ltb_spec (j + Z.of_nat r - Z.of_nat b) m); cbn [andb]; try lra. apply H; lia.
Qed.
Lemma conv_range : forall r n m x i j, in01 n m x -> 0 <= conv_same r n m x i j <= 1.
Proof.
  intros r n m x i j H. split.
  - unfold conv_same. apply Rsum_nonneg. intros a _. apply Rsum_nonneg. intros b _. apply Rmult_le_pos; [apply kernel_nonneg | apply padded_range; auto].
  - rewrite <- (kernel_sum r). unfold conv_same. apply Rsum_le. intros a _. apply Rsum_le. intros b _.
    pose proof (kernel_nonneg r a b). pose proof (padded_range n m x (i + Z.of_nat r - Z.of_nat a) (j + Z.of_nat r - Z.of_nat b) H). nra.
Qed.
(** a uniform neighbourhood away from the border keeps its value *)
Lemma conv_uniform : forall r n m x i j c, (Z.of_nat r <= i < n - Z.of_nat r)%Z -> (Z.of_nat r <= j < m - Z.of_nat r)%Z ->
  (forall i' j', (Z.abs (i' - i) <= Z.of_nat r)%Z -> (Z.abs (j' - j) <= Z.of_nat r)%Z -> x i' j' = c) -> conv_same r n m x i j = c.
Proof.
  intros r n m x i j c Hi Hj H. rewrite <- (Rmult_1_r c), <- (kernel_sum r), <- Rsum_scal. unfold conv_same. apply Rsum_ext. intros a Ha.
  rewrite <- Rsum_scal. apply Rsum_ext. intros b Hb. rewrite Rmult_comm. f_equal. unfold padded.
  destruct (Z.leb_spec 0 (i + Z.of_nat r - Z.of_nat a)), (Z.ltb_spec (i + Z.of_nat r - Z.of_nat a) n), (Z.leb_spec 0 (j + Z.of_nat r - Z.of_nat b)), (Z.ltb_spec (j + Z.of_nat r - Z.of_nat b) m); cbn [andb]; try lia. apply H; lia.
Qed.
(** zero padding: a solid design is not solid at the corner *)
Lemma conv_corner : forall r n m, (0 < r)%nat -> conv_same r n m (fun _ _ => 1) 0%Z 0%Z < 1.
Proof.
  intros r n m Hr. set (K := fun a b : nat => kernel r a b).
  set (P := fun a b : nat => kernel r a b * padded n m (fun _ _ => 1) (0 + Z.of_nat r - Z.of_nat a)%Z (0 + Z.of_nat r - Z.of_nat b)%Z).
  assert (I1 : in01 n m (fun _ _ => 1)) by (intros i j _ _; lra).
  assert (PK : forall a b, P a b <= K a b). { intros a b. unfold P, K. pose proof (kernel_nonneg r a b). pose proof (padded_range n m _ (0 + Z.of_nat r - Z.of_nat a)%Z (0 + Z.of_nat r - Z.of_nat b)%Z I1). nra. }
  assert (Hk : 0 < kernel r (r + 1) r).
  { unfold kernel. assert (E : in_disk r (r + 1) r = true) by (unfold in_disk; apply Z.ltb_lt; nia). rewrite E.
    apply Rmult_lt_0_compat; [lra | apply Rinv_0_lt_compat, disk_sum_pos]. }
  assert (P0 : P (r + 1)%nat r = 0). { unfold P, padded. destruct (Z.leb_spec 0 (0 + Z.of_nat r - Z.of_nat (r + 1))); [lia |]. cbn [andb]. ring. }
  assert (S1 : Rsum (2 * r + 1) (fun b => K (r + 1)%nat b - P (r + 1)%nat b) >= kernel r (r + 1) r).
  { apply Rle_ge. pose proof (Rsum_term_le (2 * r + 1) (fun b => K (r + 1)%nat b - P (r + 1)%nat b) r) as T. cbv beta in T. rewrite P0 in T.
    replace (kernel r (r + 1) r) with (K (r + 1)%nat r - 0) by (unfold K; ring). apply T; [intros; pose proof (PK (r + 1)%nat i); lra | lia]. }
  assert (S2 : Rsum (2 * r + 1) (fun a => Rsum (2 * r + 1) (fun b => K a b - P a b)) >= kernel r (r + 1) r).
  { apply Rle_ge. apply Rle_trans with (Rsum (2 * r + 1) (fun b => K (r + 1)%nat b - P (r + 1)%nat b)); [lra |].
    apply (Rsum_term_le (2 * r + 1) (fun a => Rsum (2 * r + 1) (fun b => K a b - P a b)) (r + 1)); [| lia].
    intros a _. apply Rsum_nonneg. intros b _. pose proof (PK a b). lra. }
  assert (E : Rsum (2 * r + 1) (fun a => Rsum (2 * r + 1) (fun b => K a b - P a b)) = 1 - conv_same r n m (fun _ _ => 1) 0%Z 0%Z).
  { transitivity (Rsum (2 * r + 1) (fun a => Rsum (2 * r + 1) (fun b => kernel r a b)) - conv_same r n m (fun _ _ => 1) 0%Z 0%Z); [| rewrite kernel_sum; reflexivity].
    unfold conv_same. rewrite <- Rsum_sub. apply Rsum_ext. intros a _. rewrite <- Rsum_sub. reflexivity. }
  lra.
Qed.
Lemma smooth_range : forall beta eta r n m x i j, 0 < beta -> 0 < eta < 1 -> in01 n m x -> 0 <= smooth beta eta r n m x i j <= 1.
Proof. intros. unfold smooth. apply project_range; auto. apply conv_range; auto. Qed.
Lemma smooth_mono : forall beta eta r n m x y i j, 0 < beta -> 0 < eta < 1 ->
  (forall i j, (0 <= i < n)%Z -> (0 <= j < m)%Z -> x i j <= y i j) -> smooth beta eta r n m x i j <= smooth beta eta r n m y i j.
Proof. intros. unfold smooth. apply project_le; auto. apply conv_mono; auto. Qed.
(** The neighbourhood of a smoothed pixel is a disk: other pixels do not matter ... *)
Lemma conv_local : forall r n m x y i j, (forall i' j', ((i' - i) * (i' - i) + (j' - j) * (j' - j) < (Z.of_nat r + 1) * (Z.of_nat r + 1))%Z -> x i' j' = y i' j') ->
  conv_same r n m x i j = conv_same r n m y i j.
Proof.
  intros r n m x y i j H. unfold conv_same. apply Rsum_ext. intros a _. apply Rsum_ext. intros b _. unfold kernel. destruct (in_disk r a b) eqn:E.
  - f_equal. unfold padded. destruct (_ && _)%bool; [| reflexivity]. apply H. unfold in_disk in E. apply Z.ltb_lt in E. lia.
  - unfold Rdiv. ring.
Qed.
(** ... and each pixel of the disk does. *)
Lemma conv_strict : forall r n m x y i j i' j', (0 <= i' < n)%Z -> (0 <= j' < m)%Z -> ((i' - i) * (i' - i) + (j' - j) * (j' - j) < (Z.of_nat r + 1) * (Z.of_nat r + 1))%Z ->
  (forall u v, (0 <= u < n)%Z -> (0 <= v < m)%Z -> x u v <= y u v) -> x i' j' < y i' j' -> conv_same r n m x i j < conv_same r n m y i j.
Proof.
  intros r n m x y i j i' j' Hi Hj Hd Hle Hlt.
  set (F := fun a b => kernel r a b * (padded n m y (i + Z.of_nat r - Z.of_nat a)%Z (j + Z.of_nat r - Z.of_nat b)%Z - padded n m x (i + Z.of_nat r - Z.of_nat a)%Z (j + Z.of_nat r - Z.of_nat b)%Z)).
  assert (F0 : forall a b, 0 <= F a b).
  { intros a b. unfold F. apply Rmult_le_pos; [apply kernel_nonneg |]. unfold padded.
    destruct (Z.leb_spec 0 (i + Z.of_nat r - Z.of_nat a)), (Z.ltb_spec (i + Z.of_nat r - Z.of_nat a) n), (Z.leb_spec 0 (j + Z.of_nat r - Z.of_nat b)), (Z.ltb_spec (j + Z.of_nat r - Z.of_nat b) m); cbn [andb]; try lra.
    pose proof (Hle (i + Z.of_nat r - Z.of_nat a)%Z (j + Z.of_nat r - Z.of_nat b)%Z). assert (x (i + Z.of_nat r - Z.of_nat a)%Z (j + Z.of_nat r - Z.of_nat b)%Z <= y (i + Z.of_nat r - Z.of_nat a)%Z (j + Z.of_nat r - Z.of_nat b)%Z) by (apply Hle; lia). lra. }
  set (a0 := Z.to_nat (i + Z.of_nat r - i')). set (b0 := Z.to_nat (j + Z.of_nat r - j')).
  assert (SQ : forall u v w : Z, (0 <= w)%Z -> (u * u + v * v < (w + 1) * (w + 1))%Z -> (- w <= u <= w)%Z).
  { intros u v w Hw Hq. pose proof (Z.square_nonneg v) as Hv. split.
    - destruct (Z_lt_le_dec u (- w)) as [L | L]; [| exact L]. assert (T : ((w + 1) * (w + 1) <= (- u) * (- u))%Z) by (apply Z.mul_le_mono_nonneg; lia). lia.
    - destruct (Z_lt_le_dec w u) as [L | L]; [| exact L]. assert (T : ((w + 1) * (w + 1) <= u * u)%Z) by (apply Z.mul_le_mono_nonneg; lia). lia. }
  assert (Di : (- Z.of_nat r <= i' - i <= Z.of_nat r)%Z) by (apply (SQ _ (j' - j)%Z); [lia | exact Hd]).
  assert (Dj : (- Z.of_nat r <= j' - j <= Z.of_nat r)%Z) by (apply (SQ _ (i' - i)%Z); [lia |]; rewrite Z.add_comm; exact Hd). clear SQ.
  assert (A0 : Z.of_nat a0 = (i + Z.of_nat r - i')%Z) by (unfold a0; rewrite Z2Nat.id; lia).
  assert (B0 : Z.of_nat b0 = (j + Z.of_nat r - j')%Z) by (unfold b0; rewrite Z2Nat.id; lia).
  assert (P : 0 < F a0 b0).
  { unfold F. rewrite A0, B0. replace (i + Z.of_nat r - (i + Z.of_nat r - i'))%Z with i' by lia. replace (j + Z.of_nat r - (j + Z.of_nat r - j'))%Z with j' by lia.
    apply Rmult_lt_0_compat.
    - unfold kernel. assert (E : in_disk r a0 b0 = true) by (unfold in_disk; apply Z.ltb_lt; rewrite A0, B0; nia). rewrite E.
      apply Rmult_lt_0_compat; [lra | apply Rinv_0_lt_compat, disk_sum_pos].
    - unfold padded. destruct (Z.leb_spec 0 i'), (Z.ltb_spec i' n), (Z.leb_spec 0 j'), (Z.ltb_spec j' m); try lia. cbn [andb]. lra. }
  assert (S1 : F a0 b0 <= Rsum (2 * r + 1) (fun b => F a0 b)) by (apply (Rsum_term_le (2 * r + 1) (fun b => F a0 b) b0); [intros; apply F0 | lia]).
  assert (S2 : Rsum (2 * r + 1) (fun b => F a0 b) <= Rsum (2 * r + 1) (fun a => Rsum (2 * r + 1) (fun b => F a b))).
  { apply (Rsum_term_le (2 * r + 1) (fun a => Rsum (2 * r + 1) (fun b => F a b)) a0); [intros; apply Rsum_nonneg; intros; apply F0 | lia]. }
  assert (E : Rsum (2 * r + 1) (fun a => Rsum (2 * r + 1) (fun b => F a b)) = conv_same r n m y i j - conv_same r n m x i j).
  { unfold conv_same. rewrite <- Rsum_sub. apply Rsum_ext. intros a _. rewrite <- Rsum_sub. apply Rsum_ext. intros b _. unfold F. ring. }
  lra.
Qed.
Lemma smooth_disk : forall beta eta r n m x y i j, 0 < beta -> 0 < eta < 1 ->
  ((forall i' j', ((i' - i) * (i' - i) + (j' - j) * (j' - j) < (Z.of_nat r + 1) * (Z.of_nat r + 1))%Z -> x i' j' = y i' j') ->
   smooth beta eta r n m x i j = smooth beta eta r n m y i j) /\
  forall i' j', (0 <= i' < n)%Z -> (0 <= j' < m)%Z -> ((i' - i) * (i' - i) + (j' - j) * (j' - j) < (Z.of_nat r + 1) * (Z.of_nat r + 1))%Z ->
   (forall u v, (0 <= u < n)%Z -> (0 <= v < m)%Z -> x u v <= y u v) -> x i' j' < y i' j' -> smooth beta eta r n m x i j < smooth beta eta r n m y i j.
Proof.
  intros beta eta r n m x y i j Hb He. unfold smooth. split.
  - intros H. rewrite (conv_local r n m x y i j H). reflexivity.
  - intros i' j' H1 H2 H3 H4 H5. apply project_lt; auto. apply (conv_strict r n m x y i j i' j'); assumption.
Qed.
Lemma smooth_solid : forall beta eta r n m x i j, 0 < beta -> 0 < eta < 1 ->
  (Z.of_nat r <= i < n - Z.of_nat r)%Z -> (Z.of_nat r <= j < m - Z.of_nat r)%Z ->
  ((forall i' j', (Z.abs (i' - i) <= Z.of_nat r)%Z -> (Z.abs (j' - j) <= Z.of_nat r)%Z -> x i' j' = 1) -> smooth beta eta r n m x i j = 1) /\
  ((forall i' j', (Z.abs (i' - i) <= Z.of_nat r)%Z -> (Z.abs (j' - j) <= Z.of_nat r)%Z -> x i' j' = 0) -> smooth beta eta r n m x i j = 0).
Proof.
  intros beta eta r n m x i j Hb He Hi Hj. unfold smooth. split; intros H.
  - rewrite (conv_uniform r n m x i j 1) by auto. apply project_1; auto.
  - rewrite (conv_uniform r n m x i j 0) by auto. apply project_0; auto.
Qed.
Lemma smooth_corner : forall beta eta r n m, 0 < beta -> 0 < eta < 1 -> (0 < r)%nat -> smooth beta eta r n m (fun _ _ => 1) 0%Z 0%Z < 1.
Proof.
  intros. unfold smooth. apply Rlt_le_trans with (project beta eta 1); [| rewrite project_1 by auto; lra].
  apply project_lt; auto. apply conv_corner; auto.
Qed.
