(** Proofs about Model_grid: slices, placement, ports, boxes. *)
From Coq Require Import Reals List Arith ZArith Lra Lia Bool.
From Verif Require Import Cx Arr Model_yee Model_grid Spec_grid.
Local Open Scope R_scope.

Lemma floor_bounds : forall x, IZR (Int_part x) <= x < IZR (Int_part x) + 1.
Proof. intros x. destruct (base_Int_part x). lra. Qed.
Lemma floor_unique : forall x z, IZR z <= x < IZR z + 1 -> Int_part x = z.
Proof.
  intros x z H. pose proof (floor_bounds x).
  assert (A : IZR (Int_part x) < IZR (z + 1)) by (rewrite plus_IZR; lra). assert (B : IZR z < IZR (Int_part x + 1)) by (rewrite plus_IZR; lra).
  apply lt_IZR in A. apply lt_IZR in B. lia.
Qed.
Lemma trunc_floor : forall x, 0 <= x -> trunc_z x = Int_part x.
Proof. intros. unfold trunc_z. destruct (Rle_dec 0 x); [auto | contradiction]. Qed.
Lemma around_nearest : forall x, Rabs (IZR (around x) - x) <= 1 / 2.
Proof.
  intros x. pose proof (floor_bounds x). unfold around.
  destruct (Rlt_dec (x - IZR (Int_part x)) (1 / 2)).
  - apply Rabs_le. lra.
  - destruct (Rlt_dec (1 / 2) (x - IZR (Int_part x))).
    + rewrite plus_IZR. apply Rabs_le. lra.
    + destruct (Z.even (Int_part x)); rewrite ?plus_IZR; apply Rabs_le; lra.
Qed.
Lemma around_IZR : forall z, around (IZR z) = z.
Proof.
  intros z. assert (E : Int_part (IZR z) = z) by (apply floor_unique; lra). unfold around. rewrite E.
  destruct (Rlt_dec (IZR z - IZR z) (1 / 2)); auto. lra.
Qed.
Lemma in_slice_ok : forall n a b i, (0 <= a)%Z -> (a <= b)%Z -> (b <= n)%Z -> (0 <= i < n)%Z -> in_slice n a b i = (Z.leb a i && Z.ltb i b)%bool.
Proof.
  intros n a b i Ha Hab Hb Hi. unfold in_slice, np_bound. destruct (Z.ltb_spec a 0); [lia |]. destruct (Z.ltb_spec b 0); [lia |].
  replace (Z.max 0 (Z.min n a)) with a by lia. replace (Z.max 0 (Z.min n b)) with b by lia. reflexivity.
Qed.
Lemma select_axis : forall g center size a i, (0 <= box_lo g center size a)%Z -> (box_lo g center size a + box_len g size a <= g_shape g a)%Z ->
  (0 <= i < g_shape g a)%Z ->
  selected (g_shape g a) (slice_axis g center size a) i = Some (Z.leb (box_lo g center size a) i && Z.ltb i (box_lo g center size a + box_len g size a))%bool.
Proof.
  intros g center size a i H1 H2 Hi. unfold slice_axis, pixels, real_axis, box_lo, box_len in *.
  destruct (Nat.ltb (axis_nat a) (g_ndim g)).
  - set (c := around (center a / g_spacing g a)) in *. set (s := around (size a / g_spacing g a)) in *.
    destruct (Z.ltb_spec 0 s) as [Hs | Hs]; cbn [selected].
    + replace (Z.max 0 s) with s in * by lia. replace (Z.max 1 s) with s in * by lia. f_equal. apply in_slice_ok; lia.
    + replace (Z.max 0 s) with 0%Z in * by lia. replace (Z.max 1 s) with 1%Z in * by lia. change (0 / 2)%Z with 0%Z in *.
      unfold np_index. destruct (Z.leb_spec 0 c); [| lia]. destruct (Z.ltb_spec c (g_shape g a)); [| lia]. cbn [andb]. f_equal.
      destruct (Z.eqb_spec i c), (Z.leb_spec (c - 0) i), (Z.ltb_spec i (c - 0 + 1)); cbn; auto; lia.
  - cbn [selected Z.ltb]. change (Z.ltb 0 0) with false. cbn [selected]. unfold np_index. destruct (Z.ltb_spec 0 (g_shape g a)); [| lia].
    change (Z.leb 0 0) with true. cbn [andb]. f_equal.
    destruct (Z.eqb_spec i 0), (Z.leb_spec 0 i), (Z.ltb_spec i (0 + 1)); cbn; auto; lia.
Qed.
Lemma mask_exact : forall g center size i j k, box_fits g center size -> cell g i j k ->
  exists b, mask g center size i j k = Some b /\ (b = true <-> in_box g center size i j k).
Proof.
  intros g center size i j k Hf Hc. unfold mask.
  rewrite (select_axis g center size AX i (proj1 (Hf AX)) (proj2 (Hf AX)) (Hc AX)).
  rewrite (select_axis g center size AY j (proj1 (Hf AY)) (proj2 (Hf AY)) (Hc AY)).
  rewrite (select_axis g center size AZ k (proj1 (Hf AZ)) (proj2 (Hf AZ)) (Hc AZ)).
  eexists. split; [reflexivity |]. rewrite !andb_true_iff, !Z.leb_le, !Z.ltb_lt. unfold in_box. split.
  - intros H a. destruct a; cbn [zcoord]; tauto.
  - intros H. pose proof (H AX). pose proof (H AY). pose proof (H AZ). cbn [zcoord] in *. tauto.
Qed.
Lemma set_eps_exact : forall g center size eps e i j k, box_fits g center size -> cell g i j k ->
  (in_box g center size i j k -> set_eps g center size eps e i j k = Some eps) /\
  (~ in_box g center size i j k -> set_eps g center size eps e i j k = Some (e i j k)).
Proof.
  intros g center size eps e i j k Hf Hc. destruct (mask_exact g center size i j k Hf Hc) as (b & E & Hb). unfold set_eps. rewrite E.
  split; intros H.
  - apply Hb in H. rewrite H. reflexivity.
  - destruct b; auto. exfalso. apply H, Hb. reflexivity.
Qed.
Lemma mask_fn_exact : forall g center size init rho i j k, box_fits g center size -> cell g i j k ->
  (in_box g center size i j k -> mask_fn g center size init rho i j k = Some (rho i j k)) /\
  (~ in_box g center size i j k -> mask_fn g center size init rho i j k = Some (init i j k)).
Proof.
  intros g center size init rho i j k Hf Hc. destruct (mask_exact g center size i j k Hf Hc) as (b & E & Hb). unfold mask_fn. rewrite E.
  split; intros H.
  - apply Hb in H. rewrite H. f_equal. ring.
  - destruct b; [exfalso; apply H, Hb; reflexivity |]. f_equal. ring.
Qed.
(** The index box is within 5/4 of a cell of the physical box. *)
Lemma half_bounds : forall s, (0 <= s)%Z -> IZR s / 2 - 1 / 2 <= IZR (s / 2) <= IZR s / 2.
Proof.
  intros s Hs. pose proof (Z.div_mod s 2 ltac:(lia)) as E. pose proof (Z.mod_pos_bound s 2 ltac:(lia)) as B.
  set (q := (s / 2)%Z) in *. set (r := (s mod 2)%Z) in *. rewrite E, plus_IZR, mult_IZR.
  assert (0 <= IZR r <= 1) by (split; apply IZR_le; lia). lra.
Qed.
Lemma box_accuracy : forall g center size a, (axis_nat a < g_ndim g)%nat -> 0 < g_spacing g a -> 0 <= size a ->
  let d := g_spacing g a in
  Rabs (IZR (box_lo g center size a) * d - (center a - size a / 2)) <= 5 / 4 * d /\
  Rabs (IZR (Z.max 0 (around (size a / d))) * d - size a) <= d / 2.
Proof.
  intros g center size a Ha Hd Hs d. unfold box_lo. destruct (Nat.ltb_spec (axis_nat a) (g_ndim g)); [| lia]. fold d.
  pose proof (around_nearest (center a / d)) as Nc. pose proof (around_nearest (size a / d)) as Ns.
  set (c := around (center a / d)) in *. set (s := around (size a / d)) in *.
  assert (Ds : size a / d * d = size a) by (field; unfold d in *; lra). assert (Dc : center a / d * d = center a) by (field; unfold d in *; lra).
  assert (Hsd : 0 <= size a / d) by (apply Rmult_le_pos; [auto | left; apply Rinv_0_lt_compat; auto]).
  assert (Hs0 : (0 <= s)%Z).
  { assert (Q : -1 < IZR s) by (unfold Rabs in Ns; destruct (Rcase_abs (IZR s - size a / d)); lra).
    change (-1) with (IZR (-1)) in Q. apply lt_IZR in Q. lia. }
  replace (Z.max 0 s) with s by lia. pose proof (half_bounds s Hs0) as Hh. rewrite minus_IZR.
  assert (Hd' : 0 < d) by exact Hd.
  assert (Nc' : - (1/2) <= IZR c - center a / d <= 1 / 2) by (unfold Rabs in Nc; destruct (Rcase_abs (IZR c - center a / d)); lra).
  assert (Ns' : - (1/2) <= IZR s - size a / d <= 1 / 2) by (unfold Rabs in Ns; destruct (Rcase_abs (IZR s - size a / d)); lra).
  set (u := center a / d) in *. set (v := size a / d) in *. rewrite <- Ds, <- Dc. clear Nc Ns. split.
  - apply Rabs_le. split; nra.
  - apply Rabs_le. split; nra.
Qed.

(** A box hanging over the low edge selects nothing (its start wraps to the far end). *)
Lemma wrap_empty : forall n lo s i, (0 < s)%Z -> (lo < 0)%Z -> (0 <= lo + s)%Z -> (s <= n)%Z -> (0 <= i < n)%Z -> in_slice n lo (lo + s) i = false.
Proof.
  intros n lo s i Hs Hlo Hhi Hn Hi. unfold in_slice, np_bound. destruct (Z.ltb_spec lo 0); [| lia]. destruct (Z.ltb_spec (lo + s) 0); [lia |].
  destruct (Z.leb_spec (Z.max 0 (Z.min n (lo + n))) i), (Z.ltb_spec i (Z.max 0 (Z.min n (lo + s)))); auto; lia.
Qed.
Lemma low_edge_noop : forall g center size eps e i j k, (0 < g_ndim g)%nat ->
  let c := around (center AX / g_spacing g AX) in let s := around (size AX / g_spacing g AX) in
  (0 < s)%Z -> (c - s / 2 < 0)%Z -> (0 <= c - s / 2 + s)%Z -> (s <= g_shape g AX)%Z -> cell g i j k ->
  set_eps g center size eps e i j k = Some (e i j k) \/ set_eps g center size eps e i j k = None.
Proof.
  intros g center size eps e i j k Hn c s Hs Hlo Hhi Hsn Hc.
  assert (E : selected (g_shape g AX) (slice_axis g center size AX) i = Some false).
  { unfold slice_axis, pixels, real_axis. destruct (Nat.ltb_spec (axis_nat AX) (g_ndim g)); [| cbn in *; lia]. fold c s.
    destruct (Z.ltb_spec 0 s); [| lia]. cbn [selected]. rewrite (wrap_empty (g_shape g AX) (c - s / 2) s i); auto. apply (Hc AX). }
  unfold set_eps, mask. rewrite E. destruct (selected (g_shape g AY) _ j); [| right; reflexivity].
  destruct (selected (g_shape g AZ) _ k); [left; reflexivity | right; reflexivity].
Qed.

(** ** pml_safe_placement *)
Lemma safe1_spec : forall t sep size spacing x, let p := match t with None => 0 | Some t => IZR (t + sep) * spacing end in p <= size - spacing - p ->
  p <= safe1 t sep size spacing x <= size - spacing - p /\
  (p <= x <= size - spacing - p -> safe1 t sep size spacing x = x).
Proof.
  intros t sep size spacing x p H. unfold safe1. change (pml_len t sep spacing) with p. split.
  - split; [apply Rmin_glb; [apply Rmax_r | auto] | apply Rmin_r].
  - intros [A B]. rewrite Rmax_left by auto. apply Rmin_left. auto.
Qed.
Lemma safe1_idem : forall t sep size spacing x, safe1 t sep size spacing (safe1 t sep size spacing x) = safe1 t sep size spacing x.
Proof.
  intros. unfold safe1. set (p := pml_len t sep spacing). set (q := size - spacing - p).
  unfold Rmin, Rmax. repeat (destruct (Rle_dec _ _)); lra.
Qed.
Lemma safe1_crowded : safe1 (Some 4%Z) 5 10 1 5 = 0 /\ pml_len (Some 4%Z) 5 1 = 9.
Proof.
  unfold safe1, pml_len. replace (IZR (4 + 5)) with 9 by (cbn; lra). split; [| lra].
  unfold Rmin, Rmax. repeat (destruct (Rle_dec _ _)); lra.
Qed.
(** ** add *)
Lemma leb_true : forall x y, leb x y = true <-> x <= y.
Proof. intros. unfold leb. destruct (Rle_dec x y); split; auto; try discriminate; contradiction. Qed.
Lemma add_raises_iff : forall b0 b1 b2 b3 sx sy, add_raises b0 b1 b2 b3 sx sy = true <-> b0 < 0 /\ 0 <= b1 /\ b2 <= sx /\ b3 <= sy.
Proof.
  intros. unfold add_raises. rewrite !andb_true_iff, negb_true_iff, !leb_true. split.
  - intros (((A & B) & C) & D). repeat split; auto. destruct (Rlt_dec b0 0); auto. exfalso. assert (leb 0 b0 = true) by (apply leb_true; lra). congruence.
  - intros (A & B & C & D). repeat split; auto. destruct (leb 0 b0) eqn:E; auto. apply leb_true in E. lra.
Qed.
(** ** Port *)
Lemma fmod_zero : forall x m, 0 < m -> (fmod x m = 0 <-> exists z, x = m * IZR z).
Proof.
  intros x m Hm. unfold fmod. split.
  - intros E. exists (Int_part (x / m)). lra.
  - intros (z & ->). assert (E : Int_part (m * IZR z / m) = z). { replace (m * IZR z / m) with (IZR z) by (field; lra). apply floor_unique; lra. }
    rewrite E. ring.
Qed.
Lemma port_even : forall z w h, port_size (180 * IZR z) w h = Some (0, w, h).
Proof.
  intros. unfold port_size. assert (A : fmod (180 * IZR z) 90 = 0) by (apply fmod_zero; [lra |]; exists (2 * z)%Z; rewrite mult_IZR; ring).
  assert (B : fmod (180 * IZR z) 180 = 0) by (apply fmod_zero; [lra |]; exists z; ring).
  destruct (Req_EM_T (fmod (180 * IZR z) 90) 0); [| contradiction]. destruct (Req_EM_T (fmod (180 * IZR z) 180) 0); [reflexivity | contradiction].
Qed.
Lemma port_odd : forall z w h, port_size (180 * IZR z + 90) w h = Some (w, 0, h).
Proof.
  intros. unfold port_size.
  assert (A : fmod (180 * IZR z + 90) 90 = 0) by (apply fmod_zero; [lra |]; exists (2 * z + 1)%Z; rewrite plus_IZR, mult_IZR; ring).
  assert (B : fmod (180 * IZR z + 90) 180 <> 0).
  { intros E. apply fmod_zero in E; [| lra]. destruct E as (y & E). assert (Q : IZR (2 * z + 1) = IZR (2 * y)) by (rewrite plus_IZR, !mult_IZR; lra).
    apply eq_IZR in Q. lia. }
  destruct (Req_EM_T (fmod (180 * IZR z + 90) 90) 0); [| contradiction]. destruct (Req_EM_T (fmod (180 * IZR z + 90) 180) 0); [contradiction | reflexivity].
Qed.
Lemma port_other : forall a w h, (forall z, a <> 90 * IZR z) -> port_size a w h = None.
Proof.
  intros a w h H. unfold port_size. destruct (Req_EM_T (fmod a 90) 0) as [E |]; auto. apply fmod_zero in E; [| lra]. destruct E as (z & E). exfalso. apply (H z E).
Qed.
Lemma port_rot : forall a w h, port_size (a + 180) w h = port_size a w h.
Proof.
  intros. assert (E : forall k m, 0 < m -> 180 = m * IZR k -> fmod (a + 180) m = fmod a m).
  { intros k m Hm Ek. unfold fmod. assert (F : Int_part ((a + 180) / m) = (Int_part (a / m) + k)%Z).
    { apply floor_unique. rewrite plus_IZR. pose proof (floor_bounds (a / m)). replace ((a + 180) / m) with (a / m + IZR k) by (rewrite Ek; field; lra). lra. }
    rewrite F, plus_IZR. lra. }
  unfold port_size. rewrite (E 2%Z 90), (E 1%Z 180) by lra. reflexivity.
Qed.
(** ** Box *)
Lemma trunc_scaled : forall x d, 0 <= x -> 0 < d -> IZR (trunc_z (x / d)) * d <= x < (IZR (trunc_z (x / d)) + 1) * d.
Proof.
  intros x d Hx Hd. assert (0 <= x / d) by (apply Rmult_le_pos; [auto | left; apply Rinv_0_lt_compat; auto]).
  rewrite trunc_floor by auto. pose proof (floor_bounds (x / d)). assert (x / d * d = x) by (field; lra). nra.
Qed.
Lemma slice_edges : forall lo hi d n i, 0 < d -> 0 <= lo <= hi -> hi <= IZR n * d -> (0 <= i < n)%Z ->
  (in_slice n (trunc_z (lo / d)) (trunc_z (hi / d)) i = true <-> edge_in lo hi d i).
Proof.
  intros lo hi d n i Hd Hlo Hhi Hi. pose proof (trunc_scaled lo d ltac:(lra) Hd) as [A1 A2]. pose proof (trunc_scaled hi d ltac:(lra) Hd) as [B1 B2].
  set (a := trunc_z (lo / d)) in *. set (b := trunc_z (hi / d)) in *.
  assert (Ha : (0 <= a)%Z). { assert (Q : IZR (-1) < IZR a) by (change (IZR (-1)) with (-1); nra). apply lt_IZR in Q. lia. }
  assert (Hab : (a <= b)%Z). { assert (Q : IZR a < IZR (b + 1)) by (rewrite plus_IZR; nra). apply lt_IZR in Q. lia. }
  assert (Hbn : (b <= n)%Z). { assert (Q : IZR b < IZR (n + 1)) by (rewrite plus_IZR; nra). apply lt_IZR in Q. lia. }
  rewrite in_slice_ok by lia. rewrite andb_true_iff, Z.leb_le, Z.ltb_lt. unfold edge_in. split.
  - intros [H1 H2]. assert (Q1 : IZR a <= IZR i) by (apply IZR_le; lia). assert (Q2 : IZR (i + 1) <= IZR b) by (apply IZR_le; lia). rewrite plus_IZR in Q2.
    split; nra.
  - intros [H1 H2]. split.
    + assert (Q : IZR a < IZR (i + 1)) by (rewrite plus_IZR; nra). apply lt_IZR in Q. lia.
    + assert (Q : IZR (i + 1) < IZR (b + 1)) by (rewrite !plus_IZR; nra). apply lt_IZR in Q. lia.
Qed.
Lemma b_mask_exact : forall b n m i j, 0 < b_spacing b -> 0 <= fst (b_min b) -> 0 <= snd (b_min b) -> 0 <= fst (b_size b) -> 0 <= snd (b_size b) ->
  fst (b_max b) <= IZR n * b_spacing b -> snd (b_max b) <= IZR m * b_spacing b -> (0 <= i < n)%Z -> (0 <= j < m)%Z ->
  (b_mask b n m i j = true <-> edge_in (fst (b_min b)) (fst (b_max b)) (b_spacing b) i /\ edge_in (snd (b_min b)) (snd (b_max b)) (b_spacing b) j).
Proof.
  intros b n m i j Hd Hx Hy Hw Hh Hn Hm Hi Hj. unfold b_mask. rewrite andb_true_iff.
  rewrite !slice_edges; [reflexivity | auto | cbn [b_max fst snd] in *; lra | auto | auto | auto | cbn [b_max fst snd] in *; lra | auto | auto].
Qed.
Lemma align_center : forall c b, b_center (align c b) = b_center c /\ b_size (align c b) = b_size b.
Proof. intros c b. split; [| reflexivity]. unfold align, align_to, translate, b_center. cbn [b_min b_size fst snd]. f_equal; ring. Qed.
Lemma align_to_center : forall p b, b_center (align_to p b) = p /\ b_size (align_to p b) = b_size b.
Proof. intros [px py] b. split; [| reflexivity]. unfold align_to, translate, b_center. cbn [b_min b_size fst snd]. f_equal; ring. Qed.
Lemma halign_edges : forall c left opposite b, let b' := halign c left opposite b in
  (if left then fst (b_min b') else fst (b_max b')) =
    (if left then (if opposite then fst (b_max c) else fst (b_min c)) else (if opposite then fst (b_min c) else fst (b_max c))) /\
  b_size b' = b_size b /\ snd (b_min b') = snd (b_min b).
Proof.
  intros c left opposite b b'. unfold b', halign, halign_to, translate, b_max. cbn [b_min b_size fst snd].
  destruct left, opposite; cbn [andb orb negb]; repeat split; ring.
Qed.
Lemma valign_edges : forall c bottom opposite b, let b' := valign c bottom opposite b in
  (if bottom then snd (b_min b') else snd (b_max b')) =
    (if bottom then (if opposite then snd (b_max c) else snd (b_min c)) else (if opposite then snd (b_min c) else snd (b_max c))) /\
  b_size b' = b_size b /\ fst (b_min b') = fst (b_min b).
Proof.
  intros c bottom opposite b b'. unfold b', valign, valign_to, translate, b_max. cbn [b_min b_size fst snd].
  destruct bottom, opposite; cbn [andb orb negb]; repeat split; ring.
Qed.
Lemma translate_add : forall dx dy dx' dy' b, translate dx' dy' (translate dx dy b) = translate (dx + dx') (dy + dy') b.
Proof. intros. unfold translate. cbn [b_min b_size b_spacing fst snd]. f_equal. f_equal; ring. Qed.
(** ** eps_t cache *)
Lemma fold_cache : forall s ops st v, s_cache st = Some v -> s_cache (fold_left (estep s) ops st) = Some v.
Proof.
  induction ops as [| o ops IH]; intros st v H; cbn [fold_left]; auto. apply IH. destruct o; cbn [estep]; auto. rewrite H. auto.
Qed.
Lemma eps_t_frozen : forall s ops st, eread s (fold_left (estep s) ops (estep s st ERead)) = eread s st.
Proof.
  intros s ops st. assert (H : s_cache (estep s st ERead) = Some (eread s st)) by (cbn [estep]; unfold eread; destruct (s_cache st) eqn:E; auto).
  unfold eread at 1. rewrite (fold_cache s ops _ _ H). reflexivity.
Qed.
Lemma eps_t_fresh : forall s fs e, eread s (fold_left (estep s) (map EWrite fs) (mkE e None)) = yee_avg s (fold_left (fun x f => f x) fs e).
Proof.
  intros s fs. induction fs as [| f fs IH]; intros e; [reflexivity |]. cbn [map fold_left estep s_eps s_cache]. apply IH.
Qed.
(** ** fill and the z slab of add *)
Lemma fill_exact : forall n spacing height eps e l, 0 < spacing -> 0 < height -> height <= IZR n * spacing -> (0 <= l < n)%Z ->
  ((IZR l + 1) * spacing <= height -> fill_last n spacing height eps e l = eps) /\
  (height < (IZR l + 1) * spacing -> fill_last n spacing height eps e l = e l).
Proof.
  intros n spacing height eps e l Hs Hh Hn Hl. unfold fill_last. destruct (Rlt_dec 0 height); [| contradiction].
  assert (T0 : trunc_z (0 / spacing) = 0%Z).
  { replace (0 / spacing) with 0 by (field; lra). rewrite trunc_floor by lra. apply floor_unique. lra. }
  pose proof (slice_edges 0 height spacing n l Hs ltac:(lra) Hn Hl) as E. rewrite T0 in E. unfold edge_in in E.
  destruct (in_slice n 0 (trunc_z (height / spacing)) l).
  - split; intros H; auto. exfalso. destruct E as [E _]. specialize (E eq_refl). lra.
  - split; intros H; auto. exfalso. destruct E as [_ E]. assert (IZR 0 <= IZR l) by (apply IZR_le; lia).
    discriminate E. split; [nra | auto].
Qed.
Lemma add_z_exact : forall g zmin thickness eps e k, let d := g_spacing g AZ in g_spacing g AX = d -> g_spacing g AY = d -> 0 < d ->
  0 <= zmin -> 0 <= thickness -> zmin + thickness <= IZR (g_shape g AZ) * d -> (0 <= k < g_shape g AZ)%Z ->
  (edge_in zmin (zmin + thickness) d k -> add_z g zmin thickness eps e k = eps) /\
  (~ edge_in zmin (zmin + thickness) d k -> add_z g zmin thickness eps e k = e k).
Proof.
  intros g zmin th eps e k d Hx Hy Hd H0 H1 Hn Hk. unfold add_z. rewrite Hx, Hy.
  pose proof (slice_edges zmin (zmin + th) d (g_shape g AZ) k Hd ltac:(lra) Hn Hk) as E.
  destruct (in_slice _ _ _ k); split; intros H; auto; exfalso.
  - apply H, E. reflexivity.
  - apply E in H. discriminate.
Qed.
Definition aniso : gridp := mkGrid 3 (fun a => match a with AZ => 1 / 2 | _ => 1 end) (fun _ => 10%Z).
Lemma add_z_aniso : edge_in 2 4 (g_spacing aniso AZ) 7 /\ add_z aniso 2 2 12 (fun _ => 1) 7 = 1.
Proof.
  split; [unfold edge_in, aniso; cbn [g_spacing]; lra |]. unfold add_z, aniso. cbn [g_spacing g_shape].
  assert (A : trunc_z (2 / 1) = 2%Z) by (rewrite trunc_floor by lra; apply floor_unique; lra).
  assert (B : trunc_z ((2 + 2) / 1) = 4%Z) by (rewrite trunc_floor by lra; apply floor_unique; lra).
  rewrite A, B. reflexivity.
Qed.
(** a 1-axis overhang over the high edge is clipped *)
Lemma high_clip : forall n lo s i, (0 <= lo)%Z -> (0 <= s)%Z -> (0 <= i < n)%Z -> in_slice n lo (lo + s) i = (Z.leb lo i && Z.ltb i (lo + s))%bool.
Proof.
  intros n lo s i H0 Hs Hi. unfold in_slice, np_bound. destruct (Z.ltb_spec lo 0); [lia |]. destruct (Z.ltb_spec (lo + s) 0); [lia |].
  destruct (Z.leb_spec lo i), (Z.ltb_spec i (lo + s)), (Z.leb_spec (Z.max 0 (Z.min n lo)) i), (Z.ltb_spec i (Z.max 0 (Z.min n (lo + s)))); cbn; auto; lia.
Qed.
Definition g108 : gridp := mkGrid 2 (fun _ => 1) (fun a => match a with AX => 10 | AY => 8 | AZ => 1 end)%Z.
Definition at54 (a : axis) : R := match a with AX => 5 | AY => 4 | AZ => 0 end.
Definition at14 (a : axis) : R := match a with AX => 1 | AY => 4 | AZ => 0 end.
Definition sz42 (a : axis) : R := match a with AX => 4 | AY => 2 | AZ => 0 end.
Lemma around_over1 : forall z, around (IZR z / 1) = z.
Proof. intros. replace (IZR z / 1) with (IZR z) by field. apply around_IZR. Qed.
Lemma g108_fits : box_fits g108 at54 sz42 /\ in_box g108 at54 sz42 3 3 0 /\ ~ in_box g108 at54 sz42 2 3 0.
Proof.
  assert (B : forall a, box_lo g108 at54 sz42 a = match a with AX => 3 | AY => 3 | AZ => 0 end%Z /\ box_len g108 sz42 a = match a with AX => 4 | AY => 2 | AZ => 1 end%Z).
  { intros a. unfold box_lo, box_len, g108, at54, sz42. destruct a; cbn [axis_nat g_ndim g_spacing Nat.ltb Nat.leb]; rewrite ?around_over1; split; reflexivity. }
  split; [| split].
  - intros a. destruct (B a) as [-> ->]. destruct a; cbn [g_shape g108]; lia.
  - intros a. destruct (B a) as [-> ->]. destruct a; cbn [zcoord]; lia.
  - intros H. specialize (H AX). destruct (B AX) as [E1 E2]. rewrite E1, E2 in H. cbn [zcoord] in H. lia.
Qed.
(** centre x = 1, size 4: cells -1 .. 2 requested, none written *)
Lemma g108_overhang : forall i j, set_eps g108 at14 sz42 12 (fun _ _ _ => 1) i j 0 = Some 1 \/ ~ cell g108 i j 0.
Proof.
  intros i j. destruct (Z.leb_spec 0 i), (Z.ltb_spec i 10), (Z.leb_spec 0 j), (Z.ltb_spec j 8);
    try (right; intros H'; specialize (H' AX) as X; specialize (H' AY) as Y; cbn in X, Y; lia). left.
  assert (EX : selected (g_shape g108 AX) (slice_axis g108 at14 sz42 AX) i = Some false).
  { unfold slice_axis, pixels, real_axis, g108, at14, sz42. cbn [axis_nat g_ndim g_spacing Nat.ltb Nat.leb g_shape]. rewrite !around_over1.
    change (Z.ltb 0 4) with true. cbn [selected]. f_equal. change (1 - 4 / 2)%Z with (-1)%Z. apply (wrap_empty 10 (-1) 4 i); lia. }
  assert (EY : exists b, selected (g_shape g108 AY) (slice_axis g108 at14 sz42 AY) j = Some b).
  { unfold slice_axis, pixels, real_axis, g108, at14, sz42. cbn [axis_nat g_ndim g_spacing Nat.ltb Nat.leb g_shape]. rewrite !around_over1.
    change (Z.ltb 0 2) with true. cbn [selected]. eauto. }
  assert (EZ : exists b, selected (g_shape g108 AZ) (slice_axis g108 at14 sz42 AZ) 0 = Some b).
  { unfold slice_axis, pixels, real_axis, g108. cbn [axis_nat g_ndim Nat.ltb Nat.leb g_shape]. change (Z.ltb 0 0) with false. cbn. eauto. }
  destruct EY as (b & EY), EZ as (b' & EZ). unfold set_eps, mask. rewrite EX, EY, EZ. reflexivity.
Qed.

Lemma around_nearest_even : forall x z, around x = z <-> nearest_even x z.
Proof.
  intros x z. pose proof (base_Int_part x) as [A B].
  unfold around, nearest_even. set (f := Int_part x) in *.
  assert (S : forall g : Z, (IZR g < IZR f + 2 -> IZR f - 1 < IZR g -> g = f \/ g = (f + 1)%Z)).
  { intros g H1 H2. rewrite <- (plus_IZR f 2) in H1. rewrite <- (minus_IZR f 1) in H2. apply lt_IZR in H1. apply lt_IZR in H2. lia. }
  assert (P1 : IZR (f + 1) = IZR f + 1) by (rewrite plus_IZR; reflexivity).
  assert (Ev : Z.even (f + 1) = negb (Z.even f)) by (rewrite Z.even_add; destruct (Z.even f); reflexivity).
  split.
  - intros H. destruct (Rlt_dec (x - IZR f) (1 / 2)).
    + left. subst z. apply Rabs_def1; lra.
    + destruct (Rlt_dec (1 / 2) (x - IZR f)).
      * left. subst z. rewrite P1. apply Rabs_def1; lra.
      * right. destruct (Z.even f) eqn:E; subst z.
        -- split; [rewrite Rabs_pos_eq; lra | auto].
        -- split; [rewrite P1; rewrite Rabs_left; lra | rewrite Ev; reflexivity].
  - intros H.
    assert (K : Rabs (x - IZR z) <= 1 / 2) by (destruct H as [H | [H _]]; lra).
    assert (K2 : - (1 / 2) <= x - IZR z <= 1 / 2) by (split; [pose proof (Rle_abs (- (x - IZR z))); rewrite Rabs_Ropp in *; lra | pose proof (Rle_abs (x - IZR z)); lra]).
    destruct (S z) as [-> | ->]; [lra | lra | |].
    + destruct (Rlt_dec (x - IZR f) (1 / 2)); auto. destruct (Rlt_dec (1 / 2) (x - IZR f)); [lra |].
      destruct H as [H | [_ H]]; [rewrite Rabs_pos_eq in H; lra | rewrite H; auto].
    + rewrite P1 in *. destruct (Rlt_dec (x - IZR f) (1 / 2)); [lra |]. destruct (Rlt_dec (1 / 2) (x - IZR f)); auto.
      destruct H as [H | [_ H]]; [rewrite Rabs_left in H; lra |]. rewrite Ev in H. destruct (Z.even f); [discriminate | auto].
Qed.

Lemma shape_exact : forall ndim size spacing a, 0 < spacing a ->
  let n := grid_shape ndim size spacing a in
  ((axis_nat a < ndim)%nat -> nearest_even (size a / spacing a) n /\ Rabs (IZR n * spacing a - size a) <= spacing a / 2 /\ (forall k, size a = IZR k * spacing a -> n = k)) /\
  ((ndim <= axis_nat a)%nat -> n = 1%Z).
Proof.
  intros ndim size spacing a Hs n. unfold n, grid_shape. split; intro H.
  - destruct (Nat.ltb_spec (axis_nat a) ndim); [| lia]. split; [apply around_nearest_even; reflexivity |]. split.
    + pose proof (around_nearest (size a / spacing a)) as N. set (z := around (size a / spacing a)) in *.
      replace (IZR z * spacing a - size a) with ((IZR z - size a / spacing a) * spacing a) by (field; lra).
      rewrite Rabs_mult, (Rabs_pos_eq (spacing a)) by lra. nra.
    + intros k E. rewrite E. replace (IZR k * spacing a / spacing a) with (IZR k) by (field; lra). apply around_IZR.
  - destruct (Nat.ltb_spec (axis_nat a) ndim); [lia | reflexivity].
Qed.
