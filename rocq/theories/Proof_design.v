(** Grid design helpers: geometry of block_design, repeatability, layers, failure points, shapes, buffers. *)
From Coq Require Import Reals List Arith ZArith Lra Lia Bool.
From Verif Require Import Cx Arr Model_yee Model_grid Spec_grid Proof_grid Model_design Spec_design.
Import ListNotations.
Local Open Scope R_scope.

Lemma box_eq : forall a b : box, b_size a = b_size b -> fst (b_min a) = fst (b_min b) -> snd (b_min a) = snd (b_min b) -> b_spacing a = b_spacing b -> a = b.
Proof. intros [s [x y] h] [s' [x' y'] h']. cbn. intros; subst; reflexivity. Qed.

Lemma Some_inj_l : forall (A : Type) (x y : A), Some x = Some y -> x = y.
Proof. congruence. Qed.
(** ** Geometry *)
Lemma placed_size : forall ctr d, b_size (placed ctr d) = b_size (d_wg d).
Proof. intros. unfold placed. destruct (given_height d); reflexivity. Qed.
Lemma placed_center_x : forall ctr d, fst (b_center (placed ctr d)) = fst ctr.
Proof. intros. unfold placed, b_center, valign_to, align_to, translate. destruct (given_height d); cbn [b_size b_min fst snd]; unfold b_center; cbn [fst snd]; lra. Qed.
Lemma placed_bottom : forall ctr d, snd (b_min (placed ctr d)) = base_height ctr d.
Proof.
  intros. unfold base_height. destruct (given_height d) eqn:E; [| reflexivity].
  unfold placed. rewrite E. unfold valign_to, translate. cbn [b_min snd]. lra.
Qed.
Lemma base_none : forall ctr d, given_height d = None -> base_height ctr d = snd ctr - snd (b_size (d_wg d)) / 2.
Proof.
  intros ctr d E. unfold base_height. rewrite E. unfold placed. rewrite E. unfold align_to, translate, b_center. cbn [b_min snd fst]. lra.
Qed.
Lemma pair_geometry : forall ctr d l, drawn ctr d = Some l -> exists w0 w1 bs, l = (w0, d_wg_eps d) :: (w1, d_wg_eps d) :: bs /\
  b_size w0 = b_size (d_wg d) /\ b_size w1 = b_size (d_wg d) /\
  snd (b_min w0) = snd (b_min w1) /\
  (forall h, d_wg_height d = Some h -> h <> 0 -> snd (b_min w0) = h) /\
  (d_wg_height d = None -> snd (b_center w0) = snd ctr) /\
  (fst (b_center w0) + fst (b_center w1)) / 2 = fst ctr /\
  (0 < d_gap d -> fst (b_min w1) - fst (b_max w0) = d_gap d) /\ (d_gap d <= 0 -> w0 = w1).
Proof.
  intros ctr d l H. unfold drawn in H. destruct (blocks ctr d) as [bs |]; [| discriminate]. assert (E : l = (wg_left ctr d, d_wg_eps d) :: (wg_right ctr d, d_wg_eps d) :: bs) by congruence.
  exists (wg_left ctr d), (wg_right ctr d), bs. split; [exact E |]. clear H E. pose proof (placed_size ctr d) as Hs. pose proof (placed_center_x ctr d) as Hx.
  pose proof (placed_bottom ctr d) as Hb. unfold wg_left, wg_right, translate, b_center, b_max in *. cbn [b_size b_min fst snd] in *. rewrite Hs in *.
  split; [reflexivity |]. split; [reflexivity |]. split; [reflexivity |]. split; [| split; [| split; [lra |]]].
  - intros h Hh Hne. rewrite Hb. unfold base_height, given_height. rewrite Hh. destruct (Req_EM_T h 0); [contradiction | lra].
  - intro Hh. rewrite Hb, base_none by (unfold given_height; rewrite Hh; reflexivity). lra.
  - unfold half_pitch. split; intro Hg; destruct (Rlt_dec 0 (d_gap d)); try lra. apply box_eq; cbn [b_size b_min fst snd b_spacing]; auto; lra.
Qed.
Lemma block_geometry : forall ctr d b eps l, d_block d = Some (b, eps) -> drawn ctr d = Some l -> exists w0 w1 b0 b1,
  l = [(w0, d_wg_eps d); (w1, d_wg_eps d); (b0, eps); (b1, eps)] /\ b_size b0 = b_size b /\ b_size b1 = b_size b /\
  (d_vertical d = false -> fst (b_min w0) - fst (b_max b0) = fst (d_sep d) /\ fst (b_min b1) - fst (b_max w1) = snd (d_sep d) /\
     snd (b_min b0) = snd (b_min w0) /\ snd (b_min b1) = snd (b_min w1)) /\
  (d_vertical d = true -> snd (b_min b0) - snd (b_max w0) = fst (d_sep d) /\ snd (b_min b1) - snd (b_max w1) = snd (d_sep d) /\
     fst (b_center b0) = fst (b_center w0) /\ fst (b_center b1) = fst (b_center w1)).
Proof.
  intros ctr d b eps l Hb H. unfold drawn, blocks in H. rewrite Hb in H. pose proof (placed_bottom ctr d) as Hp.
  destruct (d_vertical d) eqn:V.
  - eexists (wg_left ctr d), (wg_right ctr d), _, _. split; [symmetry; exact (Some_inj_l _ _ _ H) |].
    split; [reflexivity |]. split; [reflexivity |]. split; [discriminate |]. intros _.
    unfold valign, valign_to, align, align_to, translate, b_center, b_max. cbn [b_size b_min fst snd andb orb negb]. repeat split; lra.
  - eexists (wg_left ctr d), (wg_right ctr d), _, _. split; [symmetry; exact (Some_inj_l _ _ _ H) |].
    split; [reflexivity |]. split; [reflexivity |]. split; [| discriminate]. intros _.
    unfold halign, halign_to, valign_to, translate, b_center, b_max, wg_left, wg_right, translate. cbn [b_size b_min fst snd andb orb negb].
    rewrite Hp. repeat split; lra.
Qed.
(** ** The drawn gap in pixels *)
Lemma gap_pixels : forall g ctr d l w0 w1 bs (s : Z), g_ndim g = 2%nat -> 0 < g_spacing g AX -> 0 < d_gap d -> (0 < s)%Z ->
  fst (b_size (d_wg d)) = IZR s * g_spacing g AX -> drawn ctr d = Some l -> l = w0 :: w1 :: bs ->
  let lo w := box_lo g (xy0 (b_center (fst w))) (xy0 (b_size (fst w))) AX in
  let len w := box_len g (xy0 (b_size (fst w))) AX in
  len w0 = s /\ len w1 = s /\ Rabs (IZR (lo w1 - (lo w0 + len w0)) - d_gap d / g_spacing g AX) <= 1.
Proof.
  intros g ctr d l w0 w1 bs s Hn Hh Hg Hs Hw Hd Hl lo len.
  destruct (pair_geometry ctr d l Hd) as (v0 & v1 & bs' & E & S0 & S1 & _ & _ & _ & Hc & Hgap & _). specialize (Hgap Hg).
  rewrite E in Hl. assert (E0 : w0 = (v0, d_wg_eps d)) by congruence. assert (E1 : w1 = (v1, d_wg_eps d)) by congruence. subst w0 w1.
  unfold lo, len, box_lo, box_len. rewrite Hn. cbn [fst snd axis_nat Nat.ltb Nat.leb xy0]. rewrite S0, S1, Hw.
  replace (IZR s * g_spacing g AX / g_spacing g AX) with (IZR s) by (field; lra). rewrite around_IZR.
  replace (Z.max 1 s) with s by lia. replace (Z.max 0 s) with s by lia. split; [reflexivity |]. split; [reflexivity |].
  pose proof (around_nearest (fst (b_center v0) / g_spacing g AX)) as N0. pose proof (around_nearest (fst (b_center v1) / g_spacing g AX)) as N1.
  set (c0 := around (fst (b_center v0) / g_spacing g AX)) in *. set (c1 := around (fst (b_center v1) / g_spacing g AX)) in *.
  replace (c1 - s / 2 - (c0 - s / 2 + s))%Z with (c1 - c0 - s)%Z by lia. rewrite !minus_IZR.
  assert (Hp : fst (b_center v1) / g_spacing g AX - fst (b_center v0) / g_spacing g AX = d_gap d / g_spacing g AX + IZR s).
  { unfold b_center, b_max in *. cbn [fst snd] in *. rewrite S0, S1, Hw in *. 
    replace (fst (b_min v1)) with (d_gap d + (fst (b_min v0) + IZR s * g_spacing g AX)) by lra. field. lra. }
  unfold Rabs in N0, N1. destruct (Rcase_abs (IZR c0 - fst (b_center v0) / g_spacing g AX)), (Rcase_abs (IZR c1 - fst (b_center v1) / g_spacing g AX));
  apply Rabs_le; lra.
Qed.
Lemma around_35 : around (7 / 2) = 4%Z.
Proof.
  unfold around. assert (E : Int_part (7 / 2) = 3%Z) by (apply floor_unique; lra). rewrite E.
  destruct (Rlt_dec (7 / 2 - IZR 3) (1 / 2)); [lra |]. destruct (Rlt_dec (1 / 2) (7 / 2 - IZR 3)); [lra |]. reflexivity.
Qed.
Lemma around_65 : around (13 / 2) = 6%Z.
Proof.
  unfold around. assert (E : Int_part (13 / 2) = 6%Z) by (apply floor_unique; lra). rewrite E.
  destruct (Rlt_dec (13 / 2 - IZR 6) (1 / 2)); [lra |]. destruct (Rlt_dec (1 / 2) (13 / 2 - IZR 6)); [lra |]. reflexivity.
Qed.
Lemma g10_box : forall cx cy (c : Z), around cx = c -> cy = 5 -> (2 <= c <= 8)%Z ->
  box_fits g10 (xy0 (cx, cy)) (xy0 (2, 2)) /\
  (forall i j k, in_box g10 (xy0 (cx, cy)) (xy0 (2, 2)) i j k <-> (c - 1 <= i < c + 1)%Z /\ (4 <= j < 6)%Z /\ k = 0%Z).
Proof.
  intros cx cy c Hc -> Hr. unfold box_fits, in_box.
  assert (A2 : around 2 = 2%Z) by (apply (around_IZR 2)). assert (A5 : around 5 = 5%Z) by (apply (around_IZR 5)).
  assert (L : forall a, box_lo g10 (xy0 (cx, 5)) (xy0 (2, 2)) a = match a with AX => (c - 1)%Z | AY => 4%Z | AZ => 0%Z end /\
              box_len g10 (xy0 (2, 2)) a = match a with AZ => 1%Z | _ => 2%Z end).
  { intro a. unfold box_lo, box_len, g10. cbn [g_ndim g_spacing]. destruct a; cbn [axis_nat Nat.ltb Nat.leb xy0 fst snd].
    - replace (cx / 1) with cx by field. replace (2 / 1) with 2 by field. rewrite A2, Hc. split; reflexivity.
    - replace (5 / 1) with 5 by field. replace (2 / 1) with 2 by field. rewrite A2, A5. split; reflexivity.
    - split; reflexivity. }
  split.
  - intro a. destruct (L a) as [-> ->]. unfold g10. cbn [g_shape]. destruct a; lia.
  - intros i j k. split.
    + intro H. pose proof (H AX) as HX; pose proof (H AY) as HY; pose proof (H AZ) as HZ.
      destruct (L AX) as [L1 L2]; rewrite L1, L2 in HX. destruct (L AY) as [L3 L4]; rewrite L3, L4 in HY. destruct (L AZ) as [L5 L6]; rewrite L5, L6 in HZ.
      cbn [zcoord] in *. lia.
    + intros (X & Y & Z) a. destruct (L a) as [-> ->]. destruct a; cbn [zcoord]; lia.
Qed.
Lemma gap_vanishes : forall e, (forall i, (3 <= i < 7)%Z -> block_design g10 (5, 5) pair_design e i 4 0 = Some 12) /\ d_gap pair_design = g_spacing g10 AX /\ fst (b_size (d_wg pair_design)) = 2 * g_spacing g10 AX.
Proof.
  intro e. split; [| split; cbn; lra].
  intros i Hi. unfold block_design.
  assert (P : placed (5, 5) pair_design = mkBox (2, 2) (4, 4) 1).
  { apply box_eq; unfold placed, pair_design, given_height, align_to, translate, b_center; cbn [d_wg_height d_wg b_size b_min fst snd b_spacing]; try reflexivity; lra. }
  assert (HP : half_pitch pair_design = 3 / 2).
  { unfold half_pitch, pair_design. cbn [d_gap d_wg b_size fst]. destruct (Rlt_dec 0 1); lra. }
  assert (D : drawn (5, 5) pair_design = Some [(mkBox (2, 2) (5 / 2, 4) 1, 12); (mkBox (2, 2) (11 / 2, 4) 1, 12)]).
  { unfold drawn, blocks. cbn [d_vertical d_block pair_design]. unfold wg_left, wg_right. fold pair_design. rewrite P, HP.
    unfold translate. cbn [b_size b_min b_spacing fst snd d_wg_eps pair_design]. do 2 f_equal; [| f_equal]; f_equal; f_equal; f_equal; lra. }
  rewrite D. cbn [fold_left draw1 fst snd].
  match goal with |- context [layers ?a ?b ?c ?d ?e ?f ?g ?h ?k] => set (v := layers a b c d e f g h k) end. clearbody v.
  unfold b_center. cbn [b_min b_size fst snd]. replace (5 / 2 + 2 / 2) with (7 / 2) by lra. replace (11 / 2 + 2 / 2) with (13 / 2) by lra.
  replace (4 + 2 / 2) with 5 by lra.
  destruct (g10_box (7 / 2) 5 4 around_35 eq_refl ltac:(lia)) as [F0 I0]. destruct (g10_box (13 / 2) 5 6 around_65 eq_refl ltac:(lia)) as [F1 I1].
  assert (HC : cell g10 i 4 0) by (intro a; unfold g10; cbn [g_shape]; destruct a; cbn [zcoord]; lia).
  destruct (set_eps_exact g10 _ _ 12 (fun _ _ _ => v) i 4%Z 0%Z F0 HC) as [A0 B0].
  destruct (Z_lt_dec i 5) as [Hl | Hl].
  - rewrite A0 by (apply I0; lia). destruct (set_eps_exact g10 _ _ 12 (fun _ _ _ => 12) i 4%Z 0%Z F1 HC) as [_ B1].
    unfold draw1, b_center. cbn [b_min b_size fst snd]. replace (11 / 2 + 2 / 2) with (13 / 2) by lra. replace (4 + 2 / 2) with 5 by lra. apply B1. rewrite I1. lia.
  - rewrite B0 by (rewrite I0; lia). destruct (set_eps_exact g10 _ _ 12 (fun _ _ _ => v) i 4%Z 0%Z F1 HC) as [A1 _].
    unfold draw1, b_center. cbn [b_min b_size fst snd]. replace (11 / 2 + 2 / 2) with (13 / 2) by lra. replace (4 + 2 / 2) with 5 by lra. apply A1. apply I1. lia.
Qed.

(** ** The initial position of the waveguide does not matter; a repeated call changes nothing *)
Lemma placed_any : forall ctr d b, b_size b = b_size (d_wg d) -> b_spacing b = b_spacing (d_wg d) -> placed ctr (with_wg d b) = placed ctr d.
Proof.
  intros ctr d b Hs Hp. unfold placed. assert (E : given_height (with_wg d b) = given_height d) by reflexivity. rewrite E.
  assert (A : align_to ctr (d_wg (with_wg d b)) = align_to ctr (d_wg d)).
  { cbn [d_wg with_wg]. apply box_eq; unfold align_to, translate, b_center; cbn [b_size b_min fst snd b_spacing]; auto; rewrite Hs; lra. }
  rewrite A. reflexivity.
Qed.
Lemma drawn_any : forall ctr d b, b_size b = b_size (d_wg d) -> b_spacing b = b_spacing (d_wg d) -> drawn ctr (with_wg d b) = drawn ctr d.
Proof.
  intros ctr d b Hs Hp. pose proof (placed_any ctr d b Hs Hp) as P.
  assert (H : half_pitch (with_wg d b) = half_pitch d) by (unfold half_pitch; cbn [d_gap d_wg with_wg]; rewrite Hs; reflexivity).
  assert (L : wg_left ctr (with_wg d b) = wg_left ctr d) by (unfold wg_left; rewrite P, H; reflexivity).
  assert (R' : wg_right ctr (with_wg d b) = wg_right ctr d) by (unfold wg_right; rewrite P, H; reflexivity).
  assert (B : base_height ctr (with_wg d b) = base_height ctr d) by (unfold base_height; rewrite P; reflexivity).
  unfold drawn, blocks. rewrite L, R', B. reflexivity.
Qed.
Lemma design_any : forall g ctr d b e i j k, b_size b = b_size (d_wg d) -> b_spacing b = b_spacing (d_wg d) ->
  block_design g ctr (with_wg d b) e i j k = block_design g ctr d e i j k.
Proof. intros g ctr d b e i j k Hs Hp. unfold block_design. rewrite (drawn_any ctr d b Hs Hp). reflexivity. Qed.
(** Every step either keeps the value or writes a constant. *)
Definition keep_or_const (F : R -> R) : Prop := (forall v, F v = v) \/ exists c, forall v, F v = c.
Lemma koc_comp : forall F G, keep_or_const F -> keep_or_const G -> keep_or_const (fun v => G (F v)).
Proof.
  intros F G [HF | [c HF]] [HG | [c' HG]].
  - left. intro v. rewrite HG, HF. reflexivity.
  - right. exists c'. intro v. apply HG.
  - right. exists c. intro v. rewrite HG, HF. reflexivity.
  - right. exists c'. intro v. apply HG.
Qed.
Lemma koc_fill : forall g h eps i j k, keep_or_const (fun v => fill g h eps (fun _ _ _ => v) i j k).
Proof.
  intros. unfold fill, fill_last. destruct (Rlt_dec 0 h); [| right; exists eps; auto].
  destruct (in_slice _ _ _ _); [right; exists eps; auto | left; auto].
Qed.
Lemma layers_local : forall g rib sub ce se e i j k, layers g rib sub ce se e i j k = layers g rib sub ce se (fun _ _ _ => e i j k) i j k.
Proof. intros. unfold layers, fill, fill_last. destruct (Rlt_dec 0 rib); reflexivity. Qed.
Lemma koc_layers : forall g rib sub ce se i j k, keep_or_const (fun v => layers g rib sub ce se (fun _ _ _ => v) i j k).
Proof.
  intros. unfold layers. destruct (Rlt_dec 0 rib); [| apply koc_fill].
  exact (koc_comp _ _ (koc_fill g (rib + sub) ce i j k) (koc_fill g sub se i j k)).
Qed.
Lemma draw_none : forall g i j k bs, fold_left (draw1 g i j k) bs None = None.
Proof. intros. induction bs; auto. Qed.
Lemma koc_draw : forall g i j k bs, (exists F, keep_or_const F /\ forall v, fold_left (draw1 g i j k) bs (Some v) = Some (F v)) \/
  (forall v, fold_left (draw1 g i j k) bs (Some v) = None).
Proof.
  intros g i j k bs. induction bs as [| b bs IH]; [left; exists (fun v => v); split; [left; auto | auto] |].
  cbn [fold_left draw1]. unfold set_eps. destruct (mask g (xy0 (b_center (fst b))) (xy0 (b_size (fst b))) i j k) as [m |] eqn:E.
  - destruct IH as [[F [HF IH]] | IH].
    + left. exists (fun v => F (if m then snd b else v)). split.
      * apply (koc_comp (fun v => if m then snd b else v) F); auto. destruct m; [right; exists (snd b); auto | left; auto].
      * intro v. apply IH.
    + right. intro v. apply IH.
  - right. intro v. apply draw_none.
Qed.
Lemma design_twice : forall g ctr d e e' i j k v, block_design g ctr d e i j k = Some v -> e' i j k = v ->
  block_design g ctr (with_wg d (placed ctr d)) e' i j k = Some v.
Proof.
  intros g ctr d e e' i j k v H He.
  rewrite design_any; [| apply placed_size | unfold placed; destruct (given_height d); reflexivity].
  unfold block_design in *. destruct (drawn ctr d) as [bs |]; [| discriminate].
  rewrite layers_local in H. rewrite layers_local, He.
  destruct (koc_draw g i j k bs) as [[F [HF HD]] | HD]; [| rewrite HD in H; discriminate].
  rewrite HD in H. rewrite HD. apply Some_inj_l in H. f_equal.
  pose proof (koc_comp _ _ (koc_layers g (d_rib d) (d_sub_height d) (d_wg_eps d) (d_sub_eps d) i j k) HF) as [K | [c K]].
  - rewrite (K v). reflexivity.
  - rewrite K. rewrite K in H. exact H.
Qed.

(** ** Layers *)
Lemma slice_below : forall n m i, (0 <= i < n)%Z -> (0 <= m)%Z -> in_slice n 0 m i = Z.ltb i m.
Proof.
  intros n m i Hi Hm. unfold in_slice, np_bound. change (0 <? 0)%Z with false. destruct (Z.ltb_spec m 0); [lia |].
  replace (Z.max 0 (Z.min n 0)) with 0%Z by lia. destruct (Z.leb_spec 0 i); [| lia]. cbn [andb].
  destruct (Z.ltb_spec i (Z.max 0 (Z.min n m))), (Z.ltb_spec i m); auto; lia.
Qed.
Lemma below_edge : forall x h i, 0 < h -> 0 < x -> (0 <= i)%Z -> (0 <= trunc_z (x / h))%Z /\ (Z.ltb i (trunc_z (x / h)) = true <-> (IZR i + 1) * h <= x).
Proof.
  intros x h i Hh Hx Hi. assert (Q : 0 < x / h) by (apply Rdiv_lt_0_compat; auto). rewrite trunc_floor by lra.
  pose proof (floor_bounds (x / h)) as [B0 B1]. set (q := Int_part (x / h)) in *.
  assert (E : x = x / h * h) by (field; lra). split.
  - assert (A : -1 < IZR q) by lra. change (-1) with (IZR (-1)) in A. apply lt_IZR in A. lia.
  - rewrite Z.ltb_lt. split; intro H.
    + assert (A : IZR i + 1 <= IZR q) by (replace 1 with (IZR 1) by reflexivity; rewrite <- plus_IZR; apply IZR_le; lia). rewrite E. nra.
    + assert (A : IZR i + 1 <= x / h) by (apply (Rmult_le_reg_r h); [auto |]; rewrite <- E; auto).
      assert (B : IZR i < IZR q) by lra. apply lt_IZR in B. auto.
Qed.
Lemma fill_exact : forall g h eps e i j k, 0 < h -> 0 < g_spacing g (last_axis g) -> cell g i j k ->
  let top := (IZR (zc (last_axis g) i j k) + 1) * g_spacing g (last_axis g) in
  (top <= h -> fill g h eps e i j k = eps) /\ (h < top -> fill g h eps e i j k = e i j k).
Proof.
  intros g h eps e i j k Hh Hs Hc top. pose proof (Hc (last_axis g)) as Hl.
  assert (Hz : zcoord (last_axis g) i j k = zc (last_axis g) i j k) by (destruct (last_axis g); reflexivity). rewrite Hz in Hl.
  destruct (below_edge h (g_spacing g (last_axis g)) (zc (last_axis g) i j k) Hs Hh ltac:(lia)) as [T0 TE].
  unfold fill, fill_last. destruct (Rlt_dec 0 h); [| lra]. rewrite slice_below by (auto; lia). fold top in TE. split; intro H.
  - apply TE in H. rewrite H. reflexivity.
  - assert (E : Z.ltb (zc (last_axis g) i j k) (trunc_z (h / g_spacing g (last_axis g))) = false) by (apply not_true_is_false; rewrite TE; lra).
    rewrite E. reflexivity.
Qed.
Lemma layers_exact : forall g rib sub ce se e i j k, 0 < rib -> 0 < sub -> 0 < g_spacing g (last_axis g) -> cell g i j k ->
  let top := (IZR (zc (last_axis g) i j k) + 1) * g_spacing g (last_axis g) in
  (top <= sub -> layers g rib sub ce se e i j k = se) /\ (sub < top <= rib + sub -> layers g rib sub ce se e i j k = ce) /\
  (rib + sub < top -> layers g rib sub ce se e i j k = e i j k).
Proof.
  intros g rib sub ce se e i j k Hr Hsub Hs Hc top. unfold layers. destruct (Rlt_dec 0 rib); [| lra].
  destruct (fill_exact g sub se (fill g (rib + sub) ce e) i j k Hsub Hs Hc) as [A B]. destruct (fill_exact g (rib + sub) ce e i j k ltac:(lra) Hs Hc) as [A' B'].
  fold top in A, B, A', B'. split; [auto |]. split; intro H; rewrite B by lra; [apply A' | apply B']; lra.
Qed.
Lemma pattern_layers_exact : forall g rib sub ce se e i j k, 0 <= rib -> 0 < sub -> 0 < g_spacing g (last_axis g) -> cell g i j k ->
  let top := (IZR (zc (last_axis g) i j k) + 1) * g_spacing g (last_axis g) in
  (top <= sub -> pattern_layers g sub rib ce se e i j k = se) /\ (sub < top <= sub + rib -> pattern_layers g sub rib ce se e i j k = ce) /\
  (sub + rib < top -> pattern_layers g sub rib ce se e i j k = e i j k).
Proof.
  intros g rib sub ce se e i j k Hr Hsub Hs Hc top. unfold pattern_layers.
  destruct (fill_exact g sub se (fill g (sub + rib) ce e) i j k Hsub Hs Hc) as [A B]. destruct (fill_exact g (sub + rib) ce e i j k ltac:(lra) Hs Hc) as [A' B'].
  fold top in A, B, A', B'. split; [auto |]. split; intro H; rewrite B by lra; [apply A' | apply B']; lra.
Qed.
Lemma no_substrate : forall g rib sub ce se e i j k, sub <= 0 ->
  layers g rib sub ce se e i j k = se /\ pattern_layers g sub rib ce se e i j k = se.
Proof.
  intros g rib sub ce se e i j k H. unfold layers, pattern_layers. split; unfold fill at 1, fill_last at 1; destruct (Rlt_dec 0 sub); try lra.
Qed.
Lemma up_last : forall g, (0 < g_ndim g <= 3)%nat -> up g = last_axis g.
Proof. intros g H. unfold up, last_axis. destruct (g_ndim g) as [| [| [| [| n]]]]; try reflexivity; lia. Qed.
Lemma top_last : forall g i j k, (0 < g_ndim g <= 3)%nat -> top g i j k = (IZR (zc (last_axis g) i j k) + 1) * g_spacing g (last_axis g).
Proof. intros g i j k H. unfold top. rewrite (up_last g H). destruct (last_axis g); reflexivity. Qed.
Lemma layers_exact_up : forall g rib sub ce se e i j k, (0 < g_ndim g <= 3)%nat -> 0 < rib -> 0 < sub -> 0 < g_spacing g (up g) -> cell g i j k ->
  (top g i j k <= sub -> layers g rib sub ce se e i j k = se) /\ (sub < top g i j k <= rib + sub -> layers g rib sub ce se e i j k = ce) /\
  (rib + sub < top g i j k -> layers g rib sub ce se e i j k = e i j k).
Proof. intros g rib sub ce se e i j k Hn Hr Hsub Hs Hc. rewrite top_last by auto. rewrite up_last in Hs by auto. apply layers_exact; auto. Qed.
Lemma pattern_layers_exact_up : forall g rib sub ce se e i j k, (0 < g_ndim g <= 3)%nat -> 0 <= rib -> 0 < sub -> 0 < g_spacing g (up g) -> cell g i j k ->
  (top g i j k <= sub -> pattern_layers g sub rib ce se e i j k = se) /\ (sub < top g i j k <= sub + rib -> pattern_layers g sub rib ce se e i j k = ce) /\
  (sub + rib < top g i j k -> pattern_layers g sub rib ce se e i j k = e i j k).
Proof. intros g rib sub ce se e i j k Hn Hr Hsub Hs Hc. rewrite top_last by auto. rewrite up_last in Hs by auto. apply pattern_layers_exact; auto. Qed.
Lemma dims_iff : forall height t, (exists n, pattern_dims height t = Some n) <-> (0 < height <-> 0 < t).
Proof.
  intros. unfold pattern_dims. destruct (Rlt_dec 0 t), (Rlt_dec 0 height); cbn [Nat.eqb]; split; intro H; try tauto;
  try (eexists; reflexivity); try (destruct H; discriminate).
Qed.

(** ** add *)
Lemma add_value_error : forall g pat np eps z t s, add g true pat np eps z t s = (ValueError, s).
Proof. reflexivity. Qed.
Lemma add_with_height : forall g pat np eps z t s, fst (add g false pat np eps (Some z) (Some t) s) = Done /\
  gs_ports (snd (add g false pat np eps (Some z) (Some t) s)) = repeat (z + t / 2, t) np /\
  gs_components (snd (add g false pat np eps (Some z) (Some t) s)) = S (gs_components s).
Proof. intros. unfold add. destruct (Nat.eqb (g_ndim g) 2); auto. Qed.
Lemma slice_two : forall a b n k, (0 <= a)%Z -> (0 <= b)%Z -> (0 <= k < n)%Z -> in_slice n a b k = (Z.leb a k && Z.ltb k b)%bool.
Proof.
  intros a b n k Ha Hb Hk. unfold in_slice, np_bound. destruct (Z.ltb_spec a 0); [lia |]. destruct (Z.ltb_spec b 0); [lia |].
  destruct (Z.leb_spec (Z.max 0 (Z.min n a)) k), (Z.leb_spec a k), (Z.ltb_spec k (Z.max 0 (Z.min n b))), (Z.ltb_spec k b); try reflexivity; exfalso; lia.
Qed.
Lemma add_cells : forall g pat np eps z t s i j k, g_ndim g = 3%nat -> 0 < g_spacing g AX -> 0 < g_spacing g AY -> 0 <= z -> 0 < t -> (0 <= k < g_shape g AZ)%Z ->
  let e := gs_eps (snd (add g false pat np eps (Some z) (Some t) s)) i j k in
  (pat i j = true -> z < (IZR k + 1) * g_spacing g AX -> (IZR k + 1) * g_spacing g AY <= z + t -> e = eps) /\
  (pat i j = false \/ (IZR k + 1) * g_spacing g AX <= z \/ z + t < (IZR k + 1) * g_spacing g AY -> e = gs_eps s i j k).
Proof.
  intros g pat np eps z t s i j k Hn HX HY Hz Ht Hk e. unfold e, add. rewrite Hn. cbn [Nat.eqb snd gs_eps].
  pose proof (trunc_scaled z (g_spacing g AX) Hz HX) as [A1 A2]. destruct (below_edge (z + t) (g_spacing g AY) k HY ltac:(lra) ltac:(lia)) as [B0 BE].
  set (a := trunc_z (z / g_spacing g AX)) in *. set (b := trunc_z ((z + t) / g_spacing g AY)) in *.
  assert (Ha : (0 <= a)%Z). { assert (Q : IZR (-1) < IZR a) by (change (IZR (-1)) with (-1); nra). apply lt_IZR in Q. lia. }
  rewrite slice_two by lia. split.
  - intros Hp H1 H2. rewrite Hp. apply BE in H2. rewrite H2. destruct (Z.leb_spec a k); [reflexivity |].
    exfalso. assert (Q : IZR (k + 1) <= IZR a) by (apply IZR_le; lia). rewrite plus_IZR in Q. nra.
  - intros [Hp | [H1 | H2]].
    + rewrite Hp. reflexivity.
    + destruct (Z.leb_spec a k); [| cbn [andb]; rewrite andb_false_r; reflexivity].
      exfalso. assert (Q : IZR a <= IZR k) by (apply IZR_le; lia). nra.
    + destruct (Z.ltb k b) eqn:E; [pose proof (proj1 BE eq_refl); lra |]. rewrite !andb_false_r. reflexivity.
Qed.
Lemma add_partial_2d : forall g pat np eps s i j k, g_ndim g = 2%nat -> (0 < np)%nat -> pat i j = true ->
  let r := add g false pat np eps None None s in
  fst r = TypeError /\ gs_eps (snd r) i j k = eps /\ gs_components (snd r) = S (gs_components s) /\ gs_ports (snd r) = gs_ports s.
Proof.
  intros g pat np eps s i j k Hn Hp Hpat r. unfold r, add. rewrite Hn. cbn [Nat.eqb]. destruct (Nat.eqb_spec np 0); [lia |].
  cbn [fst snd gs_eps gs_components gs_ports]. rewrite Hpat. auto.
Qed.
Lemma add_partial_3d : forall g pat np eps s, g_ndim g = 3%nat ->
  let r := add g false pat np eps None None s in
  fst r = TypeError /\ gs_eps (snd r) = gs_eps s /\ gs_components (snd r) = S (gs_components s).
Proof. intros g pat np eps s Hn r. unfold r, add. rewrite Hn. auto. Qed.

(** ** Shapes *)
Lemma filter_id : forall l, (forall n, In n l -> n <> 1%nat) -> squeeze l = l.
Proof.
  induction l as [| n l IH]; intro H; auto. cbn [squeeze filter]. destruct (Nat.eqb_spec n 1); [exfalso; apply (H n); auto; left; auto |].
  cbn [negb]. f_equal. apply IH. intros m Hm. apply H. right. auto.
Qed.
Lemma squeeze_shape3 : forall sh, squeeze (shape3_of sh) = squeeze sh.
Proof.
  intro sh. unfold shape3_of, squeeze. rewrite filter_app. replace (filter _ (repeat 1%nat (3 - length sh))) with (@nil nat); [apply app_nil_r |].
  induction (3 - length sh)%nat; auto.
Qed.
Lemma squeeze_len : forall l, (length (squeeze l) <= length l)%nat.
Proof. induction l as [| n l IH]; cbn [squeeze filter length]; auto. destruct (negb (Nat.eqb n 1)); cbn [length]; fold (squeeze l); lia. Qed.
Lemma squeeze_keeps_iff : forall sh, squeeze (shape3_of sh) = sh <-> (forall n, In n sh -> n <> 1%nat).
Proof.
  intro sh. rewrite squeeze_shape3. split; [| apply filter_id].
  intros H n Hn E. subst n. rewrite <- H in Hn. unfold squeeze in Hn. apply filter_In in Hn. destruct Hn as [_ Hn]. discriminate.
Qed.
Lemma fill_axis_shifts : fill_axis false [4; 1]%nat = Some 1%nat /\ fill_axis true [4; 1]%nat = Some 0%nat.
Proof. split; reflexivity. Qed.

(** ** Buffers *)
Lemma edits_other : forall es w g1 g2, g1 <> g2 -> (g1 < w_next w)%nat -> (g2 < w_next w)%nat ->
  w_mem (fst (apply_edits w g1 es)) g2 = w_mem w g2.
Proof.
  induction es as [| e es IH]; intros w g1 g2 Hne H1 H2; auto. cbn [apply_edits].
  destruct (apply_edit w g1 e) as [w' g'] eqn:E. destruct e as [f | f]; cbn [apply_edit] in E;
  assert (E1 : w' = fst (w', g')) by reflexivity; assert (E2 : g' = snd (w', g')) by reflexivity; rewrite <- E in E1, E2; cbn [fst snd] in E1, E2; subst w' g'; clear E.
  - rewrite IH; auto. cbn [w_mem]. destruct (Nat.eqb_spec g2 g1); [congruence | auto].
  - rewrite IH; cbn [w_next]; try lia. cbn [w_mem]. destruct (Nat.eqb_spec g2 (w_next w)); [lia | auto].
Qed.
Lemma scalar_fresh : forall w v g2 es, (g2 < w_next w)%nat ->
  let (w', g1) := new_scalar w v in w_mem (fst (apply_edits w' g1 es)) g2 = w_mem w g2.
Proof.
  intros w v g2 es H. unfold new_scalar. rewrite edits_other; cbn [w_next w_mem]; try lia.
  destruct (Nat.eqb_spec g2 (w_next w)); [lia | auto].
Qed.
Lemma shared_changes : forall w arr f c, (f (w_mem w arr) c <> w_mem w arr c) ->
  let (w1, ga) := new_from_array w arr in let (w2, gb) := new_from_array w1 arr in
  let (w3, _) := apply_edit w2 ga (InPlace f) in w_mem w3 gb c <> w_mem w2 gb c /\ w_mem w3 arr c <> w_mem w arr c.
Proof. intros w arr f c H. cbn [new_from_array apply_edit w_mem]. rewrite Nat.eqb_refl. auto. Qed.

(** ** Instances *)
Definition blk_design : design := mkDesign (mkBox (2, 2) (0, 0) 1) 12 (Some 3) 1 1 (3 / 2) (Some (mkBox (1, 1) (5, 5) 1, 4)) (1, 2) false (1 / 2).
Lemma geometry_instance : exists l, drawn (5, 5) blk_design = Some l /\ length l = 4%nat /\ 0 < d_gap blk_design.
Proof. eexists. split; [reflexivity |]. split; [reflexivity | cbn [blk_design d_gap]; lra]. Qed.
Lemma zero_height : forall ctr d l, d_wg_height d = Some 0 -> drawn ctr d = Some l -> exists w0 w1 bs, l = w0 :: w1 :: bs /\ snd (b_center (fst w0)) = snd ctr /\ snd (b_center (fst w1)) = snd ctr.
Proof.
  intros ctr d l Hh H. unfold drawn in H. destruct (blocks ctr d) as [bs |]; [| discriminate].
  exists (wg_left ctr d, d_wg_eps d), (wg_right ctr d, d_wg_eps d), bs. split; [symmetry; apply Some_inj_l; exact H |].
  assert (G : given_height d = None) by (unfold given_height; rewrite Hh; destruct (Req_EM_T 0 0); [reflexivity | lra]).
  pose proof (placed_bottom ctr d) as Hb. pose proof (placed_size ctr d) as Hs. rewrite (base_none ctr d G) in Hb.
  unfold wg_left, wg_right, translate, b_center. cbn [b_size b_min fst snd]. rewrite Hs, Hb. split; lra.
Qed.
Lemma layers_instance : 0 < 1 /\ 0 < 2 /\ 0 < g_spacing g10 (up g10) /\ cell g10 3%Z 1%Z 0%Z /\ cell g10 3%Z 2%Z 0%Z /\ cell g10 3%Z 5%Z 0%Z /\ layers g10 1 2 12 4 (fun _ _ _ => 1) 3%Z 1%Z 0%Z = 4 /\ layers g10 1 2 12 4 (fun _ _ _ => 1) 3%Z 2%Z 0%Z = 12 /\ layers g10 1 2 12 4 (fun _ _ _ => 1) 3%Z 5%Z 0%Z = 1.
Proof.
  assert (C : forall j, (0 <= j < 10)%Z -> cell g10 3%Z j 0%Z) by (intros j Hj a; destruct a; cbn [zcoord g10 g_shape]; lia).
  assert (S : g_spacing g10 (last_axis g10) = 1) by reflexivity. assert (Z : forall j, zc (last_axis g10) 3%Z j 0%Z = j) by reflexivity.
  assert (U : 0 < g_spacing g10 (up g10)) by (cbn; lra). repeat split; try exact U; try lra; try (apply C; lia).
  - destruct (layers_exact g10 1 2 12 4 (fun _ _ _ => 1) 3%Z 1%Z 0%Z) as [A _]; try lra; [apply C; lia |]. apply A. rewrite S, Z. lra.
  - destruct (layers_exact g10 1 2 12 4 (fun _ _ _ => 1) 3%Z 2%Z 0%Z) as [_ [A _]]; try lra; [apply C; lia |]. apply A. rewrite S, Z. lra.
  - destruct (layers_exact g10 1 2 12 4 (fun _ _ _ => 1) 3%Z 5%Z 0%Z) as [_ [_ A]]; try lra; [apply C; lia |]. apply A. rewrite S, Z. lra.
Qed.
Lemma dims_instance : pattern_dims 0 0 = Some 2%nat /\ pattern_dims 2 1 = Some 3%nat /\ pattern_dims 2 0 = None.
Proof. unfold pattern_dims. destruct (Rlt_dec 0 0), (Rlt_dec 0 2), (Rlt_dec 0 1); try lra; repeat split; reflexivity. Qed.
Lemma shared_instance : let w := mkWorld (fun _ _ => 1) 1%nat in (fun b (_ : nat) => b 0%nat + 1) (w_mem w 0%nat) 0%nat <> w_mem w 0%nat 0%nat.
Proof. cbn. lra. Qed.
Lemma buffers_instance : let w := mkWorld (fun _ _ => 1) 2%nat in
  w_mem (fst (apply_edits w 0%nat [InPlace (fun _ _ => 5); Fresh (fun b i => b i + 1); InPlace (fun b i => b i * 2)])) 1%nat 3%nat = 1 /\ w_mem (fst (apply_edits w 0%nat [InPlace (fun _ _ => 5); Fresh (fun b i => b i + 1); InPlace (fun b i => b i * 2)]))
    (snd (apply_edits w 0%nat [InPlace (fun _ _ => 5); Fresh (fun b i => b i + 1); InPlace (fun b i => b i * 2)])) 3%nat = 12.
Proof. cbn. split; lra. Qed.
