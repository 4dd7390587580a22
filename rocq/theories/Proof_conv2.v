(** Proofs for C159: differences of samples. *)
From Coq Require Import Reals Lra Lia Psatz List Arith Bool FunctionalExtensionality.
From Verif Require Import Cx Arr Model_yee Spec_yee Proof_yee Proof_yee2 Model_fdtd Spec_fdtd Proof_fdtd Spec_conv Proof_conv.
Import ListNotations.
Local Open Scope R_scope.

Lemma move_here : forall p a, move p a (p a) = p.
Proof. intros. apply functional_extensionality; intro b. unfold move. destruct a, b; reflexivity. Qed.
Lemma move_move : forall p a x y, move (move p a x) a y = move p a y.
Proof. intros. apply functional_extensionality; intro b. unfold move. destruct a, b; reflexivity. Qed.
Lemma move_at : forall p a x, move p a x a = x.
Proof. intros. unfold move. destruct a; reflexivity. Qed.
(** The indices (i, j, k) with the one along a replaced. *)
Definition at_idx {T} (F : nat -> nat -> nat -> T) (a : axis) (n i j k : nat) : T :=
  match a with AX => F n j k | AY => F i n k | AZ => F i j n end.
Definition shifted (off : axis -> R) (w : axis -> R) (i j k : nat) : place := fun a => (INR (index_along a i j k) + off a) * w a.
Lemma at_idx_place : forall off w a n i j k, at_idx (shifted off w) a n i j k = move (shifted off w i j k) a ((INR n + off a) * w a).
Proof. intros. apply functional_extensionality; intro b. unfold at_idx, shifted, move. destruct a, b; reflexivity. Qed.
Lemma width_pos : forall g a, wf_grid g -> 0 < width g a.
Proof. intros g a (_ & _ & H & _). unfold width. destruct (is_active g a) eqn:E; [apply H; exact E | lra]. Qed.
(** One period along a. *)
Lemma fits_period : forall g F c p t a, wf_grid g -> fits_grid g F -> F c (move p a (p a + INR (g_shape g a) * width g a)) t = F c p t.
Proof.
  intros g F c p t a _ Hf. destruct (Hf c p t a) as [A B]. unfold width. destruct (is_active g a) eqn:E; [apply A; reflexivity | apply B; reflexivity].
Qed.
Section Diff.
Variable g : fgrid.
Variable F : axis -> smooth_field.
Hypothesis (W : wf_grid g) (Hfit : fits_grid g F).
Variables (c : axis) (t : R) (off : axis -> R).
Let f : fld := fun i j k => RtoC (F c (shifted off (width g) i j k) t).
Lemma next_sample : forall a i j k, in_grid (g_shape g) i j k ->
  roll_m1 (g_shape g) a f i j k = RtoC (F c (move (shifted off (width g) i j k) a (shifted off (width g) i j k a + width g a)) t).
Proof.
  intros a i j k Hin. assert (R1 : roll_m1 (g_shape g) a f i j k = RtoC (F c (at_idx (shifted off (width g)) a (nxt (g_shape g a) (coord a i j k)) i j k) t)) by (destruct a; reflexivity).
  rewrite R1, at_idx_place. f_equal. set (p := shifted off (width g) i j k). assert (Pa : p a = (INR (coord a i j k) + off a) * width g a) by (destruct a; reflexivity).
  rewrite Pa. assert (Hlt : (coord a i j k < g_shape g a)%nat) by (destruct Hin as (A & B & C); destruct a; assumption). set (m := coord a i j k) in *. set (n := g_shape g a) in *. unfold nxt.
  destruct (Nat.eq_dec (m + 1) n) as [E | E].
  - rewrite E, Nat.mod_same by lia. cbn [INR]. rewrite <- (fits_period g F c _ t a W Hfit). rewrite move_move, move_at. fold n. do 2 f_equal. rewrite <- E, plus_INR. cbn [INR]. ring.
  - rewrite Nat.mod_small by lia. rewrite plus_INR. cbn [INR]. do 2 f_equal. ring.
Qed.
Lemma prev_sample : forall a i j k, in_grid (g_shape g) i j k ->
  roll_p1 (g_shape g) a f i j k = RtoC (F c (move (shifted off (width g) i j k) a (shifted off (width g) i j k a - width g a)) t).
Proof.
  intros a i j k Hin. assert (R1 : roll_p1 (g_shape g) a f i j k = RtoC (F c (at_idx (shifted off (width g)) a (prv (g_shape g a) (coord a i j k)) i j k) t)) by (destruct a; reflexivity).
  rewrite R1, at_idx_place. f_equal. set (p := shifted off (width g) i j k). assert (Pa : p a = (INR (coord a i j k) + off a) * width g a) by (destruct a; reflexivity).
  rewrite Pa. assert (Hlt : (coord a i j k < g_shape g a)%nat) by (destruct Hin as (A & B & C); destruct a; assumption). set (m := coord a i j k) in *. set (n := g_shape g a) in *. unfold prv.
  destruct (Nat.eq_dec m 0) as [E | E].
  - rewrite E. replace (0 + n - 1)%nat with (n - 1)%nat by lia. rewrite Nat.mod_small by lia. rewrite minus_INR by lia. cbn [INR].
    symmetry. rewrite <- (fits_period g F c _ t a W Hfit). rewrite move_move, move_at. fold n. do 2 f_equal. ring.
  - replace (m + n - 1)%nat with ((m - 1) + 1 * n)%nat by lia. rewrite Nat.mod_add, Nat.mod_small by lia. rewrite minus_INR by lia. cbn [INR]. do 2 f_equal. ring.
Qed.
(** Difference quotients of the samples approximate the derivative half a cell away. *)
Variables (M Dx : R) (D : axis -> axis -> smooth_field) (T : axis -> smooth_field).
Hypothesis (Hd : derivatives M F D T) (HD : forall a, is_active g a = true -> g_spacing g a <= Dx).
Lemma quotient_at : forall a p, Rabs ((F c (move p a (p a + width g a / 2)) t - F c (move p a (p a - width g a / 2)) t) / width g a - D c a p t) <= M * Dx ^ 2 / 24.
Proof.
  intros a p. destruct (Hd c p t) as [Hs Ht]. assert (M0 : 0 <= M).
  { destruct Ht as (f2 & f3 & _ & _ & _ & B). pose proof (B 0). pose proof (Rabs_pos (f3 0)). lra. }
  destruct (is_active g a) eqn:E.
  - pose proof (central M _ _ (p a) (width g a) (Hs a) (width_pos g a W)) as C. cbv beta in C. rewrite move_here in C. eapply Rle_trans; [exact C |].
    assert (0 < width g a <= Dx) by (split; [apply width_pos; exact W | unfold width; rewrite E; apply HD; exact E]).
    assert (width g a ^ 2 <= Dx ^ 2) by (cbn [pow]; nra). unfold Rdiv. apply Rmult_le_compat_r; [lra |]. apply Rmult_le_compat_l; lra.
  - assert (K : forall x, F c (move p a x) t = F c p t) by (intro x; apply (Hfit c p t a); exact E). rewrite !K.
    assert (Z : D c a p t = 0).
    { destruct (Hs a) as (f2 & f3 & H1 & _). pose proof (H1 (p a)) as L. cbv beta in L. rewrite move_here in L.
      assert (Q : (fun x => F c (move p a x) t) = fct_cte (F c p t)) by (apply functional_extensionality; intro x; apply K). rewrite Q in L.
      exact (uniqueness_limite _ _ _ _ L (derivable_pt_lim_const _ _)). }
    rewrite Z. replace ((F c p t - F c p t) / width g a - 0) with 0 by (unfold Rdiv; ring). rewrite Rabs_R0. pose proof (pow2_ge_0 Dx). nra.
Qed.
Lemma fwd_sample : forall a i j k, in_grid (g_shape g) i j k -> exists q, diff_fn (g_shape g) (g_dx g) false f a i j k = RtoC q /\
  Rabs (q - D c a (move (shifted off (width g) i j k) a (shifted off (width g) i j k a + width g a / 2)) t) <= M * Dx ^ 2 / 24.
Proof.
  intros a i j k Hin. set (p := shifted off (width g) i j k). pose proof (width_pos g a W) as Wp.
  exists ((F c (move p a (p a + width g a)) t - F c p t) / width g a). split.
  - unfold diff_fn. rewrite next_sample by exact Hin. fold p. unfold f. fold p. unfold g_dx, uniform_dx. fold (width g a).
    apply C_eq; unfold Cdiv, Cinv, Cn2; cbn [re im RtoC Csub Cmul Cadd Copp]; field; lra.
  - pose proof (quotient_at a (move p a (p a + width g a / 2))) as Q. rewrite !move_move, !move_at in Q.
    replace (p a + width g a / 2 + width g a / 2) with (p a + width g a) in Q by field. replace (p a + width g a / 2 - width g a / 2) with (p a) in Q by ring.
    rewrite (move_here p a) in Q. exact Q.
Qed.
Lemma bwd_sample : forall a i j k, in_grid (g_shape g) i j k -> exists q, diff_fn (g_shape g) (g_dx g) true f a i j k = RtoC q /\
  Rabs (q - D c a (move (shifted off (width g) i j k) a (shifted off (width g) i j k a - width g a / 2)) t) <= M * Dx ^ 2 / 24.
Proof.
  intros a i j k Hin. set (p := shifted off (width g) i j k). pose proof (width_pos g a W) as Wp.
  exists ((F c p t - F c (move p a (p a - width g a)) t) / width g a). split.
  - unfold diff_fn. rewrite prev_sample by exact Hin. fold p. unfold f. fold p. unfold g_dx, uniform_dx. fold (width g a).
    apply C_eq; unfold Cdiv, Cinv, Cn2; cbn [re im RtoC Csub Cmul Cadd Copp]; field; lra.
  - pose proof (quotient_at a (move p a (p a - width g a / 2))) as Q. rewrite !move_move, !move_at in Q.
    replace (p a - width g a / 2 + width g a / 2) with (p a) in Q by ring. replace (p a - width g a / 2 - width g a / 2) with (p a - width g a) in Q by field.
    rewrite (move_here p a) in Q. exact Q.
Qed.
End Diff.
Definition off_e (c a : axis) : R := if same_axis a c then 1 / 2 else 0.
Definition off_h (c a : axis) : R := if same_axis a c then 0 else 1 / 2.
(** The curl of the samples. *)
Lemma curl_e_samples : forall g F M Dx D T t c i j k, wf_grid g -> fits_grid g F -> derivatives M F D T ->
  (forall a, is_active g a = true -> g_spacing g a <= Dx) -> in_grid (g_shape g) i j k ->
  exists q, curl_e g (e_samples g F t) c i j k = RtoC q /\ Rabs (q - curl_of D c (h_place g c i j k) t) <= 2 * (M * Dx ^ 2 / 24).
Proof.
  intros g F M Dx D T t c i j k W Hfit Hd HD Hin.
  assert (P : forall c' a b, c' <> a -> b <> a -> b <> c' -> exists q, diff_fn (g_shape g) (g_dx g) false (e_samples g F t c') a i j k = RtoC q /\
            Rabs (q - D c' a (h_place g b i j k) t) <= M * Dx ^ 2 / 24).
  { intros c' a b N1 N2 N3. destruct (fwd_sample g F W Hfit c' t (off_e c') M Dx D T Hd HD a i j k Hin) as (q & Q1 & Q2). exists q. split; [exact Q1 |].
    replace (h_place g b i j k) with (move (shifted (off_e c') (width g) i j k) a (shifted (off_e c') (width g) i j k a + width g a / 2)); [exact Q2 |].
    apply functional_extensionality; intro x. unfold move, shifted, h_place, off_e. destruct c', a, b; try congruence; destruct x; cbn [same_axis index_along]; field. }
  unfold curl_e, curl_fn, curl_of. destruct c.
  - destruct (P AZ AY AX) as (q1 & A1 & A2); try discriminate. destruct (P AY AZ AX) as (q2 & B1 & B2); try discriminate. exists (q1 - q2). rewrite A1, B1, <- RtoC_sub. split; [reflexivity |].
    apply absle in A2, B2. apply Rabs_le. lra.
  - destruct (P AX AZ AY) as (q1 & A1 & A2); try discriminate. destruct (P AZ AX AY) as (q2 & B1 & B2); try discriminate. exists (q1 - q2). rewrite A1, B1, <- RtoC_sub. split; [reflexivity |].
    apply absle in A2, B2. apply Rabs_le. lra.
  - destruct (P AY AX AZ) as (q1 & A1 & A2); try discriminate. destruct (P AX AY AZ) as (q2 & B1 & B2); try discriminate. exists (q1 - q2). rewrite A1, B1, <- RtoC_sub. split; [reflexivity |].
    apply absle in A2, B2. apply Rabs_le. lra.
Qed.
Lemma curl_h_samples : forall g F M Dx D T t c i j k, wf_grid g -> fits_grid g F -> derivatives M F D T ->
  (forall a, is_active g a = true -> g_spacing g a <= Dx) -> in_grid (g_shape g) i j k ->
  exists q, curl_h g (h_samples g F t) c i j k = RtoC q /\ Rabs (q - curl_of D c (e_place g c i j k) t) <= 2 * (M * Dx ^ 2 / 24).
Proof.
  intros g F M Dx D T t c i j k W Hfit Hd HD Hin.
  assert (P : forall c' a b, c' <> a -> b <> a -> b <> c' -> exists q, diff_fn (g_shape g) (g_dx g) true (h_samples g F t c') a i j k = RtoC q /\
            Rabs (q - D c' a (e_place g b i j k) t) <= M * Dx ^ 2 / 24).
  { intros c' a b N1 N2 N3. destruct (bwd_sample g F W Hfit c' t (off_h c') M Dx D T Hd HD a i j k Hin) as (q & Q1 & Q2). exists q. split; [exact Q1 |].
    replace (e_place g b i j k) with (move (shifted (off_h c') (width g) i j k) a (shifted (off_h c') (width g) i j k a - width g a / 2)); [exact Q2 |].
    apply functional_extensionality; intro x. unfold move, shifted, e_place, off_h. destruct c', a, b; try congruence; destruct x; cbn [same_axis index_along]; field. }
  unfold curl_h, curl_fn, curl_of. destruct c.
  - destruct (P AZ AY AX) as (q1 & A1 & A2); try discriminate. destruct (P AY AZ AX) as (q2 & B1 & B2); try discriminate. exists (q1 - q2). rewrite A1, B1, <- RtoC_sub. split; [reflexivity |].
    apply absle in A2, B2. apply Rabs_le. lra.
  - destruct (P AX AZ AY) as (q1 & A1 & A2); try discriminate. destruct (P AZ AX AY) as (q2 & B1 & B2); try discriminate. exists (q1 - q2). rewrite A1, B1, <- RtoC_sub. split; [reflexivity |].
    apply absle in A2, B2. apply Rabs_le. lra.
  - destruct (P AY AX AZ) as (q1 & A1 & A2); try discriminate. destruct (P AX AY AZ) as (q2 & B1 & B2); try discriminate. exists (q1 - q2). rewrite A1, B1, <- RtoC_sub. split; [reflexivity |].
    apply absle in A2, B2. apply Rabs_le. lra.
Qed.
