(** Power flow through planes (C153). *)
From Coq Require Import Reals Lra Lia List Arith Bool FunctionalExtensionality.
From Verif Require Import Cx Arr Model_coupling Model_yee Spec_yee Model_fdfd Spec_fdfd Spec_absorb.
Local Open Scope R_scope.

(** Summation by parts on a ring. *)
Lemma ring_parts : forall n (f g : nat -> C), Csum n (fun m => f (succ_p n m) * g m)%C = Csum n (fun m => f m * g (pred_p n m))%C.
Proof.
  intros [| n] f g; [reflexivity |]. rewrite (Csum_shift n (fun m => f m * g (pred_p (Datatypes.S n) m))%C). cbn [Csum pred_p].
  replace (Datatypes.S n - 1)%nat with n by lia.
  rewrite (Csum_ext n (fun m => f (succ_p (Datatypes.S n) m) * g m)%C (fun m => f (Datatypes.S m) * g m)%C).
  - unfold succ_p. rewrite (proj2 (Nat.eqb_eq (n + 1) (Datatypes.S n))) by lia. ring.
  - intros m Hm. unfold succ_p. destruct (Nat.eqb_spec (m + 1) (Datatypes.S n)); [lia |]. replace (m + 1)%nat with (Datatypes.S m) by lia. reflexivity.
Qed.
Lemma parts : forall n (w : C) (f g : nat -> C),
  Csum n (fun m => (f (succ_p n m) - f m) / w * g m)%C = (- Csum n (fun m => f m * ((g m - g (pred_p n m)) / w)))%C.
Proof.
  intros n w f g.
  rewrite (Csum_ext n _ (fun m => (f (succ_p n m) * g m - f m * g m) * Cinv w)%C) by (intros; unfold Cdiv; ring).
  rewrite (Csum_ext n (fun m => f m * ((g m - g (pred_p n m)) / w))%C (fun m => (f m * g m - f m * g (pred_p n m)) * Cinv w)%C) by (intros; unfold Cdiv; ring).
  rewrite !Csum_scal_r, !Csum_sub, ring_parts. ring.
Qed.
Lemma parts_conj : forall n (w : R) (f g : nat -> C),
  Csum n (fun m => (f (succ_p n m) - f m) / RtoC w * Cconj (g m))%C = (- Csum n (fun m => f m * Cconj ((g m - g (pred_p n m)) / RtoC w)))%C.
Proof.
  intros n w f g. rewrite (parts n (RtoC w) f (fun m => Cconj (g m))). f_equal. apply Csum_ext. intros m _. f_equal.
  unfold Cdiv. rewrite Cconj_mul, Cconj_sub. f_equal. apply C_eq; unfold Cinv; cbn; unfold Rdiv; ring.
Qed.
(** Complex sums over the plane i across x. *)
Definition psum (s : shape3) (f : nat -> nat -> C) : C := Csum (s AY) (fun j => Csum (s AZ) (fun k => f j k)).
Lemma psum_ext : forall s f g, (forall j k, (j < s AY)%nat -> (k < s AZ)%nat -> f j k = g j k) -> psum s f = psum s g.
Proof. intros s f g H. unfold psum. apply Csum_ext. intros j Hj. apply Csum_ext. intros k Hk. auto. Qed.
Lemma psum_add : forall s f g, psum s (fun j k => f j k + g j k)%C = (psum s f + psum s g)%C.
Proof. intros. unfold psum. rewrite <- Csum_add. apply Csum_ext. intros. apply Csum_add. Qed.
Lemma psum_sub : forall s f g, psum s (fun j k => f j k - g j k)%C = (psum s f - psum s g)%C.
Proof. intros. unfold psum. rewrite <- Csum_sub. apply Csum_ext. intros. apply Csum_sub. Qed.
Lemma psum_scal : forall s c f, psum s (fun j k => c * f j k)%C = (c * psum s f)%C.
Proof. intros. unfold psum. rewrite <- Csum_scal. apply Csum_ext. intros. apply Csum_scal. Qed.
Lemma psum_y : forall s dxf dxb (w : R) f g i, (i < s AX)%nat -> (forall m, (m < s AY)%nat -> dxf AY m = RtoC w /\ dxb AY m = RtoC w) ->
  psum s (fun j k => fwd s dxf f AY i j k * Cconj (g i j k))%C = (- psum s (fun j k => f i j k * Cconj (bwd s dxb g AY i j k)))%C.
Proof.
  intros s dxf dxb w f g i Hi Hw. unfold psum. rewrite Csum_swap. rewrite (Csum_swap (s AY) (s AZ) (fun j k => f i j k * Cconj (bwd s dxb g AY i j k))%C).
  transitivity (Csum (s AZ) (fun k => - Csum (s AY) (fun j => f i j k * Cconj (bwd s dxb g AY i j k)))%C).
  - apply Csum_ext. intros k Hk. pose proof (parts_conj (s AY) w (fun j => f i j k) (fun j => g i j k)) as P.
    transitivity (Csum (s AY) (fun m => (f i (succ_p (s AY) m) k - f i m k) / RtoC w * Cconj (g i m k))%C).
    + apply Csum_ext. intros j Hj. unfold fwd. cbn [coord at_coord]. rewrite (proj1 (Hw j Hj)). reflexivity.
    + rewrite P. f_equal. apply Csum_ext. intros j Hj. unfold bwd. cbn [coord at_coord]. rewrite (proj2 (Hw j Hj)). reflexivity.
  - rewrite (Csum_ext (s AZ) _ (fun k => (- C1) * Csum (s AY) (fun j => f i j k * Cconj (bwd s dxb g AY i j k)))%C) by (intros; ring). rewrite Csum_scal. ring.
Qed.
Lemma psum_z : forall s dxf dxb (w : R) f g i, (i < s AX)%nat -> (forall m, (m < s AZ)%nat -> dxf AZ m = RtoC w /\ dxb AZ m = RtoC w) ->
  psum s (fun j k => fwd s dxf f AZ i j k * Cconj (g i j k))%C = (- psum s (fun j k => f i j k * Cconj (bwd s dxb g AZ i j k)))%C.
Proof.
  intros s dxf dxb w f g i Hi Hw. unfold psum.
  transitivity (Csum (s AY) (fun j => - Csum (s AZ) (fun k => f i j k * Cconj (bwd s dxb g AZ i j k)))%C).
  - apply Csum_ext. intros j Hj. pose proof (parts_conj (s AZ) w (fun k => f i j k) (fun k => g i j k)) as P.
    transitivity (Csum (s AZ) (fun m => (f i j (succ_p (s AZ) m) - f i j m) / RtoC w * Cconj (g i j m))%C).
    + apply Csum_ext. intros k Hk. unfold fwd. cbn [coord at_coord]. rewrite (proj1 (Hw k Hk)). reflexivity.
    + rewrite P. f_equal. apply Csum_ext. intros k Hk. unfold bwd. cbn [coord at_coord]. rewrite (proj2 (Hw k Hk)). reflexivity.
  - rewrite (Csum_ext (s AY) _ (fun j => (- C1) * Csum (s AZ) (fun k => f i j k * Cconj (bwd s dxb g AZ i j k)))%C) by (intros; ring). rewrite Csum_scal. ring.
Qed.
Lemma Cmul_conj : forall z, (z * Cconj z)%C = RtoC (Cn2 z).
Proof. intro z. apply C_eq; unfold Cn2; cbn; ring. Qed.
Lemma pred_succ : forall n m, (m < n)%nat -> pred_p n (succ_p n m) = m.
Proof. intros n m H. unfold succ_p. destruct (Nat.eqb_spec (m + 1) n); [cbn; lia |]. replace (m + 1)%nat with (Datatypes.S m) by lia. reflexivity. Qed.
Lemma succ_lt : forall n m, (m < n)%nat -> (succ_p n m < n)%nat.
Proof. intros n m H. unfold succ_p. destruct (Nat.eqb_spec (m + 1) n); lia. Qed.
Section AlongX.
Variables (s : shape3) (dxf dxb : pixel) (k0 : R) (eps : axis -> rfld) (e h src : vfld).
Hypothesis FA : faraday s dxf k0 e h.
Hypothesis AM : ampere s dxb k0 eps e h src.
Variables (wy wz : R).
Hypothesis HY : forall m, (m < s AY)%nat -> dxf AY m = RtoC wy /\ dxb AY m = RtoC wy.
Hypothesis HZ : forall m, (m < s AZ)%nat -> dxf AZ m = RtoC wz /\ dxb AZ m = RtoC wz.
Hypothesis NF : forall m, (m < s AX)%nat -> dxf AX m <> C0.
Hypothesis NB : forall m, (m < s AX)%nat -> dxb AX m <> C0.
(** Poynting sums: E at plane i, H at plane p. *)
Definition SA (i p : nat) : C := psum s (fun j k => e AY i j k * Cconj (h AZ p j k) - e AZ i j k * Cconj (h AY p j k))%C.
Lemma half_e : forall i, (i < s AX)%nat -> (SA (succ_p (s AX) i) i - SA i i)%C =
  (Ci * dxf AX i * (RtoC k0 * psum s (fun j k => RtoC (Cn2 (h AY i j k)) + RtoC (Cn2 (h AZ i j k)) - RtoC (eps AX i j k) * RtoC (Cn2 (e AX i j k))) - psum s (fun j k => e AX i j k * Cconj (src AX i j k))))%C.
Proof.
  intros i Hi. unfold SA. rewrite <- psum_sub.
  transitivity (psum s (fun j k => dxf AX i * (Ci * RtoC k0 * (RtoC (Cn2 (h AY i j k)) + RtoC (Cn2 (h AZ i j k))) + fwd s dxf (e AX) AY i j k * Cconj (h AZ i j k) - fwd s dxf (e AX) AZ i j k * Cconj (h AY i j k)))%C).
  { apply psum_ext. intros j k Hj Hk. assert (I : in_grid s i j k) by (repeat split; auto).
    pose proof (FA AZ i j k I) as Fz. pose proof (FA AY i j k I) as Fy. cbn [curl_of] in Fz, Fy.
    assert (Ez : (e AY (succ_p (s AX) i) j k = e AY i j k + dxf AX i * (Ci * RtoC k0 * h AZ i j k + fwd s dxf (e AX) AY i j k))%C).
    { rewrite <- Fz. unfold fwd at 1. cbn [coord at_coord]. field. auto. }
    assert (Ey : (e AZ (succ_p (s AX) i) j k = e AZ i j k + dxf AX i * (fwd s dxf (e AX) AZ i j k - Ci * RtoC k0 * h AY i j k))%C).
    { rewrite <- Fy. unfold fwd at 3. cbn [coord at_coord]. field. auto. }
    rewrite Ez, Ey, <- !Cmul_conj. ring. }
  rewrite psum_scal, psum_sub, psum_add, psum_scal. rewrite (psum_y s dxf dxb wy), (psum_z s dxf dxb wz) by auto.
  transitivity (dxf AX i * (Ci * RtoC k0 * psum s (fun j k => RtoC (Cn2 (h AY i j k)) + RtoC (Cn2 (h AZ i j k))) - psum s (fun j k => e AX i j k * Cconj (bwd s dxb (h AZ) AY i j k - bwd s dxb (h AY) AZ i j k))))%C.
  { rewrite (psum_ext s (fun j k => e AX i j k * Cconj (bwd s dxb (h AZ) AY i j k - bwd s dxb (h AY) AZ i j k))%C (fun j k => e AX i j k * Cconj (bwd s dxb (h AZ) AY i j k) - e AX i j k * Cconj (bwd s dxb (h AY) AZ i j k))%C) by (intros; rewrite Cconj_sub; ring).
    rewrite psum_sub. ring. }
  rewrite (psum_ext s (fun j k => e AX i j k * Cconj (bwd s dxb (h AZ) AY i j k - bwd s dxb (h AY) AZ i j k))%C
    (fun j k => Ci * (RtoC k0 * (RtoC (eps AX i j k) * RtoC (Cn2 (e AX i j k))) + e AX i j k * Cconj (src AX i j k)))%C).
  2: { intros j k Hj Hk. assert (I : in_grid s i j k) by (repeat split; auto). pose proof (AM AX i j k I) as A. cbn [curl_of] in A. rewrite A.
       rewrite Cconj_sub, Cconj_opp, !Cconj_mul, !Cconj_RtoC, Cconj_Ci, <- Cmul_conj. ring. }
  rewrite psum_scal, psum_sub, !psum_add, psum_scal. ring.
Qed.
Lemma half_h : forall i, (i < s AX)%nat -> let i' := succ_p (s AX) i in (SA i' i' - SA i' i)%C =
  (Ci * Cconj (dxb AX i') * (RtoC k0 * psum s (fun j k => RtoC (Cn2 (h AX i' j k)) - RtoC (eps AY i' j k) * RtoC (Cn2 (e AY i' j k)) - RtoC (eps AZ i' j k) * RtoC (Cn2 (e AZ i' j k))) -
     psum s (fun j k => e AY i' j k * Cconj (src AY i' j k) + e AZ i' j k * Cconj (src AZ i' j k))))%C.
Proof.
  intros i Hi i'. assert (Hi' : (i' < s AX)%nat) by (apply succ_lt; auto). assert (Ep : pred_p (s AX) i' = i) by (apply pred_succ; auto). unfold SA. rewrite <- psum_sub.
  transitivity (psum s (fun j k => Cconj (dxb AX i') * (e AY i' j k * Cconj (bwd s dxb (h AX) AZ i' j k) - e AZ i' j k * Cconj (bwd s dxb (h AX) AY i' j k)
     - Ci * (RtoC k0 * (RtoC (eps AY i' j k) * RtoC (Cn2 (e AY i' j k)) + RtoC (eps AZ i' j k) * RtoC (Cn2 (e AZ i' j k))) + (e AY i' j k * Cconj (src AY i' j k) + e AZ i' j k * Cconj (src AZ i' j k)))))%C).
  { apply psum_ext. intros j k Hj Hk. assert (I : in_grid s i' j k) by (repeat split; auto).
    pose proof (AM AZ i' j k I) as Fz. pose proof (AM AY i' j k I) as Fy. cbn [curl_of] in Fz, Fy.
    assert (Ez : (h AZ i' j k - h AZ i j k = dxb AX i' * (bwd s dxb (h AX) AZ i' j k + Ci * RtoC k0 * RtoC (eps AY i' j k) * e AY i' j k + Ci * src AY i' j k))%C).
    { transitivity (dxb AX i' * (bwd s dxb (h AX) AZ i' j k - (- (Ci * RtoC k0 * RtoC (eps AY i' j k) * e AY i' j k) - Ci * src AY i' j k)))%C; [| ring].
      rewrite <- Fy. unfold bwd at 3. cbn [coord at_coord]. rewrite Ep. field. auto. }
    assert (Ey : (h AY i' j k - h AY i j k = dxb AX i' * (bwd s dxb (h AX) AY i' j k - Ci * RtoC k0 * RtoC (eps AZ i' j k) * e AZ i' j k - Ci * src AZ i' j k))%C).
    { transitivity (dxb AX i' * (bwd s dxb (h AX) AY i' j k + (- (Ci * RtoC k0 * RtoC (eps AZ i' j k) * e AZ i' j k) - Ci * src AZ i' j k)))%C; [| ring].
      rewrite <- Fz. unfold bwd at 2. cbn [coord at_coord]. rewrite Ep. field. auto. }
    transitivity (e AY i' j k * Cconj (h AZ i' j k - h AZ i j k) - e AZ i' j k * Cconj (h AY i' j k - h AY i j k))%C; [rewrite !Cconj_sub; ring |].
    rewrite Ez, Ey, <- !Cmul_conj. rewrite !Cconj_mul, !Cconj_sub, !Cconj_add, !Cconj_mul, !Cconj_RtoC, Cconj_Ci. ring. }
  rewrite psum_scal, psum_sub, psum_sub, psum_scal, psum_add, psum_scal.
  assert (P1 := psum_y s dxf dxb wy (e AZ) (h AX) i' Hi' HY). assert (P2 := psum_z s dxf dxb wz (e AY) (h AX) i' Hi' HZ).
  assert (P : (psum s (fun j k => e AY i' j k * Cconj (bwd s dxb (h AX) AZ i' j k)) - psum s (fun j k => e AZ i' j k * Cconj (bwd s dxb (h AX) AY i' j k)) = Ci * RtoC k0 * psum s (fun j k => RtoC (Cn2 (h AX i' j k))))%C).
  { transitivity (psum s (fun j k => (fwd s dxf (e AZ) AY i' j k - fwd s dxf (e AY) AZ i' j k) * Cconj (h AX i' j k))%C).
    - rewrite (psum_ext s (fun j k => (fwd s dxf (e AZ) AY i' j k - fwd s dxf (e AY) AZ i' j k) * Cconj (h AX i' j k))%C (fun j k => fwd s dxf (e AZ) AY i' j k * Cconj (h AX i' j k) - fwd s dxf (e AY) AZ i' j k * Cconj (h AX i' j k))%C) by (intros; ring).
      rewrite psum_sub, P1, P2. ring.
    - rewrite <- psum_scal. apply psum_ext. intros j k Hj Hk. assert (I : in_grid s i' j k) by (repeat split; auto). pose proof (FA AX i' j k I) as F. cbn [curl_of] in F. rewrite F, <- Cmul_conj. ring. }
  rewrite P, !psum_sub. rewrite psum_add. ring.
Qed.
End AlongX.

Lemma re_psum : forall s f, re (psum s f) = Rsum (s AY) (fun j => Rsum (s AZ) (fun k => re (f j k))).
Proof. intros. unfold psum. rewrite re_Csum. apply Rsum_ext. intros. apply re_Csum. Qed.
Lemma Rplane_scal : forall s i c f, plane s AX i (fun i j k => c * f i j k) = c * plane s AX i f.
Proof. intros. cbn [plane]. rewrite <- Rsum_scal. apply Rsum_ext. intros. apply Rsum_scal. Qed.
Lemma power_SA : forall s e h i, power_through s e h AX i = - re (SA s e h i i).
Proof.
  intros. unfold power_through, SA. cbn [after plane]. rewrite re_psum.
  replace (- Rsum (s AY) (fun j => Rsum (s AZ) (fun k => re (e AY i j k * Cconj (h AZ i j k) - e AZ i j k * Cconj (h AY i j k))%C)))
    with (-1 * Rsum (s AY) (fun j => Rsum (s AZ) (fun k => re (e AY i j k * Cconj (h AZ i j k) - e AZ i j k * Cconj (h AY i j k))%C))) by ring.
  rewrite <- Rsum_scal. apply Rsum_ext. intros j _. rewrite <- Rsum_scal. apply Rsum_ext. intros k _. ring.
Qed.
Lemma re_real : forall (c : C) (x : R), re (c * RtoC x)%C = re c * x.
Proof. intros. cbn. ring. Qed.
Lemma psum_real : forall s f, psum s (fun j k => RtoC (f j k)) = RtoC (Rsum (s AY) (fun j => Rsum (s AZ) (fun k => f j k))).
Proof. intros. unfold psum. rewrite Csum_RtoC. apply Csum_ext. intros. symmetry. apply Csum_RtoC. Qed.
Lemma balance_x : forall s dxf dxb k0 eps e h src m, faraday s dxf k0 e h -> ampere s dxb k0 eps e h src ->
  real_axis s dxf dxb AY -> real_axis s dxf dxb AZ -> (forall m, (m < s AX)%nat -> dxf AX m <> C0 /\ dxb AX m <> C0) -> (m < s AX)%nat ->
  let m' := succ_p (s AX) m in
  power_through s e h AX m' = power_through s e h AX m + im (dxf AX m) * taken_h s k0 eps e h AX m + im (dxb AX m') * taken_e s k0 eps e h AX m' +
    given_n s dxf e src AX m + given_t s dxb e src AX m'.
Proof.
  intros s dxf dxb k0 eps e h src m FA AM (wy & _ & HY) (wz & _ & HZ) NZ Hm m'. rewrite !power_SA.
  pose proof (half_e s dxf dxb k0 eps e h src FA AM wy wz HY HZ (fun m H => proj1 (NZ m H)) m Hm) as E.
  pose proof (half_h s dxf dxb k0 eps e h src FA AM wy wz HY HZ (fun m H => proj2 (NZ m H)) m Hm) as H. cbv zeta in H. fold m' in E, H.
  assert (ER := f_equal re E). assert (HR := f_equal re H). clear E H. 
  assert (EL : re (SA s e h m' m - SA s e h m m)%C = re (SA s e h m' m) - re (SA s e h m m)) by reflexivity. rewrite EL in ER. clear EL.
  assert (HL : re (SA s e h m' m' - SA s e h m' m)%C = re (SA s e h m' m') - re (SA s e h m' m)) by reflexivity. rewrite HL in HR. clear HL.
  set (W1 := psum s (fun j k => e AX m j k * Cconj (src AX m j k))%C) in ER.
  set (W2 := psum s (fun j k => e AY m' j k * Cconj (src AY m' j k) + e AZ m' j k * Cconj (src AZ m' j k))%C) in HR.
  assert (G1 : given_n s dxf e src AX m = re (Ci * dxf AX m * W1)%C).
  { unfold given_n, W1. cbn [plane]. rewrite <- psum_scal, re_psum. reflexivity. }
  assert (G2 : given_t s dxb e src AX m' = re (Ci * Cconj (dxb AX m') * W2)%C).
  { unfold given_t, W2. cbn [plane after]. rewrite <- psum_scal, re_psum. reflexivity. }
  rewrite (psum_ext s _ (fun j k => RtoC (Cn2 (h AY m j k) + Cn2 (h AZ m j k) - eps AX m j k * Cn2 (e AX m j k)))) in ER
    by (intros; rewrite RtoC_sub, RtoC_add, RtoC_mul; reflexivity).
  rewrite psum_real, <- RtoC_mul in ER.
  rewrite (psum_ext s (fun j k => RtoC (Cn2 (h AX m' j k)) - RtoC (eps AY m' j k) * RtoC (Cn2 (e AY m' j k)) - RtoC (eps AZ m' j k) * RtoC (Cn2 (e AZ m' j k)))%C
    (fun j k => RtoC (-1 * (eps AY m' j k * Cn2 (e AY m' j k) + eps AZ m' j k * Cn2 (e AZ m' j k) - Cn2 (h AX m' j k))))) in HR.
  2: { intros. rewrite <- !RtoC_mul, <- !RtoC_sub. f_equal. ring. }
  rewrite psum_real, <- RtoC_mul in HR.
  assert (T1 : taken_h s k0 eps e h AX m = k0 * Rsum (s AY) (fun j => Rsum (s AZ) (fun k => Cn2 (h AY m j k) + Cn2 (h AZ m j k) - eps AX m j k * Cn2 (e AX m j k)))) by reflexivity.
  assert (T2 : taken_e s k0 eps e h AX m' = - (k0 * Rsum (s AY) (fun j => Rsum (s AZ) (fun k => -1 * (eps AY m' j k * Cn2 (e AY m' j k) + eps AZ m' j k * Cn2 (e AZ m' j k) - Cn2 (h AX m' j k)))))).
  { pose proof (Rplane_scal s m' (-1) (fun i j k => eps AY i j k * Cn2 (e AY i j k) + eps AZ i j k * Cn2 (e AZ i j k) - Cn2 (h AX i j k))) as Q. cbn [plane] in Q.
    rewrite Q. unfold taken_e. cbn [plane after]. ring. }
  rewrite T1, T2, G1, G2. clear T1 T2 G1 G2.
  set (U := k0 * Rsum _ _) in *. set (V := k0 * Rsum _ _) in HR |- *.
  assert (E2 : re (Ci * dxf AX m * (RtoC U - W1))%C = - im (dxf AX m) * U - re (Ci * dxf AX m * W1)%C) by (cbn; ring).
  assert (H2 : re (Ci * Cconj (dxb AX m') * (RtoC V - W2))%C = im (dxb AX m') * V - re (Ci * Cconj (dxb AX m') * W2)%C) by (cbn; ring).
  rewrite E2 in ER. rewrite H2 in HR. lra.
Qed.
(** A cyclic change of the axes. *)
Definition ts (s : shape3) : shape3 := fun c => s (after c).
Definition td (dx : pixel) : pixel := fun c => dx (after c).
Definition te (x : axis -> rfld) : axis -> rfld := fun c i j k => x (after c) k i j.
Definition tv (v : vfld) : vfld := fun c i j k => v (after c) k i j.
Lemma turn_f : forall s dxf k0 e h, faraday s dxf k0 e h -> faraday (ts s) (td dxf) k0 (tv e) (tv h).
Proof. intros s dxf k0 e h F c i j k I. assert (I' : in_grid s k i j) by (destruct I as (? & ? & ?); repeat split; auto). destruct c; [exact (F AY k i j I') | exact (F AZ k i j I') | exact (F AX k i j I')]. Qed.
Lemma turn_a : forall s dxb k0 eps e h src, ampere s dxb k0 eps e h src -> ampere (ts s) (td dxb) k0 (te eps) (tv e) (tv h) (tv src).
Proof. intros s dxb k0 eps e h src F c i j k I. assert (I' : in_grid s k i j) by (destruct I as (? & ? & ?); repeat split; auto). destruct c; [exact (F AY k i j I') | exact (F AZ k i j I') | exact (F AX k i j I')]. Qed.
Lemma balance_plane : forall s dxf dxb k0 eps e h src a m, faraday s dxf k0 e h -> ampere s dxb k0 eps e h src ->
  (forall b, b <> a -> real_axis s dxf dxb b) -> (forall m, (m < s a)%nat -> dxf a m <> C0 /\ dxb a m <> C0) -> (m < s a)%nat ->
  let m' := succ_p (s a) m in
  power_through s e h a m' = power_through s e h a m + im (dxf a m) * taken_h s k0 eps e h a m + im (dxb a m') * taken_e s k0 eps e h a m' +
    given_n s dxf e src a m + given_t s dxb e src a m'.
Proof.
  intros s dxf dxb k0 eps e h src a m F A RA NZ Hm. destruct a.
  - apply balance_x; auto; apply RA; discriminate.
  - apply (balance_x (ts s) (td dxf) (td dxb) k0 (te eps) (tv e) (tv h) (tv src) m (turn_f _ _ _ _ _ F) (turn_a _ _ _ _ _ _ _ A)); auto.
    + exact (RA AZ ltac:(discriminate)).
    + exact (RA AX ltac:(discriminate)).
  - apply (balance_x (ts (ts s)) (td (td dxf)) (td (td dxb)) k0 (te (te eps)) (tv (tv e)) (tv (tv h)) (tv (tv src)) m (turn_f _ _ _ _ _ (turn_f _ _ _ _ _ F)) (turn_a _ _ _ _ _ _ _ (turn_a _ _ _ _ _ _ _ A))); auto.
    + exact (RA AX ltac:(discriminate)).
    + exact (RA AY ltac:(discriminate)).
Qed.
