(** Plane waves and the FDFD operators. *)
From Coq Require Import Reals Lra Lia List Arith Bool FunctionalExtensionality.
From Verif Require Import Cx Arr Model_coupling Model_yee Spec_yee Proof_yee Proof_yee2 Model_fdfd Proof_fdfd Spec_fdtd Spec_disp.
Import ListNotations.
Local Open Scope R_scope.

Section Bloch.
Variables (s : shape3) (sp th : axis -> R) (bl : axis -> C).
Hypothesis Hs : positive_shape s.
Hypothesis Hsp : forall a, sp a <> 0.
Hypothesis Hfit : fits s bl th.
Hypothesis Hone : forall a, s a = 1%nat -> bl a = C1.
Let w := bloch_wave th.
Lemma one_cell : forall a, s a = 1%nat -> cis (th a) = C1.
Proof. intros a E. rewrite <- (Hone a E), <- (Hfit a), E. simpl (INR 1). f_equal. ring. Qed.
Definition cax (a : axis) (i j k : nat) : C := match a with AX => cis (th AY * INR j) * cis (th AZ * INR k) | AY => cis (th AX * INR i) * cis (th AZ * INR k) | AZ => cis (th AX * INR i) * cis (th AY * INR j) end%C.
Lemma w_line : forall a A i j k n, line a (fun i j k => A * w i j k)%C i j k n = (A * cax a i j k * cis (th a * INR n))%C.
Proof. intros. unfold line, w, bloch_wave, cax. destruct a; rewrite !cis_add; ring. Qed.
Lemma w_split : forall a i j k, w i j k = (cax a i j k * cis (th a * INR (coord a i j k)))%C.
Proof. intros. unfold w, bloch_wave, cax, coord. destruct a; rewrite !cis_add; ring. Qed.
Definition pp (a : axis) : C := ((cis (th a) - C1) / RtoC (sp a))%C.
Definition qq (a : axis) : C := ((C1 - cis (- th a)) / RtoC (sp a))%C.
Lemma coord_in : forall a i j k, in_grid s i j k -> (coord a i j k < s a)%nat.
Proof. intros a i j k (A & B & D). destruct a; auto. Qed.
Lemma quot_f : forall A a i j k, in_grid s i j k ->
  quot s (uniform_dx sp) bl false a (fun i j k => A * w i j k)%C i j k = (pp a * A * w i j k)%C.
Proof.
  intros A a i j k H. pose proof (coord_in a i j k H) as Hc. unfold quot, fwd_quot, uniform_dx, pp. rewrite (w_split a i j k). set (n := coord a i j k) in *.
  destruct (Nat.eqb_spec (s a) 1) as [E | E].
  - rewrite one_cell by auto. unfold Cdiv. ring.
  - unfold right_of. destruct (Nat.eqb_spec (n + 1) (s a)) as [E2 | E2]; rewrite !w_line.
    + rewrite <- (Hfit a), <- E2. rewrite plus_INR. simpl (INR 1). simpl (INR 0). rewrite Rmult_0_r, cis_0, Rmult_plus_distr_l, cis_add, Rmult_1_r.
      unfold Cdiv. ring.
    + rewrite plus_INR. simpl (INR 1). rewrite Rmult_plus_distr_l, cis_add, Rmult_1_r. unfold Cdiv. ring.
Qed.
Lemma quot_b : forall A a i j k, in_grid s i j k ->
  quot s (uniform_dx sp) bl true a (fun i j k => A * w i j k)%C i j k = (qq a * A * w i j k)%C.
Proof.
  intros A a i j k H. pose proof (coord_in a i j k H) as Hc. unfold quot, bwd_quot, uniform_dx, qq. rewrite (w_split a i j k). set (n := coord a i j k) in *.
  destruct (Nat.eqb_spec (s a) 1) as [E | E].
  - rewrite cis_opp, one_cell by auto. unfold Cdiv. replace (C1 - Cconj C1)%C with C0 by (apply C_eq; cbn; ring). ring.
  - unfold left_of. destruct n as [| n]; rewrite !w_line.
    + rewrite <- (Hfit a), <- cis_opp. simpl (INR 0). rewrite Rmult_0_r, cis_0, minus_INR by lia. simpl (INR 1).
      assert (Q : (cis (- (th a * INR (s a))) * cis (th a * (INR (s a) - 1)))%C = cis (- th a)) by (rewrite <- cis_add; f_equal; ring).
      unfold Cdiv. rewrite <- Q. ring.
    + rewrite S_INR. assert (Q : cis (th a * INR n) = (cis (- th a) * cis (th a * (INR n + 1)))%C) by (rewrite <- cis_add; f_equal; ring).
      rewrite Q. unfold Cdiv. ring.
Qed.
Lemma pq : forall a, (qq a * pp a)%C = RtoC (- (2 * sin (th a / 2) / sp a) ^ 2).
Proof.
  intro a. pose proof (Hsp a) as H. unfold qq, pp, Cdiv. rewrite cis_opp. rewrite <- RtoC_inv by auto.
  replace ((C1 - Cconj (cis (th a))) * RtoC (/ sp a) * ((cis (th a) - C1) * RtoC (/ sp a)))%C with
    ((cis (th a) + Cconj (cis (th a)) - C1 - Cconj (cis (th a)) * cis (th a)) * RtoC (/ sp a * / sp a))%C by (rewrite RtoC_mul; ring).
  rewrite cis_conj_l. replace (cis (th a) + Cconj (cis (th a)) - C1 - C1)%C with (RtoC (2 * cos (th a) - 2)) by (apply C_eq; cbn [re im RtoC Csub Cadd C1 cis Cconj Copp]; ring).
  rewrite <- RtoC_mul. f_equal. replace (cos (th a)) with (1 - 2 * sin (th a / 2) * sin (th a / 2)).
  - field. auto.
  - rewrite <- cos_2a_sin. f_equal. lra.
Qed.
Lemma pq_sum : (qq AX * pp AX + qq AY * pp AY + qq AZ * pp AZ)%C = RtoC (- wave_k2 sp th).
Proof. rewrite !pq. unfold wave_k2, sum3. rewrite <- !RtoC_add. f_equal. ring. Qed.
End Bloch.
Definition cross (p A : axis -> C) : axis -> C := fun c => match c with
  | AX => (p AY * A AZ - p AZ * A AY)%C | AY => (p AZ * A AX - p AX * A AZ)%C | AZ => (p AX * A AY - p AY * A AX)%C end.
Lemma double_cross : forall sp th E c, (forall a, sp a <> 0) -> transverse_to sp th E ->
  cross (qq sp th) (cross (pp sp th) E) c = (RtoC (wave_k2 sp th) * E c)%C.
Proof.
  intros sp th E c Hsp H. unfold transverse_to in H. cbv zeta in H. fold (qq sp th AX) (qq sp th AY) (qq sp th AZ) in H.
  pose proof (pq_sum sp th Hsp) as P. rewrite RtoC_opp in P.
  assert (K : RtoC (wave_k2 sp th) = (- (qq sp th AX * pp sp th AX + qq sp th AY * pp sp th AY + qq sp th AZ * pp sp th AZ))%C) by (rewrite P; ring). rewrite K.
  assert (G : cross (qq sp th) (cross (pp sp th) E) c = (pp sp th c * (qq sp th AX * E AX + qq sp th AY * E AY + qq sp th AZ * E AZ)
     - E c * (qq sp th AX * pp sp th AX + qq sp th AY * pp sp th AY + qq sp th AZ * pp sp th AZ))%C).
  { destruct c; unfold cross; ring. }
  rewrite G, H. ring.
Qed.
Lemma fdfd_plane : forall d sp th ee E c i j k, positive_shape (d_shape d) -> (forall a, sp a <> 0) ->
  d_dxf d = (fun a _ => RtoC (sp a)) -> d_dxb d = (fun a _ => RtoC (sp a)) ->
  fits (d_shape d) (d_bloch d) th -> (forall a, d_shape d a = 1%nat -> d_bloch d a = C1) ->
  (forall c i j k, d_eps d c i j k = ee) -> transverse_to sp th E -> in_grid (d_shape d) i j k ->
  bmatvec (dn d) (mat3 d) (fun c => ravel (d_shape d) (times E (bloch_wave th) c)) c (ridx (d_shape d) i j k) =
  (RtoC (wave_k2 sp th - d_k0 d * d_k0 d * ee) * (E c * bloch_wave th i j k))%C.
Proof.
  intros d sp th ee E c i j k Hs Hsp Hf Hb Hfit Hone Heps HE H. rewrite mat3_apply by auto. rewrite Hf, Hb, Heps.
  set (s := d_shape d) in *. set (w := bloch_wave th).
  change (fun (a : axis) (_ : nat) => RtoC (sp a)) with (uniform_dx sp).
  assert (U : forall a i j k, in_grid s i j k -> unravel s (ravel s (times E w a)) i j k = (E a * w i j k)%C) by (intros; rewrite unravel_ravel by auto; reflexivity).
  assert (I : forall c i j k, in_grid s i j k ->
    curl_fn (fun f a => quot s (uniform_dx sp) (d_bloch d) false a f) (fun a => unravel s (ravel s (times E w a))) c i j k = (cross (pp sp th) E c * w i j k)%C).
  { intros c0 i0 j0 k0 H0. unfold curl_fn, cross.
    assert (Q : forall b a, quot s (uniform_dx sp) (d_bloch d) false a (unravel s (ravel s (times E w b))) i0 j0 k0 = (pp sp th a * E b * w i0 j0 k0)%C).
    { intros b a. rewrite (quot_ext s _ _ _ _ (fun i j k => E b * w i j k)%C) by auto. apply quot_f; auto. }
    destruct c0; rewrite !Q; ring. }
  assert (Q : forall b a, quot s (uniform_dx sp) (d_bloch d) true a (curl_fn (fun f a => quot s (uniform_dx sp) (d_bloch d) false a f)
      (fun a => unravel s (ravel s (times E w a))) b) i j k = (qq sp th a * cross (pp sp th) E b * w i j k)%C).
  { intros b a. rewrite (quot_ext s _ _ _ _ (fun i j k => cross (pp sp th) E b * w i j k)%C) by auto. apply quot_b; auto. }
  pose proof (double_cross sp th E c Hsp HE) as DC.
  pose proof H as (Hi & Hj & Hk). rewrite (ravel_ridx s) by auto. unfold times at 3 || idtac.
  match goal with |- (?X - ?Y)%C = _ => assert (X1 : X = (cross (qq sp th) (cross (pp sp th) E) c * w i j k)%C) end.
  { unfold curl_fn at 1. destruct c; rewrite !Q; unfold cross; ring. }
  rewrite X1, DC. unfold times. rewrite RtoC_sub, !RtoC_mul. ring.
Qed.
Lemma fdfd_plane_te : forall d sp th ee i j k, positive_shape (d_shape d) -> (forall a, sp a <> 0) ->
  d_dxf d = (fun a _ => RtoC (sp a)) -> d_dxb d = (fun a _ => RtoC (sp a)) ->
  fits (d_shape d) (d_bloch d) th -> (forall a, d_shape d a = 1%nat -> d_bloch d a = C1) ->
  (forall c i j k, d_eps d c i j k = ee) -> in_grid (d_shape d) i j k ->
  matvec (dn d) (mat_ez d) (ravel (d_shape d) (bloch_wave th)) (ridx (d_shape d) i j k) =
  (RtoC ((2 * sin (th AX / 2) / sp AX) ^ 2 + (2 * sin (th AY / 2) / sp AY) ^ 2 - d_k0 d * d_k0 d * ee) * bloch_wave th i j k)%C.
Proof.
  intros d sp th ee i j k Hs Hsp Hf Hb Hfit Hone Heps H. rewrite mat_ez_apply by auto. rewrite Hf, Hb, Heps.
  set (s := d_shape d) in *. set (w := bloch_wave th). change (fun (a : axis) (_ : nat) => RtoC (sp a)) with (uniform_dx sp).
  assert (I : forall a i j k, in_grid s i j k -> quot s (uniform_dx sp) (d_bloch d) false a (unravel s (ravel s w)) i j k = (pp sp th a * w i j k)%C).
  { intros a i0 j0 k0 H0. rewrite (quot_ext s _ _ _ _ (fun i j k => C1 * w i j k)%C) by (auto; intros; rewrite unravel_ravel by auto; ring).
    unfold w. rewrite (quot_f s sp th (d_bloch d)) by auto. ring. }
  assert (Q : forall a, quot s (uniform_dx sp) (d_bloch d) true a (quot s (uniform_dx sp) (d_bloch d) false a (unravel s (ravel s w))) i j k = (qq sp th a * pp sp th a * w i j k)%C).
  { intro a. rewrite (quot_ext s _ _ _ _ (fun i j k => pp sp th a * w i j k)%C) by auto. unfold w. rewrite (quot_b s sp th (d_bloch d)) by auto. ring. }
  rewrite !Q, !pq by auto. pose proof H as (Hi & Hj & Hk). rewrite (ravel_ridx s) by auto. rewrite !RtoC_sub, !RtoC_add, !RtoC_opp, !RtoC_mul. ring.
Qed.
Lemma fdfd_plane_tm : forall d sp th ee i j k, positive_shape (d_shape d) -> (forall a, sp a <> 0) -> ee <> 0 ->
  d_dxf d = (fun a _ => RtoC (sp a)) -> d_dxb d = (fun a _ => RtoC (sp a)) ->
  fits (d_shape d) (d_bloch d) th -> (forall a, d_shape d a = 1%nat -> d_bloch d a = C1) ->
  (forall c i j k, d_eps d c i j k = ee) -> in_grid (d_shape d) i j k ->
  matvec (dn d) (mat_hz d) (ravel (d_shape d) (bloch_wave th)) (ridx (d_shape d) i j k) =
  (RtoC (((2 * sin (th AX / 2) / sp AX) ^ 2 + (2 * sin (th AY / 2) / sp AY) ^ 2) / ee - d_k0 d * d_k0 d) * bloch_wave th i j k)%C.
Proof.
  intros d sp th ee i j k Hs Hsp He Hf Hb Hfit Hone Heps H. rewrite mat_hz_apply by auto. rewrite Hf, Hb.
  set (s := d_shape d) in *. set (w := bloch_wave th). change (fun (a : axis) (_ : nat) => RtoC (sp a)) with (uniform_dx sp).
  assert (I : forall a b i j k, in_grid s i j k -> (RtoC (inv_eps (d_eps d b) i j k) * quot s (uniform_dx sp) (d_bloch d) false a (unravel s (ravel s w)) i j k)%C
    = (RtoC (/ ee) * pp sp th a * w i j k)%C).
  { intros a b i0 j0 k0 H0. rewrite (quot_ext s _ _ _ _ (fun i j k => C1 * w i j k)%C) by (auto; intros; rewrite unravel_ravel by auto; ring).
    unfold w. rewrite (quot_f s sp th (d_bloch d)) by auto. unfold inv_eps. rewrite Heps. unfold Rdiv. rewrite Rmult_1_l. ring. }
  assert (Q : forall a b, quot s (uniform_dx sp) (d_bloch d) true a (fun i j k => RtoC (inv_eps (d_eps d b) i j k) * quot s (uniform_dx sp) (d_bloch d) false a (unravel s (ravel s w)) i j k)%C i j k
     = (RtoC (/ ee) * (qq sp th a * pp sp th a) * w i j k)%C).
  { intros a b. rewrite (quot_ext s _ _ _ _ (fun i j k => RtoC (/ ee) * pp sp th a * w i j k)%C) by auto. unfold w. rewrite (quot_b s sp th (d_bloch d)) by auto. ring. }
  rewrite !Q, !pq by auto. pose proof H as (Hi & Hj & Hk). rewrite (ravel_ridx s) by auto. unfold Rdiv at 5. rewrite !RtoC_sub, !RtoC_mul, !RtoC_add, !RtoC_opp. ring.
Qed.
