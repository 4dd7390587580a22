(** Hermitian symmetry of the lossless operators, Bloch phases included. *)
From Coq Require Import Reals List Arith ZArith Lra Lia Bool.
From Verif Require Import Cx Arr Model_coupling Model_yee Spec_yee Proof_yee Proof_yee2 Proof_yee3 Model_fdfd Spec_fdfd Proof_fdfd Proof_fdfd2 Proof_fdfd3 Proof_fdfd4.
Local Open Scope R_scope.

Lemma vdot_ext : forall n u v u' v', (forall r, (r < n)%nat -> u r = u' r) -> (forall r, (r < n)%nat -> v r = v' r) -> vdot n u v = vdot n u' v'.
Proof. intros n u v u' v' Hu Hv. unfold vdot. apply Csum_ext; intros r Hr. rewrite Hu, Hv by auto. reflexivity. Qed.
Lemma vdot_sub_l : forall n u u' v, vdot n (fun r => u r - u' r)%C v = (vdot n u v - vdot n u' v)%C.
Proof.
  intros. replace (vdot n u v - vdot n u' v)%C with (vdot n u v + (- C1) * vdot n u' v)%C by ring.
  unfold vdot. rewrite <- Csum_scal, <- Csum_add. apply Csum_ext; intros; ring.
Qed.
Lemma vdot_sub_r : forall n u v v', vdot n u (fun r => v r - v' r)%C = (vdot n u v - vdot n u v')%C.
Proof.
  intros. replace (vdot n u v - vdot n u v')%C with (vdot n u v + (- C1) * vdot n u v')%C by ring.
  unfold vdot. rewrite <- Csum_scal, <- Csum_add. apply Csum_ext; intros. rewrite Cconj_sub. ring.
Qed.
Lemma vdot_opp_l : forall n u v, vdot n (fun r => - u r)%C v = (- vdot n u v)%C.
Proof.
  intros. replace (- vdot n u v)%C with ((- C1) * vdot n u v)%C by ring.
  unfold vdot. rewrite <- Csum_scal. apply Csum_ext; intros; ring.
Qed.
Lemma vdot_opp_r : forall n u v, vdot n u (fun r => - v r)%C = (- vdot n u v)%C.
Proof.
  intros. replace (- vdot n u v)%C with ((- C1) * vdot n u v)%C by ring.
  unfold vdot. rewrite <- Csum_scal. apply Csum_ext; intros. rewrite Cconj_opp. ring.
Qed.
Lemma vdot_conj : forall n u v, Cconj (vdot n u v) = vdot n v u.
Proof. intros. unfold vdot. rewrite Csum_conj. apply Csum_ext; intros. rewrite Cconj_mul, Cconj_conj. ring. Qed.

Lemma d2curl_apply : forall n (D : axis -> mat) v c r, bmatvec n (d2curl_op D) v c r =
  match c with
  | AX => (matvec n (D AY) (v AZ) r - matvec n (D AZ) (v AY) r)%C
  | AY => (matvec n (D AZ) (v AX) r - matvec n (D AX) (v AZ) r)%C
  | AZ => (matvec n (D AX) (v AY) r - matvec n (D AY) (v AX) r)%C
  end.
Proof.
  intros. unfold bmatvec, d2curl_op.
  destruct c; change (fun x y => D AX x y) with (D AX); change (fun x y => D AY x y) with (D AY); change (fun x y => D AZ x y) with (D AZ).
  - rewrite (matvec_opp n (D AZ)), (matvec_zero n). ring.
  - rewrite (matvec_opp n (D AX)), (matvec_zero n). ring.
  - rewrite (matvec_opp n (D AY)), (matvec_zero n). ring.
Qed.
Lemma bcurl_adjoint : forall s h bl (u v : bvec),
  bdot (npix s) (bmatvec (npix s) (d2curl_op (deriv s (uniform_dx h) bl true)) u) v =
  bdot (npix s) u (bmatvec (npix s) (d2curl_op (deriv s (uniform_dx h) bl false)) v).
Proof.
  intros s h bl u v. unfold bdot. set (n := npix s).
  assert (EL : forall c, vdot n (bmatvec n (d2curl_op (deriv s (uniform_dx h) bl true)) u c) (v c) =
    vdot n (fun r => match c with
      | AX => (matvec n (deriv s (uniform_dx h) bl true AY) (u AZ) r - matvec n (deriv s (uniform_dx h) bl true AZ) (u AY) r)%C
      | AY => (matvec n (deriv s (uniform_dx h) bl true AZ) (u AX) r - matvec n (deriv s (uniform_dx h) bl true AX) (u AZ) r)%C
      | AZ => (matvec n (deriv s (uniform_dx h) bl true AX) (u AY) r - matvec n (deriv s (uniform_dx h) bl true AY) (u AX) r)%C end) (v c))
    by (intros c; apply vdot_ext; auto; intros; apply d2curl_apply).
  assert (ER : forall c, vdot n (u c) (bmatvec n (d2curl_op (deriv s (uniform_dx h) bl false)) v c) =
    vdot n (u c) (fun r => match c with
      | AX => (matvec n (deriv s (uniform_dx h) bl false AY) (v AZ) r - matvec n (deriv s (uniform_dx h) bl false AZ) (v AY) r)%C
      | AY => (matvec n (deriv s (uniform_dx h) bl false AZ) (v AX) r - matvec n (deriv s (uniform_dx h) bl false AX) (v AZ) r)%C
      | AZ => (matvec n (deriv s (uniform_dx h) bl false AX) (v AY) r - matvec n (deriv s (uniform_dx h) bl false AY) (v AX) r)%C end))
    by (intros c; apply vdot_ext; auto; intros; apply d2curl_apply).
  rewrite !EL, !ER. cbv iota. rewrite !vdot_sub_l, !vdot_sub_r. unfold n. rewrite !deriv_adjoint. ring.
Qed.
Lemma mat3_split : forall d v c r, (r < dn d)%nat -> bmatvec (dn d) (mat3 d) v c r =
  (bmatvec (dn d) (d2curl_op (db_ d)) (bmatvec (dn d) (d2curl_op (df_ d)) v) c r -
   RtoC (d_k0 d * d_k0 d) * (ravel (d_shape d) (fun i j k => RtoC (d_eps d c i j k)) r * v c r))%C.
Proof.
  intros d v c r Hr. destruct (ridx_inv (d_shape d) r Hr) as (i & j & k & H & E). subst r. pose proof H as (Hi & Hj & Hk).
  rewrite <- bmatmul_apply, ravel_ridx, <- diagm_apply by auto. fold (dn d). set (s := d_shape d).
  unfold bmatvec, mat3. rewrite !matvec_sub_m. fold (matvec (dn d)).
  destruct c; cbn [axis_eqb]; rewrite !matvec_zero, !matvec_scal_m; fold s; ring.
Qed.
Lemma bdot_ext : forall n u v u' v', (forall c r, (r < n)%nat -> u c r = u' c r) -> (forall c r, (r < n)%nat -> v c r = v' c r) -> bdot n u v = bdot n u' v'.
Proof. intros. unfold bdot. rewrite !(vdot_ext n (u _) (v _) (u' _) (v' _)) by auto. reflexivity. Qed.
Lemma Cconj_R : forall x, Cconj (RtoC x) = RtoC x.
Proof. intros. apply C_eq; cbn; ring. Qed.
Lemma mat3_hermitian : forall d h u v, d_dxf d = uniform_dx h -> d_dxb d = uniform_dx h ->
  bdot (dn d) (bmatvec (dn d) (mat3 d) u) v = bdot (dn d) u (bmatvec (dn d) (mat3 d) v).
Proof.
  intros d h u v Hf Hb.
  rewrite (bdot_ext (dn d) (bmatvec (dn d) (mat3 d) u) v _ v (fun c r => mat3_split d u c r) (fun _ _ _ => eq_refl)).
  rewrite (bdot_ext (dn d) u (bmatvec (dn d) (mat3 d) v) u _ (fun _ _ _ => eq_refl) (fun c r => mat3_split d v c r)).
  unfold bdot. rewrite !vdot_sub_l, !vdot_sub_r.
  assert (E1 : bdot (dn d) (bmatvec (dn d) (d2curl_op (db_ d)) (bmatvec (dn d) (d2curl_op (df_ d)) u)) v =
               bdot (dn d) u (bmatvec (dn d) (d2curl_op (db_ d)) (bmatvec (dn d) (d2curl_op (df_ d)) v))).
  { unfold db_, df_, dn. rewrite Hf, Hb, bcurl_adjoint. set (w := bmatvec _ _ u). set (w' := bmatvec _ _ v).
    assert (A : forall n a b, bdot n a b = Cconj (bdot n b a)) by (intros; unfold bdot; rewrite !Cconj_add, !vdot_conj; reflexivity).
    rewrite (A _ u), bcurl_adjoint, <- A. reflexivity. }
  unfold bdot in E1.
  assert (E2 : forall c, vdot (dn d) (fun r => RtoC (d_k0 d * d_k0 d) * (ravel (d_shape d) (fun i j k => RtoC (d_eps d c i j k)) r * u c r))%C (v c) =
                         vdot (dn d) (u c) (fun r => RtoC (d_k0 d * d_k0 d) * (ravel (d_shape d) (fun i j k => RtoC (d_eps d c i j k)) r * v c r))%C).
  { intros c. unfold vdot. apply Csum_ext; intros r _. unfold ravel. rewrite !Cconj_mul, !Cconj_R. ring. }
  rewrite !E2.
  match goal with |- (?a - ?x + (?b - ?y) + (?c - ?z))%C = (?a' - _ + (?b' - _) + (?c' - _))%C =>
    replace (a - x + (b - y) + (c - z))%C with ((a + b + c) - x - y - z)%C by ring;
    replace (a' - x + (b' - y) + (c' - z))%C with ((a' + b' + c') - x - y - z)%C by ring end.
  rewrite E1. reflexivity.
Qed.
(** In a closed lossless region a source does no net work. *)
Lemma no_net_power : forall d h solver src, d_dxf d = uniform_dx h -> d_dxb d = uniform_dx h -> exact3 d solver src -> d_k0 d <> 0 ->
  im (bdot (dn d) (solver (mat3 d) (fun c r => RtoC (d_k0 d) * ravel (d_shape d) (src c) r)%C) (fun c => ravel (d_shape d) (src c))) = 0.
Proof.
  intros d h solver src Hf Hb Hs Hk. set (x := solver _ _). set (b := fun c => ravel (d_shape d) (src c)).
  assert (A : forall n a b, bdot n a b = Cconj (bdot n b a)) by (intros; unfold bdot; rewrite !Cconj_add, !vdot_conj; reflexivity).
  pose proof (mat3_hermitian d h x x Hf Hb) as E.
  assert (Es : bdot (dn d) x (bmatvec (dn d) (mat3 d) x) = (RtoC (d_k0 d) * bdot (dn d) x b)%C).
  { rewrite (bdot_ext (dn d) x (bmatvec (dn d) (mat3 d) x) x (fun c r => RtoC (d_k0 d) * b c r)%C) by (intros; auto; apply Hs; auto).
    unfold bdot, vdot.
    assert (Q : forall c, Csum (dn d) (fun r => x c r * Cconj (RtoC (d_k0 d) * b c r))%C = (RtoC (d_k0 d) * Csum (dn d) (fun r => x c r * Cconj (b c r)))%C).
    { intros c. rewrite <- Csum_scal. apply Csum_ext; intros. rewrite Cconj_mul, Cconj_R. ring. }
    rewrite !Q. ring. }
  rewrite (A _ (bmatvec _ _ _)), Es in E. apply (f_equal im) in E.
  set (z := bdot (dn d) x b) in *. clearbody z. cbn in E.
  assert (E0 : d_k0 d * im z = 0) by lra. apply Rmult_integral in E0. destruct E0; [contradiction | auto].
Qed.
