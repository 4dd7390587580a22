(** Proofs about Model_fdfd: the operators applied to fields, the field conversions, solve. *)
From Coq Require Import Reals List Arith ZArith Lra Lia Bool.
From Verif Require Import Cx Arr Model_coupling Model_yee Spec_yee Proof_yee Proof_yee2 Proof_yee3 Model_fdfd Spec_fdfd.
Local Open Scope R_scope.

Lemma Cmul_comm' : forall a b, (a * b)%C = (b * a)%C.
Proof. intros; ring. Qed.
Lemma matvec_matmul : forall n A B v r, matvec n (matmul n A B) v r = matvec n A (matvec n B v) r.
Proof.
  intros. unfold matvec, matmul.
  rewrite (Csum_ext n (fun k => Csum n (fun k0 => A r k0 * B k0 k) * v k)%C (fun k => Csum n (fun q => A r q * (B q k * v k))%C)).
  2:{ intros k _. rewrite (Cmul_comm' _ (v k)), <- Csum_scal. apply Csum_ext; intros; ring. }
  rewrite Csum_swap. apply Csum_ext; intros q _. rewrite <- Csum_scal. reflexivity.
Qed.
Lemma diagm_apply : forall s x v i j k, in_grid s i j k ->
  matvec (npix s) (diagm s x) v (ridx s i j k) = (RtoC (x i j k) * v (ridx s i j k))%C.
Proof.
  intros s x v i j k H. pose proof H as (Hi & Hj & Hk). unfold matvec, diagm.
  rewrite (Csum_single (npix s) _ (ridx s i j k)).
  2:{ apply ridx_bound; auto. }
  2:{ intros q _ Hq. destruct (Nat.eqb_spec (ridx s i j k) q); [congruence | ring]. }
  rewrite Nat.eqb_refl, ravel_ridx by auto. reflexivity.
Qed.

Lemma diff_fwd : forall s dx f a i j k, in_grid s i j k -> diff_fn s dx false f a i j k = fwd s dx f a i j k.
Proof.
  intros s dx f a i j k (Hi & Hj & Hk). unfold diff_fn, fwd, roll_m1, along, at_coord, coord, succ_p.
  destruct a; rewrite nxt_lt by auto; reflexivity.
Qed.
Lemma diff_bwd : forall s dx f a i j k, in_grid s i j k -> diff_fn s dx true f a i j k = bwd s dx f a i j k.
Proof.
  intros s dx f a i j k (Hi & Hj & Hk). unfold diff_fn, bwd, roll_p1, along, at_coord, coord, pred_p.
  destruct a; rewrite prv_lt by auto; reflexivity.
Qed.
Lemma curl_fwd : forall s dx v c i j k, in_grid s i j k -> curl_fn (diff_fn s dx false) v c i j k = curl_of (fwd s dx) v c i j k.
Proof. intros. unfold curl_fn, curl_of. destruct c; rewrite !diff_fwd by auto; reflexivity. Qed.
Lemma curl_bwd : forall s dx v c i j k, in_grid s i j k -> curl_fn (diff_fn s dx true) v c i j k = curl_of (bwd s dx) v c i j k.
Proof. intros. unfold curl_fn, curl_of. destruct c; rewrite !diff_bwd by auto; reflexivity. Qed.
Lemma quot_diff : forall s dx o f a i j k, in_grid s i j k -> quot s dx (fun _ => C1) o a f i j k = diff_fn s dx o f a i j k.
Proof. intros. rewrite diff_fn_quot by auto. destruct o; reflexivity. Qed.
Lemma curl_ext : forall s dx o u v c i j k, (forall c i j k, in_grid s i j k -> u c i j k = v c i j k) -> in_grid s i j k ->
  curl_fn (diff_fn s dx o) u c i j k = curl_fn (diff_fn s dx o) v c i j k.
Proof.
  intros s dx o u v c i j k H Hin. unfold curl_fn.
  destruct c; rewrite !(diff_ext s dx o (u _) (v _) _ i j k) by (intros; apply H || auto; auto); reflexivity.
Qed.
Lemma matvec_add_m : forall n (A B : mat) v r, matvec n (fun x y => A x y + B x y)%C v r = (matvec n A v r + matvec n B v r)%C.
Proof. intros. unfold matvec. rewrite <- Csum_add. apply Csum_ext; intros; ring. Qed.
Lemma matvec_sub_m : forall n (A B : mat) v r, matvec n (fun x y => A x y - B x y)%C v r = (matvec n A v r - matvec n B v r)%C.
Proof.
  intros. replace (matvec n A v r - matvec n B v r)%C with (matvec n A v r + (- matvec n B v r))%C by ring.
  rewrite <- matvec_opp, <- matvec_add_m. unfold matvec. apply Csum_ext; intros; ring.
Qed.
Lemma matvec_scal_m : forall n c (A : mat) v r, matvec n (fun x y => c * A x y)%C v r = (c * matvec n A v r)%C.
Proof. intros. unfold matvec. rewrite <- Csum_scal. apply Csum_ext; intros; ring. Qed.
Lemma matvec_add_v : forall n (A : mat) u v r, matvec n A (fun q => u q + v q)%C r = (matvec n A u r + matvec n A v r)%C.
Proof. intros. unfold matvec. rewrite <- Csum_add. apply Csum_ext; intros; ring. Qed.
Lemma bmatmul_apply : forall n A B v c r, bmatvec n (bmatmul n A B) v c r = bmatvec n A (bmatvec n B v) c r.
Proof.
  intros. unfold bmatvec, bmatmul. rewrite !matvec_add_m. fold (matvec n).
  rewrite !matvec_matmul, !matvec_add_v. ring.
Qed.

Lemma mat3_apply : forall d v c i j k, in_grid (d_shape d) i j k ->
  bmatvec (dn d) (mat3 d) v c (ridx (d_shape d) i j k) =
  (curl_fn (fun f a => quot (d_shape d) (d_dxb d) (d_bloch d) true a f)
     (curl_fn (fun f a => quot (d_shape d) (d_dxf d) (d_bloch d) false a f) (fun a => unravel (d_shape d) (v a))) c i j k
   - RtoC (d_k0 d * d_k0 d) * (RtoC (d_eps d c i j k) * v c (ridx (d_shape d) i j k)))%C.
Proof.
  intros d v c i j k H. set (s := d_shape d) in *.
  assert (E : bmatvec (dn d) (mat3 d) v c (ridx s i j k) =
    (bmatvec (dn d) (bmatmul (dn d) (d2curl_op (db_ d)) (d2curl_op (df_ d))) v c (ridx s i j k) -
     RtoC (d_k0 d * d_k0 d) * matvec (dn d) (diagm s (d_eps d c)) (v c) (ridx s i j k))%C).
  { unfold bmatvec, mat3. rewrite !matvec_sub_m. fold (matvec (dn d)).
    destruct c; cbn [axis_eqb]; rewrite !matvec_zero, !matvec_scal_m; fold s; ring. }
  rewrite E, bmatmul_apply. unfold dn. fold s. rewrite diagm_apply by auto. f_equal.
  unfold db_, df_. fold s. rewrite bmat_curl_apply by auto. unfold curl_fn at 1 3.
  assert (Ex : forall a c', quot s (d_dxb d) (d_bloch d) true a (unravel s (bmatvec (npix s) (d2curl_op (deriv s (d_dxf d) (d_bloch d) false)) v c')) i j k =
    quot s (d_dxb d) (d_bloch d) true a (curl_fn (fun f a => quot s (d_dxf d) (d_bloch d) false a f) (fun a => unravel s (v a)) c') i j k).
  { intros a c'. apply quot_ext; auto. intros x y z Hx. unfold unravel at 1. rewrite bmat_curl_apply; auto. }
  destruct c; rewrite !Ex; reflexivity.
Qed.
(** Without Bloch phase: the curl of the curl by rolls. *)
Lemma mat3_apply1 : forall d v c i j k, d_bloch d = (fun _ => C1) -> in_grid (d_shape d) i j k ->
  bmatvec (dn d) (mat3 d) v c (ridx (d_shape d) i j k) =
  (curl_fn (diff_fn (d_shape d) (d_dxb d) true) (curl_fn (diff_fn (d_shape d) (d_dxf d) false) (fun a => unravel (d_shape d) (v a))) c i j k
   - RtoC (d_k0 d * d_k0 d) * (RtoC (d_eps d c i j k) * v c (ridx (d_shape d) i j k)))%C.
Proof.
  intros d v c i j k Hb H. rewrite mat3_apply by auto. rewrite Hb. f_equal.
  set (s := d_shape d) in *.
  assert (Ei : forall c i j k, in_grid s i j k ->
    curl_fn (fun f a => quot s (d_dxf d) (fun _ => C1) false a f) (fun a => unravel s (v a)) c i j k =
    curl_fn (diff_fn s (d_dxf d) false) (fun a => unravel s (v a)) c i j k).
  { intros. unfold curl_fn. destruct c0; rewrite !quot_diff by auto; reflexivity. }
  rewrite (curl_ext s (d_dxb d) true _ (curl_fn (fun f a => quot s (d_dxf d) (fun _ => C1) false a f) (fun a => unravel s (v a))))
    by (intros; rewrite ?Ei by auto; auto).
  unfold curl_fn at 1 3. destruct c; rewrite !quot_diff by auto; reflexivity.
Qed.

Lemma unravel_ravel : forall s f i j k, in_grid s i j k -> unravel s (ravel s f) i j k = f i j k.
Proof. intros s f i j k (Hi & Hj & Hk). unfold unravel. apply ravel_ridx; auto. Qed.
(** 3-D: the matrix and the operator of the jax solver. *)
Lemma mat3_op3 : forall d (e : vfld) c i j k, d_bloch d = (fun _ => C1) -> in_grid (d_shape d) i j k ->
  bmatvec (dn d) (mat3 d) (fun c => ravel (d_shape d) (e c)) c (ridx (d_shape d) i j k) = op3 d e c i j k.
Proof.
  intros d e c i j k Hb H. rewrite mat3_apply1 by auto. unfold op3, dcurl_h, dcurl_e.
  pose proof H as (Hi & Hj & Hk). rewrite ravel_ridx by auto.
  rewrite (curl_ext (d_shape d) (d_dxb d) true _ (curl_fn (diff_fn (d_shape d) (d_dxf d) false) e)); [ring | | auto].
  intros. apply curl_ext; auto. intros. apply unravel_ravel; auto.
Qed.

Lemma deriv2_apply : forall s dx dx' bl o o' a b v i j k, in_grid s i j k ->
  matvec (npix s) (matmul (npix s) (deriv s dx bl o a) (deriv s dx' bl o' b)) v (ridx s i j k) =
  quot s dx bl o a (quot s dx' bl o' b (unravel s v)) i j k.
Proof.
  intros. rewrite matvec_matmul, deriv_unravel by auto. apply quot_ext; auto. intros.
  unfold unravel at 1. apply deriv_unravel; auto.
Qed.
Lemma deriv2t_apply : forall s dx dx' bl o o' a b t v i j k, in_grid s i j k ->
  matvec (npix s) (matmul (npix s) (matmul (npix s) (deriv s dx bl o a) (diagm s t)) (deriv s dx' bl o' b)) v (ridx s i j k) =
  quot s dx bl o a (fun i j k => RtoC (t i j k) * quot s dx' bl o' b (unravel s v) i j k)%C i j k.
Proof.
  intros. rewrite !matvec_matmul, deriv_unravel by auto. apply quot_ext; auto. intros.
  unfold unravel at 1. rewrite diagm_apply by auto. f_equal. apply deriv_unravel; auto.
Qed.
Lemma matvec_eye : forall n v r, (r < n)%nat -> matvec n eye v r = v r.
Proof. intros. apply eye_apply; auto. Qed.
Lemma mat_ez_apply : forall d v i j k, in_grid (d_shape d) i j k ->
  matvec (dn d) (mat_ez d) v (ridx (d_shape d) i j k) =
  (- quot (d_shape d) (d_dxb d) (d_bloch d) true AX (quot (d_shape d) (d_dxf d) (d_bloch d) false AX (unravel (d_shape d) v)) i j k
   - quot (d_shape d) (d_dxb d) (d_bloch d) true AY (quot (d_shape d) (d_dxf d) (d_bloch d) false AY (unravel (d_shape d) v)) i j k
   - RtoC (d_k0 d * d_k0 d) * (RtoC (d_eps d AZ i j k) * v (ridx (d_shape d) i j k)))%C.
Proof.
  intros d v i j k H. unfold mat_ez, ddz. rewrite !matvec_sub_m, matvec_opp, matvec_scal_m. unfold dn, db_, df_.
  rewrite diagm_apply by auto.
  change (fun x y => matmul (npix (d_shape d)) ?A ?B x y) with (matmul (npix (d_shape d)) A B).
  rewrite !deriv2_apply by auto. reflexivity.
Qed.
Lemma mat_hz_apply : forall d v i j k, in_grid (d_shape d) i j k ->
  matvec (dn d) (mat_hz d) v (ridx (d_shape d) i j k) =
  (- quot (d_shape d) (d_dxb d) (d_bloch d) true AX (fun i j k => RtoC (inv_eps (d_eps d AY) i j k) *
       quot (d_shape d) (d_dxf d) (d_bloch d) false AX (unravel (d_shape d) v) i j k)%C i j k
   - quot (d_shape d) (d_dxb d) (d_bloch d) true AY (fun i j k => RtoC (inv_eps (d_eps d AX) i j k) *
       quot (d_shape d) (d_dxf d) (d_bloch d) false AY (unravel (d_shape d) v) i j k)%C i j k
   - RtoC (d_k0 d * d_k0 d) * v (ridx (d_shape d) i j k))%C.
Proof.
  intros d v i j k H. unfold mat_hz. rewrite !matvec_sub_m, matvec_opp, matvec_scal_m. unfold dn, db_, df_.
  change (fun x y => eye x y) with eye. rewrite eye_apply by (apply ridx_bound; auto).
  rewrite !deriv2t_apply by auto. reflexivity.
Qed.
