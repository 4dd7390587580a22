(** Proofs about Model_fdfd: solve returns Maxwell fields; field conversions. *)
From Coq Require Import Reals List Arith ZArith Lra Lia Bool.
From Verif Require Import Cx Arr Model_coupling Model_yee Spec_yee Proof_yee Proof_yee2 Proof_yee3 Model_fdfd Spec_fdfd Proof_fdfd.
Local Open Scope R_scope.

Lemma ik0_neq0 : forall d, d_k0 d <> 0 -> ik0 d <> C0.
Proof. intros d H E. apply H. apply (f_equal im) in E. unfold ik0 in E. cbn in E. lra. Qed.
Lemma ik0_sq : forall d, (ik0 d * ik0 d)%C = (- RtoC (d_k0 d * d_k0 d))%C.
Proof. intros. unfold ik0. apply C_eq; cbn; ring. Qed.
Lemma curl_scal : forall s dx o c f a i j k,
  curl_fn (diff_fn s dx o) (fun x i j k => c * f x i j k)%C a i j k = (c * curl_fn (diff_fn s dx o) f a i j k)%C.
Proof. intros. unfold curl_fn. destruct a; rewrite !(diff_scal s dx o c (f _)); ring. Qed.

Lemma solve3_maxwell : forall d solver src, d_bloch d = (fun _ => C1) -> d_k0 d <> 0 ->
  (forall c r, (r < dn d)%nat ->
     bmatvec (dn d) (mat3 d) (solver (mat3 d) (fun c r => RtoC (d_k0 d) * ravel (d_shape d) (src c) r)%C) c r =
     (RtoC (d_k0 d) * ravel (d_shape d) (src c) r)%C) ->
  let (e, h) := solve3 d solver src in
  faraday (d_shape d) (d_dxf d) (d_k0 d) e h /\ ampere (d_shape d) (d_dxb d) (d_k0 d) (d_eps d) e h src.
Proof.
  intros d solver src Hb Hk Hs. unfold solve3. set (x := solver _ _) in *.
  set (e := fun c => unravel_f (d_shape d) (x c)). pose proof (ik0_neq0 d Hk) as Hik.
  split.
  - intros c i j k H. rewrite <- curl_fwd by auto. fold (dcurl_e d). fold (ik0 d). field. exact Hik.
  - intros c i j k H. rewrite <- curl_bwd by auto.
    pose proof (Hs c _ (ridx_bound _ _ _ _ H)) as E. rewrite mat3_apply1 in E by auto.
    pose proof H as (Hi & Hj & Hk'). rewrite ravel_ridx in E by auto.
    assert (E2 : curl_fn (diff_fn (d_shape d) (d_dxb d) true) (fun c i j k => dcurl_e d e c i j k / ik0 d)%C c i j k =
      (Cinv (ik0 d) * curl_fn (diff_fn (d_shape d) (d_dxb d) true) (curl_fn (diff_fn (d_shape d) (d_dxf d) false) (fun a => unravel (d_shape d) (x a))) c i j k)%C).
    { rewrite <- curl_scal. apply curl_ext; auto. intros. unfold Cdiv. rewrite Cmul_comm'. reflexivity. }
    rewrite E2. set (cc := curl_fn _ _ c i j k) in *.
    assert (Ec : cc = (RtoC (d_k0 d) * src c i j k + RtoC (d_k0 d * d_k0 d) * (RtoC (d_eps d c i j k) * e c i j k))%C).
    { replace cc with ((cc - RtoC (d_k0 d * d_k0 d) * (RtoC (d_eps d c i j k) * x c (ridx (d_shape d) i j k))) +
         RtoC (d_k0 d * d_k0 d) * (RtoC (d_eps d c i j k) * x c (ridx (d_shape d) i j k)))%C by ring.
      rewrite E. reflexivity. }
    rewrite Ec. fold (ik0 d).
    assert (Er : RtoC (d_k0 d) = (- Ci * ik0 d)%C) by (unfold ik0; apply C_eq; cbn; ring).
    replace (RtoC (d_k0 d * d_k0 d)) with (- (ik0 d * ik0 d))%C by (rewrite ik0_sq; ring).
    rewrite Er at 1. field. exact Hik.
Qed.

Lemma curl_z_only_fwd : forall s dx f c i j k, curl_fn (diff_fn s dx false) (only_z f) c i j k =
  match c with AX => diff_fn s dx false f AY i j k | AY => (- diff_fn s dx false f AX i j k)%C | AZ => C0 end.
Proof. intros. unfold curl_fn, only_z. destruct c; unfold diff_fn, roll_m1, along, Cdiv; ring. Qed.
Lemma diff_0 : forall s dx o a i j k, diff_fn s dx o (fun _ _ _ => C0) a i j k = C0.
Proof. intros. unfold diff_fn, roll_m1, roll_p1, along, Cdiv. destruct a, o; ring. Qed.

(** 2-D, out-of-plane electric field.  One cell along z. *)
Lemma diff_flat : forall s dx o f a i j k, s a = 1%nat -> in_grid s i j k -> diff_fn s dx o f a i j k = C0.
Proof.
  intros s dx o f a i j k E (Hi & Hj & Hk). unfold diff_fn, roll_m1, roll_p1, along, coord, Cdiv.
  destruct a; rewrite E in *; unfold nxt, prv.
  - replace i with 0%nat by lia. destruct o; cbn; ring.
  - replace j with 0%nat by lia. destruct o; cbn; ring.
  - replace k with 0%nat by lia. destruct o; cbn; ring.
Qed.
Lemma solve_te_maxwell : forall d solver src, d_bloch d = (fun _ => C1) -> d_k0 d <> 0 -> d_shape d AZ = 1%nat ->
  (forall r, (r < dn d)%nat ->
     matvec (dn d) (mat_ez d) (solver (mat_ez d) (fun r => RtoC (d_k0 d) * ravel (d_shape d) src r)%C) r =
     (RtoC (d_k0 d) * ravel (d_shape d) src r)%C) ->
  let (e, h) := solve2_te d solver src in
  faraday (d_shape d) (d_dxf d) (d_k0 d) e h /\ ampere (d_shape d) (d_dxb d) (d_k0 d) (d_eps d) e h (only_z src).
Proof.
  intros d solver src Hb Hk Hz Hs. unfold solve2_te. set (x := solver _ _) in *.
  set (ez := unravel_f (d_shape d) x). pose proof (ik0_neq0 d Hk) as Hik. set (s := d_shape d) in *.
  split.
  - intros c i j k H. rewrite <- curl_fwd by auto. rewrite curl_z_only_fwd. fold (ik0 d). fold s. destruct c; field; exact Hik.
  - intros c i j k H. rewrite <- curl_bwd by auto. fold s. fold (ik0 d).
    pose proof (Hs _ (ridx_bound _ _ _ _ H)) as E. fold s in E.
    pose proof H as (Hi & Hj & Hk'). unfold s in E. rewrite mat_ez_apply in E by auto. fold s in E. rewrite ravel_ridx in E by auto.
    rewrite Hb in E. rewrite !quot_diff in E by auto.
    rewrite !(diff_ext s (d_dxb d) true (quot s (d_dxf d) (fun _ => C1) false _ (unravel s x)) (diff_fn s (d_dxf d) false ez _)) in E
      by (intros; try apply quot_diff; auto).
    unfold curl_fn. destruct c.
    + rewrite (diff_flat s (d_dxb d) true _ AZ) by auto.
      rewrite (diff_ext s (d_dxb d) true _ (fun _ _ _ => C0) AY) by (intros; auto; unfold Cdiv; ring). rewrite diff_0.
      unfold only_z. ring.
    + rewrite (diff_flat s (d_dxb d) true _ AZ) by auto.
      rewrite (diff_ext s (d_dxb d) true _ (fun _ _ _ => C0) AX) by (intros; auto; unfold Cdiv; ring). rewrite diff_0.
      unfold only_z. ring.
    + rewrite (diff_ext s (d_dxb d) true (fun i j k => - diff_fn s (d_dxf d) false ez AX i j k / ik0 d)%C
        (fun i j k => (- Cinv (ik0 d)) * diff_fn s (d_dxf d) false ez AX i j k)%C AX) by (intros; auto; unfold Cdiv; ring).
      rewrite (diff_ext s (d_dxb d) true (fun i j k => diff_fn s (d_dxf d) false ez AY i j k / ik0 d)%C
        (fun i j k => (Cinv (ik0 d)) * diff_fn s (d_dxf d) false ez AY i j k)%C AY) by (intros; auto; unfold Cdiv; ring).
      rewrite !diff_scal. cbn [only_z]. fold (unravel_f s x). unfold only_z.
      set (P := diff_fn s (d_dxb d) true (diff_fn s (d_dxf d) false ez AX) AX i j k) in *.
      set (Q := diff_fn s (d_dxb d) true (diff_fn s (d_dxf d) false ez AY) AY i j k) in *.
      assert (EP : P = (- Q - RtoC (d_k0 d * d_k0 d) * (RtoC (d_eps d AZ i j k) * ez i j k) - RtoC (d_k0 d) * src i j k)%C).
      { rewrite <- E. unfold ez, unravel_f. ring. }
      rewrite EP.
      assert (Er : RtoC (d_k0 d) = (- Ci * ik0 d)%C) by (unfold ik0; apply C_eq; cbn; ring).
      replace (RtoC (d_k0 d * d_k0 d)) with (- (ik0 d * ik0 d))%C by (rewrite ik0_sq; ring).
      rewrite Er at 1. field. exact Hik.
Qed.
