(** 2-D reciprocity, field conversions, the TM solve. *)
From Coq Require Import Reals List Arith ZArith Lra Lia Bool.
From Verif Require Import Cx Arr Model_coupling Model_yee Spec_yee Proof_yee Proof_yee2 Proof_yee3 Model_fdfd Spec_fdfd Proof_fdfd Proof_fdfd2 Proof_fdfd3.
Local Open Scope R_scope.

Definition op2 (d : fdfd) (t1 t2 q : rfld) (u : fld) : fld := fun i j k =>
  (- diff_fn (d_shape d) (d_dxb d) true (fun i j k => RtoC (t1 i j k) * diff_fn (d_shape d) (d_dxf d) false u AX i j k)%C AX i j k
   - diff_fn (d_shape d) (d_dxb d) true (fun i j k => RtoC (t2 i j k) * diff_fn (d_shape d) (d_dxf d) false u AY i j k)%C AY i j k
   - RtoC (q i j k) * u i j k)%C.
Lemma op2_form : forall d t1 t2 q u v, nz_pixel (d_shape d) (d_dxf d) -> nz_pixel (d_shape d) (d_dxb d) ->
  wpair (d_shape d) (area (d_dxb d)) (op2 d t1 t2 q u) v =
  (grid_sum (d_shape d) (fun i j k => d_dxf d AX i * d_dxb d AY j * (RtoC (t1 i j k) * diff_fn (d_shape d) (d_dxf d) false u AX i j k) * diff_fn (d_shape d) (d_dxf d) false v AX i j k) +
   grid_sum (d_shape d) (fun i j k => d_dxf d AY j * d_dxb d AX i * (RtoC (t2 i j k) * diff_fn (d_shape d) (d_dxf d) false u AY i j k) * diff_fn (d_shape d) (d_dxf d) false v AY i j k) -
   grid_sum (d_shape d) (fun i j k => area (d_dxb d) i j k * RtoC (q i j k) * u i j k * v i j k))%C.
Proof.
  intros d t1 t2 q u v Hf Hb. set (s := d_shape d) in *. set (F := d_dxf d) in *. set (B := d_dxb d) in *.
  pose proof (wparts s AX F B (fun i j k => B AY j) (fun i j k => RtoC (t1 i j k) * diff_fn s F false u AX i j k)%C v Hf Hb (fun _ _ _ => eq_refl)) as E1.
  pose proof (wparts s AY F B (fun i j k => B AX i) (fun i j k => RtoC (t2 i j k) * diff_fn s F false u AY i j k)%C v Hf Hb (fun _ _ _ => eq_refl)) as E2.
  cbn [coord] in *. unfold wpair, op2. fold s F B.
  rewrite (grid_sum_ext s _ (fun i j k =>
    (- C1) * (B AX i * B AY j * diff_fn s B true (fun i j k => RtoC (t1 i j k) * diff_fn s F false u AX i j k)%C AX i j k * v i j k) +
    (- C1) * (B AY j * B AX i * diff_fn s B true (fun i j k => RtoC (t2 i j k) * diff_fn s F false u AY i j k)%C AY i j k * v i j k) -
    area B i j k * RtoC (q i j k) * u i j k * v i j k)%C) by (intros; unfold area; ring).
  rewrite grid_sum_sub, grid_sum_add, !grid_sum_scal, E1, E2. ring.
Qed.
Lemma op2_sym : forall d t1 t2 q u v, nz_pixel (d_shape d) (d_dxf d) -> nz_pixel (d_shape d) (d_dxb d) ->
  wpair (d_shape d) (area (d_dxb d)) (op2 d t1 t2 q u) v = wpair (d_shape d) (area (d_dxb d)) (op2 d t1 t2 q v) u.
Proof.
  intros. rewrite !op2_form by auto. f_equal; [f_equal |]; apply grid_sum_ext; intros; ring.
Qed.
Lemma mat_ez_op2 : forall d v i j k, d_bloch d = (fun _ => C1) -> in_grid (d_shape d) i j k ->
  matvec (dn d) (mat_ez d) v (ridx (d_shape d) i j k) =
  op2 d (fun _ _ _ => 1) (fun _ _ _ => 1) (fun i j k => d_k0 d * d_k0 d * d_eps d AZ i j k) (unravel_f (d_shape d) v) i j k.
Proof.
  intros d v i j k Hb H. rewrite mat_ez_apply by auto. rewrite Hb, !quot_diff by auto. unfold op2. set (s := d_shape d) in *.
  rewrite !(diff_ext s (d_dxb d) true (quot s (d_dxf d) (fun _ => C1) false _ (unravel s v))
    (fun i j k => RtoC 1 * diff_fn s (d_dxf d) false (unravel_f s v) _ i j k)%C) by (intros; auto; rewrite quot_diff by auto; change (RtoC 1) with C1; unfold unravel, unravel_f; ring).
  f_equal. unfold unravel_f. rewrite !RtoC_mul. ring.
Qed.
Lemma mat_hz_op2 : forall d v i j k, d_bloch d = (fun _ => C1) -> in_grid (d_shape d) i j k ->
  matvec (dn d) (mat_hz d) v (ridx (d_shape d) i j k) =
  op2 d (inv_eps (d_eps d AY)) (inv_eps (d_eps d AX)) (fun i j k => d_k0 d * d_k0 d) (unravel_f (d_shape d) v) i j k.
Proof.
  intros d v i j k Hb H. rewrite mat_hz_apply by auto. rewrite Hb, !quot_diff by auto. unfold op2. set (s := d_shape d) in *.
  rewrite (diff_ext s (d_dxb d) true (fun i j k => RtoC (inv_eps (d_eps d AY) i j k) * quot s (d_dxf d) (fun _ => C1) false AX (unravel s v) i j k)%C
    (fun i j k => RtoC (inv_eps (d_eps d AY) i j k) * diff_fn s (d_dxf d) false (unravel_f s v) AX i j k)%C) by (intros; auto; rewrite quot_diff by auto; reflexivity).
  rewrite (diff_ext s (d_dxb d) true (fun i j k => RtoC (inv_eps (d_eps d AX) i j k) * quot s (d_dxf d) (fun _ => C1) false AY (unravel s v) i j k)%C
    (fun i j k => RtoC (inv_eps (d_eps d AX) i j k) * diff_fn s (d_dxf d) false (unravel_f s v) AY i j k)%C) by (intros; auto; rewrite quot_diff by auto; reflexivity).
  reflexivity.
Qed.
Lemma Cmul_cancel : forall c a b, c <> C0 -> (c * a)%C = (c * b)%C -> a = b.
Proof.
  intros c a b Hc E. apply (f_equal (fun z => (Cinv c * z)%C)) in E.
  replace a with (Cinv c * (c * a))%C by (field; auto). rewrite E. field; auto.
Qed.
Lemma wpair_scal : forall s w c f g, wpair s w (fun i j k => c * f i j k)%C g = (c * wpair s w f g)%C.
Proof. intros. unfold wpair. rewrite <- grid_sum_scal. apply grid_sum_ext; intros; ring. Qed.
Lemma wpair_sym : forall s w f g, wpair s w f g = wpair s w g f.
Proof. intros. unfold wpair. apply grid_sum_ext; intros; ring. Qed.
Lemma reciprocity_op2 : forall d t1 t2 q (u1 u2 j1 j2 : fld), d_k0 d <> 0 ->
  nz_pixel (d_shape d) (d_dxf d) -> nz_pixel (d_shape d) (d_dxb d) ->
  (forall i j k, in_grid (d_shape d) i j k -> op2 d t1 t2 q u1 i j k = (RtoC (d_k0 d) * j1 i j k)%C) ->
  (forall i j k, in_grid (d_shape d) i j k -> op2 d t1 t2 q u2 i j k = (RtoC (d_k0 d) * j2 i j k)%C) ->
  wpair (d_shape d) (area (d_dxb d)) u1 j2 = wpair (d_shape d) (area (d_dxb d)) u2 j1.
Proof.
  intros d t1 t2 q u1 u2 j1 j2 Hk Hf Hb H1 H2.
  assert (Hn : RtoC (d_k0 d) <> C0) by (intros A; apply Hk; apply (f_equal re) in A; exact A).
  apply (Cmul_cancel (RtoC (d_k0 d))); auto.
  set (W := area (d_dxb d)). set (s := d_shape d) in *.
  rewrite (wpair_sym s W u1 j2), (wpair_sym s W u2 j1), <- !wpair_scal.
  rewrite (wpair_ext s W (fun i j k => RtoC (d_k0 d) * j2 i j k)%C u1 (op2 d t1 t2 q u2) u1) by (intros; try (symmetry; apply H2); auto).
  rewrite (wpair_ext s W (fun i j k => RtoC (d_k0 d) * j1 i j k)%C u2 (op2 d t1 t2 q u1) u2) by (intros; try (symmetry; apply H1); auto).
  apply op2_sym; auto.
Qed.
Lemma exact2_ez : forall d solver src, d_bloch d = (fun _ => C1) -> exact2 d (mat_ez d) solver src ->
  forall i j k, in_grid (d_shape d) i j k ->
  op2 d (fun _ _ _ => 1) (fun _ _ _ => 1) (fun i j k => d_k0 d * d_k0 d * d_eps d AZ i j k) (fst (solve2_te d solver src) AZ) i j k =
  (RtoC (d_k0 d) * src i j k)%C.
Proof.
  intros d solver src Hb Hs i j k H. pose proof (Hs _ (ridx_bound _ _ _ _ H)) as E. rewrite mat_ez_op2 in E by auto.
  pose proof H as (Hi & Hj & Hk). rewrite ravel_ridx in E by auto. exact E.
Qed.
Lemma exact2_hz : forall d solver src, d_bloch d = (fun _ => C1) -> exact2 d (mat_hz d) solver src ->
  forall i j k, in_grid (d_shape d) i j k ->
  op2 d (inv_eps (d_eps d AY)) (inv_eps (d_eps d AX)) (fun i j k => d_k0 d * d_k0 d) (snd (solve2_tm d solver src) AZ) i j k =
  (RtoC (d_k0 d) * src i j k)%C.
Proof.
  intros d solver src Hb Hs i j k H. pose proof (Hs _ (ridx_bound _ _ _ _ H)) as E. rewrite mat_hz_op2 in E by auto.
  pose proof H as (Hi & Hj & Hk). rewrite ravel_ridx in E by auto. exact E.
Qed.
Lemma reciprocity_te : forall d solver j1 j2, d_bloch d = (fun _ => C1) -> d_k0 d <> 0 ->
  nz_pixel (d_shape d) (d_dxf d) -> nz_pixel (d_shape d) (d_dxb d) ->
  exact2 d (mat_ez d) solver j1 -> exact2 d (mat_ez d) solver j2 ->
  wpair (d_shape d) (area (d_dxb d)) (fst (solve2_te d solver j1) AZ) j2 =
  wpair (d_shape d) (area (d_dxb d)) (fst (solve2_te d solver j2) AZ) j1.
Proof. intros. eapply reciprocity_op2; eauto; intros; apply exact2_ez; auto. Qed.
Lemma reciprocity_tm : forall d solver j1 j2, d_bloch d = (fun _ => C1) -> d_k0 d <> 0 ->
  nz_pixel (d_shape d) (d_dxf d) -> nz_pixel (d_shape d) (d_dxb d) ->
  exact2 d (mat_hz d) solver j1 -> exact2 d (mat_hz d) solver j2 ->
  wpair (d_shape d) (area (d_dxb d)) (snd (solve2_tm d solver j1) AZ) j2 =
  wpair (d_shape d) (area (d_dxb d)) (snd (solve2_tm d solver j2) AZ) j1.
Proof. intros. eapply reciprocity_op2; eauto; intros; apply exact2_hz; auto. Qed.
