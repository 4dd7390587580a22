(** measure_fn of one mode on the fields of another. *)
From Coq Require Import Reals List Arith ZArith Lra Lia Bool.
From Verif Require Import Cx Arr Model_coupling Model_yee Spec_yee Proof_yee Proof_yee2 Proof_yee3 Model_fdfd Spec_fdfd Proof_fdfd Proof_fdfd2 Model_grid Model_mode Spec_mode Model_adj Proof_mode Proof_mode2 Spec_orth Proof_orth Proof_orth2.
Import ListNotations.
Local Open Scope R_scope.

Section Uniform.
Variable q : mode_solver.
Notation s := (q_shape q).
Notation F a f := (diff_fn (q_shape q) (q_dx q) false f a).
Notation B a f := (diff_fn (q_shape q) (q_dx q) true f a).
Hypothesis Hy : q_shape q AY = 1%nat.
Hypothesis Hz : q_shape q AZ = 1%nat.
Hypothesis Hk : q_k0 q <> 0.
Variable x : R.
Hypothesis Hx : forall i j k, in_grid (q_shape q) i j k -> q_eps q i j k = x.
Hypothesis Hx0 : 0 < x.

Definition rolled (v : vec) : vec := ravel s (roll_p1 s AX (unravel s v)).
Lemma unravel_rolled : forall v i j k, in_grid s i j k -> unravel s (rolled v) i j k = unravel s v (prv (s AX) i) j k.
Proof. intros v i j k (Hi & Hj & Hk'). unfold rolled. unfold unravel at 1. rewrite ravel_ridx by auto. reflexivity. Qed.
Lemma rolled_eigen : forall lam v, eigen1 q lam v -> eigen1 q lam (rolled v).
Proof.
  intros lam v H r Hr. unfold q_n in Hr. destruct (ridx_inv s r Hr) as (i & j & k & Hin & ->). rewrite wg1_apply by auto.
  pose proof Hin as (Hi & Hj & Hk'). assert (Hp : (prv (s AX) i < s AX)%nat) by (apply prv_bound; auto).
  assert (Hin' : in_grid s (prv (s AX) i) j k) by (repeat split; auto).
  change (rolled v (ridx s i j k)) with (unravel s (rolled v) i j k). rewrite unravel_rolled by auto.
  pose proof (eig1_form q lam v H _ _ _ Hin') as P. rewrite (Hx i j k) by auto. rewrite (Hx (prv (s AX) i) j k) in P by auto.
  rewrite <- P. f_equal. unfold diff_fn, roll_m1, roll_p1, along. cbn [coord].
  rewrite !unravel_rolled by (repeat split; auto using prv_bound, nxt_bound). rewrite prv_nxt, nxt_prv by auto. reflexivity.
Qed.
Lemma sum_1d : forall f : nat -> nat -> C, Csum (s AX) (fun i => Csum 1 (fun j => f i j)) = grid_sum s (fun i j _ => f i j).
Proof. intros. unfold grid_sum. rewrite Hy, Hz. apply Csum_ext; intros. cbn [Csum]. ring. Qed.
Lemma prev_prv : forall n i, (i < n)%nat -> prev n i = prv n i.
Proof. intros n i H. rewrite prv_lt by auto. unfold prev. destruct i; cbn [Nat.eqb]; lia. Qed.
Lemma flux_form : forall e h : cfld, flux (s AX) 1 e h =
  Csum (s AX) (fun i => Csum 1 (fun j => e 0%nat i j * Cconj (h 1%nat i j) - avg0 (s AX) (e 1%nat) i j * Cconj (avg0 (s AX) (h 0%nat) i j))%C).
Proof.
  intros. unfold flux, poynting. cbn [ax Nat.add Nat.modulo]. change (ax 2 0) with 0%nat. change (ax 2 1) with 1%nat. cbn [pick].
  apply Csum_ext; intros i Hi. apply Csum_ext; intros j Hj. assert (j = 0)%nat by lia. subst j.
  assert (A : forall f, avg1 1 f i 0%nat = f i 0%nat).
  { intros f. unfold avg1. change (prev 1 0) with 0%nat. unfold Cdiv. apply C_eq; unfold Cinv, Cn2; cbn; field. }
  rewrite !A. reflexivity.
Qed.
Lemma flux_tm : forall b1 v1 b2 v2, flux (s AX) 1 (as_array (e_1d q true b1 (unravel s v1))) (as_array (h_1d q true b2 (unravel s v2))) =
  (RtoC (b1 / (q_k0 q * x)) * vdot (q_n q) v1 v2)%C.
Proof.
  intros. rewrite flux_form. unfold q_n. rewrite vdot_inner. unfold Spec_yee.inner. rewrite <- grid_sum_scal.
  rewrite sum_1d. apply grid_sum_ext. intros i j k (Hi & Hj & Hk').
  assert (k = 0)%nat by lia. assert (j = 0)%nat by lia. subst.
  unfold as_array, e_1d, h_1d, avg0, q_eps_t. cbn [yee_avg].
  assert (Ev : avg_axis s AY (q_eps q) i 0%nat 0%nat = x).
  { unfold avg_axis, ralong. rewrite Hy. change (prv 1 0%nat) with 0%nat. rewrite Hx by (repeat split; lia). field. }
  rewrite Ev.
  assert (G : (C0 / (Ci * RtoC (q_k0 q) * RtoC (avg_axis s AX (q_eps q) i 0%nat 0%nat)) + C0 / (Ci * RtoC (q_k0 q) * RtoC (avg_axis s AX (q_eps q) (prev (s AX) i) 0%nat 0%nat)))%C = C0) by (unfold Cdiv; ring).
  rewrite G. replace (Cconj ((C0 + C0) / RtoC 2)) with C0 by (unfold Cdiv; apply C_eq; cbn; ring).
  replace (RtoC (b1 / (q_k0 q * x))) with (RtoC b1 / (RtoC (q_k0 q) * RtoC x))%C.
  2:{ unfold Cdiv, Rdiv. rewrite <- RtoC_mul. rewrite <- RtoC_inv by nra. rewrite <- RtoC_mul. reflexivity. }
  field. repeat split; try (apply RtoC_neq0; lra); apply Ci_neq0.
Qed.
Lemma flux_te : forall b1 v1 b2 v2, flux (s AX) 1 (as_array (e_1d q false b1 (unravel s v1))) (as_array (h_1d q false b2 (unravel s v2))) =
  (- RtoC (b2 / (4 * q_k0 q)) * (vdot (q_n q) v1 v2 + vdot (q_n q) (rolled v1) v2 + vdot (q_n q) v1 (rolled v2) + vdot (q_n q) (rolled v1) (rolled v2)))%C.
Proof.
  intros. rewrite flux_form. unfold q_n. rewrite !vdot_inner. unfold Spec_yee.inner. rewrite <- !grid_sum_add, <- grid_sum_scal.
  rewrite sum_1d. apply grid_sum_ext. intros i j k (Hi & Hj & Hk').
  assert (k = 0)%nat by lia. assert (j = 0)%nat by lia. subst.
  rewrite !unravel_rolled by (repeat split; lia).
  unfold as_array, e_1d, h_1d, avg0. rewrite prev_prv by auto.
  set (a := unravel s v1 i 0%nat 0%nat). set (a' := unravel s v1 (prv (s AX) i) 0%nat 0%nat). set (c := unravel s v2 i 0%nat 0%nat). set (c' := unravel s v2 (prv (s AX) i) 0%nat 0%nat).
  replace (Ci * RtoC b2 * c / (Ci * RtoC (q_k0 q)))%C with (RtoC (b2 / q_k0 q) * c)%C.
  2:{ unfold Rdiv. rewrite RtoC_mul, RtoC_inv by auto. field. split; [apply RtoC_neq0; auto | apply Ci_neq0]. }
  replace (Ci * RtoC b2 * c' / (Ci * RtoC (q_k0 q)))%C with (RtoC (b2 / q_k0 q) * c')%C.
  2:{ unfold Rdiv. rewrite RtoC_mul, RtoC_inv by auto. field. split; [apply RtoC_neq0; auto | apply Ci_neq0]. }
  replace (b2 / (4 * q_k0 q)) with (/ 2 * / 2 * (b2 / q_k0 q)) by (field; auto). set (w := b2 / q_k0 q).
  unfold Cdiv. rewrite <- RtoC_inv by lra. set (t := / 2).
  apply C_eq; cbn; ring.
Qed.
Lemma flux_uniform_0 : forall (tm : bool) b1 v1 b2 v2, eigen1 q (RtoC (b1 * b1)) v1 -> eigen1 q (RtoC (b2 * b2)) v2 -> b1 * b1 <> b2 * b2 ->
  flux (s AX) 1 (as_array (e_1d q tm b1 (unravel s v1))) (as_array (h_1d q tm b2 (unravel s v2))) = C0.
Proof.
  intros tm b1 v1 b2 v2 H1 H2 Hd. pose proof (rolled_eigen _ _ H1) as R1. pose proof (rolled_eigen _ _ H2) as R2. destruct tm.
  - rewrite flux_tm. rewrite (modes1_orth q _ _ _ _ H1 H2 Hd). ring.
  - rewrite flux_te. rewrite (modes1_orth q _ _ _ _ H1 H2 Hd), (modes1_orth q _ _ _ _ R1 H2 Hd), (modes1_orth q _ _ _ _ H1 R2 Hd), (modes1_orth q _ _ _ _ R1 R2 Hd). ring.
Qed.
Lemma measure_uniform : forall (tm : bool) b1 v1 b2 v2, eigen1 q (RtoC (b1 * b1)) v1 -> eigen1 q (RtoC (b2 * b2)) v2 -> b1 * b1 <> b2 * b2 ->
  let m1 := unravel_f s v1 in let m2 := unravel_f s v2 in
  measure (s AX) 1 (as_array (e_1d q tm b1 m1)) (as_array (h_1d q tm b1 m1)) (as_array (e_1d q tm b2 m2)) (as_array (h_1d q tm b2 m2)) = (C0, C0).
Proof.
  intros tm b1 v1 b2 v2 H1 H2 Hd m1 m2. unfold measure. 
  change m1 with (unravel s v1). change m2 with (unravel s v2).
  rewrite (flux_uniform_0 tm b2 v2 b1 v1) by auto. rewrite (flux_uniform_0 tm b1 v1 b2 v2) by auto.
  unfold Cdiv. f_equal; apply C_eq; cbn; ring.
Qed.
End Uniform.

(** A two-cell waveguide. *)
Definition ox : mode_solver := mkQ (fun a => match a with AX => 2 | _ => 1 end%nat) (fun _ => 1) 1 (fun i _ _ => match i with O => 7 | _ => 10 end).
Definition ox_u : vec := fun r => match r with O => RtoC 1 | _ => RtoC 2 end.
Definition ox_v : vec := fun r => match r with O => RtoC (-2) | _ => RtoC 1 end.
Lemma ox_cells : forall r, (r < q_n ox)%nat -> r = 0%nat \/ r = 1%nat.
Proof. intros r H. unfold q_n, npix, ox in H. cbn in H. lia. Qed.
Lemma ox_eigen : eigen1 ox (RtoC (3 * 3)) ox_u /\ eigen1 ox (RtoC (2 * 2)) ox_v.
Proof.
  assert (W : forall v i, (i = 0 \/ i = 1)%nat -> matvec (q_n ox) (wg_matrix_1d ox) v i =
     (RtoC (q_k0 ox * q_k0 ox) * (RtoC (q_eps ox i 0%nat 0%nat) * unravel (q_shape ox) v i 0%nat 0%nat) + diff_fn (q_shape ox) (q_dx ox) false (diff_fn (q_shape ox) (q_dx ox) true (unravel (q_shape ox) v) AX) AX i 0%nat 0%nat)%C).
  { intros v i Hi. assert (Hin : in_grid (q_shape ox) i 0%nat 0%nat) by (unfold in_grid, ox; cbn; lia).
    assert (Q : ridx (q_shape ox) i 0%nat 0%nat = i) by (unfold ridx, ox; cbn; lia). rewrite <- Q at 1. apply wg1_apply. exact Hin. }
  split; intros r Hr; destruct (ox_cells r Hr) as [-> | ->]; rewrite W by auto; unfold diff_fn, q_dx, uniform_dx, roll_m1, roll_p1, along, unravel, ridx, ox, Cdiv;
    cbn; apply C_eq; unfold Cinv, Cn2; cbn; field.
Qed.
Lemma ox_pos : pos_eps ox.
Proof. intros i j k _. unfold ox. cbn. destruct i; lra. Qed.
Lemma flux2 : forall e h : cfld, flux 2 1 e h =
  (e 0 0 0 * Cconj (h 1 0 0) - avg0 2 (e 1) 0 0 * Cconj (avg0 2 (h 0) 0 0) + (e 0 1 0 * Cconj (h 1 1 0) - avg0 2 (e 1) 1 0 * Cconj (avg0 2 (h 0) 1 0)))%C%nat.
Proof. intros. pose proof (flux_form ox eq_refl eq_refl e h) as P. change (q_shape ox AX) with 2%nat in P. rewrite P. cbn [Csum]. ring. Qed.
Lemma ox_crosstalk : forall tm : bool, let m1 := unravel_f (q_shape ox) ox_u in let m2 := unravel_f (q_shape ox) ox_v in
  measure 2 1 (as_array (e_1d ox tm 3 m1)) (as_array (h_1d ox tm 3 m1)) (as_array (e_1d ox tm 2 m2)) (as_array (h_1d ox tm 2 m2)) <> (C0, C0).
Proof.
  intros tm m1 m2 H. unfold measure in H. apply (f_equal fst) in H. cbn [fst] in H. rewrite !flux2 in H. apply (f_equal re) in H.
  destruct tm; unfold m1, m2, as_array, e_1d, h_1d, avg0, unravel_f, ridx, q_eps_t, yee_avg, avg_axis, ralong, roll_p1, roll_m1, along, ox, Cdiv, Cinv, Cn2 in H; cbn in H.
  - field_simplify in H. lra.
  - field_simplify in H. lra.
Qed.
