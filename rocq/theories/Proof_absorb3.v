(** The system of a line with layers is never singular (C153). *)
From Coq Require Import Reals Lra Lia List Arith Bool FunctionalExtensionality.
From Verif Require Import Cx Arr Model_coupling Model_yee Spec_yee Proof_yee Proof_yee2 Model_fdfd Spec_fdfd Proof_scpml Proof_fdfd Proof_fdfd2 Proof_fdfd4 Spec_absorb Proof_absorb Proof_absorb2.
Local Open Scope R_scope.

(** u(m+1) = u(m) + a(m) v(m), v(m) = v(m-1) - b(m) u(m) around a ring, where a and b have nonpositive imaginary parts, negative ones at 0. *)
Lemma ring_zero : forall n (a b u v : nat -> C), (0 < n)%nat ->
  (forall m, (m < n)%nat -> u (succ_p n m) = (u m + a m * v m)%C) -> (forall m, (m < n)%nat -> v (succ_p n m) = (v m - b (succ_p n m) * u (succ_p n m))%C) ->
  (forall m, (m < n)%nat -> im (a m) <= 0 /\ im (b m) <= 0) -> im (a 0%nat) < 0 -> im (b 0%nat) < 0 ->
  forall m, (m < n)%nat -> u m = C0 /\ v m = C0.
Proof.
  intros n a b u v Hn HU HV HI Ia Ib.
  set (J := fun m => im (Cconj (u m) * v m)%C).
  assert (D : forall m, (m < n)%nat -> J (succ_p n m) - J m = - im (a m) * Cn2 (v m) + - im (b (succ_p n m)) * Cn2 (u (succ_p n m))).
  { intros m Hm. unfold J. rewrite (HV m Hm).
    transitivity (im (Cconj (u (succ_p n m)) * v m - Cconj (u m) * v m)%C - im (b (succ_p n m) * (Cconj (u (succ_p n m)) * u (succ_p n m)))%C); [cbn; ring |].
    rewrite (HU m Hm) at 1. unfold Cn2. cbn. ring. }
  assert (S0 : Rsum n (fun m => - im (a m) * Cn2 (v m) + - im (b m) * Cn2 (u m)) = 0).
  { rewrite Rsum_add, <- (ring_sum n (fun m => - im (b m) * Cn2 (u m))), <- Rsum_add. rewrite <- (Rsum_ext n _ _ D). rewrite Rsum_sub, (ring_sum n J). ring. }
  assert (NN : forall m, (m < n)%nat -> 0 <= - im (a m) * Cn2 (v m) + - im (b m) * Cn2 (u m)).
  { intros m Hm. destruct (HI m Hm). apply Rplus_le_le_0_compat; (apply Rmult_le_pos; [lra | apply Cn2_nonneg]). }
  assert (Z := Rsum_zero_terms n _ NN S0 0%nat Hn). cbv beta in Z.
  assert (Pv : 0 <= - im (a 0%nat) * Cn2 (v 0%nat)) by (apply Rmult_le_pos; [lra | apply Cn2_nonneg]). assert (Pu : 0 <= - im (b 0%nat) * Cn2 (u 0%nat)) by (apply Rmult_le_pos; [lra | apply Cn2_nonneg]).
  assert (V0 : v 0%nat = C0). { apply Cn2_zero_iff. destruct (Rmult_integral (- im (a 0%nat)) (Cn2 (v 0%nat))); lra. }
  assert (U0 : u 0%nat = C0). { apply Cn2_zero_iff. destruct (Rmult_integral (- im (b 0%nat)) (Cn2 (u 0%nat))); lra. }
  induction m as [| m IH]; intro Hm; [auto |]. destruct (IH ltac:(lia)) as [Um Vm].
  assert (Es : succ_p n m = Datatypes.S m) by (unfold succ_p; destruct (Nat.eqb_spec (m + 1) n); lia).
  assert (U1 : u (Datatypes.S m) = C0) by (rewrite <- Es, (HU m ltac:(lia)), Um, Vm; ring). split; [exact U1 |].
  rewrite <- Es, (HV m ltac:(lia)), Es, U1, Vm. ring.
Qed.
Lemma line_op2 : forall d n t p lr pe w t1 t2 q u, line_with_layers d n t p lr pe w -> (forall i j k, 0 < t1 i j k) -> (forall i j k, 0 < q i j k) ->
  (forall m, (m < n)%nat -> op2 d t1 t2 q u m 0%nat 0%nat = C0) -> forall m, (m < n)%nat -> u m 0%nat 0%nat = C0.
Proof.
  intros d n t p lr pe w t1 t2 q u L P1 Pq H. pose proof L as (Es & _ & _ & _ & _ & Hk & _ & Ht & Hn & _).
  set (F := d_dxf d AX). set (B := d_dxb d AX). set (x := fun m => u m 0%nat 0%nat).
  set (v := fun m => (RtoC (t1 m 0%nat 0%nat) * ((x (succ_p n m) - x m) / F m))%C).
  assert (NZ : forall m, (m < n)%nat -> F m <> C0 /\ B m <> C0) by (intros m Hm; apply (line_nz d n t p lr pe w L); rewrite Es; exact Hm).
  assert (HR : forall m, (m < n)%nat -> ((v m - v (pred_p n m)) / B m = - (RtoC (q m 0%nat 0%nat) * x m))%C).
  { intros m Hm. pose proof (H m Hm) as E. unfold op2 in E. rewrite Es in E.
    rewrite (diff_bwd _ _ _ AX), (diff_bwd _ _ _ AY) in E by (repeat split; auto). unfold bwd in E. cbn [coord at_coord] in E.
    assert (Hp : (pred_p n m < n)%nat) by (unfold pred_p; destruct m; lia).
    rewrite !(diff_fwd _ _ _ AX) in E by (repeat split; auto). unfold fwd in E. cbn [coord at_coord] in E.
    assert (Zy : forall y : C, (((y - y) / d_dxb d AY 0%nat)%C = C0)) by (intro; unfold Cdiv; ring).
    change (pred_p 1 0) with 0%nat in E. rewrite Zy in E.
    assert (X : forall g z : C, (- g - C0 - z)%C = C0 -> g = (- z)%C) by (intros g z G; replace g with (- z - (- g - C0 - z))%C by ring; rewrite G; ring).
    apply X in E. unfold v, x. exact E. }
  apply (ring_zero n (fun m => F m * RtoC (/ t1 m 0%nat 0%nat))%C (fun m => B m * RtoC (q m 0%nat 0%nat))%C x v); try lia.
  - intros m Hm. unfold v. rewrite RtoC_inv by (specialize (P1 m 0%nat 0%nat); lra). field. split; [apply NZ; auto | apply RtoC_neq0; specialize (P1 m 0%nat 0%nat); lra].
  - intros m Hm. pose proof (HR (succ_p n m) (succ_lt n m Hm)) as E. rewrite pred_succ in E by auto.
    assert (E2 : (v (succ_p n m) - v m = B (succ_p n m) * - (RtoC (q (succ_p n m) 0%nat 0%nat) * x (succ_p n m)))%C) by (rewrite <- E; field; apply NZ; apply succ_lt; auto).
    replace (v (succ_p n m)) with (v m + (v (succ_p n m) - v m))%C by ring. rewrite E2. ring.
  - intros m Hm. destruct (stretch_parts d n t p lr pe w m L Hm) as ((_ & I1 & _ & I2) & _). fold F in I1. fold B in I2.
    pose proof (Rinv_0_lt_compat _ (P1 m 0%nat 0%nat)). pose proof (Pq m 0%nat 0%nat). cbn. split; nra.
  - destruct (stretch_parts d n t p lr pe w 0 L ltac:(lia)) as (_ & _ & I). destruct (I ltac:(lia)) as [I1 _]. fold F in I1. pose proof (Rinv_0_lt_compat _ (P1 0%nat 0%nat 0%nat)). cbn. nra.
  - destruct (stretch_parts d n t p lr pe w 0 L ltac:(lia)) as (_ & _ & I). destruct (I ltac:(lia)) as [_ I1]. fold B in I1. pose proof (Pq 0%nat 0%nat 0%nat). cbn. nra.
Qed.
Lemma line_ridx : forall d n t p lr pe w r, line_with_layers d n t p lr pe w -> ridx (d_shape d) r 0 0 = r /\ dn d = n.
Proof. intros d n t p lr pe w r (Es & _). unfold ridx, dn, npix. rewrite Es. split; lia. Qed.
Lemma line_regular : forall d n t p lr pe w x, line_with_layers d n t p lr pe w ->
  ((forall r, (r < n)%nat -> matvec n (mat_ez d) x r = C0) -> forall r, (r < n)%nat -> x r = C0) /\
  ((forall r, (r < n)%nat -> matvec n (mat_hz d) x r = C0) -> forall r, (r < n)%nat -> x r = C0).
Proof.
  intros d n t p lr pe w x L. pose proof L as (Es & Hb & _ & _ & _ & Hk & _ & _ & _ & _ & _ & EP).
  assert (Ex : forall r, unravel_f (d_shape d) x r 0%nat 0%nat = x r) by (intro r; unfold unravel_f; rewrite (proj1 (line_ridx d n t p lr pe w r L)); reflexivity).
  assert (IG : forall r, (r < n)%nat -> in_grid (d_shape d) r 0 0) by (intros r Hr; rewrite Es; repeat split; auto).
  split; intros H r Hr; rewrite <- Ex.
  - apply (line_op2 d n t p lr pe w (fun _ _ _ => 1) (fun _ _ _ => 1) (fun i j k => d_k0 d * d_k0 d * d_eps d AZ i j k) (unravel_f (d_shape d) x) L); auto.
    + intros. lra.
    + intros i j k. specialize (EP AZ i j k). apply Rmult_lt_0_compat; [nra | exact EP].
    + intros m Hm. rewrite <- mat_ez_op2 by auto. rewrite (proj1 (line_ridx d n t p lr pe w m L)), (proj2 (line_ridx d n t p lr pe w m L)). apply H. exact Hm.
  - apply (line_op2 d n t p lr pe w (inv_eps (d_eps d AY)) (inv_eps (d_eps d AX)) (fun i j k => d_k0 d * d_k0 d) (unravel_f (d_shape d) x) L); auto.
    + intros. unfold inv_eps. apply Rdiv_lt_0_compat; [lra | apply EP].
    + intros. nra.
    + intros m Hm. rewrite <- mat_hz_op2 by auto. rewrite (proj1 (line_ridx d n t p lr pe w m L)), (proj2 (line_ridx d n t p lr pe w m L)). apply H. exact Hm.
Qed.
