(** Statements assembled for Prop_fdtd.v, and examples. *)
From Coq Require Import Reals List Arith Lra Lia.
From Verif Require Import Cx Arr Model_yee Spec_yee Proof_yee Proof_yee2 Model_fdtd Spec_fdtd Proof_fdtd Proof_fdtd2 Proof_energy Proof_energy2 Proof_energy3.
Import ListNotations.
Local Open Scope R_scope.

Lemma eps_nz_of_lower : forall g jax lo, 0 < lo -> (forall i j k, in_grid (g_shape g) i j k -> lo <= g_eps g i j k) -> eps_nonzero g jax.
Proof. intros g jax lo Hl H c i j k Hin. pose proof (eps_t_lower g jax lo H c i j k Hin). lra. Qed.
Lemma energy_conserved : forall g jax st n, (forall c i j k, in_grid (g_shape g) i j k -> eps_t g jax c i j k <> 0) ->
  leapfrog_energy g jax (free_run g jax st n) (free_run g jax st (S n)) = leapfrog_energy g jax st (step g jax st []).
Proof.
  intros g jax st n Hnz. rewrite free_run_S. rewrite !leapfrog_WW by auto. rewrite !WW_step by auto. apply WW_run; auto.
Qed.
Lemma energy_nonnegative : forall g jax st n, wf_grid g -> (forall i j k, in_grid (g_shape g) i j k -> 1 <= g_eps g i j k) ->
  0 <= leapfrog_energy g jax (free_run g jax st n) (free_run g jax st (S n)).
Proof.
  intros g jax st n Hwf He. assert (Hnz := eps_nz_of_lower g jax 1 Rlt_0_1 He).
  rewrite free_run_S, leapfrog_WW by auto. apply (WW_nonneg g jax Hwf 1); [lra |]. intros. apply eps_t_lower; auto.
Qed.
Lemma growth_bound : forall g jax st n, wf_grid g -> (forall i j k, in_grid (g_shape g) i j k -> 1 <= g_eps g i j k) ->
  field_energy g jax (free_run g jax st n) <= 16 * ((INR n + 1) * (INR n + 1)) * field_energy g jax st.
Proof.
  intros g jax st n Hwf He. assert (Hnz := eps_nz_of_lower g jax 1 Rlt_0_1 He).
  apply (energy_growth g jax Hnz Hwf 1); [lra |]. intros. apply eps_t_lower; auto.
Qed.
Lemma uniform_bound : forall g jax kap st n, wf_grid g -> 1 < kap ->
  (forall i j k, in_grid (g_shape g) i j k -> kap <= g_eps g i j k) ->
  field_energy g jax (free_run g jax st n) <= 2 / (1 - / sqrt kap) * field_energy g jax st.
Proof.
  intros g jax kap st n Hwf Hk He. assert (Hnz := eps_nz_of_lower g jax kap ltac:(lra) He).
  assert (H := energy_bounded g jax Hnz Hwf kap ltac:(lra) (fun c i j k Hin => eps_t_lower g jax kap He c i j k Hin) st n).
  assert (Hs : 1 < sqrt kap) by (rewrite <- sqrt_1; apply sqrt_lt_1_alt; lra).
  assert (Hi : / sqrt kap < 1) by (rewrite <- Rinv_1; apply Rinv_lt_contravar; lra).
  apply Rmult_le_reg_l with (1 - / sqrt kap); [lra |].
  replace ((1 - / sqrt kap) * (2 / (1 - / sqrt kap) * field_energy g jax st)) with (2 * field_energy g jax st) by (field; lra).
  exact H.
Qed.
Lemma g1_eps : forall i j k, in_grid (g_shape g1) i j k -> 1 <= g_eps g1 i j k.
Proof. intros. unfold g1. cbn [g_eps]. lra. Qed.
Lemma unbounded_example : exists g st, wf_grid g /\ (forall i j k, in_grid (g_shape g) i j k -> g_eps g i j k = 1) /\
  forall jax M, exists n, M < field_energy g jax (free_run g jax st n).
Proof. exists g1, (mode 1 0). split; [apply wf_g1 |]. split; [intros; reflexivity |]. apply unbounded_at_1. Qed.

(** A source example on g1. *)
Definition src1 : source := mkSource (Some (fun _ _ _ _ => C1)) None (fun c i _ _ => match c, i with AZ, O => true | _, _ => false end).
Lemma source_refuted : exists g st src c i j k, wf_grid g /\ in_grid (g_shape g) i j k /\
  f_e (step g true st [src]) c i j k <> f_e (step g false st [src]) c i j k.
Proof.
  exists g1, (mode 1 0), src1, AZ, 0%nat, 0%nat, 0%nat. split; [apply wf_g1 |]. split; [unfold in_grid; simpl; lia |].
  unfold step. cbn [f_e]. intro H. rewrite (source_e_differs g1 (mode 1 0) src1 (fun _ _ _ _ => C1)) in H by reflexivity.
  assert (E : step_e g1 false (mode 1 0) [] = f_e (step g1 false (mode 1 0) [])) by reflexivity.
  rewrite E, step_mode in H. unfold mode, sg in H. cbn [f_e Nat.even] in H. apply (f_equal re) in H. cbn [re RtoC C0] in H. lra.
Qed.
Lemma np_aliasing : exists g hp st, wf_grid g /\ r_e st <> r_h st /\
  fst (step_np_heap g hp st []) (r_h st) <> hp (r_h st) /\ fst (step_np_heap g hp st []) (r_e st) <> hp (r_e st).
Proof.
  exists g1, (fun l => match l with O => f_e (mode 1 1) | _ => f_h (mode 1 1) end), (mkRefs 0 1).
  split; [apply wf_g1 |]. split; [simpl; lia |].
  destruct (np_heap_contents g1 (fun l => match l with O => f_e (mode 1 1) | _ => f_h (mode 1 1) end) (mkRefs 0 1) [] ltac:(simpl; lia))
    as (_ & E1 & E2).
  cbn [r_e r_h] in *. rewrite E1, E2.
  change (mkState (f_e (mode 1 1)) (f_h (mode 1 1))) with (mode 1 1). rewrite step_mode.
  split; intro H.
  - assert (X := f_equal (fun f => re (f AY 0%nat 0%nat 0%nat)) H). unfold mode, sg in X. cbn in X. lra.
  - assert (X := f_equal (fun f => re (f AZ 0%nat 0%nat 0%nat)) H). unfold mode, sg in X. cbn in X. lra.
Qed.
Lemma pml_instance : exists (df : fld -> axis -> fld) (b : axis -> fld) (f : vfld) br d i j k, 0 < br < 1 /\ d <> 0 /\
  b AY i j k = RtoC br /\ df (f AZ) AY i j k = RtoC d /\ df (f AY) AZ i j k = C0.
Proof.
  exists (diff_fn (fun _ => 2%nat) (uniform_dx (fun _ => 1)) true), (fun _ _ _ _ => RtoC (/ 2)),
    (fun c _ j _ => match c with AZ => RtoC (INR j) | _ => C0 end), (/ 2), 1, 0%nat, 1%nat, 0%nat.
  split; [lra |]. split; [lra |]. split; [reflexivity |].
  split; unfold diff_fn, roll_p1, along, prv, uniform_dx, coord; cbn; apply C_eq; unfold Cdiv, Cinv, Cn2; cbn; field.
Qed.
Lemma linear_instance : lin_sources C1 Ci [src1] [src1] [mkSource (Some (fun _ _ _ _ => C1 + Ci)%C) None (src_region src1)].
Proof.
  constructor; [| constructor]. split; [reflexivity |]. split; [reflexivity |]. cbn. split; auto. intros. unfold lin. ring.
Qed.
