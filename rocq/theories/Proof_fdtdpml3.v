(** Finite propagation speed without layers, via the layer-free instance; instances. *)
From Coq Require Import Reals ZArith Lra Lia List Arith Bool FunctionalExtensionality.
From Verif Require Import Cx Arr Model_yee Spec_yee Proof_yee Proof_yee2 Model_fdtd Spec_fdtd Proof_fdtd Model_fdfd
  Model_fdtdpml Spec_fdtdpml Proof_fdtdpml Proof_fdtdpml2.
Import ListNotations.
Local Open Scope R_scope.

Definition p_none : fpml := mkPml (fun _ => 0%nat) 1 (-1) 1.
Lemma none_region : forall g i j k r, in_grid (g_shape g) i j k -> in_region g p_none r i j k = false.
Proof.
  intros g i j k [a lo] H. pose proof (in_grid_coord _ _ _ _ a H). unfold in_region, p_none. cbn [fst snd p_cells]. destruct lo.
  - apply Nat.ltb_ge. lia.
  - apply Nat.leb_gt. lia.
Qed.
Lemma grid_nb : forall s i j k i' j' k', in_grid s i j k -> (hi_nb s i j k i' j' k' \/ lo_nb s i j k i' j' k') -> in_grid s i' j' k'.
Proof.
  intros s i j k i' j' k' (A & B & D) H.
  assert (N : forall n x, (x < n)%nat -> (nxt n x < n)%nat /\ (prv n x < n)%nat) by (intros n x Hx; unfold nxt, prv; split; apply Nat.mod_upper_bound; lia).
  unfold in_grid. destruct H as [(X & Y & Z) | (X & Y & Z)];
  destruct X as [-> | ->], Y as [-> | ->], Z as [-> | ->]; repeat split; auto; apply N; auto.
Qed.
Lemma none_step : forall g jax st fs l,
  (forall i j k, in_grid (g_shape g) i j k -> forall c, ps_e st c i j k = f_e fs c i j k /\ ps_h st c i j k = f_h fs c i j k) ->
  forall i j k, in_grid (g_shape g) i j k -> forall c,
  ps_e (pstep g jax p_none st l) c i j k = f_e (step g jax fs l) c i j k /\ ps_h (pstep g jax p_none st l) c i j k = f_h (step g jax fs l) c i j k.
Proof.
  intros g jax st fs l H i j k HD c.
  assert (HE : forall i' j' k', in_grid (g_shape g) i' j' k' -> forall c, pstep_e g jax p_none st l c i' j' k' = step_e g jax fs l c i' j' k').
  { intros i' j' k' Hd c'. unfold pstep_e, step_e. apply fold_src_e_local; auto; [apply src_refl |].
    rewrite fold_region_off by (intro; apply none_region; auto).
    rewrite (proj1 (H i' j' k' Hd c')). f_equal. f_equal. unfold curl_h, curl_fn.
    destruct c'; f_equal; f_equal; apply diff_h_local; intros; apply H; eapply grid_nb; eauto. }
  unfold pstep, step. cbn [ps_e ps_h f_e f_h]. split; [apply HE; auto |].
  unfold pstep_h, step_h. apply fold_src_h_local; auto; [apply src_refl |].
  rewrite fold_region_off by (intro; apply none_region; auto).
  rewrite (proj2 (H i j k HD c)). cbv beta; f_equal. f_equal. unfold curl_e.
  assert (HC : forall c, curl_fn (diff_fn (g_shape g) (g_dx g) false) (pstep_e g jax p_none st l) c i j k =
    curl_fn (diff_fn (g_shape g) (g_dx g) false) (step_e g jax fs l) c i j k); [| apply HC].
  intro c'. unfold curl_fn. destruct c'; f_equal; try (f_equal; fail); try apply f_equal; apply diff_e_local; intros; apply HE; eapply grid_nb; eauto.
Qed.
Lemma none_run : forall g jax sch st fs,
  (forall i j k, in_grid (g_shape g) i j k -> forall c, ps_e st c i j k = f_e fs c i j k /\ ps_h st c i j k = f_h fs c i j k) ->
  forall i j k, in_grid (g_shape g) i j k -> forall c,
  ps_e (prun g jax p_none st sch) c i j k = f_e (run g jax fs sch) c i j k /\ ps_h (prun g jax p_none st sch) c i j k = f_h (run g jax fs sch) c i j k.
Proof.
  intros g jax sch. induction sch as [| l sch IH]; intros st fs H i j k HD c; cbn [prun run]; auto.
  apply IH; auto. intros. apply none_step; auto.
Qed.
Definition no_mem (st : fstate) : pstate := mkPstate (f_e st) (f_h st) zero_mem zero_mem.
Lemma finite_speed_free : forall g g' jax st st' sch sch' n i j k, in_grid (g_shape g) i j k -> length sch = n ->
  agree_grid (near (g_shape g) n i j k) g g' ->
  agree_v (near (g_shape g) n i j k) (f_e st) (f_e st') -> agree_v (near (g_shape g) n i j k) (f_h st) (f_h st') ->
  agree_schedule (near (g_shape g) n i j k) sch sch' -> forall c,
  f_e (run g jax st sch) c i j k = f_e (run g' jax st' sch') c i j k /\
  f_h (run g jax st sch) c i j k = f_h (run g' jax st' sch') c i j k.
Proof.
  intros g g' jax st st' sch sch' n i j k H0 Hn HG HE HH HF c.
  assert (Es : g_shape g = g_shape g') by (destruct HG; auto).
  destruct (none_run g jax sch (no_mem st) st ltac:(intros; split; reflexivity) i j k H0 c) as [<- <-].
  destruct (none_run g' jax sch' (no_mem st') st' ltac:(intros; split; reflexivity) i j k ltac:(rewrite <- Es; exact H0) c) as [<- <-].
  apply (finite_speed g g' jax p_none (no_mem st) (no_mem st') sch sch' n i j k H0 Hn HG); auto.
  split; [exact HE |]. split; [exact HH |]. split; intro; auto.
Qed.

(** Instances: a point change of the permittivity on the far side of the cube; the centre of the cube after no / one step. *)
Definition cube10' : fgrid := mkGrid (fun _ => 10%nat) 3 (fun _ => 1) (fun i _ _ => if Nat.eqb i 0 then 2 else 1).
Lemma speed_instance : in_grid (g_shape cube10) 5 5 5 /\ agree_grid (near (g_shape cube10) 4 5 5 5) cube10 cube10' /\ g_eps cube10 0%nat 5%nat 5%nat <> g_eps cube10' 0%nat 5%nat 5%nat.
Proof.
  unfold cube10, cube10'. split; [unfold in_grid; cbn [g_shape]; lia |]. split; [| cbn [g_eps Nat.eqb]; lra].
  unfold agree_grid. cbn [g_shape g_ndim g_spacing g_eps]. repeat split; auto. intros i j k (_ & A & _). unfold ring_dist in A.
  destruct (Nat.eqb_spec i 0); auto. subst. cbn in A. lia.
Qed.
Definition cube20 : fgrid := mkGrid (fun _ => 20%nat) 3 (fun _ => 1) (fun _ _ _ => 1).
Lemma deep_instance : wf_pml cube20 pml4 /\ deep cube20 pml4 5 9 9 9 /\ ~ deep cube20 pml4 5 8 9 9.
Proof.
  unfold wf_pml, deep, cube20, pml4. cbn [p_cells g_shape]. split; [intro; lia |]. split.
  - intros []; cbn [coord]; lia.
  - intro H. specialize (H AX). cbn [coord] in H. lia.
Qed.
