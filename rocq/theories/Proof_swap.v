(** FDTD with exchanged and rotated axes. *)
From Coq Require Import Reals Lra Lia List Arith Bool FunctionalExtensionality.
From Verif Require Import Cx Arr Model_yee Spec_yee Proof_yee Proof_yee2 Model_fdtd Spec_fdtd Proof_fdtd Spec_sym Proof_sym Spec_swap.
Import ListNotations.
Local Open Scope R_scope.

Lemma other_invol : forall a, other (other a) = a. Proof. intros []; reflexivity. Qed.

(** ** x and y exchanged *)
Lemma diff_flip : forall s dx o f a i j k,
  diff_fn (fun a => s (other a)) (fun a => dx (other a)) o (flip f) a i j k = diff_fn s dx o f (other a) j i k.
Proof. intros s dx o f a i j k. destruct a; reflexivity. Qed.
Lemma diff_flip_opp : forall s dx o f a i j k,
  diff_fn (fun a => s (other a)) (fun a => dx (other a)) o (fun i j k => - flip f i j k)%C a i j k = (- diff_fn s dx o f (other a) j i k)%C.
Proof.
  intros s dx o f a i j k. rewrite <- diff_flip. unfold diff_fn, roll_m1, roll_p1, along, Cdiv. destruct o, a; ring.
Qed.
Lemma curl_flip_e : forall s dx o e c i j k,
  curl_fn (diff_fn (fun a => s (other a)) (fun a => dx (other a)) o) (flip_e e) c i j k = (- curl_fn (diff_fn s dx o) e (other c) j i k)%C.
Proof.
  intros s dx o e c i j k. unfold curl_fn, flip_e. destruct c; cbn [other]; rewrite !diff_flip; cbn [other]; ring.
Qed.
Lemma curl_flip_h : forall s dx o h c i j k,
  curl_fn (diff_fn (fun a => s (other a)) (fun a => dx (other a)) o) (flip_h h) c i j k = curl_fn (diff_fn s dx o) h (other c) j i k.
Proof.
  intros s dx o h c i j k. unfold curl_fn, flip_h. destruct c; cbn [other]; rewrite !diff_flip_opp; cbn [other]; ring.
Qed.
Lemma avg_flip : forall s a p i j k, avg_axis (fun a => s (other a)) a (flip p) i j k = flip (avg_axis s (other a) p) i j k.
Proof. intros s a p i j k. destruct a; reflexivity. Qed.
Lemma rfld_eq : forall f h : rfld, (forall i j k, f i j k = h i j k) -> f = h.
Proof. intros f h H. do 3 (apply functional_extensionality; intro). apply H. Qed.
Lemma yee_flip : forall s p c i j k, yee_avg (fun a => s (other a)) (flip p) c i j k = yee_avg s p (other c) j i k.
Proof.
  intros s p c i j k. unfold yee_avg. destruct c; cbn [other]; rewrite ?avg_flip; try reflexivity.
  rewrite (rfld_eq (avg_axis (fun a => s (other a)) AX (flip p)) (flip (avg_axis s AY p))) by (intros; apply avg_flip).
  rewrite avg_flip. cbn [other]. unfold flip, avg_axis, ralong. lra.
Qed.
Lemma yee_jax_flip : forall s p c i j k, yee_avg_jax (fun a => s (other a)) (flip p) c i j k = yee_avg_jax s p (other c) j i k.
Proof.
  intros s p c i j k. unfold yee_avg_jax. destruct c; cbn [other]; rewrite ?avg_flip; try reflexivity.
  rewrite (rfld_eq (avg_axis (fun a => s (other a)) AX (flip p)) (flip (avg_axis s AY p))) by (intros; apply avg_flip).
  rewrite avg_flip. cbn [other]. unfold flip, avg_axis, ralong. lra.
Qed.
Lemma eps_flip : forall g jax c i j k, eps_t (flip_grid g) jax c i j k = eps_t g jax (other c) j i k.
Proof. intros g [|] c i j k; unfold eps_t, flip_grid; cbn [g_shape g_eps]; [apply yee_jax_flip | apply yee_flip]. Qed.

Section Flip.
Variable g : fgrid.
Hypothesis Hn : (2 <= g_ndim g)%nat.
Lemma active_flip : forall a, is_active (flip_grid g) a = is_active g (other a).
Proof.
  intros a. unfold is_active, flip_grid; cbn [g_ndim]. destruct a; cbn [other axis_no]; try reflexivity;
  (destruct (Nat.ltb_spec 0 (g_ndim g)); destruct (Nat.ltb_spec 1 (g_ndim g)); try reflexivity; lia).
Qed.
Lemma dx_flip : g_dx (flip_grid g) = fun a => g_dx g (other a).
Proof.
  apply functional_extensionality; intro a. apply functional_extensionality; intro m. unfold g_dx, uniform_dx. rewrite active_flip.
  destruct (is_active g (other a)); reflexivity.
Qed.
Lemma dt_flip : dt_of (flip_grid g) = dt_of g.
Proof.
  unfold dt_of. assert (E : forall a, inv_sq (flip_grid g) a = inv_sq g (other a)).
  { intro a. unfold inv_sq. rewrite active_flip. reflexivity. }
  rewrite !E. cbn [other]. do 2 f_equal. lra.
Qed.
Lemma src_e_flip : forall jax l e, fold_left (add_src_e (flip_grid g) jax) (map flip_source l) (flip_e e) = flip_e (fold_left (add_src_e g jax) l e).
Proof.
  intros jax l. induction l as [| x l IH]; intro e; [reflexivity |]. cbn [map fold_left]. rewrite <- IH. f_equal.
  apply same_eq. intros c i j k. unfold add_src_e, flip_source at 1; cbn [src_e]. destruct (src_e x) as [v |]; cbn [option_map]; [| reflexivity].
  rewrite dt_flip. destruct jax; unfold at_set, at_add, flip_e, flip; cbn [src_region flip_source]; rewrite eps_flip; reflexivity.
Qed.
Lemma src_h_flip : forall jax l h, fold_left (add_src_h (flip_grid g) jax) (map flip_source l) (flip_h h) = flip_h (fold_left (add_src_h g jax) l h).
Proof.
  intros jax l. induction l as [| x l IH]; intro h; [reflexivity |]. cbn [map fold_left]. rewrite <- IH. f_equal.
  apply same_eq. intros c i j k. unfold add_src_h, flip_source at 1; cbn [src_h]. destruct (src_h x) as [v |]; cbn [option_map]; [| reflexivity].
  rewrite dt_flip. destruct jax; unfold at_set, at_add; cbn [src_region flip_source]; unfold flip_h, flip;
    destruct (src_region x (other c) j i k); ring.
Qed.
Lemma flip_step : forall jax st l, step (flip_grid g) jax (flip_state st) (map flip_source l) = flip_state (step g jax st l).
Proof.
  intros jax st l.
  assert (Ee : step_e (flip_grid g) jax (flip_state st) (map flip_source l) = flip_e (step_e g jax st l)).
  { unfold step_e. rewrite <- src_e_flip. f_equal. apply same_eq. intros c i j k. unfold curl_h. rewrite dx_flip, dt_flip, eps_flip.
    cbn [flip_state f_e f_h flip_grid g_shape]. rewrite curl_flip_h. reflexivity. }
  unfold step. rewrite Ee. unfold flip_state at 2; cbn [f_e f_h]. f_equal.
  unfold step_h. rewrite <- src_h_flip. f_equal. apply same_eq. intros c i j k. unfold curl_e. rewrite dx_flip, dt_flip.
  cbn [flip_state f_e f_h flip_grid g_shape]. rewrite curl_flip_e. unfold flip_h, flip. ring.
Qed.
Lemma flip_run : forall jax sch st, run (flip_grid g) jax (flip_state st) (map (map flip_source) sch) = flip_state (run g jax st sch).
Proof. intros jax sch. induction sch as [| l sch IH]; intro st; [reflexivity |]. cbn [map run]. rewrite flip_step. apply IH. Qed.
End Flip.

(** ** Rotated axes *)
Lemma diff_cycle : forall s dx o f a i j k,
  diff_fn (fun a => s (after a)) (fun a => dx (after a)) o (cycle f) a i j k = diff_fn s dx o f (after a) k i j.
Proof. intros s dx o f a i j k. destruct a; reflexivity. Qed.
Lemma curl_cycle : forall s dx o f c i j k,
  curl_fn (diff_fn (fun a => s (after a)) (fun a => dx (after a)) o) (cycle_v f) c i j k = curl_fn (diff_fn s dx o) f (after c) k i j.
Proof. intros s dx o f c i j k. unfold curl_fn, cycle_v. destruct c; cbn [after]; rewrite !diff_cycle; reflexivity. Qed.
Lemma eps_const : forall g jax x, (forall i j k, g_eps g i j k = x) -> forall c i j k, eps_t g jax c i j k = x.
Proof.
  intros g jax x H c i j k. assert (A : forall a p y, (forall i j k, p i j k = y) -> forall i j k, avg_axis (g_shape g) a p i j k = y).
  { intros a p y Hp i0 j0 k0. unfold avg_axis, ralong. destruct a; rewrite !Hp; lra. }
  unfold eps_t, yee_avg, yee_avg_jax. destruct jax, c; repeat (apply A; intros); apply H.
Qed.
Section Cycle.
Variables (g : fgrid) (x : R).
Hypothesis Hn : g_ndim g = 3%nat.
Hypothesis Hx : forall i j k, g_eps g i j k = x.
Lemma active_cycle : forall a, is_active (cycle_grid g) a = true /\ is_active g a = true.
Proof. intro a. unfold is_active, cycle_grid; cbn [g_ndim]. rewrite Hn. destruct a; split; reflexivity. Qed.
Lemma dx_cycle : g_dx (cycle_grid g) = fun a => g_dx g (after a).
Proof.
  apply functional_extensionality; intro a. apply functional_extensionality; intro m. unfold g_dx, uniform_dx.
  rewrite (proj1 (active_cycle a)), (proj2 (active_cycle (after a))). reflexivity.
Qed.
Lemma dt_cycle : dt_of (cycle_grid g) = dt_of g.
Proof.
  unfold dt_of. assert (E : forall a, inv_sq (cycle_grid g) a = inv_sq g (after a)).
  { intro a. unfold inv_sq. rewrite (proj1 (active_cycle a)), (proj2 (active_cycle (after a))). reflexivity. }
  rewrite !E. cbn [after]. do 2 f_equal. lra.
Qed.
Lemma eps_cycle : forall jax c i j k, eps_t (cycle_grid g) jax c i j k = eps_t g jax (after c) k i j.
Proof. intros. rewrite (eps_const g jax x) by auto. apply eps_const. intros. unfold cycle_grid, cycle; cbn [g_eps]. auto. Qed.
Lemma src_e_cycle : forall jax l e, fold_left (add_src_e (cycle_grid g) jax) (map cycle_source l) (cycle_v e) = cycle_v (fold_left (add_src_e g jax) l e).
Proof.
  intros jax l. induction l as [| y l IH]; intro e; [reflexivity |]. cbn [map fold_left]. rewrite <- IH. f_equal.
  apply same_eq. intros c i j k. unfold add_src_e, cycle_source at 1; cbn [src_e]. destruct (src_e y) as [v |]; cbn [option_map]; [| reflexivity].
  rewrite dt_cycle. destruct jax; unfold at_set, at_add, cycle_v, cycle; cbn [src_region cycle_source]; rewrite eps_cycle; reflexivity.
Qed.
Lemma src_h_cycle : forall jax l h, fold_left (add_src_h (cycle_grid g) jax) (map cycle_source l) (cycle_v h) = cycle_v (fold_left (add_src_h g jax) l h).
Proof.
  intros jax l. induction l as [| y l IH]; intro h; [reflexivity |]. cbn [map fold_left]. rewrite <- IH. f_equal.
  apply same_eq. intros c i j k. unfold add_src_h, cycle_source at 1; cbn [src_h]. destruct (src_h y) as [v |]; cbn [option_map]; [| reflexivity].
  rewrite dt_cycle. destruct jax; unfold at_set, at_add, cycle_v, cycle; cbn [src_region cycle_source]; reflexivity.
Qed.
Lemma cycle_step : forall jax st l, step (cycle_grid g) jax (cycle_state st) (map cycle_source l) = cycle_state (step g jax st l).
Proof.
  intros jax st l.
  assert (Ee : step_e (cycle_grid g) jax (cycle_state st) (map cycle_source l) = cycle_v (step_e g jax st l)).
  { unfold step_e. rewrite <- src_e_cycle. f_equal. apply same_eq. intros c i j k. unfold curl_h. rewrite dx_cycle, dt_cycle, eps_cycle.
    cbn [cycle_state f_e f_h cycle_grid g_shape]. rewrite curl_cycle. reflexivity. }
  unfold step. rewrite Ee. unfold cycle_state at 2; cbn [f_e f_h]. f_equal.
  unfold step_h. rewrite <- src_h_cycle. f_equal. apply same_eq. intros c i j k. unfold curl_e. rewrite dx_cycle, dt_cycle.
  cbn [cycle_state f_e f_h cycle_grid g_shape]. rewrite curl_cycle. reflexivity.
Qed.
Lemma cycle_run : forall jax sch st, run (cycle_grid g) jax (cycle_state st) (map (map cycle_source) sch) = cycle_state (run g jax st sch).
Proof. intros jax sch. induction sch as [| l sch IH]; intro st; [reflexivity |]. cbn [map run]. rewrite cycle_step. apply IH. Qed.
End Cycle.

(** Two layers. *)
Definition two_layers : fgrid := mkGrid (fun a => match a with AZ => 2%nat | _ => 1%nat end) 3 (fun _ => 1) (fun i j k => if Nat.eqb k 0 then 1 else 2).
Definition sheet : fstate := mkState zero_vfld (fun c i j k => match c with AX => if Nat.eqb k 0 then C1 else C0 | _ => C0 end).
Lemma cycle_bad : wf_grid two_layers /\ (forall i j k, 1 <= g_eps two_layers i j k) /\
  forall jax, free_run (cycle_grid two_layers) jax (cycle_state sheet) 1 <> cycle_state (free_run two_layers jax sheet 1).
Proof.
  split; [| split].
  - repeat split; try (cbn; lia); try (intro a; destruct a; cbn; try lia; intro; discriminate); intros; cbn; lra.
  - intros i j k. cbn. destruct (Nat.eqb k 0); lra.
  - intros jax H. apply (f_equal (fun st => f_e st AX 0%nat 0%nat 0%nat)) in H. unfold free_run in H. cbn [repeat run] in H.
    change (step_e (cycle_grid two_layers) jax (cycle_state sheet) [] AX 0%nat 0%nat 0%nat = step_e two_layers jax sheet [] AY 0%nat 0%nat 0%nat) in H.
    unfold step_e in H. cbn [fold_left] in H.
    rewrite dt_cycle in H by reflexivity.
    assert (E1 : eps_t (cycle_grid two_layers) jax AX 0%nat 0%nat 0%nat = 3 / 2).
    { destruct jax; unfold eps_t, yee_avg, yee_avg_jax, avg_axis, ralong, cycle_grid, cycle, two_layers, prv; cbn; lra. }
    assert (E2 : eps_t two_layers jax AY 0%nat 0%nat 0%nat = 1).
    { destruct jax; unfold eps_t, yee_avg, yee_avg_jax, avg_axis, ralong, two_layers, prv; cbn; lra. }
    rewrite E1, E2 in H. unfold curl_h in H. rewrite dx_cycle in H by reflexivity.
    cbn [cycle_grid g_shape] in H. unfold cycle_state in H; cbn [f_h] in H. rewrite curl_cycle in H. cbn [after] in H.
    assert (E3 : curl_fn (diff_fn (g_shape two_layers) (g_dx two_layers) true) (f_h sheet) AY 0%nat 0%nat 0%nat = C1).
    { unfold curl_fn, diff_fn, g_dx, uniform_dx, is_active, two_layers, sheet, roll_p1, along, coord, prv. cbn -[Cdiv]. apply C_eq; unfold Cdiv, Cinv, Cn2; cbn; field. }
    cbn [g_shape] in E3. rewrite E3 in H. apply (f_equal re) in H.
    assert (D : 0 < dt_of two_layers).
    { unfold dt_of. apply Rdiv_lt_0_compat; [lra |]. apply sqrt_lt_R0. unfold inv_sq, is_active, two_layers; cbn. lra. }
    revert H. unfold sheet, cycle_v, cycle, zero_vfld, Cdiv. rewrite <- !RtoC_inv by lra. cbn. intro H. nra.
Qed.
