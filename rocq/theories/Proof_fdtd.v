(** FDTD without PML: linearity, charge conservation, numpy/jax differences, aliasing, PML memory. *)
From Coq Require Import Reals Lra Lia List Arith Bool FunctionalExtensionality.
From Verif Require Import Cx Arr Model_yee Spec_yee Proof_yee Proof_yee2 Model_fdtd Spec_fdtd.
Import ListNotations.
Local Open Scope R_scope.

Lemma eps_jax : forall g, eps_t g true = eps_t g false.
Proof. intros. unfold eps_t. apply functional_extensionality; intro c. destruct c; reflexivity. Qed.

(** ** Linearity *)
Lemma curl_lin : forall s dx o al be f g c i j k,
  curl_fn (diff_fn s dx o) (lin al be f g) c i j k =
  (al * curl_fn (diff_fn s dx o) f c i j k + be * curl_fn (diff_fn s dx o) g c i j k)%C.
Proof. intros. unfold curl_fn, lin. destruct c; rewrite !diff_add, !diff_scal; ring. Qed.
Lemma curl_same : forall s dx o f g, same_vfld f g -> forall c i j k,
  curl_fn (diff_fn s dx o) f c i j k = curl_fn (diff_fn s dx o) g c i j k.
Proof.
  intros s dx o f g H. assert (E : f = g).
  { repeat (apply functional_extensionality; intro). apply H. }
  subst; auto.
Qed.
Lemma same_eq : forall f g : vfld, same_vfld f g -> f = g.
Proof. intros f g H. repeat (apply functional_extensionality; intro). apply H. Qed.

Lemma add_src_e_lin : forall g jax al be a b r e1 e2 e3, lin_source al be a b r -> e3 = lin al be e1 e2 ->
  add_src_e g jax e3 r = lin al be (add_src_e g jax e1 a) (add_src_e g jax e2 b).
Proof.
  intros g jax al be a b r e1 e2 e3 (Ha & Hb & He & _) E. subst e3. unfold add_src_e.
  destruct (src_e a) as [fa |], (src_e b) as [fb |], (src_e r) as [fr |]; simpl in He; try tauto.
  apply same_eq. intros c i j k. unfold lin, at_set, at_add, Cdiv.
  destruct jax; rewrite Ha, Hb; destruct (src_region r c i j k); auto; rewrite He; unfold lin; ring.
Qed.
Lemma add_src_h_lin : forall g jax al be a b r e1 e2 e3, lin_source al be a b r -> e3 = lin al be e1 e2 ->
  add_src_h g jax e3 r = lin al be (add_src_h g jax e1 a) (add_src_h g jax e2 b).
Proof.
  intros g jax al be a b r e1 e2 e3 (Ha & Hb & _ & He) E. subst e3. unfold add_src_h.
  destruct (src_h a) as [fa |], (src_h b) as [fb |], (src_h r) as [fr |]; simpl in He; try tauto.
  apply same_eq. intros c i j k. unfold lin, at_set, at_add, Cdiv.
  destruct jax; rewrite Ha, Hb; destruct (src_region r c i j k); auto; rewrite He; unfold lin; ring.
Qed.
Lemma fold_lin : forall al be (F : vfld -> source -> vfld),
  (forall a b r e1 e2 e3, lin_source al be a b r -> e3 = lin al be e1 e2 -> F e3 r = lin al be (F e1 a) (F e2 b)) ->
  forall la lb lr, lin_sources al be la lb lr -> forall e1 e2 e3, e3 = lin al be e1 e2 ->
  fold_left F lr e3 = lin al be (fold_left F la e1) (fold_left F lb e2).
Proof.
  intros al be F HF la lb lr H. induction H as [| a b r la lb lr Hs Hl IH]; intros e1 e2 e3 E; simpl; auto.
Qed.
Lemma step_lin : forall g jax al be s1 s2 l1 l2 l3, lin_sources al be l1 l2 l3 ->
  step g jax (lin_state al be s1 s2) l3 = lin_state al be (step g jax s1 l1) (step g jax s2 l2).
Proof.
  intros g jax al be s1 s2 l1 l2 l3 H.
  assert (He : step_e g jax (lin_state al be s1 s2) l3 = lin al be (step_e g jax s1 l1) (step_e g jax s2 l2)).
  { unfold step_e. apply (fold_lin al be _ (fun a b r e1 e2 e3 => add_src_e_lin g jax al be a b r e1 e2 e3) l1 l2 l3 H).
    apply same_eq. intros c i j k. unfold curl_h. cbn [f_e f_h lin_state]. rewrite curl_lin. unfold lin, Cdiv. ring. }
  unfold step. rewrite He. unfold lin_state. cbn [f_e f_h]. f_equal. unfold step_h.
  apply (fold_lin al be _ (fun a b r e1 e2 e3 => add_src_h_lin g jax al be a b r e1 e2 e3) l1 l2 l3 H).
  apply same_eq. intros c i j k. unfold curl_e. rewrite curl_lin. unfold lin, Cdiv. ring.
Qed.
Lemma run_lin : forall g jax al be l1 l2 l3, lin_schedule al be l1 l2 l3 -> forall s1 s2,
  run g jax (lin_state al be s1 s2) l3 = lin_state al be (run g jax s1 l1) (run g jax s2 l2).
Proof.
  intros g jax al be l1 l2 l3 H. induction H as [| a b r la lb lr Hs Hl IH]; intros s1 s2; simpl; auto.
  rewrite (step_lin g jax al be s1 s2 a b r Hs). apply IH.
Qed.
Lemma zero_fix : forall g jax, step g jax zero_state [] = zero_state.
Proof.
  intros. unfold step, step_e, step_h, zero_state. cbn [fold_left f_e f_h].
  assert (Hz : forall s dx o c i j k, curl_fn (diff_fn s dx o) zero_vfld c i j k = C0).
  { intros. unfold curl_fn, zero_vfld, diff_fn, roll_m1, roll_p1, along, Cdiv. destruct c, o; ring. }
  assert (E : (fun c i j k => (zero_vfld c i j k + curl_h g zero_vfld c i j k / RtoC (eps_t g jax c i j k) * RtoC (dt_of g))%C)
    = zero_vfld).
  { apply same_eq; intros c i j k. unfold curl_h. rewrite Hz. unfold zero_vfld, Cdiv; ring. }
  rewrite E. f_equal. apply same_eq; intros c i j k. unfold curl_e. rewrite Hz. unfold zero_vfld; ring.
Qed.
Lemma zero_fix_n : forall g jax n, free_run g jax zero_state n = zero_state.
Proof. intros. unfold free_run. induction n; simpl; auto. rewrite zero_fix. auto. Qed.

(** ** numpy sources are additive *)
Lemma fold_src_e_np : forall g l e c i j k,
  fold_left (add_src_e g false) l e c i j k =
  (e c i j k - current src_e l c i j k / RtoC (eps_t g false c i j k) * RtoC (dt_of g))%C.
Proof.
  intros g l. induction l as [| s l IH]; intros e c i j k; cbn [fold_left current].
  - unfold zero_vfld, Cdiv. ring.
  - rewrite IH. unfold add_src_e, masked. destruct (src_e s) as [v |]; cbv beta iota zeta; unfold at_add;
      [destruct (src_region s c i j k) |]; unfold Cdiv; ring.
Qed.
Lemma fold_src_h_np : forall g l e c i j k,
  fold_left (add_src_h g false) l e c i j k = (e c i j k - current src_h l c i j k * RtoC (dt_of g))%C.
Proof.
  intros g l. induction l as [| s l IH]; intros e c i j k; cbn [fold_left current].
  - unfold zero_vfld, Cdiv. ring.
  - rewrite IH. unfold add_src_h, masked. destruct (src_h s) as [v |]; cbv beta iota zeta; unfold at_add;
      [destruct (src_region s c i j k) |]; unfold Cdiv; ring.
Qed.

(** ** Charge *)
Lemma div_lin : forall s dx o al be f g i j k,
  divergence (diff_fn s dx o) (lin al be f g) i j k =
  (al * divergence (diff_fn s dx o) f i j k + be * divergence (diff_fn s dx o) g i j k)%C.
Proof. intros. unfold divergence, lin. rewrite !diff_add, !diff_scal. ring. Qed.
Lemma div_ext : forall s dx o f g i j k, (forall c i j k, in_grid s i j k -> f c i j k = g c i j k) -> in_grid s i j k ->
  divergence (diff_fn s dx o) f i j k = divergence (diff_fn s dx o) g i j k.
Proof.
  intros s dx o f g i j k H Hin. unfold divergence.
  rewrite (diff_ext s dx o (f AX) (g AX)), (diff_ext s dx o (f AY) (g AY)), (diff_ext s dx o (f AZ) (g AZ)); auto.
Qed.
Definition eps_nonzero (g : fgrid) (jax : bool) : Prop :=
  forall c i j k, in_grid (g_shape g) i j k -> eps_t g jax c i j k <> 0.
Lemma RtoC_div_cancel : forall x z, x <> 0 -> (RtoC x * (z / RtoC x))%C = z.
Proof. intros. field. apply RtoC_neq0; auto. Qed.
Lemma continuity_D : forall g st l i j k, eps_nonzero g false -> in_grid (g_shape g) i j k ->
  div_D g false (step g false st l) i j k =
  (div_D g false st i j k -
   RtoC (dt_of g) * divergence (diff_fn (g_shape g) (g_dx g) true) (current src_e l) i j k)%C.
Proof.
  intros g st l i j k He Hin. unfold div_D, step. cbn [f_e].
  rewrite (div_ext _ _ _ _ (lin C1 (RtoC (dt_of g)) (displacement g false (f_e st))
    (lin C1 (- C1)%C (curl_h g (f_h st)) (current src_e l))) i j k); auto.
  - rewrite !div_lin. unfold curl_h. rewrite div_curl_gen. ring.
  - intros c x y z Hx. unfold displacement, step_e. rewrite fold_src_e_np. unfold lin.
    pose proof (He c x y z Hx) as Hn. pose proof (RtoC_neq0 _ Hn). field. auto.
Qed.
Lemma continuity_B : forall g st l i j k, in_grid (g_shape g) i j k ->
  div_B g (step g false st l) i j k =
  (div_B g st i j k - RtoC (dt_of g) * divergence (diff_fn (g_shape g) (g_dx g) false) (current src_h l) i j k)%C.
Proof.
  intros g st l i j k Hin. unfold div_B, step. cbn [f_h].
  rewrite (div_ext _ _ _ _ (lin C1 (- RtoC (dt_of g))%C (f_h st)
    (lin C1 C1 (curl_e g (step_e g false st l)) (current src_h l))) i j k); auto.
  - rewrite !div_lin. unfold curl_e. rewrite div_curl_gen. ring.
  - intros c x y z Hx. unfold step_h. rewrite fold_src_h_np. unfold lin. ring.
Qed.
Lemma free_step_jax : forall g st, step g true st [] = step g false st [].
Proof. intros. unfold step, step_e, step_h. cbn [fold_left]. rewrite eps_jax. reflexivity. Qed.
Lemma free_run_jax : forall g st n, free_run g true st n = free_run g false st n.
Proof.
  intros g st n. unfold free_run. revert st. induction n; intros; cbn [repeat run]; [reflexivity |]. rewrite free_step_jax. apply IHn.
Qed.
Lemma free_run_S : forall g jax st n, free_run g jax st (S n) = step g jax (free_run g jax st n) [].
Proof.
  intros g jax st n. unfold free_run. revert st. induction n; intros st; [reflexivity |].
  change (repeat (@nil source) (S (S n))) with ([] :: repeat (@nil source) (S n)). cbn [run]. rewrite IHn. reflexivity.
Qed.
Lemma div_zero : forall s dx o i j k, divergence (diff_fn s dx o) zero_vfld i j k = C0.
Proof. intros. unfold divergence, zero_vfld, diff_fn, roll_m1, roll_p1, along, Cdiv. destruct o; ring. Qed.
Lemma charge_const : forall g jax st n i j k, eps_nonzero g jax -> in_grid (g_shape g) i j k ->
  div_D g jax (free_run g jax st n) i j k = div_D g jax st i j k /\
  div_B g (free_run g jax st n) i j k = div_B g st i j k.
Proof.
  intros g jax st n i j k He Hin.
  assert (Hj : eps_nonzero g false) by (destruct jax; [unfold eps_nonzero in *; rewrite eps_jax in He |]; auto).
  assert (Ed : forall s, div_D g jax s i j k = div_D g false s i j k).
  { intro s. destruct jax; [unfold div_D, displacement; rewrite eps_jax; reflexivity | reflexivity]. }
  rewrite !Ed. assert (Er : free_run g jax st n = free_run g false st n) by (destruct jax; [apply free_run_jax | reflexivity]).
  rewrite Er. clear Er. induction n as [| n [IH1 IH2]]; [split; reflexivity |].
  rewrite free_run_S. rewrite continuity_D, continuity_B by auto.
  change (current src_e []) with zero_vfld. change (current src_h []) with zero_vfld. rewrite !div_zero.
  rewrite IH1, IH2. split; ring.
Qed.
