(** Translations and mirror images of FDTD runs. *)
From Coq Require Import Reals Lra Lia List Arith Bool FunctionalExtensionality.
From Verif Require Import Cx Arr Model_yee Spec_yee Proof_yee Proof_yee2 Model_fdtd Spec_fdtd Proof_fdtd Spec_sym Proof_sym.
Import ListNotations.
Local Open Scope R_scope.

(** ** Translations *)
Lemma nxt_move : forall n i d, (0 < n)%nat -> ((nxt n i + d) mod n = nxt n ((i + d) mod n))%nat.
Proof.
  intros n i d H. unfold nxt. rewrite !Nat.add_mod_idemp_l by lia. f_equal. lia.
Qed.
Lemma prv_nxt_mod : forall n i, (0 < n)%nat -> (nxt n (prv n i) = i mod n)%nat.
Proof.
  intros n i H. unfold nxt, prv. rewrite Nat.add_mod_idemp_l by lia. replace (i + n - 1 + 1)%nat with (i + 1 * n)%nat by lia.
  apply Nat.mod_add. lia.
Qed.
Lemma prv_move : forall n i d, (0 < n)%nat -> ((prv n i + d) mod n = prv n ((i + d) mod n))%nat.
Proof.
  intros n i d H. unfold prv. rewrite Nat.add_mod_idemp_l by lia.
  replace ((i + d) mod n + n - 1)%nat with ((i + d) mod n + (n - 1))%nat by lia. rewrite Nat.add_mod_idemp_l by lia. f_equal. lia.
Qed.
Section Move.
Variables (s : shape3) (a : axis) (d : nat).
Hypothesis Hs : positive_shape s.
Lemma moved_diff : forall (sp : axis -> R) o f b i j k,
  diff_fn s (uniform_dx sp) o (moved s a d f) b i j k = moved s a d (diff_fn s (uniform_dx sp) o f b) i j k.
Proof.
  intros. pose proof (Hs a) as Ha. unfold diff_fn, uniform_dx, moved, through, pick, roll_p1, roll_m1, along, coord.
  destruct a, b, o; try reflexivity; rewrite ?nxt_move, ?prv_move by auto; reflexivity.
Qed.
Lemma moved_curl : forall (sp : axis -> R) o f c i j k,
  curl_fn (diff_fn s (uniform_dx sp) o) (moved_v s a d f) c i j k = moved_v s a d (curl_fn (diff_fn s (uniform_dx sp) o) f) c i j k.
Proof.
  intros. unfold curl_fn, moved_v. destruct c; rewrite !moved_diff; unfold moved, through, pick; destruct a; reflexivity.
Qed.
Lemma moved_avg : forall b p i j k, avg_axis s b (moved s a d p) i j k = moved s a d (avg_axis s b p) i j k.
Proof.
  intros. pose proof (Hs a) as Ha. unfold avg_axis, moved, through, pick, ralong, coord.
  destruct a, b; try reflexivity; rewrite ?prv_move by auto; reflexivity.
Qed.
End Move.
Lemma rfld_eq : forall f h : rfld, (forall i j k, f i j k = h i j k) -> f = h.
Proof. intros f h H. repeat (apply functional_extensionality; intro). apply H. Qed.
Lemma moved_eps : forall g a d jax c i j k, positive_shape (g_shape g) ->
  eps_t (moved_grid a d g) jax c i j k = moved (g_shape g) a d (eps_t g jax c) i j k.
Proof.
  intros g a d jax c i j k Hs.
  assert (E : eps_t (moved_grid a d g) false c i j k = moved (g_shape g) a d (eps_t g false c) i j k).
  { unfold eps_t, moved_grid, yee_avg. cbn [g_shape g_eps]. destruct c; try (apply moved_avg; auto).
    rewrite (rfld_eq (avg_axis (g_shape g) AX (moved (g_shape g) a d (g_eps g))) (moved (g_shape g) a d (avg_axis (g_shape g) AX (g_eps g))))
      by (intros; apply moved_avg; auto). apply moved_avg; auto. }
  destruct jax; [rewrite !eps_jax |]; exact E.
Qed.
Lemma moved_run : forall g a d jax sch st, positive_shape (g_shape g) ->
  run (moved_grid a d g) jax (moved_state (g_shape g) a d st) (map (map (moved_source (g_shape g) a d)) sch) =
  moved_state (g_shape g) a d (run g jax st sch).
Proof.
  intros g a d jax sch st Hs.
  assert (Dt : dt_of (moved_grid a d g) = dt_of g) by reflexivity.
  apply (equi_run g (moved_grid a d g) jax (moved_v (g_shape g) a d) (moved_v (g_shape g) a d) (moved_source (g_shape g) a d) (fun _ => True)).
  - intros. unfold curl_h, g_dx. apply moved_curl. auto.
  - intros. unfold curl_e, g_dx. apply moved_curl. auto.
  - intros. unfold moved_v. rewrite moved_eps by auto. rewrite Dt. unfold moved, through, pick. destruct a; reflexivity.
  - intros. unfold moved_v. rewrite Dt. unfold moved, through, pick. destruct a; reflexivity.
  - intros. unfold add_src_e, moved_source. cbn [src_e src_region]. destruct (src_e x) as [v |]; cbn [option_map]; [| reflexivity].
    destruct jax; unfold at_set, at_add, moved_v; rewrite moved_eps by auto; rewrite Dt; unfold moved, through, pick; destruct a; reflexivity.
  - intros. unfold add_src_h, moved_source. cbn [src_h src_region]. destruct (src_h x) as [v |]; cbn [option_map]; [| reflexivity].
    destruct jax; unfold at_set, at_add, moved_v; rewrite Dt; unfold moved, through, pick; destruct a; reflexivity.
  - apply Forall_forall. intros l _. apply Forall_forall. auto.
Qed.

(** ** Mirror images *)
Section Image.
Variable n : nat.
Hypothesis Hn : (0 < n)%nat.
Lemma edge_nxt : forall i, edge_image n (nxt n i) = centre_image n i.
Proof.
  intros i. unfold edge_image, centre_image, nxt. pose proof (Nat.mod_upper_bound i n ltac:(lia)).
  rewrite <- (Nat.add_mod_idemp_l i 1 n) by lia. set (r := (i mod n)%nat) in *.
  destruct (Nat.eq_dec (r + 1) n) as [E | E].
  - rewrite E, Nat.mod_same by lia. rewrite Nat.mod_0_l by lia. rewrite Nat.sub_0_r, Nat.mod_same by lia. lia.
  - rewrite (Nat.mod_small (r + 1)) by lia. rewrite (Nat.mod_small (r + 1)) by lia. rewrite Nat.mod_small by lia. lia.
Qed.
Lemma nxt_centre : forall i, nxt n (centre_image n i) = edge_image n i.
Proof.
  intros i. unfold edge_image, centre_image, nxt. pose proof (Nat.mod_upper_bound i n ltac:(lia)). f_equal. lia.
Qed.
Lemma centre_prv : forall i, centre_image n (prv n i) = edge_image n i.
Proof.
  intros i. rewrite <- nxt_centre, <- edge_nxt. 
  rewrite prv_nxt_mod by auto. unfold nxt, edge_image, centre_image. rewrite Nat.mod_mod by lia.
  pose proof (Nat.mod_upper_bound i n ltac:(lia)). f_equal. lia.
Qed.
Lemma prv_edge : forall i, prv n (edge_image n i) = centre_image n i.
Proof.
  intros i. unfold edge_image, centre_image, prv. pose proof (Nat.mod_upper_bound i n ltac:(lia)). set (r := (i mod n)%nat) in *.
  replace ((n - r) mod n + n - 1)%nat with ((n - r) mod n + (n - 1))%nat by lia. rewrite Nat.add_mod_idemp_l by lia.
  replace (n - r + (n - 1))%nat with ((n - 1 - r) + 1 * n)%nat by lia. rewrite Nat.mod_add by lia. apply Nat.mod_small. lia.
Qed.
End Image.
Section Mirror.
Variables (s : shape3) (a : axis).
Hypothesis Hs : positive_shape s.
Lemma thr_diff_other : forall (sp : axis -> R) o q f b i j k, b <> a ->
  diff_fn s (uniform_dx sp) o (through a q f) b i j k = through a q (diff_fn s (uniform_dx sp) o f b) i j k.
Proof.
  intros. unfold diff_fn, uniform_dx, through, pick, roll_p1, roll_m1, along, coord.
  destruct a, b, o; try reflexivity; congruence.
Qed.
Lemma thr_diff_fwd : forall (sp : axis -> R) f i j k,
  diff_fn s (uniform_dx sp) false (through a (edge_image (s a)) f) a i j k =
  (- through a (centre_image (s a)) (diff_fn s (uniform_dx sp) false f a) i j k)%C.
Proof.
  intros. pose proof (Hs a) as Ha. unfold diff_fn, uniform_dx, through, pick, roll_p1, roll_m1, along, coord.
  destruct a; rewrite edge_nxt, nxt_centre by auto; unfold Cdiv; ring.
Qed.
Lemma thr_diff_bwd : forall (sp : axis -> R) f i j k,
  diff_fn s (uniform_dx sp) true (through a (centre_image (s a)) f) a i j k =
  (- through a (edge_image (s a)) (diff_fn s (uniform_dx sp) true f a) i j k)%C.
Proof.
  intros. pose proof (Hs a) as Ha. unfold diff_fn, uniform_dx, through, pick, roll_p1, roll_m1, along, coord.
  destruct a; rewrite centre_prv, prv_edge by auto; unfold Cdiv; ring.
Qed.
Lemma diff_opp : forall dx o f b i j k, diff_fn s dx o (fun i j k => - f i j k)%C b i j k = (- diff_fn s dx o f b i j k)%C.
Proof. intros. unfold diff_fn, roll_p1, roll_m1, along. destruct o, b; unfold Cdiv; ring. Qed.
End Mirror.
Lemma through_opp : forall a q (f : fld) i j k, through a q (fun i j k => - f i j k)%C i j k = (- through a q f i j k)%C.
Proof. intros. unfold through, pick. destruct a; reflexivity. Qed.
Lemma through_sub : forall a q (f h : fld) i j k, through a q (fun i j k => f i j k - h i j k)%C i j k = (through a q f i j k - through a q h i j k)%C.
Proof. intros. unfold through, pick. destruct a; reflexivity. Qed.
Lemma mirror_curl_e : forall s a sp e c i j k, positive_shape s ->
  curl_fn (diff_fn s (uniform_dx sp) false) (mirror_e s a e) c i j k = mirror_h s a (curl_fn (diff_fn s (uniform_dx sp) false) e) c i j k.
Proof.
  intros s a sp e c i j k Hs. unfold mirror_h, curl_fn, mirror_e.
  destruct a, c; cbn [axis_eqb]; rewrite ?through_sub;
    repeat match goal with |- context [diff_fn s ?dx false (fun i j k => (- ?F i j k)%C) ?b i j k] =>
      change (fun i j k => (- F i j k)%C) with (fun i j k => (- F i j k)%C); rewrite (diff_opp s dx false F b i j k) end;
    repeat match goal with |- context [diff_fn s (uniform_dx sp) false (fun i j k => through ?A ?q ?F i j k) ?b i j k] =>
      change (fun i j k => through A q F i j k) with (through A q F) end;
    repeat match goal with |- context [diff_fn s (uniform_dx sp) false (through ?A ?q ?F) ?b i j k] =>
      first [rewrite (thr_diff_other s A sp false q F b i j k) by discriminate | rewrite (thr_diff_fwd s A Hs sp F i j k)] end; ring.
Qed.
Lemma mirror_curl_h : forall s a sp h c i j k, positive_shape s ->
  curl_fn (diff_fn s (uniform_dx sp) true) (mirror_h s a h) c i j k = mirror_e s a (curl_fn (diff_fn s (uniform_dx sp) true) h) c i j k.
Proof.
  intros s a sp e c i j k Hs. unfold mirror_h, curl_fn, mirror_e.
  destruct a, c; cbn [axis_eqb]; rewrite ?through_sub;
    repeat match goal with |- context [diff_fn s ?dx true (fun i j k => (- ?F i j k)%C) ?b i j k] =>
      rewrite (diff_opp s dx true F b i j k) end;
    repeat match goal with |- context [diff_fn s (uniform_dx sp) true (fun i j k => through ?A ?q ?F i j k) ?b i j k] =>
      change (fun i j k => through A q F i j k) with (through A q F) end;
    repeat match goal with |- context [diff_fn s (uniform_dx sp) true (through ?A ?q ?F) ?b i j k] =>
      first [rewrite (thr_diff_other s A sp true q F b i j k) by discriminate | rewrite (thr_diff_bwd s A Hs sp F i j k)] end; ring.
Qed.
(** The permittivity of each component: E_a keeps the centred cells, the two others the averages on the edges. *)
Definition eimage (s : shape3) (a c : axis) (n : nat) : nat := if axis_eqb c a then centre_image (s a) n else edge_image (s a) n.
Lemma avg_same : forall s a p i j k, positive_shape s ->
  avg_axis s a (through a (centre_image (s a)) p) i j k = through a (edge_image (s a)) (avg_axis s a p) i j k.
Proof.
  intros s a p i j k Hs. pose proof (Hs a) as Ha. unfold avg_axis, ralong, through, pick, coord.
  destruct a; rewrite centre_prv, prv_edge by auto; lra.
Qed.
Lemma avg_other : forall s a q b p i j k, b <> a -> avg_axis s b (through a q p) i j k = through a q (avg_axis s b p) i j k.
Proof. intros. unfold avg_axis, ralong, through, pick, coord. destruct a, b; try reflexivity; congruence. Qed.
Definition z_even (g : fgrid) : Prop := forall i j k k', g_eps g i j k = g_eps g i j k'.
Lemma mirror_eps_np : forall g a c i j k, positive_shape (g_shape g) -> a <> AZ \/ z_even g ->
  eps_t (mirror_grid a g) false c i j k = through a (eimage (g_shape g) a c) (eps_t g false c) i j k.
Proof.
  intros g a c i j k Hs Ha. unfold eps_t, mirror_grid, yee_avg, eimage. cbn [g_shape g_eps]. set (s := g_shape g) in *.
  assert (EA : forall b q, b <> a -> avg_axis s b (through a q (g_eps g)) = through a q (avg_axis s b (g_eps g)))
    by (intros; apply rfld_eq; intros; apply avg_other; auto).
  assert (ES : avg_axis s a (through a (centre_image (s a)) (g_eps g)) = through a (edge_image (s a)) (avg_axis s a (g_eps g)))
    by (apply rfld_eq; intros; apply avg_same; auto).
  destruct a, c; cbn [axis_eqb]; try (rewrite ES; try (rewrite avg_other by discriminate)); try (rewrite EA by discriminate);
    try reflexivity; try (apply avg_other; discriminate); try (apply avg_same; auto).
  all: destruct Ha as [Ha | Hz]; [congruence |].
  all: unfold through, pick, avg_axis, ralong; cbn [coord];
    repeat match goal with |- context [g_eps ?G ?x ?y (?q ?K)] => rewrite (Hz x y (q K) 0%nat) end; reflexivity.
Qed.
Lemma mirror_eps : forall g jax a c i j k, positive_shape (g_shape g) -> a <> AZ \/ z_even g ->
  eps_t (mirror_grid a g) jax c i j k = through a (eimage (g_shape g) a c) (eps_t g jax c) i j k.
Proof. intros. destruct jax; [rewrite !eps_jax |]; apply mirror_eps_np; auto. Qed.
Lemma mirror_run_gen : forall g a jax sch st, positive_shape (g_shape g) -> a <> AZ \/ z_even g -> Forall electric sch ->
  run (mirror_grid a g) jax (mirror_state (g_shape g) a st) (map (map (mirror_current (g_shape g) a)) sch) =
  mirror_state (g_shape g) a (run g jax st sch).
Proof.
  intros g a jax sch st Hs Ha El.
  assert (Dt : dt_of (mirror_grid a g) = dt_of g) by reflexivity.
  apply (equi_run g (mirror_grid a g) jax (mirror_e (g_shape g) a) (mirror_h (g_shape g) a) (mirror_current (g_shape g) a) (fun x => src_h x = None)).
  - intros. unfold curl_h, g_dx. apply mirror_curl_h. auto.
  - intros. unfold curl_e, g_dx. apply mirror_curl_e. auto.
  - intros. rewrite mirror_eps by auto. rewrite Dt. unfold mirror_e, eimage. destruct (axis_eqb c a) eqn:E; unfold through, pick; destruct a; unfold Cdiv; ring.
  - intros. rewrite Dt. unfold mirror_h. destruct (axis_eqb c a); unfold through, pick; destruct a; ring.
  - intros. unfold add_src_e, mirror_current. cbn [src_e src_region]. destruct (src_e x) as [v |]; cbn [option_map]; [| reflexivity].
    destruct jax; unfold at_set, at_add, mirror_e; rewrite mirror_eps by auto; rewrite Dt; unfold eimage;
      destruct (axis_eqb c a) eqn:E; unfold through, pick; destruct a; cbn [coord];
      match goal with |- context [if ?b then _ else _] => destruct b end; unfold Cdiv; ring.
  - intros x h c i j k Hx. unfold add_src_h, mirror_current. cbn [src_h]. rewrite Hx. reflexivity.
  - exact El.
Qed.
