(** In-situ backpropagation (C25), final statements. *)
From Coq Require Import Reals Lra Lia List ZArith Permutation Bool FunctionalExtensionality.
From Verif Require Import Cx Arr Spec_circuit Model_coupling Model_forward Model_insitu Spec_mesh Spec_insitu
  Proof_node Proof_mesh Proof_forward Proof_forward2 Proof_forward3 Proof_forward4 Proof_tree Proof_vector Proof_order Proof_insitu Proof_insitu2.
Import ListNotations.
Local Open Scope R_scope.

Lemma localize_F2 : forall (cols : list mesh) k (h : nat -> nat -> R) (P : node -> R -> Prop),
  (forall i nc nd, nth_error cols i = Some nc -> In nd (nodes nc) -> P nd (h (k + i)%nat (top nd))) ->
  Forall2 P (concat (map nodes cols))
    (concat (map (fun it : nat * list nat => let '(i, ts) := it in map (h i) ts)
       (combine (seq k (length (map (fun nc => map top (nodes nc)) cols))) (map (fun nc => map top (nodes nc)) cols)))).
Proof.
  induction cols as [| nc cols IH]; intros k h P H; [constructor |].
  cbn [map length seq combine concat]. apply Forall2_app.
  - pose proof (H O nc) as H0. cbn [nth_error] in H0. rewrite Nat.add_0_r in H0.
    assert (H1 : forall nd, In nd (nodes nc) -> P nd (h k (top nd))) by (intros nd Hn; apply H0; auto). clear H H0.
    induction (nodes nc) as [| a l IHl]; [constructor |]. cbn [map]. constructor; [apply H1; left; auto |].
    apply IHl. intros; apply H1; right; auto.
  - apply IH. intros i nc' nd Hn Hin. replace (S k + i)%nat with (k + S i)%nat by lia. apply H with nc'; auto.
Qed.

Lemma nth_map_combine : forall (A B D : Type) (F : A * B -> D) l1 l2 k d a b, length l1 = length l2 -> (k < length l1)%nat ->
  nth k (map F (combine l1 l2)) d = F (nth k l1 a, nth k l2 b).
Proof.
  intros A B D F l1 l2 k d a b Hl Hk. rewrite <- combine_nth by auto. rewrite <- (map_nth F).
  apply nth_indep. rewrite map_length, combine_length. lia.
Qed.

Lemma combine_snoc : forall (A B : Type) (l1 : list A) (l2 : list B) a b, length l1 = length l2 ->
  combine (l1 ++ [a]) (l2 ++ [b]) = combine l1 l2 ++ [(a, b)].
Proof.
  induction l1 as [| x l1 IH]; intros [| y l2] a b H; cbn in *; try discriminate; auto. rewrite IH by lia. reflexivity.
Qed.

Lemma run_axpy : forall ops x z y, run ops (vaxpy x z y) = vaxpy (run ops x) z (run ops y).
Proof.
  intros. transitivity (run ops (lin C1 x z y)).
  - f_equal. apply functional_extensionality. intro i. unfold lin, vaxpy. ring.
  - rewrite run_lin. apply functional_extensionality. intro i. unfold lin, vaxpy. ring.
Qed.
Lemma gammas_axpy : forall gm x z y, apply_gammas gm (vaxpy x z y) = vaxpy (apply_gammas gm x) z (apply_gammas gm y).
Proof. intros. apply functional_extensionality. intro i. unfold apply_gammas, vaxpy. ring. Qed.

Lemma vscal_inv : forall c v, c <> 0 -> v = (fun i => RtoC c * vscal (/ c) v i)%C.
Proof.
  intros c v Hc. apply functional_extensionality. intro i. unfold vscal. destruct (v i) as [a b].
  apply C_eq; cbn; field; auto.
Qed.

Lemma cost_scale : forall m cols c d x g q, c <> 0 -> d <> 0 ->
  (forall p x, matrix_fn m false p x = Some (apply_gammas (gammas p) (run (allE p (map triples cols)) x))) ->
  cost m g x q = c * d * cost m (vscal (/ d) g) (vscal (/ c) x) q.
Proof.
  intros m cols c d x g q Hc Hd Hmat. unfold cost. rewrite !Hmat.
  assert (E : run (allE q (map triples cols)) x = fun i => (RtoC c * run (allE q (map triples cols)) (vscal (/ c) x) i)%C)
    by (rewrite <- run_scal; f_equal; apply vscal_inv; auto).
  rewrite E.
  set (y := run (allE q (map triples cols)) (vscal (/ c) x)).
  transitivity (re (RtoC (c * d) * Csum (n_rails m) (fun i => vscal (/ d) g i * apply_gammas (gammas q) y i))%C).
  2: { destruct (Csum _ _) as [u v]. cbn. ring. }
  f_equal. rewrite <- Csum_scal. apply Csum_ext. intros i Hi.
  assert (Eg : g i = (RtoC d * vscal (/ d) g i)%C) by (exact (f_equal (fun f => f i) (vscal_inv d g Hd))).
  rewrite Eg at 1.
  unfold apply_gammas. replace (RtoC (c * d)) with (RtoC c * RtoC d)%C by (apply C_eq; cbn; ring). ring.
Qed.

Lemma deriv_scale : forall f h K t d, (forall s, f s = K * h s) -> derivable_pt_lim h t d -> derivable_pt_lim f t (d * K).
Proof.
  intros f h K t d H Hd. replace f with (mult_real_fct K h) by (apply functional_extensionality; intro s; unfold mult_real_fct; auto).
  rewrite Rmult_comm. apply derivable_pt_lim_scal; auto.
Qed.

(** One propagation pair: the taps are the derivatives. *)
Lemma core : forall m p c d x g cols, clean m -> c <> 0 -> d <> 0 -> columns m = Some cols ->
  exists a s e, let x' := vscal (/ c) x in
  matrix_fn m true p (vscal (/ d) g) = Some a /\
  propagate m false true p (vaxpy x' (- Ci)%C (vconj a)) = Some s /\
  propagate m false true p (vaxpy x' Ci (vconj a)) = Some e /\
  length s = (4 * length cols + 2)%nat /\ length e = (4 * length cols + 2)%nat /\
  let pw := map (fun sd : vec * vec => let '(u, v) := sd in fun r => tap c d (u r) (v r)) (combine s e) in
  (forall i nc nd, nth_error cols i = Some nc -> In nd (nodes nc) ->
     derivable_pt_lim (fun t => cost m g x (with_theta p (node_id nd) t)) (thetas p (node_id nd)) (nth (i * 4 + 2) pw (fun _ => 0) (top nd)) /\
     derivable_pt_lim (fun t => cost m g x (with_phi p (node_id nd) t)) (phis p (node_id nd)) (nth (i * 4 + 0) pw (fun _ => 0) (top nd))) /\
  (forall r, (r < n_rails m)%nat -> derivable_pt_lim (fun t => cost m g x (with_gamma p r t)) (gammas p r) (nth (4 * length cols + 1) pw (fun _ => 0) r)) /\
  (forall v y, matrix_fn m false p v = Some y ->
     (RtoC d * Csum (n_rails m) (fun i => a i * v i))%C = Csum (n_rails m) (fun i => g i * y i)%C).
Proof.
  intros m p c d x g cols Hcl Hc0 Hd0 Hcols.
  destruct (clean_run m Hcl) as (cols' & Hc & Hord & Hrail & Htri & Hin & Hmat & Hprop).
  rewrite Hcols in Hc. apply Some_inj in Hc. subst cols'.
  set (n := n_rails m) in *.
  set (x' := vscal (/ c) x). set (g' := vscal (/ d) g).
  destruct (back_adjoint m p g' Hcl) as (a & Ea & Hadj).
  destruct (Hprop p (vaxpy x' (- Ci)%C (vconj a))) as (s & Es & Ls & Ns).
  destruct (Hprop p (vaxpy x' Ci (vconj a))) as (e & Ee & Le & Ne).
  eexists a, _, _. split; [exact Ea |]. split; [exact Es |]. split; [exact Ee |].
  split; [cbn [length]; rewrite app_length; cbn [length]; lia |]. split; [cbn [length]; rewrite app_length; cbn [length]; lia |].
  set (F := fun sd : vec * vec => let '(u, v) := sd in fun r : nat => tap c d (u r) (v r)).
  assert (HF : forall f h r, F (vaxpy f (- Ci)%C h, vaxpy f Ci h) r = - im (f r * Cconj (h r))%C * (c * d)).
  { intros f h r. unfold F, tap, vaxpy. rewrite meas_im. reflexivity. }
  set (S1 := vaxpy x' (- Ci)%C (vconj a) :: s ++ _). set (S2 := vaxpy x' Ci (vconj a) :: e ++ _).
  assert (HL : length S1 = length S2) by (unfold S1, S2; cbn [length]; rewrite !app_length; cbn [length]; lia).
  assert (Hnth : forall k dflt, (k < S (4 * length cols))%nat ->
      nth k (map F (combine S1 S2)) dflt = F (nth k (vaxpy x' (- Ci)%C (vconj a) :: s) (fun _ => C0), nth k (vaxpy x' Ci (vconj a) :: e) (fun _ => C0))).
  { intros k dflt Hk. rewrite (nth_map_combine _ _ _ F S1 S2 k dflt (fun _ => C0) (fun _ => C0)); auto.
    2: unfold S1; cbn [length]; rewrite app_length; cbn [length]; lia.
    do 2 f_equal; unfold S1, S2; rewrite app_comm_cons, app_nth1; auto; cbn [length]; lia. }
  pose proof (node_grads m p x' g' a cols Hcl Hcols Hord Hrail Htri Hmat Hadj) as HN.
  assert (Hsc : forall q, cost m g x q = c * d * cost m g' x' q) by (intro q; apply (cost_scale m cols); auto; lra).
  assert (Hi4 : forall i nc, nth_error cols i = Some nc -> (i < length cols)%nat) by (intros; apply nth_error_Some; congruence).
  split; [| split].
  - intros i nc nd Hnc Hnd.
    assert (Hni : nth_error (map triples cols) i = Some (triples nc)) by (apply map_nth_error; auto).
    destruct (nth_error_split cols i Hnc) as (c1 & c2 & Ec & Lc).
    assert (Ef : firstn i (map triples cols) = map triples c1).
    { rewrite Ec, map_app. rewrite firstn_app. rewrite map_length, Lc, Nat.sub_diag. rewrite firstn_all2 by (rewrite map_length; lia).
      cbn [firstn]. rewrite app_nil_r. reflexivity. }
    split.
    + rewrite Hnth by (pose proof (Hi4 _ _ Hnc); lia).
      rewrite (proj2 (Ns i _ (fun _ => C0) Hni)), (proj2 (Ne i _ (fun _ => C0) Hni)), !run_axpy, HF, Ef.
      apply (deriv_scale _ (fun t => cost m g' x' (with_theta p (node_id nd) t))); [intro; apply Hsc |].
      exact (proj1 (HN c1 nc c2 nd Ec Hnd)).
    + rewrite Hnth by (pose proof (Hi4 _ _ Hnc); lia). rewrite Nat.add_0_r.
      rewrite (proj1 (Ns i _ (fun _ => C0) Hni)), (proj1 (Ne i _ (fun _ => C0) Hni)), !run_axpy, HF, Ef.
      apply (deriv_scale _ (fun t => cost m g' x' (with_phi p (node_id nd) t))); [intro; apply Hsc |].
      exact (proj2 (HN c1 nc c2 nd Ec Hnd)).
  - intros r Hr.
    rewrite (nth_map_combine _ _ _ F S1 S2 (4 * length cols + 1) (fun _ => 0) (fun _ => C0) (fun _ => C0)); auto.
    2: unfold S1; cbn [length]; rewrite app_length; cbn [length]; lia.
    unfold S1, S2. rewrite !app_comm_cons, !app_nth2 by (cbn [length]; lia). cbn [length].
    rewrite Ls, Le. replace (4 * length cols + 1 - S (4 * length cols))%nat with O by lia. cbn [nth].
    rewrite !run_axpy, !gammas_axpy, HF.
    apply (deriv_scale _ (fun t => cost m g' x' (with_gamma p r t))); [intro; apply Hsc |].
    apply (gamma_grad m p x' g' a cols); auto.
  - intros v y Hy. pose proof (Hadj v y Hy) as E1. fold n in E1. rewrite E1. rewrite <- Csum_scal. apply Csum_ext. intros i Hi.
    assert (Eg : g i = (RtoC d * g' i)%C) by (exact (f_equal (fun f => f i) (vscal_inv d g Hd0))).
    rewrite Eg. ring.
Qed.

Lemma last_nth_len : forall (A : Type) (l : list A) d k, length l = S k -> last l d = nth k l d.
Proof.
  intros A l d k. revert k. induction l as [| x l IH]; intros k H; [discriminate |].
  destruct k as [| k].
  - destruct l; [reflexivity | discriminate].
  - cbn [length] in H. destruct l as [| y l]; [discriminate |]. change (last (x :: y :: l) d) with (last (y :: l) d).
    rewrite (IH k) by lia. reflexivity.
Qed.

Theorem insitu_grad : forall m p x g, clean m -> 0 < power (n_rails m) x -> 0 < power (n_rails m) g ->
  exists th ph ga a, in_situ_bwd m p x g = Some (th, ph, ga, a) /\
  Forall2 (fun nd d => derivable_pt_lim (fun t => cost m g x (with_theta p (node_id nd) t)) (thetas p (node_id nd)) d) (column_order m) th /\
  Forall2 (fun nd d => derivable_pt_lim (fun t => cost m g x (with_phi p (node_id nd) t)) (phis p (node_id nd)) d) (column_order m) ph /\
  (forall r, (r < n_rails m)%nat -> derivable_pt_lim (fun t => cost m g x (with_gamma p r t)) (gammas p r) (ga r)) /\
  (forall v y, matrix_fn m false p v = Some y ->
     (RtoC (sqrt (power (n_rails m) g)) * Csum (n_rails m) (fun i => a i * v i))%C = Csum (n_rails m) (fun i => g i * y i)%C).
Proof.
  intros m p x g Hcl Hx Hg.
  destruct (clean_run m Hcl) as (cols & Hc & Hord & _).
  assert (Hc0 : vnorm (n_rails m) x <> 0) by (apply Rgt_not_eq, sqrt_lt_R0; auto).
  assert (Hd0 : vnorm (n_rails m) g <> 0) by (apply Rgt_not_eq, sqrt_lt_R0; auto).
  destruct (core m p _ _ x g cols Hcl Hc0 Hd0 Hc) as (a & s & e & Ea & Es & Ee & Ls & Le & HN & HG & HA).
  unfold in_situ_bwd. rewrite Ea. cbn [obind]. rewrite Es. cbn [obind]. rewrite Ee. cbn [obind]. rewrite Hc. cbn [obind].
  set (pw := map _ (combine s e)) in *.
  assert (Lp : length pw = S (4 * length cols + 1)) by (unfold pw; rewrite map_length, combine_length; lia).
  eexists _, _, _, a. split; [unfold localize; reflexivity |].
  split; [| split; [| split]].
  - rewrite Hord. apply (localize_F2 cols 0 (fun i => nth (i * 4 + 2) pw (fun _ => 0))).
    intros i nc nd Hnc Hnd. exact (proj1 (HN i nc nd Hnc Hnd)).
  - rewrite Hord. apply (localize_F2 cols 0 (fun i => nth (i * 4 + 0) pw (fun _ => 0))).
    intros i nc nd Hnc Hnd. exact (proj2 (HN i nc nd Hnc Hnd)).
  - intros r Hr. rewrite (last_nth_len _ pw _ _ Lp). apply HG; auto.
  - exact HA.
Qed.

Lemma derivable_Rsum : forall k (f : nat -> R -> R) t (d : nat -> R), (forall j, (j < k)%nat -> derivable_pt_lim (f j) t (d j)) ->
  derivable_pt_lim (fun s => Rsum k (fun j => f j s)) t (Rsum k d).
Proof.
  induction k as [| k IH]; intros f t d H.
  - apply (derivable_pt_lim_const 0).
  - cbn [Rsum]. apply (derivable_pt_lim_plus (fun s => Rsum k (fun j => f j s)) (f k)); [apply IH; intros; apply H; lia | apply H; lia].
Qed.

Lemma all_some_map : forall (A B : Type) (f : A -> option B) l, (forall x, In x l -> exists y, f x = Some y) ->
  exists ys, all_some (map f l) = Some ys /\ length ys = length l /\
    forall k x dy, nth_error l k = Some x -> f x = Some (nth k ys dy).
Proof.
  intros A B f l. induction l as [| x l IH]; intros H.
  - exists []. split; [reflexivity |]. split; [reflexivity |]. intros [| k] x dy E; discriminate.
  - destruct (H x (or_introl eq_refl)) as (y & Ey). destruct IH as (ys & E1 & E2 & E3); [intros; apply H; right; auto |].
    exists (y :: ys). cbn [map all_some]. rewrite Ey, E1. split; [reflexivity |]. split; [cbn [length]; congruence |].
    intros [| k] z dy E; cbn [nth_error nth] in *; [congruence | apply E3; auto].
Qed.

Lemma fold_max_pos : forall (f : nat -> R) l, (forall i, 0 <= f i) -> (exists i, In i l /\ 0 < f i) -> 0 < fold_right Rmax 0 (map f l).
Proof.
  intros f l Hf. induction l as [| a l IH]; intros (i & Hi & Hp); [destruct Hi |]. cbn [map fold_right].
  destruct Hi as [-> | Hi].
  - eapply Rlt_le_trans; [exact Hp | apply Rmax_l].
  - eapply Rlt_le_trans; [| apply Rmax_r]. apply IH. exists i; auto.
Qed.
Lemma Rsum_nonneg : forall k f, (forall i, 0 <= f i) -> 0 <= Rsum k f.
Proof. induction k as [| k IH]; intros f H; cbn [Rsum]; [lra |]. specialize (IH f H). specialize (H k). lra. Qed.
Lemma max_row_pos : forall n k X i j, (i < n)%nat -> (j < k)%nat -> X i j <> C0 -> 0 < max_row_norm n k X.
Proof.
  intros n k X i j Hi Hj HX. unfold max_row_norm. apply fold_max_pos.
  - intro r. apply sqrt_pos.
  - exists i. split; [apply in_seq; lia |]. apply sqrt_lt_R0.
    assert (Hp : 0 < Cn2 (X i j)).
    { destruct (X i j) as [u v]. unfold Cn2. cbn. destruct (Req_dec u 0) as [-> | Hu].
      - destruct (Req_dec v 0) as [-> | Hv]; [exfalso; apply HX; reflexivity |]. nra.
      - nra. }
    clear Hi HX. induction k as [| k IH]; [lia |]. cbn [Rsum].
    assert (H0 : 0 <= Cn2 (X i k)) by (unfold Cn2; nra).
    assert (H1 : 0 <= Rsum k (fun j => Cn2 (X i j))) by (apply Rsum_nonneg; intro; unfold Cn2; nra).
    destruct (Nat.eq_dec j k) as [-> | E]; [lra |]. specialize (IH ltac:(lia)). lra.
Qed.

Theorem insitu_grad_batch : forall m p k X G i1 j1 i2 j2, clean m ->
  (i1 < n_rails m)%nat -> (j1 < k)%nat -> X i1 j1 <> C0 -> (i2 < n_rails m)%nat -> (j2 < k)%nat -> G i2 j2 <> C0 ->
  exists th ph ga, in_situ_bwd_batch m p k X G = Some (th, ph, ga) /\
  Forall2 (fun nd d => derivable_pt_lim (fun t => cost_batch m k G X (with_theta p (node_id nd) t)) (thetas p (node_id nd)) d) (column_order m) th /\
  Forall2 (fun nd d => derivable_pt_lim (fun t => cost_batch m k G X (with_phi p (node_id nd) t)) (phis p (node_id nd)) d) (column_order m) ph /\
  (forall r, (r < n_rails m)%nat -> derivable_pt_lim (fun t => cost_batch m k G X (with_gamma p r t)) (gammas p r) (ga r)).
Proof.
  intros m p k X G i1 j1 i2 j2 Hcl H1 H2 HX H3 H4 HG.
  destruct (clean_run m Hcl) as (cols & Hc & Hord & _).
  pose proof (Rgt_not_eq _ _ (max_row_pos _ _ _ _ _ H1 H2 HX)) as Hc0.
  pose proof (Rgt_not_eq _ _ (max_row_pos _ _ _ _ _ H3 H4 HG)) as Hd0.
  unfold in_situ_bwd_batch. set (c := max_row_norm _ _ X) in *. set (d := max_row_norm _ _ G) in *.
  rewrite Hc. cbn [obind]. set (one := fun j : nat => _).
  assert (Hone : forall j, exists pw, one j = Some pw /\ 
     (forall i nc nd, nth_error cols i = Some nc -> In nd (nodes nc) ->
     derivable_pt_lim (fun t => cost m (fun i => G i j) (fun i => X i j) (with_theta p (node_id nd) t)) (thetas p (node_id nd)) (nth (i * 4 + 2) pw (fun _ => 0) (top nd)) /\
     derivable_pt_lim (fun t => cost m (fun i => G i j) (fun i => X i j) (with_phi p (node_id nd) t)) (phis p (node_id nd)) (nth (i * 4 + 0) pw (fun _ => 0) (top nd))) /\
  (forall r, (r < n_rails m)%nat -> derivable_pt_lim (fun t => cost m (fun i => G i j) (fun i => X i j) (with_gamma p r t)) (gammas p r) (nth (4 * length cols + 1) pw (fun _ => 0) r))).
  { intro j. destruct (core m p c d (fun i => X i j) (fun i => G i j) cols Hcl Hc0 Hd0 Hc) as (a & s & e & Ea & Es & Ee & Ls & Le & HN & HG' & _).
    eexists. split; [| split; [exact HN | exact HG']]. unfold one. rewrite Ea. cbn [obind]. rewrite Es. cbn [obind]. rewrite Ee. reflexivity. }
  destruct (all_some_map _ _ one (seq 0 k)) as (pws & Ep & Lp & Np); [intros j _; destruct (Hone j) as (pw & E & _); eauto |].
  rewrite Ep. cbn [obind]. rewrite seq_length in Lp.
  assert (Hj : forall j, (j < k)%nat -> one j = Some (nth j pws [])).
  { intros j Hj. apply Np. rewrite nth_error_nth' with (d := O) by (rewrite seq_length; auto). rewrite seq_nth by auto. reflexivity. }
  set (sm := fun (s r : nat) => Rsum k (fun j => nth s (nth j pws []) (fun _ => 0) r)).
  set (pw := map sm (seq 0 (4 * length cols + 2))).
  assert (Hpw : forall s r, (s < 4 * length cols + 2)%nat -> nth s pw (fun _ => 0) r = sm s r).
  { intros s r Hs. unfold pw. rewrite (nth_indep _ _ (sm O)) by (rewrite map_length, seq_length; auto). rewrite map_nth, seq_nth by auto. reflexivity. }
  assert (Hi4 : forall i nc, nth_error cols i = Some nc -> (i < length cols)%nat) by (intros; apply nth_error_Some; congruence).
  eexists _, _, _. split; [unfold localize; reflexivity |].
  split; [| split].
  - rewrite Hord. apply (localize_F2 cols 0 (fun i => nth (i * 4 + 2) pw (fun _ => 0))).
    intros i nc nd Hnc Hnd. rewrite Nat.add_0_l. rewrite Hpw by (pose proof (Hi4 _ _ Hnc); lia). unfold sm, cost_batch.
    apply (derivable_Rsum k (fun j t => cost m (fun i => G i j) (fun i => X i j) (with_theta p (node_id nd) t))).
    intros j Hjk. destruct (Hone j) as (q & Eq & HN & _). rewrite (Hj j Hjk) in Eq. apply Some_inj in Eq. rewrite Eq. exact (proj1 (HN i nc nd Hnc Hnd)).
  - rewrite Hord. apply (localize_F2 cols 0 (fun i => nth (i * 4 + 0) pw (fun _ => 0))).
    intros i nc nd Hnc Hnd. rewrite Nat.add_0_l. rewrite Hpw by (pose proof (Hi4 _ _ Hnc); lia). unfold sm, cost_batch.
    apply (derivable_Rsum k (fun j t => cost m (fun i => G i j) (fun i => X i j) (with_phi p (node_id nd) t))).
    intros j Hjk. destruct (Hone j) as (q & Eq & HN & _). rewrite (Hj j Hjk) in Eq. apply Some_inj in Eq. rewrite Eq. exact (proj2 (HN i nc nd Hnc Hnd)).
  - intros r Hr. rewrite (last_nth_len _ pw _ (4 * length cols + 1)) by (unfold pw; rewrite map_length, seq_length; lia).
    rewrite Hpw by lia. unfold sm, cost_batch.
    apply (derivable_Rsum k (fun j t => cost m (fun i => G i j) (fun i => X i j) (with_gamma p r t))).
    intros j Hjk. destruct (Hone j) as (q & Eq & _ & HN). rewrite (Hj j Hjk) in Eq. apply Some_inj in Eq. rewrite Eq. exact (HN r Hr).
Qed.
