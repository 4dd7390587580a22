From Coq Require Import Reals List Arith Lia Lra FunctionalExtensionality.
From Verif Require Import Cx Arr Model_coupling Model_forward Spec_circuit Spec_mesh Model_adj Spec_adj Proof_adj Model_matopt Spec_matopt Proof_mesh Proof_forward Prop_forward Prop_adj Spec_insitu.
Import ListNotations.
Local Open Scope R_scope.

(** ** Differentiability of complex functions of one real variable *)
Definition dR (f : R -> R) (t : R) : Prop := exists d, derivable_pt_lim f t d.
Definition dC (f : R -> C) (t : R) : Prop := dR (fun s => re (f s)) t /\ dR (fun s => im (f s)) t.
Lemma dR_ext : forall f g t, (forall s, f s = g s) -> dR f t -> dR g t.
Proof. intros f g t H [d D]. exists d. replace g with f; auto. apply functional_extensionality; auto. Qed.
Lemma dR_const : forall c t, dR (fun _ => c) t. Proof. intros. exists 0. apply derivable_pt_lim_const. Qed.
Lemma dR_add : forall f g t, dR f t -> dR g t -> dR (fun s => f s + g s) t. Proof. intros f g t [a A] [b B]. eexists. apply derivable_pt_lim_plus; eauto. Qed.
Lemma dR_sub : forall f g t, dR f t -> dR g t -> dR (fun s => f s - g s) t. Proof. intros f g t [a A] [b B]. eexists. apply derivable_pt_lim_minus; eauto. Qed.
Lemma dR_mul : forall f g t, dR f t -> dR g t -> dR (fun s => f s * g s) t. Proof. intros f g t [a A] [b B]. eexists. apply derivable_pt_lim_mult; eauto. Qed.
Lemma dR_opp : forall f t, dR f t -> dR (fun s => - f s) t. Proof. intros f t [a A]. eexists. apply derivable_pt_lim_opp; eauto. Qed.
Lemma dR_cos : forall f t, dR f t -> dR (fun s => cos (f s)) t.
Proof. intros f t [a A]. eexists. apply (derivable_pt_lim_comp f cos); [eauto | apply derivable_pt_lim_cos]. Qed.
Lemma dR_sin : forall f t, dR f t -> dR (fun s => sin (f s)) t.
Proof. intros f t [a A]. eexists. apply (derivable_pt_lim_comp f sin); [eauto | apply derivable_pt_lim_sin]. Qed.
Lemma dR_sqrt : forall f t, dR f t -> 0 < f t -> dR (fun s => sqrt (f s)) t.
Proof. intros f t [a A] H. eexists. apply (derivable_pt_lim_comp f sqrt); [eauto | apply derivable_pt_lim_sqrt; auto]. Qed.
Lemma dR_div : forall f g t, dR f t -> dR g t -> g t <> 0 -> dR (fun s => f s / g s) t.
Proof. intros f g t [a A] [b B] H. eexists. apply derivable_pt_lim_div; eauto. Qed.

Lemma dC_const : forall c t, dC (fun _ => c) t. Proof. split; apply dR_const. Qed.
Lemma dC_add : forall f g t, dC f t -> dC g t -> dC (fun s => f s + g s)%C t. Proof. intros f g t [A B] [A' B']. split; cbn [re im Cadd]; apply dR_add; auto. Qed.
Lemma dC_sub : forall f g t, dC f t -> dC g t -> dC (fun s => f s - g s)%C t. Proof. intros f g t [A B] [A' B']. split; cbn [re im Csub]; apply dR_sub; auto. Qed.
Lemma dC_mul : forall f g t, dC f t -> dC g t -> dC (fun s => f s * g s)%C t.
Proof. intros f g t [A B] [A' B']. split; cbn [re im Cmul]; [apply dR_sub | apply dR_add]; apply dR_mul; auto. Qed.
Lemma dC_cis : forall f t, dR f t -> dC (fun s => cis (f s)) t. Proof. intros. split; unfold cis; cbn [re im]; [apply dR_cos | apply dR_sin]; auto. Qed.
Lemma dC_Cexp : forall a f t, dR f t -> dC (fun s => Cexp (mkC a (f s))) t.
Proof.
  intros a f t H. unfold Cexp. cbn [re im]. split; unfold Cscal, cis; cbn [re im]; (apply dR_mul; [apply dR_const |]); [apply dR_cos | apply dR_sin]; auto.
Qed.
Lemma dC_sum : forall n (f : nat -> R -> C) t, (forall i, (i < n)%nat -> dC (f i) t) -> dC (fun s => Csum n (fun i => f i s)) t.
Proof. induction n; intros f t H; cbn [Csum]; [apply dC_const |]. apply dC_add; auto. Qed.
Lemma dR_n2 : forall f t, dC f t -> dR (fun s => Cn2 (f s)) t.
Proof. intros f t [A B]. unfold Cn2. apply dR_add; apply dR_mul; auto. Qed.

(** ** The matrix elements along a smooth path *)
Section path.
Variables (m : mesh) (p : R -> params) (t0 : R).
Hypothesis S : smooth_at p t0.

Lemma mzi_smooth : forall k, let q s := mzis m false (p s) k in
  dC (fun s => t11 (q s)) t0 /\ dC (fun s => t12 (q s)) t0 /\ dC (fun s => t21 (q s)) t0 /\ dC (fun s => t22 (q s)) t0.
Proof.
  intros k q. destruct S as (Ht & Hp & _). pose proof (Ht k : dR _ t0) as T. pose proof (Hp k : dR _ t0) as P.
  assert (CE : forall a (f : R -> R), dR f t0 -> dC (fun s => Cexp (mkC a (f s))) t0) by (intros; apply dC_Cexp; auto).
  assert (L1 : dR (fun s => phis (p s) k - thetas (p s) k / 2) t0) by (apply dR_sub; auto; unfold Rdiv; apply dR_mul; auto; apply dR_const).
  assert (L2 : dR (fun s => (- phis (p s) k - thetas (p s) k) / 2 + phis (p s) k * b2R false) t0).
  { apply dR_add; [unfold Rdiv; apply dR_mul; [apply dR_sub; auto; apply dR_opp; auto | apply dR_const] | apply dR_mul; auto; apply dR_const]. }
  assert (L3 : dR (fun s => (phis (p s) k - thetas (p s) k) / 2 - phis (p s) k * b2R false) t0).
  { apply dR_sub; [unfold Rdiv; apply dR_mul; [apply dR_sub; auto | apply dR_const] | apply dR_mul; auto; apply dR_const]. }
  assert (L4 : dR (fun s => phis (p s) k * (1 - b2R false)) t0) by (apply dR_mul; auto; apply dR_const).
  assert (L5 : dR (fun s => phis (p s) k * b2R false) t0) by (apply dR_mul; auto; apply dR_const).
  unfold q, mzis, parallel_mzi. destruct (mzi_terms (err_at m k)) as [[[cc cs] sc] ss].
  destruct (style m); cbn [t11 t12 t21 t22]; repeat split;
    repeat first [apply dC_mul | apply dC_add | apply dC_sub | apply dC_const | apply CE; assumption].
Qed.
Lemma assign_smooth : forall (l : list (nat * (R -> C))) (v : R -> vec), (forall r, dC (fun s => v s r) t0) -> (forall r f, In (r, f) l -> dC f t0) ->
  forall r, dC (fun s => assign (v s) (map (fun x => (fst x, snd x s)) l) r) t0.
Proof.
  induction l as [| [q f] l IH]; intros v Hv Hl r; cbn [map assign fold_left fst snd]; [apply Hv |].
  unfold assign. cbn [fold_left fst snd]. apply (IH (fun s => upd (v s) q (f s))); [| intros; apply (Hl r0); right; auto].
  intro r'. unfold upd. destruct (Nat.eqb r' q); [apply (Hl q); left; auto | apply Hv].
Qed.
Lemma pt_smooth : forall idx (v : R -> vec), (forall r, dC (fun s => v s r) t0) ->
  forall r, dC (fun s => parallel_transform (mzis m false (p s)) idx (v s) r) t0.
Proof.
  intros idx v Hv r.
  set (l := map (fun x : nat * nat * nat => let '(t, b, k) := x in (t, fun s => (t11 (mzis m false (p s) k) * v s t + t21 (mzis m false (p s) k) * v s b)%C)) idx ++
            map (fun x : nat * nat * nat => let '(t, b, k) := x in (b, fun s => (t12 (mzis m false (p s) k) * v s t + t22 (mzis m false (p s) k) * v s b)%C)) idx).
  assert (E : forall s, parallel_transform (mzis m false (p s)) idx (v s) r = assign (v s) (map (fun x => (fst x, snd x s)) l) r).
  { intro s. unfold parallel_transform, l. rewrite map_app, !map_map. f_equal. f_equal; apply map_ext; intros [[t b] k]; reflexivity. }
  assert (D : dC (fun s => assign (v s) (map (fun x => (fst x, snd x s)) l) r) t0).
  { apply assign_smooth; auto. intros q f Hin. unfold l in Hin. apply in_app_or in Hin.
    destruct Hin as [Hin | Hin]; apply in_map_iff in Hin; destruct Hin as ([[t b] k] & Ex & _); inversion Ex; subst;
    destruct (mzi_smooth k) as (A & B & C & D); apply dC_add; apply dC_mul; auto. }
  destruct D as [D1 D2]. split; [eapply dR_ext; [| exact D1] | eapply dR_ext; [| exact D2]]; intro s; cbv beta; rewrite E; reflexivity.
Qed.
Lemma fold_smooth : forall idxs (v : R -> vec), (forall r, dC (fun s => v s r) t0) ->
  forall r, dC (fun s => fold_left (fun w idx => parallel_transform (mzis m false (p s)) idx w) idxs (v s) r) t0.
Proof.
  induction idxs as [| idx idxs IH]; intros v Hv r; cbn [fold_left]; [apply Hv |].
  apply (IH (fun s => parallel_transform (mzis m false (p s)) idx (v s))). intro r'. apply pt_smooth; auto.
Qed.
Lemma mesh_matrix_smooth : forall i j, dC (fun s => mesh_matrix m (p s) i j) t0.
Proof.
  intros i j. unfold mesh_matrix, matrix, matrix_fn. destruct (columns m) as [cols |]; [| apply dC_const].
  destruct (forallb _ (map triples cols)); [| apply dC_const]. unfold apply_gammas. apply dC_mul.
  - apply dC_cis. destruct S as (_ & _ & G). exact (G i).
  - apply (fold_smooth (map triples cols) (fun _ => basis j)). intro; apply dC_const.
Qed.
End path.

(** ** The cost *)
Lemma mesh_matrix_unitary : forall m p, wf_mesh m -> lossless m -> unitary (n_rails m) (mesh_matrix m p).
Proof.
  intros m p W L. destruct (C03_unitary m false p W L) as (U & E & HU).
  replace (mesh_matrix m p) with U; auto. apply functional_extensionality; intro i. apply functional_extensionality; intro j.
  unfold mesh_matrix. rewrite E. reflexivity.
Qed.
Lemma unitary_nn' : forall n u, unitary n u -> nn n u = INR n.
Proof. intros n u Hu. apply unitary_nn. intros j Hj. destruct (Hu j j Hj Hj) as [E _]. unfold delta in E. rewrite Nat.eqb_refl in E. exact E. Qed.
Lemma opt_cost_wf : forall m u p, wf_mesh m -> opt_cost m u p = normalized_error (n_rails m) u (mesh_matrix m p).
Proof. intros m u p W. unfold opt_cost. destruct (C03_total m false p (basis 0) W) as (y & ->). reflexivity. Qed.
Lemma normalized_error_unitary : forall n u v, (0 < n)%nat -> unitary n u -> unitary n v ->
  normalized_error n u v = Some (sqrt (1 - Cn2 (inner n u v) / (INR n * INR n))) /\ 0 <= 1 - Cn2 (inner n u v) / (INR n * INR n) <= 1.
Proof.
  intros n u v Hn Hu Hv. assert (HN : 0 < INR n) by (apply lt_0_INR; auto).
  pose proof (unitary_nn' n u Hu) as Nu. pose proof (unitary_nn' n v Hv) as Nv.
  assert (R : 0 <= ne_arg n u v <= 1) by (apply (ne_range n u v (INR n)); auto; lra).
  assert (A : ne_arg n u v = 1 - Cn2 (inner n u v) / (INR n * INR n)) by (rewrite ne_arg_alt, Nv; reflexivity).
  unfold normalized_error. rewrite A in *. split; auto.
  destruct (Req_EM_T _ _) as [E | _].
  { exfalso. rewrite inner_self, Nv in E. unfold Cn2, RtoC in E. cbn [re im] in E. nra. }
  destruct (Rle_dec _ _); [reflexivity | lra].
Qed.
Lemma cost_range : forall m u p, wf_mesh m -> lossless m -> (0 < n_rails m)%nat -> unitary (n_rails m) u ->
  exists x, opt_cost m u p = Some x /\ 0 <= x <= 1 /\
    (x = 0 <-> exists c, Cn2 c = 1 /\ forall i j, (i < n_rails m)%nat -> (j < n_rails m)%nat -> matrix m false p i j = Some (c * u i j)%C).
Proof.
  intros m u p W L Hn Hu. rewrite opt_cost_wf by auto. destruct (C03_unitary m false p W L) as (U & E & HU).
  destruct (C54_defined_partial (n_rails m) u (mesh_matrix m p) Hn Hu) as (x & Hx & Rx & Zx).
  { rewrite unitary_nn'; [lra | apply mesh_matrix_unitary; auto]. }
  exists x. split; auto. split; auto. rewrite Zx.
  assert (EM : forall i j, mesh_matrix m p i j = U i j) by (intros; unfold mesh_matrix; rewrite E; reflexivity).
  split; intros (c & H1 & H2); exists c; split; auto; intros i j Hi Hj.
  - rewrite E, <- EM, H2 by auto. reflexivity.
  - pose proof (H2 i j Hi Hj) as K. rewrite E in K. rewrite EM. congruence.
Qed.
Lemma cost_slope : forall m u p t0, wf_mesh m -> lossless m -> (0 < n_rails m)%nat -> unitary (n_rails m) u -> smooth_at p t0 ->
  opt_cost m u (p t0) <> Some 0 -> exists d, has_slope (fun t => opt_cost m u (p t)) t0 d.
Proof.
  intros m u p t0 W L Hn Hu S Hz. set (n := n_rails m) in *.
  set (A := fun t => 1 - Cn2 (inner n u (mesh_matrix m (p t))) / (INR n * INR n)).
  assert (V : forall t, opt_cost m u (p t) = Some (sqrt (A t)) /\ 0 <= A t <= 1).
  { intro t. rewrite opt_cost_wf by auto. apply normalized_error_unitary; auto. apply mesh_matrix_unitary; auto. }
  assert (HN : 0 < INR n) by (apply lt_0_INR; auto).
  assert (D : dR (fun t => sqrt (A t)) t0).
  { apply dR_sqrt.
    - unfold A. apply dR_sub; [apply dR_const |]. apply dR_div; [| apply dR_const | nra]. apply dR_n2.
      unfold inner. apply dC_sum. intros j _. apply (dC_sum n (fun i s => (Cconj (u i j) * mesh_matrix m (p s) i j)%C)). intros i _.
      apply dC_mul; [apply dC_const | apply mesh_matrix_smooth; auto].
    - destruct (V t0) as [E R]. destruct (Req_dec (A t0) 0) as [Z | Z]; [| lra]. rewrite Z, sqrt_0 in E. contradiction. }
  destruct D as [d D]. exists d, (fun t => sqrt (A t)). split; auto. intro t. apply V.
Qed.

(** ** At a perfect match *)
Lemma matrix_gamma : forall m p r d i j, wf_mesh m ->
  mesh_matrix m (with_gamma p r (gammas p r + d)) i j = ((if Nat.eqb i r then cis d else C1) * mesh_matrix m p i j)%C.
Proof.
  intros m p r d i j W. unfold mesh_matrix, matrix, matrix_fn. destruct (columns m) as [cols |]; [| destruct (Nat.eqb i r); ring].
  destruct (forallb _ _); [| destruct (Nat.eqb i r); ring]. unfold apply_gammas. cbn [with_gamma gammas].
  change (mzis m false (with_gamma p r (gammas p r + d))) with (mzis m false p).
  unfold upd. destruct (Nat.eqb_spec i r) as [-> | _]; [rewrite cis_add |]; ring.
Qed.
Lemma Rsum_except : forall n r (f : nat -> R) x, (r < n)%nat -> Rsum n (fun i => if Nat.eqb i r then x else f i) = Rsum n f - f r + x.
Proof.
  induction n; intros r f x H; [lia |]. cbn [Rsum]. destruct (Nat.eqb_spec n r) as [-> | Hne].
  - assert (E : Rsum r (fun i => if Nat.eqb i r then x else f i) = Rsum r f).
    { apply Rsum_ext. intros i Hi. destruct (Nat.eqb_spec i r); [lia | reflexivity]. }
    rewrite E. lra.
  - rewrite IHn by lia. lra.
Qed.
Lemma unitary_row : forall n u r, unitary n u -> (r < n)%nat -> Csum n (fun j => (Cconj (u r j) * u r j)%C) = C1.
Proof.
  intros n u r Hu Hr. destruct (Hu r r Hr Hr) as [_ E]. unfold delta in E. rewrite Nat.eqb_refl in E. rewrite <- E.
  apply Csum_ext. intros. ring.
Qed.
Lemma inner_match : forall n u w c r d, unitary n u -> (r < n)%nat ->
  (forall i j, (i < n)%nat -> (j < n)%nat -> w i j = ((if Nat.eqb i r then cis d else C1) * (c * u i j))%C) ->
  inner n u w = (c * (RtoC (INR n - 1) + cis d))%C.
Proof.
  intros n u w c r d Hu Hr H. unfold inner. rewrite Csum_swap.
  rewrite (Csum_ext n _ (fun i => (c * (if Nat.eqb i r then cis d else C1))%C)).
  - rewrite Csum_scal. f_equal. rewrite (Csum_change1 n _ (fun _ => C1) r); auto.
    + rewrite Nat.eqb_refl. rewrite (Csum_ext n (fun _ => C1) (fun _ => RtoC 1)) by auto. rewrite <- Csum_RtoC, Rsum_const.
      replace (RtoC (INR n - 1)) with (RtoC (INR n * 1) - C1)%C by (apply C_eq; cbn [re im RtoC Csub C1]; ring). ring.
    + intros j _ Hne. destruct (Nat.eqb_spec j r); [contradiction | reflexivity].
  - intros i Hi. rewrite (Csum_ext n _ (fun j => (c * (if Nat.eqb i r then cis d else C1) * (Cconj (u i j) * u i j))%C)).
    + rewrite Csum_scal, unitary_row by auto. ring.
    + intros j Hj. rewrite H by auto. ring.
Qed.
Lemma match_arg : forall N d, 1 <= N -> 1 - ((N - 1 + cos d) * (N - 1 + cos d) + sin d * sin d) / (N * N) = (2 * sqrt (N - 1) / N * sin (d / 2)) ^ 2.
Proof.
  intros N d HN. replace d with (2 * (d / 2)) at 1 2 3 4 by field. rewrite sin_2a, cos_2a_sin. set (s := sin (d / 2)). set (c := cos (d / 2)).
  assert (T : c * c = 1 - s * s) by (pose proof (sin2_cos2 (d / 2)) as Q; unfold Rsqr in Q; fold s c in Q; lra).
  assert (Q : sqrt (N - 1) * sqrt (N - 1) = N - 1) by (apply sqrt_sqrt; lra).
  replace ((2 * sqrt (N - 1) / N * s) ^ 2) with (4 * (sqrt (N - 1) * sqrt (N - 1)) * (s * s) / (N * N)) by (field; lra). rewrite Q.
  replace (2 * s * c * (2 * s * c)) with (4 * (s * s) * (c * c)) by ring. rewrite T. field. lra.
Qed.
Lemma cost_near_match : forall m u p r d, wf_mesh m -> lossless m -> unitary (n_rails m) u -> opt_cost m u p = Some 0 -> (r < n_rails m)%nat ->
  opt_cost m u (with_gamma p r (gammas p r + d)) = Some (2 * sqrt (INR (n_rails m) - 1) / INR (n_rails m) * Rabs (sin (d / 2))).
Proof.
  intros m u p r d W L Hu H0 Hr. assert (Hn : (0 < n_rails m)%nat) by lia.
  destruct (cost_range m u p W L Hn Hu) as (x & Hx & _ & Zx). rewrite H0 in Hx. assert (X0 : x = 0) by congruence.
  apply Zx in X0. destruct X0 as (c & Hc & HM). rewrite opt_cost_wf by auto.
  destruct (normalized_error_unitary (n_rails m) u (mesh_matrix m (with_gamma p r (gammas p r + d))) Hn Hu) as [E _]; [apply mesh_matrix_unitary; auto |].
  rewrite E. clear E. rewrite (inner_match (n_rails m) u _ c r d Hu Hr).
  - assert (HN : 1 <= INR (n_rails m)) by (apply (le_INR 1); lia).
    rewrite Cn2_mul, Hc. replace (1 * Cn2 (RtoC (INR (n_rails m) - 1) + cis d)) with
      ((INR (n_rails m) - 1 + cos d) * (INR (n_rails m) - 1 + cos d) + sin d * sin d) by (unfold Cn2, cis; cbn [re im RtoC Cadd]; ring).
    rewrite match_arg by auto. f_equal. rewrite <- (sqrt_Rsqr_abs (2 * _ / _ * _)) || idtac.
    replace ((2 * sqrt (INR (n_rails m) - 1) / INR (n_rails m) * sin (d / 2)) ^ 2) with (Rsqr (2 * sqrt (INR (n_rails m) - 1) / INR (n_rails m) * sin (d / 2))) by (unfold Rsqr; ring).
    rewrite sqrt_Rsqr_abs, Rabs_mult. f_equal. apply Rabs_pos_eq.
    apply Rmult_le_pos; [pose proof (sqrt_pos (INR (n_rails m) - 1)); lra | left; apply Rinv_0_lt_compat; lra].
  - intros i j Hi Hj. rewrite matrix_gamma by auto. unfold mesh_matrix. rewrite HM by auto. reflexivity.
Qed.
Lemma abs_sin_no_slope : forall K l, 0 < K -> ~ derivable_pt_lim (fun d => K * Rabs (sin (d / 2))) 0 l.
Proof.
  intros K l HK D.
  (* sin(d/2) has slope 1/2 at 0; take the quotient at h and -h *)
  assert (DS : derivable_pt_lim (fun d => sin (d / 2)) 0 (1 * / 2)).
  { assert (A : derivable_pt_lim (fun d => d / 2) 0 (/ 2)).
    { replace (/ 2) with (1 * / 2 + 0 * 0) by lra. replace (fun d => d / 2) with (mult_fct id (fun _ => / 2)) by (apply functional_extensionality; intro; unfold mult_fct, id; field).
      replace (1 * / 2 + 0 * 0) with (1 * / 2 + id 0 * 0) by (unfold id; ring). apply (derivable_pt_lim_mult id (fun _ => / 2) 0 1 0); [apply derivable_pt_lim_id | apply derivable_pt_lim_const]. }
    replace 1 with (cos (0 / 2)) at 1 by (replace (0 / 2) with 0 by field; apply cos_0).
    apply (derivable_pt_lim_comp (fun d => d / 2) sin); auto. apply derivable_pt_lim_sin. }
  destruct (D (K / 8)) as [d1 H1]; [lra |]. destruct (DS (/ 4)) as [d2 H2]; [lra |].
  set (h := Rmin (Rmin d1 d2) 1 / 2). assert (P1 := cond_pos d1). assert (P2 := cond_pos d2).
  assert (M : 0 < Rmin (Rmin d1 d2) 1) by (apply Rmin_pos; [apply Rmin_pos |]; lra).
  assert (Mh : 0 < h < d1 /\ h < d2 /\ h <= 1 / 2). { unfold h. pose proof (Rmin_l (Rmin d1 d2) 1). pose proof (Rmin_r (Rmin d1 d2) 1). pose proof (Rmin_l d1 d2). pose proof (Rmin_r d1 d2). lra. }
  assert (A1 : Rabs h < d1) by (rewrite Rabs_pos_eq; lra). assert (A2 : Rabs (- h) < d1) by (rewrite Rabs_Ropp; auto).
  assert (A3 : Rabs h < d2) by (rewrite Rabs_pos_eq; lra).
  pose proof (H1 h ltac:(lra) A1) as B1. pose proof (H1 (- h) ltac:(lra) A2) as B2. pose proof (H2 h ltac:(lra) A3) as B3.
  cbv beta in *. rewrite !Rplus_0_l in *. replace (0 / 2) with 0 in * by field. rewrite sin_0 in *. rewrite Rabs_R0 in *.
  replace (- h / 2) with (- (h / 2)) in B2 by field. rewrite sin_neg, Rabs_Ropp in B2. set (s := sin (h / 2)) in *.
  assert (S4 : h / 4 <= s).
  { apply Rabs_def2 in B3. assert (/ 4 < s / h) by (replace (s / h) with ((s - 0) / h) by (field; lra); lra).
    apply Rmult_lt_compat_r with (r := h) in H; [| lra]. replace (s / h * h) with s in H by (field; lra). lra. }
  rewrite (Rabs_pos_eq s) in * by lra. apply Rabs_def2 in B1. apply Rabs_def2 in B2.
  replace ((K * s - K * 0) / - h) with (- ((K * s - K * 0) / h)) in B2 by (field; lra).
  assert (K / 4 <= (K * s - K * 0) / h).
  { apply Rmult_le_reg_r with h; [lra |]. replace ((K * s - K * 0) / h * h) with (K * s) by (field; lra). nra. }
  lra.
Qed.
Lemma no_slope_at_match : forall m u p r d, wf_mesh m -> lossless m -> unitary (n_rails m) u -> opt_cost m u p = Some 0 -> (r < n_rails m)%nat -> (2 <= n_rails m)%nat ->
  ~ has_slope (fun g => opt_cost m u (with_gamma p r g)) (gammas p r) d.
Proof.
  intros m u p r d W L Hu H0 Hr Hn (F & EF & DF).
  set (K := 2 * sqrt (INR (n_rails m) - 1) / INR (n_rails m)).
  assert (HN : 2 <= INR (n_rails m)) by (apply (le_INR 2); auto).
  assert (HK : 0 < K) by (unfold K; apply Rdiv_lt_0_compat; [| lra]; pose proof (sqrt_lt_R0 (INR (n_rails m) - 1)); lra).
  apply (abs_sin_no_slope K d HK).
  intros e He. destruct (DF e He) as [del Hd]. exists del. intros h Hh0 Hh. specialize (Hd h Hh0 Hh).
  assert (V : forall x, F (gammas p r + x) = K * Rabs (sin (x / 2))).
  { intro x. pose proof (cost_near_match m u p r x W L Hu H0 Hr) as Q. cbv beta in EF. rewrite EF in Q. unfold K. congruence. }
  rewrite V in Hd. replace (F (gammas p r)) with (K * Rabs (sin (0 / 2))) in Hd by (rewrite <- V, Rplus_0_r; reflexivity).
  rewrite Rplus_0_l. exact Hd.
Qed.

(** ** adam *)
Lemma adam_first : forall step x g, m_x (adam_update step 0 g (adam_init x)) = x - step * (g / (Rabs g + / 10 ^ 8)).
Proof.
  intros step x g. unfold adam_update, adam_init. cbn [m_x m_1 m_2 Nat.add].
  replace ((1 - 999 / 1000) * (g * g) + 999 / 1000 * 0) with ((1 - (999 / 1000) ^ 1) * Rsqr g) by (unfold Rsqr; field).
  replace ((1 - (999 / 1000) ^ 1) * Rsqr g / (1 - (999 / 1000) ^ 1)) with (Rsqr g) by (field; lra).
  rewrite sqrt_Rsqr_abs. pose proof (Rabs_pos g). assert (P : 0 < / 10 ^ 8) by (apply Rinv_0_lt_compat, pow_lt; lra).
  set (e := / 10 ^ 8) in *. field. lra.
Qed.
Definition adam_inv (s : moments) : Prop := 0 <= m_2 s /\ m_1 s * m_1 s <= 53 * m_2 s.
Lemma adam_inv_init : forall x, adam_inv (adam_init x). Proof. intro. unfold adam_inv, adam_init. cbn [m_1 m_2]. lra. Qed.
Lemma adam_inv_update : forall step i g s, adam_inv s -> adam_inv (adam_update step i g s).
Proof.
  intros step i g [x a v] [H1 H2]. unfold adam_inv, adam_update in *. cbn [m_1 m_2] in *. pose proof (Rle_0_sqr g) as G. pose proof (Rle_0_sqr a) as A. unfold Rsqr in G, A. split; [lra |].
  (* (g/10 + 9a/10)^2 <= 53 (g^2/1000 + 999 v / 1000) *)
  assert (Q : 0 <= (g - a * (90 / 43)) * (g - a * (90 / 43))) by (apply Rle_0_sqr). lra.
Qed.
Lemma factor : forall i, let b1 := (9 / 10) ^ (i + 1) in let b2 := (999 / 1000) ^ (i + 1) in
  0 < 1 - b1 /\ 0 < 1 - b2 /\ 1 - b2 <= (1 - b1) * (1 - b1).
Proof.
  intro i. cbv zeta. induction i as [| i IH]; [cbn; lra |]. cbn [Nat.add pow]. set (x := (9 / 10) ^ (i + 1)) in *. set (y := (999 / 1000) ^ (i + 1)) in *.
  assert (X : 0 < x) by (apply pow_lt; lra). destruct IH as (A & B & D). repeat split; [lra | lra |]. nra.
Qed.
Lemma adam_move : forall step i g s, adam_inv s -> Rabs (m_x (adam_update step i g s) - m_x s) <= 73 / 10 * Rabs step.
Proof.
  intros step i g s Hs. pose proof (adam_inv_update step i g s Hs) as [H1 H2]. destruct (factor i) as (F1 & F2 & F3).
  unfold adam_update in *. cbn [m_x m_1 m_2] in *.
  set (a := (1 - 9 / 10) * g + 9 / 10 * m_1 s) in *. set (v := (1 - 999 / 1000) * (g * g) + 999 / 1000 * m_2 s) in *.
  set (b1 := 1 - (9 / 10) ^ (i + 1)) in *. set (b2 := 1 - (999 / 1000) ^ (i + 1)) in *.
  assert (P : 0 < / 10 ^ 8) by (apply Rinv_0_lt_compat, pow_lt; lra). set (e := / 10 ^ 8) in *.
  assert (W : Rabs (a / b1) <= 73 / 10 * sqrt (v / b2)).
  { assert (V0 : 0 <= v / b2) by (apply Rmult_le_pos; [auto | left; apply Rinv_0_lt_compat; auto]).
    apply Rsqr_incr_0_var; [| pose proof (sqrt_pos (v / b2)); lra].
    rewrite Rsqr_mult, Rsqr_sqrt by auto. rewrite <- Rsqr_abs. unfold Rsqr.
    apply Rmult_le_reg_r with (b1 * b1); [nra |]. replace (a / b1 * (a / b1) * (b1 * b1)) with (a * a) by (field; lra).
    replace (73 / 10 * (73 / 10) * (v / b2) * (b1 * b1)) with (5329 / 100 * (v * (b1 * b1 / b2))) by (field; lra).
    assert (1 <= b1 * b1 / b2) by (apply Rmult_le_reg_r with b2; auto; replace (b1 * b1 / b2 * b2) with (b1 * b1) by (field; lra); lra). nra. }
  replace (m_x s - step * (a / b1) / (sqrt (v / b2) + e) - m_x s) with (- (step * ((a / b1) / (sqrt (v / b2) + e)))) by (unfold Rdiv; ring).
  rewrite Rabs_Ropp, Rabs_mult. pose proof (sqrt_pos (v / b2)) as Q. rewrite Rmult_comm. apply Rmult_le_compat_r; [apply Rabs_pos |].
  unfold Rdiv at 1. rewrite Rabs_mult, Rabs_inv, (Rabs_pos_eq (sqrt (v / b2) + e)) by lra.
  apply Rmult_le_reg_r with (sqrt (v / b2) + e); [lra |]. rewrite Rmult_assoc, Rinv_l by lra. nra.
Qed.
Definition opt_inv (s : opt_state) : Prop := forall k, adam_inv (o_theta s k) /\ adam_inv (o_phi s k) /\ adam_inv (o_gamma s k).
Lemma opt_run_inv : forall cost grad step is s, opt_inv s -> opt_inv (fold_left (fun s i => snd (update_fn cost grad step i s)) is s).
Proof.
  intros cost grad step. induction is as [| i is IH]; intros s Hs; cbn [fold_left]; auto. apply IH.
  intro k. destruct (Hs k) as (A & B & D). unfold update_fn. cbn [snd o_theta o_phi o_gamma]. auto using adam_inv_update.
Qed.
Lemma opt_moves : forall cost grad step own given is i, let s := fold_left (fun s i => snd (update_fn cost grad step i s)) is (opt_init own given) in
  phases_within (73 / 10 * Rabs step) (get_params s) (get_params (snd (update_fn cost grad step i s))).
Proof.
  intros cost grad step own given is i s k.
  assert (I : opt_inv s) by (apply opt_run_inv; intro; unfold opt_init; cbn [o_theta o_phi o_gamma]; auto using adam_inv_init).
  destruct (I k) as (A & B & D). unfold update_fn, get_params. cbn [snd o_theta o_phi o_gamma thetas phis gammas].
  repeat split; apply adam_move; auto.
Qed.
