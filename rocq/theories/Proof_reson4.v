(** Proofs for C180: at most as many resonances as unknowns. *)
From Coq Require Import Reals Lra Lia List Arith ZArith Bool Classical.
From Verif Require Import Cx Arr Model_coupling Model_yee Spec_yee Proof_yee Proof_yee2 Model_fdfd Spec_fdfd Spec_fdtd Proof_energy Proof_gauss Spec_absorb Proof_absorb5
  Model_fdfdc Spec_fdfdc Proof_fdfdc Proof_fdfdc2 Proof_fdfdc3 Spec_reson2.
Local Open Scope R_scope.

(** ** Orthogonal vectors are few. *)
Lemma choose_fin : forall (A : Type) (a0 : A) m (Q : nat -> A -> Prop), (forall i, (i < m)%nat -> exists u, Q i u) -> exists f, forall i, (i < m)%nat -> Q i (f i).
Proof.
  intros A a0 m. induction m as [| m IH]; intros Q H.
  - exists (fun _ => a0). intros i Hi. lia.
  - destruct (IH Q) as (f & Hf); [intros i Hi; apply H; lia |]. destruct (H m ltac:(lia)) as (u & Hu).
    exists (fun i => if Nat.eqb i m then u else f i). intros i Hi. destruct (Nat.eqb_spec i m) as [-> | E]; [exact Hu | apply Hf; lia].
Qed.
Section Count.
Variables (n : nat) (B : vec -> vec -> C) (P : R -> vec -> Prop).
Hypothesis Blin : forall m (c : nat -> C) (u : nat -> vec) v, B (fun r => Csum m (fun i => c i * u i r)%C) v = Csum m (fun i => c i * B (u i) v)%C.
Hypothesis B0 : forall u v, (forall r, (r < n)%nat -> u r = C0) -> B u v = C0.
Hypothesis orth : forall k k' u v, P k u -> P k' v -> k <> k' -> B u v = C0.
Hypothesis pos : forall k u, P k u -> B u u <> C0.
Lemma few : forall l : list R, NoDup l -> (forall k, In k l -> exists u, P k u) -> (length l <= n)%nat.
Proof.
  intros l ND H. destruct (le_lt_dec (length l) n) as [L | L]; [exact L | exfalso].
  destruct (choose_fin vec (fun _ => C0) (S n) (fun i u => P (nth i l 0) u)) as (f & Hf).
  { intros i Hi. apply H. apply nth_In. lia. }
  set (A := fun r i => if Nat.ltb r n then f i r else C0).
  assert (I : injective (S n) A).
  { intros c Hc j Hj. assert (Z : B (fun r => Csum (S n) (fun i => c i * f i r)%C) (f j) = C0).
    { apply B0. intros r Hr. specialize (Hc r ltac:(lia)). unfold matvec, A in Hc. rewrite (proj2 (Nat.ltb_lt r n) Hr) in Hc. rewrite <- Hc.
      apply Csum_ext. intros. ring. }
    rewrite Blin in Z. rewrite (Csum_single (S n) _ j Hj) in Z.
    - apply Cmul_integral in Z. destruct Z as [Z | Z]; [exact Z | exfalso; exact (pos _ _ (Hf j Hj) Z)].
    - intros i Hi E. rewrite (orth _ _ _ _ (Hf i Hi) (Hf j Hj)); [ring |]. intro Q. apply E. apply (proj1 (NoDup_nth l 0) ND); auto; lia. }
  destruct (onto (S n) A (fun r => if Nat.eqb r n then C1 else C0) I) as (x & Hx). specialize (Hx n ltac:(lia)).
  rewrite Nat.eqb_refl in Hx. unfold matvec in Hx. rewrite Csum_0 in Hx.
  - apply (f_equal re) in Hx. cbn in Hx. lra.
  - intros i Hi. unfold A. rewrite Nat.ltb_irrefl. ring.
Qed.
Lemma listed : exists l : list R, (length l <= n)%nat /\ forall k, In k l <-> exists u, P k u.
Proof.
  assert (G : forall m, (exists l, NoDup l /\ forall k, In k l <-> exists u, P k u) \/ (exists l, NoDup l /\ length l = m /\ forall k, In k l -> exists u, P k u)).
  { induction m as [| m IH].
    - right. exists nil. split; [constructor |]. split; [reflexivity | intros k []].
    - destruct IH as [IH | (l & ND & L & H)]; [left; exact IH |].
      destruct (classic (exists k, ~ In k l /\ exists u, P k u)) as [(k & N & U) | N].
      + right. exists (k :: l). split; [constructor; auto |]. split; [cbn [length]; lia |]. intros k' [<- | K]; auto.
      + left. exists l. split; [exact ND |]. intro k. split; [apply H |]. intros U. apply NNPP. intro Q. apply N. exists k. split; auto. }
  destruct (G (S n)) as [(l & ND & H) | (l & ND & L & H)].
  - exists l. split; [apply few; [exact ND | intros k; apply H] | exact H].
  - pose proof (few l ND H). lia.
Qed.
End Count.

Section D.
Variable d : cfdfd.
Hypothesis Hd : lossless d.
Let s := cf_shape d.
Let n := npix s.
Notation dk := (at_wave_number d).
Lemma eps_real : forall c i j k, in_grid s i j k -> im (eps_at s (cf_eps d) c i j k) = 0 /\ 0 < re (eps_at s (cf_eps d) c i j k).
Proof.
  intros c i j k (Hi & Hj & Hk). destruct Hd as (_ & E). fold s in E.
  pose proof (pred_bound (s AX) i Hi) as Pi. pose proof (pred_bound (s AY) j Hj) as Pj.
  destruct (E i j k (conj Hi (conj Hj Hk))) as (A1 & A2). destruct (E (pred_p (s AX) i) j k (conj Pi (conj Hj Hk))) as (B1 & B2).
  destruct (E i (pred_p (s AY) j) k (conj Hi (conj Pj Hk))) as (C1' & C2'). destruct (E (pred_p (s AX) i) (pred_p (s AY) j) k (conj Pi (conj Pj Hk))) as (D1 & D2).
  assert (T : forall (z : C) x, x <> 0 -> im (z / RtoC x)%C = im z / x /\ re (z / RtoC x)%C = re z / x).
  { intros z x Hx. unfold Cdiv, Cinv, Cn2. cbn [re im Cmul RtoC]. split; field; auto. }
  unfold eps_at. destruct c.
  - destruct (T (cf_eps d i j k + cf_eps d i (pred_p (s AY) j) k)%C 2 ltac:(lra)) as (-> & ->). cbn [re im Cadd]. lra.
  - destruct (T (cf_eps d i j k + cf_eps d (pred_p (s AX) i) j k)%C 2 ltac:(lra)) as (-> & ->). cbn [re im Cadd]. lra.
  - destruct (T (cf_eps d i j k + cf_eps d (pred_p (s AX) i) j k + cf_eps d i (pred_p (s AY) j) k + cf_eps d (pred_p (s AX) i) (pred_p (s AY) j) k)%C 4 ltac:(lra)) as (-> & ->).
    cbn [re im Cadd]. lra.
Qed.
Lemma real_eq : forall z : C, im z = 0 -> z = RtoC (re z). Proof. intros [a b] H. cbn in H. subst. reflexivity. Qed.
Lemma adj_dk : forall f a g, inner s (dminus d f a) g = (- inner s f (dplus d g a))%C.
Proof. destruct Hd as ((w & Hf & Hb) & _). exact (dm_adj d w Hf Hb). Qed.
Lemma adj_dk' : forall f a g, inner s (dplus d f a) g = (- inner s f (dminus d g a))%C.
Proof.
  intros f a g. assert (W : forall u v, inner s u v = Cconj (inner s v u)) by (intros; unfold inner; rewrite grid_sum_conj; apply grid_sum_ext; intros; rewrite Cconj_mul, Cconj_conj; ring).
  rewrite (W f), adj_dk, (W (dplus d f a)). generalize (inner s g (dplus d f a)). intros [x y]. apply C_eq; cbn [re im Cconj Copp]; ring.
Qed.
Definition form (c : axis) (f g : fld) : C := inner s (fun i j k => eps_at s (cf_eps d) c i j k * f i j k)%C g.
Lemma form_sym : forall c f g, form c f g = inner s f (fun i j k => eps_at s (cf_eps d) c i j k * g i j k)%C.
Proof.
  intros c f g. unfold form, inner. apply grid_sum_ext. intros i j k G. rewrite Cconj_mul.
  destruct (eps_real c i j k G) as (E & _). rewrite (real_eq _ E). replace (Cconj (RtoC (re (eps_at s (cf_eps d) c i j k)))) with (RtoC (re (eps_at s (cf_eps d) c i j k)));
    [ring | apply C_eq; cbn [re im Cconj RtoC]; ring].
Qed.
Lemma form_self : forall c f, exists p, form c f f = RtoC p /\ 0 <= p /\ (p <= 0 -> same_on s f (fun _ _ _ => C0)).
Proof.
  intros c f. set (g := fun i j k => (RtoC (sqrt (re (eps_at s (cf_eps d) c i j k))) * f i j k)%C). exists (power2 s g).
  assert (E : forall i j k, in_grid s i j k -> (RtoC (sqrt (re (eps_at s (cf_eps d) c i j k))) * RtoC (sqrt (re (eps_at s (cf_eps d) c i j k))))%C = eps_at s (cf_eps d) c i j k).
  { intros i j k G. destruct (eps_real c i j k G) as (E1 & E2). rewrite <- RtoC_mul, sqrt_sqrt by lra. symmetry. apply real_eq. exact E1. }
  split; [| split; [apply power2_nonneg |]].
  - rewrite <- inner_self. unfold form, inner, g. apply grid_sum_ext. intros i j k G. rewrite <- (E i j k G) at 1. rewrite Cconj_mul.
    replace (Cconj (RtoC (sqrt (re (eps_at s (cf_eps d) c i j k))))) with (RtoC (sqrt (re (eps_at s (cf_eps d) c i j k)))) by (apply C_eq; cbn [re im Cconj RtoC]; ring). ring.
  - intros H. apply power2_zero in H. intros i j k G. specialize (H i j k G). unfold g in H. apply Cmul_integral in H. destruct H as [H | H]; [| exact H].
    exfalso. destruct (eps_real c i j k G) as (_ & E2). pose proof (sqrt_lt_R0 _ E2). apply (f_equal re) in H. cbn [re RtoC C0] in H. lra.
Qed.
Lemma inner_sum : forall m c u g, inner s (fun i j k => Csum m (fun q => c q * u q i j k)%C) g = Csum m (fun q => c q * inner s (u q) g)%C.
Proof.
  induction m as [| m IH]; intros c u g; cbn [Csum].
  - unfold inner. transitivity (grid_sum s (fun _ _ _ => (C0 * C0)%C)); [apply grid_sum_ext; intros; ring | rewrite grid_sum_scal; ring].
  - rewrite inner_add_l, inner_scal_l, IH. reflexivity.
Qed.
Lemma inner_zero : forall f g, same_on s f (fun _ _ _ => C0) -> inner s f g = C0.
Proof. intros f g H. rewrite (inner_ext' s f g (fun _ _ _ => C0) g H (fun _ _ _ _ => eq_refl)). exact (inner_sum 0 (fun _ => C0) (fun _ => g) g). Qed.
Lemma form_sum : forall a m c u g, form a (fun i j k => Csum m (fun q => c q * u q i j k)%C) g = Csum m (fun q => c q * form a (u q) g)%C.
Proof.
  intros a m c u g. unfold form. rewrite <- inner_sum. apply inner_ext'; [| intros i j k _; reflexivity]. intros i j k _. rewrite <- Csum_scal. apply Csum_ext. intros; ring.
Qed.
Lemma form_zero : forall a f g, same_on s f (fun _ _ _ => C0) -> form a f g = C0.
Proof. intros a f g H. apply inner_zero. intros i j k G. rewrite (H i j k G). ring. Qed.
Lemma two_k : forall k k' (z : C), 0 < k -> 0 < k' -> k <> k' -> (RtoC (k * k) * z = RtoC (k' * k') * z)%C -> z = C0.
Proof.
  intros k k' z K K' N H. assert (Z : (RtoC (k * k - k' * k') * z)%C = C0) by (rewrite RtoC_sub; transitivity (RtoC (k * k) * z - RtoC (k' * k') * z)%C; [ring | rewrite H; ring]).
  apply Cmul_integral in Z. destruct Z as [Z | Z]; [| exact Z]. exfalso. apply (f_equal re) in Z. cbn [re RtoC C0] in Z. nra.
Qed.
Lemma unravel_zero : forall u : vec, (forall r, (r < n)%nat -> u r = C0) -> same_on s (unravel s u) (fun _ _ _ => C0).
Proof. intros u H i j k G. apply H. apply ridx_bound. exact G. Qed.
Lemma zero_unravel : forall u : vec, same_on s (unravel s u) (fun _ _ _ => C0) -> forall r, (r < n)%nat -> u r = C0.
Proof. intros u H r Hr. destruct (ridx_inv s r Hr) as (i & j & k & Hg & ->). exact (H i j k Hg). Qed.

(** ** E_z. *)
Definition res_te (k : R) (u : vec) : Prop := 0 < k /\ (forall r, (r < n)%nat -> matvec n (mat_ez_c (dk k)) u r = C0) /\ exists r, (r < n)%nat /\ u r <> C0.
Lemma te_kernel : forall k u, (forall r, (r < n)%nat -> matvec n (mat_ez_c (dk k)) u r = C0) <-> wave_te (dk k) (fun _ _ _ => C0) (unravel s u).
Proof.
  intros k u. pose proof (sys_te (dk k) u (fun _ _ _ => C0)) as Y. change (cf_shape (dk k)) with s in Y. fold n in Y. rewrite <- Y.
  split; intros H r Hr; specialize (H r Hr); rewrite H; unfold ravel; ring.
Qed.
Lemma te_form : forall k src f g, wave_te (dk k) src f ->
  (inner s (dplus d f AX) (dplus d g AX) + inner s (dplus d f AY) (dplus d g AY) = RtoC (k * k) * form AZ f g + RtoC k * inner s src g)%C.
Proof.
  intros k src f g H. unfold wave_te in H. cbn [at_wave_number cf_shape cf_k0 cf_eps] in H. fold s in H.
  change (dplus (dk k)) with (dplus d) in H. change (dminus (dk k)) with (dminus d) in H.
  transitivity (inner s (fun i j k => - C1 * dminus d (dplus d f AX) AX i j k - dminus d (dplus d f AY) AY i j k)%C g).
  - rewrite inner_sub_l, inner_scal_l, !adj_dk. ring.
  - unfold form. rewrite <- !inner_scal_l, <- inner_add_l. apply inner_ext'; [| intros i j k' _; reflexivity]. intros i j k' G. transitivity (RtoC (k * k) * eps_at s (cf_eps d) AZ i j k' * f i j k' + RtoC k * src i j k')%C; [rewrite <- (H i j k' G); ring | ring].
Qed.
Lemma swap_c : forall u v, inner s u v = Cconj (inner s v u).
Proof. intros; unfold inner; rewrite grid_sum_conj; apply grid_sum_ext; intros; rewrite Cconj_mul, Cconj_conj; ring. Qed.
Lemma conj_R : forall x, Cconj (RtoC x) = RtoC x. Proof. intro. apply C_eq; cbn [re im Cconj RtoC]; ring. Qed.
Lemma form_swap : forall c f g, form c f g = Cconj (form c g f).
Proof. intros. rewrite form_sym. unfold form. apply swap_c. Qed.
Lemma te_orth : forall k k' f g, 0 < k -> 0 < k' -> k <> k' -> wave_te (dk k) (fun _ _ _ => C0) f -> wave_te (dk k') (fun _ _ _ => C0) g -> form AZ f g = C0.
Proof.
  intros k k' f g K K' N Hf Hg. apply (two_k k k'); auto. pose proof (te_form k _ f g Hf) as A. pose proof (te_form k' _ g f Hg) as B.
  rewrite (inner_zero (fun _ _ _ => C0)) in A, B by (intros ? ? ? _; reflexivity).
  apply (f_equal Cconj) in B. rewrite !Cconj_add, !Cconj_mul, !conj_R, <- !swap_c, <- form_swap in B.
  transitivity (RtoC (k * k) * form AZ f g + RtoC k * C0)%C; [ring |]. rewrite <- A, B. replace (Cconj C0) with C0 by (apply C_eq; cbn; ring). ring.
Qed.
(** Well-posed unless a kernel vector exists. *)
Lemma te_inj_of : forall k, 0 < k -> ~ (exists u, res_te k u) -> injective n (mat_ez_c (dk k)).
Proof.
  intros k Hk H x Hx r Hr. apply NNPP. intro Z. apply H. exists x. split; [exact Hk |]. split; [exact Hx |]. exists r. auto.
Qed.
Lemma te_bad : forall k u, res_te k u -> ~ exists solver, exact2c (dk k) (mat_ez_c (dk k)) solver (fun i j m => eps_at s (cf_eps d) AZ i j m * unravel s u i j m)%C.
Proof.
  intros k u (Hk & U & r & Hr & Nz) (solver & X). apply exact_te_wave in X. apply te_kernel in U. set (x := fst (solve2_te_c _ _ _) AZ) in X.
  pose proof (te_form k _ x (unravel s u) X) as A. pose proof (te_form k _ (unravel s u) x U) as B.
  rewrite (inner_zero (fun _ _ _ => C0)) in B by (intros ? ? ? _; reflexivity).
  apply (f_equal Cconj) in B. rewrite !Cconj_add, !Cconj_mul, !conj_R, <- !swap_c, <- form_swap in B. rewrite A in B.
  change (inner s (fun i j m => eps_at s (cf_eps d) AZ i j m * unravel s u i j m)%C (unravel s u)) with (form AZ (unravel s u) (unravel s u)) in B.
  destruct (form_self AZ (unravel s u)) as (p & E & Pp & Pz). rewrite E in B. apply Nz. apply (zero_unravel u); auto. apply Pz.
  assert (Q : (RtoC k * RtoC p)%C = C0).
  { transitivity ((RtoC (k * k) * form AZ x (unravel s u) + RtoC k * RtoC p) - RtoC (k * k) * form AZ x (unravel s u))%C; [ring | rewrite B].
    replace (Cconj C0) with C0 by (apply C_eq; cbn; ring). ring. }
  rewrite <- RtoC_mul in Q. apply (f_equal re) in Q. cbn [re RtoC C0] in Q. apply Rmult_integral in Q. lra.
Qed.
Lemma te_list : exists l : list R, (length l <= n)%nat /\ forall k, In k l <-> exists u, res_te k u.
Proof.
  apply (listed n (fun u v => form AZ (unravel s u) (unravel s v)) res_te).
  - intros m c u v. exact (form_sum AZ m c (fun q => unravel s (u q)) (unravel s v)).
  - intros u v H. apply form_zero. apply unravel_zero. exact H.
  - intros k k' u v (K & U & _) (K' & V & _) N. apply (te_orth k k'); auto; apply te_kernel; assumption.
  - intros k u (_ & _ & r & Hr & Nz) Z. destruct (form_self AZ (unravel s u)) as (p & E & Pp & Pz). rewrite E in Z. apply (f_equal re) in Z. cbn [re RtoC C0] in Z.
    apply Nz. apply (zero_unravel u); auto. apply Pz. lra.
Qed.
(** ** H_z. *)
Definition res_tm (k : R) (u : vec) : Prop := 0 < k /\ (forall r, (r < n)%nat -> matvec n (mat_hz_c (dk k)) u r = C0) /\ exists r, (r < n)%nat /\ u r <> C0.
Lemma tm_kernel : forall k u, (forall r, (r < n)%nat -> matvec n (mat_hz_c (dk k)) u r = C0) <-> wave_tm (dk k) (fun _ _ _ => C0) (unravel s u).
Proof.
  intros k u. pose proof (sys_tm (dk k) u (fun _ _ _ => C0)) as Y. change (cf_shape (dk k)) with s in Y. fold n in Y. rewrite <- Y.
  split; intros H r Hr; specialize (H r Hr); rewrite H; unfold ravel; ring.
Qed.
Definition iform (c : axis) (f g : fld) : C := inner s (fun i j k => f i j k / eps_at s (cf_eps d) c i j k)%C g.
Lemma iform_swap : forall c f g, iform c f g = Cconj (iform c g f).
Proof.
  intros c f g. unfold iform, inner. rewrite grid_sum_conj. apply grid_sum_ext. intros i j k G. rewrite Cconj_mul, Cconj_conj.
  destruct (eps_real c i j k G) as (E & P). rewrite (real_eq _ E). set (x := re (eps_at s (cf_eps d) c i j k)) in *. unfold Cdiv. rewrite <- RtoC_inv by lra. rewrite Cconj_mul, conj_R. ring.
Qed.
Lemma tm_form : forall k src f g, wave_tm (dk k) src f ->
  (iform AY (dplus d f AX) (dplus d g AX) + iform AX (dplus d f AY) (dplus d g AY) = RtoC (k * k) * inner s f g + RtoC k * inner s src g)%C.
Proof.
  intros k src f g H. unfold wave_tm in H. cbn [at_wave_number cf_shape cf_k0 cf_eps] in H. fold s in H.
  change (dplus (dk k)) with (dplus d) in H. change (dminus (dk k)) with (dminus d) in H.
  transitivity (inner s (fun i j k => - C1 * dminus d (fun i j k => dplus d f AX i j k / eps_at s (cf_eps d) AY i j k) AX i j k - dminus d (fun i j k => dplus d f AY i j k / eps_at s (cf_eps d) AX i j k) AY i j k)%C g).
  - rewrite inner_sub_l, inner_scal_l, !adj_dk. unfold iform. ring.
  - rewrite <- !inner_scal_l, <- inner_add_l. apply inner_ext'; [| intros i j k' _; reflexivity]. intros i j k' G. rewrite <- (H i j k' G). ring.
Qed.
Lemma tm_orth : forall k k' f g, 0 < k -> 0 < k' -> k <> k' -> wave_tm (dk k) (fun _ _ _ => C0) f -> wave_tm (dk k') (fun _ _ _ => C0) g -> inner s f g = C0.
Proof.
  intros k k' f g K K' N Hf Hg. apply (two_k k k'); auto. pose proof (tm_form k _ f g Hf) as A. pose proof (tm_form k' _ g f Hg) as B.
  rewrite (inner_zero (fun _ _ _ => C0)) in A, B by (intros ? ? ? _; reflexivity).
  apply (f_equal Cconj) in B. rewrite !Cconj_add, !Cconj_mul, !conj_R, <- !iform_swap, <- swap_c in B.
  transitivity (RtoC (k * k) * inner s f g + RtoC k * C0)%C; [ring |]. rewrite <- A, B. replace (Cconj C0) with C0 by (apply C_eq; cbn; ring). ring.
Qed.
Lemma tm_inj_of : forall k, 0 < k -> ~ (exists u, res_tm k u) -> injective n (mat_hz_c (dk k)).
Proof.
  intros k Hk H x Hx r Hr. apply NNPP. intro Z. apply H. exists x. split; [exact Hk |]. split; [exact Hx |]. exists r. auto.
Qed.
Lemma tm_bad : forall k u, res_tm k u -> ~ exists solver, exact2c (dk k) (mat_hz_c (dk k)) solver (unravel s u).
Proof.
  intros k u (Hk & U & r & Hr & Nz) (solver & X). apply exact_tm_wave in X. apply tm_kernel in U. set (x := snd (solve2_tm_c _ _ _) AZ) in X.
  pose proof (tm_form k _ x (unravel s u) X) as A. pose proof (tm_form k _ (unravel s u) x U) as B.
  rewrite (inner_zero (fun _ _ _ => C0)) in B by (intros ? ? ? _; reflexivity).
  apply (f_equal Cconj) in B. rewrite !Cconj_add, !Cconj_mul, !conj_R, <- !iform_swap, <- swap_c in B. rewrite A, inner_self in B.
  apply Nz. apply (zero_unravel u); auto. apply power2_zero.
  assert (Q : (RtoC k * RtoC (power2 s (unravel s u)))%C = C0).
  { transitivity ((RtoC (k * k) * inner s x (unravel s u) + RtoC k * RtoC (power2 s (unravel s u))) - RtoC (k * k) * inner s x (unravel s u))%C; [ring | rewrite B].
    replace (Cconj C0) with C0 by (apply C_eq; cbn; ring). ring. }
  rewrite <- RtoC_mul in Q. apply (f_equal re) in Q. cbn [re RtoC C0] in Q. apply Rmult_integral in Q. lra.
Qed.
Lemma tm_list : exists l : list R, (length l <= n)%nat /\ forall k, In k l <-> exists u, res_tm k u.
Proof.
  apply (listed n (fun u v => inner s (unravel s u) (unravel s v)) res_tm).
  - intros m c u v. exact (inner_sum m c (fun q => unravel s (u q)) (unravel s v)).
  - intros u v H. apply inner_zero. apply unravel_zero. exact H.
  - intros k k' u v (K & U & _) (K' & V & _) N. apply (tm_orth k k'); auto; apply tm_kernel; assumption.
  - intros k u (_ & _ & r & Hr & Nz) Z. rewrite inner_self in Z. apply (f_equal re) in Z. cbn [re RtoC C0] in Z.
    apply Nz. apply (zero_unravel u); auto. apply power2_zero. lra.
Qed.
(** ** Three dimensions. *)
Definition vform (f g : vfld) : C := (form AX (f AX) (g AX) + form AY (f AY) (g AY) + form AZ (f AZ) (g AZ))%C.
Lemma vform_swap : forall f g, vform f g = Cconj (vform g f).
Proof. intros. unfold vform. rewrite !Cconj_add, <- !form_swap. reflexivity. Qed.
Lemma vswap : forall f g, vinner s f g = Cconj (vinner s g f).
Proof. intros. unfold vinner. rewrite !Cconj_add, <- !swap_c. reflexivity. Qed.
Lemma form3 : forall k src f g, wave3 (dk k) src f -> (vinner s (curl_of (dplus d) f) (curl_of (dplus d) g) = RtoC (k * k) * vform f g + RtoC k * vinner s src g)%C.
Proof.
  intros k src f g H. unfold wave3 in H. cbn [at_wave_number cf_shape cf_k0 cf_eps] in H. fold s in H.
  change (dplus (dk k)) with (dplus d) in H. change (dminus (dk k)) with (dminus d) in H.
  destruct Hd as ((w & Hf & Hb) & _). pose proof (curl_adj d w Hf Hb (curl_of (dplus d) f) g) as A. fold s in A. rewrite <- A.
  assert (Q : forall c, inner s (curl_of (dminus d) (curl_of (dplus d) f) c) (g c) = (RtoC (k * k) * form c (f c) (g c) + RtoC k * inner s (src c) (g c))%C).
  { intro c. unfold form. rewrite <- !inner_scal_l, <- inner_add_l. apply inner_ext'; [| intros i j m _; reflexivity]. intros i j m G. rewrite (H c i j m G). ring. }
  unfold vinner. rewrite !Q. unfold vform. ring.
Qed.
Lemma vzero : forall f g : vfld, (forall c, same_on s (f c) (fun _ _ _ => C0)) -> vinner s f g = C0.
Proof. intros f g H. unfold vinner. rewrite !inner_zero by apply H. ring. Qed.
Lemma orth3 : forall k k' f g, 0 < k -> 0 < k' -> k <> k' -> wave3 (dk k) zero_vfld f -> wave3 (dk k') zero_vfld g -> vform f g = C0.
Proof.
  intros k k' f g K K' N Hf Hg. apply (two_k k k'); auto. pose proof (form3 k _ f g Hf) as A. pose proof (form3 k' _ g f Hg) as B.
  rewrite (vzero zero_vfld) in A, B by (intros c i j m _; reflexivity).
  apply (f_equal Cconj) in B. rewrite !Cconj_add, !Cconj_mul, !conj_R, <- vswap, <- vform_swap in B.
  transitivity (RtoC (k * k) * vform f g + RtoC k * C0)%C; [ring |]. rewrite <- A, B. replace (Cconj C0) with C0 by (apply C_eq; cbn; ring). ring.
Qed.
Notation blk := (block d).
Definition fields (y : vec) : vfld := fun c => unravel s (blk y c).
Definition res3 (k : R) (y : vec) : Prop :=
  0 < k /\ (forall c r, (r < n)%nat -> bmatvec n (mat3c (dk k)) (blk y) c r = C0) /\ exists c r, (r < n)%nat /\ blk y c r <> C0.
Lemma kernel3 : forall k x, (forall c r, (r < n)%nat -> bmatvec n (mat3c (dk k)) x c r = C0) <-> wave3 (dk k) zero_vfld (fun c => unravel s (x c)).
Proof.
  intros k x. pose proof (sys3 (dk k) x zero_vfld) as Y. change (cf_shape (dk k)) with s in Y. fold n in Y. rewrite <- Y.
  split; intros H c r Hr; specialize (H c r Hr); rewrite H; unfold zero_vfld, ravel; ring.
Qed.
Lemma vform_self : forall f, exists p, vform f f = RtoC p /\ 0 <= p /\ (p <= 0 -> forall c, same_on s (f c) (fun _ _ _ => C0)).
Proof.
  intros f. destruct (form_self AX (f AX)) as (x & X1 & X2 & X3). destruct (form_self AY (f AY)) as (y & Y1 & Y2 & Y3). destruct (form_self AZ (f AZ)) as (z & Z1 & Z2 & Z3).
  exists (x + y + z). split; [unfold vform; rewrite X1, Y1, Z1, !RtoC_add; reflexivity |]. split; [lra |]. intros H c. destruct c; [apply X3 | apply Y3 | apply Z3]; lra.
Qed.
(** A vector of three blocks. *)
Definition unblock (x : bvec) : vec := fun q => x (ax_of (q / n)%nat) (q mod n)%nat.
Lemma block_unblock : forall x c r, (r < n)%nat -> blk (unblock x) c r = x c r.
Proof.
  intros x c r Hr. unfold block, unblock. fold s n. destruct (divmod_pair n (num_of c) r Hr) as [E1 E2]. rewrite E1, E2. destruct c; reflexivity.
Qed.
Lemma inj3_of : forall k, 0 < k -> ~ (exists y, res3 k y) -> forall x, (forall c r, (r < n)%nat -> bmatvec n (mat3c (dk k)) x c r = C0) -> forall c r, (r < n)%nat -> x c r = C0.
Proof.
  intros k Hk H x Hx c r Hr. apply NNPP. intro Z. apply H. exists (unblock x). split; [exact Hk |]. split.
  - intros c' r' Hr'. rewrite <- (Hx c' r' Hr'). unfold bmatvec, matvec. f_equal; [f_equal |]; apply Csum_ext; intros q Hq; rewrite block_unblock by auto; reflexivity.
  - exists c, r. split; [exact Hr |]. rewrite block_unblock by auto. exact Z.
Qed.
Lemma bad3 : forall k y, res3 k y -> ~ exists solver, exact3c (dk k) solver (fun c i j m => eps_at s (cf_eps d) c i j m * fields y c i j m)%C.
Proof.
  intros k y (Hk & U & c0 & r & Hr & Nz) (solver & X). apply exact3c_wave in X. apply kernel3 in U. change (fun c => unravel s (blk y c)) with (fields y) in U.
  set (x := fst (solve3c _ _ _)) in X.
  pose proof (form3 k _ x (fields y) X) as A. pose proof (form3 k _ (fields y) x U) as B.
  rewrite (vzero zero_vfld) in B by (intros c i j m _; reflexivity).
  apply (f_equal Cconj) in B. rewrite !Cconj_add, !Cconj_mul, !conj_R, <- vswap, <- vform_swap in B. rewrite A in B.
  change (vinner s (fun c i j m => eps_at s (cf_eps d) c i j m * fields y c i j m)%C (fields y)) with (vform (fields y) (fields y)) in B.
  destruct (vform_self (fields y)) as (p & E & Pp & Pz). rewrite E in B. apply Nz. apply (zero_unravel (blk y c0)); auto. apply (Pz ltac:(
    assert (Q : (RtoC k * RtoC p)%C = C0) by (transitivity ((RtoC (k * k) * vform x (fields y) + RtoC k * RtoC p) - RtoC (k * k) * vform x (fields y))%C;
      [ring | rewrite B; replace (Cconj C0) with C0 by (apply C_eq; cbn; ring); ring]);
    rewrite <- RtoC_mul in Q; apply (f_equal re) in Q; cbn [re RtoC C0] in Q; apply Rmult_integral in Q; lra)).
Qed.
Lemma list3 : exists l : list R, (length l <= 3 * n)%nat /\ forall k, In k l <-> exists y, res3 k y.
Proof.
  apply (listed (3 * n) (fun u v => vform (fields u) (fields v)) res3).
  - intros m c u v. unfold vform.
    transitivity (Csum m (fun q => c q * form AX (fields (u q) AX) (fields v AX)) + Csum m (fun q => c q * form AY (fields (u q) AY) (fields v AY)) + Csum m (fun q => c q * form AZ (fields (u q) AZ) (fields v AZ)))%C.
    + f_equal; [f_equal |]; [exact (form_sum AX m c (fun q => fields (u q) AX) (fields v AX)) | exact (form_sum AY m c (fun q => fields (u q) AY) (fields v AY)) | exact (form_sum AZ m c (fun q => fields (u q) AZ) (fields v AZ))].
    + rewrite <- !Csum_add. apply Csum_ext. intros q _. ring.
  - intros u v H. unfold vform. rewrite !form_zero; [ring | | |]; apply unravel_zero; intros r Hr; apply H; cbn [num_of]; fold s n; lia.
  - intros k k' u v (K & U & _) (K' & V & _) N. apply (orth3 k k'); auto; apply kernel3; assumption.
  - intros k u (_ & _ & c & r & Hr & Nz) Z. destruct (vform_self (fields u)) as (p & E & Pp & Pz). rewrite E in Z. apply (f_equal re) in Z. cbn [re RtoC C0] in Z.
    apply Nz. apply (zero_unravel (blk u c)); auto. apply Pz. lra.
Qed.
(** ** The statements. *)
Lemma te_finite : exists ks : list R, (length ks <= n)%nat /\ forall k, 0 < k ->
  (In k ks <-> exists src, ~ exists solver, exact2c (dk k) (mat_ez_c (dk k)) solver src) /\
  (~ In k ks -> forall src solver solver', exact2c (dk k) (mat_ez_c (dk k)) solver src -> exact2c (dk k) (mat_ez_c (dk k)) solver' src ->
     same_on s (fst (solve2_te_c (dk k) solver src) AZ) (fst (solve2_te_c (dk k) solver' src) AZ)).
Proof.
  destruct te_list as (l & L & H). exists l. split; [exact L |]. intros k Hk. split; [split |].
  - intros K. apply H in K. destruct K as (u & U). eexists. exact (te_bad k u U).
  - intros (src & N). apply H. apply NNPP. intro Q. apply N.
    destruct (onto n (mat_ez_c (dk k)) (fun r => RtoC k * ravel s src r)%C (te_inj_of k Hk Q)) as (x & Hx). exists (fun _ _ => x). exact Hx.
  - intros N src s1 s2 X Y i j m G. assert (Q : ~ exists u, res_te k u) by (intro Q; apply N, H, Q).
    exact (inj_unique _ _ _ _ _ (te_inj_of k Hk Q) X Y _ (ridx_bound _ _ _ _ G)).
Qed.
Lemma tm_finite : exists ks : list R, (length ks <= n)%nat /\ forall k, 0 < k ->
  (In k ks <-> exists src, ~ exists solver, exact2c (dk k) (mat_hz_c (dk k)) solver src) /\
  (~ In k ks -> forall src solver solver', exact2c (dk k) (mat_hz_c (dk k)) solver src -> exact2c (dk k) (mat_hz_c (dk k)) solver' src ->
     same_on s (snd (solve2_tm_c (dk k) solver src) AZ) (snd (solve2_tm_c (dk k) solver' src) AZ)).
Proof.
  destruct tm_list as (l & L & H). exists l. split; [exact L |]. intros k Hk. split; [split |].
  - intros K. apply H in K. destruct K as (u & U). eexists. exact (tm_bad k u U).
  - intros (src & N). apply H. apply NNPP. intro Q. apply N.
    destruct (onto n (mat_hz_c (dk k)) (fun r => RtoC k * ravel s src r)%C (tm_inj_of k Hk Q)) as (x & Hx). exists (fun _ _ => x). exact Hx.
  - intros N src s1 s2 X Y i j m G. assert (Q : ~ exists u, res_tm k u) by (intro Q; apply N, H, Q).
    exact (inj_unique _ _ _ _ _ (tm_inj_of k Hk Q) X Y _ (ridx_bound _ _ _ _ G)).
Qed.
Lemma finite3 : exists ks : list R, (length ks <= 3 * n)%nat /\ forall k, 0 < k ->
  (In k ks <-> exists src, ~ exists solver, exact3c (dk k) solver src) /\
  (~ In k ks -> forall src solver solver', exact3c (dk k) solver src -> exact3c (dk k) solver' src ->
     forall c, same_on s (fst (solve3c (dk k) solver src) c) (fst (solve3c (dk k) solver' src) c)).
Proof.
  destruct list3 as (l & L & H). exists l. split; [exact L |]. intros k Hk. split; [split |].
  - intros K. apply H in K. destruct K as (u & U). eexists. exact (bad3 k u U).
  - intros (src & N). apply H. apply NNPP. intro Q. apply N.
    destruct (block_onto (dk k) (mat3c (dk k)) (fun c r => RtoC k * ravel s (src c) r)%C (inj3_of k Hk Q)) as (x & Hx). exists (fun _ _ => x). exact Hx.
  - intros N src s1 s2 X Y c i j m G. assert (Q : ~ exists u, res3 k u) by (intro Q; apply N, H, Q).
    unfold solve3c, fst, unravel_f. set (y := s1 (mat3c (dk k)) (rhs3c (dk k) src)). set (x := s2 (mat3c (dk k)) (rhs3c (dk k) src)).
    pose proof (inj3_of k Hk Q (fun c r => y c r - x c r)%C) as I.
    assert (Z : (y c (ridx s i j m) - x c (ridx s i j m))%C = C0).
    { apply I; [| apply ridx_bound; exact G]. intros c' r Hr.
      transitivity (bmatvec n (mat3c (dk k)) y c' r - bmatvec n (mat3c (dk k)) x c' r)%C.
      - unfold bmatvec. assert (QQ : forall M (u v : vec) r, matvec n M (fun r => u r - v r)%C r = (matvec n M u r - matvec n M v r)%C).
        { intros. unfold matvec. rewrite <- Csum_sub. apply Csum_ext. intros; ring. }
        rewrite (QQ _ (y AX)), (QQ _ (y AY)), (QQ _ (y AZ)). ring.
      - pose proof (X c' r Hr) as A1. pose proof (Y c' r Hr) as A2. fold (rhs3c (dk k) src) in A1, A2. change (cf_shape (dk k)) with s in A1, A2. fold n y in A1. fold n x in A2. rewrite A1, A2. ring. }
    apply sub_eq in Z. change (y c (ridx s i j m) = x c (ridx s i j m)). rewrite Z. ring.
Qed.
End D.
