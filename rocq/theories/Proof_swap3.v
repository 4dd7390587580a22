(** Frequency-domain solutions with rotated axes; modes of a cross section with exchanged axes. *)
From Coq Require Import Reals Lra Lia List Arith Bool FunctionalExtensionality.
From Verif Require Import Cx Arr Model_coupling Model_yee Spec_yee Proof_yee Proof_yee2 Model_fdfd Spec_fdfd Proof_fdfd Model_fdtd Spec_fdtd Model_fdfdc Spec_fdfdc Proof_fdfdc Proof_fdfdc3 Spec_fdfdsy
  Proof_fdfdsy2 Proof_fdfdsy3 Proof_fdfdsy4 Model_mode Spec_mode Proof_mode Spec_swap Proof_swap Proof_swap2.
Local Open Scope R_scope.

Section Cycle.
Variable d : cfdfd.
Variable x : C.
Hypothesis Hx : forall i j k, cf_eps d i j k = x.
Lemma dplus_cycle : forall f a i j k, dplus (cycle_cf d) (cycle f) a i j k = dplus d f (after a) k i j.
Proof. intros f a i j k. destruct a; reflexivity. Qed.
Lemma dminus_cycle : forall f a i j k, dminus (cycle_cf d) (cycle f) a i j k = dminus d f (after a) k i j.
Proof. intros f a i j k. destruct a; reflexivity. Qed.
Lemma eps_at_const : forall s e c i j k, (forall i j k, e i j k = x) -> eps_at s e c i j k = x.
Proof.
  intros s e c i j k He. unfold eps_at. destruct c; rewrite !He; apply C_eq; unfold Cdiv, Cinv, Cn2; cbn [re im RtoC Cadd Cmul]; field.
Qed.
Lemma wave3_cycle : forall src e, wave3 d src e -> wave3 (cycle_cf d) (cycle_v src) (cycle_v e).
Proof.
  intros src e H c i j k Hg. apply (proj1 (grid_cycle (cf_shape d) i j k)) in Hg.
  rewrite (vfld_eq (curl_of (dplus (cycle_cf d)) (cycle_v e)) (cycle_v (curl_of (dplus d) e))).
  2:{ intros c0 i0 j0 k0. unfold cycle_v, curl_of. destruct c0; cbn [after]; rewrite !dplus_cycle; reflexivity. }
  rewrite (eps_at_const (cf_shape (cycle_cf d))) by (intros; unfold cycle_cf, cycle; cbn [cf_eps]; apply Hx).
  pose proof (H (after c) k i j Hg) as E. rewrite (eps_at_const (cf_shape d)) in E by exact Hx.
  transitivity (curl_of (dminus d) (curl_of (dplus d) e) (after c) k i j); [| exact E].
  unfold cycle_v, curl_of at 1 3. destruct c; cbn [after]; rewrite !dminus_cycle; reflexivity.
Qed.
End Cycle.
Lemma cycle_cf3 : forall d, cycle_cf (cycle_cf (cycle_cf d)) = d.
Proof.
  intros [s f b bl k0 e]. unfold cycle_cf; cbn [cf_shape cf_dxf cf_dxb cf_bloch cf_k0 cf_eps].
  f_equal; apply functional_extensionality; intro a; try (destruct a; reflexivity); reflexivity.
Qed.
Lemma cycle_v3 : forall e, cycle_v (cycle_v (cycle_v e)) = e.
Proof. intro e. apply vfld_eq. intros c i j k. destruct c; reflexivity. Qed.
Lemma cycle3 : forall d x solver solver' src, (forall i j k, cf_eps d i j k = x) -> unique3 d -> exact3c d solver src -> exact3c (cycle_cf d) solver' (cycle_v src) ->
  let (e, h) := solve3c d solver src in let (e', h') := solve3c (cycle_cf d) solver' (cycle_v src) in
  same_v (cf_shape (cycle_cf d)) e' (cycle_v e) /\ same_v (cf_shape (cycle_cf d)) h' (cycle_v h).
Proof.
  intros d x solver solver' src Hx U H H'. apply exact3c_wave in H. apply exact3c_wave in H'.
  assert (Hx1 : forall i j k, cf_eps (cycle_cf d) i j k = x) by (intros; apply Hx).
  apply (wave3_cycle _ x Hx1) in H'. apply (wave3_cycle (cycle_cf (cycle_cf d)) x (fun i j k => Hx1 _ _ _)) in H'.
  rewrite cycle_cf3, cycle_v3 in H'. pose proof (U _ _ _ H' H) as E.
  unfold solve3c in *. cbn [fst] in *.
  set (e := fun c => unravel_f (cf_shape d) (solver (mat3c d) (rhs3c d src) c)) in *.
  set (e' := fun c => unravel_f (cf_shape (cycle_cf d)) (solver' (mat3c (cycle_cf d)) (rhs3c (cycle_cf d) (cycle_v src)) c)) in *.
  assert (Ee : same_v (cf_shape (cycle_cf d)) e' (cycle_v e)).
  { intros c i j k Hg. pose proof (proj1 (grid_cycle (cf_shape d) i j k) Hg) as Hg'. pose proof (E (after c) k i j Hg') as Q. unfold cycle_v, cycle in Q |- *. rewrite <- Q. destruct c; reflexivity. }
  split; [exact Ee |]. intros c i j k Hg.
  rewrite (curl_ext (cf_shape (cycle_cf d)) (cf_dxf (cycle_cf d)) false e' (cycle_v e)) by auto.
  cbn [cycle_cf cf_shape cf_dxf]. rewrite curl_cycle. reflexivity.
Qed.

(** ** Modes *)
Section Mode.
Variable q : mode_solver.
Notation s := (q_shape q).
Notation s' := (fun a => q_shape q (other a)).
Lemma dxq_flip : q_dx (flip_q q) = fun a => q_dx q (other a). Proof. reflexivity. Qed.
Lemma eps_q_flip : forall c i j k, q_eps_t (flip_q q) c i j k = q_eps_t q (other c) j i k.
Proof. intros. unfold q_eps_t, flip_q; cbn [q_shape q_eps]. apply yee_flip. Qed.
Lemma diff_q_flip : forall o f a i j k, diff_fn (q_shape (flip_q q)) (q_dx (flip_q q)) o (fun i j k => - flip f i j k)%C a i j k =
  (- diff_fn s (q_dx q) o f (other a) j i k)%C.
Proof. intros. rewrite dxq_flip. cbn [flip_q q_shape]. apply diff_flip_opp. Qed.
Lemma diff_q_flip' : forall o f a i j k, diff_fn (q_shape (flip_q q)) (q_dx (flip_q q)) o (flip f) a i j k = diff_fn s (q_dx q) o f (other a) j i k.
Proof. intros. rewrite dxq_flip. cbn [flip_q q_shape]. apply diff_flip. Qed.
Lemma unravel_flip : forall v i j k, in_grid (q_shape (flip_q q)) i j k -> unravel (q_shape (flip_q q)) (flip_vec q v) i j k = (- flip (unravel s v) i j k)%C.
Proof.
  intros v i j k (Hi & Hj & Hk). unfold unravel at 1, flip_vec. cbn [flip_q q_shape] in *. rewrite ravel_ridx by auto. reflexivity.
Qed.
Definition fv (U V : vec) : vfld := fun c => match c with AX => unravel s U | _ => unravel s V end.
Definition fv' (U V : vec) : vfld := fun c => match c with AX => unravel (q_shape (flip_q q)) (flip_vec q V) | _ => unravel (q_shape (flip_q q)) (flip_vec q U) end.
Definition gv (U V : vec) : vfld := fun c i j k => (- flip (fv U V (match c with AX => AY | _ => AX end)) i j k)%C.
Lemma fv_gv : forall U V c i j k, in_grid (q_shape (flip_q q)) i j k -> fv' U V c i j k = gv U V c i j k.
Proof. intros U V c i j k H. unfold fv', gv, fv. destruct c; apply unravel_flip; exact H. Qed.
Lemma W_flip : forall h i j k, Wf (flip_q q) (fun c i j k => - flip (h (match c with AX => AY | _ => AX end)) i j k)%C i j k = flip (Wf q h) i j k.
Proof.
  intros h i j k. unfold Wf, flip at 3. rewrite !diff_q_flip. cbn [other]. unfold inv_eps. rewrite eps_q_flip. cbn [other]. ring.
Qed.
Lemma W_flip' : forall U V a i j k, in_grid (q_shape (flip_q q)) i j k ->
  diff_fn (q_shape (flip_q q)) (q_dx (flip_q q)) false (Wf (flip_q q) (fv' U V)) a i j k = diff_fn s (q_dx q) false (Wf q (fv U V)) (other a) j i k.
Proof.
  intros U V a i j k H. rewrite <- diff_q_flip'. apply diff_ext; [| exact H]. intros i0 j0 k0 H0. rewrite <- W_flip.
  apply Wf_ext; [| exact H0]. intros. apply fv_gv. auto.
Qed.
Lemma BF_flip : forall U V c a b i j k, in_grid (q_shape (flip_q q)) i j k ->
  diff_fn (q_shape (flip_q q)) (q_dx (flip_q q)) true (diff_fn (q_shape (flip_q q)) (q_dx (flip_q q)) false (fv' U V c) a) b i j k =
  (- diff_fn s (q_dx q) true (diff_fn s (q_dx q) false (fv U V (match c with AX => AY | _ => AX end)) (other a)) (other b) j i k)%C.
Proof.
  intros U V c a b i j k H. rewrite <- diff_q_flip. apply diff_ext; [| exact H]. intros i0 j0 k0 H0. unfold flip at 1. rewrite <- diff_q_flip.
  apply diff_ext; [| exact H0]. intros. apply fv_gv. auto.
Qed.
Lemma all_rows : forall (P : nat -> Prop), (forall i j k, in_grid (q_shape (flip_q q)) i j k -> P (ridx (q_shape (flip_q q)) i j k)) ->
  forall r, (r < q_n (flip_q q))%nat -> P r.
Proof.
  intros P H r Hr. set (t := q_shape (flip_q q)) in *. unfold q_n in Hr. fold t in Hr.
  destruct (ridx_inv t r Hr) as (i & j & k & Hg & ->). apply H. exact Hg.
Qed.
Lemma flip_eigen : forall lam U V, eigen2 q lam U V -> eigen2 (flip_q q) lam (flip_vec q V) (flip_vec q U).
Proof.
  intros lam U V H r Hr. revert r Hr. apply all_rows. intros i j k Hg.
  pose proof (proj1 (grid_flip _ _ _ _) Hg) as Hg'.
  destruct (H (ridx s j i k) (ridx_bound s j i k Hg')) as [R1 R2].
  rewrite wg_row_x in R1 by auto. rewrite wg_row_y in R2 by auto. rewrite wg_row_x, wg_row_y by auto. cbv zeta in *.
  change (fun c : axis => match c with AX => unravel s U | _ => unravel s V end) with (fv U V) in *.
  change (fun c : axis => match c with AX => unravel (q_shape (flip_q q)) (flip_vec q V) | _ => unravel (q_shape (flip_q q)) (flip_vec q U) end) with (fv' U V) in *.
  rewrite !W_flip' by auto. cbn [other].
  rewrite !BF_flip by auto. rewrite !fv_gv by auto. unfold gv, flip. rewrite !eps_q_flip. cbn [other flip_q q_k0].
  replace (flip_vec q V (ridx (q_shape (flip_q q)) i j k)) with (- V (ridx s j i k))%C by (symmetry; apply (unravel_flip V i j k Hg)).
  replace (flip_vec q U (ridx (q_shape (flip_q q)) i j k)) with (- U (ridx s j i k))%C by (symmetry; apply (unravel_flip U i j k Hg)).
  split.
  - replace (lam * - V (ridx s j i k))%C with (- (lam * V (ridx s j i k)))%C by ring. rewrite <- R2. ring.
  - replace (lam * - U (ridx s j i k))%C with (- (lam * U (ridx s j i k)))%C by ring. rewrite <- R1. ring.
Qed.
(** The fields, up to the phase the solver chose. *)
Lemma flip_h_phase : forall beta U V, exists t,
  (forall c i j k, in_grid (q_shape (flip_q q)) i j k -> mode_h (flip_q q) beta (flip_vec q V) (flip_vec q U) c i j k = (cis t * flip_h (mode_h q beta U V) c i j k)%C).
Proof.
  intros beta U V. exists (Carg (U 0%nat) - Carg (flip_vec q V 0%nat)).
  set (t := Carg (U 0%nat) - Carg (flip_vec q V 0%nat)).
  assert (Et : forall z, (z * cis (- Carg (flip_vec q V 0%nat)))%C = (cis t * (z * cis (- Carg (U 0%nat))))%C).
  { intro z. transitivity (z * (cis t * cis (- Carg (U 0%nat))))%C; [| ring]. rewrite <- cis_add. f_equal. f_equal. unfold t. ring. }
  assert (HX : forall i j k, in_grid (q_shape (flip_q q)) i j k -> mode_h (flip_q q) beta (flip_vec q V) (flip_vec q U) AX i j k = (cis t * flip_h (mode_h q beta U V) AX i j k)%C).
  { intros i j k Hg. unfold mode_h at 1. rewrite Et. f_equal. unfold flip_h, flip, mode_h, unravel_f. cbn [other].
    change (flip_vec q V (ridx (q_shape (flip_q q)) i j k)) with (unravel (q_shape (flip_q q)) (flip_vec q V) i j k). rewrite unravel_flip by exact Hg. unfold flip, unravel. ring. }
  assert (HY : forall i j k, in_grid (q_shape (flip_q q)) i j k -> mode_h (flip_q q) beta (flip_vec q V) (flip_vec q U) AY i j k = (cis t * flip_h (mode_h q beta U V) AY i j k)%C).
  { intros i j k Hg. unfold mode_h at 1. rewrite Et. f_equal. unfold flip_h, flip, mode_h, unravel_f. cbn [other].
    change (flip_vec q U (ridx (q_shape (flip_q q)) i j k)) with (unravel (q_shape (flip_q q)) (flip_vec q U) i j k). rewrite unravel_flip by exact Hg. unfold flip, unravel. ring. }
  intros c i j k Hg. destruct c; [apply HX; auto | apply HY; auto |].
  pose proof (proj1 (grid_flip (q_shape q) i j k) Hg) as Hg'.
  rewrite (mode_h_hz (flip_q q) beta _ _ i j k Hg). unfold flip_h, flip. cbn [other]. rewrite (mode_h_hz q beta U V j i k Hg').
  rewrite (diff_ext (q_shape (flip_q q)) (q_dx (flip_q q)) false _ _ AX i j k HX Hg), (diff_ext (q_shape (flip_q q)) (q_dx (flip_q q)) false _ _ AY i j k HY Hg).
  rewrite (diff_scal (q_shape (flip_q q)) (q_dx (flip_q q)) false (cis t) (flip_h (mode_h q beta U V) AX)), (diff_scal (q_shape (flip_q q)) (q_dx (flip_q q)) false (cis t) (flip_h (mode_h q beta U V) AY)).
  unfold flip_h. cbn [other]. rewrite !diff_q_flip. cbn [other]. unfold Cdiv. ring.
Qed.
Lemma flip_e_phase : forall beta U V, exists t,
  (forall c i j k, in_grid (q_shape (flip_q q)) i j k -> mode_h (flip_q q) beta (flip_vec q V) (flip_vec q U) c i j k = (cis t * flip_h (mode_h q beta U V) c i j k)%C) /\
  (forall c i j k, in_grid (q_shape (flip_q q)) i j k -> mode_e (flip_q q) beta (mode_h (flip_q q) beta (flip_vec q V) (flip_vec q U)) c i j k =
     (cis t * flip_e (mode_e q beta (mode_h q beta U V)) c i j k)%C).
Proof.
  intros beta U V. destruct (flip_h_phase beta U V) as (t & Ht). exists t. split; [exact Ht |].
  intros c i j k Hg. unfold mode_e at 1. rewrite (curl_beta_ext (flip_q q) true beta _ _ c i j k Ht Hg).
  unfold flip_e, flip, mode_e. rewrite eps_q_flip. cbn [flip_q q_k0].
  unfold curl_beta_fn. destruct c; cbn [other];
  rewrite ?(diff_scal (q_shape (flip_q q)) (q_dx (flip_q q)) true (cis t) (flip_h (mode_h q beta U V) AX)),
    ?(diff_scal (q_shape (flip_q q)) (q_dx (flip_q q)) true (cis t) (flip_h (mode_h q beta U V) AY)),
    ?(diff_scal (q_shape (flip_q q)) (q_dx (flip_q q)) true (cis t) (flip_h (mode_h q beta U V) AZ));
  unfold flip_h; cbn [other]; rewrite !diff_q_flip; cbn [other]; unfold flip, Cdiv; ring.
Qed.
End Mode.
Lemma flip_q_invol : forall q, flip_q (flip_q q) = q.
Proof.
  intros [s h k0 e]. unfold flip_q; cbn [q_shape q_h q_k0 q_eps].
  f_equal; apply functional_extensionality; intro a; try (rewrite other_invol; reflexivity); reflexivity.
Qed.
Lemma flip_nonzero : forall q v, (exists r, (r < q_n q)%nat /\ v r <> C0) -> exists r, (r < q_n (flip_q q))%nat /\ flip_vec q v r <> C0.
Proof.
  intros q v (r & Hr & Hv). destruct (ridx_inv (q_shape q) r Hr) as (i & j & k & Hg & ->).
  assert (Hg' : in_grid (q_shape (flip_q q)) j i k) by (apply (proj2 (grid_flip (q_shape q) j i k)); exact Hg).
  exists (ridx (q_shape (flip_q q)) j i k). split; [apply ridx_bound; exact Hg' |].
  change (unravel (q_shape (flip_q q)) (flip_vec q v) j i k <> C0). rewrite unravel_flip by exact Hg'. unfold flip, unravel. intro E. apply Hv.
  transitivity (- - v (ridx (q_shape q) i j k))%C; [ring | rewrite E; ring].
Qed.
Lemma flip_spectrum1 : forall q lam, is_eigenvalue q lam -> is_eigenvalue (flip_q q) lam.
Proof.
  intros q lam (U & V & H & N). exists (flip_vec q V), (flip_vec q U). split; [apply flip_eigen; exact H |].
  destruct N as [N | N]; [right | left]; apply flip_nonzero; exact N.
Qed.
Lemma flip_spectrum : forall q lam, is_eigenvalue (flip_q q) lam <-> is_eigenvalue q lam.
Proof.
  intros q lam. split; [| apply flip_spectrum1]. intro H. apply flip_spectrum1 in H. rewrite flip_q_invol in H. exact H.
Qed.
