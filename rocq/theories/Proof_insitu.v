(** In-situ backpropagation (C25). *)
From Coq Require Import Reals Lra Lia List ZArith Permutation Bool FunctionalExtensionality.
From Verif Require Import Cx Arr Spec_circuit Model_coupling Model_forward Model_insitu Spec_mesh Spec_insitu
  Proof_node Proof_mesh Proof_forward Proof_forward2 Proof_forward3 Proof_forward4 Proof_tree Proof_vector Proof_order.
Import ListNotations.
Local Open Scope R_scope.

Lemma meas_im : forall f c : C, (Cn2 (f + - Ci * c)%C - Cn2 (f + Ci * c)%C) / 2 / 2 = - im (f * Cconj c)%C.
Proof. intros [a b] [c d]. unfold Cn2. cbn. field. Qed.

Lemma deriv_re_cis : forall (z c0 : C) t0, derivable_pt_lim (fun t => re (c0 + z * (cis t - C1))%C) t0 (- im (z * cis t0)%C).
Proof.
  intros [a b] [c d] t0.
  assert (E : (fun t => re (mkC c d + mkC a b * (cis t - C1))%C) = (fct_cte (c - a) + (mult_real_fct a cos - mult_real_fct b sin))%F).
  { apply functional_extensionality; intro t. unfold plus_fct, minus_fct, fct_cte, mult_real_fct. cbn. ring. }
  rewrite E. replace (- im (mkC a b * cis t0)%C) with (- (a * sin t0 + b * cos t0)) by (cbn; ring).
  replace (- (a * sin t0 + b * cos t0)) with (0 + (a * (- sin t0) - b * cos t0)) by ring.
  apply derivable_pt_lim_plus; [apply derivable_pt_lim_const |].
  apply derivable_pt_lim_minus; apply derivable_pt_lim_scal; [apply derivable_pt_lim_cos | apply derivable_pt_lim_sin].
Qed.

Lemma Csum_upd : forall n (A f : vec) r v, (r < n)%nat ->
  Csum n (fun i => A i * upd f r v i)%C = (Csum n (fun i => A i * f i) + A r * (v - f r))%C.
Proof.
  intros n A f r v Hr.
  transitivity (Csum n (fun i => A i * f i + delta r i * (A i * (v - f i)))%C).
  - apply Csum_ext. intros i Hi. unfold upd, delta. rewrite (Nat.eqb_sym r i). destruct (Nat.eqb i r); cbn; [ring | ring].
  - rewrite Csum_add. f_equal. apply (Csum_delta_l n r (fun i => A i * (v - f i))%C); auto.
Qed.

Lemma apply_phase : forall t r b v, r <> b -> apply_op (qdiag TOP t, r, b) v = upd v r (cis t * v r)%C.
Proof.
  intros t r b v Hrb. apply functional_extensionality; intro j. cbn. unfold upd, qtop, qbot. cbn [t11 t12 t21 t22].
  destruct (Nat.eqb_spec j b) as [-> | E1].
  - destruct (Nat.eqb_spec b r); [congruence | ring].
  - destruct (Nat.eqb j r); [ring | reflexivity].
Qed.

(** The gradient at one phase shifter, from the fields in front of it. *)
Section Grad.
Variables (n : nat) (pre post : list op) (r b : nat) (g x a : vec) (gm : nat -> R) (t0 : R).
Hypothesis Hpre : Forall (ok n) pre.
Hypothesis Hpost : Forall (ok n) post.
Hypothesis Upre : Forall (fun o => quad_unit (quad_of o)) pre.
Hypothesis Hr : (r < n)%nat.
Hypothesis Hb : r <> b.
Definition yout (t : R) (v : vec) : vec := apply_gammas gm (run post (apply_op (qdiag TOP t, r, b) (run pre v))).
Hypothesis Ha : forall v, Csum n (fun i => a i * v i)%C = Csum n (fun i => g i * yout t0 v i)%C.

Let A : vec := run (rev (map op_trans post)) (apply_gammas gm g).

Lemma cost_shape : forall t v, Csum n (fun i => g i * yout t v i)%C =
  (Csum n (fun i => A i * run pre v i) + A r * run pre v r * (cis t - C1))%C.
Proof.
  intros t v. unfold yout. rewrite gammas_adj, run_adj by auto. fold A. rewrite apply_phase by auto.
  rewrite Csum_upd by auto. ring.
Qed.

Lemma run_onto : exists v, forall i, (i < n)%nat -> run pre v i = delta r i.
Proof.
  exists (fun j => Cconj (run pre (basis j) r)). intros i Hi. rewrite (run_matrix n pre _ i Hpre Hi).
  destruct (run_unitary n pre Hpre Upre i r Hi Hr) as [_ H].
  etransitivity; [| etransitivity; [exact H |]].
  - apply Csum_ext. intros; reflexivity.
  - unfold delta. rewrite Nat.eqb_sym. reflexivity.
Qed.

Lemma adjoint_slice : (A r * cis t0)%C = Cconj (run pre (vconj a) r).
Proof.
  destruct run_onto as (v & Hv).
  assert (E1 : Csum n (fun i => a i * v i)%C = Cconj (run pre (vconj a) r)).
  { transitivity (Csum n (fun i => Cconj (vconj a i) * v i)%C); [apply Csum_ext; intros; unfold vconj; rewrite Cconj_conj; auto |].
    rewrite <- (run_sesq n pre) by auto.
    transitivity (Csum n (fun i => delta r i * Cconj (run pre (vconj a) i))%C).
    - apply Csum_ext. intros i Hi. rewrite Hv by auto. ring.
    - apply (Csum_delta_l n r (fun i => Cconj (run pre (vconj a) i))); auto. }
  rewrite <- E1, Ha, cost_shape.
  rewrite (Csum_ext n _ (fun i => delta r i * A i)%C) by (intros i Hi; rewrite Hv by auto; ring).
  rewrite Csum_delta_l by auto. rewrite Hv by auto. unfold delta. rewrite Nat.eqb_refl. ring.
Qed.

Lemma phase_grad : derivable_pt_lim (fun t => re (Csum n (fun i => g i * yout t x i)%C)) t0
  (- im (run pre x r * Cconj (run pre (vconj a) r))%C).
Proof.
  replace (fun t => re (Csum n (fun i => g i * yout t x i)%C)) with
    (fun t => re (Csum n (fun i => A i * run pre x i) + A r * run pre x r * (cis t - C1))%C)
    by (apply functional_extensionality; intro t; rewrite cost_shape; reflexivity).
  rewrite <- adjoint_slice.
  replace (run pre x r * (A r * cis t0))%C with (A r * run pre x r * cis t0)%C by ring.
  apply deriv_re_cis.
Qed.
End Grad.

(** ** The slices of explicit propagation as runs of elementary operations (style TOP, no errors, no loss) *)
Definition dcq (right : bool) : quad := parallel_dc right (0, 0) (0, 0).
Definition phops (ph : nat -> R) (idx : list (nat * nat * nat)) : list op := ops_of (fun k => qdiag TOP (ph k)) idx.
Definition dcops (right : bool) (idx : list (nat * nat * nat)) : list op := ops_of (fun _ => dcq right) idx.
Definition colE (p : params) (idx : list (nat * nat * nat)) : list op :=
  phops (phis p) idx ++ dcops false idx ++ phops (thetas p) idx ++ dcops true idx.
Definition allE (p : params) (idxs : list (list (nat * nat * nat))) : list op := concat (map (colE p) idxs).

Lemma explicit_slices : forall p idxs v, Forall (fun i => NoDup (rails i)) idxs ->
  exists sl, prop_explicit TOP false p (fun _ => dcq false) (fun _ => dcq true) idxs v = Some sl /\
    length sl = (4 * length idxs)%nat /\ last sl v = run (allE p idxs) v /\
    forall i idx d, nth_error idxs i = Some idx ->
      nth (i * 4) (v :: sl) d = run (allE p (firstn i idxs)) v /\
      nth (i * 4 + 2) (v :: sl) d = run (allE p (firstn i idxs) ++ phops (phis p) idx ++ dcops false idx) v.
Proof.
  intros p idxs. induction idxs as [| i idxs IH]; intros v HF.
  - exists []. repeat split; auto; destruct i; discriminate.
  - inversion HF; subst. cbn [prop_explicit].
    set (v1 := run (phops (phis p) i) v). set (v2 := run (dcops false i) v1).
    set (v3 := run (phops (thetas p) i) v2). set (v4 := run (dcops true i) v3).
    assert (E : parallel_propagate TOP false p (fun _ => dcq false) (fun _ => dcq true) i v = Some [v1; v2; v3; v4]).
    { unfold parallel_propagate. rewrite multiply_transform by auto. cbn [obind]. rewrite multiply_transform by auto. cbn [obind].
      rewrite !parallel_transform_run by auto. reflexivity. }
    rewrite E. cbn [obind last].
    destruct (IH v4 H2) as (sl & E1 & L1 & La & Hs). rewrite E1. cbn [obind].
    exists ([v1; v2; v3; v4] ++ sl). split; [reflexivity |].
    assert (Ev4 : v4 = run (colE p i) v) by (unfold colE; rewrite !run_app; reflexivity).
    split; [cbn [length List.app]; lia |]. split.
    { rewrite last_app'. cbn [last]. rewrite La. unfold allE. cbn [map concat]. rewrite run_app, <- Ev4. reflexivity. }
    intros k idx d Hk. destruct k as [| k].
    + cbn [nth_error] in Hk. apply Some_inj in Hk. subst idx. cbn [firstn]. split; [reflexivity |].
      cbn [Nat.mul Nat.add nth List.app allE map concat]. rewrite run_app. reflexivity.
    + cbn [nth_error] in Hk. destruct (Hs k idx d Hk) as [H3 H4]. cbn [firstn]. unfold allE in *. cbn [map concat].
      rewrite <- !app_assoc, !(run_app (colE p i)), <- Ev4. rewrite <- H3, <- H4.
      cbn [List.app]. replace (S k * 4)%nat with (S (S (S (S (k * 4))))) by lia.
      replace (S (S (S (S (k * 4)))) + 2)%nat with (S (S (S (S (k * 4 + 2))))) by lia. cbn [nth]. split; reflexivity.
Qed.

Lemma dcq_unit : forall rt, quad_unit (dcq rt).
Proof.
  intro rt. unfold dcq, parallel_dc, sel. 
  assert (Hs : sin (PI/4 + 0) * sin (PI/4 + 0) + cos (PI/4 + 0) * cos (PI/4 + 0) = 1) by (pose proof (sin2_cos2 (PI/4+0)) as H; unfold Rsqr in H; lra).
  assert (E0 : exp (ln 10 * 0 / 20) = 1) by (replace (ln 10 * 0 / 20) with 0 by field; apply exp_0).
  set (sn := sin (PI/4 + 0)) in *. set (cs := cos (PI/4 + 0)) in *.
  assert (Hc : cs * cs = 1 - sn * sn) by lra.
  destruct rt; cbn [fst snd]; rewrite E0; intros [x1 x2] [y1 y2] [z1 z2] [w1 w2]; unfold qtop, qbot; cbn [t11 t12 t21 t22];
    fold sn cs; apply C_eq; cbn; ring [Hc].
Qed.
