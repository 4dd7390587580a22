(** Nullification basis: refutation and instances (C83 - C85). *)
From Coq Require Import Reals Lra Lia Psatz List ZArith Permutation Bool FunctionalExtensionality.
From Verif Require Import Cx Arr Spec_circuit Model_coupling Model_forward Model_null Spec_mesh Spec_null
  Proof_node Proof_mesh Proof_forward Proof_forward2 Proof_forward3 Proof_forward4 Proof_vector Proof_null
  Proof_nbasis Proof_nbasis2 Proof_nbasis3 Proof_nbasis4.
Import ListNotations.
Local Open Scope R_scope.

Lemma skipped_none : forall m back cols, NoDup (map node_id (nodes m)) -> columns m = Some cols ->
  filter (fun nc => negb (skipped m back (cut_of m back None) nc)) (if back then rev cols else cols) = if back then rev cols else cols.
Proof.
  intros m back cols Hnd Hc. destruct (cols_struct m cols Hnd Hc) as (H1 & _ & H).
  assert (G : forall nc, In nc cols -> negb (skipped m back (cut_of m back None) nc) = true).
  { intros nc Hin. destruct (In_nth_error _ _ Hin) as (c & Hn). destruct (H c nc Hn) as (E & _).
    assert (Hlt : (c < Z.to_nat (num_columns m))%nat) by (rewrite <- H1; apply nth_error_Some; congruence).
    unfold skipped, cut_of. rewrite E. destruct back.
    - destruct (Z.ltb_spec (num_columns m - -1) (Z.of_nat c)); [lia | reflexivity].
    - destruct (Z.leb_spec (num_columns m) (Z.of_nat c)); [lia | reflexivity]. }
  assert (F : forall l, (forall x, In x l -> negb (skipped m back (cut_of m back None) x) = true) ->
     filter (fun nc => negb (skipped m back (cut_of m back None) nc)) l = l).
  { induction l as [| a l IH]; intro K; [reflexivity |]. cbn [filter]. rewrite (K a (or_introl eq_refl)). f_equal. apply IH. intros x Hx. apply K. right. exact Hx. }
  destruct back; apply F; intros x Hx; apply G; [apply in_rev; exact Hx | exact Hx].
Qed.
Lemma propagate_cut_none : forall m back explicit p x, NoDup (map node_id (nodes m)) ->
  propagate_cut m back explicit None p x = propagate m back explicit p x.
Proof.
  intros m back explicit p x Hnd. unfold propagate_cut, propagate. destruct (columns m) as [cols |] eqn:Hc; [| reflexivity]. cbn [obind]. cbv zeta.
  rewrite (skipped_none m back cols Hnd Hc). destruct (forallb _ _); [| reflexivity].
  unfold cut_of. destruct back; cbn [negb andb].
  - rewrite Z.eqb_refl. reflexivity.
  - rewrite Z.eqb_refl. reflexivity.
Qed.

Definition p_diff : params := mkParams (fun _ => PI / 2) (fun _ => PI) (fun _ => 0).
Lemma null_vectors_differential : exists m p ws w sl, wf_mesh m /\ lossless m /\ equal_errors m /\ style m = DIFFERENTIAL /\
  nullification_basis m p = Some ws /\ nth_error ws 0%nat = Some w /\ propagate_cut m false false (Some 1%Z) p w = Some sl /\
  ~ lower_rail m 0 0%nat /\ Cn2 (last sl w 0%nat) = 1.
Proof.
  set (m := mesh1 DIFFERENTIAL (0, 0) (0, 0)). pose proof (mesh1_wf DIFFERENTIAL (0, 0) (0, 0)) as Hw. fold m in Hw.
  destruct (cut_fwd_full m p_diff (null_vec m p_diff 0%nat) Hw) as (sl & S1 & S2); [cbn; lia |].
  exists m, p_diff, [null_vec m p_diff 0%nat], (null_vec m p_diff 0%nat), sl.
  split; [exact Hw |]. split; [repeat constructor |]. split; [repeat constructor |]. split; [reflexivity |].
  split; [rewrite (basis_is m p_diff Hw); reflexivity |]. split; [reflexivity |]. split; [exact S1 |].
  split.
  { intros (nd & [<- | []] & _ & E). cbn in E. discriminate. }
  rewrite S2. unfold apply_gammas. rewrite Cn2_mul, Cn2_cis, Rmult_1_l.
  assert (Ei : all_idx m = [[(0, 1, 0)%nat]]) by reflexivity.
  rewrite Ei. cbn [cols_run fold_left].
  assert (Nd : NoDup (rails [(0, 1, 0)%nat])) by (cbn; repeat constructor; cbn; intuition discriminate).
  rewrite (pt_top (mzis m false p_diff) [(0, 1, 0)%nat] _ 0%nat 1%nat 0%nat Nd (or_introl eq_refl)).
  unfold null_vec. rewrite Ei. cbn [firstn rev List.app cols_run fold_left].
  rewrite (pt_top (mzis m true p_diff) [(0, 1, 0)%nat] _ 0%nat 1%nat 0%nat Nd (or_introl eq_refl)), (pt_bot (mzis m true p_diff) [(0, 1, 0)%nat] _ 0%nat 1%nat 0%nat Nd (or_introl eq_refl)).
  change (ones m 0 0%nat) with C0. change (ones m 0 1%nat) with C1.
  unfold mzis, m, p_diff, err_at, loss_at, parallel_mzi, mzi_terms, qtop, qbot. cbn [nth style mesh1 bs_errors losses fst snd t11 t12 t21 t22 thetas phis b2R].
  replace (ln 10 * 0 / 20) with 0 by field. rewrite !Cexp_imag, !Rplus_0_r.
  replace ((- PI - PI / 2) / 2 + PI * 0) with (- (3 * (PI / 4))) by field.
  replace ((PI - PI / 2) / 2 - PI * 0) with (- (3 * (PI / 4)) + PI) by field.
  replace ((- PI - PI / 2) / 2 + PI * 1) with (- (3 * (PI / 4)) + PI) by field.
  replace ((PI - PI / 2) / 2 - PI * 1) with (- (3 * (PI / 4))) by field.
  assert (Hc : cis (PI / 2) = Ci) by (apply C_eq; cbn; [apply cos_PI2 | apply sin_PI2]).
  rewrite !cis_add, cis_PI, Hc, cos_PI4, sin_PI4.
  assert (H2 : (1 / sqrt 2) * (1 / sqrt 2) = 1 / 2).
  { pose proof (sqrt_sqrt 2 ltac:(lra)) as K. assert (sqrt 2 <> 0) by (apply sqrt2_neq_0). field_simplify_eq; [lra | assumption]. }
  rewrite H2. pose proof (Cn2_cis (- (3 * (PI / 4)))) as Hn. set (w := cis (- (3 * (PI / 4)))) in *. clearbody w.
  assert (Hw1 : (w * Cconj w)%C = C1) by (rewrite Cmul_conj, Hn; reflexivity).
  rewrite !Cconj_add, !Cconj_mul, Cconj_C0, Cconj_C1.
  set (a := (RtoC (- (1 / 2)) + RtoC (1 / 2) * Ci)%C). set (b := (Ci * (RtoC (1 / 2) + RtoC (1 / 2) * Ci))%C). set (d := (RtoC (1 / 2) - RtoC (1 / 2) * Ci)%C).
  match goal with |- Cn2 ?X = 1 => assert (EX : X = (w * Cconj w * (a * Cconj b - b * Cconj d))%C) end.
  { unfold a, b, d. rewrite !Cconj_mul. rewrite ?Cconj_sub, ?Cconj_add, ?Cconj_mul, ?Cconj_opp, ?Cconj_RtoC, ?Cconj_Ci. ring. }
  rewrite EX, Hw1. unfold a, b, d, Cn2. cbn. field.
Qed.
