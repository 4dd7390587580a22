(** vector_unit in the styles DIFFERENTIAL (does not null) and SYMMETRIC (raises). *)
From Coq Require Import Reals Lra Lia List ZArith Permutation Bool FunctionalExtensionality.
From Verif Require Import Cx Arr Spec_circuit Model_coupling Model_forward Model_vector Spec_mesh Spec_tree
  Proof_node Proof_mesh Proof_forward Proof_forward2 Proof_forward3 Proof_forward4 Proof_null Proof_null2 Proof_tree Proof_vector.
Import ListNotations.
Local Open Scope R_scope.

Lemma vu_network2 : forall s, obind (tree 2 2 true s) (fun t => set_errors t 0 0) = Some (mesh1 s (0, 0) (0, 0)).
Proof. reflexivity. Qed.
Lemma mesh1_fn : forall s p x, matrix_fn (mesh1 s (0, 0) (0, 0)) false p x =
  Some (apply_gammas (gammas p) (apply_op (parallel_mzi s false (thetas p 0) (phis p 0) (0, 0) (0, 0), 0%nat, 1%nat) x)).
Proof.
  intros. unfold matrix_fn. rewrite mesh1_columns.
  cbn -[parallel_transform parallel_mzi mzis apply_gammas apply_op].
  rewrite parallel_transform_run by (repeat constructor; simpl; intuition discriminate); reflexivity.
Qed.

Lemma vu_network2' : forall s, exists t, tree 2 2 true s = Some t /\ set_errors t 0 0 = Some (mesh1 s (0, 0) (0, 0)).
Proof. intro s. eexists. split; reflexivity. Qed.

Lemma C12_diff_witness : exists v m p w y, vector_unit np_spacing1 v 2 0 2 true DIFFERENTIAL 0 0 = Some (m, p, w) /\
  matrix_fn m false p (fun i => v i 0%nat) = Some y /\ 1 <= Cn2 (y 0%nat).
Proof.
  destruct differential_not_null as (t & b & phi & H1 & H2).
  set (v := fun (i j : nat) => if Nat.eqb i 0 then t else b).
  set (theta := nullify_theta np_spacing1 (mzi_terms (0, 0)) t b) in *.
  set (nw := mesh1 DIFFERENTIAL (0, 0) (0, 0)).
  assert (E : exists p w, program_vector_unit np_spacing1 v 2 0 nw = Some (p, w) /\ thetas p 0%nat = theta /\ phis p 0%nat = mod2pi phi).
  { unfold program_vector_unit. unfold nw at 1. rewrite mesh1_columns. cbn [obind program_columns].
    unfold program_column. cbn [pw pth pph]. fold nw.
    assert (E : triples nw = [(0%nat, 1%nat, 0%nat)]) by reflexivity. rewrite E. cbn [map].
    change (style nw) with DIFFERENTIAL. change (err_at nw 0) with ((0, 0) : R * R).
    change (v 0%nat 0%nat) with t. change (v 1%nat 0%nat) with b. cbv zeta. fold theta. rewrite H1. cbn [obind all_some].
    eexists. eexists. split; [reflexivity |]. split; cbn [thetas phis pth pph map]; unfold assign; simpl; apply upd_eq. }
  destruct E as (p & w & E & Et & Ep).
  exists v, nw, p, w. eexists. split; [| split].
  - unfold vector_unit. destruct (vu_network2' DIFFERENTIAL) as (t0 & -> & E0). cbn [obind]. rewrite E0. cbn [obind]. fold nw. rewrite E. reflexivity.
  - apply mesh1_fn.
  - unfold apply_gammas. rewrite apply_op_top by auto. rewrite Cn2_mul, Cn2_cis, Rmult_1_l, Et, Ep. exact H2.
Qed.

Lemma vector_unit_symmetric : forall eps v n last r balanced e l, (2 <= n)%nat -> (n <= r)%nat ->
  vector_unit eps v n last r balanced SYMMETRIC e l = None.
Proof.
  intros eps v n last r balanced e l Hn Hr. unfold vector_unit.
  destruct (tree n r balanced SYMMETRIC) as [t |] eqn:Et; [| reflexivity]. cbn [obind].
  destruct (set_errors t e l) as [m |] eqn:Em; [| reflexivity]. cbn [obind].
  assert (Hst : style m = SYMMETRIC).
  { assert (Hs : style t = SYMMETRIC).
    { destruct balanced.
      - destruct (tree_balanced n r SYMMETRIC Hn Hr) as (t' & E & H & _). rewrite Et in E. apply Some_inj in E. subst; auto.
      - destruct (tree_chain n r SYMMETRIC Hn Hr) as (t' & E & H & _). rewrite Et in E. apply Some_inj in E. subst; auto. }
    unfold set_errors, add_error_mean in Em. rewrite Hs in Em. unfold mk_mesh in Em.
    destruct (map _ (combine (nodes t) _)); [discriminate |]. apply Some_inj in Em. rewrite <- Em. reflexivity. }
  unfold program_vector_unit. destruct (columns m) as [cols |] eqn:Ec; [| reflexivity]. cbn [obind].
  assert (Hc : exists c rest, cols = c :: rest /\ style c = SYMMETRIC /\ triples c <> []).
  { assert (Hne : (0 < Z.to_nat (num_columns m))%nat).
    { assert (Hnt : exists nd0 l0, nodes t = nd0 :: l0 /\ (forall nd, In nd (nodes t) -> (0 <= column nd)%Z) /\
         length (bs_errors t) = length (nodes t) /\ length (losses t) = length (nodes t)).
      { destruct balanced.
        - destruct (tree_balanced n r SYMMETRIC Hn Hr) as (t' & E & _ & _ & H & _ & _ & H' & _ & H8 & H9 & _). rewrite Et in E. apply Some_inj in E. subst t'.
          destruct H as [H _]. destruct (nodes t) eqn:En; [simpl in H; lia |]. exists n0, l0. split; [auto |]. split.
          + intros nd Hin. apply H' in Hin. lia.
          + rewrite H8, H9, !map_length. auto.
        - destruct (tree_chain n r SYMMETRIC Hn Hr) as (t' & E & _ & _ & H & _ & _ & H' & _ & H8 & H9 & _). rewrite Et in E. apply Some_inj in E. subst t'.
          destruct H as [H _]. destruct (nodes t) eqn:En; [simpl in H; lia |]. exists n0, l0. split; [auto |]. split.
          + intros nd Hin. apply H' in Hin. lia.
          + rewrite H8, H9, !map_length. auto. }
      destruct Hnt as (nd0 & l0 & En & Hpos & L1 & L2).
      unfold set_errors, add_error_mean in Em. rewrite En in Em, L1, L2.
      destruct (bs_errors t) as [| e0 es]; [discriminate |]. destruct (losses t) as [| l1 ls]; [discriminate |].
      cbn [map combine] in Em. pose proof (mk_mesh_cols _ _ _ _ Em) as [H1 _].
      specialize (H1 _ (or_introl eq_refl)). cbn [with_errors column] in H1.
      specialize (Hpos nd0). rewrite En in Hpos. specialize (Hpos (or_introl eq_refl)). lia. }
    pose proof (columns_Forall2 m cols Ec) as HF.
    destruct (Z.to_nat (num_columns m)) as [| N]; [lia |]. cbn [seq map] in HF. inversion HF; subst.
    exists y, l'. split; [auto |]. rewrite Hst in H1. pose proof (mk_mesh_triples _ _ _ H1) as Htr. 
    match type of H1 with mk_mesh ?l _ = _ => destruct l as [| a al]; [discriminate H1 |] end.
    split; [unfold mk_mesh in H1; apply Some_inj in H1; rewrite <- H1; reflexivity |].
    rewrite Htr. intro Hx. apply map_eq_nil in Hx. apply (f_equal (@length _)) in Hx. rewrite renumber_length in Hx. discriminate. }
  destruct Hc as (c & rest & -> & Hcs & Htr). cbn [program_columns]. unfold program_column. rewrite Hcs.
  destruct (triples c) as [| [[a b] k] tl]; [congruence |]. cbn [map all_some].
  destruct (mzi_terms (err_at m k)) as [[[cc cs] sc] ss]. reflexivity.
Qed.
