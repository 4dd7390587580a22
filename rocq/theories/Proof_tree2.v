(** Error arrays are in list order but read by node id (C08). *)
From Coq Require Import Reals Lra Lia List ZArith Permutation Bool.
From Verif Require Import Cx Arr Spec_circuit Model_coupling Model_forward Model_vector Spec_mesh
  Proof_node Proof_mesh Proof_forward Proof_forward2 Proof_forward4.
Import ListNotations.
Local Open Scope R_scope.

(** tree(4): the root comes first in the list and carries id 1. *)
Definition t4_nodes (e : R * R) : list node :=
  [mkNode 1 (0,0) e 4 1 3 2 2 1; mkNode 0 (0,0) (0,0) 4 0 1 1 1 0; mkNode 2 (0,0) (0,0) 4 2 3 1 1 0].
Definition t4 (e : R * R) : mesh :=
  mkMesh (t4_nodes e) TOP [1%nat; 0%nat; 2%nat] 4 [e; (0,0); (0,0)] [(0,0); (0,0); (0,0)] [1%Z; 0%Z; 0%Z] 2.
Lemma t4_tree : tree 4 4 true TOP = Some (t4 (0, 0)).
Proof. reflexivity. Qed.
Lemma t4_err : forall e, add_error_mean (t4 (0, 0)) [e; (0,0); (0,0)] [(0,0); (0,0); (0,0)] = Some (t4 e).
Proof. reflexivity. Qed.
Lemma t4_cols : forall e, exists c0 c1, columns (t4 e) = Some [c0; c1] /\
  triples c0 = [(0%nat, 1%nat, 0%nat); (2%nat, 3%nat, 2%nat)] /\ triples c1 = [(1%nat, 3%nat, 1%nat)].
Proof. intro e. eexists. eexists. split; [reflexivity |]. split; reflexivity. Qed.

Lemma t4_entry : forall e, matrix (t4 e) false (pconst 0 0) 0 0 =
  Some (RtoC (- sin (fst e + snd e))).
Proof.
  intro e. unfold matrix, matrix_fn. destruct (t4_cols e) as (c0 & c1 & -> & E0 & E1).
  cbn [map]. rewrite E0, E1. change (n_rails (t4 e)) with 4%nat. change (length (bs_errors (t4 e))) with 3%nat.
  change (forallb (idx_ok 4 3) [[(0%nat, 1%nat, 0%nat); (2%nat, 3%nat, 2%nat)]; [(1%nat, 3%nat, 1%nat)]]) with true.
  cbv iota. cbn [fold_left]. rewrite gammas0. f_equal.
  rewrite pt_other by (simpl; intuition discriminate).
  rewrite (pt_top _ _ _ 0%nat 1%nat 0%nat); [| simpl; repeat constructor; simpl; intuition discriminate | left; auto].
  unfold basis, delta. cbn [Nat.eqb].
  unfold mzis, err_at, loss_at. cbn [t4 style bs_errors losses nth pconst thetas phis].
  cbn [parallel_mzi mzi_terms t11 t21 fst snd].
  replace (ln 10 * 0 / 20) with 0 by field. rewrite !Cexp_imag, !cis_0.
  assert (E : - (sin (PI / 4 + snd e) * sin (PI / 4 + fst e)) + cos (PI / 4 + snd e) * cos (PI / 4 + fst e) = - sin (fst e + snd e)).
  { transitivity (cos ((PI / 4 + snd e) + (PI / 4 + fst e))); [rewrite (cos_plus (PI / 4 + snd e) (PI / 4 + fst e)); ring |].
    replace (PI / 4 + snd e + (PI / 4 + fst e)) with ((fst e + snd e) + PI / 2) by field.
    rewrite (cos_plus (fst e + snd e)), cos_PI2, sin_PI2. ring. }
  rewrite <- E. unfold qtop. ceq.
Qed.

Lemma C08_witness : exists errs m0 m i,
  tree 4 4 true TOP = Some m0 /\ add_error_mean m0 errs [(0,0); (0,0); (0,0)] = Some m /\
  (forall nd, In nd (nodes m) -> bs_error nd <> (0, 0) -> top nd <> i /\ bottom nd <> i) /\
  matrix m false (pconst 0 0) i i <> matrix m0 false (pconst 0 0) i i /\
  (forall nd, In nd (nodes m) -> (top nd = i \/ bottom nd = i) -> bs_error nd = (0, 0)).
Proof.
  exists [(PI/12, PI/12); (0,0); (0,0)], (t4 (0, 0)), (t4 (PI/12, PI/12)), 0%nat.
  split; [apply t4_tree |]. split; [apply t4_err |]. split; [| split].
  - intros nd [<- | [<- | [<- | []]]]; simpl; intros H; try (exfalso; apply H; reflexivity). lia.
  - rewrite !t4_entry. intro H. apply Some_inj in H. apply RtoC_inj in H. cbn [fst snd] in H.
    replace (PI/12 + PI/12) with (PI/6) in H by field. rewrite sin_PI6, Rplus_0_r, sin_0 in H. lra.
  - intros nd [<- | [<- | [<- | []]]]; simpl; intros H; auto. lia.
Qed.

(** In a mesh whose ids are the list positions every node uses its own errors. *)
Lemma own_node_errors : forall l s m nd, mk_mesh l s = Some m -> map node_id (nodes m) = seq 0 (length l) ->
  In nd (nodes m) -> forall back p, mzis m back p (node_id nd) =
    parallel_mzi s back (thetas p (node_id nd)) (phis p (node_id nd)) (bs_error nd) (loss nd).
Proof.
  intros l s m nd H Hid Hin back p. destruct (own_data_positions l s m H Hid nd Hin) as [H1 H2].
  unfold mzis. rewrite H1, H2. f_equal. destruct l; [discriminate |]. unfold mk_mesh in H. apply Some_inj in H. rewrite <- H. reflexivity.
Qed.
(** ids that all vanish are replaced by list positions. *)
Lemma renumber_positions : forall l s m, mk_mesh l s = Some m -> (forall nd, In nd l -> node_id nd = 0%nat) ->
  map node_id (nodes m) = seq 0 (length l).
Proof.
  intros l s m H Hz. destruct l as [| nd0 l0]; [discriminate |]. unfold mk_mesh in H. apply Some_inj in H. rewrite <- H. cbn [nodes].
  set (l := nd0 :: l0) in *. unfold renumber.
  assert (E : fold_right Nat.add 0%nat (map node_id l) = 0%nat).
  { clear H. induction l as [| a l IH]; auto. simpl. rewrite (Hz a (or_introl eq_refl)). apply IH. intros; apply Hz; right; auto. }
  rewrite E. cbn [Nat.eqb]. clear. generalize 0%nat. induction l as [| a l IH]; intros k; simpl; auto. f_equal. apply IH.
Qed.
