(** C161: CouplingNode.nullify.  Theorems only; proofs are in Proof_nodenull.v. *)
From Coq Require Import Reals Lra Lia List Arith ZArith.
From Verif Require Import Cx Arr Spec_circuit Model_coupling Model_forward Model_nodenull Spec_nodenull Proof_nodenull.
Local Open Scope R_scope.

(** For a node with ideal couplers on the rails idx and idx + 1, nullify(vector, idx) returns the vector with rail idx + 1 emptied and its power
    moved to rail idx, the other rails as they were; the matrix returned is unitary, maps the vector to that one, and is the node's matrix at the
    returned phases, which are in [0, 2 pi).  (Partial: with the default options only, see below.) *)
Theorem C161_nullify_partial : forall nd v idx, bs_error nd = (0, 0) -> loss nd = (0, 0) -> top nd = idx -> bottom nd = S idx -> (S idx < n_of nd)%nat ->
  exists w mt th ph, node_nullify nd v idx false false = Some (w, mt, th, ph) /\
  w (S idx) = C0 /\ Cn2 (w idx) = Cn2 (v idx) + Cn2 (v (S idx)) /\ (forall i, (i < n_of nd)%nat -> i <> idx -> i <> S idx -> w i = v i) /\
  unitary (n_of nd) mt /\ (forall i, (i < n_of nd)%nat -> w i = Csum (n_of nd) (fun j => mt i j * v j)%C) /\
  0 <= th < 2 * PI /\ 0 <= ph < 2 * PI /\ (forall i j, (i < n_of nd)%nat -> (j < n_of nd)%nat -> mt i j = mzi_node_matrix nd th ph i j).
Proof. exact nullify_plain. Qed.
Print Assumptions C161_nullify_partial.

(** With lower_theta or lower_phi the returned vector is in general not nulled (its matrix still has the phases in the upper arms): the power
    left in rail idx + 1 is the one below.  Only the returned phases are right: put into the lower arms, they null rail idx + 1. *)
Theorem C161_lower_refuted : forall nd v idx (lower_theta lower_phi : bool), bs_error nd = (0, 0) -> loss nd = (0, 0) -> top nd = idx -> bottom nd = S idx -> (S idx < n_of nd)%nat ->
  exists w mt th ph, node_nullify nd v idx lower_theta lower_phi = Some (w, mt, th, ph) /\
  Cn2 (w (S idx)) * (Cn2 (v idx) + Cn2 (v (S idx))) = match lower_theta, lower_phi with
    | false, false => 0 | true, false => 4 * (Cn2 (v idx) * Cn2 (v (S idx)))
    | false, true => 4 * (im (v idx * Cconj (v (S idx)))%C * im (v idx * Cconj (v (S idx)))%C)
    | true, true => 4 * (re (v idx * Cconj (v (S idx)))%C * re (v idx * Cconj (v (S idx)))%C) end /\
  Cn2 (w idx) + Cn2 (w (S idx)) = Cn2 (v idx) + Cn2 (v (S idx)) /\
  (forall i, (i < n_of nd)%nat -> i <> idx -> i <> S idx -> w i = v i) /\
  unitary (n_of nd) mt /\ (forall i, (i < n_of nd)%nat -> w i = Csum (n_of nd) (fun j => mt i j * v j)%C) /\
  0 <= th < 2 * PI /\ 0 <= ph < 2 * PI /\ (forall i j, (i < n_of nd)%nat -> (j < n_of nd)%nat -> mt i j = mzi_node_matrix nd th ph i j) /\
  snd (mzi lower_theta lower_phi th ph (v idx, v (S idx))) = C0.
Proof. exact residual. Qed.
Print Assumptions C161_lower_refuted.

(** Non-vacuity: on two rails, lower_theta leaves (1, 1) with all its power in the rail to be nulled; the default empties it. *)
Example C161_nonvacuous : let nd := mkNode 0 (0, 0) (0, 0) 2 0 1 1 1 0 in let v := fun _ : nat => C1 in
  (exists w mt th ph, node_nullify nd v 0 true false = Some (w, mt, th, ph) /\ Cn2 (w 1%nat) = 2) /\
  (exists w mt th ph, node_nullify nd v 0 false false = Some (w, mt, th, ph) /\ Cn2 (w 0%nat) = 2).
Proof.
  cbv zeta. split.
  - destruct (C161_lower_refuted (mkNode 0 (0, 0) (0, 0) 2 0 1 1 1 0) (fun _ => C1) 0 true false eq_refl eq_refl eq_refl eq_refl ltac:(cbn; lia)) as (w & mt & th & ph & H & R & _).
    exists w, mt, th, ph. split; [exact H |]. unfold Cn2 at 2 3 4 5 in R. cbn [re im C1] in R. lra.
  - destruct (C161_nullify_partial (mkNode 0 (0, 0) (0, 0) 2 0 1 1 1 0) (fun _ => C1) 0 eq_refl eq_refl eq_refl eq_refl ltac:(cbn; lia)) as (w & mt & th & ph & H & _ & R & _).
    exists w, mt, th, ph. split; [exact H |]. rewrite R. unfold Cn2. cbn [re im C1]. lra.
Qed.
