(** C144: random initial splits (ForwardMesh.rand_s, rand_theta; forward.py:57-60, 114-130). *)
From Coq Require Import Reals Lra Lia List Arith.
From Verif Require Import Cx Arr Spec_circuit Model_coupling Model_forward Model_vector Model_rand Spec_rand Spec_tree Proof_rand Proof_rand2.
Import ListNotations.
Local Open Scope R_scope.

(** A chain of n - 1 nodes with the random phases drawn at construction: every one of its n inputs sends on average exactly 1 / n of its
    power to the last output (a "Haar random" row), whatever the phis. *)
Theorem C144_chain : forall n rails st Q avg p r, (2 <= n)%nat -> (n <= rails)%nat -> beta_draw Q avg -> (r < n)%nat ->
  exists m, tree n rails false st = Some m /\
    expect avg (n - 1) (fun u => entry_power (matrix m false (with_thetas (rand_theta Q m u) p) (n - 1)%nat r)) = 1 / INR n.
Proof.
  intros n rails st Q avg p r Hn Hr HQ Hrn. destruct (chain_expected n rails st Q avg p r Hn Hr HQ Hrn) as (m & E & H).
  exists m. split; [exact E |]. unfold Rdiv. rewrite Rmult_1_l. exact H.
Qed.
Print Assumptions C144_chain.

(** The balanced tree: the same, IF every node draws with its own alpha and beta. *)
Theorem C144_balanced_partial : forall n rails st Q avg (b a : nat -> R) p r, (2 <= n)%nat -> (n <= rails)%nat -> beta_draw Q avg -> (r < n)%nat ->
  exists m, tree n rails true st = Some m /\
    ((forall nd, In nd (nodes m) -> b (node_id nd) = INR (beta nd) /\ a (node_id nd) = INR (alpha nd)) ->
     expect avg (n - 1) (fun u => entry_power (matrix m false (with_thetas (fun k => transmissivity_to_phase (Q (b k) (a k) (u k)) None) p) (n - 1)%nat r)) = 1 / INR n).
Proof.
  intros n rails st Q avg b a p r Hn Hr HQ Hrn. destruct (balanced_expected n rails st Q avg b a p r Hn Hr HQ Hrn) as (m & E & H).
  exists m. split; [exact E |]. unfold Rdiv. rewrite Rmult_1_l. exact H.
Qed.
Print Assumptions C144_balanced_partial.

(** But construction draws in list order and uses the draws in node order: already for five outputs the averages are not 1 / 5. *)
Theorem C144_balanced_refuted : forall st Q avg p, beta_draw Q avg -> exists m, tree 5 5 true st = Some m /\
  expect avg 4 (fun u => entry_power (matrix m false (with_thetas (rand_theta Q m u) p) 4%nat 1%nat)) = 3 / 10.
Proof. exact balanced5. Qed.
Print Assumptions C144_balanced_refuted.

(** Every draw is realised exactly: the drawn phase makes an error-free node cross couple exactly the drawn split ratio. *)
Theorem C144_split : forall st s phi, 0 <= s <= 1 -> Cn2 (t12 (parallel_mzi st false (transmissivity_to_phase s None) phi (0, 0) (0, 0))) = s.
Proof. exact split_exact. Qed.
Print Assumptions C144_split.

(** Non-vacuity: a two-valued draw with the right mean. *)
Definition two_valued (b a u : R) : R :=
  if Rlt_dec 0 b then if Rlt_dec 0 a then let m := b / (a + b) in let d := m * (1 - m) in if Rlt_dec u (1 / 2) then m - d else m + d else 0 else 0.
Example two_valued_ok : beta_draw two_valued (fun f => (f 0 + f 1) / 2).
Proof.
  split.
  - intros b a u. unfold two_valued. destruct (Rlt_dec 0 b); [| lra]. destruct (Rlt_dec 0 a); [| lra]. cbv zeta.
    assert (M : 0 < b / (a + b) < 1).
    { split; [apply Rdiv_lt_0_compat; lra |]. apply (Rmult_lt_reg_r (a + b)); [lra |]. unfold Rdiv. rewrite Rmult_assoc, Rinv_l by lra. lra. }
    set (m := b / (a + b)) in *. destruct (Rlt_dec u (1 / 2)); nra.
  - intros b a c d Hb Ha. unfold two_valued. destruct (Rlt_dec 0 b); [| lra]. destruct (Rlt_dec 0 a); [| lra]. cbv zeta.
    destruct (Rlt_dec 0 (1 / 2)); [| lra]. destruct (Rlt_dec 1 (1 / 2)); [lra |]. lra.
Qed.
