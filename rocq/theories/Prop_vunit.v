(** C170: the vector unit of fabricated (imperfect) hardware: coupler errors and losses given to vector_unit. *)
From Coq Require Import Reals List ZArith Lra Lia.
From Verif Require Import Cx Arr Spec_circuit Model_coupling Model_forward Model_vector Spec_mesh Spec_tree Spec_vunit Proof_vunit4 Proof_vunit3.
Import ListNotations.
Local Open Scope R_scope.

(** vector_unit(v, bs_error_mean=e, loss_mean=l) succeeds for any e, l and any array v; every coupler of the network carries the error (e, e) and the
    loss (l, l), in its nodes and in its arrays; and the returned array w has, column by column, the output powers the returned network
    (errors and losses included) itself gives for v, the last column's last output being real and nonnegative. *)
Theorem C170_hardware : forall eps v n last balanced s e l, (2 <= n)%nat -> s = TOP \/ s = BOTTOM ->
  exists m p w, vector_unit eps v n last n balanced s e l = Some (m, p, w) /\ style m = s /\ n_rails m = n /\ nulling_network n m /\
    (forall nd, In nd (nodes m) -> bs_error nd = (e, e) /\ loss nd = (l, l)) /\
    bs_errors m = repeat (e, e) (n - 1) /\ losses m = repeat (l, l) (n - 1) /\
    (forall j, exists y, matrix_fn m false p (fun i => v i j) = Some y /\ (forall i, Cn2 (y i) = Cn2 (w i j)) /\
       (j = last -> im (y (n - 1)%nat) = 0 /\ 0 <= re (y (n - 1)%nat))).
Proof. exact hardware. Qed.

(** Without loss and with |e| < pi/4, the programmed hardware still sends the whole (last column of the) input to the last rail, as long as each
    group of rails that is merged upwards carries at most the share cos^2(2 e) of the merged power. *)
Theorem C170_nulls : forall eps v n last balanced s e, (2 <= n)%nat -> s = TOP \/ s = BOTTOM -> 0 <= eps -> - (PI / 4) < e < PI / 4 ->
  reachable_splits balanced eps e n (fun i => v i last) ->
  exists m p w y, vector_unit eps v n last n balanced s e 0 = Some (m, p, w) /\ matrix_fn m false p (fun i => v i last) = Some y /\
    (forall i, (i < n - 1)%nat -> Cn2 (y i) <= eps) /\ power n y = power n (fun i => v i last) /\
    y (n - 1)%nat = RtoC (Cabs (y (n - 1)%nat)) /\ power n (fun i => v i last) - INR (n - 1) * eps <= Cn2 (y (n - 1)%nat) <= power n (fun i => v i last).
Proof. exact nulls. Qed.

(** The condition is needed: with light on the first of two rails only, no setting of the programmed network's phase shifters brings
    the power left on that rail below sin^2(2 e). *)
Theorem C170_limit : forall eps v balanced s e, s = TOP \/ s = BOTTOM -> - (PI / 4) < e < PI / 4 -> v 1%nat 0%nat = C0 ->
  exists m p w, vector_unit eps v 2 0 2 balanced s e 0 = Some (m, p, w) /\
    forall p', exists y, matrix_fn m false p' (fun i => v i 0%nat) = Some y /\ sin (2 * e) ^ 2 * Cn2 (v 0%nat 0%nat) <= Cn2 (y 0%nat).
Proof. exact limit. Qed.

(** A balanced tree meets the condition for the uniform vector of every size once cos^2(2 e) >= 3/4. *)
Theorem C170_uniform : forall eps e n, 3 / 4 <= cos (2 * e) ^ 2 -> INR n * eps <= 2 / 3 -> reachable_splits true eps e n (fun _ => C1).
Proof. exact uniform_reachable. Qed.

Example C170_instance : exists m p w y, vector_unit 0 (fun _ _ => C1) 5 0 5 true BOTTOM (PI / 12) 0 = Some (m, p, w) /\
  matrix_fn m false p (fun _ => C1) = Some y /\ (forall i, (i < 4)%nat -> Cn2 (y i) <= 0) /\ Cn2 (y 4%nat) = 5.
Proof.
  destruct (C170_nulls 0 (fun _ _ => C1) 5 0 true BOTTOM (PI / 12)) as (m & p & w & y & H1 & H2 & H3 & _ & _ & H4).
  - lia.
  - right; reflexivity.
  - lra.
  - pose proof PI_RGT_0. lra.
  - apply C170_uniform; [rewrite cos_PI6_sq; lra | lra].
  - exists m, p, w, y. split; [exact H1 |]. split; [exact H2 |]. split; [exact H3 |].
    assert (Ep : power 5 (fun _ => C1) = 5) by (unfold power; cbn [Rsum]; unfold Cn2, C1, RtoC; cbn [re im]; ring). cbv beta in H4. rewrite Ep in H4.
    cbn [Nat.sub] in H4. lra.
Qed.
Print Assumptions C170_hardware.
Print Assumptions C170_nulls.
Print Assumptions C170_limit.
Print Assumptions C170_uniform.
