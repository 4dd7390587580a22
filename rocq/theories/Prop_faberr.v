(** C163: fabrication errors. *)
From Coq Require Import Reals Lra Lia List ZArith Bool.
From Verif Require Import Cx Arr Spec_circuit Model_coupling Model_forward Spec_mesh Spec_null Proof_forward Proof_forward4 Proof_faberr.
Import ListNotations.
Local Open Scope R_scope.

(** C163: two meshes of the same wiring and style that differ in their splitter errors (radians), losses (dB) and phases.  If the changes
    of a node in column c add up to at most D c - dB counted as ln(10)/20 each - and no gamma moves by more than G, the output amplitudes differ by at most
    (sum of the D c + G) times the input amplitude. *)
Theorem C163_fabrication_errors : forall m m' back p p' x y y' (D : Z -> R) G, wf_mesh m -> wf_mesh m' -> same_wiring m m' -> style m = style m' ->
  attenuating m -> attenuating m' ->
  (forall nd, In nd (nodes m) -> let k := node_id nd in
     let e := nth k (bs_errors m) (0, 0) in let e' := nth k (bs_errors m') (0, 0) in let l := nth k (losses m) (0, 0) in let l' := nth k (losses m') (0, 0) in
     Rabs (thetas p k - thetas p' k) + Rabs (phis p k - phis p' k) + Rabs (fst e - fst e') + Rabs (snd e - snd e') +
     ln 10 / 20 * (Rabs (fst l - fst l') + Rabs (snd l - snd l')) <= D (column nd)) ->
  0 <= G -> (forall i, (i < n_rails m)%nat -> Rabs (gammas p i - gammas p' i) <= G) ->
  matrix_fn m back p x = Some y -> matrix_fn m' back p' x = Some y' ->
  sqrt (power (n_rails m) (fun i => y i - y' i)%C) <= (Rsum (Z.to_nat (num_columns m)) (fun c => D (Z.of_nat c)) + G) * sqrt (power (n_rails m) x).
Proof. exact mesh_lip2. Qed.
Print Assumptions C163_fabrication_errors.
(** In particular, splitter errors up to dlt and losses up to L dB per phase shifter move the output of an ideal mesh by at most
    2 dlt + ln(10)/10 L per column. *)
Theorem C163_uniform : forall m m' back p x y y' dlt L, wf_mesh m -> wf_mesh m' -> same_wiring m m' -> style m = style m' -> 0 <= dlt -> 0 <= L ->
  Forall (fun e => e = (0, 0)) (bs_errors m) -> Forall (fun l => l = (0, 0)) (losses m) ->
  Forall (fun e => Rabs (fst e) <= dlt /\ Rabs (snd e) <= dlt) (bs_errors m') -> Forall (fun l => - L <= fst l <= 0 /\ - L <= snd l <= 0) (losses m') ->
  matrix_fn m back p x = Some y -> matrix_fn m' back p x = Some y' ->
  sqrt (power (n_rails m) (fun i => y i - y' i)%C) <= INR (Z.to_nat (num_columns m)) * (2 * dlt + ln 10 / 10 * L) * sqrt (power (n_rails m) x).
Proof. exact mesh_lip_uniform. Qed.
Print Assumptions C163_uniform.
Example C163_nonvacuous : let m := mesh1 DIFFERENTIAL (0, 0) (0, 0) in let m' := mesh1 DIFFERENTIAL (1/100, -1/100) (-1/10, 0) in
  wf_mesh m /\ wf_mesh m' /\ same_wiring m m' /\ style m = style m' /\ attenuating m' /\
  Forall (fun e => Rabs (fst e) <= 1/100 /\ Rabs (snd e) <= 1/100) (bs_errors m') /\ Forall (fun l => - (1/10) <= fst l <= 0 /\ - (1/10) <= snd l <= 0) (losses m') /\
  exists y y', matrix_fn m true (pconst 1 2) (basis 0) = Some y /\ matrix_fn m' true (pconst 1 2) (basis 0) = Some y'.
Proof.
  cbv zeta. split; [apply mesh1_wf |]. split; [apply mesh1_wf |]. split; [repeat split |]. split; [reflexivity |].
  split; [repeat constructor; simpl; lra |].
  split; [repeat constructor; cbn; unfold Rdiv; [| replace (-1 * / 100) with (- (1 * / 100)) by ring; rewrite Rabs_Ropp]; rewrite Rabs_pos_eq; lra |].
  split; [repeat constructor; simpl; lra |].
  destruct (wf_matrix_total (mesh1 DIFFERENTIAL (0, 0) (0, 0)) true (pconst 1 2) (basis 0) (mesh1_wf _ _ _)) as [y Hy].
  destruct (wf_matrix_total (mesh1 DIFFERENTIAL (1/100, -1/100) (-1/10, 0)) true (pconst 1 2) (basis 0) (mesh1_wf _ _ _)) as [y' Hy'].
  exists y, y'. split; assumption.
Qed.
