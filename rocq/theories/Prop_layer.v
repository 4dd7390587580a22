(** C145, C146: InSituBackpropLayer and the measurement noise of in_situ_matrix_fn (forward.py:347-414, 805-851). *)
From Coq Require Import Reals Lra Lia List ZArith Bool.
From Verif Require Import Cx Arr Spec_circuit Model_coupling Model_forward Model_insitu Model_insitu2 Model_meshops Spec_mesh Spec_meshops Model_layer Spec_layer Proof_mesh Proof_layer Proof_layer2 Prop_forward.
Import ListNotations.
Local Open Scope R_scope.

(** C145.  A layer without noise sends every row of the batch through the mesh, then applies the activation. *)
Theorem C145_layer : forall act m p ra rp x, wf_mesh m -> exists y, layer_call act m p 0 0 ra rp x = Some (act y) /\
  forall b, exists z, matrix_fn m false p (x b) = Some z /\ forall i, (i < n_rails m)%nat -> y b i = z i.
Proof. exact layer_exact. Qed.
Print Assumptions C145_layer.
(** A new layer starts from the mesh it was given, with the output phases zeroed if asked. *)
Theorem C145_start : forall act m p z db dl ra rp x, wf_mesh m -> fresh m -> exists m' y, layer_mesh m 0 db dl = Some m' /\
  layer_call act m' (layer_params p z) 0 0 ra rp x = Some (act y) /\
  forall b, exists w, matrix_fn m false (mkParams (thetas p) (phis p) (if z then fun _ => 0 else gammas p)) (x b) = Some w /\ forall i, (i < n_rails m)%nat -> y b i = w i.
Proof. exact layer_start. Qed.
Print Assumptions C145_start.
(** A layer built with losses: the drawn values (scaled) are added to the losses of the nodes and nothing else changes. *)
Theorem C145_losses : forall m ls db dl, wf_mesh m -> fresh m -> exists m', layer_mesh m ls db dl = Some m' /\ wf_mesh m' /\ style m' = style m /\ n_rails m' = n_rails m /\
  num_columns m' = num_columns m /\ length (nodes m') = length (nodes m) /\
  forall i nd, nth_error (nodes m) i = Some nd -> exists nd', nth_error (nodes m') i = Some nd' /\
    (node_id nd', top nd', bottom nd', column nd') = (node_id nd, top nd, bottom nd, column nd) /\ bs_error nd' = bs_error nd /\
    loss nd' = (fst (loss nd) + ls * fst (dl i), snd (loss nd) + ls * snd (dl i)).
Proof. exact layer_losses. Qed.
Print Assumptions C145_losses.
(** Networks of any depth: lossless meshes without activations preserve the power of every row ... *)
Theorem C145_isometry : forall n ls, (forall l, In l ls -> wf_mesh (l_mesh l) /\ lossless (l_mesh l) /\ n_rails (l_mesh l) = n /\ forall z, l_act l z = z) ->
  forall x, exists y, network ls x = Some y /\ forall b, power n (y b) = power n (x b).
Proof. exact network_isometry. Qed.
Print Assumptions C145_isometry.
(** ... and with nonexpansive activations and any attenuation, whatever the trained phases, the network never separates two inputs further. *)
Theorem C145_contracts : forall n ls, (forall l, In l ls -> wf_mesh (l_mesh l) /\ attenuating (l_mesh l) /\ n_rails (l_mesh l) = n /\ nonexpansive (l_act l)) ->
  forall x x', exists y y', network ls x = Some y /\ network ls x' = Some y' /\
    forall b, power n (fun i => y b i - y' b i)%C <= power n (fun i => x b i - x' b i)%C.
Proof. exact network_contracts. Qed.
Print Assumptions C145_contracts.
(** Measurement noise on the matrix: phase noise changes no power, amplitude noise scales it by the square of 1 + std * draw, and unless that is
    negative the two only scale and turn the entry. *)
Theorem C145_noise : forall m p amp ph ra rp i j z, matrix m false p i j = Some z -> exists w, noisy_matrix m p amp ph ra rp i j = Some w /\
  Cn2 w = (1 + amp * ra i j) ^ 2 * Cn2 z /\
  (0 <= 1 + amp * ra i j -> w = (RtoC (1 + amp * ra i j) * cis (ph * rp i j * PI) * z)%C).
Proof.
  intros m p amp ph ra rp i j z H. unfold noisy_matrix. rewrite H. cbn [option_map]. eexists. split; [reflexivity |].
  split; [apply noisy_power | apply noisy_turn].
Qed.
Print Assumptions C145_noise.
(** With jit (the default) the noise is drawn when the function is traced: every call repeats the first call's noise (without jit calls differ). *)
Theorem C145_fresh_noise_refuted :
  (forall act m p amp ph (ra rp : nat -> nat -> nat -> R) x k,
     layer_call act m p amp ph (draws_of_call true ra k) (draws_of_call true rp k) x = layer_call act m p amp ph (ra 0%nat) (rp 0%nat) x) /\
  exists m p amp (d : nat -> nat -> nat -> R) x, wf_mesh m /\
    layer_call (fun y => y) m p amp 0 (draws_of_call false d 1) no_noise x <> layer_call (fun y => y) m p amp 0 (draws_of_call false d 0) no_noise x.
Proof. exact (conj (fun _ _ _ _ _ _ _ _ _ => eq_refl) fresh_noise). Qed.
Print Assumptions C145_fresh_noise_refuted.
Example C145_nonvacuous : exists ls, length ls = 2%nat /\ forall l, In l ls -> wf_mesh (l_mesh l) /\ attenuating (l_mesh l) /\ n_rails (l_mesh l) = 4%nat /\ nonexpansive (l_act l).
Proof.
  exists [mkLayer (mesh3 TOP) (mkParams (fun _ => 1) (fun _ => 2) (fun _ => 0)) (fun z => z); mkLayer (mesh3 SYMMETRIC) (mkParams (fun _ => 3) (fun _ => 4) (fun _ => 5)) (fun _ => C0)]. split; [reflexivity |].
  assert (A : forall s, wf_mesh (mesh3 s) /\ attenuating (mesh3 s)).
  { intro s. destruct (mesh3_wf s) as (_ & W & L & _). split; auto. unfold lossless, attenuating in *. eapply Forall_impl; [| exact L]. intros a ->. cbn. lra. }
  intros l [<- | [<- | []]]; cbn [l_mesh l_act]; (split; [apply A | split; [apply A | split; [reflexivity |]]]); intros z w; [apply Rle_refl |].
  replace (C0 - C0)%C with C0 by ring. rewrite Cn2_C0. apply Cn2_nonneg.
Qed.

(** C146.  Without noise the noisy measurement is the exact one (the one C25 is about), whatever numbers are drawn. *)
Theorem C146_no_noise : forall m p k X G ra rp r1 r2 which e g0, gradient_entry (in_situ_bwd_batch m p k X G) which e = Some g0 ->
  gradient_entry (in_situ_bwd_noisy m p k X G 0 0 0 ra rp r1 r2) which e = Some g0.
Proof. exact no_noise_same. Qed.
Print Assumptions C146_no_noise.
(** Shot noise of any strength at the taps leaves every entry of the measured gradient right on average. *)
Theorem C146_unbiased : forall E m p k X G shot ra rp which e g0, centred E ->
  gradient_entry (in_situ_bwd_batch m p k X G) which e = Some g0 ->
  exists f, (forall d, gradient_entry (in_situ_bwd_noisy m p k X G 0 0 shot ra rp (fun q r j => d (0%nat, q, r, j)) (fun q r j => d (1%nat, q, r, j))) which e = Some (f d)) /\ E f = g0.
Proof. exact shot_mean. Qed.
Print Assumptions C146_unbiased.
(** The same with all_analog=False (three measurements per tap, subtracted digitally; the measurement of C25_digital_batch_partial). *)
Theorem C146_digital_no_noise : forall m p k X G r1 r2 r3 which e g0, gradient_entry (in_situ_bwd_digital_batch m p k X G) which e = Some g0 ->
  gradient_entry (in_situ_bwd_digital_noisy m p k X G 0 r1 r2 r3) which e = Some g0.
Proof. exact digital_no_noise. Qed.
Print Assumptions C146_digital_no_noise.
Theorem C146_digital_unbiased : forall E m p k X G shot which e g0, centred E ->
  gradient_entry (in_situ_bwd_digital_batch m p k X G) which e = Some g0 ->
  exists f, (forall d, gradient_entry (in_situ_bwd_digital_noisy m p k X G shot (fun q r j => d (0%nat, q, r, j)) (fun q r j => d (1%nat, q, r, j)) (fun q r j => d (2%nat, q, r, j))) which e = Some (f d)) /\ E f = g0.
Proof. exact digital_mean. Qed.
Print Assumptions C146_digital_unbiased.
Example C146_nonvacuous : centred (fun f => (f (fun _ => 1) + f (fun _ => -1)) / 2).
Proof.
  intros c l. assert (H : fold_right (fun (t : R * draw) acc => fst t * -1 + acc) 0 l = - fold_right (fun (t : R * draw) acc => fst t * 1 + acc) 0 l).
  { induction l as [| a l IH]; cbn [fold_right]; [ring |]. rewrite IH. ring. }
  cbv beta. rewrite H. field.
Qed.

(** C151.  Noise on the adjoint inputs (amplitude and phase, all_analog=True), with or without shot noise on top, scales the average of every entry of the
    measured gradient by one number, the mean of the noise factor: the direction of the gradient is right on average. *)
Theorem C151_io_noise : forall Eio Eshot m p k X G amp ph kappa shot which e g0, wf_mesh m -> style m = TOP \/ style m = BOTTOM ->
  io_mean Eio amp ph kappa -> centred Eshot -> ((2 <= which)%nat -> (e < n_rails m)%nat) ->
  gradient_entry (in_situ_bwd_batch m p k X G) which e = Some g0 ->
  exists f, (forall d s, gradient_entry (in_situ_bwd_noisy m p k X G amp ph shot (fun i j => d (false, (i, j))) (fun i j => d (true, (i, j)))
     (fun q r j => s (0%nat, q, r, j)) (fun q r j => s (1%nat, q, r, j))) which e = Some (f d s)) /\
    Eio (fun d => Eshot (f d)) = kappa * g0.
Proof. exact io_shot_mean. Qed.
Print Assumptions C151_io_noise.
(** Phase draws that are plus or minus one with equal probability: the factor is the cosine of the phase error. *)
Example C151_nonvacuous : forall amp ph, io_mean (fun f => (f (fun t => if fst t then 1 else 0) + f (fun t => if fst t then -1 else 0)) / 2) amp ph (cos (ph * PI)).
Proof. exact io_pair. Qed.
