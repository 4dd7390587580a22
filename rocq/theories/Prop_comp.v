(** C148 (Component.from_fdfd), C149 (decorate), C150 (shift_slice). *)
From Coq Require Import Reals List Arith ZArith Lia Lra.
From Verif Require Import Cx Arr Model_yee Model_comp Spec_comp Proof_comp.
Import ListNotations.
Local Open Scope R_scope.

(** C148: the model of a component holds the s-parameters of its ports, when the wavelength is 1.55, the profile size factor 3 and the
    port labels are the device's ports in their order. *)
Theorem C148_default_wavelength_partial : forall D wls k wl a b, NoDup (dv_ports D) -> In a (dv_ports D) -> In b (dv_ports D) ->
  nth_error wls k = Some wl -> wl = 155 / 100 ->
  exists da, from_fdfd D wls 3 (Some (dv_ports D)) (Some (dv_ports D)) = Some da /\ da_sel da k a b = Some (true_sparam D wl 3 a b).
Proof. exact right_sparams. Qed.
Print Assumptions C148_default_wavelength_partial.
(** The result never depends on the ports' modes at the simulated wavelengths, nor on how they are measured with the requested factor:
    two devices that agree on the modes at 1.55 um get the same model. *)
Theorem C148_modes_ignored_refuted : forall D src meas wls factor i o,
  (forall p fct, src p (155 / 100) fct = dv_source D p (155 / 100) fct) -> (forall p f, meas p (155 / 100) 3 f = dv_measure D p (155 / 100) 3 f) ->
  from_fdfd (with_modes D src meas) wls factor i o = from_fdfd D wls factor i o.
Proof. exact got_modes. Qed.
Print Assumptions C148_modes_ignored_refuted.
(** ... so at every other wavelength there is a two-port device for which the value is wrong. *)
Theorem C148_wavelength_refuted : forall wl, 0 < wl -> wl <> 155 / 100 -> exists D da, dv_ports D = [0%nat; 1%nat] /\
  from_fdfd D [wl] 3 (Some (dv_ports D)) (Some (dv_ports D)) = Some da /\ da_sel da 0 0 1 <> Some (true_sparam D wl 3 0 1).
Proof. intros wl H1 H2. destruct (wave_device_wrong wl H1 H2) as [da [H3 H4]]. exists wave_device, da. split; [reflexivity | split; assumption]. Qed.
Print Assumptions C148_wavelength_refuted.
(** The default port labels, and labels for only some of the ports, raise. *)
Theorem C148_labels_refuted : forall D wls factor o i' o', from_fdfd D wls factor None o = None /\ from_fdfd D wls factor o None = None /\
  (length i' <> length (dv_ports D) \/ length o' <> length (dv_ports D) -> from_fdfd D wls factor (Some i') (Some o') = None).
Proof.
  intros D wls factor o i' o'. split; [apply none_raises | split; [apply none_raises |]]. apply subset_raises.
Qed.
Print Assumptions C148_labels_refuted.
(** Labels go by position: naming the ports in another order returns the s-parameter of the wrong pair. *)
Theorem C148_order_refuted : forall D wls k wl p q, dv_ports D = [p; q] -> p <> q -> nth_error wls k = Some wl -> wl = 155 / 100 ->
  exists da, from_fdfd D wls 3 (Some [q; p]) (Some [q; p]) = Some da /\ da_sel da k p q = Some (true_sparam D wl 3 q p).
Proof. exact swapped. Qed.
Print Assumptions C148_order_refuted.
(** Non-vacuity: a two-port device with distinct s-parameters, at 1.55. *)
Definition ex_dev : device := mkDevice R R [7%nat; 4%nat] (fun p _ _ => INR p) (fun wl x => wl * x)
  (fun p _ fct f => (RtoC (f * fct * INR p), RtoC (INR p))).
Example C148_nonvacuous : NoDup (dv_ports ex_dev) /\ In 7%nat (dv_ports ex_dev) /\ In 4%nat (dv_ports ex_dev) /\ nth_error [3; 155 / 100] 1 = Some (155 / 100) /\
  true_sparam ex_dev (155 / 100) 3 7 4 <> true_sparam ex_dev (155 / 100) 3 4 7.
Proof.
  split; [repeat constructor; cbn [In]; lia |]. split; [left; reflexivity |]. split; [right; left; reflexivity |]. split; [reflexivity |].
  unfold true_sparam, ex_dev. cbn [dv_solve dv_source dv_measure fst snd]. intro E. apply (f_equal re) in E.
  unfold Cdiv, Cinv, Cn2 in E. cbn [re im RtoC Cmul INR] in E. lra.
Qed.

(** C149: positions.  On Yee's staggered grid the curls that the simulations use map a plane wave to a plane wave (with the real wave
    vector seen by central differences): these are the positions the field samples stand for. *)
Theorem C149_yee_positions : forall s d k A c i j l, (forall a, d a <> 0) ->
  (inside_up s k i j l -> curl_fn (diff_fn s (uniform_dx d) false) (wave k A (yee_e d)) c i j l = (Ci * wave k (crossv (seen d k) A) (yee_h d) c i j l)%C) /\
  (inside_down s k i j l -> curl_fn (diff_fn s (uniform_dx d) true) (wave k A (yee_h d)) c i j l = (Ci * wave k (crossv (seen d k) A) (yee_e d) c i j l)%C).
Proof. intros s d k A c i j l Hd. split; [apply yee_curl_e; exact Hd | apply yee_curl_h; exact Hd]. Qed.
Print Assumptions C149_yee_positions.
(** decorate gives every sample a label, and the label is right along the two axes across the component ... *)
Theorem C149_across_partial : forall s d a, (1 <= s a)%nat -> length (label_e s d a) = s a /\ length (label_h s d a) = s a /\
  forall n c, (n < s a)%nat -> (1 < s a)%nat -> c <> a -> nth n (label_e s d a) 0 = yee_e d c a n /\ nth n (label_h s d a) 0 = yee_h d c a n.
Proof.
  intros s d a H. destruct (label_lengths s d a H) as [H1 H2]. split; [exact H1 | split; [exact H2 |]].
  intros n c Hn H3 Hc. exact (proj1 (labels_off s d a n H3 Hn) c Hc).
Qed.
Print Assumptions C149_across_partial.
(** ... and half a cell off along its own axis, for E one way and for H the other. *)
Theorem C149_own_axis_refuted : forall s d a n, (1 < s a)%nat -> (n < s a)%nat ->
  nth n (label_e s d a) 0 = yee_e d a a n - d a / 2 /\ nth n (label_h s d a) 0 = yee_h d a a n + d a / 2.
Proof. intros s d a n H Hn. exact (proj2 (labels_off s d a n H Hn)). Qed.
Print Assumptions C149_own_axis_refuted.
(** Read at its labels, a decorated plane wave is exact when it does not vary along the component's axis ... *)
Theorem C149_transverse_partial : forall s d k A c i j l, (forall a, (coord a i j l < s a)%nat) -> (forall a, s a = 1%nat -> k a = 0) -> k c = 0 ->
  wave k A (fun _ a n => nth n (label_e s d a) 0) c i j l = wave k A (yee_e d) c i j l /\
  wave k A (fun _ a n => nth n (label_h s d a) 0) c i j l = wave k A (yee_h d) c i j l.
Proof. intros s d k A c i j l H1 H2 H3. split; [apply exact_e | apply exact_h]; assumption. Qed.
Print Assumptions C149_transverse_partial.
(** ... and otherwise it is off by a phase. *)
Theorem C149_oblique_refuted : forall s d k A c i j l, (forall a, (coord a i j l < s a)%nat) -> (forall a, s a = 1%nat -> k a = 0) ->
  wave k A (yee_e d) c i j l = (cis (k c * d c / 2) * wave k A (fun _ a n => nth n (label_e s d a) 0) c i j l)%C /\
  wave k A (yee_h d) c i j l = (cis (- (k c * d c / 2)) * wave k A (fun _ a n => nth n (label_h s d a) 0) c i j l)%C.
Proof. intros s d k A c i j l H1 H2. split; [apply phase_e | apply phase_h]; assumption. Qed.
Print Assumptions C149_oblique_refuted.
(** Non-vacuity: a 3 x 3 x 1 grid, an interior cell and an oblique wave that does not vary along z. *)
Example C149_nonvacuous : let s := fun a => match a with AZ => 1%nat | _ => 3%nat end in let k := fun a => match a with AZ => 0 | _ => 1 end in
  inside_up s k 1 1 0 /\ inside_down s k 1 1 0 /\ (forall a, (coord a 1 1 0 < s a)%nat) /\ (forall a, s a = 1%nat -> k a = 0).
Proof.
  cbn zeta. split; [| split; [| split]].
  - intros []; cbn [coord]; [left; lia | left; lia | right; repeat split].
  - intros []; cbn [coord]; [left; lia | left; lia | right; repeat split].
  - intros []; cbn [coord]; lia.
  - intros [] H; [discriminate H | discriminate H | reflexivity].
Qed.

(** C150: shift_slice moves an integer index and leaves the other axes alone; a slice with an open end is left unchanged, as
    documented. *)
Theorem C150_int_partial : forall l shift ax z, nth_error l ax = Some (EInt z) -> exists r, shift_slice l shift ax = Some r /\
  length r = length l /\ nth_error r ax = Some (EInt (z + shift)) /\ forall m, m <> ax -> nth_error r m = nth_error l m.
Proof. exact shift_int. Qed.
Print Assumptions C150_int_partial.
Theorem C150_open_partial : forall l shift ax a b, nth_error l ax = Some (ESlice a b) -> a = None \/ b = None -> shift_slice l shift ax = Some l.
Proof. intros l shift ax a b H O. unfold shift_slice. rewrite H. destruct a as [x |], b as [y |]; try reflexivity. destruct O; discriminate. Qed.
Print Assumptions C150_open_partial.
(** A slice with two integer ends, the case the function exists for, always raises. *)
Theorem C150_slice_refuted : forall l shift ax a b, nth_error l ax = Some (ESlice (Some a) (Some b)) -> shift_slice l shift ax = None.
Proof. intros l shift ax a b H. unfold shift_slice. rewrite H. reflexivity. Qed.
Print Assumptions C150_slice_refuted.
(** A numpy integer is silently not shifted: the selected index does not move. *)
Theorem C150_numpy_refuted : forall l shift ax z n, nth_error l ax = Some (ENp z) -> shift <> 0%Z ->
  exists r e, shift_slice l shift ax = Some r /\ nth_error r ax = Some e /\ selects n e z /\ ~ selects n e (z + shift).
Proof.
  intros l shift ax z n H Hs. exists l, (ENp z). unfold shift_slice. rewrite H. repeat split; cbn [selects]. lia.
Qed.
Print Assumptions C150_numpy_refuted.
Example C150_nonvacuous : shift_slice [EInt 3; ESlice None (Some 4%Z); EInt 5] 2 2 = Some [EInt 3; ESlice None (Some 4%Z); EInt 7].
Proof. reflexivity. Qed.
