(** Poynting's theorem for boxes of cells (C154). *)
From Coq Require Import Reals Lra Lia List Arith Bool FunctionalExtensionality.
From Verif Require Import Cx Arr Model_coupling Model_yee Spec_yee Model_fdfd Spec_fdfd Proof_scpml Spec_absorb Proof_absorb.
Local Open Scope R_scope.

Lemma range_ext : forall l u f g, (forall x, (l <= x < u)%nat -> f x = g x) -> range_sum l u f = range_sum l u g.
Proof. intros. unfold range_sum. apply Rsum_ext. intros. apply H. lia. Qed.
Lemma range_add : forall l u f g, range_sum l u (fun x => f x + g x) = range_sum l u f + range_sum l u g.
Proof. intros. unfold range_sum. apply Rsum_add. Qed.
Lemma range_sub : forall l u f g, range_sum l u (fun x => f x - g x) = range_sum l u f - range_sum l u g.
Proof. intros. unfold range_sum. apply Rsum_sub. Qed.
Lemma range_scal : forall l u c f, range_sum l u (fun x => c * f x) = c * range_sum l u f.
Proof. intros. unfold range_sum. apply Rsum_scal. Qed.
Lemma range_swap : forall l u l' u' f, range_sum l u (fun x => range_sum l' u' (fun y => f x y)) = range_sum l' u' (fun y => range_sum l u (fun x => f x y)).
Proof. intros. unfold range_sum. apply Rsum_swap. Qed.
Lemma telescope : forall l u f, (l <= u)%nat -> range_sum l u (fun x => f (x + 1)%nat - f x) = f u - f l.
Proof.
  intros l u f H. unfold range_sum. replace u with (l + (u - l))%nat at 2 by lia. generalize (u - l)%nat as n. induction n as [| n IH].
  - cbn [Rsum]. rewrite Nat.add_0_r. ring.
  - cbn [Rsum]. rewrite IH. replace (l + n + 1)%nat with (l + Datatypes.S n)%nat by lia. ring.
Qed.
Definition step1 (a : axis) (f : nat -> nat -> nat -> R) (i j k : nat) : R := match a with AX => f (i + 1)%nat j k | AY => f i (j + 1)%nat k | AZ => f i j (k + 1)%nat end.
Lemma box_ext : forall l u f g, (forall i j k, (l AX <= i < u AX)%nat -> (l AY <= j < u AY)%nat -> (l AZ <= k < u AZ)%nat -> f i j k = g i j k) -> box_sum l u f = box_sum l u g.
Proof. intros l u f g H. unfold box_sum. apply range_ext. intros i Hi. apply range_ext. intros j Hj. apply range_ext. intros k Hk. auto. Qed.
Lemma box_add : forall l u f g, box_sum l u (fun i j k => f i j k + g i j k) = box_sum l u f + box_sum l u g.
Proof.
  intros. unfold box_sum. rewrite <- range_add. apply range_ext. intros. rewrite <- range_add. apply range_ext. intros. apply range_add.
Qed.
Lemma box_scal : forall l u c f, box_sum l u (fun i j k => c * f i j k) = c * box_sum l u f.
Proof.
  intros. unfold box_sum. rewrite <- range_scal. apply range_ext. intros. rewrite <- range_scal. apply range_ext. intros. apply range_scal.
Qed.
Lemma box_face : forall l u a f, (l a <= u a)%nat -> box_sum l u (fun i j k => step1 a f i j k - f i j k) = face_sum l u a (u a) f - face_sum l u a (l a) f.
Proof.
  intros l u a f H. unfold box_sum. destruct a; cbn [face_sum step1].
  - transitivity (range_sum (l AX) (u AX) (fun i => range_sum (l AY) (u AY) (fun j => range_sum (l AZ) (u AZ) (fun k => f (i + 1)%nat j k)) - range_sum (l AY) (u AY) (fun j => range_sum (l AZ) (u AZ) (fun k => f i j k)))).
    + apply range_ext. intros i _. rewrite <- range_sub. apply range_ext. intros j _. apply range_sub.
    + apply (telescope (l AX) (u AX) (fun i => range_sum (l AY) (u AY) (fun j => range_sum (l AZ) (u AZ) (fun k => f i j k)))). exact H.
  - rewrite <- range_sub. apply range_ext. intros i _.
    transitivity (range_sum (l AY) (u AY) (fun j => range_sum (l AZ) (u AZ) (fun k => f i (j + 1)%nat k) - range_sum (l AZ) (u AZ) (fun k => f i j k))).
    + apply range_ext. intros j _. apply range_sub.
    + apply (telescope (l AY) (u AY) (fun j => range_sum (l AZ) (u AZ) (fun k => f i j k))). exact H.
  - rewrite <- range_sub. apply range_ext. intros i _. rewrite <- range_sub. apply range_ext. intros j _.
    apply (telescope (l AZ) (u AZ) (fun k => f i j k)). exact H.
Qed.
Lemma succ_in : forall n m, (m + 1 < n)%nat -> succ_p n m = (m + 1)%nat.
Proof. intros n m H. unfold succ_p. destruct (Nat.eqb_spec (m + 1) n); [lia | reflexivity]. Qed.
Lemma pred_in : forall n m, pred_p n (m + 1) = m.
Proof. intros. replace (m + 1)%nat with (Datatypes.S m) by lia. reflexivity. Qed.
(** One cell. *)
Lemma cell_poynting : forall s dxf dxb k0 eps e h src w i j k, faraday s dxf k0 e h -> ampere s dxb k0 eps e h src ->
  (i + 1 < s AX)%nat -> (j + 1 < s AY)%nat -> (k + 1 < s AZ)%nat -> (forall a, w a <> 0) ->
  (forall a, dxf a (coord a i j k) = RtoC (w a) /\ dxb a (coord a i j k) = RtoC (w a)) ->
  w AY * w AZ * (step1 AX (power_face s e h AX) i j k - power_face s e h AX i j k) + w AZ * w AX * (step1 AY (power_face s e h AY) i j k - power_face s e h AY i j k) +
  w AX * w AY * (step1 AZ (power_face s e h AZ) i j k - power_face s e h AZ i j k) =
  w AX * w AY * w AZ * im (Cconj (e AX i j k) * src AX i j k + Cconj (e AY i j k) * src AY i j k + Cconj (e AZ i j k) * src AZ i j k)%C.
Proof.
  intros s dxf dxb k0 eps e h src w i j k F A Hi Hj Hk Nw Hw.
  assert (I : in_grid s i j k) by (repeat split; lia).
  pose proof (F AX i j k I) as Fx. pose proof (F AY i j k I) as Fy. pose proof (F AZ i j k I) as Fz.
  pose proof (A AX i j k I) as Ax. pose proof (A AY i j k I) as Ay. pose proof (A AZ i j k I) as Az.
  unfold curl_of, fwd, bwd in *. pose proof (Hw AX) as [fx bx]. pose proof (Hw AY) as [fy by_]. pose proof (Hw AZ) as [fz bz]. cbn [coord at_coord] in *.
  rewrite !succ_in in Fx, Fy, Fz by auto. rewrite ?fx, ?fy, ?fz, ?bx, ?by_, ?bz in *.
  unfold power_face. cbn [step1 after coord at_coord]. rewrite !pred_in.
  set (X := w AX) in *. set (Y := w AY) in *. set (Z := w AZ) in *.
  assert (NX : X <> 0) by apply Nw. assert (NY : Y <> 0) by apply Nw. assert (NZ : Z <> 0) by apply Nw.
  set (p := e AX i j k) in *. set (q := e AY i j k) in *. set (r := e AZ i j k) in *.
  set (u := h AX i j k) in *. set (v := h AY i j k) in *. set (t := h AZ i j k) in *.
  set (qx := e AY (i + 1)%nat j k) in *. set (rx := e AZ (i + 1)%nat j k) in *. set (py := e AX i (j + 1)%nat k) in *. set (ry := e AZ i (j + 1)%nat k) in *.
  set (pz := e AX i j (k + 1)%nat) in *. set (qz := e AY i j (k + 1)%nat) in *.
  set (vx := h AY (pred_p (s AX) i) j k) in *. set (tx := h AZ (pred_p (s AX) i) j k) in *. set (uy := h AX i (pred_p (s AY) j) k) in *. set (ty := h AZ i (pred_p (s AY) j) k) in *.
  set (uz := h AX i j (pred_p (s AZ) k)) in *. set (vz := h AY i j (pred_p (s AZ) k)) in *.
  assert (NX' := RtoC_neq0 _ NX). assert (NY' := RtoC_neq0 _ NY). assert (NZ' := RtoC_neq0 _ NZ).
  (* the complex identity *)
  assert (E : (RtoC Y * RtoC Z * ((qx * Cconj t - rx * Cconj v) - (q * Cconj tx - r * Cconj vx)) +
     RtoC Z * RtoC X * ((ry * Cconj u - py * Cconj t) - (r * Cconj uy - p * Cconj ty)) +
     RtoC X * RtoC Y * ((pz * Cconj v - qz * Cconj u) - (p * Cconj vz - q * Cconj uz)) =
     RtoC X * RtoC Y * RtoC Z * (Ci * RtoC k0 * (u * Cconj u + v * Cconj v + t * Cconj t) -
       Ci * RtoC k0 * (RtoC (eps AX i j k) * (p * Cconj p) + RtoC (eps AY i j k) * (q * Cconj q) + RtoC (eps AZ i j k) * (r * Cconj r)) -
       Ci * (p * Cconj (src AX i j k) + q * Cconj (src AY i j k) + r * Cconj (src AZ i j k))))%C).
  { assert (cj : forall a b W, W <> 0 -> Cconj ((a - b) / RtoC W) = ((Cconj a - Cconj b) / RtoC W)%C).
    { intros a b W HW. unfold Cdiv. rewrite Cconj_mul, Cconj_sub. f_equal. apply C_eq; unfold Cinv; cbn; unfold Rdiv; ring. }
    assert (Cx := f_equal Cconj Ax). assert (Cy := f_equal Cconj Ay). assert (Cz := f_equal Cconj Az).
    rewrite Cconj_sub, !cj, Cconj_sub, Cconj_opp, !Cconj_mul, !Cconj_RtoC, Cconj_Ci in Cx, Cy, Cz by auto.
    transitivity (RtoC X * RtoC Y * RtoC Z * (
       ((ry - r) / RtoC Y - (qz - q) / RtoC Z) * Cconj u + ((pz - p) / RtoC Z - (rx - r) / RtoC X) * Cconj v + ((qx - q) / RtoC X - (py - p) / RtoC Y) * Cconj t -
       p * ((Cconj t - Cconj ty) / RtoC Y - (Cconj v - Cconj vz) / RtoC Z) - q * ((Cconj u - Cconj uz) / RtoC Z - (Cconj t - Cconj tx) / RtoC X) -
       r * ((Cconj v - Cconj vx) / RtoC X - (Cconj u - Cconj uy) / RtoC Y)))%C; [field; repeat split; auto |].
    rewrite Fx, Fy, Fz, Cx, Cy, Cz. ring. }
  apply (f_equal re) in E. clear - E.
  destruct p, q, r, u, v, t, qx, rx, py, ry, pz, qz, vx, tx, uy, ty, uz, vz, (src AX i j k), (src AY i j k), (src AZ i j k). cbn in E |- *. lra.
Qed.
Lemma poynting_box : forall s dxf dxb k0 eps e h src w l u, faraday s dxf k0 e h -> ampere s dxb k0 eps e h src -> clear_box s dxf dxb w l u ->
  outflow s w l u e h = source_power w l u e src.
Proof.
  intros s dxf dxb k0 eps e h src w l u F A B. unfold outflow, source_power. cbv zeta. rewrite <- !box_face by apply B. cbn [after].
  rewrite <- !box_scal, <- !box_add. apply box_ext. intros i j k Hi Hj Hk.
  destruct (B AX) as (_ & Ux & Nx & Dx). destruct (B AY) as (_ & Uy & Ny & Dy). destruct (B AZ) as (_ & Uz & Nz & Dz).
  apply (cell_poynting s dxf dxb k0 eps e h src w i j k F A); try lia.
  - intros []; auto.
  - intros []; cbn [coord]; auto.
Qed.
Lemma cube12_ok : clear_box (d_shape cube12) (d_dxf cube12) (d_dxb cube12) (fun _ => 1) (fun _ => 4%nat) (fun _ => 9%nat).
Proof.
  intro a. cbn [d_shape d_dxf d_dxb cube12]. split; [lia |]. split; [lia |]. split; [lra |]. intros m Hm.
  assert (S1 : forall o, scpml 4 (-16) 1 1 1 12 4 o m = C1).
  { intro o. apply (proj2 (proj2 (scpml_shape 4 (-16) 1 1 1 12 4 o m ltac:(lia) ltac:(lra) ltac:(lra) ltac:(lra) ltac:(lra) ltac:(lia) ltac:(lia) ltac:(lia)))). lia. }
  rewrite !S1. split; ring.
Qed.
