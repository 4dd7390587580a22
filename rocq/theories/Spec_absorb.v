(** Power flow of time-harmonic fields through the planes across an axis (C153). *)
From Coq Require Import Reals Arith.
From Verif Require Import Cx Arr Model_coupling Model_yee Spec_yee Model_fdfd Spec_fdfd.
Local Open Scope R_scope.

(** The axes in cyclic order. *)
Definition after (a : axis) : axis := match a with AX => AY | AY => AZ | AZ => AX end.
(** Sum over the cells of plane [m] across axis [a]. *)
Definition plane (s : shape3) (a : axis) (m : nat) (f : nat -> nat -> nat -> R) : R :=
  match a with
  | AX => Rsum (s AY) (fun j => Rsum (s AZ) (fun k => f m j k))
  | AY => Rsum (s AZ) (fun k => Rsum (s AX) (fun i => f i m k))
  | AZ => Rsum (s AX) (fun i => Rsum (s AY) (fun j => f i j m))
  end.
(** Power through plane m along a: minus the Poynting component Re (E x H* )_a summed over the plane.  (The fields the solver returns satisfy
    curl e = + i k0 h, while its layers absorb waves exp(- i k x): with that time convention the magnetic field is - h.) *)
Definition power_through (s : shape3) (e h : vfld) (a : axis) (m : nat) : R :=
  let b := after a in let c := after b in
  plane s a m (fun i j k => - re (e b i j k * Cconj (h c i j k) - e c i j k * Cconj (h b i j k))%C).
(** What a stretched cell takes away: its imaginary width times k0 times the energy of the tangential minus that of the normal components;
    E at plane m, H half a cell further. *)
Definition taken_e (s : shape3) (k0 : R) (eps : axis -> rfld) (e h : vfld) (a : axis) (m : nat) : R :=
  let b := after a in let c := after b in
  k0 * plane s a m (fun i j k => eps b i j k * Cn2 (e b i j k) + eps c i j k * Cn2 (e c i j k) - Cn2 (h a i j k)).
Definition taken_h (s : shape3) (k0 : R) (eps : axis -> rfld) (e h : vfld) (a : axis) (m : nat) : R :=
  let b := after a in let c := after b in
  k0 * plane s a m (fun i j k => Cn2 (h b i j k) + Cn2 (h c i j k) - eps a i j k * Cn2 (e a i j k)).
(** What the sources give on a plane: tangential and normal currents. *)
Definition given_t (s : shape3) (dxb : pixel) (e src : vfld) (a : axis) (m : nat) : R :=
  let b := after a in let c := after b in
  plane s a m (fun i j k => re (Ci * Cconj (dxb a m) * (e b i j k * Cconj (src b i j k) + e c i j k * Cconj (src c i j k)))%C).
Definition given_n (s : shape3) (dxf : pixel) (e src : vfld) (a : axis) (m : nat) : R :=
  plane s a m (fun i j k => re (Ci * dxf a m * (e a i j k * Cconj (src a i j k)))%C).
(** No stretching along an axis: real cells of one width, the same for both kinds of differences. *)
Definition real_axis (s : shape3) (dxf dxb : pixel) (a : axis) : Prop :=
  exists w : R, w <> 0 /\ forall m, (m < s a)%nat -> dxf a m = RtoC w /\ dxb a m = RtoC w.
(** A plane without sources, and a plane whose fields have no normal component. *)
Definition on_plane (s : shape3) (a : axis) (m : nat) (P : nat -> nat -> nat -> Prop) : Prop :=
  forall i j k, in_grid s i j k -> coord a i j k = m -> P i j k.
(** A one-dimensional simulation of n cells of width w with layers of t cells at both ends (fdfd.py:92-99, 240-257: exponent p, log-reflection lr,
    correction pe; C38 describes the factors). *)
Definition line_with_layers (d : fdfd) (n t p : nat) (lr pe w : R) : Prop :=
  d_shape d = (fun a => match a with AX => n | _ => 1%nat end) /\ d_bloch d = (fun _ => C1) /\
  (0 < p)%nat /\ lr < 0 /\ 0 < pe /\ 0 < d_k0 d /\ 0 < w /\ (1 < t)%nat /\ (2 * t < n)%nat /\
  (forall x, d_dxf d AX x = (RtoC w * scpml p lr (d_k0 d) pe w n t false x)%C /\ d_dxb d AX x = (RtoC w * scpml p lr (d_k0 d) pe w n t true x)%C) /\
  (forall a x, a <> AX -> d_dxf d a x = C1 /\ d_dxb d a x = C1) /\
  (forall c i j k, 0 < d_eps d c i j k).

(** ** Boxes of cells l_a <= index < u_a (C154). *)
Definition range_sum (l u : nat) (f : nat -> R) : R := Rsum (u - l) (fun x => f (l + x)%nat).
Definition box_sum (l u : axis -> nat) (f : nat -> nat -> nat -> R) : R :=
  range_sum (l AX) (u AX) (fun i => range_sum (l AY) (u AY) (fun j => range_sum (l AZ) (u AZ) (fun k => f i j k))).
(** Sum over the cells of the box's cross section at index m of axis a. *)
Definition face_sum (l u : axis -> nat) (a : axis) (m : nat) (f : nat -> nat -> nat -> R) : R :=
  match a with
  | AX => range_sum (l AY) (u AY) (fun j => range_sum (l AZ) (u AZ) (fun k => f m j k))
  | AY => range_sum (l AX) (u AX) (fun i => range_sum (l AZ) (u AZ) (fun k => f i m k))
  | AZ => range_sum (l AX) (u AX) (fun i => range_sum (l AY) (u AY) (fun j => f i j m))
  end.
(** Power through the lower face of a cell across axis a: E on the face, H half a cell before it; sign as in power_through. *)
Definition power_face (s : shape3) (e h : vfld) (a : axis) (i j k : nat) : R :=
  let b := after a in let c := after b in
  let before v := at_coord a v i j k (pred_p (s a) (coord a i j k)) in
  - re (e b i j k * Cconj (before (h c)) - e c i j k * Cconj (before (h b)))%C.
(** The power leaving the box through its six faces, for cells w_x by w_y by w_z. *)
Definition outflow (s : shape3) (w : axis -> R) (l u : axis -> nat) (e h : vfld) : R :=
  let net a := w (after a) * w (after (after a)) * (face_sum l u a (u a) (power_face s e h a) - face_sum l u a (l a) (power_face s e h a)) in
  net AX + net AY + net AZ.
(** The power the current density gives to the field in the box. *)
Definition source_power (w : axis -> R) (l u : axis -> nat) (e src : vfld) : R :=
  w AX * w AY * w AZ * box_sum l u (fun i j k => im (Cconj (e AX i j k) * src AX i j k + Cconj (e AY i j k) * src AY i j k + Cconj (e AZ i j k) * src AZ i j k)%C).
(** A box of unstretched cells inside the grid. *)
Definition clear_box (s : shape3) (dxf dxb : pixel) (w : axis -> R) (l u : axis -> nat) : Prop := forall a,
  (l a <= u a)%nat /\ (u a < s a)%nat /\ w a <> 0 /\ forall m, (l a <= m < u a)%nat -> dxf a m = RtoC (w a) /\ dxb a m = RtoC (w a).

(** Twelve cells of width 1 with layers of four, permittivity 2, k0 = 1, the default grading (4, -16, 1). *)
Definition line12 : fdfd := mkFdfd (fun a => match a with AX => 12%nat | _ => 1%nat end)
  (fun a x => match a with AX => (RtoC 1 * scpml 4 (-16) 1 1 1 12 4 false x)%C | _ => C1 end)
  (fun a x => match a with AX => (RtoC 1 * scpml 4 (-16) 1 1 1 12 4 true x)%C | _ => C1 end) (fun _ => C1) 1 (fun _ _ _ _ => 2).
(** A piece of the wave i^m. *)
Definition wave3 : vfld := only_z (fun i _ _ => match i with 5%nat => C1 | 6%nat => Ci | 7%nat => (- C1)%C | _ => C0 end).
(** The magnetic field and the source that go with an electric field. *)
Definition h_for (d : fdfd) (e : vfld) : vfld := fun c i j k => (curl_of (fwd (d_shape d) (d_dxf d)) e c i j k / (Ci * RtoC (d_k0 d)))%C.
Definition src_for (d : fdfd) (e : vfld) : vfld := fun c i j k =>
  (Ci * (curl_of (bwd (d_shape d) (d_dxb d)) (h_for d e) c i j k + Ci * RtoC (d_k0 d) * RtoC (d_eps d c i j k) * e c i j k))%C.
(** A cube of 12 cells with layers of four on all six sides. *)
Definition cube12 : fdfd := mkFdfd (fun _ => 12%nat)
  (fun a x => (RtoC 1 * scpml 4 (-16) 1 1 1 12 4 false x)%C) (fun a x => (RtoC 1 * scpml 4 (-16) 1 1 1 12 4 true x)%C) (fun _ => C1) 1 (fun _ _ _ _ => 2).
