(** Smooth solutions of Maxwell's equations and their samples on the Yee grid (C159). *)
From Coq Require Import Reals List Arith.
From Verif Require Import Cx Arr Model_yee Spec_yee Model_fdtd Spec_fdtd.
Import ListNotations.
Local Open Scope R_scope.

(** f1 is the derivative of f, and the third derivative of f exists and is at most M. *)
Definition three_times (M : R) (f f1 : R -> R) : Prop := exists f2 f3,
  (forall s, derivable_pt_lim f s (f1 s)) /\ (forall s, derivable_pt_lim f1 s (f2 s)) /\ (forall s, derivable_pt_lim f2 s (f3 s)) /\
  forall s, Rabs (f3 s) <= M.
(** A scalar field: a function of the place (three coordinates) and of time. *)
Definition place := axis -> R.
Definition smooth_field := place -> R -> R.
Definition same_axis (a b : axis) : bool := match a, b with AX, AX | AY, AY | AZ, AZ => true | _, _ => false end.
(** The place p with coordinate a replaced. *)
Definition move (p : place) (a : axis) (x : R) : place := fun b => if same_axis a b then x else p b.
(** D c a is the derivative of component c along axis a, T c its time derivative; all third derivatives are at most M. *)
Definition derivatives (M : R) (F : axis -> smooth_field) (D : axis -> axis -> smooth_field) (T : axis -> smooth_field) : Prop :=
  forall c p t, (forall a, three_times M (fun x => F c (move p a x) t) (fun x => D c a (move p a x) t)) /\ three_times M (F c p) (T c p).
Definition curl_of (D : axis -> axis -> smooth_field) (c : axis) : smooth_field := fun p t =>
  match c with
  | AX => D AZ AY p t - D AY AZ p t
  | AY => D AX AZ p t - D AZ AX p t
  | AZ => D AY AX p t - D AX AY p t
  end.
(** The field repeats after the length of the grid, and does not depend on the coordinates beyond ndim. *)
Definition fits_grid (g : fgrid) (F : axis -> smooth_field) : Prop := forall c p t a,
  (is_active g a = true -> F c (move p a (p a + INR (g_shape g a) * g_spacing g a)) t = F c p t) /\
  (is_active g a = false -> forall x, F c (move p a x) t = F c p t).

(** Places of the samples: E_c half a cell along c, H_c half a cell along the two other axes. *)
Definition index_along (a : axis) (i j k : nat) : nat := match a with AX => i | AY => j | AZ => k end.
Definition width (g : fgrid) (a : axis) : R := if is_active g a then g_spacing g a else 1.
Definition e_place (g : fgrid) (c : axis) (i j k : nat) : place := fun a =>
  (INR (index_along a i j k) + (if same_axis a c then 1 / 2 else 0)) * width g a.
Definition h_place (g : fgrid) (c : axis) (i j k : nat) : place := fun a =>
  (INR (index_along a i j k) + (if same_axis a c then 0 else 1 / 2)) * width g a.
Definition e_samples (g : fgrid) (F : axis -> smooth_field) (t : R) : vfld := fun c i j k => RtoC (F c (e_place g c i j k) t).
Definition h_samples (g : fgrid) (F : axis -> smooth_field) (t : R) : vfld := fun c i j k => RtoC (F c (h_place g c i j k) t).
(** The state of the simulation after n steps, if it were exact: E at time n dt, H half a step later. *)
Definition exact_state (g : fgrid) (E H : axis -> smooth_field) (n : nat) : fstate :=
  mkState (e_samples g E (INR n * dt_of g)) (h_samples g H ((INR n + 1 / 2) * dt_of g)).

(** Maxwell's equations with electric current J and magnetic current K, in the units of the code (c = mu = 1), with the permittivity the
    grid has at each sample of E. *)
Definition maxwell (g : fgrid) (DE DH : axis -> axis -> smooth_field) (TE TH J K : axis -> smooth_field) : Prop :=
  (forall c i j k t, in_grid (g_shape g) i j k ->
     eps_t g false c i j k * TE c (e_place g c i j k) t = curl_of DH c (e_place g c i j k) t - J c (e_place g c i j k) t) /\
  (forall c i j k t, in_grid (g_shape g) i j k ->
     TH c (h_place g c i j k) t = - curl_of DE c (h_place g c i j k) t - K c (h_place g c i j k) t).
(** The sources of step n inject the currents J and K, each at the middle of the update it drives. *)
Definition drives (g : fgrid) (sch : nat -> list source) (J K : axis -> smooth_field) : Prop := forall n c i j k, in_grid (g_shape g) i j k ->
  current src_e (sch n) c i j k = e_samples g J ((INR n + 1 / 2) * dt_of g) c i j k /\
  current src_h (sch n) c i j k = h_samples g K ((INR n + 1) * dt_of g) c i j k.
(** Difference of two states, and the root mean square of a state over its 3 cells samples (permittivity-weighted for E). *)
Definition gap (a b : fstate) : fstate :=
  mkState (fun c i j k => f_e a c i j k - f_e b c i j k)%C (fun c i j k => f_h a c i j k - f_h b c i j k)%C.
Definition rms (g : fgrid) (st : fstate) : R :=
  sqrt (field_energy g false st / (3 * INR (g_shape g AX * g_shape g AY * g_shape g AZ))).
