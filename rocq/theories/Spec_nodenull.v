(** An MZI with each phase shifter in the upper or the lower arm (C161). *)
From Coq Require Import Reals.
From Verif Require Import Cx Arr.
Local Open Scope R_scope.

(** A phase t in the upper (or lower) of two arms. *)
Definition shift (lower : bool) (t : R) (ab : C * C) : C * C :=
  if lower then (fst ab, (cis t * snd ab)%C) else ((cis t * fst ab)%C, snd ab).
(** A 50:50 coupler. *)
Definition coupler (ab : C * C) : C * C :=
  (RtoC (/ sqrt 2) * (fst ab + Ci * snd ab), RtoC (/ sqrt 2) * (Ci * fst ab + snd ab))%C.
(** phi, coupler, theta, coupler. *)
Definition mzi (lower_theta lower_phi : bool) (theta phi : R) (ab : C * C) : C * C :=
  coupler (shift lower_theta theta (coupler (shift lower_phi phi ab))).
