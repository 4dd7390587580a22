(** Vocabulary for C142: smooth paths of phases, derivatives of a cost that may be undefined. *)
From Coq Require Import Reals List Arith.
From Verif Require Import Cx Arr Model_coupling Model_forward.
Local Open Scope R_scope.

(** Every phase is differentiable at t0 along the path p. *)
Definition smooth_at (p : R -> params) (t0 : R) : Prop :=
  (forall k, exists d, derivable_pt_lim (fun t => thetas (p t) k) t0 d) /\
  (forall k, exists d, derivable_pt_lim (fun t => phis (p t) k) t0 d) /\
  (forall k, exists d, derivable_pt_lim (fun t => gammas (p t) k) t0 d).
(** The cost is defined near t0 and has the derivative d there. *)
Definition has_slope (f : R -> option R) (t0 d : R) : Prop :=
  exists F, (forall t, f t = Some (F t)) /\ derivable_pt_lim F t0 d.
(** All phases of q are within d of those of p. *)
Definition phases_within (d : R) (p q : params) : Prop :=
  forall k, Rabs (thetas q k - thetas p k) <= d /\ Rabs (phis q k - phis p k) <= d /\ Rabs (gammas q k - gammas p k) <= d.
