(** Specification vocabulary for the design region of get_mask_fn (C52). *)
From Coq Require Import Reals ZArith.
From Verif Require Import Model_grid Spec_grid.
Local Open Scope R_scope.

(** The box lies inside an array of n x m pixels. *)
Definition within (n m : Z) (b : box) : Prop :=
  0 < b_spacing b /\ 0 <= fst (b_min b) /\ 0 <= snd (b_min b) /\ 0 <= fst (b_size b) /\ 0 <= snd (b_size b) /\
  fst (b_max b) <= IZR n * b_spacing b /\ snd (b_max b) <= IZR m * b_spacing b.
(** The upper corner of pixel (i, j) lies in the box. *)
Definition covers (b : box) (i j : Z) : Prop :=
  edge_in (fst (b_min b)) (fst (b_max b)) (b_spacing b) i /\ edge_in (snd (b_min b)) (snd (b_max b)) (b_spacing b) j.
