(** C167: absorbing layers together with complex permittivities. *)
From Coq Require Import Reals Lra Lia List Arith.
From Verif Require Import Cx Arr Model_coupling Model_yee Spec_yee Model_fdfd Spec_fdfd Model_fdfdc Spec_fdfdc Spec_fdfdlay Proof_fdfdlay Proof_fdfdlay2.
Local Open Scope R_scope.

(** One-dimensional simulations with layers at both ends, in which every cell has a permittivity with positive real and nonpositive imaginary part
    (real permittivities included): for every source there is a solution, and all exact solvers return the same field.  Both polarizations. *)
Theorem C167_same_sign_te : forall d n t p lr pe w src, layered d n t p lr pe w -> with_layers_sign d ->
  (exists solver, exact2c d (mat_ez_c d) solver src) /\
  forall solver solver', exact2c d (mat_ez_c d) solver src -> exact2c d (mat_ez_c d) solver' src ->
    same_on (cf_shape d) (fst (solve2_te_c d solver src) AZ) (fst (solve2_te_c d solver' src) AZ).
Proof. exact line_te. Qed.
Print Assumptions C167_same_sign_te.
Theorem C167_same_sign_tm : forall d n t p lr pe w src, layered d n t p lr pe w -> with_layers_sign d ->
  (exists solver, exact2c d (mat_hz_c d) solver src) /\
  forall solver solver', exact2c d (mat_hz_c d) solver src -> exact2c d (mat_hz_c d) solver' src ->
    same_on (cf_shape d) (snd (solve2_tm_c d solver src) AZ) (snd (solve2_tm_c d solver' src) AZ).
Proof. exact line_tm. Qed.
Print Assumptions C167_same_sign_tm.
(** With the other sign it fails: with the default layer parameters and a permittivity with positive imaginary part in every cell - an absorbing
    material for the Maxwell equations that the returned fields satisfy - there is a source for which no solver can be exact, and an exact solver
    may return a nonzero field without any source. *)
Theorem C167_other_sign_refuted : exists d, layered d 11 4 4 (-16) 1 1 /\
  (forall i j k, in_grid (cf_shape d) i j k -> 1 < re (cf_eps d i j k) /\ 1 / 4 < im (cf_eps d i j k)) /\
  (exists src, forall solver, ~ exact2c d (mat_ez_c d) solver src) /\
  (exists solver, exact2c d (mat_ez_c d) solver (fun _ _ _ => C0) /\ fst (solve2_te_c d solver (fun _ _ _ => C0)) AZ 0%nat 0%nat 0%nat <> C0).
Proof.
  exists amplified. split; [exact amp_layered | split; [| split; [exists at_cell0; exact amp_none | exact amp_many]]].
  intros i j k (Hi & _). exact (cells_pos i Hi).
Qed.
Print Assumptions C167_other_sign_refuted.
(** The same line filled with 2 - i/2 meets the hypotheses of the first two theorems. *)
Example C167_nonvacuous : layered damped 11 4 4 (-16) 1 1 /\ with_layers_sign damped.
Proof. split; [exact amp_layered | intros i j k _; cbn; lra]. Qed.
