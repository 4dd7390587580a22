(** C171: which modes ModeSolver.solve looks for, and whether the interval search may be used. *)
From Coq Require Import Reals List Arith ZArith Lra Lia Bool Permutation Sorted.
From Verif Require Import Cx Arr Model_coupling Model_yee Spec_yee Model_fdfd Spec_fdfd Model_mode Spec_mode Spec_orth Model_parse Spec_parse Model_feast Spec_feast
  Proof_feast Proof_feast2.
Import ListNotations.
Local Open Scope R_scope.

(** By default the search is centred on a value no eigenvalue exceeds: nearer means a larger propagation constant. *)
Theorem C171_default_1d : forall q emax g, 0 <= emax -> eps_below q emax -> g = NoGuess \/ g = FloatGuess 0 ->
  exists sigma, mode_search (q_k0 q) emax g = Some (NearSigma sigma) /\
  forall lam1 v1 lam2 v2, eigen1 q lam1 v1 -> nonzero (q_n q) v1 -> eigen1 q lam2 v2 -> nonzero (q_n q) v2 ->
    (Cabs (lam1 - RtoC sigma)%C <= Cabs (lam2 - RtoC sigma)%C <-> re lam2 <= re lam1).
Proof. exact default_1d. Qed.
Print Assumptions C171_default_1d.
Theorem C171_default_2d : forall q emax g, q_k0 q <> 0 -> pos_eps q -> 0 <= emax -> eps_below q emax -> g = NoGuess \/ g = FloatGuess 0 ->
  exists sigma, mode_search (q_k0 q) emax g = Some (NearSigma sigma) /\
  forall b1 x1 y1 b2 x2 y2, 0 < b1 -> 0 < b2 -> eigen2 q (RtoC (b1 * b1)) x1 y1 -> nonzero (q_n q) x1 \/ nonzero (q_n q) y1 ->
    eigen2 q (RtoC (b2 * b2)) x2 y2 -> nonzero (q_n q) x2 \/ nonzero (q_n q) y2 ->
    (Rabs (b1 * b1 - sigma) <= Rabs (b2 * b2 - sigma) <-> b2 <= b1).
Proof. exact default_2d. Qed.
Print Assumptions C171_default_2d.
(** Around a given propagation constant. *)
Theorem C171_near : forall k0 emax b, b <> 0 -> exists sigma, mode_search k0 emax (FloatGuess b) = Some (NearSigma sigma) /\
  forall beta, 0 <= beta -> (beta * beta = sigma <-> beta = Rabs b).
Proof. exact near_guess. Qed.
Print Assumptions C171_near.
(** An interval of propagation constants: the eigenvalues looked for are those of the modes in it ... *)
Theorem C171_range_partial : forall k0 emax lo hi, 0 <= lo <= hi -> exists a b, mode_search k0 emax (TupleGuess lo hi) = Some (InRange a b) /\
  forall beta, 0 <= beta -> (a <= beta * beta <= b <-> lo <= beta <= hi).
Proof. exact range_exact. Qed.
Print Assumptions C171_range_partial.
(** ... unless it starts below 0: then nothing is found, although it contains positive propagation constants. *)
Theorem C171_negative_refuted : forall k0 emax lo hi, lo < - hi -> 0 < hi -> exists a b, mode_search k0 emax (TupleGuess lo hi) = Some (InRange a b) /\
  (exists beta, lo <= beta <= hi /\ 0 < beta) /\ forall lam, ~ (a <= lam <= b).
Proof. exact range_negative. Qed.
Print Assumptions C171_negative_refuted.
(** What is reported: the pairs found, by decreasing propagation constant, if the eigensolver leaves nothing positive behind them; *)
Theorem C171_reported_partial : forall V lo hi (found rest : list (C * V)), 0 < lo <= hi ->
  Forall (fun p => lo * lo <= re (fst p) <= hi * hi) found -> Forall (fun p => re (fst p) <= 0) rest ->
  exists s, interval_modes found rest = Some (map (fun p => sqrt (re (fst p))) s, map snd s) /\ Permutation s found /\ Sorted desc s /\
    Forall (fun b => lo <= b <= hi) (map (fun p => sqrt (re (fst p))) s).
Proof. exact interval_ok. Qed.
Print Assumptions C171_reported_partial.
(** the number of pairs found is ignored: a value left in the unused places is reported as a mode. *)
Theorem C171_count_refuted : forall V (v : V) lo hi (found : list (C * V)), 0 < lo <= hi ->
  Forall (fun p => lo * lo <= re (fst p) <= hi * hi) found ->
  exists rest bs ms b, interval_modes found rest = Some (bs, ms) /\ In b bs /\ ~ (lo <= b <= hi) /\ length ms = S (length found).
Proof. exact interval_leak. Qed.
Print Assumptions C171_count_refuted.
(** The interval search calls an eigensolver for Hermitian matrices.  1-d: the operator is one, whatever the permittivity. *)
Theorem C171_hermitian_1d : forall q, hermitian (q_n q) (wg_matrix_1d q).
Proof. exact herm1. Qed.
Print Assumptions C171_hermitian_1d.
(** 2-d: exactly when the averaged permittivities at the positions of e_x and of e_y are one constant; *)
Theorem C171_hermitian_2d : forall q, cross_section q -> q_h q AX <> 0 -> q_h q AY <> 0 -> pos_eps q ->
  (hermitian2 (q_n q) (wg_matrix q) <->
   exists e, forall i j, (i < q_shape q AX)%nat -> (j < q_shape q AY)%nat -> q_eps_t q AX i j 0%nat = e /\ q_eps_t q AY i j 0%nat = e).
Proof. exact herm2. Qed.
Print Assumptions C171_hermitian_2d.
(** so not for a waveguide. *)
Theorem C171_waveguide_refuted : exists q, cross_section q /\ q_h q AX <> 0 /\ q_h q AY <> 0 /\ pos_eps q /\ ~ hermitian2 (q_n q) (wg_matrix q).
Proof. exists strip. split; [exact strip_cross |]. split; [cbn; lra |]. split; [cbn; lra |]. split; [exact strip_pos | exact strip_not]. Qed.
Print Assumptions C171_waveguide_refuted.
(** Rejected: a guess that is neither None, a float nor a tuple; a matrix of another type, or not square; otherwise the routine
    for the element type of the matrix is called. *)
Theorem C171_rejected : (forall k0 emax g, mode_search k0 emax g = None <-> g = OtherGuess) /\
  (forall d r c, feast_call d r c <> None <-> d <> OtherType /\ r = c) /\
  (forall d n r, feast_call d n n = Some r -> dtype_kind d = Some (routine_kind r)).
Proof. split; [exact int_guess | split; [exact feast_accepts | exact feast_kind]]. Qed.
Print Assumptions C171_rejected.

(** Instances: a uniform cross section meets the hypotheses of the 2-d theorems and is Hermitian. *)
Example C171_nonvacuous : let q := mkQ (fun a => match a with AZ => 1%nat | _ => 3%nat end) (fun _ => 1) 1 (fun _ _ _ => 2) in
  cross_section q /\ pos_eps q /\ eps_below q 2 /\ hermitian2 (q_n q) (wg_matrix q).
Proof.
  cbv zeta. set (q := mkQ _ _ _ _). assert (C : cross_section q) by (repeat split; cbn; lia). assert (P : pos_eps q) by (intros i j k _; cbn; lra).
  split; [exact C |]. split; [exact P |]. split; [intros i j k _; cbn; lra |]. apply (herm2 q C); [cbn; lra | cbn; lra | exact P |].
  exists 2. intros i j _ _. unfold q_eps_t, yee_avg, avg_axis, ralong. cbn. lra.
Qed.
Example C171_nonvacuous_found : 0 < 1 <= 2 /\ Forall (fun p : C * nat => 1 * 1 <= re (fst p) <= 2 * 2) [(RtoC 2, 0%nat); (RtoC 3, 1%nat)] /\
  Forall (fun p : C * nat => re (fst p) <= 0) [(C0, 2%nat)].
Proof. split; [lra |]. split; repeat constructor; cbn; lra. Qed.
