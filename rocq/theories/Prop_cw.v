(** C99-C102: continuous-wave FDTD runs and source descriptions. *)
From Coq Require Import Reals List Arith ZArith Bool Lra Lia.
From Verif Require Import Cx Arr Model_yee Model_fdtd Model_cw Spec_cw Proof_cw Proof_cw2.
Import ListNotations.
Local Open Scope R_scope.

(** C99, full statement: running a steps and resuming from the returned state for b more steps is running a + b steps.
    True when the first part is a whole number of periods; the source phase restarts at zero on resumption. *)
Theorem C99_resume_partial : forall (A : Type) g jax md (measure : R -> fstate -> A) src wl a b st fl1 st1 fl2 st2, wl <> 0 ->
  (exists k, INR a * dt_of g = IZR k * wl) ->
  run_cw_port g jax md measure src wl a st = Some (fl1, st1) -> run_cw_port g jax md measure src wl b st1 = Some (fl2, st2) ->
  run_cw_port g jax md measure src wl (a + b) st = Some (fl1 ++ tl fl2, st2).
Proof. exact resume_ok. Qed.
Print Assumptions C99_resume_partial.
(** One cell, one port: unless one step is a whole number of periods, 1 + 1 steps differ from 2 steps. *)
Theorem C99_resume_refuted : forall (A : Type) (measure : R -> fstate -> A) wl, cis (2 * PI / wl) <> C1 ->
  exists fl1 st1 fl2 st2 fl st, run_cw_port one_cell false one_mode measure (SName 0) wl 1 zero_state = Some (fl1, st1) /\
   run_cw_port one_cell false one_mode measure (SName 0) wl 1 st1 = Some (fl2, st2) /\
   run_cw_port one_cell false one_mode measure (SName 0) wl 2 zero_state = Some (fl, st) /\
   f_e st AX 0%nat 0%nat 0%nat <> f_e st2 AX 0%nat 0%nat 0%nat.
Proof. exact resume_bad. Qed.
Print Assumptions C99_resume_refuted.
(** Whole periods exist (wavelength 1, step 1), and so do fractions of one (wavelength 2). *)
Example C99_nonvacuous : dt_of one_cell = 1 /\ INR 3 * dt_of one_cell = IZR 3 * 1 /\ cis (2 * PI / 2) <> C1.
Proof.
  split; [apply one_dt |]. split; [rewrite one_dt; cbn; lra |]. replace (2 * PI / 2) with PI by field.
  intros E. apply (f_equal re) in E. cbn in E. rewrite cos_PI in E. lra.
Qed.

(** C100, full statement: the weights of a source dictionary scale the excitation.  The run depends on the ports only. *)
Theorem C100_weights_ignored : forall (A : Type) g jax md (measure : R -> fstate -> A) v v' d d' wl n st,
  parse_source_port v = Some d -> parse_source_port v' = Some d' -> map fst d = map fst d' ->
  run_cw_port g jax md measure v wl n st = run_cw_port g jax md measure v' wl n st.
Proof. exact weights_ignored. Qed.
Print Assumptions C100_weights_ignored.
Theorem C100_weights_refuted : forall (A : Type) (measure : R -> fstate -> A) wl w, w <> 1 ->
  exists fl st fl' st', run_cw_port one_cell false one_mode measure (SDict [(KStr 0, 1)]) wl 1 zero_state = Some (fl, st) /\
   run_cw_port one_cell false one_mode measure (SDict [(KStr 0, w)]) wl 1 zero_state = Some (fl', st') /\
   f_e st' AX 0%nat 0%nat 0%nat <> (RtoC w * f_e st AX 0%nat 0%nat 0%nat)%C.
Proof. exact weights_bad. Qed.
Print Assumptions C100_weights_refuted.
Example C100_nonvacuous : parse_source_port (SDict [(KStr 0, 1); (KTup (1%nat, 2%Z), 3)]) = Some [((0%nat, 0%Z), 1); ((1%nat, 2%Z), 3)] /\
  parse_source_port (SDict [(KStr 0, 5); (KTup (1%nat, 2%Z), 7)]) = Some [((0%nat, 0%Z), 5); ((1%nat, 2%Z), 7)].
Proof. split; reflexivity. Qed.

(** C101, full statement: fluxes are measured against the port modes at the wavelength of the run.  They are always measured at the
    default wavelength 1.55: two measurements that agree there give the same run at any wavelength. *)
Theorem C101_measured_at_default : forall (A : Type) g jax md (measure measure' : R -> fstate -> A) v wl n st,
  (forall s, measure (155 / 100) s = measure' (155 / 100) s) ->
  run_cw_port g jax md measure v wl n st = run_cw_port g jax md measure' v wl n st.
Proof. exact measured_at_default. Qed.
Print Assumptions C101_measured_at_default.
(** The first flux of a run at a wavelength where the measurement differs from the one at 1.55 is wrong. *)
Theorem C101_wavelength_refuted : forall (A : Type) g jax md (measure : R -> fstate -> A) p wl n st,
  measure wl st <> measure (155 / 100) st ->
  exists f fl fin, run_cw_port g jax md measure (SName p) wl n st = Some (f :: fl, fin) /\ f <> measure wl st.
Proof. exact first_flux_wrong. Qed.
Print Assumptions C101_wavelength_refuted.
(** At 1.55 itself every flux is the measurement at the run's wavelength of the fields of its step. *)
Theorem C101_default_partial : forall (A : Type) g md (measure : R -> fstate -> A) v n st fl fin,
  run_cw_port g true md measure v (155 / 100) n st = Some (fl, fin) ->
  exists d, parse_source_port v = Some d /\ let keys := map fst d in fl = measure (155 / 100) st :: map (fun t =>
     let s := run g true st (map (driven g md keys (155 / 100)) (seq 0 t)) in
     let s' := run g true st (map (driven g md keys (155 / 100)) (seq 0 (S t))) in
     measure (155 / 100) (mkState (f_e s') (fun c i j k => ((f_h s c i j k + f_h s' c i j k) / RtoC 2)%C))) (seq 0 n) /\
   fin = run g true st (map (driven g md keys (155 / 100)) (seq 0 n)).
Proof. exact flux_history. Qed.
Print Assumptions C101_default_partial.
(** The fields themselves are driven at the run's wavelength by the E and H profiles of that wavelength, with both backends. *)
Theorem C101_fields : forall (A : Type) g jax md (measure : R -> fstate -> A) v wl n st fl fin,
  run_cw_port g jax md measure v wl n st = Some (fl, fin) ->
  exists d, parse_source_port v = Some d /\ fin = run g jax st (map (driven g md (map fst d) wl) (seq 0 n)).
Proof. exact final_state. Qed.
Print Assumptions C101_fields.
Example C101_nonvacuous : let measure := fun wl (_ : fstate) => wl in measure 1 zero_state <> measure (155 / 100) zero_state.
Proof. cbn. lra. Qed.

(** C102, full statement: every documented source format is turned into the table of the (port, mode) pairs it asks for with their
    weights.  All formats but a list of a single bare name. *)
Theorem C102_parse_partial : forall v, documented v -> (forall p, v <> SSeq [SName p]) ->
  exists d, parse_source_port v = Some d /\ NoDup (map fst d) /\ forall k w, In (k, w) d <-> asks v k w.
Proof. exact parse_documented. Qed.
Print Assumptions C102_parse_partial.
Theorem C102_single_name_refuted : forall p, documented (SSeq [SName p]) /\ asks (SSeq [SName p]) (p, 0%Z) 1 /\ parse_source_port (SSeq [SName p]) = None.
Proof. exact single_name_raises. Qed.
Print Assumptions C102_single_name_refuted.
(** A run with any of the other formats returns, with one flux per step plus the initial one. *)
Theorem C102_run_returns : forall (A : Type) g jax md (measure : R -> fstate -> A) src wl n st, documented src -> (forall p, src <> SSeq [SName p]) ->
  exists fl fin, run_cw_port g jax md measure src wl n st = Some (fl, fin) /\ length fl = S n.
Proof. exact run_returns. Qed.
Print Assumptions C102_run_returns.
Example C102_nonvacuous : documented (SSeq [SName 3; SSeq [SName 4; SInt 1]]) /\
  parse_source_port (SSeq [SName 3; SSeq [SName 4; SInt 1]; SName 3]) = Some [((3%nat, 0%Z), 1); ((4%nat, 1%Z), 1)].
Proof. split; [right; split; [discriminate | intros x [<- | [<- | []]]; exact I] | reflexivity]. Qed.
