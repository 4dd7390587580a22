(** C86 - C90: the optimisation loop. *)
From Coq Require Import Reals Lra Lia List ZArith Bool Arith.
From Verif Require Import Arr Model_forward Model_opt Spec_opt Proof_opt Proof_opt2.
Import ListNotations.

Section opt.
(** Any optimiser, parameters, simulation results, permittivities, cost data, metrics and fields. *)
Variables (P S F E A M D : Type) (opt_init : P -> S) (opt_update : nat -> P -> S -> S) (get_params : S -> P).
Notation opt_run := (opt_run P S F E A M D opt_init opt_update get_params).
Notation opt_viz := (opt_viz P F E A M D).
Notation pb_sim := (pb_sim P F E A M D).
Notation pb_source := (pb_source P F E A M D).
Notation pb_transform := (pb_transform P F E A M D).
Notation pb_field := (pb_field P F E A M D).
Notation pb_metrics := (pb_metrics P F E A M D).
Notation pb_cost := (pb_cost P F E A M D).
Notation pb_fn := (pb_fn P F E A M D).
Notation has_source := (has_source P F E A M D).
Notation nameof := (nameof P F E A M D).
Notation idof := (idof P F E A M D).
Notation r_costs := (r_costs P E M D).
Notation r_params := (r_params P E M D).
Notation r_eps := (r_eps P E M D).
Notation r_fields := (r_fields P E M D).
Notation r_metrics := (r_metrics P E M D).
Notation r_sims := (r_sims P E M D).

(** C86.  With the defaults pbar=None or viz=None nothing is returned ... *)
Theorem C86_viz_required_refuted : forall ops init n pbar mi ei fi sims0, opt_run ops init n pbar mi ei fi None sims0 = None.
Proof. exact (needs_viz P S F E A M D opt_init opt_update get_params). Qed.
Theorem C86_pbar_required_refuted : forall ops init n mi ei fi vz sims0, (0 < n)%nat -> opt_run ops init n false mi ei fi vz sims0 = None.
Proof. exact (needs_pbar P S F E A M D opt_init opt_update get_params). Qed.
(** ... and with both a run returns, for distinct simulations with sources and metrics off or recorded in every iteration. *)
Theorem C86_returns_partial : forall ops init config n mi ei fi sims0,
  (forall op, In op ops -> has_source op) -> distinct_by nameof ops -> distinct_by idof ops ->
  (mi = 0%nat \/ mi = 1%nat /\ config <> [] /\ (forall ms, In ms config -> ms <> []) /\
    forall op, In op ops -> exists f, pb_metrics op = Some f /\ forall a m, In m (concat config) -> exists x, dict_has (f a) m x) ->
  ((0 < n)%nat \/ (ei = 0%nat /\ fi = 0%nat)) ->
  exists r, opt_run ops init n true mi ei fi (Some (opt_viz ops config)) sims0 = Some r.
Proof. exact (run_returns P S F E A M D opt_init opt_update get_params). Qed.

(** C87.  One cost per iteration, the mean of the problems' costs at the parameters before that iteration's update; the
    parameters returned are those after the last update; every simulation is left with the permittivity of those parameters. *)
Theorem C87_costs_and_params : forall ops init n pbar mi ei fi vz sims0 r, opt_run ops init n pbar mi ei fi vz sims0 = Some r ->
  let rho := fun k => get_params (opt_states (opt_init init) opt_update get_params k) in
  length (r_costs r) = n /\ r_params r = rho n /\
  (forall k, (k < n)%nat -> nth k (r_costs r) 0%R =
    (fold_right Rplus 0 (map (fun op => fst (pb_cost op (if pb_source op then inr (pb_fn op (rho k)) else inl (rho k)))) ops) / INR (length ops))%R) /\
  (forall i op s nm, nth_error ops i = Some op -> pb_sim op = Some (s, nm) ->
    (forall j op', (i < j)%nat -> nth_error ops j = Some op' -> idof op' <> Some s) -> r_sims r s = pb_transform op (r_params r)).
Proof. exact (run_costs P S F E A M D opt_init opt_update get_params). Qed.

(** C88.  The recorded iterations are the multiples of the interval; fields and metrics are those of the parameters of that
    iteration, the permittivity is that of the next. *)
Theorem C88_histories_partial : forall ops init n pbar mi ei fi vz sims0 r,
  (forall op, In op ops -> has_source op) -> distinct_by nameof ops -> distinct_by idof ops ->
  opt_run ops init n pbar mi ei fi vz sims0 = Some r -> forall op s nm, In op ops -> pb_sim op = Some (s, nm) ->
    let rho := fun k => get_params (opt_states (opt_init init) opt_update get_params k) in
    let aux := fun k => snd (pb_cost op (inr (pb_fn op (rho k)))) in
    ((0 < ei)%nat -> r_eps r nm = map (fun j => (j, pb_transform op (rho (j + 1)%nat))) (ticks ei n)) /\
    ((0 < fi)%nat -> r_fields r nm = map (fun j => (j, pb_field op (aux j))) (ticks fi n)) /\
    (forall f m val, (0 < mi)%nat -> pb_metrics op = Some f -> (forall j, dict_has (f (aux j)) m (val j)) ->
       r_metrics r m nm = map val (ticks mi n)).
Proof. exact (run_histories P S F E A M D opt_init opt_update get_params). Qed.

(** C89.  A metric interval of two or more never works. *)
Theorem C89_interval_refuted : forall ops init n pbar mi ei fi vz sims0, ops <> [] ->
  (forall op, In op ops -> has_source op) -> distinct_by nameof ops -> distinct_by idof ops ->
  (forall op f a, In op ops -> pb_metrics op = Some f -> NoDup (map fst (f a))) -> (2 <= mi)%nat -> (2 <= n)%nat ->
  opt_run ops init n pbar mi ei fi vz sims0 = None.
Proof. exact (interval_raises P S F E A M D opt_init opt_update get_params). Qed.

(** C90.  A problem without a simulation always raises; so do two problems whose simulations share a name. *)
Theorem C90_no_sim_refuted : forall ops init n pbar mi ei fi vz sims0 op, In op ops -> pb_sim op = None ->
  opt_run ops init n pbar mi ei fi vz sims0 = None.
Proof. exact (needs_sim P S F E A M D opt_init opt_update get_params). Qed.
Theorem C90_shared_name_refuted : forall ops init config n pbar mi ei fi sims0 i j op op' s s' nm,
  (forall op, In op ops -> has_source op) -> nth_error ops i = Some op -> nth_error ops j = Some op' -> i <> j ->
  pb_sim op = Some (s, nm) -> pb_sim op' = Some (s', nm) ->
  opt_run ops init n pbar mi ei fi (Some (opt_viz ops config)) sims0 = None.
Proof. exact (shared_name_raises P S F E A M D opt_init opt_update get_params). Qed.
End opt.
Print Assumptions C86_viz_required_refuted.
Print Assumptions C86_pbar_required_refuted.
Print Assumptions C86_returns_partial.
Print Assumptions C87_costs_and_params.
Print Assumptions C88_histories_partial.
Print Assumptions C89_interval_refuted.
Print Assumptions C90_no_sim_refuted.
Print Assumptions C90_shared_name_refuted.

(** The record labelled iteration 0 pairs the field of the parameters 5 with the permittivity of the parameters 6. *)
Theorem C88_eps_ahead_refuted : let op := mkProblem nat nat nat nat nat nat (Some (0%nat, 0%nat)) true (fun x => x) (fun x => x)
    (fun x => (0%R, match x with inl y => y | inr y => y end)) None (fun a => a) in
  exists r, opt_run nat nat nat nat nat nat nat (fun x => x) (fun _ _ s => s + 1)%nat (fun s => s) [op] 5%nat 2 true 0 1 1
    (Some (opt_viz nat nat nat nat nat nat [op] [])) (fun _ => 0%nat) = Some r /\
    r_eps nat nat nat nat r 0%nat = [(0%nat, 6%nat); (1%nat, 7%nat)] /\ r_fields nat nat nat nat r 0%nat = [(0%nat, 5%nat); (1%nat, 6%nat)].
Proof. exact eps_ahead. Qed.
Print Assumptions C88_eps_ahead_refuted.
(** A problem without a source in front of one with a source: the field recorded for the second (8) is the first one's (7). *)
Theorem C90_no_source_refuted : let ops := [noop_problem 0 0 false 7; noop_problem 1 1 true 8] in
  exists r, opt_run nat nat nat nat nat nat nat (fun x => x) (fun _ _ s => s) (fun s => s) ops 0%nat 1 true 0 0 1
    (Some (opt_viz nat nat nat nat nat nat ops [])) (fun _ => 0%nat) = Some r /\ r_fields nat nat nat nat r 1%nat = [(0%nat, 7%nat)].
Proof. exact shifted. Qed.
Print Assumptions C90_no_source_refuted.

(** Instance for C86 - C89: two problems, one metric, three iterations. *)
Definition demo (s n : nat) : problem nat nat nat nat nat nat :=
  mkProblem nat nat nat nat nat nat (Some (s, n)) true (fun x => (10 * s + x)%nat) (fun x => x)
    (fun x => (INR (match x with inl y => y | inr y => y end), match x with inl y => y | inr y => y end)) (Some (fun a => [(4%nat, (a + s)%nat)])) (fun a => a).
Example C86_nonvacuous : let ops := [demo 0 0; demo 1 1] in
  (forall op, In op ops -> has_source _ _ _ _ _ _ op) /\ distinct_by (nameof _ _ _ _ _ _) ops /\ distinct_by (idof _ _ _ _ _ _) ops /\
  (forall op, In op ops -> exists f, pb_metrics _ _ _ _ _ _ op = Some f /\ forall a m, In m (concat [[4%nat]]) -> exists x, dict_has (f a) m x) /\
  exists r, opt_run nat nat nat nat nat nat nat (fun x => x) (fun _ _ s => s + 1)%nat (fun s => s) ops 5%nat 3 true 1 2 0
    (Some (opt_viz nat nat nat nat nat nat ops [[4%nat]])) (fun _ => 0%nat) = Some r /\
    r_eps nat nat nat nat r 1%nat = [(0%nat, 16%nat); (2%nat, 18%nat)] /\ r_metrics nat nat nat nat r 4%nat 1%nat = [6%nat; 7%nat; 8%nat] /\
    r_params nat nat nat nat r = 8%nat /\ r_sims nat nat nat nat r 1%nat = 18%nat.
Proof.
  cbv zeta. split; [| split; [| split; [| split]]].
  - intros op [<- | [<- | []]]; split; cbn; congruence.
  - intros i j x y v Hi Hj Hx Hy.
    destruct i as [| [| [| i]]]; try discriminate; destruct j as [| [| [| j]]]; try discriminate; try reflexivity;
      injection Hi as <-; injection Hj as <-; cbn in Hx, Hy; congruence.
  - intros i j x y v Hi Hj Hx Hy.
    destruct i as [| [| [| i]]]; try discriminate; destruct j as [| [| [| j]]]; try discriminate; try reflexivity;
      injection Hi as <-; injection Hj as <-; cbn in Hx, Hy; congruence.
  - intros op [<- | [<- | []]]; eexists; (split; [reflexivity |]); intros a m [<- | []]; eexists; (split; [cbn; constructor; [intros [] | constructor] | left; reflexivity]).
  - eexists. split; [lazy -[Rplus Rdiv INR]; reflexivity |]. repeat split; lazy; reflexivity.
Qed.
