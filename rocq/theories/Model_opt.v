(** Model of simphox/opt.py: OptProblem, opt_run, opt_viz.  No proofs in this file.
    Abstract (parameters of the section): the optimiser (jax.example_libraries.optimizers.adam and the automatic gradient), the
    parameters, the simulation results, permittivities, metrics and fields.  Simulation objects are a heap [nat -> E] of their [eps];
    names, metrics and simulation objects are numbers.  An exception is [None].
    Simplifications: progress bar and plotting pipes have no effect (their data are not modelled); permittivities of all simulations
    have the same 2-D shape; a list of problems is given (opt.py:157 wraps a single one). *)
From Coq Require Import Reals List ZArith Bool.
From Verif Require Import Arr Model_forward.
Import ListNotations.

Section opt.
Variables (P S F E A M D : Type).
(** P: params rho.  S: optimiser state.  F: what op.fn returns.  E: eps.  A: aux of a cost function.  M: metric value.  D: field data. *)

(** opt.py:62-70 OptProblem.  [pb_sim]: the sim object and its name, [None] if sim is None; [pb_source]: source is not None.
    [pb_fn] is get_sim_sparams_fn(source, transform_fn) (opt.py:69-70).  The cost function is applied to what [pb_fn] returns
    (inr) or to rho itself (inl), opt.py:173.  [pb_metrics]: metrics_fn, a dictionary by metric name, of the decorated aux;
    [pb_field]: hz of the decorated aux (opt.py:199-200). *)
Record problem := mkProblem {
  pb_sim : option (nat * nat); pb_source : bool; pb_transform : P -> E; pb_fn : P -> F; pb_cost : P + F -> R * A;
  pb_metrics : option (A -> list (nat * M)); pb_field : A -> D }.
(** opt.py:72-96 OptViz: the names in simulations_pipes, and metric_config (the metrics of each title). *)
Record viz := mkViz { vz_names : list nat; vz_config : list (list nat) }.
(** opt.py:99-120 OptRecord, and the simulations afterwards. *)
Record record := mkRecord {
  r_costs : list R; r_params : P; r_metrics : nat -> nat -> list M; r_eps : nat -> list (nat * E); r_fields : nat -> list (nat * D);
  r_sims : nat -> E }.

Variables (opt_init : P -> S) (opt_update : nat -> P -> S -> S) (get_params : S -> P).
(** [opt_update i p s]: Adam's update number i with the gradient of the overall cost at p. *)

(** opt.py:161 *)
Definition is_sim (op : problem) : bool := match pb_sim op with Some _ => pb_source op | None => false end.
(** opt.py:171 and 174, one problem *)
Definition eval_problem (op : problem) (rho : P) : R * A := if is_sim op then pb_cost op (inr (pb_fn op rho)) else pb_cost op (inl rho).
(** opt.py:173-175 overall_cost_fn *)
Definition overall_cost (ops : list problem) (rho : P) : R * list A :=
  let evals := map (fun op => eval_problem op rho) ops in
  ((fold_right Rplus 0 (map fst evals) / INR (length ops))%R, map snd evals).

(** opt.py:183-186 _update_eps: raises on a problem without a sim. *)
Fixpoint update_eps (ops : list problem) (rho : P) (sims : nat -> E) : option (nat -> E) :=
  match ops with
  | [] => Some sims
  | op :: r => match pb_sim op with Some (s, _) => update_eps r rho (upd sims s (pb_transform op rho)) | None => None end
  end.

(** The loop's state: opt_state, costs, history (per metric and name; per name), the simulations. *)
Record state := mkState { st_opt : S; st_costs : list R; st_m : nat -> nat -> list M; st_e : nat -> list (nat * E); st_f : nat -> list (nat * D);
  st_sims : nat -> E }.
Definition every (interval i : nat) : bool := (Nat.ltb 0 interval && Nat.eqb (Nat.modulo i interval) 0)%bool.
Definition upd2 (h : nat -> nat -> list M) (m n : nat) (x : M) : nat -> nat -> list M :=
  fun m' n' => if (Nat.eqb m' m && Nat.eqb n' n)%bool then h m' n' ++ [x] else h m' n'.

(** opt.py:207-224: append the metrics, then build an xarray for every title (all series must have i + 1 entries). *)
Definition title_ok (h : nat -> nat -> list M) (n len : nat) (ms : list nat) : bool :=
  (negb (Nat.eqb (length ms) 0) && forallb (fun m => Nat.eqb (length (h m n)) len) ms)%bool.
Definition record_metrics (vz : option viz) (interval i n : nat) (op : problem) (a : A) (h : nat -> nat -> list M) : option (nat -> nat -> list M) :=
  match vz with
  | Some v => if every interval i then
      match pb_metrics op with
      | None => None
      | Some f => let h' := fold_left (fun h x => upd2 h (fst x) n (snd x)) (f a) h in
                  if forallb (title_ok h' n (i + 1)) (vz_config v) then Some h' else None
      end else Some h
  | None => Some h
  end.
(** opt.py:197-228: one simulation problem and its aux. *)
Definition record_one (vz : option viz) (mi ei fi i : nat) (op : problem) (a : A) (st : state) : option state :=
  match pb_sim op with
  | None => None
  | Some (s, n) =>
      obind (record_metrics vz mi i n op a (st_m st)) (fun m =>
      Some (mkState (st_opt st) (st_costs st) m
        (if every ei i then upd (st_e st) n (st_e st n ++ [(i, st_sims st s)]) else st_e st)
        (if every fi i then upd (st_f st) n (st_f st n ++ [(i, pb_field op a)]) else st_f st) (st_sims st)))
  end.
Fixpoint record_all (vz : option viz) (mi ei fi i : nat) (l : list (problem * A)) (st : state) : option state :=
  match l with [] => Some st | (op, a) :: r => obind (record_one vz mi ei fi i op a st) (record_all vz mi ei fi i r) end.
(** opt.py:194-232, one iteration; [pbar]: a progress bar is given (a range has no set_description, opt.py:229). *)
Definition iteration (ops : list problem) (pbar : bool) (vz : option viz) (mi ei fi i : nat) (st : state) : option state :=
  let rho := get_params (st_opt st) in
  let '(v, data) := overall_cost ops rho in
  let os := opt_update i rho (st_opt st) in
  obind (update_eps ops (get_params os) (st_sims st)) (fun sims =>
  obind (record_all vz mi ei fi i (combine (filter is_sim ops) data) (mkState os (st_costs st) (st_m st) (st_e st) (st_f st) sims)) (fun st' =>
  if pbar then Some (mkState (st_opt st') (st_costs st' ++ [v]) (st_m st') (st_e st') (st_f st') (st_sims st')) else None)).
Fixpoint iterations (ops : list problem) (pbar : bool) (vz : option viz) (mi ei fi i k : nat) (st : state) : option state :=
  match k with 0%nat => Some st | Datatypes.S k' => obind (iteration ops pbar vz mi ei fi i st) (iterations ops pbar vz mi ei fi (i + 1) k') end.

(** opt.py:236-246: the final metrics array (every series has num_iters entries, at least one metric). *)
Definition final_metrics_ok (sops : list problem) (cfg : list (list nat)) (mi n_iters : nat) (h : nat -> nat -> list M) : bool :=
  if (Nat.eqb (length sops) 0 || Nat.eqb mi 0)%bool then true
  else (negb (Nat.eqb (length (concat cfg)) 0) &&
        forallb (fun op => match pb_sim op with
                           | Some (_, n) => forallb (fun m => Nat.eqb (length (h m n)) n_iters) (concat cfg)
                           | None => false end) sops)%bool.
(** opt.py:247-271: a non-empty history is needed to make a 4-dimensional array. *)
Definition final_hist_ok (B : Type) (sops : list problem) (interval : nat) (h : nat -> list (nat * B)) : bool :=
  if (Nat.eqb (length sops) 0 || Nat.eqb interval 0)%bool then true
  else forallb (fun op => match pb_sim op with Some (_, n) => negb (Nat.eqb (length (h n)) 0) | None => false end) sops.

(** opt.py:123-272 opt_run *)
Definition opt_run (ops : list problem) (init : P) (n_iters : nat) (pbar : bool) (mi ei fi : nat) (vz : option viz) (sims0 : nat -> E) : option record :=
  let sops := filter is_sim ops in
  let viz_ok := match vz with Some v => Nat.eqb (length (vz_names v)) (length sops) | None => true end in
  if viz_ok then
    obind (iterations ops pbar vz mi ei fi 0 n_iters (mkState (opt_init init) [] (fun _ _ => []) (fun _ => []) (fun _ => []) sims0)) (fun st =>
    obind (update_eps ops (get_params (st_opt st)) (st_sims st)) (fun sims =>
    match vz with
    | None => None                                  (* viz.metric_config, opt.py:235 *)
    | Some v =>
        if (final_metrics_ok sops (vz_config v) mi n_iters (st_m st) && final_hist_ok E sops ei (st_e st) && final_hist_ok D sops fi (st_f st))%bool
        then Some (mkRecord (st_costs st) (get_params (st_opt st)) (st_m st) (st_e st) (st_f st) sims) else None
    end))
  else None.

(** opt.py:275-298 opt_viz: dictionaries keyed by the simulations' names. *)
Definition opt_viz (ops : list problem) (config : list (list nat)) : viz :=
  mkViz (nodup Nat.eq_dec (concat (map (fun op => match pb_sim op with Some (_, n) => if pb_source op then [n] else [] | None => [] end) ops))) config.
End opt.
