(** Model of parse_source_port (simphox/parse.py) and FDTD.run_cw_port (simphox/fdtd.py).  No proofs in this file.
    Simplifications: port names are numbers; a Python dict is the list of its items in insertion order with distinct keys;
    pml=None; the mode profiles, their slices and the measure function are parameters that depend on the wavelength they are
    computed for; visualisation and progress bar are dropped. *)
From Coq Require Import Reals List Arith ZArith Bool.
From Verif Require Import Cx Arr Model_yee Model_fdtd.
Import ListNotations.
Local Open Scope R_scope.

(** ** parse.py:24-41.  Source formats: a name, an int, a list or tuple, a dict from names or pairs to weights. *)
Definition port_mode := (nat * Z)%type.
Inductive dict_key := KStr (p : nat) | KTup (k : port_mode).
Inductive srcv := SName (p : nat) | SInt (z : Z) | SSeq (l : list srcv) | SDict (d : list (dict_key * R)).
Definition pm_eqb (a b : port_mode) : bool := (Nat.eqb (fst a) (fst b) && Z.eqb (snd a) (snd b))%bool.
(** d[k] = w: an existing key keeps its position. *)
Fixpoint dict_set (d : list (port_mode * R)) (k : port_mode) (w : R) : list (port_mode * R) :=
  match d with
  | [] => [(k, w)]
  | (k', w') :: r => if pm_eqb k' k then (k', w) :: r else (k', w') :: dict_set r k w
  end.
Definition dict_update (d e : list (port_mode * R)) : list (port_mode * R) := fold_left (fun a kw => dict_set a (fst kw) (snd kw)) e d.
Definition key_of (k : dict_key) : port_mode := match k with KStr p => (p, 0%Z) | KTup q => q end.
(** None is any exception: IndexError for an empty list or a list of one bare name, AttributeError for an element that is an int
    ([None.items()]) and, at the use site, for an int ([None.keys()]). *)
Fixpoint parse_source_port (v : srcv) : option (list (port_mode * R)) :=
  match v with
  | SName p => Some [((p, 0%Z), 1)]
  | SInt _ => None
  | SSeq l =>
      let merge := (fix merge (l : list srcv) (acc : list (port_mode * R)) : option (list (port_mode * R)) :=
        match l with
        | [] => Some acc
        | x :: r => match parse_source_port x with Some d => merge r (dict_update acc d) | None => None end
        end) in
      match l with
      | [] => None
      | [SName _] => None
      | [SName p; SInt m] => Some [((p, m), 1)]
      | _ => merge l []
      end
  | SDict d => Some (dict_update [] (map (fun kw => (key_of (fst kw), snd kw)) d))
  end.

(** ** fdtd.py:231-285 run_cw_port. *)
Record modes := mkModes { md_e : port_mode -> R -> vfld; md_h : port_mode -> R -> vfld; md_region : port_mode -> cells }.
Definition scale_vfld (z : C) (f : vfld) : vfld := fun c i j k => (f c i j k * z)%C.
(** fdtd.py:272-278: the sources of one step. *)
Definition cw_sources (g : fgrid) (md : modes) (keys : list port_mode) (wavelength : R) (step : nat) : list source :=
  let k0 := 2 * PI / wavelength in
  let time_shift := cis (INR step * dt_of g * k0) in
  map (fun k => mkSource (Some (scale_vfld time_shift (md_e md k wavelength))) (Some (scale_vfld time_shift (md_h md k wavelength)))
                         (md_region md k)) keys.
(** fdtd.py:279-282 synchronized_fields; with numpy, h_before is the array that the step updates in place. *)
Definition synchronized (jax : bool) (before after : fstate) : fstate :=
  mkState (f_e after) (fun c i j k => (((if jax then f_h before c i j k else f_h after c i j k) + f_h after c i j k) / RtoC 2)%C).
Fixpoint cw_loop {A : Type} (g : fgrid) (jax : bool) (src : nat -> list source) (measure : fstate -> A) (steps : list nat) (st : fstate)
  : list A * fstate :=
  match steps with
  | [] => ([], st)
  | t :: r => let st' := step g jax st (src t) in
      let (fl, fin) := cw_loop g jax src measure r st' in (measure (synchronized jax st st') :: fl, fin)
  end.
(** [measure wl]: get_measure_fn(measure_port, ..., wavelength=wl); fdtd.py:263-264 does not pass the wavelength, so its default
    1.55 (sim.py:195) is used. *)
Definition measure_default_wavelength : R := 155 / 100.
Definition run_cw_port {A : Type} (g : fgrid) (jax : bool) (md : modes) (measure : R -> fstate -> A) (source_port : srcv)
  (wavelength : R) (num_time_steps : nat) (init : fstate) : option (list A * fstate) :=
  match parse_source_port source_port with
  | None => None
  | Some d =>
      let keys := map fst d in
      let mf := measure measure_default_wavelength in
      let (fl, fin) := cw_loop g jax (cw_sources g md keys wavelength) mf (seq 0 num_time_steps) init in
      Some (mf init :: fl, fin)
  end.
