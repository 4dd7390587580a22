(** What a continuous-wave run should do, and what a source description means, independently of the code. *)
From Coq Require Import Reals List Arith ZArith.
From Verif Require Import Cx Arr Model_yee Model_fdtd Model_cw.
Import ListNotations.
Local Open Scope R_scope.

(** A (port, mode) of weight w is asked for by a source description.  In a list later elements override earlier ones. *)
Inductive asks : srcv -> port_mode -> R -> Prop :=
| asks_name : forall p, asks (SName p) (p, 0%Z) 1
| asks_pair : forall p m, asks (SSeq [SName p; SInt m]) (p, m) 1
| asks_dict_name : forall d p w, In (KStr p, w) d -> asks (SDict d) (p, 0%Z) w
| asks_dict_pair : forall d k w, In (KTup k, w) d -> asks (SDict d) k w
| asks_list : forall l x k w, (forall p m, l <> [SName p; SInt m]) -> In x l -> asks x k w -> asks (SSeq l) k w.
(** The documented formats: a name, a (name, mode) pair, a dict with distinct ports, a non-empty list of names and pairs. *)
Definition simple (v : srcv) : Prop := match v with SName _ => True | SSeq [SName _; SInt _] => True | _ => False end.
Definition documented (v : srcv) : Prop :=
  match v with
  | SName _ => True
  | SDict d => NoDup (map (fun kw => key_of (fst kw)) d)
  | SSeq l => simple v \/ (l <> [] /\ forall x, In x l -> simple x)
  | SInt _ => False
  end.
(** Same field values at all cells of the grid. *)
Definition same_state (a b : fstate) : Prop := (forall c i j k, f_e a c i j k = f_e b c i j k) /\ (forall c i j k, f_h a c i j k = f_h b c i j k).
(** The sources of step t of a continuous-wave run: the mode profiles, E and H, at their plane, in phase with a wave of wavelength wl
    (the speed of light is 1) at time t dt. *)
Definition driven (g : fgrid) (md : modes) (keys : list port_mode) (wl : R) (t : nat) : list source :=
  map (fun p => mkSource (Some (fun c i j l => md_e md p wl c i j l * cis (INR t * dt_of g * (2 * PI / wl)))%C)
                         (Some (fun c i j l => md_h md p wl c i j l * cis (INR t * dt_of g * (2 * PI / wl)))%C) (md_region md p)) keys.
