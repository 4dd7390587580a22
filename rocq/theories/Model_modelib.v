(** Model of the ModeLibrary object (simphox/mode.py): its life cycle and the meaning of mode indices.  No proofs in this file. *)
From Coq Require Import Reals List ZArith.
From Verif Require Import Cx Model_parse.
Import ListNotations.
Local Open Scope R_scope.

(** What a call does: a value, ValueError, IndexError. *)
Inductive mres (A : Type) := MVal (a : A) | MValueError | MIndexError.
Arguments MVal {A}. Arguments MValueError {A}. Arguments MIndexError {A}.
Definition mmap {A B} (f : A -> B) (r : mres A) : mres B := match r with MVal a => MVal (f a) | MValueError => MValueError | MIndexError => MIndexError end.
Definition mbind {A B} (r : mres A) (f : A -> mres B) : mres B := match r with MVal a => f a | MValueError => MValueError | MIndexError => MIndexError end.

Section Lib.
Variable V : Type.
(** mode.py:233-246: betas, modes, num_modes = m and solver.wavelength (eps and o do not depend on the wavelength). *)
Record lib := mkLib { lb_betas : list R; lb_modes : list V; lb_m : nat; lb_wavelength : R }.
(** mode.py:238-246 _update_solve.  [l]: what the eigensolver returns; None of mode_solve: solve raises IndexError after solver.wavelength is set;
    np.zeros_like(self.modes[0]) raises IndexError when no mode is guided, after betas, modes and num_modes are set. *)
Definition update_solve (st : lib) (wavelength : R) (l : list (C * V)) : lib * mres unit :=
  match mode_solve V l with
  | None => (mkLib (lb_betas st) (lb_modes st) (lb_m st) wavelength, MIndexError)
  | Some (b, v) => (mkLib b v (length b) wavelength, match v with [] => MIndexError | _ => MVal tt end)
  end.
(** mode.py:233-236 __init__: no object when _update_solve raises. *)
Definition library (wavelength : R) (l : list (C * V)) : mres lib :=
  match update_solve (mkLib [] [] 0 wavelength) wavelength l with (st, MVal _) => MVal st | (_, MValueError) => MValueError | (_, MIndexError) => MIndexError end.
(** mode.py:248-263 update_wavelength, called again and again; exceptions are caught by the caller. *)
Fixpoint updates (st : lib) (h : list (R * list (C * V))) : lib := match h with [] => st | (w, l) :: r => updates (fst (update_solve st w l)) r end.
(** numpy indexing along the first axis. *)
Definition py_get {A} (l : list A) (i : Z) : mres A :=
  let n := Z.of_nat (length l) in
  if (i <? - n)%Z then MIndexError else match nth_error l (Z.to_nat (if (i <? 0)%Z then i + n else i)%Z) with Some a => MVal a | None => MIndexError end.
(** mode.py:296-299 _check_num_modes. *)
Definition check_idx (st : lib) (i : Z) : mres Z := if (i >? Z.of_nat (lb_m st) - 1)%Z then MValueError else MVal i.
(** mode.py:311 (the mode h and e start from), 367 beta, 377 n. *)
Definition lib_mode (st : lib) (i : Z) : mres V := mbind (check_idx st i) (py_get (lb_modes st)).
Definition lib_beta (st : lib) (i : Z) : mres R := mbind (check_idx st i) (py_get (lb_betas st)).
Definition lib_n (k0 : R) (st : lib) (i : Z) : mres R := mmap (fun b => b / k0) (lib_beta st i).
(** mode.py:379-394 ns, dbeta, dn; 566-567 beat_length (equal constants: numpy returns inf; the model's quotient is then arbitrary). *)
Definition lib_ns (k0 : R) (st : lib) : list R := map (fun b => b / k0) (lb_betas st).
Definition lib_dbeta (st : lib) : mres R := mbind (lib_beta st 0) (fun a => mmap (fun b => a - b) (lib_beta st 1)).
Definition lib_dn (k0 : R) (st : lib) : mres R := mbind (lib_beta st 0) (fun a => mmap (fun b => (a - b) / k0) (lib_beta st 1)).
Definition lib_beat (st : lib) (i j : Z) : mres R := mbind (lib_beta st i) (fun a => mmap (fun b => 2 * PI / (a - b)) (lib_beta st j)).
(** mode.py:545-564 evolve: the (mode, propagation constant, weight) triples it sums, or the exception of the first index that has no mode. *)
Fixpoint terms_from (st : lib) (i : Z) (ws : list R) : mres (list (V * R * R)) :=
  match ws with
  | [] => MVal []
  | w :: r => mbind (lib_mode st i) (fun v => mbind (lib_beta st i) (fun b => mmap (cons (v, b, w)) (terms_from st (i + 1) r)))
  end.
Definition evolve_terms (st : lib) (ws : list R) : mres (list (V * R * R)) := terms_from st 0 ws.
End Lib.
Arguments lb_betas {V}. Arguments lb_modes {V}. Arguments lb_m {V}. Arguments lb_wavelength {V}.
Arguments lib_mode {V}. Arguments lib_beta {V}. Arguments lib_n {V}. Arguments lib_ns {V}. Arguments lib_dbeta {V}. Arguments lib_dn {V}. Arguments lib_beat {V}. Arguments evolve_terms {V}.
