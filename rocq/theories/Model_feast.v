(** Model of the interval search for modes: ModeSolver.solve with beta_guess (mode.py:178-193) and mkl.py Feast.
    No proofs in this file.
    Simplifications: the MKL eigensolver is not modelled; its output is any list of eigenvalues with vectors. *)
From Coq Require Import Reals List Arith ZArith Bool.
From Verif Require Import Cx Arr Model_parse.
Import ListNotations.
Local Open Scope R_scope.

(** mkl.py:226-239: the routine chosen for a matrix data type; None = TypeError. *)
Inductive dtype := Float32 | Float64 | Complex64 | Complex128 | OtherType.
Inductive routine := SFeastSym | DFeastSym | CFeastHerm | ZFeastHerm.
Definition feast_routine (d : dtype) : option routine :=
  match d with
  | Complex64 => Some CFeastHerm | Complex128 => Some ZFeastHerm
  | Float32 => Some SFeastSym | Float64 => Some DFeastSym
  | OtherType => None
  end.
(** mkl.py:226-246: what is called, for a matrix of the given type and numbers of rows and columns; None = TypeError or ValueError. *)
Definition feast_call (d : dtype) (rows cols : nat) : option routine :=
  match feast_routine d with
  | Some r => if Nat.eqb rows cols then Some r else None
  | None => None
  end.
(** mode.py:178-189: what the eigensolver is asked for.  beta_guess: None, a float, a tuple of two, or anything else (an int, a list).
    [emax]: np.max(self.eps).  A float 0.0 is false: the default is used.  None = TypeError. *)
Inductive guess := NoGuess | FloatGuess (b : R) | TupleGuess (lo hi : R) | OtherGuess.
Inductive search := NearSigma (sigma : R) | InRange (emin emax : R).
Definition mode_search (k0 emax : R) (g : guess) : option search :=
  match g with
  | NoGuess => Some (NearSigma ((k0 * sqrt emax) ^ 2))
  | FloatGuess b => Some (NearSigma (if Req_EM_T b 0 then (k0 * sqrt emax) ^ 2 else b ^ 2))
  | TupleGuess lo hi => Some (InRange (lo ^ 2) (hi ^ 2))
  | OtherGuess => None
  end.
(** mkl.py:253-255, 290-297 and mode.py:187: the arrays e and x have room for [m0] pairs; all of them are returned, the number m of
    pairs found in the interval is dropped.  [found]: those m pairs; [rest]: what the routine leaves in the other m0 - m places. *)
Definition interval_modes {V : Type} (found rest : list (C * V)) : option (list R * list V) := mode_solve V (found ++ rest).
