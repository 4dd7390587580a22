(** Model of simphox/bpm.py.  No proofs in this file.
    Simplifications: exact arithmetic; the grid is represented by its shape and the pixel sizes of the forward differences
    (grid.py:358, _dxes[0]), the only part of the object that a call changes; SimGrid.__init__ is assumed to succeed. *)
From Coq Require Import Reals Arith Bool List.
From Verif Require Import Model_yee.
Import ListNotations.
Local Open Scope R_scope.

Inductive pyerr := NotImplementedE | ValueE | IndexE | AttributeE.
Record bpm := mkB { b_ndim : nat; b_shape : shape3; b_dx : axis -> rfld; b_x : nat }.
Inductive res (A : Type) := Ok (a : A) | Err (e : pyerr).
Arguments Ok {A}. Arguments Err {A}.
(** bpm.py:11-40 BPM.__init__ and init (center and shape None): center reads self.shape[2]. *)
Definition bpm_new (not_implemented : bool) (ndim : nat) (s : shape3) (h : axis -> R) : res bpm :=
  if not_implemented then Err NotImplementedE
  else if Nat.eqb ndim 1 then Err ValueE
  else if Nat.ltb ndim 3 then Err IndexE
  else Ok (mkB ndim s (fun a _ _ _ => h a) 0).
(** bpm.py:49-52: d[1] and d[0] themselves (not copies) get s[-1] = 0, e[-1] = 0: the last slab along x; n and w are copies. *)
Definition zero_last (n : nat) (f : rfld) : rfld := fun i j k => if Nat.eqb (i + 1) n then 0 else f i j k.
(** bpm.py:43-94 adi_polarized: after that assignment, self.e does not exist (the line that sets it, bpm.py:41, is a comment).
    In 2-d: nothing happens, None is returned. *)
Definition adi_polarized (b : bpm) : bpm * option pyerr :=
  if Nat.eqb (b_ndim b) 3 then
    (mkB (b_ndim b) (b_shape b) (fun a => match a with AZ => b_dx b AZ | a => zero_last (b_shape b AX) (b_dx b a) end) (b_x b), Some AttributeE)
  else (b, None).
Fixpoint adi_times (n : nat) (b : bpm) : bpm * list (option pyerr) :=
  match n with
  | O => (b, [])
  | S m => let (b1, e) := adi_polarized b in let (b2, l) := adi_times m b1 in (b2, e :: l)
  end.
