(** Specification side of the column bookkeeping (C24). *)
From Coq Require Import List ZArith.
From Verif Require Import Model_coupling Model_forward.
Import ListNotations.
(** What identifies a placed node: its id and its two rails. *)
Definition placed (nd : node) : nat * nat * nat := (node_id nd, top nd, bottom nd).
(** A sequence of bookkeeping calls, as a user can chain them. *)
Inductive book := Invert | Offset (k : nat).
Definition book1 (m : mesh) (b : book) : mesh := match b with Invert => invert_columns m | Offset k => offset m k end.
Definition books (m : mesh) (l : list book) : mesh := fold_left book1 l m.
(** Net effect: total id shift, and whether the order is reversed. *)
Fixpoint shift_of (l : list book) : nat := match l with [] => 0 | Invert :: r => shift_of r | Offset k :: r => k + shift_of r end.
Fixpoint odd_of (l : list book) : bool := match l with [] => false | Invert :: r => negb (odd_of r) | Offset _ :: r => odd_of r end.
Definition shifted (k : nat) (x : nat * nat * nat) : nat * nat * nat := let '(i, t, b) := x in (i + k, t, b).
