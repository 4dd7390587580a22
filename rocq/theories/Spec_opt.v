(** Vocabulary for the optimisation loop (C86 - C90). *)
From Coq Require Import Reals List Arith Bool.
From Verif Require Import Model_opt.
Import ListNotations.

(** The optimiser's state after k updates; update number i uses the gradient at the parameters current then. *)
Fixpoint opt_states {P S : Type} (init : S) (update : nat -> P -> S -> S) (get : S -> P) (k : nat) : S :=
  match k with 0%nat => init | Datatypes.S k' => let s := opt_states init update get k' in update k' (get s) s end.
(** The iterations 0 .. n-1 that are multiples of a non-zero interval. *)
Definition ticks (interval n : nat) : list nat := filter (fun i => Nat.eqb (Nat.modulo i interval) 0) (seq 0 n).
(** A dictionary given by its list of items has the key m, once, with value x. *)
Definition dict_has {M : Type} (d : list (nat * M)) (m : nat) (x : M) : Prop := NoDup (map fst d) /\ In (m, x) d.
(** The label f (partial) tells the elements of the list apart. *)
Definition distinct_by {X Y : Type} (f : X -> option Y) (l : list X) : Prop :=
  forall i j x y v, nth_error l i = Some x -> nth_error l j = Some y -> f x = Some v -> f y = Some v -> i = j.
Section problems.
Variables (P F E A M D : Type).
(** A problem with a simulation and a source; the name and the identity of its simulation object. *)
Definition has_source (op : problem P F E A M D) : Prop := pb_sim P F E A M D op <> None /\ pb_source P F E A M D op = true.
Definition nameof (op : problem P F E A M D) : option nat := option_map snd (pb_sim P F E A M D op).
Definition idof (op : problem P F E A M D) : option nat := option_map fst (pb_sim P F E A M D op).
End problems.
