(** Vocabulary for mode libraries: the solve a library shows, and its modes in the order of decreasing propagation constants. *)
From Coq Require Import Reals List ZArith Permutation Sorted.
From Verif Require Import Cx Model_parse Spec_parse.
Import ListNotations.
Local Open Scope R_scope.
(** Built from the eigenpairs l, then updated with those of h, one list per call: shows l0, the last one that could be sorted. *)
Definition shows {V : Type} (l : list (C * V)) (h : list (R * list (C * V))) (l0 : list (C * V)) : Prop :=
  (l0 = l /\ Forall (fun x => ~ guided_first (snd x)) h) \/
  (exists a w b, h = a ++ (w, l0) :: b /\ guided_first l0 /\ Forall (fun x => ~ guided_first (snd x)) b).
(** The guided modes (positive real part) of l, strongest first. *)
Definition ranked {V : Type} (l ms : list (C * V)) : Prop :=
  Permutation ms (filter (fun p => if Rlt_dec 0 (re (fst p)) then true else false) l) /\ Sorted desc ms.
