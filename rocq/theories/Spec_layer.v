(** Vocabulary for C145 and C146. *)
From Coq Require Import Reals List ZArith Bool.
From Verif Require Import Cx Arr Spec_circuit Model_coupling Model_forward Model_layer.
Import ListNotations.
Local Open Scope R_scope.

(** A network: layers applied one after the other, without noise. *)
Record net_layer := mkLayer { l_mesh : mesh; l_params : params; l_act : C -> C }.
Definition elementwise (f : C -> C) : (nat -> vec) -> nat -> vec := fun x b i => f (x b i).
Definition no_noise : nat -> nat -> R := fun _ _ => 0.
Fixpoint network (ls : list net_layer) (x : nat -> vec) : option (nat -> vec) :=
  match ls with
  | [] => Some x
  | l :: r => match layer_call (elementwise (l_act l)) (l_mesh l) (l_params l) 0 0 no_noise no_noise x with Some y => network r y | None => None end
  end.
(** An activation that never moves two values further apart. *)
Definition nonexpansive (f : C -> C) : Prop := forall z w, Cn2 (f z - f w)%C <= Cn2 (z - w)%C.

(** Noise: draws numbered by (which measurement, slice, rail, column); [E] averages over them, and every affine function of finitely many
    draws averages to its value without noise (mean zero). *)
Definition draw := (nat * nat * nat * nat)%type.
Definition centred (E : ((draw -> R) -> R) -> R) : Prop :=
  forall c (l : list (R * draw)), E (fun d => c + fold_right (fun t acc => fst t * d (snd t) + acc) 0 l) = c.
Definition gradient_entry (g : option (list R * list R * (nat -> R))) (which : nat) (k : nat) : option R :=
  match g with
  | Some (th, ph, ga) => match which with 0%nat => nth_error th k | 1%nat => nth_error ph k | _ => Some (ga k) end
  | None => None
  end.

(** Noise on the adjoint inputs (C151): each is multiplied by a random factor, from an amplitude draw and a phase draw numbered by (rail, column).
    [E] averages over the draws, and every sum of real parts of multiples of factors averages to kappa times the sum without noise: the
    factors have mean kappa. *)
Definition io_draw := (bool * (nat * nat))%type.
Definition io_factor (amp ph : R) (d : io_draw -> R) (ij : nat * nat) : C := (RtoC (Rabs (1 + amp * d (false, ij))) * cis (ph * d (true, ij) * PI))%C.
Definition io_mean (E : ((io_draw -> R) -> R) -> R) (amp ph kappa : R) : Prop :=
  forall l : list (C * (nat * nat)), E (fun d => fold_right (fun t acc => re (fst t * io_factor amp ph d (snd t))%C + acc) 0 l) = kappa * fold_right (fun t acc => re (fst t) + acc) 0 l.
