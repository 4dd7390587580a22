(** The example of C183: a ring of two cells of permittivity 4 and width 1, the field along z that alternates between them, and the electric
    source that injects a current of frequency om. *)
From Coq Require Import Reals List Arith.
From Verif Require Import Cx Arr Model_yee Spec_yee Model_fdtd Spec_fdtd Model_fdfd Spec_fdfd Spec_harm.
Import ListNotations.
Local Open Scope R_scope.

Definition two_grid : fgrid := mkGrid (fun a => match a with AX => 2%nat | _ => 1%nat end) 1 (fun _ => 1) (fun _ _ _ => 4).
Definition alternating : vfld := fun c i _ _ => match c with AZ => if Nat.eqb i 0 then C1 else (- C1)%C | _ => C0 end.
Definition cw_schedule (g : fgrid) (om : R) (src : vfld) (n : nat) : list source :=
  [mkSource (Some (fun c i j k => - (Ci * at_time om ((INR n + 1 / 2) * dt_of g) src c i j k))%C) None (fun _ _ _ _ => true)].
