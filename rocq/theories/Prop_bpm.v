(** C173: the beam-propagation class. *)
From Coq Require Import Reals Arith Bool List Lra Lia.
From Verif Require Import Model_yee Spec_yee Model_bpm Proof_bpm.
Import ListNotations.
Local Open Scope R_scope.

(** It can be constructed only with not_implemented=False and in 3-d; then every adi_polarized call, at any point of any sequence of calls,
    raises and no step is taken: a result is never returned. *)
Theorem C173_never_returns_partial : forall ni ndim s h, (1 <= ndim <= 3)%nat ->
  ((exists b, bpm_new ni ndim s h = Ok b) <-> ni = false /\ ndim = 3%nat) /\
  forall b n, bpm_new ni ndim s h = Ok b ->
    Forall (fun r => r <> None) (snd (adi_times n b)) /\ length (snd (adi_times n b)) = n /\ b_x (fst (adi_times n b)) = 0%nat.
Proof. intros ni ndim s h H. split; [apply new_cases; exact H |]. intros b n E. exact (always_fails ni ndim s h b n H E). Qed.
Print Assumptions C173_never_returns_partial.
(** But a failing call changes the grid: the pixel sizes along x and y are 0 in the last slab from then on (1 / dx is used by every derivative). *)
Theorem C173_unchanged_refuted : forall ni ndim s h b n, (1 <= ndim <= 3)%nat -> bpm_new ni ndim s h = Ok b -> (0 < n)%nat ->
  forall a i j k, in_grid s i j k -> b_dx (fst (adi_times n b)) a i j k = match a with AZ => h AZ | _ => if Nat.eqb (i + 1) (s AX) then 0 else h a end.
Proof. exact breaks_grid. Qed.
Print Assumptions C173_unchanged_refuted.
Example C173_nonvacuous : exists b, bpm_new false 3 (fun _ => 4%nat) (fun _ => 1) = Ok b /\
  b_dx b AX 3%nat 0%nat 0%nat = 1 /\ b_dx (fst (adi_times 1 b)) AX 3%nat 0%nat 0%nat = 0.
Proof. eexists. split; [reflexivity |]. split; reflexivity. Qed.
