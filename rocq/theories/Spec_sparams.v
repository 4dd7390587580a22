(** Vocabulary for C175. *)
From Coq Require Import Reals List Arith Bool.
From Verif Require Import Cx Arr Model_parse Spec_parse Model_sparams.
Import ListNotations.

(** Amplitude leaving and entering the device through mode (port, index): ports at angles below 180 degrees face along the axis. *)
Definition leaving (pos : nat -> bool) (amp : nat * nat -> C * C) (pm : nat * nat) : C := if pos (fst pm) then fst (amp pm) else snd (amp pm).
Definition entering (pos : nat -> bool) (amp : nat * nat -> C * C) (pm : nat * nat) : C := if pos (fst pm) then snd (amp pm) else fst (amp pm).
(** The s-parameters from src to the modes of the list. *)
Definition s_of (pos : nat -> bool) (amp : nat * nat -> C * C) (l : list (nat * nat)) (src : nat * nat) : list C :=
  map (fun pm => (leaving pos amp pm / entering pos amp src)%C) l.
(** What a measure_info stands for. *)
Definition listed (ports : list nat) (i : minfo) : list (nat * nat) :=
  match i with
  | MDefault => map (fun p => (p, O)) ports
  | MPairs l => l
  | MNames l => map (fun p => (p, O)) l
  | MDict d => flat_map (fun kv => map (fun m => (fst kv, m)) (snd kv)) d
  | MName p => [(p, O)]
  | MPair p m => [(p, m)]
  end.
(** Every port of the grid guides a mode; the listed modes exist. *)
Definition guides (ports : list nat) (found : nat -> nat) (l : list (nat * nat)) : Prop :=
  (forall p, In p ports -> (0 < found p)%nat) /\ (forall pm, In pm l -> In (fst pm) ports /\ (snd pm < found (fst pm))%nat).
