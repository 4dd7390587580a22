(** What it means for a list of coupling nodes to be a feed-forward mesh. *)
From Coq Require Import Reals List ZArith.
From Verif Require Import Cx Arr Model_coupling Model_forward.
Import ListNotations.

(** No rail is used twice within a column label. *)
Definition rails_disjoint (l : list node) : Prop := forall c : Z,
  let col := filter (fun nd => Z.eqb (column nd) c) l in
  NoDup (map top col ++ map bottom col).

(** A mesh that simphox can evaluate: rails in range and disjoint per column, node ids in range,
    no empty column. *)
Definition wf_mesh (m : mesh) : Prop :=
  rails_disjoint (nodes m) /\
  (forall nd, In nd (nodes m) ->
     (top nd < n_rails m)%nat /\ (bottom nd < n_rails m)%nat /\ (node_id nd < length (bs_errors m))%nat) /\
  NoDup (map node_id (nodes m)) /\
  (forall c, (0 <= c < num_columns m)%Z -> exists nd, In nd (nodes m) /\ column nd = c).

(** Every node has its own dB losses equal to zero / nonpositive; both beam splitter errors equal. *)
Definition lossless (m : mesh) : Prop := Forall (fun l => l = (0, 0)%R) (losses m).
Definition attenuating (m : mesh) : Prop := Forall (fun l => (fst l <= 0 /\ snd l <= 0)%R) (losses m).
Definition equal_errors (m : mesh) : Prop := Forall (fun e => fst e = snd e) (bs_errors m).
