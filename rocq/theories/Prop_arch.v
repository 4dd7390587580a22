(** C18, C19: butterfly and bowtie architectures. *)
From Coq Require Import Reals List ZArith Lia.
From Verif Require Import Cx Arr Model_coupling Model_forward Model_vector Spec_mesh Proof_butterfly.
Import ListNotations.
Local Close Scope R_scope.
Local Open Scope nat_scope.

(** C18 *)
Theorem C18_butterfly : forall n r, 2 <= n -> n <= r ->
  exists m, butterfly n r = Some m /\ style m = TOP /\ n_rails m = r /\ wf_mesh m /\
    map node_id (nodes m) = seq 0 (length (nodes m)) /\
    num_columns m = Z.of_nat (Nat.log2_up n) /\
    (forall nd, In nd (nodes m) -> top nd < bottom nd < n /\ (0 <= column nd < num_columns m)%Z) /\
    (forall k, n = 2 ^ k -> num_columns m = Z.of_nat k /\
       forall c, (0 <= c < Z.of_nat k)%Z -> 2 * length (filter (fun nd => Z.eqb (column nd) c) (nodes m)) = n).
Proof. exact butterfly_spec. Qed.
Print Assumptions C18_butterfly.
Example C18_instance : exists m, butterfly 4 4 = Some m /\
  map (fun nd => (top nd, bottom nd, column nd)) (nodes m) = [(1, 3, 1%Z); (0, 2, 1%Z); (0, 1, 0%Z); (2, 3, 0%Z)].
Proof. eexists; split; reflexivity. Qed.

(** C19 *)
Theorem C19_bowtie_count : forall n, 2 <= n ->
  exists l, bowtie_nodes n = Some l /\ 2 * length l = n * (n - 1) /\ (forall nd, In nd l -> top nd < bottom nd < n).
Proof. exact bowtie_count. Qed.
Print Assumptions C19_bowtie_count.
(** ... but the architecture leaves columns empty, and the column bookkeeping of the mesh built from it fails:
    bowtie(u) raises for every 4 x 4 unitary. *)
Theorem C19_bowtie4_raises : exists l m, bowtie_nodes 4 = Some l /\ mk_mesh l TOP = Some m /\ columns m = None.
Proof. exact bowtie4. Qed.
Print Assumptions C19_bowtie4_raises.
Example C19_instance : exists l, bowtie_nodes 3 = Some l /\ length l = 3.
Proof. eexists; split; reflexivity. Qed.
