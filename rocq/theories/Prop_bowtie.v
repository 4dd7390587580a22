(** C19 for every size, and C95: what bowtie(u) implements. *)
From Coq Require Import Reals List ZArith Lia.
From Verif Require Import Cx Arr Spec_circuit Spec_cs Model_coupling Model_forward Model_vector Model_bowtie Spec_mesh Proof_bowtie Proof_bowtie2 Proof_bowtie3.
Import ListNotations.
Local Open Scope R_scope.

(** C19: n(n-1)/2 nodes on 2n-3 columns, rails disjoint within a column, ids in list order; for n = 2 and odd n the mesh is well
    formed (no column is empty); for even n >= 4 a column is empty and every use of the columns raises. *)
Theorem C19_bowtie_columns : forall n s, (2 <= n)%nat -> exists l m, bowtie_nodes n = Some l /\ mk_mesh l s = Some m /\
  style m = s /\ n_rails m = n /\ num_columns m = (2 * Z.of_nat n - 3)%Z /\ (2 * length (nodes m) = n * (n - 1))%nat /\
  rails_disjoint (nodes m) /\ map node_id (nodes m) = seq 0 (length (nodes m)) /\
  (forall nd, In nd (nodes m) -> (top nd < bottom nd < n)%nat /\ (0 <= column nd < num_columns m)%Z) /\
  (n = 2%nat \/ Nat.odd n = true -> wf_mesh m /\ exists cols, columns m = Some cols /\ length cols = (2 * n - 3)%nat) /\
  (Nat.even n = true -> (4 <= n)%nat -> columns m = None).
Proof. exact bowtie_mesh. Qed.
Print Assumptions C19_bowtie_columns.

(** C95: 2 x 2 unitaries without a zero entry are implemented up to a global phase. *)
Theorem C95_bowtie2_partial : forall svd qr u, (forall A, svd_of 1 A (svd 1%nat A)) -> (forall A, qr_of 1 1 A (qr 1%nat 1%nat A)) -> unitary 2 u ->
  u 0%nat 0%nat <> C0 -> u 1%nat 0%nat <> C0 ->
  exists c P a, bowtie svd qr 2 u = Some (c, P) /\ forall i j, (i < 2)%nat -> (j < 2)%nat -> matrix c false P i j = Some (cis a * u i j)%C.
Proof. exact n2_good. Qed.
Print Assumptions C95_bowtie2_partial.
(** A crossing raises; a diagonal unitary gets diag(-u00, 1), whatever u11 is. *)
Theorem C95_crossing_refuted : forall svd qr u, (forall A, svd_of 1 A (svd 1%nat A)) -> u 0%nat 0%nat = C0 -> bowtie svd qr 2 u = None.
Proof. exact n2_none. Qed.
Print Assumptions C95_crossing_refuted.
Theorem C95_diagonal_refuted : forall svd qr u, (forall A, svd_of 1 A (svd 1%nat A)) -> (forall A, qr_of 1 1 A (qr 1%nat 1%nat A)) -> unitary 2 u ->
  u 1%nat 0%nat = C0 ->
  exists c P, bowtie svd qr 2 u = Some (c, P) /\ forall i j, (i < 2)%nat -> (j < 2)%nat ->
    matrix c false P i j = Some (if Nat.eqb i j then (if Nat.eqb i 0 then (- u 0%nat 0%nat)%C else C1) else C0).
Proof. exact n2_diag. Qed.
Print Assumptions C95_diagonal_refuted.
(** 3 x 3: the left and right factors are placed in the wrong order, so |M_01| = |u_10| and |M_10| = |u_01|: not u up to any input
    and output phases unless those moduli agree. *)
Theorem C95_bowtie3_moduli : forall svd qr u, (forall A, svd_of 1 A (svd 1%nat A)) -> (forall A, qr_of 2 1 A (qr 2%nat 1%nat A)) -> unitary 3 u ->
  u 0%nat 0%nat <> C0 -> u 0%nat 1%nat <> C0 -> u 1%nat 0%nat <> C0 ->
  exists c P M, bowtie svd qr 3 u = Some (c, P) /\
  (forall i j, (i < 3)%nat -> (j < 3)%nat -> matrix c false P i j = Some (M i j)) /\
  Cabs (M 0%nat 0%nat) = Cabs (u 0%nat 0%nat) /\ Cabs (M 0%nat 1%nat) = Cabs (u 1%nat 0%nat) /\ Cabs (M 1%nat 0%nat) = Cabs (u 0%nat 1%nat).
Proof. exact n3_moduli. Qed.
Print Assumptions C95_bowtie3_moduli.
Theorem C95_bowtie3_refuted : forall svd qr u, (forall A, svd_of 1 A (svd 1%nat A)) -> (forall A, qr_of 2 1 A (qr 2%nat 1%nat A)) -> unitary 3 u ->
  u 0%nat 0%nat <> C0 -> u 0%nat 1%nat <> C0 -> u 1%nat 0%nat <> C0 -> Cabs (u 0%nat 1%nat) <> Cabs (u 1%nat 0%nat) ->
  exists c P, bowtie svd qr 3 u = Some (c, P) /\
    ~ exists a b : nat -> R, forall i j, (i < 3)%nat -> (j < 3)%nat -> matrix c false P i j = Some (cis (a i) * u i j * cis (b j))%C.
Proof. exact n3_wrong. Qed.
Print Assumptions C95_bowtie3_refuted.
(** Every even n >= 4 raises, for every matrix. *)
Theorem C95_even_refuted : forall svd qr n u, Nat.even n = true -> (4 <= n)%nat -> bowtie svd qr n u = None.
Proof. exact bowtie_even. Qed.
Print Assumptions C95_even_refuted.
(** The hypotheses: routines meeting every contract, and a 3 x 3 orthogonal matrix with |u_01| <> |u_10|. *)
Example C95_routines : (forall A, svd_of 1 A (ex_svd1 1%nat A)) /\ (forall A, qr_of 1 1 A (ex_qr1 1%nat 1%nat A)) /\ (forall A, qr_of 2 1 A (ex_qr1 2%nat 1%nat A)).
Proof. exact (conj ex_svd1_ok (conj ex_qr1_ok ex_qr2_ok)). Qed.
Example C95_nonvacuous : unitary 3 c95_u /\ c95_u 0%nat 0%nat <> C0 /\ c95_u 0%nat 1%nat <> C0 /\ c95_u 1%nat 0%nat <> C0 /\ Cabs (c95_u 0%nat 1%nat) <> Cabs (c95_u 1%nat 0%nat).
Proof. exact c95_u_ok. Qed.
