(** C23 (blocks of csinv) and C94: the cosine-sine decomposition. *)
From Coq Require Import Reals Arith.
From Verif Require Import Cx Arr Spec_circuit Spec_cs Model_matrix Model_cs Proof_cs2.
Local Open Scope R_scope.

(** C23: every block of the matrix csinv builds. *)
Theorem C23_csinv_blocks : forall m m1 l0 l1 r0 r1 theta, (m1 = m \/ m1 = S m) ->
  exists u, csinv m m1 m l0 l1 r0 r1 theta = Some u /\
   (forall i j, (i < m)%nat -> (j < m)%nat -> u i j = Csum m (fun k => l0 i k * RtoC (sin (theta k)) * r0 k j)%C) /\
   (forall i j, (i < m)%nat -> (j < m1)%nat -> u i (m + j)%nat = Csum m (fun k => l0 i k * RtoC (cos (theta k)) * r1 k j)%C) /\
   (forall i j, (i < m1)%nat -> (j < m)%nat -> u (m + i)%nat j = Csum m (fun k => l1 i k * RtoC (cos (theta k)) * r0 k j)%C) /\
   (forall i j, (i < m1)%nat -> (j < m1)%nat -> u (m + i)%nat (m + j)%nat =
      (Csum m (fun k => l1 i k * RtoC (- sin (theta k)) * r1 k j) + (if Nat.eqb m1 m then C0 else l1 i m * r1 m j))%C).
Proof. exact csinv_blocks. Qed.
Print Assumptions C23_csinv_blocks.

(** C94: csinv(cs(u)) = u exactly when no nonzero input confined to the upper half leaves the lower half dark, i.e. the lower-left
    block is injective; for every unitary u, even or odd n, and any SVD and QR routines that meet their contracts on the
    matrices they are called with. *)
Theorem C94_cs_roundtrip : forall svd qr n u, unitary n u ->
  let m := (n / 2)%nat in let m1 := (n - m)%nat in
  let l := fst (fst (svd m u)) in let r := snd (svd m u) in
  let A1 := fun i j => Csum m (fun k => Cconj (u k (m + i)%nat) * l k j)%C in
  let A2 := fun i j => Csum m (fun k => u (m + i)%nat k * Cconj (r j k))%C in
  svd_of m u (svd m u) -> qr_of m1 m A1 (qr m1 m A1) -> qr_of m1 m A2 (qr m1 m A2) ->
  let f := cs svd qr n u in
  (exists v, csinv m m1 m (cs_l0 f) (cs_l1 f) (cs_r0 f) (cs_r1 f) (cs_theta f) = Some v /\ meq n v u) <->
  injective_mat m1 m (fun i j => u (m + i)%nat j).
Proof. exact cs_roundtrip. Qed.
Print Assumptions C94_cs_roundtrip.
(** The factors: l0, r0 are always unitary and the angles lie in [0, pi/2]; l1 and r1 are unitary under the same condition only. *)
Theorem C94_cs_factors : forall svd qr n u, unitary n u ->
  let m := (n / 2)%nat in let m1 := (n - m)%nat in
  let l := fst (fst (svd m u)) in let r := snd (svd m u) in
  let A1 := fun i j => Csum m (fun k => Cconj (u k (m + i)%nat) * l k j)%C in
  let A2 := fun i j => Csum m (fun k => u (m + i)%nat k * Cconj (r j k))%C in
  svd_of m u (svd m u) -> qr_of m1 m A1 (qr m1 m A1) -> qr_of m1 m A2 (qr m1 m A2) ->
  let f := cs svd qr n u in
  unitary m (cs_l0 f) /\ unitary m (cs_r0 f) /\ (forall k, (k < m)%nat -> 0 <= cs_theta f k <= PI / 2) /\
  ((unitary m1 (cs_l1 f) /\ unitary m1 (cs_r1 f)) <-> injective_mat m1 m (fun i j => u (m + i)%nat j)).
Proof. exact cs_factors_unitary. Qed.
Print Assumptions C94_cs_factors.
(** False of the code as documented ("arbitrary matrix"): a block-diagonal unitary, e.g. the identity, is never reproduced. *)
Theorem C94_block_diagonal_refuted : forall svd qr n u, (2 <= n)%nat -> unitary n u ->
  let m := (n / 2)%nat in let m1 := (n - m)%nat in
  let l := fst (fst (svd m u)) in let r := snd (svd m u) in
  let A1 := fun i j => Csum m (fun k => Cconj (u k (m + i)%nat) * l k j)%C in
  let A2 := fun i j => Csum m (fun k => u (m + i)%nat k * Cconj (r j k))%C in
  svd_of m u (svd m u) -> qr_of m1 m A1 (qr m1 m A1) -> qr_of m1 m A2 (qr m1 m A2) ->
  (forall i j, (i < m1)%nat -> (j < m)%nat -> u (m + i)%nat j = C0) ->
  let f := cs svd qr n u in
  ~ exists v, csinv m m1 m (cs_l0 f) (cs_l1 f) (cs_r0 f) (cs_r1 f) (cs_theta f) = Some v /\ meq n v u.
Proof. exact block_diag_lost. Qed.
Print Assumptions C94_block_diagonal_refuted.
(** The hypotheses hold for every middle factor d(theta), with trivial routines: injective below pi/2, block diagonal at pi/2. *)
Example C94_nonvacuous : forall m theta, (forall k, 0 <= theta k <= PI / 2) ->
  let n := (m + m)%nat in let u := cs_d m theta in
  let A1 := fun i j => Csum m (fun k => Cconj (u k (m + i)%nat) * delta k j)%C in
  let A2 := fun i j => Csum m (fun k => u (m + i)%nat k * Cconj (delta j k))%C in
  unitary n u /\ (n / 2)%nat = m /\ (n - m)%nat = m /\ svd_of m u (ex_svd theta m u) /\ qr_of m m A1 (ex_qr m m A1) /\ qr_of m m A2 (ex_qr m m A2) /\
  ((forall k, (k < m)%nat -> theta k < PI / 2) -> injective_mat m m (fun i j => u (m + i)%nat j)).
Proof. exact ex_contracts. Qed.
