(** C16, C17, C80 - C82: the rectangular (Clements) architecture. *)
From Coq Require Import Reals List Arith ZArith Lia Bool Permutation.
From Verif Require Import Cx Arr Spec_circuit Model_coupling Model_forward Spec_mesh Model_rect Spec_rect Proof_rect5 Proof_rect6.
Import ListNotations.
Local Open Scope R_scope.

(** C16 *)
Theorem C16_rectangular_geometry : forall n u, (2 <= n)%nat -> exists m p, rectangular n u = Some (m, p) /\
  style m = TOP /\ n_rails m = n /\ (2 * length (nodes m) = n * (n - 1))%nat /\ num_columns m = (if Nat.eqb n 2 then 1 else Z.of_nat n)%Z /\
  map node_id (nodes m) = seq 0 (length (nodes m)) /\
  (forall nd, In nd (nodes m) -> exists c t, (c < n)%nat /\ (S t < n)%nat /\ ((t + c) mod 2 = 0)%nat /\
     column nd = Z.of_nat c /\ top nd = t /\ bottom nd = S t /\ bs_error nd = (0, 0) /\ loss nd = (0, 0)) /\
  (forall c t, (c < n)%nat -> (S t < n)%nat -> ((t + c) mod 2 = 0)%nat ->
     exists! nd, In nd (nodes m) /\ column nd = Z.of_nat c /\ top nd = t) /\
  wf_mesh m.
Proof. exact rectangular_geometry. Qed.
Print Assumptions C16_rectangular_geometry.
(** A 1 x 1 unitary has no nodes, and the empty mesh cannot be built. *)
Theorem C16_one_mode_raises : forall u, rectangular 1 u = None.
Proof. exact rectangular_one. Qed.
Print Assumptions C16_one_mode_raises.
Example C16_instance : map (fun x => (top (rnode 4 x), bottom (rnode 4 x), column (rnode 4 x))) (rect_positions 4)
  = [(0, 1, 0%Z); (2, 3, 0%Z); (1, 2, 1%Z); (0, 1, 2%Z); (2, 3, 2%Z); (1, 2, 3%Z)]%nat.
Proof. reflexivity. Qed.

(** C17: for every size and every unitary, the mesh with the parameters rectangular computed has matrix u. *)
Theorem C17_rectangular_realises_u : forall n u m p, (2 <= n)%nat -> unitary n u -> rectangular n u = Some (m, p) ->
  forall i j, (i < n)%nat -> (j < n)%nat -> matrix m false p i j = Some (u i j).
Proof. exact rectangular_entry. Qed.
Print Assumptions C17_rectangular_realises_u.
(** The hypotheses hold: a cyclic shift of three modes. *)
Definition shift3 : mat := fun i j => if Nat.eqb ((i + 1) mod 3) j then C1 else C0.
Example C17_instance : unitary 3 shift3 /\ exists m p, rectangular 3 shift3 = Some (m, p) /\ matrix m false p 2 0 = Some C1 /\ matrix m false p 0 0 = Some C0.
Proof.
  assert (U : unitary 3 shift3).
  { intros i j Hi Hj. destruct i as [| [| [| i]]]; [| | | lia]; (destruct j as [| [| [| j]]]; [| | | lia]); split; unfold shift3, delta; cbn; apply C_eq; cbn; ring. }
  split; [exact U |]. destruct (C16_rectangular_geometry 3 shift3 ltac:(lia)) as (m & p & E & _). exists m, p. split; [exact E |].
  split; (rewrite (C17_rectangular_realises_u 3 shift3 m p ltac:(lia) U E) by lia); reflexivity.
Qed.

(** C80: whatever the couplers are, the transfer of the grid does not change, phases are left only on upper coupler arms
    and at the output, and all of them lie in [0, 2 pi). *)
Theorem C80_common_mode_flow : forall units layers ext gamma, exists phi' gamma',
  grid_common_mode_flow units layers ext (Some gamma) = Some (phi', gamma') /\
  (forall blk v r, grid_transfer units layers blk ext gamma v r = grid_transfer units layers blk phi' gamma' v r) /\
  (forall c r, phi' c r <> 0 -> ((r + c) mod 2 = 0)%nat /\ (S r < units)%nat) /\
  (forall c r, 0 <= phi' c r < 2 * PI) /\ (forall r, 0 <= gamma' r < 2 * PI).
Proof. exact common_mode_flow. Qed.
Print Assumptions C80_common_mode_flow.
(** The default gamma has one entry per layer instead of one per unit. *)
Theorem C80_default_gamma_refuted : forall units layers ext, units <> layers -> grid_common_mode_flow units layers ext None = None.
Proof. intros units layers ext H. unfold grid_common_mode_flow. destruct (Nat.eqb_spec layers units); [congruence | reflexivity]. Qed.
Print Assumptions C80_default_gamma_refuted.

(** On a square grid it is zero. *)
Theorem C80_default_gamma_square : forall units ext, grid_common_mode_flow units units ext None = grid_common_mode_flow units units ext (Some (fun _ => 0)).
Proof. intros units ext. unfold grid_common_mode_flow. rewrite Nat.eqb_refl. reflexivity. Qed.
Print Assumptions C80_default_gamma_square.

(** C81: the sensitivity indices along each diagonal are a permutation of 1..length; the other entries are 0. *)
Theorem C81_alpha_above : forall n d, (0 < d < n)%nat -> (d mod 2 = 0)%nat ->
  exists l, map (fun i => alpha_checkerboard n i (i + d)) (seq 0 (n - d)) = map Some l /\ Permutation (seq 1 (n - d)) l.
Proof. exact alpha_upper. Qed.
Print Assumptions C81_alpha_above.
Theorem C81_alpha_below : forall n d, (d < n - 1)%nat -> (d mod 2 = 0)%nat ->
  exists l, map (fun j => alpha_checkerboard n (j + d) j) (seq 0 (n - 1 - d)) = map Some l /\ Permutation (seq 1 (n - 1 - d)) l.
Proof. exact alpha_lower. Qed.
Print Assumptions C81_alpha_below.
Theorem C81_alpha_off_board : forall n i j, ((i + j) mod 2 = 1 \/ n - 1 <= i)%nat -> alpha_checkerboard n i j = Some 0%nat.
Proof. exact alpha_off. Qed.
Print Assumptions C81_alpha_off_board.
(** random_theta lists the beta of the nodes of rectangular(u), in node order. *)
Theorem C81_random_theta_is_beta : forall n u m p, (2 <= n)%nat -> rectangular n u = Some (m, p) ->
  random_theta n = map (fun nd => Some (beta nd)) (nodes m).
Proof. intros n u m p Hn E. rewrite rectangular_some in E by exact Hn. injection E as <- <-. exact (random_theta_betas n Hn). Qed.
Print Assumptions C81_random_theta_is_beta.
Example C81_instance : map (fun i => alpha_checkerboard 5 i (i + 2)) (seq 0 3) = [Some 2; Some 3; Some 1]%nat /\
  map (fun j => alpha_checkerboard 5 (j + 0) j) (seq 0 4) = [Some 1; Some 3; Some 4; Some 2]%nat.
Proof. split; reflexivity. Qed.

(** C82: rectangular_rows raises for every mesh with three or more modes (its odd rows leave columns empty). *)
Theorem C82_rows_refuted : forall n, (3 <= n)%nat -> rectangular_rows n = None.
Proof. exact rows_raise. Qed.
Print Assumptions C82_rows_refuted.
Example C82_instance : exists m, rectangular_rows 2 = Some [m] /\ map (fun nd => (top nd, bottom nd, column nd)) (nodes m) = [(0%nat, 1%nat, 0%Z)].
Proof. eexists; split; reflexivity. Qed.
