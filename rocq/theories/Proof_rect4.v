(** Proofs about Model_rect: the end of the loop, and the mesh that rectangular builds. *)
From Coq Require Import Reals List Arith ZArith Lra Lia Bool FunctionalExtensionality ZifyNat ZifyClasses.
From Verif Require Import Cx Arr Spec_circuit Model_coupling Model_forward Model_rect Spec_rect Proof_node Proof_mesh Proof_forward2 Proof_forward4 Proof_linalg Proof_rect Proof_rect2 Proof_rect3.
Import ListNotations.
Local Open Scope R_scope.
Ltac Zify.zify_post_hook ::= Z.div_mod_to_equations.

Lemma Rsum_zero_terms : forall n f, (forall i, (i < n)%nat -> 0 <= f i) -> Rsum n f = 0 -> forall i, (i < n)%nat -> f i = 0.
Proof.
  induction n as [| n IH]; intros f H0 H i Hi; [lia |]. cbn [Rsum] in H.
  assert (P : 0 <= Rsum n f). { clear - H0. induction n as [| n IH]; cbn [Rsum]; [lra |]. pose proof (H0 n ltac:(lia)). specialize (IH ltac:(intros; apply H0; lia)). lra. }
  pose proof (H0 n ltac:(lia)). destruct (Nat.eq_dec i n) as [-> | N]; [lra |]. apply (IH f); [intros; apply H0; lia | lra | lia].
Qed.
Lemma Rsum_one : forall n f k, (k < n)%nat -> (forall i, (i < n)%nat -> i <> k -> f i = 0) -> Rsum n f = f k.
Proof.
  induction n as [| n IH]; intros f k Hk H; [lia |]. cbn [Rsum]. destruct (Nat.eq_dec k n) as [-> | N].
  - assert (E : Rsum n f = 0). { clear - H. assert (G : forall m, (m <= n)%nat -> Rsum m f = 0).
      { induction m as [| m IH]; intro Hm; cbn [Rsum]; [reflexivity |]. rewrite IH, (H m) by lia. ring. } apply G. lia. }
    rewrite E. ring.
  - rewrite (IH f k), (H n) by (try lia; intros; apply H; lia). ring.
Qed.
Lemma upper_unitary_diag : forall n U, unitary n U -> (forall r c, (r < n)%nat -> (c < n)%nat -> (c < r)%nat -> U r c = C0) ->
  forall k, (k < n)%nat -> Cn2 (U k k) = 1 /\ forall c, (c < n)%nat -> c <> k -> U k c = C0.
Proof.
  intros n U HU HT k. induction k as [k IH] using lt_wf_ind. intro Hk.
  assert (E1 : Cn2 (U k k) = 1).
  { rewrite <- (unitary_col1 n U k HU Hk). symmetry. apply (Rsum_one n (fun r => Cn2 (U r k)) k Hk). intros r Hr Nr.
    destruct (Nat.lt_ge_cases r k) as [L | L].
    - destruct (IH r L Hr) as [_ Z]. rewrite Z by auto. apply Cn2_C0.
    - rewrite HT by lia. apply Cn2_C0. }
  split; [exact E1 |]. intros c Hc Nc.
  pose proof (unitary_row1 n U k HU Hk) as S1.
  set (g := fun c => if Nat.eqb c k then 0 else Cn2 (U k c)).
  assert (S2 : Rsum n (fun c => Cn2 (U k c)) = Rsum n g + Rsum n (fun c => if Nat.eqb c k then Cn2 (U k k) else 0)).
  { clear. induction n as [| n IH]; cbn [Rsum]; [ring |]. rewrite IH. unfold g. destruct (Nat.eqb_spec n k) as [-> | N]; ring. }
  assert (S3 : Rsum n (fun c => if Nat.eqb c k then Cn2 (U k k) else 0) = Cn2 (U k k)).
  { rewrite (Rsum_one n _ k Hk); [rewrite Nat.eqb_refl; reflexivity |]. intros i _ Ni. destruct (Nat.eqb_spec i k); [contradiction | reflexivity]. }
  assert (Z : g c = 0).
  { apply (Rsum_zero_terms n g); [| lra | exact Hc]. intros i _. unfold g. destruct (Nat.eqb i k); [lra | apply Cn2_nonneg]. }
  unfold g in Z. destruct (Nat.eqb_spec c k); [contradiction |]. apply Cn2_zero_iff. exact Z.
Qed.

Section End_.
Variables (n : nat) (u : mat).
Hypothesis Hn : (2 <= n)%nat.
Hypothesis Hu : unitary n u.
Let st := rect_loop n u.

Definition dphase (r : nat) : R := if Nat.ltb r n then Carg (u_hat st r r) else 0.
Definition lay (r : nat) : nat := if Nat.eqb (n mod 2) 1 then (n - 1 - r)%nat else (n - r)%nat.
Lemma rect_board : forall v, veq n (app n u v) (runf n (fullb n) (th_cb st) (rect_phases n st) v).
Proof.
  destruct (loop_inv n u Hn Hu (n - 1) (le_n _)) as [H1 H2 (phR & phL & G1 & G2 & G3 & G4 & G5)]. fold st in H1, H2, G1, G5.
  change (fold_left (rect_step n) (rect_order (n - 1)) {| u_hat := u; th_cb := fun _ _ : nat => 0; ph_cb := fun _ _ : nat => 0 |}) with st in *.
  assert (HD := upper_unitary_diag n (u_hat st) H1 ltac:(intros r c Hr Hc L; apply H2; auto; lia)).
  intros v r Hr. rewrite (G5 v r Hr).
  assert (ED : forall w, veq n (app n (u_hat st) w) (dop dphase w)).
  { intros w q Hq. destruct (HD q Hq) as [E1 E2]. unfold app, dop, dphase. destruct (Nat.ltb_spec q n); [| lia].
    rewrite (Csum_single n _ q Hq) by (intros c Hc Nc; rewrite E2 by auto; ring). f_equal.
    rewrite (Carg_polar (u_hat st q q)) at 1. unfold Cabs. rewrite E1, sqrt_1, RtoC_1. ring. }
  rewrite (cut_full n (fullb n) (prR (n - 1) 0) (prL n (n - 1) 0) (th_cb st) (rect_phases n st) phR phL lay dphase).
  - apply runf_local; [intros r' c' Hc' E P; apply prL_spec in P; lia | apply ED | exact Hr].
  - intro q. unfold lay. destruct (Nat.eqb (n mod 2) 1); lia.
  - intros q c Hc E. apply evenb_t in E. apply eq_true_iff_eq. rewrite orb_true_iff, prR_spec, prL_spec. unfold fullb. rewrite Nat.ltb_lt. lia.
  - intros q c Hc E P. apply prR_spec in P. unfold lay. destruct (Nat.eqb_spec (n mod 2) 1); lia.
  - intros q c Hc E P. apply prL_spec in P. unfold lay. destruct (Nat.eqb_spec (n mod 2) 1); lia.
  - intros q c H. apply G2. destruct (prR (n - 1) 0 q c) eqn:P; [| reflexivity]. apply prR_spec in P. unfold lay in H. destruct (Nat.eqb_spec (n mod 2) 1); lia.
  - intros q c H. destruct c as [| c]; [apply G3 |]. unfold lay in H. apply G4.
    + destruct (prL n (n - 1) 0 q c) eqn:P; [| reflexivity]. apply prL_spec in P. destruct (Nat.eqb_spec (n mod 2) 1); lia.
    + intros q' Eq. destruct (prL n (n - 1) 0 q' c) eqn:P; [| reflexivity]. apply prL_spec in P. destruct (Nat.eqb_spec (n mod 2) 1); lia.
  - intros q c Hc. unfold rect_phases. rewrite G1. f_equal. unfold dphase. fold (lay q). destruct (Nat.ltb q n); cbn [andb]; [reflexivity | destruct (Nat.eqb c (lay q)); reflexivity].
Qed.

Definition rext (k r : nat) : R := if Nat.eqb k n then rect_phases n st r n else rect_phases n st r k.
Lemma rect_grid : forall v, veq n (app n u v)
  (grid_transfer n n (zblk (th_cb st)) (flow_phi n rext) (flow_gamma n n rext) v).
Proof.
  intros v r Hr. rewrite (rect_board v r Hr). rewrite <- flow_transfer. unfold rext at 2. rewrite Nat.eqb_refl.
  unfold runf, phop, grid_transfer. rewrite runb_grid. f_equal. rewrite (grid_run_ext n _ (fun c r => rect_phases n st r c) rext); [reflexivity |].
  intros i q Hi. unfold rext. destruct (Nat.eqb_spec i n); [lia | reflexivity].
Qed.
End End_.
