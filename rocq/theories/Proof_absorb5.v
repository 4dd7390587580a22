(** Solvability of a line with layers (C153). *)
From Coq Require Import Reals Lra Lia List Arith.
From Verif Require Import Cx Arr Model_coupling Model_yee Spec_yee Model_fdfd Spec_fdfd Spec_absorb Proof_absorb Proof_absorb2 Proof_absorb3 Proof_gauss.
Local Open Scope R_scope.

Lemma line_dn : forall d n t p lr pe w, line_with_layers d n t p lr pe w -> dn d = n.
Proof. intros d n t p lr pe w (Es & _). unfold dn, npix. rewrite Es. cbn. lia. Qed.
Lemma inj_unique : forall n M x y (b : vec), injective n M -> (forall r, (r < n)%nat -> matvec n M x r = b r) -> (forall r, (r < n)%nat -> matvec n M y r = b r) ->
  forall r, (r < n)%nat -> x r = y r.
Proof.
  intros n M x y b HI Hx Hy r Hr. assert (Z : (x r - y r)%C = C0).
  { apply (HI (fun r => x r - y r)%C); auto. intros r' Hr'. transitivity (matvec n M x r' - matvec n M y r')%C.
    - unfold matvec. rewrite <- Csum_sub. apply Csum_ext. intros; ring.
    - rewrite Hx, Hy by auto. ring. }
  transitivity (x r - y r + y r)%C; [ring | rewrite Z; ring].
Qed.
Lemma line_solvable : forall d n t p lr pe w src, line_with_layers d n t p lr pe w -> forall M, M = mat_ez d \/ M = mat_hz d ->
  exists x, exact2 d M (fun _ _ => x) src /\ forall solver, exact2 d M solver src ->
    forall r, (r < n)%nat -> solver M (fun r => RtoC (d_k0 d) * ravel (d_shape d) src r)%C r = x r.
Proof.
  intros d n t p lr pe w src L M HM. pose proof (line_dn _ _ _ _ _ _ _ L) as E.
  assert (HI : injective n M).
  { intros x Hx. destruct (line_regular d n t p lr pe w x L) as [A B]. destruct HM as [-> | ->]; auto. }
  destruct (onto n M (fun r => RtoC (d_k0 d) * ravel (d_shape d) src r)%C HI) as [x Hx]. exists x. split.
  - intros r Hr. rewrite E in *. apply Hx, Hr.
  - intros solver HS r Hr. refine (inj_unique n M _ _ (fun r => RtoC (d_k0 d) * ravel (d_shape d) src r)%C HI _ Hx r Hr). intros r' Hr'. specialize (HS r'). rewrite E in HS. apply HS, Hr'.
Qed.
