(** A square complex matrix with trivial kernel is onto (Gaussian elimination). *)
From Coq Require Import Reals Lra Lia List Arith Classical.
From Verif Require Import Cx Arr Model_coupling Model_yee Model_fdfd.
Local Open Scope R_scope.

Definition skip (p r : nat) : nat := if (r <? p)%nat then r else Datatypes.S r.
Lemma skip_lt : forall n p r, (p < Datatypes.S n)%nat -> (r < n)%nat -> (skip p r < Datatypes.S n)%nat /\ skip p r <> p.
Proof. intros n p r Hp Hr. unfold skip. destruct (Nat.ltb_spec r p); split; lia. Qed.
Lemma skip_onto : forall n p r, (p < Datatypes.S n)%nat -> (r < Datatypes.S n)%nat -> r <> p -> exists r', (r' < n)%nat /\ skip p r' = r.
Proof.
  intros n p r Hp Hr Hne. destruct (Nat.lt_ge_cases r p).
  - exists r. unfold skip. destruct (Nat.ltb_spec r p); split; lia.
  - exists (r - 1)%nat. unfold skip. destruct (Nat.ltb_spec (r - 1) p); split; lia.
Qed.
Definition injective (n : nat) (M : mat) : Prop := forall x, (forall r, (r < n)%nat -> matvec n M x r = C0) -> forall r, (r < n)%nat -> x r = C0.
Definition reduced (n p : nat) (M : mat) : mat := fun r c => (M (skip p r) c - M (skip p r) n / M p n * M p c)%C.
Definition extend (n : nat) (x : vec) (v : C) : vec := fun r => if (r =? n)%nat then v else x r.
Lemma matvec_extend : forall n (M : mat) x v r, matvec (Datatypes.S n) M (extend n x v) r = (matvec n M x r + M r n * v)%C.
Proof.
  intros n M x v r. unfold matvec. cbn [Csum]. f_equal.
  - apply Csum_ext. intros k Hk. unfold extend. destruct (Nat.eqb_spec k n); [lia | reflexivity].
  - unfold extend. rewrite Nat.eqb_refl. reflexivity.
Qed.
Lemma matvec_reduced : forall n p M x r, matvec n (reduced n p M) x r = (matvec n M x (skip p r) - M (skip p r) n / M p n * matvec n M x p)%C.
Proof.
  intros n p M x r. unfold matvec, reduced. rewrite <- Csum_scal. rewrite <- Csum_sub.
  apply Csum_ext. intros k Hk. ring.
Qed.
Lemma reduce_solve : forall n p M x (b : vec) , (p < Datatypes.S n)%nat -> M p n <> C0 ->
  (forall r, (r < n)%nat -> matvec n (reduced n p M) x r = (b (skip p r) - M (skip p r) n / M p n * b p)%C) ->
  forall r, (r < Datatypes.S n)%nat -> matvec (Datatypes.S n) M (extend n x ((b p - matvec n M x p) / M p n)%C) r = b r.
Proof.
  intros n p M x b Hp Hn H r Hr. rewrite matvec_extend. destruct (Nat.eq_dec r p) as [-> | Hne]; [field; auto |].
  destruct (skip_onto n p r Hp Hr Hne) as (r' & Hr' & <-). specialize (H r' Hr'). rewrite matvec_reduced in H.
  transitivity (matvec n M x (skip p r') - M (skip p r') n / M p n * matvec n M x p + M (skip p r') n / M p n * b p)%C; [field; auto |].
  rewrite H. ring.
Qed.
Theorem onto : forall n M (b : vec), injective n M -> exists x : vec, forall r, (r < n)%nat -> matvec n M x r = b r.
Proof.
  induction n as [| n IH]; intros M b HI; [exists (fun _ => C0); intros; lia |].
  destruct (classic (exists p, (p < Datatypes.S n)%nat /\ M p n <> C0)) as [(p & Hp & Hn) | HN].
  - assert (HI' : injective n (reduced n p M)).
    { intros x Hx r Hr. set (v := ((C0 - matvec n M x p) / M p n)%C).
      assert (Z : forall r, (r < Datatypes.S n)%nat -> extend n x v r = C0).
      { apply HI. intros r' Hr'. apply (reduce_solve n p M x (fun _ => C0) Hp Hn); auto. intros r1 H1. rewrite Hx by auto. ring. }
      specialize (Z r ltac:(lia)). unfold extend in Z. destruct (Nat.eqb_spec r n); [lia | exact Z]. }
    destruct (IH (reduced n p M) (fun r => (b (skip p r) - M (skip p r) n / M p n * b p)%C) HI') as [x Hx].
    exists (extend n x ((b p - matvec n M x p) / M p n)%C). apply reduce_solve; auto.
  - exfalso. assert (Z : extend n (fun _ => C0) C1 n = C0).
    { apply HI; [| lia]. intros r Hr. rewrite matvec_extend.
      assert (M0 : M r n = C0) by (apply NNPP; intro; apply HN; exists r; auto). rewrite M0. unfold matvec.
      rewrite Csum_0 by (intros; ring). ring. }
    unfold extend in Z. rewrite Nat.eqb_refl in Z. apply (f_equal re) in Z. cbn in Z. lra.
Qed.
