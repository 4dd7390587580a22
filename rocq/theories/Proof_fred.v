(** Fredholm's alternative for complex matrices (Gaussian elimination), and for the 3-D FDFD matrix. *)
From Coq Require Import Reals Lra Lia List Arith Classical.
From Verif Require Import Cx Arr Model_coupling Model_yee Model_fdfd.
Local Open Scope R_scope.
Local Open Scope C_scope.

Lemma fredholm : forall n m (M : nat -> nat -> C) (b : nat -> C),
  (exists x, forall r, (r < n)%nat -> Csum m (fun k => M r k * x k) = b r) \/
  (exists y, (forall k, (k < m)%nat -> Csum n (fun r => y r * M r k) = C0) /\ Csum n (fun r => y r * b r) <> C0).
Proof.
  induction n as [| n IH]; intros m M b; [left; exists (fun _ => C0); intros; lia |].
  destruct (classic (exists p, (p < m)%nat /\ M n p <> C0)) as [(p & Hp & Hn) | HN].
  - destruct (IH m (fun r k => M r k - M r p / M n p * M n k) (fun r => b r - M r p / M n p * b n)) as [[x Hx] | (y & Hy & Hb)].
    + left. set (t := (b n - Csum m (fun k => M n k * x k)) / M n p).
      exists (fun k => x k + (if Nat.eqb k p then t else C0)).
      assert (E : forall r, Csum m (fun k => M r k * (x k + (if Nat.eqb k p then t else C0))) = Csum m (fun k => M r k * x k) + M r p * t).
      { intro r. rewrite (Csum_ext m _ (fun k => M r k * x k + (if Nat.eqb k p then M r k * t else C0))) by (intros k _; destruct (Nat.eqb k p); ring).
        rewrite Csum_add. f_equal. rewrite (Csum_single m _ p Hp); [rewrite Nat.eqb_refl; reflexivity |].
        intros k _ Hk. destruct (Nat.eqb_spec k p); [lia | reflexivity]. }
      intros r Hr. rewrite E. destruct (Nat.eq_dec r n) as [-> | Hne]; [unfold t; field; auto |].
      specialize (Hx r ltac:(lia)).
      rewrite (Csum_ext m _ (fun k => M r k * x k - M r p / M n p * (M n k * x k))) in Hx by (intros; ring). rewrite Csum_sub, Csum_scal in Hx.
      transitivity (Csum m (fun k => M r k * x k) - M r p / M n p * Csum m (fun k => M n k * x k) + M r p / M n p * b n); [unfold t; field; auto |].
      rewrite Hx. ring.
    + right. exists (fun r => if Nat.eqb r n then - Csum n (fun r => y r * (M r p / M n p)) else y r).
      assert (E : forall f, Csum (S n) (fun r => (if Nat.eqb r n then - Csum n (fun r => y r * (M r p / M n p)) else y r) * f r) =
        Csum n (fun r => y r * (f r - M r p / M n p * f n))).
      { intro f. cbn [Csum]. rewrite Nat.eqb_refl.
        rewrite (Csum_ext n _ (fun r => y r * f r)) by (intros r Hr; destruct (Nat.eqb_spec r n); [lia | reflexivity]).
        rewrite (Csum_ext n (fun r => y r * (f r - M r p / M n p * f n)) (fun r => y r * f r - y r * (M r p / M n p) * f n)) by (intros; ring).
        rewrite Csum_sub, Csum_scal_r. ring. }
      split; [intros k Hk; rewrite (E (fun r => M r k)); apply Hy; auto | rewrite (E b); exact Hb].
  - assert (Z : forall p, (p < m)%nat -> M n p = C0) by (intros p Hp; apply NNPP; intro; apply HN; exists p; auto).
    destruct (classic (b n = C0)) as [B0 | B0].
    + destruct (IH m M b) as [[x Hx] | (y & Hy & Hb)].
      * left. exists x. intros r Hr. destruct (Nat.eq_dec r n) as [-> | Hne]; [| apply Hx; lia].
        rewrite B0. apply Csum_0. intros k Hk. rewrite Z by auto. ring.
      * right. exists (fun r => if Nat.eqb r n then C0 else y r).
        assert (E : forall f, Csum (S n) (fun r => (if Nat.eqb r n then C0 else y r) * f r) = Csum n (fun r => y r * f r)).
        { intro f. cbn [Csum]. rewrite Nat.eqb_refl. rewrite (Csum_ext n _ (fun r => y r * f r)) by (intros r Hr; destruct (Nat.eqb_spec r n); [lia | reflexivity]). ring. }
        split; [intros k Hk; rewrite (E (fun r => M r k)); apply Hy; auto | rewrite (E b); exact Hb].
    + right. exists (fun r => if Nat.eqb r n then C1 else C0).
      assert (E : forall f, Csum (S n) (fun r => (if Nat.eqb r n then C1 else C0) * f r) = f n).
      { intro f. cbn [Csum]. rewrite Nat.eqb_refl, Csum_0; [ring |]. intros r Hr. destruct (Nat.eqb_spec r n); [lia | ring]. }
      split; [intros k Hk; rewrite (E (fun r => M r k)); apply Z; auto | rewrite (E b); exact B0].
Qed.
