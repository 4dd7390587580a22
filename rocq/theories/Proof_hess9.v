(** C93 with the division guard: misfit and gradient of a programmed vector unit for every eps >= 0. *)
From Coq Require Import Reals Lra Lia List ZArith Bool Arith Permutation FunctionalExtensionality.
From Verif Require Import Cx Arr Spec_circuit Model_coupling Model_forward Model_vector Model_hess Spec_mesh Spec_tree Spec_hess Proof_node Proof_mesh Proof_forward Proof_forward2 Proof_forward3 Proof_forward4 Proof_tree Proof_vector Proof_insitu
  Proof_hess1 Proof_hess2 Proof_hess3 Proof_hess4 Proof_hess5 Proof_hess6 Proof_hess7.
Import ListNotations.
Local Open Scope R_scope.

(** A nonnegative A + B cos s + C sin s has C^2 <= (A + B) (A - B). *)
Lemma trig_disc : forall A B C, (forall s, 0 <= A + B * cos s + C * sin s) -> C ^ 2 <= (A + B) * (A - B).
Proof.
  intros A B C H. set (w := mkC (- B) (- C)).
  destruct (Req_dec (Cn2 w) 0) as [Z | NZ].
  - unfold Cn2, w in Z. cbn [re im] in Z. assert (B = 0) by nra. assert (C = 0) by nra. subst. nra.
  - pose proof (Cn2_nonneg w) as Hw. pose proof (H (Carg w)) as K. pose proof (Carg_polar w) as P.
    pose proof (f_equal re P) as P1. pose proof (f_equal im P) as P2. unfold cis in P1, P2. cbn [re im RtoC Cmul w] in P1, P2.
    assert (Q : 0 < Cabs w) by (unfold Cabs; apply sqrt_lt_R0; lra).
    assert (S2 : Cabs w * Cabs w = B ^ 2 + C ^ 2) by (unfold Cabs; rewrite sqrt_def by lra; unfold Cn2, w; cbn [re im]; ring).
    fold w in P1, P2.
    assert (E1 : B * cos (Carg w) + C * sin (Carg w) = - Cabs w).
    { apply (Rmult_eq_reg_l (Cabs w)); [| lra]. replace (Cabs w * (B * cos (Carg w) + C * sin (Carg w))) with
        (B * (Cabs w * cos (Carg w) - 0 * sin (Carg w)) + C * (Cabs w * sin (Carg w) + 0 * cos (Carg w))) by ring. rewrite <- P1, <- P2. nra. }
    assert (G : Cabs w <= A) by lra. nra.
Qed.

Lemma unit_minimum_eps : forall eps n balanced v, 0 <= eps -> (2 <= n)%nat -> 0 < power n v ->
  exists m p, conj_unit eps (normalize n v) n balanced = Some (m, p) /\
    0 <= misfit m n (fun i => Cconj (normalize n v i)) p <= 2 * INR (n - 1) * eps /\
    (forall p', 0 <= misfit m n (fun i => Cconj (normalize n v i)) p') /\
    (forall a, (a < 2 * (n - 1))%nat -> exists d, derivable_pt_lim (fun s => misfit m n (fun i => Cconj (normalize n v i)) (bump n p a s)) 0 d /\
       d ^ 2 <= 8 * INR (n - 1) * eps).
Proof.
  intros eps n balanced v He Hn Hv. set (x := fun i => Cconj (normalize n v i)).
  destruct (tree_progable n n balanced TOP Hn (Nat.le_refl n)) as (t & m & Et & Es & Hp & _ & En & _).
  destruct (unit_bt n balanced TOP t Hn Et) as (T & T1 & T2 & T3 & T4 & T5). rewrite <- En in T1.
  destruct (unit_programmed n m x T Hn Hp T1 T2 T3 T4) as (p0 & q & W & _ & _ & _ & _ & _ & E6).
  assert (Hids : Permutation (ids T) (seq 0 (n - 1))) by (unfold ids; rewrite T1; apply (pg_null _ _ _ Hp)).
  assert (ND : NoDup (ids T)) by (eapply Permutation_NoDup; [apply Permutation_sym, Hids | apply seq_NoDup]).
  destruct (vector_unit_spec eps (fun i _ => x i) n 0 balanced TOP He Hn (or_introl eq_refl)) as (m' & p & w & y & Ev & _ & _ & Ey & Hsm & Him & Hre & Hpow & _).
  assert (Em : m' = m).
  { unfold vector_unit in Ev. rewrite Et in Ev. cbn [obind] in Ev. rewrite Es in Ev. cbn [obind] in Ev.
    destruct (program_vector_unit eps (fun i _ => x i) n 0 m) as [[pp ww] |]; cbn [obind] in Ev; [| discriminate].
    apply Some_inj in Ev. apply (f_equal (fun r => fst (fst r))) in Ev. cbn [fst snd] in Ev. symmetry. exact Ev. }
  subst m'. exists m, p. change (matrix_fn m false p x = Some y) in Ey.
  assert (P1 : power n (fun i => x i) = 1) by (apply normal_power; exact Hv).
  assert (NN : forall p', 0 <= misfit m n x p' <= 4).
  { intro p'. unfold misfit. rewrite (progable_matrix n TOP m p' x Hp).
    assert (Q : Cn2 (apply_gammas (gammas p') (run (node_ops TOP p' (in_order m)) x) (n - 1)%nat) <= 1).
    { rewrite <- P1. change (power n (fun i => x i)) with (power n x).
      assert (R1 : power n (apply_gammas (gammas p') (run (node_ops TOP p' (in_order m)) x)) = power n x).
      { rewrite apply_gammas_power. apply run_power; [| apply node_ops_unit].
        apply node_ops_ok. intros nd Hin. apply in_order_In in Hin. apply (pg_null _ _ _ Hp) in Hin. auto. }
      rewrite <- R1. unfold power. apply (Rsum_term_le n (fun i => Cn2 (apply_gammas (gammas p') (run (node_ops TOP p' (in_order m)) x) i))); [intros; apply Cn2_nonneg | lia]. }
    unfold Cn2 in Q. split; nra. }
  split; [unfold conj_unit; unfold x in Ev; rewrite Ev; reflexivity |].
  assert (M0 : 0 <= misfit m n x p <= 2 * INR (n - 1) * eps).
  { split; [apply NN |]. unfold misfit. rewrite Ey. rewrite P1 in Hpow. unfold power in Hpow.
    replace n with (S (n - 1)) in Hpow at 1 by lia. cbn [Rsum] in Hpow.
    assert (S1 : Rsum (n - 1) (fun i => Cn2 (y i)) <= INR (n - 1) * eps).
    { clear - Hsm. induction (n - 1)%nat as [| k IH]; [cbn; lra |]. cbn [Rsum]. rewrite S_INR.
      pose proof (Hsm k ltac:(lia)). pose proof (IH ltac:(intros; apply Hsm; lia)). lra. }
    assert (Y : Cn2 (y (n - 1)%nat) = re (y (n - 1)%nat) ^ 2) by (unfold Cn2; rewrite Him; ring).
    pose proof (Rsum_nonneg (n - 1) (fun i => Cn2 (y i)) ltac:(intros; apply Cn2_nonneg)) as S0.
    assert (re (y (n - 1)%nat) <= 1) by nra. nra. }
  split; [exact M0 |]. split; [intro p'; apply NN |].
  intros a Ha.
  assert (FB : forall s, misfit m n x (bump n p a s) = 2 - 2 * re (cis (gammas p (n - 1)%nat) * (za (zp p) x T + dif (zp p) x (ph_of n a) T * (cis s - C1)))%C).
  { intro s.
    assert (Eb : bump n (bump n p a s) a 0 = bump n p a s).
    { unfold bump. destruct (Nat.ltb a (n - 1)); cbn [thetas phis gammas]; f_equal; apply functional_extensionality; intro k; unfold upd;
        repeat (rewrite Nat.eqb_refl || match goal with |- context [Nat.eqb ?u ?w] => destruct (Nat.eqb_spec u w) end); subst; try lra; try congruence. }
    unfold misfit. rewrite <- Eb. destruct (E6 (bump n (bump n p a s) a 0)) as [K | (y' & -> & ->)].
    - rewrite (progable_matrix n TOP m _ x Hp) in K. discriminate.
    - rewrite !bump_gammas, za_amp, zp_bump2, (za_bump (zp p) x _ _ _ _ T ND), cis_0. do 3 f_equal. ring. }
  set (g := cis (gammas p (n - 1)%nat)) in *. set (F := za (zp p) x T) in *. set (D := dif (zp p) x (ph_of n a) T) in *.
  exists (- im (RtoC (-2) * g * D)%C). split.
  - assert (E : (fun s => misfit m n x (bump n p a s)) = (fun s => re ((RtoC 2 + RtoC (-2) * g * F) + (RtoC (-2) * g * D) * (cis s - C1))%C)).
    { apply functional_extensionality. intro s. rewrite FB. destruct g, F, D. unfold cis. cbn. ring. }
    rewrite E. pose proof (deriv_re_cis (RtoC (-2) * g * D)%C (RtoC 2 + RtoC (-2) * g * F)%C 0) as H. rewrite cis_0 in H.
    replace (RtoC (-2) * g * D * C1)%C with (RtoC (-2) * g * D)%C in H by ring. exact H.
  - set (A := 2 - 2 * re (g * (F - D))%C). set (B := - 2 * re (g * D)%C). set (Cc := 2 * im (g * D)%C).
    assert (FE : forall s, misfit m n x (bump n p a s) = A + B * cos s + Cc * sin s).
    { intro s. rewrite FB. unfold A, B, Cc. destruct g, F, D. unfold cis. cbn. ring. }
    assert (Dis : Cc ^ 2 <= (A + B) * (A - B)) by (apply trig_disc; intro s; rewrite <- FE; apply NN).
    assert (Ed : - im (RtoC (-2) * g * D)%C = Cc) by (unfold Cc; destruct g, D; cbn; ring). rewrite Ed.
    assert (E0 : A + B = misfit m n x p).
    { pose proof (FE 0) as K. rewrite cos_0, sin_0 in K.
      assert (Eb : bump n p a 0 = p).
      { unfold bump. destruct p as [th ph gm]. destruct (Nat.ltb a (n - 1)); cbn [thetas phis gammas]; f_equal; apply functional_extensionality; intro k; unfold upd;
          match goal with |- context [Nat.eqb ?u ?w] => destruct (Nat.eqb_spec u w) end; subst; lra. }
      rewrite Eb in K. lra. }
    assert (E1 : 0 <= A - B <= 4).
    { pose proof (FE PI) as K. rewrite cos_PI, sin_PI in K. pose proof (NN (bump n p a PI)). lra. }
    assert (0 <= A + B) by (rewrite E0; apply M0). nra.
Qed.
