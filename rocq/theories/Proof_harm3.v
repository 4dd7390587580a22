(** The jax backend is not reciprocal (C141): three cells, three steps. *)
From Coq Require Import Reals List Arith Lia Lra.
From Verif Require Import Cx Arr Model_yee Spec_yee Proof_yee Proof_yee2 Model_fdtd Spec_fdtd Proof_fdtd Spec_harm.
Import ListNotations.
Local Open Scope R_scope.

Definition g3 : fgrid := mkGrid (fun a => match a with AX => 3%nat | _ => 1%nat end) 1 (fun _ => 1) (fun i _ _ => if Nat.eqb i 2 then 3 else 1).
Lemma g3_wf : wf_grid g3.
Proof.
  split; [cbn; lia |]. split; [intros []; cbn; lia |]. split; [intros; cbn; lra |]. intros [] H; cbn in *; auto. discriminate H.
Qed.
Lemma g3_dt : dt_of g3 = 1.
Proof. unfold dt_of, inv_sq, is_active. cbn. replace (/ (1 * 1) + 0 + 0) with 1 by field. rewrite sqrt_1. field. Qed.
Definition E3 (st : fstate) (a b c : R) : Prop := f_e st AZ 0%nat 0%nat 0%nat = RtoC a /\ f_e st AZ 1%nat 0%nat 0%nat = RtoC b /\ f_e st AZ 2%nat 0%nat 0%nat = RtoC c.
Definition H3 (st : fstate) (a b c : R) : Prop := f_h st AY 0%nat 0%nat 0%nat = RtoC a /\ f_h st AY 1%nat 0%nat 0%nat = RtoC b /\ f_h st AY 2%nat 0%nat 0%nat = RtoC c.
Lemma eps3 : eps_t g3 true AZ 0%nat 0%nat 0%nat = 2 /\ eps_t g3 true AZ 1%nat 0%nat 0%nat = 1 /\ eps_t g3 true AZ 2%nat 0%nat 0%nat = 2.
Proof. unfold eps_t, yee_avg_jax, g3. cbn. unfold avg_axis, ralong. cbn. repeat split; field. Qed.
Lemma curl_h3 : forall h, curl_h g3 h AZ 0%nat 0%nat 0%nat = (h AY 0%nat 0%nat 0%nat - h AY 2%nat 0%nat 0%nat)%C /\
  curl_h g3 h AZ 1%nat 0%nat 0%nat = (h AY 1%nat 0%nat 0%nat - h AY 0%nat 0%nat 0%nat)%C /\
  curl_h g3 h AZ 2%nat 0%nat 0%nat = (h AY 2%nat 0%nat 0%nat - h AY 1%nat 0%nat 0%nat)%C.
Proof.
  intro h. unfold curl_h, curl_fn, diff_fn, roll_p1, along, g_dx, uniform_dx, is_active, g3. cbn.
  change (RtoC 1) with C1. repeat split; field; intro X; apply (f_equal re) in X; cbn in X; lra.
Qed.
Lemma curl_e3 : forall e, curl_e g3 e AY 0%nat 0%nat 0%nat = (e AZ 0%nat 0%nat 0%nat - e AZ 1%nat 0%nat 0%nat)%C /\
  curl_e g3 e AY 1%nat 0%nat 0%nat = (e AZ 1%nat 0%nat 0%nat - e AZ 2%nat 0%nat 0%nat)%C /\
  curl_e g3 e AY 2%nat 0%nat 0%nat = (e AZ 2%nat 0%nat 0%nat - e AZ 0%nat 0%nat 0%nat)%C.
Proof.
  intro h. unfold curl_e, curl_fn, diff_fn, roll_m1, along, g_dx, uniform_dx, is_active, g3. cbn.
  change (RtoC 1) with C1. repeat split; field; intro X; apply (f_equal re) in X; cbn in X; lra.
Qed.
Definition pin (c : bool) (w x : R) : R := if c then w else x.
Lemma step3 : forall st p w a b c x y z, (p < 3)%nat -> E3 st a b c -> H3 st x y z ->
  let a' := pin (Nat.eqb p 0) (- w / 2) (a + (x - z) / 2) in
  let b' := pin (Nat.eqb p 1) (- w) (b + (y - x)) in
  let c' := pin (Nat.eqb p 2) (- w / 2) (c + (z - y) / 2) in
  E3 (step g3 true st [dipole AZ (p, 0%nat, 0%nat) (RtoC w)]) a' b' c' /\
  H3 (step g3 true st [dipole AZ (p, 0%nat, 0%nat) (RtoC w)]) (x + (b' - a')) (y + (c' - b')) (z + (a' - c')).
Proof.
  intros st p w a b c x y z Hp (Ea & Eb & Ec) (Hx & Hy & Hz) a' b' c'. set (st' := step _ _ _ _).
  destruct (curl_h3 (f_h st)) as (K0 & K1 & K2). destruct eps3 as (P0 & P1 & P2).
  assert (S' : E3 st' a' b' c').
  { unfold E3, st', step, step_e. cbn [f_e fold_left]. unfold add_src_e, dipole, at_set. cbn [src_e src_region fst snd].
    rewrite K0, K1, K2, P0, P1, P2, g3_dt, Ea, Eb, Ec, Hx, Hy, Hz. rewrite !Bool.andb_true_r.
    unfold a', b', c', pin. rewrite (Nat.eqb_sym p 0), (Nat.eqb_sym p 1), (Nat.eqb_sym p 2).
    repeat split; match goal with |- context [if ?q then _ else _] => destruct q end; apply C_eq; unfold Cdiv, Cinv, Cn2; cbn; field. }
  split; [exact S' |]. destruct S' as (Fa & Fb & Fc).
  destruct (curl_e3 (f_e st')) as (L0 & L1 & L2).
  unfold H3, st', step, step_h. cbn [f_h fold_left]. unfold add_src_h, dipole. cbn [src_h].
  change (step_e g3 true st _) with (f_e st').
  rewrite L0, L1, L2, Fa, Fb, Fc, Hx, Hy, Hz, g3_dt. repeat split; apply C_eq; cbn; ring.
Qed.
Lemma run3 : forall p, (p < 3)%nat -> exists a b c x y z a1 b1 c1 x1 y1 z1,
  let st := run g3 true zero_state (dipole_run AZ (p, 0%nat, 0%nat) [C1; C0; C0]) in
  a = pin (Nat.eqb p 0) (-1 / 2) 0 /\ b = pin (Nat.eqb p 1) (-1) 0 /\ c = pin (Nat.eqb p 2) (-1 / 2) 0 /\
  x = b - a /\ y = c - b /\ z = a - c /\
  a1 = pin (Nat.eqb p 0) 0 (a + (x - z) / 2) /\ b1 = pin (Nat.eqb p 1) 0 (b + (y - x)) /\ c1 = pin (Nat.eqb p 2) 0 (c + (z - y) / 2) /\
  x1 = x + (b1 - a1) /\ y1 = y + (c1 - b1) /\ z1 = z + (a1 - c1) /\
  E3 st (pin (Nat.eqb p 0) 0 (a1 + (x1 - z1) / 2)) (pin (Nat.eqb p 1) 0 (b1 + (y1 - x1))) (pin (Nat.eqb p 2) 0 (c1 + (z1 - y1) / 2)).
Proof.
  intros p Hp. do 12 eexists. intro st. do 12 (split; [reflexivity |]). unfold st, dipole_run. cbn [map run].
  assert (Z : E3 zero_state 0 0 0 /\ H3 zero_state 0 0 0) by (repeat split; reflexivity). destruct Z as [Z1 Z2].
  change C1 with (RtoC 1). change C0 with (RtoC 0).
  destruct (step3 _ p 1 _ _ _ _ _ _ Hp Z1 Z2) as [S1 T1]. destruct (step3 _ p 0 _ _ _ _ _ _ Hp S1 T1) as [S2 T2].
  destruct (step3 _ p 0 _ _ _ _ _ _ Hp S2 T2) as [S3 _].
  destruct p as [| [| [| p]]]; [| | | lia]; cbn [Nat.eqb pin] in *;
  (destruct S3 as (X & Y & V); split; [| split]; first [rewrite X | rewrite Y | rewrite V]; f_equal; field).
Qed.
Theorem jax_not_reciprocal : exists g p q w, wf_grid g /\ (forall i j k, in_grid (g_shape g) i j k -> 1 <= g_eps g i j k) /\
  cell_in (g_shape g) p /\ cell_in (g_shape g) q /\
  at_cell (f_e (run g true zero_state (dipole_run AZ p w))) AZ q <> at_cell (f_e (run g true zero_state (dipole_run AZ q w))) AZ p.
Proof.
  exists g3, (0, 0, 0)%nat, (1, 0, 0)%nat, [C1; C0; C0]. split; [exact g3_wf |]. split.
  { intros i j k _. cbn. destruct (Nat.eqb i 2); lra. }
  split; [unfold cell_in, in_grid; cbn; lia |]. split; [unfold cell_in, in_grid; cbn; lia |].
  destruct (run3 0 ltac:(lia)) as (a & b & c & x & y & z & a1 & b1 & c1 & x1 & y1 & z1 & ? & ? & ? & ? & ? & ? & ? & ? & ? & ? & ? & ? & (_ & Q1 & _)).
  destruct (run3 1 ltac:(lia)) as (a' & b' & c' & x' & y' & z' & a1' & b1' & c1' & x1' & y1' & z1' & ? & ? & ? & ? & ? & ? & ? & ? & ? & ? & ? & ? & (Q2 & _ & _)).
  unfold at_cell. cbn [fst snd]. rewrite Q1, Q2. cbn [Nat.eqb pin] in *. subst. intro X. apply (f_equal re) in X. cbn in X. lra.
Qed.
