(** Small facts: examples, the beta curl, permittivity averaging. *)
From Coq Require Import Reals List Arith Lra Lia.
From Verif Require Import Cx Arr Model_coupling Model_yee Spec_yee Proof_yee Proof_yee2 Model_fdtd Spec_fdtd Proof_energy Proof_energy2.
Local Open Scope R_scope.

Lemma yee_example : let s := fun a => match a with AX => 3 | AY => 2 | AZ => 1 end%nat in
  positive_shape s /\ (1 < s AX)%nat /\ Ci <> C1 /\ in_grid s 2 1 0 /\
  diff_fn s (uniform_dx (fun _ => 1)) false (fun i j _ => RtoC (INR i)) AX 2%nat 1%nat 0%nat = RtoC (-2).
Proof.
  intro s. split; [intros []; unfold s; lia |]. split; [unfold s; lia |]. split; [intro H; inversion H; lra |].
  split; [unfold in_grid, s; lia |].
  unfold diff_fn, roll_m1, along, nxt, uniform_dx, s. simpl ((2 + 1) mod 3)%nat.
  apply C_eq; unfold Cdiv, Cinv, Cn2; cbn [re im RtoC Csub Cmul INR]; field.
Qed.
Lemma inner_conj : forall s u v, inner s u v = Cconj (inner s v u).
Proof. intros. unfold inner. rewrite grid_sum_conj. apply grid_sum_ext; intros. rewrite Cconj_mul, Cconj_conj. ring. Qed.
Lemma diff_adjoint_b : forall s (h : axis -> R) a f g,
  inner s (diff_fn s (uniform_dx h) true f a) g = (- inner s f (diff_fn s (uniform_dx h) false g a))%C.
Proof.
  intros. rewrite inner_conj. rewrite (inner_conj s f). rewrite <- Cconj_opp. f_equal. rewrite diff_adjoint. ring.
Qed.
Lemma adjoint_nonuniform : exists s dx a f g,
  inner s (diff_fn s dx true f a) g <> (- inner s f (diff_fn s dx false g a))%C.
Proof.
  exists (fun a => match a with AX => 2%nat | _ => 1%nat end), (fun _ m => if Nat.eqb m 0 then RtoC 1 else RtoC 2), AX,
    (fun i _ _ => if Nat.eqb i 0 then C1 else C0), (fun i _ _ => if Nat.eqb i 0 then C0 else C1).
  unfold inner, grid_sum, diff_fn, roll_m1, roll_p1, along, coord, nxt, prv. cbn.
  intro H. assert (E := f_equal re H). unfold Cdiv, Cinv, Cn2 in E. cbn in E. field_simplify in E. lra.
Qed.
Lemma diff_opp : forall s dx o f a i j k,
  diff_fn s dx o (fun x y z => - f x y z)%C a i j k = (- diff_fn s dx o f a i j k)%C.
Proof. intros. destruct a, o; unfold diff_fn, roll_m1, roll_p1, along, Cdiv; ring. Qed.
Lemma div_curl_beta : forall s dx (of_h : bool) beta (f : vfld) i j k,
  let c := curl_beta_fn (diff_fn s dx of_h) beta f in
  (diff_fn s dx of_h (c AX) AX i j k + diff_fn s dx of_h (c AY) AY i j k - Ci * RtoC beta * c AZ i j k)%C = C0.
Proof.
  intros s dx o beta f i j k c. unfold c, curl_beta_fn. rewrite diff_add, diff_sub, !diff_scal.
  rewrite (diff_commute s dx o o (f AZ) AX AY) by discriminate. ring.
Qed.

Lemma yee_avg_const : forall s p x, (forall i j k, in_grid s i j k -> p i j k = x) ->
  forall c i j k, in_grid s i j k -> yee_avg s p c i j k = x.
Proof.
  intros s p x H c i j k Hin. assert (Hb : x <= yee_avg s p c i j k <= x); [| lra].
  apply yee_avg_bounds; auto. intros. rewrite H; auto. lra.
Qed.
Lemma yee_avg_bounds : forall s p lo hi, (forall i j k, in_grid s i j k -> lo <= p i j k <= hi) ->
  forall c i j k, in_grid s i j k -> lo <= yee_avg s p c i j k <= hi.
Proof. exact Proof_energy2.yee_avg_bounds. Qed.
Lemma yee_avg_versions : forall s p c i j k, yee_avg_jax s p c i j k = yee_avg s p c i j k /\
  yee_avg_2d_z s p i j k = yee_avg s p AZ i j k.
Proof. intros. split; [destruct c |]; reflexivity. Qed.
Lemma avg_axis_total : forall s a p, rgrid_sum s (avg_axis s a p) = rgrid_sum s p.
Proof.
  intros s a p.
  rewrite (rgrid_sum_ext s (avg_axis s a p) (fun i j k => / 2 * (p i j k + ralong a (prv (s a)) p i j k)))
    by (intros; unfold avg_axis; field).
  rewrite rgrid_sum_scal, rgrid_sum_add.
  assert (E : rgrid_sum s (fun i j k => ralong a (prv (s a)) p i j k) = rgrid_sum s p).
  { change (rgrid_sum s (ralong a (prv (s a)) p) = rgrid_sum s p). rewrite <- (rgrid_sum_nxt s a (ralong a (prv (s a)) p)). apply rgrid_sum_ext.
    intros i j k (Hi & Hj & Hk). destruct a; unfold ralong; rewrite prv_nxt; auto. }
  change (/ 2 * (rgrid_sum s p + rgrid_sum s (fun i j k => ralong a (prv (s a)) p i j k)) = rgrid_sum s p). rewrite E. field.
Qed.
Lemma yee_avg_total : forall s p c, positive_shape s ->
  Rsum (s AX) (fun i => Rsum (s AY) (fun j => Rsum (s AZ) (fun k => yee_avg s p c i j k))) =
  Rsum (s AX) (fun i => Rsum (s AY) (fun j => Rsum (s AZ) (fun k => p i j k))).
Proof.
  intros s p c _. change (rgrid_sum s (yee_avg s p c) = rgrid_sum s p).
  destruct c; unfold yee_avg; rewrite ?avg_axis_total; reflexivity.
Qed.
Lemma yee_avg_example : let s := fun a => match a with AX => 2 | AY => 2 | AZ => 1 end%nat in
  let p := fun i j _ : nat => INR (1 + i + j) in
  (forall i j k, in_grid s i j k -> 1 <= p i j k <= 3) /\ yee_avg s p AX 0%nat 0%nat 0%nat = 3 / 2.
Proof.
  intros s p. split.
  - intros i j k (Hi & Hj & _). unfold s in *. unfold p.
    assert (Hi' : (i = 0 \/ i = 1)%nat) by lia. assert (Hj' : (j = 0 \/ j = 1)%nat) by lia.
    destruct Hi' as [-> | ->], Hj' as [-> | ->]; simpl; lra.
  - unfold yee_avg, avg_axis, ralong, prv, p, s. simpl. field.
Qed.
