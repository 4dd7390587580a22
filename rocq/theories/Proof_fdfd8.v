(** COO assembly of the TM operator: the two sparsity patterns coincide. *)
From Coq Require Import Reals List Arith ZArith Lra Lia Bool.
From Verif Require Import Cx Arr Model_coupling Model_yee Spec_yee Proof_yee Proof_yee2 Proof_yee3 Model_fdfd Spec_fdfd Proof_fdfd Proof_fdfd2 Proof_fdfd3 Proof_fdfd4 Proof_fdfd7.
Import ListNotations.
Local Open Scope R_scope.

Definition basis (c : nat) : vec := fun r => if Nat.eqb r c then C1 else C0.
Lemma entry_apply : forall n (M : mat) r c, (c < n)%nat -> M r c = matvec n M (basis c) r.
Proof.
  intros n M r c Hc. unfold matvec, basis. rewrite (Csum_single n _ c Hc).
  - rewrite Nat.eqb_refl. ring.
  - intros q _ Hq. destruct (Nat.eqb_spec q c); [contradiction | ring].
Qed.
(** The unit field of the cell (x, y, z), read along axis a from the cell (i, j, k). *)
Definition unit_fld (x y z : nat) : fld := fun i j k => if (Nat.eqb i x && Nat.eqb j y && Nat.eqb k z)%bool then C1 else C0.
Lemma ridx_inj : forall s i j k x y z, in_grid s i j k -> in_grid s x y z -> ridx s i j k = ridx s x y z -> i = x /\ j = y /\ k = z.
Proof.
  intros s i j k x y z (Hi & Hj & Hk) (Hx & Hy & Hz) E. unfold ridx in E.
  destruct (divmod_pair (s AZ) (i * s AY + j) k Hk) as [E1 E2]. destruct (divmod_pair (s AZ) (x * s AY + y) z Hz) as [E3 E4].
  destruct (divmod_pair (s AY) i j Hj) as [E5 E6]. destruct (divmod_pair (s AY) x y Hy) as [E7 E8].
  rewrite E in E1, E2. rewrite E3 in E1. rewrite E4 in E2. rewrite <- E1 in E5, E6. rewrite E7 in E5. rewrite E8 in E6. auto.
Qed.
Lemma unravel_basis : forall s i j k x y z, in_grid s i j k -> in_grid s x y z -> unravel s (basis (ridx s x y z)) i j k = unit_fld x y z i j k.
Proof.
  intros s i j k x y z H H'. unfold unravel, basis, unit_fld.
  destruct (Nat.eqb_spec (ridx s i j k) (ridx s x y z)) as [E | E].
  - destruct (ridx_inj s i j k x y z H H' E) as (-> & -> & ->). rewrite !Nat.eqb_refl. reflexivity.
  - destruct (Nat.eqb_spec i x), (Nat.eqb_spec j y), (Nat.eqb_spec k z); cbn; auto. subst. contradiction.
Qed.
(** What both products look like along the axis. *)
Definition stencil (n m m' : nat) (A A' : C) : C :=
  (A * ((if Nat.eqb (nxt n m) m' then C1 else C0) - (if Nat.eqb m m' then C1 else C0)) -
   A' * ((if Nat.eqb m m' then C1 else C0) - (if Nat.eqb (prv n m) m' then C1 else C0)))%C.
Definition pattern (n m m' : nat) : bool := (negb (Nat.eqb n 1) && (Nat.eqb m m' || Nat.eqb (nxt n m) m' || Nat.eqb (prv n m) m'))%bool.
Lemma stencil_nz : forall n m m' A A', (m < n)%nat -> 0 < re A * re A' -> Ceqb (stencil n m m' A A') C0 = negb (pattern n m m').
Proof.
  intros n m m' A A' Hm HA.
  assert (Hz : forall z w, z <> C0 -> w = false -> Ceqb z C0 = w).
  { intros z w Hz ->. destruct (Ceqb z C0) eqn:E; auto. apply Ceqb_true in E. contradiction. }
  assert (Hs : (A + A')%C <> C0) by (intros E; apply (f_equal re) in E; cbn in E; nra).
  assert (H1 : A <> C0) by (intros E; subst A; cbn in HA; lra).
  assert (H2 : A' <> C0) by (intros E; subst A'; cbn in HA; lra).
  unfold stencil, pattern. destruct (Nat.eqb_spec n 1) as [E | E].
  - subst n. assert (m = 0)%nat by lia. subst m. cbn [negb andb]. apply Ceqb_true.
    change (nxt 1 0) with 0%nat. change (prv 1 0) with 0%nat. destruct (Nat.eqb 0 m'); ring.
  - assert (Hn : nxt n m <> m) by (rewrite nxt_lt by auto; destruct (Nat.eqb_spec (m + 1) n); lia).
    assert (Hp : prv n m <> m) by (rewrite prv_lt by auto; destruct m; lia).
    cbn [negb andb]. destruct (Nat.eqb_spec m m') as [E1 | E1].
    + subst m'. rewrite (proj2 (Nat.eqb_neq (nxt n m) m)), (proj2 (Nat.eqb_neq (prv n m) m)) by auto. cbn [orb negb].
      apply Hz; auto. intros E2. apply Hs. replace (A + A')%C with (- (A * (C0 - C1) - A' * (C1 - C0)))%C by ring. rewrite E2. ring.
    + destruct (Nat.eqb (nxt n m) m'), (Nat.eqb (prv n m) m'); cbn [orb negb].
      * apply Hz; auto. intros E2. apply Hs. rewrite <- E2. ring.
      * apply Hz; auto. intros E2. apply H1. rewrite <- E2. ring.
      * apply Hz; auto. intros E2. apply H2. rewrite <- E2. ring.
      * apply Ceqb_true. ring.
Qed.
Lemma Ceqb_scal : forall c z, c <> C0 -> Ceqb (c * z)%C C0 = Ceqb z C0.
Proof.
  intros c z Hc. destruct (Ceqb z C0) eqn:E.
  - apply Ceqb_true in E. subst. apply Ceqb_true. ring.
  - destruct (Ceqb (c * z)%C C0) eqn:E2; auto. apply Ceqb_true in E2. exfalso.
    assert (z = C0) by (apply (Cmul_cancel c); auto; rewrite E2; ring). subst. rewrite (proj2 (Ceqb_true C0 C0)) in E by reflexivity. discriminate.
Qed.
(** Cells that differ off the axis. *)
Definition same_line (a : axis) (i j k x y z : nat) : bool :=
  match a with AX => Nat.eqb j y && Nat.eqb k z | AY => Nat.eqb i x && Nat.eqb k z | AZ => Nat.eqb i x && Nat.eqb j y end%bool.
Lemma along_unit : forall a q i j k x y z, along a q (unit_fld x y z) i j k =
  if (same_line a i j k x y z && Nat.eqb (q (coord a i j k)) (coord a x y z))%bool then C1 else C0.
Proof.
  intros. destruct a; cbn [along same_line coord]; unfold unit_fld.
  - destruct (Nat.eqb (q i) x), (Nat.eqb j y), (Nat.eqb k z); reflexivity.
  - destruct (Nat.eqb i x), (Nat.eqb (q j) y), (Nat.eqb k z); reflexivity.
  - destruct (Nat.eqb i x), (Nat.eqb j y), (Nat.eqb (q k) z); reflexivity.
Qed.
Definition rcoord (a : axis) (q : nat -> nat) (i j k : nat) : nat * nat * nat :=
  match a with AX => (q i, j, k) | AY => (i, q j, k) | AZ => (i, j, q k) end.
Lemma bf_entry : forall s F B a (t : rfld) i j k x y z, in_grid s i j k -> in_grid s x y z ->
  matmul (npix s) (matmul (npix s) (deriv s B (fun _ => C1) true a) (diagm s t)) (deriv s F (fun _ => C1) false a) (ridx s i j k) (ridx s x y z) =
  if same_line a i j k x y z then
    (Cinv (B a (coord a i j k)) * stencil (s a) (coord a i j k) (coord a x y z)
       (RtoC (t i j k) * Cinv (F a (coord a i j k))) (RtoC (ralong a (prv (s a)) t i j k) * Cinv (F a (prv (s a) (coord a i j k)))))%C
  else C0.
Proof.
  intros s F B a t i j k x y z H H'. rewrite (entry_apply (npix s)) by (apply ridx_bound; auto). rewrite deriv2t_apply, quot_diff by auto.
  rewrite (diff_ext s B true _ (fun i j k => RtoC (t i j k) * diff_fn s F false (unit_fld x y z) a i j k)%C).
  2:{ intros. f_equal. rewrite quot_diff by auto. apply diff_ext; auto. intros. apply unravel_basis; auto. }
  2:{ auto. }
  pose proof H as (Hi & Hj & Hk). unfold diff_fn, roll_m1, roll_p1, stencil, Cdiv.
  destruct a; cbn [along same_line coord ralong]; rewrite nxt_prv by auto; unfold unit_fld.
  - destruct (Nat.eqb_spec j y), (Nat.eqb_spec k z); cbn [andb]; rewrite ?andb_true_r, ?andb_false_r; ring.
  - destruct (Nat.eqb_spec i x), (Nat.eqb_spec k z); cbn [andb]; rewrite ?andb_true_r, ?andb_false_r; ring.
  - destruct (Nat.eqb_spec i x), (Nat.eqb_spec j y); cbn [andb]; rewrite ?andb_true_r, ?andb_false_r; ring.
Qed.
Lemma fb_entry : forall s F B a i j k x y z, in_grid s i j k -> in_grid s x y z ->
  matmul (npix s) (deriv s F (fun _ => C1) false a) (deriv s B (fun _ => C1) true a) (ridx s i j k) (ridx s x y z) =
  if same_line a i j k x y z then
    (Cinv (F a (coord a i j k)) * stencil (s a) (coord a i j k) (coord a x y z)
       (Cinv (B a (nxt (s a) (coord a i j k)))) (Cinv (B a (coord a i j k))))%C
  else C0.
Proof.
  intros s F B a i j k x y z H H'. rewrite (entry_apply (npix s)) by (apply ridx_bound; auto). rewrite deriv2_apply, quot_diff by auto.
  rewrite (diff_ext s F false _ (fun i j k => diff_fn s B true (unit_fld x y z) a i j k)%C).
  2:{ intros. rewrite quot_diff by auto. apply diff_ext; auto. intros. apply unravel_basis; auto. }
  2:{ auto. }
  pose proof H as (Hi & Hj & Hk). unfold diff_fn, roll_m1, roll_p1, stencil, Cdiv.
  destruct a; cbn [along same_line coord ralong]; rewrite prv_nxt by auto; unfold unit_fld.
  - destruct (Nat.eqb_spec j y), (Nat.eqb_spec k z); cbn [andb]; rewrite ?andb_true_r, ?andb_false_r; ring.
  - destruct (Nat.eqb_spec i x), (Nat.eqb_spec k z); cbn [andb]; rewrite ?andb_true_r, ?andb_false_r; ring.
  - destruct (Nat.eqb_spec i x), (Nat.eqb_spec j y); cbn [andb]; rewrite ?andb_true_r, ?andb_false_r; ring.
Qed.
Lemma re_inv_pos : forall z, 0 < re z -> 0 < re (Cinv z).
Proof.
  intros z H. unfold Cinv. cbn [re]. apply Rdiv_lt_0_compat; auto. unfold Cn2. nra.
Qed.
Lemma pos_nz : forall z, 0 < re z -> Cinv z <> C0.
Proof. intros z H E. apply re_inv_pos in H. rewrite E in H. cbn in H. lra. Qed.
Lemma tm_supports : forall d a t, d_bloch d = (fun _ => C1) -> pos_pixel (d_shape d) (d_dxf d) -> pos_pixel (d_shape d) (d_dxb d) ->
  (forall i j k, in_grid (d_shape d) i j k -> t i j k < 0) ->
  support (dn d) (tm_term d a t) = tm_idx d a.
Proof.
  intros d a t Hb HF HB Ht. unfold tm_idx, support. apply filter_ext_in. intros [r c] Hin.
  unfold positions in Hin. apply in_prod_iff in Hin. destruct Hin as [Hr Hc]. apply in_seq in Hr. apply in_seq in Hc. cbn [fst snd].
  f_equal. assert (Hr' : (r < npix (d_shape d))%nat) by (unfold dn in Hr; lia). assert (Hc' : (c < npix (d_shape d))%nat) by (unfold dn in Hc; lia).
  destruct (ridx_inv _ r Hr') as (i & j & k & H & ->). destruct (ridx_inv _ c Hc') as (x & y & z & H' & ->).
  unfold tm_term, db_, df_, dn. rewrite Hb, bf_entry, fb_entry by auto. set (s := d_shape d) in *.
  assert (Hco : forall i j k, in_grid s i j k -> (coord a i j k < s a)%nat) by (intros ? ? ? (? & ? & ?); destruct a; auto).
  assert (Hal : in_grid s i j k -> ralong a (prv (s a)) t i j k < 0).
  { intros (Hi & Hj & Hk). destruct a; cbn [ralong]; apply Ht; repeat split; auto; apply prv_bound; auto. }
  destruct (same_line a i j k x y z); [| reflexivity].
  rewrite !Ceqb_scal by (apply pos_nz; (apply HF || apply HB); auto). rewrite !stencil_nz; auto.
  - apply Rmult_lt_0_compat; apply re_inv_pos, HB; [apply nxt_bound |]; auto.
  - assert (P1 : 0 < re (Cinv (d_dxf d a (coord a i j k)))) by (apply re_inv_pos, HF; auto).
    assert (P2 : 0 < re (Cinv (d_dxf d a (prv (s a) (coord a i j k))))) by (apply re_inv_pos, HF, prv_bound; auto).
    pose proof (Ht i j k H) as T1. pose proof (Hal H) as T2.
    cbn [re Cmul RtoC im]. rewrite !Rmult_0_l, !Rminus_0_r.
    assert (Q1 : t i j k * re (Cinv (d_dxf d a (coord a i j k))) < 0) by nra.
    assert (Q2 : ralong a (prv (s a)) t i j k * re (Cinv (d_dxf d a (prv (s a) (coord a i j k)))) < 0) by nra. nra.
Qed.
Lemma tm_term_neg : forall d a x r c, tm_term d a (neg_inv x) r c = (- tm_term d a (inv_eps x) r c)%C.
Proof.
  intros. unfold tm_term, matmul.
  replace (- Csum (dn d) (fun k => Csum (dn d) (fun q => db_ d a r q * diagm (d_shape d) (inv_eps x) q k) * df_ d a k c))%C
    with ((- C1) * Csum (dn d) (fun k => Csum (dn d) (fun q => db_ d a r q * diagm (d_shape d) (inv_eps x) q k) * df_ d a k c))%C by ring.
  rewrite <- Csum_scal. apply Csum_ext; intros k _.
  rewrite (Csum_ext (dn d) (fun q => db_ d a r q * diagm (d_shape d) (neg_inv x) q k)%C (fun q => (- C1) * (db_ d a r q * diagm (d_shape d) (inv_eps x) q k))%C).
  - rewrite Csum_scal. ring.
  - intros q _. unfold diagm. destruct (Nat.eqb q k); [| ring]. unfold ravel, neg_inv, inv_eps.
    match goal with |- (_ * RtoC (-1 / ?u))%C = _ => replace (RtoC (-1 / u)) with (- RtoC (1 / u))%C by (apply C_eq; cbn; unfold Rdiv; ring) end. ring.
Qed.
Lemma tm_assembly : forall d, d_bloch d = (fun _ => C1) -> pos_pixel (d_shape d) (d_dxf d) -> pos_pixel (d_shape d) (d_dxb d) ->
  (forall c i j k, in_grid (d_shape d) i j k -> 0 < d_eps d c i j k) ->
  exists M, tm_matrix d = Some M /\ forall r c, (r < dn d)%nat -> (c < dn d)%nat -> M r c = mat_hz d r c.
Proof.
  intros d Hb HF HB He.
  assert (Hneg : forall c i j k, in_grid (d_shape d) i j k -> neg_inv (d_eps d c) i j k < 0).
  { intros c i j k H. unfold neg_inv. pose proof (He c i j k H). apply Ropp_lt_cancel. rewrite Ropp_0.
    replace (- (-1 / d_eps d c i j k)) with (1 / d_eps d c i j k) by (field; lra). apply Rdiv_lt_0_compat; lra. }
  pose proof (tm_supports d AX (neg_inv (d_eps d AY)) Hb HF HB (Hneg AY)) as SX.
  pose proof (tm_supports d AY (neg_inv (d_eps d AX)) Hb HF HB (Hneg AX)) as SY.
  unfold tm_matrix. set (tx := tm_term d AX _) in *. set (ty := tm_term d AY _) in *.
  unfold nz_data at 1 2. rewrite !map_length, SX, SY, !Nat.eqb_refl. cbn [andb]. eexists. split; [reflexivity |].
  intros r c Hr Hc. rewrite <- SX, <- SY.
  rewrite with_data_app by (rewrite len_diag with (f := fun _ => (- RtoC (d_k0 d * d_k0 d))%C); reflexivity).
  rewrite with_data_app by (unfold nz_data; rewrite map_length; reflexivity).
  rewrite !coo_app, coo_diag, !coo_support by auto. unfold mat_hz, tx, ty. rewrite !tm_term_neg. unfold tm_term, eye, delta.
  destruct (Nat.eqb r c); ring.
Qed.
