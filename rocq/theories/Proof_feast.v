(** Proofs about Model_feast and the symmetry of the mode operators. *)
From Coq Require Import Reals List Arith ZArith Lra Lia Bool Permutation Sorted.
From Verif Require Import Cx Arr Model_coupling Model_yee Spec_yee Proof_yee Proof_yee2 Proof_yee3 Model_fdfd Spec_fdfd Proof_fdfd Proof_fdfd2 Proof_fdfd8
  Model_grid Model_mode Spec_mode Proof_mode Model_parse Proof_parse Model_feast Spec_feast.
Import ListNotations.
Local Open Scope R_scope.

Lemma df_adj : forall q a x y, Cconj (q_df q a y x) = (- q_db q a x y)%C.
Proof.
  intros. unfold q_df, q_db, q_dx. pose proof (deriv_adjoint_entry (q_shape q) (q_h q) (fun _ => C1) a y x) as E.
  apply (f_equal (fun z => (- Cconj z)%C)) in E. rewrite Cconj_conj in E. rewrite E. apply C_eq; cbn; ring.
Qed.
Lemma db_adj : forall q a x y, Cconj (q_db q a y x) = (- q_df q a x y)%C.
Proof. intros. unfold q_df, q_db, q_dx. apply deriv_adjoint_entry. Qed.
Lemma Cconj_RtoC' : forall x, Cconj (RtoC x) = RtoC x. Proof. intro. apply C_eq; cbn; ring. Qed.
Lemma diagm_adj : forall s p x y, Cconj (diagm s p y x) = diagm s p x y.
Proof.
  intros. unfold diagm. rewrite (Nat.eqb_sym y x). destruct (Nat.eqb_spec x y) as [-> |]; [| apply C_eq; cbn; ring].
  unfold ravel. apply Cconj_RtoC'.
Qed.
Lemma herm1 : forall q, hermitian (q_n q) (wg_matrix_1d q).
Proof.
  intros q x y Hx Hy. unfold wg_matrix_1d. rewrite Cconj_add, Cconj_mul, Cconj_RtoC', diagm_adj. f_equal.
  unfold matmul. rewrite Csum_conj. apply Csum_ext. intros z Hz. rewrite Cconj_mul, df_adj, db_adj. ring.
Qed.
(** left D right as one product: D is diagonal. *)
Definition core (q : mode_solver) (a b : axis) : mat := fun x y =>
  Csum (q_n q) (fun z => q_df q a x z * (ravel (q_shape q) (fun i j k => RtoC (inv_eps (q_eps_t q AZ) i j k)) z * q_db q b z y))%C.
Lemma core_adj : forall q a b x y, Cconj (core q b a y x) = core q a b x y.
Proof.
  intros. unfold core. rewrite Csum_conj. apply Csum_ext. intros z Hz. rewrite !Cconj_mul, df_adj, db_adj. unfold ravel. rewrite Cconj_RtoC'. ring.
Qed.
Definition other (a : axis) : axis := match a with AX => AY | _ => AX end.
Definition sgn (r c : axis) : R := if axis_eqb r c then 1 else -1.
Lemma left_diag : forall s p n (L : mat) x z, n = npix s -> (x < n)%nat -> matmul n (diagm s p) L x z = (ravel s (fun i j k => RtoC (p i j k)) x * L x z)%C.
Proof.
  intros s p n L x z E Hx. unfold matmul. rewrite (Csum_single n _ x Hx).
  - unfold diagm. rewrite Nat.eqb_refl. reflexivity.
  - intros w _ Hw. unfold diagm. destruct (Nat.eqb_spec x w); [congruence | ring].
Qed.
Lemma right_diag : forall s p n (L : mat) x z, (z < n)%nat -> matmul n L (diagm s p) x z = (L x z * ravel s (fun i j k => RtoC (p i j k)) z)%C.
Proof.
  intros s p n L x z Hz. unfold matmul. rewrite (Csum_single n _ z Hz).
  - unfold diagm. rewrite Nat.eqb_refl. reflexivity.
  - intros w _ Hw. unfold diagm. destruct (Nat.eqb_spec w z); [congruence | ring].
Qed.
Lemma wg_entry : forall q r c x y, planar r -> planar c -> (x < q_n q)%nat ->
  wg_matrix q r c x y = ((if axis_eqb r c then RtoC (q_k0 q * q_k0 q) * diagm (q_shape q) (eps_10 q r) x y else C0)
    + RtoC (sgn r c) * ravel (q_shape q) (fun i j k => RtoC (eps_10 q r i j k)) x * core q (other r) (other c) x y
    + matmul (q_n q) (q_db q r) (q_df q c) x y)%C.
Proof.
  intros q r c x y Hr Hc Hx. unfold wg_matrix. f_equal. f_equal. unfold matmul at 1. unfold core.
  rewrite <- Csum_scal. apply Csum_ext. intros z Hz. rewrite right_diag by exact Hz. rewrite left_diag by (auto; reflexivity).
  destruct Hr as [-> | ->], Hc as [-> | ->]; unfold sgn, m2_left, m2_right, other; cbn [axis_eqb]; rewrite ?RtoC_opp1; 
  try (replace (RtoC 1) with C1 by reflexivity); try (replace (RtoC (-1)) with (- C1)%C by (apply C_eq; cbn; ring)); ring.
Qed.
Lemma eqb_sym' : forall a b, axis_eqb a b = axis_eqb b a. Proof. intros [] []; reflexivity. Qed.
(** The anti-Hermitian part of the 2-d operator. *)
Lemma wg_anti : forall q r c x y, planar r -> planar c -> (x < q_n q)%nat -> (y < q_n q)%nat ->
  (wg_matrix q r c x y - Cconj (wg_matrix q c r y x))%C =
  (RtoC (sgn r c) * (ravel (q_shape q) (fun i j k => RtoC (eps_10 q r i j k)) x - ravel (q_shape q) (fun i j k => RtoC (eps_10 q c i j k)) y)
   * core q (other r) (other c) x y)%C.
Proof.
  intros q r c x y Hr Hc Hx Hy. rewrite !wg_entry by auto. rewrite !Cconj_add, !Cconj_mul, Cconj_RtoC', core_adj.
  replace (Cconj (ravel (q_shape q) (fun i j k => RtoC (eps_10 q c i j k)) y)) with (ravel (q_shape q) (fun i j k => RtoC (eps_10 q c i j k)) y) by (unfold ravel; rewrite Cconj_RtoC'; reflexivity).
  assert (E1 : Cconj (matmul (q_n q) (q_db q c) (q_df q r) y x) = matmul (q_n q) (q_db q r) (q_df q c) x y).
  { unfold matmul. rewrite Csum_conj. apply Csum_ext. intros z Hz. rewrite Cconj_mul, df_adj, db_adj. ring. }
  assert (E2 : Cconj (if axis_eqb c r then RtoC (q_k0 q * q_k0 q) * diagm (q_shape q) (eps_10 q c) y x else C0)%C =
               (if axis_eqb r c then RtoC (q_k0 q * q_k0 q) * diagm (q_shape q) (eps_10 q r) x y else C0)%C).
  { rewrite (eqb_sym' c r). destruct Hr as [-> | ->], Hc as [-> | ->]; cbn [axis_eqb]; rewrite ?Cconj_mul, ?Cconj_RtoC', ?diagm_adj; try reflexivity; apply C_eq; cbn; ring. }
  rewrite E1, E2. replace (sgn c r) with (sgn r c) by (unfold sgn; rewrite eqb_sym'; reflexivity). ring.
Qed.
Lemma core_apply : forall q a b v i j k, in_grid (q_shape q) i j k ->
  matvec (q_n q) (core q a b) v (ridx (q_shape q) i j k) =
  diff_fn (q_shape q) (q_dx q) false (fun i j k => RtoC (inv_eps (q_eps_t q AZ) i j k) * diff_fn (q_shape q) (q_dx q) true (unravel (q_shape q) v) b i j k)%C a i j k.
Proof.
  intros q a b v i j k H.
  transitivity (matvec (q_n q) (matmul (q_n q) (q_df q a) (matmul (q_n q) (diagm (q_shape q) (inv_eps (q_eps_t q AZ))) (q_db q b))) v (ridx (q_shape q) i j k)).
  { unfold matvec at 1 2. apply Csum_ext. intros y Hy. f_equal. unfold core, matmul at 1. apply Csum_ext. intros z Hz. rewrite left_diag by (auto; reflexivity). reflexivity. }
  rewrite matvec_matmul. unfold q_df. rewrite q_deriv by auto. apply diff_ext; auto. intros. unfold unravel at 1. rewrite matvec_matmul. unfold q_n at 1.
  rewrite diagm_apply by auto. f_equal. unfold q_db. apply q_deriv; auto.
Qed.
Lemma nxt_ne : forall n i, (2 <= n)%nat -> (i < n)%nat -> nxt n i <> i.
Proof. intros n i H Hi. rewrite nxt_lt by auto. destruct (Nat.eqb_spec (i + 1) n); lia. Qed.
Lemma prv_ne : forall n i, (2 <= n)%nat -> (i < n)%nat -> prv n i <> i.
Proof. intros n i H Hi. rewrite prv_lt by auto. destruct i; lia. Qed.
Lemma rinv_nz : forall x, x <> 0 -> RtoC x <> C0.
Proof. intros x H E. apply H. injection E. auto. Qed.
(** The mixed second difference couples a cell to itself, to its left and to its upper neighbour. *)
Lemma core_nz : forall q i j x y, cross_section q -> q_h q AX <> 0 -> q_h q AY <> 0 -> pos_eps q -> (i < q_shape q AX)%nat -> (j < q_shape q AY)%nat ->
  (x = i /\ y = j) \/ (x = prv (q_shape q AX) i /\ y = j) \/ (x = i /\ y = nxt (q_shape q AY) j) ->
  core q AY AX (ridx (q_shape q) i j 0) (ridx (q_shape q) x y 0) <> C0.
Proof.
  intros q i j x y (Hnx & Hny & Hnz) Hhx Hhy Hp Hi Hj Hxy.
  assert (Hg : forall a b, (a < q_shape q AX)%nat -> (b < q_shape q AY)%nat -> in_grid (q_shape q) a b 0) by (intros; repeat split; auto; lia).
  assert (Bn : forall a, (a < q_shape q AX)%nat -> (prv (q_shape q AX) a < q_shape q AX)%nat) by (intros; apply prv_bound; auto).
  assert (Bm : forall a, (a < q_shape q AY)%nat -> (nxt (q_shape q AY) a < q_shape q AY)%nat) by (intros; apply nxt_bound; auto).
  assert (Hx : (x < q_shape q AX)%nat) by (destruct Hxy as [[-> _] | [[-> _] | [-> _]]]; auto).
  assert (Hy : (y < q_shape q AY)%nat) by (destruct Hxy as [[_ ->] | [[_ ->] | [_ ->]]]; auto).
  rewrite (entry_apply (q_n q) _ _ _ (ridx_bound _ _ _ _ (Hg x y Hx Hy))). rewrite core_apply by auto.
  assert (Ei : forall a b, (a < q_shape q AX)%nat -> (b < q_shape q AY)%nat -> inv_eps (q_eps_t q AZ) a b 0%nat <> 0).
  { intros a b Ha Hb. unfold inv_eps. pose proof (eps_t_pos q Hp AZ a b 0%nat (Hg a b Ha Hb)). unfold Rdiv. rewrite Rmult_1_l. apply Rinv_neq_0_compat. lra. }
  unfold diff_fn, roll_m1, roll_p1, along, q_dx, uniform_dx. cbn [coord]. rewrite !unravel_basis by auto. unfold unit_fld.
  pose proof (nxt_ne (q_shape q AY) j Hny Hj) as N1. pose proof (prv_ne (q_shape q AX) i Hnx Hi) as N2.
  pose proof (rinv_nz _ Hhx) as R1. pose proof (rinv_nz _ Hhy) as R2. pose proof (rinv_nz _ (Ei i j Hi Hj)) as R3. pose proof (rinv_nz _ (Ei i _ Hi (Bm j Hj))) as R4.
  set (e0 := RtoC (inv_eps (q_eps_t q AZ) i j 0%nat)) in *. set (e1 := RtoC (inv_eps (q_eps_t q AZ) i (nxt (q_shape q AY) j) 0%nat)) in *.
  set (hx := RtoC (q_h q AX)) in *. set (hy := RtoC (q_h q AY)) in *.
  assert (Nz : forall a b c, a <> C0 -> b <> C0 -> c <> C0 -> (a / (b * c))%C <> C0).
  { intros a b c Ha Hb Hc E. apply Ha. replace a with ((a / (b * c)) * (b * c))%C by (field; auto). rewrite E. ring. }
  destruct Hxy as [[-> ->] | [[-> ->] | [-> ->]]]; rewrite !Nat.eqb_refl.
  - rewrite (proj2 (Nat.eqb_neq _ _) N1), (proj2 (Nat.eqb_neq _ _) N2). cbn [andb]. rewrite ?andb_false_r. cbn [andb].
    replace ((e1 * ((C0 - C0) / hx) - e0 * ((C1 - C0) / hx)) / hy)%C with (- (e0 / (hx * hy)))%C by (field; auto).
    intro E. apply (Nz e0 hx hy); auto. apply C_eq; apply (f_equal (fun z => (- z)%C)) in E; [apply (f_equal re) in E | apply (f_equal im) in E]; cbn in E |- *; lra.
  - rewrite (proj2 (Nat.eqb_neq _ _) N1). rewrite (proj2 (Nat.eqb_neq i (prv (q_shape q AX) i))) by auto. cbn [andb]. rewrite ?andb_false_r. cbn [andb].
    replace ((e1 * ((C0 - C0) / hx) - e0 * ((C0 - C1) / hx)) / hy)%C with (e0 / (hx * hy))%C by (field; auto). apply Nz; auto.
  - rewrite (proj2 (Nat.eqb_neq j (nxt (q_shape q AY) j))) by auto. rewrite (proj2 (Nat.eqb_neq _ _) N2). cbn [andb]. rewrite ?andb_false_r. cbn [andb].
    replace ((e1 * ((C1 - C0) / hx) - e0 * ((C0 - C0) / hx)) / hy)%C with (e1 / (hx * hy))%C by (field; auto). apply Nz; auto.
Qed.
Lemma herm2 : forall q, cross_section q -> q_h q AX <> 0 -> q_h q AY <> 0 -> pos_eps q ->
  (hermitian2 (q_n q) (wg_matrix q) <->
   exists e, forall i j, (i < q_shape q AX)%nat -> (j < q_shape q AY)%nat -> q_eps_t q AX i j 0%nat = e /\ q_eps_t q AY i j 0%nat = e).
Proof.
  intros q Hc Hhx Hhy Hp. destruct Hc as (Hnx & Hny & Hnz).
  assert (Hg : forall a b, (a < q_shape q AX)%nat -> (b < q_shape q AY)%nat -> in_grid (q_shape q) a b 0) by (intros; repeat split; auto; lia).
  split.
  - intro H.
    assert (K : forall i j x y, (i < q_shape q AX)%nat -> (j < q_shape q AY)%nat ->
      (x = i /\ y = j) \/ (x = prv (q_shape q AX) i /\ y = j) \/ (x = i /\ y = nxt (q_shape q AY) j) -> q_eps_t q AY i j 0%nat = q_eps_t q AX x y 0%nat).
    { intros i j x y Hi Hj Hxy.
      assert (Hx : (x < q_shape q AX)%nat) by (destruct Hxy as [[-> _] | [[-> _] | [-> _]]]; auto; apply prv_bound; auto).
      assert (Hy : (y < q_shape q AY)%nat) by (destruct Hxy as [[_ ->] | [[_ ->] | [_ ->]]]; auto; apply nxt_bound; auto).
      pose proof (ridx_bound _ _ _ _ (Hg i j Hi Hj)) as B1. pose proof (ridx_bound _ _ _ _ (Hg x y Hx Hy)) as B2.
      pose proof (wg_anti q AX AY _ _ (or_introl eq_refl) (or_intror eq_refl) B1 B2) as E.
      rewrite <- (H AX AY _ _ (or_introl eq_refl) (or_intror eq_refl) B1 B2) in E.
      pose proof (core_nz q i j x y (conj Hnx (conj Hny Hnz)) Hhx Hhy Hp Hi Hj Hxy) as N. cbn [other] in E. rewrite !ravel_ridx in E by (auto; lia).
      unfold sgn in E. cbn [axis_eqb eps_10] in E. set (c := core q AY AX _ _) in *.
      assert (Z : ((RtoC (q_eps_t q AY i j 0%nat) - RtoC (q_eps_t q AX x y 0%nat)) * c)%C = C0).
      { assert (RN : (RtoC (-1) <> C0)) by (apply rinv_nz; lra). apply (Cmul_cancel' (RtoC (-1)) _ _ RN).
        match type of E with ?l = _ => replace l with C0 in E by ring end. replace (RtoC (-1) * C0)%C with C0 by ring. rewrite E. ring. }
      assert (Z' : (RtoC (q_eps_t q AY i j 0%nat) - RtoC (q_eps_t q AX x y 0%nat))%C = C0).
      { apply (Cmul_cancel' c _ _ N). replace (c * C0)%C with C0 by ring. rewrite <- Z. ring. }
      revert Z'. generalize (q_eps_t q AY i j 0%nat) (q_eps_t q AX x y 0%nat). intros u1 u2 Z'. apply (f_equal re) in Z'. cbn in Z'. lra. }
    assert (Kx : forall i j, (S i < q_shape q AX)%nat -> (j < q_shape q AY)%nat -> q_eps_t q AX (S i) j 0%nat = q_eps_t q AX i j 0%nat).
    { intros i j Hi Hj. rewrite <- (K (S i) j (S i) j Hi Hj (or_introl (conj eq_refl eq_refl))). apply K; auto. right. left. split; auto. rewrite prv_lt by auto. reflexivity. }
    assert (Ky : forall i j, (i < q_shape q AX)%nat -> (S j < q_shape q AY)%nat -> q_eps_t q AX i (S j) 0%nat = q_eps_t q AX i j 0%nat).
    { intros i j Hi Hj. rewrite <- (K i j i j Hi ltac:(lia) (or_introl (conj eq_refl eq_refl))). symmetry. apply K; auto; [lia |]. right. right. split; auto.
      rewrite nxt_lt by lia. destruct (Nat.eqb_spec (j + 1) (q_shape q AY)); lia. }
    assert (Ka : forall i j, (i < q_shape q AX)%nat -> (j < q_shape q AY)%nat -> q_eps_t q AX i j 0%nat = q_eps_t q AX 0%nat 0%nat 0%nat).
    { intros i j Hi Hj. transitivity (q_eps_t q AX i 0%nat 0%nat).
      - induction j as [| j IH]; [reflexivity |]. rewrite Ky by auto. apply IH. lia.
      - clear Hj. induction i as [| i IH]; [reflexivity |]. rewrite Kx by (auto; lia). apply IH. lia. }
    exists (q_eps_t q AX 0%nat 0%nat 0%nat). intros i j Hi Hj. split; [auto |]. rewrite (K i j i j Hi Hj (or_introl (conj eq_refl eq_refl))). auto.
  - intros (e & He) r c x y Hr Hcc Hx Hy.
    destruct (ridx_inv (q_shape q) x Hx) as (i & j & k & Hg1 & ->). destruct (ridx_inv (q_shape q) y Hy) as (i' & j' & k' & Hg2 & ->).
    pose proof (wg_anti q r c _ _ Hr Hcc Hx Hy) as E.
    destruct Hg1 as (G1 & G2 & G3), Hg2 as (G4 & G5 & G6). rewrite !ravel_ridx in E by auto. rewrite Hnz in G3, G6. assert (k = 0%nat) by lia. assert (k' = 0%nat) by lia. subst k k'.
    destruct (He i j G1 G2) as [A1 A2]. destruct (He i' j' G4 G5) as [A3 A4].
    assert (E1 : eps_10 q r i j 0%nat = e) by (destruct Hr as [-> | ->]; auto). assert (E2 : eps_10 q c i' j' 0%nat = e) by (destruct Hcc as [-> | ->]; auto).
    rewrite E1, E2 in E. set (u := wg_matrix q r c _ _) in *. set (v := Cconj _) in *.
    replace u with ((u - v) + v)%C by ring. rewrite E. ring.
Qed.
