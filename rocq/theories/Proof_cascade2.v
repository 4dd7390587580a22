(** cascade: the loop, the aggregated mesh and what it computes (C13, C14, C15). *)
From Coq Require Import Reals Lra Lia Psatz List ZArith Permutation Bool FunctionalExtensionality.
From Verif Require Import Cx Arr Spec_circuit Model_coupling Model_forward Model_vector Spec_mesh Spec_tree
  Proof_node Proof_mesh Proof_forward Proof_forward2 Proof_forward3 Proof_forward4 Proof_null Proof_null2 Proof_tree
  Proof_vector Proof_vector2 Proof_order Proof_linalg Proof_cascade.
Import ListNotations.
Local Open Scope nat_scope.

(** Σ_{c=2..k+1} ceil(log2 c): the number of columns after the trees on k+1, k, …, 2 rails. *)
Fixpoint tree_cols (k : nat) : nat := match k with O => 0 | S k => Nat.log2_up (S k + 1) + tree_cols k end.

Lemma cascade_loop_spec : forall eps w0 n balanced s, (0 <= eps)%R -> tb s -> forall k st L,
  cinv eps w0 n balanced s (k + 1) st L ->
  exists st' L', cascade_loop eps n balanced s 0 0 (rev (seq 1 k)) st = Some st' /\ cinv eps w0 n balanced s 1 st' L' /\
   (balanced = true -> cncol st' = (cncol st + Z.of_nat (tree_cols k))%Z).
Proof.
  intros eps w0 n balanced s He Hs k. induction k as [| k IH]; intros st L H.
  - exists st, L. cbn. split; [auto | split; [auto | lia]].
  - rewrite seq_S, rev_app_distr. cbn [rev List.app plus].
    destruct (cascade_step_spec eps w0 n balanced s He Hs (S k) st L ltac:(lia)) as (st1 & L1 & E1 & H1 & C1).
    { replace (S (S k)) with (S k + 1) by lia. exact H. }
    destruct (IH st1 L1) as (st2 & L2 & E2 & H2 & C2). { replace (k + 1) with (S k) by lia. exact H1. }
    exists st2, L2. cbn [cascade_loop]. rewrite E1. cbn [obind]. split; [exact E2 |]. split; [auto |].
    intro Hb. rewrite C2, C1 by auto. cbn [tree_cols]. lia.
Qed.

Lemma cascade_core : forall eps u n balanced s, (0 <= eps)%R -> tb s -> 2 <= n ->
  exists st L m p, cascade eps u n balanced s 0 0 = Some (m, p) /\
    cinv eps (dagger u) n balanced s 1 st L /\
    p = mkParams (cth st) (cph st) (fun k => nth k ((- Carg (cw st O O))%R :: cgam st) 0%R) /\
    nodes m = concat (map nodes (csub st)) /\ style m = TOP /\ n_rails m = n /\
    bs_errors m = map bs_error (nodes m) /\ losses m = map loss (nodes m) /\
    Permutation (map node_id (nodes m)) (seq 0 (length (nodes m))) /\ 2 * length (nodes m) = n * (n - 1) /\
    (forall nd, In nd (nodes m) -> (top nd < bottom nd < n) /\ bs_error nd = (0, 0)%R /\ loss nd = (0, 0)%R /\ (0 <= column nd < num_columns m)%Z) /\
    wf_mesh m /\ num_columns m = Z.of_nat (if balanced then tree_cols (n - 1) else 2 * n - 3).
Proof.
  intros eps u n balanced s He Hs Hn.
  destruct (cascade_loop_spec eps (dagger u) n balanced s He Hs (n - 1) _ [] ltac:(replace (n - 1 + 1) with n by lia; apply cinv_init; auto))
    as (st & L & E & H & Hcc).
  pose proof H as [Hle Hrun Hagg Hperm Hids Hgood Hnodes Hnull [Hgl Hgam] Hcnt Hbal Htri].
  set (A := concat (map nodes (csub st))) in *.
  assert (HidA : Permutation (map node_id A) (seq 0 (cnn st))).
  { eapply perm_trans; [apply Permutation_map, Hperm | exact Hids]. }
  assert (HlenA : length A = cnn st).
  { apply Permutation_length in HidA. rewrite map_length, seq_length in HidA. auto. }
  assert (HND : NoDup (map node_id A)) by (eapply Permutation_NoDup; [apply Permutation_sym, HidA | apply seq_NoDup]).
  assert (HnA : forall nd, In nd A -> In nd L) by (intros nd; apply Permutation_in; auto).
  assert (HAn : forall nd, In nd L -> In nd A) by (intros nd; apply Permutation_in, Permutation_sym; auto).
  destruct A as [| nd0 A0] eqn:EA; [cbn in HlenA; nia |].
  destruct (mk_mesh (nd0 :: A0) TOP) as [m |] eqn:Em; [| discriminate].
  assert (Eagg : aggregate (csub st) = Some m) by (unfold aggregate; fold A; rewrite EA; exact Em).
  pose proof (mk_mesh_cols _ _ _ _ Em) as [Hc1 (x & Hx1 & Hx2)].
  unfold mk_mesh in Em. rewrite renumber_single in Em by auto. apply Some_inj in Em.
  assert (Em1 : nodes m = nd0 :: A0 /\ style m = TOP /\ n_rails m = n_of nd0 /\ bs_errors m = map bs_error (nd0 :: A0) /\ losses m = map loss (nd0 :: A0))
    by (rewrite <- Em; repeat split; reflexivity).
  destruct Em1 as (M1 & M2 & M3 & M4 & M5). clear Em.
  exists st, L, m, (mkParams (cth st) (cph st) (fun k => nth k ((- Carg (cw st O O))%R :: cgam st) 0%R)).
  assert (Hnc : (forall nd, In nd (nodes m) -> (0 <= column nd < num_columns m)%Z)).
  { intros nd Hin. rewrite M1 in Hin. pose proof (Hnodes nd (HnA nd Hin)). specialize (Hc1 nd Hin). lia. }
  assert (HNC : num_columns m = Z.of_nat (if balanced then tree_cols (n - 1) else 2 * n - 3) /\
     forall c, (0 <= c < num_columns m)%Z -> exists nd, In nd (nodes m) /\ column nd = c).
  { destruct balanced eqn:Eb.
    - destruct (Hbal eq_refl) as (B1 & B2 & B3). rewrite (Hcc eq_refl) in *. cbn [cncol] in *.
      assert (Ex : num_columns m = Z.of_nat (tree_cols (n - 1))).
      { apply Z.le_antisymm.
        - specialize (B2 x (HnA x Hx1)). lia.
        - destruct (Z.eq_dec (Z.of_nat (tree_cols (n - 1))) 0) as [Z0 | NZ].
          + specialize (Hnc x). rewrite M1 in Hnc. specialize (Hnc Hx1). lia.
          + destruct (B3 (0 + Z.of_nat (tree_cols (n - 1)) - 1)%Z ltac:(lia)) as (nd & I1 & I2). specialize (Hc1 nd (HAn nd I1)). lia. }
      split; auto. intros c Hc. destruct (B3 c ltac:(lia)) as (nd & I1 & I2). exists nd. rewrite M1. auto.
    - destruct (Htri eq_refl) as (T1 & T2).
      assert (Ex : num_columns m = Z.of_nat (2 * n - 3)).
      { apply Z.le_antisymm.
        - destruct (T1 x (HnA x Hx1)) as (j & k & J1 & J2 & _ & _ & J3). lia.
        - destruct (T2 (n - 2) 0 ltac:(lia) ltac:(lia)) as (nd & I1 & _ & I2). specialize (Hc1 nd (HAn nd I1)). lia. }
      split; auto. intros c Hc.
      set (j := Z.to_nat c / 2). set (k := Z.to_nat c mod 2).
      pose proof (Nat.div_mod_eq (Z.to_nat c) 2) as Hdm. fold j k in Hdm.
      pose proof (Nat.mod_upper_bound (Z.to_nat c) 2 ltac:(lia)) as Hk. fold k in Hk.
      destruct (T2 j k ltac:(lia) ltac:(lia)) as (nd & I1 & _ & I2). exists nd. rewrite M1. split; [auto | lia]. }
  destruct HNC as [HNC HCOV].
  split; [| split; [exact H |]].
  { unfold cascade. unfold dagger in E. rewrite E. cbn [obind]. rewrite Eagg. reflexivity. }
  split; [reflexivity |]. split; [rewrite M1; symmetry; exact EA |]. split; [exact M2 |].
  split. { rewrite M3. apply (Hnodes nd0 (HnA nd0 (or_introl eq_refl))). }
  split; [rewrite M1; auto |]. split; [rewrite M1; auto |].
  split. { rewrite M1, HlenA. auto. }
  split. { rewrite M1, HlenA. lia. }
  assert (Hnd : forall nd, In nd (nodes m) -> (top nd < bottom nd < n) /\ bs_error nd = (0, 0)%R /\ loss nd = (0, 0)%R /\ (0 <= column nd < num_columns m)%Z).
  { intros nd Hin. specialize (Hnc nd Hin). rewrite M1 in Hin. destruct (Hnodes nd (HnA nd Hin)) as (? & ? & ? & ? & ?). auto. }
  split; [auto |]. split; [| auto].
  split; [| split; [| split]].
  - rewrite M1. assert (HrL : rails_disjoint L).
    { apply good_rails_disjoint; auto. intros nd Hin. pose proof (Hnodes nd Hin). lia. }
    intro c. cbv zeta. specialize (HrL c). cbv zeta in HrL. specialize (Hagg c). unfold nodes_in_column in Hagg. rewrite Hagg. exact HrL.
  - intros nd Hin. destruct (Hnd nd Hin) as (Ht & _). rewrite M1 in Hin. rewrite M3, M4, map_length.
    assert (En : n_of nd0 = n) by apply (Hnodes nd0 (HnA nd0 (or_introl eq_refl))). rewrite En.
    split; [lia |]. split; [lia |]. rewrite HlenA.
    assert (Hi : In (node_id nd) (seq 0 (cnn st))) by (eapply Permutation_in; [exact HidA | apply in_map; auto]). apply in_seq in Hi. lia.
  - rewrite M1. auto.
  - auto.
Qed.

Lemma cascade_realises : forall eps u n balanced, (0 <= eps)%R -> 2 <= n -> unitary n u ->
  exists m p P, cascade eps u n balanced TOP 0 0 = Some (m, p) /\ n_rails m = n /\
    (forall i j, matrix m false p i j = Some (P i j)) /\ unitary n P /\
    (forall r, r < n -> (Rsum n (fun c => Cn2 (P r c - u r c)%C) <= INR (n * (n - 1)) * eps)%R).
Proof.
  intros eps u n balanced He Hn Hu.
  destruct (cascade_core eps u n balanced TOP He (or_introl eq_refl) Hn)
    as (st & L & m & p & E & H & Hp & Hnm & Hst & Hr & Hbe & Hlo & Hid & Hcnt & Hnd & Hwf & Hnc).
  destruct H as [Hle Hrun Hagg Hperm Hids Hgood Hnodes Hnull [Hgl Hgam] _ _ _].
  set (ops := node_ops TOP p (in_order m)).
  set (P := fun i j => (cis (gammas p i) * run ops (basis j) i)%C).
  assert (Hmat : forall i j, matrix m false p i j = Some (P i j)).
  { intros i j. unfold matrix. rewrite (zero_matrix TOP m p (basis j) Hwf Hst).
    - reflexivity.
    - intros e0. rewrite Hbe. intro Hin. apply in_map_iff in Hin. destruct Hin as (nd & <- & Hin). apply Hnd; auto.
    - intros e0. rewrite Hlo. intro Hin. apply in_map_iff in Hin. destruct Hin as (nd & <- & Hin). apply Hnd; auto. }
  assert (Hok : Forall (ok n) ops).
  { apply node_ops_ok. intros nd Hin. apply in_order_In in Hin. apply Hnd; auto. }
  assert (Hrr : forall v, run ops v = run (node_ops TOP (parm st) L) v).
  { intro v. unfold ops, node_ops.
    change (run (map (opf (fun nd => pn TOP (thetas p (node_id nd)) (phis p (node_id nd)))) (in_order m)) v =
            run (map (opf (fun nd => pn TOP (thetas p (node_id nd)) (phis p (node_id nd)))) L) v) || idtac.
    rewrite Hp. cbn [thetas phis parm].
    change (run (map (opf (fun nd => pn TOP (cth st (node_id nd)) (cph st (node_id nd)))) (in_order m)) v =
            run (map (opf (fun nd => pn TOP (cth st (node_id nd)) (cph st (node_id nd)))) L) v).
    rewrite (sort_run _ (Z.to_nat (num_columns m)) L v Hgood).
    - unfold in_order. f_equal. f_equal. f_equal. apply map_ext. intro c. rewrite Hnm. apply (Hagg (Z.of_nat c)).
    - intros nd Hin. assert (Hin' : In nd (nodes m)) by (rewrite Hnm; eapply Permutation_in; [apply Permutation_sym, Hperm | auto]).
      destruct (Hnd nd Hin') as (_ & _ & _ & Hc). lia. }
  assert (HU : unitary n P).
  { destruct (mesh_unitary m false p Hwf) as (U & HU1 & HU2).
    - unfold lossless. rewrite Hlo. apply Forall_forall. intros e0 Hin. apply in_map_iff in Hin. destruct Hin as (nd & <- & Hin). apply Hnd; auto.
    - rewrite Hr in HU2. intros i j Hi Hj. specialize (HU2 i j Hi Hj).
      assert (EU : forall a b, P a b = U a b) by (intros a b; specialize (Hmat a b); rewrite HU1 in Hmat; apply Some_inj in Hmat; auto).
      destruct HU2 as [A1 A2]. split.
      + rewrite <- A1. apply Csum_ext. intros. rewrite !EU. auto.
      + rewrite <- A2. apply Csum_ext. intros. rewrite !EU. auto. }
  assert (HD : forall r c, r < n -> prod n P (dagger u) r c = (cis (gammas p r) * cw st r c)%C).
  { intros r c Hr'. change (cw st r c) with ((fun x => cw st x c) r). rewrite Hrun, <- Hrr, (run_matrix n ops _ r Hok Hr').
    unfold prod, P. rewrite <- Csum_scal. apply Csum_ext. intros k Hk. ring. }
  assert (Hgr : forall r, r < n -> gammas p r = (- Carg (cw st r r))%R).
  { intros r Hr'. rewrite Hp. cbn [gammas]. destruct r as [| r]; [reflexivity |]. cbn [nth].
    specialize (Hgam (S r) ltac:(lia)). replace (S r - 1) with r in Hgam by lia. auto. }
  exists m, p, P. split; [exact E |]. split; [auto |]. split; [auto |]. split; [auto |].
  intros r Hr'. rewrite (close_from_product n P u Hu r Hr').
  apply near_identity; auto.
  - apply prod_unitary; auto. apply dagger_unitary; auto.
  - intros i Hi. rewrite HD, Hgr by auto. replace (cis (- Carg (cw st i i)) * cw st i i)%C with (cw st i i * cis (- Carg (cw st i i)))%C by ring.
    rewrite Carg_unphase. cbn. split; [auto | apply Cabs_nonneg].
  - intros c Hc. destruct c as [| c]; [cbn; lra |].
    eapply Rle_trans; [| apply (Hnull (S c)); lia]. apply Req_le. apply Rsum_ext. intros i Hi. rewrite HD by lia.
    rewrite Cn2_mul, Cn2_cis. ring.
Qed.

(** C14: aggregate forgets the style. *)
Lemma cascade_style : forall eps u n balanced s e l m p, cascade eps u n balanced s e l = Some (m, p) -> style m = TOP.
Proof.
  intros eps u n balanced s e l m p H. unfold cascade in H.
  destruct (cascade_loop _ _ _ _ _ _ _ _) as [st |]; [| discriminate]. cbn [obind] in H. unfold aggregate in H.
  destruct (mk_mesh (concat (map nodes (csub st))) TOP) as [m' |] eqn:E; [| discriminate]. cbn [obind] in H.
  apply Some_inj in H. apply (f_equal fst) in H. cbn [fst] in H. subst m'. unfold mk_mesh in E.
  destruct (concat (map nodes (csub st))); [discriminate |]. apply Some_inj in E. rewrite <- E. reflexivity.
Qed.

Local Open Scope R_scope.
Lemma Carg_m1 : Carg (RtoC (-1)) = PI.
Proof.
  unfold Carg. destruct (Req_EM_T (Cn2 (RtoC (-1))) 0) as [E | E].
  - unfold Cn2, RtoC in E. cbn in E. lra.
  - destruct (Rle_dec 0 (im (RtoC (-1)))) as [_ | n]; [| cbn in n; lra].
    assert (E1 : Cabs (RtoC (-1)) = 1) by (unfold Cabs, Cn2, RtoC; cbn; replace (-1 * -1 + 0 * 0) with 1 by ring; apply sqrt_1).
    rewrite E1. cbn. replace (-1 / 1) with (-(1)) by field. rewrite acos_opp, acos_1. ring.
Qed.

Lemma bottom_identity : forall eps, 0 <= eps -> exists m p y, cascade eps ident 2 true BOTTOM 0 0 = Some (m, p) /\
  matrix_fn m false p (basis 0) = Some y /\ re (y 0%nat) <= 0.
Proof.
  intros eps He. set (w0 := fun i j : nat => Cconj (ident j i)).
  assert (Wt : w0 0%nat 1%nat = C0) by (apply C_eq; cbn; ring).
  assert (Wb : w0 1%nat 1%nat = C1) by (apply C_eq; cbn; ring).
  set (theta := nullify_theta eps (mzi_terms (0, 0)) C0 C1).
  assert (Hth : theta = PI).
  { unfold theta, nullify_theta, direct_transmissivity_eps. rewrite terms0. unfold transmissivity_to_phase.
    rewrite Cn2_C0. replace ((0 / (0 + Cn2 C1 + eps) - (1/2) ^ 2 - (1/2) ^ 2) / (2 * (1/2) * (1/2))) with (-1).
    2: { unfold Rdiv at 2. rewrite Rmult_0_l. field. }
    rewrite Rmax_left by lra. rewrite Rmin_left by lra. replace (-1) with (-(1)) by ring. rewrite acos_opp, acos_1. ring. }
  set (phi := Carg C0 - Carg C1 + PI + (Carg (RtoC (- (1/2)) + RtoC (1/2) * cis (- theta))%C - Carg (Ci * (RtoC (1/2) + cis (- theta) * RtoC (1/2)))%C)).
  assert (Hphi : cis phi = C1).
  { unfold phi. rewrite Hth, Carg_C0. replace C1 with (RtoC 1) by reflexivity. rewrite Carg_pos_real by lra.
    replace (RtoC (- (1/2)) + RtoC (1/2) * cis (- PI))%C with (RtoC (-1)).
    2: { rewrite cis_opp, cis_PI. apply C_eq; cbn; field. }
    replace (Ci * (RtoC (1/2) + cis (- PI) * RtoC (1/2)))%C with C0.
    2: { rewrite cis_opp, cis_PI. apply C_eq; cbn; field. }
    rewrite Carg_m1, Carg_C0. replace (0 - 0 + PI + (PI - 0)) with (PI + PI) by ring. rewrite cis_add, cis_PI. apply C_eq; cbn; ring. }
  set (nw := mesh1 BOTTOM (0, 0) (0, 0)).
  set (qB := parallel_mzi BOTTOM false theta phi (0, 0) (0, 0)).
  assert (E : exists p w, program_vector_unit eps w0 2 1 nw = Some (p, w) /\ thetas p 0%nat = theta /\ phis p 0%nat = mod2pi phi /\
     w 0%nat 0%nat = t11 qB).
  { unfold program_vector_unit. unfold nw at 1. rewrite mesh1_columns. cbn [obind program_columns].
    unfold program_column. cbn [pw pth pph]. fold nw.
    assert (E : triples nw = [(0%nat, 1%nat, 0%nat)]) by reflexivity. rewrite E. cbn [map].
    change (style nw) with BOTTOM. change (err_at nw 0) with ((0, 0) : R * R). rewrite Wt, Wb.
    cbv zeta. fold theta. unfold nullify_phi at 1. 
    assert (E0 : nullify_phi BOTTOM (mzi_terms (0, 0)) theta C0 C1 = Some phi) by (unfold nullify_phi; rewrite terms0; reflexivity).
    unfold nullify_phi in E0. rewrite E0. cbn [obind all_some].
    eexists. eexists. split; [reflexivity |]. split; [| split]; cbn [thetas phis pth pph pw map].
    - unfold assign; simpl; apply upd_eq.
    - unfold assign; simpl; apply upd_eq.
    - change (bs_errors nw) with [((0, 0) : R * R)]. change (losses nw) with [((0, 0) : R * R)].
      change (nodes nw) with [node1 (0,0) (0,0)]. cbn [combine map]. change (top (node1 (0,0) (0,0))) with 0%nat. change (bottom (node1 (0,0) (0,0))) with 1%nat.
      cbn [assign List.app fold_left]. fold qB. cbn [assign fold_left]. unfold assign. cbn [fold_left].
      cbn [fst snd]. rewrite upd_neq by lia. rewrite upd_eq.
      replace (w0 0%nat 0%nat) with C1 by (apply C_eq; cbn; ring). replace (w0 1%nat 0%nat) with C0 by (apply C_eq; cbn; ring). ring. }
  destruct E as (p & w & E & Et & Ep & Ew).
  set (gs := - Carg (w 0%nat 0%nat)).
  exists (mesh1 TOP (0, 0) (0, 0)), (mkParams (fun k => thetas p (k - 0)) (fun k => phis p (k - 0)) (fun k => nth k [gs; gammas p 1%nat] 0)).
  eexists. split; [| split].
  - unfold cascade. cbn [rev seq Nat.sub List.app cascade_loop]. unfold cascade_step. cbn [cw]. fold w0.
    unfold vector_unit. change (1 + 1)%nat with 2%nat. destruct (vu_network2' BOTTOM) as (t0 & -> & E0). cbn [obind]. rewrite E0. cbn [obind]. fold nw. rewrite E. cbn [obind fst snd].
    reflexivity.
  - apply mesh1_fn.
  - unfold apply_gammas. rewrite apply_op_top by auto. cbn [thetas phis gammas nth Nat.sub]. rewrite Et, Ep.
    change (basis 0 0%nat) with C1. change (basis 0 1%nat) with C0.
    assert (ET : qtop (parallel_mzi TOP false theta (mod2pi phi) (0, 0) (0, 0)) C1 C0 = (- t11 qB)%C).
    { unfold qtop, qB, parallel_mzi. rewrite terms0. cbn [t11 t21 fst snd]. 
      assert (Z0 : forall x, Cexp (mkC (ln 10 * 0 / 20) x) = cis x).
      { intro x. unfold Cexp. cbn [re im]. replace (ln 10 * 0 / 20) with 0 by field. rewrite exp_0. apply C_eq; cbn; ring. }
      rewrite !Z0, cis_mod2pi, Hphi.
      replace (RtoC (- (1/2))) with (- RtoC (1/2))%C by (apply C_eq; cbn; ring). ring. }
    rewrite ET. unfold gs. rewrite Ew.
    replace (cis (- Carg (t11 qB)) * (- t11 qB))%C with (- (t11 qB * cis (- Carg (t11 qB))))%C by ring.
    rewrite Carg_unphase. pose proof (Cabs_nonneg (t11 qB)) as Hq. change (re (- RtoC (Cabs (t11 qB)))%C) with (- Cabs (t11 qB)). lra.
Qed.

Lemma ident_unitary : forall n, unitary n ident.
Proof.
  intros n i j Hi Hj. unfold ident. split.
  - transitivity (Csum n (fun k => delta i k * delta k j)%C); [| apply (Csum_delta_l n i (fun k => delta k j)); auto].
    apply Csum_ext. intros k _. unfold delta. rewrite (Nat.eqb_sym k i). destruct (Nat.eqb i k); apply C_eq; cbn; ring.
  - transitivity (Csum n (fun k => delta i k * delta k j)%C); [| apply (Csum_delta_l n i (fun k => delta k j)); auto].
    apply Csum_ext. intros k _. unfold delta. rewrite (Nat.eqb_sym k j). destruct (Nat.eqb j k); apply C_eq; cbn; ring.
Qed.
Lemma cascade_exact : forall u n balanced, (2 <= n)%nat -> unitary n u ->
  exists m p, cascade 0 u n balanced TOP 0 0 = Some (m, p) /\ n_rails m = n /\
    forall i j, (i < n)%nat -> (j < n)%nat -> matrix m false p i j = Some (u i j).
Proof.
  intros u n balanced Hn Hu. destruct (cascade_realises 0 u n balanced (Rle_refl 0) Hn Hu) as (m & p & P & E & Hr & HP & _ & H).
  exists m, p. split; [auto |]. split; [auto |]. intros i j Hi Hj. rewrite HP. f_equal.
  specialize (H i Hi). rewrite Rmult_0_r in H.
  assert (Hz : Cn2 (P i j - u i j)%C = 0).
  { apply Rle_antisym; [| apply Cn2_nonneg]. eapply Rle_trans; [| exact H].
    apply (Rsum_term_le n (fun c => Cn2 (P i c - u i c)%C)); auto. intros. apply Cn2_nonneg. }
  apply Cn2_zero_iff in Hz. replace (P i j) with (P i j - u i j + u i j)%C by ring. rewrite Hz. ring.
Qed.
Lemma cascade_structure : forall eps u n balanced s, 0 <= eps -> s = TOP \/ s = BOTTOM -> (2 <= n)%nat ->
  exists m p, cascade eps u n balanced s 0 0 = Some (m, p) /\ n_rails m = n /\ wf_mesh m /\
    (2 * length (nodes m) = n * (n - 1))%nat /\
    Permutation (map node_id (nodes m)) (seq 0 (length (nodes m))) /\
    (forall nd, In nd (nodes m) -> (top nd < bottom nd < n)%nat /\ (0 <= column nd < num_columns m)%Z) /\
    (balanced = false -> num_columns m = Z.of_nat (2 * n - 3)).
Proof.
  intros eps u n balanced s He Hs Hn.
  destruct (cascade_core eps u n balanced s He Hs Hn)
    as (st & L & m & p & E & H & Hp & Hnm & Hst & Hr & Hbe & Hlo & Hid & Hcnt & Hnd & Hwf & Hnc).
  exists m, p. split; [auto |]. split; [auto |]. split; [auto |]. split; [auto |]. split; [auto |]. split.
  - intros nd Hin. destruct (Hnd nd Hin) as (? & _ & _ & ?). auto.
  - intros ->. auto.
Qed.
Lemma tree_cols_sum : forall k, tree_cols k = list_sum (map (fun i => Nat.log2_up (i + 1)) (seq 1 k)).
Proof.
  induction k as [| k IH]; [reflexivity |]. rewrite seq_S, map_app, list_sum_app. cbn [map list_sum fold_right tree_cols]. rewrite IH.
  replace (1 + k)%nat with (Datatypes.S k) by lia. unfold list_sum. cbn [fold_right]. lia.
Qed.
Lemma named_meshes : forall u n, (2 <= n)%nat -> unitary n u -> exists m p m2 p2,
  triangular 0 u n TOP 0 0 = Some (m, p) /\ tree_cascade 0 u n TOP 0 0 = Some (m2, p2) /\
  (forall i j, (i < n)%nat -> (j < n)%nat -> matrix m false p i j = Some (u i j) /\ matrix m2 false p2 i j = Some (u i j)) /\
  num_columns m = Z.of_nat (2 * n - 3) /\
  num_columns m2 = Z.of_nat (list_sum (map (fun i => Nat.log2_up (i + 1)) (seq 1 (n - 1)))).
Proof.
  intros u n Hn U. destruct (cascade_exact u n false Hn U) as (m & p & E & _ & M). destruct (cascade_exact u n true Hn U) as (m2 & p2 & E' & _ & MM).
  exists m, p, m2, p2. split; [exact E |]. split; [exact E' |]. split; [auto |].
  destruct (cascade_core 0 u n false TOP (Rle_refl 0) (or_introl eq_refl) Hn) as (st & L & M1 & P1 & E1 & _ & _ & _ & _ & _ & _ & _ & _ & _ & _ & _ & C).
  destruct (cascade_core 0 u n true TOP (Rle_refl 0) (or_introl eq_refl) Hn) as (st2 & L2 & M2 & P2 & E2 & _ & _ & _ & _ & _ & _ & _ & _ & _ & _ & _ & D).
  assert (X : (m, p) = (M1, P1)) by (apply Some_inj; congruence). assert (Y : (m2, p2) = (M2, P2)) by (apply Some_inj; congruence).
  assert (X1 : m = M1) by congruence. assert (Y1 : m2 = M2) by congruence. rewrite X1, Y1, C, D, tree_cols_sum. split; reflexivity.
Qed.
