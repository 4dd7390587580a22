(** Proofs for C170 (3): nulling with coupler errors. *)
From Coq Require Import Reals Lra Lia List ZArith Permutation Bool FunctionalExtensionality.
From Verif Require Import Cx Arr Spec_circuit Model_coupling Model_forward Model_vector Spec_mesh Spec_tree Spec_vunit
  Proof_node Proof_mesh Proof_forward Proof_forward2 Proof_forward3 Proof_forward4 Proof_null Proof_null2 Proof_tree Proof_vector Proof_vunit Proof_vunit2.
Import ListNotations.
Local Open Scope R_scope.

Lemma group_op : forall a n q t b v, quad_unit q -> t <> b ->
  ((a <= t < a + n /\ a <= b < a + n) \/ (~ (a <= t < a + n) /\ ~ (a <= b < a + n)))%nat ->
  group_power (apply_op (q, t, b) v) a n = group_power v a n.
Proof.
  intros a n q t b v Hq Htb [[H1 H2] | [H1 H2]]; unfold group_power.
  - pose proof (run_power n [(q, (t - a)%nat, (b - a)%nat)] (fun i => v (a + i)%nat)) as P. unfold power, run in P. cbn [fold_left] in P. rewrite <- P.
    + apply Rsum_ext. intros i Hi. f_equal. unfold apply_op. unfold upd.
      replace (a + (t - a))%nat with t by lia. replace (a + (b - a))%nat with b by lia.
      destruct (Nat.eqb_spec (a + i) b), (Nat.eqb_spec i (b - a)); try lia; try reflexivity.
      destruct (Nat.eqb_spec (a + i) t), (Nat.eqb_spec i (t - a)); try lia; reflexivity.
    + constructor; [| constructor]. cbn. lia.
    + constructor; [| constructor]. exact Hq.
  - apply Rsum_ext. intros i Hi. rewrite apply_op_other by lia. reflexivity.
Qed.
Lemma group_run : forall a n (f : node -> quad) l v, (forall nd, In nd l -> quad_unit (f nd) /\ top nd <> bottom nd /\ (inside a n nd \/ outside a n nd)) ->
  group_power (run (map (fun nd => (f nd, top nd, bottom nd)) l) v) a n = group_power v a n.
Proof.
  intros a n f l. induction l as [| nd l IH]; intros v H; [reflexivity |]. cbn [map]. rewrite run_cons, IH by (intros; apply H; right; auto).
  destruct (H nd (or_introl eq_refl)) as (H1 & H2 & H3). apply group_op; auto.
Qed.
Lemma group_last : forall v a n, (0 < n)%nat -> Cn2 (v (a + n - 1)%nat) <= group_power v a n.
Proof.
  intros v a n Hn. unfold group_power. destruct n as [| n]; [lia |]. cbn [Rsum]. replace (a + S n - 1)%nat with (a + n)%nat by lia.
  pose proof (Rsum_nonneg n (fun i => Cn2 (v (a + i)%nat)) (fun i _ => Cn2_nonneg _)). lra.
Qed.
Lemma group_last_ge : forall v a n eps, (0 < n)%nat -> (forall i, (a <= i < a + n - 1)%nat -> Cn2 (v i) <= eps) ->
  group_power v a n <= Cn2 (v (a + n - 1)%nat) + INR (n - 1) * eps.
Proof.
  intros v a n eps Hn H. unfold group_power. destruct n as [| n]; [lia |]. cbn [Rsum]. replace (a + S n - 1)%nat with (a + n)%nat by lia. replace (S n - 1)%nat with n by lia.
  assert (G : Rsum n (fun i => Cn2 (v (a + i)%nat)) <= INR n * eps); [| lra].
  assert (K : forall k, (k <= n)%nat -> Rsum k (fun i => Cn2 (v (a + i)%nat)) <= INR k * eps).
  { induction k as [| k IH]; intros Hk; [cbn; lra |]. cbn [Rsum]. rewrite S_INR. specialize (IH ltac:(lia)). specialize (H (a + k)%nat ltac:(lia)). lra. }
  apply K. lia.
Qed.
Lemma group_split : forall v a h k, (h <= k)%nat -> group_power v a k = group_power v a h + group_power v (a + h) (k - h).
Proof.
  intros v a h k H. unfold group_power. replace k with (h + (k - h))%nat at 1 by lia. rewrite Rsum_split. f_equal.
  apply Rsum_ext. intros. rewrite Nat.add_assoc. reflexivity.
Qed.
Lemma group_nonneg : forall v a n, 0 <= group_power v a n.
Proof. intros. apply Rsum_nonneg. intros. apply Cn2_nonneg. Qed.
Lemma combines_le : forall balanced n a h k, combines balanced n a h k -> (a + k <= n)%nat.
Proof. intros [] n a h k; cbn [combines]; [intros (H & _); apply halving_range in H; lia | lia]. Qed.
Lemma reach_e : forall e, (2 * (cos (PI/4 + e) * sin (PI/4 + e))) ^ 2 = cos (2 * e) ^ 2.
Proof.
  intro e. f_equal. replace (2 * (cos (PI/4 + e) * sin (PI/4 + e))) with (2 * sin (PI/4 + e) * cos (PI/4 + e)) by ring. rewrite <- sin_2a.
  replace (2 * (PI / 4 + e)) with (PI / 2 + 2 * e) by field. rewrite <- cos_sin. reflexivity.
Qed.
Lemma cos2e : forall e, - (PI/4) < e < PI/4 -> 0 < cos (2 * e) ^ 2 <= 1.
Proof.
  intros e He. assert (0 < cos (2 * e)) by (apply cos_gt_0; lra). pose proof (COS_bound (2 * e)). split; nra.
Qed.
Lemma NoDup_map_inj : forall (A B : Type) (f : A -> B) l x y, NoDup (map f l) -> In x l -> In y l -> f x = f y -> x = y.
Proof.
  induction l as [| z l IH]; intros x y Hn Hx Hy E; [destruct Hx |]. cbn [map] in Hn. apply NoDup_cons_iff in Hn. destruct Hn as [H1 H2].
  destruct Hx as [-> | Hx], Hy as [-> | Hy]; auto; exfalso; apply H1; [rewrite E | rewrite <- E]; apply in_map; auto.
Qed.
Section Nulling.
Variables (eps e : R) (s : phase_style) (n : nat) (m : mesh) (th ph : nat -> R) (x0 : vec) (balanced : bool).
Hypothesis Heps : 0 <= eps.
Hypothesis He : - (PI/4) < e < PI/4.
Hypothesis Hs : tb s.
Hypothesis Null : nulling_network n m.
Hypothesis HP : Permutation (concat (ord m)) (nodes m).
Hypothesis Hrails : forall c, NoDup (map top (nodes_in_column (nodes m) c) ++ map bottom (nodes_in_column (nodes m) c)).
Hypothesis Hfed : forall nd, In nd (nodes m) -> exists a h k, combines balanced n a h k /\ fed earlier (nodes m) nd a h k.
Hypothesis Hreach : reachable_splits balanced eps e n x0.
Let E := (e, e). Let L := (0, 0).
Let W (ls : list (list node)) := run (map (opE s E L th ph) (concat ls)) x0.
Hypothesis Htr : forall ls1 l' ls2, ord m = ls1 ++ l' :: ls2 -> forall nd, In nd l' ->
  th (node_id nd) = thE eps E (W ls1) nd /\ ph (node_id nd) = mod2pi (phE eps s E (W ls1) nd).
Lemma ord_col : forall l, In l (ord m) -> exists c, l = nodes_in_column (nodes m) c.
Proof. intros l H. unfold ord in H. apply in_map_iff in H. destruct H as (c & <- & _). eauto. Qed.
Lemma ord_In : forall l nd, In l (ord m) -> In nd l -> In nd (nodes m).
Proof. intros l nd H1 H2. destruct (ord_col l H1) as (c & ->). apply filter_In in H2. tauto. Qed.
Lemma prefix_earlier : forall ls1 l ls2 nd, ord m = ls1 ++ l :: ls2 -> In nd l -> forall nd', In nd' (nodes m) -> (In nd' (concat ls1) <-> earlier nd' nd).
Proof.
  intros ls1 l ls2 nd Eo Hnd nd' Hn. split.
  - intro H. apply (in_order_sorted m ls1 l ls2 Eo nd' nd H Hnd).
  - intro H. assert (I : In nd' (concat (ord m))) by (eapply Permutation_in; [apply Permutation_sym, HP | exact Hn]).
    rewrite Eo, concat_app in I. apply in_app_or in I. destruct I as [I | I]; [exact I |]. cbn [concat] in I. exfalso. unfold earlier in H. apply in_app_or in I. destruct I as [I | I].
    + destruct (ord_col l) as (c & El); [rewrite Eo; apply in_or_app; right; left; reflexivity |]. rewrite El in I, Hnd. apply filter_In in I. apply filter_In in Hnd.
      destruct I as (_ & I). destruct Hnd as (_ & Hnd). apply Z.eqb_eq in I. apply Z.eqb_eq in Hnd. lia.
    + apply in_concat in I. destruct I as (l2 & Hl2 & I). apply in_split in Hl2. destruct Hl2 as (r1 & r2 & ->).
      destruct (in_order_sorted m (ls1 ++ l :: r1) l2 r2) with (a := nd) (b := nd') as (_ & _ & Hc); auto; [| | lia].
      * fold (ord m). rewrite Eo, <- app_assoc. reflexivity.
      * rewrite concat_app. apply in_or_app. right. cbn [concat]. apply in_or_app. auto.
Qed.
Lemma nulled_split : forall ls1 l ls2 nd, ord m = ls1 ++ l :: ls2 -> In nd l -> (forall nd', In nd' (concat ls1) -> Cn2 (W ls1 (top nd')) <= eps) ->
  direct_transmissivity_eps eps (W ls1 (top nd)) (W ls1 (bottom nd)) <= cos (2 * e) ^ 2.
Proof.
  intros ls1 l ls2 nd Eo Hnd Hz. set (w := W ls1) in *.
  assert (Hin : In nd (nodes m)) by (apply (ord_In l); auto; rewrite Eo; apply in_or_app; right; left; reflexivity).
  destruct (Hfed nd Hin) as (a & h & k & Hc & (A1 & A2 & A3 & A4 & A5)).
  pose proof (combines_le _ _ _ _ _ Hc) as Hk.
  assert (Hi1 : forall nd', In nd' (concat ls1) -> In nd' (nodes m)).
  { intros nd' H. eapply Permutation_in; [exact HP |]. rewrite Eo, concat_app. apply in_or_app. auto. }
  assert (Hops : forall b c, (forall nd', In nd' (concat ls1) -> inside b c nd' \/ outside b c nd') -> group_power w b c = group_power x0 b c).
  { intros b c Hbc. unfold w, W, opE, E, L. apply (group_run b c (fun nd => pnE s (e, e) (0, 0) (th (node_id nd)) (ph (node_id nd)))). intros nd' H.
    split; [apply parallel_mzi_unit |]. split; [| apply Hbc; auto]. destruct Null as (_ & _ & _ & B & _). specialize (B nd' (Hi1 nd' H)). lia. }
  assert (HA : forall nd', In nd' (concat ls1) -> inside a h nd' \/ inside (a + h) (k - h) nd' \/ outside a k nd').
  { intros nd' H. apply A4; [auto | apply (prefix_earlier ls1 l ls2 nd Eo Hnd nd'); auto]. }
  assert (G1 : group_power w a h = group_power x0 a h).
  { apply Hops. intros nd' H. destruct (HA nd' H) as [I | [I | I]]; [left; exact I | right | right]; unfold inside, outside in *; lia. }
  assert (G2 : group_power w (a + h) (k - h) = group_power x0 (a + h) (k - h)).
  { apply Hops. intros nd' H. destruct (HA nd' H) as [I | [I | I]]; [right | left; exact I | right]; unfold inside, outside in *; lia. }
  pose proof (group_last w a h ltac:(lia)) as T1. rewrite <- A2, G1 in T1.
  assert (T2 : group_power w (a + h) (k - h) <= Cn2 (w (a + h + (k - h) - 1)%nat) + INR (k - h - 1) * eps).
  { apply group_last_ge; [lia |]. intros i Hi. destruct (A5 i) as (nd' & H1 & <- & H3); [lia | lia | lia |]. apply Hz. apply (prefix_earlier ls1 l ls2 nd Eo Hnd nd'); auto. }
  replace (a + h + (k - h) - 1)%nat with (bottom nd) in T2 by lia. rewrite G2 in T2.
  pose proof (cos2e e He) as HC. set (C := cos (2 * e) ^ 2) in *.
  pose proof (Cn2_nonneg (w (top nd))) as Pt. pose proof (Cn2_nonneg (w (bottom nd))) as Pb.
  assert (Hmain : (1 - C) * Cn2 (w (top nd)) <= C * (Cn2 (w (bottom nd)) + eps)).
  { destruct (Hreach a h k Hc) as [Hz0 | Hr].
    - replace (Cn2 (w (top nd))) with 0 by lra. rewrite Rmult_0_r. apply Rmult_le_pos; lra.
    - rewrite (group_split x0 a h k) in Hr by lia. fold C in Hr.
      assert (Q1 : (1 - C) * Cn2 (w (top nd)) <= (1 - C) * group_power x0 a h) by (apply Rmult_le_compat_l; lra).
      assert (Q2 : C * group_power x0 (a + h) (k - h) <= C * (Cn2 (w (bottom nd)) + INR (k - h - 1) * eps)) by (apply Rmult_le_compat_l; lra).
      assert (Q3 : INR (k - h - 1) * eps <= INR n * eps) by (apply Rmult_le_compat_r; [lra | apply le_INR; lia]).
      assert (Q4 : C * (INR (k - h - 1) * eps) <= C * (INR n * eps)) by (apply Rmult_le_compat_l; lra).
      assert (Q5 : 0 <= C * eps) by (apply Rmult_le_pos; lra). lra. }
  unfold direct_transmissivity_eps. destruct (Req_dec (Cn2 (w (top nd)) + Cn2 (w (bottom nd)) + eps) 0) as [Ez | Ez].
  - replace (Cn2 (w (top nd))) with 0 by lra. unfold Rdiv. rewrite Rmult_0_l. lra.
  - apply (Rmult_le_reg_r (Cn2 (w (top nd)) + Cn2 (w (bottom nd)) + eps)); [lra |]. unfold Rdiv. rewrite Rmult_assoc, Rinv_l by auto. lra.
Qed.
Lemma nulled_prefix : forall ls1 ls2, ord m = ls1 ++ ls2 -> forall nd, In nd (concat ls1) -> Cn2 (W ls1 (top nd)) <= eps.
Proof.
  intro ls1. induction ls1 as [| l ls1 IH] using rev_ind; intros ls2 Eo nd Hin; [destruct Hin |].
  rewrite <- app_assoc in Eo. cbn [List.app] in Eo. specialize (IH _ Eo).
  assert (Hl : In l (ord m)) by (rewrite Eo; apply in_or_app; right; left; reflexivity).
  assert (EW : W (ls1 ++ [l]) = run (map (opE s E L th ph) l) (W ls1)).
  { unfold W. rewrite concat_app, map_app, run_app. cbn [concat]. rewrite app_nil_r. reflexivity. }
  rewrite EW. rewrite concat_app in Hin. cbn [concat] in Hin. rewrite app_nil_r in Hin. apply in_app_or in Hin. destruct Hin as [Hin | Hin].
  - rewrite run_out; [apply IH; auto |]. intros o Ho. apply in_map_iff in Ho. destruct Ho as (b & <- & Hb). cbn [opE].
    destruct (in_order_sorted m ls1 l ls2 Eo nd b Hin Hb) as (H1 & H2 & H3). destruct Null as (_ & _ & N3 & _ & N5). unfold opE. split.
    + intro Et. assert (b = nd) by (apply (NoDup_map_inj _ _ top (nodes m)); auto; eapply Permutation_NoDup; [apply Permutation_sym, N3 | apply seq_NoDup]). subst b. lia.
    + intro Eb. specialize (N5 nd b H1 H2 Eb). lia.
  - destruct (ord_col l Hl) as (c & El).
    unfold opE. rewrite (run_col_top (fun k => pnE s E L (th k) (ph k))); [| rewrite El; apply Hrails | exact Hin].
    destruct (Htr ls1 l ls2 Eo nd Hin) as (-> & ->). pose proof (phE_some eps s E Hs (W ls1) nd) as Hphi. unfold pnE.
    assert (Hsp : direct_transmissivity_eps eps (W ls1 (top nd)) (W ls1 (bottom nd)) <= (2 * (cos (PI / 4 + e) * sin (PI / 4 + e))) ^ 2)
      by (rewrite reach_e; apply (nulled_split ls1 l ls2 nd Eo Hin); exact IH).
    destruct Hs as [Es | Es]; rewrite Es in Hphi |- *; [apply null_top | apply null_bottom]; auto.
Qed.
Lemma nulled_all : forall i, (i < n - 1)%nat -> Cn2 (W (ord m) i) <= eps.
Proof.
  intros i Hi. destruct Null as (_ & _ & N3 & _).
  assert (I : In i (map top (nodes m))) by (eapply Permutation_in; [apply Permutation_sym, N3 | apply in_seq; lia]).
  apply in_map_iff in I. destruct I as (nd & <- & Hin). apply (nulled_prefix (ord m) []); [rewrite app_nil_r; reflexivity |].
  eapply Permutation_in; [apply Permutation_sym, HP | auto].
Qed.
End Nulling.
