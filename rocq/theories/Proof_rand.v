(** Expected weights of trees with random splits (C144). *)
From Coq Require Import Reals Lra Lia List ZArith Permutation Bool FunctionalExtensionality.
From Verif Require Import Cx Arr Spec_circuit Model_coupling Model_forward Model_vector Spec_mesh Spec_tree
  Proof_mesh Proof_forward Proof_forward2 Proof_tree Proof_vector Proof_null Proof_node Model_rand Spec_rand.
Import ListNotations.
Local Open Scope R_scope.

(** ** The row of the output rail, node by node *)
Definition wt (s : nat -> R) (nd : node) (w : nat -> R) : nat -> R :=
  upd (upd w (top nd) (s (node_id nd) * w (bottom nd))) (bottom nd) ((1 - s (node_id nd)) * w (bottom nd)).
Definition unit_at (i : nat) : nat -> R := fun r => if Nat.eqb r i then 1 else 0.

Lemma apply_basis_out : forall q t b r, t <> r -> b <> r -> apply_op (q, t, b) (basis r) = basis r.
Proof.
  intros q t b r Ht Hb. apply functional_extensionality. intro i. cbn [apply_op]. unfold upd, qtop, qbot, basis, delta.
  destruct (Nat.eqb_spec t r); [lia |]. destruct (Nat.eqb_spec b r); [lia |].
  destruct (Nat.eqb_spec i b) as [-> | _]; [destruct (Nat.eqb_spec b r); [lia |]; ring | destruct (Nat.eqb_spec i t) as [-> | _]; [destruct (Nat.eqb_spec t r); [lia |]; ring | reflexivity]].
Qed.
Lemma apply_basis_top : forall q t b, t <> b -> apply_op (q, t, b) (basis t) = lin (t11 q) (basis t) (t12 q) (basis b).
Proof.
  intros q t b H. apply functional_extensionality. intro i. cbn [apply_op]. unfold lin, upd, qtop, qbot, basis, delta.
  destruct (Nat.eqb_spec i b) as [-> | Hb].
  - destruct (Nat.eqb_spec b t); [lia |]. rewrite Nat.eqb_refl. ring.
  - rewrite Nat.eqb_refl. destruct (Nat.eqb_spec b t); [lia |]. destruct (Nat.eqb_spec i t); ring.
Qed.
Lemma apply_basis_bot : forall q t b, t <> b -> apply_op (q, t, b) (basis b) = lin (t21 q) (basis t) (t22 q) (basis b).
Proof.
  intros q t b H. apply functional_extensionality. intro i. cbn [apply_op]. unfold lin, upd, qtop, qbot, basis, delta. rewrite Nat.eqb_refl.
  destruct (Nat.eqb_spec t b); [lia |].
  destruct (Nat.eqb_spec i b) as [-> | Hb]; [destruct (Nat.eqb_spec b t); [lia | ring] | destruct (Nat.eqb_spec i t); ring].
Qed.
Lemma run_basis_out : forall ops r, (forall o, In o ops -> let '(_, t, b) := o in t <> r /\ b <> r) -> run ops (basis r) = basis r.
Proof.
  induction ops as [| [[q t] b] ops IH]; intros r H; [reflexivity |]. rewrite run_cons.
  destruct (H _ (or_introl eq_refl)) as [Ht Hb]. rewrite apply_basis_out by auto. apply IH. intros; apply H; right; auto.
Qed.
Lemma unit_bar : forall q, quad_unit q -> Cn2 (t22 q) = 1 - Cn2 (t12 q).
Proof.
  intros q H. pose proof (H C1 C0 C1 C0) as A. pose proof (H C0 C1 C0 C1) as B. pose proof (H C1 C0 C0 C1) as D.
  unfold qtop, qbot in A, B, D. destruct q as [[a a'] [b b'] [c c'] [d d']]. cbn [t11 t12 t21 t22] in *.
  apply (f_equal re) in A. apply (f_equal re) in B. pose proof (f_equal im D) as D2. apply (f_equal re) in D.
  unfold C1, C0, RtoC, Cconj, Cmul, Cadd, Cn2 in *. cbn [re im] in *.
  assert (A' : a * a + a' * a' + b * b + b' * b' = 1) by lra. assert (B' : c * c + c' * c' + d * d + d' * d' = 1) by lra.
  assert (D1 : a * c + a' * c' = - (b * d + b' * d')) by lra. assert (D3 : a * c' - a' * c = - (b * d' - b' * d)) by lra.
  assert (E : (a * a + a' * a') * (c * c + c' * c') = (b * b + b' * b') * (d * d + d' * d')).
  { replace ((a * a + a' * a') * (c * c + c' * c')) with ((a * c + a' * c') * (a * c + a' * c') + (a * c' - a' * c) * (a * c' - a' * c)) by ring.
    rewrite D1, D3. ring. }
  replace (a * a + a' * a') with (1 - (b * b + b' * b')) in E by lra. replace (c * c + c' * c') with (1 - (d * d + d' * d')) in E by lra. lra.
Qed.
Lemma row_weights : forall st p s last L,
  (forall nd, In nd L -> Cn2 (t12 (pn st (thetas p (node_id nd)) (phis p (node_id nd)))) = s (node_id nd)) ->
  (forall nd, In nd L -> top nd <> bottom nd /\ top nd <> last) ->
  (forall L1 nd L2, L = L1 ++ nd :: L2 -> forall x, In x L2 -> top x <> top nd /\ bottom x <> top nd) ->
  forall r, Cn2 (run (node_ops st p L) (basis r) last) = fold_right (wt s) (unit_at last) L r.
Proof.
  intros st p s last. induction L as [| nd L IH]; intros Hs Ht Ho r.
  - cbn [node_ops map fold_right]. unfold run, basis, delta, unit_at. cbn [fold_left]. rewrite Nat.eqb_sym.
    destruct (Nat.eqb r last); unfold Cn2, C1, C0, RtoC; cbn [re im]; ring.
  - assert (IH' : forall r, Cn2 (run (node_ops st p L) (basis r) last) = fold_right (wt s) (unit_at last) L r).
    { apply IH; try (intros; (apply Hs || apply Ht); right; auto). intros L1 x L2 E. apply (Ho (nd :: L1) x L2). rewrite E. reflexivity. }
    clear IH. cbn [node_ops map fold_right]. fold (node_ops st p L). rewrite run_cons.
    destruct (Ht nd (or_introl eq_refl)) as [Htb Htl]. set (q := pn st (thetas p (node_id nd)) (phis p (node_id nd))).
    assert (Z : run (node_ops st p L) (basis (top nd)) last = C0).
    { rewrite run_basis_out; [unfold basis, delta; destruct (Nat.eqb_spec last (top nd)); [congruence | reflexivity] |].
      intros o Ho'. apply in_map_iff in Ho'. destruct Ho' as (x & <- & Hx). apply (Ho [] nd L eq_refl x Hx). }
    pose proof (Hs nd (or_introl eq_refl)) as Hq. fold q in Hq.
    unfold wt at 1. unfold upd at 1. destruct (Nat.eqb_spec r (bottom nd)) as [-> | Hb].
    + rewrite apply_basis_bot by auto. rewrite run_lin. unfold lin. rewrite Z.
      replace (t21 q * C0 + t22 q * run (node_ops st p L) (basis (bottom nd)) last)%C with (t22 q * run (node_ops st p L) (basis (bottom nd)) last)%C by ring.
      rewrite Cn2_mul, IH', unit_bar, Hq by (apply pn_unit). reflexivity.
    + unfold upd. destruct (Nat.eqb_spec r (top nd)) as [-> | Ht'].
      * rewrite apply_basis_top by auto. rewrite run_lin. unfold lin. rewrite Z.
        replace (t11 q * C0 + t12 q * run (node_ops st p L) (basis (bottom nd)) last)%C with (t12 q * run (node_ops st p L) (basis (bottom nd)) last)%C by ring.
        rewrite Cn2_mul, IH', Hq. reflexivity.
      * rewrite apply_basis_out by auto. apply IH'.
Qed.

(** ** Affine dependence on each split, expectations *)
Definition affine_at (g : (nat -> R) -> R) (k : nat) : Prop := forall s, exists c d, forall v, g (upd s k v) = c + d * v.
Lemma wt_indep : forall L k s v w r, ~ In k (map node_id L) -> fold_right (wt (upd s k v)) w L r = fold_right (wt s) w L r.
Proof.
  induction L as [| nd L IH]; intros k s v w r H; [reflexivity |]. cbn [map In] in H. cbn [fold_right].
  assert (E : fold_right (wt (upd s k v)) w L = fold_right (wt s) w L) by (apply functional_extensionality; intro; apply IH; tauto).
  rewrite E. unfold wt. rewrite !(upd_neq _ s k (node_id nd) v) by tauto. reflexivity.
Qed.
Lemma wt_affine : forall L k w r, NoDup (map node_id L) -> affine_at (fun s => fold_right (wt s) w L r) k.
Proof.
  induction L as [| nd L IH]; intros k w r H s; [exists (w r), 0; intro; cbn [fold_right]; ring |].
  cbn [map] in H. inversion H as [| ? ? H1 H2]; subst. cbn [fold_right].
  destruct (Nat.eq_dec (node_id nd) k) as [E | E].
  - set (w' := fold_right (wt s) w L).
    assert (V : forall v q, fold_right (wt (upd s k v)) w L q = w' q) by (intros; apply wt_indep; subst; auto).
    unfold wt at 1. unfold upd at 1. destruct (Nat.eqb_spec r (bottom nd)) as [-> | _].
    + exists (w' (bottom nd)), (- w' (bottom nd)). intro v. rewrite V, E, upd_eq. ring.
    + unfold upd at 1. destruct (Nat.eqb_spec r (top nd)) as [-> | _].
      * exists 0, (w' (bottom nd)). intro v. rewrite V, E, upd_eq. ring.
      * exists (w' r), 0. intro v. rewrite V. ring.
  - assert (V : forall v, upd s k v (node_id nd) = s (node_id nd)) by (intro; apply upd_neq; auto).
    unfold wt at 1. unfold upd at 1. destruct (Nat.eqb_spec r (bottom nd)) as [-> | _].
    + destruct (IH k w (bottom nd) H2 s) as (c & d & I). exists ((1 - s (node_id nd)) * c), ((1 - s (node_id nd)) * d). intro v. rewrite V, I. ring.
    + unfold upd at 1. destruct (Nat.eqb_spec r (top nd)) as [-> | _].
      * destruct (IH k w (bottom nd) H2 s) as (c & d & I). exists (s (node_id nd) * c), (s (node_id nd) * d). intro v. rewrite V, I. ring.
      * apply (IH k w r H2 s).
Qed.
Lemma expect_affine : forall avg (q : nat -> R -> R) (mu : nat -> R) N g,
  (forall k c d, (k < N)%nat -> avg (fun v => c + d * q k v) = c + d * mu k) -> (forall k, affine_at g k) ->
  expect avg N (fun u => g (fun k => q k (u k))) = g (fun k => if Nat.ltb k N then mu k else q k 0).
Proof.
  intros avg q mu. induction N; intros g Ha Hg.
  - cbn [expect]. f_equal.
  - cbn [expect].
    assert (E : (fun v => expect avg N (fun u => g (fun k => q k (upd u N v k)))) = (fun v => g (upd (fun k => if Nat.ltb k N then mu k else q k 0) N (q N v)))).
    { apply functional_extensionality. intro v.
      rewrite <- (IHN (fun s => g (upd s N (q N v)))).
      - f_equal. apply functional_extensionality. intro u. f_equal. apply functional_extensionality. intro k. unfold upd. destruct (Nat.eqb_spec k N); [subst |]; reflexivity.
      - intros; apply Ha; lia.
      - intros k s. destruct (Nat.eq_dec k N) as [-> | Hne].
        + exists (g (upd s N (q N v))), 0. intro x. replace (upd (upd s N x) N (q N v)) with (upd s N (q N v)); [ring |].
          apply functional_extensionality. intro j. unfold upd. destruct (Nat.eqb j N); reflexivity.
        + destruct (Hg k (upd s N (q N v))) as (c & d & I). exists c, d. intro x. rewrite <- I. f_equal.
          apply functional_extensionality. intro j. unfold upd. destruct (Nat.eqb_spec j N); destruct (Nat.eqb_spec j k); auto; lia. }
    rewrite E. destruct (Hg N (fun k => if Nat.ltb k N then mu k else q k 0)) as (c & d & I).
    replace (fun v => g (upd (fun k => if Nat.ltb k N then mu k else q k 0) N (q N v))) with (fun v => c + d * q N v) by (apply functional_extensionality; intro; rewrite I; reflexivity).
    rewrite Ha by lia. rewrite <- I. f_equal. apply functional_extensionality. intro k. unfold upd.
    destruct (Nat.eqb_spec k N) as [-> | Hne]; [rewrite (proj2 (Nat.ltb_lt N (S N))) by lia; reflexivity |].
    destruct (Nat.ltb_spec k N); destruct (Nat.ltb_spec k (S N)); auto; lia.
Qed.

(** ** Networks that null *)
Lemma wt_ext : forall s s' L w, (forall nd, In nd L -> s (node_id nd) = s' (node_id nd)) -> fold_right (wt s) w L = fold_right (wt s') w L.
Proof.
  intros s s'. induction L as [| nd L IH]; intros w H; [reflexivity |]. cbn [fold_right]. rewrite IH by (intros; apply H; right; auto).
  unfold wt. rewrite (H nd) by (left; auto). reflexivity.
Qed.
Lemma half_terms : mzi_terms (0, 0) = (1 / 2, 1 / 2, 1 / 2, 1 / 2).
Proof.
  unfold mzi_terms. cbn [fst snd]. rewrite Rplus_0_r, cos_PI4, sin_PI4.
  assert (H : 1 / sqrt 2 * (1 / sqrt 2) = 1 / 2).
  { assert (Q : sqrt 2 * sqrt 2 = 2) by (apply sqrt_sqrt; lra). assert (P : 0 < sqrt 2) by (apply sqrt_lt_R0; lra).
    replace (1 / sqrt 2 * (1 / sqrt 2)) with (1 / (sqrt 2 * sqrt 2)) by (field; lra). rewrite Q. reflexivity. }
  rewrite H. reflexivity.
Qed.
Lemma split_exact : forall st s phi, 0 <= s <= 1 -> Cn2 (t12 (pn st (transmissivity_to_phase s None) phi)) = s.
Proof.
  intros st s phi H. rewrite ttp_none, <- half_terms. unfold pn.
  pose proof PI_RGT_0. pose proof (ttp_mzi_exact s st false phi (0, 0)) as K. cbn [fst snd] in K. specialize (K ltac:(lra) ltac:(lra)).
  rewrite half_terms in *. apply K. lra.
Qed.
Lemma in_order_after : forall n m, wf_mesh m -> nulling_network n m -> (forall nd, In nd (nodes m) -> (0 <= column nd < num_columns m)%Z) ->
  forall L1 nd L2, in_order m = L1 ++ nd :: L2 -> forall x, In x L2 -> top x <> top nd /\ bottom x <> top nd.
Proof.
  intros n m W (N1 & N2 & N3 & N4 & N5) Hc L1 nd L2 E x Hx.
  assert (P : Permutation (in_order m) (nodes m)) by (apply in_order_perm; intros a Ha; specialize (Hc a Ha); lia).
  assert (Hin : forall a, In a (in_order m) -> In a (nodes m)) by (intros a; apply Permutation_in; auto).
  assert (Hnd : In nd (nodes m)) by (apply Hin; rewrite E; apply in_or_app; right; left; auto).
  assert (Hxn : In x (nodes m)) by (apply Hin; rewrite E; apply in_or_app; right; right; auto).
  assert (ND : NoDup (map top (in_order m))).
  { eapply Permutation_NoDup; [apply Permutation_map, Permutation_sym, P |]. eapply Permutation_NoDup; [apply Permutation_sym, N3 | apply seq_NoDup]. }
  split.
  - intro K. rewrite E, map_app in ND. cbn [map] in ND. apply NoDup_remove_2 in ND. apply ND. apply in_or_app. right. rewrite <- K. apply in_map. auto.
  - intro K. specialize (N5 nd x Hnd Hxn K).
    (* x comes after nd in the order, so its column is not smaller *)
    assert (S : forall N l, (forall y, In y l -> True) -> forall A B y z, concat (map (fun c => filter (fun q => Z.eqb (column q) (Z.of_nat c)) l) (seq N (length (seq 0 (Z.to_nat (num_columns m)))))) = A ++ y :: B -> In z B -> (column y <= column z)%Z).
    { clear. intros N l _. generalize (length (seq 0 (Z.to_nat (num_columns m)))) as k. intro k. revert N.
      induction k; intros N A B y z E Hz; [destruct A; discriminate |]. cbn [seq map concat] in E.
      set (F := filter (fun q => Z.eqb (column q) (Z.of_nat N)) l) in *.
      assert (HF : forall q, In q F -> column q = Z.of_nat N) by (intros q Hq; apply filter_In in Hq; destruct Hq as [_ Hq]; apply Z.eqb_eq in Hq; auto).
      assert (HG : forall q, In q (concat (map (fun c => filter (fun q => Z.eqb (column q) (Z.of_nat c)) l) (seq (S N) k))) -> (Z.of_nat N < column q)%Z).
      { intros q Hq. apply in_concat in Hq. destruct Hq as (f & Hf & Hq). apply in_map_iff in Hf. destruct Hf as (c & <- & Hc). apply in_seq in Hc.
        apply filter_In in Hq. destruct Hq as [_ Hq]. apply Z.eqb_eq in Hq. lia. }
      revert A E. induction F as [| f F IHF]; intros A E; cbn [List.app] in E; [eapply IHk; eauto |].
      destruct A as [| a A]; cbn [List.app] in E; inversion E; subst.
      - assert (column y = Z.of_nat N) by (apply HF; left; auto). rewrite H. apply in_app_or in Hz. destruct Hz as [Hz | Hz]; [rewrite (HF z) by (right; auto); lia | specialize (HG z Hz); lia].
      - eapply IHF; eauto. intros; apply HF; right; auto. }
    rewrite seq_length in S. specialize (S 0%nat (nodes m) (fun _ _ => I) L1 L2 nd x E Hx). lia.
Qed.
Lemma expected_row : forall n st m Q avg (b a : nat -> R) p r, (2 <= n)%nat -> progable n st m -> beta_draw Q avg ->
  (forall k, (k < n - 1)%nat -> 0 < b k /\ 0 < a k) ->
  expect avg (n - 1) (fun u => entry_power (matrix m false (with_thetas (fun k => transmissivity_to_phase (Q (b k) (a k) (u k)) None) p) (n - 1)%nat r)) =
  fold_right (wt (fun k => b k / (a k + b k))) (unit_at (n - 1)) (in_order m) r.
Proof.
  intros n st m Q avg b a p r Hn PG [Q01 Qm] Hpos. pose proof PG as [W St Nl Cc Er Ers Ls Ln].
  assert (P : Permutation (in_order m) (nodes m)) by (apply in_order_perm; intros x Hx; specialize (Cc x Hx); lia).
  assert (Hin : forall x, In x (in_order m) -> In x (nodes m)) by (intros x; apply Permutation_in; auto).
  pose proof Nl as (N1 & N2 & N3 & N4 & N5).
  assert (NDid : NoDup (map node_id (in_order m))).
  { eapply Permutation_NoDup; [apply Permutation_map, Permutation_sym, P |]. eapply Permutation_NoDup; [apply Permutation_sym, N2 | apply seq_NoDup]. }
  assert (Hid : forall x, In x (in_order m) -> (node_id x < n - 1)%nat).
  { intros x Hx. assert (I : In (node_id x) (seq 0 (n - 1))) by (eapply Permutation_in; [exact N2 | apply in_map, Hin; auto]). apply in_seq in I. lia. }
  assert (Htop : forall x, In x (in_order m) -> (top x < n - 1)%nat).
  { intros x Hx. assert (I : In (top x) (seq 0 (n - 1))) by (eapply Permutation_in; [exact N3 | apply in_map, Hin; auto]). apply in_seq in I. lia. }
  assert (E : forall u, entry_power (matrix m false (with_thetas (fun k => transmissivity_to_phase (Q (b k) (a k) (u k)) None) p) (n - 1)%nat r) =
    fold_right (wt (fun k => Q (b k) (a k) (u k))) (unit_at (n - 1)) (in_order m) r).
  { intro u. unfold matrix. rewrite (progable_matrix n st m _ _ PG). cbn [entry_power]. unfold apply_gammas. rewrite Cn2_mul, Cn2_cis, Rmult_1_l.
    apply row_weights.
    - intros nd _. cbn [thetas phis with_thetas]. apply split_exact. apply Q01.
    - intros nd Hnd. specialize (N4 nd (Hin nd Hnd)). specialize (Htop nd Hnd). lia.
    - eapply in_order_after; eauto. }
  transitivity (expect avg (n - 1) (fun u => fold_right (wt (fun k => Q (b k) (a k) (u k))) (unit_at (n - 1)) (in_order m) r));
    [f_equal; apply functional_extensionality; exact E |].
  etransitivity; [apply (expect_affine avg (fun k v => Q (b k) (a k) v) (fun k => b k / (a k + b k)) (n - 1) (fun s => fold_right (wt s) (unit_at (n - 1)) (in_order m) r)) |].
  - intros k c d Hk. destruct (Hpos k Hk). apply Qm; auto.
  - intros k. apply wt_affine. auto.
  - apply (f_equal (fun f => f r)). apply wt_ext. intros nd Hnd. specialize (Hid nd Hnd). rewrite (proj2 (Nat.ltb_lt _ _)) by auto. reflexivity.
Qed.
Lemma rand_theta_plain : forall n st m Q u p, progable n st m ->
  with_thetas (rand_theta Q m u) p = with_thetas (fun k => transmissivity_to_phase (Q (INR (nth k (map beta (nodes m)) 0%nat)) (INR (nth k (map alpha (nodes m)) 0%nat)) (u k)) None) p.
Proof.
  intros n st m Q u p PG. unfold with_thetas. f_equal. apply functional_extensionality. intro k. unfold rand_theta, rand_s, betas, alphas.
  rewrite ttp_none. f_equal. f_equal. rewrite <- half_terms. f_equal. unfold err_at. apply nth_const. apply (pg_errs _ _ _ PG).
Qed.

(** ** The chain *)
Definition chain_node (n r i : nat) : node := plain_node i r i (i + 1) 1 (n - i - 1) (Z.of_nat i).
Lemma plain_progable : forall n r bal s m, (2 <= n)%nat -> (n <= r)%nat -> tree n r bal s = Some m -> progable n s m.
Proof.
  intros n r bal s m Hn Hr E. destruct bal.
  - destruct (tree_balanced n r s Hn Hr) as (m' & E' & H1 & H2 & H3 & H4 & H5 & H6 & H7 & H8 & H9 & H10). assert (m' = m) by congruence. subst m'.
    constructor; auto. intros nd Hin. destruct (H7 nd Hin) as (x & y & _). auto.
    + rewrite H8. intros e He. apply in_map_iff in He. destruct He as (nd & <- & Hi). apply (H7 nd Hi).
    + rewrite H9. intros e He. apply in_map_iff in He. destruct He as (nd & <- & Hi). apply (H7 nd Hi).
    + rewrite H8, H9, !map_length. reflexivity.
  - destruct (tree_chain n r s Hn Hr) as (m' & E' & H1 & H2 & H3 & H4 & H5 & H6 & H7 & H8 & H9 & H10). assert (m' = m) by congruence. subst m'.
    constructor; auto.
    + intros nd Hin. destruct (H6 nd Hin) as (_ & _ & ->). rewrite H5. destruct H3 as (_ & I & _).
      assert (K : In (node_id nd) (seq 0 (n - 1))) by (eapply Permutation_in; [exact I | apply in_map; auto]). apply in_seq in K. lia.
    + intros nd Hin. destruct (H7 nd Hin) as (x & y & _). auto.
    + rewrite H8. intros e He. apply in_map_iff in He. destruct He as (nd & <- & Hi). apply (H7 nd Hi).
    + rewrite H9. intros e He. apply in_map_iff in He. destruct He as (nd & <- & Hi). apply (H7 nd Hi).
    + rewrite H8, H9, !map_length. reflexivity.
Qed.
Lemma chain_nodes_eq : forall n r s m, (2 <= n)%nat -> tree n r false s = Some m -> nodes m = map (chain_node n r) (rev (seq 0 (n - 1))) /\ num_columns m = Z.of_nat (n - 1).
Proof.
  intros n r s m Hn E. unfold tree in E. cbn [obind] in E.
  destruct (inverted_mesh (chain_nodes n r) s (n - 1) r) as (m' & Em & _ & _ & En & _ & _ & Ec).
  - intro H. apply (f_equal (@length _)) in H. unfold chain_nodes in H. rewrite map_length, rev_length, seq_length in H. simpl in H. lia.
  - unfold chain_nodes. rewrite map_map. cbn [node_id plain_node]. rewrite map_id. apply NoDup_rev, seq_NoDup.
  - intros nd H. apply chain_In in H. destruct H as (i & Hi & ->). reflexivity.
  - intros nd H. apply chain_In in H. destruct H as (i & Hi & ->). simpl. lia.
  - exists (plain_node 0 r 0 (0 + 1) 1 (n - 0 - 1) (Z.of_nat n - 2 - Z.of_nat 0)). split; [| simpl; lia].
    apply chain_In. exists 0%nat. split; [lia | reflexivity].
  - assert (m' = m) by congruence. subst m'. split; auto. rewrite En. unfold chain_nodes. rewrite map_map. apply map_ext_in. intros i Hi.
    apply in_rev in Hi. apply in_seq in Hi. unfold chain_node, with_column, plain_node. cbn. f_equal. lia.
Qed.
Lemma filter_one : forall N c, (c < N)%nat -> filter (fun i => Z.eqb (Z.of_nat i) (Z.of_nat c)) (rev (seq 0 N)) = [c].
Proof.
  induction N; intros c H; [lia |]. rewrite seq_S, rev_app_distr. cbn [Nat.add rev List.app filter].
  destruct (Z.eqb_spec (Z.of_nat N) (Z.of_nat c)) as [E | E].
  - assert (N = c) by lia. subst c. f_equal.
    assert (G : forall l, (forall i, In i l -> (i < N)%nat) -> filter (fun i => Z.eqb (Z.of_nat i) (Z.of_nat N)) l = []).
    { induction l as [| x l IH]; intro Hl; [reflexivity |]. cbn [filter]. destruct (Z.eqb_spec (Z.of_nat x) (Z.of_nat N)); [specialize (Hl x (or_introl eq_refl)); lia | apply IH; intros; apply Hl; right; auto]. }
    apply G. intros i Hi. apply in_rev in Hi. apply in_seq in Hi. lia.
  - apply IHN. lia.
Qed.
Lemma chain_in_order : forall n r s m, (2 <= n)%nat -> tree n r false s = Some m -> in_order m = map (chain_node n r) (seq 0 (n - 1)).
Proof.
  intros n r s m Hn E. destruct (chain_nodes_eq n r s m Hn E) as [En Ec]. unfold in_order. rewrite En, Ec, Nat2Z.id.
  assert (G : forall c, In c (seq 0 (n - 1)) -> filter (fun nd => Z.eqb (column nd) (Z.of_nat c)) (map (chain_node n r) (rev (seq 0 (n - 1)))) = [chain_node n r c]).
  { intros c Hc. apply in_seq in Hc.
    assert (F : forall l, filter (fun nd => Z.eqb (column nd) (Z.of_nat c)) (map (chain_node n r) l) = map (chain_node n r) (filter (fun i => Z.eqb (Z.of_nat i) (Z.of_nat c)) l)).
    { induction l as [| x l IH]; [reflexivity |]. cbn [map filter]. unfold chain_node at 1, plain_node at 1. cbn [column]. destruct (Z.eqb _ _); cbn [map]; rewrite IH; reflexivity. }
    rewrite F, filter_one by lia. reflexivity. }
  rewrite (map_ext_in _ (fun c => [chain_node n r c]) _ G). generalize (seq 0 (n - 1)). induction l as [| x l IH]; [reflexivity |]. cbn [map concat List.app]. rewrite IH. reflexivity.
Qed.
Lemma chain_weights : forall n r mu k j, (k + j = n - 1)%nat -> (1 <= n)%nat -> (forall i, (i < n - 1)%nat -> mu i = INR (i + 1) / INR (i + 2)) -> forall q,
  fold_right (wt mu) (unit_at (n - 1)) (map (chain_node n r) (seq j k)) q =
  if Nat.ltb q j then 0 else if Nat.eqb q j then INR (j + 1) / INR n else if Nat.ltb q n then / INR n else 0.
Proof.
  intros n r mu. induction k; intros j Hk Hn Hmu q.
  - cbn [seq map fold_right]. unfold unit_at. assert (j = (n - 1)%nat) by lia. subst j. assert (HN : INR n <> 0) by (apply not_0_INR; lia).
    destruct (Nat.ltb_spec q (n - 1)); destruct (Nat.eqb_spec q (n - 1)); destruct (Nat.ltb_spec q n); try lia; try reflexivity.
    replace (n - 1 + 1)%nat with n by lia. field. auto.
  - cbn [seq map fold_right]. specialize (IHk (S j) ltac:(lia) Hn Hmu). set (w := fold_right (wt mu) (unit_at (n - 1)) (map (chain_node n r) (seq (S j) k))) in *.
    assert (HN : INR n <> 0) by (apply not_0_INR; lia). assert (HJ : INR (j + 2) <> 0) by (apply not_0_INR; lia).
    assert (WB : w (j + 1)%nat = INR (j + 2) / INR n).
    { rewrite IHk. destruct (Nat.ltb_spec (j + 1) (S j)); [lia |]. destruct (Nat.eqb_spec (j + 1) (S j)); [| lia]. f_equal. f_equal. lia. }
    unfold wt at 1. unfold chain_node, plain_node. cbn [top bottom node_id]. rewrite WB, Hmu by lia. unfold upd.
    destruct (Nat.eqb_spec q (j + 1)) as [-> | H1].
    + destruct (Nat.ltb_spec (j + 1) j); [lia |]. destruct (Nat.eqb_spec (j + 1) j); [lia |]. destruct (Nat.ltb_spec (j + 1) n); [| lia].
      replace (INR (j + 2)) with (INR (j + 1) + 1) in * by (rewrite !plus_INR; cbn [INR]; ring). field. auto.
    + destruct (Nat.eqb_spec q j) as [-> | H2].
      * rewrite Nat.ltb_irrefl. field. auto.
      * rewrite IHk. destruct (Nat.ltb_spec q (S j)); destruct (Nat.ltb_spec q j); destruct (Nat.eqb_spec q (S j)); try lia; reflexivity.
Qed.
Lemma chain_expected : forall n rails st Q avg p r, (2 <= n)%nat -> (n <= rails)%nat -> beta_draw Q avg -> (r < n)%nat ->
  exists m, tree n rails false st = Some m /\
    expect avg (n - 1) (fun u => entry_power (matrix m false (with_thetas (rand_theta Q m u) p) (n - 1)%nat r)) = / INR n.
Proof.
  intros n rails st Q avg p r Hn Hr HQ Hrn. destruct (tree_chain n rails st Hn Hr) as (m & E & _). exists m. split; auto.
  pose proof (plain_progable n rails false st m Hn Hr E) as PG. destruct (chain_nodes_eq n rails st m Hn E) as [En _].
  assert (B : forall k, (k < n - 1)%nat -> nth k (map beta (nodes m)) 0%nat = (k + 1)%nat /\ nth k (map alpha (nodes m)) 0%nat = 1%nat).
  { intros k Hk. rewrite En, !map_map.
    assert (L : (k < length (rev (seq 0 (n - 1))))%nat) by (rewrite rev_length, seq_length; auto).
    split.
    - rewrite (nth_indep _ 0%nat (beta (chain_node n rails 0))) by (rewrite map_length; auto). rewrite (map_nth (fun x => beta (chain_node n rails x))).
      rewrite rev_nth, seq_length, seq_nth by (rewrite ?seq_length; lia). unfold chain_node, plain_node. cbn [beta]. lia.
    - rewrite (nth_indep _ 0%nat (alpha (chain_node n rails 0))) by (rewrite map_length; auto). rewrite (map_nth (fun x => alpha (chain_node n rails x))). reflexivity. }
  replace (fun u => entry_power (matrix m false (with_thetas (rand_theta Q m u) p) (n - 1)%nat r)) with
    (fun u => entry_power (matrix m false (with_thetas (fun k => transmissivity_to_phase (Q (INR (nth k (map beta (nodes m)) 0%nat)) (INR (nth k (map alpha (nodes m)) 0%nat)) (u k)) None) p) (n - 1)%nat r))
    by (apply functional_extensionality; intro u; rewrite <- (rand_theta_plain n st m Q u p PG); reflexivity).
  rewrite (expected_row n st m Q avg (fun k => INR (nth k (map beta (nodes m)) 0%nat)) (fun k => INR (nth k (map alpha (nodes m)) 0%nat)) p r Hn PG HQ).
  - rewrite (chain_in_order n rails st m Hn E). rewrite (chain_weights n rails _ (n - 1) 0); try lia.
    + destruct (Nat.ltb_spec r 0); [lia |]. destruct (Nat.eqb_spec r 0) as [-> | _]; [cbn [Nat.add INR]; unfold Rdiv; ring |].
      destruct (Nat.ltb_spec r n); [reflexivity | lia].
    + intros i Hi. destruct (B i Hi) as [-> ->]. f_equal. f_equal. rewrite <- plus_INR. f_equal. lia.
  - intros k Hk. destruct (B k Hk) as [-> ->]. split; apply lt_0_INR; lia.
Qed.
