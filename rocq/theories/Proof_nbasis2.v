(** Nullification basis: the basis vectors and the programming step (C83 - C85). *)
From Coq Require Import Reals Lra Lia Psatz List ZArith Permutation Bool FunctionalExtensionality.
From Verif Require Import Cx Arr Spec_circuit Model_coupling Model_forward Model_null Spec_mesh Spec_null
  Proof_node Proof_mesh Proof_forward Proof_forward2 Proof_forward3 Proof_vector Proof_null Proof_nbasis.
Import ListNotations.
Local Open Scope R_scope.

Definition ones (m : mesh) (c : nat) : vec :=
  fun i => if existsb (Nat.eqb i) (map bottom (nodes_in_column (nodes m) (Z.of_nat c))) then C1 else C0.
Definition null_vec (m : mesh) (p : params) (c : nat) : vec :=
  fun i => Cconj (cols_run (mzis m true p) (rev (firstn (S c) (all_idx m))) (ones m c) i).

Lemma all_some_nth : forall (A B : Type) (f : A -> option B) (g : nat -> B) l k,
  (forall i a, nth_error l i = Some a -> f a = Some (g (k + i)%nat)) -> all_some (map f l) = Some (map g (seq k (length l))).
Proof.
  induction l as [| a l IH]; intros k H; [reflexivity |].
  cbn [map all_some length seq]. rewrite (H 0%nat a eq_refl), Nat.add_0_r.
  rewrite (IH (S k)); [reflexivity |].
  intros i b Hi. rewrite (H (S i) b Hi). f_equal. f_equal. lia.
Qed.
Lemma basis_is : forall m p, wf_mesh m ->
  nullification_basis m p = Some (map (null_vec m p) (seq 0 (Z.to_nat (num_columns m)))).
Proof.
  intros m p Hw. destruct (wf_all m Hw) as (cols & E1 & E2 & E3 & E4 & E5 & E6 & E7).
  unfold nullification_basis. rewrite E1. cbn [obind]. rewrite <- E2. apply all_some_nth.
  intros c nc Hc. destruct (E4 c nc Hc) as (L1 & L2 & L3 & L4).
  assert (Hlt : (c < Z.to_nat (num_columns m))%nat) by (rewrite <- E2; apply nth_error_Some; congruence).
  assert (Eo : bottom_ones nc = ones m c) by (unfold bottom_ones, ones; rewrite L3; reflexivity).
  rewrite L1, Eo. destruct (cut_bwd_run m p c (ones m c) Hw Hlt) as (sl & S1 & S2).
  rewrite S1. cbn [obind]. rewrite S2. reflexivity.
Qed.

Lemma mzis_unit : forall m back p k, lossless m -> quad_unit (mzis m back p k).
Proof. intros. unfold mzis. rewrite (loss_at_zero m H). apply parallel_mzi_unit. Qed.
Lemma ones_real : forall m c i, Cconj (ones m c i) = ones m c i.
Proof. intros. unfold ones. destruct (existsb _ _); [apply Cconj_C1 | apply Cconj_C0]. Qed.

(** Forward through the first c+1 columns the null vector arrives as the indicator of the lower rails. *)
Lemma null_vec_run : forall m p c, wf_mesh m -> lossless m -> equal_errors m -> style m <> DIFFERENTIAL ->
  cols_run (mzis m false p) (firstn (S c) (all_idx m)) (null_vec m p c) = ones m c.
Proof.
  intros m p c Hw Hl He Hs. destruct (wf_all m Hw) as (cols & E1 & E2 & E3 & E4 & E5 & E6 & E7).
  assert (Eb : forall l v, cols_run (mzis m true p) l v = cols_run (fun k => qtrans (mzis m false p k)) l v).
  { intros l v. f_equal. apply functional_extensionality. intro k. unfold mzis. symmetry. apply mzi_back_trans; [exact Hs |].
    apply err_at_equal. exact He. }
  unfold null_vec. rewrite Eb.
  rewrite (cols_inv (mzis m false p) (firstn (S c) (all_idx m)) (ones m c)).
  - apply functional_extensionality; intro i. apply ones_real.
  - apply Forall_firstn'. exact E6.
  - intro k. apply mzis_unit. exact Hl.
Qed.

Lemma firstn_S_idx : forall m c, (c < Z.to_nat (num_columns m))%nat -> firstn (S c) (all_idx m) = firstn c (all_idx m) ++ [col_idx m c].
Proof.
  intros m c H. unfold all_idx. rewrite !firstn_map. 
  assert (Hs : forall n a, firstn a (seq 0 n) = seq 0 (Nat.min a n)).
  { intros n a. assert (G : forall n a s, firstn a (seq s n) = seq s (Nat.min a n)); [| apply G].
    induction n0 as [| n0 IH]; intros [| b] s; cbn; try reflexivity. f_equal. apply IH. }
  rewrite !Hs, !Nat.min_l by lia. rewrite seq_S, map_app. reflexivity.
Qed.
Lemma in_col_idx : forall m c t b k, In (t, b, k) (col_idx m c) <->
  exists nd, In nd (nodes m) /\ column nd = Z.of_nat c /\ t = top nd /\ b = bottom nd /\ k = node_id nd.
Proof.
  intros m c t b k. unfold col_idx. rewrite in_map_iff. split.
  - intros (nd & E & H). apply filter_In in H. destruct H as [H1 H2]. apply Z.eqb_eq in H2. unfold tri in E.
    exists nd. injection E as E1 E2 E3. auto.
  - intros (nd & H1 & H2 & -> & -> & ->). exists nd. split; [reflexivity |]. apply filter_In. split; [exact H1 | apply Z.eqb_eq; exact H2].
Qed.
Lemma ones_bot : forall m c t b k, In (t, b, k) (col_idx m c) -> ones m c b = C1.
Proof.
  intros m c t b k H. apply in_col_idx in H. destruct H as (nd & H1 & H2 & -> & -> & ->). unfold ones.
  replace (existsb _ _) with true; [reflexivity |]. symmetry. apply existsb_exists. exists (bottom nd). split; [| apply Nat.eqb_refl].
  apply in_map. apply filter_In. split; [exact H1 | apply Z.eqb_eq; exact H2].
Qed.
Lemma ones_top : forall m c t b k, rails_disjoint (nodes m) -> In (t, b, k) (col_idx m c) -> ones m c t = C0.
Proof.
  intros m c t b k Hd H. apply in_col_idx in H. destruct H as (nd & H1 & H2 & -> & -> & ->). unfold ones.
  destruct (existsb _ _) eqn:E; [| reflexivity]. exfalso. apply existsb_exists in E. destruct E as (x & Hx & Ex). apply Nat.eqb_eq in Ex. subst x.
  specialize (Hd (Z.of_nat c)). cbv zeta in Hd.
  assert (Ht : In (top nd) (map top (filter (fun n => Z.eqb (column n) (Z.of_nat c)) (nodes m)))).
  { apply in_map. apply filter_In. split; [exact H1 | apply Z.eqb_eq; exact H2]. }
  revert Hd Ht Hx. unfold nodes_in_column. generalize (map top (filter (fun n => Z.eqb (column n) (Z.of_nat c)) (nodes m))).
  generalize (map bottom (filter (fun n => Z.eqb (column n) (Z.of_nat c)) (nodes m))). intros l2 l1 Hd Ht Hx.
  induction l1 as [| a l1 IH]; [destruct Ht |]. cbn in Hd. apply NoDup_cons_iff in Hd. destruct Hd as [Hd1 Hd2]. destruct Ht as [-> | Ht].
  - apply Hd1. apply in_or_app. right. exact Hx.
  - auto.
Qed.

(** Node numbers are not shared by two columns. *)
Lemma id_column : forall m c c' t b t' b' k, NoDup (map node_id (nodes m)) -> In (t, b, k) (col_idx m c) -> In (t', b', k) (col_idx m c') ->
  c = c' /\ t = t' /\ b = b'.
Proof.
  intros m c c' t b t' b' k Hnd H H'. apply in_col_idx in H. apply in_col_idx in H'.
  destruct H as (n1 & H1 & H2 & -> & -> & Ek). destruct H' as (n2 & H1' & H2' & -> & -> & Ek').
  assert (n1 = n2).
  { rewrite Ek in Ek'. clear H2 H2' Ek. revert Hnd H1 H1' Ek'. generalize (nodes m). induction l as [| a l IH]; intros Hnd H1 H1' E; [destruct H1 |].
    cbn in Hnd. apply NoDup_cons_iff in Hnd. destruct Hnd as [Ha Hnd]. destruct H1 as [-> | H1]; destruct H1' as [-> | H1']; auto.
    - exfalso. apply Ha. rewrite E. apply in_map. exact H1'.
    - exfalso. apply Ha. rewrite <- E. apply in_map. exact H1. }
  subst n2. repeat split. rewrite H2 in H2'. lia.
Qed.
Lemma in_firstn_idx : forall m c i, In i (firstn c (all_idx m)) -> exists c', (c' < c)%nat /\ i = col_idx m c'.
Proof.
  intros m c i H. unfold all_idx in H. rewrite firstn_map in H. apply in_map_iff in H. destruct H as (c' & E & H).
  exists c'. split; [| auto]. assert (G : forall n a s x, In x (firstn a (seq s n)) -> (x < s + a)%nat).
  { induction n as [| n IH]; intros [| a] s x Hx; cbn in Hx; try contradiction. destruct Hx as [-> | Hx]; [lia |]. apply IH in Hx. lia. }
  apply G in H. lia.
Qed.

(** ** One programming step *)
Lemma null_step_run : forall eps m p c nc w, wf_mesh m -> style m <> SYMMETRIC -> (c < Z.to_nat (num_columns m))%nat ->
  (exists cols, columns m = Some cols /\ nth_error cols c = Some nc) ->
  let v := cols_run (mzis m false p) (firstn c (all_idx m)) w in
  exists p', null_step eps m p nc w = Some p' /\ gammas p' = gammas p /\
    (forall k, (forall t b, ~ In (t, b, k) (col_idx m c)) -> thetas p' k = thetas p k /\ phis p' k = phis p k) /\
    (forall t b k, In (t, b, k) (col_idx m c) -> exists phi,
       let theta := nullify_theta eps (mzi_terms (err_at m k)) (v t) (v b) in
       nullify_phi (style m) (mzi_terms (err_at m k)) theta (v t) (v b) = Some phi /\ thetas p' k = theta /\ phis p' k = mod2pi phi).
Proof.
  intros eps m p c nc w Hw Hs Hc (cols0 & Hcols & Hn) v.
  destruct (wf_all m Hw) as (cols & E1 & E2 & E3 & E4 & E5 & E6 & E7).
  assert (cols0 = cols) by congruence. subst cols0.
  destruct (E4 c nc Hn) as (L1 & L2 & L3 & L4).
  unfold null_step. rewrite L1. destruct (cut_fwd_run m p c w Hw Hc) as (sl & S1 & S2). rewrite S1. cbn [obind]. cbv zeta.
  rewrite S2. fold v. rewrite L4, L2.
  assert (Hok : idx_ok (n_rails m) (length (bs_errors m)) (col_idx m c) = true).
  { rewrite forallb_forall in E5. apply E5. unfold all_idx. apply in_map. apply in_seq. lia. }
  rewrite Hok.
  assert (Hphi : forall k theta t b, exists phi, nullify_phi (style m) (mzi_terms (err_at m k)) theta t b = Some phi).
  { intros. unfold nullify_phi. destruct (mzi_terms (err_at m k)) as [[[cc cs] sc] ss]. destruct (style m); try congruence; eauto. }
  set (th := fun x : nat * nat * nat => let '(t, b, k) := x in nullify_theta eps (mzi_terms (err_at m k)) (v t) (v b)).
  set (ph := fun x : nat * nat * nat => let '(t, b, k) := x in
     match nullify_phi (style m) (mzi_terms (err_at m k)) (th x) (v t) (v b) with Some f => f | None => 0 end).
  set (f := fun x : nat * nat * nat => let '(t, b, k) := x in _).
  rewrite (all_some_Some _ _ f (fun x => (snd x, th x, ph x))).
  2:{ intros [[t b] k] _. unfold f. cbv beta iota zeta. fold (th (t, b, k)).
      destruct (Hphi k (th (t, b, k)) (v t) (v b)) as (phi & Ep). cbn [snd]. unfold ph.
      change (nullify_theta eps (mzi_terms (err_at m k)) (v t) (v b)) with (th (t, b, k)). rewrite Ep. reflexivity. }
  cbn [obind]. eexists. split; [reflexivity |]. cbn [gammas thetas phis]. split; [reflexivity |].
  rewrite !map_map. cbv beta iota.
  assert (Hnd : forall (A : Type) (g : nat * nat * nat -> A), NoDup (map fst (map (fun x => (snd x, g x)) (col_idx m c)))).
  { intros A g. rewrite map_map. cbn [fst]. unfold col_idx. rewrite map_map. cbn [snd tri].
    apply filter_nodup_id. exact E7. }
  split.
  - intros k Hk. split; apply assign_notin; rewrite map_map; cbn [fst]; intro K; apply in_map_iff in K; destruct K as ([[t b] k'] & Ek & K);
      cbn in Ek; subst k'; apply (Hk t b K).
  - intros t b k Hin. destruct (Hphi k (th (t, b, k)) (v t) (v b)) as (phi & Ep). exists phi.
    split; [exact Ep |]. split.
    + apply assign_in; [apply (Hnd _ th) | apply in_map_iff; exists (t, b, k); split; [reflexivity | exact Hin]].
    + assert (Eph : ph (t, b, k) = phi) by (unfold ph; rewrite Ep; reflexivity).
      apply assign_in; [apply (Hnd _ (fun x => mod2pi (ph x))) | apply in_map_iff; exists (t, b, k); split; [rewrite Eph; reflexivity | exact Hin]].
Qed.
