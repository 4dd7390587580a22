(** In-situ backpropagation (C25), assembly. *)
From Coq Require Import Reals Lra Lia List ZArith Permutation Bool FunctionalExtensionality.
From Verif Require Import Cx Arr Spec_circuit Model_coupling Model_forward Model_insitu Spec_mesh Spec_insitu
  Proof_node Proof_mesh Proof_forward Proof_forward2 Proof_forward3 Proof_forward4 Proof_tree Proof_vector Proof_order Proof_insitu.
Import ListNotations.
Local Open Scope R_scope.

Definition tri (nd : node) : nat * nat * nat := (top nd, bottom nd, node_id nd).

Lemma cols_nodes : forall m cols, NoDup (map node_id (nodes m)) -> columns m = Some cols ->
  column_order m = concat (map nodes cols) /\ Forall (fun nc => triples nc = map tri (nodes nc)) cols.
Proof.
  intros m cols Hnd Hc. pose proof (columns_Forall2 m cols Hc) as HF. unfold column_order.
  change (fun c => filter (fun nd => Z.eqb (column nd) (Z.of_nat c)) (nodes m)) with (fun c => nodes_in_column (nodes m) (Z.of_nat c)).
  remember (map (fun c => nodes_in_column (nodes m) (Z.of_nat c)) (seq 0 (Z.to_nat (num_columns m)))) as ls eqn:El.
  assert (Hls : Forall (fun l => NoDup (map node_id l)) ls).
  { subst ls. apply Forall_forall. intros l Hl. apply in_map_iff in Hl. destruct Hl as (c & <- & _). apply filter_nodup_id; auto. }
  clear El Hc. induction HF as [| l nc ls cols Hm HF IH]; [split; [reflexivity | constructor] |].
  inversion Hls; subst. destruct (IH H2) as [E1 E2].
  assert (En : nodes nc = l).
  { destruct l as [| a l]; [discriminate |]. unfold mk_mesh in Hm. apply Some_inj in Hm. rewrite <- Hm. cbn [nodes]. apply renumber_single; auto. }
  split.
  - cbn [map concat]. rewrite E1, En. reflexivity.
  - constructor; auto. rewrite (mk_mesh_triples _ _ _ Hm), En, renumber_single by auto. reflexivity.
Qed.

(** Everything C25 needs to know about one mesh. *)
Record clean (m : mesh) : Prop := {
  cl_wf : wf_mesh m; cl_style : style m = TOP;
  cl_err : forall e, In e (bs_errors m) -> e = (0, 0); cl_loss : forall l, In l (losses m) -> l = (0, 0) }.

Lemma clean_run : forall m, clean m -> exists cols, columns m = Some cols /\
  column_order m = concat (map nodes cols) /\
  Forall (fun i => NoDup (rails i)) (map triples cols) /\
  Forall (fun nc => triples nc = map tri (nodes nc)) cols /\
  (forall nc nd, In nc cols -> In nd (nodes nc) -> In nd (nodes m)) /\
  (forall p x, matrix_fn m false p x = Some (apply_gammas (gammas p) (run (allE p (map triples cols)) x))) /\
  (forall p x, exists sl, propagate m false true p x = Some (x :: sl ++ [apply_gammas (gammas p) (run (allE p (map triples cols)) x)]) /\
    length sl = (4 * length cols)%nat /\
    forall i idx d, nth_error (map triples cols) i = Some idx ->
      nth (i * 4) (x :: sl) d = run (allE p (firstn i (map triples cols))) x /\
      nth (i * 4 + 2) (x :: sl) d = run (allE p (firstn i (map triples cols)) ++ phops (phis p) idx ++ dcops false idx) x).
Proof.
  intros m [Hwf Hst Herr Hloss]. destruct (wf_total m Hwf) as (cols & Hc & Hok). specialize (Hok false).
  pose proof Hwf as (Hd & _ & Hnd & _).
  destruct (cols_nodes m cols Hnd Hc) as [E1 E2].
  pose proof (mesh_idxs_nodup m false cols Hd Hc) as HF. unfold mesh_idxs in *.
  assert (Eerr : forall k, err_at m k = (0, 0)).
  { intro k. unfold err_at. destruct (nth_in_or_default k (bs_errors m) (0,0)); auto. }
  assert (Eloss : forall k, loss_at m k = (0, 0)).
  { intro k. unfold loss_at. destruct (nth_in_or_default k (losses m) (0,0)); auto. }
  assert (Hprop : forall p x, exists sl, propagate m false true p x = Some (x :: sl ++ [apply_gammas (gammas p) (run (allE p (map triples cols)) x)]) /\
    length sl = (4 * length cols)%nat /\
    forall i idx d, nth_error (map triples cols) i = Some idx ->
      nth (i * 4) (x :: sl) d = run (allE p (firstn i (map triples cols))) x /\
      nth (i * 4 + 2) (x :: sl) d = run (allE p (firstn i (map triples cols)) ++ phops (phis p) idx ++ dcops false idx) x).
  { intros p x. destruct (explicit_slices p (map triples cols) x HF) as (sl & F1 & F2 & F3 & F4). exists sl.
    rewrite map_length in F2. split; [| split; auto].
    unfold propagate. rewrite Hc. cbn [obind]. rewrite Hok. cbn [last]. rewrite Hst.
    assert (Q1 : (fun k : nat => parallel_dc false (err_at m k) (loss_at m k)) = (fun _ => dcq false))
      by (apply functional_extensionality; intro k; rewrite Eerr, Eloss; reflexivity).
    assert (Q2 : (fun k : nat => parallel_dc true (err_at m k) (loss_at m k)) = (fun _ => dcq true))
      by (apply functional_extensionality; intro k; rewrite Eerr, Eloss; reflexivity).
    rewrite Q1, Q2, F1. cbn [obind]. rewrite F3. reflexivity. }
  exists cols. split; [auto |]. split; [auto |]. split; [auto |]. split; [auto |]. split.
  { intros nc nd H1 H2. apply in_order_In. change (In nd (column_order m)). rewrite E1. apply in_concat. exists (nodes nc). split; auto. apply in_map; auto. }
  split; [| exact Hprop].
  intros p x. pose proof (propagate_explicit_last m false p x Hd (or_introl Hst) Herr Hloss) as H.
  destruct (Hprop p x) as (sl & F1 & _ & _). rewrite F1 in H.
  destruct (matrix_fn m false p x) as [y |]; [| destruct H]. f_equal. rewrite <- H.
  change (x :: sl ++ [apply_gammas (gammas p) (run (allE p (map triples cols)) x)]) with ((x :: sl) ++ [apply_gammas (gammas p) (run (allE p (map triples cols)) x)]).
  rewrite last_app_single. reflexivity.
Qed.

(** The backward pass is the transpose (as a bilinear identity). *)
Lemma back_adjoint : forall m p g, clean m -> exists a, matrix_fn m true p g = Some a /\
  forall v y, matrix_fn m false p v = Some y ->
    Csum (n_rails m) (fun i => a i * v i)%C = Csum (n_rails m) (fun i => g i * y i)%C.
Proof.
  intros m p g [Hwf Hst Herr Hloss].
  destruct (wf_matrix_total m true p g Hwf) as (a & Ea). exists a. split; auto. intros v y Ey.
  destruct (mesh_matrix_vec m true p g a (proj1 Hwf) Ea) as (U & HU & Hav).
  destruct (mesh_matrix_vec m false p v y (proj1 Hwf) Ey) as (V & HV & Hyv).
  assert (HUV : forall i j, (i < n_rails m)%nat -> (j < n_rails m)%nat -> U i j = V j i).
  { intros i j Hi Hj. pose proof (mesh_reciprocal m p Hwf) as H. rewrite Hst in H. specialize (H ltac:(discriminate)).
    assert (He : equal_errors m). { unfold equal_errors. apply Forall_forall. intros e He. rewrite (Herr e He). reflexivity. }
    specialize (H He i j Hi Hj). rewrite HU, HV in H. apply Some_inj in H. auto. }
  set (n := n_rails m) in *.
  transitivity (Csum n (fun i => Csum n (fun j => U i j * g j * v i)%C)).
  - apply Csum_ext. intros i Hi. rewrite (Hav i Hi). unfold app. rewrite <- Csum_scal_r. apply Csum_ext. intros; ring.
  - rewrite Csum_swap. apply Csum_ext. intros j Hj. rewrite (Hyv j Hj). unfold app. rewrite <- Csum_scal. apply Csum_ext.
    intros i Hi. rewrite HUV by auto. ring.
Qed.

(** Operations of one phase shifter inside the whole list. *)
Lemma phops_other : forall ph k t idx, ~ In k (map snd idx) -> phops (upd ph k t) idx = phops ph idx.
Proof.
  intros ph k t idx H. unfold phops, ops_of. apply map_ext_in. intros [[a b] j] Hin. rewrite upd_neq; auto.
  intro E. apply H. subst j. change k with (snd (a, b, k)). apply in_map; auto.
Qed.
Lemma allE_theta_other : forall p k t idxs, ~ In k (map snd (concat idxs)) -> allE (with_theta p k t) idxs = allE p idxs.
Proof.
  intros p k t idxs. induction idxs as [| i idxs IH]; intros H; auto. unfold allE in *. cbn [map concat].
  cbn [concat] in H. rewrite map_app, in_app_iff in H. rewrite IH by tauto. f_equal. unfold colE. cbn [with_theta phis thetas].
  rewrite phops_other by tauto. reflexivity.
Qed.
Lemma allE_phi_other : forall p k t idxs, ~ In k (map snd (concat idxs)) -> allE (with_phi p k t) idxs = allE p idxs.
Proof.
  intros p k t idxs. induction idxs as [| i idxs IH]; intros H; auto. unfold allE in *. cbn [map concat].
  cbn [concat] in H. rewrite map_app, in_app_iff in H. rewrite IH by tauto. f_equal. unfold colE. cbn [with_phi phis thetas].
  rewrite phops_other by tauto. reflexivity.
Qed.
Lemma allE_app : forall p a b, allE p (a ++ b) = allE p a ++ allE p b.
Proof. intros. unfold allE. rewrite map_app, concat_app. reflexivity. Qed.

Lemma allE_unit : forall p idxs, Forall (fun o => quad_unit (quad_of o)) (allE p idxs).
Proof.
  assert (Hd : forall t, quad_unit (qdiag TOP t)).
  { intros t [x1 x2] [y1 y2] [z1 z2] [w1 w2]. unfold qtop, qbot, qdiag; cbn [t11 t12 t21 t22].
    assert (Hc : cos t * cos t = 1 - sin t * sin t) by (pose proof (sin2_cos2 t) as H; unfold Rsqr in H; lra).
    apply C_eq; cbn; ring [Hc]. }
  intros p idxs. unfold allE. apply Forall_forall. intros o Ho. apply in_concat in Ho. destruct Ho as (l & Hl & Ho).
  apply in_map_iff in Hl. destruct Hl as (idx & <- & _). unfold colE in Ho.
  repeat (apply in_app_or in Ho; destruct Ho as [Ho | Ho]); unfold phops, dcops, ops_of in Ho; apply in_map_iff in Ho;
   destruct Ho as ([[a b] k] & <- & _); cbn [quad_of]; auto using dcq_unit.
Qed.
Lemma allE_ok : forall n nn p idxs, forallb (idx_ok n nn) idxs = true -> Forall (fun i => NoDup (rails i)) idxs -> Forall (ok n) (allE p idxs).
Proof.
  intros n nn p idxs H HF. unfold allE. apply Forall_forall. intros o Ho. apply in_concat in Ho. destruct Ho as (l & Hl & Ho).
  apply in_map_iff in Hl. destruct Hl as (idx & <- & Hin).
  assert (Hall : forall el, Forall (ok n) (ops_of el idx)).
  { intro el. pose proof (ops_ok n nn el [idx]) as Hx. cbn [map concat forallb] in Hx. rewrite app_nil_r in Hx. apply Hx.
    - rewrite forallb_forall in H. rewrite (H idx Hin). reflexivity.
    - rewrite Forall_forall in HF. constructor; auto. }
  unfold colE in Ho. repeat (apply in_app_or in Ho; destruct Ho as [Ho | Ho]);
   (eapply Forall_forall; [| exact Ho]); apply Hall.
Qed.

Lemma column_order_ids : forall m, NoDup (map node_id (nodes m)) -> NoDup (map node_id (column_order m)).
Proof.
  intros m Hnd. set (N := Z.to_nat (num_columns m)).
  set (inr := fun nd : node => (Z.leb 0 (column nd) && Z.ltb (column nd) (Z.of_nat N))%bool).
  assert (E : column_order m = concat (map (fun c => nodes_in_column (filter inr (nodes m)) (Z.of_nat c)) (seq 0 N))).
  { unfold column_order. fold N. f_equal. apply map_ext_in. intros c Hc. apply in_seq in Hc. unfold nodes_in_column.
    clear Hnd. induction (nodes m) as [| a l IH]; auto. cbn [filter]. rewrite IH.
    destruct (inr a) eqn:Ei; cbn [filter]; destruct (Z.eqb_spec (column a) (Z.of_nat c)) as [Ec | Ec]; auto.
    exfalso. unfold inr in Ei. rewrite Ec in Ei. apply andb_false_iff in Ei. rewrite Z.leb_nle, Z.ltb_nlt in Ei. lia. }
  rewrite E. eapply Permutation_NoDup.
  - apply Permutation_map, Permutation_sym, in_order_perm. intros nd H. apply filter_In in H. destruct H as [_ H].
    unfold inr in H. apply andb_true_iff in H. rewrite Z.leb_le, Z.ltb_lt in H. lia.
  - clear E. induction (nodes m) as [| a l IH]; [constructor |]. cbn [map] in Hnd. apply NoDup_cons_iff in Hnd. destruct Hnd as [H1 H2].
    cbn [filter]. destruct (inr a); auto. cbn [map]. constructor; auto. intro Hx. apply H1.
    apply in_map_iff in Hx. destruct Hx as (b & Eb & Hb). apply filter_In in Hb. rewrite <- Eb. apply in_map; tauto.
Qed.

Lemma tri_ids : forall cols, Forall (fun nc => triples nc = map tri (nodes nc)) cols ->
  map snd (concat (map triples cols)) = map node_id (concat (map nodes cols)).
Proof.
  intros cols H. induction H as [| nc cols Hn H IH]; auto. cbn [map concat]. rewrite !map_app, IH, Hn, map_map. reflexivity.
Qed.

Lemma run_phops_out : forall ph idx v r, ~ In r (rails idx) -> run (phops ph idx) v r = v r.
Proof.
  intros ph idx v r H. apply run_out. intros o Ho. unfold phops, ops_of in Ho. apply in_map_iff in Ho.
  destruct Ho as ([[a b] k] & <- & Hin). split; intros ->; apply H; [eapply rails_in_top | eapply rails_in_bot]; eauto.
Qed.
Lemma Forall_app_l : forall (A : Type) (P : A -> Prop) l r, Forall P (l ++ r) -> Forall P l.
Proof. intros A P l r H. apply Forall_app in H. tauto. Qed.
Lemma Forall_app_r : forall (A : Type) (P : A -> Prop) l r, Forall P (l ++ r) -> Forall P r.
Proof. intros A P l r H. apply Forall_app in H. tauto. Qed.

Lemma run_scal : forall ops c v, run ops (fun i => c * v i)%C = (fun i => c * run ops v i)%C.
Proof.
  intros ops c v. transitivity (run ops (lin c v C0 v)).
  - f_equal. apply functional_extensionality. intro i. unfold lin. ring.
  - rewrite run_lin. apply functional_extensionality. intro i. unfold lin. ring.
Qed.

Section Node.
Variables (m : mesh) (p : params) (x g a : vec) (cols : list mesh).
Hypothesis Hm : clean m.
Let n := n_rails m.
Let idxs := map triples cols.
Hypothesis Hc : columns m = Some cols.
Hypothesis Hord : column_order m = concat (map nodes cols).
Hypothesis Hrail : Forall (fun i => NoDup (rails i)) idxs.
Hypothesis Htri : Forall (fun nc => triples nc = map tri (nodes nc)) cols.
Hypothesis Hmat : forall p x, matrix_fn m false p x = Some (apply_gammas (gammas p) (run (allE p idxs) x)).
Hypothesis Ha : forall v y, matrix_fn m false p v = Some y -> Csum n (fun i => a i * v i)%C = Csum n (fun i => g i * y i)%C.

Lemma idxs_ok : forall q, Forall (ok n) (allE q idxs).
Proof.
  intro q. destruct (wf_total m (cl_wf m Hm)) as (cols' & Hc' & Hok). rewrite Hc in Hc'. apply Some_inj in Hc'. subst cols'.
  specialize (Hok false). unfold mesh_idxs in Hok. eapply allE_ok; eauto.
Qed.

(** [op_at q] : the whole list of operations, split at the shifter of node (t, b, k) *)
Lemma split_grad : forall (upp : R -> params) (t0 : R) pre post t b,
  (forall s, gammas (upp s) = gammas p) -> upp t0 = p ->
  (forall s, allE (upp s) idxs = pre ++ (qdiag TOP s, t, b) :: post) ->
  derivable_pt_lim (fun s => cost m g x (upp s)) t0 (- im (run pre x t * Cconj (run pre (vconj a) t))%C).
Proof.
  intros upp t0 pre post t b Hg H0 HE.
  pose proof (idxs_ok p) as Hok. rewrite <- H0, HE in Hok.
  pose proof (allE_unit p idxs) as Hun. rewrite <- H0, HE in Hun.
  assert (Htb : (t < n)%nat /\ t <> b).
  { apply Forall_app_r in Hok. apply Forall_inv in Hok. unfold ok in Hok. cbn in Hok. tauto. }
  replace (fun s => cost m g x (upp s)) with (fun s => re (Csum n (fun i => g i * yout pre post t b (gammas p) s x i)%C)).
  2: { apply functional_extensionality; intro s. unfold cost. rewrite Hmat, HE, Hg. unfold yout. rewrite run_app, run_cons. reflexivity. }
  apply phase_grad with (post := post) (b := b) (gm := gammas p).
  - eapply Forall_app_l; eauto.
  - apply Forall_app_r in Hok. inversion Hok; auto.
  - eapply Forall_app_l; eauto.
  - tauto.
  - tauto.
  - intro v. apply Ha. rewrite Hmat. f_equal. unfold yout. rewrite <- H0 at 2. rewrite HE, run_app, run_cons. reflexivity.
Qed.

Lemma node_grads : forall c1 nc c2 nd, cols = c1 ++ nc :: c2 -> In nd (nodes nc) ->
  let f v := run (allE p (map triples c1)) v in
  let h v := run (allE p (map triples c1) ++ phops (phis p) (triples nc) ++ dcops false (triples nc)) v in
  derivable_pt_lim (fun s => cost m g x (with_theta p (node_id nd) s)) (thetas p (node_id nd))
    (- im (h x (top nd) * Cconj (h (vconj a) (top nd)))%C) /\
  derivable_pt_lim (fun s => cost m g x (with_phi p (node_id nd) s)) (phis p (node_id nd))
    (- im (f x (top nd) * Cconj (f (vconj a) (top nd)))%C).
Proof.
  intros c1 nc c2 nd Ec Hin f h.
  assert (Hids : NoDup (map snd (concat idxs))).
  { unfold idxs. rewrite tri_ids by auto. rewrite <- Hord. apply column_order_ids. apply (cl_wf m Hm). }
  assert (Ht : triples nc = map tri (nodes nc)).
  { rewrite Forall_forall in Htri. apply Htri. rewrite Ec. apply in_or_app. right. left. auto. }
  destruct (in_split _ _ Hin) as (n1 & n2 & En).
  set (T1 := map tri n1). set (T2 := map tri n2).
  assert (ET : triples nc = T1 ++ tri nd :: T2) by (rewrite Ht, En, map_app; reflexivity).
  set (I1 := map triples c1) in *. set (I2 := map triples c2).
  assert (EI : idxs = I1 ++ (T1 ++ tri nd :: T2) :: I2) by (unfold idxs; rewrite Ec, map_app; cbn [map]; rewrite ET; reflexivity).
  rewrite EI in Hids. rewrite concat_app in Hids. cbn [concat] in Hids. rewrite !map_app in Hids. cbn [map] in Hids.
  rewrite <- app_assoc in Hids. cbn [List.app] in Hids. rewrite app_assoc in Hids.
  assert (Hno : ~ In (node_id nd) (map snd (concat I1)) /\ ~ In (node_id nd) (map snd T1) /\ ~ In (node_id nd) (map snd T2) /\ ~ In (node_id nd) (map snd (concat I2))).
  { apply NoDup_remove_2 in Hids. change (snd (tri nd)) with (node_id nd) in Hids. rewrite !in_app_iff in Hids. tauto. }
  destruct Hno as (N1 & N2 & N3 & N4).
  assert (HR : NoDup (rails (T1 ++ tri nd :: T2))).
  { rewrite Forall_forall in Hrail. apply Hrail. rewrite EI. apply in_or_app; right; left; auto. }
  assert (HR1 : ~ In (top nd) (rails T1)).
  { unfold rails in *. rewrite !map_app in HR. cbn [map] in HR. change (fst (fst (tri nd))) with (top nd) in HR. rewrite in_app_iff.
    rewrite <- app_assoc in HR. cbn [List.app] in HR. apply NoDup_remove_2 in HR. rewrite !in_app_iff in HR. tauto. }
  split.
  - set (pre := allE p I1 ++ phops (phis p) (T1 ++ tri nd :: T2) ++ dcops false (T1 ++ tri nd :: T2) ++ phops (thetas p) T1).
    set (post := phops (thetas p) T2 ++ dcops true (T1 ++ tri nd :: T2) ++ allE p I2).
    assert (Hh : forall v, h v (top nd) = run pre v (top nd)).
    { intro v. unfold h, pre. rewrite ET. rewrite !(run_app (allE p I1)), !(run_app (phops (phis p) (T1 ++ tri nd :: T2))), (run_app (dcops _ _)).
      rewrite run_phops_out by auto. reflexivity. }
    rewrite !Hh. apply split_grad with (post := post) (b := bottom nd) (t0 := thetas p (node_id nd)) (upp := fun s => with_theta p (node_id nd) s).
    + reflexivity.
    + unfold with_theta. rewrite upd_same. destruct p; reflexivity.
    + intro s. rewrite EI, allE_app, allE_theta_other by auto. unfold allE at 2. cbn [map concat]. fold (allE (with_theta p (node_id nd) s) I2).
      rewrite allE_theta_other by auto. unfold colE. cbn [with_theta phis thetas].
      unfold pre, post. rewrite <- !app_assoc. f_equal. f_equal. f_equal.
      unfold phops at 1, ops_of. rewrite map_app. cbn [map]. fold (ops_of (fun k => qdiag TOP (upd (thetas p) (node_id nd) s k)) T1).
      fold (ops_of (fun k => qdiag TOP (upd (thetas p) (node_id nd) s k)) T2).
      change (ops_of (fun k => qdiag TOP (upd (thetas p) (node_id nd) s k)) T1) with (phops (upd (thetas p) (node_id nd) s) T1).
      change (ops_of (fun k => qdiag TOP (upd (thetas p) (node_id nd) s k)) T2) with (phops (upd (thetas p) (node_id nd) s) T2).
      rewrite !phops_other by auto. rewrite <- app_assoc. cbn [tri List.app]. rewrite upd_eq. reflexivity.
  - set (pre := allE p I1 ++ phops (phis p) T1).
    set (post := phops (phis p) T2 ++ dcops false (T1 ++ tri nd :: T2) ++ phops (thetas p) (T1 ++ tri nd :: T2) ++ dcops true (T1 ++ tri nd :: T2) ++ allE p I2).
    assert (Hh : forall v, f v (top nd) = run pre v (top nd)).
    { intro v. unfold f, pre. rewrite (run_app (allE p I1)). rewrite run_phops_out by auto. reflexivity. }
    rewrite !Hh. apply split_grad with (post := post) (b := bottom nd) (t0 := phis p (node_id nd)) (upp := fun s => with_phi p (node_id nd) s).
    + reflexivity.
    + unfold with_phi. rewrite upd_same. destruct p; reflexivity.
    + intro s. rewrite EI, allE_app, allE_phi_other by auto. unfold allE at 2. cbn [map concat]. fold (allE (with_phi p (node_id nd) s) I2).
      rewrite allE_phi_other by auto. unfold colE. cbn [with_phi phis thetas].
      unfold pre, post. rewrite <- !app_assoc. f_equal.
      unfold phops at 1, ops_of at 1. rewrite map_app. cbn [map]. fold (ops_of (fun k => qdiag TOP (upd (phis p) (node_id nd) s k)) T1).
      fold (ops_of (fun k => qdiag TOP (upd (phis p) (node_id nd) s k)) T2).
      change (ops_of (fun k => qdiag TOP (upd (phis p) (node_id nd) s k)) T1) with (phops (upd (phis p) (node_id nd) s) T1).
      change (ops_of (fun k => qdiag TOP (upd (phis p) (node_id nd) s k)) T2) with (phops (upd (phis p) (node_id nd) s) T2).
      rewrite !phops_other by auto. rewrite <- app_assoc. cbn [tri List.app]. rewrite upd_eq. reflexivity.
Qed.

(** Output phases. *)
Lemma gamma_grad : forall r, (r < n)%nat ->
  let z v := apply_gammas (gammas p) (run (allE p idxs) v) in
  derivable_pt_lim (fun s => cost m g x (with_gamma p r s)) (gammas p r) (- im (z x r * Cconj (z (vconj a) r))%C).
Proof.
  intros r Hr z.
  assert (Hzg : Cconj (z (vconj a) r) = g r).
  { (* z is unitary and sum a v = sum g (z v) *)
    set (v := fun j => Cconj (run (allE p idxs) (basis j) r * cis (gammas p r))%C).
    assert (Hv : forall i, (i < n)%nat -> z v i = delta r i).
    { intros i Hi. unfold z, apply_gammas. rewrite (run_matrix n _ _ i (idxs_ok p) Hi). unfold v.
      destruct (run_unitary n _ (idxs_ok p) (allE_unit p idxs) i r Hi Hr) as [_ H].
      transitivity (cis (gammas p i) * Cconj (cis (gammas p r)) * Csum n (fun k => run (allE p idxs) (basis k) i * Cconj (run (allE p idxs) (basis k) r)))%C.
      - replace (cis (gammas p i) * Cconj (cis (gammas p r)) * Csum n (fun k => run (allE p idxs) (basis k) i * Cconj (run (allE p idxs) (basis k) r)))%C
          with (cis (gammas p i) * (Cconj (cis (gammas p r)) * Csum n (fun k => run (allE p idxs) (basis k) i * Cconj (run (allE p idxs) (basis k) r))))%C by ring.
        f_equal. rewrite <- Csum_scal. apply Csum_ext. intros k Hk. rewrite Cconj_mul. ring.
      - rewrite H. unfold delta. rewrite (Nat.eqb_sym r i). destruct (Nat.eqb_spec i r) as [-> | E]; [rewrite cis_conj_r; ring | ring]. }
    assert (E1 : Csum n (fun i => a i * v i)%C = g r).
    { rewrite (Ha v (z v)) by (rewrite Hmat; reflexivity).
      rewrite (Csum_ext n _ (fun i => delta r i * g i)%C) by (intros i Hi; rewrite Hv by auto; ring). apply Csum_delta_l; auto. }
    rewrite <- E1.
    transitivity (Csum n (fun i => Cconj (vconj a i) * v i)%C).
    2: { apply Csum_ext. intros. unfold vconj. rewrite Cconj_conj. reflexivity. }
    rewrite <- (run_sesq n (allE p idxs)) by (apply idxs_ok || apply allE_unit).
    rewrite <- (gammas_sesq n (gammas p)). fold z. change (apply_gammas (gammas p) (run (allE p idxs) (vconj a))) with (z (vconj a)).
    change (apply_gammas (gammas p) (run (allE p idxs) v)) with (z v).
    rewrite (Csum_ext n _ (fun i => delta r i * Cconj (z (vconj a) i))%C) by (intros i Hi; rewrite Hv by auto; ring).
    symmetry. apply (Csum_delta_l n r (fun i => Cconj (z (vconj a) i))); auto. }
  rewrite Hzg.
  set (w := run (allE p idxs) x).
  assert (Ecost : (fun s => cost m g x (with_gamma p r s)) =
     (fun s => re (Csum n (fun i => g i * upd (fun i => cis (gammas p i) * w i) r (C1 * w r) i) + g r * w r * (cis s - C1))%C)).
  { apply functional_extensionality; intro s. unfold cost. rewrite Hmat.
    change (allE (with_gamma p r s) idxs) with (allE p idxs). fold w. f_equal.
    rewrite Csum_upd by auto.
    rewrite (Csum_ext (n_rails m) _ (fun i => g i * upd (fun i => cis (gammas p i) * w i) r (cis s * w r) i)%C).
    - rewrite Csum_upd by auto. fold n. ring.
    - intros i Hi. unfold apply_gammas. cbn [with_gamma gammas]. unfold upd. destruct (Nat.eqb_spec i r) as [-> | E]; reflexivity. }
  rewrite Ecost. replace (z x r * g r)%C with (g r * w r * cis (gammas p r))%C by (unfold z, apply_gammas; fold w; ring).
  apply deriv_re_cis.
Qed.
End Node.
