(** Nullification basis: programming the whole mesh (C84, C85). *)
From Coq Require Import Reals Lra Lia Psatz List ZArith Permutation Bool FunctionalExtensionality.
From Verif Require Import Cx Arr Spec_circuit Model_coupling Model_forward Model_null Spec_mesh Spec_null
  Proof_node Proof_mesh Proof_forward Proof_forward2 Proof_forward3 Proof_vector Proof_null Proof_nbasis Proof_nbasis2.
Import ListNotations.
Local Open Scope R_scope.

Lemma null_loop : forall eps m (I : nat -> params -> Prop) cols ws,
  (forall c p nc w, nth_error cols c = Some nc -> nth_error ws c = Some w -> I c p -> exists p', null_step eps m p nc w = Some p' /\ I (S c) p') ->
  length ws = length cols -> forall p0, I 0%nat p0 -> exists p, null_steps eps m p0 (combine cols ws) = Some p /\ I (length cols) p.
Proof.
  intros eps m I cols ws. revert I ws. induction cols as [| nc cols IH]; intros I ws Hstep Hl p0 H0.
  - exists p0. split; [reflexivity | exact H0].
  - destruct ws as [| w ws]; [discriminate |]. cbn in Hl.
    destruct (Hstep 0%nat p0 nc w eq_refl eq_refl H0) as (p1 & S1 & I1).
    destruct (IH (fun c => I (S c)) ws) with (p0 := p1) as (p & S2 & I2).
    + intros c p nc' w' Hc Hw Hi. exact (Hstep (S c) p nc' w' Hc Hw Hi).
    + lia.
    + exact I1.
    + exists p. cbn [combine null_steps]. rewrite S1. cbn [obind]. split; [exact S2 | exact I2].
Qed.

(** What the c-th null vector looks like entering column c of its own mesh. *)
Lemma null_vec_enter : forall m p c t b k, wf_mesh m -> lossless m -> equal_errors m -> style m <> DIFFERENTIAL ->
  (c < Z.to_nat (num_columns m))%nat -> In (t, b, k) (col_idx m c) ->
  let u := cols_run (mzis m false p) (firstn c (all_idx m)) (null_vec m p c) in
  qtop (mzis m false p k) (u t) (u b) = C0 /\ qbot (mzis m false p k) (u t) (u b) = C1.
Proof.
  intros m p c t b k Hw Hl He Hs Hc Hin u.
  pose proof (null_vec_run m p c Hw Hl He Hs) as H. rewrite firstn_S_idx, cols_run_app in H by exact Hc. fold u in H.
  cbn [cols_run fold_left] in H. 
  destruct (wf_all m Hw) as (cols & E1 & E2 & E3 & E4 & E5 & E6 & E7).
  assert (Hnd : NoDup (rails (col_idx m c))).
  { rewrite Forall_forall in E6. apply E6. unfold all_idx. apply in_map. apply in_seq. lia. }
  rewrite <- (pt_top (mzis m false p) (col_idx m c) u t b k Hnd Hin), <- (pt_bot (mzis m false p) (col_idx m c) u t b k Hnd Hin).
  change (parallel_transform (mzis m false p) (col_idx m c) u = ones m c) in H. rewrite H.
  split; [apply (ones_top m c t b k); [apply Hw | exact Hin] | apply (ones_bot m c t b k Hin)].
Qed.

Lemma wiring_idx : forall a b, same_wiring a b -> (forall c, col_idx a c = col_idx b c) /\ all_idx a = all_idx b /\ num_columns a = num_columns b.
Proof.
  intros a b (Hn & _ & Hc).
  assert (G : forall c, col_idx a c = col_idx b c).
  { intro c. unfold col_idx. revert Hn. generalize (nodes b). generalize (nodes a). induction l as [| x l IH]; intros [| y r] H; try discriminate; [reflexivity |].
    cbn [map] in H. pose proof (f_equal (@tl _) H) as Ht. cbn [tl] in Ht. pose proof (f_equal (@hd _ (wiring x)) H) as Hh. cbn [hd] in Hh.
    unfold wiring in Hh. injection Hh as H1 H2 H3 H4. cbn [nodes_in_column filter]. unfold nodes_in_column in *. cbn [filter]. rewrite H4.
    destruct (Z.eqb (column y) (Z.of_nat c)); cbn [map]; [| apply IH; exact Ht]. rewrite (IH _ Ht). f_equal. unfold tri. congruence. }
  split; [exact G |]. split; [| exact Hc]. unfold all_idx. rewrite Hc. apply map_ext. exact G.
Qed.

Lemma unit_conj12 : forall q x y, quad_unit q -> qtop q x y = C0 -> qbot q x y = C1 -> x = Cconj (t12 q) /\ y = Cconj (t22 q).
Proof.
  intros q x y Hu H1 H2. destruct (q_back q x y Hu) as [Ex Ey]. rewrite H1, H2 in Ex, Ey.
  split; [rewrite Ex; ring | rewrite Ey; ring].
Qed.
Lemma Cn2_conj' : forall z, Cn2 (Cconj z) = Cn2 z.
Proof. intro z. unfold Cn2, Cconj; cbn. ring. Qed.
Lemma Cn2_zero : forall z, Cn2 z <= 0 -> z = C0.
Proof. intros z H. apply C_eq; unfold Cn2 in H; cbn in *; nra. Qed.
Lemma unit_12 : forall q, quad_unit q -> Cn2 (t12 q) + Cn2 (t22 q) = 1.
Proof.
  intros q Hu. destruct (unit_rows q Hu) as (_ & R2 & _). apply (f_equal re) in R2. unfold Cn2. cbn in R2. lra.
Qed.

Section program.
Variables (mh mt : mesh) (pt : params).
Hypotheses (Wh : wf_mesh mh) (Wt : wf_mesh mt) (SW : same_wiring mh mt).
Hypotheses (Lh : lossless mh) (Lt : lossless mt) (Eh : equal_errors mh) (Et : equal_errors mt).
Hypothesis (Sh : style mh = TOP \/ style mh = BOTTOM).
Hypothesis (St : style mt <> DIFFERENTIAL).
Hypothesis Small : Forall (fun e => - (PI/4) < fst e < PI/4) (bs_errors mh).
Let elt := mzis mt false pt.
Hypothesis Reach : forall nd, In nd (nodes mt) ->
  crossing mt pt (node_id nd) <= (2 * (cos (PI/4 + fst (err_at mh (node_id nd))) * sin (PI/4 + fst (err_at mh (node_id nd))))) ^ 2.

Lemma small_at : forall k, - (PI/4) < fst (err_at mh k) < PI/4.
Proof.
  intro k. unfold err_at. destruct (nth_in_or_default k (bs_errors mh) (0, 0)) as [Hin | E].
  - rewrite Forall_forall in Small. apply Small. exact Hin.
  - rewrite E. cbn [fst]. pose proof PI_RGT_0. lra.
Qed.
Lemma err_pair : forall k, err_at mh k = (fst (err_at mh k), fst (err_at mh k)).
Proof. intro k. rewrite (err_at_equal mh Eh k) at 2. apply surjective_pairing. Qed.

Definition inv84 (p0 : params) (c : nat) (p : params) : Prop := gammas p = gammas p0 /\
  exists D : vec, (forall i, Cn2 (D i) = 1) /\
    forall v i, cols_run (mzis mh false p) (firstn c (all_idx mh)) v i = (D i * cols_run elt (firstn c (all_idx mh)) v i)%C.

Lemma step84 : forall p0 cols c p nc, columns mh = Some cols -> nth_error cols c = Some nc -> inv84 p0 c p ->
  exists p', null_step 0 mh p nc (null_vec mt pt c) = Some p' /\ inv84 p0 (S c) p'.
Proof.
  intros p0 cols c p nc Hcols Hn (Ig & D & HD & ID).
  destruct (wf_all mh Wh) as (cols0 & E1 & E2 & E3 & E4 & E5 & E6 & E7).
  assert (cols0 = cols) by congruence. subst cols0.
  destruct (wiring_idx mh mt SW) as (W1 & W2 & W3).
  assert (Hc : (c < Z.to_nat (num_columns mh))%nat) by (rewrite <- E2; apply nth_error_Some; congruence).
  assert (Hct : (c < Z.to_nat (num_columns mt))%nat) by (rewrite <- W3; exact Hc).
  assert (Hnd : NoDup (rails (col_idx mh c))).
  { rewrite Forall_forall in E6. apply E6. unfold all_idx. apply in_map. apply in_seq. lia. }
  destruct (null_step_run 0 mh p c nc (null_vec mt pt c) Wh) as (p' & S1 & S2 & S3 & S4).
  { destruct Sh as [-> | ->]; discriminate. }
  { exact Hc. }
  { exists cols. split; [exact Hcols | exact Hn]. }
  exists p'. split; [exact S1 |]. split; [rewrite S2; exact Ig |].
  set (u := cols_run elt (firstn c (all_idx mh)) (null_vec mt pt c)).
  assert (Ev : forall i, cols_run (mzis mh false p) (firstn c (all_idx mh)) (null_vec mt pt c) i = (D i * u i)%C) by (intro i; apply ID).
  assert (Hu : forall t b k, In (t, b, k) (col_idx mh c) -> qtop (elt k) (u t) (u b) = C0 /\ qbot (elt k) (u t) (u b) = C1).
  { intros t b k Hin. rewrite W1 in Hin. unfold u. rewrite W2. apply (null_vec_enter mt pt c t b k Wt Lt Et St Hct Hin). }
  assert (Old : forall v, cols_run (mzis mh false p') (firstn c (all_idx mh)) v = cols_run (mzis mh false p) (firstn c (all_idx mh)) v).
  { apply cols_el_ext; [apply Forall_firstn'; exact E6 |]. intros i t b k Hi Hin. apply in_firstn_idx in Hi. destruct Hi as (c' & Hc' & ->).
    unfold mzis. destruct (S3 k) as [-> ->]; [| reflexivity]. intros t' b' K.
    destruct (id_column mh c c' t' b' t b k E7 K Hin) as (Ec & _). lia. }
  destruct (column_step (col_idx mh c) elt (mzis mh false p') D u Hnd) as (D' & HD' & ED').
  { intro k. apply mzis_unit. exact Lt. }
  { intro k. apply mzis_unit. exact Lh. }
  { exact HD. }
  { intros t b k Hin. destruct (Hu t b k Hin) as [U1 U2]. split; [exact U1 | split; [exact U2 |]].
    destruct (S4 t b k Hin) as (phi & P1 & P2 & P3). rewrite !Ev in P1, P2.
    set (e := fst (err_at mh k)) in *. rewrite err_pair in P1, P2. fold e in P1, P2.
    assert (Es : direct_transmissivity_eps 0 (D t * u t)%C (D b * u b)%C = crossing mt pt k).
    { unfold direct_transmissivity_eps. rewrite !Cn2_mul, !HD, !Rmult_1_l, Rplus_0_r.
      destruct (unit_conj12 (elt k) (u t) (u b)) as [X1 X2]; [apply mzis_unit; exact Lt | exact U1 | exact U2 |].
      rewrite X1, X2, !Cn2_conj', unit_12 by (apply mzis_unit; exact Lt). unfold crossing. fold elt. field. }
    assert (Hr : direct_transmissivity_eps 0 (D t * u t)%C (D b * u b)%C <= (2 * (cos (PI/4 + e) * sin (PI/4 + e))) ^ 2).
    { rewrite Es. rewrite W1 in Hin. apply in_col_idx in Hin. destruct Hin as (nd & N1 & N2 & _ & _ & N3). subst k. apply Reach. exact N1. }
    apply Cn2_zero. unfold mzis. rewrite P2, P3, (loss_at_zero mh Lh), err_pair. fold e.
    pose proof (small_at k) as He. fold e in He.
    destruct Sh as [Es' | Es']; rewrite Es' in P1 |- *.
    - apply (null_top 0 e _ _ (Rle_refl 0) He Hr phi P1).
    - apply (null_bottom 0 e _ _ (Rle_refl 0) He Hr phi P1). }
  exists D'. split; [exact HD' |]. intros v i. rewrite firstn_S_idx, !cols_run_app by exact Hc. rewrite Old.
  cbn [cols_run fold_left]. change (parallel_transform (mzis mh false p') (col_idx mh c) (cols_run (mzis mh false p) (firstn c (all_idx mh)) v) i =
    (D' i * parallel_transform elt (col_idx mh c) (cols_run elt (firstn c (all_idx mh)) v) i)%C).
  rewrite <- ED'. f_equal. apply functional_extensionality. intro j. apply ID.
Qed.

Lemma program84 : forall p0, exists ws p, nullification_basis mt pt = Some ws /\ program_by_null_basis 0 mh p0 ws = Some p /\
  inv84 p0 (Z.to_nat (num_columns mh)) p.
Proof.
  intro p0. destruct (wf_all mh Wh) as (cols & E1 & E2 & E3 & E4 & E5 & E6 & E7).
  destruct (wiring_idx mh mt SW) as (W1 & W2 & W3).
  exists (map (null_vec mt pt) (seq 0 (Z.to_nat (num_columns mt)))).
  unfold program_by_null_basis. rewrite E1. cbn [obind].
  destruct (null_loop 0 mh (inv84 p0) cols (map (null_vec mt pt) (seq 0 (Z.to_nat (num_columns mt))))) with (p0 := p0) as (p & P1 & P2).
  - intros c p nc w Hn Hw Hi.
    assert (w = null_vec mt pt c).
    { assert (Hlt : (c < length cols)%nat) by (apply nth_error_Some; congruence).
      pose proof (nth_error_nth _ _ (null_vec mt pt 0) Hw) as K. rewrite map_nth, seq_nth in K by lia. symmetry. exact K. }
    subst w. exact (step84 p0 cols c p nc E1 Hn Hi).
  - rewrite map_length, seq_length. lia.
  - split; [reflexivity |]. exists (fun _ => C1). split; [intro; unfold Cn2; cbn; ring |]. intros v i. cbn [firstn cols_run fold_left]. ring.
  - exists p. split; [apply basis_is; exact Wt |]. split; [exact P1 |]. rewrite <- E2. exact P2.
Qed.
End program.
