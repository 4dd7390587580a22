(** Nullification basis: two-mode algebra and column structure (C83 - C85). *)
From Coq Require Import Reals Lra Lia Psatz List ZArith Permutation Bool FunctionalExtensionality.
From Verif Require Import Cx Arr Spec_circuit Model_coupling Model_forward Model_null Spec_mesh Spec_null
  Proof_node Proof_mesh Proof_forward Proof_forward2 Proof_forward3 Proof_vector Proof_null.
Import ListNotations.
Local Open Scope R_scope.

(** ** 2 x 2 *)
Lemma unit_cols : forall q, quad_unit q ->
  (Cconj (t11 q) * t11 q + Cconj (t12 q) * t12 q)%C = C1 /\
  (Cconj (t21 q) * t21 q + Cconj (t22 q) * t22 q)%C = C1 /\
  (Cconj (t11 q) * t21 q + Cconj (t12 q) * t22 q)%C = C0 /\
  (Cconj (t21 q) * t11 q + Cconj (t22 q) * t12 q)%C = C0.
Proof.
  intros q H. unfold quad_unit, qtop, qbot in H.
  repeat split.
  - specialize (H C1 C0 C1 C0). rewrite !Cconj_add, !Cconj_mul, Cconj_C0, Cconj_C1 in H.
    transitivity ((Cconj (t11 q) * C1 + Cconj (t21 q) * C0) * (t11 q * C1 + t21 q * C0) +
      (Cconj (t12 q) * C1 + Cconj (t22 q) * C0) * (t12 q * C1 + t22 q * C0))%C; [ring | rewrite H; ring].
  - specialize (H C0 C1 C0 C1). rewrite !Cconj_add, !Cconj_mul, Cconj_C0, Cconj_C1 in H.
    transitivity ((Cconj (t11 q) * C0 + Cconj (t21 q) * C1) * (t11 q * C0 + t21 q * C1) +
      (Cconj (t12 q) * C0 + Cconj (t22 q) * C1) * (t12 q * C0 + t22 q * C1))%C; [ring | rewrite H; ring].
  - specialize (H C1 C0 C0 C1). rewrite !Cconj_add, !Cconj_mul, Cconj_C0, Cconj_C1 in H.
    transitivity ((Cconj (t11 q) * C1 + Cconj (t21 q) * C0) * (t11 q * C0 + t21 q * C1) +
      (Cconj (t12 q) * C1 + Cconj (t22 q) * C0) * (t12 q * C0 + t22 q * C1))%C; [ring | rewrite H; ring].
  - specialize (H C0 C1 C1 C0). rewrite !Cconj_add, !Cconj_mul, Cconj_C0, Cconj_C1 in H.
    transitivity ((Cconj (t11 q) * C0 + Cconj (t21 q) * C1) * (t11 q * C1 + t21 q * C0) +
      (Cconj (t12 q) * C0 + Cconj (t22 q) * C1) * (t12 q * C1 + t22 q * C0))%C; [ring | rewrite H; ring].
Qed.
Lemma unit_rows : forall q, quad_unit q ->
  (Cconj (t11 q) * t11 q + Cconj (t21 q) * t21 q)%C = C1 /\
  (Cconj (t12 q) * t12 q + Cconj (t22 q) * t22 q)%C = C1 /\
  (Cconj (t11 q) * t12 q + Cconj (t21 q) * t22 q)%C = C0 /\
  (Cconj (t12 q) * t11 q + Cconj (t22 q) * t21 q)%C = C0.
Proof. intros q H. exact (unit_cols (qtrans q) (quad_unit_trans q H)). Qed.

(** U (conj (U^T (x, y))) = conj (x, y). *)
Lemma q_inv : forall q x y, quad_unit q ->
  qtop q (Cconj (qtop (qtrans q) x y)) (Cconj (qbot (qtrans q) x y)) = Cconj x /\
  qbot q (Cconj (qtop (qtrans q) x y)) (Cconj (qbot (qtrans q) x y)) = Cconj y.
Proof.
  intros q x y H. destruct (unit_rows q H) as (E1 & E2 & E3 & E4). unfold qtop, qbot, qtrans; cbn [t11 t12 t21 t22].
  rewrite !Cconj_add, !Cconj_mul. split.
  - transitivity ((Cconj (t11 q) * t11 q + Cconj (t21 q) * t21 q) * Cconj x +
      (Cconj (t12 q) * t11 q + Cconj (t22 q) * t21 q) * Cconj y)%C; [ring | rewrite E1, E4; ring].
  - transitivity ((Cconj (t11 q) * t12 q + Cconj (t21 q) * t22 q) * Cconj x +
      (Cconj (t12 q) * t12 q + Cconj (t22 q) * t22 q) * Cconj y)%C; [ring | rewrite E2, E3; ring].
Qed.
(** (x, y) from its image. *)
Lemma q_back : forall q x y, quad_unit q ->
  x = (Cconj (t11 q) * qtop q x y + Cconj (t12 q) * qbot q x y)%C /\
  y = (Cconj (t21 q) * qtop q x y + Cconj (t22 q) * qbot q x y)%C.
Proof.
  intros q x y H. destruct (unit_cols q H) as (E1 & E2 & E3 & E4). unfold qtop, qbot. split.
  - transitivity ((Cconj (t11 q) * t11 q + Cconj (t12 q) * t12 q) * x + (Cconj (t11 q) * t21 q + Cconj (t12 q) * t22 q) * y)%C;
      [rewrite E1, E3; ring | ring].
  - transitivity ((Cconj (t21 q) * t11 q + Cconj (t22 q) * t12 q) * x + (Cconj (t21 q) * t21 q + Cconj (t22 q) * t22 q) * y)%C;
      [rewrite E2, E4; ring | ring].
Qed.

Definition qphase (q : quad) (dt db : C) : quad := mkQuad (t11 q * dt) (t12 q * dt) (t21 q * db) (t22 q * db)%C.
Lemma qphase_unit : forall q dt db, quad_unit q -> Cn2 dt = 1 -> Cn2 db = 1 -> quad_unit (qphase q dt db).
Proof.
  intros q dt db H Ht Hb x y x' y'. specialize (H (dt * x) (db * y) (dt * x') (db * y'))%C.
  unfold qtop, qbot, qphase in *; cbn [t11 t12 t21 t22].
  rewrite <- (unit_sesq dt x x' Ht), <- (unit_sesq db y y' Hb), <- H.
  rewrite !Cconj_add, !Cconj_mul. ring.
Qed.
Lemma qphase_top : forall q dt db x y, qtop (qphase q dt db) x y = qtop q (dt * x)%C (db * y)%C.
Proof. intros. unfold qtop, qphase; cbn. ring. Qed.
Lemma qphase_bot : forall q dt db x y, qbot (qphase q dt db) x y = qbot q (dt * x)%C (db * y)%C.
Proof. intros. unfold qbot, qphase; cbn. ring. Qed.

(** Two unitary nodes that null the same input on the top rail differ by output phases. *)
Lemma same_null : forall qt qh ut ub, quad_unit qt -> quad_unit qh ->
  qtop qt ut ub = C0 -> qbot qt ut ub = C1 -> qtop qh ut ub = C0 ->
  let zt := Cconj (qtop (qtrans qt) C1 C1) in let zb := Cconj (qbot (qtrans qt) C1 C1) in
  Cn2 (qtop qh zt zb) = 1 /\ Cn2 (qbot qh zt zb) = 1 /\
  forall x y, qtop qh x y = (qtop qh zt zb * qtop qt x y)%C /\ qbot qh x y = (qbot qh zt zb * qbot qt x y)%C.
Proof.
  intros qt qh ut ub Ht Hh N1 N2 N3 zt zb.
  destruct (q_back qt ut ub Ht) as [Eu Ev]. rewrite N1, N2 in Eu, Ev.
  assert (Eu' : ut = Cconj (t12 qt)) by (rewrite Eu; ring). assert (Ev' : ub = Cconj (t22 qt)) by (rewrite Ev; ring).
  set (pt := Cconj (t11 qt)). set (pb := Cconj (t21 qt)).
  destruct (unit_rows qt Ht) as (R1 & R2 & R3 & R4).
  (* images under qh *)
  set (be := qbot qh ut ub).
  assert (Hbe : (Cconj be * be)%C = C1).
  { pose proof (Hh ut ub ut ub) as K. rewrite N3 in K. fold be in K. rewrite Cconj_C0 in K.
    transitivity (C0 * C0 + Cconj be * be)%C; [ring | rewrite K, Eu', Ev', !Cconj_conj].
    rewrite <- R2. ring. }
  assert (Hpb : qbot qh pt pb = C0).
  { pose proof (Hh ut ub pt pb) as K. rewrite N3 in K. fold be in K. rewrite Cconj_C0 in K.
    assert (K2 : (Cconj be * qbot qh pt pb)%C = C0).
    { transitivity (C0 * qtop qh pt pb + Cconj be * qbot qh pt pb)%C; [ring | rewrite K, Eu', Ev', !Cconj_conj].
      unfold pt, pb. rewrite <- R3. ring. }
    transitivity (Cconj be * be * qbot qh pt pb)%C; [rewrite Hbe; ring |].
    transitivity (be * (Cconj be * qbot qh pt pb))%C; [ring | rewrite K2; ring]. }
  set (al := qtop qh pt pb).
  assert (Hal : (Cconj al * al)%C = C1).
  { pose proof (Hh pt pb pt pb) as K. rewrite Hpb in K. fold al in K. rewrite Cconj_C0 in K.
    transitivity (Cconj al * al + C0 * C0)%C; [ring | rewrite K]. unfold pt, pb. rewrite !Cconj_conj, <- R1. ring. }
  assert (Lt : forall x y, qtop qh x y = (al * qtop qt x y)%C).
  { intros x y. destruct (q_back qt x y Ht) as [Ex Ey].
    set (A := qtop qt x y) in *. set (B := qbot qt x y) in *. clearbody A B.
    transitivity (A * qtop qh pt pb + B * qtop qh ut ub)%C.
    - rewrite Ex, Ey, Eu', Ev'. unfold pt, pb, qtop. ring.
    - rewrite N3. fold al. ring. }
  assert (Lb : forall x y, qbot qh x y = (be * qbot qt x y)%C).
  { intros x y. destruct (q_back qt x y Ht) as [Ex Ey].
    set (A := qtop qt x y) in *. set (B := qbot qt x y) in *. clearbody A B.
    transitivity (A * qbot qh pt pb + B * qbot qh ut ub)%C.
    - rewrite Ex, Ey, Eu', Ev'. unfold pt, pb, qbot. ring.
    - rewrite Hpb. fold be. ring. }
  destruct (q_inv qt C1 C1 Ht) as [Z1 Z2]. fold zt zb in Z1, Z2. rewrite Cconj_C1 in Z1, Z2.
  assert (Ea : qtop qh zt zb = al) by (rewrite Lt, Z1; ring).
  assert (Eb : qbot qh zt zb = be) by (rewrite Lb, Z2; ring).
  rewrite Ea, Eb. repeat split.
  - apply RtoC_inj. rewrite <- Cmul_conj. change (RtoC 1) with C1. rewrite <- Hal. ring.
  - apply RtoC_inj. rewrite <- Cmul_conj. change (RtoC 1) with C1. rewrite <- Hbe. ring.
  - apply Lt.
  - apply Lb.
Qed.

(** ** Columns *)
Definition cols_run (el : nat -> quad) (idxs : list (list (nat * nat * nat))) (v : vec) : vec :=
  fold_left (fun v i => parallel_transform el i v) idxs v.
Lemma cols_run_app : forall el a b v, cols_run el (a ++ b) v = cols_run el b (cols_run el a v).
Proof. intros. unfold cols_run. apply fold_left_app. Qed.
Lemma pt_inv : forall el idx z, NoDup (rails idx) -> (forall k, quad_unit (el k)) ->
  parallel_transform el idx (fun i => Cconj (parallel_transform (fun k => qtrans (el k)) idx z i)) = fun i => Cconj (z i).
Proof.
  intros el idx z Hnd Hu. apply functional_extensionality; intro j.
  destruct (in_dec Nat.eq_dec j (rails idx)) as [Hj | Hj].
  - destruct (rails_inv _ _ Hj) as (t & b & k & Hin & [E | E]); subst j.
    + rewrite (pt_top el idx _ t b k Hnd Hin), (pt_top (fun k => qtrans (el k)) idx _ t b k Hnd Hin), (pt_bot (fun k => qtrans (el k)) idx _ t b k Hnd Hin).
      apply (q_inv (el k)). apply Hu.
    + rewrite (pt_bot el idx _ t b k Hnd Hin), (pt_top (fun k => qtrans (el k)) idx _ t b k Hnd Hin), (pt_bot (fun k => qtrans (el k)) idx _ t b k Hnd Hin).
      apply (q_inv (el k)). apply Hu.
  - rewrite !pt_other by auto. reflexivity.
Qed.
Lemma cols_inv : forall el idxs z, Forall (fun i => NoDup (rails i)) idxs -> (forall k, quad_unit (el k)) ->
  cols_run el idxs (fun i => Cconj (cols_run (fun k => qtrans (el k)) (rev idxs) z i)) = fun i => Cconj (z i).
Proof.
  intros el idxs z H Hu. induction H as [| i r Hi Hr IH]; [reflexivity |].
  cbn [rev]. rewrite cols_run_app. cbn [cols_run fold_left]. change (fold_left (fun v i => parallel_transform el i v) r) with (cols_run el r).
  change (fold_left (fun v i => parallel_transform ?e i v) [i] ?x) with (parallel_transform e i x).
  rewrite pt_inv by auto. exact IH.
Qed.
Lemma pt_el_ext : forall el el' idx v, NoDup (rails idx) -> (forall t b k, In (t, b, k) idx -> el k = el' k) ->
  parallel_transform el idx v = parallel_transform el' idx v.
Proof.
  intros el el' idx v Hnd H. apply functional_extensionality; intro j.
  destruct (in_dec Nat.eq_dec j (rails idx)) as [Hj | Hj].
  - destruct (rails_inv _ _ Hj) as (t & b & k & Hin & [E | E]); subst j.
    + rewrite (pt_top el idx _ t b k Hnd Hin), (pt_top el' idx _ t b k Hnd Hin), (H _ _ _ Hin). reflexivity.
    + rewrite (pt_bot el idx _ t b k Hnd Hin), (pt_bot el' idx _ t b k Hnd Hin), (H _ _ _ Hin). reflexivity.
  - rewrite !pt_other by auto. reflexivity.
Qed.
Lemma cols_el_ext : forall el el' idxs, Forall (fun i => NoDup (rails i)) idxs ->
  (forall i t b k, In i idxs -> In (t, b, k) i -> el k = el' k) -> forall v, cols_run el idxs v = cols_run el' idxs v.
Proof.
  intros el el' idxs H. induction H as [| i r Hi Hr IH]; intros E v; [reflexivity |].
  unfold cols_run. cbn [fold_left]. rewrite (pt_el_ext el el' i v Hi).
  - apply IH. intros j t b k Hj Hin. apply (E j t b k); [right; exact Hj | exact Hin].
  - intros t b k Hin. apply (E i t b k); [left; reflexivity | exact Hin].
Qed.

(** One column: hardware elements that null the same input as the target elements, up to phases D before it. *)
Lemma column_step : forall idx elt elh (D : vec) u, NoDup (rails idx) -> (forall k, quad_unit (elt k)) -> (forall k, quad_unit (elh k)) ->
  (forall i, Cn2 (D i) = 1) ->
  (forall t b k, In (t, b, k) idx -> qtop (elt k) (u t) (u b) = C0 /\ qbot (elt k) (u t) (u b) = C1 /\
     qtop (elh k) (D t * u t)%C (D b * u b)%C = C0) ->
  exists D' : vec, (forall i, Cn2 (D' i) = 1) /\
    forall y i, parallel_transform elh idx (fun i => (D i * y i)%C) i = (D' i * parallel_transform elt idx y i)%C.
Proof.
  intros idx elt elh D u Hnd Ht Hh HD Hu.
  set (z := fun i => Cconj (parallel_transform (fun k => qtrans (elt k)) idx (fun _ => C1) i)).
  exists (parallel_transform elh idx (fun i => (D i * z i)%C)).
  assert (S : forall t b k, In (t, b, k) idx ->
    let zt := Cconj (qtop (qtrans (elt k)) C1 C1) in let zb := Cconj (qbot (qtrans (elt k)) C1 C1) in
    z t = zt /\ z b = zb /\
    Cn2 (qtop (elh k) (D t * zt)%C (D b * zb)%C) = 1 /\ Cn2 (qbot (elh k) (D t * zt)%C (D b * zb)%C) = 1 /\
    forall x y, qtop (elh k) (D t * x)%C (D b * y)%C = (qtop (elh k) (D t * zt) (D b * zb) * qtop (elt k) x y)%C /\
      qbot (elh k) (D t * x)%C (D b * y)%C = (qbot (elh k) (D t * zt) (D b * zb) * qbot (elt k) x y)%C).
  { intros t b k Hin zt zb.
    assert (Ezt : z t = zt) by (unfold z; rewrite (pt_top _ idx _ t b k Hnd Hin); reflexivity).
    assert (Ezb : z b = zb) by (unfold z; rewrite (pt_bot _ idx _ t b k Hnd Hin); reflexivity).
    split; [exact Ezt | split; [exact Ezb |]].
    destruct (Hu t b k Hin) as (N1 & N2 & N3).
    pose proof (same_null (elt k) (qphase (elh k) (D t) (D b)) (u t) (u b) (Ht k) (qphase_unit _ _ _ (Hh k) (HD t) (HD b)) N1 N2) as K.
    rewrite qphase_top in K. specialize (K N3). cbv zeta in K. rewrite !qphase_top, !qphase_bot in K. fold zt zb in K.
    destruct K as (K1 & K2 & K3). split; [exact K1 | split; [exact K2 |]]. intros x y. specialize (K3 x y).
    rewrite !qphase_top, !qphase_bot in K3. exact K3. }
  split.
  - intro i. destruct (in_dec Nat.eq_dec i (rails idx)) as [Hj | Hj].
    + destruct (rails_inv _ _ Hj) as (t & b & k & Hin & [E | E]); subst i; destruct (S t b k Hin) as (E1 & E2 & E3 & E4 & E5).
      * rewrite (pt_top elh idx _ t b k Hnd Hin), E1, E2. exact E3.
      * rewrite (pt_bot elh idx _ t b k Hnd Hin), E1, E2. exact E4.
    + rewrite pt_other by auto. unfold z. rewrite pt_other by auto. rewrite Cconj_C1, Cn2_mul, HD. unfold Cn2; cbn; ring.
  - intros y i. destruct (in_dec Nat.eq_dec i (rails idx)) as [Hj | Hj].
    + destruct (rails_inv _ _ Hj) as (t & b & k & Hin & [E | E]); subst i; destruct (S t b k Hin) as (E1 & E2 & E3 & E4 & E5).
      * rewrite !(pt_top elh idx _ t b k Hnd Hin), (pt_top elt idx _ t b k Hnd Hin), E1, E2. apply E5.
      * rewrite !(pt_bot elh idx _ t b k Hnd Hin), (pt_bot elt idx _ t b k Hnd Hin), E1, E2. apply E5.
    + rewrite !pt_other by auto. unfold z. rewrite pt_other by auto. rewrite Cconj_C1. ring.
Qed.

(** ** The columns of a well-formed mesh *)
Definition tri (nd : node) : nat * nat * nat := (top nd, bottom nd, node_id nd).
Definition col_idx (m : mesh) (c : nat) : list (nat * nat * nat) := map tri (nodes_in_column (nodes m) (Z.of_nat c)).
Definition all_idx (m : mesh) : list (list (nat * nat * nat)) := map (col_idx m) (seq 0 (Z.to_nat (num_columns m))).

Lemma Forall2_len : forall (A B : Type) (R : A -> B -> Prop) l r, Forall2 R l r -> length l = length r.
Proof. intros A B R l r H. induction H; cbn; congruence. Qed.
Lemma cols_struct : forall m cols, NoDup (map node_id (nodes m)) -> columns m = Some cols ->
  length cols = Z.to_nat (num_columns m) /\ map triples cols = all_idx m /\
  forall c nc, nth_error cols c = Some nc -> col_label nc = Z.of_nat c /\ style nc = style m /\
    nodes nc = nodes_in_column (nodes m) (Z.of_nat c) /\ triples nc = col_idx m c.
Proof.
  intros m cols Hnd Hc. unfold columns in Hc. apply all_some_map in Hc.
  assert (One : forall c nc, mk_mesh (nodes_in_column (nodes m) (Z.of_nat c)) (style m) = Some nc ->
    col_label nc = Z.of_nat c /\ style nc = style m /\ nodes nc = nodes_in_column (nodes m) (Z.of_nat c) /\ triples nc = col_idx m c).
  { intros c nc H. pose proof (mk_mesh_triples _ _ _ H) as Ht.
    pose proof (filter_nodup_id (Z.of_nat c) (nodes m) Hnd) as Hf. fold (nodes_in_column (nodes m) (Z.of_nat c)) in Hf.
    rewrite (renumber_single _ Hf) in Ht.
    unfold mk_mesh in H. destruct (nodes_in_column (nodes m) (Z.of_nat c)) as [| a l] eqn:El; [discriminate |].
    assert (E : forall x y : mesh, Some x = Some y -> x = y) by (intros x y K; injection K; auto).
    apply E in H. assert (Ha : column a = Z.of_nat c).
    { assert (Hin : In a (nodes_in_column (nodes m) (Z.of_nat c))) by (rewrite El; left; reflexivity).
      apply filter_In in Hin. destruct Hin as [_ Hin]. apply Z.eqb_eq in Hin. exact Hin. }
    split; [| split; [| split]].
    - rewrite <- H. exact Ha.
    - rewrite <- H. reflexivity.
    - rewrite <- H. cbn [nodes]. apply renumber_single. exact Hf.
    - rewrite Ht. unfold col_idx. rewrite El. reflexivity. }
  split; [| split].
  - apply Forall2_len in Hc. rewrite seq_length in Hc. auto.
  - unfold all_idx. revert Hc. generalize (seq 0 (Z.to_nat (num_columns m))). intros l H.
    induction H as [| c nc l r Hm H IH]; [reflexivity |]. cbn [map]. rewrite IH.
    destruct (One c nc Hm) as (_ & _ & _ & E). rewrite E. reflexivity.
  - intros c nc Hn.
    assert (K : forall l r, Forall2 (fun c nc => mk_mesh (nodes_in_column (nodes m) (Z.of_nat c)) (style m) = Some nc) l r ->
       forall i x, nth_error r i = Some x -> exists a, nth_error l i = Some a /\ mk_mesh (nodes_in_column (nodes m) (Z.of_nat a)) (style m) = Some x).
    { intros l r H. induction H as [| a b l r Hm H IH]; intros i x Hi; [destruct i; discriminate |].
      destruct i as [| i]; cbn in *; [injection Hi as <-; eauto | auto]. }
    destruct (K _ _ Hc c nc Hn) as (a & Ha & Hm).
    assert (a = c).
    { assert (Hlt : (c < Z.to_nat (num_columns m))%nat).
      { assert (c < length cols)%nat by (apply nth_error_Some; congruence).
        apply Forall2_len in Hc. rewrite seq_length in Hc. lia. }
      pose proof (nth_error_nth _ _ 0%nat Ha) as Hx. rewrite seq_nth in Hx by exact Hlt. lia. }
    subst a. apply One. exact Hm.
Qed.

Lemma filter_firstn : forall (A : Type) (f : A -> bool) l c, (forall i x, nth_error l i = Some x -> f x = Nat.ltb i c) -> filter f l = firstn c l.
Proof.
  induction l as [| a l IH]; intros c H; [destruct c; reflexivity |].
  destruct c as [| c].
  - cbn [firstn filter]. pose proof (H 0%nat a eq_refl) as H0. cbn in H0. rewrite H0. 
    rewrite (IH 0%nat); [reflexivity |]. intros i x Hi. rewrite (H (S i) x Hi). destruct i; reflexivity.
  - cbn [firstn filter]. pose proof (H 0%nat a eq_refl) as H0. cbn in H0. rewrite H0. f_equal. apply IH.
    intros i x Hi. rewrite (H (S i) x Hi). destruct i, c; reflexivity.
Qed.
Lemma filter_rev' : forall (A : Type) (f : A -> bool) l, filter f (rev l) = rev (filter f l).
Proof.
  induction l as [| a l IH]; [reflexivity |]. cbn [rev filter]. rewrite filter_app, IH. cbn [filter].
  destruct (f a); [reflexivity | apply app_nil_r].
Qed.
Lemma cut_forward : forall m cols c, NoDup (map node_id (nodes m)) -> columns m = Some cols ->
  filter (fun nc => negb (skipped m false (Z.of_nat c) nc)) cols = firstn c cols.
Proof.
  intros m cols c Hnd Hc. destruct (cols_struct m cols Hnd Hc) as (_ & _ & H). apply filter_firstn.
  intros i x Hi. destruct (H i x Hi) as (E & _). unfold skipped. rewrite E.
  destruct (Z.leb_spec (Z.of_nat c) (Z.of_nat i)); destruct (Nat.ltb_spec i c); cbn; lia || reflexivity.
Qed.
Lemma cut_backward : forall m cols c, NoDup (map node_id (nodes m)) -> columns m = Some cols ->
  filter (fun nc => negb (skipped m true (num_columns m - Z.of_nat c) nc)) (rev cols) = rev (firstn (S c) cols).
Proof.
  intros m cols c Hnd Hc. destruct (cols_struct m cols Hnd Hc) as (_ & _ & H). rewrite filter_rev'. f_equal. apply filter_firstn.
  intros i x Hi. destruct (H i x Hi) as (E & _). unfold skipped. rewrite E.
  destruct (Z.ltb_spec (num_columns m - (num_columns m - Z.of_nat c)) (Z.of_nat i)); destruct (Nat.ltb_spec i (S c)); cbn [negb]; lia || reflexivity.
Qed.

(** ** Propagation with a cut-off *)
Lemma all_idx_nodup : forall m cols, rails_disjoint (nodes m) -> NoDup (map node_id (nodes m)) -> columns m = Some cols ->
  Forall (fun i => NoDup (rails i)) (all_idx m).
Proof.
  intros m cols Hd Hnd Hc. destruct (cols_struct m cols Hnd Hc) as (_ & E & _). rewrite <- E.
  exact (mesh_idxs_nodup m false cols Hd Hc).
Qed.
Lemma Forall_firstn' : forall (A : Type) (P : A -> Prop) l c, Forall P l -> Forall P (firstn c l).
Proof. intros A P l c H. revert c. induction H; intros [| c]; cbn; auto. Qed.
Lemma forallb_firstn : forall (A : Type) (f : A -> bool) l c, forallb f l = true -> forallb f (firstn c l) = true.
Proof.
  induction l as [| a l IH]; intros [| c] H; try reflexivity. cbn in *. apply andb_prop in H. destruct H as [H1 H2].
  rewrite H1. cbn. auto.
Qed.
Lemma forallb_rev : forall (A : Type) (f : A -> bool) l, forallb f l = true -> forallb f (rev l) = true.
Proof. intros A f l H. rewrite forallb_forall in *. intros x Hx. apply H. apply in_rev. exact Hx. Qed.

Lemma wf_all : forall m, wf_mesh m -> exists cols, columns m = Some cols /\ length cols = Z.to_nat (num_columns m) /\ map triples cols = all_idx m /\
  (forall c nc, nth_error cols c = Some nc -> col_label nc = Z.of_nat c /\ style nc = style m /\
    nodes nc = nodes_in_column (nodes m) (Z.of_nat c) /\ triples nc = col_idx m c) /\
  forallb (idx_ok (n_rails m) (length (bs_errors m))) (all_idx m) = true /\ Forall (fun i => NoDup (rails i)) (all_idx m) /\
  NoDup (map node_id (nodes m)).
Proof.
  intros m Hw. destruct (wf_total m Hw) as (cols & Hc & Hok). pose proof Hw as (Hd & _ & Hnd & _).
  destruct (cols_struct m cols Hnd Hc) as (H1 & H2 & H3). exists cols. split; [exact Hc |]. split; [exact H1 |]. split; [exact H2 |].
  split; [exact H3 |]. split; [| split; [exact (all_idx_nodup m cols Hd Hnd Hc) | exact Hnd]].
  specialize (Hok false). unfold mesh_idxs in Hok. rewrite H2 in Hok. exact Hok.
Qed.

Lemma cut_fwd_run : forall m p c x, wf_mesh m -> (c < Z.to_nat (num_columns m))%nat ->
  exists sl, propagate_cut m false false (Some (Z.of_nat c)) p x = Some sl /\
    last sl x = cols_run (mzis m false p) (firstn c (all_idx m)) x.
Proof.
  intros m p c x Hw Hc. destruct (wf_all m Hw) as (cols & E1 & E2 & E3 & _ & E5 & _ & E7).
  unfold propagate_cut. rewrite E1. cbn [obind cut_of]. cbv zeta. cbn [andb negb].
  rewrite (cut_forward m cols c E7 E1). rewrite <- firstn_map, E3.
  rewrite (forallb_firstn _ _ _ _ E5). 
  destruct (Z.eqb_spec (Z.of_nat c) (num_columns m)) as [K | _]; [lia |].
  eexists. split; [reflexivity |]. rewrite app_nil_r. cbn [app last]. 
  unfold cols_run. rewrite <- (last_prop_implicit (mzis m false p)). destruct (prop_implicit _ _ _); reflexivity.
Qed.
Lemma cut_fwd_full : forall m p x, wf_mesh m -> (0 <= num_columns m)%Z ->
  exists sl, propagate_cut m false false (Some (num_columns m)) p x = Some sl /\
    last sl x = apply_gammas (gammas p) (cols_run (mzis m false p) (all_idx m) x).
Proof.
  intros m p x Hw Hp. destruct (wf_all m Hw) as (cols & E1 & E2 & E3 & _ & E5 & _ & E7).
  unfold propagate_cut. rewrite E1. cbn [obind cut_of]. cbv zeta. cbn [andb negb].
  pose proof (cut_forward m cols (Z.to_nat (num_columns m)) E7 E1) as K. rewrite Z2Nat.id in K by exact Hp. rewrite K.
  rewrite <- firstn_map, E3. assert (Ef : firstn (Z.to_nat (num_columns m)) (all_idx m) = all_idx m).
  { rewrite <- E2. rewrite <- E3, <- (map_length triples). apply firstn_all. }
  rewrite Ef, E5, Z.eqb_refl. eexists. split; [reflexivity |].
  cbn [last]. rewrite (last_prop_implicit (mzis m false p)). rewrite !app_assoc. apply last_last.
Qed.
Lemma cut_bwd_run : forall m p c x, wf_mesh m -> (c < Z.to_nat (num_columns m))%nat ->
  exists sl, propagate_cut m true false (Some (num_columns m - Z.of_nat c)%Z) p x = Some sl /\
    last sl x = cols_run (mzis m true p) (rev (firstn (S c) (all_idx m))) x.
Proof.
  intros m p c x Hw Hc. destruct (wf_all m Hw) as (cols & E1 & E2 & E3 & _ & E5 & _ & E7).
  unfold propagate_cut. rewrite E1. cbn [obind cut_of]. cbv zeta.
  rewrite (cut_backward m cols c E7 E1). rewrite map_rev, <- firstn_map, E3.
  rewrite (forallb_rev _ _ _ (forallb_firstn _ _ _ (S c) E5)).
  destruct (Z.eqb_spec (num_columns m - Z.of_nat c) (-1)) as [K | _]; [lia |]. cbn [andb negb].
  eexists. split; [reflexivity |]. rewrite app_nil_r. cbn [app last]. 
  unfold cols_run. rewrite <- (last_prop_implicit (mzis m true p)). destruct (prop_implicit _ _ _); reflexivity.
Qed.
