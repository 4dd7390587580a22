(** Explicit propagation, and the counterexamples for forward.py. *)
From Coq Require Import Reals Lra Lia Psatz List ZArith Permutation Bool FunctionalExtensionality.
From Verif Require Import Cx Arr Spec_circuit Model_coupling Model_forward Spec_mesh Proof_node Proof_mesh Proof_forward Proof_forward2.
Import ListNotations.
Local Open Scope R_scope.

(** ** Composition of column transforms *)
Definition qmul (q2 q1 : quad) : quad :=
  mkQuad (t11 q2 * t11 q1 + t21 q2 * t12 q1) (t12 q2 * t11 q1 + t22 q2 * t12 q1)
         (t11 q2 * t21 q1 + t21 q2 * t22 q1) (t12 q2 * t21 q1 + t22 q2 * t22 q1).

Lemma qmul_assoc : forall a b c, qmul a (qmul b c) = qmul (qmul a b) c.
Proof. intros. unfold qmul; simpl. f_equal; ring. Qed.

Lemma pt_comp : forall el1 el2 idx v, NoDup (rails idx) ->
  parallel_transform el2 idx (parallel_transform el1 idx v) = parallel_transform (fun k => qmul (el2 k) (el1 k)) idx v.
Proof.
  intros el1 el2 idx v Hnd. apply functional_extensionality; intro j.
  destruct (in_dec Nat.eq_dec j (rails idx)) as [Hj | Hj].
  - destruct (rails_inv _ _ Hj) as (t & b & k & Hin & [E | E]); subst j.
    + rewrite !(pt_top _ idx _ t b k), (pt_bot _ idx _ t b k) by auto. unfold qtop, qbot, qmul; simpl. ring.
    + rewrite !(pt_bot _ idx _ t b k), (pt_top _ idx _ t b k) by auto. unfold qtop, qbot, qmul; simpl. ring.
  - rewrite !pt_other by auto. reflexivity.
Qed.

Definition qdiag (s : phase_style) (ph : R) : quad :=
  match s with BOTTOM => mkQuad C1 C0 C0 (cis ph) | _ => mkQuad (cis ph) C0 C0 C1 end.

Lemma NoDup_app_fst : forall (A : Type) (l r : list A), NoDup (l ++ r) -> NoDup l.
Proof.
  induction l as [| a l IH]; simpl; intros r H; [constructor |]. inversion H; subst.
  constructor; [intro; apply H2, in_or_app; auto | eapply IH; eauto].
Qed.
Lemma NoDup_app_snd : forall (A : Type) (l r : list A), NoDup (l ++ r) -> NoDup r.
Proof. induction l as [| a l IH]; simpl; intros r H; auto. inversion H; eauto. Qed.

Lemma multiply_transform : forall s ph idx v, s = TOP \/ s = BOTTOM -> NoDup (rails idx) ->
  parallel_multiply s ph idx v = Some (parallel_transform (fun k => qdiag s (ph k)) idx v).
Proof.
  intros s ph idx v Hs Hnd. unfold parallel_multiply.
  assert (Ef1 : map fst (map (fun x : nat * nat * nat => let '(t, b, k) := x in (t, v t * cis (ph k))%C) idx)
     = map (fun x => fst (fst x)) idx) by (rewrite map_map; apply map_ext; intros [[t b] k]; auto).
  assert (Ef2 : map fst (map (fun x : nat * nat * nat => let '(t, b, k) := x in (b, v b * cis (ph k))%C) idx)
     = map (fun x => snd (fst x)) idx) by (rewrite map_map; apply map_ext; intros [[t b] k]; auto).
  destruct Hs; subst s; f_equal; apply functional_extensionality; intro j;
    (destruct (in_dec Nat.eq_dec j (rails idx)) as [Hj | Hj];
     [destruct (rails_inv _ _ Hj) as (t & b & k & Hin & [E | E]); subst j |]).
  - rewrite (pt_top _ idx _ t b k) by auto. rewrite (assign_in _ _ _ t (v t * cis (ph k))%C).
    + unfold qtop, qdiag; simpl; ring.
    + rewrite Ef1. exact (NoDup_app_fst _ _ _ Hnd).
    + apply in_map_iff. exists (t, b, k); auto.
  - rewrite (pt_bot _ idx _ t b k) by auto. rewrite assign_notin.
    + unfold qbot, qdiag; simpl; ring.
    + rewrite Ef1. intro H. apply in_map_iff in H. destruct H as [[[t' b'] k'] [E H]]; simpl in E; subst t'.
      exact (nodup_top_bot idx b b' k' t k Hnd H Hin).
  - rewrite pt_other by auto. apply assign_notin. rewrite Ef1. intro H; apply Hj, in_or_app; auto.
  - rewrite (pt_top _ idx _ t b k) by auto. rewrite assign_notin.
    + unfold qtop, qdiag; simpl; ring.
    + rewrite Ef2. intro H. apply in_map_iff in H. destruct H as [[[t' b'] k'] [E H]]; simpl in E; subst b'.
      exact (nodup_top_bot idx t b k t' k' Hnd Hin H).
  - rewrite (pt_bot _ idx _ t b k) by auto. rewrite (assign_in _ _ _ b (v b * cis (ph k))%C).
    + unfold qbot, qdiag; simpl; ring.
    + rewrite Ef2. exact (NoDup_app_snd _ _ _ Hnd).
    + apply in_map_iff. exists (t, b, k); auto.
  - rewrite pt_other by auto. apply assign_notin. rewrite Ef2. intro H; apply Hj, in_or_app; auto.
Qed.

(** One column of explicit propagation multiplies by these four elements. *)
Definition qcol (s : phase_style) (back : bool) (theta phi : R) (err ls : R * R) : quad :=
  if back then qmul (qdiag s phi) (qmul (parallel_dc false err ls) (qmul (qdiag s theta) (parallel_dc true err ls)))
  else qmul (parallel_dc true err ls) (qmul (qdiag s theta) (qmul (parallel_dc false err ls) (qdiag s phi))).

Lemma sin_PI4_cos : forall e, sin (PI / 4 + e) = cos (PI / 4 + - e).
Proof. intros. rewrite <- cos_shift. f_equal. field. Qed.
Lemma cos_PI4_sin : forall e, cos (PI / 4 + e) = sin (PI / 4 + - e).
Proof. intros. rewrite <- sin_shift. f_equal. field. Qed.

(** The explicit column is the implicit column with both errors negated and the two losses exchanged. *)
Lemma explicit_top : forall theta phi err ls,
  qcol TOP false theta phi err ls = parallel_mzi TOP false theta phi (- fst err, - snd err) (snd ls, fst ls).
Proof.
  intros theta phi [el er] [ll lr]. unfold qcol, parallel_mzi, mzi_terms, parallel_dc, qmul, qdiag, sel.
  cbn [fst snd b2R t11 t12 t21 t22].
  rewrite !(sin_PI4_cos el), !(cos_PI4_sin el), !(sin_PI4_cos er), !(cos_PI4_sin er).
  replace (ln 10 * ll / 20 * (1 - 0)) with (ln 10 * ll / 20) by ring. replace (phi * (1 - 0)) with phi by ring.
  replace (ln 10 * ll / 20 * 0) with 0 by ring. replace (phi * 0) with 0 by ring.
  rewrite !Cexp_split, exp_0, cis_0, ?RtoC_mul, ?RtoC_opp, ?RtoC_1, ?RtoC_mul.
  f_equal; ring [Ci_sq].
Qed.
Lemma explicit_noerr : forall s back theta phi, s = TOP \/ s = BOTTOM ->
  qcol s back theta phi (0, 0) (0, 0) = parallel_mzi s back theta phi (0, 0) (0, 0).
Proof.
  intros s back theta phi Hs. unfold qcol, parallel_mzi, mzi_terms, parallel_dc, qmul, qdiag, sel.
  cbn [fst snd]. replace (if true then 0 else 0) with 0 by auto.
  replace (ln 10 * 0 / 20) with 0 by field. rewrite Rplus_0_r, !sin_PI4, !cos_PI4, exp_0.
  destruct Hs; subst s; destruct back; cbn [fst snd b2R t11 t12 t21 t22]; rewrite ?sin_PI4, ?cos_PI4;
  rewrite ?Rmult_0_l, ?Rmult_1_l, ?Rminus_eq_0, ?Rmult_0_r, ?Rminus_0_r, ?Rmult_1_r;
  rewrite !Cexp_split, exp_0, ?cis_0, ?RtoC_mul, ?RtoC_opp, ?RtoC_1, ?RtoC_mul; f_equal; ring [Ci_sq].
Qed.

Lemma last_app_single : forall (A : Type) (l : list A) x d, last (l ++ [x]) d = x.
Proof. intros. apply last_last. Qed.

Lemma last_cons' : forall (l : list vec) (a b : vec), last (a :: l) b = last l a.
Proof.
  induction l as [| x l IHl]; intros; [reflexivity |].
  change (last (x :: l) b = last (x :: l) a). rewrite !(IHl x). reflexivity.
Qed.
Lemma last_prop_implicit : forall el idxs v,
  last (prop_implicit el idxs v) v = fold_left (fun v idx => parallel_transform el idx v) idxs v.
Proof.
  induction idxs as [| i idxs IH]; intros v; [reflexivity |]. cbn [prop_implicit fold_left].
  rewrite <- IH. set (v' := parallel_transform el i v).
  apply last_cons'.
Qed.
Lemma last_app' : forall (l r : list vec) d, last (l ++ r) d = last r (last l d).
Proof.
  induction l as [| a l IH]; intros; [reflexivity |]. rewrite <- app_comm_cons, !last_cons', IH. reflexivity.
Qed.

Lemma prop_explicit_last : forall s back p left right idxs v, s = TOP \/ s = BOTTOM ->
  Forall (fun i => NoDup (rails i)) idxs ->
  exists sl, prop_explicit s back p left right idxs v = Some sl /\ length sl = (4 * length idxs)%nat /\
   last sl v = fold_left (fun v idx => parallel_transform (fun k =>
      if back then qmul (qdiag s (phis p k)) (qmul (left k) (qmul (qdiag s (thetas p k)) (right k)))
      else qmul (right k) (qmul (qdiag s (thetas p k)) (qmul (left k) (qdiag s (phis p k))))) idx v) idxs v.
Proof.
  intros s back p left right idxs. induction idxs as [| i idxs IH]; intros v Hs HF.
  - exists []. auto.
  - inversion HF; subst. cbn [prop_explicit fold_left].
    assert (Hcol : exists sl, parallel_propagate s back p left right i v = Some sl /\ length sl = 4%nat /\
       last sl v = parallel_transform (fun k =>
      if back then qmul (qdiag s (phis p k)) (qmul (left k) (qmul (qdiag s (thetas p k)) (right k)))
      else qmul (right k) (qmul (qdiag s (thetas p k)) (qmul (left k) (qdiag s (phis p k))))) i v).
    { unfold parallel_propagate. destruct back; rewrite !multiply_transform by auto; cbn [obind];
       rewrite !multiply_transform by auto; cbn [obind]; eexists; (split; [reflexivity |]);
       (split; [reflexivity |]); cbn [last]; rewrite !pt_comp by auto; f_equal;
       apply functional_extensionality; intro k; rewrite !qmul_assoc; reflexivity. }
    destruct Hcol as (sl & E1 & L1 & E2). rewrite E1. cbn [obind].
    destruct (IH (last sl v) Hs H2) as (sl' & E3 & L3 & E4). rewrite E3. cbn [obind].
    exists (sl ++ sl'). split; [reflexivity |]. split; [rewrite app_length; simpl length; lia |].
    rewrite last_app', E4, E2. reflexivity.
Qed.

Lemma prop_implicit_length : forall el idxs v, length (prop_implicit el idxs v) = length idxs.
Proof. induction idxs; intros; simpl; auto. Qed.

(** Slices of implicit propagation: the last one is the output of matrix_fn, and it fails iff matrix_fn fails. *)
Lemma propagate_implicit_last : forall m back p x,
  match matrix_fn m back p x, propagate m back false p x with
  | Some y, Some sl => last sl x = y
  | None, None => True
  | _, _ => False
  end.
Proof.
  intros m back p x. unfold matrix_fn, propagate. destruct (columns m) as [cols |]; cbn [obind]; [| auto].
  destruct (forallb _ _); [| auto]. cbn [obind].
  destruct back.
  - rewrite app_nil_r, !last_app'. cbn [last]. apply last_prop_implicit.
  - rewrite !app_assoc, last_app_single. cbn [last]. rewrite last_prop_implicit. reflexivity.
Qed.

Lemma propagate_explicit_last : forall m back p x, rails_disjoint (nodes m) -> style m = TOP \/ style m = BOTTOM ->
  (forall e, In e (bs_errors m) -> e = (0, 0)) -> (forall l, In l (losses m) -> l = (0, 0)) ->
  match matrix_fn m back p x, propagate m back true p x with
  | Some y, Some sl => last sl x = y
  | None, None => True
  | _, _ => False
  end.
Proof.
  intros m back p x Hd Hs He Hl. unfold matrix_fn, propagate.
  destruct (columns m) as [cols |] eqn:Hc; cbn [obind]; [| auto].
  fold (mesh_idxs m back cols).
  destruct (forallb _ _) eqn:Hok; [| auto].
  assert (Eerr : forall k, err_at m k = (0, 0)).
  { intro k. unfold err_at. destruct (nth_in_or_default k (bs_errors m) (0,0)); auto. }
  assert (Eloss : forall k, loss_at m k = (0, 0)).
  { intro k. unfold loss_at. destruct (nth_in_or_default k (losses m) (0,0)); auto. }
  set (head := if back then [x; apply_gammas (gammas p) x] else [x]).
  destruct (prop_explicit_last (style m) back p (fun k => parallel_dc false (err_at m k) (loss_at m k))
     (fun k => parallel_dc true (err_at m k) (loss_at m k)) (mesh_idxs m back cols) (last head x) Hs
     (mesh_idxs_nodup m back cols Hd Hc)) as (sl & E1 & _ & E2).
  rewrite E1. cbn [obind].
  assert (Eq : (fun k => if back then qmul (qdiag (style m) (phis p k)) (qmul (parallel_dc false (err_at m k) (loss_at m k))
                 (qmul (qdiag (style m) (thetas p k)) (parallel_dc true (err_at m k) (loss_at m k))))
      else qmul (parallel_dc true (err_at m k) (loss_at m k)) (qmul (qdiag (style m) (thetas p k))
           (qmul (parallel_dc false (err_at m k) (loss_at m k)) (qdiag (style m) (phis p k)))))
     = mzis m back p).
  { apply functional_extensionality; intro k. unfold mzis. rewrite Eerr, Eloss.
    rewrite <- explicit_noerr by auto. unfold qcol. destruct back; reflexivity. }
  rewrite Eq in E2. unfold head in *.
  destruct back.
  - rewrite app_nil_r, !last_app'. cbn [last] in *. exact E2.
  - rewrite !app_assoc, last_app_single. cbn [last] in *. rewrite E2. reflexivity.
Qed.

(** SYMMETRIC and DIFFERENTIAL: explicit propagation raises (as soon as there is a column). *)
Lemma propagate_explicit_raises : forall m back p x cols, style m = SYMMETRIC \/ style m = DIFFERENTIAL ->
  columns m = Some cols -> cols <> [] -> propagate m back true p x = None.
Proof.
  intros m back p x cols Hs Hc Hne. unfold propagate. rewrite Hc. cbn [obind].
  destruct (forallb _ _); auto.
  destruct (if back then rev cols else cols) as [| c0 cs] eqn:E.
  - destruct back; [| congruence]. apply (f_equal (@rev _)) in E. rewrite rev_involutive in E. simpl in E. congruence.
  - cbn [map prop_explicit]. unfold parallel_propagate, parallel_multiply. destruct Hs as [-> | ->]; destruct back; reflexivity.
Qed.
