(** Mesh propagation as a sequence of two-rail operations. *)
From Coq Require Import Reals Lra Lia Psatz List ZArith Permutation Bool FunctionalExtensionality.
From Verif Require Import Cx Arr Spec_circuit Model_coupling Model_forward Proof_node.
Import ListNotations.
Local Open Scope R_scope.

Definition op := (quad * nat * nat)%type.
Definition apply_op (o : op) (v : vec) : vec :=
  let '(q, t, b) := o in upd (upd v t (qtop q (v t) (v b))) b (qbot q (v t) (v b)).
Definition run (ops : list op) (v : vec) : vec := fold_left (fun v o => apply_op o v) ops v.
Definition ok (n : nat) (o : op) : Prop := let '(q, t, b) := o in (t < n)%nat /\ (b < n)%nat /\ t <> b.
Definition quad_of (o : op) : quad := let '(q, _, _) := o in q.
Definition op_trans (o : op) : op := let '(q, t, b) := o in (qtrans q, t, b).

Lemma run_cons : forall o ops v, run (o :: ops) v = run ops (apply_op o v).
Proof. reflexivity. Qed.
Lemma run_app : forall o1 o2 v, run (o1 ++ o2) v = run o2 (run o1 v).
Proof. intros; unfold run; apply fold_left_app. Qed.

Lemma apply_op_top : forall q t b v, t <> b -> apply_op (q, t, b) v t = qtop q (v t) (v b).
Proof. intros; simpl. rewrite upd_neq by auto. apply upd_eq. Qed.
Lemma apply_op_bot : forall q t b v, apply_op (q, t, b) v b = qbot q (v t) (v b).
Proof. intros; simpl. apply upd_eq. Qed.
Lemma apply_op_other : forall q t b v j, j <> t -> j <> b -> apply_op (q, t, b) v j = v j.
Proof. intros; simpl. rewrite !upd_neq by auto. reflexivity. Qed.

(** ** Sesquilinear form, power *)
Lemma apply_op_sesq : forall n o x y, ok n o -> quad_unit (quad_of o) ->
  Csum n (fun i => Cconj (apply_op o x i) * apply_op o y i)%C = Csum n (fun i => Cconj (x i) * y i)%C.
Proof.
  intros n [[q t] b] x y (Ht & Hb & Htb) Hq; simpl in Hq.
  rewrite (Csum_change2 n _ (fun i => Cconj (x i) * y i)%C t b); auto.
  - rewrite !apply_op_top, !apply_op_bot by auto.
    pose proof (Hq (x t) (x b) (y t) (y b)) as E.
    match goal with |- (?S + (?a - ?c) + (?d - ?e))%C = _ =>
      transitivity (S + ((a + d) - (c + e)))%C; [ring |] end.
    rewrite E. ring.
  - intros j _ H1 H2. rewrite !apply_op_other by auto. reflexivity.
Qed.
Lemma run_sesq : forall n ops x y, Forall (ok n) ops -> Forall (fun o => quad_unit (quad_of o)) ops ->
  Csum n (fun i => Cconj (run ops x i) * run ops y i)%C = Csum n (fun i => Cconj (x i) * y i)%C.
Proof.
  induction ops as [| o ops IH]; intros x y Hok Hu; [reflexivity |].
  inversion Hok; inversion Hu; subst. rewrite !run_cons, IH, apply_op_sesq; auto.
Qed.
Lemma power_sesq : forall n x, RtoC (power n x) = Csum n (fun i => Cconj (x i) * x i)%C.
Proof.
  intros; unfold power. rewrite Csum_RtoC. apply Csum_ext; intros. rewrite <- Cmul_conj. ring.
Qed.
Lemma run_power : forall n ops x, Forall (ok n) ops -> Forall (fun o => quad_unit (quad_of o)) ops ->
  power n (run ops x) = power n x.
Proof. intros. apply RtoC_inj. rewrite !power_sesq. apply run_sesq; auto. Qed.

Lemma apply_op_power_le : forall n o x, ok n o -> quad_contr (quad_of o) ->
  power n (apply_op o x) <= power n x.
Proof.
  intros n [[q t] b] x (Ht & Hb & Htb) Hq; simpl in Hq. unfold power.
  rewrite (Rsum_change2 n _ (fun i => Cn2 (x i)) t b); auto.
  - rewrite apply_op_top, apply_op_bot by auto. pose proof (Hq (x t) (x b)). lra.
  - intros j _ H1 H2. rewrite apply_op_other by auto. reflexivity.
Qed.
Lemma run_power_le : forall n ops x, Forall (ok n) ops -> Forall (fun o => quad_contr (quad_of o)) ops ->
  power n (run ops x) <= power n x.
Proof.
  induction ops as [| o ops IH]; intros x Hok Hu; [apply Rle_refl |].
  inversion Hok; inversion Hu; subst. rewrite run_cons.
  eapply Rle_trans; [apply IH; auto | apply apply_op_power_le; auto].
Qed.

(** ** Linearity *)
Definition lin (a : C) (x : vec) (b : C) (y : vec) : vec := fun i => (a * x i + b * y i)%C.

Lemma apply_op_lin : forall o a x b y, apply_op o (lin a x b y) = lin a (apply_op o x) b (apply_op o y).
Proof.
  intros [[q t] bb] a x b y. apply functional_extensionality; intro j. simpl. unfold lin, upd, qtop, qbot.
  destruct (Nat.eqb j bb); [ring |]. destruct (Nat.eqb j t); ring.
Qed.
Lemma run_lin : forall ops a x b y, run ops (lin a x b y) = lin a (run ops x) b (run ops y).
Proof.
  induction ops as [| o ops IH]; intros; [reflexivity |]. rewrite !run_cons, apply_op_lin, IH. reflexivity.
Qed.

(** The output on rails < n only depends on the input on rails < n. *)
Lemma apply_op_local : forall n o x y, ok n o -> veq n x y -> veq n (apply_op o x) (apply_op o y).
Proof.
  intros n [[q t] b] x y (Ht & Hb & Htb) H i Hi. simpl. unfold upd.
  rewrite (H t Ht), (H b Hb). destruct (Nat.eqb i b); auto. destruct (Nat.eqb i t); auto.
Qed.
Lemma run_local : forall n ops x y, Forall (ok n) ops -> veq n x y -> veq n (run ops x) (run ops y).
Proof.
  induction ops as [| o ops IH]; intros x y Hok H; auto.
  inversion Hok; subst. rewrite !run_cons. apply IH; auto. apply apply_op_local; auto.
Qed.

(** ** Bilinear adjoint (transpose) *)
Lemma apply_op_adj : forall n o x y, ok n o ->
  Csum n (fun i => x i * apply_op o y i)%C = Csum n (fun i => apply_op (op_trans o) x i * y i)%C.
Proof.
  intros n [[q t] b] x y (Ht & Hb & Htb).
  rewrite (Csum_change2 n (fun i => x i * apply_op (q, t, b) y i)%C (fun i => x i * y i)%C t b); auto.
  - rewrite (Csum_change2 n (fun i => apply_op (op_trans (q, t, b)) x i * y i)%C (fun i => x i * y i)%C t b); auto.
    + change (op_trans (q, t, b)) with ((qtrans q, t, b) : op).
      rewrite !apply_op_top, !apply_op_bot by auto. unfold qtop, qbot, qtrans; simpl. ring.
    + intros j _ H1 H2. change (op_trans (q, t, b)) with ((qtrans q, t, b) : op).
      rewrite apply_op_other by auto. reflexivity.
  - intros j _ H1 H2. rewrite apply_op_other by auto. reflexivity.
Qed.
Lemma run_adj : forall n ops x y, Forall (ok n) ops ->
  Csum n (fun i => x i * run ops y i)%C = Csum n (fun i => run (rev (map op_trans ops)) x i * y i)%C.
Proof.
  induction ops as [| o ops IH]; intros x y Hok; [reflexivity |].
  inversion Hok; subst. rewrite run_cons, IH by auto. simpl map. simpl rev. rewrite run_app.
  rewrite apply_op_adj by auto. reflexivity.
Qed.
Lemma ok_trans : forall n o, ok n o -> ok n (op_trans o).
Proof. intros n [[q t] b]; simpl; auto. Qed.

(** Expansion of a run in the basis. *)
Lemma Csum_basis : forall n j f, (j < n)%nat -> Csum n (fun i => f i * basis j i)%C = f j.
Proof.
  intros n j f Hj. rewrite (Csum_single n _ j Hj).
  - unfold basis, delta; rewrite Nat.eqb_refl; ring.
  - intros i _ Hi. unfold basis, delta. destruct (Nat.eqb_spec i j); [congruence | ring].
Qed.
Lemma Csum_basis' : forall n j f, (j < n)%nat -> Csum n (fun i => basis j i * f i)%C = f j.
Proof.
  intros n j f Hj. rewrite (Csum_ext n _ (fun i => f i * basis j i)%C) by (intros; ring).
  apply Csum_basis; auto.
Qed.
Lemma run_transpose_entry : forall n ops i j, Forall (ok n) ops -> (i < n)%nat -> (j < n)%nat ->
  run ops (basis j) i = run (rev (map op_trans ops)) (basis i) j.
Proof.
  intros n ops i j Hok Hi Hj.
  rewrite <- (Csum_basis' n i (run ops (basis j)) Hi), run_adj by auto.
  apply Csum_basis; auto.
Qed.
Lemma run_matrix : forall n ops x i, Forall (ok n) ops -> (i < n)%nat ->
  run ops x i = Csum n (fun j => run ops (basis j) i * x j)%C.
Proof.
  intros n ops x i Hok Hi.
  rewrite <- (Csum_basis' n i (run ops x) Hi), run_adj by auto.
  apply Csum_ext; intros j Hj. rewrite (run_transpose_entry n ops i j) by auto. reflexivity.
Qed.

(** ** Both-sided unitarity of the matrix of a run *)
Lemma quad_unit_trans : forall q, quad_unit q -> quad_unit (qtrans q).
Proof.
  (* M^dagger M = 1 for a 2x2 matrix implies M M^dagger = 1, i.e. the transpose is unitary too. *)
  intros q H.
  assert (E11 : (Cconj (t11 q) * t11 q + Cconj (t12 q) * t12 q)%C = C1).
  { specialize (H C1 C0 C1 C0). unfold qtop, qbot in H.
    transitivity (Cconj (t11 q * C1 + t21 q * C0) * (t11 q * C1 + t21 q * C0) +
                  Cconj (t12 q * C1 + t22 q * C0) * (t12 q * C1 + t22 q * C0))%C;
      [ rewrite !Cconj_add, !Cconj_mul, Cconj_C0, Cconj_C1; ring | rewrite H, Cconj_C0, Cconj_C1; ring ]. }
  assert (E22 : (Cconj (t21 q) * t21 q + Cconj (t22 q) * t22 q)%C = C1).
  { specialize (H C0 C1 C0 C1). unfold qtop, qbot in H.
    transitivity (Cconj (t11 q * C0 + t21 q * C1) * (t11 q * C0 + t21 q * C1) +
                  Cconj (t12 q * C0 + t22 q * C1) * (t12 q * C0 + t22 q * C1))%C;
      [ rewrite !Cconj_add, !Cconj_mul, Cconj_C0, Cconj_C1; ring | rewrite H, Cconj_C0, Cconj_C1; ring ]. }
  assert (E12 : (Cconj (t11 q) * t21 q + Cconj (t12 q) * t22 q)%C = C0).
  { specialize (H C1 C0 C0 C1). unfold qtop, qbot in H.
    transitivity (Cconj (t11 q * C1 + t21 q * C0) * (t11 q * C0 + t21 q * C1) +
                  Cconj (t12 q * C1 + t22 q * C0) * (t12 q * C0 + t22 q * C1))%C;
      [ rewrite !Cconj_add, !Cconj_mul, Cconj_C0, Cconj_C1; ring | rewrite H, Cconj_C0, Cconj_C1; ring ]. }
  assert (E21 : (t11 q * Cconj (t21 q) + t12 q * Cconj (t22 q))%C = C0).
  { transitivity (Cconj (Cconj (t11 q) * t21 q + Cconj (t12 q) * t22 q)).
    - rewrite Cconj_add, !Cconj_mul, !Cconj_conj. reflexivity.
    - rewrite E12. apply Cconj_C0. }
  assert (Hdet : exists d, Cn2 d = 1 /\ t22 q = (d * Cconj (t11 q))%C /\ t12 q = (- (d * Cconj (t21 q)))%C /\
     t21 q = (- (d * Cconj (t12 q)))%C /\ t11 q = (d * Cconj (t22 q))%C).
  { exists (t11 q * t22 q - t12 q * t21 q)%C.
    assert (Hd22 : t22 q = ((t11 q * t22 q - t12 q * t21 q) * Cconj (t11 q))%C).
    { transitivity (t22 q * (Cconj (t11 q) * t11 q + Cconj (t12 q) * t12 q) -
                    t12 q * (Cconj (t11 q) * t21 q + Cconj (t12 q) * t22 q))%C;
        [rewrite E11, E12; ring | ring]. }
    assert (Hd12 : t12 q = (- ((t11 q * t22 q - t12 q * t21 q) * Cconj (t21 q)))%C).
    { transitivity (t12 q * (Cconj (t21 q) * t21 q + Cconj (t22 q) * t22 q) -
                    t22 q * (t11 q * Cconj (t21 q) + t12 q * Cconj (t22 q)))%C;
        [rewrite E22, E21; ring | ring]. }
    assert (Hd21 : t21 q = (- ((t11 q * t22 q - t12 q * t21 q) * Cconj (t12 q)))%C).
    { transitivity (t21 q * (Cconj (t11 q) * t11 q + Cconj (t12 q) * t12 q) -
                    t11 q * (Cconj (t11 q) * t21 q + Cconj (t12 q) * t22 q))%C;
        [rewrite E11, E12; ring | ring]. }
    assert (Hd11 : t11 q = ((t11 q * t22 q - t12 q * t21 q) * Cconj (t22 q))%C).
    { transitivity (t11 q * (Cconj (t21 q) * t21 q + Cconj (t22 q) * t22 q) -
                    t21 q * (t11 q * Cconj (t21 q) + t12 q * Cconj (t22 q)))%C;
        [rewrite E22, E21; ring | ring]. }
    split; [| auto].
    apply RtoC_inj. rewrite <- Cmul_conj.
    rewrite Cconj_sub, !Cconj_mul.
    transitivity (((t11 q * t22 q - t12 q * t21 q) * Cconj (t22 q)) * Cconj (t11 q) +
                  (- ((t11 q * t22 q - t12 q * t21 q) * Cconj (t21 q))) * Cconj (t12 q))%C; [ring |].
    rewrite <- Hd11, <- Hd12. transitivity C1; [rewrite <- E11; ring | reflexivity]. }
  destruct Hdet as (d & Hd & D22 & D12 & D21 & D11).
  assert (F11 : (Cconj (t11 q) * t11 q + Cconj (t21 q) * t21 q)%C = C1).
  { assert (X : (Cconj (t21 q) * t21 q)%C = (Cconj (t12 q) * t12 q)%C).
    { rewrite D21. rewrite Cconj_opp, Cconj_mul, Cconj_conj.
      transitivity (d * Cconj d * (Cconj (t12 q) * t12 q))%C; [ring |].
      rewrite Cmul_conj, Hd. change (RtoC 1) with C1. ring. }
    rewrite X. exact E11. }
  assert (F22 : (Cconj (t12 q) * t12 q + Cconj (t22 q) * t22 q)%C = C1).
  { assert (Sum : ((Cconj (t11 q) * t11 q + Cconj (t21 q) * t21 q) +
       (Cconj (t12 q) * t12 q + Cconj (t22 q) * t22 q))%C = (C1 + C1)%C).
    { transitivity ((Cconj (t11 q) * t11 q + Cconj (t12 q) * t12 q) +
         (Cconj (t21 q) * t21 q + Cconj (t22 q) * t22 q))%C; [ring | rewrite E11, E22; reflexivity]. }
    rewrite F11 in Sum.
    match goal with |- ?a = _ => transitivity (C1 + a - C1)%C; [ring | rewrite Sum; ring] end. }
  assert (F12 : (Cconj (t11 q) * t12 q + Cconj (t21 q) * t22 q)%C = C0).
  { rewrite D12, D22. ring. }
  assert (F21 : (Cconj (t12 q) * t11 q + Cconj (t22 q) * t21 q)%C = C0).
  { rewrite D11, D21. ring. }
  intros x y x' y'. unfold qtop, qbot, qtrans; simpl.
  rewrite !Cconj_add, !Cconj_mul.
  transitivity ((Cconj (t11 q) * t11 q + Cconj (t21 q) * t21 q) * (Cconj x * x') +
    (Cconj (t11 q) * t12 q + Cconj (t21 q) * t22 q) * (Cconj x * y') +
    (Cconj (t12 q) * t11 q + Cconj (t22 q) * t21 q) * (Cconj y * x') +
    (Cconj (t12 q) * t12 q + Cconj (t22 q) * t22 q) * (Cconj y * y'))%C; [ring |].
  rewrite F11, F12, F21, F22. ring.
Qed.

Lemma Forall_rev_trans : forall n ops, Forall (ok n) ops -> Forall (ok n) (rev (map op_trans ops)).
Proof.
  intros n ops H. apply Forall_rev. apply Forall_map.
  eapply Forall_impl; [| exact H]. intros; apply ok_trans; auto.
Qed.
Lemma Forall_rev_unit : forall ops, Forall (fun o => quad_unit (quad_of o)) ops ->
  Forall (fun o => quad_unit (quad_of o)) (rev (map op_trans ops)).
Proof.
  intros ops H. apply Forall_rev. apply Forall_map.
  eapply Forall_impl; [| exact H]. intros [[q t] b]; simpl. apply quad_unit_trans.
Qed.

Lemma run_unitary : forall n ops, Forall (ok n) ops -> Forall (fun o => quad_unit (quad_of o)) ops ->
  unitary n (fun i j => run ops (basis j) i).
Proof.
  intros n ops Hok Hu i j Hi Hj. split.
  - rewrite run_sesq by auto.
    rewrite Csum_basis by auto. unfold basis, delta. rewrite Nat.eqb_sym.
    destruct (Nat.eqb i j); [apply Cconj_C1 | apply Cconj_C0].
  - rewrite (Csum_ext n _ (fun k => Cconj (run (rev (map op_trans ops)) (basis j) k) *
                                     run (rev (map op_trans ops)) (basis i) k)%C).
    + rewrite run_sesq by (auto using Forall_rev_trans, Forall_rev_unit).
      rewrite Csum_basis by auto. unfold basis, delta.
      destruct (Nat.eqb i j); [apply Cconj_C1 | apply Cconj_C0].
    + intros k Hk. rewrite (run_transpose_entry n ops i k), (run_transpose_entry n ops j k) by auto. ring.
Qed.

(** ** parallel_transform is the sequential run on a rail-disjoint column *)
Definition rails (idx : list (nat * nat * nat)) : list nat :=
  map (fun x => fst (fst x)) idx ++ map (fun x => snd (fst x)) idx.
Definition ops_of (el : nat -> quad) (idx : list (nat * nat * nat)) : list op :=
  map (fun x => let '(t, b, k) := x in (el k, t, b)) idx.

Lemma pt_fst : forall el idx (v : vec),
  map fst (map (fun x : nat * nat * nat => let '(t, b, k) := x in (t, t11 (el k) * v t + t21 (el k) * v b)%C) idx ++
     map (fun x : nat * nat * nat => let '(t, b, k) := x in (b, t12 (el k) * v t + t22 (el k) * v b)%C) idx) = rails idx.
Proof.
  intros. unfold rails. rewrite map_app, !map_map.
  f_equal; apply map_ext; intros [[t b] k]; reflexivity.
Qed.
Lemma pt_top : forall el idx v t b k, NoDup (rails idx) -> In (t, b, k) idx ->
  parallel_transform el idx v t = qtop (el k) (v t) (v b).
Proof.
  intros el idx v t b k Hnd Hin. unfold parallel_transform. apply assign_in.
  - rewrite pt_fst; auto.
  - apply in_or_app; left. apply in_map_iff. exists (t, b, k); auto.
Qed.
Lemma pt_bot : forall el idx v t b k, NoDup (rails idx) -> In (t, b, k) idx ->
  parallel_transform el idx v b = qbot (el k) (v t) (v b).
Proof.
  intros el idx v t b k Hnd Hin. unfold parallel_transform. apply assign_in.
  - rewrite pt_fst; auto.
  - apply in_or_app; right. apply in_map_iff. exists (t, b, k); auto.
Qed.
Lemma pt_other : forall el idx v j, ~ In j (rails idx) -> parallel_transform el idx v j = v j.
Proof. intros. unfold parallel_transform. apply assign_notin. rewrite pt_fst; auto. Qed.

Lemma rails_cons : forall t b k idx j, In j (rails ((t, b, k) :: idx)) <-> j = t \/ j = b \/ In j (rails idx).
Proof.
  intros. unfold rails; simpl. rewrite !in_app_iff. simpl. intuition.
Qed.
Lemma rails_nodup_cons : forall t b k idx, NoDup (rails ((t, b, k) :: idx)) ->
  t <> b /\ ~ In t (rails idx) /\ ~ In b (rails idx) /\ NoDup (rails idx).
Proof.
  intros t b k idx H. unfold rails in *; simpl in *.
  inversion H as [| x l Hni Hnd]; subst.
  rewrite in_app_iff in Hni; simpl in Hni.
  assert (Hb := NoDup_remove_2 _ _ _ Hnd). assert (Hr := NoDup_remove_1 _ _ _ Hnd).
  rewrite in_app_iff in Hb. rewrite !in_app_iff.
  repeat split; auto; intro E; subst; tauto.
Qed.
Lemma rails_in_top : forall idx t b k, In (t, b, k) idx -> In t (rails idx).
Proof. intros. unfold rails. apply in_or_app; left. apply in_map_iff. exists (t, b, k); auto. Qed.
Lemma rails_in_bot : forall idx t b k, In (t, b, k) idx -> In b (rails idx).
Proof. intros. unfold rails. apply in_or_app; right. apply in_map_iff. exists (t, b, k); auto. Qed.
Lemma rails_inv : forall idx j, In j (rails idx) -> exists t b k, In (t, b, k) idx /\ (j = t \/ j = b).
Proof.
  intros idx j H. unfold rails in H. apply in_app_or in H.
  destruct H as [H | H]; apply in_map_iff in H; destruct H as [[[t b] k] [E H]]; simpl in E;
    exists t, b, k; auto.
Qed.

Lemma parallel_transform_run : forall el idx v, NoDup (rails idx) ->
  parallel_transform el idx v = run (ops_of el idx) v.
Proof.
  intros el idx. induction idx as [| [[t b] k] idx IH]; intros v Hnd; [reflexivity |].
  destruct (rails_nodup_cons _ _ _ _ Hnd) as (Htb & Ht & Hb & Hnd').
  change (ops_of el ((t, b, k) :: idx)) with ((el k, t, b) :: ops_of el idx).
  rewrite run_cons, <- IH by auto.
  apply functional_extensionality; intro j.
  destruct (in_dec Nat.eq_dec j (rails ((t, b, k) :: idx))) as [Hj | Hj].
  - apply rails_cons in Hj. destruct Hj as [Hj | [Hj | Hj]]; [subst j | subst j |].
    + rewrite (pt_top el _ v t b k) by (auto; left; auto).
      rewrite pt_other by auto. rewrite apply_op_top; auto.
    + rewrite (pt_bot el _ v t b k) by (auto; left; auto).
      rewrite pt_other by auto. rewrite apply_op_bot; auto.
    + destruct (rails_inv _ _ Hj) as (t' & b' & k' & Hin & Hj').
      assert (Hne : forall r, In r (rails idx) -> r <> t /\ r <> b) by (intros r Hr; split; intro; subst; auto).
      destruct (Hne t' (rails_in_top _ _ _ _ Hin)). destruct (Hne b' (rails_in_bot _ _ _ _ Hin)).
      destruct Hj' as [E | E]; subst j.
      * rewrite (pt_top el _ v t' b' k'), (pt_top el _ _ t' b' k') by (auto; right; auto).
        rewrite !apply_op_other by auto. reflexivity.
      * rewrite (pt_bot el _ v t' b' k'), (pt_bot el _ _ t' b' k') by (auto; right; auto).
        rewrite !apply_op_other by auto. reflexivity.
  - rewrite pt_other by auto. rewrite rails_cons in Hj.
    rewrite pt_other by tauto. rewrite apply_op_other by tauto. reflexivity.
Qed.

Lemma fold_transform_run : forall el idxs v, Forall (fun i => NoDup (rails i)) idxs ->
  fold_left (fun v idx => parallel_transform el idx v) idxs v = run (concat (map (ops_of el) idxs)) v.
Proof.
  induction idxs as [| i idxs IH]; intros v H; [reflexivity |].
  inversion H; subst. simpl. rewrite run_app, <- parallel_transform_run by auto. apply IH; auto.
Qed.
