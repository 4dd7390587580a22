(** Lemmas about a single coupling node: unitarity and contraction of the 2x2 elements. *)
From Coq Require Import Reals Lra Lia Psatz List ZArith.
From Verif Require Import Cx Arr Spec_circuit Model_coupling Model_forward.
Import ListNotations.
Local Open Scope R_scope.

(** The elements act as (x, y) |-> (t11 x + t21 y, t12 x + t22 y). *)
Definition qtop (q : quad) (x y : C) : C := (t11 q * x + t21 q * y)%C.
Definition qbot (q : quad) (x y : C) : C := (t12 q * x + t22 q * y)%C.

Definition quad_unit (q : quad) : Prop := forall x y x' y',
  (Cconj (qtop q x y) * qtop q x' y' + Cconj (qbot q x y) * qbot q x' y')%C
  = (Cconj x * x' + Cconj y * y')%C.
Definition quad_contr (q : quad) : Prop := forall x y,
  Cn2 (qtop q x y) + Cn2 (qbot q x y) <= Cn2 x + Cn2 y.
Definition qtrans (q : quad) : quad := mkQuad (t11 q) (t21 q) (t12 q) (t22 q).

Lemma quad_unit_power : forall q, quad_unit q -> forall x y,
  Cn2 (qtop q x y) + Cn2 (qbot q x y) = Cn2 x + Cn2 y.
Proof.
  intros q H x y. specialize (H x y x y).
  apply RtoC_inj. rewrite !RtoC_add, <- !Cmul_conj.
  transitivity (Cconj (qtop q x y) * qtop q x y + Cconj (qbot q x y) * qbot q x y)%C; [ring |].
  rewrite H. ring.
Qed.

(** The ideal directional coupler [[a, i b], [i b, a]]. *)
Definition dctop (a b : R) (x y : C) : C := (RtoC a * x + Ci * RtoC b * y)%C.
Definition dcbot (a b : R) (x y : C) : C := (Ci * RtoC b * x + RtoC a * y)%C.

Lemma dc_sesq : forall a b, a * a + b * b = 1 -> forall x y x' y',
  (Cconj (dctop a b x y) * dctop a b x' y' + Cconj (dcbot a b x y) * dcbot a b x' y')%C
  = (Cconj x * x' + Cconj y * y')%C.
Proof.
  intros a b H x y x' y'.
  transitivity (RtoC (a * a + b * b) * (Cconj x * x' + Cconj y * y'))%C.
  - unfold dctop, dcbot. apply C_eq; simpl; ring.
  - rewrite H. ceq.
Qed.
Lemma dc_power : forall a b, a * a + b * b = 1 -> forall x y,
  Cn2 (dctop a b x y) + Cn2 (dcbot a b x y) = Cn2 x + Cn2 y.
Proof.
  intros a b H x y. transitivity ((a * a + b * b) * (Cn2 x + Cn2 y)).
  - unfold dctop, dcbot, Cn2; simpl; ring.
  - rewrite H; ring.
Qed.

Lemma unit_sesq : forall e x y, Cn2 e = 1 -> (Cconj (e * x) * (e * y))%C = (Cconj x * y)%C.
Proof.
  intros e x y H. rewrite Cconj_mul.
  transitivity (e * Cconj e * (Cconj x * y))%C; [ring |]. rewrite Cmul_conj, H. ceq.
Qed.

Lemma cossin2 : forall t, cos t * cos t + sin t * sin t = 1.
Proof. intros; pose proof (sin2_cos2 t) as H; unfold Rsqr in H; lra. Qed.
Lemma Cn2_Cexp0 : forall t, Cn2 (Cexp (mkC 0 t)) = 1.
Proof. intros; rewrite Cexp_imag; apply Cn2_cis. Qed.
Lemma Cn2_Cexp_le1 : forall a t, a <= 0 -> Cn2 (Cexp (mkC a t)) <= 1.
Proof.
  intros a t H. rewrite Cexp_norm; simpl. rewrite <- exp_plus.
  rewrite <- exp_0. destruct H as [H | H].
  - left; apply exp_increasing; lra.
  - right; f_equal; lra.
Qed.

(** Every node's elements factor as: input phases, left coupler, middle phase (top or bottom arm),
    right coupler, output phases. *)
Definition factored (q : quad) (err : R * R) (p1 p2 e1 e2 r1 r2 : C) : Prop := forall x y,
  qtop q x y = (r1 * dctop (cos (PI/4 + snd err)) (sin (PI/4 + snd err))
     (e1 * dctop (cos (PI/4 + fst err)) (sin (PI/4 + fst err)) (p1 * x) (p2 * y))
     (e2 * dcbot (cos (PI/4 + fst err)) (sin (PI/4 + fst err)) (p1 * x) (p2 * y)))%C /\
  qbot q x y = (r2 * dcbot (cos (PI/4 + snd err)) (sin (PI/4 + snd err))
     (e1 * dctop (cos (PI/4 + fst err)) (sin (PI/4 + fst err)) (p1 * x) (p2 * y))
     (e2 * dcbot (cos (PI/4 + fst err)) (sin (PI/4 + fst err)) (p1 * x) (p2 * y)))%C.

Lemma factored_unit : forall q err p1 p2 e1 e2 r1 r2,
  factored q err p1 p2 e1 e2 r1 r2 ->
  Cn2 p1 = 1 -> Cn2 p2 = 1 -> Cn2 e1 = 1 -> Cn2 e2 = 1 -> Cn2 r1 = 1 -> Cn2 r2 = 1 -> quad_unit q.
Proof.
  intros q err p1 p2 e1 e2 r1 r2 HF Hp1 Hp2 He1 He2 Hr1 Hr2 x y x' y'.
  destruct (HF x y) as [E1 E2]; destruct (HF x' y') as [E3 E4].
  rewrite E1, E2, E3, E4. rewrite !unit_sesq by auto.
  rewrite dc_sesq by apply cossin2. rewrite !unit_sesq by auto.
  rewrite dc_sesq by apply cossin2. rewrite !unit_sesq by auto. reflexivity.
Qed.

Lemma factored_contr : forall q err p1 p2 e1 e2 r1 r2,
  factored q err p1 p2 e1 e2 r1 r2 ->
  Cn2 p1 <= 1 -> Cn2 p2 <= 1 -> Cn2 e1 <= 1 -> Cn2 e2 <= 1 -> Cn2 r1 <= 1 -> Cn2 r2 <= 1 -> quad_contr q.
Proof.
  intros q err p1 p2 e1 e2 r1 r2 HF Hp1 Hp2 He1 He2 Hr1 Hr2 x y.
  destruct (HF x y) as [E1 E2]. rewrite E1, E2. rewrite !Cn2_mul.
  assert (Hm : forall a z, 0 <= z -> a <= 1 -> a * z <= z) by (intros; nra).
  match goal with |- Cn2 r1 * Cn2 ?T + Cn2 r2 * Cn2 ?B <= _ =>
    apply Rle_trans with (Cn2 T + Cn2 B);
      [apply Rplus_le_compat; apply Hm; auto using Cn2_nonneg |] end.
  rewrite dc_power by apply cossin2. rewrite !Cn2_mul.
  match goal with |- Cn2 e1 * Cn2 ?T + Cn2 e2 * Cn2 ?B <= _ =>
    apply Rle_trans with (Cn2 T + Cn2 B);
      [apply Rplus_le_compat; apply Hm; auto using Cn2_nonneg |] end.
  rewrite dc_power by apply cossin2. rewrite !Cn2_mul.
  apply Rplus_le_compat; apply Hm; auto using Cn2_nonneg.
Qed.

Lemma Cexp_0 : forall z, z = C0 -> Cexp z = C1.
Proof. intros z H; subst. unfold Cexp; simpl. rewrite exp_0, cis_0. ceq. Qed.

(** Forward elements, every style. *)
Lemma mzi_factored : forall s back theta phi err ls,
  exists p1 p2 e1 e2 r1 r2, factored (parallel_mzi s back theta phi err ls) err p1 p2 e1 e2 r1 r2 /\
   (ls = (0, 0) -> Cn2 p1 = 1 /\ Cn2 p2 = 1 /\ Cn2 e1 = 1 /\ Cn2 e2 = 1 /\ Cn2 r1 = 1 /\ Cn2 r2 = 1) /\
   (fst ls <= 0 -> snd ls <= 0 ->
     Cn2 p1 <= 1 /\ Cn2 p2 <= 1 /\ Cn2 e1 <= 1 /\ Cn2 e2 <= 1 /\ Cn2 r1 <= 1 /\ Cn2 r2 <= 1).
Proof.
  intros s back theta phi err ls.
  assert (Hln : 0 < ln 10) by (rewrite <- ln_1; apply ln_increasing; lra).
  assert (HilZ : ls = (0,0) -> ln 10 * fst ls / 20 = 0 /\ ln 10 * snd ls / 20 = 0)
    by (intro E; subst; simpl; split; field).
  assert (HilN : fst ls <= 0 -> snd ls <= 0 -> ln 10 * fst ls / 20 <= 0 /\ ln 10 * snd ls / 20 <= 0)
    by (intros; split; nra).
  set (il := ln 10 * fst ls / 20) in *. set (ir := ln 10 * snd ls / 20) in *.
  assert (Hc : forall b : bool, b2R b = 0 \/ b2R b = 1) by (intros []; simpl; auto).
  assert (H1 : Cn2 C1 = 1) by apply Cn2_C1.
  assert (H1' : Cn2 C1 <= 1) by (rewrite Cn2_C1; lra).
  destruct s; destruct back;
  [ exists C1, C1, (Cexp (mkC il theta)), C1, (Cexp (mkC ir phi)), C1
  | exists (Cexp (mkC ir phi)), C1, (Cexp (mkC il theta)), C1, C1, C1
  | exists C1, C1, C1, (Cexp (mkC il theta)), C1, (Cexp (mkC ir phi))
  | exists C1, (Cexp (mkC ir phi)), C1, (Cexp (mkC il theta)), C1, C1
  | exists (Cexp (mkC ir ((phi - theta)/2))), (Cexp (mkC ir ((- phi - theta)/2))),
           (Cexp (mkC il theta)), C1, C1, C1
  | exists (Cexp (mkC ir ((- phi - theta)/2))), (Cexp (mkC ir ((phi - theta)/2))),
           (Cexp (mkC il theta)), C1, C1, C1
  | exists (Cexp (mkC ir (phi - theta/2))), (Cexp (mkC ir (phi - theta/2))), (Cexp (mkC il theta)), C1, C1, C1
  | exists (Cexp (mkC ir (phi - theta/2))), (Cexp (mkC ir (phi - theta/2))), (Cexp (mkC il theta)), C1, C1, C1 ];
  (split;
   [ intros x y; unfold parallel_mzi, mzi_terms; fold il ir; cbn [b2R];
     repeat match goal with
     | |- context [mkC (ir * ?a) (phi * ?b)] =>
         first [ replace (mkC (ir * a) (phi * b)) with (mkC ir phi) by (apply C_eq; simpl; ring)
               | replace (mkC (ir * a) (phi * b)) with C0 by (apply C_eq; simpl; ring) ]
     end;
     try rewrite (Cexp_0 C0 eq_refl);
     try replace ((- phi - theta) / 2 + phi * 1) with ((phi - theta) / 2) by field;
     try replace ((phi - theta) / 2 - phi * 1) with ((- phi - theta) / 2) by field;
     try replace ((- phi - theta) / 2 + phi * 0) with ((- phi - theta) / 2) by field;
     try replace ((phi - theta) / 2 - phi * 0) with ((phi - theta) / 2) by field;
     unfold qtop, qbot, dctop, dcbot; cbn [t11 t12 t21 t22];
     set (E := Cexp (mkC il theta));
     split; rewrite ?RtoC_opp, ?RtoC_mul;
     ring [Ci_sq]
   | split;
     [ intro E; destruct (HilZ E) as [El Er]; rewrite ?El, ?Er; repeat split; auto using Cn2_Cexp0
     | intros Hl Hr; destruct (HilN Hl Hr) as [El Er]; repeat split; auto using Cn2_Cexp_le1 ] ]).
Qed.

Lemma parallel_mzi_unit : forall s back theta phi err, quad_unit (parallel_mzi s back theta phi err (0, 0)).
Proof.
  intros. destruct (mzi_factored s back theta phi err (0, 0))
    as (p1 & p2 & e1 & e2 & r1 & r2 & HF & HU & _).
  destruct (HU eq_refl) as (H1 & H2 & H3 & H4 & H5 & H6).
  eapply factored_unit; eauto.
Qed.
Lemma parallel_mzi_contr : forall s back theta phi err ls, fst ls <= 0 -> snd ls <= 0 ->
  quad_contr (parallel_mzi s back theta phi err ls).
Proof.
  intros s back theta phi err ls Hl Hr. destruct (mzi_factored s back theta phi err ls)
    as (p1 & p2 & e1 & e2 & r1 & r2 & HF & _ & HU).
  destruct (HU Hl Hr) as (H1 & H2 & H3 & H4 & H5 & H6).
  eapply factored_contr; eauto.
Qed.
