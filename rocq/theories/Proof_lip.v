(** How far the output of a mesh moves when its phases move. *)
From Coq Require Import Reals Lra Lia Psatz List ZArith Bool FunctionalExtensionality.
From Verif Require Import Cx Arr Spec_circuit Model_coupling Model_forward Spec_mesh Proof_node Proof_mesh Proof_forward Proof_forward2.
Import ListNotations.
Local Open Scope R_scope.

(** ** The norm sqrt(power) and its triangle inequality *)
Definition nrm (n : nat) (v : vec) : R := sqrt (power n v).
Lemma power_pos : forall n v, 0 <= power n v.
Proof. intros. unfold power. apply Rsum_nonneg. intros. apply Cn2_nonneg. Qed.
Lemma nrm_pos : forall n v, 0 <= nrm n v.
Proof. intros. apply sqrt_pos. Qed.
Lemma nrm_sq : forall n v, nrm n v * nrm n v = power n v.
Proof. intros. apply sqrt_sqrt, power_pos. Qed.
Lemma Rcs : forall n (f g : nat -> R), (Rsum n (fun i => f i * g i)) ^ 2 <= Rsum n (fun i => f i ^ 2) * Rsum n (fun i => g i ^ 2).
Proof.
  induction n as [| n IH]; intros f g; cbn [Rsum]; [lra |].
  specialize (IH f g). set (a := Rsum n (fun i => f i * g i)) in *.
  set (F := Rsum n (fun i => f i ^ 2)) in *. set (G := Rsum n (fun i => g i ^ 2)) in *.
  assert (HF : 0 <= F) by (apply Rsum_nonneg; intros; nra). assert (HG : 0 <= G) by (apply Rsum_nonneg; intros; nra).
  assert (K : 2 * a * (f n * g n) <= F * g n ^ 2 + G * f n ^ 2).
  { assert (Q : (2 * a * (f n * g n)) ^ 2 <= (F * g n ^ 2 + G * f n ^ 2) ^ 2).
    { assert (X : (2 * a * (f n * g n)) ^ 2 = 4 * a ^ 2 * (f n * g n) ^ 2) by ring.
      assert (Y : 4 * a ^ 2 * (f n * g n) ^ 2 <= 4 * (F * G) * (f n * g n) ^ 2) by (apply Rmult_le_compat_r; [nra | lra]).
      assert (Z : (F * g n ^ 2 + G * f n ^ 2) ^ 2 - 4 * (F * G) * (f n * g n) ^ 2 = (F * g n ^ 2 - G * f n ^ 2) ^ 2) by ring.
      pose proof (pow2_ge_0 (F * g n ^ 2 - G * f n ^ 2)). lra. }
    assert (P : 0 <= F * g n ^ 2 + G * f n ^ 2).
    { apply Rplus_le_le_0_compat; apply Rmult_le_pos; auto; apply pow2_ge_0. }
    set (u := 2 * a * (f n * g n)) in *. set (w := F * g n ^ 2 + G * f n ^ 2) in *.
    destruct (Rle_dec u w); [assumption |]. exfalso. assert (w < u) by lra. nra. }
  nra.
Qed.
Lemma power_re : forall n v, power n v = Rsum n (fun i => re (v i) ^ 2) + Rsum n (fun i => im (v i) ^ 2).
Proof. intros. unfold power. rewrite <- Rsum_add. apply Rsum_ext; intros. unfold Cn2. ring. Qed.
Lemma nrm_tri : forall n u v, nrm n (fun i => u i + v i)%C <= nrm n u + nrm n v.
Proof.
  intros n u v. pose proof (nrm_pos n u). pose proof (nrm_pos n v). pose proof (nrm_pos n (fun i => u i + v i)%C).
  assert (K : power n (fun i => u i + v i)%C <= (nrm n u + nrm n v) ^ 2).
  { set (x := Rsum n (fun i => re (u i) * re (v i) + im (u i) * im (v i))).
    assert (E : power n (fun i => u i + v i)%C = power n u + power n v + 2 * x).
    { unfold power, x. rewrite <- Rsum_scal, <- !Rsum_add. apply Rsum_ext; intros. unfold Cn2; cbn [re im Cadd]. ring. }
    assert (Cx : x ^ 2 <= power n u * power n v).
    { unfold x. rewrite Rsum_add, !power_re.
      pose proof (Rcs n (fun i => re (u i)) (fun i => re (v i))) as A. pose proof (Rcs n (fun i => im (u i)) (fun i => im (v i))) as B.
      cbv beta in A, B.
      set (a := Rsum n (fun i => re (u i) * re (v i))) in *. set (b := Rsum n (fun i => im (u i) * im (v i))) in *.
      assert (P1 : 0 <= Rsum n (fun i => re (u i) ^ 2)) by (apply Rsum_nonneg; intros; apply pow2_ge_0).
      assert (P2 : 0 <= Rsum n (fun i => im (u i) ^ 2)) by (apply Rsum_nonneg; intros; apply pow2_ge_0).
      assert (P3 : 0 <= Rsum n (fun i => re (v i) ^ 2)) by (apply Rsum_nonneg; intros; apply pow2_ge_0).
      assert (P4 : 0 <= Rsum n (fun i => im (v i) ^ 2)) by (apply Rsum_nonneg; intros; apply pow2_ge_0).
      set (p1 := Rsum n (fun i => re (u i) ^ 2)) in *. set (p2 := Rsum n (fun i => im (u i) ^ 2)) in *.
      set (p3 := Rsum n (fun i => re (v i) ^ 2)) in *. set (p4 := Rsum n (fun i => im (v i) ^ 2)) in *.
      clearbody a b p1 p2 p3 p4.
      assert (K : 2 * a * b <= p1 * p4 + p2 * p3).
      { assert (Q : (2 * a * b) ^ 2 <= (p1 * p4 + p2 * p3) ^ 2).
        { assert (Y : a ^ 2 * b ^ 2 <= (p1 * p3) * (p2 * p4)) by (apply Rmult_le_compat; auto; apply pow2_ge_0).
          pose proof (pow2_ge_0 (p1 * p4 - p2 * p3)). nra. }
        assert (P : 0 <= p1 * p4 + p2 * p3) by (apply Rplus_le_le_0_compat; apply Rmult_le_pos; auto).
        set (s := 2 * a * b) in *. set (w := p1 * p4 + p2 * p3) in *.
        destruct (Rle_dec s w); [assumption |]. exfalso. assert (w < s) by lra. nra. }
      nra. }
    assert (Hx : x <= nrm n u * nrm n v).
    { rewrite <- (nrm_sq n u), <- (nrm_sq n v) in Cx. assert (0 <= nrm n u * nrm n v) by (apply Rmult_le_pos; auto).
      destruct (Rle_dec x (nrm n u * nrm n v)); [assumption |]. exfalso. nra. }
    rewrite E, <- (nrm_sq n u), <- (nrm_sq n v). nra. }
  rewrite <- nrm_sq in K. set (s := nrm n (fun i => u i + v i)%C) in *. set (t := nrm n u + nrm n v) in *.
  destruct (Rle_dec s t); [assumption |]. exfalso. assert (0 <= t) by (unfold t; lra). nra.
Qed.
Lemma nrm_le : forall n u v k, 0 <= k -> power n u <= k ^ 2 * power n v -> nrm n u <= k * nrm n v.
Proof.
  intros n u v k Hk H. rewrite <- (nrm_sq n u), <- (nrm_sq n v) in H. pose proof (nrm_pos n u). pose proof (nrm_pos n v).
  assert (0 <= k * nrm n v) by (apply Rmult_le_pos; auto).
  destruct (Rle_dec (nrm n u) (k * nrm n v)); [assumption |]. exfalso. nra.
Qed.
Lemma nrm_le_inv : forall n u v k, 0 <= k -> nrm n u <= k * nrm n v -> power n u <= k ^ 2 * power n v.
Proof.
  intros n u v k Hk H. rewrite <- (nrm_sq n u), <- (nrm_sq n v). pose proof (nrm_pos n u). pose proof (nrm_pos n v).
  assert (0 <= k * nrm n v) by (apply Rmult_le_pos; auto). nra.
Qed.

(** ** One node *)
Section Node.
Variable err : R * R.
Let c0 := cos (PI / 4 + fst err). Let s0 := sin (PI / 4 + fst err).
Let c1 := cos (PI / 4 + snd err). Let s1 := sin (PI / 4 + snd err).
Definition facT (p1 p2 e1 e2 r1 : C) (x y : C) : C := (r1 * dctop c1 s1 (e1 * dctop c0 s0 (p1 * x) (p2 * y)) (e2 * dcbot c0 s0 (p1 * x) (p2 * y)))%C.
Definition facB (p1 p2 e1 e2 r2 : C) (x y : C) : C := (r2 * dcbot c1 s1 (e1 * dctop c0 s0 (p1 * x) (p2 * y)) (e2 * dcbot c0 s0 (p1 * x) (p2 * y)))%C.
Lemma fac_bound : forall P E Q p1 p2 e1 e2 r1 r2 x y,
  Cn2 p1 <= P -> Cn2 p2 <= P -> Cn2 e1 <= E -> Cn2 e2 <= E -> Cn2 r1 <= Q -> Cn2 r2 <= Q -> 0 <= P -> 0 <= E -> 0 <= Q ->
  Cn2 (facT p1 p2 e1 e2 r1 x y) + Cn2 (facB p1 p2 e1 e2 r2 x y) <= Q * (E * (P * (Cn2 x + Cn2 y))).
Proof.
  intros P E Q p1 p2 e1 e2 r1 r2 x y Hp1 Hp2 He1 He2 Hr1 Hr2 HP HE HQ. unfold facT, facB. rewrite !(Cn2_mul r1), !(Cn2_mul r2).
  set (A := dctop c0 s0 (p1 * x) (p2 * y)). set (B := dcbot c0 s0 (p1 * x) (p2 * y)).
  assert (H1 : Cn2 A + Cn2 B <= P * (Cn2 x + Cn2 y)).
  { unfold A, B. rewrite dc_power by apply cossin2. rewrite !Cn2_mul. pose proof (Cn2_nonneg x). pose proof (Cn2_nonneg y). nra. }
  assert (H2 : Cn2 (dctop c1 s1 (e1 * A) (e2 * B)) + Cn2 (dcbot c1 s1 (e1 * A) (e2 * B)) <= E * (Cn2 A + Cn2 B)).
  { rewrite dc_power by apply cossin2. rewrite !Cn2_mul. pose proof (Cn2_nonneg A). pose proof (Cn2_nonneg B). nra. }
  set (U := dctop c1 s1 (e1 * A) (e2 * B)) in *. set (V := dcbot c1 s1 (e1 * A) (e2 * B)) in *.
  assert (H3 : Cn2 r1 * Cn2 U + Cn2 r2 * Cn2 V <= Q * (Cn2 U + Cn2 V)).
  { pose proof (Cn2_nonneg U). pose proof (Cn2_nonneg V). nra. }
  eapply Rle_trans; [exact H3 |]. apply Rmult_le_compat_l; [exact HQ |].
  eapply Rle_trans; [exact H2 |]. apply Rmult_le_compat_l; assumption.
Qed.
End Node.

Lemma chord : forall a b, Cn2 (cis a - cis b)%C <= (a - b) ^ 2.
Proof.
  intros a b. assert (E : Cn2 (cis a - cis b)%C = 2 - 2 * cos (a - b)).
  { unfold Cn2, cis. cbn [re im Csub]. rewrite cos_minus. pose proof (cossin2 a). pose proof (cossin2 b). nra. }
  rewrite E. assert (H : cos (a - b) = 1 - 2 * sin ((a - b) / 2) ^ 2).
  { replace (a - b) with (2 * ((a - b) / 2)) at 1 by field. rewrite cos_2a_sin. ring. }
  rewrite H. set (h := (a - b) / 2). replace (a - b) with (2 * h) by (unfold h; field).
  assert (K : sin h ^ 2 <= h ^ 2).
  { destruct (Rle_dec 0 h) as [Hh | Hh].
    - pose proof (SIN_bound h). destruct (Rle_dec h 1).
      + assert (0 <= sin h). { apply sin_ge_0; [assumption |]. pose proof PI_RGT_0. pose proof PI2_1. lra. }
        assert (sin h <= h). { destruct Hh as [Hh | <-]; [left; apply sin_lt_x; assumption | rewrite sin_0; lra]. }
        nra.
      + nra.
    - pose proof (SIN_bound h). destruct (Rle_dec (-1) h).
      + assert (sin (- h) <= - h) by (left; apply sin_lt_x; lra). rewrite sin_neg in H1.
        assert (0 <= sin (- h)). { apply sin_ge_0; [lra |]. pose proof PI2_1. lra. } rewrite sin_neg in H2. nra.
      + nra. }
  nra.
Qed.
Lemma chord_exp : forall l a b, l <= 0 -> Cn2 (Cexp (mkC l a) - Cexp (mkC l b))%C <= (a - b) ^ 2.
Proof.
  intros l a b Hl. unfold Cexp. cbn [re im]. rewrite !Cscal_RtoC.
  replace (RtoC (exp l) * cis a - RtoC (exp l) * cis b)%C with (RtoC (exp l) * (cis a - cis b))%C by ring.
  rewrite Cn2_mul, Cn2_RtoC. pose proof (chord a b) as K. pose proof (Cn2_nonneg (cis a - cis b)%C).
  assert (E : exp l <= 1). { rewrite <- exp_0. destruct Hl as [Hl | ->]; [left; apply exp_increasing; exact Hl | right; reflexivity]. }
  pose proof (exp_pos l). assert (E2 : exp l * exp l <= 1) by nra.
  apply Rle_trans with (1 * Cn2 (cis a - cis b)%C); [apply Rmult_le_compat_r; assumption | lra].
Qed.

(** Every node as input phases (phi), left coupler, middle phases (theta), right coupler, output phases (phi). *)
Definition chords (F : R -> C) : Prop := forall a b, Cn2 (F a) <= 1 /\ Cn2 (F a - F b)%C <= (a - b) ^ 2.
Lemma chords_1 : chords (fun _ => C1).
Proof. intros a b. rewrite Cn2_C1. replace (C1 - C1)%C with C0 by ring. rewrite Cn2_C0. pose proof (pow2_ge_0 (a - b)). lra. Qed.
Lemma chords_exp : forall l, l <= 0 -> chords (fun t => Cexp (mkC l t)).
Proof. intros l H a b. split; [apply Cn2_Cexp_le1; exact H | apply chord_exp; exact H]. Qed.
Lemma chords_half : forall l, l <= 0 -> chords (fun t => Cexp (mkC l (t / 2))).
Proof. intros l H a b. split; [apply Cn2_Cexp_le1; exact H |]. eapply Rle_trans; [apply chord_exp; exact H |]. replace (a / 2 - b / 2) with ((a - b) / 2) by field. pose proof (pow2_ge_0 (a - b)). replace (((a - b) / 2) ^ 2) with ((a - b) ^ 2 / 4) by field. lra. Qed.
Lemma chords_mhalf : forall l, l <= 0 -> chords (fun t => Cexp (mkC l (- t / 2))).
Proof. intros l H a b. split; [apply Cn2_Cexp_le1; exact H |]. eapply Rle_trans; [apply chord_exp; exact H |]. pose proof (pow2_ge_0 (a - b)). replace ((- a / 2 - - b / 2) ^ 2) with ((a - b) ^ 2 / 4) by field. lra. Qed.
Lemma mzi_phases : forall s back err ls, fst ls <= 0 -> snd ls <= 0 ->
  exists P1 P2 E1 E2 R1 R2 : R -> C, (forall theta phi, factored (parallel_mzi s back theta phi err ls) err (P1 phi) (P2 phi) (E1 theta) (E2 theta) (R1 phi) (R2 phi)) /\
    chords P1 /\ chords P2 /\ chords E1 /\ chords E2 /\ chords R1 /\ chords R2 /\
    ((forall a, R1 a = C1 /\ R2 a = C1) \/ (forall a, P1 a = C1 /\ P2 a = C1)).
Proof.
  intros s back err ls Hl Hr.
  assert (Hln : 0 < ln 10) by (rewrite <- ln_1; apply ln_increasing; lra).
  assert (HilN : ln 10 * fst ls / 20 <= 0 /\ ln 10 * snd ls / 20 <= 0) by (split; nra). destruct HilN as [Hil Hir].
  set (il := ln 10 * fst ls / 20) in *. set (ir := ln 10 * snd ls / 20) in *.
  assert (Esplit : forall a b c, Cexp (mkC (a + 0) (b + c)) = (Cexp (mkC a b) * Cexp (mkC 0 c))%C).
  { intros a b c. rewrite <- Cexp_add. reflexivity. }
  assert (Esplit' : forall a b c d, b = c + d -> Cexp (mkC a b) = (Cexp (mkC a c) * Cexp (mkC 0 d))%C).
  { intros a b c d ->. rewrite <- Esplit. do 2 f_equal. ring. }
  destruct s; destruct back;
  [ exists (fun _ => C1), (fun _ => C1), (fun t => Cexp (mkC il t)), (fun _ => C1), (fun f => Cexp (mkC ir f)), (fun _ => C1)
  | exists (fun f => Cexp (mkC ir f)), (fun _ => C1), (fun t => Cexp (mkC il t)), (fun _ => C1), (fun _ => C1), (fun _ => C1)
  | exists (fun _ => C1), (fun _ => C1), (fun _ => C1), (fun t => Cexp (mkC il t)), (fun _ => C1), (fun f => Cexp (mkC ir f))
  | exists (fun _ => C1), (fun f => Cexp (mkC ir f)), (fun _ => C1), (fun t => Cexp (mkC il t)), (fun _ => C1), (fun _ => C1)
  | exists (fun f => Cexp (mkC ir (f / 2))), (fun f => Cexp (mkC ir (- f / 2))), (fun t => Cexp (mkC il (t / 2))), (fun t => Cexp (mkC 0 (- t / 2))), (fun _ => C1), (fun _ => C1)
  | exists (fun f => Cexp (mkC ir (- f / 2))), (fun f => Cexp (mkC ir (f / 2))), (fun t => Cexp (mkC il (t / 2))), (fun t => Cexp (mkC 0 (- t / 2))), (fun _ => C1), (fun _ => C1)
  | exists (fun f => Cexp (mkC ir f)), (fun f => Cexp (mkC ir f)), (fun t => Cexp (mkC il (t / 2))), (fun t => Cexp (mkC 0 (- t / 2))), (fun _ => C1), (fun _ => C1)
  | exists (fun f => Cexp (mkC ir f)), (fun f => Cexp (mkC ir f)), (fun t => Cexp (mkC il (t / 2))), (fun t => Cexp (mkC 0 (- t / 2))), (fun _ => C1), (fun _ => C1) ];
  (split; [| split; [(first [apply chords_1 | apply chords_exp; lra | apply chords_half; lra | apply chords_mhalf; lra]) | split; [(first [apply chords_1 | apply chords_exp; lra | apply chords_half; lra | apply chords_mhalf; lra]) | split; [(first [apply chords_1 | apply chords_exp; lra | apply chords_half; lra | apply chords_mhalf; lra]) | split; [(first [apply chords_1 | apply chords_exp; lra | apply chords_half; lra | apply chords_mhalf; lra]) | split; [(first [apply chords_1 | apply chords_exp; lra | apply chords_half; lra | apply chords_mhalf; lra]) | split; [(first [apply chords_1 | apply chords_exp; lra | apply chords_half; lra | apply chords_mhalf; lra]) | first [left; intro; split; reflexivity | right; intro; split; reflexivity]]]]]]]]);
  intros theta phi x y; unfold parallel_mzi, mzi_terms; fold il ir; cbn [b2R];
     repeat match goal with
     | |- context [mkC (ir * ?a) (phi * ?b)] =>
         first [ replace (mkC (ir * a) (phi * b)) with (mkC ir phi) by (apply C_eq; simpl; ring)
               | replace (mkC (ir * a) (phi * b)) with C0 by (apply C_eq; simpl; ring) ]
     end;
     try rewrite (Cexp_0 C0 eq_refl);
     try replace ((- phi - theta) / 2 + phi * 1) with ((phi - theta) / 2) by field;
     try replace ((phi - theta) / 2 - phi * 1) with ((- phi - theta) / 2) by field;
     try replace ((- phi - theta) / 2 + phi * 0) with ((- phi - theta) / 2) by field;
     try replace ((phi - theta) / 2 - phi * 0) with ((phi - theta) / 2) by field;
     unfold qtop, qbot, dctop, dcbot; cbn [t11 t12 t21 t22].
  1-4: set (E := Cexp (mkC il theta)); split; rewrite ?RtoC_opp, ?RtoC_mul; (try set (F := Cexp (mkC ir phi))); ring [Ci_sq].
  all: rewrite ?(Esplit' ir ((phi - theta) / 2) (phi / 2) (- theta / 2)) by field;
       rewrite ?(Esplit' ir ((- phi - theta) / 2) (- phi / 2) (- theta / 2)) by field;
       rewrite ?(Esplit' ir (phi - theta / 2) phi (- theta / 2)) by field.
  all: rewrite (Esplit' il (theta / 2) theta (- theta / 2)) by field.
  all: set (E := Cexp (mkC il theta)); set (H := Cexp (mkC 0 (- theta / 2))); split; rewrite ?RtoC_opp, ?RtoC_mul;
       (try set (F := Cexp (mkC ir phi))); (try set (F1 := Cexp (mkC ir (phi / 2)))); (try set (F2 := Cexp (mkC ir (- phi / 2))));
       ring [Ci_sq].
Qed.

(** ** One node moves its output by at most |dtheta| + |dphi| *)
Definition pr (a b : C) : vec := fun i => match i with O => a | _ => b end.
Lemma power_pr : forall a b, power 2 (pr a b) = Cn2 a + Cn2 b.
Proof. intros. unfold power, pr. cbn [Rsum]. ring. Qed.
Lemma pair_tri : forall a b c d x y k l, 0 <= k -> 0 <= l -> Cn2 a + Cn2 b <= k ^ 2 * (Cn2 x + Cn2 y) -> Cn2 c + Cn2 d <= l ^ 2 * (Cn2 x + Cn2 y) ->
  Cn2 (a + c)%C + Cn2 (b + d)%C <= (k + l) ^ 2 * (Cn2 x + Cn2 y).
Proof.
  intros a b c d x y k l Hk Hl H1 H2. rewrite <- !power_pr in *.
  apply nrm_le in H1; [| exact Hk]. apply nrm_le in H2; [| exact Hl].
  apply nrm_le_inv; [lra |]. assert (E : pr (a + c)%C (b + d)%C = (fun i => pr a b i + pr c d i)%C).
  { apply functional_extensionality. intros [| i]; reflexivity. }
  rewrite E. pose proof (nrm_tri 2 (pr a b) (pr c d)). lra.
Qed.
Lemma mzi_lip : forall s back err ls theta phi theta' phi' x y, fst ls <= 0 -> snd ls <= 0 ->
  let q := parallel_mzi s back theta phi err ls in let q' := parallel_mzi s back theta' phi' err ls in
  Cn2 (qtop q x y - qtop q' x y)%C + Cn2 (qbot q x y - qbot q' x y)%C <= (Rabs (theta - theta') + Rabs (phi - phi')) ^ 2 * (Cn2 x + Cn2 y).
Proof.
  intros s back err ls theta phi theta' phi' x y Hl Hr q q'.
  destruct (mzi_phases s back err ls Hl Hr) as (P1 & P2 & E1 & E2 & R1 & R2 & HF & HP1 & HP2 & HE1 & HE2 & HR1 & HR2 & Hc).
  destruct (HF theta phi x y) as [A1 A2]. destruct (HF theta' phi' x y) as [B1 B2]. fold q in A1, A2. fold q' in B1, B2.
  rewrite A1, A2, B1, B2.
  match goal with |- context [(PI / 4 + snd err)] => idtac end.
  set (FT := facT err). set (FB := facB err).
  change (Cn2 (FT (P1 phi) (P2 phi) (E1 theta) (E2 theta) (R1 phi) x y - FT (P1 phi') (P2 phi') (E1 theta') (E2 theta') (R1 phi') x y)%C +
          Cn2 (FB (P1 phi) (P2 phi) (E1 theta) (E2 theta) (R2 phi) x y - FB (P1 phi') (P2 phi') (E1 theta') (E2 theta') (R2 phi') x y)%C <=
          (Rabs (theta - theta') + Rabs (phi - phi')) ^ 2 * (Cn2 x + Cn2 y)).
  assert (S1 : forall X, Cn2 X <= 1 -> Cn2 X <= 1) by auto.
  assert (D1 : Cn2 (FT (P1 phi) (P2 phi) (E1 theta) (E2 theta) (R1 phi) x y - FT (P1 phi) (P2 phi) (E1 theta') (E2 theta') (R1 phi) x y)%C +
     Cn2 (FB (P1 phi) (P2 phi) (E1 theta) (E2 theta) (R2 phi) x y - FB (P1 phi) (P2 phi) (E1 theta') (E2 theta') (R2 phi) x y)%C <= Rabs (theta - theta') ^ 2 * (Cn2 x + Cn2 y)).
  { replace (FT (P1 phi) (P2 phi) (E1 theta) (E2 theta) (R1 phi) x y - FT (P1 phi) (P2 phi) (E1 theta') (E2 theta') (R1 phi) x y)%C
      with (FT (P1 phi) (P2 phi) (E1 theta - E1 theta') (E2 theta - E2 theta') (R1 phi) x y)%C by (unfold FT, facT, dctop, dcbot; ring).
    replace (FB (P1 phi) (P2 phi) (E1 theta) (E2 theta) (R2 phi) x y - FB (P1 phi) (P2 phi) (E1 theta') (E2 theta') (R2 phi) x y)%C
      with (FB (P1 phi) (P2 phi) (E1 theta - E1 theta') (E2 theta - E2 theta') (R2 phi) x y)%C by (unfold FB, facB, dctop, dcbot; ring).
    rewrite pow2_abs. eapply Rle_trans; [apply (fac_bound err 1 ((theta - theta') ^ 2) 1) |];
      first [apply (proj1 (HP1 phi phi')) | apply (proj1 (HP2 phi phi')) | apply (proj2 (HE1 theta theta')) | apply (proj2 (HE2 theta theta')) |
             apply (proj1 (HR1 phi phi')) | apply (proj1 (HR2 phi phi')) | apply pow2_ge_0 | lra]. }
  assert (D2 : Cn2 (FT (P1 phi) (P2 phi) (E1 theta') (E2 theta') (R1 phi) x y - FT (P1 phi') (P2 phi') (E1 theta') (E2 theta') (R1 phi') x y)%C +
     Cn2 (FB (P1 phi) (P2 phi) (E1 theta') (E2 theta') (R2 phi) x y - FB (P1 phi') (P2 phi') (E1 theta') (E2 theta') (R2 phi') x y)%C <= Rabs (phi - phi') ^ 2 * (Cn2 x + Cn2 y)).
  { rewrite pow2_abs. destruct Hc as [Hc | Hc].
    - destruct (Hc phi) as [-> ->]. destruct (Hc phi') as [-> ->].
      replace (FT (P1 phi) (P2 phi) (E1 theta') (E2 theta') C1 x y - FT (P1 phi') (P2 phi') (E1 theta') (E2 theta') C1 x y)%C
        with (FT (P1 phi - P1 phi') (P2 phi - P2 phi') (E1 theta') (E2 theta') C1 x y)%C by (unfold FT, facT, dctop, dcbot; ring).
      replace (FB (P1 phi) (P2 phi) (E1 theta') (E2 theta') C1 x y - FB (P1 phi') (P2 phi') (E1 theta') (E2 theta') C1 x y)%C
        with (FB (P1 phi - P1 phi') (P2 phi - P2 phi') (E1 theta') (E2 theta') C1 x y)%C by (unfold FB, facB, dctop, dcbot; ring).
      eapply Rle_trans; [apply (fac_bound err ((phi - phi') ^ 2) 1 1) |];
      first [apply (proj2 (HP1 phi phi')) | apply (proj2 (HP2 phi phi')) | apply (proj1 (HE1 theta' theta')) | apply (proj1 (HE2 theta' theta')) |
             rewrite Cn2_C1; apply Rle_refl | apply pow2_ge_0 | lra].
    - destruct (Hc phi) as [-> ->]. destruct (Hc phi') as [-> ->].
      replace (FT C1 C1 (E1 theta') (E2 theta') (R1 phi) x y - FT C1 C1 (E1 theta') (E2 theta') (R1 phi') x y)%C
        with (FT C1 C1 (E1 theta') (E2 theta') (R1 phi - R1 phi') x y)%C by (unfold FT, facT, dctop, dcbot; ring).
      replace (FB C1 C1 (E1 theta') (E2 theta') (R2 phi) x y - FB C1 C1 (E1 theta') (E2 theta') (R2 phi') x y)%C
        with (FB C1 C1 (E1 theta') (E2 theta') (R2 phi - R2 phi') x y)%C by (unfold FB, facB, dctop, dcbot; ring).
      eapply Rle_trans; [apply (fac_bound err 1 1 ((phi - phi') ^ 2)) |];
      first [apply (proj2 (HR1 phi phi')) | apply (proj2 (HR2 phi phi')) | apply (proj1 (HE1 theta' theta')) | apply (proj1 (HE2 theta' theta')) |
             rewrite Cn2_C1; apply Rle_refl | apply pow2_ge_0 | lra]. }
  pose proof (pair_tri _ _ _ _ x y _ _ (Rabs_pos _) (Rabs_pos _) D1 D2) as K.
  eapply Rle_trans; [| exact K]. apply Req_le. f_equal; f_equal; ring.
Qed.

(** ** One column: disjoint nodes, so the largest movement counts *)
Lemma Rsum_pairs : forall n g idx f, NoDup (rails idx) -> (forall j, In j (rails idx) -> (j < n)%nat) ->
  (forall t b k, In (t, b, k) idx -> f t + f b <= g t + g b) -> (forall j, (j < n)%nat -> ~ In j (rails idx) -> f j <= g j) ->
  Rsum n f <= Rsum n g.
Proof.
  intros n g. induction idx as [| [[t b] k] idx IH]; intros f Hnd Hlt Hp Ho.
  - apply Rsum_le. intros i Hi. apply Ho; auto.
  - destruct (rails_nodup_cons _ _ _ _ Hnd) as (Htb & Ht & Hb & Hnd').
    set (f' := fun j => if Nat.eqb j t then g t else if Nat.eqb j b then g b else f j).
    assert (Hft : f' t = g t) by (unfold f'; rewrite Nat.eqb_refl; reflexivity).
    assert (Hfb : f' b = g b) by (unfold f'; destruct (Nat.eqb_spec b t); [congruence |]; rewrite Nat.eqb_refl; reflexivity).
    assert (Hfo : forall j, j <> t -> j <> b -> f' j = f j) by (intros j H1 H2; unfold f'; destruct (Nat.eqb_spec j t); [congruence |]; destruct (Nat.eqb_spec j b); [congruence | reflexivity]).
    apply Rle_trans with (Rsum n f').
    + rewrite (Rsum_change2 n f' f t b); [| apply Hlt, rails_cons; auto | apply Hlt, rails_cons; auto | exact Htb | intros; apply Hfo; auto].
      rewrite Hft, Hfb. pose proof (Hp t b k (or_introl eq_refl)). lra.
    + apply IH; auto.
      * intros j Hj. apply Hlt, rails_cons; auto.
      * intros t' b' k' Hin. assert (t' <> t /\ t' <> b /\ b' <> t /\ b' <> b).
        { pose proof (rails_in_top _ _ _ _ Hin). pose proof (rails_in_bot _ _ _ _ Hin). repeat split; intro; subst; contradiction. }
        rewrite !Hfo by tauto. apply (Hp t' b' k'). right; exact Hin.
      * intros j Hj Hn. destruct (Nat.eq_dec j t) as [-> |]; [rewrite Hft; lra |]. destruct (Nat.eq_dec j b) as [-> |]; [rewrite Hfb; lra |].
        rewrite Hfo by auto. apply Ho; auto. rewrite rails_cons. intuition.
Qed.
Lemma column_lip : forall n el el' idx v D, NoDup (rails idx) -> (forall j, In j (rails idx) -> (j < n)%nat) ->
  (forall t b k, In (t, b, k) idx -> forall x y, Cn2 (qtop (el k) x y - qtop (el' k) x y)%C + Cn2 (qbot (el k) x y - qbot (el' k) x y)%C <= D ^ 2 * (Cn2 x + Cn2 y)) ->
  power n (fun i => parallel_transform el idx v i - parallel_transform el' idx v i)%C <= D ^ 2 * power n v.
Proof.
  intros n el el' idx v D Hnd Hlt Hq. unfold power. rewrite <- Rsum_scal. apply (Rsum_pairs n _ idx); auto.
  - intros t b k Hin. rewrite (pt_top el idx v t b k), (pt_top el' idx v t b k), (pt_bot el idx v t b k), (pt_bot el' idx v t b k) by auto.
    rewrite <- Rmult_plus_distr_l. apply (Hq t b k Hin).
  - intros j Hj Hn. rewrite !pt_other by auto. replace (v j - v j)%C with C0 by ring. rewrite Cn2_C0.
    apply Rmult_le_pos; [apply pow2_ge_0 | apply Cn2_nonneg].
Qed.

(** ** All columns *)
Definition col_ok (n : nat) (el el' : nat -> quad) (idx : list (nat * nat * nat)) (D : R) : Prop :=
  NoDup (rails idx) /\ (forall j, In j (rails idx) -> (j < n)%nat) /\ 0 <= D /\
  (forall t b k, In (t, b, k) idx -> quad_contr (el k) /\ quad_contr (el' k) /\
    forall x y, Cn2 (qtop (el k) x y - qtop (el' k) x y)%C + Cn2 (qbot (el k) x y - qbot (el' k) x y)%C <= D ^ 2 * (Cn2 x + Cn2 y)).
Lemma column_contr : forall n el idx v, NoDup (rails idx) -> (forall j, In j (rails idx) -> (j < n)%nat) ->
  (forall t b k, In (t, b, k) idx -> quad_contr (el k)) -> power n (parallel_transform el idx v) <= power n v.
Proof.
  intros n el idx v Hnd Hlt Hq. unfold power. apply (Rsum_pairs n _ idx); auto.
  - intros t b k Hin. rewrite (pt_top el idx v t b k), (pt_bot el idx v t b k) by auto. apply (Hq t b k Hin).
  - intros j Hj Hn. rewrite pt_other by auto. apply Rle_refl.
Qed.
Lemma nrm_mono : forall n u v, power n u <= power n v -> nrm n u <= nrm n v.
Proof. intros. unfold nrm. apply sqrt_le_1_alt. assumption. Qed.
Lemma pt_sub : forall el idx u v, NoDup (rails idx) ->
  parallel_transform el idx (fun i => u i - v i)%C = (fun i => parallel_transform el idx u i - parallel_transform el idx v i)%C.
Proof.
  intros el idx u v H. rewrite !parallel_transform_run by auto.
  assert (E : (fun i => u i - v i)%C = lin C1 u (- C1)%C v) by (apply functional_extensionality; intro; unfold lin; ring).
  rewrite E, run_lin. apply functional_extensionality; intro; unfold lin; ring.
Qed.
Lemma fold_lip : forall n el el' idxs Ds, Forall2 (col_ok n el el') idxs Ds -> forall u v,
  nrm n (fun i => fold_left (fun w idx => parallel_transform el idx w) idxs u i - fold_left (fun w idx => parallel_transform el' idx w) idxs v i)%C
  <= nrm n (fun i => u i - v i)%C + fold_right Rplus 0 Ds * nrm n v.
Proof.
  intros n el el' idxs Ds H. induction H as [| idx D idxs Ds (Hnd & Hlt & HD & Hq) Hf IH]; intros u v; cbn [fold_left fold_right]; [lra |].
  eapply Rle_trans; [apply IH |].
  assert (C1' : nrm n (parallel_transform el' idx v) <= nrm n v).
  { apply nrm_mono, column_contr; auto. intros t b k Hin. apply (Hq t b k Hin). }
  assert (C2' : nrm n (fun i => parallel_transform el idx u i - parallel_transform el' idx v i)%C <= nrm n (fun i => u i - v i)%C + D * nrm n v).
  { assert (E : (fun i => parallel_transform el idx u i - parallel_transform el' idx v i)%C =
       (fun i => parallel_transform el idx (fun i => u i - v i) i + (parallel_transform el idx v i - parallel_transform el' idx v i))%C).
    { rewrite pt_sub by auto. apply functional_extensionality; intro; ring. }
    rewrite E. eapply Rle_trans; [apply (nrm_tri n (parallel_transform el idx (fun i => u i - v i)%C) (fun i => parallel_transform el idx v i - parallel_transform el' idx v i)%C) |].
    apply Rplus_le_compat.
    - apply nrm_mono, column_contr; auto. intros t b k Hin. apply (Hq t b k Hin).
    - apply nrm_le; [exact HD |]. apply column_lip; auto. intros t b k Hin. apply (Hq t b k Hin). }
  assert (HS : 0 <= fold_right Rplus 0 Ds).
  { clear - Hf. induction Hf as [| i d l l' (_ & _ & Hd & _) _ IH]; cbn [fold_right]; lra. }
  pose proof (nrm_pos n v). set (S := fold_right Rplus 0 Ds) in *.
  assert (S * nrm n (parallel_transform el' idx v) <= S * nrm n v) by (apply Rmult_le_compat_l; assumption). lra.
Qed.

Lemma Forall2_rev' : forall (A B : Type) (P : A -> B -> Prop) l l', Forall2 P l l' -> Forall2 P (rev l) (rev l').
Proof. intros A B P l l' H. induction H; cbn [rev]; [constructor |]. apply Forall2_app; [assumption | constructor; [assumption | constructor]]. Qed.
Lemma fold_right_rev : forall l, fold_right Rplus 0 (rev l) = fold_right Rplus 0 l.
Proof.
  induction l as [| a l IH]; [reflexivity |]. cbn [rev fold_right]. rewrite <- IH. clear IH. induction (rev l) as [| b r IH]; cbn [List.app fold_right]; [ring |]. rewrite IH. ring.
Qed.
Lemma fold_right_seq : forall n f, fold_right Rplus 0 (map f (seq 0 n)) = Rsum n f.
Proof.
  intros n f. assert (H : forall a, fold_right Rplus 0 (map f (seq a n)) = Rsum n (fun i => f (a + i)%nat)).
  { induction n as [| n IH]; intro a; [reflexivity |]. cbn [seq map fold_right]. rewrite IH, Rsum_shift. f_equal; [f_equal; lia |]. apply Rsum_ext; intros; f_equal; lia. }
  rewrite H. reflexivity.
Qed.
Lemma gammas_lip : forall n g g' u v G, 0 <= G -> (forall i, (i < n)%nat -> Rabs (g i - g' i) <= G) ->
  nrm n (fun i => apply_gammas g u i - apply_gammas g' v i)%C <= nrm n (fun i => u i - v i)%C + G * nrm n v.
Proof.
  intros n g g' u v G HG Hg.
  assert (E : (fun i => apply_gammas g u i - apply_gammas g' v i)%C = (fun i => (cis (g i) * (u i - v i)) + (cis (g i) - cis (g' i)) * v i)%C).
  { apply functional_extensionality; intro. unfold apply_gammas. ring. }
  rewrite E. eapply Rle_trans; [apply (nrm_tri n (fun i => cis (g i) * (u i - v i))%C (fun i => (cis (g i) - cis (g' i)) * v i)%C) |].
  apply Rplus_le_compat.
  - apply nrm_mono. apply Req_le. apply (gammas_power n g (fun i => u i - v i)%C).
  - apply nrm_le; [exact HG |]. unfold power. rewrite <- Rsum_scal. apply Rsum_le. intros i Hi. rewrite Cn2_mul.
    apply Rmult_le_compat_r; [apply Cn2_nonneg |]. eapply Rle_trans; [apply chord |]. rewrite <- (pow2_abs (g i - g' i)).
    apply pow_incr. split; [apply Rabs_pos | apply Hg; exact Hi].
Qed.
Lemma mesh_lip : forall m back p p' x y y' (D : Z -> R) G, wf_mesh m -> attenuating m ->
  (forall nd, In nd (nodes m) -> Rabs (thetas p (node_id nd) - thetas p' (node_id nd)) + Rabs (phis p (node_id nd) - phis p' (node_id nd)) <= D (column nd)) ->
  0 <= G -> (forall i, (i < n_rails m)%nat -> Rabs (gammas p i - gammas p' i) <= G) ->
  matrix_fn m back p x = Some y -> matrix_fn m back p' x = Some y' ->
  sqrt (power (n_rails m) (fun i => y i - y' i)%C) <= (Rsum (Z.to_nat (num_columns m)) (fun c => D (Z.of_nat c)) + G) * sqrt (power (n_rails m) x).
Proof.
  intros m back p p' x y y' D G Hwf Hatt Hn HG Hg Hy Hy'.
  destruct Hwf as (Hd & Hr & Hnd & Hcol).
  unfold matrix_fn in Hy, Hy'. destruct (columns m) as [cols |] eqn:Hc; [| discriminate].
  destruct (forallb _ _) eqn:Hok in Hy; [| discriminate]. rewrite Hok in Hy'.
  assert (Inj : forall a b : vec, Some a = Some b -> a = b) by (intros a b K; congruence). apply Inj in Hy, Hy'. clear Inj.
  set (el := mzis m back p) in *. set (el' := mzis m back p') in *.
  assert (F2 : Forall2 (col_ok (n_rails m) el el') (map triples cols) (map (fun c => D (Z.of_nat c)) (seq 0 (Z.to_nat (num_columns m))))).
  { unfold columns in Hc. apply all_some_map in Hc.
    assert (Hin : forall c, In c (seq 0 (Z.to_nat (num_columns m))) -> (0 <= Z.of_nat c < num_columns m)%Z) by (intros c K; apply in_seq in K; lia).
    revert Hc Hin. clear Hok Hy Hy'. generalize (seq 0 (Z.to_nat (num_columns m))) as sq. intros sq Hc. induction Hc as [| c mc sq cs Hm Hc IH]; intro Hin; cbn [map]; constructor.
    - set (l := filter (fun nd => Z.eqb (column nd) (Z.of_nat c)) (nodes m)) in *.
      change (nodes_in_column (nodes m) (Z.of_nat c)) with l in Hm.
      assert (Hl : renumber l = l) by (apply renumber_single, filter_nodup_id; exact Hnd).
      assert (Ht : triples mc = map (fun nd => (top nd, bottom nd, node_id nd)) l) by (rewrite (mk_mesh_triples _ _ _ Hm), Hl; reflexivity).
      assert (Hnode : forall t b k, In (t, b, k) (triples mc) -> exists nd, In nd (nodes m) /\ column nd = Z.of_nat c /\ top nd = t /\ bottom nd = b /\ node_id nd = k).
      { intros t b k K. rewrite Ht in K. apply in_map_iff in K. destruct K as (nd & E & K). apply filter_In in K. destruct K as [K1 K2].
        apply Z.eqb_eq in K2. exists nd. inversion E. repeat split; auto. }
      split; [| split; [| split]].
      + rewrite (mk_mesh_rails _ _ _ Hm). apply (Hd (Z.of_nat c)).
      + intros j Hj. destruct (rails_inv _ _ Hj) as (t & b & k & Hi & Ej). destruct (Hnode t b k Hi) as (nd & N1 & N2 & N3 & N4 & N5).
        destruct (Hr nd N1) as (R1 & R2 & _). destruct Ej; subst; assumption.
      + destruct (Hcol (Z.of_nat c)) as (nd & N1 & N2); [apply Hin; left; reflexivity |]. rewrite <- N2.
        eapply Rle_trans; [| apply (Hn nd N1)]. apply Rplus_le_le_0_compat; apply Rabs_pos.
      + intros t b k Hi. destruct (Hnode t b k Hi) as (nd & N1 & N2 & N3 & N4 & N5). destruct (loss_at_neg m Hatt k) as [L1 L2].
        split; [apply parallel_mzi_contr; assumption |]. split; [apply parallel_mzi_contr; assumption |].
        intros u v. eapply Rle_trans; [apply (mzi_lip (style m) back (err_at m k) (loss_at m k)); assumption |].
        apply Rmult_le_compat_r; [pose proof (Cn2_nonneg u); pose proof (Cn2_nonneg v); lra |].
        apply pow_incr. split; [apply Rplus_le_le_0_compat; apply Rabs_pos |]. rewrite <- N5, <- N2. apply Hn. exact N1.
    - apply IH. intros c' K. apply Hin. right. exact K. }
  set (n := n_rails m) in *. change (sqrt (power n x)) with (nrm n x). change (sqrt (power n (fun i => y i - y' i)%C)) with (nrm n (fun i => y i - y' i)%C).
  rewrite <- fold_right_seq.
  set (Ds := map (fun c => D (Z.of_nat c)) (seq 0 (Z.to_nat (num_columns m)))) in *.
  assert (Zs : nrm n (fun i => x i - x i)%C = 0).
  { unfold nrm. rewrite <- sqrt_0. f_equal. unfold power. apply Rsum_0. intros i _. replace (x i - x i)%C with C0 by ring. apply Cn2_C0. }
  destruct back.
  - rewrite map_rev in Hy, Hy'. pose proof (fold_lip n el el' _ _ (Forall2_rev' _ _ _ _ _ F2)) as K. rewrite fold_right_rev in K.
    rewrite <- Hy, <- Hy'. eapply Rle_trans; [apply K |].
    pose proof (gammas_lip n (gammas p) (gammas p') x x G HG Hg) as L. rewrite Zs in L.
    assert (N : nrm n (apply_gammas (gammas p') x) = nrm n x) by (unfold nrm; rewrite gammas_power; reflexivity). rewrite N. lra.
  - pose proof (fold_lip n el el' _ _ F2 x x) as K. rewrite Zs in K.
    set (u := fold_left (fun w idx => parallel_transform el idx w) (map triples cols) x) in *.
    set (v := fold_left (fun w idx => parallel_transform el' idx w) (map triples cols) x) in *.
    assert (V : nrm n v <= nrm n x).
    { unfold v. clear - F2. revert x. induction F2 as [| idx d l l' (Hnd & Hlt & HD & Hq) _ IH]; intro x; cbn [fold_left]; [lra |].
      eapply Rle_trans; [apply IH |]. apply nrm_mono, column_contr; auto. intros t b k Hin. apply (Hq t b k Hin). }
    rewrite <- Hy, <- Hy'. eapply Rle_trans; [apply (gammas_lip n (gammas p) (gammas p') u v G HG Hg) |].
    assert (G * nrm n v <= G * nrm n x) by (apply Rmult_le_compat_l; assumption). lra.
Qed.
