(** Proofs for C163: small splitter errors and losses move the output little. *)
From Coq Require Import Reals Lra Lia Psatz List ZArith Bool FunctionalExtensionality.
From Verif Require Import Cx Arr Spec_circuit Model_coupling Model_forward Model_null Spec_mesh Spec_null Proof_node Proof_mesh Proof_forward Proof_forward2 Proof_forward4
  Proof_lip Proof_nbasis Proof_nbasis3.
Import ListNotations.
Local Open Scope R_scope.

(** ** The three kinds of elementary changes *)
Lemma dc_power_any : forall a b x y, Cn2 (dctop a b x y) + Cn2 (dcbot a b x y) = (a * a + b * b) * (Cn2 x + Cn2 y).
Proof. intros. unfold dctop, dcbot, Cn2; simpl; ring. Qed.

Lemma exp_lip : forall a b, a <= 0 -> b <= 0 -> Rabs (exp a - exp b) <= Rabs (a - b).
Proof.
  assert (K : forall a b, a <= b -> b <= 0 -> 0 <= exp b - exp a <= b - a).
  { intros a b H Hb. assert (E : exp a = exp b * exp (a - b)) by (rewrite <- exp_plus; f_equal; ring).
    assert (L : exp (a - b) >= 1 + (a - b)). { destruct (Req_dec (a - b) 0) as [-> | N]; [rewrite exp_0; lra | left; apply exp_ineq1; exact N]. }
    assert (U : exp (a - b) <= 1). { rewrite <- exp_0. destruct (Rle_lt_or_eq_dec (a - b) 0) as [M | M]; [lra | left; apply exp_increasing; exact M | rewrite M; right; reflexivity]. }
    assert (B : exp b <= 1). { rewrite <- exp_0. destruct (Rle_lt_or_eq_dec b 0) as [M | M]; [lra | left; apply exp_increasing; exact M | rewrite M; right; reflexivity]. }
    pose proof (exp_pos b). rewrite E. split; nra. }
  intros a b Ha Hb. destruct (Rle_dec a b) as [H | H].
  - pose proof (K a b H Hb). rewrite (Rabs_minus_sym a b), (Rabs_minus_sym (exp a)), !Rabs_pos_eq by lra. lra.
  - pose proof (K b a ltac:(lra) Ha). rewrite !Rabs_pos_eq by lra. lra.
Qed.

(** A phase shifter with loss exponent l and phase a: never amplifies and moves by at most |dl| + |da|. *)
Definition chord2 (F : R -> R -> C) : Prop := forall l a l' b, l <= 0 -> l' <= 0 ->
  Cn2 (F l a) <= 1 /\ Cn2 (F l a - F l' b)%C <= (Rabs (l - l') + Rabs (a - b)) ^ 2.
Lemma chord2_1 : chord2 (fun _ _ => C1).
Proof. intros l a l' b _ _. rewrite Cn2_C1. replace (C1 - C1)%C with C0 by ring. rewrite Cn2_C0. split; [lra | apply pow2_ge_0]. Qed.
Lemma cn2_tri : forall a b k l, 0 <= k -> 0 <= l -> Cn2 a <= k ^ 2 -> Cn2 b <= l ^ 2 -> Cn2 (a + b)%C <= (k + l) ^ 2.
Proof.
  intros a b k l Hk Hl Ha Hb. pose proof (pair_tri a C0 b C0 C1 C0 k l Hk Hl) as T. rewrite Cn2_C0, Cn2_C1 in T.
  replace (C0 + C0)%C with C0 in T by ring. rewrite Cn2_C0 in T. specialize (T ltac:(lra) ltac:(lra)). lra.
Qed.
Lemma chord2_exp : chord2 (fun l a => Cexp (mkC l a)).
Proof.
  intros l a l' b Hl Hl'. split; [apply Cn2_Cexp_le1; exact Hl |].
  replace (Cexp (mkC l a) - Cexp (mkC l' b))%C with ((Cexp (mkC l a) - Cexp (mkC l' a)) + (Cexp (mkC l' a) - Cexp (mkC l' b)))%C by ring.
  apply cn2_tri; try apply Rabs_pos.
  - unfold Cexp. cbn [re im]. rewrite !Cscal_RtoC.
    replace (RtoC (exp l) * cis a - RtoC (exp l') * cis a)%C with (RtoC (exp l - exp l') * cis a)%C by (rewrite RtoC_sub; ring).
    rewrite Cn2_mul, Cn2_RtoC, Cn2_cis. replace ((exp l - exp l') * (exp l - exp l') * 1) with ((exp l - exp l') ^ 2) by ring.
    rewrite <- (pow2_abs (exp l - exp l')). apply pow_incr. split; [apply Rabs_pos | apply exp_lip; assumption].
  - rewrite pow2_abs. apply chord_exp. exact Hl'.
Qed.
Lemma chord2_weak : forall F G, chord2 F -> (forall l a, exists l1 a1, G l a = F l1 a1 /\ (l <= 0 -> l1 <= 0) /\
   forall l' b, exists l2 b2, G l' b = F l2 b2 /\ (l' <= 0 -> l2 <= 0) /\ Rabs (l1 - l2) <= Rabs (l - l') /\ Rabs (a1 - b2) <= Rabs (a - b)) -> chord2 G.
Proof.
  intros F G HF H l a l' b Hl Hl'. destruct (H l a) as (l1 & a1 & E1 & S1 & H2). destruct (H2 l' b) as (l2 & b2 & E2 & S2 & D1 & D2).
  destruct (HF l1 a1 l2 b2 (S1 Hl) (S2 Hl')) as [K1 K2]. rewrite E1, E2. split; [exact K1 |]. eapply Rle_trans; [exact K2 |].
  apply pow_incr. split; [| lra]. apply Rplus_le_le_0_compat; apply Rabs_pos.
Qed.
Lemma chord2_lin : forall u v, Rabs u <= 1 -> 0 <= v <= 1 -> chord2 (fun l a => Cexp (mkC (v * l) (u * a))).
Proof.
  intros u v Hu Hv. apply (chord2_weak (fun l a => Cexp (mkC l a)) _ chord2_exp). intros l a. exists (v * l), (u * a). split; [reflexivity |].
  split; [intro; nra |]. intros l' b. exists (v * l'), (u * b). split; [reflexivity |]. split; [intro; nra |].
  replace (v * l - v * l') with (v * (l - l')) by ring. replace (u * a - u * b) with (u * (a - b)) by ring. rewrite !Rabs_mult, (Rabs_pos_eq v) by lra.
  pose proof (Rabs_pos (l - l')). pose proof (Rabs_pos (a - b)). split; nra.
Qed.
Lemma chord2_ext : forall F G, (forall l a, F l a = G l a) -> chord2 F -> chord2 G.
Proof. intros F G E H l a l' b. rewrite <- !E. apply H. Qed.

(** ** One node with everything allowed to change *)
Definition gT (c0 s0 c1 s1 : R) (p1 p2 e1 e2 r1 : C) (x y : C) : C := (r1 * dctop c1 s1 (e1 * dctop c0 s0 (p1 * x) (p2 * y)) (e2 * dcbot c0 s0 (p1 * x) (p2 * y)))%C.
Definition gB (c0 s0 c1 s1 : R) (p1 p2 e1 e2 r2 : C) (x y : C) : C := (r2 * dcbot c1 s1 (e1 * dctop c0 s0 (p1 * x) (p2 * y)) (e2 * dcbot c0 s0 (p1 * x) (p2 * y)))%C.
Lemma g_bound : forall c0 s0 c1 s1 P E Q p1 p2 e1 e2 r1 r2 x y,
  Cn2 p1 <= P -> Cn2 p2 <= P -> Cn2 e1 <= E -> Cn2 e2 <= E -> Cn2 r1 <= Q -> Cn2 r2 <= Q ->
  Cn2 (gT c0 s0 c1 s1 p1 p2 e1 e2 r1 x y) + Cn2 (gB c0 s0 c1 s1 p1 p2 e1 e2 r2 x y)
  <= Q * ((c1 * c1 + s1 * s1) * (E * ((c0 * c0 + s0 * s0) * (P * (Cn2 x + Cn2 y))))).
Proof.
  intros c0 s0 c1 s1 P E Q p1 p2 e1 e2 r1 r2 x y Hp1 Hp2 He1 He2 Hr1 Hr2. unfold gT, gB. rewrite !(Cn2_mul r1), !(Cn2_mul r2).
  pose proof (Cn2_nonneg p1) as N1. pose proof (Cn2_nonneg e1) as N2. pose proof (Cn2_nonneg r1) as N3.
  set (A := dctop c0 s0 (p1 * x) (p2 * y)). set (B := dcbot c0 s0 (p1 * x) (p2 * y)).
  assert (P0 : 0 <= c0 * c0 + s0 * s0) by nra. assert (P1 : 0 <= c1 * c1 + s1 * s1) by nra.
  assert (H1 : Cn2 A + Cn2 B <= (c0 * c0 + s0 * s0) * (P * (Cn2 x + Cn2 y))).
  { unfold A, B. rewrite dc_power_any. apply Rmult_le_compat_l; [exact P0 |]. rewrite !Cn2_mul. pose proof (Cn2_nonneg x). pose proof (Cn2_nonneg y). nra. }
  assert (H2 : Cn2 (dctop c1 s1 (e1 * A) (e2 * B)) + Cn2 (dcbot c1 s1 (e1 * A) (e2 * B)) <= (c1 * c1 + s1 * s1) * (E * (Cn2 A + Cn2 B))).
  { rewrite dc_power_any. apply Rmult_le_compat_l; [exact P1 |]. rewrite !Cn2_mul. pose proof (Cn2_nonneg A). pose proof (Cn2_nonneg B). nra. }
  set (U := dctop c1 s1 (e1 * A) (e2 * B)) in *. set (V := dcbot c1 s1 (e1 * A) (e2 * B)) in *.
  assert (H3 : Cn2 r1 * Cn2 U + Cn2 r2 * Cn2 V <= Q * (Cn2 U + Cn2 V)).
  { pose proof (Cn2_nonneg U). pose proof (Cn2_nonneg V). nra. }
  eapply Rle_trans; [exact H3 |]. apply Rmult_le_compat_l; [lra |].
  eapply Rle_trans; [exact H2 |]. apply Rmult_le_compat_l; [exact P1 |]. apply Rmult_le_compat_l; [lra | exact H1].
Qed.
Lemma coupler_chord : forall e e', (cos (PI / 4 + e) - cos (PI / 4 + e')) * (cos (PI / 4 + e) - cos (PI / 4 + e')) +
  (sin (PI / 4 + e) - sin (PI / 4 + e')) * (sin (PI / 4 + e) - sin (PI / 4 + e')) <= Rabs (e - e') ^ 2.
Proof.
  intros e e'. pose proof (chord (PI / 4 + e) (PI / 4 + e')) as K. replace (PI / 4 + e - (PI / 4 + e')) with (e - e') in K by ring.
  rewrite pow2_abs. unfold Cn2, cis in K. cbn [re im Csub] in K. lra.
Qed.

Lemma mzi_phases2 : forall s (back : bool),
  exists P1 P2 E1 E2 R1 R2 : R -> R -> C,
    (forall err ls theta phi, factored (parallel_mzi s back theta phi err ls) err
       (P1 (ln 10 * snd ls / 20) phi) (P2 (ln 10 * snd ls / 20) phi) (E1 (ln 10 * fst ls / 20) theta) (E2 (ln 10 * fst ls / 20) theta)
       (R1 (ln 10 * snd ls / 20) phi) (R2 (ln 10 * snd ls / 20) phi)) /\
    chord2 P1 /\ chord2 P2 /\ chord2 E1 /\ chord2 E2 /\ chord2 R1 /\ chord2 R2 /\
    ((forall l a, R1 l a = C1 /\ R2 l a = C1) \/ (forall l a, P1 l a = C1 /\ P2 l a = C1)).
Proof.
  intros s back.
  assert (Esplit : forall a b c, Cexp (mkC (a + 0) (b + c)) = (Cexp (mkC a b) * Cexp (mkC 0 c))%C).
  { intros a b c. rewrite <- Cexp_add. reflexivity. }
  assert (Esplit' : forall a b c d, b = c + d -> Cexp (mkC a b) = (Cexp (mkC a c) * Cexp (mkC 0 d))%C).
  { intros a b c d ->. rewrite <- Esplit. do 2 f_equal. ring. }
  assert (Ch : forall F, (forall l a, F l a = Cexp (mkC (1 * l) (1 / 2 * a))) \/ (forall l a, F l a = Cexp (mkC (1 * l) (- (1 / 2) * a))) \/
      (forall l a, F l a = Cexp (mkC (0 * l) (- (1 / 2) * a))) -> chord2 F).
  { assert (A1 : Rabs (1 / 2) <= 1) by (rewrite Rabs_pos_eq; lra). assert (A2 : Rabs (- (1 / 2)) <= 1) by (rewrite Rabs_Ropp, Rabs_pos_eq; lra).
    intros F [E | [E | E]].
    - apply (chord2_ext (fun l a => Cexp (mkC (1 * l) (1 / 2 * a)))); [intros; symmetry; apply E | apply (chord2_lin (1/2) 1 A1); lra].
    - apply (chord2_ext (fun l a => Cexp (mkC (1 * l) (- (1 / 2) * a)))); [intros; symmetry; apply E | apply (chord2_lin (- (1/2)) 1 A2); lra].
    - apply (chord2_ext (fun l a => Cexp (mkC (0 * l) (- (1 / 2) * a)))); [intros; symmetry; apply E | apply (chord2_lin (- (1/2)) 0 A2); lra]. }
  assert (Ch1 : chord2 (fun l a => Cexp (mkC l (a / 2)))) by (apply Ch; left; intros; f_equal; apply C_eq; cbn; field).
  assert (Ch2 : chord2 (fun l a => Cexp (mkC l (- a / 2)))) by (apply Ch; right; left; intros; f_equal; apply C_eq; cbn; field).
  assert (Ch3 : chord2 (fun _ a => Cexp (mkC 0 (- a / 2)))) by (apply Ch; right; right; intros; f_equal; apply C_eq; cbn; field).
  clear Ch. pose proof chord2_1 as Ch0. pose proof chord2_exp as Ch4.
  destruct s; destruct back;
  [ exists (fun _ _ => C1), (fun _ _ => C1), (fun l t => Cexp (mkC l t)), (fun _ _ => C1), (fun l f => Cexp (mkC l f)), (fun _ _ => C1)
  | exists (fun l f => Cexp (mkC l f)), (fun _ _ => C1), (fun l t => Cexp (mkC l t)), (fun _ _ => C1), (fun _ _ => C1), (fun _ _ => C1)
  | exists (fun _ _ => C1), (fun _ _ => C1), (fun _ _ => C1), (fun l t => Cexp (mkC l t)), (fun _ _ => C1), (fun l f => Cexp (mkC l f))
  | exists (fun _ _ => C1), (fun l f => Cexp (mkC l f)), (fun _ _ => C1), (fun l t => Cexp (mkC l t)), (fun _ _ => C1), (fun _ _ => C1)
  | exists (fun l f => Cexp (mkC l (f / 2))), (fun l f => Cexp (mkC l (- f / 2))), (fun l t => Cexp (mkC l (t / 2))), (fun _ t => Cexp (mkC 0 (- t / 2))), (fun _ _ => C1), (fun _ _ => C1)
  | exists (fun l f => Cexp (mkC l (- f / 2))), (fun l f => Cexp (mkC l (f / 2))), (fun l t => Cexp (mkC l (t / 2))), (fun _ t => Cexp (mkC 0 (- t / 2))), (fun _ _ => C1), (fun _ _ => C1)
  | exists (fun l f => Cexp (mkC l f)), (fun l f => Cexp (mkC l f)), (fun l t => Cexp (mkC l (t / 2))), (fun _ t => Cexp (mkC 0 (- t / 2))), (fun _ _ => C1), (fun _ _ => C1)
  | exists (fun l f => Cexp (mkC l f)), (fun l f => Cexp (mkC l f)), (fun l t => Cexp (mkC l (t / 2))), (fun _ t => Cexp (mkC 0 (- t / 2))), (fun _ _ => C1), (fun _ _ => C1) ];
  (split; [| split; [assumption | split; [assumption | split; [assumption | split; [assumption | split; [assumption | split; [assumption |
     first [left; intros; split; reflexivity | right; intros; split; reflexivity]]]]]]]]);
  intros err ls theta phi x y; unfold parallel_mzi, mzi_terms; set (il := ln 10 * fst ls / 20); set (ir := ln 10 * snd ls / 20); cbn [b2R];
     repeat match goal with
     | |- context [mkC (ir * ?a) (phi * ?b)] =>
         first [ replace (mkC (ir * a) (phi * b)) with (mkC ir phi) by (apply C_eq; simpl; ring)
               | replace (mkC (ir * a) (phi * b)) with C0 by (apply C_eq; simpl; ring) ]
     end;
     try rewrite (Cexp_0 C0 eq_refl);
     try replace ((- phi - theta) / 2 + phi * 1) with ((phi - theta) / 2) by field;
     try replace ((phi - theta) / 2 - phi * 1) with ((- phi - theta) / 2) by field;
     try replace ((- phi - theta) / 2 + phi * 0) with ((- phi - theta) / 2) by field;
     try replace ((phi - theta) / 2 - phi * 0) with ((phi - theta) / 2) by field;
     unfold qtop, qbot, dctop, dcbot; cbn [t11 t12 t21 t22].
  1-4: set (E := Cexp (mkC il theta)); split; rewrite ?RtoC_opp, ?RtoC_mul; (try set (F := Cexp (mkC ir phi))); ring [Ci_sq].
  all: rewrite ?(Esplit' ir ((phi - theta) / 2) (phi / 2) (- theta / 2)) by field;
       rewrite ?(Esplit' ir ((- phi - theta) / 2) (- phi / 2) (- theta / 2)) by field;
       rewrite ?(Esplit' ir (phi - theta / 2) phi (- theta / 2)) by field.
  all: rewrite (Esplit' il (theta / 2) theta (- theta / 2)) by field.
  all: set (E := Cexp (mkC il theta)); set (H := Cexp (mkC 0 (- theta / 2))); split; rewrite ?RtoC_opp, ?RtoC_mul;
       (try set (F := Cexp (mkC ir phi))); (try set (F1 := Cexp (mkC ir (phi / 2)))); (try set (F2 := Cexp (mkC ir (- phi / 2))));
       ring [Ci_sq].
Qed.

Lemma gap_trans : forall a b a' b' a'' b'' x y k l, 0 <= k -> 0 <= l ->
  Cn2 (a - a')%C + Cn2 (b - b')%C <= k ^ 2 * (Cn2 x + Cn2 y) -> Cn2 (a' - a'')%C + Cn2 (b' - b'')%C <= l ^ 2 * (Cn2 x + Cn2 y) ->
  Cn2 (a - a'')%C + Cn2 (b - b'')%C <= (k + l) ^ 2 * (Cn2 x + Cn2 y).
Proof.
  intros a b a' b' a'' b'' x y k l Hk Hl H1 H2.
  replace (a - a'')%C with ((a - a') + (a' - a''))%C by ring. replace (b - b'')%C with ((b - b') + (b' - b''))%C by ring.
  apply pair_tri; assumption.
Qed.

Lemma mzi_lip2 : forall s back err ls theta phi err' ls' theta' phi' x y, fst ls <= 0 -> snd ls <= 0 -> fst ls' <= 0 -> snd ls' <= 0 ->
  let q := parallel_mzi s back theta phi err ls in let q' := parallel_mzi s back theta' phi' err' ls' in
  Cn2 (qtop q x y - qtop q' x y)%C + Cn2 (qbot q x y - qbot q' x y)%C <=
  (Rabs (theta - theta') + Rabs (phi - phi') + Rabs (fst err - fst err') + Rabs (snd err - snd err') +
   ln 10 / 20 * (Rabs (fst ls - fst ls') + Rabs (snd ls - snd ls'))) ^ 2 * (Cn2 x + Cn2 y).
Proof.
  intros s back err ls theta phi err' ls' theta' phi' x y Hl Hr Hl' Hr' q q'.
  destruct (mzi_phases2 s back) as (P1 & P2 & E1 & E2 & R1 & R2 & HF & HP1 & HP2 & HE1 & HE2 & HR1 & HR2 & Hc).
  destruct (HF err ls theta phi x y) as [A1 A2]. destruct (HF err' ls' theta' phi' x y) as [B1 B2]. fold q in A1, A2. fold q' in B1, B2.
  rewrite A1, A2, B1, B2. clear A1 A2 B1 B2 q q' HF.
  assert (Hln : 0 < ln 10) by (rewrite <- ln_1; apply ln_increasing; lra).
  assert (Hd : forall a b, Rabs (ln 10 * a / 20 - ln 10 * b / 20) = ln 10 / 20 * Rabs (a - b)).
  { intros a b. replace (ln 10 * a / 20 - ln 10 * b / 20) with (ln 10 / 20 * (a - b)) by field. rewrite Rabs_mult, (Rabs_pos_eq (ln 10 / 20)) by lra. reflexivity. }
  pose proof (Hd (fst ls) (fst ls')) as Dl. pose proof (Hd (snd ls) (snd ls')) as Dr. clear Hd.
  assert (Hil : ln 10 * fst ls / 20 <= 0) by nra. assert (Hir : ln 10 * snd ls / 20 <= 0) by nra.
  assert (Hil' : ln 10 * fst ls' / 20 <= 0) by nra. assert (Hir' : ln 10 * snd ls' / 20 <= 0) by nra.
  set (il := ln 10 * fst ls / 20) in *. set (ir := ln 10 * snd ls / 20) in *. set (il' := ln 10 * fst ls' / 20) in *. set (ir' := ln 10 * snd ls' / 20) in *.
  pose proof (cossin2 (PI / 4 + fst err)) as U0. pose proof (cossin2 (PI / 4 + snd err)) as U1.
  pose proof (cossin2 (PI / 4 + fst err')) as U0'. pose proof (cossin2 (PI / 4 + snd err')) as U1'.
  pose proof (coupler_chord (fst err) (fst err')) as K0. pose proof (coupler_chord (snd err) (snd err')) as K1.
  set (c0 := cos (PI / 4 + fst err)) in *. set (s0 := sin (PI / 4 + fst err)) in *. set (c1 := cos (PI / 4 + snd err)) in *. set (s1 := sin (PI / 4 + snd err)) in *.
  set (c0' := cos (PI / 4 + fst err')) in *. set (s0' := sin (PI / 4 + fst err')) in *. set (c1' := cos (PI / 4 + snd err')) in *. set (s1' := sin (PI / 4 + snd err')) in *.
  destruct (HP1 ir phi ir' phi' Hir Hir') as [P1a P1b]. destruct (HP2 ir phi ir' phi' Hir Hir') as [P2a P2b].
  destruct (HR1 ir phi ir' phi' Hir Hir') as [R1a R1b]. destruct (HR2 ir phi ir' phi' Hir Hir') as [R2a R2b].
  destruct (HE1 il theta il' theta' Hil Hil') as [E1a E1b]. destruct (HE2 il theta il' theta' Hil Hil') as [E2a E2b].
  destruct (HP1 ir' phi' ir' phi' Hir' Hir') as [P1c _]. destruct (HP2 ir' phi' ir' phi' Hir' Hir') as [P2c _].
  destruct (HR1 ir' phi' ir' phi' Hir' Hir') as [R1c _]. destruct (HR2 ir' phi' ir' phi' Hir' Hir') as [R2c _].
  destruct (HE1 il' theta' il' theta' Hil' Hil') as [E1c _]. destruct (HE2 il' theta' il' theta' Hil' Hil') as [E2c _].
  clear HP1 HP2 HR1 HR2 HE1 HE2.
  assert (Hc' : (R1 ir phi = C1 /\ R2 ir phi = C1 /\ R1 ir' phi' = C1 /\ R2 ir' phi' = C1) \/ (P1 ir phi = C1 /\ P2 ir phi = C1 /\ P1 ir' phi' = C1 /\ P2 ir' phi' = C1)).
  { destruct Hc as [Hc | Hc]; [left | right]; destruct (Hc ir phi), (Hc ir' phi'); auto. }
  clear Hc. set (p1 := P1 ir phi) in *. set (p2 := P2 ir phi) in *. set (r1 := R1 ir phi) in *. set (r2 := R2 ir phi) in *.
  set (p1' := P1 ir' phi') in *. set (p2' := P2 ir' phi') in *. set (r1' := R1 ir' phi') in *. set (r2' := R2 ir' phi') in *.
  set (e1 := E1 il theta) in *. set (e2 := E2 il theta) in *. set (e1' := E1 il' theta') in *. set (e2' := E2 il' theta') in *.
  clearbody p1 p2 r1 r2 p1' p2' r1' r2' e1 e2 e1' e2' c0 s0 c1 s1 c0' s0' c1' s1'.
  set (kp := Rabs (ir - ir') + Rabs (phi - phi')) in *. set (ke := Rabs (il - il') + Rabs (theta - theta')) in *.
  set (k0 := Rabs (fst err - fst err')) in *. set (k1 := Rabs (snd err - snd err')) in *.
  assert (Np : 0 <= kp) by (unfold kp; apply Rplus_le_le_0_compat; apply Rabs_pos). assert (Ne : 0 <= ke) by (unfold ke; apply Rplus_le_le_0_compat; apply Rabs_pos).
  assert (N0 : 0 <= k0) by (unfold k0; apply Rabs_pos). assert (N1 : 0 <= k1) by (unfold k1; apply Rabs_pos).
  replace (Rabs (theta - theta') + Rabs (phi - phi') + k0 + k1 + ln 10 / 20 * (Rabs (fst ls - fst ls') + Rabs (snd ls - snd ls')))
    with (kp + (k0 + (ke + k1))) by (unfold kp, ke; rewrite Dl, Dr; ring).
  clearbody kp ke k0 k1. clear Dl Dr Hil Hir Hil' Hir' il ir il' ir'. pose proof (Cn2_nonneg x) as Nx. pose proof (Cn2_nonneg y) as Ny.
  change (Cn2 (gT c0 s0 c1 s1 p1 p2 e1 e2 r1 x y - gT c0' s0' c1' s1' p1' p2' e1' e2' r1' x y)%C +
          Cn2 (gB c0 s0 c1 s1 p1 p2 e1 e2 r2 x y - gB c0' s0' c1' s1' p1' p2' e1' e2' r2' x y)%C <= (kp + (k0 + (ke + k1))) ^ 2 * (Cn2 x + Cn2 y)).
  pose proof (pow2_ge_0 kp) as Sp. pose proof (pow2_ge_0 ke) as Se. pose proof (pow2_ge_0 k0) as S0. pose proof (pow2_ge_0 k1) as S1.
  set (W := Cn2 x + Cn2 y) in *. assert (NW : 0 <= W) by (unfold W; lra).
  (* input and output phases *)
  apply gap_trans with (a' := gT c0 s0 c1 s1 p1' p2' e1 e2 r1' x y) (b' := gB c0 s0 c1 s1 p1' p2' e1 e2 r2' x y); [lra | lra | |].
  { destruct Hc' as [(H1 & H2 & H3 & H4) | (H1 & H2 & H3 & H4)]; rewrite H1, H2, H3, H4.
    - replace (gT c0 s0 c1 s1 p1 p2 e1 e2 C1 x y - gT c0 s0 c1 s1 p1' p2' e1 e2 C1 x y)%C with (gT c0 s0 c1 s1 (p1 - p1') (p2 - p2') e1 e2 C1 x y)%C by (unfold gT, dctop, dcbot; ring).
      replace (gB c0 s0 c1 s1 p1 p2 e1 e2 C1 x y - gB c0 s0 c1 s1 p1' p2' e1 e2 C1 x y)%C with (gB c0 s0 c1 s1 (p1 - p1') (p2 - p2') e1 e2 C1 x y)%C by (unfold gB, dctop, dcbot; ring).
      eapply Rle_trans; [apply (g_bound c0 s0 c1 s1 (kp ^ 2) 1 1); try assumption; rewrite Cn2_C1; lra |]. fold W. rewrite U0, U1. lra.
    - replace (gT c0 s0 c1 s1 C1 C1 e1 e2 r1 x y - gT c0 s0 c1 s1 C1 C1 e1 e2 r1' x y)%C with (gT c0 s0 c1 s1 C1 C1 e1 e2 (r1 - r1') x y)%C by (unfold gT, dctop, dcbot; ring).
      replace (gB c0 s0 c1 s1 C1 C1 e1 e2 r2 x y - gB c0 s0 c1 s1 C1 C1 e1 e2 r2' x y)%C with (gB c0 s0 c1 s1 C1 C1 e1 e2 (r2 - r2') x y)%C by (unfold gB, dctop, dcbot; ring).
      eapply Rle_trans; [apply (g_bound c0 s0 c1 s1 1 1 (kp ^ 2)); try assumption; rewrite Cn2_C1; lra |]. fold W. rewrite U0, U1. lra. }
  (* left coupler *)
  apply gap_trans with (a' := gT c0' s0' c1 s1 p1' p2' e1 e2 r1' x y) (b' := gB c0' s0' c1 s1 p1' p2' e1 e2 r2' x y); [lra | lra | |].
  { replace (gT c0 s0 c1 s1 p1' p2' e1 e2 r1' x y - gT c0' s0' c1 s1 p1' p2' e1 e2 r1' x y)%C with (gT (c0 - c0') (s0 - s0') c1 s1 p1' p2' e1 e2 r1' x y)
      by (unfold gT, dctop, dcbot; rewrite !RtoC_sub; ring).
    replace (gB c0 s0 c1 s1 p1' p2' e1 e2 r2' x y - gB c0' s0' c1 s1 p1' p2' e1 e2 r2' x y)%C with (gB (c0 - c0') (s0 - s0') c1 s1 p1' p2' e1 e2 r2' x y)
      by (unfold gB, dctop, dcbot; rewrite !RtoC_sub; ring).
    eapply Rle_trans; [apply (g_bound (c0 - c0') (s0 - s0') c1 s1 1 1 1); assumption |]. fold W. rewrite U1.
    assert (((c0 - c0') * (c0 - c0') + (s0 - s0') * (s0 - s0')) * W <= k0 ^ 2 * W) by (apply Rmult_le_compat_r; assumption). lra. }
  (* middle phases *)
  apply gap_trans with (a' := gT c0' s0' c1 s1 p1' p2' e1' e2' r1' x y) (b' := gB c0' s0' c1 s1 p1' p2' e1' e2' r2' x y); [lra | lra | |].
  { replace (gT c0' s0' c1 s1 p1' p2' e1 e2 r1' x y - gT c0' s0' c1 s1 p1' p2' e1' e2' r1' x y)%C with (gT c0' s0' c1 s1 p1' p2' (e1 - e1') (e2 - e2') r1' x y)%C
      by (unfold gT, dctop, dcbot; ring).
    replace (gB c0' s0' c1 s1 p1' p2' e1 e2 r2' x y - gB c0' s0' c1 s1 p1' p2' e1' e2' r2' x y)%C with (gB c0' s0' c1 s1 p1' p2' (e1 - e1') (e2 - e2') r2' x y)%C
      by (unfold gB, dctop, dcbot; ring).
    eapply Rle_trans; [apply (g_bound c0' s0' c1 s1 1 (ke ^ 2) 1); assumption |]. fold W. rewrite U1, U0'. lra. }
  (* right coupler *)
  replace (gT c0' s0' c1 s1 p1' p2' e1' e2' r1' x y - gT c0' s0' c1' s1' p1' p2' e1' e2' r1' x y)%C with (gT c0' s0' (c1 - c1') (s1 - s1') p1' p2' e1' e2' r1' x y)
    by (unfold gT, dctop, dcbot; rewrite !RtoC_sub; ring).
  replace (gB c0' s0' c1 s1 p1' p2' e1' e2' r2' x y - gB c0' s0' c1' s1' p1' p2' e1' e2' r2' x y)%C with (gB c0' s0' (c1 - c1') (s1 - s1') p1' p2' e1' e2' r2' x y)
    by (unfold gB, dctop, dcbot; rewrite !RtoC_sub; ring).
  eapply Rle_trans; [apply (g_bound c0' s0' (c1 - c1') (s1 - s1') 1 1 1); assumption |]. fold W. rewrite U0'.
  assert (((c1 - c1') * (c1 - c1') + (s1 - s1') * (s1 - s1')) * W <= k1 ^ 2 * W) by (apply Rmult_le_compat_r; assumption). lra.
Qed.

(** ** The whole mesh *)
Definition node_gap (m m' : mesh) (p p' : params) (k : nat) : R :=
  Rabs (thetas p k - thetas p' k) + Rabs (phis p k - phis p' k) +
  Rabs (fst (err_at m k) - fst (err_at m' k)) + Rabs (snd (err_at m k) - snd (err_at m' k)) +
  ln 10 / 20 * (Rabs (fst (loss_at m k) - fst (loss_at m' k)) + Rabs (snd (loss_at m k) - snd (loss_at m' k))).
Lemma node_gap_pos : forall m m' p p' k, 0 <= node_gap m m' p p' k.
Proof.
  intros. unfold node_gap. assert (Hln : 0 < ln 10) by (rewrite <- ln_1; apply ln_increasing; lra).
  assert (A : forall a b : R, 0 <= Rabs (a - b)) by (intros; apply Rabs_pos).
  assert (0 <= ln 10 / 20 * (Rabs (fst (loss_at m k) - fst (loss_at m' k)) + Rabs (snd (loss_at m k) - snd (loss_at m' k)))).
  { apply Rmult_le_pos; [lra | apply Rplus_le_le_0_compat; apply A]. }
  pose proof (A (thetas p k) (thetas p' k)). pose proof (A (phis p k) (phis p' k)). pose proof (A (fst (err_at m k)) (fst (err_at m' k))).
  pose proof (A (snd (err_at m k)) (snd (err_at m' k))). lra.
Qed.
Lemma mesh_lip2 : forall m m' back p p' x y y' (D : Z -> R) G, wf_mesh m -> wf_mesh m' -> same_wiring m m' -> style m = style m' ->
  attenuating m -> attenuating m' ->
  (forall nd, In nd (nodes m) -> node_gap m m' p p' (node_id nd) <= D (column nd)) ->
  0 <= G -> (forall i, (i < n_rails m)%nat -> Rabs (gammas p i - gammas p' i) <= G) ->
  matrix_fn m back p x = Some y -> matrix_fn m' back p' x = Some y' ->
  sqrt (power (n_rails m) (fun i => y i - y' i)%C) <= (Rsum (Z.to_nat (num_columns m)) (fun c => D (Z.of_nat c)) + G) * sqrt (power (n_rails m) x).
Proof.
  intros m m' back p p' x y y' D G Hwf Hwf' SW Hst Hatt Hatt' Hn HG Hg Hy Hy'.
  destruct (wiring_idx m m' SW) as (_ & Eidx & _). pose proof SW as (_ & Enr & _).
  destruct (wf_all m Hwf) as (cols & E1 & _ & E3 & _ & E5 & E6 & _). destruct (wf_all m' Hwf') as (cols' & E1' & _ & E3' & _ & E5' & _).
  destruct Hwf as (Hd & Hr & Hnd & Hcol).
  set (el := mzis m back p) in *. set (el' := mzis m' back p') in *.
  assert (Hy2 : y = let x0 := if back then apply_gammas (gammas p) x else x in
     let w := fold_left (fun v idx => parallel_transform el idx v) (if back then rev (all_idx m) else all_idx m) x0 in if back then w else apply_gammas (gammas p) w).
  { apply Some_inj. rewrite <- Hy. unfold matrix_fn. rewrite E1. cbv zeta.
    replace (map triples (if back then rev cols else cols)) with (if back then rev (all_idx m) else all_idx m) by (destruct back; rewrite ?map_rev, E3; reflexivity).
    replace (forallb _ _) with true; [reflexivity |]. symmetry. destruct back; [apply forallb_rev |]; exact E5. }
  assert (Hy2' : y' = let x0 := if back then apply_gammas (gammas p') x else x in
     let w := fold_left (fun v idx => parallel_transform el' idx v) (if back then rev (all_idx m) else all_idx m) x0 in if back then w else apply_gammas (gammas p') w).
  { apply Some_inj. rewrite <- Hy'. unfold matrix_fn. rewrite E1'. cbv zeta. rewrite Eidx.
    replace (map triples (if back then rev cols' else cols')) with (if back then rev (all_idx m') else all_idx m') by (destruct back; rewrite ?map_rev, E3'; reflexivity).
    replace (forallb _ _) with true; [reflexivity |]. symmetry. destruct back; [apply forallb_rev |]; exact E5'. }
  clear Hy Hy' E1' E3' E5'. cbv zeta in Hy2, Hy2'.
  assert (F2 : Forall2 (col_ok (n_rails m) el el') (all_idx m) (map (fun c => D (Z.of_nat c)) (seq 0 (Z.to_nat (num_columns m))))).
  { unfold all_idx in E6 |- *.
    assert (Hin : forall c, In c (seq 0 (Z.to_nat (num_columns m))) -> (0 <= Z.of_nat c < num_columns m)%Z) by (intros c K; apply in_seq in K; lia).
    revert E6 Hin. generalize (seq 0 (Z.to_nat (num_columns m))) as sq. induction sq as [| c sq IH]; intros E6 Hin; cbn [map]; constructor.
    - apply Forall_inv in E6.
      assert (Hnode : forall t b k, In (t, b, k) (col_idx m c) -> exists nd, In nd (nodes m) /\ column nd = Z.of_nat c /\ top nd = t /\ bottom nd = b /\ node_id nd = k).
      { intros t b k K. unfold col_idx in K. apply in_map_iff in K. destruct K as (nd & E & K). apply filter_In in K. destruct K as [K1 K2].
        apply Z.eqb_eq in K2. exists nd. unfold tri in E. inversion E. repeat split; auto. }
      split; [exact E6 | split; [| split]].
      + intros j Hj. destruct (rails_inv _ _ Hj) as (t & b & k & Hi & Ej). destruct (Hnode t b k Hi) as (nd & N1 & N2 & N3 & N4 & N5).
        destruct (Hr nd N1) as (R1 & R2 & _). destruct Ej; subst; assumption.
      + destruct (Hcol (Z.of_nat c)) as (nd & N1 & N2); [apply Hin; left; reflexivity |]. rewrite <- N2.
        eapply Rle_trans; [| apply (Hn nd N1)]. apply node_gap_pos.
      + intros t b k Hi. destruct (Hnode t b k Hi) as (nd & N1 & N2 & N3 & N4 & N5).
        destruct (loss_at_neg m Hatt k) as [L1 L2]. destruct (loss_at_neg m' Hatt' k) as [L1' L2'].
        split; [apply parallel_mzi_contr; assumption |]. split; [apply parallel_mzi_contr; assumption |].
        intros u v. unfold el, el', mzis. rewrite <- Hst. eapply Rle_trans; [apply mzi_lip2; assumption |].
        fold (node_gap m m' p p' k).
        apply Rmult_le_compat_r; [pose proof (Cn2_nonneg u); pose proof (Cn2_nonneg v); lra |].
        apply pow_incr. split; [apply node_gap_pos |]. rewrite <- N5, <- N2. apply Hn. exact N1.
    - apply IH; [exact (Forall_inv_tail E6) |]. intros c' K. apply Hin. right. exact K. }
  set (n := n_rails m) in *. change (sqrt (power n x)) with (nrm n x). change (sqrt (power n (fun i => y i - y' i)%C)) with (nrm n (fun i => y i - y' i)%C).
  rewrite <- fold_right_seq.
  set (Ds := map (fun c => D (Z.of_nat c)) (seq 0 (Z.to_nat (num_columns m)))) in *.
  assert (Zs : nrm n (fun i => x i - x i)%C = 0).
  { unfold nrm. rewrite <- sqrt_0. f_equal. unfold power. apply Rsum_0. intros i _. replace (x i - x i)%C with C0 by ring. apply Cn2_C0. }
  destruct back.
  - pose proof (fold_lip n el el' _ _ (Forall2_rev' _ _ _ _ _ F2)) as K. rewrite fold_right_rev in K.
    rewrite Hy2, Hy2'. eapply Rle_trans; [apply K |].
    pose proof (gammas_lip n (gammas p) (gammas p') x x G HG Hg) as L. rewrite Zs in L.
    assert (N : nrm n (apply_gammas (gammas p') x) = nrm n x) by (unfold nrm; rewrite gammas_power; reflexivity). rewrite N. lra.
  - pose proof (fold_lip n el el' _ _ F2 x x) as K. rewrite Zs in K.
    set (u := fold_left (fun w idx => parallel_transform el idx w) (all_idx m) x) in *.
    set (v := fold_left (fun w idx => parallel_transform el' idx w) (all_idx m) x) in *.
    assert (V : nrm n v <= nrm n x).
    { unfold v. clear - F2. revert x. induction F2 as [| idx d l l' (Hnd & Hlt & HD & Hq) _ IH]; intro x; cbn [fold_left]; [lra |].
      eapply Rle_trans; [apply IH |]. apply nrm_mono, column_contr; auto. intros t b k Hin. apply (Hq t b k Hin). }
    rewrite Hy2, Hy2'. eapply Rle_trans; [apply (gammas_lip n (gammas p) (gammas p') u v G HG Hg) |].
    assert (G * nrm n v <= G * nrm n x) by (apply Rmult_le_compat_l; assumption). lra.
Qed.

Lemma Forall_nth_pair : forall (P : R * R -> Prop) l k, Forall P l -> P (0, 0) -> P (nth k l (0, 0)).
Proof. intros P l k H H0. destruct (nth_in_or_default k l (0, 0)) as [I | ->]; [| exact H0]. rewrite Forall_forall in H. apply H. exact I. Qed.

Lemma mesh_lip_uniform : forall m m' back p x y y' dlt L, wf_mesh m -> wf_mesh m' -> same_wiring m m' -> style m = style m' -> 0 <= dlt -> 0 <= L ->
  Forall (fun e => e = (0, 0)) (bs_errors m) -> Forall (fun l => l = (0, 0)) (losses m) ->
  Forall (fun e => Rabs (fst e) <= dlt /\ Rabs (snd e) <= dlt) (bs_errors m') -> Forall (fun l => - L <= fst l <= 0 /\ - L <= snd l <= 0) (losses m') ->
  matrix_fn m back p x = Some y -> matrix_fn m' back p x = Some y' ->
  sqrt (power (n_rails m) (fun i => y i - y' i)%C) <= INR (Z.to_nat (num_columns m)) * (2 * dlt + ln 10 / 10 * L) * sqrt (power (n_rails m) x).
Proof.
  intros m m' back p x y y' dlt L W W' SW St Hd HL He Hl He' Hl' Hy Hy'.
  assert (Hln : 0 < ln 10) by (rewrite <- ln_1; apply ln_increasing; lra).
  eapply Rle_trans.
  - apply (mesh_lip2 m m' back p p x y y' (fun _ => 2 * dlt + ln 10 / 10 * L) 0); try assumption; try lra.
    + unfold attenuating. eapply Forall_impl; [| exact Hl]. intros a ->. cbn. lra.
    + unfold attenuating. eapply Forall_impl; [| exact Hl']. intros a Ha. cbn in Ha. lra.
    + intros nd _. unfold node_gap, err_at, loss_at. set (k := node_id nd).
      pose proof (Forall_nth_pair _ _ k He eq_refl) as A1. pose proof (Forall_nth_pair _ _ k Hl eq_refl) as A2.
      assert (A3 : Rabs (fst (nth k (bs_errors m') (0,0))) <= dlt /\ Rabs (snd (nth k (bs_errors m') (0,0))) <= dlt).
      { apply (Forall_nth_pair _ _ k He'). cbn. rewrite Rabs_R0. lra. }
      assert (A4 : - L <= fst (nth k (losses m') (0,0)) <= 0 /\ - L <= snd (nth k (losses m') (0,0)) <= 0).
      { apply (Forall_nth_pair _ _ k Hl'). cbn. lra. }
      cbv beta in A1, A2. rewrite A1, A2. cbn [fst snd]. rewrite !Rminus_diag_eq by reflexivity. rewrite Rabs_R0. rewrite !Rminus_0_l, !Rabs_Ropp.
      destruct A3 as [A3 A3']. destruct A4 as [A4 A4'].
      assert (B1 : Rabs (fst (nth k (losses m') (0,0))) <= L) by (apply Rabs_le; lra).
      assert (B2 : Rabs (snd (nth k (losses m') (0,0))) <= L) by (apply Rabs_le; lra).
      assert (B3 : ln 10 / 20 * (Rabs (fst (nth k (losses m') (0,0))) + Rabs (snd (nth k (losses m') (0,0)))) <= ln 10 / 20 * (L + L)) by (apply Rmult_le_compat_l; lra).
      lra.
    + intros i _. rewrite Rminus_diag_eq by reflexivity. rewrite Rabs_R0. lra.
  - apply Req_le. rewrite Rplus_0_r. f_equal. generalize (Z.to_nat (num_columns m)) as nc. generalize (2 * dlt + ln 10 / 10 * L) as c. intro c.
    induction nc as [| nc IH]; [cbn; ring |]. cbn [Rsum]. rewrite IH, S_INR. ring.
Qed.
