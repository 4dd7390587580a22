(** Orthogonality of the modes and bounds of the propagation constants. *)
From Coq Require Import Reals List Arith ZArith Lra Lia Bool.
From Verif Require Import Cx Arr Model_coupling Model_yee Spec_yee Proof_yee Proof_yee2 Proof_yee3 Model_fdfd Spec_fdfd Proof_fdfd Proof_fdfd2 Model_grid Model_mode Spec_mode Proof_mode Proof_mode2 Spec_orth.
Import ListNotations.
Local Open Scope R_scope.

Lemma inner_ext : forall s f g f' g', (forall i j k, in_grid s i j k -> f i j k = f' i j k) ->
  (forall i j k, in_grid s i j k -> g i j k = g' i j k) -> inner s f g = inner s f' g'.
Proof. intros s f g f' g' H1 H2. unfold inner. apply grid_sum_ext; intros. rewrite H1, H2 by auto. reflexivity. Qed.
Lemma inner_add_l : forall s f f' g, inner s (fun i j k => f i j k + f' i j k)%C g = (inner s f g + inner s f' g)%C.
Proof. intros. unfold inner. rewrite <- grid_sum_add. apply grid_sum_ext; intros; ring. Qed.
Lemma inner_add_r : forall s f g g', inner s f (fun i j k => g i j k + g' i j k)%C = (inner s f g + inner s f g')%C.
Proof. intros. unfold inner. rewrite <- grid_sum_add. apply grid_sum_ext; intros. rewrite Cconj_add. ring. Qed.
Lemma inner_sub_l : forall s f f' g, inner s (fun i j k => f i j k - f' i j k)%C g = (inner s f g - inner s f' g)%C.
Proof. intros. unfold inner. rewrite <- grid_sum_sub. apply grid_sum_ext; intros; ring. Qed.
Lemma inner_sub_r : forall s f g g', inner s f (fun i j k => g i j k - g' i j k)%C = (inner s f g - inner s f g')%C.
Proof. intros. unfold inner. rewrite <- grid_sum_sub. apply grid_sum_ext; intros. rewrite Cconj_sub. ring. Qed.
Lemma inner_scal_l : forall s c f g, inner s (fun i j k => c * f i j k)%C g = (c * inner s f g)%C.
Proof. intros. unfold inner. rewrite <- grid_sum_scal. apply grid_sum_ext; intros; ring. Qed.
Lemma inner_scal_r : forall s c f g, inner s f (fun i j k => c * g i j k)%C = (Cconj c * inner s f g)%C.
Proof. intros. unfold inner. rewrite <- grid_sum_scal. apply grid_sum_ext; intros. rewrite Cconj_mul. ring. Qed.
Lemma cross_inner : forall s e h, cross_power s e h = (inner s (e AX) (h AY) - inner s (e AY) (h AX))%C.
Proof. intros. unfold cross_power, power_along, inner. rewrite <- grid_sum_sub. reflexivity. Qed.
Lemma cross_ext : forall s e h e' h', (forall c i j k, in_grid s i j k -> e c i j k = e' c i j k) ->
  (forall c i j k, in_grid s i j k -> h c i j k = h' c i j k) -> cross_power s e h = cross_power s e' h'.
Proof. 
  intros. rewrite !cross_inner. rewrite (inner_ext s (e AX) (h AY) (e' AX) (h' AY)), (inner_ext s (e AY) (h AX) (e' AY) (h' AX)) by auto. reflexivity.
Qed.

(** Lorentz reciprocity on the grid, for any fields. *)
Lemma lorentz : forall s (hh : axis -> R) b1 b2 e h,
  (vinner s (curl_beta_fn (diff_fn s (uniform_dx hh) false) b1 e) h - vinner s e (curl_beta_fn (diff_fn s (uniform_dx hh) true) b2 h))%C =
  (- (Ci * RtoC (b1 - b2)) * cross_power s e h)%C.
Proof.
  intros s hh b1 b2 e h. rewrite cross_inner. unfold vinner. unfold curl_beta_fn.
  rewrite (inner_add_l s (diff_fn s (uniform_dx hh) false (e AZ) AY) (fun i j k => Ci * RtoC b1 * e AY i j k)%C).
  rewrite (inner_sub_l s (fun i j k => - (Ci * RtoC b1) * e AX i j k)%C (diff_fn s (uniform_dx hh) false (e AZ) AX)).
  rewrite (inner_sub_l s (diff_fn s (uniform_dx hh) false (e AY) AX) (diff_fn s (uniform_dx hh) false (e AX) AY)).
  rewrite (inner_add_r s (e AX) (diff_fn s (uniform_dx hh) true (h AZ) AY) (fun i j k => Ci * RtoC b2 * h AY i j k)%C).
  rewrite (inner_sub_r s (e AY) (fun i j k => - (Ci * RtoC b2) * h AX i j k)%C (diff_fn s (uniform_dx hh) true (h AZ) AX)).
  rewrite (inner_sub_r s (e AZ) (diff_fn s (uniform_dx hh) true (h AY) AX) (diff_fn s (uniform_dx hh) true (h AX) AY)).
  rewrite !inner_scal_l, !inner_scal_r, !diff_adjoint.
  replace (Cconj (Ci * RtoC b2)) with (- (Ci * RtoC b2))%C by (apply C_eq; cbn; ring).
  replace (Cconj (- (Ci * RtoC b2))) with (Ci * RtoC b2)%C by (apply C_eq; cbn; ring).
  replace (RtoC (b1 - b2)) with (RtoC b1 - RtoC b2)%C by (apply C_eq; cbn; ring). ring.
Qed.

Section Pair.
Variable q : mode_solver.
Notation s := (q_shape q).
Notation E c := (q_eps_t q c).
(** Maxwell's equations of a mode with constant b, in terms of curl_beta_fn. *)
Definition mx (b : R) (e h : vfld) : Prop :=
  (forall c i j k, in_grid s i j k -> curl_beta_fn (diff_fn s (q_dx q) false) b e c i j k = (- (Ci * RtoC (q_k0 q) * h c i j k))%C) /\
  (forall c i j k, in_grid s i j k -> curl_beta_fn (diff_fn s (q_dx q) true) b h c i j k = (Ci * RtoC (q_k0 q) * RtoC (E c i j k) * e c i j k)%C).
Lemma mx_of : forall b e h,
  maxwell_mode s (fwd s (q_dx q)) (bwd s (q_dx q)) (- (Ci * RtoC b))%C (q_k0 q) (q_eps_t q) e h -> mx b e h.
Proof.
  intros b e h [H1 H2]. split; intros c i j k H.
  - rewrite <- (curl_kz q false) by auto. apply H1; auto.
  - rewrite <- (curl_kz q true) by auto. apply H2; auto.
Qed.
Definition winner (e e' : vfld) : C := vinner s (fun c i j k => RtoC (E c i j k) * e c i j k)%C e'.
Lemma pair_id : forall b1 b2 e1 h1 e2 h2, mx b1 e1 h1 -> mx b2 e2 h2 ->
  (RtoC (b1 - b2) * cross_power s e1 h2)%C = (RtoC (q_k0 q) * (vinner s h1 h2 - winner e1 e2))%C.
Proof.
  intros b1 b2 e1 h1 e2 h2 [A1 _] [_ A2]. pose proof (lorentz s (q_h q) b1 b2 e1 h2) as L.
  assert (X : vinner s (curl_beta_fn (diff_fn s (uniform_dx (q_h q)) false) b1 e1) h2 = (- (Ci * RtoC (q_k0 q)) * vinner s h1 h2)%C).
  { unfold vinner.
    rewrite (inner_ext s (curl_beta_fn (diff_fn s (uniform_dx (q_h q)) false) b1 e1 AX) (h2 AX) (fun i j k => - (Ci * RtoC (q_k0 q)) * h1 AX i j k)%C (h2 AX)); auto;
      [| intros; fold (q_dx q); rewrite A1 by auto; ring].
    rewrite (inner_ext s (curl_beta_fn (diff_fn s (uniform_dx (q_h q)) false) b1 e1 AY) (h2 AY) (fun i j k => - (Ci * RtoC (q_k0 q)) * h1 AY i j k)%C (h2 AY)); auto;
      [| intros; fold (q_dx q); rewrite A1 by auto; ring].
    rewrite (inner_ext s (curl_beta_fn (diff_fn s (uniform_dx (q_h q)) false) b1 e1 AZ) (h2 AZ) (fun i j k => - (Ci * RtoC (q_k0 q)) * h1 AZ i j k)%C (h2 AZ)); auto;
      [| intros; fold (q_dx q); rewrite A1 by auto; ring].
    rewrite !inner_scal_l. ring. }
  assert (Y : vinner s e1 (curl_beta_fn (diff_fn s (uniform_dx (q_h q)) true) b2 h2) = (- (Ci * RtoC (q_k0 q)) * winner e1 e2)%C).
  { unfold winner, vinner.
    assert (G : forall c, inner s (e1 c) (curl_beta_fn (diff_fn s (uniform_dx (q_h q)) true) b2 h2 c) =
      (- (Ci * RtoC (q_k0 q)) * inner s (fun i j k => RtoC (E c i j k) * e1 c i j k)%C (e2 c))%C).
    { intros c. rewrite <- inner_scal_l. unfold inner. apply grid_sum_ext; intros i j k H. fold (q_dx q). rewrite A2 by auto.
      rewrite !Cconj_mul. replace (Cconj Ci) with (- Ci)%C by (apply C_eq; cbn; ring).
      replace (Cconj (RtoC (q_k0 q))) with (RtoC (q_k0 q)) by (apply C_eq; cbn; ring).
      replace (Cconj (RtoC (E c i j k))) with (RtoC (E c i j k)) by (apply C_eq; cbn; ring). ring. }
    rewrite !G. ring. }
  rewrite X, Y in L.
  apply (Cmul_cancel' (- Ci)%C); [intro E0; apply (f_equal im) in E0; cbn in E0; lra |].
  transitivity (- (Ci * RtoC (b1 - b2)) * cross_power s e1 h2)%C; [ring |]. rewrite <- L. ring.
Qed.
(** The mirror image of a mode travels with -b. *)
Definition mirror_e (e : vfld) : vfld := fun c i j k => match c with AZ => (- e AZ i j k)%C | _ => e c i j k end.
Definition mirror_h (h : vfld) : vfld := fun c i j k => match c with AZ => h AZ i j k | _ => (- h c i j k)%C end.
Lemma mx_mirror : forall b e h, mx b e h -> mx (- b) (mirror_e e) (mirror_h h).
Proof.
  intros b e h [A1 A2]. split; intros c i j k H.
  - pose proof (A1 c i j k H) as Q. unfold mirror_e, mirror_h, curl_beta_fn in *.
    replace (RtoC (- b)) with (- RtoC b)%C by (apply C_eq; cbn; ring).
    destruct c; rewrite ?(diff_opp s (q_dx q) false (e AZ)).
    + transitivity (- (diff_fn s (q_dx q) false (e AZ) AY i j k + Ci * RtoC b * e AY i j k))%C; [ring |]. rewrite Q. ring.
    + transitivity (- (- (Ci * RtoC b) * e AX i j k - diff_fn s (q_dx q) false (e AZ) AX i j k))%C; [ring |]. rewrite Q. ring.
    + exact Q.
  - pose proof (A2 c i j k H) as Q. unfold mirror_e, mirror_h, curl_beta_fn in *.
    replace (RtoC (- b)) with (- RtoC b)%C by (apply C_eq; cbn; ring).
    destruct c; rewrite ?(diff_opp s (q_dx q) true (h AX)), ?(diff_opp s (q_dx q) true (h AY)); change (fun i j k => h AZ i j k) with (h AZ).
    + transitivity (diff_fn s (q_dx q) true (h AZ) AY i j k + Ci * RtoC b * h AY i j k)%C; [ring |]. rewrite Q. ring.
    + transitivity (- (Ci * RtoC b) * h AX i j k - diff_fn s (q_dx q) true (h AZ) AX i j k)%C; [ring |]. rewrite Q. ring.
    + transitivity (- (diff_fn s (q_dx q) true (h AY) AX i j k - diff_fn s (q_dx q) true (h AX) AY i j k))%C; [ring |]. rewrite Q. ring.
Qed.
Lemma vinner_conj : forall u v, vinner s u v = Cconj (vinner s v u).
Proof. intros. unfold vinner. rewrite !Cconj_add, <- !inner_conj. reflexivity. Qed.
Lemma winner_conj : forall u v, winner u v = Cconj (winner v u).
Proof.
  intros. unfold winner, vinner. rewrite !Cconj_add. 
  assert (G : forall c, inner s (fun i j k => RtoC (E c i j k) * u c i j k)%C (v c) = Cconj (inner s (fun i j k => RtoC (E c i j k) * v c i j k)%C (u c))).
  { intros c. rewrite <- inner_conj. unfold inner. apply grid_sum_ext; intros. rewrite Cconj_mul.
    replace (Cconj (RtoC (E c i j k))) with (RtoC (E c i j k)) by (apply C_eq; cbn; ring). ring. }
  rewrite !G. reflexivity.
Qed.
Lemma pair_sum : forall b1 b2 e1 h1 e2 h2, mx b1 e1 h1 -> mx b2 e2 h2 -> b1 <> b2 ->
  (cross_power s e1 h2 + Cconj (cross_power s e2 h1))%C = C0.
Proof.
  intros b1 b2 e1 h1 e2 h2 M1 M2 Hb. pose proof (pair_id _ _ _ _ _ _ M1 M2) as P. pose proof (pair_id _ _ _ _ _ _ M2 M1) as Q.
  apply (f_equal Cconj) in Q. rewrite !Cconj_mul, Cconj_sub, <- vinner_conj, <- winner_conj in Q.
  replace (Cconj (RtoC (q_k0 q))) with (RtoC (q_k0 q)) in Q by (apply C_eq; cbn; ring).
  replace (Cconj (RtoC (b2 - b1))) with (- RtoC (b1 - b2))%C in Q by (apply C_eq; cbn; ring).
  apply (Cmul_cancel' (RtoC (b1 - b2))); [apply RtoC_neq0; lra |].
  replace (RtoC (b1 - b2) * (cross_power s e1 h2 + Cconj (cross_power s e2 h1)))%C with
    (RtoC (b1 - b2) * cross_power s e1 h2 - (- RtoC (b1 - b2) * Cconj (cross_power s e2 h1)))%C by ring.
  rewrite P, Q. ring.
Qed.
Lemma pair_orth : forall b1 b2 e1 h1 e2 h2, mx b1 e1 h1 -> mx b2 e2 h2 -> b1 * b1 <> b2 * b2 -> cross_power s e1 h2 = C0.
Proof.
  intros b1 b2 e1 h1 e2 h2 M1 M2 Hb.
  assert (b1 <> b2) by (intro; subst; lra). assert (b1 <> - b2) by (intro; subst; lra).
  pose proof (pair_sum _ _ _ _ _ _ M1 M2 H) as P. pose proof (pair_sum _ _ _ _ _ _ M1 (mx_mirror _ _ _ M2) H0) as Q.
  assert (X : cross_power s e1 (mirror_h h2) = (- cross_power s e1 h2)%C).
  { rewrite !cross_inner. unfold mirror_h.
    rewrite (inner_ext s (e1 AX) _ (e1 AX) (fun i j k => (- C1) * h2 AY i j k)%C), (inner_ext s (e1 AY) _ (e1 AY) (fun i j k => (- C1) * h2 AX i j k)%C); auto; try (intros; ring).
    rewrite !inner_scal_r. replace (Cconj (- C1)) with (- C1)%C by (apply C_eq; cbn; ring). ring. }
  assert (Y : cross_power s (mirror_e e2) h1 = cross_power s e2 h1) by (rewrite !cross_inner; reflexivity).
  rewrite X, Y in Q.
  apply (Cmul_cancel' (RtoC 2)); [apply RtoC_neq0; lra |].
  transitivity ((cross_power s e1 h2 + Cconj (cross_power s e2 h1)) - (- cross_power s e1 h2 + Cconj (cross_power s e2 h1)))%C.
  - replace (RtoC 2) with (C1 + C1)%C by (apply C_eq; cbn; ring). ring.
  - rewrite P, Q. ring.
Qed.

Lemma modes_orth : forall b1 U1 V1 b2 U2 V2, q_k0 q <> 0 -> pos_eps q -> b1 <> 0 -> b2 <> 0 ->
  eigen2 q (RtoC (b1 * b1)) U1 V1 -> eigen2 q (RtoC (b2 * b2)) U2 V2 -> b1 * b1 <> b2 * b2 ->
  cross_power s (mode_e q b1 (mode_h q b1 U1 V1)) (mode_h q b2 U2 V2) = C0.
Proof.
  intros b1 U1 V1 b2 U2 V2 Hk Hp H1 H2 E1 E2 Hb.
  destruct (modes_maxwell q b1 U1 V1 Hk H1 Hp E1) as [M1 _]. destruct (modes_maxwell q b2 U2 V2 Hk H2 Hp E2) as [M2 _].
  apply mx_of in M1. apply mx_of in M2. exact (pair_orth _ _ _ _ _ _ M1 M2 Hb).
Qed.
End Pair.
