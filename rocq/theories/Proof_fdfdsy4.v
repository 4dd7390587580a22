(** Proofs for C166 (4): units; the TM operator is not mirror symmetric. *)
From Coq Require Import Reals List Arith ZArith Lra Lia Bool FunctionalExtensionality.
From Verif Require Import Cx Arr Model_coupling Model_yee Spec_yee Proof_yee Proof_yee2 Proof_yee3 Model_fdfd Spec_fdfd Spec_fdtd Proof_energy Proof_fdfd Proof_fdfd2 Proof_fdfd3 Proof_fdfd4
  Model_fdfdc Spec_fdfdc Proof_fdfdc Proof_fdfdc2 Proof_fdfdc3 Spec_fdfdst Proof_fdfdst Model_fdtd Spec_sym Proof_sym2 Spec_fdfdsy Proof_fdfdsy Proof_fdfdsy2 Proof_fdfdsy3.
Local Open Scope R_scope.
Section Unit.
Variable d : cfdfd.
Variable u : R.
Hypothesis Hu : 0 < u.
Hypothesis Hf : nz_pixel (cf_shape d) (cf_dxf d).
Hypothesis Hbk : nz_pixel (cf_shape d) (cf_dxb d).
Let d' := in_unit u d.
Let Hu0 : u <> 0. Proof. lra. Qed.
Lemma uplain : plain_grid d -> plain_grid d'.
Proof.
  intros ((h & E1 & E2) & Hk). split.
  - exists (fun a => u * h a). cbn [d' in_unit cf_dxf cf_dxb]. rewrite E1, E2. split; repeat (apply functional_extensionality; intro); unfold uniform_dx; rewrite RtoC_mul; reflexivity.
  - cbn [d' in_unit cf_k0]. apply Rdiv_lt_0_compat; auto.
Qed.
Lemma ulossy : forall sigma, lossy d sigma -> lossy d' sigma.
Proof. intros sigma H. exact H. Qed.
Definition tmul (f : fld) : fld := fun i j k => (RtoC u * f i j k)%C.
Lemma up : forall f b i j k, in_grid (cf_shape d) i j k -> dplus d' (tmul f) b i j k = dplus d f b i j k.
Proof.
  intros. unfold d'. rewrite scaled_dplus by auto. unfold tmul. rewrite dplus_scal. assert (E : (RtoC (/ u) * RtoC u)%C = C1) by (apply C_eq; cbn [re im RtoC Cmul C1]; field; auto).
  transitivity (RtoC (/ u) * RtoC u * dplus d f b i j k)%C; [ring | rewrite E; ring].
Qed.
Lemma um : forall f g b i j k, same_on (cf_shape d) f g -> in_grid (cf_shape d) i j k -> dminus d' f b i j k = (RtoC (/ u) * dminus d g b i j k)%C.
Proof. intros f g b i j k H Hg. unfold d'. rewrite scaled_dminus by auto. f_equal. apply dminus_ext; auto. Qed.
Lemma rhs_u : forall (t x y : C), (RtoC (/ u) * (RtoC (cf_k0 d * cf_k0 d) * t * x + RtoC (cf_k0 d) * y))%C =
  (RtoC (cf_k0 d / u * (cf_k0 d / u)) * t * (RtoC u * x) + RtoC (cf_k0 d / u) * y)%C.
Proof. intros. apply C_eq; cbn [re im RtoC Cadd Cmul]; field; auto. Qed.
Lemma unit_wave3 : forall src e, wave3 d src e -> wave3 d' src (times u e).
Proof.
  intros src e W c i j k Hg. change (cf_shape d') with (cf_shape d) in *. change (cf_eps d') with (cf_eps d). change (cf_k0 d') with (cf_k0 d / u). unfold times.
  rewrite <- rhs_u, <- (W c i j k Hg). unfold curl_of at 1 3.
  assert (E : forall c, same_on (cf_shape d) (curl_of (dplus d') (times u e) c) (curl_of (dplus d) e c)).
  { intros c' x y z G. unfold curl_of. change (times u e) with (fun c => tmul (e c)). cbv beta. destruct c'; rewrite !up by auto; reflexivity. }
  unfold times in E. destruct c; rewrite !(um _ _ _ _ _ _ (E _) Hg); ring.
Qed.
Lemma unit_te : forall src e, wave_te d src e -> wave_te d' src (tmul e).
Proof.
  intros src e W i j k Hg. change (cf_shape d') with (cf_shape d) in *. change (cf_eps d') with (cf_eps d). change (cf_k0 d') with (cf_k0 d / u). unfold tmul at 3.
  rewrite <- rhs_u, <- (W i j k Hg). rewrite !(um (dplus d' (tmul e) _) (dplus d e _)) by (auto; intros x y z G; apply up; auto). ring.
Qed.
Lemma unit_tm : forall src e, wave_tm d src e -> wave_tm d' src (tmul e).
Proof.
  intros src e W i j k Hg. change (cf_shape d') with (cf_shape d) in *. change (cf_eps d') with (cf_eps d). change (cf_k0 d') with (cf_k0 d / u). unfold tmul at 3.
  pose proof (rhs_u C1 (e i j k) (src i j k)) as Q. pose proof (W i j k Hg) as W1.
  replace (RtoC (cf_k0 d * cf_k0 d) * C1 * e i j k)%C with (RtoC (cf_k0 d * cf_k0 d) * e i j k)%C in Q by ring. rewrite <- W1 in Q.
  replace (RtoC (cf_k0 d / u * (cf_k0 d / u)) * (RtoC u * e i j k))%C with (RtoC (cf_k0 d / u * (cf_k0 d / u)) * C1 * (RtoC u * e i j k))%C by ring. rewrite <- Q.
  rewrite (um (fun i j k => dplus d' (tmul e) AX i j k / eps_at (cf_shape d) (cf_eps d) AY i j k)%C (fun i j k => dplus d e AX i j k / eps_at (cf_shape d) (cf_eps d) AY i j k)%C AX) by (auto; intros x y z G; rewrite up by auto; reflexivity).
  rewrite (um (fun i j k => dplus d' (tmul e) AY i j k / eps_at (cf_shape d) (cf_eps d) AX i j k)%C (fun i j k => dplus d e AY i j k / eps_at (cf_shape d) (cf_eps d) AX i j k)%C AY) by (auto; intros x y z G; rewrite up by auto; reflexivity).
  ring.
Qed.
Lemma ud : forall (o : bool) f b i j k, in_grid (cf_shape d) i j k -> diff_fn (cf_shape d) (fun a m => RtoC u * (if o then cf_dxb d else cf_dxf d) a m)%C o (tmul f) b i j k =
  diff_fn (cf_shape d) (if o then cf_dxb d else cf_dxf d) o f b i j k.
Proof.
  intros o f b i j k (Hi & Hj & Hk). unfold diff_fn, tmul, roll_p1, roll_m1, along.
  assert (NU : RtoC u <> C0) by (apply k0_nz; exact Hu0).
  assert (N : (if o then cf_dxb d else cf_dxf d) b (coord b i j k) <> C0) by (destruct o; [apply Hbk | apply Hf]; destruct b; auto).
  destruct o, b; cbn [coord] in *; field; auto.
Qed.
Lemma ik_u : forall x t, (x / (Ci * RtoC (cf_k0 d / u) * t))%C = (RtoC u * (x / (Ci * RtoC (cf_k0 d) * t)))%C.
Proof.
  intros x t. unfold Cdiv. replace (Ci * RtoC (cf_k0 d / u) * t)%C with (RtoC (/ u) * (Ci * RtoC (cf_k0 d) * t))%C.
  2:{ replace (RtoC (cf_k0 d / u)) with (RtoC (/ u) * RtoC (cf_k0 d))%C by (apply C_eq; cbn [re im RtoC Cmul]; field; auto). ring. }
  set (z := (Ci * RtoC (cf_k0 d) * t)%C).
  assert (E : Cinv (RtoC (/ u) * z)%C = (RtoC u * Cinv z)%C).
  { unfold Cinv. destruct z as [p q]. destruct (Req_dec (p * p + q * q) 0) as [Z | Z].
    - assert (p = 0) by nra. assert (q = 0) by nra. subst. apply C_eq; unfold Cn2; cbn [re im RtoC Cmul]; unfold Rdiv; ring.
    - assert (Z2 : / u * p * (/ u * p) + / u * q * (/ u * q) <> 0).
      { intros A. apply Z. replace (p * p + q * q) with (u * u * (/ u * p * (/ u * p) + / u * q * (/ u * q))) by (field; auto). rewrite A. ring. }
      assert (Z3 : p ^ 2 + q ^ 2 <> 0) by (simpl; rewrite !Rmult_1_r; exact Z).
      apply C_eq; unfold Cn2; cbn [re im RtoC Cmul]; field; repeat split; auto; intros A; apply Z; nra. }
  rewrite E. ring.
Qed.
End Unit.
Lemma units3 : forall d sigma u solver solver' src, plain_grid d -> lossy d sigma -> 0 < u -> nz_pixel (cf_shape d) (cf_dxf d) ->
  exact3c d solver src -> exact3c (in_unit u d) solver' src ->
  let (e, h) := solve3c d solver src in let (e', h') := solve3c (in_unit u d) solver' src in same_v (cf_shape d) e' (times u e) /\ same_v (cf_shape d) h' (times u h).
Proof.
  intros d sigma u solver solver' src Hp Hl Hu Hf H H'.
  assert (Hbk : nz_pixel (cf_shape d) (cf_dxb d)) by (destruct Hp as ((h & E1 & E2) & _); rewrite E2; rewrite E1 in Hf; exact Hf).
  apply exact3c_wave in H. apply exact3c_wave in H'. apply (unit_wave3 d u Hu Hf Hbk) in H.
  pose proof (uniq3 (in_unit u d) (uplain d u Hu Hp) sigma (ulossy d u sigma Hl) _ _ _ H' H) as U. unfold solve3c in *. cbn [fst] in *. split; [exact U |].
  intros c i j k Hg. unfold cik0. cbn [in_unit cf_shape cf_dxf cf_k0] in *. rewrite (curl_same _ _ _ _ _ U c i j k Hg). unfold times.
  assert (Q : forall x, (x / (Ci * RtoC (cf_k0 d / u)))%C = (RtoC u * (x / (Ci * RtoC (cf_k0 d))))%C).
  { intros x. pose proof (ik_u d u Hu x C1) as Q. replace (Ci * RtoC (cf_k0 d / u) * C1)%C with (Ci * RtoC (cf_k0 d / u))%C in Q by ring. replace (Ci * RtoC (cf_k0 d) * C1)%C with (Ci * RtoC (cf_k0 d))%C in Q by ring. exact Q. }
  rewrite Q. f_equal. f_equal. unfold curl_fn. pose proof (fun f b => ud d u Hu Hf Hbk false f b i j k Hg) as V. unfold tmul in V. destruct c; rewrite !V; reflexivity.
Qed.
Lemma units_te : forall d sigma u solver solver' src, plain_grid d -> lossy d sigma -> 0 < u -> nz_pixel (cf_shape d) (cf_dxf d) ->
  exact2c d (mat_ez_c d) solver src -> exact2c (in_unit u d) (mat_ez_c (in_unit u d)) solver' src ->
  let (e, h) := solve2_te_c d solver src in let (e', h') := solve2_te_c (in_unit u d) solver' src in same_v (cf_shape d) e' (times u e) /\ same_v (cf_shape d) h' (times u h).
Proof.
  intros d sigma u solver solver' src Hp Hl Hu Hf H H'.
  assert (Hbk : nz_pixel (cf_shape d) (cf_dxb d)) by (destruct Hp as ((h & E1 & E2) & _); rewrite E2; rewrite E1 in Hf; exact Hf).
  apply exact_te_wave in H. apply exact_te_wave in H'. apply (unit_te d u Hu Hf Hbk) in H.
  pose proof (uniq_te (in_unit u d) (uplain d u Hu Hp) sigma (ulossy d u sigma Hl) _ _ _ H' H) as U. unfold solve2_te_c in *. cbn [fst only_z] in *.
  split; intros c i j k Hg; unfold times.
  - destruct c; cbn [only_z]; [ring | ring |]. exact (U i j k Hg).
  - unfold cik0. cbn [in_unit cf_shape cf_dxf cf_k0] in *.
    assert (Q : forall x, (x / (Ci * RtoC (cf_k0 d / u)))%C = (RtoC u * (x / (Ci * RtoC (cf_k0 d))))%C).
    { intros x. pose proof (ik_u d u Hu x C1) as Q. replace (Ci * RtoC (cf_k0 d / u) * C1)%C with (Ci * RtoC (cf_k0 d / u))%C in Q by ring. replace (Ci * RtoC (cf_k0 d) * C1)%C with (Ci * RtoC (cf_k0 d))%C in Q by ring. exact Q. }
    destruct c; rewrite Q; try reflexivity; rewrite (diff_same _ _ _ _ _ _ U i j k Hg), (ud d u Hu Hf Hbk false) by auto; reflexivity.
Qed.
Lemma units_tm : forall d sigma u solver solver' src, plain_grid d -> lossy d sigma -> 0 < u -> nz_pixel (cf_shape d) (cf_dxf d) ->
  exact2c d (mat_hz_c d) solver src -> exact2c (in_unit u d) (mat_hz_c (in_unit u d)) solver' src ->
  let (e, h) := solve2_tm_c d solver src in let (e', h') := solve2_tm_c (in_unit u d) solver' src in same_v (cf_shape d) e' (times u e) /\ same_v (cf_shape d) h' (times u h).
Proof.
  intros d sigma u solver solver' src Hp Hl Hu Hf H H'.
  assert (Hbk : nz_pixel (cf_shape d) (cf_dxb d)) by (destruct Hp as ((h & E1 & E2) & _); rewrite E2; rewrite E1 in Hf; exact Hf).
  apply exact_tm_wave in H. apply exact_tm_wave in H'. apply (unit_tm d u Hu Hf Hbk) in H.
  pose proof (uniq_tm (in_unit u d) (uplain d u Hu Hp) sigma (ulossy d u sigma Hl) _ _ _ H' H) as U. unfold solve2_tm_c in *. cbn [snd only_z] in *.
  split; intros c i j k Hg; unfold times.
  - unfold cik0, cf_eps_t. cbn [in_unit cf_shape cf_dxb cf_k0 cf_eps] in *.
    destruct c; rewrite (ik_u d u Hu); try reflexivity; rewrite (diff_same _ _ _ _ _ _ U i j k Hg), (ud d u Hu Hf Hbk true) by auto; reflexivity.
  - destruct c; cbn [only_z]; [ring | ring |]. exact (U i j k Hg).
Qed.
