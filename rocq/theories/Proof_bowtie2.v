(** bowtie on 2 x 2 and 3 x 3 unitaries (C95). *)
From Coq Require Import Reals Lra Lia Psatz List ZArith Bool Ratan.
From Verif Require Import Cx Arr Spec_circuit Spec_cs Model_coupling Model_forward Model_vector Model_matrix Model_cs Model_bowtie Spec_mesh
  Proof_linalg Proof_matrix Proof_forward4 Proof_vector Proof_cs Proof_cs2.
Import ListNotations.
Local Open Scope R_scope.

(** ** An ideal node at theta = 2 t *)
Lemma ideal_quad : forall t phi, parallel_mzi TOP false (t * 2) phi (0, 0) (0, 0) =
  let g := (Ci * cis t)%C in
  mkQuad (g * RtoC (sin t) * cis phi)%C (g * RtoC (cos t) * cis phi)%C (g * RtoC (cos t))%C (g * RtoC (- sin t))%C.
Proof.
  intros t phi. unfold parallel_mzi, mzi_terms. cbn [fst snd]. rewrite Rplus_0_r, sin_PI4, cos_PI4.
  assert (H2 : 1 / sqrt 2 * (1 / sqrt 2) = 1 / 2).
  { replace (1 / sqrt 2 * (1 / sqrt 2)) with (1 / (sqrt 2 * sqrt 2)) by (field; apply Rgt_not_eq, sqrt_lt_R0; lra). rewrite sqrt_sqrt by lra. reflexivity. }
  rewrite H2. replace (ln 10 * 0 / 20) with 0 by field.
  unfold Cexp, b2R; cbn [re im]. replace (0 * (1 - 0)) with 0 by ring. replace (0 * 0) with 0 by ring. rewrite exp_0.
  replace (phi * (1 - 0)) with phi by ring. replace (phi * 0) with 0 by ring.
  replace (t * 2) with (2 * t) by ring.
  pose proof (sin2_cos2 t) as P. unfold Rsqr in P.
  f_equal; apply C_eq; cbn; rewrite ?sin_2a, ?cos_0, ?sin_0; try (rewrite ?cos_2a_sin; field); rewrite ?cos_2a_cos; field.
Qed.

(** ** Size 2 *)
Definition c95_mesh2 : mesh := mkMesh [plain_node 0 2 0 1 1 1 0] TOP [0%nat] 2 [(0, 0)] [(0, 0)] [0%Z] 1.

Lemma bowtie2_none : forall svd qr u, cs_theta (cs svd qr 2 u) 0%nat = 0 -> bowtie svd qr 2 u = None.
Proof.
  intros svd qr u H. remember (cs svd qr 2 u) as f eqn:Ef.
  lazy -[cs_theta cs_l0 cs_r0 cs_l1 cs_r1 cs Carg mod2pi Rplus Rminus Rmult Req_EM_T IZR].
  rewrite <- Ef, H. destruct (Req_EM_T 0 0); [reflexivity | lra].
Qed.
Lemma bowtie2_some : forall svd qr u, cs_theta (cs svd qr 2 u) 0%nat <> 0 ->
  let f := cs svd qr 2 u in
  exists P, bowtie svd qr 2 u = Some (c95_mesh2, P) /\ thetas P 0%nat = cs_theta f 0%nat * 2 /\
    phis P 0%nat = (0 + Carg (cs_r0 f 0%nat 0%nat)) - (0 + Carg (cs_r1 f 0%nat 0%nat)) /\
    gammas P 0%nat = mod2pi (0 + Carg (cs_l0 f 0%nat 0%nat) + (0 + Carg (cs_r1 f 0%nat 0%nat))) /\
    gammas P 1%nat = mod2pi (0 + Carg (cs_l1 f 0%nat 0%nat) + (0 + Carg (cs_r1 f 0%nat 0%nat))).
Proof.
  intros svd qr u H f. subst f. remember (cs svd qr 2 u) as f eqn:Ef.
  lazy -[cs_theta cs_l0 cs_r0 cs_l1 cs_r1 cs Carg mod2pi Rplus Rminus Rmult Req_EM_T IZR].
  rewrite <- Ef.
  destruct (Req_EM_T (cs_theta f 0%nat) 0); [contradiction |]. destruct (Req_EM_T 0 0); [| lra].
  eexists. split; [reflexivity |]. repeat split.
Qed.

(** ** Size 3: nodes (0,1) in column 1, (1,2) in columns 0 and 2 *)
Definition c95_mesh3 : mesh := mkMesh [plain_node 0 3 0 1 1 1 1; plain_node 1 3 1 2 1 1 0; plain_node 2 3 1 2 1 1 2] TOP [0%nat; 1%nat; 2%nat] 3
  [(0, 0); (0, 0); (0, 0)] [(0, 0); (0, 0); (0, 0)] [1%Z; 0%Z; 2%Z] 3.
Lemma bowtie3_some : forall svd qr u,
  let f := cs svd qr 3 u in let fl := cs svd qr 2 (cs_l1 f) in let fr := cs svd qr 2 (cs_r1 f) in
  cs_theta f 0%nat <> 0 -> cs_theta fl 0%nat <> 0 -> cs_theta fr 0%nat <> 0 ->
  exists P, bowtie svd qr 3 u = Some (c95_mesh3, P) /\ thetas P 0%nat = cs_theta f 0%nat * 2 /\
    thetas P 1%nat = cs_theta fl 0%nat * 2 /\ thetas P 2%nat = cs_theta fr 0%nat * 2.
Proof.
  intros svd qr u f fl fr H Hl Hr. subst fl fr f. remember (cs svd qr 3 u) as f eqn:Ef.
  remember (cs svd qr 2 (cs_l1 f)) as fl eqn:Efl. remember (cs svd qr 2 (cs_r1 f)) as fr eqn:Efr.
  lazy -[cs_theta cs_l0 cs_r0 cs_l1 cs_r1 cs Carg mod2pi Rplus Rminus Rmult Req_EM_T IZR].
  rewrite <- Ef, <- Efl, <- Efr.
  destruct (Req_EM_T (cs_theta f 0%nat) 0); [contradiction |]. destruct (Req_EM_T (cs_theta fl 0%nat) 0); [contradiction |].
  destruct (Req_EM_T (cs_theta fr 0%nat) 0); [contradiction |]. destruct (Req_EM_T 0 0); [| lra].
  eexists. split; [reflexivity |]. repeat split.
Qed.
Lemma matrix3 : forall P i j, matrix c95_mesh3 false P i j =
  let q k := parallel_mzi TOP false (thetas P k) (phis P k) (0, 0) (0, 0) in
  let step t b k (v : vec) := upd (upd v t (t11 (q k) * v t + t21 (q k) * v b)%C) b (t12 (q k) * v t + t22 (q k) * v b)%C in
  Some (cis (gammas P i) * step 1%nat 2%nat 2%nat (step 0%nat 1%nat 0%nat (step 1%nat 2%nat 1%nat (basis j))) i)%C.
Proof. intros P i j. reflexivity. Qed.
Lemma matrix2 : forall P i j, matrix c95_mesh2 false P i j =
  let q k := parallel_mzi TOP false (thetas P k) (phis P k) (0, 0) (0, 0) in
  let step t b k (v : vec) := upd (upd v t (t11 (q k) * v t + t21 (q k) * v b)%C) b (t12 (q k) * v t + t22 (q k) * v b)%C in
  Some (cis (gammas P i) * step 0%nat 1%nat 0%nat (basis j) i)%C.
Proof. intros P i j. reflexivity. Qed.

Lemma unit_cis : forall U, unitary 1 U -> U 0%nat 0%nat = cis (Carg (U 0%nat 0%nat)).
Proof.
  intros U H. pose proof (unitary_row1 1 U 0 H ltac:(lia)) as N. cbn in N.
  rewrite (Carg_polar (U 0%nat 0%nat)) at 1. unfold Cabs. replace (Cn2 (U 0%nat 0%nat)) with 1 by lra. rewrite sqrt_1. apply C_eq; cbn; ring.
Qed.
Lemma inj1 : forall A : mat, A 0%nat 0%nat <> C0 -> injective_mat 1 1 A.
Proof.
  intros A H x Hx k Hk. assert (k = 0%nat) by lia. subst. specialize (Hx 0%nat ltac:(lia)). cbn [Csum] in Hx.
  replace (C0 + A 0%nat 0%nat * x 0%nat)%C with (A 0%nat 0%nat * x 0%nat)%C in Hx by ring. destruct (Cmul_integral _ _ Hx); [contradiction | auto].
Qed.
Lemma svd1_d : forall svd, (forall A, svd_of 1 A (svd 1%nat A)) -> forall A, snd (fst (svd 1%nat A)) 0%nat = Cabs (A 0%nat 0%nat).
Proof.
  intros svd H A. specialize (H A). destruct (svd 1%nat A) as [[l d] r]. destruct H as (Hl & Hr & Hd & E). cbn [fst snd].
  specialize (E 0%nat 0%nat ltac:(lia) ltac:(lia)). cbn [Csum] in E. rewrite E.
  pose proof (unitary_row1 1 l 0 Hl ltac:(lia)) as Nl. pose proof (unitary_row1 1 r 0 Hr ltac:(lia)) as Nr. cbn in Nl, Nr. specialize (Hd 0%nat ltac:(lia)).
  replace (C0 + l 0%nat 0%nat * RtoC (d 0%nat) * r 0%nat 0%nat)%C with (l 0%nat 0%nat * RtoC (d 0%nat) * r 0%nat 0%nat)%C by ring.
  unfold Cabs. rewrite !Cn2_mul. replace (Cn2 (l 0%nat 0%nat)) with 1 by lra. replace (Cn2 (r 0%nat 0%nat)) with 1 by lra.
  unfold Cn2; cbn. replace (1 * (d 0%nat * d 0%nat + 0 * 0) * 1) with (Rsqr (d 0%nat)) by (unfold Rsqr; ring). symmetry. apply sqrt_Rsqr. exact Hd.
Qed.
Lemma Cabs_le1 : forall n U i j, unitary n U -> (i < n)%nat -> (j < n)%nat -> 0 <= Cabs (U i j) <= 1.
Proof.
  intros n U i j H Hi Hj. split; [apply sqrt_pos |]. pose proof (unitary_row1 n U i H Hi) as N.
  pose proof (Rsum_term_le n (fun c => Cn2 (U i c)) j (fun c _ => Cn2_nonneg _) Hj) as L. cbn beta in L. rewrite N in L.
  unfold Cabs. rewrite <- sqrt_1. apply sqrt_le_1; [apply Cn2_nonneg | lra | exact L].
Qed.
Lemma theta2 : forall svd qr n u, (2 <= n)%nat -> (n / 2 = 1)%nat -> (forall A, svd_of 1 A (svd 1%nat A)) ->
  cs_theta (cs svd qr n u) 0%nat = asin (Cabs (u 0%nat 0%nat)).
Proof. intros svd qr n u Hn Hm H. unfold cs. cbn [cs_theta]. rewrite Hm. rewrite (svd1_d svd H). reflexivity. Qed.
Lemma asin_0_iff : forall x, 0 <= x <= 1 -> (asin x = 0 <-> x = 0).
Proof. intros x H. split; intro E; [rewrite <- (sin_asin x) by lra; rewrite E; apply sin_0 | rewrite E; apply asin_0]. Qed.
Lemma Cabs_0_iff : forall z, Cabs z = 0 <-> z = C0.
Proof. intro z. unfold Cabs. split; intro H; [apply Cn2_zero_iff; apply sqrt_eq_0; [apply Cn2_nonneg | exact H] | rewrite H, Cn2_C0; apply sqrt_0]. Qed.

Section N2.
Variable (svd : svd_fn) (qr : qr_fn) (u : mat).
Hypothesis Hsvd : forall A, svd_of 1 A (svd 1%nat A).
Hypothesis Hqr : forall A, qr_of 1 1 A (qr 1%nat 1%nat A).
Hypothesis Hu : unitary 2 u.
Lemma n2_none : u 0%nat 0%nat = C0 -> bowtie svd qr 2 u = None.
Proof. intro H. apply bowtie2_none. rewrite theta2 by (auto; lia). rewrite H. rewrite (proj2 (Cabs_0_iff C0) eq_refl). apply asin_0. Qed.
Lemma n2_theta : u 0%nat 0%nat <> C0 -> cs_theta (cs svd qr 2 u) 0%nat <> 0.
Proof.
  intros H E. rewrite theta2 in E by (auto; lia). apply (proj1 (asin_0_iff _ (Cabs_le1 2 u 0 0 Hu ltac:(lia) ltac:(lia)))) in E. apply Cabs_0_iff in E. contradiction.
Qed.
Lemma n2_good : u 0%nat 0%nat <> C0 -> u 1%nat 0%nat <> C0 ->
  exists c P a, bowtie svd qr 2 u = Some (c, P) /\ forall i j, (i < 2)%nat -> (j < 2)%nat -> matrix c false P i j = Some (cis a * u i j)%C.
Proof.
  intros H0 H1. destruct (bowtie2_some svd qr u (n2_theta H0)) as (P & EP & Et & Ep & Eg0 & Eg1).
  pose proof (proj2 (cs_roundtrip svd qr 2 u Hu (Hsvd u) (Hqr _) (Hqr _)) (inj1 (fun i j => u (1 + i)%nat j) H1)) as RT.
  destruct (cs_factors_unitary svd qr 2 u Hu (Hsvd u) (Hqr _) (Hqr _)) as (U0 & U0' & _ & U1).
  destruct (proj2 U1 (inj1 (fun i j => u (1 + i)%nat j) H1)) as [U1l U1r].
  set (f := cs svd qr 2 u) in *. set (t := cs_theta f 0%nat) in *.
  change (2 / 2)%nat with 1%nat in *. change (2 - 1)%nat with 1%nat in *.
  destruct RT as (v & Ev & Mv).
  destruct (csinv_blocks 1 1 (cs_l0 f) (cs_l1 f) (cs_r0 f) (cs_r1 f) (cs_theta f) (or_introl eq_refl)) as (v' & Ev' & B00 & B01 & B10 & B11).
  assert (v' = v) by congruence. subst v'.
  specialize (B00 0%nat 0%nat ltac:(lia) ltac:(lia)). specialize (B01 0%nat 0%nat ltac:(lia) ltac:(lia)). specialize (B10 0%nat 0%nat ltac:(lia) ltac:(lia)). specialize (B11 0%nat 0%nat ltac:(lia) ltac:(lia)).
  cbn [Csum Nat.add Nat.eqb] in B00, B01, B10, B11. fold t in B00, B01, B10, B11. rewrite Mv in B00, B01, B10, B11 by lia.
  pose proof (unit_cis _ U0) as C_l0. pose proof (unit_cis _ U0') as C_r0. pose proof (unit_cis _ U1l) as C_l1. pose proof (unit_cis _ U1r) as C_r1.
  exists c95_mesh2, P, (PI / 2 + t). split; [exact EP |].
  assert (Eg : cis (PI / 2 + t) = (Ci * cis t)%C) by (apply C_eq; cbn; rewrite ?cos_plus, ?sin_plus, cos_PI2, sin_PI2; ring).
  assert (E0 : cis (gammas P 0%nat) = (cs_l0 f 0%nat 0%nat * cs_r1 f 0%nat 0%nat)%C).
  { rewrite Eg0, cis_mod2pi. transitivity (cis (Carg (cs_l0 f 0%nat 0%nat)) * cis (Carg (cs_r1 f 0%nat 0%nat)))%C; [rewrite <- cis_add; f_equal; ring | rewrite <- C_l0, <- C_r1; reflexivity]. }
  assert (E1 : cis (gammas P 1%nat) = (cs_l1 f 0%nat 0%nat * cs_r1 f 0%nat 0%nat)%C).
  { rewrite Eg1, cis_mod2pi. transitivity (cis (Carg (cs_l1 f 0%nat 0%nat)) * cis (Carg (cs_r1 f 0%nat 0%nat)))%C; [rewrite <- cis_add; f_equal; ring | rewrite <- C_l1, <- C_r1; reflexivity]. }
  assert (E2 : (cis (phis P 0%nat) * cs_r1 f 0%nat 0%nat)%C = cs_r0 f 0%nat 0%nat).
  { transitivity (cis (phis P 0%nat) * cis (Carg (cs_r1 f 0%nat 0%nat)))%C; [rewrite <- C_r1; reflexivity |]. rewrite <- cis_add, C_r0 at 1. f_equal. rewrite Ep. ring. }
  assert (Q : parallel_mzi TOP false (thetas P 0%nat) (phis P 0%nat) (0, 0) (0, 0) =
     mkQuad (cis (PI / 2 + t) * RtoC (sin t) * cis (phis P 0%nat))%C (cis (PI / 2 + t) * RtoC (cos t) * cis (phis P 0%nat))%C (cis (PI / 2 + t) * RtoC (cos t))%C (cis (PI / 2 + t) * RtoC (- sin t))%C).
  { rewrite Et, ideal_quad. cbv zeta. rewrite Eg. reflexivity. }
  intros i j Hi Hj. rewrite matrix2. cbv beta zeta. rewrite Q. cbn [t11 t12 t21 t22]. f_equal. set (g := cis (PI / 2 + t)) in *.
  assert (Hij : (i = 0 \/ i = 1)%nat) by lia. assert (Hij' : (j = 0 \/ j = 1)%nat) by lia.
  destruct Hij as [-> | ->]; destruct Hij' as [-> | ->]; unfold upd, basis, delta; cbn [Nat.eqb]; rewrite ?E0, ?E1, ?B00, ?B01, ?B10, ?B11, <- ?E2.
  - apply C_eq; cbn; ring.
  - apply C_eq; cbn; ring.
  - apply C_eq; cbn; ring.
  - apply C_eq; cbn; ring.
Qed.

Lemma qr1_zero : forall A, A 0%nat 0%nat = C0 -> snd (qr 1%nat 1%nat A) 0%nat 0%nat = C0.
Proof.
  intros A HA. pose proof (Hqr A) as H. destruct (qr 1%nat 1%nat A) as [Q R0]. destruct H as (HQ & _ & _ & E). cbn [snd].
  specialize (E 0%nat 0%nat ltac:(lia) ltac:(lia)). rewrite HA in E. cbn [Csum] in E.
  assert (E' : (Q 0%nat 0%nat * R0 0%nat 0%nat)%C = C0) by (rewrite E; ring).
  destruct (Cmul_integral _ _ E') as [Z | Z]; [| exact Z]. pose proof (unitary_row1 1 Q 0 HQ ltac:(lia)) as N. cbn in N. rewrite Z, Cn2_C0 in N. lra.
Qed.
Lemma n2_diag : u 1%nat 0%nat = C0 ->
  exists c P, bowtie svd qr 2 u = Some (c, P) /\ forall i j, (i < 2)%nat -> (j < 2)%nat ->
    matrix c false P i j = Some (if Nat.eqb i j then (if Nat.eqb i 0 then (- u 0%nat 0%nat)%C else C1) else C0).
Proof.
  intro H1.
  pose proof (unitary_col1 2 u 0 Hu ltac:(lia)) as N. cbn in N. rewrite H1, Cn2_C0 in N.
  assert (N0 : Cn2 (u 0%nat 0%nat) = 1) by lra.
  pose proof (unitary_row1 2 u 0 Hu ltac:(lia)) as N'. cbn in N'. assert (H01 : u 0%nat 1%nat = C0) by (apply Cn2_zero_iff; lra).
  assert (Hne : u 0%nat 0%nat <> C0) by (intro Z; rewrite Z, Cn2_C0 in N0; lra).
  destruct (bowtie2_some svd qr u (n2_theta Hne)) as (P & EP & Et & Ep & Eg0 & Eg1).
  destruct (cs_factors_unitary svd qr 2 u Hu (Hsvd u) (Hqr _) (Hqr _)) as (U0 & U0' & _ & _).
  assert (Th : cs_theta (cs svd qr 2 u) 0%nat = PI / 2).
  { rewrite theta2 by (auto; lia). unfold Cabs. rewrite N0, sqrt_1. apply asin_1. }
  assert (Zl : cs_l1 (cs svd qr 2 u) 0%nat 0%nat = C0).
  { unfold cs. cbn [cs_l1]. change (2 / 2)%nat with 1%nat. change (2 - 1)%nat with 1%nat. cbn [Nat.odd Nat.even negb andb].
    rewrite qr1_zero; [rewrite csign_0; apply C_eq; cbn; ring |]. cbn [Csum Nat.add]. rewrite H1. apply C_eq; cbn; ring. }
  assert (Zr : cs_r1 (cs svd qr 2 u) 0%nat 0%nat = C0).
  { unfold cs. cbn [cs_r1]. change (2 / 2)%nat with 1%nat. change (2 - 1)%nat with 1%nat. cbn [Nat.odd Nat.even negb andb].
    rewrite qr1_zero; [rewrite csign_0; apply C_eq; cbn; ring |]. cbn [Csum Nat.add]. rewrite H01. apply C_eq; cbn; ring. }
  assert (Eu : u 0%nat 0%nat = (cs_l0 (cs svd qr 2 u) 0%nat 0%nat * cs_r0 (cs svd qr 2 u) 0%nat 0%nat)%C).
  { unfold cs. cbn [cs_l0 cs_r0]. change (2 / 2)%nat with 1%nat. pose proof (svd1_d svd Hsvd u) as Ed. pose proof (Hsvd u) as Hs.
    destruct (svd 1%nat u) as [[l d] r]. destruct Hs as (_ & _ & _ & E). cbn [fst snd] in *. specialize (E 0%nat 0%nat ltac:(lia) ltac:(lia)). cbn [Csum] in E.
    unfold Cabs in Ed. rewrite N0, sqrt_1 in Ed. rewrite E, Ed. apply C_eq; cbn; ring. }
  change (2 / 2)%nat with 1%nat in U0, U0'.
  pose proof (unit_cis _ U0) as C_l0. pose proof (unit_cis _ U0') as C_r0.
  set (f := cs svd qr 2 u) in *. rewrite Zl, Zr, Carg_C0 in *. rewrite Th in Et.
  exists c95_mesh2, P. split; [exact EP |].
  assert (E0 : cis (gammas P 0%nat) = cs_l0 f 0%nat 0%nat).
  { rewrite Eg0, cis_mod2pi. transitivity (cis (Carg (cs_l0 f 0%nat 0%nat))); [f_equal; ring | symmetry; exact C_l0]. }
  assert (E1 : cis (gammas P 1%nat) = C1).
  { rewrite Eg1, cis_mod2pi, <- cis_0. f_equal. ring. }
  assert (E2 : cis (phis P 0%nat) = cs_r0 f 0%nat 0%nat).
  { rewrite Ep. transitivity (cis (Carg (cs_r0 f 0%nat 0%nat))); [f_equal; ring | symmetry; exact C_r0]. }
  intros i j Hi Hj. rewrite matrix2. cbv beta zeta. rewrite Et, ideal_quad. cbv zeta. rewrite cis_PI2, cos_PI2, sin_PI2. cbn [t11 t12 t21 t22]. f_equal.
  assert (Hij : (i = 0 \/ i = 1)%nat) by lia. assert (Hij' : (j = 0 \/ j = 1)%nat) by lia.
  destruct Hij as [-> | ->]; destruct Hij' as [-> | ->]; unfold upd, basis, delta; cbn [Nat.eqb]; rewrite ?E0, ?E1, ?Eu, ?E2; apply C_eq; cbn; ring.
Qed.
End N2.

(** ** Size 3 *)
Lemma Cabs_mul : forall a b, Cabs (a * b)%C = Cabs a * Cabs b.
Proof. intros. unfold Cabs. rewrite Cn2_mul. apply sqrt_mult; apply Cn2_nonneg. Qed.
Lemma Cabs_cis : forall t, Cabs (cis t) = 1.
Proof. intro t. unfold Cabs, Cn2; cbn. pose proof (sin2_cos2 t) as P. unfold Rsqr in P. replace (cos t * cos t + sin t * sin t) with 1 by lra. apply sqrt_1. Qed.
Lemma Cabs_RtoC : forall x, 0 <= x -> Cabs (RtoC x) = x.
Proof. intros x H. unfold Cabs, Cn2; cbn. replace (x * x + 0 * 0) with (Rsqr x) by (unfold Rsqr; ring). apply sqrt_Rsqr. exact H. Qed.
Section N3.
Variable (svd : svd_fn) (qr : qr_fn) (u : mat).
Hypothesis Hsvd : forall A, svd_of 1 A (svd 1%nat A).
Hypothesis Hqr : forall A, qr_of 2 1 A (qr 2%nat 1%nat A).
Hypothesis Hu : unitary 3 u.
Hypothesis H00 : u 0%nat 0%nat <> C0.
Hypothesis H01 : u 0%nat 1%nat <> C0.
Hypothesis H10 : u 1%nat 0%nat <> C0.

Lemma inj21 : injective_mat 2 1 (fun i j => u (1 + i)%nat j).
Proof.
  intros x Hx k Hk. assert (k = 0%nat) by lia. subst. specialize (Hx 0%nat ltac:(lia)). cbn [Csum Nat.add] in Hx.
  replace (C0 + u 1%nat 0%nat * x 0%nat)%C with (u 1%nat 0%nat * x 0%nat)%C in Hx by ring. destruct (Cmul_integral _ _ Hx); [contradiction | auto].
Qed.
Lemma n3_moduli : exists c P M, bowtie svd qr 3 u = Some (c, P) /\
  (forall i j, (i < 3)%nat -> (j < 3)%nat -> matrix c false P i j = Some (M i j)) /\
  Cabs (M 0%nat 0%nat) = Cabs (u 0%nat 0%nat) /\ Cabs (M 0%nat 1%nat) = Cabs (u 1%nat 0%nat) /\ Cabs (M 1%nat 0%nat) = Cabs (u 0%nat 1%nat).
Proof.
  pose proof (proj2 (cs_roundtrip svd qr 3 u Hu (Hsvd u) (Hqr _) (Hqr _)) inj21) as RT.
  destruct (cs_factors_unitary svd qr 3 u Hu (Hsvd u) (Hqr _) (Hqr _)) as (U0 & U0' & TR & U1).
  destruct (proj2 U1 inj21) as [U1l U1r]. clear U1.
  pose proof (theta2 svd qr 3 u ltac:(lia) eq_refl Hsvd) as Et.
  pose proof (theta2 svd qr 2 (cs_l1 (cs svd qr 3 u)) ltac:(lia) eq_refl Hsvd) as Etl.
  pose proof (theta2 svd qr 2 (cs_r1 (cs svd qr 3 u)) ltac:(lia) eq_refl Hsvd) as Etr.
  pose proof (bowtie3_some svd qr u) as B3. cbv zeta in B3.
  set (f := cs svd qr 3 u) in *.
  change (3 / 2)%nat with 1%nat in *. change (3 - 1)%nat with 2%nat in *.
  destruct RT as (v & Ev & Mv).
  destruct (csinv_blocks 1 2 (cs_l0 f) (cs_l1 f) (cs_r0 f) (cs_r1 f) (cs_theta f) (or_intror eq_refl)) as (v' & Ev' & B00 & B01 & B10 & _).
  assert (v' = v) by congruence. subst v'.
  specialize (B00 0%nat 0%nat ltac:(lia) ltac:(lia)). specialize (B01 0%nat 0%nat ltac:(lia) ltac:(lia)). specialize (B10 0%nat 0%nat ltac:(lia) ltac:(lia)).
  cbn [Csum Nat.add] in B00, B01, B10. rewrite Mv in B00, B01, B10 by lia.
  set (t := cs_theta f 0%nat) in *.
  assert (Ht : 0 <= t <= PI / 2) by (apply TR; lia).
  pose proof PI_RGT_0 as Ppi.
  assert (Hs : 0 <= sin t) by (apply sin_ge_0; lra). assert (Hc : 0 <= cos t) by (apply cos_ge_0; lra).
  assert (A0 : Cabs (cs_l0 f 0%nat 0%nat) = 1) by (rewrite (unit_cis _ U0); apply Cabs_cis).
  assert (A0' : Cabs (cs_r0 f 0%nat 0%nat) = 1) by (rewrite (unit_cis _ U0'); apply Cabs_cis).
  assert (D : forall z, (C0 + z)%C = z) by (intro; apply C_eq; cbn; ring).
  rewrite D in B00, B01, B10.
  assert (Al : Cabs (u 1%nat 0%nat) = Cabs (cs_l1 f 0%nat 0%nat) * cos t) by (rewrite B10, !Cabs_mul, A0', (Cabs_RtoC _ Hc); ring).
  assert (Ar : Cabs (u 0%nat 1%nat) = cos t * Cabs (cs_r1 f 0%nat 0%nat)) by (rewrite B01, !Cabs_mul, A0, (Cabs_RtoC _ Hc); ring).
  pose proof (Cabs_le1 2 _ 0 0 U1l ltac:(lia) ltac:(lia)) as Ll. pose proof (Cabs_le1 2 _ 0 0 U1r ltac:(lia) ltac:(lia)) as Lr.
  pose proof (Cabs_le1 3 _ 0 0 Hu ltac:(lia) ltac:(lia)) as L0.
  assert (Nt : t <> 0) by (rewrite Et; intro E; apply (proj1 (asin_0_iff _ L0)) in E; apply Cabs_0_iff in E; contradiction).
  assert (Nl : cs_theta (cs svd qr 2 (cs_l1 f)) 0%nat <> 0).
  { rewrite Etl. intro E. apply (proj1 (asin_0_iff _ Ll)) in E. rewrite E in Al. apply H10. apply Cabs_0_iff. rewrite Al. ring. }
  assert (Nr : cs_theta (cs svd qr 2 (cs_r1 f)) 0%nat <> 0).
  { rewrite Etr. intro E. apply (proj1 (asin_0_iff _ Lr)) in E. rewrite E in Ar. apply H01. apply Cabs_0_iff. rewrite Ar. ring. }
  destruct (B3 Nt Nl Nr) as (P & EP & T0 & T1 & T2). rewrite Etl in T1. rewrite Etr in T2.
  set (tl := asin (Cabs (cs_l1 f 0%nat 0%nat))) in *. set (tr := asin (Cabs (cs_r1 f 0%nat 0%nat))) in *.
  assert (Sl : sin tl = Cabs (cs_l1 f 0%nat 0%nat)) by (apply sin_asin; lra).
  assert (Sr : sin tr = Cabs (cs_r1 f 0%nat 0%nat)) by (apply sin_asin; lra).
  assert (S0 : sin t = Cabs (u 0%nat 0%nat)) by (rewrite Et; apply sin_asin; lra).
  exists c95_mesh3, P, (fun i j => match matrix c95_mesh3 false P i j with Some z => z | None => C0 end).
  split; [exact EP |]. split; [intros i j _ _; rewrite matrix3; reflexivity |].
  cbv beta. rewrite !matrix3. cbv beta zeta. rewrite T0, T1, T2, !ideal_quad. cbv zeta. cbn [t11 t12 t21 t22].
  assert (Ag : forall x, Cabs (Ci * cis x)%C = 1) by (intro; rewrite Cabs_mul, Cabs_cis; unfold Cabs, Cn2; cbn; replace (0 * 0 + 1 * 1) with 1 by ring; rewrite sqrt_1; ring).
  set (gt := (Ci * cis t)%C) in *. set (gl := (Ci * cis tl)%C) in *. set (gr := (Ci * cis tr)%C) in *.
  assert (Agt : Cabs gt = 1) by apply Ag. assert (Agl : Cabs gl = 1) by apply Ag. assert (Agr : Cabs gr = 1) by apply Ag.
  unfold upd, basis, delta; cbn [Nat.eqb].
  repeat split.
  - match goal with |- Cabs ?z = _ => replace z with (cis (gammas P 0%nat) * (gt * RtoC (sin t) * cis (phis P 0%nat)))%C by (apply C_eq; cbn; ring) end.
    rewrite !Cabs_mul, !Cabs_cis, Agt, (Cabs_RtoC _ Hs), S0. ring.
  - match goal with |- Cabs ?z = _ => replace z with (cis (gammas P 0%nat) * (gt * RtoC (cos t) * (gl * RtoC (sin tl) * cis (phis P 1%nat))))%C by (apply C_eq; cbn; ring) end.
    rewrite !Cabs_mul, !Cabs_cis, Agt, Agl, (Cabs_RtoC _ Hc), Sl, (Cabs_RtoC (Cabs _)) by apply Ll. rewrite Al. ring.
  - match goal with |- Cabs ?z = _ => replace z with (cis (gammas P 1%nat) * (gr * RtoC (sin tr) * cis (phis P 2%nat) * (gt * RtoC (cos t) * cis (phis P 0%nat))))%C by (apply C_eq; cbn; ring) end.
    rewrite !Cabs_mul, !Cabs_cis, Agt, Agr, (Cabs_RtoC _ Hc), Sr, (Cabs_RtoC (Cabs _)) by apply Lr. rewrite Ar. ring.
Qed.
End N3.
Lemma n3_wrong : forall svd qr u, (forall A, svd_of 1 A (svd 1%nat A)) -> (forall A, qr_of 2 1 A (qr 2%nat 1%nat A)) -> unitary 3 u ->
  u 0%nat 0%nat <> C0 -> u 0%nat 1%nat <> C0 -> u 1%nat 0%nat <> C0 -> Cabs (u 0%nat 1%nat) <> Cabs (u 1%nat 0%nat) ->
  exists c P, bowtie svd qr 3 u = Some (c, P) /\
    ~ exists a b : nat -> R, forall i j, (i < 3)%nat -> (j < 3)%nat -> matrix c false P i j = Some (cis (a i) * u i j * cis (b j))%C.
Proof.
  intros svd qr u Hs Hq Hu H00 H01 H10 Hne. destruct (n3_moduli svd qr u Hs Hq Hu H00 H01 H10) as (c & P & M & EP & EM & _ & E01 & _).
  exists c, P. split; [exact EP |]. intros (a & b & H). specialize (H 0%nat 1%nat ltac:(lia) ltac:(lia)). rewrite EM in H by lia.
  apply Some_inj in H. rewrite H, !Cabs_mul, !Cabs_cis in E01. apply Hne. lra.
Qed.

(** ** Routines that meet the contracts, and a 3 x 3 instance *)
Definition ex_svd1 : svd_fn := fun m A => (fun _ _ => cis (Carg (A 0%nat 0%nat)), fun _ => Cabs (A 0%nat 0%nat), delta).
Definition ex_qr1 : qr_fn := fun p k A =>
  if Nat.eqb p 1 then (fun _ _ => cis (Carg (A 0%nat 0%nat)), fun _ _ => RtoC (Cabs (A 0%nat 0%nat)))
  else let r := sqrt (Cn2 (A 0%nat 0%nat) + Cn2 (A 1%nat 0%nat)) in
    if Req_EM_T r 0 then (delta, A)
    else (fun i j => match i, j with
            | O, O => Cscal (/ r) (A 0%nat 0%nat) | O, _ => Cscal (- / r) (Cconj (A 1%nat 0%nat))
            | _, O => Cscal (/ r) (A 1%nat 0%nat) | _, _ => Cscal (/ r) (Cconj (A 0%nat 0%nat)) end,
          fun i j => if Nat.eqb i 0 then RtoC r else C0).
Lemma cis_unitary1 : forall t, unitary 1 (fun _ _ => cis t).
Proof. intros t i j Hi Hj. assert (i = 0%nat) by lia. assert (j = 0%nat) by lia. subst. pose proof (sin2_cos2 t) as P. unfold Rsqr in P. split; cbn [Csum]; apply C_eq; cbn; lra. Qed.
Lemma ex_svd1_ok : forall A, svd_of 1 A (ex_svd1 1%nat A).
Proof.
  intro A. cbn. split; [apply cis_unitary1 |]. split; [apply delta_unitary |]. split; [intros; apply sqrt_pos |].
  intros i j Hi Hj. assert (i = 0%nat) by lia. assert (j = 0%nat) by lia. subst. rewrite (Carg_polar (A 0%nat 0%nat)) at 1. unfold delta. cbn [Nat.eqb]. apply C_eq; cbn; ring.
Qed.
Lemma ex_qr1_ok : forall A, qr_of 1 1 A (ex_qr1 1%nat 1%nat A).
Proof.
  intro A. cbn. split; [apply cis_unitary1 |]. split; [intros; lia |]. split; [reflexivity |].
  intros i j Hi Hj. assert (i = 0%nat) by lia. assert (j = 0%nat) by lia. subst. rewrite (Carg_polar (A 0%nat 0%nat)) at 1. apply C_eq; cbn; ring.
Qed.
Lemma ex_qr2_ok : forall A, qr_of 2 1 A (ex_qr1 2%nat 1%nat A).
Proof.
  intro A. unfold ex_qr1. cbn [Nat.eqb]. set (r := sqrt (Cn2 (A 0%nat 0%nat) + Cn2 (A 1%nat 0%nat))).
  pose proof (Cn2_nonneg (A 0%nat 0%nat)) as N0. pose proof (Cn2_nonneg (A 1%nat 0%nat)) as N1.
  assert (Hr : r * r = Cn2 (A 0%nat 0%nat) + Cn2 (A 1%nat 0%nat)) by (apply sqrt_sqrt; lra).
  destruct (Req_EM_T r 0) as [E | E].
  - rewrite E in Hr. assert (Z0 : A 0%nat 0%nat = C0) by (apply Cn2_zero_iff; lra). assert (Z1 : A 1%nat 0%nat = C0) by (apply Cn2_zero_iff; lra).
    split; [apply delta_unitary |]. split; [intros i j Hi Hj L; assert (i = 1%nat) by lia; assert (j = 0%nat) by lia; subst; exact Z1 |].
    split; [intros i Hi; assert (i = 0%nat) by lia; subst; rewrite Z0; reflexivity |].
    intros i j Hi Hj. symmetry. apply (Csum_delta_l 2 i (fun t => A t j)). exact Hi.
  - unfold Cn2 in Hr. split; [| split; [| split]].
    + intros i j Hi Hj. assert (Hij : (i = 0 \/ i = 1)%nat) by lia. assert (Hij' : (j = 0 \/ j = 1)%nat) by lia.
      destruct Hij as [-> | ->]; destruct Hij' as [-> | ->]; split; cbn [Csum]; unfold delta; cbn [Nat.eqb]; apply C_eq; cbn; field_simplify_eq; auto; nra.
    + intros i j Hi Hj L. assert (i = 1%nat) by lia. subst. reflexivity.
    + intros i Hi. assert (i = 0%nat) by lia. subst. reflexivity.
    + intros i j Hi Hj. assert (j = 0%nat) by lia. subst. assert (Hij : (i = 0 \/ i = 1)%nat) by lia.
      destruct Hij as [-> | ->]; cbn [Csum Nat.eqb]; apply C_eq; cbn; field; exact E.
Qed.
Definition c95_u : mat := fun i j => RtoC (nth (3 * i + j) [2; -2; 1; 1; 2; 2; 2; 1; -2] 0 / 3).
Lemma c95_u_ok : unitary 3 c95_u /\ c95_u 0%nat 0%nat <> C0 /\ c95_u 0%nat 1%nat <> C0 /\ c95_u 1%nat 0%nat <> C0 /\ Cabs (c95_u 0%nat 1%nat) <> Cabs (c95_u 1%nat 0%nat).
Proof.
  repeat split.
  1,2: assert (Hij : (i = 0 \/ i = 1 \/ i = 2)%nat) by lia; assert (Hij' : (j = 0 \/ j = 1 \/ j = 2)%nat) by lia;
    destruct Hij as [-> | [-> | ->]]; destruct Hij' as [-> | [-> | ->]]; unfold c95_u, delta; cbn [Csum Nat.eqb Nat.add Nat.mul nth]; apply C_eq; cbn; lra.
  1,2,3: intro E; apply (f_equal re) in E; cbn in E; lra.
  unfold Cabs, Cn2, c95_u; cbn. intro E. apply sqrt_inj in E; nra.
Qed.
