(** Proofs for C166 (5): a mirror-symmetric TM problem whose answer is not mirror symmetric. *)
From Coq Require Import Reals List Arith ZArith Lra Lia Bool FunctionalExtensionality.
From Verif Require Import Cx Arr Model_coupling Model_yee Spec_yee Model_fdfd Spec_fdfd Model_fdfdc Spec_fdfdc Proof_fdfdc3 Spec_fdfdst Spec_sym Spec_fdfdsy.
Local Open Scope R_scope.
Definition slab3 : cfdfd := mkCfdfd (fun a => match a with AX => 3 | _ => 1 end%nat) (uniform_dx (fun _ => 1)) (uniform_dx (fun _ => 1)) (fun _ => C1) 1
  (fun i _ _ => if Nat.eqb i 1 then mkC 2 1 else mkC 1 1).
Definition spot : fld := fun i _ _ => if Nat.eqb i 1 then C1 else C0.
Lemma slab3_ok : plain_grid slab3 /\ lossy slab3 1 /\ same_on (cf_shape slab3) (through AX (centre_image 3) (cf_eps slab3)) (cf_eps slab3) /\
  same_on (cf_shape slab3) (through AX (centre_image 3) spot) spot.
Proof.
  split; [split; [exists (fun _ => 1); split; reflexivity | cbn; lra] |].
  split; [split; [lra |]; left; intros i j k _; cbn [slab3 cf_eps]; destruct (Nat.eqb i 1); cbn [im]; lra |].
  split; intros i j k (Hi & _); cbn [slab3 cf_shape] in Hi; destruct i as [| [| [| i]]]; try lia; reflexivity.
Qed.
Lemma div_mul : forall z w, w <> C0 -> (z / w * w)%C = z.
Proof. intros. field. auto. Qed.
Lemma slab3_mirror : forall solver, exact2c slab3 (mat_hz_c slab3) solver spot ->
  let h := snd (solve2_tm_c slab3 solver spot) AZ in ~ same_on (cf_shape slab3) h (through AX (centre_image 3) h).
Proof.
  intros solver H h E. apply exact_tm_wave in H. fold h in H. set (x := h 0%nat 0%nat 0%nat). set (y := h 1%nat 0%nat 0%nat). 
  assert (E2 : h 2%nat 0%nat 0%nat = x) by (symmetry; apply (E 0%nat 0%nat 0%nat); unfold in_grid; cbn [slab3 cf_shape]; lia).
  assert (G : forall i, (i < 3)%nat -> in_grid (cf_shape slab3) i 0 0) by (intros q Hq; unfold in_grid; cbn [slab3 cf_shape]; lia).
  pose proof (H 0%nat 0%nat 0%nat (G 0%nat ltac:(lia))) as W0. pose proof (H 1%nat 0%nat 0%nat (G 1%nat ltac:(lia))) as W1. pose proof (H 2%nat 0%nat 0%nat (G 2%nat ltac:(lia))) as W2. clear H E.
  unfold dminus, dplus, bwd_quot, fwd_quot, right_of, left_of, line, eps_at, pred_p, spot in W0, W1, W2.
  cbn [slab3 cf_shape cf_dxf cf_dxb cf_bloch cf_k0 cf_eps coord Nat.eqb Nat.add Nat.sub uniform_dx] in W0, W1, W2. fold x y in W0, W1, W2. rewrite ?E2 in W0, W1, W2.
  unfold uniform_dx in W0, W1, W2.
  set (e0 := ((mkC 1 1 + mkC 1 1) / RtoC 2)%C) in *. set (e1 := ((mkC 2 1 + mkC 1 1) / RtoC 2)%C) in *. set (e2 := ((mkC 1 1 + mkC 2 1) / RtoC 2)%C) in *.
  assert (V0 : e0 = mkC 1 1) by (unfold e0; apply C_eq; unfold Cdiv, Cinv, Cn2; cbn [re im RtoC Cmul Cadd]; field).
  assert (V1 : e1 = mkC (3/2) 1) by (unfold e1; apply C_eq; unfold Cdiv, Cinv, Cn2; cbn [re im RtoC Cmul Cadd]; field).
  assert (N0 : e0 <> C0) by (rewrite V0; intros A; apply (f_equal im) in A; cbn in A; lra).
  assert (N1 : e1 <> C0) by (rewrite V1; intros A; apply (f_equal im) in A; cbn in A; lra).
  assert (N2 : e2 <> C0) by (intros A; apply (f_equal im) in A; unfold e2, Cdiv, Cinv, Cn2 in A; cbn [re im RtoC Cmul Cadd C0] in A; field_simplify in A; lra).
  assert (O : RtoC 1 = C1) by reflexivity. replace (1 * 1) with 1 in * by ring. replace (Cconj C1) with C1 in * by (apply C_eq; cbn; ring). rewrite ?O in *.
  assert (D1 : forall z, (z / C1)%C = z) by (intros; apply C_eq; unfold Cdiv, Cinv, Cn2; cbn [re im Cmul C1]; field). rewrite !D1 in *.
  assert (Q0 : ((x - y) / e0)%C = x).
  { transitivity (C1 * x + C1 * C0)%C; [| ring]. rewrite <- W0. unfold Cdiv. ring. }
  assert (Q2 : ((x - y) / e1)%C = x).
  { transitivity (C1 * x + C1 * C0)%C; [| ring]. rewrite <- W2. unfold Cdiv. ring. }
  assert (R0 : (x - y)%C = (x * e0)%C) by (rewrite <- (div_mul (x - y)%C e0 N0), Q0; reflexivity).
  assert (R1 : (x - y)%C = (x * e1)%C) by (rewrite <- (div_mul (x - y)%C e1 N1), Q2; reflexivity).
  assert (X : (x * (e1 - e0))%C = C0) by (transitivity ((x * e1) - (x * e0))%C; [ring | rewrite <- R0, <- R1; ring]).
  assert (X0 : x = C0).
  { rewrite V0, V1 in X. pose proof (f_equal re X) as A. pose proof (f_equal im X) as B. cbn [re im Cmul Csub C0] in A, B. apply C_eq; cbn [re im C0]; lra. }
  assert (Y0 : y = C0) by (transitivity (x - (x - y))%C; [ring | rewrite R0, X0; ring]).
  rewrite X0, Y0 in W1. apply (f_equal re) in W1. unfold Cdiv in W1. cbn [re im Cmul Csub Cadd Copp C0 C1] in W1. lra.
Qed.
