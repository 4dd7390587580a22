(** C169: adjoint sensitivities of the frequency-domain solver. *)
From Coq Require Import Reals List Arith ZArith Lra Lia.
From Verif Require Import Cx Arr Model_coupling Model_yee Spec_yee Model_fdfd Spec_fdfd Spec_fdtd Model_fdfdc Spec_fdfdc Proof_fdfdc3 Proof_fdfdc4 Spec_fdfdst Spec_fdfdad Proof_fdfdad Spec_fdfdtm Proof_fdfdtm.
Local Open Scope R_scope.

(** Exact change of the overlap of the field of j1 with j2 under a change of permittivity (PML allowed): e2 is the adjoint field, the field of j2. *)
Theorem C169_change_3d : forall d eps' solver solver' solver2 j1 j2, cf_bloch d = (fun _ => C1) -> cf_k0 d <> 0 -> nz_pixel (cf_shape d) (cf_dxf d) -> nz_pixel (cf_shape d) (cf_dxb d) ->
  exact3c d solver j1 -> exact3c (with_eps d eps') solver' j1 -> exact3c d solver2 j2 ->
  let V := vol_e (cf_dxf d) (cf_dxb d) in let e1 := fst (solve3c d solver j1) in let e1' := fst (solve3c (with_eps d eps') solver' j1) in let e2 := fst (solve3c d solver2 j2) in
  (wvpair (cf_shape d) V e1' j2 - wvpair (cf_shape d) V e1 j2)%C =
  (RtoC (cf_k0 d) * wvpair (cf_shape d) V (fun c i j k => (eps_at (cf_shape d) eps' c i j k - eps_at (cf_shape d) (cf_eps d) c i j k) * e1' c i j k) e2)%C.
Proof. exact change3. Qed.
Print Assumptions C169_change_3d.
(** TE. *)
Theorem C169_change_te : forall d eps' solver solver' solver2 j1 j2, cf_bloch d = (fun _ => C1) -> cf_k0 d <> 0 -> nz_pixel (cf_shape d) (cf_dxf d) -> nz_pixel (cf_shape d) (cf_dxb d) ->
  exact2c d (mat_ez_c d) solver j1 -> exact2c (with_eps d eps') (mat_ez_c (with_eps d eps')) solver' j1 -> exact2c d (mat_ez_c d) solver2 j2 ->
  let A := area (cf_dxb d) in let e1 := fst (solve2_te_c d solver j1) AZ in let e1' := fst (solve2_te_c (with_eps d eps') solver' j1) AZ in let e2 := fst (solve2_te_c d solver2 j2) AZ in
  (wpair (cf_shape d) A e1' j2 - wpair (cf_shape d) A e1 j2)%C =
  (RtoC (cf_k0 d) * wpair (cf_shape d) A (fun i j k => (eps_at (cf_shape d) eps' AZ i j k - eps_at (cf_shape d) (cf_eps d) AZ i j k) * e1' i j k) e2)%C.
Proof. exact change_te. Qed.
Print Assumptions C169_change_te.
(** TM: in terms of 1 / permittivity and the gradients of h. *)
Theorem C169_change_tm : forall d eps' solver solver' solver2 j1 j2, cf_bloch d = (fun _ => C1) -> cf_k0 d <> 0 -> nz_pixel (cf_shape d) (cf_dxf d) -> nz_pixel (cf_shape d) (cf_dxb d) ->
  exact2c d (mat_hz_c d) solver j1 -> exact2c (with_eps d eps') (mat_hz_c (with_eps d eps')) solver' j1 -> exact2c d (mat_hz_c d) solver2 j2 ->
  let s := cf_shape d in let A := area (cf_dxb d) in
  let h1 := snd (solve2_tm_c d solver j1) AZ in let h1' := snd (solve2_tm_c (with_eps d eps') solver' j1) AZ in let h2 := snd (solve2_tm_c d solver2 j2) AZ in
  let inv eps c i j k := (C1 / eps_at s eps c i j k)%C in
  (RtoC (cf_k0 d) * (wpair s A h1' j2 - wpair s A h1 j2))%C =
  (wpair s (fun i j k => cf_dxf d AX i * cf_dxb d AY j) (fun i j k => (inv (cf_eps d) AY i j k - inv eps' AY i j k) * dplus d h1' AX i j k) (dplus d h2 AX) +
   wpair s (fun i j k => cf_dxf d AY j * cf_dxb d AX i) (fun i j k => (inv (cf_eps d) AX i j k - inv eps' AX i j k) * dplus d h1' AY i j k) (dplus d h2 AY))%C.
Proof. exact change_tm. Qed.
Print Assumptions C169_change_tm.
(** First order: k0 times the overlap of the change with [sens_v] of the two unperturbed fields; the error is quadratic in the change. *)
Theorem C169_gradient_3d : forall d eps' sigma dl solver solver' solver2 j1 j2, plain_grid d -> cf_bloch d = (fun _ => C1) -> nz_pixel (cf_shape d) (cf_dxf d) -> lossy d sigma -> lossy (with_eps d eps') sigma ->
  (forall i j k, in_grid (cf_shape d) i j k -> Cabs (cf_eps d i j k - eps' i j k)%C <= dl) -> 0 <= dl ->
  exact3c d solver j1 -> exact3c (with_eps d eps') solver' j1 -> exact3c d solver2 j2 ->
  let s := cf_shape d in let e1 := fst (solve3c d solver j1) in let e1' := fst (solve3c (with_eps d eps') solver' j1) in let e2 := fst (solve3c d solver2 j2) in
  Cabs (vpair s e1' j2 - vpair s e1 j2 - RtoC (cf_k0 d) * pair s (fsub eps' (cf_eps d)) (sens_v s (vmul e1 e2)))%C <=
  dl * dl / (cf_k0 d * (sigma * sigma * sigma)) * (vnorm2 s j1 * vnorm2 s j2).
Proof. exact first_order3. Qed.
Print Assumptions C169_gradient_3d.
(** TE. *)
Theorem C169_gradient_te : forall d eps' sigma dl solver solver' solver2 j1 j2, plain_grid d -> cf_bloch d = (fun _ => C1) -> nz_pixel (cf_shape d) (cf_dxf d) -> lossy d sigma -> lossy (with_eps d eps') sigma ->
  (forall i j k, in_grid (cf_shape d) i j k -> Cabs (cf_eps d i j k - eps' i j k)%C <= dl) -> 0 <= dl ->
  exact2c d (mat_ez_c d) solver j1 -> exact2c (with_eps d eps') (mat_ez_c (with_eps d eps')) solver' j1 -> exact2c d (mat_ez_c d) solver2 j2 ->
  let s := cf_shape d in let e1 := fst (solve2_te_c d solver j1) AZ in let e1' := fst (solve2_te_c (with_eps d eps') solver' j1) AZ in let e2 := fst (solve2_te_c d solver2 j2) AZ in
  Cabs (pair s e1' j2 - pair s e1 j2 - RtoC (cf_k0 d) * pair s (fsub eps' (cf_eps d)) (sens_z s (fmul e1 e2)))%C <=
  dl * dl / (cf_k0 d * (sigma * sigma * sigma)) * (norm2 s j1 * norm2 s j2).
Proof. exact first_order_te. Qed.
Print Assumptions C169_gradient_te.
(** TM: the overlap of the change with [sens_v] of the two unperturbed electric fields ([flux]); quadratic error. *)
Theorem C169_gradient_tm : forall d eps' sigma kappa dl solver solver' solver2 j1 j2, plain_grid d -> cf_bloch d = (fun _ => C1) -> nz_pixel (cf_shape d) (cf_dxf d) -> lossy d sigma -> lossy (with_eps d eps') sigma ->
  sloped d kappa -> sloped (with_eps d eps') kappa ->
  (forall i j k, in_grid (cf_shape d) i j k -> Cabs (cf_eps d i j k - eps' i j k)%C <= dl) -> 0 <= dl ->
  exact2c d (mat_hz_c d) solver j1 -> exact2c (with_eps d eps') (mat_hz_c (with_eps d eps')) solver' j1 -> exact2c d (mat_hz_c d) solver2 j2 ->
  let s := cf_shape d in let h1 := snd (solve2_tm_c d solver j1) AZ in let h1' := snd (solve2_tm_c (with_eps d eps') solver' j1) AZ in let h2 := snd (solve2_tm_c d solver2 j2) AZ in
  Cabs (RtoC (cf_k0 d) * (pair s h1' j2 - pair s h1 j2) - pair s (fsub eps' (cf_eps d)) (sens_v s (vmul (flux d h1) (flux d h2))))%C <=
  dl * dl / (sigma * sigma) * sqrt (1 + kappa * kappa) * (norm2 s j1 * norm2 s j2).
Proof. exact first_order_tm. Qed.
Print Assumptions C169_gradient_tm.
(** Instance: two cells, permittivities 12 + i/2 and 12 + i; exact solvers exist by C164. *)
Example C169_nonvacuous : let d := two_lossy (mkC 12 (1/2)) 4 in let eps' := fun _ _ _ : nat => mkC 12 1 in
  plain_grid d /\ cf_bloch d = (fun _ => C1) /\ nz_pixel (cf_shape d) (cf_dxf d) /\ lossy d (1/2) /\ lossy (with_eps d eps') (1/2) /\
  (forall i j k, in_grid (cf_shape d) i j k -> Cabs (cf_eps d i j k - eps' i j k)%C <= 1/2) /\
  sloped d 24 /\ sloped (with_eps d eps') 24 /\ forall j, (exists solver, exact3c d solver j) /\ exists solver', exact3c (with_eps d eps') solver' j.
Proof.
  intros d eps'. destruct (two_lossy_ok (mkC 12 (1/2)) 4) as (H1 & H2 & _); [cbn; lra | lra |].
  assert (H3 : lossy (with_eps d eps') (1/2)) by (split; [lra |]; left; intros; cbn; lra).
  split; [exact H1 |]. split; [reflexivity |]. split; [intros a m _ E; apply (f_equal re) in E; cbn in E; lra |]. split; [exact H2 |]. split; [exact H3 |]. split.
  - intros i j k _. unfold Cabs, Cn2. cbn [d eps' two_lossy cf_eps re im Csub]. replace ((12 - 12) * (12 - 12) + (1/2 - 1) * (1/2 - 1)) with ((1/2) * (1/2)) by field. rewrite sqrt_square; lra.
  - split; [intros i j k _; cbn; rewrite !Rabs_right; lra |]. split; [intros i j k _; cbn; rewrite !Rabs_right; lra |]. intros j. split; [exact (proj1 (well_posed3 d (1/2) j H1 H2)) |]. exact (proj1 (well_posed3 (with_eps d eps') (1/2) j H1 H3)).
Qed.
