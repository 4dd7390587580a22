(** C36-C39, C56, C59-C61: frequency-domain solver. *)
From Coq Require Import Reals List Arith ZArith Lra Lia.
From Verif Require Import Cx Arr Model_coupling Model_yee Spec_yee Proof_yee Proof_yee2 Model_fdfd Spec_fdfd
  Proof_fdfd Proof_fdfd2 Proof_fdfd3 Proof_fdfd4 Proof_fdfd5 Proof_fdfd6 Proof_fdfd7 Proof_fdfd8 Proof_scpml Spec_bloch Proof_fdfd9.
Local Open Scope R_scope.

(** C36.  [source_free d e]: curl curl e = k0^2 eps e at every cell.  Whatever the grid (PML included), the round trip
    e -> h -> e returns MINUS the field: h2e divides by + i k0 eps where its docstring's equation needs - i k0 eps. *)
Theorem C36_round_trip_is_minus : forall d e c i j k, d_k0 d <> 0 -> d_eps d c i j k <> 0 -> in_grid (d_shape d) i j k ->
  source_free d e -> h2e d (e2h d e) c i j k = (- e c i j k)%C.
Proof. exact h2e_e2h. Qed.
Print Assumptions C36_round_trip_is_minus.
(** So the property fails: a standing wave on two cells is not recovered. *)
Theorem C36_round_trip_refuted : exists d e c i j k, d_k0 d <> 0 /\ (forall c i j k, 0 < d_eps d c i j k) /\
  in_grid (d_shape d) i j k /\ source_free d e /\ h2e d (e2h d e) c i j k <> e c i j k.
Proof.
  exists two_cells, alt_e, AZ, 0%nat, 0%nat, 0%nat. split; [cbn; lra |]. split; [intros; cbn; lra |].
  split; [repeat split; cbn; lia |]. split; [exact alt_source_free | exact alt_roundtrip].
Qed.
Print Assumptions C36_round_trip_refuted.

(** C37: 3-D.  Without a Bloch phase the jax operator applied to a field is mat applied to the flattened field. *)
Theorem C37_op3_is_mat_partial : forall d (e : vfld) c i j k, d_bloch d = (fun _ => C1) -> in_grid (d_shape d) i j k ->
  bmatvec (dn d) (mat3 d) (fun c => ravel (d_shape d) (e c)) c (ridx (d_shape d) i j k) = op3 d e c i j k.
Proof. exact mat3_op3. Qed.
Print Assumptions C37_op3_is_mat_partial.
(** With any other Bloch factor the two operators differ already on two cells. *)
Theorem C37_bloch_refuted : forall p k0, p <> C1 -> exists e, in_grid (d_shape (bloch_cells p k0)) 1 0 0 /\
  bmatvec (dn (bloch_cells p k0)) (mat3 (bloch_cells p k0)) (fun c => ravel (d_shape (bloch_cells p k0)) (e c)) AZ (ridx (d_shape (bloch_cells p k0)) 1 0 0)
    <> op3 (bloch_cells p k0) e AZ 1%nat 0%nat 0%nat.
Proof. exact bloch_mat_op3. Qed.
Print Assumptions C37_bloch_refuted.
(** 2-D TE: the assembled COO matrix is mat_ez, entry by entry, for every grid, PML and Bloch phase. *)
Theorem C37_te_matrix : forall d r c, (r < dn d)%nat -> (c < dn d)%nat -> te_matrix d r c = mat_ez d r c.
Proof. exact te_assembly. Qed.
Print Assumptions C37_te_matrix.
(** 2-D TM: the index list comes from D_f D_b and the values from D_b (1/eps) D_f; for positive permittivity and pixels
    with positive real part (PML included) both have the same nonzero pattern, so the assembly succeeds and is mat_hz. *)
Theorem C37_tm_matrix_partial : forall d, d_bloch d = (fun _ => C1) -> pos_pixel (d_shape d) (d_dxf d) -> pos_pixel (d_shape d) (d_dxb d) ->
  (forall c i j k, in_grid (d_shape d) i j k -> 0 < d_eps d c i j k) ->
  exists M, tm_matrix d = Some M /\ forall r c, (r < dn d)%nat -> (c < dn d)%nat -> M r c = mat_hz d r c.
Proof. exact tm_assembly. Qed.
Print Assumptions C37_tm_matrix_partial.
Example C37_nonvacuous : d_bloch tm_bad = (fun _ => C1) /\ pos_pixel (d_shape tm_bad) (d_dxf tm_bad) /\
  pos_pixel (d_shape tm_bad) (d_dxb tm_bad) /\ dn tm_bad = 3%nat /\ d_eps tm_bad AY 0%nat 0%nat 0%nat = 2.
Proof.
  split; [reflexivity |]. split; [intros a m _; cbn; lra |]. split; [intros a m _; cbn; lra |]. split; [reflexivity |].
  cbn. unfold avg_axis, ralong, tm_eps. cbn. lra.
Qed.

(** C38: real part 1, imaginary part nonpositive and bounded, and the factor is 1 exactly on cells t .. n - t.
    (n cells, t PML cells on either side, exponent m, log-reflection lr, for_h: which of the two factors.) *)
Theorem C38_factor_partial : forall m lr k0 pe h n t for_h i, (0 < m)%nat -> lr < 0 -> 0 < k0 -> 0 < pe -> 0 < h ->
  (0 < t)%nat -> (2 * t < n)%nat -> (i < n)%nat ->
  let z := scpml m lr k0 pe h n t for_h i in
  re z = 1 /\ - ((INR m + 1) * - lr / (2 * (k0 * pe))) <= im z <= 0 /\ (z = C1 <-> (t <= i <= n - t)%nat).
Proof. exact scpml_shape. Qed.
Print Assumptions C38_factor_partial.
(** Hence the first cell of the right layer, n - t, is not absorbing: only t - 1 of its t cells are. *)
Theorem C38_right_layer_refuted : forall m lr k0 pe h n t for_h, (0 < m)%nat -> lr < 0 -> 0 < k0 -> 0 < pe -> 0 < h ->
  (0 < t)%nat -> (2 * t < n)%nat -> scpml m lr k0 pe h n t for_h (n - t) = C1.
Proof. intros. apply C38_factor_partial; auto; lia. Qed.
Print Assumptions C38_right_layer_refuted.
(** Graded: the normalised depth grows towards the outer boundary on both sides. *)
Theorem C38_graded : forall (for_h : bool) h n t i, 0 < h -> (0 < t)%nat -> (2 * t < n)%nat ->
  ((i + 1 < n - t)%nat -> d_pml h n t (pml_pos for_h h) (i + 1) <= d_pml h n t (pml_pos for_h h) i) /\
  ((t <= i)%nat -> (i + 1 < n)%nat -> d_pml h n t (pml_pos for_h h) i <= d_pml h n t (pml_pos for_h h) (i + 1)).
Proof. exact d_pml_monotone. Qed.
Print Assumptions C38_graded.
(** In the interior the differences are those of the grid without PML. *)
Theorem C38_interior : forall s hh sc of_h f a i j k m lr k0 pe t for_h, (0 < m)%nat -> lr < 0 -> 0 < k0 -> 0 < pe -> 0 < hh ->
  (0 < t)%nat -> (2 * t < s a)%nat -> in_grid s i j k -> (t <= coord a i j k <= s a - t)%nat ->
  (forall x, sc a x = scpml m lr k0 pe hh (s a) t for_h x) ->
  diff_fn s (stretched hh sc) of_h f a i j k = diff_fn s (uniform_dx (fun _ => hh)) of_h f a i j k.
Proof.
  intros s hh sc of_h f a i j k m lr k0 pe t for_h Hm Hlr Hk Hp Hh Ht Hn Hin Hc Hsc. apply interior_diff. rewrite Hsc.
  apply scpml_shape; auto. destruct Hin as (? & ? & ?). destruct a; auto.
Qed.
Print Assumptions C38_interior.
Example C38_nonvacuous : scpml 4 (-16) 1 1 (1/10) 20 5 true 0 = (C1 + Ci * RtoC (-40))%C.
Proof. apply C_eq; unfold scpml, d_pml, pos_h, p_pos; cbn; lra. Qed.

(** C39: exactly the spacings for which the PML thickness t survives. *)
Theorem C39_pml_preserved_iff : forall t spacing shape, (3 < t)%Z -> (t < shape / 2)%Z -> 0 < spacing ->
  (from_simgrid_pml (Some t) spacing shape = Some (Some t) <-> IZR t / (IZR t + 1) < spacing <= 1).
Proof. exact from_simgrid_iff. Qed.
Print Assumptions C39_pml_preserved_iff.
Theorem C39_no_pml_partial : forall spacing shape, from_simgrid_pml None spacing shape = Some None.
Proof. exact from_simgrid_none. Qed.
Print Assumptions C39_no_pml_partial.
(** For spacings of at most 1/2 the layer is at least doubled, or the constructor raises. *)
Theorem C39_fine_spacing_refuted : forall t spacing shape, (3 < t)%Z -> 0 < spacing <= 1 / 2 ->
  match from_simgrid_pml (Some t) spacing shape with
  | None => (shape / 2 <= trunc (IZR t / spacing))%Z
  | Some None => False
  | Some (Some u) => (2 * t <= u)%Z
  end.
Proof. exact from_simgrid_fine. Qed.
Print Assumptions C39_fine_spacing_refuted.

(** C56: an exact linear solve yields fields that satisfy both curl equations at every cell; 3-D, PML included. *)
Theorem C56_solve3_maxwell : forall d solver src, d_bloch d = (fun _ => C1) -> d_k0 d <> 0 -> exact3 d solver src ->
  let (e, h) := solve3 d solver src in
  faraday (d_shape d) (d_dxf d) (d_k0 d) e h /\ ampere (d_shape d) (d_dxb d) (d_k0 d) (d_eps d) e h src.
Proof. exact solve3_maxwell. Qed.
Print Assumptions C56_solve3_maxwell.
Theorem C56_solve_te_maxwell : forall d solver src, d_bloch d = (fun _ => C1) -> d_k0 d <> 0 -> d_shape d AZ = 1%nat ->
  exact2 d (mat_ez d) solver src ->
  let (e, h) := solve2_te d solver src in
  faraday (d_shape d) (d_dxf d) (d_k0 d) e h /\ ampere (d_shape d) (d_dxb d) (d_k0 d) (d_eps d) e h (only_z src).
Proof. exact solve_te_maxwell. Qed.
Print Assumptions C56_solve_te_maxwell.
(** The solution of a source: any field x is the exact solution for the source (mat_ez x) / k0, so the hypotheses are met. *)
Example C56_nonvacuous : exact2 tm_bad (mat_hz tm_bad) (fun _ _ => tm_hz) tm_src /\ d_k0 tm_bad <> 0 /\ d_shape tm_bad AZ = 1%nat.
Proof. split; [exact tm_bad_exact |]. split; [cbn; lra | reflexivity]. Qed.

(** C59: TM.  In a homogeneous medium on a uniform grid the fields satisfy both curl equations (time dependence of the
    opposite sign to C56). *)
Theorem C59_tm_homogeneous_partial : forall d h (x : R) solver src, d_bloch d = (fun _ => C1) -> d_k0 d <> 0 -> d_shape d AZ = 1%nat ->
  d_dxf d = uniform_dx h -> d_dxb d = uniform_dx h -> x <> 0 -> (forall c i j k, d_eps d c i j k = x) ->
  exact2 d (mat_hz d) solver src ->
  let (e, h) := solve2_tm d solver src in
  forall c i j k, in_grid (d_shape d) i j k ->
  curl_of (bwd (d_shape d) (d_dxb d)) h c i j k = (Ci * RtoC (d_k0 d) * RtoC (d_eps d c i j k) * e c i j k)%C /\
  curl_of (fwd (d_shape d) (d_dxf d)) e c i j k = (- (Ci * RtoC (d_k0 d) * h c i j k) - Ci * only_z src c i j k)%C.
Proof. exact solve_tm_maxwell. Qed.
Print Assumptions C59_tm_homogeneous_partial.
(** In every medium the electric field is the one Ampere's law gives for the magnetic field. *)
Theorem C59_ampere_partial : forall d solver src, d_k0 d <> 0 ->
  let (e, h) := solve2_tm d solver src in
  forall c i j k, in_grid (d_shape d) i j k -> d_eps d c i j k <> 0 ->
  curl_of (bwd (d_shape d) (d_dxb d)) h c i j k = (Ci * RtoC (d_k0 d) * RtoC (d_eps d c i j k) * e c i j k)%C.
Proof. exact solve_tm_ampere. Qed.
Print Assumptions C59_ampere_partial.
(** With a varying permittivity they do not: mat_hz discretises D_b (1/eps) D_f while solve takes e from D_b h, whose
    equation is D_f (1/eps) D_b.  Three cells, source-free cell 1, exact solver: curl e is -3/2 i where |k0 h| = 1. *)
Theorem C59_tm_refuted : exists d src solver, d_bloch d = (fun _ => C1) /\ d_k0 d = 1 /\ d_shape d AZ = 1%nat /\
  d_dxf d = uniform_dx (fun _ => 1) /\ d_dxb d = uniform_dx (fun _ => 1) /\
  (exists p, (forall i j k, 0 < p i j k) /\ d_eps d = yee_avg (d_shape d) p) /\ exact2 d (mat_hz d) solver src /\
  exists i j k, in_grid (d_shape d) i j k /\ src i j k = C0 /\
  let (e, h) := solve2_tm d solver src in
  h AZ i j k = C1 /\ curl_of (fwd (d_shape d) (d_dxf d)) e AZ i j k = (- (RtoC (3 / 2) * Ci))%C.
Proof.
  exists tm_bad, tm_src, (fun _ _ => tm_hz). do 5 (split; [reflexivity |]).
  split. { exists tm_eps. split; [intros i j k; unfold tm_eps; destruct (Nat.eqb i 0); lra | reflexivity]. }
  split; [exact tm_bad_exact |]. exists 1%nat, 0%nat, 0%nat. split; [repeat split; cbn; lia |]. split; [exact tm_src_1 |].
  exact tm_bad_fields.
Qed.
Print Assumptions C59_tm_refuted.

(** C60: reciprocity with the cell volumes (areas) as weights; complex (PML-stretched) pixels included. *)
Theorem C60_reciprocity_3d : forall d solver j1 j2, d_bloch d = (fun _ => C1) -> d_k0 d <> 0 ->
  nz_pixel (d_shape d) (d_dxf d) -> nz_pixel (d_shape d) (d_dxb d) -> exact3 d solver j1 -> exact3 d solver j2 ->
  wvpair (d_shape d) (vol_e (d_dxf d) (d_dxb d)) (fst (solve3 d solver j1)) j2 =
  wvpair (d_shape d) (vol_e (d_dxf d) (d_dxb d)) (fst (solve3 d solver j2)) j1.
Proof. exact reciprocity3. Qed.
Print Assumptions C60_reciprocity_3d.
Theorem C60_reciprocity_te : forall d solver j1 j2, d_bloch d = (fun _ => C1) -> d_k0 d <> 0 ->
  nz_pixel (d_shape d) (d_dxf d) -> nz_pixel (d_shape d) (d_dxb d) ->
  exact2 d (mat_ez d) solver j1 -> exact2 d (mat_ez d) solver j2 ->
  wpair (d_shape d) (area (d_dxb d)) (fst (solve2_te d solver j1) AZ) j2 =
  wpair (d_shape d) (area (d_dxb d)) (fst (solve2_te d solver j2) AZ) j1.
Proof. exact reciprocity_te. Qed.
Print Assumptions C60_reciprocity_te.
Theorem C60_reciprocity_tm : forall d solver j1 j2, d_bloch d = (fun _ => C1) -> d_k0 d <> 0 ->
  nz_pixel (d_shape d) (d_dxf d) -> nz_pixel (d_shape d) (d_dxb d) ->
  exact2 d (mat_hz d) solver j1 -> exact2 d (mat_hz d) solver j2 ->
  wpair (d_shape d) (area (d_dxb d)) (snd (solve2_tm d solver j1) AZ) j2 =
  wpair (d_shape d) (area (d_dxb d)) (snd (solve2_tm d solver j2) AZ) j1.
Proof. exact reciprocity_tm. Qed.
Print Assumptions C60_reciprocity_tm.
Example C60_nonvacuous : nz_pixel (d_shape tm_bad) (d_dxf tm_bad) /\ exact2 tm_bad (mat_hz tm_bad) (fun _ _ => tm_hz) tm_src.
Proof. split; [intros a m _ E; apply (f_equal re) in E; cbn in E; lra | exact tm_bad_exact]. Qed.

(** C61: Hermitian, and no net work. *)
Theorem C61_hermitian : forall d h u v, d_dxf d = uniform_dx h -> d_dxb d = uniform_dx h ->
  bdot (dn d) (bmatvec (dn d) (mat3 d) u) v = bdot (dn d) u (bmatvec (dn d) (mat3 d) v).
Proof. exact mat3_hermitian. Qed.
Print Assumptions C61_hermitian.
Theorem C61_no_net_work : forall d h solver src, d_dxf d = uniform_dx h -> d_dxb d = uniform_dx h -> exact3 d solver src -> d_k0 d <> 0 ->
  im (bdot (dn d) (solver (mat3 d) (fun c r => RtoC (d_k0 d) * ravel (d_shape d) (src c) r)%C) (fun c => ravel (d_shape d) (src c))) = 0.
Proof. exact no_net_power. Qed.
Print Assumptions C61_no_net_work.
