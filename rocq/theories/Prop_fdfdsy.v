(** C166: symmetries of frequency-domain solutions, with a complex permittivity. *)
From Coq Require Import Reals List Arith ZArith Lra Lia.
From Verif Require Import Cx Arr Model_coupling Model_yee Spec_yee Model_fdfd Spec_fdfd Spec_fdtd Model_fdfdc Spec_fdfdc Proof_fdfdc3 Spec_fdfdst Model_fdtd Spec_sym Spec_fdfdsy
  Proof_fdfdsy Proof_fdfdsy2 Proof_fdfdsy3 Proof_fdfdsy4 Proof_fdfdsy5.
Local Open Scope R_scope.

(** Reciprocity: exchanging source and receiver; PML and absorption allowed. *)
Theorem C166_reciprocity_3d : forall d solver solver' j1 j2, cf_bloch d = (fun _ => C1) -> cf_k0 d <> 0 -> nz_pixel (cf_shape d) (cf_dxf d) -> nz_pixel (cf_shape d) (cf_dxb d) ->
  exact3c d solver j1 -> exact3c d solver' j2 ->
  wvpair (cf_shape d) (vol_e (cf_dxf d) (cf_dxb d)) (fst (solve3c d solver j1)) j2 = wvpair (cf_shape d) (vol_e (cf_dxf d) (cf_dxb d)) (fst (solve3c d solver' j2)) j1.
Proof. exact recip3. Qed.
Print Assumptions C166_reciprocity_3d.
Theorem C166_reciprocity_te : forall d solver solver' j1 j2, cf_bloch d = (fun _ => C1) -> cf_k0 d <> 0 -> nz_pixel (cf_shape d) (cf_dxf d) -> nz_pixel (cf_shape d) (cf_dxb d) ->
  exact2c d (mat_ez_c d) solver j1 -> exact2c d (mat_ez_c d) solver' j2 ->
  wpair (cf_shape d) (area (cf_dxb d)) (fst (solve2_te_c d solver j1) AZ) j2 = wpair (cf_shape d) (area (cf_dxb d)) (fst (solve2_te_c d solver' j2) AZ) j1.
Proof. exact recip_te. Qed.
Print Assumptions C166_reciprocity_te.
Theorem C166_reciprocity_tm : forall d solver solver' j1 j2, cf_bloch d = (fun _ => C1) -> cf_k0 d <> 0 -> nz_pixel (cf_shape d) (cf_dxf d) -> nz_pixel (cf_shape d) (cf_dxb d) ->
  exact2c d (mat_hz_c d) solver j1 -> exact2c d (mat_hz_c d) solver' j2 ->
  wpair (cf_shape d) (area (cf_dxb d)) (snd (solve2_tm_c d solver j1) AZ) j2 = wpair (cf_shape d) (area (cf_dxb d)) (snd (solve2_tm_c d solver' j2) AZ) j1.
Proof. exact recip_tm. Qed.
Print Assumptions C166_reciprocity_tm.
(** Moving structure and source by m cells moves the returned fields. *)
Theorem C166_shift_3d : forall d sigma a m solver solver' src, plain_grid d -> lossy d sigma -> cf_bloch d = (fun _ => C1) ->
  exact3c d solver src -> exact3c (moved_cf a m d) solver' (moved_v (cf_shape d) a m src) ->
  let (e, h) := solve3c d solver src in let (e', h') := solve3c (moved_cf a m d) solver' (moved_v (cf_shape d) a m src) in
  same_v (cf_shape d) e' (moved_v (cf_shape d) a m e) /\ same_v (cf_shape d) h' (moved_v (cf_shape d) a m h).
Proof. exact shift3. Qed.
Print Assumptions C166_shift_3d.
Theorem C166_shift_te : forall d sigma a m solver solver' src, plain_grid d -> lossy d sigma -> cf_bloch d = (fun _ => C1) ->
  exact2c d (mat_ez_c d) solver src -> exact2c (moved_cf a m d) (mat_ez_c (moved_cf a m d)) solver' (moved (cf_shape d) a m src) ->
  let (e, h) := solve2_te_c d solver src in let (e', h') := solve2_te_c (moved_cf a m d) solver' (moved (cf_shape d) a m src) in
  same_v (cf_shape d) e' (moved_v (cf_shape d) a m e) /\ same_v (cf_shape d) h' (moved_v (cf_shape d) a m h).
Proof. exact shift_te_all. Qed.
Print Assumptions C166_shift_te.
Theorem C166_shift_tm : forall d sigma a m solver solver' src, plain_grid d -> lossy d sigma -> cf_bloch d = (fun _ => C1) ->
  exact2c d (mat_hz_c d) solver src -> exact2c (moved_cf a m d) (mat_hz_c (moved_cf a m d)) solver' (moved (cf_shape d) a m src) ->
  let (e, h) := solve2_tm_c d solver src in let (e', h') := solve2_tm_c (moved_cf a m d) solver' (moved (cf_shape d) a m src) in
  same_v (cf_shape d) e' (moved_v (cf_shape d) a m e) /\ same_v (cf_shape d) h' (moved_v (cf_shape d) a m h).
Proof. exact shift_tm_all. Qed.
Print Assumptions C166_shift_tm.
(** Mirror images, along x and y, and along z if all layers have the same permittivity. *)
Theorem C166_mirror_3d : forall d sigma a solver solver' src, plain_grid d -> lossy d sigma -> cf_bloch d = (fun _ => C1) -> a <> AZ \/ z_uniform d ->
  exact3c d solver src -> exact3c (mirror_cf a d) solver' (mirror_e (cf_shape d) a src) ->
  let (e, h) := solve3c d solver src in let (e', h') := solve3c (mirror_cf a d) solver' (mirror_e (cf_shape d) a src) in
  same_v (cf_shape d) e' (mirror_e (cf_shape d) a e) /\ same_v (cf_shape d) h' (mirror_h (cf_shape d) a h).
Proof. exact mirror3. Qed.
Print Assumptions C166_mirror_3d.
Theorem C166_mirror_te : forall d sigma a solver solver' src, plain_grid d -> lossy d sigma -> cf_bloch d = (fun _ => C1) -> a <> AZ ->
  exact2c d (mat_ez_c d) solver src -> exact2c (mirror_cf a d) (mat_ez_c (mirror_cf a d)) solver' (mirror_e (cf_shape d) a (only_z src) AZ) ->
  let (e, h) := solve2_te_c d solver src in let (e', h') := solve2_te_c (mirror_cf a d) solver' (mirror_e (cf_shape d) a (only_z src) AZ) in
  same_v (cf_shape d) e' (mirror_e (cf_shape d) a e) /\ same_v (cf_shape d) h' (mirror_h (cf_shape d) a h).
Proof. exact mirror_te_all. Qed.
Print Assumptions C166_mirror_te.
(** TM: three cells, symmetric permittivity and source, and no exact answer is symmetric; mat_hz takes the permittivity of the wrong edge. *)
Theorem C166_mirror_tm_refuted : exists d src, plain_grid d /\ lossy d 1 /\ cf_bloch d = (fun _ => C1) /\
  same_on (cf_shape d) (through AX (centre_image (cf_shape d AX)) (cf_eps d)) (cf_eps d) /\ same_on (cf_shape d) (through AX (centre_image (cf_shape d AX)) src) src /\
  (exists solver, exact2c d (mat_hz_c d) solver src) /\
  forall solver, exact2c d (mat_hz_c d) solver src -> let h := snd (solve2_tm_c d solver src) AZ in ~ same_on (cf_shape d) h (through AX (centre_image (cf_shape d AX)) h).
Proof.
  destruct slab3_ok as (H1 & H2 & H3 & H4). exists slab3, spot. split; [exact H1 |]. split; [exact H2 |]. split; [reflexivity |]. split; [exact H3 |]. split; [exact H4 |].
  split; [| exact slab3_mirror]. destruct (some_kappa slab3 1 H2) as (kappa & HK). exact (proj1 (well_posed_tm slab3 1 kappa spot H1 H2 HK)).
Qed.
Print Assumptions C166_mirror_tm_refuted.
(** Changing the unit of length by a factor u multiplies the returned fields by u (the source is a current density times length). *)
Theorem C166_units_3d : forall d sigma u solver solver' src, plain_grid d -> lossy d sigma -> 0 < u -> nz_pixel (cf_shape d) (cf_dxf d) ->
  exact3c d solver src -> exact3c (in_unit u d) solver' src ->
  let (e, h) := solve3c d solver src in let (e', h') := solve3c (in_unit u d) solver' src in same_v (cf_shape d) e' (times u e) /\ same_v (cf_shape d) h' (times u h).
Proof. exact units3. Qed.
Print Assumptions C166_units_3d.
Theorem C166_units_te : forall d sigma u solver solver' src, plain_grid d -> lossy d sigma -> 0 < u -> nz_pixel (cf_shape d) (cf_dxf d) ->
  exact2c d (mat_ez_c d) solver src -> exact2c (in_unit u d) (mat_ez_c (in_unit u d)) solver' src ->
  let (e, h) := solve2_te_c d solver src in let (e', h') := solve2_te_c (in_unit u d) solver' src in same_v (cf_shape d) e' (times u e) /\ same_v (cf_shape d) h' (times u h).
Proof. exact units_te. Qed.
Print Assumptions C166_units_te.
Theorem C166_units_tm : forall d sigma u solver solver' src, plain_grid d -> lossy d sigma -> 0 < u -> nz_pixel (cf_shape d) (cf_dxf d) ->
  exact2c d (mat_hz_c d) solver src -> exact2c (in_unit u d) (mat_hz_c (in_unit u d)) solver' src ->
  let (e, h) := solve2_tm_c d solver src in let (e', h') := solve2_tm_c (in_unit u d) solver' src in same_v (cf_shape d) e' (times u e) /\ same_v (cf_shape d) h' (times u h).
Proof. exact units_tm. Qed.
Print Assumptions C166_units_tm.
(** Instance: the three-cell slab meets every hypothesis; exact solvers exist by C164 for it, its shifts and its images. *)
Example C166_nonvacuous : plain_grid slab3 /\ lossy slab3 1 /\ cf_bloch slab3 = (fun _ => C1) /\ z_uniform slab3 /\ nz_pixel (cf_shape slab3) (cf_dxf slab3) /\
  (forall src, exists solver, exact3c slab3 solver src) /\ forall a m src, exists solver, exact3c (moved_cf a m slab3) solver src.
Proof.
  destruct slab3_ok as (H1 & H2 & _). split; [exact H1 |]. split; [exact H2 |]. split; [reflexivity |].
  split; [intros i j k k' _ _; reflexivity |]. split; [intros a m _ E; apply (f_equal re) in E; cbn in E; lra |].
  split; [intros src; exact (proj1 (well_posed3 slab3 1 src H1 H2)) |].
  intros a m src. exact (proj1 (well_posed3 (moved_cf a m slab3) 1 src (plain' slab3 H1 a m) (lossy' slab3 a m 1 H2))).
Qed.
