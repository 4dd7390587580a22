(** C103-C110: operations on whole meshes. *)
From Coq Require Import Reals List Arith ZArith Bool Lra Lia Sorting Permutation.
From Verif Require Import Cx Arr Spec_circuit Model_coupling Model_forward Model_rect Model_vector Model_meshops Model_envelope Spec_mesh Spec_meshops
  Proof_forward4 Proof_meshops Proof_meshops2 Proof_meshops3 Proof_envelope.
Import ListNotations.
Local Open Scope R_scope.

(** C103: the two meshes and the singular values of psvd(a) implement a on every input. *)
Theorem C103_psvd : forall svd m n a, (2 <= m)%nat -> (2 <= n)%nat -> svd_mn m n a (svd m n a) ->
  exists ml pl d mr pr, psvd svd m n a = Some ((ml, pl), d, (mr, pr)) /\ wf_mesh ml /\ wf_mesh mr /\ n_rails ml = m /\ n_rails mr = n /\
   (forall k, (k < Nat.min m n)%nat -> 0 <= d k) /\ (forall k, (S k < Nat.min m n)%nat -> d (S k) <= d k) /\
   forall x, exists y z, matrix_fn mr false pr x = Some y /\
     matrix_fn ml false pl (fun k => if Nat.ltb k (Nat.min m n) then (RtoC (d k) * y k)%C else C0) = Some z /\
     forall i, (i < m)%nat -> z i = Csum n (fun j => a i j * x j)%C.
Proof. exact psvd_ok. Qed.
Print Assumptions C103_psvd.
(** Outside the quantifier: a single row or column raises. *)
Theorem C103_row_raises : forall svd m n a, m = 1%nat \/ n = 1%nat -> psvd svd m n a = None.
Proof. exact psvd_one. Qed.
(** A matrix with its decomposition: the 2 x 3 matrix with 2 and 1 on its diagonal. *)
Example C103_nonvacuous : svd_mn 2 3 (fun i j => if Nat.eqb i j then RtoC (2 - INR i) else C0) (delta, (fun k => 2 - INR k), delta).
Proof.
  assert (U : forall n, (n <= 3)%nat -> unitary n delta).
  { intros n Hn i j Hi Hj. destruct n as [| [| [| [| n]]]]; [lia | | | | lia];
      destruct i as [| [| [| i]]]; try lia; destruct j as [| [| [| j]]]; try lia; split; unfold delta; cbn; apply C_eq; cbn; ring. }
  split; [apply U; lia |]. split; [apply U; lia |]. split; [intros k Hk; cbn in Hk; destruct k as [| [| k]]; [cbn; lra | cbn; lra | lia] |].
  split; [intros k Hk; rewrite S_INR; lra |].
  intros i j Hi Hj. destruct i as [| [| i]]; [| | lia]; (destruct j as [| [| [| j]]]; [| | | lia]); unfold delta; cbn; apply C_eq; cbn; ring.
Qed.

(** C104: meshes put one after the other with offset, offset_column and aggregate make the product circuit.  Each mesh is a
    constructed one (fresh) that can be evaluated (wf_mesh), of style TOP, with the same number of rails. *)
Theorem C104_composition : forall ms N, ms <> [] -> (forall m, In m ms -> wf_mesh m /\ fresh m /\ style m = TOP /\ n_rails m = N) ->
  exists m, aggregate (stacked 0 0 ms) = Some m /\ wf_mesh m /\ fresh m /\ style m = TOP /\ n_rails m = N /\
   nodes m = concat (map nodes (stacked 0 0 ms)) /\ num_columns m = fold_right Z.add 0%Z (map num_columns ms) /\
   forall ps x, length ps = length ms -> matrix_fn m false (join_all (combine ms ps)) x = chain (combine ms ps) x.
Proof. exact chain_ok. Qed.
Print Assumptions C104_composition.
(** Two meshes, in both directions of light. *)
Theorem C104_two : forall a b, wf_mesh a -> fresh a -> wf_mesh b -> fresh b -> n_rails a = n_rails b -> style a = TOP -> style b = TOP ->
 exists m, aggregate [a; offset_column (offset b (length (nodes a))) (num_columns a)] = Some m /\
  wf_mesh m /\ fresh m /\ style m = TOP /\ n_rails m = n_rails a /\ length (nodes m) = (length (nodes a) + length (nodes b))%nat /\
  num_columns m = (num_columns a + num_columns b)%Z /\
  forall pa pb x,
   (exists y, matrix_fn a false (no_gammas pa) x = Some y /\ matrix_fn m false (join_params (length (nodes a)) pa pb) x = matrix_fn b false pb y) /\
   (exists y, matrix_fn b true pb x = Some y /\ matrix_fn m true (join_params (length (nodes a)) pa pb) x = matrix_fn a true (no_gammas pa) y).
Proof. exact compose_ok. Qed.
Print Assumptions C104_two.
(** Every constructed mesh with nonnegative columns is fresh; trees of any size meet all hypotheses. *)
Theorem C104_fresh_meshes : (forall l s m n, mk_mesh l s = Some m -> (forall nd, In nd l -> (0 <= column nd)%Z /\ n_of nd = n) -> fresh m) /\
  (forall n r s, (2 <= n)%nat -> (n <= r)%nat -> exists m, tree n r true s = Some m /\ wf_mesh m /\ fresh m /\ style m = s /\ n_rails m = r).
Proof. exact (conj made_fresh tree_fresh). Qed.
Print Assumptions C104_fresh_meshes.

(** C105, full statement: column_ordered is the same circuit with its nodes listed in the order light meets them.
    Proved: order, permutation, idempotence, and the same matrix for style TOP when all nodes have the same errors. *)
Theorem C105_column_ordered_partial : forall m, wf_mesh m -> fresh m -> exists mo, column_ordered m = Some mo /\
  Permutation (nodes mo) (nodes m) /\ StronglySorted Z.le (map column (nodes mo)) /\ style mo = TOP /\ wf_mesh mo /\ fresh mo /\
  num_columns mo = num_columns m /\ column_ordered mo = Some mo /\
  (uniform_errors m -> forall back p x, matrix_fn mo back p x = matrix_fn (restyled m TOP) back p x).
Proof. exact column_ordered_ok. Qed.
Print Assumptions C105_column_ordered_partial.
(** A mesh whose errors act on their own nodes (ids are list positions) whose column-ordered form is another circuit. *)
Theorem C105_errors_refuted : exists l m mo, mk_mesh l TOP = Some m /\ map node_id (nodes m) = seq 0 (length l) /\
  column_ordered m = Some mo /\ matrix mo false (pconst 0 0) 0 0 <> matrix m false (pconst 0 0) 0 0.
Proof. exact ordered_moves_error. Qed.
Print Assumptions C105_errors_refuted.
Example C105_nonvacuous : exists m, tree 4 4 true TOP = Some m /\ uniform_errors m /\ ~ StronglySorted Z.le (map column (nodes m)).
Proof.
  eexists. split; [reflexivity |]. split.
  - exists (0, 0), (0, 0). intros nd [<- | [<- | [<- | []]]]; split; reflexivity.
  - cbn. intros S. inversion S as [| x l S' F]; subst. rewrite Forall_forall in F. specialize (F 0%Z (or_introl eq_refl)). lia.
Qed.

(** C106: add_error_variance returns the same wiring, style and columns with the drawn perturbations, for any draws. *)
Theorem C106_error_variance : forall m bs ls eq db dl, wf_mesh m -> fresh m -> exists m', add_error_variance m bs ls eq db dl = Some m' /\
  wf_mesh m' /\ fresh m' /\ style m' = style m /\ n_rails m' = n_rails m /\ num_columns m' = num_columns m /\
  (forall i nd, nth_error (nodes m) i = Some nd -> exists nd', nth_error (nodes m') i = Some nd' /\
     (node_id nd', top nd', bottom nd', column nd') = (node_id nd, top nd, bottom nd, column nd) /\
     (bs_error nd' = (fst (bs_error nd) + bs * fst (db i), snd (bs_error nd) + bs * (if eq then fst (db i) else snd (db i))))%R /\
     (loss nd' = (fst (loss nd) + ls * fst (dl i), snd (loss nd) + ls * snd (dl i)))%R) /\
  (eq = true -> equal_errors m -> equal_errors m') /\
  (ls = 0%R -> lossless m -> forall back p x, exists y, matrix_fn m' back p x = Some y /\ power (n_rails m) y = power (n_rails m) x) /\
  (bs = 0%R -> ls = 0%R -> forall back p x, matrix_fn m' back p x = matrix_fn m back p x).
Proof. exact variance_ok. Qed.
Print Assumptions C106_error_variance.
(** phases(): thetas and phis are shifted by the same errors, gammas only on request. *)
Theorem C106_phases : forall p e c g d dg i, thetas (phases p e c g d dg) i - thetas p i = (if c then e else e * d i) /\
  phis (phases p e c g d dg) i - phis p i = (if c then e else e * d i) /\
  gammas (phases p e c g d dg) i - gammas p i = (if g then (if c then e else e * dg i) else 0).
Proof. exact phases_ok. Qed.
Print Assumptions C106_phases.
Example C106_nonvacuous : exists m, tree 4 4 true BOTTOM = Some m /\ wf_mesh m /\ fresh m /\ lossless m /\ equal_errors m.
Proof.
  destruct (tree_fresh 4 4 BOTTOM ltac:(lia) ltac:(lia)) as (m & E & W & F & _). exists m. split; [exact E |]. split; [exact W |]. split; [exact F |].
  pose proof F as (EB & EL & _). unfold lossless, equal_errors. rewrite EB, EL. assert (X : tree 4 4 true BOTTOM = Some m) by exact E. cbv in X.
  apply Some_inj in X. rewrite <- X. cbn. split; repeat constructor.
Qed.

(** C107, full statement: a mesh can still be evaluated after offset, or after being aggregated.  aggregate leaves its arguments
    alone when some node has a nonzero id. *)
Theorem C107_arguments_kept_partial : forall ms, (exists m nd, In m ms /\ In nd (nodes m) /\ node_id nd <> 0%nat) -> aggregate_effect ms = ms.
Proof. exact effect_none. Qed.
Print Assumptions C107_arguments_kept_partial.
(** Single-node meshes: after aggregate every argument but the first raises, although it worked before. *)
Theorem C107_aggregate_refuted : forall ms j m, (forall m, In m ms -> wf_mesh m /\ fresh m /\ exists nd, nodes m = [nd] /\ node_id nd = 0%nat) ->
  (0 < j)%nat -> nth_error (aggregate_effect ms) j = Some m ->
  exists m0, nth_error ms j = Some m0 /\ (forall back p x, matrix_fn m0 back p x <> None) /\ forall back p x, matrix_fn m back p x = None.
Proof. exact aggregate_breaks. Qed.
Print Assumptions C107_aggregate_refuted.
(** After offset(k), k > 0, that pushes an id past the number of nodes, evaluation raises. *)
Theorem C107_offset_refuted : forall m k p back x, wf_mesh m -> (0 < k)%nat ->
  (exists nd, In nd (nodes m) /\ (0 <= column nd < num_columns m)%Z /\ (length (bs_errors m) <= node_id nd + k)%nat) ->
  matrix_fn (offset m k) back p x = None.
Proof. exact offset_raises. Qed.
Print Assumptions C107_offset_refuted.
Example C107_nonvacuous : exists m, tree 2 2 true TOP = Some m /\ wf_mesh m /\ fresh m /\ (exists nd, nodes m = [nd] /\ node_id nd = 0%nat) /\
  exists m', nth_error (aggregate_effect [m; m]) 1 = Some m'.
Proof.
  destruct (tree_fresh 2 2 TOP ltac:(lia) ltac:(lia)) as (m & E & W & F & _). exists m. split; [exact E |]. split; [exact W |]. split; [exact F |].
  assert (X : tree 2 2 true TOP = Some m) by exact E. cbv in X. apply Some_inj in X. rewrite <- X. split; [eexists; split; reflexivity | eexists; reflexivity].
Qed.

(** C108, full statement: a mesh's parameters change only through that mesh.  Arrays obtained from the params property are copies,
    so meshes initialised with another mesh's params (add_error_mean, add_error_variance) are independent. *)
Theorem C108_getter_partial : forall h next r h' next' c, (r_thetas r < next /\ r_phis r < next /\ r_gammas r < next)%nat -> get_params h next r = (h', next', c) ->
  deref h' c = deref h r /\ deref h' r = deref h r /\
  (forall a x, a = r_thetas c \/ a = r_phis c \/ a = r_gammas c -> deref (hwrite h' a x) r = deref h r) /\
  (forall p, deref (program_inplace h' r p) c = deref h r) /\ (forall p, deref (program_inplace h' c p) r = deref h r).
Proof. exact getter_copies. Qed.
Print Assumptions C108_getter_partial.
(** The setter keeps the caller's arrays: a later write to them is a write to the mesh, and two meshes given the same arrays are
    programmed together. *)
Theorem C108_setter_refuted : (forall h r c x, thetas (deref (hwrite h (r_thetas c) x) (set_params r c)) = x /\
  phis (deref (hwrite h (r_phis c) x) (set_params r c)) = x /\ gammas (deref (hwrite h (r_gammas c) x) (set_params r c)) = x) /\
  (forall h r1 r2 c p, r_thetas c <> r_phis c ->
   thetas (deref (program_inplace h (set_params r1 c) p) (set_params r2 c)) = thetas p /\ phis (deref (program_inplace h (set_params r1 c) p) (set_params r2 c)) = phis p).
Proof. exact (conj setter_aliases shared_program). Qed.
Print Assumptions C108_setter_refuted.
(** Building an in-situ layer zeroes the output phases of the mesh it is given. *)
Theorem C108_layer_refuted : forall h next r z h' next' rm rl, (r_thetas r < next /\ r_phis r < next /\ r_gammas r < next)%nat ->
  insitu_layer_init h next r z = (h', next', rm, rl) ->
  thetas (deref h' rm) = thetas (deref h r) /\ phis (deref h' rm) = phis (deref h r) /\
  gammas (deref h' rm) = (if z then fun _ => 0 else gammas (deref h r)) /\ deref h' rl = deref h' rm /\ deref h' r = deref h r.
Proof. exact layer_init. Qed.
Print Assumptions C108_layer_refuted.
Example C108_nonvacuous : let r := mkRefs 0 1 2 in (r_thetas r < 3 /\ r_phis r < 3 /\ r_gammas r < 3)%nat /\
  snd (get_params (fun _ _ => 0) 3 r) = mkRefs 3 4 5.
Proof. cbn. lia || (split; [lia | reflexivity]). Qed.

(** C109: the layer counts are the columns of the meshes the library builds (n = 2: one rectangular column is counted as two). *)
Theorem C109_rectangular_layers : forall n s u v t m1 p1 m2 p2 d len lo, (2 <= n)%nat -> tree n n true s = Some t ->
  rectangular n u = Some (m1, p1) -> rectangular n v = Some (m2, p2) ->
  layers (rectangular_depth_size (INR n) d len lo false) = IZR (num_columns t + num_columns m1) + (if Nat.eqb n 2 then 1 else 0) /\
  layers (rectangular_depth_size (INR n) d len lo true) = IZR (num_columns t + num_columns m1 + 1 + num_columns m2) + (if Nat.eqb n 2 then 2 else 0).
Proof. exact rect_layers. Qed.
Print Assumptions C109_rectangular_layers.
Theorem C109_tree_layers : forall n s t k ne d len lo, (2 <= n)%nat -> tree n n true s = Some t ->
  layers (binary_svd_depth_size (INR n) k d len lo) = (k + 1) * IZR (num_columns t) + (k + 1) /\
  layers (binary_equiv_cascade_size (INR n) ne d len lo) = (equiv_k (INR n) ne + 1) * IZR (num_columns t) + (equiv_k (INR n) ne + 1).
Proof. exact tree_layers. Qed.
Print Assumptions C109_tree_layers.
Theorem C109_footprint : forall n k ne d len lo svd, let ok e := footprint e = length_cm e * height_cm e /\ length_cm e = len / 10000 * layers e in
  ok (binary_svd_depth_size n k d len lo) /\ ok (rectangular_depth_size n d len lo svd) /\ ok (binary_equiv_cascade_size n ne d len lo).
Proof. exact footprints. Qed.
Print Assumptions C109_footprint.
(** k is the least integer that matches the n_equiv x n_equiv matrix, and no estimate predicts gain. *)
Theorem C109_equivalent_outputs : forall n ne, 0 < n -> ne ^ 2 <= equiv_k n ne * n /\ (exists j, equiv_k n ne = IZR j) /\ forall j, ne ^ 2 <= IZR j * n -> equiv_k n ne <= IZR j.
Proof. exact equiv_least. Qed.
Print Assumptions C109_equivalent_outputs.
Theorem C109_no_gain : forall n k ne d len lo svd, (1 <= n)%nat -> (1 <= k)%nat -> 0 <= lo ->
  loss_dB (binary_svd_depth_size (INR n) (INR k) d len lo) <= 0 /\ loss_dB (rectangular_depth_size (INR n) d len lo svd) <= 0 /\
  loss_dB (binary_equiv_cascade_size (INR n) ne d len lo) <= 0.
Proof. exact no_gain. Qed.
Print Assumptions C109_no_gain.
Example C109_instance : layers (rectangular_depth_size (INR 5) 25 200 (3 / 10) true) = 14.
Proof. unfold rectangular_depth_size, env. cbn [layers]. rewrite ceil_log2 by lia. replace (Nat.log2_up 5) with 3%nat by reflexivity. cbn. ring. Qed.

(** C110, full statement: mesh.parallel_mzi() returns the elements with which matrix() evaluates the mesh.  With both arrays given,
    or with equal phases, it does; the default for phis is thetas. *)
Theorem C110_elements_partial : (forall m p back ts fs, mesh_parallel_mzi m p (Some ts) (Some fs) None back = mzis m back (mkParams ts fs (gammas p))) /\
  (forall m p back, (forall k, phis p k = thetas p k) -> mesh_parallel_mzi m p None None None back = mzis m back p).
Proof. exact (conj elements_given elements_same_only). Qed.
Print Assumptions C110_elements_partial.
(** Every argument is used, and every default but the one for phis is the mesh's own; phis defaults to the mesh's thetas. *)
Theorem C110_arguments_partial : forall m p back,
  (forall s ts fs k, mesh_parallel_mzi m p (Some ts) (Some fs) (Some s) back k = parallel_mzi s back (ts k) (fs k) (err_at m k) (loss_at m k)) /\
  (forall fs, mesh_parallel_mzi m p None (Some fs) None back = mzis m back (mkParams (thetas p) fs (gammas p))) /\
  (forall ts, mesh_parallel_mzi m p (Some ts) None None back = mzis m back (mkParams ts (thetas p) (gammas p))).
Proof. intros. repeat split; reflexivity. Qed.
Print Assumptions C110_arguments_partial.
Theorem C110_default_refuted : exists p, mesh_parallel_mzi (mesh1 TOP (0, 0) (0, 0)) p None None None false 0%nat <> mzis (mesh1 TOP (0, 0) (0, 0)) false p 0%nat.
Proof. exact elements_default_wrong. Qed.
Print Assumptions C110_default_refuted.
