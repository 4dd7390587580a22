(** Property theorems about tree/chain networks, nullification and per-node errors. *)
From Coq Require Import Reals Lra Lia List ZArith Permutation Bool.
From Verif Require Import Cx Arr Spec_circuit Model_coupling Model_forward Model_vector Spec_mesh Spec_tree
  Proof_node Proof_mesh Proof_forward Proof_forward2 Proof_forward4 Proof_null Proof_null2 Proof_tree Proof_tree2 Proof_vector Proof_vector2.
Import ListNotations.
Local Open Scope R_scope.

(** C08, full statement: for every mesh the elements applied at a node are those of the node's own errors and losses.
    FALSE of the code when ids are not the list positions ([C08_error_on_wrong_node_refuted]). *)
Theorem C08_own_errors_partial : forall l s m nd, mk_mesh l s = Some m -> map node_id (nodes m) = seq 0 (length l) ->
  In nd (nodes m) -> forall back p, mzis m back p (node_id nd) =
    parallel_mzi s back (thetas p (node_id nd)) (phis p (node_id nd)) (bs_error nd) (loss nd).
Proof. exact own_node_errors. Qed.
Print Assumptions C08_own_errors_partial.
(** The hypothesis is met by every node list without ids (all zero), the constructor's default. *)
Theorem C08_default_ids : forall l s m, mk_mesh l s = Some m -> (forall nd, In nd l -> node_id nd = 0%nat) ->
  map node_id (nodes m) = seq 0 (length l).
Proof. exact renumber_positions. Qed.
(** tree(4) with an error on the one node not touching rail i: the entry (i, i) of the matrix changes. *)
Theorem C08_error_on_wrong_node_refuted : exists errs m0 m i,
  tree 4 4 true TOP = Some m0 /\ add_error_mean m0 errs [(0,0); (0,0); (0,0)] = Some m /\
  (forall nd, In nd (nodes m) -> bs_error nd <> (0, 0) -> top nd <> i /\ bottom nd <> i) /\
  matrix m false (pconst 0 0) i i <> matrix m0 false (pconst 0 0) i i /\
  (forall nd, In nd (nodes m) -> (top nd = i \/ bottom nd = i) -> bs_error nd = (0, 0)).
Proof. exact C08_witness. Qed.
Print Assumptions C08_error_on_wrong_node_refuted.
Example C08_nonvacuous : let l := [mkNode 0 (0,0) (1/10, 0) 4 0 1 1 1 0; mkNode 0 (-1,0) (0,0) 4 2 3 1 1 0] in
  exists m, mk_mesh l BOTTOM = Some m /\ map node_id (nodes m) = seq 0 2.
Proof. eexists; split; reflexivity. Qed.

(** C10 *)
Theorem C10_tree : forall n r s, (2 <= n)%nat -> (n <= r)%nat ->
  exists m, tree n r true s = Some m /\ style m = s /\ n_rails m = r /\ nulling_network n m /\
    rails_disjoint (nodes m) /\ num_columns m = Z.of_nat (Nat.log2_up n) /\
    (forall nd, In nd (nodes m) -> (0 <= column nd < num_columns m)%Z) /\
    (forall nd, In nd (nodes m) -> loss nd = (0, 0)%R /\ bs_error nd = (0, 0)%R /\ n_of nd = r) /\
    bs_errors m = map bs_error (nodes m) /\ losses m = map loss (nodes m) /\
    wf_mesh m.
Proof. exact tree_balanced. Qed.
Print Assumptions C10_tree.
(** tree(5): four nodes in three columns. *)
Example C10_instance : exists m, tree 5 5 true TOP = Some m /\
  map (fun nd => (top nd, bottom nd, column nd)) (nodes m) =
    [(1%nat, 4%nat, 2%Z); (0%nat, 1%nat, 1%Z); (2%nat, 4%nat, 1%Z); (3%nat, 4%nat, 0%Z)].
Proof. eexists; split; reflexivity. Qed.

(** C11 *)
Theorem C11_chain : forall n r s, (2 <= n)%nat -> (n <= r)%nat ->
  exists m, tree n r false s = Some m /\ style m = s /\ n_rails m = r /\ nulling_network n m /\
    rails_disjoint (nodes m) /\ num_columns m = Z.of_nat (n - 1) /\
    (forall nd, In nd (nodes m) -> top nd = node_id nd /\ bottom nd = (node_id nd + 1)%nat /\ column nd = Z.of_nat (node_id nd)) /\
    (forall nd, In nd (nodes m) -> loss nd = (0, 0)%R /\ bs_error nd = (0, 0)%R /\ n_of nd = r) /\
    bs_errors m = map bs_error (nodes m) /\ losses m = map loss (nodes m) /\
    wf_mesh m.
Proof. exact tree_chain. Qed.
Print Assumptions C11_chain.

(** C20: an MZI with splitter errors [err] (each below pi/4), set to the theta found for s, sends to the cross port
    the power fraction s clamped to the reachable interval [(cs - sc)^2, (cs + sc)^2]. *)
Theorem C20_split_clamped : forall s st back phi err, - (PI/4) < fst err < PI/4 -> - (PI/4) < snd err < PI/4 ->
  let '(_, cs, sc, _) := mzi_terms err in
  let theta := transmissivity_to_phase s (Some (mzi_terms err)) in
  Cn2 (t12 (parallel_mzi st back theta phi err (0, 0))) = Rmin (Rmax s ((cs - sc) ^ 2)) ((cs + sc) ^ 2).
Proof. exact ttp_mzi. Qed.
Print Assumptions C20_split_clamped.
Theorem C20_split_exact : forall s st back phi err, - (PI/4) < fst err < PI/4 -> - (PI/4) < snd err < PI/4 ->
  let '(_, cs, sc, _) := mzi_terms err in
  (cs - sc) ^ 2 <= s <= (cs + sc) ^ 2 ->
  Cn2 (t12 (parallel_mzi st back (transmissivity_to_phase s (Some (mzi_terms err))) phi err (0, 0))) = s.
Proof. exact ttp_mzi_exact. Qed.
Print Assumptions C20_split_exact.
(** Ideal couplers (mzi_terms omitted): every s in [0, 1] is reached. *)
Theorem C20_ideal : forall s st back phi, 0 <= s <= 1 ->
  Cn2 (t12 (parallel_mzi st back (transmissivity_to_phase s None) phi (0, 0) (0, 0))) = s.
Proof. exact ttp_ideal. Qed.
Print Assumptions C20_ideal.

(** C21, full statement: for every node of a column and every style but SYMMETRIC, with (theta, phi) =
    parallel_nullify, the top output has power at most eps (np.spacing(1) in the code) if the split ratio is
    reachable.  FALSE for DIFFERENTIAL and for unequal splitter errors; proved for TOP and BOTTOM with equal errors.
    [mod2pi] is the np.mod(.., 2 pi) of the caller. *)
Theorem C21_null_top_partial : forall eps e t b, 0 <= eps -> - (PI/4) < e < PI/4 ->
  direct_transmissivity_eps eps t b <= (2 * (cos (PI/4 + e) * sin (PI/4 + e))) ^ 2 ->
  forall phi, let theta := nullify_theta eps (mzi_terms (e, e)) t b in
  nullify_phi TOP (mzi_terms (e, e)) theta t b = Some phi ->
  let q := parallel_mzi TOP false theta (mod2pi phi) (e, e) (0, 0) in
  Cn2 (t11 q * t + t21 q * b)%C <= eps.
Proof. exact null_top. Qed.
Print Assumptions C21_null_top_partial.
Theorem C21_null_bottom_partial : forall eps e t b, 0 <= eps -> - (PI/4) < e < PI/4 ->
  direct_transmissivity_eps eps t b <= (2 * (cos (PI/4 + e) * sin (PI/4 + e))) ^ 2 ->
  forall phi, let theta := nullify_theta eps (mzi_terms (e, e)) t b in
  nullify_phi BOTTOM (mzi_terms (e, e)) theta t b = Some phi ->
  let q := parallel_mzi BOTTOM false theta (mod2pi phi) (e, e) (0, 0) in
  Cn2 (t11 q * t + t21 q * b)%C <= eps.
Proof. exact null_bottom. Qed.
Print Assumptions C21_null_bottom_partial.
Theorem C21_symmetric_raises : forall terms theta t b, nullify_phi SYMMETRIC terms theta t b = None.
Proof. exact symmetric_raises. Qed.
Theorem C21_differential_refuted : exists t b phi,
  let theta := nullify_theta np_spacing1 (mzi_terms (0, 0)) t b in
  nullify_phi DIFFERENTIAL (mzi_terms (0, 0)) theta t b = Some phi /\
  let q := parallel_mzi DIFFERENTIAL false theta (mod2pi phi) (0, 0) (0, 0) in
  1 <= Cn2 (t11 q * t + t21 q * b)%C.
Proof. exact differential_not_null. Qed.
Print Assumptions C21_differential_refuted.
Theorem C21_unequal_errors_refuted : exists t b phi, let err := (0, PI / 12) in
  let '(_, cs, sc, _) := mzi_terms err in
  let theta := nullify_theta np_spacing1 (mzi_terms err) t b in
  ((cs - sc) ^ 2 <= direct_transmissivity t b <= (cs + sc) ^ 2) /\
  nullify_phi TOP (mzi_terms err) theta t b = Some phi /\
  let q := parallel_mzi TOP false theta (mod2pi phi) err (0, 0) in
  1 / 20 <= Cn2 (t11 q * t + t21 q * b)%C.
Proof. exact unequal_not_null. Qed.
Print Assumptions C21_unequal_errors_refuted.
(** With perfect couplers every input is reachable. *)
Example C21_nonvacuous : forall t b, direct_transmissivity t b <= (2 * (cos (PI/4 + 0) * sin (PI/4 + 0))) ^ 2.
Proof. exact (reachable0 np_spacing1 (Rlt_le _ _ (proj1 spacing_small))). Qed.

(** C12, full statement: for every vector and every style but SYMMETRIC (which raises).  FALSE for DIFFERENTIAL;
    proved for TOP and BOTTOM, balanced and not, every n >= 2 and every vector (zero entries included).  Column [last]
    of the array is the vector to be routed; the last conjunct says that the returned array w holds, up to output
    phases, what the mesh makes of every column of the array. *)
Theorem C12_vector_unit_partial : forall eps v n last balanced s, 0 <= eps -> (2 <= n)%nat -> s = TOP \/ s = BOTTOM ->
  exists m p w y, vector_unit eps v n last n balanced s 0 0 = Some (m, p, w) /\
    style m = s /\ n_rails m = n /\
    matrix_fn m false p (fun i => v i last) = Some y /\
    (forall i, (i < n - 1)%nat -> Cn2 (y i) <= eps) /\
    im (y (n - 1)%nat) = 0 /\ 0 <= re (y (n - 1)%nat) /\
    power n y = power n (fun i => v i last) /\
    (forall j, exists y', matrix_fn m false p (fun i => v i j) = Some y' /\ forall i, Cn2 (y' i) = Cn2 (w i j)).
Proof. exact vector_unit_spec. Qed.
Print Assumptions C12_vector_unit_partial.
Theorem C12_differential_refuted : exists v m p w y, vector_unit np_spacing1 v 2 0 2 true DIFFERENTIAL 0 0 = Some (m, p, w) /\
  matrix_fn m false p (fun i => v i 0%nat) = Some y /\ 1 <= Cn2 (y 0%nat).
Proof. exact C12_diff_witness. Qed.
Print Assumptions C12_differential_refuted.
Theorem C12_symmetric_raises : forall eps v n last r balanced e l, (2 <= n)%nat -> (n <= r)%nat ->
  vector_unit eps v n last r balanced SYMMETRIC e l = None.
Proof. exact vector_unit_symmetric. Qed.
Print Assumptions C12_symmetric_raises.
