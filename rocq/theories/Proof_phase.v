(** Periodicity of the mesh in its phases. *)
From Coq Require Import Reals Lra Lia Psatz List ZArith Bool FunctionalExtensionality.
From Verif Require Import Cx Arr Spec_circuit Model_coupling Model_forward Spec_mesh Proof_node Proof_mesh Proof_forward Proof_forward4.
Import ListNotations.
Local Open Scope R_scope.

Lemma Cexp_turn : forall a t k, Cexp (mkC a (t + 2 * PI * IZR k)) = Cexp (mkC a t).
Proof. intros. unfold Cexp. cbn [re im]. rewrite cis_period. reflexivity. Qed.
Lemma Cexp_half : forall a t, Cexp (mkC a (t + PI)) = (- Cexp (mkC a t))%C.
Proof. intros. unfold Cexp. cbn [re im]. rewrite cis_add, cis_PI. rewrite !Cscal_RtoC. ring. Qed.
Lemma Cexp_turn' : forall a t u k, u = t + 2 * PI * IZR k -> Cexp (mkC a u) = Cexp (mkC a t).
Proof. intros; subst; apply Cexp_turn. Qed.
Lemma Cexp_half' : forall a t u k, u = t + PI + 2 * PI * IZR k -> Cexp (mkC a u) = (- Cexp (mkC a t))%C.
Proof. intros; subst. rewrite Cexp_turn. apply Cexp_half. Qed.

Lemma mzi_period : forall s back theta phi err ls a b,
  (s = TOP \/ s = BOTTOM) -> parallel_mzi s back (theta + 2 * PI * IZR a) (phi + 2 * PI * IZR b) err ls = parallel_mzi s back theta phi err ls.
Proof.
  intros s back theta phi err ls a b Hs. unfold parallel_mzi. destruct (mzi_terms err) as [[[cc cs] sc] ss].
  rewrite !Cexp_turn.
  assert (E : forall x, x = 0 \/ x = 1 -> forall u, Cexp (mkC u ((phi + 2 * PI * IZR b) * x)) = Cexp (mkC u (phi * x))).
  { intros x [-> | ->] u; [f_equal; f_equal; ring |]. apply (Cexp_turn' u _ _ b). ring. }
  destruct Hs as [-> | ->]; destruct back; cbn [b2R]; rewrite !E by (first [left; ring | right; ring]); reflexivity.
Qed.
Lemma mzi_period_sym : forall back theta phi err ls a b,
  parallel_mzi SYMMETRIC back (theta + 4 * PI * IZR a) (phi + 2 * PI * IZR b) err ls = parallel_mzi SYMMETRIC back theta phi err ls.
Proof.
  intros. unfold parallel_mzi. destruct (mzi_terms err) as [[[cc cs] sc] ss].
  rewrite (Cexp_turn' _ theta (theta + 4 * PI * IZR a) (2 * a)) by (rewrite mult_IZR; ring).
  rewrite (Cexp_turn' _ (phi - theta / 2) (phi + 2 * PI * IZR b - (theta + 4 * PI * IZR a) / 2) (b - a)) by (rewrite minus_IZR; field).
  reflexivity.
Qed.
Lemma mzi_period_diff : forall back theta phi err ls a b,
  parallel_mzi DIFFERENTIAL back (theta + 4 * PI * IZR a) (phi + 4 * PI * IZR b) err ls = parallel_mzi DIFFERENTIAL back theta phi err ls.
Proof.
  intros. unfold parallel_mzi. destruct (mzi_terms err) as [[[cc cs] sc] ss].
  rewrite (Cexp_turn' _ theta (theta + 4 * PI * IZR a) (2 * a)) by (rewrite mult_IZR; ring).
  destruct back; cbn [b2R].
  - rewrite (Cexp_turn' _ ((- phi - theta) / 2 + phi * 1) ((- (phi + 4 * PI * IZR b) - (theta + 4 * PI * IZR a)) / 2 + (phi + 4 * PI * IZR b) * 1) (b - a)) by (rewrite minus_IZR; field).
    rewrite (Cexp_turn' _ ((phi - theta) / 2 - phi * 1) ((phi + 4 * PI * IZR b - (theta + 4 * PI * IZR a)) / 2 - (phi + 4 * PI * IZR b) * 1) (- b - a)) by (rewrite minus_IZR, opp_IZR; field).
    reflexivity.
  - rewrite (Cexp_turn' _ ((- phi - theta) / 2 + phi * 0) ((- (phi + 4 * PI * IZR b) - (theta + 4 * PI * IZR a)) / 2 + (phi + 4 * PI * IZR b) * 0) (- b - a)) by (rewrite minus_IZR, opp_IZR; field).
    rewrite (Cexp_turn' _ ((phi - theta) / 2 - phi * 0) ((phi + 4 * PI * IZR b - (theta + 4 * PI * IZR a)) / 2 - (phi + 4 * PI * IZR b) * 0) (b - a)) by (rewrite minus_IZR; field).
    reflexivity.
Qed.

(** Two parameter sets with the same elements and the same output phases give the same mesh function. *)
Lemma matrix_fn_elements : forall m back p p' x, (forall k, mzis m back p k = mzis m back p' k) ->
  (forall i, cis (gammas p i) = cis (gammas p' i)) -> matrix_fn m back p x = matrix_fn m back p' x.
Proof.
  intros m back p p' x He Hg. unfold matrix_fn. destruct (columns m) as [cols |]; [| reflexivity].
  assert (E1 : mzis m back p = mzis m back p') by (apply functional_extensionality; exact He).
  assert (E2 : forall v, apply_gammas (gammas p) v = apply_gammas (gammas p') v)
    by (intro v; apply functional_extensionality; intro i; unfold apply_gammas; rewrite Hg; reflexivity).
  rewrite E1. destruct (forallb _ _); [| reflexivity]. destruct back; rewrite E2; reflexivity.
Qed.
Lemma mesh_period : forall m back p a b c x, (style m = TOP \/ style m = BOTTOM) ->
  matrix_fn m back (mkParams (fun k => thetas p k + 2 * PI * IZR (a k)) (fun k => phis p k + 2 * PI * IZR (b k)) (fun i => gammas p i + 2 * PI * IZR (c i))) x
  = matrix_fn m back p x.
Proof.
  intros m back p a b c x Hs. apply matrix_fn_elements; intro k; cbn [gammas]; [| apply cis_period].
  unfold mzis. cbn [thetas phis]. apply mzi_period. exact Hs.
Qed.
Lemma mesh_period_sym : forall m back p a b c x, style m = SYMMETRIC ->
  matrix_fn m back (mkParams (fun k => thetas p k + 4 * PI * IZR (a k)) (fun k => phis p k + 2 * PI * IZR (b k)) (fun i => gammas p i + 2 * PI * IZR (c i))) x
  = matrix_fn m back p x.
Proof.
  intros m back p a b c x Hs. apply matrix_fn_elements; intro k; cbn [gammas]; [| apply cis_period].
  unfold mzis. cbn [thetas phis]. rewrite Hs. apply mzi_period_sym.
Qed.
Lemma mesh_period_diff : forall m back p a b c x, style m = DIFFERENTIAL ->
  matrix_fn m back (mkParams (fun k => thetas p k + 4 * PI * IZR (a k)) (fun k => phis p k + 4 * PI * IZR (b k)) (fun i => gammas p i + 2 * PI * IZR (c i))) x
  = matrix_fn m back p x.
Proof.
  intros m back p a b c x Hs. apply matrix_fn_elements; intro k; cbn [gammas]; [| apply cis_period].
  unfold mzis. cbn [thetas phis]. rewrite Hs. apply mzi_period_diff.
Qed.

(** One turn of 2 pi negates a node of style SYMMETRIC (theta) or DIFFERENTIAL (theta or phi). *)
Definition qneg (q : quad) : quad := mkQuad (- t11 q)%C (- t12 q)%C (- t21 q)%C (- t22 q)%C.
Lemma quad_ext : forall a b c d a' b' c' d', a = a' -> b = b' -> c = c' -> d = d' -> mkQuad a b c d = mkQuad a' b' c' d'.
Proof. intros; subst; reflexivity. Qed.
Lemma mzi_turn_theta : forall s back theta phi err ls, s = SYMMETRIC \/ s = DIFFERENTIAL ->
  parallel_mzi s back (theta + 2 * PI) phi err ls = qneg (parallel_mzi s back theta phi err ls).
Proof.
  intros s back theta phi err ls Hs. unfold parallel_mzi, qneg. destruct (mzi_terms err) as [[[cc cs] sc] ss].
  rewrite (Cexp_turn' _ theta (theta + 2 * PI) 1) by ring.
  destruct Hs as [-> | ->]; cbn [t11 t12 t21 t22].
  - rewrite (Cexp_half' _ (phi - theta / 2) (phi - (theta + 2 * PI) / 2) (-1)) by (simpl; field). apply quad_ext; ring.
  - rewrite (Cexp_half' _ ((- phi - theta) / 2 + phi * b2R back) ((- phi - (theta + 2 * PI)) / 2 + phi * b2R back) (-1)) by (simpl; field).
    rewrite (Cexp_half' _ ((phi - theta) / 2 - phi * b2R back) ((phi - (theta + 2 * PI)) / 2 - phi * b2R back) (-1)) by (simpl; field).
    apply quad_ext; ring.
Qed.
Lemma mzi_turn_phi : forall back theta phi err ls,
  parallel_mzi DIFFERENTIAL back theta (phi + 2 * PI) err ls = qneg (parallel_mzi DIFFERENTIAL back theta phi err ls).
Proof.
  intros back theta phi err ls. unfold parallel_mzi, qneg. destruct (mzi_terms err) as [[[cc cs] sc] ss].
  cbn [t11 t12 t21 t22]. destruct back; cbn [b2R].
  - rewrite (Cexp_half' _ ((- phi - theta) / 2 + phi * 1) ((- (phi + 2 * PI) - theta) / 2 + (phi + 2 * PI) * 1) 0) by (simpl; field).
    rewrite (Cexp_half' _ ((phi - theta) / 2 - phi * 1) ((phi + 2 * PI - theta) / 2 - (phi + 2 * PI) * 1) (-1)) by (simpl; field).
    apply quad_ext; ring.
  - rewrite (Cexp_half' _ ((- phi - theta) / 2 + phi * 0) ((- (phi + 2 * PI) - theta) / 2 + (phi + 2 * PI) * 0) (-1)) by (simpl; field).
    rewrite (Cexp_half' _ ((phi - theta) / 2 - phi * 0) ((phi + 2 * PI - theta) / 2 - (phi + 2 * PI) * 0) 0) by (simpl; field).
    apply quad_ext; ring.
Qed.

Lemma mesh1_turn : forall s err ls back theta phi i j, s = SYMMETRIC \/ s = DIFFERENTIAL -> (i < 2)%nat -> (j < 2)%nat ->
  exists z, matrix (mesh1 s err ls) back (pconst theta phi) i j = Some z /\
            matrix (mesh1 s err ls) back (pconst (theta + 2 * PI) phi) i j = Some (- z)%C.
Proof.
  intros s err ls back theta phi i j Hs Hi Hj.
  destruct (mesh1_entries s err ls back theta phi) as (A & B & D & F).
  destruct (mesh1_entries s err ls back (theta + 2 * PI) phi) as (A' & B' & D' & F').
  rewrite (mzi_turn_theta s back theta phi err ls Hs) in A', B', D', F'. unfold qneg in *. cbn [t11 t12 t21 t22] in *.
  destruct i as [| [| i]]; [| | lia]; (destruct j as [| [| j]]; [| | lia]); eexists; split; eassumption.
Qed.
Lemma mesh1_turn_phi : forall err ls back theta phi i j, (i < 2)%nat -> (j < 2)%nat ->
  exists z, matrix (mesh1 DIFFERENTIAL err ls) back (pconst theta phi) i j = Some z /\
            matrix (mesh1 DIFFERENTIAL err ls) back (pconst theta (phi + 2 * PI)) i j = Some (- z)%C.
Proof.
  intros err ls back theta phi i j Hi Hj.
  destruct (mesh1_entries DIFFERENTIAL err ls back theta phi) as (A & B & D & F).
  destruct (mesh1_entries DIFFERENTIAL err ls back theta (phi + 2 * PI)) as (A' & B' & D' & F').
  rewrite (mzi_turn_phi back theta phi err ls) in A', B', D', F'. unfold qneg in *. cbn [t11 t12 t21 t22] in *.
  destruct i as [| [| i]]; [| | lia]; (destruct j as [| [| j]]; [| | lia]); eexists; split; eassumption.
Qed.
