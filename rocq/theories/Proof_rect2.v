(** Proofs about Model_rect: common mode flow, the 2x2 algebra of one nulling step. *)
From Coq Require Import Reals List Arith ZArith Lra Lia Bool FunctionalExtensionality ZifyNat ZifyClasses.
From Verif Require Import Cx Arr Spec_circuit Model_coupling Model_forward Model_rect Spec_rect Proof_node Proof_mesh Proof_forward2 Proof_forward4 Proof_vector Proof_linalg Proof_rect.
Import ListNotations.
Local Open Scope R_scope.
Ltac Zify.zify_post_hook ::= Z.div_mod_to_equations.

(** ** grid_common_mode_flow *)
Lemma flow_cond : forall units i r,
  (Nat.leb (flow_start i) r && Nat.ltb r (flow_end units i) && Nat.eqb ((r - flow_start i) mod 2) 0)%bool
  = (evenb (r + i) && Nat.ltb (S r) units)%bool.
Proof.
  intros units i r. unfold flow_start, flow_end, evenb. apply eq_true_iff_eq.
  rewrite !andb_true_iff, !Nat.leb_le, !Nat.ltb_lt, !Nat.eqb_eq. split.
  - intros [[H1 H2] H3]. split; lia.
  - intros [H1 H2]. repeat split; lia.
Qed.
Section Flow.
Variables (units : nat) (blk : nat -> nat -> mat2) (e : nat -> nat -> R).
Definition fl_new (i r : nat) : R := flow_new units i (flow_ps units e i) r.
Definition fl_carry (k r : nat) : R :=
  match k with O => 0 | S k' => mod2pi (flow_ps units e k' r - fl_new k' r) end.
Lemma flow_ps_carry : forall k r, flow_ps units e k r = e k r + fl_carry k r.
Proof. intros [| k] r; cbn [flow_ps fl_carry]; [ring | reflexivity]. Qed.
Lemma cis_mod_sub : forall x y, cis (mod2pi x - mod2pi y) = cis (x - y).
Proof. intros. rewrite !cis_sub, !cis_mod2pi. reflexivity. Qed.
Lemma fl_new_in : forall i r, evenb (r + i) = true -> (S r < units)%nat ->
  cis (fl_new i r) = cis (flow_ps units e i r - flow_ps units e i (S r)).
Proof.
  intros i r H1 H2. unfold fl_new, flow_new. rewrite flow_cond, H1. apply Nat.ltb_lt in H2. rewrite H2. cbn [andb]. apply cis_mod_sub.
Qed.
Lemma fl_new_out : forall i r, (evenb (r + i) && Nat.ltb (S r) units)%bool = false -> fl_new i r = 0.
Proof. intros i r H. unfold fl_new, flow_new. rewrite flow_cond, H. reflexivity. Qed.
Lemma fl_common : forall i r, evenb (r + i) = true -> (S r < units)%nat -> cis (fl_carry (S i) r) = cis (fl_carry (S i) (S r)).
Proof.
  intros i r H1 H2. cbn [fl_carry]. rewrite !cis_mod2pi. rewrite cis_sub, fl_new_in by auto.
  rewrite (fl_new_out i (S r)) by (cbn [plus]; rewrite evenb_S, H1; reflexivity).
  rewrite Rminus_0_r. rewrite <- cis_opp, <- cis_add. f_equal. ring.
Qed.
Lemma flow_run : forall k v r, grid_run units blk e k v r = (cis (fl_carry k r) * grid_run units blk (flow_phi units e) k v r)%C.
Proof.
  induction k as [| k IH]; intros v r; [cbn [grid_run fl_carry]; rewrite cis_0; ring |].
  cbn [grid_run]. unfold grid_layer. set (w := grid_run units blk e k v) in *. set (w' := grid_run units blk (flow_phi units e) k v) in *.
  assert (B : forall r, (cis (e k r) * w r)%C = (cis (fl_carry (S k) r) * (cis (flow_phi units e k r) * w' r))%C).
  { intro q. unfold w. rewrite IH. fold w'. unfold flow_phi. fold (fl_new k q). cbn [fl_carry]. rewrite !cis_mod2pi.
    replace (cis (e k q) * (cis (fl_carry k q) * w' q))%C with ((cis (e k q) * cis (fl_carry k q)) * w' q)%C by ring.
    rewrite <- cis_add, <- flow_ps_carry.
    replace (cis (flow_ps units e k q - fl_new k q) * (cis (fl_new k q) * w' q))%C with ((cis (flow_ps units e k q - fl_new k q) * cis (fl_new k q)) * w' q)%C by ring.
    rewrite <- cis_add. f_equal. f_equal. ring. }
  rewrite !B. change (Nat.eqb ((r + k) mod 2) 0) with (evenb (r + k)). destruct (evenb (r + k)) eqn:E.
  - destruct (Nat.ltb_spec (S r) units) as [H | H]; [| reflexivity]. rewrite (fl_common k r E H). ring.
  - destruct r as [| p]; [reflexivity |]. destruct (Nat.ltb_spec (S p) units) as [H | H]; [| reflexivity].
    assert (E' : evenb (p + k) = true) by (cbn [plus] in E; rewrite evenb_S in E; destruct (evenb (p + k)); [reflexivity | discriminate]).
    rewrite !B, (fl_common k p E' H). ring.
Qed.
Lemma flow_transfer : forall layers v r,
  grid_transfer units layers blk e (e layers) v r = grid_transfer units layers blk (flow_phi units e) (flow_gamma units layers e) v r.
Proof.
  intros layers v r. unfold grid_transfer. rewrite flow_run. unfold flow_gamma. rewrite cis_mod2pi, flow_ps_carry, cis_add. ring.
Qed.
End Flow.
Lemma grid_run_ext : forall units blk e e' k v, (forall i r, (i < k)%nat -> e i r = e' i r) -> grid_run units blk e k v = grid_run units blk e' k v.
Proof.
  intros units blk e e' k. induction k as [| k IH]; intros v H; [reflexivity |]. cbn [grid_run]. rewrite (IH v) by (intros; apply H; lia).
  unfold grid_layer. apply functional_extensionality. intro r. rewrite !(H k) by lia. destruct (Nat.eqb ((r + k) mod 2) 0); [reflexivity |].
  destruct r; [reflexivity |]. rewrite !(H k) by lia. reflexivity.
Qed.
Lemma flow_transfer_ext : forall units layers blk ext g v r,
  grid_transfer units layers blk ext g v r =
  grid_transfer units layers blk (fun k r => if Nat.eqb k layers then g r else ext k r) ((fun k r => if Nat.eqb k layers then g r else ext k r) layers) v r.
Proof.
  intros. unfold grid_transfer. rewrite Nat.eqb_refl. f_equal.
  rewrite (grid_run_ext units blk ext (fun k r => if Nat.eqb k layers then g r else ext k r)); [reflexivity |].
  intros i q Hi. destruct (Nat.eqb_spec i layers); [lia | reflexivity].
Qed.

(** The full board of the MZI nodes as a grid. *)
Definition fullb (n : nat) (p c : nat) : bool := Nat.ltb (S p) n.
Definition zblk (th : nat -> nat -> R) (c p : nat) : mat2 := mk2 (za (th p c)) (zb (th p c)) (zb (th p c)) (zd (th p c)).
Lemma runb_grid : forall n th ph k v, runb (fullb n) th ph k v = grid_run n (zblk th) (fun c r => ph r c) k v.
Proof.
  intros n th ph k. induction k as [| k IH]; intro v; [reflexivity |]. cbn [runb grid_run]. rewrite IH. apply functional_extensionality. intro r.
  unfold colop, grid_layer, phop, fullb, zblk, evenb. cbn [m11 m12 m21 m22].
  destruct (Nat.eqb ((r + k) mod 2) 0); [reflexivity |]. destruct r; reflexivity.
Qed.

(** ** One MZI *)
Lemma za_sin : forall t, za t = (Ci * cis (t / 2) * RtoC (sin (t / 2)))%C.
Proof.
  intro t. unfold za. replace t with (t / 2 + t / 2) at 1 by field. rewrite cis_add. set (h := t / 2). pose proof (sin2_cos2 h) as E. unfold Rsqr in E.
  apply C_eq; unfold Cdiv, Cinv, Cn2, cis; cbn; nra.
Qed.
Lemma zb_cos : forall t, zb t = (Ci * cis (t / 2) * RtoC (cos (t / 2)))%C.
Proof.
  intro t. unfold zb. replace t with (t / 2 + t / 2) at 1 by field. rewrite cis_add. set (h := t / 2). pose proof (sin2_cos2 h) as E. unfold Rsqr in E.
  apply C_eq; unfold Cdiv, Cinv, Cn2, cis; cbn; nra.
Qed.
Lemma zd_sin : forall t, zd t = (- (Ci * cis (t / 2) * RtoC (sin (t / 2))))%C.
Proof. intro t. rewrite <- za_sin. unfold zd, za. apply C_eq; unfold Cdiv, Cinv, Cn2; cbn; field. Qed.

Definition zmat (t x : R) : mat2 := mk2 (za t * cis x)%C (zb t) (zb t * cis x)%C (zd t).
Lemma ideal_mat2 : forall n p t x, mzi_node_matrix2 (ideal n p) t x = zmat t x.
Proof.
  intros. unfold mzi_node_matrix2, dc, sel, mul2, phase_matrix, zmat, ideal, loss2insertion. cbn [bs_error loss fst snd m11 m12 m21 m22].
  replace (ln 10 * 0 / 10) with 0 by field. rewrite exp_0, sqrt_1, Rplus_0_r, cos_PI4, sin_PI4, cis_0.
  assert (Hs : (1 / sqrt 2) * (1 / sqrt 2) = / 2). { assert (E : sqrt 2 * sqrt 2 = 2) by (apply sqrt_sqrt; lra). assert (E' : sqrt 2 <> 0) by (apply Rgt_not_eq; apply sqrt_lt_R0; lra). replace (1 / sqrt 2 * (1 / sqrt 2)) with (/ (sqrt 2 * sqrt 2)) by (field; auto). rewrite E. reflexivity. }
  set (h := 1 / sqrt 2) in *.
  unfold za, zb, zd. destruct (cis t) as [a b], (cis x) as [c d].
  f_equal; apply C_eq; unfold Cdiv, Cinv, Cn2; cbn; field_simplify; rewrite ?Hs; try (replace (h ^ 2) with (/ 2) by (rewrite <- Hs; ring)); field.
Qed.

Definition zquad (t x : R) : quad := mkQuad (za t * cis x)%C (zb t * cis x)%C (zb t) (zd t).
Lemma zquad_mat : forall t x, mat2_of_quad (zquad t x) = zmat t x.
Proof. reflexivity. Qed.
Lemma zquad_mzi : forall t x, parallel_mzi TOP false t x (0, 0) (0, 0) = zquad t x.
Proof.
  intros. pose proof (parallel_mzi_node (ideal 2 0) t x eq_refl) as E. rewrite ideal_mat2, <- zquad_mat in E.
  cbn [bs_error loss ideal] in E. destruct (parallel_mzi TOP false t x (0, 0) (0, 0)) as [a b c d]. unfold mat2_of_quad, zquad in *. cbn [t11 t12 t21 t22] in E. injection E as -> -> -> ->. reflexivity.
Qed.
Lemma zquad_unit : forall t x, quad_unit (zquad t x).
Proof. intros. rewrite <- zquad_mzi. apply parallel_mzi_unit. Qed.
Lemma apply_zquad : forall p t x v, apply_op (zquad t x, p, S p) v = nodeop p t x 0 0 v.
Proof.
  intros. apply functional_extensionality. intro r. destruct (Nat.eq_dec r p) as [-> | N1]; [| destruct (Nat.eq_dec r (S p)) as [-> | N2]].
  - rewrite apply_op_top, nodeop_p, cis_0 by lia. unfold qtop, zquad. cbn [t11 t12 t21 t22]. ring.
  - rewrite apply_op_bot, nodeop_S, cis_0. unfold qbot, zquad. cbn [t11 t12 t21 t22]. ring.
  - rewrite apply_op_other, nodeop_o by auto. reflexivity.
Qed.
Lemma ideal_app : forall n p t x v, (S p < n)%nat -> veq n (app n (mzi_node_matrix (ideal n p) t x) v) (nodeop p t x 0 0 v).
Proof.
  intros n p t x v Hp. unfold mzi_node_matrix. rewrite ideal_mat2, <- zquad_mat, <- apply_zquad. cbn [ideal n_of top bottom]. apply embed_app. cbn. lia.
Qed.
Lemma ideal_unitary : forall n p t x, (S p < n)%nat -> unitary n (mzi_node_matrix (ideal n p) t x).
Proof. intros. apply (node_unitary (ideal n p) t x); cbn; auto; lia. Qed.
Definition pquad (y z : R) : quad := mkQuad (cis y) C0 C0 (cis z).
Lemma pquad_unit : forall y z, quad_unit (pquad y z).
Proof.
  intros y z a b a' b'. unfold qtop, qbot, pquad. cbn [t11 t12 t21 t22]. rewrite !Cconj_add, !Cconj_mul, !Cconj_C0.
  pose proof (cis_conj_l y) as E. pose proof (cis_conj_l z) as F. ring [E F].
Qed.
Lemma phase_app : forall n p y z v, (S p < n)%nat ->
  veq n (app n (embed_2x2 (phase_matrix y z) n p (S p)) v) (fun r => if Nat.eqb r p then cis y * v p else if Nat.eqb r (S p) then cis z * v (S p) else v r)%C.
Proof.
  intros n p y z v Hp r Hr. change (phase_matrix y z) with (mat2_of_quad (pquad y z)). rewrite (embed_app n (pquad y z) p (S p) v ltac:(cbn; lia) r Hr).
  destruct (Nat.eqb_spec r p) as [-> | N1]; [| destruct (Nat.eqb_spec r (S p)) as [-> | N2]].
  - rewrite apply_op_top by lia. unfold qtop, pquad. cbn [t11 t12 t21 t22]. ring.
  - rewrite apply_op_bot. unfold qbot, pquad. cbn [t11 t12 t21 t22]. ring.
  - rewrite apply_op_other by auto. reflexivity.
Qed.
Lemma app_app : forall n A B v i, app n (matmul n A B) v i = app n A (app n B v) i.
Proof.
  intros. unfold app, matmul.
  rewrite (Csum_ext n _ (fun j => Csum n (fun k => A i k * B k j * v j)%C)) by (intros; symmetry; apply Csum_scal_r).
  rewrite Csum_swap. apply Csum_ext. intros k _. rewrite <- Csum_scal. apply Csum_ext. intros j _. ring.
Qed.
Lemma app_ext_mat : forall n A B v i, (i < n)%nat -> meq n A B -> app n A v i = app n B v i.
Proof. intros. unfold app. apply Csum_ext. intros j Hj. rewrite H0 by auto. reflexivity. Qed.
Lemma app_id : forall n v i, (i < n)%nat -> app n delta v i = v i.
Proof. intros. unfold app. apply Csum_delta_l. auto. Qed.

(** Right multiplication by R^dagger. *)
Lemma right_entry : forall n p t x (U : mat) r c, (S p < n)%nat -> (c < n)%nat ->
  matmul n U (fun r c => Cconj (mzi_node_matrix (ideal n p) t x c r)) r c = Cconj (nodeop p t x 0 0 (fun k => Cconj (U r k)) c).
Proof.
  intros n p t x U r c Hp Hc. rewrite <- (ideal_app n p t x _ Hp c Hc). unfold matmul, app. rewrite Csum_conj. apply Csum_ext. intros k _.
  rewrite Cconj_mul, Cconj_conj. ring.
Qed.
Lemma right_factor : forall n p t x (U : mat) v, (S p < n)%nat ->
  veq n (app n U v) (app n (matmul n U (fun r c => Cconj (mzi_node_matrix (ideal n p) t x c r))) (nodeop p t x 0 0 v)).
Proof.
  intros n p t x U v Hp i Hi. rewrite app_app. pose proof (ideal_unitary n p t x Hp) as HU. set (M := mzi_node_matrix (ideal n p) t x) in *.
  unfold app at 1 2. apply Csum_ext. intros k Hk. f_equal.
  rewrite (app_veq n _ (nodeop p t x 0 0 v) (app n M v)) by (intros q Hq; symmetry; apply ideal_app; auto).
  rewrite <- app_app. rewrite <- (app_id n v k Hk) at 1. apply app_ext_mat; [auto |]. intros a b Ha Hb. destruct (HU a b Ha Hb) as [E _]. rewrite <- E. reflexivity.
Qed.
Lemma right_unitary : forall n p t x (U : mat), (S p < n)%nat -> unitary n U ->
  unitary n (matmul n U (fun r c => Cconj (mzi_node_matrix (ideal n p) t x c r))).
Proof. intros n p t x U Hp HU. apply (prod_unitary n U (dagger (mzi_node_matrix (ideal n p) t x)) HU). apply dagger_unitary. apply ideal_unitary. exact Hp. Qed.

(** Left multiplication. *)
Definition lmat (n p : nat) (t x : R) : mat := matmul n (embed_2x2 (phase_matrix (- t / 2) (- t / 2)) n p (S p)) (mzi_node_matrix (ideal n p) t x).
Lemma lmat_app : forall n p t x v, (S p < n)%nat -> veq n (app n (lmat n p t x) v) (nodeop p t x (- t / 2) (- t / 2) v).
Proof.
  intros n p t x v Hp r Hr. unfold lmat. rewrite app_app. rewrite (app_veq n _ _ (nodeop p t x 0 0 v)) by (apply ideal_app; auto).
  rewrite (phase_app n p _ _ _ Hp r Hr). rewrite nodeop_p, nodeop_S, !cis_0.
  destruct (Nat.eqb_spec r p) as [-> | N1]; [rewrite nodeop_p; ring | destruct (Nat.eqb_spec r (S p)) as [-> | N2]; [rewrite nodeop_S; ring | rewrite !nodeop_o by auto; reflexivity]].
Qed.
Lemma left_entry : forall n p t x (U : mat) r c, (S p < n)%nat -> (r < n)%nat ->
  matmul n (lmat n p t x) U r c = nodeop p t x (- t / 2) (- t / 2) (fun k => U k c) r.
Proof. intros n p t x U r c Hp Hr. rewrite <- (lmat_app n p t x _ Hp r Hr). reflexivity. Qed.
Lemma left_unitary : forall n p t x (U : mat), (S p < n)%nat -> unitary n U -> unitary n (matmul n (lmat n p t x) U).
Proof.
  intros n p t x U Hp HU. apply (prod_unitary n (lmat n p t x) U); [| exact HU].
  apply (prod_unitary n (embed_2x2 (phase_matrix (- t / 2) (- t / 2)) n p (S p)) (mzi_node_matrix (ideal n p) t x)); [| apply ideal_unitary; exact Hp].
  change (phase_matrix (- t / 2) (- t / 2)) with (mat2_of_quad (pquad (- t / 2) (- t / 2))). apply embed_unitary; [cbn; lia | apply pquad_unit].
Qed.
Lemma node_inverse : forall p t x v, nodeop p t 0 (- x - t / 2 + PI) (- t / 2 + PI) (nodeop p t x (- t / 2) (- t / 2) v) = v.
Proof.
  intros p t x v. apply functional_extensionality. intro r.
  assert (E : (RtoC (sin (t / 2)) * RtoC (sin (t / 2)) + RtoC (cos (t / 2)) * RtoC (cos (t / 2)) = C1)%C)
    by (rewrite <- !RtoC_mul, <- RtoC_add, <- RtoC_1; f_equal; pose proof (sin2_cos2 (t / 2)) as H; unfold Rsqr in H; exact H).
  assert (E1 : cis (- x - t / 2 + PI) = (- (Cconj (cis x) * Cconj (cis (t / 2))))%C).
  { rewrite cis_add, cis_PI. unfold Rminus. rewrite cis_add, !cis_opp. ring. }
  assert (E2 : cis (- t / 2 + PI) = (- Cconj (cis (t / 2)))%C).
  { rewrite cis_add, cis_PI. replace (- t / 2) with (- (t / 2)) by field. rewrite cis_opp. ring. }
  assert (E3 : cis (- t / 2) = Cconj (cis (t / 2))). { replace (- t / 2) with (- (t / 2)) by field. apply cis_opp. }
  pose proof (cis_conj_l x) as Ex. pose proof (cis_conj_l (t / 2)) as Et.
  set (s := RtoC (sin (t / 2))) in *. set (c := RtoC (cos (t / 2))) in *. set (h := cis (t / 2)) in *. set (X := cis x) in *.
  assert (Ec : (c * c = C1 - s * s)%C) by (rewrite <- E; ring).
  destruct (Nat.eq_dec r p) as [-> | N1]; [| destruct (Nat.eq_dec r (S p)) as [-> | N2]].
  - rewrite !nodeop_p, nodeop_S, za_sin, zb_cos, zd_sin, E1, E3, cis_0. fold s c h X. ring [Ci_sq Ex Et Ec].
  - rewrite !nodeop_S, nodeop_p, za_sin, zb_cos, zd_sin, E2, E3, cis_0. fold s c h X. ring [Ci_sq Ex Et Ec].
  - rewrite !nodeop_o by auto. reflexivity.
Qed.
Lemma nodeop_veq : forall n p t x y z v w, (S p < n)%nat -> veq n v w -> veq n (nodeop p t x y z v) (nodeop p t x y z w).
Proof. intros n p t x y z v w Hp H r Hr. unfold nodeop. rewrite !H by lia. reflexivity. Qed.
Lemma left_factor : forall n p t x (U : mat) v, (S p < n)%nat ->
  veq n (app n U v) (nodeop p t 0 (- x - t / 2 + PI) (- t / 2 + PI) (app n (matmul n (lmat n p t x) U) v)).
Proof.
  intros n p t x U v Hp r Hr.
  rewrite (nodeop_veq n p t 0 _ _ (app n (matmul n (lmat n p t x) U) v) (nodeop p t x (- t / 2) (- t / 2) (app n U v)) Hp); [rewrite node_inverse; reflexivity | | exact Hr].
  intros q Hq. rewrite app_app. apply lmat_app; auto.
Qed.

(** The nulled entries. *)
Lemma atan2_cs : forall a b, 0 <= a -> 0 <= b -> exists N, b = N * cos (atan2x2 a b / 2) /\ a = N * sin (atan2x2 a b / 2).
Proof.
  intros a b Ha Hb. unfold atan2x2. replace (Carg (mkC b a) * 2 / 2) with (Carg (mkC b a)) by field. exists (Cabs (mkC b a)).
  pose proof (Carg_polar (mkC b a)) as E. set (N := Cabs (mkC b a)) in *. set (g := Carg (mkC b a)) in *.
  apply (f_equal re) in E as E1. apply (f_equal im) in E as E2. cbn in E1, E2. split; lra.
Qed.
Lemma atan2_null : forall a b, 0 <= a -> 0 <= b -> b * sin (atan2x2 a b / 2) = a * cos (atan2x2 a b / 2).
Proof. intros a b Ha Hb. destruct (atan2_cs a b Ha Hb) as (N & E1 & E2). set (g := atan2x2 a b / 2) in *. clearbody g. rewrite E1, E2. ring. Qed.
Lemma right_null : forall p t x (w : vec), t = atan2x2 (Cabs (w (S p))) (Cabs (w p)) -> x = Carg (- w p)%C - Carg (w (S p)) ->
  nodeop p t x 0 0 (fun k => Cconj (w k)) p = C0.
Proof.
  intros p t x w Ht Hx. rewrite nodeop_p, cis_0, za_sin, zb_cos.
  assert (E : RtoC (Cabs (w p)) = RtoC (Cabs (w p)) ) by reflexivity.
  pose proof (atan2_null (Cabs (w (S p))) (Cabs (w p)) (Cabs_nonneg _) (Cabs_nonneg _)) as N. rewrite <- Ht in N. apply (f_equal RtoC) in N. rewrite !RtoC_mul in N.
  assert (E1 : Cconj (w p) = (- (RtoC (Cabs (w p)) * Cconj (cis (Carg (- w p)%C))))%C).
  { pose proof (Cconj_polar (- w p)%C) as E1. rewrite Cabs_opp in E1. rewrite <- E1. apply C_eq; cbn; ring. }
  assert (E2 : Cconj (w (S p)) = (RtoC (Cabs (w (S p))) * Cconj (cis (Carg (w (S p)))))%C) by apply Cconj_polar.
  rewrite E1, E2, Hx, cis_sub. pose proof (cis_conj_r (Carg (- w p)%C)) as F. 
  set (s := RtoC (sin (t / 2))) in *. set (c := RtoC (cos (t / 2))) in *. set (h := cis (t / 2)) in *.
  set (A := cis (Carg (- w p)%C)) in *. set (B := cis (Carg (w (S p)))) in *. set (a := RtoC (Cabs (w p))) in *. set (b := RtoC (Cabs (w (S p)))) in *.
  replace (C1 * (Ci * h * s * (A * Cconj B * - (a * Cconj A)) + Ci * h * c * (b * Cconj B)))%C
    with (Ci * h * Cconj B * (b * c - (a * s) * (A * Cconj A)))%C by ring.
  rewrite F, N. ring.
Qed.
Lemma left_null : forall p t x y z (w : vec), t = atan2x2 (Cabs (w p)) (Cabs (w (S p))) -> x = Carg (w (S p)) - Carg (w p) ->
  nodeop p t x y z w (S p) = C0.
Proof.
  intros p t x y z w Ht Hx. rewrite nodeop_S, zb_cos, zd_sin.
  pose proof (atan2_null (Cabs (w p)) (Cabs (w (S p))) (Cabs_nonneg _) (Cabs_nonneg _)) as N. rewrite <- Ht in N. apply (f_equal RtoC) in N. rewrite !RtoC_mul in N.
  assert (E1 : w p = (RtoC (Cabs (w p)) * cis (Carg (w p)))%C) by apply Carg_polar.
  assert (E2 : w (S p) = (RtoC (Cabs (w (S p))) * cis (Carg (w (S p))))%C) by apply Carg_polar.
  pose proof (cis_conj_l (Carg (w p))) as F. rewrite Hx, cis_sub.
  set (s := RtoC (sin (t / 2))) in *. set (c := RtoC (cos (t / 2))) in *. set (h := cis (t / 2)) in *.
  set (A := cis (Carg (w p))) in *. set (B := cis (Carg (w (S p)))) in *. set (a := RtoC (Cabs (w p))) in *. set (b := RtoC (Cabs (w (S p)))) in *.
  rewrite E1, E2.
  replace (cis z * (Ci * h * c * (B * Cconj A * (a * A)) + - (Ci * h * s) * (b * B)))%C
    with (cis z * Ci * h * B * ((a * c) * (Cconj A * A) - b * s))%C by ring.
  rewrite F, N. ring.
Qed.
