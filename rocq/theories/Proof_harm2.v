(** Energy balance with sources (C140) and reciprocity (C141) of FDTD. *)
From Coq Require Import Reals List Arith Lia Lra.
From Verif Require Import Cx Arr Model_yee Spec_yee Proof_yee Proof_yee2 Model_fdtd Spec_fdtd Proof_fdtd Proof_energy Proof_energy2 Model_fdfd Spec_fdfd Proof_fdfd Spec_sym Proof_sym Spec_harm.
Import ListNotations.
Local Open Scope R_scope.

Section bal.
Variable g : fgrid.
Notation s := (g_shape g).
Notation dt := (dt_of g).
Hypothesis Hnz : forall c i j k, in_grid s i j k -> eps_t g false c i j k <> 0.

Lemma overlap_rin : forall f h, overlap s f h = rin s f h.
Proof. intros. rewrite (rin_value g). reflexivity. Qed.
Lemma d_step : forall st l c i j k, in_grid s i j k ->
  displacement g false (f_e (step g false st l)) c i j k =
  vadd (displacement g false (f_e st)) (vscal dt (vadd (curl_h g (f_h st)) (vscal (-1) (current src_e l)))) c i j k.
Proof.
  intros st l c i j k Hin. unfold displacement, vadd, vscal. rewrite step_e_val.
  pose proof (RtoC_neq0 _ (Hnz c i j k Hin)). replace (RtoC (-1)) with (- C1)%C by (apply C_eq; cbn; ring). field. auto.
Qed.
Lemma h_step : forall st l, f_h (step g false st l) =
  vadd (f_h st) (vscal (- dt) (vadd (curl_e g (f_e (step g false st l))) (current src_h l))).
Proof.
  intros. apply same_eq. intros c i j k. unfold vadd, vscal. rewrite RtoC_opp.
  unfold step at 1. unfold step_h. cbn [f_h]. rewrite fold_src_h_np. unfold step. cbn [f_e]. ring.
Qed.
Lemma leap_rin : forall a b, leapfrog_energy g false a b = rin s (displacement g false (f_e b)) (f_e b) + rin s (f_h b) (f_h a).
Proof.
  intros. change (rin s (displacement g false (f_e b)) (f_e b)) with (Qe g false (f_e b)). rewrite Qe_value, (rin_value g).
  unfold leapfrog_energy, sum3. rewrite !rgrid_sum_add. ring.
Qed.

Theorem balance : forall st s1 s2, let st1 := step g false st s1 in let st2 := step g false st1 s2 in
  leapfrog_energy g false st1 st2 = leapfrog_energy g false st st1 + work g s1 s2 st1 st2.
Proof.
  intros st s1 s2 st1 st2. unfold work. rewrite !leap_rin, !overlap_rin.
  assert (E1 : forall f, rin s (displacement g false (f_e st2)) f = rin s (displacement g false (f_e st1)) f +
     dt * (rin s (curl_h g (f_h st1)) f - rin s (current src_e s2) f)).
  { intro f. unfold st2. rewrite (rin_ext_l g _ _ f (d_step st1 s2)). rewrite rin_add_l, rin_scal_l, rin_add_l, rin_scal_l. ring. }
  assert (Q : rin s (displacement g false (f_e st2)) (f_e st2) = rin s (displacement g false (f_e st1)) (f_e st1) +
     dt * (rin s (curl_h g (f_h st1)) (f_e st1) + rin s (curl_h g (f_h st1)) (f_e st2) - rin s (current src_e s2) (f_e st1) - rin s (current src_e s2) (f_e st2))).
  { rewrite E1. rewrite (disp_sym g false (f_e st1) (f_e st2)), E1. ring. }
  rewrite Q. change (plus (f_e st1) (f_e st2)) with (vadd (f_e st1) (f_e st2)). change (plus (current src_h s1) (current src_h s2)) with (vadd (current src_h s1) (current src_h s2)).
  assert (H2 : rin s (f_h st2) (f_h st1) = rin s (f_h st1) (f_h st1) - dt * (rin s (curl_e g (f_e st2)) (f_h st1) + rin s (current src_h s2) (f_h st1))).
  { unfold st2 at 1. rewrite h_step. fold st2. rewrite rin_add_l, rin_scal_l, rin_add_l. ring. }
  assert (H1 : rin s (f_h st1) (f_h st) = rin s (f_h st1) (f_h st1) + dt * (rin s (curl_e g (f_e st1)) (f_h st1) + rin s (current src_h s1) (f_h st1))).
  { assert (E0 : f_h st = vadd (f_h st1) (vscal dt (vadd (curl_e g (f_e st1)) (current src_h s1)))).
    { apply same_eq. intros c i j k. unfold st1 at 1. rewrite h_step. fold st1. unfold vadd, vscal. rewrite RtoC_opp. ring. }
    rewrite E0. rewrite (rin_sym s (f_h st1) (vadd _ _)), rin_add_l, rin_scal_l, rin_add_l. ring. }
  rewrite H1, H2. rewrite !rin_add_l, !rin_add_r. rewrite !curl_rin.
  rewrite (rin_sym s (curl_h g (f_h st1)) (f_e st1)), (rin_sym s (curl_h g (f_h st1)) (f_e st2)). ring.
Qed.

Theorem balance_run : forall st sch n, let at_ k := run g false st (map sch (seq 0 k)) in
  leapfrog_energy g false (at_ n) (at_ (S n)) =
  leapfrog_energy g false (at_ 0%nat) (at_ 1%nat) + Rsum n (fun k => work g (sch k) (sch (S k)) (at_ (S k)) (at_ (S (S k)))).
Proof.
  intros st sch n at_. induction n; [cbn [Rsum]; ring |].
  assert (S' : forall k, at_ (S k) = step g false (at_ k) (sch k)) by (intro k; unfold at_; rewrite seq_S, map_app; cbn [map Nat.add]; apply run_snoc).
  cbn [Rsum]. pose proof (balance (at_ n) (sch n) (sch (S n))) as B. cbv zeta in B. rewrite <- !S' in B. rewrite B, IHn. ring.
Qed.
End bal.

(** ** Reciprocity *)
Lemma Csum_rev : forall n (f : nat -> C), Csum n f = Csum n (fun k => f (n - 1 - k)%nat).
Proof.
  induction n; intro f; [reflexivity |]. rewrite (Csum_shift n (fun k => f (S n - 1 - k)%nat)). cbn [Csum]. rewrite IHn.
  replace (S n - 1 - 0)%nat with n by lia.
  rewrite (Csum_ext n (fun i => f (S n - 1 - S i)%nat) (fun k => f (n - 1 - k)%nat)) by (intros; f_equal; lia). ring.
Qed.
Lemma conv_sym : forall n (p q : nat -> nat -> C), (forall k l, p k l = q l k) ->
  Csum n (fun k => p k (n - 1 - k)%nat) = Csum n (fun k => q k (n - 1 - k)%nat).
Proof. intros n p q H. rewrite Csum_rev. apply Csum_ext; intros k Hk. rewrite H. f_equal; lia. Qed.
Lemma conv_sym1 : forall n (p q : nat -> nat -> C), (forall k l, p k l = q l k) ->
  Csum n (fun k => p (S k) (n - k)%nat) = Csum n (fun k => q (S k) (n - k)%nat).
Proof.
  intros n p q H. pose proof (conv_sym n (fun k l => p (S k) (S l)) (fun k l => q (S k) (S l))) as E. cbv beta in E.
  rewrite (Csum_ext n (fun k => p (S k) (n - k)%nat) (fun k => p (S k) (S (n - 1 - k)))) by (intros; f_equal; lia).
  rewrite E by (intros; apply H). apply Csum_ext; intros; f_equal; lia.
Qed.
Lemma conv_sym0 : forall n (p q : nat -> nat -> C), (forall k l, p k l = q l k) -> (forall l, p 0%nat l = C0) -> (forall l, q 0%nat l = C0) ->
  Csum n (fun k => p k (n - k)%nat) = Csum n (fun k => q k (n - k)%nat).
Proof.
  intros n p q H Hp Hq. destruct n; [reflexivity |]. rewrite !Csum_shift, Hp, Hq.
  change (fun i => p (S i) (S n - S i)%nat) with (fun i => p (S i) (n - i)%nat). change (fun i => q (S i) (S n - S i)%nat) with (fun i => q (S i) (n - i)%nat).
  rewrite (conv_sym1 n p q H). reflexivity.
Qed.

Lemma vpair_sym : forall s f h, vpair s f h = vpair s h f.
Proof. intros. unfold vpair, pair. f_equal; [f_equal |]; apply grid_sum_ext; intros; ring. Qed.
Lemma vpair_ext : forall s f f' h, (forall c i j k, in_grid s i j k -> f c i j k = f' c i j k) -> vpair s f h = vpair s f' h.
Proof. intros s f f' h H. unfold vpair, pair. f_equal; [f_equal |]; apply grid_sum_ext; intros; rewrite H by auto; reflexivity. Qed.
Lemma vpair_lin : forall s al be f h x, vpair s (lin al be f h) x = (al * vpair s f x + be * vpair s h x)%C.
Proof.
  intros. unfold vpair, pair, lin.
  assert (E : forall c, grid_sum s (fun i j k => (al * f c i j k + be * h c i j k) * x c i j k)%C =
    (al * grid_sum s (fun i j k => f c i j k * x c i j k) + be * grid_sum s (fun i j k => h c i j k * x c i j k))%C).
  { intro c. rewrite <- !grid_sum_scal, <- grid_sum_add. apply grid_sum_ext; intros; ring. }
  rewrite !E. ring.
Qed.
Lemma vpair_0 : forall s f h, (forall c i j k, in_grid s i j k -> f c i j k = C0) -> vpair s f h = C0.
Proof.
  intros s f h H. rewrite (vpair_ext s f (lin C0 C0 f f)) by (intros; rewrite H by auto; unfold lin; ring). rewrite vpair_lin. ring.
Qed.
Definition vconj (f : vfld) : vfld := fun c i j k => Cconj (f c i j k).
Lemma vinner_vpair : forall s f h, vinner s f (vconj h) = vpair s f h.
Proof. intros. unfold vinner, vpair, inner, pair, vconj. f_equal; [f_equal |]; apply grid_sum_ext; intros; rewrite Cconj_conj; reflexivity. Qed.
Lemma curl_conj : forall s h o f c i j k, curl_fn (diff_fn s (uniform_dx h) o) (vconj f) c i j k = Cconj (curl_fn (diff_fn s (uniform_dx h) o) f c i j k).
Proof.
  assert (D : forall s h o f a i j k, diff_fn s (uniform_dx h) o (fun i j k => Cconj (f i j k)) a i j k = Cconj (diff_fn s (uniform_dx h) o f a i j k)).
  { intros. unfold diff_fn, uniform_dx, Cdiv. destruct o; unfold roll_p1, roll_m1, along; destruct a; rewrite Cconj_mul, Cconj_sub, Cconj_Cinv_R; reflexivity. }
  intros. unfold curl_fn, vconj. destruct c; rewrite !(D s h o (f _)), Cconj_sub; reflexivity.
Qed.
Lemma curl_pair : forall g e f, vpair (g_shape g) (curl_e g e) f = vpair (g_shape g) e (curl_h g f).
Proof.
  intros. rewrite <- !vinner_vpair. unfold curl_e, curl_h, g_dx. rewrite curl_adjoint. f_equal.
  apply same_eq. intros c i j k. apply curl_conj.
Qed.

Section recip.
Variable g : fgrid.
Notation s := (g_shape g).
Notation dt := (dt_of g).
Hypothesis W : wf_grid g.
Hypothesis Hnz : forall c i j k, in_grid s i j k -> eps_t g false c i j k <> 0.
Definition h_after (sch : list (list source)) (n : nat) : vfld := f_h (run g false zero_state (firstn n sch)).
Notation E_ := (e_after g).
Notation D_ x n := (displacement g false (e_after g x n)).

Lemma firstn_snoc : forall (l : list (list source)) n, (n < length l)%nat -> firstn (S n) l = firstn n l ++ [nth n l []].
Proof.
  induction l; intros n H; cbn in H; [lia |]. destruct n; [reflexivity |]. cbn [firstn nth List.app]. f_equal. apply IHl. lia.
Qed.
Lemma after_S : forall l n, (n < length l)%nat ->
  run g false zero_state (firstn (S n) l) = step g false (run g false zero_state (firstn n l)) (nth n l []).
Proof. intros. rewrite firstn_snoc by auto. apply run_snoc. Qed.
Lemma electric_nth : forall l n, Forall electric l -> electric (nth n l []).
Proof.
  intros l n H. destruct (Nat.lt_ge_cases n (length l)) as [L | L].
  - rewrite Forall_forall in H. apply H, nth_In. auto.
  - rewrite nth_overflow by auto. constructor.
Qed.
Lemma D_S : forall l n c i j k, (n < length l)%nat -> in_grid s i j k ->
  current_of l n c i j k = lin C1 (RtoC (/ dt)) (curl_h g (h_after l n)) (lin C1 (- C1) (D_ l n) (D_ l (S n))) c i j k.
Proof.
  intros l n c i j k Hn Hin. unfold lin, current_of, displacement, e_after, h_after. rewrite after_S by auto. rewrite step_e_val.
  pose proof (RtoC_neq0 _ (Hnz c i j k Hin)) as N. assert (T : dt <> 0) by (pose proof (dt_pos g W); lra).
  rewrite RtoC_inv by auto. apply RtoC_neq0 in T. field. auto.
Qed.
Lemma H_S : forall l n c i j k, Forall electric l -> (n < length l)%nat ->
  curl_e g (E_ l (S n)) c i j k = lin (RtoC (/ dt)) (RtoC (- / dt)) (h_after l n) (h_after l (S n)) c i j k.
Proof.
  intros l n c i j k He Hn. unfold lin, e_after, h_after. rewrite after_S by auto. rewrite step_h_val by (apply electric_nth; auto).
  assert (T : dt <> 0) by (pose proof (dt_pos g W); lra).
  rewrite RtoC_opp, RtoC_inv by auto. apply RtoC_neq0 in T. field. auto.
Qed.
Lemma D_sym : forall a n b m, vpair s (D_ a n) (E_ b m) = vpair s (D_ b m) (E_ a n).
Proof. intros. unfold vpair, pair, displacement. f_equal; [f_equal |]; apply grid_sum_ext; intros; ring. Qed.

Lemma half : forall sa sb n, Forall electric sb -> length sa = n -> length sb = n ->
  Csum n (fun k => vpair s (current_of sa k) (E_ sb (n - k))) =
  (RtoC (/ dt) * (Csum n (fun k => vpair s (h_after sa k) (h_after sb (n - 1 - k))) - Csum n (fun k => vpair s (h_after sa k) (h_after sb (n - k))) +
     Csum n (fun k => vpair s (D_ sa k) (E_ sb (n - k))) - Csum n (fun k => vpair s (D_ sa (S k)) (E_ sb (n - k)))))%C.
Proof.
  intros sa sb n He La Lb.
  rewrite <- (Csum_sub n (fun k => vpair s (h_after sa k) (h_after sb (n - 1 - k)))). rewrite <- Csum_add, <- Csum_sub, <- Csum_scal.
  apply Csum_ext; intros k Hk.
  rewrite (vpair_ext s _ _ (E_ sb (n - k)) (fun c i j l => D_S sa k c i j l ltac:(lia))). rewrite vpair_lin, vpair_lin.
  rewrite (vpair_sym s (curl_h g _)), <- curl_pair.
  assert (Q : vpair s (curl_e g (E_ sb (n - k))) (h_after sa k) =
     (RtoC (/ dt) * vpair s (h_after sa k) (h_after sb (n - 1 - k)) + RtoC (- / dt) * vpair s (h_after sa k) (h_after sb (n - k)))%C).
  { replace (n - k)%nat with (S (n - 1 - k)) at 1 by lia.
    rewrite (vpair_ext s _ _ (h_after sa k) (fun c i j l _ => H_S sb (n - 1 - k) c i j l He ltac:(lia))). rewrite vpair_lin.
    replace (S (n - 1 - k)) with (n - k)%nat by lia. rewrite (vpair_sym s (h_after sb _) (h_after sa k)), (vpair_sym s (h_after sb (n - k)) (h_after sa k)). reflexivity. }
  rewrite Q, RtoC_opp. ring.
Qed.

Theorem reciprocity : forall sa sb n, Forall electric sa -> Forall electric sb -> length sa = n -> length sb = n ->
  Csum n (fun k => vpair s (current_of sa k) (E_ sb (n - k))) = Csum n (fun k => vpair s (current_of sb k) (E_ sa (n - k))).
Proof.
  intros sa sb n Ha Hb La Lb. rewrite (half sa sb n Hb La Lb), (half sb sa n Ha Lb La). f_equal.
  assert (Z : forall x y l, vpair s (h_after x 0) (h_after y l) = C0) by (intros; apply vpair_0; intros; reflexivity).
  assert (Z2 : forall x y l, vpair s (D_ x 0%nat) (E_ y l) = C0).
  { intros; apply vpair_0; intros. unfold displacement, e_after. cbn [firstn run zero_state f_e]. unfold Model_fdtd.zero_vfld. ring. }
  rewrite (conv_sym n (fun k l => vpair s (h_after sa k) (h_after sb l)) (fun k l => vpair s (h_after sb k) (h_after sa l))) by (intros; apply vpair_sym).
  rewrite (conv_sym0 n (fun k l => vpair s (h_after sa k) (h_after sb l)) (fun k l => vpair s (h_after sb k) (h_after sa l))) by (auto; intros; apply vpair_sym).
  rewrite (conv_sym0 n (fun k l => vpair s (D_ sa k) (E_ sb l)) (fun k l => vpair s (D_ sb k) (E_ sa l))) by (auto; intros; apply D_sym).
  rewrite (conv_sym1 n (fun k l => vpair s (D_ sa k) (E_ sb l)) (fun k l => vpair s (D_ sb k) (E_ sa l))) by (auto; intros; apply D_sym).
  reflexivity.
Qed.

(** *** Dipoles *)
Notation inside := (cell_in s).
Lemma dipole_pair : forall c p w f, inside p -> vpair s (current src_e [dipole c p w]) f = (w * at_cell f c p)%C.
Proof.
  intros c [[x y] z] w f (Hx & Hy & Hz). cbn [fst snd] in *. unfold at_cell. cbn [fst snd].
  assert (G : grid_sum s (fun i j k => (if (Nat.eqb i x && Nat.eqb j y && Nat.eqb k z)%bool then w else C0) * f c i j k)%C = (w * f c x y z)%C).
  { unfold grid_sum. rewrite (Csum_single _ _ x) by (auto; intros i Hi Ne; apply Csum_0; intros j Hj; apply Csum_0; intros k Hk;
      rewrite (proj2 (Nat.eqb_neq i x)) by auto; cbn [andb]; ring).
    rewrite (Csum_single _ _ y) by (auto; intros j Hj Ne; apply Csum_0; intros k Hk; rewrite (proj2 (Nat.eqb_neq j y)) by auto; rewrite Bool.andb_false_r; cbn [andb]; ring).
    rewrite (Csum_single _ _ z) by (auto; intros k Hk Ne; rewrite (proj2 (Nat.eqb_neq k z)) by auto; rewrite Bool.andb_false_r; ring).
    rewrite !Nat.eqb_refl. reflexivity. }
  rewrite <- G. unfold vpair, pair, current, masked, dipole. cbn [src_e src_region fst snd]. unfold Model_fdtd.zero_vfld.
  assert (Z : forall c', grid_sum s (fun i j k => (C0 + C0) * f c' i j k)%C = C0).
  { intro c'. rewrite (grid_sum_ext s _ (fun i j k => C0 * f c' i j k)%C) by (intros; ring). rewrite grid_sum_scal. ring. }
  assert (P : forall c', grid_sum s (fun i j k => ((if (Nat.eqb i x && Nat.eqb j y && Nat.eqb k z)%bool then w else C0) + C0) * f c' i j k)%C =
     grid_sum s (fun i j k => (if (Nat.eqb i x && Nat.eqb j y && Nat.eqb k z)%bool then w else C0) * f c' i j k)%C).
  { intro c'. apply grid_sum_ext; intros; ring. }
  destruct c; rewrite !Z, P; ring.
Qed.
Lemma dipole_electric : forall c p w, Forall electric (dipole_run c p w).
Proof. intros. unfold dipole_run. apply Forall_forall. intros l H. apply in_map_iff in H. destruct H as (x & <- & _). repeat constructor. Qed.
Lemma dipole_current : forall c p w k f, inside p -> (k < length w)%nat ->
  vpair s (current_of (dipole_run c p w) k) f = (nth k w C0 * at_cell f c p)%C.
Proof.
  intros. unfold current_of, dipole_run. rewrite (nth_indep _ [] [dipole c p C0]) by (rewrite map_length; auto).
  rewrite (map_nth (fun x => [dipole c p x])). apply dipole_pair; auto.
Qed.
Definition imp (n : nat) : list C := match n with O => [] | S m => C1 :: repeat C0 m end.
Lemma imp_length : forall n, length (imp n) = n. Proof. destruct n; cbn; rewrite ?repeat_length; auto. Qed.
Lemma imp_firstn : forall n m, (n <= m)%nat -> firstn n (imp m) = imp n.
Proof.
  intros n m H. destruct n; [reflexivity |]. destruct m; [lia |]. cbn [imp firstn]. f_equal.
  assert (R : forall a b, (a <= b)%nat -> firstn a (repeat C0 b) = repeat C0 a).
  { induction a; intros b Hb; [reflexivity |]. destruct b; [lia |]. cbn. f_equal. apply IHa. lia. }
  apply R. lia.
Qed.
Lemma imp_nth : forall n k, nth k (imp n) C0 = if Nat.eqb k 0 then (if Nat.eqb n 0 then C0 else C1) else C0.
Proof.
  intros [| n] [| k]; cbn [imp nth Nat.eqb]; auto. destruct (Nat.lt_ge_cases k n) as [L | L]; [| apply nth_overflow; rewrite repeat_length; lia].
  clear. revert k. induction n; intros [| k]; cbn; auto.
Qed.
Lemma after_imp : forall c p n m, (n <= m)%nat -> E_ (dipole_run c p (imp m)) n = E_ (dipole_run c p (imp n)) n.
Proof.
  intros. unfold e_after, dipole_run. rewrite !firstn_map, imp_firstn by auto. rewrite (imp_firstn n n) by lia. reflexivity.
Qed.
Lemma response : forall c p d q w, inside p -> inside q ->
  at_cell (E_ (dipole_run c p w) (length w)) d q = Csum (length w) (fun k => nth k w C0 * at_cell (E_ (dipole_run d q (imp (length w))) (length w - k)) c p)%C.
Proof.
  intros c p d q w Hp Hq. set (n := length w).
  assert (L : length (dipole_run c p w) = n) by (unfold dipole_run; rewrite map_length; auto).
  assert (L' : length (dipole_run d q (imp n)) = n) by (unfold dipole_run; rewrite map_length, imp_length; auto).
  pose proof (reciprocity (dipole_run c p w) (dipole_run d q (imp n)) n (dipole_electric _ _ _) (dipole_electric _ _ _) L L') as R.
  rewrite (Csum_ext n _ (fun k => nth k w C0 * at_cell (E_ (dipole_run d q (imp n)) (n - k)) c p)%C) in R by (intros; apply dipole_current; auto).
  rewrite R. clear R. destruct n as [| n'] eqn:En.
  - cbn [Csum]. unfold at_cell, e_after. destruct w; [reflexivity | discriminate].
  - rewrite (Csum_single _ _ 0%nat); [| lia |].
    + rewrite dipole_current by (auto; rewrite imp_length; lia). rewrite imp_nth. cbn [Nat.eqb]. rewrite Nat.sub_0_r. ring.
    + intros k Hk Ne. rewrite dipole_current by (auto; rewrite imp_length; lia). rewrite imp_nth. rewrite (proj2 (Nat.eqb_neq k 0)) by auto. ring.
Qed.
Lemma imp_recip : forall c p d q n, inside p -> inside q ->
  at_cell (E_ (dipole_run c p (imp n)) n) d q = at_cell (E_ (dipole_run d q (imp n)) n) c p.
Proof.
  intros c p d q n Hp Hq. pose proof (response c p d q (imp n) Hp Hq) as R. rewrite imp_length in R. rewrite R.
  destruct n as [| n']; [reflexivity |]. rewrite (Csum_single _ _ 0%nat); [| lia |].
  - rewrite imp_nth. cbn [Nat.eqb]. rewrite Nat.sub_0_r. ring.
  - intros k Hk Ne. rewrite imp_nth. rewrite (proj2 (Nat.eqb_neq k 0)) by auto. ring.
Qed.
Theorem dipoles : forall c p d q w, inside p -> inside q ->
  at_cell (f_e (run g false zero_state (dipole_run c p w))) d q = at_cell (f_e (run g false zero_state (dipole_run d q w))) c p.
Proof.
  intros c p d q w Hp Hq.
  assert (F : forall c p, f_e (run g false zero_state (dipole_run c p w)) = E_ (dipole_run c p w) (length w)).
  { intros. unfold e_after. rewrite firstn_all2; auto. unfold dipole_run. rewrite map_length. lia. }
  rewrite !F, !response by auto. apply Csum_ext; intros k Hk. f_equal.
  rewrite (after_imp d q (length w - k) (length w)), (after_imp c p (length w - k) (length w)) by lia. apply imp_recip; auto.
Qed.
End recip.
