(** Field conversions, the TM solve, Hermitian symmetry. *)
From Coq Require Import Reals List Arith ZArith Lra Lia Bool.
From Verif Require Import Cx Arr Model_coupling Model_yee Spec_yee Proof_yee Proof_yee2 Proof_yee3 Model_fdfd Spec_fdfd Proof_fdfd Proof_fdfd2 Proof_fdfd3 Proof_fdfd4.
Local Open Scope R_scope.

(** ** e2h, h2e *)
Lemma curl_of_ext_b : forall s dx u v c i j k, (forall c i j k, in_grid s i j k -> u c i j k = v c i j k) -> in_grid s i j k ->
  curl_of (bwd s dx) u c i j k = curl_of (bwd s dx) v c i j k.
Proof. intros. rewrite <- !curl_bwd by auto. apply curl_ext; auto. Qed.
Lemma h2e_e2h : forall d e c i j k, d_k0 d <> 0 -> d_eps d c i j k <> 0 -> in_grid (d_shape d) i j k -> source_free d e ->
  h2e d (e2h d e) c i j k = (- e c i j k)%C.
Proof.
  intros d e c i j k Hk He H Hs. pose proof (Hs c i j k H) as E. unfold h2e, e2h, dcurl_h.
  assert (E1 : curl_fn (diff_fn (d_shape d) (d_dxb d) true) (fun c i j k => dcurl_e d e c i j k / ik0 d)%C c i j k =
    (Cinv (ik0 d) * curl_of (bwd (d_shape d) (d_dxb d)) (curl_of (fwd (d_shape d) (d_dxf d)) e) c i j k)%C).
  { rewrite (curl_ext _ _ true _ (fun c i j k => Cinv (ik0 d) * curl_of (fwd (d_shape d) (d_dxf d)) e c i j k)%C); auto.
    - rewrite curl_scal. f_equal. apply curl_bwd; auto.
    - intros. unfold dcurl_e. rewrite curl_fwd by auto. unfold Cdiv. ring. }
  rewrite E1, E.
  pose proof (ik0_neq0 d Hk). assert (RtoC (d_eps d c i j k) <> C0) by (intros A; apply He; apply (f_equal re) in A; exact A).
  replace (RtoC (d_k0 d * d_k0 d)) with (- (ik0 d * ik0 d))%C by (rewrite ik0_sq; ring). field. auto.
Qed.
(** A standing wave of two cells. *)
Definition alt_e : vfld := fun c i _ _ => match c with AZ => if Nat.eqb i 0 then C1 else (- C1)%C | _ => C0 end.
Definition two_cells : fdfd := mkFdfd (fun a => match a with AX => 2 | _ => 1 end%nat) (uniform_dx (fun _ => 1)) (uniform_dx (fun _ => 1))
  (fun _ => C1) 2 (fun _ _ _ _ => 1).
Lemma alt_source_free : source_free two_cells alt_e.
Proof.
  intros c i j k H. destruct H as (Hi & Hj & Hk). cbn [d_shape two_cells] in *.
  assert (k = 0%nat) by lia. assert (j = 0%nat) by lia. subst j k.
  assert (Hi' : i = 0%nat \/ i = 1%nat) by lia.
  destruct Hi' as [-> | ->]; destruct c; apply C_eq; cbn; unfold uniform_dx, Cn2; cbn; field.
Qed.
Lemma alt_roundtrip : h2e two_cells (e2h two_cells alt_e) AZ 0%nat 0%nat 0%nat <> alt_e AZ 0%nat 0%nat 0%nat.
Proof.
  rewrite h2e_e2h.
  - intros A. apply (f_equal re) in A. cbn in A. lra.
  - cbn. lra.
  - cbn. lra.
  - cbn. split; [| split]; cbn; lia.
  - exact alt_source_free.
Qed.

(** ** The TM solve. *)
Lemma diff_same_axis : forall s (h : axis -> R) f a i j k, in_grid s i j k ->
  diff_fn s (uniform_dx h) true (diff_fn s (uniform_dx h) false f a) a i j k =
  diff_fn s (uniform_dx h) false (diff_fn s (uniform_dx h) true f a) a i j k.
Proof.
  intros s h f a i j k (Hi & Hj & Hk).
  unfold diff_fn, roll_m1, roll_p1, along, coord, uniform_dx. destruct a; rewrite nxt_prv, prv_nxt by auto; unfold Cdiv; ring.
Qed.
Lemma solve_tm_maxwell : forall d h (x : R) solver src, d_bloch d = (fun _ => C1) -> d_k0 d <> 0 -> d_shape d AZ = 1%nat ->
  d_dxf d = uniform_dx h -> d_dxb d = uniform_dx h -> x <> 0 -> (forall c i j k, d_eps d c i j k = x) ->
  exact2 d (mat_hz d) solver src ->
  let (e, h) := solve2_tm d solver src in
  forall c i j k, in_grid (d_shape d) i j k ->
  curl_of (bwd (d_shape d) (d_dxb d)) h c i j k = (Ci * RtoC (d_k0 d) * RtoC (d_eps d c i j k) * e c i j k)%C /\
  curl_of (fwd (d_shape d) (d_dxf d)) e c i j k = (- (Ci * RtoC (d_k0 d) * h c i j k) - Ci * only_z src c i j k)%C.
Proof.
  intros d h x solver src Hb Hk Hz Hf Hbb Hx He Hs. pose proof (exact2_hz d solver src Hb Hs) as Ex.
  unfold solve2_tm in *. cbn [snd] in Ex. set (hz := unravel_f _ _) in *. change (only_z hz AZ) with hz in Ex.
  intros c i j k H. pose proof (ik0_neq0 d Hk) as Hik.
  assert (Hxc : RtoC x <> C0) by (intros A; apply Hx; apply (f_equal re) in A; exact A).
  split.
  - rewrite <- curl_bwd by auto. unfold curl_fn, only_z. fold (ik0 d). rewrite !He.
    destruct c; rewrite ?diff_0; try (field; auto).
  - rewrite <- curl_fwd by auto. fold (ik0 d). set (s := d_shape d) in *.
    pose proof (Ex i j k H) as E. unfold op2 in E. fold s in E.
    rewrite Hf, Hbb in *. set (U := uniform_dx h) in *.
    assert (Ei : forall c i j k, RtoC (inv_eps (d_eps d c) i j k) = Cinv (RtoC x)).
    { intros. unfold inv_eps. rewrite He. apply C_eq; unfold Cinv, Cn2; cbn; field; auto. }
    rewrite !(diff_ext s U true (fun i j k => RtoC (inv_eps (d_eps d _) i j k) * diff_fn s U false hz _ i j k)%C
       (fun i j k => Cinv (RtoC x) * diff_fn s U false hz _ i j k)%C) in E by (intros; auto; rewrite Ei; reflexivity).
    rewrite !diff_scal in E. unfold U in E. rewrite !diff_same_axis in E by auto. fold U in E.
    unfold curl_fn. destruct c.
    + rewrite (diff_flat s U false _ AZ) by auto.
      rewrite (diff_ext s U false _ (fun _ _ _ => C0) AY) by (intros; auto; unfold Cdiv; ring). rewrite diff_0. unfold only_z. ring.
    + rewrite (diff_flat s U false _ AZ) by auto.
      rewrite (diff_ext s U false _ (fun _ _ _ => C0) AX) by (intros; auto; unfold Cdiv; ring). rewrite diff_0. unfold only_z. ring.
    + rewrite (diff_ext s U false _ (fun i j k => (- Cinv (ik0 d * RtoC x)) * diff_fn s U true hz AX i j k)%C AX)
        by (intros; auto; rewrite He; unfold Cdiv; ring).
      rewrite (diff_ext s U false (fun i j k => diff_fn s U true hz AY i j k / (ik0 d * RtoC (d_eps d AX i j k)))%C
         (fun i j k => (Cinv (ik0 d * RtoC x)) * diff_fn s U true hz AY i j k)%C AY) by (intros; auto; rewrite He; unfold Cdiv; ring).
      rewrite !diff_scal. unfold only_z.
      set (P := diff_fn s U false (diff_fn s U true hz AX) AX i j k) in *.
      set (Q := diff_fn s U false (diff_fn s U true hz AY) AY i j k) in *.
      assert (EP : P = (- Q - RtoC x * (RtoC (d_k0 d * d_k0 d) * hz i j k + RtoC (d_k0 d) * src i j k))%C).
      { rewrite <- E. field. auto. }
      rewrite EP.
      assert (Er : RtoC (d_k0 d) = (- Ci * ik0 d)%C) by (unfold ik0; apply C_eq; cbn; ring).
      replace (RtoC (d_k0 d * d_k0 d)) with (- (ik0 d * ik0 d))%C by (rewrite ik0_sq; ring).
      rewrite Er at 1. field. auto.
Qed.
(** The electric field always satisfies Ampere's law for the magnetic field that was solved for. *)
Lemma solve_tm_ampere : forall d solver src, d_k0 d <> 0 ->
  let (e, h) := solve2_tm d solver src in
  forall c i j k, in_grid (d_shape d) i j k -> d_eps d c i j k <> 0 ->
  curl_of (bwd (d_shape d) (d_dxb d)) h c i j k = (Ci * RtoC (d_k0 d) * RtoC (d_eps d c i j k) * e c i j k)%C.
Proof.
  intros d solver src Hk. unfold solve2_tm. set (hz := unravel_f _ _) in *.
  intros c i j k H He. pose proof (ik0_neq0 d Hk) as Hik.
  assert (Hxc : RtoC (d_eps d c i j k) <> C0) by (intros A; apply He; apply (f_equal re) in A; exact A).
  rewrite <- curl_bwd by auto. unfold curl_fn, only_z. fold (ik0 d). destruct c; rewrite ?diff_0; try (field; auto).
Qed.
(** Inhomogeneous: three cells; the in-plane permittivity is the average of 3, 1, 1. *)
Definition tm_eps : rfld := fun i _ _ => if Nat.eqb i 0 then 3 else 1.
Definition tm_cells : shape3 := fun a => match a with AX => 3 | _ => 1 end%nat.
Definition tm_bad : fdfd := mkFdfd tm_cells (uniform_dx (fun _ => 1)) (uniform_dx (fun _ => 1)) (fun _ => C1) 1 (yee_avg tm_cells tm_eps).
Definition tm_hz : vec := fun r => if Nat.eqb r 1 then C1 else C0.
Definition tm_src : fld := fun i j k => matvec 3 (mat_hz tm_bad) tm_hz (ridx tm_cells i j k).
Lemma tm_bad_ey : forall i, yee_avg tm_cells tm_eps AY i 0%nat 0%nat = (tm_eps i 0%nat 0%nat + tm_eps (prv 3 i) 0%nat 0%nat) / 2.
Proof. intros. reflexivity. Qed.
Lemma tm_src_1 : tm_src 1%nat 0%nat 0%nat = C0.
Proof.
  unfold tm_src. change 3%nat with (dn tm_bad). change tm_cells with (d_shape tm_bad). rewrite mat_hz_op2; [| reflexivity | split; [| split]; cbn; lia].
  unfold op2, inv_eps. cbn [d_shape d_dxb d_dxf d_eps d_k0 tm_bad].
  rewrite (diff_flat tm_cells _ true _ AY) by (reflexivity || (repeat split; cbn; lia)).
  apply C_eq; cbn; unfold uniform_dx, Cn2, tm_eps; cbn; unfold avg_axis, ralong; cbn; field.
Qed.

Lemma tm_bad_exact : exact2 tm_bad (mat_hz tm_bad) (fun _ _ => tm_hz) tm_src.
Proof.
  intros r Hr. change (dn tm_bad) with 3%nat in *. change (RtoC (d_k0 tm_bad)) with C1. change (d_shape tm_bad) with tm_cells.
  assert (Hr' : (r < npix tm_cells)%nat) by exact Hr.
  destruct (ridx_inv tm_cells r Hr') as (i & j & k & (Hi & Hj & Hk) & E). subst r. rewrite ravel_ridx by auto. unfold tm_src. ring.
Qed.
Lemma tm_bad_fields : let (e, h) := solve2_tm tm_bad (fun _ _ => tm_hz) tm_src in
  h AZ 1%nat 0%nat 0%nat = C1 /\ curl_of (fwd tm_cells (uniform_dx (fun _ => 1))) e AZ 1%nat 0%nat 0%nat = (- (RtoC (3 / 2) * Ci))%C.
Proof.
  unfold solve2_tm. split; [reflexivity |].
  assert (Hin : in_grid tm_cells 1 0 0) by (repeat split; cbn; lia).
  rewrite <- curl_fwd by auto. unfold curl_fn. rewrite (diff_flat tm_cells _ false _ AY) by (reflexivity || auto).
  apply C_eq; cbn; unfold uniform_dx, Cn2, ik0, tm_eps, avg_axis, ralong; cbn; field.
Qed.
