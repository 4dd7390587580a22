(** Proofs about Model_mode: power of 1-d modes, dispersion_sweep, place, orientation at ports, modes cache, to_2d, s-parameters,
    unidirectional sources. *)
From Coq Require Import Reals List Arith ZArith Lra Lia Bool.
From Verif Require Import Cx Arr Model_coupling Model_yee Spec_yee Proof_yee Proof_yee2 Proof_yee3 Model_fdfd Spec_fdfd Proof_fdfd Proof_fdfd2 Proof_fdfd5 Model_adj Model_grid Model_mode Spec_mode Proof_mode Proof_mode2 Proof_mode3 Proof_grid.
Import ListNotations.
Local Open Scope R_scope.

(** ** Power of one-dimensional modes. *)
Lemma RtoC2_nz : RtoC 2 <> C0.
Proof. apply RtoC_neq0. lra. Qed.
Lemma half_same : forall z, ((z + z) / RtoC 2)%C = z.
Proof. intros. apply C_eq; unfold Cdiv, Cinv, Cn2; cbn; field. Qed.
Lemma half_zero : ((C0 + C0) / RtoC 2)%C = C0.
Proof. apply half_same. Qed.
Lemma tm_power : forall q beta m i, q_k0 q <> 0 -> q_eps_t q AX i 0%nat 0%nat <> 0 ->
  exists p, poynting 2 (q_shape q AX) 1 (as_array (e_1d q true beta m)) (as_array (h_1d q true beta m)) = Some p /\
    p i 0%nat = RtoC (beta / (q_k0 q * q_eps_t q AX i 0%nat 0%nat) * Cn2 (m i 0%nat 0%nat)).
Proof.
  intros q beta m i Hk He. unfold poynting. cbn [ax pick Nat.modulo Nat.add].
  eexists. split; [reflexivity |]. cbv beta. unfold avg0, avg1, as_array. cbn -[Cdiv Rdiv INR Cn2 q_eps_t prev].
  change (prev 1 0) with 0%nat. rewrite !half_same. unfold e_1d, h_1d. 
  set (E := q_eps_t q AX i 0%nat 0%nat) in *. set (z := m i 0%nat 0%nat). rewrite RtoC_mul, <- Cmul_conj.
  assert (EE : RtoC (beta / (q_k0 q * E)) = (RtoC beta / (RtoC (q_k0 q) * RtoC E))%C).
  { unfold Rdiv, Cdiv. rewrite RtoC_mul, RtoC_inv, RtoC_mul; [reflexivity | apply Rmult_integral_contrapositive; auto]. }
  rewrite EE, Cconj_C0.
  match goal with |- (_ - ?X * C0)%C = _ => generalize X; intro x0 end. field. repeat split; try apply RtoC_neq0; auto; apply Ci_neq0.
Qed.
Lemma te_power : forall q beta m i, q_k0 q <> 0 ->
  exists p, poynting 2 (q_shape q AX) 1 (as_array (e_1d q false beta m)) (as_array (h_1d q false beta m)) = Some p /\
    p i 0%nat = RtoC (- (beta / q_k0 q) * Cn2 (avg0 (q_shape q AX) (fun i j => m i j 0%nat) i 0%nat)).
Proof.
  intros q beta m i Hk. unfold poynting. cbn [ax pick Nat.modulo Nat.add].
  eexists. split; [reflexivity |]. cbv beta. unfold avg0, avg1, as_array. cbn -[Cdiv Rdiv INR Cn2 q_eps_t prev].
  change (prev 1 0) with 0%nat. unfold e_1d, h_1d. set (z := m i 0%nat 0%nat). set (y := m (prev (q_shape q AX) i) 0%nat 0%nat).
  rewrite RtoC_mul, <- Cmul_conj.
  assert (EE : RtoC (- (beta / q_k0 q)) = (- (RtoC beta / RtoC (q_k0 q)))%C).
  { unfold Rdiv, Cdiv. rewrite RtoC_opp, RtoC_mul, RtoC_inv; auto. }
  assert (HC : forall w : C, (Ci * RtoC beta * w / (Ci * RtoC (q_k0 q)))%C = (RtoC beta / RtoC (q_k0 q) * w)%C) by (intros; field; split; [apply RtoC_neq0; auto | apply Ci_neq0]).
  rewrite EE, !HC. set (g := (RtoC beta / RtoC (q_k0 q))%C).
  assert (Hg : Cconj g = g). { unfold g, Cdiv. rewrite <- RtoC_inv by auto. rewrite <- RtoC_mul. apply Cconj_RtoC. }
  replace ((g * z + g * y) / RtoC 2)%C with (g * ((z + y) / RtoC 2))%C by (field; apply RtoC2_nz).
  rewrite Cconj_mul, Hg. rewrite half_zero. ring.
Qed.

(** ** place. *)
Lemma place_3d_always_raises : forall X Y Zn pa p qq r0 r1 r2,
  (exists c, r0 = SIndex c \/ r1 = SIndex c \/ r2 = SIndex c) -> place_3d_raises X Y Zn pa p qq r0 r1 r2 = true.
Proof.
  intros X Y Zn pa p qq r0 r1 r2 (c & H). unfold place_3d_raises.
  assert (T : place_target X Y Zn r0 r1 r2 = None \/ (exists u v w, place_target X Y Zn r0 r1 r2 = Some [1%Z; u; v; w]) \/
    (exists u v, place_target X Y Zn r0 r1 r2 = Some [1%Z; u; v]) \/ exists u, place_target X Y Zn r0 r1 r2 = Some [1%Z; u]).
  { unfold place_target, sel_len. destruct r0 as [a0 b0 | c0], r1 as [a1 b1 | c1], r2 as [a2 b2 | c2];
    try (destruct H as [H | [H | H]]; discriminate H);
    repeat (match goal with |- context [np_index ?n ?c] => destruct (np_index n c) end; try (left; reflexivity)); right;
    first [left; do 3 eexists; reflexivity | right; left; do 2 eexists; reflexivity | right; right; eexists; reflexivity]. }
  destruct T as [-> | [(u & v & w & ->) | [(u & v & ->) | (u & ->)]]]; [reflexivity | | |];
  apply negb_true_iff; unfold can_assign, placed_shape;
  destruct pa; cbn [rev List.app bcast_rev]; change (Z.eqb 3 1) with false; rewrite ?orb_false_l, ?andb_false_l, ?andb_false_r; reflexivity.
Qed.
Lemma np_bound_in : forall n a, (0 <= a <= n)%Z -> np_bound n a = a.
Proof. intros n a H. unfold np_bound. destruct (Z.ltb_spec a 0); lia. Qed.
Lemma place_3d_slices : forall X Y Zn p qq a b c d e f, (0 <= a <= b)%Z -> (b <= 3)%Z -> (0 <= c <= d)%Z -> (d <= X)%Z -> (0 <= e <= f)%Z -> (f <= Y)%Z ->
  (place_3d_raises X Y Zn AX p qq (SSlice a b) (SSlice c d) (SSlice e f) = false <->
   a = 0%Z /\ b = 3%Z /\ (p = (f - e)%Z \/ p = 1%Z) /\ (qq = Zn \/ qq = 1%Z)).
Proof.
  intros X Y Zn p qq a b c d e f Ha Hb Hc Hd He Hf. unfold place_3d_raises, place_target, sel_len. rewrite !np_bound_in by lia. rewrite !Z.max_r by lia.
  unfold can_assign, placed_shape. cbn [List.app rev bcast_rev]. rewrite negb_false_iff, !andb_true_iff, !orb_true_iff, !Z.eqb_eq. lia.
Qed.
Lemma place_3d_slices_y : forall X Y Zn p qq a b c d e f, (0 <= a <= b)%Z -> (b <= 3)%Z -> (0 <= c <= d)%Z -> (d <= X)%Z -> (0 <= e <= f)%Z -> (f <= Y)%Z ->
  (place_3d_raises X Y Zn AY p qq (SSlice a b) (SSlice c d) (SSlice e f) = false <->
   a = 0%Z /\ b = 3%Z /\ (p = (d - c)%Z \/ p = 1%Z) /\ (qq = Zn \/ qq = 1%Z)).
Proof.
  intros X Y Zn p qq a b c d e f Ha Hb Hc Hd He Hf. unfold place_3d_raises, place_target, sel_len. rewrite !np_bound_in by lia. rewrite !Z.max_r by lia.
  unfold can_assign, placed_shape. cbn [List.app rev bcast_rev]. rewrite negb_false_iff, !andb_true_iff, !orb_true_iff, !Z.eqb_eq. lia.
Qed.
Lemma place_3d_slices_z : forall X Y Zn p qq a b c d e f, (0 <= a <= b)%Z -> (b <= 3)%Z -> (0 <= c <= d)%Z -> (d <= X)%Z -> (0 <= e <= f)%Z -> (f <= Y)%Z ->
  (place_3d_raises X Y Zn AZ p qq (SSlice a b) (SSlice c d) (SSlice e f) = false <->
   a = 0%Z /\ b = 3%Z /\ (p = (d - c)%Z \/ p = 1%Z) /\ (qq = (f - e)%Z \/ qq = 1%Z)).
Proof.
  intros X Y Zn p qq a b c d e f Ha Hb Hc Hd He Hf. unfold place_3d_raises, place_target, sel_len. rewrite !np_bound_in by lia. rewrite !Z.max_r by lia.
  unfold can_assign, placed_shape. cbn [List.app rev bcast_rev]. rewrite negb_false_iff, !andb_true_iff, !orb_true_iff, !Z.eqb_eq. lia.
Qed.
Lemma place_1d_ok : forall n m a b c mode, (0 <= a <= b)%Z -> (b <= n)%Z -> (0 <= c < m)%Z ->
  forall i j, (0 <= i < n)%Z -> (0 <= j < m)%Z ->
  place_1d n m a b c (b - a) mode i j = Some (if (Z.leb a i && Z.ltb i b && Z.eqb j c)%bool then mode (i - a)%Z else C0).
Proof.
  intros n m a b c mode Ha Hb Hc i j Hi Hj. unfold place_1d, np_bound, np_index, in_slice.
  unfold np_bound.
  destruct (Z.ltb_spec a 0); [lia |]. destruct (Z.ltb_spec b 0); [lia |]. destruct (Z.ltb_spec c 0); [lia |].
  rewrite !Z.min_r, !Z.max_r by lia.
  destruct (Z.leb_spec m c); [lia |]. destruct (Z.leb_spec 0 c); [| lia]. destruct (Z.ltb_spec c m); [| lia].
  cbn [andb]. rewrite Z.eqb_refl. cbn [orb].
  destruct (Z.leb_spec a i); destruct (Z.ltb_spec i b); cbn [andb]; try reflexivity.
  destruct (Z.eqb j c); [| reflexivity]. destruct (Z.eqb_spec (b - a) 1); [| reflexivity]. do 2 f_equal. lia.
Qed.

(** ** Orientation. *)
Lemma view_power : forall va e h, poynting_z (view_c va e) (view_c va h) =
  match va with AY => (- power_along AY e h)%C | _ => power_along va e h end.
Proof. intros va e h. destruct va; unfold poynting_z, view_c, power_along; cbn; try reflexivity. ring. Qed.
Lemma view_not_right_handed : forall va, right_handed (view_axes va AX) (view_axes va AY) (view_axes va AZ) <-> va <> AY.
Proof.
  intro va. unfold right_handed. destruct va; cbn; split; try discriminate; auto; intro H; [| exfalso; apply H; reflexivity].
  destruct H as [H | [H | H]]; discriminate H.
Qed.
Lemma view_profile : forall f c,
  view_c AY (profile_c AY f) c = f c /\
  view_c AX (profile_c AX f) c = (match c with AX => - f c | _ => f c end)%C /\
  view_c AZ (profile_c AZ f) c = (match c with AZ => - f c | _ => f c end)%C.
Proof. intros f c. unfold view_c, profile_c. destruct c; cbn; repeat split; apply C_eq; cbn; ring. Qed.
Lemma profile_power : forall pa e h, power_along pa (profile_c pa e) (profile_c pa h) = match pa with AZ => poynting_z e h | _ => (- poynting_z e h)%C end.
Proof. intros pa e h. destruct pa; unfold power_along, profile_c, poynting_z; cbn; apply C_eq; cbn; ring. Qed.

(** ** The cache of SimGrid.modes. *)
Section Cache.
Variables (K V E : Type) (key_eq : forall a b : K, {a = b} + {a <> b}) (solve : E -> K -> V).
Notation step := (mstep K V E key_eq solve).
Notation run := (mrun K V E key_eq solve).
Definition fresh (st : mstate K V E) : Prop := forall k v, lookup K V key_eq (m_cache K V E st) k = Some v -> v = solve (m_eps K V E st) k.
Lemma fresh_run : forall ops st, fresh st -> (forall o, In o ops -> exists k, o = MModes K E k) ->
  fresh (run st ops) /\ m_eps K V E (run st ops) = m_eps K V E st.
Proof.
  induction ops as [| o r IH]; intros st HF HO; [auto |]. destruct (HO o (or_introl eq_refl)) as (k & ->). cbn [mrun].
  assert (HF' : fresh (fst (step st (MModes K E k))) /\ m_eps K V E (fst (step st (MModes K E k))) = m_eps K V E st).
  { cbn [mstep]. destruct (lookup K V key_eq (m_cache K V E st) k) eqn:L; [split; auto |]. cbn [fst]. split; [| reflexivity].
    intros k' v' H. cbn in H. cbn. destruct (key_eq k k') as [-> | N]; [injection H as <-; reflexivity | apply HF; exact H]. }
  destruct HF' as [A B]. destruct (IH _ A (fun o H => HO o (or_intror H))) as [A' B']. split; [exact A' | congruence].
Qed.
Lemma fresh_modes : forall e ops k, (forall o, In o ops -> exists k, o = MModes K E k) ->
  snd (step (run (mkM K V E e []) ops) (MModes K E k)) = Some (solve e k).
Proof.
  intros e ops k HO. assert (F0 : fresh (mkM K V E e [])) by (intros k' v' H; discriminate H).
  destruct (fresh_run ops _ F0 HO) as [A B]. cbn [mstep].
  destruct (lookup K V key_eq (m_cache K V E (run (mkM K V E e []) ops)) k) eqn:L; cbn [snd].
  - rewrite (A k v L), B. reflexivity.
  - rewrite B. reflexivity.
Qed.
Lemma keep_hit : forall ops st k v, lookup K V key_eq (m_cache K V E st) k = Some v -> lookup K V key_eq (m_cache K V E (run st ops)) k = Some v.
Proof.
  induction ops as [| o r IH]; intros st k v H; [exact H |]. cbn [mrun]. apply IH. destruct o as [f | k']; cbn [mstep fst]; [exact H |].
  destruct (lookup K V key_eq (m_cache K V E st) k') eqn:L; [exact H |]. cbn. destruct (key_eq k' k) as [-> | N]; [congruence | exact H].
Qed.
Lemma stale_modes : forall e ops k, snd (step (run (mkM K V E e []) (MModes K E k :: ops)) (MModes K E k)) = Some (solve e k).
Proof.
  intros e ops k. cbn [mrun]. assert (H : lookup K V key_eq (m_cache K V E (run (fst (step (mkM K V E e []) (MModes K E k))) ops)) k = Some (solve e k)).
  { apply keep_hit. cbn. destruct (key_eq k k); [reflexivity | contradiction]. }
  cbn [mstep]. cbn [mstep] in H. rewrite H. reflexivity.
Qed.
End Cache.

(** ** to_2d *)
Lemma to_2d_always_raises : forall nz spacing, to_2d_raises nz spacing = true.
Proof. intros. unfold to_2d_raises. destruct (list_eq_dec _ _ _) as [E | _]; [discriminate E | reflexivity]. Qed.
Lemma to_2d_cube : forall nz spacing, (forall a, 0 < spacing a /\ spacing a = spacing AZ) -> to_2d_slab_shape nz spacing = [nz; nz; nz].
Proof.
  intros nz spacing H. unfold to_2d_slab_shape. cbn [map].
  assert (E : forall a, around (IZR nz * spacing a / spacing AZ) = nz).
  { intro a. destruct (H a) as [Hp ->]. destruct (H AZ) as [Hz _]. replace (IZR nz * spacing AZ / spacing AZ) with (IZR nz) by (field; lra). apply around_IZR. }
  rewrite !E. reflexivity.
Qed.
Lemma to_2d_k0 : forall wavelength beta, 0 < wavelength -> beta <> 0 ->
  (to_2d_slab_eps wavelength beta = mode_n (k0_of wavelength) beta ^ 2 <-> wavelength = 1).
Proof.
  intros w b Hw Hb. unfold to_2d_slab_eps, mode_n, k0_of. pose proof PI_RGT_0 as HP.
  assert (E : (b / (2 * PI * w)) ^ 2 = (b / (2 * PI)) ^ 2 * (/ w) ^ 2) by (field; lra).
  assert (E' : (b / (2 * PI / w)) ^ 2 = (b / (2 * PI)) ^ 2 * w ^ 2) by (field; lra). rewrite E, E'.
  split.
  - intro H. apply Rmult_eq_reg_l in H; [| apply pow_nonzero; unfold Rdiv; apply Rmult_integral_contrapositive; split; [exact Hb | apply Rinv_neq_0_compat; lra]].
    assert (H4 : w * w * (w * w) = 1). { replace (w * w * (w * w)) with (w ^ 2 * w ^ 2) by ring. rewrite <- H at 1. field. lra. }
    assert (H2 : w * w = 1) by nra. nra.
  - intros ->. f_equal. rewrite Rinv_1. reflexivity.
Qed.

(** ** s-parameters *)
Lemma index_of_nth : forall ports p i, nth_error ports i = Some p -> (forall j, (j < i)%nat -> nth_error ports j <> Some p) ->
  index_of (map (fun p => (p, O)) ports) (p, O) = Some i.
Proof.
  induction ports as [| a r IH]; intros p i Hi Hn; [destruct i; discriminate |]. cbn [map index_of fst snd].
  destruct i as [| i].
  - cbn in Hi. injection Hi as ->. rewrite Nat.eqb_refl. reflexivity.
  - destruct (Nat.eqb_spec a p) as [-> | N]; [exfalso; apply (Hn 0%nat); [lia | reflexivity] |]. cbn [andb].
    rewrite (IH p i); [reflexivity | exact Hi | intros j Hj; apply (Hn (S j)); lia].
Qed.
Lemma first_index : forall (ports : list nat) p, In p ports -> exists i, nth_error ports i = Some p /\ forall j, (j < i)%nat -> nth_error ports j <> Some p.
Proof.
  induction ports as [| a r IH]; intros p H; [destruct H |]. destruct (Nat.eq_dec a p) as [-> | N].
  - exists 0%nat. split; [reflexivity | intros; lia].
  - destruct H as [H | H]; [contradiction |]. destruct (IH p H) as (i & A & B). exists (S i). split; [exact A |]. intros [| j] Hj; cbn; [congruence | apply B; lia].
Qed.
Lemma sparam_default : forall ports p, In p ports -> sparam_divisor ports None (Some (p, O)) = Some (p, O).
Proof.
  intros ports p H. destruct (first_index ports p H) as (i & A & B). unfold sparam_divisor. rewrite (index_of_nth ports p i A B).
  rewrite nth_error_map, A. reflexivity.
Qed.
Lemma sparam_first : forall p ports info, sparam_divisor (p :: ports) (Some ((p, O) :: info)) None = Some (p, O).
Proof. intros. unfold sparam_divisor. cbn. rewrite !Nat.eqb_refl. reflexivity. Qed.
Lemma sparam_first_port : forall p ports info, sparam_divisor (p :: ports) (Some ((p, O) :: info)) None = Some (p, O) /\
  sparam_divisor (p :: ports) None None = Some (p, O).
Proof. intros. split; [apply sparam_first |]. unfold sparam_divisor. cbn. rewrite !Nat.eqb_refl. reflexivity. Qed.
Lemma sparam_wrong : forall p q r, p <> q -> sparam_divisor (p :: q :: r) (Some [(q, O); (p, O)]) (Some (p, O)) = Some (q, O).
Proof. intros p q r H. unfold sparam_divisor. cbn. destruct (Nat.eqb_spec q p); [congruence |]. rewrite !Nat.eqb_refl. reflexivity. Qed.
Lemma evolve_te : forall q, q_shape q AY = 1%nat -> q_shape q AZ = 1%nat -> q_k0 q <> 0 -> forall beta v len,
  eigen1 q (RtoC (beta * beta)) v ->
  let m := unravel_f (q_shape q) v in
  (forall c i j k, evolve ((e_1d q false beta m, beta) :: nil) (1 :: nil) len c i j k = (e_1d q false beta m c i j k * cis (beta * len))%C) /\
  maxwell_mode (q_shape q) (bwd (q_shape q) (q_dx q)) (fwd (q_shape q) (q_dx q)) (Ci * RtoC beta)%C (q_k0 q) (fun _ => q_eps q)
    (e_1d q false beta m) (h_1d q false beta m).
Proof.
  intros q Hy Hz Hk beta v len He m. split; [| apply te_1d_maxwell; auto]. intros. cbn [evolve]. change (RtoC 1) with C1. ring.
Qed.
Lemma sweep_same : forall q wavelengths,
  dispersion_sweep q false wavelengths = None /\
  exists calls, dispersion_sweep q true wavelengths = Some calls /\ length calls = length wavelengths /\
    forall c, In c calls -> call_solver c = q.
Proof.
  intros q ws. split; [reflexivity |]. eexists. split; [reflexivity |]. split; [apply map_length |].
  intros c H. apply in_map_iff in H. destruct H as (w & <- & _). reflexivity.
Qed.
Lemma update_ok : forall q w, q_k0 (update_wavelength q w) = 2 * PI / w /\
  q_shape (update_wavelength q w) = q_shape q /\ q_eps (update_wavelength q w) = q_eps q.
Proof. intros. repeat split. Qed.
Lemma view_power_xz : forall va e h, va <> AY -> poynting_z (view_c va e) (view_c va h) = power_along va e h.
Proof. intros va e h H. rewrite view_power. destruct va; auto. contradiction. Qed.
Lemma profile_y : forall f c, view_c AY (profile_c AY f) c = f c.
Proof. intros. apply (view_profile f c). Qed.
Lemma profile_bad : forall f, f AX <> C0 -> f AZ <> C0 ->
  view_c AX (profile_c AX f) AX <> f AX /\ view_c AZ (profile_c AZ f) AZ <> f AZ.
Proof.
  assert (P : forall z : C, z <> C0 -> (- z)%C <> z).
  { intros z Hz E. apply Hz. apply C_eq; [apply (f_equal re) in E | apply (f_equal im) in E]; cbn in *; lra. }
  intros f HX HZ. rewrite (proj1 (proj2 (view_profile f AX))), (proj2 (proj2 (view_profile f AZ))). split; apply P; auto.
Qed.
