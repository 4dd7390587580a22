(** Proofs for C166 (3): mirror images and units. *)
From Coq Require Import Reals List Arith ZArith Lra Lia Bool FunctionalExtensionality.
From Verif Require Import Cx Arr Model_coupling Model_yee Spec_yee Proof_yee Proof_yee2 Proof_yee3 Model_fdfd Spec_fdfd Spec_fdtd Proof_energy Proof_fdfd Proof_fdfd2 Proof_fdfd3 Proof_fdfd4
  Model_fdfdc Spec_fdfdc Proof_fdfdc Proof_fdfdc2 Proof_fdfdc3 Spec_fdfdst Proof_fdfdst Model_fdtd Spec_sym Proof_sym2 Spec_fdfdsy Proof_fdfdsy Proof_fdfdsy2.
Local Open Scope R_scope.

Definition img (a : axis) (q : nat -> nat) (b : axis) (i : nat) : nat := if Spec_sym.axis_eqb a b then q i else i.
Lemma through_at : forall a q (f : fld) i j k, through a q f i j k = f (img a q AX i) (img a q AY j) (img a q AZ k).
Proof. intros. destruct a; reflexivity. Qed.
Lemma img_in : forall s a q i j k, (forall x, (q x < s a)%nat) -> in_grid s i j k -> in_grid s (img a q AX i) (img a q AY j) (img a q AZ k).
Proof. intros s a q i j k H (Hi & Hj & Hk). destruct a; unfold in_grid, img; cbn [Spec_sym.axis_eqb]; repeat split; auto. Qed.
Lemma centre_lt : forall n i, (0 < n)%nat -> (centre_image n i < n)%nat.
Proof. intros. unfold centre_image. lia. Qed.
Lemma edge_lt : forall n i, (0 < n)%nat -> (edge_image n i < n)%nat.
Proof. intros. unfold edge_image. apply Nat.mod_upper_bound. lia. Qed.
Section Avg.
Variable s : shape3.
Hypothesis Hs : positive_shape s.
Lemma avg_c_same : forall a p, avg_c s a (through a (centre_image (s a)) p) = through a (edge_image (s a)) (avg_c s a p).
Proof.
  intros a p. apply fld_eq. intros i j k. pose proof (Hs a) as Ha. unfold avg_c, roll_p1, along, through, pick, coord.
  destruct a; rewrite centre_prv, prv_edge by auto; unfold Cdiv; ring.
Qed.
Lemma avg_c_other : forall a q b p, b <> a -> avg_c s b (through a q p) = through a q (avg_c s b p).
Proof. intros. apply fld_eq. intros. unfold avg_c, roll_p1, along, through, pick, coord. destruct a, b; try reflexivity; congruence. Qed.
Lemma mirror_eps_c : forall a p c i j k, a <> AZ \/ (forall i j k k', in_grid s i j k -> in_grid s i j k' -> p i j k = p i j k') -> in_grid s i j k ->
  yee_avg_c s (through a (centre_image (s a)) p) c i j k = through a (eimage s a c) (yee_avg_c s p c) i j k.
Proof.
  intros a p c i j k Ha Hg. unfold yee_avg_c, eimage.
  destruct a, c; cbn [Spec_sym.axis_eqb]; rewrite ?avg_c_same, ?(avg_c_other AX), ?(avg_c_other AY), ?(avg_c_other AZ), ?avg_c_same by discriminate; try reflexivity.
  all: destruct Ha as [Ha | Hz]; [congruence |].
  all: unfold through, pick, avg_c, roll_p1, along; cbn [coord].
  all: destruct Hg as (Hi & Hj & Hk); pose proof (Hs AX); pose proof (Hs AY); pose proof (Hs AZ).
  all: assert (P : forall n x, (0 < n)%nat -> (prv n x < n)%nat) by (intros; unfold prv; apply Nat.mod_upper_bound; lia).
  all: repeat match goal with |- context [?P ?x ?y (centre_image ?N ?K)] => rewrite (Hz x y (centre_image N K) (edge_image N K)) by (unfold in_grid; repeat split; auto using centre_lt, edge_lt) end; reflexivity.
Qed.
End Avg.
Lemma eimage_fn : forall s a c, eimage s a c = if Spec_sym.axis_eqb c a then centre_image (s a) else edge_image (s a).
Proof. intros. unfold eimage. destruct (Spec_sym.axis_eqb c a); reflexivity. Qed.
Lemma mirror_cc : forall s a h e, positive_shape s -> curl_fn (diff_fn s (uniform_dx h) true) (curl_fn (diff_fn s (uniform_dx h) false) (mirror_e s a e)) =
  mirror_e s a (curl_fn (diff_fn s (uniform_dx h) true) (curl_fn (diff_fn s (uniform_dx h) false) e)).
Proof.
  intros. rewrite (vfld_eq (curl_fn (diff_fn s (uniform_dx h) false) (mirror_e s a e)) (mirror_h s a (curl_fn (diff_fn s (uniform_dx h) false) e))) by (intros; apply mirror_curl_e; auto).
  apply vfld_eq. intros. apply mirror_curl_h; auto.
Qed.
Section Mirror.
Variable d : cfdfd.
Hypothesis Hp : plain_grid d.
Hypothesis Hb : cf_bloch d = (fun _ => C1).
Variable a : axis.
Let d' := mirror_cf a d.
Lemma mplain : plain_grid d'.
Proof. destruct Hp as ((h & Hf & Hbb) & Hk). split; [exists h; split; auto | exact Hk]. Qed.
Lemma mlossy : forall sigma, lossy d sigma -> lossy d' sigma.
Proof.
  intros sigma (Hs & HL). split; [exact Hs |]. destruct HL as [HL | HL]; [left | right]; intros i j k Hg; change (cf_eps d') with (through a (centre_image (cf_shape d a)) (cf_eps d));
    rewrite through_at; apply HL; apply img_in; auto; intros; apply centre_lt; exact (in_pos _ _ _ _ Hg a).
Qed.
Lemma mirror_wave3 : forall src e, a <> AZ \/ z_uniform d -> wave3 d src e -> wave3 d' (mirror_e (cf_shape d) a src) (mirror_e (cf_shape d) a e).
Proof.
  intros src e Ha W. pose proof (proj1 (wave3_fn d Hb src e) W) as W1. apply (proj2 (wave3_fn d' Hb _ _)). intros c i j k Hg. pose proof (in_pos _ _ _ _ Hg) as Hs.
  destruct Hp as ((h & Hf & Hbb) & Hk). unfold cop3, cf_eps_t in *. cbn [d' mirror_cf with_eps cf_shape cf_dxf cf_dxb cf_k0 cf_eps] in *. rewrite Hf, Hbb in *.
  rewrite mirror_cc by auto. rewrite mirror_eps_c by auto. rewrite eimage_fn. unfold mirror_e.
  assert (CL := fun x => centre_lt (cf_shape d a) x (Hs a)). assert (EL := fun x => edge_lt (cf_shape d a) x (Hs a)).
  destruct (Spec_sym.axis_eqb c a); rewrite !through_at; rewrite W1 by (apply img_in; auto); ring.
Qed.
(** 2-D, electric field out of the plane. *)
Lemma mirror_te : forall src e, a <> AZ -> wave_te d src e -> wave_te d' (through a (edge_image (cf_shape d a)) src) (through a (edge_image (cf_shape d a)) e).
Proof.
  intros src e Ha W. pose proof (proj1 (wave_te_fn d Hb src e) W) as W1. apply (proj2 (wave_te_fn d' Hb _ _)). intros i j k Hg. pose proof (in_pos _ _ _ _ Hg) as Hs.
  destruct Hp as ((h & Hf & Hbb) & Hk). unfold cop2, cf_eps_t in *. cbn [d' mirror_cf with_eps cf_shape cf_dxf cf_dxb cf_k0 cf_eps] in *. rewrite Hf, Hbb in *.
  rewrite mirror_eps_c by auto. set (s := cf_shape d) in *.
  assert (EL := fun x => edge_lt (s a) x (Hs a)).
  assert (Q : forall b, b <> AZ -> diff_fn s (uniform_dx h) true (fun i j k => C1 * diff_fn s (uniform_dx h) false (through a (edge_image (s a)) e) b i j k)%C b i j k =
    through a (edge_image (s a)) (diff_fn s (uniform_dx h) true (fun i j k => C1 * diff_fn s (uniform_dx h) false e b i j k)%C b) i j k).
  { intros b Hz. assert (One : forall u : fld, (fun i j k => C1 * u i j k)%C = u) by (intros; apply fld_eq; intros; ring). rewrite !One.
    assert (BA : b = a \/ b <> a) by (destruct b, a; auto; right; discriminate). destruct BA as [-> | Hba].
    - rewrite (fld_eq (diff_fn s (uniform_dx h) false (through a (edge_image (s a)) e) a) (fun i j k => - through a (centre_image (s a)) (diff_fn s (uniform_dx h) false e a) i j k)%C) by (intros; apply thr_diff_fwd; auto).
      rewrite diff_opp. change (fun i j k => through a (centre_image (s a)) (diff_fn s (uniform_dx h) false e a) i j k) with (through a (centre_image (s a)) (diff_fn s (uniform_dx h) false e a)).
      rewrite thr_diff_bwd by auto. ring.
    - rewrite (fld_eq (diff_fn s (uniform_dx h) false (through a (edge_image (s a)) e) b) (through a (edge_image (s a)) (diff_fn s (uniform_dx h) false e b))) by (intros; apply thr_diff_other; auto).
      apply thr_diff_other; auto. }
  rewrite !Q by discriminate. rewrite eimage_fn. replace (Spec_sym.axis_eqb AZ a) with false by (destruct a; [reflexivity | reflexivity | congruence]).
  rewrite !through_at. apply W1. apply img_in; auto.
Qed.
End Mirror.
Lemma mirror3 : forall d sigma a solver solver' src, plain_grid d -> lossy d sigma -> cf_bloch d = (fun _ => C1) -> a <> AZ \/ z_uniform d ->
  exact3c d solver src -> exact3c (mirror_cf a d) solver' (mirror_e (cf_shape d) a src) ->
  let (e, h) := solve3c d solver src in let (e', h') := solve3c (mirror_cf a d) solver' (mirror_e (cf_shape d) a src) in
  same_v (cf_shape d) e' (mirror_e (cf_shape d) a e) /\ same_v (cf_shape d) h' (mirror_h (cf_shape d) a h).
Proof.
  intros d sigma a solver solver' src Hp Hl Hb Ha H H'. apply exact3c_wave in H. apply exact3c_wave in H'. apply (mirror_wave3 d Hp Hb a _ _ Ha) in H.
  pose proof (uniq3 (mirror_cf a d) (mplain d Hp a) sigma (mlossy d a sigma Hl) _ _ _ H' H) as U.
  unfold solve3c in *. cbn [fst] in *. split; [exact U |]. intros c i j k Hg. pose proof (in_pos _ _ _ _ Hg) as Hs.
  destruct Hp as ((h & Hf & Hbb) & Hk). 
  unfold cik0 in *. cbn [mirror_cf with_eps cf_shape cf_dxf cf_k0] in *. rewrite (curl_same _ _ _ _ _ U c i j k Hg). rewrite Hf. rewrite mirror_curl_e by auto.
  unfold mirror_h. destruct (Spec_sym.axis_eqb c a); rewrite !through_at; unfold Cdiv; ring.
Qed.
Lemma mirror_te_all : forall d sigma a solver solver' src, plain_grid d -> lossy d sigma -> cf_bloch d = (fun _ => C1) -> a <> AZ ->
  exact2c d (mat_ez_c d) solver src -> exact2c (mirror_cf a d) (mat_ez_c (mirror_cf a d)) solver' (mirror_e (cf_shape d) a (only_z src) AZ) ->
  let (e, h) := solve2_te_c d solver src in let (e', h') := solve2_te_c (mirror_cf a d) solver' (mirror_e (cf_shape d) a (only_z src) AZ) in
  same_v (cf_shape d) e' (mirror_e (cf_shape d) a e) /\ same_v (cf_shape d) h' (mirror_h (cf_shape d) a h).
Proof.
  intros d sigma a solver solver' src Hp Hl Hb Ha H H'.
  assert (ES : mirror_e (cf_shape d) a (only_z src) AZ = through a (edge_image (cf_shape d a)) src).
  { unfold mirror_e. destruct a; [reflexivity | reflexivity | congruence]. }
  rewrite ES in *. apply exact_te_wave in H. apply exact_te_wave in H'. apply (mirror_te d Hp Hb a _ _ Ha) in H.
  pose proof (uniq_te (mirror_cf a d) (mplain d Hp a) sigma (mlossy d a sigma Hl) _ _ _ H' H) as U.
  unfold solve2_te_c in *. cbn [fst only_z] in *. destruct Hp as ((h & Hf & Hbb) & Hk).
  split; intros c i j k Hg; pose proof (in_pos _ _ _ _ Hg) as Hs.
  - unfold mirror_e. destruct a; [| | congruence]; destruct c; cbn [only_z Spec_sym.axis_eqb]; rewrite ?through_at; cbn [only_z]; try (rewrite (U i j k Hg), through_at); try reflexivity; ring.
  - unfold cik0, mirror_h. cbn [mirror_cf with_eps cf_shape cf_dxf cf_k0] in *.
    destruct a; [| | congruence]; destruct c; cbn [Spec_sym.axis_eqb]; rewrite ?(diff_same _ _ _ _ _ _ U i j k Hg); rewrite ?Hf;
      rewrite ?thr_diff_fwd by auto; rewrite ?thr_diff_other by (auto; discriminate); rewrite !through_at; unfold Cdiv; ring.
Qed.
(** ** Units. *)
Lemma scaled_dplus : forall u d f b i j k, u <> 0 -> nz_pixel (cf_shape d) (cf_dxf d) -> in_grid (cf_shape d) i j k -> dplus (in_unit u d) f b i j k = (RtoC (/ u) * dplus d f b i j k)%C.
Proof.
  intros u d f b i j k Hu Hn (Hi & Hj & Hk). unfold dplus, fwd_quot. cbn [in_unit cf_shape cf_dxf cf_bloch]. destruct (Nat.eqb (cf_shape d b) 1); [ring |].
  assert (N : cf_dxf d b (coord b i j k) <> C0) by (apply Hn; destruct b; auto).
  assert (NU : RtoC u <> C0) by (apply k0_nz; auto). replace (RtoC (/ u)) with (Cinv (RtoC u)) by (symmetry; apply RtoC_inv; auto). field. auto.
Qed.
Lemma scaled_dminus : forall u d f b i j k, u <> 0 -> nz_pixel (cf_shape d) (cf_dxb d) -> in_grid (cf_shape d) i j k -> dminus (in_unit u d) f b i j k = (RtoC (/ u) * dminus d f b i j k)%C.
Proof.
  intros u d f b i j k Hu Hn (Hi & Hj & Hk). unfold dminus, bwd_quot. cbn [in_unit cf_shape cf_dxb cf_bloch]. destruct (Nat.eqb (cf_shape d b) 1); [ring |].
  assert (N : cf_dxb d b (coord b i j k) <> C0) by (apply Hn; destruct b; auto).
  assert (NU : RtoC u <> C0) by (apply k0_nz; auto). replace (RtoC (/ u)) with (Cinv (RtoC u)) by (symmetry; apply RtoC_inv; auto). field. auto.
Qed.
Lemma dplus_scal : forall d c f b i j k, dplus d (fun i j k => c * f i j k)%C b i j k = (c * dplus d f b i j k)%C.
Proof.
  intros. unfold dplus, fwd_quot, right_of, line. destruct (Nat.eqb (cf_shape d b) 1); [ring |]. destruct (Nat.eqb (coord b i j k + 1) (cf_shape d b)); destruct b; unfold Cdiv; ring.
Qed.
Lemma dminus_scal : forall d c f b i j k, dminus d (fun i j k => c * f i j k)%C b i j k = (c * dminus d f b i j k)%C.
Proof.
  intros. unfold dminus, bwd_quot, left_of, line. destruct (Nat.eqb (cf_shape d b) 1); [ring |]. destruct (coord b i j k); destruct b; unfold Cdiv; ring.
Qed.
