(** Frequency-domain solutions with exchanged and rotated axes. *)
From Coq Require Import Reals Lra Lia List Arith Bool FunctionalExtensionality.
From Verif Require Import Cx Arr Model_coupling Model_yee Spec_yee Proof_yee Proof_yee2 Model_fdfd Spec_fdfd Proof_fdfd Model_fdtd Spec_fdtd Model_fdfdc Spec_fdfdc Proof_fdfdc Proof_fdfdc3 Spec_fdfdsy
  Proof_fdfdsy2 Proof_fdfdsy3 Proof_fdfdsy4 Spec_swap Proof_swap.
Local Open Scope R_scope.

Lemma grid_flip : forall s i j k, in_grid (fun a => s (other a)) i j k <-> in_grid s j i k.
Proof. intros. unfold in_grid; cbn [other]. tauto. Qed.
Lemma grid_cycle : forall s i j k, in_grid (fun a => s (after a)) i j k <-> in_grid s k i j.
Proof. intros. unfold in_grid; cbn [after]. tauto. Qed.

(** ** Exchanged axes *)
Section Flip.
Variable d : cfdfd.
Lemma dplus_flip : forall f a i j k, dplus (flip_cf d) (flip f) a i j k = dplus d f (other a) j i k.
Proof. intros f a i j k. destruct a; reflexivity. Qed.
Lemma dminus_flip : forall f a i j k, dminus (flip_cf d) (flip f) a i j k = dminus d f (other a) j i k.
Proof. intros f a i j k. destruct a; reflexivity. Qed.
Lemma dplus_opp : forall f a i j k, dplus d (fun i j k => - f i j k)%C a i j k = (- dplus d f a i j k)%C.
Proof.
  intros f a i j k. unfold dplus, fwd_quot, right_of, line, Cdiv. cbv zeta. destruct (Nat.eqb (cf_shape d a) 1); [ring |].
  destruct a; cbn [coord]; match goal with |- context [Nat.eqb ?x ?y] => destruct (Nat.eqb x y) end; ring.
Qed.
Lemma dminus_opp : forall f a i j k, dminus d (fun i j k => - f i j k)%C a i j k = (- dminus d f a i j k)%C.
Proof.
  intros f a i j k. unfold dminus, bwd_quot, left_of, line, Cdiv. cbv zeta. destruct (Nat.eqb (cf_shape d a) 1); [ring |].
  destruct a; cbn [coord]; match goal with |- context [match ?x with O => _ | S _ => _ end] => destruct x end; ring.
Qed.
End Flip.
Section Flip2.
Variable d : cfdfd.
Lemma curl_p_flip : forall e, curl_of (dplus (flip_cf d)) (flip_e e) = flip_h (curl_of (dplus d) e).
Proof.
  intro e. apply vfld_eq. intros c i j k. unfold flip_h, flip, flip_e, curl_of. destruct c; cbn [other]; rewrite !dplus_flip; cbn [other]; ring.
Qed.
Lemma dminus_flip_h : forall u a i j k, dminus (flip_cf d) (fun i j k => - flip u i j k)%C a i j k = (- dminus d u (other a) j i k)%C.
Proof. intros. rewrite dminus_opp, dminus_flip. reflexivity. Qed.
Lemma dplus_flip_h : forall u a i j k, dplus (flip_cf d) (fun i j k => - flip u i j k)%C a i j k = (- dplus d u (other a) j i k)%C.
Proof. intros. rewrite dplus_opp, dplus_flip. reflexivity. Qed.
Lemma curl_m_flip : forall h c i j k, curl_of (dminus (flip_cf d)) (flip_h h) c i j k = curl_of (dminus d) h (other c) j i k.
Proof.
  intros h c i j k. unfold flip_h, curl_of. destruct c; cbn [other]; rewrite !dminus_flip_h; cbn [other]; ring.
Qed.
Lemma eps_at_flip : forall c i j k, eps_at (cf_shape (flip_cf d)) (cf_eps (flip_cf d)) c i j k = eps_at (cf_shape d) (cf_eps d) (other c) j i k.
Proof.
  intros c i j k. unfold eps_at, flip_cf; cbn [cf_shape cf_eps other]. cbv zeta. unfold flip. destruct c; cbn [other]; try reflexivity.
  f_equal. ring.
Qed.
Lemma wave3_flip : forall src e, wave3 d src e -> wave3 (flip_cf d) (flip_e src) (flip_e e).
Proof.
  intros src e H c i j k Hg. apply grid_flip in Hg. rewrite curl_p_flip, curl_m_flip, eps_at_flip. rewrite (H (other c) j i k Hg). reflexivity.
Qed.
Lemma wave_te_flip : forall src e, wave_te d src e -> wave_te (flip_cf d) (flip src) (flip e).
Proof.
  intros src e H i j k Hg. apply grid_flip in Hg. rewrite eps_at_flip. cbn [other].
  rewrite (fld_eq (dplus (flip_cf d) (flip e) AX) (flip (dplus d e AY))) by (intros; apply dplus_flip).
  rewrite (fld_eq (dplus (flip_cf d) (flip e) AY) (flip (dplus d e AX))) by (intros; apply dplus_flip).
  rewrite !dminus_flip. cbn [other]. pose proof (H j i k Hg) as E. unfold flip. cbn [flip_cf cf_k0]. rewrite <- E. ring.
Qed.
Definition mflip (f : fld) : fld := fun i j k => (- flip f i j k)%C.
Lemma wave_tm_flip : forall src h, wave_tm d src h -> wave_tm (flip_cf d) (mflip src) (mflip h).
Proof.
  intros src h H i j k Hg. apply grid_flip in Hg.
  rewrite (fld_eq (fun i j k => dplus (flip_cf d) (mflip h) AX i j k / eps_at (cf_shape (flip_cf d)) (cf_eps (flip_cf d)) AY i j k)%C
    (fun i j k => - flip (fun i j k => dplus d h AY i j k / eps_at (cf_shape d) (cf_eps d) AX i j k) i j k)%C)
    by (intros; unfold mflip; rewrite dplus_flip_h, eps_at_flip; cbn [other]; unfold flip, Cdiv; ring).
  rewrite (fld_eq (fun i j k => dplus (flip_cf d) (mflip h) AY i j k / eps_at (cf_shape (flip_cf d)) (cf_eps (flip_cf d)) AX i j k)%C
    (fun i j k => - flip (fun i j k => dplus d h AX i j k / eps_at (cf_shape d) (cf_eps d) AY i j k) i j k)%C)
    by (intros; unfold mflip; rewrite dplus_flip_h, eps_at_flip; cbn [other]; unfold flip, Cdiv; ring).
  rewrite !dminus_flip_h. cbn [other]. pose proof (H j i k Hg) as E. unfold mflip, flip. cbn [flip_cf cf_k0].
  match goal with |- ?l = _ => transitivity (- (- dminus d (fun i j k => dplus d h AX i j k / eps_at (cf_shape d) (cf_eps d) AY i j k)%C AX j i k
    - dminus d (fun i j k => dplus d h AY i j k / eps_at (cf_shape d) (cf_eps d) AX i j k)%C AY j i k))%C end; [ring |].
  rewrite E. ring.
Qed.
Lemma flip_cf_invol : flip_cf (flip_cf d) = d.
Proof.
  destruct d as [s f b bl k0 e]. unfold flip_cf; cbn [cf_shape cf_dxf cf_dxb cf_bloch cf_k0 cf_eps].
  f_equal; apply functional_extensionality; intro a; try (rewrite other_invol; reflexivity); reflexivity.
Qed.
End Flip2.
Lemma flip_e_invol : forall e, flip_e (flip_e e) = e.
Proof. intro e. apply vfld_eq. intros c i j k. unfold flip_e, flip. rewrite other_invol. reflexivity. Qed.
Lemma eps_t_flip : forall d c i j k, in_grid (cf_shape d) j i k -> cf_eps_t (flip_cf d) c i j k = cf_eps_t d (other c) j i k.
Proof.
  intros d c i j k H. unfold cf_eps_t. rewrite !eps_at_ok by (auto; apply grid_flip; exact H). apply eps_at_flip.
Qed.
Lemma flip3 : forall d solver solver' src, unique3 d -> exact3c d solver src -> exact3c (flip_cf d) solver' (flip_e src) ->
  let (e, h) := solve3c d solver src in let (e', h') := solve3c (flip_cf d) solver' (flip_e src) in
  same_v (cf_shape (flip_cf d)) e' (flip_e e) /\ same_v (cf_shape (flip_cf d)) h' (flip_h h).
Proof.
  intros d solver solver' src U H H'. apply exact3c_wave in H. apply exact3c_wave in H'.
  apply (wave3_flip (flip_cf d)) in H'. rewrite flip_cf_invol, flip_e_invol in H'. pose proof (U _ _ _ H' H) as E.
  unfold solve3c in *. cbn [fst] in *.
  set (e := fun c => unravel_f (cf_shape d) (solver (mat3c d) (rhs3c d src) c)) in *.
  set (e' := fun c => unravel_f (cf_shape (flip_cf d)) (solver' (mat3c (flip_cf d)) (rhs3c (flip_cf d) (flip_e src)) c)) in *.
  assert (Ee : same_v (cf_shape (flip_cf d)) e' (flip_e e)).
  { intros c i j k Hg. pose proof (proj1 (grid_flip _ _ _ _) Hg) as Hg'. pose proof (E (other c) j i k Hg') as Q. unfold flip_e, flip in Q |- *. rewrite other_invol in Q. exact Q. }
  split; [exact Ee |]. intros c i j k Hg. pose proof (proj1 (grid_flip _ _ _ _) Hg) as Hg'.
  rewrite (curl_ext (cf_shape (flip_cf d)) (cf_dxf (flip_cf d)) false e' (flip_e e)) by auto.
  unfold flip_h, flip. cbn [flip_cf cf_shape cf_dxf]. rewrite curl_flip_e. unfold Cdiv, cik0. cbn [flip_cf cf_k0]. ring.
Qed.
Lemma flip_te : forall d solver solver' src, unique_te d -> exact2c d (mat_ez_c d) solver src -> exact2c (flip_cf d) (mat_ez_c (flip_cf d)) solver' (flip src) ->
  let (e, h) := solve2_te_c d solver src in let (e', h') := solve2_te_c (flip_cf d) solver' (flip src) in
  same_v (cf_shape (flip_cf d)) e' (flip_e e) /\ same_v (cf_shape (flip_cf d)) h' (flip_h h).
Proof.
  intros d solver solver' src U H H'. apply exact_te_wave in H. apply exact_te_wave in H'.
  apply (wave_te_flip (flip_cf d)) in H'. rewrite flip_cf_invol in H'. change (flip (flip src)) with src in H'. pose proof (U _ _ _ H' H) as E.
  unfold solve2_te_c in *. cbn [fst only_z] in *.
  set (e := unravel_f (cf_shape d) (solver (mat_ez_c d) (rhs2c d src))) in *.
  set (e' := unravel_f (cf_shape (flip_cf d)) (solver' (mat_ez_c (flip_cf d)) (rhs2c (flip_cf d) (flip src)))) in *.
  assert (Ee : same_on (cf_shape (flip_cf d)) e' (flip e)).
  { intros i j k Hg. pose proof (proj1 (grid_flip _ _ _ _) Hg) as Hg'. unfold flip. rewrite <- (E j i k Hg'). reflexivity. }
  split; intros c i j k Hg.
  - unfold flip_e. destruct c; cbn [other only_z]; try reflexivity. apply Ee; auto.
  - unfold flip_h, flip. destruct c; cbn [other];
    rewrite ?(diff_ext (cf_shape (flip_cf d)) (cf_dxf (flip_cf d)) false e' (flip e)) by auto; cbn [flip_cf cf_shape cf_dxf]; rewrite ?diff_flip; cbn [other];
    unfold cik0, Cdiv; cbn [flip_cf cf_k0]; ring.
Qed.
Lemma flip_tm : forall d solver solver' src, unique_tm d -> exact2c d (mat_hz_c d) solver src ->
  exact2c (flip_cf d) (mat_hz_c (flip_cf d)) solver' (fun i j k => - flip src i j k)%C ->
  let (e, h) := solve2_tm_c d solver src in let (e', h') := solve2_tm_c (flip_cf d) solver' (fun i j k => - flip src i j k)%C in
  same_v (cf_shape (flip_cf d)) e' (flip_e e) /\ same_v (cf_shape (flip_cf d)) h' (flip_h h).
Proof.
  intros d solver solver' src U H H'. apply exact_tm_wave in H. apply exact_tm_wave in H'.
  apply (wave_tm_flip (flip_cf d)) in H'. rewrite flip_cf_invol in H'.
  rewrite (fld_eq (mflip (fun i j k => - flip src i j k)%C) src) in H' by (intros; unfold mflip, flip; ring). pose proof (U _ _ _ H' H) as E.
  unfold solve2_tm_c in *. cbn [snd only_z] in *.
  set (h := unravel_f (cf_shape d) (solver (mat_hz_c d) (rhs2c d src))) in *.
  set (h' := unravel_f (cf_shape (flip_cf d)) (solver' (mat_hz_c (flip_cf d)) (rhs2c (flip_cf d) (fun i j k => - flip src i j k)%C))) in *.
  assert (Eh : same_on (cf_shape (flip_cf d)) h' (mflip h)).
  { intros i j k Hg. pose proof (proj1 (grid_flip _ _ _ _) Hg) as Hg'. unfold mflip, flip. rewrite <- (E j i k Hg'). unfold mflip, flip. ring. }
  split; intros c i j k Hg.
  - pose proof (proj1 (grid_flip _ _ _ _) Hg) as Hg'. unfold flip_e, flip. destruct c; cbn [other];
    rewrite ?(diff_ext (cf_shape (flip_cf d)) (cf_dxb (flip_cf d)) true h' (mflip h)) by auto; rewrite eps_t_flip by auto; cbn [flip_cf cf_shape cf_dxb];
    unfold mflip; rewrite ?diff_flip_opp; cbn [other]; unfold cik0, Cdiv; cbn [flip_cf cf_k0]; ring.
  - unfold flip_h, flip. destruct c; cbn [other only_z]; try ring. apply Eh; auto.
Qed.
