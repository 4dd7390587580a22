(** Proofs for C159: differences of smooth functions. *)
From Coq Require Import Reals Lra Lia Psatz FunctionalExtensionality.
From Verif Require Import Cx Arr Model_yee Spec_yee Model_fdtd Spec_fdtd Spec_conv.
Local Open Scope R_scope.

Lemma absle : forall a b, Rabs a <= b -> - b <= a <= b.
Proof. intros a b H. unfold Rabs in H. destruct (Rcase_abs a); lra. Qed.
(** A function with nonnegative derivative on s >= 0 that starts at 0 is nonnegative. *)
Lemma grow : forall (f f1 : R -> R), (forall s, derivable_pt_lim f s (f1 s)) -> f 0 = 0 -> (forall s, 0 <= s -> 0 <= f1 s) -> forall s, 0 <= s -> 0 <= f s.
Proof.
  intros f f1 Hd H0 Hp s Hs. destruct (Req_dec s 0) as [E | E]; [subst; lra |]. assert (Hlt : 0 < s) by lra.
  destruct (MVT_cor2 f f1 0 s Hlt (fun c _ => Hd c)) as (c & Ec & Hc). rewrite H0 in Ec. pose proof (Hp c ltac:(lra)). nra.
Qed.
(** |f'| <= b g' with f(0) = g(0) = 0 gives |f| <= b g. *)
Lemma dominate : forall (f f1 g g1 : R -> R), (forall s, derivable_pt_lim f s (f1 s)) -> (forall s, derivable_pt_lim g s (g1 s)) -> f 0 = 0 -> g 0 = 0 ->
  (forall s, 0 <= s -> Rabs (f1 s) <= g1 s) -> forall s, 0 <= s -> Rabs (f s) <= g s.
Proof.
  intros f f1 g g1 Hf Hg F0 G0 Hb s Hs. apply Rabs_le.
  assert (A : 0 <= (fun s => g s - f s) s).
  { apply (grow (fun s => g s - f s) (fun s => g1 s - f1 s)); [intro; apply derivable_pt_lim_minus; auto | cbv beta; lra | | exact Hs].
    intros x Hx. pose proof (Hb x Hx) as B. apply absle in B. lra. }
  assert (B : 0 <= (fun s => g s + f s) s).
  { apply (grow (fun s => g s + f s) (fun s => g1 s + f1 s)); [intro; apply derivable_pt_lim_plus; auto | cbv beta; lra | | exact Hs].
    intros x Hx. pose proof (Hb x Hx) as B. apply absle in B. lra. }
  cbv beta in A, B. lra.
Qed.
Lemma lim_shift : forall f f1 m, (forall s, derivable_pt_lim f s (f1 s)) -> forall s, derivable_pt_lim (fun s => f (m + s)) s (f1 (m + s)).
Proof.
  intros f f1 m H s. pose proof (derivable_pt_lim_comp (fun s => m + s) f s 1 (f1 (m + s))) as C. unfold comp in C.
  replace (f1 (m + s)) with (f1 (m + s) * 1) by ring. apply C; [| apply H].
  replace 1 with (0 + 1) by ring. apply derivable_pt_lim_plus; [apply derivable_pt_lim_const | apply derivable_pt_lim_id].
Qed.
Lemma lim_shift_neg : forall f f1 m, (forall s, derivable_pt_lim f s (f1 s)) -> forall s, derivable_pt_lim (fun s => f (m - s)) s (- f1 (m - s)).
Proof.
  intros f f1 m H s. pose proof (derivable_pt_lim_comp (fun s => m - s) f s (- 1) (f1 (m - s))) as C. unfold comp in C.
  replace (- f1 (m - s)) with (f1 (m - s) * - 1) by ring. apply C; [| apply H].
  replace (- 1) with (0 - 1) by ring. apply derivable_pt_lim_minus; [apply derivable_pt_lim_const | apply derivable_pt_lim_id].
Qed.
Lemma lim_eq : forall f s a b, derivable_pt_lim f s a -> a = b -> derivable_pt_lim f s b.
Proof. intros; subst; auto. Qed.
(** The central difference is second-order accurate. *)
Lemma central : forall M f f1 m h, three_times M f f1 -> 0 < h -> Rabs ((f (m + h / 2) - f (m - h / 2)) / h - f1 m) <= M * h ^ 2 / 24.
Proof.
  intros M f f1 m h (f2 & f3 & H1 & H2 & H3 & HM) Hh.
  assert (M0 : 0 <= M) by (pose proof (HM 0); pose proof (Rabs_pos (f3 0)); lra).
  assert (P3 : forall s, 0 <= s -> Rabs (f3 (m + s) + f3 (m - s)) <= 2 * M).
  { intros s _. eapply Rle_trans; [apply Rabs_triang |]. pose proof (HM (m + s)). pose proof (HM (m - s)). lra. }
  assert (P2 : forall s, 0 <= s -> Rabs (f2 (m + s) - f2 (m - s)) <= 2 * M * s).
  { apply (dominate (fun s => f2 (m + s) - f2 (m - s)) (fun s => f3 (m + s) + f3 (m - s)) (fun s => 2 * M * s) (fun _ => 2 * M)); auto.
    - intro s. eapply lim_eq; [apply derivable_pt_lim_minus; [apply (lim_shift _ _ m H3) | apply (lim_shift_neg _ _ m H3)] | ring].
    - intro s. eapply lim_eq; [apply (derivable_pt_lim_scal (fun x => x) (2 * M) s 1), derivable_pt_lim_id | ring].
    - rewrite Rplus_0_r, Rminus_0_r. ring.
    - ring. }
  assert (P1 : forall s, 0 <= s -> Rabs (f1 (m + s) + f1 (m - s) - 2 * f1 m) <= M * s ^ 2).
  { apply (dominate (fun s => f1 (m + s) + f1 (m - s) - 2 * f1 m) (fun s => f2 (m + s) - f2 (m - s)) (fun s => M * s ^ 2) (fun s => 2 * M * s)); auto.
    - intro s. eapply lim_eq; [apply derivable_pt_lim_minus; [apply derivable_pt_lim_plus; [apply (lim_shift _ _ m H2) | apply (lim_shift_neg _ _ m H2)] | apply derivable_pt_lim_const] | ring].
    - intro s. eapply lim_eq; [apply (derivable_pt_lim_scal (fun x => x ^ 2) M s (INR 2 * s ^ 1)), (derivable_pt_lim_pow s 2) | cbn [INR pow Nat.pred]; ring].
    - rewrite Rplus_0_r, Rminus_0_r. ring.
    - cbn [pow]. ring. }
  assert (P0 : forall s, 0 <= s -> Rabs (f (m + s) - f (m - s) - 2 * f1 m * s) <= M / 3 * s ^ 3).
  { apply (dominate (fun s => f (m + s) - f (m - s) - 2 * f1 m * s) (fun s => f1 (m + s) + f1 (m - s) - 2 * f1 m) (fun s => M / 3 * s ^ 3) (fun s => M * s ^ 2)); auto.
    - intro s. eapply lim_eq; [apply derivable_pt_lim_minus; [apply derivable_pt_lim_minus; [apply (lim_shift _ _ m H1) | apply (lim_shift_neg _ _ m H1)] |] | ].
      + apply (derivable_pt_lim_scal (fun x => x) (2 * f1 m) s 1), derivable_pt_lim_id.
      + ring.
    - intro s. eapply lim_eq; [apply (derivable_pt_lim_scal (fun x => x ^ 3) (M / 3) s (INR 3 * s ^ 2)), (derivable_pt_lim_pow s 3) | cbn [INR pow Nat.pred]; field].
    - rewrite Rplus_0_r, Rminus_0_r. ring.
    - cbn [pow]. ring. }
  specialize (P0 (h / 2) ltac:(lra)).
  replace ((f (m + h / 2) - f (m - h / 2)) / h - f1 m) with ((f (m + h / 2) - f (m - h / 2) - 2 * f1 m * (h / 2)) / h) by (field; lra).
  unfold Rdiv at 1. rewrite Rabs_mult, (Rabs_pos_eq (/ h)) by (apply Rlt_le, Rinv_0_lt_compat; exact Hh).
  apply (Rmult_le_reg_r h); [exact Hh |]. rewrite Rmult_assoc, Rinv_l, Rmult_1_r by lra. eapply Rle_trans; [exact P0 |].
  apply Req_le. cbn [pow]. field.
Qed.
