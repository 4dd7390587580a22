(** Perturbed leapfrog runs: the error after N steps is at most the sum of the amplified perturbations of each step. *)
From Coq Require Import Reals Lra Lia Psatz List Arith Bool FunctionalExtensionality.
From Verif Require Import Cx Arr Model_yee Spec_yee Proof_yee Proof_yee2 Model_fdtd Spec_fdtd Proof_fdtd Proof_energy Proof_energy2 Proof_fdtd3 Proof_sym Proof_harm2.
From Verif Require Import Spec_conv.
Import ListNotations.
Local Open Scope R_scope.

Definition sadd (a b : fstate) : fstate := mkState (vadd (f_e a) (f_e b)) (vadd (f_h a) (f_h b)).
Definition sscal (x : R) (a : fstate) : fstate := mkState (vscal x (f_e a)) (vscal x (f_h a)).
Lemma state_eq : forall a b, same_vfld (f_e a) (f_e b) -> same_vfld (f_h a) (f_h b) -> a = b.
Proof. intros [e h] [e' h'] H1 H2. cbn in *. rewrite (same_eq _ _ H1), (same_eq _ _ H2). reflexivity. Qed.
Lemma step_e_sub : forall g a b l, f_e (gap (step g false a l) (step g false b l)) = f_e (step g false (gap a b) []).
Proof.
  intros. apply same_eq. intros c i j k. cbn [gap f_e]. rewrite !step_e_val. cbn [current]. unfold zero_vfld, curl_h. cbn [gap f_e f_h].
  replace (fun c i j k => f_h a c i j k - f_h b c i j k)%C with (lin C1 (- C1) (f_h a) (f_h b)).
  2:{ apply same_eq. intros c' i' j' k'. unfold lin. ring. }
  rewrite curl_lin. unfold Cdiv. ring.
Qed.
Lemma step_gap : forall g a b l, gap (step g false a l) (step g false b l) = step g false (gap a b) [].
Proof.
  intros. apply state_eq; [rewrite step_e_sub; intros c i j k; reflexivity |]. intros c i j k. cbn [gap f_h].
  rewrite !h_step. rewrite <- step_e_sub with (l := l). cbn [current]. unfold vadd, vscal, zero_vfld. cbn [gap f_e f_h]. unfold curl_e.
  replace (fun c i j k => f_e (step g false a l) c i j k - f_e (step g false b l) c i j k)%C with (lin C1 (- C1) (f_e (step g false a l)) (f_e (step g false b l))).
  2:{ apply same_eq. intros c' i' j' k'. unfold lin. ring. }
  rewrite curl_lin. ring.
Qed.
Lemma step_sadd : forall g a b, step g false (sadd a b) [] = sadd (step g false a []) (step g false b []).
Proof.
  intros. assert (E : forall a b, sadd a b = lin_state C1 C1 a b) by (intros; apply state_eq; intros c i j k; unfold sadd, lin_state, lin, vadd; cbn [f_e f_h]; ring).
  rewrite !E. apply step_lin. constructor.
Qed.
Lemma free_sadd : forall g n a b, free_run g false (sadd a b) n = sadd (free_run g false a n) (free_run g false b n).
Proof. intros g n a b. induction n; [reflexivity |]. rewrite !free_run_S, IHn. apply step_sadd. Qed.
Lemma free_step_shift : forall g st n, free_run g false (step g false st []) n = free_run g false st (S n).
Proof. intros. reflexivity. Qed.

Section Norm.
Variable g : fgrid.
Hypothesis Hpos : forall c i j k, in_grid (g_shape g) i j k -> 0 <= eps_t g false c i j k.
Definition nst (st : fstate) : R := sqrt (field_energy g false st).
Lemma energy_pos : forall st, 0 <= field_energy g false st.
Proof.
  intro st. unfold field_energy, sum3. assert (P : forall c, 0 <= rgrid_sum (g_shape g) (fun i j k => eps_t g false c i j k * Cn2 (f_e st c i j k) + Cn2 (f_h st c i j k))).
  { intro c. apply rgrid_sum_nonneg. intros i j k Hin. pose proof (Hpos c i j k Hin). pose proof (Cn2_nonneg (f_e st c i j k)). pose proof (Cn2_nonneg (f_h st c i j k)). nra. }
  pose proof (P AX); pose proof (P AY); pose proof (P AZ). lra.
Qed.
Lemma nst_pos : forall st, 0 <= nst st.
Proof. intro. apply sqrt_pos. Qed.
Lemma nst_sq : forall st, nst st * nst st = field_energy g false st.
Proof. intro. apply sqrt_sqrt, energy_pos. Qed.
Definition BB (a b : fstate) : R := rin (g_shape g) (displacement g false (f_e a)) (f_e b) + rin (g_shape g) (f_h a) (f_h b).
Lemma disp_vadd : forall e f, displacement g false (vadd e f) = vadd (displacement g false e) (displacement g false f).
Proof. intros. apply same_eq. intros c i j k. unfold displacement, vadd. ring. Qed.
Lemma disp_vscal : forall x f, displacement g false (vscal x f) = vscal x (displacement g false f).
Proof. intros. apply same_eq. intros c i j k. unfold displacement, vscal. ring. Qed.
Lemma energy_quad : forall a b x, field_energy g false (sadd a (sscal x b)) = field_energy g false a + 2 * BB a b * x + field_energy g false b * x * x.
Proof.
  intros. rewrite !energy_value. unfold Qe, BB, sadd, sscal. cbn [f_e f_h]. rewrite disp_vadd, disp_vscal, !rin_add_l, !rin_add_r, !rin_scal_l, !rin_scal_r.
  rewrite (disp_sym g false (f_e b) (f_e a)), (rin_sym (g_shape g) (f_h b) (f_h a)). ring.
Qed.
Lemma sscal_1 : forall b, sscal 1 b = b.
Proof. intro. apply state_eq; intros c i j k; unfold sscal, vscal; cbn [f_e f_h]; apply C_eq; cbn [re im RtoC Cmul]; ring. Qed.
Lemma nst_triangle : forall a b, nst (sadd a b) <= nst a + nst b.
Proof.
  intros. pose proof (nst_pos a); pose proof (nst_pos b). apply sq_le_le; [lra |]. rewrite nst_sq.
  replace (sadd a b) with (sadd a (sscal 1 b)) by (rewrite sscal_1; reflexivity). rewrite energy_quad.
  assert (D : BB a b * BB a b <= field_energy g false a * field_energy g false b).
  { apply disc; try apply energy_pos. intro x. rewrite <- energy_quad. apply energy_pos. }
  assert (BB a b <= nst a * nst b).
  { apply sq_le_le; [apply Rmult_le_pos; assumption |]. rewrite <- !nst_sq in D. lra. }
  pose proof (nst_sq a). pose proof (nst_sq b). lra.
Qed.
(** Errors x_n - y_n of a run with sources and perturbations f_n. *)
Variable Bd : nat -> R.
Hypothesis HB : forall st n, nst (free_run g false st n) <= Bd n * nst st.
Lemma duhamel : forall (d f : nat -> fstate), (forall n, d (S n) = sadd (step g false (d n) []) (f n)) ->
  forall N j, nst (free_run g false (d N) j) <= Bd (j + N)%nat * nst (d 0%nat) + Rsum N (fun k => Bd (j + N - 1 - k)%nat * nst (f k)).
Proof.
  intros d f Hd N. induction N as [| N IH]; intro j.
  - cbn [Rsum]. rewrite Nat.add_0_r, Rplus_0_r. apply HB.
  - rewrite Hd, free_sadd. eapply Rle_trans; [apply nst_triangle |]. rewrite free_step_shift. cbn [Rsum].
    pose proof (IH (S j)) as I. pose proof (HB (f N) j) as P.
    replace (S j + N)%nat with (j + S N)%nat in I by lia. replace (j + S N - 1 - N)%nat with j by lia. lra.
Qed.
End Norm.
