(** numpy/jax source injection, aliasing of the state, PML memory. *)
From Coq Require Import Reals Lra Lia List Arith Bool FunctionalExtensionality.
From Verif Require Import Cx Arr Model_yee Spec_yee Proof_yee Proof_yee2 Model_fdtd Spec_fdtd Proof_fdtd.
Import ListNotations.
Local Open Scope R_scope.

Lemma source_e_differs : forall g st src v c i j k, src_e src = Some v -> src_region src c i j k = true ->
  (step_e g true st [src] c i j k = step_e g false st [src] c i j k <-> step_e g false st [] c i j k = C0).
Proof.
  intros g st src v c i j k Hv Hr. unfold step_e. cbn [fold_left]. unfold add_src_e. rewrite Hv. cbv beta iota zeta.
  unfold at_set, at_add. rewrite Hr, eps_jax. split; intro H.
  - match type of H with ?l = (?x + ?l)%C => replace x with (x + l - l)%C by ring; rewrite <- H; ring end.
  - rewrite H. ring.
Qed.

(** ** Heap *)
Lemma np_heap_contents : forall g hp st srcs, r_e st <> r_h st ->
  let hp' := fst (step_np_heap g hp st srcs) in
  let new := step g false (mkState (hp (r_e st)) (hp (r_h st))) srcs in
  snd (step_np_heap g hp st srcs) = st /\ hp' (r_e st) = f_e new /\ hp' (r_h st) = f_h new.
Proof.
  intros g hp st srcs Hd. unfold step_np_heap, step, write. cbn [fst snd f_e f_h].
  assert (E1 : Nat.eqb (r_e st) (r_h st) = false) by (apply Nat.eqb_neq; auto).
  assert (E2 : Nat.eqb (r_h st) (r_e st) = false) by (apply Nat.eqb_neq; auto).
  rewrite !Nat.eqb_refl, E1, E2. split; [| split]; reflexivity.
Qed.
Lemma jax_heap_contents : forall g hp fe fh st srcs, fe <> fh -> fe <> r_e st -> fe <> r_h st -> fh <> r_e st -> fh <> r_h st ->
  let r := step_jax_heap g hp fe fh st srcs in
  let new := step g true (mkState (hp (r_e st)) (hp (r_h st))) srcs in
  fst r (r_e st) = hp (r_e st) /\ fst r (r_h st) = hp (r_h st) /\
  fst r (r_e (snd r)) = f_e new /\ fst r (r_h (snd r)) = f_h new.
Proof.
  intros g hp fe fh st srcs H1 H2 H3 H4 H5. unfold step_jax_heap, step, write. cbn [fst snd f_e f_h r_e r_h].
  assert (E1 : Nat.eqb fe fh = false) by (apply Nat.eqb_neq; auto).
  assert (E2 : Nat.eqb (r_e st) fe = false) by (apply Nat.eqb_neq; auto).
  assert (E3 : Nat.eqb (r_h st) fe = false) by (apply Nat.eqb_neq; auto).
  assert (E4 : Nat.eqb (r_e st) fh = false) by (apply Nat.eqb_neq; auto).
  assert (E5 : Nat.eqb (r_h st) fh = false) by (apply Nat.eqb_neq; auto).
  rewrite !Nat.eqb_refl, E1, E2, E3, E4, E5. split; [| split; [| split]]; reflexivity.
Qed.
Lemma np_sync_h : forall g hp st srcs c i j k, r_e st <> r_h st ->
  let r := step_np_heap g hp st srcs in
  sync_h (fst r) st (snd r) c i j k = f_h (step g false (mkState (hp (r_e st)) (hp (r_h st))) srcs) c i j k.
Proof.
  intros g hp st srcs c i j k Hd r. pose proof (np_heap_contents g hp st srcs Hd) as (E1 & _ & E3). fold r in E1, E3.
  unfold sync_h. rewrite E1, E3. apply C_eq; unfold Cdiv, Cinv, Cn2; cbn [re im RtoC Cmul Cadd]; field.
Qed.
Lemma jax_sync_h : forall g hp fe fh st srcs c i j k, fe <> fh -> fe <> r_e st -> fe <> r_h st -> fh <> r_e st -> fh <> r_h st ->
  let r := step_jax_heap g hp fe fh st srcs in
  sync_h (fst r) st (snd r) c i j k =
  ((hp (r_h st) c i j k + f_h (step g true (mkState (hp (r_e st)) (hp (r_h st))) srcs) c i j k) / RtoC 2)%C.
Proof.
  intros g hp fe fh st srcs c i j k H1 H2 H3 H4 H5 r.
  pose proof (jax_heap_contents g hp fe fh st srcs H1 H2 H3 H4 H5) as (_ & E2 & _ & E4). fold r in E2, E4.
  unfold sync_h. rewrite E2, E4. reflexivity.
Qed.

(** ** PML memory *)
Lemma pml_two_steps : forall df b fs, (1 <= length fs <= 2)%nat -> forall c i j k,
  snd (pml_run df b fs zero_psi zero_vfld) c i j k = doc_corr df b fs c i j k.
Proof.
  intros df b fs H c i j k. destruct fs as [| f [| f' [| f'' rest]]]; cbn [length] in H; try lia;
    unfold doc_corr; cbn [pml_run snd curl_pml_fn map doc_psi]; destruct c; unfold zero_psi; ring.
Qed.
Lemma pml_const : forall df b f n p c0 cc i j k,
  snd (pml_run df b (repeat f (S (S n))) p c0) cc i j k = snd (pml_run df b [f; f] p c0) cc i j k.
Proof.
  intros df b f n. induction n as [| n IH]; intros p c0 cc i j k; [reflexivity |].
  change (repeat f (S (S (S n)))) with (f :: repeat f (S (S n))). cbn [pml_run].
  destruct (curl_pml_fn df f p b) as [nx c1] eqn:E. rewrite IH. cbn [pml_run].
  assert (En : nx = fst (curl_pml_fn df f nx b)).
  { unfold curl_pml_fn in *. inversion E. reflexivity. }
  destruct (curl_pml_fn df f nx b) as [nx2 c2] eqn:E2. cbn [fst] in En. subst nx2.
  rewrite E2. cbn [snd]. reflexivity.
Qed.
Lemma doc_const_real : forall b d n, doc_psi (RtoC b) (repeat (RtoC d) n) C0 = RtoC (d * Rsum n (fun m => b ^ m)).
Proof.
  intros b d n.
  assert (H : forall n x, doc_psi (RtoC b) (repeat (RtoC d) n) (RtoC x) = RtoC (b ^ n * x + d * Rsum n (fun m => b ^ m))).
  { clear n. induction n as [| n IH]; intro x; cbn [repeat doc_psi].
    - f_equal. simpl. ring.
    - replace (RtoC b * RtoC x + RtoC d)%C with (RtoC (b * x + d)) by (rewrite RtoC_add, RtoC_mul; reflexivity).
      rewrite IH. f_equal. rewrite <- tech_pow_Rmult. cbn [Rsum].
      ring. }
  rewrite <- RtoC_0, H. f_equal. ring.
Qed.
Lemma Rsum_pow_gt : forall b n, 0 < b -> (3 <= n)%nat -> 1 + b < Rsum n (fun m => b ^ m).
Proof.
  intros b n Hb Hn. induction n as [| n IH]; [lia |].
  destruct (Nat.eq_dec n 2) as [E | E].
  - subst n. simpl. nra.
  - cbn [Rsum]. assert (0 < b ^ n) by (apply pow_lt; auto). assert (1 + b < Rsum n (fun m => b ^ m)) by (apply IH; lia). lra.
Qed.
(** Constant forcing of one difference: the code stops at two terms of the geometric sum. *)
Lemma pml_const_value : forall df (b : axis -> fld) f n br d i j k, (2 <= n)%nat ->
  b AY i j k = RtoC br -> df (f AZ) AY i j k = RtoC d -> df (f AY) AZ i j k = C0 ->
  snd (pml_run df b (repeat f n) zero_psi zero_vfld) AX i j k = RtoC (d * (1 + br)) /\
  doc_corr df b (repeat f n) AX i j k = RtoC (d * Rsum n (fun m => br ^ m)).
Proof.
  intros df b f n br d i j k Hn Hb Hd Hz. destruct n as [| [| n]]; try lia. rewrite pml_const. split.
  - cbn [pml_run snd curl_pml_fn]. unfold zero_psi. rewrite Hb, Hd, Hz. rewrite RtoC_mul, RtoC_add, RtoC_1. ring.
  - unfold doc_corr.
    assert (Hm : forall comp ax, map (fun f0 : vfld => df (f0 comp) ax i j k) (repeat f (S (S n))) = repeat (df (f comp) ax i j k) (S (S n))).
    { intros. generalize (S (S n)). induction n0; cbn [repeat map]; [reflexivity | rewrite IHn0; reflexivity]. }
    rewrite !Hm, Hb, Hd, Hz, doc_const_real.
    assert (Hz0 : forall x m, doc_psi x (repeat C0 m) C0 = C0).
    { intros x m. induction m; cbn [repeat doc_psi]; auto. replace (x * C0 + C0)%C with C0 by ring. auto. }
    rewrite Hz0. ring.
Qed.
Lemma pml_refute : forall df (b : axis -> fld) f n br d i j k, (3 <= n)%nat -> 0 < br -> d <> 0 ->
  b AY i j k = RtoC br -> df (f AZ) AY i j k = RtoC d -> df (f AY) AZ i j k = C0 ->
  snd (pml_run df b (repeat f n) zero_psi zero_vfld) AX i j k <> doc_corr df b (repeat f n) AX i j k.
Proof.
  intros df b f n br d i j k Hn Hbr Hd0 Hb Hd Hz H.
  destruct (pml_const_value df b f n br d i j k ltac:(lia) Hb Hd Hz) as [E1 E2]. rewrite E1, E2 in H.
  apply RtoC_inj in H. apply Rmult_eq_reg_l in H; auto. pose proof (Rsum_pow_gt br n Hbr Hn). lra.
Qed.
