(** Proofs about Model_bpm. *)
From Coq Require Import Reals Arith Bool List Lra Lia.
From Verif Require Import Model_yee Spec_yee Model_bpm.
Import ListNotations.
Local Open Scope R_scope.

Lemma new_cases : forall ni ndim s h, (1 <= ndim <= 3)%nat ->
  (exists b, bpm_new ni ndim s h = Ok b) <-> ni = false /\ ndim = 3%nat.
Proof.
  intros ni ndim s h H. unfold bpm_new. destruct ni.
  - split; [intros (b & E); discriminate | intros [E _]; discriminate].
  - destruct (Nat.eqb_spec ndim 1), (Nat.ltb_spec ndim 3); split; try (intros (b & E); discriminate); try (intros [_ E]; lia); intros; [| eexists; reflexivity].
    split; [reflexivity | lia].
Qed.
Lemma new_state : forall ni ndim s h b, (1 <= ndim <= 3)%nat -> bpm_new ni ndim s h = Ok b -> b = mkB 3 s (fun a _ _ _ => h a) 0.
Proof.
  intros ni ndim s h b H E. destruct (proj1 (new_cases ni ndim s h H) (ex_intro _ b E)) as [-> ->]. unfold bpm_new in E. cbn in E. congruence.
Qed.
Lemma times_err : forall n b, b_ndim b = 3%nat -> snd (adi_times n b) = repeat (Some AttributeE) n /\ b_x (fst (adi_times n b)) = b_x b.
Proof.
  induction n as [| n IH]; intros b Hb; [split; reflexivity |]. cbn [adi_times]. unfold adi_polarized. rewrite Hb. cbn [Nat.eqb].
  set (b1 := mkB _ _ _ _). destruct (IH b1 eq_refl) as [E1 E2]. destruct (adi_times n b1) as [b2 l]. cbn [fst snd repeat] in *. rewrite E1, E2. split; reflexivity.
Qed.
Lemma always_fails : forall ni ndim s h b n, (1 <= ndim <= 3)%nat -> bpm_new ni ndim s h = Ok b ->
  Forall (fun r => r <> None) (snd (adi_times n b)) /\ length (snd (adi_times n b)) = n /\ b_x (fst (adi_times n b)) = 0%nat.
Proof.
  intros ni ndim s h b n H E. apply new_state in E; [| exact H]. subst b. destruct (times_err n (mkB 3 s (fun a _ _ _ => h a) 0) eq_refl) as [E1 E2].
  rewrite E1, E2, repeat_length. split; [| split; reflexivity]. apply Forall_forall. intros r Hr. apply repeat_spec in Hr. subst r. discriminate.
Qed.
Lemma breaks_grid : forall ni ndim s h b n, (1 <= ndim <= 3)%nat -> bpm_new ni ndim s h = Ok b -> (0 < n)%nat ->
  forall a i j k, in_grid s i j k -> b_dx (fst (adi_times n b)) a i j k = match a with AZ => h AZ | _ => if Nat.eqb (i + 1) (s AX) then 0 else h a end.
Proof.
  intros ni ndim s h b n H E Hn. apply new_state in E; [| exact H]. subst b.
  assert (G : forall n b, b_ndim b = 3%nat -> b_shape (fst (adi_times n b)) = b_shape b /\ forall a i j k, b_dx (fst (adi_times n b)) a i j k =
    match a with AZ => b_dx b AZ i j k | _ => if (Nat.eqb (i + 1) (b_shape b AX) && Nat.ltb 0 n)%bool then 0 else b_dx b a i j k end).
  { clear. induction n as [| n IH]; intros b Hb.
    - split; [reflexivity |]. intros. cbn [adi_times fst]. rewrite andb_false_r. destruct a; reflexivity.
    - cbn [adi_times]. unfold adi_polarized. rewrite Hb. cbn [Nat.eqb]. set (b1 := mkB _ _ _ _). destruct (IH b1 eq_refl) as [E1 E2]. destruct (adi_times n b1) as [b2 l].
      cbn [fst] in *. split; [exact E1 |]. intros a i j k. rewrite E2. cbn [b1 b_dx b_shape]. unfold zero_last. change (Nat.ltb 0 (S n)) with true. rewrite andb_true_r.
      destruct a; [| | reflexivity]; destruct (Nat.eqb (i + 1) (b_shape b AX)); cbn [andb]; try reflexivity; destruct (Nat.ltb 0 n); reflexivity. }
  intros a i j k Hg. destruct (G n (mkB 3 s (fun a _ _ _ => h a) 0) eq_refl) as [_ G2]. rewrite G2. cbn [b_dx b_shape].
  destruct (Nat.ltb_spec 0 n); [| lia]. rewrite andb_true_r. reflexivity.
Qed.
