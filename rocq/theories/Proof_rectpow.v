(** Proofs about Model_rectpow (C128). *)
From Coq Require Import Reals List Arith ZArith Lra Lia Bool FunctionalExtensionality Permutation ZifyNat ZifyClasses.
From Verif Require Import Cx Arr Spec_circuit Model_coupling Model_forward Spec_mesh Model_rect Model_rectpow Proof_node Proof_mesh Proof_forward Proof_forward2 Proof_forward3
  Proof_forward4 Proof_rect2 Proof_rect4 Proof_rect5 Proof_rect6.
Import ListNotations.
Local Open Scope R_scope.
Ltac Zify.zify_post_hook ::= Z.div_mod_to_equations.

Lemma all_some_len : forall (A : Type) (l : list (option A)) r, all_some l = Some r -> length r = length l.
Proof.
  intros A l. induction l as [| [a |] l IH]; intros r H; cbn [all_some] in H; [| | discriminate].
  - apply Some_inj in H. subst. reflexivity.
  - destruct (all_some l) as [r' |]; [| discriminate]. apply Some_inj in H. subst. cbn [length]. f_equal. auto.
Qed.
Lemma explicit_length : forall m p x sl, rails_disjoint (nodes m) -> style m = TOP -> propagate m false true p x = Some sl ->
  length sl = (4 * Z.to_nat (num_columns m) + 2)%nat.
Proof.
  intros m p x sl Hd Hs H. unfold propagate in H. destruct (columns m) as [cols |] eqn:Hc; [| discriminate]. cbn [obind] in H.
  destruct (forallb _ _); [| discriminate].
  destruct (prop_explicit_last (style m) false p (fun k => parallel_dc false (err_at m k) (loss_at m k)) (fun k => parallel_dc true (err_at m k) (loss_at m k))
    (map triples cols) x (or_introl Hs) (mesh_idxs_nodup m false cols Hd Hc)) as (s & E & L & _).
  cbn [last] in H. rewrite E in H. cbn [obind] in H. apply Some_inj in H. subst sl. rewrite !app_length, L, map_length. cbn [length].
  unfold columns in Hc. apply all_some_len in Hc. rewrite map_length, seq_length in Hc. lia.
Qed.
Lemma nth_error_row : forall n prop k, (k < length prop)%nat -> nth_error (row_powers n prop) k = Some (fun r => Cn2 (nth k prop (fun _ => C0) r) / Rsum n (fun i => Cn2 (nth k prop (fun _ => C0) i))).
Proof.
  intros n prop k H. unfold row_powers. rewrite (map_nth_error _ k prop (d := nth k prop (fun _ => C0))); [reflexivity |].
  apply nth_error_nth'. exact H.
Qed.
Lemma all_some_const : forall (A B : Type) (f : A -> option B) (g : A -> B) l, (forall x, In x l -> f x = Some (g x)) -> all_some (map f l) = Some (map g l).
Proof.
  intros A B f g l. induction l as [| a l IH]; intro H; [reflexivity |]. cbn [map all_some]. rewrite (H a) by (left; auto). rewrite IH by (intros; apply H; right; auto). reflexivity.
Qed.
Definition entry (n : nat) (prop : list vec) (k r : nat) : R := Cn2 (nth k prop (fun _ => C0) r) / Rsum n (fun i => Cn2 (nth k prop (fun _ => C0) i)).
Lemma paired_rows : forall n a prop, (2 <= n)%nat -> (a + 4 + 8 * (n / 2 - 1) < length prop)%nat -> paired n a (4 + a) (row_powers n prop) =
  Some (flat_map (fun i => removelast (even_cols n (entry n prop (a + 8 * i)) ++ odd_cols n (entry n prop (4 + a + 8 * i)))) (seq 0 (n / 2))).
Proof.
  intros n a prop Hn HL. unfold paired.
  rewrite (all_some_const _ _ _ (fun i => removelast (even_cols n (entry n prop (a + 8 * i)) ++ odd_cols n (entry n prop (4 + a + 8 * i))))).
  - destruct (n / 2)%nat as [| h] eqn:Eh; [lia |]. cbn [seq map]. rewrite flat_map_concat_map. reflexivity.
  - intros i Hi. apply in_seq in Hi. rewrite !nth_error_row by lia. reflexivity.
Qed.
Lemma even_rows : forall n (f : nat -> nat -> R) a, (n mod 2 = 0)%nat -> (2 <= n)%nat ->
  flat_map (fun i => removelast (even_cols n (f (a + 8 * i)%nat) ++ odd_cols n (f (4 + a + 8 * i)%nat))) (seq 0 (n / 2)) =
  map (fun nd => f (a + 4 * Z.to_nat (column nd))%nat (top nd)) (rnodes n).
Proof.
  intros n f a E0 Hn. unfold rnodes. rewrite map_map.
  assert (B : forall x, In x (rpos n n) -> f (a + 4 * Z.to_nat (column (rnode n x)))%nat (top (rnode n x)) = f (a + 4 * fst x)%nat (2 * snd x + fst x mod 2)%nat).
  { intros x Hx. destruct (rnode_fields n x Hx) as (_ & _ & _ & _ & _ & T & _ & Cc & _). rewrite T, Cc, Nat2Z.id. reflexivity. }
  rewrite (map_ext_in _ _ _ B). clear B.
  assert (W : forall h, (h <= n / 2)%nat -> flat_map (fun i => removelast (even_cols n (f (a + 8 * i)%nat) ++ odd_cols n (f (4 + a + 8 * i)%nat))) (seq 0 h) =
    map (fun x => f (a + 4 * fst x)%nat (2 * snd x + fst x mod 2)%nat) (rpos n (2 * h))).
  { induction h as [| h IH]; intro Hh; [reflexivity |]. rewrite seq_S, flat_map_app, IH by lia. replace (2 * S h)%nat with (S (S (2 * h))) by lia.
    rewrite !rpos_S, !map_app, <- app_assoc. f_equal. cbn [flat_map plus]. rewrite app_nil_r.
    assert (Ne : num_to_interfere n (2 * h) = (n / 2)%nat) by (unfold num_to_interfere; rewrite E0; lia).
    assert (No : num_to_interfere n (S (2 * h)) = (n / 2 - 1)%nat) by (unfold num_to_interfere; rewrite E0; lia).
    rewrite Ne, No. unfold even_cols, odd_cols. replace ((n + 1) / 2)%nat with (n / 2)%nat by lia.
    assert (S2 : seq 0 (n / 2) = seq 0 (n / 2 - 1) ++ [(n / 2 - 1)%nat]).
    { replace (n / 2)%nat with (S (n / 2 - 1)) at 1 by lia. rewrite seq_S. reflexivity. }
    rewrite S2 at 2.
    rewrite (map_app _ _ [(n / 2 - 1)%nat]). cbn [map]. rewrite app_assoc, removelast_last. f_equal.
    - rewrite map_map. apply map_ext. intro t. cbn [fst snd]. f_equal; lia.
    - rewrite map_map. apply map_ext. intro t. cbn [fst snd]. f_equal; lia. }
  rewrite (W (n / 2)%nat (le_n _)). replace (2 * (n / 2))%nat with n by lia. reflexivity.
Qed.

Lemma rect_powers_even : forall n u m p q x sl, (4 <= n)%nat -> (n mod 2 = 0)%nat -> rectangular n u = Some (m, p) -> propagate m false true q x = Some sl ->
  exists th ph ga, rectangular_phase_shift_powers n sl = Some (th, ph, ga) /\
    th = map (fun nd => Cn2 (nth (4 * Z.to_nat (column nd) + 2) sl (fun _ => C0) (top nd)) / power n (nth (4 * Z.to_nat (column nd) + 2) sl (fun _ => C0))) (nodes m) /\
    ph = map (fun nd => Cn2 (nth (4 * Z.to_nat (column nd)) sl (fun _ => C0) (top nd)) / power n (nth (4 * Z.to_nat (column nd)) sl (fun _ => C0))) (nodes m) /\
    ga = map (fun r => Cn2 (last sl (fun _ => C0) r) / power n (last sl (fun _ => C0))) (seq 0 n).
Proof.
  intros n u m p q x sl Hn E0 Hr Hp. rewrite rectangular_some in Hr by lia. apply Some_inj in Hr. assert (Em : m = rmesh n) by congruence. subst m. clear Hr.
  pose proof (rmesh_wf n ltac:(lia)) as (Hd & _). pose proof (explicit_length _ q x sl Hd eq_refl Hp) as HL.
  cbn [rmesh num_columns] in HL. unfold rcols in HL. destruct (Nat.eqb_spec n 2); [lia |]. rewrite Nat2Z.id in HL.
  unfold rectangular_phase_shift_powers. change 6%nat with (4 + 2)%nat at 1. rewrite (paired_rows n 2) by lia. change (paired n 0 4) with (paired n 0 (4 + 0)). rewrite (paired_rows n 0) by lia.
  eexists. eexists. eexists. split; [reflexivity |]. split; [| split].
  - rewrite (even_rows n (entry n sl) 2) by lia. cbn [rmesh nodes]. apply map_ext. intro nd. replace (2 + 4 * Z.to_nat (column nd))%nat with (4 * Z.to_nat (column nd) + 2)%nat by lia. reflexivity.
  - rewrite (even_rows n (entry n sl) 0) by lia. cbn [rmesh nodes]. apply map_ext. intro nd. reflexivity.
  - apply map_ext. intro r. destruct sl as [| s0 sl] using rev_ind; [cbn in HL; lia |]. unfold row_powers. rewrite map_app. cbn [map]. rewrite !last_app_single. reflexivity.
Qed.

Lemma removelast_length : forall (A : Type) (l : list A), length (removelast l) = (length l - 1)%nat.
Proof.
  intros A l. destruct l as [| a l] using rev_ind; [reflexivity |]. rewrite removelast_last, app_length. cbn [length]. lia.
Qed.
Lemma flat_map_len : forall (A B : Type) (f : A -> list B) c l, (forall x, length (f x) = c) -> length (flat_map f l) = (c * length l)%nat.
Proof. intros A B f c l H. induction l as [| a l IH]; [cbn; lia |]. cbn [flat_map length]. rewrite app_length, H, IH. lia. Qed.
Lemma rect_powers_odd : forall n u m p q x sl, (3 <= n)%nat -> (n mod 2 = 1)%nat -> rectangular n u = Some (m, p) -> propagate m false true q x = Some sl ->
  exists th ph ga, rectangular_phase_shift_powers n sl = Some (th, ph, ga) /\ (length th < length (nodes m))%nat /\ (length ph < length (nodes m))%nat.
Proof.
  intros n u m p q x sl Hn E0 Hr Hp.
  destruct (rectangular_geometry n u ltac:(lia)) as (m' & p' & Hr' & _ & _ & Len & _). rewrite Hr in Hr'. apply Some_inj in Hr'. assert (E : m = m') by congruence. subst m'. clear Hr'.
  rewrite rectangular_some in Hr by lia. apply Some_inj in Hr. assert (Em : m = rmesh n) by congruence. subst m. clear Hr.
  pose proof (rmesh_wf n ltac:(lia)) as (Hd & _). pose proof (explicit_length _ q x sl Hd eq_refl Hp) as HL.
  cbn [rmesh num_columns] in HL. unfold rcols in HL. destruct (Nat.eqb_spec n 2); [lia |]. rewrite Nat2Z.id in HL.
  unfold rectangular_phase_shift_powers. change 6%nat with (4 + 2)%nat at 1. rewrite (paired_rows n 2) by lia. change (paired n 0 4) with (paired n 0 (4 + 0)). rewrite (paired_rows n 0) by lia.
  eexists. eexists. eexists. split; [reflexivity |].
  assert (HH : exists h, n = (2 * h + 1)%nat /\ (n / 2 = h)%nat /\ ((n + 1) / 2 = S h)%nat) by (exists (n / 2)%nat; lia). destruct HH as (h & Eh & D1 & D2).
  split; rewrite (flat_map_len _ _ _ (2 * h)%nat); try (rewrite seq_length, D1; nia);
    intro i; rewrite removelast_length, app_length; unfold even_cols, odd_cols; rewrite !map_length, !seq_length, D1, D2; lia.
Qed.
Lemma rect_powers_two : forall u m p q x sl, rectangular 2 u = Some (m, p) -> propagate m false true q x = Some sl ->
  rectangular_phase_shift_powers 2 sl = None.
Proof.
  intros u m p q x sl Hr Hp. rewrite rectangular_some in Hr by lia. apply Some_inj in Hr. assert (Em : m = rmesh 2) by congruence. subst m. clear Hr.
  pose proof (rmesh_wf 2 ltac:(lia)) as (Hd & _). pose proof (explicit_length _ q x sl Hd eq_refl Hp) as HL. change (length sl = 6%nat) in HL.
  unfold rectangular_phase_shift_powers, paired. change (2 / 2)%nat with 1%nat. cbn [seq map].
  assert (N : nth_error (row_powers 2 sl) (6 + 8 * 0) = None) by (apply nth_error_None; unfold row_powers; rewrite map_length; etransitivity; [apply Nat.eq_le_incl; exact HL | cbn; lia]).
  rewrite N. destruct (nth_error (row_powers 2 sl) (2 + 8 * 0)); reflexivity.
Qed.
Lemma rect_powers_example : forall u q x, exists m p sl, rectangular 4 u = Some (m, p) /\ length (nodes m) = 6%nat /\ propagate m false true q x = Some sl.
Proof.
  intros u q x. destruct (rectangular_geometry 4 u ltac:(lia)) as (m & p & Hr & Hs & _ & Len & _ & _ & _ & _ & Hwf).
  destruct (wf_total m Hwf) as (cols & Hc & Hok). pose proof Hwf as (Hd & _).
  destruct (prop_explicit_last (style m) false q (fun k => parallel_dc false (err_at m k) (loss_at m k)) (fun k => parallel_dc true (err_at m k) (loss_at m k))
    (map triples cols) x (or_introl Hs) (mesh_idxs_nodup m false cols Hd Hc)) as (s & E & _ & _).
  exists m, p. eexists. split; [exact Hr |]. split; [lia |]. unfold propagate. rewrite Hc. cbn [obind]. specialize (Hok false). unfold mesh_idxs in Hok. rewrite Hok.
  cbn [last]. rewrite E. reflexivity.
Qed.
