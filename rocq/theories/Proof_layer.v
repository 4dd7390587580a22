(** Proofs about the in situ backpropagation layer and its noise (C145, C146). *)
From Coq Require Import Reals Lra Lia List ZArith Bool FunctionalExtensionality.
From Verif Require Import Cx Arr Spec_circuit Model_coupling Model_forward Model_insitu Model_insitu2 Model_meshops Spec_mesh Proof_mesh Proof_forward Proof_forward2
  Prop_forward Spec_meshops Proof_meshops2 Prop_meshops Model_layer Spec_layer.
Import ListNotations.
Local Open Scope R_scope.

(** ** Noise on one number *)
Lemma noisy_none : forall ra rp z, noisy 0 0 ra rp z = z.
Proof.
  intros ra rp z. unfold noisy. rewrite !Rmult_0_l, !Rplus_0_r, Rmult_1_r, Rabs_right by (apply Rle_ge, sqrt_pos).
  symmetry. apply Carg_polar.
Qed.
Lemma noisy_power : forall amp ph ra rp z, Cn2 (noisy amp ph ra rp z) = (1 + amp * ra) ^ 2 * Cn2 z.
Proof.
  intros amp ph ra rp z. unfold noisy. rewrite Cn2_mul, Cn2_cis, Rmult_1_r. unfold RtoC, Cn2 at 1. cbn [re im].
  rewrite <- Rabs_mult. rewrite Rabs_right by (apply Rle_ge; apply Rle_0_sqr). unfold Cabs.
  pose proof (sqrt_sqrt (Cn2 z) (Cn2_nonneg z)) as Q. replace (sqrt (Cn2 z) * (1 + amp * ra) * (sqrt (Cn2 z) * (1 + amp * ra)) + 0 * 0) with ((sqrt (Cn2 z) * sqrt (Cn2 z)) * (1 + amp * ra) ^ 2) by ring.
  rewrite Q. ring.
Qed.
Lemma noisy_turn : forall amp ph ra rp z, 0 <= 1 + amp * ra -> noisy amp ph ra rp z = (RtoC (1 + amp * ra) * cis (ph * rp * PI) * z)%C.
Proof.
  intros amp ph ra rp z H. unfold noisy. rewrite Rabs_right by (apply Rle_ge, Rmult_le_pos; [apply sqrt_pos | auto]).
  rewrite cis_add. rewrite (Carg_polar z) at 3. rewrite RtoC_mul. ring.
Qed.

(** ** One layer without noise *)
Lemma layer_exact : forall act m p ra rp x, wf_mesh m -> exists y, layer_call act m p 0 0 ra rp x = Some (act y) /\
  forall b, exists z, matrix_fn m false p (x b) = Some z /\ forall i, (i < n_rails m)%nat -> y b i = z i.
Proof.
  intros act m p ra rp x W. unfold layer_call, noisy_matrix.
  destruct (wf_matrix_total m false p (fun _ => C0) W) as [y0 E0].
  destruct (C05_matrix m false p _ y0 (proj1 W) E0) as (U & HU & _).
  rewrite HU. cbn [option_map]. eexists. split; [reflexivity |]. intro b.
  destruct (wf_matrix_total m false p (x b) W) as [z Ez]. exists z. split; [exact Ez |].
  destruct (C05_matrix m false p _ z (proj1 W) Ez) as (U' & HU' & V). intros i Hi. rewrite (V i Hi). unfold app.
  apply Csum_ext. intros j _. rewrite HU. cbn [option_map]. rewrite noisy_none.
  assert (E : Some (U i j) = Some (U' i j)) by (rewrite <- HU, <- HU'; reflexivity). congruence.
Qed.
(** ** Networks *)
Lemma network_contracts : forall n ls, (forall l, In l ls -> wf_mesh (l_mesh l) /\ attenuating (l_mesh l) /\ n_rails (l_mesh l) = n /\ nonexpansive (l_act l)) ->
  forall x x', exists y y', network ls x = Some y /\ network ls x' = Some y' /\
    forall b, power n (fun i => y b i - y' b i)%C <= power n (fun i => x b i - x' b i)%C.
Proof.
  intro n. induction ls as [| l ls IH]; intros H x x'; [exists x, x'; repeat split; intros; lra |]. cbn [network].
  destruct (H l (or_introl eq_refl)) as (W & A & N & F).
  destruct (layer_exact (elementwise (l_act l)) (l_mesh l) (l_params l) no_noise no_noise x W) as (y & E & Hy).
  destruct (layer_exact (elementwise (l_act l)) (l_mesh l) (l_params l) no_noise no_noise x' W) as (y' & E' & Hy').
  rewrite E, E'. destruct (IH (fun k Hk => H k (or_intror Hk)) (elementwise (l_act l) y) (elementwise (l_act l) y')) as (w & w' & Ew & Ew' & B).
  exists w, w'. split; [exact Ew |]. split; [exact Ew' |]. intro b. eapply Rle_trans; [apply B |].
  destruct (Hy b) as (z & Ez & Vz). destruct (Hy' b) as (z' & Ez' & Vz').
  apply Rle_trans with (power n (fun i => z i - z' i)%C).
  - unfold power. apply Rsum_le. intros i Hi. unfold elementwise. rewrite Vz, Vz' by lia. apply F.
  - pose proof (C05_linear (l_mesh l) false (l_params l) C1 (x b) (- C1)%C (x' b) (proj1 W)) as L. rewrite Ez, Ez' in L.
    pose proof (C04_never_amplifies _ _ _ _ _ (proj1 W) A L) as P. rewrite N in P.
    assert (Q : forall u v : vec, power n (fun i => C1 * u i + - C1 * v i)%C = power n (fun i => u i - v i)%C) by (intros u v; unfold power; apply Rsum_ext; intros; f_equal; ring).
    rewrite !Q in P. exact P.
Qed.
Lemma network_isometry : forall n ls, (forall l, In l ls -> wf_mesh (l_mesh l) /\ lossless (l_mesh l) /\ n_rails (l_mesh l) = n /\ forall z, l_act l z = z) ->
  forall x, exists y, network ls x = Some y /\ forall b, power n (y b) = power n (x b).
Proof.
  intro n. induction ls as [| l ls IH]; intros H x; [exists x; auto |]. cbn [network].
  destruct (H l (or_introl eq_refl)) as (W & A & N & F).
  destruct (layer_exact (elementwise (l_act l)) (l_mesh l) (l_params l) no_noise no_noise x W) as (y & E & Hy).
  rewrite E. destruct (IH (fun k Hk => H k (or_intror Hk)) (elementwise (l_act l) y)) as (w & Ew & B).
  exists w. split; [exact Ew |]. intro b. rewrite B. destruct (Hy b) as (z & Ez & Vz).
  pose proof (C03_power_conserved _ _ _ _ _ (proj1 W) A Ez) as P. rewrite N in P. rewrite <- P.
  unfold power. apply Rsum_ext. intros i Hi. unfold elementwise. rewrite F, Vz by lia. reflexivity.
Qed.

(** ** Shot noise in the gradient measurement *)
Definition aff (f : (draw -> R) -> R) : Prop := exists c l, forall d, f d = c + fold_right (fun t acc => fst t * d (snd t) + acc) 0 l.
Lemma aff_const : forall c, aff (fun _ => c).
Proof. intro c. exists c, []. intro d. cbn. ring. Qed.
Lemma aff_draw : forall i, aff (fun d => d i).
Proof. intro i. exists 0, [(1, i)]. intro d. cbn. ring. Qed.
Lemma lsum_app : forall l1 l2 (d : draw -> R), fold_right (fun t acc => fst t * d (snd t) + acc) 0 (l1 ++ l2) =
  fold_right (fun t acc => fst t * d (snd t) + acc) 0 l1 + fold_right (fun t acc => fst t * d (snd t) + acc) 0 l2.
Proof. induction l1 as [| a l1 IH]; intros l2 d; cbn; [ring |]. rewrite IH. ring. Qed.
Lemma lsum_scal : forall k l (d : draw -> R), fold_right (fun t acc => fst t * d (snd t) + acc) 0 (map (fun t : R * draw => (k * fst t, snd t)) l) =
  k * fold_right (fun t acc => fst t * d (snd t) + acc) 0 l.
Proof. induction l as [| a l IH]; intro d; cbn; [ring |]. rewrite IH. ring. Qed.
Lemma aff_add : forall f g, aff f -> aff g -> aff (fun d => f d + g d).
Proof. intros f g (c & l & Hf) (c' & l' & Hg). exists (c + c'), (l ++ l'). intro d. rewrite Hf, Hg, lsum_app. ring. Qed.
Lemma aff_scal : forall k f, aff f -> aff (fun d => k * f d).
Proof. intros k f (c & l & Hf). exists (k * c), (map (fun t => (k * fst t, snd t)) l). intro d. rewrite Hf, lsum_scal. ring. Qed.
Lemma aff_ext : forall f g, (forall d, f d = g d) -> aff f -> aff g.
Proof. intros f g H (c & l & Hf). exists c, l. intro d. rewrite <- H. apply Hf. Qed.
Lemma aff_Rsum : forall n (F : nat -> (draw -> R) -> R), (forall j, (j < n)%nat -> aff (F j)) -> aff (fun d => Rsum n (fun j => F j d)).
Proof.
  induction n as [| n IH]; intros F H; [apply (aff_ext (fun _ => 0)); [reflexivity | apply aff_const] |].
  apply (aff_ext (fun d => Rsum n (fun j => F j d) + F n d)); [reflexivity |]. apply aff_add; [apply IH; intros; apply H; lia | apply H; lia].
Qed.
Lemma aff_mean : forall E f, centred E -> aff f -> E f = f (fun _ => 0).
Proof.
  intros E f HE (c & l & Hf). rewrite (functional_extensionality _ _ Hf). rewrite HE.
  assert (Z : fold_right (fun (t : R * draw) acc => fst t * 0 + acc) 0 l = 0) by (clear; induction l as [| a l IH]; cbn; [reflexivity | rewrite IH; ring]).
  rewrite Z. ring.
Qed.
Lemma tap_aff : forall c d shot u v i1 i2, aff (fun D => tap_noisy c d shot (D i1) (D i2) u v).
Proof.
  intros c d shot u v i1 i2.
  apply (aff_ext (fun D => (Cn2 u - Cn2 v) / 2 / 2 * (c * d) + ((shot * Cabs u / 2 / 2 * (c * d)) * D i1 + (- shot * Cabs v / 2 / 2 * (c * d)) * D i2))); [intro D; unfold tap_noisy; field |].
  apply aff_add; [apply aff_const |]. apply aff_add; apply aff_scal, aff_draw.
Qed.
Lemma tap_quiet : forall c d shot u v, tap_noisy c d shot 0 0 u v = tap c d u v.
Proof. intros. unfold tap_noisy, tap. field. Qed.
Lemma nth_taps : forall (A B : Type) (z : B) (f : nat -> A -> B) l q a, (length l <= a)%nat ->
  nth q (map (fun t => let '(k, x) := t in f k x) (combine (seq 0 a) l)) z = match nth_error l q with Some x => f q x | None => z end.
Proof.
  intros A B z f l q a Ha.
  assert (G : forall l s a q, (length l <= a)%nat -> nth q (map (fun t => let '(k, x) := t in f k x) (combine (seq s a) l)) z = match nth_error l q with Some x => f (s + q)%nat x | None => z end).
  { clear. induction l as [| x l IH]; intros s a q Ha; [destruct a; cbn; destruct q; reflexivity |].
    destruct a as [| a]; [cbn in Ha; lia |]. cbn [seq combine map]. destruct q as [| q]; cbn [nth nth_error]; [rewrite Nat.add_0_r; reflexivity |].
    rewrite IH by (cbn in Ha; lia). destruct (nth_error l q); auto. f_equal. lia. }
  rewrite (G l 0%nat a q Ha). reflexivity.
Qed.
Lemma nth_mapd : forall (A B : Type) (z : B) (f : A -> B) l q, nth q (map f l) z = match nth_error l q with Some x => f x | None => z end.
Proof. induction l as [| x l IH]; intros [| q]; cbn; auto. Qed.
Lemma all_some_total : forall (A B : Type) (z : B) (f : A -> option B) l ys, all_some (map f l) = Some ys ->
  ys = map (fun x => match f x with Some y => y | None => z end) l /\ forall x, In x l -> f x <> None.
Proof.
  induction l as [| x l IH]; intros ys H; cbn [map all_some] in H; [split; [cbn [map]; congruence | intros ? []] |].
  destruct (f x) as [y |] eqn:Ex; [| discriminate]. destruct (all_some (map f l)) as [r |] eqn:Er; [| discriminate].
  destruct (IH r eq_refl) as [E N]. cbn [map]. rewrite Ex. split; [cbv iota; rewrite <- E; congruence |]. intros w [<- | Hw]; [congruence | auto].
Qed.
Lemma all_some_make : forall (A B : Type) (z : B) (f : A -> option B) l, (forall x, In x l -> f x <> None) ->
  all_some (map f l) = Some (map (fun x => match f x with Some y => y | None => z end) l).
Proof.
  induction l as [| x l IH]; intro H; [reflexivity |]. cbn [map all_some]. pose proof (H x (or_introl eq_refl)). destruct (f x); [| contradiction].
  rewrite IH by (intros; apply H; right; auto). reflexivity.
Qed.
(** reading out the rails *)
Lemma readout : forall (tops : list (list nat)) o (pw : list (nat -> R)),
  concat (map (fun it => let '(i, ts) := it in map (nth (i * 4 + o) pw (fun _ => 0)) ts) (combine (seq 0 (length tops)) tops)) =
  map (fun it => nth (fst it * 4 + o) pw (fun _ => 0) (snd it)) (concat (map (fun it => let '(i, ts) := it in map (pair i) ts) (combine (seq 0 (length tops)) tops))).
Proof.
  intros tops o pw. rewrite concat_map, map_map. f_equal. apply map_ext. intros [i ts]. rewrite map_map. apply map_ext. intro t. reflexivity.
Qed.
(** Any measurement whose taps are affine in the draws and right without them. *)
Section Unbiased.
Context {A : Type}.
Variables (t0 : A -> nat -> R) (t : (draw -> R) -> nat -> nat -> A -> nat -> R).
Hypothesis t_aff : forall q j x r, aff (fun d => t d q j x r).
Hypothesis t_quiet : forall q j x r, t (fun _ => 0) q j x r = t0 x r.
Lemma batch_unbiased : forall (cols : list mesh) (k which e : nat) (one0 : nat -> option (list (nat -> R))) (one : (draw -> R) -> nat -> option (list (nat -> R))) g0,
  (forall j, one0 j <> None -> exists L : list A, one0 j = Some (map (fun x r => t0 x r) L) /\
    forall d, exists a, (length L <= a)%nat /\ one d j = Some (map (fun y => let '(q, x) := y in fun r => t d q j x r) (combine (seq 0 a) L))) ->
  let tops := map (fun nc => map top (nodes nc)) cols in
  let res (o : nat -> option (list (nat -> R))) := obind (all_some (map o (seq 0 k))) (fun pws => Some (localize tops (map (fun s r => Rsum k (fun j => nth s (nth j pws []) (fun _ => 0) r)) (seq 0 (4 * length cols + 2))))) in
  gradient_entry (res one0) which e = Some g0 ->
  exists f, (forall d, gradient_entry (res (one d)) which e = Some (f d)) /\ aff f /\ f (fun _ => 0) = g0.
Proof.
  intros cols k which e one0 one g0 P tops res H. unfold res in *. clear res.
  destruct (all_some (map one0 (seq 0 k))) as [pws0 |] eqn:E0; [| discriminate]. cbn [obind] in H.
  destruct (all_some_total _ _ [] one0 (seq 0 k) pws0 E0) as [Ep N0].
  assert (N1 : forall d j, In j (seq 0 k) -> one d j <> None).
  { intros d j Hj. destruct (P j (N0 j Hj)) as (L & _ & Q). destruct (Q d) as (a & _ & Ea). rewrite Ea. discriminate. }
  set (pws := fun d => map (fun j => match one d j with Some y => y | None => [] end) (seq 0 k)).
  set (T := fun d q r => Rsum k (fun j => nth q (nth j (pws d) []) (fun _ => 0) r)).
  set (T0 := fun q r => Rsum k (fun j => nth q (nth j pws0 []) (fun _ => 0) r)).
  assert (AT : forall q r, aff (fun d => T d q r) /\ T (fun _ => 0) q r = T0 q r).
  { intros q r.
    assert (S : forall j, (j < k)%nat -> aff (fun d => nth q (nth j (pws d) []) (fun _ => 0) r) /\
      nth q (nth j (pws (fun _ => 0)) []) (fun _ => 0) r = nth q (nth j pws0 []) (fun _ => 0) r).
    { intros j Hj. assert (Hin : In j (seq 0 k)) by (apply in_seq; lia). destruct (P j (N0 j Hin)) as (L & EL & Q).
      assert (V : forall d, nth q (nth j (pws d) []) (fun _ => 0) r = match nth_error L q with Some x => t d q j x r | None => 0 end).
      { intro d. unfold pws. rewrite (nth_indep _ [] (match one d 0%nat with Some y => y | None => [] end)) by (rewrite map_length, seq_length; auto).
        rewrite (map_nth (fun j => match one d j with Some y => y | None => [] end)). rewrite seq_nth by auto. cbn [Nat.add].
        destruct (Q d) as (a & Ha & Ea). rewrite Ea.
        rewrite (nth_taps A (nat -> R) (fun _ => 0) (fun q x r => t d q j x r)) by auto. destruct (nth_error L q); reflexivity. }
      assert (V0 : nth q (nth j pws0 []) (fun _ => 0) r = match nth_error L q with Some x => t0 x r | None => 0 end).
      { rewrite Ep. rewrite (nth_indep _ [] (match one0 0%nat with Some y => y | None => [] end)) by (rewrite map_length, seq_length; auto).
        rewrite (map_nth (fun j => match one0 j with Some y => y | None => [] end)). rewrite seq_nth by auto. cbn [Nat.add]. rewrite EL. rewrite nth_mapd.
        destruct (nth_error L q); reflexivity. }
      split.
      - apply (aff_ext _ _ (fun d => eq_sym (V d))). destruct (nth_error L q) as [x |]; [apply t_aff | apply aff_const].
      - rewrite V, V0. clear V V0. destruct (nth_error L q) as [x |]; [apply t_quiet | reflexivity]. }
    split; [apply aff_Rsum; intros; apply S; auto |]. unfold T, T0. apply Rsum_ext. intros j Hj. apply (S j Hj). }
  assert (RR : forall d, obind (all_some (map (one d) (seq 0 k))) (fun pws => Some (localize tops (map (fun s r => Rsum k (fun j => nth s (nth j pws []) (fun _ => 0) r)) (seq 0 (4 * length cols + 2))))) =
    Some (localize tops (map (fun s => T d s) (seq 0 (4 * length cols + 2))))).
  { intro d. rewrite (all_some_make _ _ [] (one d)) by auto. reflexivity. }
  assert (NT : forall (TT : nat -> nat -> R) i, nth i (map TT (seq 0 (4 * length cols + 2))) (fun _ => 0) = if Nat.ltb i (4 * length cols + 2) then TT i else fun _ => 0).
  { intros TT i. destruct (Nat.ltb_spec i (4 * length cols + 2)) as [L | L].
    - rewrite (nth_indep _ (fun _ => 0) (TT 0%nat)) by (rewrite map_length, seq_length; auto). rewrite map_nth, seq_nth by auto. reflexivity.
    - apply nth_overflow. rewrite map_length, seq_length. auto. }
  change (map (fun s r => Rsum k (fun j => nth s (nth j pws0 []) (fun _ => 0) r)) (seq 0 (4 * length cols + 2))) with (map (fun s => T0 s) (seq 0 (4 * length cols + 2))) in H.
  assert (LT : forall (TT : nat -> nat -> R), last (map (fun s => TT s) (seq 0 (4 * length cols + 2))) (fun _ => 0) = TT (4 * length cols + 1)%nat).
  { intro TT. replace (4 * length cols + 2)%nat with (S (4 * length cols + 1)) by lia. rewrite seq_S, map_app. cbn [map]. rewrite last_last. reflexivity. }
  set (pos := concat (map (fun it => let '(i, ts) := it in map (pair i) ts) (combine (seq 0 (length tops)) tops))).
  assert (RD : forall o (TT : nat -> nat -> R), nth_error (concat (map (fun it => let '(i, ts) := it in map (nth (i * 4 + o) (map TT (seq 0 (4 * length cols + 2))) (fun _ => 0)) ts) (combine (seq 0 (length tops)) tops))) e =
    match nth_error pos e with Some (i, w0) => Some (if Nat.ltb (i * 4 + o) (4 * length cols + 2) then TT (i * 4 + o)%nat w0 else 0) | None => None end).
  { intros o TT. rewrite readout. fold pos. rewrite nth_error_map. destruct (nth_error pos e) as [[i w0] |]; [| reflexivity]. cbn [option_map fst snd]. rewrite NT. destruct (Nat.ltb _ _); reflexivity. }
  assert (GG : forall (TT : nat -> nat -> R), gradient_entry (Some (localize tops (map (fun s => TT s) (seq 0 (4 * length cols + 2))))) which e =
    match which with
    | 0%nat => match nth_error pos e with Some (i, w0) => Some (if Nat.ltb (i * 4 + 2) (4 * length cols + 2) then TT (i * 4 + 2)%nat w0 else 0) | None => None end
    | 1%nat => match nth_error pos e with Some (i, w0) => Some (if Nat.ltb (i * 4 + 0) (4 * length cols + 2) then TT (i * 4 + 0)%nat w0 else 0) | None => None end
    | _ => Some (TT (4 * length cols + 1)%nat e)
    end).
  { intro TT. unfold localize, gradient_entry. destruct which as [| [| w]]; [apply (RD 2%nat) | apply (RD 0%nat) |]. f_equal. rewrite LT. reflexivity. }
  rewrite (GG T0) in H.
  set (f := fun d => match which with
    | 0%nat => match nth_error pos e with Some (i, w0) => if Nat.ltb (i * 4 + 2) (4 * length cols + 2) then T d (i * 4 + 2)%nat w0 else 0 | None => 0 end
    | 1%nat => match nth_error pos e with Some (i, w0) => if Nat.ltb (i * 4 + 0) (4 * length cols + 2) then T d (i * 4 + 0)%nat w0 else 0 | None => 0 end
    | _ => T d (4 * length cols + 1)%nat e
    end).
  exists f. split; [| split].
  - intro d. rewrite (RR d). rewrite (GG (T d)). unfold f. destruct which as [| [| w]]; auto; destruct (nth_error pos e) as [[i w0] |]; auto; discriminate.
  - unfold f. destruct which as [| [| w]]; [| | apply AT]; (destruct (nth_error pos e) as [[i w0] |]; [| apply aff_const]); destruct (Nat.ltb _ _); try apply aff_const; apply AT.
  - unfold f. destruct which as [| [| w]].
    + destruct (nth_error pos e) as [[i w0] |]; [| discriminate]. destruct (Nat.ltb _ _); [rewrite (proj2 (AT _ _)) |]; congruence.
    + destruct (nth_error pos e) as [[i w0] |]; [| discriminate]. destruct (Nat.ltb _ _); [rewrite (proj2 (AT _ _)) |]; congruence.
    + rewrite (proj2 (AT _ _)). congruence.
Qed.
End Unbiased.
Definition noisy_of (m : mesh) (p : params) (k : nat) (X G : mat) (shot : R) (ra rp : nat -> nat -> R) (d : draw -> R) :=
  in_situ_bwd_noisy m p k X G 0 0 shot ra rp (fun q r j => d (0%nat, q, r, j)) (fun q r j => d (1%nat, q, r, j)).
Lemma shot_unbiased : forall m p k X G shot ra rp which e g0,
  gradient_entry (in_situ_bwd_batch m p k X G) which e = Some g0 ->
  exists f, (forall d, gradient_entry (noisy_of m p k X G shot ra rp d) which e = Some (f d)) /\ aff f /\ f (fun _ => 0) = g0.
Proof.
  intros m p k X G shot ra rp which e g0 H. unfold noisy_of, in_situ_bwd_noisy. unfold in_situ_bwd_batch in H. cbv zeta in *.
  destruct (columns m) as [cols |]; [| discriminate]. cbn [obind] in *.
  set (inorm := max_row_norm (n_rails m) k X) in *. set (gnorm := max_row_norm (n_rails m) k G) in *.
  refine (batch_unbiased (fun sd r => let '(u, v) := sd : vec * vec in tap inorm gnorm (u r) (v r))
    (fun d q j sd r => let '(u, v) := sd : vec * vec in tap_noisy inorm gnorm shot (d (0%nat, q, r, j)) (d (1%nat, q, r, j)) (u r) (v r))
    (fun q j sd r => _) (fun q j sd r => _) cols k which e _
    (fun d j => obind (matrix_fn m true p (vscal (/ gnorm) (fun i => G i j))) (fun a0 =>
    obind (propagate m false true p (vaxpy (vscal (/ inorm) (fun i => X i j)) (- Ci)%C (vconj (fun i => noisy 0 0 (ra i j) (rp i j) (a0 i))))) (fun s =>
    obind (propagate m false true p (vaxpy (vscal (/ inorm) (fun i => X i j)) Ci (vconj (fun i => noisy 0 0 (ra i j) (rp i j) (a0 i))))) (fun dd =>
    Some (map (fun t => let '(q, (u, v)) := t in fun r => tap_noisy inorm gnorm shot (d (0%nat, q, r, j)) (d (1%nat, q, r, j)) (u r) (v r)) (combine (seq 0 (length s)) (combine s dd))))))) g0 _ H).
  - destruct sd as [u v]. apply tap_aff.
  - destruct sd as [u v]. apply tap_quiet.
  - intros j Hj. destruct (matrix_fn m true p (vscal (/ gnorm) (fun i => G i j))) as [a0 |]; [| contradiction]. cbn [obind] in *.
    replace (fun i => noisy 0 0 (ra i j) (rp i j) (a0 i)) with a0 by (apply functional_extensionality; intro; symmetry; apply noisy_none).
    destruct (propagate m false true p (vaxpy (vscal (/ inorm) (fun i => X i j)) (- Ci)%C (vconj a0))) as [s |]; [| contradiction]. cbn [obind] in *.
    destruct (propagate m false true p (vaxpy (vscal (/ inorm) (fun i => X i j)) Ci (vconj a0))) as [dd |]; [| contradiction]. cbn [obind] in *.
    exists (combine s dd). split; [f_equal; apply map_ext; intros [u v]; reflexivity |]. intro d. exists (length s). split; [rewrite combine_length; lia |].
    f_equal. apply map_ext. intros [q [u v]]. reflexivity.
Qed.
Lemma digital_aff : forall c d shot u f b i1 i2 i3, aff (fun D => tap_digital_noisy c d shot (D i1) (D i2) (D i3) u f b).
Proof.
  intros c d shot u f b i1 i2 i3.
  apply (aff_ext (fun D => (Cn2 u - Cn2 f - Cn2 b) / 2 * (c * d) + ((shot * Cabs u / 2 * (c * d)) * D i1 + ((- shot * Cabs f / 2 * (c * d)) * D i2 + (- shot * Cabs b / 2 * (c * d)) * D i3)))); [intro D; unfold tap_digital_noisy; field |].
  apply aff_add; [apply aff_const |]. apply aff_add; [apply aff_scal, aff_draw |]. apply aff_add; apply aff_scal, aff_draw.
Qed.
Lemma digital_quiet : forall c d shot u f b, tap_digital_noisy c d shot 0 0 0 u f b = tap_digital c d u f b.
Proof. intros. unfold tap_digital_noisy, tap_digital. field. Qed.
Lemma digital_unbiased : forall m p k X G shot which e g0,
  gradient_entry (in_situ_bwd_digital_batch m p k X G) which e = Some g0 ->
  exists f, (forall d, gradient_entry (in_situ_bwd_digital_noisy m p k X G shot (fun q r j => d (0%nat, q, r, j)) (fun q r j => d (1%nat, q, r, j)) (fun q r j => d (2%nat, q, r, j))) which e = Some (f d)) /\ aff f /\ f (fun _ => 0) = g0.
Proof.
  intros m p k X G shot which e g0 H. unfold in_situ_bwd_digital_noisy. unfold in_situ_bwd_digital_batch in H. cbv zeta in *.
  destruct (columns m) as [cols |]; [| discriminate]. cbn [obind] in *.
  set (inorm := max_row_norm (n_rails m) k X) in *. set (gnorm := max_row_norm (n_rails m) k G) in *.
  refine (batch_unbiased (fun sd r => let '(u, (f, b)) := sd : vec * (vec * vec) in tap_digital inorm gnorm (u r) (f r) (b r))
    (fun d q j sd r => let '(u, (f, b)) := sd : vec * (vec * vec) in tap_digital_noisy inorm gnorm shot (d (0%nat, q, r, j)) (d (1%nat, q, r, j)) (d (2%nat, q, r, j)) (u r) (f r) (b r))
    (fun q j sd r => _) (fun q j sd r => _) cols k which e _
    (fun d j => digital_taps_noisy m p inorm gnorm shot (vscal (/ inorm) (fun i => X i j)) (vscal (/ gnorm) (fun i => G i j)) (fun q r => d (0%nat, q, r, j)) (fun q r => d (1%nat, q, r, j)) (fun q r => d (2%nat, q, r, j))) g0 _ H).
  - destruct sd as [u [f b]]. apply digital_aff.
  - destruct sd as [u [f b]]. apply digital_quiet.
  - intros j Hj. unfold digital_taps_noisy, digital_taps in *.
    destruct (propagate m false true p (vscal (/ inorm) (fun i => X i j))) as [fw |]; [| contradiction]. cbn [obind] in *.
    destruct (propagate m true true p (vscal (/ gnorm) (fun i => G i j))) as [bw |]; [| contradiction]. cbn [obind] in *.
    destruct (propagate m false true p (vaxpy (vscal (/ inorm) (fun i => X i j)) (- Ci)%C (vconj (hd (fun _ => C0) (rev bw))))) as [s |]; [| contradiction]. cbn [obind fst] in *.
    exists (combine s (combine fw (rev bw))). split; [f_equal; apply map_ext; intros [u [f b]]; reflexivity |]. intro d. exists (length s). split; [rewrite combine_length; lia |].
    f_equal. apply map_ext. intros [q [u [f b]]]. reflexivity.
Qed.
Lemma digital_mean : forall E m p k X G shot which e g0, centred E ->
  gradient_entry (in_situ_bwd_digital_batch m p k X G) which e = Some g0 ->
  exists f, (forall d, gradient_entry (in_situ_bwd_digital_noisy m p k X G shot (fun q r j => d (0%nat, q, r, j)) (fun q r j => d (1%nat, q, r, j)) (fun q r j => d (2%nat, q, r, j))) which e = Some (f d)) /\ E f = g0.
Proof.
  intros E m p k X G shot which e g0 HE H. destruct (digital_unbiased m p k X G shot which e g0 H) as (f & Hf & A & Z).
  exists f. split; [exact Hf |]. rewrite (aff_mean E f HE A). exact Z.
Qed.
Lemma digital_no_noise : forall m p k X G r1 r2 r3 which e g0, gradient_entry (in_situ_bwd_digital_batch m p k X G) which e = Some g0 ->
  gradient_entry (in_situ_bwd_digital_noisy m p k X G 0 r1 r2 r3) which e = Some g0.
Proof.
  intros m p k X G r1 r2 r3 which e g0 H. destruct (digital_unbiased m p k X G 0 which e g0 H) as (f & Hf & _ & Z).
  rewrite <- Z, <- (Hf (fun _ => 0)). f_equal. unfold in_situ_bwd_digital_noisy, digital_taps_noisy, tap_digital_noisy.
  destruct (columns m) as [cols |]; [| reflexivity]. cbn [obind]. f_equal. f_equal. apply map_ext. intro j.
  destruct (propagate _ _ _ _ _); [| reflexivity]. cbn [obind]. destruct (propagate _ _ _ _ _); [| reflexivity]. cbn [obind]. destruct (propagate _ _ _ _ _); [| reflexivity]. cbn [obind].
  f_equal. apply map_ext. intros [q [uu [vv ww]]]. apply functional_extensionality. intro r. rewrite !Rmult_0_l. reflexivity.
Qed.

Lemma layer_start : forall act m p z db dl ra rp x, wf_mesh m -> fresh m -> exists m' y, layer_mesh m 0 db dl = Some m' /\
  layer_call act m' (layer_params p z) 0 0 ra rp x = Some (act y) /\
  forall b, exists w, matrix_fn m false (mkParams (thetas p) (phis p) (if z then fun _ => 0 else gammas p)) (x b) = Some w /\ forall i, (i < n_rails m)%nat -> y b i = w i.
Proof.
  intros act m p z db dl ra rp x W F. destruct (C106_error_variance m 0 0 true db dl W F) as (m' & E & W' & _ & _ & En & _ & _ & _ & _ & S).
  destruct (layer_exact act m' (layer_params p z) ra rp x W') as (y & Ey & Hy). exists m', y. split; [exact E |]. split; [exact Ey |].
  intro b. destruct (Hy b) as (w & Ew & V). exists w. rewrite (S eq_refl eq_refl) in Ew. split; [exact Ew |]. rewrite <- En. exact V.
Qed.
Lemma shot_mean : forall E m p k X G shot ra rp which e g0, centred E ->
  gradient_entry (in_situ_bwd_batch m p k X G) which e = Some g0 ->
  exists f, (forall d, gradient_entry (in_situ_bwd_noisy m p k X G 0 0 shot ra rp (fun q r j => d (0%nat, q, r, j)) (fun q r j => d (1%nat, q, r, j))) which e = Some (f d)) /\ E f = g0.
Proof.
  intros E m p k X G shot ra rp which e g0 HE H. destruct (shot_unbiased m p k X G shot ra rp which e g0 H) as (f & Hf & A & Z).
  exists f. split; [exact Hf |]. rewrite (aff_mean E f HE A). exact Z.
Qed.
Lemma no_noise_same : forall m p k X G ra rp r1 r2 which e g0, gradient_entry (in_situ_bwd_batch m p k X G) which e = Some g0 ->
  gradient_entry (in_situ_bwd_noisy m p k X G 0 0 0 ra rp r1 r2) which e = Some g0.
Proof.
  intros m p k X G ra rp r1 r2 which e g0 H. destruct (shot_unbiased m p k X G 0 ra rp which e g0 H) as (f & Hf & _ & Z).
  rewrite <- Z, <- (Hf (fun _ => 0)). unfold noisy_of. f_equal. unfold in_situ_bwd_noisy, tap_noisy.
  destruct (columns m) as [cols |]; [| reflexivity]. cbn [obind]. f_equal. f_equal. apply map_ext. intro j.
  destruct (matrix_fn _ _ _ _); [| reflexivity]. cbn [obind]. destruct (propagate _ _ _ _ _); [| reflexivity]. cbn [obind]. destruct (propagate _ _ _ _ _); [| reflexivity]. cbn [obind].
  f_equal. apply map_ext. intros [q [uu vv]]. apply functional_extensionality. intro r. rewrite !Rmult_0_l. reflexivity.
Qed.

Lemma fresh_noise : exists m p amp (d : nat -> nat -> nat -> R) x, wf_mesh m /\
  layer_call (fun y => y) m p amp 0 (draws_of_call false d 1) no_noise x <> layer_call (fun y => y) m p amp 0 (draws_of_call false d 0) no_noise x.
Proof.
  set (m := mesh3 TOP). set (p := mkParams (fun _ => 1) (fun _ => 2) (fun _ => 0)). exists m, p, 1, (fun k _ _ => match k with 0%nat => 0 | _ => -1 end), (fun _ => basis 0%nat).
  destruct (mesh3_wf TOP) as (_ & W & L & _). fold m in W, L. split; [exact W |]. intro E.
  assert (E0 : layer_call (fun y => y) m p 1 0 (draws_of_call false (fun k _ _ => match k with 0%nat => 0 | _ => -1 end) 0) no_noise (fun _ => basis 0%nat) =
               layer_call (fun y => y) m p 0 0 no_noise no_noise (fun _ => basis 0%nat)).
  { unfold layer_call, noisy_matrix, draws_of_call, no_noise. unfold noisy. rewrite !Rmult_0_l, !Rmult_0_r. reflexivity. }
  rewrite E0 in E. clear E0. destruct (layer_exact (fun y => y) m p no_noise no_noise (fun _ => basis 0%nat) W) as (y & Ey & Hy). rewrite Ey in E.
  destruct (Hy 0%nat) as (z & Ez & V). pose proof (C03_power_conserved _ _ _ _ _ (proj1 W) L Ez) as P.
  assert (Y0 : forall b i, y b i = C0).
  { unfold layer_call, noisy_matrix, draws_of_call in E. destruct (C05_matrix m false p _ z (proj1 W) Ez) as (U & HU & _). rewrite HU in E. cbn [option_map] in E.
    intros b i. assert (Q : (fun (b i : nat) => Csum (n_rails m) (fun j => (match option_map (noisy 1 0 (-1) (no_noise i j)) (matrix m false p i j) with Some z => z | None => C0 end) * basis 0%nat j)%C) = y) by congruence.
    rewrite <- Q. apply Csum_0. intros j _. rewrite HU. cbn [option_map].
    assert (N : noisy 1 0 (-1) (no_noise i j) (U i j) = C0) by (apply Cn2_zero_iff; rewrite noisy_power; ring). rewrite N. ring. }
  assert (Pz : power (n_rails m) z = 0) by (unfold power; apply Rsum_0; intros i Hi; rewrite <- V, Y0 by auto; apply Cn2_C0).
  rewrite Pz in P. unfold m in P. cbn [mesh3 n_rails] in P. unfold power, basis, delta in P. cbn [Rsum Nat.eqb] in P. unfold Cn2, C1, C0, RtoC in P. cbn [re im] in P. lra.
Qed.
Lemma variance_length : forall m bs ls eq db dl m', wf_mesh m -> fresh m -> add_error_variance m bs ls eq db dl = Some m' -> length (nodes m') = length (nodes m).
Proof.
  intros m bs ls eq db dl m' W F E. pose proof F as (EB & EL & Rg & P). unfold add_error_variance, add_error_mean in E. cbv zeta in E.
  rewrite EB, EL, !map_length in E.
  set (err := fun i => perturb bs (nth i (map bs_error (nodes m)) (0%R, 0%R)) (if eq then (fst (db i), fst (db i)) else db i)) in E.
  set (lf := fun i => perturb ls (nth i (map loss (nodes m)) (0%R, 0%R)) (dl i)) in E.
  change (map (fun i => perturb bs (nth i (map bs_error (nodes m)) (0%R, 0%R)) (if eq then (fst (db i), fst (db i)) else db i))) with (map err) in E.
  change (map (fun i => perturb ls (nth i (map loss (nodes m)) (0%R, 0%R)) (dl i))) with (map lf) in E.
  rewrite combine_err in E. set (l' := map _ (combine _ _)) in E.
  destruct (rewire m l' W F) as (m2 & E1 & EN & _).
  { unfold l'. rewrite map_map. rewrite <- (map_ix _ _ (fun nd => (node_id nd, top nd, bottom nd, column nd, n_of nd)) (nodes m) 0). reflexivity. }
  assert (Q : m' = m2) by congruence. rewrite Q, EN. unfold l'. rewrite map_length, combine_length, seq_length. apply Nat.min_id.
Qed.
Lemma layer_losses : forall m ls db dl, wf_mesh m -> fresh m -> exists m', layer_mesh m ls db dl = Some m' /\ wf_mesh m' /\ style m' = style m /\ n_rails m' = n_rails m /\
  num_columns m' = num_columns m /\ length (nodes m') = length (nodes m) /\
  forall i nd, nth_error (nodes m) i = Some nd -> exists nd', nth_error (nodes m') i = Some nd' /\
    (node_id nd', top nd', bottom nd', column nd') = (node_id nd, top nd, bottom nd, column nd) /\ bs_error nd' = bs_error nd /\
    loss nd' = (fst (loss nd) + ls * fst (dl i), snd (loss nd) + ls * snd (dl i)).
Proof.
  intros m ls db dl W F. destruct (C106_error_variance m 0 ls true db dl W F) as (m' & E & W' & _ & Es & En & Ec & H & _).
  exists m'. split; [exact E |]. split; [exact W' |]. split; [exact Es |]. split; [exact En |]. split; [exact Ec |].
  split; [exact (variance_length m 0 ls true db dl m' W F E) |].
  intros i nd Hi. destruct (H i nd Hi) as (nd' & Hn & Hw & Hb & Hl). exists nd'. split; [exact Hn |]. split; [exact Hw |]. split; [| exact Hl].
  rewrite Hb, !Rmult_0_l, !Rplus_0_r. destruct (bs_error nd); reflexivity.
Qed.
