(** Noise on the adjoint inputs of the in situ gradient (C151). *)
From Coq Require Import Reals Lra Lia List ZArith Bool FunctionalExtensionality.
From Verif Require Import Cx Arr Spec_circuit Model_coupling Model_forward Model_insitu Model_insitu2 Model_meshops Spec_mesh Proof_mesh Proof_forward Proof_forward2
  Proof_forward3 Proof_forward4 Proof_local Spec_insitu Proof_vector Proof_insitu Proof_insitu2 Proof_insitu3 Proof_insitu5 Model_layer Spec_layer Proof_layer.
Import ListNotations.
Local Open Scope R_scope.

(** ** Slices are linear and local *)
Definition sl_of (m : mesh) (p : params) (q : nat) (v : vec) : vec := match propagate m false true p v with Some s => nth q s (fun _ => C0) | None => fun _ => C0 end.
Lemma slices_lin : forall m p x z y, wf_mesh m -> style m = TOP \/ style m = BOTTOM ->
  exists sx sy, propagate m false true p x = Some sx /\ propagate m false true p y = Some sy /\ length sx = length sy /\
    propagate m false true p (vaxpy x z y) = Some (map (fun ab => vaxpy (fst ab) z (snd ab)) (combine sx sy)).
Proof.
  intros m p x z y Hwf Hs. destruct (wf_total m Hwf) as (cols & Hc & Hok). pose proof Hwf as (Hd & _).
  pose proof (mesh_idxs_nodup m false cols Hd Hc) as HF. pose proof (Hok false) as Hf. unfold mesh_idxs in *.
  destruct (slices_axpy (style m) p (fun k => parallel_dc false (err_at m k) (loss_at m k)) (fun k => parallel_dc true (err_at m k) (loss_at m k)) Hs
     (map triples cols) x z y HF) as (sx & sy & E1 & E2 & E3 & E4 & E5).
  unfold propagate. rewrite Hc. cbn [obind]. rewrite Hf. cbn [last]. rewrite E1, E2, E4. cbn [obind].
  eexists. eexists. split; [reflexivity |]. split; [reflexivity |]. split; [cbn [List.app length]; rewrite !app_length; cbn [length]; lia |].
  f_equal. cbn [List.app combine map fst snd]. f_equal. rewrite combine_snoc by auto. rewrite map_app. cbn [map fst snd]. rewrite E5, gammas_axpy. reflexivity.
Qed.
Lemma nth_combine_axpy : forall z (sx sy : list vec) q r, length sx = length sy ->
  nth q (map (fun ab => vaxpy (fst ab) z (snd ab)) (combine sx sy)) (fun _ => C0) r = (nth q sx (fun _ => C0) r + z * nth q sy (fun _ => C0) r)%C.
Proof.
  intros z sx. induction sx as [| a sx IH]; intros [| b sy] q r H; cbn [length] in H; try discriminate.
  - destruct q; cbn; ring.
  - destruct q; cbn [combine map nth fst snd]; [reflexivity |]. apply IH. lia.
Qed.
Lemma sl_axpy : forall m p q x z y r, wf_mesh m -> style m = TOP \/ style m = BOTTOM ->
  sl_of m p q (vaxpy x z y) r = (sl_of m p q x r + z * sl_of m p q y r)%C.
Proof.
  intros m p q x z y r W S. destruct (slices_lin m p x z y W S) as (sx & sy & E1 & E2 & L & E3). unfold sl_of. rewrite E1, E2, E3. apply nth_combine_axpy; auto.
Qed.
Lemma explicit_agree : forall n s p left right idxs, s = TOP \/ s = BOTTOM -> Forall (fun i => NoDup (rails i)) idxs ->
  (forall i, In i idxs -> forall t b k, In (t, b, k) i -> (t < n)%nat /\ (b < n)%nat) ->
  forall x y, agree (fun i => (i < n)%nat) x y -> exists sx sy, prop_explicit s false p left right idxs x = Some sx /\ prop_explicit s false p left right idxs y = Some sy /\
    length sx = length sy /\ (forall q, agree (fun i => (i < n)%nat) (nth q sx (fun _ => C0)) (nth q sy (fun _ => C0))) /\
    agree (fun i => (i < n)%nat) (last sx x) (last sy y).
Proof.
  intros n s p left right idxs Hs. induction idxs as [| i idxs IH]; intros HF HB x y A.
  - exists [], []. repeat split; auto.
  - inversion HF; subst. cbn [prop_explicit]. unfold parallel_propagate. rewrite !multiply_transform by auto. cbn [obind].
    rewrite !multiply_transform by auto. cbn [obind last].
    assert (St : forall el u v, agree (fun i => (i < n)%nat) u v -> agree (fun i => (i < n)%nat) (parallel_transform el i u) (parallel_transform el i v)).
    { intros el u v Huv. apply pt_agree; auto. intros t b k Hin. destruct (HB i (or_introl eq_refl) t b k Hin). split; [tauto | auto]. }
    set (x1 := parallel_transform _ i x). set (y1 := parallel_transform _ i y). assert (A1 : agree (fun i => (i < n)%nat) x1 y1) by (apply St; auto).
    set (x2 := parallel_transform _ i x1). set (y2 := parallel_transform _ i y1). assert (A2 : agree (fun i => (i < n)%nat) x2 y2) by (apply St; auto).
    set (x3 := parallel_transform _ i x2). set (y3 := parallel_transform _ i y2). assert (A3 : agree (fun i => (i < n)%nat) x3 y3) by (apply St; auto).
    set (x4 := parallel_transform _ i x3). set (y4 := parallel_transform _ i y3). assert (A4 : agree (fun i => (i < n)%nat) x4 y4) by (apply St; auto).
    destruct (IH H2 (fun j Hj => HB j (or_intror Hj)) x4 y4 A4) as (sx & sy & E1 & E2 & L & Q & La).
    rewrite E1, E2. cbn [obind]. eexists. eexists. split; [reflexivity |]. split; [reflexivity |]. split; [cbn [List.app length]; lia |].
    split.
    + intro q. cbn [List.app]. do 4 (destruct q as [| q]; [cbn [nth]; assumption |]). cbn [nth]. apply Q.
    + cbn [List.app]. rewrite !last_cons'. exact La.
Qed.
Lemma sl_local : forall m p q x y, wf_mesh m -> style m = TOP \/ style m = BOTTOM ->
  (forall i, (i < n_rails m)%nat -> x i = y i) -> forall r, (r < n_rails m)%nat -> sl_of m p q x r = sl_of m p q y r.
Proof.
  intros m p q x y Hwf Hs A r Hr. destruct (wf_total m Hwf) as (cols & Hc & Hok). pose proof Hwf as (Hd & Hb & Hnd & _).
  pose proof (mesh_idxs_nodup m false cols Hd Hc) as HF. pose proof (Hok false) as Hf. unfold mesh_idxs in *.
  destruct (explicit_agree (n_rails m) (style m) p (fun k => parallel_dc false (err_at m k) (loss_at m k)) (fun k => parallel_dc true (err_at m k) (loss_at m k)) (map triples cols) Hs HF) with (x := x) (y := y)
    as (sx & sy & E1 & E2 & L & Q & La); [| exact A |].
  { intros i Hi t b k Hin. apply in_map_iff in Hi. destruct Hi as (mc & <- & Hmc). destruct (col_nodes m cols Hnd Hc mc t b k Hmc Hin) as (nd & Hn & <- & <- & _).
    destruct (Hb nd Hn) as (B1 & B2 & _). auto. }
  unfold sl_of, propagate. rewrite Hc. cbn [obind]. rewrite Hf. cbn [last]. rewrite E1, E2. cbn [obind List.app].
  assert (G : agree (fun i => (i < n_rails m)%nat) (apply_gammas (gammas p) (last sx x)) (apply_gammas (gammas p) (last sy y))).
  { intros i Hi. unfold apply_gammas. rewrite (La i Hi). reflexivity. }
  destruct q as [| q]; cbn [nth]; [apply A; auto |].
  destruct (Nat.lt_ge_cases q (length sx)) as [Hq | Hq].
  - rewrite !app_nth1 by lia. apply Q; auto.
  - rewrite !app_nth2 by lia. rewrite <- L. destruct (q - length sx)%nat as [| k]; cbn [nth]; [apply G; auto | destruct k; reflexivity].
Qed.
Lemma sl_expand : forall m p q v r, wf_mesh m -> style m = TOP \/ style m = BOTTOM -> (r < n_rails m)%nat ->
  sl_of m p q v r = Csum (n_rails m) (fun i => v i * sl_of m p q (basis i) r)%C.
Proof.
  intros m p q v r W S Hr.
  assert (Z : sl_of m p q (fun _ => C0) r = C0).
  { pose proof (sl_axpy m p q (fun _ => C0) C1 (fun _ => C0) r W S) as H. 
    assert (E : vaxpy (fun _ => C0) C1 (fun _ => C0) = fun _ => C0) by (apply functional_extensionality; intro; unfold vaxpy; ring). rewrite E in H.
    set (a := sl_of m p q (fun _ => C0) r) in *. replace a with (a + C1 * a - a)%C by ring. rewrite <- H. ring. }
  assert (G : forall k, sl_of m p q (fun i => if Nat.ltb i k then v i else C0) r = Csum k (fun i => v i * sl_of m p q (basis i) r)%C).
  { induction k as [| k IH]; [exact Z |]. cbn [Csum]. rewrite <- IH.
    rewrite <- (sl_axpy m p q _ (v k) (basis k) r W S). f_equal. apply functional_extensionality. intro i. unfold vaxpy, basis, delta.
    destruct (Nat.eqb_spec i k) as [-> | N].
    - rewrite (proj2 (Nat.ltb_lt k (Datatypes.S k)) (Nat.lt_succ_diag_r k)), Nat.ltb_irrefl. ring.
    - destruct (Nat.ltb_spec i k), (Nat.ltb_spec i (Datatypes.S k)); try lia; ring. }
  rewrite <- G. apply sl_local; auto. intros i Hi. rewrite (proj2 (Nat.ltb_lt _ _) Hi). reflexivity.
Qed.
(** ** One tap *)
Lemma tap_value : forall m p c d x y q r, wf_mesh m -> style m = TOP \/ style m = BOTTOM -> (r < n_rails m)%nat ->
  exists s dd, propagate m false true p (vaxpy x (- Ci)%C (vconj y)) = Some s /\ propagate m false true p (vaxpy x Ci (vconj y)) = Some dd /\
    nth q (map (fun sd => let '(u, v) := sd : vec * vec in fun r => tap c d (u r) (v r)) (combine s dd)) (fun _ => 0) r =
    Rsum (n_rails m) (fun i => re (RtoC (c * d) * (Ci * (sl_of m p q x r * Cconj (sl_of m p q (basis i) r))) * y i)%C).
Proof.
  intros m p c d x y q r W S Hr. destruct (slices_lin m p x (- Ci)%C (vconj y) W S) as (sx & sy & E1 & E2 & L & E3).
  destruct (slices_lin m p x Ci (vconj y) W S) as (sx' & sy' & E1' & E2' & _ & E4).
  assert (sx' = sx) by congruence. assert (sy' = sy) by congruence. subst sx' sy'. eexists. eexists. split; [exact E3 |]. split; [exact E4 |].
  assert (V : forall sx sy : list vec, length sx = length sy -> forall q, nth q (map (fun sd => let '(u, v) := sd : vec * vec in fun r => tap c d (u r) (v r))
     (combine (map (fun ab => vaxpy (fst ab) (- Ci)%C (snd ab)) (combine sx sy)) (map (fun ab => vaxpy (fst ab) Ci (snd ab)) (combine sx sy)))) (fun _ => 0) r =
     - im (nth q sx (fun _ => C0) r * Cconj (nth q sy (fun _ => C0) r))%C * (c * d)).
  { clear. intros sx. induction sx as [| a sx IH]; intros [| b sy] L q; cbn [length] in L; try discriminate.
    - destruct q; cbn; ring.
    - destruct q; cbn [combine map nth fst snd].
      + unfold tap, vaxpy. rewrite meas_im. reflexivity.
      + apply IH. lia. }
  rewrite (V sx sy L q). pose proof (sl_expand m p q (vconj y) r W S Hr) as X. unfold sl_of at 1 in X. rewrite E2 in X. rewrite X.
  assert (F : nth q sx (fun _ => C0) r = sl_of m p q x r) by (unfold sl_of; rewrite E1; reflexivity). rewrite F. clear.
  set (f := sl_of m p q x r). generalize (n_rails m). intro n. induction n as [| n IH].
  - cbn. ring.
  - cbn [Csum Rsum]. rewrite <- IH. set (A := Csum n _). set (b := sl_of m p q (basis n) r). unfold vconj. destruct f, A, b, (y n). cbn. ring.
Qed.
(** ** Where an entry of the gradient is read *)
Lemma entry_read : forall (cols : list mesh) which e, exists loc : option (option (nat * nat)),
  (forall q r, loc = Some (Some (q, r)) -> (exists nc nd, In nc cols /\ In nd (nodes nc) /\ r = top nd) \/ (2 <= which)%nat /\ r = e) /\
  forall k (pws : list (list (nat -> R))),
  gradient_entry (Some (localize (map (fun nc => map top (nodes nc)) cols) (map (fun s r => Rsum k (fun j => nth s (nth j pws []) (fun _ => 0) r)) (seq 0 (4 * length cols + 2))))) which e =
  match loc with None => None | Some None => Some 0 | Some (Some (q, r)) => Some (Rsum k (fun j => nth q (nth j pws []) (fun _ => 0) r)) end.
Proof.
  intros cols which e. set (tops := map (fun nc => map top (nodes nc)) cols).
  set (pos := concat (map (fun it => let '(i, ts) := it in map (pair i) ts) (combine (seq 0 (length tops)) tops))).
  set (N := (4 * length cols + 2)%nat).
  assert (NT : forall (TT : nat -> nat -> R) i, nth i (map TT (seq 0 N)) (fun _ => 0) = if Nat.ltb i N then TT i else fun _ => 0).
  { intros TT i. destruct (Nat.ltb_spec i N) as [L | L].
    - rewrite (nth_indep _ (fun _ => 0) (TT 0%nat)) by (rewrite map_length, seq_length; auto). rewrite map_nth, seq_nth by auto. reflexivity.
    - apply nth_overflow. rewrite map_length, seq_length. auto. }
  assert (LT : forall (TT : nat -> nat -> R), last (map (fun s => TT s) (seq 0 N)) (fun _ => 0) = TT (4 * length cols + 1)%nat).
  { intro TT. unfold N. replace (4 * length cols + 2)%nat with (S (4 * length cols + 1)) by lia. rewrite seq_S, map_app. cbn [map]. rewrite last_last. reflexivity. }
  assert (RD : forall o (TT : nat -> nat -> R), nth_error (concat (map (fun it => let '(i, ts) := it in map (nth (i * 4 + o) (map TT (seq 0 N)) (fun _ => 0)) ts) (combine (seq 0 (length tops)) tops))) e =
    match nth_error pos e with Some (i, w) => Some (if Nat.ltb (i * 4 + o) N then TT (i * 4 + o)%nat w else 0) | None => None end).
  { intros o TT. rewrite readout. fold pos. rewrite nth_error_map. destruct (nth_error pos e) as [[i w] |]; [| reflexivity]. cbn [option_map fst snd]. rewrite NT. destruct (Nat.ltb _ _); reflexivity. }
  assert (PI : forall i w, nth_error pos e = Some (i, w) -> exists nc nd, In nc cols /\ In nd (nodes nc) /\ w = top nd).
  { intros i w H. apply nth_error_In in H. unfold pos in H. apply in_concat in H. destruct H as (l & Hl & Hin). apply in_map_iff in Hl. destruct Hl as ([k ts] & <- & Hc).
    apply in_map_iff in Hin. destruct Hin as (w' & Ew & Hw). assert (w' = w) by congruence. subst w'. apply in_combine_r in Hc. unfold tops in Hc. apply in_map_iff in Hc.
    destruct Hc as (nc & <- & Hnc). apply in_map_iff in Hw. destruct Hw as (nd & <- & Hnd). eauto. }
  set (at_ := fun o => match nth_error pos e with Some (i, w) => Some (if Nat.ltb (i * 4 + o) N then Some ((i * 4 + o)%nat, w) else None) | None => None end).
  assert (AP : forall o q r, at_ o = Some (Some (q, r)) -> exists nc nd, In nc cols /\ In nd (nodes nc) /\ r = top nd).
  { intros o q r H. unfold at_ in H. destruct (nth_error pos e) as [[i w] |]; [| discriminate]. destruct (Nat.ltb _ _); [| discriminate]. apply (PI i). congruence. }
  exists (match which with 0%nat => at_ 2%nat | 1%nat => at_ 0%nat | _ => Some (Some ((4 * length cols + 1)%nat, e)) end). split.
  - intros q r H. destruct which as [| [| w]]; [left; eapply AP; exact H | left; eapply AP; exact H |]. right. split; [lia | congruence].
  - intros k pws. unfold localize, gradient_entry. set (TT := fun s r => Rsum k (fun j => nth s (nth j pws []) (fun _ => 0) r)).
    change (map (fun s r => Rsum k (fun j => nth s (nth j pws []) (fun _ => 0) r)) (seq 0 N)) with (map TT (seq 0 N)).
    destruct which as [| [| w]].
    + rewrite (RD 2%nat TT). unfold at_. destruct (nth_error pos e) as [[i w] |]; [| reflexivity]. destruct (Nat.ltb _ _); reflexivity.
    + rewrite (RD 0%nat TT). unfold at_. destruct (nth_error pos e) as [[i w] |]; [| reflexivity]. destruct (Nat.ltb _ _); reflexivity.
    + f_equal. change (map TT (seq 0 N)) with (map (fun s => TT s) (seq 0 N)). rewrite (LT TT). reflexivity.
Qed.
Lemma noisy_factor : forall amp ph ra rp z, noisy amp ph ra rp z = (RtoC (Rabs (1 + amp * ra)) * cis (ph * rp * PI) * z)%C.
Proof.
  intros amp ph ra rp z. unfold noisy. rewrite Rabs_mult, (Rabs_right (Cabs z)) by (apply Rle_ge, sqrt_pos).
  rewrite cis_add. rewrite (Carg_polar z) at 3. rewrite RtoC_mul. ring.
Qed.
Lemma fold_Rsum : forall (A : Type) (g : A -> R) (F : nat -> nat -> A) n k,
  Rsum k (fun j => Rsum n (fun i => g (F i j))) = fold_right (fun t acc => g t + acc) 0 (concat (map (fun j => map (fun i => F i j) (seq 0 n)) (seq 0 k))).
Proof.
  intros A g F n k.
  assert (App : forall l1 l2, fold_right (fun t acc => g t + acc) 0 (l1 ++ l2) = fold_right (fun t acc => g t + acc) 0 l1 + fold_right (fun t acc => g t + acc) 0 l2).
  { induction l1 as [| a l1 IH]; intro l2; cbn; [ring |]. rewrite IH. ring. }
  assert (One : forall (H : nat -> A) n, Rsum n (fun i => g (H i)) = fold_right (fun t acc => g t + acc) 0 (map H (seq 0 n))).
  { intros H. induction n0 as [| n0 IH]; [reflexivity |]. rewrite seq_S, map_app, App, <- IH. cbn. ring. }
  induction k as [| k IH]; [reflexivity |]. cbn [Rsum]. rewrite seq_S, map_app, concat_app, App, <- IH. cbn [map concat]. rewrite app_nil_r, One. reflexivity.
Qed.
Definition io_noisy (m : mesh) (p : params) (k : nat) (X G : mat) (amp ph shot : R) (d : io_draw -> R) r1 r2 :=
  in_situ_bwd_noisy m p k X G amp ph shot (fun i j => d (false, (i, j))) (fun i j => d (true, (i, j))) r1 r2.
Lemma io_unbiased : forall E m p k X G amp ph kappa r1 r2 which e g0, wf_mesh m -> style m = TOP \/ style m = BOTTOM -> io_mean E amp ph kappa ->
  ((2 <= which)%nat -> (e < n_rails m)%nat) ->
  gradient_entry (in_situ_bwd_batch m p k X G) which e = Some g0 ->
  exists f, (forall d, gradient_entry (io_noisy m p k X G amp ph 0 d r1 r2) which e = Some (f d)) /\ E f = kappa * g0.
Proof.
  intros E m p k X G amp ph kappa r1 r2 which e g0 W S HE He H. unfold io_noisy, in_situ_bwd_noisy. unfold in_situ_bwd_batch in H. cbv zeta in *.
  destruct (columns m) as [cols |] eqn:Hc; [| discriminate]. cbn [obind] in *.
  set (inorm := max_row_norm (n_rails m) k X) in *. set (gnorm := max_row_norm (n_rails m) k G) in *.
  match type of H with gradient_entry (obind (all_some (map ?F _)) _) _ _ = _ => set (one0 := F) in * end.
  set (one := fun (d : io_draw -> R) (j : nat) =>
    obind (matrix_fn m true p (vscal (/ gnorm) (fun i => G i j))) (fun a0 =>
    obind (propagate m false true p (vaxpy (vscal (/ inorm) (fun i => X i j)) (- Ci)%C (vconj (fun i => noisy amp ph (d (false, (i, j))) (d (true, (i, j))) (a0 i))))) (fun s =>
    obind (propagate m false true p (vaxpy (vscal (/ inorm) (fun i => X i j)) Ci (vconj (fun i => noisy amp ph (d (false, (i, j))) (d (true, (i, j))) (a0 i))))) (fun dd =>
    Some (map (fun t => let '(q, (u, v)) := t in fun r => tap_noisy inorm gnorm 0 (r1 q r j) (r2 q r j) (u r) (v r)) (combine (seq 0 (length s)) (combine s dd))))))).
  assert (A0 : forall j, exists a0, matrix_fn m true p (vscal (/ gnorm) (fun i => G i j)) = Some a0) by (intro j; apply wf_matrix_total; auto).
  set (a0 := fun j => match matrix_fn m true p (vscal (/ gnorm) (fun i => G i j)) with Some a => a | None => fun _ => C0 end).
  set (Z := fun q r i j => (RtoC (inorm * gnorm) * (Ci * (sl_of m p q (vscal (/ inorm) (fun i => X i j)) r * Cconj (sl_of m p q (basis i) r))) * a0 j i)%C).
  assert (V0 : forall j, one0 j <> None /\ forall q r, (r < n_rails m)%nat -> nth q (match one0 j with Some y => y | None => [] end) (fun _ => 0) r = Rsum (n_rails m) (fun i => re (Z q r i j))).
  { intro j. unfold one0, Z, a0. destruct (A0 j) as (a & Ea). rewrite Ea. cbn [obind].
    destruct (slices_lin m p (vscal (/ inorm) (fun i => X i j)) (- Ci)%C (vconj a) W S) as (z1 & z2 & _ & _ & _ & E3).
    destruct (slices_lin m p (vscal (/ inorm) (fun i => X i j)) Ci (vconj a) W S) as (z3 & z4 & _ & _ & _ & E4). rewrite E3, E4. cbn [obind]. split; [discriminate |].
    intros q r Hr. destruct (tap_value m p inorm gnorm (vscal (/ inorm) (fun i => X i j)) a q r W S Hr) as (s & dd & F1 & F2 & F3).
    rewrite E3 in F1. rewrite E4 in F2. apply Some_inj in F1. apply Some_inj in F2. rewrite F1, F2. exact F3. }
  assert (V : forall d j, one d j <> None /\ forall q r, (r < n_rails m)%nat -> nth q (match one d j with Some y => y | None => [] end) (fun _ => 0) r = Rsum (n_rails m) (fun i => re (Z q r i j * io_factor amp ph d (i, j))%C)).
  { intros d j. unfold one, Z, a0. destruct (A0 j) as (a & Ea). rewrite Ea. cbn [obind].
    set (y := fun i => noisy amp ph (d (false, (i, j))) (d (true, (i, j))) (a i)).
    destruct (slices_lin m p (vscal (/ inorm) (fun i => X i j)) (- Ci)%C (vconj y) W S) as (z1 & z2 & _ & _ & _ & E3).
    destruct (slices_lin m p (vscal (/ inorm) (fun i => X i j)) Ci (vconj y) W S) as (z3 & z4 & _ & _ & _ & E4). rewrite E3, E4. cbn [obind]. split; [discriminate |].
    intros q r Hr. destruct (tap_value m p inorm gnorm (vscal (/ inorm) (fun i => X i j)) y q r W S Hr) as (s & dd & F1 & F2 & F3).
    rewrite E3 in F1. rewrite E4 in F2. apply Some_inj in F1. apply Some_inj in F2. rewrite F1, F2.
    rewrite (map_ext _ (fun t => let '(q, x) := t in (fun q (sd : vec * vec) r => tap_noisy inorm gnorm 0 (r1 q r j) (r2 q r j) (fst sd r) (snd sd r)) q x)) by (intros [? [? ?]]; reflexivity).
    rewrite nth_taps by (rewrite combine_length; lia).
    rewrite nth_mapd in F3. clear - F3.
    assert (Q : Rsum (n_rails m) (fun i => re (RtoC (inorm * gnorm) * (Ci * (sl_of m p q (vscal (/ inorm) (fun i0 => X i0 j)) r * Cconj (sl_of m p q (basis i) r))) * a i * io_factor amp ph d (i, j))%C) =
                Rsum (n_rails m) (fun i => re (RtoC (inorm * gnorm) * (Ci * (sl_of m p q (vscal (/ inorm) (fun i0 => X i0 j)) r * Cconj (sl_of m p q (basis i) r))) * y i)%C)).
    { apply Rsum_ext. intros i _. f_equal. unfold y, io_factor. rewrite noisy_factor. ring. }
    rewrite Q, <- F3. unfold vec in *. destruct (nth_error (combine s dd) q) as [[u v] |]; [| reflexivity]. cbn [fst snd]. unfold tap_noisy, tap. field. }
  assert (RR : forall (o : nat -> option (list (nat -> R))), (forall j, o j <> None) ->
    obind (all_some (map o (seq 0 k))) (fun pws => Some (localize (map (fun nc => map top (nodes nc)) cols) (map (fun s r => Rsum k (fun j => nth s (nth j pws []) (fun _ => 0) r)) (seq 0 (4 * length cols + 2))))) =
    Some (localize (map (fun nc => map top (nodes nc)) cols) (map (fun s r => Rsum k (fun j => nth s (nth j (map (fun j => match o j with Some y => y | None => [] end) (seq 0 k)) []) (fun _ => 0) r)) (seq 0 (4 * length cols + 2))))).
  { intros o Ho. rewrite (all_some_make _ _ [] o) by auto. reflexivity. }
  assert (NJ : forall (o : nat -> option (list (nat -> R))) q r, Rsum k (fun j => nth q (nth j (map (fun j => match o j with Some y => y | None => [] end) (seq 0 k)) []) (fun _ => 0) r) =
     Rsum k (fun j => nth q (match o j with Some y => y | None => [] end) (fun _ => 0) r)).
  { intros o q r. apply Rsum_ext. intros j Hj. rewrite (nth_indep _ [] (match o 0%nat with Some y => y | None => [] end)) by (rewrite map_length, seq_length; auto).
    rewrite (map_nth (fun j => match o j with Some y => y | None => [] end)). rewrite seq_nth by auto. reflexivity. }
  rewrite (RR one0 (fun j => proj1 (V0 j))) in H.
  destruct (entry_read cols which e) as (loc & Hloc & Hread). rewrite Hread in H.
  assert (Hr : forall q r, loc = Some (Some (q, r)) -> (r < n_rails m)%nat).
  { intros q r El. destruct (Hloc q r El) as [(nc & nd & H1 & H2 & ->) | [H1 ->]]; [| auto].
    destruct W as (_ & B & Nd & _). destruct (cols_nodes m cols Nd Hc) as [E1 _]. apply B. apply in_order_In.
    change (In nd (column_order m)). rewrite E1. apply in_concat. exists (nodes nc). split; auto. apply in_map; auto. }
  destruct loc as [[[q r] |] |]; [| | discriminate].
  - specialize (Hr q r eq_refl). 
    exists (fun d => fold_right (fun t acc => re (fst t * io_factor amp ph d (snd t))%C + acc) 0 (concat (map (fun j => map (fun i => (Z q r i j, (i, j))) (seq 0 (n_rails m))) (seq 0 k)))). split.
    + intro d. specialize (RR (one d) (fun j => proj1 (V d j))). unfold one in RR at 1. rewrite RR, Hread, NJ. f_equal.
      rewrite (Rsum_ext k _ (fun j => Rsum (n_rails m) (fun i => re (Z q r i j * io_factor amp ph d (i, j))%C))) by (intros j Hj; apply V; auto).
      apply (fold_Rsum _ (fun t : C * (nat * nat) => re (fst t * io_factor amp ph d (snd t))%C) (fun i j => (Z q r i j, (i, j)))).
    + rewrite HE. f_equal. rewrite <- (fold_Rsum _ (fun t : C * (nat * nat) => re (fst t)) (fun i j => (Z q r i j, (i, j)))). cbn [fst].
      rewrite NJ in H. rewrite (Rsum_ext k _ (fun j => Rsum (n_rails m) (fun i => re (Z q r i j)))) in H by (intros j Hj; apply V0; auto). congruence.
  - exists (fun _ => 0). split.
    + intro d. specialize (RR (one d) (fun j => proj1 (V d j))). unfold one in RR at 1. rewrite RR, Hread. reflexivity.
    + specialize (HE []). cbn [fold_right] in HE. rewrite HE. assert (g0 = 0) by congruence. subst. ring.
Qed.
(** Shot noise on top of noisy adjoint inputs. *)
Lemma shot_on_io : forall m p k X G amp ph shot ra rp r1 r2 which e g0,
  gradient_entry (in_situ_bwd_noisy m p k X G amp ph 0 ra rp r1 r2) which e = Some g0 ->
  exists f, (forall d, gradient_entry (in_situ_bwd_noisy m p k X G amp ph shot ra rp (fun q r j => d (0%nat, q, r, j)) (fun q r j => d (1%nat, q, r, j))) which e = Some (f d)) /\ aff f /\ f (fun _ => 0) = g0.
Proof.
  intros m p k X G amp ph shot ra rp r1 r2 which e g0 H. unfold in_situ_bwd_noisy in *. cbv zeta in *.
  destruct (columns m) as [cols |]; [| discriminate]. cbn [obind] in *.
  set (inorm := max_row_norm (n_rails m) k X) in *. set (gnorm := max_row_norm (n_rails m) k G) in *.
  refine (batch_unbiased (fun sd r => let '(u, v) := sd : vec * vec in tap inorm gnorm (u r) (v r))
    (fun d q j sd r => let '(u, v) := sd : vec * vec in tap_noisy inorm gnorm shot (d (0%nat, q, r, j)) (d (1%nat, q, r, j)) (u r) (v r))
    (fun q j sd r => _) (fun q j sd r => _) cols k which e _
    (fun d j => obind (matrix_fn m true p (vscal (/ gnorm) (fun i => G i j))) (fun a0 =>
    obind (propagate m false true p (vaxpy (vscal (/ inorm) (fun i => X i j)) (- Ci)%C (vconj (fun i => noisy amp ph (ra i j) (rp i j) (a0 i))))) (fun s =>
    obind (propagate m false true p (vaxpy (vscal (/ inorm) (fun i => X i j)) Ci (vconj (fun i => noisy amp ph (ra i j) (rp i j) (a0 i))))) (fun dd =>
    Some (map (fun t => let '(q, (u, v)) := t in fun r => tap_noisy inorm gnorm shot (d (0%nat, q, r, j)) (d (1%nat, q, r, j)) (u r) (v r)) (combine (seq 0 (length s)) (combine s dd))))))) g0 _ H).
  - destruct sd as [u v]. apply tap_aff.
  - destruct sd as [u v]. apply tap_quiet.
  - intros j Hj. destruct (matrix_fn m true p (vscal (/ gnorm) (fun i => G i j))) as [a0 |]; [| contradiction]. cbn [obind] in *.
    destruct (propagate m false true p (vaxpy (vscal (/ inorm) (fun i => X i j)) (- Ci)%C _)) as [s |]; [| contradiction]. cbn [obind] in *.
    destruct (propagate m false true p (vaxpy (vscal (/ inorm) (fun i => X i j)) Ci _)) as [dd |]; [| contradiction]. cbn [obind] in *.
    exists (combine s dd). split.
    + f_equal.
      assert (Tr : forall a (ls : list (vec * vec)) q0, (length ls <= a)%nat -> combine (seq q0 a) ls = combine (seq q0 (length ls)) ls).
      { induction a as [| a IH]; intros ls q0 Ha; destruct ls as [| y ls]; cbn [length] in *; try lia; try reflexivity. cbn [seq combine]. f_equal. apply IH. lia. }
      rewrite (Tr (length s) (combine s dd)) by (rewrite combine_length; lia). generalize (combine s dd). generalize 0%nat. clear. intros q0 l. revert q0.
      induction l as [| [u v] l IH]; intro q0; [reflexivity |]. cbn [length seq combine map]. rewrite IH. f_equal. apply functional_extensionality. intro r. unfold tap_noisy, tap. field.
    + intro d. exists (length s). split; [rewrite combine_length; lia |]. f_equal. apply map_ext. intros [q [u v]]. reflexivity.
Qed.
Lemma io_shot_mean : forall Eio Eshot m p k X G amp ph kappa shot which e g0, wf_mesh m -> style m = TOP \/ style m = BOTTOM ->
  io_mean Eio amp ph kappa -> centred Eshot -> ((2 <= which)%nat -> (e < n_rails m)%nat) ->
  gradient_entry (in_situ_bwd_batch m p k X G) which e = Some g0 ->
  exists f, (forall d s, gradient_entry (in_situ_bwd_noisy m p k X G amp ph shot (fun i j => d (false, (i, j))) (fun i j => d (true, (i, j)))
     (fun q r j => s (0%nat, q, r, j)) (fun q r j => s (1%nat, q, r, j))) which e = Some (f d s)) /\
    Eio (fun d => Eshot (f d)) = kappa * g0.
Proof.
  intros Eio Eshot m p k X G amp ph kappa shot which e g0 W S HI HS He H.
  destruct (io_unbiased Eio m p k X G amp ph kappa (fun _ _ _ => 0) (fun _ _ _ => 0) which e g0 W S HI He H) as (h & Hh & Eh).
  set (res := fun d s => gradient_entry (in_situ_bwd_noisy m p k X G amp ph shot (fun i j => d (false, (i, j))) (fun i j => d (true, (i, j)))
     (fun q r j => s (0%nat, q, r, j)) (fun q r j => s (1%nat, q, r, j))) which e).
  assert (Q : forall d, (forall s, res d s = Some (match res d s with Some x => x | None => 0 end)) /\ Eshot (fun s => match res d s with Some x => x | None => 0 end) = h d).
  { intro d. destruct (shot_on_io m p k X G amp ph shot _ _ _ _ which e (h d) (Hh d)) as (f & Hf & A & Z).
    assert (F : forall s, res d s = Some (f s)) by exact Hf. split; [intro s; rewrite F; reflexivity |].
    transitivity (Eshot f); [f_equal; apply functional_extensionality; intro s; rewrite F; reflexivity |].
    rewrite (aff_mean Eshot f HS A). exact Z. }
  exists (fun d s => match res d s with Some x => x | None => 0 end). split.
  - intros d s. apply (proj1 (Q d) s).
  - transitivity (Eio h); [f_equal; apply functional_extensionality; intro d; apply Q | exact Eh].
Qed.
Lemma io_pair : forall amp ph, io_mean (fun f => (f (fun t => if fst t then 1 else 0) + f (fun t => if fst t then -1 else 0)) / 2) amp ph (cos (ph * PI)).
Proof.
  intros amp ph l. unfold io_factor. cbn [fst]. rewrite !Rmult_0_r, !Rplus_0_r, !Rabs_R1, Rmult_1_r.
  induction l as [| [z ij] l IH]; cbn [fold_right fst snd]; [field |].
  replace (cis (ph * -1 * PI)) with (Cconj (cis (ph * PI))) by (rewrite <- cis_opp; f_equal; ring) .
  replace (cis (ph * -1 * PI)) with (Cconj (cis (ph * PI))) in IH by (rewrite <- cis_opp; f_equal; ring).
  set (A := fold_right _ 0 l) in IH at 1. set (B := fold_right (fun (t : C * (nat * nat)) acc => re (fst t * (RtoC 1 * Cconj (cis (ph * PI))))%C + acc) 0 l) in *. set (D := fold_right (fun (t : C * (nat * nat)) acc => re (fst t) + acc) 0 l) in *.
  fold A. destruct z as [a b]. unfold cis, RtoC. cbn [re im Cmul Cconj]. replace (cos (ph * PI) * (a + D)) with (a * cos (ph * PI) + cos (ph * PI) * D) by ring. rewrite <- IH. field.
Qed.
