(** Proofs about the finite-difference operators: kron structure, adjointness, commutation. *)
From Coq Require Import Reals Lra Lia List Arith Bool FunctionalExtensionality.
From Verif Require Import Cx Arr Model_coupling Model_yee Spec_yee.
Local Open Scope R_scope.

Lemma nxt_lt : forall n i, (i < n)%nat -> nxt n i = if Nat.eqb (i + 1) n then 0%nat else (i + 1)%nat.
Proof.
  intros n i H. unfold nxt. destruct (Nat.eqb_spec (i + 1) n) as [E | E].
  - rewrite E. apply Nat.mod_same. lia.
  - apply Nat.mod_small. lia.
Qed.
Lemma prv_lt : forall n i, (i < n)%nat -> prv n i = match i with O => (n - 1)%nat | S m => m end.
Proof.
  intros n i H. unfold prv. destruct i as [| m].
  - apply Nat.mod_small. lia.
  - replace (S m + n - 1)%nat with (m + 1 * n)%nat by lia. rewrite Nat.mod_add by lia. apply Nat.mod_small. lia.
Qed.
Lemma nxt_bound : forall n i, (i < n)%nat -> (nxt n i < n)%nat.
Proof. intros. unfold nxt. apply Nat.mod_upper_bound. lia. Qed.
Lemma prv_bound : forall n i, (i < n)%nat -> (prv n i < n)%nat.
Proof. intros. unfold prv. apply Nat.mod_upper_bound. lia. Qed.
Lemma prv_nxt : forall n i, (i < n)%nat -> prv n (nxt n i) = i.
Proof.
  intros n i H. rewrite prv_lt by (apply nxt_bound; auto). rewrite nxt_lt by auto.
  destruct (Nat.eqb_spec (i + 1) n); [lia |]. replace (i + 1)%nat with (S i) by lia. reflexivity.
Qed.
Lemma nxt_prv : forall n i, (i < n)%nat -> nxt n (prv n i) = i.
Proof.
  intros n i H. rewrite nxt_lt by (apply prv_bound; auto). rewrite prv_lt by auto.
  destruct i as [| m].
  - destruct (Nat.eqb_spec (n - 1 + 1) n); lia.
  - destruct (Nat.eqb_spec (m + 1) n); lia.
Qed.

Lemma Csum_prod : forall a b f, Csum (a * b) f = Csum a (fun i => Csum b (fun j => f (i * b + j)%nat)).
Proof.
  induction a; intros b f; simpl; auto.
  replace (b + a * b)%nat with (a * b + b)%nat by lia. rewrite Csum_split, IHa. reflexivity.
Qed.
Lemma divmod_pair : forall b p q, (q < b)%nat -> ((p * b + q) / b = p)%nat /\ ((p * b + q) mod b = q)%nat.
Proof.
  intros b p q H. split.
  - rewrite Nat.div_add_l by lia. rewrite Nat.div_small by lia. lia.
  - rewrite Nat.add_comm, Nat.mod_add by lia. apply Nat.mod_small; auto.
Qed.
Lemma kron_apply : forall a b A B v i j, (j < b)%nat ->
  matvec (a * b) (kron b A B) v (i * b + j)%nat = matvec a A (fun p => matvec b B (fun q => v (p * b + q)%nat) j) i.
Proof.
  intros a b A B v i j Hj. unfold matvec. rewrite Csum_prod. apply Csum_ext; intros p Hp.
  rewrite <- Csum_scal. apply Csum_ext; intros q Hq. unfold kron.
  destruct (divmod_pair b i j Hj) as [E1 E2]. destruct (divmod_pair b p q Hq) as [E3 E4].
  rewrite E1, E2, E3, E4. ring.
Qed.
Lemma eye_apply : forall n v i, (i < n)%nat -> matvec n eye v i = v i.
Proof. intros. unfold matvec, eye. apply (Csum_delta_l n i v); auto. Qed.
Lemma matvec_ext : forall n A u v i, (forall q, (q < n)%nat -> u q = v q) -> matvec n A u i = matvec n A v i.
Proof. intros. unfold matvec. apply Csum_ext; intros. rewrite H; auto. Qed.

Lemma Csum_ite : forall n i (x : C) (f : nat -> C), (i < n)%nat ->
  Csum n (fun j => (if Nat.eqb j i then x else C0) * f j)%C = (x * f i)%C.
Proof.
  intros n i x f Hi. rewrite (Csum_single n _ i Hi).
  - rewrite Nat.eqb_refl. reflexivity.
  - intros j _ Hj. destruct (Nat.eqb_spec j i); [congruence | ring].
Qed.
Lemma d_forw_apply : forall n b v i, (i < n)%nat ->
  matvec n (d_forw n b) v i = if Nat.eqb n 1 then C0 else (right_of n b v i - v i)%C.
Proof.
  intros n b v i Hi. unfold matvec, d_forw. destruct (Nat.eqb_spec n 1) as [E | E].
  - subst n. simpl. ring.
  - destruct (Nat.leb_spec n 1); [lia |].
    rewrite (Csum_ext n _ (fun j => ((if Nat.eqb j i then - C1 else C0) * v j +
      ((if Nat.eqb j (i + 1) then C1 else C0) * v j + (if Nat.eqb (j + (n - 1)) i then b else C0) * v j))%C))
      by (intros; ring).
    rewrite !Csum_add, Csum_ite by auto. unfold right_of. destruct (Nat.eqb_spec (i + 1) n) as [E1 | E1].
    + rewrite (Csum_0 n (fun j => ((if Nat.eqb j (i + 1) then C1 else C0) * v j)%C)).
      2:{ intros j Hj. destruct (Nat.eqb_spec j (i + 1)); [lia | ring]. }
      rewrite (Csum_ext n (fun j => ((if Nat.eqb (j + (n - 1)) i then b else C0) * v j)%C)
                          (fun j => ((if Nat.eqb j 0 then b else C0) * v j)%C)).
      2:{ intros j Hj. destruct (Nat.eqb_spec (j + (n - 1)) i); destruct (Nat.eqb_spec j 0); try lia; auto. }
      rewrite Csum_ite by lia. ring.
    + rewrite Csum_ite by lia.
      rewrite (Csum_0 n (fun j => ((if Nat.eqb (j + (n - 1)) i then b else C0) * v j)%C)).
      2:{ intros j Hj. destruct (Nat.eqb_spec (j + (n - 1)) i); [lia | ring]. }
      ring.
Qed.
Lemma d_back_apply : forall n b v i, (i < n)%nat ->
  matvec n (d_back n b) v i = if Nat.eqb n 1 then C0 else (v i - left_of n b v i)%C.
Proof.
  intros n b v i Hi. unfold matvec, d_back. destruct (Nat.eqb_spec n 1) as [E | E].
  - subst n. simpl. ring.
  - destruct (Nat.leb_spec n 1); [lia |].
    rewrite (Csum_ext n _ (fun j => ((if Nat.eqb j i then C1 else C0) * v j +
      ((if Nat.eqb (j + 1) i then - C1 else C0) * v j + (if Nat.eqb j (i + (n - 1)) then - Cconj b else C0) * v j))%C))
      by (intros; ring).
    rewrite !Csum_add, Csum_ite by auto. unfold left_of. destruct i as [| m].
    + rewrite (Csum_0 n (fun j => ((if Nat.eqb (j + 1) 0 then - C1 else C0) * v j)%C)).
      2:{ intros j Hj. destruct (Nat.eqb_spec (j + 1) 0); [lia | ring]. }
      rewrite (Csum_ite n (0 + (n - 1))) by lia. simpl (0 + (n - 1))%nat. ring.
    + rewrite (Csum_ext n (fun j => ((if Nat.eqb (j + 1) (S m) then - C1 else C0) * v j)%C)
                          (fun j => ((if Nat.eqb j m then - C1 else C0) * v j)%C)).
      2:{ intros j Hj. destruct (Nat.eqb_spec (j + 1) (S m)); destruct (Nat.eqb_spec j m); try lia; auto. }
      rewrite Csum_ite by lia.
      rewrite (Csum_0 n (fun j => ((if Nat.eqb j (S m + (n - 1)) then - Cconj b else C0) * v j)%C)).
      2:{ intros j Hj. destruct (Nat.eqb_spec j (S m + (n - 1))); [lia | ring]. }
      ring.
Qed.

Lemma ravel_ridx : forall s f i j k, (j < s AY)%nat -> (k < s AZ)%nat -> ravel s f (ridx s i j k) = f i j k.
Proof.
  intros s f i j k Hj Hk. unfold ravel, ridx.
  destruct (divmod_pair (s AZ) (i * s AY + j) k Hk) as [E1 E2]. destruct (divmod_pair (s AY) i j Hj) as [E3 E4].
  rewrite (Nat.mul_comm (s AY) (s AZ)), <- Nat.div_div by lia. rewrite E1, E2, E3, E4. reflexivity.
Qed.
Lemma ridx_bound : forall s i j k, in_grid s i j k -> (ridx s i j k < npix s)%nat.
Proof.
  intros s i j k (Hi & Hj & Hk). unfold ridx, npix.
  assert (i * s AY + j < s AX * s AY)%nat by nia. nia.
Qed.
Lemma ridx_split : forall s i j k, ridx s i j k = (i * (s AY * s AZ) + (j * s AZ + k))%nat.
Proof. intros. unfold ridx. lia. Qed.

Lemma scale_apply : forall n (c : vec) A v r, matvec n (fun r q => (c r * A r q)%C) v r = (c r * matvec n A v r)%C.
Proof. intros. unfold matvec. rewrite <- Csum_scal. apply Csum_ext; intros; ring. Qed.

(** The raveled matrix acts along one axis only. *)
Definition tile (s : shape3) (a : axis) (D : mat) : mat :=
  match a with
  | AX => kron (s AY * s AZ) D eye
  | AY => kron (s AZ) (kron (s AY) eye D) eye
  | AZ => kron (s AZ) eye D
  end.
Lemma tile_apply : forall s a D f i j k, in_grid s i j k ->
  matvec (npix s) (tile s a D) (ravel s f) (ridx s i j k) = matvec (s a) D (line a f i j k) (coord a i j k).
Proof.
  intros s a D f i j k (Hi & Hj & Hk). destruct a; unfold tile, coord.
  - unfold npix. rewrite <- Nat.mul_assoc, ridx_split, kron_apply by nia. apply matvec_ext; intros p Hp.
    rewrite eye_apply by nia. cbv beta. rewrite <- (ridx_split s p j k). exact (ravel_ridx s f p j k Hj Hk).
  - unfold npix, ridx. rewrite kron_apply by auto.
    rewrite (matvec_ext (s AX * s AY) _ _ (fun p => ravel s f (p * s AZ + k)%nat)) by (intros; rewrite eye_apply; auto).
    rewrite kron_apply by auto. rewrite eye_apply by auto. apply matvec_ext; intros q Hq. apply (ravel_ridx s f i q k); auto.
  - unfold npix, ridx. rewrite kron_apply by auto. rewrite eye_apply by nia. apply matvec_ext; intros q Hq.
    apply (ravel_ridx s f i j q); auto.
Qed.
Lemma deriv_tile : forall s dx bl back a r c, deriv s dx bl back a r c =
  (Cinv (ravel s (fun i j k => dx a (coord a i j k)) r) *
   tile s a (if back then d_back (s a) (bl a) else d_forw (s a) (bl a)) r c)%C.
Proof. intros. destruct a; reflexivity. Qed.

Lemma deriv_apply : forall s dx bl (back : bool) a f i j k, in_grid s i j k ->
  matvec (npix s) (deriv s dx bl back a) (ravel s f) (ridx s i j k) =
  (if back then bwd_quot s dx bl a f i j k else fwd_quot s dx bl a f i j k).
Proof.
  intros s dx bl back a f i j k H.
  assert (E : matvec (npix s) (deriv s dx bl back a) (ravel s f) (ridx s i j k) =
    (Cinv (ravel s (fun i j k => dx a (coord a i j k)) (ridx s i j k)) * matvec (npix s)
      (tile s a (if back then d_back (s a) (bl a) else d_forw (s a) (bl a))) (ravel s f) (ridx s i j k))%C).
  { unfold matvec. rewrite <- Csum_scal. apply Csum_ext; intros. rewrite deriv_tile. ring. }
  rewrite E. rewrite tile_apply by auto. destruct H as (Hi & Hj & Hk). rewrite ravel_ridx by auto.
  assert (Hm : (coord a i j k < s a)%nat) by (destruct a; auto).
  assert (Hl : line a f i j k (coord a i j k) = f i j k) by (destruct a; auto).
  destruct back; [rewrite d_back_apply by auto | rewrite d_forw_apply by auto];
    unfold bwd_quot, fwd_quot; rewrite Hl; destruct (Nat.eqb (s a) 1); unfold Cdiv; ring.
Qed.

(** The rolls are the quotients with periodic boundary. *)
Lemma diff_fn_quot : forall s dx (of_h : bool) f a i j k, in_grid s i j k ->
  diff_fn s dx of_h f a i j k =
  (if of_h then bwd_quot s dx (fun _ => C1) a f i j k else fwd_quot s dx (fun _ => C1) a f i j k).
Proof.
  intros s dx of_h f a i j k (Hi & Hj & Hk). unfold diff_fn, fwd_quot, bwd_quot.
  assert (Hm : (coord a i j k < s a)%nat) by (destruct a; auto).
  assert (Hl : line a f i j k (coord a i j k) = f i j k) by (destruct a; auto).
  assert (H1 : roll_m1 s a f i j k = line a f i j k (nxt (s a) (coord a i j k))) by (destruct a; auto).
  assert (H2 : roll_p1 s a f i j k = line a f i j k (prv (s a) (coord a i j k))) by (destruct a; auto).
  rewrite H1, H2. rewrite nxt_lt, prv_lt by auto. rewrite <- Hl. clear H1 H2 Hl. generalize (line a f i j k). intro l.
  generalize dependent (coord a i j k). intros m Hm.
  destruct of_h; destruct (Nat.eqb_spec (s a) 1) as [E | E].
  - assert (m = 0%nat) by lia; subst m. rewrite E. simpl. unfold Cdiv; ring.
  - unfold left_of. destruct m; unfold Cdiv; rewrite ?Cconj_C1; ring.
  - assert (m = 0%nat) by lia; subst m. rewrite E. simpl. unfold Cdiv; ring.
  - unfold right_of. destruct (Nat.eqb (m + 1) (s a)); unfold Cdiv; ring.
Qed.
Lemma deriv_diff_fn : forall s dx (back : bool) a f i j k, in_grid s i j k ->
  matvec (npix s) (deriv s dx (fun _ => C1) back a) (ravel s f) (ridx s i j k) = diff_fn s dx back f a i j k.
Proof. intros. rewrite deriv_apply, diff_fn_quot by auto. reflexivity. Qed.

(** With a nontrivial Bloch phase they differ. *)
Lemma deriv_diff_fn_bloch : forall s dx bl back a, positive_shape s -> (1 < s a)%nat -> bl a <> C1 ->
  (forall m, (m < s a)%nat -> dx a m <> C0) ->
  exists f i j k, in_grid s i j k /\
    matvec (npix s) (deriv s dx bl back a) (ravel s f) (ridx s i j k) <> diff_fn s dx back f a i j k.
Proof.
  intros s dx bl back a Hp Hn Hb Hdx.
  set (m := if back then 0%nat else (s a - 1)%nat).
  exists (fun _ _ _ => C1).
  set (g := fun c : axis => match a, c with AX, AX => m | AY, AY => m | AZ, AZ => m | _, _ => 0%nat end).
  exists (g AX), (g AY), (g AZ).
  assert (Hm : (m < s a)%nat) by (unfold m; destruct back; lia).
  assert (Hc : coord a (g AX) (g AY) (g AZ) = m) by (unfold g; destruct a; reflexivity).
  pose proof (Hp AX); pose proof (Hp AY); pose proof (Hp AZ).
  assert (Hin : in_grid s (g AX) (g AY) (g AZ)).
  { unfold g, in_grid. destruct a; (split; [| split]); auto. }
  split; [exact Hin |]. rewrite deriv_apply, diff_fn_quot by auto.
  assert (Hl : forall q, line a (fun _ _ _ => C1) (g AX) (g AY) (g AZ) q = C1) by (intro; destruct a; reflexivity).
  assert (Hd : Cinv (dx a m) <> C0).
  { intro E. apply (Hdx m Hm). assert (E2 : (dx a m * Cinv (dx a m))%C = C1) by (field; auto). rewrite E in E2.
    exfalso. apply C1_neq_C0. rewrite <- E2. ring. }
  unfold bwd_quot, fwd_quot. rewrite Hc. destruct (Nat.eqb_spec (s a) 1); [lia |].
  destruct back; unfold m; cbn [left_of]; unfold right_of, Cdiv; rewrite ?Hl.
  - intro E. apply Hb. fold m in Hd. unfold m in Hd.
    assert (E1 : ((Cconj (bl a) - C1) * Cinv (dx a 0%nat))%C = C0).
    { transitivity ((C1 - Cconj C1 * C1) * Cinv (dx a 0%nat) - (C1 - Cconj (bl a) * C1) * Cinv (dx a 0%nat))%C;
        [rewrite Cconj_C1; ring | rewrite <- E; ring]. }
    apply Cmul_integral in E1. destruct E1 as [E1 | E1]; [| tauto].
    rewrite <- (Cconj_conj (bl a)). replace (Cconj (bl a)) with C1; [apply Cconj_C1 |].
    replace C1 with (Cconj (bl a) - (Cconj (bl a) - C1))%C by ring. rewrite E1. ring.
  - unfold m in Hd. replace (s a - 1 + 1)%nat with (s a) by lia. rewrite Nat.eqb_refl. intro E. apply Hb.
    assert (E1 : ((bl a - C1) * Cinv (dx a (s a - 1)%nat))%C = C0).
    { transitivity ((bl a * C1 - C1) * Cinv (dx a (s a - 1)%nat) - (C1 * C1 - C1) * Cinv (dx a (s a - 1)%nat))%C;
        [ring | rewrite <- E; ring]. }
    apply Cmul_integral in E1. destruct E1 as [E1 | E1]; [| tauto].
    replace (bl a) with (C1 + (bl a - C1))%C by ring. rewrite E1. ring.
Qed.

(** ** Adjointness *)
Lemma d_adjoint : forall n b r c, Cconj (d_back n b c r) = (- d_forw n b r c)%C.
Proof.
  intros. unfold d_back, d_forw. destruct (n <=? 1)%nat; [rewrite Cconj_C0; ring |].
  rewrite !Cconj_add. rewrite (Nat.eqb_sym r c).
  replace (Nat.eqb c (r + 1)) with (Nat.eqb (r + 1) c) by apply Nat.eqb_sym.
  replace (Nat.eqb (c + (n - 1)) r) with (Nat.eqb r (c + (n - 1))) by apply Nat.eqb_sym.
  destruct (Nat.eqb c r), (Nat.eqb (r + 1) c), (Nat.eqb r (c + (n - 1)));
    rewrite ?Cconj_opp, ?Cconj_conj, ?Cconj_C0, ?Cconj_C1; ring.
Qed.
Lemma eye_sym : forall r c, Cconj (eye c r) = eye r c.
Proof. intros. unfold eye, delta. rewrite Nat.eqb_sym. destruct (Nat.eqb r c); [apply Cconj_C1 | apply Cconj_C0]. Qed.
Lemma tile_adjoint : forall s n b a r c, Cconj (tile s a (d_back n b) c r) = (- tile s a (d_forw n b) r c)%C.
Proof.
  intros. destruct a; unfold tile, kron; rewrite ?Cconj_mul, ?eye_sym, d_adjoint; ring.
Qed.
Lemma deriv_adjoint_entry : forall s (h : axis -> R) bl a r c,
  Cconj (deriv s (uniform_dx h) bl true a c r) = (- deriv s (uniform_dx h) bl false a r c)%C.
Proof.
  intros. rewrite !deriv_tile, Cconj_mul, tile_adjoint. unfold ravel, uniform_dx.
  assert (E : Cconj (Cinv (RtoC (h a))) = Cinv (RtoC (h a))).
  { apply C_eq; unfold Cinv, Cn2; cbn [re im Cconj RtoC]; unfold Rdiv; ring. }
  rewrite E. ring.
Qed.
Lemma deriv_adjoint : forall s (h : axis -> R) bl a u v,
  vdot (npix s) (matvec (npix s) (deriv s (uniform_dx h) bl true a) u) v =
  (- vdot (npix s) u (matvec (npix s) (deriv s (uniform_dx h) bl false a) v))%C.
Proof.
  intros. unfold vdot, matvec.
  rewrite (Csum_ext _ _ (fun r => Csum (npix s) (fun q => deriv s (uniform_dx h) bl true a r q * u q * Cconj (v r))%C)).
  2:{ intros. rewrite <- Csum_scal_r. reflexivity. }
  rewrite Csum_swap.
  transitivity (Csum (npix s) (fun q => (- C1) * (u q * Cconj (Csum (npix s) (fun r => deriv s (uniform_dx h) bl false a q r * v r))))%C).
  2:{ rewrite Csum_scal. ring. }
  apply Csum_ext; intros q _. rewrite Csum_conj, <- !Csum_scal. apply Csum_ext; intros r _.
  rewrite Cconj_mul. pose proof (deriv_adjoint_entry s h bl a q r) as E.
  assert (E2 : Cconj (deriv s (uniform_dx h) bl false a q r) = (- deriv s (uniform_dx h) bl true a r q)%C).
  { rewrite <- (Cconj_conj (deriv s (uniform_dx h) bl true a r q)), E, Cconj_opp. ring. }
  rewrite E2. ring.
Qed.
