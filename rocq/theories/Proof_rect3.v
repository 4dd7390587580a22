(** Proofs about Model_rect: the nulling loop factors any unitary over the board. *)
From Coq Require Import Reals List Arith ZArith Lra Lia Bool FunctionalExtensionality ZifyNat ZifyClasses.
From Verif Require Import Cx Arr Spec_circuit Model_coupling Model_forward Model_rect Spec_rect Proof_node Proof_mesh Proof_forward2 Proof_forward4 Proof_linalg Proof_rect Proof_rect2.
Import ListNotations.
Local Open Scope R_scope.
Ltac Zify.zify_post_hook ::= Z.div_mod_to_equations.

Lemma colop_local : forall n pr th c v w, (forall r, evenb (r + c) = true -> pr r c = true -> (S r < n)%nat) -> veq n v w -> veq n (colop pr th c v) (colop pr th c w).
Proof.
  intros n pr th c v w Hp H r Hr. apply colop_ext_at.
  - apply H; auto.
  - intros E P. apply H. apply Hp; auto.
  - intros q -> _ _. apply H. lia.
Qed.
Lemma runb_local : forall n pr th ph k v w, (forall r c, (c < k)%nat -> evenb (r + c) = true -> pr r c = true -> (S r < n)%nat) -> veq n v w ->
  veq n (runb pr th ph k v) (runb pr th ph k w).
Proof.
  intros n pr th ph k. induction k as [| k IH]; intros v w Hp H; [exact H |]. cbn [runb]. apply colop_local; [intros r'; apply Hp; lia |].
  intros r Hr. unfold phop. f_equal. apply (IH v w); [intros r' c' Hc'; apply Hp; lia | exact H | exact Hr].
Qed.
Lemma runf_local : forall n pr th ph v w, (forall r c, (c < n)%nat -> evenb (r + c) = true -> pr r c = true -> (S r < n)%nat) -> veq n v w ->
  veq n (runf n pr th ph v) (runf n pr th ph w).
Proof. intros n pr th ph v w Hp H r Hr. unfold runf, phop. f_equal. apply (runb_local n pr th ph n v w Hp H r Hr). Qed.
Lemma runf_ext : forall n pr th ph pr' th' ph' v,
  (forall r c, pr' r c = pr r c) -> (forall r c, pr r c = true -> th' r c = th r c) -> (forall r c, ph' r c = ph r c) ->
  runf n pr' th' ph' v = runf n pr th ph v.
Proof.
  intros n pr th ph pr' th' ph' v H1 H2 H3. unfold runf. rewrite (runb_ext pr th ph pr' th' ph') by (intros; auto).
  apply functional_extensionality. intro r. unfold phop. rewrite H3. reflexivity.
Qed.

Definition doneb (i j i' j' : nat) : bool := (Nat.ltb i' i || (Nat.eqb i' i && Nat.ltb j' j))%bool.
Lemma doneb_spec : forall i j i' j', doneb i j i' j' = true <-> (i' < i \/ (i' = i /\ j' < j))%nat.
Proof. intros. unfold doneb. rewrite orb_true_iff, andb_true_iff, !Nat.ltb_lt, Nat.eqb_eq. reflexivity. Qed.

Section Loop.
Variables (n : nat) (u : mat).
Hypothesis Hn : (2 <= n)%nat.
Hypothesis Hu : unitary n u.

Definition prR (i j r c : nat) : bool := (evenb (r + c) && doneb i j (r + c) c)%bool.
Definition prL (i j r c : nat) : bool := (Nat.ltb (S r) n && Nat.ltb c n && evenb (r + c) && doneb i j (2 * n - 3 - r - c) (n - 1 - c))%bool.
Lemma prR_spec : forall i j r c, prR i j r c = true <-> ((r + c) mod 2 = 0 /\ (r + c < i \/ (r + c = i /\ c < j)))%nat.
Proof. intros. unfold prR. rewrite andb_true_iff, evenb_t, doneb_spec. reflexivity. Qed.
Lemma prL_spec : forall i j r c, prL i j r c = true <->
  (S r < n /\ c < n /\ (r + c) mod 2 = 0 /\ (2 * n - 3 - r - c < i \/ (2 * n - 3 - r - c = i /\ n - 1 - c < j)))%nat.
Proof. intros. unfold prL. rewrite !andb_true_iff, evenb_t, doneb_spec, !Nat.ltb_lt. tauto. Qed.

Definition zeros (i j : nat) (U : mat) : Prop := forall r c, (r < n)%nat -> (c < n)%nat ->
  ((n - 1 + c < r + i) \/ (n - 1 + c = r + i /\ (i mod 2 = 0 -> n - 1 < r + j) /\ (i mod 2 = 1 -> c < j)))%nat -> U r c = C0.

Record inv (i j : nat) (st : rstate) : Prop := mkInv {
  inv_un : unitary n (u_hat st);
  inv_z : zeros i j (u_hat st);
  inv_f : exists phR phL : nat -> nat -> R,
    (forall r c, ph_cb st r c = phR r c + phL r c) /\
    (forall r c, prR i j r c = false -> phR r c = 0) /\
    (forall r, phL r 0%nat = 0) /\
    (forall r c, prL i j r c = false -> (forall q, S q = r -> prL i j q c = false) -> phL r (S c) = 0) /\
    (forall v, veq n (app n u v) (runf n (prL i j) (th_cb st) phL (app n (u_hat st) (runf n (prR i j) (th_cb st) phR v)))) }.

Lemma inv_start : inv 0 0 (mkRS u (fun _ _ => 0) (fun _ _ => 0)).
Proof.
  constructor.
  - exact Hu.
  - intros r c Hr Hc H. exfalso. lia.
  - exists (fun _ _ => 0), (fun _ _ => 0). repeat split; intros; try (cbn; ring).
    cbn [u_hat th_cb].
    assert (E0 : forall pr th (w : vec), (forall r c, pr r c = false) -> runf n pr th (fun _ _ => 0) w = w).
    { intros pr th w Hpr. unfold runf. assert (forall k, runb pr th (fun _ _ => 0) k w = w).
      { induction k as [| k IH]; [reflexivity |]. cbn [runb]. rewrite IH. apply functional_extensionality. intro r. unfold colop. rewrite Hpr.
        assert (P : forall r, phop (fun _ _ : nat => 0) k w r = w r) by (intro; apply phop0; reflexivity).
        destruct (evenb (r + k)); [apply P |]. destruct r; [apply P |]. rewrite Hpr. apply P. }
      rewrite H. apply functional_extensionality. intro r. apply phop0. reflexivity. }
    rewrite !E0.
    + intros r Hr. reflexivity.
    + intros r c. destruct (prR 0 0 r c) eqn:P; [apply prR_spec in P; lia | reflexivity].
    + intros r c. destruct (prL 0 0 r c) eqn:P; [apply prL_spec in P; lia | reflexivity].
Qed.

Lemma upd_cb_eq : forall f r c x, upd_cb f r c x r c = x.
Proof. intros. unfold upd_cb. rewrite !Nat.eqb_refl. reflexivity. Qed.
Lemma upd_cb_ne : forall f r c x r' c', (r' <> r \/ c' <> c) -> upd_cb f r c x r' c' = f r' c'.
Proof. intros. unfold upd_cb. destruct (Nat.eqb_spec r' r), (Nat.eqb_spec c' c); cbn [andb]; auto; lia. Qed.

Lemma inv_row : forall i st, (i <= n - 2)%nat -> inv i (i + 1) st -> inv (S i) 0 st.
Proof.
  intros i st Hi [H1 H2 (phR & phL & G1 & G2 & G3 & G4 & G5)].
  assert (ER : forall r c, prR (S i) 0 r c = prR i (i + 1) r c) by (intros; apply eq_true_iff_eq; rewrite !prR_spec; lia).
  assert (EL : forall r c, prL (S i) 0 r c = prL i (i + 1) r c) by (intros; apply eq_true_iff_eq; rewrite !prL_spec; lia).
  constructor; [exact H1 | |].
  - intros r c Hr Hc H. apply H2; auto. lia.
  - exists phR, phL. repeat split; auto.
    + intros r c P. apply G2. rewrite <- ER. exact P.
    + intros r c P Q. apply G4; [rewrite <- EL; exact P | intros q E; rewrite <- EL; apply Q; exact E].
    + intros v r Hr. rewrite (G5 v r Hr).
      rewrite (runf_ext n (prR i (i + 1)) (th_cb st) phR (prR (S i) 0) (th_cb st) phR) by (auto; intros; apply ER).
      rewrite (runf_ext n (prL i (i + 1)) (th_cb st) phL (prL (S i) 0) (th_cb st) phL) by (auto; intros; apply EL). reflexivity.
Qed.

Lemma prL_rail : forall i j r c, (c < n)%nat -> evenb (r + c) = true -> prL i j r c = true -> (S r < n)%nat.
Proof. intros i j r c _ _ P. apply prL_spec in P. lia. Qed.

Lemma right_inv : forall i j st, (i <= n - 2)%nat -> (j <= i)%nat -> (i mod 2 = 0)%nat -> inv i j st -> inv i (S j) (right_step n i j st).
Proof.
  intros i j st Hi Hj Ei [H1 H2 (phR & phL & G1 & G2 & G3 & G4 & G5)].
  set (U := u_hat st) in *. unfold right_step. fold U. cbv zeta.
  set (t := atan2x2 (Cabs (U (n - j - 1)%nat (i - j + 1)%nat)) (Cabs (U (n - j - 1)%nat (i - j)%nat))).
  set (x := Carg (- U (n - j - 1)%nat (i - j)%nat)%C - Carg (U (n - j - 1)%nat (i - j + 1)%nat)).
  set (p := (i - j)%nat) in *. assert (Hp : (S p < n)%nat) by (unfold p; lia).
  set (U' := matmul n U (fun r c => Cconj (mzi_node_matrix (ideal n p) t x c r))).
  assert (EE : forall r c, (c < n)%nat -> U' r c = Cconj (nodeop p t x 0 0 (fun k => Cconj (U r k)) c)) by (intros; apply right_entry; auto).
  assert (FR : forall k, (j <= k)%nat -> free_col (prR i j) p k).
  { intros k Hk. repeat split; [intros q Eq | |]; (match goal with |- ?P = false => destruct P eqn:P0; [apply prR_spec in P0; unfold p in *; lia | reflexivity] end). }
  constructor; cbn [u_hat th_cb ph_cb].
  - apply right_unitary; auto.
  - intros r c Hr Hc H. rewrite EE by auto.
    destruct (Nat.eq_dec r (n - 1 - j)) as [Er | Nr].
    + assert (Ec : c = p \/ (n - 1 + c < r + i)%nat) by (unfold p; lia). destruct Ec as [-> | Ec].
      * assert (En : r = (n - j - 1)%nat) by lia. rewrite right_null; [apply Cconj_C0 | |]; rewrite En; unfold t, x; rewrite Nat.add_1_r; reflexivity.
      * rewrite nodeop_o by (unfold p; lia). rewrite Cconj_conj. apply H2; auto.
    + destruct (Nat.eq_dec c p) as [-> | N1]; [| destruct (Nat.eq_dec c (S p)) as [-> | N2]].
      * rewrite nodeop_p. rewrite (H2 r p), (H2 r (S p)) by (auto; unfold p in *; lia). rewrite Cconj_C0. replace (cis 0 * (za t * (cis x * C0) + zb t * C0))%C with C0 by ring. apply Cconj_C0.
      * rewrite nodeop_S. rewrite (H2 r p), (H2 r (S p)) by (auto; unfold p in *; lia). rewrite Cconj_C0. replace (cis 0 * (zb t * (cis x * C0) + zd t * C0))%C with C0 by ring. apply Cconj_C0.
      * rewrite nodeop_o, Cconj_conj by auto. apply H2; auto. unfold p in *; lia.
  - exists (upd_cb phR p j x), phL.
    assert (EL : forall r c, prL i (S j) r c = prL i j r c) by (intros; apply eq_true_iff_eq; rewrite !prL_spec; lia).
    assert (Lpj : phL p j = 0). { destruct j as [| j']; [apply G3 |]. apply G4.
      - destruct (prL i (S j') p j') eqn:P; [apply prL_spec in P; unfold p in *; lia | reflexivity].
      - intros q Eq. destruct (prL i (S j') q j') eqn:P; [apply prL_spec in P; unfold p in *; lia | reflexivity]. }
    assert (Rpj : phR p j = 0). { apply G2. apply (FR j (le_n j)). }
    repeat split.
    + intros r c. destruct (Nat.eq_dec r p) as [-> | N1]; [destruct (Nat.eq_dec c j) as [-> | N2] |].
      * rewrite !upd_cb_eq, Lpj. ring.
      * rewrite !upd_cb_ne by auto. apply G1.
      * rewrite !upd_cb_ne by auto. apply G1.
    + intros r c P. rewrite upd_cb_ne.
      * apply G2. destruct (prR i j r c) eqn:P0; [| reflexivity]. assert (prR i (S j) r c = true) by (apply prR_spec in P0; apply prR_spec; lia). congruence.
      * destruct (Nat.eq_dec r p) as [-> | N1]; [| auto]. destruct (Nat.eq_dec c j) as [-> | N2]; [| auto].
        assert (prR i (S j) p j = true) by (apply prR_spec; unfold p; lia). congruence.
    + exact G3.
    + intros r c P Q. apply G4; [rewrite <- EL; exact P | intros q E; rewrite <- EL; apply Q; exact E].
    + intros v.
      assert (IE : runf n (prR i (S j)) (upd_cb (th_cb st) p j t) (upd_cb phR p j x) v = nodeop p t x 0 0 (runf n (prR i j) (th_cb st) phR v)).
      { apply (insert_end (prR i j) (prR i (S j)) (th_cb st) (upd_cb (th_cb st) p j t) phR (upd_cb phR p j x) n p j t x).
        - apply evenb_t. unfold p. lia.
        - lia.
        - intros r k. apply eq_true_iff_eq. destruct (Nat.eqb_spec r p) as [-> | N1]; destruct (Nat.eqb_spec k j) as [-> | N2]; cbn [andb]; rewrite !prR_spec; unfold p in *; lia.
        - intros r k _. reflexivity.
        - intros r k. reflexivity.
        - exact FR.
        - intros k Hk. destruct (FR k Hk) as (_ & F1 & F2). split; apply G2; auto. }
      rewrite IE.
      rewrite (runf_ext n (prL i j) (th_cb st) phL (prL i (S j)) (upd_cb (th_cb st) p j t) phL); [| exact EL | | auto].
      2:{ intros r c P. apply upd_cb_ne. apply prL_spec in P. unfold p in *. lia. }
      intros r Hr. rewrite (G5 v r Hr). apply runf_local; [apply prL_rail | | exact Hr]. apply right_factor. exact Hp.
Qed.

Lemma left_inv : forall i j st, (i <= n - 2)%nat -> (j <= i)%nat -> (i mod 2 = 1)%nat -> inv i j st -> inv i (S j) (left_step n i j st).
Proof.
  intros i j st Hi Hj Ei [H1 H2 (phR & phL & G1 & G2 & G3 & G4 & G5)].
  set (U := u_hat st) in *. unfold left_step. fold U. cbv zeta.
  set (t := atan2x2 (Cabs (U (n + j - i - 1 - 1)%nat j)) (Cabs (U (n + j - i - 1)%nat j))).
  set (x := Carg (U (n + j - i - 1)%nat j) - Carg (U (n + j - i - 1 - 1)%nat j)).
  set (p := (n + j - i - 2)%nat) in *. assert (Hp : (S p < n)%nat) by (unfold p; lia).
  set (c0 := (n - 1 - j)%nat). replace (n - j)%nat with (S c0) by (unfold c0; lia).
  change (matmul n (embed_2x2 (phase_matrix (- t / 2) (- t / 2)) n (top (ideal n p)) (bottom (ideal n p))) (mzi_node_matrix (ideal n p) t x)) with (lmat n p t x).
  set (U' := matmul n (lmat n p t x) U).
  assert (EE : forall r c, (r < n)%nat -> U' r c = nodeop p t x (- t / 2) (- t / 2) (fun k => U k c) r) by (intros; apply left_entry; auto).
  assert (FL : forall k, (k <= c0)%nat -> free_col (prL i j) p k).
  { intros k Hk. repeat split; [intros q Eq | |]; (match goal with |- ?P = false => destruct P eqn:P0; [apply prL_spec in P0; unfold p, c0 in *; lia | reflexivity] end). }
  constructor; cbn [u_hat th_cb ph_cb].
  - apply left_unitary; auto.
  - intros r c Hr Hc H. rewrite EE by auto.
    destruct (Nat.eq_dec c j) as [Ec | Nc].
    + assert (Er : r = S p \/ (n - 1 + c < r + i)%nat) by (unfold p; lia). destruct Er as [-> | Er].
      * apply left_null; subst c; unfold t, x; replace (n + j - i - 1 - 1)%nat with p by (unfold p; lia); replace (n + j - i - 1)%nat with (S p) by (unfold p; lia); reflexivity.
      * rewrite nodeop_o by (unfold p; lia). apply H2; auto.
    + destruct (Nat.eq_dec r p) as [-> | N1]; [| destruct (Nat.eq_dec r (S p)) as [-> | N2]].
      * rewrite nodeop_p. rewrite (H2 p c), (H2 (S p) c) by (auto; unfold p in *; lia). ring.
      * rewrite nodeop_S. rewrite (H2 p c), (H2 (S p) c) by (auto; unfold p in *; lia). ring.
      * rewrite nodeop_o by auto. apply H2; auto. unfold p in *; lia.
  - set (y := - x - t / 2 + PI). set (z := - t / 2 + PI).
    exists phR, (upd_cb (upd_cb phL p (S c0) y) (S p) (S c0) z).
    assert (ER : forall r c, prR i (S j) r c = prR i j r c) by (intros; apply eq_true_iff_eq; rewrite !prR_spec; lia).
    assert (Rp : forall r, phR (r + p)%nat (S c0) = 0). { intro r. apply G2. destruct (prR i j (r + p) (S c0)) eqn:P; [apply prR_spec in P; unfold p, c0 in *; lia | reflexivity]. }
    assert (UP : forall (f : nat -> nat -> R) r k, upd_cb (upd_cb f p (S c0) y) (S p) (S c0) z r k =
        if Nat.eqb k (S c0) then (if Nat.eqb r p then y else if Nat.eqb r (S p) then z else f r k) else f r k).
    { intros f r k. unfold upd_cb. destruct (Nat.eqb_spec k (S c0)); destruct (Nat.eqb_spec r p); destruct (Nat.eqb_spec r (S p)); cbn [andb]; auto; lia. }
    assert (LN : forall r c, prL i (S j) r c = false -> prL i j r c = false).
    { intros r c P. destruct (prL i j r c) eqn:P0; [| reflexivity]. assert (prL i (S j) r c = true) by (apply prL_spec in P0; apply prL_spec; lia). congruence. }
    assert (New : prL i (S j) p c0 = true) by (apply prL_spec; unfold p, c0; lia).
    repeat split.
    + intros r c. rewrite !UP. destruct (Nat.eqb_spec c (S c0)) as [-> | N]; [| apply G1].
      destruct (Nat.eqb_spec r p) as [-> | N1]; [pose proof (Rp 0%nat) as E; cbn [plus] in E; rewrite E; ring |].
      destruct (Nat.eqb_spec r (S p)) as [-> | N2]; [pose proof (Rp 1%nat) as E; cbn [plus] in E; rewrite E; ring | apply G1].
    + intros r c P. apply G2. rewrite <- ER. exact P.
    + intros r. rewrite UP. destruct (Nat.eqb_spec 0 (S c0)); [lia | apply G3].
    + intros r c P Q. rewrite UP. destruct (Nat.eqb_spec (S c) (S c0)) as [E | N].
      * injection E as ->. destruct (Nat.eqb_spec r p) as [-> | N1]; [congruence |]. destruct (Nat.eqb_spec r (S p)) as [-> | N2]; [rewrite (Q p eq_refl) in New; discriminate |].
        apply G4; [apply LN; exact P | intros q Eq; apply LN; apply Q; exact Eq].
      * apply G4; [apply LN; exact P | intros q Eq; apply LN; apply Q; exact Eq].
    + intros v.
      assert (IS : forall w, runf n (prL i (S j)) (upd_cb (th_cb st) p c0 t) (upd_cb (upd_cb phL p (S c0) y) (S p) (S c0) z) w = runf n (prL i j) (th_cb st) phL (nodeop p t 0 y z w)).
      { intro w. apply (insert_start (prL i j) (prL i (S j)) (th_cb st) (upd_cb (th_cb st) p c0 t) phL (upd_cb (upd_cb phL p (S c0) y) (S p) (S c0) z) n p c0 t y z).
        - apply evenb_t. unfold p, c0. lia.
        - unfold c0. lia.
        - intros r k. apply eq_true_iff_eq. destruct (Nat.eqb_spec r p) as [-> | N1]; destruct (Nat.eqb_spec k c0) as [-> | N2]; cbn [andb]; rewrite ?prL_spec; unfold p, c0 in *; lia.
        - intros r k _. reflexivity.
        - intros r k. apply UP.
        - exact FL.
        - intros k Hk. destruct k as [| k]; [split; apply G3 |]. destruct (FL k ltac:(lia)) as (F0 & F1 & F2). split; apply G4; auto. intros q Eq. injection Eq as ->. exact F1. }
      rewrite IS.
      rewrite (runf_ext n (prR i j) (th_cb st) phR (prR i (S j)) (upd_cb (th_cb st) p c0 t) phR); [| exact ER | | auto].
      2:{ intros r c P. apply upd_cb_ne. apply prR_spec in P. unfold p, c0 in *. lia. }
      intros r Hr. rewrite (G5 v r Hr). apply runf_local; [apply prL_rail | | exact Hr]. apply left_factor. exact Hp.
Qed.

Lemma step_inv : forall i j st, (i <= n - 2)%nat -> (j <= i)%nat -> inv i j st -> inv i (S j) (rect_step n st (i, j)).
Proof.
  intros i j st Hi Hj H. unfold rect_step. destruct (Nat.eqb_spec (i mod 2) 1) as [E | E]; [apply left_inv | apply right_inv]; auto. lia.
Qed.
Lemma row_inv : forall i st, (i <= n - 2)%nat -> inv i 0 st -> forall k, (k <= i + 1)%nat -> inv i k (fold_left (rect_step n) (map (fun j => (i, j)) (seq 0 k)) st).
Proof.
  intros i st Hi H k. induction k as [| k IH]; intro Hk; [exact H |]. rewrite seq_S, map_app, fold_left_app. cbn [fold_left map plus]. apply step_inv; [exact Hi | lia | apply IH; lia].
Qed.
Lemma rect_order_S : forall k, rect_order (S k) = rect_order k ++ map (fun j => (k, j)) (seq 0 (k + 1)).
Proof. intro k. unfold rect_order. rewrite seq_S, flat_map_app. cbn [flat_map plus]. rewrite app_nil_r. reflexivity. Qed.
Lemma loop_inv : forall k, (k <= n - 1)%nat -> inv k 0 (fold_left (rect_step n) (rect_order k) (mkRS u (fun _ _ => 0) (fun _ _ => 0))).
Proof.
  induction k as [| k IH]; intro Hk; [exact inv_start |]. rewrite rect_order_S, fold_left_app. apply inv_row; [lia |]. apply row_inv; [lia | apply IH; lia | lia].
Qed.
End Loop.
