(** FDTD with PML: locality, the interior, superposition. *)
From Coq Require Import Reals Lra Lia List Arith Bool FunctionalExtensionality.
From Verif Require Import Cx Arr Model_yee Spec_yee Proof_yee Proof_yee2 Model_fdtd Spec_fdtd Proof_fdtd Model_fdfd Model_fdtdpml Spec_fdtdpml.
Import ListNotations.
Local Open Scope R_scope.

(** ** One half step depends on the cell and its lower (E) or upper (H) neighbours. *)
Definition lo_nb (s : shape3) (i j k i' j' k' : nat) : Prop :=
  (i' = i \/ i' = prv (s AX) i) /\ (j' = j \/ j' = prv (s AY) j) /\ (k' = k \/ k' = prv (s AZ) k).
Definition hi_nb (s : shape3) (i j k i' j' k' : nat) : Prop :=
  (i' = i \/ i' = nxt (s AX) i) /\ (j' = j \/ j' = nxt (s AY) j) /\ (k' = k \/ k' = nxt (s AZ) k).

Lemma diff_h_local : forall s dx f f' a i j k, (forall i' j' k', lo_nb s i j k i' j' k' -> f i' j' k' = f' i' j' k') ->
  diff_fn s dx true f a i j k = diff_fn s dx true f' a i j k.
Proof.
  intros s dx f f' a i j k H. unfold diff_fn, roll_p1, along. rewrite (H i j k) by (unfold lo_nb; auto).
  destruct a; rewrite H by (unfold lo_nb; auto); reflexivity.
Qed.
Lemma diff_e_local : forall s dx f f' a i j k, (forall i' j' k', hi_nb s i j k i' j' k' -> f i' j' k' = f' i' j' k') ->
  diff_fn s dx false f a i j k = diff_fn s dx false f' a i j k.
Proof.
  intros s dx f f' a i j k H. unfold diff_fn, roll_m1, along. rewrite (H i j k) by (unfold hi_nb; auto).
  destruct a; rewrite H by (unfold hi_nb; auto); reflexivity.
Qed.
Lemma eps_local : forall g g' jax c i j k, g_shape g = g_shape g' ->
  (forall i' j' k', lo_nb (g_shape g) i j k i' j' k' -> g_eps g i' j' k' = g_eps g' i' j' k') ->
  eps_t g jax c i j k = eps_t g' jax c i j k.
Proof.
  intros g g' jax c i j k Hs H. rewrite (ltac:(destruct jax; [rewrite eps_jax |]; reflexivity) : eps_t g jax = eps_t g false).
  rewrite (ltac:(destruct jax; [rewrite eps_jax |]; reflexivity) : eps_t g' jax = eps_t g' false).
  unfold eps_t. rewrite <- Hs. destruct c; unfold yee_avg, avg_axis, ralong; rewrite !H by (unfold lo_nb; auto); reflexivity.
Qed.
Lemma agree_dt : forall S g g', agree_grid S g g' -> dt_of g = dt_of g' /\ g_dx g = g_dx g'.
Proof.
  intros S g g' (A & B & D & _). unfold dt_of, g_dx, inv_sq, is_active. rewrite B, D. split; auto.
Qed.
Lemma agree_coef : forall S g g' p o r a i j k, agree_grid S g g' ->
  cpml_b g p o r a i j k = cpml_b g' p o r a i j k /\ cpml_c g p o r a i j k = cpml_c g' p o r a i j k /\ in_region g p r i j k = in_region g' p r i j k.
Proof.
  intros S g g' p o r a i j k H. destruct (agree_dt S g g' H) as [E _]. destruct H as (A & B & D & _).
  unfold cpml_c, cpml_b, sigma_ax, in_region. rewrite E, A, D. auto.
Qed.

Lemma fold_region_local : forall g g' p v v' x x' c i j k,
  (forall r, In r pml_regions -> in_region g p r i j k = in_region g' p r i j k) ->
  (forall r, In r pml_regions -> v r c i j k = v' r c i j k) -> x c i j k = x' c i j k ->
  forall l, incl l pml_regions -> fold_left (region_add g p v) l x c i j k = fold_left (region_add g' p v') l x' c i j k.
Proof.
  intros g g' p v v' x x' c i j k HR HV HX l. revert x x' HX.
  induction l as [| r l IH]; intros x x' HX Hl; cbn [fold_left]; auto.
  apply IH; [| intros z Hz; apply Hl; right; auto].
  unfold region_add. rewrite HR by (apply Hl; left; auto). rewrite HV, HX by (apply Hl; left; auto). auto.
Qed.
Lemma fold_src_e_local : forall g g' jax c i j k l l' x x',
  eps_t g jax c i j k = eps_t g' jax c i j k -> dt_of g = dt_of g' ->
  Forall2 (agree_source (fun a b d => a = i /\ b = j /\ d = k)) l l' -> x c i j k = x' c i j k ->
  fold_left (add_src_e g jax) l x c i j k = fold_left (add_src_e g' jax) l' x' c i j k.
Proof.
  intros g g' jax c i j k l l' x x' He Hd H. revert x x'. induction H as [| a b l l' (Hr & Hse & _) Hl IH]; intros x x' HX; cbn [fold_left]; auto.
  apply IH. unfold add_src_e. destruct (src_e a) as [v |], (src_e b) as [w |]; simpl in Hse; try tauto.
  destruct jax; unfold at_set, at_add; rewrite Hr by auto; rewrite He, Hd, (Hse c i j k), HX by auto; auto.
Qed.
Lemma fold_src_h_local : forall g g' jax c i j k l l' x x', dt_of g = dt_of g' ->
  Forall2 (agree_source (fun a b d => a = i /\ b = j /\ d = k)) l l' -> x c i j k = x' c i j k ->
  fold_left (add_src_h g jax) l x c i j k = fold_left (add_src_h g' jax) l' x' c i j k.
Proof.
  intros g g' jax c i j k l l' x x' Hd H. revert x x'. induction H as [| a b l l' (Hr & _ & Hse) Hl IH]; intros x x' HX; cbn [fold_left]; auto.
  apply IH. unfold add_src_h. destruct (src_h a) as [v |], (src_h b) as [w |]; simpl in Hse; try tauto.
  destruct jax; unfold at_set, at_add; rewrite Hr by auto; rewrite Hd, (Hse c i j k), HX by auto; auto.
Qed.
Lemma agree_src_sub : forall (S T : cellset) l l', (forall i j k, T i j k -> S i j k) -> Forall2 (agree_source S) l l' -> Forall2 (agree_source T) l l'.
Proof.
  intros S T l l' H F. induction F as [| a b l l' (A & B & D) F IH]; constructor; auto.
  split; [| split]; auto.
  - unfold agree_opt, agree_v in *. destruct (src_e a), (src_e b); auto.
  - unfold agree_opt, agree_v in *. destruct (src_h a), (src_h b); auto.
Qed.

Lemma curl_pml_local : forall g g' p o r f f' m m' i j k,
  (forall a, cpml_b g p o r a i j k = cpml_b g' p o r a i j k) -> (forall a, cpml_c g p o r a i j k = cpml_c g' p o r a i j k) ->
  (forall c a, diff_fn (g_shape g) (g_dx g) o (f c) a i j k = diff_fn (g_shape g') (g_dx g') o (f' c) a i j k) ->
  (forall n, m n i j k = m' n i j k) ->
  (forall n, fst (curl_pml g p o r f m) n i j k = fst (curl_pml g' p o r f' m') n i j k) /\
  (forall c, snd (curl_pml g p o r f m) c i j k = snd (curl_pml g' p o r f' m') c i j k).
Proof.
  intros g g' p o r f f' m m' i j k Hb Hc Hd Hm. unfold curl_pml, curl_pml_fn. cbn [fst snd]. split.
  - intro n. unfold pml_diff. do 5 (destruct n as [| n]; [rewrite Hc, Hd; reflexivity |]). rewrite Hc, Hd; reflexivity.
  - intro c. unfold pml_diff, pml_b. destruct c; rewrite !Hc, !Hd, !Hb, !Hm; reflexivity.
Qed.

(** E half step. *)
Lemma pstep_e_local : forall g g' jax p st st' l l' S i j k, agree_grid S g g' ->
  (forall i' j' k', lo_nb (g_shape g) i j k i' j' k' -> S i' j' k') ->
  agree_state S st st' -> Forall2 (agree_source S) l l' ->
  (forall c, pstep_e g jax p st l c i j k = pstep_e g' jax p st' l' c i j k) /\
  (forall r n, new_mem g p true (ps_h st) (ps_psi_e st) r n i j k = new_mem g' p true (ps_h st') (ps_psi_e st') r n i j k).
Proof.
  intros g g' jax p st st' l l' S i j k HG HS (He & Hh & Hpe & _) HF.
  destruct (agree_dt S g g' HG) as [Edt Edx]. assert (Es : g_shape g = g_shape g') by (destruct HG; auto).
  assert (S0 : S i j k) by (apply HS; unfold lo_nb; auto).
  assert (Heps : forall c, eps_t g jax c i j k = eps_t g' jax c i j k).
  { intro c. apply eps_local; auto. intros. destruct HG as (_ & _ & _ & HG). auto. }
  assert (Hd : forall c a, diff_fn (g_shape g) (g_dx g) true (ps_h st c) a i j k = diff_fn (g_shape g') (g_dx g') true (ps_h st' c) a i j k).
  { intros c a. rewrite <- Es, <- Edx. apply diff_h_local. intros. apply Hh; auto. }
  assert (HP : forall r, (forall n, fst (curl_pml g p true r (ps_h st) (ps_psi_e st r)) n i j k = fst (curl_pml g' p true r (ps_h st') (ps_psi_e st' r)) n i j k) /\
     (forall c, snd (curl_pml g p true r (ps_h st) (ps_psi_e st r)) c i j k = snd (curl_pml g' p true r (ps_h st') (ps_psi_e st' r)) c i j k)).
  { intro r. apply curl_pml_local; auto; intros; try (apply (agree_coef S g g' p true r _ i j k HG)). }
  split.
  - intro c. unfold pstep_e. apply fold_src_e_local; auto.
    + eapply agree_src_sub; [| exact HF]. intros a b d (-> & -> & ->); auto.
    + apply fold_region_local; [| | | apply incl_refl].
      * intros r _. apply (agree_coef S g g' p true r AX i j k HG).
      * intros r _. cbv beta. unfold phi. rewrite (proj2 (HP r)), Heps, Edt. auto.
      * rewrite (He c i j k S0), Heps, Edt. unfold curl_h, curl_fn. destruct c; rewrite !Hd; auto.
  - intros r n. unfold new_mem. apply HP.
Qed.
(** H half step. *)
Lemma pstep_h_local : forall g g' jax p e e' h h' m m' l l' S i j k, agree_grid S g g' ->
  (forall i' j' k', hi_nb (g_shape g) i j k i' j' k' -> forall c, e c i' j' k' = e' c i' j' k') -> S i j k ->
  agree_v S h h' -> agree_m S m m' -> Forall2 (agree_source S) l l' ->
  (forall c, pstep_h g jax p e h m l c i j k = pstep_h g' jax p e' h' m' l' c i j k) /\
  (forall r n, new_mem g p false e m r n i j k = new_mem g' p false e' m' r n i j k).
Proof.
  intros g g' jax p e e' h h' m m' l l' S i j k HG He S0 Hh Hm HF.
  destruct (agree_dt S g g' HG) as [Edt Edx]. assert (Es : g_shape g = g_shape g') by (destruct HG; auto).
  assert (Hd : forall c a, diff_fn (g_shape g) (g_dx g) false (e c) a i j k = diff_fn (g_shape g') (g_dx g') false (e' c) a i j k).
  { intros c a. rewrite <- Es, <- Edx. apply diff_e_local. intros. apply He; auto. }
  assert (HP : forall r, (forall n, fst (curl_pml g p false r e (m r)) n i j k = fst (curl_pml g' p false r e' (m' r)) n i j k) /\
     (forall c, snd (curl_pml g p false r e (m r)) c i j k = snd (curl_pml g' p false r e' (m' r)) c i j k)).
  { intro r. apply curl_pml_local; auto; intros; try (apply (agree_coef S g g' p false r _ i j k HG)). }
  split.
  - intro c. unfold pstep_h. apply fold_src_h_local; auto.
    + eapply agree_src_sub; [| exact HF]. intros a b d (-> & -> & ->); auto.
    + apply fold_region_local; [| | | apply incl_refl].
      * intros r _. apply (agree_coef S g g' p false r AX i j k HG).
      * intros r _. cbv beta. unfold phi. rewrite (proj2 (HP r)), Edt. auto.
      * rewrite (Hh c i j k S0), Edt. unfold curl_e, curl_fn. destruct c; rewrite !Hd; auto.
  - intros r n. unfold new_mem. apply HP.
Qed.

(** ** Neighbourhoods on the ring *)
Lemma ring_step : forall n x y z, (x < n)%nat -> (y < n)%nat -> (z = y \/ z = nxt n y \/ z = prv n y) ->
  (z < n)%nat /\ (ring_dist n x z <= ring_dist n x y + 1)%nat.
Proof.
  intros n x y z Hx Hy Hz.
  assert (Hn : (nxt n y = if Nat.eqb (y + 1) n then 0 else y + 1)%nat).
  { unfold nxt. destruct (Nat.eqb_spec (y + 1) n) as [E | E]; [rewrite E; apply Nat.mod_same; lia | apply Nat.mod_small; lia]. }
  assert (Hp : (prv n y = if Nat.eqb y 0 then n - 1 else y - 1)%nat).
  { unfold prv. destruct (Nat.eqb_spec y 0) as [E | E]; [subst; rewrite Nat.mod_small; lia |].
    replace (y + n - 1)%nat with ((y - 1) + 1 * n)%nat by lia. rewrite Nat.mod_add by lia. apply Nat.mod_small; lia. }
  unfold ring_dist. destruct Hz as [-> | [-> | ->]].
  - split; lia.
  - rewrite Hn. destruct (Nat.eqb_spec (y + 1) n); split; lia.
  - rewrite Hp. destruct (Nat.eqb_spec y 0); split; lia.
Qed.
Lemma prv_nxt_cases : forall n y z w, (y < n)%nat -> (z = y \/ z = nxt n y) -> (w = z \/ w = prv n z) -> w = y \/ w = nxt n y \/ w = prv n y.
Proof.
  intros n y z w Hy [-> | ->] [-> | ->]; auto. left. apply prv_nxt; lia.
Qed.
Lemma near_nb : forall s r i j k a b c a' b' c' a'' b'' c'', in_grid s i j k -> near s r i j k a b c ->
  hi_nb s a b c a' b' c' -> lo_nb s a' b' c' a'' b'' c'' -> near s (r + 1) i j k a'' b'' c''.
Proof.
  intros s r i j k a b c a' b' c' a'' b'' c'' (Hi & Hj & Hk) ((Ha & Hb & Hc) & Da & Db & Dc) (A & B & D) (A' & B' & D').
  pose proof (ring_step (s AX) i a a'' Hi Ha (prv_nxt_cases _ _ _ _ Ha A A')).
  pose proof (ring_step (s AY) j b b'' Hj Hb (prv_nxt_cases _ _ _ _ Hb B B')).
  pose proof (ring_step (s AZ) k c c'' Hk Hc (prv_nxt_cases _ _ _ _ Hc D D')).
  unfold near, in_grid. repeat split; try tauto; lia.
Qed.
Lemma nb_refl_lo : forall s i j k, lo_nb s i j k i j k. Proof. unfold lo_nb; auto. Qed.
Lemma nb_refl_hi : forall s i j k, hi_nb s i j k i j k. Proof. unfold hi_nb; auto. Qed.

Lemma pstep_near : forall g g' jax p st st' l l' r i j k, in_grid (g_shape g) i j k ->
  agree_grid (near (g_shape g) (r + 1) i j k) g g' -> agree_state (near (g_shape g) (r + 1) i j k) st st' ->
  Forall2 (agree_source (near (g_shape g) (r + 1) i j k)) l l' ->
  agree_state (near (g_shape g) r i j k) (pstep g jax p st l) (pstep g' jax p st' l').
Proof.
  intros g g' jax p st st' l l' r i j k H0 HG HST HF. set (S := near (g_shape g) (r + 1) i j k) in *.
  assert (HE : forall a b c, near (g_shape g) r i j k a b c -> forall a' b' c', hi_nb (g_shape g) a b c a' b' c' ->
     (forall x, pstep_e g jax p st l x a' b' c' = pstep_e g' jax p st' l' x a' b' c') /\
     (forall q n, new_mem g p true (ps_h st) (ps_psi_e st) q n a' b' c' = new_mem g' p true (ps_h st') (ps_psi_e st') q n a' b' c')).
  { intros a b c Hn a' b' c' Hh. apply (pstep_e_local g g' jax p st st' l l' S); auto.
    intros a'' b'' c'' Hl. exact (near_nb _ _ _ _ _ _ _ _ _ _ _ _ _ _ H0 Hn Hh Hl). }
  assert (HS0 : forall a b c, near (g_shape g) r i j k a b c -> S a b c).
  { intros a b c Hn. exact (near_nb _ _ _ _ _ _ _ _ _ _ _ _ _ _ H0 Hn (nb_refl_hi _ _ _ _) (nb_refl_lo _ _ _ _)). }
  assert (HH : forall a b c, near (g_shape g) r i j k a b c ->
     (forall x, pstep_h g jax p (pstep_e g jax p st l) (ps_h st) (ps_psi_h st) l x a b c =
                pstep_h g' jax p (pstep_e g' jax p st' l') (ps_h st') (ps_psi_h st') l' x a b c) /\
     (forall q n, new_mem g p false (pstep_e g jax p st l) (ps_psi_h st) q n a b c =
                  new_mem g' p false (pstep_e g' jax p st' l') (ps_psi_h st') q n a b c)).
  { intros a b c Hn. destruct HST as (_ & Hh & _ & Hm). apply (pstep_h_local g g' jax p _ _ _ _ _ _ l l' S); auto.
    intros a' b' c' Hhi x. apply (HE a b c Hn a' b' c' Hhi). }
  unfold pstep. split; [| split; [| split]]; cbn [ps_e ps_h ps_psi_e ps_psi_h].
  - intros x a b c Hn. apply (HE a b c Hn a b c (nb_refl_hi _ _ _ _)).
  - intros x a b c Hn. apply (HH a b c Hn).
  - intros q n a b c Hn. apply (HE a b c Hn a b c (nb_refl_hi _ _ _ _)).
  - intros q n a b c Hn. apply (HH a b c Hn).
Qed.
Lemma near_mono : forall s r r' i j k a b c, (r <= r')%nat -> near s r i j k a b c -> near s r' i j k a b c.
Proof. intros s r r' i j k a b c H (A & B & D & E). unfold near. repeat split; try tauto; try lia; apply A. Qed.
Lemma agree_grid_sub : forall (S T : cellset) g g', (forall i j k, T i j k -> S i j k) -> agree_grid S g g' -> agree_grid T g g'.
Proof. intros S T g g' H (A & B & D & E). split; [| split; [| split]]; auto. Qed.

Lemma prun_near : forall g g' jax p i j k, in_grid (g_shape g) i j k -> forall sch sch' st st' r,
  agree_grid (near (g_shape g) (r + length sch) i j k) g g' -> agree_state (near (g_shape g) (r + length sch) i j k) st st' ->
  agree_schedule (near (g_shape g) (r + length sch) i j k) sch sch' ->
  agree_state (near (g_shape g) r i j k) (prun g jax p st sch) (prun g' jax p st' sch').
Proof.
  intros g g' jax p i j k H0 sch. induction sch as [| l sch IH]; intros sch' st st' r HG HS HF; inversion HF as [| ? l' ? sch0 Hl Hsch]; subst; cbn [prun length] in *.
  - rewrite Nat.add_0_r in HS. auto.
  - replace (r + S (length sch))%nat with ((r + length sch) + 1)%nat in * by lia.
    assert (Hsub : forall a b c, near (g_shape g) (r + length sch) i j k a b c -> near (g_shape g) (r + length sch + 1) i j k a b c)
      by (intros a b c; apply near_mono; lia).
    apply IH.
    + exact (agree_grid_sub _ _ _ _ Hsub HG).
    + apply pstep_near; auto.
    + revert Hsub Hsch. generalize (r + length sch)%nat. clear. intros q Hsub Hsch. unfold agree_schedule. induction Hsch; constructor; auto. exact (agree_src_sub _ _ _ _ Hsub H).
Qed.
Lemma ring_self : forall n x, ring_dist n x x = 0%nat. Proof. intros. unfold ring_dist. lia. Qed.
Lemma finite_speed : forall g g' jax p st st' sch sch' n i j k, in_grid (g_shape g) i j k -> length sch = n ->
  agree_grid (near (g_shape g) n i j k) g g' -> agree_state (near (g_shape g) n i j k) st st' ->
  agree_schedule (near (g_shape g) n i j k) sch sch' -> forall c,
  ps_e (prun g jax p st sch) c i j k = ps_e (prun g' jax p st' sch') c i j k /\
  ps_h (prun g jax p st sch) c i j k = ps_h (prun g' jax p st' sch') c i j k.
Proof.
  intros g g' jax p st st' sch sch' n i j k H0 Hn HG HS HF c. subst n.
  destruct (prun_near g g' jax p i j k H0 sch sch' st st' 0%nat HG HS HF) as (A & B & _).
  assert (Hs : near (g_shape g) 0 i j k i j k) by (unfold near; rewrite !ring_self; auto).
  split; [apply A | apply B]; auto.
Qed.

(** ** The interior *)
Lemma deep_step : forall g p m i j k, deep g p (m + 1) i j k -> in_grid (g_shape g) i j k /\
  (forall i' j' k', hi_nb (g_shape g) i j k i' j' k' -> forall i'' j'' k'', lo_nb (g_shape g) i' j' k' i'' j'' k'' -> deep g p m i'' j'' k'').
Proof.
  intros g p m i j k H. pose proof (H AX) as HX; pose proof (H AY) as HY; pose proof (H AZ) as HZ. cbn [coord] in HX, HY, HZ.
  assert (Hnx : forall n x, (x + 1 < n)%nat -> nxt n x = (x + 1)%nat) by (intros; unfold nxt; apply Nat.mod_small; lia).
  assert (Hpv : forall n x, (0 < x < n)%nat -> prv n x = (x - 1)%nat).
  { intros n x Hx. unfold prv. replace (x + n - 1)%nat with ((x - 1) + 1 * n)%nat by lia. rewrite Nat.mod_add by lia. apply Nat.mod_small; lia. }
  split; [unfold in_grid; lia |].
  intros i' j' k' (A & B & D) i'' j'' k'' (A' & B' & D').
  pose proof (prv_nxt_cases (g_shape g AX) i i' i'' ltac:(lia) A A') as X.
  pose proof (prv_nxt_cases (g_shape g AY) j j' j'' ltac:(lia) B B') as Y.
  pose proof (prv_nxt_cases (g_shape g AZ) k k' k'' ltac:(lia) D D') as Z.
  rewrite Hnx, Hpv in X, Y, Z by lia.
  intro a; destruct a; cbn [coord]; lia.
Qed.
Lemma deep_region : forall g p i j k r, deep g p 0 i j k -> in_region g p r i j k = false.
Proof.
  intros g p i j k [a lo] H. specialize (H a). unfold in_region. cbn [fst snd]. destruct lo.
  - apply Nat.ltb_ge. lia.
  - apply Nat.leb_gt. lia.
Qed.
Lemma fold_region_off : forall g p v x c i j k, (forall r, in_region g p r i j k = false) ->
  forall l, fold_left (region_add g p v) l x c i j k = x c i j k.
Proof.
  intros g p v x c i j k H l. revert x. induction l as [| r l IH]; intro x; cbn [fold_left]; auto.
  rewrite IH. unfold region_add. rewrite H. auto.
Qed.
Lemma src_refl : forall S l, Forall2 (agree_source S) l l.
Proof.
  intros S l. induction l; constructor; auto. split; [| split]; auto.
  - destruct (src_e a); cbn; auto. intro; auto.
  - destruct (src_h a); cbn; auto. intro; auto.
Qed.
Lemma interior_step : forall g jax p st fs l m, 
  (forall i j k, deep g p m i j k -> forall c, ps_e st c i j k = f_e fs c i j k /\ ps_h st c i j k = f_h fs c i j k) ->
  forall i j k, deep g p (m + 1) i j k -> forall c,
  ps_e (pstep g jax p st l) c i j k = f_e (step g jax fs l) c i j k /\ ps_h (pstep g jax p st l) c i j k = f_h (step g jax fs l) c i j k.
Proof.
  intros g jax p st fs l m H i j k HD c. destruct (deep_step g p m i j k HD) as [_ HN].
  assert (HE : forall i' j' k', hi_nb (g_shape g) i j k i' j' k' -> forall c, pstep_e g jax p st l c i' j' k' = step_e g jax fs l c i' j' k').
  { intros i' j' k' Hh c'. unfold pstep_e, step_e. apply fold_src_e_local; auto; [apply src_refl |].
    pose proof (HN i' j' k' Hh i' j' k' (nb_refl_lo _ _ _ _)) as Hd.
    rewrite fold_region_off.
    - rewrite (proj1 (H i' j' k' Hd c')). f_equal. f_equal. unfold curl_h, curl_fn.
      destruct c'; f_equal; f_equal; apply diff_h_local; intros; apply (H _ _ _ (HN i' j' k' Hh _ _ _ H0)).
    - intro r. apply deep_region. intro a. specialize (Hd a). lia. }
  unfold pstep, step. cbn [ps_e ps_h f_e f_h]. split; [apply HE, nb_refl_hi |].
  pose proof (HN i j k (nb_refl_hi _ _ _ _) i j k (nb_refl_lo _ _ _ _)) as Hd.
  unfold pstep_h, step_h. apply fold_src_h_local; auto; [apply src_refl |].
  rewrite fold_region_off.
  - rewrite (proj2 (H i j k Hd c)). cbv beta; f_equal. f_equal. unfold curl_e.
    assert (HC : forall c, curl_fn (diff_fn (g_shape g) (g_dx g) false) (pstep_e g jax p st l) c i j k =
      curl_fn (diff_fn (g_shape g) (g_dx g) false) (step_e g jax fs l) c i j k); [| apply HC].
    intro c'. unfold curl_fn. destruct c'; f_equal; try (f_equal; fail); try apply f_equal; apply diff_e_local; intros; apply HE; auto.
  - intro r. apply deep_region. intro a. specialize (Hd a). lia.
Qed.
Lemma interior_run : forall g jax p sch st fs m,
  (forall i j k, deep g p m i j k -> forall c, ps_e st c i j k = f_e fs c i j k /\ ps_h st c i j k = f_h fs c i j k) ->
  forall i j k, deep g p (m + length sch) i j k -> forall c,
  ps_e (prun g jax p st sch) c i j k = f_e (run g jax fs sch) c i j k /\ ps_h (prun g jax p st sch) c i j k = f_h (run g jax fs sch) c i j k.
Proof.
  intros g jax p sch. induction sch as [| l sch IH]; intros st fs m H i j k HD c; cbn [prun run length] in *.
  - rewrite Nat.add_0_r in HD. auto.
  - apply (IH _ _ (m + 1)%nat); [| replace (m + 1 + length sch)%nat with (m + S (length sch))%nat by lia; auto].
    intros. apply (interior_step g jax p st fs l m); auto.
Qed.
Lemma interior : forall g jax p st sch n i j k, length sch = n -> deep g p n i j k -> forall c,
  ps_e (prun g jax p st sch) c i j k = f_e (run g jax (fields st) sch) c i j k /\
  ps_h (prun g jax p st sch) c i j k = f_h (run g jax (fields st) sch) c i j k.
Proof.
  intros g jax p st sch n i j k Hn HD c. subst n. apply (interior_run g jax p sch st (fields st) 0%nat); auto.
Qed.

(** ** Superposition *)
Lemma pml_diff_lin : forall g p o r al be f f' a i j k,
  pml_diff g p o r (fun i j k => (al * f i j k + be * f' i j k)%C) a i j k = (al * pml_diff g p o r f a i j k + be * pml_diff g p o r f' a i j k)%C.
Proof. intros. unfold pml_diff. rewrite (diff_add _ _ _ (fun i j k => (al * f i j k)%C) (fun i j k => (be * f' i j k)%C)), !diff_scal. ring. Qed.
Lemma curl_pml_lin : forall g p o r al be f f' m m',
  (forall n i j k, fst (curl_pml g p o r (lin al be f f') (fun n i j k => (al * m n i j k + be * m' n i j k)%C)) n i j k =
    (al * fst (curl_pml g p o r f m) n i j k + be * fst (curl_pml g p o r f' m') n i j k)%C) /\
  (forall c i j k, snd (curl_pml g p o r (lin al be f f') (fun n i j k => (al * m n i j k + be * m' n i j k)%C)) c i j k =
    (al * snd (curl_pml g p o r f m) c i j k + be * snd (curl_pml g p o r f' m') c i j k)%C).
Proof.
  intros g p o r al be f f' m m'. unfold curl_pml, curl_pml_fn. cbn [fst snd]. unfold lin. split.
  - intros n i j k. do 5 (destruct n as [| n]; [apply pml_diff_lin |]). apply pml_diff_lin.
  - intros c i j k. destruct c; rewrite !pml_diff_lin; ring.
Qed.
Lemma fold_region_lin : forall g p al be v v' v'' l x x' x'', (forall r c i j k, v'' r c i j k = (al * v r c i j k + be * v' r c i j k)%C) ->
  x'' = lin al be x x' -> fold_left (region_add g p v'') l x'' = lin al be (fold_left (region_add g p v) l x) (fold_left (region_add g p v') l x').
Proof.
  intros g p al be v v' v'' l. induction l as [| r l IH]; intros x x' x'' Hv Hx; cbn [fold_left]; auto.
  apply IH; auto. apply same_eq. intros c i j k. subst x''. unfold region_add, lin. destruct (in_region g p r i j k); auto. rewrite Hv. ring.
Qed.
Lemma mem_eq : forall m m' : mem, (forall r n i j k, m r n i j k = m' r n i j k) -> m = m'.
Proof. intros m m' H. repeat (apply functional_extensionality; intro). apply H. Qed.
Lemma new_mem_lin : forall g p o al be f f' m m', new_mem g p o (lin al be f f') (lin_mem al be m m') = lin_mem al be (new_mem g p o f m) (new_mem g p o f' m').
Proof. intros. apply mem_eq. intros r n i j k. unfold new_mem, lin_mem. apply (curl_pml_lin g p o r al be f f' (m r) (m' r)). Qed.
Lemma phi_lin : forall g p o al be f f' m m' r c i j k, phi g p o (lin al be f f') (lin_mem al be m m') r c i j k =
  (al * phi g p o f m r c i j k + be * phi g p o f' m' r c i j k)%C.
Proof. intros. unfold phi, lin_mem. apply (curl_pml_lin g p o r al be f f' (m r) (m' r)). Qed.
Lemma pstep_lin : forall g jax p al be s1 s2 l1 l2 l3, lin_sources al be l1 l2 l3 ->
  pstep g jax p (lin_pstate al be s1 s2) l3 = lin_pstate al be (pstep g jax p s1 l1) (pstep g jax p s2 l2).
Proof.
  intros g jax p al be s1 s2 l1 l2 l3 H.
  assert (He : pstep_e g jax p (lin_pstate al be s1 s2) l3 = lin al be (pstep_e g jax p s1 l1) (pstep_e g jax p s2 l2)).
  { unfold pstep_e. apply (fold_lin al be _ (fun a b r e1 e2 e3 => add_src_e_lin g jax al be a b r e1 e2 e3) l1 l2 l3 H).
    apply fold_region_lin.
    - intros r c i j k. cbn [ps_h ps_psi_e lin_pstate]. rewrite phi_lin. unfold Cdiv. ring.
    - apply same_eq. intros c i j k. unfold curl_h. cbn [ps_e ps_h lin_pstate]. rewrite curl_lin. unfold lin, Cdiv. ring. }
  unfold pstep. rewrite He. unfold lin_pstate. cbn [ps_e ps_h ps_psi_e ps_psi_h]. f_equal.
  - unfold pstep_h. apply (fold_lin al be _ (fun a b r e1 e2 e3 => add_src_h_lin g jax al be a b r e1 e2 e3) l1 l2 l3 H).
    apply fold_region_lin.
    + intros r c i j k. rewrite phi_lin. ring.
    + apply same_eq. intros c i j k. unfold curl_e. rewrite curl_lin. unfold lin. ring.
  - apply new_mem_lin.
  - apply new_mem_lin.
Qed.
Lemma prun_lin : forall g jax p al be l1 l2 l3, lin_schedule al be l1 l2 l3 -> forall s1 s2,
  prun g jax p (lin_pstate al be s1 s2) l3 = lin_pstate al be (prun g jax p s1 l1) (prun g jax p s2 l2).
Proof.
  intros g jax p al be l1 l2 l3 H. induction H as [| a b r la lb lr Hs Hl IH]; intros s1 s2; cbn [prun]; auto.
  rewrite (pstep_lin g jax p al be s1 s2 a b r Hs). apply IH.
Qed.

(** ** Uniform fields are left alone *)
Lemma diff_const : forall s dx o z a i j k, diff_fn s dx o (fun _ _ _ => z) a i j k = C0.
Proof. intros. unfold diff_fn, roll_p1, roll_m1, along, Cdiv. destruct o, a; ring. Qed.
Lemma curl_const : forall s dx o (z : axis -> C) c i j k, curl_fn (diff_fn s dx o) (fun c _ _ _ => z c) c i j k = C0.
Proof. intros. unfold curl_fn. destruct c; rewrite !diff_const; ring. Qed.
Lemma pml_const_field : forall g p o r (z : axis -> C), 
  (forall n i j k, fst (curl_pml g p o r (fun c _ _ _ => z c) (zero_mem r)) n i j k = C0) /\
  (forall c i j k, snd (curl_pml g p o r (fun c _ _ _ => z c) (zero_mem r)) c i j k = C0).
Proof.
  intros. unfold curl_pml, curl_pml_fn, pml_diff, zero_mem. cbn [fst snd]. split.
  - intros n i j k. do 5 (destruct n as [| n]; [rewrite diff_const; ring |]). rewrite diff_const; ring.
  - intros c i j k. destruct c; rewrite !diff_const; ring.
Qed.
Lemma fold_region_zero : forall g p v l x, (forall r c i j k, v r c i j k = C0) -> fold_left (region_add g p v) l x = x.
Proof.
  intros g p v l. induction l as [| r l IH]; intros x H; cbn [fold_left]; auto. rewrite IH by auto.
  apply same_eq. intros c i j k. unfold region_add. destruct (in_region g p r i j k); auto. rewrite H. ring.
Qed.
Lemma uniform_fixed : forall g jax p e h, pstep g jax p (uniform_state e h) [] = uniform_state e h.
Proof.
  intros. assert (He : pstep_e g jax p (uniform_state e h) [] = fun c _ _ _ => e c).
  { unfold pstep_e, uniform_state. cbn [fold_left ps_e ps_h ps_psi_e]. rewrite fold_region_zero.
    - apply same_eq. intros c i j k. unfold curl_h. rewrite curl_const. unfold Cdiv. ring.
    - intros. unfold phi. rewrite (proj2 (pml_const_field g p true r h)). unfold Cdiv. ring. }
  unfold pstep. rewrite He. unfold uniform_state. cbn [ps_e ps_h ps_psi_e ps_psi_h]. f_equal.
  - unfold pstep_h. rewrite fold_region_zero.
    + apply same_eq. intros c i j k. cbn [fold_left]. unfold curl_e. rewrite curl_const. ring.
    + intros. unfold phi. rewrite (proj2 (pml_const_field g p false r e)). ring.
  - apply mem_eq. intros. unfold new_mem. apply (pml_const_field g p true r h).
  - apply mem_eq. intros. unfold new_mem. apply (pml_const_field g p false r e).
Qed.
Lemma uniform_fixed_n : forall g jax p e h n, prun g jax p (uniform_state e h) (repeat [] n) = uniform_state e h.
Proof. intros. induction n as [| n IH]; cbn [repeat prun]; auto. rewrite uniform_fixed. auto. Qed.
Lemma pstep_jax_free : forall g p st, pstep g true p st [] = pstep g false p st [].
Proof. intros. unfold pstep, pstep_e, pstep_h. rewrite (eps_jax g). reflexivity. Qed.
Lemma prun_jax_free : forall g p st n, prun g true p st (repeat [] n) = prun g false p st (repeat [] n).
Proof. intros g p st n. revert st. induction n as [| n IH]; intro st; cbn [repeat prun]; auto. Qed.
