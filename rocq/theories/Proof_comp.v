(** Proofs for C148-C150. *)
From Coq Require Import Reals List Arith ZArith Bool Lia Lra.
From Verif Require Import Cx Arr Model_yee Model_comp Spec_comp.
Import ListNotations.
Local Open Scope R_scope.

(** ** Labels *)
Lemma label_e_nth : forall s d a n, (n < s a)%nat -> nth n (label_e s d a) 0 = if Nat.ltb 1 (s a) then INR n * d a else 0.
Proof.
  intros s d a n Hn. unfold label_e, grid_pos. destruct (Nat.ltb 1 (s a)) eqn:E.
  - apply Nat.ltb_lt in E. rewrite map_length, seq_length. destruct (Nat.ltb_spec 1 (S (s a))) as [_ | H]; [| lia].
    rewrite seq_S, map_app. cbn [map]. rewrite removelast_last.
    rewrite (nth_indep _ 0 ((fun i => INR i * d a) O)) by (rewrite map_length, seq_length; lia).
    rewrite (map_nth (fun i => INR i * d a)), seq_nth by lia. reflexivity.
  - cbn [length]. destruct (Nat.ltb_spec 1 1) as [H | _]; [lia |]. destruct n; [reflexivity |]. destruct n; reflexivity.
Qed.
Lemma label_h_nth : forall s d a n, (n < s a)%nat -> nth n (label_h s d a) 0 = if Nat.ltb 1 (s a) then (INR n + / 2) * d a else 0.
Proof.
  intros s d a n Hn. unfold label_h, grid_pos. destruct (Nat.ltb 1 (s a)) eqn:E.
  - apply Nat.ltb_lt in E. rewrite map_length, seq_length. destruct (Nat.ltb_spec 1 (S (s a))) as [_ | H]; [| lia].
    rewrite seq_S, map_app. cbn [map]. rewrite removelast_last. rewrite map_map.
    rewrite (nth_indep _ 0 ((fun i => INR i * d a + / 2 * d a) O)) by (rewrite map_length, seq_length; lia).
    rewrite (map_nth (fun i => INR i * d a + / 2 * d a)), seq_nth by lia. rewrite Nat.add_0_l. ring.
  - cbn [length]. destruct (Nat.ltb_spec 1 1) as [H | _]; [lia |]. destruct n; [reflexivity |]. destruct n; reflexivity.
Qed.

Lemma cis_diff_up : forall t x, (cis (t + x) - cis t)%C = (RtoC (2 * sin (x / 2)) * (Ci * cis (t + x / 2)))%C.
Proof.
  intros t x. replace (t + x) with ((t + x / 2) + x / 2) by field. set (u := t + x / 2).
  replace (cis t) with (cis (u - x / 2)) by (f_equal; unfold u; ring).
  set (v := x / 2). apply C_eq; unfold cis; cbn [re im RtoC Csub Cmul Cadd Copp Ci]; unfold Rminus.
  - rewrite !cos_plus, cos_neg, sin_neg. ring.
  - rewrite !sin_plus, cos_neg, sin_neg. ring.
Qed.
Lemma quot : forall (z : C) (w d : R), d <> 0 -> ((z * RtoC w) / RtoC d)%C = (z * RtoC (w / d))%C.
Proof. intros z w d Hd. apply C_eq; unfold Cdiv, Cinv, Cn2; cbn [re im RtoC Csub Cmul Cadd Copp]; field; lra. Qed.

(** one forward difference of a plane wave *)
Lemma diff_up : forall s d k (A : C) (pa pb : axis -> nat -> R) ax i j l, (forall a, d a <> 0) -> inside_up s k i j l ->
  (forall a, a <> ax -> forall n, pb a n = pa a n) ->
  (forall n, pa ax n = INR n * d ax) -> (forall n, pb ax n = (INR n + / 2) * d ax) ->
  diff_fn s (uniform_dx d) false (fun i j l => (A * cis (k AX * pa AX i + k AY * pa AY j + k AZ * pa AZ l))%C) ax i j l =
  (Ci * RtoC (seen d k ax) * A * cis (k AX * pb AX i + k AY * pb AY j + k AZ * pb AZ l))%C.
Proof.
  intros s d k A pa pb ax i j l Hd Hin Hne Ha Hb. unfold diff_fn, uniform_dx, roll_m1.
  assert (KEY : forall n, (S n < s ax)%nat \/ (s ax = 1%nat /\ n = O /\ k ax = 0) -> k ax * pa ax (nxt (s ax) n) = k ax * pa ax n + k ax * d ax).
  { intros n [H | [H1 [H2 H3]]].
    - unfold nxt. rewrite Nat.mod_small by lia. rewrite !Ha. rewrite Nat.add_1_r, S_INR. ring.
    - rewrite H3. ring. }
  assert (G : forall t, (((A * cis (t + k ax * d ax)) - A * cis t) / RtoC (d ax))%C = (Ci * RtoC (seen d k ax) * A * cis (t + k ax * d ax / 2))%C).
  { intro t. replace (A * cis (t + k ax * d ax) - A * cis t)%C with ((A * (Ci * cis (t + k ax * d ax / 2))) * RtoC (2 * sin (k ax * d ax / 2)))%C.
    - rewrite quot by apply Hd. unfold seen. apply C_eq; cbn [re im RtoC Cmul Ci]; ring.
    - pose proof (cis_diff_up t (k ax * d ax)) as E.
      transitivity (A * (cis (t + k ax * d ax) - cis t))%C; [rewrite E |]; apply C_eq; cbn [re im RtoC Cmul Ci Csub Cadd Copp]; ring. }
  specialize (Hin ax). destruct ax; unfold along, coord in *; rewrite KEY by exact Hin.
  - replace (k AX * pa AX i + k AX * d AX + k AY * pa AY j + k AZ * pa AZ l) with ((k AX * pa AX i + k AY * pa AY j + k AZ * pa AZ l) + k AX * d AX) by ring.
    rewrite G. f_equal. f_equal. rewrite (Hne AY), (Hne AZ) by discriminate. rewrite Hb, Ha. field.
  - replace (k AX * pa AX i + (k AY * pa AY j + k AY * d AY) + k AZ * pa AZ l) with ((k AX * pa AX i + k AY * pa AY j + k AZ * pa AZ l) + k AY * d AY) by ring.
    rewrite G. f_equal. f_equal. rewrite (Hne AX), (Hne AZ) by discriminate. rewrite Hb, Ha. field.
  - replace (k AX * pa AX i + k AY * pa AY j + (k AZ * pa AZ l + k AZ * d AZ)) with ((k AX * pa AX i + k AY * pa AY j + k AZ * pa AZ l) + k AZ * d AZ) by ring.
    rewrite G. f_equal. f_equal. rewrite (Hne AX), (Hne AY) by discriminate. rewrite Hb, Ha. field.
Qed.
(** one backward difference *)
Lemma diff_down : forall s d k (A : C) (pa pb : axis -> nat -> R) ax i j l, (forall a, d a <> 0) -> inside_down s k i j l ->
  (forall a, a <> ax -> forall n, pb a n = pa a n) ->
  (forall n, pa ax n = (INR n + / 2) * d ax) -> (forall n, pb ax n = INR n * d ax) ->
  diff_fn s (uniform_dx d) true (fun i j l => (A * cis (k AX * pa AX i + k AY * pa AY j + k AZ * pa AZ l))%C) ax i j l =
  (Ci * RtoC (seen d k ax) * A * cis (k AX * pb AX i + k AY * pb AY j + k AZ * pb AZ l))%C.
Proof.
  intros s d k A pa pb ax i j l Hd Hin Hne Ha Hb. unfold diff_fn, uniform_dx, roll_p1.
  assert (KEY : forall n, (0 < n < s ax)%nat \/ (s ax = 1%nat /\ n = O /\ k ax = 0) -> k ax * pa ax (prv (s ax) n) = k ax * pa ax n - k ax * d ax).
  { intros n [H | [H1 [H2 H3]]].
    - unfold prv. replace (n + s ax - 1)%nat with ((n - 1) + 1 * s ax)%nat by lia. rewrite Nat.mod_add by lia. rewrite Nat.mod_small by lia.
      rewrite !Ha. rewrite minus_INR by lia. cbn [INR]. ring.
    - rewrite H3. ring. }
  assert (G : forall t, ((A * cis t - (A * cis (t - k ax * d ax))) / RtoC (d ax))%C = (Ci * RtoC (seen d k ax) * A * cis (t - k ax * d ax / 2))%C).
  { intro t. replace (A * cis t - A * cis (t - k ax * d ax))%C with ((A * (Ci * cis (t - k ax * d ax / 2))) * RtoC (2 * sin (k ax * d ax / 2)))%C.
    - rewrite quot by apply Hd. unfold seen. apply C_eq; cbn [re im RtoC Cmul Ci]; ring.
    - pose proof (cis_diff_up (t - k ax * d ax) (k ax * d ax)) as E.
      replace (t - k ax * d ax + k ax * d ax) with t in E by ring.
      replace (t - k ax * d ax + k ax * d ax / 2) with (t - k ax * d ax / 2) in E by field.
      transitivity (A * (cis t - cis (t - k ax * d ax)))%C; [rewrite E |]; apply C_eq; cbn [re im RtoC Cmul Ci Csub Cadd Copp]; ring. }
  specialize (Hin ax). destruct ax; unfold along, coord in *; rewrite KEY by exact Hin.
  - replace (k AX * pa AX i - k AX * d AX + k AY * pa AY j + k AZ * pa AZ l) with ((k AX * pa AX i + k AY * pa AY j + k AZ * pa AZ l) - k AX * d AX) by ring.
    rewrite G. f_equal. f_equal. rewrite (Hne AY), (Hne AZ) by discriminate. rewrite Hb, Ha. field.
  - replace (k AX * pa AX i + (k AY * pa AY j - k AY * d AY) + k AZ * pa AZ l) with ((k AX * pa AX i + k AY * pa AY j + k AZ * pa AZ l) - k AY * d AY) by ring.
    rewrite G. f_equal. f_equal. rewrite (Hne AX), (Hne AZ) by discriminate. rewrite Hb, Ha. field.
  - replace (k AX * pa AX i + k AY * pa AY j + (k AZ * pa AZ l - k AZ * d AZ)) with ((k AX * pa AX i + k AY * pa AY j + k AZ * pa AZ l) - k AZ * d AZ) by ring.
    rewrite G. f_equal. f_equal. rewrite (Hne AX), (Hne AY) by discriminate. rewrite Hb, Ha. field.
Qed.

Ltac side := first [ intros n; reflexivity | intros a Ha n; destruct a; try reflexivity; exfalso; apply Ha; reflexivity ].

Lemma yee_curl_e : forall s d k A c i j l, (forall a, d a <> 0) -> inside_up s k i j l ->
  curl_fn (diff_fn s (uniform_dx d) false) (wave k A (yee_e d)) c i j l =
  (Ci * wave k (crossv (seen d k) A) (yee_h d) c i j l)%C.
Proof.
  intros s d k A c i j l Hd Hin. destruct c; unfold curl_fn.
  - unfold wave at 1 2. rewrite (diff_up s d k (A AZ) (yee_e d AZ) (yee_h d AX) AY), (diff_up s d k (A AY) (yee_e d AY) (yee_h d AX) AZ); try assumption; try side.
    unfold wave, crossv. ring.
  - unfold wave at 1 2. rewrite (diff_up s d k (A AX) (yee_e d AX) (yee_h d AY) AZ), (diff_up s d k (A AZ) (yee_e d AZ) (yee_h d AY) AX); try assumption; try side.
    unfold wave, crossv. ring.
  - unfold wave at 1 2. rewrite (diff_up s d k (A AY) (yee_e d AY) (yee_h d AZ) AX), (diff_up s d k (A AX) (yee_e d AX) (yee_h d AZ) AY); try assumption; try side.
    unfold wave, crossv. ring.
Qed.
Lemma yee_curl_h : forall s d k A c i j l, (forall a, d a <> 0) -> inside_down s k i j l ->
  curl_fn (diff_fn s (uniform_dx d) true) (wave k A (yee_h d)) c i j l =
  (Ci * wave k (crossv (seen d k) A) (yee_e d) c i j l)%C.
Proof.
  intros s d k A c i j l Hd Hin. destruct c; unfold curl_fn.
  - unfold wave at 1 2. rewrite (diff_down s d k (A AZ) (yee_h d AZ) (yee_e d AX) AY), (diff_down s d k (A AY) (yee_h d AY) (yee_e d AX) AZ); try assumption; try side.
    unfold wave, crossv. ring.
  - unfold wave at 1 2. rewrite (diff_down s d k (A AX) (yee_h d AX) (yee_e d AY) AZ), (diff_down s d k (A AZ) (yee_h d AZ) (yee_e d AY) AX); try assumption; try side.
    unfold wave, crossv. ring.
  - unfold wave at 1 2. rewrite (diff_down s d k (A AY) (yee_h d AY) (yee_e d AZ) AX), (diff_down s d k (A AX) (yee_h d AX) (yee_e d AZ) AY); try assumption; try side.
    unfold wave, crossv. ring.
Qed.

(** The phase that decorate's labels miss, for a wave that does not vary along single-cell axes. *)
Lemma wave_shift : forall k A p q c i j l x, k AX * p c AX i + k AY * p c AY j + k AZ * p c AZ l = (k AX * q c AX i + k AY * q c AY j + k AZ * q c AZ l) + x ->
  wave k A p c i j l = (cis x * wave k A q c i j l)%C.
Proof. intros k A p q c i j l x H. unfold wave. rewrite H, cis_add. ring. Qed.
Lemma axis_eqb_refl : forall a, axis_eqb a a = true. Proof. intros []; reflexivity. Qed.
Lemma axis_eqb_neq : forall a b, a <> b -> axis_eqb a b = false. Proof. intros [] [] H; try reflexivity; exfalso; apply H; reflexivity. Qed.
Lemma term_e : forall s d k c a n, (n < s a)%nat -> (s a = 1%nat -> k a = 0) ->
  k a * yee_e d c a n = k a * nth n (label_e s d a) 0 + (if axis_eqb c a then k a * d a / 2 else 0).
Proof.
  intros s d k c a n Hn Hk. rewrite label_e_nth by exact Hn. unfold yee_e. destruct (Nat.ltb_spec 1 (s a)) as [H | H].
  - destruct (axis_eqb c a); field.
  - rewrite Hk by lia. destruct (axis_eqb c a); field.
Qed.
Lemma term_h : forall s d k c a n, (n < s a)%nat -> (s a = 1%nat -> k a = 0) ->
  k a * yee_h d c a n = k a * nth n (label_h s d a) 0 + (if axis_eqb c a then - (k a * d a / 2) else 0).
Proof.
  intros s d k c a n Hn Hk. rewrite label_h_nth by exact Hn. unfold yee_h. destruct (Nat.ltb_spec 1 (s a)) as [H | H].
  - destruct (axis_eqb c a); field.
  - rewrite Hk by lia. destruct (axis_eqb c a); field.
Qed.
Lemma phase_e : forall s d k A c i j l, (forall a, (coord a i j l < s a)%nat) -> (forall a, s a = 1%nat -> k a = 0) ->
  wave k A (yee_e d) c i j l = (cis (k c * d c / 2) * wave k A (fun _ a n => nth n (label_e s d a) 0) c i j l)%C.
Proof.
  intros s d k A c i j l Hi Hk. apply wave_shift.
  rewrite (term_e s d k c AX i (Hi AX) (Hk AX)), (term_e s d k c AY j (Hi AY) (Hk AY)), (term_e s d k c AZ l (Hi AZ) (Hk AZ)).
  destruct c; cbn [axis_eqb]; ring.
Qed.
Lemma phase_h : forall s d k A c i j l, (forall a, (coord a i j l < s a)%nat) -> (forall a, s a = 1%nat -> k a = 0) ->
  wave k A (yee_h d) c i j l = (cis (- (k c * d c / 2)) * wave k A (fun _ a n => nth n (label_h s d a) 0) c i j l)%C.
Proof.
  intros s d k A c i j l Hi Hk. apply wave_shift.
  rewrite (term_h s d k c AX i (Hi AX) (Hk AX)), (term_h s d k c AY j (Hi AY) (Hk AY)), (term_h s d k c AZ l (Hi AZ) (Hk AZ)).
  destruct c; cbn [axis_eqb]; ring.
Qed.
Lemma exact_e : forall s d k A c i j l, (forall a, (coord a i j l < s a)%nat) -> (forall a, s a = 1%nat -> k a = 0) -> k c = 0 ->
  wave k A (fun _ a n => nth n (label_e s d a) 0) c i j l = wave k A (yee_e d) c i j l.
Proof.
  intros s d k A c i j l Hi Hk Hc. rewrite (phase_e s d k A c i j l Hi Hk), Hc. replace (0 * d c / 2) with 0 by field. rewrite cis_0. ring.
Qed.
Lemma exact_h : forall s d k A c i j l, (forall a, (coord a i j l < s a)%nat) -> (forall a, s a = 1%nat -> k a = 0) -> k c = 0 ->
  wave k A (fun _ a n => nth n (label_h s d a) 0) c i j l = wave k A (yee_h d) c i j l.
Proof.
  intros s d k A c i j l Hi Hk Hc. rewrite (phase_h s d k A c i j l Hi Hk), Hc. replace (- (0 * d c / 2)) with 0 by field. rewrite cis_0. ring.
Qed.
Lemma labels_off : forall s d a n, (1 < s a)%nat -> (n < s a)%nat ->
  (forall c, c <> a -> nth n (label_e s d a) 0 = yee_e d c a n /\ nth n (label_h s d a) 0 = yee_h d c a n) /\
  nth n (label_e s d a) 0 = yee_e d a a n - d a / 2 /\ nth n (label_h s d a) 0 = yee_h d a a n + d a / 2.
Proof.
  intros s d a n H1 Hn. rewrite label_e_nth, label_h_nth by exact Hn. destruct (Nat.ltb_spec 1 (s a)) as [_ | H]; [| lia].
  unfold yee_e, yee_h. rewrite axis_eqb_refl. split; [| split; field].
  intros c Hc. rewrite axis_eqb_neq by exact Hc. split; reflexivity.
Qed.
Lemma label_lengths : forall s d a, (1 <= s a)%nat -> length (label_e s d a) = s a /\ length (label_h s d a) = s a.
Proof.
  intros s d a H. unfold label_e, label_h, grid_pos. destruct (Nat.ltb_spec 1 (s a)) as [H1 | H1].
  - rewrite map_length, seq_length. destruct (Nat.ltb_spec 1 (S (s a))) as [_ | H2]; [| lia].
    rewrite seq_S, map_app. cbn [map]. rewrite removelast_last, !map_length, seq_length. split; reflexivity.
  - cbn [length]. destruct (Nat.ltb_spec 1 1) as [H2 | _]; [lia |]. cbn [length]. split; lia.
Qed.

(** ** shift_slice *)
Lemma set_nth_same : forall A (l : list A) n x, (n < length l)%nat -> nth_error (set_nth l n x) n = Some x.
Proof.
  intros A l n x H. unfold set_nth. rewrite nth_error_app2 by (rewrite firstn_length; lia).
  rewrite firstn_length, Nat.min_l by lia. rewrite Nat.sub_diag. reflexivity.
Qed.
Lemma set_nth_other : forall A (l : list A) n x m, (n < length l)%nat -> m <> n -> nth_error (set_nth l n x) m = nth_error l m.
Proof.
  induction l as [| y l IH]; intros n x m H Hm; cbn [length] in H; [lia |].
  destruct n as [| n], m as [| m]; try congruence; try reflexivity.
  unfold set_nth in *. cbn [firstn skipn List.app nth_error]. apply IH; lia.
Qed.
Lemma shift_int : forall l shift ax z, nth_error l ax = Some (EInt z) -> exists r, shift_slice l shift ax = Some r /\
  length r = length l /\ nth_error r ax = Some (EInt (z + shift)) /\ forall m, m <> ax -> nth_error r m = nth_error l m.
Proof.
  intros l shift ax z H. unfold shift_slice. rewrite H. eexists. split; [reflexivity |].
  assert (L : (ax < length l)%nat) by (apply nth_error_Some; rewrite H; discriminate).
  split; [| split].
  - unfold set_nth. rewrite app_length. cbn [length]. rewrite firstn_length, skipn_length. lia.
  - apply set_nth_same. exact L.
  - intros m Hm. apply set_nth_other; assumption.
Qed.

(** ** from_fdfd *)
Lemma pos_of_in : forall p l, In p l -> exists n, pos_of p l = Some n /\ nth_error l n = Some p.
Proof.
  intros p l. induction l as [| q l IH]; intros H; [destruct H |]. cbn [pos_of]. destruct (Nat.eqb_spec q p) as [-> | N].
  - exists O. split; reflexivity.
  - destruct H as [H | H]; [contradiction |]. destruct (IH H) as [n [-> E]]. exists (S n). split; [reflexivity | exact E].
Qed.
Lemma pos_of_some : forall p l n, pos_of p l = Some n -> nth_error l n = Some p.
Proof.
  intros p l. induction l as [| q l IH]; intros n H; [discriminate H |]. cbn [pos_of] in H. destruct (Nat.eqb_spec q p) as [-> | N].
  - assert (n = O) by congruence. subst n. reflexivity.
  - destruct (pos_of p l) as [m |]; [| discriminate H]. assert (n = S m) by congruence. subst n. cbn [nth_error]. apply IH. reflexivity.
Qed.
Lemma collect_map : forall A B (f : A -> option B) (g : A -> B) l, (forall x, In x l -> f x = Some (g x)) -> collect (map f l) = Some (map g l).
Proof.
  intros A B f g l. induction l as [| x l IH]; intros H; [reflexivity |]. cbn [map collect]. rewrite (H x (or_introl eq_refl)).
  rewrite IH; [reflexivity |]. intros y Hy. apply H. right. exact Hy.
Qed.
(** what get_sim_sparams_fn computes *)
Definition got (D : device) (wl factor : R) (a b : nat) : C :=
  let fields := dv_solve D wl (dv_source D a (155 / 100) factor) in
  (fst (dv_measure D b (155 / 100) 3 fields) / snd (dv_measure D a (155 / 100) 3 fields))%C.
Lemma sparams_got : forall D wl factor a, In a (dv_ports D) -> sparams D wl factor a = Some (map (got D wl factor a) (dv_ports D)).
Proof.
  intros D wl factor a Ha. unfold sparams. destruct (pos_of_in a _ Ha) as [n [-> E]]. rewrite map_map. f_equal. apply map_ext. intro b.
  unfold got. f_equal. f_equal. change default_wavelength with (155 / 100). change default_factor with 3.
  apply (nth_error_nth _ _ (C0, C0)).
  exact (map_nth_error (fun p => dv_measure D p (155 / 100) 3 (dv_solve D wl (dv_source D a (155 / 100) factor))) _ _ E).
Qed.
Lemma from_fdfd_data : forall D wls factor i o, length i = length (dv_ports D) -> length o = length (dv_ports D) ->
  from_fdfd D wls factor (Some i) (Some o) =
  Some (mkDA (map (fun wl => map (fun a => map (got D wl factor a) (dv_ports D)) (dv_ports D)) wls) wls i o).
Proof.
  intros D wls factor i o Hi Ho. unfold from_fdfd.
  rewrite (collect_map _ _ _ (fun wl => map (fun a => map (got D wl factor a) (dv_ports D)) (dv_ports D))).
  - rewrite Hi, Ho, Nat.eqb_refl. reflexivity.
  - intros wl _. apply collect_map. intros a Ha. apply sparams_got. exact Ha.
Qed.
Lemma sel_got : forall D wls factor i o k wl ia ob a b, length i = length (dv_ports D) -> length o = length (dv_ports D) ->
  nth_error wls k = Some wl -> NoDup i -> NoDup o ->
  forall n m, nth_error i n = Some ia -> nth_error o m = Some ob -> nth_error (dv_ports D) n = Some a -> nth_error (dv_ports D) m = Some b ->
  exists da, from_fdfd D wls factor (Some i) (Some o) = Some da /\ da_sel da k ia ob = Some (got D wl factor a b).
Proof.
  intros D wls factor i o k wl ia ob a b Hi Ho Hk Ni No n m Hn Hm Pn Pm. eexists. split; [apply from_fdfd_data; assumption |].
  unfold da_sel. cbn [da_in da_out da_data].
  assert (U : forall (l : list nat) x j, NoDup l -> nth_error l j = Some x -> pos_of x l = Some j).
  { intros l x j Nl Hj. destruct (pos_of_in x l (nth_error_In _ _ Hj)) as [q [Eq1 Eq2]]. rewrite Eq1. f_equal.
    apply (proj1 (NoDup_nth_error l) Nl); [apply nth_error_Some; rewrite Eq2; discriminate | congruence]. }
  rewrite (U i ia n Ni Hn), (U o ob m No Hm).
  rewrite (nth_error_nth _ _ [] (map_nth_error (fun wl => map (fun a => map (got D wl factor a) (dv_ports D)) (dv_ports D)) _ _ Hk)).
  rewrite (nth_error_nth _ _ [] (map_nth_error (fun a => map (got D wl factor a) (dv_ports D)) _ _ Pn)).
  apply map_nth_error. exact Pm.
Qed.
Lemma right_sparams : forall D wls k wl a b, NoDup (dv_ports D) -> In a (dv_ports D) -> In b (dv_ports D) ->
  nth_error wls k = Some wl -> wl = 155 / 100 ->
  exists da, from_fdfd D wls 3 (Some (dv_ports D)) (Some (dv_ports D)) = Some da /\ da_sel da k a b = Some (true_sparam D wl 3 a b).
Proof.
  intros D wls k wl a b Nd Ha Hb Hk Hw. apply In_nth_error in Ha. apply In_nth_error in Hb. destruct Ha as [n Hn], Hb as [m Hm].
  destruct (sel_got D wls 3 (dv_ports D) (dv_ports D) k wl a b a b eq_refl eq_refl Hk Nd Nd n m Hn Hm Hn Hm) as [da [H1 H2]].
  exists da. split; [exact H1 |]. rewrite H2. unfold got, true_sparam. rewrite Hw. reflexivity.
Qed.
Lemma got_modes : forall D src meas wls factor i o,
  (forall p fct, src p (155 / 100) fct = dv_source D p (155 / 100) fct) -> (forall p f, meas p (155 / 100) 3 f = dv_measure D p (155 / 100) 3 f) ->
  from_fdfd (with_modes D src meas) wls factor i o = from_fdfd D wls factor i o.
Proof.
  intros D src meas wls factor i o H1 H2. destruct i as [i |], o as [o |].
  - unfold from_fdfd. cbn [with_modes dv_ports].
    rewrite !(collect_map _ _ _ (fun wl => map (fun a => map (got D wl factor a) (dv_ports D)) (dv_ports D))); [reflexivity | |].
    + intros wl _. apply collect_map. intros a Ha. apply sparams_got. exact Ha.
    + intros wl _. apply collect_map. intros a Ha. rewrite (sparams_got (with_modes D src meas)) by exact Ha. f_equal. cbn [with_modes dv_ports].
      apply map_ext. intro b. unfold got. cbn [with_modes dv_solve dv_source dv_measure]. rewrite H1, !H2. reflexivity.
  - unfold from_fdfd. destruct (collect _), (collect _); reflexivity.
  - unfold from_fdfd. destruct (collect _), (collect _); reflexivity.
  - unfold from_fdfd. destruct (collect _), (collect _); reflexivity.
Qed.
(** a two-port device whose modes depend on the wavelength: the fields are the source amplitude, measured with weight = wavelength *)
Definition wave_device : device := mkDevice R R [0%nat; 1%nat] (fun _ wl _ => wl) (fun _ x => x)
  (fun p wl _ f => (RtoC (if Nat.eqb p 1 then f * wl else 1), RtoC 1)).
Lemma wave_device_wrong : forall wl, 0 < wl -> wl <> 155 / 100 -> exists da, from_fdfd wave_device [wl] 3 (Some [0%nat; 1%nat]) (Some [0%nat; 1%nat]) = Some da /\
  da_sel da 0 0 1 <> Some (true_sparam wave_device wl 3 0 1).
Proof.
  intros wl Hw N. destruct (sel_got wave_device [wl] 3 [0%nat; 1%nat] [0%nat; 1%nat] 0 wl 0 1 0 1 eq_refl eq_refl eq_refl) with (n := 0%nat) (m := 1%nat) as [da [H1 H2]];
    try reflexivity; try (constructor; [intros [H | []]; discriminate H | constructor; [intros [] | constructor]]).
  exists da. split; [exact H1 |]. rewrite H2. intro E. assert (E2 : got wave_device wl 3 0 1 = true_sparam wave_device wl 3 0 1) by congruence.
  unfold got, true_sparam, wave_device in E2. cbn [dv_solve dv_source dv_measure fst snd Nat.eqb] in E2.
  apply (f_equal re) in E2. unfold Cdiv, Cinv, Cn2 in E2. cbn [re im RtoC Cmul] in E2.
  assert (F : 155 / 100 * (155 / 100) = wl * wl) by lra.
  assert (G : (wl - 155 / 100) * (wl + 155 / 100) = 0) by lra.
  apply Rmult_integral in G. destruct G; lra.
Qed.
Lemma none_raises : forall D wls factor o, from_fdfd D wls factor None o = None /\ from_fdfd D wls factor o None = None.
Proof. intros D wls factor o. unfold from_fdfd. split; [destruct (collect _); destruct o | destruct (collect _); [destruct o |]]; reflexivity. Qed.
Lemma subset_raises : forall D wls factor i o, (length i <> length (dv_ports D))%nat \/ (length o <> length (dv_ports D))%nat ->
  from_fdfd D wls factor (Some i) (Some o) = None.
Proof.
  intros D wls factor i o H. unfold from_fdfd. destruct (collect _); [| reflexivity].
  destruct (Nat.eqb_spec (length i) (length (dv_ports D))), (Nat.eqb_spec (length o) (length (dv_ports D))); try reflexivity. destruct H; contradiction.
Qed.
(** labels are assigned by position *)
Lemma swapped : forall D wls k wl p q, dv_ports D = [p; q] -> p <> q -> nth_error wls k = Some wl -> wl = 155 / 100 ->
  exists da, from_fdfd D wls 3 (Some [q; p]) (Some [q; p]) = Some da /\ da_sel da k p q = Some (true_sparam D wl 3 q p).
Proof.
  intros D wls k wl p q HP Hpq Hk Hw.
  assert (N : NoDup [q; p]) by (constructor; [intros [H | []]; congruence | constructor; [intros [] | constructor]]).
  destruct (sel_got D wls 3 [q; p] [q; p] k wl p q q p) with (n := 1%nat) (m := 0%nat) as [da [H1 H2]]; try rewrite HP; try reflexivity; try assumption.
  exists da. split; [exact H1 |]. rewrite H2. unfold got, true_sparam. rewrite Hw. reflexivity.
Qed.
