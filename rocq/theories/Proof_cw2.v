(** Lemmas about run_cw_port: resumption, weights, measurement wavelength. *)
From Coq Require Import Reals List Arith ZArith Bool Lra Lia.
From Verif Require Import Cx Arr Model_yee Model_fdtd Model_cw Spec_cw Proof_cw.
Import ListNotations.
Local Open Scope R_scope.

Section Loop.
Context {A : Type} (g : fgrid) (jax : bool) (measure : fstate -> A).
Lemma loop_app : forall src l1 l2 st, cw_loop g jax src measure (l1 ++ l2) st =
  let (f1, s1) := cw_loop g jax src measure l1 st in let (f2, s2) := cw_loop g jax src measure l2 s1 in (f1 ++ f2, s2).
Proof.
  intros src; induction l1 as [| t r IH]; intros l2 st; cbn [List.app cw_loop].
  - destruct (cw_loop g jax src measure l2 st); reflexivity.
  - rewrite IH. destruct (cw_loop g jax src measure r (step g jax st (src t))) as [f1 s1].
    destruct (cw_loop g jax src measure l2 s1) as [f2 s2]. reflexivity.
Qed.
Lemma loop_shift : forall src src' a, (forall t, src (a + t)%nat = src' t) -> forall n k st,
  cw_loop g jax src measure (seq (a + k) n) st = cw_loop g jax src' measure (seq k n) st.
Proof.
  intros src src' a H. induction n as [| n IH]; intros k st; [reflexivity |]. cbn [seq cw_loop]. rewrite H.
  replace (S (a + k)) with (a + S k)%nat by lia. rewrite IH. reflexivity.
Qed.
Lemma loop_length : forall src l st, length (fst (cw_loop g jax src measure l st)) = length l.
Proof.
  intros src; induction l as [| t r IH]; intros st; [reflexivity |]. cbn [cw_loop]. specialize (IH (step g jax st (src t))).
  destruct (cw_loop g jax src measure r (step g jax st (src t))); cbn in *. lia.
Qed.
End Loop.

Lemma sources_shift : forall g md keys wl a t, cis (INR a * dt_of g * (2 * PI / wl)) = C1 ->
  cw_sources g md keys wl (a + t) = cw_sources g md keys wl t.
Proof.
  intros g md keys wl a t H. unfold cw_sources. cbv zeta.
  replace (INR (a + t) * dt_of g * (2 * PI / wl)) with (INR a * dt_of g * (2 * PI / wl) + INR t * dt_of g * (2 * PI / wl)) by (rewrite plus_INR; ring).
  rewrite cis_add, H. replace (C1 * cis (INR t * dt_of g * (2 * PI / wl)))%C with (cis (INR t * dt_of g * (2 * PI / wl))) by ring. reflexivity.
Qed.
Lemma whole_periods : forall d wl (k : Z), wl <> 0 -> d = IZR k * wl -> cis (d * (2 * PI / wl)) = C1.
Proof.
  intros d wl k Hw E. rewrite E. replace (IZR k * wl * (2 * PI / wl)) with (0 + 2 * PI * IZR k) by (field; exact Hw).
  rewrite cis_period. apply C_eq; cbn; [apply cos_0 | apply sin_0].
Qed.

Lemma resume_ok : forall (A : Type) g jax md (measure : R -> fstate -> A) src wl a b st fl1 st1 fl2 st2, wl <> 0 ->
  (exists k, INR a * dt_of g = IZR k * wl) ->
  run_cw_port g jax md measure src wl a st = Some (fl1, st1) -> run_cw_port g jax md measure src wl b st1 = Some (fl2, st2) ->
  run_cw_port g jax md measure src wl (a + b) st = Some (fl1 ++ tl fl2, st2).
Proof.
  intros A g jax md measure src wl a b st fl1 st1 fl2 st2 Hw [k Hk]. unfold run_cw_port. destruct (parse_source_port src) as [d |]; [| discriminate].
  cbv zeta. set (mf := measure measure_default_wavelength). set (keys := map fst d).
  rewrite seq_app, loop_app. cbn [plus].
  destruct (cw_loop g jax (cw_sources g md keys wl) mf (seq 0 a) st) as [f1 s1]. intros E1.
  assert (X : mf st :: f1 = fl1 /\ s1 = st1) by (split; congruence). destruct X as [<- <-].
  pose proof (loop_shift g jax mf (cw_sources g md keys wl) (cw_sources g md keys wl) a
    (fun t => sources_shift g md keys wl a t (whole_periods _ wl k Hw Hk)) b 0 s1) as L.
  rewrite Nat.add_0_r in L. rewrite L.
  destruct (cw_loop g jax (cw_sources g md keys wl) mf (seq 0 b) s1) as [f2 s2]. intros E2.
  assert (X : mf s1 :: f2 = fl2 /\ s2 = st2) by (split; congruence). destruct X as [<- <-]. cbn [tl List.app]. reflexivity.
Qed.

Lemma run_returns : forall (A : Type) g jax md (measure : R -> fstate -> A) src wl n st, documented src -> (forall p, src <> SSeq [SName p]) ->
  exists fl fin, run_cw_port g jax md measure src wl n st = Some (fl, fin) /\ length fl = S n.
Proof.
  intros A g jax md measure src wl n st H1 H2. destruct (parse_documented src H1 H2) as (d & E & _). unfold run_cw_port. rewrite E. cbv zeta.
  pose proof (loop_length g jax (measure measure_default_wavelength) (cw_sources g md (map fst d) wl) (seq 0 n) st) as L.
  destruct (cw_loop g jax (cw_sources g md (map fst d) wl) (measure measure_default_wavelength) (seq 0 n) st) as [fl fin]. cbn in L.
  do 2 eexists. split; [reflexivity |]. cbn. rewrite L, seq_length. reflexivity.
Qed.

(** ** one cell, one port *)
Definition one_cell : fgrid := mkGrid (fun _ => 1%nat) 1 (fun _ => 1) (fun _ _ _ => 1).
Definition all_cells : cells := fun _ _ _ _ => true.
Definition one_mode : modes := mkModes (fun _ _ _ _ _ _ => C1) (fun _ _ _ _ _ _ => C0) (fun _ => all_cells).
Lemma one_dt : dt_of one_cell = 1.
Proof. unfold dt_of, inv_sq; cbn. replace (/ (1 * 1) + 0 + 0) with 1 by field. rewrite sqrt_1. field. Qed.
Lemma nxt1 : forall i, nxt 1 i = 0%nat. Proof. intros; unfold nxt; apply Nat.mod_1_r. Qed.
Lemma prv1 : forall i, prv 1 i = 0%nat. Proof. intros; unfold prv; apply Nat.mod_1_r. Qed.
Lemma diff0 : forall oh (f : fld) a, diff_fn (fun _ => 1%nat) (g_dx one_cell) oh f a 0%nat 0%nat 0%nat = C0.
Proof.
  intros oh f a. unfold diff_fn, roll_m1, roll_p1, along. destruct oh, a; rewrite ?nxt1, ?prv1; unfold Cdiv; ring.
Qed.
Lemma curl0 : forall f c, curl_e one_cell f c 0%nat 0%nat 0%nat = C0 /\ curl_h one_cell f c 0%nat 0%nat 0%nat = C0.
Proof.
  intros f c. unfold curl_e, curl_h, curl_fn. cbn [g_shape one_cell]. destruct c; rewrite !diff0; split; ring.
Qed.
Lemma eps1 : forall c, eps_t one_cell false c 0%nat 0%nat 0%nat = 1.
Proof. intros c. unfold eps_t, yee_avg, avg_axis, ralong. destruct c; cbn; field. Qed.
Lemma step_at : forall st z t, f_e (step one_cell false st (cw_sources one_cell one_mode [(0%nat, 0%Z)] z t)) AX 0%nat 0%nat 0%nat =
  (f_e st AX 0%nat 0%nat 0%nat - cis (INR t * (2 * PI / z)))%C.
Proof.
  intros st z t. unfold step. cbn [f_e]. unfold step_e, cw_sources. cbn [map fold_left]. unfold add_src_e. cbn [src_e src_region one_mode md_region].
  unfold at_add, all_cells. rewrite (proj2 (curl0 _ _)), eps1, one_dt. unfold scale_vfld. cbn [md_e one_mode].
  rewrite Rmult_1_r. set (q := INR t * (2 * PI / z)). unfold Cdiv, Cinv, Cn2. apply C_eq; cbn; field.
Qed.
Lemma resume_bad : forall (A : Type) (measure : R -> fstate -> A) wl, cis (2 * PI / wl) <> C1 ->
  exists fl1 st1 fl2 st2 fl st, run_cw_port one_cell false one_mode measure (SName 0) wl 1 zero_state = Some (fl1, st1) /\
   run_cw_port one_cell false one_mode measure (SName 0) wl 1 st1 = Some (fl2, st2) /\
   run_cw_port one_cell false one_mode measure (SName 0) wl 2 zero_state = Some (fl, st) /\
   f_e st AX 0%nat 0%nat 0%nat <> f_e st2 AX 0%nat 0%nat 0%nat.
Proof.
  intros A measure wl H. unfold run_cw_port. cbn [parse_source_port map fst seq cw_loop].
  do 6 eexists. split; [reflexivity |]. split; [reflexivity |]. split; [reflexivity |].
  rewrite !step_at. cbn [f_e zero_state zero_vfld INR]. intros E. apply H.
  replace (1 * (2 * PI / wl)) with (2 * PI / wl) in E by ring. replace (0 * (2 * PI / wl)) with 0 in E by ring.
  unfold zero_vfld in E. set (q := 2 * PI / wl) in *. pose proof (f_equal re E) as E1. pose proof (f_equal im E) as E2. cbn in E1, E2.
  rewrite cos_0 in E1. rewrite sin_0 in E2. apply C_eq; cbn; lra.
Qed.

Lemma weights_ignored : forall (A : Type) g jax md (measure : R -> fstate -> A) v v' d d' wl n st,
  parse_source_port v = Some d -> parse_source_port v' = Some d' -> map fst d = map fst d' ->
  run_cw_port g jax md measure v wl n st = run_cw_port g jax md measure v' wl n st.
Proof. intros. unfold run_cw_port. rewrite H, H0, H1. reflexivity. Qed.
Lemma weights_bad : forall (A : Type) (measure : R -> fstate -> A) wl w, w <> 1 ->
  exists fl st fl' st', run_cw_port one_cell false one_mode measure (SDict [(KStr 0, 1)]) wl 1 zero_state = Some (fl, st) /\
   run_cw_port one_cell false one_mode measure (SDict [(KStr 0, w)]) wl 1 zero_state = Some (fl', st') /\
   f_e st' AX 0%nat 0%nat 0%nat <> (RtoC w * f_e st AX 0%nat 0%nat 0%nat)%C.
Proof.
  intros A measure wl w H. unfold run_cw_port. cbn [parse_source_port map dict_update fold_left dict_set key_of fst snd seq cw_loop].
  do 4 eexists. split; [reflexivity |]. split; [reflexivity |]. rewrite !step_at. cbn [f_e zero_state INR]. unfold zero_vfld.
  replace (0 * (2 * PI / wl)) with 0 by ring. intros E. apply (f_equal re) in E. cbn in E. rewrite cos_0, sin_0 in E. apply H. lra.
Qed.

Lemma measured_at_default : forall (A : Type) g jax md (measure measure' : R -> fstate -> A) v wl n st,
  (forall s, measure (155 / 100) s = measure' (155 / 100) s) ->
  run_cw_port g jax md measure v wl n st = run_cw_port g jax md measure' v wl n st.
Proof.
  intros A g jax md measure measure' v wl n st H. unfold run_cw_port. destruct (parse_source_port v) as [d |]; [| reflexivity]. cbv zeta.
  assert (L : forall src l s, cw_loop g jax src (measure measure_default_wavelength) l s = cw_loop g jax src (measure' measure_default_wavelength) l s).
  { intros src; induction l as [| t r IH]; intros s; [reflexivity |]. cbn [cw_loop]. rewrite IH. unfold measure_default_wavelength. rewrite H. reflexivity. }
  rewrite L. unfold measure_default_wavelength. rewrite H. reflexivity.
Qed.
Lemma first_flux_wrong : forall (A : Type) g jax md (measure : R -> fstate -> A) p wl n st,
  measure wl st <> measure (155 / 100) st ->
  exists f fl fin, run_cw_port g jax md measure (SName p) wl n st = Some (f :: fl, fin) /\ f <> measure wl st.
Proof.
  intros A g jax md measure p wl n st H. unfold run_cw_port. cbn [parse_source_port map fst]. cbv zeta.
  match goal with |- context [cw_loop ?a ?b ?c ?d ?e ?f] => destruct (cw_loop a b c d e f) as [fl fin] end.
  do 3 eexists. split; [reflexivity |]. unfold measure_default_wavelength. intros E. apply H. symmetry. exact E.
Qed.
Lemma loop_fin : forall (A : Type) g jax src (m : fstate -> A) l st, snd (cw_loop g jax src m l st) = run g jax st (map src l).
Proof.
  intros A g jax src m; induction l as [| t r IH]; intros st; [reflexivity |]. cbn [cw_loop map run]. rewrite <- IH.
  destruct (cw_loop g jax src m r (step g jax st (src t))); reflexivity.
Qed.
Lemma loop_flux : forall (A : Type) g src (m : fstate -> A) n st, fst (cw_loop g true src m (seq 0 n) st) =
  map (fun t => m (synchronized true (run g true st (map src (seq 0 t))) (run g true st (map src (seq 0 (S t)))))) (seq 0 n).
Proof.
  intros A g src m; induction n as [| n IH]; intros st; [reflexivity |].
  pose proof (loop_fin A g true src m (seq 0 n) st) as F. pose proof (loop_fin A g true src m (seq 0 (S n)) st) as G. specialize (IH st).
  rewrite seq_S, loop_app in G |- *. rewrite map_app, <- IH. cbn [map plus]. rewrite seq_S, <- F. cbn [plus].
  cbn [plus] in G. rewrite <- G. destruct (cw_loop g true src m (seq 0 n) st) as [f1 s1]. reflexivity.
Qed.
Lemma flux_history : forall (A : Type) g md (measure : R -> fstate -> A) v n st fl fin,
  run_cw_port g true md measure v (155 / 100) n st = Some (fl, fin) ->
  exists d, parse_source_port v = Some d /\ let keys := map fst d in fl = measure (155 / 100) st :: map (fun t =>
     let s := run g true st (map (driven g md keys (155 / 100)) (seq 0 t)) in
     let s' := run g true st (map (driven g md keys (155 / 100)) (seq 0 (S t))) in
     measure (155 / 100) (mkState (f_e s') (fun c i j k => ((f_h s c i j k + f_h s' c i j k) / RtoC 2)%C))) (seq 0 n) /\
   fin = run g true st (map (driven g md keys (155 / 100)) (seq 0 n)).
Proof.
  intros A g md measure v n st fl fin. unfold run_cw_port. destruct (parse_source_port v) as [d |]; [| discriminate]. cbv zeta.
  set (keys := map fst d). set (m := measure measure_default_wavelength). set (src := cw_sources g md keys (155 / 100)).
  pose proof (loop_flux A g src m n st) as F. pose proof (loop_fin A g true src m (seq 0 n) st) as G.
  destruct (cw_loop g true src m (seq 0 n) st) as [f s]. cbn [fst snd] in F, G. intros E.
  assert (X : m st :: f = fl /\ s = fin) by (split; congruence). destruct X as [<- <-].
  exists d. split; [reflexivity |]. split; [| exact G]. rewrite F. reflexivity.
Qed.
Lemma final_state : forall (A : Type) g jax md (measure : R -> fstate -> A) v wl n st fl fin,
  run_cw_port g jax md measure v wl n st = Some (fl, fin) ->
  exists d, parse_source_port v = Some d /\ fin = run g jax st (map (driven g md (map fst d) wl) (seq 0 n)).
Proof.
  intros A g jax md measure v wl n st fl fin. unfold run_cw_port. destruct (parse_source_port v) as [d |]; [| discriminate]. cbv zeta.
  set (m := measure measure_default_wavelength). pose proof (loop_fin A g jax (cw_sources g md (map fst d) wl) m (seq 0 n) st) as G.
  destruct (cw_loop g jax (cw_sources g md (map fst d) wl) m (seq 0 n) st) as [f s]. cbn [snd] in G. intros E.
  assert (X : s = fin) by congruence. subst fin. exists d. split; [reflexivity | exact G].
Qed.
Lemma single_name_raises : forall p, documented (SSeq [SName p]) /\ asks (SSeq [SName p]) (p, 0%Z) 1 /\ parse_source_port (SSeq [SName p]) = None.
Proof.
  intros p. split; [right; split; [discriminate | intros x [<- | []]; exact I] |]. split; [| reflexivity].
  apply (asks_list _ (SName p)); [discriminate | left; reflexivity | constructor].
Qed.
