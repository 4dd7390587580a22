(** C177: what a ModeLibrary answers for a mode index, over its whole life. *)
From Coq Require Import Reals List Arith ZArith Lra Lia Bool Permutation Sorted.
From Verif Require Import Cx Model_parse Spec_parse Proof_parse Model_modelib Spec_modelib Proof_modelib.
Import ListNotations.
Local Open Scope R_scope.

(** After any history of update_wavelength calls, failed ones included, the library shows the guided modes of its last successful solve,
    strongest first; index i < num_modes is mode i, num_modes and above raise ValueError. *)
Theorem C177_index_partial : forall V w l st h, library V w l = MVal st -> exists l0 ms, shows l h l0 /\ ranked l0 ms /\ let st' := updates V st h in
  lb_m st' = length ms /\ lb_betas st' = map (fun p => sqrt (re (fst p))) ms /\
  (forall i, (i < length ms)%nat -> exists p, nth_error ms i = Some p /\ lib_mode st' (Z.of_nat i) = MVal (snd p) /\ lib_beta st' (Z.of_nat i) = MVal (sqrt (re (fst p)))) /\
  (forall i, (Z.of_nat (length ms) <= i)%Z -> lib_mode st' i = MValueError /\ lib_beta st' i = MValueError).
Proof.
  intros V w l st h H. destruct (library_good V w l st H) as (F & ms & R & _ & G). destruct (updates_good V h st l ms R G F) as (l0 & ms' & Sh & F0 & R0 & G0).
  exists l0, ms'. split; [exact Sh |]. split; [exact R0 |]. pose proof G0 as (Hb & Hm & Hn). split; [exact Hn |]. split; [exact Hb |]. split.
  - intros i Hi. exact (good_index V _ _ i G0 Hi).
  - intros i Hi. exact (good_high V _ _ i G0 Hi).
Qed.
Print Assumptions C177_index_partial.
(** The derived quantities: ns lists n(i) = beta(i) / k0, dbeta and dn are differences of the two strongest modes, a beat is one full turn of their phase difference. *)
Theorem C177_derived : forall V w l st h k0, library V w l = MVal st -> 0 < k0 -> let st' := updates V st h in
  (forall i, (i < lb_m st')%nat -> exists b, nth_error (lib_ns k0 st') i = Some (b / k0) /\ lib_beta st' (Z.of_nat i) = MVal b /\ lib_n k0 st' (Z.of_nat i) = MVal (b / k0)) /\
  ((2 <= lb_m st')%nat -> exists a b, lib_beta st' 0 = MVal a /\ lib_beta st' 1 = MVal b /\ b <= a /\ lib_dbeta st' = MVal (a - b) /\ lib_dn k0 st' = MVal (a / k0 - b / k0) /\
     exists x, lib_beat st' 0 1 = MVal x /\ (b < a -> 0 < x /\ (a - b) * x = 2 * PI)) /\
  ((lb_m st' < 2)%nat -> lib_dbeta st' = MValueError /\ lib_dn k0 st' = MValueError /\ lib_beat st' 0 1 = MValueError).
Proof.
  intros V w l st h k0 H Hk st'. destruct (library_good V w l st H) as (F & ms & R & _ & G). destruct (updates_good V h st l ms R G F) as (l0 & ms' & Sh & F0 & R0 & G0).
  fold st' in G0. pose proof G0 as (Hb & Hm & Hn). split; [| split].
  - intros i Hi. rewrite Hn in Hi. destruct (good_index V _ _ i G0 Hi) as (p & E & _ & Eb). exists (sqrt (re (fst p))). split; [| split; [exact Eb |]].
    + unfold lib_ns. rewrite Hb. unfold bet. rewrite map_map, nth_error_map, E. reflexivity.
    + unfold lib_n. rewrite Eb. reflexivity.
  - intros Hi. rewrite Hn in Hi. destruct ms' as [| p [| q ms']]; cbn [length] in Hi; try lia.
    destruct (good_index V _ _ 0%nat G0 ltac:(cbn; lia)) as (p' & E & _ & Eb). destruct (good_index V _ _ 1%nat G0 ltac:(cbn; lia)) as (q' & E' & _ & Eb').
    cbn in E, E'. assert (p' = p) by congruence. assert (q' = q) by congruence. subst. change (Z.of_nat 0) with 0%Z in Eb. change (Z.of_nat 1) with 1%Z in Eb'.
    exists (sqrt (re (fst p))), (sqrt (re (fst q))). split; [exact Eb |]. split; [exact Eb' |]. split.
    + destruct R0 as (_ & D). inversion D as [| ? ? D1 D2]; subst. inversion D2; subst. assumption.
    + unfold lib_dbeta, lib_dn, lib_beat. rewrite Eb, Eb'. cbn [mbind mmap]. split; [reflexivity |]. split; [f_equal; field; lra |].
      eexists. split; [reflexivity |]. intros L. split; [apply Rdiv_lt_0_compat; pose proof PI_RGT_0; lra | field; lra].
  - intros Hi. rewrite Hn in Hi. destruct (good_high V _ _ 1 G0 ltac:(lia)) as (_ & B1). unfold lib_dbeta, lib_dn, lib_beat.
    destruct ms' as [| p ms'].
    + destruct (good_high V _ _ 0 G0 ltac:(cbn; lia)) as (_ & B0). rewrite B0. auto.
    + destruct (good_index V _ _ 0%nat G0 ltac:(cbn; lia)) as (p' & _ & _ & B0). change (Z.of_nat 0) with 0%Z in B0. rewrite B0. cbn [mbind]. rewrite B1. auto.
Qed.
Print Assumptions C177_derived.
(** evolve: weight i goes to mode i; more weights than modes raise ValueError. *)
Theorem C177_evolve : forall V w l st h ws, library V w l = MVal st -> let st' := updates V st h in
  ((length ws <= lb_m st')%nat -> exists ts, evolve_terms st' ws = MVal ts /\ length ts = length ws /\
     forall i x, nth_error ts i = Some x -> lib_mode st' (Z.of_nat i) = MVal (fst (fst x)) /\ lib_beta st' (Z.of_nat i) = MVal (snd (fst x)) /\ nth_error ws i = Some (snd x)) /\
  ((lb_m st' < length ws)%nat -> evolve_terms st' ws = MValueError).
Proof.
  intros V w l st h ws H st'. destruct (library_good V w l st H) as (F & ms & R & _ & G). destruct (updates_good V h st l ms R G F) as (l0 & ms' & Sh & F0 & R0 & G0).
  fold st' in G0. pose proof G0 as (Hb & Hm & Hn). rewrite Hn. split.
  - intros Hi. pose proof (terms_good V st' ms' ws 0 G0 ltac:(lia)) as T. cbn [skipn] in T. eexists. split; [exact T |].
    split; [rewrite map_length, combine_length; lia |]. intros i x E. rewrite nth_error_map in E. destruct (nth_error (combine ms' ws) i) as [[p r] |] eqn:E1; cbn in E; [| discriminate].
    assert (x = (snd p, sqrt (re (fst p)), r)) by congruence. subst x. cbn [fst snd].
    assert (Hl : (i < length ms')%nat). { assert (Q : nth_error (combine ms' ws) i <> None) by congruence. apply nth_error_Some in Q. rewrite combine_length in Q. lia. }
    destruct (good_index V _ _ i G0 Hl) as (p' & E2 & M1 & M2).
    assert (C : nth_error ms' i = Some p /\ nth_error ws i = Some r).
    { clear - E1. revert ms' ws E1. induction i; intros [| a ms'] [| b ws] E1; cbn in E1 |- *; try discriminate; [split; congruence | apply IHi; exact E1]. }
    destruct C as (C1 & C2). assert (p' = p) by congruence. subst. auto.
  - intros Hi. exact (terms_bad V st' ms' ws 0 G0 ltac:(lia) ltac:(lia)).
Qed.
Print Assumptions C177_evolve.
(** Negative indices are not rejected: - 1 is the weakest guided mode, and so on up; only below - num_modes an IndexError is raised. *)
Theorem C177_negative_refuted : forall V w l st h, library V w l = MVal st -> exists l0 ms, shows l h l0 /\ ranked l0 ms /\ let st' := updates V st h in let m := Z.of_nat (lb_m st') in
  (forall i, (i < length ms)%nat -> exists p, nth_error ms i = Some p /\ lib_mode st' (Z.of_nat i - m) = MVal (snd p) /\ lib_beta st' (Z.of_nat i - m) = MVal (sqrt (re (fst p)))) /\
  (forall i, (i < - m)%Z -> lib_mode st' i = MIndexError /\ lib_beta st' i = MIndexError).
Proof.
  intros V w l st h H. destruct (library_good V w l st H) as (F & ms & R & _ & G). destruct (updates_good V h st l ms R G F) as (l0 & ms' & Sh & F0 & R0 & G0).
  exists l0, ms'. split; [exact Sh |]. split; [exact R0 |]. pose proof G0 as (Hb & Hm & Hn). cbv zeta. rewrite Hn. split.
  - intros i Hi. exact (good_neg V _ _ i G0 Hi).
  - intros i Hi. exact (good_low V _ _ i G0 Hi).
Qed.
Print Assumptions C177_negative_refuted.
(** A cross section without guided modes has no library, not an empty one; an update to such a wavelength raises as well, after it has emptied the library. *)
Theorem C177_empty_refuted : forall V l, guided_first l -> (forall p, In p l -> re (fst p) <= 0) ->
  (forall w, library V w l = MIndexError) /\
  forall st w, snd (update_solve V st w l) = MIndexError /\ let st' := fst (update_solve V st w l) in lb_m st' = 0%nat /\ lib_mode st' 0 = MValueError /\ lb_wavelength st' = w.
Proof.
  intros V l F N. assert (Z : forall st w, exists ms, ms = [] /\ good V (fst (update_solve V st w l)) ms /\ snd (update_solve V st w l) = MIndexError /\ lb_wavelength (fst (update_solve V st w l)) = w).
  { intros st w. destruct (update_good V st w l F) as (ms & (P & _) & G & _ & V2).
    assert (E : ms = []). { destruct ms as [| p ms]; auto. exfalso. assert (I : In p (p :: ms)) by (left; auto). apply (Permutation_in _ P) in I. apply filter_In in I. destruct I as (I1 & I2).
      specialize (N p I1). destruct (Rlt_dec 0 (re (fst p))); [lra | discriminate]. }
    exists ms. split; [exact E |]. split; [exact G |]. split; [apply V2; exact E |]. unfold update_solve. destruct (mode_solve V l) as [[b v] |]; reflexivity. }
  split.
  - intros w. unfold library. destruct (Z (mkLib V [] [] 0%nat w) w) as (ms & _ & _ & E & _). destruct (update_solve V (mkLib V [] [] 0%nat w) w l) as [s r]. cbn [snd] in E. rewrite E. reflexivity.
  - intros st w. destruct (Z st w) as (ms & E & G & R & W). split; [exact R |]. cbv zeta. pose proof G as (_ & _ & Hn). rewrite E in *. split; [exact Hn |].
    split; [| exact W]. apply (good_high V _ [] 0 G). cbn. lia.
Qed.
Print Assumptions C177_empty_refuted.
(** An update whose eigenvalues come in the wrong order (C46) raises and leaves the old modes under the new wavelength. *)
Theorem C177_stale_refuted : forall V st w l, ~ guided_first l -> snd (update_solve V st w l) = MIndexError /\
  let st' := fst (update_solve V st w l) in lb_wavelength st' = w /\ (forall i, lib_mode st' i = lib_mode st i) /\ forall i, lib_beta st' i = lib_beta st i.
Proof. intros V st w l H. rewrite (update_gap V st w l H). repeat split. Qed.
Print Assumptions C177_stale_refuted.
(** Two guided modes out of three, then one; the third update fails. *)
Example C177_meets : exists st, library nat 1 [(mkC 4 0, 7%nat); (mkC 9 0, 8%nat); (mkC (-1) 0, 9%nat)] = MVal st /\
  lib_mode st 0 = MVal 8%nat /\ lib_mode st 1 = MVal 7%nat /\ lib_mode st 2 = MValueError /\ lib_mode st (-1) = MVal 7%nat /\
  guided_first [(mkC (-1) 0, 0%nat)] /\ ~ guided_first [(mkC (-1) 0, 0%nat); (mkC 3 0, 1%nat)].
Proof.
  set (l := [(mkC 4 0, 7%nat); (mkC 9 0, 8%nat); (mkC (-1) 0, 9%nat)]).
  assert (E : library nat 1 l = MVal (mkLib nat [sqrt 9; sqrt 4] [8%nat; 7%nat] 2 1)).
  { unfold library, update_solve, mode_solve, guided, useful, l. cbn [filter useful_from fst re].
    destruct (Rlt_dec 0 4); [| lra]. destruct (Rlt_dec 0 9); [| lra]. destruct (Rlt_dec 0 (-1)); [lra |].
    unfold sort_desc. cbn [fold_right insert_desc fst re]. destruct (Rle_dec (sqrt 9) (sqrt 4)) as [Q | Q].
    - exfalso. apply sqrt_le_0 in Q; lra.
    - reflexivity. }
  exists (mkLib nat [sqrt 9; sqrt 4] [8%nat; 7%nat] 2 1). split; [exact E |]. repeat (split; [reflexivity |]). split.
  - exists [], [(mkC (-1) 0, 0%nat)]. split; [reflexivity |]. split; constructor; [cbn; lra | constructor].
  - intros (a & b & Eq & Ha & Hb). destruct a as [| p a].
    + cbn in Eq. subst b. inversion Hb as [| ? ? ? Hb']; subst. inversion Hb' as [| ? ? Q]; subst. cbn in Q. lra.
    + cbn in Eq. assert (Ep : p = (mkC (-1) 0, 0%nat)) by congruence. inversion Ha; subst. cbn in *. lra.
Qed.
