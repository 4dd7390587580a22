(** Proofs for C177: mode libraries. *)
From Coq Require Import Reals List Arith ZArith Lra Lia Bool Permutation Sorted.
From Verif Require Import Cx Model_parse Spec_parse Proof_parse Model_modelib Spec_modelib.
Import ListNotations.
Local Open Scope R_scope.
Section L.
Variable V : Type.
Notation pair := (C * V)%type.
Definition bet (ms : list pair) : list R := map (fun p => sqrt (re (fst p))) ms.
Definition good (st : lib V) (ms : list pair) : Prop := lb_betas st = bet ms /\ lb_modes st = map snd ms /\ lb_m st = length ms.
Lemma update_good : forall st w l, guided_first l -> exists ms, ranked l ms /\ good (fst (update_solve V st w l)) ms /\
  (snd (update_solve V st w l) = MVal tt <-> ms <> []) /\ (snd (update_solve V st w l) = MIndexError <-> ms = []).
Proof.
  intros st w l H. destruct (solve_prefix V l H) as (ms & E & P & D). exists ms. split; [split; auto |]. unfold update_solve. rewrite E. cbn [fst snd].
  split; [split; [reflexivity |]; split; [reflexivity |]; unfold bet; cbn; rewrite map_length; reflexivity |].
  destruct ms; cbn; split; split; congruence.
Qed.
Lemma gap_none : forall l : list pair, ~ guided_first l -> mode_solve V l = None.
Proof.
  intros l H. destruct (guided_first_dec V l) as [G | (a & p & b & q & c & -> & Hp & Hq)]; [contradiction |]. apply solve_gap; auto.
Qed.
Lemma update_gap : forall st w l, ~ guided_first l -> update_solve V st w l = (mkLib V (lb_betas st) (lb_modes st) (lb_m st) w, MIndexError).
Proof. intros st w l H. unfold update_solve. rewrite gap_none by exact H. reflexivity. Qed.
Lemma library_good : forall w l st, library V w l = MVal st -> guided_first l /\ exists ms, ranked l ms /\ ms <> [] /\ good st ms.
Proof.
  intros w l st H. unfold library in H. destruct (guided_first_dec V l) as [G | (a & p & b & q & c & E & Hp & Hq)].
  - split; [exact G |]. destruct (update_good (mkLib V [] [] 0%nat w) w l G) as (ms & R & Go & V1 & V2). exists ms. split; [exact R |].
    destruct (update_solve V (mkLib V [] [] 0%nat w) w l) as [st' r] eqn:U. cbn [fst snd] in *. destruct r as [[] | |]; try discriminate.
    assert (st' = st) by congruence. subst st'. split; [apply V1; reflexivity | exact Go].
  - assert (N : ~ guided_first l). { intros G. destruct (solve_prefix V l G) as (ms & E' & _). rewrite E, solve_gap in E' by auto. discriminate. }
    rewrite update_gap in H by exact N. discriminate.
Qed.
Lemma updates_good : forall h st l ms, ranked l ms -> good st ms -> guided_first l -> exists l0 ms', shows l h l0 /\ guided_first l0 /\ ranked l0 ms' /\ good (updates V st h) ms'.
Proof.
  induction h as [| [w l1] h IH]; intros st l ms R G F.
  - exists l, ms. split; [left; split; auto |]. auto.
  - cbn [updates]. destruct (guided_first_dec V l1) as [G1 | (a & p & b & q & c & E & Hp & Hq)].
    + destruct (update_good st w l1 G1) as (ms1 & R1 & Go1 & _). destruct (IH _ l1 ms1 R1 Go1 G1) as (l0 & ms' & Sh & F0 & R0 & G0).
      exists l0, ms'. split; [| auto]. right. destruct Sh as [(-> & N) | (a & w' & b & -> & F' & N)].
      * exists [], w, h. auto.
      * exists ((w, l1) :: a), w', b. auto.
    + assert (N : ~ guided_first l1). { intros G1. destruct (solve_prefix V l1 G1) as (ms1 & E' & _). rewrite E, solve_gap in E' by auto. discriminate. }
      rewrite update_gap by exact N. cbn [fst]. destruct (IH (mkLib V (lb_betas st) (lb_modes st) (lb_m st) w) l ms R G F) as (l0 & ms' & Sh & F0 & R0 & G0).
      exists l0, ms'. split; [| auto]. destruct Sh as [(-> & N') | (a' & w' & b' & -> & F' & N')].
      * left. split; auto.
      * right. exists ((w, l1) :: a'), w', b'. auto.
Qed.
Lemma py_get_nat : forall A (l : list A) i, (i < length l)%nat -> exists a, nth_error l i = Some a /\ py_get l (Z.of_nat i) = MVal a.
Proof.
  intros A l i H. destruct (nth_error l i) as [a |] eqn:E; [| apply nth_error_None in E; lia]. exists a. split; auto. unfold py_get.
  destruct (Z.ltb_spec (Z.of_nat i) (- Z.of_nat (length l))); [lia |]. destruct (Z.ltb_spec (Z.of_nat i) 0); [lia |]. rewrite Nat2Z.id, E. reflexivity.
Qed.
Lemma py_get_neg : forall A (l : list A) i, (i < length l)%nat -> exists a, nth_error l i = Some a /\ py_get l (Z.of_nat i - Z.of_nat (length l)) = MVal a.
Proof.
  intros A l i H. destruct (nth_error l i) as [a |] eqn:E; [| apply nth_error_None in E; lia]. exists a. split; auto. unfold py_get.
  destruct (Z.ltb_spec (Z.of_nat i - Z.of_nat (length l)) (- Z.of_nat (length l))); [lia |]. destruct (Z.ltb_spec (Z.of_nat i - Z.of_nat (length l)) 0); [| lia].
  replace (Z.of_nat i - Z.of_nat (length l) + Z.of_nat (length l))%Z with (Z.of_nat i) by lia. rewrite Nat2Z.id, E. reflexivity.
Qed.
Lemma py_get_low : forall A (l : list A) i, (i < - Z.of_nat (length l))%Z -> py_get l i = MIndexError.
Proof. intros A l i H. unfold py_get. destruct (Z.ltb_spec i (- Z.of_nat (length l))); [reflexivity | lia]. Qed.
Lemma check_in : forall st i, (i < Z.of_nat (lb_m st))%Z -> check_idx V st i = MVal i.
Proof. intros st i H. unfold check_idx. destruct (Z.gtb_spec i (Z.of_nat (lb_m st) - 1)); [lia | reflexivity]. Qed.
Lemma check_out : forall st i, (Z.of_nat (lb_m st) <= i)%Z -> check_idx V st i = MValueError.
Proof. intros st i H. unfold check_idx. destruct (Z.gtb_spec i (Z.of_nat (lb_m st) - 1)); [reflexivity | lia]. Qed.
Lemma good_index : forall st ms i, good st ms -> (i < length ms)%nat -> exists p, nth_error ms i = Some p /\
  lib_mode st (Z.of_nat i) = MVal (snd p) /\ lib_beta st (Z.of_nat i) = MVal (sqrt (re (fst p))).
Proof.
  intros st ms i (Hb & Hm & Hn) H. destruct (nth_error ms i) as [p |] eqn:E; [| apply nth_error_None in E; lia]. exists p. split; auto.
  unfold lib_mode, lib_beta. rewrite check_in by (rewrite Hn; lia). cbn [mbind]. rewrite Hb, Hm.
  destruct (py_get_nat _ (map snd ms) i ltac:(rewrite map_length; auto)) as (a & Ea & ->).
  destruct (py_get_nat _ (bet ms) i ltac:(unfold bet; rewrite map_length; auto)) as (b & Eb & ->).
  unfold bet in Eb. rewrite nth_error_map, E in Ea. rewrite nth_error_map, E in Eb. cbn in Ea, Eb. split; f_equal; congruence.
Qed.
Lemma good_neg : forall st ms i, good st ms -> (i < length ms)%nat -> exists p, nth_error ms i = Some p /\
  lib_mode st (Z.of_nat i - Z.of_nat (length ms)) = MVal (snd p) /\ lib_beta st (Z.of_nat i - Z.of_nat (length ms)) = MVal (sqrt (re (fst p))).
Proof.
  intros st ms i (Hb & Hm & Hn) H. destruct (nth_error ms i) as [p |] eqn:E; [| apply nth_error_None in E; lia]. exists p. split; auto.
  unfold lib_mode, lib_beta. rewrite check_in by (rewrite Hn; lia). cbn [mbind]. rewrite Hb, Hm.
  destruct (py_get_neg _ (map snd ms) i ltac:(rewrite map_length; auto)) as (a & Ea & Qa). rewrite map_length in Qa. rewrite Qa.
  destruct (py_get_neg _ (bet ms) i ltac:(unfold bet; rewrite map_length; auto)) as (b & Eb & Qb). unfold bet in Qb at 2. rewrite map_length in Qb. rewrite Qb.
  unfold bet in Eb. rewrite nth_error_map, E in Ea. rewrite nth_error_map, E in Eb. cbn in Ea, Eb. split; f_equal; congruence.
Qed.
Lemma good_high : forall st ms i, good st ms -> (Z.of_nat (length ms) <= i)%Z -> lib_mode st i = MValueError /\ lib_beta st i = MValueError.
Proof. intros st ms i (Hb & Hm & Hn) H. unfold lib_mode, lib_beta. rewrite check_out by (rewrite Hn; lia). split; reflexivity. Qed.
Lemma good_low : forall st ms i, good st ms -> (i < - Z.of_nat (length ms))%Z -> lib_mode st i = MIndexError /\ lib_beta st i = MIndexError.
Proof.
  intros st ms i (Hb & Hm & Hn) H. unfold lib_mode, lib_beta. rewrite check_in by (rewrite Hn; lia). cbn [mbind]. rewrite Hb, Hm. unfold bet.
  rewrite !py_get_low by (rewrite map_length; lia). split; reflexivity.
Qed.
Lemma terms_good : forall st ms ws i, good st ms -> (i + length ws <= length ms)%nat ->
  terms_from V st (Z.of_nat i) ws = MVal (map (fun x => (snd (fst x), sqrt (re (fst (fst x))), snd x)) (combine (skipn i ms) ws)).
Proof.
  intros st ms. induction ws as [| w ws IH]; intros i G H; cbn [terms_from].
  - rewrite combine_nil. reflexivity.
  - cbn [length] in H. destruct (good_index st ms i G ltac:(lia)) as (p & E & -> & ->). cbn [mbind].
    replace (Z.of_nat i + 1)%Z with (Z.of_nat (S i)) by lia. rewrite IH by (auto; lia). cbn [mmap].
    assert (Sk : skipn i ms = p :: skipn (S i) ms).
    { clear - E. revert i E. induction ms as [| q ms IH]; intros [| i] E; cbn in E |- *; try discriminate; [congruence | apply IH; exact E]. }
    rewrite Sk. reflexivity.
Qed.
Lemma terms_bad : forall st ms ws i, good st ms -> (i <= length ms)%nat -> (length ms < i + length ws)%nat -> terms_from V st (Z.of_nat i) ws = MValueError.
Proof.
  intros st ms. induction ws as [| w ws IH]; intros i G H1 H2; cbn [length] in H2; [lia |]. cbn [terms_from].
  destruct (Nat.eq_dec i (length ms)) as [-> | Hn].
  - destruct (good_high st ms (Z.of_nat (length ms)) G ltac:(lia)) as [-> _]. reflexivity.
  - destruct (good_index st ms i G ltac:(lia)) as (p & E & -> & ->). cbn [mbind]. replace (Z.of_nat i + 1)%Z with (Z.of_nat (S i)) by lia. rewrite IH by (auto; lia). reflexivity.
Qed.
End L.
