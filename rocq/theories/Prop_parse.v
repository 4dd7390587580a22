(** C46, C48, C50, C55, C64: parsing, port bookkeeping, mode ordering, factorisation cache. *)
From Coq Require Import Reals List Arith ZArith Lra Lia Bool Permutation Sorted.
From Verif Require Import Cx Arr Model_parse Spec_parse Proof_parse.
Import ListNotations.
Local Open Scope R_scope.

(** C46.  l: the eigenpairs in the order the eigensolver returns them. *)
Theorem C46_guided_first_partial : forall V (l : list (C * V)), guided_first l ->
  exists s, mode_solve V l = Some (map (fun p => sqrt (re (fst p))) s, map snd s) /\
    Permutation s (filter (fun p => if Rlt_dec 0 (re (fst p)) then true else false) l) /\ Sorted desc s.
Proof. exact solve_prefix. Qed.
Print Assumptions C46_guided_first_partial.
(** Otherwise (a positive eigenvalue after a nonpositive one) the call raises IndexError although guided modes exist:
    eigvals[useful_modes] is taken from the already filtered array. *)
Theorem C46_order_refuted : forall V (l : list (C * V)), ~ guided_first l -> mode_solve V l = None /\ exists p, In p l /\ 0 < re (fst p).
Proof.
  intros V l H. destruct (guided_first_dec V l) as [G | (a & p & b & q & c & -> & Hp & Hq)]; [contradiction |].
  split; [apply solve_gap; auto |]. exists q. split; [| auto]. apply in_or_app. right. right. apply in_or_app. right. left. reflexivity.
Qed.
Print Assumptions C46_order_refuted.
Example C46_nonvacuous : guided_first [(mkC 2 0, 0%nat); (mkC 3 0, 1%nat); (mkC (-1) 0, 2%nat)].
Proof. exists [(mkC 2 0, 0%nat); (mkC 3 0, 1%nat)], [(mkC (-1) 0, 2%nat)]. split; [reflexivity |]. split; repeat constructor; cbn; lra. Qed.
Example C46_nonvacuous_gap : ~ guided_first [(mkC (-1) 0, 0%nat); (mkC 3 0, 1%nat)].
Proof.
  intros (a & b & E & Ha & Hb). destruct a as [| p a].
  - cbn in E. subst b. inversion Hb as [| ? ? ? Hb']; subst. inversion Hb' as [| ? ? Q]; subst. cbn in Q. lra.
  - cbn in E. assert (Ep : p = (mkC (-1) 0, 0%nat)) by congruence. inversion Ha; subst. cbn in *. lra.
Qed.

(** C48.  U: the matrices used in the history, pairwise told apart by str(mat); right-hand sides of the right length.
    Whatever failures, factor() and free() calls came before, a solve that returns a value returns the one for its matrix. *)
Theorem C48_never_stale_partial : forall (sing : smat -> bool) (U : smat -> Prop), (forall m m', U m -> U m' -> str_mat m = str_mat m' -> m = m') ->
  forall ops, Forall sized ops -> (forall o m, In o ops -> In m (pop_mat o) -> U m) ->
  forall i m k f, nth_error ops i = Some (Solve m k) -> nth_error (snd (prun sing p_init ops)) i = Some (SolOf f) -> f = m.
Proof. intros sing U D ops Hs HU. apply (prun_never_stale sing U D); [reflexivity | auto | auto]. Qed.
Print Assumptions C48_never_stale_partial.
(** Histories of solve and factor calls, with singular matrices among them: every call succeeds or fails, and answers, as if it were the only one. *)
Theorem C48_solves_partial : forall (sing : smat -> bool) (U : smat -> Prop) ops, (forall m m', U m -> U m' -> str_mat m = str_mat m' -> m = m') ->
  Forall sized ops -> (forall o m, In o ops -> In m (pop_mat o) -> U m) -> ~ In Free ops -> snd (prun sing p_init ops) = map (answer sing) ops.
Proof. intros sing U ops D Hs HU HF. apply (prun_answers sing U); auto. exact I. Qed.
Print Assumptions C48_solves_partial.
(** str tells matrices of one size with at most 50 stored entries apart ... *)
Theorem C48_small_matrices : forall m m', s_n m = s_n m' -> (length (s_entries m) <= 50)%nat -> (length (s_entries m') <= 50)%nat -> str_mat m = str_mat m' -> m = m'.
Proof. exact str_small. Qed.
Print Assumptions C48_small_matrices.
(** ... but not larger ones: any change confined to entries 26 .. nnz - 25 goes unnoticed and the old factors are used. *)
Theorem C48_middle_change_refuted : forall sing n pre mid mid' post, length pre = 25%nat -> length post = 25%nat -> mid <> [] -> mid' <> [] ->
  sing (mkS n (pre ++ mid ++ post)) = false ->
  snd (prun sing p_init [Solve (mkS n (pre ++ mid ++ post)) n; Solve (mkS n (pre ++ mid' ++ post)) n]) =
    [SolOf (mkS n (pre ++ mid ++ post)); SolOf (mkS n (pre ++ mid ++ post))].
Proof.
  intros sing n pre mid mid' post Hp Hq Hm Hm' Hs. apply (stale_after_same_string sing (mkS n (pre ++ mid ++ post)) (mkS n (pre ++ mid' ++ post))); auto.
  apply str_middle; auto.
Qed.
Print Assumptions C48_middle_change_refuted.
(** A solve rejected for its right-hand side makes the next solve of that matrix use the previous matrix's factors. *)
Theorem C48_rejected_rhs_refuted : forall sing m1 m2 k, sing m1 = false -> str_mat m1 <> str_mat m2 -> k <> s_n m2 ->
  snd (prun sing p_init [Solve m1 (s_n m1); Solve m2 k; Solve m2 (s_n m2)]) = [SolOf m1; Raise; SolOf m1].
Proof. exact stale_after_bad_rhs. Qed.
Print Assumptions C48_rejected_rhs_refuted.
(** After free() the same matrix cannot be solved again. *)
Theorem C48_free_refuted : forall sing m, sing m = false -> snd (prun sing p_init [Solve m (s_n m); Free; Solve m (s_n m)]) = [SolOf m; Done; Raise].
Proof. exact raise_after_free. Qed.
Print Assumptions C48_free_refuted.
Example C48_nonvacuous : let d (v : R) := mkS 52 (map (fun i => (i, i, mkC (if Nat.eqb i 25 then v else 1) 0)) (seq 0 52)) in
  str_mat (d 1) = str_mat (d 2) /\ d 1 <> d 2.
Proof.
  intros d. split; [reflexivity |]. intros E. assert (Q := f_equal (fun m => re (snd (nth 25 (s_entries m) (0%nat, 0%nat, C0)))) E). cbn in Q. lra.
Qed.

(** C50.  to_py: the Python value of a documented excitation; meaning: its (name, index) pairs.  Depth 3 is enough. *)
Theorem C50_parse_partial : forall f e, ~ degenerate e -> parse_excitation (S (S (S f))) (to_py e) = Ok (meaning e).
Proof. exact parse_documented. Qed.
Print Assumptions C50_parse_partial.
(** The remaining documented values, among them ['a0'], always raise IndexError. *)
Theorem C50_degenerate_refuted : forall f e, degenerate e -> parse_excitation (S (S (S f))) (to_py e) = IndexErr.
Proof. exact parse_degenerate. Qed.
Print Assumptions C50_degenerate_refuted.
Example C50_nonvacuous : ~ degenerate (EDict [(1%nat, [0%Z; 1%Z]); (2%nat, [0%Z])]) /\ ~ degenerate (EList [IName 1; IPair 2 1]) /\
  degenerate (EList [IName 7]) /\ meaning (EDict [(1%nat, [0%Z; 1%Z])]) = [(VStr 1, VInt 0); (VStr 1, VInt 1)].
Proof.
  split; [intros (s & [E | [E | []]]); discriminate |]. split; [intros [E | (s & E)]; discriminate |]. split; [right; eauto | reflexivity].
Qed.

(** C55: the result is right exactly when the set's iteration order has the polarities of the measure list, one per entry. *)
Theorem C55_correct_iff : forall pos measure order,
  measured_correctly pos measure (measure_entries pos measure order) <-> map pos order = map (fun pm => pos (fst pm)) measure.
Proof. exact measured_iff. Qed.
Print Assumptions C55_correct_iff.
(** So it is right for every iteration order when the ports are distinct and all face the same way. *)
Theorem C55_one_side_partial : forall (pos : nat -> bool) (b : bool) (measure : list (nat * nat)) order, NoDup (map fst measure) -> set_order measure order ->
  (forall p, In p (map fst measure) -> pos p = b) -> measured_correctly pos measure (measure_entries pos measure order).
Proof. intros pos b measure order H1 H2 H3. apply measured_iff. apply (same_side pos b); auto. Qed.
Print Assumptions C55_one_side_partial.
(** Two ports facing opposite ways: one of the two iteration orders exchanges forward and backward amplitudes. *)
Theorem C55_order_refuted : forall (pos : nat -> bool) p q, p <> q -> pos p <> pos q ->
  exists order, set_order [(p, O); (q, O)] order /\ ~ measured_correctly pos [(p, O); (q, O)] (measure_entries pos [(p, O); (q, O)] order).
Proof.
  intros pos p q Hpq Hpos. exists [q; p]. split.
  - split; [repeat constructor; cbn; intuition congruence |]. intros r. cbn. tauto.
  - rewrite measured_iff. cbn. intros E. assert (Q := f_equal (fun l => hd (pos p) l) E). cbn in Q. congruence.
Qed.
Print Assumptions C55_order_refuted.
(** Two modes measured at the same port: an entry is missing, whatever the order. *)
Theorem C55_two_modes_refuted : forall (pos : nat -> bool) p order, set_order [(p, O); (p, 1%nat)] order ->
  length (measure_entries pos [(p, O); (p, 1%nat)] order) = 1%nat.
Proof.
  intros pos p order (Hn & Hi). rewrite entries_length. assert (I : incl order [p]).
  { intros r Hr. apply Hi in Hr. cbn in Hr. cbn. tauto. }
  pose proof (NoDup_incl_length Hn I) as L. cbn in L. destruct order as [| r order]; [| cbn in *; lia].
  exfalso. assert (In p []) by (apply Hi; left; auto). contradiction.
Qed.
Print Assumptions C55_two_modes_refuted.
Example C55_nonvacuous : set_order [(1%nat, O); (2%nat, O)] [2%nat; 1%nat] /\ NoDup (map fst [(1%nat, O); (2%nat, O)]).
Proof. split; [split; [repeat constructor; cbn; intuition congruence | intros r; cbn; tauto] | repeat constructor; cbn; intuition congruence]. Qed.

(** C64: fundamental modes of known ports with a guided mode. *)
Theorem C64_fundamental_partial : forall names found src, (forall p w, In (p, w) src -> In p names /\ (1 <= found p)%nat) ->
  resolve names found (map (fun pw => (KPair (fst pw) 0, snd pw)) src) = SOk (map (fun pw => (fst pw, O, snd pw)) src).
Proof. exact resolve_fundamental. Qed.
Print Assumptions C64_fundamental_partial.
(** A source given by port name (the documented {port_name: weight}) never works ... *)
Theorem C64_names_refuted : forall names found src k p w, nth_error src k = Some (KName p, w) -> forall l, resolve names found src <> SOk l.
Proof. exact resolve_name_fails. Qed.
Print Assumptions C64_names_refuted.
(** ... nor does one in a higher-order mode. *)
Theorem C64_higher_mode_refuted : forall names found src k p m w, nth_error src k = Some (KPair p m, w) -> (1 <= m)%nat -> forall l, resolve names found src <> SOk l.
Proof. exact resolve_high_fails. Qed.
Print Assumptions C64_higher_mode_refuted.
