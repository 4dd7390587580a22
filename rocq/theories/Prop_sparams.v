(** C175: FDFD.sparams. *)
From Coq Require Import Reals List Arith ZArith Lra Lia Bool.
From Verif Require Import Cx Arr Model_parse Spec_parse Model_sparams Spec_sparams Proof_sparams.
Import ListNotations.

(** The fundamental mode of a port excited, measure_info omitted or a list of (port, mode) that contains the source, at ports that all
    face the same way: the ratios of leaving amplitudes to the entering amplitude at the source, in the order of the list. *)
Theorem C175_sparams_partial : forall ports found (pos : nat -> bool) order amp i src (b : bool), (i = MDefault \/ exists l, i = MPairs l /\ l <> []) ->
  guides ports found (listed ports i) -> In (fst src) ports -> snd src = O -> In src (listed ports i) ->
  NoDup (map fst (listed ports i)) -> set_order (listed ports i) order -> (forall p, In p (map fst (listed ports i)) -> pos p = b) ->
  sparams ports found pos order amp i src = SpOk (s_of pos amp (listed ports i) src).
Proof. exact sparams_same_side. Qed.
Print Assumptions C175_sparams_partial.
(** More generally whenever the set happens to iterate with the polarities of the list. *)
Theorem C175_order_partial : forall ports found pos order amp i src, (i = MDefault \/ exists l, i = MPairs l /\ l <> []) ->
  guides ports found (listed ports i) -> In (fst src) ports -> snd src = O -> In src (listed ports i) ->
  map pos order = map (fun pm => pos (fst pm)) (listed ports i) ->
  sparams ports found pos order amp i src = SpOk (s_of pos amp (listed ports i) src).
Proof. exact sparams_ok. Qed.
Print Assumptions C175_order_partial.
Example C175_nonvacuous : guides [1%nat; 2%nat] (fun _ => 2%nat) [(2%nat, O); (1%nat, 1%nat)] /\ NoDup (map fst [(2%nat, O); (1%nat, 1%nat)]) /\ set_order [(2%nat, O); (1%nat, 1%nat)] [1%nat; 2%nat].
Proof.
  split; [split; [intros; lia | intros pm [<- | [<- | []]]; cbn; auto] |].
  split; [repeat constructor; cbn; intuition congruence |]. split; [repeat constructor; cbn; intuition congruence | intros p; cbn; tauto].
Qed.
(** Two ports facing each other (a waveguide): one of the iteration orders of the set yields the inverse ratios. *)
Theorem C175_inverse_refuted : forall found (pos : nat -> bool) amp p q, p <> q -> pos p <> pos q -> (0 < found p)%nat -> (0 < found q)%nat ->
  exists order, set_order [(p, O); (q, O)] order /\
  sparams [p; q] found pos order amp MDefault (p, O) = SpOk [(entering pos amp (p, O) / leaving pos amp (p, O))%C; (entering pos amp (q, O) / leaving pos amp (p, O))%C].
Proof. exact sparams_swapped. Qed.
Print Assumptions C175_inverse_refuted.
(** measure_info as a dictionary (its declared type), a name, a pair or a list of names: always raises. *)
Theorem C175_formats_refuted : forall ports found pos order amp src r,
  (forall d, sparams ports found pos order amp (MDict d) src <> SpOk r) /\ (forall l, sparams ports found pos order amp (MNames l) src <> SpOk r) /\
  (forall p, sparams ports found pos order amp (MName p) src <> SpOk r) /\ (forall p m, sparams ports found pos order amp (MPair p m) src <> SpOk r).
Proof.
  intros. repeat split; intros; (apply sparams_formats; [intros [X | (l' & X & _)]; discriminate X | discriminate]).
Qed.
Print Assumptions C175_formats_refuted.
(** A source in a higher-order mode always raises, and so does a source that is not among the measured modes. *)
Theorem C175_mode_idx_refuted : forall ports found pos order amp i p m r, m <> O -> sparams ports found pos order amp i (p, m) <> SpOk r.
Proof. intros. apply sparams_mode. exact H. Qed.
Print Assumptions C175_mode_idx_refuted.
Theorem C175_unlisted_refuted : forall ports found pos order amp i src r, ~ In src (listed ports i) -> sparams ports found pos order amp i src <> SpOk r.
Proof. exact sparams_unlisted. Qed.
Print Assumptions C175_unlisted_refuted.
(** There is one entry per distinct port: of two modes measured at one port only one is returned. *)
Theorem C175_two_modes_refuted : forall ports found pos order amp i src r, set_order (listed ports i) order -> ~ NoDup (map fst (listed ports i)) ->
  sparams ports found pos order amp i src = SpOk r -> (length r < length (listed ports i))%nat.
Proof. exact sparams_missing. Qed.
Print Assumptions C175_two_modes_refuted.
