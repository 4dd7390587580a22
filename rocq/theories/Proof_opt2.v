(** Statements for C86 - C90. *)
From Coq Require Import Reals Lra Lia List ZArith Bool Arith.
From Verif Require Import Arr Model_forward Model_opt Spec_opt Proof_opt.
Import ListNotations.

Section opt.
Variables (P S F E A M D : Type) (opt_init : P -> S) (opt_update : nat -> P -> S -> S) (get_params : S -> P).
Notation problem := (problem P F E A M D).
Notation opt_run := (opt_run P S F E A M D opt_init opt_update get_params).
Notation eval_problem := (eval_problem P F E A M D).
Notation is_sim := (is_sim P F E A M D).
Notation pb_sim := (pb_sim P F E A M D).
Notation pb_source := (pb_source P F E A M D).
Notation pb_transform := (pb_transform P F E A M D).
Notation pb_field := (pb_field P F E A M D).
Notation pb_metrics := (pb_metrics P F E A M D).
Notation pb_cost := (pb_cost P F E A M D).
Notation pb_fn := (pb_fn P F E A M D).
Notation states := (fun init => opt_states (opt_init init) opt_update get_params).
Notation has_source := (has_source P F E A M D).
Notation nameof := (nameof P F E A M D).
Notation idof := (idof P F E A M D).

Lemma has_source_sim : forall op, has_source op -> is_sim op = true.
Proof. intros op [H1 H2]. unfold Model_opt.is_sim. destruct (pb_sim op) as [x |]; [exact H2 | congruence]. Qed.

Lemma distinct_nodup : forall (X : Type) (f : X -> option nat) (l : list X), distinct_by f l ->
  NoDup (concat (map (fun x => match f x with Some v => [v] | None => [] end) l)).
Proof.
  intros X f l. induction l as [| a l IH]; intro H; [constructor |]. cbn [map concat].
  assert (Hl : distinct_by f l).
  { intros i j x y v H1 H2 H3 H4. enough (Datatypes.S i = Datatypes.S j) by lia. eapply H; eassumption. }
  specialize (IH Hl). destruct (f a) as [v |] eqn:Ef; [| exact IH]. cbn [List.app]. constructor; [| exact IH].
  intro K. apply in_concat in K. destruct K as (vs & K1 & K2). apply in_map_iff in K1. destruct K1 as (b & K1 & K3).
  destruct (f b) as [w |] eqn:Eb; subst vs; [| destruct K2]. destruct K2 as [-> | []].
  apply In_nth_error in K3. destruct K3 as (i & K3).
  assert (0%nat = Datatypes.S i); [| discriminate]. eapply (H 0%nat (Datatypes.S i)); [reflexivity | exact K3 | exact Ef | exact Eb].
Qed.
Lemma names_of : forall ops, sim_names P F E A M D ops = concat (map (fun x => match nameof x with Some v => [v] | None => [] end) ops).
Proof. intro ops. unfold sim_names. f_equal. apply map_ext. intro a. unfold Spec_opt.nameof. destruct (pb_sim a) as [[s n] |]; reflexivity. Qed.
Lemma ids_of : forall ops, sim_ids P F E A M D ops = concat (map (fun x => match idof x with Some v => [v] | None => [] end) ops).
Proof. intro ops. unfold sim_ids. f_equal. apply map_ext. intro a. unfold Spec_opt.idof. destruct (pb_sim a) as [[s n] |]; reflexivity. Qed.

Lemma run_returns : forall ops init config n mi ei fi sims0,
  (forall op, In op ops -> has_source op) -> distinct_by nameof ops -> distinct_by idof ops ->
  (mi = 0%nat \/ mi = 1%nat /\ config <> [] /\ (forall ms, In ms config -> ms <> []) /\
    forall op, In op ops -> exists f, pb_metrics op = Some f /\ forall a m, In m (concat config) -> exists x, dict_has (f a) m x) ->
  ((0 < n)%nat \/ (ei = 0%nat /\ fi = 0%nat)) ->
  exists r, opt_run ops init n true mi ei fi (Some (opt_viz P F E A M D ops config)) sims0 = Some r.
Proof.
  intros ops init config n mi ei fi sims0 All Names Ids Hm Hn.
  apply distinct_nodup in Names. apply distinct_nodup in Ids. rewrite <- names_of in Names. rewrite <- ids_of in Ids.
  assert (All' : forall op, In op ops -> is_sim op = true) by (intros op Hi; apply has_source_sim; auto).
  rewrite viz_names_all by exact All'.
  apply run_returns_s; try assumption.
  - intros K. destruct Hm as [-> | (_ & _ & Ht & _)]; [discriminate | exact Ht].
  - intros K. destruct Hm as [-> | (_ & _ & _ & Hm)]; [discriminate | exact Hm].
  - destruct Hm as [-> | (-> & _)]; lia.
  - intros K. destruct Hm as [-> | (_ & Hc & _)]; [discriminate | exact Hc].
Qed.

(** C87 *)
Lemma run_costs : forall ops init n pbar mi ei fi vz sims0 r, opt_run ops init n pbar mi ei fi vz sims0 = Some r ->
  length (r_costs P E M D r) = n /\ r_params P E M D r = get_params (states init n) /\
  (forall k, (k < n)%nat -> nth k (r_costs P E M D r) 0%R =
    (fold_right Rplus 0 (map (fun op => fst (pb_cost op
       (if pb_source op then inr (pb_fn op (get_params (states init k))) else inl (get_params (states init k))))) ops) / INR (length ops))%R) /\
  (forall i op s nm, nth_error ops i = Some op -> pb_sim op = Some (s, nm) ->
    (forall j op', (i < j)%nat -> nth_error ops j = Some op' -> idof op' <> Some s) ->
    r_sims P E M D r s = pb_transform op (r_params P E M D r)).
Proof.
  intros ops init n pbar mi ei fi vz sims0 r H.
  assert (Sims : forall op, In op ops -> pb_sim op <> None).
  { intros op Hi K. rewrite (needs_sim P S F E A M D opt_init opt_update get_params ops init n pbar mi ei fi vz sims0 op Hi K) in H. discriminate. }
  destruct (run_result P S F E A M D opt_init opt_update get_params _ _ _ _ _ _ _ _ _ _ H) as (H1 & H2 & H3).
  split; [rewrite H2, map_length, seq_length; reflexivity |]. split; [exact H1 |]. split.
  - intros k Hk. rewrite H2. set (g := fun k0 => fst _). rewrite (nth_indep _ 0%R (g 0%nat)) by (rewrite map_length, seq_length; exact Hk).
    rewrite map_nth, seq_nth by exact Hk. cbn [Nat.add]. unfold g, overall_cost. cbn [fst]. rewrite map_map. f_equal. f_equal. apply map_ext_in. intros op Hi.
    unfold Model_opt.eval_problem, Model_opt.is_sim. specialize (Sims op Hi). destruct (pb_sim op) as [x |]; [| congruence].
    destruct (pb_source op); reflexivity.
  - intros i op s nm Hi Hs Hp. destruct (nth_error_split _ _ Hi) as (pre & post & Eo & Hl). apply (H3 pre op post s nm Eo Hs).
    intros op' nm' Hin K. apply In_nth_error in Hin. destruct Hin as (j & Hj). apply (Hp (i + 1 + j)%nat op'); [lia | | unfold Spec_opt.idof; rewrite K; reflexivity].
    subst ops. rewrite nth_error_app2 by lia. rewrite Hl. replace (i + 1 + j - i)%nat with (Datatypes.S j) by lia. exact Hj.
Qed.

(** C88 *)
Lemma run_histories : forall ops init n pbar mi ei fi vz sims0 r,
  (forall op, In op ops -> has_source op) -> distinct_by nameof ops -> distinct_by idof ops ->
  opt_run ops init n pbar mi ei fi vz sims0 = Some r -> forall op s nm, In op ops -> pb_sim op = Some (s, nm) ->
    let rho := fun k => get_params (states init k) in let aux := fun k => snd (pb_cost op (inr (pb_fn op (rho k)))) in
    ((0 < ei)%nat -> r_eps P E M D r nm = map (fun j => (j, pb_transform op (rho (j + 1)%nat))) (ticks ei n)) /\
    ((0 < fi)%nat -> r_fields P E M D r nm = map (fun j => (j, pb_field op (aux j))) (ticks fi n)) /\
    (forall f m val, (0 < mi)%nat -> pb_metrics op = Some f -> (forall j, dict_has (f (aux j)) m (val j)) ->
       r_metrics P E M D r m nm = map val (ticks mi n)).
Proof.
  intros ops init n pbar mi ei fi vz sims0 r All Names Ids H op s nm Hin Hs rho aux.
  apply distinct_nodup in Names. apply distinct_nodup in Ids. rewrite <- names_of in Names. rewrite <- ids_of in Ids.
  assert (All' : forall op, In op ops -> is_sim op = true) by (intros op' Hi; apply has_source_sim; auto).
  assert (Ea : forall k, snd (eval_problem op (rho k)) = aux k).
  { intro k. unfold Model_opt.eval_problem. rewrite (All' op Hin). reflexivity. }
  destruct (run_records P S F E A M D opt_init opt_update get_params ops init n pbar mi ei fi vz sims0 r All' Names Ids H op s nm Hin Hs) as (R1 & R2 & R3).
  split; [exact R1 |]. split.
  - intro Hf. rewrite R2 by exact Hf. apply map_ext. intro j. fold (rho j). rewrite Ea. reflexivity.
  - intros f m val Hm Ef Hv. rewrite R3 by exact Hm. clear - Ef Hv Ea. induction (ticks mi n) as [| j l IH]; [reflexivity |]. cbn [map concat].
    fold (rho j). rewrite Ea. rewrite (metrics_series P F E A M D op f (aux j) m (val j) Ef (Hv j)). cbn [List.app]. f_equal. exact IH.
Qed.

(** C89 *)
Lemma interval_raises : forall ops init n pbar mi ei fi vz sims0, ops <> [] ->
  (forall op, In op ops -> has_source op) -> distinct_by nameof ops -> distinct_by idof ops ->
  (forall op f a, In op ops -> pb_metrics op = Some f -> NoDup (map fst (f a))) -> (2 <= mi)%nat -> (2 <= n)%nat ->
  opt_run ops init n pbar mi ei fi vz sims0 = None.
Proof.
  intros ops init n pbar mi ei fi vz sims0 Hne All Names Ids Hk H1 H2.
  apply distinct_nodup in Names. apply distinct_nodup in Ids. rewrite <- names_of in Names. rewrite <- ids_of in Ids.
  apply metric_interval_raises; try assumption. intros op Hi. apply has_source_sim. auto.
Qed.

(** C90: two problems whose simulations have the same name *)
Lemma nodup_short : forall l i j x, nth_error l i = Some x -> nth_error l j = Some x -> i <> j -> (length (nodup Nat.eq_dec l) < length l)%nat.
Proof.
  intros l i j x Hi Hj Hn.
  destruct (Nat.eq_dec (length (nodup Nat.eq_dec l)) (length l)) as [E0 | Hne].
  - exfalso. apply Hn. assert (Hnd : NoDup l).
    { apply (NoDup_length_incl (l := l) (l' := nodup Nat.eq_dec l)) || idtac.
      apply (NoDup_incl_NoDup (NoDup_nodup Nat.eq_dec l)); [lia |]. intros y Hy. apply nodup_In in Hy. exact Hy. }
    apply (proj1 (NoDup_nth_error l) Hnd i j); [apply nth_error_Some; congruence | congruence].
  - assert (length (nodup Nat.eq_dec l) <= length l)%nat; [| lia].
    apply NoDup_incl_length; [apply NoDup_nodup |]. intros y Hy. apply nodup_In in Hy. exact Hy.
Qed.
Lemma names_nth : forall ops i op s nm, (forall op, In op ops -> has_source op) -> nth_error ops i = Some op -> pb_sim op = Some (s, nm) ->
  nth_error (sim_names P F E A M D ops) i = Some nm.
Proof.
  induction ops as [| a ops IH]; intros i op s nm H Hi Hs; [destruct i; discriminate |].
  assert (Ha : exists s' n', pb_sim a = Some (s', n')).
  { destruct (H a (or_introl eq_refl)) as [K _]. destruct (pb_sim a) as [[s' n'] |]; [eauto | congruence]. }
  destruct Ha as (s' & n' & Ha). unfold sim_names. cbn [map concat]. rewrite Ha. cbn [List.app]. destruct i as [| i]; cbn [nth_error] in *.
  - injection Hi as ->. rewrite Ha in Hs. injection Hs as _ ->. reflexivity.
  - apply (IH i op s nm); [intros op' Hi'; apply H; right; exact Hi' | exact Hi | exact Hs].
Qed.
Lemma names_length : forall ops, (forall op, In op ops -> has_source op) -> length (sim_names P F E A M D ops) = length ops.
Proof.
  induction ops as [| a ops IH]; intro H; [reflexivity |]. unfold sim_names. cbn [map concat length].
  destruct (H a (or_introl eq_refl)) as [K _]. destruct (pb_sim a) as [[s' n'] |]; [| congruence]. cbn [List.app length]. f_equal.
  apply IH. intros op' Hi'. apply H. right. exact Hi'.
Qed.
Lemma shared_name_raises : forall ops init config n pbar mi ei fi sims0 i j op op' s s' nm,
  (forall op, In op ops -> has_source op) -> nth_error ops i = Some op -> nth_error ops j = Some op' -> i <> j ->
  pb_sim op = Some (s, nm) -> pb_sim op' = Some (s', nm) ->
  opt_run ops init n pbar mi ei fi (Some (opt_viz P F E A M D ops config)) sims0 = None.
Proof.
  intros ops init config n pbar mi ei fi sims0 i j op op' s s' nm All Hi Hj Hn Hs Hs'.
  assert (All' : forall op, In op ops -> is_sim op = true) by (intros op0 H0; apply has_source_sim; auto).
  rewrite viz_names_all by exact All'. unfold Model_opt.opt_run.
  assert (Ef : filter is_sim ops = ops).
  { clear - All'. induction ops as [| a l IH]; [reflexivity |]. cbn [filter]. rewrite (All' a (or_introl eq_refl)). f_equal. apply IH. intros x Hx. apply All'. right. exact Hx. }
  rewrite Ef. cbn [vz_names]. destruct (Nat.eqb_spec (length (nodup Nat.eq_dec (sim_names P F E A M D ops))) (length ops)) as [K | _]; [| reflexivity].
  exfalso. pose proof (nodup_short (sim_names P F E A M D ops) i j nm (names_nth ops i op s nm All Hi Hs) (names_nth ops j op' s' nm All Hj Hs') Hn) as L.
  rewrite (names_length ops All) in L. lia.
Qed.
End opt.

(** C90: a problem without a source shifts the pairing of simulations and results.  Instance: params, fields and eps are numbers. *)
Definition noop_problem (s n : nat) (src : bool) (fld : nat) : problem nat nat nat nat nat nat :=
  mkProblem nat nat nat nat nat nat (Some (s, n)) src (fun x => x) (fun x => x) (fun _ => (0%R, fld)) None (fun a => a).
Lemma shifted : let ops := [noop_problem 0 0 false 7; noop_problem 1 1 true 8] in
  exists r, opt_run nat nat nat nat nat nat nat (fun x => x) (fun _ _ s => s) (fun s => s) ops 0%nat 1 true 0 0 1
    (Some (opt_viz nat nat nat nat nat nat ops [])) (fun _ => 0%nat) = Some r /\ r_fields nat nat nat nat r 1%nat = [(0%nat, 7%nat)].
Proof. eexists. split; [lazy -[Rplus Rdiv INR]; reflexivity | lazy; reflexivity]. Qed.

(** C88: eps is the permittivity of the parameters after the update, the field that of the parameters before it. *)
Lemma eps_ahead : let op := mkProblem nat nat nat nat nat nat (Some (0%nat, 0%nat)) true (fun x => x) (fun x => x)
    (fun x => (0%R, match x with inl y => y | inr y => y end)) None (fun a => a) in
  exists r, opt_run nat nat nat nat nat nat nat (fun x => x) (fun _ _ s => s + 1)%nat (fun s => s) [op] 5%nat 2 true 0 1 1
    (Some (opt_viz nat nat nat nat nat nat [op] [])) (fun _ => 0%nat) = Some r /\
    r_eps nat nat nat nat r 0%nat = [(0%nat, 6%nat); (1%nat, 7%nat)] /\ r_fields nat nat nat nat r 0%nat = [(0%nat, 5%nat); (1%nat, 6%nat)].
Proof. eexists. split; [lazy -[Rplus Rdiv INR]; reflexivity |]. split; lazy; reflexivity. Qed.
