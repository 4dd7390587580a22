(** The optimisation loop (C86 - C90). *)
From Coq Require Import Reals Lra Lia List ZArith Bool FunctionalExtensionality.
From Verif Require Import Arr Model_forward Model_opt Spec_opt.
Import ListNotations.

Section opt.
Variables (P S F E A M D : Type) (opt_init : P -> S) (opt_update : nat -> P -> S -> S) (get_params : S -> P).
Notation problem := (problem P F E A M D).
Notation state := (state S E M D).
Notation iteration := (iteration P S F E A M D opt_update get_params).
Notation iterations := (iterations P S F E A M D opt_update get_params).
Notation opt_run := (opt_run P S F E A M D opt_init opt_update get_params).
Notation record_all := (record_all P S F E A M D).
Notation record_one := (record_one P S F E A M D).
Notation update_eps := (update_eps P F E A M D).
Notation overall_cost := (overall_cost P F E A M D).
Notation eval_problem := (eval_problem P F E A M D).
Notation is_sim := (is_sim P F E A M D).
Notation pb_sim := (pb_sim P F E A M D).
Notation pb_transform := (pb_transform P F E A M D).
Notation pb_field := (pb_field P F E A M D).
Notation pb_metrics := (pb_metrics P F E A M D).
Notation st_opt := (st_opt S E M D).
Notation st_costs := (st_costs S E M D).
Notation st_sims := (st_sims S E M D).
Notation st_e := (st_e S E M D).
Notation st_f := (st_f S E M D).
Notation st_m := (st_m S E M D).
Notation states := (fun init => opt_states (opt_init init) opt_update get_params).

Lemma obind_some : forall (X Y : Type) (o : option X) (f : X -> option Y) y, obind o f = Some y -> exists x, o = Some x /\ f x = Some y.
Proof. intros X Y [x |] f y H; [eauto | discriminate]. Qed.
Lemma some_eq : forall (X : Type) (x y : X), Some x = Some y -> x = y.
Proof. intros X x y H. injection H. auto. Qed.

Lemma record_one_keep : forall vz mi ei fi i op a st st', record_one vz mi ei fi i op a st = Some st' ->
  st_opt st' = st_opt st /\ st_costs st' = st_costs st /\ st_sims st' = st_sims st.
Proof.
  intros vz mi ei fi i op a st st' H. unfold Model_opt.record_one in H. destruct (pb_sim op) as [[s n] |]; [| discriminate].
  apply obind_some in H. destruct H as (m & _ & H). apply some_eq in H. subst st'. repeat split.
Qed.
Lemma record_all_keep : forall vz mi ei fi i l st st', record_all vz mi ei fi i l st = Some st' ->
  st_opt st' = st_opt st /\ st_costs st' = st_costs st /\ st_sims st' = st_sims st.
Proof.
  induction l as [| [op a] l IH]; intros st st' H; cbn [Model_opt.record_all] in H.
  - apply some_eq in H. subst. auto.
  - apply obind_some in H. destruct H as (st1 & H1 & H2). apply record_one_keep in H1. apply IH in H2.
    destruct H1 as (-> & -> & ->) || idtac. intuition congruence.
Qed.
Lemma iteration_spec : forall ops pbar vz mi ei fi i st st', iteration ops pbar vz mi ei fi i st = Some st' ->
  pbar = true /\ st_opt st' = opt_update i (get_params (st_opt st)) (st_opt st) /\
  st_costs st' = st_costs st ++ [fst (overall_cost ops (get_params (st_opt st)))] /\
  exists st1 st2, update_eps ops (get_params (st_opt st')) (st_sims st) = Some (st_sims st') /\
    st1 = mkState S E M D (st_opt st') (st_costs st) (st_m st) (st_e st) (st_f st) (st_sims st') /\
    record_all vz mi ei fi i (combine (filter is_sim ops) (snd (overall_cost ops (get_params (st_opt st))))) st1 = Some st2 /\
    st_m st' = st_m st2 /\ st_e st' = st_e st2 /\ st_f st' = st_f st2.
Proof.
  intros ops pbar vz mi ei fi i st st' H. unfold Model_opt.iteration in H.
  destruct (overall_cost ops (get_params (st_opt st))) as [v data] eqn:Ev.
  apply obind_some in H. destruct H as (sims & H1 & H). apply obind_some in H. destruct H as (st2 & H2 & H).
  destruct pbar; [| discriminate]. apply some_eq in H. pose proof (record_all_keep _ _ _ _ _ _ _ _ H2) as (K1 & K2 & K3). cbn [Model_opt.st_opt Model_opt.st_costs Model_opt.st_sims] in K1, K2, K3.
  subst st'. cbn [Model_opt.st_opt Model_opt.st_costs Model_opt.st_sims Model_opt.st_m Model_opt.st_e Model_opt.st_f fst snd].
  split; [reflexivity |]. split; [exact K1 |]. split; [rewrite K2; reflexivity |].
  eexists. exists st2. rewrite K1, K3. split; [exact H1 |]. split; [reflexivity |]. split; [exact H2 |]. auto.
Qed.

(** The run: an invariant over iterations. *)
Lemma iterations_inv : forall ops pbar vz mi ei fi (I : nat -> state -> Prop),
  (forall i st st', I i st -> iteration ops pbar vz mi ei fi i st = Some st' -> I (i + 1)%nat st') ->
  forall k i st st', I i st -> iterations ops pbar vz mi ei fi i k st = Some st' -> I (i + k)%nat st'.
Proof.
  intros ops pbar vz mi ei fi I Hstep. induction k as [| k IH]; intros i st st' Hi H; cbn [Model_opt.iterations] in H.
  - apply some_eq in H. subst. rewrite Nat.add_0_r. exact Hi.
  - apply obind_some in H. destruct H as (st1 & H1 & H2). replace (i + Datatypes.S k)%nat with (i + 1 + k)%nat by lia.
    apply (IH _ st1); [| exact H2]. apply (Hstep i st); assumption.
Qed.
Lemma opt_run_split : forall ops init n pbar mi ei fi vz sims0 r, opt_run ops init n pbar mi ei fi vz sims0 = Some r ->
  exists st v, vz = Some v /\ length (vz_names v) = length (filter is_sim ops) /\
    iterations ops pbar vz mi ei fi 0 n (mkState S E M D (opt_init init) [] (fun _ _ => []) (fun _ => []) (fun _ => []) sims0) = Some st /\
    update_eps ops (get_params (st_opt st)) (st_sims st) = Some (r_sims P E M D r) /\
    final_metrics_ok P F E A M D (filter is_sim ops) (vz_config v) mi n (st_m st) = true /\
    r_costs P E M D r = st_costs st /\ r_params P E M D r = get_params (st_opt st) /\ r_metrics P E M D r = st_m st /\
    r_eps P E M D r = st_e st /\ r_fields P E M D r = st_f st.
Proof.
  intros ops init n pbar mi ei fi vz sims0 r H. unfold Model_opt.opt_run in H.
  destruct (match vz with Some v => Nat.eqb (length (vz_names v)) (length (filter is_sim ops)) | None => true end) eqn:Hv; [| discriminate].
  apply obind_some in H. destruct H as (st & H1 & H). apply obind_some in H. destruct H as (sims & H2 & H).
  destruct vz as [v |]; [| discriminate]. exists st, v. 
  destruct (final_metrics_ok P F E A M D (filter is_sim ops) (vz_config v) mi n (st_m st)) eqn:Hm; [| discriminate]. cbn [andb] in H.
  destruct (_ && _)%bool; [| discriminate]. apply some_eq in H. subst r. cbn. apply Nat.eqb_eq in Hv. repeat split; auto.
Qed.

(** C87 *)
Lemma run_states : forall ops init n pbar mi ei fi vz sims0 st,
  iterations ops pbar vz mi ei fi 0 n (mkState S E M D (opt_init init) [] (fun _ _ => []) (fun _ => []) (fun _ => []) sims0) = Some st ->
  st_opt st = states init n /\ st_costs st = map (fun k => fst (overall_cost ops (get_params (states init k)))) (seq 0 n).
Proof.
  intros ops init n pbar mi ei fi vz sims0 st H.
  apply (iterations_inv ops pbar vz mi ei fi (fun i st => st_opt st = states init i /\
    st_costs st = map (fun k => fst (overall_cost ops (get_params (states init k)))) (seq 0 i))) in H; [exact H | | cbn; auto].
  intros i s s' [I1 I2] Hs. apply iteration_spec in Hs. destruct Hs as (_ & H1 & H2 & _). rewrite Nat.add_1_r. split.
  - rewrite H1, I1. reflexivity.
  - rewrite H2, I1, I2, seq_S, map_app. reflexivity.
Qed.
Lemma update_eps_notin : forall ops rho sims sims' s, update_eps ops rho sims = Some sims' ->
  (forall op n, In op ops -> pb_sim op <> Some (s, n)) -> sims' s = sims s.
Proof.
  induction ops as [| op ops IH]; intros rho sims sims' s H Hn; cbn [Model_opt.update_eps] in H.
  - apply some_eq in H. subst. reflexivity.
  - destruct (pb_sim op) as [[s0 n0] |] eqn:E0; [| discriminate].
    rewrite (IH _ _ _ _ H) by (intros op' n Hin; apply Hn; right; exact Hin).
    apply upd_neq. intro K; subst s0. apply (Hn op n0 (or_introl eq_refl)). exact E0.
Qed.
Lemma update_eps_last : forall pre op post rho sims sims' s n, update_eps (pre ++ op :: post) rho sims = Some sims' ->
  pb_sim op = Some (s, n) -> (forall op' n', In op' post -> pb_sim op' <> Some (s, n')) -> sims' s = pb_transform op rho.
Proof.
  induction pre as [| a pre IH]; intros op post rho sims sims' s n H Hs Hn.
  - cbn [List.app Model_opt.update_eps] in H. rewrite Hs in H. rewrite (update_eps_notin _ _ _ _ s H Hn). apply upd_eq.
  - cbn [List.app Model_opt.update_eps] in H. destruct (pb_sim a) as [[s0 n0] |]; [| discriminate]. eapply IH; eassumption.
Qed.
Lemma run_result : forall ops init n pbar mi ei fi vz sims0 r, opt_run ops init n pbar mi ei fi vz sims0 = Some r ->
  r_params P E M D r = get_params (states init n) /\
  r_costs P E M D r = map (fun k => fst (overall_cost ops (get_params (states init k)))) (seq 0 n) /\
  forall pre op post s nm, ops = pre ++ op :: post -> pb_sim op = Some (s, nm) ->
    (forall op' nm', In op' post -> pb_sim op' <> Some (s, nm')) -> r_sims P E M D r s = pb_transform op (r_params P E M D r).
Proof.
  intros ops init n pbar mi ei fi vz sims0 r H. destruct (opt_run_split _ _ _ _ _ _ _ _ _ _ H) as (st & v & -> & _ & H1 & H2 & _ & H3 & H4 & _).
  destruct (run_states _ _ _ _ _ _ _ _ _ _ H1) as [K1 K2]. rewrite H3, H4, K1. split; [reflexivity |]. split; [exact K2 |].
  intros pre op post s nm Eo Hs Hn. rewrite Eo in H2. rewrite <- K1. exact (update_eps_last _ _ _ _ _ _ _ _ H2 Hs Hn).
Qed.

(** C86 *)
Lemma needs_viz : forall ops init n pbar mi ei fi sims0, opt_run ops init n pbar mi ei fi None sims0 = None.
Proof.
  intros. destruct (opt_run ops init n pbar mi ei fi None sims0) as [r |] eqn:H; [| reflexivity].
  apply opt_run_split in H. destruct H as (st & v & K & _). discriminate.
Qed.
Lemma needs_pbar : forall ops init n mi ei fi vz sims0, (0 < n)%nat -> opt_run ops init n false mi ei fi vz sims0 = None.
Proof.
  intros. destruct (opt_run ops init n false mi ei fi vz sims0) as [r |] eqn:E0; [| reflexivity].
  apply opt_run_split in E0. destruct E0 as (st & v & _ & _ & H1 & _). destruct n as [| n]; [lia |]. cbn [Model_opt.iterations] in H1.
  apply obind_some in H1. destruct H1 as (st1 & H1 & _). apply iteration_spec in H1. destruct H1 as (K & _). discriminate.
Qed.
(** C90 *)
Lemma update_eps_none : forall ops rho sims op, In op ops -> pb_sim op = None -> update_eps ops rho sims = None.
Proof.
  induction ops as [| a ops IH]; intros rho sims op Hin Hs; [destruct Hin |]. cbn [Model_opt.update_eps]. destruct Hin as [-> | Hin].
  - rewrite Hs. reflexivity.
  - destruct (pb_sim a) as [[s n] |]; [eapply IH; eassumption | reflexivity].
Qed.
Lemma needs_sim : forall ops init n pbar mi ei fi vz sims0 op, In op ops -> pb_sim op = None ->
  opt_run ops init n pbar mi ei fi vz sims0 = None.
Proof.
  intros. destruct (opt_run ops init n pbar mi ei fi vz sims0) as [r |] eqn:E0; [| reflexivity].
  apply opt_run_split in E0. destruct E0 as (st & v & _ & _ & _ & H1 & _). rewrite (update_eps_none _ _ _ op) in H1 by assumption. discriminate.
Qed.

(** ** Histories *)
Definition named (l : list (problem * A)) : list nat := concat (map (fun x => match pb_sim (fst x) with Some (_, n) => [n] | None => [] end) l).

Definition app_if {X : Type} (b : bool) (l : list X) (x : X) : list X := if b then l ++ [x] else l.
Lemma fold_upd2 : forall d h n m n', fold_left (fun h x => upd2 M h (fst x) n (snd x)) d h m n' =
  if Nat.eqb n' n then h m n' ++ map snd (filter (fun x => Nat.eqb (fst x) m) d) else h m n'.
Proof.
  induction d as [| [k x] d IH]; intros h n m n'; cbn [fold_left].
  - destruct (Nat.eqb n' n); [rewrite app_nil_r |]; reflexivity.
  - rewrite IH. unfold upd2. cbn [fst snd filter map]. destruct (Nat.eqb_spec n' n) as [-> | Hn].
    + destruct (Nat.eqb_spec m k) as [-> | Hm].
      * rewrite Nat.eqb_refl. cbn [andb map snd]. rewrite <- app_assoc. reflexivity.
      * destruct (Nat.eqb_spec k m); [congruence |]. reflexivity.
    + rewrite andb_false_r. reflexivity.
Qed.
Definition dict_vals (d : list (nat * M)) (m : nat) : list M := map snd (filter (fun x => Nat.eqb (fst x) m) d).
Lemma dict_vals_has : forall d m x, dict_has d m x -> dict_vals d m = [x].
Proof.
  intros d m x [Hnd Hin]. unfold dict_vals. induction d as [| [k y] d IH]; [destruct Hin |]. cbn [map fst] in Hnd. apply NoDup_cons_iff in Hnd.
  destruct Hnd as [Hk Hnd]. cbn [filter fst]. destruct Hin as [Ek | Hin].
  - injection Ek as -> ->. rewrite Nat.eqb_refl. cbn [map snd]. f_equal.
    assert (G : filter (fun x0 => Nat.eqb (fst x0) m) d = []); [| rewrite G; reflexivity].
    clear IH Hnd. induction d as [| [k' y'] d IH]; [reflexivity |]. cbn [filter fst]. destruct (Nat.eqb_spec k' m) as [-> | Hn].
    + exfalso. apply Hk. left. reflexivity.
    + apply IH. intro K. apply Hk. right. exact K.
  - destruct (Nat.eqb_spec k m) as [-> | Hn]; [| apply IH; assumption]. exfalso. apply Hk. apply (in_map fst) in Hin. exact Hin.
Qed.
Definition m_app (op : problem) (a : A) (m : nat) : list M := match pb_metrics op with Some f => dict_vals (f a) m | None => [] end.

Lemma record_one_hist : forall v mi ei fi i op a st st' s n, record_one (Some v) mi ei fi i op a st = Some st' -> pb_sim op = Some (s, n) ->
  st_e st' n = app_if (every ei i) (st_e st n) (i, st_sims st s) /\ st_f st' n = app_if (every fi i) (st_f st n) (i, pb_field op a) /\
  (forall m, st_m st' m n = if every mi i then st_m st m n ++ m_app op a m else st_m st m n) /\
  (forall n', n' <> n -> st_e st' n' = st_e st n' /\ st_f st' n' = st_f st n' /\ forall m, st_m st' m n' = st_m st m n').
Proof.
  intros v mi ei fi i op a st st' s n H Hs. unfold Model_opt.record_one in H. rewrite Hs in H. apply obind_some in H.
  destruct H as (h & Hh & H). apply some_eq in H. subst st'. cbn [Model_opt.st_e Model_opt.st_f Model_opt.st_m].
  unfold record_metrics in Hh. split; [| split; [| split]].
  - unfold app_if. destruct (every ei i); [apply upd_eq | reflexivity].
  - unfold app_if. destruct (every fi i); [apply upd_eq | reflexivity].
  - intro m. destruct (every mi i); [| apply some_eq in Hh; subst h; reflexivity].
    unfold m_app. destruct (pb_metrics op) as [f |]; [| discriminate].
    destruct (forallb _ _) in Hh; [| discriminate]. apply some_eq in Hh. subst h. rewrite fold_upd2, Nat.eqb_refl. reflexivity.
  - intros n' Hn. split; [| split].
    + destruct (every ei i); [apply upd_neq; auto | reflexivity].
    + destruct (every fi i); [apply upd_neq; auto | reflexivity].
    + intro m. destruct (every mi i); [| apply some_eq in Hh; subst h; reflexivity].
      destruct (pb_metrics op) as [f |]; [| discriminate].
      destruct (forallb _ _) in Hh; [| discriminate]. apply some_eq in Hh. subst h. rewrite fold_upd2.
      destruct (Nat.eqb_spec n' n); [contradiction | reflexivity].
Qed.
Lemma record_all_hist : forall v mi ei fi i l st st', record_all (Some v) mi ei fi i l st = Some st' -> NoDup (named l) ->
  (forall op a s n, In (op, a) l -> pb_sim op = Some (s, n) ->
    st_e st' n = app_if (every ei i) (st_e st n) (i, st_sims st s) /\ st_f st' n = app_if (every fi i) (st_f st n) (i, pb_field op a) /\
    (forall m, st_m st' m n = if every mi i then st_m st m n ++ m_app op a m else st_m st m n)) /\
  (forall n, ~ In n (named l) -> st_e st' n = st_e st n /\ st_f st' n = st_f st n /\ forall m, st_m st' m n = st_m st m n).
Proof.
  intros v mi ei fi i l. induction l as [| [op a] l IH]; intros st st' H Hnd; cbn [Model_opt.record_all] in H.
  - apply some_eq in H. subst. split; [intros op a s n [] | auto].
  - apply obind_some in H. destruct H as (st1 & H1 & H2).
    destruct (pb_sim op) as [[s0 n0] |] eqn:Es; [| unfold Model_opt.record_one in H1; rewrite Es in H1; discriminate].
    assert (Hnm : named ((op, a) :: l) = n0 :: named l) by (unfold named; cbn [map concat fst]; rewrite Es; reflexivity).
    rewrite Hnm in *. apply NoDup_cons_iff in Hnd. destruct Hnd as [Hn0 Hnd].
    destruct (IH st1 st' H2 Hnd) as [I1 I2]. destruct (record_one_hist _ _ _ _ _ _ _ _ _ _ _ H1 Es) as (R1 & R2 & R3 & R4).
    pose proof (record_one_keep _ _ _ _ _ _ _ _ _ H1) as (_ & _ & K3).
    split.
    + intros op' a' s n [E0 | Hin] Hs.
      * injection E0 as <- <-. rewrite Es in Hs. injection Hs as <- <-. destruct (I2 n0 Hn0) as (J1 & J2 & J3).
        rewrite J1, J2. split; [exact R1 |]. split; [exact R2 |]. intro m. rewrite J3. apply R3.
      * destruct (I1 op' a' s n Hin Hs) as (J1 & J2 & J3). 
        assert (Hne : n <> n0).
        { intro K. subst n. apply Hn0. unfold named. apply in_concat. exists [n0]. split; [| left; reflexivity].
          apply in_map_iff. exists (op', a'). cbn [fst]. rewrite Hs. auto. }
        destruct (R4 n Hne) as (Q1 & Q2 & Q3). rewrite J1, J2, Q1, Q2, K3. split; [reflexivity |]. split; [reflexivity |].
        intro m. rewrite J3, Q3. reflexivity.
    + intros n Hn. destruct (I2 n) as (J1 & J2 & J3); [intro K; apply Hn; right; exact K |].
      destruct (R4 n) as (Q1 & Q2 & Q3); [intro K; apply Hn; left; auto |]. rewrite J1, J2, Q1, Q2. split; [reflexivity |]. split; [reflexivity |].
      intro m. rewrite J3, Q3. reflexivity.
Qed.

(** ** All problems are simulations with their own name *)
Definition sim_names (ops : list problem) : list nat := concat (map (fun op => match pb_sim op with Some (_, n) => [n] | None => [] end) ops).
Definition sim_ids (ops : list problem) : list nat := concat (map (fun op => match pb_sim op with Some (s, _) => [s] | None => [] end) ops).

Lemma combine_all : forall ops rho, (forall op, In op ops -> is_sim op = true) ->
  combine (filter is_sim ops) (snd (overall_cost ops rho)) = map (fun op => (op, snd (eval_problem op rho))) ops.
Proof.
  intros ops rho H. unfold Model_opt.overall_cost. cbn [snd].
  assert (Ef : filter is_sim ops = ops).
  { induction ops as [| a ops IH]; [reflexivity |]. cbn [filter]. rewrite (H a (or_introl eq_refl)). f_equal. apply IH. intros op Hi. apply H. right. exact Hi. }
  rewrite Ef, map_map. clear H Ef. induction ops as [| a ops IH]; [reflexivity |]. cbn [map combine]. f_equal. exact IH.
Qed.
Lemma named_map : forall ops rho, named (map (fun op => (op, snd (eval_problem op rho))) ops) = sim_names ops.
Proof. intros. unfold named, sim_names. rewrite map_map. reflexivity. Qed.
Lemma ticks_S : forall k i, ticks k (i + 1) = ticks k i ++ (if Nat.eqb (Nat.modulo i k) 0 then [i] else []).
Proof. intros k i. unfold ticks. rewrite Nat.add_1_r, seq_S, filter_app. cbn [filter Nat.add]. destruct (Nat.eqb _ _); reflexivity. Qed.
Lemma nodup_app_r : forall (X : Type) (a b : list X), NoDup (a ++ b) -> NoDup b.
Proof. induction a as [| x a IH]; intros b H; [exact H |]. cbn in H. apply NoDup_cons_iff in H. apply IH. apply H. Qed.
Lemma sim_in_post : forall ops pre op post s n, NoDup (sim_ids ops) -> ops = pre ++ op :: post -> pb_sim op = Some (s, n) ->
  forall op' n', In op' post -> pb_sim op' <> Some (s, n').
Proof.
  intros ops pre op post s n Hnd -> Hs op' n' Hin K. unfold sim_ids in Hnd. rewrite map_app, concat_app in Hnd.
  apply nodup_app_r in Hnd. cbn [map concat] in Hnd. rewrite Hs in Hnd. cbn [List.app] in Hnd. apply NoDup_cons_iff in Hnd.
  destruct Hnd as [Hn _]. apply Hn. apply in_concat. exists [s]. split; [| left; reflexivity]. apply in_map_iff. exists op'. rewrite K. auto.
Qed.

Section all_sims.
Variables (ops : list problem) (init : P).
Hypothesis All : forall op, In op ops -> is_sim op = true.
Hypothesis Names : NoDup (sim_names ops).
Hypothesis Ids : NoDup (sim_ids ops).
Variables (v : viz) (mi ei fi : nat) (pbar : bool).

Definition hist_inv (i : nat) (st : state) : Prop := st_opt st = states init i /\
    forall op s n, In op ops -> pb_sim op = Some (s, n) ->
    ((0 < ei)%nat -> st_e st n = map (fun j => (j, pb_transform op (get_params (states init (j + 1)%nat)))) (ticks ei i)) /\
    ((0 < fi)%nat -> st_f st n = map (fun j => (j, pb_field op (snd (eval_problem op (get_params (states init j)))))) (ticks fi i)) /\
    ((0 < mi)%nat -> forall m, st_m st m n = concat (map (fun j => m_app op (snd (eval_problem op (get_params (states init j)))) m) (ticks mi i))).

Lemma hist_step : forall i st st', hist_inv i st -> iteration ops pbar (Some v) mi ei fi i st = Some st' -> hist_inv (i + 1)%nat st'.
Proof.
  intros i st st' [I1 I2] H. apply iteration_spec in H. destruct H as (_ & H1 & _ & st1 & st2 & H2 & H3 & H4 & H5 & H6 & H7).
  rewrite combine_all in H4 by exact All.
  destruct (record_all_hist _ _ _ _ _ _ _ _ H4) as [R _]; [rewrite named_map; exact Names |].
  assert (Eo : st_opt st' = states init (i + 1)%nat) by (rewrite H1, I1, Nat.add_1_r; reflexivity).
  split; [exact Eo |]. intros op s n Hin Hs.
  destruct (R op (snd (eval_problem op (get_params (st_opt st)))) s n) as (R1 & R2 & R3); [apply in_map_iff; exists op; auto | exact Hs |].
  rewrite H3 in R1, R2, R3. cbn [Model_opt.st_e Model_opt.st_f Model_opt.st_m Model_opt.st_sims] in R1, R2, R3.
  destruct (I2 op s n Hin Hs) as (J1 & J2 & J3).
  assert (Esim : st_sims st' s = pb_transform op (get_params (states init (i + 1)%nat))).
  { rewrite Eo in H2. apply in_split in Hin. destruct Hin as (pre & post & Eops). pose proof (sim_in_post _ _ _ _ _ _ Ids Eops Hs) as Hp.
    rewrite Eops in H2. exact (update_eps_last _ _ _ _ _ _ _ _ H2 Hs Hp). }
  rewrite H5, H6, H7. split; [| split].
  - intro Hp. rewrite R1, J1 by exact Hp. unfold app_if, every. destruct (Nat.ltb_spec 0 ei); [| lia]. cbn [andb]. rewrite ticks_S, map_app.
    destruct (Nat.eqb (Nat.modulo i ei) 0); cbn [map]; [rewrite Esim; reflexivity | rewrite app_nil_r; reflexivity].
  - intro Hp. rewrite R2, J2 by exact Hp. unfold app_if, every. destruct (Nat.ltb_spec 0 fi); [| lia]. cbn [andb]. rewrite ticks_S, map_app.
    destruct (Nat.eqb (Nat.modulo i fi) 0); cbn [map]; [rewrite I1; reflexivity | rewrite app_nil_r; reflexivity].
  - intros Hp m. rewrite R3, J3 by exact Hp. unfold every. destruct (Nat.ltb_spec 0 mi); [| lia]. cbn [andb]. rewrite ticks_S, map_app, concat_app.
    destruct (Nat.eqb (Nat.modulo i mi) 0); cbn [map concat]; [rewrite I1, app_nil_r; reflexivity | rewrite app_nil_r; reflexivity].
Qed.
Lemma hist_run : forall n sims0 st,
  iterations ops pbar (Some v) mi ei fi 0 n (mkState S E M D (opt_init init) [] (fun _ _ => []) (fun _ => []) (fun _ => []) sims0) = Some st ->
  hist_inv n st.
Proof.
  intros n sims0 st H. apply (iterations_inv ops pbar (Some v) mi ei fi hist_inv) in H; [exact H | exact hist_step |].
  split; [reflexivity |]. intros op s nm _ _. repeat split; intros; reflexivity.
Qed.
End all_sims.

(** C88 *)
Lemma run_records : forall ops init n pbar mi ei fi vz sims0 r, (forall op, In op ops -> is_sim op = true) -> NoDup (sim_names ops) -> NoDup (sim_ids ops) ->
  opt_run ops init n pbar mi ei fi vz sims0 = Some r -> forall op s nm, In op ops -> pb_sim op = Some (s, nm) ->
    ((0 < ei)%nat -> r_eps P E M D r nm = map (fun j => (j, pb_transform op (get_params (states init (j + 1)%nat)))) (ticks ei n)) /\
    ((0 < fi)%nat -> r_fields P E M D r nm = map (fun j => (j, pb_field op (snd (eval_problem op (get_params (states init j)))))) (ticks fi n)) /\
    ((0 < mi)%nat -> forall m, r_metrics P E M D r m nm = concat (map (fun j => m_app op (snd (eval_problem op (get_params (states init j)))) m) (ticks mi n))).
Proof.
  intros ops init n pbar mi ei fi vz sims0 r All Names Ids H op s nm Hin Hs.
  destruct (opt_run_split _ _ _ _ _ _ _ _ _ _ H) as (st & v & -> & _ & H1 & _ & _ & _ & _ & E1 & E2 & E3).
  rewrite E1, E2, E3. destruct (hist_run ops init All Names Ids v mi ei fi pbar n sims0 st H1) as [_ Hh]. exact (Hh op s nm Hin Hs).
Qed.
Lemma metrics_series : forall op f a m x, pb_metrics op = Some f -> dict_has (f a) m x -> m_app op a m = [x].
Proof. intros op f a m x Hf Hd. unfold m_app. rewrite Hf. apply dict_vals_has. exact Hd. Qed.

(** C89 *)
Lemma dict_vals_le : forall d m, NoDup (map fst d) -> (length (dict_vals d m) <= 1)%nat.
Proof.
  intros d m H. destruct (in_dec Nat.eq_dec m (map fst d)) as [Hin | Hn].
  - apply in_map_iff in Hin. destruct Hin as ([k x] & Ek & Hin). cbn in Ek. subst k. rewrite (dict_vals_has d m x); [cbn; lia | split; assumption].
  - unfold dict_vals. assert (G : filter (fun x => Nat.eqb (fst x) m) d = []); [| rewrite G; cbn; lia].
    clear H. induction d as [| [k y] d IH]; [reflexivity |]. cbn [filter fst map] in *. destruct (Nat.eqb_spec k m) as [-> | Hk].
    + exfalso. apply Hn. left. reflexivity.
    + apply IH. intro K. apply Hn. right. exact K.
Qed.
Lemma concat_len_le : forall (X Y : Type) (f : X -> list Y) l, (forall x, In x l -> (length (f x) <= 1)%nat) -> (length (concat (map f l)) <= length l)%nat.
Proof.
  induction l as [| a l IH]; intro H; [cbn; lia |]. cbn [map concat length]. rewrite app_length.
  pose proof (H a (or_introl eq_refl)). assert (length (concat (map f l)) <= length l)%nat by (apply IH; intros; apply H; right; assumption). lia.
Qed.
Lemma ticks_lt : forall k n, (2 <= k)%nat -> (2 <= n)%nat -> (length (ticks k n) < n)%nat.
Proof.
  intros k n Hk Hn. unfold ticks. destruct n as [| [| n]]; [lia | lia |].
  assert (G : forall l : list nat, (length (filter (fun i => Nat.eqb (Nat.modulo i k) 0) l) <= length l)%nat).
  { induction l as [| a l IH]; [cbn; lia |]. cbn [filter length]. destruct (Nat.eqb _ _); cbn [length]; lia. }
  cbn [seq filter]. rewrite (Nat.mod_small 1 k) by lia. cbn [Nat.eqb]. pose proof (G (seq 2 n)) as G2. rewrite seq_length in G2.
  destruct (Nat.eqb (Nat.modulo 0 k) 0); cbn [length]; lia.
Qed.
Lemma metric_interval_raises : forall ops init n pbar mi ei fi vz sims0, ops <> [] -> (forall op, In op ops -> is_sim op = true) -> NoDup (sim_names ops) -> NoDup (sim_ids ops) ->
  (forall op f a, In op ops -> pb_metrics op = Some f -> NoDup (map fst (f a))) -> (2 <= mi)%nat -> (2 <= n)%nat ->
  opt_run ops init n pbar mi ei fi vz sims0 = None.
Proof.
  intros ops init n pbar mi ei fi vz sims0 Hne All Names Ids Hk Hmi Hn.
  destruct (opt_run ops init n pbar mi ei fi vz sims0) as [r |] eqn:H; [exfalso | reflexivity].
  destruct (opt_run_split _ _ _ _ _ _ _ _ _ _ H) as (st & v & -> & _ & H1 & _ & Hm & _).
  destruct (hist_run ops init All Names Ids v mi ei fi pbar n sims0 st H1) as [_ Hh].
  destruct ops as [| op ops']; [congruence |]. assert (Hs1 : is_sim op = true) by (apply All; left; reflexivity).
  unfold final_metrics_ok in Hm. cbn [filter] in Hm. rewrite Hs1 in Hm. cbn [length Nat.eqb orb] in Hm.
  destruct (Nat.eqb_spec mi 0); [lia |]. apply andb_prop in Hm. destruct Hm as [Hc Hm]. cbn [forallb] in Hm. apply andb_prop in Hm. destruct Hm as [Hm _].
  destruct (pb_sim op) as [[s nm] |] eqn:Es; [| discriminate]. destruct (concat (vz_config v)) as [| m ms]; [discriminate |].
  cbn [forallb] in Hm. apply andb_prop in Hm. destruct Hm as [Hm _]. apply Nat.eqb_eq in Hm.
  destruct (Hh op s nm (or_introl eq_refl) Es) as (_ & _ & J). rewrite J in Hm by lia.
  assert (Hle : (length (concat (map (fun j => m_app op (snd (eval_problem op (get_params (states init j)))) m) (ticks mi n))) <= length (ticks mi n))%nat).
  { apply concat_len_le. intros j _. unfold m_app. destruct (pb_metrics op) as [f |] eqn:Ef; [| cbn; lia]. apply dict_vals_le. apply (Hk op f _ (or_introl eq_refl) Ef). }
  pose proof (ticks_lt mi n Hmi Hn). lia.
Qed.

(** ** When it returns *)
Section returns.
Variables (ops : list problem) (init : P) (config : list (list nat)).
Hypothesis All : forall op, In op ops -> is_sim op = true.
Hypothesis Names : NoDup (sim_names ops).
Hypothesis Ids : NoDup (sim_ids ops).
Variables (mi ei fi : nat).
Hypothesis Titles : mi = 1%nat -> forall ms, In ms config -> ms <> [].
Hypothesis Metrics : mi = 1%nat -> forall op, In op ops -> exists f, pb_metrics op = Some f /\ forall a m, In m (concat config) -> exists x, dict_has (f a) m x.
Hypothesis Mi : (mi <= 1)%nat.
Let v := mkViz (nodup Nat.eq_dec (sim_names ops)) config.

Definition len_inv (i : nat) (h : nat -> nat -> list M) (n : nat) : Prop := mi = 1%nat -> forall m, In m (concat config) -> length (h m n) = i.

Lemma sim_some : forall op, In op ops -> exists s n, pb_sim op = Some (s, n).
Proof.
  intros op H. pose proof (All op H) as K. unfold Model_opt.is_sim in K. destruct (pb_sim op) as [[s n] |]; [eauto | discriminate].
Qed.
Lemma record_one_ok : forall i op a st s n, In op ops -> pb_sim op = Some (s, n) -> len_inv i (st_m st) n ->
  exists st', record_one (Some v) mi ei fi i op a st = Some st'.
Proof.
  intros i op a st s n Hin Hs Hl. unfold Model_opt.record_one. rewrite Hs.
  assert (Hr : exists h, record_metrics P F E A M D (Some v) mi i n op a (st_m st) = Some h).
  { unfold record_metrics. destruct (every mi i) eqn:Ee; [| eauto].
    assert (mi = 1%nat).
    { unfold every in Ee. apply andb_prop in Ee. destruct Ee as [Ee _]. apply Nat.ltb_lt in Ee. lia. }
    destruct (Metrics H op Hin) as (f & Ef & Hf). rewrite Ef. cbv zeta.
    replace (forallb _ _) with true; [eauto |]. symmetry. apply forallb_forall. intros ms Hms. cbn [vz_config v] in Hms.
    unfold title_ok. apply andb_true_intro. split.
    - apply negb_true_iff. apply Nat.eqb_neq. pose proof (Titles H ms Hms). destruct ms; [congruence | cbn; lia].
    - apply forallb_forall. intros m Hm. apply Nat.eqb_eq. rewrite fold_upd2, Nat.eqb_refl, app_length.
      assert (Hc : In m (concat config)) by (apply in_concat; eauto).
      rewrite (Hl H m Hc). destruct (Hf a m Hc) as (x & Hx). change (map snd _) with (dict_vals (f a) m). rewrite (dict_vals_has _ _ _ Hx). reflexivity. }
  destruct Hr as (h & Hr). rewrite Hr. cbn [obind]. eauto.
Qed.
Lemma record_all_ok : forall i l st, (forall op a, In (op, a) l -> In op ops) -> NoDup (named l) ->
  (forall op a s n, In (op, a) l -> pb_sim op = Some (s, n) -> len_inv i (st_m st) n) ->
  exists st', record_all (Some v) mi ei fi i l st = Some st'.
Proof.
  intros i l. induction l as [| [op a] l IH]; intros st Hin Hnd Hl; [eexists; reflexivity |].
  destruct (sim_some op) as (s & n & Hs); [apply (Hin op a); left; reflexivity |].
  destruct (record_one_ok i op a st s n) as (st1 & H1); [apply (Hin op a); left; reflexivity | exact Hs | apply (Hl op a s n); [left; reflexivity | exact Hs] |].
  assert (Hnm : named ((op, a) :: l) = n :: named l) by (unfold named; cbn [map concat fst]; rewrite Hs; reflexivity).
  rewrite Hnm in Hnd. apply NoDup_cons_iff in Hnd. destruct Hnd as [Hn Hnd].
  destruct (record_one_hist _ _ _ _ _ _ _ _ _ _ _ H1 Hs) as (_ & _ & _ & R4).
  destruct (IH st1) as (st' & H2).
  - intros op' a' Hi. apply (Hin op' a'). right. exact Hi.
  - exact Hnd.
  - intros op' a' s' n' Hi Hs' Hmi m Hm. assert (Hne : n' <> n).
    { intro K. subst n'. apply Hn. unfold named. apply in_concat. exists [n]. split; [| left; reflexivity]. apply in_map_iff. exists (op', a'). cbn [fst]. rewrite Hs'. auto. }
    destruct (R4 n' Hne) as (_ & _ & Q). rewrite Q. apply (Hl op' a' s' n' (or_intror Hi) Hs' Hmi m Hm).
  - exists st'. cbn [Model_opt.record_all]. rewrite H1. exact H2.
Qed.
Lemma update_eps_ok : forall l rho sims, (forall op, In op l -> In op ops) -> exists sims', update_eps l rho sims = Some sims'.
Proof.
  induction l as [| op l IH]; intros rho sims H; [eexists; reflexivity |]. cbn [Model_opt.update_eps].
  destruct (sim_some op (H op (or_introl eq_refl))) as (s & n & ->). apply IH. intros op' Hi. apply H. right. exact Hi.
Qed.
Lemma iteration_ok : forall i st, (forall op s n, In op ops -> pb_sim op = Some (s, n) -> len_inv i (st_m st) n) ->
  exists st', iteration ops true (Some v) mi ei fi i st = Some st' /\
    forall op s n, In op ops -> pb_sim op = Some (s, n) -> len_inv (i + 1) (st_m st') n.
Proof.
  intros i st Hl. destruct (update_eps_ok ops (get_params (opt_update i (get_params (st_opt st)) (st_opt st))) (st_sims st)) as (sims & Hu); [auto |].
  set (l := map (fun op => (op, snd (eval_problem op (get_params (st_opt st))))) ops).
  set (st1 := mkState S E M D (opt_update i (get_params (st_opt st)) (st_opt st)) (st_costs st) (st_m st) (st_e st) (st_f st) sims).
  assert (Hnd : NoDup (named l)) by (unfold l; rewrite named_map; exact Names).
  assert (Hin : forall op a, In (op, a) l -> In op ops).
  { intros op a Hi. unfold l in Hi. apply in_map_iff in Hi. destruct Hi as (op' & E0 & Hi). injection E0 as <- _. exact Hi. }
  destruct (record_all_ok i l st1 Hin Hnd) as (st2 & H2).
  { intros op a s n Hi Hs. cbn [st1 Model_opt.st_m]. apply (Hl op s n (Hin op a Hi) Hs). }
  pose proof (combine_all ops (get_params (st_opt st)) All) as Hc.
  destruct (overall_cost ops (get_params (st_opt st))) as [c data] eqn:Ec. cbn [snd] in Hc.
  eexists. split.
  - unfold Model_opt.iteration. rewrite Ec. rewrite Hu. cbn [obind]. rewrite Hc. fold l st1. rewrite H2. cbn [obind]. reflexivity.
  - cbn [Model_opt.st_m]. intros op s n Hi Hs Hmi m Hm.
    destruct (record_all_hist _ _ _ _ _ _ _ _ H2 Hnd) as [R _].
    destruct (R op (snd (eval_problem op (get_params (st_opt st)))) s n) as (_ & _ & R3); [unfold l; apply in_map_iff; exists op; auto | exact Hs |].
    rewrite R3. unfold every. rewrite Hmi. cbn [Nat.ltb Nat.leb Nat.modulo Nat.divmod fst snd Nat.sub andb Nat.eqb].
    rewrite app_length. cbn [st1 Model_opt.st_m]. rewrite (Hl op s n Hi Hs Hmi m Hm).
    destruct (Metrics Hmi op Hi) as (f & Ef & Hf). destruct (Hf (snd (eval_problem op (get_params (st_opt st)))) m Hm) as (x & Hx).
    rewrite (metrics_series op f _ m x Ef Hx). reflexivity.
Qed.
Lemma iterations_ok : forall k i st, (forall op s n, In op ops -> pb_sim op = Some (s, n) -> len_inv i (st_m st) n) ->
  exists st', iterations ops true (Some v) mi ei fi i k st = Some st' /\
    forall op s n, In op ops -> pb_sim op = Some (s, n) -> len_inv (i + k) (st_m st') n.
Proof.
  induction k as [| k IH]; intros i st Hl.
  - exists st. rewrite Nat.add_0_r. split; [reflexivity | exact Hl].
  - destruct (iteration_ok i st Hl) as (st1 & H1 & L1). destruct (IH (i + 1)%nat st1 L1) as (st' & H2 & L2).
    exists st'. cbn [Model_opt.iterations]. rewrite H1. cbn [obind]. replace (i + Datatypes.S k)%nat with (i + 1 + k)%nat by lia. auto.
Qed.
Lemma filter_all : filter is_sim ops = ops.
Proof.
  clear - All. induction ops as [| a l IH]; [reflexivity |]. cbn [filter]. rewrite (All a (or_introl eq_refl)). f_equal. apply IH. intros op Hi. apply All. right. exact Hi.
Qed.
Lemma names_len : length (nodup Nat.eq_dec (sim_names ops)) = length ops.
Proof.
  rewrite nodup_fixed_point by exact Names. clear - All. unfold sim_names. induction ops as [| a l IH]; [reflexivity |]. cbn [map concat length].
  assert (K : is_sim a = true) by (apply All; left; reflexivity). unfold Model_opt.is_sim in K. destruct (pb_sim a) as [[s n] |]; [| discriminate].
  cbn [List.app length]. f_equal. apply IH. intros op Hi. apply All. right. exact Hi.
Qed.
Lemma run_returns_s : forall n sims0, (mi = 1%nat -> config <> []) -> ((0 < n)%nat \/ (ei = 0%nat /\ fi = 0%nat)) ->
  exists r, opt_run ops init n true mi ei fi (Some v) sims0 = Some r.
Proof.
  intros n sims0 Hcfg Hn. unfold Model_opt.opt_run. rewrite filter_all. cbn [v vz_names]. rewrite names_len, Nat.eqb_refl.
  destruct (iterations_ok n 0 (mkState S E M D (opt_init init) [] (fun _ _ => []) (fun _ => []) (fun _ => []) sims0)) as (st & H1 & L).
  { intros op s nm _ _ _ m _. reflexivity. }
  fold v. rewrite H1. cbn [obind]. destruct (update_eps_ok ops (get_params (st_opt st)) (st_sims st)) as (sims & Hu); [auto |]. rewrite Hu. cbn [obind].
  destruct (hist_run ops init All Names Ids v mi ei fi true n sims0 st H1) as [_ Hh].
  replace (final_metrics_ok P F E A M D ops (vz_config v) mi n (st_m st)) with true.
  2:{ symmetry. unfold final_metrics_ok. destruct (Nat.eqb_spec (length ops) 0); [reflexivity |]. cbn [orb]. destruct (Nat.eqb_spec mi 0); [reflexivity |].
      assert (Em : mi = 1%nat) by lia. apply andb_true_intro. split.
      - cbn [v vz_config]. pose proof (Hcfg Em) as Hc. destruct config as [| ms c]; [congruence |]. pose proof (Titles Em ms (or_introl eq_refl)). destruct ms; [congruence | reflexivity].
      - apply forallb_forall. intros op Hi. destruct (sim_some op Hi) as (s & nm & Hs). rewrite Hs. apply forallb_forall. intros m Hm. apply Nat.eqb_eq. apply (L op s nm Hi Hs Em m Hm). }
  assert (T0 : forall k, (0 < k)%nat -> (0 < n)%nat -> ticks k n <> []).
  { intros k Hk Hn0 K. assert (Hi : In 0%nat (ticks k n)); [| rewrite K in Hi; destruct Hi]. unfold ticks. apply filter_In. split; [apply in_seq; lia |].
    rewrite Nat.mod_0_l by lia. reflexivity. }
  replace (final_hist_ok P F E A M D E ops ei (st_e st)) with true.
  2:{ symmetry. unfold final_hist_ok. destruct (Nat.eqb_spec (length ops) 0); [reflexivity |]. cbn [orb]. destruct (Nat.eqb_spec ei 0); [reflexivity |].
      apply forallb_forall. intros op Hi. destruct (sim_some op Hi) as (s & nm & Hs). rewrite Hs. destruct (Hh op s nm Hi Hs) as (J & _ & _). rewrite J by lia.
      rewrite map_length. apply negb_true_iff. apply Nat.eqb_neq. pose proof (T0 ei). destruct (ticks ei n); [exfalso; apply H; [lia | lia | reflexivity] | cbn; lia]. }
  replace (final_hist_ok P F E A M D D ops fi (st_f st)) with true.
  2:{ symmetry. unfold final_hist_ok. destruct (Nat.eqb_spec (length ops) 0); [reflexivity |]. cbn [orb]. destruct (Nat.eqb_spec fi 0); [reflexivity |].
      apply forallb_forall. intros op Hi. destruct (sim_some op Hi) as (s & nm & Hs). rewrite Hs. destruct (Hh op s nm Hi Hs) as (_ & J & _). rewrite J by lia.
      rewrite map_length. apply negb_true_iff. apply Nat.eqb_neq. pose proof (T0 fi). destruct (ticks fi n); [exfalso; apply H; [lia | lia | reflexivity] | cbn; lia]. }
  cbn [andb]. eauto.
Qed.
End returns.
Lemma viz_names_all : forall ops config, (forall op, In op ops -> is_sim op = true) ->
  opt_viz P F E A M D ops config = mkViz (nodup Nat.eq_dec (sim_names ops)) config.
Proof.
  intros ops config H. unfold opt_viz, sim_names. f_equal. f_equal. f_equal. apply map_ext_in. intros op Hi. specialize (H op Hi). unfold Model_opt.is_sim in H.
  destruct (pb_sim op) as [[s n] |]; [| reflexivity]. rewrite H. reflexivity.
Qed.
End opt.
