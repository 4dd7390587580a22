(** FDFD.sparams. *)
From Coq Require Import Reals List Arith ZArith Lra Lia Bool Permutation.
From Verif Require Import Cx Arr Model_parse Spec_parse Proof_parse Model_mode Model_sparams Spec_sparams.
Import ListNotations.

Lemma is_port_iff : forall ports p, is_port ports p = true <-> In p ports.
Proof.
  intros ports p. unfold is_port. rewrite existsb_exists. split; [intros (x & H & E); apply Nat.eqb_eq in E; subst; exact H | intro H; exists p; split; [exact H | apply Nat.eqb_refl]].
Qed.
Lemma collect_ok : forall A (f : A -> pyv) (g : A -> list (pyv * pyv)) k l, (forall a, In a l -> parse_excitation k (f a) = Ok (g a)) ->
  collect (map (parse_excitation k) (map f l)) = Ok (flat_map g l).
Proof.
  induction l as [| a l IH]; intros H; [reflexivity |]. cbn [map flat_map collect]. rewrite (H a (or_introl eq_refl)).
  rewrite IH by (intros; apply H; right; assumption). reflexivity.
Qed.
Lemma py_pair_of : forall pm, py_pair (VStr (fst pm), VInt (Z.of_nat (snd pm))) = pm.
Proof. intros [p m]. cbn [py_pair fst snd]. rewrite Nat2Z.id. reflexivity. Qed.
Lemma flat_single : forall A B (f : A -> B) l, flat_map (fun a => [f a]) l = map f l.
Proof. induction l; cbn; [reflexivity | rewrite IHl; reflexivity]. Qed.
Lemma parse_pairs : forall l, l <> [] -> parse_excitation 3 (VSeq (map pair_py l)) = Ok (map (fun pm => (VStr (fst pm), VInt (Z.of_nat (snd pm)))) l).
Proof.
  intros l H.
  assert (G : collect (map (parse_excitation 2) (map pair_py l)) = Ok (map (fun pm => (VStr (fst pm), VInt (Z.of_nat (snd pm)))) l)).
  { rewrite (collect_ok _ pair_py (fun pm => [(VStr (fst pm), VInt (Z.of_nat (snd pm)))])) by (intros; reflexivity). rewrite flat_single. reflexivity. }
  destruct l as [| a [| b [| c l]]]; [congruence | exact G | exact G | exact G].
Qed.
Lemma parsed_pairs : forall ports l, l <> [] -> parsed ports (MPairs l) = inl l.
Proof.
  intros ports l H. unfold parsed, minfo_py. rewrite parse_pairs by exact H. f_equal. rewrite map_map.
  rewrite (map_ext _ (fun pm => pm)); [apply map_id | apply py_pair_of].
Qed.
Lemma index_of_lt : forall l x, In x l -> exists n, index_of l x = Some n /\ nth_error l n = Some x.
Proof.
  induction l as [| y l IH]; intros x H; [contradiction |]. cbn [index_of].
  destruct (Nat.eqb (fst y) (fst x) && Nat.eqb (snd y) (snd x))%bool eqn:E.
  - apply andb_true_iff in E. destruct E as [E1 E2]. apply Nat.eqb_eq in E1. apply Nat.eqb_eq in E2. exists O. split; [reflexivity |]. cbn. f_equal. destruct x, y; cbn in *; congruence.
  - destruct H as [-> | H]; [rewrite !Nat.eqb_refl in E; discriminate |]. destruct (IH x H) as (n & -> & Hn). exists (S n). split; [reflexivity | exact Hn].
Qed.
Lemma index_of_none : forall l x, ~ In x l -> index_of l x = None.
Proof.
  induction l as [| y l IH]; intros x H; [reflexivity |]. cbn [index_of].
  destruct (Nat.eqb (fst y) (fst x) && Nat.eqb (snd y) (snd x))%bool eqn:E.
  - apply andb_true_iff in E. destruct E as [E1 E2]. apply Nat.eqb_eq in E1. apply Nat.eqb_eq in E2. exfalso. apply H. left. destruct x, y; cbn in *; congruence.
  - rewrite IH; [reflexivity | intro X; apply H; right; exact X].
Qed.
Lemma modes_ok : forall ports found names, (forall p, In p ports -> (0 < found p)%nat) -> (forall p, In p names -> In p ports) -> port_modes_err ports found names = None.
Proof.
  intros ports found names Hf Hn. unfold port_modes_err.
  replace (forallb (is_port ports) names) with true by (symmetry; apply forallb_forall; intros p H; apply is_port_iff; auto).
  replace (forallb (fun p => Nat.ltb 0 (found p)) names) with true by (symmetry; apply forallb_forall; intros p H; apply Nat.ltb_lt; auto). reflexivity.
Qed.
Lemma out_in_spec : forall pos amp pm, out_in amp (pm, pos (fst pm)) = (leaving pos amp pm, entering pos amp pm).
Proof. intros pos amp pm. unfold out_in, leaving, entering. cbn [fst snd]. destruct (pos (fst pm)); [destruct (amp pm); reflexivity | reflexivity]. Qed.
Definition pairs_form (i : minfo) : Prop := i = MDefault \/ exists l, i = MPairs l /\ l <> [].

Lemma sparams_run : forall ports found pos order amp i src, pairs_form i -> guides ports found (listed ports i) -> In (fst src) ports -> snd src = O -> In src (listed ports i) ->
  exists n, index_of (listed ports i) src = Some n /\ nth_error (listed ports i) n = Some src /\
  sparams ports found pos order amp i src =
  (let s := map (out_in amp) (measure_entries pos (listed ports i) order) in
   match nth_error s n with None => SpRaise EIndex | Some d => SpOk (map (fun x => (fst x / snd d)%C) s) end).
Proof.
  intros ports found pos order amp i src Hi (Hf & Hl) Hp Hm Hin.
  destruct (index_of_lt _ _ Hin) as (n & En & Nn). exists n. split; [exact En | split; [exact Nn |]].
  assert (P : parsed ports i = inl (listed ports i)) by (destruct Hi as [-> | (l & -> & Hne)]; [reflexivity | apply parsed_pairs; exact Hne]).
  unfold sparams. rewrite P. rewrite modes_ok; [| exact Hf | intros p H; apply in_map_iff in H; destruct H as (pm & <- & H); apply Hl; exact H].
  replace (measurable found (listed ports i)) with true by (symmetry; apply forallb_forall; intros pm H; apply Nat.ltb_lt; apply Hl; exact H).
  assert (S : source_err ports found src = None).
  { unfold source_err. rewrite modes_ok by auto. rewrite (proj2 (is_port_iff ports (fst src)) Hp). rewrite Hm.
    replace (Nat.ltb 0 (Nat.min 1 (found (fst src)))) with true; [reflexivity |]. symmetry. apply Nat.ltb_lt. specialize (Hf _ Hp). lia. }
  rewrite S.
  assert (X : info_index ports i src = inl n) by (destruct Hi as [-> | (l & -> & Hne)]; cbn [info_index listed] in *; rewrite En; reflexivity).
  rewrite X. reflexivity.
Qed.
Lemma sparams_ok : forall ports found pos order amp i src, pairs_form i -> guides ports found (listed ports i) -> In (fst src) ports -> snd src = O -> In src (listed ports i) ->
  map pos order = map (fun pm => pos (fst pm)) (listed ports i) ->
  sparams ports found pos order amp i src = SpOk (s_of pos amp (listed ports i) src).
Proof.
  intros ports found pos order amp i src Hi Hg Hp Hm Hin Ho.
  destruct (sparams_run ports found pos order amp i src Hi Hg Hp Hm Hin) as (n & En & Nn & ->).
  apply measured_iff in Ho. unfold measured_correctly in Ho. rewrite Ho. rewrite map_map.
  rewrite (map_ext (fun x => out_in amp (x, pos (fst x))) (fun pm => (leaving pos amp pm, entering pos amp pm))) by (intro; apply out_in_spec).
  cbv zeta. rewrite (map_nth_error (fun pm => (leaving pos amp pm, entering pos amp pm)) n _ Nn). rewrite map_map. reflexivity.
Qed.
Lemma sparams_same_side : forall ports found (pos : nat -> bool) order amp i src (b : bool), pairs_form i -> guides ports found (listed ports i) -> In (fst src) ports -> snd src = O -> In src (listed ports i) ->
  NoDup (map fst (listed ports i)) -> set_order (listed ports i) order -> (forall p, In p (map fst (listed ports i)) -> pos p = b) ->
  sparams ports found pos order amp i src = SpOk (s_of pos amp (listed ports i) src).
Proof. intros. apply sparams_ok; auto. apply (same_side pos b); auto. Qed.
(** Formats that never work. *)
Lemma sparams_formats : forall ports found pos order amp i src r, ~ pairs_form i -> i <> MPairs [] -> sparams ports found pos order amp i src <> SpOk r.
Proof.
  intros ports found pos order amp i src r Hi Hn. unfold sparams.
  assert (X : exists e, info_index ports i src = inr e).
  { destruct i; cbn [info_index]; try (eexists; reflexivity).
    - exfalso. apply Hi. left. reflexivity.
    - exfalso. apply Hi. right. exists l. split; [reflexivity |]. intro E. subst. congruence. }
  destruct X as (e & X). destruct (parsed ports i); [| discriminate]. destruct (port_modes_err _ _ _); [discriminate |]. destruct (measurable _ _); [| discriminate].
  destruct (source_err _ _ _); [discriminate |]. rewrite X. discriminate.
Qed.
Lemma sparams_empty : forall ports found pos order amp src, sparams ports found pos order amp (MPairs []) src = SpRaise EIndex.
Proof. reflexivity. Qed.
(** Sources other than the fundamental mode. *)
Lemma sparams_mode : forall ports found pos order amp i src r, snd src <> O -> sparams ports found pos order amp i src <> SpOk r.
Proof.
  intros ports found pos order amp i src r Hm. unfold sparams. destruct (parsed ports i); [| discriminate]. destruct (port_modes_err ports found (map fst l)); [discriminate |].
  destruct (measurable _ _); [| discriminate]. 
  assert (S : exists e, source_err ports found src = Some e).
  { unfold source_err. destruct (port_modes_err ports found ports) as [e |]; [exists e; reflexivity |]. destruct (is_port ports (fst src)); [| eexists; reflexivity].
    replace (Nat.ltb (snd src) (Nat.min 1 (found (fst src)))) with false; [eexists; reflexivity |]. symmetry. apply Nat.ltb_ge. lia. }
  destruct S as (e & ->). discriminate.
Qed.
Lemma sparams_unlisted : forall ports found pos order amp i src r, ~ In src (listed ports i) -> sparams ports found pos order amp i src <> SpOk r.
Proof.
  intros ports found pos order amp i src r Hm. unfold sparams.
  assert (X : exists e, info_index ports i src = inr e).
  { destruct i; cbn [info_index listed] in *; try (eexists; reflexivity); rewrite index_of_none by exact Hm; eexists; reflexivity. }
  destruct X as (e & X). destruct (parsed ports i); [| discriminate]. destruct (port_modes_err _ _ _); [discriminate |]. destruct (measurable _ _); [| discriminate].
  destruct (source_err _ _ _); [discriminate |]. rewrite X. discriminate.
Qed.
(** The number of s-parameters is the number of distinct ports. *)
Lemma sparams_length : forall ports found pos order amp i src r, sparams ports found pos order amp i src = SpOk r -> length r = length order.
Proof.
  intros ports found pos order amp i src r. unfold sparams. destruct (parsed ports i); [| discriminate]. destruct (port_modes_err _ _ _); [discriminate |]. destruct (measurable _ _); [| discriminate].
  destruct (source_err _ _ _); [discriminate |]. destruct (info_index ports i src); [| discriminate]. cbv zeta. destruct (nth_error _ _); [| discriminate].
  intro H. assert (E : r = map (fun x : C * C => (fst x / snd p)%C) (map (out_in amp) (measure_entries pos l order))) by congruence. rewrite E, !map_length. apply entries_length.
Qed.
(** Two ports that face each other: one iteration order of the set gives the inverse ratio. *)
Lemma sparams_swapped : forall found (pos : nat -> bool) amp p q, p <> q -> pos p <> pos q -> (0 < found p)%nat -> (0 < found q)%nat ->
  exists order, set_order [(p, O); (q, O)] order /\
  sparams [p; q] found pos order amp MDefault (p, O) = SpOk [(entering pos amp (p, O) / leaving pos amp (p, O))%C; (entering pos amp (q, O) / leaving pos amp (p, O))%C].
Proof.
  intros found pos amp p q Hpq Hpos Fp Fq. exists [q; p]. split.
  - split; [repeat constructor; cbn; intuition congruence |]. intros r. cbn. tauto.
  - destruct (sparams_run [p; q] found pos [q; p] amp MDefault (p, O)) as (n & En & Nn & ->).
    + left; reflexivity.
    + split; [intros r [<- | [<- | []]]; assumption |]. intros pm H. cbn in H. destruct H as [<- | [<- | []]]; cbn; auto.
    + left; reflexivity.
    + reflexivity.
    + left; reflexivity.
    + cbn [listed map index_of fst snd] in En. rewrite !Nat.eqb_refl in En. cbn [andb] in En. assert (n = O) by congruence. subst n.
      unfold listed, measure_entries. cbn [map length seq nth nth_error out_in fst snd]. unfold out_in, leaving, entering. cbn [fst snd].
      destruct (pos p) eqn:Ep; destruct (pos q) eqn:Eq; try congruence; reflexivity.
Qed.
Lemma sparams_missing : forall ports found pos order amp i src r, set_order (listed ports i) order -> ~ NoDup (map fst (listed ports i)) ->
  sparams ports found pos order amp i src = SpOk r -> (length r < length (listed ports i))%nat.
Proof.
  intros ports found pos order amp i src r (Hn & Hi) Hd H. rewrite (sparams_length _ _ _ _ _ _ _ _ H).
  destruct (Nat.lt_ge_cases (length order) (length (listed ports i))) as [L | L]; [exact L | exfalso]. apply Hd.
  apply (@NoDup_incl_NoDup _ order); [exact Hn | rewrite map_length; exact L | intros p Hp; apply Hi; exact Hp].
Qed.
