(** Lemmas about parse_source_port and run_cw_port. *)
From Coq Require Import Reals List Arith ZArith Bool Lra Lia.
From Verif Require Import Cx Arr Model_yee Model_fdtd Model_cw Spec_cw.
Import ListNotations.
Local Open Scope R_scope.

(** ** dictionaries *)
Lemma pm_eqb_true : forall a b, pm_eqb a b = true <-> a = b.
Proof.
  intros [a1 a2] [b1 b2]. unfold pm_eqb; cbn [fst snd]. rewrite andb_true_iff, Nat.eqb_eq, Z.eqb_eq.
  split; [intros [-> ->]; reflexivity | intros E; injection E; auto].
Qed.
Lemma set_in : forall d k w, NoDup (map fst d) ->
  NoDup (map fst (dict_set d k w)) /\ (forall k' w', In (k', w') (dict_set d k w) <-> (k' = k /\ w' = w) \/ (k' <> k /\ In (k', w') d)) /\
  (forall k', In k' (map fst (dict_set d k w)) <-> k' = k \/ In k' (map fst d)).
Proof.
  induction d as [| [k0 w0] r IH]; intros k w ND; cbn [dict_set].
  - split; [repeat constructor; intros [] |]. split; [intros k' w'; split; [intros [E | []]; injection E; auto | intros [[-> ->] | [_ []]]; left; reflexivity] |].
    intros k'; cbn; split; [intros [-> | []]; auto | intros [-> | []]; auto].
  - cbn [map fst] in ND. apply NoDup_cons_iff in ND. destruct ND as [N1 N2].
    assert (HN : forall w', ~ In (k0, w') r) by (intros w' H; apply N1; exact (in_map fst _ _ H)).
    destruct (pm_eqb k0 k) eqn:E.
    + apply pm_eqb_true in E; subst k0. split; [cbn; constructor; assumption |]. split.
      * intros k' w'; cbn [In]; split.
        -- intros [H | H]; [injection H; auto |]. right. split; [intros ->; exact (HN _ H) | right; exact H].
        -- intros [[-> ->] | [H1 [H2 | H2]]]; [left; reflexivity | injection H2; congruence | right; exact H2].
      * intros k'; cbn. split; [intros [H | H]; auto | intros [H | [H | H]]; auto].
    + assert (Hk : k0 <> k) by (intros H; apply pm_eqb_true in H; congruence).
      destruct (IH k w N2) as (A & B & D). split; [| split].
      * cbn [map fst]. constructor; [| exact A]. intros H. apply D in H. destruct H; [congruence | exact (N1 H)].
      * intros k' w'; cbn [In]. rewrite B. split.
        -- intros [H | [H | [H1 H2]]]; [injection H; intros; subst; auto | auto | auto].
        -- intros [[-> ->] | [H1 [H2 | H2]]]; auto.
      * intros k'. cbn [map fst In]. rewrite D. intuition.
Qed.
Lemma update_snoc : forall d e k w, dict_update d (e ++ [(k, w)]) = dict_set (dict_update d e) k w.
Proof. intros. unfold dict_update. rewrite fold_left_app. reflexivity. Qed.
Lemma update_nodup : forall e d, NoDup (map fst d) -> NoDup (map fst (dict_update d e)).
Proof. induction e as [| [k w] r IH]; intros d H; [exact H |]. cbn. apply IH. apply set_in; exact H. Qed.
Lemma update_keys : forall e d, NoDup (map fst d) -> forall k, In k (map fst (dict_update d e)) <-> In k (map fst d) \/ In k (map fst e).
Proof.
  induction e as [| [k0 w0] r IH]; intros d H k; cbn; [intuition |].
  change (fold_left (fun a kw => dict_set a (fst kw) (snd kw)) r (dict_set d k0 w0)) with (dict_update (dict_set d k0 w0) r).
  destruct (set_in d k0 w0 H) as (A & _ & D). rewrite (IH _ A k), D. intuition.
Qed.
(** distinct new keys: the items of the update win. *)
Lemma update_items : forall e d, NoDup (map fst d) -> NoDup (map fst e) ->
  forall k w, In (k, w) (dict_update d e) <-> In (k, w) e \/ (~ In k (map fst e) /\ In (k, w) d).
Proof.
  induction e as [| [k0 w0] r IH]; intros d Hd He k w; cbn; [intuition |].
  change (fold_left (fun a kw => dict_set a (fst kw) (snd kw)) r (dict_set d k0 w0)) with (dict_update (dict_set d k0 w0) r).
  apply NoDup_cons_iff in He. destruct He as [N1 N2].
  destruct (set_in d k0 w0 Hd) as (A & B & _). rewrite (IH _ A N2 k w), B. split.
  - intros [H | [H1 [[-> ->] | [H2 H3]]]]; [auto | auto |]. right. split; [intros [E | E]; [congruence | auto] | exact H3].
  - intros [[H | H] | [H1 H2]].
    + injection H; intros; subst. right. split; [exact N1 | auto].
    + auto.
    + right. split; [tauto |]. right. split; [intros ->; tauto | exact H2].
Qed.

(** ** lists of names and pairs *)
Definition merge := fix merge (l : list srcv) (acc : list (port_mode * R)) : option (list (port_mode * R)) :=
  match l with
  | [] => Some acc
  | x :: r => match parse_source_port x with Some d => merge r (dict_update acc d) | None => None end
  end.
Lemma simple_parse : forall x, simple x -> exists k, parse_source_port x = Some [(k, 1)] /\ forall k' w, asks x k' w <-> k' = k /\ w = 1.
Proof.
  intros x H. destruct x as [p | z | l | d]; try destruct H.
  - exists (p, 0%Z). split; [reflexivity |]. intros k w; split; [intros A; inversion A; auto | intros [-> ->]; constructor].
  - destruct l as [| [p | | |] [| [| m | |] [|]]]; try destruct H. exists (p, m). split; [reflexivity |].
    intros k w; split; [intros A; inversion A; subst; [auto | exfalso; match goal with Q : forall p0 m0, [SName _; SInt _] <> [SName p0; SInt m0] |- _ => eapply Q; reflexivity end] | intros [-> ->]; constructor].
Qed.
Lemma merge_simple : forall l acc, NoDup (map fst acc) -> (forall k w, In (k, w) acc -> w = 1) -> (forall x, In x l -> simple x) ->
  exists d, merge l acc = Some d /\ NoDup (map fst d) /\
    forall k w, In (k, w) d <-> In (k, w) acc \/ (w = 1 /\ exists x, In x l /\ asks x k 1).
Proof.
  induction l as [| x r IH]; intros acc ND HA HS; cbn [merge].
  - exists acc. split; [reflexivity |]. split; [exact ND |]. intros k w; split; [auto | intros [H | (_ & x & [] & _)]; exact H].
  - destruct (simple_parse x (HS x (or_introl eq_refl))) as (k0 & E & Hk0). rewrite E.
    change (dict_update acc [(k0, 1)]) with (dict_set acc k0 1).
    destruct (set_in acc k0 1 ND) as (A & B & _).
    destruct (IH (dict_set acc k0 1) A) as (d & D1 & D2 & D3).
    { intros k w H. apply B in H. destruct H as [[_ ->] | [_ H]]; [reflexivity | exact (HA k w H)]. }
    { intros y Hy; apply HS; right; exact Hy. }
    exists d. split; [exact D1 |]. split; [exact D2 |]. intros k w. rewrite D3, B. split.
    + intros [[[-> ->] | [H1 H2]] | (-> & y & Hy & Ay)]; [right; split; [reflexivity |]; exists x; split; [left; reflexivity | apply Hk0; auto] | auto |].
      right. split; [reflexivity |]. exists y. split; [right; exact Hy | exact Ay].
    + intros [H | (-> & y & [-> | Hy] & Ay)].
      * left. destruct (pm_eqb k k0) eqn:Ek; [apply pm_eqb_true in Ek; subst; left; split; [reflexivity | exact (HA _ _ H)] |].
        right. split; [intros ->; rewrite (proj2 (pm_eqb_true k0 k0) eq_refl) in Ek; discriminate | exact H].
      * apply Hk0 in Ay. destruct Ay as [-> _]. left. left. auto.
      * right. split; [reflexivity |]. exists y. auto.
Qed.
Lemma parse_seq : forall l, l <> [] -> (forall p, l <> [SName p]) -> (forall p m, l <> [SName p; SInt m]) ->
  parse_source_port (SSeq l) = merge l [].
Proof.
  intros l H0 H1 H2. destruct l as [| a r]; [congruence |].
  destruct r as [| b r]; [destruct a; try reflexivity; exfalso; eapply H1; reflexivity |].
  destruct r as [| c r].
  - destruct a; try reflexivity. destruct b; try reflexivity. exfalso; eapply H2; reflexivity.
  - destruct a; try reflexivity; destruct b; reflexivity.
Qed.
Lemma parse_documented : forall v, documented v -> (forall p, v <> SSeq [SName p]) ->
  exists d, parse_source_port v = Some d /\ NoDup (map fst d) /\ forall k w, In (k, w) d <-> asks v k w.
Proof.
  intros v H HN. destruct v as [p | z | l | d].
  - exists [((p, 0%Z), 1)]. split; [reflexivity |]. split; [repeat constructor; intros [] |].
    intros k w; split; [intros [E | []]; injection E; intros; subst; constructor | intros A; inversion A; left; reflexivity].
  - destruct H.
  - assert (Hp : (exists p m, l = [SName p; SInt m]) \/ (forall p m, l <> [SName p; SInt m])).
    { destruct l as [| [p | | |] [| [| m | |] [|]]]; try (right; intros; discriminate). left; eauto. }
    destruct Hp as [(p & m & ->) | Hp].
    + exists [((p, m), 1)]. split; [reflexivity |]. split; [repeat constructor; intros [] |].
      intros k w; split; [intros [E | []]; injection E; intros; subst; constructor |].
      intros A; inversion A; subst; [left; reflexivity | exfalso; match goal with Q : forall p0 m0, [SName _; SInt _] <> [SName p0; SInt m0] |- _ => eapply Q; reflexivity end].
    + destruct H as [H | [Hl HS]].
      { destruct l as [| [p | | |] [| [| m | |] [|]]]; try destruct H. exfalso; eapply Hp; reflexivity. }
      rewrite parse_seq; [| exact Hl | intros p E; apply (HN p); rewrite E; reflexivity | exact Hp].
      destruct (merge_simple l [] (NoDup_nil _) ltac:(intros k w []) HS) as (d & D1 & D2 & D3).
      exists d. split; [exact D1 |]. split; [exact D2 |]. intros k w. rewrite D3. split.
      * intros [[] | (-> & x & Hx & Ax)]. exact (asks_list l x k 1 Hp Hx Ax).
      * intros A; inversion A; subst; [exfalso; eapply Hp; reflexivity |]. right.
        assert (Hx : In x l) by assumption. destruct (simple_parse x (HS x Hx)) as (k0 & _ & Hk0).
        assert (w = 1) by (match goal with Q : asks x k w |- _ => apply Hk0 in Q; tauto end). subst w. split; [reflexivity |]. exists x; auto.
  - cbn [documented] in H. cbn [parse_source_port].
    set (e := map (fun kw : dict_key * R => (key_of (fst kw), snd kw)) d).
    assert (He : map fst e = map (fun kw => key_of (fst kw)) d) by (unfold e; rewrite map_map; apply map_ext; intros; reflexivity).
    exists (dict_update [] e). split; [reflexivity |]. split; [apply update_nodup; constructor |].
    intros k w. rewrite (update_items e [] (NoDup_nil _) ltac:(rewrite He; exact H) k w). split.
    + intros [Hin | [_ []]]. unfold e in Hin. apply in_map_iff in Hin. destruct Hin as ([[p | q] w'] & E & Hin); cbn in E; injection E; intros; subst;
        [apply asks_dict_name | apply asks_dict_pair]; exact Hin.
    + intros A; left; unfold e; inversion A; subst; apply in_map_iff.
      * exists (KStr p, w). auto.
      * exists (KTup k, w). auto.
Qed.
