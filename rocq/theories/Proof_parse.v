(** Proofs for C46, C48, C50, C55, C67. *)
From Coq Require Import Reals List Arith ZArith Lra Lia Bool Permutation Sorted.
From Verif Require Import Cx Arr Model_parse Spec_parse.
Import ListNotations.
Local Open Scope R_scope.

(** ** parse *)
Lemma collect_ok : forall ls, collect (map Ok ls) = Ok (concat ls).
Proof. induction ls as [| l ls IH]; [reflexivity |]. cbn [map collect concat]. rewrite IH. reflexivity. Qed.
Lemma parse_item : forall f x, parse_excitation (S f) (item_py x) = Ok [item_meaning x].
Proof. intros f [s | s i]; reflexivity. Qed.
Lemma parse_items : forall f l, collect (map (parse_excitation (S f)) (map item_py l)) = Ok (map item_meaning l).
Proof.
  intros f l. rewrite map_map. rewrite (map_ext _ (fun x => Ok [item_meaning x])) by (intros; apply parse_item).
  rewrite <- (map_map (fun x => [item_meaning x]) Ok), collect_ok. f_equal. induction l; cbn; congruence.
Qed.
Lemma parse_seq_items : forall f l, ~ (l = [] \/ exists s, l = [IName s]) -> parse_excitation (S (S f)) (VSeq (map item_py l)) = Ok (map item_meaning l).
Proof.
  intros f l H. rewrite <- (parse_items f l).
  destruct l as [| a [| b [| c l]]].
  - exfalso; auto.
  - destruct a as [s | s i]; [exfalso; eauto |]. reflexivity.
  - destruct a as [s | s i]; destruct b as [s' | s' i']; reflexivity.
  - reflexivity.
Qed.
Lemma map_nth_error_ext : forall A B (f g : A -> B) l, (forall x, In x l -> f x = g x) -> map f l = map g l.
Proof. intros. apply map_ext_in. auto. Qed.
Lemma parse_documented : forall f e, ~ degenerate e -> parse_excitation (S (S (S f))) (to_py e) = Ok (meaning e).
Proof.
  intros f [x | l | d] H; cbn [to_py meaning degenerate] in *.
  - apply parse_item.
  - apply parse_seq_items. exact H.
  - change (parse_excitation (S (S (S f))) (VDict (map (fun kv => (VStr (fst kv), map VInt (snd kv))) d)))
      with (collect (map (fun e => parse_excitation (S (S f)) (VSeq (map (fun idx => VSeq [fst e; idx]) (snd e)))) (map (fun kv => (VStr (fst kv), map VInt (snd kv))) d))).
    rewrite map_map. cbn [fst snd].
    rewrite (map_ext_in _ (fun kv => Ok (map (fun i => (VStr (fst kv), VInt i)) (snd kv)))).
    + rewrite <- (map_map (fun kv => map (fun i => (VStr (fst kv), VInt i)) (snd kv)) Ok), collect_ok. rewrite flat_map_concat_map. reflexivity.
    + intros [s is] Hin. cbn [fst snd]. rewrite map_map.
      rewrite <- (map_map (fun i => IPair s i) item_py). rewrite parse_seq_items.
      * f_equal. rewrite map_map. reflexivity.
      * intros [E | (s' & E)].
        -- apply map_eq_nil in E. subst is. apply H. exists s. exact Hin.
        -- destruct is as [| i [| ? ?]]; cbn in E; discriminate.
Qed.
Lemma collect_indexerr : forall rs, (forall r, In r rs -> (exists l, r = Ok l) \/ r = IndexErr) -> In IndexErr rs -> collect rs = IndexErr.
Proof.
  induction rs as [| r rs IH]; intros H Hin; [destruct Hin |]. destruct (H r (or_introl eq_refl)) as [(l & ->) | ->]; [| reflexivity].
  destruct Hin as [E | Hin]; [discriminate |]. cbn [collect]. rewrite IH; auto. intros; apply H; right; auto.
Qed.
Lemma parse_degenerate : forall f e, degenerate e -> parse_excitation (S (S (S f))) (to_py e) = IndexErr.
Proof.
  intros f [x | l | d] H; cbn [to_py degenerate] in *.
  - destruct H.
  - destruct H as [-> | (s & ->)]; reflexivity.
  - destruct H as (s & Hin).
    change (parse_excitation (S (S (S f))) (VDict (map (fun kv => (VStr (fst kv), map VInt (snd kv))) d)))
      with (collect (map (fun e => parse_excitation (S (S f)) (VSeq (map (fun idx => VSeq [fst e; idx]) (snd e)))) (map (fun kv => (VStr (fst kv), map VInt (snd kv))) d))).
    rewrite map_map. cbn [fst snd]. apply collect_indexerr.
    + intros r Hr. apply in_map_iff in Hr. destruct Hr as ([s' is] & <- & Hin'). cbn [fst snd]. destruct is as [| i is]; [right; reflexivity | left].
      rewrite map_map. rewrite <- (map_map (fun i => IPair s' i) item_py). eexists. apply parse_seq_items.
      intros [E | (s'' & E)]; [discriminate | destruct is; discriminate].
    + apply in_map_iff. exists (s, []). split; [reflexivity | exact Hin].
Qed.
(** ** port_source *)
Lemma resolve_name_fails : forall names found src k p w, nth_error src k = Some (KName p, w) -> forall l, resolve names found src <> SOk l.
Proof.
  intros names found src. induction src as [| [key w'] src IH]; intros k p w Hk l; [destruct k; discriminate |]. cbn [resolve]. destruct k as [| k].
  - cbn in Hk. assert (E : key = KName p) by congruence. subst key. destruct p as [| a [| b [| c p]]]; cbn [resolve1]; try discriminate.
    destruct (existsb (name_eqb [a]) names); discriminate.
  - cbn in Hk. destruct (resolve1 names found key w'); try discriminate. specialize (IH k p w Hk).
    destruct (resolve names found src) eqn:E; try discriminate. exfalso. apply (IH l1). reflexivity.
Qed.
Lemma resolve_high_fails : forall names found src k p m w, nth_error src k = Some (KPair p m, w) -> (1 <= m)%nat -> forall l, resolve names found src <> SOk l.
Proof.
  intros names found src. induction src as [| [key w'] src IH]; intros k p m w Hk Hm l; [destruct k; discriminate |]. cbn [resolve]. destruct k as [| k].
  - cbn in Hk. assert (E : key = KPair p m) by congruence. subst key. cbn [resolve1]. destruct (existsb _ names); [| discriminate].
    destruct (Nat.ltb_spec m (Nat.min 1 (found p))); [lia | discriminate].
  - cbn in Hk. destruct (resolve1 names found key w'); try discriminate. specialize (IH k p m w Hk Hm).
    destruct (resolve names found src) eqn:E; try discriminate. exfalso. apply (IH l1). reflexivity.
Qed.
Lemma name_eqb_refl : forall a, name_eqb a a = true.
Proof. intros. unfold name_eqb. destruct (list_eq_dec Nat.eq_dec a a); auto. Qed.
Lemma resolve_fundamental : forall names found src, (forall p w, In (p, w) src -> In p names /\ (1 <= found p)%nat) ->
  resolve names found (map (fun pw => (KPair (fst pw) 0, snd pw)) src) = SOk (map (fun pw => (fst pw, O, snd pw)) src).
Proof.
  intros names found. induction src as [| [p w] src IH]; intros H; [reflexivity |]. cbn [map resolve resolve1 fst snd].
  destruct (H p w (or_introl eq_refl)) as [H1 H2].
  assert (E : existsb (name_eqb p) names = true) by (apply existsb_exists; exists p; split; [auto | apply name_eqb_refl]). rewrite E.
  destruct (Nat.ltb_spec 0 (Nat.min 1 (found p))); [| lia]. rewrite IH; [reflexivity |]. intros p0 w0 Hin; apply (H p0 w0); right; auto.
Qed.
(** ** get_measure_fn *)
Lemma entries_length : forall pos measure order, length (measure_entries pos measure order) = length order.
Proof. intros. unfold measure_entries. rewrite map_length, seq_length. reflexivity. Qed.
Lemma entries_nth : forall pos measure order i, (i < length order)%nat ->
  nth i (measure_entries pos measure order) ((O, O), false) = (nth i measure (O, O), pos (nth i order O)).
Proof.
  intros. unfold measure_entries.
  rewrite (nth_indep _ _ ((fun i => (nth i measure (O, O), pos (nth i order O))) O)) by (rewrite map_length, seq_length; auto).
  rewrite (map_nth (fun i => (nth i measure (O, O), pos (nth i order O)))). rewrite seq_nth by auto. reflexivity.
Qed.
Lemma measured_iff : forall pos measure order,
  (measured_correctly pos measure (measure_entries pos measure order) <-> map pos order = map (fun pm => pos (fst pm)) measure).
Proof.
  intros pos measure order. unfold measured_correctly. split; intros H.
  - assert (L : length order = length measure) by (rewrite <- (entries_length pos measure order), H, map_length; auto).
    apply (nth_ext _ _ false false).
    + rewrite !map_length. exact L.
    + intros i Hi. rewrite map_length in Hi.
      assert (E := f_equal (fun l => snd (nth i l ((O, O), false))) H). cbv beta in E. rewrite entries_nth in E by auto. cbn [snd] in E.
      rewrite (nth_indep (map pos order) false (pos O)) by (rewrite map_length; lia). rewrite map_nth. rewrite E.
      rewrite (nth_indep (map (fun pm => (pm, pos (fst pm))) measure) ((O, O), false) ((fun pm => (pm, pos (fst pm))) (O, O))) by (rewrite map_length; lia).
      rewrite (map_nth (fun pm => (pm, pos (fst pm)))). cbn [snd].
      rewrite (nth_indep _ false ((fun pm => pos (fst pm)) (O, O))) by (rewrite map_length; lia). rewrite (map_nth (fun pm => pos (fst pm))). reflexivity.
  - assert (L : length order = length measure) by (rewrite <- (map_length pos order), H, map_length; auto).
    apply (nth_ext _ _ ((O, O), false) ((O, O), false)).
    + rewrite entries_length, map_length. exact L.
    + intros i Hi. rewrite entries_length in Hi. rewrite entries_nth by auto.
      rewrite (nth_indep (map (fun pm => (pm, pos (fst pm))) measure) ((O, O), false) ((fun pm => (pm, pos (fst pm))) (O, O))) by (rewrite map_length; lia).
      rewrite (map_nth (fun pm => (pm, pos (fst pm)))). f_equal.
      assert (E := f_equal (fun l => nth i l false) H). cbv beta in E.
      rewrite (nth_indep (map pos order) false (pos O)) in E by (rewrite map_length; lia). rewrite map_nth in E.
      rewrite (nth_indep (map (fun pm => pos (fst pm)) measure) false ((fun pm => pos (fst pm)) (O, O))) in E by (rewrite map_length; lia). rewrite (map_nth (fun pm => pos (fst pm))) in E. exact E.
Qed.
Lemma same_side : forall (pos : nat -> bool) (b : bool) (measure : list (nat * nat)) order, NoDup (map fst measure) -> set_order measure order -> (forall p, In p (map fst measure) -> pos p = b) ->
  map pos order = map (fun pm => pos (fst pm)) measure.
Proof.
  intros pos b measure order Hnd (Hno & Hio) Hb.
  assert (P : Permutation order (map fst measure)) by (apply NoDup_Permutation; auto).
  assert (E : forall l, (forall p, In p l -> pos p = b) -> map pos l = repeat b (length l)).
  { induction l as [| a l IH]; intros H; cbn; auto. rewrite H by (left; auto). f_equal. apply IH. intros; apply H; right; auto. }
  rewrite <- (map_map fst pos). rewrite (E order) by (intros p Hp; apply Hb, Hio, Hp). rewrite (E (map fst measure)) by auto.
  f_equal. apply Permutation_length, P.
Qed.
(** ** mode ordering *)
Section M.
Variable V : Type.
Notation pair := (C * V)%type.
Lemma insert_perm : forall (p : pair) l, Permutation (p :: l) (insert_desc V p l).
Proof.
  induction l as [| q l IH]; cbn; auto. destruct (Rle_dec _ _); auto. rewrite perm_swap. apply perm_skip. exact IH.
Qed.
Lemma sort_perm : forall l, Permutation l (sort_desc V l).
Proof. induction l as [| p l IH]; cbn; auto. rewrite <- insert_perm. apply perm_skip. exact IH. Qed.
Lemma insert_sorted : forall p l, Sorted desc l -> Sorted desc (insert_desc V p l).
Proof.
  induction l as [| q l IH]; intros H; cbn [insert_desc]; [repeat constructor |]. destruct (Rle_dec (sqrt (re (fst q))) (sqrt (re (fst p)))) as [L | L].
  - constructor; auto.
  - apply Sorted_inv in H. destruct H as [H1 H2]. constructor; [apply IH; auto |]. destruct l as [| r l]; cbn [insert_desc].
    + constructor. unfold desc. lra.
    + destruct (Rle_dec _ _); constructor; [unfold desc; lra |]. inversion H2; auto.
Qed.
Lemma sort_sorted : forall l, Sorted desc (sort_desc V l).
Proof. induction l as [| p l IH]; cbn [sort_desc fold_right]; [constructor | apply insert_sorted; exact IH]. Qed.
Lemma guided_prefix : forall a b : list pair, Forall (fun p => 0 < re (fst p)) a -> Forall (fun p => re (fst p) <= 0) b ->
  guided V (a ++ b) = a /\ forall i, useful_from V i (a ++ b) = seq i (length a).
Proof.
  induction a as [| p a IH]; intros b Ha Hb; cbn [List.app length seq].
  - split.
    + unfold guided. induction b as [| q b IHb]; cbn; auto. inversion Hb; subst. destruct (Rlt_dec 0 (re (fst q))); [lra | auto].
    + induction b as [| q b IHb]; intros i; cbn; auto. inversion Hb; subst. destruct (Rlt_dec 0 (re (fst q))); [lra | auto].
  - inversion Ha; subst. destruct (IH b) as [E1 E2]; auto. split.
    + unfold guided in *. cbn [filter]. destruct (Rlt_dec 0 (re (fst p))); [congruence | contradiction].
    + intros i. cbn [useful_from]. destruct (Rlt_dec 0 (re (fst p))); [rewrite E2; auto | contradiction].
Qed.
Lemma fancy_seq : forall (l2 l1 : list pair), fancy V (l1 ++ l2) (seq (length l1) (length l2)) = Some (map (fun p => sqrt (re (fst p))) l2).
Proof.
  induction l2 as [| p l2 IH]; intros l1; cbn [length seq fancy map]; auto.
  rewrite nth_error_app2 by lia. rewrite Nat.sub_diag. cbn [nth_error].
  specialize (IH (l1 ++ [p])). rewrite <- app_assoc in IH. cbn [List.app] in IH. rewrite app_length in IH. cbn [length] in IH.
  replace (length l1 + 1)%nat with (S (length l1)) in IH by lia. rewrite IH. reflexivity.
Qed.
Lemma solve_prefix : forall l : list pair, guided_first l ->
  exists s, mode_solve V l = Some (map (fun p => sqrt (re (fst p))) s, map snd s) /\
    Permutation s (filter (fun p => if Rlt_dec 0 (re (fst p)) then true else false) l) /\ Sorted desc s.
Proof.
  intros l (a & b & -> & Ha & Hb). destruct (guided_prefix a b Ha Hb) as [E1 E2]. exists (sort_desc V a). split; [| split].
  - unfold mode_solve. rewrite E1. unfold useful. rewrite E2. pose proof (Permutation_length (sort_perm a)) as L. rewrite L.
    pose proof (fancy_seq (sort_desc V a) []) as F. cbn [List.app length] in F. rewrite F. reflexivity.
  - change (filter _ (a ++ b)) with (guided V (a ++ b)). rewrite E1. symmetry. apply sort_perm.
  - apply sort_sorted.
Qed.
Lemma fancy_none : forall (l : list pair) idx i, In i idx -> (length l <= i)%nat -> fancy V l idx = None.
Proof.
  induction idx as [| j idx IH]; intros i Hin Hl; [destruct Hin |]. cbn [fancy]. destruct Hin as [-> | Hin].
  - apply nth_error_None in Hl. rewrite Hl. reflexivity.
  - rewrite (IH i Hin Hl). destruct (nth_error l j); reflexivity.
Qed.
Lemma useful_in : forall (l : list pair) b i, In i (useful_from V b l) <-> (b <= i)%nat /\ exists p, nth_error l (i - b) = Some p /\ 0 < re (fst p).
Proof.
  induction l as [| q l IH]; intros b i; cbn [useful_from].
  - split; [intros [] | intros (_ & p & H & _)]. destruct (i - b)%nat; discriminate.
  - destruct (Rlt_dec 0 (re (fst q))) as [L | L]; cbn [In]; rewrite ?IH.
    + split.
      * intros [<- | (H & p & Hn & Hp)]; [split; [lia |]; exists q; rewrite Nat.sub_diag; auto | split; [lia |]]. exists p. replace (i - b)%nat with (S (i - S b)) by lia. auto.
      * intros (H & p & Hn & Hp). destruct (Nat.eq_dec b i); [left; auto | right; split; [lia |]]. exists p. replace (i - b)%nat with (S (i - S b)) in Hn by lia. auto.
    + split.
      * intros (H & p & Hn & Hp). split; [lia |]. exists p. replace (i - b)%nat with (S (i - S b)) by lia. auto.
      * intros (H & p & Hn & Hp). destruct (Nat.eq_dec b i) as [-> | Hne].
        -- rewrite Nat.sub_diag in Hn. cbn in Hn. assert (q = p) by congruence. subst. contradiction.
        -- split; [lia |]. exists p. replace (i - b)%nat with (S (i - S b)) in Hn by lia. auto.
Qed.
Lemma guided_le : forall l : list pair, (length (guided V l) <= length l)%nat.
Proof. intros. unfold guided. induction l as [| p l IH]; cbn; [lia |]. destruct (Rlt_dec _ _); cbn; lia. Qed.
Lemma useful_nodup : forall (l : list pair) b, NoDup (useful_from V b l).
Proof.
  induction l as [| q l IH]; intros b; cbn [useful_from]; [constructor |]. destruct (Rlt_dec _ _); auto. constructor; auto. rewrite useful_in. intros (H & _). lia.
Qed.
Lemma useful_length : forall (l : list pair) b, length (useful_from V b l) = length (guided V l).
Proof. unfold guided. induction l as [| q l IH]; intros b; cbn [useful_from filter]; auto. destruct (Rlt_dec _ _); cbn [length]; auto. Qed.
(** a nonpositive eigenvalue before a positive one *)
Lemma solve_gap : forall (a : list pair) p b q c, re (fst p) <= 0 -> 0 < re (fst q) -> mode_solve V (a ++ p :: b ++ q :: c) = None.
Proof.
  intros a p b q c Hp Hq. set (l := a ++ p :: b ++ q :: c). set (k := length (guided V l)).
  assert (Lk : length (sort_desc V (guided V l)) = k) by (symmetry; apply Permutation_length, sort_perm).
  assert (Uq : In (length a + S (length b))%nat (useful V l)).
  { unfold useful. apply useful_in. split; [lia |]. exists q. split; [| auto]. rewrite Nat.sub_0_r. unfold l.
    rewrite nth_error_app2 by lia. replace (length a + S (length b) - length a)%nat with (S (length b)) by lia. cbn [nth_error].
    rewrite nth_error_app2 by lia. rewrite Nat.sub_diag. reflexivity. }
  assert (Up : ~ In (length a) (useful V l)).
  { unfold useful. rewrite useful_in. intros (_ & p' & Hn & Hp'). rewrite Nat.sub_0_r in Hn. unfold l in Hn. rewrite nth_error_app2 in Hn by lia.
    rewrite Nat.sub_diag in Hn. cbn in Hn. assert (p = p') by congruence. subst. lra. }
  destruct (Forall_Exists_dec (fun i => (i < k)%nat) (fun i => lt_dec i k) (useful V l)) as [F | X].
  - exfalso. assert (I : incl (useful V l) (seq 0 k)) by (intros i Hi; apply in_seq; rewrite Forall_forall in F; specialize (F i Hi); lia).
    assert (I' : incl (seq 0 k) (useful V l)).
    { apply NoDup_length_incl; [apply useful_nodup | rewrite seq_length; unfold useful; rewrite useful_length; fold k; lia | exact I]. }
    apply Up, I', in_seq. rewrite Forall_forall in F. specialize (F _ Uq). lia.
  - apply Exists_exists in X. destruct X as (i & Hi & Hk). unfold mode_solve. rewrite (fancy_none _ _ i Hi); [reflexivity |]. rewrite Lk. lia.
Qed.
Lemma guided_first_dec : forall l : list pair, guided_first l \/ exists a p b q c, l = a ++ p :: b ++ q :: c /\ re (fst p) <= 0 /\ 0 < re (fst q).
Proof.
  induction l as [| x l IH]; [left; exists [], []; repeat split; auto |]. destruct IH as [(a & b & -> & Ha & Hb) | (a & p & b & q & c & -> & Hp & Hq)].
  - destruct (Rlt_dec 0 (re (fst x))) as [L | L].
    + left. exists (x :: a), b. split; [reflexivity |]. split; auto.
    + destruct a as [| y a]; [left; exists [], (x :: b); split; [reflexivity |]; split; auto; constructor; [lra | auto] |].
      right. inversion Ha; subst. exists [], x, [], y, (a ++ b). split; [reflexivity |]. split; [lra | auto].
  - right. exists (x :: a), p, b, q, c. auto.
Qed.
End M.

(** ** Pardiso *)
Lemma str_small : forall m m', s_n m = s_n m' -> (length (s_entries m) <= 50)%nat -> (length (s_entries m') <= 50)%nat -> str_mat m = str_mat m' -> m = m'.
Proof.
  intros [n l] [n' l'] E L L' H. cbn in E, L, L'. subst n'. unfold str_mat in H. cbn [s_entries] in H.
  destruct (Nat.ltb_spec 50 (length l)); [lia |]. destruct (Nat.ltb_spec 50 (length l')); [lia |]. congruence.
Qed.
Lemma str_middle : forall n pre mid mid' post, length pre = 25%nat -> length post = 25%nat -> mid <> [] -> mid' <> [] ->
  str_mat (mkS n (pre ++ mid ++ post)) = str_mat (mkS n (pre ++ mid' ++ post)).
Proof.
  intros n pre mid mid' post Hp Hq Hm Hm'. unfold str_mat. cbn [s_entries].
  assert (A : forall mid : list triple, mid <> [] -> Nat.ltb 50 (length (pre ++ mid ++ post)) = true).
  { intros k Hk. apply Nat.ltb_lt. rewrite !app_length. destruct k; [contradiction | cbn; lia]. }
  assert (B : forall mid : list triple, skipn (length (pre ++ mid ++ post) - 25) (pre ++ mid ++ post) = post).
  { intros k. rewrite app_assoc. rewrite (app_length (pre ++ k)). rewrite Hq. replace (length (pre ++ k) + 25 - 25)%nat with (length (pre ++ k)) by lia.
    rewrite skipn_app, skipn_all, Nat.sub_diag. reflexivity. }
  assert (D : forall mid : list triple, firstn 25 (pre ++ mid ++ post) = pre).
  { intros k. rewrite <- Hp. rewrite firstn_app, firstn_all, Nat.sub_diag, firstn_O, app_nil_r. reflexivity. }
  rewrite !A, !B, !D by auto. reflexivity.
Qed.
Lemma same_str_iff : forall h m, same_str h m = true <-> h = Some (str_mat m).
Proof.
  intros [s |] m; cbn; [| split; discriminate]. destruct (shown_dec s (str_mat m)); split; intros; congruence.
Qed.
Lemma stale_after_same_string : forall sing m1 m2, sing m1 = false -> str_mat m1 = str_mat m2 -> s_n m1 = s_n m2 ->
  snd (prun sing p_init [Solve m1 (s_n m1); Solve m2 (s_n m2)]) = [SolOf m1; SolOf m1].
Proof.
  intros sing m1 m2 H1 E En. cbn [prun pstep same_str p_hash p_init]. rewrite Nat.eqb_refl, H1. cbn [p_hash p_n p_fact].
  assert (S : same_str (Some (str_mat m1)) m2 = true) by (apply same_str_iff; congruence). rewrite S, En, Nat.eqb_refl. reflexivity.
Qed.
Lemma stale_after_bad_rhs : forall sing m1 m2 k, sing m1 = false -> str_mat m1 <> str_mat m2 -> k <> s_n m2 ->
  snd (prun sing p_init [Solve m1 (s_n m1); Solve m2 k; Solve m2 (s_n m2)]) = [SolOf m1; Raise; SolOf m1].
Proof.
  intros sing m1 m2 k H1 E Hk. cbn [prun pstep same_str p_hash p_init]. rewrite Nat.eqb_refl, H1. cbn [p_hash p_n p_fact].
  assert (S : same_str (Some (str_mat m1)) m2 = false).
  { destruct (same_str (Some (str_mat m1)) m2) eqn:Q; auto. apply same_str_iff in Q. congruence. }
  rewrite S. destruct (Nat.eqb_spec k (s_n m2)); [contradiction |]. cbn [p_hash p_n p_fact].
  assert (S2 : same_str (Some (str_mat m2)) m2 = true) by (apply same_str_iff; reflexivity). rewrite S2, Nat.eqb_refl. reflexivity.
Qed.
Lemma raise_after_free : forall sing m, sing m = false -> snd (prun sing p_init [Solve m (s_n m); Free; Solve m (s_n m)]) = [SolOf m; Done; Raise].
Proof.
  intros sing m H. cbn [prun pstep same_str p_hash p_init]. rewrite Nat.eqb_refl, H. cbn [p_hash p_n p_fact].
  assert (S2 : same_str (Some (str_mat m)) m = true) by (apply same_str_iff; reflexivity). rewrite S2, Nat.eqb_refl. reflexivity.
Qed.
Section P.
Variable sing : smat -> bool.
Variable U : smat -> Prop.
Hypothesis distinct : forall m m', U m -> U m' -> str_mat m = str_mat m' -> m = m'.
Definition pinv (st : pstate) : Prop :=
  match p_hash st with None => p_fact st = None | Some h => exists m, U m /\ h = str_mat m /\ p_n st = s_n m /\ (p_fact st = None \/ p_fact st = Some m) end.
Lemma pinv_step : forall st o, pinv st -> sized o -> (forall m, In m (pop_mat o) -> U m) ->
  pinv (fst (pstep sing st o)) /\ forall m k f, o = Solve m k -> snd (pstep sing st o) = SolOf f -> f = m.
Proof.
  intros st o I Hs HU. destruct o as [m k | m |]; cbn [pstep sized pop_mat] in *.
  - subst k. assert (Um : U m) by (apply HU; left; auto). destruct (same_str (p_hash st) m) eqn:S.
    + apply same_str_iff in S. unfold pinv in I. rewrite S in I. destruct I as (m' & Um' & E & En & F). apply distinct in E; auto. subst m'.
      rewrite <- En, Nat.eqb_refl. destruct F as [F | F]; rewrite F; cbn [fst snd].
      * split; [unfold pinv; rewrite S; exists m; auto | intros; discriminate].
      * split; [unfold pinv; rewrite S; exists m; auto | intros m0 k0 f E0 E1; congruence].
    + rewrite Nat.eqb_refl. destruct (sing m); cbn [fst snd].
      * split; [exists m; cbn; auto | intros; discriminate].
      * split; [exists m; cbn; auto | intros m0 k0 f E0 E1; congruence].
  - assert (Um : U m) by (apply HU; left; auto). destruct (sing m); cbn [fst snd]; (split; [exists m; cbn; auto | intros; discriminate]).
  - unfold pinv in I. destruct (p_hash st) eqn:S; cbn [fst snd].
    + split; [| intros; discriminate]. destruct I as (m & Um & E & En & _). exists m. cbn. auto.
    + split; [unfold pinv; rewrite S; auto | intros; discriminate].
Qed.
Lemma prun_never_stale : forall ops st, pinv st -> Forall sized ops -> (forall o m, In o ops -> In m (pop_mat o) -> U m) ->
  forall i m k f, nth_error ops i = Some (Solve m k) -> nth_error (snd (prun sing st ops)) i = Some (SolOf f) -> f = m.
Proof.
  induction ops as [| o ops IH]; intros st I Hs HU i m k f Hi Hr; [destruct i; discriminate |]. cbn [prun] in Hr.
  inversion Hs as [| ? ? Ho Hops]; subst. destruct (pinv_step st o I Ho) as [I' S]; [intros m' Hm; apply (HU o); [left; auto | auto] |].
  destruct (pstep sing st o) as [st1 r] eqn:E1. destruct (prun sing st1 ops) as [st2 rs] eqn:E2. cbn [fst snd] in *. destruct i as [| i].
  - cbn in Hi, Hr. apply (S m k f); congruence.
  - cbn in Hi, Hr. apply (IH st1 I' Hops) with (i := i) (k := k).
    + intros o' m' Ho' Hm'. apply (HU o'); [right; auto | auto].
    + exact Hi.
    + rewrite E2. exact Hr.
Qed.
End P.
(** without free: every call's answer depends on its own matrix only *)
Lemma prun_answers : forall (sing : smat -> bool) (U : smat -> Prop) ops, (forall m m', U m -> U m' -> str_mat m = str_mat m' -> m = m') ->
  Forall sized ops -> (forall o m, In o ops -> In m (pop_mat o) -> U m) -> ~ In Free ops ->
  forall st, (match p_hash st with None => True | Some h => exists m, U m /\ h = str_mat m /\ p_n st = s_n m /\ p_fact st = if sing m then None else Some m end) ->
  snd (prun sing st ops) = map (answer sing) ops.
Proof.
  intros sing U ops D. induction ops as [| o ops IH]; intros Hs HU HF st I; [reflexivity |]. cbn [map prun].
  inversion Hs as [| ? ? Ho Hops]; subst.
  assert (E : exists st', pstep sing st o = (st', answer sing o) /\ (match p_hash st' with None => True | Some h => exists m, U m /\ h = str_mat m /\ p_n st' = s_n m /\ p_fact st' = if sing m then None else Some m end)).
  { destruct o as [m k | m |].
    - cbn [sized] in Ho. subst k. assert (Um : U m) by (apply (HU (Solve m (s_n m))); [left; auto | left; auto]). cbn [pstep answer]. destruct (same_str (p_hash st) m) eqn:S.
      + apply same_str_iff in S. rewrite S in I. destruct I as (m' & Um' & E & En & F). apply D in E; auto. subst m'. rewrite <- En, Nat.eqb_refl, F.
        exists st. split; [destruct (sing m); reflexivity |]. rewrite S. exists m. auto.
      + rewrite Nat.eqb_refl. destruct (sing m) eqn:Sm; (eexists; split; [reflexivity |]; cbn; exists m; rewrite Sm; auto).
    - assert (Um : U m) by (apply (HU (Factor m)); [left; auto | left; auto]). cbn [pstep answer].
      destruct (sing m) eqn:Sm; (eexists; split; [reflexivity |]; cbn; exists m; rewrite Sm; auto).
    - exfalso. apply HF. left. reflexivity. }
  destruct E as (st' & E & I'). rewrite E.
  specialize (IH Hops (fun o' m' Ho' Hm' => HU o' m' (or_intror Ho') Hm') (fun K => HF (or_intror K)) st' I').
  destruct (prun sing st' ops) as [st2 rs]. cbn [snd] in *. congruence.
Qed.
