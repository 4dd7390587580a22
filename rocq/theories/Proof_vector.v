(** vector_unit: programming a nulling network (C12). *)
From Coq Require Import Reals Lra Lia List ZArith Permutation Bool FunctionalExtensionality.
From Verif Require Import Cx Arr Spec_circuit Model_coupling Model_forward Model_vector Spec_mesh Spec_tree
  Proof_node Proof_mesh Proof_forward Proof_forward2 Proof_forward3 Proof_forward4 Proof_null Proof_null2 Proof_tree.
Import ListNotations.
Local Open Scope R_scope.

Lemma combine_map : forall (A B D : Type) (f : A -> B) (g : A -> D) l,
  combine (map f l) (map g l) = map (fun x => (f x, g x)) l.
Proof. induction l as [| a l IH]; simpl; auto. rewrite IH. auto. Qed.
Lemma all_some_Some : forall (A B : Type) (f : A -> option B) (g : A -> B) l, (forall a, In a l -> f a = Some (g a)) ->
  all_some (map f l) = Some (map g l).
Proof.
  induction l as [| a l IH]; intros H; auto. cbn [map all_some]. rewrite (H a (or_introl eq_refl)), IH; auto.
  intros; apply H; right; auto.
Qed.
Lemma assign_map_in : forall (A B : Type) (f : nat -> A) (key : B -> nat) (val : B -> A) l b, NoDup (map key l) -> In b l ->
  assign f (map (fun x => (key x, val x)) l) (key b) = val b.
Proof.
  intros A B f key val l. revert f. induction l as [| a l IH]; intros f b Hnd Hin; [destruct Hin |].
  cbn [map] in *. rewrite assign_cons. inversion Hnd; subst. cbn [fst snd]. destruct Hin as [-> | Hin].
  - rewrite assign_notin; [apply upd_eq |]. rewrite map_map. cbn [fst]. exact H1.
  - apply IH; auto.
Qed.
Lemma assign_map_out : forall (A B : Type) (f : nat -> A) (key : B -> nat) (val : B -> A) l k, ~ In k (map key l) ->
  assign f (map (fun x => (key x, val x)) l) k = f k.
Proof. intros. apply assign_notin. rewrite map_map. cbn [fst]. auto. Qed.

Lemma cis_mod2pi : forall x, cis (mod2pi x) = cis x.
Proof.
  intro x. unfold mod2pi.
  replace (x - 2 * PI * IZR (Int_part (x / (2 * PI)))) with (x + 2 * PI * IZR (- Int_part (x / (2 * PI)))).
  - apply cis_period.
  - rewrite opp_IZR. ring.
Qed.
Definition tb (s : phase_style) : Prop := s = TOP \/ s = BOTTOM.
Definition pn (s : phase_style) (th ph : R) : quad := parallel_mzi s false th ph (0, 0) (0, 0).
Lemma pn_mod : forall s th ph, tb s -> pn s th (mod2pi ph) = pn s th ph.
Proof.
  intros s th ph [-> | ->]; unfold pn, parallel_mzi, mzi_terms; cbn [fst snd b2R];
    replace (ln 10 * 0 / 20) with 0 by field; rewrite ?Rmult_0_r, ?Rmult_0_l, ?Rminus_0_r, ?Rmult_1_r, !Cexp_imag, cis_mod2pi; reflexivity.
Qed.
Lemma pn_unit : forall s th ph, quad_unit (pn s th ph).
Proof. intros. apply parallel_mzi_unit. Qed.

Section Program.
Variables (eps : R) (s : phase_style) (network : mesh) (last : nat).
Hypothesis Heps : 0 <= eps.
Hypothesis Hs : tb s.

Definition nth0 (w : mat) (nd : node) : R := nullify_theta eps (mzi_terms (0, 0)) (w (top nd) last) (w (bottom nd) last).
Definition nph0 (w : mat) (nd : node) : R :=
  match nullify_phi s (mzi_terms (0, 0)) (nth0 w nd) (w (top nd) last) (w (bottom nd) last) with Some x => x | None => 0 end.
Lemma nph0_some : forall w nd, nullify_phi s (mzi_terms (0, 0)) (nth0 w nd) (w (top nd) last) (w (bottom nd) last) = Some (nph0 w nd).
Proof.
  intros w nd. unfold nph0. destruct (nullify_phi s (mzi_terms (0, 0)) (nth0 w nd) (w (top nd) last) (w (bottom nd) last)) eqn:E; auto.
  exfalso. destruct Hs as [-> | ->]; discriminate.
Qed.
Lemma nulled : forall w nd,
  Cn2 (qtop (pn s (nth0 w nd) (mod2pi (nph0 w nd))) (w (top nd) last) (w (bottom nd) last)) <= eps.
Proof.
  intros w nd. pose proof PI_RGT_0. pose proof (nph0_some w nd) as E. unfold pn. destruct Hs as [Es | Es]; rewrite Es in E; rewrite Es at 1.
  - apply null_top; auto; [lra | apply reachable0; auto].
  - apply null_bottom; auto; [lra | apply reachable0; auto].
Qed.

Definition opn (st : pstate) (nd : node) : op := (pn s (pth st (node_id nd)) (pph st (node_id nd)), top nd, bottom nd).

Lemma program_column_spec : forall l nc st, mk_mesh l s = Some nc -> NoDup (map node_id l) ->
  NoDup (map top l ++ map bottom l) ->
  (forall nd, In nd l -> bs_error nd = (0, 0) /\ loss nd = (0, 0) /\ err_at network (node_id nd) = (0, 0)) ->
  exists st', program_column eps network nc last st = Some st' /\
    (forall nd, In nd l -> pth st' (node_id nd) = nth0 (pw st) nd /\ pph st' (node_id nd) = mod2pi (nph0 (pw st) nd)) /\
    (forall k, ~ In k (map node_id l) -> pth st' k = pth st k /\ pph st' k = pph st k) /\
    (forall j, (fun i => pw st' i j) = run (map (opn st') l) (fun i => pw st i j)).
Proof.
  intros l nc st Hm Hid Hr Hdef.
  assert (Etr : triples nc = map (fun nd => (top nd, bottom nd, node_id nd)) l)
    by (rewrite (mk_mesh_triples l s nc Hm), renumber_single; auto).
  assert (Enc : nodes nc = l /\ style nc = s /\ bs_errors nc = map bs_error l /\ losses nc = map loss l).
  { destruct l as [| nd0 l0]; [discriminate |]. unfold mk_mesh in Hm. apply Some_inj in Hm. rewrite <- Hm. cbn [nodes style bs_errors losses].
    rewrite renumber_single by auto. auto. }
  destruct Enc as (En & Est & Ee & El).
  set (w := pw st).
  assert (Etp : all_some (map (fun x => let '(t, b, k) := x in
      let terms := mzi_terms (err_at network k) in
      let theta := nullify_theta eps terms (w t last) (w b last) in
      obind (nullify_phi (style nc) terms theta (w t last) (w b last)) (fun phi => Some (k, theta, phi)))
    (triples nc)) = Some (map (fun nd => (node_id nd, nth0 w nd, nph0 w nd)) l)).
  { rewrite Etr, map_map, Est. apply all_some_Some. intros nd Hin. destruct (Hdef nd Hin) as (_ & _ & ->).
    cbv zeta. fold (nth0 w nd). rewrite (nph0_some w nd). reflexivity. }
  set (st' := mkP
    (fun i j => assign (fun r => w r j)
       (map (fun nd => (top nd, qtop (pn s (nth0 w nd) (mod2pi (nph0 w nd))) (w (top nd) j) (w (bottom nd) j))) l ++
        map (fun nd => (bottom nd, qbot (pn s (nth0 w nd) (mod2pi (nph0 w nd))) (w (top nd) j) (w (bottom nd) j))) l) i)
    (assign (pth st) (map (fun nd => (node_id nd, nth0 w nd)) l))
    (assign (pph st) (map (fun nd => (node_id nd, mod2pi (nph0 w nd))) l))).
  exists st'. split.
  - unfold program_column. cbv zeta. cbv zeta in Etp. fold w. rewrite Etp. cbn [obind]. rewrite En, Ee, El, Est. unfold st'. f_equal.
    rewrite !combine_map. rewrite ?map_map. rewrite ?combine_map, ?map_map.
    assert (Hq : forall nd, In nd l -> parallel_mzi s false (nth0 w nd) (nph0 w nd) (bs_error nd) (loss nd) = pn s (nth0 w nd) (mod2pi (nph0 w nd))).
    { intros nd Hin. destruct (Hdef nd Hin) as (-> & -> & _). rewrite pn_mod; auto. }
    f_equal. apply functional_extensionality; intro i. apply functional_extensionality; intro j.
    rewrite !map_map. f_equal. f_equal; apply map_ext_in; intros nd Hin; cbv beta iota; rewrite (Hq nd Hin); reflexivity.
  - split; [| split].
    + intros nd Hin. unfold st'; cbn [pth pph]. split;
        [exact (assign_map_in _ _ (pth st) node_id (nth0 w) l nd Hid Hin)
        | exact (assign_map_in _ _ (pph st) node_id (fun nd => mod2pi (nph0 w nd)) l nd Hid Hin)].
    + intros k Hk. unfold st'; cbn [pth pph]. split;
        [exact (assign_map_out _ _ (pth st) node_id (nth0 w) l k Hk)
        | exact (assign_map_out _ _ (pph st) node_id (fun nd => mod2pi (nph0 w nd)) l k Hk)].
    + intros j. unfold st' at 1; cbn [pw].
      pose proof (parallel_transform_run (fun k => pn s (pth st' k) (pph st' k)) (map (fun nd => (top nd, bottom nd, node_id nd)) l)
        (fun i => w i j)) as E.
      unfold ops_of in E. rewrite map_map in E.
      etransitivity; [| etransitivity; [apply E |]]; [| | reflexivity].
      * unfold parallel_transform. rewrite !map_map. apply functional_extensionality; intro i. f_equal.
        f_equal; apply map_ext_in; intros nd Hin; unfold st'; cbn [pth pph];
          rewrite (assign_map_in _ _ (pth st) node_id (nth0 w) l nd Hid Hin),
            (assign_map_in _ _ (pph st) node_id (fun nd => mod2pi (nph0 w nd)) l nd Hid Hin); reflexivity.
      * unfold rails. rewrite !map_map. exact Hr.
Qed.

Lemma run_out : forall ops v i, (forall o, In o ops -> let '(_, t, b) := o in t <> i /\ b <> i) -> run ops v i = v i.
Proof.
  induction ops as [| [[q t] b] ops IH]; intros v i H; auto. rewrite run_cons, IH by (intros; apply H; right; auto).
  specialize (H _ (or_introl eq_refl)). cbn in H. apply apply_op_other; intuition congruence.
Qed.

Lemma run_col_top : forall (el : nat -> quad) l v nd, NoDup (map top l ++ map bottom l) -> In nd l ->
  run (map (fun nd => (el (node_id nd), top nd, bottom nd)) l) v (top nd) = qtop (el (node_id nd)) (v (top nd)) (v (bottom nd)).
Proof.
  intros el l v nd Hr Hin.
  pose proof (parallel_transform_run el (map (fun nd => (top nd, bottom nd, node_id nd)) l) v) as E.
  unfold ops_of in E. rewrite map_map in E. rewrite <- E.
  - apply (pt_top el _ v (top nd) (bottom nd) (node_id nd)).
    + unfold rails. rewrite !map_map. exact Hr.
    + apply in_map_iff. eauto.
  - unfold rails. rewrite !map_map. exact Hr.
Qed.

Definition inv (v : mat) (done : list node) (st : pstate) : Prop :=
  (forall j, (fun i => pw st i j) = run (map (opn st) done) (fun i => v i j)) /\
  (forall nd, In nd done -> Cn2 (pw st (top nd) last) <= eps).

Lemma program_columns_spec : forall v ls ncs, Forall2 (fun l nc => mk_mesh l s = Some nc) ls ncs ->
  forall done st, inv v done st ->
  NoDup (map node_id (done ++ concat ls)) -> NoDup (map top (done ++ concat ls)) ->
  Forall (fun l => NoDup (map top l ++ map bottom l)) ls ->
  (forall nd, In nd (concat ls) -> bs_error nd = (0, 0) /\ loss nd = (0, 0) /\ err_at network (node_id nd) = (0, 0)) ->
  (forall ls1 l ls2, ls = ls1 ++ l :: ls2 -> forall a b, In a (done ++ concat ls1) -> In b l -> bottom b <> top a) ->
  exists st', program_columns eps network ncs last st = Some st' /\ inv v (done ++ concat ls) st'.
Proof.
  intros v ls ncs HF. induction HF as [| l nc ls ncs Hm HF IH]; intros done st Hinv Hid Ht Hr Hdef Hord.
  - exists st. split; [reflexivity |]. simpl. rewrite app_nil_r. auto.
  - cbn [concat] in *. inversion Hr; subst.
    assert (Hidl : NoDup (map node_id l)).
    { rewrite !map_app in Hid. apply NoDup_app_snd in Hid. apply NoDup_app_fst in Hid. auto. }
    destruct (program_column_spec l nc st Hm Hidl H1 (fun nd Hin => Hdef nd (in_or_app _ _ _ (or_introl Hin))))
      as (st1 & E1 & Hin1 & Hout1 & Hw1).
    destruct Hinv as [Hi1 Hi2].
    assert (Hdisj : forall a b, In a done -> In b l -> node_id a <> node_id b /\ top a <> top b).
    { intros a b Ha Hb. rewrite app_assoc in Hid, Ht. split; intro E.
      - rewrite !map_app in Hid. apply NoDup_app_fst in Hid.
        apply in_split in Ha. destruct Ha as (d1 & d2 & ->). rewrite map_app in Hid. cbn [map] in Hid.
        rewrite <- List.app_assoc in Hid. apply NoDup_app_snd in Hid. cbn in Hid. apply NoDup_cons_iff in Hid. destruct Hid as [HN _]. apply HN.
        apply in_or_app; right. rewrite E. apply in_map; auto.
      - rewrite !map_app in Ht. apply NoDup_app_fst in Ht.
        apply in_split in Ha. destruct Ha as (d1 & d2 & ->). rewrite map_app in Ht. cbn [map] in Ht.
        rewrite <- List.app_assoc in Ht. apply NoDup_app_snd in Ht. cbn in Ht. apply NoDup_cons_iff in Ht. destruct Ht as [HN _]. apply HN.
        apply in_or_app; right. rewrite E. apply in_map; auto. }
    assert (Hinv1 : inv v (done ++ l) st1).
    { split.
      - intro j. rewrite Hw1, Hi1, map_app, run_app. f_equal. f_equal. apply map_ext_in. intros a Ha. unfold opn.
        destruct (Hout1 (node_id a)) as [-> ->]; auto. intro Hx. apply in_map_iff in Hx. destruct Hx as (b & Eb & Hb).
        destruct (Hdisj a b Ha Hb). congruence.
      - intros nd Hin.
        change (pw st1 (top nd) last) with ((fun i => pw st1 i last) (top nd)). rewrite Hw1.
        apply in_app_or in Hin. destruct Hin as [Hin | Hin].
        + rewrite run_out; [apply Hi2; auto |]. intros o Ho. apply in_map_iff in Ho. destruct Ho as (b & <- & Hb). cbn.
          destruct (Hdisj nd b Hin Hb). split; [congruence |].
          intro E. apply (Hord [] l ls eq_refl nd b); auto. cbn. rewrite app_nil_r. auto.
        + unfold opn. rewrite (run_col_top (fun k => pn s (pth st1 k) (pph st1 k))) by auto.
          destruct (Hin1 nd Hin) as [-> ->]. apply nulled. }
    destruct (IH (done ++ l) st1 Hinv1) as (st2 & E2 & Hinv2).
    + rewrite <- app_assoc. auto.
    + rewrite <- app_assoc. auto.
    + auto.
    + intros nd Hin. apply Hdef. apply in_or_app; auto.
    + intros ls1 l' ls2 E a b Ha Hb. apply (Hord (l :: ls1) l' ls2); auto.
      * rewrite E. reflexivity.
      * cbn. rewrite app_assoc. auto.
    + exists st2. split.
      * cbn [program_columns]. rewrite E1. cbn [obind]. exact E2.
      * rewrite app_assoc. exact Hinv2.
Qed.
End Program.

(** Columns of a mesh as node lists. *)
Lemma columns_Forall2 : forall m cols, columns m = Some cols ->
  Forall2 (fun l nc => mk_mesh l (style m) = Some nc)
    (map (fun c => nodes_in_column (nodes m) (Z.of_nat c)) (seq 0 (Z.to_nat (num_columns m)))) cols.
Proof.
  intros m cols H. unfold columns in H. apply all_some_map in H.
  induction H as [| c nc l r Hm H IH]; constructor; auto.
Qed.
Lemma in_order_perm : forall l N, (forall nd, In nd l -> (0 <= column nd < Z.of_nat N)%Z) ->
  Permutation (concat (map (fun c => nodes_in_column l (Z.of_nat c)) (seq 0 N))) l.
Proof.
  intros l N. revert l. induction N as [| N IH]; intros l H.
  - destruct l as [| a l]; [apply Permutation_refl | specialize (H a (or_introl eq_refl)); lia].
  - rewrite seq_S, map_app, concat_app. cbn [map concat plus]. rewrite app_nil_r.
    set (l1 := filter (fun nd => negb (Z.eqb (column nd) (Z.of_nat N))) l).
    assert (E : map (fun c => nodes_in_column l (Z.of_nat c)) (seq 0 N) = map (fun c => nodes_in_column l1 (Z.of_nat c)) (seq 0 N)).
    { apply map_ext_in. intros c Hc. apply in_seq in Hc. unfold nodes_in_column, l1. clear H IH l1.
      induction l as [| a l IHl]; auto. cbn [filter]. rewrite IHl.
      destruct (Z.eqb_spec (column a) (Z.of_nat N)); cbn [negb filter].
      - destruct (Z.eqb_spec (column a) (Z.of_nat c)); [lia | reflexivity].
      - reflexivity. }
    rewrite E. eapply perm_trans; [apply Permutation_app_tail, IH |].
    + intros nd Hin. unfold l1 in Hin. apply filter_In in Hin. destruct Hin as [Hin Hc]. specialize (H nd Hin).
      destruct (Z.eqb_spec (column nd) (Z.of_nat N)); [discriminate | lia].
    + unfold l1, nodes_in_column. clear. induction l as [| a l IH]; auto. cbn [filter].
      destruct (Z.eqb (column a) (Z.of_nat N)); cbn [negb].
      * eapply perm_trans; [apply Permutation_sym, Permutation_middle |]. apply perm_skip. exact IH.
      * cbn [List.app]. apply perm_skip. exact IH.
Qed.

(** A network that vector_unit can program. *)
Record progable (n : nat) (s : phase_style) (m : mesh) : Prop := {
  pg_wf : wf_mesh m; pg_style : style m = s; pg_null : nulling_network n m;
  pg_col : forall nd, In nd (nodes m) -> (0 <= column nd < num_columns m)%Z;
  pg_err : forall nd, In nd (nodes m) -> bs_error nd = (0, 0) /\ loss nd = (0, 0);
  pg_errs : forall e, In e (bs_errors m) -> e = (0, 0);
  pg_loss : forall e, In e (losses m) -> e = (0, 0);
  pg_len : length (losses m) = length (bs_errors m) }.

Definition node_ops (s : phase_style) (p : params) (l : list node) : list op :=
  map (fun nd => (pn s (thetas p (node_id nd)) (phis p (node_id nd)), top nd, bottom nd)) l.

Lemma nth_const : forall (A : Type) (l : list A) k d, (forall x, In x l -> x = d) -> nth k l d = d.
Proof.
  intros A l k d H. destruct (lt_dec k (length l)); [apply H, nth_In; auto | apply nth_overflow; lia].
Qed.

Lemma in_order_sorted : forall m ls1 l ls2,
  map (fun c => nodes_in_column (nodes m) (Z.of_nat c)) (seq 0 (Z.to_nat (num_columns m))) = ls1 ++ l :: ls2 ->
  forall a b, In a (concat ls1) -> In b l -> In a (nodes m) /\ In b (nodes m) /\ (column a < column b)%Z.
Proof.
  intros m ls1 l ls2. generalize (Z.to_nat (num_columns m)) as N. intros N E a b Ha Hb.
  assert (Hlen : (length ls1 < N)%nat).
  { apply (f_equal (@length _)) in E. rewrite map_length, seq_length, app_length in E. simpl in E. lia. }
  assert (Hget : forall k, (k < N)%nat -> nth k (ls1 ++ l :: ls2) [] = nodes_in_column (nodes m) (Z.of_nat k)).
  { intros k Hk. rewrite <- E. rewrite (nth_indep _ [] (nodes_in_column (nodes m) (Z.of_nat 0))) by (rewrite map_length, seq_length; auto).
    rewrite (map_nth (fun c => nodes_in_column (nodes m) (Z.of_nat c))), seq_nth by auto. reflexivity. }
  pose proof (Hget (length ls1) Hlen) as Hl. rewrite app_nth2, Nat.sub_diag in Hl by lia. cbn in Hl. subst l.
  apply filter_In in Hb. destruct Hb as [Hb Hb']. apply Z.eqb_eq in Hb'.
  apply in_concat in Ha. destruct Ha as (x & Hx & Ha). apply In_nth with (d := []) in Hx. destruct Hx as (k & Hk & Ek).
  pose proof (Hget k ltac:(lia)) as Hl. rewrite app_nth1 in Hl by auto. rewrite Hl in Ek. subst x.
  apply filter_In in Ha. destruct Ha as [Ha Ha']. apply Z.eqb_eq in Ha'. repeat split; auto. lia.
Qed.

Lemma program_vector_spec : forall eps s n m v last, 0 <= eps -> tb s -> progable n s m ->
  exists p w, program_vector_unit eps v n last m = Some (p, w) /\
    (forall j, (fun i => w i j) = run (node_ops s p (in_order m)) (fun i => v i j)) /\
    (forall i, (i < n - 1)%nat -> Cn2 (w i last) <= eps) /\
    (forall i, gammas p i = if Nat.eqb i (n - 1) then - Carg (w (n - 1)%nat last) else 0).
Proof.
  intros eps s n m v last He Hs [Hwf Hst Hnull Hcol Herr Herrs Hloss Hlen].
  destruct (wf_total m Hwf) as (cols & Hc & _).
  pose proof (columns_Forall2 m cols Hc) as HF. rewrite Hst in HF.
  set (ls := map (fun c => nodes_in_column (nodes m) (Z.of_nat c)) (seq 0 (Z.to_nat (num_columns m)))) in *.
  assert (HP : Permutation (concat ls) (nodes m)).
  { apply in_order_perm. intros nd Hin. specialize (Hcol nd Hin). lia. }
  destruct Hnull as (Hn1 & Hn2 & Hn3 & Hn4 & Hn5).
  destruct (program_columns_spec eps s m last He Hs v ls cols HF [] (mkP v (fun _ => 0) (fun _ => 0))) as (st & Est & Hi1 & Hi2).
  - split; [reflexivity | intros nd []].
  - cbn [List.app]. eapply Permutation_NoDup; [apply Permutation_map, Permutation_sym, HP |]. apply Hwf.
  - cbn [List.app]. eapply Permutation_NoDup; [apply Permutation_map, Permutation_sym, HP |].
    eapply Permutation_NoDup; [apply Permutation_sym, Hn3 | apply seq_NoDup].
  - apply Forall_forall. intros l Hl. unfold ls in Hl. apply in_map_iff in Hl. destruct Hl as (c & <- & _). apply (proj1 Hwf).
  - intros nd Hin. assert (Hin' : In nd (nodes m)) by (eapply Permutation_in; [exact HP | exact Hin]).
    destruct (Herr nd Hin') as [H1 H2]. repeat split; auto. unfold err_at. apply nth_const. auto.
  - intros ls1 l ls2 E a b Ha Hb Heq. cbn [List.app] in Ha.
    destruct (in_order_sorted m ls1 l ls2 E a b Ha Hb) as (H1 & H2 & H3). specialize (Hn5 a b H1 H2 Heq). lia.
  - cbn [List.app] in Hi1, Hi2.
    eexists. eexists. split; [| split; [| split]].
    + unfold program_vector_unit. rewrite Hc. cbn [obind]. rewrite Est. cbn [obind]. reflexivity.
    + intro j. rewrite Hi1. reflexivity.
    + intros i Hi. assert (Hx : In i (map top (nodes m))).
      { eapply Permutation_in; [apply Permutation_sym, Hn3 | apply in_seq; lia]. }
      apply in_map_iff in Hx. destruct Hx as (nd & <- & Hin). apply Hi2.
      eapply Permutation_in; [apply Permutation_sym, HP | auto].
    + intro i. reflexivity.
Qed.

(** The programmed network's own matrix_fn is this run, followed by the output phases. *)
Lemma progable_matrix : forall n s m p x, progable n s m ->
  matrix_fn m false p x = Some (apply_gammas (gammas p) (run (node_ops s p (in_order m)) x)).
Proof.
  intros n s m p x [Hwf Hst Hnull Hcol Herr Herrs Hloss Hlen].
  destruct (wf_matrix_total m false p x Hwf) as [y Hy]. rewrite Hy.
  destruct (matrix_fn_run _ _ _ _ _ (proj1 Hwf) Hy) as (cols & Hc & _ & ->).
  rewrite (mesh_ops_in_order m p cols) by (auto; apply Hwf). f_equal. f_equal. f_equal.
  unfold node_ops. apply map_ext_in. intros nd Hin. f_equal. f_equal. unfold mzis, pn, err_at, loss_at.
  rewrite Hst. f_equal; apply nth_const; auto.
Qed.

(** set_errors with zero errors keeps everything. *)
Lemma with_errors_same : forall nd, with_errors nd (bs_error nd) (loss nd) = nd.
Proof. intros []; reflexivity. Qed.
Lemma set_errors_zero : forall m, nodes m <> [] -> NoDup (map node_id (nodes m)) ->
  (forall nd, In nd (nodes m) -> loss nd = (0, 0) /\ bs_error nd = (0, 0)) ->
  bs_errors m = map bs_error (nodes m) -> losses m = map loss (nodes m) ->
  exists m', set_errors m 0 0 = Some m' /\ mk_mesh (nodes m) (style m) = Some m'.
Proof.
  intros m Hne Hid Hz He Hl. unfold set_errors, add_error_mean. rewrite He, Hl, !map_map, combine_map.
  assert (E : map (fun x => let '(nd, (e, l)) := x in with_errors nd e l)
     (combine (nodes m) (map (fun nd : node => (((0, 0) : R * R), ((0, 0) : R * R))) (nodes m))) = nodes m).
  { revert Hz. generalize (nodes m). induction l as [| a l IH]; intros Hz; auto. cbn [map combine].
    rewrite IH by (intros; apply Hz; right; auto). f_equal.
    destruct (Hz a (or_introl eq_refl)) as [<- Hb]. rewrite <- Hb at 1. apply with_errors_same. }
  rewrite E. destruct (nodes m); [congruence |]. eexists. split; reflexivity.
Qed.

Lemma remake_progable : forall n r s t, (2 <= n)%nat -> (n <= r)%nat -> style t = s -> n_rails t = r -> nulling_network n t ->
  rails_disjoint (nodes t) -> (forall nd, In nd (nodes t) -> (0 <= column nd < num_columns t)%Z) ->
  (forall nd, In nd (nodes t) -> loss nd = (0, 0) /\ bs_error nd = (0, 0) /\ n_of nd = r) ->
  bs_errors t = map bs_error (nodes t) -> losses t = map loss (nodes t) -> wf_mesh t ->
  exists m, set_errors t 0 0 = Some m /\ progable n s m /\ n_rails m = r /\ nodes m = nodes t /\ num_columns m = num_columns t.
Proof.
  intros n r s t Hn Hr Hst Hrt Hnull Hdis Hcol Hz He Hl Hwf.
  assert (Hlen : length (nodes t) = (n - 1)%nat) by apply Hnull.
  destruct (set_errors_zero t) as (m & E1 & E2); auto.
  - intro E. rewrite E in Hlen. simpl in Hlen. lia.
  - apply Hwf.
  - intros nd Hin. destruct (Hz nd Hin) as (? & ? & ?). auto.
  - exists m. split; auto.
    destruct (nodes t) as [| nd0 l0] eqn:En; [simpl in Hlen; lia |].
    assert (Hcols := mk_mesh_cols _ _ _ _ E2). rewrite <- En in *.
    assert (Enc : num_columns m = num_columns t).
    { destruct Hcols as [H1 (x & Hx & Ex)]. pose proof (Hcol x Hx).
      destruct (proj2 (proj2 (proj2 Hwf)) (num_columns t - 1)%Z ltac:(lia)) as (y & Hy & Ey). specialize (H1 y Hy). lia. }
    assert (Em : nodes m = nodes t /\ style m = s /\ n_rails m = r /\ bs_errors m = bs_errors t /\ losses m = losses t).
    { unfold mk_mesh in E2. rewrite En in E2. rewrite <- En in E2. rewrite renumber_single in E2 by apply Hwf. apply Some_inj in E2. rewrite <- E2. cbn.
      rewrite He, Hl. repeat split; auto. apply (Hz nd0). rewrite En. left; auto. }
    destruct Em as (Em1 & Em2 & Em3 & Em4 & Em5).
    split; [| auto]. constructor; auto.
    + destruct Hwf as (W1 & W2 & W3 & W4). unfold wf_mesh. rewrite Em1, Em3, Em4, Enc. rewrite Hrt in W2. auto.
    + unfold nulling_network. rewrite Em1. exact Hnull.
    + rewrite Em1, Enc. exact Hcol.
    + rewrite Em1. intros nd Hin. destruct (Hz nd Hin) as (? & ? & ?). auto.
    + rewrite Em4, He. intros e Hin. apply in_map_iff in Hin. destruct Hin as (nd & <- & Hin). apply (Hz nd Hin).
    + rewrite Em5, Hl. intros e Hin. apply in_map_iff in Hin. destruct Hin as (nd & <- & Hin). apply (Hz nd Hin).
    + rewrite Em4, Em5, He, Hl, !map_length. auto.
Qed.

Lemma tree_progable : forall n r balanced s, (2 <= n)%nat -> (n <= r)%nat ->
  exists t m, tree n r balanced s = Some t /\ set_errors t 0 0 = Some m /\ progable n s m /\ n_rails m = r /\
    nodes m = nodes t /\ num_columns m = num_columns t /\
    num_columns m = (if balanced then Z.of_nat (Nat.log2_up n) else Z.of_nat (n - 1)) /\
    (balanced = false -> forall nd, In nd (nodes m) -> top nd = node_id nd /\ bottom nd = (node_id nd + 1)%nat /\ column nd = Z.of_nat (node_id nd)) /\
    (forall nd, In nd (nodes m) -> n_of nd = r).
Proof.
  intros n r balanced s Hn Hr. destruct balanced.
  - destruct (tree_balanced n r s Hn Hr) as (t & Et & H1 & H2 & H3 & H4 & H5 & H6 & H7 & H8 & H9 & H10).
    destruct (remake_progable n r s t Hn Hr H1 H2 H3 H4 H6 H7 H8 H9 H10) as (m & E1 & E2 & E3 & E4 & E5).
    exists t, m. split; [auto |]. split; [auto |]. split; [auto |]. split; [auto |]. split; [auto |]. split; [auto |]. split; [congruence |]. split; [discriminate |].
    intros nd Hin. rewrite E4 in Hin. apply (H7 nd Hin).
  - destruct (tree_chain n r s Hn Hr) as (t & Et & H1 & H2 & H3 & H4 & H5 & H6 & H7 & H8 & H9 & H10).
    destruct (remake_progable n r s t) as (m & E1 & E2 & E3 & E4 & E5); auto.
    + intros nd Hin. destruct (H6 nd Hin) as (A1 & A2 & ->). rewrite H5.
      destruct H3 as (_ & H3 & _). assert (Hi : In (node_id nd) (seq 0 (n - 1))) by (eapply Permutation_in; [exact H3 | apply in_map; auto]).
      apply in_seq in Hi. lia.
    + exists t, m. split; [auto |]. split; [auto |]. split; [auto |]. split; [auto |]. split; [auto |]. split; [auto |]. split; [congruence |].
      split; [intros _ nd Hin; rewrite E4 in Hin; auto | intros nd Hin; rewrite E4 in Hin; apply (H7 nd Hin)].
Qed.

Lemma node_ops_ok : forall n s p l, (forall nd, In nd l -> (top nd < bottom nd < n)%nat) -> Forall (ok n) (node_ops s p l).
Proof.
  intros n s p l H. unfold node_ops. apply Forall_forall. intros o Ho. apply in_map_iff in Ho. destruct Ho as (nd & <- & Hin).
  specialize (H nd Hin). simpl. lia.
Qed.
Lemma node_ops_unit : forall s p l, Forall (fun o => quad_unit (quad_of o)) (node_ops s p l).
Proof.
  intros s p l. unfold node_ops. apply Forall_forall. intros o Ho. apply in_map_iff in Ho. destruct Ho as (nd & <- & Hin). apply pn_unit.
Qed.
Lemma in_order_In : forall m nd, In nd (in_order m) -> In nd (nodes m).
Proof.
  intros m nd H. unfold in_order in H. apply in_concat in H. destruct H as (l & Hl & Hx).
  apply in_map_iff in Hl. destruct Hl as (c & <- & _). apply filter_In in Hx. tauto.
Qed.
Lemma apply_gammas_power : forall n g v, power n (apply_gammas g v) = power n v.
Proof. intros. unfold power, apply_gammas. apply Rsum_ext. intros. rewrite Cn2_mul, Cn2_cis. ring. Qed.

(** C12 *)
Lemma vector_unit_spec : forall eps v n last balanced s, 0 <= eps -> (2 <= n)%nat -> s = TOP \/ s = BOTTOM ->
  exists m p w y, vector_unit eps v n last n balanced s 0 0 = Some (m, p, w) /\
    style m = s /\ n_rails m = n /\
    matrix_fn m false p (fun i => v i last) = Some y /\
    (forall i, (i < n - 1)%nat -> Cn2 (y i) <= eps) /\
    im (y (n - 1)%nat) = 0 /\ 0 <= re (y (n - 1)%nat) /\
    power n y = power n (fun i => v i last) /\
    (forall j, exists y', matrix_fn m false p (fun i => v i j) = Some y' /\ forall i, Cn2 (y' i) = Cn2 (w i j)).
Proof.
  intros eps v n last balanced s He Hn Hs.
  destruct (tree_progable n n balanced s Hn (le_n n)) as (t & m & Et & Em & Hp & Hr & _).
  destruct (program_vector_spec eps s n m v last He Hs Hp) as (p & w & Ew & Hw & Hnull & Hg).
  exists m, p, w, (apply_gammas (gammas p) (run (node_ops s p (in_order m)) (fun i => v i last))).
  split; [unfold vector_unit; rewrite Et; cbn [obind]; rewrite Em; cbn [obind]; rewrite Ew; reflexivity |].
  split; [apply Hp |]. split; [auto |]. split; [apply (progable_matrix n); auto |].
  rewrite <- Hw.
  assert (Hlast : apply_gammas (gammas p) (fun i => w i last) (n - 1)%nat = RtoC (Cabs (w (n - 1)%nat last))).
  { unfold apply_gammas. rewrite Hg, Nat.eqb_refl. rewrite <- Carg_unphase. ring. }
  split; [| split; [| split; [| split]]].
  - intros i Hi. unfold apply_gammas. rewrite Cn2_mul, Cn2_cis, Rmult_1_l. auto.
  - rewrite Hlast. reflexivity.
  - rewrite Hlast. simpl. apply Cabs_nonneg.
  - rewrite apply_gammas_power, Hw. apply run_power; [| apply node_ops_unit].
    apply node_ops_ok. intros nd Hin. apply in_order_In in Hin. apply (pg_null _ _ _ Hp) in Hin. auto.
  - intro j. eexists. split; [apply (progable_matrix n s); auto |]. intro i. rewrite <- Hw. unfold apply_gammas. rewrite Cn2_mul, Cn2_cis. ring.
Qed.
