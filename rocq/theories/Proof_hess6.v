(** The powers recorded while programming. *)
From Coq Require Import Reals Lra Lia List ZArith Bool Arith Permutation.
From Verif Require Import Cx Arr Spec_circuit Model_coupling Model_forward Model_vector Model_hess Spec_mesh Spec_tree Proof_node Proof_mesh Proof_forward Proof_forward2 Proof_forward3 Proof_forward4 Proof_null Proof_null2 Proof_tree Proof_vector
  Proof_hess1 Proof_hess2 Proof_hess3 Proof_hess4 Proof_hess5.
Import ListNotations.
Local Open Scope R_scope.

Section powers.
Variables (eps : R) (s : phase_style) (network : mesh) (last : nat).
Hypothesis He : 0 <= eps.
Hypothesis Hs : tb s.
Notation opn := (opn s).

Lemma power_columns_spec : forall (v : vec) ls ncs, Forall2 (fun l nc => mk_mesh l s = Some nc) ls ncs ->
  forall done st q, (fun i => pw st i last) = run (map (opn st) done) v ->
  NoDup (map node_id (done ++ concat ls)) ->
  Forall (fun l => NoDup (map top l ++ map bottom l)) ls ->
  (forall nd, In nd (concat ls) -> bs_error nd = (0, 0) /\ loss nd = (0, 0) /\ err_at network (node_id nd) = (0, 0)) ->
  exists st' q', program_columns eps network ncs last st = Some st' /\ power_columns eps network ncs last st q = Some q' /\
    (forall k, ~ In k (map node_id (concat ls)) -> pth st' k = pth st k /\ pph st' k = pph st k /\ fst q' k = fst q k /\ snd q' k = snd q k) /\
    (forall ls1 l ls2, ls = ls1 ++ l :: ls2 -> forall nd, In nd l ->
       fst q' (node_id nd) = Cn2 (run (map (opn st') ((done ++ concat ls1) ++ l)) v (bottom nd)) /\
       snd q' (node_id nd) = Cn2 (run (map (opn st') (done ++ concat ls1)) v (top nd))).
Proof.
  intros v ls ncs HF. induction HF as [| l nc ls ncs Hm HF IH]; intros done st q Hi Hid Hr Hdef.
  - exists st, q. split; [reflexivity |]. split; [reflexivity |]. split; [intros; auto |]. intros ls1 l ls2 E. destruct ls1; discriminate.
  - cbn [concat] in *. inversion Hr; subst.
    assert (Hidl : NoDup (map node_id l)).
    { rewrite !map_app in Hid. apply NoDup_app_snd in Hid. apply NoDup_app_fst in Hid. auto. }
    destruct (program_column_spec eps s network last Hs l nc st Hm Hidl H1 (fun nd Hin => Hdef nd (in_or_app _ _ _ (or_introl Hin))))
      as (st1 & E1 & Hin1 & Hout1 & Hw1).
    assert (Hdl : forall a, In a done -> ~ In (node_id a) (map node_id l)).
    { intros a Ha K. rewrite app_assoc, map_app in Hid. apply NoDup_app_fst in Hid. rewrite map_app in Hid.
      apply (nodup_app_disj _ _ _ _ Hid (in_map node_id _ _ Ha) K). }
    assert (Hops : map (opn st1) done = map (opn st) done).
    { apply map_ext_in. intros a Ha. unfold Proof_vector.opn. destruct (Hout1 _ (Hdl a Ha)) as [-> ->]. reflexivity. }
    assert (Hi1 : (fun i => pw st1 i last) = run (map (opn st1) (done ++ l)) v).
    { rewrite Hw1, Hi, map_app, run_app, Hops. reflexivity. }
    destruct (IH (done ++ l) st1 (power_column nc last st st1 q) Hi1) as (st2 & q2 & E2 & E3 & Hout2 & Hin2).
    + rewrite <- app_assoc. auto.
    + auto.
    + intros nd Hin. apply Hdef. apply in_or_app; auto.
    + assert (Hkeep : forall a, In a (done ++ l) -> ~ In (node_id a) (map node_id (concat ls))).
      { intros a Ha K. rewrite app_assoc, map_app in Hid. apply (nodup_app_disj _ _ _ _ Hid (in_map node_id _ _ Ha) K). }
      assert (Hops2 : forall L, (forall a, In a L -> In a (done ++ l)) -> map (opn st2) L = map (opn st1) L).
      { intros L HL. apply map_ext_in. intros a Ha. unfold Proof_vector.opn. destruct (Hout2 _ (Hkeep a (HL a Ha))) as (-> & -> & _). reflexivity. }
      assert (Enc : nodes nc = l).
      { destruct l as [| nd0 l0]; [discriminate |]. unfold mk_mesh in Hm. apply Some_inj in Hm. rewrite <- Hm. cbn [nodes].
        apply renumber_single. exact Hidl. }
      exists st2, q2. split; [cbn [program_columns]; rewrite E1; exact E2 |]. split; [cbn [power_columns]; rewrite E1; exact E3 |]. split.
      * intros k Hk. rewrite map_app, in_app_iff in Hk. destruct (Hout2 k) as (A1 & A2 & A3 & A4); [tauto |].
        destruct (Hout1 k) as [B1 B2]; [tauto |]. rewrite A1, A2, A3, A4, B1, B2. unfold power_column. cbn [fst snd]. rewrite Enc.
        rewrite (assign_map_out _ _ (fst q) node_id (fun nd => Cn2 (pw st1 (bottom nd) last)) l k) by tauto.
        rewrite (assign_map_out _ _ (snd q) node_id (fun nd => Cn2 (pw st (top nd) last)) l k) by tauto. auto.
      * intros ls1 l' ls2 Els nd Hnd. destruct ls1 as [| l1 ls1]; cbn [List.app] in Els.
        -- injection Els as El _. subst l'. cbn [concat]. rewrite app_nil_r.
           destruct (Hout2 (node_id nd)) as (_ & _ & -> & ->); [apply Hkeep; apply in_or_app; auto |].
           unfold power_column. cbn [fst snd]. rewrite Enc.
           rewrite (assign_map_in _ _ (fst q) node_id (fun nd => Cn2 (pw st1 (bottom nd) last)) l nd Hidl Hnd).
           rewrite (assign_map_in _ _ (snd q) node_id (fun nd => Cn2 (pw st (top nd) last)) l nd Hidl Hnd).
           rewrite !Hops2 by (intros a Ha; try (apply in_or_app; left; assumption); assumption).
           rewrite <- Hi1, Hops, <- Hi. auto.
        -- injection Els as El Els. subst l1. destruct (Hin2 ls1 l' ls2 Els nd Hnd) as [A1 A2]. cbn [concat].
           rewrite <- !app_assoc in *. auto.
Qed.
End powers.

(** A programmed vector unit, with its powers. *)
Definition cgam (w : C) (n : nat) : nat -> R := fun i => if Nat.eqb i (n - 1) then - Carg w else 0.
Lemma unit_programmed_eps : forall eps n m (x : vec) T, 0 <= eps -> (2 <= n)%nat -> progable n TOP m -> tnodes T = nodes m -> leaves T = seq 0 n -> rail T = (n - 1)%nat -> shaped T ->
  exists p q W, program_vector_unit eps (fun i _ => x i) n 0 m = Some (p, W) /\ unit_powers eps m (fun i _ => x i) 0 = Some q /\
    every (fun nd A B => (eps = 0 -> (zq11 (zp p) (node_id nd) * za (zp p) x A + zq21 (zp p) (node_id nd) * za (zp p) x B)%C = C0) /\
      Cn2 (za (zp p) x (Nd nd A B)) = fst q (node_id nd) /\ Cn2 (za (zp p) x A) = snd q (node_id nd)) T /\
    gammas p (n - 1)%nat = - Carg (amp p x T) /\ (eps = 0 -> Cn2 (amp p x T) = power n x) /\
    (forall p', matrix_fn m false p' x = None \/ exists y, matrix_fn m false p' x = Some y /\ y (n - 1)%nat = (cis (gammas p' (n - 1)%nat) * amp p' x T)%C).
Proof.
  intros eps n m x T He0 Hn Hp ET EL ER Hsh.
  destruct (program_vector_spec eps TOP n m (fun i _ => x i) 0 He0 (or_introl eq_refl) Hp) as (p & W & Epv & Hrun & Hnul & Hgam).
  pose proof Hp as [Hwf Hst Hnull Hcol Herr Herrs Hloss Hlen].
  destruct (wf_total m Hwf) as (cols & Hc & _).
  pose proof (columns_Forall2 m cols Hc) as HF. rewrite Hst in HF.
  set (ls := map (fun c => nodes_in_column (nodes m) (Z.of_nat c)) (seq 0 (Z.to_nat (num_columns m)))) in *.
  assert (HP : Permutation (concat ls) (nodes m)).
  { apply in_order_perm. intros nd Hin. specialize (Hcol nd Hin). lia. }
  assert (HNid : NoDup (map node_id (concat ls))).
  { eapply Permutation_NoDup; [apply Permutation_map, Permutation_sym, HP |]. apply Hwf. }
  destruct (power_columns_spec eps TOP m 0 (or_introl eq_refl) x ls cols HF [] (mkP (fun i _ => x i) (fun _ => 0) (fun _ => 0)) (fun _ => 0, fun _ => 0))
    as (st & q & Est & Eq & _ & Hq).
  { reflexivity. }
  { exact HNid. }
  { apply Forall_forall. intros l Hl. unfold ls in Hl. apply in_map_iff in Hl. destruct Hl as (c & <- & _). apply (proj1 Hwf). }
  { intros nd Hin. assert (Hin' : In nd (nodes m)) by (eapply Permutation_in; [exact HP | exact Hin]).
    destruct (Herr nd Hin') as [H1 H2]. repeat split; auto. unfold err_at. apply nth_const. auto. }
  assert (Ep : thetas p = pth st /\ phis p = pph st).
  { unfold program_vector_unit in Epv. rewrite Hc in Epv. cbn [obind] in Epv. rewrite Est in Epv. cbn [obind] in Epv.
    apply Some_inj in Epv. apply (f_equal fst) in Epv. cbn [fst] in Epv. rewrite <- Epv. auto. }
  destruct Ep as [Eth Eph].
  assert (Eops : forall L, map (opn TOP st) L = node_ops TOP p L).
  { intro L. unfold node_ops, opn. rewrite Eth, Eph. reflexivity. }
  set (L := in_order m).
  assert (EL' : L = concat ls) by reflexivity.
  assert (NDL : NoDup L) by (rewrite EL'; apply (NoDup_map_inv node_id); exact HNid).
  assert (InL : forall nd, In nd L <-> In nd (tnodes T)).
  { intro nd. rewrite ET, EL'. split; intro H; [apply (Permutation_in _ HP H) | apply (Permutation_in _ (Permutation_sym HP) H)]. }
  (* sorted by column *)
  assert (Split : forall nd, In nd L -> exists ls1 l ls2, ls = ls1 ++ l :: ls2 /\ In nd l).
  { intros nd H. rewrite EL' in H. apply in_concat in H. destruct H as (l & Hl & Hx). apply in_split in Hl. destruct Hl as (a & b & E). eauto. }
  assert (Cl : forall ls1 l ls2, ls = ls1 ++ l :: ls2 ->
    (forall a b, In a (concat ls1) -> In b l -> (column a < column b)%Z) /\ (forall a b, In a l -> In b l -> column a = column b) /\
    (forall a b, In a l -> In b (concat ls2) -> (column a < column b)%Z)).
  { intros ls1 l ls2 E. split; [| split].
    - intros a b Ha Hb. apply (in_order_sorted m ls1 l ls2 E a b Ha Hb).
    - assert (Hl : In l ls) by (rewrite E; apply in_or_app; right; left; reflexivity). unfold ls in Hl. apply in_map_iff in Hl. destruct Hl as (c & <- & _).
      intros a b Ha Hb. apply filter_In in Ha, Hb. destruct Ha as [_ Ha]. destruct Hb as [_ Hb]. apply Z.eqb_eq in Ha, Hb. lia.
    - intros a b Ha Hb. apply in_concat in Hb. destruct Hb as (l' & Hl' & Hb). apply in_split in Hl'. destruct Hl' as (u & w & E'). subst ls2.
      assert (E2 : ls = (ls1 ++ l :: u) ++ l' :: w) by (rewrite E, <- app_assoc; reflexivity).
      apply (in_order_sorted m _ l' w E2 a b); [| exact Hb]. rewrite concat_app. cbn [concat]. apply in_or_app. right. apply in_or_app. auto. }
  assert (So : sorted L).
  { intros A nd B E y Hy. assert (HA : In nd L) by (rewrite E; apply in_or_app; right; left; reflexivity).
    assert (HB : In y L) by (rewrite E; apply in_or_app; right; right; exact Hy).
    destruct (Split nd HA) as (ls1 & l & ls2 & Els & Hl). destruct (Cl ls1 l ls2 Els) as (C1' & C2' & C3').
    assert (E2 : L = concat ls1 ++ l ++ concat ls2) by (rewrite EL', Els, concat_app; reflexivity).
    destruct (Z_le_gt_dec (column nd) (column y)) as [| Hgt]; [assumption | exfalso].
    rewrite E2 in HB. apply in_app_or in HB. destruct HB as [HB | HB]; [| apply in_app_or in HB; destruct HB as [HB | HB]].
    - (* y in an earlier column, but after nd in L *)
      apply in_split in HB. destruct HB as (u & w & Eu). apply in_split in Hl. destruct Hl as (u' & w' & Eu').
      apply in_split in Hy. destruct Hy as (f & g & Ef). subst B.
      assert (NDy : NoDup (A ++ nd :: f ++ y :: g)) by (rewrite <- E; exact NDL).
      assert (E3 : A ++ nd :: f ++ y :: g = (u ++ y :: w ++ u') ++ nd :: w' ++ concat ls2).
      { rewrite <- E, E2, Eu, Eu'. rewrite <- !app_assoc. cbn [List.app]. rewrite <- !app_assoc. reflexivity. }
      assert (EA : A = u ++ y :: w ++ u').
      { assert (NB : ~ In nd (u ++ y :: w ++ u')).
        { intro K. pose proof NDy as NDy'. rewrite E3 in NDy'. apply (nodup_app_disj _ _ _ _ NDy' K). left. reflexivity. }
        assert (NA : ~ In nd A) by (intro K; apply (nodup_app_disj _ _ _ _ NDy K); left; reflexivity).
        revert NA NB E3. generalize (u ++ y :: w ++ u') as Z0. generalize (f ++ y :: g) as R1. generalize (w' ++ concat ls2) as R2. clear.
        intros R2 R1 Z0. revert A. induction Z0 as [| b Z0 IH]; intros A NA NB E.
        - destruct A as [| a A]; [reflexivity |]. cbn in E. injection E as -> _. exfalso. apply NA. left. reflexivity.
        - destruct A as [| a A]; [cbn in E; injection E as -> _; exfalso; apply NB; left; reflexivity |].
          cbn in E. injection E as -> E. f_equal. apply IH; [intro K; apply NA; right; exact K | intro K; apply NB; right; exact K | exact E]. }
      apply (nodup_app_disj _ A (nd :: f ++ y :: g) y NDy); [rewrite EA; apply in_or_app; right; left; reflexivity | right; apply in_or_app; right; left; reflexivity].
    - specialize (C2' nd y Hl HB). lia.
    - specialize (C3' nd y Hl HB). lia. }
  assert (NDleaf : NoDup (leaves T)) by (rewrite EL; apply seq_NoDup).
  assert (Hloc : every (local L) T).
  { apply local_sub; [exact Hsh | exact NDleaf | intros y Hy; apply InL; exact Hy |]. destruct T as [r | nd T B]; [exact I |]. intros y Hy. left. apply InL. exact Hy. }
  exists p, q, W. split; [exact Epv |]. split; [unfold unit_powers; rewrite Hc; exact Eq |].
  destruct Hnull as (Hn1 & Hn2 & Hn3 & Hn4 & Hn5).
  assert (EW : forall p', run (node_ops TOP p' L) x (n - 1)%nat = amp p' x T).
  { intro p'. rewrite <- ER. apply amp_run; [exact Hsh | exact NDleaf | exact So | exact NDL | intros y Hy; apply InL; exact Hy | intros y Hy; left; apply InL; exact Hy]. }
  assert (EWn : W (n - 1)%nat 0%nat = amp p x T).
  { change (W (n - 1)%nat 0%nat) with ((fun i => W i 0%nat) (n - 1)%nat). rewrite Hrun. apply EW. }
  split; [| split; [| split]].
  - (* every node *)
    assert (Hevery : forall t, every (local L) t -> (forall y, In y (tnodes t) -> In y (tnodes T)) -> every (fun nd A B => (eps = 0 -> (zq11 (zp p) (node_id nd) * za (zp p) x A + zq21 (zp p) (node_id nd) * za (zp p) x B)%C = C0) /\
      Cn2 (za (zp p) x (Nd nd A B)) = fst q (node_id nd) /\ Cn2 (za (zp p) x A) = snd q (node_id nd)) t).
    { induction t as [r | nd T1 IH1 T2 IH2]; intros Hl Hin; [exact I |]. destruct Hl as (Hl & Hl1 & Hl2). cbn [tnodes] in Hin.
      split; [| split; [apply IH1; [exact Hl1 | intros y Hy; apply Hin; right; apply in_or_app; auto] | apply IH2; [exact Hl2 | intros y Hy; apply Hin; right; apply in_or_app; auto]]].
      assert (HndL : In nd L) by (apply InL, Hin; left; reflexivity).
      destruct (Split nd HndL) as (ls1 & l & ls2 & Els & Hndl). destruct (Cl ls1 l ls2 Els) as (C1' & C2' & C3').
      assert (E2 : L = concat ls1 ++ (l ++ concat ls2)) by (rewrite EL', Els, concat_app; reflexivity).
      assert (E3 : L = (concat ls1 ++ l) ++ concat ls2) by (rewrite E2, app_assoc; reflexivity).
      destruct (Hq ls1 l ls2 Els nd Hndl) as [Q1 Q2]. cbn [List.app] in Q1, Q2. rewrite Eops in Q1, Q2.
      destruct (local_before L p x So NDL nd T1 T2 (concat ls1) (l ++ concat ls2) Hl E2) as [B1 B2].
      { intros y Hy. apply (C1' y nd Hy Hndl). }
      { intros y Hy. apply in_app_or in Hy. destruct Hy as [Hy | Hy]; [rewrite (C2' y nd Hy Hndl); lia | specialize (C3' nd y Hndl Hy); lia]. }
      pose proof (local_after L p x So NDL nd T1 T2 (concat ls1 ++ l) (concat ls2) Hl E3) as A1.
      assert (A2 : run (node_ops TOP p (concat ls1 ++ l)) x (bottom nd) = amp p x (Nd nd T1 T2)).
      { apply A1; [intros y Hy; apply in_app_or in Hy; destruct Hy as [Hy | Hy]; [specialize (C1' y nd Hy Hndl); lia | rewrite (C2' y nd Hy Hndl); lia] | intros y Hy; apply (C3' nd y Hndl Hy)]. }
      rewrite <- !za_amp. split; [intro He1 | split; [rewrite Q1, A2; reflexivity | rewrite Q2, B1; reflexivity]].
      (* nulled *)
      assert (Hnm : In nd (nodes m)) by (rewrite <- ET; apply Hin; left; reflexivity).
      assert (Htop : (top nd < n - 1)%nat).
      { assert (K : In (top nd) (seq 0 (n - 1))) by (apply (Permutation_in _ Hn3); apply in_map; exact Hnm). apply in_seq in K. lia. }
      pose proof (Hnul (top nd) Htop) as Hz. pose proof (Cn2_nonneg (W (top nd) 0%nat)) as Hz'.
      assert (Hz0 : W (top nd) 0%nat = C0) by (apply Cn2_zero_iff; lra).
      change (W (top nd) 0%nat) with ((fun i => W i 0%nat) (top nd)) in Hz0. rewrite Hrun in Hz0. fold L in Hz0.
      rewrite E3 in Hz0. unfold node_ops in Hz0. rewrite map_app, run_app in Hz0. fold (node_ops TOP p (concat ls1 ++ l)) in Hz0. fold (node_ops TOP p (concat ls2)) in Hz0.
      assert (NDtop : NoDup (map top L)).
      { rewrite EL'. eapply Permutation_NoDup; [apply Permutation_map, Permutation_sym, HP |]. eapply Permutation_NoDup; [apply Permutation_sym, Hn3 | apply seq_NoDup]. }
      rewrite run_out in Hz0.
      - unfold node_ops in Hz0. rewrite map_app, run_app in Hz0.
        rewrite (run_col_top (fun k => pn TOP (thetas p k) (phis p k)) l) in Hz0; [| | exact Hndl].
        + rewrite pn_z in Hz0. unfold qtop in Hz0. cbn [t11 t21] in Hz0. fold (node_ops TOP p (concat ls1)) in Hz0. change (fun i : nat => x i) with x in Hz0. rewrite B1, B2 in Hz0. exact Hz0.
        + assert (Hl' : In l ls) by (rewrite Els; apply in_or_app; right; left; reflexivity). unfold ls in Hl'. apply in_map_iff in Hl'. destruct Hl' as (c & <- & _). apply (proj1 Hwf).
      - intros o Ho. unfold node_ops in Ho. apply in_map_iff in Ho. destruct Ho as (y & <- & Hy). split.
        + intro K. rewrite E3, map_app in NDtop. apply (nodup_app_disj _ _ _ (top nd) NDtop); [apply in_map; apply in_or_app; auto | rewrite <- K; apply in_map; exact Hy].
        + intro K. assert (Hym : In y (nodes m)) by (rewrite <- ET; apply InL; rewrite E3; apply in_or_app; auto).
          specialize (Hn5 nd y Hnm Hym K). specialize (C3' nd y Hndl Hy). lia. }
    apply Hevery; [exact Hloc | auto].
  - rewrite Hgam, Nat.eqb_refl, EWn. reflexivity.
  - intro He1. rewrite <- EWn.
    assert (Hpow : power n (fun i => W i 0%nat) = power n x).
    { rewrite Hrun. apply run_power.
      - apply node_ops_ok. intros nd Hin. assert (Hin' : In nd (nodes m)) by (apply in_order_In; exact Hin). specialize (Hn4 nd Hin'). lia.
      - apply node_ops_unit. }
    rewrite <- Hpow. unfold power. destruct n as [| n']; [lia |]. cbn [Rsum]. replace (S n' - 1)%nat with n' by lia.
    assert (Z : Rsum n' (fun i => Cn2 (W i 0%nat)) = 0).
    { rewrite (Rsum_ext _ _ (fun _ => 0)).
      - clear. induction n' as [| n IH]; [reflexivity |]. cbn [Rsum]. rewrite IH. ring.
      - intros i Hi. specialize (Hnul i ltac:(lia)). pose proof (Cn2_nonneg (W i 0%nat)). lra. }
    rewrite Z. ring.
  - intro p'. right. rewrite (progable_matrix n TOP m p' x Hp). eexists. split; [reflexivity |]. unfold apply_gammas. fold L. rewrite EW. reflexivity.
Qed.
Lemma unit_programmed : forall n m (x : vec) T, (2 <= n)%nat -> progable n TOP m -> tnodes T = nodes m -> leaves T = seq 0 n -> rail T = (n - 1)%nat -> shaped T ->
  exists p q W, program_vector_unit 0 (fun i _ => x i) n 0 m = Some (p, W) /\ unit_powers 0 m (fun i _ => x i) 0 = Some q /\
    every (good (zp p) x (fst q) (snd q)) T /\ gammas p (n - 1)%nat = - Carg (amp p x T) /\ Cn2 (amp p x T) = power n x /\
    (forall p', matrix_fn m false p' x = None \/ exists y, matrix_fn m false p' x = Some y /\ y (n - 1)%nat = (cis (gammas p' (n - 1)%nat) * amp p' x T)%C).
Proof.
  intros n m x T Hn Hp ET EL ER Hsh.
  destruct (unit_programmed_eps 0 n m x T (Rle_refl 0) Hn Hp ET EL ER Hsh) as (p & q & W & E1 & E2 & E3 & E4 & E5 & E6).
  exists p, q, W. split; [exact E1 |]. split; [exact E2 |]. split; [| split; [exact E4 | split; [apply E5; reflexivity | exact E6]]].
  revert E3. apply every_impl. intros nd A B (H1 & H2 & H3). split; [apply H1; reflexivity | split; assumption].
Qed.
