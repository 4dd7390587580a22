(** Time reversal starting from a forward propagation (C127). *)
From Coq Require Import Reals Lra Lia List ZArith Permutation Bool FunctionalExtensionality.
From Verif Require Import Cx Arr Spec_circuit Model_coupling Model_forward Model_insitu Spec_mesh
  Proof_node Proof_mesh Proof_forward Proof_forward3 Proof_forward4 Proof_insitu5 Proof_tree Proof_insitu4.
Import ListNotations.
Local Open Scope R_scope.

Section Slices.
Variables (s : phase_style) (p : params) (left right : nat -> quad).
Hypothesis Hs : s = TOP \/ s = BOTTOM.
Hypothesis Hl : forall k, qrev (left k).
Hypothesis Hr : forall k, qrev (right k).
Lemma retrace_fwd : forall idxs v, Forall (fun i => NoDup (rails i)) idxs ->
  exists slf slb, prop_explicit s false p left right idxs v = Some slf /\
    prop_explicit s true p left right (rev idxs) (vconj (last slf v)) = Some slb /\
    vconj (last slf v) :: slb = map vconj (rev (v :: slf)).
Proof.
  intros idxs. induction idxs as [| i idxs IH]; intros v HF.
  - exists [], []. repeat split.
  - inversion HF; subst. cbn [prop_explicit rev]. unfold parallel_propagate at 1. rewrite !multiply_transform by auto. cbn [obind].
    rewrite multiply_transform by auto. cbn [obind].
    set (f1 := parallel_transform (fun k => qdiag s (phis p k)) i v). set (f2 := parallel_transform left i f1).
    set (f3 := parallel_transform (fun k => qdiag s (thetas p k)) i f2). set (f4 := parallel_transform right i f3).
    cbn [last]. destruct (IH f4 H2) as (slf & slb & E1 & E2 & E3). rewrite E1. cbn [obind].
    eexists. exists (slb ++ [vconj f3; vconj f2; vconj f1; vconj v]). split; [reflexivity |].
    cbn [List.app]. rewrite !last_cons'. rewrite prop_explicit_app, E2. cbn [obind].
    assert (L : last slb (vconj (last slf f4)) = vconj f4).
    { assert (Q : last (vconj (last slf f4) :: slb) v = vconj f4) by (rewrite E3; cbn [rev]; rewrite map_app; cbn [map]; apply last_app_single).
      rewrite last_cons' in Q. exact Q. }
    rewrite L. cbn [prop_explicit]. unfold parallel_propagate. rewrite !multiply_transform by auto. cbn [obind].
    rewrite multiply_transform by auto. cbn [obind].
    assert (R4 : parallel_transform right i (vconj f4) = vconj f3) by (apply pt_rev; auto).
    assert (R3 : parallel_transform (fun k => qdiag s (thetas p k)) i (vconj f3) = vconj f2) by (apply pt_rev; auto using qrev_diag).
    assert (R2 : parallel_transform left i (vconj f2) = vconj f1) by (apply pt_rev; auto).
    assert (R1 : parallel_transform (fun k => qdiag s (phis p k)) i (vconj f1) = vconj v) by (apply pt_rev; auto using qrev_diag).
    rewrite R4, R3, R2, R1. cbn [obind List.app]. split; [reflexivity |].
    change (vconj (last slf f4) :: slb ++ [vconj f3; vconj f2; vconj f1; vconj v]) with ((vconj (last slf f4) :: slb) ++ [vconj f3; vconj f2; vconj f1; vconj v]).
    rewrite E3. match goal with |- ?A = _ => change (A = map vconj (rev ([v; f1; f2; f3] ++ (f4 :: slf)))) end. rewrite rev_app_distr, map_app. reflexivity.
Qed.
End Slices.

Lemma propagate_retrace_fwd : forall m p v, wf_mesh m -> style m = TOP \/ style m = BOTTOM -> (forall l, In l (losses m) -> l = (0, 0)) ->
  exists fwd back, propagate m false true p v = Some fwd /\
    propagate m true true p (vconj (last fwd v)) = Some back /\ back = map vconj (rev fwd).
Proof.
  intros m p v Hwf Hs Hloss. destruct (wf_total m Hwf) as (cols & Hc & Hok). pose proof Hwf as (Hd & _).
  pose proof (mesh_idxs_nodup m false cols Hd Hc) as HF. pose proof (Hok true) as Hb. pose proof (Hok false) as Hf. unfold mesh_idxs in *.
  assert (Eloss : forall k, loss_at m k = (0, 0)).
  { intro k. unfold loss_at. destruct (nth_in_or_default k (losses m) (0,0)); auto. }
  destruct (retrace_fwd (style m) p (fun k => parallel_dc false (err_at m k) (loss_at m k)) (fun k => parallel_dc true (err_at m k) (loss_at m k)) Hs
     (fun k => qrev_dc false _ _ (Eloss k)) (fun k => qrev_dc true _ _ (Eloss k)) (map triples cols) v HF)
    as (slf & slb & E1 & E2 & E3).
  unfold propagate. rewrite Hc. cbn [obind]. rewrite Hb, Hf. cbn [last]. rewrite map_rev, E1. cbn [obind].
  eexists. eexists. split; [reflexivity |]. set (u := last slf v) in *.
  change (([v] ++ slf ++ [apply_gammas (gammas p) u])) with ((v :: slf) ++ [apply_gammas (gammas p) u]). rewrite last_app_single, gammas_rev, E2. cbn [obind].
  split; [reflexivity |]. rewrite app_nil_r, rev_app_distr. cbn [rev List.app map]. f_equal. exact E3.
Qed.

(** A lossless mesh with splitting errors that meets the hypotheses. *)
Lemma retrace_example : exists m, mk_mesh [mkNode 0 (0, 0) (1 / 10, - 1 / 10) 2 0 1 1 1 0] TOP = Some m /\ wf_mesh m /\ style m = TOP /\
  (forall l, In l (losses m) -> l = (0, 0)) /\ bs_errors m <> [(0, 0)].
Proof.
  exists (mesh1 TOP (1 / 10, - 1 / 10) (0, 0)). split; [apply mesh1_made |]. split; [apply mesh1_wf |]. split; [reflexivity |]. split.
  - intros l [<- | []]. reflexivity.
  - cbn. intro E. assert (H : 1 / 10 = 0) by congruence. lra.
Qed.
