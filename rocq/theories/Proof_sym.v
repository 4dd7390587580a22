(** Symmetries of FDTD without PML: time reversal, translation, mirror images. *)
From Coq Require Import Reals Lra Lia List Arith Bool FunctionalExtensionality ZifyNat ZifyClasses.
From Verif Require Import Cx Arr Model_yee Spec_yee Proof_yee Proof_yee2 Model_fdtd Spec_fdtd Proof_fdtd Spec_sym.
Import ListNotations.
Local Open Scope R_scope.

Lemma state_eq : forall a b, (forall c i j k, f_e a c i j k = f_e b c i j k) -> (forall c i j k, f_h a c i j k = f_h b c i j k) -> a = b.
Proof. intros [e h] [e' h'] H1 H2. cbn in *. f_equal; apply same_eq; intro; auto. Qed.
Lemma run_app : forall g jax l1 l2 st, run g jax st (l1 ++ l2) = run g jax (run g jax st l1) l2.
Proof. intros g jax l1. induction l1; intros; cbn [List.app run]; auto. Qed.

(** ** Time reversal *)
Lemma neg_lin : forall f, neg f = lin (- C1)%C C0 f f.
Proof. intros. apply same_eq. intros c i j k. unfold neg, lin. ring. Qed.
Lemma curl_neg : forall s dx o f c i j k, curl_fn (diff_fn s dx o) (neg f) c i j k = (- curl_fn (diff_fn s dx o) f c i j k)%C.
Proof. intros. rewrite neg_lin, curl_lin. ring. Qed.
Lemma current_opp : forall l c i j k, current src_e (map opposite l) c i j k = (- current src_e l c i j k)%C.
Proof.
  intros l c i j k. induction l as [| x l IH]; cbn [map current].
  - unfold zero_vfld. ring.
  - rewrite IH. unfold masked, opposite; cbn [src_e src_region]. destruct (src_e x); cbn [option_map];
      [destruct (src_region x c i j k) |]; ring.
Qed.
Lemma current_h_none : forall l c i j k, electric l -> current src_h l c i j k = C0.
Proof.
  intros l c i j k H. induction H; cbn [current]; [reflexivity |]. rewrite IHForall. unfold masked. rewrite H. ring.
Qed.
Lemma electric_opp : forall l, electric l -> electric (map opposite l).
Proof. intros l H. unfold electric in *. rewrite Forall_map. exact H. Qed.
Lemma step_e_val : forall g st l c i j k, f_e (step g false st l) c i j k =
  (f_e st c i j k + curl_h g (f_h st) c i j k / RtoC (eps_t g false c i j k) * RtoC (dt_of g) -
   current src_e l c i j k / RtoC (eps_t g false c i j k) * RtoC (dt_of g))%C.
Proof. intros. unfold step, step_e. cbn [f_e]. rewrite fold_src_e_np. reflexivity. Qed.
Lemma step_h_val : forall g st l c i j k, electric l -> f_h (step g false st l) c i j k =
  (f_h st c i j k - curl_e g (f_e (step g false st l)) c i j k * RtoC (dt_of g))%C.
Proof. intros. unfold step, step_h. cbn [f_e f_h]. rewrite fold_src_h_np, (current_h_none l) by auto. ring. Qed.
(** One step back. *)
Lemma back_e : forall g st h' l, electric l ->
  f_e (step g false (mkState (f_e (step g false (mkState (f_e st) h') l)) (neg h')) (map opposite l)) = f_e st.
Proof.
  intros g st h' l El. apply same_eq. intros c i j k. rewrite !step_e_val. cbn [f_e f_h]. rewrite current_opp.
  unfold curl_h. rewrite curl_neg. rewrite step_e_val. cbn [f_e f_h]. unfold Cdiv. unfold curl_h. ring.
Qed.
Lemma back_h : forall g st l h' e', electric l -> forall l', electric l' ->
  f_e (step g false (mkState e' (neg (f_h (step g false (mkState (f_e st) h') l)))) l') = f_e (step g false (mkState (f_e st) h') l) ->
  f_h (step g false (mkState e' (neg (f_h (step g false (mkState (f_e st) h') l)))) l') = neg h'.
Proof.
  intros g st l h' e' El l' El' H. apply same_eq. intros c i j k. rewrite step_h_val by auto. rewrite H. cbn [f_h]. unfold neg at 1.
  rewrite step_h_val by auto. cbn [f_h]. unfold neg. ring.
Qed.
Lemma run_snoc : forall g jax st l x, run g jax st (l ++ [x]) = step g jax (run g jax st l) x.
Proof. intros. rewrite run_app. reflexivity. Qed.
Lemma st_eta : forall st, mkState (f_e st) (f_h st) = st. Proof. intros [e h]. reflexivity. Qed.
Definition turned (g : fgrid) (st : fstate) (l : list (list source)) : fstate :=
  mkState (f_e (run g false st l)) (neg (f_h (run g false st (removelast l)))).
Lemma turned_step : forall g st l x, Forall electric l -> electric x ->
  f_e (step g false (turned g st (l ++ [x])) (map opposite x)) = f_e (run g false st l) /\
  (l <> [] -> step g false (turned g st (l ++ [x])) (map opposite x) = turned g st l).
Proof.
  intros g st l x Hl Hx.
  assert (E : f_e (step g false (turned g st (l ++ [x])) (map opposite x)) = f_e (run g false st l)).
  { unfold turned. rewrite removelast_last, run_snoc. set (m := run g false st l). rewrite <- (st_eta m) at 1. apply back_e; auto. }
  split; [exact E |]. intro Hne.
  assert (Hm : f_h (step g false (turned g st (l ++ [x])) (map opposite x)) = neg (f_h (run g false st (removelast l)))).
  { destruct (exists_last Hne) as (l0 & y & ->). rewrite removelast_last.
    apply Forall_app in Hl as (Hl0 & Hy). inversion Hy as [| ? ? Hy' _ ]; subst.
    revert E. unfold turned. rewrite removelast_last. rewrite (run_snoc g false st l0 y).
    set (m := run g false st l0). rewrite <- (st_eta m). cbn [f_h].
    change (mkState (f_e m) (f_h m)) with (mkState (f_e m) (f_h m)).
    intro E. apply (back_h g m y (f_h m) _ Hy' (map opposite x)); [apply electric_opp; auto | exact E]. }
  rewrite <- (st_eta (step _ _ _ _)). rewrite E, Hm. reflexivity.
Qed.
Lemma reversal : forall g st l1 l2, Forall electric (l1 ++ l2) -> l1 ++ l2 <> [] ->
  let back := run g false (mkState (f_e (run g false st (l1 ++ l2))) (neg (f_h (run g false st (removelast (l1 ++ l2))))))
                (map (map opposite) (rev l2)) in
  f_e back = f_e (run g false st l1) /\ (l1 <> [] -> f_h back = neg (f_h (run g false st (removelast l1)))).
Proof.
  intros g st l1 l2. revert l1. induction l2 as [| x l2 IH]; intros l1 H Hne.
  - cbn [rev map run f_e f_h]. rewrite app_nil_r. split; auto.
  - intro back. unfold back. clear back. cbn [rev]. rewrite map_app. cbn [map].
    replace (l1 ++ x :: l2) with ((l1 ++ [x]) ++ l2) in * by (rewrite <- app_assoc; reflexivity).
    specialize (IH (l1 ++ [x]) H Hne). cbn zeta in IH. destruct IH as (IE & IHh).
    specialize (IHh ltac:(destruct l1; discriminate)).
    rewrite run_snoc. set (b1 := run g false _ (map (map opposite) (rev l2))) in *.
    assert (Eb : b1 = turned g st (l1 ++ [x])). { rewrite <- (st_eta b1). rewrite IE, IHh. reflexivity. }
    rewrite Eb. apply Forall_app in H as (H & _). apply Forall_app in H as (H1 & Hx). inversion Hx; subst.
    destruct (turned_step g st l1 x H1 ltac:(auto)) as (A & B). split; [exact A |]. intro N. rewrite (B N). reflexivity.
Qed.
Lemma repeat_removelast : forall (n : nat), removelast (repeat (@nil source) n) = repeat [] (n - 1).
Proof.
  intros [| n]; [reflexivity |]. replace (S n - 1)%nat with n by lia. cbn [repeat]. rewrite repeat_cons, removelast_last. reflexivity.
Qed.
Lemma rev_repeat : forall (T : Type) (x : T) n, rev (repeat x n) = repeat x n.
Proof. intros T x n. induction n; [reflexivity |]. cbn [repeat rev]. rewrite IHn. symmetry. apply repeat_cons. Qed.
Lemma map_rep : forall (T U : Type) (f : T -> U) x n, map f (repeat x n) = repeat (f x) n.
Proof. intros. induction n; cbn [repeat map]; congruence. Qed.
Lemma reversal_free : forall g jax st n k, (k <= n)%nat -> (0 < n)%nat ->
  let back := free_run g jax (mkState (f_e (free_run g jax st n)) (neg (f_h (free_run g jax st (n - 1))))) k in
  f_e back = f_e (free_run g jax st (n - k)) /\ ((k < n)%nat -> f_h back = neg (f_h (free_run g jax st (n - k - 1)))).
Proof.
  intros g jax st n k Hk Hn back.
  assert (J : forall st n, free_run g jax st n = free_run g false st n). { intros. destruct jax; [apply free_run_jax | reflexivity]. }
  unfold back. rewrite !J. clear J back.
  pose proof (reversal g st (repeat [] (n - k)) (repeat [] k)) as H.
  rewrite <- repeat_app in H. replace (n - k + k)%nat with n in H by lia.
  assert (F : Forall electric (repeat [] n)). { apply Forall_forall. intros x Hx. apply repeat_spec in Hx. subst. constructor. }
  specialize (H F). assert (N : repeat (@nil source) n <> []) by (destruct n; [lia | discriminate]). specialize (H N). cbn zeta in H.
  rewrite rev_repeat, map_rep, !repeat_removelast in H. cbn [map] in H. destruct H as (A & B). split; [exact A |].
  intro L. apply B. destruct (n - k)%nat eqn:E; [lia | discriminate].
Qed.

(** ** A common frame for translations and mirror images *)
Section Equivariant.
Variables (g g' : fgrid) (jax : bool) (me mh : vfld -> vfld) (ms : source -> source) (ok : source -> Prop).
Hypothesis Hcurl_h : forall h c i j k, curl_h g' (mh h) c i j k = me (curl_h g h) c i j k.
Hypothesis Hcurl_e : forall e c i j k, curl_e g' (me e) c i j k = mh (curl_e g e) c i j k.
Hypothesis Hstep_e : forall e v c i j k, (me e c i j k + me v c i j k / RtoC (eps_t g' jax c i j k) * RtoC (dt_of g'))%C =
  me (fun c i j k => e c i j k + v c i j k / RtoC (eps_t g jax c i j k) * RtoC (dt_of g))%C c i j k.
Hypothesis Hstep_h : forall h v c i j k, (mh h c i j k - mh v c i j k * RtoC (dt_of g'))%C =
  mh (fun c i j k => h c i j k - v c i j k * RtoC (dt_of g))%C c i j k.
Hypothesis Hsrc_e : forall x e c i j k, ok x -> add_src_e g' jax (me e) (ms x) c i j k = me (add_src_e g jax e x) c i j k.
Hypothesis Hsrc_h : forall x h c i j k, ok x -> add_src_h g' jax (mh h) (ms x) c i j k = mh (add_src_h g jax h x) c i j k.
Definition mst (st : fstate) : fstate := mkState (me (f_e st)) (mh (f_h st)).

Lemma equi_fold_e : forall l e, Forall ok l -> fold_left (add_src_e g' jax) (map ms l) (me e) = me (fold_left (add_src_e g jax) l e).
Proof.
  induction l as [| x l IH]; intros e H; cbn [map fold_left]; [reflexivity |]. inversion H; subst.
  rewrite (same_eq (add_src_e g' jax (me e) (ms x)) (me (add_src_e g jax e x))) by (intros c i j k; apply Hsrc_e; auto). apply IH; auto.
Qed.
Lemma equi_fold_h : forall l e, Forall ok l -> fold_left (add_src_h g' jax) (map ms l) (mh e) = mh (fold_left (add_src_h g jax) l e).
Proof.
  induction l as [| x l IH]; intros e H; cbn [map fold_left]; [reflexivity |]. inversion H; subst.
  rewrite (same_eq (add_src_h g' jax (mh e) (ms x)) (mh (add_src_h g jax e x))) by (intros c i j k; apply Hsrc_h; auto). apply IH; auto.
Qed.
Lemma equi_step_e : forall st l, Forall ok l -> step_e g' jax (mst st) (map ms l) = me (step_e g jax st l).
Proof.
  intros st l H. unfold step_e. rewrite <- equi_fold_e by auto. f_equal. apply same_eq. intros c i j k. unfold mst. cbn [f_e f_h].
  rewrite Hcurl_h. apply Hstep_e.
Qed.
Lemma equi_step : forall st l, Forall ok l -> step g' jax (mst st) (map ms l) = mst (step g jax st l).
Proof.
  intros st l H. unfold step. rewrite equi_step_e by auto. unfold mst at 2. cbn [f_e f_h]. f_equal.
  unfold step_h. rewrite <- equi_fold_h by auto. f_equal. apply same_eq. intros c i j k. unfold mst. cbn [f_h].
  rewrite Hcurl_e. apply Hstep_h.
Qed.
Lemma equi_run : forall sch st, Forall (Forall ok) sch -> run g' jax (mst st) (map (map ms) sch) = mst (run g jax st sch).
Proof.
  induction sch as [| l sch IH]; intros st H; cbn [map run]; [reflexivity |]. inversion H; subst. rewrite equi_step by auto. apply IH; auto.
Qed.
End Equivariant.
