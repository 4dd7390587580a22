(** Proofs about Model_mode: the waveguide operator and the mode fields. *)
From Coq Require Import Reals List Arith ZArith Lra Lia Bool.
From Verif Require Import Cx Arr Model_coupling Model_yee Spec_yee Proof_yee Proof_yee2 Proof_yee3 Model_fdfd Spec_fdfd Proof_fdfd Proof_fdfd2 Model_grid Model_mode Spec_mode.
Local Open Scope R_scope.

Lemma Cmul_cancel' : forall c a b, c <> C0 -> (c * a)%C = (c * b)%C -> a = b.
Proof.
  intros c a b Hc H. replace a with (Cinv c * (c * a))%C by (field; auto). rewrite H. field; auto.
Qed.
Lemma Cinv_Ci : Cinv Ci = (- Ci)%C.
Proof. apply C_eq; unfold Cinv, Ci, Copp, Cn2; cbn; lra. Qed.

Section TwoD.
Variable q : mode_solver.
Notation s := (q_shape q).
Notation F a f := (diff_fn (q_shape q) (q_dx q) false f a).
Notation B a f := (diff_fn (q_shape q) (q_dx q) true f a).
Notation E c := (q_eps_t q c).

Lemma q_deriv : forall o a v i j k, in_grid s i j k ->
  matvec (q_n q) (deriv s (q_dx q) (fun _ => C1) o a) v (ridx s i j k) = diff_fn s (q_dx q) o (unravel s v) a i j k.
Proof. intros. unfold q_n. rewrite deriv_unravel by auto. apply quot_diff; auto. Qed.
Lemma q_deriv2 : forall o o' a b v i j k, in_grid s i j k ->
  matvec (q_n q) (matmul (q_n q) (deriv s (q_dx q) (fun _ => C1) o a) (deriv s (q_dx q) (fun _ => C1) o' b)) v (ridx s i j k) =
  diff_fn s (q_dx q) o (diff_fn s (q_dx q) o' (unravel s v) b) a i j k.
Proof.
  intros. rewrite matvec_matmul, q_deriv by auto. apply diff_ext; auto. intros. unfold unravel at 1. apply q_deriv; auto.
Qed.

(** The operators [-df_y, df_x] and [-db_y, db_x] on functions. *)
Definition PL (r : axis) (f : fld) : fld := fun i j k => match r with AX => (- F AY f i j k)%C | _ => F AX f i j k end.
Definition PR (c : axis) (f : fld) : fld := fun i j k => match c with AX => (- B AY f i j k)%C | _ => B AX f i j k end.
Lemma m2_left_apply : forall r v i j k, in_grid s i j k -> matvec (q_n q) (m2_left q r) v (ridx s i j k) = PL r (unravel s v) i j k.
Proof.
  intros r v i j k H. unfold m2_left, PL, q_df. destruct r.
  - rewrite matvec_opp, q_deriv by auto. reflexivity.
  - rewrite <- q_deriv by auto. reflexivity.
  - rewrite <- q_deriv by auto. reflexivity.
Qed.
Lemma m2_right_apply : forall r v i j k, in_grid s i j k -> matvec (q_n q) (m2_right q r) v (ridx s i j k) = PR r (unravel s v) i j k.
Proof.
  intros r v i j k H. unfold m2_right, PR, q_db. destruct r.
  - rewrite matvec_opp, q_deriv by auto. reflexivity.
  - rewrite <- q_deriv by auto. reflexivity.
  - rewrite <- q_deriv by auto. reflexivity.
Qed.
Lemma PL_ext : forall r f g i j k, (forall i j k, in_grid s i j k -> f i j k = g i j k) -> in_grid s i j k -> PL r f i j k = PL r g i j k.
Proof. intros. unfold PL. destruct r; rewrite (diff_ext s (q_dx q) false f g) by auto; reflexivity. Qed.
Lemma wg_apply : forall r c v i j k, in_grid s i j k ->
  matvec (q_n q) (wg_matrix q r c) v (ridx s i j k) =
  ((if axis_eqb r c then RtoC (q_k0 q * q_k0 q) * (RtoC (eps_10 q r i j k) * unravel s v i j k) else C0)
   + RtoC (eps_10 q r i j k) * PL r (fun i j k => RtoC (inv_eps (E AZ) i j k) * PR c (unravel s v) i j k) i j k
   + diff_fn s (q_dx q) true (diff_fn s (q_dx q) false (unravel s v) c) r i j k)%C.
Proof.
  intros r c v i j k H. unfold wg_matrix. rewrite !matvec_add_m. unfold q_db at 1, q_df at 1. f_equal; [f_equal |].
  - destruct (axis_eqb r c).
    + rewrite matvec_scal_m. fold (matvec (q_n q)). unfold q_n. f_equal. apply diagm_apply; auto.
    + apply matvec_zero.
  - transitivity (matvec (q_n q) (diagm s (eps_10 q r)) (matvec (q_n q) (m2_left q r) (matvec (q_n q) (diagm s (inv_eps (E AZ))) (matvec (q_n q) (m2_right q c) v))) (ridx s i j k)).
    + transitivity (matvec (q_n q) (matmul (q_n q) (matmul (q_n q) (matmul (q_n q) (diagm s (eps_10 q r)) (m2_left q r)) (diagm s (inv_eps (E AZ)))) (m2_right q c)) v (ridx s i j k)); [reflexivity |].
      rewrite !matvec_matmul. reflexivity.
    + unfold q_n at 1. rewrite diagm_apply by auto. f_equal. rewrite m2_left_apply by auto. apply PL_ext; auto.
      intros x y z Hx. unfold unravel at 1, q_n at 1. rewrite diagm_apply by auto. f_equal. apply m2_right_apply; auto.
  - apply q_deriv2; auto.
Qed.


Lemma curl_kz : forall (o : bool) beta v c i j k, in_grid s i j k ->
  curl_of (with_kz (if o then bwd s (q_dx q) else fwd s (q_dx q)) (- (Ci * RtoC beta))%C) v c i j k = curl_beta_fn (diff_fn s (q_dx q) o) beta v c i j k.
Proof.
  intros o beta v c i j k H. unfold curl_of, curl_beta_fn, with_kz. destruct o, c; rewrite ?diff_fwd, ?diff_bwd by auto; ring.
Qed.
Lemma curl_beta_ext : forall o beta u v c i j k, (forall c i j k, in_grid s i j k -> u c i j k = v c i j k) -> in_grid s i j k ->
  curl_beta_fn (diff_fn s (q_dx q) o) beta u c i j k = curl_beta_fn (diff_fn s (q_dx q) o) beta v c i j k.
Proof.
  intros o beta u v c i j k Hu H. unfold curl_beta_fn.
  destruct c; rewrite ?(diff_ext s (q_dx q) o (u AX) (v AX)), ?(diff_ext s (q_dx q) o (u AY) (v AY)), ?(diff_ext s (q_dx q) o (u AZ) (v AZ)) by auto;
  rewrite ?(Hu AX), ?(Hu AY) by auto; reflexivity.
Qed.
(** The transverse field of longitudinal magnetic field hz. *)
Definition Wf (h : vfld) : fld := fun i j k => (RtoC (inv_eps (E AZ) i j k) * (- B AY (h AX) i j k + B AX (h AY) i j k))%C.
Definition rows (beta : R) (h : vfld) : Prop := forall i j k, in_grid s i j k ->
  (RtoC (q_k0 q * q_k0 q) * RtoC (E AY i j k) * h AX i j k - RtoC (E AY i j k) * F AY (Wf h) i j k
     + (B AX (F AX (h AX)) i j k + B AX (F AY (h AY)) i j k))%C = (RtoC (beta * beta) * h AX i j k)%C /\
  (RtoC (q_k0 q * q_k0 q) * RtoC (E AX i j k) * h AY i j k + RtoC (E AX i j k) * F AX (Wf h) i j k
     + (B AY (F AX (h AX)) i j k + B AY (F AY (h AY)) i j k))%C = (RtoC (beta * beta) * h AY i j k)%C.
Definition hz_ok (beta : R) (h : vfld) : Prop := forall i j k, in_grid s i j k ->
  h AZ i j k = ((F AX (h AX) i j k + F AY (h AY) i j k) / (Ci * RtoC beta))%C.
Definition eps_nz : Prop := forall c i j k, in_grid s i j k -> E c i j k <> 0.

Lemma ci_nz : forall x, x <> 0 -> (Ci * RtoC x)%C <> C0.
Proof. intros x H Hx. apply (f_equal im) in Hx. cbn in Hx. lra. Qed.
Lemma ez_W : forall beta h i j k, q_k0 q <> 0 -> eps_nz -> in_grid s i j k ->
  mode_e q beta h AZ i j k = (Cinv (Ci * RtoC (q_k0 q)) * Wf h i j k)%C.
Proof.
  intros beta h i j k Hk He H. unfold mode_e, curl_beta_fn, Wf, inv_eps. pose proof (He AZ i j k H) as Hz.
  replace (1 / E AZ i j k) with (/ E AZ i j k) by (field; auto). rewrite RtoC_inv by auto.
  field. repeat split; auto using ci_nz, RtoC_neq0. intro E0. apply (f_equal im) in E0. cbn in E0. lra.
Qed.
Lemma b_hz : forall beta h a i j k, hz_ok beta h -> in_grid s i j k ->
  B a (h AZ) i j k = (Cinv (Ci * RtoC beta) * (B a (F AX (h AX)) i j k + B a (F AY (h AY)) i j k))%C.
Proof.
  intros beta h a i j k Hz H.
  rewrite (diff_ext s (q_dx q) true (h AZ) (fun i j k => Cinv (Ci * RtoC beta) * (F AX (h AX) i j k + F AY (h AY) i j k))%C a i j k); [| | exact H].
  - rewrite (diff_scal s (q_dx q) true (Cinv (Ci * RtoC beta)) (fun i j k => F AX (h AX) i j k + F AY (h AY) i j k)%C a i j k).
    rewrite (diff_add s (q_dx q) true (F AX (h AX)) (F AY (h AY)) a i j k). reflexivity.
  - intros. rewrite Hz by auto. unfold Cdiv. ring.
Qed.

Lemma mode_x : forall beta h i j k, q_k0 q <> 0 -> beta <> 0 -> eps_nz -> rows beta h -> hz_ok beta h -> in_grid s i j k ->
  curl_beta_fn (diff_fn s (q_dx q) false) beta (mode_e q beta h) AX i j k = (- (Ci * RtoC (q_k0 q) * h AX i j k))%C.
Proof.
  intros beta h i j k Hk Hb He Hr Hz H. unfold curl_beta_fn at 1.
  rewrite (diff_ext s (q_dx q) false (mode_e q beta h AZ) (fun i j k => Cinv (Ci * RtoC (q_k0 q)) * Wf h i j k)%C AY i j k);
    [| intros; apply ez_W; auto | exact H].
  rewrite (diff_scal s (q_dx q) false). unfold mode_e, curl_beta_fn. rewrite b_hz with (beta := beta) by auto.
  destruct (Hr i j k H) as [R1 _]. pose proof (He AY i j k H) as Hy.
  set (S1 := (B AX (F AX (h AX)) i j k + B AX (F AY (h AY)) i j k)%C) in *. set (W := F AY (Wf h) i j k) in *.
  set (x := h AX i j k) in *. set (ey := RtoC (E AY i j k)) in *.
  assert (S1e : S1 = (RtoC (beta * beta) * x - RtoC (q_k0 q * q_k0 q) * ey * x + ey * W)%C) by (rewrite <- R1; ring).
  rewrite S1e. rewrite !RtoC_mul.
  assert (ey <> C0) by (apply RtoC_neq0; auto). assert (RtoC (q_k0 q) <> C0) by (apply RtoC_neq0; auto). assert (RtoC beta <> C0) by (apply RtoC_neq0; auto).
  assert (Hci : Ci <> C0) by (intro E0; apply (f_equal im) in E0; cbn in E0; lra).
  set (K := RtoC (q_k0 q)) in *. set (b := RtoC beta) in *.
  assert (I2 : (Ci * Ci)%C = (- C1)%C) by apply Ci_sq.
  replace (Cinv (Ci * K) * W + Ci * b * ((- (Ci * b) * x - Cinv (Ci * b) * (b * b * x - K * K * ey * x + ey * W)) / (Ci * K * ey)))%C
    with ((- ((Ci * Ci) * (b * b) * x) - b * b * x + K * K * ey * x) / (Ci * K * ey))%C by (field; auto).
  rewrite I2. replace ((- (- C1 * (b * b) * x) - b * b * x + K * K * ey * x) / (Ci * K * ey))%C with (Cinv Ci * (K * x))%C by (field; auto).
  rewrite Cinv_Ci. ring.
Qed.
Lemma mode_y : forall beta h i j k, q_k0 q <> 0 -> beta <> 0 -> eps_nz -> rows beta h -> hz_ok beta h -> in_grid s i j k ->
  curl_beta_fn (diff_fn s (q_dx q) false) beta (mode_e q beta h) AY i j k = (- (Ci * RtoC (q_k0 q) * h AY i j k))%C.
Proof.
  intros beta h i j k Hk Hb He Hr Hz H. unfold curl_beta_fn at 1.
  rewrite (diff_ext s (q_dx q) false (mode_e q beta h AZ) (fun i j k => Cinv (Ci * RtoC (q_k0 q)) * Wf h i j k)%C AX i j k);
    [| intros; apply ez_W; auto | exact H].
  rewrite (diff_scal s (q_dx q) false). unfold mode_e, curl_beta_fn. rewrite b_hz with (beta := beta) by auto.
  destruct (Hr i j k H) as [_ R1]. pose proof (He AX i j k H) as Hy.
  set (S1 := (B AY (F AX (h AX)) i j k + B AY (F AY (h AY)) i j k)%C) in *. set (W := F AX (Wf h) i j k) in *.
  set (x := h AY i j k) in *. set (ey := RtoC (E AX i j k)) in *.
  assert (S1e : S1 = (RtoC (beta * beta) * x - RtoC (q_k0 q * q_k0 q) * ey * x - ey * W)%C) by (rewrite <- R1; ring).
  rewrite S1e. rewrite !RtoC_mul.
  assert (ey <> C0) by (apply RtoC_neq0; auto). assert (RtoC (q_k0 q) <> C0) by (apply RtoC_neq0; auto). assert (RtoC beta <> C0) by (apply RtoC_neq0; auto).
  assert (Hci : Ci <> C0) by (intro E0; apply (f_equal im) in E0; cbn in E0; lra).
  set (K := RtoC (q_k0 q)) in *. set (b := RtoC beta) in *.
  assert (I2 : (Ci * Ci)%C = (- C1)%C) by apply Ci_sq.
  replace (- (Ci * b) * ((Cinv (Ci * b) * (b * b * x - K * K * ey * x - ey * W) + Ci * b * x) / (Ci * K * ey)) - Cinv (Ci * K) * W)%C
    with ((- ((Ci * Ci) * (b * b) * x) - b * b * x + K * K * ey * x) / (Ci * K * ey))%C by (field; auto).
  rewrite I2. replace ((- (- C1 * (b * b) * x) - b * b * x + K * K * ey * x) / (Ci * K * ey))%C with (Cinv Ci * (K * x))%C by (field; auto).
  rewrite Cinv_Ci. ring.
Qed.
Lemma mode_z : forall beta h i j k, q_k0 q <> 0 -> beta <> 0 -> eps_nz -> rows beta h -> hz_ok beta h -> in_grid s i j k ->
  curl_beta_fn (diff_fn s (q_dx q) false) beta (mode_e q beta h) AZ i j k = (- (Ci * RtoC (q_k0 q) * h AZ i j k))%C.
Proof.
  intros beta h i j k Hk Hb He Hr Hz H.
  pose proof (div_curl_beta s (q_dx q) false beta (mode_e q beta h) i j k) as D. cbv zeta in D.
  set (c := curl_beta_fn (diff_fn s (q_dx q) false) beta (mode_e q beta h)) in *.
  rewrite (diff_ext s (q_dx q) false (c AX) (fun i j k => - (Ci * RtoC (q_k0 q)) * h AX i j k)%C AX i j k) in D;
    [| intros; unfold c; rewrite mode_x by auto; ring | exact H].
  rewrite (diff_ext s (q_dx q) false (c AY) (fun i j k => - (Ci * RtoC (q_k0 q)) * h AY i j k)%C AY i j k) in D;
    [| intros; unfold c; rewrite mode_y by auto; ring | exact H].
  rewrite !(diff_scal s (q_dx q) false) in D. rewrite (Hz i j k H).
  assert (Hcb : (Ci * RtoC beta)%C <> C0) by (apply ci_nz; auto).
  apply (Cmul_cancel' (Ci * RtoC beta)%C); auto.
  transitivity (- (Ci * RtoC (q_k0 q)) * (F AX (h AX) i j k + F AY (h AY) i j k))%C.
  - transitivity (- (Ci * RtoC (q_k0 q)) * F AX (h AX) i j k + - (Ci * RtoC (q_k0 q)) * F AY (h AY) i j k - C0)%C; [rewrite <- D |]; ring.
  - field. split; [apply RtoC_neq0; auto | intro E0; apply (f_equal im) in E0; cbn in E0; lra].
Qed.

(** From eigenvectors to the row equations. *)
Lemma avg_pos : forall a p, (forall i j k, in_grid s i j k -> 0 < p i j k) -> forall i j k, in_grid s i j k -> 0 < avg_axis s a p i j k.
Proof.
  intros a p Hp i j k H. unfold avg_axis. pose proof (Hp i j k H). assert (0 < ralong a (prv (s a)) p i j k); [| lra].
  destruct H as (Hi & Hj & Hk). unfold ralong. destruct a; apply Hp; repeat split; auto; apply prv_bound; auto.
Qed.
Lemma eps_t_pos : pos_eps q -> forall c i j k, in_grid s i j k -> 0 < E c i j k.
Proof. intros Hp c i j k H. unfold q_eps_t, yee_avg. destruct c; repeat (apply avg_pos; auto; intros). Qed.
Lemma eps_t_nz : pos_eps q -> eps_nz.
Proof. intros Hp c i j k H. pose proof (eps_t_pos Hp c i j k H). lra. Qed.

Lemma wg_row_x : forall (U V : vec) i j k, in_grid s i j k ->
  (matvec (q_n q) (wg_matrix q AX AX) U (ridx s i j k) + matvec (q_n q) (wg_matrix q AX AY) V (ridx s i j k))%C =
  (let h : vfld := fun c => match c with AX => unravel s U | _ => unravel s V end in
   RtoC (q_k0 q * q_k0 q) * RtoC (E AY i j k) * h AX i j k - RtoC (E AY i j k) * F AY (Wf h) i j k
     + (B AX (F AX (h AX)) i j k + B AX (F AY (h AY)) i j k))%C.
Proof.
  intros U V i j k H. rewrite !wg_apply by auto. cbn [axis_eqb eps_10]. cbv zeta. unfold PL.
  rewrite (diff_ext s (q_dx q) false (Wf _) (fun i j k => RtoC (inv_eps (E AZ) i j k) * PR AX (unravel s U) i j k + RtoC (inv_eps (E AZ) i j k) * PR AY (unravel s V) i j k)%C AY i j k);
    [| intros; unfold Wf, PR; ring | exact H].
  rewrite (diff_add s (q_dx q) false). ring.
Qed.
Lemma wg_row_y : forall (U V : vec) i j k, in_grid s i j k ->
  (matvec (q_n q) (wg_matrix q AY AX) U (ridx s i j k) + matvec (q_n q) (wg_matrix q AY AY) V (ridx s i j k))%C =
  (let h : vfld := fun c => match c with AX => unravel s U | _ => unravel s V end in
   RtoC (q_k0 q * q_k0 q) * RtoC (E AX i j k) * h AY i j k + RtoC (E AX i j k) * F AX (Wf h) i j k
     + (B AY (F AX (h AX)) i j k + B AY (F AY (h AY)) i j k))%C.
Proof.
  intros U V i j k H. rewrite !wg_apply by auto. cbn [axis_eqb eps_10]. cbv zeta. unfold PL.
  rewrite (diff_ext s (q_dx q) false (Wf _) (fun i j k => RtoC (inv_eps (E AZ) i j k) * PR AX (unravel s U) i j k + RtoC (inv_eps (E AZ) i j k) * PR AY (unravel s V) i j k)%C AX i j k);
    [| intros; unfold Wf, PR; ring | exact H].
  rewrite (diff_add s (q_dx q) false). ring.
Qed.

(** Scaling a mode. *)
Lemma Wf_ext : forall u v i j k, (forall c i j k, in_grid s i j k -> u c i j k = v c i j k) -> in_grid s i j k -> Wf u i j k = Wf v i j k.
Proof.
  intros u v i j k Hu H. unfold Wf. rewrite (diff_ext s (q_dx q) true (u AX) (v AX)) by auto. rewrite (diff_ext s (q_dx q) true (u AY) (v AY)) by auto. reflexivity.
Qed.
Lemma Wf_scal : forall p u i j k, Wf (fun c i j k => p * u c i j k)%C i j k = (p * Wf u i j k)%C.
Proof. intros. unfold Wf. rewrite !(diff_scal s (q_dx q) true p (u _)). ring. Qed.
Lemma diff2_ext : forall o o' a b f g i j k, (forall i j k, in_grid s i j k -> f i j k = g i j k) -> in_grid s i j k ->
  diff_fn s (q_dx q) o (diff_fn s (q_dx q) o' f a) b i j k = diff_fn s (q_dx q) o (diff_fn s (q_dx q) o' g a) b i j k.
Proof. intros. apply diff_ext; auto. intros. apply diff_ext; auto. Qed.
Lemma diff2_scal : forall o o' a b p f i j k,
  diff_fn s (q_dx q) o (diff_fn s (q_dx q) o' (fun i j k => p * f i j k)%C a) b i j k = (p * diff_fn s (q_dx q) o (diff_fn s (q_dx q) o' f a) b i j k)%C.
Proof.
  intros. rewrite <- (diff_scal s (q_dx q) o p). unfold diff_fn at 1 3. unfold roll_m1, roll_p1, along, Cdiv.
  assert (Es : forall i j k, diff_fn s (q_dx q) o' (fun i j k => p * f i j k)%C a i j k = (p * diff_fn s (q_dx q) o' f a i j k)%C) by (intros; apply diff_scal).
  destruct o, b; rewrite !Es; ring.
Qed.
Lemma rows_scal : forall p beta u v, rows beta u -> (forall c i j k, in_grid s i j k -> c <> AZ -> v c i j k = (p * u c i j k)%C) -> rows beta v.
Proof.
  intros p beta u v Hu Hv i j k H. destruct (Hu i j k H) as [R1 R2].
  assert (EW : forall a, F a (Wf v) i j k = (p * F a (Wf u) i j k)%C).
  { intros a. rewrite <- (diff_scal s (q_dx q) false p (Wf u)). apply diff_ext; auto. intros x y z Hx. rewrite <- Wf_scal.
    unfold Wf. rewrite (diff_ext s (q_dx q) true (v AX) (fun i j k => p * u AX i j k)%C) by (auto; intros; apply Hv; auto; discriminate).
    rewrite (diff_ext s (q_dx q) true (v AY) (fun i j k => p * u AY i j k)%C) by (auto; intros; apply Hv; auto; discriminate). reflexivity. }
  assert (ED : forall a b c, c <> AZ -> B b (F a (v c)) i j k = (p * B b (F a (u c)) i j k)%C).
  { intros a b c Hc. rewrite <- diff2_scal. apply diff2_ext; auto. }
  rewrite !EW, !ED by discriminate. rewrite !Hv by (auto; discriminate). split.
  - transitivity (p * (RtoC (beta * beta) * u AX i j k))%C; [rewrite <- R1 |]; ring.
  - transitivity (p * (RtoC (beta * beta) * u AY i j k))%C; [rewrite <- R2 |]; ring.
Qed.

Lemma eigen_rows : forall beta U V, eigen2 q (RtoC (beta * beta)) U V -> rows beta (fun c => match c with AX => unravel s U | _ => unravel s V end).
Proof.
  intros beta U V He i j k H. destruct (He (ridx s i j k) (ridx_bound s i j k H)) as [R1 R2].
  rewrite wg_row_x in R1 by auto. rewrite wg_row_y in R2 by auto. split; [exact R1 | exact R2].
Qed.
Lemma mode_h_rows : forall beta U V, eigen2 q (RtoC (beta * beta)) U V -> rows beta (mode_h q beta U V).
Proof.
  intros beta U V He. apply (rows_scal (cis (- Carg (U 0%nat))) beta (fun c => match c with AX => unravel s U | _ => unravel s V end)).
  - apply eigen_rows; auto.
  - intros c i j k H Hc. unfold mode_h, unravel_f, unravel. destruct c; [ring | ring | congruence].
Qed.
Lemma mode_h_hz : forall beta U V, hz_ok beta (mode_h q beta U V).
Proof.
  intros beta U V i j k H. unfold mode_h at 1, unravel_f. set (p := cis (- Carg (U 0%nat))). unfold q_df. rewrite !q_deriv by auto.
  rewrite (diff_ext s (q_dx q) false (mode_h q beta U V AX) (fun i j k => p * unravel s U i j k)%C AX i j k);
    [| intros; unfold mode_h, unravel_f, unravel; fold p; ring | exact H].
  rewrite (diff_ext s (q_dx q) false (mode_h q beta U V AY) (fun i j k => p * unravel s V i j k)%C AY i j k);
    [| intros; unfold mode_h, unravel_f, unravel; fold p; ring | exact H].
  rewrite !(diff_scal s (q_dx q) false). unfold Cdiv. ring.
Qed.

Lemma modes_maxwell : forall beta U V, q_k0 q <> 0 -> beta <> 0 -> pos_eps q -> eigen2 q (RtoC (beta * beta)) U V ->
  let h := mode_h q beta U V in let e := mode_e q beta h in
  maxwell_mode s (fwd s (q_dx q)) (bwd s (q_dx q)) (- (Ci * RtoC beta))%C (q_k0 q) (q_eps_t q) e h /\
  div_free s (fwd s (q_dx q)) (- (Ci * RtoC beta))%C h.
Proof.
  intros beta U V Hk Hb Hp He h e.
  assert (Hr : rows beta h) by (apply mode_h_rows; auto). assert (Hz : hz_ok beta h) by (apply mode_h_hz).
  pose proof (eps_t_nz Hp) as Hn. split; [split |].
  - intros c i j k H. rewrite (curl_kz false) by auto. destruct c; [apply mode_x | apply mode_y | apply mode_z]; auto.
  - intros c i j k H. rewrite (curl_kz true) by auto. unfold e, mode_e.
    field. repeat split; try (apply RtoC_neq0; auto). intro E0. apply (f_equal im) in E0. cbn in E0. lra.
  - intros i j k H. unfold divergence, with_kz. rewrite <- !diff_fwd by auto. rewrite (Hz i j k H).
    field. split; [apply RtoC_neq0; auto |]. intro E0. apply (f_equal im) in E0. cbn in E0. lra.
Qed.

(** Every Maxwell mode is an eigenvector. *)
Lemma maxwell_eigen : forall beta e h, q_k0 q <> 0 -> pos_eps q ->
  maxwell_mode s (fwd s (q_dx q)) (bwd s (q_dx q)) (- (Ci * RtoC beta))%C (q_k0 q) (q_eps_t q) e h ->
  eigen2 q (RtoC (beta * beta)) (ravel s (h AX)) (ravel s (h AY)).
Proof.
  intros beta e h Hk Hp [HF HA] r Hr. unfold q_n in Hr. destruct (ridx_inv s r Hr) as (i & j & k & H & ->).
  pose proof (eps_t_nz Hp) as Hn.
  assert (HF' : forall c i j k, in_grid s i j k -> curl_beta_fn (diff_fn s (q_dx q) false) beta e c i j k = (- (Ci * RtoC (q_k0 q) * h c i j k))%C).
  { intros c x y z Hx. rewrite <- (curl_kz false) by auto. apply HF; auto. }
  assert (HA' : forall c i j k, in_grid s i j k -> e c i j k = mode_e q beta h c i j k).
  { intros c x y z Hx. unfold mode_e. rewrite <- (curl_kz true) by auto. rewrite HA by auto.
    field. repeat split; try (apply RtoC_neq0; auto). intro E0. apply (f_equal im) in E0. cbn in E0. lra. }
  (* divergence of h *)
  assert (Hd : forall i j k, in_grid s i j k -> (Ci * RtoC beta * h AZ i j k)%C = (F AX (h AX) i j k + F AY (h AY) i j k)%C).
  { intros x y z Hx. pose proof (div_curl_beta s (q_dx q) false beta e x y z) as D. cbv zeta in D.
    set (c := curl_beta_fn (diff_fn s (q_dx q) false) beta e) in *.
    rewrite (diff_ext s (q_dx q) false (c AX) (fun i j k => - (Ci * RtoC (q_k0 q)) * h AX i j k)%C AX x y z) in D;
      [| intros; unfold c; rewrite HF' by auto; ring | exact Hx].
    rewrite (diff_ext s (q_dx q) false (c AY) (fun i j k => - (Ci * RtoC (q_k0 q)) * h AY i j k)%C AY x y z) in D;
      [| intros; unfold c; rewrite HF' by auto; ring | exact Hx].
    rewrite !(diff_scal s (q_dx q) false) in D. unfold c in D. rewrite HF' in D by auto.
    apply (Cmul_cancel' (Ci * RtoC (q_k0 q))%C); [apply ci_nz; auto |].
    transitivity (Ci * RtoC (q_k0 q) * (F AX (h AX) x y z + F AY (h AY) x y z) + C0)%C; [rewrite <- D |]; ring. }
  assert (Hb : forall a i j k, in_grid s i j k -> (Ci * RtoC beta * B a (h AZ) i j k)%C = (B a (F AX (h AX)) i j k + B a (F AY (h AY)) i j k)%C).
  { intros a x y z Hx. rewrite <- (diff_scal s (q_dx q) true), <- (diff_add s (q_dx q) true). apply diff_ext; auto. }
  assert (Hw : forall a i j k, in_grid s i j k -> F a (e AZ) i j k = (Cinv (Ci * RtoC (q_k0 q)) * F a (Wf h) i j k)%C).
  { intros a x y z Hx. rewrite <- (diff_scal s (q_dx q) false). apply diff_ext; auto. intros. rewrite HA' by auto. apply ez_W; auto. }
  rewrite wg_row_x, wg_row_y by auto. cbv zeta.
  set (h' := fun c => match c with AX => unravel s (ravel s (h AX)) | _ => unravel s (ravel s (h AY)) end) in *.
  assert (Hh : forall c, c <> AZ -> forall i j k, in_grid s i j k -> h' c i j k = h c i j k).
  { intros c Hc x y z Hx. unfold h'. destruct c; [apply unravel_ravel; auto | apply unravel_ravel; auto | congruence]. }
  assert (EW : forall a, F a (Wf h') i j k = F a (Wf h) i j k).
  { intros a. apply diff_ext; auto. intros x y z Hx. unfold Wf.
    rewrite (diff_ext s (q_dx q) true (h' AX) (h AX)) by (auto; intros; apply Hh; auto; discriminate).
    rewrite (diff_ext s (q_dx q) true (h' AY) (h AY)) by (auto; intros; apply Hh; auto; discriminate). reflexivity. }
  assert (ED : forall a b c, c <> AZ -> B b (F a (h' c)) i j k = B b (F a (h c)) i j k) by (intros; apply diff2_ext; auto).
  rewrite !EW, !ED by discriminate. rewrite !Hh by (auto; discriminate).
  assert (Er : forall c, ravel s (h c) (ridx s i j k) = h c i j k) by (intros; destruct H as (? & ? & ?); apply ravel_ridx; auto).
  rewrite !Er. rewrite <- !Hb by auto.
  pose proof (HF' AX i j k H) as X. pose proof (HF' AY i j k H) as Y. unfold curl_beta_fn in X, Y. rewrite Hw in X, Y by auto.
  rewrite (HA' AY) in X by auto. rewrite (HA' AX) in Y by auto. unfold mode_e, curl_beta_fn in X, Y.
  pose proof (Hn AX i j k H) as Nx. pose proof (Hn AY i j k H) as Ny.
  assert (Hci : Ci <> C0) by (intro E0; apply (f_equal im) in E0; cbn in E0; lra).
  assert (HK : RtoC (q_k0 q) <> C0) by (apply RtoC_neq0; auto).
  assert (NX : RtoC (E AX i j k) <> C0) by (apply RtoC_neq0; auto). assert (NY : RtoC (E AY i j k) <> C0) by (apply RtoC_neq0; auto).
  rewrite !RtoC_mul. pose proof Ci_sq as I2. split.
  - set (K := RtoC (q_k0 q)) in *. set (b := RtoC beta) in *. set (ey := RtoC (E AY i j k)) in *.
    set (W := F AY (Wf h) i j k) in *. set (x := h AX i j k) in *. set (z := B AX (h AZ) i j k) in *.
    assert (X' : (ey * W + Ci * b * (- (Ci * b) * x - z))%C = (- (Ci * Ci) * (K * K * ey * x))%C).
    { transitivity (Ci * K * ey * (Cinv (Ci * K) * W + Ci * b * ((- (Ci * b) * x - z) / (Ci * K * ey))))%C; [field; auto | rewrite X; ring]. }
    rewrite I2 in X'. transitivity (- (- C1) * (K * K * ey * x) - ey * W + Ci * b * z)%C; [ring |]. rewrite <- X'.
    transitivity (- (Ci * Ci) * (b * b * x))%C; [ring | rewrite I2; ring].
  - set (K := RtoC (q_k0 q)) in *. set (b := RtoC beta) in *. set (ex := RtoC (E AX i j k)) in *.
    set (W := F AX (Wf h) i j k) in *. set (x := h AY i j k) in *. set (z := B AY (h AZ) i j k) in *.
    assert (Y' : (- ex * W - Ci * b * (z + Ci * b * x))%C = (- (Ci * Ci) * (K * K * ex * x))%C).
    { transitivity (Ci * K * ex * (- (Ci * b) * ((z + Ci * b * x) / (Ci * K * ex)) - Cinv (Ci * K) * W))%C; [field; auto | rewrite Y; ring]. }
    rewrite I2 in Y'. transitivity (- (- C1) * (K * K * ex * x) + ex * W + Ci * b * z)%C; [ring |]. rewrite <- Y'.
    transitivity (- (Ci * Ci) * (b * b * x))%C; [ring | rewrite I2; ring].
Qed.
End TwoD.

Lemma mode_round_trip : forall q beta vx vy c i j k, q_k0 q <> 0 -> beta <> 0 -> pos_eps q -> eigen2 q (RtoC (beta * beta)) vx vy -> in_grid (q_shape q) i j k ->
  let h := mode_h q beta vx vy in mode_e2h q beta (mode_e q beta h) c i j k = (- h c i j k)%C.
Proof.
  intros q beta vx vy c i j k Hk Hb Hp He H h. destruct (modes_maxwell q beta vx vy Hk Hb Hp He) as [[F _] _].
  specialize (F c i j k H). rewrite (curl_kz q false) in F by auto. unfold mode_e2h. fold h in F. rewrite F. field.
  split; [apply RtoC_neq0; auto |]. intro E0. apply (f_equal im) in E0. cbn in E0. lra.
Qed.
