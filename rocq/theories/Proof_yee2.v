(** Proofs about the roll-based differences: summation by parts, commutation, div curl = 0; the matrix version. *)
From Coq Require Import Reals Lra Lia List Arith Bool FunctionalExtensionality.
From Verif Require Import Cx Arr Model_coupling Model_yee Spec_yee Proof_yee.
Local Open Scope R_scope.

(** ** Sums over the grid *)
Lemma grid_sum_ext : forall s F G, (forall i j k, in_grid s i j k -> F i j k = G i j k) -> grid_sum s F = grid_sum s G.
Proof.
  intros s F G H. unfold grid_sum. apply Csum_ext; intros i Hi. apply Csum_ext; intros j Hj. apply Csum_ext; intros k Hk.
  apply H. split; [| split]; auto.
Qed.
Lemma grid_sum_add : forall s F G, grid_sum s (fun i j k => F i j k + G i j k)%C = (grid_sum s F + grid_sum s G)%C.
Proof.
  intros. unfold grid_sum. rewrite <- Csum_add. apply Csum_ext; intros i _. rewrite <- Csum_add. apply Csum_ext; intros j _.
  rewrite <- Csum_add. reflexivity.
Qed.
Lemma grid_sum_scal : forall s c F, grid_sum s (fun i j k => c * F i j k)%C = (c * grid_sum s F)%C.
Proof.
  intros. unfold grid_sum. rewrite <- Csum_scal. apply Csum_ext; intros i _. rewrite <- Csum_scal. apply Csum_ext; intros j _.
  rewrite <- Csum_scal. reflexivity.
Qed.
Lemma grid_sum_sub : forall s F G, grid_sum s (fun i j k => F i j k - G i j k)%C = (grid_sum s F - grid_sum s G)%C.
Proof.
  intros. replace (grid_sum s F - grid_sum s G)%C with (grid_sum s F + (- C1) * grid_sum s G)%C by ring.
  rewrite <- grid_sum_scal, <- grid_sum_add. apply grid_sum_ext; intros; ring.
Qed.
Lemma grid_sum_conj : forall s F, Cconj (grid_sum s F) = grid_sum s (fun i j k => Cconj (F i j k)).
Proof.
  intros. unfold grid_sum. rewrite Csum_conj. apply Csum_ext; intros i _. rewrite Csum_conj. apply Csum_ext; intros j _.
  rewrite Csum_conj. reflexivity.
Qed.
Lemma Csum_nxt : forall n f, Csum n (fun i => f (nxt n i)) = Csum n f.
Proof.
  intros [| m] f; [reflexivity |]. rewrite (Csum_shift m f). cbn [Csum]. rewrite (nxt_lt (S m) m) by lia.
  destruct (Nat.eqb_spec (m + 1) (S m)); [| lia].
  rewrite (Csum_ext m (fun i => f (nxt (S m) i)) (fun i => f (S i))); [ring |].
  intros i Hi. rewrite nxt_lt by lia. destruct (Nat.eqb_spec (i + 1) (S m)); [lia |]. f_equal; lia.
Qed.
Lemma Csum_prv : forall n f, Csum n (fun i => f (prv n i)) = Csum n f.
Proof.
  intros n f. rewrite <- (Csum_nxt n (fun i => f (prv n i))). apply Csum_ext; intros i Hi. rewrite prv_nxt by auto. reflexivity.
Qed.
Lemma grid_sum_nxt : forall s a F, grid_sum s (roll_m1 s a F) = grid_sum s F.
Proof.
  intros s a F. unfold grid_sum, roll_m1, along. destruct a.
  - apply (Csum_nxt (s AX) (fun i => Csum (s AY) (fun j => Csum (s AZ) (fun k => F i j k)))).
  - apply Csum_ext; intros i _. apply (Csum_nxt (s AY) (fun j => Csum (s AZ) (fun k => F i j k))).
  - apply Csum_ext; intros i _. apply Csum_ext; intros j _. apply (Csum_nxt (s AZ) (fun k => F i j k)).
Qed.
Lemma roll_inv : forall s a F i j k, in_grid s i j k -> roll_m1 s a (roll_p1 s a F) i j k = F i j k.
Proof.
  intros s a F i j k (Hi & Hj & Hk). unfold roll_m1, roll_p1, along. destruct a; rewrite prv_nxt by auto; reflexivity.
Qed.

(** Summation by parts. *)
Lemma Cconj_Cinv_R : forall x, Cconj (Cinv (RtoC x)) = Cinv (RtoC x).
Proof. intros. apply C_eq; unfold Cinv, Cn2; cbn [re im Cconj RtoC]; unfold Rdiv; ring. Qed.
Lemma diff_adjoint : forall s (h : axis -> R) a f g,
  inner s (diff_fn s (uniform_dx h) false f a) g = (- inner s f (diff_fn s (uniform_dx h) true g a))%C.
Proof.
  intros s h a f g. unfold inner, diff_fn, uniform_dx, Cdiv.
  set (c := Cinv (RtoC (h a))). assert (Hc : Cconj c = c) by (apply Cconj_Cinv_R).
  replace (- grid_sum s (fun i j k => f i j k * Cconj ((g i j k - roll_p1 s a g i j k) * c)))%C
    with (c * grid_sum s (fun i j k => f i j k * Cconj (roll_p1 s a g i j k) - f i j k * Cconj (g i j k)))%C.
  2:{ rewrite <- grid_sum_scal.
      replace (- grid_sum s (fun i j k => f i j k * Cconj ((g i j k - roll_p1 s a g i j k) * c)))%C with
        ((- C1) * grid_sum s (fun i j k => f i j k * Cconj ((g i j k - roll_p1 s a g i j k) * c)))%C by ring.
      rewrite <- grid_sum_scal. apply grid_sum_ext; intros. rewrite Cconj_mul, Cconj_sub, Hc. ring. }
  rewrite grid_sum_sub. rewrite <- (grid_sum_nxt s a (fun i j k => (f i j k * Cconj (roll_p1 s a g i j k))%C)).
  rewrite <- grid_sum_sub, <- grid_sum_scal. apply grid_sum_ext; intros i j k Hin.
  pose proof (roll_inv s a g i j k Hin) as E. unfold roll_m1, roll_p1, along in *. destruct a; rewrite E; ring.
Qed.

(** ** Differences along different axes commute, for any pixel sizes. *)
Lemma diff_commute : forall s dx o1 o2 f a b i j k, a <> b ->
  diff_fn s dx o1 (diff_fn s dx o2 f b) a i j k = diff_fn s dx o2 (diff_fn s dx o1 f a) b i j k.
Proof.
  intros s dx o1 o2 f a b i j k H.
  destruct a, b; try (exfalso; apply H; reflexivity); destruct o1, o2;
    unfold diff_fn, roll_m1, roll_p1, along, coord, Cdiv; ring.
Qed.
Lemma diff_sub : forall s dx o f g a i j k,
  diff_fn s dx o (fun x y z => f x y z - g x y z)%C a i j k = (diff_fn s dx o f a i j k - diff_fn s dx o g a i j k)%C.
Proof. intros. destruct a, o; unfold diff_fn, roll_m1, roll_p1, along, Cdiv; ring. Qed.
Lemma diff_add : forall s dx o f g a i j k,
  diff_fn s dx o (fun x y z => f x y z + g x y z)%C a i j k = (diff_fn s dx o f a i j k + diff_fn s dx o g a i j k)%C.
Proof. intros. destruct a, o; unfold diff_fn, roll_m1, roll_p1, along, Cdiv; ring. Qed.
Lemma diff_scal : forall s dx o c f a i j k,
  diff_fn s dx o (fun x y z => c * f x y z)%C a i j k = (c * diff_fn s dx o f a i j k)%C.
Proof. intros. destruct a, o; unfold diff_fn, roll_m1, roll_p1, along, Cdiv; ring. Qed.
Lemma diff_ext : forall s dx o f g a i j k, (forall i j k, in_grid s i j k -> f i j k = g i j k) -> in_grid s i j k ->
  diff_fn s dx o f a i j k = diff_fn s dx o g a i j k.
Proof.
  intros s dx o f g a i j k H Hin. unfold diff_fn, roll_m1, roll_p1, along.
  pose proof Hin as (Hi & Hj & Hk).
  destruct o; rewrite (H i j k Hin); destruct a; rewrite H; auto; (split; [| split]); auto using nxt_bound, prv_bound.
Qed.

Lemma div_curl_gen : forall s dx o (f : vfld) i j k,
  divergence (diff_fn s dx o) (curl_fn (diff_fn s dx o) f) i j k = C0.
Proof.
  intros. unfold divergence, curl_fn. rewrite !diff_sub.
  rewrite (diff_commute s dx o o (f AZ) AX AY) by discriminate.
  rewrite (diff_commute s dx o o (f AY) AX AZ) by discriminate.
  rewrite (diff_commute s dx o o (f AX) AY AZ) by discriminate. ring.
Qed.

(** Matrix version, Bloch boundary included. *)
Definition quot (s : shape3) (dx : pixel) (bl : axis -> C) (back : bool) (a : axis) (f : fld) : fld :=
  if back then bwd_quot s dx bl a f else fwd_quot s dx bl a f.
Lemma quot_commute : forall s dx bl o f a b i j k, a <> b ->
  quot s dx bl o a (quot s dx bl o b f) i j k = quot s dx bl o b (quot s dx bl o a f) i j k.
Proof.
  intros s dx bl o f a b i j k H.
  destruct a, b; try (exfalso; apply H; reflexivity); destruct o;
    unfold quot, bwd_quot, fwd_quot, left_of, right_of, line, coord, Cdiv;
    repeat match goal with
    | |- context [Nat.eqb ?x 1] => destruct (Nat.eqb x 1)
    | |- context [Nat.eqb (?x + 1) ?y] => destruct (Nat.eqb (x + 1) y)
    | |- context [match ?x with O => _ | S _ => _ end] => is_var x; destruct x
    end; ring.
Qed.
Lemma quot_sub : forall s dx bl o f g a i j k,
  quot s dx bl o a (fun x y z => f x y z - g x y z)%C i j k = (quot s dx bl o a f i j k - quot s dx bl o a g i j k)%C.
Proof.
  intros. destruct o, a; unfold quot, bwd_quot, fwd_quot, left_of, right_of, line, coord, Cdiv;
    repeat match goal with
    | |- context [Nat.eqb ?x 1] => destruct (Nat.eqb x 1)
    | |- context [Nat.eqb (?x + 1) ?y] => destruct (Nat.eqb (x + 1) y)
    | |- context [match ?x with O => _ | S _ => _ end] => is_var x; destruct x
    end; ring.
Qed.
Definition unravel (s : shape3) (v : vec) : fld := fun i j k => v (ridx s i j k).
Lemma ridx_inv : forall s r, (r < npix s)%nat -> exists i j k, in_grid s i j k /\ r = ridx s i j k.
Proof.
  intros s r H. unfold npix in H.
  assert (Hz : (0 < s AZ)%nat) by (destruct (s AZ); lia).
  assert (Hy : (0 < s AY)%nat) by (destruct (s AY); lia).
  exists (r / s AZ / s AY)%nat, ((r / s AZ) mod s AY)%nat, (r mod s AZ)%nat.
  pose proof (Nat.div_mod r (s AZ) ltac:(lia)) as E1.
  pose proof (Nat.div_mod (r / s AZ) (s AY) ltac:(lia)) as E2.
  split.
  - split; [| split]; [| apply Nat.mod_upper_bound; lia | apply Nat.mod_upper_bound; lia].
    apply Nat.div_lt_upper_bound; [lia |]. apply Nat.div_lt_upper_bound; [lia |]. nia.
  - unfold ridx. rewrite (Nat.mul_comm (r / s AZ / s AY) (s AY)), <- E2. rewrite Nat.mul_comm. exact E1.
Qed.
Lemma ravel_unravel : forall s v r, (r < npix s)%nat -> ravel s (unravel s v) r = v r.
Proof.
  intros s v r H. destruct (ridx_inv s r H) as (i & j & k & (Hi & Hj & Hk) & E). subst r.
  rewrite ravel_ridx by auto. reflexivity.
Qed.
Lemma deriv_unravel : forall s dx bl o a v i j k, in_grid s i j k ->
  matvec (npix s) (deriv s dx bl o a) v (ridx s i j k) = quot s dx bl o a (unravel s v) i j k.
Proof.
  intros. rewrite (matvec_ext _ _ v (ravel s (unravel s v))) by (intros; rewrite ravel_unravel; auto).
  rewrite deriv_apply by auto. destruct o; reflexivity.
Qed.
Lemma quot_ext : forall s dx bl o f g a i j k, (forall i j k, in_grid s i j k -> f i j k = g i j k) -> in_grid s i j k ->
  quot s dx bl o a f i j k = quot s dx bl o a g i j k.
Proof.
  intros s dx bl o f g a i j k H Hin. pose proof Hin as (Hi & Hj & Hk).
  assert (E : quot s dx bl o a f i j k = matvec (npix s) (deriv s dx bl o a) (ravel s f) (ridx s i j k))
    by (rewrite deriv_apply by auto; destruct o; reflexivity).
  assert (E' : quot s dx bl o a g i j k = matvec (npix s) (deriv s dx bl o a) (ravel s g) (ridx s i j k))
    by (rewrite deriv_apply by auto; destruct o; reflexivity).
  rewrite E, E'. apply matvec_ext; intros r Hr. destruct (ridx_inv s r Hr) as (x & y & z & Hx & Er). subst r.
  pose proof Hx as (_ & Hy & Hz). rewrite !ravel_ridx by auto. apply H; auto.
Qed.
Lemma matvec_opp : forall n (A : mat) v r, matvec n (fun x y => - A x y)%C v r = (- matvec n A v r)%C.
Proof.
  intros. unfold matvec. replace (- Csum n (fun k => A r k * v k))%C with ((- C1) * Csum n (fun k => A r k * v k))%C by ring.
  rewrite <- Csum_scal. apply Csum_ext; intros; ring.
Qed.
Lemma matvec_zero : forall n v r, matvec n (fun _ _ => C0) v r = C0.
Proof. intros. unfold matvec. apply Csum_0; intros; ring. Qed.
Lemma bmat_curl_apply : forall s dx bl o v c i j k, in_grid s i j k ->
  bmatvec (npix s) (d2curl_op (deriv s dx bl o)) v c (ridx s i j k) =
  curl_fn (fun f a => quot s dx bl o a f) (fun a => unravel s (v a)) c i j k.
Proof.
  intros s dx bl o v c i j k H. unfold bmatvec, curl_fn, d2curl_op.
  destruct c; rewrite ?matvec_opp; fold (matvec (npix s));
    repeat match goal with |- context [matvec ?n (fun x y => C0) ?w ?r] => rewrite (matvec_zero n w r) end;
    change (fun x y => deriv s dx bl o AX x y) with (deriv s dx bl o AX);
    change (fun x y => deriv s dx bl o AY x y) with (deriv s dx bl o AY);
    change (fun x y => deriv s dx bl o AZ x y) with (deriv s dx bl o AZ);
    rewrite !deriv_unravel by auto; ring.
Qed.
Lemma div_curl_mat : forall s dx bl o (v : axis -> vec) r, (r < npix s)%nat ->
  (matvec (npix s) (deriv s dx bl o AX) (bmatvec (npix s) (d2curl_op (deriv s dx bl o)) v AX) r +
   matvec (npix s) (deriv s dx bl o AY) (bmatvec (npix s) (d2curl_op (deriv s dx bl o)) v AY) r +
   matvec (npix s) (deriv s dx bl o AZ) (bmatvec (npix s) (d2curl_op (deriv s dx bl o)) v AZ) r)%C = C0.
Proof.
  intros s dx bl o v r Hr. destruct (ridx_inv s r Hr) as (i & j & k & Hin & E). subst r.
  rewrite !deriv_unravel by auto.
  assert (Ex : forall a c, quot s dx bl o a (unravel s (bmatvec (npix s) (d2curl_op (deriv s dx bl o)) v c)) i j k =
    quot s dx bl o a (curl_fn (fun f a => quot s dx bl o a f) (fun a => unravel s (v a)) c) i j k).
  { intros a c. apply quot_ext; auto. intros x y z Hx. unfold unravel at 1. rewrite bmat_curl_apply; auto. }
  rewrite !Ex. unfold curl_fn. rewrite !quot_sub.
  rewrite (quot_commute s dx bl o _ AX AY) by discriminate.
  rewrite (quot_commute s dx bl o _ AX AZ) by discriminate.
  rewrite (quot_commute s dx bl o _ AY AZ) by discriminate. ring.
Qed.
