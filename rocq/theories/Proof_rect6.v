(** Proofs about Model_rect: geometry, sensitivity indices, rows. *)
From Coq Require Import Reals List Arith ZArith Lra Lia Bool FunctionalExtensionality Permutation ZifyNat ZifyClasses.
From Verif Require Import Cx Arr Spec_circuit Model_coupling Model_forward Spec_mesh Model_rect Spec_rect Proof_node Proof_mesh Proof_forward Proof_forward2 Proof_rect2 Proof_rect4 Proof_rect5.
Import ListNotations.
Local Open Scope R_scope.
Ltac Zify.zify_post_hook ::= Z.div_mod_to_equations.

Lemma rectangular_geometry : forall n u, (2 <= n)%nat -> exists m p, rectangular n u = Some (m, p) /\
  style m = TOP /\ n_rails m = n /\ (2 * length (nodes m) = n * (n - 1))%nat /\ num_columns m = (if Nat.eqb n 2 then 1 else Z.of_nat n)%Z /\
  map node_id (nodes m) = seq 0 (length (nodes m)) /\
  (forall nd, In nd (nodes m) -> exists c t, (c < n)%nat /\ (S t < n)%nat /\ ((t + c) mod 2 = 0)%nat /\
     column nd = Z.of_nat c /\ top nd = t /\ bottom nd = S t /\ bs_error nd = (0, 0) /\ loss nd = (0, 0)) /\
  (forall c t, (c < n)%nat -> (S t < n)%nat -> ((t + c) mod 2 = 0)%nat ->
     exists! nd, In nd (nodes m) /\ column nd = Z.of_nat c /\ top nd = t) /\
  wf_mesh m.
Proof.
  intros n u Hn. rewrite rectangular_some by exact Hn. do 2 eexists. split; [reflexivity |]. cbn [rmesh style n_rails nodes num_columns].
  assert (Len : length (rnodes n) = rect_offset n n) by (unfold rnodes; rewrite map_length; apply rpos_length).
  split; [reflexivity |]. split; [reflexivity |]. split; [rewrite Len; apply rect_offset_total; lia |].
  split; [unfold rcols; destruct (Nat.eqb n 2); reflexivity |]. split; [rewrite Len; apply rnodes_ids |].
  split; [| split; [| apply rmesh_wf; exact Hn]].
  - intros nd H. unfold rnodes in H. apply in_map_iff in H. destruct H as (x & <- & Hx). destruct (rnode_fields n x Hx) as (_ & _ & L & B & _ & T & Bo & C & R & _).
    exists (fst x), (2 * snd x + fst x mod 2)%nat. destruct x as [i j]. apply rpos_in in Hx. cbn [fst snd] in *. repeat split; auto; lia.
  - intros c t Hc Ht Hp.
    assert (Hx : In (c, (t / 2)%nat) (rpos n n)) by (apply rpos_in; split; [exact Hc | apply num_rails; lia]).
    exists (rnode n (c, (t / 2)%nat)). destruct (rnode_fields n _ Hx) as (_ & _ & _ & _ & _ & T & _ & C & _). cbn [fst snd] in *. split.
    + split; [unfold rnodes; apply in_map; exact Hx |]. split; [exact C | rewrite T; lia].
    + intros nd (H & C' & T'). unfold rnodes in H. apply in_map_iff in H. destruct H as ([i j] & <- & Hx'). destruct (rnode_fields n _ Hx') as (_ & _ & _ & _ & _ & T2 & _ & C2 & _). cbn [fst snd] in *.
      f_equal. assert (Ei : c = i) by lia. subst i. f_equal. lia.
Qed.
Lemma rectangular_one : forall u, rectangular 1 u = None.
Proof. intro u. reflexivity. Qed.
Lemma rectangular_entry : forall n u m p, (2 <= n)%nat -> unitary n u -> rectangular n u = Some (m, p) ->
  forall i j, (i < n)%nat -> (j < n)%nat -> matrix m false p i j = Some (u i j).
Proof.
  intros n u m p Hn Hu E i j Hi Hj. unfold matrix. destruct (rectangular_matrix n u m p Hn Hu E (basis j)) as (y & -> & V). f_equal. rewrite (V i Hi). unfold app.
  apply (Csum_basis n j (fun k => u i k) Hj).
Qed.

(** ** Sensitivity indices *)
Lemma alpha_perm : forall len po, Permutation (seq 1 len) (rectangular_alpha len po).
Proof.
  intros len po. apply NoDup_Permutation_bis; [apply seq_NoDup | rewrite rectangular_alpha_length, seq_length; lia |].
  intros y Hy. apply in_seq in Hy. unfold rectangular_alpha.
  assert (G : In y (map (fun x => (len + 1 - x)%nat) (rev (map (fun t => (1 + 2 * t)%nat) (seq 0 ((len + 1) / 2)))) ++
    map (fun x => (len + 1 - x)%nat) (map (fun t => (2 + 2 * t)%nat) (seq 0 (len - length (map (fun x => (len + 1 - x)%nat) (rev (map (fun t => (1 + 2 * t)%nat) (seq 0 ((len + 1) / 2)))))))))).
  { apply in_or_app. destruct (Nat.eq_dec ((len + 1 - y) mod 2) 1) as [E | E].
    - left. apply in_map_iff. exists (len + 1 - y)%nat. split; [lia |]. rewrite <- in_rev. apply in_map_iff. exists ((len + 1 - y) / 2)%nat. split; [lia | apply in_seq; lia].
    - right. rewrite map_length, rev_length, map_length, seq_length. apply in_map_iff. exists (len + 1 - y)%nat. split; [lia |]. apply in_map_iff. exists ((len + 1 - y) / 2 - 1)%nat. split; [lia | apply in_seq; lia]. }
  destruct po; [apply -> in_rev |]; exact G.
Qed.
Lemma nth_error_seq : forall (l : list nat), map (nth_error l) (seq 0 (length l)) = map Some l.
Proof.
  induction l as [| a l IH]; [reflexivity |]. cbn [length]. cbn [seq map nth_error]. f_equal. rewrite <- IH, <- seq_shift, map_map. reflexivity.
Qed.
Lemma alpha_at : forall n i j, (i < n - 1)%nat -> (j < n)%nat -> ((i + j) mod 2 = 0)%nat -> (1 <= alpha_diagonal n i j <= n)%nat -> (Nat.min i j < alpha_diagonal n i j)%nat ->
  alpha_checkerboard n i j = nth_error (rectangular_alpha (alpha_diagonal n i j) (Nat.eqb (n mod 2) 1)) (Nat.min i j).
Proof.
  intros n i j H1 H2 H3 B1 B2. unfold alpha_checkerboard. apply Nat.ltb_lt in H1, H2. rewrite H1, H2. apply Nat.eqb_eq in H3. rewrite H3. cbn [andb]. cbv zeta.
  destruct (Nat.eqb_spec (alpha_diagonal n i j) 1) as [E | E].
  - rewrite E in *. replace (Nat.min i j) with 0%nat by lia. destruct (Nat.eqb (n mod 2) 1); reflexivity.
  - assert (G : nth_error (map (fun l => rectangular_alpha l (Nat.eqb (n mod 2) 1)) (seq 1 n)) (alpha_diagonal n i j - 1) = Some (rectangular_alpha (alpha_diagonal n i j) (Nat.eqb (n mod 2) 1))).
    { erewrite map_nth_error; [reflexivity |]. rewrite (nth_error_nth' (seq 1 n) 0%nat) by (rewrite seq_length; lia). rewrite seq_nth by lia. f_equal. lia. }
    rewrite G. reflexivity.
Qed.
Lemma alpha_upper : forall n d, (0 < d < n)%nat -> (d mod 2 = 0)%nat ->
  exists l, map (fun i => alpha_checkerboard n i (i + d)) (seq 0 (n - d)) = map Some l /\ Permutation (seq 1 (n - d)) l.
Proof.
  intros n d Hd Hp. exists (rectangular_alpha (n - d) (Nat.eqb (n mod 2) 1)). split; [| apply alpha_perm].
  rewrite <- nth_error_seq, rectangular_alpha_length. apply map_ext_in. intros i Hi. apply in_seq in Hi.
  assert (D : alpha_diagonal n i (i + d) = (n - d)%nat) by (unfold alpha_diagonal; destruct (Nat.ltb_spec i (i + d)); lia).
  rewrite alpha_at; rewrite ?D; try lia. f_equal. lia.
Qed.
Lemma alpha_lower : forall n d, (d < n - 1)%nat -> (d mod 2 = 0)%nat ->
  exists l, map (fun j => alpha_checkerboard n (j + d) j) (seq 0 (n - 1 - d)) = map Some l /\ Permutation (seq 1 (n - 1 - d)) l.
Proof.
  intros n d Hd Hp. exists (rectangular_alpha (n - 1 - d) (Nat.eqb (n mod 2) 1)). split; [| apply alpha_perm].
  rewrite <- nth_error_seq, rectangular_alpha_length. apply map_ext_in. intros j Hj. apply in_seq in Hj.
  assert (D : alpha_diagonal n (j + d) j = (n - 1 - d)%nat).
  { unfold alpha_diagonal. destruct (Nat.ltb_spec (j + d) j); [lia |]. destruct (Nat.ltb_spec 0 (j + d)); destruct (Nat.ltb_spec j (j + d)); cbn [andb]; lia. }
  rewrite alpha_at; rewrite ?D; try lia. f_equal. lia.
Qed.
Lemma alpha_off : forall n i j, ((i + j) mod 2 = 1 \/ n - 1 <= i)%nat -> alpha_checkerboard n i j = Some 0%nat.
Proof.
  intros n i j [H | H]; unfold alpha_checkerboard.
  - destruct (Nat.eqb_spec ((i + j) mod 2) 0); [lia |]. rewrite andb_false_r. reflexivity.
  - destruct (Nat.ltb_spec i (n - 1)); [lia | reflexivity].
Qed.

(** ** rectangular_rows *)
Lemma all_some_none : forall (A : Type) (l : list (option A)), In None l -> all_some l = None.
Proof. induction l as [| a l IH]; intro H; [destruct H |]. cbn [all_some]. destruct H as [-> | H]; [reflexivity |]. destruct a; [rewrite IH by exact H |]; reflexivity. Qed.
Lemma row1_raises : forall n, (3 <= n)%nat -> row_mesh n 1 = None.
Proof.
  intros n Hn. unfold row_mesh. cbn [plus seq map]. set (a := row_node n 1 0). set (b := row_node n 1 1).
  assert (Ca : column a = Z.of_nat (n - 1)) by (unfold a, row_node; cbn [column]; change (Nat.eqb (1 mod 2) 1) with true; cbn iota; lia).
  assert (Cb : column b = Z.of_nat (n - 2)) by (unfold b, row_node; cbn [column]; change (Nat.eqb (1 mod 2) 1) with true; cbn iota; lia).
  unfold mk_mesh. cbv zeta.
  assert (R : renumber [a; b] = [with_id a 0; with_id b 1]) by reflexivity. rewrite R.
  assert (N : columns (mkMesh [with_id a 0; with_id b 1] TOP (map node_id [with_id a 0; with_id b 1]) (n_of a) (map bs_error [a; b]) (map loss [a; b]) (map column [a; b]) (zmax (map column [a; b]) (column a) + 1)) = None).
  { unfold columns. cbn [nodes style num_columns]. apply all_some_none. apply in_map_iff. exists 0%nat. split.
    - unfold nodes_in_column. cbn [filter]. assert (column (with_id a 0) = Z.of_nat (n - 1)) as -> by exact Ca. assert (column (with_id b 1) = Z.of_nat (n - 2)) as -> by exact Cb.
      destruct (Z.eqb_spec (Z.of_nat (n - 1)) (Z.of_nat 0)); [lia |]. destruct (Z.eqb_spec (Z.of_nat (n - 2)) (Z.of_nat 0)); [lia |]. reflexivity.
    - apply in_seq. cbn [map zmax]. rewrite Ca, Cb. lia. }
  rewrite N. reflexivity.
Qed.
Lemma rows_raise : forall n, (3 <= n)%nat -> rectangular_rows n = None.
Proof.
  intros n Hn. unfold rectangular_rows. apply all_some_none. apply in_map_iff. exists 1%nat. split; [apply row1_raises; exact Hn | apply in_seq; lia].
Qed.

(** ** random_theta *)
Lemma random_theta_betas : forall n, (2 <= n)%nat -> random_theta n = map (fun nd => Some (beta nd)) (rnodes n).
Proof.
  intros n Hn. unfold rnodes. rewrite map_map.
  assert (B : forall x, In x (rpos n n) -> Some (beta (rnode n x)) = checkerboard_to_param (alpha_checkerboard n) (fst x) (snd x)).
  { intros [i j] Hx. apply rpos_in in Hx. destruct Hx as [Hi Hj]. unfold rnode. cbn [fst snd]. destruct (rect_node_some n i j Hi Hj) as (a & E). rewrite E. cbn [beta].
    unfold rect_node in E. destruct (checkerboard_to_param (alpha_checkerboard n) i j) as [a' |]; [| discriminate]. injection E as ->. reflexivity. }
  rewrite (map_ext_in _ _ _ B). set (f := fun x : nat * nat => checkerboard_to_param (alpha_checkerboard n) (fst x) (snd x)).
  assert (G : forall k, (k <= n)%nat -> map f (rpos n k) = flat_map (fun i => map (checkerboard_to_param (alpha_checkerboard n) i) (seq 0 (num_to_interfere n i))) (seq 0 k)).
  { intros k _. unfold rpos. rewrite !flat_map_concat_map, concat_map, map_map. f_equal. apply map_ext. intro i. rewrite map_map. reflexivity. }
  rewrite G by lia. unfold random_theta. destruct (Nat.eqb_spec (n mod 2) 1) as [E | E].
  - rewrite !flat_map_concat_map. f_equal. apply map_ext. intro i. unfold param_row. f_equal. f_equal. unfold num_to_interfere. rewrite E. lia.
  - assert (E0 : (n mod 2 = 0)%nat) by lia.
    assert (W : forall h, (h <= n / 2)%nat -> flat_map (fun q => removelast (param_row n (2 * q) ++ param_row n (2 * q + 1))) (seq 0 h) =
       flat_map (fun i => map (checkerboard_to_param (alpha_checkerboard n) i) (seq 0 (num_to_interfere n i))) (seq 0 (2 * h))).
    { induction h as [| h IH]; intro Hh; [reflexivity |]. rewrite seq_S, flat_map_app, IH by lia. replace (2 * S h)%nat with (S (S (2 * h))) by lia. rewrite !seq_S, !flat_map_app, <- app_assoc. f_equal.
      cbn [flat_map plus]. rewrite !app_nil_r. unfold param_row.
      assert (Ne : num_to_interfere n (2 * h) = (n / 2)%nat) by (unfold num_to_interfere; rewrite E0; lia).
      assert (No : num_to_interfere n (S (2 * h)) = (n / 2 - 1)%nat) by (unfold num_to_interfere; rewrite E0; lia).
      change (h + (h + 0))%nat with (2 * h)%nat. rewrite Ne, No. replace (2 * h + 1)%nat with (S (2 * h)) by lia.
      replace (n / 2)%nat with (S (n / 2 - 1)) at 2 by lia. rewrite (seq_S (n / 2 - 1)), map_app. cbn [map plus]. rewrite app_assoc. rewrite removelast_last. reflexivity. }
    rewrite (W (n / 2)%nat (le_n _)). replace (2 * (n / 2))%nat with n by lia. reflexivity.
Qed.

(** ** grid_common_mode_flow *)
Lemma mod2pi_range : forall x, 0 <= mod2pi x < 2 * PI.
Proof.
  intro x. unfold mod2pi. pose proof PI_RGT_0 as P. pose proof (base_Int_part (x / (2 * PI))) as [B1 B2]. set (k := IZR (Int_part (x / (2 * PI)))) in *.
  assert (E : x = 2 * PI * (x / (2 * PI))) by (field; lra). set (q := x / (2 * PI)) in *. rewrite E. nra.
Qed.
Lemma mod2pi_0 : mod2pi 0 = 0.
Proof.
  pose proof (mod2pi_range 0) as R. unfold mod2pi in *. pose proof PI_RGT_0 as P. set (k := Int_part (0 / (2 * PI))) in *.
  assert (K : k = 0%Z). { assert (K1 : IZR k <= 0) by nra. assert (K2 : -1 < IZR k) by nra. apply (le_IZR k 0) in K1. apply (lt_IZR (-1) k) in K2. lia. }
  rewrite K. ring.
Qed.
Lemma common_mode_flow : forall units layers ext gamma, exists phi' gamma',
  grid_common_mode_flow units layers ext (Some gamma) = Some (phi', gamma') /\
  (forall blk v r, grid_transfer units layers blk ext gamma v r = grid_transfer units layers blk phi' gamma' v r) /\
  (forall c r, phi' c r <> 0 -> ((r + c) mod 2 = 0)%nat /\ (S r < units)%nat) /\
  (forall c r, 0 <= phi' c r < 2 * PI) /\ (forall r, 0 <= gamma' r < 2 * PI).
Proof.
  intros units layers ext gamma. unfold grid_common_mode_flow. cbv zeta. do 2 eexists. split; [reflexivity |]. repeat split; try apply mod2pi_range.
  - intros blk v r. rewrite flow_transfer_ext. apply flow_transfer.
  - destruct (andb (Proof_rect.evenb (r + c)) (Nat.ltb (S r) units)) eqn:E.
    + apply andb_true_iff in E. destruct E as [E _]. apply Proof_rect.evenb_t in E. exact E.
    + exfalso. apply H. unfold flow_phi. fold (fl_new units (fun k r => if Nat.eqb k layers then gamma r else ext k r) c r). rewrite fl_new_out by exact E. apply mod2pi_0.
  - destruct (andb (Proof_rect.evenb (r + c)) (Nat.ltb (S r) units)) eqn:E.
    + apply andb_true_iff in E. destruct E as [_ E]. apply Nat.ltb_lt in E. exact E.
    + exfalso. apply H. unfold flow_phi. fold (fl_new units (fun k r => if Nat.eqb k layers then gamma r else ext k r) c r). rewrite fl_new_out by exact E. apply mod2pi_0.
Qed.
