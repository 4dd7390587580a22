(** A 2 x 2 cross section with permittivity 1 and 3 and two guided modes of different propagation constants. *)
From Coq Require Import Reals List Arith ZArith Lra Lia Bool.
From Verif Require Import Cx Arr Model_coupling Model_yee Spec_yee Proof_yee Proof_yee2 Proof_yee3 Model_fdfd Spec_fdfd Proof_fdfd Proof_fdfd2 Model_grid Model_mode Spec_mode Proof_mode Proof_mode2 Proof_mode3 Spec_orth Proof_orth Proof_orth2 Proof_orth3.
Import ListNotations.
Local Open Scope R_scope.
Definition oy : mode_solver := mkQ ex2_shape (fun _ => 1) (sqrt (16 / 3)) (fun i _ _ => match i with O => 1 | _ => 3 end).
Definition oy_1 : mode2 := mkMode2 (sqrt (40 / 3)) ex2_vx (fun r => match r with O | 1%nat => RtoC 1 | _ => RtoC 9 end).
Definition oy_2 : mode2 := mkMode2 2 ex2_vx (fun r => match r with O | 1%nat => RtoC 3 | _ => RtoC (-1) end).
Lemma oy_k : sqrt (16 / 3) * sqrt (16 / 3) = 16 / 3.
Proof. apply sqrt_sqrt. lra. Qed.
Lemma oy_b : sqrt (40 / 3) * sqrt (40 / 3) = 40 / 3.
Proof. apply sqrt_sqrt. lra. Qed.
Lemma oy_modes : is_mode2 oy oy_1 /\ is_mode2 oy oy_2.
Proof.
  split; (split; [cbn -[sqrt]; try (apply sqrt_lt_R0); lra |]);
  intros r Hr; unfold q_n in Hr; destruct (ridx_inv _ r Hr) as (i & j & k & H & ->);
  rewrite wg_row_x, wg_row_y by auto; cbv zeta;
  destruct (ex2_cells i j k H) as ([-> | ->] & [-> | ->] & ->);
  (split; unfold Wf, diff_fn, roll_m1, roll_p1, along, coord, unravel, ridx, q_dx, uniform_dx, q_eps_t, yee_avg, avg_axis, ralong, inv_eps;
   cbn -[Rdiv sqrt Cdiv Cinv]; rewrite ?oy_k, ?oy_b; apply C_eq; unfold Cdiv, Cinv, Cn2; cbn -[sqrt]; field).
Qed.
Lemma oy_ok : q_k0 oy <> 0 /\ pos_eps oy /\ eps_below oy 3 /\ (forall m, In m [oy_1; oy_2] -> is_mode2 oy m) /\ distinct_sq (map m_beta [oy_1; oy_2]) /\
  nonzero (q_n oy) (m_vy oy_1).
Proof.
  split; [| split; [| split; [| split; [| split]]]].
  - cbn -[sqrt]. apply Rgt_not_eq. apply sqrt_lt_R0. lra.
  - intros i j k H. destruct (ex2_cells i j k H) as ([-> | ->] & _ & _); cbn; lra.
  - intros i j k H. destruct (ex2_cells i j k H) as ([-> | ->] & _ & _); cbn; lra.
  - intros m [<- | [<- | []]]; apply oy_modes.
  - intros a b Ha Hb Hab. cbn [map length] in *. destruct a as [| [| a]]; destruct b as [| [| b]]; try lia; cbn [nth m_beta oy_1 oy_2]; rewrite oy_b; lra.
  - exists 0%nat. split; [cbn; lia |]. cbn. intro X. apply RtoC_inj in X. lra.
Qed.
