(** Model of simphox/circuit/rectangular.py (no proofs in this file).
    Simplifications: exact arithmetic; the progress bar is dropped; u is an n x n array (an int raises: no .copy). *)
From Coq Require Import Reals List Arith ZArith Bool.
From Verif Require Import Cx Arr Model_coupling Model_forward.
Import ListNotations.
Local Open Scope R_scope.

(** rectangular.py:9-16 checkerboard_to_param: row r, entry k (k < units // 2) is checkerboard[2 k, r] for even r and
    checkerboard[2 k + 1, r] for odd r.  (Both slices have units // 2 entries, for odd and even units.) *)
Definition checkerboard_to_param {A : Type} (cb : nat -> nat -> A) (r k : nat) : A := cb (2 * k + r mod 2)%nat r.

(** rectangular.py:31-37 rectangular_alpha: np.arange(1, length + 1, 2) has (length + 1) // 2 entries. *)
Definition rectangular_alpha (len : nat) (parity_odd : bool) : list nat :=
  let odd := map (fun x => (len + 1 - x)%nat) (rev (map (fun t => (1 + 2 * t)%nat) (seq 0 ((len + 1) / 2)))) in
  let even := map (fun x => (len + 1 - x)%nat) (map (fun t => (2 + 2 * t)%nat) (seq 0 (len - length odd))) in
  let nums := odd ++ even in
  if parity_odd then rev nums else nums.
(** rectangular.py:19-51 get_alpha_checkerboard, entry (i, j); None = IndexError. *)
Definition alpha_diagonal (n i j : nat) : nat :=
  if Nat.ltb i j then (n - (j - i))%nat else if (Nat.ltb 0 i && Nat.ltb j i)%bool then (n - (i - j) - 1)%nat else (n - 1)%nat.
Definition alpha_checkerboard (n i j : nat) : option nat :=
  if (Nat.ltb i (n - 1) && Nat.ltb j n && Nat.eqb ((i + j) mod 2) 0)%bool then
    let d := alpha_diagonal n i j in
    if Nat.eqb d 1 then Some 1%nat
    else match nth_error (map (fun l => rectangular_alpha l (Nat.eqb (n mod 2) 1)) (seq 1 n)) (d - 1) with
         | None => None
         | Some l => nth_error l (Nat.min i j)
         end
  else Some 0%nat.

(** rectangular.py:54-91 grid_common_mode_flow.  [ext k r]: phase of rail r in layer k (external_phases.T), k < layers;
    [gamma] is layer [layers].  start:end of layer i: rails start..end-1, their number is even. *)
Definition flow_start (i : nat) : nat := (i mod 2)%nat.
Definition flow_end (units i : nat) : nat := (units - (i + units) mod 2)%nat.
(** new_phase_shifts[i] before the final mod: upper - lower at the upper rails, 0 elsewhere. *)
Definition flow_new (units i : nat) (a : nat -> R) (r : nat) : R :=
  if (Nat.leb (flow_start i) r && Nat.ltb r (flow_end units i) && Nat.eqb ((r - flow_start i) mod 2) 0)%bool
  then mod2pi (a r) - mod2pi (a (S r)) else 0.
(** phase_shifts[i] when iteration i starts. *)
Fixpoint flow_ps (units : nat) (ext : nat -> nat -> R) (i : nat) : nat -> R :=
  match i with
  | O => ext O
  | S i' => fun r => ext (S i') r + mod2pi (flow_ps units ext i' r - flow_new units i' (flow_ps units ext i') r)
  end.
Definition flow_phi (units : nat) (ext : nat -> nat -> R) (i r : nat) : R := mod2pi (flow_new units i (flow_ps units ext i) r).
Definition flow_gamma (units layers : nat) (ext : nat -> nat -> R) (r : nat) : R := mod2pi (flow_ps units ext layers r).
(** rectangular.py:68: without gamma the default has [layers] entries, and np.hstack needs [units]; None = ValueError. *)
Definition grid_common_mode_flow (units layers : nat) (ext : nat -> nat -> R) (gamma : option (nat -> R)) :
  option ((nat -> nat -> R) * (nat -> R)) :=
  match gamma with
  | Some g => let e := fun k r => if Nat.eqb k layers then g r else ext k r in Some (flow_phi units e, flow_gamma units layers e)
  | None => if Nat.eqb layers units
            then let e := fun k r => if Nat.eqb k layers then 0 else ext k r in Some (flow_phi units e, flow_gamma units layers e)
            else None
  end.

(** rectangular.py:104-137: the loop. *)
Record rstate := mkRS { u_hat : mat; th_cb : nat -> nat -> R; ph_cb : nat -> nat -> R }.
Definition upd_cb (f : nat -> nat -> R) (r c : nat) (x : R) : nat -> nat -> R :=
  fun r' c' => if (Nat.eqb r' r && Nat.eqb c' c)%bool then x else f r' c'.
Definition ideal (n p : nat) : node := mkNode 0 (0, 0) (0, 0) n p (S p) 1 1 0%Z.
(** np.arctan2(a, b) * 2 for moduli *)
Definition atan2x2 (a b : R) : R := Carg (mkC b a) * 2.
Definition left_step (n i j : nat) (st : rstate) : rstate :=
  let p := (n + j - i - 2)%nat in let tr := (n + j - i - 1)%nat in let tc := j in
  let u := u_hat st in
  let theta := atan2x2 (Cabs (u (tr - 1)%nat tc)) (Cabs (u tr tc)) in
  let phi := Carg (u tr tc) - Carg (u (tr - 1)%nat tc) in
  let left := ideal n p in
  mkRS (matmul n (matmul n (embed_2x2 (phase_matrix (- theta / 2) (- theta / 2)) n (top left) (bottom left)) (mzi_node_matrix left theta phi)) u)
       (upd_cb (th_cb st) p (n - 1 - j) theta)
       (upd_cb (upd_cb (ph_cb st) p (n - j) (- phi - theta / 2 + PI)) (S p) (n - j) (- theta / 2 + PI)).
Definition right_step (n i j : nat) (st : rstate) : rstate :=
  let p := (i - j)%nat in let tr := (n - j - 1)%nat in let tc := (i - j)%nat in
  let u := u_hat st in
  let theta := atan2x2 (Cabs (u tr (tc + 1)%nat)) (Cabs (u tr tc)) in
  let phi := Carg (- u tr tc)%C - Carg (u tr (tc + 1)%nat) in
  let right := ideal n p in
  mkRS (matmul n u (fun r c => Cconj (mzi_node_matrix right theta phi c r)))
       (upd_cb (th_cb st) p j theta) (upd_cb (ph_cb st) p j phi).
Definition rect_step (n : nat) (st : rstate) (x : nat * nat) : rstate :=
  let '(i, j) := x in if Nat.eqb (i mod 2) 1 then left_step n i j st else right_step n i j st.
Definition rect_order (k : nat) : list (nat * nat) := flat_map (fun i => map (fun j => (i, j)) (seq 0 (i + 1))) (seq 0 k).
Definition rect_loop (n : nat) (u : mat) : rstate :=
  fold_left (rect_step n) (rect_order (n - 1)) (mkRS u (fun _ _ => 0) (fun _ _ => 0)).
(** rectangular.py:139-145: the diagonal phases go to the flipped diagonal, one layer later for even n. *)
Definition rect_phases (n : nat) (st : rstate) (r c : nat) : R :=
  let layer := if Nat.eqb (n mod 2) 1 then (n - 1 - r)%nat else (n - r)%nat in
  ph_cb st r c + (if (Nat.ltb r n && Nat.eqb c layer)%bool then Carg (u_hat st r r) else 0).

(** rectangular.py:152-170: the nodes, column by column. *)
Definition num_to_interfere (n i : nat) : nat := (n / 2 - (i mod 2) * (1 - n mod 2))%nat.
Definition rect_offset (n i : nat) : nat := fold_right Nat.add 0%nat (map (num_to_interfere n) (seq 0 i)).
Definition rect_node (n i j : nat) : option node :=
  match checkerboard_to_param (alpha_checkerboard n) i j with
  | None => None
  | Some a => Some (mkNode (rect_offset n i + j) (0, 0) (0, 0) n (2 * j + i mod 2) (2 * j + 1 + i mod 2) 1 a (Z.of_nat i))
  end.
Definition rect_positions (n : nat) : list (nat * nat) :=
  flat_map (fun i => map (fun j => (i, j)) (seq 0 (num_to_interfere n i))) (seq 0 n).
Definition rectangular (n : nat) (u : mat) : option (mesh * params) :=
  let st := rect_loop n u in
  let ph := rect_phases n st in
  match grid_common_mode_flow n n (fun k r => ph r k) (Some (fun r => ph r n)) with
  | None => None
  | Some (phi, gamma) =>
      let theta := checkerboard_to_param (th_cb st) in
      let phi := checkerboard_to_param (fun r c => phi c r) in
      match all_some (map (fun x => rect_node n (fst x) (snd x)) (rect_positions n)) with
      | None => None
      | Some nds =>
          match mk_mesh nds TOP with
          | None => None
          | Some m => Some (m, mkParams (fun k => nth k (map (fun x => theta (fst x) (snd x)) (rect_positions n)) 0)
                                        (fun k => nth k (map (fun x => phi (fst x) (snd x)) (rect_positions n)) 0) gamma)
          end
      end
  end.

(** rectangular.py:168-176 rectangular_rows, one row: the nodes in loop order (node_id, errors and losses default to 0). *)
Definition row_node (n i j : nat) : node :=
  let p := if Nat.eqb (i mod 2) 1 then (n + j - i - 2)%nat else (i - j)%nat in
  mkNode 0 (0, 0) (0, 0) n (n - p - 2) (n - p - 1) 1 1 (Z.of_nat (if Nat.eqb (i mod 2) 1 then (n - j - 1)%nat else j)).
(** forward.py:546-553 column_ordered: aggregate of the columns; None = an exception. *)
Definition row_mesh (n i : nat) : option mesh :=
  match mk_mesh (map (row_node n i) (seq 0 (i + 1))) TOP with
  | None => None
  | Some m => match columns m with None => None | Some cs => aggregate cs end
  end.
Definition rectangular_rows (n : nat) : option (list mesh) := all_some (map (row_mesh n) (seq 0 (n - 1))).

(** rectangular.py:193-195 random_theta: the sensitivity indices in node order. *)
Definition param_row (n i : nat) : list (option nat) := map (checkerboard_to_param (alpha_checkerboard n) i) (seq 0 (n / 2)).
Definition random_theta (n : nat) : list (option nat) :=
  if Nat.eqb (n mod 2) 1 then flat_map (param_row n) (seq 0 n)
  else flat_map (fun q => removelast (param_row n (2 * q) ++ param_row n (2 * q + 1))) (seq 0 (n / 2)).
