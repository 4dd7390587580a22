(** Model of the phase bookkeeping of simphox/circuit/matrix.py:188-246, _bowtie and bowtie (no proofs in this file).  The node list
    of _bowtie is [bowtie_rec] in Model_vector; scipy's svd and qr are parameters as in Model_cs. *)
From Coq Require Import Reals List Arith ZArith Bool.
From Verif Require Import Cx Arr Model_coupling Model_forward Model_vector Model_rect Model_matrix Model_cs.
Import ListNotations.
Local Open Scope R_scope.

Definition svd_fn := nat -> mat -> mat * (nat -> R) * mat.
Definition qr_fn := nat -> nat -> mat -> mat * mat.
(** The two arrays filled by _bowtie: row = layer, entry = rail. *)
Record bphases := { b_thetas : nat -> nat -> R; b_phis : nat -> nat -> R }.
(** Python row index: a negative layer counts from the end. *)
Definition py_row (rows : nat) (layer : Z) : nat := Z.to_nat (if (layer <? 0)%Z then layer + Z.of_nat rows else layer)%Z.
Definition upd_row (a : nat -> nat -> R) (i : nat) (r : nat -> R) : nat -> nat -> R := fun k => if Nat.eqb k i then r else a k.

(** matrix.py:188-218 _bowtie; rows = 2 n_rails - 1 (the phis array), [thetas[layer][start:start + m * 2][::2] = theta]. *)
Fixpoint bowtie_phases (svd : svd_fn) (qr : qr_fn) (fuel rows n : nat) (u : mat) (start : nat) (layer : Z) (st : bphases) : option bphases :=
  match fuel with
  | O => None
  | S fuel =>
      let m := (n / 2)%nat in
      if Nat.eqb n 1 then
        let r := py_row rows layer in
        Some {| b_thetas := b_thetas st;
                b_phis := upd_row (b_phis st) r (upd (b_phis st r) start (b_phis st r start + Carg (u 0%nat 0%nat))) |}
      else
        let f := cs svd qr n u in
        let r := py_row (rows - 2) layer in
        let st := {| b_thetas := upd_row (b_thetas st) r
                       (fun i => if (start <=? i)%nat && (i <? start + m * 2)%nat && Nat.even (i - start)
                                 then cs_theta f ((i - start) / 2)%nat else b_thetas st r i);
                     b_phis := b_phis st |} in
        obind (bowtie_phases svd qr fuel rows m (cs_l0 f) start (layer - Z.of_nat m) st) (fun st =>
        obind (bowtie_phases svd qr fuel rows m (cs_r0 f) start (layer + Z.of_nat m) st) (fun st =>
        obind (bowtie_phases svd qr fuel rows (n - m) (cs_l1 f) (start + m) (layer - Z.of_nat m) st) (fun st =>
        bowtie_phases svd qr fuel rows (n - m) (cs_r1 f) (start + m) (layer + Z.of_nat m) st)))
  end.

(** a[np.nonzero(a)] for a row of n entries. *)
Definition nonzeros (n : nat) (a : nat -> R) : list R := filter (fun x => if Req_EM_T x 0 then false else true) (map a (seq 0 n)).
(** x[(idxs,)] = vals: equal lengths, or one value broadcast; anything else raises. *)
Definition fancy_set (x : nat -> R) (idxs : list nat) (vals : list R) : option (nat -> R) :=
  if Nat.eqb (length vals) (length idxs) then Some (assign x (combine idxs vals))
  else match vals with [v] => Some (assign x (map (fun i => (i, v)) idxs)) | _ => None end.

(** matrix.py:238-244: the loop over the columns; state (theta, phi, phis). *)
Definition bowtie_col (n : nat) (thetas : nat -> nat -> R) (st : (nat -> R) * (nat -> R) * (nat -> nat -> R)) (p : nat * mesh)
  : option ((nat -> R) * (nat -> R) * (nat -> nat -> R)) :=
  let '(theta, phi, phis) := st in let '(c, col) := p in
  obind (fancy_set theta (node_idxs col) (nonzeros n (thetas c))) (fun theta =>                                   (* 239 *)
  let tops := map top (nodes col) in let bots := map bottom (nodes col) in
  let phi := assign phi (combine (node_idxs col) (map (fun tb => phis c (fst tb) - phis c (snd tb)) (combine tops bots))) in  (* 240 *)
  let row := assign (phis c) (map (fun tb => (fst tb, phis c (snd tb))) (combine tops bots)) in                   (* 241 *)
  let phis := upd_row phis c row in
  let phis := upd_row phis (c + 1) (fun i => mod2pi (phis (c + 1)%nat i + phis c i)) in                           (* 242-244 *)
  Some (theta, phi, phis)).
Fixpoint fold_opt {A B : Type} (f : A -> B -> option A) (l : list B) (a : A) : option A :=
  match l with [] => Some a | b :: r => match f a b with Some a' => fold_opt f r a' | None => None end end.

(** matrix.py:220-246 bowtie: the circuit and its parameters. *)
Definition bowtie (svd : svd_fn) (qr : qr_fn) (n : nat) (u : mat) : option (mesh * params) :=
  obind (bowtie_phases svd qr n (2 * n - 1) n u 0 (Z.of_nat n - 2) {| b_thetas := fun _ _ => 0; b_phis := fun _ _ => 0 |}) (fun st =>
  obind (bowtie_nodes n) (fun l =>
  obind (mk_mesh l TOP) (fun circuit =>
  let phis := fun r => b_phis st (r + 1)%nat in                                                                   (* 234 *)
  obind (columns circuit) (fun cols =>
  obind (fold_opt (bowtie_col n (b_thetas st)) (combine (seq 0 (length cols)) cols) (fun _ => 0, fun _ => 0, phis)) (fun r =>
  let '(theta, phi, phis) := r in
  Some (circuit, mkParams (fun k => theta k * 2) phi (phis (2 * n - 3)%nat))))))).                                (* 245 *)
