(** Model of simphox/circuit/forward.py (no proofs in this file).
    Simplifications: exact reals; an (N, K) input array is K independent columns, so inputs and outputs
    are single vectors; arrays indexed by node (thetas, phis) are functions [nat -> R]; the random initial
    params of a mesh (forward.py:60-62) are always passed explicitly. [None] models a Python exception. *)
From Coq Require Import Reals List ZArith Bool.
From Verif Require Import Cx Arr Model_coupling.
Import ListNotations.
Local Open Scope R_scope.

(** A ForwardMesh after __post_init__ (only the attributes used below). *)
Record mesh := mkMesh {
  nodes : list node;
  style : phase_style;
  node_idxs : list nat;       (* forward.py:51-55 *)
  n_rails : nat;              (* self.n, forward.py:56 *)
  bs_errors : list (R * R);   (* forward.py:48, in list order *)
  losses : list (R * R);      (* forward.py:49, in list order *)
  column_by_node : list Z;    (* forward.py:59 *)
  num_columns : Z }.          (* forward.py:65 *)

Record params := mkParams { thetas : nat -> R; phis : nat -> R; gammas : nat -> R }.

Definition with_id (nd : node) (i : nat) : node :=
  mkNode i (loss nd) (bs_error nd) (n_of nd) (top nd) (bottom nd) (alpha nd) (beta nd) (column nd).
Definition with_column (nd : node) (c : Z) : node :=
  mkNode (node_id nd) (loss nd) (bs_error nd) (n_of nd) (top nd) (bottom nd) (alpha nd) (beta nd) c.
Definition with_errors (nd : node) (e l : R * R) : node :=
  mkNode (node_id nd) l e (n_of nd) (top nd) (bottom nd) (alpha nd) (beta nd) (column nd).

Fixpoint zmax (l : list Z) (d : Z) : Z := match l with [] => d | x :: r => Z.max x (zmax r d) end.

(** forward.py:52-55: if the ids sum to zero they are replaced (in place) by 0,1,2,... *)
Definition renumber (l : list node) : list node :=
  if Nat.eqb (fold_right Nat.add 0%nat (map node_id l)) 0
  then map (fun p => with_id (snd p) (fst p)) (combine (seq 0 (length l)) l)
  else l.

(** forward.py:44-65 ForwardMesh.__post_init__.  An empty node list makes [_mzi_terms(self.all_errors)]
    (forward.py:50, 735) raise (unpacking an empty array). *)
Definition mk_mesh (l : list node) (s : phase_style) : option mesh :=
  match l with
  | [] => None
  | nd :: _ =>
      let l' := renumber l in
      Some (mkMesh l' s (map node_id l') (n_of nd) (map bs_error l) (map loss l) (map column l)
                   (zmax (map column l) (column nd) + 1))
  end.

(** forward.py:71-83 offset: only the nodes' ids change; the cached [node_idxs] does not. *)
Definition offset (m : mesh) (k : nat) : mesh :=
  mkMesh (map (fun nd => with_id nd (node_id nd + k)) (nodes m)) (style m) (node_idxs m) (n_rails m)
         (bs_errors m) (losses m) (column_by_node m) (num_columns m).
(** forward.py:85-97 offset_column: the cached [column_by_node] and [num_columns] do not change. *)
Definition offset_column (m : mesh) (k : Z) : mesh :=
  mkMesh (map (fun nd => with_column nd (column nd + k)%Z) (nodes m)) (style m) (node_idxs m) (n_rails m)
         (bs_errors m) (losses m) (column_by_node m) (num_columns m).
(** forward.py:99-112 invert_columns *)
Definition invert_columns (m : mesh) : mesh :=
  let l := map (fun nd => with_column nd (num_columns m - 1 - column nd)%Z) (nodes m) in
  mkMesh l (style m) (node_idxs m) (n_rails m) (bs_errors m) (losses m) (map column l) (num_columns m).

(** forward.py:132-149 aggregate (every argument a mesh): note [cls(all_nodes)], i.e. style TOP. *)
Definition aggregate (ms : list mesh) : option mesh := mk_mesh (concat (map nodes ms)) TOP.

Fixpoint all_some {A : Type} (l : list (option A)) : option (list A) :=
  match l with
  | [] => Some []
  | None :: _ => None
  | Some a :: r => match all_some r with Some r' => Some (a :: r') | None => None end
  end.

(** forward.py:163-167: the nodes with a given column label, in list order. *)
Definition nodes_in_column (l : list node) (c : Z) : list node :=
  filter (fun nd => Z.eqb (column nd) c) l.

(** forward.py:151-167 columns.  (The column meshes share the node objects; the in-place renumbering of
    forward.py:52-55 can only change ids of a column whose ids are all zero.) *)
Definition columns (m : mesh) : option (list mesh) :=
  all_some (map (fun c => mk_mesh (nodes_in_column (nodes m) (Z.of_nat c)) (style m))
                (seq 0 (Z.to_nat (num_columns m)))).

(** Four matrix elements per node, in the order of forward.py:707. *)
Record quad := mkQuad { t11 : C; t12 : C; t21 : C; t22 : C }.

(** bool as 0/1 *)
Definition b2R (b : bool) : R := if b then 1 else 0.

(** forward.py:659-707 _parallel_mzi, elements of one node.  il, ir: forward.py:683. *)
Definition parallel_mzi (s : phase_style) (back : bool) (theta phi : R) (err ls : R * R) : quad :=
  let '(cc, cs, sc, ss) := mzi_terms err in
  let il := ln 10 * fst ls / 20 in
  let ir := ln 10 * snd ls / 20 in
  let et := Cexp (mkC il theta) in                       (* exp(1j * theta + il) *)
  match s with
  | TOP =>
      mkQuad ((RtoC (- ss) + RtoC cc * et) * Cexp (mkC ir phi))
             (Ci * (RtoC cs + RtoC sc * et) * Cexp (mkC (ir * (1 - b2R back)) (phi * (1 - b2R back))))
             (Ci * (RtoC sc + RtoC cs * et) * Cexp (mkC (ir * b2R back) (phi * b2R back)))
             (RtoC cc - RtoC ss * et)
  | BOTTOM =>
      mkQuad (RtoC (- ss) * et + RtoC cc)
             (Ci * (RtoC cs * et + RtoC sc) * Cexp (mkC (ir * b2R back) (phi * b2R back)))
             (Ci * (RtoC sc * et + RtoC cs) * Cexp (mkC (ir * (1 - b2R back)) (phi * (1 - b2R back))))
             ((RtoC cc * et - RtoC ss) * Cexp (mkC ir phi))
  | SYMMETRIC =>
      let e := Cexp (mkC ir (phi - theta / 2)) in
      mkQuad ((RtoC (- ss) + RtoC cc * et) * e)
             (Ci * (RtoC cs + RtoC sc * et) * e)
             (Ci * (RtoC sc + RtoC cs * et) * e)
             ((RtoC cc - RtoC ss * et) * e)
  | DIFFERENTIAL =>
      let e1 := Cexp (mkC ir ((- phi - theta) / 2 + phi * b2R back)) in
      let e2 := Cexp (mkC ir ((phi - theta) / 2 - phi * b2R back)) in
      mkQuad ((RtoC (- ss) + RtoC cc * et) * e1)
             (Ci * (RtoC cs + RtoC sc * et) * e1)
             (Ci * (RtoC sc + RtoC cs * et) * e2)
             ((RtoC cc - RtoC ss * et) * e2)
  end%C.

(** forward.py:710-730 _parallel_dc, elements of one node. *)
Definition parallel_dc (right : bool) (err ls : R * R) : quad :=
  let insertion := exp (ln 10 * sel ls right / 20) in
  let e := sel err right in
  mkQuad (RtoC (insertion * sin (PI / 4 + e))) (RtoC insertion * Ci * RtoC (cos (PI / 4 + e)))%C
         (Ci * RtoC (cos (PI / 4 + e)))%C (RtoC (sin (PI / 4 + e))).

(** The (top, bottom, node_idxs) index triple of a column, forward.py:655-656. *)
Definition triples (m : mesh) : list (nat * nat * nat) :=
  combine (combine (map top (nodes m)) (map bottom (nodes m))) (node_idxs m).

(** forward.py:742-765 _parallel_transform, numpy branch: all reads from the old [v],
    then [v[top + bottom] = vstack(new_top, new_bottom)]. *)
Definition parallel_transform (el : nat -> quad) (idx : list (nat * nat * nat)) (v : vec) : vec :=
  assign v
    (map (fun x => let '(t, b, k) := x in (t, t11 (el k) * v t + t21 (el k) * v b)%C) idx ++
     map (fun x => let '(t, b, k) := x in (b, t12 (el k) * v t + t22 (el k) * v b)%C) idx).

(** forward.py:742-765 _parallel_transform, jax branch with the 0/1 mask of [idx]; the scatter
    [.at[].set] may apply its writes in any order: [perm_order] is that order. *)
Definition masked (mask : bool) (q : quad) : quad :=
  let mk := RtoC (b2R mask) in
  mkQuad (t11 q * mk + (C1 - mk)) (t12 q * mk) (t21 q * mk) (t22 q * mk + (C1 - mk))%C.
Definition jax_writes (el : nat -> quad) (idx : list (nat * nat * nat * bool)) (v : vec) : list (nat * C) :=
  map (fun x => let '(t, b, k, mk) := x in
                let q := masked mk (el k) in (t, t11 q * v t + t21 q * v b)%C) idx ++
  map (fun x => let '(t, b, k, mk) := x in
                let q := masked mk (el k) in (b, t12 q * v t + t22 q * v b)%C) idx.
Definition parallel_transform_jax (perm_order : list (nat * C) -> list (nat * C))
  (el : nat -> quad) (idx : list (nat * nat * nat * bool)) (v : vec) : vec :=
  assign v (perm_order (jax_writes el idx v)).

(** forward.py:213-214, 224-225: (exp(1j * gammas) * outputs.T).T *)
Definition apply_gammas (g : nat -> R) (v : vec) : vec := fun i => (cis (g i) * v i)%C.

(** Array access by node index, with the per-node arrays of the mesh in LIST order. *)
Definition err_at (m : mesh) (k : nat) : R * R := nth k (bs_errors m) (0, 0).
Definition loss_at (m : mesh) (k : nat) : R * R := nth k (losses m) (0, 0).

(** forward.py:208-211: the elements of all nodes. *)
Definition mzis (m : mesh) (back : bool) (p : params) : nat -> quad :=
  fun k => parallel_mzi (style m) back (thetas p k) (phis p k) (err_at m k) (loss_at m k).

(** IndexError guard: every rail and node index of the columns is in range. *)
Definition idx_ok (n num_nodes : nat) (idx : list (nat * nat * nat)) : bool :=
  forallb (fun x => let '(t, b, k) := x in (Nat.ltb t n && Nat.ltb b n && Nat.ltb k num_nodes)%bool) idx.

(** forward.py:172-228 matrix_fn (use_jax=False), on one input vector. *)
Definition matrix_fn (m : mesh) (back : bool) (p : params) (x : vec) : option vec :=
  match columns m with
  | None => None
  | Some cols =>
      let idxs := map triples (if back then rev cols else cols) in
      if forallb (idx_ok (n_rails m) (length (bs_errors m))) idxs then
        let x := if back then apply_gammas (gammas p) x else x in
        let y := fold_left (fun v idx => parallel_transform (mzis m back p) idx v) idxs x in
        Some (if back then y else apply_gammas (gammas p) y)
      else None
  end.

(** forward.py:169-170 matrix: entry (i, j) is output i for the j-th basis vector. *)
Definition matrix (m : mesh) (back : bool) (p : params) (i j : nat) : option C :=
  match matrix_fn m back p (basis j) with Some y => Some (y i) | None => None end.

(** forward.py:252-253: rails not used by the column, ascending. *)
Definition dummy_fill (n : nat) (idx : list (nat * nat * nat)) : list nat :=
  filter (fun r => negb (existsb (fun x => let '(t, b, _) := x in (Nat.eqb r t || Nat.eqb r b)%bool) idx))
         (seq 0 n).

(** forward.py:230-268 idx: pad the column to width [w] (index arrays start as zeros). *)
Definition pad_column (n w : nat) (idx : list (nat * nat * nat)) : list (nat * nat * nat * bool) :=
  let d := hd 0%nat (dummy_fill n idx) in
  map (fun x => (x, true)) idx ++ repeat (d, d, 0%nat, false) (w - length idx).
Definition padded_idx (n : nat) (idxs : list (list (nat * nat * nat))) : list (list (nat * nat * nat * bool)) :=
  let w := fold_right Nat.max 0%nat (map (@length _) idxs) in
  map (pad_column n w) idxs.

(** forward.py:172-228 matrix_fn (use_jax=True): lax.scan over the padded columns. *)
Definition matrix_fn_jax (order : list (nat * C) -> list (nat * C)) (m : mesh) (back : bool) (p : params)
  (x : vec) : option vec :=
  match columns m with
  | None => None
  | Some cols =>
      let idxs := map triples (if back then rev cols else cols) in
      if forallb (idx_ok (n_rails m) (length (bs_errors m))) idxs then
        let x := if back then apply_gammas (gammas p) x else x in
        let y := fold_left (fun v idx => parallel_transform_jax order (mzis m back p) idx v)
                           (padded_idx (n_rails m) idxs) x in
        Some (if back then y else apply_gammas (gammas p) y)
      else None
  end.

(** forward.py:768-778 _parallel_multiply, numpy branch: in-place multiply (reads before writes);
    SYMMETRIC and DIFFERENTIAL raise ValueError. *)
Definition parallel_multiply (s : phase_style) (ph : nat -> R) (idx : list (nat * nat * nat)) (v : vec) : option vec :=
  match s with
  | TOP => Some (assign v (map (fun x => let '(t, b, k) := x in (t, v t * cis (ph k))%C) idx))
  | BOTTOM => Some (assign v (map (fun x => let '(t, b, k) := x in (b, v b * cis (ph k))%C) idx))
  | _ => None
  end.

Definition obind {A B : Type} (o : option A) (f : A -> option B) : option B :=
  match o with Some a => f a | None => None end.

(** forward.py:780-803 _parallel_propagate: the four intermediate fields of a column. *)
Definition parallel_propagate (s : phase_style) (back : bool) (p : params) (left right : nat -> quad)
  (idx : list (nat * nat * nat)) (v : vec) : option (list vec) :=
  if back then
    let v1 := parallel_transform right idx v in
    obind (parallel_multiply s (thetas p) idx v1) (fun v2 =>
    let v3 := parallel_transform left idx v2 in
    obind (parallel_multiply s (phis p) idx v3) (fun v4 => Some [v1; v2; v3; v4]))
  else
    obind (parallel_multiply s (phis p) idx v) (fun v1 =>
    let v2 := parallel_transform left idx v1 in
    obind (parallel_multiply s (thetas p) idx v2) (fun v3 =>
    let v4 := parallel_transform right idx v3 in Some [v1; v2; v3; v4])).

(** forward.py:270-340 propagate_matrix_fn with column_cutoff=None, numpy: the list of slices.
    With the default cutoff no column is skipped: forward, [num_columns <= column] is never true; backward,
    [num_columns + 1 < column] is never true (forward.py:324-327). *)
Fixpoint prop_implicit (el : nat -> quad) (idxs : list (list (nat * nat * nat))) (v : vec) : list vec :=
  match idxs with
  | [] => []
  | i :: r => let v' := parallel_transform el i v in v' :: prop_implicit el r v'
  end.
Fixpoint prop_explicit (s : phase_style) (back : bool) (p : params) (left right : nat -> quad)
  (idxs : list (list (nat * nat * nat))) (v : vec) : option (list vec) :=
  match idxs with
  | [] => Some []
  | i :: r =>
      obind (parallel_propagate s back p left right i v) (fun sl =>
      obind (prop_explicit s back p left right r (last sl v)) (fun rest => Some (sl ++ rest)))
  end.
Definition propagate (m : mesh) (back explicit : bool) (p : params) (x : vec) : option (list vec) :=
  obind (columns m) (fun cols =>
    let idxs := map triples (if back then rev cols else cols) in
    if forallb (idx_ok (n_rails m) (length (bs_errors m))) idxs then
      let head := if back then [x; apply_gammas (gammas p) x] else [x] in
      let start := last head x in
      obind (if explicit
             then prop_explicit (style m) back p (fun k => parallel_dc false (err_at m k) (loss_at m k))
                                (fun k => parallel_dc true (err_at m k) (loss_at m k)) idxs start
             else Some (prop_implicit (mzis m back p) idxs start))
        (fun sl =>
           let fin := last sl start in
           Some (head ++ sl ++ (if back then [] else [apply_gammas (gammas p) fin])))
    else None).

(** forward.py:474-498 parallel_nullify, one node with MZI terms [terms]; [None]: NotImplementedError. *)
Definition nullify_theta (eps : R) (terms : R * R * R * R) (t b : C) : R :=
  transmissivity_to_phase (direct_transmissivity_eps eps t b) (Some terms).
Definition nullify_phi (s : phase_style) (terms : R * R * R * R) (theta : R) (t b : C) : option R :=
  let '(cc, cs, sc, ss) := terms in
  let corr := Carg (RtoC (- ss) + RtoC cc * cis (- theta))%C -
              Carg (Ci * (RtoC cs + cis (- theta) * RtoC sc))%C in
  match s with
  | SYMMETRIC => None
  | BOTTOM => Some (Carg t - Carg b + PI + corr)
  | _ => Some (Carg b - Carg t + corr)
  end.

(** np.mod(x, 2*pi) for real x: x - 2 pi floor(x / (2 pi)). *)
Definition mod2pi (x : R) : R := x - 2 * PI * IZR (Int_part (x / (2 * PI))).

(** forward.py:555-575 add_error_mean with per-node arrays (a scalar is broadcast to constant arrays) *)
Definition add_error_mean (m : mesh) (errs ls : list (R * R)) : option mesh :=
  mk_mesh (map (fun x => let '(nd, (e, l)) := x in with_errors nd e l) (combine (nodes m) (combine errs ls)))
          (style m).
