(** Model of simphox/circuit/coupling.py (no proofs in this file).
    Simplifications: float64/complex128 are exact reals/complex numbers; a 2x2 numpy array is the
    record [mat2]; the [dataframe]/pydantic plumbing is dropped. *)
From Coq Require Import Reals List ZArith.
From Verif Require Import Cx Arr.
Import ListNotations.
Local Open Scope R_scope.

(** A 2x2 complex array, row by row. *)
Record mat2 := mk2 { m11 : C; m12 : C; m21 : C; m22 : C }.

(** numpy's [@] on 2x2 arrays. *)
Definition mul2 (a b : mat2) : mat2 :=
  mk2 (m11 a * m11 b + m12 a * m21 b)%C (m11 a * m12 b + m12 a * m22 b)%C
      (m21 a * m11 b + m22 a * m21 b)%C (m21 a * m12 b + m22 a * m22 b)%C.

(** coupling.py:9-13 phase_matrix *)
Definition phase_matrix (top bottom : R) : mat2 := mk2 (cis top) C0 C0 (cis bottom).

(** coupling.py:16-20 coupling_matrix_s *)
Definition coupling_matrix_s (s : R) : mat2 :=
  mk2 (RtoC (sqrt (1 - s))) (RtoC (sqrt s)) (RtoC (sqrt s)) (RtoC (- sqrt (1 - s))).

(** coupling.py:23-24 loss2insertion *)
Definition loss2insertion (loss_db : R) : R := sqrt (exp (ln 10 * loss_db / 10)).

(** A Python value that is either a float or a pair of floats (the annotation
    [Union[float, Tuple[float, float]]], coupling.py:83). *)
Inductive pyfloats := PyFloat (x : R) | PyPair (x y : R).

(** coupling.py:27-32 coupling_matrix_phase on scalar errors. *)
Definition coupling_matrix_phase (theta split_error loss_error : R) : mat2 :=
  let insertion := loss2insertion loss_error in
  mk2 (RtoC (insertion * cos (theta / 2 + split_error / 2)))
      (RtoC insertion * Ci * RtoC (sin (theta / 2 + split_error / 2)))%C
      (Ci * RtoC (sin (theta / 2 + split_error / 2)))%C
      (RtoC (sin (theta / 2 + split_error / 2))).

(** coupling.py:27-32 again, on Python values: [tuple / 2] raises TypeError ([None]). *)
Definition coupling_matrix_phase_py (theta : R) (split_error loss_error : pyfloats) : option mat2 :=
  match split_error, loss_error with
  | PyFloat s, PyFloat l => Some (coupling_matrix_phase theta s l)
  | PyFloat s, PyPair _ _ => None (* the array is ragged: ValueError *)
  | PyPair _ _, _ => None (* TypeError: unsupported operand type(s) for /: 'tuple' and 'int' *)
  end.

(** coupling.py:35-43 _embed_2x2: writes in program order into the identity.
    The shape check (35-37) is discharged by the type [mat2]. *)
Definition upd2 (a : mat) (i j : nat) (x : C) : mat :=
  fun r c => if (Nat.eqb r i && Nat.eqb c j)%bool then x else a r c.
Definition embed_2x2 (m : mat2) (n i j : nat) : mat :=
  upd2 (upd2 (upd2 (upd2 delta i i (m11 m)) i j (m12 m)) j i (m21 m)) j j (m22 m).

(** coupling.py:46-61 PhaseStyle *)
Inductive phase_style := TOP | BOTTOM | DIFFERENTIAL | SYMMETRIC.

(** coupling.py:64-95 CouplingNode.  [top], [bottom], [node_id] are naturals (negative rails would wrap
    in numpy; no caller produces them); [column] is an integer because relabelling may make it negative. *)
Record node := mkNode {
  node_id : nat; loss : R * R; bs_error : R * R; n_of : nat;
  top : nat; bottom : nat; alpha : nat; beta : nat; column : Z }.

(** coupling.py:95: a scalar error is duplicated. *)
Definition norm_bs_error (e : pyfloats) : R * R :=
  match e with PyFloat x => (x, x) | PyPair x y => (x, y) end.

(** Tuple indexing with a bool: error[right] *)
Definition sel (p : R * R) (right : bool) : R := if right then snd p else fst p.

(** coupling.py:97-104 CouplingNode.mzi_terms as (cc, cs, sc, ss); the same formula is _mzi_terms,
    forward.py:733-739. *)
Definition mzi_terms (e : R * R) : R * R * R * R :=
  (cos (PI / 4 + snd e) * cos (PI / 4 + fst e),
   cos (PI / 4 + snd e) * sin (PI / 4 + fst e),
   sin (PI / 4 + snd e) * cos (PI / 4 + fst e),
   sin (PI / 4 + snd e) * sin (PI / 4 + fst e)).

(** coupling.py:148-163 CouplingNode.dc *)
Definition dc (nd : node) (right : bool) : mat2 :=
  let error := sel (bs_error nd) right in
  let insertion := loss2insertion (sel (loss nd) right) in
  mk2 (RtoC (cos (PI / 4 + error) * insertion)) (Ci * RtoC (sin (PI / 4 + error)) * RtoC insertion)%C
      (Ci * RtoC (sin (PI / 4 + error)))%C (RtoC (cos (PI / 4 + error))).

(** coupling.py:120-133 CouplingNode.mzi_node_matrix, embed=False and embed=True. *)
Definition mzi_node_matrix2 (nd : node) (theta phi : R) : mat2 :=
  mul2 (mul2 (mul2 (dc nd true) (phase_matrix theta 0)) (dc nd false)) (phase_matrix phi 0).
Definition mzi_node_matrix (nd : node) (theta phi : R) : mat :=
  embed_2x2 (mzi_node_matrix2 nd theta phi) (n_of nd) (top nd) (bottom nd).

(** coupling.py:106-118 CouplingNode.ideal_node *)
Definition ideal_node2 (s phi : R) : mat2 := mul2 (phase_matrix phi 0) (coupling_matrix_s s).
Definition ideal_node (nd : node) (s phi : R) : mat :=
  embed_2x2 (ideal_node2 s phi) (n_of nd) (top nd) (bottom nd).

(** coupling.py:165-178 CouplingNode.mmi_node_matrix (embed=False): bs_error and loss are pairs after
    __post_init_post_parse__. *)
Definition mmi_node_matrix2 (nd : node) (theta phi : R) : option mat2 :=
  match coupling_matrix_phase_py theta (PyPair (fst (bs_error nd)) (snd (bs_error nd)))
                                 (PyPair (fst (loss nd)) (snd (loss nd))) with
  | Some m => Some (mul2 m (phase_matrix phi 0))
  | None => None
  end.

(** np.spacing(1) = 2^-52 *)
Definition np_spacing1 : R := / 2 ^ 52.

(** coupling.py:195-206 direct_transmissivity (one element); [eps] is np.spacing(1). *)
Definition direct_transmissivity_eps (eps : R) (t b : C) : R := Cn2 t / (Cn2 t + Cn2 b + eps).
Definition direct_transmissivity (t b : C) : R := direct_transmissivity_eps np_spacing1 t b.

(** coupling.py:209-225 transmissivity_to_phase (one element) *)
Definition transmissivity_to_phase (s : R) (terms : option (R * R * R * R)) : R :=
  let '(cs, sc) := match terms with
                   | Some (_, cs, sc, _) => (cs, sc)
                   | None => (1 / 2, 1 / 2)
                   end in
  acos (Rmin (Rmax ((s - cs ^ 2 - sc ^ 2) / (2 * cs * sc)) (-1)) 1).

(** numpy's matrix-vector product of an n x n array with a vector. *)
Definition matvec (n : nat) (m : mat) (v : vec) : vec := fun i => Csum n (fun j => m i j * v j)%C.
(** numpy's [@] on n x n arrays. *)
Definition matmul (n : nat) (a b : mat) : mat := fun i j => Csum n (fun k => a i k * b k j)%C.
