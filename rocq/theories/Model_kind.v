(** Model of what the mesh functions do with arrays of real and complex type, and with absent inputs: simphox/circuit/forward.py,
    vector.py.  No proofs in this file.
    Simplification: of numpy's types only the kind matters here (integers and floats are real). *)
From Coq Require Import Reals List Arith ZArith Bool.
From Verif Require Import Cx Arr Model_coupling Model_forward Model_vector Model_hess.
Import ListNotations.
Local Open Scope R_scope.

Inductive kind := real_kind | complex_kind.
Record arr := mkArr { akind : kind; avals : vec }.
(** a += 0j: numpy refuses to write a complex result into a real array (casting rule 'same_kind'). *)
Definition iadd_0j (a : arr) : option arr := match akind a with real_kind => None | complex_kind => Some a end.
(** a + 0j: a new complex array. *)
Definition add_0j (a : arr) : arr := mkArr complex_kind (avals a).
(** forward.py:202-205: inputs += 0j, then the rest of matrix_fn (numpy). *)
Definition matrix_fn_arr (m : mesh) (back : bool) (p : params) (inputs : arr) : option vec :=
  obind (iadd_0j inputs) (fun a => matrix_fn m back p (avals a)).
(** forward.py:414-432 propagate, 296: inputs = inputs + 0j; an omitted argument is passed on as None, and None + 0j raises. *)
Definition propagate_arr (m : mesh) (back explicit : bool) (p : params) (inputs : option arr) : option (list vec) :=
  obind inputs (fun a => propagate m back explicit p (avals (add_0j a))).
(** vector.py:264-314 hessian_fd: v / norm and v.conj() keep the kind; the loop over the n - 1 nodes evaluates matrix_fn()(params, v.conj()),
    and the first evaluation raises if any does (they differ only in params). *)
Definition hessian_fd_arr (eps : R) (v : arr) (n : nat) (balanced : bool) (error : R) : option rmat :=
  obind (conj_unit eps (normalize n (avals v)) n balanced) (fun r =>
  obind (match n - 1 with
         | O => Some tt
         | Datatypes.S _ => obind (matrix_fn_arr (fst r) false (plus_theta (plus_theta (snd r) 0 error) 0 error)
                                     (mkArr (akind v) (fun i => Cconj (normalize n (avals v) i)))) (fun _ => Some tt)
         end%nat) (fun _ => hessian_fd eps (avals v) n balanced error)).
