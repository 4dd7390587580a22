(** Model of how sizes become cell counts and indices in binary64 arithmetic: grid.py Grid.__init__, fill, add, slice; utils.py Box.
    No proofs in this file.
    Simplifications: no overflow, infinities, NaN or signed zeros; one axis at a time (the code works on arrays elementwise). *)
From Coq Require Import Reals ZArith.
From Flocq Require Import Core.
Local Open Scope R_scope.

(** A numpy float64 operation returns the exact result rounded to the nearest binary64 number, ties to even. *)
Definition b64 (x : R) : R := round radix2 (FLT_exp (-1074) 53) ZnearestE x.
(** np.around(x).astype(int): nearest integer, ties to even. *)
Definition around_int (x : R) : Z := ZnearestE x.
(** int(x): truncation. *)
Definition int_of (x : R) : Z := Ztrunc x.
(** grid.py:68 self.shape = np.around(self.size / self.spacing).astype(int). *)
Definition grid_cells (size spacing : R) : Z := around_int (b64 (size / spacing)).
(** grid.py:199-211 slice along one axis: c, shape, shape // 2; the range of indices (shape > 0). *)
Definition slice_range (center size spacing : R) : Z * Z :=
  let c := around_int (b64 (center / spacing)) in
  let n := around_int (b64 (size / spacing)) in
  ((c - n / 2)%Z, (c - n / 2 + n)%Z).
(** grid.py:101 fill: self.eps[..., :int(height / self.spacing[-1])]. *)
Definition fill_count (height spacing : R) : Z := int_of (b64 (height / spacing)).
(** grid.py:127 add: zidx. *)
Definition add_range (zmin thickness dx dy : R) : Z * Z :=
  (int_of (b64 (zmin / dx)), int_of (b64 (b64 (zmin + thickness) / dy))).
(** utils.py:91-97 Box.min_i, max_i along one axis; max = min + size. *)
Definition box_range (mn size spacing : R) : Z * Z :=
  (int_of (b64 (mn / spacing)), int_of (b64 (b64 (mn + size) / spacing))).
(** grid.py:343 self.pml_shape = (np.asarray(pml, dtype=float) / self.spacing).astype(np.int). *)
Definition pml_cells (pml spacing : R) : Z := int_of (b64 (pml / spacing)).
