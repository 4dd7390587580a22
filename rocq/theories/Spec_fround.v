(** Rounding errors of complex arithmetic (C157). *)
From Coq Require Import Reals.
From Flocq Require Import Core.
From Verif Require Import Cx Arr Model_forward Model_fround Model_float.
Local Open Scope R_scope.

(** Every result is off by at most the fraction d of its size, and u more (underflow). *)
Definition arith_ok (d u : R) (a : arith) : Prop := 0 <= d /\ 0 <= u /\
  (forall z w, Cabs (amul a z w - z * w)%C <= d * (Cabs z * Cabs w) + u) /\
  (forall z w, Cabs (aadd a z w - (z + w))%C <= d * Cabs (z + w)%C + u) /\
  (forall z, Cabs (astore a z - z)%C <= d * Cabs z + u).
(** The exact arithmetic; complex128 (binary64: real and imaginary parts by the schoolbook formulas, each operation rounded); and
    complex128 with the results written to a complex64 array (binary32), as with the default inputs of matrix(). *)
Definition exact_arith : arith := mkArith Cmul Cadd (fun z => z).
Definition b64_arith : arith := mkArith
  (fun z w => mkC (b64 (b64 (re z * re w) - b64 (im z * im w))) (b64 (b64 (re z * im w) + b64 (im z * re w))))
  (fun z w => mkC (b64 (re z + re w)) (b64 (im z + im w)))
  (fun z => z).
Definition b32 (x : R) : R := round radix2 (FLT_exp (-149) 24) ZnearestE x.
Definition b64_b32_arith : arith := mkArith (amul b64_arith) (aadd b64_arith) (fun z => mkC (b32 (re z)) (b32 (im z))).
(** Two node matrices agree up to e in every entry. *)
Definition near_quad (e : R) (q' q : quad) : Prop :=
  Cabs (t11 q' - t11 q)%C <= e /\ Cabs (t12 q' - t12 q)%C <= e /\ Cabs (t21 q' - t21 q)%C <= e /\ Cabs (t22 q' - t22 q)%C <= e.
