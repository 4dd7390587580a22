(** Rounding errors of the FDTD (C160). *)
From Coq Require Import Reals List Arith.
From Verif Require Import Cx Arr Model_yee Model_fdtd Spec_yee Spec_fdtd Model_fdtdfl Model_float.
Import ListNotations.
Local Open Scope R_scope.

(** Every result is off by at most the fraction d of its size, and u more (underflow); quotients by numbers between lo and hi. *)
Definition farith_ok (d u lo hi : R) (ar : farith) : Prop := 0 <= d /\ 0 <= u /\ 0 < lo /\
  (forall z w, Cabs (fa_add ar z w - (z + w))%C <= d * Cabs (z + w)%C + u) /\
  (forall z w, Cabs (fa_sub ar z w - (z - w))%C <= d * Cabs (z - w)%C + u) /\
  (forall z x, Cabs (fa_mul ar z x - z * RtoC x)%C <= d * (Cabs z * Rabs x) + u) /\
  (forall z x, lo <= x <= hi -> Cabs (fa_div ar z x - z / RtoC x)%C <= d * (Cabs z / x) + u).
(** The machine's dt and permittivities have the relative accuracy e; divisors are in range. *)
Definition const_ok (e lo hi : R) (g : fgrid) (mc : mconst) : Prop := 0 <= e /\ Rabs (m_dt mc - dt_of g) <= e * dt_of g /\
  (forall a, lo <= (if is_active g a then g_spacing g a else 1) <= hi) /\
  forall c i j k, in_grid (g_shape g) i j k -> lo <= m_eps mc c i j k <= hi /\ Rabs (m_eps mc c i j k - eps_t g false c i j k) <= e * eps_t g false c i j k.
(** What the sources of one step add to the fields. *)
Definition push (g : fgrid) (srcs : list source) : fstate := mkState
  (fun c i j k => current src_e srcs c i j k / RtoC (eps_t g false c i j k) * RtoC (dt_of g))%C
  (fun c i j k => current src_h srcs c i j k * RtoC (dt_of g))%C.
(** complex128 with float64 (numpy): real and imaginary parts separately; division multiplies by the rounded reciprocal (Smith's algorithm
    with a zero imaginary part). *)
Definition b64_farith : farith := mkFarith
  (fun z w => mkC (b64 (re z + re w)) (b64 (im z + im w)))
  (fun z w => mkC (b64 (re z - re w)) (b64 (im z - im w)))
  (fun z x => mkC (b64 (re z * x)) (b64 (im z * x)))
  (fun z x => mkC (b64 (re z * b64 (1 / x))) (b64 (im z * b64 (1 / x)))).
(** Exact arithmetic. *)
Definition exact_farith : farith := mkFarith Cadd Csub (fun z x => z * RtoC x)%C (fun z x => z / RtoC x)%C.
Definition exact_const (g : fgrid) : mconst := mkConst (dt_of g) (eps_t g false).
