(** Binary64 numbers (C155). *)
From Coq Require Import Reals ZArith.
Local Open Scope R_scope.

(** The finite binary64 numbers, but without an upper limit: 53-bit integers times powers of two from 2^-1074 on. *)
Definition is_b64 (x : R) : Prop := exists m e : Z, x = IZR m * powerRZ 2 e /\ (Z.abs m < 2 ^ 53)%Z /\ (-1074 <= e)%Z.
(** Not subnormal. *)
Definition normal (x : R) : Prop := powerRZ 2 (-1022) <= x.
