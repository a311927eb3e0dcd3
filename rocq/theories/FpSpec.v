(** * Specification vocabulary for IEEE binary64 numbers ([spec_float] of the standard library). *)
From Coq Require Import ZArith Reals SpecFloat Bool.
Local Open Scope R_scope.

(** [x] is the datum of a C++ double: a zero, an infinity, the NaN or a normalised finite number whose
    mantissa and exponent fit (the standard library's [valid_binary]). *)
Definition is_double (x : spec_float) : Prop := valid_binary 53 1024 x = true.
(** neither infinite nor NaN *)
Definition is_fin (x : spec_float) : Prop :=
  match x with S754_zero _ | S754_finite _ _ _ => True | _ => False end.
Definition fin (x : spec_float) : Prop := is_double x /\ is_fin x.
(** the real number a finite double stands for: (-1)^s m 2^e *)
Definition val (x : spec_float) : R :=
  match x with
  | S754_finite s m e => (if s then -1 else 1) * IZR (Zpos m) * powerRZ 2 e
  | _ => 0
  end.
(** unit roundoff of round-to-nearest, 2^-53, and half the smallest subnormal, 2^-1075 *)
Definition uu : R := / 2 ^ 53.
Definition eta : R := / 2 ^ 1075.
