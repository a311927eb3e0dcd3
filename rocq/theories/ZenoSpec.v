(** Specification for C77: the coefficient of one harmonic on one radial shell of an array. *)
From Coq Require Import Reals List.
From Verif Require Import Base Arith MSphere MGrid GridSpec SphereSpec.
Local Open Scope R_scope.

(** coefficient of Y_lm that the library's analysis returns for the data on shell number ix (real and imaginary part) *)
Definition harmonic (h : sht R) (g : grid R) (v : list R) (ix l m : nat) : R * R :=
  nth (LM (s_lmax h) l m) (s_an h (shell g v ix)) (0, 0).
