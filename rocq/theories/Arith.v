(** * The floating-point operations used by the sources, without laws.
    [Arith R] is exact real arithmetic; [Arith spec_float] (see [b64]) is IEEE binary64,
    round to nearest even, from the standard library's executable SpecFloat. *)
From Coq Require Import ZArith Reals SpecFloat Bool.

Class Arith (F : Type) := {
  fadd : F -> F -> F;   fsub : F -> F -> F;
  fmul : F -> F -> F;   fdiv : F -> F -> F;
  fopp : F -> F;        fabs : F -> F;
  flt  : F -> F -> bool;              (* a < b *)
  fofZ : Z -> F;                      (* conversion of an integer / an integral literal *)
  fdec : Z -> Z -> F;                 (* decimal literal m * 10^e *)
  fpow : F -> nat -> F;               (* pow(x,n) with a small integer literal n *)
  fpowh : F -> F;                     (* pow(x,0.5) *)
  fexp : F -> F;  flog : F -> F;  fcos : F -> F;  fsin : F -> F;  facos : F -> F;
  fpi  : F                            (* M_PI *)
}.

Declare Scope fscope.
Delimit Scope fscope with f.
Infix "+" := fadd : fscope.   Infix "-" := fsub : fscope.
Infix "*" := fmul : fscope.   Infix "/" := fdiv : fscope.
Notation "- x" := (fopp x) : fscope.
Infix "<?" := flt : fscope.
Notation "'#' z" := (fofZ z) (at level 1, z at level 0) : fscope.
Notation "x '^^' n" := (fpow x n%nat) (at level 30, right associativity) : fscope.

(** complex<double> as pairs *)
Definition cplx (F : Type) : Type := (F * F)%type.

Section Ops.
  Context {F : Type} {A : Arith F}.
  Definition fnat (n : nat) : F := fofZ (Z.of_nat n).       (* double(size_t) *)
  Definition f0 : F := fofZ 0.
  Definition f1 : F := fofZ 1.
  Definition cadd (x y : cplx F) : cplx F := (fadd (fst x) (fst y), fadd (snd x) (snd y)).
  Definition cmul (x y : cplx F) : cplx F :=
    (fsub (fmul (fst x) (fst y)) (fmul (snd x) (snd y)),
     fadd (fmul (fst x) (snd y)) (fmul (snd x) (fst y))).
  Definition cscale (a : F) (x : cplx F) : cplx F := (fmul a (fst x), fmul a (snd x)).
  Definition c0 : cplx F := (f0, f0).
End Ops.

(** Exact real arithmetic. *)
Definition Rltb (x y : R) : bool := if Rlt_dec x y then true else false.
#[global] Instance R_arith : Arith R := {|
  fadd := Rplus; fsub := Rminus; fmul := Rmult; fdiv := Rdiv; fopp := Ropp; fabs := Rabs;
  flt := Rltb; fofZ := IZR; fdec := fun m e => (IZR m * powerRZ 10 e)%R;
  fpow := pow; fpowh := sqrt; fexp := exp; flog := ln; fcos := cos; fsin := sin; facos := acos;
  fpi := PI |}.

(** IEEE binary64. The libm functions are parameters of the instance: nothing proved with it
    depends on them. [pow x n] is iterated multiplication, which is what correct rounding gives on
    the witnesses used (all intermediate products exact). *)
Section B64.
  Variables (lexp llog lcos lsin lacos : spec_float -> spec_float) (lpi : spec_float).
  Definition sf_ofZ (z : Z) : spec_float := binary_normalize 53 1024 z 0 false.
  Definition sf_dec (m e : Z) : spec_float :=
    if (0 <=? e)%Z then sf_ofZ (m * 10 ^ e) else SFdiv 53 1024 (sf_ofZ m) (sf_ofZ (10 ^ (- e))).
  Fixpoint sf_pow (x : spec_float) (n : nat) : spec_float :=
    match n with O => sf_ofZ 1 | 1%nat => x | S n' => SFmul 53 1024 x (sf_pow x n') end.
  Definition b64 : Arith spec_float := {|
    fadd := SFadd 53 1024; fsub := SFsub 53 1024; fmul := SFmul 53 1024; fdiv := SFdiv 53 1024;
    fopp := SFopp; fabs := SFabs; flt := SFltb; fofZ := sf_ofZ; fdec := sf_dec;
    fpow := sf_pow; fpowh := SFsqrt 53 1024;
    fexp := lexp; flog := llog; fcos := lcos; fsin := lsin; facos := lacos; fpi := lpi |}.
End B64.
