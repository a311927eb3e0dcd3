(** * sim_class.py:set_derived_params in the arithmetic the launcher runs in: Python floats are IEEE doubles.
    [None]: Python raises an exception (ZeroDivisionError, or int() of an infinity or NaN). *)
From Coq Require Import ZArith SpecFloat.
From Verif Require Import Base Arith.

Definition obind {A B} (x : option A) (k : A -> option B) : option B := match x with Some a => k a | None => None end.
(** int(x): truncation towards zero *)
Definition py_trunc (x : spec_float) : option Z :=
  match x with
  | S754_zero _ => Some 0%Z
  | S754_finite s m e =>
      let n := (if 0 <=? e then Z.pos m * 2 ^ e else Z.pos m / 2 ^ (- e))%Z in Some (if s then - n else n)%Z
  | _ => None
  end.
(** x / y on floats *)
Definition py_div (x y : spec_float) : option spec_float :=
  match y with S754_zero _ => None | _ => Some (SFdiv 53 1024 x y) end.
(** min([x, y]), min(x, y): the first unless the second is smaller *)
Definition py_min (x y : spec_float) : spec_float := if SFltb y x then y else x.

Section Derived.
(** Python's pow(n, -2) for an integer n: the C library's pow((double)n, -2.0) *)
Variable pow_m2 : spec_float -> spec_float.
(** sim_class.py:51-62 *)
Definition launch_dt (use_cheb : bool) (cfl : spec_float) (nx nlat nphi : nat) : option spec_float :=
  if use_cheb then Some (SFmul 53 1024 (sf_ofZ 6) (pow_m2 (sf_ofZ (Z.of_nat (Nat.max nx (Nat.max nlat nphi))))))
  else obind (py_div cfl (SFsub 53 1024 (sf_ofZ (Z.of_nat nx)) (sf_ofZ 1)))
        (fun c => Some (py_min (SFmul 53 1024 (sf_ofZ 6) (pow_m2 (sf_ofZ (Z.of_nat (Nat.max nlat nphi))))) c)).
End Derived.
(** sim_class.py:64-66 *)
Definition launch_nt (evolve_time m dt : spec_float) : option Z := obind (py_div (SFmul 53 1024 evolve_time m) dt) py_trunc.
(** sim_class.py:68-72; nt and num_saved_times are Python integers *)
Definition launch_stride (nt num_saved_times : Z) : option Z :=
  obind (obind (py_div (sf_ofZ nt) (sf_ofZ num_saved_times)) py_trunc) (fun t => Some (if (t =? 0)%Z then 1%Z else t)).
