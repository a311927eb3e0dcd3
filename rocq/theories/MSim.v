(** * Model of the launcher: sim_class.py (derived parameters and the parameter file). *)
From Coq Require Import Ascii String Reals.
From Verif Require Import Base Arith MParams.
Local Open Scope R_scope.

(** sim_class.py:33-34 (exact arithmetic) *)
Definition compactification (cl r : R) : R := r / (1 + r / cl).

(** sim_class.py:38-49 *)
Definition py_horizon (m a : R) : R := m + sqrt ((m - a) * (m + a)).
Definition py_rl (m a rl_0 : R) : R := py_horizon m a * rl_0.
Definition py_ru (m a ru_0 : R) : R := py_horizon m a * ru_0.
Definition py_Rmin (cl m a : R) : R := compactification cl (py_horizon m a).
Definition py_Rmax (cl : R) : R := cl.

(** sim_class.py:33-34 and 38-48 in the arithmetic the launcher runs in (CPython floats are doubles; the
    values reach the C++ program unchanged, str() of a float being read back exactly) *)
Section Launch.
Context {F : Type} {AF : Arith F}.
Definition launch_horizon (m a : F) : F := (m + fpowh ((m - a) * (m + a)))%f.
Definition launch_compact (cl r : F) : F := (r / (#1 + r / cl))%f.
Definition launch_Rmin (cl m a : F) : F := launch_compact cl (launch_horizon m a).
End Launch.

(** sim_class.py:51-62; nx, nlat, nphi are positive integers *)
Definition py_dt (use_cheb : bool) (cfl : R) (nx nlat nphi : nat) : R :=
  if use_cheb then 6 * / (INR (Nat.max nx (Nat.max nlat nphi)) ^ 2)
  else Rmin (6 * / (INR (Nat.max nlat nphi) ^ 2)) (cfl / (INR nx - 1)).

(** Python int(x): truncation towards zero *)
Definition py_int (x : R) : Z := if Rlt_dec x 0 then (- Int_part (- x))%Z else Int_part x.
(** sim_class.py:64-66 *)
Definition py_nt (evolve_time m dt : R) : Z := py_int (evolve_time * m / dt).
(** sim_class.py:68-72 *)
Definition py_t_step_save (nt num_saved_times : Z) : Z :=
  let t := py_int (IZR nt / IZR num_saved_times) in if (t =? 0)%Z then 1%Z else t.

(** sim_class.py:74-85: one line "name value\n" per attribute; a list-valued attribute is written
    with a blank before every element.  Values are given as the text Python's str() produces. *)
Inductive pyval := Scalar (s : text) | PList (l : list text).
Definition param_line (name : text) (v : pyval) : text :=
  match v with
  | Scalar s => name ++ [sp_char] ++ s ++ [nl_char]
  | PList l => name ++ List.concat (List.map (fun x => sp_char :: x) l) ++ [nl_char]
  end%list.
Definition write_sim_params (attrs : list (text * pyval)) : text :=
  List.concat (List.map (fun a => param_line (fst a) (snd a)) attrs).
