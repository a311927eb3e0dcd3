(** The classical fourth-order Runge-Kutta step on pairs of arrays, written independently of the code.
    [axpy c k u] is u + c*k elementwise; products and sums are associated as written, so the
    definition fixes every rounding when [F] is floating point. *)
From Verif Require Import Base Arith.
Local Open Scope f.

Section Rk.
Context {F : Type} {AF : Arith F}.
Definition axpy (c : F) (k u : list F) : list F := map (fun ab => fst ab + c * snd ab) (combine u k).
Definition state := (list F * list F)%type.
Definition axpy2 (c : F) (k u : state) : state := (axpy c (fst k) (fst u), axpy c (snd k) (snd u)).
Definition rk4 (rhs : state -> state) (dt : F) (u : state) : state :=
  let k1 := rhs u in
  let k2 := rhs (axpy2 (fdec 5 (-1) * dt) k1 u) in
  let k3 := rhs (axpy2 (fdec 5 (-1) * dt) k2 u) in
  let k4 := rhs (axpy2 dt k3 u) in
  axpy2 (dt / #6) k4 (axpy2 (dt / #3) k3 (axpy2 (dt / #3) k2 (axpy2 (dt / #6) k1 u))).
End Rk.
Arguments state F : clear implicits.
