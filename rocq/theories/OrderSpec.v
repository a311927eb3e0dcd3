(** Specification for C76: exact solutions of the semi-discrete equations, written without the proofs' helpers. *)
From Coq Require Import Reals List.
From Coquelicot Require Import Coquelicot.
From Verif Require Import Base Arith MEom RkSpec EomSpec.
Import ListNotations.
Local Open Scope R_scope.

(** the same evolution object with another step length (scalar_eom.h: the member _dt; nothing else depends on it) *)
Definition with_dt (e : eom R) (dt : R) : eom R :=
  Eom (e_n e) dt (e_km1 e) (e_k0 e) (e_k1 e) (e_k2 e) (e_v2 e) (e_v3 e) (e_v4 e) (e_coef e) (e_scr e).

(** [z] solves the 2n ordinary differential equations u' = rhs u on [0,T): the equations the code integrates
    once space has been discretised *)
Definition solves (n : nat) (rhs : state R -> state R) (z : R -> state R) (T : R) : Prop :=
  (forall t, length (fst (z t)) = n /\ length (snd (z t)) = n) /\
  (forall t i, 0 <= t < T -> (i < n)%nat ->
     is_derive (fun t => nth i (fst (z t)) 0) t (nth i (fst (rhs (z t))) 0) /\
     is_derive (fun t => nth i (snd (z t)) 0) t (nth i (snd (rhs (z t))) 0)).

(** the coupling k(psi) = k0 + km1/(psi+1) + k1 psi + k2 psi^2/2 is defined and not zero *)
Definition regular (t : theory) (x : R) : Prop := (t_km1 t = 0 \/ x + 1 <> 0) /\ kfun t x <> 0.
