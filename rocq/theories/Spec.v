(** Small mathematical vocabulary used in the statements of the numerical properties.  Nothing here
    refers to the model of the code. *)
From Coq Require Import Reals List.
From Coquelicot Require Import Coquelicot.
Import ListNotations.
Local Open Scope R_scope.

(** the polynomial c0 + c1 x + c2 x^2 + ... ; a list of length d+1 is a polynomial of degree <= d *)
Fixpoint poly (c : list R) (x : R) : R :=
  match c with [] => 0 | a :: c' => a + x * poly c' x end.

(** sum_{i<n} t i *)
Fixpoint Rsum (n : nat) (t : nat -> R) : R :=
  match n with O => 0 | S n' => Rsum n' t + t n' end.

(** total variation sum_i |v_{i+1} - v_i| of a list *)
Fixpoint TV (v : list R) : R :=
  match v with
  | a :: (b :: _) as v' => Rabs (b - a) + TV v'
  | _ => 0
  end.

(** component-wise linear combination a v + b w *)
Definition lincomb (a : R) (v : list R) (b : R) (w : list R) : list R :=
  map (fun p => a * fst p + b * snd p) (combine v w).

(** Chebyshev polynomials of the first kind *)
Fixpoint chebT2 (k : nat) (x : R) : R * R :=      (* (T_k, T_{k+1}) *)
  match k with O => (1, x) | S k' => let (a, b) := chebT2 k' x in (b, 2 * x * b - a) end.
Definition chebT (k : nat) (x : R) : R := fst (chebT2 k x).

(** component-wise equality with the samples of a function: v_i = f (x_i) for i < n *)
Definition is_samples (v : list R) (n : nat) (x : nat -> R) (f : R -> R) : Prop :=
  length v = n /\ forall i, (i < n)%nat -> nth i v 0 = f (x i).
(** the k-th unit vector *)
Definition unit_vec (n k : nat) : list R := map (fun i => if Nat.eqb i k then 1 else 0) (seq 0 n).
