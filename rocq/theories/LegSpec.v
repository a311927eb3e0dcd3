(** Spherical harmonics and differential operators on the unit sphere: the mathematical objects the
    comments of Source/sphere.cpp speak about.  Nothing here refers to the model of the code. *)
From Coq Require Import Reals.
From Coquelicot Require Import Coquelicot.
Local Open Scope R_scope.

(** m-th derivative of the Legendre polynomial P_l (Rodrigues' formula) *)
Definition legendre (l m : nat) (x : R) : R :=
  Derive_n (fun y => (y ^ 2 - 1) ^ l) (l + m) x / (2 ^ l * INR (fact l)).
(** sqrt ((2l+1)/(4 pi) (l-m)!/(l+m)!) *)
Definition ynorm (l m : nat) : R :=
  sqrt ((2 * INR l + 1) / (4 * PI) * (INR (fact (l - m)) / INR (fact (l + m)))).
(** theta-part of the orthonormal spherical harmonic Y_{lm}, m >= 0, with Condon-Shortley phase:
    Y_{lm} = Ylm_profile l m theta * exp(i m phi) *)
Definition Ylm_profile (l m : nat) (th : R) : R :=
  (-1) ^ m * ynorm l m * sin th ^ m * legendre l m (cos th).

(** partial derivatives of f(theta, phi) *)
Definition d_theta (f : R -> R -> R) (th ph : R) : R := Derive (fun t => f t ph) th.
Definition d_phi (f : R -> R -> R) (th ph : R) : R := Derive (fun p => f th p) ph.
(** Laplace-Beltrami operator of the unit sphere *)
Definition laplacian (f : R -> R -> R) (th ph : R) : R :=
  / sin th * Derive (fun t => sin t * d_theta f t ph) th + / sin th ^ 2 * d_phi (d_phi f) th ph.
(** squared norm of the gradient on the unit sphere *)
Definition gradient_squared (f : R -> R -> R) (th ph : R) : R :=
  d_theta f th ph ^ 2 + d_phi f th ph ^ 2 / sin th ^ 2.
(** L+ f = exp(i phi) (d_theta f + i cot(theta) d_phi f) of a real f: real and imaginary part *)
Definition Lplus (f : R -> R -> R) (th ph : R) : R * R :=
  let x := d_theta f th ph in let y := cos th / sin th * d_phi f th ph in
  (cos ph * x - sin ph * y, sin ph * x + cos ph * y).
(** L- f = exp(-i phi) (- d_theta f + i cot(theta) d_phi f) *)
Definition Lminus (f : R -> R -> R) (th ph : R) : R * R :=
  let x := - d_theta f th ph in let y := cos th / sin th * d_phi f th ph in
  (cos ph * x + sin ph * y, - sin ph * x + cos ph * y).
