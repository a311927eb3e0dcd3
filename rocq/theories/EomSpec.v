(** Specification of the continuum problem, transcribed from Documentation/main.tex lines 88-330
    (sections "Scalar fields", "Ingoing Eddington-Finkelstein coordinates", "Diagnostics").
    Nothing here refers to the model of the code. *)
From Coq Require Import Reals.
From Coquelicot Require Import Coquelicot.
Local Open Scope R_scope.

(** main.tex:163-171 *)
Definition Sigma (a r th : R) : R := r ^ 2 + a ^ 2 * cos th ^ 2.
Definition Delta (M a r : R) : R := r ^ 2 - 2 * M * r + a ^ 2.

(** The theory: k(psi) and V(psi) as in the parameter file. The documentation leaves them general. *)
Record theory := Theory { t_km1 : R; t_k0 : R; t_k1 : R; t_k2 : R; t_V2 : R; t_V3 : R; t_V4 : R }.
Definition kfun (t : theory) (x : R) : R := t_k0 t + t_km1 t / (x + 1) + t_k1 t * x + t_k2 t / 2 * x ^ 2.
Definition Vfun (t : theory) (x : R) : R := t_V2 t / 2 * x ^ 2 + t_V3 t / 6 * x ^ 3 + t_V4 t / 24 * x ^ 4.

(** Value and derivatives of psi at a point. [lap] is the Laplacian on the unit sphere,
    [gradsq] is (d_theta psi)^2 + (d_phi psi)^2/sin^2 theta. *)
Record jet := Jet { psi : R; psi_v : R; psi_r : R; psi_vr : R; psi_rr : R; psi_ph : R; psi_rph : R; lap : R; gradsq : R }.

(** main.tex:180-198 *)
Definition Box (M a r th psi_vv : R) (j : jet) : R :=
  - (1 + 2 * M * r / Sigma a r th) * psi_vv
  + 4 * M * r / Sigma a r th * psi_vr j
  + Delta M a r / Sigma a r th * psi_rr j
  + 2 * a / Sigma a r th * psi_rph j
  + 1 / Sigma a r th * lap j
  + 2 * M / Sigma a r th * psi_v j
  + 2 * (r - M) / Sigma a r th * psi_r j.
(** main.tex:199-219 *)
Definition grad2 (M a r th : R) (j : jet) : R :=
  - (1 + 2 * M * r / Sigma a r th) * psi_v j ^ 2
  + 4 * M * r / Sigma a r th * psi_v j * psi_r j
  + Delta M a r / Sigma a r th * psi_r j ^ 2
  + 2 * a / Sigma a r th * psi_r j * psi_ph j
  + 1 / Sigma a r th * gradsq j.
(** main.tex:107-118: the field equation as an equation for the second time derivative *)
Definition field_equation (t : theory) (M a r th psi_vv : R) (j : jet) : Prop :=
  Box M a r th psi_vv j
  + 1 / 2 * (Derive (kfun t) (psi j) / kfun t (psi j)) * grad2 M a r th j
  - 1 / kfun t (psi j) * Derive (Vfun t) (psi j) = 0.

(** main.tex:315-336: the documented energy density *)
Definition rho_doc (t : theory) (M a r th : R) (j : jet) : R :=
  kfun t (psi j) * (1 / 2) *
    ((1 + 2 * M * r / Sigma a r th) * psi_v j ^ 2
     + 4 * M * r / Sigma a r th * psi_v j * psi_r j
     + ((r ^ 2 + 2 * M * r + a ^ 2) / Sigma a r th - 4 * M * r / (2 * M * r + Sigma a r th)) * psi_r j ^ 2
     + 2 * a / Sigma a r th * psi_r j * psi_ph j
     + 1 / Sigma a r th * gradsq j)
  + Vfun t (psi j).

(** The inverse metric read off the documented (grad psi)^2: g^vv, g^vr; all other components with an
    upper v vanish. *)
Definition gvv (M a r th : R) : R := - (1 + 2 * M * r / Sigma a r th).
Definition gvr (M a r th : R) : R := 2 * M * r / Sigma a r th.
(** n_mu = |g^vv|^(-1/2) dv (main.tex:307), so n^mu d_mu psi = |g^vv|^(-1/2) g^{v mu} d_mu psi *)
Definition n_psi (M a r th : R) (j : jet) : R :=
  / sqrt (Rabs (gvv M a r th)) * (gvv M a r th * psi_v j + gvr M a r th * psi_r j).
(** rho = n^mu n^nu T_mu_nu with T of main.tex:250-262 and n^mu n_mu = -1 *)
Definition rho_T (t : theory) (M a r th : R) (j : jet) : R :=
  kfun t (psi j) * n_psi M a r th j ^ 2 + (1 / 2 * kfun t (psi j) * grad2 M a r th j + Vfun t (psi j)).

(** main.tex:221-235: the documented characteristic speeds *)
Definition c_plus (M a r th : R) : R :=
  / (1 + 2 * M * r / Sigma a r th) *
  (- (2 * M * r / Sigma a r th) + sqrt (4 * M ^ 2 * r ^ 2 / Sigma a r th ^ 2 + (1 + 2 * M * r / Sigma a r th) * (Delta M a r / Sigma a r th))).
Definition c_minus (M a r th : R) : R :=
  / (1 + 2 * M * r / Sigma a r th) *
  (- (2 * M * r / Sigma a r th) - sqrt (4 * M ^ 2 * r ^ 2 / Sigma a r th ^ 2 + (1 + 2 * M * r / Sigma a r th) * (Delta M a r / Sigma a r th))).

(** The two roots r_+ >= r_- of Delta: the horizons *)
Definition r_plus (M a : R) : R := M + sqrt (M ^ 2 - a ^ 2).
Definition r_minus (M a : R) : R := M - sqrt (M ^ 2 - a ^ 2).

(** Spins for which the tolerances 1e-16 in the code do not matter *)
Definition clean_spin (M a : R) : Prop :=
  Rabs a = M \/ (1 / 10 ^ 16 <= Rabs (M - Rabs a) /\ (a = 0 \/ 1 / 10 ^ 16 <= Rabs a)).
