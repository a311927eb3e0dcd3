(** What the theorems about Sphere assume of the external transform library (SHTns), and the
    functions on the sphere they talk about.  Nothing here refers to the model of sphere.cpp except
    the record [sht] of the external functions and their storage layout [LM]. *)
From Coq Require Import Reals.
From Verif Require Import Base Arith MSphere Spec.

(** ** Shapes: the transforms map arrays of the documented lengths to arrays of the documented
    lengths.  The spatial arrays hold exactly nlat*nphi numbers. *)
Record shapes {F : Type} (h : sht F) : Prop := {
  sh_mmax  : s_mmax h <= s_lmax h;
  sh_nspat : s_nspat h = s_nlat h * s_nphi h;
  sh_ct    : length (s_ct h) = s_nlat h;
  sh_an    : forall v, length v = s_nspat h -> length (s_an h v) = nlm_calc (s_lmax h) (s_mmax h);
  sh_sy    : forall c, length c = nlm_calc (s_lmax h) (s_mmax h) -> length (s_sy h c) = s_nspat h;
  sh_anc   : forall v, length v = s_nspat h -> length (s_anc h v) = (s_lmax h + 1) * (s_lmax h + 1);
  sh_syc   : forall c, length c = (s_lmax h + 1) * (s_lmax h + 1) -> length (s_syc h c) = s_nspat h }.

(** position of the grid point (theta_it, phi_ip) in a spatial array, by build flag *)
Definition spos {F} (b : build) (h : sht F) (it ip : nat) : nat :=
  if contiguous b then s_nlat h * ip + it else s_nphi h * it + ip.

(** ** Functions on the sphere *)
Local Open Scope R_scope.

(** theta-profiles: P l m theta, e.g. normalised associated Legendre functions of cos theta *)
Definition profiles := nat -> nat -> R -> R.
(** spectral coefficients of a function *)
Definition spectrum := nat -> nat -> (R * R).

(** the real function contributed by the coefficient (x + i y) of degree l and order m >= 0 together
    with its conjugate at -m *)
Definition mode (P : profiles) (l m : nat) (c : R * R) (th ph : R) : R :=
  if Nat.eqb m 0 then fst c * P l 0%nat th
  else 2 * P l m th * (fst c * cos (INR m * ph) - snd c * sin (INR m * ph)).
(** real band-limited function with coefficients a(l,m), m <= l <= lmax, m <= mmax *)
Definition real_field (P : profiles) (lmax mmax : nat) (a : spectrum) (th ph : R) : R :=
  Rsum (lmax + 1) (fun l => Rsum (Nat.min l mmax + 1) (fun m => mode P l m (a l m) th ph)).

(** coefficients of a real function: order 0 is real *)
Definition real_spectrum (a : spectrum) : Prop := forall l, snd (a l 0%nat) = 0.

(** v are the samples of f on the grid of h *)
Definition grid_theta (h : sht R) (it : nat) : R := acos (nth it (s_ct h) 0).
Definition grid_phi (h : sht R) (ip : nat) : R := 2 * PI * INR ip / INR (s_nphi h).
Definition sampled (b : build) (h : sht R) (f : R -> R -> R) (v : list R) : Prop :=
  length v = (s_nlat h * s_nphi h)%nat /\
  forall it ip, (it < s_nlat h)%nat -> (ip < s_nphi h)%nat ->
    nth (spos b h it ip) v 0 = f (grid_theta h it) (grid_phi h ip).

(** a coefficient array stores the spectrum a *)
Definition stores (h : sht R) (c : list (R * R)) (a : spectrum) : Prop :=
  length c = nlm_calc (s_lmax h) (s_mmax h) /\
  forall l m, (l <= s_lmax h)%nat -> (m <= l)%nat -> (m <= s_mmax h)%nat ->
    nth (LM (s_lmax h) l m) c (0, 0) = a l m.

(** ** The contract for the real transforms: synthesis samples the function with the stored
    coefficients, and analysis recovers the coefficients of a band-limited real function. *)
Record lawful (b : build) (h : sht R) (P : profiles) : Prop := {
  lw_shapes : shapes h;
  lw_syn : forall c a, stores h c a -> sampled b h (real_field P (s_lmax h) (s_mmax h) a) (s_sy h c);
  lw_ana : forall c a, stores h c a -> real_spectrum a -> s_an h (s_sy h c) = c }.

(** ** Complex functions: coefficients a(l,m), -l <= m <= l, stored at l(l+1)+m.
    This dense layout is SHTns's when mmax = lmax. *)
Definition cspectrum := nat -> Z -> (R * R).
Definition Rpr (p : R * R) (c s : R) : R * R := (fst p * c - snd p * s, fst p * s + snd p * c).
(** sum over -l <= m <= l, m = k - l *)
Definition msum (l : nat) (t : Z -> R) : R := Rsum (2 * l + 1) (fun k => t (Z.of_nat k - Z.of_nat l)%Z).
(** profile of order m of either sign: P_{l,-m} = (-1)^m P_{l,m} *)
Definition prof (P : profiles) (l : nat) (m : Z) (th : R) : R :=
  (if (m <? 0)%Z then (if Z.even m then 1 else -1) else 1) * P l (Z.abs_nat m) th.
Definition cre (P : profiles) (lmax : nat) (a : cspectrum) (th ph : R) : R :=
  Rsum (lmax + 1) (fun l => msum l (fun m =>
    prof P l m th * (fst (a l m) * cos (IZR m * ph) - snd (a l m) * sin (IZR m * ph)))).
Definition cim (P : profiles) (lmax : nat) (a : cspectrum) (th ph : R) : R :=
  Rsum (lmax + 1) (fun l => msum l (fun m =>
    prof P l m th * (fst (a l m) * sin (IZR m * ph) + snd (a l m) * cos (IZR m * ph)))).
Definition csampled (b : build) (h : sht R) (re im : R -> R -> R) (v : list (R * R)) : Prop :=
  length v = (s_nlat h * s_nphi h)%nat /\
  forall it ip, (it < s_nlat h)%nat -> (ip < s_nphi h)%nat ->
    nth (spos b h it ip) v (0, 0) = (re (grid_theta h it) (grid_phi h ip), im (grid_theta h it) (grid_phi h ip)).
Definition ci (l : nat) (m : Z) : nat := Z.to_nat (Z.of_nat l * (Z.of_nat l + 1) + m).
Definition cstores (h : sht R) (c : list (R * R)) (a : cspectrum) : Prop :=
  length c = ((s_lmax h + 1) * (s_lmax h + 1))%nat /\
  forall l m, (l <= s_lmax h)%nat -> (- Z.of_nat l <= m <= Z.of_nat l)%Z -> nth (ci l m) c (0, 0) = a l m.
Record clawful (b : build) (h : sht R) (P : profiles) : Prop := {
  cl_mmax : s_mmax h = s_lmax h;
  cl_syn : forall c a, cstores h c a -> csampled b h (cre P (s_lmax h) a) (cim P (s_lmax h) a) (s_syc h c);
  cl_ana : forall c a, cstores h c a -> s_anc h (s_syc h c) = c }.
