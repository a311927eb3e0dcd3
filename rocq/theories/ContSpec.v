(** Functions on the continuum exterior region and their derivatives, independent of the code.
    A field is a function psi(X, theta, phi) of the compactified radius X = r/(1+r/cl) and the angles. *)
From Coq Require Import Reals List.
From Coquelicot Require Import Coquelicot.
From Verif Require Import Spec SphereSpec LegSpec EomSpec.
Local Open Scope R_scope.

(** psi as a function of the physical radius r *)
Definition at_r (cl : R) (psi : R -> R -> R -> R) (r th ph : R) : R := psi (r / (1 + r / cl)) th ph.

(** the values and exact derivatives, at the point (r, theta, phi), of a field psi and of its velocity pi *)
Definition true_jet (cl : R) (psi pi : R -> R -> R -> R) (r th ph : R) : jet :=
  let f := at_r cl psi in let p := at_r cl pi in
  {| psi := f r th ph;
     psi_v := p r th ph;
     psi_r := Derive (fun x => f x th ph) r;
     psi_vr := Derive (fun x => p x th ph) r;
     psi_rr := Derive_n (fun x => f x th ph) 2 r;
     psi_ph := d_phi (f r) th ph;
     psi_rph := Derive (fun x => d_phi (f x) th ph) r;
     lap := laplacian (f r) th ph;
     gradsq := gradient_squared (f r) th ph |}.

(** Functions that are polynomials of degree < d in X at fixed angles *)
Definition radial_poly (d : nat) (psi : R -> R -> R -> R) : Prop :=
  exists c : R -> R -> list R, forall th ph, (length (c th ph) <= d)%nat /\ forall X, psi X th ph = poly (c th ph) X.

(** Resolved functions: finite sums of spherical harmonics of degree l < L, l <= M and order m < M whose
    coefficients are polynomials of degree < d in X (for M = L: degree and order below L) *)
Definition resolved (L M d : nat) (psi : R -> R -> R -> R) : Prop :=
  exists re im : nat -> nat -> list R,
    (forall l m, (length (re l m) <= d)%nat /\ (length (im l m) <= d)%nat) /\
    (forall l, im l 0%nat = nil) /\
    (forall l m, (L <= l \/ M <= m \/ M < l)%nat -> re l m = nil /\ im l m = nil) /\
    forall X th ph, psi X th ph = real_field Ylm_profile L M (fun l m => (poly (re l m) X, poly (im l m) X)) th ph.
