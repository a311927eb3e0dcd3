(** Specification for C78: fields that are smooth in the compactified radius and band-limited in the angles. *)
From Coq Require Import Reals.
From Coquelicot Require Import Coquelicot.
From Verif Require Import Spec SphereSpec LegSpec ContSpec.
Local Open Scope R_scope.

(** nine times differentiable on the open interval (lo, hi) *)
Definition smooth (lo hi : R) (f : R -> R) : Prop := forall k t, (k <= 9)%nat -> lo < t < hi -> ex_derive_n f k t.

(** Sums of spherical harmonics of degree l < L, l <= M and order m < M (as in [ContSpec.resolved]) whose coefficients are
    smooth functions of the compactified radius X on (lo, hi) *)
Definition smooth_resolved (L M : nat) (lo hi : R) (psi : R -> R -> R -> R) : Prop :=
  exists re im : nat -> nat -> R -> R,
    (forall l m, smooth lo hi (re l m) /\ smooth lo hi (im l m)) /\
    (forall l X, im l 0%nat X = 0) /\
    (forall l m X, (L <= l \/ M <= m \/ M < l)%nat -> re l m X = 0 /\ im l m X = 0) /\
    forall X th ph, psi X th ph = real_field Ylm_profile L M (fun l m => (re l m X, im l m X)) th ph.

(** smooth in X at fixed angles *)
Definition smooth_radially (lo hi : R) (pi : R -> R -> R -> R) : Prop := forall th ph, smooth lo hi (fun X => pi X th ph).
