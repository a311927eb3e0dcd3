(** Specification for the spatial symmetries of the evolution (C74, C75): maps of the angular grid points and what
    they do to arrays, and the corresponding property assumed of the external transforms.  Nothing here refers to the
    model except the record [sht], the grid record and its (separately proved, C01-C03) index function. *)
From Coq Require Import Reals List.
From Verif Require Import Base Arith MSphere MGrid Spec SphereSpec.
Import ListNotations.
Local Open Scope R_scope.

(** a map of the angular grid points (theta_it, phi_ip) *)
Definition ptmap := nat -> nat -> nat * nat.
(** by j grid spacings about the axis *)
Definition rotate (nphi j : nat) : ptmap := fun it ip => (it, (ip + j) mod nphi)%nat.
(** reflection at the equator *)
Definition mirror (nlat : nat) : ptmap := fun it ip => (nlat - 1 - it, ip)%nat.

(** v' has at every point of the sphere the value v has at the image of the point *)
Definition moved {A} (d : A) (b : build) (h : sht R) (s : ptmap) (v v' : list A) : Prop :=
  length v = (s_nlat h * s_nphi h)%nat /\ length v' = (s_nlat h * s_nphi h)%nat /\
  forall it ip, (it < s_nlat h)%nat -> (ip < s_nphi h)%nat ->
    nth (spos b h it ip) v' d = nth (spos b h (fst (s it ip)) (snd (s it ip))) v d.
(** the same for arrays on the three-dimensional grid *)
Definition gmoved (g : grid R) (s : ptmap) (v v' : list R) : Prop :=
  length v = g_n3 g /\ length v' = g_n3 g /\
  forall ix it ip, (ix < g_nx g)%nat -> (it < g_nlat g)%nat -> (ip < g_nphi g)%nat ->
    nth (indx_R_th_ph g ix it ip) v' 0 = nth (indx_R_th_ph g ix (fst (s it ip)) (snd (s it ip))) v 0.

(** product of complex numbers *)
Definition cm (p q : R * R) : R * R := Rpr p (fst q) (snd q).
(** the factor by which the coefficient of degree l and order m changes *)
Definition phases := nat -> Z -> (R * R).
Definition rot_phase (nphi j : nat) : phases := fun l m => (cos (IZR m * (2 * PI * INR j / INR nphi)), sin (IZR m * (2 * PI * INR j / INR nphi))).
Definition mir_phase : phases := fun l m => (if Z.even (Z.of_nat l + m) then 1 else -1, 0).

(** analysis of moved data multiplies the coefficients by the phases, for all data (not only band-limited ones):
    real transform, complex transform *)
Definition an_covariant (b : build) (h : sht R) (s : ptmap) (u : phases) : Prop :=
  forall v v', moved 0 b h s v v' ->
    forall l m, (l <= s_lmax h)%nat -> (m <= l)%nat -> (m <= s_mmax h)%nat ->
      nth (LM (s_lmax h) l m) (s_an h v') (0, 0) = cm (nth (LM (s_lmax h) l m) (s_an h v) (0, 0)) (u l (Z.of_nat m)).
Definition anc_covariant (b : build) (h : sht R) (s : ptmap) (u : phases) : Prop :=
  forall v v', moved (0, 0) b h s v v' ->
    forall l m, (l <= s_lmax h)%nat -> (- Z.of_nat l <= m <= Z.of_nat l)%Z ->
      nth (ci l m) (s_anc h v') (0, 0) = cm (nth (ci l m) (s_anc h v) (0, 0)) (u l m).
(** the complex transform of real data has the symmetry c(l,-m) = (-1)^m conj c(l,m) *)
Definition anc_conjugate (h : sht R) : Prop :=
  forall v : list R, length v = s_nspat h ->
    forall l m, (l <= s_lmax h)%nat -> (- Z.of_nat l <= m <= Z.of_nat l)%Z ->
      let c := nth (ci l m) (s_anc h (map (fun x => (x, 0)) v)) (0, 0) in
      nth (ci l (- m)) (s_anc h (map (fun x => (x, 0)) v)) (0, 0) =
        (if Z.even m then fst c else - fst c, if Z.even m then - snd c else snd c).
(** latitudes placed symmetrically about the equator (as Gauss nodes are) *)
Definition symmetric_nodes (h : sht R) : Prop :=
  forall it, (it < s_nlat h)%nat -> nth (s_nlat h - 1 - it) (s_ct h) 0 = - nth it (s_ct h) 0.
