(** Vocabulary for statements about grid functions: the shell of an array at one radius and its
    radial lines, and when a grid object was built for given sizes and a given transform. *)
From Verif Require Import Base Arith MSphere MGrid.

Section GridSpec.
Context {F : Type} {AF : Arith F}.
(** the values on the sphere of radius index ix: a contiguous block of nlat*nphi numbers *)
Definition shell (g : grid F) (v : list F) (ix : nat) : list F :=
  firstn (g_nlat g * g_nphi g) (skipn (g_nlat g * g_nphi g * ix) v).
(** the values along the radial line through (theta_it, phi_ip) *)
Definition rline (g : grid F) (v : list F) (it ip : nat) : list F :=
  map (fun ix => nth (indx_R_th_ph g ix it ip) v f0) (seq 0 (g_nx g)).
(** g is the Grid object constructed with the sizes of the transform h *)
Definition grid_of (b : build) (h : sht F) (cl Rmin Rmax : F) (nx : nat) (g : grid F) : Prop :=
  Grid_make b h cl Rmin Rmax nx (s_lmax h) (s_mmax h) (s_nlat h) (s_nphi h) = Ok g.
End GridSpec.
