(** Vocabulary for comparing two builds of the program: one numbers the points of a sphere theta-first, the
    other phi-first.  Two arrays hold the same data when they agree at every grid point. *)
From Verif Require Import Base Arith MSphere.

(** position of the point (theta_it, phi_ip) on a sphere of nlat x nphi points *)
Definition pos (b : build) (nlat nphi it ip : nat) : nat := if contiguous b then nlat * ip + it else nphi * it + ip.

Definition same_sphere {A} (b b' : build) (nlat nphi : nat) (v v' : list A) : Prop :=
  length v = nlat * nphi /\ length v' = nlat * nphi /\
  forall it ip, it < nlat -> ip < nphi -> nth_error v (pos b nlat nphi it ip) = nth_error v' (pos b' nlat nphi it ip).

(** spheres are stored one after another *)
Definition same_field {A} (b b' : build) (nx nlat nphi : nat) (v v' : list A) : Prop :=
  length v = nx * nlat * nphi /\ length v' = nx * nlat * nphi /\
  forall ix it ip, ix < nx -> it < nlat -> ip < nphi ->
    nth_error v (nlat * nphi * ix + pos b nlat nphi it ip) = nth_error v' (nlat * nphi * ix + pos b' nlat nphi it ip).

(** two configurations of the transform library that compute the same thing, each in the storage order its
    build asked for (SHT_THETA_CONTIGUOUS or SHT_PHI_CONTIGUOUS, sphere.cpp:31-39) *)
Record relaid {F : Type} (b b' : build) (h h' : sht F) : Prop := {
  rl_lmax : s_lmax h' = s_lmax h;  rl_mmax : s_mmax h' = s_mmax h;
  rl_nlat : s_nlat h' = s_nlat h;  rl_nphi : s_nphi h' = s_nphi h;
  rl_nspat : s_nspat h' = s_nspat h; rl_ct : s_ct h' = s_ct h;
  rl_an : forall v v', same_sphere b b' (s_nlat h) (s_nphi h) v v' -> s_an h v = s_an h' v';
  rl_sy : forall c, length c = nlm_calc (s_lmax h) (s_mmax h) ->
          same_sphere b b' (s_nlat h) (s_nphi h) (s_sy h c) (s_sy h' c);
  rl_anc : forall v v', same_sphere b b' (s_nlat h) (s_nphi h) v v' -> s_anc h v = s_anc h' v';
  rl_syc : forall c, length c = (s_lmax h + 1) * (s_lmax h + 1) ->
          same_sphere b b' (s_nlat h) (s_nphi h) (s_syc h c) (s_syc h' c) }.
