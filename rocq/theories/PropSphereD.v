(** * Properties C29, C31, C33 for the true spherical harmonics: on functions resolved below the edge of
    the band the operators of class Sphere return exact samples of the differential operators that the
    comments in sphere.cpp (and the equations of motion) intend.
    [lawful b h Ylm_profile] / [clawful b h Ylm_profile]: the transforms of SHTns are the orthonormal
    spherical-harmonic transforms (sphere.cpp:23 requests sht_orthonormal). *)
From Coq Require Import Reals Lra.
From Coquelicot Require Import Coquelicot.
From Verif Require Import Base BaseLemmas ForList Arith MSphere PGrid PMake PSphere PSphere2 Spec SphereSpec PSum PFdR PSphereR
  PropSphere PropLadder LegSpec PLeg PSphereD.
Local Open Scope R_scope.

(** the latitude nodes are not poles (true of Gauss nodes) *)
Definition off_poles (h : sht R) : Prop := forall it, (it < s_nlat h)%nat -> -1 < nth it (s_ct h) 0 < 1.
Lemma off_poles_sin h it : off_poles h -> (it < s_nlat h)%nat -> sin (grid_theta h it) <> 0.
Proof.
  intros H Hi. specialize (H it Hi). unfold grid_theta. rewrite sin_acos by lra.
  apply Rgt_not_eq, sqrt_lt_R0. unfold Rsqr. nra.
Qed.

Section Real.
Variables (b : build) (h : sht R) (s : sphere R).
Hypothesis Hlaw : lawful b h Ylm_profile.
Hypothesis Hs : Sphr_of h s.
Hypothesis Hpoles : off_poles h.
Local Notation L := (s_lmax h).
Local Notation M := (s_mmax h).
Local Notation N := (s_nlat h * s_nphi h)%nat.
Local Notation field a := (real_field Ylm_profile L M a).

Theorem C29_is_laplacian a v d :
  real_spectrum a -> inside L M a -> sampled b h (field a) v -> length d = N ->
  exists out, laplace_beltrami b s v d = Ok out /\ sampled b h (laplacian (field a)) out.
Proof.
  intros Ha Hi Hv Hd. destruct (C29_laplace_beltrami b h Ylm_profile s Hlaw Hs a v d Ha Hi Hv Hd) as (out & E & Ho).
  exists out. split; auto. eapply sampled_ext_grid; [|exact Ho]. intros it ip Ht Hp. cbv beta.
  symmetry. apply laplacian_field. now apply off_poles_sin.
Qed.
Theorem C28_is_d_phi a v d :
  real_spectrum a -> inside L M a -> sampled b h (field a) v -> length d = N ->
  exists out, partial_phi b s v d = Ok out /\ sampled b h (d_phi (field a)) out.
Proof. apply (C28_partial_phi b h Ylm_profile s Hlaw Hs). Qed.
End Real.

Section Complex.
Variables (b : build) (h : sht R) (s : sphere R).
Hypothesis Hlaw : lawful b h Ylm_profile.
Hypothesis Hcl : clawful b h Ylm_profile.
Hypothesis Hs : Sphr_of h s.
Hypothesis Hpoles : off_poles h.
Hypothesis HL31 : (Z.of_nat (s_lmax h) < 2 ^ 31)%Z.
Local Notation L := (s_lmax h).
Local Notation N := (s_nlat h * s_nphi h)%nat.
Local Notation field a := (real_field Ylm_profile L L a).

Lemma below_same a : (forall m, a L m = (0, 0)) -> forall th ph, field (below h a) th ph = field a th ph.
Proof.
  intros H0 th ph. unfold real_field. apply Rsum_ext. intros l _. apply Rsum_ext. intros m _. f_equal.
  unfold below. destruct (Nat.eqb_spec l L) as [->|]; auto.
Qed.
Lemma edge_zero a : (forall m, a L m = (0, 0)) -> forall th ph, field (edge h a) th ph = 0.
Proof.
  intros H0 th ph. unfold real_field. apply Rsum_zero. intros l _. apply Rsum_zero. intros m _. unfold edge, mode.
  destruct (Nat.eqb_spec l L) as [->|]; [rewrite H0|]; cbn; destruct (Nat.eqb m 0); ring.
Qed.
Lemma d_theta_ext f g th ph : (forall t p, f t p = g t p) -> d_theta f th ph = d_theta g th ph.
Proof. intros E. unfold d_theta. apply Derive_ext. intros; apply E. Qed.
Lemma d_phi_ext f g th ph : (forall t p, f t p = g t p) -> d_phi f th ph = d_phi g th ph.
Proof. intros E. unfold d_phi. apply Derive_ext. intros; apply E. Qed.

Lemma raised_Lplus a : real_spectrum a -> forall th ph, sin th <> 0 ->
  cre Ylm_profile L (raised h a) th ph = fst (Lplus (field (below h a)) th ph) /\
  cim Ylm_profile L (raised h a) th ph = snd (Lplus (field (below h a)) th ph).
Proof. intros Ha th ph H. exact (raised_is_Lplus L a Ha th ph H). Qed.

Theorem C31_raise_is_Lplus a v r :
  real_spectrum a -> (forall m, a L m = (0, 0)) -> sampled b h (field a) v -> length r = N ->
  exists out, raise b s v r = Ok out /\
    csampled b h (fun th ph => fst (Lplus (field a) th ph)) (fun th ph => snd (Lplus (field a) th ph)) out.
Proof.
  intros Ha H0 Hv Hr. destruct (raise_sampled b h Ylm_profile s Hlaw Hcl Hs HL31 a v r Ha Hv Hr) as (out & E & Ho).
  exists out. split; auto. eapply csampled_ext_grid; [|exact Ho]. intros it ip Ht Hp. cbv beta.
  rewrite edge_zero by auto.
  destruct (raised_Lplus a Ha (grid_theta h it) (grid_phi h ip) (off_poles_sin h it Hpoles Ht)) as [-> ->].
  unfold Lplus. cbn [fst snd].
  rewrite (d_theta_ext (field (below h a)) (field a)), (d_phi_ext (field (below h a)) (field a)) by (now apply below_same). split; ring.
Qed.
Theorem C31_lower_is_Lminus a v r :
  real_spectrum a -> (forall m, a L m = (0, 0)) -> sampled b h (field a) v -> length r = N ->
  exists out, lower b s v r = Ok out /\
    csampled b h (fun th ph => fst (Lminus (field a) th ph)) (fun th ph => snd (Lminus (field a) th ph)) out.
Proof.
  intros Ha H0 Hv Hr. destruct (lower_sampled b h Ylm_profile s Hlaw Hcl Hs HL31 a v r Ha Hv Hr) as (out & E & Ho).
  exists out. split; auto. eapply csampled_ext_grid; [|exact Ho]. intros it ip Ht Hp. cbv beta.
  rewrite edge_zero by auto.
  destruct (raised_Lplus a Ha (grid_theta h it) (grid_phi h ip) (off_poles_sin h it Hpoles Ht)) as [-> ->].
  unfold Lplus, Lminus. cbn [fst snd].
  rewrite (d_theta_ext (field (below h a)) (field a)), (d_phi_ext (field (below h a)) (field a)) by (now apply below_same). split; ring.
Qed.

Lemma Lplus_norm f th ph : sin th <> 0 ->
  fst (Lplus f th ph) ^ 2 + snd (Lplus f th ph) ^ 2 + d_phi f th ph ^ 2 = gradient_squared f th ph.
Proof.
  intros Hsn. unfold Lplus, gradient_squared. cbn [fst snd]. set (x := d_theta f th ph). set (y := d_phi f th ph).
  assert (C1 : cos ph ^ 2 + sin ph ^ 2 = 1). { pose proof (sin2_cos2 ph). unfold Rsqr in *. cbn. lra. }
  assert (C2 : cos th ^ 2 = 1 - sin th ^ 2). { pose proof (sin2_cos2 th). unfold Rsqr in *. cbn. lra. }
  transitivity ((cos ph ^ 2 + sin ph ^ 2) * (x ^ 2 + cos th ^ 2 / sin th ^ 2 * y ^ 2) + y ^ 2); [field; auto|].
  rewrite C1, C2. field. auto.
Qed.

(** sphereX f = (d f/d theta)^2 + (1/sin^2 theta) (d f/d phi)^2 *)
Theorem C33_is_gradient_squared a v x :
  real_spectrum a -> (forall m, a L m = (0, 0)) -> sampled b h (field a) v -> length x = N ->
  exists out, sphereX b s v x = Ok out /\ sampled b h (gradient_squared (field a)) out.
Proof.
  intros Ha H0 Hv Hx. destruct (C33_nonnegative b h Ylm_profile s Hlaw Hcl Hs HL31 a v x Ha H0 Hv Hx) as (out & E & Ho & _).
  exists out. split; auto. eapply sampled_ext_grid; [|exact Ho]. intros it ip Ht Hp. cbv beta.
  pose proof (off_poles_sin h it Hpoles Ht) as Hsn.
  destruct (raised_Lplus a Ha (grid_theta h it) (grid_phi h ip) Hsn) as [-> ->].
  rewrite <- (Lplus_norm (field a)) by auto.
  unfold Lplus. cbn [fst snd].
  rewrite (d_theta_ext (field (below h a)) (field a)), (d_phi_ext (field (below h a)) (field a)) by (now apply below_same).
  reflexivity.
Qed.
End Complex.
