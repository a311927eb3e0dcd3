(** Further concrete cases for the hypotheses of C02-C05 and C33. *)
From Coq Require Import Reals Lra.
From Coquelicot Require Import Coquelicot.
From Verif Require Import Base BaseLemmas ForList Arith MFd MCheb MSphere MGrid PGrid PMake PSphere PSphere2 Spec SphereSpec PSum PFdR PSphereR
  PropSphere PropLadder LegSpec PLeg PSphereD PropSphereD PSphInst PSphInst2 PSphInst3 PropSphereInst Toy PropGrid.
Local Open Scope R_scope.

Lemma legendre_ll l x : legendre l l x <> 0.
Proof.
  destruct (legendre_degree l l (le_n l)) as (p & a & [Hp Ha] & H0 & E). rewrite E. replace (l - l)%nat with 0%nat in * by lia.
  destruct p as [|c [|d p]]; cbn in Hp; try discriminate. cbn in Ha. subst c. unfold poly. cbn. lra.
Qed.
Lemma profile_ll l th : sin th <> 0 -> Ylm_profile l l th <> 0.
Proof.
  intros Hs. unfold Ylm_profile. apply Rmult_integral_contrapositive_currified; [apply Rmult_integral_contrapositive_currified; [apply Rmult_integral_contrapositive_currified|]|].
  - apply pow_nonzero. lra.
  - pose proof (ynorm_pos l l (le_n l)). lra.
  - now apply pow_nonzero.
  - apply legendre_ll.
Qed.

(** sphereX, the squared gradient on resolved data, does take negative values on real data with degree-nl content:
    at every resolution nl >= 2 and at every latitude *)
Theorem C33_negative_occurs b h s it : lawful b h Ylm_profile -> clawful b h Ylm_profile -> off_poles h -> Sphr_of h s -> (Z.of_nat (s_lmax h) < 2 ^ 31)%Z ->
  (2 <= s_lmax h)%nat -> (it < s_nlat h)%nat -> (0 < s_nphi h)%nat ->
  exists a, real_spectrum a /\ forall v x, sampled b h (real_field Ylm_profile (s_lmax h) (s_mmax h) a) v -> length x = (s_nlat h * s_nphi h)%nat ->
    exists out, sphereX b s v x = Ok out /\ nth (spos b h it 0) out 0 < 0.
Proof.
  intros Hl Hc Ho Hs H31 H2 Hit Hip. set (L := s_lmax h) in *.
  assert (Sn : sin (grid_theta h it) <> 0) by (apply (off_poles_sin h); auto).
  set (a := fun l m => if Nat.eqb l L then single L L (1, 0) l m else single 1 1 (0, 1) l m).
  assert (Ha : real_spectrum a).
  { intros l. unfold a. destruct (Nat.eqb l L); [apply (single_real L L)|apply (single_real 1 1)]; lia. }
  assert (HM : s_mmax h = L) by apply (cl_mmax b h Ylm_profile Hc).
  assert (Z0 : grid_phi h 0 = 0) by (unfold grid_phi; cbn [INR]; unfold Rdiv; ring).
  assert (Hb : forall ph, real_field Ylm_profile L L (below h a) (grid_theta h it) ph = - (2 * Ylm_profile 1 1 (grid_theta h it)) * sin ph).
  { intros ph. pose proof (real_field_ext h Ylm_profile) as EX. rewrite HM in EX. fold L in EX. rewrite (EX _ (single 1 1 (0, 1))).
    - pose proof (single_field h Ylm_profile 1 1 (0, 1) (grid_theta h it) ph) as SF. rewrite HM in SF. fold L in SF. rewrite SF by lia. unfold mode. cbn [Nat.eqb fst snd INR]. rewrite Rmult_1_l. ring.
    - intros l m _ _ _. unfold below, a. fold L. destruct (Nat.eqb_spec l L); auto. unfold single. destruct (Nat.eqb_spec l 1); cbn; auto. lia. }
  assert (He : real_field Ylm_profile L L (edge h a) (grid_theta h it) 0 = 2 * Ylm_profile L L (grid_theta h it)).
  { pose proof (real_field_ext h Ylm_profile) as EX. rewrite HM in EX. fold L in EX. rewrite (EX _ (single L L (1, 0))).
    - pose proof (single_field h Ylm_profile L L (1, 0) (grid_theta h it) 0) as SF. rewrite HM in SF. fold L in SF. rewrite SF by lia. unfold mode. destruct (Nat.eqb_spec L 0); [lia|]. cbn [fst snd]. rewrite Rmult_0_r, cos_0, sin_0. ring.
    - intros l m _ _ _. unfold edge, a. fold L. destruct (Nat.eqb_spec l L); auto. unfold single. destruct (Nat.eqb_spec l L); cbn; auto. lia. }
  destruct (C33_negative_at_edge_refuted b h Ylm_profile s Hl Hc Hs H31 a it 0 Ha Hit Hip) as (t & Ht).
  - rewrite Z0. fold L. rewrite (Derive_ext _ (fun ph => - (2 * Ylm_profile 1 1 (grid_theta h it)) * sin ph)) by exact Hb.
    rewrite (is_derive_unique _ 0 (- (2 * Ylm_profile 1 1 (grid_theta h it)) * cos 0)); [|auto_derive; auto; ring].
    rewrite cos_0. pose proof (profile_ll 1 _ Sn). lra.
  - rewrite Z0. fold L. rewrite He. pose proof (profile_ll L _ Sn). lra.
  - exists (fun l m => if Nat.eqb l L then (t * fst (a l m), t * snd (a l m)) else a l m). split.
    + intros l. destruct (Nat.eqb l L); cbn; auto. rewrite Ha. ring.
    + intros v x Hv Hx. rewrite HM in Hv. apply Ht; auto.
Qed.

(** concrete grids on which the hypotheses of C02-C05 hold: 3 latitudes and 4 longitudes, and the other way round *)
#[local] Existing Instance Z_arith.
Fixpoint forallb2 {A B} (f : A -> B -> bool) (l : list A) (m : list B) : bool :=
  match l, m with [], [] => true | x :: l', y :: m' => (f x y && forallb2 f l' m')%bool | _, _ => false end.
Definition demo_grid (bld : build) (nlat nphi : nat) : res (grid Z) := Grid_make bld (toy_sht 1 1 nlat nphi) 10%Z 1%Z 15%Z 8 1 1 nlat nphi.
(** an answer and an element, computably *)
Definition okat (r : res (list Z)) (l : list nat) (w : list Z) : bool :=
  match r with Ok v => forallb2 (fun i z => Z.eqb (nth i v (-1)%Z) z) l w | _ => false end.
Definition is_ub {A} (r : res A) : bool := match r with UB => true | _ => false end.
Definition is_abort {A} (r : res A) : bool := match r with Abort => true | _ => false end.
Definition grid_facts (g : grid Z) (nlat nphi : nat) : bool :=
  (Nat.eqb (sp_nlat (g_sphere g)) (g_nlat g) && Nat.eqb (sp_nphi (g_sphere g)) (g_nphi g) && Nat.eqb (g_nlat g) nlat && Nat.eqb (g_nphi g) nphi &&
   Nat.eqb (g_nx g) 8 && Nat.eqb (g_n3 g) 96)%bool.
Example C02_C05_nonvacuous lay :
  (exists g, demo_grid (Build false lay false) 3 4 = Ok g /\ grid_facts g 3 4 = true /\ ndebug (g_bld g) = false /\
     okat (set_row_ph g 1 2 [11; 12; 13; 14]%Z (vec 96 0%Z)) (map (indx_R_th_ph g 1 2) (seq 0 4)) [11; 12; 13; 0]%Z = true /\
     okat (set_row_R g 2 3 (map Z.of_nat (seq 50 8)) (vec 96 0%Z)) (map (fun ix => indx_R_th_ph g ix 2 3) (seq 0 8)) (map Z.of_nat (seq 50 8)) = true /\
     is_abort (get_row_R_ph g 2 (vec 96 0%Z) (vec 32 0%Z)) = true /\ is_ub (get_row_R_ph g 2 (vec 96 0%Z) (vec 24 0%Z)) = true) /\
  (exists g, demo_grid (Build false lay true) 4 3 = Ok g /\ grid_facts g 4 3 = true /\ ndebug (g_bld g) = true /\
     is_ub (set_row_ph g 1 2 [1; 2; 3]%Z (vec 96 0%Z)) = true /\
     okat (get_row_R_ph g 2 (map Z.of_nat (seq 0 96)) (vec 24 0%Z)) (seq 0 24)
       (flat_map (fun ix => map (fun ip => Z.of_nat (indx_R_th_ph g ix 2 ip)) (seq 0 3)) (seq 0 8)) = true).
Proof.
  assert (D : forall (r : res (grid Z)) (P : grid Z -> bool), (match r with Ok g => P g | _ => false end) = true -> exists g, r = Ok g /\ P g = true).
  { intros [g| | | |] P H; try discriminate. eauto. }
  split.
  - destruct (D (demo_grid (Build false lay false) 3 4) (fun g => (grid_facts g 3 4 && negb (ndebug (g_bld g)) &&
     okat (set_row_ph g 1 2 [11; 12; 13; 14]%Z (vec 96 0%Z)) (map (indx_R_th_ph g 1 2) (seq 0 4)) [11; 12; 13; 0]%Z &&
     okat (set_row_R g 2 3 (map Z.of_nat (seq 50 8)) (vec 96 0%Z)) (map (fun ix => indx_R_th_ph g ix 2 3) (seq 0 8)) (map Z.of_nat (seq 50 8)) &&
     is_abort (get_row_R_ph g 2 (vec 96 0%Z) (vec 32 0%Z)) && is_ub (get_row_R_ph g 2 (vec 96 0%Z) (vec 24 0%Z)))%bool)) as (g & E & H).
    { destruct lay; vm_compute; reflexivity. }
    exists g. rewrite !andb_true_iff in H. destruct H as (((((H1 & H2) & H3) & H4) & H5) & H6). rewrite negb_true_iff in H2. auto 10.
  - destruct (D (demo_grid (Build false lay true) 4 3) (fun g => (grid_facts g 4 3 && ndebug (g_bld g) && is_ub (set_row_ph g 1 2 [1; 2; 3]%Z (vec 96 0%Z)) &&
     okat (get_row_R_ph g 2 (map Z.of_nat (seq 0 96)) (vec 24 0%Z)) (seq 0 24)
       (flat_map (fun ix => map (fun ip => Z.of_nat (indx_R_th_ph g ix 2 ip)) (seq 0 3)) (seq 0 8)))%bool)) as (g & E & H).
    { destruct lay; vm_compute; reflexivity. }
    exists g. rewrite !andb_true_iff in H. destruct H as (((H1 & H2) & H3) & H4). auto 10.
Qed.
(** C33_negative_occurs: nl = nm = 8 with the true spherical harmonics *)
Example C33_nonvacuous b : exists h s, lawful b h Ylm_profile /\ clawful b h Ylm_profile /\ off_poles h /\ Sphr_of h s /\ (Z.of_nat (s_lmax h) < 2 ^ 31)%Z /\
  (2 <= s_lmax h)%nat /\ (0 < s_nlat h)%nat /\ (0 < s_nphi h)%nat.
Proof.
  destruct (C28_C36_nonvacuous b) as (h & s & a & v & H1 & H2 & H3 & H4 & E1 & E2 & E3 & E4 & H5 & _). exists h, s. rewrite E1, E3, E4 in *.
  repeat (split; [auto; lia|]). lia.
Qed.
