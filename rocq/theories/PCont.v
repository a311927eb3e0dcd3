(** Grid functions that sample continuum functions: exactness of every derivative array. *)
From Coq Require Import Reals Lra FunctionalExtensionality.
From Coquelicot Require Import Coquelicot.
From Verif Require Import Base BaseLemmas ForList Arith MFd MCheb MSphere MGrid MParams MField MEom Spec SphereSpec GridSpec LegSpec EomSpec ContSpec
  PGrid PTables PMake PSum PFdR PropTables PSphere PSphere2 PSphereR PropSphere PropLadder PLeg PSphereD PropSphereD TruncSpec PropTrunc PGridOp PropGridOp PRad PropRad PropGridFilter PConc PEom.
Local Open Scope R_scope.

(** v holds the values of psi at the grid points *)
Definition grid_sampled (h : sht R) (g : grid R) (psi : R -> R -> R -> R) (v : list R) : Prop :=
  length v = g_n3 g /\ forall ix it ip X, (ix < g_nx g)%nat -> (it < g_nlat g)%nat -> (ip < g_nphi g)%nat ->
    rad_pt (g_radial g) ix = Ok X -> nth (indx_R_th_ph g ix it ip) v 0 = psi X (grid_theta h it) (grid_phi h ip).

Lemma grid_sampled_ext h g psi psi' v : (forall X th ph, psi X th ph = psi' X th ph) -> grid_sampled h g psi v -> grid_sampled h g psi' v.
Proof. intros E [L H]. split; auto. intros. rewrite (H ix it ip X) by auto. apply E. Qed.

(** ** resolved functions are radial polynomials *)
Fixpoint psum (n : nat) (t : nat -> list R) : list R := match n with O => nil | S k => padd (psum k t) (t k) end.
Lemma psum_spec n t x : poly (psum n t) x = Rsum n (fun i => poly (t i) x).
Proof. induction n as [|n IH]; cbn [psum Rsum poly]; auto. now rewrite padd_spec, IH. Qed.
Lemma psum_length n t d : (forall i, (length (t i) <= d)%nat) -> (length (psum n t) <= d)%nat.
Proof. intros H. induction n as [|n IH]; cbn [psum]; [cbn; lia|]. rewrite padd_length. specialize (H n). lia. Qed.
Lemma pscal_length a p : length (pscal a p) = length p.
Proof. apply map_length. Qed.

Lemma field_radial_poly P L M d (re im : nat -> nat -> list R) :
  (forall l m, (length (re l m) <= d)%nat /\ (length (im l m) <= d)%nat) ->
  radial_poly d (fun X th ph => real_field P L M (fun l m => (poly (re l m) X, poly (im l m) X)) th ph).
Proof.
  intros HL.
  exists (fun th ph => psum (L + 1) (fun l => psum (Nat.min l M + 1) (fun m =>
     if Nat.eqb m 0 then pscal (P l 0%nat th) (re l m)
     else padd (pscal (2 * P l m th * cos (INR m * ph)) (re l m)) (pscal (- (2 * P l m th * sin (INR m * ph))) (im l m))))).
  intros th ph. split.
  - apply psum_length. intros l. apply psum_length. intros m. destruct (HL l m). destruct (Nat.eqb m 0); rewrite ?padd_length, !pscal_length; lia.
  - intros X. unfold real_field. rewrite psum_spec. apply Rsum_ext. intros l _. rewrite psum_spec. apply Rsum_ext. intros m _.
    unfold mode. destruct (Nat.eqb_spec m 0) as [->|]; cbn [fst snd]; rewrite ?padd_spec, !pscal_spec; ring.
Qed.
Lemma resolved_radial_poly L M d psi : resolved L M d psi -> radial_poly d psi.
Proof.
  intros (re & im & HL & _ & _ & E). destruct (field_radial_poly Ylm_profile L M d re im HL) as (c & Hc).
  exists c. intros th ph. destruct (Hc th ph) as [A B]. split; auto. intros X. rewrite E. apply B.
Qed.
Lemma resolved_spectrum L M d psi : resolved L M d psi -> exists a : R -> spectrum,
  (forall X, real_spectrum (a X)) /\ (forall X, inside L M (a X)) /\ (forall X, low (Nat.min L (M + 1)) (a X)) /\ forall X th ph, psi X th ph = real_field Ylm_profile L M (a X) th ph.
Proof.
  intros (re & im & HL & H0 & Hin & E). exists (fun X l m => (poly (re l m) X, poly (im l m) X)). split; [|split; [|split; auto]].
  - intros X l. cbn. now rewrite H0.
  - intros X l m H. destruct (Hin l m ltac:(lia)) as [-> ->]. reflexivity.
  - intros X l m H. destruct (Hin l m ltac:(lia)) as [-> ->]. reflexivity.
Qed.
Lemma resolved_d_phi L M d psi : resolved L M d psi -> resolved L M d (fun X => d_phi (psi X)).
Proof.
  intros (re & im & HL & H0 & Hin & E).
  exists (fun l m => pscal (- INR m) (im l m)), (fun l m => if Nat.eqb m 0 then nil else pscal (INR m) (re l m)). split; [|split; [|split]].
  - intros l m. destruct (HL l m). rewrite pscal_length. destruct (Nat.eqb m 0); rewrite ?pscal_length; cbn; split; auto; lia.
  - intros l. reflexivity.
  - intros l m H. destruct (Hin l m H) as [-> ->]. destruct (Nat.eqb m 0); auto.
  - intros X th ph. rewrite (d_phi_ext _ (real_field Ylm_profile L M (fun l m => (poly (re l m) X, poly (im l m) X)))) by (intros; apply E).
    rewrite field_d_phi. unfold real_field. apply Rsum_ext. intros l _. apply Rsum_ext. intros m _. f_equal. unfold phi_spec. cbn [fst snd].
    rewrite pscal_spec. destruct (Nat.eqb_spec m 0) as [->|]; cbn [poly INR]; rewrite ?pscal_spec; f_equal; ring.
Qed.

(** ** from arrays to shells and back *)
Section Grid.
Variables (b : build) (h : sht R) (cl Rmn Rmx : R) (nx : nat) (g : grid R).
Hypothesis Hg : grid_of b h cl Rmn Rmx nx g.

Lemma spos_indx it ip : spos b h it ip = indx_th_ph g it ip.
Proof.
  destruct (gof_sizes b h cl Rmn Rmx nx g Hg) as (Eb & En & _ & El & Ep & _).
  unfold spos, indx_th_ph, ix_th_ph. rewrite Eb, El, Ep. reflexivity.
Qed.
Lemma nth_shell v ix it ip : length v = g_n3 g -> (ix < g_nx g)%nat -> (it < g_nlat g)%nat -> (ip < g_nphi g)%nat ->
  nth (spos b h it ip) (shell g v ix) 0 = nth (indx_R_th_ph g ix it ip) v 0.
Proof.
  intros Lv Hx Ht Hp. rewrite spos_indx. pose proof (nth_error_shell_pt g v ix it ip Ht Hp) as K.
  assert (K2 : nth_error v (indx_R_th_ph g ix it ip) = Some (nth (indx_R_th_ph g ix it ip) v 0)).
  { apply nth_error_nth'. rewrite Lv. now apply ix_R_th_ph_lt. }
  rewrite K2 in K. now apply nth_error_nth with (d := 0) in K.
Qed.
Lemma shell_sampled psi v ix X : grid_sampled h g psi v -> (ix < g_nx g)%nat -> rad_pt (g_radial g) ix = Ok X ->
  sampled b h (psi X) (shell g v ix).
Proof.
  intros [Lv Hv] Hx HX. destruct (gof_sizes b h cl Rmn Rmx nx g Hg) as (Eb & En & _ & El & Ep & _).
  split; [rewrite shell_length by auto; congruence|]. intros it ip Ht Hp. rewrite <- El in Ht. rewrite <- Ep in Hp.
  rewrite nth_shell by auto. now apply Hv.
Qed.
Lemma sampled_shell (psi : R -> R -> R -> R) v ix it ip X : length v = g_n3 g -> sampled b h (psi X) (shell g v ix) -> (ix < g_nx g)%nat -> (it < g_nlat g)%nat -> (ip < g_nphi g)%nat ->
  nth (indx_R_th_ph g ix it ip) v 0 = psi X (grid_theta h it) (grid_phi h ip).
Proof.
  intros Lv [_ H] Hx Ht Hp. destruct (gof_sizes b h cl Rmn Rmx nx g Hg) as (Eb & En & _ & El & Ep & _).
  rewrite <- (nth_shell v ix it ip) by auto. apply H; congruence.
Qed.
Lemma gtheta it th : (it < g_nlat g)%nat -> length (s_ct h) = s_nlat h -> sp_theta (g_sphere g) it = Ok th -> th = grid_theta h it.
Proof.
  intros Ht Lc H. destruct (gof_sizes b h cl Rmn Rmx nx g Hg) as (Eb & En & _ & El & Ep & Hs & _).
  assert (E : sp_shtns (g_sphere g) = h). { unfold Sphr_of, Sphere_make in Hs. inv_bind Hs. inv_bind Hs. injection Hs as <-. reflexivity. }
  unfold sp_theta in H. rewrite E in H. inv_bind H. injection H as <-. apply vget_inv in E0. apply nth_error_nth with (d := 0) in E0.
  unfold grid_theta. rewrite E0. reflexivity.
Qed.

(** ** radial derivatives *)
Definition degree_bound : nat := if use_cheb b then (nx - 2)%nat else 7%nat.
Definition enough_points : Prop := if use_cheb b then (2 <= nx)%nat else (8 <= nx)%nat.

Lemma radial_exact psi v dv : cl <> 0 -> Rmn <> Rmx -> enough_points -> radial_poly degree_bound psi -> grid_sampled h g psi v -> length dv = g_n3 g ->
  exists dr drr, set_partial_r g v dv = Ok dr /\ set_partial2_r g v dv = Ok drr /\ length dr = g_n3 g /\ length drr = g_n3 g /\
  forall ix it ip X, (ix < g_nx g)%nat -> (it < g_nlat g)%nat -> (ip < g_nphi g)%nat -> rad_pt (g_radial g) ix = Ok X ->
    let i := indx_R_th_ph g ix it ip in let r := X / (1 - X / cl) in let th := grid_theta h it in let ph := grid_phi h ip in
    (X <> cl -> nth i dr 0 = Derive (fun x => at_r cl psi x th ph) r /\ nth i drr 0 = Derive_n (fun x => at_r cl psi x th ph) 2 r) /\
    (X = cl -> nth i dr 0 = 0 /\ nth i drr 0 = 0).
Proof.
  intros Hcl Hne Hn (c & Hc) [Lv Hv] Ld. unfold degree_bound, enough_points in *.
  set (cc := fun it ip => c (grid_theta h it) (grid_phi h ip)).
  assert (RS : radial_samples g (fun it ip => poly (cc it ip)) v).
  { split; auto. intros ix it ip X Hx Ht Hp HX. rewrite (Hv ix it ip X) by auto. apply Hc. }
  assert (D1 : forall it ip r, Derive (in_r cl (poly (cc it ip))) r = Derive (fun x => at_r cl psi x (grid_theta h it) (grid_phi h ip)) r).
  { intros. apply Derive_ext. intros t. unfold in_r, at_r. symmetry. apply Hc. }
  assert (D2 : forall it ip r, Derive_n (in_r cl (poly (cc it ip))) 2 r = Derive_n (fun x => at_r cl psi x (grid_theta h it) (grid_phi h ip)) 2 r).
  { intros. apply Derive_n_ext. intros t. unfold in_r, at_r. symmetry. apply Hc. }
  destruct (use_cheb b) eqn:Eb.
  - destruct (C21_cheb_exact b h cl Rmn Rmx nx g Hg Hcl cc v dv Eb Hn Hne) as (dr & drr & E1 & E2 & L1 & L2 & H); auto.
    { intros. apply Hc. }
    exists dr, drr. do 4 (split; auto). intros ix it ip X Hx Ht Hp HX. destruct (H ix it ip X Hx Ht Hp HX) as [A B]. cbv zeta. split; intros HH.
    + rewrite <- D1, <- D2. now apply A.
    + now apply B.
  - destruct (C21_fd_exact_first b h cl Rmn Rmx nx g Hg Hcl cc v dv Eb) as (dr & E1 & L1 & H1); auto; [lia|intros; apply Hc|].
    destruct (C21_fd_exact_second b h cl Rmn Rmx nx g Hg Hcl cc v dv Eb) as (drr & E2 & L2 & H2); auto; [intros; apply Hc|].
    exists dr, drr. do 4 (split; auto). intros ix it ip X Hx Ht Hp HX.
    destruct (H1 ix it ip X Hx Ht Hp HX) as [A B]. destruct (H2 ix it ip X Hx Ht Hp HX) as [A' B']. cbv zeta. split; intros HH.
    + rewrite <- D1, <- D2. split; [now apply A|now apply A'].
    + split; [now apply B|now apply B'].
Qed.

(** ** angular derivatives *)
Lemma angular_exact_spec (a : R -> spectrum) psi v dv : lawful b h Ylm_profile -> tlawful b h Ylm_profile -> ((s_lmax h - s_mmax h) * (s_lmax h - s_mmax h) <= s_lmax h + s_mmax h + 1)%nat -> off_poles h -> (Z.of_nat (s_lmax h) < 2 ^ 31)%Z ->
  (forall X, real_spectrum (a X)) -> (forall X, inside (s_lmax h) (s_mmax h) (a X)) -> (forall X, low (Nat.min (s_lmax h) (s_mmax h + 1)) (a X)) -> (forall X th ph, psi X th ph = real_field Ylm_profile (s_lmax h) (s_mmax h) (a X) th ph) -> grid_sampled h g psi v -> length dv = g_n3 g ->
  exists dphi lp sX, set_partial_phi g v dv = Ok dphi /\ set_spherical_lap g v dv = Ok lp /\ set_sphereX g v dv = Ok sX /\
    grid_sampled h g (fun X => d_phi (psi X)) dphi /\ grid_sampled h g (fun X => laplacian (psi X)) lp /\ grid_sampled h g (fun X => gradient_squared (psi X)) sX.
Proof.
  intros Hlaw Htl Hsz Hpol HL Ra Ia La Ea Hv Ld. pose proof (lw_shapes b h _ Hlaw) as Hsh. pose proof Hv as [Lv _].
  destruct (gof_sizes b h cl Rmn Rmx nx g Hg) as (Eb & En & _ & El & Ep & Hs & _).
  destruct (C23_angular b h cl Rmn Rmx nx g Hg v dv Hsh HL Lv Ld) as (dphi & lp & sX & E1 & E2 & E3 & L1 & L2 & L3 & H).
  exists dphi, lp, sX. do 3 (split; auto).
  assert (EX : forall X, psi X = real_field Ylm_profile (s_lmax h) (s_mmax h) (a X)).
  { intros X. apply functional_extensionality. intros th. apply functional_extensionality. intros ph. apply Ea. }
  assert (LS : length (sph0 g) = (s_nlat h * s_nphi h)%nat) by (unfold sph0; rewrite vec_length; congruence).
  assert (Q : forall ix X, (ix < g_nx g)%nat -> rad_pt (g_radial g) ix = Ok X ->
    sampled b h (d_phi (psi X)) (shell g dphi ix) /\ sampled b h (laplacian (psi X)) (shell g lp ix) /\ sampled b h (gradient_squared (psi X)) (shell g sX ix)).
  { intros ix X Hx HX. destruct (H ix Hx) as (A1 & A2 & A3). pose proof (shell_sampled psi v ix X Hv Hx HX) as S. rewrite EX in *.
    destruct (C28_is_d_phi b h (g_sphere g) Hlaw Hs (a X) (shell g v ix) (sph0 g)) as (o1 & F1 & S1); auto.
    destruct (C29_is_laplacian b h (g_sphere g) Hlaw Hs Hpol (a X) (shell g v ix) (sph0 g)) as (o2 & F2 & S2); auto.
    rewrite F1 in A1. injection A1 as <-. rewrite F2 in A2. injection A2 as <-. split; auto. split; auto.
    destruct (C71_sphereX_is_gradient_squared b h (g_sphere g) Hlaw Htl Hs Hpol HL (a X) (shell g v ix) (sph0 g)) as (o3 & F3 & S3); auto.
    rewrite F3 in A3. injection A3 as <-. auto. }
  split; [|split]; (split; [auto|]); intros ix it ip X Hx Ht Hp HX; destruct (Q ix X Hx HX) as (Q1 & Q2 & Q3).
  - apply (sampled_shell (fun X => d_phi (psi X))); auto.
  - apply (sampled_shell (fun X => laplacian (psi X))); auto.
  - apply (sampled_shell (fun X => gradient_squared (psi X))); auto.
Qed.
Lemma angular_exact d psi v dv : lawful b h Ylm_profile -> tlawful b h Ylm_profile -> ((s_lmax h - s_mmax h) * (s_lmax h - s_mmax h) <= s_lmax h + s_mmax h + 1)%nat -> off_poles h -> (Z.of_nat (s_lmax h) < 2 ^ 31)%Z ->
  resolved (s_lmax h) (s_mmax h) d psi -> grid_sampled h g psi v -> length dv = g_n3 g ->
  exists dphi lp sX, set_partial_phi g v dv = Ok dphi /\ set_spherical_lap g v dv = Ok lp /\ set_sphereX g v dv = Ok sX /\
    grid_sampled h g (fun X => d_phi (psi X)) dphi /\ grid_sampled h g (fun X => laplacian (psi X)) lp /\ grid_sampled h g (fun X => gradient_squared (psi X)) sX.
Proof.
  intros Hlaw Htl Hsz Hpol HL Hres Hv Ld. destruct (resolved_spectrum _ _ _ _ Hres) as (a & Ra & Ia & La & Ea).
  now apply (angular_exact_spec a).
Qed.
End Grid.
