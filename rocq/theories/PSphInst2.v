(** Existence of transforms satisfying the contract assumed of SHTns, continued: the transforms. *)
From Coq Require Import Reals Lra.
From Coquelicot Require Import Coquelicot.
From Verif Require Import Base BaseLemmas ForList Arith MSphere PGrid PMake PSphere PSphere2 Spec SphereSpec PSum PFdR PSphereR
  PropSphere PropLadder LegSpec PLeg PSphereD PropSphereD PSphInst PropGridFilter.
Local Open Scope R_scope.

Lemma msum_single l t m0 : (- Z.of_nat l <= m0 <= Z.of_nat l)%Z ->
  (forall m, (- Z.of_nat l <= m <= Z.of_nat l)%Z -> m <> m0 -> t m = 0) -> msum l t = t m0.
Proof.
  intros Hm H. unfold msum. rewrite (Rsum_single _ _ (Z.to_nat (m0 + Z.of_nat l))); [f_equal; lia|lia|].
  intros i Hi Hne. apply H; lia.
Qed.
Lemma msum_zero l t : (forall m, (- Z.of_nat l <= m <= Z.of_nat l)%Z -> t m = 0) -> msum l t = 0.
Proof. intros H. apply Rsum_zero. intros k Hk. apply H. lia. Qed.

(** ** sampling determines the coefficients *)
Section Inj.
Variables (L nlat nphi : nat) (ct : list R) (a : cspectrum).
Hypothesis HL : (L < nlat)%nat.
Hypothesis Hphi : (2 * L < nphi)%nat.
Hypothesis Hdist : forall i j, (i < nlat)%nat -> (j < nlat)%nat -> nth i ct 0 = nth j ct 0 -> i = j.
Hypothesis Hint : forall i, (i < nlat)%nat -> -1 < nth i ct 0 < 1.
Let th i := acos (nth i ct 0).
Let ph k := 2 * PI * INR k / INR nphi.
Hypothesis H0 : forall it ip, (it < nlat)%nat -> (ip < nphi)%nat ->
  cre Ylm_profile L a (th it) (ph ip) = 0 /\ cim Ylm_profile L a (th it) (ph ip) = 0.

Lemma extract (sel : R * R -> R) it m0 : (sel = fst \/ sel = snd) -> (it < nlat)%nat -> (Z.abs m0 <= Z.of_nat L)%Z ->
  Rsum (L + 1) (fun l => msum l (fun m => if (m =? m0)%Z then prof Ylm_profile l m (th it) * sel (a l m) else 0)) = 0.
Proof.
  intros Hsel Ht Hm0. assert (Hn : (0 < nphi)%nat) by lia. pose proof (n_pos nphi Hn) as Hnp.
  apply (Rmult_eq_reg_l (INR nphi)); [|lra]. rewrite Rmult_0_r.
  destruct Hsel as [-> | ->].
  - transitivity (Rsum nphi (fun k => cos (IZR m0 * ph k) * cre Ylm_profile L a (th it) (ph k) + sin (IZR m0 * ph k) * cim Ylm_profile L a (th it) (ph k))).
    2:{ apply Rsum_zero. intros k Hk. destruct (H0 it k Ht Hk) as [-> ->]. ring. }
    transitivity (Rsum nphi (fun k => Rsum (L + 1) (fun l => msum l (fun m =>
       prof Ylm_profile l m (th it) * (fst (a l m) * cos (IZR (m - m0) * ph k) - snd (a l m) * sin (IZR (m - m0) * ph k)))))).
    2:{ apply Rsum_ext. intros k _. unfold cre, cim. rewrite <- !Rsum_scal, <- Rsum_add. apply Rsum_ext. intros l _.
        rewrite <- !msum_scal, <- msum_add. apply msum_ext. intros m _. rewrite minus_IZR.
        replace ((IZR m - IZR m0) * ph k) with (IZR m * ph k - IZR m0 * ph k) by ring. rewrite cos_minus, sin_minus. ring. }
    rewrite Rsum_swap, <- Rsum_scal. apply Rsum_ext. intros l Hl. unfold msum. rewrite Rsum_swap, <- Rsum_scal. apply Rsum_ext.
    intros q Hq. set (m := (Z.of_nat q - Z.of_nat l)%Z).
    assert (Hj : (Z.abs (m - m0) < Z.of_nat nphi)%Z) by (unfold m; lia).
    destruct (fourier nphi Hn (m - m0) Hj) as [C S].
    rewrite (Rsum_ext nphi _ (fun k => prof Ylm_profile l m (th it) * fst (a l m) * cos (IZR (m - m0) * pt nphi k)
      + (- prof Ylm_profile l m (th it) * snd (a l m)) * sin (IZR (m - m0) * pt nphi k))) by (intros; unfold pt, ph; ring).
    rewrite Rsum_add, !Rsum_scal, C, S.
    destruct (Z.eqb_spec m m0), (Z.eqb_spec (m - m0) 0); try lia; ring.
  - transitivity (Rsum nphi (fun k => cos (IZR m0 * ph k) * cim Ylm_profile L a (th it) (ph k) - sin (IZR m0 * ph k) * cre Ylm_profile L a (th it) (ph k))).
    2:{ apply Rsum_zero. intros k Hk. destruct (H0 it k Ht Hk) as [-> ->]. ring. }
    transitivity (Rsum nphi (fun k => Rsum (L + 1) (fun l => msum l (fun m =>
       prof Ylm_profile l m (th it) * (fst (a l m) * sin (IZR (m - m0) * ph k) + snd (a l m) * cos (IZR (m - m0) * ph k)))))).
    2:{ apply Rsum_ext. intros k _. unfold cre, cim. rewrite <- !Rsum_scal, <- Rsum_sub. apply Rsum_ext. intros l _.
        unfold msum. rewrite <- !Rsum_scal, <- Rsum_sub. apply Rsum_ext. intros q _. set (m := (Z.of_nat q - Z.of_nat l)%Z). rewrite minus_IZR.
        replace ((IZR m - IZR m0) * ph k) with (IZR m * ph k - IZR m0 * ph k) by ring. rewrite cos_minus, sin_minus. ring. }
    rewrite Rsum_swap, <- Rsum_scal. apply Rsum_ext. intros l Hl. unfold msum. rewrite Rsum_swap, <- Rsum_scal. apply Rsum_ext.
    intros q Hq. set (m := (Z.of_nat q - Z.of_nat l)%Z).
    assert (Hj : (Z.abs (m - m0) < Z.of_nat nphi)%Z) by (unfold m; lia).
    destruct (fourier nphi Hn (m - m0) Hj) as [C S].
    rewrite (Rsum_ext nphi _ (fun k => prof Ylm_profile l m (th it) * snd (a l m) * cos (IZR (m - m0) * pt nphi k)
      + (prof Ylm_profile l m (th it) * fst (a l m)) * sin (IZR (m - m0) * pt nphi k))) by (intros; unfold pt, ph; ring).
    rewrite Rsum_add, !Rsum_scal, C, S.
    destruct (Z.eqb_spec m m0), (Z.eqb_spec (m - m0) 0); try lia; ring.
Qed.

Lemma component_zero sel l m0 : (sel = fst \/ sel = snd) -> (l <= L)%nat -> (Z.abs m0 <= Z.of_nat l)%Z -> sel (a l m0) = 0.
Proof.
  intros Hsel Hl Hm0. set (m := Z.abs_nat m0).
  assert (Hm : (m <= l)%nat) by lia.
  assert (Hz : ynorm l m * sel (a l m0) = 0).
  { apply (legendre_indep L m nlat (fun i => nth i ct 0) (fun l => ynorm l m * sel (a l m0))); auto; [lia|].
    intros i Hi. pose proof (extract sel i m0 Hsel Hi ltac:(lia)) as E.
    replace (L + 1)%nat with (m + (L - m + 1))%nat in E by lia. rewrite Rsum_split in E.
    rewrite Rsum_zero in E.
    2:{ intros q Hq. apply msum_zero. intros m1 H1. destruct (Z.eqb_spec m1 m0); auto. lia. }
    rewrite Rplus_0_l in E.
    set (K := (if (m0 <? 0)%Z then if Z.even m0 then 1 else -1 else 1) * (-1) ^ m * sin (th i) ^ m).
    rewrite (Rsum_ext _ _ (fun k => K * (ynorm (m + k) m * sel (a (m + k)%nat m0) * legendre (m + k) m (nth i ct 0)))) in E.
    - rewrite Rsum_scal in E. apply Rmult_integral in E. destruct E as [E|E]; [exfalso|exact E].
      revert E. unfold K. assert (Hs : sin (th i) <> 0).
      { unfold th. specialize (Hint i Hi). rewrite sin_acos by lra. apply Rgt_not_eq, sqrt_lt_R0. unfold Rsqr. nra. }
      apply Rmult_integral_contrapositive_currified; [|now apply pow_nonzero].
      apply Rmult_integral_contrapositive_currified; [|apply pow_nonzero; lra].
      destruct (m0 <? 0)%Z; [destruct (Z.even m0)|]; lra.
    - intros k Hk. rewrite (msum_single _ _ m0).
      + rewrite Z.eqb_refl. unfold prof. fold m. unfold Ylm_profile, th. specialize (Hint i Hi).
        rewrite cos_acos by lra. unfold K, th. ring.
      + lia.
      + intros m1 _ Hne. destruct (Z.eqb_spec m1 m0); [contradiction|auto]. }
  apply Rmult_integral in Hz. destruct Hz as [Hz|Hz]; auto. pose proof (ynorm_pos l m Hm). lra.
Qed.
Lemma sampling_injective l m : (l <= L)%nat -> (- Z.of_nat l <= m <= Z.of_nat l)%Z -> a l m = (0, 0).
Proof.
  intros Hl Hm. rewrite (surjective_pairing (a l m)).
  rewrite (component_zero fst l m), (component_zero snd l m); auto; lia.
Qed.
End Inj.

(** ** flat indices of the complex coefficients *)
Definition dl (j : nat) : nat := Nat.sqrt j.
Definition dm (j : nat) : Z := (Z.of_nat j - Z.of_nat (dl j * dl j) - Z.of_nat (dl j))%Z.
Lemma dl_ci l k : (k < 2 * l + 1)%nat -> dl (l * l + k) = l.
Proof. intros Hk. unfold dl. apply Nat.sqrt_unique. nia. Qed.
Lemma dm_ci l k : (k < 2 * l + 1)%nat -> dm (l * l + k) = (Z.of_nat k - Z.of_nat l)%Z.
Proof. intros Hk. unfold dm. rewrite dl_ci by auto. lia. Qed.
Lemma ci_flat l k : (k < 2 * l + 1)%nat -> ci l (Z.of_nat k - Z.of_nat l) = (l * l + k)%nat.
Proof. intros Hk. unfold ci. nia. Qed.
Lemma flat_sum K F : Rsum (K * K) F = Rsum K (fun l => Rsum (2 * l + 1) (fun k => F (l * l + k)%nat)).
Proof.
  induction K as [|K IH]; auto. cbn [Rsum]. rewrite <- IH, <- Rsum_split. f_equal. lia.
Qed.
Lemma ci_decode j K : (j < K * K)%nat -> ci (dl j) (dm j) = j /\ (dl j < K)%nat /\ (- Z.of_nat (dl j) <= dm j <= Z.of_nat (dl j))%Z.
Proof.
  intros Hj. destruct (ci_surj K j Hj) as (l & m & Hl & Hm & E).
  assert (Ej : j = (l * l + Z.to_nat (m + Z.of_nat l))%nat) by (rewrite <- E; unfold ci; nia).
  set (k := Z.to_nat (m + Z.of_nat l)) in *. assert (Hk : (k < 2 * l + 1)%nat) by (unfold k; lia).
  rewrite Ej, dl_ci, dm_ci, ci_flat by auto. repeat split; auto; lia.
Qed.
Lemma flat_field P L c (u : R * R -> R -> R) th ph :
  Rsum (L + 1) (fun l => msum l (fun m => prof P l m th * u (c l m) (IZR m * ph)))
  = Rsum ((L + 1) * (L + 1)) (fun j => prof P (dl j) (dm j) th * u (c (dl j) (dm j)) (IZR (dm j) * ph)).
Proof.
  rewrite flat_sum. apply Rsum_ext. intros l _. unfold msum. apply Rsum_ext. intros k Hk. now rewrite dl_ci, dm_ci by auto.
Qed.
