(** * The hypotheses of the theorems on class Sphere (C26, C28-C36) are met at every resolution, by the true
    spherical harmonics. *)
From Coq Require Import Reals Lra.
From Verif Require Import Base BaseLemmas ForList Arith MSphere PGrid PMake PSphere PSphere2 Spec SphereSpec PSum PFdR PSphereR
  PropSphere PropLadder LegSpec PLeg PSphereD PropSphereD PSphInst PSphInst2 PSphInst3.
Local Open Scope R_scope.

(** For every build, every nl, nm <= nl, nlat > nl, nphi > 2 nl and every choice of nlat distinct latitudes off
    the poles (the Gauss nodes are one) there are transforms satisfying the contract. *)
Theorem C28_contract_satisfiable b L M nlat nphi ct :
  (M <= L)%nat -> (L < nlat)%nat -> (2 * L < nphi)%nat -> length ct = nlat ->
  (forall i j, (i < nlat)%nat -> (j < nlat)%nat -> nth i ct 0 = nth j ct 0 -> i = j) ->
  (forall i, (i < nlat)%nat -> -1 < nth i ct 0 < 1) ->
  exists h : sht R, s_lmax h = L /\ s_mmax h = M /\ s_nlat h = nlat /\ s_nphi h = nphi /\ s_ct h = ct /\
    lawful b h Ylm_profile /\ (M = L -> clawful b h Ylm_profile) /\ off_poles h.
Proof. intros. now apply transforms_exist. Qed.

Lemma Sphr_of_ex (h : sht R) : exists s, Sphr_of h s.
Proof. unfold Sphr_of. rewrite Sphere_make_ok. eauto. Qed.
Lemma samples_ex b h P a : lawful b h P -> exists v, sampled b h (real_field P (s_lmax h) (s_mmax h) a) v.
Proof.
  intros H. destruct (pack h a (sh_mmax h (lw_shapes b h P H))) as (c & Hc). exists (s_sy h c). now apply (lw_syn b h P H).
Qed.
(** a function with a non-zero coefficient has a non-zero sample *)
Lemma nonzero_sample b h P a v l m : lawful b h P -> real_spectrum a -> (l <= s_lmax h)%nat -> (m <= l)%nat -> (m <= s_mmax h)%nat ->
  a l m <> (0, 0) -> sampled b h (real_field P (s_lmax h) (s_mmax h) a) v -> exists i, (i < length v)%nat /\ nth i v 0 <> 0.
Proof.
  intros H Ha Hl Hm HM Hne Hv.
  assert (D : {i | (i < length v)%nat /\ nth i v 0 <> 0} + {forall i, (i < length v)%nat -> nth i v 0 = 0}).
  { clear. induction v as [|x v IH]; [right; cbn; lia|].
    destruct (Req_EM_T x 0) as [->|Hx]; [|left; exists 0%nat; cbn; split; [lia|auto]].
    destruct IH as [(i & Hi & Hx)|Hz]; [left; exists (S i); cbn; split; [lia|auto]|].
    right. intros [|i] Hi; cbn; auto. apply Hz. cbn in Hi. lia. }
  destruct D as [(i & Hi)|Hz]; [eauto|exfalso].
  assert (Hv0 : sampled b h (real_field P (s_lmax h) (s_mmax h) (fun _ _ => (0, 0))) v).
  { split; [apply Hv|]. intros it ip Ht Hp. rewrite Hz.
    - symmetry. unfold real_field. apply Rsum_zero. intros. apply Rsum_zero. intros. unfold mode. cbn. destruct (Nat.eqb _ 0); ring.
    - rewrite (proj1 Hv). now apply ix_th_ph_lt. }
  destruct (ana_of b h P H a v Ha Hv) as [_ S1]. destruct (ana_of b h P H (fun _ _ => (0, 0)) v (fun _ => eq_refl) Hv0) as [_ S2].
  apply Hne. rewrite <- (S1 l m), (S2 l m) by auto. reflexivity.
Qed.

(** latitudes (i+1)/(n+1) *)
Definition demo_ct (n : nat) : list R := map (fun i => INR (S i) / INR (S n)) (seq 0 n).
Lemma demo_ct_ok n : length (demo_ct n) = n /\
  (forall i j, (i < n)%nat -> (j < n)%nat -> nth i (demo_ct n) 0 = nth j (demo_ct n) 0 -> i = j) /\
  (forall i, (i < n)%nat -> -1 < nth i (demo_ct n) 0 < 1).
Proof.
  assert (Hn : 0 < INR (S n)) by (apply lt_0_INR; lia).
  assert (E : forall i, (i < n)%nat -> nth i (demo_ct n) 0 = INR (S i) / INR (S n)).
  { intros i Hi. unfold demo_ct. rewrite (nth_indep _ 0 ((fun i => INR (S i) / INR (S n)) 0%nat)) by (now rewrite map_length, seq_length).
    rewrite (map_nth (fun i => INR (S i) / INR (S n))), seq_nth by auto. reflexivity. }
  split; [unfold demo_ct; now rewrite map_length, seq_length|]. split.
  - intros i j Hi Hj. rewrite !E by auto. intros H. apply Rmult_eq_reg_r in H; [|apply Rinv_neq_0_compat; lra].
    apply INR_eq in H. lia.
  - intros i Hi. rewrite E by auto. assert (0 < INR (S i)) by (apply lt_0_INR; lia).
    assert (INR (S i) < INR (S n)) by (apply lt_INR; lia). split.
    + apply Rlt_trans with 0; [lra|]. now apply Rdiv_lt_0_compat.
    + apply Rmult_lt_reg_r with (INR (S n)); auto. unfold Rdiv. rewrite Rmult_assoc, Rinv_l by lra. lra.
Qed.

(** a case meeting every hypothesis of C28-C36 at once: nl = nm = 8, 16 x 17 points, the data Y_{3,2} (real part) *)
Example C28_C36_nonvacuous b : exists h s a v, lawful b h Ylm_profile /\ clawful b h Ylm_profile /\ off_poles h /\ Sphr_of h s /\
  s_lmax h = 8%nat /\ s_mmax h = 8%nat /\ s_nlat h = 16%nat /\ s_nphi h = 17%nat /\ (Z.of_nat (s_lmax h) < 2 ^ 31)%Z /\
  real_spectrum a /\ inside (s_lmax h) (s_mmax h) a /\ (forall m, a (s_lmax h) m = (0, 0)) /\
  sampled b h (real_field Ylm_profile (s_lmax h) (s_mmax h) a) v /\ length v = (s_nlat h * s_nphi h)%nat /\
  exists i, (i < length v)%nat /\ nth i v 0 <> 0.
Proof.
  destruct (demo_ct_ok 16) as (H1 & H2 & H3).
  destruct (C28_contract_satisfiable b 8 8 16 17 (demo_ct 16)) as (h & E1 & E2 & E3 & E4 & _ & Hl & Hc & Hp); auto; try lia.
  destruct (Sphr_of_ex h) as (s & Hs).
  set (a := single 3 2 (1, 0)).
  assert (Ha : real_spectrum a) by (apply single_real; intros; lia).
  destruct (samples_ex b h Ylm_profile a Hl) as (v & Hv).
  exists h, s, a, v. repeat (split; [now auto|]). rewrite E1, E2, E3, E4 in *.
  repeat (split; [try reflexivity; try lia; auto|]).
  - intros l m Hlm. unfold a, single. destruct (Nat.eqb_spec l 3), (Nat.eqb_spec m 2); cbn; auto; lia.
  - destruct Hv as [Lv _]. rewrite E3, E4 in Lv. exact Lv.
  - apply (nonzero_sample b h Ylm_profile a v 3 2); auto; rewrite ?E1, ?E2; auto; try lia. unfold a, single. cbn. intros X. injection X. lra.
Qed.

(** the edge-mode theorems C30: data of degree nl *)
Example C30_nonvacuous b : exists h s a v, lawful b h Ylm_profile /\ Sphr_of h s /\ real_spectrum a /\
  edge_only (s_lmax h) (s_mmax h) a /\ sampled b h (real_field Ylm_profile (s_lmax h) (s_mmax h) a) v /\
  exists i, (i < length v)%nat /\ nth i v 0 <> 0.
Proof.
  destruct (demo_ct_ok 16) as (H1 & H2 & H3).
  destruct (C28_contract_satisfiable b 8 7 16 17 (demo_ct 16)) as (h & E1 & E2 & E3 & E4 & _ & Hl & Hc & Hp); auto; try lia.
  destruct (Sphr_of_ex h) as (s & Hs).
  set (a := single 8 3 (1, 1)).
  assert (Ha : real_spectrum a) by (apply single_real; intros; lia).
  destruct (samples_ex b h Ylm_profile a Hl) as (v & Hv).
  exists h, s, a, v. repeat (split; [now auto|]). split; [|split; [exact Hv|]].
  - rewrite E1, E2. intros l m Hl8 Hm8. unfold a, single. destruct (Nat.eqb_spec l 8); cbn; auto; lia.
  - apply (nonzero_sample b h Ylm_profile a v 8 3); auto; rewrite ?E1, ?E2; auto; try lia. unfold a, single. cbn. intros X. injection X. lra.
Qed.

(** C26 needs the monopole to be a non-zero constant: the spherical harmonic Y_00 = 1/sqrt(4 pi) *)
Theorem C26_monopole_constant th : Ylm_profile 0 0 th = sqrt (/ (4 * PI)) /\ sqrt (/ (4 * PI)) <> 0.
Proof.
  pose proof PI_RGT_0. split.
  - unfold Ylm_profile, ynorm, legendre. cbn [Nat.add Nat.sub fact pow Coquelicot.Derive.Derive_n INR].
    replace ((2 * 0 + 1) / (4 * PI) * (1 / 1)) with (/ (4 * PI)) by (field; lra). field.
  - apply Rgt_not_eq, sqrt_lt_R0, Rinv_0_lt_compat. lra.
Qed.
