(** * Property C99 in double precision: with finite differences, dividing every interval into 2^m keeps every old
    point, bit for bit. *)
From Coq Require Import Reals Lra Lia PeanoNat ZArith SpecFloat.
From Flocq Require Import Core BinarySingleNaN.
From Verif Require Import Base BaseLemmas Arith MFd FpSpec Fp FpErr FpKerr PropStod PropFpKerr.
Local Open Scope R_scope.

(** rounding commutes with powers of two away from the subnormal range *)
Lemma rnd_scale x e : bpow radix2 (-1022) <= Rabs x -> bpow radix2 (-1022) <= Rabs (x * bpow radix2 e) -> rnd (x * bpow radix2 e) = rnd x * bpow radix2 e.
Proof.
  intros H1 H2. assert (X : x <> 0). { intros ->. rewrite Rabs_R0 in H1. pose proof (bpow_gt_0 radix2 (-1022)). lra. }
  assert (M1 : (-1022 < mag radix2 x)%Z) by now apply mag_gt_bpow.
  assert (M2 : (-1022 < mag radix2 (x * bpow radix2 e))%Z) by now apply mag_gt_bpow.
  rewrite (mag_mult_bpow radix2 x e X) in M2.
  unfold round, F2R, scaled_mantissa, cexp. rewrite (mag_mult_bpow radix2 x e X). cbn [Fnum Fexp].
  assert (C : SpecFloat.fexp 53 1024 (mag radix2 x + e) = (SpecFloat.fexp 53 1024 (mag radix2 x) + e)%Z) by (unfold SpecFloat.fexp, SpecFloat.emin; lia).
  rewrite C. replace (x * bpow radix2 e * bpow radix2 (- (SpecFloat.fexp 53 1024 (mag radix2 x) + e))) with (x * bpow radix2 (- SpecFloat.fexp 53 1024 (mag radix2 x))).
  - rewrite bpow_plus. ring.
  - rewrite Z.opp_add_distr, bpow_plus. rewrite Rmult_assoc, (Rmult_comm (bpow radix2 e)), Rmult_assoc, <- (bpow_plus _ (- e) e). replace (- e + e)%Z with 0%Z by lia. cbn [bpow]. ring.
Qed.
Lemma mul_rnd x y : fin x -> fin y -> Rabs (val x * val y) <= big -> fin (SFmul 53 1024 x y) /\ val (SFmul 53 1024 x y) = rnd (val x * val y).
Proof.
  intros [Dx Fx] [Dy Fy] H. destruct (double_B x Dx) as [a ->], (double_B y Dy) as [b ->]. rewrite !val_B in *. rewrite fin_B in *.
  rewrite SFmul_B. assert (Q := Bmult_correct 53 1024 Hp Hm mode_NE a b). rewrite rnd_lt in Q by exact H.
  destruct Q as (Q1 & Q2 & _). split; [split; [apply B_double|apply fin_B; rewrite Q2, Fx, Fy; reflexivity]|]. now rewrite val_B.
Qed.
Lemma div_rnd x y : fin x -> fin y -> val y <> 0 -> Rabs (val x / val y) <= big -> fin (SFdiv 53 1024 x y) /\ val (SFdiv 53 1024 x y) = rnd (val x / val y).
Proof.
  intros [Dx Fx] [Dy Fy] N H. destruct (double_B x Dx) as [a ->], (double_B y Dy) as [b ->]. rewrite !val_B in *. rewrite fin_B in *.
  rewrite SFdiv_B. assert (Q := Bdiv_correct 53 1024 Hp Hm mode_NE a b N). rewrite rnd_lt in Q by exact H.
  destruct Q as (Q1 & Q2 & _). split; [split; [apply B_double|apply fin_B; rewrite Q2, Fx; reflexivity]|]. now rewrite val_B.
Qed.

Section Nodes.
Variables (lexp llog lcos lsin lacos : spec_float -> spec_float) (lpi : spec_float).
Local Instance D : Arith spec_float := b64 lexp llog lcos lsin lacos lpi.
Local Definition fnat_f n := fnat_fin lexp llog lcos lsin lacos lpi n.
Variables (lo up : spec_float) (n m : nat).
Hypotheses (Flo : fin lo) (Fup : fin up) (Ol : ordinary (val lo)) (Ou : ordinary (val up)) (LU : 2 * val lo <= val up).
Hypotheses (Hn : (2 <= n)%nat) (Hb : (2 ^ m * (n - 1) + 1 <= 2 ^ 40)%nat).
Let n' := (2 ^ m * (n - 1) + 1)%nat.
Let g : fd spec_float := FD_make n lo up.
Let g' : fd spec_float := FD_make n' lo up.

Lemma pow2_1 : (1 <= 2 ^ m)%nat. Proof. change 1%nat with (2 ^ 0)%nat. apply Nat.pow_le_mono_r; lia. Qed.
Lemma n_le : (n <= 2 ^ 40)%nat. Proof. pose proof pow2_1. nia. Qed.
Lemma mg_INR k : (1 <= k <= 2 ^ 40)%nat -> mg 40 (INR k).
Proof.
  intros [H1 H2]. split; [|now apply n40]. apply Rle_trans with 1; [|replace 1 with (INR 1) by reflexivity; now apply le_INR].
  rewrite <- Rinv_1. apply Rinv_le_contravar; [lra|]. apply pow_R1_Rle. lra.
Qed.
Lemma mg_rnd k A : mg k A -> (k <= 1000)%nat -> bpow radix2 (-1022) <= Rabs A /\ Rabs A <= big.
Proof.
  intros H Hk. assert (P := mg_pos k A H). apply (mg_le k 1000) in H; [|lia]. destruct H as [H1 H2]. rewrite Rabs_right by lra. split.
  - eapply Rle_trans; [|exact H1]. rewrite bpow_powerRZ. change (IZR radix2) with 2. change (-1022)%Z with (- Z.of_nat 1022)%Z. rewrite powerRZ_neg' by lra.
    rewrite <- pow_powerRZ. apply Rinv_le_contravar; [apply pow2_pos|]. apply Rle_pow; [lra|lia].
  - eapply Rle_trans; [exact H2|]. unfold big. apply Rle_pow; [lra|lia].
Qed.
Let d := SFsub 53 1024 up lo.
Lemma d_ok : fin d /\ mg 62 (val d).
Proof.
  assert (Pl := mg_pos 60 _ Ol). destruct Ol as [L1 L2], Ou as [U1 U2].
  destruct (sub_ok up lo Fup Flo) as [FS (e & He & ES)].
  { rewrite Rabs_right by lra. eapply Rle_trans; [|apply (mg_rnd 60 (val up)); [split; assumption|lia]]. rewrite Rabs_right; lra. }
  split; [exact FS|]. fold d in ES. rewrite ES. assert (E : Rabs e <= / 2). { eapply Rle_trans; [exact He|]. unfold uu. apply Rinv_le_contravar; [lra|]. replace 2 with (2 ^ 1) at 1 by ring. apply Rle_pow; [lra|lia]. }
  apply Rabs_le_inv in E. split.
  - replace (2 ^ 62) with (2 ^ 60 * 4) by ring. rewrite Rinv_mult. pose proof (Rinv_0_lt_compat _ (pow2_pos 60)). set (q := / 2 ^ 60) in *. clearbody q.
    apply Rle_trans with ((val up - val lo) * / 2); [lra|]. apply Rmult_le_compat_l; lra.
  - replace (2 ^ 62) with (2 ^ 60 * 4) by ring. pose proof (pow2_pos 60). set (q := 2 ^ 60) in *. clearbody q.
    apply Rle_trans with ((val up - val lo) * 2); [apply Rmult_le_compat_l; lra|lra].
Qed.
Lemma dx_val : fin (fd_dx g) /\ val (fd_dx g) = rnd (val d / INR (n - 1)).
Proof.
  destruct d_ok as [Fd Md]. pose proof n_le. destruct (fnat_f (n - 1)) as [F1 E1]; [apply p40_53; lia|].
  pose proof (mg_INR (n - 1) ltac:(lia)) as MN. unfold g, FD_make. cbn [fd_dx]. rewrite wsub_le by lia. rewrite <- E1. apply div_rnd; auto.
  - rewrite E1. pose proof (mg_pos _ _ MN). lra.
  - rewrite E1. apply (mg_rnd (62 + 40)); [apply mg_mul; [exact Md|now apply mg_inv]|lia].
Qed.
Lemma dx_scaled : fin (fd_dx g') /\ val (fd_dx g') = val (fd_dx g) * bpow radix2 (- Z.of_nat m).
Proof.
  destruct d_ok as [Fd Md]. pose proof n_le. pose proof pow2_1. destruct (fnat_f (n' - 1)) as [F1 E1]; [apply p40_53; unfold n'; lia|].
  assert (N2 : (n' - 1 = 2 ^ m * (n - 1))%nat) by (unfold n'; apply Nat.add_sub).
  pose proof (mg_INR (n' - 1) ltac:(nia)) as MN. pose proof (mg_INR (n - 1) ltac:(lia)) as MN0.
  assert (M1 : mg 102 (val d / INR (n' - 1))) by (apply (mg_mul 62 40); [exact Md|now apply mg_inv]).
  assert (M0 : mg 102 (val d / INR (n - 1))) by (apply (mg_mul 62 40); [exact Md|now apply mg_inv]).
  assert (EQ : val d / INR (n' - 1) = val d / INR (n - 1) * bpow radix2 (- Z.of_nat m)).
  { rewrite N2, mult_INR, pow_INR, bpow_opp, <- IZR_Zpower by lia. change (radix2 ^ Z.of_nat m)%Z with (2 ^ Z.of_nat m)%Z. rewrite <- pow_IZR. change (INR 2) with 2.
    pose proof (mg_pos _ _ MN0). pose proof (pow2_pos m). field. lra. }
  assert (DV : fin (fd_dx g') /\ val (fd_dx g') = rnd (val d / INR (n' - 1))).
  { unfold g', FD_make. cbn [fd_dx]. rewrite wsub_le by (unfold n'; lia). rewrite <- E1. apply div_rnd; auto.
    - rewrite E1. pose proof (mg_pos _ _ MN). lra.
    - rewrite E1. apply (mg_rnd 102); [exact M1|lia]. }
  destruct DV as [F2 V2]. split; [exact F2|]. rewrite V2, EQ. destruct dx_val as [_ ->]. apply rnd_scale; [apply (mg_rnd 102); [exact M0|lia]|].
  rewrite <- EQ. apply (mg_rnd 102); [exact M1|lia].
Qed.
Lemma dx_mg : mg 104 (val (fd_dx g)).
Proof.
  destruct d_ok as [Fd Md]. pose proof n_le. pose proof (mg_INR (n - 1) ltac:(lia)) as MN0.
  assert (M0 : mg 102 (val d / INR (n - 1))) by (apply (mg_mul 62 40); [exact Md|now apply mg_inv]). destruct dx_val as [_ ->].
  destruct M0 as [L U].
  assert (B : forall k, (k <= 1000)%nat -> rnd (2 ^ k) = 2 ^ k /\ rnd (/ 2 ^ k) = / 2 ^ k).
  { intros k Hk. assert (Q : 2 ^ k = bpow radix2 (Z.of_nat k)) by (rewrite <- IZR_Zpower by lia; change (radix2 ^ Z.of_nat k)%Z with (2 ^ Z.of_nat k)%Z; now rewrite <- pow_IZR).
    rewrite Q, <- bpow_opp. split; apply round_generic; try apply valid_rnd_N; apply generic_format_bpow; unfold SpecFloat.fexp, SpecFloat.emin; lia. }
  assert (V : Valid_exp (SpecFloat.fexp 53 1024)) by apply (fexp_correct 53 1024 Hp).
  split.
  - apply Rle_trans with (/ 2 ^ 102); [apply Rinv_le_contravar; [apply pow2_pos|apply Rle_pow; [lra|lia]]|].
    rewrite <- (proj2 (B 102%nat ltac:(lia))). apply round_le; [exact V|apply valid_rnd_N|exact L].
  - apply Rle_trans with (2 ^ 102); [|apply Rle_pow; [lra|lia]]. rewrite <- (proj1 (B 102%nat ltac:(lia))). apply round_le; [exact V|apply valid_rnd_N|exact U].
Qed.
(** the refined grid has the same doubles at the old points *)
Theorem C99_nodes_bitwise i : (i < n)%nat -> fd_pt g' (2 ^ m * i) = fd_pt g i.
Proof.
  intros Hi. pose proof n_le. pose proof pow2_1. destruct dx_scaled as [F2 V2]. destruct dx_val as [F1 _]. pose proof dx_mg as MD. pose proof (mg_pos _ _ MD) as PD.
  unfold fd_pt. cbn [fadd fmul D b64]. replace (fd_lower g') with lo by reflexivity. replace (fd_lower g) with lo by reflexivity. f_equal.
  assert (P2 : 0 < val (fd_dx g')) by (rewrite V2; apply Rmult_lt_0_compat; [exact PD|apply bpow_gt_0]).
  destruct i as [|i'].
  - rewrite Nat.mul_0_r. change (fnat 0) with (S754_zero false). set (x := fd_dx g) in *. set (y := fd_dx g') in *. clearbody x y.
    destruct F1 as [_ I1], F2 as [_ I2]. clear - PD P2 I1 I2.
    assert (K : forall z, is_fin z -> 0 < val z -> SFmul 53 1024 z (S754_zero false) = S754_zero false).
    { intros z I P. destruct z as [s|s| |s mm e]; try (cbn in P; lra); try tauto. destruct s; [|reflexivity]. exfalso. cbn in P.
      rewrite <- Ropp_mult_distr_l in P || idtac. revert P. unfold val. intros P.
      assert (0 < IZR (Zpos mm)) by (apply IZR_lt; reflexivity).
      assert (0 < powerRZ 2 e) by (apply powerRZ_lt; lra). nra. }
    rewrite !K; auto.
  - set (i := S i') in *. destruct (fnat_f i) as [Fi Ei]; [apply p40_53; lia|]. destruct (fnat_f (2 ^ m * i)) as [Fj Ej]; [apply p40_53; nia|].
    pose proof (mg_INR i ltac:(lia)) as MI.
    assert (EQ : val (fd_dx g') * INR (2 ^ m * i) = val (fd_dx g) * INR i).
    { rewrite V2, mult_INR, pow_INR, bpow_opp, <- IZR_Zpower by lia. change (radix2 ^ Z.of_nat m)%Z with (2 ^ Z.of_nat m)%Z. rewrite <- pow_IZR. change (INR 2) with 2.
      pose proof (pow2_pos m). field. lra. }
    assert (MM : mg 144 (val (fd_dx g) * INR i)) by now apply (mg_mul 104 40).
    destruct (mul_rnd (fd_dx g) (fnat i) F1 Fi) as [A1 A2]; [rewrite Ei; apply (mg_rnd 144); [exact MM|lia]|].
    destruct (mul_rnd (fd_dx g') (fnat (2 ^ m * i)) F2 Fj) as [B1 B2]; [rewrite Ej, EQ; apply (mg_rnd 144); [exact MM|lia]|].
    rewrite Ei in A2. rewrite Ej, EQ in B2. apply fin_inj; [exact B1|exact A1|etransitivity; [exact B2|symmetry; exact A2]|].
    apply Rgt_not_eq. eapply Rlt_le_trans; [|apply Req_le; symmetry; exact B2].
    assert (G : bpow radix2 (-1022) <= rnd (val (fd_dx g) * INR i)).
    { apply round_ge_generic; [apply (fexp_correct 53 1024 Hp)|apply valid_rnd_N|apply generic_format_bpow; unfold SpecFloat.fexp, SpecFloat.emin; lia|].
      pose proof (proj1 (mg_rnd 144 _ MM ltac:(lia))) as Q. rewrite Rabs_right in Q; [exact Q|]. pose proof (mg_pos _ _ MM). lra. }
    pose proof (bpow_gt_0 radix2 (-1022)). lra.
Qed.
End Nodes.

(** the domain from 1 to 20 with nine points, halved twice *)
Example C99_bitwise_nonvacuous : let lo := sf_ofZ 1 in let up := sf_ofZ 20 in
  fin lo /\ fin up /\ ordinary (val lo) /\ ordinary (val up) /\ 2 * val lo <= val up /\ (2 <= 9)%nat /\ (2 ^ 2 * (9 - 1) + 1 <= 2 ^ 40)%nat.
Proof.
  cbv zeta. destruct (ofZ_ok 1 ltac:(lia)) as [F1 V1]. destruct (ofZ_ok 20 ltac:(lia)) as [F2 V2].
  change (sf_ofZ 1) with (SpecFloat.binary_normalize 53 1024 1 0 false). change (sf_ofZ 20) with (SpecFloat.binary_normalize 53 1024 20 0 false).
  split; [exact F1|]. split; [exact F2|]. rewrite V1, V2. assert (P : forall z, (1 <= z <= 2 ^ 60)%Z -> ordinary (IZR z)).
  { intros z [A B]. apply IZR_le in A, B. split; [apply Rle_trans with 1; [|exact A]; rewrite <- Rinv_1; apply Rinv_le_contravar; [lra|]; apply pow_R1_Rle; lra|].
    rewrite (pow_IZR 2 60). exact B. }
  split; [apply P; lia|]. split; [apply P; lia|]. split; [lra|]. split; [lia|]. apply Nat.le_trans with (2 ^ 6)%nat; [cbn; lia|apply Nat.pow_le_mono_r; lia].
Qed.
