(** * The launched grid in doubles: horizon, outer boundary and the whole coefficient table (C85). *)
From Coq Require Import ZArith Reals SpecFloat Bool List Lra Lia.
From Verif Require Import Base BaseLemmas Arith MFd MCheb MSphere MGrid MParams MEom MSim PMake PTables PEom PropTables EomSpec FpSpec Fp FpErr FpRed PropFpFd FpKerr PropFpKerr.
Import ListNotations.
Local Open Scope R_scope.

Section S.
Variables (lexp llog lcos lsin lacos : spec_float -> spec_float) (lpi : spec_float).
Local Instance D2 : Arith spec_float := b64 lexp llog lcos lsin lacos lpi.

Section Launch.
Variables m a cl : spec_float.
Hypotheses (Fm : fin m) (Fa : fin a) (Fc : fin cl) (Om : ordinary (val m)) (Oc : ordinary (val cl)) (C5 : 5 * val m <= val cl).
Hypotheses (HA : Rabs (val a) <= val m) (HS : spin_clear (val m) (val a)).
Let M := val m. Let A := val a. Let L := val cl. Let rp := r_plus M A.
Let Pm : 0 < M. Proof. exact (mg_pos 60 _ Om). Qed.
Let Mm : mg 60 (val m). Proof. exact Om. Qed.

Lemma launch_horizon_ok : ap (launch_horizon m a) rp (2 * M) 4.
Proof.
  unfold launch_horizon. cbn [fadd fpowh fmul fsub D2 b64]. assert (P := Pm).
  assert (Am : ap m M M 0) by (apply ap_exact; [exact Fm|fold M; rewrite Rabs_right; lra]).
  assert (AB : M + M <= 2 ^ 1000). { assert (H2 := mid_m m Mm 2 ltac:(lra)). destruct H2 as [_ H2]. fold M in H2. lra. }
  assert (RT : ap (SFsqrt 53 1024 (SFmul 53 1024 (SFsub 53 1024 m a) (SFadd 53 1024 m a))) (sqrt (M ^ 2 - A ^ 2)) M 3).
  { destruct HS as [E|[G _]]; [|now apply root_ok].
    replace (M ^ 2 - A ^ 2) with 0. 2:{ fold M A in E. rewrite <- E, pow2_abs. ring. } rewrite sqrt_0.
    assert (SB : forall y, Rabs y <= 2 * M -> Rabs y <= big) by (intros y Hy; apply (small_big m Mm); fold M; lra).
    assert (HA' := Rabs_le_between _ _ HA). fold M A in HA'.
    destruct (sub_ok m a Fm Fa) as [FS (d1 & _ & ES)]. { apply SB. fold M A. apply Rabs_le. lra. }
    destruct (add_ok m a Fm Fa) as [FP (d2 & _ & EP)]. { apply SB. fold M A. apply Rabs_le. lra. }
    fold M A in ES, EP, E. set (s := SFsub 53 1024 m a) in *. set (p := SFadd 53 1024 m a) in *.
    assert (Z : val s = 0 \/ val p = 0). { unfold Rabs in E. destruct (Rcase_abs A); [right; rewrite EP; replace (M + A) with 0 by lra; ring|left; rewrite ES; replace (M - A) with 0 by lra; ring]. }
    assert (Q : exists z, SFsqrt 53 1024 (SFmul 53 1024 s p) = S754_zero z).
    { destruct FS as [Ds Is], FP as [Dp Ip]. destruct Z as [Z|Z].
      - destruct (zero_shape s (conj Ds Is) Z) as (b & ->). destruct p; try tauto; eexists; reflexivity.
      - destruct (zero_shape p (conj Dp Ip) Z) as (b & ->). destruct s; try tauto; eexists; reflexivity. }
    destruct Q as (z & ->). split; [split; [reflexivity|exact I]|]. cbn [val]. rewrite Rminus_0_r, Rabs_R0. assert (W := ww_pos). split; [lra|]. apply Rmult_le_pos; [apply Rmult_le_pos; lra|lra]. }
  unfold rp, r_plus. replace 4 with (3 + 1) by ring. replace (2 * M) with (M + M) by ring. exact (ap_addr _ _ _ _ _ _ _ _ Am RT ltac:(lra) ltac:(lra) AB).
Qed.

Lemma rp_bounds : M <= rp <= 2 * M.
Proof.
  split; [exact (rp_ge m a)|]. assert (H := proj1 (proj2 launch_horizon_ok)). assert (G := rp_ge m a). fold M A in G. fold rp in G. assert (P := Pm). rewrite Rabs_right in H by lra. exact H.
Qed.
(** the exact compactified horizon *)
Definition Rh : R := rp / (1 + rp / L).
Lemma L_pos : 0 < L. Proof. assert (P := Pm). fold M L in C5. lra. Qed.
Lemma iRh : / Rh = / rp + / L.
Proof. assert (P := L_pos). assert (B := rp_bounds). assert (Q := Pm). unfold Rh. field. lra. Qed.
Lemma rpL : 0 < rp / L <= 2 / 5.
Proof.
  assert (P := L_pos). assert (B := rp_bounds). assert (Q := Pm). fold M L in C5. split; [apply Rdiv_lt_0_compat; lra|].
  apply Rmult_le_reg_r with L; [exact P|]. unfold Rdiv. rewrite Rmult_assoc, Rinv_l by lra. lra.
Qed.
Lemma Rh_bounds : 5 / 6 * M <= Rh <= 2 * M.
Proof.
  assert (P := L_pos). assert (B := rp_bounds). assert (Q := Pm). assert (Z := rpL). fold M L in C5.
  assert (IL : / L <= / (5 * M)) by (apply Rinv_le_contravar; lra). assert (IR : / rp <= / M) by (apply Rinv_le_contravar; lra).
  assert (I5 : / (5 * M) = / 5 * / M) by (rewrite Rinv_mult; lra). assert (IM := Rinv_0_lt_compat _ Q).
  assert (PR : 0 < Rh) by (apply Rdiv_lt_0_compat; lra). split.
  - rewrite <- (Rinv_inv Rh), iRh. replace (5 / 6 * M) with (/ (6 / 5 * / M)) by (field; lra). apply Rinv_le_contravar; [|lra].
    assert (0 < / rp) by (apply Rinv_0_lt_compat; lra). assert (0 < / L) by (apply Rinv_0_lt_compat; lra). lra.
  - unfold Rh. apply Rmult_le_reg_r with (1 + rp / L); [lra|]. unfold Rdiv at 1. rewrite Rmult_assoc, Rinv_l by lra. nra.
Qed.
Lemma Rmin_ap : ap (launch_Rmin cl m a) Rh (2 * M) 15.
Proof.
  assert (P := L_pos). assert (B := rp_bounds). assert (Q := Pm). assert (Z := rpL). fold M L in C5.
  assert (H1 := launch_horizon_ok). unfold launch_Rmin, launch_compact. set (hr := launch_horizon m a) in *. cbn [fadd fdiv fofZ D2 b64].
  assert (MC : mg 60 (val cl)) by exact Oc.
  assert (H2 : ap (SFdiv 53 1024 hr cl) (rp / L) (2 / 5) 5).
  { apply (ap_weak _ (rp / L) _ (2 * M / L) _ (4 + 1)); [|reflexivity| |].
    - apply (ap_div hr cl); [lra|exact Fc|exact P| |exact H1]. apply (mg_mid (10 + 60 + 60)); [|cbn; lia]. unfold Rdiv. apply mg_mul; [apply mg_mul; [apply mg_lit; lra|exact Mm]|apply mg_inv; exact MC].
    - apply Rmult_le_reg_r with L; [exact P|]. unfold Rdiv. rewrite Rmult_assoc, Rinv_l by lra. lra.
    - assert (2 * M / L <= 2 / 5); [|lra]. apply Rmult_le_reg_r with L; [exact P|]. unfold Rdiv. rewrite Rmult_assoc, Rinv_l by lra. lra. }
  assert (A1 : ap (sf_ofZ 1) 1 1 0) by exact (ap_ofZ 1 ltac:(lia)).
  assert (H3 := ap_addr _ _ _ _ _ _ _ _ A1 H2 ltac:(lra) ltac:(lra) ltac:(apply lit_sum; lra)).
  apply (ap_weak _ (rp / (1 + rp / L)) _ (2 * M / 1) _ (4 + 6 * (7 / 5) + 2)); [|reflexivity|lra|lra].
  apply (ap_divg _ _ _ _ (2 * M) (1 + 2 / 5) 1 4 6 (7 / 5)); try lra.
  - replace (2 * M / 1) with (2 * M) by field. exact (mid_m m Mm 2 ltac:(lra)).
  - exact H1.
  - eapply ap_le; [|exact H3]. lra.
Qed.
Lemma Rmin_ok : fin (launch_Rmin cl m a) /\ Rabs (val (launch_Rmin cl m a) - Rh) <= 36 * ww * Rh.
Proof.
  destruct Rmin_ap as (F & _ & H). split; [exact F|]. eapply Rle_trans; [exact H|]. assert (B := Rh_bounds). assert (W := ww_pos).
  replace (15 * ww * (2 * M)) with (ww * (30 * M)) by ring. replace (36 * ww * Rh) with (ww * (36 * Rh)) by ring. apply Rmult_le_compat_l; lra.
Qed.
Lemma Rmin_size : let X := val (launch_Rmin cl m a) in 41 * M <= 50 * X /\ X <= 201 / 100 * M.
Proof.
  intros X. destruct Rmin_ok as [_ H]. apply Rabs_le_between in H. assert (B := Rh_bounds). assert (W := ww_small). assert (Pw := ww_pos). fold X in H. assert (Q := Pm).
  assert (36 * ww * Rh <= 36 * ww * (2 * M)) by (apply Rmult_le_compat_l; lra). assert (ww * M <= / 8000000000000 * M) by (apply Rmult_le_compat_r; lra). lra.
Qed.
End Launch.

(** the launcher's horizon and inner boundary *)
Theorem C85_launch (m a cl : spec_float) :
  fin m -> fin a -> fin cl -> ordinary (val m) -> ordinary (val cl) -> 5 * val m <= val cl ->
  Rabs (val a) <= val m -> spin_clear (val m) (val a) ->
  let rp := r_plus (val m) (val a) in let X := rp / (1 + rp / val cl) in
  near 4 (launch_horizon m a) rp (2 * val m) /\ near 36 (launch_Rmin cl m a) X X.
Proof.
  intros Fm Fa Fc Om Oc C5 HA HS rp X. split.
  - apply (near_ap _ _ _ _ _ _ _ (launch_horizon_ok m a Fm Fa Om HA HS)); [reflexivity|lra|apply Rle_refl].
  - exact (Rmin_ok m a cl Fm Fa Fc Om Oc C5 HA HS).
Qed.

Lemma kSigma_ge a C x : 1 <= kSigma a C x.
Proof. unfold kSigma. assert (H := pow2_ge_0 (a * x * C)). nra. Qed.
Lemma kW_ge M a C x : - / 1000 <= M * x -> 499 / 500 <= kW M a C x.
Proof.
  intros X. unfold kW. assert (S1 := kSigma_ge a C x). assert (I := Rinv_0_lt_compat (kSigma a C x) ltac:(lra)).
  assert (I1 : / kSigma a C x <= 1) by (rewrite <- Rinv_1; apply Rinv_le_contravar; lra).
  unfold Rdiv. replace (2 * M * x * / kSigma a C x) with (2 * (M * x) * / kSigma a C x) by ring. set (y := M * x) in *. set (i := / kSigma a C x) in *. nra.
Qed.
(** division by Sigma and by W enlarges by at most 1.01 *)
Lemma quot_le M a C x q B : - / 1000 <= M * x -> Rabs q <= B -> Rabs (q / kSigma a C x / kW M a C x) <= 101 / 100 * B.
Proof.
  intros X H. assert (S1 := kSigma_ge a C x). assert (W1 := kW_ge M a C x X). set (s := kSigma a C x) in *. set (w := kW M a C x) in *.
  assert (I := Rinv_0_lt_compat s ltac:(lra)). assert (J := Rinv_0_lt_compat w ltac:(lra)).
  assert (I1 : / s <= 1) by (rewrite <- Rinv_1; apply Rinv_le_contravar; lra).
  assert (J1 : / w <= 101 / 100) by (replace (101 / 100) with (/ (100 / 101)) by field; apply Rinv_le_contravar; lra).
  unfold Rdiv. rewrite !Rabs_mult, (Rabs_right (/ s)), (Rabs_right (/ w)) by lra. assert (P := Rabs_pos q).
  apply Rle_trans with (B * 1 * (101 / 100)); [|lra]. apply Rmult_le_compat; [apply Rmult_le_pos; lra|lra| |exact J1]. apply Rmult_le_compat; lra.
Qed.
Lemma near_to k x r s k' r' s' : near k x r s -> k * s * ww + Rabs (r - r') <= k' * s' * ww -> near k' x r' s'.
Proof.
  intros [F H] K. split; [exact F|]. change (/ 2 ^ 52) with ww in *. replace (val x - r') with ((val x - r) + (r - r')) by ring. eapply Rle_trans; [apply Rabs_triang|]. lra.
Qed.

(** the coefficient of the second radial derivative vanishes at the horizon to rounding accuracy *)
Lemma horizon_delta (m a cl : spec_float) C :
  fin m -> fin a -> fin cl -> ordinary (val m) -> ordinary (val cl) -> 5 * val m <= val cl ->
  Rabs (val a) <= val m -> spin_clear (val m) (val a) ->
  let X := val (launch_Rmin cl m a) in let x := / X - / val cl in - / 1000 <= val m * x -> Rabs (kDelta (val m) (val a) x / kSigma (val a) C x / kW (val m) (val a) C x) <= 120 * ww.
Proof.
  intros Fm Fa Fc Om Oc C5 HA HS X x X0. assert (HR := Rmin_ok m a cl Fm Fa Fc Om Oc C5 HA HS). destruct HR as [FX EX].
  assert (SZ := Rmin_size m a cl Fm Fa Fc Om Oc C5 HA HS). cbv zeta in SZ. fold X in EX, SZ. assert (PM := mg_pos 60 _ Om). assert (PX : 0 < X) by lra.
  assert (RB := rp_bounds m a Fm Fa Om HA HS). assert (HB := Rh_bounds m a cl Fm Fa Om C5 HA HS). assert (IH := iRh m a cl Fm Fa Om C5 HA HS). assert (RL := rpL m a cl Fm Fa Om C5 HA HS).
  set (rp := r_plus (val m) (val a)) in *. set (H := Rh m a cl) in *. assert (W := ww_small). assert (Pw := ww_pos). assert (PL : 0 < val cl) by lra. assert (PH : 0 < H) by lra.
  eapply Rle_trans; [apply (quot_le _ _ _ _ _ (51 * ww * (9 / 4)) X0)|lra].
  replace (kDelta (val m) (val a) x) with ((1 - rp * x) * (1 - r_minus (val m) (val a) * x)).
  2:{ unfold kDelta, rp. change (1 - 2 * val m * x + val a ^ 2 * x ^ 2) with (xDelta m a x). rewrite (xDelta_eq m a x Om HA). reflexivity. }
  rewrite Rabs_mult. apply Rmult_le_compat; [apply Rabs_pos|apply Rabs_pos| |].
  - assert (E : 1 - rp * x = rp * ((X - H) * / X * / H)).
    { unfold x. replace (/ val cl) with (/ H - / rp) by (rewrite IH; ring). field. lra. }
    rewrite E, Rabs_mult, (Rabs_right rp) by lra. rewrite !Rabs_mult, (Rabs_right (/ X)), (Rabs_right (/ H)) by (apply Rle_ge, Rlt_le, Rinv_0_lt_compat; lra).
    apply Rle_trans with (rp * (36 * ww * H * / X * / H)).
    { apply Rmult_le_compat_l; [lra|]. apply Rmult_le_compat_r; [apply Rlt_le, Rinv_0_lt_compat; lra|]. apply Rmult_le_compat_r; [apply Rlt_le, Rinv_0_lt_compat; lra|exact EX]. }
    replace (rp * (36 * ww * H * / X * / H)) with (36 * ww * rp * / X) by (field; lra).
    apply Rmult_le_reg_r with X; [exact PX|]. rewrite Rmult_assoc, Rinv_l, Rmult_1_r by lra.
    assert (rp <= 7 / 5 * H). { assert (E2 : H * (1 + rp / val cl) = rp) by (unfold H, Rh; fold rp; field; lra). rewrite <- E2 at 1. rewrite Rmult_comm. apply Rmult_le_compat_r; lra. }
    apply Rabs_le_between in EX. assert (H <= 1001 / 1000 * X). { assert (36 * ww * H <= / 10000 * H) by (apply Rmult_le_compat_r; lra). lra. }
    replace (36 * ww * rp) with (ww * (36 * rp)) by ring. replace (51 * ww * X) with (ww * (51 * X)) by ring. apply Rmult_le_compat_l; lra.
  - assert (Rm : 0 <= r_minus (val m) (val a) <= val m).
    { unfold r_minus. unfold rp, r_plus in RB. assert (Sq := sqrt_pos (val m ^ 2 - val a ^ 2)). lra. }
    assert (Ax : Rabs (r_minus (val m) (val a) * x) <= 5 / 4).
    { rewrite Rabs_mult, (Rabs_right (r_minus _ _)) by lra. assert (IX := Rinv_0_lt_compat _ PX). assert (IL := Rinv_0_lt_compat _ PL).
      assert (/ val cl <= / X) by (apply Rinv_le_contravar; lra). assert (Rabs x <= / X) by (apply Rabs_le; unfold x; lra).
      apply Rle_trans with (val m * / X); [apply Rmult_le_compat; auto using Rabs_pos; lra|]. apply Rmult_le_reg_r with X; [exact PX|]. rewrite Rmult_assoc, Rinv_l by lra. lra. }
    apply Rabs_le_between in Ax. apply Rabs_le. lra.
Qed.

(** the whole table of a launched finite-difference run *)
Definition outer_limits (M L : R) (k : coef spec_float) : Prop :=
  near 3300 (c_dr_dr_f k) 1 1 /\ near 1300 (c_p k) 0 (M / L ^ 2) /\ near 2100 (c_dr_f k) 0 (/ L) /\
  near 2100 (c_dr_p k) 0 (M / L) /\ near 900 (c_lap_f k) 0 (/ L ^ 2).

Lemma outer_ok M A C X L k : 0 < M -> 5 * M <= L -> Rabs A <= M -> Rabs C <= 1 -> Rabs (X - L) <= 4 * ww * L -> kerr_coef M A C X L k -> outer_limits M L k.
Proof.
  intros PM C5 HA HC HX K. assert (W := ww_small). assert (Pw := ww_pos). assert (PL : 0 < L) by lra. assert (IL := Rinv_0_lt_compat _ PL).
  assert (HX' := Rabs_le_between _ _ HX). assert (wL : ww * L <= / 8000000000000 * L) by (apply Rmult_le_compat_r; lra). assert (PX : 0 < X) by lra.
  assert (SL : / X <= 1001 / 1000 * / L). { replace (1001 / 1000 * / L) with (/ (1000 / 1001 * L)) by (field; lra). apply Rinv_le_contravar; lra. }
  assert (IX := Rinv_0_lt_compat _ PX).
  cbv beta delta [kerr_coef] in K. cbv zeta in K. set (x := / X - / L) in *. set (S := / X) in *.
  assert (Ax : Rabs x <= 401 / 100 * ww * / L).
  { unfold x, S. replace (/ X - / L) with ((L - X) * / X * / L) by (field; lra). rewrite !Rabs_mult, (Rabs_right (/ X)), (Rabs_right (/ L)), (Rabs_minus_sym L) by (try fold S; lra). fold S.
    apply Rmult_le_compat_r; [lra|]. apply Rle_trans with (4 * ww * L * (1001 / 1000 * / L)); [apply Rmult_le_compat; auto using Rabs_pos; lra|].
    replace (4 * ww * L * (1001 / 1000 * / L)) with (4004 / 1000 * ww) by (field; lra). lra. }
  assert (ML : M * / L <= / 5). { apply Rmult_le_reg_r with L; [exact PL|]. rewrite Rmult_assoc, Rinv_l by lra. lra. }
  assert (PML : 0 < M * / L) by (apply Rmult_lt_0_compat; assumption).
  assert (AMx : Rabs (M * x) <= 81 / 100 * ww).
  { rewrite Rabs_mult, (Rabs_right M) by lra. apply Rle_trans with (M * (401 / 100 * ww * / L)); [apply Rmult_le_compat_l; lra|]. replace (M * (401 / 100 * ww * / L)) with (401 / 100 * ww * (M * / L)) by ring.
    apply Rle_trans with (401 / 100 * ww * / 5); [apply Rmult_le_compat_l; lra|lra]. }
  assert (X0 : - / 1000 <= M * x) by (apply Rabs_le_between in AMx; lra).
  destruct K as (_ & Kp & Kdrf & Kdrp & Kdrr & _ & Klap & _).
  assert (wwL : 0 < ww * / L) by (apply Rmult_lt_0_compat; assumption).
  assert (LL : 0 < / L * / L) by (apply Rmult_lt_0_compat; assumption). assert (wLL : 0 < ww * (/ L * / L)) by (apply Rmult_lt_0_compat; assumption).
  assert (Mw : 0 < M * / L * ww) by (apply Rmult_lt_0_compat; assumption). assert (MLL : 0 < M * (/ L * / L) * ww) by (apply Rmult_lt_0_compat; [apply Rmult_lt_0_compat; assumption|assumption]).
  assert (SS : S ^ 2 <= 1003 / 1000 * (/ L * / L)) by (fold S in SL, IX; nra).
  assert (Ax2 : Rabs (x ^ 2) <= ww * (/ L * / L)).
  { rewrite <- RPow_abs. assert (P0 := Rabs_pos x). apply Rle_trans with ((401 / 100 * ww * / L) ^ 2); [apply pow_incr; split; lra|].
    replace ((401 / 100 * ww * / L) ^ 2) with ((401 / 100) ^ 2 * ww * (ww * (/ L * / L))) by ring. assert ((401 / 100) ^ 2 * ww <= 1) by nra. nra. }
  assert (IL2 : / L ^ 2 = / L * / L) by (field; lra). assert (MIL : M / L = M * / L) by reflexivity. assert (MIL2 : M / L ^ 2 = M * (/ L * / L)) by (field; lra).
  unfold outer_limits. rewrite MIL2, MIL, IL2.
  split; [|split; [|split; [|split]]].
  - eapply near_to; [exact Kdrr|]. assert (S1 := kSigma_ge A C x). assert (W1 := kW_ge M A C x X0).
    assert (Eq : kDelta M A x / kSigma A C x / kW M A C x - 1 = (kDelta M A x - kSigma A C x - 2 * M * x) / kSigma A C x / kW M A C x).
    { assert (P1 : kSigma A C x + 2 * M * x <> 0). { intros E. unfold kW in W1. replace (2 * M * x) with (- kSigma A C x) in W1 by lra. unfold Rdiv in W1. rewrite Ropp_mult_distr_l_reverse, Rinv_r in W1; lra. }
      unfold kW. field. split; lra. }
    rewrite Eq. assert (Q : Rabs (kDelta M A x - kSigma A C x - 2 * M * x) <= 4 * ww).
    { unfold kDelta, kSigma. replace (1 - 2 * M * x + A ^ 2 * x ^ 2 - (1 + A ^ 2 * x ^ 2 * C ^ 2) - 2 * M * x) with (- 4 * (M * x) + (A * x) ^ 2 * (1 - C ^ 2)) by ring.
      assert (AA : Rabs (A * x) <= 81 / 100 * ww). { rewrite Rabs_mult. rewrite Rabs_mult, (Rabs_right M) in AMx by lra. eapply Rle_trans; [|exact AMx]. apply Rmult_le_compat_r; [apply Rabs_pos|exact HA]. }
      assert (AA2 : 0 <= (A * x) ^ 2 <= / 100 * ww). { split; [apply pow2_ge_0|]. rewrite <- pow2_abs. assert (P0 := Rabs_pos (A * x)). nra. }
      assert (CC : 0 <= 1 - C ^ 2 <= 1). { rewrite <- (pow2_abs C). assert (P0 := Rabs_pos C). nra. }
      eapply Rle_trans; [apply Rabs_triang|]. rewrite Rabs_mult. replace (Rabs (- 4)) with 4 by (rewrite Rabs_left; lra). rewrite (Rabs_right ((A * x) ^ 2 * (1 - C ^ 2))) by nra. nra. }
    assert (Q2 := quot_le M A C x _ _ X0 Q). lra.
  - eapply near_to; [exact Kp|]. rewrite Rminus_0_r. assert (Q : Rabs (2 * M * x ^ 2) <= 2 * (M * (/ L * / L) * ww)).
    { rewrite !Rabs_mult, (Rabs_right 2), (Rabs_right M) by lra. nra. }
    assert (Q2 := quot_le M A C x _ _ X0 Q). assert (M * S ^ 2 <= M * (1003 / 1000 * (/ L * / L))) by (apply Rmult_le_compat_l; lra). nra.
  - eapply near_to; [exact Kdrf|]. rewrite Rminus_0_r. assert (Q : Rabs (2 * (x - M * x ^ 2)) <= 9 * (ww * / L)).
    { replace (2 * (x - M * x ^ 2)) with (2 * x * (1 - M * x)) by ring. rewrite !Rabs_mult, (Rabs_right 2) by lra. apply Rabs_le_between in AMx. assert (Rabs (1 - M * x) <= 101 / 100) by (apply Rabs_le; lra). assert (P0 := Rabs_pos x). nra. }
    assert (Q2 := quot_le M A C x _ _ X0 Q). nra.
  - eapply near_to; [exact Kdrp|]. rewrite Rminus_0_r. assert (Q : Rabs (4 * M * x) <= 17 * (M * / L * ww)).
    { rewrite !Rabs_mult, (Rabs_right 4), (Rabs_right M) by lra. nra. }
    assert (Q2 := quot_le M A C x _ _ X0 Q). assert (M * S <= M * (1001 / 1000 * / L)) by (apply Rmult_le_compat_l; lra). nra.
  - eapply near_to; [exact Klap|]. rewrite Rminus_0_r. assert (Q2 := quot_le M A C x _ _ X0 Ax2). nra.
Qed.

Theorem C85_tables b (h : sht spec_float) (m a cl : spec_float) nx nl nm nlat nphi g p e :
  use_cheb b = false -> Grid_make b h cl (launch_Rmin cl m a) cl nx nl nm nlat nphi = Ok g ->
  pr_cl p = cl -> pr_bh_mass p = m -> pr_bh_spin p = a -> Eom_make g p = Ok e ->
  fin m -> fin a -> fin cl -> / 2 ^ 50 <= val m -> 1 <= val cl <= 2 ^ 50 -> 5 * val m <= val cl ->
  Rabs (val a) <= val m -> spin_clear (val m) (val a) -> (2 <= nx <= 2 ^ 40)%nat ->
  (forall it th, sp_theta (g_sphere g) it = Ok th -> fin (lcos th) /\ Rabs (val (lcos th)) <= 1) ->
  forall ix it ip, (ix < nx)%nat -> (it < nlat)%nat -> (ip < nphi)%nat -> exists R th ph k,
    R_th_ph_at g ix it ip = Ok [R; th; ph] /\ nth_error (e_coef e) (indx_R_th_ph g ix it ip) = Some k /\
    kerr_coef (val m) (val a) (val (lcos th)) (val R) (val cl) k /\
    (ix = 0%nat -> val R = val (launch_Rmin cl m a) /\ near 3400 (c_dr_dr_f k) 0 1) /\
    (ix = (nx - 1)%nat -> near 4 R (val cl) (val cl) /\ outer_limits (val m) (val cl) k).
Proof.
  intros Ub Hg Ecl Em Ea He Fm Fa Fc M50 [C1 C50] C5 HA HS Hn Hth ix it ip Hx Ht Hp.
  assert (P50 := Rinv_0_lt_compat _ (pow2_pos 50)). assert (Q50 := pow2_pos 50). assert (PM : 0 < val m) by lra.
  assert (E60 : 2 ^ 60 = 1024 * 2 ^ 50) by (replace 60%nat with (10 + 50)%nat by reflexivity; rewrite pow_add; f_equal; ring).
  assert (I60 : / 2 ^ 60 = / 1024 * / 2 ^ 50) by (rewrite E60, Rinv_mult; reflexivity).
  assert (I1 : / 2 ^ 50 <= 1) by (rewrite <- Rinv_1; apply Rinv_le_contravar; [lra|]; apply pow_R1_Rle; lra).
  assert (Om : ordinary (val m)) by (split; lra). assert (Oc : ordinary (val cl)) by (split; lra).
  destruct (Rmin_ok m a cl Fm Fa Fc Om Oc C5 HA HS) as [FX EX]. assert (SZ := Rmin_size m a cl Fm Fa Fc Om Oc C5 HA HS). cbv zeta in SZ.
  set (lo := launch_Rmin cl m a) in *. assert (Ol : ordinary (val lo)) by (split; lra).
  assert (LU : 2 * val lo <= val cl) by lra.
  destruct (C06_tables _ _ _ _ _ _ _ _ _ _ _ Hg ix it ip Hx Ht Hp) as (R & th & ER & Eth & Erow & _). cbv zeta in *.
  assert (Hg' := Hg). apply Grid_make_tables in Hg'. destruct Hg' as (Eb & Egcl & _ & _ & Enx & _ & _ & Enl & Enp & _ & Erad & _).
  unfold rad_make in Erad. rewrite Ub in Erad. injection Erad as Erad. rewrite <- Erad in ER. cbn [rad_pt] in ER. assert (ER' : fd_pt (FD_make nx lo cl) ix = R) by congruence. clear ER. rename ER' into ER.
  destruct (Eom_make_inv g p e He) as (cs & _ & -> & Hcs). cbn [e_coef].
  destruct (Hcs ix it ip ltac:(lia) ltac:(lia) ltac:(lia)) as (row & R' & th' & Er & E0 & E1 & Ek). rewrite Erow in Er. injection Er as <-. injection E0 as <-. injection E1 as <-.
  rewrite Ecl, Em, Ea in Ek. destruct (Hth it th Eth) as [Fth HC].
  assert (K := pt_ok lexp llog lcos lsin lacos lpi lo cl nx FX Fc Ol Oc LU Hn ix Hx). assert (Z0 := pt0 lexp llog lcos lsin lacos lpi lo cl nx FX Fc Ol Oc LU Hn).
  change (D lexp llog lcos lsin lacos lpi) with D2 in K, Z0. rewrite ER in K. destruct K as (FR & _ & KR).
  assert (W := ww_small). assert (Pw := ww_pos).
  assert (NB : val lo <= node lo cl nx ix <= val cl).
  { unfold node. assert (N1 : 1 <= INR (nx - 1)) by (replace 1 with (INR 1) by reflexivity; apply le_INR; lia). assert (P2 := pos_INR ix). assert (P3 : INR ix <= INR (nx - 1)) by (apply le_INR; lia).
    assert (I := Rinv_0_lt_compat (INR (nx - 1)) ltac:(lra)). assert (F : 0 <= INR ix * / INR (nx - 1) <= 1).
    { split; [apply Rmult_le_pos; lra|]. apply Rmult_le_reg_r with (INR (nx - 1)); [lra|]. rewrite Rmult_assoc, Rinv_l by lra. lra. }
    unfold Rdiv. rewrite Rmult_assoc. nra. }
  assert (KR' := Rabs_le_between _ _ KR). set (N := node lo cl nx ix) in *. assert (wN : 4 * ww * N <= / 100000 * N) by (apply Rmult_le_compat_r; lra).
  assert (R1 : 4 * val m <= 5 * val R) by lra. assert (R2 : val R <= val cl * (1 + / 1000)) by lra.
  assert (HK := C85_coefficients lexp llog lcos lsin lacos lpi g m a R cl th Fm Fa FR Fc Om Oc C1 C5 HA HS R1 R2 Fth HC Egcl).
  change (D lexp llog lcos lsin lacos lpi) with D2 in HK.
  exists R, th, (sp_phi (g_sphere g) ip), (coef_at m a (inv_r_at g cl R) th). split; [exact Erow|]. split; [exact Ek|]. split; [exact HK|]. split.
  - intros ->. rewrite ER in Z0. destruct Z0 as [_ Z0]. split; [exact Z0|]. cbv beta delta [kerr_coef] in HK. cbv zeta in HK. destruct HK as (_ & _ & _ & _ & HD & _).
    rewrite Z0 in HD. eapply near_to; [exact HD|]. rewrite Rminus_0_r.
    assert (X0 : - / 1000 <= val m * (/ val lo - / val cl)).
    { assert (/ val cl <= / val lo) by (apply Rinv_le_contravar; lra). assert (0 <= val m * (/ val lo - / val cl)) by (apply Rmult_le_pos; lra). lra. }
    assert (Q := horizon_delta m a cl (val (lcos th)) Fm Fa Fc Om Oc C5 HA HS X0). fold lo in Q. lra.
  - intros ->. assert (EN : N = val cl). { unfold N, node. field. apply not_0_INR. lia. } rewrite EN in KR. split; [split; [exact FR|exact KR]|].
    apply (outer_ok (val m) (val a) (val (lcos th)) (val R) (val cl)); auto.
Qed.
End S.
