(** * The coefficient tables in IEEE double precision (C85). *)
From Coq Require Import ZArith Reals SpecFloat Bool List Lra Lia.
From Verif Require Import Base Arith MFd MCheb MSphere MGrid MParams MEom MSim BaseLemmas PMake PTables PEom PropTables EomSpec FpSpec Fp FpErr FpRed PropFpFd FpKerr.
Import ListNotations.
Local Open Scope R_scope.

(** ** Specification *)
(** [x] is a finite double within [k] units 2^-52 of [r], on the scale [s] *)
Definition near (k : R) (x : spec_float) (r s : R) : Prop := fin x /\ Rabs (val x - r) <= k * / 2 ^ 52 * s.
(** ordinary size: 2^-60 <= A <= 2^60 *)
Definition ordinary (A : R) : Prop := / 2 ^ 60 <= A <= 2 ^ 60.
(** Kerr in the variable x = 1/r; C is the cosine of the polar angle: Sigma/r^2, Delta/r^2 and -g^vv *)
Definition kSigma (a C x : R) : R := 1 + a ^ 2 * x ^ 2 * C ^ 2.
Definition kDelta (M a x : R) : R := 1 - 2 * M * x + a ^ 2 * x ^ 2.
Definition kW (M a C x : R) : R := 1 + 2 * M * x / kSigma a C x.

(** the seventeen entries [k] of the table at the stored coordinate R, for mass M, spin A and cosine C *)
Definition kerr_coef (M A C R cl : R) (k : coef spec_float) : Prop :=
  let S := / R in let x := / R - / cl in let Si := kSigma A C x in let w := kW M A C x in
  near 410 (c_pre k) (1 / w) 2 /\
  near 410 (c_p k) (2 * M * x ^ 2 / Si / w) (3 * M * S ^ 2) /\
  near 410 (c_dr_f k) (2 * (x - M * x ^ 2) / Si / w) (5 * S) /\
  near 410 (c_dr_p k) (4 * M * x / Si / w) (5 * M * S) /\
  near 410 (c_dr_dr_f k) (kDelta M A x / Si / w) 8 /\
  near 410 (c_dphi_dr_f k) (2 * A * x ^ 2 / Si / w) (3 * M * S ^ 2) /\
  near 410 (c_lap_f k) (x ^ 2 / Si / w) (2 * S ^ 2) /\
  near 410 (c_p_p k) (- 1) 4 /\
  near 410 (c_p_dr_f k) (4 * M * x / Si / w) (5 * M * S) /\
  near 410 (c_dr_f_dr_f k) (kDelta M A x / Si / w) 8 /\
  near 410 (c_dr_f_dphi_f k) (2 * A * x ^ 2 / Si / w) (3 * M * S ^ 2) /\
  near 410 (c_sphereX_f k) (x ^ 2 / Si / w) (2 * S ^ 2) /\
  near 410 (c_rho_vv k) (1 / 2 * w) 2 /\
  near 410 (c_rho_vr k) (2 * M * x / Si) 3 /\
  near 410 (c_rho_rr k) (1 / 2 * ((1 + 2 * M * x + A ^ 2 * x ^ 2) / Si - 4 * M * x / (2 * M * x + Si))) 6 /\
  near 410 (c_rho_rphi k) (A * x ^ 2 / Si) (M * S ^ 2) /\
  near 410 (c_rho_sphereX k) (1 / 2 * x ^ 2 / Si) (S ^ 2).

Lemma near_ap x r r' A s k k' : ap x r A k -> r = r' -> 0 <= k <= k' -> A <= s -> near k' x r' s.
Proof.
  intros H <- K AS. assert (PA := ap_A _ _ _ _ H). destruct H as (F & _ & H). split; [exact F|]. eapply Rle_trans; [exact H|]. assert (P := ww_pos). change (/ 2 ^ 52) with ww.
  apply Rmult_le_compat; [apply Rmult_le_pos; lra|exact PA|apply Rmult_le_compat_r; lra|exact AS].
Qed.

Section S.
Variables (lexp llog lcos lsin lacos : spec_float -> spec_float) (lpi : spec_float).
Local Instance D : Arith spec_float := b64 lexp llog lcos lsin lacos lpi.

(** the formulas below are the documented ones, written in x = 1/r *)
Theorem C85_formulas M a r th : 0 < r ->
  let x := / r in let C := cos th in
  kSigma a C x = Sigma a r th / r ^ 2 /\ kDelta M a x = Delta M a r / r ^ 2 /\
  (0 < Sigma a r th -> kW M a C x = 1 + 2 * M * r / Sigma a r th).
Proof.
  intros Pr x C. unfold x, C, kSigma, kDelta, kW, Sigma, Delta. split; [field; lra|split; [field; lra|]].
  intros PS. unfold kSigma. assert (Sg : 0 < r ^ 2 + a ^ 2 * cos th ^ 2) by exact PS. field. repeat split; try lra; nra.
Qed.

Theorem C85_coefficients (g : grid spec_float) (m a R cl th : spec_float) :
  fin m -> fin a -> fin R -> fin cl -> ordinary (val m) -> ordinary (val cl) -> 1 <= val cl -> 5 * val m <= val cl ->
  Rabs (val a) <= val m -> spin_clear (val m) (val a) ->
  4 * val m <= 5 * val R -> val R <= val cl * (1 + / 1000) ->
  fin (lcos th) -> Rabs (val (lcos th)) <= 1 -> g_cl g = cl ->
  kerr_coef (val m) (val a) (val (lcos th)) (val R) (val cl) (coef_at m a (inv_r_at g cl R) th).
Proof.
  intros Fm Fa FR FC Om Oc C1 C5 HA HS R1 R2 Fc HC Eg. set (k := coef_at m a (inv_r_at g cl R) th). cbv beta delta [kerr_coef]. intros S x Si w. set (M := val m). set (A := val a). set (C := val (lcos th)).
  assert (Mm : mg 60 (val m)) by exact Om. assert (Pm := mg_pos _ _ Mm).
  assert (MR : mg 61 (val R)).
  { destruct Om as [O1 O2], Oc as [O3 O4]. assert (P := Rinv_0_lt_compat _ (pow2_pos 60)). split.
    - replace (/ 2 ^ 61) with (/ 2 ^ 60 * / 2) by (rewrite <- Rinv_mult; f_equal; ring). lra.
    - replace (2 ^ 61) with (2 * 2 ^ 60) by ring. lra. }
  assert (PR := mg_pos _ _ MR). assert (MS : mg 65 S) by (apply mg_inv, (mg_le 61); [lia|exact MR]). assert (PS := mg_pos _ _ MS).
  assert (ESi : xSigma a (lcos th) x = Si) by (unfold xSigma, Si, kSigma, A, C; ring).
  assert (Ew : xw m a (lcos th) x = w) by (unfold xw; rewrite ESi; reflexivity).
  assert (ED : xDelta m a x = kDelta M A x) by reflexivity.
  assert (HX : ap (inv_r_at g cl R) x S 10).
  { unfold inv_r_at, R_to_r. rewrite Eg. apply (inv_radius_ok R cl FR FC C1); [apply (mg_le 60); [lia|exact Oc]|apply (mg_le 61); [lia|exact MR]|exact R2]. }
  assert (U : M * S <= 5 / 4). { apply Rmult_le_reg_r with (val R); [exact PR|]. unfold S. rewrite Rmult_assoc, Rinv_l by lra. unfold M. lra. }
  assert (PC : 0 < val cl) by lra.
  assert (X0 : - / 1000 <= M * x).
  { assert (I : / val cl * / (1 + / 1000) <= / val R). { rewrite <- Rinv_mult. apply Rinv_le_contravar; assumption. }
    assert (J : M * / val cl <= / 5). { apply Rmult_le_reg_r with (val cl); [exact PC|]. rewrite Rmult_assoc, Rinv_l by lra. unfold M. lra. }
    assert (PI := Rinv_0_lt_compat _ PC). unfold x. assert (/ (1 + / 1000) = 1000 / 1001) by field. rewrite H in I.
    assert (M * (/ val R - / val cl) >= M * (- / 1001 * / val cl)). { apply Rle_ge, Rmult_le_compat_l; [unfold M; lra|]. lra. } nra. }
  set (ix := inv_r_at g cl R) in *. assert (PM : 0 < M) by exact Pm. assert (PMS : 0 < M * S) by (apply Rmult_lt_0_compat; assumption). assert (PSS : 0 < S * S) by (apply Rmult_lt_0_compat; assumption).
  assert (PMSS : 0 < M * (S * S)) by (apply Rmult_lt_0_compat; assumption).
  assert (H_p := co_p m a ix (lcos th) x S Fm Fa Fc Mm HA HC MS HX U X0). rewrite ESi, Ew in H_p.
  assert (H_pre := fpre_ok m a ix (lcos th) x S Fm Fa Fc Mm HA HC MS HX U X0). rewrite Ew in H_pre.
  assert (H_drf := co_dr_f m a ix (lcos th) x S Fm Fa Fc Mm HA HC MS HX U X0). rewrite ESi, Ew in H_drf.
  assert (H_drp := co_dr_p m a ix (lcos th) x S Fm Fa Fc Mm HA HC MS HX U X0). rewrite ESi, Ew in H_drp.
  assert (H_drr := co_dr_dr_f m a ix (lcos th) x S Fm Fa Fc Mm HA HS HC MS HX U X0). rewrite ESi, Ew, ED in H_drr.
  assert (H_dph := co_dphi_dr_f m a ix (lcos th) x S Fm Fa Fc Mm HA HC MS HX U X0). rewrite ESi, Ew in H_dph.
  assert (H_lap := co_lap_f m a ix (lcos th) x S Fm Fa Fc Mm HA HC MS HX U X0). rewrite ESi, Ew in H_lap.
  assert (H_pp := co_p_p m a ix (lcos th) x S Fm Fa Fc Mm HA HC MS HX U X0).
  assert (H_vv := co_rho_vv m a ix (lcos th) x S Fm Fa Fc Mm HA HC MS HX U). rewrite Ew in H_vv.
  assert (H_vr := fq_ok m a ix (lcos th) x S Fm Fa Fc Mm HA HC MS HX U). rewrite ESi in H_vr.
  assert (H_rr := co_rho_rr m a ix (lcos th) x S Fm Fa Fc Mm HA HC MS HX U X0). rewrite ESi in H_rr.
  assert (H_rp := co_rho_rphi m a ix (lcos th) x S Fa Fc Mm HA HC MS HX U). rewrite ESi in H_rp.
  assert (H_sx := co_rho_sX m a ix (lcos th) x S Fa Fc Mm HA HC MS HX U). rewrite ESi in H_sx.
  split; [apply (near_ap _ _ _ _ _ _ _ H_pre); [reflexivity|lra|lra]|].
  split; [apply (near_ap _ _ _ _ _ _ _ H_p); [reflexivity|lra|change (val m) with M; replace (S ^ 2) with (S * S) by ring; lra]|].
  split; [apply (near_ap _ _ _ _ _ _ _ H_drf); [reflexivity|lra|change (val m) with M; replace (S ^ 2) with (S * S) by ring; lra]|].
  split; [apply (near_ap _ _ _ _ _ _ _ H_drp); [reflexivity|lra|change (val m) with M; replace (S ^ 2) with (S * S) by ring; lra]|].
  split; [apply (near_ap _ _ _ _ _ _ _ H_drr); [reflexivity|lra|lra]|].
  split; [apply (near_ap _ _ _ _ _ _ _ H_dph); [reflexivity|lra|change (val m) with M; replace (S ^ 2) with (S * S) by ring; lra]|].
  split; [apply (near_ap _ _ _ _ _ _ _ H_lap); [reflexivity|lra|change (val m) with M; replace (S ^ 2) with (S * S) by ring; lra]|].
  split; [apply (near_ap _ _ _ _ _ _ _ H_pp); [reflexivity|lra|lra]|].
  split; [apply (near_ap _ _ _ _ _ _ _ H_drp); [reflexivity|lra|change (val m) with M; replace (S ^ 2) with (S * S) by ring; lra]|].
  split; [apply (near_ap _ _ _ _ _ _ _ H_drr); [reflexivity|lra|lra]|].
  split; [apply (near_ap _ _ _ _ _ _ _ H_dph); [reflexivity|lra|change (val m) with M; replace (S ^ 2) with (S * S) by ring; lra]|].
  split; [apply (near_ap _ _ _ _ _ _ _ H_lap); [reflexivity|lra|change (val m) with M; replace (S ^ 2) with (S * S) by ring; lra]|].
  split; [apply (near_ap _ _ _ _ _ _ _ H_vv); [reflexivity|lra|lra]|].
  split; [apply (near_ap _ _ _ _ _ _ _ H_vr); [reflexivity|lra|lra]|].
  split; [apply (near_ap _ _ _ _ _ _ _ H_rr); [rewrite Rpow_mult_distr; reflexivity|lra|lra]|].
  split; [apply (near_ap _ _ _ _ _ _ _ H_rp); [reflexivity|lra|change (val m) with M; replace (S ^ 2) with (S * S) by ring; lra]|].
  apply (near_ap _ _ _ _ _ _ _ H_sx); [reflexivity|lra|change (val m) with M; replace (S ^ 2) with (S * S) by ring; lra].
Qed.

(** ** The radial nodes in doubles *)
Lemma fnat_fin n : (n < 2 ^ 53)%nat -> fin (fnat n) /\ val (fnat n) = INR n.
Proof.
  intros H. unfold fnat. cbn [fofZ D b64]. unfold sf_ofZ. rewrite INR_IZR_INZ. apply ofZ_ok. rewrite Z.abs_eq by lia.
  replace (2 ^ 53)%Z with (Z.of_nat (2 ^ 53)) by (rewrite Nat2Z.inj_pow; reflexivity). lia.
Qed.
Lemma n40 n : (n <= 2 ^ 40)%nat -> INR n <= 2 ^ 40.
Proof. intros H. replace (2 ^ 40) with (INR (2 ^ 40)) by (rewrite pow_INR; reflexivity). now apply le_INR. Qed.
Lemma p40_53 n : (n <= 2 ^ 40)%nat -> (n < 2 ^ 53)%nat.
Proof. intros H. eapply Nat.le_lt_trans; [exact H|]. apply Nat.pow_lt_mono_r; lia. Qed.

Section Nodes.
Variables (lo up : spec_float) (n : nat).
Hypotheses (Flo : fin lo) (Fup : fin up) (Ol : ordinary (val lo)) (Ou : ordinary (val up)) (LU : 2 * val lo <= val up) (Hn : (2 <= n <= 2 ^ 40)%nat).
Let g := FD_make n lo up.
Let Pl : 0 < val lo. Proof. exact (mg_pos 60 _ Ol). Qed.

Lemma dx_ok : ap (fd_dx g) ((val up - val lo) / INR (n - 1)) ((val up - val lo) / INR (n - 1)) 2.
Proof.
  assert (P := Pl). assert (M1 : mg 61 (val up - val lo)).
  { destruct Ol as [L1 L2], Ou as [U1 U2]. split; [|replace (2 ^ 61) with (2 * 2 ^ 60) by ring; lra]. replace (/ 2 ^ 61) with (/ 2 ^ 60 * / 2) by (rewrite <- Rinv_mult; f_equal; ring). lra. }
  unfold g, FD_make. cbn [fd_dx]. rewrite wsub_le by lia. destruct (fnat_fin (n - 1)) as [F1 E1]; [apply p40_53; lia|].
  assert (N1 : 1 <= INR (n - 1)) by (replace 1 with (INR 1) by reflexivity; apply le_INR; lia).
  assert (MN : mg 40 (INR (n - 1))). { split; [|apply n40; lia]. apply Rle_trans with 1; [|exact N1]. rewrite <- Rinv_1. apply Rinv_le_contravar; [lra|]. apply pow_R1_Rle. lra. }
  rewrite <- E1. apply (ap_le _ _ _ (1 + 1)); [lra|]. apply (ap_div _ (fnat (n - 1))); [lra|exact F1|lra| |].
  - rewrite E1. apply (mg_mid (61 + 40)); [apply mg_mul; [exact M1|apply mg_inv, MN]|cbn; lia].
  - destruct (sub_ok up lo Fup Flo) as [FS (d & Hd & ES)].
    { eapply Rle_trans; [|apply mid_big; apply (mg_top 61); [exact M1|lia]]. rewrite Rabs_right by lra. lra. }
    split; [exact FS|]. rewrite Rabs_right by lra. split; [lra|]. cbn [fsub D b64]. rewrite ES. replace ((val up - val lo) * (1 + d) - (val up - val lo)) with (d * (val up - val lo)) by ring.
    rewrite Rabs_mult, (Rabs_right (val up - val lo)) by lra. apply Rmult_le_compat_r; [lra|]. rewrite ww_uu in Hd. assert (W := ww_pos). lra.
Qed.

Lemma pt0 : fin (fd_pt g 0) /\ val (fd_pt g 0) = val lo.
Proof.
  destruct dx_ok as (Fd & _ & _). unfold fd_pt. change (fnat 0) with (S754_zero false). cbn [fadd fmul D b64 fd_lower g FD_make].
  set (dx := fd_dx g) in *. destruct Fd as [Dd Id].
  assert (Ez : exists s, SFmul 53 1024 dx (S754_zero false) = S754_zero s) by (destruct dx as [s|s| |s m' e]; try tauto; eexists; reflexivity).
  destruct Ez as (s & ->). assert (F0 : fin (S754_zero s)) by (split; [reflexivity|exact I]).
  assert (FA : fin (SFadd 53 1024 (S754_zero s) lo)).
  { destruct (add_ok (S754_zero s) lo F0 Flo) as [FS _]; [|exact FS]. cbn [val]. rewrite Rplus_0_l. assert (P := Pl). rewrite Rabs_right by lra.
    eapply Rle_trans; [|apply mid_big; apply (mg_top 60); [exact Ol|lia]]. lra. }
  split; [exact FA|]. now apply add_zero_val_l.
Qed.

Definition node (i : nat) : R := val lo + (val up - val lo) * INR i / INR (n - 1).
Lemma node_pos i : 0 < node i.
Proof.
  assert (P := Pl). unfold node. assert (N1 : 1 <= INR (n - 1)) by (replace 1 with (INR 1) by reflexivity; apply le_INR; lia). assert (P2 := pos_INR i).
  assert (0 <= (val up - val lo) * INR i / INR (n - 1)). { unfold Rdiv. repeat apply Rmult_le_pos; try lra. apply Rlt_le, Rinv_0_lt_compat. lra. } lra.
Qed.
Lemma pt_ok i : (i < n)%nat -> ap (fd_pt g i) (node i) (node i) 4.
Proof.
  intros Hi. assert (P := Pl). destruct i as [|i].
  - destruct pt0 as [F0 E0]. replace (node 0) with (val (fd_pt g 0)).
    + apply (ap_le _ _ _ 0); [lra|]. apply ap_exact; [exact F0|]. rewrite E0, Rabs_right; lra.
    + rewrite E0. unfold node. cbn [INR]. field. apply not_0_INR. lia.
  - set (j := S i) in *. assert (N1 : 1 <= INR (n - 1)) by (replace 1 with (INR 1) by reflexivity; apply le_INR; lia).
    assert (J1 : 1 <= INR j) by (replace 1 with (INR 1) by reflexivity; apply le_INR; unfold j; lia). destruct (fnat_fin j) as [Fj Ej]; [apply p40_53; lia|].
    assert (MJ : mg 40 (INR j)). { split; [|apply n40; lia]. apply Rle_trans with 1; [|exact J1]. rewrite <- Rinv_1. apply Rinv_le_contravar; [lra|]. apply pow_R1_Rle. lra. }
    assert (MN : mg 40 (INR (n - 1))). { split; [|apply n40; lia]. apply Rle_trans with 1; [|exact N1]. rewrite <- Rinv_1. apply Rinv_le_contravar; [lra|]. apply pow_R1_Rle. lra. }
    assert (M1 : mg 61 (val up - val lo)).
    { destruct Ol as [L1 L2], Ou as [U1 U2]. split; [|replace (2 ^ 61) with (2 * 2 ^ 60) by ring; lra]. replace (/ 2 ^ 61) with (/ 2 ^ 60 * / 2) by (rewrite <- Rinv_mult; f_equal; ring). lra. }
    assert (MX : mg 161 ((val up - val lo) / INR (n - 1) * INR j)). { apply (mg_le (61 + 40 + 40)); [lia|]. unfold Rdiv. apply mg_mul; [apply mg_mul; [exact M1|apply mg_inv, MN]|exact MJ]. }
    assert (HJ : ap (fnat j) (INR j) (INR j) 0). { rewrite <- Ej. apply ap_exact; [exact Fj|]. rewrite Rabs_right; lra. }
    assert (H1 := ap_mull _ _ _ _ _ _ _ _ dx_ok HJ ltac:(lra) ltac:(lra) (mg_mid 161 _ MX ltac:(lia))).
    assert (HL : ap lo (val lo) (val lo) 0). { apply ap_exact; [exact Flo|]. rewrite Rabs_right; lra. }
    assert (AB : (val up - val lo) / INR (n - 1) * INR j + val lo <= 2 ^ 1000).
    { apply Rle_trans with (2 ^ 161 + 2 ^ 60); [apply Rplus_le_compat; [apply MX|apply Ol]|]. apply Rle_trans with (2 ^ 161 + 2 ^ 161); [apply Rplus_le_compat_l, Rle_pow; [lra|lia]|].
      replace (2 ^ 161 + 2 ^ 161) with (2 ^ 162) by (replace (2 ^ 162) with (2 * 2 ^ 161) by (rewrite <- tech_pow_Rmult; reflexivity); ring). apply Rle_pow; [lra|lia]. }
    assert (H2 := ap_addl _ _ _ _ _ _ _ _ H1 HL ltac:(lra) ltac:(lra) AB).
    eapply ap_weak; [exact H2| | |]; unfold node; [field; lra|apply Req_le; field; lra|apply Req_le; field; lra].
Qed.
End Nodes.

(** Property (finite differences, launched end points): the stored radial coordinates are the equally spaced
    ones to a relative 4 * 2^-52, the first one is exactly the lower end, and they increase strictly. *)
Theorem C85_nodes (lo up : spec_float) (n : nat) :
  fin lo -> fin up -> ordinary (val lo) -> ordinary (val up) -> 2 * val lo <= val up -> (2 <= n <= 2 ^ 40)%nat ->
  let g := FD_make n lo up in let X i := val lo + (val up - val lo) * INR i / INR (n - 1) in
  val (fd_pt g 0) = val lo /\
  (forall i, (i < n)%nat -> near 4 (fd_pt g i) (X i) (X i)) /\
  (forall i j, (i < j < n)%nat -> val (fd_pt g i) < val (fd_pt g j)).
Proof.
  intros Flo Fup Ol Ou LU Hn g X. assert (K := pt_ok lo up n Flo Fup Ol Ou LU Hn). split; [apply (pt0 lo up n); auto|]. split.
  - intros i Hi. apply (near_ap _ _ _ _ _ _ _ (K i Hi)); [reflexivity|lra|apply Rle_refl].
  - intros i j [Hi Hj]. destruct (K i ltac:(lia)) as (_ & _ & Ei). destruct (K j ltac:(lia)) as (_ & _ & Ej). assert (W := ww_small). assert (Pw := ww_pos).
    assert (P := mg_pos 60 _ Ol). fold g in Ei, Ej. assert (N1 : 1 <= INR (n - 1)) by (replace 1 with (INR 1) by reflexivity; apply le_INR; lia).
    assert (N2 : INR (n - 1) <= 2 ^ 40) by (apply n40; lia).
    assert (Up : forall k, (k < n)%nat -> node lo up n k <= val up).
    { intros k Hk. unfold node. assert (INR k <= INR (n - 1)) by (apply le_INR; lia). assert ((val up - val lo) * INR k / INR (n - 1) <= val up - val lo).
      { apply Rmult_le_reg_r with (INR (n - 1)); [lra|]. unfold Rdiv. rewrite Rmult_assoc, Rinv_l, Rmult_1_r by lra. apply Rmult_le_compat_l; lra. } lra. }
    assert (Ui := Up i ltac:(lia)). assert (Uj := Up j ltac:(lia)).
    assert (Sp : (val up - val lo) * / 2 ^ 40 <= node lo up n j - node lo up n i).
    { unfold node. replace (val lo + (val up - val lo) * INR j / INR (n - 1) - (val lo + (val up - val lo) * INR i / INR (n - 1))) with ((val up - val lo) * ((INR j - INR i) * / INR (n - 1))) by (field; lra).
      apply Rmult_le_compat_l; [lra|]. assert (1 <= INR j - INR i). { rewrite <- minus_INR by lia. replace 1 with (INR 1) by reflexivity. apply le_INR. lia. }
      assert (/ 2 ^ 40 <= / INR (n - 1)) by (apply Rinv_le_contravar; lra). assert (0 < / INR (n - 1)) by (apply Rinv_0_lt_compat; lra). nra. }
    assert (W40 : 16 * ww < / 2 ^ 40 * / 2). { unfold ww. rewrite (pow_IZR 2 52), (pow_IZR 2 40). change (2 ^ Z.of_nat 52)%Z with 4503599627370496%Z. change (2 ^ Z.of_nat 40)%Z with 1099511627776%Z. lra. }
    assert (Q1 : 4 * ww * node lo up n i <= 4 * ww * val up) by (apply Rmult_le_compat_l; lra). assert (Q2 : 4 * ww * node lo up n j <= 4 * ww * val up) by (apply Rmult_le_compat_l; lra).
    apply Rabs_le_between in Ei. apply Rabs_le_between in Ej. assert (P40 := Rinv_0_lt_compat _ (pow2_pos 40)).
    assert (16 * ww * val up < / 2 ^ 40 * / 2 * val up) by (apply Rmult_lt_compat_r; lra). assert ((val up / 2) * / 2 ^ 40 <= (val up - val lo) * / 2 ^ 40) by (apply Rmult_le_compat_r; lra). lra.
Qed.
End S.
