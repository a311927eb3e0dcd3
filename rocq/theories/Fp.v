(** * The standard library's executable IEEE operations are correctly rounded (from Flocq), and the
    resulting error bounds. *)
From Coq Require Import ZArith Reals SpecFloat Bool Lra Lia.
From Flocq Require Import Core BinarySingleNaN Relative Plus_error.
From Verif Require Import FpSpec.
Local Open Scope R_scope.

Definition Hp : Prec_gt_0 53 := eq_refl.
Definition Hm : Prec_lt_emax 53 1024 := eq_refl.
#[local] Existing Instance Hp.
#[local] Existing Instance Hm.
Notation bf := (binary_float 53 1024).
Notation rnd := (round radix2 (SpecFloat.fexp 53 1024) ZnearestE).

Lemma rne_eq s m l : round_nearest_even m l = choice_mode mode_NE s m l.
Proof. destruct l as [|c]; [reflexivity|]. destruct c; [|reflexivity..]. cbn. unfold Round.cond_incr. now destruct (Z.even m). Qed.
Lemma bra_eq sx mx ex lx : SpecFloat.binary_round_aux 53 1024 sx mx ex lx = BinarySingleNaN.binary_round_aux 53 1024 mode_NE sx mx ex lx.
Proof.
  unfold SpecFloat.binary_round_aux, BinarySingleNaN.binary_round_aux. set (z := shr_fexp _ _ _ _ _). destruct z as [mrs e']. cbn [fst snd].
  now rewrite (rne_eq sx).
Qed.
Lemma br_eq s m e : SpecFloat.binary_round 53 1024 s m e = BinarySingleNaN.binary_round 53 1024 mode_NE s m e.
Proof. unfold SpecFloat.binary_round, BinarySingleNaN.binary_round, shl_align_fexp. set (z := shl_align _ _ _). destruct z. apply bra_eq. Qed.
Lemma bn_eq m e z : SpecFloat.binary_normalize 53 1024 m e z = B2SF (BinarySingleNaN.binary_normalize 53 1024 Hp Hm mode_NE m e z).
Proof. destruct m; cbn; [reflexivity| |]; rewrite B2SF_SF2B; apply br_eq. Qed.

Lemma SFmul_B (x y : bf) : SFmul 53 1024 (B2SF x) (B2SF y) = B2SF (Bmult mode_NE x y).
Proof. destruct x as [sx|sx| |sx mx ex Bx], y as [sy|sy| |sy my ey By]; try reflexivity. cbn. rewrite B2SF_SF2B. apply bra_eq. Qed.
Lemma SFadd_B (x y : bf) : SFadd 53 1024 (B2SF x) (B2SF y) = B2SF (Bplus mode_NE x y).
Proof.
  destruct x as [sx|sx| |sx mx ex Bx], y as [sy|sy| |sy my ey By];
  [now (trivial || cbn; case Bool.eqb).. | ]. apply bn_eq.
Qed.
Lemma SFsub_B (x y : bf) : SFsub 53 1024 (B2SF x) (B2SF y) = B2SF (Bminus mode_NE x y).
Proof.
  destruct x as [sx|sx| |sx mx ex Bx], y as [sy|sy| |sy my ey By];
  [now (trivial || cbn; case Bool.eqb).. | ]. cbn. unfold Zminus. rewrite <- cond_Zopp_negb. apply bn_eq.
Qed.
Lemma SFdiv_B (x y : bf) : SFdiv 53 1024 (B2SF x) (B2SF y) = B2SF (Bdiv mode_NE x y).
Proof.
  destruct x as [sx|sx| |sx mx ex Bx], y as [sy|sy| |sy my ey By];
  [now (trivial || cbn; case Bool.eqb).. | ]. cbn. rewrite B2SF_SF2B. set (z := SFdiv_core_binary _ _ _ _ _ _). destruct z as [[mz ez] lz].
  apply bra_eq.
Qed.
Lemma SFsqrt_B (x : bf) : SFsqrt 53 1024 (B2SF x) = B2SF (Bsqrt mode_NE x).
Proof.
  destruct x as [sx|sx| |sx mx ex Bx]; [now (trivial || case sx).. | ]. destruct sx; [reflexivity|]. cbn. rewrite B2SF_SF2B.
  set (z := SFsqrt_core_binary _ _ _ _). destruct z as [[mz ez] lz]. apply bra_eq.
Qed.
Lemma SFopp_B (x : bf) : SFopp (B2SF x) = B2SF (Bopp x).
Proof. now destruct x. Qed.

Lemma double_B x : is_double x -> exists b : bf, x = B2SF b.
Proof. intro H. exists (SF2B x H). symmetry. apply B2SF_SF2B. Qed.
Lemma B_double (b : bf) : is_double (B2SF b).
Proof. apply valid_binary_B2SF. Qed.

Lemma val_SF2R x : val x = SF2R radix2 x.
Proof.
  destruct x as [s|s| |s m e]; try reflexivity. unfold val, SF2R, F2R. cbn [Fnum Fexp].
  rewrite bpow_powerRZ. change (IZR radix2) with 2. destruct s; cbn [cond_Zopp].
  - rewrite opp_IZR. ring.
  - ring.
Qed.
Lemma val_B (b : bf) : val (B2SF b) = B2R b.
Proof. rewrite val_SF2R. apply SF2R_B2SF. Qed.
Lemma fin_B (b : bf) : is_fin (B2SF b) <-> is_finite b = true.
Proof. destruct b; cbn; split; try tauto; try discriminate; auto. Qed.
Lemma fin_format x : fin x -> generic_format radix2 (SpecFloat.fexp 53 1024) (val x).
Proof. intros [D _]. destruct (double_B x D) as [b ->]. rewrite val_B. apply generic_format_B2R. Qed.

(** ** all operations return doubles *)
Lemma add_double x y : is_double x -> is_double y -> is_double (SFadd 53 1024 x y).
Proof. intros A B. destruct (double_B x A) as [a ->], (double_B y B) as [b ->]. rewrite SFadd_B. apply B_double. Qed.
Lemma sub_double x y : is_double x -> is_double y -> is_double (SFsub 53 1024 x y).
Proof. intros A B. destruct (double_B x A) as [a ->], (double_B y B) as [b ->]. rewrite SFsub_B. apply B_double. Qed.
Lemma mul_double x y : is_double x -> is_double y -> is_double (SFmul 53 1024 x y).
Proof. intros A B. destruct (double_B x A) as [a ->], (double_B y B) as [b ->]. rewrite SFmul_B. apply B_double. Qed.
Lemma div_double x y : is_double x -> is_double y -> is_double (SFdiv 53 1024 x y).
Proof. intros A B. destruct (double_B x A) as [a ->], (double_B y B) as [b ->]. rewrite SFdiv_B. apply B_double. Qed.
Lemma sqrt_double x : is_double x -> is_double (SFsqrt 53 1024 x).
Proof. intros A. destruct (double_B x A) as [a ->]. rewrite SFsqrt_B. apply B_double. Qed.
Lemma opp_double x : is_double x -> is_double (SFopp x).
Proof. intros A. destruct (double_B x A) as [a ->]. rewrite SFopp_B. apply B_double. Qed.
Lemma norm_double m e z : is_double (SpecFloat.binary_normalize 53 1024 m e z).
Proof. rewrite bn_eq. apply B_double. Qed.

(** ** size of a rounded number *)
Definition big : R := 2 ^ 1023.
Lemma big_pos : 0 < big. Proof. unfold big. apply pow_lt. lra. Qed.
Lemma big_bpow : bpow radix2 1023 = big.
Proof. rewrite bpow_powerRZ. unfold big. change (IZR radix2) with 2. exact (eq_sym (pow_powerRZ 2 1023)). Qed.
Lemma fexp_FLT e : SpecFloat.fexp 53 1024 e = FLT_exp (SpecFloat.emin 53 1024) 53 e.
Proof. reflexivity. Qed.
Lemma rnd_le x : Rabs x <= big -> Rabs (rnd x) <= big.
Proof.
  intro H. rewrite <- big_bpow in *. apply abs_round_le_generic; [apply (fexp_correct 53 1024 Hp)|apply valid_rnd_N|apply generic_format_bpow; cbn; lia|exact H].
Qed.
Lemma rnd_lt x : Rabs x <= big -> Rlt_bool (Rabs (rnd x)) (bpow radix2 1024) = true.
Proof.
  intro H. apply Rlt_bool_true. eapply Rle_lt_trans; [apply rnd_le, H|]. rewrite <- big_bpow. apply bpow_lt. lia.
Qed.
Lemma uu_eq : / 2 * bpow radix2 (-53 + 1) = uu.
Proof. rewrite bpow_powerRZ. unfold uu. change (IZR radix2) with 2. change (-53 + 1)%Z with (- Z.of_nat 52)%Z. rewrite powerRZ_neg' by lra.
  rewrite <- pow_powerRZ. change (2 ^ 53) with (2 * 2 ^ 52). rewrite Rinv_mult; reflexivity. Qed.
Lemma eta_eq : / 2 * bpow radix2 (SpecFloat.emin 53 1024) = eta.
Proof. rewrite bpow_powerRZ. unfold eta. change (IZR radix2) with 2. change (SpecFloat.emin 53 1024) with (- Z.of_nat 1074)%Z. rewrite powerRZ_neg' by lra.
  rewrite <- pow_powerRZ. replace 1075%nat with (S 1074) by reflexivity. change (2 ^ S 1074) with (2 * 2 ^ 1074).
  rewrite Rinv_mult; reflexivity. Qed.
Lemma rnd_err x : exists d e, Rabs d <= uu /\ Rabs e <= eta /\ rnd x = x * (1 + d) + e.
Proof.
  destruct (error_N_FLT radix2 (SpecFloat.emin 53 1024) 53 eq_refl (fun x => negb (Z.even x)) x) as (d & e & H1 & H2 & _ & H3).
  exists d, e. split; [|split].
  - rewrite <- uu_eq. exact H1.
  - rewrite <- eta_eq. exact H2.
  - exact H3.
Qed.

(** ** one operation *)
Lemma add_ok x y : fin x -> fin y -> Rabs (val x + val y) <= big ->
  fin (SFadd 53 1024 x y) /\ exists d, Rabs d <= uu /\ val (SFadd 53 1024 x y) = (val x + val y) * (1 + d).
Proof.
  intros [Dx Fx] [Dy Fy] H. assert (Gx := fin_format x (conj Dx Fx)). assert (Gy := fin_format y (conj Dy Fy)).
  destruct (FLT_plus_error_N_ex radix2 (SpecFloat.emin 53 1024) 53 (fun x => negb (Z.even x)) (val x) (val y) Gx Gy) as (d & Hd & E).
  destruct (double_B x Dx) as [a ->], (double_B y Dy) as [b ->]. rewrite !val_B in *. rewrite fin_B in *.
  rewrite SFadd_B. assert (Q := Bplus_correct 53 1024 Hp Hm mode_NE a b Fx Fy). rewrite rnd_lt in Q by exact H.
  destruct Q as (Q1 & Q2 & _). split; [split; [apply B_double|apply fin_B, Q2]|].
  exists d. split; [|rewrite val_B, Q1; exact E].
  eapply Rle_trans; [exact Hd|]. unfold u_ro. change (/ 2 * bpow radix2 (- (53) + 1)) with (/ 2 * bpow radix2 (-53 + 1)). rewrite uu_eq. unfold uu. 
  assert (P : 0 < / 2 ^ 53) by (apply Rinv_0_lt_compat, pow_lt; lra).
  clear - P. set (z := / 2 ^ 53) in *. clearbody z. apply Rmult_le_reg_r with (1 + z); [lra|]. unfold Rdiv.
  rewrite Rmult_assoc, Rinv_l by lra. nra.
Qed.
Lemma opp_ok x : fin x -> fin (SFopp x) /\ val (SFopp x) = - val x.
Proof.
  intros [D Q]. split; [split; [apply opp_double, D|destruct x; exact Q]|]. destruct x as [s|s| |s m e]; cbn; try ring. destruct s; cbn; ring.
Qed.
Lemma sub_ok x y : fin x -> fin y -> Rabs (val x - val y) <= big ->
  fin (SFsub 53 1024 x y) /\ exists d, Rabs d <= uu /\ val (SFsub 53 1024 x y) = (val x - val y) * (1 + d).
Proof.
  intros X Y H. destruct (opp_ok y Y) as [Y' EY].
  assert (Gx := fin_format x X). assert (Gy := fin_format _ Y').
  destruct (FLT_plus_error_N_ex radix2 (SpecFloat.emin 53 1024) 53 (fun x => negb (Z.even x)) (val x) (val (SFopp y)) Gx Gy) as (d & Hd & E).
  destruct X as [Dx Fx], Y as [Dy Fy]. rewrite EY in E. clear Y' EY Gx Gy.
  destruct (double_B x Dx) as [a ->], (double_B y Dy) as [b ->]. rewrite !val_B in *. rewrite fin_B in *.
  rewrite SFsub_B. assert (Q := Bminus_correct 53 1024 Hp Hm mode_NE a b Fx Fy). rewrite rnd_lt in Q by exact H.
  destruct Q as (Q1 & Q2 & _). split; [split; [apply B_double|apply fin_B, Q2]|].
  exists d. split; [|rewrite val_B, Q1; exact E].
  eapply Rle_trans; [exact Hd|]. unfold u_ro. change (/ 2 * bpow radix2 (- (53) + 1)) with (/ 2 * bpow radix2 (-53 + 1)). rewrite uu_eq. unfold uu.
  assert (P : 0 < / 2 ^ 53) by (apply Rinv_0_lt_compat, pow_lt; lra).
  clear - P. set (z := / 2 ^ 53) in *. clearbody z. apply Rmult_le_reg_r with (1 + z); [lra|]. unfold Rdiv.
  rewrite Rmult_assoc, Rinv_l by lra. nra.
Qed.
Lemma mul_ok x y : fin x -> fin y -> Rabs (val x * val y) <= big ->
  fin (SFmul 53 1024 x y) /\ exists d e, Rabs d <= uu /\ Rabs e <= eta /\ val (SFmul 53 1024 x y) = val x * val y * (1 + d) + e.
Proof.
  intros [Dx Fx] [Dy Fy] H.
  destruct (double_B x Dx) as [a ->], (double_B y Dy) as [b ->]. rewrite !val_B in *. rewrite fin_B in *.
  rewrite SFmul_B. assert (Q := Bmult_correct 53 1024 Hp Hm mode_NE a b). rewrite rnd_lt in Q by exact H.
  destruct Q as (Q1 & Q2 & _). split; [split; [apply B_double|apply fin_B; rewrite Q2, Fx, Fy; reflexivity]|].
  rewrite val_B, Q1. apply rnd_err.
Qed.
Lemma div_ok x y : fin x -> fin y -> val y <> 0 -> Rabs (val x / val y) <= big ->
  fin (SFdiv 53 1024 x y) /\ exists d e, Rabs d <= uu /\ Rabs e <= eta /\ val (SFdiv 53 1024 x y) = val x / val y * (1 + d) + e.
Proof.
  intros [Dx Fx] [Dy Fy] N H.
  destruct (double_B x Dx) as [a ->], (double_B y Dy) as [b ->]. rewrite !val_B in *. rewrite fin_B in *.
  rewrite SFdiv_B. assert (Q := Bdiv_correct 53 1024 Hp Hm mode_NE a b N). rewrite rnd_lt in Q by exact H.
  destruct Q as (Q1 & Q2 & _). split; [split; [apply B_double|apply fin_B; rewrite Q2, Fx; reflexivity]|].
  rewrite val_B, Q1. apply rnd_err.
Qed.
(** integers of at most 53 bits are exact *)
Lemma ofZ_ok z : (Z.abs z < 2 ^ 53)%Z -> fin (SpecFloat.binary_normalize 53 1024 z 0 false) /\ val (SpecFloat.binary_normalize 53 1024 z 0 false) = IZR z.
Proof.
  intro H. rewrite bn_eq, val_B. assert (Q := binary_normalize_correct 53 1024 Hp Hm mode_NE z 0 false). cbv zeta in Q.
  assert (E : F2R (Float radix2 z 0) = IZR z) by (unfold F2R; cbn; ring). rewrite E in Q.
  assert (G : generic_format radix2 (SpecFloat.fexp 53 1024) (IZR z)).
  { rewrite <- E. apply generic_format_FLT. exists (Float radix2 z 0); [reflexivity|exact H|cbn; lia]. }
  cbn [round_mode] in Q. rewrite round_generic in Q by (apply valid_rnd_N || exact G).
  rewrite Rlt_bool_true in Q.
  - destruct Q as (Q1 & Q2 & _). split; [split; [apply B_double|apply fin_B, Q2]|exact Q1].
  - rewrite <- abs_IZR. apply Rlt_trans with (IZR (2 ^ 53)); [apply IZR_lt, H|].
    change (IZR (2 ^ 53)) with (IZR (Zpower radix2 53)). rewrite IZR_Zpower by lia. apply bpow_lt. lia.
Qed.
