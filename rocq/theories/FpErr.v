(** * Error calculus: [ap x r A k] — the double x stands for the real r, |r| <= A, with an error of at
    most k units of 2^-52 relative to A. *)
From Coq Require Import ZArith Reals SpecFloat Bool Lra Lia.
From Verif Require Import FpSpec Fp.
Local Open Scope R_scope.

Definition ww : R := / 2 ^ 52.
Definition ap (x : spec_float) (r A k : R) : Prop := fin x /\ Rabs r <= A /\ Rabs (val x - r) <= k * ww * A.
Definition mid (A : R) : Prop := / 2 ^ 1000 <= A <= 2 ^ 1000.

Lemma pow2_pos n : 0 < 2 ^ n. Proof. apply pow_lt. lra. Qed.
Lemma ww_pos : 0 < ww. Proof. apply Rinv_0_lt_compat, pow2_pos. Qed.
Lemma ww_uu : uu = ww / 2.
Proof. unfold uu, ww. change (2 ^ 53) with (2 * 2 ^ 52). rewrite Rinv_mult. unfold Rdiv. ring. Qed.
Lemma ww_small : 8000000000000 * ww <= 1.
Proof.
  apply Rmult_le_reg_r with (2 ^ 52); [apply pow2_pos|]. unfold ww. rewrite Rmult_assoc, Rinv_l by (apply Rgt_not_eq, pow2_pos).
  rewrite Rmult_1_r, Rmult_1_l. change 2 with (IZR 2). rewrite pow_IZR. apply IZR_le. vm_compute. discriminate.
Qed.
Lemma mid_pos A : mid A -> 0 < A.
Proof. intros [H _]. eapply Rlt_le_trans; [|exact H]. apply Rinv_0_lt_compat, pow2_pos. Qed.
Lemma eta_mid A : mid A -> eta <= ww / 8 * A.
Proof.
  intros [H _]. unfold eta, ww. apply Rle_trans with (/ 2 ^ 52 / 8 * / 2 ^ 1000).
  - replace 1075%nat with (52 + 3 + 20 + 1000)%nat by reflexivity. rewrite !pow_add, !Rinv_mult.
    assert (P := Rinv_0_lt_compat _ (pow2_pos 52)). assert (Q := Rinv_0_lt_compat _ (pow2_pos 1000)).
    set (a := / 2 ^ 52) in *. set (b := / 2 ^ 1000) in *. clearbody a b. replace (2 ^ 3) with 8 by ring. replace (2 ^ 20) with 1048576 by ring.
    assert (0 < a * b) by now apply Rmult_lt_0_compat. unfold Rdiv. nra.
  - apply Rmult_le_compat_l; [|exact H]. apply Rlt_le. assert (P := Rinv_0_lt_compat _ (pow2_pos 52)). lra.
Qed.
Lemma mid_big A : A <= 2 ^ 1000 -> 4 * A <= big.
Proof.
  intro H. unfold big. replace 1023%nat with (2 + 21 + 1000)%nat by reflexivity. rewrite !pow_add.
  assert (P := pow2_pos 1000). replace (2 ^ 2) with 4 by ring. replace (2 ^ 21) with 2097152 by ring. nra.
Qed.

Lemma ap_val x r A k : 0 <= k <= 1000 -> ap x r A k -> Rabs (val x) <= A * (1 + k * ww).
Proof.
  intros K (_ & H1 & H2). replace (val x) with (r + (val x - r)) by ring. eapply Rle_trans; [apply Rabs_triang|]. lra.
Qed.
Lemma ap_A x r A k : ap x r A k -> 0 <= A.
Proof. intros (_ & H & _). eapply Rle_trans; [apply Rabs_pos|exact H]. Qed.
Lemma ap_le x r A k k' : k <= k' -> ap x r A k -> ap x r A k'.
Proof.
  intros K H. assert (HA := ap_A _ _ _ _ H). destruct H as (F & H1 & H2). split; [exact F|split; [exact H1|]]. eapply Rle_trans; [exact H2|].
  apply Rmult_le_compat_r; [exact HA|]. apply Rmult_le_compat_r; [apply Rlt_le, ww_pos|exact K].
Qed.
Lemma ap_exact x A : fin x -> Rabs (val x) <= A -> ap x (val x) A 0.
Proof. intros F H. split; [exact F|split; [exact H|]]. rewrite Rminus_eq_0, Rabs_R0. lra. Qed.
Lemma ap_Z z : (Z.abs z < 2 ^ 53)%Z -> ap (SpecFloat.binary_normalize 53 1024 z 0 false) (IZR z) (Rabs (IZR z)) 0.
Proof. intro H. destruct (ofZ_ok z H) as [F E]. rewrite <- E. apply ap_exact; [exact F|lra]. Qed.
Lemma ap_opp x r A k : ap x r A k -> ap (SFopp x) (- r) A k.
Proof.
  intros (F & H1 & H2). destruct (opp_ok x F) as [F' E]. split; [exact F'|]. rewrite Rabs_Ropp, E. split; [exact H1|].
  replace (- val x - - r) with (- (val x - r)) by ring. now rewrite Rabs_Ropp.
Qed.

Lemma kw_small k : 0 <= k <= 1000 -> 0 <= k * ww <= / 1000000.
Proof. intro K. assert (P := ww_pos). assert (Q := ww_small). split; [apply Rmult_le_pos; lra|]. nra. Qed.

Lemma ap_add x y r s A B j k : 0 <= j <= 900 -> 0 <= k <= 900 -> A + B <= 2 ^ 1000 -> ap x r A j -> ap y s B k ->
  ap (SFadd 53 1024 x y) (r + s) (A + B) (Rmax j k + 1).
Proof.
  intros J K AB HX HY. assert (HA := ap_A _ _ _ _ HX). assert (HB := ap_A _ _ _ _ HY).
  assert (VX := ap_val x r A j ltac:(lra) HX). assert (VY := ap_val y s B k ltac:(lra) HY).
  assert (KJ := kw_small j ltac:(lra)). assert (KK := kw_small k ltac:(lra)).
  destruct HX as (FX & X1 & X2), HY as (FY & Y1 & Y2). assert (Pw := ww_pos).
  set (m := Rmax j k). assert (Mj : j <= m) by apply Rmax_l. assert (Mk : k <= m) by apply Rmax_r.
  assert (M9 : m <= 900) by (apply Rmax_lub; lra). assert (KM := kw_small m ltac:(lra)).
  assert (SUM : Rabs (val x + val y) <= (A + B) * (1 + m * ww)).
  { eapply Rle_trans; [apply Rabs_triang|]. assert (j * ww <= m * ww) by (apply Rmult_le_compat_r; lra).
    assert (k * ww <= m * ww) by (apply Rmult_le_compat_r; lra). nra. }
  destruct (add_ok x y FX FY) as [F (d & Hd & E)].
  { eapply Rle_trans; [exact SUM|]. eapply Rle_trans; [|apply mid_big, AB]. nra. }
  split; [exact F|split].
  - eapply Rle_trans; [apply Rabs_triang|lra].
  - rewrite E. replace ((val x + val y) * (1 + d) - (r + s)) with ((val x - r) + (val y - s) + (val x + val y) * d) by ring.
    eapply Rle_trans; [apply Rabs_triang|]. assert (T := Rabs_triang (val x - r) (val y - s)). rewrite Rabs_mult.
    assert (Z : Rabs (val x + val y) * Rabs d <= (A + B) * (1 + m * ww) * (ww / 2)).
    { apply Rmult_le_compat; [apply Rabs_pos|apply Rabs_pos|exact SUM|]. rewrite <- ww_uu. exact Hd. }
    assert (j * ww * A <= m * ww * A) by (apply Rmult_le_compat_r; [lra|]; apply Rmult_le_compat_r; lra).
    assert (k * ww * B <= m * ww * B) by (apply Rmult_le_compat_r; [lra|]; apply Rmult_le_compat_r; lra).
    assert (Zz : (A + B) * (1 + m * ww) * (ww / 2) <= (A + B) * ww).
    { replace ((A + B) * (1 + m * ww) * (ww / 2)) with ((A + B) * ww * ((1 + m * ww) / 2)) by field.
      rewrite <- (Rmult_1_r ((A + B) * ww)) at 2. apply Rmult_le_compat_l; [apply Rmult_le_pos; lra|lra]. }
    lra.
Qed.
Lemma ap_sub x y r s A B j k : 0 <= j <= 900 -> 0 <= k <= 900 -> A + B <= 2 ^ 1000 -> ap x r A j -> ap y s B k ->
  ap (SFsub 53 1024 x y) (r - s) (A + B) (Rmax j k + 1).
Proof.
  intros J K AB HX HY. assert (HA := ap_A _ _ _ _ HX). assert (HB := ap_A _ _ _ _ HY).
  assert (VX := ap_val x r A j ltac:(lra) HX). assert (VY := ap_val y s B k ltac:(lra) HY).
  assert (KJ := kw_small j ltac:(lra)). assert (KK := kw_small k ltac:(lra)).
  destruct HX as (FX & X1 & X2), HY as (FY & Y1 & Y2). assert (Pw := ww_pos).
  set (m := Rmax j k). assert (Mj : j <= m) by apply Rmax_l. assert (Mk : k <= m) by apply Rmax_r.
  assert (M9 : m <= 900) by (apply Rmax_lub; lra). assert (KM := kw_small m ltac:(lra)).
  assert (SUM : Rabs (val x - val y) <= (A + B) * (1 + m * ww)).
  { unfold Rminus. eapply Rle_trans; [apply Rabs_triang|]. rewrite Rabs_Ropp. assert (j * ww <= m * ww) by (apply Rmult_le_compat_r; lra).
    assert (k * ww <= m * ww) by (apply Rmult_le_compat_r; lra). nra. }
  destruct (sub_ok x y FX FY) as [F (d & Hd & E)].
  { eapply Rle_trans; [exact SUM|]. eapply Rle_trans; [|apply mid_big, AB]. nra. }
  split; [exact F|split].
  - unfold Rminus. eapply Rle_trans; [apply Rabs_triang|]. rewrite Rabs_Ropp. lra.
  - rewrite E. replace ((val x - val y) * (1 + d) - (r - s)) with ((val x - r) + - (val y - s) + (val x - val y) * d) by ring.
    eapply Rle_trans; [apply Rabs_triang|]. assert (T := Rabs_triang (val x - r) (- (val y - s))). rewrite Rabs_Ropp in T. rewrite Rabs_mult.
    assert (Z : Rabs (val x - val y) * Rabs d <= (A + B) * (1 + m * ww) * (ww / 2)).
    { apply Rmult_le_compat; [apply Rabs_pos|apply Rabs_pos|exact SUM|]. rewrite <- ww_uu. exact Hd. }
    assert (j * ww * A <= m * ww * A) by (apply Rmult_le_compat_r; [lra|]; apply Rmult_le_compat_r; lra).
    assert (k * ww * B <= m * ww * B) by (apply Rmult_le_compat_r; [lra|]; apply Rmult_le_compat_r; lra).
    assert (Zz : (A + B) * (1 + m * ww) * (ww / 2) <= (A + B) * ww).
    { replace ((A + B) * (1 + m * ww) * (ww / 2)) with ((A + B) * ww * ((1 + m * ww) / 2)) by field.
      rewrite <- (Rmult_1_r ((A + B) * ww)) at 2. apply Rmult_le_compat_l; [apply Rmult_le_pos; lra|lra]. }
    lra.
Qed.

(** multiplication/division error, common part *)
Lemma prod_err x y r s A B j k : 0 <= j <= 1000 -> 0 <= k <= 1000 -> 0 <= A -> 0 <= B ->
  Rabs r <= A -> Rabs s <= B -> Rabs (x - r) <= j * ww * A -> Rabs (y - s) <= k * ww * B ->
  Rabs (x * y - r * s) <= (j + k + / 8) * ww * (A * B) /\ Rabs (x * y) <= A * B * (1 + / 8).
Proof.
  intros J K HA HB R1 S1 X Y. assert (KJ := kw_small j J). assert (KK := kw_small k K). assert (Pw := ww_pos).
  assert (VX : Rabs x <= A * (1 + j * ww)).
  { replace x with (r + (x - r)) by ring. eapply Rle_trans; [apply Rabs_triang|]. lra. }
  assert (VY : Rabs y <= B * (1 + k * ww)).
  { replace y with (s + (y - s)) by ring. eapply Rle_trans; [apply Rabs_triang|]. lra. }
  assert (AB : 0 <= A * B) by now apply Rmult_le_pos.
  split.
  - replace (x * y - r * s) with ((x - r) * y + r * (y - s)) by ring. eapply Rle_trans; [apply Rabs_triang|]. rewrite !Rabs_mult.
    assert (Z1 : Rabs (x - r) * Rabs y <= j * ww * A * (B * (1 + k * ww))) by (apply Rmult_le_compat; auto using Rabs_pos).
    assert (Z2 : Rabs r * Rabs (y - s) <= A * (k * ww * B)) by (apply Rmult_le_compat; auto using Rabs_pos).
    assert (Z3 : j * (k * ww) * (ww * (A * B)) <= / 8 * (ww * (A * B))).
    { apply Rmult_le_compat_r; [apply Rmult_le_pos; lra|]. nra. }
    lra.
  - rewrite Rabs_mult. apply Rle_trans with (A * (1 + j * ww) * (B * (1 + k * ww))); [apply Rmult_le_compat; auto using Rabs_pos|].
    replace (A * (1 + j * ww) * (B * (1 + k * ww))) with (A * B * ((1 + j * ww) * (1 + k * ww))) by ring.
    apply Rmult_le_compat_l; [exact AB|]. nra.
Qed.
Lemma ap_mul x y r s A B j k : 0 <= j <= 900 -> 0 <= k <= 900 -> mid (A * B) -> ap x r A j -> ap y s B k ->
  ap (SFmul 53 1024 x y) (r * s) (A * B) (j + k + 1).
Proof.
  intros J K MM HX HY. assert (HA := ap_A _ _ _ _ HX). assert (HB := ap_A _ _ _ _ HY).
  destruct HX as (FX & X1 & X2), HY as (FY & Y1 & Y2). assert (Pw := ww_pos).
  destruct (prod_err (val x) (val y) r s A B j k ltac:(lra) ltac:(lra) HA HB X1 Y1 X2 Y2) as [E1 E2].
  assert (PM := mid_pos _ MM). assert (Et := eta_mid _ MM).
  destruct (mul_ok x y FX FY) as [F (d & e & Hd & He & E)].
  { eapply Rle_trans; [exact E2|]. eapply Rle_trans; [|apply mid_big, MM]. lra. }
  split; [exact F|split].
  - rewrite Rabs_mult. apply Rmult_le_compat; auto using Rabs_pos.
  - rewrite E. replace (val x * val y * (1 + d) + e - r * s) with ((val x * val y - r * s) + val x * val y * d + e) by ring.
    assert (Z : Rabs (val x * val y * d) <= A * B * (1 + / 8) * (ww / 2)).
    { rewrite Rabs_mult. apply Rmult_le_compat; [apply Rabs_pos|apply Rabs_pos|exact E2|rewrite <- ww_uu; exact Hd]. }
    eapply Rle_trans; [apply Rabs_triang|]. eapply Rle_trans; [apply Rplus_le_compat; [apply Rabs_triang|exact He]|].
    assert (0 <= ww * (A * B)) by (apply Rmult_le_pos; lra). lra.
Qed.
(** division by a double whose value is known exactly *)
Lemma ap_div x y r A j : 0 <= j <= 900 -> fin y -> 0 < val y -> mid (A / val y) -> ap x r A j ->
  ap (SFdiv 53 1024 x y) (r / val y) (A / val y) (j + 1).
Proof.
  intros J FY PY MM HX. assert (HA := ap_A _ _ _ _ HX). destruct HX as (FX & X1 & X2). assert (Pw := ww_pos).
  assert (PI : 0 < / val y) by now apply Rinv_0_lt_compat.
  destruct (prod_err (val x) (/ val y) r (/ val y) A (/ val y) j 0 ltac:(lra) ltac:(lra) HA ltac:(lra) X1) as [E1 E2]; auto.
  { rewrite Rabs_right; lra. } { rewrite Rminus_eq_0, Rabs_R0. lra. }
  assert (PM := mid_pos _ MM). assert (Et := eta_mid _ MM). unfold Rdiv in *.
  destruct (div_ok x y FX FY ltac:(lra)) as [F (d & e & Hd & He & E)].
  { unfold Rdiv. eapply Rle_trans; [exact E2|]. eapply Rle_trans; [|apply mid_big, MM]. lra. }
  unfold Rdiv in *. split; [exact F|split].
  - rewrite Rabs_mult. rewrite (Rabs_right (/ val y)) by lra. apply Rmult_le_compat_r; lra.
  - rewrite E. replace (val x * / val y * (1 + d) + e - r * / val y) with ((val x * / val y - r * / val y) + val x * / val y * d + e) by ring.
    assert (Z : Rabs (val x * / val y * d) <= A * / val y * (1 + / 8) * (ww / 2)).
    { rewrite Rabs_mult. apply Rmult_le_compat; [apply Rabs_pos|apply Rabs_pos|exact E2|rewrite <- ww_uu; exact Hd]. }
    eapply Rle_trans; [apply Rabs_triang|]. eapply Rle_trans; [apply Rplus_le_compat; [apply Rabs_triang|exact He]|].
    assert (0 <= ww * (A * / val y)) by (apply Rmult_le_pos; lra). lra.
Qed.
(** quotient of two positive integers: the coefficient literals of the stencils *)
Lemma ap_q a b : (0 < a < 10000)%Z -> (0 < b < 10000)%Z ->
  ap (SFdiv 53 1024 (SpecFloat.binary_normalize 53 1024 a 0 false) (SpecFloat.binary_normalize 53 1024 b 0 false)) (IZR a / IZR b) (IZR a / IZR b) 1.
Proof.
  intros Ha Hb. destruct (ofZ_ok b ltac:(lia)) as [Fb Eb]. assert (P : 0 < IZR b) by (apply IZR_lt; lia). assert (Pa : 0 < IZR a) by (apply IZR_lt; lia).
  assert (H := ap_Z a ltac:(lia)). rewrite Rabs_right in H by lra.
  rewrite <- Eb. apply (ap_le _ _ _ (0 + 1)); [lra|]. apply ap_div; auto; rewrite ?Eb; auto; [lra|].
  assert (B1 : IZR b <= 10000) by (apply IZR_le; lia). assert (A1 : 1 <= IZR a) by (apply IZR_le; lia). assert (A2 : IZR a <= 10000) by (apply IZR_le; lia).
  assert (B2 : 1 <= IZR b) by (apply IZR_le; lia). split.
  - apply Rle_trans with (/ 10000).
    + apply Rinv_le_contravar; [lra|]. apply Rle_trans with (2 ^ 14); [simpl; lra|]. apply Rle_pow; [lra|lia].
    + apply Rle_trans with (/ IZR b); [apply Rinv_le_contravar; lra|]. unfold Rdiv. rewrite <- (Rmult_1_l (/ IZR b)) at 1. apply Rmult_le_compat_r; [|lra].
      apply Rlt_le, Rinv_0_lt_compat, P.
  - apply Rle_trans with (2 ^ 14); [|apply Rle_pow; [lra|lia]]. apply Rle_trans with (IZR a * 1); [|simpl; lra].
    apply Rmult_le_compat_l; [lra|]. rewrite <- Rinv_1. apply Rinv_le_contravar; lra.
Qed.
