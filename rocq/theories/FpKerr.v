(** * Rounding errors of the coefficient tables (Scalar_eom's constructor): lemmas.
    Magnitudes, general division, comparisons, square root, inverse radius, horizons. *)
From Coq Require Import ZArith Reals SpecFloat Bool Lra Lia.
From Flocq Require Import Core BinarySingleNaN.
From Verif Require Import Base Arith EomSpec FpSpec Fp FpErr FpRed PropFpFd.
Local Open Scope R_scope.

(** magnitude *)
Definition mg (n : nat) (A : R) : Prop := / 2 ^ n <= A <= 2 ^ n.
Lemma mg_pos n A : mg n A -> 0 < A.
Proof. intros [H _]. eapply Rlt_le_trans; [|exact H]. apply Rinv_0_lt_compat, pow2_pos. Qed.
Lemma mg_le n k A : (n <= k)%nat -> mg n A -> mg k A.
Proof.
  intros H [A1 A2]. split.
  - eapply Rle_trans; [|exact A1]. apply Rinv_le_contravar; [apply pow2_pos|]. now apply Rle_pow; [lra|].
  - eapply Rle_trans; [exact A2|]. now apply Rle_pow; [lra|].
Qed.
Lemma mg_mul n k A B : mg n A -> mg k B -> mg (n + k) (A * B).
Proof.
  intros [A1 A2] [B1 B2]. assert (Pn := Rinv_0_lt_compat _ (pow2_pos n)). assert (Pk := Rinv_0_lt_compat _ (pow2_pos k)). unfold mg. rewrite pow_add, Rinv_mult. split; apply Rmult_le_compat; lra.
Qed.
Lemma mg_inv n A : mg n A -> mg n (/ A).
Proof.
  intros H. assert (P := mg_pos n A H). destruct H as [A1 A2]. split.
  - apply Rinv_le_contravar; auto.
  - rewrite <- (Rinv_inv (2 ^ n)). apply Rinv_le_contravar; auto. apply Rinv_0_lt_compat, pow2_pos.
Qed.
Lemma mg_mid n A : mg n A -> (n <= 1000)%nat -> mid A.
Proof. intros H N. exact (mg_le n 1000 A N H). Qed.
Lemma mg_lit c : / 1000 <= c <= 1000 -> mg 10 c.
Proof. intros [H1 H2]. split; [eapply Rle_trans; [|exact H1]; apply Rinv_le_contravar; [lra|]|eapply Rle_trans; [exact H2|]]; simpl; lra. Qed.
Lemma mg_top n A : mg n A -> (n <= 1000)%nat -> A <= 2 ^ 1000.
Proof. intros H N. apply (mg_mid n A H N). Qed.

(** general division: the divisor stands for s >= b > 0, |s| <= B *)
Lemma ap_divg x y r s A B b j k q : 0 <= j <= 900 -> 0 <= k <= 900 -> 0 < b <= s -> B <= q * b -> 0 <= q <= 20 -> mid (A / b) ->
  ap x r A j -> ap y s B k -> ap (SFdiv 53 1024 x y) (r / s) (A / b) (j + k * q + 2).
Proof.
  intros J K [Pb Hs] HB Q MM HX HY. assert (HA := ap_A _ _ _ _ HX). assert (HBB := ap_A _ _ _ _ HY). destruct HX as (FX & X1 & X2), HY as (FY & Y1 & Y2). assert (Pw := ww_pos).
  assert (W8 := ww_small). assert (KJ := kw_small j ltac:(lra)). assert (KK := kw_small k ltac:(lra)).
  assert (kq : 0 <= k * q <= 900 * 20) by (split; [apply Rmult_le_pos; lra|apply Rmult_le_compat; lra]).
  assert (KQ : k * ww * B <= / 1000000 * b). { apply Rle_trans with (k * ww * (q * b)); [apply Rmult_le_compat_l; lra|]. replace (k * ww * (q * b)) with (k * q * ww * b) by ring. apply Rmult_le_compat_r; [lra|]. nra. }
  assert (Vy : val y >= s * (1 - / 1000000)). { unfold Rabs in Y2. destruct (Rcase_abs (val y - s)); nra. }
  assert (Py : 0 < val y) by nra. assert (Ps : 0 < s) by lra.
  assert (Ie : val x / val y - r / s = (val x - r) / val y + r * (s - val y) / (s * val y)) by (field; lra).
  assert (Iy : / val y <= / b * (1 + / 900000)).
  { replace (1 + / 900000) with (/ (1 - / 900001)) by lra. rewrite <- Rinv_mult. apply Rinv_le_contravar; nra. }
  assert (Pib := Rinv_0_lt_compat b Pb). assert (Piy := Rinv_0_lt_compat _ Py). assert (Pis := Rinv_0_lt_compat _ Ps).
  assert (Is : / s <= / b) by (apply Rinv_le_contravar; lra).
  assert (D1 : Rabs (val x / val y - r / s) <= (j + k * q) * (1 + / 900000) * ww * (A / b)).
  { rewrite Ie. eapply Rle_trans; [apply Rabs_triang|]. unfold Rdiv. rewrite !Rabs_mult. rewrite (Rabs_right (/ val y)) by lra.
    rewrite (Rabs_right (/ (s * val y))) by (apply Rle_ge; rewrite Rinv_mult; apply Rmult_le_pos; lra). rewrite (Rabs_minus_sym s).
    assert (Z1 : Rabs (val x - r) * / val y <= j * ww * A * (/ b * (1 + / 900000))) by (apply Rmult_le_compat; auto using Rabs_pos; lra).
    assert (Z2 : Rabs r * Rabs (val y - s) * / (s * val y) <= A * (k * ww * B) * (/ b * (/ b * (1 + / 900000)))).
    { rewrite Rinv_mult. apply Rmult_le_compat; [apply Rmult_le_pos; apply Rabs_pos|apply Rmult_le_pos; lra| |].
      - apply Rmult_le_compat; auto using Rabs_pos.
      - apply Rmult_le_compat; lra. }
    assert (Z3 : A * (k * ww * B) * (/ b * (/ b * (1 + / 900000))) <= A * (k * ww * (q * b)) * (/ b * (/ b * (1 + / 900000)))).
    { apply Rmult_le_compat_r; [apply Rmult_le_pos; [lra|apply Rmult_le_pos; lra]|]. apply Rmult_le_compat_l; [exact HA|]. apply Rmult_le_compat_l; [lra|exact HB]. }
    replace (A * (k * ww * (q * b)) * (/ b * (/ b * (1 + / 900000)))) with (k * q * (1 + / 900000) * ww * (A * / b)) in Z3 by (field; lra).
    replace (j * ww * A * (/ b * (1 + / 900000))) with (j * (1 + / 900000) * ww * (A * / b)) in Z1 by ring. lra. }
  assert (PM := mid_pos _ MM).
  assert (R1 : Rabs (r / s) <= A / b). { unfold Rdiv. rewrite Rabs_mult, (Rabs_right (/ s)) by lra. apply Rmult_le_compat; auto using Rabs_pos; lra. }
  assert (JK0 : 0 <= j + k * q <= 19000) by lra.
  assert (JK : (j + k * q) * ww <= / 100) by nra.
  assert (V1 : Rabs (val x / val y) <= A / b * (1 + / 50)).
  { replace (val x / val y) with (r / s + (val x / val y - r / s)) by ring. eapply Rle_trans; [apply Rabs_triang|].
    assert ((j + k * q) * (1 + / 900000) * ww * (A / b) <= / 50 * (A / b)) by (apply Rmult_le_compat_r; [lra|]; nra). lra. }
  destruct (div_ok x y FX FY ltac:(lra)) as [F (d & e & Hd & He & E)].
  { eapply Rle_trans; [exact V1|]. eapply Rle_trans; [|apply mid_big, MM]. lra. }
  split; [exact F|split; [exact R1|]]. assert (Et := eta_mid _ MM).
  rewrite E. replace (val x / val y * (1 + d) + e - r / s) with ((val x / val y - r / s) + val x / val y * d + e) by ring.
  eapply Rle_trans; [apply Rabs_triang|]. eapply Rle_trans; [apply Rplus_le_compat; [apply Rabs_triang|exact He]|].
  assert (Z : Rabs (val x / val y * d) <= A / b * (1 + / 50) * (ww / 2)).
  { rewrite Rabs_mult. apply Rmult_le_compat; [apply Rabs_pos|apply Rabs_pos|exact V1|rewrite <- ww_uu; exact Hd]. }
  assert (P0 : 0 <= ww * (A / b)) by (apply Rmult_le_pos; lra).
  assert (Zf : (j + k * q) * (1 + / 900000) * ww * (A / b) <= (j + k * q + / 20) * (ww * (A / b))).
  { replace ((j + k * q) * (1 + / 900000) * ww * (A / b)) with (((j + k * q) * (1 + / 900000)) * (ww * (A / b))) by ring.
    apply Rmult_le_compat_r; [exact P0|]. lra. }
  replace ((j + k * q + 2) * ww * (A / b)) with ((j + k * q + 2) * (ww * (A / b))) by ring.
  replace (A / b * (1 + / 50) * (ww / 2)) with ((1 + / 50) / 2 * (ww * (A / b))) in Z by (field; lra).
  replace (ww / 8 * (A / b)) with (/ 8 * (ww * (A / b))) in Et by (field; lra). lra.
Qed.

(** comparisons and absolute value of finite doubles *)
Lemma abs_ok x : fin x -> fin (SFabs x) /\ val (SFabs x) = Rabs (val x).
Proof.
  intros [D F]. destruct (double_B x D) as [b ->]. assert (E : SFabs (B2SF b) = B2SF (Babs b)) by (destruct b; reflexivity).
  rewrite E, !val_B, B2R_Babs. split; [|reflexivity]. split; [apply B_double|]. apply fin_B. rewrite is_finite_Babs. now apply fin_B.
Qed.
Lemma lt_ok x y : fin x -> fin y -> SFltb x y = Rlt_bool (val x) (val y).
Proof.
  intros [D F] [D' F']. destruct (double_B x D) as [b ->], (double_B y D') as [c ->]. rewrite !val_B. apply fin_B in F, F'.
  change (SFltb (B2SF b) (B2SF c)) with (Bltb b c). now apply Bltb_correct.
Qed.
Lemma lt_true x y : fin x -> fin y -> val x < val y -> SFltb x y = true.
Proof. intros F F' H. rewrite lt_ok by auto. now apply Rlt_bool_true. Qed.
Lemma lt_false x y : fin x -> fin y -> val y <= val x -> SFltb x y = false.
Proof. intros F F' H. rewrite lt_ok by auto. now apply Rlt_bool_false. Qed.

(** doubles not smaller than 1/2 are integer multiples of 2^-53 *)
Lemma half_grid x : fin x -> / 2 <= Rabs (val x) -> exists z : Z, val x = IZR z * / 2 ^ 53.
Proof.
  intros F H. assert (G := fin_format x F). set (v := val x) in *. clearbody v.
  assert (Mg : (0 <= mag radix2 v)%Z).
  { apply mag_ge_bpow. replace (bpow radix2 (0 - 1)) with (/ 2) by (cbn; lra). exact H. }
  assert (Ce : (-53 <= cexp radix2 (SpecFloat.fexp 53 1024) v)%Z).
  { unfold cexp. rewrite fexp_FLT. unfold FLT_exp. lia. }
  unfold generic_format in G. rewrite G. set (z := Ztrunc _). set (c := cexp _ _ _) in *. exists (z * 2 ^ (c + 53))%Z. unfold F2R. cbn [Fnum Fexp].
  rewrite mult_IZR, Rmult_assoc. f_equal. replace c with ((c + 53) + (-53))%Z at 1 by ring. rewrite bpow_plus.
  rewrite <- (IZR_Zpower radix2) by lia. f_equal. change (bpow radix2 (-53)) with (/ IZR 9007199254740992). f_equal. rewrite (pow_IZR 2 53). reflexivity.
Qed.

Definition t16 : spec_float := sf_dec 1 (-16).
Lemma t16_ok : fin t16 /\ / 2 ^ 54 < val t16 <= 101 / 100 / 10 ^ 16 /\ val t16 < / 2 ^ 53 * (1 - / 1000000).
Proof.
  assert (E : t16 = S754_finite false 8112963841460668 (-106)) by (vm_compute; reflexivity). rewrite E. split; [split; [vm_compute; reflexivity|exact I]|].
  cbn [val]. change (powerRZ 2 (-106)) with (/ 2 ^ 106). rewrite !(pow_IZR 10), !(pow_IZR 2).
  change (2 ^ Z.of_nat 106)%Z with 81129638414606681695789005144064%Z. change (2 ^ Z.of_nat 54)%Z with 18014398509481984%Z. change (2 ^ Z.of_nat 53)%Z with 9007199254740992%Z. change (10 ^ Z.of_nat 16)%Z with 10000000000000000%Z.
  lra.
Qed.
Lemma one_ok : fin (sf_ofZ 1) /\ val (sf_ofZ 1) = 1.
Proof. apply (ofZ_ok 1). reflexivity. Qed.
Lemma zero_ok : fin (sf_ofZ 0) /\ val (sf_ofZ 0) = 0.
Proof. split; [split; [reflexivity|exact I]|reflexivity]. Qed.
Lemma uu_num : uu = / 9007199254740992.
Proof. unfold uu. f_equal. rewrite (pow_IZR 2). reflexivity. Qed.
Lemma eta_small A : mg 300 A -> eta <= ww / 1000 * A.
Proof.
  intros [H _]. unfold eta, ww. apply Rle_trans with (/ 2 ^ 52 / 1000 * / 2 ^ 300).
  - replace 1075%nat with (52 + 300 + 10 + 713)%nat by reflexivity. rewrite !pow_add, !Rinv_mult.
    assert (P := Rinv_0_lt_compat _ (pow2_pos 52)). assert (Q := Rinv_0_lt_compat _ (pow2_pos 300)). assert (I713 : / 2 ^ 713 <= 1). { rewrite <- Rinv_1. apply Rinv_le_contravar; [lra|]. apply pow_R1_Rle. lra. }
    assert (P7 := Rinv_0_lt_compat _ (pow2_pos 713)).
    set (a := / 2 ^ 52) in *. set (b := / 2 ^ 300) in *. set (c := / 2 ^ 713) in *. clearbody a b c. replace (2 ^ 10) with 1024 by ring.
    assert (0 < a * b) by now apply Rmult_lt_0_compat. assert (a * b * c <= a * b * 1) by (apply Rmult_le_compat_l; lra). unfold Rdiv. nra.
  - apply Rmult_le_compat_r; [|exact H] || idtac. apply Rmult_le_compat_l; [|exact H]. assert (P := Rinv_0_lt_compat _ (pow2_pos 52)). lra.
Qed.

(** scalar_eom.cpp:65-70 with Grid::R_to_r inlined (grid.hpp:296-299) *)
Definition inv_radius (R cl : spec_float) : spec_float :=
  if SFltb (SFabs (SFsub 53 1024 R cl)) t16 then sf_ofZ 0
  else SFdiv 53 1024 (sf_ofZ 1) (if SFltb t16 (SFabs (SFsub 53 1024 R cl)) then SFdiv 53 1024 R (SFsub 53 1024 (sf_ofZ 1) (SFdiv 53 1024 R cl)) else sf_dec 1 12).

Lemma zero_pos_shape x : fin x -> 0 < val x -> exists m e, x = S754_finite false m e.
Proof.
  intros [_ F] P. destruct x as [s|s| |s m e]; cbn in F, P; try lra; try tauto. destruct s; [|eauto].
  exfalso. assert (0 < IZR (Zpos m)) by (apply IZR_lt; lia). assert (0 < powerRZ 2 e) by (apply powerRZ_lt; lra). nra.
Qed.
Lemma zero_shape x : fin x -> val x = 0 -> exists s, x = S754_zero s.
Proof.
  intros [_ F] P. destruct x as [s|s| |s m e]; cbn in F, P; try tauto; [eauto|]. exfalso.
  assert (0 < IZR (Zpos m)) by (apply IZR_lt; lia). assert (0 < powerRZ 2 e) by (apply powerRZ_lt; lra). destruct s; nra.
Qed.
Lemma Rabs_lo x y : y <= Rabs x -> x <= - y \/ y <= x.
Proof. unfold Rabs. destruct (Rcase_abs x); lra. Qed.
Lemma Rabs_le_between x y : Rabs x <= y -> - y <= x <= y.
Proof. unfold Rabs. destruct (Rcase_abs x); lra. Qed.
Lemma Rabs_lt_between x y : Rabs x < y -> - y < x < y.
Proof. unfold Rabs. destruct (Rcase_abs x); lra. Qed.
Lemma Zabs1 z : (z <> 0)%Z -> 1 <= Rabs (IZR z).
Proof. intros H. rewrite <- abs_IZR. apply IZR_le. lia. Qed.

Lemma inv_radius_ok R cl : fin R -> fin cl -> 1 <= val cl -> mg 100 (val cl) -> mg 100 (val R) -> val R <= val cl * (1 + / 1000) ->
  ap (inv_radius R cl) (/ val R - / val cl) (/ val R) 10.
Proof.
  intros FR FC C1 MC MR RC. assert (PR := mg_pos _ _ MR). assert (PC : 0 < val cl) by lra. assert (W := ww_small). assert (Pw := ww_pos).
  assert (UW := ww_uu). assert (PIR := Rinv_0_lt_compat _ PR). assert (PIC := Rinv_0_lt_compat _ PC).
  set (X := val R) in *. set (C := val cl) in *. set (rho := X / C). assert (R0 : 0 < rho) by now apply Rdiv_lt_0_compat.
  assert (R1 : rho <= 1 + / 1000). { unfold rho. apply Rmult_le_reg_r with C; [exact PC|]. unfold Rdiv. rewrite Rmult_assoc, Rinv_l by lra. lra. }
  assert (Ex : / X - / C = (1 - rho) * / X) by (unfold rho; field; lra).
  assert (Bx : Rabs (/ X - / C) <= / X). { rewrite Ex, Rabs_mult, (Rabs_right (/ X)) by lra. assert (Rabs (1 - rho) <= 1) by (apply Rabs_le; lra). nra. }
  destruct t16_ok as (FT & [T0 T1] & T2).
  assert (P54 := Rinv_0_lt_compat _ (pow2_pos 54)).
  assert (Bd : Rabs (X - C) <= big).
  { apply Rle_trans with (4 * 2 ^ 100); [|eapply Rle_trans; [|apply (mid_big (2 ^ 100))]; [lra|apply Rle_pow; [lra|lia]]]. destruct MC as [_ M2], MR as [_ M3]. fold C in M2. fold X in M3. apply Rabs_le. lra. }
  destruct (sub_ok R cl FR FC Bd) as [FS (ds & Hds & ES)]. fold X C in ES. destruct (abs_ok _ FS) as [FA EA].
  unfold inv_radius. destruct (Req_dec X C) as [EX|NX].
  - rewrite lt_true; auto.
    + destruct zero_ok as [Z1 Z2]. split; [exact Z1|split; [exact Bx|]]. rewrite Z2, EX. rewrite !Rminus_eq_0, Rabs_R0. apply Rmult_le_pos; [apply Rmult_le_pos; lra|lra].
    + rewrite EA, ES, EX, Rminus_eq_0, Rmult_0_l, Rabs_R0. lra.
  - (* the node is at least 2^-53 away *)
    assert (GAP : / 2 ^ 53 <= Rabs (X - C)).
    { destruct (Rlt_le_dec X (/ 2)) as [HX|HX].
      - rewrite Rabs_minus_sym, Rabs_right by lra. apply Rle_trans with (/ 2); [|lra]. apply Rinv_le_contravar; [lra|]. replace 2 with (2 ^ 1) at 1 by ring. apply Rle_pow; [lra|lia].
      - destruct (half_grid R FR) as (z & Ez); [fold X; rewrite Rabs_right; lra|]. destruct (half_grid cl FC) as (z' & Ez'); [fold C; rewrite Rabs_right; lra|].
        fold X in Ez. fold C in Ez'. rewrite Ez, Ez', <- Rmult_minus_distr_r, <- minus_IZR, Rabs_mult, (Rabs_right (/ 2 ^ 53)) by (apply Rle_ge, Rlt_le, Rinv_0_lt_compat, pow2_pos).
        assert (N : (z - z' <> 0)%Z). { intros E. apply NX. rewrite Ez, Ez'. replace z with z' by lia. reflexivity. }
        assert (A1 := Zabs1 _ N). assert (P53 := Rinv_0_lt_compat _ (pow2_pos 53)). nra. }
    assert (U1 : uu <= / 1000000) by (rewrite UW; lra).
    assert (Hds' : Rabs ds <= / 1000000) by lra. apply Rabs_le_between in Hds'.
    assert (VS : val t16 < Rabs (val (SFsub 53 1024 R cl))).
    { rewrite ES, Rabs_mult, (Rabs_right (1 + ds)) by lra. eapply Rlt_le_trans; [exact T2|]. apply Rmult_le_compat; try lra. }
    rewrite lt_false, lt_true by (auto; rewrite EA; lra).
    (* quotient and difference *)
    assert (MQ : mg 200 (X / C)) by (apply (mg_mul 100 100); [exact MR|apply mg_inv; exact MC]).
    assert (AQ : ap (SFdiv 53 1024 R cl) rho (X / C) 1).
    { apply (ap_le _ _ _ (0 + 1)); [lra|]. unfold rho. unfold C. apply ap_div; auto; [lra|apply (mg_mid 200); [exact MQ|lia]|]. apply ap_exact; [exact FR|]. fold X. rewrite Rabs_right; lra. }
    set (q := SFdiv 53 1024 R cl) in *. destruct one_ok as [F1 E1].
    assert (A1 : ap (sf_ofZ 1) 1 1 0). { rewrite <- E1 at 1. apply ap_exact; [exact F1|]. rewrite E1, Rabs_R1. lra. }
    assert (AD : ap (SFsub 53 1024 (sf_ofZ 1) q) (1 - rho) (1 + X / C) 2).
    { replace 2 with (1 + 1) by ring. apply (ap_subr _ _ _ _ _ _ 0 1); auto; [lra|lra|]. fold rho. apply lit_sum. lra. }
    set (D := SFsub 53 1024 (sf_ofZ 1) q) in *. fold rho in AD, AQ. destruct AD as (FD & _ & ED).
    assert (ED' : Rabs (val D - (1 - rho)) <= 5 * ww). { eapply Rle_trans; [exact ED|]. nra. }
    destruct AQ as (Fq & _ & Eq).
    destruct (Req_dec (val D) 0) as [D0|D0].
    + (* division by zero: infinite radius *)
      destruct (zero_shape D FD D0) as (sd & ->). destruct (zero_pos_shape R FR PR) as (mr & er & ->).
      assert (Ev : exists s, SFdiv 53 1024 (sf_ofZ 1) (SFdiv 53 1024 (S754_finite false mr er) (S754_zero sd)) = S754_zero s) by (destruct sd; eexists; reflexivity).
      destruct Ev as (s & ->). split; [split; [reflexivity|exact I]|split; [exact Bx|]]. cbn [val]. rewrite Rminus_0_l, Rabs_Ropp, Ex, Rabs_mult, (Rabs_right (/ X)) by lra.
      rewrite D0, Rminus_0_l, Rabs_Ropp in ED'. apply Rmult_le_compat_r; lra.
    + assert (LD : / 2 ^ 54 <= Rabs (val D)).
      { destruct (Rlt_le_dec (Rabs (val q)) (/ 2)) as [HQ|HQ].
        - destruct (sub_ok (sf_ofZ 1) q F1 Fq) as [_ (d & Hd & Ed)].
          { rewrite E1. apply Rle_trans with (4 * 1); [|apply mid_big; apply lit_sum; lra]. apply Rabs_lt_between in HQ. apply Rabs_le. lra. }
          fold D in Ed. rewrite Ed, E1. assert (Hd' : Rabs d <= / 1000000) by lra. apply Rabs_le_between in Hd'. apply Rabs_lt_between in HQ. rewrite Rabs_right by nra.
          apply Rle_trans with (/ 4); [|nra]. apply Rinv_le_contravar; [lra|]. replace 4 with (2 ^ 2) by ring. apply Rle_pow; [lra|lia].
        - destruct (half_grid q Fq HQ) as (z & Ez).
          destruct (sub_ok (sf_ofZ 1) q F1 Fq) as [_ (d & Hd & Ed)].
          { rewrite E1. apply Rle_trans with (4 * 2); [|apply mid_big; apply lit_sum; lra]. assert (Rabs (val q - rho) <= 1) by (eapply Rle_trans; [exact Eq|]; nra). apply Rabs_le_between in H. apply Rabs_le. lra. }
          fold D in Ed. rewrite E1 in Ed. rewrite Ez in Ed. assert (Ed2 : val D = IZR (2 ^ 53 - z) * / 2 ^ 53 * (1 + d)).
          { rewrite Ed, minus_IZR. f_equal. rewrite Rmult_minus_distr_r. f_equal. rewrite (pow_IZR 2 53). change (2 ^ Z.of_nat 53)%Z with (2 ^ 53)%Z. field. apply IZR_neq. vm_compute. discriminate. }
          assert (N : (2 ^ 53 - z <> 0)%Z). { intros E. apply D0. rewrite Ed2, E. ring. }
          assert (Z1 := Zabs1 _ N). assert (P53 := Rinv_0_lt_compat _ (pow2_pos 53)). assert (Hd' : Rabs d <= / 1000000) by lra. apply Rabs_le_between in Hd'.
          rewrite Ed2, !Rabs_mult, (Rabs_right (/ 2 ^ 53)), (Rabs_right (1 + d)) by lra. replace (2 ^ 54) with (2 ^ 53 * 2) by ring. rewrite Rinv_mult. nra. }
      assert (UD : Rabs (val D) <= 2). { replace (val D) with ((1 - rho) + (val D - (1 - rho))) by ring. eapply Rle_trans; [apply Rabs_triang|]. assert (Rabs (1 - rho) <= 1) by (apply Rabs_le; lra). nra. }
      set (V := val D) in *. assert (PV : 0 < Rabs V) by (apply Rabs_pos_lt, D0).
      (* r = R / D *)
      assert (MV : mg 54 (Rabs V)). { split; [exact LD|]. eapply Rle_trans; [exact UD|]. replace 2 with (2 ^ 1) at 1 by ring. apply Rle_pow; [lra|lia]. }
      assert (MRD : mg 154 (X / Rabs V)) by (apply (mg_mul 100 54); [exact MR|apply mg_inv; exact MV]).
      assert (AV : Rabs (X / V) = X / Rabs V) by (unfold Rdiv; rewrite Rabs_mult, Rabs_Rinv, (Rabs_right X) by lra; reflexivity).
      destruct (div_ok R D FR FD D0) as [Fr (d1 & e1 & Hd1 & He1 & Er)].
      { fold X V. rewrite AV. assert (H := mg_top 154 _ MRD ltac:(lia)). apply mid_big in H. assert (HP := mg_pos _ _ MRD). lra. }
      fold X V in Er. set (r := SFdiv 53 1024 R D) in *. assert (PXV := mg_pos _ _ MRD). assert (Hr : Rabs (val r - X / V) <= ww * (X / Rabs V)).
      { rewrite Er. replace (X / V * (1 + d1) + e1 - X / V) with (X / V * d1 + e1) by ring. eapply Rle_trans; [apply Rabs_triang|]. rewrite Rabs_mult, AV.
        assert (eta <= ww / 1000 * (X / Rabs V)) by (apply eta_small; apply (mg_le 154); [lia|exact MRD]).
        assert (X / Rabs V * Rabs d1 <= X / Rabs V * uu) by (apply Rmult_le_compat_l; lra). rewrite UW in H0. nra. }
      assert (Lr : X / Rabs V * (1 - / 1000000) <= Rabs (val r)).
      { assert (T := Rabs_triang_inv (X / V) (X / V - val r)). replace (X / V - (X / V - val r)) with (val r) in T by ring. rewrite (Rabs_minus_sym (X / V)), AV in T. nra. }
      assert (r0 : val r <> 0). { intros E. rewrite E, Rabs_R0 in Lr. nra. }
      (* 1 / r *)
      assert (Vr : Rabs (/ val r) <= Rabs V / X * (1 + / 100000)).
      { rewrite Rabs_Rinv by auto. replace (Rabs V / X * (1 + / 100000)) with (/ (X / Rabs V * (/ (1 + / 100000)))) by (field; lra). apply Rinv_le_contravar; [|eapply Rle_trans; [|exact Lr]].
        - apply Rmult_lt_0_compat; [exact PXV|lra].
        - apply Rmult_le_compat_l; lra. }
      assert (MVX : mg 154 (Rabs V / X)). { replace (Rabs V / X) with (/ (X / Rabs V)) by (field; lra). now apply mg_inv. }
      destruct (div_ok (sf_ofZ 1) r F1 Fr r0) as [Fi (d2 & e2 & Hd2 & He2 & Ei)].
      { rewrite E1. unfold Rdiv. rewrite Rmult_1_l. eapply Rle_trans; [exact Vr|]. assert (H := mg_top 154 _ MVX ltac:(lia)). apply mid_big in H. assert (HP := mg_pos _ _ MVX). lra. }
      rewrite E1 in Ei. set (inv := SFdiv 53 1024 (sf_ofZ 1) r) in *. split; [exact Fi|split; [exact Bx|]]. rewrite Ei.
      assert (Di : Rabs (/ val r - V / X) <= ww * (1 + / 1000) * (Rabs V / X)).
      { replace (/ val r - V / X) with ((X / V - val r) * (V / X) * / val r) by (field; lra). rewrite !Rabs_mult. rewrite (Rabs_minus_sym (X / V)).
        assert (AVX : Rabs (V / X) = Rabs V / X) by (unfold Rdiv; rewrite Rabs_mult, (Rabs_right (/ X)) by lra; reflexivity). rewrite AVX. assert (HP := mg_pos _ _ MVX).
        apply Rle_trans with (ww * (X / Rabs V) * (Rabs V / X) * (Rabs V / X * (1 + / 100000))).
        - apply Rmult_le_compat; [apply Rmult_le_pos; [apply Rabs_pos|lra]|apply Rabs_pos| |exact Vr]. apply Rmult_le_compat_r; lra.
        - replace (ww * (X / Rabs V) * (Rabs V / X) * (Rabs V / X * (1 + / 100000))) with (ww * (1 + / 100000) * (Rabs V / X)) by (field; lra). apply Rmult_le_compat_r; [lra|]. nra. }
      assert (Dv : Rabs (V / X - (/ X - / C)) <= 5 * ww * / X).
      { rewrite Ex. replace (V / X - (1 - rho) * / X) with ((V - (1 - rho)) * / X) by (field; lra). rewrite Rabs_mult, (Rabs_right (/ X)) by lra. apply Rmult_le_compat_r; lra. }
      replace (1 / val r * (1 + d2) + e2 - (/ X - / C)) with ((/ val r - V / X) + (V / X - (/ X - / C)) + / val r * d2 + e2) by (unfold Rdiv; ring).
      eapply Rle_trans; [apply Rabs_triang|]. eapply Rle_trans; [apply Rplus_le_compat; [eapply Rle_trans; [apply Rabs_triang|apply Rplus_le_compat; [apply Rabs_triang|rewrite Rabs_mult; apply Rle_refl]]|exact He2]|].
      assert (VX2 : Rabs V / X <= 2 * / X) by (unfold Rdiv; apply Rmult_le_compat_r; lra).
      assert (Et : eta <= ww / 1000 * / X) by (apply eta_small; apply (mg_le 100); [lia|apply mg_inv; exact MR]).
      assert (Z : Rabs (/ val r) * Rabs d2 <= Rabs V / X * (1 + / 100000) * (ww / 2)). { rewrite <- UW. apply Rmult_le_compat; auto using Rabs_pos. }
      assert (Z2 : ww * (1 + / 1000) * (Rabs V / X) <= ww * (1 + / 1000) * (2 * / X)) by (apply Rmult_le_compat_l; nra).
      assert (Z3 : Rabs V / X * (1 + / 100000) * (ww / 2) <= 2 * / X * (1 + / 100000) * (ww / 2)) by (apply Rmult_le_compat_r; [lra|]; apply Rmult_le_compat_r; lra).
      assert (P0 : 0 < ww * / X) by now apply Rmult_lt_0_compat.
      assert (Y1 : ww * (1 + / 1000) * (2 * / X) = (2 + / 500) * (ww * / X)) by (field; lra).
      assert (Y2 : 2 * / X * (1 + / 100000) * (ww / 2) = (1 + / 100000) * (ww * / X)) by (field; lra).
      assert (Y3 : ww / 1000 * / X = / 1000 * (ww * / X)) by (field; lra).
      lra.
Qed.

(** ** The horizon radii *)
Lemma ap_two m : fin m -> 0 < val m -> mid (2 * val m) -> ap (SFmul 53 1024 (sf_ofZ 2) m) (2 * val m) (2 * val m) 1.
Proof.
  intros F P M. apply (ap_weak _ (2 * val m) _ (2 * val m) _ (0 + 0 + 1)); [|reflexivity|lra|lra].
  apply ap_mul; [lra|lra|exact M|exact (ap_ofZ 2 ltac:(lia))|]. apply ap_exact; [exact F|]. rewrite Rabs_right; lra.
Qed.

Definition horp (m a : spec_float) : spec_float :=
  if SFltb (SFabs (SFsub 53 1024 m (SFabs a))) t16 then m
  else if SFltb (SFabs a) t16 then SFmul 53 1024 (sf_ofZ 2) m
  else SFadd 53 1024 m (SFsqrt 53 1024 (SFmul 53 1024 (SFsub 53 1024 m a) (SFadd 53 1024 m a))).
Definition horm (m a : spec_float) : spec_float :=
  if SFltb (SFabs (SFsub 53 1024 m (SFabs a))) t16 then m else SFdiv 53 1024 (SFmul 53 1024 a a) (horp m a).

(** spins that do not lie within the code's tolerances of the two special cases, or are special cases *)
Definition spin_clear (m a : R) : Prop := Rabs a = m \/ (2 / 10 ^ 16 <= m - Rabs a /\ (a = 0 \/ 2 / 10 ^ 16 <= Rabs a)).

Lemma t16_num : val t16 < 15 / 10 / 10 ^ 16.
Proof. destruct t16_ok as (_ & [_ H] & _). rewrite (pow_IZR 10) in *. change (10 ^ Z.of_nat 16)%Z with 10000000000000000%Z in *. lra. Qed.

Lemma sqrt_pert d : Rabs d <= / 2 -> Rabs (sqrt (1 + d) - 1) <= Rabs d.
Proof.
  intros H. assert (H' := Rabs_le_between _ _ H). assert (S0 := sqrt_pos (1 + d)). assert (E := sqrt_def (1 + d) ltac:(lra)). set (s := sqrt (1 + d)) in *.
  assert (F : (s - 1) * (s + 1) = d) by nra. rewrite <- F, Rabs_mult. rewrite (Rabs_right (s + 1)) by lra. assert (P := Rabs_pos (s - 1)). nra.
Qed.

Section Hor.
Variables m a : spec_float.
Hypotheses (Fm : fin m) (Fa : fin a) (Mm : mg 60 (val m)) (HA : Rabs (val a) <= val m) (HS : spin_clear (val m) (val a)).
Let Pm : 0 < val m. Proof. exact (mg_pos _ _ Mm). Qed.

Lemma small_big x : Rabs x <= 4 * val m -> Rabs x <= big.
Proof. intros H. eapply Rle_trans; [exact H|]. apply mid_big. apply (mg_top 60); [exact Mm|lia]. Qed.

Lemma gap_cases : (Rabs (val a) = val m /\ SFltb (SFabs (SFsub 53 1024 m (SFabs a))) t16 = true) \/
  (2 / 10 ^ 16 <= val m - Rabs (val a) /\ (val a = 0 \/ 2 / 10 ^ 16 <= Rabs (val a)) /\ SFltb (SFabs (SFsub 53 1024 m (SFabs a))) t16 = false).
Proof.
  destruct (abs_ok a Fa) as [FA EA]. assert (PA := Rabs_pos (val a)).
  destruct (sub_ok m (SFabs a) Fm FA) as [FS (d & Hd & ES)]. { rewrite EA. apply small_big. apply Rabs_le. lra. }
  destruct (abs_ok _ FS) as [FB EB]. destruct t16_ok as (FT & [T0 T1] & _). assert (TN := t16_num). assert (P54 := Rinv_0_lt_compat _ (pow2_pos 54)).
  rewrite EA in ES. assert (UW := ww_uu). assert (W := ww_small). assert (Pw := ww_pos).
  destruct HS as [E|[G1 G2]]; [left|right].
  - split; [exact E|]. apply lt_true; auto. rewrite EB, ES, E. rewrite Rminus_eq_0, Rmult_0_l, Rabs_R0. lra.
  - split; [exact G1|split; [exact G2|]]. apply lt_false; auto. rewrite EB, ES, Rabs_mult. assert (P16 : 0 < / 10 ^ 16) by (apply Rinv_0_lt_compat, pow_lt; lra).
    assert (Hd' : Rabs d <= / 8) by lra. apply Rabs_le_between in Hd'. rewrite (Rabs_right (val m - _)), (Rabs_right (1 + d)) by (unfold Rdiv in *; lra).
    unfold Rdiv in *. nra.
Qed.

Lemma root_ok : 2 / 10 ^ 16 <= val m - Rabs (val a) ->
  ap (SFsqrt 53 1024 (SFmul 53 1024 (SFsub 53 1024 m a) (SFadd 53 1024 m a))) (sqrt (val m ^ 2 - val a ^ 2)) (val m) 3.
Proof.
  intros G. set (M := val m) in *. set (A := val a) in *. assert (P16 : 0 < / 10 ^ 16) by (apply Rinv_0_lt_compat, pow_lt; lra). assert (UW := ww_uu). assert (W := ww_small). assert (Pw := ww_pos).
  assert (HA' := Rabs_le_between _ _ HA). assert (Lo : 2 / 10 ^ 16 <= M - A /\ 2 / 10 ^ 16 <= M + A). { unfold Rabs in G. destruct (Rcase_abs A); lra. }
  unfold Rdiv in *. assert (Hi : M - A <= 2 * M /\ M + A <= 2 * M) by lra. assert (Pp : 0 < (M - A) * (M + A)) by (apply Rmult_lt_0_compat; lra).
  destruct (sub_ok m a Fm Fa) as [FS (d1 & Hd1 & ES)]. { apply small_big. fold M A. apply Rabs_le. lra. }
  destruct (add_ok m a Fm Fa) as [FP (d2 & Hd2 & EP)]. { apply small_big. fold M A. apply Rabs_le. lra. }
  fold M A in ES, EP. set (s := SFsub 53 1024 m a) in *. set (p := SFadd 53 1024 m a) in *.
  assert (U1 : uu <= / 1000000) by lra. assert (Hd1' := Rabs_le_between _ _ Hd1). assert (Hd2' := Rabs_le_between _ _ Hd2).
  assert (L16 : / 2 ^ 60 <= / 10 ^ 16). { apply Rinv_le_contravar; [apply pow_lt; lra|]. rewrite (pow_IZR 10), (pow_IZR 2). apply IZR_le. vm_compute. discriminate. }
  assert (MP : mg 150 ((M - A) * (M + A))).
  { apply (mg_le 122); [lia|]. apply (mg_mul 61 61).
    - split; [|destruct Mm as [_ H]; fold M in H; replace (2 ^ 61) with (2 * 2 ^ 60) by ring; lra]. apply Rle_trans with (/ 2 ^ 60); [apply Rinv_le_contravar; [apply pow2_pos|apply Rle_pow; [lra|lia]]|lra].
    - split; [|destruct Mm as [_ H]; fold M in H; replace (2 ^ 61) with (2 * 2 ^ 60) by ring; lra]. apply Rle_trans with (/ 2 ^ 60); [apply Rinv_le_contravar; [apply pow2_pos|apply Rle_pow; [lra|lia]]|lra]. }
  assert (Ev : val s * val p = (M - A) * (M + A) * ((1 + d1) * (1 + d2))) by (rewrite ES, EP; ring).
  assert (Q12 : Rabs ((1 + d1) * (1 + d2) - 1) <= (1 + / 100) * ww) by (apply Rabs_le; nra).
  assert (Q12' := Rabs_le_between _ _ Q12).
  destruct (mul_ok s p FS FP) as [FM (d3 & e3 & Hd3 & He3 & EM)].
  { rewrite Ev, Rabs_mult, (Rabs_right ((M - A) * (M + A))) by lra. eapply Rle_trans; [|apply mid_big; apply (mg_top 150); [exact MP|lia]]. rewrite Rmult_comm. apply Rmult_le_compat_r; [lra|]. apply Rabs_le. lra. }
  set (t := SFmul 53 1024 s p) in *. assert (Hd3' := Rabs_le_between _ _ Hd3).
  assert (Et : eta <= ww / 1000 * ((M - A) * (M + A))) by (apply eta_small; apply (mg_le 150); [lia|exact MP]).
  set (N := (M - A) * (M + A)) in *. assert (EN : M ^ 2 - A ^ 2 = N) by (unfold N; ring). rewrite EN.
  set (de := (val t - N) / N). assert (Edel : val t = N * (1 + de)) by (unfold de; field; lra).
  assert (Dd : Rabs de <= 2 * ww).
  { unfold de. unfold Rdiv. rewrite Rabs_mult, (Rabs_right (/ N)) by (apply Rle_ge, Rlt_le, Rinv_0_lt_compat, Pp). apply Rmult_le_reg_r with N; [exact Pp|]. rewrite Rmult_assoc, Rinv_l, Rmult_1_r by lra.
    rewrite EM, Ev. set (q := (1 + d1) * (1 + d2)) in *. replace (N * q * (1 + d3) + e3 - N) with (N * (q * (1 + d3) - 1) + e3) by ring. eapply Rle_trans; [apply Rabs_triang|].
    rewrite Rabs_mult, (Rabs_right N) by lra. assert (Rabs (q * (1 + d3) - 1) <= (3 / 2 + / 10) * ww) by (apply Rabs_le; nra). nra. }
  assert (Dd' := Rabs_le_between _ _ Dd).
  assert (Pt : 0 <= val t) by (rewrite Edel; apply Rmult_le_pos; lra).
  assert (FQ := sqrt_fin t FM Pt). destruct (sqrt_val t (proj1 FM)) as (d4 & e4 & Hd4 & He4 & EQ).
  assert (SN := sqrt_pos N). assert (SM : sqrt N <= M). { rewrite <- (sqrt_pow2 M) by lra. apply sqrt_le_1_alt. rewrite <- EN. nra. }
  assert (Em : eta <= ww / 1000 * M) by (apply eta_small; apply (mg_le 60); [lia|exact Mm]).
  split; [exact FQ|split; [rewrite Rabs_right; lra|]]. rewrite EQ, Edel, sqrt_mult_alt by lra.
  assert (SP := sqrt_pert de ltac:(lra)). set (g := sqrt (1 + de)) in *. assert (SP' : Rabs (g - 1) <= 2 * ww) by lra. apply Rabs_le_between in SP'. assert (Hd4' := Rabs_le_between _ _ Hd4).
  replace (sqrt N * g * (1 + d4) + e4 - sqrt N) with (sqrt N * (g * (1 + d4) - 1) + e4) by ring. eapply Rle_trans; [apply Rabs_triang|].
  rewrite Rabs_mult, (Rabs_right (sqrt N)) by lra. assert (B : Rabs (g * (1 + d4) - 1) <= (5 / 2 + / 10) * ww) by (apply Rabs_le; nra).
  assert (sqrt N * Rabs (g * (1 + d4) - 1) <= M * ((5 / 2 + / 10) * ww)) by (apply Rmult_le_compat; auto using Rabs_pos). nra.
Qed.

Lemma mid_m c : / 1000 <= c <= 1000 -> mid (c * val m).
Proof. intros C. apply (mg_mid (10 + 60)); [|cbn; lia]. apply mg_mul; [now apply mg_lit|exact Mm]. Qed.

Lemma horp_ok : ap (horp m a) (r_plus (val m) (val a)) (2 * val m) 4.
Proof.
  unfold horp, r_plus. destruct gap_cases as [[E ->]|(G & Ca & ->)].
  - replace (val m ^ 2 - val a ^ 2) with 0. 2:{ rewrite <- E. rewrite <- (pow2_abs (val a)). ring. }
    rewrite sqrt_0, Rplus_0_r. apply (ap_weak _ (val m) _ (val m) _ 0); [|reflexivity|lra|lra]. apply ap_exact; [exact Fm|]. rewrite Rabs_right; lra.
  - destruct (abs_ok a Fa) as [FA EA]. destruct t16_ok as (FT & [T0 T1] & _). assert (P54 := Rinv_0_lt_compat _ (pow2_pos 54)). assert (TN := t16_num).
    assert (P16 : 0 < / 10 ^ 16) by (apply Rinv_0_lt_compat, pow_lt; lra). destruct Ca as [A0|A1].
    + rewrite lt_true; auto; [|rewrite EA, A0, Rabs_R0; lra]. rewrite A0. replace (val m ^ 2 - 0 ^ 2) with (val m ^ 2) by ring. rewrite sqrt_pow2 by lra.
      apply (ap_weak _ (2 * val m) _ (2 * val m) _ 1); [|ring|lra|lra]. apply ap_two; [exact Fm|exact Pm|apply mid_m; lra].
    + rewrite lt_false; auto; [|rewrite EA; unfold Rdiv in *; lra].
      assert (H := root_ok G). replace 4 with (3 + 1) by ring. replace (2 * val m) with (val m + val m) by ring.
      assert (AB : val m + val m <= 2 ^ 1000). { assert (H2 := mid_m 2 ltac:(lra)). destruct H2 as [_ H2]. lra. }
      assert (Am : ap m (val m) (val m) 0) by (apply ap_exact; [exact Fm|rewrite Rabs_right; lra]).
      assert (Q := ap_add m _ _ _ _ _ 0 3 ltac:(lra) ltac:(lra) AB Am H). rewrite Rmax_right in Q by lra. exact Q.
Qed.
Lemma rp_ge : val m <= r_plus (val m) (val a).
Proof. unfold r_plus. assert (H := sqrt_pos (val m ^ 2 - val a ^ 2)). lra. Qed.
Lemma rm_eq : r_minus (val m) (val a) = val a ^ 2 / r_plus (val m) (val a).
Proof.
  assert (H := rp_ge). assert (P := Pm). assert (N : 0 <= val m ^ 2 - val a ^ 2). { rewrite <- (pow2_abs (val a)). assert (Q := Rabs_pos (val a)). nra. }
  apply Rmult_eq_reg_r with (r_plus (val m) (val a)); [|lra]. unfold Rdiv. rewrite Rmult_assoc, Rinv_l, Rmult_1_r by lra.
  unfold r_minus, r_plus. assert (E := sqrt_def _ N). set (s := sqrt _) in *. nra.
Qed.
Lemma horm_ok : ap (horm m a) (r_minus (val m) (val a)) (val m) 11.
Proof.
  assert (P := Pm). unfold horm. destruct gap_cases as [[E H]|(G & Ca & H)].
  - rewrite H. unfold r_minus. replace (val m ^ 2 - val a ^ 2) with 0. 2:{ rewrite <- E. rewrite <- (pow2_abs (val a)). ring. }
    rewrite sqrt_0, Rminus_0_r. apply (ap_weak _ (val m) _ (val m) _ 0); [|reflexivity|lra|lra]. apply ap_exact; [exact Fm|]. rewrite Rabs_right; lra.
  - rewrite H. rewrite rm_eq. apply (ap_weak _ (val a ^ 2 / r_plus (val m) (val a)) _ (val m * val m / val m) _ (1 + 4 * 2 + 2)); [|reflexivity|apply Req_le; field; lra|apply Req_le; field; lra].
    apply (ap_divg _ _ _ _ (val m * val m) (2 * val m) (val m) 1 4 2); [lra|lra|split; [exact P|exact rp_ge]|lra|lra| | |exact horp_ok].
    + replace (val m * val m / val m) with (1 * val m) by (field; lra). apply mid_m; lra.
    + apply (ap_weak _ (val a * val a) _ (val m * val m) _ (0 + 0 + 1)); [|ring|lra|lra].
      apply ap_mul; [lra|lra| |apply ap_exact; auto|apply ap_exact; auto]. apply (mg_mid (60 + 60)); [now apply mg_mul|cbn; lia].
Qed.
End Hor.

(** ** The coefficients of the evolution equation at one node *)
Lemma ap_pow2 x r A k : 0 <= k <= 900 -> mid (A * A) -> ap x r A k -> ap (SFmul 53 1024 x x) (r ^ 2) (A * A) (k + k + 1).
Proof. intros K M H. replace (r ^ 2) with (r * r) by ring. now apply ap_mul. Qed.

Lemma ap_pow2l x r A k : ap x r A k -> 0 <= k <= 900 -> mid (A * A) -> ap (SFmul 53 1024 x x) (r ^ 2) (A * A) (k + k + 1).
Proof. intros. now apply ap_pow2. Qed.
Lemma ap_addr x y r s A B j k : ap x r A j -> ap y s B k -> 0 <= j <= k -> k <= 900 -> A + B <= 2 ^ 1000 ->
  ap (SFadd 53 1024 x y) (r + s) (A + B) (k + 1).
Proof. intros HX HY K J AB. assert (H := ap_add x y r s A B j k ltac:(lra) ltac:(lra) AB HX HY). rewrite Rmax_right in H by lra. exact H. Qed.

Ltac mgt := eapply mg_mid; [unfold Rdiv; repeat first [eassumption | apply mg_lit; lra | eapply mg_mul | eapply mg_inv] | cbn; lia].

Section Co.
Variables (m a ix c : spec_float) (x S : R).
Let M := val m. Let A := val a. Let C := val c.
Hypotheses (Fm : fin m) (Fa : fin a) (Fc : fin c) (Mm : mg 60 M) (HA : Rabs A <= M) (HS : spin_clear M A) (HC : Rabs C <= 1).
Hypotheses (MS : mg 65 S) (HX : ap ix x S 10) (U : M * S <= 5 / 4) (X0 : - / 1000 <= M * x).

Let Pm : 0 < M. Proof. exact (mg_pos _ _ Mm). Qed.
Let PS : 0 < S. Proof. exact (mg_pos _ _ MS). Qed.
Let x1 : Rabs x <= S. Proof. exact (proj1 (proj2 HX)). Qed.
Let mx1 : Rabs (M * x) <= 5 / 4.
Proof. assert (P := Pm). rewrite Rabs_mult, (Rabs_right M) by lra. eapply Rle_trans; [|exact U]. apply Rmult_le_compat_l; [lra|exact x1]. Qed.
Let PU : 0 < M * S. Proof. apply Rmult_lt_0_compat; [exact Pm|exact PS]. Qed.

Let am : ap m M M 0. Proof. assert (P := Pm). apply ap_exact; [exact Fm|]. fold M. rewrite Rabs_right; lra. Qed.
Let aa : ap a A M 0. Proof. now apply ap_exact. Qed.
Let ac : ap c C 1 0. Proof. now apply ap_exact. Qed.
Let a1 : ap (sf_ofZ 1) 1 1 0. Proof. exact (ap_ofZ 1 ltac:(lia)). Qed.
Let a2 : ap (sf_ofZ 2) 2 2 0. Proof. exact (ap_ofZ 2 ltac:(lia)). Qed.
Let a4 : ap (sf_ofZ 4) 4 4 0. Proof. exact (ap_ofZ 4 ltac:(lia)). Qed.
Let ah : ap (sf_dec 5 (-1)) (1 / 2) (1 / 2) 1.
Proof. apply (ap_weak _ (5 / 10) _ (5 / 10) _ 1); [exact (ap_q 5 10 ltac:(lia) ltac:(lia))|lra|lra|lra]. Qed.

Definition xSigma : R := 1 + x ^ 2 * A ^ 2 * C ^ 2.
Definition xw : R := 1 + 2 * M * x / xSigma.
Definition xDelta : R := 1 - 2 * M * x + A ^ 2 * x ^ 2.

Lemma xSigma_ge : 1 <= xSigma.
Proof. unfold xSigma. assert (H := pow2_ge_0 (x * A * C)). nra. Qed.
Lemma xSigma_le : xSigma <= 41 / 16.
Proof.
  unfold xSigma. assert (E : x ^ 2 * A ^ 2 * C ^ 2 = (Rabs A * Rabs x) ^ 2 * Rabs C ^ 2) by (rewrite Rpow_mult_distr, !pow2_abs; ring). rewrite E.
  assert (B : Rabs A * Rabs x <= 5 / 4). { apply Rle_trans with (M * Rabs x); [apply Rmult_le_compat_r; [apply Rabs_pos|exact HA]|]. assert (H := mx1). assert (P := Pm). rewrite Rabs_mult, (Rabs_right M) in H by lra. exact H. }
  assert (B0 : 0 <= Rabs A * Rabs x) by (apply Rmult_le_pos; apply Rabs_pos). assert (C0 := Rabs_pos C).
  assert ((Rabs A * Rabs x) ^ 2 <= 25 / 16) by nra. assert (0 <= Rabs C ^ 2 <= 1) by nra. assert (0 <= (Rabs A * Rabs x) ^ 2) by apply pow2_ge_0. nra.
Qed.
Lemma xw_ge : 499 / 500 <= xw.
Proof.
  unfold xw. assert (S1 := xSigma_ge). assert (I := Rinv_0_lt_compat xSigma ltac:(lra)). assert (I1 : / xSigma <= 1) by (rewrite <- Rinv_1; apply Rinv_le_contravar; lra).
  unfold Rdiv. replace (2 * M * x * / xSigma) with (2 * (M * x) * / xSigma) by ring. set (y := M * x) in *. set (i := / xSigma) in *. nra.
Qed.

Definition fSigma := SFadd 53 1024 (sf_ofZ 1) (SFmul 53 1024 (SFmul 53 1024 (SFmul 53 1024 ix ix) (SFmul 53 1024 a a)) (SFmul 53 1024 c c)).
Let M2 : mg 120 (M * M). Proof. now apply (mg_mul 60 60). Qed.
Let S2 : mg 130 (S * S). Proof. now apply (mg_mul 65 65). Qed.

Lemma ax2 : ap (SFmul 53 1024 ix ix) (x ^ 2) (S * S) 21.
Proof. apply (ap_le _ _ _ (10 + 10 + 1)); [lra|]. apply ap_pow2; [lra|mgt|exact HX]. Qed.
Lemma aa2 : ap (SFmul 53 1024 a a) (A ^ 2) (M * M) 1.
Proof. apply (ap_le _ _ _ (0 + 0 + 1)); [lra|]. apply ap_pow2; [lra|mgt|exact aa]. Qed.
Lemma fSigma_ok : ap fSigma xSigma (41 / 16) 26.
Proof.
  assert (P := PU). assert (H1 : ap (SFmul 53 1024 (SFmul 53 1024 ix ix) (SFmul 53 1024 a a)) (x ^ 2 * A ^ 2) (S * S * (M * M)) 23).
  { apply (ap_le _ _ _ (21 + 1 + 1)); [lra|]. apply ap_mul; [lra|lra|mgt|exact ax2|exact aa2]. }
  assert (H2 : ap (SFmul 53 1024 (SFmul 53 1024 ix ix) (SFmul 53 1024 a a)) (x ^ 2 * A ^ 2) (25 / 16) 23).
  { assert (S * S * (M * M) <= 25 / 16) by nra. eapply ap_weak; [exact H1|reflexivity|lra|lra]. }
  assert (H3 : ap (SFmul 53 1024 c c) (C ^ 2) 1 1). { apply (ap_weak _ (C ^ 2) _ (1 * 1) _ (0 + 0 + 1)); [|reflexivity|lra|lra]. apply ap_pow2; [lra|apply mid_lit; lra|exact ac]. }
  assert (H4 : ap (SFmul 53 1024 (SFmul 53 1024 (SFmul 53 1024 ix ix) (SFmul 53 1024 a a)) (SFmul 53 1024 c c)) (x ^ 2 * A ^ 2 * C ^ 2) (25 / 16 * 1) (23 + 1 + 1)).
  { apply ap_mul; [lra|lra|apply mid_lit; lra|exact H2|exact H3]. }
  assert (H5 := ap_addr _ _ _ _ _ _ _ _ a1 H4 ltac:(lra) ltac:(lra) ltac:(apply lit_sum; lra)).
  eapply ap_weak; [exact H5|reflexivity|lra|lra].
Qed.
(** division by Sigma *)
Lemma over_Sigma y r B j : 0 <= j <= 800 -> mid B -> ap y r B j -> ap (SFdiv 53 1024 y fSigma) (r / xSigma) B (j + 69).
Proof.
  intros J MB H. assert (PB := mid_pos _ MB). apply (ap_weak _ (r / xSigma) _ (B / 1) _ (j + 26 * (41 / 16) + 2)); [|reflexivity|lra|nra].
  apply (ap_divg _ _ _ _ B (41 / 16) 1 j 26 (41 / 16)); try lra; [split; [lra|exact xSigma_ge]| |exact H|exact fSigma_ok].
  unfold Rdiv. rewrite Rinv_1, Rmult_1_r. exact MB.
Qed.
Lemma over_Sigmal y r B j : ap y r B j -> 0 <= j <= 800 -> mid B -> ap (SFdiv 53 1024 y fSigma) (r / xSigma) B (j + 69).
Proof. intros. now apply over_Sigma. Qed.
Definition f2mx := SFmul 53 1024 (SFmul 53 1024 (sf_ofZ 2) m) ix.
Lemma f2mx_ok : ap f2mx (2 * M * x) (2 * M * S) 12.
Proof.
  apply (ap_le _ _ _ (1 + 10 + 1)); [lra|]. apply ap_mul; [lra|lra|mgt| |exact HX].
  apply ap_two; [exact Fm|exact Pm|mgt].
Qed.
Lemma f2mx_lit : ap f2mx (2 * M * x) (5 / 2) 12.
Proof. assert (P := PU). eapply ap_weak; [exact f2mx_ok|reflexivity|lra|]. lra. Qed.
Definition fq := SFdiv 53 1024 f2mx fSigma.
Lemma fq_ok : ap fq (2 * M * x / xSigma) (5 / 2) 81.
Proof. apply (ap_le _ _ _ (12 + 69)); [lra|]. apply over_Sigma; [lra|apply mid_lit; lra|exact f2mx_lit]. Qed.
Definition fw := SFadd 53 1024 (sf_ofZ 1) fq.
Lemma fw_ok : ap fw xw (7 / 2) 82.
Proof.
  assert (H5 := ap_addr _ _ _ _ _ _ _ _ a1 fq_ok ltac:(lra) ltac:(lra) ltac:(apply lit_sum; lra)).
  eapply ap_weak; [exact H5|reflexivity|lra|lra].
Qed.
Definition fpre := SFdiv 53 1024 (sf_ofZ 1) fw.
Lemma fpre_ok : ap fpre (1 / xw) (101 / 100) 291.
Proof.
  apply (ap_weak _ (1 / xw) _ (1 / (499 / 500)) _ (0 + 82 * (352 / 100) + 2)); [|reflexivity|lra|lra].
  apply (ap_divg _ _ _ _ 1 (7 / 2) (499 / 500) 0 82 (352 / 100)); try lra; [split; [lra|exact xw_ge]|apply mid_lit; lra|exact a1|exact fw_ok].
Qed.
Lemma times_pre y r B j : 0 <= j <= 800 -> mid (B * (101 / 100)) -> ap y r B j -> ap (SFmul 53 1024 y fpre) (r / xw) (B * (101 / 100)) (j + 292).
Proof.
  intros J MB H. apply (ap_weak _ (r * (1 / xw)) _ (B * (101 / 100)) _ (j + 291 + 1)); [|field; assert (W := xw_ge); lra|lra|lra].
  apply ap_mul; [lra|lra|exact MB|exact H|exact fpre_ok].
Qed.
Lemma coef_q y r B j : 0 <= j <= 700 -> mid B -> mid (B * (101 / 100)) -> ap y r B j ->
  ap (SFmul 53 1024 (SFdiv 53 1024 y fSigma) fpre) (r / xSigma / xw) (B * (101 / 100)) (j + 361).
Proof. intros J M1 M' H. apply (ap_le _ _ _ (j + 69 + 292)); [lra|]. apply times_pre; [lra|exact M'|]. apply over_Sigma; auto; lra. Qed.

(** the seventeen coefficients *)
Lemma co_p : ap (SFmul 53 1024 (SFdiv 53 1024 (SFmul 53 1024 (SFmul 53 1024 (sf_ofZ 2) m) (SFmul 53 1024 ix ix)) fSigma) fpre)
  (2 * M * x ^ 2 / xSigma / xw) (2 * M * (S * S) * (101 / 100)) 384.
Proof.
  apply (ap_le _ _ _ (23 + 361)); [lra|]. apply coef_q; [lra|mgt|mgt|]. apply (ap_le _ _ _ (1 + 21 + 1)); [lra|].
  apply ap_mul; [lra|lra|mgt|apply ap_two; [exact Fm|exact Pm|mgt]|exact ax2].
Qed.
Lemma co_dr_f : ap (SFmul 53 1024 (SFdiv 53 1024 (SFmul 53 1024 (sf_ofZ 2) (SFsub 53 1024 ix (SFmul 53 1024 m (SFmul 53 1024 ix ix)))) fSigma) fpre)
  (2 * (x - M * x ^ 2) / xSigma / xw) (2 * (9 / 4 * S) * (101 / 100)) 385.
Proof.
  assert (P := PU). assert (P' := PS). assert (P'' := Pm).
  assert (H1 : ap (SFmul 53 1024 m (SFmul 53 1024 ix ix)) (M * x ^ 2) (5 / 4 * S) 22).
  { apply (ap_weak _ (M * x ^ 2) _ (M * (S * S)) _ (0 + 21 + 1)); [apply ap_mul; [lra|lra|mgt|exact am|exact ax2]|reflexivity| |]; nra. }
  assert (AB : S + 5 / 4 * S <= 2 ^ 1000). { apply Rle_trans with (9 / 4 * S); [lra|]. apply (mg_top (10 + 65)); [apply mg_mul; [apply mg_lit; lra|exact MS]|cbn; lia]. }
  assert (H2 := ap_subr _ _ _ _ _ _ _ _ HX H1 ltac:(lra) ltac:(lra) AB).
  apply (ap_le _ _ _ (24 + 361)); [lra|]. apply coef_q; [lra|mgt|mgt|]. apply (ap_le _ _ _ (0 + 23 + 1)); [lra|].
  apply ap_mul; [lra|lra|mgt|exact a2|]. eapply ap_weak; [exact H2|reflexivity|lra|nra].
Qed.
Lemma co_4mx : ap (SFmul 53 1024 (SFmul 53 1024 (sf_ofZ 4) m) ix) (4 * M * x) (4 * M * S) 12.
Proof.
  apply (ap_le _ _ _ (1 + 10 + 1)); [lra|]. apply ap_mul; [lra|lra|mgt| |exact HX].
  apply (ap_le _ _ _ (0 + 0 + 1)); [lra|]. apply ap_mul; [lra|lra|mgt|exact a4|exact am].
Qed.
Lemma co_dr_p : ap (SFmul 53 1024 (SFdiv 53 1024 (SFmul 53 1024 (SFmul 53 1024 (sf_ofZ 4) m) ix) fSigma) fpre)
  (4 * M * x / xSigma / xw) (4 * M * S * (101 / 100)) 373.
Proof. apply (ap_le _ _ _ (12 + 361)); [lra|]. apply coef_q; [lra|mgt|mgt|exact co_4mx]. Qed.
Definition fDelta := SFmul 53 1024 (SFsub 53 1024 (sf_ofZ 1) (SFmul 53 1024 (horp m a) ix)) (SFsub 53 1024 (sf_ofZ 1) (SFmul 53 1024 (horm m a) ix)).
Lemma xDelta_eq : xDelta = (1 - r_plus M A * x) * (1 - r_minus M A * x).
Proof.
  unfold xDelta, r_plus, r_minus. assert (N : 0 <= M ^ 2 - A ^ 2). { rewrite <- (pow2_abs A). assert (Q := Rabs_pos A). nra. }
  assert (E := sqrt_def _ N). set (s := sqrt _) in *. assert (E' : A ^ 2 = M ^ 2 - s * s) by lra. rewrite E'. ring.
Qed.
Lemma fDelta_ok : ap fDelta xDelta (63 / 8) 40.
Proof.
  assert (P := PU). rewrite xDelta_eq.
  assert (H1 : ap (SFmul 53 1024 (horp m a) ix) (r_plus M A * x) (5 / 2) 15).
  { apply (ap_weak _ (r_plus M A * x) _ (2 * M * S) _ (4 + 10 + 1)); [|reflexivity|lra|lra]. apply ap_mul; [lra|lra|mgt|now apply horp_ok|exact HX]. }
  assert (H2 : ap (SFmul 53 1024 (horm m a) ix) (r_minus M A * x) (5 / 4) 22).
  { apply (ap_weak _ (r_minus M A * x) _ (M * S) _ (11 + 10 + 1)); [|reflexivity|lra|lra]. apply ap_mul; [lra|lra|mgt|now apply horm_ok|exact HX]. }
  assert (G1 := ap_subr _ _ _ _ _ _ _ _ a1 H1 ltac:(lra) ltac:(lra) ltac:(apply lit_sum; lra)).
  assert (G2 := ap_subr _ _ _ _ _ _ _ _ a1 H2 ltac:(lra) ltac:(lra) ltac:(apply lit_sum; lra)).
  assert (G := ap_mull _ _ _ _ _ _ _ _ G1 G2 ltac:(lra) ltac:(lra) ltac:(apply mid_lit; lra)). eapply ap_weak; [exact G|reflexivity|lra|lra].
Qed.
Lemma co_dr_dr_f : ap (SFmul 53 1024 (SFdiv 53 1024 fDelta fSigma) fpre) (xDelta / xSigma / xw) 8 401.
Proof. apply (ap_weak _ (xDelta / xSigma / xw) _ (63 / 8 * (101 / 100)) _ (40 + 361)); [|reflexivity|lra|lra]. apply coef_q; [lra|apply mid_lit; lra|apply mid_lit; lra|exact fDelta_ok]. Qed.
Lemma co_dphi_dr_f : ap (SFmul 53 1024 (SFdiv 53 1024 (SFmul 53 1024 (SFmul 53 1024 (sf_ofZ 2) a) (SFmul 53 1024 ix ix)) fSigma) fpre)
  (2 * A * x ^ 2 / xSigma / xw) (2 * M * (S * S) * (101 / 100)) 384.
Proof.
  apply (ap_le _ _ _ (23 + 361)); [lra|]. apply coef_q; [lra|mgt|mgt|]. apply (ap_le _ _ _ (1 + 21 + 1)); [lra|].
  apply ap_mul; [lra|lra|mgt| |exact ax2]. apply (ap_le _ _ _ (0 + 0 + 1)); [lra|]. apply ap_mul; [lra|lra|mgt|exact a2|exact aa].
Qed.
Lemma co_lap_f : ap (SFmul 53 1024 (SFdiv 53 1024 (SFmul 53 1024 ix ix) fSigma) fpre) (x ^ 2 / xSigma / xw) (S * S * (101 / 100)) 382.
Proof. apply (ap_le _ _ _ (21 + 361)); [lra|]. apply coef_q; [lra|mgt|mgt|exact ax2]. Qed.
Lemma co_p_p : ap (SFmul 53 1024 (SFopp fw) fpre) (- 1) 4 374.
Proof.
  apply (ap_weak _ (- xw / xw) _ (7 / 2 * (101 / 100)) _ (82 + 292)); [|field; assert (W := xw_ge); lra|lra|lra].
  apply times_pre; [lra|apply mid_lit; lra|]. apply ap_opp, fw_ok.
Qed.
Lemma co_rho_vv : ap (SFmul 53 1024 (sf_dec 5 (-1)) fw) (1 / 2 * xw) (7 / 4) 84.
Proof. apply (ap_weak _ (1 / 2 * xw) _ (1 / 2 * (7 / 2)) _ (1 + 82 + 1)); [|reflexivity|lra|lra]. apply ap_mul; [lra|lra|apply mid_lit; lra|exact ah|exact fw_ok]. Qed.
Lemma co_rho_rr :
  ap (SFmul 53 1024 (sf_dec 5 (-1)) (SFsub 53 1024 (SFdiv 53 1024 (SFadd 53 1024 (SFadd 53 1024 (sf_ofZ 1) f2mx) (SFmul 53 1024 (SFmul 53 1024 a ix) (SFmul 53 1024 a ix))) fSigma)
     (SFdiv 53 1024 (SFmul 53 1024 (SFmul 53 1024 (sf_ofZ 4) m) ix) (SFadd 53 1024 f2mx fSigma))))
    (1 / 2 * ((1 + 2 * M * x + (A * x) ^ 2) / xSigma - 4 * M * x / (2 * M * x + xSigma))) (51 / 10) 157.
Proof.
  assert (P := PU).
  assert (H1 := ap_addr _ _ _ _ _ _ _ _ a1 f2mx_lit ltac:(lra) ltac:(lra) ltac:(apply lit_sum; lra)).
  assert (H2 : ap (SFmul 53 1024 a ix) (A * x) (5 / 4) 11).
  { apply (ap_weak _ (A * x) _ (M * S) _ (0 + 10 + 1)); [|reflexivity|lra|lra]. apply ap_mul; [lra|lra|mgt|exact aa|exact HX]. }
  assert (H3 := ap_pow2l _ _ _ _ H2 ltac:(lra) ltac:(apply mid_lit; lra)).
  assert (H4 := ap_addr _ _ _ _ _ _ _ _ H1 H3 ltac:(lra) ltac:(lra) ltac:(apply lit_sum; lra)).
  assert (H5 := over_Sigmal _ _ _ _ H4 ltac:(lra) ltac:(apply mid_lit; lra)).
  assert (H6 := ap_addr _ _ _ _ _ _ _ _ f2mx_lit fSigma_ok ltac:(lra) ltac:(lra) ltac:(apply lit_sum; lra)).
  assert (H7 : ap (SFmul 53 1024 (SFmul 53 1024 (sf_ofZ 4) m) ix) (4 * M * x) 5 12) by (eapply ap_weak; [exact co_4mx|reflexivity|lra|lra]).
  assert (H8 : ap (SFdiv 53 1024 (SFmul 53 1024 (SFmul 53 1024 (sf_ofZ 4) m) ix) (SFadd 53 1024 f2mx fSigma)) (4 * M * x / (2 * M * x + xSigma)) (5 / (499 / 500)) (12 + 27 * (509 / 100) + 2)).
  { apply (ap_divg _ _ _ _ 5 (5 / 2 + 41 / 16) (499 / 500)); try lra; [split; [lra|]|apply mid_lit; lra|exact H7|eapply ap_le; [|exact H6]; lra]. assert (G := xSigma_ge). lra. }
  assert (H9 := ap_subr _ _ _ _ _ _ _ _ H5 H8 ltac:(lra) ltac:(lra) ltac:(apply lit_sum; lra)).
  assert (HA0 := ap_mull _ _ _ _ _ _ _ _ ah H9 ltac:(lra) ltac:(lra) ltac:(apply mid_lit; lra)).
  eapply ap_weak; [exact HA0|reflexivity|lra|lra].
Qed.
Lemma co_rho_rphi : ap (SFdiv 53 1024 (SFmul 53 1024 a (SFmul 53 1024 ix ix)) fSigma) (A * x ^ 2 / xSigma) (M * (S * S)) 91.
Proof. apply (ap_le _ _ _ (22 + 69)); [lra|]. apply over_Sigma; [lra|mgt|]. apply (ap_le _ _ _ (0 + 21 + 1)); [lra|]. apply ap_mul; [lra|lra|mgt|exact aa|exact ax2]. Qed.
Lemma co_rho_sX : ap (SFdiv 53 1024 (SFmul 53 1024 (sf_dec 5 (-1)) (SFmul 53 1024 ix ix)) fSigma) (1 / 2 * x ^ 2 / xSigma) (1 / 2 * (S * S)) 92.
Proof. apply (ap_le _ _ _ (23 + 69)); [lra|]. apply over_Sigma; [lra|mgt|]. apply (ap_le _ _ _ (1 + 21 + 1)); [lra|]. apply ap_mul; [lra|lra|mgt|exact ah|exact ax2]. Qed.
End Co.
