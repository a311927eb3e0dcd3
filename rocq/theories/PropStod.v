(** C87: the numbers read from the parameter file. *)
From Coq Require Import Ascii String Reals SpecFloat Lra Lia.
From Flocq Require Import Core BinarySingleNaN Relative.
From Verif Require Import Base BaseLemmas Arith MParams MIo MFmt MSim PText PParams PropParams FmtSpec FpSpec Fp PFmt PFmt2 PStod PropFmt PropFmt2.
Local Open Scope R_scope.
#[local] Existing Instance Hp.
#[local] Existing Instance Hm.

(** ** Specification: the range of doubles *)
(** the smallest normal double, and the bound from which on numbers round to infinity *)
Definition tiny : R := / 2 ^ 1022.
Definition huge : R := 2 ^ 1024 - 2 ^ 970.

Lemma bp n : bpow radix2 (Z.of_nat n) = 2 ^ n.
Proof. rewrite bpow_powerRZ. change (IZR radix2) with 2. now rewrite <- pow_powerRZ. Qed.
Lemma b1024 : bpow radix2 1024 = 2 ^ 1024.
Proof. apply (bp 1024). Qed.
Lemma btiny : bpow radix2 (-1022) = tiny.
Proof. unfold tiny. rewrite <- (bp 1022). change (-1022)%Z with (- (1022))%Z. now rewrite bpow_opp. Qed.
Lemma rnd_fmt v : generic_format radix2 (SpecFloat.fexp 53 1024) (rnd v).
Proof. apply generic_format_round; [apply fexp_correct; exact Hp|apply valid_rnd_N]. Qed.
Lemma rnd_near v y : fin y -> Rabs (rnd v - v) <= Rabs (val y - v).
Proof.
  intros Hy. assert (V : Valid_exp (SpecFloat.fexp 53 1024)) by (apply fexp_correct; exact Hp).
  destruct (round_N_pt radix2 (SpecFloat.fexp 53 1024) (fun n => negb (Z.even n)) v) as (_ & B). apply B. now apply fin_format.
Qed.
Definition topd (s : bool) : spec_float := S754_finite s 9007199254740991 971.
Lemma topd_fin s : fin (topd s).
Proof. split; [destruct s; reflexivity|exact I]. Qed.
Lemma topd_val : val (topd false) = 2 ^ 1024 - 2 ^ 971 /\ val (topd true) = - (2 ^ 1024 - 2 ^ 971).
Proof.
  assert (E : IZR 9007199254740991 = 2 ^ 53 - 1) by lra. assert (P : powerRZ 2 971 = 2 ^ 971) by (symmetry; apply (pow_powerRZ 2 971)).
  assert (Q : 2 ^ 1024 = 2 ^ 53 * 2 ^ 971) by (rewrite <- pow_add; reflexivity).
  unfold topd. cbn [val]. rewrite P, Q. change (IZR (Z.pos 9007199254740991)) with (IZR 9007199254740991). rewrite E. generalize (2 ^ 971). intros z. split; ring.
Qed.
Lemma rnd_small v : Rabs v < huge -> Rabs (rnd v) < bpow radix2 1024.
Proof.
  intros H. rewrite b1024. unfold huge in H. assert (D : 2 ^ 971 = 2 * 2 ^ 970) by (rewrite (tech_pow_Rmult 2 970); reflexivity). assert (P : 0 < 2 ^ 970) by (apply pow_lt; lra).
  destruct topd_val as (V1 & V2). assert (VE : Valid_exp (SpecFloat.fexp 53 1024)) by (apply fexp_correct; exact Hp).
  destruct (Rle_or_lt (Rabs v) (2 ^ 1024 - 2 ^ 971)) as [L|L].
  - apply Rle_lt_trans with (2 ^ 1024 - 2 ^ 971); [|lra]. apply abs_round_le_generic; auto; [apply valid_rnd_N|]. rewrite <- V1. apply fin_format, topd_fin.
  - assert (T : Rabs (rnd v) <= Rabs v + Rabs (rnd v - v)).
    { replace (rnd v) with (v + (rnd v - v)) at 1 by ring. apply Rabs_triang. }
    destruct (Rle_or_lt 0 v) as [S|S].
    + pose proof (rnd_near v _ (topd_fin false)) as N. rewrite V1 in N. rewrite (Rabs_pos_eq v) in L, H, T by auto. rewrite (Rabs_left1 (_ - _ - v)) in N by lra. lra.
    + pose proof (rnd_near v _ (topd_fin true)) as N. rewrite V2 in N. rewrite (Rabs_left v) in L, H, T by auto. rewrite (Rabs_pos_eq (- _ - v)) in N by lra. lra.
Qed.
Lemma rnd_normal v : tiny <= Rabs v -> tiny <= Rabs (rnd v).
Proof.
  intros H. apply abs_round_ge_generic; [apply fexp_correct; exact Hp|apply valid_rnd_N| |exact H].
  rewrite <- btiny. apply generic_format_bpow. cbn. lia.
Qed.
Lemma fin_inj x y : fin x -> fin y -> val x = val y -> val x <> 0 -> x = y.
Proof.
  intros (Dx & Fx) (Dy & Fy) E N. destruct (double_B x Dx) as (a & ->). destruct (double_B y Dy) as (c & ->). rewrite !val_B in *. f_equal. apply B2R_inj; auto.
  - destruct a; cbn in *; try tauto; try (elim N; reflexivity).
  - rewrite E in N. destruct c; cbn in *; try tauto; try (elim N; reflexivity).
Qed.

Section Read.
Variable hex : bool -> text -> option spec_float.
(** Property: a decimal numeral in the range of normal doubles is read as a double nearest to the number it denotes;
    the relative error is at most 2^-53. *)
Theorem C87_nearest w v : decimal_text w v -> tiny <= Rabs v < huge -> exists x, stod64 hex w = Some x /\ fin x /\
  Rabs (val x - v) <= / 2 ^ 53 * Rabs v /\ forall y, fin y -> Rabs (val x - v) <= Rabs (val y - v).
Proof.
  intros H (L & U). pose proof (stod_decimal hex w v H) as R. pose proof (rnd_small v U) as RS. pose proof (rnd_normal v L) as RN. destruct (stod64 hex w) as [x|]; cbn [stod_result] in R.
  - destruct R as (Fx & Ex & _). exists x. split; auto. split; auto. rewrite Ex. split; [|intros; now apply rnd_near].
    apply Rle_trans with (/ 2 * bpow radix2 (-53 + 1) * Rabs v).
    + rewrite fexp_flt. apply relative_error_N_FLT; [exact Hp|]. change (-1074 + 53 - 1)%Z with (-1022)%Z. rewrite btiny. exact L.
    + rewrite uu_eq. apply Rle_refl.
  - exfalso. destruct R as [R|(R & _)]; [lra|]. rewrite btiny in R. lra.
Qed.
(** a numeral for zero is read as zero *)
Theorem C87_zero w : decimal_text w 0 -> exists x, stod64 hex w = Some x /\ fin x /\ val x = 0.
Proof.
  intros H. pose proof (stod_decimal hex w 0 H) as R. assert (R0 : rnd 0 = 0) by (apply round_0, valid_rnd_N). destruct (stod64 hex w) as [x|]; cbn [stod_result] in R; rewrite R0 in R.
  - exists x. intuition.
  - exfalso. rewrite Rabs_R0 in R. pose proof (bpow_gt_0 radix2 1024). intuition lra.
Qed.
(** numbers beyond the range of doubles are rejected (stod throws), and so are numbers below half the smallest normal
    double, unless they are doubles themselves *)
Theorem C87_too_large w v : decimal_text w v -> 2 ^ 1024 <= Rabs v -> stod64 hex w = None.
Proof.
  intros H L. pose proof (stod_decimal hex w v H) as R. destruct (stod64 hex w) as [x|]; auto. exfalso. destruct R as (Fx & Ex & _).
  assert (bpow radix2 1024 <= Rabs (rnd v)).
  { apply abs_round_ge_generic; [apply fexp_correct; exact Hp|apply valid_rnd_N|apply generic_format_bpow; cbn; lia|rewrite b1024; exact L]. }
  rewrite <- Ex in H0. destruct Fx as (D & Fi). destruct (double_B x D) as (b & ->). rewrite val_B in H0. pose proof (abs_B2R_lt_emax 53 1024 b). lra.
Qed.
Theorem C87_too_small w v : decimal_text w v -> v <> 0 -> Rabs v <= tiny / 2 ->
  (forall y, fin y -> val y = v -> exists x, stod64 hex w = Some x /\ fin x /\ val x = v) /\
  ((forall y, fin y -> val y <> v) -> stod64 hex w = None).
Proof.
  intros H N L. pose proof (stod_decimal hex w v H) as R. assert (T0 : 0 < tiny) by (rewrite <- btiny; apply bpow_gt_0).
  assert (RB : Rabs (rnd v) <= tiny / 2).
  { apply abs_round_le_generic; [apply fexp_correct; exact Hp|apply valid_rnd_N| |exact L]. replace (tiny / 2) with (bpow radix2 (-1023)); [apply generic_format_bpow; cbn; lia|].
    rewrite <- btiny. change (-1023)%Z with (-1022 + -1)%Z. rewrite bpow_plus. cbn [bpow]. change (IZR (Zpower_pos radix2 1)) with 2. lra. }
  assert (U : Rabs (rnd v) < bpow radix2 1024).
  { apply Rle_lt_trans with (1 := RB). apply Rlt_trans with tiny; [lra|]. rewrite <- btiny. apply bpow_lt. lia. }
  destruct (stod64 hex w) as [x|]; cbn [stod_result] in R; rewrite ?btiny in R; split.
  - intros y Hy E. exists x. destruct R as (R1 & R2 & [R3|[R3|R3]]); [contradiction|lra|]. rewrite R2, R3. auto.
  - intros K. exfalso. destruct R as (R1 & R2 & [R3|[R3|R3]]); [contradiction|lra|]. apply (K x); auto. now rewrite R2.
  - intros y Hy E. exfalso. destruct R as [R|(_ & R)]; [lra|]. apply R. apply round_generic; [apply valid_rnd_N|]. rewrite <- E. now apply fin_format.
  - auto.
Qed.

(** Property: a numeral that is nearer to the double x than to every other double (Python's repr and str produce such
    numerals) is read as exactly x. *)
Theorem C87_round_trip w v x : decimal_text w v -> fin x -> tiny <= Rabs v < huge -> val x <> 0 ->
  (forall y, fin y -> val y <> val x -> Rabs (v - val x) < Rabs (v - val y)) -> stod64 hex w = Some x.
Proof.
  intros H Fx B N K. destruct (C87_nearest w v H B) as (y & E & Fy & _ & Ny). rewrite E. f_equal. symmetry. apply fin_inj; auto.
  destruct (Req_dec (val x) (val y)) as [Q|Q]; auto. exfalso. specialize (K y Fy (fun Q' => Q (eq_sym Q'))). specialize (Ny x Fx). rewrite (Rabs_minus_sym v (val x)), (Rabs_minus_sym v (val y)) in K. lra.
Qed.
(** seventeen significant digits are enough: a numeral within 2^-54 of the normal double x is read as exactly x *)
Lemma gap x r : generic_format radix2 (SpecFloat.fexp 53 1024) x -> generic_format radix2 (SpecFloat.fexp 53 1024) r -> tiny <= x -> r <> x -> / 2 ^ 53 * x <= Rabs (r - x).
Proof.
  intros Fx Fr T N. assert (VE : Valid_exp (SpecFloat.fexp 53 1024)) by (apply fexp_correct; exact Hp). assert (T0 : 0 < tiny) by (rewrite <- btiny; apply bpow_gt_0).
  assert (U53 : / 2 ^ 53 = bpow radix2 (-53)) by (rewrite <- (bp 53); change (-53)%Z with (- (53))%Z; now rewrite bpow_opp).
  assert (UL : forall p, 0 < p -> generic_format radix2 (SpecFloat.fexp 53 1024) p -> / 2 ^ 53 * (p + ulp radix2 (SpecFloat.fexp 53 1024) p) <= ulp radix2 (SpecFloat.fexp 53 1024) p).
  { intros p Hp0 Fp. rewrite U53. pose proof (bpow_mag_gt radix2 p) as M. rewrite Rabs_pos_eq in M by lra. set (k := mag_val radix2 p (mag radix2 p)) in *.
    pose proof (id_p_ulp_le_bpow radix2 (SpecFloat.fexp 53 1024) p k Hp0 Fp M) as I. apply Rle_trans with (bpow radix2 (-53) * bpow radix2 k); [apply Rmult_le_compat_l; [apply bpow_ge_0|exact I]|].
    rewrite <- bpow_plus, ulp_neq_0 by lra. apply bpow_le. unfold cexp. fold k. unfold SpecFloat.fexp, SpecFloat.emin. lia. }
  destruct (Rlt_or_le x r) as [G|G].
  - pose proof (succ_le_lt radix2 (SpecFloat.fexp 53 1024) x r Fx Fr G) as S. rewrite succ_eq_pos in S by lra. pose proof (UL x ltac:(lra) Fx) as K. pose proof (ulp_ge_0 radix2 (SpecFloat.fexp 53 1024) x).
    rewrite Rabs_pos_eq by lra. assert (0 < / 2 ^ 53) by (apply Rinv_0_lt_compat, pow_lt; lra). nra.
  - assert (G' : r < x) by lra. pose proof (pred_ge_gt radix2 (SpecFloat.fexp 53 1024) r x Fr Fx G') as S. assert (P0 : 0 <= pred radix2 (SpecFloat.fexp 53 1024) x) by (apply pred_ge_0; auto; lra).
    pose proof (pred_plus_ulp radix2 (SpecFloat.fexp 53 1024) x ltac:(lra) Fx) as PP. rewrite Rabs_left by lra. set (p := pred radix2 (SpecFloat.fexp 53 1024) x) in *.
    assert (I53 : / 2 ^ 53 <= 1) by lra.
    destruct (Rle_lt_or_eq_dec 0 p P0) as [P1|P1].
    + assert (Fp : generic_format radix2 (SpecFloat.fexp 53 1024) p) by (apply generic_format_pred; auto). pose proof (UL p P1 Fp) as K. rewrite PP in K. lra.
    + rewrite <- P1 in *. apply Rle_trans with (1 * x); [apply Rmult_le_compat_r; lra|]. lra.
Qed.
Theorem C87_seventeen w v x : decimal_text w v -> fin x -> tiny <= Rabs (val x) -> tiny <= Rabs v < huge ->
  Rabs (v - val x) < / 2 ^ 54 * Rabs (val x) -> stod64 hex w = Some x.
Proof.
  intros H Fx T B L. assert (T0 : 0 < tiny) by (rewrite <- btiny; apply bpow_gt_0). assert (N : val x <> 0) by (intros E; rewrite E, Rabs_R0 in T; lra).
  assert (D : / 2 ^ 53 = 2 * / 2 ^ 54) by lra.
  apply (C87_round_trip w v x H Fx B N). intros y Fy Q. pose proof (fin_format x Fx) as Gx. pose proof (fin_format y Fy) as Gy.
  assert (GP : / 2 ^ 53 * Rabs (val x) <= Rabs (val y - val x)).
  { destruct (Rle_or_lt 0 (val x)) as [S|S].
    - rewrite Rabs_pos_eq in T |- * by auto. now apply gap.
    - rewrite (Rabs_left (val x)) in T |- * by auto. replace (val y - val x) with (- (- val y - - val x)) by ring. rewrite Rabs_Ropp. apply gap; auto using generic_format_opp. lra. }
  assert (TR : Rabs (val y - val x) <= Rabs (v - val x) + Rabs (v - val y)).
  { replace (val y - val x) with ((v - val x) + - (v - val y)) by ring. apply Rle_trans with (1 := Rabs_triang _ _). rewrite Rabs_Ropp. apply Rle_refl. }
  lra.
Qed.
(** Property: what is written to an output file and read back with stod differs from the original by at most
    7 10^-16 of it *)
Theorem C87_write_read x : fin x -> 2 * tiny <= Rabs (val x) <= 2 ^ 1023 -> exists y, stod64 hex (fmt16 x) = Some y /\ fin y /\ Rabs (val y - val x) <= 7 / 10 ^ 16 * Rabs (val x).
Proof.
  intros Fx (L & U). destruct (C86_nearest x Fx) as (v & H & _ & _ & E). assert (T0 : 0 < tiny) by (rewrite <- btiny; apply bpow_gt_0).
  assert (V1 : Rabs v <= Rabs (val x) + Rabs (v - val x)) by (replace v with (val x + (v - val x)) at 1 by ring; apply Rabs_triang).
  assert (V2 : Rabs (val x) <= Rabs v + Rabs (v - val x)) by (replace (val x) with (v + - (v - val x)) at 1 by ring; apply Rle_trans with (1 := Rabs_triang _ _); rewrite Rabs_Ropp; apply Rle_refl).
  assert (HU : 3 / 2 * 2 ^ 1023 < huge).
  { unfold huge. assert (2 ^ 1024 = 2 * 2 ^ 1023) by (rewrite (tech_pow_Rmult 2 1023); reflexivity). assert (2 ^ 1023 = 2 ^ 53 * 2 ^ 970) by (rewrite <- pow_add; reflexivity). assert (0 < 2 ^ 970) by (apply pow_lt; lra). lra. }
  assert (B : tiny <= Rabs v < huge) by lra.
  destruct (C87_nearest _ v H B) as (y & Ey & Fy & Err & _). exists y. split; auto. split; auto.
  apply Rle_trans with (Rabs (val y - v) + Rabs (v - val x)); [replace (val y - val x) with ((val y - v) + (v - val x)) by ring; apply Rabs_triang|].
  assert (U53 : / 2 ^ 53 <= 12 / 10 ^ 17) by lra. assert (Rabs (val y - v) <= 12 / 10 ^ 17 * Rabs v) by (apply Rle_trans with (1 := Err); apply Rmult_le_compat_r; [apply Rabs_pos|exact U53]). lra.
Qed.
(** it need not be the original, and the largest doubles are even rejected when read back *)
Theorem C87_write_read_refuted : (exists x y, fin x /\ stod64 hex (fmt16 x) = Some y /\ val y <> val x) /\ (exists x, fin x /\ stod64 hex (fmt16 x) = None).
Proof.
  split.
  - exists (S754_finite false (2 ^ 52 + 1)%positive (-52)), (S754_finite false (2 ^ 52)%positive (-52)). split; [split; [reflexivity|exact I]|]. split; [vm_compute; reflexivity|].
    unfold val. intros H. apply Rmult_eq_reg_r in H; [|apply powerRZ_NOR; lra]. rewrite !Rmult_1_l in H. apply eq_IZR in H. discriminate H.
  - exists (topd false). split; [apply topd_fin|]. vm_compute. reflexivity.
Qed.
(** integers survive *)
Theorem C87_integers n : (Z.abs n < 2 ^ 53)%Z -> exists x, stod64 hex (dec n) = Some x /\ fin x /\ val x = IZR n.
Proof.
  intros H. pose proof (C86_integers n H) as E. destruct (ofZ_ok n H) as (Fn & Vn). fold (sf_ofZ n) in *. pose proof (fmt16_value _ Fn) as D. rewrite E, Vn, dround_int in D by lia.
  assert (G : rnd (IZR n) = IZR n) by (apply round_generic; [apply valid_rnd_N|]; rewrite <- Vn; now apply fin_format).
  pose proof (stod_decimal hex _ _ D) as R. destruct (stod64 hex (dec n)) as [x|]; cbn [stod_result] in R.
  - exists x. rewrite G in R. intuition.
  - exfalso. rewrite G in R. destruct R as [R|(_ & R)]; [|congruence]. rewrite <- abs_IZR in R. assert (IZR (Z.abs n) < IZR (2 ^ 53)) by now apply IZR_lt.
    change (IZR (2 ^ 53)) with (bpow radix2 53) in H0. assert (bpow radix2 53 <= bpow radix2 1024) by (apply bpow_le; lia). lra.
Qed.

(** Property: with the launcher's file, in which every real parameter is written as a numeral that is nearer to the
    launcher's double than to any other double (or as a numeral for zero), the solver's parameters are those doubles. *)
Theorem C87_launched (AF : Arith spec_float) b attrs (z : string -> Z) (y : string -> spec_float) (t : string -> text) : attrs_ok attrs ->
  (forall k, In k size_keys -> In (txt k, Scalar (dec (z k))) attrs /\ (0 <= z k < 2 ^ 31)%Z) ->
  (forall k, In k int_keys -> In (txt k, Scalar (dec (z k))) attrs /\ (- 2 ^ 31 <= z k < 2 ^ 31)%Z) ->
  (forall k, In k real_keys -> fin (y k) /\ exists s v, In (txt k, Scalar s) attrs /\ solid s /\ decimal_text s v /\
     (v = 0 /\ val (y k) = 0 \/
      val (y k) <> 0 /\ tiny <= Rabs v < huge /\ forall u, fin u -> val u <> val (y k) -> Rabs (v - val (y k)) < Rabs (v - val u))) ->
  (forall k, In k text_keys -> In (txt k, Scalar (t k)) attrs /\ solid (t k)) ->
  exists x, (forall k, In k real_keys -> fin (x k) /\ val (x k) = val (y k)) /\
    Params_make (stod64 hex) b (Some (write_sim_params attrs)) = Ok (assemble (fun k => Z.to_nat (z k)) z x t).
Proof.
  intros A Hn Hz Hy Ht.
  assert (K : forall k, In k real_keys -> exists u s, In (txt k, Scalar s) attrs /\ solid s /\ stod64 hex s = Some u /\ fin u /\ val u = val (y k)).
  { intros k Hk. destruct (Hy k Hk) as (Fy & s & v & I & S & D & [(-> & V)|(N & B & Q)]).
    - destruct (C87_zero s D) as (u & E & Fu & Vu). exists u, s. repeat (split; auto). congruence.
    - exists (y k), s. split; auto. split; auto. split; [eapply C87_round_trip; eauto|auto]. }
  exists (fun k => if in_dec string_dec k real_keys then match find (fun a => text_eqb (fst a) (txt k)) attrs with Some (_, Scalar s) => match stod64 hex s with Some u => u | None => y k end | _ => y k end else y k).
  assert (UX : forall k, In k real_keys -> forall s, In (txt k, Scalar s) attrs -> find (fun a => text_eqb (fst a) (txt k)) attrs = Some (txt k, Scalar s)).
  { intros k _ s I. destruct A as (ND & _). clear - ND I. induction attrs as [|a l IH]; [destruct I|]. cbn [map] in ND. inversion ND as [|? ? N1 N2]; subst. cbn [find]. destruct I as [->|I].
    - cbn [fst]. now rewrite text_eqb_refl.
    - rewrite text_eqb_neq; auto. intros E. apply N1. rewrite E. change (txt k) with (fst (txt k, Scalar s)). now apply in_map. }
  assert (KX : forall k, In k real_keys -> exists s u, In (txt k, Scalar s) attrs /\ solid s /\ stod64 hex s = Some u /\ fin u /\ val u = val (y k) /\
    (if in_dec string_dec k real_keys then match find (fun a => text_eqb (fst a) (txt k)) attrs with Some (_, Scalar s) => match stod64 hex s with Some u => u | None => y k end | _ => y k end else y k) = u).
  { intros k Hk. destruct (K k Hk) as (u & s & I & S & E & Fu & Vu). exists s, u. repeat (split; auto). destruct (in_dec string_dec k real_keys); [|contradiction]. now rewrite (UX k Hk s I), E. }
  split.
  - intros k Hk. destruct (KX k Hk) as (s & u & _ & _ & _ & Fu & Vu & ->). auto.
  - apply C52_all_parameters; auto. intros k Hk. destruct (KX k Hk) as (s & u & I & S & E & _ & _ & ->). eauto.
Qed.
End Read.
