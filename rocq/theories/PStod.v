(** Lemmas about reading doubles: [MFmt.stod64]. *)
From Coq Require Import Ascii String Reals SpecFloat Lra Lia.
From Flocq Require Import Core BinarySingleNaN Relative.
From Verif Require Import Base BaseLemmas Arith MParams MIo MFmt PText PParams FmtSpec FpSpec Fp PFmt PFmt2.
Local Open Scope Z_scope.
#[local] Existing Instance Hp.
#[local] Existing Instance Hm.

Definition quot (s : bool) (n d : positive) : R := ((if s then -1 else 1) * (IZR (Zpos n) / IZR (Zpos d)))%R.
Lemma sf_round_ok s n d : is_double (sf_round s n d) /\
  ((Rabs (rnd (quot s n d)) < bpow radix2 1024)%R -> is_fin (sf_round s n d) /\ val (sf_round s n d) = rnd (quot s n d)) /\
  ((bpow radix2 1024 <= Rabs (rnd (quot s n d)))%R -> sf_round s n d = S754_infinity s).
Proof.
  pose proof (Bdiv_correct_aux 53 1024 Hp Hm mode_NE s n 0 false d 0) as H. cbv zeta in H. unfold sf_round.
  assert (E : (F2R (Float radix2 (cond_Zopp s (Zpos n)) 0) / F2R (Float radix2 (cond_Zopp false (Zpos d)) 0))%R = quot s n d).
  { unfold F2R, quot. cbn [Fnum Fexp bpow cond_Zopp]. rewrite !Rmult_1_r. destruct s; cbn [cond_Zopp]; [change (Z.neg n) with (- Zpos n); rewrite opp_IZR|]; field; apply IZR_neq; discriminate. }
  rewrite E in H. replace (xorb s false) with s in H by (destruct s; reflexivity).
  destruct (SFdiv_core_binary 53 1024 (Zpos n) 0 (Zpos d) 0) as [[mz ez] lz]. rewrite (bra_eq s mz ez lz). set (z := BinarySingleNaN.binary_round_aux 53 1024 mode_NE s mz ez lz) in *.
  destruct H as (V & H). split; [exact V|]. cbn [round_mode] in H. split; intros B.
  - rewrite Rlt_bool_true in H by auto. destruct H as (H1 & H2 & _). split; [|now rewrite val_SF2R]. destruct z; cbn in *; auto; discriminate.
  - rewrite Rlt_bool_false in H by auto. exact H.
Qed.
(** normal doubles have a full mantissa *)
Lemma fexp_flt : SpecFloat.fexp 53 1024 = FLT_exp (-1074) 53.
Proof. reflexivity. Qed.
Lemma full_mantissa s m e : is_double (S754_finite s m e) -> (2 ^ 52 <= Zpos m <-> (bpow radix2 (-1022) <= Rabs (val (S754_finite s m e)))%R).
Proof.
  intros D. pose proof (finite_range s m e D) as (Hm' & He).
  assert (A : Rabs (val (S754_finite s m e)) = (IZR (Zpos m) * bpow radix2 e)%R).
  { rewrite val_finite, mag_quot, Rabs_mult. rewrite (Rabs_pos_eq (_ * _)); [|apply Rmult_le_pos; [apply IZR_le; lia|apply bpow_ge_0]].
    destruct s; [rewrite Rabs_left by lra; ring|rewrite Rabs_pos_eq by lra; ring]. }
  rewrite A. split; intros H.
  - apply Rle_trans with (IZR (2 ^ 52) * bpow radix2 (-1074))%R; [change (IZR (2 ^ 52)) with (bpow radix2 52); rewrite <- bpow_plus; apply bpow_le; lia|].
    apply Rmult_le_compat; [apply IZR_le; lia|apply bpow_ge_0|now apply IZR_le|apply bpow_le; lia].
  - unfold is_double in D. cbn [valid_binary] in D. apply andb_prop in D as (H1 & _). apply Zeq_bool_eq in H1. unfold SpecFloat.fexp, SpecFloat.emin in H1. rewrite Digits.Zpos_digits2_pos in H1.
    pose proof (Digits.Zdigits_correct radix2 (Zpos m)) as (K1 & K2). cbn [Z.abs] in *. change (Zpower radix2) with (Z.pow 2) in *. set (k := Digits.Zdigits radix2 (Zpos m)) in *.
    destruct (Z.eq_dec e (-1074)) as [->|Ne].
    + apply le_IZR. apply Rmult_le_reg_r with (bpow radix2 (-1074)); [apply bpow_gt_0|]. change (IZR (2 ^ 52)) with (bpow radix2 52). rewrite <- bpow_plus. exact H.
    + replace k with 53 in K1 by lia. exact K1.
Qed.
Lemma val_quot s m e n d : (val (S754_finite s m e) = quot s n d <-> Zpos m * 2 ^ Z.max e 0 * Zpos d = Zpos n * 2 ^ Z.max (- e) 0).
Proof.
  rewrite val_finite. unfold quot. assert (P1 : (0 < IZR (mag_d e))%R) by (apply IZR_lt, mag_d_pos). assert (P2 : (0 < IZR (Zpos d))%R) by (apply IZR_lt; lia).
  transitivity ((IZR (mag_n m e) / IZR (mag_d e) = IZR (Zpos n) / IZR (Zpos d))%R).
  { split; intros H; [|now rewrite H]. destruct s; lra. }
  transitivity ((IZR (mag_n m e) * IZR (Zpos d) = IZR (Zpos n) * IZR (mag_d e))%R).
  { split; intros H.
    - replace (IZR (mag_n m e)) with (IZR (mag_n m e) / IZR (mag_d e) * IZR (mag_d e))%R by (field; lra). rewrite H. field. lra.
    - replace (IZR (mag_n m e) / IZR (mag_d e))%R with (IZR (mag_n m e) * IZR (Zpos d) / (IZR (mag_d e) * IZR (Zpos d)))%R by (field; lra). rewrite H. field. lra. }
  rewrite <- !mult_IZR. unfold mag_n, mag_d. split; [apply eq_IZR|now intros ->].
Qed.
(** what [dec_double] returns: the rounded number, if it is in range *)
Definition stod_result (v : R) (o : option spec_float) : Prop :=
  match o with
  | Some x => fin x /\ val x = rnd v /\ (v = 0 \/ bpow radix2 (-1022) <= Rabs (rnd v) \/ rnd v = v)%R
  | None => (bpow radix2 1024 <= Rabs (rnd v))%R \/ (Rabs (rnd v) < bpow radix2 (-1022) /\ rnd v <> v)%R
  end.
Lemma dec_double_ok (s : bool) n k : 0 <= n -> stod_result ((if s then -1 else 1) * (IZR n * b10 k))%R (dec_double s n k).
Proof.
  intros Hn. unfold dec_double. pose proof (pow10_pos (Z.max k 0) ltac:(lia)) as P1. pose proof (pow10_pos (Z.max (- k) 0) ltac:(lia)) as P2.
  assert (Q : (IZR n * b10 k = IZR (n * 10 ^ Z.max k 0) / IZR (10 ^ Z.max (- k) 0))%R).
  { rewrite <- b10_split, mult_IZR. unfold Rdiv. ring. }
  destruct (n * 10 ^ Z.max k 0) as [|a|a] eqn:EA; [|destruct (10 ^ Z.max (- k) 0) as [|b|b] eqn:EB; [lia| |lia]|nia].
  - assert (V : ((if s then -1 else 1) * (IZR n * b10 k) = 0)%R) by (rewrite Q; unfold Rdiv; rewrite Rmult_0_l; ring).
    rewrite V. cbn. split; [split; [reflexivity|exact I]|]. split; auto. symmetry. apply round_0, valid_rnd_N.
  - rewrite Q. change (stod_result (quot s a b) (if in_range (sf_round s a b) (Zpos a) (Zpos b) then Some (sf_round s a b) else None)).
    destruct (sf_round_ok s a b) as (D & F1 & F2). set (r := sf_round s a b) in *.
    assert (V0 : quot s a b <> 0%R).
    { unfold quot. assert (0 < IZR (Zpos a) / IZR (Zpos b))%R by (apply Rmult_lt_0_compat; [apply IZR_lt; lia|apply Rinv_0_lt_compat, IZR_lt; lia]). destruct s; lra. }
    destruct (Rlt_or_le (Rabs (rnd (quot s a b))) (bpow radix2 1024)) as [B|B].
    + destruct (F1 B) as (Fi & Ev). destruct r as [s'|s'| |s' m e] eqn:Er; try destruct Fi.
      * cbn [in_range stod_result]. right. cbn [val] in Ev. rewrite <- Ev. split; [rewrite Rabs_R0; apply bpow_gt_0|auto].
      * cbn [in_range]. destruct ((2 ^ 52 <=? Zpos m) || (Zpos m * 2 ^ Z.max e 0 * Zpos b =? Zpos a * 2 ^ Z.max (- e) 0))%bool eqn:IR.
        -- cbn [stod_result]. split; [split; [exact D|exact I]|]. split; auto. right. apply Bool.orb_true_iff in IR as [IR|IR].
           ++ left. apply Z.leb_le in IR. rewrite <- Ev. now apply (full_mantissa s' m e D).
           ++ right. apply Z.eqb_eq in IR. rewrite <- Ev. assert (S : s' = s).
              { assert (Ep : (exists p, 0 < p /\ quot false a b = p)%R) by (eexists; split; [|reflexivity]; unfold quot; rewrite Rmult_1_l; apply Rmult_lt_0_compat; [apply IZR_lt; lia|apply Rinv_0_lt_compat, IZR_lt; lia]).
                destruct Ep as (p & Pp & Ep). assert (Vp : (exists w, 0 < w /\ val (S754_finite false m e) = w)%R).
                { eexists; split; [|reflexivity]. rewrite val_finite, Rmult_1_l. apply Rmult_lt_0_compat; [apply IZR_lt, mag_n_pos|apply Rinv_0_lt_compat, IZR_lt, mag_d_pos]. }
                destruct Vp as (w & Pw & Ew). rewrite val_finite, Rmult_1_l in Ew. unfold quot in Ep. rewrite Rmult_1_l in Ep. rewrite val_finite, Ew in Ev. unfold quot in Ev. rewrite Ep in Ev.
                destruct s', s; auto; exfalso.
                - assert (0 <= rnd (1 * p))%R by (rewrite <- (round_0 radix2 (SpecFloat.fexp 53 1024) ZnearestE); apply round_le; [apply fexp_correct; exact Hp|apply valid_rnd_N|lra]). lra.
                - assert (rnd (-1 * p) <= 0)%R by (rewrite <- (round_0 radix2 (SpecFloat.fexp 53 1024) ZnearestE); apply round_le; [apply fexp_correct; exact Hp|apply valid_rnd_N|lra]). lra. }
              subst s'. now apply val_quot.
        -- apply Bool.orb_false_iff in IR as (I1 & I2). apply Z.leb_gt in I1. apply Z.eqb_neq in I2. cbn [stod_result]. right. split.
           ++ apply Rnot_le_lt. intros C. rewrite <- Ev in C. apply (full_mantissa s' m e D) in C. lia.
           ++ rewrite <- Ev. intros C. apply I2. assert (S : exists s'', val (S754_finite s'' m e) = quot s'' a b).
              { exists false. unfold quot in *. rewrite val_finite in *. assert (0 < IZR (Zpos a) / IZR (Zpos b))%R by (apply Rmult_lt_0_compat; [apply IZR_lt; lia|apply Rinv_0_lt_compat, IZR_lt; lia]).
                assert (0 < IZR (mag_n m e) / IZR (mag_d e))%R by (apply Rmult_lt_0_compat; [apply IZR_lt, mag_n_pos|apply Rinv_0_lt_compat, IZR_lt, mag_d_pos]).
                destruct s', s; lra. }
              destruct S as (s'' & S). now apply (val_quot s'').
    + rewrite (F2 B). cbn. now left.
Qed.
(** a decimal numeral is read as its number *)
Lemma lower_digit c : is_digit c \/ c = "."%char -> lower c = c /\ is_space c = false /\ Ascii.eqb c "i" = false /\ Ascii.eqb c "n" = false.
Proof.
  intros [(n & Hn & ->)| ->]; [|repeat split; reflexivity]. unfold lower. rewrite nat_ascii_embedding by lia. destruct (Nat.leb_spec 65 n); [lia|]. cbn [andb].
  split; auto. split; [apply digit_nospace; exists n; auto|]. split; apply Ascii.eqb_neq; intros E; apply (f_equal nat_of_ascii) in E; rewrite nat_ascii_embedding in E by lia; vm_compute in E; lia.
Qed.
Definition no_x (t : text) : Prop := match t with [] => True | c :: _ => Ascii.eqb (lower c) "x" = false end.
Lemma digit_no_x c t : is_digit c -> no_x (c :: t).
Proof.
  intros D. destruct (lower_digit c (or_introl D)) as (L & _). cbn. rewrite L. destruct D as (n & Hn & ->). apply Ascii.eqb_neq. intros E. apply (f_equal nat_of_ascii) in E. rewrite nat_ascii_embedding in E by lia. vm_compute in E. lia.
Qed.
Lemma expo_no_x ex E : expo_text ex E -> no_x ex.
Proof. intros [(-> & _)|(c & se & ke & ed & Hc & _ & _ & -> & _)]; [exact I|]. destruct Hc as [->| ->]; reflexivity. Qed.
Lemma body_read hex sg ip point fp ex E : numeral (ip ++ fp) -> (point = [] /\ fp = [] \/ point = "."%char :: fp) -> expo_text ex E ->
  unsigned_double hex sg (ip ++ point ++ ex) = dec_double sg (place_value (ip ++ fp)) (E - Z.of_nat (length fp)) /\
  exists c t, ip ++ point ++ ex = c :: t /\ (is_digit c \/ c = "."%char).
Proof.
  intros Hn Hp He. pose proof (scan_dec_ok ip point fp ex E Hn Hp He) as SC. destruct Hn as (Hn & Hd). unfold unsigned_double.
  assert (K : exists c t, ip ++ point ++ ex = c :: t /\ (is_digit c \/ c = "."%char) /\ no_x t).
  { destruct ip as [|c ip].
    - destruct Hp as [(-> & ->)| ->]; [destruct (Hn eq_refl)|]. cbn [app]. exists "."%char. eexists. split; [reflexivity|]. split; auto. destruct fp as [|d fp]; [destruct (Hn eq_refl)|]. apply digit_no_x, Hd. now left.
    - cbn [app]. exists c. eexists. split; [reflexivity|]. split; [left; apply Hd; now left|]. destruct ip as [|d ip].
      + cbn [app]. destruct Hp as [(-> & ->)| ->]; [eapply expo_no_x; eauto|reflexivity].
      + apply digit_no_x, Hd. right. now left. }
  destruct K as (c & t & Ec & Hc & Hx). split; [|eauto]. rewrite SC, Ec. destruct (lower_digit c Hc) as (L & _ & LI & LN). cbn [starts txt list_ascii_of_string]. rewrite L, LI, LN. cbn [andb].
  replace (Ascii.eqb c "0" && _)%bool with false; [reflexivity|]. symmetry. apply Bool.andb_false_intro2. destruct t as [|d t]; [reflexivity|]. cbn [starts]. cbn in Hx. now rewrite Hx.
Qed.
Lemma stod_decimal hex w v : decimal_text w v -> stod_result v (stod64 hex w).
Proof.
  intros (sg & k & ip & point & fp & ex & E & -> & Hs & Hn & Hp & He & ->).
  destruct (fun s => body_read hex s ip point fp ex E Hn Hp He) with (s := false) as (R0 & c & t & Ec & Hc). destruct (body_read hex true ip point fp ex E Hn Hp He) as (R1 & _).
  assert (Pn : 0 <= place_value (ip ++ fp)).
  { destruct Hn as (_ & Hd). clear - Hd. induction (ip ++ fp) as [|x a IH]; cbn [place_value]; [lia|]. destruct (Hd x) as (n & Hn & ->); [now left|]. rewrite nat_ascii_embedding by lia.
    specialize (IH (fun d H => Hd d (or_intror H))). assert (0 < 10 ^ Z.of_nat (length a)) by (apply pow10_pos; lia). nia. }
  pose proof (dec_double_ok false _ (E - Z.of_nat (length fp)) Pn) as O0. pose proof (dec_double_ok true _ (E - Z.of_nat (length fp)) Pn) as O1.
  rewrite <- R0 in O0. rewrite <- R1 in O1. rewrite b10_rz in O0, O1.
  destruct Hs as [Hs|[Hs|[Hs|[]]]]; injection Hs as <- <-.
  - cbn [app]. replace (IZR (1 * _) * _)%R with (1 * (IZR (place_value (ip ++ fp)) * powerRZ 10 (E - Z.of_nat (length fp))))%R by (rewrite mult_IZR; ring).
    unfold stod64. rewrite Ec in *. destruct (lower_digit c Hc) as (_ & Sp & _). rewrite skip_ws_id by auto.
    replace (Ascii.eqb c "-") with false; [replace (Ascii.eqb c "+") with false; [exact O0|]|]; symmetry; (destruct Hc as [Hc| ->]; [apply digit_nosign in Hc as (A & B); auto|reflexivity]).
  - replace (IZR (1 * _) * _)%R with (1 * (IZR (place_value (ip ++ fp)) * powerRZ 10 (E - Z.of_nat (length fp))))%R by (rewrite mult_IZR; ring). exact O0.
  - replace (IZR (-1 * _) * _)%R with (-1 * (IZR (place_value (ip ++ fp)) * powerRZ 10 (E - Z.of_nat (length fp))))%R by (rewrite mult_IZR; ring). exact O1.
Qed.
