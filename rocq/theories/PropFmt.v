(** C86: the numbers in the output files. *)
From Coq Require Import Ascii String Reals SpecFloat Lra Lia.
From Flocq Require Import Core BinarySingleNaN Relative.
From Verif Require Import Base BaseLemmas Arith MParams MIo MFmt PText PParams PropParams PropIo FmtSpec FpSpec Fp PFmt PFmt2.
Local Open Scope R_scope.

Lemma few_format p w : few_digits p w <-> FLX_format radix10 p w.
Proof.
  split.
  - intros (n & k & H & ->). exists (Float radix10 n k); [|exact H]. unfold F2R. cbn [Fnum Fexp]. now rewrite b10_rz.
  - intros [f E H]. exists (Fnum f), (Fexp f). split; [exact H|]. rewrite E. unfold F2R. now rewrite b10_rz.
Qed.
#[local] Instance p16 : Prec_gt_0 16 := eq_refl.
Lemma few_generic w : few_digits 16 w <-> generic_format radix10 (FLX_exp 16) w.
Proof.
  rewrite few_format. split; [apply generic_format_FLX|]. intros H. now apply FLX_format_generic.
Qed.
Lemma dround_err x : Rabs (dround x - x) <= 5 / 10 ^ 16 * Rabs x.
Proof.
  unfold dround. apply Rle_trans with (1 := relative_error_N_FLX radix10 16 eq_refl (fun n => negb (Z.even n)) x).
  apply Rmult_le_compat_r; [apply Rabs_pos|]. change (b10 (- (16) + 1)) with (/ 1000000000000000). replace (10 ^ 16) with 10000000000000000 by ring. lra.
Qed.

(** Property: the text written for a finite double is a decimal numeral of at most sixteen significant digits; no
    number with sixteen significant digits is nearer to the double; it is off by at most 5 10^-16 of it. *)
Theorem C86_nearest x : fin x -> exists v, decimal_text (fmt16 x) v /\ few_digits 16 v /\
  (forall w, few_digits 16 w -> Rabs (v - val x) <= Rabs (w - val x)) /\
  Rabs (v - val x) <= 5 / 10 ^ 16 * Rabs (val x).
Proof.
  intros H. exists (dround (val x)). split; [now apply fmt16_value|].
  assert (V : Valid_exp (FLX_exp 16)) by (apply FLX_exp_valid; exact eq_refl).
  destruct (round_N_pt radix10 (FLX_exp 16) (fun n => negb (Z.even n)) (val x)) as (A & B). split; [now apply few_generic|].
  split; [|apply dround_err]. intros w Hw. apply B. now apply few_generic.
Qed.
(** the number a text denotes is unique, so this is the number a reader of the file gets *)
Theorem C86_one_value t v w : decimal_text t v -> decimal_text t w -> v = w.
Proof. apply decimal_det. Qed.
(** larger numbers never read as smaller ones *)
Theorem C86_order x y v w : fin x -> fin y -> val x <= val y -> decimal_text (fmt16 x) v -> decimal_text (fmt16 y) w -> v <= w.
Proof.
  intros Hx Hy L Hv Hw. rewrite (decimal_det _ _ _ Hv (fmt16_value x Hx)), (decimal_det _ _ _ Hw (fmt16_value y Hy)).
  unfold dround. apply round_le; auto; [apply FLX_exp_valid; exact eq_refl|apply valid_rnd_N].
Qed.
(** numbers further apart than 5 10^-16 of their sizes get different texts *)
Theorem C86_separates x y : fin x -> fin y -> 5 / 10 ^ 16 * (Rabs (val x) + Rabs (val y)) < Rabs (val x - val y) -> fmt16 x <> fmt16 y.
Proof.
  intros Hx Hy L E. pose proof (fmt16_value x Hx) as A. pose proof (fmt16_value y Hy) as B. rewrite E in A. pose proof (decimal_det _ _ _ A B) as C.
  pose proof (dround_err (val x)) as D1. pose proof (dround_err (val y)) as D2. rewrite C in D1.
  assert (T : Rabs (val x - val y) <= Rabs (dround (val y) - val x) + Rabs (dround (val y) - val y)).
  { replace (val x - val y) with (- (dround (val y) - val x) + (dround (val y) - val y)) by ring. apply Rle_trans with (1 := Rabs_triang _ _). rewrite Rabs_Ropp. apply Rle_refl. }
  lra.
Qed.
(** but sixteen digits do not identify a double: neighbouring doubles can get the same text *)
Theorem C86_identifies_refuted : ~ (forall x y, fin x -> fin y -> fmt16 x = fmt16 y -> val x = val y).
Proof.
  intros H. set (x := S754_finite false (2 ^ 52)%positive (-52)). set (y := S754_finite false (2 ^ 52 + 1)%positive (-52)).
  assert (Fx : fin x) by (split; [reflexivity|exact I]). assert (Fy : fin y) by (split; [reflexivity|exact I]).
  specialize (H x y Fx Fy). assert (E : fmt16 x = fmt16 y) by (vm_compute; reflexivity). specialize (H E). unfold x, y, val in H.
  apply Rmult_eq_reg_r in H; [|apply powerRZ_NOR; lra]. rewrite !Rmult_1_l in H. apply eq_IZR in H. discriminate H.
Qed.
(** nor does it give back a short decimal number that was read from the parameter file: 9.95 prints as 9.949999999999999 *)
Theorem C86_short_refuted : exists x, stod64 (fun _ _ => None) (txt "9.95") = Some x /\ fmt16 x = txt "9.949999999999999".
Proof. eexists. split; [vm_compute; reflexivity|]. vm_compute. reflexivity. Qed.

(** ** characters *)
Definition plain (c : ascii) : Prop := is_digit c \/ In c (txt "-+.einfa").
Lemma strip0_in t c : In c (strip0 t) -> In c t.
Proof. intros H. destruct (strip0_ok t) as (j & ->). apply in_or_app. now left. Qed.
Lemma strip0_len t : (length (strip0 t) <= length t)%nat.
Proof. destruct (strip0_ok t) as (j & E). rewrite E at 2. rewrite app_length. lia. Qed.
Lemma frac_plain t : (forall c, In c t -> is_digit c) -> forall c, In c (frac t) -> plain c.
Proof.
  intros H c. unfold frac. pose proof (strip0_in t) as S. destruct (strip0 t) as [|a l]; [intros []|]. intros [<-|Hc]; [right; cbn; tauto|].
  left. apply H, S, Hc.
Qed.
Lemma frac_len t : (length (frac t) <= S (length t))%nat.
Proof. unfold frac. pose proof (strip0_len t) as L. destruct (strip0 t); cbn [length] in *; lia. Qed.
Lemma sub_digits q : forall i c, In c (firstn i (digs 16 q)) \/ In c (skipn i (digs 16 q)) -> is_digit c.
Proof. intros i c H. apply (digs_digits 16 q). rewrite <- (firstn_skipn i (digs 16 q)). apply in_or_app. exact H. Qed.
Lemma sub1 q i c : In c (firstn i (digs 16 q)) -> is_digit c.
Proof. intros H. apply (sub_digits q i c). now left. Qed.
Lemma sub2 q i c : In c (skipn i (digs 16 q)) -> is_digit c.
Proof. intros H. apply (sub_digits q i c). now right. Qed.
Lemma expo_plain X c : In c (expo X) -> plain c.
Proof.
  unfold expo. intros [<-|[<-|H]]; [right; cbn; tauto|right; destruct (X <? 0)%Z; cbn; tauto|]. left.
  destruct (Z.abs X <? 100)%Z; eapply digs_digits; eauto.
Qed.
Lemma expo_len X : (length (expo X) <= 5)%nat.
Proof. unfold expo. destruct (Z.abs X <? 100)%Z; cbn [length]; rewrite digs_length; lia. Qed.
Lemma layout_plain q X c : In c (layout q X) -> plain c.
Proof.
  unfold layout. cbv zeta. intros H. destruct (_ || _)%bool.
  - apply in_app_or in H as [H|H]; [left; apply sub1 in H; exact H|]. apply in_app_or in H as [H|H]; [|now apply expo_plain in H].
    eapply frac_plain; [|exact H]. intros d Hd; apply sub2 in Hd; exact Hd.
  - destruct (X <? 0)%Z.
    + apply in_app_or in H as [H|H]; [left; apply (zero_run 1), H|]. eapply frac_plain; [|exact H]. intros d Hd. apply in_app_or in Hd as [Hd|Hd]; [eapply zero_run; eauto|eapply digs_digits; eauto].
    + apply in_app_or in H as [H|H]; [left; apply sub1 in H; exact H|]. eapply frac_plain; [|exact H]. intros d Hd; apply sub2 in Hd; exact Hd.
Qed.
Lemma layout_len q X : (length (layout q X) <= 22)%nat /\ layout q X <> [].
Proof.
  unfold layout. cbv zeta. destruct ((X <? -4) || (16 <=? X))%Z%bool eqn:E.
  - split; [|discriminate]. rewrite !app_length, firstn_length, digs_length. pose proof (frac_len (skipn 1 (digs 16 q))) as F. rewrite skipn_length, digs_length in F. pose proof (expo_len X). lia.
  - apply Bool.orb_false_iff in E as (S1 & S2). apply Z.ltb_ge in S1. apply Z.leb_gt in S2. destruct (Z.ltb_spec X 0) as [N|N].
    + split; [|discriminate]. rewrite app_length. pose proof (frac_len (repeat "0"%char (Z.to_nat (- X - 1)) ++ digs 16 q)) as F. rewrite app_length, repeat_length, digs_length in F. cbn [txt list_ascii_of_string length]. lia.
    + replace (Z.to_nat (X + 1)) with (S (Z.to_nat X)) by lia. split; [|discriminate].
      rewrite app_length, firstn_length, digs_length. pose proof (frac_len (skipn (S (Z.to_nat X)) (digs 16 q))) as F. rewrite skipn_length, digs_length in F. lia.
Qed.
(** Property: the text of any double (infinities and NaN included) is not empty, has at most 23 characters, and these
    are digits, signs, the point and the letters of e, inf and nan: no comma, no white space. *)
Theorem C86_characters x : fmt16 x <> [] /\ (length (fmt16 x) <= 23)%nat /\ forall c, In c (fmt16 x) -> plain c.
Proof.
  assert (SG : forall s, (length (sgn_txt s) <= 1)%nat /\ forall c, In c (sgn_txt s) -> plain c).
  { intros [|]; (split; [cbn; lia|]); intros c []; [subst; right; cbn; tauto|destruct H]. }
  assert (W : forall s w, w <> [] -> (length w <= 22)%nat -> (forall c, In c w -> plain c) ->
     sgn_txt s ++ w <> [] /\ (length (sgn_txt s ++ w) <= 23)%nat /\ forall c, In c (sgn_txt s ++ w) -> plain c).
  { intros s w A B C. destruct (SG s) as (L & P). split; [intros E; apply app_eq_nil in E as (_ & E); auto|]. split; [rewrite app_length; lia|].
    intros c H. apply in_app_or in H as [H|H]; auto. }
  destruct x as [s|s| |s m e]; cbn [fmt16].
  - apply W; [discriminate|cbn; lia|]. intros c H. left. apply (zero_run 1), H.
  - apply W; [discriminate|cbn; lia|]. intros c H. right. cbn in *. tauto.
  - apply (W false (txt "nan")); [discriminate|cbn; lia|]. intros c H. right. cbn in *. tauto.
  - destruct (sig16 _ _) as (q, X). destruct (layout_len q X). apply W; auto. intros c. apply layout_plain.
Qed.
Lemma plain_no c : plain c -> c <> ","%char /\ c <> nl_char /\ is_space c = false.
Proof.
  intros [(n & Hn & ->)|H].
  - split; [|split].
    + intros E. apply (f_equal nat_of_ascii) in E. rewrite nat_ascii_embedding in E by lia. vm_compute in E. lia.
    + intros E. apply (f_equal nat_of_ascii) in E. rewrite nat_ascii_embedding in E by lia. vm_compute in E. lia.
    + apply digit_nospace. exists n. auto.
  - cbn in H. repeat destruct H as [<-|H]; try (split; [discriminate|split; [discriminate|reflexivity]]). destruct H.
Qed.
