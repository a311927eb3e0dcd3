(** Lemmas about printing and reading doubles, continued: the value of the printed text, and the scanner. *)
From Coq Require Import Ascii String Reals SpecFloat Lra Lia.
From Flocq Require Import Core BinarySingleNaN.
From Verif Require Import Base BaseLemmas Arith MParams MIo MFmt PText PParams FmtSpec FpSpec Fp PFmt.
Local Open Scope Z_scope.

(** ** the magnitude of a double as a quotient *)
Definition mag_n (m : positive) (e : Z) : Z := Zpos m * 2 ^ Z.max e 0.
Definition mag_d (e : Z) : Z := 2 ^ Z.max (- e) 0.
Lemma mag_d_pos e : 0 < mag_d e.
Proof. apply Z.pow_pos_nonneg; lia. Qed.
Lemma mag_n_pos m e : 0 < mag_n m e.
Proof. unfold mag_n. assert (0 < 2 ^ Z.max e 0) by (apply Z.pow_pos_nonneg; lia). nia. Qed.
Lemma b2_split k : (IZR (2 ^ Z.max k 0) / IZR (2 ^ Z.max (- k) 0) = bpow radix2 k)%R.
Proof.
  assert (H : forall j, 0 <= j -> IZR (2 ^ j) = bpow radix2 j) by (intros; rewrite <- IZR_Zpower by auto; reflexivity).
  rewrite !H by lia. unfold Rdiv. rewrite <- bpow_opp, <- bpow_plus. f_equal. lia.
Qed.
Lemma mag_quot m e : (IZR (mag_n m e) / IZR (mag_d e) = IZR (Zpos m) * bpow radix2 e)%R.
Proof.
  rewrite <- b2_split. unfold mag_n, mag_d. rewrite mult_IZR. field. apply IZR_neq. pose proof (mag_d_pos e). unfold mag_d in *. lia.
Qed.
Lemma finite_range s m e : is_double (S754_finite s m e) -> Zpos m < 2 ^ 53 /\ -1074 <= e <= 971.
Proof.
  unfold is_double. cbn [valid_binary]. intros H. apply andb_prop in H as (H1 & H2). apply Zeq_bool_eq in H1. apply Z.leb_le in H2.
  unfold SpecFloat.fexp, SpecFloat.emin in H1. rewrite Digits.Zpos_digits2_pos in H1. pose proof (Digits.Zdigits_correct radix2 (Zpos m)) as D.
  split; [|lia]. cbn [Z.abs] in D. apply Z.lt_le_trans with (1 := proj2 D). change (Zpower radix2) with (Z.pow 2). apply Z.pow_le_mono_r; lia.
Qed.
Lemma val_finite s m e : val (S754_finite s m e) = ((if s then -1 else 1) * (IZR (mag_n m e) / IZR (mag_d e)))%R.
Proof. rewrite mag_quot. cbn [val]. rewrite bpow_powerRZ. change (IZR radix2) with 2%R. ring. Qed.
Lemma decade_range s m e : is_double (S754_finite s m e) -> -325 < decade (mag_n m e) (mag_d e) < 309.
Proof.
  intros H. apply finite_range in H as (Hm & He). destruct (decade_ok _ _ (mag_n_pos m e) (mag_d_pos e)) as (L & U). rewrite mag_quot in L, U.
  set (X := decade _ _) in *. split.
  - assert (K : (b10 (-324) < b10 (X + 1))%R); [|apply lt_bpow in K; lia]. apply Rle_lt_trans with (2 := U).
    apply Rle_trans with (bpow radix2 (-1074)).
    + change (-324) with (- (324)). change (-1074) with (- (1074)). rewrite !bpow_opp. apply Rinv_le; [apply bpow_gt_0|].
      rewrite <- !IZR_Zpower by lia. apply IZR_le. apply Z.leb_le. vm_compute. reflexivity.
    + apply Rle_trans with (bpow radix2 e); [apply bpow_le; lia|]. pose proof (bpow_gt_0 radix2 e). assert (1 <= IZR (Zpos m))%R by (apply IZR_le; lia). nra.
  - assert (K : (b10 X < b10 309)%R); [|apply lt_bpow in K; lia]. apply Rle_lt_trans with (1 := L).
    apply Rlt_le_trans with (bpow radix2 1024).
    + change 1024 with (53 + 971). rewrite bpow_plus. apply Rlt_le_trans with (bpow radix2 53 * bpow radix2 e)%R.
      * apply Rmult_lt_compat_r; [apply bpow_gt_0|]. rewrite <- IZR_Zpower by lia. now apply IZR_lt.
      * apply Rmult_le_compat_l; [apply bpow_ge_0|]. apply bpow_le. lia.
    + rewrite <- !IZR_Zpower by lia. apply IZR_le. apply Z.leb_le. vm_compute. reflexivity.
Qed.
Lemma dround_opp x : dround (- x) = (- dround x)%R.
Proof. unfold dround. apply round_NE_opp. Qed.
Lemma dround_0 : dround 0 = 0%R.
Proof. unfold dround. apply round_0. apply valid_rnd_N. Qed.
Lemma sgn_in (s : bool) : In (sgn_txt s, if s then -1 else 1) signs.
Proof. destruct s; cbn; auto. Qed.
Lemma sgn_IZR (s : bool) : IZR (if s then -1 else 1) = (if s then -1 else 1)%R.
Proof. destruct s; reflexivity. Qed.
Lemma fmt16_value x : fin x -> decimal_text (fmt16 x) (dround (val x)).
Proof.
  intros (D & Fx). destruct x as [s|s| |s m e]; try destruct Fx.
  - cbn [val]. rewrite dround_0. exists (sgn_txt s), (if s then -1 else 1), (txt "0"), [], [], [], 0. split; [cbn [fmt16]; now rewrite !app_nil_r|].
    split; [apply sgn_in|]. split; [rewrite app_nil_r; split; [discriminate|apply (zero_run 1)]|]. split; auto. split; auto.
    cbn [app]. change (place_value (txt "0" ++ [])) with 0. rewrite Z.mul_0_r. ring.
  - cbn [fmt16]. fold (mag_n m e) (mag_d e). pose proof (sig16_ok _ _ (mag_n_pos m e) (mag_d_pos e)) as S16. destruct (sig16 (mag_n m e) (mag_d e)) as (q, X).
    destruct (S16 q X eq_refl) as (Hq & Ev & HX). pose proof (decade_range s m e D) as HR. rewrite val_finite.
    replace (dround ((if s then -1 else 1) * (IZR (mag_n m e) / IZR (mag_d e)))) with (IZR (if s then -1 else 1) * (IZR q * b10 (X - 15)))%R.
    + apply layout_ok; auto using sgn_in. lia.
    + rewrite Ev, sgn_IZR. destruct s.
      * replace (-1 * (IZR (mag_n m e) / IZR (mag_d e)))%R with (- (IZR (mag_n m e) / IZR (mag_d e)))%R by ring. rewrite dround_opp. ring.
      * now rewrite !Rmult_1_l.
Qed.

(** ** the scanner *)
Lemma span_app ds rest : (forall c, In c ds -> is_digit c) -> no_more rest -> span_digits (ds ++ rest) = (ds, rest).
Proof.
  intros H N. induction ds as [|c ds IH].
  - cbn [app]. destruct rest as [|c rest]; [reflexivity|]. cbn [span_digits]. now rewrite digit_not.
  - cbn [app span_digits]. rewrite digit_is by (apply H; now left). rewrite IH by (intros; apply H; now right). reflexivity.
Qed.
Lemma digits_all ds : (forall c, In c ds -> is_digit c) -> digits 0 ds = place_value ds.
Proof. intros H. pose proof (digits_app ds [] H I 0) as E. rewrite app_nil_r in E. rewrite E. lia. Qed.
Definition expo_text (ex : text) (E : Z) : Prop :=
  ex = [] /\ E = 0 \/
  exists c se ke ed, (c = "e"%char \/ c = "E"%char) /\ In (se, ke) signs /\ numeral ed /\ ex = c :: se ++ ed /\ E = ke * place_value ed.
Lemma not_digit_e c : c = "e"%char \/ c = "E"%char -> ~ is_digit c.
Proof. intros [->| ->] (n & Hn & E); apply (f_equal nat_of_ascii) in E; rewrite nat_ascii_embedding in E by lia; vm_compute in E; lia. Qed.
Lemma not_digit_dot : ~ is_digit "."%char.
Proof. intros (n & Hn & E); apply (f_equal nat_of_ascii) in E; rewrite nat_ascii_embedding in E by lia; vm_compute in E; lia. Qed.
Lemma expo_no_more ex E : expo_text ex E -> no_more ex.
Proof. intros [(-> & _)|(c & se & ke & ed & Hc & _ & _ & -> & _)]; cbn; auto using not_digit_e. Qed.
Lemma scan_expo_ok ex E : expo_text ex E -> scan_expo ex = E.
Proof.
  intros [(-> & ->)|(c & se & ke & ed & Hc & Hs & (Hn & Hd) & -> & ->)]; [reflexivity|]. cbn [scan_expo].
  replace (is_ch c "e" "E") with true by (destruct Hc as [->| ->]; reflexivity).
  assert (S : span_digits ed = (ed, [])) by (rewrite <- (app_nil_r ed) at 1; apply span_app; auto; exact I).
  assert (G : match ed with [] => 0 | ds => ke * digits 0 ds end = ke * place_value ed) by (rewrite <- digits_all by auto; destruct ed; [congruence|reflexivity]).
  destruct Hs as [Hs|[Hs|[Hs|[]]]]; injection Hs as <- <-.
  - cbn [app]. destruct ed as [|d ed]; [congruence|]. destruct (digit_nosign d) as (M & P); [apply Hd; now left|]. rewrite M, P, S. exact G.
  - cbn [app txt list_ascii_of_string]. change (Ascii.eqb "+" "-") with false. change (Ascii.eqb "+" "+") with true. cbv iota. rewrite S. clear - G. destruct ed; exact G.
  - cbn [app txt list_ascii_of_string]. change (Ascii.eqb "-" "-") with true. cbv iota. rewrite S. clear - G. destruct ed; exact G.
Qed.
Lemma scan_dec_ok ip point fp ex E : numeral (ip ++ fp) -> (point = [] /\ fp = [] \/ point = "."%char :: fp) -> expo_text ex E ->
  scan_dec (ip ++ point ++ ex) = Some (place_value (ip ++ fp), E - Z.of_nat (length fp)).
Proof.
  intros (Hn & Hd) Hp He. pose proof (expo_no_more _ _ He) as NE. pose proof (scan_expo_ok _ _ He) as SE. unfold scan_dec.
  assert (Hip : forall c, In c ip -> is_digit c) by (eapply digits_sub; eauto).
  assert (Hfp : forall c, In c fp -> is_digit c) by (intros c Hc; apply Hd, in_or_app; now right).
  assert (G : match ip ++ fp with [] => None | ds => Some (digits 0 ds, scan_expo ex - Z.of_nat (length fp)) end = Some (place_value (ip ++ fp), E - Z.of_nat (length fp))).
  { rewrite SE, <- digits_all by auto. destruct (ip ++ fp); [congruence|reflexivity]. }
  destruct Hp as [(-> & ->)| ->].
  - cbn [app]. rewrite span_app by auto. destruct ex as [|c ex]; [exact G|].
    destruct (Ascii.eqb_spec c ".") as [->|N]; [|exact G]. destruct He as [(C & _)|(c & se & ke & ed & Hc & _ & _ & C & _)]; [discriminate C|].
    injection C as <- _. destruct Hc; discriminate.
  - rewrite span_app by (auto; exact not_digit_dot). cbn [app]. change (Ascii.eqb "." ".") with true. cbv iota. rewrite span_app by auto. exact G.
Qed.
(** sign and rest of a text *)
Definition cut_sign (t : text) : Z * text :=
  match t with
  | c :: s => if Ascii.eqb c "-" then (-1, s) else if Ascii.eqb c "+" then (1, s) else (1, t)
  | [] => (1, [])
  end.
Lemma body_head ip point (fp ex : text) : numeral (ip ++ fp) -> (point = [] /\ fp = [] \/ point = "."%char :: fp) ->
  exists c s, ip ++ point ++ ex = c :: s /\ Ascii.eqb c "-" = false /\ Ascii.eqb c "+" = false.
Proof.
  intros (Hn & Hd) Hp. destruct ip as [|c ip].
  - destruct Hp as [(-> & ->)| ->]; [destruct (Hn eq_refl)|]. exists "."%char. eexists. split; [reflexivity|]. split; reflexivity.
  - exists c. eexists. split; [reflexivity|]. apply digit_nosign, Hd. now left.
Qed.
Lemma decimal_scan t v : decimal_text t v -> exists k n j, scan_dec (snd (cut_sign t)) = Some (n, j) /\ fst (cut_sign t) = k /\ 0 <= n /\ (k = 1 \/ k = -1) /\
  v = (IZR (k * n) * powerRZ 10 j)%R.
Proof.
  intros (sg & k & ip & point & fp & ex & E & -> & Hs & Hn & Hp & He & ->). exists k, (place_value (ip ++ fp)), (E - Z.of_nat (length fp)).
  assert (C : cut_sign (sg ++ ip ++ point ++ ex) = (k, ip ++ point ++ ex)).
  { destruct (body_head ip point fp ex Hn Hp) as (c & s & Ec & M & P). rewrite Ec. destruct Hs as [Hs|[Hs|[Hs|[]]]]; injection Hs as <- <-.
    - cbn [app cut_sign]. now rewrite M, P.
    - reflexivity.
    - reflexivity. }
  rewrite C. cbn [fst snd]. split; [now apply scan_dec_ok|]. split; auto. split.
  - destruct Hn as (_ & Hd). rewrite <- digits_all by auto. clear - Hd. assert (G : forall s a, 0 <= a -> 0 <= digits a s); [|apply G; lia].
    induction s as [|c s IH]; cbn [digits]; intros a Ha; auto. destruct (digit c) as [d|] eqn:Ed; auto. apply IH.
    unfold digit in Ed. destruct (Nat.leb_spec 48 (nat_of_ascii c)); [|discriminate Ed]. destruct (Nat.leb (nat_of_ascii c) 57); [|discriminate Ed]. injection Ed as <-. lia.
  - split; [|reflexivity]. destruct Hs as [Hs|[Hs|[Hs|[]]]]; injection Hs as <- <-; auto.
Qed.
Lemma decimal_det t v v' : decimal_text t v -> decimal_text t v' -> v = v'.
Proof.
  intros H H'. destruct (decimal_scan t v H) as (k & n & j & A & B & _ & _ & ->), (decimal_scan t v' H') as (k' & n' & j' & A' & B' & _ & _ & ->).
  rewrite A in A'. injection A' as <- <-. now rewrite <- B, <- B'.
Qed.
