(** Lemmas about printing doubles: [MFmt.fmt16]. *)
From Coq Require Import Ascii String Reals SpecFloat Lra Lia.
From Flocq Require Import Core.
From Verif Require Import Base BaseLemmas Arith MParams MIo MFmt PText PParams FmtSpec FpSpec Fp.
Local Open Scope Z_scope.

Definition radix10 : radix := Build_radix 10 eq_refl.
Notation b10 := (bpow radix10).
Lemma b10_rz e : b10 e = powerRZ 10 e.
Proof. rewrite bpow_powerRZ. reflexivity. Qed.
Definition dround (x : R) : R := round radix10 (FLX_exp 16) ZnearestE x.

(** ** rounding a quotient *)
Lemma zrne_ok a b : 0 < b -> ZnearestE (IZR a / IZR b) = zrne a b.
Proof.
  intros Hb. assert (B : (0 < IZR b)%R) by (apply IZR_lt; lia).
  pose proof (Z.div_mod a b ltac:(lia)) as D. pose proof (Z.mod_pos_bound a b Hb) as M. unfold zrne.
  set (q := a / b) in *. set (r := a mod b) in *.
  assert (E : (IZR a / IZR b = IZR q + IZR r / IZR b)%R).
  { rewrite D, plus_IZR, mult_IZR. field. lra. }
  assert (F : Zfloor (IZR a / IZR b) = q) by (unfold q; apply Zfloor_div; lia).
  rewrite E.
  assert (R1 : (IZR r / IZR b * IZR b = IZR r)%R) by (field; lra).
  assert (Q0 : (0 <= IZR r / IZR b < 1)%R).
  { assert (0 <= IZR r < IZR b)%R by (split; [apply IZR_le|apply IZR_lt]; lia). split.
    - apply Rmult_le_pos; [lra|]. left. now apply Rinv_0_lt_compat.
    - apply Rmult_lt_reg_r with (IZR b); [lra|]. rewrite R1. lra. }
  destruct (Z.compare_spec (2 * r) b) as [H|H|H].
  - assert (HH : (IZR r / IZR b = / 2)%R).
    { apply (Rmult_eq_reg_r (IZR b)); [|lra]. rewrite R1. assert (2 * IZR r = IZR b)%R by (rewrite <- mult_IZR; now f_equal). lra. }
    unfold Znearest. rewrite <- E, F. replace (IZR a / IZR b - IZR q)%R with (/ 2)%R by (rewrite E, HH; ring).
    rewrite Rcompare_Eq by reflexivity. replace (Zceil (IZR a / IZR b)) with (q + 1)%Z.
    + destruct (Z.even q); reflexivity.
    + rewrite Zceil_floor_neq; [now rewrite F|]. rewrite F, E, HH. lra.
  - apply Znearest_imp. replace (IZR q + IZR r / IZR b - IZR q)%R with (IZR r / IZR b)%R by ring.
    assert (2 * IZR r < IZR b)%R by (rewrite <- mult_IZR; now apply IZR_lt). rewrite Rabs_pos_eq by lra. nra.
  - apply Znearest_imp. rewrite plus_IZR. replace (IZR q + IZR r / IZR b - (IZR q + 1))%R with (IZR r / IZR b - 1)%R by ring.
    assert (IZR b < 2 * IZR r)%R by (rewrite <- mult_IZR; now apply IZR_lt). rewrite Rabs_left by lra. nra.
Qed.
Lemma b10_nonneg k : 0 <= k -> b10 k = IZR (10 ^ k).
Proof. intros H. rewrite <- IZR_Zpower by auto. reflexivity. Qed.
Lemma b10_split k : (IZR (10 ^ Z.max k 0) / IZR (10 ^ Z.max (- k) 0) = b10 k)%R.
Proof.
  rewrite <- !b10_nonneg by lia. unfold Rdiv. rewrite <- bpow_opp, <- bpow_plus. f_equal. lia.
Qed.
Lemma pow10_pos k : 0 <= k -> 0 < 10 ^ k.
Proof. intros. apply Z.pow_pos_nonneg; lia. Qed.
Lemma scale_ok n d k : 0 < d -> ZnearestE (IZR n / IZR d * b10 k) = scale n d k.
Proof.
  intros Hd. unfold scale. rewrite <- zrne_ok.
  - f_equal. rewrite <- b10_split, !mult_IZR. field. split; apply IZR_neq; [pose proof (pow10_pos (Z.max (- k) 0)); lia|lia].
  - pose proof (pow10_pos (Z.max (- k) 0)). nia.
Qed.

(** ** digit counts *)
Lemma ndig_fuel_ok fuel : forall n, 0 < n -> n < 10 * 2 ^ Z.of_nat fuel ->
  0 < ndig_fuel fuel n /\ 10 ^ (ndig_fuel fuel n - 1) <= n < 10 ^ ndig_fuel fuel n.
Proof.
  induction fuel as [|k IH]; intros n H1 H2.
  - cbn in *. lia.
  - cbn [ndig_fuel]. destruct (Z.ltb_spec n 10) as [L|L]; [cbn; lia|].
    rewrite Nat2Z.inj_succ, Z.pow_succ_r in H2 by lia.
    assert (D : 10 * (n / 10) <= n < 10 * (n / 10) + 10) by (pose proof (Z.div_mod n 10); pose proof (Z.mod_pos_bound n 10); lia).
    destruct (IH (n / 10)) as (A & B); [lia| |].
    + apply Z.div_lt_upper_bound; lia.
    + set (j := ndig_fuel k (n / 10)) in *. replace (1 + j - 1) with (Z.succ (j - 1)) by lia. replace (1 + j) with (Z.succ j) by lia.
      rewrite !Z.pow_succ_r by lia. lia.
Qed.
Lemma ndig_ok n : 0 < n -> 10 ^ (ndig n - 1) <= n < 10 ^ ndig n /\ 0 < ndig n.
Proof.
  intros H. unfold ndig. destruct (ndig_fuel_ok (S (Z.to_nat (Z.log2 n))) n H) as (A & B); auto.
  pose proof (Z.log2_spec n H). pose proof (Z.log2_nonneg n). rewrite Nat2Z.inj_succ, Z2Nat.id by lia. lia.
Qed.
Lemma decade_ok n d : 0 < n -> 0 < d -> (b10 (decade n d) <= IZR n / IZR d < b10 (decade n d + 1))%R.
Proof.
  intros Hn Hd. destruct (ndig_ok n Hn) as ((A1 & A2) & A3), (ndig_ok d Hd) as ((B1 & B2) & B3). unfold decade.
  set (k := ndig n - ndig d) in *.
  assert (N : (0 < IZR n)%R) by (apply IZR_lt; lia). assert (D : (0 < IZR d)%R) by (apply IZR_lt; lia).
  apply IZR_le in A1, B1. apply IZR_lt in A2, B2. rewrite <- b10_nonneg in A1, B1, A2, B2 by lia.
  assert (Q : (IZR n / IZR d * IZR d = IZR n)%R) by (field; lra).
  assert (U : (IZR n / IZR d < b10 (k + 1))%R).
  { apply Rmult_lt_reg_r with (IZR d); [lra|]. rewrite Q. apply Rlt_le_trans with (1 := A2).
    replace (ndig n) with ((k + 1) + (ndig d - 1)) by (unfold k; lia). rewrite bpow_plus. apply Rmult_le_compat_l; auto. apply bpow_ge_0. }
  assert (L : (b10 (k - 1) <= IZR n / IZR d)%R).
  { apply Rmult_le_reg_r with (IZR d); [lra|]. rewrite Q. apply Rle_trans with (2 := A1).
    replace (ndig n - 1) with ((k - 1) + ndig d) by (unfold k; lia). rewrite bpow_plus. apply Rmult_le_compat_l; [apply bpow_ge_0|lra]. }
  assert (T : forall (P : Prop), (b10 k <= IZR n / IZR d -> P)%R -> (d * 10 ^ Z.max k 0 <= n * 10 ^ Z.max (- k) 0) -> P).
  { intros P K H. apply K. rewrite <- b10_split. apply IZR_le in H. rewrite !mult_IZR in H. rewrite <- !b10_nonneg in * by lia.
    pose proof (bpow_gt_0 radix10 (Z.max (- k) 0)) as Z0. set (u := b10 (Z.max k 0)) in *. set (w := b10 (Z.max (- k) 0)) in *.
    apply Rmult_le_reg_r with (IZR d * w)%R; [nra|]. replace (u / w * (IZR d * w))%R with (IZR d * u)%R by (field; lra).
    replace (IZR n / IZR d * (IZR d * w))%R with (IZR n * w)%R by (field; lra). exact H. }
  destruct (Z.leb_spec (d * 10 ^ Z.max k 0) (n * 10 ^ Z.max (- k) 0)) as [H|H].
  - split; auto. now apply (T _ (fun x => x) H).
  - replace (k - 1 + 1) with k by lia. split; auto. rewrite <- b10_split. apply IZR_lt in H. rewrite !mult_IZR in H. rewrite <- !b10_nonneg in * by lia.
    pose proof (bpow_gt_0 radix10 (Z.max (- k) 0)) as Z0. set (u := b10 (Z.max k 0)) in *. set (w := b10 (Z.max (- k) 0)) in *.
    apply Rmult_lt_reg_r with (IZR d * w)%R; [nra|]. replace (u / w * (IZR d * w))%R with (IZR d * u)%R by (field; lra).
    replace (IZR n / IZR d * (IZR d * w))%R with (IZR n * w)%R by (field; lra). exact H.
Qed.

(** ** sixteen digits *)
Lemma sig16_ok n d : 0 < n -> 0 < d -> forall q X, sig16 n d = (q, X) ->
  10 ^ 15 <= q < 10 ^ 16 /\ (IZR q * b10 (X - 15) = dround (IZR n / IZR d))%R /\
  (X = decade n d \/ X = decade n d + 1).
Proof.
  intros Hn Hd q X. unfold sig16. destruct (decade_ok n d Hn Hd) as (L & U). set (x := (IZR n / IZR d)%R) in *. set (X0 := decade n d) in *.
  rewrite <- scale_ok by auto. fold x. set (q0 := ZnearestE (x * b10 (15 - X0))).
  assert (Hx : (0 < x)%R) by (pose proof (bpow_gt_0 radix10 X0); lra).
  assert (MG : mag_val radix10 x (mag radix10 x) = X0 + 1).
  { apply mag_unique_pos. replace (X0 + 1 - 1) with X0 by lia. auto. }
  assert (DR : dround x = (IZR q0 * b10 (X0 - 15))%R).
  { unfold dround, round, F2R, scaled_mantissa, cexp. cbn [Fnum Fexp]. rewrite MG. unfold FLX_exp.
    replace (- (X0 + 1 - 16)) with (15 - X0) by lia. now replace (X0 + 1 - 16) with (X0 - 15) by lia. }
  assert (Q1 : 10 ^ 15 <= q0).
  { unfold q0. rewrite <- (Zrnd_IZR ZnearestE (10 ^ 15)). apply Zrnd_le; [apply valid_rnd_N|]. change (IZR (10 ^ 15)) with (IZR (Zpower radix10 15)).
    rewrite IZR_Zpower by lia. replace 15 with (X0 + (15 - X0)) at 1 by lia. rewrite bpow_plus. apply Rmult_le_compat_r; [apply bpow_ge_0|auto]. }
  assert (Q2 : q0 <= 10 ^ 16).
  { unfold q0. rewrite <- (Zrnd_IZR ZnearestE (10 ^ 16)). apply Zrnd_le; [apply valid_rnd_N|]. change (IZR (10 ^ 16)) with (IZR (Zpower radix10 16)).
    rewrite IZR_Zpower by lia. replace 16 with ((X0 + 1) + (15 - X0)) at 1 by lia. rewrite bpow_plus. apply Rmult_le_compat_r; [apply bpow_ge_0|lra]. }
  destruct (Z.eqb_spec q0 (10 ^ 16)) as [E|E]; intros H; injection H as <- <-.
  - split; [lia|]. split; [|lia]. rewrite DR, E. replace (X0 + 1 - 15) with (1 + (X0 - 15)) by lia. rewrite bpow_plus.
    change (b10 1) with (IZR 10). replace (10 ^ 16) with (10 ^ 15 * 10) by reflexivity. rewrite mult_IZR. change (Z.pow_pos 10 15) with (10 ^ 15). generalize (IZR (10 ^ 15)); intros z. ring.
  - split; [lia|]. split; [now rewrite DR|lia].
Qed.

(** ** the digits *)
Lemma digit_char_ok d : 0 <= d < 10 -> is_digit (digit_char d) /\ Z.of_nat (nat_of_ascii (digit_char d)) - 48 = d.
Proof.
  intros H. unfold digit_char. split.
  - exists (48 + Z.to_nat d)%nat. split; [lia|reflexivity].
  - rewrite nat_ascii_embedding by lia. lia.
Qed.
Lemma digs_length k q : length (digs k q) = k.
Proof. induction k; cbn [digs length]; auto. Qed.
Lemma digs_digits k q : forall c, In c (digs k q) -> is_digit c.
Proof. induction k as [|k IH]; cbn [digs]; intros c H; [destruct H|]. destruct H as [<-|H]; auto. apply digit_char_ok. apply Z.mod_pos_bound. lia. Qed.
Lemma digs_value k q : 0 <= q -> place_value (digs k q) = q mod 10 ^ Z.of_nat k.
Proof.
  intros Hq. induction k as [|k IH]; [cbn; now rewrite Z.mod_1_r|]. cbn [digs place_value]. rewrite IH, digs_length.
  destruct (digit_char_ok ((q / 10 ^ Z.of_nat k) mod 10)) as (_ & ->); [apply Z.mod_pos_bound; lia|].
  rewrite Nat2Z.inj_succ, Z.pow_succ_r by lia. rewrite (Z.mul_comm 10), Z.rem_mul_r by (pose proof (pow10_pos (Z.of_nat k)); lia). ring.
Qed.
Lemma place_app a b : place_value (a ++ b) = place_value a * 10 ^ Z.of_nat (length b) + place_value b.
Proof.
  induction a as [|c a IH]; cbn [app place_value length]; [lia|]. rewrite IH, app_length, Nat2Z.inj_add, Z.pow_add_r by lia. ring.
Qed.
Lemma zero_run j : (forall c, In c (repeat "0"%char j) -> is_digit c) /\ place_value (repeat "0"%char j) = 0.
Proof.
  split.
  - intros c H. apply repeat_spec in H. subst. exists 48%nat. split; [lia|reflexivity].
  - induction j; cbn [repeat place_value]; auto.
Qed.
Lemma strip0_ok t : exists j, t = strip0 t ++ repeat "0"%char j.
Proof.
  induction t as [|c t (j & E)]; [exists 0%nat; reflexivity|]. cbn [strip0]. destruct (strip0 t) as [|c' t'] eqn:ES.
  - cbn [app] in E. destruct (Ascii.eqb_spec c "0") as [->|N].
    + exists (S j). cbn [repeat app]. now rewrite <- E.
    + exists j. cbn [app]. now rewrite <- E.
  - exists j. change ((c :: c' :: t') ++ repeat "0"%char j) with (c :: ((c' :: t') ++ repeat "0"%char j)). now rewrite <- E.
Qed.
Lemma digits_sub (a b : text) : (forall c, In c (a ++ b) -> is_digit c) -> forall c, In c a -> is_digit c.
Proof. intros H c Hc. apply H, in_or_app. now left. Qed.
(** a number with its fraction stripped *)
Lemma frac_text sg k ip ft ex E : In (sg, k) signs -> numeral ip -> (forall c, In c ft -> is_digit c) ->
  (ex = [] /\ E = 0 \/
   exists c se ke ed, (c = "e"%char \/ c = "E"%char) /\ In (se, ke) signs /\ numeral ed /\ ex = c :: se ++ ed /\ E = ke * place_value ed) ->
  decimal_text (sg ++ ip ++ frac ft ++ ex) (IZR (k * place_value (ip ++ ft)) * powerRZ 10 (E - Z.of_nat (length ft))).
Proof.
  intros Hs (Hi1 & Hi2) Hf He. destruct (strip0_ok ft) as (j & EF). set (f := strip0 ft) in *.
  assert (Hd : forall c, In c f -> is_digit c) by (rewrite EF in Hf; eapply digits_sub; eauto).
  exists sg, k, ip, (frac ft), f, ex, E. split; auto. split; auto. split; [split; [destruct ip; [congruence|discriminate]|intros c H; apply in_app_or in H as [H|H]; auto]|].
  split.
  { unfold frac. fold f. destruct f; [left; auto|right; reflexivity]. }
  split; auto.
  rewrite EF, app_assoc, (place_app (ip ++ f)), (proj2 (zero_run j)), Z.add_0_r, app_length, !repeat_length, Nat2Z.inj_add.
  rewrite <- !b10_rz. replace (E - Z.of_nat (length f)) with (Z.of_nat j + (E - (Z.of_nat (length f) + Z.of_nat j))) by lia.
  rewrite bpow_plus, (b10_nonneg (Z.of_nat j)), !mult_IZR by lia. ring.
Qed.
Lemma layout_ok sg k q X : In (sg, k) signs -> 10 ^ 15 <= q < 10 ^ 16 -> -1000 < X < 1000 ->
  decimal_text (sg ++ layout q X) (IZR k * (IZR q * b10 (X - 15))).
Proof.
  intros Hs Hq HX. unfold layout. cbv zeta. set (ds := digs 16 q).
  assert (V : place_value ds = q) by (unfold ds; rewrite digs_value by lia; change (Z.of_nat 16) with 16; apply Z.mod_small; lia).
  assert (L : length ds = 16%nat) by apply digs_length. assert (Dg : forall c, In c ds -> is_digit c) by apply digs_digits.
  assert (P : forall i, numeral (firstn (S i) ds) /\ (forall c, In c (skipn (S i) ds) -> is_digit c)).
  { intros i. rewrite <- (firstn_skipn (S i) ds) in Dg. split; [split|].
    - destruct ds; [discriminate L|discriminate].
    - eapply digits_sub; eauto.
    - intros c Hc. apply Dg, in_or_app. now right. }
  assert (R : forall E len v, v = k * q -> E - len = X - 15 -> (IZR v * powerRZ 10 (E - len) = IZR k * (IZR q * b10 (X - 15)))%R).
  { intros E len v -> ->. rewrite <- b10_rz, mult_IZR. ring. }
  destruct ((X <? -4) || (16 <=? X)) eqn:St.
  - assert (LS : Z.of_nat (length (skipn 1 ds)) = 15) by (rewrite skipn_length, L; reflexivity).
    destruct (P 0%nat) as (P1 & P2).
    rewrite <- (R X (Z.of_nat (length (skipn 1 ds))) (k * place_value (firstn 1 ds ++ skipn 1 ds))); [|now rewrite firstn_skipn, V|lia].
    apply frac_text; auto. right. set (ed := if Z.abs X <? 100 then digs 2 (Z.abs X) else digs 3 (Z.abs X)).
    assert (PV : place_value ed = Z.abs X).
    { unfold ed. destruct (Z.ltb_spec (Z.abs X) 100); rewrite digs_value by lia; apply Z.mod_small; cbn; lia. }
    assert (NE : numeral ed).
    { unfold ed. destruct (Z.abs X <? 100); (split; [discriminate|apply digs_digits]). }
    unfold expo. fold ed. exists "e"%char. destruct (Z.ltb_spec X 0).
    + exists (txt "-"), (-1), ed. split; auto. split; [cbn; auto|]. split; auto. split; [reflexivity|]. lia.
    + exists (txt "+"), 1, ed. split; auto. split; [cbn; auto|]. split; auto. split; [reflexivity|]. lia.
  - apply Bool.orb_false_iff in St as (S1 & S2). apply Z.ltb_ge in S1. apply Z.leb_gt in S2. destruct (Z.ltb_spec X 0) as [N|N].
    + set (ft := repeat "0"%char (Z.to_nat (- X - 1)) ++ ds).
      assert (LS : Z.of_nat (length ft) = 15 - X) by (unfold ft; rewrite app_length, repeat_length, L; lia).
      rewrite <- (R 0 (Z.of_nat (length ft)) (k * place_value (txt "0" ++ ft))).
      * replace (sg ++ txt "0" ++ frac ft) with (sg ++ txt "0" ++ frac ft ++ []) by now rewrite app_nil_r.
        apply frac_text; auto.
        -- split; [discriminate|]. apply (zero_run 1).
        -- intros c Hc. unfold ft in Hc. apply in_app_or in Hc as [Hc|Hc]; auto. eapply zero_run; eauto.
      * f_equal. rewrite place_app. unfold ft. rewrite place_app, (proj2 (zero_run _)), V. cbn. lia.
      * lia.
    + replace (Z.to_nat (X + 1)) with (S (Z.to_nat X)) by lia. destruct (P (Z.to_nat X)) as (P1 & P2). set (fs := firstn (S (Z.to_nat X)) ds) in *. set (ks := skipn (S (Z.to_nat X)) ds) in *.
      assert (LS : Z.of_nat (length ks) = 15 - X) by (unfold ks; rewrite skipn_length, L; lia).
      rewrite <- (R 0 (Z.of_nat (length ks)) (k * place_value (fs ++ ks))); [|unfold fs, ks; now rewrite firstn_skipn, V|lia].
      replace (sg ++ fs ++ frac ks) with (sg ++ fs ++ frac ks ++ []) by now rewrite app_nil_r.
      apply frac_text; auto.
Qed.
