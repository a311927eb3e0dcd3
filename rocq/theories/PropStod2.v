(** C87, continued: text around the numeral, texts that are not numerals, concrete cases. *)
From Coq Require Import Ascii String Reals SpecFloat Lra Lia.
From Verif Require Import Base BaseLemmas Arith MParams MIo MFmt PText PParams PropParams FmtSpec FpSpec Fp PFmt PFmt2 PStod PropFmt PropStod.
Local Open Scope Z_scope.

(** text that cannot continue a numeral: it is empty or its first character is no digit, point, e, E, x or X *)
Definition stops (rest : text) : Prop :=
  match rest with [] => True | c :: _ => ~ is_digit c /\ ~ In c (txt ".eExX") end.
Lemma stops_no_more rest : stops rest -> no_more rest.
Proof. destruct rest; cbn; tauto. Qed.
Lemma lower_x c : Ascii.eqb (lower c) "x" = true -> c = "x"%char \/ c = "X"%char.
Proof.
  destruct c as [[|] [|] [|] [|] [|] [|] [|] [|]]; vm_compute; intros H; try discriminate H; auto.
Qed.
Lemma stops_no_x rest : stops rest -> no_x rest.
Proof.
  destruct rest as [|c r]; [exact (fun x => x)|]. intros (_ & H). cbn. apply Bool.not_true_iff_false. intros E. apply lower_x in E. apply H. destruct E as [->| ->]; cbn; tauto.
Qed.
Lemma scan_expo_rest ex E rest : expo_text ex E -> stops rest -> scan_expo (ex ++ rest) = E.
Proof.
  intros [(-> & ->)|(c & se & ke & ed & Hc & Hs & (Hn & Hd) & -> & ->)] St.
  - cbn [app]. destruct rest as [|c r]; [reflexivity|]. destruct St as (_ & St). cbn [scan_expo]. unfold is_ch.
    destruct (Ascii.eqb_spec c "e") as [->|]; [exfalso; apply St; cbn; tauto|]. destruct (Ascii.eqb_spec c "E") as [->|]; [exfalso; apply St; cbn; tauto|]. reflexivity.
  - cbn [scan_expo app]. replace (is_ch c "e" "E") with true by (destruct Hc as [->| ->]; reflexivity).
    assert (S : span_digits (ed ++ rest) = (ed, rest)) by (apply span_app; auto using stops_no_more).
    assert (G : match ed with [] => 0 | ds => ke * digits 0 ds end = ke * place_value ed) by (rewrite <- digits_all by auto; destruct ed; [congruence|reflexivity]).
    destruct Hs as [Hs|[Hs|[Hs|[]]]]; injection Hs as <- <-.
    + cbn [app]. destruct ed as [|d ed]; [congruence|]. cbn [app] in *. destruct (digit_nosign d) as (M & P); [apply Hd; now left|]. rewrite M, P, S. exact G.
    + cbn [app txt list_ascii_of_string]. change (Ascii.eqb "+" "-") with false. change (Ascii.eqb "+" "+") with true. cbv iota. rewrite S. clear - G. destruct ed; exact G.
    + cbn [app txt list_ascii_of_string]. change (Ascii.eqb "-" "-") with true. cbv iota. rewrite S. clear - G. destruct ed; exact G.
Qed.
Lemma expo_rest_no_more ex E rest : expo_text ex E -> stops rest -> no_more (ex ++ rest).
Proof. intros [(-> & _)|(c & se & ke & ed & Hc & _ & _ & -> & _)] St; cbn; auto using stops_no_more, not_digit_e. Qed.
Lemma scan_dec_rest ip point fp ex E rest : numeral (ip ++ fp) -> (point = [] /\ fp = [] \/ point = "."%char :: fp) -> expo_text ex E -> stops rest ->
  scan_dec (ip ++ point ++ ex ++ rest) = Some (place_value (ip ++ fp), E - Z.of_nat (length fp)).
Proof.
  intros (Hn & Hd) Hp He St. pose proof (expo_rest_no_more _ _ _ He St) as NE. pose proof (scan_expo_rest _ _ _ He St) as SE. unfold scan_dec.
  assert (Hip : forall c, In c ip -> is_digit c) by (eapply digits_sub; eauto).
  assert (Hfp : forall c, In c fp -> is_digit c) by (intros c Hc; apply Hd, in_or_app; now right).
  assert (G : match ip ++ fp with [] => None | ds => Some (digits 0 ds, scan_expo (ex ++ rest) - Z.of_nat (length fp)) end = Some (place_value (ip ++ fp), E - Z.of_nat (length fp))).
  { rewrite SE, <- digits_all by auto. destruct (ip ++ fp); [congruence|reflexivity]. }
  destruct Hp as [(-> & ->)| ->].
  - cbn [app]. rewrite span_app by auto. destruct (ex ++ rest) as [|c s] eqn:EE; [exact G|].
    destruct (Ascii.eqb_spec c ".") as [->|N]; [|exact G]. exfalso. destruct He as [(-> & _)|(c & se & ke & ed & Hc & _ & _ & -> & _)].
    + cbn [app] in EE. rewrite EE in St. destruct St as (_ & St). apply St. cbn. tauto.
    + injection EE as -> _. destruct Hc; discriminate.
  - rewrite span_app by (auto; exact not_digit_dot). cbn [app]. change (Ascii.eqb "." ".") with true. cbv iota. rewrite span_app by auto. exact G.
Qed.
Lemma body_read_rest hex sg ip point fp ex E rest : numeral (ip ++ fp) -> (point = [] /\ fp = [] \/ point = "."%char :: fp) -> expo_text ex E -> stops rest ->
  unsigned_double hex sg (ip ++ point ++ ex ++ rest) = dec_double sg (place_value (ip ++ fp)) (E - Z.of_nat (length fp)) /\
  exists c t, ip ++ point ++ ex ++ rest = c :: t /\ (is_digit c \/ c = "."%char).
Proof.
  intros Hn Hp He St. pose proof (scan_dec_rest ip point fp ex E rest Hn Hp He St) as SC. destruct Hn as (Hn & Hd). unfold unsigned_double.
  assert (K : exists c t, ip ++ point ++ ex ++ rest = c :: t /\ (is_digit c \/ c = "."%char) /\ no_x t).
  { destruct ip as [|c ip].
    - destruct Hp as [(-> & ->)| ->]; [destruct (Hn eq_refl)|]. cbn [app]. exists "."%char. eexists. split; [reflexivity|]. split; auto. destruct fp as [|d fp]; [destruct (Hn eq_refl)|]. apply digit_no_x, Hd. now left.
    - cbn [app]. exists c. eexists. split; [reflexivity|]. split; [left; apply Hd; now left|]. destruct ip as [|d ip].
      + cbn [app]. destruct Hp as [(-> & ->)| ->]; [|reflexivity]. cbn [app]. destruct ex as [|x ex]; [now apply stops_no_x|]. apply (expo_no_x _ _ He).
      + apply digit_no_x, Hd. right. now left. }
  destruct K as (c & t & Ec & Hc & Hx). split; [|eauto]. rewrite SC, Ec. destruct (lower_digit c Hc) as (L & _ & LI & LN). cbn [starts txt list_ascii_of_string]. rewrite L, LI, LN. cbn [andb].
  replace (Ascii.eqb c "0" && _)%bool with false; [reflexivity|]. symmetry. apply Bool.andb_false_intro2. destruct t as [|d t]; [reflexivity|]. cbn [starts]. cbn in Hx. now rewrite Hx.
Qed.
(** Property: white space in front and text behind a numeral are ignored. *)
Theorem C87_around hex lead w rest v : blank lead -> decimal_text w v -> stops rest -> stod64 hex (lead ++ w ++ rest) = stod64 hex w.
Proof.
  intros Bl (sg & k & ip & point & fp & ex & E & -> & Hs & Hn & Hp & He & _) St. unfold stod64. rewrite skip_ws_app by auto. rewrite <- !app_assoc.
  destruct (body_read_rest hex false ip point fp ex E rest Hn Hp He St) as (R0 & c & t & Ec & Hc). destruct (body_read_rest hex true ip point fp ex E rest Hn Hp He St) as (R1 & _).
  destruct (body_read hex false ip point fp ex E Hn Hp He) as (Q0 & c' & t' & Ec' & Hc'). destruct (body_read hex true ip point fp ex E Hn Hp He) as (Q1 & _).
  assert (SI : forall c, is_digit c \/ c = "."%char -> is_space c = false /\ Ascii.eqb c "-" = false /\ Ascii.eqb c "+" = false).
  { intros a Ha. split; [apply (lower_digit a Ha)|]. destruct Ha as [Ha| ->]; [now apply digit_nosign|split; reflexivity]. }
  destruct Hs as [Hs|[Hs|[Hs|[]]]]; injection Hs as <- <-.
  - cbn [app]. rewrite <- Q0 in R0. rewrite Ec, Ec' in *. destruct (SI c Hc) as (A1 & A2 & A3). destruct (SI c' Hc') as (B1 & B2 & B3). rewrite !skip_ws_id, A2, A3, B2, B3 by auto. exact R0.
  - cbn [app txt list_ascii_of_string]. rewrite !skip_ws_id by reflexivity. change (Ascii.eqb "+" "-") with false. change (Ascii.eqb "+" "+") with true. cbv iota. rewrite R0. symmetry. exact Q0.
  - cbn [app txt list_ascii_of_string]. rewrite !skip_ws_id by reflexivity. change (Ascii.eqb "-" "-") with true. cbv iota. rewrite R1. symmetry. exact Q1.
Qed.
(** Property: a text that (after white space) is empty or starts with a character that begins neither a number nor
    inf or nan is rejected: stod throws. *)
Theorem C87_rejects hex lead rest : blank lead ->
  (rest = [] \/ exists c r, rest = c :: r /\ is_space c = false /\ ~ is_digit c /\ ~ In c (txt "+-.iInN")) -> stod64 hex (lead ++ rest) = None.
Proof.
  intros Bl H. unfold stod64. rewrite skip_ws_app by auto. destruct H as [->|(c & r & -> & Sp & Nd & Ni)]; [reflexivity|]. rewrite skip_ws_id by auto.
  assert (K : forall x, In x (txt "+-.iInN") -> Ascii.eqb c x = false) by (intros x Hx; apply Ascii.eqb_neq; intros ->; auto).
  rewrite (K "-"%char), (K "+"%char) by (cbn; tauto). unfold unsigned_double.
  assert (LI : Ascii.eqb (lower c) "i" = false /\ Ascii.eqb (lower c) "n" = false).
  { split; apply Bool.not_true_iff_false; intros E; apply Ni; revert E; clear; destruct c as [[|] [|] [|] [|] [|] [|] [|] [|]]; vm_compute; intros H; try discriminate H; tauto. }
  assert (L0 : Ascii.eqb (lower c) "0" = false).
  { apply Bool.not_true_iff_false; intros E; apply Nd. assert (c = "0"%char) as -> by (revert E; clear; destruct c as [[|] [|] [|] [|] [|] [|] [|] [|]]; vm_compute; intros H; try discriminate H; reflexivity). exists 48%nat. split; [lia|reflexivity]. }
  destruct LI as (LI & LN). cbn [starts txt list_ascii_of_string]. rewrite LI, LN, L0. cbn [andb]. unfold scan_dec. cbn [span_digits]. rewrite digit_not by auto. rewrite (K "."%char) by (cbn; tauto). reflexivity.
Qed.
(** so a number in Fortran style is silently read as its mantissa, and a comma as decimal point cuts the number *)
Theorem C87_hazards hex : stod64 hex (txt "1d-3") = stod64 hex (txt "1") /\ stod64 hex (txt "0,5") = stod64 hex (txt "0") /\
  stod64 hex (txt "True") = None /\ stod64 hex [] = None /\ stod64 hex (txt "inf") = Some (S754_infinity false).
Proof. repeat split; vm_compute; reflexivity. Qed.
Example C87_nonvacuous hex :
  stod64 hex (txt "0.1") = Some (S754_finite false 7205759403792794 (-56)) /\
  stod64 hex (txt "-1.25e+2") = Some (S754_finite true 8796093022208000 (-46)) /\
  stod64 hex (txt "1e400") = None /\ stod64 hex (txt "1e-320") = None /\
  stod64 hex (txt "0.0") = Some (S754_zero false) /\
  decimal_text (txt "0.1") (/ 10) /\ (tiny <= Rabs (/ 10) < huge)%R /\ fin (S754_finite false 7205759403792794 (-56)).
Proof.
  do 5 (split; [vm_compute; reflexivity|]). split; [|split].
  - exists [], 1%Z, (txt "0"), (txt ".1"), (txt "1"), [], 0%Z. split; [reflexivity|]. split; [now left|]. split.
    { split; [discriminate|]. intros c [<-|[<-|[]]]; [exists 48%nat|exists 49%nat]; (split; [lia|reflexivity]). }
    split; [now right|]. split; [now left|]. transitivity (IZR 1 * / (10 * 1))%R; [lra|reflexivity].
  - rewrite Rabs_pos_eq by lra. unfold tiny, huge. split.
    + apply Rinv_le_contravar; [lra|]. apply Rle_trans with (2 ^ 4)%R; [lra|]. apply Rle_pow; [lra|lia].
    + assert (2 ^ 1024 = 2 ^ 54 * 2 ^ 970)%R by (rewrite <- pow_add; reflexivity). assert (1 <= 2 ^ 970)%R by (apply pow_R1_Rle; lra). lra.
  - split; [reflexivity|exact I].
Qed.
