(** C86, continued: integers, rows and files. *)
From Coq Require Import Ascii String Reals SpecFloat Lra Lia Decimal DecimalFacts DecimalPos DecimalString.
From Flocq Require Import Core BinarySingleNaN.
From Verif Require Import Base BaseLemmas ForList Arith MParams MFd MSphere MGrid MIo MFmt PText PParams PropParams PropIo PFd PTables PGrid PMake PGridOp PropGrid PropTables PropSphere PIo GridSpec SphereSpec FmtSpec FpSpec Fp PFmt PFmt2 PropFmt.
Local Open Scope Z_scope.

(** ** numerals without leading zeros are determined by their value *)
Lemma place_bound a : (forall c, In c a -> is_digit c) -> 0 <= place_value a < 10 ^ Z.of_nat (length a).
Proof.
  induction a as [|c a IH]; intros H; cbn [place_value length]; [cbn; lia|]. destruct (H c) as (n & Hn & ->); [now left|]. rewrite nat_ascii_embedding by lia.
  assert (I := IH (fun d Hd => H d (or_intror Hd))). rewrite Nat2Z.inj_succ, Z.pow_succ_r by lia. nia.
Qed.
Lemma place_inj a : forall b, (forall c, In c a -> is_digit c) -> (forall c, In c b -> is_digit c) -> length a = length b -> place_value a = place_value b -> a = b.
Proof.
  induction a as [|x a IH]; intros [|y b] Ha Hb L E; try discriminate L; [reflexivity|]. cbn [place_value length] in *. injection L as L.
  assert (Ba := place_bound a (fun d Hd => Ha d (or_intror Hd))). assert (Bb := place_bound b (fun d Hd => Hb d (or_intror Hd))). rewrite L in *.
  destruct (Ha x) as (n & Hn & ->); [now left|]. destruct (Hb y) as (k & Hk & ->); [now left|]. rewrite !nat_ascii_embedding in E by lia.
  set (P := 10 ^ Z.of_nat (length b)) in *. assert (n = k) by nia. subst k. f_equal. apply IH; auto; [intros; apply Ha; now right|intros; apply Hb; now right|lia].
Qed.
Lemma uint_head p : match Pos.to_uint p with D0 _ => False | _ => True end.
Proof.
  pose proof (Unsigned.to_of (Pos.to_uint p)) as T. pose proof (Unsigned.of_to p) as O. rewrite O in T. cbn [N.to_uint] in T.
  destruct (Pos.to_uint p) as [|u|u|u|u|u|u|u|u|u|u]; auto. rewrite unorm_D0 in T. destruct u; [vm_compute in O; discriminate O|..];
  match goal with H : _ = unorm ?u |- _ => pose proof (nb_digits_unorm u ltac:(discriminate)) as B; rewrite <- H in B; cbn in B; lia end.
Qed.
Definition pdig (p : positive) : text := txt (NilEmpty.string_of_uint (Pos.to_uint p)).
Lemma dec_head p : 10 ^ Z.of_nat (length (pdig p) - 1) <= Zpos p.
Proof.
  rewrite <- (place_pos p). fold (pdig p). pose proof (proj2 (numeral_pos p)) as D. fold (pdig p) in D. unfold pdig in *. pose proof (uint_head p) as N. pose proof (to_uint_nonnil p) as NN.
  destruct (Pos.to_uint p) as [|u|u|u|u|u|u|u|u|u|u]; [congruence|contradiction|..];
  (cbn [NilEmpty.string_of_uint] in *; match goal with |- context [txt (String ?c ?s)] => change (txt (String c s)) with (c :: txt s) in * end;
   cbn [length place_value]; rewrite Nat.sub_succ, Nat.sub_0_r; match type of D with forall c, In c (_ :: ?a) -> _ => pose proof (place_bound a (fun d Hd => D d (or_intror Hd))) as B end;
   match goal with |- context [nat_of_ascii ?c] => let v := eval vm_compute in (Z.of_nat (nat_of_ascii c)) in change (Z.of_nat (nat_of_ascii c)) with v end; nia).
Qed.
Lemma dec_digs p a : (forall c, In c a -> is_digit c) -> (0 < length a)%nat -> 10 ^ Z.of_nat (length a - 1) <= Zpos p -> place_value a = Zpos p -> a = pdig p.
Proof.
  intros Ha La La2 E. pose proof (numeral_pos p) as (_ & Hp). fold (pdig p) in Hp. pose proof (place_pos p) as Ep. fold (pdig p) in Ep.
  apply place_inj; auto; [|congruence]. pose proof (dec_head p) as H1. pose proof (place_bound _ Ha) as B1. pose proof (place_bound _ Hp) as B2. rewrite E in B1. rewrite Ep in B2.
  assert (L1 : Z.of_nat (length a - 1) < Z.of_nat (length (pdig p))) by (apply (Z.pow_lt_mono_r_iff 10); lia).
  assert (L2 : Z.of_nat (length (pdig p) - 1) < Z.of_nat (length a)) by (apply (Z.pow_lt_mono_r_iff 10); lia). lia.
Qed.
Lemma zeros_only a : (forall c, In c a -> is_digit c) -> place_value a = 0 -> strip0 a = [].
Proof.
  induction a as [|c a IH]; intros H E; [reflexivity|]. cbn [place_value] in E. destruct (H c) as (n & Hn & ->); [now left|]. rewrite nat_ascii_embedding in E by lia.
  pose proof (place_bound a (fun d Hd => H d (or_intror Hd))) as B. assert (0 < 10 ^ Z.of_nat (length a)) by (apply pow10_pos; lia).
  cbn [strip0]. rewrite IH; [|intros; apply H; now right|nia]. replace n with 48%nat by nia. reflexivity.
Qed.
Lemma dround_int n : Z.abs n < 10 ^ 16 -> dround (IZR n) = IZR n.
Proof.
  intros H. unfold dround. apply round_generic; [apply valid_rnd_N|]. apply few_generic. exists n, 0. split; auto. cbn. ring.
Qed.
Lemma sig16_int p X q n d : 0 < n -> 0 < d -> (IZR n / IZR d = IZR (Zpos p))%R -> Zpos p < 10 ^ 16 -> sig16 n d = (q, X) ->
  0 <= X <= 15 /\ q = Zpos p * 10 ^ (15 - X).
Proof.
  intros Hn Hd E Hp S. destruct (sig16_ok n d Hn Hd q X S) as (Hq & V & _). rewrite E, dround_int in V by (cbn; lia).
  assert (X <= 15 /\ 0 <= X) as (X1 & X0).
  { split.
    - destruct (Z.le_gt_cases X 15); auto. exfalso. assert (IZR (10 ^ 15 * 10) <= IZR q * b10 (X - 15))%R.
      { rewrite mult_IZR. apply Rmult_le_compat; [apply IZR_le; lia|lra|apply IZR_le; lia|]. change 10%R with (b10 1). apply bpow_le. lia. }
      rewrite V in H0. apply le_IZR in H0. lia.
    - destruct (Z.le_gt_cases 0 X); auto. exfalso. assert (IZR q * b10 (X - 15) < IZR (10 ^ 16) * b10 (-16))%R.
      { apply Rlt_le_trans with (IZR (10 ^ 16) * b10 (X - 15))%R; [apply Rmult_lt_compat_r; [apply bpow_gt_0|apply IZR_lt; lia]|].
        apply Rmult_le_compat_l; [apply IZR_le; lia|apply bpow_le; lia]. }
      rewrite V in H0. replace (IZR (10 ^ 16) * b10 (-16))%R with 1%R in H0.
      + apply lt_IZR in H0. lia.
      + change (IZR (10 ^ 16)) with (b10 16). rewrite <- bpow_plus. reflexivity. }
  split; auto. apply eq_IZR. rewrite mult_IZR, <- b10_nonneg by lia. rewrite <- V, Rmult_assoc, <- bpow_plus. replace (X - 15 + (15 - X)) with 0 by lia. cbn [bpow]. ring.
Qed.
Lemma layout_int p X : 0 <= X <= 15 -> 10 ^ 15 <= Zpos p * 10 ^ (15 - X) < 10 ^ 16 -> layout (Zpos p * 10 ^ (15 - X)) X = pdig p.
Proof.
  intros HX Hq. unfold layout. cbv zeta. replace ((X <? -4) || (16 <=? X))%bool with false by (symmetry; apply Bool.orb_false_iff; split; [apply Z.ltb_ge|apply Z.leb_gt]; lia).
  replace (X <? 0) with false by (symmetry; apply Z.ltb_ge; lia). set (q := Zpos p * 10 ^ (15 - X)) in *. set (ds := digs 16 q). set (k := Z.to_nat (X + 1)).
  assert (V : place_value ds = q) by (unfold ds; rewrite digs_value by lia; change (Z.of_nat 16) with 16; apply Z.mod_small; lia).
  assert (L : length ds = 16%nat) by apply digs_length.
  assert (L1 : length (firstn k ds) = k) by (rewrite firstn_length, L; unfold k; lia). assert (L2 : Z.of_nat (length (skipn k ds)) = 15 - X) by (rewrite skipn_length, L; unfold k; lia).
  assert (D1 : forall c, In c (firstn k ds) -> is_digit c) by (intros c Hc; apply sub1 in Hc; exact Hc). assert (D2 : forall c, In c (skipn k ds) -> is_digit c) by (intros c Hc; apply sub2 in Hc; exact Hc).
  rewrite <- (firstn_skipn k ds), place_app, L2 in V. pose proof (place_bound _ D2) as B2. rewrite L2 in B2. assert (P : 0 < 10 ^ (15 - X)) by (apply pow10_pos; lia).
  assert (V1 : place_value (firstn k ds) = Zpos p) by (unfold q in V; nia). assert (V2 : place_value (skipn k ds) = 0) by (unfold q in V; nia).
  unfold frac. rewrite (zeros_only _ D2 V2), app_nil_r. apply dec_digs; auto; [rewrite L1; unfold k; lia|]. rewrite L1. replace (Z.of_nat (k - 1)) with X by (unfold k; lia).
  assert (10 ^ 15 = 10 ^ X * 10 ^ (15 - X)) by (rewrite <- Z.pow_add_r by lia; f_equal; lia). unfold q in Hq. nia.
Qed.
(** Property: an integer of less than 2^53 in magnitude is written exactly, as the plain integer numeral. *)
Theorem C86_integers n : Z.abs n < 2 ^ 53 -> fmt16 (sf_ofZ n) = dec n.
Proof.
  intros H. destruct (ofZ_ok n H) as ((D & Fi) & V). fold (sf_ofZ n) in *. destruct (Z.eq_dec n 0) as [->|N]; [reflexivity|].
  destruct (sf_ofZ n) as [s|s| |s m e] eqn:E; try destruct Fi.
  { exfalso. cbn [val] in V. apply eq_IZR in V. lia. }
  rewrite val_finite in V. cbn [fmt16]. fold (mag_n m e) (mag_d e). destruct (sig16 (mag_n m e) (mag_d e)) as (q, X) eqn:S.
  assert (Q0 : (0 < IZR (mag_n m e) / IZR (mag_d e))%R).
  { apply Rmult_lt_0_compat; [apply IZR_lt, mag_n_pos|]. apply Rinv_0_lt_compat, IZR_lt, mag_d_pos. }
  assert (K : exists p, n = (if s then Zneg p else Zpos p) /\ (IZR (mag_n m e) / IZR (mag_d e) = IZR (Zpos p))%R).
  { destruct n as [|p|p]; [congruence| |]; exists p; destruct s.
    - exfalso. assert (0 < IZR (Zpos p))%R by (apply IZR_lt; lia). lra.
    - split; auto. lra.
    - split; auto. change (Zneg p) with (- Zpos p) in V. rewrite opp_IZR in V. lra.
    - exfalso. assert (IZR (Zneg p) < 0)%R by (apply IZR_lt; lia). lra. }
  destruct K as (p & -> & EQ). assert (Hp : Zpos p < 10 ^ 16) by (destruct s; cbn in H; lia).
  destruct (sig16_int p X q _ _ (mag_n_pos m e) (mag_d_pos e) EQ Hp S) as (HX & ->). destruct (sig16_ok _ _ (mag_n_pos m e) (mag_d_pos e) _ _ S) as (Hq & _).
  rewrite layout_int by auto. unfold pdig. destruct s; unfold sgn_txt, dec; cbn [Z.to_int NilZero.string_of_int]; rewrite nz_uint by apply to_uint_nonnil; reflexivity.
Qed.

(** ** rows *)
(** the texts between the commas of a row *)
Definition no_comma (t : text) : Prop := ~ In ","%char t.
Definition is_fields (row : text) (L : list text) : Prop :=
  exists cells last, row = concat (map (fun c => c ++ txt ",") cells) ++ last /\ Forall no_comma cells /\ no_comma last /\ L = cells ++ [last].
Lemma fields_unique cells : forall last cells' last', Forall no_comma cells -> no_comma last -> Forall no_comma cells' -> no_comma last' ->
  concat (map (fun c => c ++ txt ",") cells) ++ last = concat (map (fun c => c ++ txt ",") cells') ++ last' -> cells = cells' /\ last = last'.
Proof.
  assert (CS : forall (c : text) cells last, concat (map (fun c => c ++ txt ",") (c :: cells)) ++ last = c ++ ","%char :: (concat (map (fun c => c ++ txt ",") cells) ++ last)).
  { intros. cbn [map concat]. rewrite <- !app_assoc. reflexivity. }
  assert (SP : forall a b r r', no_comma a -> no_comma b -> a ++ ","%char :: r = b ++ ","%char :: r' -> a = b /\ r = r').
  { induction a as [|x a IH]; intros [|y b] r r' Ha Hb E; cbn [app] in E.
    - injection E as ->. auto.
    - injection E as <- _. exfalso. apply Hb. now left.
    - injection E as -> _. exfalso. apply Ha. now left.
    - injection E as -> E. destruct (IH b r r') as (-> & ->); auto; intros C; [apply Ha|apply Hb]; now right. }
  induction cells as [|c cells IH]; intros last [|c' cells'] last' H1 H2 H3 H4 E.
  - cbn [map concat app] in E. auto.
  - rewrite CS in E. cbn [map concat app] in E. exfalso. apply H2. rewrite E. apply in_or_app. right. now left.
  - rewrite CS in E. cbn [map concat app] in E. exfalso. apply H4. rewrite <- E. apply in_or_app. right. now left.
  - rewrite !CS in E. inversion H1; inversion H3; subst. apply SP in E as (-> & E); auto. destruct (IH last cells' last') as (-> & ->); auto.
Qed.
Lemma fmt16_clean x : no_comma (fmt16 x) /\ one_line (fmt16 x).
Proof. split; intros H; apply C86_characters in H; apply plain_no in H; intuition. Qed.
Lemma dec_clean n : no_comma (dec n) /\ one_line (dec n).
Proof.
  split; intros H; apply dec_chars in H as [(k & Hk & E)|E]; try discriminate E; apply (f_equal nat_of_ascii) in E; rewrite nat_ascii_embedding in E by lia; vm_compute in E; lia.
Qed.
(** reading a row of cells back *)
Lemma row_fields cells last L : Forall no_comma cells -> no_comma last -> is_fields (concat (map (fun c => c ++ txt ",") cells) ++ last) L -> L = cells ++ [last].
Proof.
  intros H1 H2 (cells' & last' & E & H3 & H4 & ->). destruct (fields_unique cells last cells' last') as (-> & ->); auto.
Qed.
Lemma joined_lines rows s L : Forall one_line rows -> s = concat (map (fun r => r ++ endl) rows) -> is_lines s L -> L = rows.
Proof.
  intros H E HL. destruct (lines_unique s) as (L0 & _ & U). rewrite (U L HL). symmetry. apply U. exists rows, []. split; [|split; [auto|split; [intros []|now rewrite app_nil_r]]].
  unfold joined. rewrite app_nil_r. exact E.
Qed.

(** Property: the lines Csv::write adds to its file are, in order, the texts of the values: one line each. *)
Theorem C86_values_file fs name itm (v : list spec_float) : fs_can fs (name_write name itm) = true ->
  exists data, appended fs (csv_write fmt16 fs name itm v) (name_write name itm) data /\ forall L, is_lines data L -> L = map fmt16 v.
Proof.
  intros C. exists (concat (map (fun x => fmt16 x ++ endl) v)). split; [unfold csv_write; rewrite C; apply append_appended|].
  intros L. apply joined_lines; [|now rewrite map_map]. apply Forall_map, Forall_forall. intros x _. apply fmt16_clean.
Qed.

Section Files.
Variables (lexp llog lcos lsin lacos : spec_float -> spec_float) (lpi : spec_float).
#[local] Instance D2 : Arith spec_float := b64 lexp llog lcos lsin lacos lpi.
Variables (b : build) (h : sht spec_float) (cl0 Rmin0 Rmax0 : spec_float) (nx : nat) (g : grid spec_float).
Hypothesis Hg : grid_of b h cl0 Rmin0 Rmax0 nx g.
Hypothesis Hsh : shapes h.
(** Property: in the spectrum files written by the driver, the lines after the header are the rows, in order, and the
    comma-separated fields of the row of radial node ix and degree l are the text of the node's coordinate, the
    integer numeral of l and the text of the (floored) logarithm of the power. *)
Theorem C86_spectrum_file fs name sc itm v : length v = g_n3 g -> fs_can fs (name_kind "RPsl" name itm) = true -> Z.of_nat (s_lmax h) < 2 ^ 53 ->
  exists fs' data, write_R_psl fmt16 fs g name sc itm v = Ok fs' /\ appended fs fs' (name_kind "RPsl" name itm) data /\
  forall L, is_lines data L -> exists rows, L = (if sc then [txt "R,l,log(value)"] else []) ++ rows /\ length rows = (nx * s_lmax h)%nat /\
    forall ix, (ix < nx)%nat -> exists R q, rad_pt (g_radial g) ix = Ok R /\
      power_spectrum b (g_sphere g) (shell g v ix) (vec (s_lmax h) f0) = Ok q /\ length q = s_lmax h /\
      forall l, (l < s_lmax h)%nat -> exists x row, nth_error q l = Some x /\ nth_error rows (s_lmax h * ix + l) = Some row /\
        forall F, is_fields row F <-> F = [fmt16 R; dec (Z.of_nat l); fmt16 (log10_floor x)].
Proof.
  intros Lv C Hl. destruct (C58_rows fmt16 b h cl0 Rmin0 Rmax0 nx g Hg Hsh fs name sc itm v Lv C) as (fs' & rows & E & Lr & A & H). eexists fs', _. split; [exact E|]. split; [exact A|].
  intros L HL.
  assert (RW : forall i, (i < nx * s_lmax h)%nat -> exists R l y, nth_error rows i = Some (fmt16 R ++ txt "," ++ fmt16 (fnat l) ++ txt "," ++ fmt16 y ++ endl)).
  { intros i Hi. assert (N0 : s_lmax h <> 0%nat) by nia. destruct (H (i / s_lmax h)%nat) as (R & q & _ & _ & _ & Hq); [apply Nat.div_lt_upper_bound; lia|].
    destruct (Hq (i mod s_lmax h)%nat) as (x & _ & Ex); [apply Nat.mod_upper_bound; auto|]. rewrite <- (Nat.div_mod i (s_lmax h)) in Ex by auto. eauto. }
  pose (cut1 := fun r : text => firstn (length r - 1) r).
  assert (RC : forall r, In r rows -> exists t, r = t ++ endl /\ one_line t).
  { intros r Hr. apply In_nth_error in Hr as (i & Hi). assert (i < length rows)%nat by (apply nth_error_Some; congruence). destruct (RW i) as (R & l & y & Ei); [lia|]. rewrite Hi in Ei. injection Ei as ->.
    exists (fmt16 R ++ txt "," ++ fmt16 (fnat l) ++ txt "," ++ fmt16 y). split; [now rewrite <- !app_assoc|].
    intros K. repeat (apply in_app_or in K as [K|K]); try (now apply fmt16_clean in K); destruct K as [K|[]]; discriminate K. }
  assert (CE : forall t : text, cut1 (t ++ endl) = t).
  { intros t. unfold cut1. rewrite app_length. cbn [endl length]. replace (length t + 1 - 1)%nat with (length t) by lia. rewrite firstn_app, Nat.sub_diag, firstn_all. cbn [firstn]. apply app_nil_r. }
  exists (map cut1 rows). split.
  - set (hd := if sc then [txt "R,l,log(value)"] else []). apply (joined_lines (hd ++ map cut1 rows) _ L) in HL; auto.
    + apply Forall_app. split.
      * unfold hd. destruct sc; repeat constructor. intros K. cbn in K. repeat (destruct K as [K|K]; [discriminate K|]). exact K.
      * apply Forall_map, Forall_forall. intros r Hr. destruct (RC r Hr) as (t & -> & Ht). now rewrite CE.
    + rewrite map_app, concat_app. f_equal.
      * unfold hd. destruct sc; [cbn [map concat]; now rewrite app_nil_r|reflexivity].
      * f_equal. rewrite map_map. rewrite <- (map_id rows) at 1. apply map_ext_in. intros r Hr. destruct (RC r Hr) as (t & -> & _). now rewrite CE.
  - split; [now rewrite map_length|]. intros ix Hx. destruct (H ix Hx) as (R & q & E1 & E2 & E3 & Hq). exists R, q. split; auto. split; auto. split; auto.
    intros l Hll. destruct (Hq l Hll) as (x & Ex & Er). exists x. eexists. split; auto. split; [rewrite nth_error_map; exact (f_equal (option_map cut1) Er)|].
    assert (EF : fmt16 (fnat l) = dec (Z.of_nat l)) by (apply C86_integers; lia). rewrite EF.
    replace (cut1 _) with (concat (map (fun c => c ++ txt ",") [fmt16 R; dec (Z.of_nat l)]) ++ fmt16 (log10_floor x)).
    + intros F. assert (K1 : Forall no_comma [fmt16 R; dec (Z.of_nat l)]) by (repeat constructor; [apply fmt16_clean|apply dec_clean]). pose proof (proj1 (fmt16_clean (log10_floor x))) as K2. split.
      * intros HF. apply row_fields in HF; auto.
      * intros ->. exists [fmt16 R; dec (Z.of_nat l)], (fmt16 (log10_floor x)). auto.
    + symmetry. replace (fmt16 R ++ _) with ((concat (map (fun c => c ++ txt ",") [fmt16 R; dec (Z.of_nat l)]) ++ fmt16 (log10_floor x)) ++ endl); [apply CE|].
      cbn [map concat]. rewrite app_nil_r, <- !app_assoc. reflexivity.
Qed.
End Files.
