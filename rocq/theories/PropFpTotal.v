(** * C81, second part: rounding plus truncation — how far the derivative computed in double precision
    from (inexact) samples of a smooth function is from the true derivative. *)
From Coq Require Import ZArith Reals SpecFloat Bool Lra Lia List.
From Coquelicot Require Import Coquelicot.
From Verif Require Import Base BaseLemmas Arith MFd PFd PFdR PMake PropFd PropFd2 FpSpec Fp FpErr PropFpFd.
Local Open Scope R_scope.

Lemma der_val_bound n h (w : nat -> R) i B : (7 <= n)%nat -> (i < n)%nat -> 0 < h ->
  (forall j, (j < n)%nat -> Rabs (w j) <= B) -> Rabs (der_val n h w i) <= 28 * B / h.
Proof.
  intros Hn Hi Hh HB. assert (PI : 0 < / h) by now apply Rinv_0_lt_compat.
  assert (B0 : 0 <= B) by (eapply Rle_trans; [apply Rabs_pos|apply (HB 0%nat); lia]).
  assert (FIN : forall x, - (28 * B) <= x <= 28 * B -> Rabs (x / h) <= 28 * B / h).
  { intros x Hx. unfold Rdiv. rewrite Rabs_mult, (Rabs_right (/ h)) by lra. apply Rmult_le_compat_r; [lra|]. apply Rabs_le. lra. }
  assert (W : forall j, (j < n)%nat -> - B <= w j <= B) by (intros j Hj; apply Rabs_le_between, HB, Hj).
  unfold der_val.
  repeat match goal with |- context[Nat.eqb ?a ?c] => let E := fresh in destruct (Nat.eqb a c) eqn:E; [apply Nat.eqb_eq in E|apply Nat.eqb_neq in E] end;
  (apply FIN || (cbv [fdiv R_arith]; apply FIN)); cbv [der_s0 der_s1 der_s2 der_s fadd fsub fmul fdiv fopp fofZ R_arith];
  repeat match goal with |- context[w ?j] => lazymatch goal with
    | H : - B <= w j <= B |- _ => fail
    | _ => let x := fresh "x" in let Hx := fresh "Hx" in assert (Hx := W j ltac:(lia)); set (x := w j) in *; clearbody x end end;
  clear W HB FIN; lra.
Qed.
Lemma der2_val_bound n h (w : nat -> R) i B : (8 <= n)%nat -> (i < n)%nat -> 0 < h ->
  (forall j, (j < n)%nat -> Rabs (w j) <= B) -> Rabs (der2_val n h w i) <= 192 * B / h.
Proof.
  intros Hn Hi Hh HB. assert (PI : 0 < / h) by now apply Rinv_0_lt_compat.
  assert (B0 : 0 <= B) by (eapply Rle_trans; [apply Rabs_pos|apply (HB 0%nat); lia]).
  assert (FIN : forall x, - (192 * B) <= x <= 192 * B -> Rabs (x / h) <= 192 * B / h).
  { intros x Hx. unfold Rdiv. rewrite Rabs_mult, (Rabs_right (/ h)) by lra. apply Rmult_le_compat_r; [lra|]. apply Rabs_le. lra. }
  assert (W : forall j, (j < n)%nat -> - B <= w j <= B) by (intros j Hj; apply Rabs_le_between, HB, Hj).
  unfold der2_val.
  repeat match goal with |- context[Nat.eqb ?a ?c] => let E := fresh in destruct (Nat.eqb a c) eqn:E; [apply Nat.eqb_eq in E|apply Nat.eqb_neq in E] end;
  (apply FIN || (cbv [fdiv R_arith]; apply FIN)); cbv [der2_s0 der2_s1 der2_s2 der2_s fadd fsub fmul fdiv fopp fofZ R_arith];
  repeat match goal with |- context[w ?j] => lazymatch goal with
    | H : - B <= w j <= B |- _ => fail
    | _ => let x := fresh "x" in let Hx := fresh "Hx" in assert (Hx := W j ltac:(lia)); set (x := w j) in *; clearbody x end end;
  clear W HB FIN; lra.
Qed.

Section B64.
Variables (lexp llog lcos lsin lacos : spec_float -> spec_float) (lpi : spec_float).
Local Instance b64i : Arith spec_float := b64 lexp llog lcos lsin lacos lpi.
Local Notation FL := spec_float.

(** the spacing computed by the constructor *)
Lemma dx_near n (lower upper : FL) :
  (2 <= n)%nat -> (Z.of_nat n < 2 ^ 53)%Z -> fin lower -> fin upper ->
  let h := (val upper - val lower) / INR (n - 1) in / 2 ^ 50 <= h <= 2 ^ 50 ->
  fin (fd_dx (FD_make n lower upper)) /\
  exists d, Rabs d <= 2 * ww /\ val (fd_dx (FD_make n lower upper)) = h * (1 + d).
Proof.
  intros Hn Hz Fl Fu h Hh. assert (Pw := ww_pos). assert (P5 := Rinv_0_lt_compat _ (pow2_pos 50)).
  assert (PN : 0 < INR (n - 1)) by (apply lt_0_INR; lia). assert (Ph : 0 < h) by lra.
  assert (Eh : val upper - val lower = h * INR (n - 1)) by (unfold h; field; lra).
  assert (Pd : 0 < val upper - val lower) by (rewrite Eh; now apply Rmult_lt_0_compat).
  assert (NB : INR (n - 1) <= 2 ^ 53).
  { apply Rle_trans with (IZR (2 ^ 53)); [|right; symmetry; apply (pow_IZR 2 53)]. rewrite INR_IZR_INZ. apply IZR_le. lia. }
  assert (MM : val upper - val lower <= 2 ^ 1000).
  { rewrite Eh. apply Rle_trans with (2 ^ 50 * 2 ^ 53); [apply Rmult_le_compat; lra|]. rewrite <- pow_add. apply Rle_pow; [lra|lia]. }
  change (fd_dx (FD_make n lower upper)) with (fdiv (fsub upper lower) (fnat (wsub n 1))). rewrite wsub_le by lia.
  destruct (sub_ok upper lower Fu Fl) as [F1 (d1 & H1 & E1)].
  { rewrite Rabs_right by lra. eapply Rle_trans; [|apply mid_big, MM]. lra. }
  assert (A1 : ap (fsub upper lower) (val upper - val lower) (val upper - val lower) 1).
  { split; [exact F1|]. split; [rewrite Rabs_right; lra|]. change (fsub upper lower) with (SFsub 53 1024 upper lower). rewrite E1.
    replace ((val upper - val lower) * (1 + d1) - (val upper - val lower)) with ((val upper - val lower) * d1) by ring.
    rewrite Rabs_mult, Rabs_right by lra. rewrite ww_uu in H1. nra. }
  destruct (ofZ_ok (Z.of_nat (n - 1)) ltac:(lia)) as [FN EN]. rewrite <- INR_IZR_INZ in EN.
  change (binary_normalize 53 1024 (Z.of_nat (n - 1)) 0 false) with (@fnat spec_float b64i (n - 1)) in FN, EN.
  assert (A2 := ap_div (fsub upper lower) (fnat (n - 1)) (val upper - val lower) (val upper - val lower) 1 ltac:(lra) FN ltac:(rewrite EN; exact PN)). rewrite EN in A2. fold h in A2.
  assert (Mh : mid h).
  { split; [eapply Rle_trans; [|apply Hh]; apply Rinv_le_contravar; [apply pow2_pos|]|eapply Rle_trans; [apply Hh|]]; apply Rle_pow; (lra || lia). }
  specialize (A2 Mh A1). destruct A2 as (F & _ & E).
  change (SFdiv 53 1024 (fsub upper lower) (fnat (n - 1))) with (fdiv (fsub upper lower) (fnat (n - 1))) in *.
  split; [exact F|]. set (x := val (fdiv (fsub upper lower) (fnat (n - 1)))) in *. exists (x / h - 1). split.
  - replace (x / h - 1) with ((x - h) * / h) by (field; lra). rewrite Rabs_mult, (Rabs_right (/ h)) by (apply Rle_ge, Rlt_le, Rinv_0_lt_compat, Ph).
    apply Rmult_le_reg_r with h; [exact Ph|]. rewrite Rmult_assoc, Rinv_l by lra. lra.
  - field. lra.
Qed.

Lemma samples_near n (lower upper : R) f i : (2 <= n)%nat -> (i < n)%nat ->
  nth i (samples (FD_make n lower upper) f) 0 = f (lower + INR i * ((upper - lower) / INR (n - 1))) /\
  fd_pt (FD_make n lower upper) i = lower + INR i * ((upper - lower) / INR (n - 1)).
Proof.
  intros Hn Hi. assert (E : fd_pt (FD_make n lower upper) i = lower + INR i * ((upper - lower) / INR (n - 1))).
  { rewrite mk_pt, mk_dx by lia. ring. }
  split; [|exact E]. rewrite samples_nth by exact Hi. now rewrite E.
Qed.

Theorem C81_der_total_error b n (lower upper : FL) (f : R -> R) v dv lo' up' M V err :
  (7 <= n)%nat -> (Z.of_nat n < 2 ^ 53)%Z -> fin lower -> fin upper ->
  let h := (val upper - val lower) / INR (n - 1) in / 2 ^ 50 <= h <= 2 ^ 50 ->
  lo' < val lower -> val upper < up' ->
  (forall k t, (k <= 7)%nat -> lo' < t < up' -> ex_derive_n f k t) ->
  (forall t, val lower <= t <= val upper -> Rabs (Derive_n f 7 t) <= M) ->
  length v = n -> length dv = n -> range V ->
  (forall i, (i < n)%nat -> bounded_by V (nth i v f0) /\ Rabs (val (nth i v f0) - f (val lower + INR i * h)) <= err) ->
  exists out, fd_der b (FD_make n lower upper) v dv = Ok out /\ length out = n /\
    forall i, (i < n)%nat -> fin (nth i out f0) /\
      Rabs (val (nth i out f0) - Derive f (val lower + INR i * h)) <= 44 * M * h ^ 6 + (28 * err + 336 * / 2 ^ 52 * V) / h.
Proof.
  intros Hn Hz Fl Fu h Hh Hlo Hup Hs HM Lv Ld HV HD. assert (P5 := Rinv_0_lt_compat _ (pow2_pos 50)). assert (Ph : 0 < h) by lra.
  assert (PN : 0 < INR (n - 1)) by (apply lt_0_INR; lia).
  assert (Hlu : val lower < val upper).
  { assert (val upper - val lower = h * INR (n - 1)) by (unfold h; field; lra). assert (0 < h * INR (n - 1)) by now apply Rmult_lt_0_compat. lra. }
  destruct (dx_near n lower upper ltac:(lia) Hz Fl Fu Hh) as [FD (d & Hd & ED)]. fold h in ED.
  destruct (C09_der_sixth_order b n (val lower) (val upper) f (map val dv) lo' up' M Hn Hlu ltac:(now rewrite map_length) Hlo Hup Hs HM) as (oR & ER & LR & BR).
  assert (Pw := ww_pos). assert (Ws := ww_small). assert (PV := range_pos V HV).
  eexists. split; [apply fd_der_ok; assumption|]. change (fd_n (FD_make n lower upper)) with n. split; [now rewrite map_length, seq_length|].
  intros i Hi. rewrite nth_map_seq by exact Hi. set (y := fd_dx (FD_make n lower upper)) in *. clearbody y.
  destruct (samples_near n (val lower) (val upper) f i ltac:(lia) Hi) as [_ EP]. fold h in EP.
  specialize (BR i Hi). rewrite EP in BR. change ((val upper - val lower) / INR (n - 1)) with h in BR.
  rewrite fd_der_ok in ER; [|exact Hn|apply samples_length|now rewrite map_length]. apply (f_equal (fun r => match r with Ok o => o | _ => oR end)) in ER. cbn beta iota in ER.
  rewrite <- ER in BR. change (fd_n (FD_make n (val lower) (val upper))) with n in BR. rewrite nth_map_seq in BR by exact Hi. rewrite mk_dx in BR by lia. fold h in BR.
  set (S := der_val n h (fun j => nth j (samples (FD_make n (val lower) (val upper)) f) f0) i) in *.
  assert (DD : forall j, (j < n)%nat -> dat V (nth j v f0) (nth j (map val v) f0)).
  { intros j Hj. change (@f0 R _) with 0. rewrite (nth_val lexp llog lcos lsin lacos lpi). apply dat_of, HD, Hj. }
  assert (dr : - (2 * ww) <= d <= 2 * ww) by (apply Rabs_le_between; exact Hd).
  assert (MM : mid (28 * V / val y)).
  { apply quot_mid; [exact HV|lra|]. rewrite ED. split.
    - apply Rle_trans with (/ 2 ^ 50 * / 2).
      + replace (/ 2) with (/ 2 ^ 1) by (f_equal; ring). rewrite <- Rinv_mult, <- pow_add. apply Rinv_le_contravar; [apply pow2_pos|]. apply Rle_pow; [lra|lia].
      + apply Rmult_le_compat; lra.
    - apply Rle_trans with (2 ^ 50 * 2).
      + apply Rmult_le_compat; lra.
      + replace (2 ^ 50 * 2) with (2 ^ 51) by (simpl; ring). apply Rle_pow; [lra|lia]. }
  assert (FIN : forall x r, ap x r (28 * V) 8 -> fin (fdiv x y) /\
     Rabs (val (fdiv x y) - fdiv r h) <= 336 * / 2 ^ 52 * V / h).
  { intros x r H. destruct (div_perturb lexp llog lcos lsin lacos lpi x y r (28 * V) 8 h d H ltac:(lra) FD Ph ED Hd MM) as [F E]. split; [exact F|].
    eapply Rle_trans; [exact E|]. right. unfold ww, Rdiv. ring. }
  assert (FOP : forall x r, ap x r (28 * V) 8 -> ap (fopp x) (fopp r) (28 * V) 8) by (intros x r H; apply ap_opp, H).
  assert (K1 : fin (der_val n y (fun j => nth j v f0) i) /\ Rabs (val (der_val n y (fun j => nth j v f0) i) - der_val n h (fun j => nth j (map val v) f0) i) <= 336 * / 2 ^ 52 * V / h).
  { unfold der_val.
    repeat match goal with |- context[Nat.eqb ?a ?c] => let E := fresh in destruct (Nat.eqb a c) eqn:E; [apply Nat.eqb_eq in E|apply Nat.eqb_neq in E] end;
    apply FIN; repeat lazymatch goal with
    | |- ap (fopp _) _ _ _ => apply FOP
    | |- ap (der_s0 _ _ _ _ _ _ _) _ _ _ => apply (s0_ap lexp llog lcos lsin lacos lpi V HV); apply DD; lia
    | |- ap (der_s1 _ _ _ _ _ _ _) _ _ _ => apply (s1_ap lexp llog lcos lsin lacos lpi V HV); apply DD; lia
    | |- ap (der_s2 _ _ _ _ _ _ _) _ _ _ => apply (s2_ap lexp llog lcos lsin lacos lpi V HV); apply DD; lia
    | |- ap (der_s _ _ _ _ _ _) _ _ _ => apply (sc_ap lexp llog lcos lsin lacos lpi V HV); apply DD; lia
    end. }
  destruct K1 as [KF K1]. split; [exact KF|].
  assert (K2 : Rabs (der_val n h (fun j => nth j (map val v) f0) i - S) <= 28 * err / h).
  { unfold S. set (w1 := fun j => nth j (map val v) f0). set (w2 := fun j => nth j (samples (FD_make n (val lower) (val upper)) f) f0).
    replace (der_val n h w1 i - der_val n h w2 i) with (der_val n h (fun j => 1 * w1 j + -1 * w2 j) i) by (rewrite der_val_lin; ring).
    apply der_val_bound; auto. intros j Hj. unfold w1, w2. change (@f0 R _) with 0. rewrite (nth_val lexp llog lcos lsin lacos lpi).
    destruct (samples_near n (val lower) (val upper) f j ltac:(lia) Hj) as [EJ _]. fold h in EJ. change (@f0 R _) with 0. rewrite EJ.
    assert (LL : forall x z : R, 1 * x + -1 * z = x - z) by (intros; ring). rewrite LL. exact (proj2 (HD j Hj)). }
  set (o := val (der_val n y (fun j => nth j v f0) i)) in *. set (o1 := der_val n h (fun j => nth j (map val v) f0) i) in *.
  replace (o - Derive f (val lower + INR i * h)) with ((o - o1) + (o1 - S) + (S - Derive f (val lower + INR i * h))) by ring.
  eapply Rle_trans; [apply Rabs_triang|]. eapply Rle_trans; [apply Rplus_le_compat; [apply Rabs_triang|exact BR]|].
  replace (44 * M * h ^ 6 + (28 * err + 336 * / 2 ^ 52 * V) / h) with (336 * / 2 ^ 52 * V / h + 28 * err / h + 44 * M * h ^ 6) by (unfold Rdiv; ring).
  apply Rplus_le_compat_r, Rplus_le_compat; assumption.
Qed.

Lemma der2_val_scale n s (w : nat -> R) i : der2_val n s w i = der2_val n 1 w i * / s.
Proof.
  unfold der2_val. repeat match goal with |- (if ?c then _ else _) = _ => destruct c end; cbv [fdiv R_arith]; unfold Rdiv; rewrite Rinv_1; ring.
Qed.
Lemma inv_sq_perturb h y d : 0 < h -> y = h * (1 + d) -> Rabs d <= 2 * ww ->
  exists e, Rabs e <= 5 * ww /\ / y ^ 2 = / h ^ 2 * (1 + e).
Proof.
  intros Ph E Hd. assert (Pw := ww_pos). assert (Ws := ww_small). assert (dr : - (2 * ww) <= d <= 2 * ww) by (apply Rabs_le_between; exact Hd).
  assert (P1 : 0 < 1 + d) by lra. exists (/ (1 + d) ^ 2 - 1). split.
  - assert (Q : 0 < (1 + d) ^ 2) by now apply pow_lt. assert (Q9 : 9 / 10 <= (1 + d) ^ 2) by nra.
    replace (/ (1 + d) ^ 2 - 1) with (- (d * (2 + d)) * / (1 + d) ^ 2) by (field; lra).
    rewrite Rabs_mult, Rabs_Ropp, (Rabs_right (/ (1 + d) ^ 2)) by (apply Rle_ge, Rlt_le, Rinv_0_lt_compat, Q).
    apply Rmult_le_reg_r with ((1 + d) ^ 2); [exact Q|]. rewrite Rmult_assoc, Rinv_l by lra.
    rewrite Rmult_1_r, Rabs_mult, (Rabs_right (2 + d)) by lra.
    apply Rle_trans with (2 * ww * (21 / 10)); [apply Rmult_le_compat; [apply Rabs_pos|lra|exact Hd|lra]|]. apply Rle_trans with (5 * ww * (9 / 10)); [lra|apply Rmult_le_compat_l; lra].
  - rewrite E. field. lra.
Qed.

(** the second derivative, likewise *)
Theorem C81_der2_total_error b n (lower upper : FL) (f : R -> R) v dv lo' up' M V err :
  (8 <= n)%nat -> (Z.of_nat n < 2 ^ 53)%Z -> fin lower -> fin upper ->
  let h := (val upper - val lower) / INR (n - 1) in / 2 ^ 29 <= h <= 2 ^ 29 ->
  lo' < val lower -> val upper < up' ->
  (forall k t, (k <= 8)%nat -> lo' < t < up' -> ex_derive_n f k t) ->
  (forall t, val lower <= t <= val upper -> Rabs (Derive_n f 8 t) <= M) ->
  length v = n -> length dv = n -> range V ->
  (forall i, (i < n)%nat -> bounded_by V (nth i v f0) /\ Rabs (val (nth i v f0) - f (val lower + INR i * h)) <= err) ->
  exists out, fd_der2 b (FD_make n lower upper) v dv = Ok out /\ length out = n /\
    forall i, (i < n)%nat -> fin (nth i out f0) /\
      Rabs (val (nth i out f0) - Derive_n f 2 (val lower + INR i * h)) <= 607 * M * h ^ 6 + (192 * err + 3500 * / 2 ^ 52 * V) / h ^ 2.
Proof.
  intros Hn Hz Fl Fu h Hh Hlo Hup Hs HM Lv Ld HV HD. assert (P5 := Rinv_0_lt_compat _ (pow2_pos 29)). assert (Ph : 0 < h) by lra.
  assert (PN : 0 < INR (n - 1)) by (apply lt_0_INR; lia).
  assert (Hlu : val lower < val upper).
  { assert (val upper - val lower = h * INR (n - 1)) by (unfold h; field; lra). assert (0 < h * INR (n - 1)) by now apply Rmult_lt_0_compat. lra. }
  assert (Hh' : / 2 ^ 50 <= h <= 2 ^ 50).
  { split; [eapply Rle_trans; [|apply Hh]; apply Rinv_le_contravar; [apply pow2_pos|]|eapply Rle_trans; [apply Hh|]]; apply Rle_pow; (lra || lia). }
  destruct (dx_near n lower upper ltac:(lia) Hz Fl Fu Hh') as [FD (d & Hd & ED)]. fold h in ED.
  destruct (C09_der2_sixth_order b n (val lower) (val upper) f (map val dv) lo' up' M Hn Hlu ltac:(now rewrite map_length) Hlo Hup Hs HM) as (oR & ER & LR & BR).
  assert (Pw := ww_pos). assert (Ws := ww_small). assert (PV := range_pos V HV).
  assert (dr : - (2 * ww) <= d <= 2 * ww) by (apply Rabs_le_between; exact Hd).
  set (g := FD_make n lower upper) in *.
  assert (BB : forall x, In x v -> bounded_by V x).
  { intros x Hx. destruct (In_nth _ _ f0 Hx) as (j & Lj & <-). rewrite Lv in Lj. exact (proj1 (HD j Lj)). }
  assert (DR : / 2 ^ 30 <= val (fd_dx g) <= 2 ^ 30).
  { rewrite ED. split.
    - replace (/ 2 ^ 30) with (/ 2 ^ 29 * / 2) by (rewrite <- Rinv_mult; f_equal; simpl; ring). apply Rmult_le_compat; lra.
    - replace (2 ^ 30) with (2 ^ 29 * 2) by (simpl; ring). apply Rmult_le_compat; lra. }
  destruct (C81_der2_rounding lexp llog lcos lsin lacos lpi b g v dv V Hn Lv Ld BB HV FD DR) as (out & outR & E1 & E2 & L1 & _ & ERR).
  exists out. split; [exact E1|]. split; [exact L1|]. intros i Hi. destruct (ERR i Hi) as [F1 B1]. split; [exact F1|]. clear ERR.
  rewrite fd_der2_ok in E2; [|exact Hn|cbn [real_fd fd_n]; now rewrite map_length|cbn [real_fd fd_n]; now rewrite map_length].
  apply (f_equal (fun r => match r with Ok o => o | _ => outR end)) in E2. cbn beta iota in E2.
  rewrite <- E2 in B1. cbn [real_fd fd_n fd_dx] in B1. change (fd_n g) with n in B1. change 0 with (@f0 R _) in B1. rewrite nth_map_seq in B1 by exact Hi.
  set (y := val (fd_dx g)) in *. change (@fpow R _ y 2) with (y ^ 2) in B1.
  destruct (samples_near n (val lower) (val upper) f i ltac:(lia) Hi) as [_ EP]. fold h in EP.
  specialize (BR i Hi). rewrite EP in BR. change ((val upper - val lower) / INR (n - 1)) with h in BR.
  rewrite fd_der2_ok in ER; [|exact Hn|apply samples_length|now rewrite map_length]. apply (f_equal (fun r => match r with Ok o => o | _ => oR end)) in ER. cbn beta iota in ER.
  rewrite <- ER in BR. change (fd_n (FD_make n (val lower) (val upper))) with n in BR. rewrite nth_map_seq in BR by exact Hi. rewrite mk_dx in BR by lia. fold h in BR.
  change (@fpow R _ h 2) with (h ^ 2) in BR.
  set (w1 := fun j => nth j (map val v) f0) in *. set (w2 := fun j => nth j (samples (FD_make n (val lower) (val upper)) f) f0) in *.
  assert (Ph2 : 0 < h ^ 2) by now apply pow_lt.
  assert (W1 : forall j, (j < n)%nat -> Rabs (w1 j) <= V).
  { intros j Hj. unfold w1. change (@f0 R _) with 0. rewrite (nth_val lexp llog lcos lsin lacos lpi). exact (proj2 (proj1 (HD j Hj))). }
  assert (X1 := der2_val_bound n 1 w1 i V Hn Hi ltac:(lra) W1). unfold Rdiv in X1. rewrite Rinv_1, Rmult_1_r in X1.
  destruct (inv_sq_perturb h y d Ph ED Hd) as (e & He & Ey). assert (er : - (5 * ww) <= e <= 5 * ww) by (apply Rabs_le_between; exact He).
  assert (K2 : Rabs (der2_val n (h ^ 2) w1 i - der2_val n (h ^ 2) w2 i) <= 192 * err / h ^ 2).
  { replace (der2_val n (h ^ 2) w1 i - der2_val n (h ^ 2) w2 i) with (der2_val n (h ^ 2) (fun j => 1 * w1 j + -1 * w2 j) i) by (rewrite der2_val_lin; ring).
    apply der2_val_bound; auto. intros j Hj. unfold w1, w2. change (@f0 R _) with 0. rewrite (nth_val lexp llog lcos lsin lacos lpi).
    destruct (samples_near n (val lower) (val upper) f j ltac:(lia) Hj) as [EJ _]. fold h in EJ. rewrite EJ.
    assert (LL : forall x z : R, 1 * x + -1 * z = x - z) by (intros; ring). rewrite LL. exact (proj2 (HD j Hj)). }
  assert (K3 : Rabs (der2_val n (y ^ 2) w1 i - der2_val n (h ^ 2) w1 i) <= 960 * ww * V * / h ^ 2).
  { rewrite (der2_val_scale n (y ^ 2)), (der2_val_scale n (h ^ 2)), Ey.
    replace (der2_val n 1 w1 i * (/ h ^ 2 * (1 + e)) - der2_val n 1 w1 i * / h ^ 2) with (der2_val n 1 w1 i * e * / h ^ 2) by ring.
    rewrite !Rabs_mult, (Rabs_right (/ h ^ 2)) by (apply Rle_ge, Rlt_le, Rinv_0_lt_compat, Ph2).
    apply Rmult_le_compat_r; [apply Rlt_le, Rinv_0_lt_compat, Ph2|]. replace (960 * ww * V) with (192 * V * (5 * ww)) by ring.
    apply Rmult_le_compat; try apply Rabs_pos; assumption. }
  assert (K1 : Rabs (val (nth i out f0) - der2_val n (y ^ 2) w1 i) <= 2510 * ww * V * / h ^ 2).
  { eapply Rle_trans; [exact B1|]. fold ww. unfold Rdiv. rewrite Ey. replace (2500 * ww * V * (/ h ^ 2 * (1 + e))) with (2500 * (1 + e) * (ww * V * / h ^ 2)) by ring.
    replace (2510 * ww * V * / h ^ 2) with (2510 * (ww * V * / h ^ 2)) by ring. apply Rmult_le_compat_r; [|lra].
    apply Rlt_le. apply Rmult_lt_0_compat; [now apply Rmult_lt_0_compat|]. now apply Rinv_0_lt_compat. }
  set (o := val (nth i out f0)) in *. set (T := Derive_n f 2 (val lower + INR i * h)) in *.
  change (@f0 R _) with 0 in BR.
  replace (o - T) with ((o - der2_val n (y ^ 2) w1 i) + (der2_val n (y ^ 2) w1 i - der2_val n (h ^ 2) w1 i) + (der2_val n (h ^ 2) w1 i - der2_val n (h ^ 2) w2 i) + (der2_val n (h ^ 2) w2 i - T)) by ring.
  assert (Pk : 0 < ww * V * / h ^ 2) by (apply Rmult_lt_0_compat; [now apply Rmult_lt_0_compat|now apply Rinv_0_lt_compat]).
  fold ww. unfold Rdiv. rewrite Rmult_plus_distr_r. unfold Rdiv in K2.
  eapply Rle_trans; [apply Rabs_triang|]. eapply Rle_trans; [apply Rplus_le_compat; [apply Rabs_triang|exact BR]|].
  eapply Rle_trans; [apply Rplus_le_compat_r, Rplus_le_compat; [apply Rabs_triang|exact K2]|].
  lra.
Qed.

(** the hypotheses are met, and the bounds are small: the identity function sampled on 0, 1, ..., 8 *)
Lemma val_ofZ z : (Z.abs z < 2 ^ 53)%Z -> fin (fofZ z : FL) /\ val (fofZ z : FL) = IZR z.
Proof. apply ofZ_ok. Qed.
Definition ids : list FL := map (fun i => fofZ (Z.of_nat i)) (seq 0 9).
Lemma ids_ok i : (i < 9)%nat -> fin (nth i ids f0) /\ val (nth i ids f0) = INR i.
Proof.
  intro Hi. unfold ids. rewrite nth_map_seq by exact Hi. rewrite INR_IZR_INZ. apply val_ofZ. lia.
Qed.
Example C81_example b dv : length dv = 9%nat ->
  exists out, fd_der b (FD_make 9 (fofZ 0) (fofZ 8)) ids dv = Ok out /\ length out = 9%nat /\
    forall i, (i < 9)%nat -> fin (nth i out f0) /\ Rabs (val (nth i out f0) - 1) <= 336 * / 2 ^ 52 * 8.
Proof.
  intro Ld. destruct (val_ofZ 0 ltac:(lia)) as [F0 V0]. destruct (val_ofZ 8 ltac:(lia)) as [F8 V8].
  assert (HH : (val (fofZ 8 : FL) - val (fofZ 0 : FL)) / INR (9 - 1) = 1) by (rewrite V0, V8; simpl; field).
  assert (R8 : range 8).
  { split; [apply Rle_trans with (/ 1); [apply Rinv_le_contravar; [lra|apply pow_R1_Rle; lra]|lra]|].
    replace 8 with (2 ^ 3) by ring. apply Rle_pow; [lra|lia]. }
  assert (BND : / 2 ^ 50 <= (val (fofZ 8 : FL) - val (fofZ 0 : FL)) / INR (9 - 1) <= 2 ^ 50).
  { rewrite HH. split; [rewrite <- Rinv_1; apply Rinv_le_contravar; [lra|apply pow_R1_Rle; lra]|apply pow_R1_Rle; lra]. }
  destruct (C81_der_total_error b 9 (fofZ 0) (fofZ 8) (fun x => x) ids dv (-1) 9 0 8 0 ltac:(lia) ltac:(lia) F0 F8 BND
    ltac:(rewrite V0; lra) ltac:(rewrite V8; lra)) as (out & E & L & H); try assumption; try reflexivity.
  - intros k t _ _. apply (ex_derive_n_ext (fun x => x ^ 1)); [intro; ring|apply ex_derive_n_pow].
  - intros t _. rewrite (Derive_n_ext _ (fun x => x ^ 1)) by (intro; ring). rewrite Derive_n_pow_bigi by lia. rewrite Rabs_R0. lra.
  - intros i Hi. destruct (ids_ok i Hi) as [Fi Vi]. rewrite HH, V0. split; [split; [exact Fi|]|].
    + rewrite Vi, Rabs_right by (apply Rle_ge, pos_INR). replace 8 with (INR 8) by (simpl; ring). apply le_INR. lia.
    + rewrite Vi. replace (INR i - (0 + INR i * 1)) with 0 by ring. rewrite Rabs_R0. lra.
  - exists out. split; [exact E|]. split; [exact L|]. intros i Hi. destruct (H i Hi) as [Fi Bi]. split; [exact Fi|].
    rewrite HH in Bi. rewrite Derive_id in Bi. eapply Rle_trans; [exact Bi|]. right. field.
Qed.
End B64.
