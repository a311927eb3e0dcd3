(** * Property C98: the spectral filters are not total-variation diminishing (real arithmetic). *)
From Coq Require Import Reals Lra List.
From Coquelicot Require Import Coquelicot.
From Verif Require Import Base BaseLemmas Arith MCheb PMake Spec PSum PFdR PropFd2 PCheb PCheb2 PropCheb.
Local Open Scope R_scope.

Lemma TV_ends v n : length v = S n -> Rabs (nth 0 v 0 - nth n v 0) <= TV v.
Proof.
  revert n; induction v as [|a v IH]; intros n L; [easy|]. destruct v as [|b v].
  - cbn in L. injection L as <-. cbn. rewrite Rminus_diag_eq, Rabs_R0 by auto. lra.
  - destruct n as [|n]; [easy|]. rewrite TV_cons. specialize (IH n ltac:(cbn in *; lia)). cbn [nth] in *.
    pose proof (Rabs_triang (a - b) (b - nth n (b :: v) 0)) as T. replace (a - b + (b - nth n (b :: v) 0)) with (a - nth n (b :: v) 0) in T by ring.
    rewrite (Rabs_minus_sym b a). cbn [nth] in *. lra.
Qed.
Lemma TV_decreasing v n : length v = S n -> (forall i, (i < n)%nat -> nth (S i) v 0 <= nth i v 0) -> TV v = nth 0 v 0 - nth n v 0.
Proof.
  revert n; induction v as [|a v IH]; intros n L H; [easy|]. destruct v as [|b v].
  - cbn in L. injection L as <-. cbn. ring.
  - destruct n as [|n]; [easy|]. rewrite TV_cons. rewrite (IH n); [|cbn in *; lia|intros i Hi; apply (H (S i)); lia].
    pose proof (H 0%nat ltac:(lia)) as H0. cbn [nth] in *. rewrite Rabs_left1 by lra. ring.
Qed.
(** exp(-x) between 1-x and 1/(1+x) *)
Lemma exp_lo x : 1 - x <= exp (- x).
Proof. destruct (Req_dec x 0) as [->|Hx]; [rewrite Ropp_0, exp_0; lra|]. pose proof (exp_ineq1 (- x) ltac:(lra)). lra. Qed.
Lemma exp_hi x : 0 <= x -> exp (- x) <= 1 - x / (1 + x).
Proof.
  intros Hx. rewrite exp_Ropp. replace (1 - x / (1 + x)) with (/ (1 + x)) by (field; lra). apply Rinv_le_contravar; [lra|].
  destruct (Req_dec x 0) as [->|Hx0]; [rewrite exp_0; lra|]. left. apply exp_ineq1. lra.
Qed.
(** the two damping factors that matter: mode three loses more than nine times what mode one loses *)
Lemma damp_gap n q : (4 <= n)%nat -> 1 / 10 ^ 6 <= q -> 2 * (1 - exp (-40 * (INR 1 / INR n) ^ 16)) < q * (1 - exp (-40 * (INR 3 / INR n) ^ 16)).
Proof.
  intros Hn Hq. assert (HN : 4 <= INR n) by (apply le_INR in Hn; cbn in Hn; lra).
  set (y := 40 * (1 / INR n) ^ 16). assert (E3 : -40 * (INR 3 / INR n) ^ 16 = - (3 ^ 16 * y)).
  { unfold y. replace (INR 3) with 3 by (cbn; ring). unfold Rdiv. rewrite !Rpow_mult_distr. ring. }
  assert (E1 : -40 * (INR 1 / INR n) ^ 16 = - y) by (unfold y; replace (INR 1) with 1 by (cbn; ring); ring).
  rewrite E1, E3. assert (H0 : 0 < 1 / INR n <= 1 / 4).
  { split; [apply Rdiv_lt_0_compat; lra|]. apply Rmult_le_compat_l; [lra|]. apply Rinv_le_contravar; lra. }
  assert (Y0 : 0 < y) by (unfold y; apply Rmult_lt_0_compat; [lra|apply pow_lt; lra]).
  assert (Y1 : y <= 1 / 10 ^ 8).
  { unfold y. apply Rle_trans with (40 * (1 / 4) ^ 16); [apply Rmult_le_compat_l; [lra|]; apply pow_incr; lra|]. lra. }
  pose proof (exp_lo y) as L1. pose proof (exp_hi (3 ^ 16 * y) ltac:(apply Rmult_le_pos; [apply pow_le; lra|lra])) as U3.
  assert (G : 2 * y < q * (3 ^ 16 * y / (1 + 3 ^ 16 * y))).
  { replace (q * (3 ^ 16 * y / (1 + 3 ^ 16 * y))) with (y * (q * 3 ^ 16 / (1 + 3 ^ 16 * y))) by (field; nra).
    rewrite (Rmult_comm 2 y). apply Rmult_lt_compat_l; auto. apply Rlt_le_trans with (q * 3 ^ 16 / 2).
    - nra.
    - apply Rmult_le_compat_l; [nra|]. apply Rinv_le_contravar; nra. }
  apply Rle_lt_trans with (2 * y); [lra|]. apply Rlt_le_trans with (1 := G). apply Rmult_le_compat_l; lra.
Qed.

(** one period of x - T_3(x)/9 decreases with the node index; the filter increases its total variation *)
Lemma cubic_mono x y : -1 <= y -> y <= x -> x <= 1 -> y - chebT 3 y / 9 <= x - chebT 3 x / 9.
Proof.
  intros Hy Hyx Hx. unfold chebT. cbn [chebT2 fst].
  replace (x - (2 * x * (2 * x * x - 1) - x) / 9 - (y - (2 * y * (2 * y * y - 1) - y) / 9)) with ((x - y) * (12 - 4 * (x * x + x * y + y * y)) / 9) by field.
  apply Rminus_le. replace (y - (2 * y * (2 * y * y - 1) - y) / 9 - (x - (2 * x * (2 * x * x - 1) - x) / 9)) with (- ((x - y) * (12 - 4 * (x * x + x * y + y * y)) / 9)) by field.
  assert (0 <= (x - y) * (12 - 4 * (x * x + x * y + y * y))) by (apply Rmult_le_pos; nra). lra.
Qed.
Lemma cos_decr_nodes n i : (2 <= n)%nat -> (S i < n)%nat -> cos (PI * INR (S i) / INR (n - 1)) <= cos (PI * INR i / INR (n - 1)).
Proof.
  intros Hn Hi. assert (HN : 0 < INR (n - 1)) by (apply lt_0_INR; lia). pose proof PI_RGT_0.
  assert (G : forall m, (m < n)%nat -> 0 <= PI * INR m / INR (n - 1) <= PI).
  { intros m Hm. pose proof (pos_INR m). assert (INR m <= INR (n - 1)) by (apply le_INR; lia). split.
    - apply Rmult_le_pos; [nra|]. left. now apply Rinv_0_lt_compat.
    - apply Rmult_le_reg_r with (INR (n - 1)); auto. unfold Rdiv. rewrite Rmult_assoc, Rinv_l by lra. nra. }
  apply cos_decr_1; try (apply G; lia). apply Rmult_le_compat_r; [left; now apply Rinv_0_lt_compat|]. apply Rmult_le_compat_l; [lra|]. apply le_INR. lia.
Qed.
Theorem C98_cheb_filter_TVD_refuted b n lower upper g : (4 <= n)%nat -> Cheb_make b n lower upper = Ok g -> lower <> upper ->
  exists v out, cheb_samples g n (fun x => let s := unit_coord lower upper x in s - chebT 3 s / 9) v /\
    (forall i, (S i < n)%nat -> nth (S i) v 0 <= nth i v 0) /\
    cheb_filter b g v = Ok out /\ TV v < TV out.
Proof.
  intros Hn E Hl. assert (H2 : (2 <= n)%nat) by lia.
  set (s := fun i => cos (PI * INR i / INR (n - 1))).
  set (v1 := map (fun i => chebT 1 (s i)) (seq 0 n)). set (v3 := map (fun i => chebT 3 (s i)) (seq 0 n)).
  assert (L1 : length v1 = n) by (unfold v1; now rewrite map_length, seq_length). assert (L3 : length v3 = n) by (unfold v3; now rewrite map_length, seq_length).
  assert (S1 : cheb_samples g n (fun x => chebT 1 (unit_coord lower upper x)) v1).
  { split; auto. intros i x Hi Hx. unfold v1. rewrite nth_map_seq by auto. now rewrite (unit_coord_pt _ _ _ _ _ _ _ E H2 Hl Hi Hx). }
  assert (S3 : cheb_samples g n (fun x => chebT 3 (unit_coord lower upper x)) v3).
  { split; auto. intros i x Hi Hx. unfold v3. rewrite nth_map_seq by auto. now rewrite (unit_coord_pt _ _ _ _ _ _ _ E H2 Hl Hi Hx). }
  set (v := lincomb 1 v1 (- / 9) v3). assert (Lv : length v = n) by now apply lincomb_length.
  destruct (C19_filter_linear b n lower upper g 1 v1 (- / 9) v3 H2 E L1 L3) as (o1 & o3 & F1 & F3 & F).
  rewrite (C19_filter_modes b n lower upper g 1 v1 H2 E Hl ltac:(lia) S1) in F1. rewrite (C19_filter_modes b n lower upper g 3 v3 H2 E Hl ltac:(lia) S3) in F3.
  injection F1 as <-. injection F3 as <-. exists v, (lincomb 1 (map (Rmult (cheb_damp n 1)) v1) (- / 9) (map (Rmult (cheb_damp n 3)) v3)).
  assert (T1 : forall x, chebT 1 x = x) by (intros; unfold chebT; cbn [chebT2 fst]; ring).
  assert (V : forall i, (i < n)%nat -> nth i v 0 = s i - chebT 3 (s i) / 9).
  { intros i Hi. unfold v. rewrite (nth_lincomb _ _ _ _ _ n) by auto. unfold v1, v3. rewrite !nth_map_seq by auto. rewrite T1. field. }
  assert (Sr : forall i, -1 <= s i <= 1) by (intros; unfold s; apply COS_bound).
  assert (Mono : forall i, (S i < n)%nat -> nth (S i) v 0 <= nth i v 0).
  { intros i Hi. rewrite !V by lia. apply cubic_mono; try apply Sr. now apply cos_decr_nodes. }
  split; [|split; [exact Mono|split; [exact F|]]].
  - split; auto. intros i x Hi Hx. cbv zeta. rewrite (unit_coord_pt _ _ _ _ _ _ _ E H2 Hl Hi Hx). now apply V.
  - destruct n as [|n']; [lia|]. rewrite (TV_decreasing v n' Lv) by (intros; apply Mono; lia).
    assert (LM : forall c (w : list R), length w = S n' -> length (map (Rmult c) w) = S n') by (intros; now rewrite map_length).
    eapply Rlt_le_trans; [|apply (TV_ends _ n'); apply lincomb_length; apply LM; auto].
    rewrite !(nth_lincomb _ _ _ _ _ (S n')) by (auto; lia). rewrite !V by lia.
    assert (W1 : forall i, (i < S n')%nat -> nth i (map (Rmult (cheb_damp (S n') 1)) v1) 0 = cheb_damp (S n') 1 * s i).
    { intros i Hi. rewrite nth_map_scal. unfold v1. rewrite nth_map_seq by auto. now rewrite T1. }
    assert (W3 : forall i, (i < S n')%nat -> nth i (map (Rmult (cheb_damp (S n') 3)) v3) 0 = cheb_damp (S n') 3 * chebT 3 (s i)).
    { intros i Hi. rewrite nth_map_scal. unfold v3. now rewrite nth_map_seq by auto. }
    rewrite !W1, !W3 by lia.
    assert (s0 : s 0%nat = 1) by (unfold s; cbn [INR]; replace (PI * 0 / INR (S n' - 1)) with 0 by (unfold Rdiv; ring); apply cos_0).
    assert (sn : s n' = -1).
    { unfold s. replace (S n' - 1)%nat with n' by lia. replace (PI * INR n' / INR n') with PI by (field; apply not_0_INR; lia). apply cos_PI. }
    rewrite s0, sn. unfold chebT. cbn [chebT2 fst]. pose proof (damp_gap (S n') (2 / 9) Hn ltac:(lra)) as G. fold (cheb_damp (S n') 1) in G. fold (cheb_damp (S n') 3) in G.
    eapply Rlt_le_trans; [|apply Rle_abs]. lra.
Qed.
