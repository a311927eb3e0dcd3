(** C60-C63: initial data (ID::compact_pulse), over exact real arithmetic. *)
From Coq Require Import Ascii String Reals Lra.
From Coquelicot Require Import Coquelicot.
From Verif Require Import Base BaseLemmas ForList Arith MFd MCheb MSphere MGrid MParams MInit GridSpec SphereSpec
  PGrid PTables PMake PSphere PSphere2 PGridOp PropGrid PropTables PropGridOp PropRad PropGridFilter PropFd2 PText PEomR PEomOk PInit.
Local Open Scope R_scope.

(** ** The continuum pulse (initial_data.cpp's comment: a compactly supported bump) *)
Definition pulse_w (rl ru : R) : R := Rmax (Rabs (ru - rl)) (1 / 10 ^ 14).
Definition pulse (rl ru r : R) : R :=
  if Rlt_dec rl r then if Rlt_dec r ru then
    let w := pulse_w rl ru in
    ((r - rl) / w) ^ 4 * ((ru - r) / w) ^ 4 * exp (- w / (r - rl)) * exp (- 2 * w / (ru - r))
  else 0 else 0.

Lemma width_eq rl ru : pulse_width rl ru = pulse_w rl ru.
Proof.
  unfold pulse_width, pulse_w. R_ops. change (powerRZ 10 (-14)) with (/ (10 ^ 14)). rewrite Rabs_Rabsolu.
  replace (1 * / 10 ^ 14) with (1 / 10 ^ 14) by lra.
  destruct (Rlt_dec (Rabs (ru - rl)) (1 / 10 ^ 14)) as [H|H].
  - rewrite Rltb_true by auto. rewrite Rmax_right; lra.
  - rewrite Rltb_false by lra. rewrite Rmax_left; lra.
Qed.
Lemma w_pos rl ru : 0 < pulse_w rl ru.
Proof. unfold pulse_w. eapply Rlt_le_trans; [|apply Rmax_r]. apply Rdiv_lt_0_compat; [lra|apply pow_lt; lra]. Qed.
Lemma w_ge rl ru : ru - rl <= pulse_w rl ru.
Proof. unfold pulse_w. eapply Rle_trans; [apply Rle_abs|apply Rmax_l]. Qed.
Lemma bump_in rl ru r : rl < r -> r < ru -> bump rl ru r = exp (- pulse_w rl ru / (r - rl)) * exp (- 2 * pulse_w rl ru / (ru - r)).
Proof.
  intros H1 H2. unfold bump. rewrite width_eq. R_ops. rewrite !Rltb_true by auto. cbn [andb]. do 2 f_equal. field. lra.
Qed.
Lemma bump_out rl ru r : r <= rl \/ ru <= r -> bump rl ru r = 0.
Proof. intros H. unfold bump. R_ops. destruct H; [rewrite (Rltb_false rl r) by auto; now rewrite andb_false_r|rewrite (Rltb_false r ru) by auto; reflexivity]. Qed.
Lemma pulse_in rl ru r : rl < r -> r < ru -> let w := pulse_w rl ru in
  pulse rl ru r = ((r - rl) / w) ^ 4 * ((ru - r) / w) ^ 4 * exp (- w / (r - rl)) * exp (- 2 * w / (ru - r)).
Proof. intros. unfold pulse. destruct (Rlt_dec rl r); [|lra]. destruct (Rlt_dec r ru); [reflexivity|lra]. Qed.
Lemma pulse_out rl ru r : r <= rl \/ ru <= r -> pulse rl ru r = 0.
Proof. intros. unfold pulse. destruct (Rlt_dec rl r); auto. destruct (Rlt_dec r ru); auto. lra. Qed.
Lemma pulse_f_eq rl ru r : pulse_f rl ru r = pulse rl ru r.
Proof.
  unfold pulse_f. rewrite width_eq. destruct (Rlt_dec rl r) as [H1|H1]; [destruct (Rlt_dec r ru) as [H2|H2]|].
  - rewrite pulse_in, bump_in by auto. R_ops. cbv zeta. ring.
  - rewrite pulse_out, bump_out by lra. R_ops. ring.
  - rewrite pulse_out, bump_out by lra. R_ops. ring.
Qed.
Lemma pulse_dr_out rl ru r : r <= rl \/ ru <= r -> pulse_dr rl ru r = 0.
Proof. intros H. unfold pulse_dr. rewrite bump_out by auto. R_ops. unfold Rdiv. rewrite Rmult_0_l. apply Rmult_0_r. Qed.
Lemma exp_neg_le1 x : x <= 0 -> 0 < exp x <= 1.
Proof. intros H. split; [apply exp_pos|]. rewrite <- exp_0. destruct H as [H| ->]; [left; now apply exp_increasing|right; reflexivity]. Qed.
Lemma pulse_pos rl ru r : rl < r -> r < ru -> 0 < pulse rl ru r.
Proof.
  intros H1 H2. rewrite pulse_in by auto. cbv zeta. pose proof (w_pos rl ru). 
  assert (0 < ((r - rl) / pulse_w rl ru) ^ 4) by (apply pow_lt, Rdiv_lt_0_compat; lra).
  assert (0 < ((ru - r) / pulse_w rl ru) ^ 4) by (apply pow_lt, Rdiv_lt_0_compat; lra).
  apply Rmult_lt_0_compat; [apply Rmult_lt_0_compat; [apply Rmult_lt_0_compat; auto|apply exp_pos]|apply exp_pos].
Qed.
(** near either end the pulse is of fourth order *)
Lemma pulse_bound rl ru r : 0 <= pulse rl ru r <= ((r - rl) / pulse_w rl ru) ^ 4 /\ pulse rl ru r <= ((r - ru) / pulse_w rl ru) ^ 4.
Proof.
  pose proof (w_pos rl ru) as Hw. pose proof (w_ge rl ru) as Hg.
  assert (E4 : forall x, 0 <= x ^ 4) by (intros x; replace (x ^ 4) with ((x ^ 2) ^ 2) by ring; apply pow2_ge_0).
  destruct (Rlt_dec rl r) as [H1|H1]; [destruct (Rlt_dec r ru) as [H2|H2]|]; try (rewrite pulse_out by lra; repeat split; auto; lra).
  rewrite pulse_in by auto. cbv zeta. set (w := pulse_w rl ru) in *.
  replace (((r - ru) / w) ^ 4) with (((ru - r) / w) ^ 4) by (unfold Rdiv; ring).
  assert (A : 0 <= ((r - rl) / w) ^ 4 <= 1).
  { split; auto. rewrite <- (pow1 4). apply pow_incr. split; [apply Rlt_le, Rdiv_lt_0_compat; lra|]. apply Rmult_le_reg_r with w; auto. unfold Rdiv. rewrite Rmult_assoc, Rinv_l by lra. lra. }
  assert (B : 0 <= ((ru - r) / w) ^ 4 <= 1).
  { split; auto. rewrite <- (pow1 4). apply pow_incr. split; [apply Rlt_le, Rdiv_lt_0_compat; lra|]. apply Rmult_le_reg_r with w; auto. unfold Rdiv. rewrite Rmult_assoc, Rinv_l by lra. lra. }
  assert (C : 0 < exp (- w / (r - rl)) <= 1).
  { apply exp_neg_le1. assert (0 < w / (r - rl)) by (apply Rdiv_lt_0_compat; lra). unfold Rdiv in *. lra. }
  assert (D : 0 < exp (- 2 * w / (ru - r)) <= 1).
  { apply exp_neg_le1. assert (0 < w / (ru - r)) by (apply Rdiv_lt_0_compat; lra). unfold Rdiv in *. lra. }
  set (a := ((r - rl) / w) ^ 4) in *. set (c := ((ru - r) / w) ^ 4) in *. set (d := exp _) in *. set (e := exp (- 2 * w / (ru - r))) in *.
  
  assert (M : forall x y, 0 <= x -> 0 <= y <= 1 -> 0 <= x * y <= x) by (intros x y Hx Hy; split; [apply Rmult_le_pos; lra|rewrite <- (Rmult_1_r x) at 2; apply Rmult_le_compat_l; lra]).
  destruct (M a c) as [M1 M2]; try lra. destruct (M c a) as [M3 M4]; try lra. rewrite Rmult_comm in M4.
  destruct (M (a * c) d) as [M5 M6]; try lra. destruct (M (a * c * d) e) as [M7 M8]; try lra.
Qed.
Lemma derive_flat (g : R -> R) x0 K : 0 <= K -> g x0 = 0 -> (forall x, Rabs (g x) <= K * (x - x0) ^ 4) -> is_derive g x0 0.
Proof.
  intros HK H0 HB. apply is_derive_Reals. intros eps He. assert (Hd : 0 < Rmin 1 (eps / (K + 1))) by (apply Rmin_pos; [lra|apply Rdiv_lt_0_compat; lra]).
  exists (mkposreal _ Hd). intros t Ht Hlt. cbn in Hlt. rewrite H0, !Rminus_0_r. unfold Rdiv. rewrite Rabs_mult, Rabs_inv.
  pose proof (HB (x0 + t)) as B. replace (x0 + t - x0) with t in B by ring. assert (Pt : 0 < Rabs t) by (apply Rabs_pos_lt; auto).
  apply Rmult_lt_reg_r with (Rabs t); auto. rewrite Rmult_assoc, Rinv_l, Rmult_1_r by lra. eapply Rle_lt_trans; [exact B|].
  replace (t ^ 4) with (Rabs t ^ 4) by (replace (Rabs t ^ 4) with ((Rabs t ^ 2) ^ 2) by ring; rewrite pow2_abs; ring).
  assert (L1 : Rabs t < 1) by (eapply Rlt_le_trans; [exact Hlt|apply Rmin_l]).
  assert (L2 : (K + 1) * Rabs t < eps).
  { assert (Rabs t < eps / (K + 1)) by (eapply Rlt_le_trans; [exact Hlt|apply Rmin_r]). apply (Rmult_lt_compat_l (K + 1)) in H; [|lra].
    replace ((K + 1) * (eps / (K + 1))) with eps in H by (field; lra). exact H. }
  set (s := Rabs t) in *. assert (s ^ 3 <= s). { simpl. assert (s * s <= 1) by nra. nra. }
  replace (K * s ^ 4) with (K * s ^ 3 * s) by ring. apply Rmult_lt_compat_r; auto. assert (K * s ^ 3 <= K * s) by (apply Rmult_le_compat_l; auto). nra.
Qed.
(** ** C62, analytic part: the expression the code evaluates for p is the derivative of the pulse, at
    every r, including the two ends of the support. *)
Theorem C62_pulse_derivative rl ru r : is_derive (pulse rl ru) r (pulse_dr rl ru r).
Proof.
  pose proof (w_pos rl ru) as Hw.
  assert (E4 : forall x, 0 <= x ^ 4) by (intros x; replace (x ^ 4) with ((x ^ 2) ^ 2) by ring; apply pow2_ge_0).
  assert (K0 : 0 <= / pulse_w rl ru ^ 4) by (apply Rlt_le, Rinv_0_lt_compat, pow_lt; auto).
  destruct (Rle_dec r rl) as [H1|H1]; [|destruct (Rle_dec ru r) as [H2|H2]].
  - rewrite pulse_dr_out by auto. destruct H1 as [H1| ->].
    + apply (is_derive_ext_loc (fun _ => 0)); [|apply @is_derive_const]. assert (Hp : 0 < rl - r) by lra. exists (mkposreal _ Hp). intros y Hy.
      symmetry. apply pulse_out. left. unfold ball in Hy. cbn in Hy. unfold AbsRing_ball, minus, plus, opp, abs in Hy. cbn in Hy. apply Rabs_def2 in Hy. lra.
    + apply (derive_flat _ _ (/ pulse_w rl ru ^ 4)); auto; [apply pulse_out; lra|].
      intros x. destruct (pulse_bound rl ru x) as [[B1 B2] _]. rewrite Rabs_pos_eq by auto. eapply Rle_trans; [exact B2|]. right. field. lra.
  - rewrite pulse_dr_out by auto. destruct H2 as [H2| ->].
    + apply (is_derive_ext_loc (fun _ => 0)); [|apply @is_derive_const]. assert (Hp : 0 < r - ru) by lra. exists (mkposreal _ Hp). intros y Hy.
      symmetry. apply pulse_out. right. unfold ball in Hy. cbn in Hy. unfold AbsRing_ball, minus, plus, opp, abs in Hy. cbn in Hy. apply Rabs_def2 in Hy. lra.
    + apply (derive_flat _ _ (/ pulse_w rl r ^ 4)); auto; [apply pulse_out; lra|].
      intros x. destruct (pulse_bound rl r x) as [[B1 _] B2]. rewrite Rabs_pos_eq by auto. eapply Rle_trans; [exact B2|]. right. field. lra.
  - assert (Hin : rl < r < ru) by lra. clear H1 H2. set (w := pulse_w rl ru) in *.
    apply (is_derive_ext_loc (fun r => ((r - rl) / w) ^ 4 * ((ru - r) / w) ^ 4 * exp (- w / (r - rl)) * exp (- 2 * w / (ru - r)))).
    + assert (Hp : 0 < Rmin (r - rl) (ru - r)) by (apply Rmin_pos; lra). exists (mkposreal _ Hp). intros y Hy.
      unfold ball in Hy. cbn in Hy. unfold AbsRing_ball, minus, plus, opp, abs in Hy. cbn in Hy. apply Rabs_def2 in Hy.
      pose proof (Rmin_l (r - rl) (ru - r)). pose proof (Rmin_r (r - rl) (ru - r)). rewrite (pulse_in rl ru y) by lra. reflexivity.
    + unfold pulse_dr. rewrite width_eq, bump_in by lra. fold w. R_ops. auto_derive; [repeat split; lra|]. 
      assert (N1 : r - rl <> 0) by lra. assert (N2 : ru - r <> 0) by lra. assert (N3 : w <> 0) by lra.
      change (r + - rl) with (r - rl). change (ru + - r) with (ru - r). unfold Rdiv.
      generalize (exp (- w * / (r - rl))), (exp (- 2 * w * / (ru - r))). revert N1 N2 N3. generalize (r - rl), (ru - r). clear. intros x y N1 N2 N3 e1 e2. field. auto.
Qed.

(** the maximum found by the loop *)
Section Max.
Variables (h : sht R) (g : grid R) (par : params R) (nx : nat).
Notation mo := (max_of h nx g par).
Lemma upd_max_R mx pt : upd_max h g par mx pt = Rmax mx (Rabs (fval h g par (fst pt) (snd (snd pt)) (fst (snd pt)))).
Proof.
  unfold upd_max. R_ops. set (y := Rabs _). destruct (Rlt_dec mx y) as [H|H]; [rewrite Rltb_true by auto; rewrite Rmax_right; lra|rewrite Rltb_false by lra; rewrite Rmax_left; lra].
Qed.
Lemma fold_max (L : list (nat * (nat * nat))) m0 : m0 <= fold_left (upd_max h g par) L m0 /\
  (forall q, In q L -> Rabs (fval h g par (fst q) (snd (snd q)) (fst (snd q))) <= fold_left (upd_max h g par) L m0) /\
  (fold_left (upd_max h g par) L m0 = m0 \/ exists q, In q L /\ fold_left (upd_max h g par) L m0 = Rabs (fval h g par (fst q) (snd (snd q)) (fst (snd q)))).
Proof.
  revert m0. induction L as [|q L IH]; intros m0; cbn [fold_left].
  - split; [lra|]. split; [intros ? []|auto].
  - specialize (IH (upd_max h g par m0 q)). rewrite upd_max_R in IH |- *. destruct IH as (A & B & C).
    set (y := Rabs (fval h g par (fst q) _ _)) in *. pose proof (Rmax_l m0 y). pose proof (Rmax_r m0 y). split; [lra|]. split.
    + intros q' [<-|Hq]; [fold y; lra|auto].
    + destruct C as [C|(q' & H1 & H2)]; [|right; exists q'; split; [now right|auto]].
      rewrite C. destruct (Rle_dec m0 y); [rewrite Rmax_right by auto; right; exists q; split; [now left|reflexivity]|rewrite Rmax_left by lra; now left].
Qed.
End Max.

(** ** The result of compact_pulse *)
Section Props.
Variables (b : build) (h : sht R) (cl0 Rmin0 Rmax0 : R) (nx : nat) (g : grid R).
Hypothesis Hg : grid_of b h cl0 Rmin0 Rmax0 nx g.
Hypothesis Hsh : shapes h.
Hypothesis Hx : (1 <= nx)%nat.
Variable par : params R.
(** the requested harmonic is one of the library's *)
Hypothesis Hlm : (LM (s_lmax h) (to_size (pr_l_ang par)) (to_size (pr_m_ang par)) < nlm_calc (s_lmax h) (s_mmax h))%nat.

(** p = [dir_sign] * d(pulse)/dr *)
Definition dir_sign (d : text) : R :=
  if text_eqb d (txt "ingoing") then 1 else if text_eqb d (txt "outgoing") then -1 else 0.

(** [evaluated ix it ip]: the points compact_pulse computes, all but the last shell in index order *)
Definition evaluated (ix it ip : nat) : Prop := (ix < nx - 1 /\ it < g_nlat g /\ ip < g_nphi g)%nat.

(** [X ix] is the compactified radius of shell ix, [Y it ip] the harmonic on the sphere *)
Definition pulse_setup (X : nat -> R) (Y : nat -> nat -> R) : Prop :=
  (forall ix, (ix < nx)%nat -> rad_pt (g_radial g) ix = Ok (X ix)) /\
  exists ylm, compute_ylm b (g_sphere g) (to_size (pr_l_ang par)) (to_size (pr_m_ang par)) = Ok ylm /\
    forall it ip, (it < g_nlat g)%nat -> (ip < g_nphi g)%nat -> nth_error ylm (indx_th_ph g it ip) = Some (Y it ip).

Lemma setup_vals X Y : pulse_setup X Y -> forall ix it ip, (ix < nx)%nat -> (it < g_nlat g)%nat -> (ip < g_nphi g)%nat ->
  fval h g par ix it ip = pulse (pr_rl par) (pr_ru par) (R_to_r g (X ix)) * Y it ip /\
  pval h g par ix it ip = dir_sign (pr_direction par) * pulse_dr (pr_rl par) (pr_ru par) (R_to_r g (X ix)) * Y it ip.
Proof.
  intros (HX & ylm & Ey & HY) ix it ip Hi Ht Hp. destruct (ylm_ok b h cl0 Rmin0 Rmax0 nx g Hg Hsh par Hlm) as [Ey' Ly].
  destruct (gof_sizes b h cl0 Rmin0 Rmax0 nx g Hg) as (Eb & _). rewrite Eb in Ey'. assert (EY : ylm = ylm_of h par) by congruence. subst ylm.
  assert (E1 : r_at g ix = R_to_r g (X ix)) by (unfold r_at, pt_of; now rewrite (HX ix Hi)).
  assert (E2 : y_at h g par it ip = Y it ip) by (unfold y_at; apply nth_error_nth, HY; auto).
  unfold fval, pval. rewrite E1, E2, pulse_f_eq. split; [reflexivity|]. unfold pulse_p, dir_sign. R_ops.
  destruct (text_eqb _ _); [ring|]. destruct (text_eqb _ _); ring.
Qed.
Lemma setup_ex : exists X Y, pulse_setup X Y.
Proof.
  destruct (gof_sizes b h cl0 Rmin0 Rmax0 nx g Hg) as (Eb & En & _). exists (pt_of g), (y_at h g par). split.
  - intros ix Hi. pose proof Hg as T. apply Grid_make_tables in T. destruct T as (_ & _ & _ & _ & _ & _ & _ & _ & _ & _ & _ & _ & _ & _ & _ & _ & T).
    destruct (T ix Hi) as (X & EX & _). unfold pt_of. now rewrite EX.
  - destruct (ylm_ok b h cl0 Rmin0 Rmax0 nx g Hg Hsh par Hlm) as [Ey Ly]. rewrite Eb in Ey. eexists. split; [exact Ey|].
    intros it ip Ht Hp. apply nth_error_nth'. rewrite Ly. unfold indx_th_ph. now apply ix_th_ph_lt.
Qed.

(** [Pulse_at] says what is stored: one common factor s times the pulse, and plus/minus/zero times its derivative *)
Lemma pulse_result X Y f p : pulse_setup X Y -> length f = g_n3 g -> length p = g_n3 g ->
  exists f' p' s, compact_pulse par g f p = Ok (f', p') /\ length f' = g_n3 g /\ length p' = g_n3 g /\
    (forall ix it ip, evaluated ix it ip ->
      nth_error f' (indx_R_th_ph g ix it ip) = Some (s * (pulse (pr_rl par) (pr_ru par) (R_to_r g (X ix)) * Y it ip)) /\
      nth_error p' (indx_R_th_ph g ix it ip) = Some (s * (dir_sign (pr_direction par) * pulse_dr (pr_rl par) (pr_ru par) (R_to_r g (X ix)) * Y it ip))) /\
    (forall it ip, (it < g_nlat g)%nat -> (ip < g_nphi g)%nat -> forall j, j = indx_R_th_ph g (nx - 1) it ip ->
      nth_error f' j = Some (s * nth j f 0) /\ nth_error p' j = Some (s * nth j p 0)) /\
    ((exists ix it ip, evaluated ix it ip /\ 1 / 10 ^ 16 < Rabs (pulse (pr_rl par) (pr_ru par) (R_to_r g (X ix)) * Y it ip)) ->
      (forall ix it ip, evaluated ix it ip -> Rabs (s * (pulse (pr_rl par) (pr_ru par) (R_to_r g (X ix)) * Y it ip)) <= Rabs (pr_amp par)) /\
      exists ix it ip, evaluated ix it ip /\ Rabs (s * (pulse (pr_rl par) (pr_ru par) (R_to_r g (X ix)) * Y it ip)) = Rabs (pr_amp par)) /\
    ((forall ix it ip, evaluated ix it ip -> Rabs (pulse (pr_rl par) (pr_ru par) (R_to_r g (X ix)) * Y it ip) <= 1 / 10 ^ 16) -> s = 1).
Proof.
  intros HS Lf Lp. destruct (compact_pulse_ok b h cl0 Rmin0 Rmax0 nx g Hg Hsh Hx par Hlm f p Lf Lp) as (f' & p' & E & L1 & L2 & H1 & H2). cbv zeta in H1, H2.
  destruct (gof_sizes b h cl0 Rmin0 Rmax0 nx g Hg) as (Eb & En & _).
  set (mx := max_of h nx g par) in *. change (flt (fdec 1 (-16)) (fabs mx)) with (Rltb (1 * powerRZ 10 (-16)) (Rabs mx)) in H1, H2. rewrite tol_eq in H1, H2.
  pose proof (fold_max h g par (pts nx g) 0) as (M1 & M2 & M3). change (fold_left (upd_max h g par) (pts nx g) 0) with mx in M1, M2, M3.
  set (t := Rltb (1 / 10 ^ 16) (Rabs mx)) in *. set (s := if t then pr_amp par / mx else 1).
  assert (ES : forall x, (if t then (x * (pr_amp par / mx))%f else x) = s * x) by (intros x; unfold s; destruct t; R_ops; ring).
  assert (BIG : forall ix it ip, evaluated ix it ip -> Rabs (pulse (pr_rl par) (pr_ru par) (R_to_r g (X ix)) * Y it ip) <= mx).
  { intros ix it ip Hev. destruct (setup_vals X Y HS ix it ip) as [<- _]; try (unfold evaluated in Hev; lia). apply (M2 (ix, (ip, it))). apply In_pts3. unfold evaluated in Hev. cbn. lia. }
  exists f', p', s. split; auto. split; auto. split; auto. split; [|split; [|split]].
  - intros ix it ip (A & B & C). destruct (H1 ix it ip A B C) as [-> ->]. rewrite !ES. destruct (setup_vals X Y HS ix it ip) as [-> ->]; auto. lia.
  - intros it ip A B j ->. destruct (H2 it ip A B) as [-> ->].
    assert (Hc : (indx_R_th_ph g (nx - 1) it ip < g_n3 g)%nat) by (unfold indx_R_th_ph, g_n3; apply ix_R_th_ph_lt; auto; lia).
    rewrite !(nth_error_nth' _ 0) by lia. cbn [option_map]. rewrite !ES. auto.
  - intros (ix & it & ip & Hev & Hb). pose proof (BIG _ _ _ Hev) as Hm. pose proof tol_pos as TP. assert (Hmx : 1 / 10 ^ 16 < mx) by lra.
    assert (Et : t = true) by (unfold t; apply Rltb_true; rewrite Rabs_pos_eq by lra; auto). assert (Es : s = pr_amp par / mx) by (unfold s; now rewrite Et).
    assert (K : forall y, Rabs (s * y) = Rabs (pr_amp par) * (Rabs y / mx)).
    { intros y. rewrite Es, Rabs_mult. unfold Rdiv. rewrite Rabs_mult, Rabs_inv, (Rabs_pos_eq mx) by lra. ring. }
    split.
    + intros ix' it' ip' Hev'. rewrite K. rewrite <- (Rmult_1_r (Rabs (pr_amp par))) at 2. apply Rmult_le_compat_l; [apply Rabs_pos|].
      apply Rmult_le_reg_r with mx; [lra|]. unfold Rdiv. rewrite Rmult_assoc, Rinv_l, Rmult_1_r, Rmult_1_l by lra. auto.
    + destruct M3 as [M3|((ix' & (ip' & it')) & Hin & M3)]; [lra|]. apply In_pts3 in Hin. cbn in Hin. cbn [fst snd] in M3. exists ix', it', ip'.
      assert (Hev' : evaluated ix' it' ip') by (unfold evaluated; lia). split; auto. rewrite K.
      destruct (setup_vals X Y HS ix' it' ip') as [<- _]; try lia. rewrite <- M3. field. lra.
  - intros Hsm. unfold s. destruct M3 as [M3|((ix' & (ip' & it')) & Hin & M3)].
    + unfold t. rewrite M3, Rabs_R0, Rltb_false by (pose proof tol_pos; lra). auto.
    + apply In_pts3 in Hin. cbn in Hin. cbn [fst snd] in M3. assert (Hev' : evaluated ix' it' ip') by (unfold evaluated; lia). specialize (Hsm _ _ _ Hev').
      destruct (setup_vals X Y HS ix' it' ip') as [E1 _]; try lia. rewrite <- E1, <- M3 in Hsm. unfold t. rewrite Rabs_pos_eq, Rltb_false by lra. auto.
Qed.

(** ** C60: if the un-normalised pulse exceeds 1e-16 at some evaluated point, the largest |f| over the
    evaluated points is |amp| and is attained; if it exceeds it nowhere, f is the un-normalised pulse. *)
Theorem C60_amplitude X Y f p : pulse_setup X Y -> length f = g_n3 g -> length p = g_n3 g ->
  let raw ix it ip := pulse (pr_rl par) (pr_ru par) (R_to_r g (X ix)) * Y it ip in
  exists f' p', compact_pulse par g f p = Ok (f', p') /\
  ((exists ix it ip, evaluated ix it ip /\ 1 / 10 ^ 16 < Rabs (raw ix it ip)) ->
     (forall ix it ip, evaluated ix it ip -> exists v, nth_error f' (indx_R_th_ph g ix it ip) = Some v /\ Rabs v <= Rabs (pr_amp par)) /\
     (exists ix it ip v, evaluated ix it ip /\ nth_error f' (indx_R_th_ph g ix it ip) = Some v /\ Rabs v = Rabs (pr_amp par))) /\
  ((forall ix it ip, evaluated ix it ip -> Rabs (raw ix it ip) <= 1 / 10 ^ 16) ->
     forall ix it ip, evaluated ix it ip -> nth_error f' (indx_R_th_ph g ix it ip) = Some (raw ix it ip)).
Proof.
  intros HS Lf Lp raw. destruct (pulse_result X Y f p HS Lf Lp) as (f' & p' & s & E & _ & _ & H1 & _ & H3 & H4). exists f', p'. split; auto. split.
  - intros H. destruct (H3 H) as [A (ix & it & ip & B1 & B2)]. split.
    + intros ix' it' ip' Hev. destruct (H1 _ _ _ Hev) as [E1 _]. eexists. split; [exact E1|]. apply A; auto.
    + destruct (H1 _ _ _ B1) as [E1 _]. exists ix, it, ip. eexists. split; auto. split; [exact E1|auto].
  - intros H ix it ip Hev. destruct (H1 _ _ _ Hev) as [E1 _]. rewrite E1, (H4 H). unfold raw. now rewrite Rmult_1_l.
Qed.
(** if moreover f was zero beforehand (as the driver leaves it), |f| <= |amp| on the whole grid *)
Theorem C60_whole_grid X Y p : pulse_setup X Y -> length p = g_n3 g ->
  (exists ix it ip, evaluated ix it ip /\ 1 / 10 ^ 16 < Rabs (pulse (pr_rl par) (pr_ru par) (R_to_r g (X ix)) * Y it ip)) ->
  exists f' p', compact_pulse par g (vec (g_n3 g) 0) p = Ok (f', p') /\ length f' = g_n3 g /\
    (forall i, (i < g_n3 g)%nat -> Rabs (nth i f' 0) <= Rabs (pr_amp par)) /\ exists i, (i < g_n3 g)%nat /\ Rabs (nth i f' 0) = Rabs (pr_amp par).
Proof.
  intros HS Lp H. destruct (pulse_result X Y (vec (g_n3 g) 0) p HS (vec_length _ _) Lp) as (f' & p' & s & E & L1 & L2 & H1 & H2 & H3 & H4).
  destruct (H3 H) as [A (ix & it & ip & B1 & B2)]. destruct (gof_sizes b h cl0 Rmin0 Rmax0 nx g Hg) as (Eb & En & _).
  exists f', p'. split; auto. split; auto. split.
  - intros i Hi. destruct (ix_R_th_ph_surj (g_bld g) _ _ _ _ Hi) as (ix' & it' & ip' & C1 & C2 & C3 & Ei). fold (indx_R_th_ph g ix' it' ip') in Ei. subst i.
    destruct (Nat.eq_dec ix' (nx - 1)) as [->|Hn].
    + destruct (H2 it' ip' C2 C3 _ eq_refl) as [E1 _]. rewrite (nth_error_nth _ _ _ E1). rewrite nth_vec, Rmult_0_r, Rabs_R0 by auto. apply Rabs_pos.
    + assert (Hev : evaluated ix' it' ip') by (unfold evaluated; lia). destruct (H1 _ _ _ Hev) as [E1 _]. rewrite (nth_error_nth _ _ _ E1). auto.
  - exists (indx_R_th_ph g ix it ip). destruct (H1 _ _ _ B1) as [E1 _]. rewrite (nth_error_nth _ _ _ E1). split; auto.
    rewrite <- L1. apply nth_error_Some. congruence.
Qed.

(** ** C61: compact support *)
Theorem C61_support X Y f p : pulse_setup X Y -> length f = g_n3 g -> length p = g_n3 g ->
  exists f' p', compact_pulse par g f p = Ok (f', p') /\
  forall ix it ip, evaluated ix it ip -> R_to_r g (X ix) <= pr_rl par \/ pr_ru par <= R_to_r g (X ix) ->
    nth_error f' (indx_R_th_ph g ix it ip) = Some 0 /\ nth_error p' (indx_R_th_ph g ix it ip) = Some 0.
Proof.
  intros HS Lf Lp. destruct (pulse_result X Y f p HS Lf Lp) as (f' & p' & s & E & _ & _ & H1 & _). exists f', p'. split; auto.
  intros ix it ip Hev Hr. destruct (H1 _ _ _ Hev) as [-> ->]. rewrite pulse_out, pulse_dr_out by auto. split; f_equal; ring.
Qed.
(** ** C62: f samples A*pulse(r)*Y, and p samples plus/minus the r-derivative of the same function *)
Theorem C62_direction X Y f p : pulse_setup X Y -> length f = g_n3 g -> length p = g_n3 g ->
  exists f' p' A, compact_pulse par g f p = Ok (f', p') /\
  forall ix it ip, evaluated ix it ip -> let r := R_to_r g (X ix) in let F := fun r => A * (pulse (pr_rl par) (pr_ru par) r * Y it ip) in
    nth_error f' (indx_R_th_ph g ix it ip) = Some (F r) /\ ex_derive F r /\
    (pr_direction par = txt "ingoing" -> nth_error p' (indx_R_th_ph g ix it ip) = Some (Derive F r)) /\
    (pr_direction par = txt "outgoing" -> nth_error p' (indx_R_th_ph g ix it ip) = Some (- Derive F r)) /\
    (pr_direction par <> txt "ingoing" -> pr_direction par <> txt "outgoing" -> nth_error p' (indx_R_th_ph g ix it ip) = Some 0).
Proof.
  intros HS Lf Lp. destruct (pulse_result X Y f p HS Lf Lp) as (f' & p' & s & E & _ & _ & H1 & _). exists f', p', s. split; auto.
  intros ix it ip Hev r F. destruct (H1 _ _ _ Hev) as [E1 E2]. fold r in E1, E2.
  assert (D : is_derive F r (s * (pulse_dr (pr_rl par) (pr_ru par) r * Y it ip))).
  { unfold F. apply (is_derive_scal (fun r => pulse (pr_rl par) (pr_ru par) r * Y it ip)).
    apply (is_derive_ext (fun r => Y it ip * pulse (pr_rl par) (pr_ru par) r)); [intros; apply Rmult_comm|].
    rewrite (Rmult_comm (pulse_dr _ _ _)). apply (is_derive_scal (pulse (pr_rl par) (pr_ru par))), C62_pulse_derivative. }
  split; auto. split; [eexists; exact D|]. rewrite (is_derive_unique _ _ _ D). rewrite E2. unfold dir_sign. split; [|split].
  - intros ->. rewrite text_eqb_refl. f_equal. ring.
  - intros ->. rewrite text_eqb_refl. change (text_eqb (txt "outgoing") (txt "ingoing")) with false. cbn iota. f_equal. ring.
  - intros N1 N2. rewrite !text_eqb_neq by auto. f_equal. ring.
Qed.

(** ** C63: which shell is skipped *)
Theorem C63_skipped_shell : (2 <= nx)%nat -> Rmin0 < Rmax0 ->
  rad_pt (g_radial g) (nx - 1) = Ok (if use_cheb b then Rmin0 else Rmax0).
Proof.
  intros Hn Hr. destruct (gof_sizes b h cl0 Rmin0 Rmax0 nx g Hg) as (_ & _ & _ & _ & _ & _ & Er & _). unfold rad_make in Er.
  destruct (use_cheb b) eqn:Ec.
  - inv_bind Er. rename x into c. assert (Er' : g_radial g = RCh c) by congruence. rewrite Er'. cbn [rad_pt].
    destruct (C14_cheb_points b nx Rmin0 Rmax0 c E Hn Hr) as (x & Hx' & X0 & X1 & _). rewrite Hx' by lia. now rewrite X1.
  - assert (Er' : g_radial g = RFd (FD_make nx Rmin0 Rmax0)) by congruence. rewrite Er'. cbn [rad_pt].
    destruct (C14_fd_points nx Rmin0 Rmax0 Hn Hr) as (X0 & X1 & _). cbv zeta in X1. now rewrite X1.
Qed.
(** the values there are whatever they were before (times the common factor): zero stays zero *)
Theorem C63_skipped_values X Y f p : pulse_setup X Y -> length f = g_n3 g -> length p = g_n3 g ->
  exists f' p' s, compact_pulse par g f p = Ok (f', p') /\
  (forall ix it ip, evaluated ix it ip -> nth_error f' (indx_R_th_ph g ix it ip) = Some (s * (pulse (pr_rl par) (pr_ru par) (R_to_r g (X ix)) * Y it ip))) /\
  forall it ip j, (it < g_nlat g)%nat -> (ip < g_nphi g)%nat -> j = indx_R_th_ph g (nx - 1) it ip ->
    nth_error f' j = Some (s * nth j f 0) /\ nth_error p' j = Some (s * nth j p 0).
Proof.
  intros HS Lf Lp. destruct (pulse_result X Y f p HS Lf Lp) as (f' & p' & s & E & _ & _ & H1 & H2 & _). exists f', p', s. split; auto. split.
  - intros ix it ip Hev. apply (H1 _ _ _ Hev).
  - intros it ip j A B Ej. apply (H2 it ip A B j Ej).
Qed.
(** finite differences reaching to infinity: with zero beforehand and ru <= 1e12 the skipped shell holds
    exactly what the formula would give there *)
Theorem C63_fd_harmless X Y : pulse_setup X Y -> use_cheb b = false -> (2 <= nx)%nat -> Rmin0 < Rmax0 -> Rmax0 = cl0 -> pr_ru par <= 10 ^ 12 ->
  exists f' p' s, compact_pulse par g (vec (g_n3 g) 0) (vec (g_n3 g) 0) = Ok (f', p') /\
  forall ix it ip, (ix < nx)%nat -> (it < g_nlat g)%nat -> (ip < g_nphi g)%nat ->
    nth_error f' (indx_R_th_ph g ix it ip) = Some (s * (pulse (pr_rl par) (pr_ru par) (R_to_r g (X ix)) * Y it ip)).
Proof.
  intros HS Hb Hn Hr He Hu. destruct (C63_skipped_values X Y (vec (g_n3 g) 0) (vec (g_n3 g) 0) HS (vec_length _ _) (vec_length _ _)) as (f' & p' & s & E & H1 & H2).
  exists f', p', s. split; auto. intros ix it ip A B C. destruct (Nat.eq_dec ix (nx - 1)) as [->|Hne]; [|apply H1; unfold evaluated; lia].
  destruct (H2 it ip _ B C eq_refl) as [-> _]. f_equal. pose proof (C63_skipped_shell Hn Hr) as P. rewrite Hb in P. destruct HS as [HX _]. rewrite HX in P by lia.
  assert (PX : X (nx - 1)%nat = Rmax0) by congruence. rewrite PX.
  destruct (gof_sizes b h cl0 Rmin0 Rmax0 nx g Hg) as (Eb & En & _).
  assert (Hc : (indx_R_th_ph g (nx - 1) it ip < g_n3 g)%nat) by (unfold indx_R_th_ph, g_n3; apply ix_R_th_ph_lt; auto; lia).
  rewrite nth_vec by auto.
  assert (Ecl : g_cl g = cl0) by (pose proof Hg as T; apply Grid_make_tables in T; apply T).
  rewrite pulse_out; [ring|]. right. unfold R_to_r. R_ops. rewrite Ecl, He, Rminus_eq_0, Rabs_R0, Rltb_false by (rewrite tol_eq; pose proof tol_pos; lra).
  rewrite Rmult_1_l. change (powerRZ 10 12) with (10 ^ 12). auto.
Qed.
(** Chebyshev nodes: the skipped shell is the inner boundary; if the pulse covers it the stored value is
    0 although the pulse there is positive *)
Theorem C63_cheb_horizon_refuted X Y : pulse_setup X Y -> use_cheb b = true -> (2 <= nx)%nat -> Rmin0 < Rmax0 ->
  pr_rl par < R_to_r g Rmin0 < pr_ru par ->
  R_to_r g (X (nx - 1)%nat) = R_to_r g Rmin0 /\ 0 < pulse (pr_rl par) (pr_ru par) (R_to_r g (X (nx - 1)%nat)) /\
  exists f' p', compact_pulse par g (vec (g_n3 g) 0) (vec (g_n3 g) 0) = Ok (f', p') /\
  forall it ip, (it < g_nlat g)%nat -> (ip < g_nphi g)%nat -> nth_error f' (indx_R_th_ph g (nx - 1) it ip) = Some 0.
Proof.
  intros HS Hb Hn Hr Hin. destruct (C63_skipped_values X Y (vec (g_n3 g) 0) (vec (g_n3 g) 0) HS (vec_length _ _) (vec_length _ _)) as (f' & p' & s & E & H1 & H2).
  pose proof (C63_skipped_shell Hn Hr) as P. rewrite Hb in P. destruct HS as [HX _]. rewrite HX in P by lia.
  assert (PX : X (nx - 1)%nat = Rmin0) by congruence. rewrite PX. split; auto. split; [apply pulse_pos; tauto|].
  exists f', p'. split; auto. intros it ip B C. destruct (H2 it ip _ B C eq_refl) as [-> _]. f_equal.
  destruct (gof_sizes b h cl0 Rmin0 Rmax0 nx g Hg) as (Eb & En & _).
  rewrite nth_vec by (unfold indx_R_th_ph, g_n3; apply ix_R_th_ph_lt; auto; lia). ring.
Qed.
End Props.
(** transforms whose synthesis is the constant one: enough to exhibit a pulse *)
Definition one_sht (lmax mmax nlat nphi : nat) : sht R :=
  Sht lmax mmax nlat nphi (nlat * nphi) (map (fun i => (INR i + 1) / INR (nlat + 1)) (seq 0 nlat))
    (fun v => repeat (0, 0) (nlm_calc lmax mmax)) (fun c => repeat 1 (nlat * nphi))
    (fun v => repeat (0, 0) ((lmax + 1) * (lmax + 1))) (fun c => repeat (0, 0) (nlat * nphi)).
Definition demo_par (rl ru : R) : params R :=
  Par 100 10 4 3 6 8 5 (1 / 10) 50 50 2 1 (1 / 2) 0 1 0 0 0 0 0 (txt "compact_pulse") (txt "ingoing") (1 / 100) rl ru 2 1.
Example C60_C61_C62_C63_nonvacuous cheb : exists g par X Y, let b := Build cheb true false in let h := one_sht 4 3 6 8 in
  grid_of b h 50 2 50 10 g /\ shapes h /\ pr_direction par = txt "ingoing" /\
  (LM (s_lmax h) (to_size (pr_l_ang par)) (to_size (pr_m_ang par)) < nlm_calc (s_lmax h) (s_mmax h))%nat /\
  pulse_setup b 10 g par X Y /\
  (exists ix it ip, evaluated 10 g ix it ip /\ 1 / 10 ^ 16 < Rabs (pulse (pr_rl par) (pr_ru par) (R_to_r g (X ix)) * Y it ip)) /\
  (exists par', pulse_setup b 10 g par' X Y /\ pr_ru par' <= 10 ^ 12 /\ pr_rl par' < R_to_r g 2 < pr_ru par').
Proof.
  set (b := Build cheb true false). set (h := one_sht 4 3 6 8).
  destruct (Grid_make_ok b h 50 2 50 10 4 3 6 8) as (g & E); [cbn; lia|left; lia|].
  assert (Hg : grid_of b h 50 2 50 10 g) by exact E. clear E.
  destruct (gof_sizes b h 50 2 50 10 g Hg) as (Eb & En & _ & El & Ep & _).
  assert (Hsh : shapes h). { split; cbn; intros; auto; try apply repeat_length; lia. }
  assert (Ecl : g_cl g = 50) by (pose proof Hg as T; apply Grid_make_tables in T; apply T).
  assert (R2 : R_to_r g 2 = 25 / 12).
  { unfold R_to_r. R_ops. rewrite Ecl, Rltb_true; [field|]. rewrite tol_eq. rewrite Rabs_left by lra.
    apply (Rmult_lt_reg_r (10 ^ 16)); [apply pow_lt; lra|]. unfold Rdiv. rewrite Rmult_assoc, Rinv_l by (apply pow_nonzero; lra). simpl; lra. }
  set (r1 := R_to_r g (pt_of g 1)).
  assert (HLM : forall rl ru, (LM (s_lmax h) (to_size (pr_l_ang (demo_par rl ru))) (to_size (pr_m_ang (demo_par rl ru))) < nlm_calc (s_lmax h) (s_mmax h))%nat) by (intros; cbn [pr_l_ang pr_m_ang demo_par]; apply Nat.ltb_lt; vm_compute; reflexivity).
  assert (ST : forall rl ru, pulse_setup b 10 g (demo_par rl ru) (pt_of g) (fun _ _ => 1)).
  { intros rl ru. split.
    - intros ix Hi. destruct (pt_ex b h 50 2 50 10 g Hg ix Hi) as (X & EX). unfold pt_of. now rewrite EX.
    - destruct (ylm_ok b h 50 2 50 10 g Hg Hsh (demo_par rl ru) (HLM rl ru)) as [Ey Ly]. rewrite Eb in Ey. eexists. split; [exact Ey|].
      intros it ip Ht Hp. rewrite (nth_error_nth' _ 1); [f_equal; apply nth_repeat|]. rewrite Ly. unfold indx_th_ph. now apply ix_th_ph_lt. }
  exists g, (demo_par (r1 - 1) (r1 + 1)), (pt_of g), (fun _ _ => 1). cbv zeta. split; [exact Hg|]. split; [exact Hsh|]. split; [reflexivity|]. split; [apply HLM|]. split; [apply ST|]. split.
  - exists 1%nat, 0%nat, 0%nat. split; [unfold evaluated; rewrite El, Ep; cbn; lia|]. fold r1. cbn [pr_rl pr_ru demo_par]. rewrite Rmult_1_r.
    rewrite Rabs_pos_eq by (apply Rlt_le, pulse_pos; lra). rewrite pulse_in by lra. cbv zeta.
    assert (W : pulse_w (r1 - 1) (r1 + 1) = 2).
    { unfold pulse_w. replace (r1 + 1 - (r1 - 1)) with 2 by ring. rewrite (Rabs_pos_eq 2), Rmax_left by lra. reflexivity. }
    rewrite W. replace (r1 - (r1 - 1)) with 1 by ring. replace (r1 + 1 - r1) with 1 by ring. rewrite Rmult_assoc, <- exp_plus.
    match goal with |- context [exp ?z] => replace z with (- (INR 6)) by (simpl; lra) end. rewrite exp_Ropp.
    assert (B : exp (INR 6) <= 3 ^ 6). { replace (exp (INR 6)) with (exp 1 ^ 6); [apply pow_incr; split; [apply Rlt_le, exp_pos|apply exp_le_3]|]. rewrite <- Rpower_pow by apply exp_pos. unfold Rpower. rewrite ln_exp. f_equal. ring. }
    pose proof (exp_pos (INR 6)). apply Rlt_le_trans with (1 / 256 / 3 ^ 6).
    + apply (Rmult_lt_reg_r (10 ^ 16)); [apply pow_lt; lra|]. unfold Rdiv. rewrite Rmult_assoc, Rinv_l by (apply pow_nonzero; lra). simpl; lra.
    + replace ((1 / 2) ^ 4 * (1 / 2) ^ 4) with (1 / 256) by field. unfold Rdiv at 1. apply Rmult_le_compat_l; [lra|]. apply Rinv_le_contravar; auto.
  - exists (demo_par 1 3). split; [apply ST|]. rewrite R2. cbn [pr_rl pr_ru demo_par]. split; [simpl; lra|lra].
Qed.
