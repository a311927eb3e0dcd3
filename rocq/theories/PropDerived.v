(** * C90: the launcher's time step, number of steps and save stride in double precision. *)
From Coq Require Import ZArith Reals SpecFloat Lra Lia.
From Flocq Require Import Core BinarySingleNaN.
From Verif Require Import Base Arith FpSpec Fp FpErr FpKerr PropFpKerr MSim MDerived PropLaunch PropDriver.
Local Open Scope R_scope.
#[local] Existing Instance Hp.
#[local] Existing Instance Hm.

(** ** int() and / *)
Lemma trunc_floor x : fin x -> 0 <= val x -> exists n, py_trunc x = Some n /\ IZR n <= val x < IZR n + 1 /\ (0 <= n)%Z.
Proof.
  intros [_ Fx] Px. destruct x as [s|s| |s m e]; try destruct Fx.
  - exists 0%Z. cbn. split; [reflexivity|]. split; [lra|lia].
  - destruct s.
    { exfalso. cbn [val] in Px. assert (0 < IZR (Z.pos m)) by (apply IZR_lt; lia). assert (0 < powerRZ 2 e) by (apply powerRZ_lt; lra). nra. }
    cbn [val py_trunc] in *. rewrite Rmult_1_l in *. destruct (Z.leb_spec 0 e) as [He|He].
    + exists (Z.pos m * 2 ^ e)%Z. split; [reflexivity|]. rewrite mult_IZR. replace (IZR (2 ^ e)) with (powerRZ 2 e).
      * split; [lra|]. apply Z.mul_nonneg_nonneg; [lia|apply Z.pow_nonneg; lia].
      * destruct e as [|p|p]; [reflexivity| |lia]. rewrite <- (positive_nat_Z p), <- pow_IZR. rewrite positive_nat_Z. reflexivity.
    + exists (Z.pos m / 2 ^ (- e))%Z. split; [reflexivity|]. destruct e as [|p|p]; try lia. cbn [Z.opp powerRZ].
      set (P := (2 ^ Z.pos p)%Z). assert (PP : (0 < P)%Z) by (apply Z.pow_pos_nonneg; lia).
      assert (EP : 2 ^ Pos.to_nat p = IZR P) by (unfold P; rewrite <- (positive_nat_Z p), <- pow_IZR; reflexivity). rewrite EP.
      assert (RP : 0 < IZR P) by (apply IZR_lt; auto).
      pose proof (Z.div_mod (Z.pos m) P ltac:(lia)) as D. pose proof (Z.mod_pos_bound (Z.pos m) P PP) as B. set (q := (Z.pos m / P)%Z) in *. set (r := (Z.pos m mod P)%Z) in *.
      assert (DR : IZR (Z.pos m) = IZR P * IZR q + IZR r) by (rewrite <- mult_IZR, <- plus_IZR; f_equal; exact D).
      assert (B1 : 0 <= IZR r) by (apply IZR_le; lia). assert (B2 : IZR r < IZR P) by (apply IZR_lt; lia). rewrite DR.
      assert (E : (IZR P * IZR q + IZR r) * / IZR P = IZR q + IZR r / IZR P) by (field; lra). rewrite E.
      assert (0 <= IZR r / IZR P < 1). { split; [apply Rmult_le_pos; [auto|apply Rlt_le, Rinv_0_lt_compat; auto]|]. apply Rmult_lt_reg_r with (IZR P); auto. unfold Rdiv. rewrite Rmult_assoc, Rinv_l by lra. lra. }
      split; [lra|]. unfold q. apply Z.div_pos; lia.
Qed.
Lemma py_div_some x y : val y <> 0 -> py_div x y = Some (SFdiv 53 1024 x y).
Proof. destruct y; cbn; intros H; try reflexivity. exfalso. apply H. reflexivity. Qed.
Lemma div_val x y : fin x -> fin y -> val y <> 0 -> Rabs (val x / val y) <= big -> fin (SFdiv 53 1024 x y) /\ val (SFdiv 53 1024 x y) = rnd (val x / val y).
Proof.
  intros [Dx Fx] [Dy Fy] N H.
  destruct (double_B x Dx) as [a ->], (double_B y Dy) as [b ->]. rewrite !val_B in *. rewrite fin_B in *.
  rewrite SFdiv_B. assert (Q := Bdiv_correct 53 1024 Hp Hm mode_NE a b N). rewrite rnd_lt in Q by exact H.
  destruct Q as (Q1 & Q2 & _). split; [split; [apply B_double|apply fin_B; rewrite Q2, Fx; reflexivity]|]. rewrite val_B. exact Q1.
Qed.

(** ** the save stride is the exact quotient *)
Theorem C90_stride nt ns : (0 <= nt < 2 ^ 53)%Z -> (1 <= ns < 2 ^ 53)%Z ->
  launch_stride nt ns = Some (Z.max 1 (nt / ns)) /\ launch_stride nt ns = Some (py_t_step_save nt ns).
Proof.
  intros Hn Hs. assert (G : launch_stride nt ns = Some (Z.max 1 (nt / ns))); [|split; auto; rewrite py_stride by lia; exact G].
  unfold launch_stride, sf_ofZ. destruct (ofZ_ok nt ltac:(lia)) as [Fn En]. destruct (ofZ_ok ns ltac:(lia)) as [Fs Es].
  set (x := SpecFloat.binary_normalize 53 1024 nt 0 false) in *. set (y := SpecFloat.binary_normalize 53 1024 ns 0 false) in *. clearbody x y.
  assert (PS : 1 <= IZR ns) by (apply IZR_le; lia). assert (PN : 0 <= IZR nt) by (apply IZR_le; lia).
  assert (B53 : IZR nt <= 2 ^ 53 - 1) by (change (2 ^ 53 - 1) with (IZR 2 ^ 53 - 1); rewrite pow_IZR, <- minus_IZR; apply IZR_le; cbn; lia).
  assert (S53 : IZR ns <= 2 ^ 53 - 1) by (change (2 ^ 53 - 1) with (IZR 2 ^ 53 - 1); rewrite pow_IZR, <- minus_IZR; apply IZR_le; cbn; lia).
  pose proof (Z.div_mod nt ns ltac:(lia)) as D. pose proof (Z.mod_pos_bound nt ns ltac:(lia)) as B. set (k := (nt / ns)%Z) in *. set (r := (nt mod ns)%Z) in *.
  assert (Hk : (0 <= k)%Z) by (apply Z.div_pos; lia). assert (Hk2 : (k <= nt)%Z) by nia.
  assert (DR : IZR nt = IZR ns * IZR k + IZR r) by (rewrite <- mult_IZR, <- plus_IZR; f_equal; exact D).
  assert (R1 : 0 <= IZR r) by (apply IZR_le; lia). assert (R2 : IZR r <= IZR ns - 1) by (rewrite <- minus_IZR; apply IZR_le; lia).
  set (q := IZR nt / IZR ns). assert (PI : 0 < / IZR ns) by (apply Rinv_0_lt_compat; lra).
  assert (Q0 : 0 <= q) by (apply Rmult_le_pos; lra). assert (Q1 : q <= IZR nt). { unfold q, Rdiv. rewrite <- (Rmult_1_r (IZR nt)) at 2. apply Rmult_le_compat_l; auto. rewrite <- Rinv_1. apply Rinv_le_contravar; lra. }
  assert (QE : q * IZR ns = IZR nt) by (unfold q; field; lra).
  destruct (div_val x y Fn Fs) as [F V]; [lra| |].
  { rewrite En, Es. fold q. rewrite Rabs_right by lra. apply Rle_trans with (2 ^ 53); [lra|]. unfold big. apply Rle_pow; [lra|lia]. }
  rewrite En, Es in V. fold q in V.
  assert (L : IZR k <= rnd q).
  { apply round_ge_generic; try typeclasses eauto.
    - destruct (ofZ_ok k ltac:(lia)) as [Fk Ek]. rewrite <- Ek. apply fin_format, Fk.
    - apply Rmult_le_reg_r with (IZR ns); [lra|]. rewrite QE, DR. lra. }
  assert (U : rnd q < IZR k + 1).
  { destruct (rnd_err q) as (d & e & Hd & He & ->). apply Rabs_le_inv in Hd. apply Rabs_le_inv in He.
    assert (K : uu = / 2 ^ 53) by reflexivity. assert (E : eta * 2 ^ 53 < uu).
    { unfold eta, uu. replace (2 ^ 1075) with (2 ^ 53 * 2 ^ 1022) by (rewrite <- pow_add; reflexivity). rewrite Rinv_mult. pose proof (pow2_pos 53) as P1.
      replace (/ 2 ^ 53 * / 2 ^ 1022 * 2 ^ 53) with (/ 2 ^ 1022) by (field; split; apply pow_nonzero; lra). apply Rinv_lt_contravar; [apply Rmult_lt_0_compat; apply pow2_pos|]. apply Rlt_pow; [lra|lia]. }
    assert (Pu : 0 < uu) by (rewrite K; apply Rinv_0_lt_compat, pow2_pos). assert (Ku : uu * 2 ^ 53 = 1) by (rewrite K; apply Rinv_l, pow_nonzero; lra). assert (Pe : 0 < eta) by (apply Rinv_0_lt_compat, pow2_pos).
    set (P := 2 ^ 53) in *. clearbody P. clear K.
    apply Rle_lt_trans with (q * (1 + uu) + eta); [assert (q * d <= q * uu) by (apply Rmult_le_compat_l; lra); lra|].
    apply Rmult_lt_reg_r with (IZR ns); [lra|]. rewrite Rmult_plus_distr_r. replace (q * (1 + uu) * IZR ns) with (IZR nt * (1 + uu)) by (rewrite <- QE; ring).
    assert (H1 : eta * IZR ns <= eta * P) by (apply Rmult_le_compat_l; lra). assert (H2 : IZR nt * uu <= (P - 1) * uu) by (apply Rmult_le_compat_r; lra).
    rewrite Rmult_plus_distr_l, Rmult_1_r. rewrite (Rmult_plus_distr_r (IZR k)). rewrite DR at 1. lra. }
  rewrite py_div_some by lra. cbn [obind]. destruct (trunc_floor _ F) as (n & -> & [N1 N2] & N3).
  { rewrite V. apply Rle_trans with (IZR k); auto. apply IZR_le; auto. }
  cbn [obind]. rewrite V in N1, N2. assert (n = k).
  { assert (IZR n < IZR k + 1) by lra. assert (IZR k < IZR n + 1) by lra. rewrite <- plus_IZR in H, H0. apply lt_IZR in H, H0. lia. }
  subst n. f_equal. destruct (Z.eqb_spec k 0); lia.
Qed.

(** ** the number of steps *)
Lemma ord_mg A : ordinary A -> mg 60 A. Proof. auto. Qed.
Lemma mg3 A B C : ordinary A -> ordinary B -> ordinary C -> mid (A * B / C) /\ mid (A * B).
Proof.
  intros [A1 A2] [B1 B2] [C1 C2]. assert (P := Rinv_0_lt_compat _ (pow2_pos 60)). assert (P60 := pow2_pos 60).
  assert (X1 : / 2 ^ 60 * / 2 ^ 60 <= A * B) by (apply Rmult_le_compat; lra). assert (X2 : A * B <= 2 ^ 60 * 2 ^ 60) by (apply Rmult_le_compat; lra).
  assert (Y1 : / 2 ^ 60 <= / C) by (apply Rinv_le_contravar; lra). assert (Y2 : / C <= 2 ^ 60) by (rewrite <- (Rinv_inv (2 ^ 60)); apply Rinv_le_contravar; lra).
  assert (E2 : 2 ^ 60 * 2 ^ 60 = 2 ^ 120) by (rewrite <- pow_add; reflexivity). assert (E3 : 2 ^ 60 * 2 ^ 60 * 2 ^ 60 = 2 ^ 180) by (rewrite <- !pow_add; reflexivity).
  assert (I2 : / 2 ^ 60 * / 2 ^ 60 = / 2 ^ 120) by (rewrite <- Rinv_mult, E2; reflexivity). assert (I3 : / 2 ^ 60 * / 2 ^ 60 * / 2 ^ 60 = / 2 ^ 180) by (rewrite <- !Rinv_mult, E3; reflexivity).
  assert (Z1 : / 2 ^ 60 * / 2 ^ 60 * / 2 ^ 60 <= A * B * / C) by (apply Rmult_le_compat; try lra; apply Rlt_le, Rmult_lt_0_compat; auto).
  assert (Z2 : A * B * / C <= 2 ^ 60 * 2 ^ 60 * 2 ^ 60) by (apply Rmult_le_compat; lra).
  unfold mid, Rdiv. split; (split; [|]).
  - eapply Rle_trans; [|exact Z1]. rewrite I3. apply Rinv_le_contravar; [apply pow2_pos|apply Rle_pow; [lra|lia]].
  - eapply Rle_trans; [exact Z2|]. rewrite E3. apply Rle_pow; [lra|lia].
  - eapply Rle_trans; [|exact X1]. rewrite I2. apply Rinv_le_contravar; [apply pow2_pos|apply Rle_pow; [lra|lia]].
  - eapply Rle_trans; [exact X2|]. rewrite E2. apply Rle_pow; [lra|lia].
Qed.
Theorem C90_steps (T m dt : spec_float) : fin T -> fin m -> fin dt -> ordinary (val T) -> ordinary (val m) -> ordinary (val dt) ->
  let q := val T * val m / val dt in
  exists n, launch_nt T m dt = Some n /\ (0 <= n)%Z /\
    IZR n * val dt <= val T * val m * (1 + 3 * / 2 ^ 52) /\ val T * val m * (1 - 3 * / 2 ^ 52) < (IZR n + 1) * val dt /\
    (q <= 2 ^ 50 -> (py_nt (val T) (val m) (val dt) - 1 <= n <= py_nt (val T) (val m) (val dt) + 1)%Z).
Proof.
  intros FT Fm Fd OT Om Od q. destruct (mg3 _ _ _ OT Om Od) as [M3 M2]. assert (PT := mg_pos 60 _ OT). assert (Pm := mg_pos 60 _ Om). assert (Pd := mg_pos 60 _ Od).
  assert (HT := ap_exact T (val T) FT ltac:(rewrite Rabs_right; lra)). assert (Hm := ap_exact m (val m) Fm ltac:(rewrite Rabs_right; lra)).
  assert (H1 := ap_mul _ _ _ _ _ _ 0 0 ltac:(lra) ltac:(lra) M2 HT Hm).
  assert (H2 := ap_div _ dt _ _ (0 + 0 + 1) ltac:(lra) Fd Pd M3 H1). fold q in H2. destruct H2 as (F & _ & E).
  assert (Pq : 0 < q) by (unfold q; apply Rdiv_lt_0_compat; auto; apply Rmult_lt_0_compat; auto).
  assert (Pw := ww_pos). assert (Sw := ww_small). assert (K : Rabs (val (SFdiv 53 1024 (SFmul 53 1024 T m) dt) - q) <= 3 * ww * q) by (eapply Rle_trans; [exact E|]; apply Rmult_le_compat_r; [lra|]; nra).
  apply Rabs_le_inv in K. unfold launch_nt. rewrite py_div_some by lra. cbn [obind]. set (z := SFdiv 53 1024 (SFmul 53 1024 T m) dt) in *.
  assert (Wq : 0 <= 3 * ww * q <= q) by (split; [nra|rewrite <- (Rmult_1_l q) at 2; apply Rmult_le_compat_r; lra]).
  destruct (trunc_floor z F ltac:(lra)) as (n & -> & [N1 N2] & N3). exists n. split; auto. split; auto.
  assert (QE : val T * val m = q * val dt) by (unfold q; field; lra). fold ww.
  split; [|split].
  - rewrite QE. replace (q * val dt * (1 + 3 * ww)) with (q * (1 + 3 * ww) * val dt) by ring. apply Rmult_le_compat_r; lra.
  - rewrite QE. replace (q * val dt * (1 - 3 * ww)) with (q * (1 - 3 * ww) * val dt) by ring. apply Rmult_lt_compat_r; lra.
  - intros Q50. assert (W1 : 3 * ww * q < 1).
    { apply Rle_lt_trans with (3 * ww * 2 ^ 50); [apply Rmult_le_compat_l; lra|]. unfold ww. replace (2 ^ 52) with (2 ^ 50 * 4) by (simpl; ring). assert (P := pow2_pos 50).
      replace (3 * / (2 ^ 50 * 4) * 2 ^ 50) with (3 / 4) by (field; lra). lra. }
    unfold py_nt. destruct (py_int_floor (val T * val m / val dt)) as [[J1 J2] J3]; [fold q; lra|]. fold q in J1, J2 |- *. set (j := py_int q) in *.
    assert (A1 : IZR j < IZR n + 2) by lra. assert (A2 : IZR n < IZR j + 2) by lra. rewrite <- plus_IZR in A1, A2. apply lt_IZR in A1, A2. lia.
Qed.
(** with doubles it is not true that the steps always fit into the requested time (C66 in exact arithmetic):
    evolve_time = 0.5, mass 1, dt = 0.1 *)
Lemma val_frac m p : val (S754_finite false m (Z.neg p)) = IZR (Z.pos m) / IZR (Z.pow_pos 2 p).
Proof. cbn [val powerRZ]. rewrite Rmult_1_l. unfold Rdiv. f_equal. f_equal. change (Z.pow_pos 2 p) with (2 ^ Z.pos p)%Z. rewrite <- (positive_nat_Z p), <- pow_IZR. reflexivity. Qed.
Definition half := S754_finite false 4503599627370496 (-53).
Definition tenth := S754_finite false 7205759403792794 (-56).
Theorem C90_steps_fit_refuted : exists T m dt n, fin T /\ fin m /\ fin dt /\ ordinary (val T) /\ ordinary (val m) /\ ordinary (val dt) /\
  launch_nt T m dt = Some n /\ val T * val m < IZR n * val dt /\ n = (py_nt (val T) (val m) (val dt) + 1)%Z.
Proof.
  assert (P60 : 100 <= 2 ^ 60) by (apply Rle_trans with (2 ^ 7); [simpl; lra|apply Rle_pow; [lra|lia]]).
  assert (I60 : / 2 ^ 60 <= / 100) by (apply Rinv_le_contravar; lra).
  assert (VH : val half = 1 / 2) by (unfold half; rewrite val_frac; change (Z.pow_pos 2 53) with 9007199254740992%Z; lra).
  assert (VO : val (sf_ofZ 1) = 1) by (apply ofZ_ok; lia).
  assert (VT : val tenth = 7205759403792794 / 72057594037927936) by (unfold tenth; rewrite val_frac; change (Z.pow_pos 2 56) with 72057594037927936%Z; reflexivity).
  exists half, (sf_ofZ 1), tenth, 5%Z. rewrite VH, VO, VT. split; [split; [reflexivity|exact I]|]. split; [split; [reflexivity|exact I]|]. split; [split; [reflexivity|exact I]|].
  unfold ordinary. split; [lra|]. split; [lra|]. split; [lra|]. split; [vm_compute; reflexivity|]. split; [lra|].
  unfold py_nt. destruct (py_int_floor (1 / 2 * 1 / (7205759403792794 / 72057594037927936))) as [[J1 J2] J3]; [lra|]. set (j := py_int _) in *.
  assert (E : 1 / 2 * 1 / (7205759403792794 / 72057594037927936) = 36028797018963968 / 7205759403792794) by field. rewrite E in J1, J2.
  assert (A1 : IZR j < 5) by lra. assert (A2 : 3 < IZR j) by lra. apply lt_IZR in A1, A2. lia.
Qed.

(** ** the time step *)
(** the C library's pow(n, -2.0) is off by at most one unit in the last place *)
Definition good_pow (pw : spec_float -> spec_float) : Prop :=
  forall n, (1 <= n <= 2 ^ 20)%Z -> near 1 (pw (sf_ofZ n)) (/ IZR n ^ 2) (/ IZR n ^ 2).
Theorem C90_time_step pw use_cheb cfl nx nlat nphi : good_pow pw -> fin cfl -> ordinary (val cfl) -> (2 <= nx <= 2 ^ 20)%nat -> (1 <= nlat <= 2 ^ 20)%nat -> (nphi <= 2 ^ 20)%nat ->
  let r := py_dt use_cheb (val cfl) nx nlat nphi in
  exists dt, launch_dt pw use_cheb cfl nx nlat nphi = Some dt /\ near 3 dt r r /\ 0 < val dt.
Proof.
  intros HG Fc Oc Hx Hl Hp r. assert (Pc := mg_pos 60 _ Oc). assert (Pw := ww_pos). assert (Sw := ww_small).
  assert (S6 : forall N, (1 <= N <= 2 ^ 20)%nat -> ap (SFmul 53 1024 (sf_ofZ 6) (pw (sf_ofZ (Z.of_nat N)))) (6 * / INR N ^ 2) (6 * / INR N ^ 2) 3).
  { intros N HN. assert (HN' : (Z.of_nat N <= 2 ^ 20)%Z) by (change (2 ^ 20)%Z with (Z.of_nat 2 ^ Z.of_nat 20)%Z; rewrite <- (Nat2Z.inj_pow 2 20); apply Nat2Z.inj_le; lia).
    destruct (HG (Z.of_nat N) ltac:(lia)) as [F E]. rewrite <- INR_IZR_INZ in E. assert (P1 : 1 <= INR N) by (replace 1 with (INR 1) by reflexivity; apply le_INR; lia).
    assert (P2 : INR N <= 2 ^ 20) by (rewrite INR_IZR_INZ; change 2 with (IZR 2); rewrite pow_IZR; apply IZR_le; exact HN').
    assert (Pi : 0 < / INR N ^ 2) by (apply Rinv_0_lt_compat, pow_lt; lra).
    assert (H : ap (pw (sf_ofZ (Z.of_nat N))) (/ INR N ^ 2) (/ INR N ^ 2) 1). { split; auto. split; [rewrite Rabs_right; lra|]. fold ww in E. lra. }
    assert (H6 := ap_Z 6 ltac:(lia)). rewrite Rabs_right in H6 by lra.
    apply (ap_le _ _ _ (0 + 1 + 1)); [lra|]. apply ap_mul; try lra; auto.
    assert (U1 : / INR N ^ 2 <= 1) by (rewrite <- Rinv_1; apply Rinv_le_contravar; [lra|]; nra).
    assert (U2 : / 2 ^ 40 <= / INR N ^ 2). { apply Rinv_le_contravar; [apply pow_lt; lra|]. replace (2 ^ 40) with ((2 ^ 20) ^ 2) by (rewrite <- pow_mult; reflexivity). apply pow_incr; lra. }
    split; [apply Rle_trans with (/ 2 ^ 40); [apply Rinv_le_contravar; [apply pow2_pos|apply Rle_pow; [lra|lia]]|apply Rle_trans with (/ INR N ^ 2); [exact U2|lra]]|]. apply Rle_trans with (2 ^ 3); [replace (2 ^ 3) with 8 by ring; lra|apply Rle_pow; [lra|lia]]. }
  unfold launch_dt, py_dt in *. destruct use_cheb.
  - eexists. split; [reflexivity|]. destruct (S6 (Nat.max nx (Nat.max nlat nphi)) ltac:(lia)) as (F & R1 & E). fold r in F, R1, E.
    assert (Pr : 0 < r). { unfold r. apply Rmult_lt_0_compat; [lra|]. apply Rinv_0_lt_compat, pow_lt, lt_0_INR. lia. }
    split; [split; auto|]. apply Rabs_le_inv in E. assert (3 * ww * r < r) by (rewrite <- (Rmult_1_l r) at 2; apply Rmult_lt_compat_r; lra). lra.
  - assert (HN' : (Z.of_nat nx <= 2 ^ 20)%Z) by (change (2 ^ 20)%Z with (Z.of_nat 2 ^ Z.of_nat 20)%Z; rewrite <- (Nat2Z.inj_pow 2 20); apply Nat2Z.inj_le; lia).
    destruct (ofZ_ok (Z.of_nat nx) ltac:(lia)) as [Fx Ex]. destruct (ofZ_ok 1 ltac:(lia)) as [F1 E1]. rewrite <- INR_IZR_INZ in Ex.
    assert (P1 : 2 <= INR nx) by (replace 2 with (INR 2) by reflexivity; apply le_INR; lia).
    assert (P2 : INR nx <= 2 ^ 20) by (rewrite INR_IZR_INZ; change 2 with (IZR 2); rewrite pow_IZR; apply IZR_le; exact HN').
    assert (VS : fin (SFsub 53 1024 (sf_ofZ (Z.of_nat nx)) (sf_ofZ 1)) /\ val (SFsub 53 1024 (sf_ofZ (Z.of_nat nx)) (sf_ofZ 1)) = INR nx - 1).
    { unfold sf_ofZ. destruct (double_B _ (proj1 Fx)) as [a Ea], (double_B _ (proj1 F1)) as [b Eb]. rewrite Ea, Eb in *. rewrite SFsub_B. rewrite val_B in Ex, E1.
      pose proof (proj1 (fin_B a) (proj2 Fx)) as Fa. pose proof (proj1 (fin_B b) (proj2 F1)) as Fb.
      assert (Q := Bminus_correct 53 1024 Fp.Hp Hm mode_NE a b Fa Fb). rewrite Ex, E1 in Q. 
      assert (G : rnd (INR nx - 1) = INR nx - 1).
      { apply round_generic; try typeclasses eauto. destruct (ofZ_ok (Z.of_nat nx - 1) ltac:(lia)) as [Fk Ek]. replace (INR nx - 1) with (IZR (Z.of_nat nx - 1)) by (rewrite minus_IZR, <- INR_IZR_INZ; reflexivity). rewrite <- Ek. apply fin_format, Fk. }
      rewrite rnd_lt in Q by (rewrite Rabs_right by lra; unfold big; apply Rle_trans with (2 ^ 20); [lra|apply Rle_pow; [lra|lia]]).
      destruct Q as (Q1 & Q2 & _). split; [split; [apply B_double|apply fin_B, Q2]|]. rewrite val_B, Q1. exact G. }
    destruct VS as [FS VS]. set (y := SFsub 53 1024 (sf_ofZ (Z.of_nat nx)) (sf_ofZ 1)) in *. rewrite py_div_some by lra. cbn [obind]. eexists. split; [reflexivity|].
    assert (Hc : ap (SFdiv 53 1024 cfl y) (val cfl / (INR nx - 1)) (val cfl / (INR nx - 1)) 3).
    { apply (ap_le _ _ _ (0 + 1)); [lra|]. rewrite <- VS. apply ap_div; auto; try lra.
      - rewrite VS. destruct Oc as [O1 O2]. assert (Pi := Rinv_0_lt_compat _ (pow2_pos 60)). assert (I1 : / 2 ^ 20 <= / (INR nx - 1)) by (apply Rinv_le_contravar; lra).
        assert (I2 : / (INR nx - 1) <= 1) by (rewrite <- Rinv_1; apply Rinv_le_contravar; lra). assert (I3 := Rinv_0_lt_compat _ (pow2_pos 20)). unfold Rdiv. split.
        + apply Rle_trans with (/ 2 ^ 60 * / 2 ^ 20); [|apply Rmult_le_compat; lra]. rewrite <- Rinv_mult, <- pow_add. apply Rinv_le_contravar; [apply pow2_pos|apply Rle_pow; [lra|lia]].
        + apply Rle_trans with (2 ^ 60 * 1); [apply Rmult_le_compat; lra|]. rewrite Rmult_1_r. apply Rle_pow; [lra|lia].
      - apply ap_exact; auto. rewrite Rabs_right; lra. }
    pose proof (S6 (Nat.max nlat nphi) ltac:(lia)) as Ha. set (a := SFmul 53 1024 (sf_ofZ 6) _) in *. set (c := SFdiv 53 1024 cfl y) in *.
    set (ra := 6 * / INR (Nat.max nlat nphi) ^ 2) in *. set (rc := val cfl / (INR nx - 1)) in *.
    assert (Pa : 0 < ra). { unfold ra. apply Rmult_lt_0_compat; [lra|]. apply Rinv_0_lt_compat, pow_lt, lt_0_INR. lia. }
    assert (Prc : 0 < rc) by (unfold rc; apply Rdiv_lt_0_compat; lra).
    destruct Ha as (Fa & _ & Ea). destruct Hc as (Fc' & _ & Ec). apply Rabs_le_inv in Ea. apply Rabs_le_inv in Ec. clearbody a c ra rc.
    assert (V : fin (py_min a c) /\ val (py_min a c) = Rmin (val a) (val c)).
    { unfold py_min. destruct Fa as [Da Fa], Fc' as [Dc Fc'].
      assert (EL : SFltb c a = Rlt_bool (val c) (val a)).
      { destruct (double_B a Da) as [x ->], (double_B c Dc) as [z ->]. rewrite !val_B. rewrite fin_B in Fa, Fc'. exact (Bltb_correct 53 1024 z x Fc' Fa). }
      rewrite EL. destruct (Rlt_bool_spec (val c) (val a)); (split; [split; auto|]); [rewrite Rmin_right; lra|rewrite Rmin_left; lra]. }
    destruct V as [FV V]. unfold near. fold ww. rewrite V. unfold r.
    assert (Wa : 3 * ww * ra < ra) by (rewrite <- (Rmult_1_l ra) at 2; apply Rmult_lt_compat_r; lra). assert (Wc : 3 * ww * rc < rc) by (rewrite <- (Rmult_1_l rc) at 2; apply Rmult_lt_compat_r; lra).
    split; [split; auto|].
    + unfold Rmin. destruct (Rle_dec (val a) (val c)), (Rle_dec ra rc); apply Rabs_le; try (split; lra).
      * assert (3 * ww * (ra - rc) <= 1 * (ra - rc)) by (apply Rmult_le_compat_r; lra). split; lra.
      * assert (3 * ww * (rc - ra) <= 1 * (rc - ra)) by (apply Rmult_le_compat_r; lra). split; lra.
    + unfold Rmin. destruct (Rle_dec (val a) (val c)); lra.
Qed.
(** the launcher stops with an exception: no saves requested, one radial point with finite differences *)
Theorem C90_exceptions pw cfl nlat nphi nt : launch_stride nt 0 = None /\ launch_dt pw false cfl 1 nlat nphi = None.
Proof. split; reflexivity. Qed.

(** exactly when: the number of steps and the stride raise an exception iff the divisor is zero or the quotient is infinite or NaN *)
Lemma trunc_none x : py_trunc x = None <-> ~ is_fin x.
Proof. destruct x; cbn; split; intros H; try discriminate; try tauto. Qed.
Lemma div_trunc_none x y : obind (py_div x y) py_trunc = None <-> (exists s, y = S754_zero s) \/ ~ is_fin (SFdiv 53 1024 x y).
Proof.
  rewrite <- trunc_none. destruct y as [s| s| |s m e]; cbn [py_div obind]; split; intros H; eauto; destruct H as [[s' H]|H]; try discriminate; auto.
Qed.
Theorem C90_exceptions_exact :
  (forall t m dt, launch_nt t m dt = None <-> (exists s, dt = S754_zero s) \/ ~ is_fin (SFdiv 53 1024 (SFmul 53 1024 t m) dt)) /\
  (forall nt ns, launch_stride nt ns = None <-> (exists s, sf_ofZ ns = S754_zero s) \/ ~ is_fin (SFdiv 53 1024 (sf_ofZ nt) (sf_ofZ ns))) /\
  (forall dt, launch_nt S754_nan dt dt = None /\ launch_nt (S754_infinity false) (sf_ofZ 1) (sf_ofZ 1) = None).
Proof.
  split; [intros; apply div_trunc_none|]. split; [|intros dt; split; [destruct dt|]; reflexivity].
  intros nt ns. rewrite <- div_trunc_none. unfold launch_stride. destruct (obind (py_div (sf_ofZ nt) (sf_ofZ ns)) py_trunc); cbn [obind]; [|tauto]. split; discriminate.
Qed.

(** ** a run with the shipped settings: nx = 33, nlat = 20, nphi = 40, cfl = 0.4, 400 saves *)
Definition pw_ex (x : spec_float) : spec_float := SFdiv 53 1024 (sf_ofZ 1) (SFmul 53 1024 x x).
Lemma pw_good : good_pow pw_ex.
Proof.
  intros n Hn. unfold pw_ex. destruct (ofZ_ok n ltac:(lia)) as [Fn En]. fold (sf_ofZ n) in Fn, En. assert (P1 : 1 <= IZR n) by (apply IZR_le; lia).
  assert (P2 : IZR n <= 2 ^ 20) by (change 2 with (IZR 2); rewrite pow_IZR; apply IZR_le; exact (proj2 Hn)).
  assert (SQ : fin (SFmul 53 1024 (sf_ofZ n) (sf_ofZ n)) /\ val (SFmul 53 1024 (sf_ofZ n) (sf_ofZ n)) = IZR n ^ 2).
  { destruct (double_B _ (proj1 Fn)) as [a Ea]. rewrite Ea in *. rewrite SFmul_B. rewrite val_B in En. pose proof (proj1 (fin_B a) (proj2 Fn)) as Fa.
    assert (Q := Bmult_correct 53 1024 Hp Hm mode_NE a a). rewrite En in Q.
    assert (G : rnd (IZR n * IZR n) = IZR n ^ 2).
    { replace (IZR n ^ 2) with (IZR n * IZR n) by ring. apply round_generic; try typeclasses eauto. destruct (ofZ_ok (n * n)) as [Fk Ek].
      - rewrite Z.abs_eq by nia. apply Z.le_lt_trans with (2 ^ 20 * 2 ^ 20)%Z; [apply Z.mul_le_mono_nonneg; lia|reflexivity].
      - rewrite <- mult_IZR, <- Ek. apply fin_format, Fk. }
    rewrite rnd_lt in Q.
    - destruct Q as (Q1 & Q2 & _). split; [split; [apply B_double|apply fin_B; rewrite Q2, Fa; reflexivity]|]. rewrite val_B, Q1. exact G.
    - rewrite Rabs_right by nra. unfold big. apply Rle_trans with (2 ^ 20 * 2 ^ 20); [apply Rmult_le_compat; lra|]. rewrite <- pow_add. apply Rle_pow; [lra|lia]. }
  destruct SQ as [FS VS]. set (y := SFmul 53 1024 (sf_ofZ n) (sf_ofZ n)) in *. assert (H1 := ap_Z 1 ltac:(lia)). rewrite Rabs_right in H1 by lra.
  assert (PS : 0 < val y) by (rewrite VS; apply pow_lt; lra).
  assert (MM : mid (1 / val y)).
  { rewrite VS. unfold Rdiv. rewrite Rmult_1_l. split.
    - apply Rinv_le_contravar; [apply pow_lt; lra|]. apply Rle_trans with ((2 ^ 20) ^ 2); [apply pow_incr; lra|]. rewrite <- pow_mult. apply Rle_pow; [lra|lia].
    - apply Rle_trans with 1; [rewrite <- Rinv_1; apply Rinv_le_contravar; [lra|nra]|]. apply pow_R1_Rle. lra. }
  destruct (ap_div _ y _ _ 0 ltac:(lra) FS PS MM H1) as (F & _ & E). rewrite VS in E. unfold Rdiv in E. rewrite Rmult_1_l in E. split; [exact F|]. fold ww. eapply Rle_trans; [exact E|]. lra.
Qed.
Example C90_nonvacuous :
  good_pow pw_ex /\ ordinary (val tenth) /\
  exists dt, launch_dt pw_ex false (S754_finite false 7205759403792794 (-54)) 33 20 40 = Some dt /\ launch_nt (sf_ofZ 150) (sf_ofZ 1) dt = Some 40000%Z /\ launch_stride 40000 400 = Some 100%Z /\
    launch_stride 39999 400 = Some 99%Z /\ launch_stride 7 400 = Some 1%Z.
Proof.
  split; [apply pw_good|]. split.
  - assert (P60 : 100 <= 2 ^ 60) by (apply Rle_trans with (2 ^ 7); [simpl; lra|apply Rle_pow; [lra|lia]]). assert (I60 : / 2 ^ 60 <= / 100) by (apply Rinv_le_contravar; lra).
    assert (VT : val tenth = 7205759403792794 / 72057594037927936) by (unfold tenth; rewrite val_frac; change (Z.pow_pos 2 56) with 72057594037927936%Z; reflexivity). unfold ordinary. rewrite VT. lra.
  - eexists. split; [vm_compute; reflexivity|]. vm_compute. auto.
Qed.
