(** * Properties C07-C14 (finite-difference part). *)
From Coq Require Import Reals Lra List.
From Coquelicot Require Import Coquelicot.
From Verif Require Import Base Arith BaseLemmas PMake MFd PFd Spec PFdR.
Local Open Scope R_scope.

(** samples of a function at the radial points of an FD object *)
Definition samples (g : fd R) (f : R -> R) : list R := map (fun i => f (fd_pt g i)) (seq 0 (fd_n g)).

Lemma samples_length g f : length (samples g f) = fd_n g.
Proof. unfold samples. now rewrite map_length, seq_length. Qed.
Lemma samples_nth g f i d : (i < fd_n g)%nat -> nth i (samples g f) d = f (fd_pt g i).
Proof. intros H. unfold samples. now rewrite nth_map_seq. Qed.

Lemma der_st_poly k d s : (length d <= 7)%nat -> s <> 0 -> der_st k (poly d) s = nth 1 d 0.
Proof.
  intros Hd Hs.
  assert (E : exists c0 c1 c2 c3 c4 c5 c6, nth 1 d 0 = c1 /\ forall t, poly d t = c0 + t*(c1+t*(c2+t*(c3+t*(c4+t*(c5+t*c6)))))).
  { destruct d as [|a0 [|a1 [|a2 [|a3 [|a4 [|a5 [|a6 [|]]]]]]]]; simpl in Hd; try lia.
    - exists 0,0,0,0,0,0,0; split; [reflexivity | intros; simpl; ring].
    - exists a0,0,0,0,0,0,0; split; [reflexivity | intros; simpl; ring].
    - exists a0,a1,0,0,0,0,0; split; [reflexivity | intros; simpl; ring].
    - exists a0,a1,a2,0,0,0,0; split; [reflexivity | intros; simpl; ring].
    - exists a0,a1,a2,a3,0,0,0; split; [reflexivity | intros; simpl; ring].
    - exists a0,a1,a2,a3,a4,0,0; split; [reflexivity | intros; simpl; ring].
    - exists a0,a1,a2,a3,a4,a5,0; split; [reflexivity | intros; simpl; ring].
    - exists a0,a1,a2,a3,a4,a5,a6; split; [reflexivity | intros; simpl; ring]. }
  destruct E as (c0 & c1 & c2 & c3 & c4 & c5 & c6 & E1 & E). rewrite E1. clear E1.
  destruct k as [|[|[|k]]]; unfold der_st; rewrite !E;
    unfold der_s0, der_s1, der_s2, der_s; cbn [R_arith fadd fsub fmul fdiv fopp fofZ]; field; auto.
Qed.

Lemma der2_st_poly k d s : (length d <= 8)%nat -> s <> 0 -> der2_st k (poly d) s = 2 * nth 2 d 0.
Proof.
  intros Hd Hs.
  assert (E : exists c0 c1 c2 c3 c4 c5 c6 c7, nth 2 d 0 = c2 /\ forall t, poly d t = c0 + t*(c1+t*(c2+t*(c3+t*(c4+t*(c5+t*(c6+t*c7))))))).
  { destruct d as [|a0 [|a1 [|a2 [|a3 [|a4 [|a5 [|a6 [|a7 [|]]]]]]]]]; simpl in Hd; try lia.
    - exists 0,0,0,0,0,0,0,0; split; [reflexivity | intros; simpl; ring].
    - exists a0,0,0,0,0,0,0,0; split; [reflexivity | intros; simpl; ring].
    - exists a0,a1,0,0,0,0,0,0; split; [reflexivity | intros; simpl; ring].
    - exists a0,a1,a2,0,0,0,0,0; split; [reflexivity | intros; simpl; ring].
    - exists a0,a1,a2,a3,0,0,0,0; split; [reflexivity | intros; simpl; ring].
    - exists a0,a1,a2,a3,a4,0,0,0; split; [reflexivity | intros; simpl; ring].
    - exists a0,a1,a2,a3,a4,a5,0,0; split; [reflexivity | intros; simpl; ring].
    - exists a0,a1,a2,a3,a4,a5,a6,0; split; [reflexivity | intros; simpl; ring].
    - exists a0,a1,a2,a3,a4,a5,a6,a7; split; [reflexivity | intros; simpl; ring]. }
  destruct E as (c0 & c1 & c2 & c3 & c4 & c5 & c6 & c7 & E1 & E). rewrite E1. clear E1.
  destruct k as [|[|[|k]]]; unfold der2_st; rewrite !E;
    unfold der2_s0, der2_s1, der2_s2, der2_s; cbn [R_arith fadd fsub fmul fdiv fopp fofZ]; field; auto.
Qed.

Section Make.
Variables (n : nat) (lower upper : R).
Let g := FD_make n lower upper.
Lemma mk_dx : (1 <= n)%nat -> fd_dx g = (upper - lower) / INR (n - 1).
Proof. intros H. unfold g, FD_make. cbn [fd_dx R_arith fdiv fsub]. now rewrite fnat_INR, wsub_le by lia. Qed.
Lemma mk_dx0 : (2 <= n)%nat -> lower <> upper -> fd_dx g <> 0.
Proof.
  intros H Hl. rewrite mk_dx by lia. apply Rmult_integral_contrapositive_currified; [lra|].
  apply Rinv_neq_0_compat, not_0_INR. lia.
Qed.
Lemma mk_pt i : fd_pt g i = fd_dx g * INR i + lower.
Proof. unfold fd_pt. cbn [R_arith fmul fadd]. rewrite fnat_INR. reflexivity. Qed.
Lemma mk_pt_diff i j : fd_pt g j = fd_pt g i + (INR j - INR i) * fd_dx g.
Proof. rewrite !mk_pt. ring. Qed.
End Make.

(** ** C07 *)
Theorem C07_der_exact b n lower upper c dv :
  (7 <= n)%nat -> lower <> upper -> (length c <= 7)%nat -> length dv = n ->
  let g := FD_make n lower upper in
  exists out, fd_der b g (samples g (poly c)) dv = Ok out /\ length out = n /\
    forall i, (i < n)%nat -> nth i out 0 = Derive (poly c) (fd_pt g i).
Proof.
  intros Hn Hl Hc Hd g. eexists. split; [apply fd_der_ok; auto; apply samples_length|].
  change (fd_n g) with n. split; [now rewrite map_length, seq_length|]. intros i Hi.
  rewrite nth_map_seq by auto.
  destruct (poly_shift c (fd_pt g i)) as (d & Ld & Ed).
  destruct (der_val_st n (fd_dx g) (fun j => nth j (samples g (poly c)) f0) (poly d) i) as (k & s & _ & Hs & E & _); auto.
  { intros j Hj. rewrite samples_nth by auto. unfold g. rewrite (mk_pt_diff n lower upper i j). apply Ed. }
  rewrite E, der_st_poly.
  - symmetry. now apply poly_shift_derive.
  - lia.
  - pose proof (mk_dx0 n lower upper ltac:(lia) Hl) as H0. fold g in H0. destruct Hs; subst s; lra.
Qed.
Example C07_nonvacuous : (7 <= 7)%nat /\ 1 <> 3 /\ (length [1;2;3;4;5;6;7] <= 7)%nat /\
  Derive (poly [1;2;3]) 2 = 14.
Proof. repeat split; try (simpl; lia); try lra. rewrite poly_Derive. simpl. ring. Qed.

(** ** C08 *)
Theorem C08_der2_exact b n lower upper c dv :
  (8 <= n)%nat -> lower <> upper -> (length c <= 8)%nat -> length dv = n ->
  let g := FD_make n lower upper in
  exists out, fd_der2 b g (samples g (poly c)) dv = Ok out /\ length out = n /\
    forall i, (i < n)%nat -> nth i out 0 = Derive_n (poly c) 2 (fd_pt g i).
Proof.
  intros Hn Hl Hc Hd g. eexists. split; [apply fd_der2_ok; auto; apply samples_length|].
  change (fd_n g) with n. split; [now rewrite map_length, seq_length|]. intros i Hi.
  rewrite nth_map_seq by auto.
  destruct (poly_shift c (fd_pt g i)) as (d & Ld & Ed).
  destruct (der2_val_st n (fd_dx g) (fun j => nth j (samples g (poly c)) f0) (poly d) i) as (k & s & _ & Hs & E & _); auto.
  { intros j Hj. rewrite samples_nth by auto. unfold g. rewrite (mk_pt_diff n lower upper i j). apply Ed. }
  cbn [R_arith fpow]. rewrite E, der2_st_poly.
  - symmetry. now apply poly_shift_derive.
  - lia.
  - pose proof (mk_dx0 n lower upper ltac:(lia) Hl) as H0. fold g in H0. destruct Hs; subst s; lra.
Qed.
Example C08_nonvacuous : (8 <= 9)%nat /\ 1 <> 3 /\ (length [1;2;3;4;5;6;7;8] <= 8)%nat /\
  Derive_n (poly [1;2;3;1]) 2 2 = 18.
Proof. repeat split; try (simpl length; lia); try lra. rewrite poly_Derive2. simpl. ring. Qed.

(** ** C09: sixth-order accuracy *)
Definition taylor (f : R -> R) (x : R) (n : nat) : list R :=
  map (fun k => Derive_n f k x / INR (fact k)) (seq 0 n).

Lemma poly_sum c x : poly c x = sum_f_R0 (fun k => nth k c 0 * x ^ k) (length c).
Proof.
  induction c as [|a c IH]; simpl poly; [simpl; ring|].
  rewrite IH. simpl length. rewrite (decomp_sum _ (S (length c))) by lia. simpl pred.
  rewrite scal_sum. f_equal; [simpl; ring|]. apply sum_eq. intros i _. simpl. ring.
Qed.

Lemma taylor_sum f x n t : poly (taylor f x (S n)) t =
  sum_f_R0 (fun m => t ^ m / INR (fact m) * Derive_n f m x) n.
Proof.
  rewrite poly_sum. unfold taylor. rewrite map_length, seq_length. rewrite tech5.
  rewrite (nth_overflow _ _ (n:=S n)) by (rewrite map_length, seq_length; lia).
  rewrite Rmult_0_l, Rplus_0_r. apply sum_eq. intros i Hi.
  rewrite nth_map_seq by lia. unfold Rdiv. ring.
Qed.


Lemma Rabs_div_fact a c M n : 0 <= M -> Rabs c <= M ->
  Rabs (a ^ n / INR (fact n) * c) <= M * Rabs a ^ n / INR (fact n).
Proof.
  intros HM Hc. pose proof (INR_fact_lt_0 n) as Hf.
  unfold Rdiv. rewrite !Rabs_mult, RPow_abs. rewrite (Rabs_right (/ INR (fact n))).
  - rewrite (Rmult_comm M). rewrite !Rmult_assoc. apply Rmult_le_compat_l; [apply Rabs_pos|].
    rewrite Rmult_comm. apply Rmult_le_compat_r; auto. left. now apply Rinv_0_lt_compat.
  - left. now apply Rinv_0_lt_compat.
Qed.

Section Taylor.
Variables (f : R -> R) (N : nat) (lo' lo up up' M : R).
Hypothesis Hlo : lo' < lo.
Hypothesis Hup : up < up'.
Hypothesis smooth : forall k t, (k <= S N)%nat -> lo' < t < up' -> ex_derive_n f k t.
Hypothesis bound : forall t, lo <= t <= up -> Rabs (Derive_n f (S N) t) <= M.

Lemma loc_smooth x : lo' < x < up' ->
  locally x (fun y : R_UniformSpace => forall k, (k <= S N)%nat -> ex_derive_n f k y).
Proof.
  intros [H1 H2]. assert (Hd : 0 < Rmin (x - lo') (up' - x)) by (apply Rmin_pos; lra).
  exists (mkposreal _ Hd). intros y Hy k Hk. apply smooth; auto.
  unfold ball in Hy; simpl in Hy. unfold AbsRing_ball, abs, minus, plus, opp in Hy; simpl in Hy.
  pose proof (Rmin_l (x - lo') (up' - x)). pose proof (Rmin_r (x - lo') (up' - x)).
  apply Rabs_lt_between in Hy. lra.
Qed.

Lemma taylor_bound x y : lo <= x <= up -> lo <= y <= up ->
  Rabs (f y - poly (taylor f x (S N)) (y - x)) <= M * Rabs (y - x) ^ (S N) / INR (fact (S N)).
Proof.
  intros Hx Hy. rewrite taylor_sum.
  assert (HM : 0 <= M). { eapply Rle_trans; [apply Rabs_pos| apply (bound x); auto]. }
  destruct (Rtotal_order x y) as [H|[->|H]].
  - destruct (Taylor_Lagrange f N x y H) as (z & Hz & E).
    { intros t Ht k Hk. apply smooth; auto; lra. }
    rewrite E. match goal with |- Rabs (?a + ?b - ?a) <= _ => replace (a + b - a) with b by ring end.
    apply Rabs_div_fact; auto. apply bound. lra.
  - match goal with |- Rabs (f y - ?s) <= _ => replace s with (f y) end.
    + unfold Rminus. rewrite !Rplus_opp_r, Rabs_R0. simpl. rewrite Rmult_0_l, Rmult_0_r. unfold Rdiv. rewrite Rmult_0_l. lra.
    + clear. destruct N as [|n]; [simpl; field|].
      rewrite decomp_sum by lia. rewrite sum_eq_R0.
      * simpl. field.
      * intros k _. unfold Rminus. rewrite Rplus_opp_r. simpl. unfold Rdiv. ring.
  - set (h := fun t => f (- t)).
    assert (Hs : forall k t, (k <= S N)%nat -> lo' < - t < up' -> ex_derive_n h k t /\ Derive_n h k t = (-1) ^ k * Derive_n f k (- t)).
    { intros k t Hk Ht. split.
      - apply ex_derive_n_comp_opp. generalize (loc_smooth (- t) Ht). apply filter_imp. intros z Hz j Hj. apply Hz. lia.
      - apply Derive_n_comp_opp. generalize (loc_smooth (- t) Ht). apply filter_imp. intros z Hz j Hj. apply Hz. lia. }
    destruct (Taylor_Lagrange h N (- x) (- y) ltac:(lra)) as (z & Hz & E).
    { intros t Ht k Hk. apply Hs; auto; lra. }
    assert (P1 : forall k a, a ^ k * (-1) ^ k = (- a) ^ k).
    { intros k a. rewrite <- Rpow_mult_distr. f_equal. ring. }
    unfold h at 1 in E. rewrite Ropp_involutive in E. rewrite E.
    rewrite (sum_eq _ (fun m => (y - x) ^ m / INR (fact m) * Derive_n f m x)).
    + match goal with |- Rabs (?a + ?b - ?a) <= _ => replace (a + b - a) with b by ring end.
      rewrite (proj2 (Hs (S N) z ltac:(lia) ltac:(lra))).
      replace (Rabs (y - x)) with (Rabs (- y - - x)) by (rewrite <- Rabs_Ropp; f_equal; ring).
      apply Rabs_div_fact; auto. rewrite Rabs_mult, pow_1_abs, Rmult_1_l. apply bound. lra.
    + intros k Hk. rewrite (proj2 (Hs k (-x) ltac:(lia) ltac:(lra))), Ropp_involutive.
      replace (y - x) with (- (- y - - x)) by ring. rewrite <- P1. unfold Rdiv. ring.
Qed.
End Taylor.

Lemma der_st_sub k u v s : der_st k u s - der_st k v s = der_st k (fun t => u t - v t) s.
Proof.
  destruct k as [|[|[|k]]]; unfold der_st, der_s0, der_s1, der_s2, der_s;
    cbn [R_arith fadd fsub fmul fdiv fopp fofZ]; unfold Rdiv; ring.
Qed.
Lemma der2_st_sub k u v s : der2_st k u s - der2_st k v s = der2_st k (fun t => u t - v t) s.
Proof.
  destruct k as [|[|[|k]]]; unfold der2_st, der2_s0, der2_s1, der2_s2, der2_s;
    cbn [R_arith fadd fsub fmul fdiv fopp fofZ]; unfold Rdiv; ring.
Qed.

(** |u(m s)| <= B |m|^7 on the stencil bounds the stencil *)
Lemma der_st_bound k u s B : (k <= 3)%nat -> s <> 0 -> 0 <= B ->
  (forall m : Z, (- Z.of_nat k <= m <= 6 - Z.of_nat k)%Z -> Rabs (u (IZR m * s)) <= B * Rabs (IZR m) ^ 7) ->
  Rabs (der_st k u s) <= 217392 * B / Rabs s.
Proof.
  intros Hk Hs HB Hu.
  assert (A : forall a b, a / b = a * / b) by reflexivity.
  assert (Q : forall a C, Rabs a <= C * B -> C <= 217392 -> Rabs (a / s) <= 217392 * B / Rabs s).
  { intros a C Ha HC. unfold Rdiv. rewrite Rabs_mult, Rabs_inv. apply Rmult_le_compat_r.
    - left. apply Rinv_0_lt_compat. now apply Rabs_pos_lt.
    - nra. }
  assert (U : forall m C, (- Z.of_nat k <= m <= 6 - Z.of_nat k)%Z -> Rabs (IZR m) ^ 7 = C -> - (B * C) <= u (IZR m * s) <= B * C).
  { intros m C Hm HC. apply Rabs_le_between. rewrite <- HC. now apply Hu. }
  assert (P : forall m : positive, Rabs (IZR (Zpos m)) ^ 7 = IZR (Zpos m) ^ 7 /\ Rabs (IZR (Zneg m)) ^ 7 = IZR (Zpos m) ^ 7).
  { intros m. rewrite Rabs_right by (apply Rle_ge, IZR_le; lia). split; auto.
    f_equal. change (Zneg m) with (- Zpos m)%Z. rewrite opp_IZR, Rabs_Ropp. apply Rabs_right. apply Rle_ge, IZR_le; lia. }
  assert (U0 := fun H => U 0%Z 0 H ltac:(rewrite Rabs_R0; ring)).
  assert (UP := fun m H => U (Zpos m) _ H (proj1 (P m))).
  assert (UN := fun m H => U (Zneg m) _ H (proj2 (P m))).
  destruct k as [|[|[|[|k]]]]; try lia; unfold der_st.
  - pose proof (U0 ltac:(lia)). pose proof (UP 1%positive ltac:(lia)). pose proof (UP 2%positive ltac:(lia)).
    pose proof (UP 3%positive ltac:(lia)). pose proof (UP 4%positive ltac:(lia)). pose proof (UP 5%positive ltac:(lia)).
    pose proof (UP 6%positive ltac:(lia)).
    apply (Q _ 217392); [|lra]. unfold der_s0; cbn [R_arith fadd fsub fmul fdiv fopp fofZ]. apply Rabs_le. lra.
  - pose proof (UN 1%positive ltac:(lia)). pose proof (U0 ltac:(lia)). pose proof (UP 1%positive ltac:(lia)). pose proof (UP 2%positive ltac:(lia)).
    pose proof (UP 3%positive ltac:(lia)). pose proof (UP 4%positive ltac:(lia)). pose proof (UP 5%positive ltac:(lia)).
    apply (Q _ 217392); [|lra]. unfold der_s1; cbn [R_arith fadd fsub fmul fdiv fopp fofZ]. apply Rabs_le. lra.
  - pose proof (UN 1%positive ltac:(lia)). pose proof (UN 2%positive ltac:(lia)). pose proof (U0 ltac:(lia)). pose proof (UP 1%positive ltac:(lia)). pose proof (UP 2%positive ltac:(lia)).
    pose proof (UP 3%positive ltac:(lia)). pose proof (UP 4%positive ltac:(lia)).
    apply (Q _ 217392); [|lra]. unfold der_s2; cbn [R_arith fadd fsub fmul fdiv fopp fofZ]. apply Rabs_le. lra.
  - pose proof (UN 1%positive ltac:(lia)). pose proof (UN 2%positive ltac:(lia)). pose proof (UN 3%positive ltac:(lia)).
    pose proof (UP 1%positive ltac:(lia)). pose proof (UP 2%positive ltac:(lia)). pose proof (UP 3%positive ltac:(lia)).
    apply (Q _ 217392); [|lra]. unfold der_s; cbn [R_arith fadd fsub fmul fdiv fopp fofZ]. apply Rabs_le. lra.
Qed.

Lemma der2_st_bound k u s B : (k <= 3)%nat -> s <> 0 -> 0 <= B ->
  (forall m : Z, (- Z.of_nat k <= m <= if Nat.eqb k 3 then 3 else 7 - Z.of_nat k)%Z -> Rabs (u (IZR m * s)) <= B * Rabs (IZR m) ^ 8) ->
  Rabs (der2_st k u s) <= 24439600 * B / (s ^ 2).
Proof.
  intros Hk Hs HB Hu.
  assert (Hs2 : 0 < s ^ 2) by nra.
  assert (Q : forall a C, Rabs a <= C * B -> C <= 24439600 -> Rabs (a / s ^ 2) <= 24439600 * B / s ^ 2).
  { intros a C Ha HC. unfold Rdiv. rewrite Rabs_mult, (Rabs_right (/ s ^ 2)). apply Rmult_le_compat_r.
    - left. now apply Rinv_0_lt_compat.
    - nra.
    - left. now apply Rinv_0_lt_compat. }
  assert (U : forall m C, (- Z.of_nat k <= m <= if Nat.eqb k 3 then 3 else 7 - Z.of_nat k)%Z -> Rabs (IZR m) ^ 8 = C -> - (B * C) <= u (IZR m * s) <= B * C).
  { intros m C Hm HC. apply Rabs_le_between. rewrite <- HC. now apply Hu. }
  assert (P : forall m : positive, Rabs (IZR (Zpos m)) ^ 8 = IZR (Zpos m) ^ 8 /\ Rabs (IZR (Zneg m)) ^ 8 = IZR (Zpos m) ^ 8).
  { intros m. rewrite Rabs_right by (apply Rle_ge, IZR_le; lia). split; auto.
    f_equal. change (Zneg m) with (- Zpos m)%Z. rewrite opp_IZR, Rabs_Ropp. apply Rabs_right. apply Rle_ge, IZR_le; lia. }
  assert (U0 := fun H => U 0%Z 0 H ltac:(rewrite Rabs_R0; ring)).
  assert (UP := fun m H => U (Zpos m) _ H (proj1 (P m))).
  assert (UN := fun m H => U (Zneg m) _ H (proj2 (P m))).
  destruct k as [|[|[|[|k]]]]; try lia; unfold der2_st; simpl Nat.eqb in *; cbv iota in *.
  - pose proof (U0 ltac:(lia)). pose proof (UP 1%positive ltac:(lia)). pose proof (UP 2%positive ltac:(lia)).
    pose proof (UP 3%positive ltac:(lia)). pose proof (UP 4%positive ltac:(lia)). pose proof (UP 5%positive ltac:(lia)).
    pose proof (UP 6%positive ltac:(lia)). pose proof (UP 7%positive ltac:(lia)).
    apply (Q _ 24439600); [|lra]. unfold der2_s0; cbn [R_arith fadd fsub fmul fdiv fopp fofZ]. apply Rabs_le. lra.
  - pose proof (UN 1%positive ltac:(lia)). pose proof (U0 ltac:(lia)). pose proof (UP 1%positive ltac:(lia)). pose proof (UP 2%positive ltac:(lia)).
    pose proof (UP 3%positive ltac:(lia)). pose proof (UP 4%positive ltac:(lia)). pose proof (UP 5%positive ltac:(lia)). pose proof (UP 6%positive ltac:(lia)).
    apply (Q _ 24439600); [|lra]. unfold der2_s1; cbn [R_arith fadd fsub fmul fdiv fopp fofZ]. apply Rabs_le. lra.
  - pose proof (UN 1%positive ltac:(lia)). pose proof (UN 2%positive ltac:(lia)). pose proof (U0 ltac:(lia)). pose proof (UP 1%positive ltac:(lia)). pose proof (UP 2%positive ltac:(lia)).
    pose proof (UP 3%positive ltac:(lia)). pose proof (UP 4%positive ltac:(lia)). pose proof (UP 5%positive ltac:(lia)).
    apply (Q _ 24439600); [|lra]. unfold der2_s2; cbn [R_arith fadd fsub fmul fdiv fopp fofZ]. apply Rabs_le. lra.
  - pose proof (UN 1%positive ltac:(lia)). pose proof (UN 2%positive ltac:(lia)). pose proof (UN 3%positive ltac:(lia)). pose proof (U0 ltac:(lia)).
    pose proof (UP 1%positive ltac:(lia)). pose proof (UP 2%positive ltac:(lia)). pose proof (UP 3%positive ltac:(lia)).
    apply (Q _ 24439600); [|lra]. unfold der2_s; cbn [R_arith fadd fsub fmul fdiv fopp fofZ]. apply Rabs_le. lra.
Qed.

Lemma pt_range n lower upper i : (2 <= n)%nat -> lower < upper -> (i < n)%nat ->
  lower <= fd_pt (FD_make n lower upper) i <= upper.
Proof.
  intros Hn Hl Hi. rewrite mk_pt, mk_dx by lia.
  assert (H0 : 0 < INR (n - 1)) by (apply lt_0_INR; lia).
  assert (H1 : 0 <= INR i <= INR (n - 1)) by (split; [apply pos_INR| apply le_INR; lia]).
  replace ((upper - lower) / INR (n - 1) * INR i) with ((upper - lower) * (INR i / INR (n - 1))) by (field; lra).
  assert (H2 : 0 <= INR i / INR (n - 1) <= 1).
  { split; [apply Rdiv_le_0_compat; lra|]. apply Rmult_le_reg_r with (INR (n-1)); [lra|].
    replace (INR i / INR (n - 1) * INR (n - 1)) with (INR i) by (field; lra). lra. }
  nra.
Qed.

Theorem C09_der_sixth_order b n lower upper f dv lo' up' M :
  (7 <= n)%nat -> lower < upper -> length dv = n -> lo' < lower -> upper < up' ->
  (forall k t, (k <= 7)%nat -> lo' < t < up' -> ex_derive_n f k t) ->
  (forall t, lower <= t <= upper -> Rabs (Derive_n f 7 t) <= M) ->
  let g := FD_make n lower upper in let dx := (upper - lower) / INR (n - 1) in
  exists out, fd_der b g (samples g f) dv = Ok out /\ length out = n /\
    forall i, (i < n)%nat -> Rabs (nth i out 0 - Derive f (fd_pt g i)) <= 44 * M * dx ^ 6.
Proof.
  intros Hn Hl Hd Hlo Hup Hs HM g dx. eexists. split; [apply fd_der_ok; auto; apply samples_length|].
  change (fd_n g) with n. split; [now rewrite map_length, seq_length|]. intros i Hi.
  rewrite nth_map_seq by auto. set (x := fd_pt g i).
  assert (Edx : fd_dx g = dx) by (apply mk_dx; lia).
  assert (Hdx : 0 < dx) by (apply Rdiv_lt_0_compat; [lra | apply lt_0_INR; lia]).
  destruct (der_val_st n (fd_dx g) (fun j => nth j (samples g f) f0) (fun t => f (x + t)) i)
    as (k & s & Hk & Hss & E & Hm); auto.
  { intros j Hj. rewrite samples_nth by auto. unfold x, g. now rewrite (mk_pt_diff n lower upper i j). }
  rewrite E. rewrite Edx in *.
  assert (Has : Rabs s = dx) by (destruct Hss; subst s; [apply Rabs_right; lra | rewrite Rabs_Ropp; apply Rabs_right; lra]).
  assert (Hs0 : s <> 0) by (destruct Hss; subst s; lra).
  assert (HM0 : 0 <= M) by (eapply Rle_trans; [apply Rabs_pos | apply (HM lower); lra]).
  replace (Derive f x) with (der_st k (poly (taylor f x 7)) s).
  2:{ rewrite der_st_poly; auto. simpl. change (Derive (fun x => f x) x) with (Derive f x). field. }
  rewrite der_st_sub.
  eapply Rle_trans; [apply (der_st_bound _ _ _ (M * dx ^ 7 / 5040)); auto|].
  - apply Rmult_le_pos; [apply Rmult_le_pos; [auto | apply pow_le; lra] | lra].
  - intros m Hmm. destruct (Hm m Hmm) as (j & Hj & Ej).
    replace (IZR m * s) with (fd_pt g j - x) by (rewrite <- Ej; unfold x, g; rewrite (mk_pt_diff n lower upper i j); fold g; rewrite Edx; ring).
    replace (x + (fd_pt g j - x)) with (fd_pt g j) by ring.
    eapply Rle_trans; [apply (taylor_bound f 6 lo' lower upper up' M); auto; apply pt_range; auto; lia|].
    rewrite <- (Rmult_1_l (Rabs (IZR m) ^ 7)). replace (Rabs (fd_pt g j - x)) with (Rabs (IZR m) * dx).
    + rewrite Rpow_mult_distr. replace (INR (fact 7)) with 5040 by (simpl; ring). right. field.
    + rewrite <- Has, <- Rabs_mult, <- Ej. f_equal. unfold x, g. rewrite (mk_pt_diff n lower upper i j). fold g. rewrite Edx. ring.
  - rewrite Has. replace (217392 * (M * dx ^ 7 / 5040) / dx) with (217392 / 5040 * (M * dx ^ 6)) by (field; lra).
    rewrite Rmult_assoc. apply Rmult_le_compat_r; [|lra]. apply Rmult_le_pos; auto. apply pow_le; lra.
Qed.

Theorem C09_der2_sixth_order b n lower upper f dv lo' up' M :
  (8 <= n)%nat -> lower < upper -> length dv = n -> lo' < lower -> upper < up' ->
  (forall k t, (k <= 8)%nat -> lo' < t < up' -> ex_derive_n f k t) ->
  (forall t, lower <= t <= upper -> Rabs (Derive_n f 8 t) <= M) ->
  let g := FD_make n lower upper in let dx := (upper - lower) / INR (n - 1) in
  exists out, fd_der2 b g (samples g f) dv = Ok out /\ length out = n /\
    forall i, (i < n)%nat -> Rabs (nth i out 0 - Derive_n f 2 (fd_pt g i)) <= 607 * M * dx ^ 6.
Proof.
  intros Hn Hl Hd Hlo Hup Hs HM g dx. eexists. split; [apply fd_der2_ok; auto; apply samples_length|].
  change (fd_n g) with n. split; [now rewrite map_length, seq_length|]. intros i Hi.
  rewrite nth_map_seq by auto. set (x := fd_pt g i). cbn [R_arith fpow].
  assert (Edx : fd_dx g = dx) by (apply mk_dx; lia).
  assert (Hdx : 0 < dx) by (apply Rdiv_lt_0_compat; [lra | apply lt_0_INR; lia]).
  destruct (der2_val_st n (fd_dx g) (fun j => nth j (samples g f) f0) (fun t => f (x + t)) i)
    as (k & s & Hk & Hss & E & Hm); auto.
  { intros j Hj. rewrite samples_nth by auto. unfold x, g. now rewrite (mk_pt_diff n lower upper i j). }
  rewrite E. rewrite Edx in *.
  assert (Has : Rabs s = dx) by (destruct Hss; subst s; [apply Rabs_right; lra | rewrite Rabs_Ropp; apply Rabs_right; lra]).
  assert (Hs0 : s <> 0) by (destruct Hss; subst s; lra).
  assert (Hss2 : s ^ 2 = dx ^ 2) by (destruct Hss; subst s; ring).
  assert (HM0 : 0 <= M) by (eapply Rle_trans; [apply Rabs_pos | apply (HM lower); lra]).
  replace (Derive_n f 2 x) with (der2_st k (poly (taylor f x 8)) s).
  2:{ rewrite der2_st_poly; auto. unfold taylor. rewrite nth_map_seq by lia. replace (INR (fact 2)) with 2 by (simpl; ring). field. }
  rewrite der2_st_sub.
  eapply Rle_trans; [apply (der2_st_bound _ _ _ (M * dx ^ 8 / 40320)); auto|].
  - apply Rmult_le_pos; [apply Rmult_le_pos; [auto | apply pow_le; lra] | lra].
  - intros m Hmm. destruct (Hm m Hmm) as (j & Hj & Ej).
    replace (IZR m * s) with (fd_pt g j - x) by (rewrite <- Ej; unfold x, g; rewrite (mk_pt_diff n lower upper i j); fold g; rewrite Edx; ring).
    replace (x + (fd_pt g j - x)) with (fd_pt g j) by ring.
    eapply Rle_trans; [apply (taylor_bound f 7 lo' lower upper up' M); auto; apply pt_range; auto; lia|].
    rewrite <- (Rmult_1_l (Rabs (IZR m) ^ 8)). replace (Rabs (fd_pt g j - x)) with (Rabs (IZR m) * dx).
    + rewrite Rpow_mult_distr. replace (INR (fact 8)) with 40320 by (rewrite INR_IZR_INZ; reflexivity). right. field.
    + rewrite <- Has, <- Rabs_mult, <- Ej. f_equal. unfold x, g. rewrite (mk_pt_diff n lower upper i j). fold g. rewrite Edx. ring.
  - rewrite Hss2. replace (24439600 * (M * dx ^ 8 / 40320) / dx ^ 2) with (24439600 / 40320 * (M * dx ^ 6)) by (field; lra).
    rewrite Rmult_assoc. apply Rmult_le_compat_r; [|lra]. apply Rmult_le_pos; auto. apply pow_le; lra.
Qed.

Lemma exp_Derive_n k x : Derive_n exp k x = exp x /\ ex_derive_n exp k x.
Proof.
  revert x. induction k as [|k IH]; intros x; simpl; auto. split.
  - rewrite (Derive_ext _ exp) by (intros; apply IH). apply is_derive_unique. auto_derive; auto; ring.
  - destruct k as [|k]; simpl; [auto_derive; auto|].
    apply (ex_derive_ext exp); [intros t; symmetry; apply (proj1 (IH t)) | auto_derive; auto].
Qed.
(** exp on [0,1] meets the hypotheses with M = e *)
Example C09_nonvacuous : 
  (forall k t, (k <= 7)%nat -> -1 < t < 2 -> ex_derive_n exp k t) /\
  (forall t, 0 <= t <= 1 -> Rabs (Derive_n exp 7 t) <= exp 1).
Proof.
  split; [intros; apply exp_Derive_n|]. intros t Ht. rewrite (proj1 (exp_Derive_n 7 t)).
  rewrite Rabs_right by (left; apply exp_pos). destruct (Req_dec t 1) as [->|]; [lra|]. left. apply exp_increasing. lra.
Qed.
