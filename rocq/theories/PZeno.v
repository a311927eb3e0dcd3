(** * Repeated filtering with shrinking steps (proof machinery for C77, no model definition here). *)
From Coq Require Import Reals Lra Lia List.
From Coquelicot Require Import Coquelicot.
From Verif Require Import Base Arith RkSpec PEomOk PRk PJet PJet2.
Import ListNotations.
Local Open Scope R_scope.

Section Z.
Variables (n : nat) (F Phi : state R -> state R) (I : Type) (Is : list I) (Q : I -> state R -> R) (d : I -> R) (K Cq Cf : R).
Hypothesis HK : 0 <= K.
Hypothesis HCq : 0 <= Cq.
Hypothesis HCf : 0 <= Cf.
Hypothesis SF : forall u, szd n u -> szd n (F u).
Hypothesis SP : forall u, szd n u -> szd n (Phi u).
Definition le_all (u : state R) (B : R) : Prop := forall i, Rabs (cmp n u i) <= B.
Hypothesis HQ : forall u w B, szd n u -> szd n w -> (forall i, Rabs (cmp n u i - cmp n w i) <= B) -> forall s, In s Is -> Rabs (Q s u - Q s w) <= Cq * B.
Hypothesis HP : forall u A, szd n u -> (forall s, In s Is -> Rabs (Q s u) <= A) -> le_all (Phi u) (Cf * A).
Hypothesis Hd : forall u s, szd n u -> In s Is -> Rabs (Q s (Phi u)) <= d s * Rabs (Q s u).
Hypothesis Hd1 : forall s, In s Is -> 0 <= d s <= 1.
Hypothesis HF : forall u B, szd n u -> le_all u B -> le_all (F u) (K * B).

Lemma le_nonneg u B : le_all u B -> 0 <= B.
Proof. intros H. eapply Rle_trans; [apply Rabs_pos|apply (H 0%nat)]. Qed.
Lemma le_weak u B B' : B <= B' -> le_all u B -> le_all u B'.
Proof. intros L H i. eapply Rle_trans; [apply H|exact L]. Qed.
Lemma le_axpy c k u B B' : szd n k -> szd n u -> 0 <= c <= 1 -> le_all u B -> le_all k B' -> le_all (axpy2 c k u) (B + B').
Proof.
  intros Sk Su Hc Hu Hk i. rewrite cmp_axpy2 by auto. eapply Rle_trans; [apply Rabs_triang|]. apply Rplus_le_compat; auto.
  rewrite Rabs_mult, (Rabs_pos_eq c) by lra. specialize (Hk i). pose proof (Rabs_pos (cmp n k i)). nra.
Qed.
Definition K4 : R := K * (1 + K) ^ 3.
Lemma K4_pos : 0 <= K4.
Proof. unfold K4. apply Rmult_le_pos; auto. apply pow_le. lra. Qed.
(** one Runge-Kutta step moves every entry by at most dt K4 times the size of the state *)
Lemma rk4_close dt w B : 0 <= dt <= 1 -> szd n w -> le_all w B -> szd n (rk4 F dt w) /\ forall i, Rabs (cmp n (rk4 F dt w) i - cmp n w i) <= dt * (K4 * B).
Proof.
  intros Hdt Sw Hw. pose proof (le_nonneg _ _ Hw) as HB. unfold rk4. cbv zeta. rewrite half_dec.
  set (c := @fmul R _ (/ 2) dt). assert (Hc : 0 <= c <= 1) by (change c with (/ 2 * dt); lra). clearbody c.
  set (k1 := F w). assert (S1 : szd n k1) by (apply SF; auto). assert (L1 : le_all k1 (K * B)) by now apply HF.
  set (u2 := axpy2 c k1 w). assert (T2 : szd n u2) by now apply szd_axpy2. assert (M2 : le_all u2 ((1 + K) * B)) by (apply (le_weak _ (B + K * B)); [lra|now apply le_axpy]).
  set (k2 := F u2). assert (S2 : szd n k2) by (apply SF; auto). assert (L2 : le_all k2 (K * ((1 + K) * B))) by now apply HF.
  assert (P1 : 0 <= K * B) by now apply Rmult_le_pos. assert (P2 : 0 <= K * (K * B)) by now apply Rmult_le_pos. assert (P3 : 0 <= K * (K * (K * B))) by now apply Rmult_le_pos. assert (P4 : 0 <= K * (K * (K * (K * B)))) by now apply Rmult_le_pos.
  set (u3 := axpy2 c k2 w). assert (T3 : szd n u3) by now apply szd_axpy2. assert (M3 : le_all u3 ((1 + K) ^ 2 * B)) by (apply (le_weak _ (B + K * ((1 + K) * B))); [lra|now apply le_axpy]).
  set (k3 := F u3). assert (S3 : szd n k3) by (apply SF; auto). assert (L3 : le_all k3 (K * ((1 + K) ^ 2 * B))) by now apply HF.
  set (u4 := axpy2 dt k3 w). assert (T4 : szd n u4) by now apply szd_axpy2. assert (M4 : le_all u4 ((1 + K) ^ 3 * B)) by (apply (le_weak _ (B + K * ((1 + K) ^ 2 * B))); [lra|now apply le_axpy]).
  set (k4 := F u4). assert (S4 : szd n k4) by (apply SF; auto). assert (L4 : le_all k4 (K * ((1 + K) ^ 3 * B))) by now apply HF.
  assert (EK : K4 * B = K * ((1 + K) ^ 3 * B)) by (unfold K4; ring).
  apply (le_weak _ _ (K4 * B)) in L1; [|rewrite EK; lra]. apply (le_weak _ _ (K4 * B)) in L2; [|rewrite EK; lra]. apply (le_weak _ _ (K4 * B)) in L3; [|rewrite EK; lra]. apply (le_weak _ _ (K4 * B)) in L4; [|rewrite EK; lra].
  clearbody k1 k2 k3 k4. split; [repeat apply szd_axpy2; auto|]. intros i.
  rewrite !cmp_axpy2 by (repeat apply szd_axpy2; auto). specialize (L1 i). specialize (L2 i). specialize (L3 i). specialize (L4 i).
  change (@fdiv R _) with Rdiv. change (@fofZ R _) with IZR.
  match goal with |- Rabs ?x <= _ => replace x with (dt * ((cmp n k1 i + 2 * cmp n k2 i + 2 * cmp n k3 i + cmp n k4 i) / 6)) by field end.
  rewrite Rabs_mult, (Rabs_pos_eq dt) by lra. apply Rmult_le_compat_l; [lra|].
  apply Rabs_le_between in L1, L2, L3, L4. apply Rabs_le_between. lra.
Qed.
Definition adv (dt : R) (u : state R) : state R := rk4 F dt (Phi u).
Definition Lam : R := Cq * (K4 * Cf).
Lemma Lam_pos : 0 <= Lam.
Proof. unfold Lam. apply Rmult_le_pos; auto. apply Rmult_le_pos; auto. exact K4_pos. Qed.
Lemma adv_one dt u A : 0 <= dt <= 1 -> szd n u -> (forall s, In s Is -> Rabs (Q s u) <= A) -> 0 <= A ->
  szd n (adv dt u) /\ forall s, In s Is -> Rabs (Q s (adv dt u)) <= d s * Rabs (Q s u) + dt * Lam * A.
Proof.
  intros Hdt Su HA A0. pose proof (HP u A Su HA) as Hw. destruct (rk4_close dt (Phi u) (Cf * A) Hdt (SP u Su) Hw) as [Sa Ha].
  split; [exact Sa|]. intros s Hs. pose proof (HQ _ _ _ Sa (SP u Su) Ha s Hs) as H1. pose proof (Hd u s Su Hs) as H2.
  replace (Q s (adv dt u)) with (Q s (Phi u) + (Q s (adv dt u) - Q s (Phi u))) by ring. eapply Rle_trans; [apply Rabs_triang|].
  apply Rplus_le_compat; auto. eapply Rle_trans; [exact H1|]. unfold Lam. right. ring.
Qed.
Lemma adv_iter dt u A k : 0 <= dt <= 1 -> szd n u -> (forall s, In s Is -> Rabs (Q s u) <= A) -> 0 <= A ->
  szd n (Nat.iter k (adv dt) u) /\ (forall s, In s Is -> Rabs (Q s (Nat.iter k (adv dt) u)) <= (1 + dt * Lam) ^ k * A) /\
  forall s, In s Is -> d s < 1 -> Rabs (Q s (Nat.iter k (adv dt) u)) <= d s ^ k * A + dt * Lam * (1 + dt * Lam) ^ k * A / (1 - d s).
Proof.
  intros Hdt Su HA A0. pose proof Lam_pos as LP. assert (DL : 0 <= dt * Lam) by (apply Rmult_le_pos; lra).
  induction k as [|k (S & H1 & H2)].
  - split; [exact Su|]. split; [intros s Hs; cbn; rewrite Rmult_1_l; auto|]. intros s Hs Hds. cbn [pow Nat.iter nat_rect]. rewrite Rmult_1_l, Rmult_1_r.
    eapply Rle_trans; [apply HA; auto|]. assert (0 <= dt * Lam * A / (1 - d s)); [|lra]. apply Rmult_le_pos; [now apply Rmult_le_pos|]. apply Rlt_le, Rinv_0_lt_compat. lra.
  - set (X := (1 + dt * Lam) ^ k * A) in *. assert (X0 : 0 <= X) by (apply Rmult_le_pos; auto; apply pow_le; lra).
    destruct (adv_one dt (Nat.iter k (adv dt) u) X Hdt S H1 X0) as [S' H].
    change (Nat.iter (Datatypes.S k) (adv dt) u) with (adv dt (Nat.iter k (adv dt) u)). split; [exact S'|]. split.
    + intros s Hs. eapply Rle_trans; [apply H; auto|]. destruct (Hd1 s Hs). specialize (H1 s Hs).
      replace ((1 + dt * Lam) ^ Datatypes.S k * A) with (1 * X + dt * Lam * X) by (unfold X; cbn [pow]; ring).
      apply Rplus_le_compat_r. apply Rmult_le_compat; auto; apply Rabs_pos.
    + intros s Hs Hds. eapply Rle_trans; [apply H; auto|]. destruct (Hd1 s Hs) as [D0 _]. specialize (H2 s Hs Hds).
      apply Rle_trans with (d s * (d s ^ k * A + dt * Lam * (1 + dt * Lam) ^ k * A / (1 - d s)) + dt * Lam * X); [apply Rplus_le_compat_r; now apply Rmult_le_compat_l|].
      replace (d s * (d s ^ k * A + dt * Lam * (1 + dt * Lam) ^ k * A / (1 - d s)) + dt * Lam * X) with (d s ^ Datatypes.S k * A + dt * Lam * X / (1 - d s)) by (unfold X; cbn [pow]; field; lra).
      apply Rplus_le_compat_l. cbn [pow]. apply Rmult_le_compat_r; [apply Rlt_le, Rinv_0_lt_compat; lra|].
      replace (dt * Lam * ((1 + dt * Lam) * (1 + dt * Lam) ^ k) * A) with (dt * Lam * ((1 + dt * Lam) * X)) by (unfold X; ring).
      apply Rmult_le_compat_l; auto. nra.
Qed.
Lemma pow_exp x k : 0 <= x -> (1 + x) ^ k <= exp (INR k * x).
Proof.
  intros Hx. induction k as [|k IH]; [cbn; rewrite Rmult_0_l, exp_0; lra|]. rewrite S_INR. cbn [pow].
  replace ((INR k + 1) * x) with (x + INR k * x) by ring. rewrite exp_plus. apply Rmult_le_compat; try lra; [apply pow_le; lra|]. apply exp_ineq1_le.
Qed.
(** refining the step at fixed final time T: every filtered functional tends to zero *)
Theorem zeno u T s : szd n u -> 0 <= T -> In s Is -> d s < 1 -> (exists A, 0 <= A /\ forall s, In s Is -> Rabs (Q s u) <= A) ->
  is_lim_seq (fun N => Q s (Nat.iter N (adv (T / INR N)) u)) 0.
Proof.
  intros Su HT Hs Hds (A & A0 & HA). pose proof Lam_pos as LP. destruct (Hd1 s Hs) as [D0 _].
  set (C := T * Lam * exp (T * Lam) * A / (1 - d s)).
  assert (Bnd : forall N, (1 <= N)%nat -> T <= INR N -> Rabs (Q s (Nat.iter N (adv (T / INR N)) u)) <= d s ^ N * A + C * / INR N).
  { intros N HN TN. assert (NP : 0 < INR N) by (apply lt_0_INR; lia).
    assert (Hdt : 0 <= T / INR N <= 1). { split; [apply Rmult_le_pos; auto; apply Rlt_le, Rinv_0_lt_compat; auto|]. apply (Rmult_le_reg_r (INR N)); auto. unfold Rdiv. rewrite Rmult_assoc, Rinv_l; lra. }
    destruct (adv_iter (T / INR N) u A N Hdt Su HA A0) as (_ & _ & H). eapply Rle_trans; [apply H; auto|]. apply Rplus_le_compat_l. unfold C.
    replace (T * Lam * exp (T * Lam) * A / (1 - d s) * / INR N) with (T / INR N * Lam * exp (T * Lam) * A / (1 - d s)) by (field; lra).
    apply Rmult_le_compat_r; [apply Rlt_le, Rinv_0_lt_compat; lra|]. apply Rmult_le_compat_r; auto. apply Rmult_le_compat_l; [apply Rmult_le_pos; lra|].
    replace (T * Lam) with (INR N * (T / INR N * Lam)) at 1 by (field; lra). apply pow_exp. apply Rmult_le_pos; lra. }
  assert (L0 : is_lim_seq (fun N => d s ^ N * A + C * / INR N) 0).
  { replace (Finite 0) with (Rbar_plus (Rbar_mult 0 A) (Rbar_mult C 0)) by (cbn; f_equal; ring).
    apply is_lim_seq_plus'.
    - replace (Rbar_mult 0 A) with (Finite (0 * A)) by reflexivity. apply (is_lim_seq_scal_r (fun N => d s ^ N) A 0). apply is_lim_seq_geom. rewrite Rabs_pos_eq; lra.
    - apply (is_lim_seq_scal_l (fun N => / INR N) C 0). replace (Finite 0) with (Rbar_inv p_infty) by reflexivity. apply is_lim_seq_inv; [apply is_lim_seq_INR|discriminate]. }
  apply is_lim_seq_abs_0. apply (is_lim_seq_le_le_loc (fun _ => 0) _ (fun N => d s ^ N * A + C * / INR N)); auto; [|apply is_lim_seq_const].
  destruct (nfloor_ex T HT) as (M & HM1 & HM2). exists (S M). intros N HN. split; [apply Rabs_pos|]. apply Bnd; [lia|]. apply le_INR in HN. rewrite S_INR in HN. lra.
Qed.
End Z.
