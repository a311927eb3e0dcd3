(** * Property C99 (exact arithmetic): which points two radial grids share. *)
From Coq Require Import Reals Lra Lia PeanoNat.
From Verif Require Import Base BaseLemmas Arith MFd MCheb MGrid PMake Spec PropFd PropFd2.
Local Open Scope R_scope.

(** the number of intervals and the position of a point, in either scheme *)
Lemma fd_pt_real n lower upper i : (2 <= n)%nat -> fd_pt (FD_make n lower upper) i = lower + (upper - lower) * (INR i / INR (n - 1)).
Proof.
  intros Hn. assert (H0 : 0 < INR (n - 1)) by (apply lt_0_INR; lia).
  unfold fd_pt, FD_make. cbn [fd_dx fd_lower]. rewrite wsub_le by lia.
  unfold fnat. cbn [fadd fmul fsub fdiv fofZ R_arith]. rewrite <- !INR_IZR_INZ. field. lra.
Qed.
Lemma ratio_eq i j a c : (0 < a)%nat -> (0 < c)%nat -> (INR i / INR a = INR j / INR c <-> (i * c = j * a)%nat).
Proof.
  intros Ha Hc. apply lt_0_INR in Ha, Hc. split; intros H.
  - apply INR_eq. rewrite !mult_INR. replace (INR i) with (INR i / INR a * INR a) by (field; lra). rewrite H. field. lra.
  - assert (E : INR i * INR c = INR j * INR a) by (rewrite <- !mult_INR; now f_equal).
    replace (INR i / INR a) with (INR i * INR c / (INR a * INR c)) by (field; lra). rewrite E. field. lra.
Qed.

Section Two.
Variables (b : build) (n n' : nat) (lower upper : R) (g g' : radial R).
Hypotheses (E : rad_make b n lower upper = Ok g) (E' : rad_make b n' lower upper = Ok g').
Hypotheses (Hn : (2 <= n)%nat) (Hn' : (2 <= n')%nat) (Hl : lower <> upper).

(** point i of the first grid and point j of the second are the same iff i/(n-1) = j/(n'-1) *)
Theorem C99_same_point i j x x' : (i < n)%nat -> (j < n')%nat -> rad_pt g i = Ok x -> rad_pt g' j = Ok x' ->
  (x = x' <-> (i * (n' - 1) = j * (n - 1))%nat).
Proof.
  intros Hi Hj X X'. rewrite <- ratio_eq by lia. unfold rad_make in E, E'. destruct (use_cheb b) eqn:U.
  - destruct (Cheb_make b n lower upper) as [c| | | |] eqn:C; try discriminate. destruct (Cheb_make b n' lower upper) as [c'| | | |] eqn:C'; try discriminate.
    cbn [bind] in E, E'. injection E as <-. injection E' as <-. cbn [rad_pt] in X, X'.
    rewrite (cheb_pt_val _ _ _ _ _ _ C Hn Hi) in X. rewrite (cheb_pt_val _ _ _ _ _ _ C' Hn' Hj) in X'. injection X as <-. injection X' as <-.
    assert (R : forall k m, (2 <= m)%nat -> (k < m)%nat -> 0 <= INR k / INR (m - 1) <= 1).
    { intros k m Hm Hk. assert (0 < INR (m - 1)) by (apply lt_0_INR; lia). assert (INR k <= INR (m - 1)) by (apply le_INR; lia). pose proof (pos_INR k).
      split; [apply Rmult_le_pos; [lra|left; now apply Rinv_0_lt_compat]|]. apply Rmult_le_reg_r with (INR (m - 1)); auto. unfold Rdiv. rewrite Rmult_assoc, Rinv_l by lra. lra. }
    pose proof (R i n Hn Hi) as R1. pose proof (R j n' Hn' Hj) as R2. pose proof PI_RGT_0 as P.
    replace (PI * INR i / INR (n - 1)) with (PI * (INR i / INR (n - 1))) by (unfold Rdiv; ring).
    replace (PI * INR j / INR (n' - 1)) with (PI * (INR j / INR (n' - 1))) by (unfold Rdiv; ring).
    set (s := INR i / INR (n - 1)) in *. set (t := INR j / INR (n' - 1)) in *. split; [|intros ->; reflexivity]. intros H.
    assert (C0 : cos (PI * s) = cos (PI * t)). { apply Rmult_eq_reg_l with ((upper - lower) / 2); lra. }
    destruct (Rtotal_order s t) as [L|[L|L]]; [exfalso|exact L|exfalso].
    + assert (cos (PI * t) < cos (PI * s)); [|lra]. apply cos_decreasing_1; nra.
    + assert (cos (PI * s) < cos (PI * t)); [|lra]. apply cos_decreasing_1; nra.
  - injection E as <-. injection E' as <-. cbn [rad_pt] in X, X'. rewrite fd_pt_real in X, X' by auto. injection X as <-. injection X' as <-.
    split; [|intros ->; reflexivity]. intros H. apply Rmult_eq_reg_l with (upper - lower); lra.
Qed.
(** dividing every interval into k: every old point is a point of the new grid, at k times its index *)
Theorem C99_refined k i x x' : n' = (k * (n - 1) + 1)%nat -> (i < n)%nat -> rad_pt g i = Ok x -> rad_pt g' (k * i) = Ok x' -> x' = x.
Proof. intros K Hi X X'. symmetry. apply (C99_same_point i (k * i) x x'); auto; [nia|]. subst n'. replace (k * (n - 1) + 1 - 1)%nat with (k * (n - 1))%nat by lia. lia. Qed.
(** doubling the number of points instead: the end points are the only common ones *)
Theorem C99_doubling i j x x' : n' = (2 * n)%nat -> (i < n)%nat -> (j < n')%nat -> rad_pt g i = Ok x -> rad_pt g' j = Ok x' -> x = x' ->
  (i = 0 /\ j = 0)%nat \/ (i = n - 1 /\ j = n' - 1)%nat.
Proof.
  intros K Hi Hj X X' Q. apply (C99_same_point i j x x') in Q; auto. subst n'.
  assert (D : Nat.divide (n - 1) (i * 1)).
  { assert (G : (i * 1 = (n - 1) * j - (n - 1) * (2 * i))%nat) by nia. exists (j - 2 * i)%nat. nia. }
  rewrite Nat.mul_1_r in D. destruct D as (q & D). destruct q as [|[|q]]; [left; nia|right; nia|exfalso; nia].
Qed.
End Two.

(** such grids exist in both schemes *)
Example C99_nonvacuous cheb : exists g g' : radial R, rad_make (Build cheb true false) 5 0 2 = Ok g /\ rad_make (Build cheb true false) 9 0 2 = Ok g' /\
  exists x, rad_pt g 2 = Ok x /\ rad_pt g' 4 = Ok x.
Proof.
  destruct cheb; unfold rad_make; cbn [use_cheb].
  - rewrite !Cheb_make_ok by (left; lia). cbn [bind]. do 2 eexists. split; [reflexivity|]. split; [reflexivity|]. cbn [rad_pt].
    rewrite (cheb_pt_val (Build true true false) 5 0 2 _ 2 (Cheb_make_ok _ 5 0 2 ltac:(left; lia)) ltac:(lia) ltac:(lia)).
    rewrite (cheb_pt_val (Build true true false) 9 0 2 _ 4 (Cheb_make_ok _ 9 0 2 ltac:(left; lia)) ltac:(lia) ltac:(lia)).
    eexists. split; [reflexivity|]. f_equal. replace (PI * INR 4 / INR (9 - 1)) with (PI * INR 2 / INR (5 - 1)) by (cbn; field). reflexivity.
  - do 2 eexists. split; [reflexivity|]. split; [reflexivity|]. cbn [rad_pt]. eexists. split; [reflexivity|]. f_equal. rewrite !fd_pt_real by lia. cbn. field.
Qed.
