(** Finite sums of reals. *)
From Coq Require Import Reals Lra Lia List.
From Verif Require Import Spec.
Local Open Scope R_scope.

Lemma Rsum_ext n t u : (forall i, (i < n)%nat -> t i = u i) -> Rsum n t = Rsum n u.
Proof. induction n as [|n IH]; intros H; simpl; auto. rewrite IH, H by (auto; lia). reflexivity. Qed.
Lemma Rsum_add n t u : Rsum n (fun i => t i + u i) = Rsum n t + Rsum n u.
Proof. induction n as [|n IH]; simpl; [ring|]. rewrite IH. ring. Qed.
Lemma Rsum_sub n t u : Rsum n (fun i => t i - u i) = Rsum n t - Rsum n u.
Proof. induction n as [|n IH]; simpl; [ring|]. rewrite IH. ring. Qed.
Lemma Rsum_scal n a t : Rsum n (fun i => a * t i) = a * Rsum n t.
Proof. induction n as [|n IH]; simpl; [ring|]. rewrite IH. ring. Qed.
Lemma Rsum_0 n : Rsum n (fun _ => 0) = 0.
Proof. induction n as [|n IH]; simpl; [ring|]. rewrite IH. ring. Qed.
Lemma Rsum_zero n t : (forall i, (i < n)%nat -> t i = 0) -> Rsum n t = 0.
Proof. intros H. rewrite (Rsum_ext n t (fun _ => 0)) by auto. apply Rsum_0. Qed.
Lemma Rsum_const n c : Rsum n (fun _ => c) = INR n * c.
Proof. induction n as [|n IH]; [simpl; ring|]. simpl Rsum. rewrite IH, S_INR. ring. Qed.
Lemma Rsum_swap n m t : Rsum n (fun i => Rsum m (t i)) = Rsum m (fun j => Rsum n (fun i => t i j)).
Proof. induction n as [|n IH]; simpl; [now rewrite Rsum_0|]. rewrite IH, <- Rsum_add. reflexivity. Qed.
Lemma Rsum_single n t k : (k < n)%nat -> (forall i, (i < n)%nat -> i <> k -> t i = 0) -> Rsum n t = t k.
Proof.
  induction n as [|n IH]; intros Hk H; [lia|]. simpl.
  destruct (Nat.eq_dec k n) as [->|Hne].
  - rewrite Rsum_zero; [ring|]. intros; apply H; lia.
  - rewrite IH by (auto; lia). rewrite (H n) by lia. ring.
Qed.
Lemma Rsum_shift n t : Rsum (S n) t = t 0%nat + Rsum n (fun i => t (S i)).
Proof. induction n as [|n IH]; [simpl; ring|]. cbn [Rsum] in *. rewrite IH. ring. Qed.
Lemma Rsum_split n m t : Rsum (n + m) t = Rsum n t + Rsum m (fun i => t (n + i)%nat).
Proof.
  induction m as [|m IH]; [rewrite Nat.add_0_r; simpl; ring|].
  rewrite Nat.add_succ_r. simpl. rewrite IH. ring.
Qed.
Lemma Rsum_nonneg n t : (forall i, (i < n)%nat -> 0 <= t i) -> 0 <= Rsum n t.
Proof. induction n as [|n IH]; intros H; simpl; [lra|]. apply Rplus_le_le_0_compat; [apply IH; intros; apply H; lia| apply H; lia]. Qed.
Lemma Rsum_le n t u : (forall i, (i < n)%nat -> t i <= u i) -> Rsum n t <= Rsum n u.
Proof. induction n as [|n IH]; intros H; simpl; [lra|]. apply Rplus_le_compat; [apply IH; intros; apply H; lia| apply H; lia]. Qed.
Lemma Rsum_rev n t : Rsum n t = Rsum n (fun i => t (n - 1 - i)%nat).
Proof.
  induction n as [|n IH]; auto. rewrite (Rsum_shift n (fun i => t (S n - 1 - i)%nat)), Nat.sub_0_r.
  cbn [Rsum]. rewrite IH. rewrite Rplus_comm. f_equal; [f_equal; lia|].
  apply Rsum_ext. intros i Hi. f_equal. lia.
Qed.
Lemma Rsum_nonneg_zero n t : (forall i, (i < n)%nat -> 0 <= t i) -> Rsum n t = 0 -> forall i, (i < n)%nat -> t i = 0.
Proof.
  induction n as [|n IH]; intros H0 H i Hi; [lia|]. simpl in H.
  assert (0 <= Rsum n t) by (apply Rsum_nonneg; intros; apply H0; lia). assert (0 <= t n) by (apply H0; lia).
  destruct (Nat.eq_dec i n) as [->|]; [lra|]. apply IH; [intros; apply H0; lia| lra | lia].
Qed.
