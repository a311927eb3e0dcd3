(** * Linear systems of ordinary differential equations have solutions for every initial state and all times
    (power series in t).  Used to show that C76 is not vacuous. *)
From Coq Require Import Reals Lra Lia List.
From Coquelicot Require Import Coquelicot.
From Verif Require Import Base Arith RkSpec PJet PJet2 OrderSpec.
Import ListNotations.
Local Open Scope R_scope.

Section L.
Variables (n : nat) (F : state R -> state R) (M : nat -> nat -> R).
Hypothesis SF : forall u, szd n u -> szd n (F u).
Local Notation N := (n + n)%nat.
Hypothesis HM : forall u i, szd n u -> (i < N)%nat -> cmp n (F u) i = psum N (fun j => M i j * cmp n u j) 1.
Variable y : state R.
Hypothesis Sy : szd n y.

Definition w (k : nat) : state R := Nat.iter k F y.
Lemma w_szd k : szd n (w k).
Proof. induction k; [exact Sy|now apply SF]. Qed.
Lemma psum_abs m a B : 0 <= B -> (forall j, (j < m)%nat -> Rabs (a j) <= B) -> Rabs (psum m a 1) <= INR m * B.
Proof.
  intros HB. induction m as [|m IH]; intros H; [cbn; rewrite Rabs_R0; lra|]. cbn [psum]. eapply Rle_trans; [apply Rabs_triang|].
  rewrite pow1, Rmult_1_r, S_INR. specialize (IH ltac:(intros; apply H; lia)). specialize (H m ltac:(lia)). lra.
Qed.
Lemma fin_bound m (a : nat -> R) : exists B, 0 <= B /\ forall j, (j < m)%nat -> Rabs (a j) <= B.
Proof.
  induction m as [|m (B & HB & H)]; [exists 0; split; [lra|intros; lia]|]. exists (B + Rabs (a m)). pose proof (Rabs_pos (a m)). split; [lra|].
  intros j Hj. destruct (Nat.eq_dec j m) as [->|]; [lra|]. specialize (H j ltac:(lia)). lra.
Qed.
Lemma fin_bound2 m (a : nat -> nat -> R) m' : exists B, 0 <= B /\ forall i j, (i < m)%nat -> (j < m')%nat -> Rabs (a i j) <= B.
Proof.
  induction m as [|m (B & HB & H)]; [exists 0; split; [lra|intros; lia]|]. destruct (fin_bound m' (a m)) as (B' & HB' & H'). exists (B + B'). split; [lra|].
  intros i j Hi Hj. destruct (Nat.eq_dec i m) as [->|]; [specialize (H' j Hj); lra|]. specialize (H i j ltac:(lia) Hj). lra.
Qed.
Lemma w_bound : exists B K, 0 <= B /\ 0 <= K /\ forall k i, (i < N)%nat -> Rabs (cmp n (w k) i) <= B * K ^ k.
Proof.
  destruct (fin_bound N (cmp n y)) as (B & HB & H). destruct (fin_bound2 N M N) as (K & HK & H').
  exists B, (INR N * K). assert (P : 0 <= INR N * K) by (apply Rmult_le_pos; [apply pos_INR|auto]). split; [auto|split; [auto|]].
  induction k as [|k IH]; intros i Hi; [cbn [w Nat.iter nat_rect pow]; rewrite Rmult_1_r; auto|].
  change (w (S k)) with (F (w k)). rewrite HM; [|apply w_szd|auto]. eapply Rle_trans; [apply (psum_abs N _ (K * (B * (INR N * K) ^ k)))|].
  - apply Rmult_le_pos; auto. apply Rmult_le_pos; auto. now apply pow_le.
  - intros j Hj. rewrite Rabs_mult. apply Rmult_le_compat; try apply Rabs_pos; auto.
  - cbn [pow]. right. ring.
Qed.
Definition sa (i k : nat) : R := cmp n (w k) i / INR (fact k).
Lemma sa_radius i t : (i < N)%nat -> Rbar_lt (Rabs t) (CV_radius (sa i)).
Proof.
  intros Hi. destruct w_bound as (B & K & HB & HK & H).
  apply Rbar_lt_le_trans with (Finite (Rabs t + 1)); [cbn; lra|].
  destruct (CV_radius_bounded (sa i)) as [U _]. apply U.
  set (r := Rabs t + 1). destruct (maj_by_pos (fun k => (K * r) ^ k / INR (fact k))) as (l & Hl & Hb). { exists 0. apply cv_speed_pow_fact. }
  exists (B * l). intros k. unfold sa. specialize (H k i Hi). specialize (Hb k).
  assert (Fp : 0 < INR (fact k)) by apply INR_fact_lt_0. assert (Hr : 0 <= r) by (unfold r; pose proof (Rabs_pos t); lra).
  replace (cmp n (w k) i / INR (fact k) * r ^ k) with (cmp n (w k) i * (r ^ k / INR (fact k))) by (unfold Rdiv; ring).
  assert (Q : 0 <= r ^ k / INR (fact k)) by (apply Rmult_le_pos; [now apply pow_le|apply Rlt_le, Rinv_0_lt_compat; auto]).
  rewrite Rabs_mult, (Rabs_pos_eq (r ^ k / INR (fact k))) by auto.
  apply Rle_trans with (B * K ^ k * (r ^ k / INR (fact k))); [now apply Rmult_le_compat_r|].
  replace (B * K ^ k * (r ^ k / INR (fact k))) with (B * ((K * r) ^ k / INR (fact k))) by (rewrite Rpow_mult_distr; unfold Rdiv; ring).
  apply Rmult_le_compat_l; auto. eapply Rle_trans; [apply Rle_abs|exact Hb].
Qed.
Definition zsol (t : R) : state R := (map (fun i => PSeries (sa i) t) (seq 0 n), map (fun i => PSeries (sa (n + i)) t) (seq 0 n)).
Lemma zsol_szd t : szd n (zsol t).
Proof. split; cbn; now rewrite map_length, seq_length. Qed.
Lemma nth_ms' (f : nat -> R) m i : (i < m)%nat -> nth i (map f (seq 0 m)) 0 = f i.
Proof. intros H. rewrite (nth_indep _ 0 (f 0%nat)) by now rewrite map_length, seq_length. rewrite (map_nth f), seq_nth by auto. reflexivity. Qed.
Lemma zsol_cmp t i : (i < N)%nat -> cmp n (zsol t) i = PSeries (sa i) t.
Proof.
  intros Hi. destruct (Nat.lt_ge_cases i n) as [H|H].
  - rewrite cmp_fst by auto. cbn [zsol fst]. now rewrite nth_ms'.
  - replace i with (n + (i - n))%nat by lia. rewrite cmp_snd. cbn [zsol snd]. rewrite nth_ms' by lia. reflexivity.
Qed.
Lemma psum_series m (c : nat -> R) (s : nat -> nat -> R) t : (forall j, (j < m)%nat -> Rbar_lt (Rabs t) (CV_radius (s j))) ->
  is_pseries (fun k => psum m (fun j => c j * s j k) 1) t (psum m (fun j => c j * PSeries (s j) t) 1).
Proof.
  induction m as [|m IH]; intros H; cbn [psum].
  - evar_last; [|apply (PSeries_const_0 t)]. apply PSeries_correct, CV_radius_inside. rewrite CV_radius_const_0. exact I.
  - assert (A := IH ltac:(intros; apply H; lia)). 
    assert (B : is_pseries (s m) t (PSeries (s m) t)) by (apply PSeries_correct, CV_radius_inside, H; lia).
    apply (is_pseries_ext (PS_plus (fun k => psum m (fun j => c j * s j k) 1) (PS_scal (c m) (s m)))).
    { intros k. unfold PS_plus, PS_scal, plus, scal. cbn. unfold mult. cbn. rewrite pow1. ring. }
    evar_last; [apply is_pseries_plus; [exact A|apply is_pseries_scal; [apply Rmult_comm|exact B]]|]. unfold plus, scal. cbn. unfold mult. cbn. rewrite pow1. ring.
Qed.
Lemma psum_div m (a c : nat -> R) q : psum m (fun j => a j * (c j / q)) 1 = psum m (fun j => a j * c j) 1 / q.
Proof. unfold Rdiv. induction m as [|m IH]; cbn [psum]; [ring|]. rewrite IH. ring. Qed.
Theorem linear_solution : exists z, solves n F z 1 /\ z 0 = y /\
  forall t i, (i < N)%nat -> is_derive (fun t => cmp n (z t) i) t (cmp n (F (z t)) i).
Proof.
  assert (D : forall t i, (i < N)%nat -> is_derive (fun t => cmp n (zsol t) i) t (cmp n (F (zsol t)) i)).
  { intros t i Hi. apply (is_derive_ext (PSeries (sa i))); [intros; now rewrite zsol_cmp|].
    evar_last; [apply is_derive_PSeries, sa_radius; auto|]. rewrite HM; [|apply zsol_szd|auto].
    rewrite (psum_ext N _ (fun j => M i j * PSeries (sa j) t)) by (intros j Hj; now rewrite zsol_cmp).
    apply is_pseries_unique. apply (is_pseries_ext (fun k => psum N (fun j => M i j * sa j k) 1)); [|apply psum_series; intros; now apply sa_radius].
    intros k. unfold PS_derive, sa. change (w (S k)) with (F (w k)). rewrite HM; [|apply w_szd|auto].
    rewrite fact_simpl, mult_INR. replace (INR (S k) * (psum N (fun j => M i j * cmp n (w k) j) 1 / (INR (S k) * INR (fact k)))) with (psum N (fun j => M i j * cmp n (w k) j) 1 / INR (fact k)) by (field; split; [apply INR_fact_neq_0|apply not_0_INR; lia]).
    apply psum_div. }
  exists zsol. split; [|split; [|exact D]].
  - split; [intros t; apply zsol_szd|]. intros t i Ht Hi. split.
    + rewrite <- (cmp_fst n) by auto. apply (is_derive_ext (fun t => cmp n (zsol t) i)); [intros; now rewrite cmp_fst|]. apply D. lia.
    + rewrite <- (cmp_snd n). apply (is_derive_ext (fun t => cmp n (zsol t) (n + i))); [intros; now rewrite cmp_snd|]. apply D. lia.
  - assert (P0 : forall i, PSeries (sa i) 0 = cmp n y i). { intros i. rewrite PSeries_0. unfold sa. cbn. field. }
    destruct y as [a c] eqn:Ey. destruct Sy as [La Lc]. cbn [fst snd] in La, Lc. unfold zsol. f_equal.
    + apply (nth_ext _ _ 0 0); [now rewrite map_length, seq_length|]. rewrite map_length, seq_length. intros i Hi. rewrite nth_ms', P0 by auto. rewrite cmp_fst by auto. reflexivity.
    + apply (nth_ext _ _ 0 0); [now rewrite map_length, seq_length|]. rewrite map_length, seq_length. intros i Hi. rewrite nth_ms', P0 by auto. rewrite cmp_snd by auto. reflexivity.
Qed.
End L.
