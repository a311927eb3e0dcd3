(** Reductions over the reals: closed forms of the two diagnostics. *)
From Coq Require Import Reals Lra Permutation.
From Verif Require Import Base BaseLemmas ForList Arith MFd MCheb MSphere MGrid PGrid Spec PSum.
Local Open Scope R_scope.

(** every one of the n iterations is executed exactly once, by some thread *)
Definition deals (sched : list (list nat)) (n : nat) : Prop := Permutation (concat sched) (seq 0 n).

Definition lsum (T : nat -> R) (l : list nat) : R := fold_right (fun i a => T i + a) 0 l.
Lemma lsum_app T l l' : lsum T (l ++ l') = lsum T l + lsum T l'.
Proof. unfold lsum. induction l as [|i l IH]; cbn [app fold_right]; [ring|]. rewrite IH. ring. Qed.
Lemma lsum_perm T l l' : Permutation l l' -> lsum T l = lsum T l'.
Proof. unfold lsum. induction 1; cbn [fold_right] in *; lra. Qed.
Lemma lsum_seq T n : lsum T (seq 0 n) = Rsum n T.
Proof. induction n as [|n IH]; auto. rewrite seq_S, lsum_app, IH. unfold lsum. cbn [fold_right Rsum Nat.add]. ring. Qed.

Lemma thread_sum_R step T its : (forall i a, In i its -> step i a = Ok (a + T i)) ->
  thread_sum step its = Ok (lsum T its).
Proof.
  intros H. unfold thread_sum. change (@f0 R _) with 0.
  assert (G : forall a, fold_left (fun acc i => let! x := acc in step i x) its (Ok a) = Ok (a + lsum T its)).
  { induction its as [|i its IH]; intros a; cbn [fold_left bind]; [unfold lsum; cbn [fold_right]; f_equal; ring|]. rewrite H by (now left). rewrite IH.
    - unfold lsum. cbn [fold_right]. f_equal. ring.
    - intros j b Hj. apply H. now right. }
  rewrite G. f_equal. ring.
Qed.
Lemma reduce_R step T sched n init : deals sched n -> (forall i a, (i < n)%nat -> step i a = Ok (a + T i)) ->
  reduce step sched init = Ok (init + Rsum n T).
Proof.
  intros D H. rewrite <- lsum_seq, <- (lsum_perm _ _ _ D).
  assert (H' : forall i a, In i (concat sched) -> step i a = Ok (a + T i)).
  { intros i a Hi. apply H. eapply Permutation_in in Hi; [|exact D]. apply in_seq in Hi. lia. }
  clear H D. unfold reduce. revert init. induction sched as [|its sched IH]; intros init; cbn [fold_left concat bind].
  - unfold lsum. cbn [fold_right]. f_equal. ring.
  - rewrite (thread_sum_R step T) by (intros; apply H'; apply in_or_app; now left). cbn [bind]. rewrite IH.
    + rewrite lsum_app. change (fadd init (lsum T its)) with (init + lsum T its). f_equal. ring.
    + intros i a Hi. apply H'. apply in_or_app. now right.
Qed.
Lemma deals_serial n : deals [seq 0 n] n.
Proof. unfold deals. cbn. now rewrite app_nil_r. Qed.

(** nested loops that only add *)
Lemma for_add n (body : nat -> R -> res R) T a : (forall i a, (i < n)%nat -> body i a = Ok (a + T i)) ->
  for_ 0 n body a = Ok (a + Rsum n T).
Proof.
  intros H. induction n as [|n IH].
  - rewrite for_nil by lia. cbn [Rsum]. f_equal. ring.
  - rewrite for_last by lia. rewrite IH by auto. cbn [bind]. rewrite H by lia. cbn [Rsum]. f_equal. ring.
Qed.

(** the value at a grid point *)
Definition at3 (g : grid R) (v : list R) (ix it ip : nat) : R := nth (indx_R_th_ph g ix it ip) v 0.
(** the integrand of total_variation *)
Definition tv_term (g : grid R) (v : list R) (ix it ip : nat) : R :=
  sqrt ((at3 g v (ix + 1) it ip - at3 g v ix it ip) ^ 2 + (at3 g v ix (it + 1) ip - at3 g v ix it ip) ^ 2
        + (at3 g v ix it (ip + 1) - at3 g v ix it ip) ^ 2).
Definition tv_sum (g : grid R) (v : list R) : R :=
  Rsum (g_nx g - 1) (fun ix => Rsum (g_nlat g - 1) (fun it => Rsum (g_nphi g - 1) (fun ip => tv_term g v ix it ip))).

Lemma tv_closed g sched v : length v = g_n3 g -> (1 <= g_nlat g)%nat -> (1 <= g_nphi g)%nat -> deals sched (g_nx g - 1) ->
  total_variation g sched v = Ok (tv_sum g v / INR (g_n3 g)).
Proof.
  intros L H1 H2 D. unfold total_variation. rewrite assert_true by (rewrite L; apply Nat.eqb_refl). cbn [bind].
  assert (IN : forall ix it ip, (ix < g_nx g)%nat -> (it < g_nlat g)%nat -> (ip < g_nphi g)%nat -> v.[indx_R_th_ph g ix it ip] = Ok (at3 g v ix it ip)).
  { intros. apply vget_ok. rewrite L. unfold g_n3. now apply ix_R_th_ph_lt. }
  rewrite (reduce_R _ (fun ix => Rsum (g_nlat g - 1) (fun it => Rsum (g_nphi g - 1) (fun ip => tv_term g v ix it ip))) _ (g_nx g - 1)); auto.
  - cbn [bind]. change (@f0 R _) with 0. unfold fdiv, fnat, R_arith, fofZ. rewrite <- INR_IZR_INZ, Rplus_0_l. reflexivity.
  - intros ix a Hix. unfold tv_step. rewrite !wsub_le by auto. apply for_add. intros it b Hit. apply for_add. intros ip c Hip.
    rewrite !IN by lia. reflexivity.
Qed.

Definition res_sum (n : nat) (dt : R) (f_n f_np1 p : list R) : R :=
  Rsum n (fun i => (nth i p 0 - (nth i f_np1 0 - nth i f_n 0) / dt) ^ 2).
Lemma nir_closed g sched dt f_n f_np1 p :
  length f_n = g_n3 g -> length f_np1 = g_n3 g -> length p = g_n3 g -> deals sched (g_n3 g) ->
  norm_indep_res g sched dt f_n f_np1 p = Ok (sqrt (res_sum (g_n3 g) dt f_n f_np1 p / INR (g_n3 g))).
Proof.
  intros L1 L2 L3 D. unfold norm_indep_res. rewrite L1, L2, L3, !assert_true by apply Nat.eqb_refl. cbn [bind].
  rewrite (reduce_R _ (fun i => (nth i p 0 - (nth i f_np1 0 - nth i f_n 0) / dt) ^ 2) _ (g_n3 g)); auto.
  - cbn [bind]. change (@f0 R _) with 0. unfold fdiv, fnat, R_arith, fofZ. rewrite <- INR_IZR_INZ, Rplus_0_l. reflexivity.
  - intros i a Hi. unfold nir_step. rewrite !(vget_ok _ _ 0) by lia. reflexivity.
Qed.
