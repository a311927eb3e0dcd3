(** * Property C92: the Chebyshev derivative is spectrally accurate.
    [C17] says the derivative is exact on polynomials of degree at most n-3.  A user evolves fields that are not
    polynomials.  Here: for ANY samples the error is at most the derivative error of ANY such polynomial plus
    (4/3)(n-2)^3/(upper-lower) times how well that polynomial fits at the nodes; for a function with n-2
    bounded derivatives this gives an explicit bound, and for an analytic one (derivatives growing no faster
    than M A^k) the error tends to zero as points are added, uniformly over the nodes.  (Exact arithmetic; FFTW by its
    documented definition.) *)
From Coq Require Import Reals Lra List Lia.
From Coquelicot Require Import Coquelicot.
From Verif Require Import Base Arith BaseLemmas PMake MCheb Spec PSum PFdR PFd PropFd PropFd2 PCheb PCheb2 PropCheb.
Local Open Scope R_scope.

(** ** how far the derivative can amplify *)
Lemma U_step k x : Um (S k) x = x * Um k x + chebT k x.
Proof.
  induction k as [| |k A B] using pair_ind.
  - unfold chebT, Um; simpl; ring.
  - unfold chebT, Um; simpl; ring.
  - rewrite Um_SS, chebT_SS, B. pose proof (T_U k x) as Q.
    replace (2 * x * (x * Um (S k) x + chebT (S k) x) - Um (S k) x)
      with (2 * x * (x * Um (S k) x + chebT (S k) x) - (x * Um k x + chebT k x)) by (now rewrite <- A).
    rewrite Q. ring.
Qed.
Lemma Um_bound k th : Rabs (Um k (cos th)) <= INR k.
Proof.
  induction k as [|k IH].
  - unfold Um; simpl. rewrite Rabs_R0. lra.
  - rewrite U_step, S_INR, chebT_cos. eapply Rle_trans; [apply Rabs_triang|]. apply Rplus_le_compat.
    + rewrite Rabs_mult. pose proof (COS_bound th). assert (Rabs (cos th) <= 1) by (apply Rabs_le; lra).
      pose proof (Rabs_pos (cos th)). pose proof (Rabs_pos (Um k (cos th))). nra.
    + pose proof (COS_bound (INR k * th)). apply Rabs_le; lra.
Qed.
Lemma Rsum_abs m t u : (forall k, (k < m)%nat -> Rabs (t k) <= u k) -> Rabs (Rsum m t) <= Rsum m u.
Proof.
  induction m as [|m IH]; intros H; simpl; [rewrite Rabs_R0; lra|].
  eapply Rle_trans; [apply Rabs_triang|]. apply Rplus_le_compat; [apply IH; intros; apply H; lia | apply H; lia].
Qed.
Lemma wt_sum N : (1 <= N)%nat -> Rsum (S N) (wt N) = 2 * INR N.
Proof.
  intros HN.
  assert (A : forall m, (1 <= m <= N)%nat -> Rsum m (wt N) = 2 * INR m - 1).
  { induction m as [|m IH]; intros Hm; [lia|]. destruct m as [|m].
    - simpl. unfold wt. simpl. ring.
    - simpl Rsum in *. rewrite IH by lia. unfold wt at 1.
      replace (Nat.eqb (S m) 0) with false by reflexivity. replace (Nat.eqb (S m) N) with false by (symmetry; apply Nat.eqb_neq; lia).
      rewrite (S_INR (S m)). ring. }
  simpl. rewrite A by lia. unfold wt. replace (Nat.eqb N 0) with false by (symmetry; apply Nat.eqb_neq; lia).
  rewrite Nat.eqb_refl. ring.
Qed.
Lemma wt_range N j : 0 <= wt N j <= 2.
Proof. unfold wt. destruct (Nat.eqb j 0), (Nat.eqb j N); lra. Qed.
Lemma ana_bound N v k E : (1 <= N)%nat -> (forall j, (j <= N)%nat -> Rabs (v j) <= E) -> Rabs (ana N v k) <= 2 * E.
Proof.
  intros HN Hv. unfold ana. assert (H0 : 0 < INR N) by (apply lt_0_INR; lia). pose proof (wt_range N k) as Wk.
  assert (HE : 0 <= E) by (eapply Rle_trans; [apply Rabs_pos | apply (Hv 0%nat); lia]).
  assert (S1 : Rabs (Rsum (S N) (fun j => wt N j * (v j * cc N j k))) <= Rsum (S N) (fun j => E * wt N j)).
  { apply Rsum_abs. intros j Hj. rewrite !Rabs_mult. rewrite (Rabs_right (wt N j)) by (pose proof (wt_range N j); lra).
    rewrite (Rmult_comm E). apply Rmult_le_compat_l; [apply wt_range|].
    assert (C : Rabs (cc N j k) <= 1) by (unfold cc; apply Rabs_le; pose proof (COS_bound (PI * INR j * INR k / INR N)); lra).
    pose proof (Hv j ltac:(lia)). pose proof (Rabs_pos (v j)). pose proof (Rabs_pos (cc N j k)). nra. }
  rewrite Rsum_scal, wt_sum in S1 by auto.
  rewrite Rabs_mult. rewrite (Rabs_right (wt N k / (2 * INR N))).
  2:{ apply Rle_ge. apply Rdiv_le_0_compat; lra. }
  eapply Rle_trans; [apply Rmult_le_compat_l; [apply Rdiv_le_0_compat; lra | exact S1]|].
  replace (wt N k / (2 * INR N) * (E * (2 * INR N))) with (wt N k * E) by (field; lra). nra.
Qed.
Lemma sum_sq m : Rsum m (fun k => INR k * INR k) <= INR m ^ 3 / 3.
Proof.
  induction m as [|m IH]; [simpl; lra|]. simpl Rsum. rewrite S_INR. pose proof (pos_INR m).
  replace ((INR m + 1) ^ 3 / 3) with (INR m ^ 3 / 3 + INR m * INR m + INR m + / 3) by field. lra.
Qed.

(** the amplification factor of the derivative: (4/3)(n-2)^3 over the length of the interval *)
Definition amplification (n : nat) (lower upper : R) : R := 4 / 3 * INR (n - 2) ^ 3 / (upper - lower).

Theorem C92_bounded b n lower upper g v dv E :
  (2 <= n)%nat -> Cheb_make b n lower upper = Ok g -> lower < upper -> length v = n -> length dv = n ->
  (forall j, (j < n)%nat -> Rabs (nth j v 0) <= E) ->
  exists out, cheb_der b g v dv = Ok out /\ length out = n /\
  forall i, (i < n)%nat -> Rabs (nth i out 0) <= amplification n lower upper * E.
Proof.
  intros Hn Eg Hl Lv Ld Hv. pose proof (make_wf b n lower upper g Hn Eg) as W.
  eexists. split; [apply (cheb_der_val b g n lower upper Hn W v dv Lv Ld)|].
  split; [now rewrite map_length, seq_length|]. intros i Hi. rewrite nth_map_seq by auto.
  assert (HE : 0 <= E) by (eapply Rle_trans; [apply Rabs_pos | apply (Hv 0%nat); lia]).
  unfold Rdiv at 1. rewrite Rabs_mult. rewrite (Rabs_right (/ ((upper - lower) / 2))).
  2:{ apply Rle_ge. left. apply Rinv_0_lt_compat. lra. }
  assert (S1 : Rabs (Rsum (n - 2) (fun k => ana (n - 1) (fun j => nth j v 0) k * (INR k * Um k (cos (PI * INR i / INR (n - 1))))))
    <= Rsum (n - 2) (fun k => (2 * E) * (INR k * INR k))).
  { apply Rsum_abs. intros k Hk. rewrite !Rabs_mult. rewrite (Rabs_right (INR k)) by (apply Rle_ge, pos_INR).
    apply Rmult_le_compat; try apply Rabs_pos.
    - apply Rmult_le_pos; [apply pos_INR | apply Rabs_pos].
    - apply ana_bound; [lia|]. intros j Hj. apply Hv. lia.
    - apply Rmult_le_compat_l; [apply pos_INR | apply Um_bound]. }
  rewrite Rsum_scal in S1. pose proof (sum_sq (n - 2)) as SQ.
  unfold amplification.
  eapply Rle_trans; [apply Rmult_le_compat_r; [left; apply Rinv_0_lt_compat; lra|]; eapply Rle_trans; [exact S1|]; apply Rmult_le_compat_l; [lra | exact SQ]|].
  right. field. lra.
Qed.

(** ** near-best approximation *)
Lemma der_diff b n lower upper g u v dv ou ov i : (2 <= n)%nat -> Cheb_make b n lower upper = Ok g -> lower < upper ->
  length u = n -> length v = n -> length dv = n -> (i < n)%nat ->
  cheb_der b g u dv = Ok ou -> cheb_der b g v dv = Ok ov ->
  exists w ow, length w = n /\ (forall j, (j < n)%nat -> nth j w 0 = nth j u 0 - nth j v 0) /\
   cheb_der b g w dv = Ok ow /\ nth i ow 0 = nth i ou 0 - nth i ov 0.
Proof.
  intros Hn Eg Hl Lu Lv Ld Hi Eu Ev. pose proof (make_wf b n lower upper g Hn Eg) as W.
  rewrite (cheb_der_val b g n lower upper Hn W u dv Lu Ld) in Eu.
  rewrite (cheb_der_val b g n lower upper Hn W v dv Lv Ld) in Ev.
  set (w := map (fun j => nth j u 0 - nth j v 0) (seq 0 n)).
  assert (Lw : length w = n) by (unfold w; now rewrite map_length, seq_length).
  exists w. eexists. split; auto. split; [intros j Hj; unfold w; now rewrite nth_map_seq|].
  split; [apply (cheb_der_val b g n lower upper Hn W w dv Lw Ld)|].
  assert (Eu' : ou = map (fun i => Rsum (n - 2) (fun k => ana (n - 1) (fun j => nth j u 0) k * (INR k * Um k (cos (PI * INR i / INR (n - 1))))) / ((upper - lower) / 2)) (seq 0 n)) by congruence.
  assert (Ev' : ov = map (fun i => Rsum (n - 2) (fun k => ana (n - 1) (fun j => nth j v 0) k * (INR k * Um k (cos (PI * INR i / INR (n - 1))))) / ((upper - lower) / 2)) (seq 0 n)) by congruence.
  rewrite Eu', Ev', !nth_map_seq by auto.
  assert (A : forall k, ana (n - 1) (fun j => nth j w 0) k = ana (n - 1) (fun j => nth j u 0) k - ana (n - 1) (fun j => nth j v 0) k).
  { intros k. rewrite (ana_ext (n - 1) (fun j => nth j w 0) (fun j => nth j u 0 - nth j v 0)).
    2:{ intros j Hj. unfold w. now rewrite nth_map_seq by lia. }
    unfold ana. rewrite <- Rmult_minus_distr_l. f_equal.
    generalize (S (n - 1)). induction n0 as [|q IH]; simpl; [ring|]. rewrite IH. ring. }
  unfold Rdiv. rewrite <- Rmult_minus_distr_r. f_equal.
  generalize (n - 2)%nat. induction n0 as [|q IH]; simpl; [ring|]. rewrite IH, A. ring.
Qed.

Theorem C92_near_best b n lower upper g f v dv c E :
  (2 <= n)%nat -> Cheb_make b n lower upper = Ok g -> lower < upper -> length dv = n ->
  cheb_samples g n f v ->
  (length c <= n - 2)%nat ->                               (* a polynomial of degree at most n-3 ... *)
  (forall j x, (j < n)%nat -> cheb_pt g j = Ok x -> Rabs (f x - poly c x) <= E) ->   (* ... that fits f at the nodes *)
  exists out, cheb_der b g v dv = Ok out /\ length out = n /\
  forall i x, (i < n)%nat -> cheb_pt g i = Ok x ->
    Rabs (nth i out 0 - Derive (poly c) x) <= amplification n lower upper * E.
Proof.
  intros Hn Eg Hl Ld [Lv Hv] Hc HE. pose proof (make_wf b n lower upper g Hn Eg) as W.
  destruct (C14_cheb_points b n lower upper g Eg Hn Hl) as (X & HX & _).
  set (pv := map (fun j => poly c (X j)) (seq 0 n)).
  assert (Lp : length pv = n) by (unfold pv; now rewrite map_length, seq_length).
  assert (SP : cheb_samples g n (poly c) pv).
  { split; auto. intros j x Hj Hx. unfold pv. rewrite nth_map_seq by auto. rewrite HX in Hx by auto. congruence. }
  destruct (C17_der_exact b n lower upper g c pv dv Hn Eg ltac:(lra) Ld Hc SP) as (op & Ep & Lop & Dp).
  destruct (C92_bounded b n lower upper g v dv (Rsum n (fun j => Rabs (nth j v 0))) Hn Eg Hl Lv Ld) as (out & Eo & Lo & _).
  { intros j Hj. clear -Hj. revert Hj. generalize n. induction n0 as [|q IH]; intros Hj; [lia|]. simpl.
    destruct (Nat.eq_dec j q) as [->|Hne].
    - assert (0 <= Rsum q (fun j => Rabs (nth j v 0))).
      { clear. induction q as [|q IH]; simpl; [lra|]. pose proof (Rabs_pos (nth q v 0)). lra. } lra.
    - pose proof (IH ltac:(lia)). pose proof (Rabs_pos (nth q v 0)). lra. }
  exists out. split; auto. split; auto. intros i x Hi Hx. rewrite <- (Dp i x Hi Hx).
  destruct (der_diff b n lower upper g v pv dv out op i Hn Eg Hl Lv Lp Ld Hi Eo Ep) as (w & ow & Lw & Hw & Ew & Dw).
  rewrite <- Dw. destruct (C92_bounded b n lower upper g w dv E Hn Eg Hl Lw Ld) as (ow' & Ew' & _ & B).
  { intros j Hj. rewrite Hw by auto. rewrite (Hv j (X j) Hj (HX j Hj)). unfold pv. rewrite nth_map_seq by auto.
    apply (HE j); auto. }
  assert (ow' = ow) by congruence. subst ow'. now apply B.
Qed.

(** ** functions with bounded derivatives *)
Lemma taylor_len f x n : length (taylor f x n) = n.
Proof. unfold taylor. now rewrite map_length, seq_length. Qed.
Lemma taylor_der f x n : (2 <= n)%nat -> is_derive (poly (taylor f x n)) 0 (Derive f x).
Proof.
  intros Hn. destruct n as [|[|n]]; [lia|lia|].
  unfold taylor. rewrite <- cons_seq. rewrite <- cons_seq. cbn [map].
  set (r := map _ (seq 2 n)).
  replace (Derive f x) with (Derive_n f 1 x / INR (fact 1)).
  2:{ change (Derive_n f 1 x) with (Derive (fun x => f x) x). change (Derive (fun x => f x) x) with (Derive f x). simpl. field. }
  set (a := Derive_n f 0 x / INR (fact 0)). set (d := Derive_n f 1 x / INR (fact 1)).
  assert (P : forall q t, ex_derive (poly q) t).
  { induction q as [|y q IH]; intros t; simpl; auto_derive; auto. }
  apply (is_derive_ext (fun t => a + t * (d + t * poly r t))); [intros; reflexivity|].
  auto_derive; [repeat split; apply P|]. ring.
Qed.

Theorem C92_spectral b n lower upper g f v dv lo' up' M :
  (4 <= n)%nat -> Cheb_make b n lower upper = Ok g -> lower < upper -> length dv = n ->
  cheb_samples g n f v -> lo' < lower -> upper < up' ->
  (forall k t, (k <= n - 2)%nat -> lo' < t < up' -> ex_derive_n f k t) ->
  (forall t, lower <= t <= upper -> Rabs (Derive_n f (n - 2) t) <= M) ->
  exists out, cheb_der b g v dv = Ok out /\ length out = n /\
  forall i x, (i < n)%nat -> cheb_pt g i = Ok x ->
    Rabs (nth i out 0 - Derive f x) <= 4 / 3 * INR (n - 2) ^ 3 * M * (upper - lower) ^ (n - 3) / INR (fact (n - 2)).
Proof.
  intros Hn Eg Hl Ld HS Hlo Hup Sm HM.
  assert (HM0 : 0 <= M) by (eapply Rle_trans; [apply Rabs_pos | apply (HM lower); lra]).
  destruct (C14_cheb_points b n lower upper g Eg ltac:(lia) Hl) as (X & HX & _ & _ & _ & HR & _).
  pose (N := (n - 3)%nat). assert (EN : (n - 2)%nat = S N) by (unfold N; lia).
  set (E := M * (upper - lower) ^ (n - 2) / INR (fact (n - 2))).
  assert (OUT : forall i, (i < n)%nat -> exists out, cheb_der b g v dv = Ok out /\ length out = n /\
     Rabs (nth i out 0 - Derive f (X i)) <= amplification n lower upper * E).
  { intros i Hi. set (x := X i). pose (c0 := taylor f x (n - 2)).
    destruct (poly_shift c0 (- x)) as (c & Lc & Ec).
    assert (PC : forall t, poly c t = poly c0 (t - x)).
    { intros t. replace (t - x) with (- x + t) by ring. symmetry. apply Ec. }
    destruct (C92_near_best b n lower upper g f v dv c E ltac:(lia) Eg Hl Ld HS) as (out & Eo & Lo & B).
    - rewrite Lc. unfold c0. rewrite taylor_len. lia.
    - intros j y Hj Hy. rewrite HX in Hy by auto. assert (y = X j) by congruence. subst y.
      rewrite PC. unfold c0, E. rewrite EN.
      eapply Rle_trans; [apply (taylor_bound f N lo' lower upper up' M)|]; auto.
      + rewrite <- EN. exact Sm.
      + rewrite <- EN. exact HM.
      + apply HR; auto.
      + unfold Rdiv. apply Rmult_le_compat_r; [left; apply Rinv_0_lt_compat, INR_fact_lt_0|].
        apply Rmult_le_compat_l; auto. apply pow_incr. split; [apply Rabs_pos|].
        pose proof (HR i Hi). pose proof (HR j Hj). unfold x. apply Rabs_le. lra.
    - exists out. split; auto. split; auto. replace (Derive f x) with (Derive (poly c) x).
      + apply B; auto; unfold x; auto.
      + apply is_derive_unique. apply (is_derive_ext (fun t => poly c0 (t - x))); [intros; symmetry; apply PC|].
        pose proof (taylor_der f x (n - 2) ltac:(lia)) as TD. fold c0 in TD.
        replace (Derive f x) with (scal 1 (Derive f x)) by (unfold scal; simpl; unfold mult; simpl; ring).
        apply (is_derive_comp (poly c0) (fun t => t - x) x (Derive f x) 1).
        * replace (x - x) with 0 by ring. exact TD.
        * auto_derive; auto. }
  destruct (OUT 0%nat ltac:(lia)) as (out & Eo & Lo & _). exists out. split; auto. split; auto.
  intros i x Hi Hx. destruct (OUT i Hi) as (out' & Eo' & _ & B). assert (out' = out) by congruence. subst out'.
  rewrite HX in Hx by auto. assert (Ex : x = X i) by congruence. rewrite Ex.
  eapply Rle_trans; [exact B|]. right. unfold amplification, E.
  replace ((upper - lower) ^ (n - 2)) with ((upper - lower) * (upper - lower) ^ (n - 3)).
  2:{ replace (n - 2)%nat with (S (n - 3)) by lia. reflexivity. }
  field.
  split; first [apply INR_fact_neq_0 | lra].
Qed.

(** ** convergence for analytic functions *)
Lemma cube_pow m : INR m ^ 3 <= 4 * 2 ^ m.
Proof.
  assert (A : forall q, INR (q + 4) ^ 3 <= 4 * 2 ^ (q + 4)).
  { induction q as [|q IH].
    - simpl. lra.
    - replace (S q + 4)%nat with (S (q + 4)) by lia. rewrite S_INR. rewrite <- (tech_pow_Rmult 2 (q + 4)).
      assert (4 <= INR (q + 4)). { replace 4 with (INR 4) by (simpl; ring). apply le_INR. lia. }
      set (z := INR (q + 4)) in *. assert ((z + 1) ^ 3 <= 2 * z ^ 3).
      { assert (0 <= z * z * (z - 4)) by (apply Rmult_le_pos; nra). assert (0 <= z * (z - 4)) by nra.
        replace (2 * z ^ 3) with ((z + 1) ^ 3 + (z * z * (z - 4) + z * (z - 4) + (z - 1))) by ring. lra. }
      set (w := 2 ^ (q + 4)) in *. clearbody w z. lra. }
  destruct (le_lt_dec 4 m) as [H|H].
  - replace m with ((m - 4) + 4)%nat by lia. apply A.
  - destruct m as [|[|[|[|m]]]]; try lia; simpl; lra.
Qed.

Theorem C92_converges b lower upper f lo' up' M A :
  lower < upper -> lo' < lower -> upper < up' -> 0 < A ->
  (forall k t, lo' < t < up' -> ex_derive_n f k t) ->
  (forall k t, lower <= t <= upper -> Rabs (Derive_n f k t) <= M * A ^ k) ->
  forall eps, 0 < eps -> exists n0, forall n, (n0 <= n)%nat ->
  forall g v dv, Cheb_make b n lower upper = Ok g -> length dv = n -> cheb_samples g n f v ->
  exists out, cheb_der b g v dv = Ok out /\ length out = n /\
  forall i x, (i < n)%nat -> cheb_pt g i = Ok x -> Rabs (nth i out 0 - Derive f x) < eps.
Proof.
  intros Hl Hlo Hup HA Sm HM eps He.
  assert (HM0 : 0 <= M). { pose proof (HM 0%nat lower ltac:(lra)) as H. pose proof (Rabs_pos (Derive_n f 0 lower)). simpl in *. lra. }
  set (L := upper - lower). set (B := 2 * A * L).
  set (K := 16 / 3 * M / L).
  assert (HK : 0 <= K) by (unfold K, L; apply Rdiv_le_0_compat; lra).
  destruct (cv_speed_pow_fact B (eps / (K + 1)) ltac:(apply Rdiv_lt_0_compat; lra)) as (n1 & Hn1).
  exists (n1 + 4)%nat. intros n Hn g v dv Eg Ld HS.
  destruct (C92_spectral b n lower upper g f v dv lo' up' (M * A ^ (n - 2)) ltac:(lia) Eg Hl Ld HS Hlo Hup) as (out & Eo & Lo & D).
  - intros k t _ Ht. now apply Sm.
  - intros t Ht. now apply HM.
  - exists out. split; auto. split; auto. intros i x Hi Hx. eapply Rle_lt_trans; [apply (D i x Hi Hx)|].
    pose (m := (n - 2)%nat). fold m. specialize (Hn1 m ltac:(unfold m; lia)). unfold R_dist in Hn1. rewrite Rminus_0_r in Hn1.
    assert (HB : 0 < B ^ m / INR (fact m)).
    { apply Rdiv_lt_0_compat; [apply pow_lt; unfold B, L; nra | apply INR_fact_lt_0]. }
    rewrite Rabs_right in Hn1 by lra.
    apply Rle_lt_trans with (K * (B ^ m / INR (fact m))).
    + unfold K, B. fold L. replace (n - 3)%nat with (m - 1)%nat by (unfold m; lia).
      assert (HL : 0 < L) by (unfold L; lra).
      replace (L ^ (m - 1)) with (L ^ m / L).
      2:{ replace (L ^ m) with (L * L ^ (m - 1)); [field; lra|]. replace m with (S (m - 1)) at 2 by (unfold m; lia). reflexivity. }
      rewrite !Rpow_mult_distr. pose proof (cube_pow m) as C3.
      replace (4 / 3 * INR m ^ 3 * (M * A ^ m) * (L ^ m / L) / INR (fact m))
        with (4 / 3 * (M / L * (A ^ m * L ^ m / INR (fact m))) * INR m ^ 3) by (field; split; first [apply INR_fact_neq_0 | lra]).
      replace (16 / 3 * M / L * (2 ^ m * A ^ m * L ^ m / INR (fact m)))
        with (4 / 3 * (M / L * (A ^ m * L ^ m / INR (fact m))) * (4 * 2 ^ m)) by (field; split; first [apply INR_fact_neq_0 | lra]).
      apply Rmult_le_compat_l; auto. apply Rmult_le_pos; [lra|]. apply Rmult_le_pos; [apply Rdiv_le_0_compat; lra|].
      apply Rdiv_le_0_compat; [|apply INR_fact_lt_0]. apply Rmult_le_pos; apply pow_le; lra.
    + apply Rle_lt_trans with ((K + 1) * (B ^ m / INR (fact m))); [apply Rmult_le_compat_r; lra|].
      apply Rmult_lt_reg_r with (/ (K + 1)); [apply Rinv_0_lt_compat; lra|].
      replace ((K + 1) * (B ^ m / INR (fact m)) * / (K + 1)) with (B ^ m / INR (fact m)) by (field; split; first [apply INR_fact_neq_0 | lra]).
      exact Hn1.
Qed.

(** exp on [0,1] meets every hypothesis, on a grid that exists for every n *)
Example C92_nonvacuous b :
  (forall k t, -1 < t < 2 -> ex_derive_n exp k t) /\
  (forall k t, 0 <= t <= 1 -> Rabs (Derive_n exp k t) <= exp 1 * 1 ^ k) /\
  forall eps, 0 < eps -> exists n0, forall n, (n0 <= n)%nat -> (1 < n)%nat ->
  exists g v out, Cheb_make b n 0 1 = Ok g /\ cheb_samples g n exp v /\ cheb_der b g v (repeat 0 n) = Ok out /\ length out = n /\
  forall i x, (i < n)%nat -> cheb_pt g i = Ok x -> Rabs (nth i out 0 - exp x) < eps.
Proof.
  assert (S1 : forall k t, -1 < t < 2 -> ex_derive_n exp k t) by (intros; apply exp_Derive_n).
  assert (S2 : forall k t, 0 <= t <= 1 -> Rabs (Derive_n exp k t) <= exp 1 * 1 ^ k).
  { intros k t Ht. rewrite (proj1 (exp_Derive_n k t)), pow1, Rmult_1_r.
    rewrite Rabs_right by (left; apply exp_pos). destruct (Req_dec t 1) as [->|]; [lra|]. left. apply exp_increasing. lra. }
  split; auto. split; auto. intros eps He.
  destruct (C92_converges b 0 1 exp (-1) 2 (exp 1) 1 ltac:(lra) ltac:(lra) ltac:(lra) ltac:(lra) S1 S2 eps He) as (n0 & H).
  exists n0. intros n Hn Hn1. pose proof (Cheb_make_ok b n 0 1 ltac:(left; lia)) as Eg. match type of Eg with _ = Ok ?y => set (g := y) in Eg end.
  destruct (C14_cheb_points b n 0 1 g Eg ltac:(lia) ltac:(lra)) as (X & HX & _).
  assert (HS : cheb_samples g n exp (map (fun j => exp (X j)) (seq 0 n))).
  { split; [now rewrite map_length, seq_length|]. intros i x Hi Hx. rewrite nth_map_seq by auto. rewrite HX in Hx by auto. congruence. }
  destruct (H n Hn g _ (repeat 0 n) Eg (repeat_length 0 n) HS) as (out & Eo & Lo & D).
  exists g, (map (fun j => exp (X j)) (seq 0 n)), out. repeat (split; auto). intros i x Hi Hx.
  replace (exp x) with (Derive exp x); [now apply D|]. apply is_derive_unique. auto_derive; auto; ring.
Qed.
