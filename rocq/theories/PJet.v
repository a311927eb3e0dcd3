(** * Truncated expansions in the step length, and the order of the classical Runge-Kutta step.
    Proof machinery for C76 (no model definition here). *)
From Coq Require Import Reals Lra Lia FunctionalExtensionality.
From Coquelicot Require Import Coquelicot.
From Verif Require Import Base Arith RkSpec.
Local Open Scope R_scope.

(** |phi h| <= C h^k for small nonnegative h *)
Definition bigO (k : nat) (phi : R -> R) : Prop :=
  exists C h0, 0 <= C /\ 0 < h0 /\ forall h, 0 <= h <= h0 -> Rabs (phi h) <= C * h ^ k.

Lemma O_ext k f g : (forall h, f h = g h) -> bigO k f -> bigO k g.
Proof. intros E (C & h0 & HC & Hh & H). exists C, h0. split; [auto|split; [auto|]]. intros h Hr. rewrite <- E. auto. Qed.
Lemma O_zero k : bigO k (fun _ => 0).
Proof. exists 0, 1. split; [lra|split; [lra|]]. intros h Hr. rewrite Rabs_R0. lra. Qed.
Lemma pow_h_nonneg h k : 0 <= h -> 0 <= h ^ k.
Proof. intros. now apply pow_le. Qed.
Lemma O_add k f g : bigO k f -> bigO k g -> bigO k (fun h => f h + g h).
Proof.
  intros (C & h0 & HC & Hh & H) (C' & h0' & HC' & Hh' & H'). exists (C + C'), (Rmin h0 h0'). split; [lra|split; [now apply Rmin_glb_lt|]].
  intros h Hr. pose proof (Rmin_l h0 h0'). pose proof (Rmin_r h0 h0').
  eapply Rle_trans; [apply Rabs_triang|]. rewrite Rmult_plus_distr_r. apply Rplus_le_compat; [apply H|apply H']; lra.
Qed.
Lemma O_mul j k f g : bigO j f -> bigO k g -> bigO (j + k) (fun h => f h * g h).
Proof.
  intros (C & h0 & HC & Hh & H) (C' & h0' & HC' & Hh' & H'). exists (C * C'), (Rmin h0 h0'). split; [now apply Rmult_le_pos|split; [now apply Rmin_glb_lt|]].
  intros h Hr. pose proof (Rmin_l h0 h0'). pose proof (Rmin_r h0 h0'). rewrite Rabs_mult, pow_add.
  replace (C * C' * (h ^ j * h ^ k)) with ((C * h ^ j) * (C' * h ^ k)) by ring.
  apply Rmult_le_compat; try apply Rabs_pos; [apply H|apply H']; lra.
Qed.
Lemma O_weaken j k f : (k <= j)%nat -> bigO j f -> bigO k f.
Proof.
  intros L (C & h0 & HC & Hh & H). exists C, (Rmin h0 1). split; [auto|split; [apply Rmin_glb_lt; lra|]]. intros h Hr.
  pose proof (Rmin_l h0 1). pose proof (Rmin_r h0 1). eapply Rle_trans; [apply H; lra|].
  apply Rmult_le_compat_l; auto. replace j with (k + (j - k))%nat by lia. rewrite pow_add.
  assert (P : 0 <= h ^ k) by (apply pow_le; lra). assert (Q : h ^ (j - k) <= 1).
  { rewrite <- (pow1 (j - k)). apply pow_incr. lra. }
  nra.
Qed.
Lemma O_const c : bigO 0 (fun _ => c).
Proof. exists (Rabs c), 1. split; [apply Rabs_pos|split; [lra|]]. intros. simpl. lra. Qed.
Lemma O_h : bigO 1 (fun h => h).
Proof. exists 1, 1. split; [lra|split; [lra|]]. intros h Hr. rewrite Rabs_pos_eq by lra. simpl. lra. Qed.
Lemma O_scal k c f : bigO k f -> bigO k (fun h => c * f h).
Proof. intros H. apply (O_mul 0 k); auto. apply O_const. Qed.
Lemma O_hpow k c : bigO k (fun h => c * h ^ k).
Proof.
  exists (Rabs c), 1. split; [apply Rabs_pos|split; [lra|]]. intros h Hr. rewrite Rabs_mult, (Rabs_pos_eq (h ^ k)); [lra|]. apply pow_le. lra.
Qed.
Lemma O_sub k f g : bigO k f -> bigO k g -> bigO k (fun h => f h - g h).
Proof. intros A B. apply (O_ext _ (fun h => f h + (-1) * g h)); [intros; ring|]. apply O_add; auto. now apply O_scal. Qed.

(** ** expansions: phi h = sum_(j<k) a_j h^j + O(h^k) *)
Fixpoint psum (k : nat) (a : nat -> R) (h : R) : R :=
  match k with O => 0 | S k' => psum k' a h + a k' * h ^ k' end.
Definition ex (k : nat) (phi : R -> R) (a : nat -> R) : Prop := bigO k (fun h => phi h - psum k a h).
(** the sequence a0, a1, a2, a3, a4, 0, ... *)
Definition sq (a0 a1 a2 a3 a4 : R) (j : nat) : R := match j with 0 => a0 | 1 => a1 | 2 => a2 | 3 => a3 | 4 => a4 | _ => 0 end.

Lemma psum_ext k a b h : (forall j, (j < k)%nat -> a j = b j) -> psum k a h = psum k b h.
Proof. induction k; intros H; cbn; auto. rewrite IHk, (H k) by auto. auto. Qed.
Lemma ex_ext k phi psi a b : (forall h, phi h = psi h) -> (forall j, (j < k)%nat -> a j = b j) -> ex k phi a -> ex k psi b.
Proof. intros E A. apply O_ext. intros h. now rewrite E, (psum_ext k a b). Qed.
Lemma ex_weaken j k phi a : (k <= j)%nat -> ex j phi a -> ex k phi a.
Proof.
  intros L. replace j with ((j - k) + k)%nat by lia. induction (j - k)%nat as [|d IH]; auto. intros H. apply IH.
  unfold ex in *. cbn [plus psum] in H. apply (O_ext _ (fun h => (phi h - (psum (d + k) a h + a (d + k)%nat * h ^ (d + k))) + a (d + k)%nat * h ^ (d + k))); [intros; ring|].
  apply O_add; [apply (O_weaken (S (d + k))); auto; lia|apply O_hpow].
Qed.
Lemma psum_O k a : bigO 0 (psum k a).
Proof.
  induction k; cbn; [apply O_const|]. apply O_add; auto. apply (O_weaken k); [lia|apply O_hpow].
Qed.
Lemma ex_O k phi a : ex k phi a -> bigO 0 phi.
Proof. intros H. apply (O_ext _ (fun h => (phi h - psum k a h) + psum k a h)); [intros; ring|]. apply O_add; [apply (O_weaken k); auto; lia|apply psum_O]. Qed.

Lemma ex_add k phi psi a b : ex k phi a -> ex k psi b -> ex k (fun h => phi h + psi h) (fun j => a j + b j).
Proof.
  intros A B. unfold ex. apply (O_ext _ (fun h => (phi h - psum k a h) + (psi h - psum k b h))); [|now apply O_add].
  intros h. assert (E : psum k (fun j => a j + b j) h = psum k a h + psum k b h) by (induction k; cbn; [ring|rewrite IHk; [ring|now apply (ex_weaken (S k)); [lia|]..]]). rewrite E. ring.
Qed.
Lemma ex_scal k c phi a : ex k phi a -> ex k (fun h => c * phi h) (fun j => c * a j).
Proof.
  intros A. unfold ex. apply (O_ext _ (fun h => c * (phi h - psum k a h))); [|now apply O_scal].
  intros h. assert (E : psum k (fun j => c * a j) h = c * psum k a h) by (clear; induction k; cbn; [ring|rewrite IHk; ring]). rewrite E. ring.
Qed.
Lemma psum_const k c h : psum (S k) (fun j => match j with O => c | _ => 0 end) h = c.
Proof. induction k; [cbn; ring|]. change (psum (S k) (fun j => match j with O => c | _ => 0 end) h + 0 * h ^ S k = c). rewrite IHk. ring. Qed.
Lemma ex_const k c : ex k (fun _ => c) (fun j => match j with O => c | _ => 0 end).
Proof. destruct k; [|unfold ex; apply (O_ext _ (fun _ => 0)); [|apply O_zero]; intros h; rewrite psum_const; ring]. unfold ex. cbn. apply (O_ext _ (fun _ => c)); [intros; ring|apply O_const]. Qed.
(** multiplication by h shifts *)
Lemma ex_h k phi a : ex k phi a -> ex (S k) (fun h => h * phi h) (fun j => match j with O => 0 | S i => a i end).
Proof.
  intros A. unfold ex. apply (O_ext _ (fun h => h * (phi h - psum k a h))); [|apply (O_mul 1 k); auto; apply O_h].
  intros h. assert (E : psum (S k) (fun j => match j with O => 0 | S i => a i end) h = h * psum k a h).
  { clear. induction k; [cbn; ring|]. remember (S k) as m. cbn [psum]. rewrite IHk. subst m. cbn [psum]. cbn [pow]. ring. }
  rewrite E. ring.
Qed.
(** products, up to fourth order *)
Definition cauchy (a b : nat -> R) : nat -> R :=
  sq (a 0%nat * b 0%nat) (a 0%nat * b 1%nat + a 1%nat * b 0%nat) (a 0%nat * b 2%nat + a 1%nat * b 1%nat + a 2%nat * b 0%nat) (a 0%nat * b 3%nat + a 1%nat * b 2%nat + a 2%nat * b 1%nat + a 3%nat * b 0%nat) 0.
Lemma ex_mul k phi psi a b : (k <= 4)%nat -> ex k phi a -> ex k psi b -> ex k (fun h => phi h * psi h) (cauchy a b).
Proof.
  intros K A B. pose proof (ex_O _ _ _ B) as OB.
  assert (P : bigO k (fun h => psum k a h * psum k b h - psum k (cauchy a b) h)).
  { destruct k as [|[|[|[|[|k]]]]]; [..|lia]; cbn.
    - apply (O_ext _ (fun _ => 0)); [intros; ring|apply O_const].
    - apply (O_ext _ (fun _ => 0)); [intros; ring|apply O_zero].
    - apply (O_ext _ (fun h => a 1%nat * b 1%nat * h ^ 2)); [intros; ring|apply O_hpow].
    - apply (O_ext _ (fun h => ((a 1%nat * b 2%nat + a 2%nat * b 1%nat) * h ^ 3 + a 2%nat * b 2%nat * h ^ 4))); [intros; ring|].
      apply O_add; [apply O_hpow|apply (O_weaken 4); [lia|apply O_hpow]].
    - apply (O_ext _ (fun h => ((a 1%nat * b 3%nat + a 2%nat * b 2%nat + a 3%nat * b 1%nat) * h ^ 4 + ((a 2%nat * b 3%nat + a 3%nat * b 2%nat) * h ^ 5 + a 3%nat * b 3%nat * h ^ 6)))); [intros; ring|].
      apply O_add; [apply O_hpow|]. apply O_add; [apply (O_weaken 5)|apply (O_weaken 6)]; try lia; apply O_hpow. }
  unfold ex. apply (O_ext _ (fun h => (phi h - psum k a h) * psi h + (psum k a h * (psi h - psum k b h) + (psum k a h * psum k b h - psum k (cauchy a b) h)))); [intros; ring|].
  apply O_add; [rewrite <- (Nat.add_0_r k) at 1; now apply O_mul|]. apply O_add; auto. apply (O_mul 0 k); auto. apply psum_O.
Qed.
(** reciprocals *)
Definition rec4 (a : nat -> R) : nat -> R :=
  let b0 := / a 0%nat in
  let b1 := - b0 * (a 1%nat * b0) in
  let b2 := - b0 * (a 1%nat * b1 + a 2%nat * b0) in
  let b3 := - b0 * (a 1%nat * b2 + a 2%nat * b1 + a 3%nat * b0) in
  sq b0 b1 b2 b3 0.
Lemma ex_inv k phi a : (k <= 4)%nat -> (1 <= k)%nat -> a 0%nat <> 0 -> ex k phi a -> ex k (fun h => / phi h) (rec4 a).
Proof.
  intros K K1 Ha A.
  assert (NZ : exists h0, 0 < h0 /\ forall h, 0 <= h <= h0 -> Rabs (a 0%nat) / 2 <= Rabs (phi h)).
  { pose proof (ex_weaken k 1 phi a K1 A) as (C & h0 & HC & Hh & H). cbn in H.
    assert (Pa : 0 < Rabs (a 0%nat)) by now apply Rabs_pos_lt.
    exists (Rmin h0 (Rabs (a 0%nat) / 2 / (C + 1))). split. { apply Rmin_glb_lt; auto. apply Rdiv_lt_0_compat; lra. }
    intros h Hr. pose proof (Rmin_l h0 (Rabs (a 0%nat) / 2 / (C + 1))). pose proof (Rmin_r h0 (Rabs (a 0%nat) / 2 / (C + 1))).
    assert (Q : C * h <= Rabs (a 0%nat) / 2). { assert (X : h * (C + 1) <= Rabs (a 0%nat) / 2). { apply (Rmult_le_reg_r (/ (C + 1))); [apply Rinv_0_lt_compat; lra|]. rewrite Rmult_assoc, Rinv_r by lra. unfold Rdiv in *. lra. } nra. }
    specialize (H h ltac:(lra)). replace (0 + a 0%nat * 1) with (a 0%nat) in H by ring. replace (C * (h * 1)) with (C * h) in H by ring.
    assert (T : Rabs (a 0%nat) <= Rabs (phi h) + Rabs (phi h - a 0%nat)). { replace (a 0%nat) with (phi h - (phi h - a 0%nat)) at 1 by ring. eapply Rle_trans; [apply Rabs_triang|]. rewrite Rabs_Ropp. lra. }
    lra. }
  assert (OI : bigO 0 (fun h => / phi h)).
  { destruct NZ as (h0 & Hh & H). assert (Pa : 0 < Rabs (a 0%nat)) by now apply Rabs_pos_lt. exists (2 / Rabs (a 0%nat)), h0. split; [apply Rlt_le, Rdiv_lt_0_compat; lra|split; auto].
    intros h Hr. specialize (H h Hr). assert (phi h <> 0) by (intros E; rewrite E, Rabs_R0 in H; lra). rewrite Rabs_inv by auto. cbn. rewrite Rmult_1_r.
    replace (2 / Rabs (a 0%nat)) with (/ (Rabs (a 0%nat) / 2)) by (field; lra). apply Rinv_le_contravar; lra. }
  assert (P : bigO k (fun h => 1 - psum k a h * psum k (rec4 a) h)).
  { destruct k as [|[|[|[|[|k]]]]]; [lia|..|lia]; cbn [psum rec4 sq]; set (b0 := / a 0%nat); set (b1 := - b0 * (a 1%nat * b0)); set (b2 := - b0 * (a 1%nat * b1 + a 2%nat * b0)); set (b3 := - b0 * (a 1%nat * b2 + a 2%nat * b1 + a 3%nat * b0));
      assert (E0 : a 0%nat * b0 = 1) by (unfold b0; now field); assert (E1 : a 0%nat * b1 + a 1%nat * b0 = 0) by (unfold b1; replace (a 0%nat * (- b0 * (a 1%nat * b0))) with (- (a 0%nat * b0) * (a 1%nat * b0)) by ring; rewrite E0; ring);
      assert (E2 : a 0%nat * b2 + a 1%nat * b1 + a 2%nat * b0 = 0) by (unfold b2; replace (a 0%nat * (- b0 * (a 1%nat * b1 + a 2%nat * b0))) with (- (a 0%nat * b0) * (a 1%nat * b1 + a 2%nat * b0)) by ring; rewrite E0; ring);
      assert (E3 : a 0%nat * b3 + a 1%nat * b2 + a 2%nat * b1 + a 3%nat * b0 = 0) by (unfold b3; replace (a 0%nat * (- b0 * (a 1%nat * b2 + a 2%nat * b1 + a 3%nat * b0))) with (- (a 0%nat * b0) * (a 1%nat * b2 + a 2%nat * b1 + a 3%nat * b0)) by ring; rewrite E0; ring);
      clearbody b0 b1 b2 b3.
    - apply (O_ext _ (fun h => 0)); [intros h|apply O_zero]. transitivity (1 - a 0%nat * b0); [rewrite E0; ring|ring].
    - apply (O_ext _ (fun h => (- (a 1%nat * b1)) * h ^ 2)); [intros h|apply O_hpow].
      transitivity (1 - (a 0%nat * b0) - (a 0%nat * b1 + a 1%nat * b0) * h - a 1%nat * b1 * (h * h)); [rewrite E0, E1; ring|ring].
    - apply (O_ext _ (fun h => (- (a 1%nat * b2 + a 2%nat * b1)) * h ^ 3 + (- (a 2%nat * b2)) * h ^ 4)); [intros h|apply O_add; [apply O_hpow|apply (O_weaken 4); [lia|apply O_hpow]]].
      transitivity (1 - (a 0%nat * b0) - (a 0%nat * b1 + a 1%nat * b0) * h - (a 0%nat * b2 + a 1%nat * b1 + a 2%nat * b0) * h ^ 2 + (- (a 1%nat * b2 + a 2%nat * b1)) * h ^ 3 + (- (a 2%nat * b2)) * h ^ 4); [rewrite E0, E1, E2; ring|ring].
    - apply (O_ext _ (fun h => (- (a 1%nat * b3 + a 2%nat * b2 + a 3%nat * b1)) * h ^ 4 + ((- (a 2%nat * b3 + a 3%nat * b2)) * h ^ 5 + (- (a 3%nat * b3)) * h ^ 6)));
        [intros h|apply O_add; [apply O_hpow|]; apply O_add; [apply (O_weaken 5)|apply (O_weaken 6)]; try lia; apply O_hpow].
      transitivity (1 - (a 0%nat * b0) - (a 0%nat * b1 + a 1%nat * b0) * h - (a 0%nat * b2 + a 1%nat * b1 + a 2%nat * b0) * h ^ 2 - (a 0%nat * b3 + a 1%nat * b2 + a 2%nat * b1 + a 3%nat * b0) * h ^ 3
         + ((- (a 1%nat * b3 + a 2%nat * b2 + a 3%nat * b1)) * h ^ 4 + ((- (a 2%nat * b3 + a 3%nat * b2)) * h ^ 5 + (- (a 3%nat * b3)) * h ^ 6))); [rewrite E0, E1, E2, E3; ring|ring]. }
  (* 1/phi - B = (1/phi) (1 - phi B) = (1/phi) ((1 - A B) - (phi - A) B) *)
  assert (Q : bigO k (fun h => / phi h * ((1 - psum k a h * psum k (rec4 a) h) - (phi h - psum k a h) * psum k (rec4 a) h))).
  { apply (O_mul 0 k); auto. apply O_sub; auto. rewrite <- (Nat.add_0_r k) at 1. apply O_mul; auto. apply psum_O. }
  destruct Q as (C & h1 & HC & Hh & H). destruct NZ as (h0 & Hh0 & NZ). assert (Pa : 0 < Rabs (a 0%nat)) by now apply Rabs_pos_lt.
  exists C, (Rmin h0 h1). split; [auto|split; [now apply Rmin_glb_lt|]]. intros h Hr. pose proof (Rmin_l h0 h1). pose proof (Rmin_r h0 h1).
  specialize (NZ h ltac:(lra)). assert (phi h <> 0) by (intros E; rewrite E, Rabs_R0 in NZ; lra).
  specialize (H h ltac:(lra)). refine (Rle_trans _ _ _ (Req_le _ _ _) H). f_equal. now field.
Qed.
(** the coefficients are determined *)
Lemma ex_0 phi a : ex 1 phi a -> phi 0 = a 0%nat.
Proof.
  intros (C & h0 & HC & Hh & H). specialize (H 0 ltac:(lra)). cbn in H. replace (C * (0 * 1)) with 0 in H by ring.
  pose proof (Rabs_pos (phi 0 - (0 + a 0%nat * 1))) as P. assert (E : Rabs (phi 0 - (0 + a 0%nat * 1)) = 0) by lra. apply Rabs_eq_0 in E. lra.
Qed.
(** integration: if phi' has an expansion, so has phi, one order better *)
Lemma ex_integrate k phi dphi a y0 T : 0 < T -> (forall t, 0 <= t < T -> is_derive phi t (dphi t)) -> phi 0 = y0 -> ex k dphi a ->
  ex (S k) phi (fun j => match j with O => y0 | S i => a i / INR (S i) end).
Proof.
  intros HT HD H0 (C & h0 & HC & Hh & H). set (b := fun j => match j with O => y0 | S i => a i / INR (S i) end).
  assert (DP : forall m t, is_derive (psum (S m) b) t (psum m a t)).
  { induction m as [|m IH]; intros t.
    - cbn [psum]. apply (is_derive_ext (fun _ => b O)); [intros t0; symmetry; apply (eq_trans (Rplus_0_l _) (Rmult_1_r _))|]. apply (is_derive_const (b O : R_NormedModule)).
    - cbn [psum]. change (is_derive (fun h => psum (S m) b h + b (S m) * h ^ (S m)) t (psum m a t + a m * t ^ m)). apply (is_derive_plus (psum (S m) b) (fun h => b (S m) * h ^ S m)); auto.
      evar_last; [apply (is_derive_scal (fun h => h ^ S m)), (is_derive_pow (fun h => h)), (is_derive_id (K := R_AbsRing))|].
      cbn [b pred]. unfold one. cbn -[INR pow]. field. apply not_0_INR. lia. }
  exists C, (Rmin h0 (T / 2)). split; [auto|split; [apply Rmin_glb_lt; lra|]]. intros h Hr. pose proof (Rmin_l h0 (T / 2)). pose proof (Rmin_r h0 (T / 2)).
  set (d := fun t => phi t - psum (S k) b t).
  assert (Dd : forall t, 0 <= t < T -> is_derive d t (dphi t - psum k a t)).
  { intros t Ht. apply (is_derive_minus phi (psum (S k) b)); auto. }
  destruct (MVT_gen d 0 h (fun t => dphi t - psum k a t)) as (c & Hc & Ec).
  { intros x Hx. rewrite Rmin_left, Rmax_right in Hx by lra. apply Dd. lra. }
  { intros x Hx. rewrite Rmin_left, Rmax_right in Hx by lra. apply derivable_continuous_pt. exists (dphi x - psum k a x). apply is_derive_Reals, Dd. lra. }
  rewrite Rmin_left, Rmax_right in Hc by lra.
  assert (D0 : d 0 = 0).
  { unfold d. rewrite H0. assert (E : forall m, psum (S m) b 0 = y0). { induction m; [cbn; ring|]. change (psum (S m) b 0 + b (S m) * 0 ^ S m = y0). rewrite IHm. cbn [pow]. ring. } rewrite E. ring. }
  change (Rabs (d h) <= C * h ^ S k). replace (d h) with ((dphi c - psum k a c) * h) by (rewrite D0 in Ec; lra).
  rewrite Rabs_mult, (Rabs_pos_eq h) by lra. specialize (H c ltac:(lra)). cbn [pow].
  assert (P : c ^ k <= h ^ k) by (apply pow_incr; lra). assert (P0 : 0 <= c ^ k) by (apply pow_le; lra).
  apply Rle_trans with (C * c ^ k * h); [apply Rmult_le_compat_r; lra|]. apply Rle_trans with (C * h ^ k * h); [|lra]. apply Rmult_le_compat_r; [lra|]. now apply Rmult_le_compat_l.
Qed.
