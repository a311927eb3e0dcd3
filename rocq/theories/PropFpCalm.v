(** * C103: which finite values of the field are calm: all but 1 and -1, unless k(f) vanishes. *)
From Coq Require Import ZArith Reals SpecFloat Bool Lra Lia.
From Verif Require Import Base Arith MEom FpSpec Fp FpErr FpKerr FpSign PropFpSign.
Local Open Scope R_scope.

Lemma val_zero x : zero x -> val x = 0.
Proof. destruct x; cbn; tauto. Qed.
Lemma one_ok : fin (sf_ofZ 1) /\ val (sf_ofZ 1) = 1.
Proof. apply (ofZ_ok 1). reflexivity. Qed.
(** a double that is not -1 is at least 2^-53 away from it *)
Lemma gap f : fin f -> val f <> - 1 -> / 2 ^ 53 <= Rabs (val f + 1).
Proof.
  intros F N. destruct (Rle_lt_dec (/ 2) (Rabs (val f))) as [H|H].
  - destruct (half_grid f F H) as (z & Z). assert (P : (0 : R) < / 2 ^ 53) by (apply Rinv_0_lt_compat, pow_lt; lra).
    assert (E : (val f + 1 = IZR (z + 2 ^ 53) * / 2 ^ 53)%R).
    { assert (Q : IZR (2 ^ 53) = 2 ^ 53) by (rewrite (pow_IZR 2 53); f_equal). rewrite Z, plus_IZR, Q, Rmult_plus_distr_r, Rinv_r; [reflexivity|]. apply pow_nonzero. lra. }
    rewrite E, Rabs_mult, (Rabs_right (/ 2 ^ 53)) by lra. rewrite <- (Rmult_1_l (/ 2 ^ 53)) at 1. apply Rmult_le_compat_r; [lra|].
    rewrite <- abs_IZR. apply (IZR_le 1). assert ((z + 2 ^ 53)%Z <> 0%Z); [|lia]. intros Q. apply N. rewrite Q, Rmult_0_l in E. lra.
  - apply Rle_trans with (/ 2). { apply Rinv_le_contravar; [lra|]. pose proof (Rle_pow 2 1 53 ltac:(lra) ltac:(lia)). lra. }
    destruct (Rabs_def2 _ _ H). rewrite Rabs_right; lra.
Qed.
Lemma Rabs_le_inv x y : Rabs x <= y -> - y <= x <= y.
Proof. unfold Rabs. destruct (Rcase_abs x); lra. Qed.
Lemma pow2_2 n : 0 < 2 ^ n. Proof. apply pow_lt. lra. Qed.

Section Calm.
Variables (lexp llog lcos lsin lacos : spec_float -> spec_float) (lpi : spec_float).
#[local] Hint Extern 0 (Arith spec_float) => exact (b64_here lexp llog lcos lsin lacos lpi) : typeclass_instances.
Local Notation cal := (calm lexp llog lcos lsin lacos lpi).
Local Notation k_ := (k_of lexp llog lcos lsin lacos lpi).
Lemma square_nz f : fin f -> Rabs (val f) <= 2 ^ 500 -> val f <> - 1 -> ~ zero ((f + #1) ^^ 2)%f.
Proof.
  intros F B N Z. destruct one_ok as (F1 & V1). pose proof (gap f F N) as G. set (s := val f + 1) in *.
  assert (Bs : Rabs s <= 2 ^ 501). { unfold s. eapply Rle_trans; [apply Rabs_triang|]. rewrite (Rabs_right 1) by lra. change (2 ^ 501) with (2 * 2 ^ 500).
    assert (1 <= 2 ^ 500) by (apply pow_R1_Rle; lra). lra. }
  assert (L : 2 ^ 501 <= big) by (unfold big; apply Rle_pow; [lra|lia]).
  destruct (add_ok f (sf_ofZ 1) F F1) as (Fq & d & Hd & Vq); [rewrite V1; fold s; lra|]. rewrite V1 in Vq. fold s in Vq.
  set (q := SFadd 53 1024 f (sf_ofZ 1)) in *.
  assert (U : uu <= / 4). { unfold uu. apply Rinv_le_contravar; [lra|]. replace 4 with (2 ^ 2) by ring. apply Rle_pow; [lra|lia]. }
  assert (D : / 2 <= Rabs (1 + d) <= 2). { destruct (Rabs_le_inv _ _ Hd). rewrite Rabs_right; lra. }
  assert (Q1 : / 2 ^ 54 <= Rabs (val q)).
  { rewrite Vq, Rabs_mult. replace (/ 2 ^ 54) with (/ 2 ^ 53 * / 2) by (change (2 ^ 54) with (2 * 2 ^ 53); rewrite Rinv_mult; ring).
    assert (0 < / 2 ^ 53) by (apply Rinv_0_lt_compat, pow2_2). apply Rmult_le_compat; lra. }
  assert (Q2 : Rabs (val q) <= 2 ^ 502).
  { rewrite Vq, Rabs_mult. replace (2 ^ 502) with (2 ^ 501 * 2) by (change (2 ^ 502) with (2 * 2 ^ 501); ring). apply Rmult_le_compat; try lra; apply Rabs_pos. }
  destruct (mul_ok q q Fq Fq) as (_ & d2 & e & Hd2 & He & V).
  { rewrite Rabs_mult. apply Rle_trans with (2 ^ 502 * 2 ^ 502); [apply Rmult_le_compat; try lra; apply Rabs_pos|]. rewrite <- pow_add. unfold big. apply Rle_pow; [lra|lia]. }
  pose proof (val_zero _ Z) as V0. change (val (SFmul 53 1024 q q) = 0) in V0. rewrite V0 in V.
  assert (S : / 2 ^ 108 <= val q * val q).
  { replace (val q * val q) with (Rabs (val q) * Rabs (val q)) by (rewrite <- Rabs_mult; apply Rabs_right; nra).
    replace (/ 2 ^ 108) with (/ 2 ^ 54 * / 2 ^ 54) by (rewrite <- Rinv_mult; f_equal; rewrite <- pow_add; reflexivity).
    assert (0 < / 2 ^ 54) by (apply Rinv_0_lt_compat, pow2_2). apply Rmult_le_compat; lra. }
  destruct (Rabs_le_inv _ _ Hd2) as [D2 _]. destruct (Rabs_le_inv _ _ He) as [E2 _].
  assert (T : eta <= / 2 ^ 108 * / 4).
  { unfold eta. rewrite <- Rinv_mult. apply Rinv_le_contravar; [apply Rmult_lt_0_compat; [apply pow2_2|lra]|]. replace 4 with (2 ^ 2) by ring. rewrite <- pow_add. apply Rle_pow; [lra|lia]. }
  assert (P : 0 < / 2 ^ 108) by (apply Rinv_0_lt_compat, pow2_2). clear - V S D2 U E2 T P. set (h := / 2 ^ 108) in *. clearbody h. nra.
Qed.
(** every finite field value of reasonable size but 1 and -1 is calm, if k(f) is not zero there *)
Theorem C103_calm e f : fin f -> Rabs (val f) <= 2 ^ 500 -> val f <> 1 -> val f <> - 1 -> ~ zero (k_ e f) -> cal e f.
Proof.
  intros F B N1 N2 K. destruct (opp_ok f F) as (F' & V'). split; [now apply square_nz|]. split; [|exact K].
  apply square_nz; [exact F'| |]; change (fopp f) with (SFopp f); rewrite V'; [now rewrite Rabs_Ropp|]. intros Q. apply N1. lra.
Qed.
(** and 1 and -1 are not *)
Theorem C103_not_calm e f : fin f -> val f = 1 \/ val f = - 1 -> ~ cal e f.
Proof.
  intros F H (A & B & _). destruct one_ok as (F1 & V1). destruct (opp_ok f F) as (F' & V').
  assert (G : forall x, fin x -> val x = - 1 -> zero ((x + #1) ^^ 2)%f).
  { intros x Fx Vx. assert (Z : zero (SFadd 53 1024 x (sf_ofZ 1))).
    { destruct (add_ok x (sf_ofZ 1) Fx F1) as ((_ & Fq) & d & _ & V); [rewrite Vx, V1; replace (- 1 + 1) with 0 by ring; rewrite Rabs_R0; apply Rlt_le, big_pos|].
      rewrite Vx, V1 in V. replace ((- 1 + 1) * (1 + d)) with 0 in V by ring. destruct (SFadd 53 1024 x (sf_ofZ 1)) as [s|s| |s m h]; try contradiction; [exact I|].
      exfalso. cbn [val] in V. revert V. assert (0 < IZR (Z.pos m)) by (apply IZR_lt; lia). assert (0 < powerRZ 2 h) by (apply powerRZ_lt; lra). destruct s; nra. }
    change (zero (SFmul 53 1024 (SFadd 53 1024 x (sf_ofZ 1)) (SFadd 53 1024 x (sf_ofZ 1)))). now apply zero_mul. }
  destruct H as [H|H]; [apply B|apply A]; apply G; auto. change (fopp f) with (SFopp f). rewrite V'. lra.
Qed.

(** a massless theory at f = 3 *)
Example C103_calm_nonvacuous : exists e f, even_theory e /\ fin f /\ Rabs (val f) <= 2 ^ 500 /\ val f <> 1 /\ val f <> - 1 /\ ~ zero (k_ e f).
Proof.
  exists (Eom 0 f0 f0 (sf_ofZ 1) f0 f0 f0 f0 f0 nil (Scr nil nil nil nil nil nil nil)), (sf_ofZ 3).
  destruct (ofZ_ok 3 eq_refl) as (F & V). change (val (sf_ofZ 3) = 3) in V. split; [repeat split|]. split; [exact F|]. rewrite V.
  split; [|split; [lra|split; [lra|]]].
  - rewrite Rabs_right by lra. apply Rle_trans with (2 ^ 2); [lra|]. apply Rle_pow; [lra|lia].
  - assert (Q : is_fin (k_of (lexp) llog lcos lsin lacos lpi (Eom 0 f0 f0 (sf_ofZ 1) f0 f0 f0 f0 f0 nil (Scr nil nil nil nil nil nil nil)) (sf_ofZ 3)) /\
      SFltb f0 (k_of (lexp) llog lcos lsin lacos lpi (Eom 0 f0 f0 (sf_ofZ 1) f0 f0 f0 f0 f0 nil (Scr nil nil nil nil nil nil nil)) (sf_ofZ 3)) = true) by (split; vm_compute; reflexivity || exact I).
    intros Z. destruct Q as (_ & Q). destruct (k_of _ _ _ _ _ _ _ _) as [z|z| |z m h]; try contradiction. discriminate Q.
Qed.
End Calm.
