(** * Sums of non-negative doubles in an arbitrary order of additions. *)
From Coq Require Import ZArith Reals SpecFloat Bool Lra Lia List Permutation.
From Flocq Require Import Core BinarySingleNaN Relative Plus_error.
From Verif Require Import FpSpec Fp FpErr.
Import ListNotations.
Local Open Scope R_scope.
#[local] Existing Instance Hp.
#[local] Existing Instance Hm.

(** ** what a finite result says about the operands *)
Lemma add_inv x y : is_double x -> is_double y -> fin (SFadd 53 1024 x y) ->
  fin x /\ fin y /\ exists d, Rabs d <= uu /\ val (SFadd 53 1024 x y) = (val x + val y) * (1 + d).
Proof.
  intros Dx Dy [_ F].
  assert (FF : is_fin x /\ is_fin y).
  { destruct x as [sx|sx| |sx mx ex], y as [sy|sy| |sy my ey]; cbn in F |- *; try tauto; try (destruct (Bool.eqb sx sy); cbn in F; tauto). }
  destruct FF as [Fx Fy]. split; [now split|]. split; [now split|].
  assert (Gx := fin_format x (conj Dx Fx)). assert (Gy := fin_format y (conj Dy Fy)).
  destruct (FLT_plus_error_N_ex radix2 (SpecFloat.emin 53 1024) 53 (fun x => negb (Z.even x)) (val x) (val y) Gx Gy) as (d & Hd & E).
  destruct (double_B x Dx) as [a ->], (double_B y Dy) as [b ->]. rewrite !val_B in *. rewrite fin_B in Fx, Fy.
  rewrite SFadd_B in *. assert (Q := Bplus_correct 53 1024 Hp Hm mode_NE a b Fx Fy).
  destruct (Rlt_bool _ _).
  - destruct Q as (Q1 & Q2 & _). exists d. split; [|rewrite val_B, Q1; exact E].
    eapply Rle_trans; [exact Hd|]. unfold u_ro. change (/ 2 * bpow radix2 (- (53) + 1)) with (/ 2 * bpow radix2 (-53 + 1)). rewrite uu_eq. unfold uu.
    assert (P : 0 < / 2 ^ 53) by (apply Rinv_0_lt_compat, pow_lt; lra).
    clear - P. set (z := / 2 ^ 53) in *. clearbody z. apply Rmult_le_reg_r with (1 + z); [lra|]. unfold Rdiv.
    rewrite Rmult_assoc, Rinv_l by lra. nra.
  - destruct Q as (Q1 & _). rewrite Q1 in F. destruct F.
Qed.
Lemma rnd_ge_0 x : 0 <= x -> 0 <= rnd x.
Proof.
  intro H. rewrite <- (round_0 radix2 (SpecFloat.fexp 53 1024) (round_mode mode_NE)). apply round_le; [apply (fexp_correct 53 1024 Hp)|apply valid_rnd_N|exact H].
Qed.
(** a square is never negative *)
Lemma sq_inv x : is_double x -> fin (SFmul 53 1024 x x) -> 0 <= val (SFmul 53 1024 x x).
Proof.
  intros Dx [_ F]. destruct (double_B x Dx) as [a ->]. rewrite SFmul_B in *. rewrite val_B.
  assert (Q := Bmult_correct 53 1024 Hp Hm mode_NE a a). destruct (Rlt_bool _ _).
  - destruct Q as (Q1 & _). rewrite Q1. apply rnd_ge_0. nra.
  - rewrite Q in F. destruct F.
Qed.
(** nor is a square root *)
Lemma sqrt_nonneg x : is_double x -> 0 <= val (SFsqrt 53 1024 x).
Proof.
  intros Dx. destruct (double_B x Dx) as [a ->]. rewrite SFsqrt_B, val_B.
  destruct (Bsqrt_correct 53 1024 Hp Hm mode_NE a) as (Q & _). rewrite Q. apply rnd_ge_0, sqrt_pos.
Qed.
Lemma div_inv x y : is_double x -> fin y -> 0 < val y -> fin (SFdiv 53 1024 x y) ->
  fin x /\ exists d e, Rabs d <= uu /\ Rabs e <= eta /\ val (SFdiv 53 1024 x y) = val x / val y * (1 + d) + e.
Proof.
  intros Dx [Dy Fy] P [_ F].
  assert (Fx : is_fin x). { destruct x as [sx|sx| |sx mx ex], y as [sy|sy| |sy my ey]; cbn in F |- *; tauto. }
  split; [now split|]. destruct (double_B x Dx) as [a ->], (double_B y Dy) as [b ->]. rewrite SFdiv_B, !val_B in *.
  assert (Q := Bdiv_correct 53 1024 Hp Hm mode_NE a b ltac:(lra)). destruct (Rlt_bool _ _).
  - destruct Q as (Q1 & _). rewrite Q1. apply rnd_err.
  - rewrite Q in F. destruct F.
Qed.
Lemma div_nonneg x y : fin x -> fin y -> 0 <= val x -> 0 < val y -> fin (SFdiv 53 1024 x y) -> 0 <= val (SFdiv 53 1024 x y).
Proof.
  intros [Dx Fx] [Dy Fy] P0 P [_ F]. destruct (double_B x Dx) as [a ->], (double_B y Dy) as [b ->]. rewrite SFdiv_B, !val_B in *.
  assert (Q := Bdiv_correct 53 1024 Hp Hm mode_NE a b ltac:(lra)). destruct (Rlt_bool _ _).
  - destruct Q as (Q1 & _). rewrite Q1. apply rnd_ge_0. apply Rmult_le_pos; [exact P0|]. now apply Rlt_le, Rinv_0_lt_compat.
  - rewrite Q in F. destruct F.
Qed.
Lemma sqrt_val x : is_double x -> exists d e, Rabs d <= uu /\ Rabs e <= eta /\ val (SFsqrt 53 1024 x) = sqrt (val x) * (1 + d) + e.
Proof.
  intros Dx. destruct (double_B x Dx) as [a ->]. rewrite SFsqrt_B, !val_B in *.
  destruct (Bsqrt_correct 53 1024 Hp Hm mode_NE a) as (Q & _). rewrite Q. apply rnd_err.
Qed.
Lemma sqrt_inv x : is_double x -> fin (SFsqrt 53 1024 x) -> fin x /\ 0 <= val x.
Proof.
  intros Dx [_ F]. destruct x as [s|s| |s m e].
  - split; [split; [exact Dx|exact I]|cbn; lra].
  - destruct s; destruct F.
  - destruct F.
  - destruct s; [destruct F|]. split; [split; [exact Dx|exact I]|]. cbn [val]. rewrite Rmult_1_l. apply Rmult_le_pos; [apply IZR_le; lia|].
    apply powerRZ_le. lra.
Qed.
Lemma sqrt_fin x : fin x -> 0 <= val x -> fin (SFsqrt 53 1024 x).
Proof.
  intros [Dx Fx] H. split; [apply sqrt_double, Dx|].
  destruct x as [s|s| |s m e]; cbn in Fx; try tauto.
  destruct s.
  - exfalso. cbn in H. assert (0 < IZR (Zpos m)) by (apply IZR_lt; lia). assert (0 < powerRZ 2 e) by (apply powerRZ_lt; lra).
    assert (0 < IZR (Zpos m) * powerRZ 2 e) by now apply Rmult_lt_0_compat. lra.
  - destruct (double_B _ Dx) as [a E]. rewrite E, SFsqrt_B. apply fin_B.
    destruct (Bsqrt_correct 53 1024 Hp Hm mode_NE a) as (_ & Q & _). rewrite Q. destruct a as [s|s| |s m' e' B]; cbn in E; try discriminate. injection E as <- <- <-. reflexivity.
Qed.

(** ** additions in any order *)
Inductive adds : spec_float -> list spec_float -> Prop :=
| adds_nil s : adds (S754_zero s) []
| adds_one x : adds x [x]
| adds_two x y l k : adds x l -> adds y k -> adds (SFadd 53 1024 x y) (l ++ k).

Definition total (l : list spec_float) : R := fold_right (fun x a => val x + a) 0 l.
Lemma total_app l k : total (l ++ k) = total l + total k.
Proof. unfold total. induction l as [|x l IH]; cbn [app fold_right]; [ring|]. rewrite IH. ring. Qed.
Lemma total_perm l k : Permutation l k -> total l = total k.
Proof. unfold total. induction 1; cbn [fold_right] in *; lra. Qed.

(** a term of the sum: a double that is not negative (it may be infinite or NaN) *)
Definition nonneg (x : spec_float) : Prop := is_double x /\ 0 <= val x.

Lemma adds_double x l : adds x l -> (forall t, In t l -> nonneg t) -> is_double x.
Proof.
  induction 1 as [s|x|x y l k A IA B IB]; intro H; [reflexivity|apply H; now left|].
  apply add_double; [apply IA|apply IB]; intros t Ht; apply H, in_or_app; auto.
Qed.
Lemma total_nonneg l : (forall t, In t l -> nonneg t) -> 0 <= total l.
Proof.
  induction l as [|x l IH]; intro H; [cbn; lra|]. change (total (x :: l)) with (val x + total l). assert (N := H x (or_introl eq_refl)). destruct N as [_ N].
  assert (0 <= total l) by (apply IH; intros; apply H; now right). lra.
Qed.
Lemma uu_pos : 0 < uu. Proof. apply Rinv_0_lt_compat, pow2_pos. Qed.
Lemma uu_lt1 : uu < 1 / 1000.
Proof. rewrite ww_uu. assert (H := ww_small). assert (P := ww_pos). lra. Qed.

Lemma pow_dec a n m : 0 <= a <= 1 -> (n <= m)%nat -> a ^ m <= a ^ n.
Proof.
  intros A H. induction H as [|m H IH]; [lra|]. eapply Rle_trans; [|exact IH]. cbn [pow]. assert (Q : 0 <= a ^ m) by (apply pow_le; lra).
  replace (a ^ m) with (1 * a ^ m) at 2 by ring. apply Rmult_le_compat_r; lra.
Qed.
Lemma pow_inc a n m : 1 <= a -> (n <= m)%nat -> a ^ n <= a ^ m.
Proof. intros. now apply Rle_pow. Qed.

Definition within (x t : R) (n : nat) : Prop := t * (1 - uu) ^ n <= x <= t * (1 + uu) ^ n.
Lemma within_add a s n b t m c d : within a s n -> within b t m -> 0 <= s -> 0 <= t -> (1 <= n)%nat -> (1 <= m)%nat ->
  Rabs d <= uu -> c = (a + b) * (1 + d) -> within c (s + t) (n + m).
Proof.
  intros [A1 A2] [B1 B2] Hs Ht N M D ->. assert (U := uu_pos). assert (U1 := uu_lt1). assert (D' : - uu <= d <= uu) by (unfold Rabs in D; destruct (Rcase_abs d); lra).
  destruct n as [|n]; [lia|]. destruct m as [|m]; [lia|].
  assert (L1 : (1 - uu) ^ (n + S m) <= (1 - uu) ^ S n) by (apply pow_dec; [lra|lia]).
  assert (L2 : (1 - uu) ^ (n + S m) <= (1 - uu) ^ S m) by (apply pow_dec; [lra|lia]).
  assert (G1 : (1 + uu) ^ S n <= (1 + uu) ^ (n + S m)) by (apply pow_inc; [lra|lia]).
  assert (G2 : (1 + uu) ^ S m <= (1 + uu) ^ (n + S m)) by (apply pow_inc; [lra|lia]).
  cbn [Nat.add]. unfold within. change ((1 - uu) ^ S (n + S m)) with ((1 - uu) * (1 - uu) ^ (n + S m)). change ((1 + uu) ^ S (n + S m)) with ((1 + uu) * (1 + uu) ^ (n + S m)).
  assert (P1 : 0 < (1 - uu) ^ (n + S m)) by (apply pow_lt; lra). assert (P2 : 0 < (1 + uu) ^ (n + S m)) by (apply pow_lt; lra).
  set (p := (1 - uu) ^ (n + S m)) in *. set (q := (1 + uu) ^ (n + S m)) in *.
  assert (X1 : (s + t) * p <= a + b).
  { apply Rle_trans with (s * (1 - uu) ^ S n + t * (1 - uu) ^ S m); [|lra]. rewrite Rmult_plus_distr_r. apply Rplus_le_compat; apply Rmult_le_compat_l; assumption. }
  assert (X2 : a + b <= (s + t) * q).
  { apply Rle_trans with (s * (1 + uu) ^ S n + t * (1 + uu) ^ S m); [lra|]. rewrite Rmult_plus_distr_r. apply Rplus_le_compat; apply Rmult_le_compat_l; assumption. }
  assert (X0 : 0 <= (s + t) * p) by (apply Rmult_le_pos; lra). assert (X3 : 0 <= (s + t) * q) by (apply Rmult_le_pos; lra).
  split.
  - replace ((s + t) * ((1 - uu) * p)) with ((s + t) * p * (1 - uu)) by ring. apply Rmult_le_compat; lra.
  - replace ((s + t) * ((1 + uu) * q)) with ((s + t) * q * (1 + uu)) by ring. apply Rmult_le_compat; lra.
Qed.

(** a finite sum: every term was finite, and the sum is right up to a factor (1 + 2^-53)^(number of terms) *)
Lemma adds_zero_fin x : adds x [] -> is_double x /\ is_fin x /\ val x = 0.
Proof.
  intro H. remember [] as l eqn:E. induction H as [s|x|x y l k A IA B IB].
  - repeat split.
  - discriminate.
  - apply app_eq_nil in E. destruct E as [E1 E2]. destruct (IA E1) as (D1 & F1 & V1). destruct (IB E2) as (D2 & F2 & V2).
    destruct (add_ok x y (conj D1 F1) (conj D2 F2)) as [[D F] (d & _ & V)].
    + rewrite V1, V2, Rplus_0_r, Rabs_R0. apply Rlt_le, big_pos.
    + split; [exact D|]. split; [exact F|]. rewrite V, V1, V2. ring.
Qed.
(** adding a zero is exact *)
Lemma fin_small_format x : fin x -> rnd (val x) = val x.
Proof. intro H. apply round_generic; [apply valid_rnd_N|]. apply fin_format, H. Qed.
Lemma add_zero_val x y : fin x -> fin y -> val y = 0 -> fin (SFadd 53 1024 x y) -> val (SFadd 53 1024 x y) = val x.
Proof.
  intros [Dx Fx] [Dy Fy] V [_ F]. assert (G := fin_small_format x (conj Dx Fx)).
  destruct (double_B x Dx) as [a ->], (double_B y Dy) as [b ->]. rewrite !val_B in *. rewrite fin_B in Fx, Fy.
  rewrite SFadd_B in *. assert (Q := Bplus_correct 53 1024 Hp Hm mode_NE a b Fx Fy). rewrite V, Rplus_0_r in Q. destruct (Rlt_bool _ _).
  - destruct Q as (Q1 & _). rewrite val_B, Q1. exact G.
  - destruct Q as (Q1 & _). rewrite Q1 in F. destruct F.
Qed.
Lemma add_zero_val_l x y : fin x -> fin y -> val x = 0 -> fin (SFadd 53 1024 x y) -> val (SFadd 53 1024 x y) = val y.
Proof.
  intros [Dx Fx] [Dy Fy] V [_ F]. assert (G := fin_small_format y (conj Dy Fy)).
  destruct (double_B x Dx) as [a ->], (double_B y Dy) as [b ->]. rewrite !val_B in *. rewrite fin_B in Fx, Fy.
  rewrite SFadd_B in *. assert (Q := Bplus_correct 53 1024 Hp Hm mode_NE a b Fx Fy). rewrite V, Rplus_0_l in Q. destruct (Rlt_bool _ _).
  - destruct Q as (Q1 & _). rewrite val_B, Q1. exact G.
  - destruct Q as (Q1 & _). rewrite Q1 in F. destruct F.
Qed.

Lemma nonempty {A} (l : list A) : l = [] \/ (1 <= length l)%nat.
Proof. destruct l; [now left|right; cbn; lia]. Qed.

Lemma adds_finite x l : adds x l -> (forall t, In t l -> nonneg t) -> fin x ->
  (forall t, In t l -> fin t) /\ within (val x) (total l) (length l).
Proof.
  induction 1 as [s|x|x y l k A IA B IB]; intros H F.
  - split; [intros t []|]. unfold within. cbn. lra.
  - split; [intros t [->|[]]; exact F|]. assert (N := H x (or_introl eq_refl)). destruct N as [_ N]. assert (U := uu_pos). unfold within. cbn. split; nra.
  - assert (Hl : forall t, In t l -> nonneg t) by (intros; apply H, in_or_app; auto).
    assert (Hk : forall t, In t k -> nonneg t) by (intros; apply H, in_or_app; auto).
    destruct (add_inv x y (adds_double _ _ A Hl) (adds_double _ _ B Hk) F) as (Fx & Fy & d & Hd & E).
    destruct (IA Hl Fx) as [Il Wl]. destruct (IB Hk Fy) as [Ik Wk]. split.
    + intros t Ht. apply in_app_or in Ht. destruct Ht; auto.
    + rewrite total_app, app_length. destruct (nonempty l) as [El|Nl].
      * subst l. destruct (adds_zero_fin x A) as (_ & _ & V). rewrite (add_zero_val_l x y Fx Fy V F). cbn [total fold_right length Nat.add]. rewrite Rplus_0_l. exact Wk.
      * destruct (nonempty k) as [Ek|Nk].
        -- subst k. destruct (adds_zero_fin y B) as (_ & _ & V). rewrite (add_zero_val x y Fx Fy V F). cbn [total fold_right length]. rewrite Rplus_0_r, Nat.add_0_r. exact Wl.
        -- eapply within_add; eauto using total_nonneg.
Qed.
(** conversely, no order of additions overflows when the exact sum is well inside the range *)
Lemma adds_in_range x l : adds x l -> (forall t, In t l -> nonneg t /\ fin t) -> total l * (1 + uu) ^ length l <= big -> fin x.
Proof.
  assert (U := uu_pos).
  induction 1 as [s|x|x y l k A IA B IB]; intros H HB.
  - split; reflexivity || exact I.
  - apply H; now left.
  - assert (Hl : forall t, In t l -> nonneg t /\ fin t) by (intros; apply H, in_or_app; auto).
    assert (Hk : forall t, In t k -> nonneg t /\ fin t) by (intros; apply H, in_or_app; auto).
    assert (Tl : 0 <= total l) by (apply total_nonneg; intros; now apply Hl). assert (Tk : 0 <= total k) by (apply total_nonneg; intros; now apply Hk).
    rewrite total_app, app_length in HB.
    assert (G1 : (1 + uu) ^ length l <= (1 + uu) ^ (length l + length k)) by (apply pow_inc; [lra|lia]).
    assert (G2 : (1 + uu) ^ length k <= (1 + uu) ^ (length l + length k)) by (apply pow_inc; [lra|lia]).
    assert (P1 : 0 < (1 + uu) ^ (length l + length k)) by (apply pow_lt; lra). assert (P2 : 0 < (1 + uu) ^ length l) by (apply pow_lt; lra). assert (P3 : 0 < (1 + uu) ^ length k) by (apply pow_lt; lra).
    assert (Bl : total l * (1 + uu) ^ length l + total k * (1 + uu) ^ length k <= big).
    { eapply Rle_trans; [|exact HB]. rewrite Rmult_plus_distr_r. apply Rplus_le_compat; apply Rmult_le_compat_l; assumption. }
    assert (Z1 : 0 <= total l * (1 + uu) ^ length l) by (apply Rmult_le_pos; lra). assert (Z2 : 0 <= total k * (1 + uu) ^ length k) by (apply Rmult_le_pos; lra).
    assert (Fx : fin x) by (apply IA; [exact Hl|lra]). assert (Fy : fin y) by (apply IB; [exact Hk|lra]).
    destruct (adds_finite x l A (fun t h => proj1 (Hl t h)) Fx) as [_ [W1 W2]]. destruct (adds_finite y k B (fun t h => proj1 (Hk t h)) Fy) as [_ [W3 W4]].
    assert (0 < (1 - uu) ^ length l) by (apply pow_lt; assert (Q := uu_lt1); lra). assert (0 < (1 - uu) ^ length k) by (apply pow_lt; assert (Q := uu_lt1); lra).
    assert (0 <= total l * (1 - uu) ^ length l) by (apply Rmult_le_pos; lra). assert (0 <= total k * (1 - uu) ^ length k) by (apply Rmult_le_pos; lra).
    destruct (add_ok x y Fx Fy) as [R _]; [rewrite Rabs_right; lra|exact R].
Qed.

(** ** from powers to linear bounds *)
Lemma bernoulli n : 1 - INR n * uu <= (1 - uu) ^ n.
Proof.
  assert (U := uu_pos). assert (U1 := uu_lt1). induction n as [|n IH]; [cbn; lra|]. rewrite S_INR. cbn [pow]. assert (N := pos_INR n).
  assert (0 < (1 - uu) ^ n) by (apply pow_lt; lra). assert (P1 : (1 - uu) ^ n <= 1) by (apply Rle_trans with (1 ^ n); [apply pow_incr; lra|rewrite pow1; lra]). nra.
Qed.
Lemma upper n : INR n * uu <= / 100 -> (1 + uu) ^ n <= 1 + 102 / 100 * (INR n * uu).
Proof.
  intro H. assert (U := uu_pos). assert (U1 := uu_lt1). assert (B := bernoulli n). assert (N := pos_INR n).
  assert (P : (1 + uu) ^ n * (1 - uu) ^ n <= 1). { rewrite <- Rpow_mult_distr. apply Rle_trans with (1 ^ n); [apply pow_incr; nra|rewrite pow1; lra]. }
  assert (Q : 0 < (1 + uu) ^ n) by (apply pow_lt; lra). set (a := (1 + uu) ^ n) in *. set (b := (1 - uu) ^ n) in *. set (x := INR n * uu) in *.
  assert (X : 0 <= x) by (unfold x; apply Rmult_le_pos; lra). clearbody a b x.
  assert (a * (1 - x) <= 1) by nra. nra.
Qed.
