(** * Doubles up to a sign: IEEE addition and multiplication, rounding to nearest, do not prefer a sign. *)
From Coq Require Import ZArith SpecFloat Bool Lia.
From Verif Require Import Base Arith.

(** y is x (s = false) or minus x (s = true); the sign of a zero and the payload of a NaN are not looked at *)
Definition rel (s : bool) (x y : spec_float) : Prop :=
  match x, y with
  | S754_nan, S754_nan => True
  | S754_zero _, S754_zero _ => True
  | S754_infinity a, S754_infinity b => b = xorb s a
  | S754_finite a m e, S754_finite b m' e' => b = xorb s a /\ m = m' /\ e = e'
  | _, _ => False
  end.
Definition zero (x : spec_float) : Prop := match x with S754_zero _ => True | _ => False end.

Lemma rel_refl x : rel false x x.
Proof. destruct x; cbn; auto; destruct s; auto. Qed.
Lemma rel_opp x : rel true x (SFopp x).
Proof. destruct x; cbn; auto; destruct s; auto. Qed.
Lemma rel_opp2 s x y : rel s x y -> rel s (SFopp x) (SFopp y).
Proof. destruct x, y; cbn; intuition (subst; auto); destruct s, s0; auto. Qed.
Lemma rel_zero s x y : zero x -> zero y -> rel s x y.
Proof. destruct x, y; cbn; tauto. Qed.
Lemma rel_is_zero s x y : rel s x y -> (zero x <-> zero y).
Proof. destruct x, y; cbn; tauto. Qed.

Section Ops.
Notation prec := 53%Z.
Notation emax := 1024%Z.
Lemma round_aux s a m e l : rel s (binary_round_aux prec emax a m e l) (binary_round_aux prec emax (xorb s a) m e l).
Proof.
  unfold binary_round_aux. destruct (shr_fexp prec emax m e l) as [r e1]. destruct (shr_fexp prec emax _ e1 loc_Exact) as [r2 e2].
  destruct (shr_m r2); [exact I| |exact I]. destruct (Z.leb _ _); cbn; auto.
Qed.
Lemma round_ s a m e : rel s (binary_round prec emax a m e) (binary_round prec emax (xorb s a) m e).
Proof. unfold binary_round. destruct (shl_align m e _) as [mz ez]. apply round_aux. Qed.
Lemma normalize_ s m e z z' : rel s (binary_normalize prec emax m e z) (binary_normalize prec emax (cond_Zopp s m) e z').
Proof. destruct m; cbn; destruct s; cbn; auto; try apply (round_ true); apply (round_ false). Qed.
Lemma cond_sum s a b x y : (cond_Zopp (xorb s a) x + cond_Zopp (xorb s b) y = cond_Zopp s (cond_Zopp a x + cond_Zopp b y))%Z.
Proof. destruct s, a, b; cbn; lia. Qed.
Lemma cond_diff s a b x y : (cond_Zopp (xorb s a) x - cond_Zopp (xorb s b) y = cond_Zopp s (cond_Zopp a x - cond_Zopp b y))%Z.
Proof. destruct s, a, b; cbn; lia. Qed.
Lemma rel_add s x y x' y' : rel s x x' -> rel s y y' -> rel s (SFadd prec emax x y) (SFadd prec emax x' y').
Proof.
  destruct x as [a|a| |a m e], x' as [a'|a'| |a' m' e']; cbn [rel]; intros H; try contradiction; destruct y as [b|b| |b n f], y' as [b'|b'| |b' n' f']; cbn [rel]; intros K; try contradiction;
    repeat match goal with H : _ /\ _ |- _ => destruct H end; subst; cbn [SFadd rel]; auto;
    try (destruct a, a', b, b'; cbn; auto; fail); try (destruct s, a, b; cbn; auto; fail).
  cbv zeta. rewrite cond_sum. apply normalize_.
Qed.
Lemma rel_sub s x y x' y' : rel s x x' -> rel s y y' -> rel s (SFsub prec emax x y) (SFsub prec emax x' y').
Proof.
  destruct x as [a|a| |a m e], x' as [a'|a'| |a' m' e']; cbn [rel]; intros H; try contradiction; destruct y as [b|b| |b n f], y' as [b'|b'| |b' n' f']; cbn [rel]; intros K; try contradiction;
    repeat match goal with H : _ /\ _ |- _ => destruct H end; subst; cbn [SFsub rel]; auto;
    try (destruct a, a', b, b'; cbn; auto; fail); try (destruct s, a, b; cbn; auto; fail); try (destruct s, b; cbn; auto; fail).
  cbv zeta. rewrite cond_diff. apply normalize_.
Qed.
Lemma rel_mul s t x y x' y' : rel s x x' -> rel t y y' -> rel (xorb s t) (SFmul prec emax x y) (SFmul prec emax x' y').
Proof.
  destruct x as [a|a| |a m e], x' as [a'|a'| |a' m' e']; cbn [rel]; intros H; try contradiction; destruct y as [b|b| |b n f], y' as [b'|b'| |b' n' f']; cbn [rel]; intros K; try contradiction;
    repeat match goal with H : _ /\ _ |- _ => destruct H end; subst; cbn [SFmul rel]; auto;
    try (destruct s, t, a, b; cbn; auto; fail).
  replace (xorb (xorb s a) (xorb t b)) with (xorb (xorb s t) (xorb a b)) by (destruct s, t, a, b; reflexivity). apply round_aux.
Qed.
(** a quotient by zero is an infinity whose sign is the zero's: the divisor is the same number, or not zero *)
Lemma rel_div s t x y x' y' : rel s x x' -> rel t y y' -> (y = y' /\ t = false) \/ ~ zero y -> rel (xorb s t) (SFdiv prec emax x y) (SFdiv prec emax x' y').
Proof.
  destruct x as [a|a| |a m e], x' as [a'|a'| |a' m' e']; cbn [rel]; intros H; try contradiction; destruct y as [b|b| |b n f], y' as [b'|b'| |b' n' f']; cbn [rel zero]; intros K Z; try contradiction;
    repeat match goal with H : _ /\ _ |- _ => destruct H end; subst; cbn [SFdiv rel]; auto;
    try (destruct Z as [[Z ->]|Z]; [injection Z as <-|exfalso; now apply Z]);
    try (destruct s, t, a, b; cbn; auto; fail); try (destruct s, a, b; cbn; auto; fail).
  replace (xorb (xorb s a) (xorb t b)) with (xorb (xorb s t) (xorb a b)) by (destruct s, t, a, b; reflexivity).
  destruct (SFdiv_core_binary prec emax _ _ _ _) as [[mz ez] lz]. apply round_aux.
Qed.
Lemma rel_pow s x y n : rel s x y -> rel (if Nat.even n then false else s) (sf_pow x n) (sf_pow y n).
Proof.
  intros H. induction n as [|n IH]; [apply rel_refl|]. cbn [sf_pow]. destruct n as [|n]; [exact H|].
  pose proof (rel_mul _ _ _ _ _ _ H IH) as G. replace (if Nat.even (S (S n)) then false else s) with (xorb s (if Nat.even (S n) then false else s)); [exact G|].
  rewrite (Nat.even_succ (S n)), <- Nat.negb_even. destruct (Nat.even (S n)); destruct s; reflexivity.
Qed.
(** zero times anything, and zero over a non-zero divisor: zero or NaN, whatever the sign of the other number *)
Lemma rel_zero_mul s t z x y : zero z -> rel s x y -> rel t (SFmul prec emax z x) (SFmul prec emax z y).
Proof. destruct z; try contradiction. intros _. destruct x, y; cbn; tauto. Qed.

(** rounding a number gives a number or an infinity, never a NaN *)
Lemma shr_1_pos r : (0 <= shr_m r)%Z -> (0 <= shr_m (shr_1 r))%Z.
Proof. destruct r as [[|p|p] r1 r2]; cbn; intros H; try lia; destruct p; cbn; lia. Qed.
Lemma iter_shr (p : positive) : forall r, (0 <= shr_m r)%Z -> (0 <= shr_m (SpecFloat.iter_pos shr_1 p r))%Z.
Proof. induction p; intros r H; cbn; auto using shr_1_pos. Qed.
Lemma fexp_pos m e l : (0 <= m)%Z -> (0 <= shr_m (fst (shr_fexp prec emax m e l)))%Z.
Proof.
  intros H. unfold shr_fexp, shr. assert (H1 : (0 <= shr_m (shr_record_of_loc m l))%Z) by (destruct l as [|[]]; exact H).
  destruct (_ - e)%Z; cbn [fst]; auto using iter_shr.
Qed.
Lemma even_pos m l : (0 <= m)%Z -> (0 <= round_nearest_even m l)%Z.
Proof. intros H. destruct l as [|[]]; cbn; try lia. destruct (Z.even m); lia. Qed.
Lemma aux_num s m e l : (0 <= m)%Z -> binary_round_aux prec emax s m e l <> S754_nan.
Proof.
  intros H. unfold binary_round_aux. destruct (shr_fexp prec emax m e l) as [r e1] eqn:E1. destruct (shr_fexp prec emax _ e1 loc_Exact) as [r2 e2] eqn:E2.
  pose proof (fexp_pos m e l H) as A. rewrite E1 in A. cbn [fst] in A. pose proof (fexp_pos _ e1 loc_Exact (even_pos _ (loc_of_shr_record r) A)) as B. rewrite E2 in B. cbn [fst] in B.
  destruct (shr_m r2); [discriminate| |lia]. now destruct (Z.leb _ _).
Qed.
Lemma normalize_num m e z : binary_normalize prec emax m e z <> S754_nan.
Proof.
  destruct m; cbn; [discriminate| |]; unfold binary_round; destruct (shl_align _ _ _); apply aux_num; lia.
Qed.
(** adding a finite number makes no NaN *)
Lemma add_num x s m e : SFadd prec emax x (S754_finite s m e) = S754_nan <-> x = S754_nan.
Proof. destruct x as [a|a| |a n f]; cbn; try (split; discriminate); [tauto|]. split; [|discriminate]. intros H. destruct (normalize_num _ _ _ H). Qed.
Lemma rel_nan s x y : rel s x y -> (x = S754_nan <-> y = S754_nan).
Proof. destruct x, y; cbn; try tauto; split; discriminate. Qed.
Lemma zero_mul x y : zero x -> zero y -> zero (SFmul prec emax x y).
Proof. destruct x, y; cbn; tauto. Qed.
Lemma zero_div s z x y : zero z -> ~ zero x -> ~ zero y -> (x = S754_nan <-> y = S754_nan) -> rel s (SFdiv prec emax z x) (SFdiv prec emax z y).
Proof.
  intros Z X Y [N M]. destruct z; try contradiction. destruct x, y; cbn in *; auto; try tauto; first [discriminate (N eq_refl)|discriminate (M eq_refl)].
Qed.
Lemma zero_div_k z a : zero z -> (exists s m e, a = S754_finite s m e) -> zero (SFdiv prec emax z a).
Proof. intros Z (s & m & e & ->). destruct z; try contradiction. exact I. Qed.
Lemma opp_trans x y z : rel true x y -> rel true x z -> rel false y z.
Proof.
  destruct x, y, z; cbn; try tauto; intros; repeat match goal with H : _ /\ _ |- _ => destruct H end; subst; auto;
    repeat match goal with b : bool |- _ => destruct b end; auto.
Qed.
End Ops.
