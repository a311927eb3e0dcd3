(** Numerical facts about the finite-difference stencils over the reals. *)
From Coq Require Import Reals Lra List.
From Coquelicot Require Import Coquelicot.
From Verif Require Import Base Arith BaseLemmas PMake MFd PFd Spec.
Local Open Scope R_scope.

Lemma fnat_INR n : @fnat R R_arith n = INR n.
Proof. unfold fnat. cbn. symmetry. apply INR_IZR_INZ. Qed.

(** the four kinds of stencil, as functions of the centred data u(m s), s = +-dx *)
Definition der_st (k : nat) (u : R -> R) (s : R) : R :=
  match k with
  | 0%nat => der_s0 (u (0*s)) (u (1*s)) (u (2*s)) (u (3*s)) (u (4*s)) (u (5*s)) (u (6*s)) / s
  | 1%nat => der_s1 (u (-1*s)) (u (0*s)) (u (1*s)) (u (2*s)) (u (3*s)) (u (4*s)) (u (5*s)) / s
  | 2%nat => der_s2 (u (-2*s)) (u (-1*s)) (u (0*s)) (u (1*s)) (u (2*s)) (u (3*s)) (u (4*s)) / s
  | _ => der_s (u (-3*s)) (u (-2*s)) (u (-1*s)) (u (1*s)) (u (2*s)) (u (3*s)) / s
  end.
Definition der2_st (k : nat) (u : R -> R) (s : R) : R :=
  match k with
  | 0%nat => der2_s0 (u (0*s)) (u (1*s)) (u (2*s)) (u (3*s)) (u (4*s)) (u (5*s)) (u (6*s)) (u (7*s)) / (s ^ 2)
  | 1%nat => der2_s1 (u (-1*s)) (u (0*s)) (u (1*s)) (u (2*s)) (u (3*s)) (u (4*s)) (u (5*s)) (u (6*s)) / (s ^ 2)
  | 2%nat => der2_s2 (u (-2*s)) (u (-1*s)) (u (0*s)) (u (1*s)) (u (2*s)) (u (3*s)) (u (4*s)) (u (5*s)) / (s ^ 2)
  | _ => der2_s (u (-3*s)) (u (-2*s)) (u (-1*s)) (u (0*s)) (u (1*s)) (u (2*s)) (u (3*s)) / (s ^ 2)
  end.

Ltac feq := try reflexivity;
  match goal with
  | |- @eq R (Rmult _ _) _ => rewrite ?plus_INR, ?minus_INR by lia; simpl INR; ring
  | |- @eq R (pow _ _) _ => ring
  | |- _ => f_equal; feq
  end.

Lemma der_val_st n h (w : nat -> R) (u : R -> R) i :
  (7 <= n)%nat -> (i < n)%nat ->
  (forall j, (j < n)%nat -> w j = u ((INR j - INR i) * h)) ->
  exists k s, (k <= 3)%nat /\ (s = h \/ s = - h) /\ der_val n h w i = der_st k u s /\
    (forall m : Z, (- Z.of_nat k <= m <= 6 - Z.of_nat k)%Z ->
       exists j, (j < n)%nat /\ (INR j - INR i) * h = IZR m * s).
Proof.
  intros Hn Hi Hw. unfold der_val.
  destruct (Nat.eqb_spec i 0) as [->|?]; [exists 0%nat, h|].
  { repeat split; auto.
    - rewrite !Hw by lia. unfold der_st. cbn [R_arith fdiv]. feq.
    - intros m Hm. exists (Z.to_nat m). split; [lia|]. rewrite INR_IZR_INZ, Z2Nat.id by lia. simpl INR; ring. }
  destruct (Nat.eqb_spec i 1) as [->|?]; [exists 1%nat, h|].
  { repeat split; auto; try lia.
    - rewrite !Hw by lia. unfold der_st. cbn [R_arith fdiv]. feq.
    - intros m Hm. exists (Z.to_nat (m + 1)). split; [lia|]. rewrite INR_IZR_INZ, Z2Nat.id, plus_IZR by lia. simpl INR; ring. }
  destruct (Nat.eqb_spec i 2) as [->|?]; [exists 2%nat, h|].
  { repeat split; auto; try lia.
    - rewrite !Hw by lia. unfold der_st. cbn [R_arith fdiv]. feq.
    - intros m Hm. exists (Z.to_nat (m + 2)). split; [lia|]. rewrite INR_IZR_INZ, Z2Nat.id, plus_IZR by lia. simpl INR; ring. }
  assert (Op : forall a b : R, - a / b = a / - b) by (intros; unfold Rdiv; 
     destruct (Req_dec b 0) as [->|Hb]; [rewrite Ropp_0, Rinv_0; ring | field; auto]).
  destruct (Nat.eqb_spec i (n-1)) as [->|?]; [exists 0%nat, (-h)|].
  { repeat split; auto; try lia.
    - rewrite !Hw by lia. unfold der_st. cbn [R_arith fdiv fopp]. rewrite Op. feq.
    - intros m Hm. exists (Z.to_nat (Z.of_nat n - 1 - m)). split; [lia|].
      rewrite !INR_IZR_INZ, Z2Nat.id, !minus_IZR by lia. rewrite Nat2Z.inj_sub, minus_IZR by lia. simpl; ring. }
  destruct (Nat.eqb_spec i (n-2)) as [->|?]; [exists 1%nat, (-h)|].
  { repeat split; auto; try lia.
    - rewrite !Hw by lia. unfold der_st. cbn [R_arith fdiv fopp]. rewrite Op. feq.
    - intros m Hm. exists (Z.to_nat (Z.of_nat n - 2 - m)). split; [lia|].
      rewrite !INR_IZR_INZ, Z2Nat.id, !minus_IZR by lia. rewrite Nat2Z.inj_sub, minus_IZR by lia. simpl; ring. }
  destruct (Nat.eqb_spec i (n-3)) as [->|?]; [exists 2%nat, (-h)|].
  { repeat split; auto; try lia.
    - rewrite !Hw by lia. unfold der_st. cbn [R_arith fdiv fopp]. rewrite Op. feq.
    - intros m Hm. exists (Z.to_nat (Z.of_nat n - 3 - m)). split; [lia|].
      rewrite !INR_IZR_INZ, Z2Nat.id, !minus_IZR by lia. rewrite Nat2Z.inj_sub, minus_IZR by lia. simpl; ring. }
  exists 3%nat, h. repeat split; auto.
  - rewrite !Hw by lia. unfold der_st. cbn [R_arith fdiv]. feq.
  - intros m Hm. exists (Z.to_nat (Z.of_nat i + m)). split; [lia|].
    rewrite !INR_IZR_INZ, Z2Nat.id, !plus_IZR by lia. ring.
Qed.

Lemma der2_val_st n h (w : nat -> R) (u : R -> R) i :
  (8 <= n)%nat -> (i < n)%nat ->
  (forall j, (j < n)%nat -> w j = u ((INR j - INR i) * h)) ->
  exists k s, (k <= 3)%nat /\ (s = h \/ s = - h) /\ der2_val n (h ^ 2) w i = der2_st k u s /\
    (forall m : Z, (- Z.of_nat k <= m <= if Nat.eqb k 3 then 3 else 7 - Z.of_nat k)%Z ->
       exists j, (j < n)%nat /\ (INR j - INR i) * h = IZR m * s).
Proof.
  intros Hn Hi Hw. unfold der2_val.
  destruct (Nat.eqb_spec i 0) as [->|?]; [exists 0%nat, h|].
  { repeat split; auto.
    - rewrite !Hw by lia. unfold der2_st. cbn [R_arith fdiv]. feq.
    - simpl. intros m Hm. exists (Z.to_nat m). split; [lia|]. rewrite INR_IZR_INZ, Z2Nat.id by lia. simpl INR; ring. }
  destruct (Nat.eqb_spec i 1) as [->|?]; [exists 1%nat, h|].
  { repeat split; auto; try lia.
    - rewrite !Hw by lia. unfold der2_st. cbn [R_arith fdiv]. feq.
    - simpl Nat.eqb; cbv iota; intros m Hm. exists (Z.to_nat (m + 1)). split; [lia|]. rewrite INR_IZR_INZ, Z2Nat.id, plus_IZR by lia. simpl INR; ring. }
  destruct (Nat.eqb_spec i 2) as [->|?]; [exists 2%nat, h|].
  { repeat split; auto; try lia.
    - rewrite !Hw by lia. unfold der2_st. cbn [R_arith fdiv]. feq.
    - simpl Nat.eqb; cbv iota; intros m Hm. exists (Z.to_nat (m + 2)). split; [lia|]. rewrite INR_IZR_INZ, Z2Nat.id, plus_IZR by lia. simpl INR; ring. }
  destruct (Nat.eqb_spec i (n-1)) as [->|?]; [exists 0%nat, (-h)|].
  { repeat split; auto; try lia.
    - rewrite !Hw by lia. unfold der2_st. cbn [R_arith fdiv fopp]. feq.
    - simpl Nat.eqb; cbv iota; intros m Hm. exists (Z.to_nat (Z.of_nat n - 1 - m)). split; [lia|].
      rewrite !INR_IZR_INZ, Z2Nat.id, !minus_IZR by lia. rewrite Nat2Z.inj_sub, minus_IZR by lia. simpl; ring. }
  destruct (Nat.eqb_spec i (n-1-1)) as [->|?]; [exists 1%nat, (-h)|].
  { repeat split; auto; try lia.
    - rewrite !Hw by lia. unfold der2_st. cbn [R_arith fdiv fopp]. feq.
    - simpl Nat.eqb; cbv iota; intros m Hm. exists (Z.to_nat (Z.of_nat n - 2 - m)). split; [lia|].
      rewrite !INR_IZR_INZ, Z2Nat.id, !minus_IZR by lia. rewrite !Nat2Z.inj_sub, !minus_IZR by lia. simpl; ring. }
  destruct (Nat.eqb_spec i (n-1-2)) as [->|?]; [exists 2%nat, (-h)|].
  { repeat split; auto; try lia.
    - rewrite !Hw by lia. unfold der2_st. cbn [R_arith fdiv fopp]. feq.
    - simpl Nat.eqb; cbv iota; intros m Hm. exists (Z.to_nat (Z.of_nat n - 3 - m)). split; [lia|].
      rewrite !INR_IZR_INZ, Z2Nat.id, !minus_IZR by lia. rewrite !Nat2Z.inj_sub, !minus_IZR by lia. simpl; ring. }
  exists 3%nat, h. repeat split; auto.
  - rewrite !Hw by lia. unfold der2_st. cbn [R_arith fdiv]. feq.
  - simpl Nat.eqb; cbv iota; intros m Hm. exists (Z.to_nat (Z.of_nat i + m)). split; [lia|].
    rewrite !INR_IZR_INZ, Z2Nat.id, !plus_IZR by lia. ring.
Qed.

(** ** polynomials *)
Fixpoint poly_shift_add (x : R) (a : R) (d : list R) : list R :=
  match d with [] => [a] | e :: d' => (a + x * e) :: poly_shift_add x e d' end.
Lemma poly_shift_add_spec x a d t : poly (poly_shift_add x a d) t = a + (x + t) * poly d t.
Proof. revert a; induction d as [|e d IH]; intros a; simpl; [ring|]. rewrite IH. ring. Qed.
Lemma poly_shift_add_length x a d : length (poly_shift_add x a d) = S (length d).
Proof. revert a; induction d as [|e d IH]; intros a; simpl; auto. Qed.

Lemma poly_shift c x : exists d, length d = length c /\ forall t, poly c (x + t) = poly d t.
Proof.
  induction c as [|a c (d & L & E)]; [exists []; auto|].
  exists (poly_shift_add x a d). rewrite poly_shift_add_length, L. split; auto.
  intros t. rewrite poly_shift_add_spec, <- E. reflexivity.
Qed.


(** derivative coefficients: (sum c_k x^k)' = sum (k+1) c_{k+1} x^k *)
Fixpoint dcoef (k : nat) (c : list R) : list R :=
  match c with [] => [] | a :: c' => (INR k * a) :: dcoef (S k) c' end.
Definition dp (c : list R) : list R := match c with [] => [] | _ :: c' => dcoef 1 c' end.
Lemma dcoef_S k c x : poly (dcoef (S k) c) x = poly (dcoef k c) x + poly c x.
Proof. revert k; induction c as [|a c IH]; intros k; cbn [dcoef poly]; [ring|]. rewrite IH, S_INR. ring. Qed.
Lemma dcoef_0 c x : poly (dcoef 0 c) x = x * poly (dp c) x.
Proof. destruct c as [|a c]; simpl; ring. Qed.
Lemma poly_is_derive c x : is_derive (poly c) x (poly (dp c) x).
Proof.
  induction c as [|a c IH].
  - simpl. apply (is_derive_const (K:=R_AbsRing) (V:=R_NormedModule) 0).
  - replace (poly (dp (a :: c)) x) with (poly c x + x * poly (dp c) x).
    + apply (is_derive_ext (fun y => a + y * poly c y)); [reflexivity|].
      auto_derive; [exists (poly (dp c) x); exact IH|].
      replace (Derive (fun x0 : R => poly c x0) x) with (poly (dp c) x) by (symmetry; apply is_derive_unique; exact IH). ring.
    + simpl. rewrite dcoef_S, dcoef_0. ring.
Qed.
Lemma poly_Derive c x : Derive (poly c) x = poly (dp c) x.
Proof. apply is_derive_unique, poly_is_derive. Qed.
Lemma poly_Derive2 c x : Derive_n (poly c) 2 x = poly (dp (dp c)) x.
Proof. simpl. rewrite <- poly_Derive. apply Derive_ext. intros; apply poly_Derive. Qed.

Lemma poly_0 d : poly d 0 = nth 0 d 0.
Proof. destruct d; simpl; ring. Qed.
Lemma poly_shift_derive c x d : (forall t, poly c (x + t) = poly d t) ->
  Derive (poly c) x = nth 1 d 0 /\ Derive_n (poly c) 2 x = 2 * nth 2 d 0.
Proof.
  intros H.
  assert (H1 : forall t, poly (dp c) (x + t) = poly (dp d) t).
  { intros t. rewrite <- !poly_Derive.
    rewrite (Derive_ext (poly d) (fun t => poly c (x + t))) by (intros; symmetry; apply H).
    symmetry. apply is_derive_unique.
    auto_derive; [eexists; apply poly_is_derive|]. rewrite Rmult_1_l. f_equal; ring. }
  assert (H2 : forall t, poly (dp (dp c)) (x + t) = poly (dp (dp d)) t).
  { intros t. rewrite <- (poly_Derive (dp c)), <- (poly_Derive (dp d)).
    rewrite (Derive_ext (poly (dp d)) (fun t => poly (dp c) (x + t))) by (intros; symmetry; apply H1).
    symmetry. apply is_derive_unique.
    auto_derive; [eexists; apply poly_is_derive|]. rewrite Rmult_1_l. f_equal; ring. }
  rewrite poly_Derive, poly_Derive2.
  replace x with (x + 0) by ring. rewrite H1, H2, !poly_0.
  destruct d as [|a [|b [|e d]]]; simpl; split; ring.
Qed.
