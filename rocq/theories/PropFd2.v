(** * Properties C10-C14: memory safety, Kreiss-Oliger filter, symmetry, radial points. *)
From Coq Require Import Reals Lra List.
From Coquelicot Require Import Coquelicot.
From Verif Require Import Base Arith BaseLemmas PMake MFd MCheb PFd Spec PFdR PropFd.
Local Open Scope R_scope.

(** ** C10 (every arithmetic, every build) *)
Section C10.
Context {F : Type} {AF : Arith F}.
Theorem C10_memory_safety b n (lower upper : F) v dv :
  length v = n -> length dv = n ->
  let g := FD_make n lower upper in
  ((exists out, fd_der b g v dv = Ok out /\ length out = n) <-> (7 <= n)%nat) /\
  ((n < 7)%nat -> fd_der b g v dv = UB) /\
  ((exists out, fd_der2 b g v dv = Ok out /\ length out = n) <-> (8 <= n)%nat) /\
  ((n < 8)%nat -> fd_der2 b g v dv = UB) /\
  ((exists out, fd_filter b g v = Ok out /\ length out = n) <-> (4 <= n)%nat) /\
  ((n < 4)%nat -> fd_filter b g v = UB) /\
  ((4 <= n <= 8)%nat -> fd_filter b g v = Ok v).
Proof.
  intros Hv Hd g. repeat split.
  - intros (o & E & _). destruct (le_lt_dec 7 n); auto. rewrite fd_der_ub in E by auto. discriminate.
  - intros H. eexists; split; [now apply fd_der_ok|]. now rewrite map_length, seq_length.
  - intros H. now apply fd_der_ub.
  - intros (o & E & _). destruct (le_lt_dec 8 n); auto. rewrite fd_der2_ub in E by auto. discriminate.
  - intros H. eexists; split; [now apply fd_der2_ok|]. now rewrite map_length, seq_length.
  - intros H. now apply fd_der2_ub.
  - intros (o & E & _). destruct (le_lt_dec 4 n); auto. rewrite fd_filter_ub in E by auto. discriminate.
  - intros H. eexists; split; [now apply fd_filter_ok|]. now rewrite map_length, seq_length.
  - intros H. now apply fd_filter_ub.
  - intros H. rewrite fd_filter_ok by (auto; cbn; lia). f_equal. change (fd_n g) with n.
    apply (vec_ext _ _ f0); [now rewrite map_length, seq_length|]. rewrite map_length, seq_length.
    intros i Hi. rewrite nth_map_seq by auto. unfold ko_val.
    destruct (Nat.leb_spec 4 i), (Nat.ltb_spec i (n - 4)); simpl; auto; lia.
Qed.
End C10.
Example C10_nonvacuous : length [1;2;3;4;5;6;7] = 7%nat /\ (7 <= 7)%nat.
Proof. split; auto. Qed.

(** ** C11 *)
Lemma ko_is n v i : (4 <= i)%nat -> (i < n - 4)%nat ->
  ko_val n v i = v i - (v (i-4)%nat - 8 * v (i-3)%nat + 28 * v (i-2)%nat - 56 * v (i-1)%nat + 70 * v i
     - 56 * v (i+1)%nat + 28 * v (i+2)%nat - 8 * v (i+3)%nat + v (i+4)%nat) / 256.
Proof.
  intros H1 H2. unfold ko_val. destruct (Nat.leb_spec 4 i), (Nat.ltb_spec i (n - 4)); try lia. cbn [andb].
  unfold ko_s, ko_eps. cbn [R_arith fadd fsub fmul fdiv fopp fofZ]. field.
Qed.

Theorem C11_boundary_unchanged b n lower upper (v : list R) :
  (4 <= n)%nat -> length v = n ->
  exists out, fd_filter b (FD_make n lower upper) v = Ok out /\ length out = n /\
    forall i, (i < 4 \/ n - 4 <= i < n)%nat -> nth i out 0 = nth i v 0.
Proof.
  intros Hn Hv. eexists. split; [now apply fd_filter_ok|]. cbn [FD_make fd_n].
  split; [now rewrite map_length, seq_length|]. intros i Hi. rewrite nth_map_seq by lia.
  unfold ko_val. destruct (Nat.leb_spec 4 i), (Nat.ltb_spec i (n - 4)); simpl; auto; lia.
Qed.

Theorem C11_polynomials_unchanged b n lower upper c :
  (4 <= n)%nat -> (length c <= 8)%nat ->
  let g := FD_make n lower upper in
  fd_filter b g (samples g (poly c)) = Ok (samples g (poly c)).
Proof.
  intros Hn Hc g. rewrite fd_filter_ok by (auto; apply samples_length). f_equal. change (fd_n g) with n.
  apply (vec_ext _ _ 0); rewrite map_length, seq_length; [now rewrite samples_length|].
  intros i Hi. rewrite nth_map_seq, samples_nth by auto.
  destruct (le_lt_dec 4 i) as [H4|H4]; [destruct (le_lt_dec (n - 4) i) as [H5|H5]|].
  1,3: unfold ko_val; destruct (Nat.leb_spec 4 i), (Nat.ltb_spec i (n - 4)); cbn [andb]; try lia; apply samples_nth; auto.
  rewrite ko_is by auto.
  destruct (poly_shift c (fd_pt g i)) as (d & Ld & Ed).
  assert (W : forall j, (j < n)%nat -> nth j (samples g (poly c)) f0 = poly d ((INR j - INR i) * fd_dx g)).
  { intros j Hj. rewrite samples_nth by auto. unfold g at 1. rewrite (mk_pt_diff n lower upper i j). apply Ed. }
  rewrite !W by lia. replace (poly c (fd_pt g i)) with (poly d ((INR i - INR i) * fd_dx g)).
  2:{ rewrite <- Ed. f_equal. ring. }
  rewrite !plus_INR, !minus_INR by lia.
  generalize (fd_dx g) (INR i). intros h z. rewrite <- Ld in Hc. clear -Hc.
  destruct d as [|a0 [|a1 [|a2 [|a3 [|a4 [|a5 [|a6 [|a7 [|]]]]]]]]]; simpl in Hc; try lia; simpl; field.
Qed.

Lemma cos_add_sub x y : cos (x + y) + cos (x - y) = 2 * cos x * cos y.
Proof. rewrite cos_plus, cos_minus. ring. Qed.

Lemma sym_identity k : 70 - 112 * cos k + 56 * cos (2 * k) - 16 * cos (3 * k) + 2 * cos (4 * k) = 256 * sin (k / 2) ^ 8.
Proof.
  set (s := sin (k / 2) ^ 2).
  assert (E1 : cos k = 1 - 2 * s).
  { replace k with (2 * (k / 2)) at 1 by field. rewrite cos_2a_sin. unfold s. ring. }
  assert (E2 : cos (2 * k) = 2 * cos k ^ 2 - 1). { rewrite cos_2a_cos. ring. }
  assert (E3 : cos (3 * k) = 2 * cos (2 * k) * cos k - cos k).
  { pose proof (cos_add_sub (2 * k) k) as H. replace (2 * k + k) with (3 * k) in H by ring.
    replace (2 * k - k) with k in H by ring. lra. }
  assert (E4 : cos (4 * k) = 2 * cos (3 * k) * cos k - cos (2 * k)).
  { pose proof (cos_add_sub (3 * k) k) as H. replace (3 * k + k) with (4 * k) in H by ring.
    replace (3 * k - k) with (2 * k) in H by ring. lra. }
  rewrite E4, E3, E2, E1. replace (sin (k / 2) ^ 8) with (s ^ 4) by (unfold s; ring). ring.
Qed.

Definition ko_symbol (k : R) : R := 1 - sin (k / 2) ^ 8.

Theorem C11_mode_damping b n lower upper k d :
  (4 <= n)%nat ->
  let v := map (fun i => cos (k * INR i + d)) (seq 0 n) in
  exists out, fd_filter b (FD_make n lower upper) v = Ok out /\
    forall i, (4 <= i)%nat -> (i < n - 4)%nat -> nth i out 0 = ko_symbol k * cos (k * INR i + d).
Proof.
  intros Hn v. eexists. split; [apply fd_filter_ok; auto; unfold v; now rewrite map_length, seq_length|].
  cbn [FD_make fd_n]. intros i H1 H2. rewrite nth_map_seq by lia. rewrite ko_is by auto.
  assert (W : forall j, (j < n)%nat -> nth j v f0 = cos (k * INR j + d)).
  { intros j Hj. unfold v. now rewrite nth_map_seq by auto. }
  rewrite !W by lia. rewrite !plus_INR, !minus_INR by lia.
  set (x := k * INR i + d).
  assert (C : forall m, cos (k * (INR i + m) + d) + cos (k * (INR i - m) + d) = 2 * cos x * cos (m * k)).
  { intros m. rewrite <- cos_add_sub. unfold x. f_equal; f_equal; ring. }
  pose proof (C (INR 1)) as C1. pose proof (C (INR 2)) as C2. pose proof (C (INR 3)) as C3. pose proof (C (INR 4)) as C4.
  simpl INR in *. pose proof (sym_identity k) as S.
  replace (1 * k) with k in C1 by ring. replace ((1 + 1) * k) with (2 * k) in C2 by ring.
  replace ((1 + 1 + 1) * k) with (3 * k) in C3 by ring. replace ((1 + 1 + 1 + 1) * k) with (4 * k) in C4 by ring.
  unfold ko_symbol.
  transitivity (cos x - cos x * (256 * sin (k / 2) ^ 8) / 256); [|field].
  rewrite <- S. unfold x in *. lra.
Qed.

Theorem C11_symbol_range k :
  0 <= ko_symbol k <= 1 /\ ko_symbol PI = 0 /\
  (ko_symbol k = 1 <-> exists m : Z, k = 2 * PI * IZR m).
Proof.
  assert (P8 : forall x, x ^ 8 = (x ^ 2) ^ 4) by (intros; ring).
  unfold ko_symbol. split; [|split].
  - assert (0 <= sin (k/2) ^ 2 <= 1). { pose proof (sin2_cos2 (k/2)) as H. unfold Rsqr in H. nra. }
    rewrite P8. assert (0 <= (sin (k/2) ^ 2) ^ 4 <= 1); [|lra]. split; [apply pow_le; lra|].
    rewrite <- (pow1 4). apply pow_incr. lra.
  - rewrite sin_PI2. ring.
  - split.
    + intros H. assert (E : sin (k / 2) = 0).
      { destruct (Req_dec (sin (k/2)) 0); auto. exfalso. apply (pow_nonzero _ 8) in H0. lra. }
      apply sin_eq_0_0 in E. destruct E as (m & Em). exists m. lra.
    + intros (m & ->). replace (2 * PI * IZR m / 2) with (IZR m * PI) by field.
      rewrite (sin_eq_0_1 (IZR m * PI)) by (exists m; reflexivity). ring.
Qed.
Example C11_nonvacuous : (4 <= 4)%nat /\ (4 <= 10 - 4)%nat /\ 0 < ko_symbol (PI / 2) < 1.
Proof.
  repeat split; try lia; unfold ko_symbol;
    replace (PI / 2 / 2) with (PI / 4) by field; rewrite sin_PI4;
    (assert (H : (1 / sqrt 2) ^ 8 = 1 / 16);
     [replace ((1 / sqrt 2) ^ 8) with (1 / ((sqrt 2 * sqrt 2) ^ 4)) by (field; apply Rgt_not_eq, sqrt_lt_R0; lra);
      rewrite sqrt_sqrt by lra; field|rewrite H; lra]).
Qed.

(** ** C12 *)
(** a single spike at grid point 2 *)
Definition spike (n : nat) : list R := map (fun i => if Nat.eqb i 2 then 1 else 0) (seq 0 n).

Lemma TV_nonneg v : 0 <= TV v.
Proof.
  induction v as [|a [|b v] IH]; try (simpl; lra).
  change (TV (a :: b :: v)) with (Rabs (b - a) + TV (b :: v)). pose proof (Rabs_pos (b - a)). lra.
Qed.
Lemma TV_cons a b v : TV (a :: b :: v) = Rabs (b - a) + TV (b :: v).
Proof. reflexivity. Qed.
Lemma TV_zeros n : TV (map (fun i => if Nat.eqb i 2 then 1 else 0) (seq 3 n)) = 0.
Proof.
  replace (map _ (seq 3 n)) with (repeat 0 n).
  - induction n as [|[|n] IH]; try reflexivity. cbn [repeat] in *. rewrite TV_cons, IH.
    unfold Rminus. rewrite Rplus_opp_r, Rabs_R0. ring.
  - assert (G : forall m, (3 <= m)%nat -> repeat 0 n = map (fun i => if Nat.eqb i 2 then 1 else 0) (seq m n)).
    { induction n as [|n IH]; intros m Hm; simpl; auto. rewrite (IH (S m)) by lia.
      destruct (Nat.eqb_spec m 2); [lia|reflexivity]. }
    apply G; lia.
Qed.
Lemma TV_spike n : (4 <= n)%nat -> TV (spike n) = 2.
Proof.
  intros H. unfold spike. destruct n as [|[|[|[|n]]]]; try lia.
  cbn [seq map Nat.eqb]. rewrite !TV_cons.
  change (0 :: map (fun i => if Nat.eqb i 2 then 1 else 0) (seq 4 n))
    with (map (fun i => if Nat.eqb i 2 then 1 else 0) (seq 3 (S n))).
  rewrite TV_zeros. replace (0 - 0) with 0 by ring. replace (1 - 0) with 1 by ring.
  rewrite Rabs_R0, Rabs_R1. replace (0 - 1) with (- (1)) by ring. rewrite Rabs_Ropp, Rabs_R1. ring.
Qed.

Theorem C12_not_TVD_refuted b n lower upper : (9 <= n)%nat ->
  exists out, fd_filter b (FD_make n lower upper) (spike n) = Ok out /\ TV (spike n) + 28 / 256 <= TV out.
Proof.
  intros Hn. eexists. split; [apply fd_filter_ok; [cbn; lia|unfold spike; now rewrite map_length, seq_length]|].
  cbn [FD_make fd_n]. rewrite TV_spike by lia. set (w := fun i => nth i (spike n) f0).
  assert (W : forall i, (i < n)%nat -> w i = if Nat.eqb i 2 then 1 else 0).
  { intros i Hi. unfold w, spike. now rewrite nth_map_seq by auto. }
  assert (K0 : forall i, (i < 4)%nat -> ko_val n w i = w i).
  { intros i Hi. unfold ko_val. destruct (Nat.leb_spec 4 i); [lia|reflexivity]. }
  assert (K4 : ko_val n w 4 = - (28 / 256)).
  { rewrite ko_is by lia. rewrite !W by lia. simpl Nat.eqb. cbv iota. lra. }
  destruct n as [|[|[|[|[|n]]]]]; try lia.
  cbn [seq map]. rewrite !K0 by lia. rewrite K4, !TV_cons. rewrite !W by lia. simpl Nat.eqb. cbv iota.
  match goal with |- context [TV (?a :: ?l)] => pose proof (TV_nonneg (a :: l)) end.
  replace (0 - 0) with 0 by ring. replace (1 - 0) with 1 by ring. rewrite Rabs_R0, Rabs_R1.
  replace (0 - 1) with (- (1)) by ring. rewrite Rabs_Ropp, Rabs_R1.
  replace (- (28 / 256) - 0) with (- (28 / 256)) by ring. rewrite Rabs_Ropp, (Rabs_right (28/256)) by lra. lra.
Qed.
(** below nine points the filter is the identity, so there it is TVD; hence it is TVD iff n <= 8 *)
Theorem C12_TVD_iff_small b n lower upper : (4 <= n)%nat ->
  ((forall v out, length v = n -> fd_filter b (FD_make n lower upper) v = Ok out -> TV out <= TV v) <-> (n <= 8)%nat).
Proof.
  intros H4. split.
  - intros H. destruct (le_lt_dec n 8) as [|H9]; auto. exfalso.
    destruct (C12_not_TVD_refuted b n lower upper H9) as (o & E & Ho).
    apply H in E; [lra|]. unfold spike. now rewrite map_length, seq_length.
  - intros H8 v out Hv E.
    destruct (C10_memory_safety b n lower upper v v Hv Hv) as (_ & _ & _ & _ & _ & _ & Hid).
    rewrite Hid in E by lia. injection E as <-. lra.
Qed.

(** ** C13 *)
Lemma nth_lincomb a v c w i n : length v = n -> length w = n -> (i < n)%nat ->
  nth i (lincomb a v c w) 0 = a * nth i v 0 + c * nth i w 0.
Proof.
  intros Hv Hw Hi. unfold lincomb.
  set (h := fun p : R * R => a * fst p + c * snd p).
  rewrite (nth_indep _ 0 (h (0, 0))) by (rewrite map_length, combine_length; lia).
  rewrite (map_nth h), combine_nth by lia. reflexivity.
Qed.
Lemma lincomb_length a v c w n : length v = n -> length w = n -> length (lincomb a v c w) = n.
Proof. intros. unfold lincomb. rewrite map_length, combine_length. lia. Qed.

Lemma der_val_ext {F} {AF : Arith F} n dx (w w' : nat -> F) i : (7 <= n)%nat -> (i < n)%nat ->
  (forall j, (j < n)%nat -> w j = w' j) -> der_val n dx w i = der_val n dx w' i.
Proof.
  intros Hn Hi H. unfold der_val.
  repeat match goal with |- (if ?c then _ else _) = _ => destruct c eqn:? end; 
   repeat (rewrite Nat.eqb_neq in * || rewrite Nat.eqb_eq in *);
   rewrite !H by lia; reflexivity.
Qed.
Lemma der2_val_ext {F} {AF : Arith F} n dx (w w' : nat -> F) i : (8 <= n)%nat -> (i < n)%nat ->
  (forall j, (j < n)%nat -> w j = w' j) -> der2_val n dx w i = der2_val n dx w' i.
Proof.
  intros Hn Hi H. unfold der2_val.
  repeat match goal with |- (if ?c then _ else _) = _ => destruct c eqn:? end; 
   repeat (rewrite Nat.eqb_neq in * || rewrite Nat.eqb_eq in *);
   rewrite !H by lia; reflexivity.
Qed.
Lemma ko_val_ext {F} {AF : Arith F} n (w w' : nat -> F) i : (i < n)%nat ->
  (forall j, (j < n)%nat -> w j = w' j) -> ko_val n w i = ko_val n w' i.
Proof.
  intros Hi H. unfold ko_val. destruct (Nat.leb_spec 4 i), (Nat.ltb_spec i (n - 4)); simpl andb; cbv iota;
   rewrite !H by lia; reflexivity.
Qed.

Ltac arith_unfold := cbn [R_arith fadd fsub fmul fdiv fopp fofZ].
Lemma der_val_lin n dx a c w w' i : der_val n dx (fun j => a * w j + c * w' j) i = a * der_val n dx w i + c * der_val n dx w' i.
Proof.
  unfold der_val. repeat match goal with |- (if ?c then _ else _) = _ => destruct c end;
   unfold der_s0, der_s1, der_s2, der_s; arith_unfold; unfold Rdiv; ring.
Qed.
Lemma der2_val_lin n dx a c w w' i : der2_val n dx (fun j => a * w j + c * w' j) i = a * der2_val n dx w i + c * der2_val n dx w' i.
Proof.
  unfold der2_val. repeat match goal with |- (if ?c then _ else _) = _ => destruct c end;
   unfold der2_s0, der2_s1, der2_s2, der2_s; arith_unfold; unfold Rdiv; ring.
Qed.
Lemma ko_val_lin n a c w w' i : ko_val n (fun j => a * w j + c * w' j) i = a * ko_val n w i + c * ko_val n w' i.
Proof.
  unfold ko_val. destruct (_ && _); [|reflexivity]. unfold ko_s, ko_eps. arith_unfold. unfold Rdiv. ring.
Qed.

Theorem C13_linear b n lower upper a v c w dv :
  length v = n -> length w = n -> length dv = n ->
  let g := FD_make n lower upper in
  ((7 <= n)%nat -> exists ov ow, fd_der b g v dv = Ok ov /\ fd_der b g w dv = Ok ow /\
      fd_der b g (lincomb a v c w) dv = Ok (lincomb a ov c ow)) /\
  ((8 <= n)%nat -> exists ov ow, fd_der2 b g v dv = Ok ov /\ fd_der2 b g w dv = Ok ow /\
      fd_der2 b g (lincomb a v c w) dv = Ok (lincomb a ov c ow)) /\
  ((4 <= n)%nat -> exists ov ow, fd_filter b g v = Ok ov /\ fd_filter b g w = Ok ow /\
      fd_filter b g (lincomb a v c w) = Ok (lincomb a ov c ow)).
Proof.
  intros Hv Hw Hd g. pose proof (lincomb_length a v c w n Hv Hw) as HL. repeat split; intros Hn; do 2 eexists.
  - split; [apply fd_der_ok; auto|]. split; [apply fd_der_ok; auto|].
    rewrite fd_der_ok by auto. f_equal. change (fd_n g) with n.
    apply (vec_ext _ _ 0); [now rewrite (lincomb_length _ _ _ _ n) by (now rewrite map_length, seq_length); rewrite map_length, seq_length|].
    rewrite map_length, seq_length. intros i Hi.
    rewrite (nth_lincomb _ _ _ _ _ n) by (rewrite ?map_length, ?seq_length; auto). rewrite !nth_map_seq by auto.
    rewrite <- der_val_lin. apply der_val_ext; auto. intros j Hj. now apply (nth_lincomb _ _ _ _ _ n).
  - split; [apply fd_der2_ok; auto|]. split; [apply fd_der2_ok; auto|].
    rewrite fd_der2_ok by auto. f_equal. change (fd_n g) with n.
    apply (vec_ext _ _ 0); [now rewrite (lincomb_length _ _ _ _ n) by (now rewrite map_length, seq_length); rewrite map_length, seq_length|].
    rewrite map_length, seq_length. intros i Hi.
    rewrite (nth_lincomb _ _ _ _ _ n) by (rewrite ?map_length, ?seq_length; auto). rewrite !nth_map_seq by auto.
    rewrite <- der2_val_lin. apply der2_val_ext; auto. intros j Hj. now apply (nth_lincomb _ _ _ _ _ n).
  - split; [apply fd_filter_ok; auto|]. split; [apply fd_filter_ok; auto|].
    rewrite fd_filter_ok by auto. f_equal. change (fd_n g) with n.
    apply (vec_ext _ _ 0); [now rewrite (lincomb_length _ _ _ _ n) by (now rewrite map_length, seq_length); rewrite map_length, seq_length|].
    rewrite map_length, seq_length. intros i Hi.
    rewrite (nth_lincomb _ _ _ _ _ n) by (rewrite ?map_length, ?seq_length; auto). rewrite !nth_map_seq by auto.
    rewrite <- ko_val_lin. apply ko_val_ext; auto. intros j Hj. now apply (nth_lincomb _ _ _ _ _ n).
Qed.

Ltac dcond := repeat match goal with
  | |- context [Nat.eqb ?a ?b] => destruct (Nat.eqb_spec a b); try lia
  | |- context [Nat.leb ?a ?b] => destruct (Nat.leb_spec a b); try lia
  | |- context [Nat.ltb ?a ?b] => destruct (Nat.ltb_spec a b); try lia end.

(* abstract every data value, identifying equal indices *)
Ltac same_idx w := repeat match goal with |- context [w ?a] =>
    first [ match goal with H : w ?b = ?q |- _ => replace (w a) with q by (rewrite <- H; f_equal; lia) end
          | let q := fresh "q" in let H := fresh "H" in remember (w a) as q eqn:H in |- *; symmetry in H ] end.

Lemma der_val_rev n dx w i : (7 <= n)%nat -> (i < n)%nat ->
  der_val n dx (fun j => w (n - 1 - j)%nat) i = - der_val n dx w (n - 1 - i).
Proof.
  intros Hn Hi. unfold der_val.
  dcond; same_idx w; unfold der_s0, der_s1, der_s2, der_s; arith_unfold; unfold Rdiv; ring.
Qed.
Lemma der2_val_rev n dx w i : (8 <= n)%nat -> (i < n)%nat ->
  der2_val n dx (fun j => w (n - 1 - j)%nat) i = der2_val n dx w (n - 1 - i).
Proof.
  intros Hn Hi. unfold der2_val.
  dcond; same_idx w; unfold der2_s0, der2_s1, der2_s2, der2_s; arith_unfold; unfold Rdiv; ring.
Qed.
Lemma ko_val_rev n w i : (i < n)%nat ->
  ko_val n (fun j => w (n - 1 - j)%nat) i = ko_val n w (n - 1 - i).
Proof.
  intros Hi. unfold ko_val.
  dcond; cbn [andb]; same_idx w; unfold ko_s, ko_eps; arith_unfold; unfold Rdiv; ring.
Qed.
Lemma nth_rev (v : list R) i n : length v = n -> (i < n)%nat -> nth i (rev v) 0 = nth (n - 1 - i) v 0.
Proof. intros <- Hi. rewrite rev_nth by auto. f_equal. lia. Qed.

Lemma nth_map_opp (v : list R) i : nth i (map Ropp v) 0 = - nth i v 0.
Proof. revert i; induction v as [|a v IH]; intros [|i]; simpl; auto; ring. Qed.

Theorem C13_reflection b n lower upper v dv :
  length v = n -> length dv = n ->
  let g := FD_make n lower upper in
  ((7 <= n)%nat -> exists o, fd_der b g v dv = Ok o /\ fd_der b g (rev v) dv = Ok (map Ropp (rev o))) /\
  ((8 <= n)%nat -> exists o, fd_der2 b g v dv = Ok o /\ fd_der2 b g (rev v) dv = Ok (rev o)) /\
  ((4 <= n)%nat -> exists o, fd_filter b g v = Ok o /\ fd_filter b g (rev v) = Ok (rev o)).
Proof.
  intros Hv Hd g. assert (HR : length (rev v) = n) by now rewrite rev_length.
  repeat split; intros Hn; eexists.
  - split; [apply fd_der_ok; auto|]. rewrite fd_der_ok by auto. f_equal. change (fd_n g) with n.
    apply (vec_ext _ _ 0); [now rewrite !map_length, rev_length, map_length|].
    rewrite map_length, seq_length. intros i Hi. rewrite nth_map_seq by auto.
    rewrite nth_map_opp. rewrite (nth_rev _ _ n) by (rewrite ?map_length, ?seq_length; auto).
    rewrite nth_map_seq by lia. rewrite <- der_val_rev by auto.
    apply der_val_ext; auto. intros j Hj. now apply nth_rev.
  - split; [apply fd_der2_ok; auto|]. rewrite fd_der2_ok by auto. f_equal. change (fd_n g) with n.
    apply (vec_ext _ _ 0); [now rewrite !map_length, rev_length, map_length|].
    rewrite map_length, seq_length. intros i Hi. rewrite nth_map_seq by auto.
    rewrite (nth_rev _ _ n) by (rewrite ?map_length, ?seq_length; auto).
    rewrite nth_map_seq by lia. rewrite <- der2_val_rev by auto.
    apply der2_val_ext; auto. intros j Hj. now apply nth_rev.
  - split; [apply fd_filter_ok; auto|]. rewrite fd_filter_ok by auto. f_equal. change (fd_n g) with n.
    apply (vec_ext _ _ 0); [now rewrite !map_length, rev_length, map_length|].
    rewrite map_length, seq_length. intros i Hi. rewrite nth_map_seq by auto.
    rewrite (nth_rev _ _ n) by (rewrite ?map_length, ?seq_length; auto).
    rewrite nth_map_seq by lia. rewrite <- ko_val_rev by auto.
    apply ko_val_ext; auto. intros j Hj. now apply nth_rev.
Qed.
Example C13_nonvacuous : length [1;2;3;4;5;6;7;8] = 8%nat /\ rev [1;2;3] = [3;2;1] /\ lincomb 2 [1;2] 3 [4;5] = [2*1+3*4; 2*2+3*5].
Proof. repeat split. Qed.

(** ** C14 *)
Theorem C14_fd_points n lower upper : (2 <= n)%nat -> lower < upper ->
  let g := FD_make n lower upper in
  fd_pt g 0 = lower /\ fd_pt g (n - 1) = upper /\
  (forall i, fd_pt g (S i) - fd_pt g i = (upper - lower) / INR (n - 1)) /\
  (forall i j, (i < j)%nat -> fd_pt g i < fd_pt g j) /\
  (forall i, (i < n)%nat -> lower <= fd_pt g i <= upper).
Proof.
  intros Hn Hl g. assert (H0 : 0 < INR (n - 1)) by (apply lt_0_INR; lia).
  assert (Hd : 0 < fd_dx g). { unfold g. rewrite mk_dx by lia. apply Rdiv_lt_0_compat; lra. }
  repeat split.
  - unfold g. rewrite mk_pt. simpl INR. ring.
  - unfold g. rewrite mk_pt, mk_dx by lia. field. lra.
  - intros i. unfold g. rewrite !mk_pt, S_INR, mk_dx by lia. field. lra.
  - intros i j Hij. unfold g. rewrite (mk_pt_diff n lower upper i j). fold g.
    apply lt_INR in Hij. nra.
  - now apply pt_range.
  - now apply pt_range.
Qed.

Lemma cheb_pt_val b n lower upper g i : Cheb_make b n lower upper = Ok g -> (2 <= n)%nat -> (i < n)%nat ->
  cheb_pt g i = Ok ((upper - lower) / 2 * cos (PI * INR i / INR (n - 1)) + (upper + lower) / 2).
Proof.
  intros E Hn Hi. rewrite Cheb_make_ok in E by auto. injection E as <-. unfold cheb_pt. cbn [ch_pts].
  rewrite (vget_ok _ _ 0) by (rewrite map_length, seq_length; auto). rewrite nth_map_seq by auto.
  rewrite minus_INR by lia. rewrite !INR_IZR_INZ. reflexivity.
Qed.

Theorem C14_cheb_points b n lower upper g : Cheb_make b n lower upper = Ok g -> (2 <= n)%nat -> lower < upper ->
  exists x : nat -> R, (forall i, (i < n)%nat -> cheb_pt g i = Ok (x i)) /\
  x 0%nat = upper /\ x (n - 1)%nat = lower /\
  (forall i j, (i < j < n)%nat -> x j < x i) /\
  (forall i, (i < n)%nat -> lower <= x i <= upper) /\
  (forall i, (i < n)%nat -> x i + x (n - 1 - i)%nat = lower + upper).
Proof.
  intros E Hn Hl. exists (fun i => (upper - lower) / 2 * cos (PI * INR i / INR (n - 1)) + (upper + lower) / 2).
  assert (H0 : 0 < INR (n - 1)) by (apply lt_0_INR; lia). pose proof PI_RGT_0.
  assert (Hr : forall i, (i < n)%nat -> 0 <= PI * INR i / INR (n - 1) <= PI).
  { intros i Hi. pose proof (pos_INR i). assert (INR i <= INR (n - 1)) by (apply le_INR; lia).
    replace (PI * INR i / INR (n - 1)) with (PI * (INR i / INR (n - 1))) by (field; lra).
    assert (0 <= INR i / INR (n - 1) <= 1).
    { split; [apply Rdiv_le_0_compat; lra|]. apply Rmult_le_reg_r with (INR (n-1)); [lra|].
      replace (INR i / INR (n - 1) * INR (n - 1)) with (INR i) by (field; lra). lra. }
    nra. }
  repeat split.
  - intros i Hi. eapply cheb_pt_val; eauto.
  - simpl INR. replace (PI * 0 / INR (n - 1)) with 0 by (field; lra). rewrite cos_0. field.
  - replace (PI * INR (n - 1) / INR (n - 1)) with PI by (field; lra). rewrite cos_PI. field.
  - intros i j Hij. assert (cos (PI * INR j / INR (n - 1)) < cos (PI * INR i / INR (n - 1))); [|nra].
    pose proof (Hr i ltac:(lia)). pose proof (Hr j ltac:(lia)).
    apply cos_decreasing_1; try lra. unfold Rdiv. apply Rmult_lt_compat_r; [now apply Rinv_0_lt_compat|].
    apply Rmult_lt_compat_l; auto. apply lt_INR. lia.
  - pose proof (COS_bound (PI * INR i / INR (n - 1))). nra.
  - pose proof (COS_bound (PI * INR i / INR (n - 1))). nra.
  - intros i Hi. rewrite (minus_INR (n - 1) i) by lia.
    replace (PI * (INR (n - 1) - INR i) / INR (n - 1)) with (- (PI * INR i / INR (n - 1)) + PI) by (field; lra).
    rewrite neg_cos, cos_neg. field.
Qed.
Example C14_nonvacuous : exists g, Cheb_make (Build true true false) 5 0 1 = Ok g.
Proof. eexists. apply Cheb_make_ok. left. lia. Qed.
