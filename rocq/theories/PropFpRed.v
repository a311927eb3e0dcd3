(** * C82: in double precision the two diagnostics depend on the schedule only through rounding. *)
From Coq Require Import ZArith Reals SpecFloat Bool Lra Lia List Permutation.
From Verif Require Import Base BaseLemmas ForList Arith MFd MCheb MSphere MGrid PGrid PRed FpSpec Fp FpErr FpRed PTables PMake PropRed.
Import ListNotations.
Local Open Scope R_scope.

(** ** numbers *)
Lemma sqrt_sub a b : 0 <= a -> 0 <= b -> sqrt (a + b) <= sqrt a + sqrt b.
Proof.
  intros A B. assert (Pa := sqrt_pos a). assert (Pb := sqrt_pos b). rewrite <- (sqrt_Rsqr (sqrt a + sqrt b)) by lra. apply sqrt_le_1_alt.
  unfold Rsqr. replace ((sqrt a + sqrt b) * (sqrt a + sqrt b)) with (sqrt a * sqrt a + sqrt b * sqrt b + 2 * (sqrt a * sqrt b)) by ring.
  rewrite !sqrt_sqrt by assumption. assert (0 <= sqrt a * sqrt b) by now apply Rmult_le_pos. lra.
Qed.
Definition tiny : R := / 2 ^ 537.
Lemma tiny_pos : 0 < tiny. Proof. apply Rinv_0_lt_compat, pow2_pos. Qed.
Lemma tiny_small : tiny <= / 1000.
Proof.
  apply Rle_trans with (/ 2 ^ 10); [apply Rinv_le_contravar; [apply pow2_pos|apply Rle_pow; [lra|lia]]|].
  replace (2 ^ 10) with 1024 by ring. apply Rinv_le_contravar; lra.
Qed.
Lemma eta_tiny : eta <= tiny * tiny.
Proof. unfold eta, tiny. rewrite <- Rinv_mult, <- pow_add. apply Rinv_le_contravar; [apply pow2_pos|]. apply Rle_pow; [lra|lia]. Qed.
Lemma sqrt_near m c e q t : 0 <= m -> 0 <= t <= / 2 -> Rabs (c - 1) <= t -> Rabs e <= eta -> q = m * c + e -> 0 <= q ->
  Rabs (sqrt q - sqrt m) <= t * sqrt m + tiny.
Proof.
  intros M T C E -> Q. assert (C' : - t <= c - 1 <= t) by (unfold Rabs in C; destruct (Rcase_abs (c - 1)); lra).
  assert (E' : - eta <= e <= eta) by (unfold Rabs in E; destruct (Rcase_abs e); lra). assert (Te := eta_tiny). assert (Tp := tiny_pos).
  assert (Ep : 0 < eta) by (apply Rinv_0_lt_compat, pow2_pos).
  assert (MC : 0 <= m * c) by (apply Rmult_le_pos; lra).
  assert (S1 : sqrt eta <= tiny). { rewrite <- (sqrt_Rsqr tiny) by lra. apply sqrt_le_1_alt. unfold Rsqr. exact Te. }
  assert (Pm := sqrt_pos m).
  assert (C1 : sqrt c <= 1 + t). { rewrite <- (sqrt_Rsqr (1 + t)) by lra. apply sqrt_le_1_alt. unfold Rsqr. nra. }
  assert (C2 : 1 - t <= sqrt c). { rewrite <- (sqrt_Rsqr (1 - t)) by lra. apply sqrt_le_1_alt. unfold Rsqr. nra. }
  assert (ES : sqrt (m * c) = sqrt m * sqrt c) by (apply sqrt_mult; lra).
  assert (U : sqrt (m * c + e) <= sqrt (m * c) + sqrt eta).
  { eapply Rle_trans; [|apply sqrt_sub; lra]. apply sqrt_le_1_alt. lra. }
  assert (L : sqrt (m * c) <= sqrt (m * c + e) + sqrt eta).
  { eapply Rle_trans; [|apply sqrt_sub; lra]. apply sqrt_le_1_alt. lra. }
  rewrite ES in U, L. apply Rabs_le. assert (sqrt m * sqrt c <= sqrt m * (1 + t)) by (apply Rmult_le_compat_l; lra).
  assert (sqrt m * (1 - t) <= sqrt m * sqrt c) by (apply Rmult_le_compat_l; lra). lra.
Qed.

Lemma Rabs_b x b : Rabs x <= b -> - b <= x <= b.
Proof. intro H. unfold Rabs in H. destruct (Rcase_abs x); lra. Qed.

(** [n] roundings on at most 2^40 terms *)
Lemma within_lin s t n N : (n <= N)%nat -> INR N * uu <= / 1000 -> within s t n -> 0 <= t ->
  exists a, Rabs a <= 102 / 100 * (INR N * uu) /\ s = t * (1 + a).
Proof.
  intros L X [W1 W2] T. assert (U := uu_pos). assert (NN : INR n <= INR N) by now apply le_INR.
  assert (Y : INR n * uu <= INR N * uu) by (apply Rmult_le_compat_r; lra).
  assert (B := bernoulli n). assert (C := upper n ltac:(lra)). assert (P := pos_INR n). assert (P2 := pos_INR N).
  assert (Z0 : 0 <= INR n * uu) by (apply Rmult_le_pos; lra).
  destruct (Req_dec t 0) as [->|Nt].
  - exists 0. split; [rewrite Rabs_R0; lra|]. rewrite Rmult_0_l in *. lra.
  - assert (0 < t) by lra. exists (s / t - 1). split; [|field; lra]. apply Rabs_le.
    assert (1 - INR n * uu <= s / t). { apply Rmult_le_reg_r with t; [lra|]. unfold Rdiv. rewrite Rmult_assoc, Rinv_l, Rmult_1_r by lra. eapply Rle_trans; [|exact W1]. rewrite Rmult_comm. apply Rmult_le_compat_l; lra. }
    assert (s / t <= 1 + 102 / 100 * (INR n * uu)). { apply Rmult_le_reg_r with t; [lra|]. unfold Rdiv. rewrite Rmult_assoc, Rinv_l, Rmult_1_r by lra. eapply Rle_trans; [exact W2|]. rewrite (Rmult_comm _ t). apply Rmult_le_compat_l; lra. }
    lra.
Qed.
Lemma n_small N : (Z.of_nat N <= 2 ^ 40)%Z -> INR N * uu <= / 1000.
Proof.
  intro H. assert (B : INR N <= 2 ^ 40). { rewrite INR_IZR_INZ. apply Rle_trans with (IZR (2 ^ 40)); [now apply IZR_le|right; symmetry; apply (pow_IZR 2 40)]. }
  apply Rle_trans with (2 ^ 40 * uu); [apply Rmult_le_compat_r; [apply Rlt_le, uu_pos|exact B]|].
  unfold uu. replace (2 ^ 53) with (2 ^ 40 * 2 ^ 13) by (rewrite <- pow_add; reflexivity). assert (P := pow2_pos 40). rewrite Rinv_mult, <- Rmult_assoc, Rinv_r, Rmult_1_l by lra.
  replace (2 ^ 13) with 8192 by ring. apply Rinv_le_contravar; lra.
Qed.
Lemma n_big N : (Z.of_nat N <= 2 ^ 40)%Z -> INR N <= 2 ^ 40.
Proof. intro H. rewrite INR_IZR_INZ. apply Rle_trans with (IZR (2 ^ 40)); [now apply IZR_le|right; symmetry; apply (pow_IZR 2 40)]. Qed.

(** the mean of the terms *)
Lemma mean_near s t n N q d e : (n <= N)%nat -> INR N * uu <= / 1000 -> (1 <= N)%nat -> within s t n -> 0 <= t ->
  Rabs d <= uu -> q = s / INR N * (1 + d) + e ->
  exists c, Rabs (c - 1) <= 103 / 100 * (INR N * uu) + 11 / 10 * uu /\ q = t / INR N * c + e.
Proof.
  intros L X N1 W T D ->. destruct (within_lin s t n N L X W T) as (a & A & ->). assert (U := uu_pos). assert (U1 := uu_lt1).
  assert (PN : 0 < INR N) by (apply lt_0_INR; lia). exists ((1 + a) * (1 + d)). split; [|field; lra].
  apply Rabs_b in A. apply Rabs_b in D. assert (Z0 : 0 <= INR N * uu) by (apply Rmult_le_pos; lra). set (x := INR N * uu) in *. clearbody x.
  apply Rabs_le. nra.
Qed.

Section B64.
Variables (lexp llog lcos lsin lacos : spec_float -> spec_float) (lpi : spec_float).
Local Instance b64i : Arith spec_float := b64 lexp llog lcos lsin lacos lpi.
Local Notation FL := spec_float.
Local Notation sumup := (fold_left (fun a x : FL => fadd a x)).

(** ** the reduction adds every term exactly once, in some order *)
Lemma adds_list k : forall a l, adds a l -> adds (sumup k a) (l ++ k).
Proof.
  induction k as [|x k IH]; intros a l H; cbn [fold_left]; [now rewrite app_nil_r|].
  replace (l ++ x :: k) with ((l ++ [x]) ++ k) by (rewrite <- app_assoc; reflexivity). apply IH. apply adds_two; [exact H|apply adds_one].
Qed.
Lemma thread_adds step T its : (forall i a, In i its -> step i a = Ok (sumup (T i) a)) ->
  exists x, thread_sum step its = Ok x /\ adds x (flat_map T its).
Proof.
  intro H. unfold thread_sum.
  assert (G : forall its a l, (forall i a, In i its -> step i a = Ok (sumup (T i) a)) -> adds a l ->
    exists x, fold_left (fun acc i => let! z := acc in step i z) its (Ok a) = Ok x /\ adds x (l ++ flat_map T its)).
  { clear. induction its as [|i its IH]; intros a l H A; cbn [fold_left bind flat_map].
    - exists a. rewrite app_nil_r. now split.
    - rewrite (H i a (or_introl eq_refl)). rewrite app_assoc. apply IH; [intros; apply H; now right|]. now apply adds_list. }
  apply (G its f0 [] H). apply adds_nil.
Qed.
Lemma reduce_adds step T sched n : deals sched n -> (forall i a, (i < n)%nat -> step i a = Ok (sumup (T i) a)) ->
  exists x, reduce step sched f0 = Ok x /\ adds x (flat_map T (concat sched)).
Proof.
  intros D H.
  assert (H' : forall i a, In i (concat sched) -> step i a = Ok (sumup (T i) a)).
  { intros i a Hi. apply H. eapply Permutation_in in Hi; [|exact D]. apply in_seq in Hi. lia. }
  clear H D. unfold reduce.
  assert (G : forall sched a l, (forall i a, In i (concat sched) -> step i a = Ok (sumup (T i) a)) -> adds a l ->
    exists x, fold_left (fun acc its => let! z := acc in let! s := thread_sum step its in Ok (fadd z s)) sched (Ok a) = Ok x /\ adds x (l ++ flat_map T (concat sched))).
  { clear. induction sched as [|its sched IH]; intros a l H A; cbn [fold_left bind concat].
    - exists a. cbn [flat_map]. rewrite app_nil_r. now split.
    - destruct (thread_adds step T its) as (s & Es & As); [intros; apply H, in_or_app; now left|]. rewrite Es. cbn [bind].
      rewrite flat_map_app, app_assoc. apply IH; [intros; apply H, in_or_app; now right|]. apply adds_two; assumption. }
  apply (G sched f0 [] H'). apply adds_nil.
Qed.
Lemma terms_perm {A} (T : nat -> list A) sched n : deals sched n -> Permutation (flat_map T (concat sched)) (flat_map T (seq 0 n)).
Proof. intro D. now apply Permutation_flat_map. Qed.
Lemma for_sum n (body : nat -> FL -> res FL) T a : (forall i a, (i < n)%nat -> body i a = Ok (sumup (T i) a)) ->
  for_ 0 n body a = Ok (sumup (flat_map T (seq 0 n)) a).
Proof.
  intro H. induction n as [|n IH]; [now rewrite for_nil by lia|]. rewrite for_last by lia. rewrite IH by auto. cbn [bind]. rewrite H by lia.
  rewrite seq_S, flat_map_app, fold_left_app. cbn [flat_map Nat.add]. now rewrite app_nil_r.
Qed.

(** ** the two schedules *)
Definition doubles (v : list FL) : Prop := forall x, In x v -> is_double x.
Lemma nth_double v i : doubles v -> is_double (nth i v f0).
Proof. intro H. destruct (Nat.lt_ge_cases i (length v)) as [L|L]; [apply H, nth_In, L|rewrite nth_overflow by exact L; reflexivity]. Qed.

Definition nir_term (dt : FL) (f_n f_np1 p : list FL) (i : nat) : FL :=
  fpow (fsub (nth i p f0) (fdiv (fsub (nth i f_np1 f0) (nth i f_n f0)) dt)) 2.
Lemma nir_term_nonneg dt f_n f_np1 p i : is_double dt -> doubles f_n -> doubles f_np1 -> doubles p ->
  is_double (nir_term dt f_n f_np1 p i) /\ (fin (nir_term dt f_n f_np1 p i) -> 0 <= val (nir_term dt f_n f_np1 p i)).
Proof.
  intros D A B C. unfold nir_term. set (x := fsub _ _).
  assert (DX : is_double x). { apply sub_double; [now apply nth_double|]. apply div_double; [|exact D]. apply sub_double; now apply nth_double. }
  change (fpow x 2) with (SFmul 53 1024 x x). split; [now apply mul_double|]. now apply sq_inv.
Qed.
Lemma notfin_val x : is_double x -> (fin x -> 0 <= val x) -> nonneg x.
Proof.
  intros D H. split; [exact D|]. destruct x as [s|s| |s m e]; try (cbn; lra). apply H. split; [exact D|exact I].
Qed.
Lemma flat_single {A B} (f : A -> B) l : flat_map (fun i => [f i]) l = map f l.
Proof. induction l as [|x l IH]; [reflexivity|]. cbn. now rewrite IH. Qed.

Lemma final_bound k eps s r1 r2 : 0 <= k <= / 100 -> 0 <= eps -> 0 <= s -> Rabs (r1 - s) <= k * s + eps -> Rabs (r2 - s) <= k * s + eps ->
  s <= 102 / 100 * (r1 + eps) /\ Rabs (r2 - r1) <= 205 / 100 * k * r1 + 3 * eps.
Proof.
  intros K E S A B. apply Rabs_b in A. apply Rabs_b in B.
  assert (Q : s * (1 - k) <= r1 + eps) by lra.
  assert (QQ : s <= 102 / 100 * (r1 + eps)). { assert (s * (99 / 100) <= s * (1 - k)) by (apply Rmult_le_compat_l; lra). lra. }
  split; [exact QQ|]. assert (X : k * s <= k * (102 / 100 * (r1 + eps))) by (apply Rmult_le_compat_l; lra).
  assert (Y : k * eps <= / 100 * eps) by (apply Rmult_le_compat_r; lra).
  assert (R0 : 0 <= r1 + eps) by lra.
  assert (Z : k * (r1 + eps) = k * r1 + k * eps) by ring.
  apply Rabs_le. split; [|]; 
  (assert (T : 2 * (k * (102 / 100 * (r1 + eps))) = 204 / 100 * (k * r1) + 204 / 100 * (k * eps)) by field;
   assert (T2 : 0 <= k * (r1 + eps)) by (apply Rmult_le_pos; lra); rewrite Z in T2;
   replace (205 / 100 * k * r1) with (205 / 100 * (k * r1)) by ring; lra).
Qed.
Lemma eps480 : 3 * (3 * tiny) <= / 2 ^ 480.
Proof.
  unfold tiny. replace 537%nat with (480 + 57)%nat by reflexivity. rewrite pow_add, Rinv_mult.
  assert (P := Rinv_0_lt_compat _ (pow2_pos 480)). assert (Q : / 2 ^ 57 <= / 9).
  { apply Rinv_le_contravar; [lra|]. apply Rle_trans with (2 ^ 4); [lra|]. apply Rle_pow; [lra|lia]. }
  assert (Q0 := Rinv_0_lt_compat _ (pow2_pos 57)). set (a := / 2 ^ 480) in *. set (b := / 2 ^ 57) in *. clearbody a b. nra.
Qed.
Lemma fnat_ok N : (1 <= N)%nat -> (Z.of_nat N <= 2 ^ 40)%Z -> fin (fnat N : FL) /\ val (fnat N : FL) = INR N /\ 0 < INR N.
Proof.
  intros H1 H. destruct (ofZ_ok (Z.of_nat N)) as [F E]; [lia|]. rewrite <- INR_IZR_INZ in E. split; [exact F|]. split; [exact E|]. apply lt_0_INR. lia.
Qed.

(** root mean square of non-negative terms *)
Lemma rms_agree x1 x2 l1 l2 N : adds x1 l1 -> adds x2 l2 -> Permutation l1 l2 -> (length l1 <= N)%nat -> (1 <= N)%nat -> (Z.of_nat N <= 2 ^ 40)%Z ->
  (forall t, In t l1 -> nonneg t) ->
  let r1 := fpowh (fdiv x1 (fnat N)) : FL in let r2 := fpowh (fdiv x2 (fnat N)) : FL in
  fin r1 -> val r1 <= 2 ^ 480 -> fin r2 /\ Rabs (val r2 - val r1) <= (2 * INR N + 4) / 2 ^ 52 * val r1 + / 2 ^ 480.
Proof.
  intros A1 A2 P L N1 NB H1 r1 r2 F1 B1.
  assert (H2 : forall t, In t l2 -> nonneg t) by (intros t Ht; apply H1; eapply Permutation_in; [apply Permutation_sym, P|exact Ht]).
  assert (L2 : (length l2 <= N)%nat) by (rewrite <- (Permutation_length P); exact L).
  destruct (fnat_ok N N1 NB) as (FN & EN & PN). assert (X := n_small N NB). assert (U := uu_pos). assert (U1 := uu_lt1).
  assert (T0 : 0 <= total l1) by now apply total_nonneg.
  assert (D1 := adds_double _ _ A1 H1). assert (D2 := adds_double _ _ A2 H2).
  unfold r1 in F1. change (fpowh (fdiv x1 (fnat N))) with (SFsqrt 53 1024 (SFdiv 53 1024 x1 (fnat N))) in F1.
  destruct (sqrt_inv _ (div_double x1 (fnat N) D1 (proj1 FN)) F1) as [Fq1 Pq1].
  destruct (div_inv x1 (fnat N) D1 FN ltac:(rewrite EN; exact PN) Fq1) as [Fx1 (d1 & e1 & Hd1 & He1 & Eq1)]. rewrite EN in Eq1.
  destruct (adds_finite x1 l1 A1 H1 Fx1) as [FT W1].
  destruct (mean_near _ _ _ N _ _ _ L X N1 W1 T0 Hd1 Eq1) as (c1 & C1 & M1).
  assert (Z0 : 0 <= INR N * uu) by (apply Rmult_le_pos; lra).
  set (m := total l1 / INR N) in *. assert (m0 : 0 <= m) by (unfold m; apply Rmult_le_pos; [exact T0|apply Rlt_le, Rinv_0_lt_compat, PN]).
  assert (Pm := sqrt_pos m). assert (Tp := tiny_pos). assert (Te := eta_tiny).
  assert (ES : forall q d' e', Rabs (sqrt q - sqrt m) <= (103 / 100 * (INR N * uu) + 11 / 10 * uu) * sqrt m + tiny -> Rabs d' <= uu -> Rabs e' <= eta ->
     Rabs (sqrt q * (1 + d') + e' - sqrt m) <= (104 / 100 * (INR N * uu) + 22 / 10 * uu) * sqrt m + 3 * tiny).
  { intros q d' e' Q Hd' He'. apply Rabs_b in Q. apply Rabs_b in Hd'. apply Rabs_b in He'.
    assert (Ti := tiny_small). assert (Et : eta <= tiny) by nra.
    set (x := INR N * uu) in *. set (s := sqrt m) in *. set (y := sqrt q) in *. clearbody x s y.
    assert (Y : - ((103 / 100 * x + 11 / 10 * uu) * s + tiny) <= y - s <= (103 / 100 * x + 11 / 10 * uu) * s + tiny) by exact Q.
    assert (xs : 0 <= x * s) by now apply Rmult_le_pos. assert (us : 0 <= uu * s) by (apply Rmult_le_pos; lra).
    assert (yb : Rabs y <= 11 / 10 * s + 2 * tiny).
    { apply Rabs_le. assert (x * s <= / 1000 * s) by (apply Rmult_le_compat_r; lra). assert (uu * s <= / 1000 * s) by (apply Rmult_le_compat_r; lra). lra. }
    assert (yd : Rabs (y * d') <= (11 / 10 * s + 2 * tiny) * uu).
    { rewrite Rabs_mult. apply Rmult_le_compat; try apply Rabs_pos; [exact yb|apply Rabs_le; lra]. }
    apply Rabs_b in yd. assert (uu * tiny <= / 1000 * tiny) by (apply Rmult_le_compat_r; lra).
    apply Rabs_le. lra. }
  assert (K : 0 <= 104 / 100 * (INR N * uu) + 22 / 10 * uu <= / 100) by lra.
  assert (R1 : Rabs (val r1 - sqrt m) <= (104 / 100 * (INR N * uu) + 22 / 10 * uu) * sqrt m + 3 * tiny).
  { destruct (sqrt_val _ (proj1 Fq1)) as (d' & e' & Hd' & He' & E'). unfold r1. change (val (fpowh (fdiv x1 (fnat N)))) with (val (SFsqrt 53 1024 (SFdiv 53 1024 x1 (fnat N)))). rewrite E'.
    apply ES; [|assumption..]. apply (sqrt_near m c1 e1); [exact m0|lra|exact C1|exact He1|exact M1|exact Pq1]. }
  assert (V1 : 0 <= val r1) by (apply sqrt_nonneg, Fq1).
  assert (SM : sqrt m <= 102 / 100 * (val r1 + 3 * tiny)) by (eapply (final_bound _ _ _ _ _ K); [lra|exact Pm|exact R1|exact R1]).
  assert (SM2 : sqrt m <= 2 ^ 482).
  { replace (2 ^ 482) with (4 * 2 ^ 480) by (simpl; ring). assert (1 <= 2 ^ 480) by (apply pow_R1_Rle; lra). assert (Ti := tiny_small). lra. }
  assert (MB : m <= 2 ^ 964).
  { rewrite <- (sqrt_sqrt m) by exact m0. replace (2 ^ 964) with (2 ^ 482 * 2 ^ 482) by (rewrite <- pow_add; reflexivity). apply Rmult_le_compat; assumption. }
  assert (TB : total l1 <= 2 ^ 1004).
  { replace (total l1) with (m * INR N) by (unfold m; field; lra). replace (2 ^ 1004) with (2 ^ 964 * 2 ^ 40) by (rewrite <- pow_add; reflexivity).
    apply Rmult_le_compat; [exact m0|lra|exact MB|now apply n_big]. }
  assert (ET := total_perm _ _ P).
  assert (PW : (1 + uu) ^ length l2 <= 2).
  { assert (NN : INR (length l2) <= INR N) by now apply le_INR. assert (INR (length l2) * uu <= INR N * uu) by (apply Rmult_le_compat_r; lra).
    assert (C := upper (length l2) ltac:(lra)). assert (0 <= INR (length l2)) by apply pos_INR. lra. }
  assert (BB : 2 ^ 1005 <= Fp.big) by (unfold Fp.big; apply Rle_pow; [lra|lia]).
  assert (Fx2 : fin x2).
  { apply (adds_in_range x2 l2 A2).
    - intros t Ht. split; [now apply H2|]. apply FT. eapply Permutation_in; [apply Permutation_sym, P|exact Ht].
    - rewrite <- ET. eapply Rle_trans; [|exact BB]. replace (2 ^ 1005) with (2 ^ 1004 * 2) by (simpl; ring). apply Rmult_le_compat; [exact T0|apply pow_le; lra|exact TB|exact PW]. }
  destruct (adds_finite x2 l2 A2 H2 Fx2) as [_ W2]. rewrite <- ET in W2.
  assert (X2 : 0 <= val x2 <= 2 ^ 1005).
  { destruct W2 as [W3 W4]. split; [eapply Rle_trans; [|exact W3]; apply Rmult_le_pos; [exact T0|apply pow_le; lra]|].
    eapply Rle_trans; [exact W4|]. replace (2 ^ 1005) with (2 ^ 1004 * 2) by (simpl; ring). apply Rmult_le_compat; [exact T0|apply pow_le; lra|exact TB|exact PW]. }
  assert (N1R : 1 <= INR N) by (change 1 with (INR 1); now apply le_INR).
  destruct (div_ok x2 (fnat N) Fx2 FN ltac:(rewrite EN; lra)) as [Fq2 (d2 & e2 & Hd2 & He2 & Eq2)].
  { rewrite EN. rewrite Rabs_right by (apply Rle_ge, Rmult_le_pos; [lra|apply Rlt_le, Rinv_0_lt_compat, PN]).
    apply Rle_trans with (val x2 * / 1); [apply Rmult_le_compat_l; [lra|apply Rinv_le_contravar; lra]|]. rewrite Rinv_1. lra. }
  rewrite EN in Eq2. assert (Pq2 := div_nonneg x2 (fnat N) Fx2 FN (proj1 X2) ltac:(rewrite EN; exact PN) Fq2).
  destruct (mean_near _ _ _ N _ _ _ L2 X N1 W2 T0 Hd2 Eq2) as (c2 & C2 & M2). fold m in M2.
  assert (R2 : Rabs (val r2 - sqrt m) <= (104 / 100 * (INR N * uu) + 22 / 10 * uu) * sqrt m + 3 * tiny).
  { destruct (sqrt_val _ (proj1 Fq2)) as (d' & e' & Hd' & He' & E'). unfold r2. change (val (fpowh (fdiv x2 (fnat N)))) with (val (SFsqrt 53 1024 (SFdiv 53 1024 x2 (fnat N)))). rewrite E'.
    apply ES; [|assumption..]. apply (sqrt_near m c2 e2); [exact m0|lra|exact C2|exact He2|exact M2|exact Pq2]. }
  split; [exact (sqrt_fin _ Fq2 Pq2)|].
  destruct (final_bound _ (3 * tiny) _ _ _ K ltac:(lra) Pm R1 R2) as [_ FB]. eapply Rle_trans; [exact FB|]. apply Rplus_le_compat; [|exact eps480].
  apply Rmult_le_compat_r; [exact V1|]. change ((2 * INR N + 4) / 2 ^ 52) with ((2 * INR N + 4) * ww). replace ww with (2 * uu) by (rewrite ww_uu; field). lra.
Qed.

(** arithmetic mean of non-negative terms *)
Lemma mean_agree x1 x2 l1 l2 N : adds x1 l1 -> adds x2 l2 -> Permutation l1 l2 -> (length l1 <= N)%nat -> (1 <= N)%nat -> (Z.of_nat N <= 2 ^ 40)%Z ->
  (forall t, In t l1 -> nonneg t) ->
  let r1 := fdiv x1 (fnat N) : FL in let r2 := fdiv x2 (fnat N) : FL in
  fin r1 -> val r1 <= 2 ^ 960 -> fin r2 /\ Rabs (val r2 - val r1) <= (2 * INR N + 4) / 2 ^ 52 * val r1 + / 2 ^ 480.
Proof.
  intros A1 A2 P L N1 NB H1 r1 r2 Fq1 B1.
  assert (H2 : forall t, In t l2 -> nonneg t) by (intros t Ht; apply H1; eapply Permutation_in; [apply Permutation_sym, P|exact Ht]).
  assert (L2 : (length l2 <= N)%nat) by (rewrite <- (Permutation_length P); exact L).
  destruct (fnat_ok N N1 NB) as (FN & EN & PN). assert (X := n_small N NB). assert (U := uu_pos). assert (U1 := uu_lt1).
  assert (T0 : 0 <= total l1) by now apply total_nonneg.
  assert (D1 := adds_double _ _ A1 H1). assert (D2 := adds_double _ _ A2 H2).
  destruct (div_inv x1 (fnat N) D1 FN ltac:(rewrite EN; exact PN) Fq1) as [Fx1 (d1 & e1 & Hd1 & He1 & Eq1)]. rewrite EN in Eq1.
  destruct (adds_finite x1 l1 A1 H1 Fx1) as [FT W1].
  destruct (mean_near _ _ _ N _ _ _ L X N1 W1 T0 Hd1 Eq1) as (c1 & C1 & M1).
  assert (Z0 : 0 <= INR N * uu) by (apply Rmult_le_pos; lra).
  set (m := total l1 / INR N) in *. assert (m0 : 0 <= m) by (unfold m; apply Rmult_le_pos; [exact T0|apply Rlt_le, Rinv_0_lt_compat, PN]).
  assert (Tp := tiny_pos). assert (Te := eta_tiny). assert (Ti := tiny_small).
  assert (ES : forall q c e, q = m * c + e -> Rabs (c - 1) <= 103 / 100 * (INR N * uu) + 11 / 10 * uu -> Rabs e <= eta ->
     Rabs (q - m) <= (104 / 100 * (INR N * uu) + 22 / 10 * uu) * m + 3 * tiny).
  { intros q c e -> C E. apply Rabs_b in E. replace (m * c + e - m) with (m * (c - 1) + e) by ring. eapply Rle_trans; [apply Rabs_triang|].
    apply Rplus_le_compat; [|apply Rabs_le; nra]. rewrite Rabs_mult, (Rabs_right m) by lra. rewrite (Rmult_comm _ m). apply Rmult_le_compat_l; [exact m0|]. lra. }
  assert (K : 0 <= 104 / 100 * (INR N * uu) + 22 / 10 * uu <= / 100) by lra.
  assert (R1 := ES _ _ _ M1 C1 He1). change (SFdiv 53 1024 x1 (fnat N)) with r1 in R1.
  assert (V1x : 0 <= val x1) by (destruct W1 as [W _]; eapply Rle_trans; [|exact W]; apply Rmult_le_pos; [exact T0|apply pow_le; lra]).
  assert (V1 : 0 <= val r1) by (apply (div_nonneg x1 (fnat N) Fx1 FN V1x); [rewrite EN; exact PN|exact Fq1]).
  assert (SM : m <= 102 / 100 * (val r1 + 3 * tiny)) by (eapply (final_bound _ _ _ _ _ K); [lra|exact m0|exact R1|exact R1]).
  assert (MB : m <= 2 ^ 962).
  { replace (2 ^ 962) with (4 * 2 ^ 960) by (simpl; ring). assert (1 <= 2 ^ 960) by (apply pow_R1_Rle; lra). lra. }
  assert (TB : total l1 <= 2 ^ 1002).
  { replace (total l1) with (m * INR N) by (unfold m; field; lra). replace (2 ^ 1002) with (2 ^ 962 * 2 ^ 40) by (rewrite <- pow_add; reflexivity).
    apply Rmult_le_compat; [exact m0|lra|exact MB|now apply n_big]. }
  assert (ET := total_perm _ _ P).
  assert (PW : (1 + uu) ^ length l2 <= 2).
  { assert (NN : INR (length l2) <= INR N) by now apply le_INR. assert (INR (length l2) * uu <= INR N * uu) by (apply Rmult_le_compat_r; lra).
    assert (C := upper (length l2) ltac:(lra)). assert (0 <= INR (length l2)) by apply pos_INR. lra. }
  assert (BB : 2 ^ 1003 <= Fp.big) by (unfold Fp.big; apply Rle_pow; [lra|lia]).
  assert (Fx2 : fin x2).
  { apply (adds_in_range x2 l2 A2).
    - intros t Ht. split; [now apply H2|]. apply FT. eapply Permutation_in; [apply Permutation_sym, P|exact Ht].
    - rewrite <- ET. eapply Rle_trans; [|exact BB]. replace (2 ^ 1003) with (2 ^ 1002 * 2) by (simpl; ring). apply Rmult_le_compat; [exact T0|apply pow_le; lra|exact TB|exact PW]. }
  destruct (adds_finite x2 l2 A2 H2 Fx2) as [_ W2]. rewrite <- ET in W2.
  assert (X2 : 0 <= val x2 <= 2 ^ 1003).
  { destruct W2 as [W3 W4]. split; [eapply Rle_trans; [|exact W3]; apply Rmult_le_pos; [exact T0|apply pow_le; lra]|].
    eapply Rle_trans; [exact W4|]. replace (2 ^ 1003) with (2 ^ 1002 * 2) by (simpl; ring). apply Rmult_le_compat; [exact T0|apply pow_le; lra|exact TB|exact PW]. }
  assert (N1R : 1 <= INR N) by (change 1 with (INR 1); now apply le_INR).
  destruct (div_ok x2 (fnat N) Fx2 FN ltac:(rewrite EN; lra)) as [Fq2 (d2 & e2 & Hd2 & He2 & Eq2)].
  { rewrite EN. rewrite Rabs_right by (apply Rle_ge, Rmult_le_pos; [lra|apply Rlt_le, Rinv_0_lt_compat, PN]).
    apply Rle_trans with (val x2 * / 1); [apply Rmult_le_compat_l; [lra|apply Rinv_le_contravar; lra]|]. rewrite Rinv_1. lra. }
  rewrite EN in Eq2.
  destruct (mean_near _ _ _ N _ _ _ L2 X N1 W2 T0 Hd2 Eq2) as (c2 & C2 & M2). fold m in M2.
  assert (R2 := ES _ _ _ M2 C2 He2). change (SFdiv 53 1024 x2 (fnat N)) with r2 in R2.
  split; [exact Fq2|].
  destruct (final_bound _ (3 * tiny) _ _ _ K ltac:(lra) m0 R1 R2) as [_ FB]. eapply Rle_trans; [exact FB|]. apply Rplus_le_compat; [|exact eps480].
  apply Rmult_le_compat_r; [exact V1|]. change ((2 * INR N + 4) / 2 ^ 52) with ((2 * INR N + 4) * ww). replace ww with (2 * uu) by (rewrite ww_uu; field). lra.
Qed.

(** ** C82: the norm of the residual *)
Theorem C82_norm_indep_res (g : grid FL) s1 s2 dt f_n f_np1 p r1 :
  length f_n = g_n3 g -> length f_np1 = g_n3 g -> length p = g_n3 g ->
  is_double dt -> doubles f_n -> doubles f_np1 -> doubles p ->
  (1 <= g_n3 g)%nat -> (Z.of_nat (g_n3 g) <= 2 ^ 40)%Z -> deals s1 (g_n3 g) -> deals s2 (g_n3 g) ->
  norm_indep_res g s1 dt f_n f_np1 p = Ok r1 -> fin r1 -> val r1 <= 2 ^ 480 ->
  exists r2, norm_indep_res g s2 dt f_n f_np1 p = Ok r2 /\ fin r2 /\
    Rabs (val r2 - val r1) <= (2 * INR (g_n3 g) + 4) / 2 ^ 52 * val r1 + / 2 ^ 480.
Proof.
  intros L1 L2 L3 Dd Da Db Dp N1 NB S1 S2 E1 F1 B1. unfold norm_indep_res in *. rewrite L1, L2, L3, !assert_true in * by apply Nat.eqb_refl. cbn [bind] in *.
  set (T := fun i => [nir_term dt f_n f_np1 p i]).
  assert (ST : forall i a, (i < g_n3 g)%nat -> nir_step dt f_n f_np1 p i a = Ok (sumup (T i) a)).
  { intros i a Hi. unfold nir_step. rewrite !(vget_ok _ _ f0) by lia. reflexivity. }
  destruct (reduce_adds _ T s1 _ S1 ST) as (x1 & X1 & A1). destruct (reduce_adds _ T s2 _ S2 ST) as (x2 & X2 & A2).
  rewrite X1 in E1. rewrite X2. cbn [bind] in *. injection E1 as <-. eexists. split; [reflexivity|].
  assert (P1 := terms_perm T _ _ S1). assert (P2 := terms_perm T _ _ S2).
  apply (rms_agree x1 x2 _ _ (g_n3 g) A1 A2); auto.
  - eapply Permutation_trans; [exact P1|]. now apply Permutation_sym.
  - rewrite (Permutation_length P1). unfold T. rewrite flat_single, map_length, seq_length. lia.
  - intros t Ht. unfold T in Ht. rewrite flat_single in Ht. apply in_map_iff in Ht. destruct Ht as (i & <- & _).
    destruct (nir_term_nonneg dt f_n f_np1 p i) as [D N]; auto. now apply notfin_val.
Qed.

(** ** the total variation *)
Definition tv_termB (g : grid FL) (v : list FL) (ix it ip : nat) : FL :=
  let at_ a b c := nth (indx_R_th_ph g a b c) v f0 in
  fpowh (fadd (fadd (fpow (fsub (at_ (ix + 1) it ip) (at_ ix it ip)) 2) (fpow (fsub (at_ ix (it + 1) ip) (at_ ix it ip)) 2))
              (fpow (fsub (at_ ix it (ip + 1)) (at_ ix it ip)) 2))%nat.
Lemma tv_termB_nonneg g v ix it ip : doubles v -> nonneg (tv_termB g v ix it ip).
Proof.
  intro D. unfold tv_termB. cbv zeta.
  assert (SQ : forall a c, is_double (fpow (fsub (nth a v f0) (nth c v f0)) 2)).
  { intros a c. assert (DX : is_double (fsub (nth a v f0) (nth c v f0))) by (apply sub_double; now apply nth_double). now apply mul_double. }
  match goal with |- nonneg (fpowh ?z) => assert (Z : is_double z) by (apply add_double; [apply add_double|]; apply SQ); change (fpowh z) with (SFsqrt 53 1024 z) end.
  split; [now apply sqrt_double|now apply sqrt_nonneg].
Qed.
Definition tv_list (g : grid FL) (v : list FL) (ix : nat) : list FL :=
  flat_map (fun it => flat_map (fun ip => [tv_termB g v ix it ip]) (seq 0 (g_nphi g - 1))) (seq 0 (g_nlat g - 1)).
Lemma flat_len {A} (f : nat -> list A) k n : (forall i, length (f i) = k) -> forall a, length (flat_map f (seq a n)) = (n * k)%nat.
Proof. intros H. induction n as [|n IH]; intro a; [reflexivity|]. cbn [seq flat_map]. rewrite app_length, H, IH. lia. Qed.
Lemma tv_list_len g v ix : length (tv_list g v ix) = ((g_nlat g - 1) * (g_nphi g - 1))%nat.
Proof. unfold tv_list. apply flat_len. intro it. rewrite (flat_len _ 1) by reflexivity. lia. Qed.

Theorem C82_total_variation (g : grid FL) s1 s2 v r1 :
  length v = g_n3 g -> doubles v -> (1 <= g_nx g)%nat -> (1 <= g_nlat g)%nat -> (1 <= g_nphi g)%nat -> (Z.of_nat (g_n3 g) <= 2 ^ 40)%Z ->
  deals s1 (g_nx g - 1) -> deals s2 (g_nx g - 1) ->
  total_variation g s1 v = Ok r1 -> fin r1 -> val r1 <= 2 ^ 960 ->
  exists r2, total_variation g s2 v = Ok r2 /\ fin r2 /\
    Rabs (val r2 - val r1) <= (2 * INR (g_n3 g) + 4) / 2 ^ 52 * val r1 + / 2 ^ 480.
Proof.
  intros L Dv X1 H1 H2 NB S1 S2 E1 F1 B1. unfold total_variation in *. rewrite assert_true in * by (rewrite L; apply Nat.eqb_refl). cbn [bind] in *.
  assert (IN : forall ix it ip, (ix < g_nx g)%nat -> (it < g_nlat g)%nat -> (ip < g_nphi g)%nat -> v.[indx_R_th_ph g ix it ip] = Ok (nth (indx_R_th_ph g ix it ip) v f0)).
  { intros. apply vget_ok. rewrite L. unfold g_n3. now apply ix_R_th_ph_lt. }
  assert (ST : forall ix a, (ix < g_nx g - 1)%nat -> tv_step g v ix a = Ok (sumup (tv_list g v ix) a)).
  { intros ix a Hix. unfold tv_step, tv_list. rewrite !wsub_le by auto. apply for_sum. intros it b Hit. apply for_sum. intros ip c Hip.
    rewrite !IN by lia. reflexivity. }
  destruct (reduce_adds _ _ s1 _ S1 ST) as (x1 & Y1 & A1). destruct (reduce_adds _ _ s2 _ S2 ST) as (x2 & Y2 & A2).
  rewrite Y1 in E1. rewrite Y2. cbn [bind] in *. injection E1 as <-. eexists. split; [reflexivity|].
  assert (P1 := terms_perm (tv_list g v) _ _ S1). assert (P2 := terms_perm (tv_list g v) _ _ S2).
  apply (mean_agree x1 x2 _ _ (g_n3 g) A1 A2); auto.
  - eapply Permutation_trans; [exact P1|]. now apply Permutation_sym.
  - rewrite (Permutation_length P1). rewrite (flat_len _ _ _ (tv_list_len g v)). unfold g_n3. rewrite <- Nat.mul_assoc. apply Nat.mul_le_mono; [lia|]. apply Nat.mul_le_mono; lia.
  - unfold g_n3. destruct (g_nx g); [lia|]. destruct (g_nlat g); [lia|]. destruct (g_nphi g); [lia|]. cbn. lia.
  - intros t Ht. apply in_flat_map in Ht. destruct Ht as (ix & _ & Ht). unfold tv_list in Ht. apply in_flat_map in Ht. destruct Ht as (it & _ & Ht).
    apply in_flat_map in Ht. destruct Ht as (ip & _ & [<-|[]]). now apply tv_termB_nonneg.
Qed.

(** the hypotheses are met by the residual of C25_norm_indep_res_schedule_dependent_in_double, whose value does
    depend on the schedule: 2^54 + 27 on 28 points *)
Lemma val_le_mant s m e : (e <= 0)%Z -> val (S754_finite s m e) <= IZR (Zpos m).
Proof.
  intro H. cbn [val]. assert (P : 0 < IZR (Zpos m)) by (apply IZR_lt; lia).
  assert (Q : 0 < powerRZ 2 e <= 1).
  { split; [apply powerRZ_lt; lra|]. destruct e as [|q|q]; [cbn; lra|lia|]. cbn [powerRZ]. apply Rle_trans with (/ 1); [apply Rinv_le_contravar; [lra|apply pow_R1_Rle; lra]|rewrite Rinv_1; lra]. }
  set (a := powerRZ 2 e) in *. set (b := IZR (Zpos m)) in *. clearbody a b. destruct s; nra.
Qed.
Example C82_example : exists (g : grid FL) r1,
  Grid_make (Build false true false) (one_sht) (sf_ofZ 100) (sf_ofZ 2) (sf_ofZ 100) 7 1 1 2 2 = Ok g /\
  norm_indep_res g (s_serial 28) (sf_ofZ 1) w_z w_z w_p = Ok r1 /\
  forall s2, deals s2 28 -> exists r2, norm_indep_res g s2 (sf_ofZ 1) w_z w_z w_p = Ok r2 /\ fin r2 /\
    Rabs (val r2 - val r1) <= 60 / 2 ^ 52 * val r1 + / 2 ^ 480.
Proof.
  destruct (Grid_make_ok (Build false true false) one_sht (sf_ofZ 100) (sf_ofZ 2) (sf_ofZ 100) 7 1 1 2 2) as (g & Hg); [cbn; lia|discriminate|].
  pose proof (Grid_make_tables _ _ _ _ _ _ _ _ _ _ _ Hg) as T.
  assert (E3 : g_n3 g = 28%nat). { unfold g_n3. replace (g_nx g) with 7%nat by (symmetry; apply T). replace (g_nlat g) with 2%nat by (symmetry; apply T). replace (g_nphi g) with 2%nat by (symmetry; apply T). reflexivity. }
  assert (E : norm_indep_res g (s_serial 28) (sf_ofZ 1) w_z w_z w_p = Ok (SFsqrt 53 1024 (SFdiv 53 1024 (sf_ofZ (2 ^ 54)) (sf_ofZ 28)))).
  { unfold norm_indep_res. rewrite E3. rewrite !assert_true by reflexivity. cbn [bind].
    match goal with |- bind ?a _ = _ => replace a with (Ok (sf_ofZ (2 ^ 54))) by (symmetry; exact (proj1 (nir_values lexp llog lcos lsin lacos lpi))) end. reflexivity. }
  exists g. eexists. split; [exact Hg|]. split; [exact E|]. intros s2 D2.
  assert (DZ : doubles w_z) by (intros x Hx; apply repeat_spec in Hx; subst; reflexivity).
  assert (DP : doubles w_p).
  { intros x Hx. unfold w_p in Hx. destruct Hx as [<-|Hx]; [reflexivity|]. apply repeat_spec in Hx. subst. reflexivity. }
  destruct (C82_norm_indep_res g (s_serial 28) s2 (sf_ofZ 1) w_z w_z w_p _ ltac:(rewrite E3; reflexivity) ltac:(rewrite E3; reflexivity) ltac:(rewrite E3; reflexivity)
    ltac:(reflexivity) DZ DZ DP ltac:(rewrite E3; lia) ltac:(rewrite E3; lia) ltac:(rewrite E3; apply deals_serial) ltac:(rewrite E3; exact D2) E) as (r2 & A & B & C).
  - split; [apply sqrt_double, div_double; reflexivity|]. vm_compute. exact I.
  - match goal with |- val ?x <= _ => let y := eval vm_compute in x in change x with y end.
    eapply Rle_trans; [apply val_le_mant; lia|]. change 2 with (IZR 2). rewrite pow_IZR. apply IZR_le. vm_compute. discriminate.
  - exists r2. split; [exact A|]. split; [exact B|]. rewrite E3 in C. eapply Rle_trans; [exact C|]. right. f_equal. f_equal. simpl. field.
Qed.
End B64.
