(** * C81: rounding errors of the finite-difference operators in IEEE double precision.
    The same model function is run on doubles ([b64]) and on the real numbers the doubles stand for. *)
From Coq Require Import ZArith Reals SpecFloat Bool Lra Lia List.
From Coquelicot Require Import Coquelicot.
From Verif Require Import Base BaseLemmas Arith MFd PFd PFdR PMake PropFd PropFd2 FpSpec Fp FpErr.
Local Open Scope R_scope.

Lemma ap_addl x y r s A B j k : ap x r A j -> ap y s B k -> 0 <= k <= j -> j <= 900 -> A + B <= 2 ^ 1000 ->
  ap (SFadd 53 1024 x y) (r + s) (A + B) (j + 1).
Proof. intros HX HY K J AB. assert (H := ap_add x y r s A B j k ltac:(lra) ltac:(lra) AB HX HY). rewrite Rmax_left in H by lra. exact H. Qed.
Lemma ap_subl x y r s A B j k : ap x r A j -> ap y s B k -> 0 <= k <= j -> j <= 900 -> A + B <= 2 ^ 1000 ->
  ap (SFsub 53 1024 x y) (r - s) (A + B) (j + 1).
Proof. intros HX HY K J AB. assert (H := ap_sub x y r s A B j k ltac:(lra) ltac:(lra) AB HX HY). rewrite Rmax_left in H by lra. exact H. Qed.
Lemma ap_mull x y r s A B j k : ap x r A j -> ap y s B k -> 0 <= j <= 900 -> 0 <= k <= 900 -> mid (A * B) ->
  ap (SFmul 53 1024 x y) (r * s) (A * B) (j + k + 1).
Proof. intros. now apply ap_mul. Qed.
Lemma ap_ofZ z : (0 < z < 10000)%Z -> ap (SpecFloat.binary_normalize 53 1024 z 0 false) (IZR z) (IZR z) 0.
Proof. intro H. assert (P : 0 < IZR z) by (apply IZR_lt; lia). assert (Q := ap_Z z ltac:(lia)). rewrite Rabs_right in Q by lra. exact Q. Qed.
Lemma ap_subr x y r s A B j k : ap x r A j -> ap y s B k -> 0 <= j <= k -> k <= 900 -> A + B <= 2 ^ 1000 ->
  ap (SFsub 53 1024 x y) (r - s) (A + B) (k + 1).
Proof. intros HX HY K J AB. assert (H := ap_sub x y r s A B j k ltac:(lra) ltac:(lra) AB HX HY). rewrite Rmax_right in H by lra. exact H. Qed.
Lemma ap_neg p : (Zpos p < 10000)%Z -> ap (SpecFloat.binary_normalize 53 1024 (Zneg p) 0 false) (IZR (Zneg p)) (IZR (Zpos p)) 0.
Proof.
  intro H. assert (P : 0 < IZR (Zpos p)) by (apply IZR_lt; lia). assert (Q := ap_Z (Zneg p) ltac:(lia)).
  replace (Rabs (IZR (Zneg p))) with (IZR (Zpos p)) in Q; [exact Q|]. rewrite <- abs_IZR. reflexivity.
Qed.
Lemma ap_weak x r r' A A' k k' : ap x r A k -> r = r' -> A <= A' -> k * A <= k' * A' -> ap x r' A' k'.
Proof.
  intros (F & H1 & H2) <- HA HK. split; [exact F|split; [lra|]]. eapply Rle_trans; [exact H2|].
  replace (k * ww * A) with (ww * (k * A)) by ring. replace (k' * ww * A') with (ww * (k' * A')) by ring. apply Rmult_le_compat_l; [apply Rlt_le, ww_pos|exact HK].
Qed.

(** data: doubles bounded by V *)
Definition range (V : R) : Prop := / 2 ^ 900 <= V <= 2 ^ 900.
Definition bounded_by (V : R) (x : spec_float) : Prop := fin x /\ Rabs (val x) <= V.

Lemma range_mid V c : range V -> / 2 ^ 90 <= c <= 2 ^ 90 -> mid (c * V).
Proof.
  intros [H1 H2] [C1 C2]. assert (P9 := Rinv_0_lt_compat _ (pow2_pos 90)). assert (P90 := Rinv_0_lt_compat _ (pow2_pos 900)). split.
  - apply Rle_trans with (/ 2 ^ 90 * / 2 ^ 900).
    + rewrite <- Rinv_mult, <- pow_add. apply Rinv_le_contravar; [apply pow2_pos|]. apply Rle_pow; [lra|lia].
    + apply Rmult_le_compat; lra.
  - apply Rle_trans with (2 ^ 90 * 2 ^ 900); [apply Rmult_le_compat; lra|]. rewrite <- pow_add. apply Rle_pow; [lra|lia].
Qed.
Lemma lit_ok c : / 100000 <= c <= 100000 -> / 2 ^ 90 <= c <= 2 ^ 90.
Proof.
  intros [A B]. split.
  - eapply Rle_trans; [|exact A]. apply Rinv_le_contravar; [lra|]. apply Rle_trans with (2 ^ 17); [simpl; lra|apply Rle_pow; [lra|lia]].
  - eapply Rle_trans; [exact B|]. apply Rle_trans with (2 ^ 17); [simpl; lra|apply Rle_pow; [lra|lia]].
Qed.
Lemma mid_lit c : / 100000 <= c <= 100000 -> mid c.
Proof.
  intro H. apply lit_ok in H. destruct H as [A B]. split.
  - eapply Rle_trans; [|exact A]. apply Rinv_le_contravar; [apply pow2_pos|]. apply Rle_pow; [lra|lia].
  - eapply Rle_trans; [exact B|]. apply Rle_pow; [lra|lia].
Qed.
Lemma lit_sum c : c <= 100000 -> c <= 2 ^ 1000.
Proof. intro C. eapply Rle_trans; [exact C|]. apply Rle_trans with (2 ^ 17); [simpl; lra|apply Rle_pow; [lra|lia]]. Qed.
Lemma range_sum V c : range V -> c <= 100000 -> c * V <= 2 ^ 1000.
Proof.
  intros [H1 H2] C. assert (P90 := Rinv_0_lt_compat _ (pow2_pos 900)).
  apply Rle_trans with (2 ^ 90 * 2 ^ 900); [|rewrite <- pow_add; apply Rle_pow; [lra|lia]].
  apply Rle_trans with (2 ^ 90 * V); [|apply Rmult_le_compat_l; [apply Rlt_le, pow2_pos|lra]].
  apply Rmult_le_compat_r; [lra|]. eapply Rle_trans; [exact C|]. apply Rle_trans with (2 ^ 17); [simpl; lra|apply Rle_pow; [lra|lia]].
Qed.
Lemma range_pos V : range V -> 0 < V.
Proof. intros [H _]. eapply Rlt_le_trans; [|exact H]. apply Rinv_0_lt_compat, pow2_pos. Qed.

Section B64.
Variables (lexp llog lcos lsin lacos : spec_float -> spec_float) (lpi : spec_float).
Local Instance b64i : Arith spec_float := b64 lexp llog lcos lsin lacos lpi.
Local Notation FL := spec_float.

Ltac flops := cbv [fadd fsub fmul fdiv fopp fofZ b64i b64 sf_ofZ R_arith].
Ltac litmid V HV := first [apply (range_mid V); [exact HV|apply lit_ok; lra] | apply mid_lit; lra].
Ltac collect V HV :=
  match goal with |- ?e <= 2 ^ 1000 =>
    let Q := fresh "Q" in
    first [apply lit_sum; lra|eapply Rle_trans; [|apply (range_sum V 1000 HV); lra]; assert (Q := range_pos V HV); lra]
  end.
Ltac apstep V HV :=
  lazymatch goal with
  | |- ap (SFadd _ _ _ _) _ _ _ => eapply ap_addl; [apstep V HV|apstep V HV|lra|lra|collect V HV]
  | |- ap (SFsub _ _ _ _) _ _ _ => first [eapply ap_subl; [apstep V HV|apstep V HV|lra|lra|collect V HV] | eapply ap_subr; [apstep V HV|apstep V HV|lra|lra|collect V HV]]
  | |- ap (SFmul _ _ _ _) _ _ _ => eapply ap_mull; [apstep V HV|apstep V HV|lra|lra|litmid V HV]
  | |- ap (SFopp _) _ _ _ => eapply ap_opp; apstep V HV
  | |- ap (SFdiv _ _ _ _) _ _ _ => eapply ap_q; lia
  | |- ap (SpecFloat.binary_normalize _ _ (Zneg _) _ _) _ _ _ => eapply ap_neg; lia
  | |- ap (SpecFloat.binary_normalize _ _ _ _ _) _ _ _ => eapply ap_ofZ; lia
  | |- ap _ _ _ _ => eassumption
  end.

Section Data.
Variable V : R.
Hypothesis HV : range V.
Definition dat (x : FL) (r : R) : Prop := ap x r V 0.

Lemma s0_ap a0 a1 a2 a3 a4 a5 a6 r0 r1 r2 r3 r4 r5 r6 :
  dat a0 r0 -> dat a1 r1 -> dat a2 r2 -> dat a3 r3 -> dat a4 r4 -> dat a5 r5 -> dat a6 r6 ->
  ap (der_s0 a0 a1 a2 a3 a4 a5 a6) (der_s0 r0 r1 r2 r3 r4 r5 r6) (28 * V) 8.
Proof.
  unfold dat. intros. assert (PV := range_pos V HV). unfold der_s0. flops. eapply ap_weak; [apstep V HV|reflexivity|lra|lra].
Qed.
Lemma s1_ap a0 a1 a2 a3 a4 a5 a6 r0 r1 r2 r3 r4 r5 r6 :
  dat a0 r0 -> dat a1 r1 -> dat a2 r2 -> dat a3 r3 -> dat a4 r4 -> dat a5 r5 -> dat a6 r6 ->
  ap (der_s1 a0 a1 a2 a3 a4 a5 a6) (der_s1 r0 r1 r2 r3 r4 r5 r6) (28 * V) 8.
Proof.
  unfold dat. intros. assert (PV := range_pos V HV). unfold der_s1. flops. eapply ap_weak; [apstep V HV|reflexivity|lra|lra].
Qed.
Lemma s2_ap a0 a1 a2 a3 a4 a5 a6 r0 r1 r2 r3 r4 r5 r6 :
  dat a0 r0 -> dat a1 r1 -> dat a2 r2 -> dat a3 r3 -> dat a4 r4 -> dat a5 r5 -> dat a6 r6 ->
  ap (der_s2 a0 a1 a2 a3 a4 a5 a6) (der_s2 r0 r1 r2 r3 r4 r5 r6) (28 * V) 8.
Proof.
  unfold dat. intros. assert (PV := range_pos V HV). unfold der_s2. flops. eapply ap_weak; [apstep V HV|reflexivity|lra|lra].
Qed.
Lemma sc_ap a0 a1 a2 a4 a5 a6 r0 r1 r2 r4 r5 r6 :
  dat a0 r0 -> dat a1 r1 -> dat a2 r2 -> dat a4 r4 -> dat a5 r5 -> dat a6 r6 ->
  ap (der_s a0 a1 a2 a4 a5 a6) (der_s r0 r1 r2 r4 r5 r6) (28 * V) 8.
Proof.
  unfold dat. intros. assert (PV := range_pos V HV). unfold der_s. flops. eapply ap_weak; [apstep V HV|reflexivity|lra|lra].
Qed.
Lemma t0_ap a0 a1 a2 a3 a4 a5 a6 a7 r0 r1 r2 r3 r4 r5 r6 r7 :
  dat a0 r0 -> dat a1 r1 -> dat a2 r2 -> dat a3 r3 -> dat a4 r4 -> dat a5 r5 -> dat a6 r6 -> dat a7 r7 ->
  ap (der2_s0 a0 a1 a2 a3 a4 a5 a6 a7) (der2_s0 r0 r1 r2 r3 r4 r5 r6 r7) (192 * V) 9.
Proof.
  unfold dat. intros. assert (PV := range_pos V HV). unfold der2_s0. flops. eapply ap_weak; [apstep V HV|reflexivity|lra|lra].
Qed.
Lemma t1_ap a0 a1 a2 a3 a4 a5 a6 a7 r0 r1 r2 r3 r4 r5 r6 r7 :
  dat a0 r0 -> dat a1 r1 -> dat a2 r2 -> dat a3 r3 -> dat a4 r4 -> dat a5 r5 -> dat a6 r6 -> dat a7 r7 ->
  ap (der2_s1 a0 a1 a2 a3 a4 a5 a6 a7) (der2_s1 r0 r1 r2 r3 r4 r5 r6 r7) (192 * V) 9.
Proof.
  unfold dat. intros. assert (PV := range_pos V HV). unfold der2_s1. flops. eapply ap_weak; [apstep V HV|reflexivity|lra|lra].
Qed.
Lemma t2_ap a0 a1 a2 a3 a4 a5 a6 a7 r0 r1 r2 r3 r4 r5 r6 r7 :
  dat a0 r0 -> dat a1 r1 -> dat a2 r2 -> dat a3 r3 -> dat a4 r4 -> dat a5 r5 -> dat a6 r6 -> dat a7 r7 ->
  ap (der2_s2 a0 a1 a2 a3 a4 a5 a6 a7) (der2_s2 r0 r1 r2 r3 r4 r5 r6 r7) (192 * V) 9.
Proof.
  unfold dat. intros. assert (PV := range_pos V HV). unfold der2_s2. flops. eapply ap_weak; [apstep V HV|reflexivity|lra|lra].
Qed.
Lemma tc_ap a0 a1 a2 a3 a4 a5 a6 r0 r1 r2 r3 r4 r5 r6 :
  dat a0 r0 -> dat a1 r1 -> dat a2 r2 -> dat a3 r3 -> dat a4 r4 -> dat a5 r5 -> dat a6 r6 ->
  ap (der2_s a0 a1 a2 a3 a4 a5 a6) (der2_s r0 r1 r2 r3 r4 r5 r6) (192 * V) 9.
Proof.
  unfold dat. intros. assert (PV := range_pos V HV). unfold der2_s. flops. eapply ap_weak; [apstep V HV|reflexivity|lra|lra].
Qed.
Lemma ko_ap a0 a1 a2 a3 a4 a5 a6 a7 a8 r0 r1 r2 r3 r4 r5 r6 r7 r8 :
  dat a0 r0 -> dat a1 r1 -> dat a2 r2 -> dat a3 r3 -> dat a4 r4 -> dat a5 r5 -> dat a6 r6 -> dat a7 r7 -> dat a8 r8 ->
  ap (ko_s a0 a1 a2 a3 a4 a5 a6 a7 a8) (ko_s r0 r1 r2 r3 r4 r5 r6 r7 r8) (2 * V) 11.
Proof.
  unfold dat. intros. assert (PV := range_pos V HV). unfold ko_s, ko_eps. flops. eapply ap_weak; [apstep V HV|reflexivity|lra|lra].
Qed.
End Data.

Lemma dat_of V x : bounded_by V x -> dat V x (val x).
Proof. intros [F H]. apply ap_exact; assumption. Qed.
Lemma nth_val (v : list FL) i : nth i (map val v) 0 = val (nth i v f0).
Proof. rewrite <- (map_nth val). f_equal. Qed.
Lemma dat_nth V (v : list FL) i : range V -> (forall x, In x v -> bounded_by V x) -> dat V (nth i v f0) (nth i (map val v) 0).
Proof.
  intros HV H. rewrite nth_val. apply dat_of. destruct (Nat.lt_ge_cases i (length v)) as [L|L].
  - apply H, nth_In, L.
  - rewrite nth_overflow by exact L. split; [split; [reflexivity|exact I]|]. cbn. rewrite Rabs_R0. apply Rlt_le, range_pos, HV.
Qed.
(** the result of a division of an approximated number by a double *)
Lemma quot_err x r A k D y : ap x r A k -> 0 <= k <= 900 -> fin y -> val y = D -> 0 < D -> mid (A / D) ->
  fin (fdiv x y) /\ Rabs (val (fdiv x y) - r / D) <= (k + 1) * ww * (A / D).
Proof.
  intros H K FY E PD MM. subst D. destruct (ap_div x y r A k ltac:(lra) FY PD MM H) as (F & _ & E). split; assumption.
Qed.

(** the object on the real numbers its doubles stand for *)
Definition real_fd (g : fd FL) : fd R := Fd (fd_n g) (val (fd_lower g)) (val (fd_upper g)) (val (fd_dx g)).

Theorem C81_der_rounding b (g : fd FL) v dv V :
  (7 <= fd_n g)%nat -> length v = fd_n g -> length dv = fd_n g ->
  (forall x, In x v -> bounded_by V x) -> range V ->
  fin (fd_dx g) -> / 2 ^ 60 <= val (fd_dx g) <= 2 ^ 60 ->
  exists out outR, fd_der b g v dv = Ok out /\ fd_der b (real_fd g) (map val v) (map val dv) = Ok outR /\
    length out = fd_n g /\ length outR = fd_n g /\
    forall i, (i < fd_n g)%nat -> fin (nth i out f0) /\
      Rabs (val (nth i out f0) - nth i outR 0) <= 252 * / 2 ^ 52 * V / val (fd_dx g).
Proof.
  intros Hn Hv Hd HB HV FD [D1 D2].
  assert (PD : 0 < val (fd_dx g)) by (eapply Rlt_le_trans; [|exact D1]; apply Rinv_0_lt_compat, pow2_pos).
  assert (PV := range_pos V HV).
  eexists. eexists. split; [apply fd_der_ok; assumption|]. split; [apply fd_der_ok; cbn [fd_n real_fd]; rewrite ?map_length; assumption|].
  rewrite !map_length, !seq_length. split; [reflexivity|]. split; [reflexivity|]. intros i Hi. cbn [fd_n real_fd fd_dx].
  rewrite !nth_map_seq by exact Hi.
  assert (DD : forall j, dat V (nth j v f0) (nth j (map val v) f0)) by (intro j; apply dat_nth; assumption).
  assert (MM : mid (28 * V / val (fd_dx g))).
  { replace (28 * V / val (fd_dx g)) with (28 * / val (fd_dx g) * V) by (unfold Rdiv; ring). apply range_mid; [exact HV|]. split.
    - apply Rle_trans with (/ val (fd_dx g)).
      + apply Rinv_le_contravar; [exact PD|]. eapply Rle_trans; [exact D2|]. apply Rle_pow; [lra|lia].
      + assert (0 < / val (fd_dx g)) by now apply Rinv_0_lt_compat. lra.
    - apply Rle_trans with (28 * 2 ^ 60).
      + apply Rmult_le_compat_l; [lra|]. rewrite <- (Rinv_inv (2 ^ 60)). apply Rinv_le_contravar; [apply Rinv_0_lt_compat, pow2_pos|exact D1].
      + apply Rle_trans with (2 ^ 5 * 2 ^ 60); [apply Rmult_le_compat_r; [apply Rlt_le, pow2_pos|simpl; lra]|]. rewrite <- pow_add. apply Rle_pow; [lra|lia]. }
  assert (FIN : forall x r, ap x r (28 * V) 8 -> fin (fdiv x (fd_dx g)) /\
     Rabs (val (fdiv x (fd_dx g)) - fdiv r (val (fd_dx g))) <= 252 * / 2 ^ 52 * V / val (fd_dx g)).
  { intros x r H. destruct (quot_err x r (28 * V) 8 _ (fd_dx g) H ltac:(lra) FD eq_refl PD MM) as [F E]. split; [exact F|].
    eapply Rle_trans; [exact E|]. right. unfold ww, Rdiv. ring. }
  assert (FOP : forall x r, ap x r (28 * V) 8 -> ap (fopp x) (fopp r) (28 * V) 8) by (intros x r H; apply ap_opp, H).
  unfold der_val.
  repeat match goal with |- context[Nat.eqb ?a ?c] => destruct (Nat.eqb a c) end;
  apply FIN; repeat lazymatch goal with
  | |- ap (fopp _) _ _ _ => apply FOP
  | |- ap (der_s0 _ _ _ _ _ _ _) _ _ _ => apply (s0_ap V HV); apply DD
  | |- ap (der_s1 _ _ _ _ _ _ _) _ _ _ => apply (s1_ap V HV); apply DD
  | |- ap (der_s2 _ _ _ _ _ _ _) _ _ _ => apply (s2_ap V HV); apply DD
  | |- ap (der_s _ _ _ _ _ _) _ _ _ => apply (sc_ap V HV); apply DD
  end.
Qed.

(** ** second derivative; pow(dx,2) is taken to be the correctly rounded square *)
Lemma sq_ok x : fin x -> 0 < val x -> mid (val x * val x) ->
  fin (fpow x 2) /\ exists d, Rabs d <= 5 / 8 * ww /\ val (fpow x 2) = val x ^ 2 * (1 + d).
Proof.
  intros F P MM. change (fpow x 2) with (SFmul 53 1024 x x). assert (Pw := ww_pos). assert (PM := mid_pos _ MM).
  destruct (mul_ok x x F F) as [F' (d & e & Hd & He & E)].
  { rewrite Rabs_right by lra. eapply Rle_trans; [|apply mid_big, MM]. lra. }
  split; [exact F'|]. exists (d + e / (val x * val x)). split.
  - eapply Rle_trans; [apply Rabs_triang|]. rewrite ww_uu in Hd. unfold Rdiv. rewrite Rabs_mult, (Rabs_right (/ _)).
    2:{ apply Rle_ge, Rlt_le, Rinv_0_lt_compat, PM. }
    assert (Z : Rabs e * / (val x * val x) <= ww / 8).
    { apply Rmult_le_reg_r with (val x * val x); [exact PM|]. rewrite Rmult_assoc, Rinv_l by lra. assert (Q := eta_mid _ MM). lra. }
    lra.
  - rewrite E. field. lra.
Qed.
(** dividing by a slightly perturbed number *)
Lemma div_perturb x y r A k D d : ap x r A k -> 0 <= k <= 900 -> fin y -> 0 < D -> val y = D * (1 + d) -> Rabs d <= 2 * ww ->
  mid (A / val y) -> fin (fdiv x y) /\ Rabs (val (fdiv x y) - r / D) <= (k + 4) * ww * (A / D).
Proof.
  intros H K FY PD E Hd MM. assert (Pw := ww_pos). assert (Ws := ww_small).
  assert (HA := ap_A _ _ _ _ H).
  assert (dr : - (2 * ww) <= d <= 2 * ww) by (apply Rabs_le_between; exact Hd).
  assert (PY : 0 < val y) by (rewrite E; apply Rmult_lt_0_compat; lra).
  destruct (quot_err x r A k _ y H K FY eq_refl PY MM) as [F Q]. split; [exact F|].
  destruct H as (_ & HR & _).
  replace (val (fdiv x y) - r / D) with ((val (fdiv x y) - r / val y) + (r / val y - r / D)) by ring.
  eapply Rle_trans; [apply Rabs_triang|].
  assert (I1 : / val y = / D * / (1 + d)) by (rewrite E; apply Rinv_mult).
  assert (PI : 0 < / D) by now apply Rinv_0_lt_compat.
  assert (U : / (1 + d) <= 1 + 3 * ww).
  { apply Rmult_le_reg_r with (1 + d); [lra|]. rewrite Rinv_l by lra. nra. }
  assert (U0 : 0 < / (1 + d)) by (apply Rinv_0_lt_compat; lra).
  assert (L : 1 - 3 * ww <= / (1 + d)).
  { apply Rmult_le_reg_r with (1 + d); [lra|]. rewrite Rinv_l by lra. nra. }
  assert (Z1 : Rabs (r / val y - r / D) <= 5 / 2 * ww * (A / D)).
  { replace (r / val y - r / D) with (r * (/ D * (/ (1 + d) - 1))) by (unfold Rdiv; rewrite I1; ring).
    assert (L2 : Rabs (/ (1 + d) - 1) <= 5 / 2 * ww).
    { replace (/ (1 + d) - 1) with (- d * / (1 + d)) by (field; lra). rewrite Rabs_mult, Rabs_Ropp, (Rabs_right (/ (1 + d))) by lra.
      apply Rle_trans with (2 * ww * (1 + 3 * ww)); [apply Rmult_le_compat; auto using Rabs_pos; lra|]. nra. }
    rewrite !Rabs_mult, (Rabs_right (/ D)) by lra. unfold Rdiv.
    replace (5 * / 2 * ww * (A * / D)) with (A * (/ D * (5 / 2 * ww))) by (unfold Rdiv; ring).
    apply Rmult_le_compat; auto using Rabs_pos. { apply Rmult_le_pos; [lra|apply Rabs_pos]. }
    apply Rmult_le_compat_l; lra. }
  assert (Z2 : A / val y <= (A / D) * (1 + 3 * ww)).
  { unfold Rdiv. rewrite I1. rewrite <- Rmult_assoc. apply Rmult_le_compat_l; [apply Rmult_le_pos; lra|exact U]. }
  assert (AD : 0 <= A / D) by (apply Rmult_le_pos; lra).
  assert (Z3 : (k + 1) * ww * (A / val y) <= (k + 1) * ww * ((A / D) * (1 + 3 * ww))) by (apply Rmult_le_compat_l; [apply Rmult_le_pos; lra|exact Z2]).
  assert (Z4 : (k + 1) * (3 * ww) <= / 4).
  { apply Rle_trans with (901 * (3 * ww)); [apply Rmult_le_compat_r; lra|lra]. }
  assert (Z5 : ww * (A / D) * ((k + 1) * (3 * ww)) <= ww * (A / D) * / 4) by (apply Rmult_le_compat_l; [apply Rmult_le_pos; lra|exact Z4]).
  eapply Rle_trans; [apply Rplus_le_compat; [exact Q|exact Z1]|].
  assert (Z6 : 0 <= ww * (A / D)) by (apply Rmult_le_pos; lra). unfold Rdiv in *. lra.
Qed.
Lemma sq_mid D : / 2 ^ 60 <= D <= 2 ^ 60 -> mid (D * D).
Proof.
  intros [A B]. assert (P := Rinv_0_lt_compat _ (pow2_pos 60)). split.
  - apply Rle_trans with (/ 2 ^ 60 * / 2 ^ 60); [|apply Rmult_le_compat; lra]. rewrite <- Rinv_mult, <- pow_add. apply Rinv_le_contravar; [apply pow2_pos|]. apply Rle_pow; [lra|lia].
  - apply Rle_trans with (2 ^ 60 * 2 ^ 60); [apply Rmult_le_compat; lra|]. rewrite <- pow_add. apply Rle_pow; [lra|lia].
Qed.
Lemma quot_mid c V E : range V -> 1 <= c <= 1000 -> / 2 ^ 70 <= E <= 2 ^ 70 -> mid (c * V / E).
Proof.
  intros HV C [A B]. assert (P := Rinv_0_lt_compat _ (pow2_pos 70)). assert (PE : 0 < E) by lra.
  replace (c * V / E) with (c * / E * V) by (unfold Rdiv; ring). apply range_mid; [exact HV|].
  assert (I1 : / 2 ^ 70 <= / E) by (apply Rinv_le_contravar; lra).
  assert (I2 : / E <= 2 ^ 70) by (rewrite <- (Rinv_inv (2 ^ 70)); apply Rinv_le_contravar; [apply Rinv_0_lt_compat, pow2_pos|exact A]).
  split.
  - apply Rle_trans with (/ 2 ^ 70); [apply Rinv_le_contravar; [apply pow2_pos|]; apply Rle_pow; [lra|lia]|].
    apply Rle_trans with (1 * / E); [lra|]. apply Rmult_le_compat_r; lra.
  - apply Rle_trans with (2 ^ 10 * 2 ^ 70); [|rewrite <- pow_add; apply Rle_pow; [lra|lia]].
    apply Rmult_le_compat; [lra|lra| |exact I2]. simpl. lra.
Qed.

Theorem C81_der2_rounding b (g : fd FL) v dv V :
  (8 <= fd_n g)%nat -> length v = fd_n g -> length dv = fd_n g ->
  (forall x, In x v -> bounded_by V x) -> range V ->
  fin (fd_dx g) -> / 2 ^ 30 <= val (fd_dx g) <= 2 ^ 30 ->
  exists out outR, fd_der2 b g v dv = Ok out /\ fd_der2 b (real_fd g) (map val v) (map val dv) = Ok outR /\
    length out = fd_n g /\ length outR = fd_n g /\
    forall i, (i < fd_n g)%nat -> fin (nth i out f0) /\
      Rabs (val (nth i out f0) - nth i outR 0) <= 2500 * / 2 ^ 52 * V / val (fd_dx g) ^ 2.
Proof.
  intros Hn Hv Hd HB HV FD [D1 D2]. set (D := val (fd_dx g)) in *.
  assert (P30 := Rinv_0_lt_compat _ (pow2_pos 30)). assert (PD : 0 < D) by lra.
  assert (PV := range_pos V HV). assert (Pw := ww_pos). assert (Ws := ww_small).
  assert (DR : / 2 ^ 60 <= D <= 2 ^ 60).
  { split; [eapply Rle_trans; [|exact D1]; apply Rinv_le_contravar; [apply pow2_pos|]|eapply Rle_trans; [exact D2|]]; apply Rle_pow; (lra || lia). }
  eexists. eexists. split; [apply fd_der2_ok; assumption|]. split; [apply fd_der2_ok; cbn [fd_n real_fd]; rewrite ?map_length; assumption|].
  rewrite !map_length, !seq_length. split; [reflexivity|]. split; [reflexivity|]. intros i Hi. cbn [fd_n real_fd fd_dx].
  rewrite !nth_map_seq by exact Hi. fold D.
  destruct (sq_ok (fd_dx g) FD PD (sq_mid _ DR)) as [F2 (d & Hd2 & E2)]. fold D in E2.
  assert (DD : forall j, dat V (nth j v f0) (nth j (map val v) f0)) by (intro j; apply dat_nth; assumption).
  set (y := fpow (fd_dx g) 2) in *. clearbody y. change (fpow D 2) with (D ^ 2).
  assert (PD2 : 0 < D ^ 2) by now apply pow_lt.
  assert (dr : - (5 / 8 * ww) <= d <= 5 / 8 * ww) by (apply Rabs_le_between; exact Hd2).
  assert (S1 : / 2 ^ 60 <= D ^ 2 <= 2 ^ 60).
  { change 60%nat with (30 * 2)%nat. rewrite pow_mult. rewrite <- pow_inv. split; apply pow_incr; lra. }
  assert (MM : mid (192 * V / val y)).
  { apply quot_mid; [exact HV|lra|]. rewrite E2. assert (0 < / 2 ^ 60) by (apply Rinv_0_lt_compat, pow2_pos). split.
    - apply Rle_trans with (/ 2 ^ 60 * / 2).
      + replace (/ 2) with (/ 2 ^ 1) by (f_equal; ring). rewrite <- Rinv_mult, <- pow_add. apply Rinv_le_contravar; [apply pow2_pos|]. apply Rle_pow; [lra|lia].
      + apply Rmult_le_compat; lra.
    - apply Rle_trans with (2 ^ 60 * 2).
      + apply Rmult_le_compat; lra.
      + replace (2 ^ 60 * 2) with (2 ^ 61) by (simpl; ring). apply Rle_pow; [lra|lia]. }
  assert (FIN : forall x r, ap x r (192 * V) 9 -> fin (fdiv x y) /\
     Rabs (val (fdiv x y) - fdiv r (D ^ 2)) <= 2500 * / 2 ^ 52 * V / D ^ 2).
  { intros x r H. destruct (div_perturb x y r (192 * V) 9 (D ^ 2) d H ltac:(lra) F2 PD2 E2 ltac:(lra) MM) as [F E]. split; [exact F|].
    eapply Rle_trans; [exact E|]. unfold ww, Rdiv.
    assert (Z : 0 <= / 2 ^ 52 * V * / D ^ 2).
    { apply Rmult_le_pos; [apply Rmult_le_pos; [apply Rlt_le, Rinv_0_lt_compat, pow2_pos|lra]|apply Rlt_le, Rinv_0_lt_compat, PD2]. }
    set (z := / 2 ^ 52 * V * / D ^ 2) in *. replace ((9 + 4) * / 2 ^ 52 * (192 * V * / D ^ 2)) with (2496 * z) by (unfold z; ring).
    replace (2500 * / 2 ^ 52 * V * / D ^ 2) with (2500 * z) by (unfold z; ring). lra. }
  unfold der2_val.
  repeat match goal with |- context[Nat.eqb ?a ?c] => destruct (Nat.eqb a c) end;
  apply FIN; repeat lazymatch goal with
  | |- ap (der2_s0 _ _ _ _ _ _ _ _) _ _ _ => apply (t0_ap V HV); apply DD
  | |- ap (der2_s1 _ _ _ _ _ _ _ _) _ _ _ => apply (t1_ap V HV); apply DD
  | |- ap (der2_s2 _ _ _ _ _ _ _ _) _ _ _ => apply (t2_ap V HV); apply DD
  | |- ap (der2_s _ _ _ _ _ _ _) _ _ _ => apply (tc_ap V HV); apply DD
  end.
Qed.

Theorem C81_filter_rounding b (g : fd FL) v V :
  (4 <= fd_n g)%nat -> length v = fd_n g -> (forall x, In x v -> bounded_by V x) -> range V ->
  exists out outR, fd_filter b g v = Ok out /\ fd_filter b (real_fd g) (map val v) = Ok outR /\
    length out = fd_n g /\ length outR = fd_n g /\
    forall i, (i < fd_n g)%nat -> fin (nth i out f0) /\ Rabs (val (nth i out f0) - nth i outR 0) <= 22 * / 2 ^ 52 * V.
Proof.
  intros Hn Hv HB HV. assert (PV := range_pos V HV).
  eexists. eexists. split; [apply fd_filter_ok; assumption|]. split; [apply fd_filter_ok; cbn [fd_n real_fd]; rewrite ?map_length; assumption|].
  rewrite !map_length, !seq_length. split; [reflexivity|]. split; [reflexivity|]. intros i Hi. cbn [fd_n real_fd fd_dx].
  rewrite !nth_map_seq by exact Hi.
  assert (DD : forall j, dat V (nth j v f0) (nth j (map val v) f0)) by (intro j; apply dat_nth; assumption).
  unfold ko_val. destruct ((4 <=? i)%nat && (i <? fd_n g - 4)%nat)%bool.
  - assert (H := ko_ap V HV _ _ _ _ _ _ _ _ _ _ _ _ _ _ _ _ _ _ (DD (i - 4)%nat) (DD (i - 3)%nat) (DD (i - 2)%nat) (DD (i - 1)%nat) (DD i)
      (DD (i + 1)%nat) (DD (i + 2)%nat) (DD (i + 3)%nat) (DD (i + 4)%nat)). destruct H as (F & _ & E).
    split; [exact F|]. eapply Rle_trans; [exact E|]. right. unfold ww. ring.
  - destruct (DD i) as (F & _ & E). split; [exact F|]. eapply Rle_trans; [exact E|].
    assert (0 < / 2 ^ 52) by (apply Rinv_0_lt_compat, pow2_pos). unfold ww. nra.
Qed.
End B64.
