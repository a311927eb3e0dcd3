(** Value-level description of the Chebyshev routines over the reals. *)
From Coq Require Import Reals Lra List.
From Coquelicot Require Import Coquelicot.
From Verif Require Import Base Arith BaseLemmas PMake MCheb Spec PSum PFdR.
Local Open Scope R_scope.

(** ** DCT-I orthogonality *)
Section Orth.
Variable N : nat.
Hypothesis HN : (1 <= N)%nat.
Definition cc (j k : nat) : R := cos (PI * INR j * INR k / INR N).
Definition wt (j : nat) : R := if Nat.eqb j 0 then 1 else if Nat.eqb j N then 1 else 2.

Lemma N_pos : 0 < INR N. Proof. apply lt_0_INR; lia. Qed.
Lemma cc_sym j k : cc j k = cc k j.
Proof. unfold cc. f_equal. unfold Rdiv. ring. Qed.
Lemma wt_pos j : wt j <> 0.
Proof. unfold wt. destruct (Nat.eqb j 0); [lra|]. destruct (Nat.eqb j N); lra. Qed.

Lemma wt_sum t : Rsum (S N) (fun k => wt k * t k) = t 0%nat + t N + 2 * Rsum (N - 1) (fun k => t (S k)).
Proof.
  rewrite Rsum_shift.
  assert (EM : exists M, N = S M) by (exists (N - 1)%nat; lia). destruct EM as (M & EM).
  replace (Rsum N) with (Rsum (S M)) by (f_equal; auto). cbn [Rsum].
  replace (wt 0) with 1 by reflexivity.
  replace (wt (S M)) with 1 by (unfold wt; rewrite EM, Nat.eqb_refl; reflexivity).
  replace (N - 1)%nat with M by lia.
  rewrite <- Rsum_scal. rewrite (Rsum_ext M _ (fun k => 2 * t (S k))); [rewrite EM; ring|].
  intros i Hi. f_equal. unfold wt. destruct (Nat.eqb_spec (S i) N); [lia|reflexivity].
Qed.

Lemma dirichlet th m : 2 * sin (th / 2) * Rsum m (fun k => cos (INR (S k) * th)) = sin ((INR m + 1/2) * th) - sin (th / 2).
Proof.
  induction m as [|m IH].
  - simpl. replace ((0 + 1 / 2) * th) with (th / 2) by field. ring.
  - cbn [Rsum]. rewrite Rmult_plus_distr_l, IH.
    replace ((INR (S m) + 1 / 2) * th) with (INR (S m) * th + th / 2) by field.
    replace ((INR m + 1 / 2) * th) with (INR (S m) * th - th / 2) by (rewrite S_INR; field).
    rewrite sin_plus, sin_minus. ring.
Qed.

(** sum_k wt_k cos(pi p k / N) = 2N for p = 0, 0 for 0 < p < 2N, 2N for p = 2N *)
Lemma kernel p : (p <= 2 * N)%nat ->
  Rsum (S N) (fun k => wt k * cc p k) = if Nat.eqb p 0 || Nat.eqb p (2 * N) then 2 * INR N else 0.
Proof.
  intros Hp. rewrite wt_sum. pose proof N_pos as HN0. unfold cc at 1 2.
  replace (PI * INR p * INR 0 / INR N) with 0 by (simpl INR; field; lra). rewrite cos_0.
  replace (PI * INR p * INR N / INR N) with (PI * INR p) by (field; lra).
  set (th := PI * INR p / INR N).
  rewrite (Rsum_ext (N - 1) _ (fun k => cos (INR (S k) * th))) by (intros; unfold cc, th; f_equal; field; lra).
  assert (EN : INR (N - 1) = INR N - 1) by (rewrite minus_INR by lia; reflexivity).
  destruct (Nat.eqb_spec p 0) as [->|H0]; [|destruct (Nat.eqb_spec p (2 * N)) as [->|H2]].
  - cbn [orb]. rewrite (Rsum_ext _ _ (fun _ => 1)).
    + rewrite Rsum_const, EN. simpl INR. rewrite Rmult_0_r, cos_0. ring.
    + intros i Hi. unfold th. simpl INR at 2. replace (_ * (PI * 0 / INR N)) with 0 by (field; lra). apply cos_0.
  - cbn [orb]. rewrite mult_INR in *. simpl (INR 2) in *.
    assert (Eth : th = 2 * PI) by (unfold th; rewrite mult_INR; simpl (INR 2); field; lra).
    assert (C : forall m : nat, cos (INR m * (2 * PI)) = 1).
    { intros m. replace (INR m * (2 * PI)) with (0 + 2 * INR m * PI) by ring. rewrite cos_period. apply cos_0. }
    rewrite (Rsum_ext _ _ (fun _ => 1)).
    + rewrite Rsum_const, EN. replace (PI * ((1 + 1) * INR N)) with (INR N * (2 * PI)) by ring. rewrite C. ring.
    + intros i Hi. rewrite Eth. apply C.
  - cbn [orb].
    assert (Hs : sin (th / 2) <> 0).
    { apply Rgt_not_eq. apply sin_gt_0.
      - unfold th. assert (0 < INR p) by (apply lt_0_INR; lia). pose proof PI_RGT_0.
        apply Rdiv_lt_0_compat; [|lra]. apply Rdiv_lt_0_compat; nra.
      - unfold th. assert (INR p < 2 * INR N). { replace (2 * INR N) with (INR (2 * N)) by (rewrite mult_INR; simpl (INR 2); ring). apply lt_INR; lia. }
        pose proof PI_RGT_0. apply Rmult_lt_reg_r with (2 * INR N); [lra|].
        replace (PI * INR p / INR N / 2 * (2 * INR N)) with (PI * INR p) by (field; lra). nra. }
    apply (Rmult_eq_reg_l (sin (th / 2))); auto. rewrite Rmult_0_r.
    transitivity (sin (th/2) * (1 + cos (PI * INR p)) + (2 * sin (th/2) * Rsum (N - 1) (fun k => cos (INR (S k) * th)))); [ring|].
    rewrite dirichlet, EN. replace ((INR N - 1 + 1 / 2) * th) with (PI * INR p - th / 2) by (unfold th; field; lra).
    rewrite sin_minus. replace (sin (PI * INR p)) with 0; [ring|].
    symmetry. apply sin_eq_0_1. exists (Z.of_nat p). rewrite <- INR_IZR_INZ. ring.
Qed.

Lemma orth j m : (j <= N)%nat -> (m <= N)%nat ->
  Rsum (S N) (fun k => wt k * (cc j k * cc m k)) = if Nat.eqb j m then 2 * INR N / wt j else 0.
Proof.
  intros Hj Hm. pose proof N_pos as HN0.
  assert (G : forall j m, (m <= j)%nat -> (j <= N)%nat ->
     Rsum (S N) (fun k => wt k * (cc j k * cc m k)) = if Nat.eqb j m then 2 * INR N / wt j else 0).
  { clear j m Hj Hm. intros j m Hmj Hj.
    rewrite (Rsum_ext _ _ (fun k => /2 * (wt k * cc (j + m) k) + / 2 * (wt k * cc (j - m) k))).
    - rewrite Rsum_add, !Rsum_scal, !kernel by lia.
      destruct (Nat.eqb_spec j m) as [->|Hne].
      + rewrite Nat.sub_diag. cbn [Nat.eqb orb]. unfold wt.
        destruct (Nat.eqb_spec (m + m) 0), (Nat.eqb_spec (m + m) (2 * N)), (Nat.eqb_spec m 0), (Nat.eqb_spec m N); try lia; cbn [orb]; field.
      + destruct (Nat.eqb_spec (j + m) 0), (Nat.eqb_spec (j + m) (2 * N)), (Nat.eqb_spec (j - m) 0), (Nat.eqb_spec (j - m) (2 * N)); try lia; cbn [orb]; field.
    - intros k _. unfold cc. rewrite plus_INR, minus_INR by lia.
      replace (PI * (INR j + INR m) * INR k / INR N) with (PI * INR j * INR k / INR N + PI * INR m * INR k / INR N) by (field; lra).
      replace (PI * (INR j - INR m) * INR k / INR N) with (PI * INR j * INR k / INR N - PI * INR m * INR k / INR N) by (field; lra).
      rewrite cos_plus, cos_minus. field. }
  destruct (le_lt_dec m j) as [H|H]; [now apply G|].
  rewrite (Rsum_ext _ _ (fun k => wt k * (cc m k * cc j k))) by (intros; ring).
  rewrite G by lia. rewrite Nat.eqb_sym. destruct (Nat.eqb_spec j m); [lia|reflexivity].
Qed.

(** analysis and synthesis at the level of functions *)
Definition ana (v : nat -> R) (k : nat) : R := wt k / (2 * INR N) * Rsum (S N) (fun j => wt j * (v j * cc j k)).
Definition syn (a : nat -> R) (k : nat) : R := Rsum (S N) (fun j => a j * cc j k).

Lemma syn_ana v k : (k <= N)%nat -> syn (ana v) k = v k.
Proof.
  intros Hk. pose proof N_pos as HN0. unfold syn, ana.
  rewrite (Rsum_ext _ _ (fun j => Rsum (S N) (fun i => / (2 * INR N) * wt i * v i * (wt j * (cc i j * cc k j))))).
  2:{ intros j Hj. rewrite <- !Rsum_scal, Rmult_comm, <- Rsum_scal. apply Rsum_ext. intros i _. rewrite (cc_sym k j). field. lra. }
  rewrite Rsum_swap. rewrite (Rsum_single _ _ k); [|lia|].
  - rewrite Rsum_scal, orth, Nat.eqb_refl by auto. field. split; [apply wt_pos|lra].
  - intros i Hi Hne. rewrite Rsum_scal, orth by lia. destruct (Nat.eqb_spec i k); [lia|]. ring.
Qed.
Lemma ana_syn a k : (k <= N)%nat -> ana (syn a) k = a k.
Proof.
  intros Hk. pose proof N_pos as HN0. unfold syn, ana.
  rewrite (Rsum_ext (S N) (fun j => wt j * _) (fun j => Rsum (S N) (fun i => a i * (wt j * (cc i j * cc k j))))).
  2:{ intros j Hj. rewrite Rmult_comm, (Rmult_comm _ (cc j k)), <- !Rsum_scal, Rmult_comm, <- Rsum_scal. apply Rsum_ext. intros i _. rewrite (cc_sym k j). ring. }
  rewrite Rsum_swap. rewrite (Rsum_single _ _ k); [|lia|].
  - rewrite Rsum_scal, orth, Nat.eqb_refl by auto. field. split; [apply wt_pos|lra].
  - intros i Hi Hne. rewrite Rsum_scal, orth by lia. destruct (Nat.eqb_spec i k); [lia|]. ring.
Qed.
End Orth.

(** ** the code *)
Lemma fsum_Rsum n i (t : nat -> R) : @fsum R R_arith n i t = Rsum n (fun j => t (i + j)%nat).
Proof.
  revert i; induction n as [|n IH]; intros i; [reflexivity|]. cbn [fsum]. rewrite IH, Rsum_shift, Nat.add_0_r.
  cbn [R_arith fadd]. f_equal. apply Rsum_ext. intros j _. f_equal. lia.
Qed.
Lemma cos_nPI k : cos (INR k * PI) = if Nat.even k then 1 else -1.
Proof.
  induction k as [|k IH]; [simpl; rewrite Rmult_0_l; apply cos_0|].
  rewrite S_INR, Rmult_plus_distr_r, Rmult_1_l, neg_cos, IH, Nat.even_succ, <- Nat.negb_even.
  destruct (Nat.even k); simpl; ring.
Qed.

Lemma redft00_val (x : list R) k : (2 <= length x)%nat -> (k < length x)%nat ->
  nth k (redft00 x) 0 = Rsum (length x) (fun j => wt (length x - 1) j * (nth j x 0 * cc (length x - 1) j k)).
Proof.
  intros Hn Hk. unfold redft00. rewrite nth_map_seq by auto. set (n := length x) in *.
  replace (Rsum n) with (Rsum (S (n - 1))) by (f_equal; lia). rewrite wt_sum by lia.
  rewrite fsum_Rsum. rewrite !fnat_INR. cbn [R_arith fadd fmul fdiv fcos fpi fofZ].
  assert (HN0 : 0 < INR (n - 1)) by (apply lt_0_INR; lia).
  f_equal; [f_equal|].
  - unfold cc. simpl (INR 0). replace (PI * 0 * INR k / INR (n - 1)) with 0 by (field; lra). rewrite cos_0. unfold f0. cbn. ring.
  - unfold cc. replace (PI * INR (n - 1) * INR k / INR (n - 1)) with (INR k * PI) by (field; lra).
    rewrite cos_nPI. unfold sgn, f0. cbn [R_arith fofZ]. rewrite Rmult_comm. f_equal.
  - f_equal. replace (n - 1 - 1)%nat with (n - 2)%nat by lia. apply Rsum_ext. intros j Hj. rewrite fnat_INR. reflexivity.
Qed.
Lemma redft00_length {F} {AF : Arith F} (x : list F) : length (redft00 x) = length x.
Proof. unfold redft00. now rewrite map_length, seq_length. Qed.

Lemma execute_ok {F} {AF : Arith F} (g : cheb F) inp out : ch_plan g = true ->
  length inp = ch_n g -> length out = ch_n g -> execute g inp out = Ok (redft00 inp).
Proof. intros H1 H2 H3. unfold execute. now rewrite H1, H2, H3, Nat.eqb_refl. Qed.

(** a well-formed object: what the constructor builds for n >= 2 *)
Record cheb_wf (g : cheb R) (n : nat) (lower upper : R) : Prop := {
  wf_n : ch_n g = n; wf_plan : ch_plan g = true; wf_jac : ch_jac g = (upper - lower) / 2;
  wf_lp : ch_low_pass g = map (fun i => exp (-40 * (INR i / INR n) ^ 16)) (seq 0 n) }.
Lemma make_wf b n lower upper g : (2 <= n)%nat -> Cheb_make b n lower upper = Ok g -> cheb_wf g n lower upper.
Proof.
  intros Hn E. rewrite Cheb_make_ok in E by auto.
  injection E as <-. constructor; cbn [ch_n ch_plan ch_jac ch_low_pass]; auto.
  - destruct n as [|[|n]]; try lia; reflexivity.
  - apply map_ext. intros i. now rewrite !INR_IZR_INZ.
Qed.

(* modify loops on R vectors *)
Lemma for_mod_R (N lo hi : nat) (body : nat -> list R -> res (list R)) (h : nat -> R -> R) out :
  length out = N -> (hi <= N)%nat ->
  (forall i o x, (lo <= i < hi)%nat -> length o = N -> nth_error o i = Some x ->
     body i o = Ok (upd o i (h i x))) ->
  exists out', for_ lo hi body out = Ok out' /\ length out' = N /\
    forall j, nth j out' 0 = if (Nat.leb lo j) && (Nat.ltb j hi) then h j (nth j out 0) else nth j out 0.
Proof.
  intros HL HN H. destruct (for_modify N lo hi body h out HL HN H) as (o & E & Ho & Hj).
  exists o. repeat split; auto. intros j. specialize (Hj j).
  destruct (le_lt_dec N j) as [Hl|Hl].
  - rewrite !nth_overflow by lia. destruct (Nat.leb_spec lo j), (Nat.ltb_spec j hi); simpl; auto; lia.
  - rewrite (nth_error_nth' out 0) in Hj by lia.
    destruct (_ && _); simpl in Hj; apply nth_error_nth; auto.
Qed.

Section Code.
Variables (b : build) (g : cheb R) (n : nat) (lower upper : R).
Hypothesis Hn : (2 <= n)%nat.
Hypothesis W : cheb_wf g n lower upper.
Let N := (n - 1)%nat.

Lemma to_ch_val po ch : length po = n -> length ch = n ->
  to_ch b g po ch = Ok (map (ana N (fun j => nth j po 0)) (seq 0 n)).
Proof.
  intros Hp Hc. destruct W as [Wn Wp Wj Wl]. unfold to_ch. rewrite Wn.
  rewrite !assert_true by (apply Nat.eqb_eq; auto). cbn [bind].
  rewrite execute_ok by congruence. cbn [bind].
  assert (HN : 0 < INR N) by (unfold N; apply lt_0_INR; lia).
  rewrite (vget_ok _ _ 0) by (rewrite redft00_length; lia). cbn [bind].
  rewrite vset_ok by (rewrite redft00_length; lia). cbn [bind].
  rewrite !wsub_le by lia. fold N.
  rewrite (vget_ok _ _ 0) by (rewrite upd_length, redft00_length; unfold N; lia). cbn [bind].
  rewrite vset_ok by (rewrite upd_length, redft00_length; unfold N; lia). cbn [bind].
  rewrite nth_upd_neq by (unfold N; lia).
  match goal with |- for_ _ _ ?bd ?o = _ => destruct (for_mod_R n 1 N bd (fun i x => x / INR N) o) as (out & E & HL & Hj) end.
  - rewrite !upd_length, redft00_length; auto.
  - unfold N; lia.
  - intros i o x Hi Ho Hx. rewrite (vget_some _ _ _ Hx). cbn [bind]. rewrite vset_ok by lia. now rewrite fnat_INR.
  - rewrite E. f_equal. apply (vec_ext _ _ 0); [rewrite map_length, seq_length; auto|].
    rewrite HL. intros i Hi. rewrite nth_map_seq by auto. rewrite Hj.
    assert (RV : nth i (redft00 po) 0 = Rsum (S N) (fun j => wt N j * (nth j po 0 * cc N j i))).
    { rewrite redft00_val by lia. rewrite Hp. fold N. f_equal. unfold N; lia. }
    unfold ana. rewrite <- RV. unfold wt.
    destruct (Nat.leb_spec 1 i), (Nat.ltb_spec i N); cbn [andb].
    + rewrite nth_upd_neq, nth_upd_neq by lia. destruct (Nat.eqb_spec i 0), (Nat.eqb_spec i N); try lia. field. lra.
    + assert (i = N) by (unfold N in *; lia). subst i.
      rewrite nth_upd_eq by (rewrite upd_length, redft00_length; lia).
      destruct (Nat.eqb_spec N 0), (Nat.eqb_spec N N); try lia. rewrite fnat_INR. cbn [R_arith fdiv fmul fofZ]. field. lra.
    + assert (i = 0)%nat by lia. subst i. rewrite nth_upd_neq by lia. rewrite nth_upd_eq by (rewrite redft00_length; lia).
      simpl Nat.eqb. cbv iota. rewrite fnat_INR. cbn [R_arith fdiv fmul fofZ]. field. lra.
    + unfold N in *. lia.
Qed.

Definition halved (ch : list R) : list R :=
  map (fun i => if Nat.eqb i 0 || Nat.eqb i N then nth i ch 0 else nth i ch 0 / 2) (seq 0 n).

Lemma to_po_val ch po : length ch = n -> length po = n ->
  to_po b g ch po = Ok (halved ch, map (syn N (fun j => nth j ch 0)) (seq 0 n)).
Proof.
  intros Hc Hp. destruct W as [Wn Wp Wj Wl]. unfold to_po. rewrite Wn.
  rewrite !assert_true by (apply Nat.eqb_eq; auto). cbn [bind]. rewrite wsub_le by lia. fold N.
  match goal with |- bind (for_ _ _ ?bd ?o) _ = _ => destruct (for_mod_R n 1 N bd (fun i x => x / 2) o) as (out & E & HL & Hj) end; auto.
  - unfold N; lia.
  - intros i o x Hi Ho Hx. rewrite (vget_some _ _ _ Hx). cbn [bind]. rewrite vset_ok by lia. reflexivity.
  - rewrite E. cbn [bind].
    assert (Eo : out = halved ch).
    { apply (vec_ext _ _ 0); [unfold halved; rewrite map_length, seq_length; auto|]. rewrite HL. intros i Hi.
      unfold halved. rewrite nth_map_seq by auto. rewrite Hj.
      destruct (Nat.leb_spec 1 i), (Nat.ltb_spec i N), (Nat.eqb_spec i 0), (Nat.eqb_spec i N); cbn [andb orb]; auto; unfold N in *; lia. }
    rewrite execute_ok by congruence. cbn [bind]. rewrite Eo at 1. f_equal. f_equal.
    apply (vec_ext _ _ 0); [rewrite redft00_length, map_length, seq_length; auto|].
    rewrite redft00_length, HL. intros i Hi. rewrite nth_map_seq by auto.
    rewrite redft00_val by lia. rewrite HL. fold N. unfold syn.
    replace (Rsum n) with (Rsum (S N)) by (f_equal; unfold N; lia). apply Rsum_ext. intros j Hjj.
    rewrite Eo. unfold halved. rewrite nth_map_seq by (unfold N in *; lia). unfold wt.
    destruct (Nat.eqb_spec j 0), (Nat.eqb_spec j N); cbn [orb]; field.
Qed.

Lemma cheb_filter_val v : length v = n ->
  cheb_filter b g v = Ok (map (syn N (fun k => ana N (fun j => nth j v 0) k * exp (-40 * (INR k / INR n) ^ 16))) (seq 0 n)).
Proof.
  intros Hv. unfold cheb_filter. rewrite (wf_n _ _ _ _ W).
  rewrite assert_true by (apply Nat.eqb_eq; auto). cbn [bind].
  rewrite to_ch_val by (auto; apply vec_length). cbn [bind].
  match goal with |- bind (for_ _ _ ?bd ?o) _ = _ => destruct (for_mod_R n 0 n bd (fun i x => x * exp (-40 * (INR i / INR n) ^ 16)) o) as (out & E & HL & Hj) end.
  - now rewrite map_length, seq_length.
  - lia.
  - intros i o x Hi Ho Hx. rewrite (vget_some _ _ _ Hx). cbn [bind].
    rewrite (wf_lp _ _ _ _ W). rewrite (vget_ok _ _ 0) by (rewrite map_length, seq_length; lia). cbn [bind].
    rewrite nth_map_seq by lia. rewrite vset_ok by lia. reflexivity.
  - rewrite E. cbn [bind]. rewrite to_po_val by auto. cbn [bind]. f_equal. apply map_ext_in. intros i Hi.
    apply in_seq in Hi. unfold syn. apply Rsum_ext. intros j Hjj. rewrite Hj.
    destruct (Nat.leb_spec 0 j), (Nat.ltb_spec j n); cbn [andb]; try (unfold N in *; lia).
    rewrite nth_map_seq by lia. reflexivity.
Qed.
End Code.
