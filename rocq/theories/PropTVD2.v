(** * Property C98, the grid filter: it can increase what total_variation returns (real arithmetic). *)
From Coq Require Import Reals Lra.
From Coquelicot Require Import Coquelicot.
From Verif Require Import Base BaseLemmas ForList Arith MFd MCheb MSphere MGrid MSim GridSpec SphereSpec Spec LegSpec Conc PConc
  PGrid PTables PMake PSum PFdR PLeg PSphere PSphere2 PSphereR PropSphere PGridOp PropGridOp PropGridFilter PropSphereInst PRed PropTVD.
Local Open Scope R_scope.

Lemma legendre_1 x : legendre 1 0 x = x.
Proof. rewrite legendre_poly. cbn -[pow]. rewrite ?pscal_spec. cbn. field. Qed.
Lemma legendre_3 x : legendre 3 0 x = (5 * x ^ 3 - 3 * x) / 2.
Proof. rewrite legendre_poly. cbn. field. Qed.

(** x - P_3(x)/6 and its spectrum *)
Definition tvd_spec (c1 c3 : R) : spectrum := fun l m =>
  if Nat.eqb m 0 then (if Nat.eqb l 1 then (c1 / ynorm 1 0, 0) else if Nat.eqb l 3 then (c3 / ynorm 3 0, 0) else (0, 0)) else (0, 0).
Lemma tvd_field L M c1 c3 th ph : (3 <= L)%nat ->
  real_field Ylm_profile L M (tvd_spec c1 c3) th ph = c1 * cos th + c3 * ((5 * cos th ^ 3 - 3 * cos th) / 2).
Proof.
  intros HL.
  assert (E : real_field Ylm_profile L M (tvd_spec c1 c3) th ph =
    Rsum (L + 1) (fun l => (if Nat.eqb l 1 then c1 * cos th else 0) + (if Nat.eqb l 3 then c3 * ((5 * cos th ^ 3 - 3 * cos th) / 2) else 0))).
  { unfold real_field. apply Rsum_ext. intros l Hl. rewrite (Rsum_single _ _ 0%nat); [|lia|].
    - unfold mode, tvd_spec. cbn [Nat.eqb]. unfold Ylm_profile.
      pose proof (ynorm_pos 1 0 ltac:(lia)). pose proof (ynorm_pos 3 0 ltac:(lia)).
      destruct (Nat.eqb_spec l 1) as [->|H1].
      + cbn [Nat.eqb fst]. rewrite legendre_1. cbn [pow]. field. lra.
      + destruct (Nat.eqb_spec l 3) as [->|H3]; cbn [fst]; [|ring]. rewrite legendre_3. cbn [pow]. field. lra.
    - intros m Hm Hm0. unfold mode, tvd_spec. destruct (Nat.eqb_spec m 0); [lia|]. cbn [fst snd]. ring. }
  rewrite E, Rsum_add. f_equal.
  - rewrite (Rsum_single _ _ 1%nat); [reflexivity|lia|]. intros i _ Hi. destruct (Nat.eqb_spec i 1); [lia|reflexivity].
  - rewrite (Rsum_single _ _ 3%nat); [reflexivity|lia|]. intros i _ Hi. destruct (Nat.eqb_spec i 3); [lia|reflexivity].
Qed.

Lemma tele_le n u : Rabs (u 0%nat - u n) <= Rsum n (fun i => Rabs (u (i + 1)%nat - u i)).
Proof.
  induction n as [|n IH]; cbn [Rsum]; [rewrite Rminus_diag_eq, Rabs_R0 by auto; lra|].
  pose proof (Rabs_triang (u 0%nat - u n) (u n - u (n + 1)%nat)) as T. rewrite (Rabs_minus_sym (u (n + 1)%nat)).
  replace (u 0%nat - u n + (u n - u (n + 1)%nat)) with (u 0%nat - u (S n)) in T by (replace (n + 1)%nat with (S n) by lia; ring). lra.
Qed.
Lemma tele_eq n u : (forall i, (i < n)%nat -> u (i + 1)%nat <= u i) -> Rsum n (fun i => Rabs (u (i + 1)%nat - u i)) = u 0%nat - u n.
Proof.
  induction n as [|n IH]; intros H; cbn [Rsum]; [ring|]. rewrite IH by (intros; apply H; lia).
  pose proof (H n ltac:(lia)) as Hn. rewrite Rabs_left1 by lra. replace (n + 1)%nat with (S n) by lia. ring.
Qed.
(** data that depend on theta only *)
Lemma tv_sum_theta (g : grid R) v u : (forall ix it ip, (ix < g_nx g)%nat -> (it < g_nlat g)%nat -> (ip < g_nphi g)%nat -> at3 g v ix it ip = u it) ->
  tv_sum g v = INR (g_nx g - 1) * (INR (g_nphi g - 1) * Rsum (g_nlat g - 1) (fun it => Rabs (u (it + 1)%nat - u it))).
Proof.
  intros H. unfold tv_sum. rewrite <- Rsum_const. apply Rsum_ext. intros ix Hx. rewrite <- Rsum_scal. apply Rsum_ext. intros it Ht.
  rewrite <- Rsum_const. apply Rsum_ext. intros ip Hp. unfold tv_term. rewrite !H by lia.
  replace ((u it - u it) ^ 2 + (u (it + 1)%nat - u it) ^ 2 + (u it - u it) ^ 2) with (Rsqr (u (it + 1)%nat - u it)) by (unfold Rsqr; ring).
  apply sqrt_Rsqr_abs.
Qed.

Section Grid.
Variables (b : build) (h : sht R) (cl Rmn Rmx : R) (nx : nat) (g : grid R).
Hypothesis Hg : grid_of b h cl Rmn Rmx nx g.
Hypothesis Hlaw : lawful b h Ylm_profile.
Hypothesis Hct : forall i, (i < s_nlat h)%nat -> -1 <= nth i (s_ct h) 0 <= 1.

(** samples of a function of theta on every shell *)
Lemma at3_shell v q : length v = g_n3 g ->
  (forall ix, (ix < g_nx g)%nat -> sampled b h (fun th _ => q (cos th)) (shell g v ix)) <->
  (forall ix it ip, (ix < g_nx g)%nat -> (it < g_nlat g)%nat -> (ip < g_nphi g)%nat -> at3 g v ix it ip = q (nth it (s_ct h) 0)).
Proof.
  intros Lv. destruct (gof_sizes b h cl Rmn Rmx nx g Hg) as (Eb & En & _ & El & Ep & Hs & _).
  assert (K : forall ix it ip, (ix < g_nx g)%nat -> (it < g_nlat g)%nat -> (ip < g_nphi g)%nat -> nth (spos b h it ip) (shell g v ix) 0 = at3 g v ix it ip).
  { intros ix it ip Hx Ht Hp. pose proof (nth_error_shell_pt g v ix it ip Ht Hp) as K.
    replace (spos b h it ip) with (indx_th_ph g it ip) by (unfold spos, indx_th_ph, ix_th_ph; rewrite Eb, El, Ep; reflexivity).
    assert (K2 : nth_error v (indx_R_th_ph g ix it ip) = Some (at3 g v ix it ip)).
    { apply nth_error_nth'. rewrite Lv. now apply ix_R_th_ph_lt. }
    rewrite K2 in K. now apply nth_error_nth with (d := 0) in K. }
  assert (C : forall it, (it < g_nlat g)%nat -> cos (grid_theta h it) = nth it (s_ct h) 0).
  { intros it Ht. unfold grid_theta. apply cos_acos. apply Hct. lia. }
  split.
  - intros H ix it ip Hx Ht Hp. destruct (H ix Hx) as [_ S]. rewrite <- K by auto. rewrite S by lia. now rewrite C.
  - intros H ix Hx. split; [rewrite shell_length by auto; congruence|]. intros it ip Ht Hp. rewrite K by lia. rewrite H by lia. now rewrite C by lia.
Qed.

(** data, the same at every radius and longitude, that are monotone in theta: total_variation returns a larger number after the filter *)
Theorem C98_grid_filter_TVD_refuted sched : (4 <= s_lmax h)%nat -> (1 <= s_mmax h)%nat ->
  (2 <= nx)%nat -> (2 <= s_nlat h)%nat -> (2 <= s_nphi h)%nat -> deals sched (nx - 1) ->
  (forall i, (S i < s_nlat h)%nat -> nth (S i) (s_ct h) 0 <= nth i (s_ct h) 0) ->
  4 / 5 <= nth 0 (s_ct h) 0 -> nth (s_nlat h - 1) (s_ct h) 0 <= - (4 / 5) ->
  exists v out tv tv', length v = g_n3 g /\
    (forall ix it ip, (ix < g_nx g)%nat -> (it < g_nlat g)%nat -> (ip < g_nphi g)%nat ->
      let x := nth it (s_ct h) 0 in at3 g v ix it ip = x - (5 * x ^ 3 - 3 * x) / 12) /\
    grid_filter g v = Ok out /\
    total_variation g sched v = Ok tv /\ total_variation g sched out = Ok tv' /\ tv < tv'.
Proof.
  intros HL HM Hx Hlat Hphi D Dec X0 Xn. pose proof (lw_shapes b h _ Hlaw) as Hsh.
  destruct (gof_sizes b h cl Rmn Rmx nx g Hg) as (Eb & En & _ & El & Ep & Hs & _).
  set (x := fun i => nth i (s_ct h) 0). set (P3 := fun y => (5 * y ^ 3 - 3 * y) / 2).
  set (w := fun c1 c3 y => c1 * y + c3 * P3 y).
  destruct (grid_values g (fun _ it _ => w 1 (- (1 / 6)) (x it))) as (v & Lv & Hv).
  destruct (C26_filter_is_angular_only b h cl Rmn Rmx nx g Hg v Hsh ltac:(lia) Lv) as (r & E & Lr & H).
  set (d1 := damp (s_lmax h) 1). set (d3 := damp (s_lmax h) 3).
  assert (Sv : forall ix, (ix < g_nx g)%nat -> sampled b h (fun th _ => w 1 (- (1 / 6)) (cos th)) (shell g v ix)).
  { apply (at3_shell v (w 1 (- (1 / 6))) Lv). intros. now apply Hv. }
  assert (So : forall ix, (ix < g_nx g)%nat -> sampled b h (fun th _ => w d1 (- (1 / 6) * d3) (cos th)) (shell g r ix)).
  { intros ix Hix. specialize (H ix Hix). specialize (Sv ix Hix).
    destruct (C36_filter b h Ylm_profile (g_sphere g) (tvd_spec 1 (- (1 / 6))) (shell g v ix) Hlaw Hs) as (o & Eo & Ho).
    - intros l. unfold tvd_spec. cbn [Nat.eqb]. destruct (Nat.eqb l 1); [reflexivity|]. now destruct (Nat.eqb l 3).
    - intros l m Hlm. unfold tvd_spec. destruct (Nat.eqb_spec m 0); auto. destruct (Nat.eqb_spec l 1); [lia|]. destruct (Nat.eqb_spec l 3); [lia|auto].
    - eapply sampled_ext; [|exact Sv]. intros th ph. rewrite tvd_field by lia. reflexivity.
    - rewrite Eo in H. injection H as <-. eapply sampled_ext; [|exact Ho]. intros th ph. cbv beta.
      transitivity (real_field Ylm_profile (s_lmax h) (s_mmax h) (tvd_spec d1 (- (1 / 6) * d3)) th ph); [|rewrite tvd_field by lia; reflexivity].
      apply (real_field_ext h Ylm_profile). intros l m _ _ _. unfold tvd_spec. pose proof (ynorm_pos 1 0 ltac:(lia)). pose proof (ynorm_pos 3 0 ltac:(lia)).
      destruct (C36_factors (s_lmax h) ltac:(lia)) as (D0 & _).
      destruct (Nat.eqb_spec m 0) as [->|]; [|cbn [fst snd]; f_equal; ring].
      destruct (Nat.eqb_spec l 1) as [->|]; [cbn [fst snd]; rewrite D0; unfold d1; f_equal; field; lra|].
      destruct (Nat.eqb_spec l 3) as [->|]; cbn [fst snd]; rewrite ?D0; unfold d3; f_equal; field; lra. }
  pose proof (proj1 (at3_shell v (w 1 (- (1 / 6))) Lv) Sv) as Av. pose proof (proj1 (at3_shell r (w d1 (- (1 / 6) * d3)) Lr) So) as Ao.
  exists v, r. do 2 eexists. split; [exact Lv|]. split.
  { intros ix it ip Hix Hit Hip. cbv zeta. rewrite Av by auto. unfold w, P3. fold (x it). field. }
  split; [exact E|]. split; [apply tv_closed; auto; try lia; rewrite En; auto|]. split; [apply tv_closed; auto; try lia; rewrite En; auto|].
  rewrite (tv_sum_theta g v (fun i => w 1 (- (1 / 6)) (x i)) Av), (tv_sum_theta g r (fun i => w d1 (- (1 / 6) * d3) (x i)) Ao). rewrite En, El, Ep.
  assert (P : forall k, (2 <= k)%nat -> 0 < INR (k - 1)) by (intros; apply lt_0_INR; lia).
  assert (N3 : 0 < INR (g_n3 g)). { apply lt_0_INR. unfold g_n3. rewrite En, El, Ep. apply Nat.mul_pos_pos; [apply Nat.mul_pos_pos|]; lia. }
  apply Rmult_lt_compat_r; [now apply Rinv_0_lt_compat|]. apply Rmult_lt_compat_l; [auto|]. apply Rmult_lt_compat_l; [auto|].
  set (n := (s_nlat h - 1)%nat) in *.
  assert (Xr : forall i, (i <= n)%nat -> -1 <= x i <= 1) by (intros; apply Hct; lia).
  assert (M : forall i, (i < n)%nat -> w 1 (- (1 / 6)) (x (i + 1)%nat) <= w 1 (- (1 / 6)) (x i)).
  { intros i Hi. pose proof (Xr i ltac:(lia)) as A. pose proof (Xr (i + 1)%nat ltac:(lia)) as B.
    assert (C : x (i + 1)%nat <= x i) by (unfold x; rewrite Nat.add_1_r; apply Dec; lia).
    unfold w, P3. set (p := x i) in *. set (q := x (i + 1)%nat) in *.
    assert (0 <= (p - q) * (15 - 5 * (p * p + p * q + q * q))) by (apply Rmult_le_pos; nra). nra. }
  rewrite (tele_eq n (fun i => w 1 (- (1 / 6)) (x i)) M).
  eapply Rlt_le_trans; [|apply (tele_le n (fun i => w d1 (- (1 / 6) * d3) (x i)))]. cbv beta.
  eapply Rlt_le_trans; [|apply Rle_abs].
  pose proof (damp_gap (s_lmax h) (16 / 600) ltac:(lia) ltac:(lra)) as G. fold (damp (s_lmax h) 1) in G. fold (damp (s_lmax h) 3) in G. fold d1 d3 in G.
  pose proof (Xr 0%nat ltac:(lia)) as R0. pose proof (Xr n ltac:(lia)) as Rn. change (4 / 5 <= x 0%nat) in X0. change (x n <= - (4 / 5)) in Xn.
  assert (Q0 : 8 / 100 <= P3 (x 0%nat)) by (unfold P3; set (y := x 0%nat) in *; assert (0 <= (y - 4 / 5) * (5 * y * y + 4 * y + 1 / 5)) by (apply Rmult_le_pos; nra); nra).
  assert (Qn : P3 (x n) <= - (8 / 100)) by (unfold P3; set (y := x n) in *; assert (0 <= (- y - 4 / 5) * (5 * y * y - 4 * y + 1 / 5)) by (apply Rmult_le_pos; nra); nra).
  destruct (C36_factors (s_lmax h) ltac:(lia)) as (_ & Dr & _). pose proof (Dr 1%nat) as D1. pose proof (Dr 3%nat) as D3. fold d1 in D1. fold d3 in D3.
  assert ((1 - d1) * (x 0%nat - x n) <= (1 - d1) * 2) by (apply Rmult_le_compat_l; lra).
  assert ((1 - d3) * (16 / 100) <= (1 - d3) * (P3 (x 0%nat) - P3 (x n))) by (apply Rmult_le_compat_l; lra).
  unfold w. lra.
Qed.
End Grid.

(** such grids exist: nl = nm = 4, six latitudes, nine longitudes, the true spherical harmonics, one chunk of work *)
Example C98_nonvacuous b : exists h g, grid_of b h 50 2 50 10 g /\ lawful b h Ylm_profile /\
  (forall i, (i < s_nlat h)%nat -> -1 <= nth i (s_ct h) 0 <= 1) /\ (4 <= s_lmax h)%nat /\ (1 <= s_mmax h)%nat /\
  (2 <= s_nlat h)%nat /\ (2 <= s_nphi h)%nat /\ deals [seq 0 9] (10 - 1) /\
  (forall i, (S i < s_nlat h)%nat -> nth (S i) (s_ct h) 0 <= nth i (s_ct h) 0) /\
  4 / 5 <= nth 0 (s_ct h) 0 /\ nth (s_nlat h - 1) (s_ct h) 0 <= - (4 / 5).
Proof.
  set (ct := [9 / 10; 5 / 10; 1 / 10; - (1 / 10); - (5 / 10); - (9 / 10)]).
  destruct (C28_contract_satisfiable b 4 4 6 9 ct) as (h & E1 & E2 & E3 & E4 & Ec & Hl & _); try lia; [reflexivity| | |].
  - intros i j Hi Hj. destruct i as [|[|[|[|[|[|]]]]]]; try lia; destruct j as [|[|[|[|[|[|]]]]]]; try lia; cbn; intros; lra.
  - intros i Hi. destruct i as [|[|[|[|[|[|]]]]]]; try lia; cbn; lra.
  - assert (Hg : exists g, grid_of b h 50 2 50 10 g).
    { unfold grid_of. apply Grid_make_ok; [rewrite E3, Ec; cbn; lia|]. intros _. left. lia. }
    destruct Hg as (g & Hg). exists h, g. split; [exact Hg|]. split; [exact Hl|]. rewrite E1, E2, E3, E4, Ec. unfold ct.
    split. { intros i Hi. destruct i as [|[|[|[|[|[|]]]]]]; try lia; cbn; lra. }
    split; [lia|]. split; [lia|]. split; [lia|]. split; [lia|]. split.
    { unfold deals. cbn. apply Permutation.Permutation_refl. }
    split. { intros i Hi. destruct i as [|[|[|[|[|[|]]]]]]; try lia; cbn; lra. }
    split; cbn; lra.
Qed.
