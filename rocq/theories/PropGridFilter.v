(** * Property C26 (exact arithmetic): purely radial structure is never filtered. *)
From Coq Require Import Reals Lra.
From Coquelicot Require Import Coquelicot.
From Verif Require Import Base BaseLemmas ForList Arith MFd MCheb MSphere MGrid MSim GridSpec SphereSpec Spec
  PGrid PTables PMake PFd PFdR PCheb PChebG PropFd PropFd2 PropCheb PSphere PSphere2 PropSphere PGridOp PropGridOp PRad PropRad.
Local Open Scope R_scope.

Lemma finite_choice {A} (d : A) n (Q : nat -> A -> Prop) : (forall k, (k < n)%nat -> exists x, Q k x) ->
  exists v, length v = n /\ forall k, (k < n)%nat -> Q k (nth k v d).
Proof.
  induction n as [|n IH]; intros H.
  - exists []. split; auto. lia.
  - destruct IH as (v & L & Hv). { intros k Hk. apply H. lia. }
    destruct (H n) as (x & Hx); auto. exists (v ++ [x]). rewrite app_length. split; [simpl; lia|].
    intros k Hk. destruct (Nat.eq_dec k n) as [->|Hne].
    + rewrite app_nth2, L by lia. now rewrite Nat.sub_diag.
    + rewrite app_nth1 by lia. apply Hv. lia.
Qed.
(** every family of values on the grid points is the content of some array *)
Lemma grid_values (g : grid R) (f : nat -> nat -> nat -> R) :
  exists v, length v = g_n3 g /\ forall ix it ip, (ix < g_nx g)%nat -> (it < g_nlat g)%nat -> (ip < g_nphi g)%nat ->
    nth (indx_R_th_ph g ix it ip) v 0 = f ix it ip.
Proof.
  destruct (finite_choice 0 (g_n3 g) (fun k x => forall ix it ip, (ix < g_nx g)%nat -> (it < g_nlat g)%nat -> (ip < g_nphi g)%nat ->
    indx_R_th_ph g ix it ip = k -> x = f ix it ip)) as (v & L & H).
  - intros k Hk. destruct (ix_R_th_ph_surj (g_bld g) (g_nx g) (g_nlat g) (g_nphi g) k Hk) as (ix & it & ip & Hx & Ht & Hp & E).
    exists (f ix it ip). intros ix' it' ip' Hx' Ht' Hp' E'. unfold indx_R_th_ph in E'. rewrite <- E in E'.
    apply ix_R_th_ph_inj in E'; auto. destruct E' as (-> & -> & ->). auto.
  - exists v. split; auto. intros ix it ip Hx Ht Hp. apply (H (indx_R_th_ph g ix it ip)); auto. now apply ix_R_th_ph_lt.
Qed.

Section C26.
Variables (b : build) (h : sht R) (P : profiles) (cl Rmn Rmx : R) (nx : nat) (g : grid R) (p0 : R).
Hypothesis Hlaw : lawful b h P.
Hypothesis HP0 : forall th, P 0%nat 0%nat th = p0.   (* the monopole harmonic is a constant *)
Hypothesis Hp0 : p0 <> 0.
Hypothesis HL : (1 <= s_lmax h)%nat.
Hypothesis HM : (1 <= s_mmax h)%nat.
Hypothesis Hg : grid_of b h cl Rmn Rmx nx g.

(** data that depend on the radius only are returned unchanged *)
Theorem C26_radial_data_untouched (w : nat -> R) v : (1 <= nx)%nat -> length v = g_n3 g ->
  (forall ix it ip, (ix < g_nx g)%nat -> (it < g_nlat g)%nat -> (ip < g_nphi g)%nat -> nth (indx_R_th_ph g ix it ip) v 0 = w ix) ->
  grid_filter g v = Ok v.
Proof.
  intros Hx Lv Hv. pose proof (lw_shapes b h P Hlaw) as Hsh.
  destruct (gof_sizes b h cl Rmn Rmx nx g Hg) as (Eb & En & _ & El & Ep & Hs & _).
  destruct (C26_filter_is_angular_only b h cl Rmn Rmx nx g Hg v Hsh Hx Lv) as (r & E & L & H).
  rewrite E. f_equal. apply (shells_ext g); auto. intros ix Hix. specialize (H ix Hix).
  rewrite (C36_monopole b h P (g_sphere g) (w ix / p0) (shell g v ix)) in H; auto; [now injection H|].
  split; [rewrite shell_length by auto; congruence|]. intros it ip Ht Hp.
  unfold mode. cbn [Nat.eqb fst]. rewrite HP0. replace (w ix / p0 * p0) with (w ix) by (field; auto).
  rewrite <- El in Ht. rewrite <- Ep in Hp. rewrite <- (Hv ix it ip) by auto.
  pose proof (nth_error_shell_pt g v ix it ip Ht Hp) as K.
  replace (spos b h it ip) with (indx_th_ph g it ip) by (unfold spos, indx_th_ph, ix_th_ph; rewrite Eb, El, Ep; reflexivity).
  assert (K2 : nth_error v (indx_R_th_ph g ix it ip) = Some (nth (indx_R_th_ph g ix it ip) v 0)).
  { apply nth_error_nth'. rewrite Lv. now apply ix_R_th_ph_lt. }
  rewrite K2 in K. now apply nth_error_nth with (d := 0) in K.
Qed.

(** the radial filter of the compiled radial scheme *)
Definition radial_filter (v : list R) : res (list R) :=
  match g_radial g with RFd r => fd_filter b r v | RCh c => cheb_filter b c v end.

(** "a radial filter is applied, keeping the boundary values" is false: there are data which the
    radial filter would change at an interior point of every radial line and which are left alone *)
Theorem C26_radial_filtering_refuted : Rmn <> Rmx -> (use_cheb b = false -> 9 <= nx)%nat -> (use_cheb b = true -> 4 <= nx)%nat ->
  exists v, length v = g_n3 g /\ grid_filter g v = Ok v /\
    forall it ip, (it < g_nlat g)%nat -> (ip < g_nphi g)%nat ->
      exists o ix, radial_filter (rline g v it ip) = Ok o /\ (0 < ix < nx - 1)%nat /\
        nth ix o 0 <> nth ix (rline g v it ip) 0.
Proof.
  intros Hne H9 H4. destruct (gof_sizes b h cl Rmn Rmx nx g Hg) as (Eb & En & _).
  destruct (use_cheb b) eqn:Hc.
  - specialize (H4 eq_refl). destruct (cheb_grid b h cl Rmn Rmx nx g Hg Hc) as (c & Ec & Er).
    assert (Hpt := fun ix Hi => cheb_pt_val b nx Rmn Rmx c ix Ec ltac:(lia) Hi).
    set (w := fun ix => cos (PI * INR ix / INR (nx - 1))).
    destruct (grid_values g (fun ix _ _ => w ix)) as (v & Lv & Hv). exists v. split; auto.
    split; [apply (C26_radial_data_untouched w); auto; lia|]. intros it ip Ht Hp.
    assert (S : cheb_samples c nx (fun x => chebT 1 (unit_coord Rmn Rmx x)) (rline g v it ip)).
    { split; [rewrite rline_length; auto|]. intros i x Hi Hix. rewrite nth_rl by lia. rewrite Hv by (auto; lia).
      rewrite (unit_coord_pt b nx Rmn Rmx c i x) by (auto; lia). reflexivity. }
    pose proof (C19_filter_modes b nx Rmn Rmx c 1 (rline g v it ip) ltac:(lia) Ec Hne ltac:(lia) S) as F.
    eexists. exists 1%nat. unfold radial_filter. rewrite Er. split; [exact F|]. split; [lia|].
    rewrite nth_map_scal, nth_rl by lia. rewrite Hv by (auto; lia).
    destruct (C19_factors nx ltac:(lia)) as (D0 & D1 & D2). specialize (D2 0%nat 1%nat ltac:(lia)). rewrite D0 in D2.
    assert (W : 0 < w 1%nat).
    { unfold w. assert (3 <= INR (nx - 1)) by (replace 3 with (INR 3) by (simpl; ring); apply le_INR; lia).
      apply cos_gt_0; pose proof PI_RGT_0.
      - apply Rlt_trans with 0; [lra|]. apply Rmult_lt_0_compat; [simpl; lra|apply Rinv_0_lt_compat; lra].
      - change (INR 1) with 1. rewrite Rmult_1_r. apply (Rmult_lt_reg_r (INR (nx - 1))); [lra|].
        unfold Rdiv at 1. rewrite Rmult_assoc, Rinv_l, Rmult_1_r by lra. nra. }
    nra.
  - specialize (H9 eq_refl). pose proof (fd_grid b h cl Rmn Rmx nx g Hg Hc) as Er.
    set (w := fun ix => if Nat.eqb ix 2 then 1 else 0).
    destruct (grid_values g (fun ix _ _ => w ix)) as (v & Lv & Hv). exists v. split; auto.
    split; [apply (C26_radial_data_untouched w); auto; lia|]. intros it ip Ht Hp.
    eexists. exists 4%nat. unfold radial_filter. rewrite Er.
    split; [apply fd_filter_ok; cbn [fd_n FD_make]; [lia|rewrite rline_length; auto]|]. split; [lia|].
    cbn [fd_n FD_make]. rewrite nth_map_seq by lia. rewrite ko_is by lia.
    change f0 with 0. rewrite !nth_rl by lia. rewrite !Hv by (auto; lia). unfold w. simpl Nat.eqb. cbv iota. lra.
Qed.
End C26.

(** ** Concrete cases meeting the hypotheses of C21-C23, C26 *)
Lemma radial_samples_ex (g : grid R) f : (forall ix, (ix < g_nx g)%nat -> exists X, rad_pt (g_radial g) ix = Ok X) ->
  exists v, radial_samples g f v.
Proof.
  intros H. destruct (finite_choice 0 (g_nx g) (fun ix X => rad_pt (g_radial g) ix = Ok X) H) as (xs & L & Hxs).
  destruct (grid_values g (fun ix it ip => f it ip (nth ix xs 0))) as (v & Lv & Hv).
  exists v. split; auto. intros ix it ip X Hx Ht Hp HX. rewrite Hv by auto. rewrite Hxs in HX by auto. now injection HX as ->.
Qed.
(** transforms that return zeros: enough for statements about the radial direction *)
Definition null_sht (lmax mmax nlat nphi : nat) : sht R :=
  Sht lmax mmax nlat nphi (nlat * nphi) (map (fun i => (INR i + 1) / INR (nlat + 1)) (seq 0 nlat))
    (fun v => repeat (0, 0) (nlm_calc lmax mmax)) (fun c => repeat 0 (nlat * nphi))
    (fun v => repeat (0, 0) ((lmax + 1) * (lmax + 1))) (fun c => repeat (0, 0) (nlat * nphi)).
Lemma null_shapes lmax mmax nlat nphi : (mmax <= lmax)%nat -> shapes (null_sht lmax mmax nlat nphi).
Proof.
  intros H. split; cbn; intros; auto; try apply repeat_length. now rewrite map_length, seq_length.
Qed.
Example C21_C22_C23_nonvacuous cheb : exists g v,
  grid_of (Build cheb true false) (null_sht 4 3 6 8) 50 2 50 10 g /\ shapes (null_sht 4 3 6 8) /\
  g_n3 g = 480%nat /\ length v = 480%nat /\
  radial_samples g (fun it ip => poly [1; INR it; INR ip; -3]) v /\ exists X, rad_pt (g_radial g) 3 = Ok X.
Proof.
  destruct (Grid_make_ok (Build cheb true false) (null_sht 4 3 6 8) 50 2 50 10 4 3 6 8) as (g & E); [cbn; lia|left; lia|].
  assert (Hg : grid_of (Build cheb true false) (null_sht 4 3 6 8) 50 2 50 10 g) by exact E.
  destruct (gof_sizes _ _ _ _ _ _ _ Hg) as (_ & En & _ & El & Ep & _).
  destruct (radial_samples_ex g (fun it ip => poly [1; INR it; INR ip; -3])) as (v & Hv).
  { intros ix Hix. eapply pt_ex; [exact Hg|lia]. }
  assert (N3 : g_n3 g = 480%nat) by (unfold g_n3; rewrite En, El, Ep; reflexivity).
  exists g, v. split; auto. split; [apply null_shapes; lia|]. split; auto. split; [rewrite <- N3; apply Hv|]. split; auto.
  eapply pt_ex; [exact Hg|lia].
Qed.
