(** * Property C78: with finite differences the right-hand side converges at sixth order in the radial spacing. *)
From Coq Require Import Reals Lra FunctionalExtensionality.
From Coquelicot Require Import Coquelicot.
From Verif Require Import Base BaseLemmas ForList Arith MFd MCheb MSphere MGrid MParams MField MEom MSim Spec SphereSpec GridSpec LegSpec EomSpec ContSpec RkSpec SmoothSpec
  PGrid PTables PMake PSum PFdR PropFd PropTables PSphere PSphere2 PSphereR PropSphere PropLadder PLeg PSphereD PropSphereD TruncSpec PropTrunc PGridOp PropGridOp PRad PropRad
  PropGridFilter PConc PEom PEomOk PEomR PropEom PCont PropCont PSmooth.
Local Open Scope R_scope.

(** ** bounds on the coefficients of the equations *)
Lemma quot_bound x S p : 1 <= S -> 0 <= p <= 1 -> Rabs (x / S * p) <= Rabs x.
Proof.
  intros HS Hp. unfold Rdiv. rewrite !Rabs_mult, (Rabs_pos_eq p), (Rabs_pos_eq (/ S)) by (try lra; left; apply Rinv_0_lt_compat; lra).
  assert (0 <= / S <= 1). { split; [left; apply Rinv_0_lt_compat; lra|]. rewrite <- Rinv_1. apply Rinv_le_contravar; lra. }
  pose proof (Rabs_pos x). assert (0 <= / S * p <= 1) by nra. nra.
Qed.
Lemma coef_bounds m a rho0 : 0 < m -> 0 <= rho0 -> exists K, 0 <= K /\ forall rho th, 0 <= rho <= rho0 -> let c := coef_at m a rho th in
  Rabs (c_dr_f c) <= K /\ Rabs (c_dr_p c) <= K /\ Rabs (c_dr_dr_f c) <= K /\ Rabs (c_dphi_dr_f c) <= K /\ Rabs (c_p_dr_f c) <= K /\ Rabs (c_dr_f_dr_f c) <= K /\ Rabs (c_dr_f_dphi_f c) <= K.
Proof.
  intros Hm H0. set (hp := hor_p m a). set (hm := hor_m m a).
  set (K1 := 2 * (rho0 + m * rho0 ^ 2)). set (K2 := 4 * m * rho0). set (K3 := (1 + Rabs hp * rho0) * (1 + Rabs hm * rho0)). set (K4 := 2 * Rabs a * rho0 ^ 2).
  assert (S0 : 0 <= rho0 ^ 2) by apply pow2_ge_0.
  assert (P1 : 0 <= K1) by (unfold K1; assert (0 <= m * rho0 ^ 2) by (apply Rmult_le_pos; lra); lra).
  assert (P2 : 0 <= K2) by (unfold K2; assert (0 <= m * rho0) by (apply Rmult_le_pos; lra); lra).
  assert (Q1 : 0 <= Rabs hp * rho0) by (apply Rmult_le_pos; auto; apply Rabs_pos). assert (Q2 : 0 <= Rabs hm * rho0) by (apply Rmult_le_pos; auto; apply Rabs_pos).
  assert (P3 : 0 <= K3) by (unfold K3; apply Rmult_le_pos; lra).
  assert (P4 : 0 <= K4) by (unfold K4; apply Rmult_le_pos; auto; pose proof (Rabs_pos a); lra).
  exists (K1 + K2 + K3 + K4). split; [lra|]. intros rho th Hr. unfold coef_at. cbv zeta. cbn [c_dr_f c_dr_p c_dr_dr_f c_dphi_dr_f c_p_dr_f c_dr_f_dr_f c_dr_f_dphi_f].
  set (S := Sigma_ a rho th). assert (HS : 1 <= S). { unfold S, Sigma_. R_ops. pose proof (pow2_ge_0 rho). pose proof (pow2_ge_0 a). pose proof (pow2_ge_0 (cos th)). pose proof (Rmult_le_pos _ _ (Rmult_le_pos _ _ H H1) H2). lra. }
  R_ops. set (pre := 1 / (1 + 2 * m * rho / S)). assert (Hp : 0 <= pre <= 1).
  { assert (0 <= 2 * m * rho / S). { apply Rmult_le_pos; [apply Rmult_le_pos; lra|]. left. apply Rinv_0_lt_compat. lra. }
    unfold pre, Rdiv. rewrite Rmult_1_l. split; [left; apply Rinv_0_lt_compat; lra|]. rewrite <- Rinv_1. apply Rinv_le_contravar; lra. }
  assert (R2 : 0 <= rho ^ 2 <= rho0 ^ 2) by (split; [apply pow2_ge_0|apply pow_incr; lra]).
  assert (B1 : Rabs (2 * (rho - m * rho ^ 2) / S * pre) <= K1).
  { eapply Rle_trans; [apply quot_bound; auto|]. unfold K1. rewrite Rabs_mult, (Rabs_pos_eq 2) by lra. apply Rmult_le_compat_l; [lra|]. unfold Rminus. eapply Rle_trans; [apply Rabs_triang|].
    rewrite Rabs_Ropp, Rabs_mult, (Rabs_pos_eq rho), (Rabs_pos_eq m), (Rabs_pos_eq (rho ^ 2)) by lra. apply Rplus_le_compat; [lra|]. apply Rmult_le_compat_l; lra. }
  assert (B2 : Rabs (4 * m * rho / S * pre) <= K2).
  { eapply Rle_trans; [apply quot_bound; auto|]. unfold K2. rewrite Rabs_pos_eq by (apply Rmult_le_pos; lra). apply Rmult_le_compat_l; lra. }
  assert (B3 : Rabs (Delta_ m a rho / S * pre) <= K3).
  { eapply Rle_trans; [apply quot_bound; auto|]. unfold K3, Delta_. fold hp hm. R_ops. rewrite Rabs_mult.
    assert (T : forall x, Rabs (1 - x * rho) <= 1 + Rabs x * rho0).
    { intros x. unfold Rminus. eapply Rle_trans; [apply Rabs_triang|]. rewrite Rabs_R1, Rabs_Ropp, Rabs_mult, (Rabs_pos_eq rho) by lra. apply Rplus_le_compat_l. apply Rmult_le_compat_l; [apply Rabs_pos|lra]. }
    apply Rmult_le_compat; auto; apply Rabs_pos. }
  assert (B4 : Rabs (2 * a * rho ^ 2 / S * pre) <= K4).
  { eapply Rle_trans; [apply quot_bound; auto|]. unfold K4. rewrite Rabs_mult, (Rabs_mult 2), (Rabs_pos_eq 2), (Rabs_pos_eq (rho ^ 2)) by lra. apply Rmult_le_compat_l; [pose proof (Rabs_pos a); lra|lra]. }
  repeat split; lra.
Qed.
(** ** error of the right-hand side from the errors of the radial derivatives *)
Lemma Rabs_mul_le x y A B : Rabs x <= A -> Rabs y <= B -> Rabs (x * y) <= A * B.
Proof. intros. rewrite Rabs_mult. apply Rmult_le_compat; auto; apply Rabs_pos. Qed.
Lemma p_rhs_error e c f p y1 y2 y3 y4 ph lp sX z1 z2 z3 z4 K E : 0 <= E <= K ->
  Rabs (c_dr_f c) <= K -> Rabs (c_dr_p c) <= K -> Rabs (c_dr_dr_f c) <= K -> Rabs (c_dphi_dr_f c) <= K -> Rabs (c_p_dr_f c) <= K -> Rabs (c_dr_f_dr_f c) <= K -> Rabs (c_dr_f_dphi_f c) <= K ->
  Rabs (kprime e f * inverse_k e f) <= K -> Rabs p <= K -> Rabs ph <= K -> Rabs z1 <= K ->
  Rabs (y1 - z1) <= E -> Rabs (y2 - z2) <= E -> Rabs (y3 - z3) <= E -> Rabs (y4 - z4) <= E ->
  Rabs (p_rhs e c f p y1 y2 y3 ph y4 lp sX - p_rhs e c f p z1 z2 z3 ph z4 lp sX) <= (4 * K + 5 / 2 * K ^ 3) * E.
Proof.
  intros HE H1 H2 H3 H4 H5 H6 H7 Hk Hp Hph Hz D1 D2 D3 D4. unfold p_rhs. R_ops. rewrite half_eq.
  generalize dependent (kprime e f * inverse_k e f). intros kk Hk.
  match goal with |- Rabs ?x <= _ => replace x with
    (c_dr_f c * (y1 - z1) + c_dr_p c * (y2 - z2) + c_dr_dr_f c * (y3 - z3) + c_dphi_dr_f c * (y4 - z4)
     + / 2 * (kk * ((c_p_dr_f c * p + c_dr_f_dr_f c * (2 * z1 + (y1 - z1)) + c_dr_f_dphi_f c * ph) * (y1 - z1)))) by field end.
  assert (K0 : 0 <= K) by lra.
  assert (T1 : Rabs (c_dr_f c * (y1 - z1)) <= K * E) by now apply Rabs_mul_le.
  assert (T2 : Rabs (c_dr_p c * (y2 - z2)) <= K * E) by now apply Rabs_mul_le.
  assert (T3 : Rabs (c_dr_dr_f c * (y3 - z3)) <= K * E) by now apply Rabs_mul_le.
  assert (T4 : Rabs (c_dphi_dr_f c * (y4 - z4)) <= K * E) by now apply Rabs_mul_le.
  assert (T5 : Rabs (c_p_dr_f c * p) <= K * K) by now apply Rabs_mul_le.
  assert (T6 : Rabs (c_dr_f_dr_f c * (2 * z1 + (y1 - z1))) <= K * (3 * K)).
  { apply Rabs_mul_le; auto. eapply Rle_trans; [apply Rabs_triang|]. rewrite Rabs_mult, (Rabs_pos_eq 2); lra. }
  assert (T7 : Rabs (c_dr_f_dphi_f c * ph) <= K * K) by now apply Rabs_mul_le.
  set (A := c_p_dr_f c * p) in *. set (B := c_dr_f_dr_f c * (2 * z1 + (y1 - z1))) in *. set (D := c_dr_f_dphi_f c * ph) in *.
  assert (T8 : Rabs (A + B + D) <= 5 * (K * K)).
  { eapply Rle_trans; [apply Rabs_triang|]. pose proof (Rabs_triang A B). lra. }
  assert (T9 : Rabs ((A + B + D) * (y1 - z1)) <= 5 * (K * K) * E) by now apply Rabs_mul_le.
  assert (T10 : Rabs (kk * ((A + B + D) * (y1 - z1))) <= K * (5 * (K * K) * E)) by now apply Rabs_mul_le.
  assert (T11 : Rabs (/ 2 * (kk * ((A + B + D) * (y1 - z1)))) <= / 2 * (K * (5 * (K * K) * E))).
  { rewrite Rabs_mult, (Rabs_pos_eq (/ 2)) by lra. apply Rmult_le_compat_l; [lra|exact T10]. }
  replace ((4 * K + 5 / 2 * K ^ 3) * E) with (K * E + K * E + K * E + K * E + / 2 * (K * (5 * (K * K) * E))) by field.
  repeat (eapply Rle_trans; [apply Rabs_triang|]; apply Rplus_le_compat; auto).
Qed.
(** the coupling along a smooth field *)
Definition kpt (t : theory) (x : R) : R := - t_km1 t / (x + 1) ^ 2 + t_k1 t + t_k2 t * x.
Lemma kprime_kpt e x : kprime e x = kpt (theory_e e) x.
Proof. unfold kprime, kpt, theory_e. cbn [t_km1 t_k1 t_k2]. R_ops. unfold Rdiv. ring. Qed.
Lemma kk_cont t F x : ex_derive F x -> F x + 1 <> 0 -> kfun t (F x) <> 0 -> continuous (fun X => kpt t (F X) * / kfun t (F X)) x.
Proof.
  intros HF H1 Hk. apply (ex_derive_continuous (fun X => kpt t (F X) * / kfun t (F X))). unfold kpt, kfun in *. auto_derive. repeat split; auto. 
Qed.

Section G.
Variables (b : build) (h : sht R) (cl Rmn Rmx lo hi : R) (par : params R).
Hypothesis Hb : use_cheb b = false.
Hypothesis Hcl : 0 < cl.
Hypothesis Hmn : 0 < Rmn.
Hypothesis Hlt : Rmn < Rmx.
Hypothesis Hmx : Rmx <= cl.
Hypothesis Hlo : lo < Rmn.
Hypothesis Hhi : Rmx < hi.
Local Notation dx nx := ((Rmx - Rmn) / INR (nx - 1)).

Lemma unit_factor X : Rmn <= X <= Rmx -> 0 <= 1 - X / cl <= 1.
Proof.
  intros HX. assert (0 <= X / cl <= 1); [|lra]. split; [apply Rmult_le_pos; [lra|left; now apply Rinv_0_lt_compat]|].
  apply (Rmult_le_reg_r cl); auto. unfold Rdiv. rewrite Rmult_assoc, Rinv_l by lra. lra.
Qed.
Lemma pt_in nx g ix X : grid_of b h cl Rmn Rmx nx g -> (8 <= nx)%nat -> (ix < g_nx g)%nat -> rad_pt (g_radial g) ix = Ok X -> Rmn <= X <= Rmx.
Proof.
  intros Hg Hn Hx HX. destruct (gof_sizes b h cl Rmn Rmx nx g Hg) as (_ & En & _). rewrite (fd_grid b h cl Rmn Rmx nx g Hg Hb) in HX. cbn [rad_pt] in HX.
  assert (EX : fd_pt (FD_make nx Rmn Rmx) ix = X) by now injection HX. rewrite <- EX. apply (pt_range nx Rmn Rmx ix); auto; lia.
Qed.
Lemma dx_le nx : (8 <= nx)%nat -> 0 <= dx nx <= Rmx - Rmn.
Proof.
  intros Hn. assert (1 <= INR (nx - 1)) by (change 1 with (INR 1); apply le_INR; lia).
  assert (0 < / INR (nx - 1) <= 1). { split; [apply Rinv_0_lt_compat; lra|]. rewrite <- Rinv_1. apply Rinv_le_contravar; lra. }
  unfold Rdiv. split; [apply Rmult_le_pos; lra|]. rewrite <- (Rmult_1_r (Rmx - Rmn)) at 2. apply Rmult_le_compat_l; lra.
Qed.
(** radial derivatives of a smooth field: one constant for every number of points *)
Lemma rad_error F : smooth_radially lo hi F -> exists B, 0 <= B /\ forall nx g v dv, (8 <= nx)%nat -> grid_of b h cl Rmn Rmx nx g -> grid_sampled h g F v -> length dv = g_n3 g ->
  exists dr drr, set_partial_r g v dv = Ok dr /\ set_partial2_r g v dv = Ok drr /\
  forall ix it ip X, (ix < g_nx g)%nat -> (it < g_nlat g)%nat -> (ip < g_nphi g)%nat -> rad_pt (g_radial g) ix = Ok X ->
    let i := indx_R_th_ph g ix it ip in let r := X / (1 - X / cl) in let th := grid_theta h it in let ph := grid_phi h ip in
    (X <> cl -> Rabs (nth i dr 0 - Derive (fun x => at_r cl F x th ph) r) <= B * dx nx ^ 6 /\ Rabs (nth i drr 0 - Derive_n (fun x => at_r cl F x th ph) 2 r) <= B * dx nx ^ 6) /\
    (X = cl -> nth i dr 0 = 0 /\ nth i drr 0 = 0).
Proof.
  intros HF.
  set (f := fun it ip : nat => if ((it <? s_nlat h) && (ip <? s_nphi h))%bool then (fun X => F X (grid_theta h it) (grid_phi h ip)) else (fun _ => 0)).
  assert (Sf : forall it ip, smooth lo hi (f it ip)) by (intros; unfold f; destruct (_ && _)%bool; [apply HF|apply smooth_const]).
  assert (HB : exists B, 0 <= B /\ forall it ip t, Rmn <= t <= Rmx -> Rabs (Derive_n (f it ip) 7 t) <= B /\ Rabs (Derive_n (f it ip) 8 t) <= B).
  { destruct (bound2 (s_nlat h) (s_nphi h) (fun it ip B => forall t, Rmn <= t <= Rmx -> Rabs (Derive_n (f it ip) 7 t) <= B /\ Rabs (Derive_n (f it ip) 8 t) <= B)) as (B & B0 & H).
    - intros it ip _ _. destruct (smooth_bound Rmn Rmx lo hi (f it ip) 7 (Sf it ip)) as (B1 & P1 & H1); auto; try lra; try lia.
      destruct (smooth_bound Rmn Rmx lo hi (f it ip) 8 (Sf it ip)) as (B2 & P2 & H2); auto; try lra.
      exists (B1 + B2). split; [lra|]. intros t Ht. specialize (H1 t Ht). specialize (H2 t Ht). lra.
    - intros it ip B B' HB H t Ht. destruct (H t Ht). lra.
    - exists B. split; auto. intros it ip t Ht. destruct ((it <? s_nlat h)%nat && (ip <? s_nphi h)%nat)%bool eqn:E.
      + apply andb_prop in E. destruct E as [E1 E2]. apply Nat.ltb_lt in E1, E2. now apply H.
      + unfold f. rewrite E. rewrite !Derive_n_const. cbn. rewrite Rabs_R0. lra. }
  destruct HB as (B & B0 & HM). exists ((88 / cl + 44 + 607) * B).
  assert (C0 : 0 < / cl) by now apply Rinv_0_lt_compat.
  split; [apply Rmult_le_pos; auto; unfold Rdiv; lra|]. intros nx g v dv Hn Hg [Lv Hv] Ld.
  destruct (gof_sizes b h cl Rmn Rmx nx g Hg) as (Eb & En & _ & El & Ep & _).
  assert (RS : radial_samples g f v).
  { split; auto. intros ix it ip X Hx Ht Hp HX. rewrite (Hv ix it ip X) by auto. unfold f. rewrite El in Ht. rewrite Ep in Hp.
    destruct (Nat.ltb_spec it (s_nlat h)); [|lia]. destruct (Nat.ltb_spec ip (s_nphi h)); [|lia]. reflexivity. }
  destruct (C21_fd_accuracy b h cl Rmn Rmx nx g Hg ltac:(lra) f v dv lo hi B B) as (dr & drr & E1 & E2 & H); auto.
  { intros it ip k t Hk Ht. apply Sf; auto. }
  destruct (core1 b h cl Rmn Rmx nx g Hg v dv) as (dr' & E1' & _ & G1); auto; [lia|congruence|]. rewrite E1 in E1'. injection E1' as <-.
  destruct (core2 b h cl Rmn Rmx nx g Hg v dv) as (drr' & E2' & _ & G2); auto; [congruence|]. rewrite E2 in E2'. injection E2' as <-.
  exists dr, drr. split; auto. split; auto. intros ix it ip X Hx Ht Hp HX i r th ph. split.
  - intros HN. destruct (H ix it ip X Hx Ht Hp HX HN) as [A1 A2]. fold i in A1, A2.
    pose proof (unit_factor X (pt_in nx g ix X Hg Hn Hx HX)) as U. set (u := 1 - X / cl) in *.
    assert (Ef : f it ip = fun X => F X th ph). { unfold f. destruct (Nat.ltb_spec it (s_nlat h)); [|lia]. destruct (Nat.ltb_spec ip (s_nphi h)); [|lia]. reflexivity. }
    change (Derive (fun x => at_r cl F x th ph) r) with (Derive (in_r cl (fun X => F X th ph)) (r_of cl X)).
    change (Derive_n (fun x => at_r cl F x th ph) 2 r) with (Derive_n (in_r cl (fun X => F X th ph)) 2 (r_of cl X)).
    rewrite <- Ef. set (D := dx nx ^ 6) in *. assert (D0 : 0 <= D) by (apply pow_le; apply (dx_le nx Hn)).
    assert (U2 : 0 <= u ^ 2 <= 1) by nra. assert (U3 : 0 <= u ^ 3 <= 1) by nra. assert (U4 : 0 <= u ^ 4 <= 1) by nra.
    assert (BD : 0 <= B * D) by now apply Rmult_le_pos.
    assert (CB : 0 <= / cl * (B * D)) by (apply Rmult_le_pos; lra). split.
    + eapply Rle_trans; [exact A1|]. unfold Rdiv. nra.
    + eapply Rle_trans; [exact A2|]. rewrite Rabs_pos_eq by (unfold Rdiv; nra). unfold Rdiv.
      replace (2 * / cl * u ^ 3 * (44 * B * D)) with (88 * (u ^ 3 * (/ cl * (B * D)))) by ring. replace (u ^ 4 * (607 * B * D)) with (607 * (u ^ 4 * (B * D))) by ring.
      assert (u ^ 3 * (/ cl * (B * D)) <= / cl * (B * D)) by nra. assert (u ^ 4 * (B * D) <= B * D) by nra. lra.
  - intros HC. destruct (G1 it ip Ht Hp) as (d & _ & W1). destruct (G2 it ip Ht Hp) as (d' & dd & _ & _ & _ & W2). unfold i. rewrite (W1 ix X), (W2 ix X) by auto.
    rewrite HC. assert (cl / cl = 1) as -> by (field; lra). split; ring.
Qed.
(** a bound of a field and of its radial derivative at the grid angles *)
Lemma field_bounds F : smooth_radially lo hi F -> exists B, 0 <= B /\ forall it ip X, (it < s_nlat h)%nat -> (ip < s_nphi h)%nat -> Rmn <= X <= Rmx ->
  Rabs (F X (grid_theta h it) (grid_phi h ip)) <= B /\ (X <> cl -> Rabs (Derive (fun x => at_r cl F x (grid_theta h it) (grid_phi h ip)) (X / (1 - X / cl))) <= B).
Proof.
  intros HF. destruct (bound2 (s_nlat h) (s_nphi h) (fun it ip B => forall t, Rmn <= t <= Rmx -> Rabs (Derive_n (fun X => F X (grid_theta h it) (grid_phi h ip)) 0 t) <= B /\ Rabs (Derive_n (fun X => F X (grid_theta h it) (grid_phi h ip)) 1 t) <= B)) as (B & B0 & H).
  - intros it ip _ _. destruct (smooth_bound Rmn Rmx lo hi _ 0 (HF (grid_theta h it) (grid_phi h ip))) as (B1 & P1 & H1); auto; try lra; try lia.
    destruct (smooth_bound Rmn Rmx lo hi _ 1 (HF (grid_theta h it) (grid_phi h ip))) as (B2 & P2 & H2); auto; try lra; try lia.
    exists (B1 + B2). split; [lra|]. intros t Ht. specialize (H1 t Ht). specialize (H2 t Ht). lra.
  - intros it ip B B' HB H t Ht. destruct (H t Ht). lra.
  - exists B. split; auto. intros it ip X Ht Hp HX. destruct (H it ip Ht Hp X HX) as [A1 A2]. split; [exact A1|]. intros HN.
    change (Derive (fun x => at_r cl F x (grid_theta h it) (grid_phi h ip)) (X / (1 - X / cl))) with (Derive (fun r => (fun X => F X (grid_theta h it) (grid_phi h ip)) (compactification cl r)) (rphys cl X)).
    rewrite (chain1 cl ltac:(lra)); [|exact HN|apply (HF _ _ 1%nat X); [lia|lra]].
    pose proof (unit_factor X HX) as U. set (u := 1 - X / cl) in *. assert (U2 : 0 <= u ^ 2 <= 1) by nra.
    cbn [Derive_n] in A2. rewrite Rabs_mult, (Rabs_pos_eq (u ^ 2)) by lra.
    match goal with |- Rabs ?x * _ <= _ => change (Rabs x <= B) in A2; pose proof (Rabs_pos x) end. nra.
Qed.

(** the transforms are the spherical-harmonic transforms and no latitude node is a pole *)
Hypothesis Hlaw : lawful b h Ylm_profile.
Hypothesis Htl : tlawful b h Ylm_profile.
Hypothesis Hsz : ((s_lmax h - s_mmax h) * (s_lmax h - s_mmax h) <= s_lmax h + s_mmax h + 1)%nat.
Hypothesis Hpol : off_poles h.
Hypothesis HL31 : (Z.of_nat (s_lmax h) < 2 ^ 31)%Z.
Hypothesis Hpcl : pr_cl par = cl.
Local Notation Ma := (pr_bh_mass par).
Local Notation a := (pr_bh_spin par).
Local Notation t := (theory_of par).

(** ** C78.  Angular resolution, compactification length, radial interval, black hole and couplings fixed.  There is one constant C
    such that for every number nx >= 8 of radial points, one evaluation of the right-hand side on the samples of (psi, pi)
    is within C dx^6 of the second time derivative that the field equation assigns to the exact derivatives of psi and pi. *)
Theorem C78_right_hand_side_sixth_order psi pi :
  0 < Ma -> Rabs a <= Ma -> clean_spin Ma a ->
  smooth_resolved (s_lmax h) (s_mmax h) lo hi psi -> smooth_radially lo hi pi ->
  (forall X th ph, Rmn <= X <= Rmx -> psi X th ph + 1 <> 0 /\ kfun t (psi X th ph) <> 0) ->
  exists C, forall nx g e0 s f p fk pk, (8 <= nx)%nat -> grid_of b h cl Rmn Rmx nx g -> Eom_make g par = Ok e0 -> scr_ok (g_n3 g) s ->
    grid_sampled h g psi f -> grid_sampled h g pi p -> length fk = g_n3 g -> length pk = g_n3 g ->
    exists fk' pk' e', set_k g (with_scr e0 s) f p fk pk = Ok (fk', pk', e') /\
    forall ix it ip X, (ix < g_nx g)%nat -> (it < g_nlat g)%nat -> (ip < g_nphi g)%nat -> rad_pt (g_radial g) ix = Ok X ->
      let i := indx_R_th_ph g ix it ip in let th := grid_theta h it in let ph := grid_phi h ip in
      let r := X / (1 - X / cl) in let q := nth i pk' 0 in
      nth i fk' 0 = pi X th ph /\
      (1 / 10 ^ 16 < cl - X -> exists q', field_equation t Ma a r th q' (true_jet cl psi pi r th ph) /\ Rabs (q - q') <= C * dx nx ^ 6) /\
      (X = cl -> q = - (1 / 2) * (Derive (kfun t) (psi X th ph) / kfun t (psi X th ph)) * pi X th ph ^ 2
                     - 1 / kfun t (psi X th ph) * Derive (Vfun t) (psi X th ph)).
Proof.
  intros HM Ha Hc Hpsi Hpi Hreg. pose proof (lw_shapes b h _ Hlaw) as Hsh.
  pose proof (smooth_resolved_radially _ _ _ _ _ Hpsi) as Rpsi. pose proof (smooth_resolved_radially _ _ _ _ _ (smooth_resolved_d_phi _ _ _ _ _ Hpsi)) as Rph.
  destruct (rad_error psi Rpsi) as (B1 & P1 & H1). destruct (rad_error pi Hpi) as (B2 & P2 & H2). destruct (rad_error _ Rph) as (B3 & P3 & H3).
  destruct (field_bounds psi Rpsi) as (B4 & P4 & H4). destruct (field_bounds pi Hpi) as (B5 & P5 & H5). destruct (field_bounds _ Rph) as (B6 & P6 & H6).
  assert (IR : 0 < / Rmn) by now apply Rinv_0_lt_compat.
  destruct (coef_bounds Ma a (/ Rmn) HM ltac:(lra)) as (B7 & P7 & H7).
  destruct (bound2 (s_nlat h) (s_nphi h) (fun it ip B => forall X, Rmn <= X <= Rmx -> Rabs (kpt t (psi X (grid_theta h it) (grid_phi h ip)) * / kfun t (psi X (grid_theta h it) (grid_phi h ip))) <= B)) as (B8 & P8 & H8).
  { intros it ip _ _. apply (cont_bound (fun X => kpt t (psi X (grid_theta h it) (grid_phi h ip)) * / kfun t (psi X (grid_theta h it) (grid_phi h ip)))); [lra|].
    intros x Hx. destruct (Hreg x (grid_theta h it) (grid_phi h ip) Hx). apply (kk_cont t (fun X => psi X (grid_theta h it) (grid_phi h ip))); auto. apply (Rpsi _ _ 1%nat x); [lia|lra]. }
  { intros it ip B B' HB H X HX. specialize (H X HX). lra. }
  set (B := B1 + B2 + B3). set (E0 := B * (Rmx - Rmn) ^ 6). assert (B0 : 0 <= B) by (unfold B; lra).
  assert (E00 : 0 <= E0) by (apply Rmult_le_pos; auto; apply pow_le; lra).
  set (K := B4 + B5 + B6 + B7 + B8 + E0). exists ((4 * K + 5 / 2 * K ^ 3) * B).
  intros nx g e0 s f p fk pk Hn Hg He Hs Hf Hp Lfk Lpk.
  assert (G8 : use_cheb b = false -> (8 <= nx)%nat) by auto. assert (G2 : use_cheb b = true -> (2 <= nx)%nat) by (rewrite Hb; discriminate).
  pose proof Hf as [Lf Vf]. pose proof Hp as [Lp Vp]. pose proof (Eom_make_ok _ _ _ He) as Oe.
  assert (Oe' : eom_ok g (with_scr e0 s)) by (destruct Oe as (? & ? & _); unfold eom_ok; cbn; auto).
  destruct (set_k_total b h cl Rmn Rmx nx g Hg Hsh HL31 G8 G2 (with_scr e0 s) f p fk pk Oe' Lf Lp Lfk Lpk) as (pk' & E & Lpk').
  eexists p, pk', _. split; [exact E|]. intros ix it ip X Hx Ht Hph HX i th ph r q.
  destruct (eom_point b h cl Rmn Rmx nx g par e0 Hg Hpcl He ix it ip Hx Ht Hph) as (X' & th' & EX & Eth & Ec & Hi).
  rewrite HX in EX. injection EX as <-. rewrite (gtheta b h cl Rmn Rmx nx g Hg it th' Ht (sh_ct _ Hsh) Eth) in Ec. clear th' Eth. fold th in Ec. fold i in Ec, Hi.
  destruct (set_k_inv _ _ _ _ _ _ _ _ _ E) as (s' & Hk & _ & _ & _ & _ & H).
  cbn [e_scr with_scr] in Hk. apply k_sections_inv in Hk. destruct Hk as (S1 & S2 & S3 & S4 & S5 & S6 & S7).
  destruct (H i) as (fi & qi & c & d1 & d2 & d3 & d4 & d5 & d6 & d7 & C1 & C2 & C3 & C4 & C5 & C6 & C7 & C8 & C9 & C10 & C11 & C12).
  { destruct Oe as (En & _). cbn. lia. }
  assert (Ecc : Some c = Some (coef_at Ma a (inv_r_at g cl X) th)) by (cbn in C3; congruence). injection Ecc as ->.
  apply nth_err in C1, C2, C4, C5, C6, C7, C8, C9, C10, C11, C12. fold q in C12.
  destruct Hs as (A1 & A2 & A3 & A4 & A5 & A6 & A7).
  destruct (smooth_spectrum _ _ _ _ _ Hpsi) as (sp & Ra & Ia & La & Ea).
  destruct (angular_exact_spec b h cl Rmn Rmx nx g Hg sp psi f (s_dphi_f s) Hlaw Htl Hsz Hpol HL31 Ra Ia La Ea Hf A5) as (x1 & xa1 & xb1 & E1 & _ & _ & G1 & _ & _).
  destruct (angular_exact_spec b h cl Rmn Rmx nx g Hg sp psi f (s_lap_f s) Hlaw Htl Hsz Hpol HL31 Ra Ia La Ea Hf A2) as (xa2 & x2 & xb2 & _ & E2 & _ & _ & G2' & _).
  destruct (angular_exact_spec b h cl Rmn Rmx nx g Hg sp psi f (s_sphereX_f s) Hlaw Htl Hsz Hpol HL31 Ra Ia La Ea Hf A7) as (xa3 & xb3 & x3 & _ & _ & E3 & _ & _ & G3).
  rewrite E1 in S4. injection S4 as S4. rewrite E2 in S7. injection S7 as S7. rewrite E3 in S6. injection S6 as S6. subst x1 x2 x3.
  destruct (H1 nx g f (s_dr_f s) Hn Hg Hf A1) as (y1 & yb1 & F1 & _ & W1). destruct (H1 nx g f (s_dr_dr_f s) Hn Hg Hf A4) as (yb2 & y2 & _ & F2 & W2).
  destruct (H2 nx g p (s_dr_p s) Hn Hg Hp A3) as (y3 & yb3 & F3 & _ & W3). destruct (H3 nx g (s_dphi_f s') (s_dphi_dr_f s) Hn Hg G1 A6) as (y4 & yb4 & F4 & _ & W4).
  rewrite F1 in S1. injection S1 as S1. rewrite F2 in S3. injection S3 as S3. rewrite F3 in S2. injection S2 as S2. rewrite F4 in S5. injection S5 as S5. subst y1 y2 y3 y4.
  specialize (W1 ix it ip X Hx Ht Hph HX). specialize (W2 ix it ip X Hx Ht Hph HX). specialize (W3 ix it ip X Hx Ht Hph HX). specialize (W4 ix it ip X Hx Ht Hph HX).
  cbv zeta in W1, W2, W3, W4. fold i th ph r in W1, W2, W3, W4.
  rewrite <- C4 in W1. rewrite <- C5 in W3. rewrite <- C6 in W2. rewrite <- C8 in W4.
  destruct G1 as [_ G1], G2' as [_ G2'], G3 as [_ G3].
  assert (Kf : fi = psi X th ph) by (rewrite C1; unfold i; now apply Vf).
  assert (Kp : qi = pi X th ph) by (rewrite C2; unfold i; now apply Vp).
  assert (Kd : d4 = d_phi (psi X) th ph) by (rewrite C7; unfold i; now apply (G1 ix it ip X)).
  assert (Kl : d6 = laplacian (psi X) th ph) by (rewrite C9; unfold i; now apply (G2' ix it ip X)).
  assert (Kg : d7 = gradient_squared (psi X) th ph) by (rewrite C10; unfold i; now apply (G3 ix it ip X)).
  pose proof (pt_in nx g ix X Hg Hn Hx HX) as IX. destruct (Hreg X th ph IX) as [Hps Hkf].
  destruct (eom_theory g par e0 He) as [Et _].
  destruct (gof_sizes b h cl Rmn Rmx nx g Hg) as (_ & _ & _ & El & Ep & _).
  split; [rewrite <- Kp; exact (eq_sym C2)|]. split.
  - intros HcX. assert (HN : X <> cl) by (pose proof tol_pos; lra).
    destruct (inv_r_finite b h cl Rmn Rmx nx g Hg X ltac:(lra) HcX) as [Ei Hr]. fold r in Ei, Hr. rewrite Ei in C12.
    set (j := true_jet cl psi pi r th ph).
    assert (Q1 : at_r cl psi r = psi X) by (unfold at_r, r; rewrite r_of_inv by (auto; lra); reflexivity).
    assert (Q2 : at_r cl pi r = pi X) by (unfold at_r, r; rewrite r_of_inv by (auto; lra); reflexivity).
    set (z1 := Derive (fun x => at_r cl psi x th ph) r). set (z2 := Derive (fun x => at_r cl pi x th ph) r).
    set (z3 := Derive_n (fun x => at_r cl psi x th ph) 2 r). set (z4 := Derive (fun x => d_phi (at_r cl psi x) th ph) r).
    exists (p_rhs e0 (coef_at Ma a (/ r) th) fi qi z1 z2 z3 d4 z4 d6 d7). split.
    + assert (HH := p_rhs_solves e0 Ma a r th j HM Ha Hc Hr). rewrite Et in HH. unfold j, true_jet in HH. cbn [EomSpec.psi psi_v psi_r psi_vr psi_rr psi_ph psi_rph lap gradsq] in HH.
      rewrite Q1, Q2 in HH. specialize (HH Hkf Hps). rewrite Kf, Kp, Kd, Kl, Kg. unfold j, true_jet. rewrite Q1, Q2. apply HH. reflexivity.
    + rewrite <- C12. destruct (W1 ) as [W1' _], W2 as [W2' _], W3 as [W3' _], W4 as [W4' _].
      destruct (W1' HN) as [V1 _], (W2' HN) as [_ V2], (W3' HN) as [V3 _], (W4' HN) as [V4 _].
      set (D := dx nx ^ 6) in *. destruct (dx_le nx Hn) as [dx0 dx1]. assert (D0 : 0 <= D) by now apply pow_le.
      assert (D1 : D <= (Rmx - Rmn) ^ 6) by (apply pow_incr; lra).
      assert (EE : 0 <= B * D <= K). { split; [now apply Rmult_le_pos|]. assert (B * D <= E0) by (apply Rmult_le_compat_l; auto). unfold K. lra. }
      assert (Rho : 0 <= / r <= / Rmn).
      { split; [left; now apply Rinv_0_lt_compat|]. pose proof (unit_factor X IX) as U. assert (U' : 0 < 1 - X / cl).
        { destruct U as [[U|U] _]; auto. exfalso. unfold r in Hr. rewrite <- U in Hr. unfold Rdiv in Hr. rewrite Rinv_0, Rmult_0_r in Hr. lra. }
        apply Rinv_le_contravar; auto. unfold r. apply (Rmult_le_reg_r (1 - X / cl)); auto. unfold Rdiv at 2. rewrite Rmult_assoc, Rinv_l by lra. nra. }
      destruct (H7 (/ r) th Rho) as (T1 & T2 & T3 & T4 & T5 & T6 & T7). cbv zeta in T1, T2, T3, T4, T5, T6, T7.
      assert (BK : B4 <= K /\ B5 <= K /\ B6 <= K /\ B7 <= K /\ B8 <= K) by (unfold K; lra). destruct BK as (K4 & K5 & K6 & K7 & K8).
      rewrite El in Ht. rewrite Ep in Hph. destruct (H4 it ip X Ht Hph IX) as [_ U1]. destruct (H5 it ip X Ht Hph IX) as [U2 _]. destruct (H6 it ip X Ht Hph IX) as [U3 _].
      specialize (H8 it ip Ht Hph X IX). fold th ph in U1, U2, U3, H8. specialize (U1 HN). fold r z1 in U1.
      change (p_rhs (with_scr e0 s)) with (p_rhs e0). rewrite Rmult_assoc. apply p_rhs_error; auto; try lra.
      * rewrite kprime_kpt, inverse_k_value, Et, Kf. lra.
      * rewrite Kp. lra.
      * rewrite Kd. lra.
      * eapply Rle_trans; [exact V1|]. apply Rmult_le_compat_r; auto. unfold B. lra.
      * eapply Rle_trans; [exact V3|]. apply Rmult_le_compat_r; auto. unfold B. lra.
      * eapply Rle_trans; [exact V2|]. apply Rmult_le_compat_r; auto. unfold B. lra.
      * eapply Rle_trans; [exact V4|]. apply Rmult_le_compat_r; auto. unfold B. lra.
  - intros HC. destruct W1 as [_ W1], W2 as [_ W2]. destruct (W1 HC) as [-> _], (W2 HC) as [_ ->]. rewrite (inv_r_infinite cl g X), coef_infty in C12.
    2:{ rewrite HC, Rminus_diag_eq, Rabs_R0 by auto. apply tol_pos. }
    rewrite <- Kf, <- Kp. rewrite <- Kf in Hps. rewrite <- C12. rewrite <- Et.
    unfold p_rhs. cbn [c_pre c_p c_dr_f c_dr_p c_dr_dr_f c_dphi_dr_f c_lap_f c_p_p c_p_dr_f c_dr_f_dr_f c_dr_f_dphi_f c_sphereX_f].
    change (kprime (with_scr e0 s)) with (kprime e0). change (inverse_k (with_scr e0 s)) with (inverse_k e0). change (vprime (with_scr e0 s)) with (vprime e0).
    rewrite inverse_k_value, vprime_value, (is_derive_unique _ _ _ (kprime_derive e0 fi Hps)). R_ops. rewrite half_eq.
    generalize (kfun (theory_e e0) fi) (kprime e0 fi) (Derive (Vfun (theory_e e0)) fi). intros. unfold Rdiv. ring.
Qed.
End G.
