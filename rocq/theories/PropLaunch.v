(** C64, C66: the numbers the launcher (sim_class.py) derives, and the grid the solver builds from them. *)
From Coq Require Import Reals Lra Ascii String.
From Coquelicot Require Import Coquelicot.
From Verif Require Import Base BaseLemmas Arith MFd MCheb MSphere MGrid MParams MEom MSim EomSpec SphereSpec GridSpec PSphere PTables PMake PGridOp PropGridOp PRad PFd PFdR PropFd PropFd2 PEomR PEom PEomOk PropEom PropTables PropDriver PropInit.
Local Open Scope R_scope.

Lemma py_horizon_eq M a : py_horizon M a = r_plus M a.
Proof. unfold py_horizon, r_plus. f_equal. f_equal. ring. Qed.
Lemma r_plus_pos M a : 0 < M -> 0 < r_plus M a.
Proof. intros. unfold r_plus. pose proof (sqrt_pos (M ^ 2 - a ^ 2)). lra. Qed.

(** ** C64 *)
(** The launcher's interval is [compactified horizon, cl]; mapping its lower end back gives the horizon,
    where Delta vanishes *)
Theorem C64_domain M a cl : 0 < M -> Rabs a <= M -> 0 < cl ->
  let Rmin := py_Rmin cl M a in
  0 < Rmin < py_Rmax cl /\ py_Rmax cl = cl /\ Rmin / (1 - Rmin / cl) = r_plus M a /\ Delta M a (r_plus M a) = 0 /\
  cl - Rmin = cl ^ 2 / (cl + r_plus M a).
Proof.
  intros HM Ha Hcl Rmn. pose proof (r_plus_pos M a HM) as Hr. unfold Rmn, py_Rmin, compactification, py_Rmax. rewrite py_horizon_eq. set (r := r_plus M a) in *.
  assert (E : r / (1 + r / cl) = r * cl / (cl + r)) by (field; split; lra). rewrite E.
  assert (D : cl - r * cl / (cl + r) = cl ^ 2 / (cl + r)) by (field; lra).
  assert (P : 0 < cl ^ 2 / (cl + r)) by (apply Rdiv_lt_0_compat; [apply pow_lt; auto|lra]).
  split; [split; [apply Rdiv_lt_0_compat; nra|lra]|]. split; auto. split; [field; repeat split; nra|]. split; [|exact D].
  unfold r, Delta, r_plus. pose proof (sqrt_spin_le M a HM Ha) as Hs. set (q := sqrt (M ^ 2 - a ^ 2)).
  assert (Q : q ^ 2 = M ^ 2 - a ^ 2) by (unfold q; apply pow2_sqrt; lra). nra.
Qed.
(** distance of the inner boundary from the tolerance around infinity *)
Definition resolved (M a cl : R) : Prop := 1 / 10 ^ 16 * (cl + r_plus M a) < cl ^ 2.

Section Solver.
Variables (b : build) (h : sht R) (cl M a : R) (nx : nat) (g : grid R).
Hypothesis HM : 0 < M.
Hypothesis Ha : Rabs a <= M.
Hypothesis Hcl : 0 < cl.
Hypothesis Hres : resolved M a cl.
Hypothesis Hnx : (2 <= nx)%nat.
Hypothesis Hg : grid_of b h cl (py_Rmin cl M a) (py_Rmax cl) nx g.
Definition inner : nat := if use_cheb b then nx - 1 else 0%nat.
Definition outer : nat := if use_cheb b then 0%nat else (nx - 1)%nat.
Lemma gap : 1 / 10 ^ 16 < cl - py_Rmin cl M a.
Proof.
  destruct (C64_domain M a cl HM Ha Hcl) as (_ & _ & _ & _ & ->). pose proof (r_plus_pos M a HM). unfold resolved in Hres.
  apply (Rmult_lt_reg_r (cl + r_plus M a)); [lra|]. unfold Rdiv at 2. rewrite Rmult_assoc, Rinv_l by lra. lra.
Qed.
Lemma shells : rad_pt (g_radial g) inner = Ok (py_Rmin cl M a) /\ rad_pt (g_radial g) outer = Ok cl /\
  forall ix, (ix < nx)%nat -> exists X, rad_pt (g_radial g) ix = Ok X /\ py_Rmin cl M a <= X <= cl.
Proof.
  destruct (C64_domain M a cl HM Ha Hcl) as ([D1 D2] & D3 & _).
  destruct (gof_sizes b h cl _ _ nx g Hg) as (_ & En & _ & _ & _ & _ & Er & _). unfold rad_make in Er. unfold inner, outer. unfold py_Rmax in *.
  assert (CB : use_cheb b = true \/ use_cheb b = false) by (destruct (use_cheb b); auto). destruct CB as [CB|CB]; rewrite CB in *.
  - destruct (Cheb_make b nx (py_Rmin cl M a) cl) as [c| | | |] eqn:EC; try discriminate. cbn [bind] in Er. assert (ER : g_radial g = RCh c) by congruence. rewrite ER.
    destruct (C14_cheb_points b nx _ _ c EC Hnx D2) as (x & P1 & P2 & P3 & _ & P5 & _). cbn [rad_pt].
    split; [rewrite P1 by lia; now rewrite P3|]. split; [rewrite P1 by lia; now rewrite P2|]. intros ix Hi. exists (x ix). rewrite P1 by auto. auto.
  - assert (ER : g_radial g = RFd (FD_make nx (py_Rmin cl M a) cl)) by congruence. rewrite ER. cbn [rad_pt].
    destruct (C14_fd_points nx (py_Rmin cl M a) cl Hnx D2) as (P1 & P2 & _ & _ & P5). rewrite P1, P2. split; auto. split; auto. intros ix Hi. eexists. split; [reflexivity|]. auto.
Qed.
(** the solver's radial nodes: the inner shell is the horizon, the outer one is infinity, and every other
    shell lies in between *)
Theorem C64_shells : exists X : nat -> R, (forall ix, (ix < nx)%nat -> rad_pt (g_radial g) ix = Ok (X ix)) /\
  R_to_r g (X inner) = r_plus M a /\ X outer = cl /\
  forall ix, (ix < nx)%nat -> 1 / 10 ^ 16 < cl - X ix -> r_plus M a <= R_to_r g (X ix).
Proof.
  destruct shells as (S1 & S2 & S3). destruct (C64_domain M a cl HM Ha Hcl) as ([D1 D2] & D3 & D4 & _). pose proof (r_plus_pos M a HM) as Hr. pose proof gap as G.
  exists (fun ix => match rad_pt (g_radial g) ix with Ok X => X | _ => 0 end). rewrite S1, S2. pose proof tol_pos as Ht.
  assert (V : forall X, 1 / 10 ^ 16 < cl - X -> R_to_r g X = X / (1 - X / cl)).
  { intros X HX. unfold R_to_r. destruct (gof_sizes b h cl _ _ nx g Hg) as (_ & _ & _ & _ & _ & _ & _ & _ & _ & ->). R_ops. rewrite tol_eq.
    rewrite Rltb_true; auto. rewrite Rabs_left; lra. }
  split; [intros ix Hi; destruct (S3 ix Hi) as (X & -> & _); reflexivity|]. split; [rewrite V by auto; exact D4|]. split; auto.
  intros ix Hi. destruct (S3 ix Hi) as (X & -> & B1 & B2). intros HX. rewrite V by auto. rewrite <- D4.
  assert (E : forall Y, Y < cl -> Y / (1 - Y / cl) = cl * (cl / (cl - Y) - 1)) by (intros Y HY; field; lra). rewrite !E by lra.
  apply Rmult_le_compat_l; [lra|]. apply Rplus_le_compat_r. apply Rmult_le_compat_l; [lra|]. apply Rinv_le_contravar; lra.
Qed.
(** on the inner shell the coefficient of the second radial derivative the solver stores is zero, and with
    it one of the two characteristic speeds: nothing has to be prescribed there; on the outer shell the
    coefficients are those of 1/r = 0 *)
Theorem C64_boundary_coefficients (p : params R) e it ip : Eom_make g p = Ok e -> pr_cl p = cl -> pr_bh_mass p = M -> pr_bh_spin p = a -> clean_spin M a ->
  (it < g_nlat g)%nat -> (ip < g_nphi g)%nat ->
  exists th ci co, sp_theta (g_sphere g) it = Ok th /\
    nth_error (e_coef e) (indx_R_th_ph g inner it ip) = Some ci /\ nth_error (e_coef e) (indx_R_th_ph g outer it ip) = Some co /\
    ci = coef_at M a (/ r_plus M a) th /\ c_dr_dr_f ci = 0 /\ c_dr_f_dr_f ci = 0 /\
    (forall c, c ^ 2 + c_dr_p ci * c - c_dr_dr_f ci = 0 <-> c = 0 \/ c = c_minus M a (r_plus M a) th) /\
    co = coef_at M a 0 th.
Proof.
  intros He Ecl Em Ea Hc Ht Hp. destruct shells as (S1 & S2 & S3). destruct (gof_sizes b h cl _ _ nx g Hg) as (_ & En & _).
  assert (Hi : (inner < g_nx g)%nat) by (rewrite En; unfold inner; destruct (use_cheb b); lia).
  assert (Ho : (outer < g_nx g)%nat) by (rewrite En; unfold outer; destruct (use_cheb b); lia).
  destruct (C64_domain M a cl HM Ha Hcl) as ([D1 D2] & D3 & D4 & D5 & _).
  destruct (eom_point b h cl _ _ nx g p e Hg Ecl He inner it ip Hi Ht Hp) as (X & th & E1 & E2 & E3 & _).
  destruct (eom_point b h cl _ _ nx g p e Hg Ecl He outer it ip Ho Ht Hp) as (X' & th' & E1' & E2' & E3' & _).
  assert (X = py_Rmin cl M a) by congruence. assert (X' = cl) by congruence. assert (th' = th) by congruence. subst X X' th'.
  rewrite Em, Ea in E3, E3'.
  destruct (inv_r_finite b h cl _ _ nx g Hg (py_Rmin cl M a) D1 gap) as [EI _]. rewrite EI, D4 in E3.
  rewrite (inv_r_infinite cl g cl) in E3' by (rewrite Rminus_diag_eq, Rabs_R0 by auto; apply tol_pos).
  exists th, (coef_at M a (/ r_plus M a) th), (coef_at M a 0 th). split; auto. split; auto. split; auto. split; auto.
  pose proof (r_plus_pos M a HM) as Hr. destruct (C38_Delta M a (r_plus M a) HM Ha Hc Hr) as (_ & DZ & _). specialize (DZ eq_refl).
  split; [unfold coef_at; cbn [c_dr_dr_f]; rewrite DZ; R_ops; unfold Rdiv; ring|].
  split; [unfold coef_at; cbn [c_dr_f_dr_f]; rewrite DZ; R_ops; unfold Rdiv; ring|]. split; auto.
  intros c. rewrite (C43_speeds_are_the_documented_ones M a (r_plus M a) th c HM Ha Hc Hr).
  destruct (C43_signs M a (r_plus M a) th HM Ha ltac:(lra)) as (_ & _ & _ & Z). rewrite Z by auto. tauto.
Qed.
End Solver.
(** where the initial pulse starts relative to the horizon *)
Theorem C64_pulse_support M a rl0 ru0 : 0 < M -> (rl0 < ru0 <-> py_rl M a rl0 < py_ru M a ru0) /\ (1 <= rl0 <-> r_plus M a <= py_rl M a rl0).
Proof.
  intros HM. unfold py_rl, py_ru. rewrite py_horizon_eq. pose proof (r_plus_pos M a HM) as Hr. split; split; intros H; nra.
Qed.

(** ** C66: time step and number of steps *)
Lemma py_int_floor x : 0 <= x -> IZR (py_int x) <= x < IZR (py_int x) + 1 /\ (0 <= py_int x)%Z.
Proof.
  intros H. unfold py_int. destruct (Rlt_dec x 0) as [C|_]; [lra|]. destruct (base_Int_part x) as [B1 B2].
  split; [lra|]. assert (-1 < IZR (Int_part x)) by lra. assert (-1 < Int_part x)%Z by (apply lt_IZR; auto). lia.
Qed.
Theorem C66_time_step use_cheb cfl nx nlat nphi : (1 <= nlat)%nat -> (2 <= nx)%nat -> 0 < cfl ->
  let dt := py_dt use_cheb cfl nx nlat nphi in
  0 < dt /\ dt * INR (Nat.max nlat nphi) ^ 2 <= 6 /\
  (use_cheb = true -> dt * INR (Nat.max nx (Nat.max nlat nphi)) ^ 2 = 6) /\
  (use_cheb = false -> forall lo up, lo < up -> dt * (up - lo) <= cfl * fd_dx (FD_make nx lo up)).
Proof.
  intros Hl Hx Hc dt. unfold dt, py_dt.
  assert (Pm : 0 < INR (Nat.max nlat nphi) ^ 2) by (apply pow_lt, lt_0_INR; lia).
  assert (PM : 0 < INR (Nat.max nx (Nat.max nlat nphi)) ^ 2) by (apply pow_lt, lt_0_INR; lia).
  assert (Px : INR nx - 1 = INR (nx - 1)) by (rewrite minus_INR by lia; reflexivity).
  assert (Px0 : 0 < INR (nx - 1)) by (apply lt_0_INR; lia).
  destruct use_cheb.
  - split; [apply Rmult_lt_0_compat; [lra|apply Rinv_0_lt_compat; auto]|]. split; [|split; [intros _; rewrite Rmult_assoc, Rinv_l; lra|discriminate]].
    apply Rle_trans with (6 * / INR (Nat.max nx (Nat.max nlat nphi)) ^ 2 * INR (Nat.max nx (Nat.max nlat nphi)) ^ 2); [|apply Req_le; rewrite Rmult_assoc, Rinv_l; lra].
    apply Rmult_le_compat_l; [apply Rlt_le, Rmult_lt_0_compat; [lra|apply Rinv_0_lt_compat; auto]|]. apply pow_incr. split; [apply pos_INR|apply le_INR; lia].
  - rewrite Px. assert (A1 : 0 < 6 * / INR (Nat.max nlat nphi) ^ 2) by (apply Rmult_lt_0_compat; [lra|apply Rinv_0_lt_compat; auto]).
    assert (A2 : 0 < cfl / INR (nx - 1)) by (apply Rdiv_lt_0_compat; auto). split; [apply Rmin_glb_lt; auto|]. split; [|split; [discriminate|]].
    + apply Rle_trans with (6 * / INR (Nat.max nlat nphi) ^ 2 * INR (Nat.max nlat nphi) ^ 2); [|apply Req_le; rewrite Rmult_assoc, Rinv_l; lra].
      apply Rmult_le_compat_r; [lra|]. apply Rmin_l.
    + intros _ lo up Hlu. rewrite mk_dx by lia. apply Rle_trans with (cfl / INR (nx - 1) * (up - lo)); [apply Rmult_le_compat_r; [lra|apply Rmin_r]|]. apply Req_le. field. lra.
Qed.
(** nt steps of size dt fit into the requested time, nt + 1 do not; the solver makes nt - 1 of them *)
Theorem C66_evolve_time T M dt : 0 <= T -> 0 < M -> 0 < dt ->
  let nt := py_nt T M dt in (0 <= nt)%Z /\ IZR nt * dt <= T * M < (IZR nt + 1) * dt.
Proof.
  intros HT HM Hd nt. unfold nt, py_nt. assert (P : 0 <= T * M / dt) by (apply Rmult_le_pos; [nra|apply Rlt_le, Rinv_0_lt_compat; auto]).
  destruct (py_int_floor _ P) as [[B1 B2] B3]. split; auto. set (n := IZR (py_int (T * M / dt))) in *. clearbody n.
  assert (E : T * M = T * M / dt * dt) by (field; lra). split; rewrite E.
  - apply Rmult_le_compat_r; lra.
  - apply Rmult_lt_compat_r; lra.
Qed.
(** the settings of the shipped run script meet the hypotheses *)
Example C64_C66_nonvacuous : exists g : grid R, let M := 1 in let a := 9999 / 10000 in let cl := 20 in
  Rabs a <= M /\ clean_spin M a /\ resolved M a cl /\ grid_of (Build false true false) (one_sht 4 3 6 8) cl (py_Rmin cl M a) (py_Rmax cl) 10 g /\
  (exists e, Eom_make g (Par 100 10 4 3 6 8 5 (py_dt false (3 / 4) 10 6 8) cl (py_Rmax cl) (py_Rmin cl M a) M a 0 1 0 0 0 0 0 (txt "compact_pulse") (txt "ingoing") (1 / 100) (py_rl M a (-1)) (py_ru M a 3) 2 1) = Ok e).
Proof.
  destruct (Grid_make_ok (Build false true false) (one_sht 4 3 6 8) 20 (py_Rmin 20 1 (9999 / 10000)) (py_Rmax 20) 10 4 3 6 8) as (g & E); [cbn; lia|left; lia|].
  exists g. cbv zeta. rewrite (Rabs_pos_eq (9999 / 10000)) by lra. split; [lra|]. split.
  { right. rewrite !(Rabs_pos_eq (9999 / 10000)), Rabs_pos_eq by lra. split; [|right]; apply (Rmult_le_reg_r (10 ^ 16)); try (apply pow_lt; lra); unfold Rdiv at 1; rewrite Rmult_assoc, Rinv_l by (apply pow_nonzero; lra); simpl; lra. }
  split.
  { unfold resolved, r_plus. assert (sqrt (1 ^ 2 - (9999 / 10000) ^ 2) <= 1) by (apply Rle_trans with (sqrt 1); [apply sqrt_le_1_alt; lra|rewrite sqrt_1; lra]).
    apply Rle_lt_trans with (1 / 10 ^ 16 * 22); [apply Rmult_le_compat_l; [apply Rlt_le, Rdiv_lt_0_compat; [lra|apply pow_lt; lra]|lra]|].
    apply (Rmult_lt_reg_r (10 ^ 16)); [apply pow_lt; lra|]. replace (1 / 10 ^ 16 * 22 * 10 ^ 16) with 22 by (field; apply pow_nonzero; lra). simpl; lra. }
  assert (Hg : grid_of (Build false true false) (one_sht 4 3 6 8) 20 (py_Rmin 20 1 (9999 / 10000)) (py_Rmax 20) 10 g) by exact E.
  split; auto. apply (Eom_make_total _ _ _ _ _ _ _ Hg).
Qed.
