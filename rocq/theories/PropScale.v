(** * Property C91: the choice of units.  Rescaling every length and time of the set-up by one factor (and the
    coefficients of the potential accordingly) rescales the results and changes nothing else (real arithmetic). *)
From Coq Require Import String Reals Lra.
From Coquelicot Require Import Coquelicot.
From Verif Require Import Base BaseLemmas ForList Arith MFd MCheb MSphere MGrid MParams MField MEom MInit
  Spec SphereSpec GridSpec RkSpec SymSpec EomSpec PSum PGrid PTables PMake PFd PFdR PCheb PCheb2 PChebG PSphere PSphere2 PSphereR PGridOp
  PropFd PropFd2 PropCheb PropTables PropGridOp PropRad PropGridFilter PConc PEom PEomOk PRk PEomR PropRk PDriver PropDriver PLinear PropSym PropInit.
Local Open Scope R_scope.

(** an array of quantities with dimension 1/length: every entry divided by the unit *)
Definition over (lam : R) (v : list R) : list R := map (fun x => x / lam) v.

Lemma Ok_inj {A} (x y : A) : Ok x = Ok y -> x = y.
Proof. intros E. now injection E. Qed.
Lemma nth_over lam v i : nth i (over lam v) 0 = nth i v 0 / lam.
Proof. revert i. induction v as [|x v IH]; intros [|i]; cbn; auto; unfold Rdiv; ring. Qed.
Lemma over_lincomb lam v : over lam v = lincomb (/ lam) v 0 v.
Proof.
  apply (lincomb_ext _ _ _ _ _ (length v)); auto; [apply map_length|]. intros i Hi. rewrite nth_over. unfold Rdiv. ring.
Qed.
Lemma over_length lam v : length (over lam v) = length v. Proof. apply map_length. Qed.
Lemma over_ext lam v w : length v = length w -> (forall i, (i < length w)%nat -> nth i v 0 = nth i w 0 / lam) -> v = over lam w.
Proof. intros L H. apply (nth_ext _ _ 0 0); [now rewrite over_length|]. intros i Hi. rewrite nth_over. apply H. lia. Qed.

(** The parameters of the same physical problem in the other unit of length: masses, spins, lengths and times are
    multiplied by lam, the coefficients of the potential divided by lam^2, the others are pure numbers. *)
Definition rescaled (lam : R) (p p' : params R) : Prop :=
  pr_bh_mass p' = lam * pr_bh_mass p /\ pr_bh_spin p' = lam * pr_bh_spin p /\ pr_cl p' = lam * pr_cl p /\ pr_dt p' = lam * pr_dt p /\
  pr_km1 p' = pr_km1 p /\ pr_k0 p' = pr_k0 p /\ pr_k1 p' = pr_k1 p /\ pr_k2 p' = pr_k2 p /\
  pr_V2 p' = pr_V2 p / lam ^ 2 /\ pr_V3 p' = pr_V3 p / lam ^ 2 /\ pr_V4 p' = pr_V4 p / lam ^ 2.
(** no radial node sits inside the tolerance 1e-16 around the compactified infinity cl, in either unit, unless on it *)
Definition clean_nodes (lam cl : R) (g : grid R) : Prop := forall ix X, (ix < g_nx g)%nat -> rad_pt (g_radial g) ix = Ok X ->
  X = cl \/ (1 / 10 ^ 16 < Rabs (X - cl) /\ 1 / 10 ^ 16 < Rabs (lam * X - lam * cl)).

(** the energy density written to one cell *)
Lemma rho_at_cell b h cl Rmin Rmax nx (g : grid R) (Hg : grid_of b h cl Rmin Rmax nx g) (Hsh : shapes h) (HL : (Z.of_nat (s_lmax h) < 2 ^ 31)%Z)
  (H8 : (use_cheb b = false -> 8 <= nx)%nat) (H2 : (use_cheb b = true -> 2 <= nx)%nat) e f q rho r e1 : eom_ok g e -> length f = g_n3 g -> length q = g_n3 g ->
  set_rho g e f q rho = Ok (r, e1) -> forall i, (i < g_n3 g)%nat ->
  nth i r 0 = rho_at e (nth i (e_coef e) coef0) (nth i f 0) (nth i q 0) (nth i (dr_of g f) 0) (nth i (dphi_of g f) 0) (nth i (sX_of g f) 0).
Proof.
  intros Oe Lf Lq E i Hi. pose proof Oe as (En & Lc & A1 & A2 & A3 & A4 & A5 & A6 & A7).
  destruct (set_rho_inv _ _ _ _ _ _ _ E) as (_ & drf & dph & sX & B1 & B2 & B3 & H).
  destruct (ops_ok b h cl Rmin Rmax nx g Hg Hsh HL H8 H2 f (s_dr_f (e_scr e)) Lf A1) as (E1 & _).
  destruct (ops_ok b h cl Rmin Rmax nx g Hg Hsh HL H8 H2 f (s_dphi_f (e_scr e)) Lf A5) as (_ & _ & E4 & _).
  destruct (ops_ok b h cl Rmin Rmax nx g Hg Hsh HL H8 H2 f (s_sphereX_f (e_scr e)) Lf A7) as (_ & _ & _ & _ & E6 & _).
  assert (Q1 : drf = dr_of g f) by congruence. assert (Q2 : dph = dphi_of g f) by congruence. assert (Q3 : sX = sX_of g f) by congruence. subst drf dph sX.
  rewrite <- En in Hi. destruct (H i Hi) as (fi & qi & c & x & y & z & C1 & C2 & C3 & C4 & C5 & C6 & C7).
  now rewrite (nth_error_nth _ _ 0 C1), (nth_error_nth _ _ 0 C2), (nth_error_nth _ _ coef0 C3), (nth_error_nth _ _ 0 C4), (nth_error_nth _ _ 0 C5), (nth_error_nth _ _ 0 C6), (nth_error_nth _ _ 0 C7).
Qed.

Section Two.
Variables (b : build) (h : sht R) (cl Rmin Rmax lam : R) (nx : nat) (g g' : grid R).
Hypothesis Hl : 0 < lam.
Hypothesis Hcl : cl <> 0.
Hypothesis Hg : grid_of b h cl Rmin Rmax nx g.
Hypothesis Hg' : grid_of b h (lam * cl) (lam * Rmin) (lam * Rmax) nx g'.
Hypothesis Hsh : shapes h.
Hypothesis HL : (Z.of_nat (s_lmax h) < 2 ^ 31)%Z.
Hypothesis H8 : (use_cheb b = false -> 8 <= nx)%nat.
Hypothesis H2 : (use_cheb b = true -> 2 <= nx)%nat.
Local Notation n := (g_n3 g).

Lemma same_fields : g_bld g' = g_bld g /\ g_nx g' = g_nx g /\ g_nl g' = g_nl g /\ g_nlat g' = g_nlat g /\ g_nphi g' = g_nphi g /\ g_sphere g' = g_sphere g /\ g_n3 g' = g_n3 g.
Proof.
  pose proof (Grid_make_tables _ _ _ _ _ _ _ _ _ _ _ Hg) as (A1 & _ & _ & _ & A2 & A3 & _ & A4 & A5 & A6 & _).
  pose proof (Grid_make_tables _ _ _ _ _ _ _ _ _ _ _ Hg') as (B1 & _ & _ & _ & B2 & B3 & _ & B4 & B5 & B6 & _).
  rewrite A6 in B6. unfold g_n3. repeat split; congruence.
Qed.
Lemma rad_pt' ix X : (ix < nx)%nat -> rad_pt (g_radial g) ix = Ok X -> rad_pt (g_radial g') ix = Ok (lam * X).
Proof.
  intros Hi. destruct (use_cheb b) eqn:Hc.
  - destruct (cheb_grid b h cl Rmin Rmax nx g Hg Hc) as (c & Ec & ->). destruct (cheb_grid b h _ _ _ nx g' Hg' Hc) as (c' & Ec' & ->).
    specialize (H2 eq_refl). rewrite Cheb_make_ok in Ec by auto. rewrite Cheb_make_ok in Ec' by auto. injection Ec as <-. injection Ec' as <-.
    cbn [rad_pt]. unfold cheb_pt. cbn [ch_pts]. intros E. rewrite (vget_ok _ _ 0) in E by (rewrite map_length, seq_length; auto). rewrite (vget_ok _ _ 0) by (rewrite map_length, seq_length; auto).
    rewrite nth_map_seq in E by auto. rewrite nth_map_seq by auto. assert (E' := f_equal (fun r => match r with Ok x => x | _ => 0 end) E). cbn [R_arith] in E'. cbv beta iota in E'. rewrite <- E'. f_equal. R_ops. unfold Rdiv. ring.
  - rewrite (fd_grid b h cl Rmin Rmax nx g Hg Hc), (fd_grid b h _ _ _ nx g' Hg' Hc). cbn [rad_pt]. unfold fd_pt, FD_make. cbn [fd_dx fd_lower].
    intros E. injection E as <-. f_equal. unfold fnat. R_ops. unfold Rdiv. ring.
Qed.

(** ** derivatives *)
Lemma div_lam x d : x / (lam * d) = x / d / lam.
Proof. unfold Rdiv. rewrite Rinv_mult. ring. Qed.
Lemma line_R' v o : length v = nx -> line_R g v = Ok o -> line_R g' v = Ok (over lam o).
Proof.
  intros Lv. destruct (gof_sizes b h cl Rmin Rmax nx g Hg) as (Eb & En & _). destruct (gof_sizes b h _ _ _ nx g' Hg') as (Eb' & En' & _).
  unfold line_R. rewrite Eb, Eb'. assert (L0 : length (rad0 g) = nx) by (rewrite rad0_length; auto). assert (L0' : length (rad0 g') = nx) by (rewrite rad0_length; auto).
  destruct (use_cheb b) eqn:Hc.
  - destruct (cheb_grid b h cl Rmin Rmax nx g Hg Hc) as (c & Ec & ->). destruct (cheb_grid b h _ _ _ nx g' Hg' Hc) as (c' & Ec' & ->).
    specialize (H2 eq_refl). pose proof (make_wf _ _ _ _ _ H2 Ec) as W. pose proof (make_wf _ _ _ _ _ H2 Ec') as W'. cbn [rad_der].
    rewrite (cheb_der_val b c nx Rmin Rmax H2 W), (cheb_der_val b c' nx _ _ H2 W') by auto. intros E. injection E as <-. f_equal.
    unfold over. rewrite map_map. apply map_ext. intros i. rewrite <- div_lam. f_equal. unfold Rdiv. ring.
  - rewrite (fd_grid b h cl Rmin Rmax nx g Hg Hc), (fd_grid b h _ _ _ nx g' Hg' Hc). specialize (H8 eq_refl). cbn [rad_der].
    rewrite !fd_der_ok by (cbn [FD_make fd_n]; auto; lia). intros E. injection E as <-. f_equal. unfold over. rewrite map_map. apply map_ext. intros i.
    cbn [FD_make fd_n fd_dx]. R_ops. assert (D : (lam * Rmax - lam * Rmin) / fnat (wsub nx 1) = lam * ((Rmax - Rmin) / fnat (wsub nx 1))) by (unfold Rdiv; ring).
    rewrite D. unfold der_val. R_ops. repeat destruct (Nat.eqb _ _); apply div_lam.
Qed.
Lemma tab' ix : (ix < nx)%nat -> nth ix (g_dR g') 0 = nth ix (g_dR g) 0 /\ nth ix (g_d2R g') 0 = nth ix (g_d2R g) 0 / lam.
Proof.
  intros Hi. destruct (pt_ex b h cl Rmin Rmax nx g Hg ix Hi) as (X & E). pose proof (rad_pt' ix X Hi E) as E'.
  destruct (tabs b h cl Rmin Rmax nx g Hg ix X Hi E) as [-> ->]. destruct (tabs b h _ _ _ nx g' Hg' ix _ Hi E') as [-> ->].
  assert (Q : lam * X / (lam * cl) = X / cl) by (field; split; lra). rewrite Q. split; auto. field. split; lra.
Qed.
Lemma line_r' v o : length v = nx -> line_r g v = Ok o -> line_r g' v = Ok (over lam o).
Proof.
  intros Lv. destruct (gof_sizes b h cl Rmin Rmax nx g Hg) as (Eb & En & _ & _ & _ & _ & _ & LdR & Ld2 & _). destruct (gof_sizes b h _ _ _ nx g' Hg') as (Eb' & En' & _ & _ & _ & _ & _ & LdR' & Ld2' & _).
  assert (R7 : rad_big g 7) by (apply (gof_rad b h cl Rmin Rmax nx g Hg); auto; intros E; specialize (H8 E); lia).
  assert (R7' : rad_big g' 7) by (apply (gof_rad b h _ _ _ nx g' Hg'); auto; intros E; specialize (H8 E); lia).
  destruct (line_r_total g v R7 ltac:(congruence) ltac:(congruence)) as (d1 & o1 & A1 & B1 & C1 & D1 & F1).
  destruct (line_r_total g' v R7' ltac:(congruence) ltac:(congruence)) as (d2 & o2 & A2 & B2 & C2 & D2 & F2).
  rewrite B1, B2. intros E. injection E as <-. f_equal. pose proof (line_R' v d1 Lv A1) as E. rewrite A2 in E. injection E as ->.
  change (@f0 R _) with 0 in *. apply over_ext; [congruence|]. rewrite D1, En. intros i Hi. rewrite F1, F2 by lia. rewrite nth_over. destruct (tab' i Hi) as [-> _]. R_ops. unfold Rdiv. ring.
Qed.
Lemma line_r2' v o : length v = nx -> line_r2 g v = Ok o -> line_r2 g' v = Ok (over (lam ^ 2) o).
Proof.
  intros Lv. destruct (gof_sizes b h cl Rmin Rmax nx g Hg) as (Eb & En & _ & _ & _ & _ & _ & LdR & Ld2 & _). destruct (gof_sizes b h _ _ _ nx g' Hg') as (Eb' & En' & _ & _ & _ & _ & _ & LdR' & Ld2' & _).
  assert (R8 : rad_big g 8) by (apply (gof_rad b h cl Rmin Rmax nx g Hg); auto).
  assert (R8' : rad_big g' 8) by (apply (gof_rad b h _ _ _ nx g' Hg'); auto).
  destruct (line_r2_total g v R8 ltac:(congruence) ltac:(congruence) ltac:(congruence)) as (d1 & e1 & o1 & A1 & C1 & D1 & G1 & B1 & K1 & F1).
  destruct (line_r2_total g' v R8' ltac:(congruence) ltac:(congruence) ltac:(congruence)) as (d2 & e2 & o2 & A2 & C2 & D2 & G2 & B2 & K2 & F2).
  rewrite B1, B2. intros E. injection E as <-. f_equal. pose proof (line_R' v d1 Lv A1) as E. rewrite A2 in E. injection E as ->.
  assert (Q : e2 = over (lam ^ 2) e1).
  { pose proof line_R' as LR. pose proof H8 as K8. pose proof H2 as K2'. pose proof (line_R_linear b h _ _ _ nx g' Hg' H8 H2) as LL. destruct (use_cheb b) eqn:Hc.
    - destruct (cheb_grid b h cl Rmin Rmax nx g Hg Hc) as (c & Ec & Er). destruct (cheb_grid b h _ _ _ nx g' Hg' Hc) as (c' & Ec' & Er'). rewrite Er in G1. rewrite Er' in G2.
      rewrite over_lincomb in G2. assert (Lx : length d1 = nx) by congruence. pose proof (LR d1 e1 Lx G1) as Q.
      rewrite (LL (/ lam) d1 0 d1 _ _ ltac:(congruence) ltac:(congruence) Q Q) in G2.
      injection G2 as <-. apply over_ext; [rewrite (lincomb_length _ _ _ _ nx); try rewrite over_length; congruence|]. intros i Hi.
      rewrite (nth_lincomb _ _ _ _ _ nx) by (rewrite ?over_length; congruence). rewrite nth_over. field. lra.
    - rewrite (fd_grid b h cl Rmin Rmax nx g Hg Hc) in G1. rewrite (fd_grid b h _ _ _ nx g' Hg' Hc) in G2. specialize (H8 eq_refl).
      assert (L0 : length (rad0 g) = nx) by (rewrite rad0_length; auto). assert (L0' : length (rad0 g') = nx) by (rewrite rad0_length; auto).
      rewrite fd_der2_ok in G1 by (cbn [FD_make fd_n]; auto; lia). rewrite fd_der2_ok in G2 by (cbn [FD_make fd_n]; auto; lia).
      apply Ok_inj in G1. apply Ok_inj in G2. subst e1 e2. unfold over. rewrite map_map. apply map_ext. intros i.
      cbn [FD_make fd_n fd_dx]. R_ops. assert (D : ((lam * Rmax - lam * Rmin) / fnat (wsub nx 1)) ^ 2 = lam ^ 2 * ((Rmax - Rmin) / fnat (wsub nx 1)) ^ 2) by (unfold Rdiv; ring).
      rewrite D. unfold der2_val. R_ops. assert (K : forall x d, x / (lam ^ 2 * d) = x / d / lam ^ 2) by (intros; unfold Rdiv; rewrite Rinv_mult; ring).
      repeat destruct (Nat.eqb _ _); apply K. }
  subst e2. change (@f0 R _) with 0 in *. apply over_ext; [congruence|]. rewrite K1, En. intros i Hi. rewrite F1, F2 by lia. rewrite !nth_over. destruct (tab' i Hi) as [-> ->]. R_ops. field. lra.
Qed.
Lemma rline' v it ip : rline g' v it ip = rline g v it ip.
Proof. destruct same_fields as (E1 & E2 & _ & E3 & E4 & _ & E5). unfold rline, indx_R_th_ph. rewrite E1, E2, E3, E4. reflexivity. Qed.
Lemma rline_over lm v it ip : rline g (over lm v) it ip = over lm (rline g v it ip).
Proof. unfold rline, over at 2. rewrite map_map. apply map_ext. intros ix. apply nth_over. Qed.

(** radial derivatives are divided by the unit (twice for the second), angular operators do not change *)
Theorem C91_operators v : length v = n ->
  dr_of g' v = over lam (dr_of g v) /\ drr_of g' v = over (lam ^ 2) (drr_of g v) /\
  dphi_of g' v = dphi_of g v /\ lap_of g' v = lap_of g v /\ sX_of g' v = sX_of g v /\ filt_of g' v = filt_of g v.
Proof.
  intros Lv. destruct same_fields as (E1 & E2 & E0 & E3 & E4 & E6 & E5).
  assert (Lz : length (zero3 g) = n) by apply vec_length. assert (Lz' : length (zero3 g') = g_n3 g') by apply vec_length.
  assert (Lv' : length v = g_n3 g') by congruence. assert (Ez : zero3 g' = zero3 g) by (unfold zero3; rewrite E5; reflexivity).
  destruct (C23_radial b h cl Rmin Rmax nx g Hg v (zero3 g) H8 H2 Lv Lz) as (x1 & x2 & x3 & F1 & F2 & F3 & L1 & L2 & L3 & A).
  destruct (C23_radial b h _ _ _ nx g' Hg' v (zero3 g') H8 H2 Lv' Lz') as (y1 & y2 & y3 & G1 & G2 & G3 & M1 & M2 & M3 & B).
  destruct (gof_sizes b h cl Rmin Rmax nx g Hg) as (_ & En & _).
  repeat apply conj.
  - unfold dr_of. rewrite F2, G2. apply (rline_ext g); [congruence|rewrite over_length; auto|]. intros it ip Ht Hp.
    destruct (A it ip Ht Hp) as (_ & A2 & _). destruct (B it ip) as (_ & B2 & _); [congruence..|]. rewrite rline_over. rewrite !rline' in B2.
    assert (Lr : length (rline g v it ip) = nx) by (rewrite rline_length; auto). rewrite (line_r' _ _ Lr A2) in B2. congruence.
  - unfold drr_of. rewrite F3, G3. apply (rline_ext g); [congruence|rewrite over_length; auto|]. intros it ip Ht Hp.
    destruct (A it ip Ht Hp) as (_ & _ & A2). destruct (B it ip) as (_ & _ & B2); [congruence..|]. rewrite rline_over. rewrite !rline' in B2.
    assert (Lr : length (rline g v it ip) = nx) by (rewrite rline_length; auto). rewrite (line_r2' _ _ Lr A2) in B2. congruence.
  - unfold dphi_of, set_partial_phi, shell_op, shell_body, get_row_th_ph, set_row_th_ph, indx_th_ph, indx_R_th_ph, sph0. rewrite Ez, E1, E2, E3, E4, E5, E6. reflexivity.
  - unfold lap_of, set_spherical_lap, shell_op, shell_body, get_row_th_ph, set_row_th_ph, indx_th_ph, indx_R_th_ph, sph0. rewrite Ez, E1, E2, E3, E4, E5, E6. reflexivity.
  - unfold sX_of, set_sphereX, shell_op, shell_body, get_row_th_ph, set_row_th_ph, indx_th_ph, indx_R_th_ph, sph0. rewrite Ez, E1, E2, E3, E4, E5, E6. reflexivity.
  - unfold filt_of, grid_filter, filter_shell, filter_line, get_row_R, set_row_R, get_row_th_ph, set_row_th_ph, indx_th_ph, indx_R_th_ph, sph0, rad0. rewrite E1, E2, E3, E4, E5, E6. reflexivity.
Qed.

(** ** coefficients *)
Lemma hor' M a : 0 < M -> Rabs a <= M -> clean_spin M a -> clean_spin (lam * M) (lam * a) ->
  hor_p (lam * M) (lam * a) = lam * hor_p M a /\ hor_m (lam * M) (lam * a) = lam * hor_m M a.
Proof.
  intros HM Ha C1 C2. destruct (hor_values M a HM Ha C1) as [-> ->].
  assert (HM' : 0 < lam * M) by (apply Rmult_lt_0_compat; auto).
  assert (Ha' : Rabs (lam * a) <= lam * M) by (rewrite Rabs_mult, (Rabs_pos_eq lam) by lra; apply Rmult_le_compat_l; lra).
  destruct (hor_values _ _ HM' Ha' C2) as [-> ->].
  unfold r_plus, r_minus. replace ((lam * M) ^ 2 - (lam * a) ^ 2) with (lam ^ 2 * (M ^ 2 - a ^ 2)) by ring.
  rewrite sqrt_mult by (try apply pow2_ge_0; apply sqrt_spin_le; auto). rewrite sqrt_pow2 by lra. split; ring.
Qed.
Definition cscl (c : coef R) : coef R :=
  Cf (c_pre c) (c_p c / lam) (c_dr_f c / lam) (c_dr_p c) (c_dr_dr_f c) (c_dphi_dr_f c / lam) (c_lap_f c / lam ^ 2)
     (c_p_p c) (c_p_dr_f c) (c_dr_f_dr_f c) (c_dr_f_dphi_f c / lam) (c_sphereX_f c / lam ^ 2)
     (c_rho_vv c) (c_rho_vr c) (c_rho_rr c) (c_rho_rphi c / lam) (c_rho_sphereX c / lam ^ 2).
Lemma coef' M a ir th : 0 < M -> Rabs a <= M -> clean_spin M a -> clean_spin (lam * M) (lam * a) ->
  coef_at (lam * M) (lam * a) (ir / lam) th = cscl (coef_at M a ir th).
Proof.
  intros HM Ha C1 C2. destruct (hor' M a HM Ha C1 C2) as [Hp Hm].
  assert (ES : Sigma_ (lam * a) (ir / lam) th = Sigma_ a ir th) by (unfold Sigma_; R_ops; field; lra).
  assert (ED : Delta_ (lam * M) (lam * a) (ir / lam) = Delta_ M a ir) by (unfold Delta_; rewrite Hp, Hm; R_ops; field; lra).
  unfold coef_at, cscl. rewrite ES, ED. cbn [c_pre c_p c_dr_f c_dr_p c_dr_dr_f c_dphi_dr_f c_lap_f c_p_p c_p_dr_f c_dr_f_dr_f c_dr_f_dphi_f c_sphereX_f c_rho_vv c_rho_vr c_rho_rr c_rho_rphi c_rho_sphereX].
  R_ops. generalize (Sigma_ a ir th) (Delta_ M a ir). intros S D.
  assert (K2 : 2 * (lam * M) * (ir / lam) = 2 * M * ir) by (field; lra). assert (K4 : 4 * (lam * M) * (ir / lam) = 4 * M * ir) by (field; lra).
  assert (Ka : lam * a * (ir / lam) = a * ir) by (field; lra). rewrite K2, K4, Ka.
  generalize (1 / (1 + 2 * M * ir / S)). intros P. unfold Rdiv. generalize (/ S). intros iS.
  f_equal; field; lra.
Qed.
Lemma inv_r' ix X p p' : rescaled lam p p' -> pr_cl p = cl -> clean_nodes lam cl g -> (ix < nx)%nat -> rad_pt (g_radial g) ix = Ok X ->
  inv_r_at g' (pr_cl p') (lam * X) = inv_r_at g (pr_cl p) X / lam.
Proof.
  intros (_ & _ & Ec & _) Ep Cn Hi HX. destruct (gof_sizes b h cl Rmin Rmax nx g Hg) as (_ & En & _ & _ & _ & _ & _ & _ & _ & Gc).
  destruct (gof_sizes b h _ _ _ nx g' Hg') as (_ & _ & _ & _ & _ & _ & _ & _ & _ & Gc').
  unfold inv_r_at, R_to_r. rewrite Ec, Ep, Gc, Gc'. R_ops. rewrite tol_eq. destruct (Cn ix X ltac:(rewrite En; exact Hi) HX) as [->|[K1 K2]].
  - rewrite !Rminus_eq_0, !Rabs_R0. rewrite Rltb_true by apply tol_pos. unfold Rdiv. ring.
  - rewrite !(Rltb_false _ (1 / 10 ^ 16)) by lra. rewrite !Rltb_true by auto. unfold Rdiv.
    replace (lam * X * / (lam * cl)) with (X * / cl) by (field; split; lra). rewrite !Rinv_mult. ring.
Qed.
Section Eqs.
Variables (p p' : params R) (e e' : eom R).
Hypothesis Hr : rescaled lam p p'.
Hypothesis Hpc : pr_cl p = cl.
Hypothesis Hn : clean_nodes lam cl g.
Hypothesis HM : 0 < pr_bh_mass p.
Hypothesis Ha : Rabs (pr_bh_spin p) <= pr_bh_mass p.
Hypothesis Hs : clean_spin (pr_bh_mass p) (pr_bh_spin p).
Hypothesis Hs' : clean_spin (pr_bh_mass p') (pr_bh_spin p').
Hypothesis He : Eom_make g p = Ok e.
Hypothesis He' : Eom_make g' p' = Ok e'.

Lemma eqs_rel : e_dt e' = lam * e_dt e /\ e_km1 e' = e_km1 e /\ e_k0 e' = e_k0 e /\ e_k1 e' = e_k1 e /\ e_k2 e' = e_k2 e /\
  e_v2 e' = e_v2 e / lam ^ 2 /\ e_v3 e' = e_v3 e / lam ^ 2 /\ e_v4 e' = e_v4 e / lam ^ 2 /\
  forall i, (i < n)%nat -> nth i (e_coef e') coef0 = cscl (nth i (e_coef e) coef0).
Proof.
  pose proof Hr as (R1 & R2 & R3 & R4 & R5 & R6 & R7 & R8 & R9 & R10 & R11).
  destruct (Eom_make_inv _ _ _ He) as (cs & Lc & Ee & A). destruct (Eom_make_inv _ _ _ He') as (cs' & Lc' & Ee' & A').
  rewrite Ee, Ee'. cbn [e_dt e_km1 e_k0 e_k1 e_k2 e_v2 e_v3 e_v4 e_coef]. repeat (split; [assumption|]).
  intros i Hi. destruct same_fields as (E1 & E2 & _ & E3 & E4 & _ & E5). destruct (gof_sizes b h cl Rmin Rmax nx g Hg) as (Eb & En & _ & El & Ep & _).
  destruct (ix_R_th_ph_surj (g_bld g) _ _ _ _ Hi) as (ix & it & ip & Hx & Ht & Hp & Ei).
  destruct (A ix it ip Hx Ht Hp) as (row & X & th & F1 & F2 & F3 & F4). destruct (A' ix it ip) as (row' & X' & th' & G1 & G2 & G3 & G4); [congruence..|].
  assert (Ii : indx_R_th_ph g' ix it ip = i) by (unfold indx_R_th_ph; rewrite E1, E3, E4; exact Ei). fold (indx_R_th_ph g ix it ip) in Ei. rewrite Ei in F4. rewrite Ii in G4.
  rewrite (nth_error_nth _ _ coef0 F4), (nth_error_nth _ _ coef0 G4).
  pose proof (Grid_make_tables _ _ _ _ _ _ _ _ _ _ _ Hg) as T. destruct T as (_ & _ & _ & _ & _ & _ & _ & _ & _ & _ & _ & _ & T & _).
  pose proof (Grid_make_tables _ _ _ _ _ _ _ _ _ _ _ Hg') as T'. destruct T' as (_ & _ & _ & _ & _ & _ & _ & _ & _ & _ & _ & _ & T' & _).
  destruct (T ix it ip ltac:(congruence) ltac:(congruence) ltac:(congruence)) as (X1 & t1 & P1 & P2 & P3 & _).
  destruct (T' ix it ip ltac:(congruence) ltac:(congruence) ltac:(congruence)) as (X2 & t2 & Q1 & Q2 & Q3 & _).
  unfold R_th_ph_at, R_th_ph_i, vget in F1, G1. unfold indx_R_th_ph in F1, G1. rewrite Eb, El, Ep in F1. rewrite E1, E3, E4, Eb, El, Ep in G1. rewrite P3 in F1. rewrite Q3 in G1.
  injection F1 as <-. injection G1 as <-. cbn in F2, F3, G2, G3. injection F2 as <-. injection F3 as <-. injection G2 as <-. injection G3 as <-.
  destruct same_fields as (_ & _ & _ & _ & _ & E6 & _). rewrite E6, P2 in Q2. injection Q2 as <-.
  assert (Hx' : (ix < nx)%nat) by congruence. rewrite (rad_pt' ix X1 Hx' P1) in Q1. injection Q1 as <-.
  rewrite (inv_r' ix X1 p p' Hr Hpc Hn Hx' P1). rewrite R1, R2 in *. now apply coef'.
Qed.
Lemma prhs' f q : linear_sht h -> length f = n -> length q = n -> prhs_of g' e' f (over lam q) = over (lam ^ 2) (prhs_of g e f q).
Proof.
  intros Hln Lf Lq. destruct same_fields as (E1 & E2 & _ & E3 & E4 & E6 & E5). pose proof (Eom_make_ok g p e He) as Oe. pose proof (Eom_make_ok g' p' e' He') as Oe'.
  pose proof (rhs_sized b h cl Rmin Rmax nx g Hg Hsh HL H8 H2 e (f, q) Oe ltac:(split; auto)) as [_ S1]. cbn in S1.
  assert (Lo : length (over lam q) = n) by (now rewrite over_length).
  pose proof (rhs_sized b h _ _ _ nx g' Hg' Hsh HL H8 H2 e' (f, over lam q) Oe' ltac:(split; cbn; congruence)) as [_ S2]. cbn in S2.
  apply over_ext; [congruence|]. rewrite S1. intros i Hi.
  rewrite (prhs_at b h cl Rmin Rmax nx g Hg Hsh HL H8 H2) by auto. rewrite (prhs_at b h _ _ _ nx g' Hg' Hsh HL H8 H2) by (auto; congruence).
  destruct eqs_rel as (_ & K1 & K2 & K3 & K4 & V2 & V3 & V4 & Cc). rewrite Cc by auto.
  destruct (C91_operators f Lf) as (O1 & O2 & O3 & O4 & O5 & _). rewrite O1, O2, O3, O4, O5.
  destruct (C91_operators _ Lo) as (O6 & _). rewrite O6.
  destruct (ops_ok b h cl Rmin Rmax nx g Hg Hsh HL H8 H2 f f Lf Lf) as (_ & _ & _ & _ & _ & P1 & P2 & P3 & P4 & P5).
  destruct (ops_ok b h cl Rmin Rmax nx g Hg Hsh HL H8 H2 q f Lq Lf) as (_ & _ & _ & _ & _ & P6 & _).
  destruct (C91_operators (dphi_of g f) P3) as (O7 & _). rewrite O7.
  destruct (ops_linear b h cl Rmin Rmax nx g Hg Hsh HL H8 H2 Hln) as (D1 & _). rewrite (over_lincomb lam q), D1 by auto. rewrite <- (over_lincomb lam (dr_of g q)), <- (over_lincomb lam q).
  rewrite !nth_over. set (c := nth i (e_coef e) coef0). set (x := nth i f 0).
  assert (I : inverse_k e' x = inverse_k e x) by (unfold inverse_k; rewrite K1, K2, K3, K4; reflexivity).
  assert (K : kprime e' x = kprime e x) by (unfold kprime; rewrite K1, K3, K4; reflexivity).
  unfold p_rhs, vprime, cscl. cbn [c_pre c_p c_dr_f c_dr_p c_dr_dr_f c_dphi_dr_f c_lap_f c_p_p c_p_dr_f c_dr_f_dr_f c_dr_f_dphi_f c_sphereX_f].
  rewrite I, K, V2, V3, V4. R_ops. field. lra.
Qed.

Section Ev.
Hypothesis Hln : linear_sht h.
Definition Tu (u : state R) : state R := (fst u, over lam (snd u)).
Definition Tk (k : state R) : state R := (over lam (fst k), over (lam ^ 2) (snd k)).
Local Notation sz := (sized g).
Lemma rhs' u : sz u -> rhs_of g' e' (Tu u) = Tk (rhs_of g e u).
Proof. intros [A B]. unfold rhs_of, Tu, Tk. cbn [fst snd]. now rewrite prhs'. Qed.
Lemma axpy_over c l1 l2 k u : lam * l1 = l2 -> l1 <> 0 -> length k = n -> length u = n -> axpy (lam * c) (over l2 k) (over l1 u) = over l1 (axpy c k u).
Proof.
  intros El Hl1 Lk Lu. assert (X : forall t k u i, length k = n -> length u = n -> (i < n)%nat -> nth i (axpy t k u) 0 = nth i u 0 + t * nth i k 0).
  { intros t' k' u' i L1 L2 Hi. apply nth_error_nth. refine (eq_trans (axpy_nth t' k' u' i (nth i u' 0) (nth i k' 0) _ _) _); [apply nth_error_nth'; lia..|reflexivity]. }
  apply over_ext; [rewrite !(axpy_length _ _ _ n); auto; now rewrite over_length|]. rewrite (axpy_length _ _ _ n) by auto. intros i Hi.
  rewrite !X by (rewrite ?over_length; auto). rewrite !nth_over. rewrite <- El. field. split; lra.
Qed.
Lemma over_1 v : over 1 v = v.
Proof. unfold over. rewrite <- (map_id v) at 2. apply map_ext. intros x. field. Qed.
Lemma axpy2' c k u : sz k -> sz u -> axpy2 (lam * c) (Tk k) (Tu u) = Tu (axpy2 c k u).
Proof.
  intros [A B] [C D]. unfold axpy2, Tk, Tu. cbn [fst snd]. f_equal.
  - rewrite <- (over_1 (fst u)) at 1. rewrite (axpy_over c 1 lam) by (auto; try lra). apply over_1.
  - apply axpy_over; auto; [ring|lra].
Qed.
Transparent advance.
Lemma advance' u : sz u -> advance g' e' (Tu u) = Tu (advance g e u).
Proof.
  intros Su. pose proof Su as [A B]. pose proof (Eom_make_ok g p e He) as Oe.
  unfold advance. destruct eqs_rel as (Edt & _). rewrite Edt.
  assert (E0 : (filt_of g' (fst (Tu u)), filt_of g' (snd (Tu u))) = Tu (filt_of g (fst u), filt_of g (snd u))).
  { unfold Tu. cbn [fst snd]. destruct (C91_operators (fst u) A) as (_ & _ & _ & _ & _ & O1). assert (Lo : length (over lam (snd u)) = n) by (now rewrite over_length).
    destruct (C91_operators _ Lo) as (_ & _ & _ & _ & _ & O2). rewrite O1, O2. f_equal. destruct (ops_linear b h cl Rmin Rmax nx g Hg Hsh HL H8 H2 Hln) as (_ & _ & _ & _ & D5). rewrite !over_lincomb. now apply D5. }
  rewrite E0. clear E0. pose proof (filt_sized b h cl Rmin Rmax nx g Hg Hsh H8 H2 u Su) as S1. set (x := (filt_of g (fst u), filt_of g (snd u))) in *. clearbody x.
  unfold rk4. cbv zeta. R_ops.
  assert (T1 : forall t, 5 * powerRZ 10 (-1) * (lam * t) = lam * (5 * powerRZ 10 (-1) * t)) by (intros; ring).
  assert (T2 : forall t d, lam * t / d = lam * (t / d)) by (intros; unfold Rdiv; ring).
  rewrite T1, !T2.
  pose proof (rhs_sized b h cl Rmin Rmax nx g Hg Hsh HL H8 H2 e) as RS. pose proof (axpy2_sized g) as AS.
  repeat first [rewrite axpy2' by (repeat first [assumption|apply AS|apply RS]; auto) | rewrite rhs' by (repeat first [assumption|apply AS|apply RS]; auto)].
  reflexivity.
Qed.
Opaque advance.
(** k steps in the new units: the same field, and its time derivative divided by the unit *)
Theorem C91_evolution k (f q f2 q2 : field R) : field_ok g f -> field_ok g q -> field_ok g' f2 -> field_ok g' q2 ->
  fl_n f2 = fl_n f -> fl_n q2 = over lam (fl_n q) ->
  exists f1 q1 e1 f3 q3 e3, steps g k (f, q, e) = Ok (f1, q1, e1) /\ steps g' k (f2, q2, e') = Ok (f3, q3, e3) /\
    fl_n f3 = fl_n f1 /\ fl_n q3 = over lam (fl_n q1).
Proof.
  intros O1 Q1 O2 Q2 Ef Eq. pose proof (Eom_make_ok g p e He) as Oe. pose proof (Eom_make_ok g' p' e' He') as Oe'.
  destruct (steps_iter b h cl Rmin Rmax nx g Hg Hsh HL H8 H2 k e f q Oe O1 Q1) as (f1 & q1 & e1 & E1 & I1).
  destruct (steps_iter b h _ _ _ nx g' Hg' Hsh HL H8 H2 k e' f2 q2 Oe' O2 Q2) as (f3 & q3 & e3 & E3 & I3).
  exists f1, q1, e1, f3, q3, e3. split; [exact E1|]. split; [exact E3|].
  assert (S1 : sz (fl_n f, fl_n q)) by (destruct O1 as (_ & ? & _), Q1 as (_ & ? & _); split; auto).
  assert (Q : forall k, Nat.iter k (advance g' e') (fl_n f2, fl_n q2) = Tu (Nat.iter k (advance g e) (fl_n f, fl_n q))).
  { intros j. induction j as [|j IH]; [cbn [Nat.iter nat_rect]; now rewrite Ef, Eq|].
    change (advance g' e' (Nat.iter j (advance g' e') (fl_n f2, fl_n q2)) = Tu (advance g e (Nat.iter j (advance g e) (fl_n f, fl_n q)))).
    rewrite IH. apply advance'. now apply (iter_sized b h cl Rmin Rmax nx g Hg Hsh HL H8 H2). }
  rewrite Q, <- I1 in I3. unfold Tu in I3. cbn [fst snd] in I3. split; congruence.
Qed.
(** the energy density is divided by the square of the unit *)
Theorem C91_density f q rho rho2 : length f = n -> length q = n -> length rho = n -> length rho2 = n ->
  exists r e1 e2, set_rho g e f q rho = Ok (r, e1) /\ set_rho g' e' f (over lam q) rho2 = Ok (over (lam ^ 2) r, e2).
Proof.
  intros Lf Lq Lr Lr2. destruct same_fields as (E1 & E2 & _ & E3 & E4 & E6 & E5). pose proof (Eom_make_ok g p e He) as Oe. pose proof (Eom_make_ok g' p' e' He') as Oe'.
  pose proof Oe as (En & _ & Os). pose proof Oe' as (En' & _ & Os').
  assert (Lo : length (over lam q) = n) by (now rewrite over_length).
  destruct (set_rho_total b h cl Rmin Rmax nx g Hg Hsh HL H8 H2 e f q rho Oe Lf Lq Lr) as (r & e1 & X1 & L1).
  destruct (set_rho_total b h _ _ _ nx g' Hg' Hsh HL H8 H2 e' f (over lam q) rho2 Oe') as (r2 & e2 & X2 & L2); [congruence..|].
  exists r, e1, e2. split; [exact X1|]. rewrite X2. do 2 f_equal.
  apply over_ext; [congruence|]. rewrite L1. intros i Hi.
  rewrite (rho_at_cell b h cl Rmin Rmax nx g Hg Hsh HL H8 H2 _ _ _ _ _ _ Oe Lf Lq X1 i Hi).
  assert (Lf' : length f = g_n3 g') by congruence. assert (Lo' : length (over lam q) = g_n3 g') by congruence. assert (Hi' : (i < g_n3 g')%nat) by (rewrite E5; auto).
  rewrite (rho_at_cell b h _ _ _ nx g' Hg' Hsh HL H8 H2 _ _ _ _ _ _ Oe' Lf' Lo' X2 i Hi').
  destruct eqs_rel as (_ & K1 & K2 & K3 & K4 & V2 & V3 & V4 & Cc). rewrite Cc by auto.
  destruct (C91_operators f Lf) as (O1 & _ & O3 & _ & O5 & _). rewrite O1, O3, O5, !nth_over.
  set (c := nth i (e_coef e) coef0). set (x := nth i f 0). unfold rho_at, cscl. cbn [c_rho_vv c_rho_vr c_rho_rr c_rho_rphi c_rho_sphereX].
  rewrite K1, K2, K3, K4, V2, V3, V4. R_ops. generalize (e_k0 e + e_km1 e / (x + 1) + e_k1 e * x + e_k2 e / 2 * x ^ 2). intros kk. field. lra.
Qed.
End Ev.
End Eqs.

(** ** the initial pulse *)
Section Pulse.
Variables (par par' : params R).
Hypothesis Hrl : pr_rl par' = lam * pr_rl par.
Hypothesis Hru : pr_ru par' = lam * pr_ru par.
Hypothesis Ham : pr_amp par' = pr_amp par.
Hypothesis Hdi : pr_direction par' = pr_direction par.
Hypothesis Hla : pr_l_ang par' = pr_l_ang par.
Hypothesis Hma : pr_m_ang par' = pr_m_ang par.
Hypothesis Hw : 1 / 10 ^ 14 <= Rabs (pr_ru par - pr_rl par) /\ 1 / 10 ^ 14 <= Rabs (lam * pr_ru par - lam * pr_rl par).
Hypothesis Hu : pr_ru par <= 10 ^ 12 /\ lam * pr_ru par <= 10 ^ 12.
Hypothesis Hn : clean_nodes lam cl g.

Lemma w' : pulse_w (lam * pr_rl par) (lam * pr_ru par) = lam * pulse_w (pr_rl par) (pr_ru par).
Proof.
  unfold pulse_w. destruct Hw as [W1 W2]. rewrite !Rmax_left by auto. replace (lam * pr_ru par - lam * pr_rl par) with (lam * (pr_ru par - pr_rl par)) by ring.
  rewrite Rabs_mult, (Rabs_pos_eq lam) by lra. reflexivity.
Qed.
Lemma bump' r : bump (lam * pr_rl par) (lam * pr_ru par) (lam * r) = bump (pr_rl par) (pr_ru par) r.
Proof.
  pose proof (w_pos (pr_rl par) (pr_ru par)) as Wp.
  destruct (Rlt_dec (pr_rl par) r) as [A|A]; [destruct (Rlt_dec r (pr_ru par)) as [B|B]|].
  - rewrite !bump_in by (auto; apply Rmult_lt_compat_l; auto). rewrite w'. f_equal; f_equal; field; repeat split; try lra; intros K; apply (Rmult_integral lam) in K || idtac; nra.
  - rewrite !bump_out; auto; right; [lra|apply Rmult_le_compat_l; lra].
  - rewrite !bump_out; auto; left; [lra|apply Rmult_le_compat_l; lra].
Qed.
Lemma pulse_f' r : pulse_f (lam * pr_rl par) (lam * pr_ru par) (lam * r) = pulse_f (pr_rl par) (pr_ru par) r.
Proof.
  pose proof (w_pos (pr_rl par) (pr_ru par)) as Wp. unfold pulse_f. rewrite bump', !width_eq, w'. R_ops. cbv zeta.
  replace ((lam * r - lam * pr_rl par) / (lam * pulse_w (pr_rl par) (pr_ru par))) with ((r - pr_rl par) / pulse_w (pr_rl par) (pr_ru par)) by (field; lra).
  replace ((lam * pr_ru par - lam * r) / (lam * pulse_w (pr_rl par) (pr_ru par))) with ((pr_ru par - r) / pulse_w (pr_rl par) (pr_ru par)) by (field; lra). reflexivity.
Qed.
Lemma pulse_dr' r : pulse_dr (lam * pr_rl par) (lam * pr_ru par) (lam * r) = pulse_dr (pr_rl par) (pr_ru par) r / lam.
Proof.
  pose proof (w_pos (pr_rl par) (pr_ru par)) as Wp. unfold pulse_dr. rewrite bump', !width_eq, w'. R_ops. cbv zeta.
  replace ((lam * r - lam * pr_rl par) / (lam * pulse_w (pr_rl par) (pr_ru par))) with ((r - pr_rl par) / pulse_w (pr_rl par) (pr_ru par)) by (field; lra).
  replace ((lam * pr_ru par - lam * r) / (lam * pulse_w (pr_rl par) (pr_ru par))) with ((pr_ru par - r) / pulse_w (pr_rl par) (pr_ru par)) by (field; lra).
  rewrite div_lam. unfold Rdiv. ring.
Qed.
Lemma pulse_node ix X : (ix < nx)%nat -> rad_pt (g_radial g) ix = Ok X ->
  pulse_f (pr_rl par') (pr_ru par') (R_to_r g' (lam * X)) = pulse_f (pr_rl par) (pr_ru par) (R_to_r g X) /\
  pulse_p (pr_direction par') (pr_rl par') (pr_ru par') (R_to_r g' (lam * X)) = pulse_p (pr_direction par) (pr_rl par) (pr_ru par) (R_to_r g X) / lam.
Proof.
  intros Hi HX. destruct (gof_sizes b h cl Rmin Rmax nx g Hg) as (_ & En & _ & _ & _ & _ & _ & _ & _ & Gc).
  destruct (gof_sizes b h _ _ _ nx g' Hg') as (_ & _ & _ & _ & _ & _ & _ & _ & _ & Gc').
  assert (Z : forall d, text_eqb d d = true \/ True) by auto.
  assert (D : forall x y, x = y / lam -> (if text_eqb (pr_direction par) (txt "ingoing"%string) then x else if text_eqb (pr_direction par) (txt "outgoing"%string) then (- x)%f else (#0)%f) =
     (if text_eqb (pr_direction par) (txt "ingoing"%string) then y else if text_eqb (pr_direction par) (txt "outgoing"%string) then (- y)%f else (#0)%f) / lam).
  { intros x y ->. destruct (text_eqb _ _); auto. destruct (text_eqb _ _); R_ops; unfold Rdiv; ring. }
  unfold pulse_p. rewrite Hdi, Hrl, Hru. unfold R_to_r. rewrite Gc, Gc'. R_ops. rewrite tol_eq. destruct (Hn ix X ltac:(rewrite En; exact Hi) HX) as [->|[K1 K2]].
  - rewrite !Rminus_eq_0, !Rabs_R0. pose proof tol_pos. rewrite !Rltb_false by lra.
    assert (O : forall rl ru, ru <= 10 ^ 12 -> pulse_f rl ru (1 * powerRZ 10 12) = 0 /\ pulse_dr rl ru (1 * powerRZ 10 12) = 0).
    { intros rl ru Hr. assert (Q : 1 * powerRZ 10 12 = 10 ^ 12) by (rewrite Rmult_1_l; reflexivity). rewrite Q. rewrite pulse_f_eq, pulse_out, pulse_dr_out by auto. auto. }
    destruct Hu as [U1 U2]. destruct (O (pr_rl par) _ U1) as [-> Q1]. destruct (O (lam * pr_rl par) _ U2) as [-> Q2]. split; auto. apply D. rewrite Q1, Q2. unfold Rdiv. ring.
  - rewrite !Rltb_true by auto. replace (lam * X / (1 - lam * X / (lam * cl))) with (lam * (X / (1 - X / cl))) by (replace (lam * X / (lam * cl)) with (X / cl) by (field; split; lra); unfold Rdiv; ring).
    split; [apply pulse_f'|]. apply D. apply pulse_dr'.
Qed.

Definition P3 (st : list R * list R * R) : list R * list R * R := let '(f, p, mx) := st in (f, over lam p, mx).
Definition P2 (st : list R * list R) : list R * list R := let '(f, p) := st in (f, over lam p).
Lemma row_at ix it ip : (ix < nx)%nat -> (it < g_nlat g)%nat -> (ip < g_nphi g)%nat ->
  exists X t q, rad_pt (g_radial g) ix = Ok X /\ R_th_ph_at g ix it ip = Ok [X; t; q] /\ R_th_ph_at g' ix it ip = Ok [lam * X; t; q].
Proof.
  intros Hx Ht Hp. destruct same_fields as (E1 & E2 & _ & E3 & E4 & E6 & E5). destruct (gof_sizes b h cl Rmin Rmax nx g Hg) as (Eb & En & _ & El & Ep & _).
  pose proof (Grid_make_tables _ _ _ _ _ _ _ _ _ _ _ Hg) as T. destruct T as (_ & _ & _ & _ & _ & _ & _ & _ & _ & _ & _ & _ & T & _).
  pose proof (Grid_make_tables _ _ _ _ _ _ _ _ _ _ _ Hg') as T'. destruct T' as (_ & _ & _ & _ & _ & _ & _ & _ & _ & _ & _ & _ & T' & _).
  destruct (T ix it ip ltac:(congruence) ltac:(congruence) ltac:(congruence)) as (X1 & t1 & A1 & A2 & A3 & _).
  destruct (T' ix it ip ltac:(congruence) ltac:(congruence) ltac:(congruence)) as (X2 & t2 & Q1 & Q2 & Q3 & _).
  rewrite (rad_pt' ix X1 Hx A1) in Q1. apply Ok_inj in Q1. subst X2. rewrite E6, A2 in Q2. apply Ok_inj in Q2. subst t2. rewrite E6 in Q3.
  exists X1, t1, (sp_phi (g_sphere g) ip). split; auto. unfold R_th_ph_at, R_th_ph_i, indx_R_th_ph, vget. rewrite E1, E3, E4, Eb, El, Ep, A3, Q3. auto.
Qed.
Lemma vset_over j v x : vset (over lam v) j (x / lam) = (let! w := vset v j x in Ok (over lam w)).
Proof.
  unfold vset. rewrite over_length. destruct (j <? length v)%nat; auto. cbn [bind]. f_equal. revert j. induction v as [|y v IH]; intros [|j]; cbn; auto. f_equal. apply IH.
Qed.
Lemma vget_over j v : vget (over lam v) j = (let! x := vget v j in Ok (x / lam)).
Proof. unfold vget, over. rewrite nth_error_map. now destruct (nth_error v j). Qed.
Lemma loop_map {S T} (m : S -> T) (body : nat -> S -> res S) (body' : nat -> T -> res T) k : forall i s,
  (forall j s, (i <= j < i + k)%nat -> body' j (m s) = (let! x := body j s in Ok (m x))) ->
  loop k i body' (m s) = (let! x := loop k i body s in Ok (m x)).
Proof.
  induction k as [|k IH]; intros i s H; [reflexivity|]. cbn [loop]. rewrite H by lia. destruct (body i s) as [x| | | |]; cbn [bind]; auto. apply IH. intros j s' Hj. apply H. lia.
Qed.
Lemma for_map {S T} (m : S -> T) lo hi (body : nat -> S -> res S) (body' : nat -> T -> res T) s :
  (forall j s, (lo <= j < hi)%nat -> body' j (m s) = (let! x := body j s in Ok (m x))) ->
  for_ lo hi body' (m s) = (let! x := for_ lo hi body s in Ok (m x)).
Proof. intros H. unfold for_. apply loop_map. intros j s' Hj. apply H. lia. Qed.
Lemma pulse_pt' ylm ix it ip st : (ix < nx)%nat -> (it < g_nlat g)%nat -> (ip < g_nphi g)%nat ->
  pulse_pt g' par' ylm ix it ip (P3 st) = (let! x := pulse_pt g par ylm ix it ip st in Ok (P3 x)).
Proof.
  intros Hx Ht Hp. destruct (row_at ix it ip Hx Ht Hp) as (X & t & q & HX & R1 & R2). destruct (pulse_node ix X Hx HX) as [F1 F2].
  destruct same_fields as (E1 & E2 & _ & E3 & E4 & E6 & E5). destruct st as [[f p] mx]. unfold pulse_pt, P3.
  assert (Ij : indx_R_th_ph g' ix it ip = indx_R_th_ph g ix it ip) by (unfold indx_R_th_ph; now rewrite E1, E3, E4).
  assert (It : indx_th_ph g' it ip = indx_th_ph g it ip) by (unfold indx_th_ph; now rewrite E1, E3, E4).
  rewrite R1, R2, Ij, It. cbn [bind]. unfold vget at 1 6. cbn [nth_error bind]. rewrite F1, F2. set (j := indx_R_th_ph g ix it ip).
  set (a := pulse_f _ _ _). set (c := pulse_p _ _ _ _).
  destruct (vset f j a) as [f1| | | |]; cbn [bind]; auto. rewrite vset_over. destruct (vset p j c) as [p1| | | |]; cbn [bind]; auto.
  destruct (vget ylm _) as [y| | | |]; cbn [bind]; auto. destruct (vget f1 j) as [x| | | |]; cbn [bind]; auto. destruct (vset f1 j _) as [f2| | | |]; cbn [bind]; auto.
  rewrite vget_over. destruct (vget p1 j) as [z| | | |]; cbn [bind]; auto. R_ops. replace (z / lam * y) with (z * y / lam) by (unfold Rdiv; ring). rewrite vset_over.
  destruct (vset p1 j _) as [p2| | | |]; cbn [bind]; auto. destruct (vget f2 j) as [x2| | | |]; cbn [bind]; auto.
Qed.
Lemma rescale' s st : rescale g' s (P2 st) = (let! x := rescale g s st in Ok (P2 x)).
Proof.
  destruct same_fields as (E1 & E2 & _ & E3 & E4 & E6 & E5). unfold rescale. rewrite E2, E3, E4.
  apply for_map. intros ix st1 Hx. apply for_map. intros ip st2 Hp. apply for_map. intros it [f p] Ht. unfold P2.
  assert (Ij : indx_R_th_ph g' ix it ip = indx_R_th_ph g ix it ip) by (unfold indx_R_th_ph; now rewrite E1, E3, E4). rewrite Ij. set (j := indx_R_th_ph g ix it ip).
  destruct (vget f j) as [x| | | |]; cbn [bind]; auto. destruct (vset f j _) as [f2| | | |]; cbn [bind]; auto.
  rewrite vget_over. destruct (vget p j) as [z| | | |]; cbn [bind]; auto. R_ops. replace (z / lam * s) with (z * s / lam) by (unfold Rdiv; ring). rewrite vset_over.
  destruct (vset p j _) as [p2| | | |]; cbn [bind]; auto.
Qed.
(** the pulse: the same field, its time derivative divided by the unit *)
Theorem C91_pulse f q f1 q1 : compact_pulse par g f q = Ok (f1, q1) -> compact_pulse par' g' f (over lam q) = Ok (f1, over lam q1).
Proof.
  intros E. enough (Q : compact_pulse par' g' f (over lam q) = (let! x := compact_pulse par g f q in Ok (P2 x))) by (rewrite Q, E; reflexivity). clear E.
  destruct same_fields as (E1 & E2 & _ & E3 & E4 & E6 & E5). destruct (gof_sizes b h cl Rmin Rmax nx g Hg) as (Eb & En & _ & El & Ep & _).
  unfold compact_pulse. rewrite E1, E6, Hla, Hma, E2, E3, E4, Ham. destruct (compute_ylm _ _ _ _) as [ylm| | | |]; cbn [bind]; auto.
  change (f, over lam q, (#0)%f) with (P3 (f, q, (#0)%f)).
  rewrite (for_map P3 0 (wsub (g_nx g) 1) (fun ix st => for_ 0 (g_nphi g) (fun ip st => for_ 0 (g_nlat g) (fun it st => pulse_pt g par ylm ix it ip st) st) st)).
  - destruct (for_ 0 (wsub (g_nx g) 1) _ _) as [[[f2 p2] mx]| | | |]; cbn [bind P3]; auto. destruct (_ <? _)%f; auto. exact (rescale' _ (f2, p2)).
  - assert (Hx1 : (1 <= nx)%nat). { destruct (use_cheb b) eqn:E; [specialize (H2 eq_refl)|specialize (H8 eq_refl)]; lia. }
    intros ix st Hx. rewrite wsub_le in Hx by lia. apply for_map. intros ip st2 Hp. apply for_map. intros it st3 Ht. apply pulse_pt'; lia.
Qed.
End Pulse.
End Two.
