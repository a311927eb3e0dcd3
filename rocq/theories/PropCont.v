(** * Property C67: on resolved data the evolution equations are evaluated exactly.
    Combines the radial scheme (C21), the spherical operators (C28, C29, C33) and the algebra of the
    right-hand side (C37) into one statement about the continuum function that the arrays sample:
    no discrete operator appears in the conclusion. *)
From Coq Require Import Reals Lra.
From Coquelicot Require Import Coquelicot.
From Verif Require Import Base BaseLemmas ForList Arith MFd MCheb MSphere MGrid MParams MField MEom Spec SphereSpec GridSpec LegSpec EomSpec ContSpec RkSpec
  PGrid PTables PMake PSum PFdR PropTables PSphere PSphere2 PSphereR PropSphere PropLadder PLeg PSphereD PropSphereD TruncSpec PropTrunc PGridOp PropGridOp PRad PropRad
  PropGridFilter PConc PEom PEomOk PEomR PropEom PCont.
Local Open Scope R_scope.

Section Cont.
Variables (b : build) (h : sht R) (cl Rmn Rmx : R) (nx : nat) (g : grid R) (par : params R) (e0 : eom R) (s : scratch R).
(** the transforms are the spherical-harmonic transforms and no latitude node is a pole *)
Hypothesis Hlaw : lawful b h Ylm_profile.
Hypothesis Htl : tlawful b h Ylm_profile.
Hypothesis Hsz : ((s_lmax h - s_mmax h) * (s_lmax h - s_mmax h) <= s_lmax h + s_mmax h + 1)%nat.
Hypothesis Hpol : off_poles h.
Hypothesis HL31 : (Z.of_nat (s_lmax h) < 2 ^ 31)%Z.
(** the grid and the equations object as main.cpp builds them; the scratch arrays may hold anything *)
Hypothesis Hg : grid_of b h cl Rmn Rmx nx g.
Hypothesis Hcl : cl <> 0.
Hypothesis Hne : Rmn <> Rmx.
Hypothesis Hnx : if use_cheb b then (2 <= nx)%nat else (8 <= nx)%nat.
Hypothesis Hpcl : pr_cl par = cl.
Hypothesis He : Eom_make g par = Ok e0.
Hypothesis Hs : scr_ok (g_n3 g) s.
Local Notation e := (with_scr e0 s).
Local Notation Ma := (pr_bh_mass par).
Local Notation a := (pr_bh_spin par).
Local Notation L := (s_lmax h).
Local Notation M := (s_mmax h).
(** degree of the polynomials in the compactified radius that the radial scheme differentiates exactly *)
Local Notation d := (if use_cheb b then (nx - 2)%nat else 7%nat).

Lemma nth_err (v : list R) i x : nth_error v i = Some x -> x = nth i v 0.
Proof. intros H. symmetry. now apply nth_error_nth. Qed.

Lemma r_of_inv X : X <> cl -> X / (1 - X / cl) / (1 + X / (1 - X / cl) / cl) = X.
Proof. intros H. assert (cl - X <> 0) by lra. field. repeat split; auto; lra. Qed.

(** all derivative arrays used by set_k, at one grid point *)
Lemma jet_exact psi pi f p : resolved L M d psi -> radial_poly d pi -> grid_sampled h g psi f -> grid_sampled h g pi p ->
  forall s', k_sections g f p s = Ok s' -> forall ix it ip X, (ix < g_nx g)%nat -> (it < g_nlat g)%nat -> (ip < g_nphi g)%nat -> rad_pt (g_radial g) ix = Ok X ->
  let i := indx_R_th_ph g ix it ip in
  nth i f 0 = psi X (grid_theta h it) (grid_phi h ip) /\ nth i p 0 = pi X (grid_theta h it) (grid_phi h ip) /\
  (X <> cl -> true_jet cl psi pi (X / (1 - X / cl)) (grid_theta h it) (grid_phi h ip) =
    Jet (nth i f 0) (nth i p 0) (nth i (s_dr_f s') 0) (nth i (s_dr_p s') 0) (nth i (s_dr_dr_f s') 0) (nth i (s_dphi_f s') 0)
        (nth i (s_dphi_dr_f s') 0) (nth i (s_lap_f s') 0) (nth i (s_sphereX_f s') 0)) /\
  (X = cl -> nth i (s_dr_f s') 0 = 0 /\ nth i (s_dr_dr_f s') 0 = 0).
Proof.
  intros Hpsi Hpi Hf Hp s' Hk ix it ip X Hx Ht Hph HX i.
  apply k_sections_inv in Hk. destruct Hk as (S1 & S2 & S3 & S4 & S5 & S6 & S7).
  destruct Hs as (A1 & A2 & A3 & A4 & A5 & A6 & A7).
  pose proof (resolved_radial_poly _ _ _ _ Hpsi) as Rpsi.
  pose proof Hpsi as Hres.
  destruct (angular_exact b h cl Rmn Rmx nx g Hg d psi f (s_dphi_f s) Hlaw Htl Hsz Hpol HL31 Hres Hf A5) as (x1 & xa1 & xb1 & E1 & _ & _ & G1 & _ & _).
  destruct (angular_exact b h cl Rmn Rmx nx g Hg d psi f (s_lap_f s) Hlaw Htl Hsz Hpol HL31 Hres Hf A2) as (xa2 & x2 & xb2 & _ & E2 & _ & _ & G2 & _).
  destruct (angular_exact b h cl Rmn Rmx nx g Hg d psi f (s_sphereX_f s) Hlaw Htl Hsz Hpol HL31 Hres Hf A7) as (xa3 & xb3 & x3 & _ & _ & E3 & _ & _ & G3).
  rewrite E1 in S4. injection S4 as S4. rewrite E2 in S7. injection S7 as S7. rewrite E3 in S6. injection S6 as S6. subst x1 x2 x3.
  destruct (radial_exact b h cl Rmn Rmx nx g Hg psi f (s_dr_f s) Hcl Hne Hnx Rpsi Hf A1) as (y1 & yb1 & F1 & _ & _ & _ & H1).
  destruct (radial_exact b h cl Rmn Rmx nx g Hg psi f (s_dr_dr_f s) Hcl Hne Hnx Rpsi Hf A4) as (yb2 & y2 & _ & F2 & _ & _ & H2).
  destruct (radial_exact b h cl Rmn Rmx nx g Hg pi p (s_dr_p s) Hcl Hne Hnx Hpi Hp A3) as (y3 & yb3 & F3 & _ & _ & _ & H3).
  destruct (radial_exact b h cl Rmn Rmx nx g Hg (fun X => d_phi (psi X)) (s_dphi_f s') (s_dphi_dr_f s) Hcl Hne Hnx
    (resolved_radial_poly _ _ _ _ (resolved_d_phi _ _ _ _ Hpsi)) G1 A6) as (y4 & yb4 & F4 & _ & _ & _ & H4).
  rewrite F1 in S1. injection S1 as S1. rewrite F2 in S3. injection S3 as S3. rewrite F3 in S2. injection S2 as S2. rewrite F4 in S5. injection S5 as S5. subst y1 y2 y3 y4.
  specialize (H1 ix it ip X Hx Ht Hph HX). specialize (H2 ix it ip X Hx Ht Hph HX). specialize (H3 ix it ip X Hx Ht Hph HX). specialize (H4 ix it ip X Hx Ht Hph HX).
  cbv zeta in H1, H2, H3, H4. fold i in H1, H2, H3, H4.
  destruct Hf as [_ Hf]. destruct Hp as [_ Hp]. destruct G1 as [_ G1]. destruct G2 as [_ G2]. destruct G3 as [_ G3].
  split; [now apply Hf|]. split; [now apply Hp|]. split.
  - intros HN. destruct H1 as [H1 _], H2 as [H2 _], H3 as [H3 _], H4 as [H4 _].
    destruct (H1 HN) as [-> _], (H2 HN) as [_ ->], (H3 HN) as [-> _], (H4 HN) as [-> _].
    unfold i. rewrite (Hf ix it ip X), (Hp ix it ip X), (G1 ix it ip X), (G2 ix it ip X), (G3 ix it ip X) by auto.
    unfold true_jet. unfold at_r at 1 2 6 8 9. rewrite r_of_inv by auto. reflexivity.
  - intros HC. destruct H1 as [_ H1], H2 as [_ H2]. split; [now apply H1|now apply H2].
Qed.

(** ** C67 *)
Theorem C67_right_hand_side_is_exact psi pi f p fk pk :
  0 < Ma -> Rabs a <= Ma -> clean_spin Ma a ->
  resolved L M d psi -> radial_poly d pi ->
  grid_sampled h g psi f -> grid_sampled h g pi p -> length fk = g_n3 g -> length pk = g_n3 g ->
  exists fk' pk' e', set_k g e f p fk pk = Ok (fk', pk', e') /\
  forall ix it ip X, (ix < g_nx g)%nat -> (it < g_nlat g)%nat -> (ip < g_nphi g)%nat -> rad_pt (g_radial g) ix = Ok X ->
    let i := indx_R_th_ph g ix it ip in let th := grid_theta h it in let ph := grid_phi h ip in
    let r := X / (1 - X / cl) in let q := nth i pk' 0 in let t := theory_of par in
    nth i fk' 0 = pi X th ph /\
    (psi X th ph + 1 <> 0 ->
     (0 < X -> 1 / 10 ^ 16 < cl - X -> kfun t (psi X th ph) <> 0 ->
      field_equation t Ma a r th q (true_jet cl psi pi r th ph) /\
      forall q', field_equation t Ma a r th q' (true_jet cl psi pi r th ph) -> q' = q) /\
     (X = cl ->
      q = - (1 / 2) * (Derive (kfun t) (psi X th ph) / kfun t (psi X th ph)) * pi X th ph ^ 2
          - 1 / kfun t (psi X th ph) * Derive (Vfun t) (psi X th ph))).
Proof.
  intros HM Ha Hc Hpsi Hpi Hf Hp Lfk Lpk.
  assert (H8 : use_cheb b = false -> (8 <= nx)%nat) by (intros E; now rewrite E in Hnx).
  assert (H2 : use_cheb b = true -> (2 <= nx)%nat) by (intros E; now rewrite E in Hnx).
  pose proof Hf as [Lf _]. pose proof Hp as [Lp _]. pose proof (lw_shapes b h _ Hlaw) as Hsh.
  pose proof (Eom_make_ok _ _ _ He) as Oe.
  assert (Oe' : eom_ok g e) by (destruct Oe as (? & ? & _); unfold eom_ok; cbn; auto).
  destruct (set_k_total b h cl Rmn Rmx nx g Hg Hsh HL31 H8 H2 e f p fk pk Oe' Lf Lp Lfk Lpk) as (pk' & E & Lpk').
  eexists p, pk', _. split; [exact E|]. intros ix it ip X Hx Ht Hph HX i th ph r q t.
  destruct (eom_point b h cl Rmn Rmx nx g par e0 Hg Hpcl He ix it ip Hx Ht Hph) as (X' & th' & EX & Eth & Ec & Hi).
  rewrite HX in EX. injection EX as <-. rewrite (gtheta b h cl Rmn Rmx nx g Hg it th' Ht (sh_ct _ Hsh) Eth) in Ec. clear th' Eth. fold th in Ec. fold i in Ec, Hi.
  destruct (set_k_inv _ _ _ _ _ _ _ _ _ E) as (s' & Hk & _ & _ & _ & _ & H).
  cbn [e_scr with_scr] in Hk.
  destruct (H i) as (fi & qi & c & d1 & d2 & d3 & d4 & d5 & d6 & d7 & B1 & B2 & B3 & B4 & B5 & B6 & B7 & B8 & B9 & B10 & B11 & B12).
  { destruct Oe as (En & _). cbn. lia. }
  assert (Ecc : Some c = Some (coef_at Ma a (inv_r_at g cl X) th)) by (cbn in B3; congruence). injection Ecc as ->.
  apply nth_err in B1, B2, B4, B5, B6, B7, B8, B9, B10, B11, B12. fold q in B12.
  destruct (jet_exact psi pi f p Hpsi Hpi Hf Hp s' Hk ix it ip X Hx Ht Hph HX) as (J1 & J2 & J3 & J4). cbv zeta in J1, J2, J3, J4.
  fold i in J1, J2, J3, J4. fold th ph in J1, J2, J3. fold r in J3.
  rewrite <- B1, <- B2, <- B4, <- B5, <- B6, <- B7, <- B8, <- B9, <- B10 in J3. rewrite <- B4, <- B6 in J4. rewrite <- B1 in J1. rewrite <- B2 in J2.
  destruct (eom_theory g par e0 He) as [Et _].
  split; [congruence|]. intros Hps. split.
  - intros H0 H1 Hkf. assert (HN : X <> cl). { pose proof tol_pos. lra. }
    destruct (inv_r_finite b h cl Rmn Rmx nx g Hg X H0 H1) as [Ei Hr]. fold r in Ei, Hr. rewrite Ei in B12.
    specialize (J3 HN). rewrite J3. unfold t. rewrite <- Et. rewrite <- J1 in Hps, Hkf.
    assert (HH := p_rhs_solves e0 Ma a r th (Jet fi qi d1 d2 d3 d4 d5 d6 d7) HM Ha Hc Hr). cbn [EomSpec.psi psi_v psi_r psi_vr psi_rr psi_ph psi_rph lap gradsq] in HH.
    rewrite Et in HH. specialize (HH Hkf Hps). rewrite Et. split.
    + apply HH. symmetry. exact B12.
    + intros q' Hq'. apply HH in Hq'. rewrite Hq'. exact B12.
  - intros HC. destruct (J4 HC) as [-> ->]. rewrite (inv_r_infinite cl g X), coef_infty in B12.
    2:{ subst X. rewrite Rminus_diag_eq, Rabs_R0 by auto. apply tol_pos. }
    rewrite <- J1, <- J2. rewrite <- J1 in Hps. rewrite <- B12. unfold t. rewrite <- Et.
    unfold p_rhs. cbn [c_pre c_p c_dr_f c_dr_p c_dr_dr_f c_dphi_dr_f c_lap_f c_p_p c_p_dr_f c_dr_f_dr_f c_dr_f_dphi_f c_sphereX_f].
    change (kprime e) with (kprime e0). change (inverse_k e) with (inverse_k e0). change (vprime e) with (vprime e0).
    rewrite inverse_k_value, vprime_value, (is_derive_unique _ _ _ (kprime_derive e0 fi Hps)). R_ops. rewrite half_eq.
    generalize (kfun (theory_e e0) fi) (kprime e0 fi) (Derive (Vfun (theory_e e0)) fi). intros. unfold Rdiv. ring.
Qed.

(** ** C68: the energy density of resolved data *)
Theorem C68_energy_density_of_resolved_data psi pi f p rho :
  0 < Ma -> Rabs a <= Ma -> clean_spin Ma a ->
  resolved L M d psi -> grid_sampled h g psi f -> grid_sampled h g pi p -> length rho = g_n3 g ->
  exists rho' e', set_rho g e f p rho = Ok (rho', e') /\ length rho' = g_n3 g /\
  forall ix it ip X, (ix < g_nx g)%nat -> (it < g_nlat g)%nat -> (ip < g_nphi g)%nat -> rad_pt (g_radial g) ix = Ok X ->
    let i := indx_R_th_ph g ix it ip in let th := grid_theta h it in let ph := grid_phi h ip in
    let r := X / (1 - X / cl) in let q := nth i rho' 0 in let t := theory_of par in
    let doc := rho_doc t Ma a r th (true_jet cl psi pi r th ph) in let V := Vfun t (psi X th ph) in let k := kfun t (psi X th ph) in
    (0 < X -> 1 / 10 ^ 16 < cl - X -> q = V + (doc - V) / 2 /\ (0 <= k -> 0 <= V -> 0 <= q)) /\
    (X = cl -> q = V + k / 4 * pi X th ph ^ 2 /\ (0 <= k -> 0 <= V -> 0 <= q)).
Proof.
  intros HM Ha Hc Hpsi Hf Hp Lrho.
  assert (H8 : use_cheb b = false -> (8 <= nx)%nat) by (intros E; now rewrite E in Hnx).
  assert (H2 : use_cheb b = true -> (2 <= nx)%nat) by (intros E; now rewrite E in Hnx).
  pose proof Hf as [Lf _]. pose proof Hp as [Lp _]. pose proof (lw_shapes b h _ Hlaw) as Hsh.
  pose proof (Eom_make_ok _ _ _ He) as Oe.
  assert (Oe' : eom_ok g e) by (destruct Oe as (? & ? & _); unfold eom_ok; cbn; auto).
  destruct (set_rho_total b h cl Rmn Rmx nx g Hg Hsh HL31 H8 H2 e f p rho Oe' Lf Lp Lrho) as (rho' & e' & E & Lrho').
  exists rho', e'. split; [exact E|]. split; [tauto|]. intros ix it ip X Hx Ht Hph HX i th ph r q t doc V k.
  destruct (eom_point b h cl Rmn Rmx nx g par e0 Hg Hpcl He ix it ip Hx Ht Hph) as (X' & th' & EX & Eth & Ec & Hi).
  rewrite HX in EX. injection EX as <-. rewrite (gtheta b h cl Rmn Rmx nx g Hg it th' Ht (sh_ct _ Hsh) Eth) in Ec. clear th' Eth. fold th in Ec. fold i in Ec, Hi.
  destruct (set_rho_inv _ _ _ _ _ _ _ E) as (_ & drf & dph & sX & S1 & S2 & S3 & H).
  destruct (H i) as (fi & qi & c & d1 & d4 & d7 & B1 & B2 & B3 & B4 & B5 & B6 & B7).
  { destruct Oe as (En & _). cbn. lia. }
  assert (Ecc : Some c = Some (coef_at Ma a (inv_r_at g cl X) th)) by (cbn in B3; congruence). injection Ecc as ->.
  apply nth_err in B1, B2, B4, B5, B6, B7. fold q in B7.
  destruct Hs as (A1 & A2 & A3 & A4 & A5 & A6 & A7).
  pose proof (resolved_radial_poly _ _ _ _ Hpsi) as Rpsi.
  pose proof Hpsi as Hres.
  destruct (angular_exact b h cl Rmn Rmx nx g Hg d psi f (s_dphi_f s) Hlaw Htl Hsz Hpol HL31 Hres Hf A5) as (x1 & xa1 & xb1 & E1 & _ & _ & G1 & _ & _).
  destruct (angular_exact b h cl Rmn Rmx nx g Hg d psi f (s_sphereX_f s) Hlaw Htl Hsz Hpol HL31 Hres Hf A7) as (xa3 & xb3 & x3 & _ & _ & E3 & _ & _ & G3).
  destruct (radial_exact b h cl Rmn Rmx nx g Hg psi f (s_dr_f s) Hcl Hne Hnx Rpsi Hf A1) as (y1 & yb1 & F1 & _ & _ & _ & R1).
  cbn [e_scr with_scr] in S1, S2, S3. rewrite F1 in S1. rewrite E1 in S2. rewrite E3 in S3. injection S1 as <-. injection S2 as <-. injection S3 as <-.
  specialize (R1 ix it ip X Hx Ht Hph HX). cbv zeta in R1. fold i th ph r in R1.
  destruct Hf as [_ Hf], Hp as [_ Hp], G1 as [_ G1], G3 as [_ G3].
  assert (Kf : fi = psi X th ph) by (rewrite B1; unfold i; now apply Hf).
  assert (Kp : qi = pi X th ph) by (rewrite B2; unfold i; now apply Hp).
  assert (Kd : d4 = d_phi (psi X) th ph) by (rewrite B5; unfold i; now apply (G1 ix it ip X)).
  assert (Kg : d7 = gradient_squared (psi X) th ph) by (rewrite B6; unfold i; now apply (G3 ix it ip X)).
  assert (Hsin : sin th <> 0).
  { unfold th. apply (off_poles_sin h it Hpol). destruct (gof_sizes _ _ _ _ _ _ _ Hg) as (_ & _ & _ & Hn & _). lia. }
  assert (Kle : d4 ^ 2 <= sin th ^ 2 * d7 /\ 0 <= d7).
  { rewrite Kd, Kg. unfold gradient_squared. fold (d_phi (psi X)). set (u := d_theta (psi X) th ph). set (w := d_phi (psi X) th ph).
    pose proof (pow2_ge_0 u). pose proof (pow2_ge_0 w). pose proof (pow2_ge_0 (sin th)). assert (0 < sin th ^ 2) by (assert (sin th ^ 2 <> 0) by (now apply pow_nonzero); lra).
    assert (0 <= w ^ 2 / sin th ^ 2) by (apply Rmult_le_pos; [auto|left; apply Rinv_0_lt_compat; auto]). split; [|lra].
    rewrite Rmult_plus_distr_l. replace (sin th ^ 2 * (w ^ 2 / sin th ^ 2)) with (w ^ 2) by (field; auto).
    assert (0 <= sin th ^ 2 * u ^ 2) by (apply Rmult_le_pos; auto). lra. }
  destruct (eom_theory g par e0 He) as [Et _]. unfold rho_at in B7.
  change (e_k0 e) with (e_k0 e0) in B7. change (e_km1 e) with (e_km1 e0) in B7. change (e_k1 e) with (e_k1 e0) in B7. change (e_k2 e) with (e_k2 e0) in B7.
  change (e_v2 e) with (e_v2 e0) in B7. change (e_v3 e) with (e_v3 e0) in B7. change (e_v4 e) with (e_v4 e0) in B7.
  set (j := Jet fi qi d1 0 0 d4 0 0 d7).
  change (rho_at e0 (coef_at Ma a (inv_r_at g cl X) th) (EomSpec.psi j) (psi_v j) (psi_r j) (psi_ph j) (gradsq j) = q) in B7.
  split.
  - intros H0 H1. assert (HN : X <> cl). { pose proof tol_pos. lra. }
    destruct (inv_r_finite b h cl Rmn Rmx nx g Hg X H0 H1) as [Ei Hr]. fold r in Ei, Hr. rewrite Ei in B7. split.
    + rewrite <- B7, rho_value by auto. rewrite Et. fold t. unfold V. rewrite <- Kf. change (EomSpec.psi j) with fi.
      enough (rho_doc t Ma a r th j = doc) by congruence.
      unfold doc, rho_doc, true_jet. cbn [EomSpec.psi psi_v psi_r psi_ph gradsq j].
      destruct R1 as [R1 _]. destruct (R1 HN) as [R1' _]. rewrite <- R1', <- B4.
      assert (Q1 : at_r cl psi r = psi X) by (unfold at_r, r; rewrite r_of_inv by auto; reflexivity).
      assert (Q2 : at_r cl pi r = pi X) by (unfold at_r, r; rewrite r_of_inv by auto; reflexivity).
      rewrite Q1, Q2, <- Kf, <- Kp, <- Kd, <- Kg. reflexivity.
    + intros Hk HV. rewrite <- B7. apply rho_nonneg_finite; auto; rewrite ?Et; change (EomSpec.psi j) with fi; rewrite ?Kf; auto; apply Kle.
  - intros HC. rewrite (inv_r_infinite cl g X) in B7.
    2:{ subst X. rewrite Rminus_diag_eq, Rabs_R0 by auto. apply tol_pos. }
    split.
    + destruct R1 as [_ R1]. destruct (R1 HC) as [R1' _]. rewrite R1' in B4. rewrite <- B7. rewrite coef_infty. unfold rho_at.
      cbn [c_rho_vv c_rho_vr c_rho_rr c_rho_rphi c_rho_sphereX EomSpec.psi psi_v psi_r psi_ph gradsq j]. R_ops.
      change (e_k0 e0 + e_km1 e0 / (fi + 1) + e_k1 e0 * fi + e_k2 e0 / 2 * fi ^ 2) with (kfun (theory_e e0) fi).
      change (e_v2 e0 / 2 * fi ^ 2 + e_v3 e0 / 6 * fi ^ 3 + e_v4 e0 / 24 * fi ^ 4) with (Vfun (theory_e e0) fi).
      rewrite Et. fold t. rewrite B4. unfold V, k. rewrite <- Kf, <- Kp. clear. field.
    + intros Hk HV. rewrite <- B7. apply rho_nonneg_infinite; rewrite ?Et; change (EomSpec.psi j) with fi; rewrite ?Kf; auto.
Qed.
End Cont.
