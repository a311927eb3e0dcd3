(** * Properties C37 - C43: the equations of motion. *)
From Coq Require Import Reals Lra.
From Coquelicot Require Import Coquelicot.
From Verif Require Import Base BaseLemmas Arith MFd MCheb MSphere MGrid MParams MField MEom EomSpec SphereSpec GridSpec RkSpec
  PGrid PTables PMake PropTables PropGridOp PEom PEomOk PEomR.
Local Open Scope R_scope.

(** the parameters of the theory read from the parameter file *)
Definition theory_of (p : params R) : theory := Theory (pr_km1 p) (pr_k0 p) (pr_k1 p) (pr_k2 p) (pr_V2 p) (pr_V3 p) (pr_V4 p).

(** [j] collects, at array position [i], the value of the field, of its time derivative, and of the
    derivatives that the public operators of Grid compute from the two arrays (whatever buffers). *)
Definition is_jet (g : grid R) (f p : list R) (i : nat) (j : jet) : Prop :=
  exists b1 b2 b3 b4 b5 b6 b7 dr_f dr_p dr_dr_f dphi_f dphi_dr_f lap_f sX_f,
    set_partial_r g f b1 = Ok dr_f /\ set_partial_r g p b2 = Ok dr_p /\ set_partial2_r g f b3 = Ok dr_dr_f /\
    set_partial_phi g f b4 = Ok dphi_f /\ set_partial_r g dphi_f b5 = Ok dphi_dr_f /\
    set_spherical_lap g f b6 = Ok lap_f /\ set_sphereX g f b7 = Ok sX_f /\
    nth_error f i = Some (psi j) /\ nth_error p i = Some (psi_v j) /\
    nth_error dr_f i = Some (psi_r j) /\ nth_error dr_p i = Some (psi_vr j) /\ nth_error dr_dr_f i = Some (psi_rr j) /\
    nth_error dphi_f i = Some (psi_ph j) /\ nth_error dphi_dr_f i = Some (psi_rph j) /\
    nth_error lap_f i = Some (lap j) /\ nth_error sX_f i = Some (gradsq j).
(** the same for the derivatives set_rho uses *)
Definition is_jet1 (g : grid R) (f p : list R) (i : nat) (j : jet) : Prop :=
  exists b1 b4 b7 dr_f dphi_f sX_f,
    set_partial_r g f b1 = Ok dr_f /\ set_partial_phi g f b4 = Ok dphi_f /\ set_sphereX g f b7 = Ok sX_f /\
    nth_error f i = Some (psi j) /\ nth_error p i = Some (psi_v j) /\
    nth_error dr_f i = Some (psi_r j) /\ nth_error dphi_f i = Some (psi_ph j) /\ nth_error sX_f i = Some (gradsq j).

Section Eom.
Variables (b : build) (h : sht R) (cl Rmin Rmax : R) (nx : nat) (g : grid R) (p : params R) (e : eom R).
Hypothesis Hg : grid_of b h cl Rmin Rmax nx g.
Hypothesis Hcl : pr_cl p = cl.
Hypothesis He : Eom_make g p = Ok e.
Local Notation M := (pr_bh_mass p).
Local Notation a := (pr_bh_spin p).

Lemma eom_theory : theory_e e = theory_of p /\ e_n e = g_n3 g.
Proof. apply Eom_make_inv in He. destruct He as (cs & _ & -> & _). auto. Qed.
Lemma eom_point ix it ip : (ix < g_nx g)%nat -> (it < g_nlat g)%nat -> (ip < g_nphi g)%nat -> exists X th,
  rad_pt (g_radial g) ix = Ok X /\ sp_theta (g_sphere g) it = Ok th /\
  nth_error (e_coef e) (indx_R_th_ph g ix it ip) = Some (coef_at M a (inv_r_at g cl X) th) /\ (indx_R_th_ph g ix it ip < g_n3 g)%nat.
Proof.
  intros Hx Ht Hp. destruct (gof_sizes b h cl Rmin Rmax nx g Hg) as (Eb & En & _ & El & Ep & _).
  destruct (C06_tables _ _ _ _ _ _ _ _ _ _ _ Hg ix it ip) as (X & th & E1 & E2 & E3 & _); try congruence.
  apply Eom_make_inv in He. destruct He as (cs & _ & -> & H). destruct (H ix it ip Hx Ht Hp) as (row & X' & th' & F1 & F2 & F3 & F4).
  exists X, th. split; auto. split; auto. rewrite E3 in F1. injection F1 as <-. cbn in F2, F3. injection F2 as <-. injection F3 as <-.
  cbn [e_coef]. rewrite Hcl in F4. split; [exact F4|]. unfold indx_R_th_ph, g_n3. now apply ix_R_th_ph_lt.
Qed.
Lemma inv_r_finite X : 0 < X -> 1 / 10 ^ 16 < cl - X -> inv_r_at g cl X = / (X / (1 - X / cl)) /\ 0 < X / (1 - X / cl).
Proof.
  intros H0 H1. pose proof tol_pos as Ht. unfold inv_r_at, R_to_r. destruct (gof_sizes b h cl Rmin Rmax nx g Hg) as (_ & _ & _ & _ & _ & _ & _ & _ & _ & ->).
  R_ops. rewrite tol_eq. assert (E : Rabs (X - cl) = cl - X) by (rewrite Rabs_left; lra). rewrite E.
  rewrite Rltb_false by lra. rewrite Rltb_true by lra. split; [unfold Rdiv at 1; ring|].
  apply Rdiv_lt_0_compat; auto. assert (X / cl < 1); [|lra]. apply (Rmult_lt_reg_r cl); [lra|]. unfold Rdiv. rewrite Rmult_assoc, Rinv_l by lra. lra.
Qed.
Lemma inv_r_infinite X : Rabs (X - cl) < 1 / 10 ^ 16 -> inv_r_at g cl X = 0.
Proof. intros H. unfold inv_r_at. R_ops. rewrite tol_eq, Rltb_true by auto. reflexivity. Qed.

Lemma set_k_point f pf fk pk fk' pk' e' ix it ip : set_k g e f pf fk pk = Ok (fk', pk', e') ->
  (ix < g_nx g)%nat -> (it < g_nlat g)%nat -> (ip < g_nphi g)%nat -> exists X th j q,
  let i := indx_R_th_ph g ix it ip in
  rad_pt (g_radial g) ix = Ok X /\ sp_theta (g_sphere g) it = Ok th /\ is_jet g f pf i j /\
  nth_error fk' i = Some (psi_v j) /\ nth_error pk' i = Some q /\
  q = p_rhs e (coef_at M a (inv_r_at g cl X) th) (psi j) (psi_v j) (psi_r j) (psi_vr j) (psi_rr j) (psi_ph j) (psi_rph j) (lap j) (gradsq j).
Proof.
  intros Hk Hx Ht Hp. destruct (eom_point ix it ip Hx Ht Hp) as (X & th & E1 & E2 & E3 & Hi).
  destruct eom_theory as [_ En]. set (i := indx_R_th_ph g ix it ip) in *.
  destruct (set_k_inv _ _ _ _ _ _ _ _ _ Hk) as (s & Hs & _ & _ & _ & _ & H).
  destruct (H i) as (fi & pi & c & d1 & d2 & d3 & d4 & d5 & d6 & d7 & A1 & A2 & A3 & A4 & A5 & A6 & A7 & A8 & A9 & A10 & A11 & A12); [lia|].
  apply k_sections_inv in Hs. destruct Hs as (S1 & S2 & S3 & S4 & S5 & S6 & S7).
  exists X, th, (Jet fi pi d1 d2 d3 d4 d5 d6 d7), (p_rhs e c fi pi d1 d2 d3 d4 d5 d6 d7). cbn zeta.
  split; auto. split; auto. split; [|split; [exact A11|split; [exact A12|]]].
  - unfold is_jet. do 14 eexists. split; [exact S1|]. split; [exact S2|]. split; [exact S3|]. split; [exact S4|]. split; [exact S5|]. split; [exact S7|]. split; [exact S6|].
    cbn. auto 12.
  - assert (Ec : Some c = Some (coef_at M a (inv_r_at g cl X) th)) by congruence. injection Ec as ->. reflexivity.
Qed.

(** ** C37: at every grid point at finite radius the two slopes set_k returns are psi_v and the unique
    second time derivative for which the documented field equation holds. *)
Theorem C37_set_k_solves_field_equation f pf fk pk fk' pk' e' ix it ip :
  0 < M -> Rabs a <= M -> clean_spin M a ->
  set_k g e f pf fk pk = Ok (fk', pk', e') ->
  (ix < g_nx g)%nat -> (it < g_nlat g)%nat -> (ip < g_nphi g)%nat ->
  exists X th j q,
    let i := indx_R_th_ph g ix it ip in let r := X / (1 - X / cl) in
    rad_pt (g_radial g) ix = Ok X /\ sp_theta (g_sphere g) it = Ok th /\ is_jet g f pf i j /\
    nth_error fk' i = Some (psi_v j) /\ nth_error pk' i = Some q /\
    (0 < X -> 1 / 10 ^ 16 < cl - X -> kfun (theory_of p) (psi j) <> 0 -> psi j + 1 <> 0 ->
     field_equation (theory_of p) M a r th q j /\
     forall q', field_equation (theory_of p) M a r th q' j -> q' = q).
Proof.
  intros HM Ha Hc Hk Hx Ht Hp. destruct (set_k_point f pf fk pk fk' pk' e' ix it ip Hk Hx Ht Hp) as (X & th & j & q & A1 & A2 & A3 & A4 & A5 & Eq).
  exists X, th, j, q. cbn zeta. split; [exact A1|]. split; [exact A2|]. split; [exact A3|]. split; [exact A4|]. split; [exact A5|]. intros H0 H1 Hkf Hps.
  destruct (inv_r_finite X H0 H1) as [Ei Hr]. rewrite Ei in Eq. destruct eom_theory as [Et _]. rewrite <- Et in *.
  pose proof (p_rhs_solves e M a (X / (1 - X / cl)) th j HM Ha Hc Hr Hkf Hps) as HH. split.
  - apply HH. exact Eq.
  - intros q' Hq'. apply HH in Hq'. congruence.
Qed.

(** ** C39: at a grid point at infinity set_k returns the r -> infinity limit of that solution. *)
Theorem C39_set_k_at_infinity f pf fk pk fk' pk' e' ix it ip :
  set_k g e f pf fk pk = Ok (fk', pk', e') ->
  (ix < g_nx g)%nat -> (it < g_nlat g)%nat -> (ip < g_nphi g)%nat ->
  exists X th j q,
    let i := indx_R_th_ph g ix it ip in
    rad_pt (g_radial g) ix = Ok X /\ sp_theta (g_sphere g) it = Ok th /\ is_jet g f pf i j /\
    nth_error fk' i = Some (psi_v j) /\ nth_error pk' i = Some q /\
    (Rabs (X - cl) < 1 / 10 ^ 16 -> psi j + 1 <> 0 ->
     q = psi_rr j + 1 / 2 * (Derive (kfun (theory_of p)) (psi j) / kfun (theory_of p) (psi j)) * (psi_r j ^ 2 - psi_v j ^ 2)
         - 1 / kfun (theory_of p) (psi j) * Derive (Vfun (theory_of p)) (psi j)).
Proof.
  intros Hk Hx Ht Hp. destruct (set_k_point f pf fk pk fk' pk' e' ix it ip Hk Hx Ht Hp) as (X & th & j & q & A1 & A2 & A3 & A4 & A5 & Eq).
  exists X, th, j, q. cbn zeta. split; [exact A1|]. split; [exact A2|]. split; [exact A3|]. split; [exact A4|]. split; [exact A5|]. intros H1 Hps.
  rewrite inv_r_infinite, coef_infty in Eq by auto. destruct eom_theory as [Et _]. rewrite <- Et in *. rewrite Eq.
  unfold p_rhs. cbn [c_pre c_p c_dr_f c_dr_p c_dr_dr_f c_dphi_dr_f c_lap_f c_p_p c_p_dr_f c_dr_f_dr_f c_dr_f_dphi_f c_sphereX_f].
  rewrite inverse_k_value, vprime_value, (is_derive_unique _ _ _ (kprime_derive e (psi j) Hps)). R_ops. rewrite half_eq.
  generalize (kfun (theory_e e) (psi j)) (kprime e (psi j)) (Derive (Vfun (theory_e e)) (psi j)). intros. unfold Rdiv. ring.
Qed.

(** ** C41, C42: the energy density *)
Lemma set_rho_point f pf rho rho' e' ix it ip : set_rho g e f pf rho = Ok (rho', e') ->
  (ix < g_nx g)%nat -> (it < g_nlat g)%nat -> (ip < g_nphi g)%nat -> exists X th j q,
  let i := indx_R_th_ph g ix it ip in
  rad_pt (g_radial g) ix = Ok X /\ sp_theta (g_sphere g) it = Ok th /\ is_jet1 g f pf i j /\ nth_error rho' i = Some q /\
  q = rho_at e (coef_at M a (inv_r_at g cl X) th) (psi j) (psi_v j) (psi_r j) (psi_ph j) (gradsq j).
Proof.
  intros Hk Hx Ht Hp. destruct (eom_point ix it ip Hx Ht Hp) as (X & th & E1 & E2 & E3 & Hi).
  destruct eom_theory as [_ En]. set (i := indx_R_th_ph g ix it ip) in *.
  destruct (set_rho_inv _ _ _ _ _ _ _ Hk) as (_ & drf & dph & sX & S1 & S2 & S3 & H).
  destruct (H i) as (fi & pi & c & x & y & z & A1 & A2 & A3 & A4 & A5 & A6 & A7); [lia|].
  exists X, th, (Jet fi pi x 0 0 y 0 0 z), (rho_at e c fi pi x y z). cbn zeta. split; auto. split; auto. assert (Ec : Some c = Some (coef_at M a (inv_r_at g cl X) th)) by congruence. injection Ec as ->. split; [|split; [exact A7|reflexivity]].
  unfold is_jet1. do 6 eexists. split; [exact S1|]. split; [exact S2|]. split; [exact S3|]. cbn. auto.
Qed.
End Eom.

Lemma rho_value e M a r th j : 0 < M -> Rabs a <= M -> clean_spin M a -> 0 < r ->
  rho_at e (coef_at M a (/ r) th) (psi j) (psi_v j) (psi_r j) (psi_ph j) (gradsq j) =
  Vfun (theory_e e) (psi j) + (rho_doc (theory_e e) M a r th j - Vfun (theory_e e) (psi j)) / 2.
Proof.
  intros HM Ha Hc Hr. rewrite coef_value by auto. pose proof (Sigma_pos a r th Hr) as HS.
  assert (HSM : 2 * M * r + Sigma a r th <> 0) by (assert (0 < M * r) by nra; lra).
  unfold rho_at, rho_doc. cbn [c_rho_vv c_rho_vr c_rho_rr c_rho_rphi c_rho_sphereX]. unfold cA. R_ops.
  change (e_k0 e + e_km1 e / (psi j + 1) + e_k1 e * psi j + e_k2 e / 2 * psi j ^ 2) with (kfun (theory_e e) (psi j)).
  change (e_v2 e / 2 * psi j ^ 2 + e_v3 e / 6 * psi j ^ 3 + e_v4 e / 24 * psi j ^ 4) with (Vfun (theory_e e) (psi j)).
  generalize (kfun (theory_e e) (psi j)) (Vfun (theory_e e) (psi j)). intros k V. field. split; lra.
Qed.

(** the pointwise facts behind C42 *)
Lemma rho_nonneg_finite e M a r th j : 0 < M -> Rabs a <= M -> clean_spin M a -> 0 < r ->
  0 <= kfun (theory_e e) (psi j) -> 0 <= Vfun (theory_e e) (psi j) -> psi_ph j ^ 2 <= sin th ^ 2 * gradsq j -> 0 <= gradsq j ->
  0 <= rho_at e (coef_at M a (/ r) th) (psi j) (psi_v j) (psi_r j) (psi_ph j) (gradsq j).
Proof.
    intros HM Ha Hc Hr Hkf HV Hphi HG. rewrite rho_value by auto.
    unfold rho_doc. set (V := Vfun _ _) in *. set (k := kfun _ _) in *.
    match goal with |- 0 <= V + (k * (1 / 2) * ?K + V - V) / 2 => assert (HK : 0 <= K) end.
    { pose proof (Sigma_pos a r th Hr) as HS.
      set (B := 2 * M * r / Sigma a r th).
      assert (HB : 0 <= B). { unfold B. apply Rmult_le_pos; [nra|left; apply Rinv_0_lt_compat; auto]. }
      assert (Es : sin th ^ 2 = 1 - cos th ^ 2). { pose proof (sin2_cos2 th). unfold Rsqr in *. simpl. lra. }
      set (s2 := sin th ^ 2) in *. assert (Hs2 : 0 <= s2) by apply pow2_ge_0.
      assert (Er : r ^ 2 + a ^ 2 = Sigma a r th + a ^ 2 * s2) by (unfold Sigma; rewrite Es; ring).
      set (x := psi_v j). set (y := psi_r j) in *. set (z := psi_ph j) in *. set (G := gradsq j) in *.
      match goal with |- 0 <= ?K => replace K with
        (((1 + B) * x ^ 2 + 2 * B * x * y + ((1 + B) - 2 * B / (1 + B)) * y ^ 2) + / Sigma a r th * (G + 2 * (a * y * z) + a ^ 2 * s2 * y ^ 2)) end.
      - apply Rplus_le_le_0_compat.
        + assert (P : (1 + B) * ((1 + B) * x ^ 2 + 2 * B * x * y + ((1 + B) - 2 * B / (1 + B)) * y ^ 2) = ((1 + B) * x + B * y) ^ 2 + y ^ 2) by (field; lra).
          assert (0 <= ((1 + B) * x + B * y) ^ 2 + y ^ 2) by (apply Rplus_le_le_0_compat; apply pow2_ge_0).
          apply (Rmult_le_reg_l (1 + B)); [lra|]. rewrite Rmult_0_r, P. auto.
        + apply Rmult_le_pos; [left; apply Rinv_0_lt_compat; auto|].
          assert (Hz : (a * y * z) ^ 2 <= G * (a ^ 2 * s2 * y ^ 2)).
          { replace ((a * y * z) ^ 2) with ((a * y) ^ 2 * z ^ 2) by ring. replace (G * (a ^ 2 * s2 * y ^ 2)) with ((a * y) ^ 2 * (s2 * G)) by ring.
            apply Rmult_le_compat_l; [apply pow2_ge_0|auto]. }
          assert (HW : 0 <= a ^ 2 * s2 * y ^ 2). { apply Rmult_le_pos; [apply Rmult_le_pos; auto|]; apply pow2_ge_0. }
          set (W := a ^ 2 * s2 * y ^ 2) in *. set (Z := a * y * z) in *. clearbody W Z G.
          destruct (Rle_lt_dec 0 (G + 2 * Z + W)); auto. exfalso.
          assert (P1 : 0 < (- (2 * Z) - (G + W)) * (- (2 * Z) + (G + W))) by (apply Rmult_lt_0_compat; lra).
          pose proof (pow2_ge_0 (G - W)). nra.
      - unfold B. replace (r ^ 2 + 2 * M * r + a ^ 2) with (Sigma a r th + a ^ 2 * s2 + 2 * M * r) by lra. assert (0 < M * r) by nra. field. repeat split; lra. }
    match type of HK with 0 <= ?K => assert (0 <= k * K) by (apply Rmult_le_pos; auto); set (KK := K) in *; clearbody KK end. lra.
Qed.
Lemma rho_nonneg_infinite e M a th j : 0 <= kfun (theory_e e) (psi j) -> 0 <= Vfun (theory_e e) (psi j) ->
  0 <= rho_at e (coef_at M a 0 th) (psi j) (psi_v j) (psi_r j) (psi_ph j) (gradsq j).
Proof.
    intros Hkf HV.
    rewrite coef_infty. unfold rho_at. cbn [c_rho_vv c_rho_vr c_rho_rr c_rho_rphi c_rho_sphereX]. R_ops.
    change (e_k0 e + e_km1 e / (psi j + 1) + e_k1 e * psi j + e_k2 e / 2 * psi j ^ 2) with (kfun (theory_e e) (psi j)).
    change (e_v2 e / 2 * psi j ^ 2 + e_v3 e / 6 * psi j ^ 3 + e_v4 e / 24 * psi j ^ 4) with (Vfun (theory_e e) (psi j)).
    set (k := kfun _ _) in *. set (V := Vfun _ _) in *. pose proof (pow2_ge_0 (psi_v j)). pose proof (pow2_ge_0 (psi_r j)).
    assert (0 <= k * (psi_v j ^ 2 + psi_r j ^ 2)) by (apply Rmult_le_pos; lra). nra.
Qed.

Section Rho.
Variables (b : build) (h : sht R) (cl Rmin Rmax : R) (nx : nat) (g : grid R) (p : params R) (e : eom R).
Hypothesis Hg : grid_of b h cl Rmin Rmax nx g.
Hypothesis Hcl : pr_cl p = cl.
Hypothesis He : Eom_make g p = Ok e.
Local Notation M := (pr_bh_mass p).
Local Notation a := (pr_bh_spin p).

(** What set_rho returns: only half of the documented kinetic part is added to V. *)
Theorem C41_set_rho_value f pf rho rho' e' ix it ip :
  0 < M -> Rabs a <= M -> clean_spin M a ->
  set_rho g e f pf rho = Ok (rho', e') ->
  (ix < g_nx g)%nat -> (it < g_nlat g)%nat -> (ip < g_nphi g)%nat ->
  exists X th j q,
    let i := indx_R_th_ph g ix it ip in let r := X / (1 - X / cl) in
    let doc := rho_doc (theory_of p) M a r th j in let V := Vfun (theory_of p) (psi j) in
    rad_pt (g_radial g) ix = Ok X /\ sp_theta (g_sphere g) it = Ok th /\ is_jet1 g f pf i j /\ nth_error rho' i = Some q /\
    (0 < X -> 1 / 10 ^ 16 < cl - X -> q = V + (doc - V) / 2 /\ (q = doc <-> doc = V)).
Proof.
  intros HM Ha Hc Hk Hx Ht Hp. destruct (set_rho_point b h cl Rmin Rmax nx g p e Hg Hcl He f pf rho rho' e' ix it ip Hk Hx Ht Hp) as (X & th & j & q & A1 & A2 & A3 & A4 & Eq).
  exists X, th, j, q. cbn zeta. split; [exact A1|]. split; [exact A2|]. split; [exact A3|]. split; [exact A4|]. intros H0 H1.
  destruct (inv_r_finite b h cl Rmin Rmax nx g Hg X H0 H1) as [Ei Hr]. rewrite Ei in Eq. destruct (eom_theory g p e He) as [Et _]. rewrite <- Et in *.
  rewrite rho_value in Eq by auto. split; auto. rewrite Eq. split; intros; lra.
Qed.

(** C42: healthy theories have a non-negative reported density everywhere, also at infinity. *)
Theorem C42_set_rho_nonneg f pf rho rho' e' ix it ip :
  0 < M -> Rabs a <= M -> clean_spin M a ->
  set_rho g e f pf rho = Ok (rho', e') ->
  (ix < g_nx g)%nat -> (it < g_nlat g)%nat -> (ip < g_nphi g)%nat ->
  exists X th j q,
    let i := indx_R_th_ph g ix it ip in
    rad_pt (g_radial g) ix = Ok X /\ sp_theta (g_sphere g) it = Ok th /\ is_jet1 g f pf i j /\ nth_error rho' i = Some q /\
    ((0 < X /\ 1 / 10 ^ 16 < cl - X) \/ Rabs (X - cl) < 1 / 10 ^ 16 ->
     0 <= kfun (theory_of p) (psi j) -> 0 <= Vfun (theory_of p) (psi j) -> psi_ph j ^ 2 <= sin th ^ 2 * gradsq j ->
     0 <= gradsq j -> 0 <= q).
Proof.
  intros HM Ha Hc Hk Hx Ht Hp. destruct (set_rho_point b h cl Rmin Rmax nx g p e Hg Hcl He f pf rho rho' e' ix it ip Hk Hx Ht Hp) as (X & th & j & q & A1 & A2 & A3 & A4 & Eq).
  exists X, th, j, q. cbn zeta. split; [exact A1|]. split; [exact A2|]. split; [exact A3|]. split; [exact A4|]. intros HX Hkf HV Hphi HG.
  destruct (eom_theory g p e He) as [Et _]. rewrite <- Et in *. rewrite Eq. destruct HX as [[H0 H1]|H1].
  - destruct (inv_r_finite b h cl Rmin Rmax nx g Hg X H0 H1) as [Ei Hr]. rewrite Ei. now apply rho_nonneg_finite.
  - rewrite inv_r_infinite by auto. now apply rho_nonneg_infinite.
Qed.
End Rho.

(** ** C38: the horizon radii and Delta, as the code computes them from (m, a), in every branch *)
Theorem C38_horizons M a : 0 < M -> Rabs a <= M -> clean_spin M a ->
  hor_p M a = r_plus M a /\ hor_m M a = r_minus M a /\
  0 <= r_minus M a <= r_plus M a /\ Delta M a (r_plus M a) = 0 /\ Delta M a (r_minus M a) = 0.
Proof.
  intros HM Ha Hc. destruct (hor_values M a HM Ha Hc) as [E1 E2]. split; auto. split; auto.
  pose proof (sqrt_spin_le M a HM Ha) as Hs. assert (Hr0 : 0 <= sqrt (M ^ 2 - a ^ 2)) by apply sqrt_pos.
  assert (Hle : sqrt (M ^ 2 - a ^ 2) <= M).
  { rewrite <- (sqrt_pow2 M) at 2 by lra. apply sqrt_le_1_alt. pose proof (pow2_ge_0 a). lra. }
  split; [unfold r_plus, r_minus; lra|]. rewrite !Delta_roots by auto. split; ring.
Qed.
(** the code's Delta (a function of 1/r) is the documented Delta over r^2: zero on the horizon,
    positive outside *)
Theorem C38_Delta M a r : 0 < M -> Rabs a <= M -> clean_spin M a -> 0 < r ->
  Delta_ M a (/ r) = Delta M a r / r ^ 2 /\
  (r = r_plus M a -> Delta_ M a (/ r) = 0) /\ (r_plus M a < r -> 0 < Delta_ M a (/ r)).
Proof.
  intros HM Ha Hc Hr. rewrite Delta_value by (auto; lra). split; auto.
  destruct (C38_horizons M a HM Ha Hc) as (_ & _ & Hle & Hz & _).
  split; [intros ->; rewrite Hz; unfold Rdiv; ring|]. intros Hgt. rewrite Delta_roots by auto. apply Rdiv_lt_0_compat; [|apply pow_lt; lra].
  apply Rmult_lt_0_compat; lra.
Qed.
(** inside the tolerance windows Delta is slightly wrong: the exact error *)
Theorem C38_tolerance_windows M a r : 0 < M -> Rabs a <= M -> 0 < r ->
  (Rabs (M - Rabs a) < 1 / 10 ^ 16 -> Delta_ M a (/ r) - Delta M a r / r ^ 2 = (M ^ 2 - a ^ 2) / r ^ 2) /\
  (1 / 10 ^ 16 <= Rabs (M - Rabs a) -> Rabs a < 1 / 10 ^ 16 -> Delta_ M a (/ r) - Delta M a r / r ^ 2 = - (a ^ 2) / (2 * M * r)).
Proof.
  intros HM Ha Hr. unfold Delta_, hor_m, hor_p, Delta. R_ops. rewrite tol_eq. split.
  - intros H. rewrite Rltb_true by auto. field. lra.
  - intros H H'. rewrite (Rltb_false (Rabs (M - _))) by auto. rewrite Rltb_true by auto. field. lra.
Qed.
Example C38_nonvacuous : clean_spin 1 0 /\ clean_spin 1 1 /\ clean_spin (1/2) (-(1/2)) /\ clean_spin 1 (7 / 10) /\ r_plus 5 3 = 9 /\ r_minus 5 3 = 1.
Proof.
  assert (T : 1 / 10 ^ 16 <= 1 / 10). { unfold Rdiv. rewrite !Rmult_1_l. apply Rinv_le_contravar; [lra|]. rewrite <- (pow_1 10) at 1. apply Rle_pow; [lra|lia]. }
  assert (T0 : 0 < 1 / 10 ^ 16) by apply tol_pos.
  unfold clean_spin, r_plus, r_minus. split; [|split; [|split; [|split]]].
  - right. rewrite Rabs_R0, Rminus_0_r, Rabs_R1. split; [lra|auto].
  - left. apply Rabs_R1.
  - left. rewrite Rabs_Ropp. apply Rabs_pos_eq. lra.
  - right. rewrite (Rabs_pos_eq (7 / 10)) by lra. split; [rewrite Rabs_pos_eq; lra|right; lra].
  - replace (5 ^ 2 - 3 ^ 2) with (4 ^ 2) by ring. rewrite sqrt_pow2 by lra. lra.
Qed.

(** ** C39: the value at infinity is the limit of the solutions of the field equation *)
Theorem C39_limit_of_solutions t M a th j (q : R -> R) : 0 < M -> kfun t (psi j) <> 0 -> psi j + 1 <> 0 ->
  (forall r, 0 < r -> field_equation t M a r th (q r) j) ->
  is_lim q p_infty (psi_rr j + 1 / 2 * (Derive (kfun t) (psi j) / kfun t (psi j)) * (psi_r j ^ 2 - psi_v j ^ 2)
         - 1 / kfun t (psi j) * Derive (Vfun t) (psi j)).
Proof.
  intros HM Hk Hp Hq.
  set (K := kfun t (psi j)) in *. set (DK := Derive (kfun t) (psi j)). set (DV := Derive (Vfun t) (psi j)).
  pose (hh := fun x : R => let s := 1 + x ^ 2 * a ^ 2 * cos th ^ 2 in
     (4 * M * x * psi_vr j + (1 - 2 * M * x + a ^ 2 * x ^ 2) * psi_rr j + 2 * a * x ^ 2 * psi_rph j + x ^ 2 * lap j
      + 2 * M * x ^ 2 * psi_v j + 2 * (x - M * x ^ 2) * psi_r j
      + 1 / 2 * (DK / K) * (- (s + 2 * M * x) * psi_v j ^ 2 + 4 * M * x * psi_v j * psi_r j + (1 - 2 * M * x + a ^ 2 * x ^ 2) * psi_r j ^ 2
          + 2 * a * x ^ 2 * psi_r j * psi_ph j + x ^ 2 * gradsq j) - s * (1 / K * DV)) / (s + 2 * M * x)).
  assert (E0 : hh 0 = psi_rr j + 1 / 2 * (DK / K) * (psi_r j ^ 2 - psi_v j ^ 2) - 1 / K * DV).
  { unfold hh. cbv zeta. field. auto. }
  rewrite <- E0. apply (is_lim_ext_loc (fun r => hh (/ r))).
  - exists 1. intros r Hr. assert (Hr0 : 0 < r) by lra. specialize (Hq r Hr0). unfold field_equation in Hq. fold K DK DV in Hq.
    pose proof (Sigma_pos a r th Hr0) as HS. assert (HMr : 0 < M * r) by nra.
    assert (ES : 1 + (/ r) ^ 2 * a ^ 2 * cos th ^ 2 = Sigma a r th / r ^ 2) by (unfold Sigma; field; lra).
    unfold hh. cbv zeta. rewrite ES. unfold Box, grad2, Delta in Hq. set (S := Sigma a r th) in *.
    apply (Rmult_eq_reg_l ((S + 2 * M * r) / S)); [|apply Rgt_not_eq; apply Rdiv_lt_0_compat; lra].
    clearbody K DK DV S.
    match type of Hq with ?L = 0 => match goal with |- ?X = ?Y => assert (E : X - Y = L) end end.
    { field. repeat split; try lra. }
    lra.
  - apply lim_inv_infty. unfold hh. auto_derive. repeat split; try lra. 
Qed.
(** each stored coefficient at infinity is the limit of its finite-radius values *)
Theorem C39_coefficients_are_limits M a th : forall c, In c [@c_pre R; @c_p R; @c_dr_f R; @c_dr_p R; @c_dr_dr_f R; @c_dphi_dr_f R; @c_lap_f R;
    @c_p_p R; @c_p_dr_f R; @c_dr_f_dr_f R; @c_dr_f_dphi_f R; @c_sphereX_f R; @c_rho_vv R; @c_rho_vr R; @c_rho_rr R; @c_rho_rphi R; @c_rho_sphereX R] ->
  is_lim (fun r => c (coef_at M a (/ r) th)) p_infty (c (coef_at M a 0 th)).
Proof.
  intros c Hc. apply (lim_inv_infty (fun x => c (coef_at M a x th))).
  repeat destruct Hc as [<-|Hc]; try contradiction; unfold coef_at, Sigma_, Delta_;
    cbn [c_pre c_p c_dr_f c_dr_p c_dr_dr_f c_dphi_dr_f c_lap_f c_p_p c_p_dr_f c_dr_f_dr_f c_dr_f_dphi_f c_sphereX_f c_rho_vv c_rho_vr c_rho_rr c_rho_rphi c_rho_sphereX];
    generalize (hor_p M a) (hor_m M a); intros hp hm; R_ops; auto_derive; repeat split; try lra; field_simplify; try lra.
Qed.

(** ** C40: k' and V' are the derivatives of the k and V that enter the energy density *)
Theorem C40_k_and_V e c x : x + 1 <> 0 ->
  is_derive (kfun (theory_e e)) x (kprime e x) /\
  inverse_k e x = / kfun (theory_e e) x /\
  (kfun (theory_e e) x <> 0 -> is_derive (Vfun (theory_e e)) x (kfun (theory_e e) x * vprime e x)) /\
  (forall p dr dphi X, rho_at e c x p dr dphi X =
     kfun (theory_e e) x / 2 * (c_rho_vv c * p ^ 2 + c_rho_vr c * p * dr + c_rho_rr c * dr ^ 2 + c_rho_rphi c * dr * dphi + c_rho_sphereX c * X)
     + Vfun (theory_e e) x).
Proof.
  intros H. split; [now apply kprime_derive|]. split; [apply inverse_k_value|]. split.
  - intros Hk. rewrite vprime_value, <- Rmult_assoc, Rinv_r, Rmult_1_l by auto. rewrite (is_derive_unique _ _ _ (V_derive _ x)). apply V_derive.
  - intros. unfold rho_at. R_ops. fold (theory_e e).
    change (e_k0 e + e_km1 e / (x + 1) + e_k1 e * x + e_k2 e / 2 * x ^ 2) with (kfun (theory_e e) x).
    change (e_v2 e / 2 * x ^ 2 + e_v3 e / 6 * x ^ 3 + e_v4 e / 24 * x ^ 4) with (Vfun (theory_e e) x). field.
Qed.
Example C40_nonvacuous : kfun (Theory 1 2 3 4 5 6 7) 1 = 2 + 1 / 2 + 3 + 2 /\ is_derive (kfun (Theory 1 2 3 4 5 6 7)) 1 (- (1 / 4) + 3 + 4).
Proof.
  split; [unfold kfun; cbn; lra|].
  replace (- (1 / 4) + 3 + 4) with (kprime (Eom 0 0 1 2 3 4 5 6 7 [] (Scr [] [] [] [] [] [] [])) 1) by (unfold kprime; cbn; lra).
  apply kprime_derive. lra.
Qed.

(** ** C41: the documented expression itself differs from n^mu n^nu T_mu_nu by the sign of one term *)
Theorem C41_documented_vs_stress_tensor t M a r th j : 0 < M -> 0 < r ->
  rho_doc t M a r th j - rho_T t M a r th j = kfun t (psi j) * (4 * M * r / Sigma a r th) * psi_v j * psi_r j.
Proof.
  intros HM Hr. pose proof (Sigma_pos a r th Hr) as HS. pose proof (cA_pos M a r th ltac:(lra) Hr) as HA.
  unfold rho_doc, rho_T, n_psi. 
  assert (EA : Rabs (gvv M a r th) = cA M a r th). { unfold gvv. fold (cA M a r th). rewrite Rabs_Ropp. apply Rabs_pos_eq. lra. }
  rewrite EA. rewrite Rpow_mult_distr, pow_inv. rewrite pow2_sqrt by lra.
  unfold gvv, gvr, grad2, cA, Delta in *. set (S := Sigma a r th) in *. assert (0 < M * r) by nra.
  generalize (kfun t (psi j)) (Vfun t (psi j)). intros k V. clearbody S. field. repeat split; lra.
Qed.
(** so set_rho is neither: at this point the three values are 5/4, 5/2 and 1/2 *)
Example C41_refuted : let t := Theory 0 1 0 0 0 0 0 in let j := Jet 0 1 1 0 0 0 0 0 0 in
  exists e, theory_e e = t /\ rho_at e (coef_at 1 0 (/ 2) 0) 0 1 1 0 0 <> rho_doc t 1 0 2 0 j /\ rho_at e (coef_at 1 0 (/ 2) 0) 0 1 1 0 0 <> rho_T t 1 0 2 0 j /\
  rho_doc t 1 0 2 0 j <> rho_T t 1 0 2 0 j.
Proof.
  cbv zeta. exists (Eom 0 0 0 1 0 0 0 0 0 [] (Scr [] [] [] [] [] [] [])). split; [reflexivity|].
  set (e := Eom _ _ _ _ _ _ _ _ _ _ _). set (t := Theory _ _ _ _ _ _ _). set (j := Jet _ _ _ _ _ _ _ _ _).
  destruct C38_nonvacuous as (Hc & _).
  assert (E1 : rho_at e (coef_at 1 0 (/ 2) 0) 0 1 1 0 0 = Vfun t 0 + (rho_doc t 1 0 2 0 j - Vfun t 0) / 2).
  { apply (rho_value e 1 0 2 0 j); auto; try lra. rewrite Rabs_R0. lra. }
  assert (E2 := C41_documented_vs_stress_tensor t 1 0 2 0 j ltac:(lra) ltac:(lra)).
  assert (ED : rho_doc t 1 0 2 0 j = 5 / 2). { unfold rho_doc, kfun, Vfun, Sigma, t, j. cbn [psi psi_v psi_r psi_ph gradsq t_km1 t_k0 t_k1 t_k2 t_V2 t_V3 t_V4]. rewrite cos_0. field. }
  assert (EV : Vfun t 0 = 0) by (unfold Vfun, t; cbn; lra).
  assert (EP : kfun t (psi j) * (4 * 1 * 2 / Sigma 0 2 0) * psi_v j * psi_r j = 2). { unfold kfun, Sigma, t, j. cbn [psi psi_v psi_r psi_ph gradsq t_km1 t_k0 t_k1 t_k2]. rewrite cos_0. field. }
  rewrite E1. rewrite EP in E2. repeat split; lra.
Qed.

(** ** C43: characteristic speeds.  A wave f(r - c v) of high frequency solves the system built from the
    stored coefficients iff c^2 + c_dr_p c - c_dr_dr_f = 0. *)
Lemma disc_value M a r th : 0 < r -> 0 <= M ->
  4 * M ^ 2 * r ^ 2 / Sigma a r th ^ 2 + (1 + 2 * M * r / Sigma a r th) * (Delta M a r / Sigma a r th) = 1 + cA M a r th * (a ^ 2 * sin th ^ 2 / Sigma a r th).
Proof.
  intros Hr HM. pose proof (Sigma_pos a r th Hr) as HS. assert (Es : sin th ^ 2 = 1 - cos th ^ 2). { pose proof (sin2_cos2 th). unfold Rsqr in *. simpl. lra. }
  assert (ED : Delta M a r = Sigma a r th + a ^ 2 * sin th ^ 2 - 2 * M * r) by (unfold Delta, Sigma; rewrite Es; ring).
  unfold cA. rewrite ED. field. lra.
Qed.
Theorem C43_speeds_are_the_documented_ones M a r th c : 0 < M -> Rabs a <= M -> clean_spin M a -> 0 < r ->
  let k := coef_at M a (/ r) th in
  (c ^ 2 + c_dr_p k * c - c_dr_dr_f k = 0 <-> c = c_plus M a r th \/ c = c_minus M a r th).
Proof.
  intros HM Ha Hc Hr k. unfold k. rewrite coef_value by auto. cbn [c_dr_p c_dr_dr_f].
  pose proof (Sigma_pos a r th Hr) as HS. pose proof (cA_pos M a r th ltac:(lra) Hr) as HA.
  unfold c_plus, c_minus. fold (cA M a r th). pose proof (disc_value M a r th Hr ltac:(lra)) as HD. fold (cA M a r th) in HD.
  set (D := 4 * M ^ 2 * r ^ 2 / Sigma a r th ^ 2 + _) in *.
  assert (Hpos : 0 <= D). { rewrite HD. assert (0 <= cA M a r th * (a ^ 2 * sin th ^ 2 / Sigma a r th)); [|lra]. apply Rmult_le_pos; [lra|].
    apply Rmult_le_pos; [apply Rmult_le_pos; apply pow2_ge_0|left; now apply Rinv_0_lt_compat]. }
  assert (Hsq : sqrt D * sqrt D = D) by now apply sqrt_sqrt.
  set (S := Sigma a r th) in *. set (A := cA M a r th) in *. set (s := sqrt D) in *.
  assert (E : c ^ 2 + 4 * M * r / S / A * c - Delta M a r / S / A = (c - / A * (- (2 * M * r / S) + s)) * (c - / A * (- (2 * M * r / S) - s))).
  { transitivity (c ^ 2 + 4 * M * r / S / A * c + ((2 * M * r / S) ^ 2 - s * s) / A ^ 2); [|field; split; lra].
    rewrite Hsq. unfold D. field. split; lra. }
  rewrite E. split.
  - intros H. apply Rmult_integral in H. destruct H; [left|right]; lra.
  - intros [->| ->]; ring.
Qed.
(** reality and signs outside the horizon *)
Theorem C43_signs M a r th : 0 < M -> Rabs a <= M -> r_plus M a <= r -> 
  c_minus M a r th <= -1 /\ 0 <= c_plus M a r th /\
  0 <= 4 * M ^ 2 * r ^ 2 / Sigma a r th ^ 2 + (1 + 2 * M * r / Sigma a r th) * (Delta M a r / Sigma a r th) /\
  (r = r_plus M a -> c_plus M a r th = 0).
Proof.
  intros HM Ha Hrp. assert (Hr0 : 0 <= sqrt (M ^ 2 - a ^ 2)) by apply sqrt_pos. assert (Hr : 0 < r) by (unfold r_plus in Hrp; lra).
  pose proof (Sigma_pos a r th Hr) as HS. pose proof (cA_pos M a r th ltac:(lra) Hr) as HA.
  unfold c_plus, c_minus. fold (cA M a r th). pose proof (disc_value M a r th Hr ltac:(lra)) as HD. fold (cA M a r th) in HD.
  assert (HDel : 0 <= Delta M a r). { rewrite Delta_roots by auto. unfold r_minus, r_plus in *. apply Rmult_le_pos; lra. }
  set (B := 2 * M * r / Sigma a r th). assert (HB : 0 < B) by (unfold B; apply Rdiv_lt_0_compat; nra).
  assert (EB : 4 * M ^ 2 * r ^ 2 / Sigma a r th ^ 2 = B ^ 2) by (unfold B; field; lra).
  assert (EA : cA M a r th = 1 + B) by reflexivity. rewrite EB in *. rewrite EA in *.
  assert (HQ : 0 <= (1 + B) * (Delta M a r / Sigma a r th)). { apply Rmult_le_pos; [lra|]. apply Rmult_le_pos; auto. left. now apply Rinv_0_lt_compat. }
  set (D := B ^ 2 + _) in *.
  assert (H1 : 1 <= D). { rewrite HD. assert (0 <= (1 + B) * (a ^ 2 * sin th ^ 2 / Sigma a r th)); [|lra]. apply Rmult_le_pos; [lra|].
    apply Rmult_le_pos; [apply Rmult_le_pos; apply pow2_ge_0|left; now apply Rinv_0_lt_compat]. }
  assert (Hs1 : 1 <= sqrt D). { rewrite <- sqrt_1. apply sqrt_le_1_alt. auto. }
  assert (HsB : B <= sqrt D). { rewrite <- (sqrt_pow2 B) by lra. apply sqrt_le_1_alt. unfold D. lra. }
  split; [|split; [|split]].
  - apply (Rmult_le_reg_l (1 + B)); [lra|]. rewrite <- Rmult_assoc, Rinv_r by lra. lra.
  - apply Rmult_le_pos; [left; apply Rinv_0_lt_compat; lra|lra].
  - lra.
  - intros Er. assert (E0 : Delta M a r = 0). { rewrite Delta_roots by auto. rewrite <- Er. ring. }
    replace D with (B ^ 2) by (unfold D; rewrite E0; unfold Rdiv; ring). rewrite sqrt_pow2 by lra. ring.
Qed.
(** at infinity the speeds tend to +1 and -1, and in the grid coordinate R = r/(1+r/cl) they tend to 0 *)
Theorem C43_speeds_at_infinity M a th cl : 0 < M -> 0 < cl ->
  is_lim (fun r => c_plus M a r th) p_infty 1 /\ is_lim (fun r => c_minus M a r th) p_infty (-1) /\
  is_lim (fun r => c_plus M a r th * (1 - r / (1 + r / cl) / cl) ^ 2) p_infty 0 /\
  is_lim (fun r => c_minus M a r th * (1 - r / (1 + r / cl) / cl) ^ 2) p_infty 0.
Proof.
  intros HM Hcl.
  pose (A := fun x : R => 1 + 2 * M * x / (1 + x ^ 2 * a ^ 2 * cos th ^ 2)).
  pose (W := fun (sg x : R) => / A x * (- (2 * M * x / (1 + x ^ 2 * a ^ 2 * cos th ^ 2))
        + sg * sqrt (1 + A x * (a ^ 2 * sin th ^ 2 * x ^ 2 / (1 + x ^ 2 * a ^ 2 * cos th ^ 2))))).
  pose (G := fun x : R => (x * cl / (1 + x * cl)) ^ 2).
  assert (EW : forall r, 0 < r -> W 1 (/ r) = c_plus M a r th /\ W (-1) (/ r) = c_minus M a r th).
  { intros r Hr. pose proof (Sigma_pos a r th Hr) as HS.
    assert (ES : 1 + (/ r) ^ 2 * a ^ 2 * cos th ^ 2 = Sigma a r th / r ^ 2) by (unfold Sigma; field; lra).
    assert (EA : A (/ r) = cA M a r th). { unfold A, cA. rewrite ES. field. lra. }
    assert (EB : 2 * M * / r / (Sigma a r th / r ^ 2) = 2 * M * r / Sigma a r th) by (field; lra).
    assert (EC : a ^ 2 * sin th ^ 2 * (/ r) ^ 2 / (Sigma a r th / r ^ 2) = a ^ 2 * sin th ^ 2 / Sigma a r th) by (field; lra).
    unfold W, c_plus, c_minus. rewrite EA, ES, EB, EC, disc_value by lra. fold (cA M a r th). split; ring. }
  assert (EG : forall r, 0 < r -> G (/ r) = (1 - r / (1 + r / cl) / cl) ^ 2).
  { intros r Hr. unfold G. f_equal. assert (0 < r / cl) by now apply Rdiv_lt_0_compat. field. repeat split; try lra. }
  assert (DW : forall sg, ex_derive (W sg) 0).
  { intros sg. unfold W, A. auto_derive. repeat split; try lra; rewrite ?Rmult_0_l, ?Rmult_0_r; try lra; field_simplify; try lra. }
  assert (DG : ex_derive G 0). { unfold G. auto_derive. lra. }
  assert (W0 : forall sg, W sg 0 = sg).
  { intros sg. unfold W, A. match goal with |- context [sqrt ?z] => replace z with 1 by (field; lra) end. rewrite sqrt_1. field. }
  assert (G0 : G 0 = 0) by (unfold G; field; lra).
  assert (X : forall (hh q : R -> R) (l : R), ex_derive hh 0 -> hh 0 = l -> (forall r, 0 < r -> hh (/ r) = q r) -> is_lim q p_infty l).
  { intros hh q l Hd <- Hq. apply (is_lim_ext_loc (fun r => hh (/ r))); [|now apply lim_inv_infty]. exists 1. intros r Hr. apply Hq. lra. }
  split; [|split; [|split]].
  - apply (X (W 1)); auto. intros r Hr. now apply EW.
  - apply (X (W (-1))); auto. intros r Hr. now apply EW.
  - apply (X (fun x => W 1 x * G x)); [now apply ex_derive_mult|cbv beta; rewrite G0; ring|]. intros r Hr. rewrite EG by auto. f_equal. now apply EW.
  - apply (X (fun x => W (-1) x * G x)); [now apply ex_derive_mult|cbv beta; rewrite G0; ring|]. intros r Hr. rewrite EG by auto. f_equal. now apply EW.
Qed.
(** at grid points: the stored coefficients have these speeds, none of them enters at the horizon, and
    at infinity (R = cl) the speed in the grid coordinate is 0 *)
Theorem C43_boundaries b h cl Rmin Rmax nx g p e ix it ip :
  grid_of b h cl Rmin Rmax nx g -> pr_cl p = cl -> Eom_make g p = Ok e ->
  0 < pr_bh_mass p -> Rabs (pr_bh_spin p) <= pr_bh_mass p -> clean_spin (pr_bh_mass p) (pr_bh_spin p) ->
  (ix < g_nx g)%nat -> (it < g_nlat g)%nat -> (ip < g_nphi g)%nat ->
  exists X th k, rad_pt (g_radial g) ix = Ok X /\ sp_theta (g_sphere g) it = Ok th /\
    nth_error (e_coef e) (indx_R_th_ph g ix it ip) = Some k /\
    let r := X / (1 - X / cl) in
    (0 < X -> 1 / 10 ^ 16 < cl - X ->
       (r = r_plus (pr_bh_mass p) (pr_bh_spin p) -> forall c, c ^ 2 + c_dr_p k * c - c_dr_dr_f k = 0 -> c <= 0) /\
       (r_plus (pr_bh_mass p) (pr_bh_spin p) <= r -> exists c1 c2, c1 <= -1 /\ 0 <= c2 /\
          forall c, c ^ 2 + c_dr_p k * c - c_dr_dr_f k = 0 <-> c = c1 \/ c = c2)) /\
    (X = cl -> cl <> 0 -> forall c, c * (1 - X / cl) ^ 2 = 0).
Proof.
  intros Hg Hcl He HM Ha Hc Hx Ht Hp. destruct (eom_point b h cl Rmin Rmax nx g p e Hg Hcl He ix it ip Hx Ht Hp) as (X & th & E1 & E2 & E3 & _).
  exists X, th. eexists. split; [exact E1|]. split; [exact E2|]. split; [exact E3|]. cbv zeta. split.
  - intros H0 H1. destruct (inv_r_finite b h cl Rmin Rmax nx g Hg X H0 H1) as [Ei Hr]. rewrite Ei. set (r := X / (1 - X / cl)) in *. clearbody r. split.
    + intros Er c Hq. apply (C43_speeds_are_the_documented_ones _ _ r th c HM Ha Hc Hr) in Hq.
      destruct (C43_signs _ _ r th HM Ha ltac:(lra)) as (B1 & B2 & _ & B4). specialize (B4 Er). destruct Hq as [->| ->]; lra.
    + intros Er. destruct (C43_signs _ _ r th HM Ha Er) as (B1 & B2 & _). exists (c_minus (pr_bh_mass p) (pr_bh_spin p) r th), (c_plus (pr_bh_mass p) (pr_bh_spin p) r th).
      split; auto. split; auto. intros c. rewrite (C43_speeds_are_the_documented_ones _ _ r th c HM Ha Hc Hr). tauto.
  - intros -> Hz c. field_simplify; auto.
Qed.

(** ** Concrete case for C37, C39, C41-C43: a grid from R=2 to infinity (cl=50), spin 7/10, k=1 *)
From Verif Require Import PropGridFilter.
Definition ex_params : params R :=
  Par 1 10 4 3 6 8 1 (1/10) 50 50 2 1 (7/10) 0 1 0 0 1 0 0 [] [] 0 0 0 0 0.
Example C37_C39_C41_C42_C43_nonvacuous : exists g e f fk pk e' rho e'',
  grid_of (Build false true false) (null_sht 4 3 6 8) 50 2 50 10 g /\ Eom_make g ex_params = Ok e /\
  0 < pr_bh_mass ex_params /\ Rabs (pr_bh_spin ex_params) <= pr_bh_mass ex_params /\ clean_spin (pr_bh_mass ex_params) (pr_bh_spin ex_params) /\
  set_k g e f f f f = Ok (fk, pk, e') /\ set_rho g e f f f = Ok (rho, e'') /\
  (forall x, In x f -> kfun (theory_of ex_params) x <> 0 /\ x + 1 <> 0) /\
  (exists X, rad_pt (g_radial g) 0 = Ok X /\ 0 < X /\ 1 / 10 ^ 16 < 50 - X) /\
  (exists X, rad_pt (g_radial g) 9 = Ok X /\ Rabs (X - 50) < 1 / 10 ^ 16).
Proof.
  set (b := Build false true false). set (h := null_sht 4 3 6 8).
  destruct (Grid_make_ok b h 50 2 50 10 4 3 6 8) as (g & E); [cbn; lia|left; lia|].
  assert (Hg : grid_of b h 50 2 50 10 g) by exact E. clear E.
  assert (Hsh : shapes h) by (apply null_shapes; lia).
  assert (HL : (Z.of_nat (s_lmax h) < 2 ^ 31)%Z) by reflexivity.
  assert (H8 : use_cheb b = false -> (8 <= 10)%nat) by lia.
  assert (H2 : use_cheb b = true -> (2 <= 10)%nat) by lia.
  destruct (Eom_make_total b h 50 2 50 10 g Hg ex_params) as (e & He).
  pose proof (Eom_make_ok g ex_params e He) as Oe.
  set (f := vec (g_n3 g) (1/10)). assert (Lf : length f = g_n3 g) by apply vec_length.
  destruct (set_k_total b h 50 2 50 10 g Hg Hsh HL H8 H2 e f f f f Oe Lf Lf Lf Lf) as (pk & Ek & _).
  destruct (set_rho_total b h 50 2 50 10 g Hg Hsh HL H8 H2 e f f f Oe Lf Lf Lf) as (rho & e'' & Er & _).
  exists g, e, f, f, pk, (with_scr e (scr_of g f f)), rho, e''.
  split; [exact Hg|]. split; [exact He|]. cbn [pr_bh_mass pr_bh_spin ex_params]. split; [lra|]. split; [rewrite Rabs_pos_eq; lra|].
  split; [apply C38_nonvacuous|]. split; [exact Ek|]. split; [exact Er|]. split.
  - intros x Hx. apply repeat_spec in Hx. subst x. unfold kfun, theory_of, ex_params. cbn. split; lra.
  - destruct (gof_sizes b h 50 2 50 10 g Hg) as (_ & _ & _ & _ & _ & _ & Er' & _). unfold rad_make in Er'. cbn [use_cheb b] in Er'. injection Er' as <-.
    pose proof tol_pos. assert (T : 1 / 10 ^ 16 <= 1 / 10). { unfold Rdiv. rewrite !Rmult_1_l. apply Rinv_le_contravar; [lra|]. rewrite <- (pow_1 10) at 1. apply Rle_pow; [lra|lia]. }
    split; eexists; (split; [reflexivity|]); cbn.
    + split; lra.
    + match goal with |- Rabs ?x < _ => replace x with 0 end; [rewrite Rabs_R0; lra|]. lra.
Qed.
