(** * Properties C74, C75: the evolution commutes with rotations about the axis and with reflection at the equator
    (real arithmetic). *)
From Coq Require Import Reals Lra.
From Coquelicot Require Import Coquelicot.
From Verif Require Import Base BaseLemmas ForList Arith MFd MCheb MSphere MGrid MParams MField MEom
  Spec SphereSpec GridSpec RkSpec SymSpec RotSpec LegSpec PSum PGrid PTables PMake PFdR PSphere PSphere2 PSphereR PGridOp PLeg PSphInst
  PropFd2 PropTables PropCoord PropGridOp PropRad PropGridFilter PropLadder PConc PEom PEomOk PRk PEomR PropRk PDriver PropDriver PLinear PropSym PRot.
Local Open Scope R_scope.

(** constant kinetic function k *)
Definition constant_k (e : eom R) : Prop := e_km1 e = 0 /\ e_k1 e = 0 /\ e_k2 e = 0.

Section G.
Variables (b : build) (h : sht R) (cl Rmin Rmax : R) (nx : nat) (g : grid R).
Hypothesis Hg : grid_of b h cl Rmin Rmax nx g.
Hypothesis Hsh : shapes h.
Hypothesis HL : (Z.of_nat (s_lmax h) < 2 ^ 31)%Z.
Hypothesis H8 : (use_cheb b = false -> 8 <= nx)%nat.
Hypothesis H2 : (use_cheb b = true -> 2 <= nx)%nat.
Local Notation n := (g_n3 g).

Section Map.
Variable s : ptmap.
Hypothesis Hs : forall it ip, (it < g_nlat g)%nat -> (ip < g_nphi g)%nat -> (fst (s it ip) < g_nlat g)%nat /\ (snd (s it ip) < g_nphi g)%nat.
Hypothesis Hops : grid_cov g s (dr_of g) /\ grid_cov g s (drr_of g) /\ grid_cov g s (dphi_of g) /\ grid_cov g s (lap_of g) /\ grid_cov g s (filt_of g).
Variable e : eom R.
Hypothesis Oe : eom_ok g e.
Hypothesis Hcoef : forall ix it ip, (ix < g_nx g)%nat -> (it < g_nlat g)%nat -> (ip < g_nphi g)%nat ->
  nth (indx_R_th_ph g ix it ip) (e_coef e) coef0 = nth (indx_R_th_ph g ix (fst (s it ip)) (snd (s it ip))) (e_coef e) coef0.
Hypothesis HX : grid_cov g s (sX_of g) \/ constant_k e.

Definition gm2 (u u' : state R) : Prop := gmoved g s (fst u) (fst u') /\ gmoved g s (snd u) (snd u').
Lemma gm2_sized u u' : gm2 u u' -> sized g u /\ sized g u'.
Proof. intros [(A & B & _) (C & D & _)]. unfold sized. auto. Qed.
Lemma nth_axpy t k v i : length k = n -> length v = n -> (i < n)%nat -> nth i (axpy t k v) 0 = nth i v 0 + t * nth i k 0.
Proof.
  intros Lk Lu Hi. apply nth_error_nth. refine (eq_trans (axpy_nth t k v i (nth i v 0) (nth i k 0) _ _) _); [apply nth_error_nth'; lia..|reflexivity].
Qed.
Lemma gm_axpy t k k' v v' : gmoved g s k k' -> gmoved g s v v' -> gmoved g s (axpy t k v) (axpy t k' v').
Proof.
  intros (A & B & C) (D & E & F). split; [now apply axpy_length|]. split; [now apply axpy_length|]. intros ix it ip Hx Ht Hp.
  destruct (Hs it ip Ht Hp) as [Ht' Hp'].
  rewrite !nth_axpy by (auto; now apply ix_R_th_ph_lt). rewrite C, F by auto. reflexivity.
Qed.
Lemma gm2_axpy t k k' v v' : gm2 k k' -> gm2 v v' -> gm2 (axpy2 t k v) (axpy2 t k' v').
Proof. intros [A B] [C D]. split; cbn; now apply gm_axpy. Qed.
Lemma rhs_cov u u' : gm2 u u' -> gm2 (rhs_of g e u) (rhs_of g e u').
Proof.
  intros Hm. destruct (gm2_sized u u' Hm) as [Su Su']. pose proof (rhs_sized b h cl Rmin Rmax nx g Hg Hsh HL H8 H2 e u Oe Su) as [_ R1].
  pose proof (rhs_sized b h cl Rmin Rmax nx g Hg Hsh HL H8 H2 e u' Oe Su') as [_ R2].
  destruct Hm as [Mf Mp]. split; [exact Mp|]. cbn [rhs_of snd] in *. split; auto. split; auto. intros ix it ip Hx Ht Hp.
  destruct Su as [L1 L2], Su' as [L3 L4]. destruct (Hs it ip Ht Hp) as [Ht' Hp'].
  rewrite !(prhs_at b h cl Rmin Rmax nx g Hg Hsh HL H8 H2) by (auto; now apply ix_R_th_ph_lt).
  destruct Hops as (D1 & D2 & D3 & D4 & _). pose proof (D1 _ _ (D3 _ _ Mf)) as D5.
  destruct (D1 _ _ Mf) as (_ & _ & G1). destruct (D1 _ _ Mp) as (_ & _ & G2). destruct (D2 _ _ Mf) as (_ & _ & G3). destruct (D3 _ _ Mf) as (_ & _ & G4).
  destruct D5 as (_ & _ & G5). destruct (D4 _ _ Mf) as (_ & _ & G6). destruct Mf as (_ & _ & G7). destruct Mp as (_ & _ & G8).
  rewrite Hcoef, G1, G2, G3, G4, G5, G6, G7, G8 by auto. destruct HX as [D7|(Z1 & Z2 & Z3)].
  - assert (G9 : gmoved g s (sX_of g (fst u)) (sX_of g (fst u'))). { apply D7. split; auto. }
    destruct G9 as (_ & _ & G9). now rewrite G9.
  - assert (K : forall x, kprime e x = 0). { intros x. unfold kprime. R_ops. rewrite Z1, Z2, Z3. unfold Rdiv. ring. }
    unfold p_rhs. rewrite !K. R_ops. ring.
Qed.
Lemma advance_cov u u' : gm2 u u' -> gm2 (advance g e u) (advance g e u').
Proof.
  intros Hm. Transparent advance. unfold advance. Opaque advance. destruct Hops as (_ & _ & _ & _ & D5).
  assert (E0 : gm2 (filt_of g (fst u), filt_of g (snd u)) (filt_of g (fst u'), filt_of g (snd u'))).
  { destruct Hm. split; cbn [fst snd]; now apply D5. }
  unfold rk4. cbv zeta. repeat first [assumption|apply gm2_axpy|apply rhs_cov].
Qed.
Lemma iter_cov k u u' : gm2 u u' -> gm2 (Nat.iter k (advance g e) u) (Nat.iter k (advance g e) u').
Proof.
  intros Hm. induction k as [|k IH]; [exact Hm|].
  change (gm2 (advance g e (Nat.iter k (advance g e) u)) (advance g e (Nat.iter k (advance g e) u'))). now apply advance_cov.
Qed.
Theorem steps_cov k (f1 p1 f2 p2 : field R) : field_ok g f1 -> field_ok g p1 -> field_ok g f2 -> field_ok g p2 ->
  gmoved g s (fl_n f1) (fl_n f2) -> gmoved g s (fl_n p1) (fl_n p2) ->
  exists f1' p1' e1' f2' p2' e2', steps g k (f1, p1, e) = Ok (f1', p1', e1') /\ steps g k (f2, p2, e) = Ok (f2', p2', e2') /\
    gmoved g s (fl_n f1') (fl_n f2') /\ gmoved g s (fl_n p1') (fl_n p2').
Proof.
  intros O1 Q1 O2 Q2 Mf Mp.
  destruct (steps_iter b h cl Rmin Rmax nx g Hg Hsh HL H8 H2 k e f1 p1 Oe O1 Q1) as (f1' & p1' & e1' & E1 & I1).
  destruct (steps_iter b h cl Rmin Rmax nx g Hg Hsh HL H8 H2 k e f2 p2 Oe O2 Q2) as (f2' & p2' & e2' & E2 & I2).
  exists f1', p1', e1', f2', p2', e2'. split; [exact E1|]. split; [exact E2|].
  pose proof (iter_cov k (fl_n f1, fl_n p1) (fl_n f2, fl_n p2) (conj Mf Mp)) as [A B]. rewrite <- I1, <- I2 in A, B. auto.
Qed.
End Map.

(** the coefficients of the equations depend on the radius and on cos^2 theta only *)
Lemma coef_values par e ix it ip : Eom_make g par = Ok e -> (2 <= nx)%nat -> (ix < g_nx g)%nat -> (it < g_nlat g)%nat -> (ip < g_nphi g)%nat ->
  nth (indx_R_th_ph g ix it ip) (e_coef e) coef0 =
    coef_at (pr_bh_mass par) (pr_bh_spin par) (inv_r_at g (pr_cl par) (node_R (use_cheb b) Rmin Rmax nx ix)) (grid_theta h it).
Proof.
  intros He Hn Hx Ht Hp. destruct (Eom_make_inv _ _ _ He) as (cs & Lc & -> & H). cbn [e_coef].
  destruct (H ix it ip Hx Ht Hp) as (row & X & th & E1 & E2 & E3 & E4). rewrite (nth_error_nth _ _ coef0 E4).
  destruct (gof_sizes b h cl Rmin Rmax nx g Hg) as (Eb & En & _ & El & Ep & _).
  rewrite En in Hx. rewrite El in Ht. rewrite Ep in Hp.
  destruct (C06_coordinate_values _ _ _ _ _ _ _ _ _ _ _ Hg Hn eq_refl ix it ip Hx Ht Hp) as (_ & E5 & _). cbv zeta in E5.
  rewrite E5 in E1. injection E1 as <-. cbn in E2, E3. injection E2 as <-. injection E3 as <-. reflexivity.
Qed.
Lemma coef_mirror m a ir th : coef_at m a ir (PI - th) = coef_at m a ir th.
Proof.
  assert (E : Sigma_ a ir (PI - th) = Sigma_ a ir th). { unfold Sigma_. R_ops. rewrite Rtrigo_facts.cos_pi_minus. ring. }
  unfold coef_at. rewrite E. reflexivity.
Qed.
End G.

(** ** functions on the sphere *)
Lemma trig_2Zpi x k : cos (x + 2 * PI * IZR k) = cos x /\ sin (x + 2 * PI * IZR k) = sin x.
Proof.
  destruct (sin_2Zpi 1 Nat.lt_0_1 (- x) k) as [E1 E2]. replace (x + 2 * PI * IZR k) with (2 * PI * IZR k - - x) by ring.
  rewrite E1, E2, sin_neg, cos_neg. split; ring.
Qed.
Lemma rot_angle nphi j ip (m : Z) : (ip < nphi)%nat ->
  let ph := 2 * PI * INR ip / INR nphi in let al := 2 * PI * INR j / INR nphi in let ph' := 2 * PI * INR ((ip + j) mod nphi) / INR nphi in
  cos (IZR m * ph') = cos (IZR m * ph + IZR m * al) /\ sin (IZR m * ph') = sin (IZR m * ph + IZR m * al).
Proof.
  intros Hp ph al ph'. assert (Hn : 0 < INR nphi) by (apply lt_0_INR; lia).
  assert (E : IZR m * ph + IZR m * al = IZR m * ph' + 2 * PI * IZR (m * Z.of_nat ((ip + j) / nphi))).
  { rewrite mult_IZR, <- INR_IZR_INZ. unfold ph, al, ph'.
    assert (D : INR ip + INR j = INR nphi * INR ((ip + j) / nphi) + INR ((ip + j) mod nphi)).
    { rewrite <- plus_INR, <- mult_INR, <- plus_INR. f_equal. apply Nat.div_mod. lia. }
    apply Rmult_eq_reg_r with (INR nphi); [|lra]. field_simplify; try lra.
    transitivity (2 * IZR m * PI * (INR ip + INR j)); [ring|]. rewrite D. ring. }
  rewrite E. destruct (trig_2Zpi (IZR m * ph') (m * Z.of_nat ((ip + j) / nphi))) as [-> ->]. auto.
Qed.
Section Fields.
Variables (b : build) (h : sht R).
Local Notation L := (s_lmax h).
Local Notation M := (s_mmax h).
Lemma rot_range j it ip : (it < s_nlat h)%nat -> (ip < s_nphi h)%nat -> (fst (rotate (s_nphi h) j it ip) < s_nlat h)%nat /\ (snd (rotate (s_nphi h) j it ip) < s_nphi h)%nat.
Proof. intros Ht Hp. cbn. split; auto. apply Nat.mod_upper_bound. lia. Qed.
Lemma mir_range it ip : (it < s_nlat h)%nat -> (ip < s_nphi h)%nat -> (fst (mirror (s_nlat h) it ip) < s_nlat h)%nat /\ (snd (mirror (s_nlat h) it ip) < s_nphi h)%nat.
Proof. intros Ht Hp. cbn. split; auto. lia. Qed.
Lemma rot_field P j (a a' : spectrum) : (forall l m, (l <= L)%nat -> (m <= l)%nat -> (m <= M)%nat -> a' l m = cm (a l m) (rot_phase (s_nphi h) j l (Z.of_nat m))) ->
  forall it ip, (it < s_nlat h)%nat -> (ip < s_nphi h)%nat ->
    real_field P L M a' (grid_theta h it) (grid_phi h ip) =
    real_field P L M a (grid_theta h (fst (rotate (s_nphi h) j it ip))) (grid_phi h (snd (rotate (s_nphi h) j it ip))).
Proof.
  intros E it ip Ht Hp. cbn [rotate fst snd]. unfold real_field. apply Rsum_ext. intros l Hl. apply Rsum_ext. intros m Hm. rewrite E by lia.
  unfold mode, grid_phi. destruct (Nat.eqb_spec m 0) as [->|].
  - unfold cm, Rpr, rot_phase. cbn [fst snd Z.of_nat]. rewrite Rmult_0_l, cos_0, sin_0. ring.
  - rewrite INR_IZR_INZ. destruct (rot_angle (s_nphi h) j ip (Z.of_nat m) Hp) as [-> ->]. unfold cm, Rpr, rot_phase. cbn [fst snd]. rewrite cos_plus, sin_plus. ring.
Qed.
Lemma rot_cfield P j (a a' : cspectrum) : (forall l m, (l <= L)%nat -> (- Z.of_nat l <= m <= Z.of_nat l)%Z -> a' l m = cm (a l m) (rot_phase (s_nphi h) j l m)) ->
  forall it ip, (it < s_nlat h)%nat -> (ip < s_nphi h)%nat -> let q := rotate (s_nphi h) j it ip in
    cre P L a' (grid_theta h it) (grid_phi h ip) = cre P L a (grid_theta h (fst q)) (grid_phi h (snd q)) /\
    cim P L a' (grid_theta h it) (grid_phi h ip) = cim P L a (grid_theta h (fst q)) (grid_phi h (snd q)).
Proof.
  intros E it ip Ht Hp q. cbn [rotate fst snd q].
  split; unfold cre, cim; apply Rsum_ext; intros l Hl; apply msum_ext; intros m Hm; rewrite E by lia; unfold grid_phi;
    destruct (rot_angle (s_nphi h) j ip m Hp) as [-> ->]; unfold cm, Rpr, rot_phase; cbn [fst snd]; rewrite cos_plus, sin_plus; ring.
Qed.

(** parity of the associated Legendre functions *)
Lemma legendre_parity l m x : legendre l m (- x) = (-1) ^ (l + m) * legendre l m x.
Proof.
  unfold legendre. set (F := fun y : R => (y ^ 2 - 1) ^ l).
  assert (EF : forall y, F y = poly (wpow l) y) by (intros; unfold F; now rewrite wpow_spec).
  assert (X : forall k y, ex_derive_n F k y).
  { intros k y. destruct k as [|k]; cbn; auto. apply (ex_derive_ext (fun t => poly (dpn k (wpow l)) t)).
    - intros t. symmetry. now apply Derive_n_poly.
    - exists (poly (dp (dpn k (wpow l))) y). apply poly_is_derive. }
  pose proof (Derive_n_comp_opp F (l + m) (- x)) as D.
  assert (D' : Derive_n (fun y => F (- y)) (l + m) (- x) = (-1) ^ (l + m) * Derive_n F (l + m) (- - x)). { apply D. apply filter_forall. intros y k _. apply X. }
  rewrite Ropp_involutive in D'. rewrite (Derive_n_ext (fun y => F (- y)) F) in D'.
  - rewrite D'. unfold Rdiv. ring.
  - intros t. unfold F. do 2 f_equal. ring.
Qed.
Lemma profile_parity l m th : Ylm_profile l m (PI - th) = (if Z.even (Z.of_nat l + Z.of_nat m) then 1 else -1) * Ylm_profile l m th.
Proof.
  unfold Ylm_profile. rewrite Rtrigo_facts.sin_pi_minus, Rtrigo_facts.cos_pi_minus, legendre_parity.
  replace ((-1) ^ (l + m)) with (if Z.even (Z.of_nat l + Z.of_nat m) then 1 else -1); [ring|].
  rewrite <- Nat2Z.inj_add. generalize (l + m)%nat. induction n as [|n IH]; [reflexivity|].
  rewrite Nat2Z.inj_succ, Z.even_succ, <- Z.negb_even. cbn [pow]. rewrite <- IH. destruct (Z.even (Z.of_nat n)); cbn; ring.
Qed.
Lemma mir_theta it : symmetric_nodes h -> (it < s_nlat h)%nat -> grid_theta h (s_nlat h - 1 - it) = PI - grid_theta h it.
Proof. intros S Ht. unfold grid_theta. rewrite S by auto. apply acos_opp. Qed.
Lemma mir_field (a a' : spectrum) : symmetric_nodes h -> (forall l m, (l <= L)%nat -> (m <= l)%nat -> (m <= M)%nat -> a' l m = cm (a l m) (mir_phase l (Z.of_nat m))) ->
  forall it ip, (it < s_nlat h)%nat -> (ip < s_nphi h)%nat ->
    real_field Ylm_profile L M a' (grid_theta h it) (grid_phi h ip) =
    real_field Ylm_profile L M a (grid_theta h (fst (mirror (s_nlat h) it ip))) (grid_phi h (snd (mirror (s_nlat h) it ip))).
Proof.
  intros S E it ip Ht Hp. cbn [mirror fst snd]. rewrite mir_theta by auto. unfold real_field. apply Rsum_ext. intros l Hl. apply Rsum_ext. intros m Hm. rewrite E by lia.
  unfold mode. destruct (Nat.eqb_spec m 0) as [->|]; rewrite profile_parity; unfold cm, Rpr, mir_phase; cbn [fst snd]; ring.
Qed.
Lemma mir_cfield (a a' : cspectrum) : symmetric_nodes h -> (forall l m, (l <= L)%nat -> (- Z.of_nat l <= m <= Z.of_nat l)%Z -> a' l m = cm (a l m) (mir_phase l m)) ->
  forall it ip, (it < s_nlat h)%nat -> (ip < s_nphi h)%nat -> let q := mirror (s_nlat h) it ip in
    cre Ylm_profile L a' (grid_theta h it) (grid_phi h ip) = cre Ylm_profile L a (grid_theta h (fst q)) (grid_phi h (snd q)) /\
    cim Ylm_profile L a' (grid_theta h it) (grid_phi h ip) = cim Ylm_profile L a (grid_theta h (fst q)) (grid_phi h (snd q)).
Proof.
  intros S E it ip Ht Hp q. cbn [mirror fst snd q]. rewrite mir_theta by auto.
  assert (Q : forall l m th, prof Ylm_profile l m (PI - th) = fst (mir_phase l m) * prof Ylm_profile l m th).
  { intros l m th. unfold prof. rewrite profile_parity. unfold mir_phase. cbn [fst].
    replace (Z.even (Z.of_nat l + Z.of_nat (Z.abs_nat m))) with (Z.even (Z.of_nat l + m)); [ring|].
    rewrite !Z.even_add. f_equal. destruct (Z_le_gt_dec 0 m); [f_equal; lia|]. rewrite <- (Z.even_opp m). f_equal. lia. }
  split; unfold cre, cim; apply Rsum_ext; intros l Hl; apply msum_ext; intros m Hm; rewrite E, Q by lia; unfold cm, Rpr, mir_phase; cbn [fst snd]; ring.
Qed.
End Fields.
