(** * Property C94: over-extremal spins (|a| > m) are accepted and give NaN everywhere, in IEEE double precision. *)
From Coq Require Import ZArith Reals SpecFloat Bool List Lra Lia.
From Verif Require Import Base BaseLemmas ForList Arith MFd MCheb MSphere MGrid MParams MField MEom MIo MMain
  SphereSpec GridSpec RkSpec PGrid PTables PMake PSphere PSphere2 PGridOp PropGrid PropTables PropGridOp PConc PEom PEomOk PRk
  PText PIo PropIo PDriver PropDriver FpSpec Fp FpErr PropFpFd FpKerr PropFpRhs.
Import ListNotations.
Local Open Scope R_scope.

Lemma neg_shape x : fin x -> val x < 0 -> exists m e, x = S754_finite true m e.
Proof.
  intros [_ F] P. destruct x as [s|s| |s m e]; cbn in F, P; try lra; try tauto. destruct s; [eauto|].
  exfalso. assert (0 < IZR (Zpos m)) by (apply IZR_lt; lia). assert (0 < powerRZ 2 e) by (apply powerRZ_lt; lra). nra.
Qed.

(** mass and spin as doubles: spin larger than mass by more than the code's tolerance 1e-16, no overflow of the squares *)
Definition over_extremal (m a : spec_float) : Prop :=
  fin m /\ fin a /\ Rabs (val a) <= 2 ^ 400 /\ 2 / 10 ^ 16 <= Rabs (val a) - Rabs (val m).

Section B64.
Variables (lexp llog lcos lsin lacos : spec_float -> spec_float) (lpi : spec_float).
Local Instance b64i : Arith spec_float := b64 lexp llog lcos lsin lacos lpi.
Local Notation FL := spec_float.
Local Notation nan := S754_nan.

(** the horizon radii the constructor computes are NaN *)
Lemma hor_nan m a : over_extremal m a -> hor_p m a = nan /\ hor_m m a = nan.
Proof.
  intros (Fm & Fa & Ba & G).
  assert (P16 : 0 < / 10 ^ 16) by (apply Rinv_0_lt_compat, pow_lt; lra). unfold Rdiv in G.
  assert (P400 : 0 < 2 ^ 400) by (apply pow_lt; lra).
  destruct t16_ok as (FT & [T0 T1] & _). assert (TN := t16_num). unfold Rdiv in TN.
  assert (UW : uu <= / 1000). { rewrite uu_num. lra. }
  destruct (abs_ok a Fa) as [FA EA]. set (A := val a) in *. set (M := val m) in *.
  assert (PA := Rabs_pos A). assert (PM := Rabs_pos M).
  assert (B2 : 4 * 2 ^ 400 <= big).
  { unfold big. replace 1023%nat with (2 + 400 + 621)%nat by reflexivity. rewrite !pow_add. assert (1 <= 2 ^ 621) by (apply pow_R1_Rle; lra). replace (2 ^ 2) with 4 by ring.
    set (x := 2 ^ 400) in *. set (y := 2 ^ 621) in *. clearbody x y. assert (4 * x * 1 <= 4 * x * y) by (apply Rmult_le_compat_l; lra). lra. }
  assert (S1 : Rabs (M - A) <= 2 * 2 ^ 400). { eapply Rle_trans; [apply Rabs_triang|]. rewrite Rabs_Ropp. lra. }
  assert (S2 : Rabs (M + A) <= 2 * 2 ^ 400). { eapply Rle_trans; [apply Rabs_triang|]. lra. }
  (* the two tests *)
  destruct (sub_ok m (SFabs a) Fm FA) as [FS (d & Hd & ES)].
  { rewrite EA. fold M A. eapply Rle_trans; [apply Rabs_triang|]. rewrite Rabs_Ropp, Rabs_Rabsolu. lra. }
  rewrite EA in ES. fold M A in ES. destruct (abs_ok _ FS) as [FB EB].
  assert (Hd' : Rabs d <= / 1000) by lra. apply Rabs_le_between in Hd'.
  assert (L1 : SFltb (SFabs (SFsub 53 1024 m (SFabs a))) t16 = false).
  { apply lt_false; auto. rewrite EB, ES, Rabs_mult. rewrite (Rabs_right (1 + d)) by lra.
    assert (2 * / 10 ^ 16 <= Rabs (M - Rabs A)) by (rewrite Rabs_minus_sym; eapply Rle_trans; [|apply Rle_abs]; assert (M <= Rabs M) by apply Rle_abs; lra).
    nra. }
  assert (L2 : SFltb (SFabs a) t16 = false). { apply lt_false; auto. rewrite EA. fold A. lra. }
  (* the radicand is negative *)
  destruct (sub_ok m a Fm Fa) as [FD (d1 & Hd1 & ED)]; [fold M A; lra|]. destruct (add_ok m a Fm Fa) as [FP (d2 & Hd2 & EP)]; [fold M A; lra|].
  fold M A in ED, EP. set (D := SFsub 53 1024 m a) in *. set (P := SFadd 53 1024 m a) in *.
  assert (Hd1' : Rabs d1 <= / 1000) by lra. apply Rabs_le_between in Hd1'. assert (Hd2' : Rabs d2 <= / 1000) by lra. apply Rabs_le_between in Hd2'.
  set (q := (Rabs A - Rabs M) * (Rabs A + Rabs M)).
  assert (Eq : (M - A) * (M + A) = - q). { unfold q. replace ((Rabs A - Rabs M) * (Rabs A + Rabs M)) with (Rabs A * Rabs A - Rabs M * Rabs M) by ring. rewrite <- !Rabs_mult. rewrite !Rabs_right by (apply Rle_ge, Rle_0_sqr). ring. }
  assert (Q1 : 4 * (/ 10 ^ 16 * / 10 ^ 16) <= q). { unfold q. replace (4 * (/ 10 ^ 16 * / 10 ^ 16)) with ((2 * / 10 ^ 16) * (2 * / 10 ^ 16)) by ring. apply Rmult_le_compat; lra. }
  assert (Q2 : q <= 2 ^ 400 * (2 * 2 ^ 400)). { unfold q. apply Rmult_le_compat; lra. }
  assert (EV : val D * val P = - q * ((1 + d1) * (1 + d2))). { rewrite ED, EP, <- Eq. ring. }
  assert (K : 99 / 100 <= (1 + d1) * (1 + d2) <= 2) by (split; nra).
  set (k := (1 + d1) * (1 + d2)) in *. clearbody k.
  assert (Pq : 0 < q) by (assert (0 < / 10 ^ 16 * / 10 ^ 16) by (now apply Rmult_lt_0_compat); lra).
  destruct (mul_ok D P FD FP) as [FX (d3 & e3 & Hd3 & He3 & EX)].
  { rewrite EV. rewrite Rabs_mult, Rabs_Ropp, (Rabs_right q), (Rabs_right k) by lra.
    apply Rle_trans with (2 ^ 400 * (2 * 2 ^ 400) * 2); [apply Rmult_le_compat; lra|].
    unfold big. replace 1023%nat with (2 + 400 + 400 + 221)%nat by reflexivity. rewrite !pow_add. assert (1 <= 2 ^ 221) by (apply pow_R1_Rle; lra). replace (2 ^ 2) with 4 by ring.
    set (x := 2 ^ 400) in *. set (y := 2 ^ 221) in *. clearbody x y. assert (0 < x * x) by (now apply Rmult_lt_0_compat).
    assert (4 * (x * x) * 1 <= 4 * (x * x) * y) by (apply Rmult_le_compat_l; lra). lra. }
  assert (NEG : val (SFmul 53 1024 D P) < 0).
  { rewrite EX, EV. assert (Hd3' : Rabs d3 <= / 1000) by lra. apply Rabs_le_between in Hd3'.
    assert (E0 : eta <= ww / 1000 * (/ 10 ^ 16 * / 10 ^ 16)).
    { apply eta_small. assert (X : mg 60 (/ 10 ^ 16)). { apply mg_inv. assert (X : 10 ^ 16 <= 2 ^ 60) by (rewrite (pow_IZR 10), (pow_IZR 2); apply IZR_le; vm_compute; discriminate). split; [|exact X].
        apply Rle_trans with 1; [rewrite <- Rinv_1; apply Rinv_le_contravar; [lra|apply pow_R1_Rle; lra]|apply pow_R1_Rle; lra]. }
      apply (mg_le (60 + 60)); [lia|]. now apply mg_mul. }
    assert (W := ww_small). assert (Pw := ww_pos). apply Rabs_le_between in He3. set (z := / 10 ^ 16 * / 10 ^ 16) in *. assert (Pz : 0 < z) by (unfold z; now apply Rmult_lt_0_compat). clearbody z.
    assert (eta <= q * / 1000). { apply Rle_trans with (z * / 1000); [|nra]. eapply Rle_trans; [exact E0|]. nra. }
    assert (98 / 100 <= k * (1 + d3)) by nra. replace (- q * k * (1 + d3) + e3) with (- (q * (k * (1 + d3))) + e3) by ring. assert (q * (98 / 100) <= q * (k * (1 + d3))) by (apply Rmult_le_compat_l; lra). lra. }
  destruct (neg_shape _ FX NEG) as (mm & ee & ESh).
  assert (HP : hor_p m a = nan).
  { unfold hor_p. cbv [fabs flt fsub fdec fadd fmul fofZ fpowh b64i b64]. fold t16. rewrite L1, L2. fold D P. rewrite ESh. cbn [SFsqrt]. apply nan_addr. }
  split; [exact HP|]. unfold hor_m. rewrite HP. cbv [fabs flt fsub fdec fdiv fpow b64i b64]. fold t16. rewrite L1.
  destruct (sf_pow a 2); reflexivity.
Qed.

Lemma nan_mull x : SFmul 53 1024 nan x = nan. Proof. reflexivity. Qed.
Lemma nan_divl x : SFdiv 53 1024 nan x = nan. Proof. reflexivity. Qed.
Lemma nan_subr x : SFsub 53 1024 x nan = nan. Proof. destruct x; reflexivity. Qed.

(** hence the coefficients of d_r^2 f and (d_r f)^2 are NaN at every radius (infinity included) and angle *)
Theorem C94_coefficients m a inv_r th : over_extremal m a ->
  c_dr_dr_f (coef_at m a inv_r th) = nan /\ c_dr_f_dr_f (coef_at m a inv_r th) = nan.
Proof.
  intros H. destruct (hor_nan m a H) as [H1 H2]. unfold coef_at. cbn [c_dr_dr_f c_dr_f_dr_f]. unfold Delta_. rewrite H1, H2.
  clear H1 H2. cbv [fsub fmul fdiv fpow fofZ fadd b64i b64].
  set (pre := SFdiv 53 1024 (sf_ofZ 1) _). clearbody pre. set (Sg := Sigma_ a inv_r th). clearbody Sg.
  assert (E : SFsub 53 1024 (sf_ofZ 1) (SFmul 53 1024 nan inv_r) = nan) by apply nan_subr. rewrite E. split; reflexivity.
Qed.
(** the right-hand side of the evolution of p is NaN whatever the fields *)
Theorem C94_rhs (e : eom FL) c f p dr_f dr_p dr_dr_f dphi_f dphi_dr_f lap_f sphereX_f : c_dr_dr_f c = nan ->
  p_rhs e c f p dr_f dr_p dr_dr_f dphi_f dphi_dr_f lap_f sphereX_f = nan.
Proof.
  intros H. unfold p_rhs. rewrite H. cbv [fadd fsub fmul b64i b64]. rewrite nan_mull, nan_addr, !nan_addl, nan_subl. reflexivity.
Qed.
(** and so is the energy density computed from a NaN field value *)
Lemma rho_nan (e : eom FL) c p dr_f dphi_f sphereX_f : rho_at e c nan p dr_f dphi_f sphereX_f = nan.
Proof.
  unfold rho_at. cbv zeta. cbv [fadd fsub fmul fdiv fpow fofZ b64i b64 sf_pow].
  match goal with |- SFadd _ _ (SFmul _ _ (SFmul _ _ ?k ?h) ?s) ?v = _ => assert (K : k = nan) by (change (SFmul 53 1024 nan nan) with nan; rewrite !nan_mulr; apply nan_addr); rewrite K; destruct v; reflexivity end.
Qed.

Section Grid.
Variables (b : build) (h : sht FL) (cl0 Rmin0 Rmax0 : FL) (nx : nat) (g : grid FL).
Hypothesis Hg : grid_of b h cl0 Rmin0 Rmax0 nx g.
Hypothesis Hsh : shapes h.
Hypothesis HL : (Z.of_nat (s_lmax h) < 2 ^ 31)%Z.
Hypothesis H8 : use_cheb b = false -> (8 <= nx)%nat.
Hypothesis H2 : use_cheb b = true -> (2 <= nx)%nat.
Local Notation n := (g_n3 g).

(** the constructor reports nothing, and every stored coefficient c_dr_dr_f is NaN *)
Lemma coef_nan (p : params FL) e i c : over_extremal (pr_bh_mass p) (pr_bh_spin p) -> Eom_make g p = Ok e -> nth_error (e_coef e) i = Some c -> c_dr_dr_f c = nan.
Proof.
  intros O E Hc. destruct (Eom_make_inv g p e E) as (cs & Lc & -> & H). cbn [e_coef] in Hc.
  assert (Hi : (i < n)%nat) by (rewrite <- Lc; apply nth_error_Some; congruence).
  unfold g_n3 in Hi. destruct (C01_index_bijection (g_bld g) (g_nx g) (g_nlat g) (g_nphi g)) as (_ & _ & S).
  destruct (S i Hi) as (ix & it & ip & X & T & P & <-). destruct (H ix it ip X T P) as (row & R & th & _ & _ & _ & Q).
  unfold indx_R_th_ph in Q. rewrite Q in Hc. injection Hc as <-. now apply C94_coefficients.
Qed.

Lemma all_nan (l : list FL) k : length l = k -> (forall i, (i < k)%nat -> nth_error l i = Some nan) -> l = repeat nan k.
Proof.
  intros L H. subst k. induction l as [|x l IH]; [reflexivity|]. cbn [length repeat]. assert (X := H 0%nat ltac:(cbn; lia)). cbn in X. injection X as ->. f_equal.
  apply IH. intros i Hi. apply (H (S i)). cbn. lia.
Qed.

(** one time step from any fields whatever: no error is reported and every new value of both fields is NaN *)
Theorem C94_time_step (par : params FL) (e0 : eom FL) (s : scratch FL) (f p : field FL) :
  over_extremal (pr_bh_mass par) (pr_bh_spin par) -> Eom_make g par = Ok e0 -> scr_ok n s -> field_ok g f -> field_ok g p ->
  exists f' p' e', time_step g (with_scr e0 s) f p = Ok (f', p', e') /\ fl_np1 f' = repeat nan n /\ fl_np1 p' = repeat nan n.
Proof.
  intros O E Os Of Op. assert (Oe0 := Eom_make_ok g par e0 E).
  assert (Oe : eom_ok g (with_scr e0 s)) by (destruct Oe0 as (? & ? & _); unfold eom_ok; cbn; auto).
  destruct (time_step_closed b h cl0 Rmin0 Rmax0 nx g Hg Hsh HL H8 H2 (with_scr e0 s) f p Oe Of Op) as (f' & p' & s' & Es & _ & Of' & Op' & _).
  exists f', p'. eexists. split; [exact Es|].
  assert (EN : forall i, (i < n)%nat -> nth_error (fl_np1 f') i = Some nan /\ nth_error (fl_np1 p') i = Some nan).
  { intros i Hi. pose proof Of as (_ & Lf & _). pose proof Op as (_ & Lp & _).
    destruct (filter_total b h cl0 Rmin0 Rmax0 nx g Hg Hsh H8 H2 (fl_n f) Lf) as [_ Lf'].
    destruct (filter_total b h cl0 Rmin0 Rmax0 nx g Hg Hsh H8 H2 (fl_n p) Lp) as [_ Lp'].
    destruct (nth_error_ex (filt_of g (fl_n f)) i ltac:(lia)) as (x & Hx).
    destruct (prhs_some lexp llog lcos lsin lacos lpi b h cl0 Rmin0 Rmax0 nx g Hg Hsh HL H8 H2 (with_scr e0 s) _ (filt_of g (fl_n p)) i x Oe Lf' Lp' Hx)
      as (c & pi & d1 & d2 & d3 & d4 & d5 & d6 & d7 & Hc & _ & _ & _ & _ & _ & _ & _ & _ & Q).
    rewrite C94_rhs in Q by (cbn [with_scr e_coef] in Hc; eapply coef_nan; eauto).
    destruct (step_nan lexp llog lcos lsin lacos lpi b h cl0 Rmin0 Rmax0 nx g Hg Hsh HL H8 H2 (with_scr e0 s) f p i Oe Of Op Q) as (f2 & p2 & e2 & E2 & N1 & N2).
    assert (E3 := eq_trans (eq_sym Es) E2). assert (EE : f2 = f' /\ p2 = p') by (split; congruence). destruct EE as [-> ->]. auto. }
  split; apply all_nan; [apply Of'|intros; now apply EN|apply Op'|intros; now apply EN].
Qed.

Lemma rho_all_nan (e : eom FL) p rho : eom_ok g e -> length p = n -> length rho = n ->
  exists e', set_rho g e (repeat nan n) p rho = Ok (repeat nan n, e').
Proof.
  intros Oe Lp Lr. assert (Lf : length (repeat nan n) = n) by apply repeat_length.
  destruct (set_rho_total b h cl0 Rmin0 Rmax0 nx g Hg Hsh HL H8 H2 e (repeat nan n) p rho Oe Lf Lp Lr) as (r & e' & E & L).
  exists e'. rewrite E. f_equal. f_equal. apply all_nan; auto. intros i Hi.
  destruct (set_rho_inv _ _ _ _ _ _ _ E) as (_ & x & y & z & _ & _ & _ & H). destruct Oe as (En & _).
  destruct (H i ltac:(lia)) as (fi & pi & c & a1 & a2 & a3 & F1 & _ & _ & _ & _ & _ & Q). rewrite nth_error_repeat in F1 by auto. injection F1 as <-.
  rewrite Q. f_equal. apply rho_nan.
Qed.
End Grid.

(** ** the whole program *)
Section Run.
Variable fmt : FL -> text.
Variable stod_ : text -> option FL.
Variables (sch_res sch_tv : nat -> list (list nat)).
Variable b : build.
Variable lib : nat -> nat -> nat -> nat -> sht FL.

Lemma step_all_nan par g e u : runnable sch_res sch_tv b lib par -> over_extremal (pr_bh_mass par) (pr_bh_spin par) ->
  grid_of b (lib (pr_nl par) (pr_nm par) (pr_nlat par) (pr_nphi par)) (pr_cl par) (pr_Rmin par) (pr_Rmax par) (pr_nx par) g ->
  Eom_make g par = Ok e -> length (fst u) = g_n3 g -> length (snd u) = g_n3 g ->
  advance g e u = (repeat nan (g_n3 g), repeat nan (g_n3 g)).
Proof.
  intros Hr O Hg Ee L1 L2. pose proof Hr as (Q1 & Q2 & Q3 & Q4 & Hsh & HL & Hla & Hph & H8 & H2 & Hlm & Dr & Dt).
  assert (Oe := Eom_make_ok g par e Ee).
  assert (HL' : (Z.of_nat (s_lmax (lib (pr_nl par) (pr_nm par) (pr_nlat par) (pr_nphi par))) < 2 ^ 31)%Z) by (rewrite Q1; auto).
  set (F := fun v => with_n (Field_make [] (g_n3 g) f0) v).
  assert (OF : forall v, length v = g_n3 g -> field_ok g (F v)) by (intros v Lv; unfold F, field_ok; cbn; rewrite !vec_length; auto).
  destruct (advance_is_step sch_res sch_tv b lib par g e Hr Hg Oe (F (fst u)) (F (snd u)) (e_scr e) (OF _ L1) (OF _ L2)) as (f' & p' & s' & E & R); [apply Oe|].
  destruct (C94_time_step b _ _ _ _ _ g Hg Hsh HL' H8 H2 par e (e_scr e) (F (fst u)) (F (snd u)) O Ee) as (f2 & p2 & e2 & E2 & N1 & N2); [apply Oe|auto|auto|].
  assert (EE : f2 = f' /\ p2 = p') by (split; congruence). destruct EE as [-> ->]. unfold F in R. cbn [with_n fl_n] in R.
  destruct u as [u1 u2]. cbn [fst snd] in R. rewrite <- R. congruence.
Qed.
Lemma iter_all_nan par g e u0 j : runnable sch_res sch_tv b lib par -> over_extremal (pr_bh_mass par) (pr_bh_spin par) ->
  grid_of b (lib (pr_nl par) (pr_nm par) (pr_nlat par) (pr_nphi par)) (pr_cl par) (pr_Rmin par) (pr_Rmax par) (pr_nx par) g ->
  Eom_make g par = Ok e -> length (fst u0) = g_n3 g -> length (snd u0) = g_n3 g -> (1 <= j)%nat ->
  U g e u0 j = (repeat nan (g_n3 g), repeat nan (g_n3 g)).
Proof.
  intros Hr O Hg Ee L1 L2 Hj. destruct j as [|j]; [lia|]. change (U g e u0 (S j)) with (advance g e (U g e u0 j)).
  assert (Oe := Eom_make_ok g par e Ee). destruct (iter_sizes sch_res sch_tv b lib par g e Hr Hg Oe u0 j L1 L2). eapply step_all_nan; eauto.
Qed.

(** The program accepts an over-extremal spin: it runs all the steps to the end and returns normally,
    and from the first step on both time levels of both fields are NaN at every grid point. *)
Theorem C94_run par file dir fs : Params_make stod_ b file = Ok par -> runnable sch_res sch_tv b lib par -> (1 <= pr_t_step_save par)%nat ->
  over_extremal (pr_bh_mass par) (pr_bh_spin par) ->
  (exists st, main fmt stod_ sch_res sch_tv b lib file dir fs = Ok st) /\
  exists g st0, main_init fmt stod_ sch_res sch_tv b lib file dir fs = Ok (par, g, st0) /\
    forall j, (1 <= j)%nat -> exists st, for_ 1 (1 + j) (main_iter fmt sch_res sch_tv g par dir) st0 = Ok st /\
      let all_nan := repeat nan (pr_nx par * pr_nlat par * pr_nphi par) in
      fl_n (ms_f st) = all_nan /\ fl_n (ms_p st) = all_nan /\ fl_np1 (ms_f st) = all_nan /\ fl_np1 (ms_p st) = all_nan.
Proof.
  intros HP Hr Hs O. split; [eapply C65_run_completes; eauto|].
  destruct (run_init fmt stod_ sch_res sch_tv b lib par file dir fs HP Hr) as (g & e & u0 & st0 & SU & EI & Hg & Oe & N3 & Nx & L1 & L2 & I0).
  pose proof Hr as (Q1 & Q2 & Q3 & Q4 & Hsh & HL & Hla & Hph & H8 & H2 & Hlm & Dr & Dt).
  exists g, st0. split; [exact EI|]. intros j Hj.
  destruct (loop_ok fmt sch_res sch_tv b _ _ _ _ _ g Hg Hsh ltac:(rewrite Q1; auto) H8 H2 ltac:(lia) ltac:(lia) par Hs ltac:(rewrite N3; auto) ltac:(rewrite Nx; auto) dir e Oe u0 fs st0 I0 (1 + j) ltac:(lia)) as (st & E & I).
  replace (1 + j - 1)%nat with j in I by lia. destruct I as (_ & _ & _ & _ & I1 & I2 & _). exists st. split; [exact E|].
  rewrite (iter_all_nan par g e u0 j Hr O Hg (proj1 (proj2 SU)) L1 L2 Hj) in I1, I2. rewrite <- N3. cbv zeta. repeat split; congruence.
Qed.

(** ... and the files of every save but the first are those of an all-NaN field, for the field and the energy density alike *)
Theorem C94_files par file dir fs : Params_make stod_ b file = Ok par -> runnable sch_res sch_tv b lib par -> (1 <= pr_t_step_save par)%nat ->
  over_extremal (pr_bh_mass par) (pr_bh_spin par) -> (Z.of_nat (pr_nt par) < 2 ^ 31)%Z -> (forall fn, fs_can fs fn = true) ->
  exists g t st, grid_of b (lib (pr_nl par) (pr_nm par) (pr_nlat par) (pr_nphi par)) (pr_cl par) (pr_Rmin par) (pr_Rmax par) (pr_nx par) g /\
    is_text fmt g (repeat nan (pr_nx par * pr_nlat par * pr_nphi par)) t /\
    main fmt stod_ sch_res sch_tv b lib file dir fs = Ok st /\
    forall k, (1 <= k)%nat -> (k * pr_t_step_save par < pr_nt par)%nat ->
      fs_file (ms_fs st) (f_file dir k) = Some (contents fs (f_file dir k) ++ t) /\
      fs_file (ms_fs st) (rho_file dir k) = Some (contents fs (rho_file dir k) ++ t).
Proof.
  intros HP Hr Hs O Hnt HC. destruct (C65_run_completes fmt stod_ sch_res sch_tv b lib par file dir fs HP Hr Hs) as (st & EM).
  destruct (run_init fmt stod_ sch_res sch_tv b lib par file dir fs HP Hr) as (g & e & u0 & st0 & SU & EI & Hg & Oe & N3 & Nx & L1 & L2 & I0).
  pose proof Hr as (Q1 & Q2 & Q3 & Q4 & Hsh & HL & Hla & Hph & H8 & H2 & Hlm & Dr & Dt).
  destruct (run_files fmt stod_ sch_res sch_tv b lib par file dir fs st HP Hr Hs Hnt HC EM) as (g' & e' & u0' & (S1 & S2 & S3) & H).
  destruct SU as (T1 & T2 & T3). assert (g' = g) by congruence. subst g'. assert (e' = e) by congruence. subst e'. assert (u0' = u0) by congruence. subst u0'.
  exists g, (r_text fmt g (repeat nan (g_n3 g))), st. split; [exact Hg|]. split; [rewrite <- N3; apply (text_is_text fmt sch_res sch_tv b lib par); auto; apply repeat_length|]. split; [exact EM|].
  intros k Hk Hk2. destruct (H k (or_intror Hk2)) as [A1 A2].
  assert (J : (1 <= k * pr_t_step_save par)%nat) by nia. rewrite (iter_all_nan par g e u0 _ Hr O Hg T2 L1 L2 J) in A1, A2. cbn [fst snd] in A1, A2.
  split; [exact A1|]. rewrite A2. f_equal. f_equal. f_equal. unfold rho_of.
  destruct (rho_all_nan b _ _ _ _ _ g Hg Hsh ltac:(rewrite Q1; auto) H8 H2 e (repeat nan (g_n3 g)) (zero3 g) Oe (repeat_length _ _) (vec_length _ _)) as (e2 & ->). reflexivity.
Qed.
End Run.
End B64.
