(** * Property C70, conclusion: the slopes returned by set_k are the evolution of the documented action. *)
From Coq Require Import Reals Lra.
From Coquelicot Require Import Coquelicot.
From Verif Require Import Base BaseLemmas ForList Arith MFd MCheb MSphere MGrid MParams MField MEom Spec SphereSpec GridSpec LegSpec EomSpec ContSpec KerrSpec
  PGrid PTables PMake PropTables PSphere PSphereR PropSphere PSphereD PropSphereD PGridOp PropGridOp PEom PEomOk PEomR PropEom PCont PropCont PropKerr PLeg PropRad PropGridFilter PropContInst TruncSpec PropTrunc.
Local Open Scope R_scope.

(** a history whose value and time derivative on the slice v = v0 are psi and pi *)
Definition cauchy_data (cl v0 : R) (Psi : event -> R) (psi pi : R -> R -> R -> R) : Prop :=
  forall r th ph, 0 < r -> Psi (Ev v0 r th ph) = at_r cl psi r th ph /\ pd cv Psi (Ev v0 r th ph) = at_r cl pi r th ph.

Lemma near_pos (r : R) (P : R -> Prop) : 0 < r -> (forall s, 0 < s -> P s) -> locally r P.
Proof.
  intros Hr H. exists (mkposreal r Hr). intros s Hs. apply H. unfold ball in Hs. cbn in Hs. unfold AbsRing_ball, abs, minus, plus, opp in Hs. cbn in Hs.
  apply Rabs_def2 in Hs. lra.
Qed.

Lemma jet_of_history cl v0 Psi psi pi r th ph : 0 < r -> cauchy_data cl v0 Psi psi pi ->
  event_jet Psi (Ev v0 r th ph) = true_jet cl psi pi r th ph.
Proof.
  intros Hr H.
  assert (Hf : forall s th ph, 0 < s -> Psi (Ev v0 s th ph) = at_r cl psi s th ph) by (intros; now apply H).
  assert (Hp : forall s th ph, 0 < s -> pd cv Psi (Ev v0 s th ph) = at_r cl pi s th ph) by (intros; now apply H).
  assert (H1 : forall s, 0 < s -> pd cr Psi (Ev v0 s th ph) = Derive (fun y => at_r cl psi y th ph) s).
  { intros s Hs. unfold pd. cbn [upd get xv xr xth xph]. apply Derive_ext_loc, near_pos; auto. }
  assert (H2 : forall s, 0 < s -> pd cph Psi (Ev v0 s th ph) = d_phi (at_r cl psi s) th ph).
  { intros s Hs. unfold pd, d_phi. cbn [upd get xv xr xth xph]. apply Derive_ext. intros; now apply Hf. }
  unfold event_jet, true_jet. cbn [xv xr xth xph]. f_equal.
  - now apply Hf.
  - now apply Hp.
  - now apply H1.
  - unfold pd at 1. cbn [upd get xv xr xth xph]. apply Derive_ext_loc, near_pos; auto.
  - unfold pd at 1. cbn [upd get xv xr xth xph Derive_n]. apply Derive_ext_loc, near_pos; auto.
  - now apply H2.
  - unfold pd at 1. cbn [upd get xv xr xth xph]. apply Derive_ext_loc, near_pos; auto.
  - unfold laplacian, d_theta, d_phi. f_equal.
    + f_equal. apply Derive_ext. intros s. f_equal. apply Derive_ext. intros; now apply Hf.
    + f_equal. apply Derive_ext. intros s. apply Derive_ext. intros; now apply Hf.
  - unfold gradient_squared, d_theta, d_phi. f_equal.
    + f_equal. apply Derive_ext. intros; now apply Hf.
    + f_equal. f_equal. apply Derive_ext. intros; now apply Hf.
Qed.

Section Action.
Variables (b : build) (h : sht R) (cl Rmn Rmx : R) (nx : nat) (g : grid R) (par : params R) (e0 : eom R) (s : scratch R).
Hypothesis Hlaw : lawful b h Ylm_profile.
Hypothesis Htl : tlawful b h Ylm_profile.
Hypothesis Hsz : ((s_lmax h - s_mmax h) * (s_lmax h - s_mmax h) <= s_lmax h + s_mmax h + 1)%nat.
Hypothesis Hpol : off_poles h.
Hypothesis HL31 : (Z.of_nat (s_lmax h) < 2 ^ 31)%Z.
Hypothesis Hg : grid_of b h cl Rmn Rmx nx g.
Hypothesis Hne : Rmn <> Rmx.
Hypothesis Hnx : if use_cheb b then (2 <= nx)%nat else (8 <= nx)%nat.
Hypothesis Hpcl : pr_cl par = cl.
Hypothesis He : Eom_make g par = Ok e0.
Hypothesis Hs : scr_ok (g_n3 g) s.
Local Notation e := (with_scr e0 s).
Local Notation Ma := (pr_bh_mass par).
Local Notation a := (pr_bh_spin par).
Local Notation L := (s_lmax h).
Local Notation d := (if use_cheb b then (nx - 2)%nat else 7%nat).

(** For field data that the grid resolves, the slopes set_k returns are, at every grid point at
    finite radius, the first and second time derivative that a history with these data must have in
    order to satisfy there the Euler-Lagrange equation of the documented action on Kerr. *)
Theorem C70_set_k_evolves_the_documented_action psi pi f p fk pk :
  cl <> 0 -> 0 < Ma -> Rabs a <= Ma -> clean_spin Ma a ->
  resolved L (s_mmax h) d psi -> radial_poly d pi ->
  grid_sampled h g psi f -> grid_sampled h g pi p -> length fk = g_n3 g -> length pk = g_n3 g ->
  exists fk' pk' e', set_k g e f p fk pk = Ok (fk', pk', e') /\
  forall v0 Psi, cauchy_data cl v0 Psi psi pi ->
  forall ix it ip X, (ix < g_nx g)%nat -> (it < g_nlat g)%nat -> (ip < g_nphi g)%nat -> rad_pt (g_radial g) ix = Ok X ->
  0 < X -> 1 / 10 ^ 16 < cl - X ->
    let i := indx_R_th_ph g ix it ip in
    let x := Ev v0 (X / (1 - X / cl)) (grid_theta h it) (grid_phi h ip) in
    twice_diff Psi x -> kfun (theory_of par) (Psi x) <> 0 -> Psi x + 1 <> 0 ->
    pd cv Psi x = nth i fk' 0 /\
    (euler_lagrange (theory_of par) Ma a Psi x <-> pd cv (pd cv Psi) x = nth i pk' 0).
Proof.
  intros Hcl HM Ha Hc Hpsi Hpi Hf Hp Lfk Lpk.
  destruct (C67_right_hand_side_is_exact b h cl Rmn Rmx nx g par e0 s Hlaw Htl Hsz Hpol HL31 Hg Hcl Hne Hnx Hpcl He Hs psi pi f p fk pk HM Ha Hc Hpsi Hpi Hf Hp Lfk Lpk)
    as (fk' & pk' & e' & E & H).
  exists fk', pk', e'. split; [exact E|]. intros v0 Psi Hcd ix it ip X Hx Ht Hph HX H0 H1 i x Hd Hk Hps.
  destruct (H ix it ip X Hx Ht Hph HX) as [F1 F2]. fold i in F1, F2. cbv zeta in F1, F2.
  destruct (inv_r_finite b h cl Rmn Rmx nx g Hg X H0 H1) as [_ Hr]. set (r := X / (1 - X / cl)) in *.
  assert (HN : X <> cl). { pose proof tol_pos. lra. }
  assert (Er : forall w : R -> R -> R -> R, at_r cl w r (grid_theta h it) (grid_phi h ip) = w X (grid_theta h it) (grid_phi h ip)).
  { intros w. unfold at_r, r. now rewrite (r_of_inv cl Hcl X HN). }
  destruct (Hcd r (grid_theta h it) (grid_phi h ip) Hr) as [P1 P2]. fold x in P1, P2. rewrite Er in P1, P2.
  split; [congruence|].
  destruct (gof_sizes _ _ _ _ _ _ _ Hg) as (_ & _ & _ & El & _).
  assert (Hsn : sin (grid_theta h it) <> 0) by (apply off_poles_sin; auto; lia).
  rewrite (C70_field_equation_is_euler_lagrange (theory_of par) Ma a Psi x); auto.
  2: { cbn. apply Rgt_not_eq. now apply Sigma_pos. }
  unfold x at 1 2. cbn [xr xth]. unfold x. rewrite (jet_of_history cl v0 Psi psi pi r _ _ Hr Hcd). fold x.
  rewrite P1 in Hps, Hk. destruct (F2 Hps) as [F3 _]. destruct (F3 H0 H1 Hk) as [F4 F5]. split.
  - apply F5.
  - intros ->. exact F4.
Qed.
End Action.

(** ** Non-vacuity: a history with the data of the example, twice differentiable at every event off the axis *)
Section Sep.
Variables (U A T P : R -> R) (x : event).
Definition sep (y : event) : R := U (xv y) * A (xr y) * T (xth y) * P (xph y).
Lemma sep_pd m y : pd m sep y =
  match m with
  | cv => Derive U (xv y) * A (xr y) * T (xth y) * P (xph y) | cr => U (xv y) * Derive A (xr y) * T (xth y) * P (xph y)
  | cth => U (xv y) * A (xr y) * Derive T (xth y) * P (xph y) | cph => U (xv y) * A (xr y) * T (xth y) * Derive P (xph y)
  end.
Proof.
  unfold pd, sep. destruct m; cbn [upd get xv xr xth xph].
  - rewrite (Derive_ext _ (fun s => (A (xr y) * T (xth y) * P (xph y)) * U s)) by (intros; ring). rewrite Derive_scal. ring.
  - rewrite (Derive_ext _ (fun s => (U (xv y) * T (xth y) * P (xph y)) * A s)) by (intros; ring). rewrite Derive_scal. ring.
  - rewrite (Derive_ext _ (fun s => (U (xv y) * A (xr y) * P (xph y)) * T s)) by (intros; ring). rewrite Derive_scal. ring.
  - rewrite Derive_scal. ring.
Qed.
End Sep.
Lemma sep_ex U A T P x m : ex_derive U (xv x) -> ex_derive A (xr x) -> ex_derive T (xth x) -> ex_derive P (xph x) ->
  ex_derive (fun s => sep U A T P (upd x m s)) (get x m).
Proof.
  intros HU HA HT HP. unfold sep. destruct m; cbn [upd get xv xr xth xph].
  - apply (ex_derive_ext (fun s => (A (xr x) * T (xth x) * P (xph x)) * U s)); [intros; simpl; ring|]. now apply ex_derive_scal.
  - apply (ex_derive_ext (fun s => (U (xv x) * T (xth x) * P (xph x)) * A s)); [intros; simpl; ring|]. now apply ex_derive_scal.
  - apply (ex_derive_ext (fun s => (U (xv x) * A (xr x) * P (xph x)) * T s)); [intros; simpl; ring|]. now apply ex_derive_scal.
  - apply (ex_derive_ext (fun s => (U (xv x) * A (xr x) * T (xth x)) * P s)); [intros; simpl; ring|]. now apply ex_derive_scal.
Qed.
Definition dsep U A T P (m : coord) : event -> R :=
  match m with cv => sep (Derive U) A T P | cr => sep U (Derive A) T P | cth => sep U A (Derive T) P | cph => sep U A T (Derive P) end.
Lemma sep_dsep U A T P m y : pd m (sep U A T P) y = dsep U A T P m y.
Proof. rewrite sep_pd. destruct m; reflexivity. Qed.
Lemma sep_twice U A T P x :
  ex_derive U (xv x) -> ex_derive A (xr x) -> ex_derive T (xth x) -> ex_derive P (xph x) ->
  ex_derive (Derive U) (xv x) -> ex_derive (Derive A) (xr x) -> ex_derive (Derive T) (xth x) -> ex_derive (Derive P) (xph x) ->
  twice_diff (sep U A T P) x.
Proof.
  intros HU HA HT HP HU' HA' HT' HP'. split; [|split].
  - intros m. now apply sep_ex.
  - intros m n. apply (ex_derive_ext (fun s => dsep U A T P n (upd x m s))); [intros; symmetry; apply sep_dsep|].
    destruct n; cbn [dsep]; now apply sep_ex.
  - intros m n. assert (K : forall m n, pd m (pd n (sep U A T P)) x = pd m (dsep U A T P n) x).
    { intros m' n'. unfold pd at 1 3. apply Derive_ext. intros s. apply sep_dsep. }
    rewrite !K. destruct m, n; cbn [dsep]; rewrite ?sep_dsep; reflexivity.
Qed.

Lemma profile_twice l m th : ex_derive (Derive (Ylm_profile l m)) th.
Proof.
  apply (ex_derive_ext (dprofile l m)); [intros t; symmetry; apply is_derive_unique, profile_derive|].
  unfold dprofile.
  assert (Hsin : forall k t, ex_derive (fun t => sin t ^ k) t) by (intros k t; eexists; apply sinpow_derive).
  assert (Hcos : forall t, ex_derive cos t) by (intros t; eexists; apply is_derive_cos).
  assert (Hleg : forall k t, ex_derive (fun t => legendre l k (cos t)) t).
  { intros k t. apply (ex_derive_comp (legendre l k) cos); auto. eexists. apply legendre_derive. }
  apply ex_derive_scal. apply (ex_derive_minus (V := R_NormedModule)).
  - apply ex_derive_mult; auto. apply ex_derive_mult; auto. apply ex_derive_scal. auto.
  - apply ex_derive_mult; auto.
Qed.
Lemma comp_square_twice (cl r : R) : 0 < cl -> 0 < r ->
  let A := fun r => 2 * (r / (1 + r / cl)) ^ 2 in ex_derive A r /\ ex_derive (Derive A) r.
Proof.
  intros Hc Hr A.
  assert (D : forall s, 0 < s -> is_derive A s (4 * s / (1 + s / cl) ^ 3)).
  { intros s H. assert (0 < s / cl) by (apply Rdiv_lt_0_compat; auto). unfold A. auto_derive; [lra|]. field. repeat split; lra. }
  split; [eexists; now apply D|].
  apply (ex_derive_ext_loc (fun s => 4 * s / (1 + s / cl) ^ 3)).
  - apply near_pos; auto. intros s H. symmetry. now apply is_derive_unique, D.
  - assert (0 < r / cl) by (apply Rdiv_lt_0_compat; auto). auto_derive. repeat split; auto.
    replace (r * / cl) with (r / cl) in * by reflexivity. repeat apply Rmult_integral_contrapositive_currified; lra.
Qed.

(** All hypotheses of C70_set_k_evolves_the_documented_action hold in this case: grid and field of
    C67_C68_nonvacuous, initially at rest; the history is psi cos(v). *)
Example C70_nonvacuous cheb : exists h g par e0 psi f p, let b := Build cheb true false in
  let dd := if cheb then (10 - 2)%nat else 7%nat in
  lawful b h Ylm_profile /\ tlawful b h Ylm_profile /\ ((s_lmax h - s_mmax h) * (s_lmax h - s_mmax h) <= s_lmax h + s_mmax h + 1)%nat /\ off_poles h /\ (Z.of_nat (s_lmax h) < 2 ^ 31)%Z /\
  grid_of b h 50 2 50 10 g /\ pr_cl par = 50 /\ Eom_make g par = Ok e0 /\ scr_ok (g_n3 g) (e_scr e0) /\
  0 < pr_bh_mass par /\ Rabs (pr_bh_spin par) <= pr_bh_mass par /\ clean_spin (pr_bh_mass par) (pr_bh_spin par) /\
  resolved (s_lmax h) (s_mmax h) dd psi /\ radial_poly dd (fun _ _ _ => 0) /\
  grid_sampled h g psi f /\ grid_sampled h g (fun _ _ _ => 0) p /\
  exists Psi, cauchy_data 50 0 Psi psi (fun _ _ _ => 0) /\
    (forall r th ph, 0 < r -> twice_diff Psi (Ev 0 r th ph)) /\
    pd cv (pd cv Psi) (Ev 0 50 (PI / 2) 0) = - psi 25 (PI / 2) 0.
Proof.
  destruct (C67_C68_nonvacuous cheb) as (h & g & par & e0 & psi & pi & f & p0 & H). cbv zeta in H.
  destruct H as (H1 & H2 & H2' & H3 & H4 & H5 & H6 & H7 & H8 & H9 & H10 & H11 & H12 & _ & H14 & _ & Hpsi & _).
  assert (SE : exists v, grid_sampled h g (fun _ _ _ => 0) v).
  { destruct (radial_samples_ex g (fun it ip X => 0)) as (v & Lv & Hv).
    - intros ix Hix. eapply pt_ex; [exact H5|]. destruct (gof_sizes _ _ _ _ _ _ _ H5) as (_ & En & _). lia.
    - exists v. split; auto. }
  destruct SE as (p & Hp).
  exists h, g, par, e0, psi, f, p. cbv zeta. repeat (split; [assumption|]).
  split. { exists (fun _ _ => []). intros th ph. split; [cbn; lia|]. intros X. reflexivity. }
  split; [assumption|]. split; [assumption|].
  pose (A := fun r : R => 2 * (r / (1 + r / 50)) ^ 2). pose (P := fun q : R => cos (2 * q)).
  assert (DC : forall v, Derive cos v = - sin v) by (intros v; apply is_derive_unique, is_derive_cos).
  exists (sep cos A (Ylm_profile 3 2) P). split; [|split].
  - intros r th ph Hr. split.
    + unfold sep, at_r. cbn [xv xr xth xph]. rewrite Hpsi, cos_0. unfold A, P. ring.
    + rewrite sep_dsep. unfold dsep, sep, at_r. cbn [xv xr xth xph]. rewrite DC, sin_0. ring.
  - intros r th ph Hr. destruct (comp_square_twice 50 r) as [K1 K2]; [lra|auto|].
    assert (DP : forall q, is_derive P q (- 2 * sin (2 * q))) by (intros q; unfold P; auto_derive; auto; ring).
    apply sep_twice; cbn [xv xr xth xph]; auto.
    + eexists; apply is_derive_cos.
    + eexists; apply profile_derive.
    + eexists; apply DP.
    + apply (ex_derive_ext (fun v => - sin v)); [intros; symmetry; apply DC|]. auto_derive. auto.
    + apply profile_twice.
    + apply (ex_derive_ext (fun q => - 2 * sin (2 * q))); [intros; symmetry; apply is_derive_unique, DP|]. auto_derive. auto.
  - transitivity (pd cv (sep (Derive cos) A (Ylm_profile 3 2) P) (Ev 0 50 (PI / 2) 0)).
    { unfold pd at 1 3. apply Derive_ext. intros s. apply sep_dsep. }
    rewrite sep_dsep. unfold dsep, sep. cbn [xv xr xth xph]. rewrite Hpsi.
    assert (E : Derive (Derive cos) 0 = - 1).
    { rewrite (Derive_ext _ (fun v => - sin v)) by apply DC. apply is_derive_unique. auto_derive; auto. rewrite cos_0. ring. }
    rewrite E. unfold A, P. replace (50 / (1 + 50 / 50)) with 25 by field. ring.
Qed.
