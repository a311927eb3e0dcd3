(** * Property C80: on a non-rotating black hole the harmonics evolve separately (real arithmetic). *)
From Coq Require Import Reals Lra.
From Coquelicot Require Import Coquelicot.
From Verif Require Import Base BaseLemmas ForList Arith MFd MCheb MSphere MGrid MParams MField MEom
  Spec SphereSpec GridSpec EomSpec RkSpec SymSpec OrderSpec ZenoSpec PSum PGrid PTables PMake PSphere PSphere2 PSphereR PGridOp
  PFdR PropFd2 PropSphere PropTables PropCoord PropGridOp PropRad PropGridFilter PConc PEom PEomOk PRk PEomR PropRk PDriver PropDriver PLinear PropSym PCont PRot PropRot PropLadder PropSphereInst LegSpec PJet PJet2 PLinOde PropOrder PropZeno.
Local Open Scope R_scope.

(** the array is u(radius) times one real harmonic: u(R_ix) Re(z Y_lm)(theta_it, phi_ip), up to normalisation *)
Definition harmonic_shape (P : profiles) (h : sht R) (g : grid R) (l m : nat) (z : R * R) (u : nat -> R) (v : list R) : Prop :=
  length v = g_n3 g /\ forall ix it ip, (ix < g_nx g)%nat -> (it < g_nlat g)%nat -> (ip < g_nphi g)%nat ->
    nth (indx_R_th_ph g ix it ip) v 0 = u ix * mode P l m z (grid_theta h it) (grid_phi h ip).
(** the array depends on the radius only *)
Definition spherical (g : grid R) (u : nat -> R) (v : list R) : Prop :=
  length v = g_n3 g /\ forall ix it ip, (ix < g_nx g)%nat -> (it < g_nlat g)%nat -> (ip < g_nphi g)%nat ->
    nth (indx_R_th_ph g ix it ip) v 0 = u ix.

Section G.
Variables (b : build) (h : sht R) (P : profiles) (cl Rmin Rmax : R) (nx : nat) (g : grid R).
Hypothesis Hg : grid_of b h cl Rmin Rmax nx g.
Hypothesis Hlaw : lawful b h P.
Hypothesis HL : (Z.of_nat (s_lmax h) < 2 ^ 31)%Z.
Hypothesis H8 : (use_cheb b = false -> 8 <= nx)%nat.
Hypothesis H2 : (use_cheb b = true -> 2 <= nx)%nat.
Hypothesis Hln : linear_sht h.
Local Notation n := (g_n3 g).
Local Notation N := (s_nlat h * s_nphi h)%nat.
Local Notation L := (s_lmax h).
Local Notation M := (s_mmax h).
Local Notation nlm := (nlm_calc (s_lmax h) (s_mmax h)).
Local Notation Hsh := (lw_shapes b h P Hlaw).

(** ** the radial operators act on the shells as one matrix *)
Lemma nth_sh v ix k : (k < N)%nat -> nth k (shell g v ix) 0 = nth (N * ix + k) v 0.
Proof.
  intros Hk. destruct (gof_sizes b h cl Rmin Rmax nx g Hg) as (Eb & En & _ & El & Ep & _).
  rewrite <- El, <- Ep in *. now rewrite PGridOp.nth_shell.
Qed.
Lemma pos_pt k : (k < N)%nat -> exists it ip, (it < g_nlat g)%nat /\ (ip < g_nphi g)%nat /\ k = spos b h it ip /\ forall ix, indx_R_th_ph g ix it ip = (N * ix + k)%nat.
Proof.
  intros Hk. destruct (gof_sizes b h cl Rmin Rmax nx g Hg) as (Eb & En & _ & El & Ep & _). rewrite <- El, <- Ep in *.
  destruct (ix_th_ph_surj (g_bld g) (g_nlat g) (g_nphi g) k) as (it & ip & Ht & Hp & E); auto. exists it, ip. split; auto. split; auto.
  split; [|intros ix; unfold indx_R_th_ph; rewrite <- E; unfold ix_R_th_ph, ix_th_ph; destruct (contiguous (g_bld g)); ring].
  rewrite <- E. unfold spos, ix_th_ph. now rewrite Eb, El, Ep.
Qed.
Lemma pos_of ix it ip : (it < g_nlat g)%nat -> (ip < g_nphi g)%nat -> indx_R_th_ph g ix it ip = (N * ix + spos b h it ip)%nat /\ (spos b h it ip < N)%nat.
Proof.
  intros Ht Hp. destruct (gof_sizes b h cl Rmin Rmax nx g Hg) as (Eb & En & _ & El & Ep & _).
  assert (E : spos b h it ip = ix_th_ph (g_bld g) (g_nlat g) (g_nphi g) it ip) by (unfold spos, ix_th_ph; now rewrite Eb, El, Ep).
  split; [|rewrite E, <- El, <- Ep; now apply ix_th_ph_lt]. rewrite E. rewrite <- El, <- Ep. unfold indx_R_th_ph, ix_R_th_ph, ix_th_ph. destruct (contiguous (g_bld g)); ring.
Qed.

Lemma shell_len v ix : length v = n -> (ix < g_nx g)%nat -> length (shell g v ix) = N.
Proof. intros Lv Hx. destruct (gof_sizes b h cl Rmin Rmax nx g Hg) as (Eb & En & _ & El & Ep & _). rewrite shell_length; auto; congruence. Qed.
Definition rad_matrix (op : list R -> list R) : Prop := exists c : nat -> nat -> R,
  forall v, length v = n -> length (op v) = n /\ forall ix k, (ix < g_nx g)%nat -> (k < N)%nat ->
    nth (N * ix + k) (op v) 0 = psum (g_nx g) (fun j => c ix j * nth (N * j + k) v 0) 1.
Lemma line_matrix (op : list R -> list R) (lop : list R -> res (list R)) :
  (forall v, length v = n -> length (op v) = n /\ forall it ip, (it < g_nlat g)%nat -> (ip < g_nphi g)%nat -> lop (rline g v it ip) = Ok (rline g (op v) it ip)) ->
  (forall w, length w = g_nx g -> exists o, lop w = Ok o /\ length o = g_nx g) ->
  (forall a v c w ov ow, length v = g_nx g -> length w = g_nx g -> lop v = Ok ov -> lop w = Ok ow -> lop (lincomb a v c w) = Ok (lincomb a ov c ow)) ->
  rad_matrix op.
Proof.
  intros Hop Htot Hlin. set (ev := fun ix w => match lop w with Ok o => nth ix o 0 | _ => 0 end).
  assert (LF : forall ix, (ix < g_nx g)%nat -> linfun (g_nx g) (ev ix)).
  { intros ix Hx a v c w Lv Lw. unfold ev. destruct (Htot v Lv) as (ov & E1 & L1). destruct (Htot w Lw) as (ow & E2 & L2).
    rewrite (Hlin a v c w ov ow), E1, E2 by auto. now rewrite (nth_lincomb _ _ _ _ _ (g_nx g)) by auto. }
  exists (fun ix j => ev ix (unitv (g_nx g) j)). intros v Lv. destruct (Hop v Lv) as [Lo Ho]. split; auto. intros ix k Hx Hk.
  destruct (pos_pt k Hk) as (it & ip & Ht & Hp & _ & E). rewrite <- E.
  assert (EV : nth (indx_R_th_ph g ix it ip) (op v) 0 = ev ix (rline g v it ip)) by (unfold ev; rewrite (Ho it ip Ht Hp), nth_rl; auto).
  rewrite EV. rewrite (linfun_sum (g_nx g)) by (auto; apply rline_length). apply psum_ext. intros j Hj. rewrite nth_rl by auto. now rewrite E.
Qed.
Lemma dr_matrix : rad_matrix (dr_of g).
Proof.
  assert (Lz : length (zero3 g) = n) by apply vec_length. destruct (gof_sizes b h cl Rmin Rmax nx g Hg) as (Eb & En & _ & El & Ep & _ & _ & LdR & Ld2 & _).
  apply (line_matrix _ (line_r g)).
  - intros v Lv. destruct (C23_radial b h cl Rmin Rmax nx g Hg v (zero3 g) H8 H2 Lv Lz) as (x1 & x2 & x3 & E1 & E2 & E3 & L1 & L2 & L3 & A).
    unfold dr_of. rewrite E2. split; auto. intros it ip Ht Hp. apply A; auto.
  - intros w Lw. assert (R7 : rad_big g 7) by (apply (gof_rad b h cl Rmin Rmax nx); auto; intros H; specialize (H8 H); lia).
    destruct (line_r_total g w R7 Lw) as (d & o & _ & E & _ & Lo & _); try congruence. eauto.
  - intros. now apply (line_r_linear b h cl Rmin Rmax nx g Hg).
Qed.
Lemma drr_matrix : rad_matrix (drr_of g).
Proof.
  assert (Lz : length (zero3 g) = n) by apply vec_length. destruct (gof_sizes b h cl Rmin Rmax nx g Hg) as (Eb & En & _ & El & Ep & _ & _ & LdR & Ld2 & _).
  apply (line_matrix _ (line_r2 g)).
  - intros v Lv. destruct (C23_radial b h cl Rmin Rmax nx g Hg v (zero3 g) H8 H2 Lv Lz) as (x1 & x2 & x3 & E1 & E2 & E3 & L1 & L2 & L3 & A).
    unfold drr_of. rewrite E3. split; auto. intros it ip Ht Hp. apply A; auto.
  - intros w Lw. assert (R8 : rad_big g 8) by (apply (gof_rad b h cl Rmin Rmax nx); auto).
    destruct (line_r2_total g w R8 Lw) as (d & dd & o & _ & _ & _ & _ & E & Lo & _); try congruence. eauto.
  - intros. now apply (line_r2_linear b h cl Rmin Rmax nx g Hg H8 H2).
Qed.

(** ** the coefficients do not depend on the angles, and the cross terms with d/dphi vanish *)
Section E.
Variables (par : params R) (e : eom R).
Hypothesis He : Eom_make g par = Ok e.
Hypothesis Ha : pr_bh_spin par = 0.
Definition radial_coef (ix : nat) : coef R := coef_at (pr_bh_mass par) 0 (inv_r_at g (pr_cl par) (node_R (use_cheb b) Rmin Rmax nx ix)) 0.
Lemma coef_theta m ir th : coef_at m 0 ir th = coef_at m 0 ir 0.
Proof. assert (E : Sigma_ 0 ir th = Sigma_ 0 ir 0) by (unfold Sigma_; R_ops; ring). unfold coef_at. now rewrite E. Qed.
Lemma two_points : (2 <= nx)%nat.
Proof. destruct (use_cheb b) eqn:E; [specialize (H2 eq_refl)|specialize (H8 eq_refl)]; lia. Qed.
Lemma coef_radial ix k : (ix < g_nx g)%nat -> (k < N)%nat -> nth (N * ix + k) (e_coef e) coef0 = radial_coef ix.
Proof.
  intros Hx Hk. destruct (pos_pt k Hk) as (it & ip & Ht & Hp & _ & E). rewrite <- E.
  rewrite (coef_values b h cl Rmin Rmax nx g Hg par e) by (auto; apply two_points). rewrite Ha. unfold radial_coef. apply coef_theta.
Qed.
Lemma cross_zero ix : c_dphi_dr_f (radial_coef ix) = 0 /\ c_dr_f_dphi_f (radial_coef ix) = 0.
Proof. unfold radial_coef, coef_at. cbn [c_dphi_dr_f c_dr_f_dphi_f]. R_ops. unfold Rdiv. split; ring. Qed.

(** slope of p in the free theory *)
Hypothesis Fe : free_eqs e.
Lemma Oe : eom_ok g e.
Proof. exact (Eom_make_ok _ _ _ He). Qed.
Lemma idx_lt ix k : (ix < g_nx g)%nat -> (k < N)%nat -> (N * ix + k < n)%nat.
Proof.
  intros Hx Hk. destruct (pos_pt k Hk) as (it & ip & Ht & Hp & _ & E). rewrite <- E. now apply ix_R_th_ph_lt.
Qed.
Lemma idx_of i : (i < n)%nat -> exists ix k, (ix < g_nx g)%nat /\ (k < N)%nat /\ i = (N * ix + k)%nat.
Proof.
  intros Hi. destruct (ix_R_th_ph_surj (g_bld g) (g_nx g) (g_nlat g) (g_nphi g) i Hi) as (ix & it & ip & Hx & Ht & Hp & E).
  destruct (pos_of ix it ip Ht Hp) as [E1 E2]. exists ix, (spos b h it ip). split; auto. split; auto. rewrite <- E1. symmetry. exact E.
Qed.
Lemma free_slope f p ix k : length f = n -> length p = n -> (ix < g_nx g)%nat -> (k < N)%nat ->
  let c := radial_coef ix in let i := (N * ix + k)%nat in
  nth i (prhs_of g e f p) 0 = c_p c * nth i p 0 + c_dr_f c * nth i (dr_of g f) 0 + c_dr_p c * nth i (dr_of g p) 0 + c_dr_dr_f c * nth i (drr_of g f) 0
    + c_lap_f c * nth i (lap_of g f) 0 - c_pre c * (/ e_k0 e * e_v2 e) * nth i f 0.
Proof.
  intros Lf Lp Hx Hk c i. unfold i. rewrite (prhs_at b h cl Rmin Rmax nx g Hg Hsh HL H8 H2) by (auto using Oe; now apply idx_lt).
  rewrite coef_radial by auto. fold c. destruct (cross_zero ix) as [C1 C2]. fold c in C1, C2. destruct Fe as (Z1 & Z2 & Z3 & Z4 & Z5).
  assert (I : forall x, inverse_k e x = / e_k0 e). { intros x. unfold inverse_k. R_ops. rewrite Z1, Z2, Z3. unfold Rdiv. rewrite !Rmult_0_l, !Rplus_0_r. ring. }
  assert (K : forall x, kprime e x = 0). { intros x. unfold kprime. R_ops. rewrite Z1, Z2, Z3. unfold Rdiv. ring. }
  unfold p_rhs, vprime. rewrite I, K, C1. R_ops. rewrite Z4, Z5. unfold Rdiv. ring.
Qed.

(** ** a harmonic that is absent stays absent *)
Section Absent.
Variables l m : nat.
Hypothesis Hl : (l <= L)%nat.
Hypothesis Hm : (m <= l)%nat.
Hypothesis HM : (m <= M)%nat.
Definition absent (v : list R) : Prop := length v = n /\ forall ix, (ix < g_nx g)%nat -> harmonic h g v ix l m = (0, 0).
(** coefficient of the harmonic in data on the sphere *)
Definition hc (s : list R) : R * R := nth (LM L l m) (s_an h s) (0, 0).
Lemma hc_lin a v c w : length v = N -> length w = N -> hc (lincomb a v c w) = (a * fst (hc v) + c * fst (hc w), a * snd (hc v) + c * snd (hc w)).
Proof.
  intros Lv Lw. unfold hc. rewrite <- (sh_nspat h Hsh) in Lv, Lw. rewrite (ln_an h Hln) by auto.
  now rewrite (nth_clincomb _ _ _ _ _ nlm) by (first [apply (sh_an h Hsh); auto | apply LM_lt; auto; apply (sh_mmax h Hsh)]).
Qed.
(** data on a shell that are combinations of data without the harmonic *)
Lemma hc_comb (J : nat) (c : nat -> R) (d : nat -> list R) s : length s = N -> (forall j, (j < J)%nat -> length (d j) = N /\ hc (d j) = (0, 0)) ->
  (forall k, (k < N)%nat -> nth k s 0 = psum J (fun j => c j * nth k (d j) 0) 1) -> hc s = (0, 0).
Proof.
  revert s. induction J as [|J IH]; intros s Ls Hd Hs.
  - assert (E : s = lincomb 0 s 0 s). { apply (lincomb_ext _ _ _ _ _ N); auto. intros i Hi. rewrite Hs by auto. cbn. ring. }
    rewrite E, hc_lin by auto. apply (f_equal2 (@pair R R)); ring.
  - set (s' := map (fun k => psum J (fun j => c j * nth k (d j) 0) 1) (seq 0 N)). assert (L' : length s' = N) by (unfold s'; now rewrite map_length, seq_length).
    destruct (Hd J ltac:(lia)) as [LJ HJ].
    assert (E : s = lincomb 1 s' (c J) (d J)). { apply (lincomb_ext _ _ _ _ _ N); auto. intros i Hi. rewrite Hs by auto. unfold s'. rewrite nth_ms by auto. cbn [psum]. rewrite pow1. ring. }
    rewrite E, hc_lin by auto. rewrite HJ, (IH s'); auto; [|intros k Hk; unfold s'; now rewrite nth_ms]. cbn [fst snd]. apply (f_equal2 (@pair R R)); ring.
Qed.
Lemma absent_rad op v : rad_matrix op -> absent v -> absent (op v).
Proof.
  intros (c & Hc) [Lv Hv]. destruct (Hc v Lv) as [Lo Ho]. split; auto. intros ix Hx.
  change (hc (shell g (op v) ix) = (0, 0)). apply (hc_comb (g_nx g) (c ix) (fun j => shell g v j)); [now apply shell_len| |].
  - intros j Hj. split; [now apply shell_len|]. exact (Hv j Hj).
  - intros k Hk. rewrite nth_sh by auto. rewrite Ho by auto. apply psum_ext. intros j Hj. now rewrite nth_sh.
Qed.
Lemma absent_axpy t k v : absent k -> absent v -> absent (axpy t k v).
Proof.
  intros [Lk Hk] [Lv Hv]. split; [now apply axpy_length|]. intros ix Hx.
  assert (E : axpy t k v = lincomb 1 v t k). { apply (lincomb_ext _ _ _ _ _ n); auto; [now apply axpy_length|]. intros i Hi. rewrite (nth_axpy b h nx g H8 H2) by auto. ring. }
  rewrite E. unfold harmonic. rewrite (shell_lin b h cl Rmin Rmax nx g Hg H8 H2) by auto.
  change (hc (lincomb 1 (shell g v ix) t (shell g k ix)) = (0, 0)). rewrite hc_lin by now apply shell_len.
  specialize (Hk ix Hx). specialize (Hv ix Hx). unfold harmonic in Hk, Hv. unfold hc. rewrite Hk, Hv. cbn [fst snd]. apply (f_equal2 (@pair R R)); ring.
Qed.
(** an operator that multiplies every harmonic by a number *)
Lemma absent_sph y s : length y = nlm -> s_an h s = s_an h (s_sy h y) -> nth (LM L l m) y (0, 0) = (0, 0) -> nth (LM L l m) (s_an h s) (0, 0) = (0, 0).
Proof.
  intros Ly Es Hy. rewrite Es.
  set (a := fun l m => nth (LM L l m) y (0, 0)). set (a' := fun l m : nat => (fst (a l m), if Nat.eqb m 0 then 0 else snd (a l m))).
  destruct (pack h a' (sh_mmax h Hsh)) as (c & Hc).
  assert (S1 : sampled b h (real_field P L M a) (s_sy h y)) by (apply (lw_syn b h P Hlaw); split; auto).
  assert (S2 : sampled b h (real_field P L M a') (s_sy h c)) by (now apply (lw_syn b h P Hlaw)).
  assert (EQ : s_sy h y = s_sy h c).
  { apply (sampled_unique b h (real_field P L M a)); auto. eapply sampled_ext; [|exact S2]. intros th ph. apply Rsum_ext. intros l' _. apply Rsum_ext. intros m' _.
    unfold mode, a'. destruct (Nat.eqb m' 0); reflexivity. }
  rewrite EQ, (lw_ana b h P Hlaw c a' Hc) by (intros q; reflexivity). destruct Hc as [_ Hc]. rewrite Hc by auto. unfold a', a. rewrite Hy. cbn [fst snd]. destruct (Nat.eqb m 0); reflexivity.
Qed.
Lemma absent_lap v : absent v -> absent (lap_of g v).
Proof.
  intros [Lv Hv]. assert (Lz : length (zero3 g) = n) by apply vec_length. destruct (gof_sizes b h cl Rmin Rmax nx g Hg) as (Eb & En & _ & El & Ep & Hs & _).
  destruct (C23_angular b h cl Rmin Rmax nx g Hg v (zero3 g) Hsh HL Lv Lz) as (x1 & x2 & x3 & E1 & E2 & E3 & L1 & L2 & L3 & A).
  unfold lap_of. rewrite E2. split; auto. intros ix Hx. destruct (A ix Hx) as (_ & A2 & _). pose proof (shell_len v ix Lv Hx) as LS.
  assert (L0 : length (sph0 g) = N) by (rewrite sph0_length; congruence).
  destruct (laplace_ok b h (g_sphere g) Hsh Hs (shell g v ix) (sph0 g) LS L0) as (y & B1 & Ly & _ & Hy). rewrite A2 in B1. injection B1 as B1.
  unfold harmonic. apply (absent_sph y); auto; [now rewrite B1|]. specialize (Hy l m Hl Hm HM). specialize (Hv ix Hx). unfold harmonic in Hv. change (@c0 R _) with (0, 0) in Hy.
  rewrite Hy, Hv. destruct (_ && _); auto. unfold cmulr. cbn [fst snd]. R_ops. apply (f_equal2 (@pair R R)); ring.
Qed.
Lemma absent_filt v : absent v -> absent (filt_of g v).
Proof.
  intros [Lv Hv]. split; [now apply (filter_total b h cl Rmin Rmax nx g Hg Hsh H8 H2)|]. intros ix Hx.
  destruct (filt_shell b h P cl Rmin Rmax nx g Hg Hlaw H8 H2 v ix Lv Hx) as [Lf E].
  destruct (filter_spec b h P cl Rmin Rmax nx g Hg Hlaw (shell g v ix) _ (shell_len v ix Lv Hx) E) as (_ & _ & F).
  unfold harmonic. rewrite F by auto. specialize (Hv ix Hx). unfold harmonic in Hv. rewrite Hv. cbn [fst snd]. destruct (Nat.eqb m 0); apply (f_equal2 (@pair R R)); ring.
Qed.
Definition absent2 (u : state R) : Prop := absent (fst u) /\ absent (snd u).
Lemma absent_rhs u : absent2 u -> absent2 (rhs_of g e u).
Proof.
  intros [Hf Hp]. split; [exact Hp|]. pose proof Hf as [Lf _]. pose proof Hp as [Lp _]. unfold rhs_of. cbn [snd].
  pose proof (rhs_sized b h cl Rmin Rmax nx g Hg Hsh HL H8 H2 e u Oe (conj Lf Lp)) as [_ Lr]. cbn [rhs_of snd] in Lr.
  split; auto. intros ix Hx. set (c := radial_coef ix).
  pose proof (absent_rad _ _ dr_matrix Hf) as D1. pose proof (absent_rad _ _ dr_matrix Hp) as D2. pose proof (absent_rad _ _ drr_matrix Hf) as D3. pose proof (absent_lap _ Hf) as D4.
  change (hc (shell g (prhs_of g e (fst u) (snd u)) ix) = (0, 0)).
  apply (hc_comb 6 (fun j => match j with 0 => c_p c | 1 => c_dr_f c | 2 => c_dr_p c | 3 => c_dr_dr_f c | 4 => c_lap_f c | _ => - (c_pre c * (/ e_k0 e * e_v2 e)) end)%nat
    (fun j => shell g match j with 0 => snd u | 1 => dr_of g (fst u) | 2 => dr_of g (snd u) | 3 => drr_of g (fst u) | 4 => lap_of g (fst u) | _ => fst u end%nat ix)).
  - now apply shell_len.
  - intros j Hj. assert (X : forall v, absent v -> length (shell g v ix) = N /\ hc (shell g v ix) = (0, 0)) by (intros v [Lv Hv]; split; [now apply shell_len|exact (Hv ix Hx)]).
    apply X. destruct j as [|[|[|[|[|j]]]]]; auto.
  - intros k Hk. rewrite nth_sh by auto. rewrite free_slope by auto. fold c. cbn [psum]. rewrite !pow1, !nth_sh by auto. ring.
Qed.
Lemma absent_axpy2 t k v : absent2 k -> absent2 v -> absent2 (axpy2 t k v).
Proof. intros [A B] [C D]. split; cbn [axpy2 fst snd]; now apply absent_axpy. Qed.
Lemma absent_advance u : absent2 u -> absent2 (advance g e u).
Proof.
  intros [A B]. Transparent advance. unfold advance. Opaque advance.
  assert (E0 : absent2 (filt_of g (fst u), filt_of g (snd u))) by (split; cbn [fst snd]; now apply absent_filt).
  unfold rk4. cbv zeta. repeat first [assumption|apply absent_axpy2|apply absent_rhs].
Qed.
Lemma absent_iter k u : absent2 u -> absent2 (Nat.iter k (advance g e) u).
Proof. intros H. induction k as [|k IH]; [exact H|]. change (absent2 (advance g e (Nat.iter k (advance g e) u))). now apply absent_advance. Qed.

(** ** C80.  No rotation, constant k, quadratic V.  The coefficient of a harmonic on every shell after k steps depends on the
    initial coefficients of that harmonic only: two runs that agree in them initially agree in them for ever, whatever
    the rest of the data. *)
Theorem C80_harmonics_evolve_separately k (f1 p1 f2 p2 : field R) : field_ok g f1 -> field_ok g p1 -> field_ok g f2 -> field_ok g p2 ->
  (forall ix, (ix < g_nx g)%nat -> harmonic h g (fl_n f1) ix l m = harmonic h g (fl_n f2) ix l m) ->
  (forall ix, (ix < g_nx g)%nat -> harmonic h g (fl_n p1) ix l m = harmonic h g (fl_n p2) ix l m) ->
  exists f1' p1' e1' f2' p2' e2', steps g k (f1, p1, e) = Ok (f1', p1', e1') /\ steps g k (f2, p2, e) = Ok (f2', p2', e2') /\
    forall ix, (ix < g_nx g)%nat -> harmonic h g (fl_n f1') ix l m = harmonic h g (fl_n f2') ix l m /\ harmonic h g (fl_n p1') ix l m = harmonic h g (fl_n p2') ix l m.
Proof.
  intros O1 Q1 O2 Q2 Ef Ep. pose proof O1 as (_ & L1 & _). pose proof Q1 as (_ & L2 & _). pose proof O2 as (_ & L3 & _). pose proof Q2 as (_ & L4 & _).
  set (w := lincomb 1 (fl_n f1) (-1) (fl_n f2)). set (q := lincomb 1 (fl_n p1) (-1) (fl_n p2)).
  assert (Lw : length w = n) by now apply lincomb_length. assert (Lq : length q = n) by now apply lincomb_length.
  assert (HD : forall x y ix, length x = n -> length y = n -> (ix < g_nx g)%nat -> harmonic h g (lincomb 1 x (-1) y) ix l m =
     (fst (harmonic h g x ix l m) - fst (harmonic h g y ix l m), snd (harmonic h g x ix l m) - snd (harmonic h g y ix l m))).
  { intros x y ix Lx Ly Hx. unfold harmonic. rewrite (shell_lin b h cl Rmin Rmax nx g Hg H8 H2) by auto.
    change (hc (lincomb 1 (shell g x ix) (-1) (shell g y ix)) = (fst (hc (shell g x ix)) - fst (hc (shell g y ix)), snd (hc (shell g x ix)) - snd (hc (shell g y ix)))).
    rewrite hc_lin by now apply shell_len. apply (f_equal2 (@pair R R)); ring. }
  set (mkf := fun v : list R => Fld [] v v v v n). assert (Of : forall v, length v = n -> field_ok g (mkf v)) by (intros v Lv; unfold field_ok, mkf; cbn [fl_n fl_l fl_np1 fl_k fl_size]; auto).
  destruct (C72_superposition b h cl Rmin Rmax nx g Hg Hsh HL H8 H2 Hln e k 1 (-1) f1 p1 f2 p2 (mkf w) (mkf q) Oe Fe O1 Q1 O2 Q2 (Of w Lw) (Of q Lq) eq_refl eq_refl)
    as (f1' & p1' & e1' & f2' & p2' & e2' & f3' & p3' & e3' & E1 & E2 & E3 & Lin1 & Lin2).
  exists f1', p1', e1', f2', p2', e2'. split; [exact E1|]. split; [exact E2|].
  destruct (steps_iter b h cl Rmin Rmax nx g Hg Hsh HL H8 H2 k e (mkf w) (mkf q) Oe (Of w Lw) (Of q Lq)) as (x3 & y3 & z3 & E3' & I3).
  rewrite E3 in E3'. injection E3' as <- <- <-. cbn [mkf fl_n] in I3.
  assert (A0 : absent2 (w, q)).
  { split; split; auto; intros ix Hx; cbn [fst snd]; unfold w, q; rewrite HD by auto; [rewrite Ef by auto|rewrite Ep by auto]; apply (f_equal2 (@pair R R)); ring. }
  pose proof (absent_iter k (w, q) A0) as [B1 B2]. rewrite <- I3 in B1, B2. cbn [fst snd] in B1, B2. rewrite Lin1 in B1. rewrite Lin2 in B2.
  destruct (steps_iter b h cl Rmin Rmax nx g Hg Hsh HL H8 H2 k e f1 p1 Oe O1 Q1) as (x1 & y1 & z1 & E1' & I1). rewrite E1 in E1'. injection E1' as <- <- <-.
  destruct (steps_iter b h cl Rmin Rmax nx g Hg Hsh HL H8 H2 k e f2 p2 Oe O2 Q2) as (x2 & y2 & z2 & E2' & I2). rewrite E2 in E2'. injection E2' as <- <- <-.
  pose proof (iter_sized b h cl Rmin Rmax nx g Hg Hsh HL H8 H2 e k (fl_n f1, fl_n p1) Oe (conj L1 L2)) as [M1 M2]. rewrite <- I1 in M1, M2. cbn [fst snd] in M1, M2.
  pose proof (iter_sized b h cl Rmin Rmax nx g Hg Hsh HL H8 H2 e k (fl_n f2, fl_n p2) Oe (conj L3 L4)) as [M3 M4]. rewrite <- I2 in M3, M4. cbn [fst snd] in M3, M4.
  intros ix Hx. destruct B1 as [_ B1], B2 as [_ B2]. specialize (B1 ix Hx). specialize (B2 ix Hx). rewrite HD in B1, B2 by auto.
  assert (PR : forall x y : R * R, (fst x - fst y, snd x - snd y) = (0, 0) -> x = y) by (intros [] [] T; injection T as T1 T2; cbn [fst snd] in *; f_equal; lra).
  split; apply PR; assumption.
Qed.
End Absent.

(** ** the shape of a single harmonic is preserved *)
Section Shape.
Variables (y : list R) (lam mu : R).
Hypothesis Ly : length y = N.
Hypothesis Hlap : laplace_beltrami b (g_sphere g) y (sph0 g) = Ok (lincomb lam y 0 y).
Hypothesis Hfil : sp_filter b (g_sphere g) y = Ok (lincomb mu y 0 y).
Definition sep (u : nat -> R) (v : list R) : Prop := length v = n /\ forall ix k, (ix < g_nx g)%nat -> (k < N)%nat -> nth (N * ix + k) v 0 = u ix * nth k y 0.
Definition sepd (v : list R) : Prop := exists u, sep u v.
Lemma psum_scal J (t t' : nat -> R) x : (forall j, (j < J)%nat -> t j = t' j * x) -> psum J t 1 = psum J t' 1 * x.
Proof. induction J as [|J IH]; intros H; [cbn; ring|]. cbn [psum]. rewrite IH by (intros; apply H; lia). rewrite (H J) by lia. ring. Qed.
Lemma sep_rad op v : rad_matrix op -> sepd v -> sepd (op v).
Proof.
  intros (c & Hc) (u & Lv & Hv). destruct (Hc v Lv) as [Lo Ho]. exists (fun ix => psum (g_nx g) (fun j => c ix j * u j) 1). split; auto. intros ix k Hx Hk.
  rewrite Ho by auto. apply psum_scal. intros j Hj. rewrite Hv by auto. ring.
Qed.
Lemma sep_shell u v ix : sep u v -> (ix < g_nx g)%nat -> shell g v ix = lincomb (u ix) y 0 y.
Proof.
  intros [Lv Hv] Hx. apply (lincomb_ext _ _ _ _ _ N); auto; [now apply shell_len|]. intros k Hk. rewrite nth_sh, Hv by auto. ring.
Qed.
Lemma sep_lap v : sepd v -> sepd (lap_of g v).
Proof.
  intros (u & Su). pose proof Su as [Lv Hv]. assert (Lz : length (zero3 g) = n) by apply vec_length.
  destruct (C23_angular b h cl Rmin Rmax nx g Hg v (zero3 g) Hsh HL Lv Lz) as (x1 & x2 & x3 & E1 & E2 & E3 & L1 & L2 & L3 & A).
  destruct (sph_ops_linear b h cl Rmin Rmax nx g Hg Hsh Hln) as (_ & S2 & _).
  unfold lap_of. rewrite E2. exists (fun ix => lam * u ix). split; auto. intros ix k Hx Hk. destruct (A ix Hx) as (_ & A2 & _).
  rewrite (sep_shell u v ix Su Hx) in A2. rewrite (S2 (u ix) y 0 y _ _ Ly Ly Hlap Hlap) in A2. injection A2 as A2.
  rewrite <- nth_sh by auto. rewrite <- A2. rewrite !(nth_lincomb _ _ _ _ _ N) by (auto; now apply lincomb_length). ring.
Qed.
Lemma sep_filt v : sepd v -> sepd (filt_of g v).
Proof.
  intros (u & Su). pose proof Su as [Lv Hv]. destruct (sph_ops_linear b h cl Rmin Rmax nx g Hg Hsh Hln) as (_ & _ & S3).
  exists (fun ix => mu * u ix). split; [now apply (filter_total b h cl Rmin Rmax nx g Hg Hsh H8 H2)|]. intros ix k Hx Hk.
  destruct (filt_shell b h P cl Rmin Rmax nx g Hg Hlaw H8 H2 v ix Lv Hx) as [Lf A2].
  rewrite (sep_shell u v ix Su Hx) in A2. rewrite (S3 (u ix) y 0 y _ _ Ly Ly Hfil Hfil) in A2. injection A2 as A2.
  rewrite <- nth_sh by auto. rewrite <- A2. rewrite !(nth_lincomb _ _ _ _ _ N) by (auto; now apply lincomb_length). ring.
Qed.
Lemma sep_axpy t k v : sepd k -> sepd v -> sepd (axpy t k v).
Proof.
  intros (u & Lk & Hk) (w & Lv & Hv). exists (fun ix => w ix + t * u ix). split; [now apply axpy_length|]. intros ix j Hx Hj.
  rewrite (nth_axpy b h nx g H8 H2) by (auto; now apply idx_lt). rewrite Hk, Hv by auto. ring.
Qed.
Definition sepd2 (u : state R) : Prop := sepd (fst u) /\ sepd (snd u).
Lemma sep_axpy2 t k v : sepd2 k -> sepd2 v -> sepd2 (axpy2 t k v).
Proof. intros [A B] [C D]. split; cbn [axpy2 fst snd]; now apply sep_axpy. Qed.
Lemma sep_rhs u : sepd2 u -> sepd2 (rhs_of g e u).
Proof.
  intros [Hf Hp]. split; [exact Hp|]. destruct (sep_rad _ _ dr_matrix Hf) as (d1 & D1). destruct (sep_rad _ _ dr_matrix Hp) as (d2 & D2). destruct (sep_rad _ _ drr_matrix Hf) as (d3 & D3).
  destruct (sep_lap _ Hf) as (d4 & D4). destruct Hf as (uf & Lf & Hf), Hp as (up & Lp & Hp).
  pose proof (rhs_sized b h cl Rmin Rmax nx g Hg Hsh HL H8 H2 e u Oe (conj Lf Lp)) as [_ Lr].
  exists (fun ix => let c := radial_coef ix in c_p c * up ix + c_dr_f c * d1 ix + c_dr_p c * d2 ix + c_dr_dr_f c * d3 ix + c_lap_f c * d4 ix - c_pre c * (/ e_k0 e * e_v2 e) * uf ix).
  split; [exact Lr|]. intros ix k Hx Hk. cbn [rhs_of snd]. rewrite free_slope by auto. destruct D1 as [_ D1], D2 as [_ D2], D3 as [_ D3], D4 as [_ D4].
  rewrite D1, D2, D3, D4, Hf, Hp by auto. cbv zeta. ring.
Qed.
Lemma sep_advance u : sepd2 u -> sepd2 (advance g e u).
Proof.
  intros [A B]. Transparent advance. unfold advance. Opaque advance.
  assert (E0 : sepd2 (filt_of g (fst u), filt_of g (snd u))) by (split; cbn [fst snd]; now apply sep_filt).
  unfold rk4. cbv zeta. repeat first [assumption|apply sep_axpy2|apply sep_rhs].
Qed.
Lemma sep_iter k u : sepd2 u -> sepd2 (Nat.iter k (advance g e) u).
Proof. intros H. induction k as [|k IH]; [exact H|]. change (sepd2 (advance g e (Nat.iter k (advance g e) u))). now apply sep_advance. Qed.
End Shape.

(** harmonics are eigenvectors of the Laplacian and of the filter on the grid *)
Lemma mode_eigen l m z y : (l <= L)%nat -> (m <= l)%nat -> (m <= M)%nat -> sampled b h (mode P l m z) y ->
  laplace_beltrami b (g_sphere g) y (sph0 g) = Ok (lincomb (if (l <? L)%nat && (m <? M)%nat then - INR l * (INR l + 1) else 1) y 0 y) /\
  exists mu, sp_filter b (g_sphere g) y = Ok (lincomb mu y 0 y).
Proof.
  intros Hl Hm HM Hy. destruct (gof_sizes b h cl Rmin Rmax nx g Hg) as (Eb & En & _ & El & Ep & Hs & _).
  assert (L0 : length (sph0 g) = N) by (rewrite sph0_length; congruence). pose proof Hy as [Ly Hy'].
  set (z' := (fst z, if Nat.eqb m 0 then 0 else snd z)).
  assert (Hr : real_spectrum (single l m z')) by (apply single_real; intros ->; reflexivity).
  assert (Ey : sampled b h (real_field P L M (single l m z')) y).
  { eapply sampled_ext; [|exact Hy]. intros th ph. rewrite single_field by auto. unfold mode, z'. cbn [fst snd]. destruct (Nat.eqb m 0); reflexivity. }
  assert (X : forall (T : nat -> nat -> R) o, sampled b h (real_field P L M (fun l' m' => if (l' <? L)%nat && (m' <? M)%nat then (T l' m' * fst (single l m z' l' m'), T l' m' * snd (single l m z' l' m')) else single l m z' l' m')) o ->
     o = lincomb (if (l <? L)%nat && (m <? M)%nat then T l m else 1) y 0 y).
  { intros T o Ho. set (c := if (l <? L)%nat && (m <? M)%nat then T l m else 1). apply (sampled_unique b h (fun th ph => c * mode P l m z' th ph)).
    - eapply sampled_ext; [|exact Ho]. intros th ph. cbv beta. transitivity (real_field P L M (single l m (c * fst z', c * snd z')) th ph).
      + apply (real_field_ext h P). intros l' m' _ _ _. unfold single. destruct (Nat.eqb_spec l' l) as [->|], (Nat.eqb_spec m' m) as [->|]; cbn [andb].
        * unfold c. destruct ((l <? L)%nat && (m <? M)%nat); [reflexivity|]. rewrite !Rmult_1_l. unfold z'. reflexivity.
        * destruct ((l <? L)%nat && (m' <? M)%nat); auto. cbn [fst snd]. now rewrite Rmult_0_r.
        * destruct ((l' <? L)%nat && (m <? M)%nat); auto. cbn [fst snd]. now rewrite Rmult_0_r.
        * destruct ((l' <? L)%nat && (m' <? M)%nat); auto. cbn [fst snd]. now rewrite Rmult_0_r.
      + rewrite (single_field h P l m (c * fst z', c * snd z') th ph Hl Hm HM). unfold mode. cbn [fst snd]. destruct (Nat.eqb m 0); ring.
    - split; [now apply lincomb_length|]. intros it ip Ht Hp. rewrite <- El in Ht. rewrite <- Ep in Hp. destruct (pos_of 0 it ip Ht Hp) as [_ E2]. rewrite (nth_lincomb _ _ _ _ _ N) by auto.
      rewrite Hy' by congruence. unfold mode, z'. cbn [fst snd]. destruct (Nat.eqb m 0); ring. }
  split.
  - destruct (laplace_R b h P (g_sphere g) Hlaw Hs (single l m z') y (sph0 g) Hr Ey L0) as (o & E & Ho). rewrite E. f_equal. exact (X (fun l _ => - INR l * (INR l + 1)) o Ho).
  - destruct (filter_R b h P (g_sphere g) Hlaw Hs (single l m z') y Hr Ey) as (o & E & Ho). rewrite E. eexists. f_equal. exact (X _ o Ho).
Qed.
Lemma mode_samples l m z : (l <= L)%nat -> (m <= l)%nat -> (m <= M)%nat -> exists y, sampled b h (mode P l m z) y.
Proof.
  intros Hl Hm HM. destruct (pack h (single l m z) (sh_mmax h Hsh)) as (c & Hc). exists (s_sy h c).
  eapply sampled_ext; [|apply (lw_syn b h P Hlaw c _ Hc)]. intros th ph. now apply single_field.
Qed.

(** ** C80 for one harmonic: data u(r) Re(z Y_lm) keep that angular shape. *)
Theorem C80_single_harmonic_keeps_shape k l m z u w (f p : field R) : (l <= L)%nat -> (m <= l)%nat -> (m <= M)%nat ->
  field_ok g f -> field_ok g p -> harmonic_shape P h g l m z u (fl_n f) -> harmonic_shape P h g l m z w (fl_n p) ->
  exists f' p' e' u' w', steps g k (f, p, e) = Ok (f', p', e') /\ harmonic_shape P h g l m z u' (fl_n f') /\ harmonic_shape P h g l m z w' (fl_n p').
Proof.
  intros Hl Hm HM Of Op Sf Sp. destruct (mode_samples l m z Hl Hm HM) as (y & Hy). pose proof Hy as [Ly Hy'].
  destruct (gof_sizes b h cl Rmin Rmax nx g Hg) as (Eb & En & _ & El & Ep & _).
  destruct (mode_eigen l m z y Hl Hm HM Hy) as (Elap & mu & Efil).
  assert (IFF : forall u v, harmonic_shape P h g l m z u v <-> sep y u v).
  { intros u0 v. split; intros [Lv Hv]; (split; [exact Lv|]).
    - intros ix j Hx Hj. destruct (pos_pt j Hj) as (it & ip & Ht & Hp & -> & E). rewrite <- E, Hv by auto. rewrite Hy' by congruence. reflexivity.
    - intros ix it ip Hx Ht Hp. destruct (pos_of ix it ip Ht Hp) as [-> E2]. rewrite Hv by auto. rewrite Hy' by congruence. reflexivity. }
  destruct (steps_iter b h cl Rmin Rmax nx g Hg Hsh HL H8 H2 k e f p Oe Of Op) as (f' & p' & e' & E & I).
  assert (A0 : sepd2 y (fl_n f, fl_n p)) by (split; [exists u|exists w]; now apply IFF).
  destruct (sep_iter y _ mu Ly Elap Efil k _ A0) as [(u' & B1) (w' & B2)]. rewrite <- I in B1, B2. cbn [fst snd] in B1, B2.
  exists f', p', e', u', w'. split; [exact E|]. split; now apply IFF.
Qed.
End E.
End G.

Section Sph.
Variables (b : build) (h : sht R) (cl Rmin Rmax : R) (nx : nat) (g : grid R).
Hypothesis Hg : grid_of b h cl Rmin Rmax nx g.
Hypothesis Hlaw : lawful b h Ylm_profile.
Hypothesis HL : (Z.of_nat (s_lmax h) < 2 ^ 31)%Z.
Hypothesis H8 : (use_cheb b = false -> 8 <= nx)%nat.
Hypothesis H2 : (use_cheb b = true -> 2 <= nx)%nat.
Hypothesis Hln : linear_sht h.
Hypothesis HL1 : (1 <= s_lmax h)%nat.
Variables (par : params R) (e : eom R).
Hypothesis He : Eom_make g par = Ok e.
Hypothesis Ha : pr_bh_spin par = 0.
Hypothesis HX : constant_k e \/ clawful b h Ylm_profile.
Local Notation n := (g_n3 g).
Local Notation N := (s_nlat h * s_nphi h)%nat.
Local Notation L := (s_lmax h).
Local Notation Hsh := (lw_shapes b h Ylm_profile Hlaw).
Local Notation ones := (map (fun _ : nat => 1) (seq 0 N)).
Lemma nth_ones k : (k < N)%nat -> nth k ones 0 = 1.
Proof. intros Hk. now rewrite nth_ms. Qed.
Lemma ones_sampled x : sampled b h (mode Ylm_profile 0 0 (x / sqrt (/ (4 * PI)), 0)) (map (fun _ : nat => x) (seq 0 N)).
Proof.
  destruct (gof_sizes b h cl Rmin Rmax nx g Hg) as (Eb & En & _ & El & Ep & _).
  split; [now rewrite map_length, seq_length|]. intros it ip Ht Hp. rewrite <- El in Ht. rewrite <- Ep in Hp. destruct (pos_of b h cl Rmin Rmax nx g Hg 0 it ip Ht Hp) as [_ E2]. rewrite nth_ms by auto.
  unfold mode. cbn [Nat.eqb fst]. destruct (C26_monopole_constant (grid_theta h it)) as [-> Hn]. field. exact Hn.
Qed.
Lemma sph_sep u v : spherical g u v <-> sep h g ones u v.
Proof.
  split; intros [Lv Hv]; (split; [exact Lv|]).
  - intros ix j Hx Hj. destruct (pos_pt b h cl Rmin Rmax nx g Hg j Hj) as (it & ip & Ht & Hp & _ & E). rewrite <- E, Hv, nth_ones by auto. ring.
  - intros ix it ip Hx Ht Hp. destruct (pos_of b h cl Rmin Rmax nx g Hg ix it ip Ht Hp) as [-> E2]. rewrite Hv, nth_ones by auto. ring.
Qed.
Definition sphd (v : list R) : Prop := sepd h g ones v.
(** the squared angular gradient of spherical data *)
Lemma sX_spherical v : clawful b h Ylm_profile -> sphd v -> sphd (sX_of g v).
Proof.
  intros Hcl (u & Su). pose proof Su as [Lv Hv]. assert (Lz : length (zero3 g) = n) by apply vec_length.
  destruct (gof_sizes b h cl Rmin Rmax nx g Hg) as (Eb & En & _ & El & Ep & Hs & _).
  destruct (C23_angular b h cl Rmin Rmax nx g Hg v (zero3 g) Hsh HL Lv Lz) as (x1 & x2 & x3 & E1 & E2 & E3 & L1 & L2 & L3 & A).
  unfold sX_of. rewrite E3. exists (fun _ => 0). split; auto. intros ix k Hx Hk. destruct (A ix Hx) as (_ & _ & A3).
  assert (L0 : length (sph0 g) = N) by (rewrite sph0_length; congruence).
  assert (ES : shell g v ix = map (fun _ : nat => u ix) (seq 0 N)).
  { apply (nth_ext _ _ 0 0); [rewrite map_length, seq_length; now apply (shell_len b h cl Rmin Rmax nx g Hg)|]. intros i Hi. rewrite (shell_len b h cl Rmin Rmax nx g Hg) in Hi by auto.
    rewrite (nth_sh b h cl Rmin Rmax nx g Hg) by auto. rewrite Hv by auto. rewrite nth_ones, nth_ms by auto. ring. }
  set (z := (u ix / sqrt (/ (4 * PI)), 0)). set (a := single 0 0 z).
  assert (Hr : real_spectrum a) by (apply single_real; intros _; reflexivity).
  pose proof (cl_mmax b h _ Hcl) as HMM.
  assert (Sa : sampled b h (real_field Ylm_profile L L a) (shell g v ix)).
  { rewrite ES. eapply sampled_ext; [|apply ones_sampled]. intros th ph. fold z. pose proof (single_field h Ylm_profile 0 0 z th ph ltac:(lia) ltac:(lia) ltac:(lia)) as SF. rewrite HMM in SF. symmetry. exact SF. }
  assert (Z0 : forall q, a L q = (0, 0)) by (intros q; unfold a, single; destruct (Nat.eqb_spec L 0); [lia|reflexivity]).
  destruct (C33_nonnegative b h Ylm_profile (g_sphere g) Hlaw Hcl Hs HL a (shell g v ix) (sph0 g) Hr Z0 Sa L0) as (o & E & Ho & _).
  rewrite A3 in E. injection E as E. rewrite Rmult_0_l, <- (nth_sh b h cl Rmin Rmax nx g Hg) by auto. rewrite E.
  destruct (pos_pt b h cl Rmin Rmax nx g Hg k Hk) as (it & ip & Ht & Hp & -> & _). destruct Ho as [_ Ho]. rewrite Ho by congruence.
  assert (Zr : forall l q, (- Z.of_nat l <= q <= Z.of_nat l)%Z -> raised h a l q = (0, 0)).
  { intros l q Hq. unfold raised. destruct (Nat.ltb_spec l L); cbn [andb]; auto. destruct (Z.eqb_spec q (- Z.of_nat l)); cbn [negb]; auto.
    unfold both_signs, a, single. destruct (Nat.eqb_spec l 0); [lia|]. cbn [andb]. destruct (_ <? 0)%Z; [destruct (Z.even _)|]; cbn [fst snd]; apply (f_equal2 (@pair R R)); ring. }
  assert (Zc : forall th ph, cre Ylm_profile L (raised h a) th ph = 0 /\ cim Ylm_profile L (raised h a) th ph = 0).
  { intros. split; unfold cre, cim; apply Rsum_zero; intros l _; apply Rsum_zero; intros q Hq; rewrite Zr by lia; cbn [fst snd]; ring. }
  destruct (Zc (grid_theta h it) (grid_phi h ip)) as [-> ->]. rewrite (Derive_ext _ (fun _ => mode Ylm_profile 0 0 z (grid_theta h it) 0)).
  - rewrite Derive_const. ring.
  - intros t. pose proof (single_field h Ylm_profile 0 0 z (grid_theta h it) t ltac:(lia) ltac:(lia) ltac:(lia)) as SF. rewrite HMM in SF. etransitivity; [exact SF|]. reflexivity.
Qed.
Lemma slope_spherical f p ix k : length f = n -> length p = n -> (ix < g_nx g)%nat -> (k < N)%nat ->
  let i := (N * ix + k)%nat in
  nth i (prhs_of g e f p) 0 = p_rhs e (radial_coef b Rmin Rmax nx g par ix) (nth i f 0) (nth i p 0) (nth i (dr_of g f) 0) (nth i (dr_of g p) 0) (nth i (drr_of g f) 0) 0 0
    (nth i (lap_of g f) 0) (nth i (sX_of g f) 0).
Proof.
  intros Lf Lp Hx Hk i. unfold i. rewrite (prhs_at b h cl Rmin Rmax nx g Hg Hsh HL H8 H2) by (auto; first [exact (Eom_make_ok _ _ _ He)|now apply (idx_lt b h cl Rmin Rmax nx g Hg)]).
  rewrite (coef_radial b h cl Rmin Rmax nx g Hg H8 H2 par e He Ha) by auto. destruct (cross_zero b Rmin Rmax nx g par ix) as [C1 C2].
  unfold p_rhs. rewrite C1, C2. R_ops. ring.
Qed.
Definition sphd2 (u : state R) : Prop := sphd (fst u) /\ sphd (snd u).
Lemma L_ones : length ones = N.
Proof. now rewrite map_length, seq_length. Qed.
Lemma rhs_spherical u : sphd2 u -> sphd2 (rhs_of g e u).
Proof.
  intros [Hf Hp]. split; [exact Hp|].
  destruct (mode_eigen b h Ylm_profile cl Rmin Rmax nx g Hg Hlaw 0 0 _ ones ltac:(lia) ltac:(lia) ltac:(lia) (ones_sampled 1)) as (Elap & mu & Efil).
  destruct (sep_rad b h nx g H8 H2 ones L_ones _ _ (dr_matrix b h cl Rmin Rmax nx g Hg H8 H2) Hf) as (d1 & D1).
  destruct (sep_rad b h nx g H8 H2 ones L_ones _ _ (dr_matrix b h cl Rmin Rmax nx g Hg H8 H2) Hp) as (d2 & D2).
  destruct (sep_rad b h nx g H8 H2 ones L_ones _ _ (drr_matrix b h cl Rmin Rmax nx g Hg H8 H2) Hf) as (d3 & D3).
  destruct (sep_lap b h Ylm_profile cl Rmin Rmax nx g Hg Hlaw HL Hln ones _ L_ones Elap _ Hf) as (d4 & D4).
  assert (HS : exists d5 : nat -> R, forall ix k, (ix < g_nx g)%nat -> (k < N)%nat -> constant_k e \/ nth (N * ix + k) (sX_of g (fst u)) 0 = d5 ix).
  { destruct HX as [K|Hcl]; [exists (fun _ => 0); auto|]. destruct (sX_spherical (fst u) Hcl Hf) as (d5 & _ & D5). exists d5. intros ix k Hx Hk. right. rewrite D5, nth_ones by auto. ring. }
  destruct HS as (d5 & D5). destruct Hf as (uf & Lf & Hf), Hp as (up & Lp & Hp).
  pose proof (rhs_sized b h cl Rmin Rmax nx g Hg Hsh HL H8 H2 e u (Eom_make_ok _ _ _ He) (conj Lf Lp)) as [_ Lr].
  exists (fun ix => p_rhs e (radial_coef b Rmin Rmax nx g par ix) (uf ix) (up ix) (d1 ix) (d2 ix) (d3 ix) 0 0 (d4 ix) (d5 ix)).
  split; [exact Lr|]. intros ix k Hx Hk. cbn [rhs_of snd]. rewrite slope_spherical by auto. destruct D1 as [_ D1], D2 as [_ D2], D3 as [_ D3], D4 as [_ D4].
  rewrite D1, D2, D3, D4, Hf, Hp by auto. rewrite !nth_ones by auto. rewrite !Rmult_1_r. destruct (D5 ix k Hx Hk) as [(Z1 & Z2 & Z3)| -> ]; [|reflexivity].
  assert (K : forall x, kprime e x = 0). { intros x. unfold kprime. R_ops. rewrite Z1, Z2, Z3. unfold Rdiv. ring. }
  unfold p_rhs. rewrite !K. R_ops. ring.
Qed.
Lemma axpy2_spherical t k v : sphd2 k -> sphd2 v -> sphd2 (axpy2 t k v).
Proof. intros [A B] [C D]. split; cbn [axpy2 fst snd]; now apply (sep_axpy b h cl Rmin Rmax nx g Hg H8 H2). Qed.
Lemma advance_spherical u : sphd2 u -> sphd2 (advance g e u).
Proof.
  intros [A B]. destruct (mode_eigen b h Ylm_profile cl Rmin Rmax nx g Hg Hlaw 0 0 _ ones ltac:(lia) ltac:(lia) ltac:(lia) (ones_sampled 1)) as (Elap & mu & Efil).
  Transparent advance. unfold advance. Opaque advance.
  assert (E0 : sphd2 (filt_of g (fst u), filt_of g (snd u))) by (split; cbn [fst snd]; now apply (sep_filt b h Ylm_profile cl Rmin Rmax nx g Hg Hlaw H8 H2 Hln ones mu L_ones Efil)).
  unfold rk4. cbv zeta. repeat first [assumption|apply axpy2_spherical|apply rhs_spherical].
Qed.

(** ** C80, spherical data.  No rotation, any couplings: data that depend on the radius only never acquire angular
    dependence. *)
Theorem C80_spherical_data_stay_spherical k u w (f p : field R) : field_ok g f -> field_ok g p -> spherical g u (fl_n f) -> spherical g w (fl_n p) ->
  exists f' p' e' u' w', steps g k (f, p, e) = Ok (f', p', e') /\ spherical g u' (fl_n f') /\ spherical g w' (fl_n p').
Proof.
  intros Of Op Sf Sp.
  destruct (steps_iter b h cl Rmin Rmax nx g Hg Hsh HL H8 H2 k e f p (Eom_make_ok _ _ _ He) Of Op) as (f' & p' & e' & E & I).
  assert (A0 : sphd2 (fl_n f, fl_n p)) by (split; [exists u|exists w]; now apply sph_sep).
  assert (Ak : sphd2 (Nat.iter k (advance g e) (fl_n f, fl_n p))).
  { clear - A0 Hg Hlaw HL H8 H2 Hln HL1 He Ha HX. induction k as [|k IH]; [exact A0|]. change (sphd2 (advance g e (Nat.iter k (advance g e) (fl_n f, fl_n p)))). now apply advance_spherical. }
  destruct Ak as [(u' & B1) (w' & B2)]. rewrite <- I in B1, B2. cbn [fst snd] in B1, B2.
  exists f', p', e', u', w'. split; [exact E|]. split; now apply sph_sep.
Qed.
End Sph.
