(** Grid operators, right-hand side, time step, initial data and output of two builds that differ only in
    storage order and assertions. *)
From Coq Require Import Ascii String.
From Verif Require Import Base BaseLemmas ForList Arith MFd MCheb MSphere MGrid MParams MField MEom MInit MIo MMain
  SphereSpec GridSpec RkSpec LaySpec PGrid PTables PMake PSphere PSphere2 PGridOp PropTables PropGridOp PConc PEom PEomOk PRk PropRk PIo PInit PDriver PLay.
Local Open Scope nat_scope.

Lemma Ok_inj {A} (x y : A) : Ok x = Ok y -> x = y.
Proof. intros H. injection H as ->. reflexivity. Qed.

Section G.
Context {F : Type} {AF : Arith F}.
Variables (b b' : build) (h h' : sht F) (cl0 Rmin0 Rmax0 : F) (nx : nat) (g g' : grid F).
Hypothesis Hg : grid_of b h cl0 Rmin0 Rmax0 nx g.
Hypothesis Hg' : grid_of b' h' cl0 Rmin0 Rmax0 nx g'.
Hypothesis Hsh : shapes h.
Hypothesis Hsh' : shapes h'.
Hypothesis Hrl : relaid b b' h h'.
Hypothesis Hc : use_cheb b = use_cheb b'.
Hypothesis HL : (Z.of_nat (s_lmax h) < 2 ^ 31)%Z.
Hypothesis H8 : use_cheb b = false -> 8 <= nx.
Hypothesis H2 : use_cheb b = true -> 2 <= nx.
Local Notation same := (same_field b b' nx (s_nlat h) (s_nphi h)).
Local Notation ssph := (same_sphere b b' (s_nlat h) (s_nphi h)).

Lemma HL' : (Z.of_nat (s_lmax h') < 2 ^ 31)%Z.
Proof. now rewrite (rl_lmax _ _ _ _ Hrl). Qed.
Lemma H8' : use_cheb b' = false -> 8 <= nx.
Proof. rewrite <- Hc. exact H8. Qed.
Lemma H2' : use_cheb b' = true -> 2 <= nx.
Proof. rewrite <- Hc. exact H2. Qed.
Lemma Hx1 : 1 <= nx.
Proof. assert (A : use_cheb b = true \/ use_cheb b = false) by (destruct (use_cheb b); auto). destruct A as [A|A]; [specialize (H2 A)|specialize (H8 A)]; lia. Qed.
Lemma sizes : g_bld g = b /\ g_bld g' = b' /\ g_nx g = nx /\ g_nx g' = nx /\ g_nlat g = s_nlat h /\ g_nlat g' = s_nlat h /\
  g_nphi g = s_nphi h /\ g_nphi g' = s_nphi h /\ g_nl g = s_lmax h /\ g_nl g' = s_lmax h /\ g_n3 g = nx * s_nlat h * s_nphi h /\ g_n3 g' = nx * s_nlat h * s_nphi h /\
  g_cl g = cl0 /\ g_cl g' = cl0 /\ g_radial g = g_radial g' /\ g_dR g = g_dR g' /\ g_d2R g = g_d2R g' /\ g_R_l g = g_R_l g'.
Proof.
  destruct (gof_sizes b h cl0 Rmin0 Rmax0 nx g Hg) as (A1 & A2 & A3 & A4 & A5 & _ & A6 & A7 & A8 & A9).
  destruct (gof_sizes b' h' cl0 Rmin0 Rmax0 nx g' Hg') as (B1 & B2 & B3 & B4 & B5 & _ & B6 & B7 & B8 & B9).
  rewrite (rl_nlat _ _ _ _ Hrl) in B4. rewrite (rl_nphi _ _ _ _ Hrl) in B5. rewrite (rl_lmax _ _ _ _ Hrl) in B3.
  assert (ER : g_radial g = g_radial g').
  { apply (le_join (fun c => rad_make c nx Rmin0 Rmax0) b b'); auto. intros c c' E1 E2. now apply rad_make_le. }
  apply Grid_make_tables in Hg. apply Grid_make_tables in Hg'.
  destruct Hg as (_ & _ & _ & _ & _ & _ & _ & _ & _ & _ & _ & (_ & _ & L1 & _) & _ & _ & _ & T1 & T2).
  destruct Hg' as (_ & _ & _ & _ & _ & _ & _ & _ & _ & _ & _ & (_ & _ & L1' & _) & _ & _ & _ & T1' & T2').
  rewrite (rl_lmax _ _ _ _ Hrl) in T1', L1'. rewrite <- ER in T1', T2'.
  assert (G1 : g_dR g = g_dR g').
  { apply (list_ext _ _ nx); auto. intros i Hi. destruct (T2 i Hi) as (R & E & E1 & _). destruct (T2' i Hi) as (R' & E' & E1' & _). congruence. }
  assert (G2 : g_d2R g = g_d2R g').
  { apply (list_ext _ _ nx); auto. intros i Hi. destruct (T2 i Hi) as (R & E & _ & E1). destruct (T2' i Hi) as (R' & E' & _ & E1'). congruence. }
  assert (G3 : g_R_l g = g_R_l g').
  { apply (list_ext _ _ (nx * s_lmax h)); auto. intros i Hi.
    assert (Hl : s_lmax h <> 0) by nia. assert (Hq : i = ix_r_l (s_lmax h) (i / s_lmax h) (i mod s_lmax h)) by (apply Nat.div_mod; auto).
    pose proof (Nat.mod_upper_bound i (s_lmax h) Hl). assert (i / s_lmax h < nx) by (apply Nat.div_lt_upper_bound; lia).
    destruct (T1 (i / s_lmax h) (i mod s_lmax h)) as (R & E & E1 & _); auto. destruct (T1' (i / s_lmax h) (i mod s_lmax h)) as (R' & E' & E1' & _); auto.
    rewrite <- Hq in E1, E1'. congruence. }
  unfold g_n3. rewrite A2, A4, A5, B2, B4, B5. repeat split; auto.
Qed.
Local Ltac sz := destruct sizes as (Eb & Eb' & En & En' & Et & Et' & Ep & Ep' & El & El' & E3 & E3' & Ecl & Ecl' & Erad & EdR & Ed2 & ERl).

(** *** the relation, through the index functions of the two grids *)
Lemma same_iff {A} (v v' : list A) : same v v' <-> length v = g_n3 g /\ length v' = g_n3 g' /\
  forall ix it ip, ix < nx -> it < s_nlat h -> ip < s_nphi h -> nth_error v (indx_R_th_ph g ix it ip) = nth_error v' (indx_R_th_ph g' ix it ip).
Proof.
  sz. unfold same_field, indx_R_th_ph. rewrite E3, E3', Eb, Eb', Et, Et', Ep, Ep'.
  assert (P : forall c ix it ip, s_nlat h * s_nphi h * ix + pos c (s_nlat h) (s_nphi h) it ip = ix_R_th_ph c (s_nlat h) (s_nphi h) ix it ip).
  { intros. unfold pos, ix_R_th_ph. destruct (contiguous c); lia. }
  split; intros (L & L' & H); (split; [exact L|]; split; [exact L'|]); intros ix it ip H1' H2'' H3'; specialize (H ix it ip H1' H2'' H3'); rewrite !P in *; exact H.
Qed.
Lemma at_same {A} (v v' : list A) ix it ip : same v v' -> ix < nx -> it < s_nlat h -> ip < s_nphi h ->
  exists x, nth_error v (indx_R_th_ph g ix it ip) = Some x /\ nth_error v' (indx_R_th_ph g' ix it ip) = Some x.
Proof.
  intros Hv H1' H2'' H3'. apply same_iff in Hv. destruct Hv as (L & L' & H). sz.
  destruct (nth_error_ex v (indx_R_th_ph g ix it ip)) as (x & E).
  { rewrite L. unfold indx_R_th_ph, g_n3. apply ix_R_th_ph_lt; lia. }
  exists x. split; auto. rewrite <- H by auto. exact E.
Qed.
Lemma idx_ok ix it ip : ix < nx -> it < s_nlat h -> ip < s_nphi h -> indx_R_th_ph g ix it ip < g_n3 g /\ indx_R_th_ph g' ix it ip < g_n3 g'.
Proof. intros. sz. unfold indx_R_th_ph, g_n3. split; apply ix_R_th_ph_lt; lia. Qed.
Lemma shell_of v v' ix : same v v' -> ix < nx -> ssph (shell g v ix) (shell g' v' ix).
Proof.
  intros Hv Hx. apply same_iff in Hv. destruct Hv as (L & L' & H). sz.
  split; [rewrite shell_length by (auto; lia); now rewrite Et, Ep|]. split; [rewrite shell_length by (auto; lia); now rewrite Et', Ep'|].
  intros it ip Ht Hp. pose proof (nth_error_shell_pt g v ix it ip ltac:(lia) ltac:(lia)) as A. pose proof (nth_error_shell_pt g' v' ix it ip ltac:(lia) ltac:(lia)) as A'.
  unfold indx_th_ph in A, A'. rewrite Eb, Et, Ep in A. rewrite Eb', Et', Ep' in A'. unfold pos. unfold ix_th_ph in A, A'. rewrite A, A'. auto.
Qed.
Lemma of_shells v v' : length v = g_n3 g -> length v' = g_n3 g' -> (forall ix, ix < nx -> ssph (shell g v ix) (shell g' v' ix)) -> same v v'.
Proof.
  intros L L' H. apply same_iff. split; auto. split; auto. intros ix it ip Hx Ht Hp. sz. destruct (H ix Hx) as (_ & _ & K). specialize (K it ip Ht Hp).
  pose proof (nth_error_shell_pt g v ix it ip ltac:(lia) ltac:(lia)) as A. pose proof (nth_error_shell_pt g' v' ix it ip ltac:(lia) ltac:(lia)) as A'.
  unfold indx_th_ph in A, A'. rewrite Eb, Et, Ep in A. rewrite Eb', Et', Ep' in A'. unfold pos in K. unfold ix_th_ph in A, A'. congruence.
Qed.
Lemma line_of v v' it ip : same v v' -> it < s_nlat h -> ip < s_nphi h -> rline g v it ip = rline g' v' it ip.
Proof.
  intros Hv Ht Hp. sz. pose proof Hv as Hv'. apply same_iff in Hv'. destruct Hv' as (L & L' & _).
  apply (list_ext _ _ nx); [rewrite rline_length; lia|rewrite rline_length; lia|]. intros ix Hx.
  rewrite (nth_error_rline g) by lia. rewrite (nth_error_rline g') by lia. destruct (at_same v v' ix it ip Hv Hx Ht Hp) as (x & A & A'). congruence.
Qed.
Lemma of_lines v v' : length v = g_n3 g -> length v' = g_n3 g' -> (forall it ip, it < s_nlat h -> ip < s_nphi h -> rline g v it ip = rline g' v' it ip) -> same v v'.
Proof.
  intros L L' H. apply same_iff. split; auto. split; auto. intros ix it ip Hx Ht Hp. sz. specialize (H it ip Ht Hp).
  rewrite <- (nth_error_rline g), <- (nth_error_rline g') by lia. now rewrite H.
Qed.

(** *** operators *)
Lemma sphs : Sphere_make h (s_lmax h) (s_mmax h) (s_nlat h) (s_nphi h) = Ok (g_sphere g) /\
  Sphere_make h' (s_lmax h') (s_mmax h') (s_nlat h') (s_nphi h') = Ok (g_sphere g').
Proof.
  destruct (gof_sizes b h cl0 Rmin0 Rmax0 nx g Hg) as (_ & _ & _ & _ & _ & A & _).
  destruct (gof_sizes b' h' cl0 Rmin0 Rmax0 nx g' Hg') as (_ & _ & _ & _ & _ & B & _). auto.
Qed.
Lemma ang_same v v' : same v v' -> same (dphi_of g v) (dphi_of g' v') /\ same (lap_of g v) (lap_of g' v') /\ same (sX_of g v) (sX_of g' v').
Proof.
  intros Hv. pose proof Hv as Hv'. apply same_iff in Hv'. destruct Hv' as (L & L' & _). sz. destruct sphs as [S S'].
  assert (Z0 : length (zero3 g) = g_n3 g) by apply vec_length. assert (Z0' : length (zero3 g') = g_n3 g') by apply vec_length.
  assert (Z1 : length (sph0 g) = s_nlat h * s_nphi h) by (rewrite sph0_length, Et, Ep; reflexivity).
  assert (Z1' : length (sph0 g') = s_nlat h * s_nphi h) by (rewrite sph0_length, Et', Ep'; reflexivity).
  destruct (C23_angular b h cl0 Rmin0 Rmax0 nx g Hg v (zero3 g) Hsh HL L Z0) as (a1 & a2 & a3 & E1 & E2 & E4 & L1 & L2 & L3 & H).
  destruct (C23_angular b' h' cl0 Rmin0 Rmax0 nx g' Hg' v' (zero3 g') Hsh' HL' L' Z0') as (c1 & c2 & c3 & E1' & E2' & E4' & L1' & L2' & L3' & H').
  unfold dphi_of, lap_of, sX_of. rewrite E1, E2, E4, E1', E2', E4'.
  split; [|split]; apply of_shells; auto; intros ix Hx; destruct (H ix ltac:(lia)) as (K1 & K2 & K3); destruct (H' ix ltac:(lia)) as (K1' & K2' & K3'); pose proof (shell_of v v' ix Hv Hx) as SS.
  - exact (dphi_same b b' h h' _ _ Hsh Hsh' S S' Hrl _ _ _ _ _ _ SS Z1 Z1' K1 K1').
  - exact (lap_same b b' h h' _ _ Hsh Hsh' S S' Hrl _ _ _ _ _ _ SS Z1 Z1' K2 K2').
  - exact (sphereX_same b b' h h' _ _ Hsh Hsh' S S' Hrl _ _ _ _ _ _ HL SS Z1 Z1' K3 K3').
Qed.
Definition lr (n : nat) (dR : list F) (r : radial F) (w : list F) (c : build) : res (list F) :=
  let! dv := rad_der c r w (vec n f0) in
  for_ 0 n (fun ix dv => let! x := dv.[ix] in let! a := dR.[ix] in dv.[ix <- (x * a)%f]) dv.
Definition lr2 (n : nat) (dR d2R : list F) (r : radial F) (w : list F) (c : build) : res (list F) :=
  let! dv := rad_der c r w (vec n f0) in
  let! ddv := match r with RCh k => cheb_der c k dv (vec n f0) | RFd r => fd_der2 c r w (vec n f0) end in
  for_ 0 n (fun ix ddv => let! d2 := d2R.[ix] in let! x := dv.[ix] in let! d1 := dR.[ix] in let! y := ddv.[ix] in
    ddv.[ix <- (d2 * x + (d1 ^^ 2) * y)%f]) ddv.
Lemma rad_same v v' : same v v' -> same (dr_of g v) (dr_of g' v') /\ same (drr_of g v) (drr_of g' v').
Proof.
  intros Hv. pose proof Hv as Hv'. apply same_iff in Hv'. destruct Hv' as (L & L' & _). sz.
  assert (Z0 : length (zero3 g) = g_n3 g) by apply vec_length. assert (Z0' : length (zero3 g') = g_n3 g') by apply vec_length.
  destruct (C23_radial b h cl0 Rmin0 Rmax0 nx g Hg v (zero3 g) H8 H2 L Z0) as (a1 & a2 & a3 & E1 & E2 & E4 & L1 & L2 & L3 & H).
  destruct (C23_radial b' h' cl0 Rmin0 Rmax0 nx g' Hg' v' (zero3 g') H8' H2' L' Z0') as (c1 & c2 & c3 & E1' & E2' & E4' & L1' & L2' & L3' & H').
  unfold dr_of, drr_of. rewrite E2, E4, E2', E4'.
  assert (Q : forall w, line_r g w = lr nx (g_dR g) (g_radial g) w b /\ line_r g' w = lr nx (g_dR g) (g_radial g) w b' /\
     line_r2 g w = lr2 nx (g_dR g) (g_d2R g) (g_radial g) w b /\ line_r2 g' w = lr2 nx (g_dR g) (g_d2R g) (g_radial g) w b').
  { intros w. unfold line_r, line_r2, lr, lr2, rad0. rewrite Eb, Eb', En, En', <- Erad, <- EdR, <- Ed2. auto. }
  split; apply of_lines; auto; intros it ip Ht Hp; destruct (H it ip ltac:(lia) ltac:(lia)) as (_ & K2 & K3); destruct (H' it ip ltac:(lia) ltac:(lia)) as (_ & K2' & K3');
    pose proof (line_of v v' it ip Hv Ht Hp) as EQ; destruct (Q (rline g v it ip)) as (Q1 & Q2 & Q3 & Q4).
  - rewrite Q1 in K2. rewrite <- EQ, Q2 in K2'.
    apply (le_join (lr nx (g_dR g) (g_radial g) (rline g v it ip)) b b'); auto. intros c c' _ Hn. unfold lr. mono. now apply rad_der_le.
  - rewrite Q3 in K3. rewrite <- EQ, Q4 in K3'.
    apply (le_join (lr2 nx (g_dR g) (g_d2R g) (g_radial g) (rline g v it ip)) b b'); auto. intros c c' _ Hn. unfold lr2. mono; [now apply rad_der_le|].
    destruct (g_radial g); [now apply fd_der2_le|now apply cheb_der_le].
Qed.
Lemma filt_same v v' : same v v' -> same (filt_of g v) (filt_of g' v').
Proof.
  intros Hv. pose proof Hv as Hv'. apply same_iff in Hv'. destruct Hv' as (L & L' & _). sz. destruct sphs as [S S'].
  destruct (C26_filter_is_angular_only b h cl0 Rmin0 Rmax0 nx g Hg v Hsh Hx1 L) as (r & E & Lr & H).
  destruct (C26_filter_is_angular_only b' h' cl0 Rmin0 Rmax0 nx g' Hg' v' Hsh' Hx1 L') as (r' & E' & Lr' & H').
  unfold filt_of. rewrite E, E'. apply of_shells; auto. intros ix Hx.
  exact (filter_same b b' h h' _ _ Hsh Hsh' S S' Hrl _ _ _ _ (shell_of v v' ix Hv Hx) (H ix ltac:(lia)) (H' ix ltac:(lia))).
Qed.

(** *** the equations of motion *)
Variable par : params F.
Variables (e e' : eom F).
Hypothesis He : Eom_make g par = Ok e.
Hypothesis He' : Eom_make g' par = Ok e'.
Lemma coef_same : same (e_coef e) (e_coef e') /\ e_dt e = e_dt e' /\ e_km1 e = e_km1 e' /\ e_k0 e = e_k0 e' /\ e_k1 e = e_k1 e' /\ e_k2 e = e_k2 e' /\
  e_v2 e = e_v2 e' /\ e_v3 e = e_v3 e' /\ e_v4 e = e_v4 e'.
Proof.
  sz. destruct (Eom_make_inv g par e He) as (cs & L & -> & H). destruct (Eom_make_inv g' par e' He') as (cs' & L' & -> & H'). cbn [e_coef e_dt e_km1 e_k0 e_k1 e_k2 e_v2 e_v3 e_v4].
  split; auto 10. apply same_iff. split; auto. split; auto. intros ix it ip Hx Ht Hp.
  destruct (H ix it ip ltac:(lia) ltac:(lia) ltac:(lia)) as (row & R & th & A1 & A2 & A3 & A4).
  destruct (H' ix it ip ltac:(lia) ltac:(lia) ltac:(lia)) as (row' & R' & th' & B1 & B2 & B3 & B4). rewrite A4, B4.
  assert (TH : sp_theta (g_sphere g) it = sp_theta (g_sphere g') it).
  { destruct sphs as [S S']. unfold sp_theta. rewrite (s_eq h (g_sphere g) Hsh S), (s_eq h' (g_sphere g') Hsh' S'). cbn [sp_shtns]. now rewrite (rl_ct _ _ _ _ Hrl). }
  pose proof (Grid_make_tables _ _ _ _ _ _ _ _ _ _ _ Hg) as T. pose proof (Grid_make_tables _ _ _ _ _ _ _ _ _ _ _ Hg') as T'.
  destruct T as (_ & _ & _ & _ & _ & _ & _ & _ & _ & _ & _ & _ & T & _). destruct T' as (_ & _ & _ & _ & _ & _ & _ & _ & _ & _ & _ & _ & T' & _).
  destruct (T ix it ip Hx Ht Hp) as (R1 & th1 & C1 & C2 & C3 & _).
  destruct (T' ix it ip Hx) as (R1' & th1' & C1' & C2' & C3' & _); [rewrite (rl_nlat _ _ _ _ Hrl); auto|rewrite (rl_nphi _ _ _ _ Hrl); auto|].
  rewrite (rl_nlat _ _ _ _ Hrl), (rl_nphi _ _ _ _ Hrl) in C3'.
  unfold R_th_ph_at, R_th_ph_i, indx_R_th_ph, vget in A1, B1. rewrite Eb, Et, Ep, C3 in A1. rewrite Eb', Et', Ep', C3' in B1.
  apply Ok_inj in A1. apply Ok_inj in B1. subst row row'. cbn in A2, A3, B2, B3. apply Ok_inj in A2. apply Ok_inj in A3. apply Ok_inj in B2. apply Ok_inj in B3.
  assert (QR : R = R') by congruence. assert (Qt : th = th') by congruence. rewrite QR, Qt. unfold inv_r_at, R_to_r. now rewrite Ecl, Ecl'.
Qed.
Lemma Oe : eom_ok g e. Proof. apply (Eom_make_ok g par e He). Qed.
Lemma Oe' : eom_ok g' e'. Proof. apply (Eom_make_ok g' par e' He'). Qed.

Local Ltac pick H := let x := fresh "x" in let A := fresh "A" in let B := fresh "B" in
  destruct H as (x & A & B).
Lemma prhs_same f p f' p' : same f f' -> same p p' -> same (prhs_of g e f p) (prhs_of g' e' f' p').
Proof.
  intros Hf Hp. pose proof Hf as Lf. pose proof Hp as Lp. apply same_iff in Lf. apply same_iff in Lp. destruct Lf as (Lf & Lf' & _). destruct Lp as (Lp & Lp' & _).
  assert (Z0 : length (zero3 g) = g_n3 g) by apply vec_length. assert (Z0' : length (zero3 g') = g_n3 g') by apply vec_length.
  pose proof Oe as Oe. pose proof Oe' as Oe'.
  destruct (set_k_total b h cl0 Rmin0 Rmax0 nx g Hg Hsh HL H8 H2 e f p (zero3 g) (zero3 g) Oe Lf Lp Z0 Z0) as (pk & E & Lpk).
  destruct (set_k_total b' h' cl0 Rmin0 Rmax0 nx g' Hg' Hsh' HL' H8' H2' e' f' p' (zero3 g') (zero3 g') Oe' Lf' Lp' Z0' Z0') as (pk' & E' & Lpk').
  unfold prhs_of. rewrite E, E'.
  apply set_k_inv in E. apply set_k_inv in E'. destruct E as (s & K & _ & _ & _ & _ & H). destruct E' as (s' & K' & _ & _ & _ & _ & H').
  rewrite (proj1 (k_sections_ok b h cl0 Rmin0 Rmax0 nx g Hg Hsh HL H8 H2 f p (e_scr e) Lf Lp ltac:(apply Oe))) in K.
  rewrite (proj1 (k_sections_ok b' h' cl0 Rmin0 Rmax0 nx g' Hg' Hsh' HL' H8' H2' f' p' (e_scr e') Lf' Lp' ltac:(apply Oe'))) in K'.
  apply Ok_inj in K. apply Ok_inj in K'. subst s s'. unfold scr_of in H, H'. cbn [s_dr_f s_lap_f s_dr_p s_dr_dr_f s_dphi_f s_dphi_dr_f s_sphereX_f] in H, H'.
  destruct (ang_same f f' Hf) as (S1 & S2 & S3). destruct (rad_same f f' Hf) as (S4 & S5). destruct (rad_same p p' Hp) as (S6 & _). destruct (rad_same _ _ S1) as (S7 & _).
  destruct coef_same as (S8 & P1 & P2 & P3 & P4 & P5 & P6 & P7 & P8).
  apply same_iff. split; auto. split; auto. intros ix it ip Hx Ht Hp0. destruct (idx_ok ix it ip Hx Ht Hp0) as [I I'].
  destruct Oe as (En1 & _). destruct Oe' as (En1' & _).
  destruct (H (indx_R_th_ph g ix it ip) ltac:(lia)) as (a1 & a2 & a3 & a4 & a5 & a6 & a7 & a8 & a9 & a10 & B1 & B2 & B3 & B4 & B5 & B6 & B7 & B8 & B9 & B10 & _ & R).
  destruct (H' (indx_R_th_ph g' ix it ip) ltac:(lia)) as (c1 & c2 & c3 & c4 & c5 & c6 & c7 & c8 & c9 & c10 & D1 & D2 & D3 & D4 & D5 & D6 & D7 & D8 & D9 & D10 & _ & R').
  rewrite R, R'.
  destruct (at_same f f' ix it ip Hf Hx Ht Hp0) as (x1 & X1 & Y1). destruct (at_same p p' ix it ip Hp Hx Ht Hp0) as (x2 & X2 & Y2).
  destruct (at_same _ _ ix it ip S8 Hx Ht Hp0) as (x3 & X3 & Y3). destruct (at_same _ _ ix it ip S4 Hx Ht Hp0) as (x4 & X4 & Y4).
  destruct (at_same _ _ ix it ip S6 Hx Ht Hp0) as (x5 & X5 & Y5). destruct (at_same _ _ ix it ip S5 Hx Ht Hp0) as (x6 & X6 & Y6).
  destruct (at_same _ _ ix it ip S1 Hx Ht Hp0) as (x7 & X7 & Y7). destruct (at_same _ _ ix it ip S7 Hx Ht Hp0) as (x8 & X8 & Y8).
  destruct (at_same _ _ ix it ip S2 Hx Ht Hp0) as (x9 & X9 & Y9). destruct (at_same _ _ ix it ip S3 Hx Ht Hp0) as (x10 & X10 & Y10).
  assert (a1 = c1) by congruence. assert (a2 = c2) by congruence. assert (a3 = c3) by congruence. assert (a4 = c4) by congruence. assert (a5 = c5) by congruence.
  assert (a6 = c6) by congruence. assert (a7 = c7) by congruence. assert (a8 = c8) by congruence. assert (a9 = c9) by congruence. assert (a10 = c10) by congruence.
  subst. unfold p_rhs, kprime, vprime, inverse_k. now rewrite P2, P3, P4, P5, P6, P7, P8.
Qed.
Lemma rho_same f p f' p' : same f f' -> same p p' -> same (rho_of g e f p) (rho_of g' e' f' p').
Proof.
  intros Hf Hp. pose proof Hf as Lf. pose proof Hp as Lp. apply same_iff in Lf. apply same_iff in Lp. destruct Lf as (Lf & Lf' & _). destruct Lp as (Lp & Lp' & _).
  assert (Z0 : length (zero3 g) = g_n3 g) by apply vec_length. assert (Z0' : length (zero3 g') = g_n3 g') by apply vec_length.
  pose proof Oe as Oe. pose proof Oe' as Oe'.
  destruct (set_rho_total b h cl0 Rmin0 Rmax0 nx g Hg Hsh HL H8 H2 e f p (zero3 g) Oe Lf Lp Z0) as (r & e1 & E & Lr).
  destruct (set_rho_total b' h' cl0 Rmin0 Rmax0 nx g' Hg' Hsh' HL' H8' H2' e' f' p' (zero3 g') Oe' Lf' Lp' Z0') as (r' & e1' & E' & Lr').
  unfold rho_of. rewrite E, E'.
  apply set_rho_inv in E. apply set_rho_inv in E'. destruct E as (_ & d1 & d2 & d3 & K1 & K2 & K3 & H). destruct E' as (_ & d1' & d2' & d3' & K1' & K2' & K3' & H').
  pose proof Oe as (En1 & _ & (A1 & _ & _ & _ & A5 & _ & A7)). pose proof Oe' as (En1' & _ & (B1 & _ & _ & _ & B5 & _ & B7)).
  rewrite (proj1 (ops_ok b h cl0 Rmin0 Rmax0 nx g Hg Hsh HL H8 H2 f (s_dr_f (e_scr e)) Lf A1)) in K1.
  destruct (ops_ok b h cl0 Rmin0 Rmax0 nx g Hg Hsh HL H8 H2 f (s_dphi_f (e_scr e)) Lf A5) as (_ & _ & Q & _). rewrite Q in K2. clear Q.
  destruct (ops_ok b h cl0 Rmin0 Rmax0 nx g Hg Hsh HL H8 H2 f (s_sphereX_f (e_scr e)) Lf A7) as (_ & _ & _ & _ & Q & _). rewrite Q in K3. clear Q.
  rewrite (proj1 (ops_ok b' h' cl0 Rmin0 Rmax0 nx g' Hg' Hsh' HL' H8' H2' f' (s_dr_f (e_scr e')) Lf' B1)) in K1'.
  destruct (ops_ok b' h' cl0 Rmin0 Rmax0 nx g' Hg' Hsh' HL' H8' H2' f' (s_dphi_f (e_scr e')) Lf' B5) as (_ & _ & Q & _). rewrite Q in K2'. clear Q.
  destruct (ops_ok b' h' cl0 Rmin0 Rmax0 nx g' Hg' Hsh' HL' H8' H2' f' (s_sphereX_f (e_scr e')) Lf' B7) as (_ & _ & _ & _ & Q & _). rewrite Q in K3'. clear Q.
  apply Ok_inj in K1. apply Ok_inj in K2. apply Ok_inj in K3. apply Ok_inj in K1'. apply Ok_inj in K2'. apply Ok_inj in K3'. subst d1 d2 d3 d1' d2' d3'.
  destruct (ang_same f f' Hf) as (S1 & S2 & S3). destruct (rad_same f f' Hf) as (S4 & _).
  destruct coef_same as (S8 & P1 & P2 & P3 & P4 & P5 & P6 & P7 & P8).
  apply same_iff. split; auto. split; auto. intros ix it ip Hx Ht Hp0. destruct (idx_ok ix it ip Hx Ht Hp0) as [I I'].
  destruct (H (indx_R_th_ph g ix it ip) ltac:(lia)) as (a1 & a2 & a3 & a4 & a7 & a10 & C1 & C2 & C3 & C4 & C7 & C10 & R).
  destruct (H' (indx_R_th_ph g' ix it ip) ltac:(lia)) as (c1 & c2 & c3 & c4 & c7 & c10 & D1 & D2 & D3 & D4 & D7 & D10 & R').
  rewrite R, R'.
  destruct (at_same f f' ix it ip Hf Hx Ht Hp0) as (x1 & X1 & Y1). destruct (at_same p p' ix it ip Hp Hx Ht Hp0) as (x2 & X2 & Y2).
  destruct (at_same _ _ ix it ip S8 Hx Ht Hp0) as (x3 & X3 & Y3). destruct (at_same _ _ ix it ip S4 Hx Ht Hp0) as (x4 & X4 & Y4).
  destruct (at_same _ _ ix it ip S1 Hx Ht Hp0) as (x7 & X7 & Y7). destruct (at_same _ _ ix it ip S3 Hx Ht Hp0) as (x10 & X10 & Y10).
  assert (a1 = c1) by congruence. assert (a2 = c2) by congruence. assert (a3 = c3) by congruence. assert (a4 = c4) by congruence.
  assert (a7 = c7) by congruence. assert (a10 = c10) by congruence.
  subst. unfold rho_at. now rewrite P2, P3, P4, P5, P6, P7, P8.
Qed.

(** *** the time step *)
Lemma axpy_same c k k' u u' : same k k' -> same u u' -> same (axpy c k u) (axpy c k' u').
Proof.
  intros Hk Hu. pose proof Hk as Lk. pose proof Hu as Lu. apply same_iff in Lk. apply same_iff in Lu. destruct Lk as (Lk & Lk' & _). destruct Lu as (Lu & Lu' & _).
  apply same_iff. split; [now apply axpy_length|]. split; [now apply axpy_length|]. intros ix it ip Hx Ht Hp.
  destruct (at_same k k' ix it ip Hk Hx Ht Hp) as (x1 & X1 & Y1). destruct (at_same u u' ix it ip Hu Hx Ht Hp) as (x2 & X2 & Y2).
  rewrite (axpy_nth c k u _ x2 x1), (axpy_nth c k' u' _ x2 x1) by auto. reflexivity.
Qed.
Definition same2 (u u' : state F) : Prop := same (fst u) (fst u') /\ same (snd u) (snd u').
Lemma axpy2_same c k k' u u' : same2 k k' -> same2 u u' -> same2 (axpy2 c k u) (axpy2 c k' u').
Proof. intros [] []. split; cbn; now apply axpy_same. Qed.
Lemma rhs_same u u' : same2 u u' -> same2 (rhs_of g e u) (rhs_of g' e' u').
Proof. intros []. split; cbn; auto. now apply prhs_same. Qed.
Lemma advance_same u u' : same2 u u' -> same2 (advance g e u) (advance g' e' u').
Proof.
  intros Hu. unfold advance, rk4. rewrite <- (proj1 (proj2 coef_same)). cbv zeta.
  assert (Hv : same2 (filt_of g (fst u), filt_of g (snd u)) (filt_of g' (fst u'), filt_of g' (snd u'))) by (destruct Hu; split; cbn; now apply filt_same).
  assert (K1 := rhs_same _ _ Hv).
  assert (K2 := rhs_same _ _ (axpy2_same (fdec 5 (-1) * e_dt e)%f _ _ _ _ K1 Hv)).
  assert (K3 := rhs_same _ _ (axpy2_same (fdec 5 (-1) * e_dt e)%f _ _ _ _ K2 Hv)).
  assert (K4 := rhs_same _ _ (axpy2_same (e_dt e) _ _ _ _ K3 Hv)).
  repeat apply axpy2_same; auto.
Qed.
Lemma U_same u u' j : same2 u u' -> same2 (U g e u j) (U g' e' u' j).
Proof. intros Hu. unfold U. induction j; cbn [Nat.iter nat_rect]; auto. now apply advance_same. Qed.

(** *** initial data *)
Hypothesis Hlm : LM (s_lmax h) (to_size (pr_l_ang par)) (to_size (pr_m_ang par)) < nlm_calc (s_lmax h) (s_mmax h).
Lemma y_same it ip : it < s_nlat h -> ip < s_nphi h -> y_at h g par it ip = y_at h' g' par it ip.
Proof.
  intros Ht Hp. sz. unfold y_at, ylm_of, indx_th_ph. rewrite (rl_lmax _ _ _ _ Hrl), (rl_mmax _ _ _ _ Hrl), Eb, Eb', Et, Et', Ep, Ep'.
  set (c := upd _ _ _). assert (Lc : length c = nlm_calc (s_lmax h) (s_mmax h)) by (unfold c; rewrite upd_length; apply vec_length).
  destruct (rl_sy _ _ _ _ Hrl c Lc) as (L & L' & H). specialize (H it ip Ht Hp). unfold ix_th_ph. fold (pos b (s_nlat h) (s_nphi h) it ip). fold (pos b' (s_nlat h) (s_nphi h) it ip).
  rewrite (nth_error_nth' _ f0), (nth_error_nth' (s_sy h' c) f0) in H; [congruence| |]; first [rewrite L'|rewrite L]; unfold pos; [destruct (contiguous b')|destruct (contiguous b)]; nia.
Qed.
Lemma r_same ix : r_at g ix = r_at g' ix.
Proof. sz. unfold r_at, pt_of, R_to_r. now rewrite Erad, Ecl, Ecl'. Qed.
Lemma vals_same ix it ip : it < s_nlat h -> ip < s_nphi h -> fval h g par ix it ip = fval h' g' par ix it ip /\ pval h g par ix it ip = pval h' g' par ix it ip.
Proof. intros Ht Hp. unfold fval, pval. now rewrite (y_same it ip Ht Hp), r_same. Qed.
Lemma max_same : max_of h nx g par = max_of h' nx g' par.
Proof.
  sz. unfold max_of, pts. rewrite Et, Et', Ep, Ep'. generalize (@f0 F _).
  assert (IN : forall q, In q (list_prod (seq 0 (nx - 1)) (list_prod (seq 0 (s_nphi h)) (seq 0 (s_nlat h)))) -> snd (snd q) < s_nlat h /\ fst (snd q) < s_nphi h).
  { intros [ix [ip it]] Hq. apply in_prod_iff in Hq. destruct Hq as [_ Hq]. apply in_prod_iff in Hq. destruct Hq as [A B]. apply in_seq in A. apply in_seq in B. cbn. lia. }
  revert IN. generalize (list_prod (seq 0 (nx - 1)) (list_prod (seq 0 (s_nphi h)) (seq 0 (s_nlat h)))). intros l. induction l as [|q l IH]; intros IN m; [reflexivity|]. cbn [fold_left].
  rewrite IH by (intros q' Hq'; apply IN; now right). f_equal. unfold upd_max. destruct (IN q ltac:(now left)) as [A B].
  now rewrite (proj1 (vals_same (fst q) _ _ A B)).
Qed.
Lemma pulse_same f p f' p' u u' : same f f' -> same p p' -> compact_pulse par g f p = Ok u -> compact_pulse par g' f' p' = Ok u' -> same2 u u'.
Proof.
  intros Hf Hp E E'. pose proof Hf as Lf. pose proof Hp as Lp. apply same_iff in Lf. apply same_iff in Lp. destruct Lf as (Lf & Lf' & _). destruct Lp as (Lp & Lp' & _).
  assert (Hlm' : LM (s_lmax h') (to_size (pr_l_ang par)) (to_size (pr_m_ang par)) < nlm_calc (s_lmax h') (s_mmax h')) by (rewrite (rl_lmax _ _ _ _ Hrl), (rl_mmax _ _ _ _ Hrl); auto).
  destruct (compact_pulse_ok b h cl0 Rmin0 Rmax0 nx g Hg Hsh Hx1 par Hlm f p Lf Lp) as (f1 & p1 & E1 & L1 & L2 & A & B).
  destruct (compact_pulse_ok b' h' cl0 Rmin0 Rmax0 nx g' Hg' Hsh' Hx1 par Hlm' f' p' Lf' Lp') as (f1' & p1' & E1' & L1' & L2' & A' & B').
  rewrite <- max_same in A', B'. assert (u = (f1, p1)) by congruence. assert (u' = (f1', p1')) by congruence. subst u u'. sz.
  split; cbn [fst snd]; apply same_iff; (split; [auto|]; split; [auto|]); intros ix it ip Hx Ht Hq;
    (destruct (Nat.eq_dec ix (nx - 1)) as [->|Hn];
     [destruct (B it ip ltac:(lia) ltac:(lia)) as [B1 B2]; destruct (B' it ip ltac:(lia) ltac:(lia)) as [B1' B2'];
      destruct (at_same f f' (nx - 1) it ip Hf Hx Ht Hq) as (x1 & X1 & Y1); destruct (at_same p p' (nx - 1) it ip Hp Hx Ht Hq) as (x2 & X2 & Y2)
     |destruct (A ix it ip ltac:(lia) ltac:(lia) ltac:(lia)) as [B1 B2]; destruct (A' ix it ip ltac:(lia) ltac:(lia) ltac:(lia)) as [B1' B2'];
      destruct (vals_same ix it ip Ht Hq) as [V1 V2]]).
  - rewrite B1, B1', X1, Y1. reflexivity.
  - rewrite B1, B1', V1. reflexivity.
  - rewrite B2, B2', X2, Y2. reflexivity.
  - rewrite B2, B2', V2. reflexivity.
Qed.

(** *** output *)
Lemma spectrum_same v v' : same v v' ->
  set_angular_power_spectrum g v (vec (g_nx g * g_nl g) f0) = set_angular_power_spectrum g' v' (vec (g_nx g' * g_nl g') f0).
Proof.
  intros Hv. pose proof Hv as Hv'. apply same_iff in Hv'. destruct Hv' as (L & L' & _). sz. destruct sphs as [S S'].
  destruct (spectrum_total b h cl0 Rmin0 Rmax0 nx g Hg Hsh v (vec (g_nx g * g_nl g) f0) L (vec_length _ _)) as (ps & E & Lp & H).
  destruct (spectrum_total b' h' cl0 Rmin0 Rmax0 nx g' Hg' Hsh' v' (vec (g_nx g' * g_nl g') f0) L' (vec_length _ _)) as (ps' & E' & Lp' & H').
  rewrite E, E'. f_equal. rewrite En, El in *. rewrite En', El' in *. apply (list_ext _ _ (nx * s_lmax h)); auto. intros i Hi.
  assert (Hl : s_lmax h <> 0) by nia. assert (Hq : i = ix_r_l (s_lmax h) (i / s_lmax h) (i mod s_lmax h)) by (apply Nat.div_mod; auto).
  pose proof (Nat.mod_upper_bound i (s_lmax h) Hl). assert (Hix : i / s_lmax h < nx) by (apply Nat.div_lt_upper_bound; lia).
  destruct (H (i / s_lmax h) Hix) as (q & Q1 & Q2 & Q3). destruct (H' (i / s_lmax h) Hix) as (q' & Q1' & Q2' & Q3').
  assert (q = q'). { eapply (power_same b b' h h'); [exact Hsh|exact Hsh'|exact S|exact S'|exact Hrl|apply (shell_of v v' (i / s_lmax h) Hv Hix)|apply vec_length|apply vec_length|exact Q1|exact Q1']. }
  subst q'. specialize (Q3 (i mod s_lmax h) ltac:(auto)). specialize (Q3' (i mod s_lmax h) ltac:(auto)). unfold indx_r_l in Q3, Q3'. rewrite El in Q3. rewrite El' in Q3'. rewrite <- Hq in Q3, Q3'. congruence.
Qed.
Variable fmt : F -> text.
Lemma text_same v v' : same v v' -> r_text fmt g v = r_text fmt g' v'.
Proof. intros Hv. sz. unfold r_text. rewrite (spectrum_same v v' Hv), ERl. reflexivity. Qed.
Lemma put_same dir u u' k fs : same2 u u' -> put fmt g dir e u k fs = put fmt g' dir e' u' k fs.
Proof.
  intros [H1 H2'']. unfold put, wr_file. rewrite (text_same _ _ H1). rewrite (text_same _ _ (rho_same _ _ _ _ H1 H2'')). reflexivity.
Qed.
Lemma saves_same dir u u' K fs : same2 u u' -> saves fmt g par dir e u K fs = saves fmt g' par dir e' u' K fs.
Proof.
  intros Hu. induction K; cbn [saves]; [now apply put_same|]. rewrite IHK. apply put_same. now apply U_same.
Qed.
End G.
