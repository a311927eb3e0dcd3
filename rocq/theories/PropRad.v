(** * Properties C21, C22: radial derivatives with respect to r and the compactification. *)
From Coq Require Import Reals Lra.
From Coquelicot Require Import Coquelicot.
From Verif Require Import Base BaseLemmas ForList Arith MFd MCheb MSphere MGrid MSim GridSpec SphereSpec Spec
  PGrid PTables PMake PFd PFdR PCheb PChebG PropFd PropFd2 PropCheb PSphere PSphere2 PropSphere PGridOp PropGridOp PRad.
Local Open Scope R_scope.

(** ** C22 *)
Section C22.
Variable g : grid R.
Let cl := g_cl g.
Lemma R_to_r_val X : / 10 ^ 16 < Rabs (X - cl) -> R_to_r g X = X / (1 - X / cl).
Proof.
  intros H. unfold R_to_r. cbn [flt R_arith fdec fabs fsub]. unfold Rltb. destruct (Rlt_dec _ _) as [|N]; auto.
  exfalso. apply N. fold cl. replace (1 * powerRZ 10 (-16)) with (/ 10 ^ 16) by (simpl; lra). exact H.
Qed.
Lemma R_to_r_inf X : Rabs (X - cl) <= / 10 ^ 16 -> R_to_r g X = 10 ^ 12.
Proof.
  intros H. unfold R_to_r. cbn [flt R_arith fdec fabs fsub]. unfold Rltb. destruct (Rlt_dec _ _) as [N|]; [|simpl; lra].
  exfalso. fold cl in N. replace (1 * powerRZ 10 (-16)) with (/ 10 ^ 16) in N by (simpl; lra). lra.
Qed.
Theorem C22_R_to_r_of_compactification r : 0 < cl -> 0 <= r ->
  / 10 ^ 16 < Rabs (compactification cl r - cl) -> R_to_r g (compactification cl r) = r.
Proof.
  intros Hc Hr H. rewrite R_to_r_val by auto. unfold compactification.
  assert (0 <= r / cl) by (apply Rmult_le_pos; auto; left; now apply Rinv_0_lt_compat).
  field. repeat split; lra.
Qed.
Theorem C22_compactification_of_R_to_r X : 0 < cl -> 0 <= X -> X < cl - / 10 ^ 16 ->
  compactification cl (R_to_r g X) = X /\ 0 <= R_to_r g X.
Proof.
  intros Hc H0 H1. assert (0 < / 10 ^ 16) by (apply Rinv_0_lt_compat, pow_lt; lra).
  rewrite R_to_r_val by (rewrite Rabs_left; lra).
  change (X / (1 - X / cl)) with (rphys cl X). rewrite comp_rphys by lra. split; auto.
  unfold rphys. apply Rmult_le_pos; auto. left. apply Rinv_0_lt_compat.
  assert (X / cl < 1). { apply (Rmult_lt_reg_r cl); auto. unfold Rdiv. rewrite Rmult_assoc, Rinv_l, Rmult_1_r; lra. } lra.
Qed.
(** within 1e-16 of cl, spatial infinity is represented by 1e12 *)
Theorem C22_infinity X : Rabs (X - cl) <= / 10 ^ 16 -> R_to_r g X = 10 ^ 12.
Proof. apply R_to_r_inf. Qed.
Theorem C22_compactification_increasing r r' : 0 < cl -> 0 <= r -> r < r' ->
  0 <= compactification cl r < compactification cl r' /\ compactification cl r' < cl.
Proof.
  intros Hc H0 H1.
  assert (E : forall x, 0 <= x -> compactification cl x = cl - cl * cl / (cl + x)).
  { intros x Hx. unfold compactification. field. split; lra. }
  rewrite !E by lra. assert (P : 0 < cl * cl) by now apply Rmult_lt_0_compat.
  assert (I : / (cl + r') < / (cl + r)) by (apply Rinv_lt_contravar; [apply Rmult_lt_0_compat; lra|lra]).
  assert (I2 : 0 < / (cl + r')) by (apply Rinv_0_lt_compat; lra).
  assert (I3 : cl * cl * / (cl + r) <= cl).
  { apply (Rmult_le_reg_r (cl + r)); [lra|]. rewrite Rmult_assoc, Rinv_l by lra. rewrite Rmult_1_r.
    apply Rmult_le_compat_l; lra. }
  assert (cl * cl * / (cl + r') < cl * cl * / (cl + r)) by now apply Rmult_lt_compat_l.
  assert (0 < cl * cl * / (cl + r')) by now apply Rmult_lt_0_compat.
  unfold Rdiv. lra.
Qed.
Theorem C22_R_to_r_increasing X X' : 0 < cl -> 0 <= X -> X < X' -> X' < cl - / 10 ^ 16 ->
  R_to_r g X < R_to_r g X'.
Proof.
  intros Hc H0 H1 H2.
  destruct (C22_compactification_of_R_to_r X) as (E & P); try lra.
  destruct (C22_compactification_of_R_to_r X') as (E' & P'); try lra.
  destruct (Rlt_or_le (R_to_r g X) (R_to_r g X')) as [|[C|C]]; auto; exfalso.
  - pose proof (C22_compactification_increasing _ _ Hc P' C). lra.
  - rewrite C in E'. lra.
Qed.
(** but the value standing for infinity does not dominate: just below it, radii exceed it *)
Theorem C22_infinity_is_largest_refuted : 1 <= cl ->
  exists X, 0 <= X < cl /\ R_to_r g cl < R_to_r g X.
Proof.
  intros Hc. exists (cl - / 10 ^ 15).
  assert (0 < / 10 ^ 16) by (apply Rinv_0_lt_compat, pow_lt; lra).
  assert (E5 : / 10 ^ 15 = 10 * / 10 ^ 16) by (simpl; lra).
  assert (B : / 10 ^ 15 < / 2) by (simpl; lra).
  split; [lra|]. rewrite (R_to_r_inf cl) by (rewrite Rminus_diag_eq, Rabs_R0; lra).
  rewrite R_to_r_val by (rewrite Rabs_left; lra).
  replace ((cl - / 10 ^ 15) / (1 - (cl - / 10 ^ 15) / cl)) with (10 ^ 15 * (cl * (cl - / 10 ^ 15))).
  - assert (/ 2 <= cl * (cl - / 10 ^ 15)). { apply Rle_trans with (1 * / 2); [lra|]. apply Rmult_le_compat; lra. }
    apply Rlt_le_trans with (10 ^ 15 * / 2); [simpl; lra|]. apply Rmult_le_compat_l; [simpl; lra|auto].
  - assert (10 ^ 15 <> 0) by (apply pow_nonzero; lra). field; lra.
Qed.
End C22.

(** the tables used by set_partial_r and set_partial2_r hold the derivatives of the compactification *)
Theorem C22_tables b h cl Rmin Rmax nx g ix X : cl <> 0 -> grid_of b h cl Rmin Rmax nx g -> (ix < nx)%nat ->
  rad_pt (g_radial g) ix = Ok X ->
  (X <> cl -> nth ix (g_dR g) 0 = Derive (compactification cl) (X / (1 - X / cl)) /\
              nth ix (g_d2R g) 0 = Derive_n (compactification cl) 2 (X / (1 - X / cl))) /\
  (X = cl -> nth ix (g_dR g) 0 = 0 /\ nth ix (g_d2R g) 0 = 0).
Proof.
  intros Hc Hg Hx HX. apply Grid_make_tables in Hg.
  destruct Hg as (_ & _ & _ & _ & _ & _ & _ & _ & _ & _ & _ & _ & _ & _ & _ & _ & T).
  destruct (T ix Hx) as (X' & E & D1 & D2). rewrite HX in E. injection E as <-.
  apply nth_error_nth with (d := 0) in D1, D2. rewrite D1, D2. cbn [fpow fsub fmul fdiv fofZ R_arith]. split.
  - intros HN. change (X / (1 - X / cl)) with (rphys cl X). split.
    + symmetry. etransitivity; [apply (chain1 cl Hc (fun y => y) X HN); auto_derive; auto|]. rewrite Derive_id. ring.
    + symmetry. etransitivity; [apply (chain2 cl Hc (fun y => y) X HN)|].
      * apply filter_forall. intros y. auto_derive. auto.
      * simpl. apply (ex_derive_ext (fun _ => 1)); [intros; symmetry; apply Derive_id|auto_derive; auto].
      * rewrite Derive_id. assert (DD : Derive_n (fun y : R => y) 2 X = 0).
        { simpl. rewrite (Derive_ext _ (fun _ => 1)) by (intros; apply Derive_id). apply Derive_const. }
        change (Derive_n (fun y : R_AbsRing => y) 2 X) with (Derive_n (fun y : R => y) 2 X). rewrite DD. ring.
  - intros ->. assert (cl / cl = 1) as -> by (field; auto). split; ring.
Qed.

(** ** C21 *)
(** v holds the values f_{theta,phi}(R) at the grid points *)
Definition radial_samples (g : grid R) (f : nat -> nat -> R -> R) (v : list R) : Prop :=
  length v = g_n3 g /\ forall ix it ip X, (ix < g_nx g)%nat -> (it < g_nlat g)%nat -> (ip < g_nphi g)%nat ->
    rad_pt (g_radial g) ix = Ok X -> nth (indx_R_th_ph g ix it ip) v 0 = f it ip X.
(** the physical radius of compactified radius X and the pull-back of f to r *)
Definition r_of (cl X : R) : R := X / (1 - X / cl).
Definition in_r (cl : R) (f : R -> R) (r : R) : R := f (r / (1 + r / cl)).

Section C21.
Variables (b : build) (h : sht R) (cl Rmn Rmx : R) (nx : nat) (g : grid R).
Hypothesis Hg : grid_of b h cl Rmn Rmx nx g.
Hypothesis Hcl : cl <> 0.

Lemma tabs ix X : (ix < nx)%nat -> rad_pt (g_radial g) ix = Ok X ->
  nth ix (g_dR g) 0 = (1 - X / cl) ^ 2 /\ nth ix (g_d2R g) 0 = -2 / cl * (1 - X / cl) ^ 3.
Proof.
  intros Hx HX. pose proof Hg as T. apply Grid_make_tables in T.
  destruct T as (_ & _ & _ & _ & _ & _ & _ & _ & _ & _ & _ & _ & _ & _ & _ & _ & T).
  destruct (T ix Hx) as (X' & E & D1 & D2). rewrite HX in E. injection E as <-.
  apply nth_error_nth with (d := 0) in D1, D2. rewrite D1, D2. split; reflexivity.
Qed.
Lemma pt_ex ix : (ix < nx)%nat -> exists X, rad_pt (g_radial g) ix = Ok X.
Proof.
  intros Hx. pose proof Hg as T. apply Grid_make_tables in T.
  destruct T as (_ & _ & _ & _ & _ & _ & _ & _ & _ & _ & _ & _ & _ & _ & _ & _ & T).
  destruct (T ix Hx) as (X' & E & _). eauto.
Qed.
Lemma nth_rl v it ip ix : (ix < g_nx g)%nat -> nth ix (rline g v it ip) 0 = nth (indx_R_th_ph g ix it ip) v 0.
Proof. intros. unfold rline. now rewrite nth_map_seq. Qed.

(** what the grid operators return, from what the radial scheme returns on each line *)
Lemma core1 v dv : (use_cheb b = false -> 7 <= nx)%nat -> (use_cheb b = true -> 2 <= nx)%nat -> length v = g_n3 g -> length dv = g_n3 g ->
  exists dr, set_partial_r g v dv = Ok dr /\ length dr = g_n3 g /\
    forall it ip, (it < g_nlat g)%nat -> (ip < g_nphi g)%nat -> exists d, line_R g (rline g v it ip) = Ok d /\
    forall ix X, (ix < g_nx g)%nat -> rad_pt (g_radial g) ix = Ok X ->
      nth (indx_R_th_ph g ix it ip) dr 0 = nth ix d 0 * (1 - X / cl) ^ 2.
Proof.
  intros Hn Hn' Lv Hd. destruct (gof_sizes b h cl Rmn Rmx nx g Hg) as (Eb & En & _ & _ & _ & _ & Er & LdR & Ld2 & _).
  destruct (C23_first_radial b h cl Rmn Rmx nx g Hg v dv) as (dr & E & L & H); auto.
  exists dr. split; auto. split; auto. intros it ip Ht Hp. specialize (H it ip Ht Hp).
  assert (R7 : rad_big g 7) by (eapply gof_rad; eauto; congruence).
  destruct (line_r_total g (rline g v it ip) R7 (rline_length g v it ip)) as (d & o & Ed & Eo & Ldd & Lo & Ho); [congruence|].
  exists d. split; auto. intros ix X Hx HX. rewrite <- nth_rl by auto.
  rewrite H in Eo. injection Eo as <-. change f0 with 0 in Ho. rewrite Ho by auto.
  destruct (tabs ix X) as [-> _]; auto. lia.
Qed.
Lemma core2 v dv : (use_cheb b = false -> 8 <= nx)%nat -> (use_cheb b = true -> 2 <= nx)%nat -> length v = g_n3 g -> length dv = g_n3 g ->
  exists dr, set_partial2_r g v dv = Ok dr /\ length dr = g_n3 g /\
    forall it ip, (it < g_nlat g)%nat -> (ip < g_nphi g)%nat -> exists d dd, line_R g (rline g v it ip) = Ok d /\ length d = g_nx g /\
    match g_radial g with RCh c => line_R g d = Ok dd | RFd r => fd_der2 (g_bld g) r (rline g v it ip) (rad0 g) = Ok dd end /\
    forall ix X, (ix < g_nx g)%nat -> rad_pt (g_radial g) ix = Ok X ->
      nth (indx_R_th_ph g ix it ip) dr 0 = -2 / cl * (1 - X / cl) ^ 3 * nth ix d 0 + ((1 - X / cl) ^ 2) ^ 2 * nth ix dd 0.
Proof.
  intros Hn Hn' Lv Hd. destruct (gof_sizes b h cl Rmn Rmx nx g Hg) as (Eb & En & _ & _ & _ & _ & Er & LdR & Ld2 & _).
  destruct (C23_radial b h cl Rmn Rmx nx g Hg v dv) as (dR & dr' & dr & _ & _ & E & _ & _ & L & H); auto.
  exists dr. split; auto. split; auto. intros it ip Ht Hp. destruct (H it ip Ht Hp) as (_ & _ & H').
  assert (R7 : rad_big g 8) by (eapply gof_rad; eauto; congruence).
  destruct (line_r2_total g (rline g v it ip) R7 (rline_length g v it ip)) as (d & dd & o & Ed & Ldd & Lddd & Edd & Eo & Lo & Ho); [congruence|congruence|].
  exists d, dd. split; auto. split; auto. split; auto. intros ix X Hx HX. rewrite <- nth_rl by auto.
  rewrite H' in Eo. injection Eo as <-. change f0 with 0 in Ho. rewrite Ho by auto.
  destruct (tabs ix X) as [-> ->]; auto. lia.
Qed.

Lemma fd_grid : use_cheb b = false -> g_radial g = RFd (FD_make nx Rmn Rmx).
Proof.
  intros Hb. destruct (gof_sizes b h cl Rmn Rmx nx g Hg) as (_ & _ & _ & _ & _ & _ & Er & _).
  unfold rad_make in Er. rewrite Hb in Er. now injection Er.
Qed.
Lemma cheb_grid : use_cheb b = true -> exists c, Cheb_make b nx Rmn Rmx = Ok c /\ g_radial g = RCh c.
Proof.
  intros Hb. destruct (gof_sizes b h cl Rmn Rmx nx g Hg) as (_ & _ & _ & _ & _ & _ & Er & _).
  unfold rad_make in Er. rewrite Hb in Er. inv_bind Er. injection Er as <-. eauto.
Qed.
Lemma fd_line f v it ip : use_cheb b = false -> radial_samples g f v -> (it < g_nlat g)%nat -> (ip < g_nphi g)%nat ->
  rline g v it ip = samples (FD_make nx Rmn Rmx) (f it ip).
Proof.
  intros Hb [_ Hv] Ht Hp. destruct (gof_sizes b h cl Rmn Rmx nx g Hg) as (_ & En & _).
  unfold samples, rline. rewrite En. apply map_ext_in. intros i Hi. apply in_seq in Hi.
  cbn [fd_n FD_make] in Hi. apply Hv; auto; [lia|]. rewrite (fd_grid Hb). reflexivity.
Qed.
Lemma cheb_line f v it ip c : g_radial g = RCh c -> radial_samples g f v -> (it < g_nlat g)%nat -> (ip < g_nphi g)%nat ->
  cheb_samples c nx (f it ip) (rline g v it ip).
Proof.
  intros Hc [_ Hv] Ht Hp. destruct (gof_sizes b h cl Rmn Rmx nx g Hg) as (_ & En & _).
  split; [rewrite rline_length; auto|]. intros i x Hi Hx. rewrite nth_rl by lia. apply Hv; auto; [lia|]. rewrite Hc. exact Hx.
Qed.

(** Finite differences, polynomials of degree <= 6 (7 for the second stencil alone): exact *)
Theorem C21_fd_exact_first (c : nat -> nat -> list R) v dv :
  use_cheb b = false -> (7 <= nx)%nat -> Rmn <> Rmx ->
  (forall it ip, length (c it ip) <= 7)%nat -> radial_samples g (fun it ip => poly (c it ip)) v -> length dv = g_n3 g ->
  exists dr, set_partial_r g v dv = Ok dr /\ length dr = g_n3 g /\
    forall ix it ip X, (ix < g_nx g)%nat -> (it < g_nlat g)%nat -> (ip < g_nphi g)%nat -> rad_pt (g_radial g) ix = Ok X ->
      (X <> cl -> nth (indx_R_th_ph g ix it ip) dr 0 = Derive (in_r cl (poly (c it ip))) (r_of cl X)) /\
      (X = cl -> nth (indx_R_th_ph g ix it ip) dr 0 = 0).
Proof.
  intros Hb Hn Hl Hc Hv Hd. destruct (gof_sizes b h cl Rmn Rmx nx g Hg) as (Eb & En & _).
  destruct (core1 v dv) as (dr & E & L & H); auto; [congruence|apply Hv|].
  exists dr. split; auto. split; auto. intros ix it ip X Hx Ht Hp HX. destruct (H it ip Ht Hp) as (d & Ed & H'). rewrite (H' ix X) by auto.
  unfold line_R in Ed. rewrite Eb, (fd_line _ _ _ _ Hb Hv Ht Hp), fd_grid in Ed by auto. cbn [rad_der] in Ed.
  destruct (C07_der_exact b nx Rmn Rmx (c it ip) (rad0 g)) as (out & Eo & _ & Hout); auto; [rewrite rad0_length; lia|].
  cbv zeta in *. rewrite Eo in Ed. injection Ed as <-. rewrite Hout by lia.
  rewrite fd_grid in HX by auto. cbn [rad_pt] in HX. assert (EX : fd_pt (FD_make nx Rmn Rmx) ix = X) by now injection HX. rewrite !EX. split.
  - intros HN. symmetry. apply (chain1 cl Hcl (poly (c it ip)) X HN). eexists. apply poly_is_derive.
  - intros ->. assert (cl / cl = 1) as -> by (field; auto). ring.
Qed.
Lemma poly_ex_derive_n c k x : ex_derive_n (poly c) k x.
Proof.
  destruct k as [|k]; [exact I|]. change (ex_derive (Derive_n (poly c) k) x).
  assert (E : forall k, exists d, forall y, Derive_n (poly c) k y = poly d y).
  { intros j. induction j as [|j (d & IH)]; [exists c; auto|]. exists (dp d). intros y. simpl.
    rewrite (Derive_ext _ _ _ IH). apply poly_Derive. }
  destruct (E k) as (d & Ed). apply (ex_derive_ext (poly d)); [intros; symmetry; apply Ed|]. eexists. apply poly_is_derive.
Qed.
Theorem C21_fd_exact_second (c : nat -> nat -> list R) v dv :
  use_cheb b = false -> (8 <= nx)%nat -> Rmn <> Rmx ->
  (forall it ip, length (c it ip) <= 7)%nat -> radial_samples g (fun it ip => poly (c it ip)) v -> length dv = g_n3 g ->
  exists dr, set_partial2_r g v dv = Ok dr /\ length dr = g_n3 g /\
    forall ix it ip X, (ix < g_nx g)%nat -> (it < g_nlat g)%nat -> (ip < g_nphi g)%nat -> rad_pt (g_radial g) ix = Ok X ->
      (X <> cl -> nth (indx_R_th_ph g ix it ip) dr 0 = Derive_n (in_r cl (poly (c it ip))) 2 (r_of cl X)) /\
      (X = cl -> nth (indx_R_th_ph g ix it ip) dr 0 = 0).
Proof.
  intros Hb Hn Hl Hc Hv Hd. destruct (gof_sizes b h cl Rmn Rmx nx g Hg) as (Eb & En & _).
  destruct (core2 v dv) as (dr & E & L & H); auto; [congruence|apply Hv|].
  exists dr. split; auto. split; auto. intros ix it ip X Hx Ht Hp HX. destruct (H it ip Ht Hp) as (d & dd & Ed & _ & Edd & H'). rewrite (H' ix X) by auto.
  unfold line_R in Ed. rewrite fd_grid in Edd by auto. rewrite Eb, (fd_line _ _ _ _ Hb Hv Ht Hp) in Ed, Edd. rewrite fd_grid in Ed by auto. cbn [rad_der] in Ed.
  destruct (C07_der_exact b nx Rmn Rmx (c it ip) (rad0 g)) as (out & Eo & _ & Hout); auto; [lia|rewrite rad0_length; lia|].
  destruct (C08_der2_exact b nx Rmn Rmx (c it ip) (rad0 g)) as (out2 & Eo2 & _ & Hout2); auto; [rewrite rad0_length; lia|].
  cbv zeta in *. rewrite Eo in Ed. injection Ed as <-. rewrite Eo2 in Edd. injection Edd as <-. rewrite Hout, Hout2 by lia.
  rewrite fd_grid in HX by auto. cbn [rad_pt] in HX. assert (EX : fd_pt (FD_make nx Rmn Rmx) ix = X) by now injection HX. rewrite !EX. split.
  - intros HN. symmetry. apply (chain2 cl Hcl (poly (c it ip)) X HN).
    + apply filter_forall. intros y. eexists. apply poly_is_derive.
    + apply poly_ex_derive_n.
  - intros ->. assert (cl / cl = 1) as -> by (field; auto). ring.
Qed.

(** Chebyshev, polynomials of degree <= nx-3: exact *)
Theorem C21_cheb_exact (c : nat -> nat -> list R) v dv :
  use_cheb b = true -> (2 <= nx)%nat -> Rmn <> Rmx ->
  (forall it ip, length (c it ip) <= nx - 2)%nat -> radial_samples g (fun it ip => poly (c it ip)) v -> length dv = g_n3 g ->
  exists dr d2r, set_partial_r g v dv = Ok dr /\ set_partial2_r g v dv = Ok d2r /\ length dr = g_n3 g /\ length d2r = g_n3 g /\
    forall ix it ip X, (ix < g_nx g)%nat -> (it < g_nlat g)%nat -> (ip < g_nphi g)%nat -> rad_pt (g_radial g) ix = Ok X ->
      (X <> cl -> nth (indx_R_th_ph g ix it ip) dr 0 = Derive (in_r cl (poly (c it ip))) (r_of cl X) /\
                  nth (indx_R_th_ph g ix it ip) d2r 0 = Derive_n (in_r cl (poly (c it ip))) 2 (r_of cl X)) /\
      (X = cl -> nth (indx_R_th_ph g ix it ip) dr 0 = 0 /\ nth (indx_R_th_ph g ix it ip) d2r 0 = 0).
Proof.
  intros Hb Hn Hl Hc Hv Hd. destruct (gof_sizes b h cl Rmn Rmx nx g Hg) as (Eb & En & _).
  destruct (core1 v dv) as (dr & E & L & H); auto; [congruence|apply Hv|].
  destruct (core2 v dv) as (dr2 & E2 & L2 & H2); auto; [congruence|apply Hv|].
  destruct (cheb_grid Hb) as (ch & Ech & Egr).
  exists dr, dr2. do 4 (split; auto). intros ix it ip X Hx Ht Hp HX.
  destruct (H it ip Ht Hp) as (d & Ed & H'). rewrite (H' ix X) by auto.
  destruct (H2 it ip Ht Hp) as (d' & dd & Ed' & _ & Edd & H2'). rewrite (H2' ix X) by auto.
  rewrite Ed' in Ed. injection Ed as ->.
  rewrite Egr in Edd. unfold line_R in Ed', Edd. rewrite Egr, Eb in Ed', Edd. cbn [rad_der] in Ed', Edd.
  rewrite Egr in HX. cbn [rad_pt] in HX.
  destruct (C17_der_exact b nx Rmn Rmx ch (c it ip) (rline g v it ip) (rad0 g)) as (out & Eo & Lo & Hout); auto; [rewrite rad0_length; lia|exact (cheb_line (fun it ip => poly (c it ip)) v it ip ch Egr Hv Ht Hp)|].
  rewrite Eo in Ed'. injection Ed' as <-.
  destruct (C17_der_exact b nx Rmn Rmx ch (dp (c it ip)) out (rad0 g)) as (out2 & Eo2 & Lo2 & Hout2); auto; [rewrite rad0_length; lia| | |].
  { specialize (Hc it ip). assert (forall k l, length (dcoef k l) = length l) by (intros k l; revert k; induction l; simpl; auto).
    destruct (c it ip) as [|a l]; simpl in *; [lia|]. rewrite H0. lia. }
  { split; auto. intros i x Hi Hix. rewrite (Hout i x) by auto. apply poly_Derive. }
  rewrite Eo2 in Edd. injection Edd as <-. rewrite (Hout ix X), (Hout2 ix X) by (auto; lia).
  rewrite (poly_Derive (dp _)), <- poly_Derive2. split.
  - intros HN. split; symmetry.
    + apply (chain1 cl Hcl (poly (c it ip)) X HN). eexists. apply poly_is_derive.
    + apply (chain2 cl Hcl (poly (c it ip)) X HN).
      * apply filter_forall. intros y. eexists. apply poly_is_derive.
      * apply poly_ex_derive_n.
  - intros ->. assert (cl / cl = 1) as -> by (field; auto). split; ring.
Qed.

(** Finite differences, smooth functions: sixth-order accuracy in the spacing dx of R *)
Theorem C21_fd_accuracy (f : nat -> nat -> R -> R) v dv lo' up' M7 M8 :
  use_cheb b = false -> (8 <= nx)%nat -> Rmn < Rmx -> lo' < Rmn -> Rmx < up' ->
  (forall it ip k t, (k <= 8)%nat -> lo' < t < up' -> ex_derive_n (f it ip) k t) ->
  (forall it ip t, Rmn <= t <= Rmx -> Rabs (Derive_n (f it ip) 7 t) <= M7 /\ Rabs (Derive_n (f it ip) 8 t) <= M8) ->
  radial_samples g f v -> length dv = g_n3 g ->
  let dx := (Rmx - Rmn) / INR (nx - 1) in
  exists dr d2r, set_partial_r g v dv = Ok dr /\ set_partial2_r g v dv = Ok d2r /\
    forall ix it ip X, (ix < g_nx g)%nat -> (it < g_nlat g)%nat -> (ip < g_nphi g)%nat -> rad_pt (g_radial g) ix = Ok X -> X <> cl ->
      Rabs (nth (indx_R_th_ph g ix it ip) dr 0 - Derive (in_r cl (f it ip)) (r_of cl X)) <= 44 * M7 * dx ^ 6 * (1 - X / cl) ^ 2 /\
      Rabs (nth (indx_R_th_ph g ix it ip) d2r 0 - Derive_n (in_r cl (f it ip)) 2 (r_of cl X))
        <= Rabs (2 / cl * (1 - X / cl) ^ 3) * (44 * M7 * dx ^ 6) + (1 - X / cl) ^ 4 * (607 * M8 * dx ^ 6).
Proof.
  intros Hb Hn Hl Hlo Hup Hs HM Hv Hd dx. destruct (gof_sizes b h cl Rmn Rmx nx g Hg) as (Eb & En & _).
  destruct (core1 v dv) as (dr & E & L & H); auto; [lia|congruence|apply Hv|].
  destruct (core2 v dv) as (dr2 & E2 & L2 & H2); auto; [congruence|apply Hv|].
  exists dr, dr2. do 2 (split; auto). intros ix it ip X Hx Ht Hp HX HN.
  destruct (H it ip Ht Hp) as (d & Ed & H'). rewrite (H' ix X) by auto.
  destruct (H2 it ip Ht Hp) as (d' & dd & Ed' & _ & Edd & H2'). rewrite (H2' ix X) by auto.
  rewrite Ed' in Ed. injection Ed as ->.
  unfold line_R in Ed'. rewrite fd_grid in Edd by auto. rewrite Eb, (fd_line _ _ _ _ Hb Hv Ht Hp) in Ed', Edd. rewrite fd_grid in Ed' by auto. cbn [rad_der] in Ed'.
  destruct (C09_der_sixth_order b nx Rmn Rmx (f it ip) (rad0 g) lo' up' M7) as (out & Eo & _ & Hout);
    [lia|lra|rewrite rad0_length; lia|lra|lra|intros k t Hk Htt; apply Hs; [lia|auto]|intros t Htt; exact (proj1 (HM it ip t Htt))|].
  destruct (C09_der2_sixth_order b nx Rmn Rmx (f it ip) (rad0 g) lo' up' M8) as (out2 & Eo2 & _ & Hout2);
    [lia|lra|rewrite rad0_length; lia|lra|lra|intros k t Hk Htt; apply Hs; [lia|auto]|intros t Htt; exact (proj2 (HM it ip t Htt))|].
  cbv zeta in *. rewrite Eo in Ed'. injection Ed' as <-. rewrite Eo2 in Edd. injection Edd as <-.
  specialize (Hout ix ltac:(lia)). specialize (Hout2 ix ltac:(lia)). fold dx in Hout, Hout2.
  rewrite fd_grid in HX by auto. cbn [rad_pt] in HX. assert (EX : fd_pt (FD_make nx Rmn Rmx) ix = X) by now injection HX.
  assert (HXr : lo' < X < up').
  { assert (B : Rmn <= X <= Rmx); [|lra]. rewrite <- EX. apply (pt_range nx Rmn Rmx ix); auto; lia. }
  rewrite EX in Hout, Hout2.
  change (in_r cl (f it ip)) with (fun r => (f it ip) (compactification cl r)). change (r_of cl X) with (rphys cl X).
  rewrite (chain1 cl Hcl), (chain2 cl Hcl); auto.
  - set (A := Derive (f it ip) X) in *. set (B := Derive_n (f it ip) 2 X) in *. split.
    + rewrite <- Rmult_minus_distr_r, Rabs_mult, (Rabs_pos_eq ((1 - X / cl) ^ 2)) by apply pow2_ge_0.
      apply Rmult_le_compat_r; [apply pow2_ge_0|auto].
    + match goal with |- Rabs ?e <= _ =>
        replace e with ((-(2 / cl * (1 - X / cl) ^ 3)) * (nth ix out 0 - A) + (1 - X / cl) ^ 4 * (nth ix out2 0 - B)) by (field; auto) end.
      eapply Rle_trans; [apply Rabs_triang|]. rewrite (Rabs_mult (- _)), (Rabs_mult (_ ^ 4)), Rabs_Ropp, (Rabs_mult (2 / cl)).
      assert (P4 : 0 <= (1 - X / cl) ^ 4) by (replace ((1 - X / cl) ^ 4) with (((1 - X / cl) ^ 2) ^ 2) by ring; apply pow2_ge_0).
      rewrite (Rabs_pos_eq ((1 - X / cl) ^ 4)) by auto.
      apply Rplus_le_compat; apply Rmult_le_compat_l; try exact Hout; try exact Hout2; try exact P4.
      apply Rmult_le_pos; apply Rabs_pos.
  - assert (O : open (fun y => lo' < y < up')) by (apply open_and; [apply open_gt|apply open_lt]).
    generalize (O X HXr). apply filter_imp. intros y Hy. apply (Hs it ip 1%nat); auto; lia.
  - apply (Hs it ip 2%nat); auto; lia.
  - apply (Hs it ip 1%nat); auto; lia.
Qed.
End C21.
