(** * The hypotheses of C91 are met together (unit 2, M = 1, a = 1/2, a node at infinity in the finite difference case), and
    the tolerances in the code do break the symmetry in very small units. *)
From Coq Require Import String Reals Lra.
From Coquelicot Require Import Coquelicot.
From Verif Require Import Base BaseLemmas ForList Arith MFd MCheb MSphere MGrid MParams MField MEom MInit PGrid PMake PSphere PSphere2 Spec SphereSpec SymSpec PSum PFdR PSphereR
  PropFd2 PropSphere PropLadder LegSpec PLeg PSphereD PropSphereD PSphInst PSphInst2 PSphInst3 PropGridFilter PLinear GridSpec PTables PropTables PGridOp PropGridOp PropRad
  PEom PEomOk PRk PEomR PropRk PropSphereInst PropSym PropSymInst RkSpec EomSpec PropScale.
Local Open Scope R_scope.

Example C91_nonvacuous cheb lay : exists h g g' par par' e e' f q f2 q2, let b := Build cheb lay false in let up := if cheb then 40 else 50 in
  linear_sht h /\ shapes h /\ (Z.of_nat (s_lmax h) < 2 ^ 31)%Z /\ grid_of b h 50 2 up 10 g /\ grid_of b h (2 * 50) (2 * 2) (2 * up) 10 g' /\
  rescaled 2 par par' /\ pr_cl par = 50 /\ clean_nodes 2 50 g /\ 0 < pr_bh_mass par /\ Rabs (pr_bh_spin par) <= pr_bh_mass par /\ pr_bh_spin par <> 0 /\
  clean_spin (pr_bh_mass par) (pr_bh_spin par) /\ clean_spin (pr_bh_mass par') (pr_bh_spin par') /\ Eom_make g par = Ok e /\ Eom_make g' par' = Ok e' /\
  field_ok g f /\ field_ok g q /\ field_ok g' f2 /\ field_ok g' q2 /\ fl_n f2 = fl_n f /\ fl_n q2 = over 2 (fl_n q) /\
  pr_rl par' = 2 * pr_rl par /\ pr_ru par' = 2 * pr_ru par /\ pr_amp par' = pr_amp par /\ pr_direction par' = pr_direction par /\ pr_l_ang par' = pr_l_ang par /\ pr_m_ang par' = pr_m_ang par /\
  (1 / 10 ^ 14 <= Rabs (pr_ru par - pr_rl par) /\ 1 / 10 ^ 14 <= Rabs (2 * pr_ru par - 2 * pr_rl par)) /\ (pr_ru par <= 10 ^ 12 /\ 2 * pr_ru par <= 10 ^ 12).
Proof.
  set (b := Build cheb lay false). destruct (demo_ct_ok 6) as (D1 & D2 & D3).
  destruct (C72_contract_satisfiable b 4 4 6 12 (demo_ct 6)) as (h & E1 & E2 & E3 & E4 & Ect & Hl & Hc & Hp & Hln); auto; try lia.
  set (up := if cheb then 40 else 50).
  assert (Hg : exists g, grid_of b h 50 2 up 10 g). { unfold grid_of. apply Grid_make_ok; [rewrite E3, Ect, D1; auto|]. intros _. left. lia. }
  assert (Hg' : exists g, grid_of b h (2 * 50) (2 * 2) (2 * up) 10 g). { unfold grid_of. apply Grid_make_ok; [rewrite E3, Ect, D1; auto|]. intros _. left. lia. }
  destruct Hg as (g & Hg). destruct Hg' as (g' & Hg').
  set (par := Par 1 10 4 4 6 12 1 (1/10) 50 up 2 1 (1/2) 0 1 0 0 1 0 1 [] (txt "ingoing"%string) 1 3 5 2 1).
  set (par' := Par 1 10 4 4 6 12 1 (2 * (1/10)) (2 * 50) (2 * up) (2 * 2) (2 * 1) (2 * (1/2)) 0 1 0 0 (1 / 2 ^ 2) (0 / 2 ^ 2) (1 / 2 ^ 2) [] (txt "ingoing"%string) 1 (2 * 3) (2 * 5) 2 1).
  destruct (Eom_make_total b h 50 2 up 10 g Hg par) as (e & He). destruct (Eom_make_total b h _ _ _ 10 g' Hg' par') as (e' & He').
  destruct (gof_sizes b h 50 2 up 10 g Hg) as (_ & En & _ & El & Ep & _). destruct (gof_sizes b h _ _ _ 10 g' Hg') as (_ & En' & _ & El' & Ep' & _).
  assert (N3 : g_n3 g = 720%nat) by (unfold g_n3; rewrite En, El, Ep, E3, E4; reflexivity).
  assert (N3' : g_n3 g' = 720%nat) by (unfold g_n3; rewrite En', El', Ep', E3, E4; reflexivity).
  set (mkf := fun v : list R => Fld [] v v v v 720).
  assert (Of : forall v, length v = 720%nat -> field_ok g (mkf v) /\ field_ok g' (mkf v)) by (intros v Lv; unfold field_ok, mkf; cbn [fl_n fl_l fl_np1 fl_k fl_size]; rewrite Lv, N3, N3'; auto 10).
  destruct (grid_values g (fun ix it ip => INR ix + 1)) as (v & Lv & Hv). destruct (grid_values g (fun ix it ip => INR it + 1)) as (v2 & Lv2 & Hv2). rewrite N3 in Lv, Lv2.
  assert (T16 : 1 / 10 ^ 16 < 1). { apply (Rmult_lt_reg_r (10 ^ 16)); [apply pow_lt; lra|]. unfold Rdiv. rewrite Rmult_assoc, Rinv_l by (apply pow_nonzero; lra). simpl; lra. }
  assert (T14 : 1 / 10 ^ 14 < 1). { apply (Rmult_lt_reg_r (10 ^ 14)); [apply pow_lt; lra|]. unfold Rdiv. rewrite Rmult_assoc, Rinv_l by (apply pow_nonzero; lra). simpl; lra. }
  assert (CN : clean_nodes 2 50 g).
  { intros ix X Hi HX. rewrite En in Hi. assert (Q : X = 50 \/ X <= 50 - 1).
    { subst up. destruct cheb.
      - destruct (cheb_grid b h 50 2 40 10 g Hg eq_refl) as (c & Ec & Er). rewrite Er in HX. cbn [rad_pt] in HX.
        destruct (C14_cheb_points b 10 2 40 c Ec ltac:(lia) ltac:(lra)) as (x & Hx & _ & _ & _ & B & _). rewrite Hx in HX by auto. injection HX as <-. specialize (B ix Hi). lra.
      - rewrite (fd_grid b h 50 2 50 10 g Hg eq_refl) in HX. cbn [rad_pt] in HX. apply Ok_inj in HX. subst X.
        destruct (C14_fd_points 10 2 50 ltac:(lia) ltac:(lra)) as (_ & P9 & D & M & B). cbv zeta in *. cbn [Nat.sub] in *. destruct (Nat.eq_dec ix 9) as [->|]; [left; exact P9|right].
        assert (P8 : fd_pt (FD_make 10 2 50) 8 <= 49). { specialize (D 8%nat). rewrite P9 in D. replace (INR 9) with 9 in D by (simpl; lra). lra. }
        destruct (Nat.eq_dec ix 8) as [->|]; [lra|]. specialize (M ix 8%nat ltac:(lia)). lra. }
    destruct Q as [->|Q]; auto. right. rewrite !Rabs_left by lra. lra. }
  exists h, g, g', par, par', e, e', (mkf v), (mkf v2), (mkf v), (mkf (over 2 v2)). cbv zeta. fold b up. cbn [mkf fl_n].
  split; [exact Hln|]. split; [apply Hl|]. split; [rewrite E1; reflexivity|]. split; [exact Hg|]. split; [exact Hg'|].
  split; [unfold rescaled, par, par'; cbn [pr_bh_mass pr_bh_spin pr_cl pr_dt pr_km1 pr_k0 pr_k1 pr_k2 pr_V2 pr_V3 pr_V4]; repeat split; reflexivity|].
  split; [reflexivity|]. split; [exact CN|]. cbn [par par' pr_bh_mass pr_bh_spin pr_rl pr_ru pr_amp pr_direction pr_l_ang pr_m_ang].
  split; [lra|]. split; [rewrite Rabs_pos_eq; lra|]. split; [lra|].
  split; [right; rewrite (Rabs_pos_eq (1/2)), Rabs_pos_eq by lra; split; [|right]; lra|].
  split; [right; rewrite (Rabs_pos_eq (2 * (1/2))), Rabs_pos_eq by lra; split; [|right]; lra|].
  split; [exact He|]. split; [exact He'|]. split; [now apply Of|]. split; [now apply Of|]. split; [now apply Of|]. split; [apply Of; now rewrite over_length|].
  repeat (split; [reflexivity|]). split; [rewrite !Rabs_pos_eq by lra; lra|]. simpl; lra.
Qed.

(** in units of 1e17 of the black hole mass the horizon test |M - |a|| < 1e-16 takes every black hole for an extremal one *)
Theorem C91_tiny_units_refuted : exists M a lam ir th, 0 < M /\ Rabs a <= M /\ clean_spin M a /\ 0 < lam /\ ir = 1 /\
  c_dr_dr_f (coef_at M a ir th) < 0 /\ c_dr_dr_f (coef_at (lam * M) (lam * a) (ir / lam) th) = 0.
Proof.
  assert (T16 : 1 / 10 ^ 16 < 1 / 4). { apply (Rmult_lt_reg_r (10 ^ 16)); [apply pow_lt; lra|]. unfold Rdiv. rewrite Rmult_assoc, Rinv_l by (apply pow_nonzero; lra). simpl; lra. }
  pose proof tol_pos as Tp.
  assert (C : clean_spin 1 (1 / 2)). { right. rewrite (Rabs_pos_eq (1/2)), Rabs_pos_eq by lra. split; [|right]; lra. }
  assert (A1 : Rabs (1 / 2) <= 1) by (rewrite Rabs_pos_eq; lra).
  exists 1, (1 / 2), (1 / 10 ^ 16), 1, 0. split; [lra|]. split; [auto|]. split; [exact C|]. split; [exact Tp|]. split; [reflexivity|]. split.
  - destruct (hor_values 1 (1 / 2) ltac:(lra) A1 C) as [Hp Hm]. unfold coef_at. cbn [c_dr_dr_f]. unfold Delta_. rewrite Hp, Hm. unfold Sigma_, r_plus, r_minus. R_ops.
    replace (1 ^ 2 - (1 / 2) ^ 2) with (3 / 4) by field. pose proof (sqrt_sqrt (3 / 4) ltac:(lra)) as Q. pose proof (cos_0) as C0. rewrite C0.
    replace ((1 - (1 + sqrt (3 / 4)) * 1) * (1 - (1 - sqrt (3 / 4)) * 1)) with (- (sqrt (3 / 4) * sqrt (3 / 4))) by ring. rewrite Q. lra.
  - unfold coef_at. cbn [c_dr_dr_f]. unfold Delta_, hor_m, hor_p. R_ops. rewrite tol_eq.
    rewrite Rltb_true. 2:{ rewrite (Rabs_pos_eq (1 / 10 ^ 16 * (1 / 2))) by lra. rewrite Rabs_pos_eq by lra. lra. }
    replace (1 - 1 / 10 ^ 16 * 1 * (1 / (1 / 10 ^ 16))) with 0 by (field; lra). unfold Rdiv. rewrite !Rmult_0_l. reflexivity.
Qed.
