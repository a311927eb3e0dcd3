(** * The hypotheses of C78 are met by a field that is neither polynomial in the radius nor constant on the spheres. *)
From Coq Require Import Reals Lra.
From Coquelicot Require Import Coquelicot.
From Verif Require Import Base BaseLemmas ForList Arith MFd MCheb MSphere MGrid MParams MField MEom Spec SphereSpec GridSpec LegSpec EomSpec ContSpec SmoothSpec
  PGrid PTables PMake PSum PropTables PSphere PSphereR PropSphere PSphereD PropSphereD PGridOp PropGridOp PRad PropRad
  PropGridFilter PConc PEom PEomOk PEomR PropEom PCont PropCont PropSphereInst TruncSpec PropTrunc PropTruncInst PropInit PSmooth PropOrderX.
Local Open Scope R_scope.

Lemma exp_smooth lo hi c : smooth lo hi (fun x => c * exp (- x)).
Proof.
  assert (E : forall k, exists d, forall y, Derive_n (fun x => c * exp (- x)) k y = d * exp (- y)).
  { intros k. induction k as [|k (d & IH)]; [exists c; auto|]. exists (- d). intros y. cbn [Derive_n]. rewrite (Derive_ext _ (fun y => d * exp (- y))) by exact IH.
    apply is_derive_unique. auto_derive; auto. ring. }
  intros k t _ _. destruct k as [|k]; [exact I|]. change (ex_derive (Derive_n (fun x => c * exp (- x)) k) t). destruct (E k) as (d & Ed).
  apply (ex_derive_ext (fun y => d * exp (- y))); [intros; symmetry; apply Ed|]. auto_derive. auto.
Qed.
Lemma profile11 th : Ylm_profile 1 1 th = - ynorm 1 1 * sin th.
Proof.
  unfold Ylm_profile, legendre. assert (D : forall x, Derive_n (fun y => (y ^ 2 - 1) ^ 1) (1 + 1) x = 2).
  { intros x. cbn [Nat.add Derive_n]. rewrite (Derive_ext _ (fun y => 2 * y)). { apply is_derive_unique. auto_derive; auto. ring. }
    intros y. apply is_derive_unique. auto_derive; auto. ring. }
  rewrite D. cbn [pow fact Nat.mul Nat.add INR]. field.
Qed.
Lemma ynorm11 : 0 < ynorm 1 1.
Proof.
  unfold ynorm. apply sqrt_lt_R0. pose proof PI_RGT_0. cbn [Nat.sub Nat.add fact Nat.mul INR]. apply Rmult_lt_0_compat; apply Rdiv_lt_0_compat; lra.
Qed.

(** nl = 20, nm = 18, 32 x 48 angles, compactified radius 2 <= X <= 50 = cl, any number nx >= 8 of radial points, Kerr with M = 1, a = 1/2, k = 1;
    psi = exp(-X) (1 + sin theta cos phi), pi = exp(-X) cos theta *)
Example C78_nonvacuous nx : (8 <= nx)%nat -> exists h g par e0 psi pi f p, let b := Build false true false in
  lawful b h Ylm_profile /\ tlawful b h Ylm_profile /\ ((s_lmax h - s_mmax h) * (s_lmax h - s_mmax h) <= s_lmax h + s_mmax h + 1)%nat /\ off_poles h /\ (Z.of_nat (s_lmax h) < 2 ^ 31)%Z /\
  grid_of b h 50 2 50 nx g /\ pr_cl par = 50 /\ Eom_make g par = Ok e0 /\ scr_ok (g_n3 g) (e_scr e0) /\
  0 < pr_bh_mass par /\ Rabs (pr_bh_spin par) <= pr_bh_mass par /\ clean_spin (pr_bh_mass par) (pr_bh_spin par) /\
  smooth_resolved (s_lmax h) (s_mmax h) 1 51 psi /\ smooth_radially 1 51 pi /\
  (forall X th ph, 2 <= X <= 50 -> psi X th ph + 1 <> 0 /\ kfun (theory_of par) (psi X th ph) <> 0) /\
  grid_sampled h g psi f /\ grid_sampled h g pi p /\
  (forall X th ph, psi X th ph = exp (- X) * (1 + sin th * cos ph)) /\ (forall X th ph, pi X th ph = exp (- X) * cos th).
Proof.
  intros Hn. set (b := Build false true false).
  destruct (demo_ct_ok 32) as (D1 & D2 & D3).
  destruct (C71_contract_satisfiable b 20 18 32 48 (demo_ct 32)) as (h & E1 & E2 & E3 & E4 & Ect & Hl & Hc & Hp); auto; try lia.
  assert (Hg : exists g, grid_of b h 50 2 50 nx g).
  { unfold grid_of. apply Grid_make_ok; [rewrite E3, Ect, D1; auto|]. intros _. left. lia. }
  destruct Hg as (g & Hg).
  set (par := demo_par 1 3).
  destruct (Eom_make_total b h 50 2 50 nx g Hg par) as (e0 & He).
  pose (psi := fun X th ph : R => exp (- X) * (1 + sin th * cos ph)).
  pose (pi := fun X th ph : R => exp (- X) * cos th).
  assert (SE : forall w : R -> R -> R -> R, exists v, grid_sampled h g w v).
  { intros w. destruct (radial_samples_ex g (fun it ip X => w X (grid_theta h it) (grid_phi h ip))) as (v & Lv & Hv).
    - intros ix Hix. eapply pt_ex; [exact Hg|]. destruct (gof_sizes _ _ _ _ _ _ _ Hg) as (_ & En & _). lia.
    - exists v. split; auto. }
  destruct (SE psi) as (f & Hf). destruct (SE pi) as (p & Hp').
  exists h, g, par, e0, psi, pi, f, p. cbv zeta. fold b.
  split; [exact Hl|]. split; [exact Hc|]. split; [rewrite E1, E2; lia|]. split; [exact Hp|]. split; [rewrite E1; reflexivity|]. split; [exact Hg|]. split; [reflexivity|].
  split; [exact He|]. split; [apply (Eom_make_ok _ _ _ He)|].
  cbn [pr_bh_mass pr_bh_spin par demo_par].
  assert (T : 1 / 10 ^ 16 <= 1 / 10). { unfold Rdiv. rewrite !Rmult_1_l. apply Rinv_le_contravar; [lra|]. rewrite <- (pow_1 10) at 1. apply Rle_pow; [lra|lia]. }
  split; [lra|]. split; [rewrite Rabs_pos_eq; lra|]. split.
  { right. rewrite (Rabs_pos_eq (1 / 2)) by lra. split; [rewrite Rabs_pos_eq; lra|right; lra]. }
  destruct (C26_monopole_constant 0) as [_ N0]. pose proof ynorm11 as N1. set (w0 := sqrt (/ (4 * PI))) in *. set (w1 := ynorm 1 1) in *.
  split.
  { rewrite E1, E2. exists (fun l m X => if (Nat.eqb l 0 && Nat.eqb m 0)%bool then / w0 * exp (- X) else if (Nat.eqb l 1 && Nat.eqb m 1)%bool then - / (2 * w1) * exp (- X) else 0), (fun _ _ _ => 0).
    split. { intros l m. split; [|apply smooth_const]. destruct (Nat.eqb l 0 && Nat.eqb m 0)%bool; [apply exp_smooth|]. destruct (Nat.eqb l 1 && Nat.eqb m 1)%bool; [apply exp_smooth|apply smooth_const]. }
    split; [reflexivity|]. split.
    { intros l m X Hlm. destruct (Nat.eqb_spec l 0), (Nat.eqb_spec m 0), (Nat.eqb_spec l 1), (Nat.eqb_spec m 1); cbn; auto; lia. }
    intros X th ph. transitivity (mode Ylm_profile 0 0 (/ w0 * exp (- X), 0) th ph + mode Ylm_profile 1 1 (- / (2 * w1) * exp (- X), 0) th ph).
    { unfold psi, mode. cbn [Nat.eqb fst snd INR]. destruct (C26_monopole_constant th) as [-> _]. rewrite profile11. fold w0 w1. rewrite !Rmult_1_l. field. split; lra. }
    unfold real_field. cbn [Rsum Nat.add Nat.min Nat.eqb andb]. unfold mode. cbn [Nat.eqb fst snd INR]. ring. }
  split. { intros th ph. apply (smooth_ext 1 51 (fun X => cos th * exp (- X))); [intros; unfold pi; ring|]. apply exp_smooth. }
  split. { intros X th ph _. assert (P0 : 0 <= psi X th ph).
    { unfold psi. apply Rmult_le_pos; [left; apply exp_pos|]. pose proof (SIN_bound th). pose proof (COS_bound ph). nra. }
    split; [lra|]. unfold kfun, theory_of. cbn [par demo_par t_km1 t_k0 t_k1 t_k2 pr_k0 pr_km1 pr_k1 pr_k2]. unfold Rdiv. rewrite !Rmult_0_l. lra. }
  split; [exact Hf|]. split; [exact Hp'|]. split; reflexivity.
Qed.
