(** * The hypotheses of C67 and C68 are met. *)
From Coq Require Import Reals Lra.
From Verif Require Import Base BaseLemmas ForList Arith MFd MCheb MSphere MGrid MParams MField MEom Spec SphereSpec GridSpec LegSpec EomSpec ContSpec
  PGrid PTables PMake PSum PropTables PSphere PSphereR PropSphere PSphereD PropSphereD PGridOp PropGridOp PRad PropRad
  PropGridFilter PConc PEom PEomOk PEomR PropEom PCont PropCont PropSphereInst TruncSpec PropTrunc PropTruncInst PropInit.
Local Open Scope R_scope.

(** A case meeting every hypothesis of C67 and C68, in both builds: 10 radial points on 2 <= X <= 50, cl = 50 (so the last
    or first point is at infinity), nl = 20, nm = 18 (as in the shipped run script), 32 x 48 points on the sphere; the field
    psi = 2 X^2 cos(2 phi) times the theta-profile of Y_32, with velocity pi = X cos theta. *)
Example C67_C68_nonvacuous cheb : exists h g par e0 psi pi f p, let b := Build cheb true false in
  let dd := if cheb then (10 - 2)%nat else 7%nat in
  lawful b h Ylm_profile /\ tlawful b h Ylm_profile /\ ((s_lmax h - s_mmax h) * (s_lmax h - s_mmax h) <= s_lmax h + s_mmax h + 1)%nat /\ off_poles h /\ (Z.of_nat (s_lmax h) < 2 ^ 31)%Z /\
  grid_of b h 50 2 50 10 g /\ pr_cl par = 50 /\ Eom_make g par = Ok e0 /\ scr_ok (g_n3 g) (e_scr e0) /\
  0 < pr_bh_mass par /\ Rabs (pr_bh_spin par) <= pr_bh_mass par /\ clean_spin (pr_bh_mass par) (pr_bh_spin par) /\
  resolved (s_lmax h) (s_mmax h) dd psi /\ radial_poly dd pi /\ grid_sampled h g psi f /\ grid_sampled h g pi p /\
  (forall X th ph, psi X th ph = 2 * (cos (2 * ph) * Ylm_profile 3 2 th) * X ^ 2) /\
  (forall X th ph, pi X th ph = X * cos th).
Proof.
  set (b := Build cheb true false).
  destruct (demo_ct_ok 32) as (D1 & D2 & D3).
  destruct (C71_contract_satisfiable b 20 18 32 48 (demo_ct 32)) as (h & E1 & E2 & E3 & E4 & Ect & Hl & Hc & Hp); auto; try lia.
  assert (Hg : exists g, grid_of b h 50 2 50 10 g).
  { unfold grid_of. apply Grid_make_ok; [rewrite E3, Ect, D1; auto|]. intros _. left. lia. }
  destruct Hg as (g & Hg).
  set (par := demo_par 1 3).
  destruct (Eom_make_total b h 50 2 50 10 g Hg par) as (e0 & He).
  pose (psi := fun X th ph : R => 2 * (cos (2 * ph) * Ylm_profile 3 2 th) * X ^ 2).
  pose (pi := fun X th ph : R => X * cos th).
  assert (SE : forall w : R -> R -> R -> R, exists v, grid_sampled h g w v).
  { intros w. destruct (radial_samples_ex g (fun it ip X => w X (grid_theta h it) (grid_phi h ip))) as (v & Lv & Hv).
    - intros ix Hix. eapply pt_ex; [exact Hg|]. destruct (gof_sizes _ _ _ _ _ _ _ Hg) as (_ & En & _). lia.
    - exists v. split; auto. }
  destruct (SE psi) as (f & Hf). destruct (SE pi) as (p & Hp').
  exists h, g, par, e0, psi, pi, f, p. cbv zeta. fold b.
  split; [exact Hl|]. split; [exact Hc|]. split; [rewrite E1, E2; lia|]. split; [exact Hp|]. split; [rewrite E1; reflexivity|]. split; [exact Hg|]. split; [reflexivity|].
  split; [exact He|]. split; [apply (Eom_make_ok _ _ _ He)|].
  cbn [pr_bh_mass pr_bh_spin par demo_par].
  assert (T : 1 / 10 ^ 16 <= 1 / 10). { unfold Rdiv. rewrite !Rmult_1_l. apply Rinv_le_contravar; [lra|]. rewrite <- (pow_1 10) at 1. apply Rle_pow; [lra|lia]. }
  split; [lra|]. split; [rewrite Rabs_pos_eq; lra|]. split.
  { right. rewrite (Rabs_pos_eq (1 / 2)) by lra. split; [rewrite Rabs_pos_eq; lra|right; lra]. }
  split; [|split; [|split; [exact Hf|split; [exact Hp'|split; reflexivity]]]].
  - rewrite E1, E2. exists (fun l m => if (Nat.eqb l 3 && Nat.eqb m 2)%bool then [0; 0; 1] else []), (fun _ _ => []).
    split. { intros l m. destruct (Nat.eqb l 3 && Nat.eqb m 2)%bool, cheb; cbn; lia. }
    split; [reflexivity|]. split.
    { intros l m Hlm. destruct (Nat.eqb_spec l 3), (Nat.eqb_spec m 2); cbn; auto; lia. }
    intros X th ph. transitivity (mode Ylm_profile 3 2 (X ^ 2, 0) th ph).
    { unfold psi, mode. cbn [Nat.eqb fst snd INR]. replace (1 + 1) with 2 by ring. ring. }
    unfold real_field. cbn [Rsum Nat.add Nat.min Nat.eqb andb]. unfold mode. cbn [Nat.eqb fst snd poly INR]. ring.
  - exists (fun th ph => [0; cos th]). intros th ph. split; [destruct cheb; cbn; lia|]. intros X. unfold pi. cbn. ring.
Qed.
