(** * The hypotheses of C80 are met together: nl = nm = 4, 6 x 12 angles, 10 radial points, M = 1, a = 0; the free theory with
    l = 2, m = 1 data, and k = 1 + psi^2/2, V = psi^4-type with radial data. *)
From Coq Require Import Reals Lra.
From Coquelicot Require Import Coquelicot.
From Verif Require Import Base BaseLemmas ForList Arith MFd MCheb MSphere MGrid MParams MField MEom PGrid PMake PSphere PSphere2 Spec SphereSpec SymSpec PSum PFdR PSphereR
  PropFd2 PropSphere PropLadder LegSpec PLeg PSphereD PropSphereD PSphInst PSphInst2 PSphInst3 PropGridFilter PLinear GridSpec PTables PropTables PGridOp PropGridOp PropRad
  PEom PEomOk PRk PEomR PropRk PropSphereInst PropSym PropSymInst PropRot RkSpec EomSpec ZenoSpec PropSchw.
Local Open Scope R_scope.

Example C80_nonvacuous cheb lay : exists h g par e par2 e2 f f2, let b := Build cheb lay false in
  lawful b h Ylm_profile /\ clawful b h Ylm_profile /\ linear_sht h /\ (Z.of_nat (s_lmax h) < 2 ^ 31)%Z /\ s_lmax h = 4%nat /\ s_mmax h = 4%nat /\ grid_of b h 50 2 50 10 g /\
  Eom_make g par = Ok e /\ pr_bh_spin par = 0 /\ pr_bh_mass par = 1 /\ free_eqs e /\
  Eom_make g par2 = Ok e2 /\ pr_bh_spin par2 = 0 /\ ~ constant_k e2 /\ e_v4 e2 = 1 /\
  field_ok g f /\ harmonic_shape Ylm_profile h g 2 1 (1, 1) (fun ix => INR ix + 1) (fl_n f) /\
  field_ok g f2 /\ spherical g (fun ix => INR ix + 1) (fl_n f2).
Proof.
  set (b := Build cheb lay false). destruct (demo_ct_ok 6) as (D1 & D2 & D3).
  destruct (C72_contract_satisfiable b 4 4 6 12 (demo_ct 6)) as (h & E1 & E2 & E3 & E4 & Ect & Hl & Hc & Hp & Hln); auto; try lia.
  assert (Hg : exists g, grid_of b h 50 2 50 10 g).
  { unfold grid_of. apply Grid_make_ok; [rewrite E3, Ect, D1; auto|]. intros _. left. lia. }
  destruct Hg as (g & Hg).
  set (par := Par 1 10 4 4 6 12 1 (1/10) 50 50 2 1 0 0 1 0 0 1 0 0 [] [] 0 0 0 0 0).
  set (par2 := Par 1 10 4 4 6 12 1 (1/10) 50 50 2 1 0 0 1 0 1 1 0 1 [] [] 0 0 0 0 0).
  destruct (Eom_make_total b h 50 2 50 10 g Hg par) as (e & He). destruct (Eom_make_total b h 50 2 50 10 g Hg par2) as (e2 & He2).
  pose proof (Eom_make_inv _ _ _ He) as I. pose proof (Eom_make_inv _ _ _ He2) as I2.
  destruct (gof_sizes b h 50 2 50 10 g Hg) as (_ & En & _ & El & Ep & _).
  assert (N3 : g_n3 g = 720%nat) by (unfold g_n3; rewrite En, El, Ep, E3, E4; reflexivity).
  set (mkf := fun v : list R => Fld [] v v v v 720).
  assert (Of : forall v, length v = g_n3 g -> field_ok g (mkf v)) by (intros v Lv; unfold field_ok, mkf; cbn [fl_n fl_l fl_np1 fl_k fl_size]; rewrite Lv, N3; auto).
  destruct (grid_values g (fun ix it ip => (INR ix + 1) * mode Ylm_profile 2 1 (1, 1) (grid_theta h it) (grid_phi h ip))) as (v & Lv & Hv).
  destruct (grid_values g (fun ix it ip => INR ix + 1)) as (v2 & Lv2 & Hv2).
  exists h, g, par, e, par2, e2, (mkf v), (mkf v2). cbv zeta. fold b. cbn [mkf fl_n].
  split; [exact Hl|]. split; [now apply Hc|]. split; [exact Hln|]. split; [rewrite E1; reflexivity|]. split; [exact E1|]. split; [exact E2|]. split; [exact Hg|].
  split; [exact He|]. split; [reflexivity|]. split; [reflexivity|]. split; [destruct I as (cs & _ & -> & _); unfold free_eqs; cbn; auto 8|].
  assert (K : e_k2 e2 = 1 /\ e_v4 e2 = 1) by (destruct I2 as (cs & _ & -> & _); auto). destruct K as [K V].
  split; [exact He2|]. split; [reflexivity|]. split; [intros (_ & _ & Z); rewrite K in Z; lra|]. split; [exact V|].
  split; [now apply Of|]. split; [split; auto|]. split; [now apply Of|]. split; auto.
Qed.
