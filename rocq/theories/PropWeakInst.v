(** * The hypotheses of C97 are met by a theory with every coupling switched on. *)
From Coq Require Import Reals Lra.
From Coquelicot Require Import Coquelicot.
From Verif Require Import Base BaseLemmas ForList Arith MFd MCheb MSphere MGrid MParams MField MEom PGrid PMake PSphere PSphere2 Spec SphereSpec SymSpec PSum PFdR PSphereR
  PropFd2 PropSphere PropLadder LegSpec PLeg PSphereD PropSphereD PSphInst PSphInst2 PSphInst3 PropGridFilter PLinear GridSpec PTables PropTables PropGridOp PropRad PEom PEomOk PRk PropRk PropSphereInst PropSym PropSymInst.
Local Open Scope R_scope.

Example C97_nonvacuous cheb : exists h g e f p, let b := Build cheb true false in
  lawful b h Ylm_profile /\ linear_sht h /\ shapes h /\ (Z.of_nat (s_lmax h) < 2 ^ 31)%Z /\
  grid_of b h 50 2 50 10 g /\ g_n3 g = 720%nat /\ eom_ok g e /\ field_ok g f /\ field_ok g p /\
  e_k0 e + e_km1 e = 1 / 2 /\ e_km1 e = - (1 / 2) /\ e_k1 e = 3 /\ e_k2 e = 5 /\ e_v2 e = 1 /\ e_v3 e = 7 /\ e_v4 e = 9 /\
  (forall i, (i < 720)%nat -> nth i (fl_n f) 0 = INR i /\ nth i (fl_n p) 0 = INR i).
Proof.
  set (b := Build cheb true false). destruct (demo_ct_ok 6) as (D1 & D2 & D3).
  destruct (C72_contract_satisfiable b 4 4 6 12 (demo_ct 6)) as (h & E1 & E2 & E3 & E4 & Ect & Hl & Hc & Hp & Hln); auto; try lia.
  pose proof (lw_shapes b h _ Hl) as Hsh.
  assert (Hg : exists g, grid_of b h 50 2 50 10 g).
  { unfold grid_of. apply Grid_make_ok; [rewrite E3, Ect, D1; auto|]. intros _. left. lia. }
  destruct Hg as (g & Hg).
  destruct (Eom_make_total b h 50 2 50 10 g Hg (Par 1 10 4 4 6 12 1 (1/10) 50 50 2 1 (7/10) (-(1/2)) 1 3 5 1 7 9 [] [] 0 0 0 0 0)) as (e & He).
  pose proof (Eom_make_ok _ _ _ He) as Oe. pose proof (Eom_make_inv _ _ _ He) as I.
  destruct (gof_sizes b h 50 2 50 10 g Hg) as (_ & En & _ & El & Ep & _).
  assert (N3 : g_n3 g = 720%nat) by (unfold g_n3; rewrite En, El, Ep, E3, E4; reflexivity).
  set (u := map INR (seq 0 720)). assert (Lu : length u = 720%nat) by (unfold u; now rewrite map_length, seq_length).
  set (f := Fld [] u u u u 720).
  assert (Of : field_ok g f) by (unfold field_ok, f; cbn [fl_n fl_l fl_np1 fl_k fl_size]; rewrite Lu, N3; auto).
  exists h, g, e, f, f. cbv zeta. fold b. split; [exact Hl|]. split; [exact Hln|]. split; [exact Hsh|]. split; [rewrite E1; reflexivity|].
  split; [exact Hg|]. split; [exact N3|]. split; [exact Oe|]. split; [exact Of|]. split; [exact Of|].
  destruct I as (cs & _ & -> & _). cbn [e_k0 e_km1 e_k1 e_k2 e_v2 e_v3 e_v4 pr_k0 pr_km1 pr_k1 pr_k2 pr_V2 pr_V3 pr_V4].
  split; [lra|]. do 6 (split; [reflexivity|]).
  intros i Hi. cbn [f fl_n]. unfold u. now rewrite nth_mapseq.
Qed.
