(** * The hypotheses of C76 are met together, by a solution that is not constant in time or in space. *)
From Coq Require Import Reals Lra.
From Coquelicot Require Import Coquelicot.
From Verif Require Import Base BaseLemmas ForList Arith MFd MCheb MSphere MGrid MParams MField MEom PGrid PMake PSphere PSphere2 Spec SphereSpec SymSpec PSum PFdR PSphereR
  PropFd2 PropSphere PropLadder LegSpec PLeg PSphereD PropSphereD PSphInst PSphInst2 PSphInst3 PropGridFilter PLinear GridSpec PTables PropTables PropGridOp PropRad
  PEom PEomOk PRk PEomR PropRk PropSphereInst PropSym PropSymInst RkSpec EomSpec OrderSpec PropOrder.
Local Open Scope R_scope.

(** nl = nm = 4 on 6 x 12 angles, 10 radial points, Kerr with M = 1, a = 7/10, k = 1, V = psi^2/2;
    psi = ix^2 on the shell number ix, d psi/dt = 1 *)
Example C76_nonvacuous cheb : exists h g e f p rhs z, let b := Build cheb true false in
  lawful b h Ylm_profile /\ linear_sht h /\ shapes h /\ (Z.of_nat (s_lmax h) < 2 ^ 31)%Z /\
  grid_of b h 50 2 50 10 g /\ eom_ok g e /\ field_ok g f /\ field_ok g p /\ computes_rhs g e rhs /\
  grid_filter g (fl_n f) = Ok (fl_n f) /\ grid_filter g (fl_n p) = Ok (fl_n p) /\
  (forall i, (i < g_n3 g)%nat -> regular (theory_e e) (nth i (fl_n f) 0)) /\
  solves (g_n3 g) rhs z 1 /\ z 0 = (fl_n f, fl_n p) /\
  is_derive (fun t => nth (indx_R_th_ph g 2 3 5) (fst (z t)) 0) 0 1 /\ nth (indx_R_th_ph g 2 3 5) (fst (z 0)) 0 = 4.
Proof.
  set (b := Build cheb true false). destruct (demo_ct_ok 6) as (D1 & D2 & D3).
  destruct (C72_contract_satisfiable b 4 4 6 12 (demo_ct 6)) as (h & E1 & E2 & E3 & E4 & Ect & Hl & Hc & Hp & Hln); auto; try lia.
  pose proof (lw_shapes b h _ Hl) as Hsh.
  assert (Hg : exists g, grid_of b h 50 2 50 10 g).
  { unfold grid_of. apply Grid_make_ok; [rewrite E3, Ect, D1; auto|]. intros _. left. lia. }
  destruct Hg as (g & Hg).
  destruct (Eom_make_total b h 50 2 50 10 g Hg (Par 1 10 4 4 6 12 1 (1/10) 50 50 2 1 (7/10) 0 1 0 0 1 0 0 [] [] 0 0 0 0 0)) as (e & He).
  pose proof (Eom_make_ok _ _ _ He) as Oe. pose proof (Eom_make_inv _ _ _ He) as I.
  destruct (gof_sizes b h 50 2 50 10 g Hg) as (_ & En & _ & El & Ep & _).
  assert (N3 : g_n3 g = 720%nat) by (unfold g_n3; rewrite En, El, Ep, E3, E4; reflexivity).
  set (mkf := fun v : list R => Fld [] v v v v 720).
  assert (Of : forall v, length v = g_n3 g -> field_ok g (mkf v)) by (intros v Lv; unfold field_ok, mkf; cbn [fl_n fl_l fl_np1 fl_k fl_size]; rewrite Lv, N3; auto).
  destruct (grid_values g (fun ix _ _ => INR (ix * ix))) as (u & Lu & Hu).
  destruct (grid_values g (fun _ _ _ => 1)) as (w & Lw & Hw).
  assert (HZ : (Z.of_nat (s_lmax h) < 2 ^ 31)%Z) by (rewrite E1; reflexivity).
  assert (B8 : (use_cheb b = false -> 8 <= 10)%nat) by (intros; lia). assert (B2 : (use_cheb b = true -> 2 <= 10)%nat) by (intros; lia).
  assert (Fu : grid_filter g u = Ok u).
  { apply (C26_radial_data_untouched b h Ylm_profile 50 2 50 10 g (sqrt (/ (4 * PI))) Hl) with (w := fun ix => INR (ix * ix)); auto; try lia; intros; apply C26_monopole_constant; exact 0. }
  assert (Fw : grid_filter g w = Ok w).
  { apply (C26_radial_data_untouched b h Ylm_profile 50 2 50 10 g (sqrt (/ (4 * PI))) Hl) with (w := fun _ => 1); auto; try lia; intros; apply C26_monopole_constant; exact 0. }
  assert (Fe : free_eqs e) by (destruct I as (cs & _ & -> & _); unfold free_eqs; cbn; auto 8).
  destruct (C44_rhs_exists b h 50 2 50 10 g Hg Hsh HZ B8 B2 e Oe) as (rhs & Hr & Hr1).
  destruct (C76_free_solutions_exist b h 50 2 50 10 g Hg Hsh HZ B8 B2 Hln e rhs (u, w) Oe Fe Hr Lu Lw) as (z & Hz & z0).
  assert (Hi : (indx_R_th_ph g 2 3 5 < g_n3 g)%nat) by (apply ix_R_th_ph_lt; rewrite ?En, ?El, ?Ep, ?E3, ?E4; lia).
  exists h, g, e, (mkf u), (mkf w), rhs, z. cbv zeta. fold b. cbn [mkf fl_n].
  split; [exact Hl|]. split; [exact Hln|]. split; [exact Hsh|]. split; [exact HZ|]. split; [exact Hg|]. split; [exact Oe|].
  split; [now apply Of|]. split; [now apply Of|]. split; [exact Hr|]. split; [exact Fu|]. split; [exact Fw|].
  split. { intros i _. destruct I as (cs & _ & -> & _). unfold regular, kfun, theory_e. cbn [t_km1 t_k0 t_k1 t_k2 e_k0 e_km1 e_k1 e_k2 pr_k0 pr_km1 pr_k1 pr_k2]. split; auto. unfold Rdiv. rewrite !Rmult_0_l. lra. }
  split; [exact Hz|]. split; [exact z0|]. destruct Hz as [_ Dz]. rewrite z0. cbn [fst]. rewrite Hu by (rewrite ?En, ?El, ?Ep, ?E3, ?E4; lia). split; [|cbn; lra].
  destruct (Dz 0 (indx_R_th_ph g 2 3 5) ltac:(lra) Hi) as [A _]. rewrite Hr1, z0 in A. cbn [snd] in A. rewrite Hw in A by (rewrite ?En, ?El, ?Ep, ?E3, ?E4; lia). exact A.
Qed.
