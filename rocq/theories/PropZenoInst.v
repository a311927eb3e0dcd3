(** * The hypotheses of C77 are met together: nl = nm = 4, 6 x 12 angles, 10 radial points, Kerr M = 1, a = 7/10, and data
    whose (l,m) = (2,1) harmonic is 1 + i on every shell. *)
From Coq Require Import Reals Lra.
From Coquelicot Require Import Coquelicot.
From Verif Require Import Base BaseLemmas ForList Arith MFd MCheb MSphere MGrid MParams MField MEom PGrid PMake PSphere PSphere2 Spec SphereSpec SymSpec PSum PFdR PSphereR
  PropFd2 PropSphere PropLadder LegSpec PLeg PSphereD PropSphereD PSphInst PSphInst2 PSphInst3 PropGridFilter PLinear GridSpec PTables PropTables PGridOp PropGridOp PropRad
  PEom PEomOk PRk PEomR PropRk PropSphereInst PropSym PropSymInst RkSpec EomSpec OrderSpec PropOrder ZenoSpec PropZeno.
Local Open Scope R_scope.

(** every shell of an array can be given the same angular data *)
Lemma repeat_shell b h (g : grid R) cl Rmin Rmax nx s : shapes h -> grid_of b h cl Rmin Rmax nx g -> length s = (s_nlat h * s_nphi h)%nat ->
  exists v, length v = g_n3 g /\ forall ix, (ix < g_nx g)%nat -> shell g v ix = s.
Proof.
  intros Hsh Hg Ls. destruct (gof_sizes b h cl Rmin Rmax nx g Hg) as (_ & En & _ & El & Ep & _).
  destruct (grid_values g (fun _ it ip => nth (indx_th_ph g it ip) s 0)) as (v & Lv & Hv). exists v. split; auto. intros ix Hx.
  apply nth_error_ext. intros k. assert (LS : length (shell g v ix) = (s_nlat h * s_nphi h)%nat) by (rewrite shell_length; auto; congruence).
  destruct (Nat.lt_ge_cases k (s_nlat h * s_nphi h)) as [Hk|Hk]; [|rewrite !(proj2 (nth_error_None _ _)) by lia; auto].
  destruct (ix_th_ph_surj (g_bld g) (g_nlat g) (g_nphi g) k) as (it & ip & Ht & Hp & <-); [congruence|].
  change (ix_th_ph (g_bld g) (g_nlat g) (g_nphi g) it ip) with (indx_th_ph g it ip) in *. rewrite nth_error_shell_pt by auto.
  rewrite (nth_error_nth' v 0) by (rewrite Lv; now apply ix_R_th_ph_lt). rewrite (nth_error_nth' s 0) by (rewrite Ls; auto). f_equal. auto.
Qed.

Example C77_nonvacuous cheb : exists h g e f p rhs z, let b := Build cheb true false in
  lawful b h Ylm_profile /\ linear_sht h /\ (Z.of_nat (s_lmax h) < 2 ^ 31)%Z /\ grid_of b h 50 2 50 10 g /\
  eom_ok g e /\ free_eqs e /\ field_ok g f /\ field_ok g p /\ computes_rhs g e rhs /\
  solves (g_n3 g) rhs z 1 /\ z 0 = (fl_n f, fl_n p) /\ s_lmax h = 4%nat /\ s_mmax h = 4%nat /\ g_nx g = 10%nat /\
  harmonic h g (fl_n f) 3 2 1 = (1, 1).
Proof.
  set (b := Build cheb true false). destruct (demo_ct_ok 6) as (D1 & D2 & D3).
  destruct (C72_contract_satisfiable b 4 4 6 12 (demo_ct 6)) as (h & E1 & E2 & E3 & E4 & Ect & Hl & Hc & Hp & Hln); auto; try lia.
  pose proof (lw_shapes b h _ Hl) as Hsh.
  assert (Hg : exists g, grid_of b h 50 2 50 10 g).
  { unfold grid_of. apply Grid_make_ok; [rewrite E3, Ect, D1; auto|]. intros _. left. lia. }
  destruct Hg as (g & Hg).
  destruct (Eom_make_total b h 50 2 50 10 g Hg (Par 1 10 4 4 6 12 1 (1/10) 50 50 2 1 (7/10) 0 1 0 0 1 0 0 [] [] 0 0 0 0 0)) as (e & He).
  pose proof (Eom_make_ok _ _ _ He) as Oe. pose proof (Eom_make_inv _ _ _ He) as I.
  destruct (gof_sizes b h 50 2 50 10 g Hg) as (_ & En & _ & El & Ep & _).
  assert (N3 : g_n3 g = 720%nat) by (unfold g_n3; rewrite En, El, Ep, E3, E4; reflexivity).
  set (mkf := fun v : list R => Fld [] v v v v 720).
  assert (Of : forall v, length v = g_n3 g -> field_ok g (mkf v)) by (intros v Lv; unfold field_ok, mkf; cbn [fl_n fl_l fl_np1 fl_k fl_size]; rewrite Lv, N3; auto).
  set (a := fun l m : nat => if (Nat.eqb l 2 && Nat.eqb m 1)%bool then (1, 1) else (0, 0) : R * R).
  destruct (pack h a (sh_mmax h Hsh)) as (c & Hs).
  assert (Ra : real_spectrum a) by (intros l; unfold a; destruct (Nat.eqb l 2); reflexivity).
  assert (Lc : length (s_sy h c) = (s_nlat h * s_nphi h)%nat) by (rewrite (sh_sy h Hsh) by apply Hs; apply (sh_nspat h Hsh)).
  destruct (repeat_shell b h g 50 2 50 10 (s_sy h c) Hsh Hg Lc) as (u & Lu & Hu).
  assert (HZ : (Z.of_nat (s_lmax h) < 2 ^ 31)%Z) by (rewrite E1; reflexivity).
  assert (B8 : (use_cheb b = false -> 8 <= 10)%nat) by (intros; lia). assert (B2 : (use_cheb b = true -> 2 <= 10)%nat) by (intros; lia).
  assert (Fe : free_eqs e) by (destruct I as (cs & _ & -> & _); unfold free_eqs; cbn; auto 8).
  destruct (C44_rhs_exists b h 50 2 50 10 g Hg Hsh HZ B8 B2 e Oe) as (rhs & Hr & Hr1).
  destruct (C76_free_solutions_exist b h 50 2 50 10 g Hg Hsh HZ B8 B2 Hln e rhs (u, u) Oe Fe Hr Lu Lu) as (z & Hz & z0).
  exists h, g, e, (mkf u), (mkf u), rhs, z. cbv zeta. fold b. cbn [mkf fl_n].
  split; [exact Hl|]. split; [exact Hln|]. split; [exact HZ|]. split; [exact Hg|]. split; [exact Oe|]. split; [exact Fe|].
  split; [now apply Of|]. split; [now apply Of|]. split; [exact Hr|]. split; [exact Hz|]. split; [exact z0|]. split; [exact E1|]. split; [exact E2|]. split; [exact En|].
  unfold harmonic. rewrite Hu by (rewrite En; lia). rewrite (lw_ana b h _ Hl c a Hs Ra). destruct Hs as [_ Hs]. rewrite Hs by (rewrite ?E1, ?E2; lia). reflexivity.
Qed.
