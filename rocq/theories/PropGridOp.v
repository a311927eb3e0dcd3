(** * Properties C21, C22, C23, C26: the differential operators of Grid. *)
From Coq Require Import Reals Lra.
From Coquelicot Require Import Coquelicot.
From Verif Require Import Base BaseLemmas ForList Arith MFd MCheb MSphere MGrid MSim GridSpec SphereSpec Spec
  PGrid PTables PMake PFd PFdR PCheb PChebG PropFd PropCheb PSphere PSphere2 PropSphere PGridOp.
Local Open Scope nat_scope.

(** ** C23: any arithmetic *)
Section C23.
Context {F : Type} {AF : Arith F}.
Variables (b : build) (h : sht F) (cl0 Rmin0 Rmax0 : F) (nx : nat) (g : grid F).
Hypothesis Hg : grid_of b h cl0 Rmin0 Rmax0 nx g.

Lemma gof_sizes : g_bld g = b /\ g_nx g = nx /\ g_nl g = s_lmax h /\ g_nlat g = s_nlat h /\ g_nphi g = s_nphi h /\
  Sphr_of h (g_sphere g) /\ rad_make b nx Rmin0 Rmax0 = Ok (g_radial g) /\ length (g_dR g) = nx /\ length (g_d2R g) = nx /\
  g_cl g = cl0.
Proof.
  apply Grid_make_tables in Hg.
  destruct Hg as (H1 & Hcl & _ & _ & H2 & H3 & _ & H4 & H5 & H6 & H7 & (_ & _ & _ & _ & H8 & H9) & _). repeat split; auto.
Qed.
Lemma gof_rad k : (use_cheb b = false -> k <= nx) -> (use_cheb b = true -> 2 <= nx) -> rad_big g k.
Proof.
  intros H1 H2. destruct gof_sizes as (_ & En & _ & _ & _ & _ & Er & _). unfold rad_big. rewrite En.
  unfold rad_make in Er. destruct (use_cheb b).
  - rewrite Cheb_make_ok in Er by auto. cbn [bind] in Er. injection Er as <-. cbn [rad_n ch_n ch_plan fd_n]. split; auto. split; auto.
    specialize (H2 eq_refl). destruct nx as [|[|?]]; [lia|lia|reflexivity].
  - injection Er as <-. cbn. auto.
Qed.

(** Angular operators: the shell of the result is the sphere operator applied to the shell. *)
Theorem C23_angular v dv : shapes h -> (Z.of_nat (s_lmax h) < 2 ^ 31)%Z -> length v = g_n3 g -> length dv = g_n3 g ->
  exists dphi lap sX,
    set_partial_phi g v dv = Ok dphi /\ set_spherical_lap g v dv = Ok lap /\ set_sphereX g v dv = Ok sX /\
    length dphi = g_n3 g /\ length lap = g_n3 g /\ length sX = g_n3 g /\
    forall ix, ix < g_nx g ->
      partial_phi b (g_sphere g) (shell g v ix) (sph0 g) = Ok (shell g dphi ix) /\
      laplace_beltrami b (g_sphere g) (shell g v ix) (sph0 g) = Ok (shell g lap ix) /\
      sphereX b (g_sphere g) (shell g v ix) (sph0 g) = Ok (shell g sX ix).
Proof.
  intros Hsh HL Hv Hd. destruct gof_sizes as (Eb & En & _ & El & Ep & Hs & _).
  assert (HN : g_nlat g * g_nphi g = s_nlat h * s_nphi h) by congruence.
  assert (G : forall op : list F -> list F -> res (list F),
    (forall w, length w = s_nlat h * s_nphi h -> exists o, op w (sph0 g) = Ok o /\ length o = s_nlat h * s_nphi h) ->
    exists r, shell_op g op v dv = Ok r /\ length r = g_n3 g /\ forall ix, ix < g_nx g -> op (shell g v ix) (sph0 g) = Ok (shell g r ix)).
  { intros op Hop.
    destruct (shell_op_ok g op v dv (fun ix => match op (shell g v ix) (sph0 g) with Ok o => o | _ => [] end)) as (r & E & L & H); auto.
    - intros ix Hx. destruct (Hop (shell g v ix)) as (o & E & L); [rewrite shell_length; auto|]. rewrite E. split; auto. congruence.
    - exists r. split; auto. split; auto. intros ix Hx. rewrite H by auto.
      destruct (Hop (shell g v ix)) as (o & E' & L'); [rewrite shell_length; auto|]. now rewrite E'. }
  assert (H0 : length (sph0 g) = s_nlat h * s_nphi h) by (rewrite sph0_length; auto).
  destruct (G (partial_phi b (g_sphere g))) as (r1 & E1 & L1 & H1).
  { intros w Hw. destruct (dphi_ok b h (g_sphere g) Hsh Hs w (sph0 g) Hw H0) as (y & E & _ & L & _). eauto. }
  destruct (G (laplace_beltrami b (g_sphere g))) as (r2 & E2 & L2 & H2).
  { intros w Hw. destruct (laplace_ok b h (g_sphere g) Hsh Hs w (sph0 g) Hw H0) as (y & E & _ & L & _). eauto. }
  destruct (G (sphereX b (g_sphere g))) as (r3 & E3 & L3 & H3).
  { intros w Hw. destruct (sphereX_ok b h (g_sphere g) Hsh Hs w (sph0 g) HL Hw H0) as (? & ? & ? & o & _ & _ & _ & E & L & _). eauto. }
  exists r1, r2, r3. unfold set_partial_phi, set_spherical_lap, set_sphereX. rewrite Eb.
  repeat split; auto.
Qed.

(** Radial operators: the line of the result is a function of the line of the input. *)
Theorem C23_radial v dv : (use_cheb b = false -> 8 <= nx) -> (use_cheb b = true -> 2 <= nx) ->
  length v = g_n3 g -> length dv = g_n3 g ->
  exists dR dr d2r,
    set_partial_R g v dv = Ok dR /\ set_partial_r g v dv = Ok dr /\ set_partial2_r g v dv = Ok d2r /\
    length dR = g_n3 g /\ length dr = g_n3 g /\ length d2r = g_n3 g /\
    forall it ip, it < g_nlat g -> ip < g_nphi g ->
      line_R g (rline g v it ip) = Ok (rline g dR it ip) /\
      line_r g (rline g v it ip) = Ok (rline g dr it ip) /\
      line_r2 g (rline g v it ip) = Ok (rline g d2r it ip).
Proof.
  intros H8 H2 Hv Hd. destruct gof_sizes as (Eb & En & _ & El & Ep & Hs & _ & LdR & Ld2 & _).
  assert (R8 : rad_big g 8) by now apply gof_rad.
  assert (R7 : rad_big g 7). { destruct R8 as [A B]. split; auto. destruct (g_radial g); auto. lia. }
  assert (G : forall op : list F -> res (list F),
    (forall w, length w = g_nx g -> exists o, op w = Ok o /\ length o = g_nx g) ->
    exists r, line_op g op v dv = Ok r /\ length r = g_n3 g /\ forall it ip, it < g_nlat g -> ip < g_nphi g -> op (rline g v it ip) = Ok (rline g r it ip)).
  { intros op Hop.
    destruct (line_op_ok g op v dv (fun it ip => match op (rline g v it ip) with Ok o => o | _ => [] end)) as (r & E & L & H); auto.
    - intros it ip Ht Hp. destruct (Hop (rline g v it ip)) as (o & E & L); [apply rline_length|]. rewrite E. auto.
    - exists r. split; auto. split; auto. intros it ip Ht Hp. rewrite H by auto.
      destruct (Hop (rline g v it ip)) as (o & E' & L'); [apply rline_length|]. now rewrite E'. }
  destruct (G (line_R g)) as (r1 & E1 & L1 & H1'). { intros w Hw. now apply line_R_total. }
  destruct (G (line_r g)) as (r2 & E2 & L2 & H2').
  { intros w Hw. destruct (line_r_total g w R7 Hw) as (d & o & _ & E & _ & L & _); [congruence|]. eauto. }
  destruct (G (line_r2 g)) as (r3 & E3 & L3 & H3').
  { intros w Hw. destruct (line_r2_total g w R8 Hw) as (d & dd & o & _ & _ & _ & _ & E & L & _); [congruence|congruence|]. eauto. }
  exists r1, r2, r3. repeat split; auto.
Qed.
Theorem C23_first_radial v dv : (use_cheb b = false -> 7 <= nx) -> (use_cheb b = true -> 2 <= nx) ->
  length v = g_n3 g -> length dv = g_n3 g ->
  exists dr, set_partial_r g v dv = Ok dr /\ length dr = g_n3 g /\
    forall it ip, it < g_nlat g -> ip < g_nphi g -> line_r g (rline g v it ip) = Ok (rline g dr it ip).
Proof.
  intros H8 H2 Hv Hd. destruct gof_sizes as (Eb & En & _ & El & Ep & Hs & _ & LdR & Ld2 & _).
  assert (R7 : rad_big g 7) by now apply gof_rad.
  destruct (line_op_ok g (line_r g) v dv (fun it ip => match line_r g (rline g v it ip) with Ok o => o | _ => [] end)) as (r & E & L & H); auto.
  - intros it ip Ht Hp. destruct (line_r_total g (rline g v it ip) R7 (rline_length g v it ip)) as (d & o & _ & E & _ & L & _); [congruence|].
    rewrite E. auto.
  - exists r. split; auto. split; auto. intros it ip Ht Hp. rewrite H by auto.
    destruct (line_r_total g (rline g v it ip) R7 (rline_length g v it ip)) as (d & o & _ & E' & _ & L' & _); [congruence|].
    now rewrite E'.
Qed.

(** ** C26: the whole of Grid::filter is the angular filter on every shell *)
Theorem C26_filter_is_angular_only v : shapes h -> 1 <= nx -> length v = g_n3 g ->
  exists r, grid_filter g v = Ok r /\ length r = g_n3 g /\
    forall ix, ix < g_nx g -> sp_filter b (g_sphere g) (shell g v ix) = Ok (shell g r ix).
Proof.
  intros Hsh Hx Hv. destruct gof_sizes as (Eb & En & _ & El & Ep & Hs & _).
  assert (HN : g_nlat g * g_nphi g = s_nlat h * s_nphi h) by congruence.
  destruct (grid_filter_ok g v (fun ix => match sp_filter b (g_sphere g) (shell g v ix) with Ok o => o | _ => [] end)) as (r & E & L & H); auto; [lia| |].
  - intros ix Hix. destruct (filter_ok b h (g_sphere g) Hsh Hs (shell g v ix)) as (y & E & _ & L & _); [rewrite shell_length; auto|].
    rewrite Eb, E. split; auto. congruence.
  - exists r. split; auto. split; auto. intros ix Hix. rewrite H by auto.
    destruct (filter_ok b h (g_sphere g) Hsh Hs (shell g v ix)) as (y & E' & _ & L' & _); [rewrite shell_length; auto|]. now rewrite E'.
Qed.
(** the radial pass alone writes back exactly what it read *)
Theorem C26_radial_pass_is_identity v : 1 <= nx -> length v = g_n3 g ->
  for_ 0 (g_nlat g) (fun it v => for_ 0 (g_nphi g) (fun ip v => filter_line g it ip v) v) v = Ok v.
Proof. intros Hx Hv. destruct gof_sizes as (_ & En & _). apply filter_lines_id; auto. lia. Qed.

(** previous content of the output is irrelevant, and a value depends only on its own shell / line *)
Theorem C23_locality v v' dv dv' r r' : shapes h -> (Z.of_nat (s_lmax h) < 2 ^ 31)%Z ->
  length v = g_n3 g -> length v' = g_n3 g -> length dv = g_n3 g -> length dv' = g_n3 g ->
  (forall op, In op [set_partial_phi g; set_spherical_lap g; set_sphereX g] ->
     op v dv = Ok r -> op v' dv' = Ok r' ->
     forall ix, ix < g_nx g -> shell g v ix = shell g v' ix -> shell g r ix = shell g r' ix) /\
  (grid_filter g v = Ok r -> grid_filter g v' = Ok r' -> 1 <= nx ->
     forall ix, ix < g_nx g -> shell g v ix = shell g v' ix -> shell g r ix = shell g r' ix) /\
  ((use_cheb b = false -> 8 <= nx) -> (use_cheb b = true -> 2 <= nx) ->
   forall op, In op [set_partial_R g; set_partial_r g; set_partial2_r g] ->
     op v dv = Ok r -> op v' dv' = Ok r' ->
     forall it ip, it < g_nlat g -> ip < g_nphi g -> rline g v it ip = rline g v' it ip -> rline g r it ip = rline g r' it ip).
Proof.
  intros Hsh HL Hv Hv' Hd Hd'. split; [|split].
  - destruct (C23_angular v dv Hsh HL Hv Hd) as (a1 & a2 & a3 & E1 & E2 & E3 & _ & _ & _ & H).
    destruct (C23_angular v' dv' Hsh HL Hv' Hd') as (b1 & b2 & b3 & E1' & E2' & E3' & _ & _ & _ & H').
    intros op [<-|[<-|[<-|[]]]] E E' ix Hx Eq; destruct (H ix Hx) as (K1 & K2 & K3); destruct (H' ix Hx) as (K1' & K2' & K3');
      rewrite Eq in *; congruence.
  - intros E E' Hx ix Hix Eq.
    destruct (C26_filter_is_angular_only v Hsh Hx Hv) as (a & Ea & _ & H).
    destruct (C26_filter_is_angular_only v' Hsh Hx Hv') as (a' & Ea' & _ & H').
    specialize (H ix Hix). specialize (H' ix Hix). rewrite Eq in *. congruence.
  - intros H8 H2.
    destruct (C23_radial v dv H8 H2 Hv Hd) as (a1 & a2 & a3 & E1 & E2 & E3 & _ & _ & _ & H).
    destruct (C23_radial v' dv' H8 H2 Hv' Hd') as (b1 & b2 & b3 & E1' & E2' & E3' & _ & _ & _ & H').
    intros op [<-|[<-|[<-|[]]]] E E' it ip Ht Hp Eq; destruct (H it ip Ht Hp) as (K1 & K2 & K3); destruct (H' it ip Ht Hp) as (K1' & K2' & K3');
      rewrite Eq in *; congruence.
Qed.
Theorem C23_output_buffer_irrelevant v dv dv' : shapes h -> (Z.of_nat (s_lmax h) < 2 ^ 31)%Z ->
  length v = g_n3 g -> length dv = g_n3 g -> length dv' = g_n3 g ->
  (forall op, In op [set_partial_phi g; set_spherical_lap g; set_sphereX g] -> op v dv = op v dv') /\
  ((use_cheb b = false -> 8 <= nx) -> (use_cheb b = true -> 2 <= nx) ->
   forall op, In op [set_partial_R g; set_partial_r g; set_partial2_r g] -> op v dv = op v dv').
Proof.
  intros Hsh HL Hv Hd Hd'. split.
  - destruct (C23_angular v dv Hsh HL Hv Hd) as (a1 & a2 & a3 & E1 & E2 & E3 & L1 & L2 & L3 & H).
    destruct (C23_angular v dv' Hsh HL Hv Hd') as (b1 & b2 & b3 & E1' & E2' & E3' & L1' & L2' & L3' & H').
    intros op [<-|[<-|[<-|[]]]]; [rewrite E1, E1'|rewrite E2, E2'|rewrite E3, E3']; f_equal; apply (shells_ext g); auto;
      intros ix Hx; destruct (H ix Hx) as (K1 & K2 & K3); destruct (H' ix Hx) as (K1' & K2' & K3'); congruence.
  - intros H8 H2.
    destruct (C23_radial v dv H8 H2 Hv Hd) as (a1 & a2 & a3 & E1 & E2 & E3 & L1 & L2 & L3 & H).
    destruct (C23_radial v dv' H8 H2 Hv Hd') as (b1 & b2 & b3 & E1' & E2' & E3' & L1' & L2' & L3' & H').
    intros op [<-|[<-|[<-|[]]]]; [rewrite E1, E1'|rewrite E2, E2'|rewrite E3, E3']; f_equal; apply (rline_ext g); auto;
      intros it ip Ht Hp; destruct (H it ip Ht Hp) as (K1 & K2 & K3); destruct (H' it ip Ht Hp) as (K1' & K2' & K3'); congruence.
Qed.
End C23.
