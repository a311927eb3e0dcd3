(** * Properties C56 - C59: the output files. *)
From Coq Require Import Ascii String Reals Lra.
From Verif Require Import Base BaseLemmas ForList Arith MFd MCheb MSphere MGrid MParams MIo GridSpec SphereSpec
  PGrid PTables PMake PSphere PSphere2 PGridOp PropGrid PropTables PropGridOp PEomR PText PIo PropFd2 PropGridFilter.
Local Open Scope nat_scope.

(** ** C56: names *)
(** the kinds of spectral/point files the code writes *)
Definition kinds : list string := ["NPsl"; "RPsl"; "XYZ"]%string.
Theorem C56_names_unique k k' (n n' : text) (i i' : Z) : In k kinds -> In k' kinds ->
  name_kind k n i = name_kind k' n' i' -> k = k' /\ n = n' /\ i = i'.
Proof.
  intros Hk Hk' E. unfold name_kind in E. rewrite !app_assoc in E. apply csv_split in E. rewrite <- !app_assoc in E.
  change (txt "_") with [us] in E.
  assert (N : forall k, In k kinds -> ~ In us (txt k)).
  { intros x Hx. cbn in Hx. unfold us. destruct Hx as [<-|[<-|[<-|[]]]]; cbn; intuition discriminate. }
  assert (E2 : (n ++ us :: txt k) ++ us :: dec i = (n' ++ us :: txt k') ++ us :: dec i') by (rewrite <- !app_assoc; exact E).
  apply last_split in E2; try apply us_dec. destruct E2 as [E2 E3]. apply dec_inj in E3.
  apply last_split in E2; try now apply N. destruct E2 as [E2 E4]. apply txt_inj in E4. auto.
Qed.
Theorem C56_plain_names_unique (n n' : text) (i i' : nat) : name_write n i = name_write n' i' -> n = n' /\ i = i'.
Proof.
  intros E. unfold name_write in E. rewrite !app_assoc in E. apply csv_split in E. rewrite <- !app_assoc in E.
  change (txt "_") with [us] in E. cbn [app] in E. apply last_split in E; try apply us_dec. destruct E as [-> E]. apply dec_inj in E. split; auto. lia.
Qed.
(** a file of the plain writer coincides with a spectral file exactly when its name already ends in "_kind" *)
Theorem C56_plain_vs_kind k n n' i i' : name_write n i = name_kind k n' i' <-> n = n' ++ txt "_" ++ txt k /\ Z.of_nat i = i'.
Proof.
  unfold name_write, name_kind. split.
  - intros E. rewrite !app_assoc in E. apply csv_split in E. rewrite <- !app_assoc in E.
    change (txt "_") with [us] in *. cbn [app] in *.
    assert (E2 : n ++ us :: dec (Z.of_nat i) = (n' ++ us :: txt k) ++ us :: dec i') by (rewrite E, <- app_assoc; reflexivity).
    apply last_split in E2; try apply us_dec. destruct E2 as [E2 E3]. apply dec_inj in E3. auto.
  - intros [-> <-]. now rewrite <- !app_assoc.
Qed.
(** the two files of one save and all files of different saves of a run are different; the save counter is
    stored in an int, which is harmless below 2^32 saves *)
Theorem C56_run_files_distinct (dir : text) (s s' : nat) (f f' : text) : (Z.of_nat s < 2 ^ 32)%Z -> (Z.of_nat s' < 2 ^ 32)%Z ->
  name_kind "RPsl" (dir ++ txt "/" ++ f) (i32 (Z.of_nat s)) = name_kind "RPsl" (dir ++ txt "/" ++ f') (i32 (Z.of_nat s')) -> f = f' /\ s = s'.
Proof.
  intros H H' E. apply C56_names_unique in E; [|cbn; auto|cbn; auto]. destruct E as (_ & E & Ei).
  apply app_inv_head, app_inv_head in E. split; auto. unfold i32 in Ei. apply Nat2Z.inj.
  pose proof (Z.div_mod (Z.of_nat s + 2 ^ 31) (2 ^ 32) ltac:(lia)). pose proof (Z.div_mod (Z.of_nat s' + 2 ^ 31) (2 ^ 32) ltac:(lia)).
  set (q := ((Z.of_nat s + 2 ^ 31) / 2 ^ 32)%Z) in *. set (q' := ((Z.of_nat s' + 2 ^ 31) / 2 ^ 32)%Z) in *.
  assert ((Z.of_nat s + 2 ^ 31) mod 2 ^ 32 = (Z.of_nat s' + 2 ^ 31) mod 2 ^ 32)%Z by lia. lia.
Qed.
Example C56_collision : name_write (txt "out/f_RPsl") 7 = name_kind "RPsl" (txt "out/f") 7 /\
  name_kind "RPsl" (txt "out/f") 12 = txt "out/f_RPsl_12.csv" /\ name_kind "XYZ" (txt "out/rho") (-3) = txt "out/rho_XYZ_-3.csv".
Proof. repeat split. Qed.

(** ** C57: writing appends *)
Definition contents (fs : fsys) (n : text) : text := match fs_file fs n with Some s => s | None => [] end.
(** fs' arises from fs by appending data to file fn and touching nothing else *)
Definition appended (fs fs' : fsys) (fn data : text) : Prop :=
  fs_file fs' fn = Some (contents fs fn ++ data) /\ (forall n, n <> fn -> fs_file fs' n = fs_file fs n) /\ (forall n, fs_can fs' n = fs_can fs n).
Lemma append_appended fs fn d : appended fs (fs_append fs fn d) fn d.
Proof. split; [apply app_data|]. split; [apply app_other|reflexivity]. Qed.

Section C57.
Context {F : Type} {AF : Arith F}.
Variable fmt : F -> text.
(** every writer either leaves all files alone or appends to its own; what is appended does not depend on
    the files, so a second run appends the same text (header included) after the first *)
Theorem C57_write fs name itm (v : list F) : exists data, forall fs0, fs_can fs0 (name_write name itm) = fs_can fs (name_write name itm) ->
  (fs_can fs (name_write name itm) = true -> appended fs0 (csv_write fmt fs0 name itm v) (name_write name itm) data) /\
  (fs_can fs (name_write name itm) = false -> csv_write fmt fs0 name itm v = fs0).
Proof.
  exists (concat (map (fun x => fmt x ++ endl) v)). intros fs0 E. unfold csv_write. rewrite E. split; intros ->; auto using append_appended.
Qed.
(** [W] is a writer for file fn whose text starts with [hd] *)
Definition appends (W : fsys -> res fsys) (fn hd : text) : Prop :=
  forall fs fs', W fs = Ok fs' ->
    (fs_can fs fn = false -> fs' = fs) /\
    (fs_can fs fn = true -> exists data, appended fs fs' fn (hd ++ data) /\
       forall fs0, fs_can fs0 fn = true -> exists fs0', W fs0 = Ok fs0' /\ appended fs0 fs0' fn (hd ++ data)).
Theorem C57_write_R_psl g name sc itm (v : list F) :
  appends (fun fs => write_R_psl fmt fs g name sc itm v) (name_kind "RPsl" name itm) (if sc then txt "R,l,log(value)" ++ endl else []).
Proof.
  intros fs fs' H. unfold write_R_psl in *. inv_bind H. rename x into ps.
  destruct (fs_can fs _) eqn:C; split; intros Hc; try discriminate.
  - inv_bind H. rename x into body. injection H as <-. exists body. split; [apply append_appended|]. intros fs0 Hc0. rewrite E. cbn [bind]. rewrite Hc0, E0. cbn [bind].
    eexists. split; [reflexivity|]. apply append_appended.
  - now injection H.
Qed.
Theorem C57_write_n_psl g name sc itm (v : list F) :
  appends (fun fs => write_n_psl fmt fs g name sc itm v) (name_kind "NPsl" name itm) (if sc then txt "n,l,log(value)" ++ endl else []).
Proof.
  intros fs fs' H. unfold write_n_psl in *. inv_bind H. rename x into ps.
  destruct (fs_can fs _) eqn:C; split; intros Hc; try discriminate.
  - inv_bind H. rename x into body. injection H as <-. exists body. split; [apply append_appended|]. intros fs0 Hc0. rewrite E. cbn [bind]. rewrite Hc0, E0. cbn [bind].
    eexists. split; [reflexivity|]. apply append_appended.
  - now injection H.
Qed.
Theorem C57_write_x_y_z g name sc itm vmin vmax rmin rmax (v : list F) :
  appends (fun fs => write_x_y_z fmt fs g name sc itm vmin vmax rmin rmax v) (name_kind "XYZ" name itm) (if sc then txt "x,y,z,value" ++ endl else []).
Proof.
  intros fs fs' H. unfold write_x_y_z in *.
  destruct (fs_can fs _) eqn:C; split; intros Hc; try discriminate.
  - inv_bind H. rename x into body. injection H as <-. exists body. split; [apply append_appended|]. intros fs0 Hc0. rewrite Hc0, E. cbn [bind].
    eexists. split; [reflexivity|]. apply append_appended.
  - now injection H.
Qed.
(** two runs into the same directory: the second adds a second header and the same rows again *)
Theorem C57_second_run_doubles W fn hd fs fs1 fs2 : appends W fn hd -> fs_can fs fn = true -> fs_file fs fn = None ->
  W fs = Ok fs1 -> W fs1 = Ok fs2 -> exists data, fs_file fs1 fn = Some (hd ++ data) /\ fs_file fs2 fn = Some ((hd ++ data) ++ (hd ++ data)).
Proof.
  intros HW C N E1 E2. destruct (HW fs fs1 E1) as [_ H1]. destruct (H1 C) as (data & (A1 & A2 & A3) & H2).
  destruct (H2 fs1) as (fs2' & E2' & (B1 & _)); [now rewrite A3|]. rewrite E2 in E2'. injection E2' as <-.
  exists data. unfold contents in A1, B1. rewrite N in A1. rewrite A1 in B1. auto.
Qed.
End C57.

(** ** C58: contents of the R-l files *)
Section C58.
Context {F : Type} {AF : Arith F}.
Variable fmt : F -> text.
Variables (b : build) (h : sht F) (cl0 Rmin0 Rmax0 : F) (nx : nat) (g : grid F).
Hypothesis Hg : grid_of b h cl0 Rmin0 Rmax0 nx g.
Hypothesis Hsh : shapes h.
Theorem C58_rows fs name sc itm v : length v = g_n3 g -> fs_can fs (name_kind "RPsl" name itm) = true ->
  exists fs' rows, write_R_psl fmt fs g name sc itm v = Ok fs' /\ length rows = nx * s_lmax h /\
    appended fs fs' (name_kind "RPsl" name itm) ((if sc then txt "R,l,log(value)" ++ endl else []) ++ concat rows) /\
    forall ix, ix < nx -> exists R q, rad_pt (g_radial g) ix = Ok R /\
      power_spectrum b (g_sphere g) (shell g v ix) (vec (s_lmax h) f0) = Ok q /\ length q = s_lmax h /\
      forall l, l < s_lmax h -> exists x, nth_error q l = Some x /\
        nth_error rows (s_lmax h * ix + l) = Some (fmt R ++ txt "," ++ fmt (fnat l) ++ txt "," ++ fmt (log10_floor x) ++ endl).
Proof.
  intros Lv C. destruct (gof_sizes b h cl0 Rmin0 Rmax0 nx g Hg) as (Eb & En & Enl & El & Ep & Hs & _).
  destruct (write_R_psl_ok fmt b h cl0 Rmin0 Rmax0 nx g Hg Hsh fs name sc itm v Lv) as (ps & rows & E & Lps & Lr & EW & H).
  destruct (spectrum_total b h cl0 Rmin0 Rmax0 nx g Hg Hsh v (vec (g_nx g * g_nl g) f0) Lv (vec_length _ _)) as (ps' & E' & _ & H'). rewrite E in E'. injection E' as <-.
  rewrite C in EW. eexists; exists rows. split; [exact EW|]. rewrite En, Enl in *. split; auto. split; [apply append_appended|].
  intros ix Hx. destruct (H' ix Hx) as (q & Eq & Lq & Hq).
  assert (PT : exists R, rad_pt (g_radial g) ix = Ok R).
  { pose proof Hg as T. apply Grid_make_tables in T. destruct T as (_ & _ & _ & _ & _ & _ & _ & _ & _ & _ & _ & _ & _ & _ & _ & _ & T).
    destruct (T ix Hx) as (R & ER & _). eauto. }
  destruct PT as (R & ER). exists R, q. split; auto. split; auto. split; auto. intros l Hl.
  destruct (H ix l Hx Hl) as (R' & x & A1 & A2 & A3). rewrite ER in A1. injection A1 as <-. rewrite Hq in A2 by auto. exists x. split; auto.
  unfold indx_r_l, ix_r_l in A3. now rewrite Enl in A3.
Qed.
End C58.
Local Open Scope R_scope.
(** the third column over the reals: log10 of the power, never below -16 *)
Theorem C58_log10_floor (x : R) :
  (x < / 10 ^ 16 -> log10_floor x = -16) /\ (/ 10 ^ 16 <= x -> log10_floor x = ln x / ln 10) /\ -16 <= log10_floor x.
Proof.
  assert (T : 1 * powerRZ 10 (-16) = / 10 ^ 16) by (simpl; lra).
  assert (P : 0 < / 10 ^ 16) by (apply Rinv_0_lt_compat, pow_lt; lra).
  assert (L10 : 0 < ln 10) by (rewrite <- ln_1; apply ln_increasing; lra).
  unfold log10_floor. R_ops. cbn [flt fdec flog R_arith]. rewrite T.
  destruct (Rlt_dec x (/ 10 ^ 16)) as [Hx|Hx].
  - rewrite Rltb_true by auto. repeat split; intros; try lra.
  - rewrite Rltb_false by lra. repeat split; intros; try lra.
    assert (ln (/ 10 ^ 16) <= ln x). { destruct (Req_dec x (/ 10 ^ 16)) as [->|]; [lra|]. left. apply ln_increasing; lra. }
    rewrite ln_Rinv in H by (apply pow_lt; lra). rewrite ln_pow in H by lra.
    apply (Rmult_le_reg_r (ln 10)); auto. unfold Rdiv. rewrite Rmult_assoc, Rinv_l by lra.
    replace (INR 16) with 16 in H by (simpl; lra). lra.
Qed.

(** ** C59: the points write_x_y_z selects *)
Section C59.
Variable fmt : R -> text.
Variables (b : build) (h : sht R) (cl0 Rmin0 Rmax0 : R) (nx : nat) (g : grid R).
Hypothesis Hg : grid_of b h cl0 Rmin0 Rmax0 nx g.
Theorem C59_selected_points fs name sc itm vmin vmax rmin rmax v : length v = g_n3 g -> fs_can fs (name_kind "XYZ" name itm) = true ->
  exists fs' (sel : nat -> bool) (line : nat -> text),
    write_x_y_z fmt fs g name sc itm vmin vmax rmin rmax v = Ok fs' /\
    appended fs fs' (name_kind "XYZ" name itm)
      ((if sc then txt "x,y,z,value" ++ endl else []) ++ concat (map line (filter sel (seq 0 (g_n3 g))))) /\
    forall ix it ip, (ix < g_nx g)%nat -> (it < g_nlat g)%nat -> (ip < g_nphi g)%nat -> exists X th,
      rad_pt (g_radial g) ix = Ok X /\ sp_theta (g_sphere g) it = Ok th /\
      let ph := sp_phi (g_sphere g) ip in let i := indx_R_th_ph g ix it ip in let x := nth i v 0 in
      (sel i = true <-> vmin < Rabs x < vmax /\ rmin < Rabs X < rmax) /\
      line i = fmt (X * cos ph * sin th) ++ txt "," ++ fmt (X * sin ph * sin th) ++ txt "," ++ fmt (X * cos th) ++ txt "," ++ fmt x ++ endl.
Proof.
  intros Lv C. destruct (write_x_y_z_ok fmt b h cl0 Rmin0 Rmax0 nx g Hg fs name sc itm vmin vmax rmin rmax v Lv) as (row & Hr & E). rewrite C in E.
  pose (xyz := fun i => match x_y_z_i g i with Ok l => l | _ => [] end).
  pose (mag := fun i => magnitude (xyz i)).
  pose (sel := fun i => Rltb vmin (Rabs (nth i v 0)) && Rltb (Rabs (nth i v 0)) vmax && Rltb rmin (mag i) && Rltb (mag i) rmax).
  pose (line := fun i => match xyz i with [X; Y; Z] => fmt X ++ txt "," ++ fmt Y ++ txt "," ++ fmt Z ++ txt "," ++ fmt (nth i v 0) ++ endl | _ => [] end).
  assert (K : forall i, (i < g_n3 g)%nat -> row i = if sel i then line i else []).
  { intros i Hi. destruct (xyz_rows fmt b h cl0 Rmin0 Rmax0 nx g Hg vmin vmax rmin rmax v i Lv Hi) as (X & th & ph & x & Ex & _ & EX & ER).
    cbv zeta in *. rewrite Hr in ER by auto. assert (ER' := f_equal (fun r => match r with Ok a => a | _ => [] end) ER). cbv beta iota in ER'. rewrite ER'.
    unfold sel, line, mag, xyz. rewrite EX. rewrite (nth_error_nth _ _ 0 Ex). reflexivity. }
  assert (KS : concat (map row (seq 0 (g_n3 g))) = concat (map line (filter sel (seq 0 (g_n3 g))))).
  { assert (KI : forall i, In i (seq 0 (g_n3 g)) -> row i = if sel i then line i else []) by (intros i Hi; apply in_seq in Hi; apply K; lia).
    clear E. induction (seq 0 (g_n3 g)) as [|a l IH]; [reflexivity|]. cbn [map concat filter]. rewrite KI by (now left). rewrite IH by (intros; apply KI; now right).
    destruct (sel a); reflexivity. }
  rewrite KS in E. eexists; exists sel, line. split; [exact E|]. split; [apply append_appended|].
  intros ix it ip Hx Ht Hp. pose proof Hg as T. apply Grid_make_tables in T. destruct (gof_sizes b h cl0 Rmin0 Rmax0 nx g Hg) as (Eb & En & Enl & El & Ep & _).
  destruct T as (_ & _ & _ & _ & _ & _ & _ & _ & _ & _ & _ & _ & T & _).
  destruct (T ix it ip ltac:(lia) ltac:(lia) ltac:(lia)) as (X & th & E1 & E2 & _ & E4). exists X, th. split; auto. split; auto. cbv zeta.
  assert (EX : xyz (indx_R_th_ph g ix it ip) = [X * cos (sp_phi (g_sphere g) ip) * sin th; X * sin (sp_phi (g_sphere g) ip) * sin th; X * cos th]).
  { unfold xyz, x_y_z_i, indx_R_th_ph. rewrite Eb, El, Ep. rewrite (vget_some _ _ _ E4). reflexivity. }
  assert (EM : mag (indx_R_th_ph g ix it ip) = Rabs X).
  { unfold mag, magnitude. rewrite EX. cbn [fold_left]. R_ops. change (@f0 R _) with 0.
    match goal with |- ?f ?y = _ => change (sqrt y = Rabs X); replace y with (X * X) end; [fold (Rsqr X); apply sqrt_Rsqr_abs|].
    pose proof (sin2_cos2 th) as S1. pose proof (sin2_cos2 (sp_phi (g_sphere g) ip)) as S2. unfold Rsqr in *. set (s1 := sin th) in *. set (d1 := cos th) in *.
    set (s2 := sin (sp_phi (g_sphere g) ip)) in *. set (d2 := cos (sp_phi (g_sphere g) ip)) in *.
    transitivity (X * X * ((s2 * s2 + d2 * d2) * (s1 * s1) + d1 * d1)); [rewrite S2, Rmult_1_l, S1; ring|ring]. }
  split.
  - unfold sel. rewrite EM, !andb_true_iff. unfold Rltb. repeat destruct (Rlt_dec _ _); intuition (try discriminate; try lra).
  - unfold line. rewrite EX. reflexivity.
Qed.
(** with the bounds of the grid itself the first and the last shell are never selected *)
Theorem C59_end_shells_omitted ix X : (2 <= nx)%nat -> 0 <= Rmin0 < Rmax0 -> ix = 0%nat \/ ix = (nx - 1)%nat ->
  rad_pt (g_radial g) ix = Ok X -> ~ (Rmin0 < Rabs X < Rmax0).
Proof.
  intros Hn Hr Hix HX. destruct (gof_sizes b h cl0 Rmin0 Rmax0 nx g Hg) as (_ & _ & _ & _ & _ & _ & Er & _). unfold rad_make in Er.
  assert (V : X = Rmin0 \/ X = Rmax0).
  { destruct (use_cheb b) eqn:Ec.
    - inv_bind Er. rename x into c. assert (Er' : g_radial g = RCh c) by congruence. rewrite Er' in HX. cbn [rad_pt] in HX.
      destruct (C14_cheb_points b nx Rmin0 Rmax0 c E Hn ltac:(lra)) as (x & Hx & X0 & X1 & _).
      destruct Hix as [->| ->]; rewrite Hx in HX by lia; injection HX as <-; auto.
    - assert (Er' : g_radial g = RFd (FD_make nx Rmin0 Rmax0)) by congruence. rewrite Er' in HX. cbn [rad_pt] in HX.
      destruct (C14_fd_points nx Rmin0 Rmax0 Hn ltac:(lra)) as (X0 & X1 & _). cbv zeta in X0, X1. assert (HX' : fd_pt (FD_make nx Rmin0 Rmax0) ix = X) by congruence.
      destruct Hix as [->| ->]; rewrite <- HX'; auto. }
  destruct V as [-> | ->]; rewrite Rabs_pos_eq; lra.
Qed.
End C59.
Example C57_C58_C59_nonvacuous cheb : exists g v, let fs := Fs (fun _ => None) (fun _ => true) in
  grid_of (Build cheb true false) (null_sht 4 3 6 8) 50 2 50 10 g /\ shapes (null_sht 4 3 6 8) /\ length v = g_n3 g /\ g_n3 g = 480%nat /\
  fs_can fs (name_kind "RPsl" (txt "out/f") 3) = true /\ fs_file fs (name_kind "RPsl" (txt "out/f") 3) = None /\
  (exists fs', write_R_psl (fun _ => txt "x") fs g (txt "out/f") true 3 v = Ok fs') /\ 0 <= 2 < 50.
Proof.
  set (b := Build cheb true false). set (h := null_sht 4 3 6 8).
  destruct (Grid_make_ok b h 50 2 50 10 4 3 6 8) as (g & E); [cbn; lia|left; lia|].
  assert (Hg : grid_of b h 50 2 50 10 g) by exact E. clear E.
  destruct (gof_sizes b h 50 2 50 10 g Hg) as (_ & En & _ & El & Ep & _).
  assert (N3 : g_n3 g = 480%nat) by (unfold g_n3; rewrite En, El, Ep; reflexivity).
  assert (Hsh : shapes h) by (apply null_shapes; lia).
  exists g, (repeat 1 480). cbv zeta. split; [exact Hg|]. split; [exact Hsh|]. rewrite repeat_length. split; auto. split; auto. split; auto. split; auto. split; [|lra].
  destruct (C58_rows (fun _ => txt "x") b h 50 2 50 10 g Hg Hsh (Fs (fun _ => None) (fun _ => true)) (txt "out/f") true 3 (repeat 1 480)) as (fs' & rows & EW & _); [now rewrite repeat_length|reflexivity|]. eauto.
Qed.
