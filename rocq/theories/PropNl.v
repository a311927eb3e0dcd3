(** * Property C69: the radial/angular spectrum of Chebyshev builds (Grid::set_n_l_coef, write_n_psl). *)
From Coq Require Import Ascii String Reals Lra.
From Verif Require Import Base BaseLemmas ForList Arith MFd MCheb MSphere MGrid MParams MIo Spec SphereSpec GridSpec LegSpec
  PGrid PTables PMake PSum PFdR PropTables PSphere PSphere2 PSphereR PropSphere PropGrid PGridOp PropGridOp PRad PropRad PropGridFilter PCheb PCheb2 PropCheb PText PIo PropIo PropSphereInst PCont.
Local Open Scope R_scope.

Section C69.
Variables (b : build) (h : sht R) (cl Rmn Rmx : R) (nx : nat) (g : grid R).
Hypothesis Hg : grid_of b h cl Rmn Rmx nx g.
Hypothesis Hsh : shapes h.
Hypothesis Hch : use_cheb b = true.
Hypothesis Hnx : (2 <= nx)%nat.
Hypothesis Hne : Rmn <> Rmx.
Local Notation L := (s_lmax h).

Lemma radial_is_cheb : exists c, g_radial g = RCh c /\ Cheb_make b nx Rmn Rmx = Ok c.
Proof.
  destruct (gof_sizes b h cl Rmn Rmx nx g Hg) as (_ & _ & _ & _ & _ & _ & Er & _). unfold rad_make in Er. rewrite Hch in Er.
  inv_bind Er. injection Er as <-. eauto.
Qed.

Lemma get_row_n_val il p out : (il < g_nl g)%nat -> length p = (g_nx g * g_nl g)%nat -> length out = g_nx g ->
  get_row_n g il p out = Ok (map (fun ix => nth (indx_r_l g ix il) p 0) (seq 0 (g_nx g))).
Proof.
  intros Hl Hp Ho. unfold get_row_n. rewrite Hp, Ho, !assert_true by apply Nat.eqb_refl. cbn [bind].
  destruct (gather_spec (g_nx g) (fun ix => ix) (fun ix => indx_r_l g ix il) p out) as (r & E & Lr & H & _).
  - intros i Hi. rewrite Hp. unfold indx_r_l, ix_r_l. nia.
  - intros. lia.
  - auto.
  - rewrite E. f_equal. apply nth_error_ext. intros k. destruct (lt_dec k (g_nx g)) as [Hk|Hk].
    + rewrite H, nth_error_map_seq by auto. apply nth_error_nth'. rewrite Hp. unfold indx_r_l, ix_r_l. nia.
    + rewrite !(proj2 (nth_error_None _ _)); auto; rewrite ?map_length, ?seq_length; lia.
Qed.

(** one column *)
Lemma nl_body_val il p : (il < g_nl g)%nat -> length p = (g_nx g * g_nl g)%nat ->
  exists p', nl_body g il p = Ok p' /\ length p' = length p /\
    (forall n, (n < nx)%nat -> nth (indx_r_l g n il) p' 0 = ana (nx - 1) (fun j => sqrt (nth (indx_r_l g j il) p 0)) n) /\
    (forall jx jl, (jx < nx)%nat -> (jl < g_nl g)%nat -> jl <> il -> nth (indx_r_l g jx jl) p' 0 = nth (indx_r_l g jx jl) p 0).
Proof.
  intros Hl Hp. destruct (gof_sizes b h cl Rmn Rmx nx g Hg) as (Eb & En & _). destruct radial_is_cheb as (c & Er & Ec).
  pose proof (make_wf _ _ _ _ _ Hnx Ec) as W.
  unfold nl_body. assert (L0 : length (rad0 g) = g_nx g) by (unfold rad0; apply vec_length).
  rewrite get_row_n_val by auto. cbn [bind].
  match goal with |- context [for_ 0 (g_nx g) ?bd ?o] => destruct (for_mod_R (g_nx g) 0 (g_nx g) bd (fun _ x => sqrt x) o) as (w & Ew & Lw & Hw) end.
  - now rewrite map_length, seq_length.
  - auto.
  - intros i o x Hi Lo Hx. rewrite (vget_some _ _ _ Hx). cbn [bind]. rewrite vset_ok by lia. reflexivity.
  - rewrite Ew. cbn [bind]. rewrite Er, Eb. rewrite (to_ch_val b c nx Rmn Rmx) by (auto; congruence). cbn [bind].
    destruct (C03_row_n g il (map (ana (nx - 1) (fun j => nth j w 0)) (seq 0 nx)) p) as (p' & E' & Lp' & H1 & H2 & _); auto.
    { rewrite map_length, seq_length. auto. }
    exists p'. split; auto. split; auto. split.
    + intros n Hn. apply nth_error_nth. rewrite H1 by lia. rewrite nth_error_map_seq by auto. f_equal. apply ana_ext. intros j Hj.
      rewrite Hw. replace (Nat.leb 0 j && Nat.ltb j (g_nx g))%bool with true by (symmetry; apply andb_true_intro; split; [apply Nat.leb_le; lia|apply Nat.ltb_lt; lia]).
      rewrite nth_map_seq by lia. reflexivity.
    + intros jx jl Hx Hj Hd. assert (K : (indx_r_l g jx jl < length p)%nat) by (rewrite Hp; unfold indx_r_l, ix_r_l; nia).
      apply nth_error_nth. rewrite H2 by auto. now apply nth_error_nth'.
Qed.

(** set_n_l_coef returns, for every degree l, the coefficients of the Chebyshev expansion through the square roots of
    the angular power of degree l on the radial nodes. *)
Theorem C69_coefficients v p : length v = g_n3 g -> length p = (nx * L)%nat ->
  exists p', set_n_l_coef g v p = Ok p' /\ length p' = (nx * L)%nat /\
    forall ix X, (ix < nx)%nat -> rad_pt (g_radial g) ix = Ok X -> exists q, power_spectrum b (g_sphere g) (shell g v ix) (vec L 0) = Ok q /\ length q = L /\
      forall l, (l < L)%nat -> Rsum nx (fun n => nth (L * n + l) p' 0 * chebT n (unit_coord Rmn Rmx X)) = sqrt (nth l q 0).
Proof.
  intros Lv Lp. destruct (gof_sizes b h cl Rmn Rmx nx g Hg) as (Eb & En & Enl & El & Ep & Hs & _). destruct radial_is_cheb as (c & Er & Ec).
  rewrite <- En in Lp at 1. rewrite <- Enl in Lp.
  unfold set_n_l_coef. rewrite Lv, Lp, !assert_true by apply Nat.eqb_refl. cbn [bind].
  destruct (spectrum_total b h cl Rmn Rmx nx g Hg Hsh v p Lv Lp) as (ps & E & Lps & H). rewrite E. cbn [bind].
  rewrite for_as_list, Nat.sub_0_r.
  destruct (for_list_total (fun pre s => length s = (g_nx g * g_nl g)%nat /\
      (forall l, In l pre -> forall n, (n < nx)%nat -> nth (indx_r_l g n l) s 0 = ana (nx - 1) (fun j => sqrt (nth (indx_r_l g j l) ps 0)) n) /\
      (forall l, (l < g_nl g)%nat -> ~ In l pre -> forall n, (n < nx)%nat -> nth (indx_r_l g n l) s 0 = nth (indx_r_l g n l) ps 0))
      (seq 0 (g_nl g)) (nl_body g) ps) as (p' & E' & L' & H1 & _).
  - split; auto. split; [intros l []|auto].
  - intros pre il post s Hd (Ls & I1 & I2). assert (Hi : In il (seq 0 (g_nl g))) by (rewrite Hd; apply in_or_app; right; now left).
    pose proof (nodup_split _ pre post il (seq_NoDup _ _) Hd) as Hn. apply in_seq in Hi.
    destruct (nl_body_val il s) as (s' & Es & Ls' & J1 & J2); [lia|auto|]. exists s'. split; auto. split; [lia|]. split.
    + intros l Hl n Hnn. destruct (Nat.eq_dec l il) as [->|Hx].
      * rewrite J1 by auto. apply ana_ext. intros j Hj. f_equal. apply I2; [lia|auto|lia].
      * apply in_app_or in Hl. destruct Hl as [Hl|[Hl|[]]]; [|congruence].
        assert (Hll : In l (seq 0 (g_nl g))) by (rewrite Hd; apply in_or_app; auto). apply in_seq in Hll.
        rewrite J2 by (auto; lia). now apply I1.
    + intros l Hl Hni n Hnn. assert (l <> il) by (intros ->; apply Hni, in_or_app; right; now left).
      rewrite J2 by auto. apply I2; auto. intros X. apply Hni, in_or_app. auto.
  - exists p'. split; auto. split; [congruence|]. intros ix X Hx HX. destruct (H ix ltac:(lia)) as (q & Eq & Lq & Hq).
    rewrite Enl in Eq, Lq. exists q. split; auto. split; auto. intros l Hl.
    assert (HU : unit_coord Rmn Rmx X = cos (PI * INR ix / INR (nx - 1))).
    { rewrite Er in HX. apply (unit_coord_pt b nx Rmn Rmx c ix X); auto. }
    rewrite (Rsum_ext nx _ (fun n => ana (nx - 1) (fun j => sqrt (nth (indx_r_l g j l) ps 0)) n * cc (nx - 1) n ix)).
    2:{ intros n Hn. assert (Ei : (L * n + l)%nat = indx_r_l g n l) by (unfold indx_r_l, ix_r_l; now rewrite Enl). rewrite Ei, H1; [|apply in_seq; lia|auto].
        rewrite HU, chebT_cos. unfold cc. f_equal. f_equal. field. apply not_0_INR. lia. }
    transitivity (syn (nx - 1) (ana (nx - 1) (fun j => sqrt (nth (indx_r_l g j l) ps 0))) ix).
    { unfold syn. replace (S (nx - 1)) with nx by lia. reflexivity. }
    rewrite (syn_ana (nx - 1) ltac:(lia) (fun j => sqrt (nth (indx_r_l g j l) ps 0)) ix) by lia.
    f_equal. apply nth_error_nth. rewrite Hq by lia. apply nth_error_nth'. lia.
Qed.

(** the rows of the file: radial mode, degree, clipped logarithm of the coefficient *)
Theorem C69_rows fmt fs name sc itm v : length v = g_n3 g -> fs_can fs (name_kind "NPsl" name itm) = true ->
  exists p' fs' rows, set_n_l_coef g v (vec (nx * L) 0) = Ok p' /\ write_n_psl fmt fs g name sc itm v = Ok fs' /\ length rows = (nx * L)%nat /\
    appended fs fs' (name_kind "NPsl" name itm) ((if sc then txt "n,l,log(value)" ++ endl else []) ++ concat rows) /\
    forall n l, (n < nx)%nat -> (l < L)%nat -> let x := nth (L * n + l) p' 0 in
      nth_error rows (L * n + l) = Some (fmt (INR n) ++ txt "," ++ fmt (INR l) ++ txt "," ++ fmt (if Rlt_dec x (/ 10 ^ 16) then -16 else ln x / ln 10) ++ endl).
Proof.
  intros Lv C. destruct (gof_sizes b h cl Rmn Rmx nx g Hg) as (Eb & En & Enl & El & Ep & Hs & _).
  destruct (C69_coefficients v (vec (nx * L) 0) Lv (vec_length _ _)) as (p' & E & Lp' & _). exists p'.
  set (row := fun i => match psl_row fmt (g_n_l g) p' i with Ok t => t | _ => [] end).
  assert (K : forall n l, (n < nx)%nat -> (l < L)%nat -> psl_row fmt (g_n_l g) p' (L * n + l) = Ok (fmt (INR n) ++ txt "," ++ fmt (INR l) ++ txt "," ++ fmt (log10_floor (nth (L * n + l) p' 0)) ++ endl)).
  { assert (FN : forall k, @fnat R R_arith k = INR k) by (intros; symmetry; apply INR_IZR_INZ).
    intros n l Hn Hl. assert (Hi : (L * n + l < length p')%nat) by (rewrite Lp'; nia).
    pose proof Hg as T. apply Grid_make_tables in T. destruct T as (_ & _ & _ & _ & _ & _ & _ & _ & _ & _ & _ & _ & _ & _ & _ & T & _).
    destruct (T n l Hn ltac:(lia)) as (_ & _ & _ & T'). specialize (T' Hch). unfold ix_r_l in T'. rewrite !FN in T'.
    unfold psl_row. rewrite (vget_some _ _ _ T'). cbn [bind vget nth_error]. rewrite (vget_ok _ _ 0) by auto. cbn [bind].
    unfold join_line, comma. cbn [map concat]. rewrite app_nil_r, <- !app_assoc. reflexivity. }
  eexists _, (map row (seq 0 (nx * L))). split; [exact E|].
  assert (EW : write_n_psl fmt fs g name sc itm v = Ok (fs_append fs (name_kind "NPsl" name itm) ((if sc then txt "n,l,log(value)" ++ endl else []) ++ concat (map row (seq 0 (nx * L)))))).
  { unfold write_n_psl. rewrite En, Enl. change (@f0 R R_arith) with 0. rewrite E. cbn [bind]. rewrite C. unfold psl_body. rewrite (rows_loop _ _ row).
    - cbn [bind]. rewrite Lp'. reflexivity.
    - intros i Hi. rewrite Lp' in Hi. assert (HL : (1 <= L)%nat) by (destruct L; lia). unfold row.
      assert (Ei : (i = L * (i / L) + i mod L)%nat) by (apply Nat.div_mod; lia).
      rewrite Ei, K; auto; [apply Nat.div_lt_upper_bound; nia|apply Nat.mod_upper_bound; lia]. }
  split; [exact EW|]. split; [now rewrite map_length, seq_length|]. split; [apply append_appended|].
  intros n l Hn Hl x. rewrite nth_error_map_seq by nia. unfold row. rewrite K by auto. do 5 f_equal. f_equal. fold x.
  destruct (C58_log10_floor x) as (A1 & A2 & _). destruct (Rlt_dec x (/ 10 ^ 16)); [now rewrite A1|rewrite A2; auto; lra].
Qed.

(** The coefficients are signed but the file stores a logarithm without taking the absolute value: a negative
    coefficient, however large, is written as -16, like zero. With monopole data on the shells whose amplitude is
    1 - T_1(X) >= 0 the coefficient of T_1 is -1. *)
Theorem C69_negative_coefficients_lost P : lawful b h P -> (1 <= L)%nat -> exists v p', length v = g_n3 g /\
  set_n_l_coef g v (vec (nx * L) 0) = Ok p' /\ nth 0 p' 0 = 1 /\ nth L p' 0 = -1 /\
  forall fmt fs name sc itm, fs_can fs (name_kind "NPsl" name itm) = true -> exists fs' rows,
    write_n_psl fmt fs g name sc itm v = Ok fs' /\
    appended fs fs' (name_kind "NPsl" name itm) ((if sc then txt "n,l,log(value)" ++ endl else []) ++ concat rows) /\
    nth_error rows L = Some (fmt 1 ++ txt "," ++ fmt 0 ++ txt "," ++ fmt (-16) ++ endl).
Proof.
  intros Hlaw HL. destruct (gof_sizes b h cl Rmn Rmx nx g Hg) as (Eb & En & Enl & El & Ep & Hs & _). destruct radial_is_cheb as (c & Er & Ec).
  pose (am := fun ix : nat => 1 - cos (PI * INR ix / INR (nx - 1))).
  assert (Ham : forall ix, 0 <= am ix) by (intros ix; unfold am; pose proof (COS_bound (PI * INR ix / INR (nx - 1))); lra).
  pose (a := fun ix => single 0 0 (am ix, 0)).
  assert (Ra : forall ix, real_spectrum (a ix)) by (intros ix l; unfold a, single; destruct (Nat.eqb l 0 && Nat.eqb 0 0)%bool; reflexivity).
  destruct (grid_values g (fun ix it ip => real_field P L (s_mmax h) (a ix) (grid_theta h it) (grid_phi h ip))) as (v & Lv & Hv).
  assert (Sv : forall ix, (ix < nx)%nat -> sampled b h (real_field P L (s_mmax h) (a ix)) (shell g v ix)).
  { intros ix Hx. split; [rewrite shell_length; [congruence|auto|lia]|].
    intros it ip Ht Hp. rewrite (nth_shell b h cl Rmn Rmx nx g Hg) by (auto; lia). apply Hv; lia. }
  destruct (C69_coefficients v (vec (nx * L) 0) Lv (vec_length _ _)) as (p' & E & Lp' & H). exists v, p'. split; auto. split; auto.
  assert (HP : forall ix, (ix < nx)%nat -> forall q, power_spectrum b (g_sphere g) (shell g v ix) (vec L 0) = Ok q -> nth 0 q 0 = am ix ^ 2).
  { intros ix Hx q Eq. destruct (C34_power_spectrum b h P (g_sphere g) Hlaw Hs (a ix) (shell g v ix) (vec L 0) (Ra ix) (Sv ix Hx) (vec_length _ _)) as (q' & Eq' & _ & Hq').
    assert (q' = q) by congruence. subst q'. destruct (Hq' 0%nat ltac:(lia)) as [-> _]. rewrite (Rsum_zero _ (fun i => 2 * sq (a ix 0%nat (S i)))).
    - unfold a, single, sq. cbn. ring.
    - intros i _. unfold a, single, sq. cbn. ring. }
  pose (u := fun j => if Nat.eqb j 0 then 1 else if Nat.eqb j 1 then -1 else 0).
  assert (HC : forall n, (n < nx)%nat -> nth (L * n) p' 0 = u n).
  { intros n Hn.
    rewrite <- (ana_syn (nx - 1) ltac:(lia) (fun j => nth (L * j) p' 0) n) by lia. rewrite <- (ana_syn (nx - 1) ltac:(lia) u n) by lia.
    apply ana_ext. intros ix Hix. destruct (pt_ex b h cl Rmn Rmx nx g Hg ix ltac:(lia)) as (X & HX).
    destruct (H ix X ltac:(lia) HX) as (q & Eq & Lq & Hq). specialize (Hq 0%nat ltac:(lia)). rewrite (HP ix ltac:(lia) q Eq), sqrt_pow2 in Hq by auto.
    assert (HU : unit_coord Rmn Rmx X = cos (PI * INR ix / INR (nx - 1))) by (rewrite Er in HX; apply (unit_coord_pt b nx Rmn Rmx c ix X); auto; lia).
    transitivity (am ix).
    - rewrite <- Hq. unfold syn. replace (S (nx - 1)) with nx by lia. apply Rsum_ext. intros j Hj. rewrite Nat.add_0_r. f_equal.
      rewrite HU, chebT_cos. unfold cc. f_equal. field. apply not_0_INR. lia.
    - unfold syn. replace (S (nx - 1)) with (S (S (nx - 2))) by lia. rewrite !Rsum_shift, Rsum_zero.
      + unfold u. cbn [Nat.eqb]. unfold cc, am. cbn [INR]. replace (PI * 0 * INR ix / INR (nx - 1)) with 0 by (unfold Rdiv; ring). rewrite cos_0. replace (PI * 1) with PI by ring. ring.
      + intros j _. unfold u. cbn [Nat.eqb]. ring. }
  split; [replace 0%nat with (L * 0)%nat at 1 by lia; apply HC; lia|].
  assert (HM : nth L p' 0 = -1) by (replace L with (L * 1)%nat at 1 by lia; apply HC; lia). split; auto.
  intros fmt fs name sc itm Cf. destruct (C69_rows fmt fs name sc itm v Lv Cf) as (p2 & fs' & rows & E2 & EW & _ & A & HR).
  assert (p2 = p') by congruence. subst p2. exists fs', rows. split; auto. split; auto.
  specialize (HR 1%nat 0%nat ltac:(lia) ltac:(lia)). cbv zeta in HR. replace (L * 1 + 0)%nat with L in HR by lia. rewrite HM in HR. rewrite HR.
  destruct (Rlt_dec (-1) (/ 10 ^ 16)) as [_|N]; [reflexivity|]. exfalso. apply N. assert (0 < / 10 ^ 16) by (apply Rinv_0_lt_compat, pow_lt; lra). lra.
Qed.
End C69.

(** a Chebyshev grid meeting the hypotheses *)
Example C69_nonvacuous : exists h g, let b := Build true true false in grid_of b h 50 2 50 10 g /\ shapes h /\ lawful b h Ylm_profile /\ s_lmax h = 8%nat /\
  exists v : list R, length v = g_n3 g /\ (0 < g_n3 g)%nat.
Proof.
  destruct (demo_ct_ok 16) as (D1 & D2 & D3).
  destruct (C28_contract_satisfiable (Build true true false) 8 8 16 17 (demo_ct 16)) as (h & E1 & E2 & E3 & E4 & Ect & Hl & _); auto; try lia.
  assert (Hg : exists g, grid_of (Build true true false) h 50 2 50 10 g).
  { unfold grid_of. apply Grid_make_ok; [rewrite E3, Ect, D1; auto|]. intros _. left. lia. }
  destruct Hg as (g & Hg). exists h, g. cbv zeta. split; auto. split; [apply (lw_shapes _ _ _ Hl)|]. split; auto. split; auto.
  exists (vec (g_n3 g) 0). split; [apply vec_length|]. destruct (gof_sizes _ _ _ _ _ _ _ Hg) as (_ & En & _ & El & Ep & _).
  unfold g_n3. rewrite En, El, Ep, E3, E4. cbn. lia.
Qed.
