(** The CSV writers: what ends up in the file, for any arithmetic. *)
From Coq Require Import Ascii String.
From Verif Require Import Base BaseLemmas ForList Arith MFd MCheb MSphere MGrid MParams MIo GridSpec SphereSpec
  PGrid PTables PMake PSphere PSphere2 PGridOp PropGrid PropTables PropGridOp PText.
Local Open Scope nat_scope.

Section Io.
Context {F : Type} {AF : Arith F}.
Variable fmt : F -> text.
Variables (b : build) (h : sht F) (cl0 Rmin0 Rmax0 : F) (nx : nat) (g : grid F).
Hypothesis Hg : grid_of b h cl0 Rmin0 Rmax0 nx g.
Hypothesis Hsh : shapes h.

(** the angular spectrum of every shell *)
Lemma spectrum_total v p : length v = g_n3 g -> length p = g_nx g * g_nl g ->
  exists ps, set_angular_power_spectrum g v p = Ok ps /\ length ps = g_nx g * g_nl g /\
    forall ix, ix < g_nx g -> exists q, power_spectrum b (g_sphere g) (shell g v ix) (vec (g_nl g) f0) = Ok q /\ length q = g_nl g /\
      forall l, l < g_nl g -> nth_error ps (indx_r_l g ix l) = nth_error q l.
Proof.
  intros Lv Lp. destruct (gof_sizes b h cl0 Rmin0 Rmax0 nx g Hg) as (Eb & En & Enl & El & Ep & Hs & _).
  unfold set_angular_power_spectrum. rewrite Lv, Lp, !assert_true by apply Nat.eqb_refl. cbn [bind].
  assert (Q : forall ix, ix < g_nx g -> exists q, power_spectrum b (g_sphere g) (shell g v ix) (vec (g_nl g) f0) = Ok q /\ length q = g_nl g).
  { intros ix Hx. destruct (power_ok b h (g_sphere g) Hsh Hs (shell g v ix) (vec (g_nl g) f0)) as (q & E & L & _).
    - rewrite shell_length by auto. congruence.
    - rewrite vec_length. auto.
    - exists q. split; auto. congruence. }
  rewrite for_as_list, Nat.sub_0_r.
  destruct (for_list_total (fun pre s => length s = g_nx g * g_nl g /\ forall ix, In ix pre -> exists q, power_spectrum b (g_sphere g) (shell g v ix) (vec (g_nl g) f0) = Ok q /\ length q = g_nl g /\
      forall l, l < g_nl g -> nth_error s (indx_r_l g ix l) = nth_error q l) (seq 0 (g_nx g)) (spectrum_body g v) p) as (ps & E & L & H).
  - split; auto. intros ix [].
  - intros pre ix post s Hd (Ls & H). assert (Hi : In ix (seq 0 (g_nx g))) by (rewrite Hd; apply in_or_app; right; now left).
    pose proof (nodup_split _ pre post ix (seq_NoDup _ _) Hd) as Hn. apply in_seq in Hi.
    destruct (Q ix ltac:(lia)) as (q & Eq & Lq).
    unfold spectrum_body. rewrite get_shell by (auto using sph0_length; lia). cbn [bind]. rewrite Eb, Eq. cbn [bind].
    destruct (C03_set_row_l g ix q s) as (s' & E' & L' & H1 & H2); auto; try lia.
    exists s'. split; auto. split; [lia|]. intros jx Hj. apply in_app_or in Hj. destruct (Nat.eq_dec jx ix) as [->|Hne].
    + exists q. auto.
    + destruct Hj as [Hj|[Hj|[]]]; [|congruence]. destruct (H jx Hj) as (q' & A1 & A2 & A3). exists q'. split; auto. split; auto.
      intros l Hl. rewrite H2 by auto. auto.
  - exists ps. split; auto. split; auto. intros ix Hx. apply H. apply in_seq. lia.
Qed.

(** rows of a file written by a loop that appends *)
Lemma rows_loop n (row : nat -> res text) (txt_of : nat -> text) (acc : text) :
  (forall i, i < n -> row i = Ok (txt_of i)) ->
  for_ 0 n (fun i out => let! r := row i in Ok (out ++ r)) acc = Ok (acc ++ concat (map txt_of (seq 0 n))).
Proof.
  intros H. revert acc. induction n as [|n IH]; intros acc.
  - rewrite for_nil by lia. cbn. now rewrite app_nil_r.
  - rewrite for_last by lia. rewrite IH by auto. cbn [bind]. rewrite H by lia. cbn [bind].
    rewrite seq_S, map_app, concat_app. cbn [map concat Nat.add]. now rewrite app_nil_r, app_assoc.
Qed.

Lemma app_data fs fn d : fs_file (fs_append fs fn d) fn = Some ((match fs_file fs fn with Some s => s | None => [] end) ++ d).
Proof. unfold fs_append. cbn. now rewrite text_eqb_refl. Qed.
Lemma app_other fs fn d n : n <> fn -> fs_file (fs_append fs fn d) n = fs_file fs n.
Proof. intros H. unfold fs_append. cbn. now rewrite text_eqb_neq. Qed.

Lemma r_l_idx k : k < g_nx g * g_nl g -> exists ix l, ix < g_nx g /\ l < g_nl g /\ k = indx_r_l g ix l.
Proof.
  intros H. unfold indx_r_l, ix_r_l. destruct (mul_add_surj (g_nl g) (g_nx g) k ltac:(lia)) as (i & j & Hi & Hj & ->).
  first [exists i, j; repeat split; auto; lia | exists j, i; repeat split; auto; lia].
Qed.
Lemma R_l_row ix l : ix < g_nx g -> l < g_nl g -> exists R, rad_pt (g_radial g) ix = Ok R /\ nth_error (g_R_l g) (indx_r_l g ix l) = Some [R; fnat l].
Proof.
  intros Hx Hl. destruct (gof_sizes b h cl0 Rmin0 Rmax0 nx g Hg) as (_ & En & Enl & _). pose proof Hg as T. apply Grid_make_tables in T.
  destruct T as (_ & _ & _ & _ & _ & _ & _ & _ & _ & _ & _ & _ & _ & _ & _ & T & _).
  destruct (T ix l ltac:(lia) ltac:(lia)) as (R & E1 & E2 & _). exists R. split; auto. unfold indx_r_l. now rewrite Enl.
Qed.

(** ** write_R_psl *)
Lemma write_R_psl_ok fs name sc itm v : length v = g_n3 g ->
  exists ps rows, set_angular_power_spectrum g v (vec (g_nx g * g_nl g) f0) = Ok ps /\ length ps = g_nx g * g_nl g /\
    length rows = g_nx g * g_nl g /\
    write_R_psl fmt fs g name sc itm v =
      Ok (if fs_can fs (name_kind "RPsl" name itm) then fs_append fs (name_kind "RPsl" name itm) ((if sc then header_R_l else []) ++ concat rows) else fs) /\
    (forall ix l, ix < g_nx g -> l < g_nl g -> exists R x, rad_pt (g_radial g) ix = Ok R /\ nth_error ps (indx_r_l g ix l) = Some x /\
      nth_error rows (indx_r_l g ix l) = Some (fmt R ++ txt "," ++ fmt (fnat l) ++ txt "," ++ fmt (log10_floor x) ++ endl)).
Proof.
  intros Lv. destruct (spectrum_total v (vec (g_nx g * g_nl g) f0) Lv (vec_length _ _)) as (ps & E & L & _).
  set (row := fun i => match psl_row fmt (g_R_l g) ps i with Ok t => t | _ => [] end).
  assert (K : forall i, i < g_nx g * g_nl g -> psl_row fmt (g_R_l g) ps i = Ok (row i) /\
     forall ix l, ix < g_nx g -> l < g_nl g -> i = indx_r_l g ix l -> exists R x, rad_pt (g_radial g) ix = Ok R /\ nth_error ps i = Some x /\
       row i = fmt R ++ txt "," ++ fmt (fnat l) ++ txt "," ++ fmt (log10_floor x) ++ endl).
  { intros i Hi. destruct (r_l_idx i Hi) as (ix & l & Hx & Hl & Ei). destruct (R_l_row ix l Hx Hl) as (R & ER & ET).
    destruct (nth_error ps i) as [x|] eqn:Ex; [|apply nth_error_None in Ex; lia].
    assert (PR : psl_row fmt (g_R_l g) ps i = Ok (fmt R ++ txt "," ++ fmt (fnat l) ++ txt "," ++ fmt (log10_floor x) ++ endl)).
    { unfold psl_row. rewrite Ei. rewrite (vget_some _ _ _ ET). cbn [bind vget nth_error]. rewrite <- Ei, (vget_some _ _ _ Ex). cbn [bind].
      unfold join_line, comma. cbn [map concat]. rewrite app_nil_r, <- !app_assoc. reflexivity. }
    assert (ERow : row i = fmt R ++ txt "," ++ fmt (fnat l) ++ txt "," ++ fmt (log10_floor x) ++ endl) by (unfold row; now rewrite PR).
    split; [now rewrite PR, ERow|]. intros ix' l' Hx' Hl' Ei'. rewrite Ei in Ei'. unfold indx_r_l, ix_r_l in Ei'. apply mul_add_inj in Ei'; auto.
    destruct Ei' as [-> ->]. exists R, x. auto. }
  exists ps, (map row (seq 0 (g_nx g * g_nl g))). split; auto. split; auto. split; [now rewrite map_length, seq_length|]. split.
  - unfold write_R_psl. rewrite E. cbn [bind]. destruct (fs_can _ _); auto. unfold psl_body. rewrite (rows_loop _ _ row).
    + cbn [bind]. now rewrite L.
    + intros i Hi. apply K. lia.
  - intros ix l Hx Hl. assert (Hi : indx_r_l g ix l < g_nx g * g_nl g) by (unfold indx_r_l, ix_r_l; nia).
    destruct (K _ Hi) as [_ K2]. destruct (K2 ix l Hx Hl eq_refl) as (R & x & A1 & A2 & A3). exists R, x. split; auto. split; auto.
    rewrite nth_error_map_seq by auto. now rewrite A3.
Qed.

(** ** write_x_y_z *)
Lemma xyz_rows vmin vmax rmin rmax v i : length v = g_n3 g -> i < g_n3 g ->
  exists R th ph x, nth_error v i = Some x /\
   (exists ix it ip, ix < g_nx g /\ it < g_nlat g /\ ip < g_nphi g /\ i = indx_R_th_ph g ix it ip /\ rad_pt (g_radial g) ix = Ok R /\
      sp_theta (g_sphere g) it = Ok th /\ ph = sp_phi (g_sphere g) ip) /\
   let X := (R * fcos ph * fsin th)%f in let Y := (R * fsin ph * fsin th)%f in let Z := (R * fcos th)%f in
   x_y_z_i g i = Ok [X; Y; Z] /\
   xyz_row fmt g vmin vmax rmin rmax v i =
     Ok (if flt vmin (fabs x) && flt (fabs x) vmax && flt rmin (magnitude [X; Y; Z]) && flt (magnitude [X; Y; Z]) rmax
         then fmt X ++ txt "," ++ fmt Y ++ txt "," ++ fmt Z ++ txt "," ++ fmt x ++ endl else []).
Proof.
  intros Lv Hi. destruct (gof_sizes b h cl0 Rmin0 Rmax0 nx g Hg) as (Eb & En & Enl & El & Ep & _).
  destruct (ix_R_th_ph_surj (g_bld g) _ _ _ _ Hi) as (ix & it & ip & Hx & Ht & Hp & Ei).
  pose proof Hg as T. apply Grid_make_tables in T. destruct T as (_ & _ & _ & _ & _ & _ & _ & _ & _ & _ & _ & _ & T & _).
  destruct (T ix it ip ltac:(lia) ltac:(lia) ltac:(lia)) as (R & th & E1 & E2 & _ & E4).
  destruct (nth_error v i) as [x|] eqn:Ex; [|apply nth_error_None in Ex; lia].
  exists R, th, (sp_phi (g_sphere g) ip), x. split; auto. split; [exists ix, it, ip; repeat split; auto|]. cbv zeta.
  assert (EX : x_y_z_i g i = Ok [(R * fcos (sp_phi (g_sphere g) ip) * fsin th)%f; (R * fsin (sp_phi (g_sphere g) ip) * fsin th)%f; (R * fcos th)%f]).
  { unfold x_y_z_i. apply vget_some. rewrite <- Ei, Eb, El, Ep. exact E4. }
  split; auto. unfold xyz_row. rewrite (vget_some _ _ _ Ex), EX. cbn [bind]. destruct (_ && _ && _ && _); auto. cbn [bind vget nth_error].
  unfold join_line, comma. cbn [map concat]. rewrite app_nil_r, <- !app_assoc. reflexivity.
Qed.
Lemma write_x_y_z_ok fs name sc itm vmin vmax rmin rmax v : length v = g_n3 g ->
  exists row : nat -> text, (forall i, i < g_n3 g -> xyz_row fmt g vmin vmax rmin rmax v i = Ok (row i)) /\
  write_x_y_z fmt fs g name sc itm vmin vmax rmin rmax v =
   Ok (if fs_can fs (name_kind "XYZ" name itm) then fs_append fs (name_kind "XYZ" name itm) ((if sc then header_xyz else []) ++ concat (map row (seq 0 (g_n3 g)))) else fs).
Proof.
  intros Lv. set (row := fun i => match xyz_row fmt g vmin vmax rmin rmax v i with Ok t => t | _ => [] end).
  assert (K : forall i, i < g_n3 g -> xyz_row fmt g vmin vmax rmin rmax v i = Ok (row i)).
  { intros i Hi. destruct (xyz_rows vmin vmax rmin rmax v i Lv Hi) as (R & th & ph & x & _ & _ & _ & E). unfold row. now rewrite E. }
  exists row. split; auto. unfold write_x_y_z. destruct (fs_can _ _); auto. rewrite (rows_loop _ _ row) by (rewrite Lv; auto). cbn [bind]. now rewrite Lv.
Qed.
End Io.
