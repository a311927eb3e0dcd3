(** ID::compact_pulse in closed form (any arithmetic). *)
From Coq Require Import Ascii String.
From Verif Require Import Base BaseLemmas ForList Arith MFd MCheb MSphere MGrid MParams MInit GridSpec SphereSpec
  PGrid PTables PMake PSphere PSphere2 PGridOp PropGrid PropTables PropGridOp Conc PConc PEomOk.
Local Open Scope nat_scope.

Section Init.
Context {F : Type} {AF : Arith F}.
Variables (b : build) (h : sht F) (cl0 Rmin0 Rmax0 : F) (nx : nat) (g : grid F).
Hypothesis Hg : grid_of b h cl0 Rmin0 Rmax0 nx g.
Hypothesis Hsh : shapes h.
Hypothesis Hx : 1 <= nx.
Variable par : params F.
Let l := to_size (pr_l_ang par).
Let m := to_size (pr_m_ang par).
Hypothesis Hlm : LM (s_lmax h) l m < nlm_calc (s_lmax h) (s_mmax h).
Local Notation n := (g_n3 g).

(** the harmonic as samples on the sphere *)
Definition ylm_of : list F := s_sy h (upd (vec (nlm_calc (s_lmax h) (s_mmax h)) c0) (LM (s_lmax h) l m) (fofZ 1, fofZ 0)).
Lemma ylm_ok : compute_ylm (g_bld g) (g_sphere g) l m = Ok ylm_of /\ length ylm_of = g_nlat g * g_nphi g.
Proof.
  destruct (gof_sizes b h cl0 Rmin0 Rmax0 nx g Hg) as (Eb & En & _ & El & Ep & Hs & _). rewrite Eb. split.
  - apply (compute_ylm_ok b h (g_sphere g) Hsh Hs l m Hlm).
  - unfold ylm_of. rewrite (sh_sy h Hsh) by (rewrite upd_length; apply vec_length). rewrite (sh_nspat h Hsh). congruence.
Qed.
Lemma ylm_get it ip : it < g_nlat g -> ip < g_nphi g -> vget ylm_of (indx_th_ph g it ip) = Ok (nth (indx_th_ph g it ip) ylm_of f0).
Proof. intros. apply vget_ok. destruct ylm_ok as [_ ->]. unfold indx_th_ph. now apply ix_th_ph_lt. Qed.
Lemma row_get ix it ip : ix < g_nx g -> it < g_nlat g -> ip < g_nphi g -> exists R row,
  rad_pt (g_radial g) ix = Ok R /\ R_th_ph_at g ix it ip = Ok row /\ vget row 0 = Ok R.
Proof.
  intros H1 H2 H3. destruct (gof_sizes b h cl0 Rmin0 Rmax0 nx g Hg) as (Eb & En & _ & El & Ep & _).
  destruct (C06_tables _ _ _ _ _ _ _ _ _ _ _ Hg ix it ip ltac:(lia) ltac:(lia) ltac:(lia)) as (R & th & E1 & _ & E3 & _).
  exists R, [R; th; sp_phi (g_sphere g) ip]. auto.
Qed.
Definition pt_of (ix : nat) : F := match rad_pt (g_radial g) ix with Ok R => R | _ => f0 end.
Definition r_at (ix : nat) : F := R_to_r g (pt_of ix).
Definition y_at (it ip : nat) : F := nth (indx_th_ph g it ip) ylm_of f0.
Definition fval (ix it ip : nat) : F := (pulse_f (pr_rl par) (pr_ru par) (r_at ix) * y_at it ip)%f.
Definition pval (ix it ip : nat) : F := (pulse_p (pr_direction par) (pr_rl par) (pr_ru par) (r_at ix) * y_at it ip)%f.
Definition upd_max (mx : F) (pt : nat * (nat * nat)) : F :=
  let x := fabs (fval (fst pt) (snd (snd pt)) (fst (snd pt))) in if flt mx x then x else mx.
Definition pts : list (nat * (nat * nat)) := list_prod (seq 0 (nx - 1)) (list_prod (seq 0 (g_nphi g)) (seq 0 (g_nlat g))).
Definition max_of : F := fold_left upd_max pts f0.

Definition cell (pt : nat * (nat * nat)) : nat := indx_R_th_ph g (fst pt) (snd (snd pt)) (fst (snd pt)).
Lemma cell_lt pt : fst pt < g_nx g -> fst (snd pt) < g_nphi g -> snd (snd pt) < g_nlat g -> cell pt < n.
Proof. intros. unfold cell, indx_R_th_ph, g_n3. now apply ix_R_th_ph_lt. Qed.
Lemma cell_inj p q : fst (snd p) < g_nphi g -> snd (snd p) < g_nlat g -> fst (snd q) < g_nphi g -> snd (snd q) < g_nlat g -> cell p = cell q -> p = q.
Proof.
  destruct p as [a [c d]], q as [a' [c' d']]. unfold cell, indx_R_th_ph. cbn [fst snd]. intros ? ? ? ? E.
  apply ix_R_th_ph_inj in E; auto. destruct E as (-> & -> & ->). auto.
Qed.

Lemma pulse_pt_ok ix it ip f p mx : ix < g_nx g -> it < g_nlat g -> ip < g_nphi g -> length f = n -> length p = n ->
  pulse_pt g par ylm_of ix it ip (f, p, mx) =
  Ok (upd f (indx_R_th_ph g ix it ip) (fval ix it ip), upd p (indx_R_th_ph g ix it ip) (pval ix it ip), upd_max mx (ix, (ip, it))).
Proof.
  intros H1 H2 H3 Lf Lp. destruct (row_get ix it ip H1 H2 H3) as (R & row & E1 & E2 & E3).
  assert (EP : pt_of ix = R) by (unfold pt_of; now rewrite E1).
  assert (Hc : indx_R_th_ph g ix it ip < n) by (apply (cell_lt (ix, (ip, it))); auto).
  unfold pulse_pt. rewrite E2. cbn [bind]. rewrite E3. cbn [bind].
  rewrite !vset_ok by lia. cbn [bind]. rewrite ylm_get by auto. cbn [bind].
  rewrite (vget_ok (upd f _ _) _ f0) by (rewrite upd_length; lia). cbn [bind]. rewrite nth_upd_eq by lia.
  rewrite vset_ok by (rewrite upd_length; lia). cbn [bind].
  rewrite (vget_ok (upd p _ _) _ f0) by (rewrite upd_length; lia). cbn [bind]. rewrite nth_upd_eq by lia.
  rewrite vset_ok by (rewrite upd_length; lia). cbn [bind].
  rewrite (vget_ok _ _ f0) by (rewrite !upd_length; lia). cbn [bind]. rewrite nth_upd_eq by (rewrite upd_length; lia).
  rewrite !upd_upd_eq. unfold upd_max, fval, pval, y_at, r_at. cbn [fst snd]. rewrite EP. reflexivity.
Qed.

Lemma pulse_loop f p : length f = n -> length p = n ->
  exists f1 p1, for_ 0 (wsub (g_nx g) 1) (fun ix st => for_ 0 (g_nphi g) (fun ip st =>
     for_ 0 (g_nlat g) (fun it st => pulse_pt g par ylm_of ix it ip st) st) st) (f, p, fofZ 0) = Ok (f1, p1, max_of) /\
    length f1 = n /\ length p1 = n /\
    (forall ix it ip, ix < nx - 1 -> it < g_nlat g -> ip < g_nphi g ->
      nth_error f1 (indx_R_th_ph g ix it ip) = Some (fval ix it ip) /\ nth_error p1 (indx_R_th_ph g ix it ip) = Some (pval ix it ip)) /\
    (forall it ip, it < g_nlat g -> ip < g_nphi g ->
      nth_error f1 (indx_R_th_ph g (nx - 1) it ip) = nth_error f (indx_R_th_ph g (nx - 1) it ip) /\
      nth_error p1 (indx_R_th_ph g (nx - 1) it ip) = nth_error p (indx_R_th_ph g (nx - 1) it ip)).
Proof.
  intros Lf Lp. destruct (gof_sizes b h cl0 Rmin0 Rmax0 nx g Hg) as (Eb & En & _ & El & Ep & Hs & _).
  rewrite wsub_le by lia. rewrite En. rewrite (for3_as_list (nx - 1) (g_nphi g) (g_nlat g) (fun ix ip it st => pulse_pt g par ylm_of ix it ip st)). fold pts.
  set (bd := fun q : nat * (nat * nat) => _).
  destruct (for_list_total (fun pre st => let '(f1, p1, mx) := st in length f1 = n /\ length p1 = n /\ mx = fold_left upd_max pre f0 /\
     (forall q, In q pre -> nth_error f1 (cell q) = Some (fval (fst q) (snd (snd q)) (fst (snd q))) /\ nth_error p1 (cell q) = Some (pval (fst q) (snd (snd q)) (fst (snd q)))) /\
     (forall j, (forall q, In q pre -> cell q <> j) -> nth_error f1 j = nth_error f j /\ nth_error p1 j = nth_error p j))
    pts bd (f, p, fofZ 0)) as ([[f1 p1] mx] & E & L1 & L2 & -> & H1 & H2).
  - cbn iota beta. repeat match goal with |- _ /\ _ => split end; auto; intros q [].
  - intros pre q post [[f1 p1] mx] Hd (L1 & L2 & -> & H1 & H2).
    assert (IN : forall q', In q' pre \/ q' = q -> fst q' < nx - 1 /\ fst (snd q') < g_nphi g /\ snd (snd q') < g_nlat g).
    { intros q' Hq. apply In_pts3. fold pts. rewrite Hd. apply in_or_app. destruct Hq as [|<-]; [now left|right; now left]. }
    pose proof (nodup_split pts pre post q ltac:(repeat apply NoDup_list_prod; apply seq_NoDup) Hd) as Hn.
    destruct (IN q) as (A1 & A2 & A3); auto.
    unfold bd. rewrite pulse_pt_ok by (auto; lia). eexists. split; [reflexivity|]. cbn iota beta. rewrite !upd_length. split; auto. split; auto.
    split; [rewrite fold_left_app; destruct q as [? [? ?]]; reflexivity|]. fold (cell q).
    assert (Hc : cell q < n) by (apply cell_lt; lia). split.
    + intros q' Hq'. apply in_app_or in Hq'. destruct Hq' as [Hq'|[<-|[]]].
      * destruct (IN q') as (B1 & B2 & B3); auto. rewrite !nth_error_upd_neq by (intros Ec; apply cell_inj in Ec; auto; congruence). auto.
      * rewrite !nth_error_upd_eq by lia. auto.
    + intros j Hj. rewrite !nth_error_upd_neq by (apply Hj; apply in_or_app; right; now left). apply H2. intros q' Hq'. apply Hj. apply in_or_app. now left.
  - exists f1, p1. split; [exact E|]. split; auto. split; auto. split.
    + intros ix it ip B1 B2 B3. apply (H1 (ix, (ip, it))). apply In_pts3. cbn. auto.
    + intros it ip B2 B3. apply H2. intros q Hq. apply In_pts3 in Hq. intros Ec. apply (cell_inj q (nx - 1, (ip, it))) in Ec; cbn; try lia. subst q. cbn in Hq. lia.
Qed.

Lemma rescale_ok s f p : length f = n -> length p = n ->
  rescale g s (f, p) = Ok (map (fun x => (x * s)%f) f, map (fun x => (x * s)%f) p).
Proof.
  intros Lf Lp. unfold rescale.
  rewrite (for3_as_list (g_nx g) (g_nphi g) (g_nlat g) (fun ix ip it (st : list F * list F) => let '(f, p) := st in
    let j := indx_R_th_ph g ix it ip in
    let! x := f.[j] in let! f := f.[j <- (x * s)%f] in let! x := p.[j] in let! p := p.[j <- (x * s)%f] in Ok (f, p))).
  set (P := list_prod (seq 0 (g_nx g)) (list_prod (seq 0 (g_nphi g)) (seq 0 (g_nlat g)))).
  set (bd := fun q : nat * (nat * nat) => _).
  destruct (for_list_total (fun pre (st : list F * list F) => let '(f1, p1) := st in length f1 = n /\ length p1 = n /\
     (forall q, In q pre -> nth_error f1 (cell q) = option_map (fun x => (x * s)%f) (nth_error f (cell q)) /\ nth_error p1 (cell q) = option_map (fun x => (x * s)%f) (nth_error p (cell q))) /\
     (forall j, (forall q, In q pre -> cell q <> j) -> nth_error f1 j = nth_error f j /\ nth_error p1 j = nth_error p j))
    P bd (f, p)) as ([f1 p1] & E & L1 & L2 & H1 & H2).
  - cbn iota beta. repeat match goal with |- _ /\ _ => split end; auto; intros q [].
  - intros pre q post [f1 p1] Hd (L1 & L2 & H1 & H2).
    assert (IN : forall q', In q' pre \/ q' = q -> fst q' < g_nx g /\ fst (snd q') < g_nphi g /\ snd (snd q') < g_nlat g).
    { intros q' Hq. apply In_pts3. fold P. rewrite Hd. apply in_or_app. destruct Hq as [|<-]; [now left|right; now left]. }
    pose proof (nodup_split P pre post q ltac:(repeat apply NoDup_list_prod; apply seq_NoDup) Hd) as Hn.
    destruct (IN q) as (A1 & A2 & A3); auto. assert (Hc : cell q < n) by (apply cell_lt; lia).
    assert (NQ : forall q', In q' pre -> cell q' <> cell q).
    { intros q' Hq' Ec. destruct (IN q') as (B1 & B2 & B3); auto. apply cell_inj in Ec; auto. congruence. }
    destruct (H2 (cell q) NQ) as [F1 F2].
    unfold bd. fold (cell q).
    rewrite (vget_ok f1 _ f0) by lia. cbn [bind]. rewrite vset_ok by lia. cbn [bind].
    rewrite (vget_ok p1 _ f0) by lia. cbn [bind]. rewrite vset_ok by lia. cbn [bind].
    eexists. split; [reflexivity|]. cbn iota beta. rewrite !upd_length. split; auto. split; auto. split.
    + intros q' Hq'. apply in_app_or in Hq'. destruct Hq' as [Hq'|[<-|[]]].
      * pose proof (NQ q' Hq'). rewrite !nth_error_upd_neq by congruence. auto.
      * rewrite !nth_error_upd_eq by lia. rewrite <- F1, <- F2. rewrite !(nth_error_nth' _ f0) by lia. auto.
    + intros j Hj. rewrite !nth_error_upd_neq by (apply Hj; apply in_or_app; right; now left). apply H2. intros q' Hq'. apply Hj. apply in_or_app. now left.
  - assert (K : forall j, j < n -> exists q, In q P /\ cell q = j).
    { intros j Hj. destruct (ix_R_th_ph_surj (g_bld g) _ _ _ _ Hj) as (ix & it & ip & B1 & B2 & B3 & Ej). exists (ix, (ip, it)). split; auto. apply In_pts3. cbn. auto. }
    etransitivity; [exact E|]. do 2 f_equal; apply (list_ext _ _ n); auto; try (rewrite map_length; auto); intros j Hj; destruct (K j Hj) as (q & Hq & <-); rewrite nth_error_map; apply H1; auto.
Qed.

(** the result of compact_pulse: [scaled s] when the largest value exceeds the threshold *)
Theorem compact_pulse_ok f p : length f = n -> length p = n ->
  exists f' p', compact_pulse par g f p = Ok (f', p') /\ length f' = n /\ length p' = n /\
    let sc := fun x => if flt (fdec 1 (-16)) (fabs max_of) then (x * (pr_amp par / max_of))%f else x in
    (forall ix it ip, ix < nx - 1 -> it < g_nlat g -> ip < g_nphi g ->
      nth_error f' (indx_R_th_ph g ix it ip) = Some (sc (fval ix it ip)) /\ nth_error p' (indx_R_th_ph g ix it ip) = Some (sc (pval ix it ip))) /\
    (forall it ip, it < g_nlat g -> ip < g_nphi g ->
      nth_error f' (indx_R_th_ph g (nx - 1) it ip) = option_map sc (nth_error f (indx_R_th_ph g (nx - 1) it ip)) /\
      nth_error p' (indx_R_th_ph g (nx - 1) it ip) = option_map sc (nth_error p (indx_R_th_ph g (nx - 1) it ip))).
Proof.
  intros Lf Lp. destruct (pulse_loop f p Lf Lp) as (f1 & p1 & E & L1 & L2 & H1 & H2).
  unfold compact_pulse. destruct ylm_ok as [Ey _]. fold l. fold m. rewrite Ey. cbn [bind]. rewrite E. cbn [bind].
  destruct (flt (fdec 1 (-16)) (fabs max_of)).
  - rewrite rescale_ok by auto. eexists. eexists. split; [reflexivity|]. rewrite !map_length. split; auto. split; auto. cbn iota. split.
    + intros ix it ip B1 B2 B3. rewrite !nth_error_map. destruct (H1 ix it ip B1 B2 B3) as [-> ->]. auto.
    + intros it ip B2 B3. rewrite !nth_error_map. destruct (H2 it ip B2 B3) as [-> ->]. auto.
  - exists f1, p1. split; auto. split; auto. split; auto. cbn iota. split; auto. intros it ip B2 B3. destruct (H2 it ip B2 B3) as [-> ->].
    split; symmetry; [destruct (nth_error f _)|destruct (nth_error p _)]; reflexivity.
Qed.
End Init.
