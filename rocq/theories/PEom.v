(** Inversion lemmas for Eom_make, set_k and set_rho (any arithmetic). *)
From Verif Require Import Base BaseLemmas ForList Arith MFd MCheb MSphere MGrid MParams MField MEom PGrid PTables PConc.

Section PEom.
Context {F : Type} {AF : Arith F}.

Lemma Eom_make_inv (g : grid F) (p : params F) e : Eom_make g p = Ok e ->
  exists cs, length cs = g_n3 g /\
  e = Eom (g_n3 g) (pr_dt p) (pr_km1 p) (pr_k0 p) (pr_k1 p) (pr_k2 p) (pr_V2 p) (pr_V3 p) (pr_V4 p) cs
        (let z := vec (g_n3 g) f0 in Scr z z z z z z z) /\
  forall ix it ip, ix < g_nx g -> it < g_nlat g -> ip < g_nphi g -> exists row R th,
    R_th_ph_at g ix it ip = Ok row /\ row.[0%nat] = Ok R /\ row.[1%nat] = Ok th /\
    nth_error cs (indx_R_th_ph g ix it ip) = Some (coef_at (pr_bh_mass p) (pr_bh_spin p) (inv_r_at g (pr_cl p) R) th).
Proof.
  unfold Eom_make. intros H. inv_bind H. rename x into cs. injection H as <-. exists cs.
  rewrite for3_as_list in E.
  assert (N3 : NoDup (list_prod (seq 0 (g_nx g)) (list_prod (seq 0 (g_nphi g)) (seq 0 (g_nlat g)))))
    by (repeat apply NoDup_list_prod; apply seq_NoDup).
  destruct (view_loop _ _ _ _ E (fun x => x) (fun _ => True) (fun p0 r => exists row R th,
     R_th_ph_at g (fst p0) (snd (snd p0)) (fst (snd p0)) = Ok row /\ row.[0%nat] = Ok R /\ row.[1%nat] = Ok th /\
     r = coef_at (pr_bh_mass p) (pr_bh_spin p) (inv_r_at g (pr_cl p) R) th)
    (fun p0 => indx_R_th_ph g (fst p0) (snd (snd p0)) (fst (snd p0))) N3) as (L & _ & V & _).
  - intros [i1 [i2 i3]] [j1 [j2 j3]]; rewrite !In_pts3; simpl; intros ? ? E'.
    apply ix_R_th_ph_inj in E'; try lia. destruct E' as (-> & -> & ->). auto.
  - auto.
  - intros [ix [ip it]] s s' _ Hb _. cbn in Hb |- *. cbv beta in Hb.
    inv_bind Hb. inv_bind Hb. inv_bind Hb. apply vset_inv in Hb. destruct Hb as [Hl ->].
    eexists. split; [do 3 eexists; split; [exact E0|split; [exact E1|split; [exact E2|reflexivity]]]|]. auto.
  - rewrite vec_length in L. split; auto. split; auto. intros ix it ip Hx Ht Hp.
    destruct (V (ix, (ip, it))) as (r & (row & R & th & A & B & C & D) & Er).
    { rewrite In_pts3. simpl. auto. }
    cbn in *. subst r. exists row, R, th. auto.
Qed.

Lemma set_k_inv (g : grid F) e f p fk pk fk' pk' e' : set_k g e f p fk pk = Ok (fk', pk', e') ->
  exists s, k_sections g f p (e_scr e) = Ok s /\ e' = with_scr e s /\ length fk' = length fk /\ length pk' = length pk /\
  (forall i, e_n e <= i -> nth_error fk' i = nth_error fk i /\ nth_error pk' i = nth_error pk i) /\
  forall i, i < e_n e -> exists fi pi c drf drp drr dph dphr lp sX,
    nth_error f i = Some fi /\ nth_error p i = Some pi /\ nth_error (e_coef e) i = Some c /\
    nth_error (s_dr_f s) i = Some drf /\ nth_error (s_dr_p s) i = Some drp /\ nth_error (s_dr_dr_f s) i = Some drr /\
    nth_error (s_dphi_f s) i = Some dph /\ nth_error (s_dphi_dr_f s) i = Some dphr /\ nth_error (s_lap_f s) i = Some lp /\
    nth_error (s_sphereX_f s) i = Some sX /\
    nth_error fk' i = Some pi /\ nth_error pk' i = Some (p_rhs e c fi pi drf drp drr dph dphr lp sX).
Proof.
  unfold set_k. intros H. inv_bind H. inv_bind H. inv_bind H. inv_bind H. inv_bind H. rename x3 into s.
  inv_bind H. destruct x3 as [a b]. injection H as <- <- <-. exists s. split; auto. split; auto.
  rewrite for_as_list in E4.
  pose (P := fun (i : nat) (fo po : F) => exists fi pi c drf drp drr dph dphr lp sX,
    nth_error f i = Some fi /\ nth_error p i = Some pi /\ nth_error (e_coef e) i = Some c /\
    nth_error (s_dr_f s) i = Some drf /\ nth_error (s_dr_p s) i = Some drp /\ nth_error (s_dr_dr_f s) i = Some drr /\
    nth_error (s_dphi_f s) i = Some dph /\ nth_error (s_dphi_dr_f s) i = Some dphr /\ nth_error (s_lap_f s) i = Some lp /\
    nth_error (s_sphereX_f s) i = Some sX /\ fo = pi /\ po = p_rhs e c fi pi drf drp drr dph dphr lp sX).
  assert (B : forall i (st st' : list F * list F), 
     (let '(f_k, p_k) := st in
    let! fi := f.[i] in
    let! pi := p.[i] in
    let! f_k := f_k.[i <- pi] in
    let! c := (e_coef e).[i] in
    let! dr_f := (s_dr_f s).[i] in let! dr_p := (s_dr_p s).[i] in let! dr_dr_f := (s_dr_dr_f s).[i] in
    let! dphi_f := (s_dphi_f s).[i] in let! dphi_dr_f := (s_dphi_dr_f s).[i] in
    let! lap := (s_lap_f s).[i] in let! sX := (s_sphereX_f s).[i] in
    let! p_k := p_k.[i <- p_rhs e c fi pi dr_f dr_p dr_dr_f dphi_f dphi_dr_f lap sX] in
    Ok (f_k, p_k)) = Ok st' ->
    exists fo po, P i fo po /\ i < length (fst st) /\ i < length (snd st) /\ st' = (upd (fst st) i fo, upd (snd st) i po)).
  { intros i [u v] st' Hb. cbv beta in Hb.
    inv_bind Hb. inv_bind Hb. inv_bind Hb. inv_bind Hb. inv_bind Hb. inv_bind Hb. inv_bind Hb. inv_bind Hb. inv_bind Hb. inv_bind Hb. inv_bind Hb. inv_bind Hb.
    injection Hb as <-. repeat match goal with H : vget _ _ = Ok _ |- _ => apply vget_inv in H | H : vset _ _ _ = Ok _ |- _ => apply vset_inv in H end.
    destruct E7 as [? ->], E16 as [? ->]. do 2 eexists. split.
    { unfold P. do 10 eexists. repeat (split; [eassumption|]). split; reflexivity. }
    cbn. auto. }
  destruct (view_loop _ _ _ _ E4 fst (fun _ => True) (fun i r => exists po, P i r po) (fun i => i) (seq_NoDup _ _)) as (L1 & _ & V1 & O1); auto.
  { intros i st st' _ Hb _. destruct (B i st st' Hb) as (fo & po & HP & l1 & l2 & ->). exists fo. cbn. split; eauto. }
  destruct (view_loop _ _ _ _ E4 snd (fun _ => True) (fun i r => exists fo, P i fo r) (fun i => i) (seq_NoDup _ _)) as (L2 & _ & V2 & O2); auto.
  { intros i st st' _ Hb _. destruct (B i st st' Hb) as (fo & po & HP & l1 & l2 & ->). exists po. cbn. split; eauto. }
  cbn in *. split; auto. split; auto. split.
  { intros i Hi. split; [apply O1|apply O2]; intros j Hj; apply in_seq in Hj; lia. }
  intros i Hi. assert (Hin : In i (seq 0 (e_n e - 0))) by (apply in_seq; lia).
  destruct (V1 i Hin) as (fo & (po & HP) & Ef). destruct (V2 i Hin) as (po' & (fo' & HP') & Ep).
  destruct HP as (fi & pi & c & d1 & d2 & d3 & d4 & d5 & d6 & d7 & A1 & A2 & A3 & A4 & A5 & A6 & A7 & A8 & A9 & A10 & -> & ->).
  destruct HP' as (fi' & pi' & c' & d1' & d2' & d3' & d4' & d5' & d6' & d7' & B1 & B2 & B3 & B4 & B5 & B6 & B7 & B8 & B9 & B10 & -> & ->).
  exists fi, pi, c, d1, d2, d3, d4, d5, d6, d7. repeat (split; [assumption|]). congruence.
Qed.

Lemma k_sections_inv (g : grid F) f p s0 s : k_sections g f p s0 = Ok s ->
  set_partial_r g f (s_dr_f s0) = Ok (s_dr_f s) /\ set_partial_r g p (s_dr_p s0) = Ok (s_dr_p s) /\
  set_partial2_r g f (s_dr_dr_f s0) = Ok (s_dr_dr_f s) /\ set_partial_phi g f (s_dphi_f s0) = Ok (s_dphi_f s) /\
  set_partial_r g (s_dphi_f s) (s_dphi_dr_f s0) = Ok (s_dphi_dr_f s) /\
  set_sphereX g f (s_sphereX_f s0) = Ok (s_sphereX_f s) /\ set_spherical_lap g f (s_lap_f s0) = Ok (s_lap_f s).
Proof.
  unfold k_sections. intros H. inv_bind H. inv_bind H. inv_bind H. inv_bind H. inv_bind H. inv_bind H. inv_bind H.
  injection H as <-. cbn. auto 10.
Qed.

Lemma set_rho_inv (g : grid F) e f p rho rho' e' : set_rho g e f p rho = Ok (rho', e') ->
  length rho' = length rho /\ exists drf dph sX,
  set_partial_r g f (s_dr_f (e_scr e)) = Ok drf /\ set_partial_phi g f (s_dphi_f (e_scr e)) = Ok dph /\
  set_sphereX g f (s_sphereX_f (e_scr e)) = Ok sX /\
  forall i, i < e_n e -> exists fi pi c x y z,
    nth_error f i = Some fi /\ nth_error p i = Some pi /\ nth_error (e_coef e) i = Some c /\
    nth_error drf i = Some x /\ nth_error dph i = Some y /\ nth_error sX i = Some z /\
    nth_error rho' i = Some (rho_at e c fi pi x y z).
Proof.
  unfold set_rho. intros H. inv_bind H. inv_bind H. inv_bind H. cbv zeta in H. inv_bind H. inv_bind H. inv_bind H.
  inv_bind H. injection H as <- <-. rename x2 into drf, x3 into dph, x4 into sX, x5 into r.
  rewrite for_as_list in E5.
  destruct (view_loop _ _ _ _ E5 (fun x => x) (fun _ => True) (fun i r => exists fi pi c x y z,
    nth_error f i = Some fi /\ nth_error p i = Some pi /\ nth_error (e_coef e) i = Some c /\
    nth_error drf i = Some x /\ nth_error dph i = Some y /\ nth_error sX i = Some z /\
    r = rho_at e c fi pi x y z) (fun i => i) (seq_NoDup _ _)) as (L1 & _ & V1 & O1); auto.
  - intros i st st' _ Hb _. cbv beta in Hb. inv_bind Hb. inv_bind Hb. inv_bind Hb. inv_bind Hb. inv_bind Hb. inv_bind Hb.
    repeat match goal with H : vget _ _ = Ok _ |- _ => apply vget_inv in H end. apply vset_inv in Hb. destruct Hb as [? ->].
    eexists. split; [do 6 eexists; repeat (split; [eassumption|]); reflexivity|]. auto.
  - split; auto. exists drf, dph, sX. split; auto. split; auto. split; auto. intros i Hi.
    destruct (V1 i) as (v & (fi & pi & c & a & b & d & A1 & A2 & A3 & A4 & A5 & A6 & ->) & Ev); [apply in_seq; lia|].
    exists fi, pi, c, a, b, d. auto 10.
Qed.
End PEom.
