(** Lemmas about the tables built by the Grid constructor. *)
From Verif Require Import Base BaseLemmas ForList Arith MFd MCheb MSphere MGrid PGrid.

Section ViewLoop.
  Context {I S A : Type}.
  Lemma view_loop (is : list I) (body : I -> S -> res S) s s' (HE : for_list is body s = Ok s')
      (view : S -> list A) (Q : A -> Prop) (rowP : I -> A -> Prop) (dst : I -> nat) :
    NoDup is ->
    (forall i j, In i is -> In j is -> dst i = dst j -> i = j) ->
    (forall j r, nth_error (view s) j = Some r -> Q r) ->
    (forall i s s', In i is -> body i s = Ok s' -> (forall j r, nth_error (view s) j = Some r -> Q r) ->
       exists r, rowP i r /\ Q r /\ dst i < length (view s) /\ view s' = upd (view s) (dst i) r) ->
    length (view s') = length (view s) /\
    (forall j r, nth_error (view s') j = Some r -> Q r) /\
    (forall i, In i is -> exists r, rowP i r /\ nth_error (view s') (dst i) = Some r) /\
    (forall j, (forall i, In i is -> dst i <> j) -> nth_error (view s') j = nth_error (view s) j).
  Proof.
    intros Hnd Hinj HQ Hb.
    refine (for_list_partial (fun pre t => length (view t) = length (view s) /\
      (forall j r, nth_error (view t) j = Some r -> Q r) /\
      (forall i, In i pre -> exists r, rowP i r /\ nth_error (view t) (dst i) = Some r) /\
      (forall j, (forall i, In i pre -> dst i <> j) -> nth_error (view t) j = nth_error (view s) j))
      is body s s' _ _ HE).
    - repeat split; auto. intros i [].
    - intros pre i post t t' Hd (HL & HQt & Hin & Hout) Et.
      assert (Hi : In i is) by (rewrite Hd; apply in_app_iff; right; left; auto).
      assert (Hpre : forall k, In k pre -> In k is) by (intros k Hk; rewrite Hd; apply in_app_iff; auto).
      destruct (Hb i t t' Hi Et HQt) as (r & Hr & HQr & Hlt & Ev).
      rewrite Ev. repeat split.
      + now rewrite upd_length.
      + intros j r' Hj. rewrite nth_error_upd in Hj by auto. destruct (Nat.eqb_spec (dst i) j).
        * injection Hj as <-. auto.
        * eauto.
      + intros k Hk. apply in_app_iff in Hk. destruct Hk as [Hk|[<-|[]]].
        * destruct (Hin k Hk) as (r' & Hr' & E'). exists r'. split; auto.
          rewrite nth_error_upd_neq; auto. intros Heq. apply Hinj in Heq; auto. subst.
          eapply nodup_split; eauto.
        * exists r. split; auto. now apply nth_error_upd_eq.
      + intros j Hj. rewrite nth_error_upd_neq.
        * apply Hout. intros k Hk. apply Hj. apply in_app_iff; auto.
        * apply Hj. apply in_app_iff; right; left; auto.
  Qed.
End ViewLoop.

Section Tables.
Context {F : Type} {AF : Arith F}.

Lemma vset2_inv (t t' : list (list F)) j k x : vset2 t j k x = Ok t' ->
  exists row, nth_error t j = Some row /\ k < length row /\ t' = upd t j (upd row k x) /\ j < length t.
Proof.
  unfold vset2, vget, vset. intros H. destruct (nth_error t j) as [row|] eqn:E; [|discriminate]. cbn [bind] in H.
  destruct (Nat.ltb_spec k (length row)); [|discriminate]. cbn [bind] in H.
  destruct (Nat.ltb_spec j (length t)); [|discriminate]. injection H as <-. eauto 6.
Qed.
Lemma upd_upd {A} (v : list A) i x y : upd (upd v i x) i y = upd v i y.
Proof. revert i; induction v as [|z v IH]; intros [|i]; simpl; auto. now rewrite IH. Qed.

Lemma vset2_3 (t t1 t2 t3 : list (list F)) j a b c :
  vset2 t j 0 a = Ok t1 -> vset2 t1 j 1 b = Ok t2 -> vset2 t2 j 2 c = Ok t3 ->
  (forall j r, nth_error t j = Some r -> length r = 3) ->
  j < length t /\ t3 = upd t j [a; b; c].
Proof.
  intros H1 H2 H3 HQ.
  apply vset2_inv in H1. destruct H1 as (r1 & E1 & L1 & -> & Hj).
  apply vset2_inv in H2. destruct H2 as (r2 & E2 & L2 & -> & _).
  apply vset2_inv in H3. destruct H3 as (r3 & E3 & L3 & -> & _).
  rewrite nth_error_upd_eq in E3 by (now rewrite upd_length). injection E3 as <-.
  rewrite nth_error_upd_eq in E2 by auto. injection E2 as <-.
  split; auto. rewrite !upd_upd. f_equal.
  apply HQ in E1. destruct r1 as [|? [|? [|? [|]]]]; simpl in E1; try lia. reflexivity.
Qed.
Lemma vset2_2 (t t1 t2 : list (list F)) j a b :
  vset2 t j 0 a = Ok t1 -> vset2 t1 j 1 b = Ok t2 ->
  (forall j r, nth_error t j = Some r -> length r = 2) ->
  j < length t /\ t2 = upd t j [a; b].
Proof.
  intros H1 H2 HQ.
  apply vset2_inv in H1. destruct H1 as (r1 & E1 & L1 & -> & Hj).
  apply vset2_inv in H2. destruct H2 as (r2 & E2 & L2 & -> & _).
  rewrite nth_error_upd_eq in E2 by auto. injection E2 as <-.
  split; auto. rewrite !upd_upd. f_equal.
  apply HQ in E1. destruct r1 as [|? [|? [|]]]; simpl in E1; try lia. reflexivity.
Qed.
Lemma vset_inv {A} (v v' : list A) i x : vset v i x = Ok v' -> i < length v /\ v' = upd v i x.
Proof. unfold vset. destruct (Nat.ltb_spec i (length v)); intros E; [|discriminate]. injection E as <-. auto. Qed.
Lemma vec_rows n k (x : F) j r : nth_error (vec n (vec k x)) j = Some r -> length r = k.
Proof. intros H. apply nth_error_In in H. apply repeat_spec in H. subst. apply vec_length. Qed.

Lemma Grid_make_tables b h cl Rmin Rmax nx nl nm nlat nphi (g : grid F) :
  Grid_make b h cl Rmin Rmax nx nl nm nlat nphi = Ok g ->
  g_bld g = b /\ g_cl g = cl /\ g_Rmin g = Rmin /\ g_Rmax g = Rmax /\
  g_nx g = nx /\ g_nl g = nl /\ g_nm g = nm /\ g_nlat g = nlat /\ g_nphi g = nphi /\
  Sphere_make h nl nm nlat nphi = Ok (g_sphere g) /\ rad_make b nx Rmin Rmax = Ok (g_radial g) /\
  (length (g_R_th_ph g) = nx * nphi * nlat /\ length (g_x_y_z g) = nx * nphi * nlat /\
   length (g_R_l g) = nx * nl /\ (use_cheb b = true -> length (g_n_l g) = nx * nl) /\
   length (g_dR g) = nx /\ length (g_d2R g) = nx) /\
  (forall ix it ip, ix < nx -> it < nlat -> ip < nphi -> exists R th,
     rad_pt (g_radial g) ix = Ok R /\ sp_theta (g_sphere g) it = Ok th /\
     let ph := sp_phi (g_sphere g) ip in
     nth_error (g_R_th_ph g) (ix_R_th_ph b nlat nphi ix it ip) = Some [R; th; ph] /\
     nth_error (g_x_y_z g) (ix_R_th_ph b nlat nphi ix it ip) =
       Some [(R * fcos ph * fsin th)%f; (R * fsin ph * fsin th)%f; (R * fcos th)%f]) /\
  (forall it ip, it < nlat -> ip < nphi -> exists th, sp_theta (g_sphere g) it = Ok th /\
     nth_error (g_th_ph g) (ix_th_ph b nlat nphi it ip) = Some [th; sp_phi (g_sphere g) ip]) /\
  (forall ix it, ix < nx -> it < nlat -> exists R th,
     rad_pt (g_radial g) ix = Ok R /\ sp_theta (g_sphere g) it = Ok th /\
     nth_error (g_R_th g) (ix_r_th nlat ix it) = Some [R; th] /\
     nth_error (g_x_z g) (ix_r_th nlat ix it) = Some [(R * fsin th)%f; (R * fcos th)%f]) /\
  (forall ix il, ix < nx -> il < nl -> exists R, rad_pt (g_radial g) ix = Ok R /\
     nth_error (g_R_l g) (ix_r_l nl ix il) = Some [R; fnat il] /\
     (use_cheb b = true -> nth_error (g_n_l g) (ix_r_l nl ix il) = Some [fnat ix; fnat il])) /\
  (forall ix, ix < nx -> exists R, rad_pt (g_radial g) ix = Ok R /\
     nth_error (g_dR g) ix = Some ((#1 - R / cl) ^^ 2)%f /\
     nth_error (g_d2R g) ix = Some ((#(-2) / cl) * ((#1 - R / cl) ^^ 3))%f).
Proof.
  unfold Grid_make. intros H.
  inv_bind H. rename x into sph. inv_bind H. rename x into rad.
  inv_bind H. destruct x as [a x]. inv_bind H. rename x0 into thph. inv_bind H. destruct x0 as [rth xz].
  inv_bind H. destruct x0 as [rl nl']. inv_bind H. destruct x0 as [dR d2R].
  injection H as <-. cbn.
  rewrite for3_as_list in E1. rewrite for2_as_list in E2. rewrite for2_as_list in E3. rewrite for2_as_list in E4. rewrite for_as_list in E5.
  assert (N3 : NoDup (list_prod (seq 0 nx) (list_prod (seq 0 nlat) (seq 0 nphi))))
    by (repeat apply NoDup_list_prod; apply seq_NoDup).
  assert (J3 : forall i j, In i (list_prod (seq 0 nx) (list_prod (seq 0 nlat) (seq 0 nphi))) ->
     In j (list_prod (seq 0 nx) (list_prod (seq 0 nlat) (seq 0 nphi))) ->
     ix_R_th_ph b nlat nphi (fst i) (fst (snd i)) (snd (snd i)) =
     ix_R_th_ph b nlat nphi (fst j) (fst (snd j)) (snd (snd j)) -> i = j).
  { intros [i1 [i2 i3]] [j1 [j2 j3]]; rewrite !In_pts3; simpl; intros ? ? E'.
    apply ix_R_th_ph_inj in E'; try lia. destruct E' as (-> & -> & ->). auto. }
  assert (J2 : forall n m (i j : nat * nat), In i (list_prod (seq 0 n) (seq 0 m)) ->
     In j (list_prod (seq 0 n) (seq 0 m)) -> m * fst i + snd i = m * fst j + snd j -> i = j).
  { intros n m [i1 i2] [j1 j2]; rewrite !In_pts2; simpl; intros ? ? E'.
    apply mul_add_inj in E'; try lia. destruct E' as (-> & ->). auto. }
  assert (N2 : forall n m, NoDup (list_prod (seq 0 n) (seq 0 m)))
    by (intros; apply NoDup_list_prod; apply seq_NoDup).
  (* the two 3d tables *)
  destruct (view_loop _ _ _ _ E1 fst (fun r => length r = 3) (fun p r => exists R th, rad_pt rad (fst p) = Ok R /\
       sp_theta sph (fst (snd p)) = Ok th /\ r = [R; th; sp_phi sph (snd (snd p))])
     (fun p => ix_R_th_ph b nlat nphi (fst p) (fst (snd p)) (snd (snd p))) N3 J3) as (LA & _ & VA & _).
  { apply vec_rows. }
  { intros p [s1 s2] [s1' s2'] Hp Hb HQ. cbn [fst snd] in *.
    repeat inv_bind Hb. injection Hb as <- <-.
    destruct (vset2_3 _ _ _ _ _ _ _ _ E8 E9 E10 HQ) as [Hlt ->].
    eexists; split; [|split; [|split; [exact Hlt|reflexivity]]]; [|reflexivity]. eauto 6. }
  destruct (view_loop _ _ _ _ E1 snd (fun r => length r = 3) (fun p r => exists R th, rad_pt rad (fst p) = Ok R /\
       sp_theta sph (fst (snd p)) = Ok th /\ r = [(R * fcos (sp_phi sph (snd (snd p))) * fsin th)%f;
          (R * fsin (sp_phi sph (snd (snd p))) * fsin th)%f; (R * fcos th)%f])
     (fun p => ix_R_th_ph b nlat nphi (fst p) (fst (snd p)) (snd (snd p))) N3 J3) as (LX & _ & VX & _).
  { apply vec_rows. }
  { intros p [s1 s2] [s1' s2'] Hp Hb HQ. cbn [fst snd] in *.
    repeat inv_bind Hb. injection Hb as <- <-.
    destruct (vset2_3 _ _ _ _ _ _ _ _ E11 E12 E13 HQ) as [Hlt ->].
    eexists; split; [|split; [|split; [exact Hlt|reflexivity]]]; [|reflexivity]. eauto 6. }
  (* th_ph *)
  destruct (view_loop _ _ _ _ E2 (fun t => t) (fun r => length r = 2) (fun p r => exists th,
       sp_theta sph (fst p) = Ok th /\ r = [th; sp_phi sph (snd p)])
     (fun p => ix_th_ph b nlat nphi (fst p) (snd p)) (N2 nlat nphi)) as (LT & _ & VT & _).
  { intros [i1 i2] [j1 j2]; rewrite !In_pts2; simpl; intros ? ? E'.
    apply ix_th_ph_inj in E'; try lia. destruct E' as (-> & ->). auto. }
  { apply vec_rows. }
  { intros p s1 s1' Hp Hb HQ. repeat inv_bind Hb.
    destruct (vset2_2 _ _ _ _ _ _ E7 Hb HQ) as [Hlt ->].
    eexists; split; [|split; [|split; [exact Hlt|reflexivity]]]; [|reflexivity]. eauto 6. }
  (* R_th, x_z *)
  destruct (view_loop _ _ _ _ E3 fst (fun r => length r = 2) (fun p r => exists R th, rad_pt rad (fst p) = Ok R /\
       sp_theta sph (snd p) = Ok th /\ r = [R; th])
     (fun p => ix_r_th nlat (fst p) (snd p)) (N2 nx nlat) (J2 nx nlat)) as (LRt & _ & VRt & _).
  { apply vec_rows. }
  { intros p [s1 s2] [s1' s2'] Hp Hb HQ. cbn [fst snd] in *.
    repeat inv_bind Hb. injection Hb as <- <-.
    destruct (vset2_2 _ _ _ _ _ _ E8 E9 HQ) as [Hlt ->].
    eexists; split; [|split; [|split; [exact Hlt|reflexivity]]]; [|reflexivity]. eauto 6. }
  destruct (view_loop _ _ _ _ E3 snd (fun r => length r = 2) (fun p r => exists R th, rad_pt rad (fst p) = Ok R /\
       sp_theta sph (snd p) = Ok th /\ r = [(R * fsin th)%f; (R * fcos th)%f])
     (fun p => ix_r_th nlat (fst p) (snd p)) (N2 nx nlat) (J2 nx nlat)) as (LXz & _ & VXz & _).
  { apply vec_rows. }
  { intros p [s1 s2] [s1' s2'] Hp Hb HQ. cbn [fst snd] in *.
    repeat inv_bind Hb. injection Hb as <- <-.
    destruct (vset2_2 _ _ _ _ _ _ E10 E11 HQ) as [Hlt ->].
    eexists; split; [|split; [|split; [exact Hlt|reflexivity]]]; [|reflexivity]. eauto 6. }
  (* R_l, n_l *)
  destruct (view_loop _ _ _ _ E4 fst (fun r => length r = 2) (fun p r => exists R, rad_pt rad (fst p) = Ok R /\
       r = [R; fnat (snd p)])
     (fun p => ix_r_l nl (fst p) (snd p)) (N2 nx nl) (J2 nx nl)) as (LRl & _ & VRl & _).
  { apply vec_rows. }
  { intros p [s1 s2] [s1' s2'] Hp Hb HQ. cbn [fst snd] in *.
    inv_bind Hb. inv_bind Hb. inv_bind Hb.
    destruct (vset2_2 _ _ _ _ _ _ E7 E8 HQ) as [Hlt ->].
    exists [x0; fnat (snd p)]. split; [eauto|]. split; [reflexivity|]. split; [exact Hlt|].
    destruct (use_cheb b); [repeat inv_bind Hb|]; injection Hb as <- _; reflexivity. }
  assert (VNl : use_cheb b = true -> length nl' = nx * nl /\ forall p, In p (list_prod (seq 0 nx) (seq 0 nl)) ->
     nth_error nl' (ix_r_l nl (fst p) (snd p)) = Some [fnat (fst p); fnat (snd p)]).
  { intros Hc. rewrite Hc in E4.
    destruct (view_loop _ _ _ _ E4 snd (fun r => length r = 2) (fun p r => r = [fnat (fst p); fnat (snd p)])
      (fun p => ix_r_l nl (fst p) (snd p)) (N2 nx nl) (J2 nx nl)) as (LN & _ & VN & _).
    { apply vec_rows. }
    { intros p [s1 s2] [s1' s2'] Hp Hb HQ. cbn [fst snd] in *.
      repeat inv_bind Hb. injection Hb as <- <-.
      destruct (vset2_2 _ _ _ _ _ _ E9 E10 HQ) as [Hlt ->].
      eexists; split; [|split; [|split; [exact Hlt|reflexivity]]]; reflexivity. }
    cbn [fst snd] in LN, VN. split. { rewrite LN. apply vec_length. }
    intros p Hp. destruct (VN p Hp) as (r & -> & E'). exact E'. }
  (* dR, d2R *)
  rewrite Nat.sub_0_r in E5.
  destruct (view_loop _ _ _ _ E5 fst (fun _ => True) (fun ix r => exists R, rad_pt rad ix = Ok R /\
       r = ((#1 - R / cl) ^^ 2)%f) (fun ix => ix) (seq_NoDup nx 0)) as (LdR & _ & VdR & _); auto.
  { intros ix [s1 s2] [s1' s2'] Hp Hb HQ. cbn [fst snd] in *.
    repeat inv_bind Hb. injection Hb as <- <-. apply vset_inv in E7. destruct E7 as [Hlt ->]. eauto 8. }
  destruct (view_loop _ _ _ _ E5 snd (fun _ => True) (fun ix r => exists R, rad_pt rad ix = Ok R /\
       r = ((#(-2) / cl) * ((#1 - R / cl) ^^ 3))%f) (fun ix => ix) (seq_NoDup nx 0)) as (Ld2R & _ & Vd2R & _); auto.
  { intros ix [s1 s2] [s1' s2'] Hp Hb HQ. cbn [fst snd] in *.
    repeat inv_bind Hb. injection Hb as <- <-. apply vset_inv in E8. destruct E8 as [Hlt ->]. eauto 8. }
  cbn [fst snd] in *. rewrite !vec_length in *.
  do 11 (split; [auto|]).
  split. { repeat split; auto. intros Hc. now apply VNl. }
  split; [|split; [|split; [|split]]].
  - intros ix it ip Hx Ht Hp.
    destruct (VA (ix, (it, ip))) as (r & (R & th & E1' & E2' & ->) & EA). { apply In_pts3; auto. }
    destruct (VX (ix, (it, ip))) as (r & (R' & th' & E1'' & E2'' & ->) & EX). { apply In_pts3; auto. }
    cbn [fst snd] in *. exists R, th. repeat split; auto. rewrite EX. congruence.
  - intros it ip Ht Hp. destruct (VT (it, ip)) as (r & (th & E1' & ->) & EA). { apply In_pts2; auto. }
    eauto.
  - intros ix it Hx Ht.
    destruct (VRt (ix, it)) as (r & (R & th & E1' & E2' & ->) & EA). { apply In_pts2; auto. }
    destruct (VXz (ix, it)) as (r & (R' & th' & E1'' & E2'' & ->) & EX). { apply In_pts2; auto. }
    cbn [fst snd] in *. exists R, th. repeat split; auto. rewrite EX. congruence.
  - intros ix il Hx Hl. destruct (VRl (ix, il)) as (r & (R & E1' & ->) & EA). { apply In_pts2; auto. }
    exists R. repeat split; auto. intros Hc. apply VNl in Hc. destruct Hc as [_ Hc].
    apply (Hc (ix, il)). apply In_pts2; auto.
  - intros ix Hx. destruct (VdR ix) as (r & (R & E1' & ->) & EA). { apply in_seq; lia. }
    destruct (Vd2R ix) as (r & (R' & E1'' & ->) & EX). { apply in_seq; lia. }
    exists R. repeat split; auto. rewrite EX. congruence.
Qed.
End Tables.
