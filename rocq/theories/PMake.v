(** The constructors succeed, and what they fill their tables with. *)
From Verif Require Import Base BaseLemmas ForList Arith MFd MCheb MSphere MGrid PGrid PTables.

Lemma for_fill {A} n (h : nat -> A) v : length v = n ->
  for_ 0 n (fun i v => vset v i (h i)) v = Ok (map h (seq 0 n)).
Proof.
  intros HL. rewrite (for_wr n 0 n _ (fun i => [(i, h i)])); auto.
  2:{ intros i o Hi Ho. rewrite vset_ok by lia. reflexivity. }
  rewrite Nat.sub_0_r, flat_map_single. f_equal. apply nth_error_ext. intros j.
  destruct (lt_dec j n) as [Hj|Hj].
  - rewrite (wr_map_in (seq 0 n) (fun i => i) h v j); auto; try lia.
    + symmetry. apply map_nth_error.
      rewrite (nth_error_nth' _ 0) by (rewrite seq_length; lia). rewrite seq_nth; auto.
    + apply in_seq; lia.
  - rewrite (wr_map_notin (seq 0 n) (fun i => i) h); [|intros i Hi; apply in_seq in Hi; lia].
    rewrite !(proj2 (nth_error_None _ _)); auto; [|lia]. rewrite map_length, seq_length. lia.
Qed.
Lemma nth_error_map_seq {A} n (h : nat -> A) i : i < n -> nth_error (map h (seq 0 n)) i = Some (h i).
Proof.
  intros H. apply map_nth_error.
  rewrite (nth_error_nth' _ 0) by (rewrite seq_length; lia). now rewrite seq_nth.
Qed.
Lemma nth_map_seq {A} n (h : nat -> A) i d : i < n -> nth i (map h (seq 0 n)) d = h i.
Proof. intros H. apply nth_error_nth. now apply nth_error_map_seq. Qed.

Section Make.
Context {F : Type} {AF : Arith F}.

Lemma Sphere_make_ok (h : sht F) nl nm nlat nphi :
  Sphere_make h nl nm nlat nphi = Ok (Sphr nl nm nlat nphi
    (map (fun i => ((- fnat i) * (fnat i + #1))%f) (seq 0 nl))
    (map (fun i => fexp (#(-40) * ((fnat i / fnat nl) ^^ 16)))%f (seq 0 nl))
    (s_nspat h) (nlm_calc nl nm) h).
Proof.
  unfold Sphere_make. rewrite for_fill by apply vec_length. cbn [bind].
  rewrite for_fill by apply vec_length. reflexivity.
Qed.

Lemma Cheb_make_ok b n (lower upper : F) : (2 <= n \/ ndebug b = true) ->
  Cheb_make b n lower upper = Ok (Chb n lower upper ((upper - lower) / #2)%f
    (map (fun i => ((upper - lower) / #2 * fcos (fpi * fnat i / (fnat n - #1)) + (upper + lower) / #2)%f) (seq 0 n))
    (map (fun i => fexp (#(-40) * ((fnat i / fnat n) ^^ 16)))%f (seq 0 n))
    (2 <=? n)).
Proof.
  intros H. unfold Cheb_make. rewrite for_fill by apply vec_length. cbn [bind].
  rewrite for_fill by apply vec_length. cbn [bind].
  destruct H as [H|H].
  - rewrite assert_true by now apply Nat.leb_le. reflexivity.
  - rewrite assert_ndebug by auto. reflexivity.
Qed.
Lemma Cheb_make_abort b n (lower upper : F) : n < 2 -> ndebug b = false -> Cheb_make b n lower upper = Abort.
Proof.
  intros H Hd. unfold Cheb_make. rewrite for_fill by apply vec_length. cbn [bind].
  rewrite for_fill by apply vec_length. cbn [bind].
  replace (2 <=? n) with false by (symmetry; apply Nat.leb_gt; lia). rewrite assert_fail by auto. reflexivity.
Qed.

Definition rad_n (r : radial F) : nat := match r with RFd g => fd_n g | RCh c => ch_n c end.

Lemma rad_make_ok b n (lower upper : F) : (use_cheb b = true -> 2 <= n \/ ndebug b = true) ->
  exists r, rad_make b n lower upper = Ok r /\ rad_n r = n /\ forall i, i < n -> exists R, rad_pt r i = Ok R.
Proof.
  intros H. unfold rad_make. destruct (use_cheb b).
  - rewrite Cheb_make_ok by auto. cbn [bind]. eexists; split; [reflexivity|]. split; [reflexivity|].
    intros i Hi. unfold rad_pt, cheb_pt, vget. cbn. rewrite nth_error_map_seq by auto. eauto.
  - eexists; split; [reflexivity|]. split; [reflexivity|]. intros. cbn. eauto.
Qed.

Lemma vset2_ok (t : list (list F)) w j k x : j < length t -> k < w ->
  (forall j r, nth_error t j = Some r -> length r = w) ->
  exists t', vset2 t j k x = Ok t' /\ length t' = length t /\ (forall j r, nth_error t' j = Some r -> length r = w).
Proof.
  intros Hj Hk HQ. unfold vset2, vget. destruct (nth_error t j) as [r|] eqn:E.
  2:{ apply nth_error_None in E. lia. }
  cbn [bind]. rewrite vset_ok by (erewrite HQ by eauto; auto). cbn [bind]. rewrite vset_ok by auto.
  eexists; split; [reflexivity|]. split; [apply upd_length|]. intros j' r' E'.
  rewrite nth_error_upd in E' by auto. destruct (Nat.eqb_spec j j').
  - injection E' as <-. rewrite upd_length. eauto.
  - eauto.
Qed.

Ltac do_vset2 w :=
  match goal with
  | |- exists s', bind (vset2 ?t ?j ?k ?x) _ = _ /\ _ =>
      let t' := fresh "t" in let E := fresh "E" in let L := fresh "L" in let Q := fresh "Q" in
      destruct (vset2_ok t w j k x) as (t' & E & L & Q);
        [first [lia | rewrite ?L; auto] | lia | assumption | rewrite E; cbn [bind]]
  end.

Theorem Grid_make_ok b (h : sht F) cl Rmin Rmax nx nl nm nlat nphi :
  nlat <= length (s_ct h) -> (use_cheb b = true -> 2 <= nx \/ ndebug b = true) ->
  exists g, Grid_make b h cl Rmin Rmax nx nl nm nlat nphi = Ok g.
Proof.
  intros Hct Hc. unfold Grid_make. rewrite Sphere_make_ok. cbn [bind].
  set (sph := Sphr _ _ _ _ _ _ _ _ _).
  destruct (rad_make_ok b nx Rmin Rmax Hc) as (rad & Er & _ & Hrad). rewrite Er. cbn [bind].
  assert (Hth : forall it, it < nlat -> exists th, sp_theta sph it = Ok th).
  { intros it Hit. unfold sp_theta, sph. cbn. unfold vget.
    destruct (nth_error (s_ct h) it) eqn:E; [cbn; eauto|]. apply nth_error_None in E. lia. }
  clearbody sph.
  pose (T2 := fun (w N : nat) (t : list (list F)) => length t = N /\ forall j r, nth_error t j = Some r -> length r = w).
  (* 3d *)
  rewrite for3_as_list.
  match goal with |- exists g, bind (for_list ?l ?bd ?s) _ = _ =>
    destruct (for_list_total (fun _ t => T2 3 (nx * nlat * nphi) (fst t) /\ T2 3 (nx * nlat * nphi) (snd t)) l bd s)
      as ([a x] & E1 & _) end.
  { cbn [fst snd]. unfold T2.
    replace (nx * nphi * nlat) with (nx * nlat * nphi) by lia. rewrite !vec_length. repeat split; auto; apply vec_rows. }
  { intros pre [ix [it ip]] post [t1 t2] Hd [[L1 Q1] [L2 Q2]]. cbn [fst snd] in *.
    assert (Hin : In (ix, (it, ip)) (list_prod (seq 0 nx) (list_prod (seq 0 nlat) (seq 0 nphi))))
      by (rewrite Hd; apply in_app_iff; right; left; auto).
    apply In_pts3 in Hin. cbn in Hin. destruct Hin as (Hx & Ht & Hp).
    pose proof (ix_R_th_ph_lt b nx nlat nphi ix it ip Hx Ht Hp) as Hj.
    destruct (Hrad ix Hx) as (R & ->). destruct (Hth it Ht) as (th & ->). cbn [bind].
    do_vset2 3. do_vset2 3. do_vset2 3. do_vset2 3. do_vset2 3. do_vset2 3.
    eexists; split; [reflexivity|]. cbn. unfold T2. repeat split; auto; lia. }
  rewrite E1. cbn [bind].
  (* th_ph *)
  rewrite for2_as_list.
  match goal with |- exists g, bind (for_list ?l ?bd ?s) _ = _ =>
    destruct (for_list_total (fun _ t => T2 2 (nlat * nphi) t) l bd s) as (tp & E2 & _) end.
  { unfold T2. rewrite vec_length. split; [lia|apply vec_rows]. }
  { intros pre [it ip] post t1 Hd [L1 Q1]. cbn [fst snd] in *.
    assert (Hin : In (it, ip) (list_prod (seq 0 nlat) (seq 0 nphi)))
      by (rewrite Hd; apply in_app_iff; right; left; auto).
    apply In_pts2 in Hin. cbn in Hin. destruct Hin as (Ht & Hp).
    pose proof (ix_th_ph_lt b nlat nphi it ip Ht Hp) as Hj.
    destruct (Hth it Ht) as (th & ->). cbn [bind].
    do_vset2 2.
    destruct (vset2_ok t 2 (ix_th_ph b nlat nphi it ip) 1 (sp_phi sph ip)) as (t' & E' & L' & Q'); auto; try lia.
    exists t'. split; auto. split; auto. lia. }
  rewrite E2. cbn [bind].
  (* R_th *)
  rewrite for2_as_list.
  match goal with |- exists g, bind (for_list ?l ?bd ?s) _ = _ =>
    destruct (for_list_total (fun _ t => T2 2 (nx * nlat) (fst t) /\ T2 2 (nx * nlat) (snd t)) l bd s)
      as ([rt xz] & E3 & _) end.
  { cbn [fst snd]. unfold T2. rewrite !vec_length. repeat split; auto; apply vec_rows. }
  { intros pre [ix it] post [t1 t2] Hd [[L1 Q1] [L2 Q2]]. cbn [fst snd] in *.
    assert (Hin : In (ix, it) (list_prod (seq 0 nx) (seq 0 nlat)))
      by (rewrite Hd; apply in_app_iff; right; left; auto).
    apply In_pts2 in Hin. cbn in Hin. destruct Hin as (Hx & Ht).
    assert (Hj : ix_r_th nlat ix it < nx * nlat) by (unfold ix_r_th; nia).
    destruct (Hrad ix Hx) as (R & ->). destruct (Hth it Ht) as (th & ->). cbn [bind].
    do_vset2 2. do_vset2 2. do_vset2 2. do_vset2 2.
    eexists; split; [reflexivity|]. cbn. unfold T2. repeat split; auto; lia. }
  rewrite E3. cbn [bind].
  (* R_l *)
  rewrite for2_as_list.
  match goal with |- exists g, bind (for_list ?l ?bd ?s) _ = _ =>
    destruct (for_list_total (fun _ t => T2 2 (nx * nl) (fst t) /\ (use_cheb b = true -> T2 2 (nx * nl) (snd t))) l bd s)
      as ([rl nn] & E4 & _) end.
  { cbn [fst snd]. unfold T2. rewrite !vec_length. split; [split; auto; apply vec_rows|].
    intros ->. rewrite vec_length. split; auto; apply vec_rows. }
  { intros pre [ix il] post [t1 t2] Hd [[L1 Q1] H2]. cbn [fst snd] in *.
    assert (Hin : In (ix, il) (list_prod (seq 0 nx) (seq 0 nl)))
      by (rewrite Hd; apply in_app_iff; right; left; auto).
    apply In_pts2 in Hin. cbn in Hin. destruct Hin as (Hx & Hl).
    assert (Hj : ix_r_l nl ix il < nx * nl) by (unfold ix_r_l; nia).
    destruct (Hrad ix Hx) as (R & ->). cbn [bind].
    do_vset2 2. do_vset2 2. destruct (use_cheb b).
    - destruct (H2 eq_refl) as [L2 Q2]. do_vset2 2. do_vset2 2.
      eexists; split; [reflexivity|]. cbn. unfold T2. repeat split; auto; lia.
    - eexists; split; [reflexivity|]. cbn. unfold T2. repeat split; auto; try lia; discriminate. }
  rewrite E4. cbn [bind].
  rewrite for_as_list.
  match goal with |- exists g, bind (for_list ?l ?bd ?s) _ = _ =>
    destruct (for_list_total (fun _ t => length (fst t) = nx /\ length (snd t) = nx) l bd s)
      as ([d1 d2] & E5 & _) end.
  { cbn. rewrite !vec_length. auto. }
  { intros pre ix post [t1 t2] Hd [L1 L2]. cbn [fst snd] in *.
    assert (Hin : In ix (seq 0 (nx - 0))) by (rewrite Hd; apply in_app_iff; right; left; auto).
    apply in_seq in Hin. destruct (Hrad ix ltac:(lia)) as (R & ->). cbn [bind].
    rewrite !vset_ok by lia. cbn [bind]. eexists; split; [reflexivity|].
    cbn. rewrite !upd_length. auto. }
  rewrite E5. cbn [bind]. eauto.
Qed.
End Make.
