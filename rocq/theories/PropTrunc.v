(** * Property C71: raise, lower and sphereX when fewer orders than degrees are kept. *)
From Coq Require Import Reals Lra.
From Coquelicot Require Import Coquelicot.
From Verif Require Import Base BaseLemmas ForList Arith MSphere PGrid PMake PSphere PSphere2 Spec SphereSpec LegSpec TruncSpec PSum PFdR PSphereR PropSphere PropLadder
  PLeg PSphereD PropSphereD.
Local Open Scope R_scope.

(** ** Layout *)
Section Layout.
Local Open Scope nat_scope.
Variable (M : nat).
Lemma tidx_low l m : l <= M -> tidx M l m = ci l m.
Proof. intros H. unfold tidx, ci. destruct (Nat.leb_spec l M); [auto|lia]. Qed.
Lemma tidx_high l m : M < l -> (- Z.of_nat M <= m <= Z.of_nat M)%Z ->
  Z.of_nat (tidx M l m) = ((Z.of_nat M + 1) * (Z.of_nat M + 1) + (Z.of_nat l - Z.of_nat M - 1) * (2 * Z.of_nat M + 1) + Z.of_nat M + m)%Z.
Proof. intros H Hm. unfold tidx. destruct (Nat.leb_spec l M); [lia|]. rewrite Z2Nat.id by nia. ring. Qed.
(** the dense position of degree l and order m is that of order m + (l-M)^2 in the true layout *)
Lemma tidx_dense l m : M < l -> (- Z.of_nat M <= m <= Z.of_nat M)%Z -> (- Z.of_nat l <= m)%Z ->
  Z.of_nat (ci l m) = (Z.of_nat (tidx M l m) + (Z.of_nat l - Z.of_nat M) * (Z.of_nat l - Z.of_nat M))%Z.
Proof. intros H Hm Hl. rewrite tidx_high by auto. unfold ci. rewrite Z2Nat.id by nia. ring. Qed.
Variable (L : nat).
Hypothesis HML : M <= L.
Lemma tsize_Z : Z.of_nat (tsize L M) = ((Z.of_nat M + 1) * (Z.of_nat M + 1) + (Z.of_nat L - Z.of_nat M) * (2 * Z.of_nat M + 1))%Z.
Proof. unfold tsize. rewrite !Nat2Z.inj_add, Nat2Z.inj_mul, Nat2Z.inj_sub, Nat2Z.inj_mul by lia. simpl (Z.of_nat 2). simpl (Z.of_nat 1). ring. Qed.
Lemma tidx_range l m : l <= L -> (- Z.of_nat (Nat.min l M) <= m <= Z.of_nat (Nat.min l M))%Z -> tidx M l m < tsize L M.
Proof.
  intros Hl Hm. apply Nat2Z.inj_lt. rewrite tsize_Z. destruct (le_lt_dec l M) as [H|H].
  - rewrite tidx_low by auto. unfold ci. rewrite Z2Nat.id by nia. nia.
  - rewrite tidx_high by lia. nia.
Qed.
Lemma tsize_le : tsize L M <= (L + 1) * (L + 1).
Proof. apply Nat2Z.inj_le. rewrite tsize_Z. nia. Qed.
Lemma tidx_surj p : (M + 1) * (M + 1) <= p < tsize L M -> exists l m, M < l <= L /\ (- Z.of_nat M <= m <= Z.of_nat M)%Z /\ tidx M l m = p.
Proof.
  intros [H1 H2]. apply Nat2Z.inj_lt in H2. rewrite tsize_Z in H2.
  set (w := (Z.of_nat p - (Z.of_nat M + 1) * (Z.of_nat M + 1))%Z) in *.
  set (k := (2 * Z.of_nat M + 1)%Z) in *.
  assert (Hk : (0 < k)%Z) by (unfold k; lia).
  assert (Hw : (0 <= w)%Z) by (unfold w; nia).
  pose proof (Z.div_mod w k ltac:(lia)) as D. pose proof (Z.mod_pos_bound w k Hk) as B.
  set (q := (w / k)%Z) in *. set (rm := (w mod k)%Z) in *.
  assert (Q0 : (0 <= q)%Z) by (apply Z.div_pos; lia).
  assert (QL : (q < Z.of_nat L - Z.of_nat M)%Z).
  { apply Z.div_lt_upper_bound; [lia|]. unfold w, k in *. nia. }
  exists (Z.to_nat (Z.of_nat M + 1 + q)), (rm - Z.of_nat M)%Z. split; [lia|]. split; [unfold k in *; lia|].
  apply Nat2Z.inj. rewrite tidx_high by (unfold k in *; lia). rewrite Z2Nat.id by lia. unfold w, k in *. lia.
Qed.
End Layout.

Section Trunc.
Variables (b : build) (h : sht R) (P : profiles) (s : sphere R).
Hypothesis Hlaw : lawful b h P.
Hypothesis Ht : tlawful b h P.
Hypothesis Hs : Sphr_of h s.
Hypothesis HL31 : (Z.of_nat (s_lmax h) < 2 ^ 31)%Z.
Local Notation L := (s_lmax h).
Local Notation M := (s_mmax h).
Local Notation K := (Nat.min L (M + 1)).
Local Notation N := (s_nlat h * s_nphi h)%nat.
Local Notation field a := (real_field P L M a).

Lemma HML : (M <= L)%nat.
Proof. apply (sh_mmax h (lw_shapes b h P Hlaw)). Qed.

Lemma field_LL a th ph : low K a -> real_field P L M a th ph = real_field P L L a th ph.
Proof.
  intros Ha. unfold real_field. apply Rsum_ext. intros l Hl. destruct (le_lt_dec l M) as [H|H].
  - now rewrite !Nat.min_l by lia.
  - assert (Z0 : forall n, Rsum n (fun m => mode P l m (a l m) th ph) = 0).
    { intros n. apply Rsum_zero. intros m _. rewrite Ha by lia. unfold mode. cbn. destruct (Nat.eqb m 0); ring. }
    now rewrite !Z0.
Qed.
Lemma tcre_eq c th ph : (forall l m, (M < l)%nat -> c l m = (0, 0)) ->
  tcre P L M c th ph = cre P L c th ph /\ tcim P L M c th ph = cim P L c th ph.
Proof.
  intros Hc. split; unfold tcre, tcim, cre, cim; apply Rsum_ext; intros l Hl; destruct (le_lt_dec l M) as [H|H];
    try (now rewrite Nat.min_l by lia);
    (etransitivity; [unfold msum; apply Rsum_zero; intros k _; rewrite Hc by auto; cbn [fst snd]; ring|
     symmetry; unfold msum; apply Rsum_zero; intros k _; rewrite Hc by auto; cbn [fst snd]; ring]).
Qed.
Lemma both_low a l m : low K a -> (K <= l)%nat -> both_signs a l m = (0, 0).
Proof. intros Ha Hl. unfold both_signs. assert (E : a l (Z.abs_nat m) = (0, 0)) by (apply Ha; auto). rewrite !E. destruct (m <? 0)%Z; [|auto]. destruct (Z.even m); cbn [fst snd]; apply (f_equal2 (@pair R R)); ring. Qed.

Lemma tpack a : low K a -> exists c, tstores h c (both_signs a).
Proof.
  intros Ha. destruct (cpack h (both_signs a)) as (c & Lc & Hc). exists c. split; auto. intros l m Hl Hm.
  destruct (le_lt_dec l M) as [H|H].
  - rewrite tidx_low by auto. apply Hc; lia.
  - assert (Hm' : (- Z.of_nat M <= m <= Z.of_nat M)%Z) by lia.
    assert (R1 : (tidx M l m < tsize L M)%nat) by (apply tidx_range; auto; apply HML).
    pose proof (tsize_le M L HML) as R2.
    destruct (ci_surj (L + 1) (tidx M l m) ltac:(lia)) as (l' & m' & Hl' & Hm2 & E).
    assert (Hb : (M < l')%nat).
    { destruct (le_lt_dec l' M) as [Hb|Hb]; [|exact Hb].
      assert (Hb2 : (ci l' m' < (M + 1) * (M + 1))%nat) by (apply ci_lt; [lia|exact Hm2]).
      pose proof (tidx_high M l m H Hm') as TH. rewrite E in Hb2. apply Nat2Z.inj_lt in Hb2. rewrite Nat2Z.inj_mul, Nat2Z.inj_add in Hb2. nia. }
    rewrite <- E. rewrite Hc by lia. rewrite (both_low a l' m' Ha) by lia. symmetry. apply both_low; [exact Ha|lia].
Qed.
Lemma anc_T a v : real_spectrum a -> low K a -> sampled b h (field a) v -> tstores h (s_anc h (embed v)) (both_signs a).
Proof.
  intros Ra Ha Hv. destruct (tpack a Ha) as (c & Hc).
  assert (Hv' : sampled b h (real_field P L L a) v) by (eapply sampled_ext; [|exact Hv]; intros; now apply field_LL).
  pose proof (embed_sampled b h P a v Ra Hv') as S1.
  pose proof (tl_syn b h P Ht c _ Hc) as S2.
  assert (S3 : csampled b h (cre P L (both_signs a)) (cim P L (both_signs a)) (s_syc h c)).
  { eapply csampled_ext_grid; [|exact S2]. intros it ip _ _. cbv beta. apply tcre_eq. intros l m Hl. apply both_low; auto. lia. }
  rewrite (csampled_unique b h _ _ _ _ S1 S3). now apply (tl_ana b h P Ht).
Qed.
(** the cells of the transform behind degree M hold zeros, up to the end of the stored coefficients *)
Lemma anc_zero a v p : real_spectrum a -> low K a -> sampled b h (field a) v ->
  ((M + 1) * (M + 1) <= p < tsize L M)%nat -> nth p (s_anc h (embed v)) (0, 0) = (0, 0).
Proof.
  intros Ra Ha Hv Hp. destruct (anc_T a v Ra Ha Hv) as [_ H]. destruct (tidx_surj M L HML p Hp) as (l & m & Hl & Hm & <-).
  rewrite H by lia. apply both_low; auto. lia.
Qed.
Lemma anc_low a v l m : real_spectrum a -> low K a -> sampled b h (field a) v -> (l <= M)%nat -> (- Z.of_nat l <= m <= Z.of_nat l)%Z ->
  nth (ci l m) (s_anc h (embed v)) (0, 0) = both_signs a l m.
Proof.
  intros Ra Ha Hv Hl Hm. destruct (anc_T a v Ra Ha Hv) as [_ H]. pose proof HML. rewrite <- (tidx_low M l m Hl). apply H; lia.
Qed.
Lemma pos_block p : ((M + 1) * (M + 1) <= p < tsize L M)%nat -> exists l m, (M < l <= L)%nat /\ (- Z.of_nat l <= m <= Z.of_nat l)%Z /\ ci l m = p.
Proof.
  intros Hp. pose proof (tsize_le M L HML) as R2. destruct (ci_surj (L + 1) p ltac:(lia)) as (l & m & Hl & Hm & E).
  exists l, m. split; [|auto]. destruct (le_lt_dec l M) as [Hb|Hb]; [|lia].
  assert (ci l m < (M + 1) * (M + 1))%nat by (replace (M + 1)%nat with (S M) by lia; apply ci_lt; lia). lia.
Qed.
Lemma raised_zero a l m : low K a -> (K <= l)%nat -> raised h a l m = (0, 0) /\ lowered h a l m = (0, 0).
Proof.
  intros Ha Hl. unfold raised, lowered. rewrite !both_low by auto. cbn. split; destruct (_ && _); auto; f_equal; ring.
Qed.

Lemma raise_T a v r : real_spectrum a -> low K a -> sampled b h (field a) v -> length r = N ->
  exists out, raise b s v r = Ok out /\ csampled b h (cre P L (raised h a)) (cim P L (raised h a)) out.
Proof.
  intros Ra Ha Hv Hr. pose proof (lw_shapes b h P Hlaw) as Hsh. pose proof HML as HM.
  destruct (raise_ok b h s Hsh Hs v r HL31 (proj1 Hv) Hr) as (y & E & Ly & _ & H1 & H2).
  change (@c0 R R_arith) with (0, 0) in *.
  eexists; split; [exact E|].
  assert (Hst : tstores h y (raised h a)).
  { split; auto. intros l m Hl Hm. destruct (le_lt_dec l M) as [Hlm|Hlm].
    - rewrite tidx_low by auto. unfold raised. destruct (Nat.ltb_spec l L) as [HlL|HlL].
      + etransitivity; [exact (H1 l m HlL ltac:(lia))|]. cbn [andb].
        destruct (Z.eqb_spec m (- Z.of_nat l)); cbn [negb]; [reflexivity|].
        rewrite (anc_low a v l (m - 1) Ra Ha Hv Hlm ltac:(lia)). unfold cscale, rfac. cbn [R_arith fmul fpowh fofZ]. reflexivity.
      + assert (l = L) by lia. subst l. cbn [andb]. etransitivity; [exact (H2 m ltac:(lia))|].
        etransitivity; [exact (anc_low a v L m Ra Ha Hv Hlm ltac:(lia))|]. apply both_low; auto. lia.
    - rewrite (proj1 (raised_zero a l m Ha ltac:(lia))).
      assert (Hp : ((M + 1) * (M + 1) <= tidx M l m < tsize L M)%nat).
      { split; [|apply tidx_range; auto]. pose proof (tidx_high M l m Hlm ltac:(lia)). nia. }
      destruct (pos_block _ Hp) as (l' & m' & Hl' & Hm' & Ep). rewrite <- Ep in *.
      destruct (Nat.eq_dec l' L) as [->|Hne].
      + etransitivity; [exact (H2 m' Hm')|]. exact (anc_zero a v _ Ra Ha Hv Hp).
      + etransitivity; [exact (H1 l' m' ltac:(lia) Hm')|]. destruct (Z.eqb_spec m' (- Z.of_nat l')); [reflexivity|].
        assert (Z0 : nth (ci l' (m' - 1)) (s_anc h (embed v)) (0, 0) = (0, 0)).
        { apply (anc_zero a v _ Ra Ha Hv). unfold ci in *. clear H1 H2. nia. }
        etransitivity; [apply f_equal; exact Z0|]. unfold cscale. cbn [fst snd R_arith fmul]. apply (f_equal2 (@pair R R)); ring. }
  eapply csampled_ext_grid; [|exact (tl_syn b h P Ht y _ Hst)]. intros it ip _ _. cbv beta. apply tcre_eq. intros l m Hl. apply raised_zero; auto. lia.
Qed.

(** lower also reads the cell behind the one it writes: the dense blocks of degree < L must end inside the stored coefficients *)
Lemma lower_T a v r : ((L - M) * (L - M) <= L + M + 1)%nat ->
  real_spectrum a -> low K a -> sampled b h (field a) v -> length r = N ->
  exists out, lower b s v r = Ok out /\ csampled b h (cre P L (lowered h a)) (cim P L (lowered h a)) out.
Proof.
  intros Hsz Ra Ha Hv Hr. pose proof (lw_shapes b h P Hlaw) as Hsh. pose proof HML as HM.
  destruct (lower_ok b h s Hsh Hs v r HL31 (proj1 Hv) Hr) as (y & E & Ly & _ & H1 & H2).
  change (@c0 R R_arith) with (0, 0) in *.
  eexists; split; [exact E|].
  assert (HQ : (L * L <= tsize L M)%nat).
  { apply Nat2Z.inj_le. rewrite tsize_Z by auto. apply Nat2Z.inj_le in Hsz. rewrite Nat2Z.inj_mul, Nat2Z.inj_sub in Hsz by auto. nia. }
  assert (Hst : tstores h y (lowered h a)).
  { split; auto. intros l m Hl Hm. destruct (le_lt_dec l M) as [Hlm|Hlm].
    - rewrite tidx_low by auto. unfold lowered. destruct (Nat.ltb_spec l L) as [HlL|HlL].
      + etransitivity; [exact (H1 l m HlL ltac:(lia))|]. cbn [andb].
        destruct (Z.eqb_spec m (Z.of_nat l)); cbn [negb]; [reflexivity|].
        rewrite (anc_low a v l (m + 1) Ra Ha Hv Hlm ltac:(lia)). unfold cscale, lfac. cbn [R_arith fmul fpowh fofZ]. reflexivity.
      + assert (l = L) by lia. subst l. cbn [andb]. etransitivity; [exact (H2 m ltac:(lia))|].
        etransitivity; [exact (anc_low a v L m Ra Ha Hv Hlm ltac:(lia))|]. apply both_low; auto. lia.
    - rewrite (proj2 (raised_zero a l m Ha ltac:(lia))).
      assert (Hp : ((M + 1) * (M + 1) <= tidx M l m < tsize L M)%nat).
      { split; [|apply tidx_range; auto]. pose proof (tidx_high M l m Hlm ltac:(lia)). nia. }
      destruct (pos_block _ Hp) as (l' & m' & Hl' & Hm' & Ep). rewrite <- Ep in *.
      destruct (Nat.eq_dec l' L) as [->|Hne].
      + etransitivity; [exact (H2 m' Hm')|]. exact (anc_zero a v _ Ra Ha Hv Hp).
      + etransitivity; [exact (H1 l' m' ltac:(lia) Hm')|]. destruct (Z.eqb_spec m' (Z.of_nat l')); [reflexivity|].
        assert (Z0 : nth (ci l' (m' + 1)) (s_anc h (embed v)) (0, 0) = (0, 0)).
        { apply (anc_zero a v _ Ra Ha Hv). unfold ci in *. clear H1 H2. nia. }
        etransitivity; [apply f_equal; exact Z0|]. unfold cscale. cbn [fst snd R_arith fmul]. apply (f_equal2 (@pair R R)); ring. }
  eapply csampled_ext_grid; [|exact (tl_syn b h P Ht y _ Hst)]. intros it ip _ _. cbv beta. apply tcre_eq. intros l m Hl. apply raised_zero; auto. lia.
Qed.
End Trunc.

(** ** The theorems: functions without content of degree above mmax, of order mmax or of degree lmax *)
Section C71.
Variables (b : build) (h : sht R) (s : sphere R).
Hypothesis Hlaw : lawful b h Ylm_profile.
Hypothesis Ht : tlawful b h Ylm_profile.
Hypothesis Hs : Sphr_of h s.
Hypothesis Hpoles : off_poles h.
Hypothesis HL31 : (Z.of_nat (s_lmax h) < 2 ^ 31)%Z.
Local Notation L := (s_lmax h).
Local Notation M := (s_mmax h).
Local Notation K := (Nat.min L (M + 1)).
Local Notation N := (s_nlat h * s_nphi h)%nat.
Local Notation field a := (real_field Ylm_profile L M a).

Lemma below_field a : low K a -> forall th ph, real_field Ylm_profile L L (below h a) th ph = field a th ph.
Proof.
  intros Ha th ph. rewrite below_same by (intros m; apply Ha; lia). symmetry. now apply field_LL.
Qed.
Lemma T_Lplus a : real_spectrum a -> low K a -> forall th ph, sin th <> 0 ->
  cre Ylm_profile L (raised h a) th ph = fst (Lplus (field a) th ph) /\
  cim Ylm_profile L (raised h a) th ph = snd (Lplus (field a) th ph).
Proof.
  intros Ra Ha th ph H. destruct (raised_is_Lplus L a Ra th ph H) as [E1 E2]. split.
  - etransitivity; [exact E1|]. unfold Lplus. cbn [fst snd].
    rewrite (d_theta_ext (real_field Ylm_profile L L (below h a)) (field a)), (d_phi_ext (real_field Ylm_profile L L (below h a)) (field a)) by (now apply below_field). reflexivity.
  - etransitivity; [exact E2|]. unfold Lplus. cbn [fst snd].
    rewrite (d_theta_ext (real_field Ylm_profile L L (below h a)) (field a)), (d_phi_ext (real_field Ylm_profile L L (below h a)) (field a)) by (now apply below_field). reflexivity.
Qed.

Theorem C71_raise_is_Lplus a v r :
  real_spectrum a -> low K a -> sampled b h (field a) v -> length r = N ->
  exists out, raise b s v r = Ok out /\
    csampled b h (fun th ph => fst (Lplus (field a) th ph)) (fun th ph => snd (Lplus (field a) th ph)) out.
Proof.
  intros Ra Ha Hv Hr. destruct (raise_T b h Ylm_profile s Hlaw Ht Hs HL31 a v r Ra Ha Hv Hr) as (out & E & Ho).
  exists out. split; auto. eapply csampled_ext_grid; [|exact Ho]. intros it ip Hi Hp. cbv beta.
  destruct (T_Lplus a Ra Ha (grid_theta h it) (grid_phi h ip) (off_poles_sin h it Hpoles Hi)) as [-> ->]. auto.
Qed.
Theorem C71_lower_is_Lminus a v r :
  ((L - M) * (L - M) <= L + M + 1)%nat ->
  real_spectrum a -> low K a -> sampled b h (field a) v -> length r = N ->
  exists out, lower b s v r = Ok out /\
    csampled b h (fun th ph => fst (Lminus (field a) th ph)) (fun th ph => snd (Lminus (field a) th ph)) out.
Proof.
  intros Hsz Ra Ha Hv Hr. destruct (lower_T b h Ylm_profile s Hlaw Ht Hs HL31 a v r Hsz Ra Ha Hv Hr) as (out & E & Ho).
  exists out. split; auto. eapply csampled_ext_grid; [|exact Ho]. intros it ip Hi Hp. cbv beta.
  destruct (lowered_conj h Ylm_profile a (grid_theta h it) (grid_phi h ip) Ra) as [-> ->].
  destruct (T_Lplus a Ra Ha (grid_theta h it) (grid_phi h ip) (off_poles_sin h it Hpoles Hi)) as [-> ->].
  unfold Lplus, Lminus. cbn [fst snd]. split; ring.
Qed.
(** sphereX f = (d f/d theta)^2 + (1/sin^2 theta) (d f/d phi)^2 *)
Theorem C71_sphereX_is_gradient_squared a v x :
  ((L - M) * (L - M) <= L + M + 1)%nat ->
  real_spectrum a -> inside L M a -> low K a -> sampled b h (field a) v -> length x = N ->
  exists out, sphereX b s v x = Ok out /\ sampled b h (gradient_squared (field a)) out.
Proof.
  intros Hsz Ra Hi Ha Hv Hx. pose proof (lw_shapes b h _ Hlaw) as Hsh.
  destruct (sphereX_ok b h s Hsh Hs v x HL31 (proj1 Hv) Hx) as (rv & lv & dp & out & Er & El & Ed & Eo & Lo & _ & _ & _ & Ho).
  destruct (C71_raise_is_Lplus a v (vec N c0) Ra Ha Hv (vec_length _ _)) as (rv' & Er' & Sr).
  destruct (C71_lower_is_Lminus a v (vec N c0) Hsz Ra Ha Hv (vec_length _ _)) as (lv' & El' & Sl).
  destruct (C28_is_d_phi b h s Hlaw Hs a v (vec N f0) Ra Hi Hv (vec_length _ _)) as (dp' & Ed' & Sd).
  assert (rv' = rv) by congruence. assert (lv' = lv) by congruence. assert (dp' = dp) by congruence. subst rv' lv' dp'.
  exists out. split; auto. split; [exact Lo|]. intros it ip Hit Hip.
  assert (Hpos : (spos b h it ip < N)%nat) by (now apply ix_th_ph_lt).
  etransitivity; [exact (Ho _ Hpos)|]. change (@c0 R R_arith) with (0, 0). change (@f0 R R_arith) with 0.
  etransitivity; [apply (f_equal2 Rplus); [apply f_equal, f_equal; apply (f_equal2 cmul); [exact (proj2 Sr it ip Hit Hip)|exact (proj2 Sl it ip Hit Hip)]|
     apply (f_equal (fun z => fpow z 2)); exact (proj2 Sd it ip Hit Hip)]|].
  rewrite <- (Lplus_norm (field a)) by (now apply off_poles_sin).
  unfold Lplus, Lminus, cmul. cbn [fst snd R_arith fadd fsub fmul fopp fpow]. ring.
Qed.
End C71.
