(** What each Sphere operator does to the coefficient array, for any arithmetic. *)
From Verif Require Import Base BaseLemmas ForList Arith MSphere MFd PFd PGrid PMake PSphere SphereSpec.
Local Open Scope f.

Section Ops.
Context {F : Type} {AF : Arith F}.
Variables (b : build) (h : sht F) (s : sphere F).
Hypothesis Hsh : shapes h.
Hypothesis Hs : Sphere_make h (s_lmax h) (s_mmax h) (s_nlat h) (s_nphi h) = Ok s.
Local Notation N := (s_nlat h * s_nphi h)%nat.
Local Notation L := (s_lmax h).
Local Notation M := (s_mmax h).
Local Notation nlm := (nlm_calc L M).

Lemma s_eq : s = Sphr L M (s_nlat h) (s_nphi h)
    (map (fun i => ((- fnat i) * (fnat i + #1))%f) (seq 0 L))
    (map (fun i => fexp (#(-40) * ((fnat i / fnat L) ^^ 16)))%f (seq 0 L))
    N nlm h.
Proof. rewrite Sphere_make_ok in Hs. injection Hs as <-. rewrite (sh_nspat h Hsh). reflexivity. Qed.

Definition lapf (l : nat) : F := (- fnat l) * (fnat l + #1).
Definition lpf (l : nat) : F := fexp (#(-40) * ((fnat l / fnat L) ^^ 16)).

Lemma nspat_eq {A} (v : list A) : length v = N -> length v = s_nspat h.
Proof. now rewrite (sh_nspat h Hsh). Qed.

(** the three operators that share the loop nest *)
Lemma lm_op_ok (body : nat -> nat -> cplx F -> res (cplx F)) (hh : nat -> nat -> cplx F -> cplx F) v d :
  length v = N -> length d = N ->
  (forall l m c, (l < L)%nat -> (m <= l)%nat -> (m < M)%nat -> body l m c = Ok (hh l m c)) ->
  exists y, (let! tmp := copy_in f0 (sp_nSph s) v in
             let! y := lm_loop s body (s_an (sp_shtns s) tmp) in
             copy_out (sp_nSph s) (s_sy (sp_shtns s) y) d) = Ok (s_sy h y) /\ length y = nlm /\
    length (s_sy h y) = N /\
    forall l m, (l <= L)%nat -> (m <= l)%nat -> (m <= M)%nat ->
      nth (LM L l m) y c0 = if (l <? L)%nat && (m <? M)%nat then hh l m (nth (LM L l m) (s_an h v) c0) else nth (LM L l m) (s_an h v) c0.
Proof.
  intros Hv Hd Hb. pose proof s_eq as E.
  assert (E1 : sp_nSph s = N) by now rewrite E. assert (E2 : sp_shtns s = h) by now rewrite E.
  assert (E3 : sp_lmax s = L) by now rewrite E. assert (E4 : sp_mmax s = M) by now rewrite E.
  rewrite E1, E2, copy_in_ok by auto. cbn [bind].
  destruct (lm_loop_ok s body hh (s_an h v)) as (y & Ey & Ly & Hy).
  - rewrite E3, E4. apply (sh_mmax h Hsh).
  - rewrite E3, E4. apply (sh_an h Hsh). now apply nspat_eq.
  - rewrite E3, E4. auto.
  - rewrite E3, E4 in Hy.
    assert (LY : length y = nlm) by (rewrite Ly; apply (sh_an h Hsh); now apply nspat_eq).
    exists y. rewrite Ey. cbn [bind].
    assert (LS : length (s_sy h y) = N) by (rewrite (sh_sy h Hsh) by auto; apply (sh_nspat h Hsh)).
    rewrite copy_out_ok by auto. auto.
Qed.

Lemma tab_get (t : nat -> F) l : (l < L)%nat -> vget (map t (seq 0 L)) l = Ok (t l).
Proof. intros H. apply vget_some. now apply nth_error_map_seq. Qed.

Lemma laplace_ok v d : length v = N -> length d = N ->
  exists y, laplace_beltrami b s v d = Ok (s_sy h y) /\ length y = nlm /\ length (s_sy h y) = N /\
    forall l m, (l <= L)%nat -> (m <= l)%nat -> (m <= M)%nat ->
      nth (LM L l m) y c0 = if (l <? L)%nat && (m <? M)%nat then cmulr (nth (LM L l m) (s_an h v) c0) (lapf l) else nth (LM L l m) (s_an h v) c0.
Proof.
  intros Hv Hd. unfold laplace_beltrami.
  assert (E1 : sp_nSph s = N) by now rewrite s_eq.
  rewrite !assert_true by (apply Nat.eqb_eq; congruence). cbn [bind].
  apply (lm_op_ok _ (fun l m c => cmulr c (lapf l))); auto.
  intros l m c Hl _ _. rewrite s_eq. cbn [sp_lap]. now rewrite tab_get.
Qed.
Lemma dphi_ok v d : length v = N -> length d = N ->
  exists y, partial_phi b s v d = Ok (s_sy h y) /\ length y = nlm /\ length (s_sy h y) = N /\
    forall l m, (l <= L)%nat -> (m <= l)%nat -> (m <= M)%nat ->
      nth (LM L l m) y c0 = if (l <? L)%nat && (m <? M)%nat
        then cmul (nth (LM L l m) (s_an h v) c0) (cmul (#0, #1) (fnat m, #0)) else nth (LM L l m) (s_an h v) c0.
Proof.
  intros Hv Hd. unfold partial_phi.
  assert (E1 : sp_nSph s = N) by now rewrite s_eq.
  rewrite !assert_true by (apply Nat.eqb_eq; congruence). cbn [bind].
  apply (lm_op_ok _ (fun l m c => cmul c (cmul (#0, #1) (fnat m, #0)))); auto.
Qed.
Lemma filter_ok v : length v = N ->
  exists y, sp_filter b s v = Ok (s_sy h y) /\ length y = nlm /\ length (s_sy h y) = N /\
    forall l m, (l <= L)%nat -> (m <= l)%nat -> (m <= M)%nat ->
      nth (LM L l m) y c0 = if (l <? L)%nat && (m <? M)%nat
        then cmulr (nth (LM L l m) (s_an h v) c0) (lpf l * lpf m) else nth (LM L l m) (s_an h v) c0.
Proof.
  intros Hv. unfold sp_filter.
  assert (E1 : sp_nSph s = N) by now rewrite s_eq.
  rewrite !assert_true by (apply Nat.eqb_eq; congruence). cbn [bind].
  apply (lm_op_ok _ (fun l m c => cmulr c (lpf l * lpf m))); auto.
  intros l m c Hl Hm Hm'. rewrite s_eq. cbn [sp_low_pass].
  rewrite (tab_get (fun i => fexp (#(-40) * ((fnat i / fnat L) ^^ 16)))) by auto. cbn [bind].
  rewrite (tab_get (fun i => fexp (#(-40) * ((fnat i / fnat L) ^^ 16)))) by lia. reflexivity.
Qed.

(** ** transforms *)
Lemma to_Ylm_ok v y : length v = N -> length y = nlm -> to_Ylm b s v y = Ok (s_an h v).
Proof.
  intros Hv Hy. unfold to_Ylm. rewrite s_eq. cbn [sp_nSph sp_nYlm sp_shtns].
  rewrite !assert_true by (apply Nat.eqb_eq; congruence). cbn [bind].
  rewrite copy_in_ok by auto. cbn [bind]. apply copy_out_ok; auto. apply (sh_an h Hsh). now apply nspat_eq.
Qed.
Lemma to_Sph_ok y v : length v = N -> length y = nlm -> to_Sph b s y v = Ok (s_sy h y).
Proof.
  intros Hv Hy. unfold to_Sph. rewrite s_eq. cbn [sp_nSph sp_nYlm sp_shtns].
  rewrite !assert_true by (apply Nat.eqb_eq; congruence). cbn [bind].
  rewrite copy_in_ok by auto. cbn [bind]. apply copy_out_ok; auto.
  rewrite (sh_sy h Hsh) by auto. apply (sh_nspat h Hsh).
Qed.

(** ** raise and lower *)
Lemma yidx_ok (l : nat) (m : Z) : (Z.of_nat l < 2 ^ 31)%Z -> (- Z.of_nat l <= m <= Z.of_nat l)%Z ->
  yidx (Z.of_nat l) m = ci l m.
Proof.
  intros Hl Hm. unfold yidx, ci, u64. f_equal. apply Z.mod_small. nia.
Qed.
Lemma i32_ok (l : nat) : (Z.of_nat l < 2 ^ 31)%Z -> i32 (Z.of_nat l) = Z.of_nat l.
Proof. intros H. unfold i32. rewrite Z.mod_small; lia. Qed.

(** the mathematical factors *)
Definition rfac (l : nat) (m : Z) : F := fpowh (fofZ ((Z.of_nat l - m + 1) * (Z.of_nat l + m))).
Definition lfac (l : nat) (m : Z) : F := fpowh (fofZ ((Z.of_nat l + m + 1) * (Z.of_nat l - m))).
Lemma raise_fac_ok (l : nat) (m : Z) : (Z.of_nat l < 2 ^ 31)%Z -> (- Z.of_nat l <= m <= Z.of_nat l)%Z ->
  raise_fac (Z.of_nat l) m = rfac l m.
Proof. intros Hl Hm. unfold raise_fac, rfac, u64. rewrite !(Z.mod_small (_ + _)) by lia.
  rewrite Z.mod_small; auto. nia. Qed.
Lemma lower_fac_ok (l : nat) (m : Z) : (Z.of_nat l < 2 ^ 31)%Z -> (- Z.of_nat l <= m <= Z.of_nat l)%Z ->
  lower_fac (Z.of_nat l) m = lfac l m.
Proof. intros Hl Hm. unfold lower_fac, lfac, u64. rewrite (Z.mod_small (_ + _ + 1)) by lia.
  rewrite (Z.mod_small (_ - m)) by lia. rewrite Z.mod_small; auto. nia. Qed.

Lemma ci_lt l m K : (l < K)%nat -> (- Z.of_nat l <= m <= Z.of_nat l)%Z -> (ci l m < K * K)%nat.
Proof. intros Hl Hm. unfold ci. apply Nat2Z.inj_lt. rewrite Z2Nat.id by nia. nia. Qed.
Lemma ci_inj l m l' m' : (- Z.of_nat l <= m <= Z.of_nat l)%Z -> (- Z.of_nat l' <= m' <= Z.of_nat l')%Z ->
  ci l m = ci l' m' -> l = l' /\ m = m'.
Proof.
  intros H H' E. unfold ci in E. apply Z2Nat.inj in E; try nia.
  assert (l = l') by nia. subst. split; auto. lia.
Qed.

Local Notation zb l m := (- Z.of_nat l <= m <= Z.of_nat l)%Z.

Lemma raise_inner l y K : (Z.of_nat l < 2 ^ 31)%Z -> (l < K)%nat -> length y = (K * K)%nat ->
  exists y', for_ 0 (Z.to_nat (2 * Z.of_nat l)) (fun k y =>
      let m := (Z.of_nat l - Z.of_nat k)%Z in
      let! c := vget y (yidx (Z.of_nat l) (m - 1)) in
      vset y (yidx (Z.of_nat l) m) (cscale (raise_fac (Z.of_nat l) m) c)) y = Ok y' /\ length y' = length y /\
    (forall m, (- Z.of_nat l < m <= Z.of_nat l)%Z -> nth (ci l m) y' c0 = cscale (rfac l m) (nth (ci l (m - 1)) y c0)) /\
    (forall j, (forall m, (- Z.of_nat l < m <= Z.of_nat l)%Z -> ci l m <> j) -> nth j y' c0 = nth j y c0).
Proof.
  intros Hl HK HL.
  destruct (for_inv (fun k y1 => length y1 = length y /\
    (forall m, (Z.of_nat l - Z.of_nat k < m <= Z.of_nat l)%Z -> nth (ci l m) y1 c0 = cscale (rfac l m) (nth (ci l (m - 1)) y c0)) /\
    (forall j, (forall m, (Z.of_nat l - Z.of_nat k < m <= Z.of_nat l)%Z -> ci l m <> j) -> nth j y1 c0 = nth j y c0))
    0 (Z.to_nat (2 * Z.of_nat l)) (fun k y =>
      let m := (Z.of_nat l - Z.of_nat k)%Z in
      let! c := vget y (yidx (Z.of_nat l) (m - 1)) in
      vset y (yidx (Z.of_nat l) m) (cscale (raise_fac (Z.of_nat l) m) c)) y) as (y' & E & L1 & H1 & H2).
  - lia.
  - repeat split; auto; intros; lia.
  - intros k y1 Hk (L1 & H1 & H2). cbv zeta. set (m := (Z.of_nat l - Z.of_nat k)%Z).
    assert (Hm : zb l m) by lia. assert (Hm1 : zb l (m - 1)) by lia.
    rewrite (yidx_ok l m), (yidx_ok l (m - 1)), raise_fac_ok by auto.
    pose proof (ci_lt l m K HK Hm). pose proof (ci_lt l (m - 1) K HK Hm1).
    rewrite (vget_ok _ _ c0) by lia. cbn [bind]. rewrite vset_ok by lia.
    eexists; split; [reflexivity|]. split; [now rewrite upd_length|]. split.
    + intros m' Hm'. destruct (Z.eq_dec m' m) as [->|Hne].
      * rewrite nth_upd_eq by lia. f_equal. apply H2. intros m'' Hm'' Ec. apply ci_inj in Ec; lia.
      * rewrite nth_upd_neq by (intros Ec; apply ci_inj in Ec; lia). apply H1. lia.
    + intros j Hj. rewrite nth_upd_neq by (apply Hj; lia). apply H2. intros m' Hm'. apply Hj. lia.
  - exists y'. split; auto. split; auto. split.
    + intros m Hm. apply H1. lia.
    + intros j Hj. apply H2. intros m Hm. apply Hj. lia.
Qed.

Lemma lower_inner l y K : (Z.of_nat l < 2 ^ 31)%Z -> (l < K)%nat -> length y = (K * K)%nat ->
  exists y', for_ 0 (Z.to_nat (2 * Z.of_nat l)) (fun k y =>
      let m := (- Z.of_nat l + Z.of_nat k)%Z in
      let! c := vget y (yidx (Z.of_nat l) (m + 1)) in
      vset y (yidx (Z.of_nat l) m) (cscale (lower_fac (Z.of_nat l) m) c)) y = Ok y' /\ length y' = length y /\
    (forall m, (- Z.of_nat l <= m < Z.of_nat l)%Z -> nth (ci l m) y' c0 = cscale (lfac l m) (nth (ci l (m + 1)) y c0)) /\
    (forall j, (forall m, (- Z.of_nat l <= m < Z.of_nat l)%Z -> ci l m <> j) -> nth j y' c0 = nth j y c0).
Proof.
  intros Hl HK HL.
  destruct (for_inv (fun k y1 => length y1 = length y /\
    (forall m, (- Z.of_nat l <= m < - Z.of_nat l + Z.of_nat k)%Z -> nth (ci l m) y1 c0 = cscale (lfac l m) (nth (ci l (m + 1)) y c0)) /\
    (forall j, (forall m, (- Z.of_nat l <= m < - Z.of_nat l + Z.of_nat k)%Z -> ci l m <> j) -> nth j y1 c0 = nth j y c0))
    0 (Z.to_nat (2 * Z.of_nat l)) (fun k y =>
      let m := (- Z.of_nat l + Z.of_nat k)%Z in
      let! c := vget y (yidx (Z.of_nat l) (m + 1)) in
      vset y (yidx (Z.of_nat l) m) (cscale (lower_fac (Z.of_nat l) m) c)) y) as (y' & E & L1 & H1 & H2).
  - lia.
  - repeat split; auto; intros; lia.
  - intros k y1 Hk (L1 & H1 & H2). cbv zeta. set (m := (- Z.of_nat l + Z.of_nat k)%Z).
    assert (Hm : zb l m) by lia. assert (Hm1 : zb l (m + 1)) by lia.
    rewrite (yidx_ok l m), (yidx_ok l (m + 1)), lower_fac_ok by auto.
    pose proof (ci_lt l m K HK Hm). pose proof (ci_lt l (m + 1) K HK Hm1).
    rewrite (vget_ok _ _ c0) by lia. cbn [bind]. rewrite vset_ok by lia.
    eexists; split; [reflexivity|]. split; [now rewrite upd_length|]. split.
    + intros m' Hm'. destruct (Z.eq_dec m' m) as [->|Hne].
      * rewrite nth_upd_eq by lia. f_equal. apply H2. intros m'' Hm'' Ec. apply ci_inj in Ec; lia.
      * rewrite nth_upd_neq by (intros Ec; apply ci_inj in Ec; lia). apply H1. lia.
    + intros j Hj. rewrite nth_upd_neq by (apply Hj; lia). apply H2. intros m' Hm'. apply Hj. lia.
  - exists y'. split; auto. split; auto. split.
    + intros m Hm. apply H1. lia.
    + intros j Hj. apply H2. intros m Hm. apply Hj. lia.
Qed.

Lemma raise_coefs_ok y : (Z.of_nat L < 2 ^ 31)%Z -> length y = ((L + 1) * (L + 1))%nat ->
  exists y', raise_coefs s y = Ok y' /\ length y' = length y /\
    (forall l m, (l < L)%nat -> zb l m ->
       nth (ci l m) y' c0 = if (m =? - Z.of_nat l)%Z then c0 else cscale (rfac l m) (nth (ci l (m - 1)) y c0)) /\
    (forall m, zb L m -> nth (ci L m) y' c0 = nth (ci L m) y c0).
Proof.
  intros HL Hy. unfold raise_coefs. assert (E3 : sp_lmax s = L) by now rewrite s_eq. rewrite E3.
  match goal with |- exists y', for_ 0 L ?bd y = _ /\ _ =>
    destruct (for_inv (fun l0 y1 => length y1 = length y /\
    (forall l m, (l < l0)%nat -> zb l m ->
         nth (ci l m) y1 c0 = if (m =? - Z.of_nat l)%Z then c0 else cscale (rfac l m) (nth (ci l (m - 1)) y c0)) /\
    (forall l m, (l0 <= l <= L)%nat -> zb l m -> nth (ci l m) y1 c0 = nth (ci l m) y c0)) 0 L bd y) as (y' & E & L1 & H1 & H2)
  end.
  - lia.
  - repeat split; auto; intros; lia.
  - intros l y1 Hl (L1 & H1 & H2). cbv zeta. rewrite i32_ok by lia.
    destruct (raise_inner l y1 (L + 1)) as (y2 & E2 & L2 & H3 & H4); try lia.
    cbv zeta in E2. rewrite E2. cbn [bind]. rewrite yidx_ok by lia.
    pose proof (ci_lt l (- Z.of_nat l) (L + 1) ltac:(lia) ltac:(lia)).
    rewrite vset_ok by lia. eexists; split; [reflexivity|]. split; [rewrite upd_length; lia|]. split.
    + intros l' m' Hl' Hm'. destruct (Nat.eq_dec l' l) as [->|Hne].
      * destruct (Z.eqb_spec m' (- Z.of_nat l)) as [->|Hm0].
        -- now rewrite nth_upd_eq by lia.
        -- rewrite nth_upd_neq by (intros Ec; apply ci_inj in Ec; lia).
           rewrite H3 by lia. f_equal. apply H2; lia.
      * rewrite nth_upd_neq by (intros Ec; apply ci_inj in Ec; lia).
        rewrite H4; [apply H1; auto; lia|]. intros m Hm Ec. apply ci_inj in Ec; lia.
    + intros l' m' Hl' Hm'. rewrite nth_upd_neq by (intros Ec; apply ci_inj in Ec; lia).
      rewrite H4; [apply H2; auto; lia|]. intros m Hm Ec. apply ci_inj in Ec; lia.
  - exists y'. split; [auto|]. split; [auto|]. split; [auto|]. intros m Hm. apply H2; auto; lia.
Qed.

Lemma lower_coefs_ok y : (Z.of_nat L < 2 ^ 31)%Z -> length y = ((L + 1) * (L + 1))%nat ->
  exists y', lower_coefs s y = Ok y' /\ length y' = length y /\
    (forall l m, (l < L)%nat -> zb l m ->
       nth (ci l m) y' c0 = if (m =? Z.of_nat l)%Z then c0 else cscale (lfac l m) (nth (ci l (m + 1)) y c0)) /\
    (forall m, zb L m -> nth (ci L m) y' c0 = nth (ci L m) y c0).
Proof.
  intros HL Hy. unfold lower_coefs. assert (E3 : sp_lmax s = L) by now rewrite s_eq. rewrite E3.
  match goal with |- exists y', for_ 0 L ?bd y = _ /\ _ =>
    destruct (for_inv (fun l0 y1 => length y1 = length y /\
    (forall l m, (l < l0)%nat -> zb l m ->
         nth (ci l m) y1 c0 = if (m =? Z.of_nat l)%Z then c0 else cscale (lfac l m) (nth (ci l (m + 1)) y c0)) /\
    (forall l m, (l0 <= l <= L)%nat -> zb l m -> nth (ci l m) y1 c0 = nth (ci l m) y c0)) 0 L bd y) as (y' & E & L1 & H1 & H2)
  end.
  - lia.
  - repeat split; auto; intros; lia.
  - intros l y1 Hl (L1 & H1 & H2). cbv zeta. rewrite i32_ok by lia.
    destruct (lower_inner l y1 (L + 1)) as (y2 & E2 & L2 & H3 & H4); try lia.
    cbv zeta in E2. rewrite E2. cbn [bind]. rewrite yidx_ok by lia.
    pose proof (ci_lt l (Z.of_nat l) (L + 1) ltac:(lia) ltac:(lia)).
    rewrite vset_ok by lia. eexists; split; [reflexivity|]. split; [rewrite upd_length; lia|]. split.
    + intros l' m' Hl' Hm'. destruct (Nat.eq_dec l' l) as [->|Hne].
      * destruct (Z.eqb_spec m' (Z.of_nat l)) as [->|Hm0].
        -- now rewrite nth_upd_eq by lia.
        -- rewrite nth_upd_neq by (intros Ec; apply ci_inj in Ec; lia).
           rewrite H3 by lia. f_equal. apply H2; lia.
      * rewrite nth_upd_neq by (intros Ec; apply ci_inj in Ec; lia).
        rewrite H4; [apply H1; auto; lia|]. intros m Hm Ec. apply ci_inj in Ec; lia.
    + intros l' m' Hl' Hm'. rewrite nth_upd_neq by (intros Ec; apply ci_inj in Ec; lia).
      rewrite H4; [apply H2; auto; lia|]. intros m Hm Ec. apply ci_inj in Ec; lia.
  - exists y'. split; [auto|]. split; [auto|]. split; [auto|]. intros m Hm. apply H2; auto; lia.
Qed.

(** embedding of real data *)
Definition embed (v : list F) : list (cplx F) := map (fun x => (x, #0)) v.
Lemma embed_length v : length (embed v) = length v.
Proof. apply map_length. Qed.

Lemma raise_ok v r : (Z.of_nat L < 2 ^ 31)%Z -> length v = N -> length r = N ->
  exists y, raise b s v r = Ok (s_syc h y) /\ length y = ((L + 1) * (L + 1))%nat /\ length (s_syc h y) = N /\
    (forall l m, (l < L)%nat -> zb l m ->
       nth (ci l m) y c0 = if (m =? - Z.of_nat l)%Z then c0 else cscale (rfac l m) (nth (ci l (m - 1)) (s_anc h (embed v)) c0)) /\
    (forall m, zb L m -> nth (ci L m) y c0 = nth (ci L m) (s_anc h (embed v)) c0).
Proof.
  intros HL Hv Hr. unfold raise.
  assert (E1 : sp_nSph s = N) by now rewrite s_eq. assert (E2 : sp_shtns s = h) by now rewrite s_eq.
  rewrite E1, E2. rewrite !assert_true by (apply Nat.eqb_eq; congruence). cbn [bind].
  rewrite copy_re_ok by auto. cbn [bind]. fold (embed v).
  destruct (raise_coefs_ok (s_anc h (embed v))) as (y & E & Ly & H1 & H2); auto.
  { apply (sh_anc h Hsh). rewrite embed_length. now apply nspat_eq. }
  rewrite (sh_anc h Hsh) in Ly by (rewrite embed_length; now apply nspat_eq).
  exists y. rewrite E. cbn [bind].
  assert (LS : length (s_syc h y) = N) by (rewrite (sh_syc h Hsh) by auto; apply (sh_nspat h Hsh)).
  rewrite copy_out_ok by auto. auto.
Qed.
Lemma lower_ok v r : (Z.of_nat L < 2 ^ 31)%Z -> length v = N -> length r = N ->
  exists y, lower b s v r = Ok (s_syc h y) /\ length y = ((L + 1) * (L + 1))%nat /\ length (s_syc h y) = N /\
    (forall l m, (l < L)%nat -> zb l m ->
       nth (ci l m) y c0 = if (m =? Z.of_nat l)%Z then c0 else cscale (lfac l m) (nth (ci l (m + 1)) (s_anc h (embed v)) c0)) /\
    (forall m, zb L m -> nth (ci L m) y c0 = nth (ci L m) (s_anc h (embed v)) c0).
Proof.
  intros HL Hv Hr. unfold lower.
  assert (E1 : sp_nSph s = N) by now rewrite s_eq. assert (E2 : sp_shtns s = h) by now rewrite s_eq.
  rewrite E1, E2. rewrite !assert_true by (apply Nat.eqb_eq; congruence). cbn [bind].
  rewrite copy_re_ok by auto. cbn [bind]. fold (embed v).
  destruct (lower_coefs_ok (s_anc h (embed v))) as (y & E & Ly & H1 & H2); auto.
  { apply (sh_anc h Hsh). rewrite embed_length. now apply nspat_eq. }
  rewrite (sh_anc h Hsh) in Ly by (rewrite embed_length; now apply nspat_eq).
  exists y. rewrite E. cbn [bind].
  assert (LS : length (s_syc h y) = N) by (rewrite (sh_syc h Hsh) by auto; apply (sh_nspat h Hsh)).
  rewrite copy_out_ok by auto. auto.
Qed.

(** sphereX combines the three point by point *)
Lemma sphereX_ok v x : (Z.of_nat L < 2 ^ 31)%Z -> length v = N -> length x = N ->
  exists rv lv dp out, raise b s v (vec N c0) = Ok rv /\ lower b s v (vec N c0) = Ok lv /\
    partial_phi b s v (vec N f0) = Ok dp /\ sphereX b s v x = Ok out /\ length out = N /\
    length rv = N /\ length lv = N /\ length dp = N /\
    forall i, (i < N)%nat -> nth i out f0 =
      (- (fst (cmul (nth i rv c0) (nth i lv c0))) + (nth i dp f0) ^^ 2)%f.
Proof.
  intros HL Hv Hx.
  destruct (raise_ok v (vec N c0) HL Hv (vec_length _ _)) as (yr & Er & _ & Lr & _).
  destruct (lower_ok v (vec N c0) HL Hv (vec_length _ _)) as (yl & El & _ & Ll & _).
  destruct (dphi_ok v (vec N f0) Hv (vec_length _ _)) as (yd & Ed & _ & Ld & _).
  unfold sphereX. assert (E1 : sp_nSph s = N) by now rewrite s_eq. rewrite E1.
  rewrite !assert_true by (apply Nat.eqb_eq; congruence). cbn [bind].
  rewrite Er, El, Ed. cbn [bind].
  rewrite (for_ext 0 N _ (fun i vX => vset vX i
     (- (fst (cmul (nth i (s_syc h yr) c0) (nth i (s_syc h yl) c0))) + (nth i (s_sy h yd) f0) ^^ 2)%f)).
  2:{ intros k o Hk. rewrite (vget_ok (s_syc h yr) k c0), (vget_ok (s_syc h yl) k c0), (vget_ok (s_sy h yd) k f0) by lia. reflexivity. }
  rewrite for_fill by auto.
  do 4 eexists. split; [reflexivity|]. split; [reflexivity|]. split; [reflexivity|]. split; [reflexivity|].
  rewrite map_length, seq_length. repeat split; auto. intros i Hi. now rewrite nth_map_seq.
Qed.

(** power spectrum *)
Lemma power_ok v p : length v = N -> length p = L ->
  exists q, power_spectrum b s v p = Ok q /\ length q = L /\
    forall l, (l < L)%nat -> nth l q f0 =
      fold_left (fun acc m => (acc + #2 * (fst (nth (LM L l m) (s_an h v) c0) ^^ 2 + snd (nth (LM L l m) (s_an h v) c0) ^^ 2))%f)
        (seq 1 (Nat.min (l + 1) M - 1))
        (fst (nth (LM L l 0) (s_an h v) c0) ^^ 2 + snd (nth (LM L l 0) (s_an h v) c0) ^^ 2)%f.
Proof.
  intros Hv Hp. unfold power_spectrum.
  assert (E1 : sp_nSph s = N) by now rewrite s_eq. assert (E2 : sp_shtns s = h) by now rewrite s_eq.
  assert (E3 : sp_lmax s = L) by now rewrite s_eq. assert (E4 : sp_mmax s = M) by now rewrite s_eq.
  rewrite E1, E2, E3, E4. rewrite !assert_true by (apply Nat.eqb_eq; congruence). cbn [bind].
  rewrite copy_in_ok by auto. cbn [bind]. set (y := s_an h v).
  assert (Ly : length y = nlm) by (apply (sh_an h Hsh); now apply nspat_eq).
  pose proof (sh_mmax h Hsh) as HM.
  set (sq := fun l m => (fst (nth (LM L l m) y c0) ^^ 2 + snd (nth (LM L l m) y c0) ^^ 2)%f).
  set (tot := fun l => fold_left (fun acc m => (acc + #2 * sq l m)%f) (seq 1 (Nat.min (l + 1) M - 1)) (sq l 0%nat)).
  destruct (for_fill_range L 0 L (fun l p =>
    let! c := vget y (LM L l 0) in
    let! p := vset p l (fst c ^^ 2 + snd c ^^ 2)%f in
    for_ 1 (Nat.min (l + 1) M) (fun m p =>
      let! c := vget y (LM L l m) in
      let! x := vget p l in
      vset p l (x + #2 * (fst c ^^ 2 + snd c ^^ 2))%f) p) tot p) as (q & E & Lq & Hq); auto.
  - intros l o Hl Ho.
    rewrite (vget_ok y _ c0) by (rewrite Ly; apply LM_lt; lia). cbn [bind]. rewrite vset_ok by lia. cbn [bind].
    fold (sq l 0%nat).
    assert (G : forall n j acc, (1 <= j)%nat -> (j + n <= Nat.max 1 (Nat.min (l + 1) M))%nat ->
      loop n j (fun m p =>
      let! c := vget y (LM L l m) in
      let! x := vget p l in
      vset p l (x + #2 * (fst c ^^ 2 + snd c ^^ 2))%f) (upd o l acc) =
      Ok (upd o l (fold_left (fun acc m => (acc + #2 * sq l m)%f) (seq j n) acc))).
    { induction n as [|n IH]; intros j acc Hj Hn; simpl; auto.
      rewrite (vget_ok y _ c0) by (rewrite Ly; apply LM_lt; lia). cbn [bind].
      rewrite (vget_ok _ _ f0) by (rewrite upd_length; lia). cbn [bind].
      rewrite nth_upd_eq by lia. rewrite vset_ok by (rewrite upd_length; lia). cbn [bind].
      replace (upd (upd o l acc) l (acc + #2 * (fst (nth (LM L l j) y c0) ^^ 2 + snd (nth (LM L l j) y c0) ^^ 2))%f)
        with (upd o l (acc + #2 * sq l j)%f).
      - apply IH; lia.
      - fold (sq l j). generalize (acc + #2 * sq l j)%f. intros z. clear. revert l.
        induction o as [|w o IHo]; intros [|l]; simpl; auto. now rewrite IHo. }
    unfold for_. rewrite G by lia. reflexivity.
  - exists q. split; [exact E|]. split; auto. intros l Hl. rewrite Hq.
    destruct (Nat.leb_spec 0 l), (Nat.ltb_spec l L); simpl; try lia. reflexivity.
Qed.

(** compute_ylm *)
Lemma compute_ylm_ok l m : (LM L l m < nlm)%nat ->
  compute_ylm b s l m = Ok (s_sy h (upd (vec nlm c0) (LM L l m) (#1, #0))).
Proof.
  intros H. unfold compute_ylm. assert (E3 : sp_lmax s = L) by now rewrite s_eq.
  assert (E5 : sp_nYlm s = nlm) by now rewrite s_eq. assert (E1 : sp_nSph s = N) by now rewrite s_eq.
  rewrite E3, E5, E1. rewrite vset_ok by now rewrite vec_length. cbn [bind].
  apply to_Sph_ok; [apply vec_length|]. now rewrite upd_length, vec_length.
Qed.
End Ops.
