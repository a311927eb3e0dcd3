(** * Property C71, continued: content of degree above mmax is mis-addressed. *)
From Coq Require Import Reals Lra.
From Coquelicot Require Import Coquelicot.
From Verif Require Import Base BaseLemmas ForList Arith MSphere PGrid PMake PSphere PSphere2 Spec SphereSpec LegSpec TruncSpec PSum PFdR PSphereR PropSphere PropLadder
  PLeg PSphereD PropSphereD PropSphereInst PropTrunc PropTruncInst.
Local Open Scope R_scope.

Lemma ci_shift l m : (- Z.of_nat l < m <= Z.of_nat l)%Z -> ci l m = S (ci l (m - 1)).
Proof. intros H. unfold ci. rewrite <- Z2Nat.inj_succ by nia. f_equal. lia. Qed.
Section Above.
Variables (b : build) (h : sht R) (s : sphere R).
Hypothesis Hlaw : lawful b h Ylm_profile.
Hypothesis Ht : tlawful b h Ylm_profile.
Hypothesis Hs : Sphr_of h s.
Hypothesis Hpoles : off_poles h.
Hypothesis HL31 : (Z.of_nat (s_lmax h) < 2 ^ 31)%Z.
Local Notation L := (s_lmax h).
Local Notation M := (s_mmax h).
Local Notation N := (s_nlat h * s_nphi h)%nat.
Local Notation field a := (real_field Ylm_profile L M a).
Hypothesis HM1 : (1 <= M)%nat.
Hypothesis HML2 : (M + 2 <= L)%nat.
Hypothesis Hsz : ((L - M) * (L - M) <= L + M + 1)%nat.
Variable x : R.
Local Notation l0 := (M + 1)%nat.
Local Notation k := (single l0 0 (x, 0)).
Let p := tidx M l0 0.
Definition delta (l0 : nat) (m0 : Z) (c : R * R) : cspectrum := fun l m => if (l =? l0)%nat && (m =? m0)%Z then c else (0, 0).

Lemma p_val : p = ((M + 1) * (M + 1) + M)%nat.
Proof. apply Nat2Z.inj. unfold p. rewrite tidx_high by lia. nia. Qed.
Lemma k_real : real_spectrum k.
Proof. now apply single_real. Qed.
Lemma k_both l m : both_signs k l m = delta l0 0 (x, 0) l m.
Proof.
  unfold both_signs, single, delta. destruct (Nat.eqb_spec l l0), (Z.eqb_spec m 0) as [->|H]; cbn [andb].
  - reflexivity.
  - destruct (Nat.eqb_spec (Z.abs_nat m) 0); [lia|]. cbn [fst snd]. destruct (m <? 0)%Z; auto. destruct (Z.even m); apply (f_equal2 (@pair R R)); ring.
  - reflexivity.
  - destruct (m <? 0)%Z; auto. destruct (Z.even m); apply (f_equal2 (@pair R R)); cbn [fst snd]; ring.
Qed.
Lemma k_field th ph : field k th ph = real_field Ylm_profile L L k th ph.
Proof.
  unfold real_field. apply Rsum_ext. intros l Hl. destruct (le_lt_dec l M) as [H|H]; [now rewrite !Nat.min_l by lia|].
  rewrite Nat.min_r, Nat.min_l by lia. replace (l + 1)%nat with (M + 1 + (l - M))%nat by lia. rewrite (Rsum_split (M + 1) (l - M)).
  rewrite (Rsum_zero (l - M)); [ring|]. intros i _. unfold single. destruct (Nat.eqb_spec (M + 1 + i) 0); [lia|].
  rewrite andb_false_r. unfold mode. destruct (Nat.eqb_spec (M + 1 + i) 0); [lia|]. cbn [fst snd]. ring.
Qed.
Lemma cell_surj q : (q < tsize L M)%nat -> exists l m, (l <= L)%nat /\ (- Z.of_nat (Nat.min l M) <= m <= Z.of_nat (Nat.min l M))%Z /\ tidx M l m = q.
Proof.
  intros Hq. destruct (le_lt_dec ((M + 1) * (M + 1)) q) as [H|H].
  - destruct (tidx_surj M L (HML b h _ Hlaw) q (conj H Hq)) as (l & m & ? & ? & ?). exists l, m. split; [lia|]. split; [lia|auto].
  - destruct (ci_surj (M + 1) q H) as (l & m & ? & ? & E). exists l, m. split; [lia|]. split; [lia|]. now rewrite tidx_low by lia.
Qed.
(** the transform of the data has one non-zero cell *)
Lemma anc_cell v : sampled b h (field k) v -> forall q, (q < tsize L M)%nat -> nth q (s_anc h (embed v)) (0, 0) = if (q =? p)%nat then (x, 0) else (0, 0).
Proof.
  intros Hv q Hq. pose proof (HML b h _ Hlaw) as HM.
  assert (S1 : csampled b h (cre Ylm_profile L (both_signs k)) (cim Ylm_profile L (both_signs k)) (embed v)).
  { apply embed_sampled; [apply k_real|]. eapply sampled_ext; [|exact Hv]. intros; apply k_field. }
  pose proof (tlist_stores h (both_signs k) HM) as Hst.
  pose proof (tl_syn b h _ Ht _ _ Hst) as S2.
  assert (S3 : csampled b h (cre Ylm_profile L (both_signs k)) (cim Ylm_profile L (both_signs k)) (s_syc h (tlist L M (both_signs k)))).
  { eapply csampled_ext_grid; [|exact S2]. intros it ip _ _. cbv beta. apply tcre_full. intros l m Hm. rewrite k_both. unfold delta.
    destruct (Z.eqb_spec m 0); [lia|]. now rewrite andb_false_r. }
  rewrite (csampled_unique b h _ _ _ _ S1 S3). destruct (tl_ana b h _ Ht _ _ Hst) as [_ Hn].
  destruct (cell_surj q Hq) as (l & m & Hl & Hm & <-). rewrite Hn by auto. rewrite k_both. unfold delta, p.
  destruct (Nat.eqb_spec (tidx M l m) (tidx M l0 0)) as [E|E].
  - destruct (tidx_inj M l m l0 0) as [-> ->]; auto; [lia|]. rewrite Nat.eqb_refl. reflexivity.
  - destruct (Nat.eqb_spec l l0) as [->|], (Z.eqb_spec m 0) as [->|]; cbn [andb]; auto. congruence.
Qed.
Lemma p_bounds : ((M + 1) * (M + 1) < p /\ p + 1 < L * L /\ L * L <= tsize L M)%nat.
Proof.
  pose proof p_val as E. repeat split.
  - rewrite E. lia.
  - rewrite E. assert ((M + 2) * (M + 2) <= L * L)%nat by (apply Nat.mul_le_mono; lia). lia.
  - pose proof (HML b h _ Hlaw) as HM. apply Nat2Z.inj_le. rewrite tsize_Z by auto. apply Nat2Z.inj_le in Hsz. rewrite Nat2Z.inj_mul, Nat2Z.inj_sub in Hsz by auto. nia.
Qed.
Lemma stored_delta y m0 c q0 : (- Z.of_nat M <= m0 <= Z.of_nat M)%Z -> tidx M l0 m0 = q0 -> length y = ((L + 1) * (L + 1))%nat ->
  (forall q, (q < tsize L M)%nat -> nth q y (0, 0) = if (q =? q0)%nat then c else (0, 0)) -> tstores h y (delta l0 m0 c).
Proof.
  intros Hm0 E0 Ly H. split; auto. intros l m Hl Hm. rewrite H by (apply tidx_range; auto; apply (HML b h _ Hlaw)). unfold delta.
  destruct (Nat.eqb_spec (tidx M l m) q0) as [E|E].
  - rewrite <- E0 in E. destruct (tidx_inj M l m l0 m0) as [-> ->]; auto; [lia|]. now rewrite Nat.eqb_refl, Z.eqb_refl.
  - destruct (Nat.eqb_spec l l0) as [->|], (Z.eqb_spec m m0) as [->|]; cbn [andb]; auto. congruence.
Qed.
Definition kr : R := sqrt (INR (l0 * (l0 + 1))).
Definition kl : R := sqrt (INR ((l0 - 1) * (l0 + 2))).
Lemma raise_cell v r : sampled b h (field k) v -> length r = N ->
  exists out, raise b s v r = Ok out /\ csampled b h (cre Ylm_profile L (delta l0 1 (kr * x, 0))) (cim Ylm_profile L (delta l0 1 (kr * x, 0))) out.
Proof.
  intros Hv Hr. pose proof (lw_shapes b h _ Hlaw) as Hsh. pose proof (HML b h _ Hlaw) as HM. pose proof p_bounds as (P1 & P2 & P3).
  destruct (raise_ok b h s Hsh Hs v r HL31 (proj1 Hv) Hr) as (y & E & Ly & _ & H1 & H2).
  change (@c0 R R_arith) with (0, 0) in *. pose proof (anc_cell v Hv) as Hc.
  eexists; split; [exact E|].
  assert (Hst : tstores h y (delta l0 1 (kr * x, 0))).
  { apply (stored_delta y 1 _ (p + 1)); auto; [lia| |].
    { apply Nat2Z.inj. rewrite Nat2Z.inj_add. unfold p. rewrite !tidx_high by lia. lia. }
    intros q Hq. destruct (ci_surj (L + 1) q) as (l' & m' & Hl' & Hm' & Eq); [pose proof (tsize_le M L HM); lia|].
    assert (CI : ci l0 0 = (p + 1)%nat). { rewrite p_val. unfold ci. apply Nat2Z.inj. rewrite Z2Nat.id by nia. nia. }
    destruct (Nat.eq_dec l' L) as [->|Hne].
    - rewrite <- Eq at 1. etransitivity; [exact (H2 m' Hm')|]. rewrite Eq. etransitivity; [exact (Hc q Hq)|].
      assert (L * L <= q)%nat. { rewrite <- Eq. unfold ci. apply Nat2Z.inj_le. rewrite Z2Nat.id by nia. nia. }
      destruct (Nat.eqb_spec q p); [lia|]. destruct (Nat.eqb_spec q (p + 1)); [lia|]. reflexivity.
    - rewrite <- Eq at 1. etransitivity; [exact (H1 l' m' ltac:(lia) Hm')|]. destruct (Z.eqb_spec m' (- Z.of_nat l')) as [Em|Em].
      + destruct (Nat.eqb_spec q (p + 1)) as [E1|]; auto. rewrite <- CI in E1. rewrite E1 in Eq. destruct (ci_inj l' m' l0 0); auto; lia.
      + pose proof (ci_shift l' m' ltac:(lia)) as SH.
        assert (V : nth (ci l' (m' - 1)) (s_anc h (embed v)) (0, 0) = if (q =? p + 1)%nat then (x, 0) else (0, 0)).
        { rewrite Hc by lia. destruct (Nat.eqb_spec (ci l' (m' - 1)) p), (Nat.eqb_spec q (p + 1)); auto; lia. }
        etransitivity; [apply f_equal; exact V|]. destruct (Nat.eqb_spec q (p + 1)) as [E1|].
        * rewrite <- CI in E1. rewrite E1 in Eq. destruct (ci_inj l' m' l0 0) as [-> ->]; auto; [lia|].
          unfold cscale, rfac. cbn [fst snd R_arith fmul fpowh fofZ]. apply (f_equal2 (@pair R R)); [|ring].
          unfold kr. do 2 f_equal. rewrite INR_IZR_INZ. f_equal. lia.
        * unfold cscale. cbn [fst snd R_arith fmul]. apply (f_equal2 (@pair R R)); ring. }
  eapply csampled_ext_grid; [|exact (tl_syn b h _ Ht y _ Hst)]. intros it ip _ _. cbv beta. apply tcre_full. intros l m Hm. unfold delta.
  destruct (Z.eqb_spec m 1); [lia|]. now rewrite andb_false_r.
Qed.
Lemma lower_cell v r : sampled b h (field k) v -> length r = N ->
  exists out, lower b s v r = Ok out /\ csampled b h (cre Ylm_profile L (delta l0 (-1) (kl * x, 0))) (cim Ylm_profile L (delta l0 (-1) (kl * x, 0))) out.
Proof.
  intros Hv Hr. pose proof (lw_shapes b h _ Hlaw) as Hsh. pose proof (HML b h _ Hlaw) as HM. pose proof p_bounds as (P1 & P2 & P3).
  destruct (lower_ok b h s Hsh Hs v r HL31 (proj1 Hv) Hr) as (y & E & Ly & _ & H1 & H2).
  change (@c0 R R_arith) with (0, 0) in *. pose proof (anc_cell v Hv) as Hc.
  eexists; split; [exact E|].
  assert (Hst : tstores h y (delta l0 (-1) (kl * x, 0))).
  { apply (stored_delta y (-1) _ (p - 1)); auto; [lia| |].
    { apply Nat2Z.inj. rewrite Nat2Z.inj_sub by lia. unfold p. rewrite !tidx_high by lia. lia. }
    intros q Hq. destruct (ci_surj (L + 1) q) as (l' & m' & Hl' & Hm' & Eq); [pose proof (tsize_le M L HM); lia|].
    assert (CI : ci l0 (-2) = (p - 1)%nat). { rewrite p_val. unfold ci. apply Nat2Z.inj. rewrite Z2Nat.id by nia. rewrite Nat2Z.inj_sub by lia. nia. }
    destruct (Nat.eq_dec l' L) as [->|Hne].
    - rewrite <- Eq at 1. etransitivity; [exact (H2 m' Hm')|]. rewrite Eq. etransitivity; [exact (Hc q Hq)|].
      assert (L * L <= q)%nat. { rewrite <- Eq. unfold ci. apply Nat2Z.inj_le. rewrite Z2Nat.id by nia. nia. }
      destruct (Nat.eqb_spec q p); [lia|]. destruct (Nat.eqb_spec q (p - 1)); [lia|]. reflexivity.
    - rewrite <- Eq at 1. etransitivity; [exact (H1 l' m' ltac:(lia) Hm')|]. destruct (Z.eqb_spec m' (Z.of_nat l')) as [Em|Em].
      + destruct (Nat.eqb_spec q (p - 1)) as [E1|]; auto. rewrite <- CI in E1. rewrite E1 in Eq. destruct (ci_inj l' m' l0 (-2)); auto; lia.
      + pose proof (ci_shift l' (m' + 1) ltac:(lia)) as SH. replace (m' + 1 - 1)%Z with m' in SH by lia.
        assert (B : (ci l' (m' + 1) < L * L)%nat) by (apply ci_lt; lia).
        assert (V : nth (ci l' (m' + 1)) (s_anc h (embed v)) (0, 0) = if (q =? p - 1)%nat then (x, 0) else (0, 0)).
        { rewrite Hc by lia. destruct (Nat.eqb_spec (ci l' (m' + 1)) p), (Nat.eqb_spec q (p - 1)); auto; lia. }
        etransitivity; [apply f_equal; exact V|]. destruct (Nat.eqb_spec q (p - 1)) as [E1|].
        * rewrite <- CI in E1. rewrite E1 in Eq. destruct (ci_inj l' m' l0 (-2)) as [-> ->]; auto; [lia|].
          unfold cscale, lfac. cbn [fst snd R_arith fmul fpowh fofZ]. apply (f_equal2 (@pair R R)); [|ring].
          unfold kl. do 2 f_equal. rewrite INR_IZR_INZ. f_equal. rewrite Nat2Z.inj_mul, Nat2Z.inj_sub by lia. lia.
        * unfold cscale. cbn [fst snd R_arith fmul]. apply (f_equal2 (@pair R R)); ring. }
  eapply csampled_ext_grid; [|exact (tl_syn b h _ Ht y _ Hst)]. intros it ip _ _. cbv beta. apply tcre_full. intros l m Hm. unfold delta.
  destruct (Z.eqb_spec m (-1)); [lia|]. now rewrite andb_false_r.
Qed.
(** the true raised and lowered spectra *)
Lemma raised_k l m : raised h k l m = delta l0 1 (kr * x, 0) l m.
Proof.
  unfold raised, delta. rewrite k_both. unfold delta. destruct (Nat.eqb_spec l l0) as [->|Hl], (Z.eqb_spec m 1) as [->|Hm]; cbn [andb].
  - destruct (Nat.ltb_spec l0 L); [|lia]. destruct (Z.eqb_spec 1 (- Z.of_nat l0)); [lia|]. cbn [andb negb]. change (1 - 1 =? 0)%Z with true. cbv iota zeta. cbn [fst snd].
    apply (f_equal2 (@pair R R)); [|ring]. unfold kr. do 2 f_equal. rewrite INR_IZR_INZ. f_equal. lia.
  - destruct (Z.eqb_spec (m - 1) 0); [lia|]. destruct (_ && _); auto. cbn [fst snd]. apply (f_equal2 (@pair R R)); ring.
  - destruct (_ && _); auto. cbn [fst snd]. apply (f_equal2 (@pair R R)); ring.
  - destruct (_ && _); auto. cbn [fst snd]. apply (f_equal2 (@pair R R)); ring.
Qed.
Lemma lowered_k l m : lowered h k l m = delta l0 (-1) (kr * x, 0) l m.
Proof.
  unfold lowered, delta. rewrite k_both. unfold delta. destruct (Nat.eqb_spec l l0) as [->|Hl], (Z.eqb_spec m (-1)) as [->|Hm]; cbn [andb].
  - destruct (Nat.ltb_spec l0 L); [|lia]. destruct (Z.eqb_spec (-1) (Z.of_nat l0)); [lia|]. cbn [andb negb]. change (-1 + 1 =? 0)%Z with true. cbv iota zeta. cbn [fst snd].
    apply (f_equal2 (@pair R R)); [|ring]. unfold kr. do 2 f_equal. rewrite INR_IZR_INZ. f_equal. lia.
  - destruct (Z.eqb_spec (m + 1) 0); [lia|]. destruct (_ && _); auto. cbn [fst snd]. apply (f_equal2 (@pair R R)); ring.
  - destruct (_ && _); auto. cbn [fst snd]. apply (f_equal2 (@pair R R)); ring.
  - destruct (_ && _); auto. cbn [fst snd]. apply (f_equal2 (@pair R R)); ring.
Qed.
Lemma cre_delta m0 c1 kk th ph :
  cre Ylm_profile L (delta l0 m0 (kk * c1, 0)) th ph = kk * cre Ylm_profile L (delta l0 m0 (c1, 0)) th ph /\
  cim Ylm_profile L (delta l0 m0 (kk * c1, 0)) th ph = kk * cim Ylm_profile L (delta l0 m0 (c1, 0)) th ph.
Proof.
  split; unfold cre, cim; rewrite <- Rsum_scal; apply Rsum_ext; intros l _; rewrite <- msum_scal; apply msum_ext; intros m _; unfold delta;
    destruct (_ && _); cbn [fst snd]; ring.
Qed.
Lemma k_Lplus th ph : sin th <> 0 ->
  cre Ylm_profile L (raised h k) th ph = fst (Lplus (field k) th ph) /\ cim Ylm_profile L (raised h k) th ph = snd (Lplus (field k) th ph).
Proof.
  assert (B : forall t q, real_field Ylm_profile L L (below h k) t q = field k t q).
  { intros t q. rewrite below_same; [symmetry; apply k_field|]. intros m. unfold single. destruct (Nat.eqb_spec L l0); [lia|]. reflexivity. }
  intros H. destruct (raised_is_Lplus L k k_real th ph H) as [E1 E2]. split.
  - etransitivity; [exact E1|]. unfold Lplus. cbn [fst snd].
    rewrite (d_theta_ext (real_field Ylm_profile L L (below h k)) (field k)), (d_phi_ext (real_field Ylm_profile L L (below h k)) (field k)) by exact B. reflexivity.
  - etransitivity; [exact E2|]. unfold Lplus. cbn [fst snd].
    rewrite (d_theta_ext (real_field Ylm_profile L L (below h k)) (field k)), (d_phi_ext (real_field Ylm_profile L L (below h k)) (field k)) by exact B. reflexivity.
Qed.
Definition deficit : R := sqrt (INR ((l0 - 1) * (l0 + 2)) / INR (l0 * (l0 + 1))).
Lemma deficit_ok : kl = deficit * kr /\ 0 < deficit < 1.
Proof.
  assert (A : 0 < INR (l0 * (l0 + 1))) by (apply lt_0_INR; nia).
  assert (B : 0 < INR ((l0 - 1) * (l0 + 2))) by (apply lt_0_INR; nia).
  assert (C : INR ((l0 - 1) * (l0 + 2)) < INR (l0 * (l0 + 1))) by (apply lt_INR; nia).
  assert (D : 0 < INR ((l0 - 1) * (l0 + 2)) / INR (l0 * (l0 + 1))) by (now apply Rdiv_lt_0_compat).
  split; [|split].
  - unfold kl, kr, deficit. rewrite <- sqrt_mult by lra. f_equal. field. lra.
  - unfold deficit. now apply sqrt_lt_R0.
  - unfold deficit. rewrite <- sqrt_1. apply sqrt_lt_1; try lra. apply Rmult_lt_reg_r with (INR (l0 * (l0 + 1))); auto.
    unfold Rdiv. rewrite Rmult_assoc, Rinv_l, Rmult_1_r, Rmult_1_l by lra. exact C.
Qed.

(** sphereX of the axisymmetric harmonic of degree mmax+1 < lmax is too small, by the same factor at every point *)
Theorem C71_above_mmax_refuted v xs : sampled b h (field k) v -> length xs = N ->
  exists out, sphereX b s v xs = Ok out /\
    sampled b h (fun th ph => sqrt (INR (M * (M + 3)) / INR ((M + 1) * (M + 2))) * gradient_squared (field k) th ph) out /\
    0 < sqrt (INR (M * (M + 3)) / INR ((M + 1) * (M + 2))) < 1.
Proof.
  intros Hv Hx. pose proof (lw_shapes b h _ Hlaw) as Hsh.
  replace (sqrt (INR (M * (M + 3)) / INR ((M + 1) * (M + 2)))) with deficit.
  2:{ unfold deficit. do 3 f_equal; [|f_equal]; nia. }
  destruct (sphereX_ok b h s Hsh Hs v xs HL31 (proj1 Hv) Hx) as (rv & lv & dp & out & Er & El & Ed & Eo & Lo & _ & _ & _ & Ho).
  destruct (raise_cell v (vec N c0) Hv (vec_length _ _)) as (rv' & Er' & Sr).
  destruct (lower_cell v (vec N c0) Hv (vec_length _ _)) as (lv' & El' & Sl).
  assert (Hi : inside L M k). { intros l m H. unfold single. destruct (Nat.eqb_spec l l0), (Nat.eqb_spec m 0); cbn [andb]; auto. lia. }
  destruct (C28_is_d_phi b h s Hlaw Hs k v (vec N f0) k_real Hi Hv (vec_length _ _)) as (dp' & Ed' & Sd).
  assert (rv' = rv) by congruence. assert (lv' = lv) by congruence. assert (dp' = dp) by congruence. subst rv' lv' dp'.
  exists out. split; auto. split; [|apply deficit_ok]. split; [exact Lo|]. intros it ip Hit Hip.
  assert (Hpos : (spos b h it ip < N)%nat) by (now apply ix_th_ph_lt).
  etransitivity; [exact (Ho _ Hpos)|]. change (@c0 R R_arith) with (0, 0). change (@f0 R R_arith) with 0.
  etransitivity; [apply (f_equal2 Rplus); [apply f_equal, f_equal; apply (f_equal2 cmul); [exact (proj2 Sr it ip Hit Hip)|exact (proj2 Sl it ip Hit Hip)]|
     apply (f_equal (fun z => fpow z 2)); exact (proj2 Sd it ip Hit Hip)]|].
  set (th := grid_theta h it). set (ph := grid_phi h ip).
  assert (Hsn : sin th <> 0) by (now apply off_poles_sin).
  destruct (k_Lplus th ph Hsn) as [K1 K2].
  destruct (lowered_conj h Ylm_profile k th ph k_real) as [C1 C2].
  assert (X1 : forall t q, cre Ylm_profile L (raised h k) t q = cre Ylm_profile L (delta l0 1 (kr * x, 0)) t q /\ cim Ylm_profile L (raised h k) t q = cim Ylm_profile L (delta l0 1 (kr * x, 0)) t q).
  { intros. split; unfold cre, cim; apply Rsum_ext; intros; apply msum_ext; intros; now rewrite raised_k. }
  assert (X2 : forall t q, cre Ylm_profile L (lowered h k) t q = cre Ylm_profile L (delta l0 (-1) (kr * x, 0)) t q /\ cim Ylm_profile L (lowered h k) t q = cim Ylm_profile L (delta l0 (-1) (kr * x, 0)) t q).
  { intros. split; unfold cre, cim; apply Rsum_ext; intros; apply msum_ext; intros; now rewrite lowered_k. }
  rewrite <- (proj1 (X1 th ph)), <- (proj2 (X1 th ph)).
  replace (kl * x) with (deficit * (kr * x)) by (rewrite (proj1 deficit_ok); ring).
  rewrite (proj1 (cre_delta (-1) (kr * x) deficit th ph)), (proj2 (cre_delta (-1) (kr * x) deficit th ph)).
  rewrite <- (proj1 (X2 th ph)), <- (proj2 (X2 th ph)), C1, C2, K1, K2.
  assert (D0 : d_phi (field k) th ph = 0).
  { unfold d_phi. rewrite (Derive_ext _ (fun _ => mode Ylm_profile l0 0 (x, 0) th ph)); [apply Derive_const|].
    intros q. rewrite (single_field h Ylm_profile) by lia. reflexivity. }
  rewrite <- (Lplus_norm (field k)) by auto. rewrite D0.
  cbn [cmul fst snd R_arith fadd fsub fmul fopp fpow]. ring.
Qed.
End Above.

(** Beyond (L-M)^2 <= L+M+1 the operator lower uses memory the transform never wrote: two buffers that agree on
    every stored coefficient are lowered to buffers that differ in a stored coefficient. *)
Theorem C71_lower_reads_unwritten_memory_refuted (h : sht R) (s : sphere R) :
  shapes h -> Sphr_of h s -> (Z.of_nat (s_lmax h) < 2 ^ 31)%Z ->
  (s_lmax h + s_mmax h + 1 < (s_lmax h - s_mmax h) * (s_lmax h - s_mmax h))%nat ->
  (forall q, q * q <> tsize (s_lmax h) (s_mmax h))%nat ->
  exists y1 y2 y1' y2', length y1 = ((s_lmax h + 1) * (s_lmax h + 1))%nat /\ length y2 = ((s_lmax h + 1) * (s_lmax h + 1))%nat /\
    (forall i, (i < tsize (s_lmax h) (s_mmax h))%nat -> nth i y1 (0, 0) = nth i y2 (0, 0)) /\
    lower_coefs s y1 = Ok y1' /\ lower_coefs s y2 = Ok y2' /\
    nth (tidx (s_mmax h) (s_lmax h) (Z.of_nat (s_mmax h))) y1' (0, 0) <> nth (tidx (s_mmax h) (s_lmax h) (Z.of_nat (s_mmax h))) y2' (0, 0).
Proof.
  intros Hsh Hs HL Hsz Hsq. set (L := s_lmax h) in *. set (M := s_mmax h) in *. pose proof (sh_mmax h Hsh) as HM. fold L M in HM.
  set (T := tsize L M) in *.
  assert (HT : (T < L * L)%nat).
  { unfold T. apply Nat2Z.inj_lt. rewrite tsize_Z by auto. apply Nat2Z.inj_lt in Hsz. rewrite Nat2Z.inj_mul, Nat2Z.inj_sub in Hsz by auto. nia. }
  assert (E0 : tidx M L (Z.of_nat M) = (T - 1)%nat).
  { assert (M < L)%nat by (destruct (Nat.eq_dec M L); [nia|lia]). apply Nat2Z.inj. rewrite tidx_high by lia. unfold T. rewrite Nat2Z.inj_sub by (unfold tsize; lia). rewrite tsize_Z by auto. lia. }
  assert (T1 : (1 <= T)%nat) by (unfold T, tsize; lia).
  destruct (ci_surj L (T - 1) ltac:(lia)) as (l & m & Hl & Hm & E).
  assert (Hml : (m <> Z.of_nat l)%Z).
  { intros ->. apply (Hsq (l + 1)%nat). fold T. unfold ci in E. apply Nat2Z.inj. apply (f_equal Z.of_nat) in E. rewrite Z2Nat.id in E by nia. rewrite Nat2Z.inj_sub in E by lia. nia. }
  assert (E1 : ci l (m + 1) = T).
  { pose proof (ci_shift l (m + 1) ltac:(lia)) as X. replace (m + 1 - 1)%Z with m in X by lia. lia. }
  set (y := fun z : R => repeat (0, 0) T ++ (z, 0) :: repeat (0, 0) ((L + 1) * (L + 1) - T - 1)).
  assert (Ly : forall z, length (y z) = ((L + 1) * (L + 1))%nat).
  { intros z. unfold y. rewrite app_length, repeat_length. cbn [length]. rewrite repeat_length. assert (L * L <= (L + 1) * (L + 1))%nat by (apply Nat.mul_le_mono; lia). lia. }
  destruct (lower_coefs_ok h s Hsh Hs (y 0) HL (Ly 0)) as (y1 & R1 & _ & A1 & _).
  destruct (lower_coefs_ok h s Hsh Hs (y 1) HL (Ly 1)) as (y2 & R2 & _ & A2 & _).
  exists (y 0), (y 1), y1, y2. split; [apply Ly|]. split; [apply Ly|]. split; [|split; [exact R1|split; [exact R2|]]].
  - intros i Hi. unfold y. rewrite !app_nth1 by (now rewrite repeat_length). reflexivity.
  - rewrite E0, <- E. specialize (A1 l m Hl Hm). specialize (A2 l m Hl Hm). rewrite E1 in A1, A2.
    change (@c0 R R_arith) with (0, 0) in *. destruct (Z.eqb_spec m (Z.of_nat l)); [contradiction|].
    assert (V : forall z, nth T (y z) (0, 0) = (z, 0)).
    { intros z. unfold y. rewrite app_nth2 by (rewrite repeat_length; lia). rewrite repeat_length, Nat.sub_diag. reflexivity. }
    intros X. assert (W : cscale (lfac l m) (nth T (y 0) (0, 0)) = cscale (lfac l m) (nth T (y 1) (0, 0))).
    { etransitivity; [symmetry; exact A1|]. etransitivity; [exact X|exact A2]. }
    rewrite !V in W. unfold cscale in W. cbn [fst snd R_arith fmul] in W. apply (f_equal fst) in W. cbn [fst] in W.
    assert (P : 0 < @lfac R R_arith l m).
    { unfold lfac. cbn [R_arith fpowh fofZ]. apply sqrt_lt_R0, IZR_lt. nia. }
    lra.
Qed.

(** the hypotheses are met: nl = 20, nm = 18 for the first theorem (the shipped run script), nl = 20, nm = 3 for the second *)
Example C71_above_nonvacuous b : exists h s v, lawful b h Ylm_profile /\ tlawful b h Ylm_profile /\ off_poles h /\ Sphr_of h s /\
  s_lmax h = 20%nat /\ s_mmax h = 18%nat /\ (1 <= s_mmax h)%nat /\ (s_mmax h + 2 <= s_lmax h)%nat /\
  ((s_lmax h - s_mmax h) * (s_lmax h - s_mmax h) <= s_lmax h + s_mmax h + 1)%nat /\
  sampled b h (real_field Ylm_profile (s_lmax h) (s_mmax h) (single (s_mmax h + 1) 0 (1, 0))) v /\ exists i, (i < length v)%nat /\ nth i v 0 <> 0.
Proof.
  destruct (demo_ct_ok 32) as (H1 & H2 & H3).
  destruct (C71_contract_satisfiable b 20 18 32 48 (demo_ct 32)) as (h & E1 & E2 & E3 & E4 & _ & Hl & Hc & Hp); auto; try lia.
  destruct (Sphr_of_ex h) as (s & Hs).
  destruct (samples_ex b h Ylm_profile (single (s_mmax h + 1) 0 (1, 0)) Hl) as (v & Hv).
  exists h, s, v. do 6 (split; [assumption|]). split; [rewrite E2; lia|]. split; [rewrite E1, E2; lia|]. split; [rewrite E1, E2; lia|]. split; [exact Hv|].
  apply (nonzero_sample b h Ylm_profile (single (s_mmax h + 1) 0 (1, 0)) v (s_mmax h + 1) 0); auto; rewrite ?E1, ?E2; auto; try lia.
  - now apply single_real.
  - unfold single. cbn. intros X. injection X. lra.
Qed.
Example C71_unwritten_nonvacuous : exists (h : sht R) s, shapes h /\ Sphr_of h s /\ (Z.of_nat (s_lmax h) < 2 ^ 31)%Z /\
  (s_lmax h + s_mmax h + 1 < (s_lmax h - s_mmax h) * (s_lmax h - s_mmax h))%nat /\
  (forall q, q * q <> tsize (s_lmax h) (s_mmax h))%nat.
Proof.
  destruct (demo_ct_ok 32) as (H1 & H2 & H3).
  destruct (C71_contract_satisfiable (Build false false false) 20 3 32 48 (demo_ct 32)) as (h & E1 & E2 & E3 & E4 & _ & Hl & Hc & Hp); auto; try lia.
  destruct (Sphr_of_ex h) as (s & Hs). exists h, s. split; [apply (lw_shapes _ _ _ Hl)|]. split; [exact Hs|]. rewrite E1, E2. split; [lia|]. split; [lia|].
  intros q. replace (tsize 20 3) with 135%nat by reflexivity. destruct (le_lt_dec q 11); nia.
Qed.
