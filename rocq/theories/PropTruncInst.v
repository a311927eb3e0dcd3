(** * Property C71, continued: the contract with fewer orders than degrees is satisfiable, and what happens to
    content of degree above mmax. *)
From Coq Require Import Reals Lra.
From Coquelicot Require Import Coquelicot.
From Verif Require Import Base BaseLemmas ForList Arith MSphere PGrid PMake PSphere PSphere2 Spec SphereSpec LegSpec TruncSpec PSum PFdR PSphereR PropSphere PropLadder
  PLeg PSphereD PropSphereD PropSphereInst PropTrunc.
Local Open Scope R_scope.

(** ** Decoding positions *)
Definition ddec (p : nat) : nat * Z := (Nat.sqrt p, (Z.of_nat p - Z.of_nat (Nat.sqrt p) * (Z.of_nat (Nat.sqrt p) + 1))%Z).
Definition tdec (M q : nat) : nat * Z :=
  if (q <? (M + 1) * (M + 1))%nat then ddec q
  else ((M + 1 + (q - (M + 1) * (M + 1)) / (2 * M + 1))%nat, (Z.of_nat ((q - (M + 1) * (M + 1)) mod (2 * M + 1)) - Z.of_nat M)%Z).
Lemma ddec_ci l m : (- Z.of_nat l <= m <= Z.of_nat l)%Z -> ddec (ci l m) = (l, m).
Proof.
  intros Hm. assert (E : Nat.sqrt (ci l m) = l).
  { apply Nat.sqrt_unique. unfold ci. split; [apply Nat2Z.inj_le|apply Nat2Z.inj_lt]; rewrite Z2Nat.id by nia; nia. }
  unfold ddec. rewrite E. f_equal. unfold ci. rewrite Z2Nat.id by nia. ring.
Qed.
Lemma tdec_tidx M l m : (- Z.of_nat (Nat.min l M) <= m <= Z.of_nat (Nat.min l M))%Z -> tdec M (tidx M l m) = (l, m).
Proof.
  intros Hm. unfold tdec. destruct (le_lt_dec l M) as [H|H].
  - rewrite tidx_low by auto. assert (B : (ci l m < (M + 1) * (M + 1))%nat) by (apply ci_lt; lia).
    destruct (Nat.ltb_spec (ci l m) ((M + 1) * (M + 1))); [|lia]. apply ddec_ci. lia.
  - pose proof (tidx_high M l m H ltac:(lia)) as T.
    assert (T2 : (tidx M l m = (M + 1) * (M + 1) + ((l - M - 1) * (2 * M + 1) + Z.to_nat (Z.of_nat M + m)))%nat).
    { apply Nat2Z.inj. rewrite T. clear T. assert (Hd : exists d, l = (M + 1 + d)%nat) by (exists (l - M - 1)%nat; lia). destruct Hd as [d ->].
      replace (M + 1 + d - M - 1)%nat with d by lia. assert (0 <= Z.of_nat M + m)%Z by lia. nia. }
    rewrite T2. match goal with |- context [(?a <? ?b)%nat] => destruct (Nat.ltb_spec a b) as [X|_]; [exfalso; exact (Nat.lt_irrefl _ (Nat.le_lt_trans _ _ _ (Nat.le_add_r _ _) X))|] end.
    rewrite (Nat.add_comm ((M + 1) * (M + 1))), Nat.add_sub.
    assert (B : (Z.to_nat (Z.of_nat M + m) < 2 * M + 1)%nat) by lia.
    rewrite Nat.div_add_l, Nat.div_small, Nat.add_0_r by lia.
    rewrite (Nat.add_comm ((l - M - 1) * (2 * M + 1))), Nat.mod_add, Nat.mod_small by lia. f_equal; lia.
Qed.
Lemma tidx_inj M l m l' m' : (- Z.of_nat (Nat.min l M) <= m <= Z.of_nat (Nat.min l M))%Z -> (- Z.of_nat (Nat.min l' M) <= m' <= Z.of_nat (Nat.min l' M))%Z ->
  tidx M l m = tidx M l' m' -> l = l' /\ m = m'.
Proof. intros H H' E. apply (f_equal (tdec M)) in E. rewrite !tdec_tidx in E by auto. injection E; auto. Qed.

(** any spectrum can be stored *)
Definition tlist (L M : nat) (a : cspectrum) : list (R * R) := map (fun q => a (fst (tdec M q)) (snd (tdec M q))) (seq 0 ((L + 1) * (L + 1))).
Lemma tlist_stores h a : (s_mmax h <= s_lmax h)%nat -> tstores h (tlist (s_lmax h) (s_mmax h) a) a.
Proof.
  intros HM. split; [unfold tlist; now rewrite map_length, seq_length|]. intros l m Hl Hm. unfold tlist.
  pose proof (tidx_range (s_mmax h) (s_lmax h) HM l m Hl Hm) as B. pose proof (tsize_le (s_mmax h) (s_lmax h) HM) as B2.
  erewrite nth_indep by (rewrite map_length, seq_length; lia).
  rewrite (map_nth (fun q => a (fst (tdec (s_mmax h) q)) (snd (tdec (s_mmax h) q)))) with (d := 0%nat).
  rewrite seq_nth by lia. cbn [Nat.add]. now rewrite tdec_tidx by auto.
Qed.
Lemma msum_trunc k l t : (k <= l)%nat -> (forall m, (Z.of_nat k < Z.abs m)%Z -> t m = 0) -> msum l t = msum k t.
Proof.
  intros Hk Hz. rewrite !msum_pairs. f_equal. replace l with (k + (l - k))%nat by lia. rewrite Rsum_split.
  rewrite (Rsum_zero (l - k)); [ring|]. intros i Hi. rewrite !Hz by lia. ring.
Qed.
Lemma tcre_full P L M c th ph : (forall l m, (Z.of_nat M < Z.abs m)%Z -> c l m = (0, 0)) ->
  tcre P L M c th ph = cre P L c th ph /\ tcim P L M c th ph = cim P L c th ph.
Proof.
  intros Hc. split; unfold tcre, tcim, cre, cim; apply Rsum_ext; intros l Hl; symmetry;
    (destruct (le_lt_dec l M) as [H|H]; [now rewrite Nat.min_l by lia|rewrite Nat.min_r by lia]);
    apply msum_trunc; try lia; intros m Hm; rewrite Hc by auto; cbn [fst snd]; ring.
Qed.
Lemma tcre_ext P L M c c' th ph : (forall l m, (l <= L)%nat -> (- Z.of_nat (Nat.min l M) <= m <= Z.of_nat (Nat.min l M))%Z -> c l m = c' l m) ->
  tcre P L M c th ph = tcre P L M c' th ph /\ tcim P L M c th ph = tcim P L M c' th ph.
Proof.
  intros Hc. split; unfold tcre, tcim; apply Rsum_ext; intros l Hl; apply msum_ext; intros m Hm; rewrite Hc by lia; reflexivity.
Qed.

(** ** The contract holds for the dense contract with mmax = lmax ... *)
Lemma clawful_tlawful b h P : clawful b h P -> tlawful b h P.
Proof.
  intros H. pose proof (cl_mmax b h P H) as HM.
  assert (S1 : forall c a, tstores h c a -> cstores h c a).
  { intros c a [Lc Hc]. split; auto. intros l m Hl Hm. rewrite <- (tidx_low (s_mmax h)) by lia. apply Hc; auto. lia. }
  split.
  - intros c a Hc. pose proof (cl_syn b h P H c a (S1 c a Hc)) as S2. eapply csampled_ext_grid; [|exact S2]. intros it ip _ _. cbv beta.
    rewrite HM. split; unfold tcre, tcim, cre, cim; apply Rsum_ext; intros l Hl; now rewrite Nat.min_l by lia.
  - intros c a Hc. rewrite (cl_ana b h P H c a (S1 c a Hc)). exact Hc.
Qed.

(** ** ... and is satisfiable for every mmax <= lmax *)
Theorem C71_contract_satisfiable b L M nlat nphi ct :
  (M <= L)%nat -> (L < nlat)%nat -> (2 * L < nphi)%nat -> length ct = nlat ->
  (forall i j, (i < nlat)%nat -> (j < nlat)%nat -> nth i ct 0 = nth j ct 0 -> i = j) ->
  (forall i, (i < nlat)%nat -> -1 < nth i ct 0 < 1) ->
  exists h : sht R, s_lmax h = L /\ s_mmax h = M /\ s_nlat h = nlat /\ s_nphi h = nphi /\ s_ct h = ct /\
    lawful b h Ylm_profile /\ tlawful b h Ylm_profile /\ off_poles h.
Proof.
  intros HM H1 H2 H3 H4 H5.
  destruct (C28_contract_satisfiable b L M nlat nphi ct) as (h1 & A1 & A2 & A3 & A4 & A5 & A6 & _ & A7); auto.
  destruct (C28_contract_satisfiable b L L nlat nphi ct) as (h2 & B1 & B2 & B3 & B4 & B5 & B6 & B7 & _); auto.
  specialize (B7 eq_refl). pose proof (lw_shapes _ _ _ A6) as S1. pose proof (lw_shapes _ _ _ B6) as S2.
  set (up := fun c : list (R * R) => map (fun p => let (l, m) := ddec p in if (Z.abs m <=? Z.of_nat M)%Z then nth (tidx M l m) c (0, 0) else (0, 0)) (seq 0 ((L + 1) * (L + 1)))).
  set (down := fun y : list (R * R) => tlist L M (fun l m => nth (ci l m) y (0, 0))).
  assert (Lup : forall c, length (up c) = ((L + 1) * (L + 1))%nat) by (intros; unfold up; now rewrite map_length, seq_length).
  assert (Nup : forall c l m, (l <= L)%nat -> (- Z.of_nat l <= m <= Z.of_nat l)%Z ->
    nth (ci l m) (up c) (0, 0) = if (Z.abs m <=? Z.of_nat M)%Z then nth (tidx M l m) c (0, 0) else (0, 0)).
  { intros c l m Hl Hm. unfold up.
    assert (B : (ci l m < (L + 1) * (L + 1))%nat) by (apply ci_lt; lia).
    erewrite nth_indep by (rewrite map_length, seq_length; exact B).
    rewrite (map_nth (fun p => let (l, m) := ddec p in if (Z.abs m <=? Z.of_nat M)%Z then nth (tidx M l m) c (0, 0) else (0, 0))) with (d := 0%nat).
    rewrite seq_nth by exact B. cbn [Nat.add]. now rewrite ddec_ci by auto. }
  exists {| s_lmax := L; s_mmax := M; s_nlat := nlat; s_nphi := nphi; s_nspat := nlat * nphi; s_ct := ct;
    s_an := s_an h1; s_sy := s_sy h1; s_anc := fun v => down (s_anc h2 v); s_syc := fun c => s_syc h2 (up c) |}.
  assert (N1 : s_nspat h1 = (nlat * nphi)%nat) by (rewrite (sh_nspat _ S1); congruence).
  assert (N2 : s_nspat h2 = (nlat * nphi)%nat) by (rewrite (sh_nspat _ S2); congruence).
  match goal with |- s_lmax ?h = _ /\ _ => set (hh := h) end.
  assert (G1 : forall f v, sampled b h1 f v <-> sampled b hh f v).
  { intros f v. unfold sampled, spos, grid_theta, grid_phi. rewrite A3, A4, A5. reflexivity. }
  assert (G2 : forall f g v, csampled b h2 f g v <-> csampled b hh f g v).
  { intros f g v. unfold csampled, spos, grid_theta, grid_phi. rewrite B3, B4, B5. reflexivity. }
  assert (G3 : forall c a, stores h1 c a <-> stores hh c a).
  { intros c a. unfold stores. rewrite A1, A2. reflexivity. }
  split; [reflexivity|]. split; [reflexivity|]. split; [reflexivity|]. split; [reflexivity|]. split; [reflexivity|]. split; [|split].
  - constructor.
    + constructor; cbn [hh s_mmax s_lmax s_nspat s_nlat s_nphi s_ct s_an s_sy s_anc s_syc]; auto.
      * intros v Hv. rewrite (sh_an _ S1) by congruence. congruence.
      * intros c Hc. rewrite (sh_sy _ S1) by congruence. congruence.
      * intros v Hv. unfold down, tlist. now rewrite map_length, seq_length.
      * intros c Hc. rewrite (sh_syc _ S2) by (rewrite Lup; congruence). congruence.
    + intros c a Hc. apply G1. pose proof (lw_syn _ _ _ A6 c a (proj2 (G3 c a) Hc)) as X. rewrite A1, A2 in X. exact X.
    + intros c a Hc Ha. exact (lw_ana _ _ _ A6 c a (proj2 (G3 c a) Hc) Ha).
  - assert (Hup : forall c a, tstores hh c a -> cstores h2 (up c) (fun l m => if (Z.abs m <=? Z.of_nat M)%Z then a l m else (0, 0))).
    { intros c a [Lc Hc]. split; [rewrite Lup; congruence|]. rewrite B1. intros l m Hl Hm. rewrite Nup by auto.
      destruct (Z.leb_spec (Z.abs m) (Z.of_nat M)); auto. apply Hc; cbn [hh s_lmax s_mmax]; auto. lia. }
    constructor.
    + intros c a Hc. apply G2. pose proof (cl_syn _ _ _ B7 _ _ (Hup c a Hc)) as X. rewrite B1 in X.
      eapply csampled_ext_grid; [|exact X]. intros it ip _ _. cbv beta. cbn [hh s_lmax s_mmax].
      match goal with |- cre _ _ ?c2 _ _ = _ /\ _ => set (a2 := c2) end.
      assert (Z2 : forall l m, (Z.of_nat M < Z.abs m)%Z -> a2 l m = (0, 0)).
      { intros l m Hm. unfold a2. destruct (Z.leb_spec (Z.abs m) (Z.of_nat M)); auto. lia. }
      destruct (tcre_full Ylm_profile L M a2 (grid_theta h2 it) (grid_phi h2 ip) Z2) as [<- <-].
      apply tcre_ext. intros l m Hl Hm. unfold a2. destruct (Z.leb_spec (Z.abs m) (Z.of_nat M)); auto. lia.
    + intros c a Hc. cbn [hh s_anc s_syc]. rewrite (cl_ana _ _ _ B7 _ _ (Hup c a Hc)).
      pose proof (tlist_stores hh (fun l m => nth (ci l m) (up c) (0, 0)) HM) as [X1 X2].
      split; [exact X1|]. intros l m Hl Hm. etransitivity; [exact (X2 l m Hl Hm)|]. cbn [hh s_lmax s_mmax] in *.
      rewrite Nup by lia. destruct (Z.leb_spec (Z.abs m) (Z.of_nat M)); [|lia]. apply (proj2 Hc); auto.
  - intros it Hi. apply H5. exact Hi.
Qed.

(** a case meeting the hypotheses: the sizes of the shipped run script, nl = 20, nm = 18, 32 x 48 points; data Re Y_{7,3} *)
Example C71_nonvacuous b : exists h s a v, lawful b h Ylm_profile /\ tlawful b h Ylm_profile /\ off_poles h /\ Sphr_of h s /\
  s_lmax h = 20%nat /\ s_mmax h = 18%nat /\ s_nlat h = 32%nat /\ s_nphi h = 48%nat /\ (Z.of_nat (s_lmax h) < 2 ^ 31)%Z /\
  ((s_lmax h - s_mmax h) * (s_lmax h - s_mmax h) <= s_lmax h + s_mmax h + 1)%nat /\
  real_spectrum a /\ inside (s_lmax h) (s_mmax h) a /\ low (Nat.min (s_lmax h) (s_mmax h + 1)) a /\
  sampled b h (real_field Ylm_profile (s_lmax h) (s_mmax h) a) v /\
  exists i, (i < length v)%nat /\ nth i v 0 <> 0.
Proof.
  destruct (demo_ct_ok 32) as (H1 & H2 & H3).
  destruct (C71_contract_satisfiable b 20 18 32 48 (demo_ct 32)) as (h & E1 & E2 & E3 & E4 & _ & Hl & Hc & Hp); auto; try lia.
  destruct (Sphr_of_ex h) as (s & Hs).
  set (a := single 7 3 (1, 0)).
  assert (Ha : real_spectrum a) by (apply single_real; intros; lia).
  destruct (samples_ex b h Ylm_profile a Hl) as (v & Hv).
  exists h, s, a, v. do 4 (split; [assumption|]). do 4 (split; [assumption|]). split; [rewrite E1; lia|]. split; [rewrite E1, E2; lia|].
  split; [exact Ha|]. split; [|split; [|split; [exact Hv|]]].
  - rewrite E1, E2. intros l m Hlm. unfold a, single. destruct (Nat.eqb_spec l 7), (Nat.eqb_spec m 3); cbn [andb]; auto; lia.
  - rewrite E1, E2. intros l m Hlm. unfold a, single. destruct (Nat.eqb_spec l 7); cbn [andb]; auto. lia.
  - apply (nonzero_sample b h Ylm_profile a v 7 3); auto; rewrite ?E1, ?E2; auto; try lia. unfold a, single. cbn. intros X. injection X. lra.
Qed.
