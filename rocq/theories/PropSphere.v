(** * Properties C28, C29, C30, C34, C35, C36: the spectral operators on the sphere.
    [lawful b h P] is the contract of the external transforms (SphereSpec.v); [Sphr_of] says that s is
    the Sphere object constructed with the sizes of h. *)
From Coq Require Import Reals Lra.
From Coquelicot Require Import Coquelicot.
From Verif Require Import Base BaseLemmas ForList Arith MSphere PGrid PMake PSphere PSphere2 Spec SphereSpec PSum PFdR PSphereR.
Local Open Scope R_scope.

Definition Sphr_of {F} {AF : Arith F} (h : sht F) (s : sphere F) : Prop :=
  Sphere_make h (s_lmax h) (s_mmax h) (s_nlat h) (s_nphi h) = Ok s.
(** no content at the edge of the resolved band *)
Definition inside (L M : nat) (a : spectrum) : Prop := forall l m, (l = L \/ m = M) -> a l m = (0, 0).
(** content only at the edge of the resolved band *)
Definition edge_only (L M : nat) (a : spectrum) : Prop := forall l m, (l < L)%nat -> (m < M)%nat -> a l m = (0, 0).

Section Props.
Variables (b : build) (h : sht R) (P : profiles) (s : sphere R).
Hypothesis Hlaw : lawful b h P.
Hypothesis Hs : Sphr_of h s.
Local Notation L := (s_lmax h).
Local Notation M := (s_mmax h).
Local Notation N := (s_nlat h * s_nphi h)%nat.

(** ** C28 *)
Theorem C28_partial_phi a v d :
  real_spectrum a -> inside L M a -> sampled b h (real_field P L M a) v -> length d = N ->
  exists out, partial_phi b s v d = Ok out /\
    sampled b h (fun th ph => Derive (real_field P L M a th) ph) out.
Proof.
  intros Ha Hi Hv Hd. destruct (dphi_R b h P s Hlaw Hs a v d Ha Hv Hd) as (out & E & Ho).
  exists out. split; auto. eapply sampled_ext; [|exact Ho]. intros th ph.
  rewrite (is_derive_unique _ _ _ (field_derive h P a th ph)).
  apply (real_field_ext h P). intros l m Hl Hm HM.
  destruct (Nat.ltb_spec l L), (Nat.ltb_spec m M); cbn [andb]; auto;
    rewrite (Hi l m) by lia; cbn; f_equal; ring.
Qed.

(** ** C29 *)
Theorem C29_laplace_beltrami a v d :
  real_spectrum a -> inside L M a -> sampled b h (real_field P L M a) v -> length d = N ->
  exists out, laplace_beltrami b s v d = Ok out /\
    sampled b h (real_field P L M (fun l m => (- (INR l * (INR l + 1)) * fst (a l m), - (INR l * (INR l + 1)) * snd (a l m)))) out.
Proof.
  intros Ha Hi Hv Hd. destruct (laplace_R b h P s Hlaw Hs a v d Ha Hv Hd) as (out & E & Ho).
  exists out. split; auto. eapply sampled_ext; [|exact Ho]. intros th ph.
  apply (real_field_ext h P). intros l m Hl Hm HM.
  destruct (Nat.ltb_spec l L), (Nat.ltb_spec m M); cbn [andb]; try (f_equal; ring);
    rewrite (Hi l m) by lia; cbn; f_equal; ring.
Qed.

(** a single harmonic: the spectrum with coefficient c at (l0,m0) and nothing else *)
Definition single (l0 m0 : nat) (c : R * R) : spectrum :=
  fun l m => if Nat.eqb l l0 && Nat.eqb m m0 then c else (0, 0).
Lemma single_real l0 m0 c : (m0 = 0%nat -> snd c = 0) -> real_spectrum (single l0 m0 c).
Proof. intros H l. unfold single. destruct (Nat.eqb_spec l l0), (Nat.eqb_spec 0 m0); cbn; auto. Qed.
Lemma single_field l0 m0 c th ph : (l0 <= L)%nat -> (m0 <= l0)%nat -> (m0 <= M)%nat ->
  real_field P L M (single l0 m0 c) th ph = mode P l0 m0 c th ph.
Proof.
  intros Hl Hm HM. unfold real_field.
  assert (Z : forall l m, (l <> l0 \/ m <> m0) -> mode P l m (single l0 m0 c l m) th ph = 0).
  { intros l m Hne. unfold single. destruct (Nat.eqb_spec l l0), (Nat.eqb_spec m m0); cbn [andb]; try (exfalso; tauto);
    unfold mode; cbn [fst snd]; destruct (Nat.eqb m 0); ring. }
  rewrite (Rsum_single _ _ l0); [|lia|].
  - rewrite (Rsum_single _ _ m0); [|lia|].
    + unfold single. now rewrite !Nat.eqb_refl.
    + intros m _ Hne. apply Z; auto.
  - intros l _ Hne. apply Rsum_zero. intros m _. apply Z; auto.
Qed.

Theorem C29_harmonics_are_eigenfunctions l m c v d :
  (l < L)%nat -> (m < M)%nat -> (m <= l)%nat -> (m = 0%nat -> snd c = 0) ->
  sampled b h (mode P l m c) v -> length d = N ->
  exists out, laplace_beltrami b s v d = Ok out /\ out = map (Rmult (- (INR l * (INR l + 1)))) v.
Proof.
  intros Hl HM Hm Hc Hv Hd.
  assert (Hv' : sampled b h (real_field P L M (single l m c)) v).
  { eapply sampled_ext; [|exact Hv]. intros; symmetry; apply single_field; lia. }
  destruct (C29_laplace_beltrami (single l m c) v d) as (out & E & Ho); auto.
  - now apply single_real.
  - intros l' m' Hlm. unfold single. destruct (Nat.eqb_spec l' l), (Nat.eqb_spec m' m); cbn; auto; lia.
  - exists out. split; auto. apply (sampled_unique b h _ _ _ Ho). split; [now rewrite map_length, (proj1 Hv)|].
    intros it ip Ht Hp. rewrite (nth_indep _ 0 (- (INR l * (INR l + 1)) * 0)).
    2:{ rewrite map_length, (proj1 Hv). apply ix_th_ph_lt; auto. }
    rewrite map_nth, (proj2 Hv) by auto. rewrite <- (single_field l m c) by lia.
    unfold real_field. rewrite <- Rsum_scal. apply Rsum_ext. intros l' _. rewrite <- Rsum_scal. apply Rsum_ext.
    intros m' _. unfold mode, single. destruct (Nat.eqb_spec l' l), (Nat.eqb_spec m' m); subst; cbn [andb fst snd];
      destruct (Nat.eqb _ 0); ring.
Qed.

(** ** C30 *)
Theorem C30_edge_modes_bypass a v d :
  real_spectrum a -> edge_only L M a -> sampled b h (real_field P L M a) v -> length d = N ->
  laplace_beltrami b s v d = Ok v /\ partial_phi b s v d = Ok v /\ sp_filter b s v = Ok v.
Proof.
  intros Ha He Hv Hd.
  assert (G : forall (hh : nat -> nat -> R * R -> R * R) out, (forall l m, hh l m (0, 0) = (0, 0)) ->
    sampled b h (real_field P L M (fun l m => if (l <? L)%nat && (m <? M)%nat then hh l m (a l m) else a l m)) out -> out = v).
  { intros hh out H0 Ho. apply (sampled_unique b h (real_field P L M a)); auto.
    eapply sampled_ext; [|exact Ho]. intros th ph. apply (real_field_ext h P). intros l m _ _ _.
    destruct (Nat.ltb_spec l L), (Nat.ltb_spec m M); cbn [andb]; auto. now rewrite (He l m). }
  destruct (laplace_R b h P s Hlaw Hs a v d Ha Hv Hd) as (o1 & E1 & H1).
  destruct (dphi_R b h P s Hlaw Hs a v d Ha Hv Hd) as (o2 & E2 & H2).
  destruct (filter_R b h P s Hlaw Hs a v Ha Hv) as (o3 & E3 & H3).
  rewrite E1, E2, E3.
  rewrite (G (fun l m c => (- INR l * (INR l + 1) * fst c, - INR l * (INR l + 1) * snd c)) o1); auto.
  2:{ intros; cbn; f_equal; ring. }
  rewrite (G (fun l m c => (- INR m * snd c, INR m * fst c)) o2); auto.
  2:{ intros; cbn; f_equal; ring. }
  rewrite (G (fun l m c => (low_pass h l * low_pass h m * fst c, low_pass h l * low_pass h m * snd c)) o3); auto.
  intros; cbn; f_equal; ring.
Qed.

(** the naive claim (every resolved harmonic has eigenvalue -l(l+1)) fails at the edge *)
Theorem C30_edge_eigenvalue_refuted m c v d : (m <= L)%nat -> (m <= M)%nat -> (1 <= L)%nat ->
  (m = 0%nat -> snd c = 0) -> sampled b h (mode P L m c) v -> length d = N -> (exists i, nth i v 0 <> 0) ->
  laplace_beltrami b s v d = Ok v /\ v <> map (Rmult (- (INR L * (INR L + 1)))) v.
Proof.
  intros Hm HM HL Hc Hv Hd (i & Hi).
  assert (Hv' : sampled b h (real_field P L M (single L m c)) v).
  { eapply sampled_ext; [|exact Hv]. intros; symmetry; apply single_field; lia. }
  destruct (C30_edge_modes_bypass (single L m c) v d) as (E & _); auto.
  { now apply single_real. }
  { intros l' m' Hl' Hm'. unfold single. destruct (Nat.eqb_spec l' L); cbn; auto; lia. }
  split; auto. intros Eq. apply (f_equal (fun w => nth i w 0)) in Eq. cbn beta in Eq.
  assert (Hlt : (i < length v)%nat). { destruct (lt_dec i (length v)); auto. rewrite nth_overflow in Hi by lia. lra. }
  rewrite (nth_indep (map _ v) 0 (- (INR L * (INR L + 1)) * 0)) in Eq by (rewrite map_length; auto).
  rewrite map_nth in Eq. assert (1 <= INR L) by (apply (le_INR 1); auto).
  assert (E2 : (1 + INR L * (INR L + 1)) * nth i v 0 = 0) by lra.
  apply Rmult_integral in E2. destruct E2; [nra|tauto].
Qed.

Lemma power_R a v p : real_spectrum a -> sampled b h (real_field P L M a) v -> length p = L ->
  exists q, power_spectrum b s v p = Ok q /\ length q = L /\ forall l, (l < L)%nat ->
    nth l q 0 = (fst (a l 0%nat) ^ 2 + snd (a l 0%nat) ^ 2)
      + Rsum (Nat.min (l + 1) M - 1) (fun i => 2 * (fst (a l (S i)) ^ 2 + snd (a l (S i)) ^ 2)).
Proof.
  intros Ha Hv Hp. pose proof (lw_shapes b h P Hlaw) as Hsh.
  destruct (power_ok b h s Hsh Hs v p) as (q & E & Lq & Hq); auto; [apply Hv|].
  exists q. split; auto. split; auto. intros l Hl. change 0 with (@f0 R _). rewrite Hq by auto.
  assert (Hst : forall l m, (l <= L)%nat -> (m <= l)%nat -> (m <= M)%nat -> nth (A := cplx R) (LM L l m) (s_an h v) c0 = a l m)
    by apply (ana_of b h P Hlaw a v Ha Hv).
  pose proof (sh_mmax h Hsh). rewrite (Hst l 0%nat) by lia.
  cbn [R_arith fadd fmul fpow fofZ f0].
  assert (G : forall n j acc, (j + n <= Nat.max 1 (Nat.min (l + 1) M))%nat -> 
     fold_left (fun acc m => acc + 2 * (fst (nth (LM L l m) (s_an h v) c0) ^ 2 + snd (nth (LM L l m) (s_an h v) c0) ^ 2)) (seq j n) acc
     = acc + Rsum n (fun i => 2 * (fst (a l (j + i)%nat) ^ 2 + snd (a l (j + i)%nat) ^ 2))).
  { induction n as [|n IH]; intros j acc Hn; [simpl; ring|].
    rewrite Rsum_shift. cbn [seq fold_left]. rewrite IH by lia. rewrite Nat.add_0_r.
    assert (Hj : (j <= l)%nat /\ (j <= M)%nat) by lia. rewrite Hst by lia.
    rewrite (Rsum_ext n (fun i => 2 * (fst (a l (S j + i)%nat) ^ 2 + snd (a l (S j + i)%nat) ^ 2))
                        (fun i => 2 * (fst (a l (j + S i)%nat) ^ 2 + snd (a l (j + S i)%nat) ^ 2))).
    - ring.
    - intros i _. now replace (S j + i)%nat with (j + S i)%nat by lia. }
  rewrite G by lia. reflexivity.
Qed.

(** nothing of order m = nm is reported *)
Theorem C30_top_order_not_reported a v p :
  real_spectrum a -> (forall l m, (m < M)%nat -> a l m = (0, 0)) -> (1 <= M)%nat ->
  sampled b h (real_field P L M a) v -> length p = L ->
  exists q, power_spectrum b s v p = Ok q /\ q = vec L 0.
Proof.
  intros Ha Hz HM Hv Hp. destruct (power_R a v p Ha Hv Hp) as (q & E & Lq & Hq).
  exists q. split; auto. apply (nth_ext _ _ 0 0); [now rewrite vec_length|]. intros l Hl. rewrite Lq in Hl.
  rewrite Hq, nth_vec by auto. rewrite (Hz l 0%nat) by lia. rewrite Rsum_zero.
  - cbn. ring.
  - intros i Hi. rewrite (Hz l (S i)) by lia. cbn. ring.
Qed.

(** ** C34 *)
Definition sq (c : R * R) : R := fst c ^ 2 + snd c ^ 2.
(** coefficient of a real function at order m of either sign *)
Definition both_signs (a : spectrum) (l : nat) (m : Z) : R * R :=
  if (m <? 0)%Z then let c := a l (Z.abs_nat m) in
    if Z.even m then (fst c, - snd c) else (- fst c, snd c)
  else a l (Z.abs_nat m).
Lemma sq_both a l m : sq (both_signs a l m) = sq (a l (Z.abs_nat m)).
Proof. unfold both_signs, sq. destruct (m <? 0)%Z; auto. destruct (Z.even m); cbn [fst snd]; ring. Qed.
Lemma sum_pm l (t : nat -> R) : msum l (fun m => t (Z.abs_nat m)) = t 0%nat + Rsum l (fun i => 2 * t (S i)).
Proof.
  unfold msum. replace (2 * l + 1)%nat with (l + (S l))%nat by lia. rewrite Rsum_split, Rsum_shift.
  replace (Z.abs_nat (Z.of_nat (l + 0) - Z.of_nat l)) with 0%nat by lia.
  rewrite (Rsum_rev l (fun i => t (Z.abs_nat (Z.of_nat i - Z.of_nat l)))).
  rewrite (Rsum_ext l (fun i => t (Z.abs_nat (Z.of_nat (l - 1 - i) - Z.of_nat l))) (fun i => t (S i))).
  2:{ intros i Hi. f_equal. lia. }
  rewrite (Rsum_ext l (fun i => t (Z.abs_nat (Z.of_nat (l + S i) - Z.of_nat l))) (fun i => t (S i))).
  2:{ intros i Hi. f_equal. lia. }
  rewrite Rsum_scal. ring.
Qed.
Theorem C34_power_spectrum a v p :
  real_spectrum a -> sampled b h (real_field P L M a) v -> length p = L ->
  exists q, power_spectrum b s v p = Ok q /\ length q = L /\ forall l, (l < L)%nat ->
    nth l q 0 = sq (a l 0%nat) + Rsum (Nat.min (l + 1) M - 1) (fun i => 2 * sq (a l (S i))) /\ 0 <= nth l q 0.
Proof.
  intros Ha Hv Hp. destruct (power_R a v p Ha Hv Hp) as (q & E & Lq & Hq).
  exists q. split; auto. split; auto. intros l Hl. rewrite Hq by auto. split; [reflexivity|].
  apply Rplus_le_le_0_compat; [nra|]. apply Rsum_nonneg. intros i _. nra.
Qed.
Theorem C34_all_orders a v p :
  real_spectrum a -> (forall l m, (M <= m)%nat -> a l m = (0, 0)) -> (1 <= M)%nat ->
  sampled b h (real_field P L M a) v -> length p = L ->
  exists q, power_spectrum b s v p = Ok q /\ length q = L /\ forall l, (l < L)%nat ->
    nth l q 0 = msum l (fun m => sq (both_signs a l m)).
Proof.
  intros Ha Hz HM Hv Hp. destruct (C34_power_spectrum a v p Ha Hv Hp) as (q & E & Lq & Hq).
  exists q. split; auto. split; auto. intros l Hl. rewrite (proj1 (Hq l Hl)).
  unfold msum. rewrite (Rsum_ext (2 * l + 1) _ (fun k => sq (a l (Z.abs_nat (Z.of_nat k - Z.of_nat l))))).
  2:{ intros k _. apply sq_both. }
  fold (msum l (fun m => sq (a l (Z.abs_nat m)))). rewrite (sum_pm l (fun m => sq (a l m))). f_equal.
  set (k := (Nat.min (l + 1) M - 1)%nat).
  assert (Ek : Rsum l (fun i => 2 * sq (a l (S i))) = Rsum k (fun i => 2 * sq (a l (S i))) + Rsum (l - k) (fun i => 2 * sq (a l (S (k + i))))).
  { rewrite <- Rsum_split. f_equal. lia. }
  rewrite Ek, (Rsum_zero (l - k)); [ring|]. unfold k.
  intros i Hi. rewrite (Hz l (S (Nat.min (l + 1) M - 1 + i))) by lia. unfold sq. cbn. ring.
Qed.
(** the result does not depend on what was in p *)
Theorem C34_previous_content_irrelevant v p p' : length v = N -> length p = L -> length p' = L ->
  power_spectrum b s v p = power_spectrum b s v p'.
Proof.
  intros Hv Hp Hp'. pose proof (lw_shapes b h P Hlaw) as Hsh.
  destruct (power_ok b h s Hsh Hs v p Hv Hp) as (q & E & Lq & Hq).
  destruct (power_ok b h s Hsh Hs v p' Hv Hp') as (q' & E' & Lq' & Hq').
  rewrite E, E'. f_equal. apply (nth_ext _ _ f0 f0); [congruence|]. intros l Hl. rewrite Lq in Hl.
  now rewrite Hq, Hq'.
Qed.

(** ** C35 *)
Theorem C35_compute_ylm l m : (l <= L)%nat -> (m <= l)%nat -> (m <= M)%nat ->
  exists out, compute_ylm b s l m = Ok out /\ sampled b h (mode P l m (1, 0)) out.
Proof.
  intros Hl Hm HM. pose proof (lw_shapes b h P Hlaw) as Hsh.
  assert (Hlt : (LM L l m < nlm_calc L M)%nat) by (apply LM_lt; auto; apply (sh_mmax h Hsh)).
  eexists. split; [apply (compute_ylm_ok b h s Hsh Hs); auto|].
  eapply sampled_ext; [intros th ph; apply (single_field l m (1, 0)); auto|].
  apply (lw_syn b h P Hlaw). split; [now rewrite upd_length, vec_length|].
  intros l' m' Hl' Hm' HM'. unfold single.
  destruct (Nat.eqb_spec l' l) as [->|Hne]; [destruct (Nat.eqb_spec m' m) as [->|Hne]|]; cbn [andb].
  - rewrite nth_upd_eq by now rewrite vec_length. reflexivity.
  - rewrite nth_upd_neq by (intros Ei; apply LM_inj in Ei; lia).
    rewrite nth_vec; auto. apply LM_lt; auto; apply (sh_mmax h Hsh).
  - rewrite nth_upd_neq by (intros Ei; apply LM_inj in Ei; lia).
    rewrite nth_vec; auto. apply LM_lt; auto; apply (sh_mmax h Hsh).
Qed.
End Props.

(** distinct harmonics use distinct coefficients, all inside the array (any arithmetic) *)
Theorem C35_layout lmax mmax l m l' m' : (mmax <= lmax)%nat -> (l <= lmax)%nat -> (m <= l)%nat -> (m <= mmax)%nat ->
  (l' <= lmax)%nat -> (m' <= l')%nat -> (m' <= mmax)%nat ->
  (LM lmax l m < nlm_calc lmax mmax)%nat /\ (LM lmax l m = LM lmax l' m' -> l = l' /\ m = m').
Proof. intros. split; [now apply LM_lt|]. intros. now apply (LM_inj lmax). Qed.

(** an order larger than the degree is not rejected: the result is another harmonic or a write out
    of bounds *)
Theorem C35_order_above_degree {F} {AF : Arith F} b (h : sht F) s l m :
  shapes h -> Sphr_of h s -> (l < m)%nat -> (m <= 2 * s_lmax h + 1)%nat ->
  compute_ylm b s l m = UB \/
  exists l' m', (l' <= s_lmax h)%nat /\ (m' <= l')%nat /\ (m' <= s_mmax h)%nat /\ (l', m') <> (l, m) /\
    compute_ylm b s l m = compute_ylm b s l' m'.
Proof.
  intros Hsh Hs Hlm Hm. destruct (lt_dec (LM (s_lmax h) l m) (nlm_calc (s_lmax h) (s_mmax h))) as [H|H].
  - right. destruct (LM_surj _ _ _ (sh_mmax h Hsh) H) as (l' & m' & ? & ? & ? & E).
    exists l', m'. repeat split; auto. { intros X; injection X; lia. }
    rewrite !(compute_ylm_ok b h s Hsh Hs); auto. { now rewrite E. } rewrite E. auto.
  - left. unfold compute_ylm. unfold Sphr_of in Hs. rewrite Sphere_make_ok in Hs. injection Hs as <-. cbn [sp_lmax sp_nYlm].
    rewrite vset_ub; [reflexivity|]. rewrite vec_length. lia.
Qed.
(** e.g. "l=0, m=1" is silently the axisymmetric harmonic of the highest degree *)
Theorem C35_alias {F} {AF : Arith F} b (s : sphere F) : (1 <= sp_lmax s)%nat ->
  compute_ylm b s 0 1 = compute_ylm b s (sp_lmax s) 0.
Proof.
  intros H. unfold compute_ylm.
  replace (LM (sp_lmax s) 0 1) with (LM (sp_lmax s) (sp_lmax s) 0); auto.
  pose proof (LM_double (sp_lmax s) 0 1). pose proof (LM_double (sp_lmax s) (sp_lmax s) 0). lia.
Qed.

(** ** C36 *)
(** lp(i) = exp(-40 (i/nl)^16) *)
Definition damp (L i : nat) : R := exp (-40 * (INR i / INR L) ^ 16).
Theorem C36_filter b h P s a v :
  lawful b h P -> Sphr_of h s -> real_spectrum a -> inside (s_lmax h) (s_mmax h) a ->
  sampled b h (real_field P (s_lmax h) (s_mmax h) a) v ->
  exists out, sp_filter b s v = Ok out /\
    sampled b h (real_field P (s_lmax h) (s_mmax h) (fun l m =>
      (damp (s_lmax h) l * damp (s_lmax h) m * fst (a l m), damp (s_lmax h) l * damp (s_lmax h) m * snd (a l m)))) out.
Proof.
  intros Hlaw Hs Ha Hi Hv. destruct (filter_R b h P s Hlaw Hs a v Ha Hv) as (out & E & Ho).
  exists out. split; auto. eapply sampled_ext; [|exact Ho]. intros th ph.
  apply (real_field_ext h P). intros l m Hl Hm HM.
  destruct (Nat.ltb_spec l (s_lmax h)), (Nat.ltb_spec m (s_mmax h)); cbn [andb]; auto;
    rewrite (Hi l m) by lia; cbn; f_equal; ring.
Qed.
Theorem C36_factors L : (1 <= L)%nat ->
  damp L 0 = 1 /\ (forall i, 0 < damp L i <= 1) /\ (forall i j, (i <= j)%nat -> damp L j <= damp L i) /\
  (forall l m l' m', (l <= l')%nat -> (m <= m')%nat -> damp L l' * damp L m' <= damp L l * damp L m).
Proof.
  intros HL. assert (HL0 : 0 < INR L) by (apply lt_0_INR; lia).
  assert (H0 : damp L 0 = 1). { unfold damp. simpl INR. replace (-40 * (0 / INR L) ^ 16) with 0 by (field; lra). apply exp_0. }
  assert (Hmono : forall i j, (i <= j)%nat -> damp L j <= damp L i).
  { intros i j Hij. unfold damp.
    assert ((INR i / INR L) ^ 16 <= (INR j / INR L) ^ 16).
    { apply pow_incr. split.
      - apply Rmult_le_pos; [apply pos_INR|]. left. now apply Rinv_0_lt_compat.
      - apply Rmult_le_compat_r; [left; now apply Rinv_0_lt_compat|]. now apply le_INR. }
    destruct (Rle_lt_or_eq_dec _ _ H) as [Hlt|Heq]; [left; apply exp_increasing; lra|rewrite Heq; lra]. }
  assert (Hr : forall i, 0 < damp L i <= 1).
  { intros i. split; [apply exp_pos|]. rewrite <- H0. apply Hmono. lia. }
  repeat split; auto; try apply Hr. intros l m l' m' Hl Hm.
  apply Rmult_le_compat; auto; left; apply Hr.
Qed.
(** the monopole is unchanged *)
Theorem C36_monopole b h P s x v : lawful b h P -> Sphr_of h s -> (1 <= s_lmax h)%nat -> (1 <= s_mmax h)%nat ->
  sampled b h (mode P 0 0 (x, 0)) v -> sp_filter b s v = Ok v.
Proof.
  intros Hlaw Hs HL HM Hv. set (L := s_lmax h) in *. set (M := s_mmax h) in *.
  assert (Hv' : sampled b h (real_field P L M (single 0 0 (x, 0))) v).
  { eapply sampled_ext; [|exact Hv]. intros; symmetry; apply (single_field h P 0 0 (x, 0)); lia. }
  destruct (C36_filter b h P s (single 0 0 (x, 0)) v) as (out & E & Ho); auto.
  - now apply single_real.
  - intros l m Hlm. unfold single. destruct (Nat.eqb_spec l 0), (Nat.eqb_spec m 0); cbn; auto. fold L M in Hlm. lia.
  - rewrite E. f_equal. apply (sampled_unique b h _ _ _ Ho). eapply sampled_ext; [|exact Hv'].
    intros th ph. fold L M. apply (real_field_ext h P). intros l m _ _ _. unfold single.
    destruct (Nat.eqb_spec l 0), (Nat.eqb_spec m 0); subst; cbn [andb fst snd]; try (f_equal; ring).
    rewrite (proj1 (C36_factors L HL)). f_equal; ring.
Qed.
